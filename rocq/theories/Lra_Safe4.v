(** Processing the newly assigned variables fails no assertion. *)
From Coq Require Import List Arith ZArith QArith Bool Lia Permutation Lqa.
From Verif Require Import Base Core_Model Analysis_Model Bool_Model Sat_Base Sat_Inv Sat_Trail Sort_Proofs
  Trail_Model Spec_Trail Trail_Proofs Solver_Model Spec_Theory Theory_Inv Theory_Bool Comb_Bcp Comb_Safe1
  Lincons_Model Spec_Lincons Lincons_Proofs Lincons_Proofs2 Lra_Model Spec_Lra Lra_Fm Lra_Bounds Lra_Hist Lra_Steps Lra_Keep
  Lra_Range Lra_Good Lra_Good2 Lra_Confl Lra_Watch Lra_Watch2 Lra_Safe2 Lra_Cut Lra_Cut2 Lra_Cut3 Lra_Safe3.
Import ListNotations.
Open Scope nat_scope.

Lemma LI_weak (Pb Pb' : nat -> Prop) td td' s t B : (forall j, In j td -> In j td') -> (forall j, Pb j -> Pb' j \/ In j td') ->
  LI Pb td s t B -> LI Pb' td' s t B.
Proof.
  intros H1 H2 [I1 I3 I4 I5 I6 I7 I8 I9 I10]. constructor; auto.
  - intros i Hi. destruct (I7 i Hi) as (A & A2 & A3 & A4). split; auto. split; auto. split; auto. destruct A4; auto.
  - intros i Hi. destruct (I9 i Hi) as [X|[X|X]]; auto.
Qed.
Lemma LI_idle Pb td s t B i : LI Pb (i :: td) s t B -> Mi td s t i -> Ui s t B i -> LI Pb td s t B.
Proof.
  intros [I1 I3 I4 I5 I6 I7 I8 I9 I10] HM HU. constructor; auto.
  - intros j Hj. destruct (Nat.eq_dec j i) as [->|N]; auto. destruct (I7 j Hj) as (A & A2 & A3 & A4). split; auto. split; auto. split; auto.
    destruct A4 as [A4|[A4|A4]]; auto. congruence.
  - intros j Hj. destruct (Nat.eq_dec j i) as [->|N]; auto. destruct (I9 j Hj) as [X|[X|[X|X]]]; auto. congruence.
Qed.
Lemma LI_update Pb td s t B B1 c : LI Pb (lord (lc_lit c) :: td) s t B -> stored s c -> lc_empty c = false -> Mi td s t (lord (lc_lit c)) ->
  bd_update s t c B = Ok B1 -> LI Pb td s t B1.
Proof.
  intros [I1 I3 I4 I5 I6 I7 I8 I9 I10] Hc He HM H. set (i := lord (lc_lit c)) in *.
  destruct (update_spec s t c B B1 I1 Hc H) as (y & U). pose proof (update_inv _ _ _ _ _ I1 Hc H) as L1.
  constructor; auto.
  - intros j Hj. destruct (Nat.eq_dec j i) as [->|N]; auto. destruct (I7 j Hj) as (A & A2 & A3 & A4). split; auto. split; auto. split; auto.
    destruct A4 as [A4|[A4|A4]]; auto. congruence.
  - intros j Hj. destruct (cutl_later t j) as (Lj & _ & Rj). apply (upd_Q s t c B B1 y); auto.
  - intros j Hj. destruct (Nat.eq_dec j i) as [->|N]; [left; apply (upd_now s t c B B1 y); auto|].
    destruct (I9 j Hj) as [X|[X|[X|X]]]; auto; [|congruence]. left. apply (upd_Ui s t c B B1 y); auto using tlater_refl.
  - apply (upd_fb s t c B B1 y); auto.
Qed.

(** ** a boolean variable *)
Lemma bool_var_safe Pb a t i : wsi a -> isC (l_st a) i -> mdef (t_bm t) i = true -> LI Pb [i] (l_st a) t (l_bd a) -> Mi [] (l_st a) t i ->
  lra_bool_var a t i <> UB /\ forall a' t', lra_bool_var a t i = Ok (a', t') ->
    LI Pb [] (l_st a') t' (l_bd a') /\ l_st a' = l_st a /\ l_watch a' = l_watch a /\ t' = t.
Proof.
  intros W Hi Db I HM. pose proof (ws_st a W) as HS. pose proof (I_t _ _ _ _ _ I) as T. unfold lra_bool_var. set (s := l_st a) in *. set (c := lc_get s i).
  pose proof (stored_get _ _ HS Hi) as Hc. fold c in Hc. pose proof (get_lord s i HS Hi) as El. fold c in El. pose proof Hi as He. unfold isC in He. fold c in He.
  assert (Ecv : lc_vars s c = cv s i) by reflexivity.
  rewrite He. cbn [negb assertb bind]. assert (Hf : fully_assigned s (t_qm t) c = forallb (mdef (t_qm t)) (cv s i)) by now apply full_cv.
  rewrite Hf. destruct (forallb (mdef (t_qm t)) (cv s i)) eqn:F.
  { assert (I' : LI Pb [lord (lc_lit c)] s t (l_bd a)) by now rewrite El.
    destruct (agree_assert Pb [] s t (l_bd a) c I' Hc He) as (o & -> & E); [now rewrite El|rewrite El; exact F|]. cbn [bind]. rewrite E. cbn [assertb bind].
    split; [discriminate|]. intros a' t' H. inversion H; subst a' t'. split; [|auto]. apply (LI_idle Pb [] s t (l_bd a) i); auto. apply Ui_full. now apply forallb_forall. }
  destruct HM as (O & Z & A & [(V1 & E1 & Z1)|[]]).
  pose proof (cv_ne s i HS Hi) as Hne. pose proof (vars_size s c HS Hc) as Hlen. rewrite Ecv in Hlen.
  destruct (cv s i) as [|v0 l] eqn:Ev; [congruence|]. unfold is_unit. rewrite He, Ecv. cbn [at_ nth_error value_of bind].
  destruct (mdef (t_qm t) v0) eqn:D0.
  { exfalso. apply tt_q in D0; auto. destruct (lv t v0) as [j|] eqn:Ej; [|congruence]. pose proof (tt_le _ _ _ T Ej) as Lj.
    assert (Bl : below t j (cv s i)) by (apply (Z1 v0 j); auto; [now rewrite Ev|lia]). apply below_def in Bl; auto. rewrite Ev in Bl. congruence. }
  assert (HM : Mi [] s t i) by (split; [auto|split; [auto|split; [auto|left; auto]]]).
  assert (Upd : (forall y, In y l -> mdef (t_qm t) y = true) ->
    (B <- bd_update s t c (l_bd a);; Ok (with_bd a B, t)) <> UB /\
    forall a' t', (B <- bd_update s t c (l_bd a);; Ok (with_bd a B, t)) = Ok (a', t') ->
      LI Pb [] (l_st a') t' (l_bd a') /\ l_st a' = s /\ l_watch a' = l_watch a /\ t' = t).
  { intros R. assert (Tot : bd_update s t c (l_bd a) <> UB) by (eapply update_tot; eauto; rewrite El; auto).
    destruct (bd_update s t c (l_bd a)) as [B1| |] eqn:EU; cbn [bind]; [|congruence|split; discriminate]. split; [discriminate|].
    intros a' t' H. inversion H; subst a' t'. cbn [l_st l_bd l_watch with_bd]. split; [|auto]. fold s.
    eapply (LI_update Pb [] s t (l_bd a) B1 c); eauto; rewrite El; auto. }
  destruct (lc_size c =? 1) eqn:E2.
  { apply Nat.eqb_eq in E2. cbn [bind]. apply Upd. destruct l; [easy|cbn in Hlen; lia]. }
  destruct l as [|v1 rest]. { apply Nat.eqb_neq in E2. cbn in Hlen. lia. }
  cbn [at_ nth_error value_of bind]. destruct (mdef (t_qm t) v1) eqn:D1.
  - apply Upd. intros y [<-|Hy]; auto. pose proof D1 as D1'. apply tt_q in D1'; auto. destruct (lv t v1) as [j|] eqn:Ej; [|congruence].
    pose proof (tt_le _ _ _ T Ej) as Lj. assert (Bl : below t j (skipn 2 (cv s i))) by (apply (V1 v1 j); auto; [rewrite Ev; cbn; auto|lia]).
    rewrite Ev in Bl. destruct (Bl y Hy) as (j' & Ej' & _). apply tt_q; auto. congruence.
  - split; [discriminate|]. intros a' t' H. inversion H; subst a' t'. split; [|auto]. apply (LI_idle Pb [] s t (l_bd a) i); auto.
    apply (Ui_two s t (l_bd a) i v0 v1); auto; rewrite ?Ev; cbn; auto.
    pose proof (cv_nodup s c HS Hc) as ND. rewrite El, Ev in ND. inversion ND. intros ->. cbn in *. tauto.
Qed.

(** ** frames *)
Lemma rw_cons s W qm w x s' W' w' rm : replace_watch s W qm w x = Ok (s', W', w', rm) -> st_cons s' = st_cons s.
Proof.
  destruct w as [c idx]. unfold replace_watch. intros H. binv H. destruct (_ <=? 1) in H; [binv H; now inversion H|]. binv H.
  destruct (_ && _) in H; [binv H; now inversion H|]. cbn zeta in H. binv H.
  assert (E : st_cons (if a0 =? x then s else cons_swap s c 0 1) = st_cons s) by (destruct (_ =? _); reflexivity).
  destruct (2 <? _) in H; [|inversion H; subst; exact E]. binv H. destruct o; [binv H|]; inversion H; subst; exact E.
Qed.
Lemma kept_bext s t B c t' B' : watch_kept s t B c = Ok (t', B') -> bext t t'.
Proof.
  unfold watch_kept. intros H. destruct (mdef _ _); destruct (fully_assigned _ _ _); binv H; inversion H; subst; try apply bext_refl.
  eapply bext_sem; eauto.
Qed.
Lemma loop_frame x : forall n s W t B don todo s' W' t' B', watch_loop n x s W t B don todo = Ok (s', W', t', B') ->
  bext t t' /\ st_cons s' = st_cons s.
Proof.
  induction n as [|n IH]; intros s W t B don todo s' W' t' B'; destruct todo as [|w todo]; cbn [watch_loop]; intros H; try discriminate.
  1,2: inversion H; subst; split; [apply bext_refl|auto].
  binv H. apply rw_cons in Eq. destruct b.
  - apply IH in H. destruct H as [H1 H2]. split; [auto|congruence].
  - binv H. apply kept_bext in Eq0. apply IH in H. destruct H as [H1 H2]. split; [eapply bext_trans; eauto|congruence].
Qed.

Definition ready (s : store) (t : trail) (v : var) : Prop :=
  match v with VBool i => isC s i /\ mdef (t_bm t) i = true | VRat x => mdef (t_qm t) x = true end.
Lemma rat_safe Pb a t x : wsi a -> mdef (t_qm t) x = true -> LI Pb (ords (l_watch a x)) (l_st a) t (l_bd a) -> WS (l_watch a) (l_st a) ->
  replace_watches a t x <> UB /\ forall a' t', replace_watches a t x = Ok (a', t') ->
    LI Pb [] (l_st a') t' (l_bd a') /\ WS (l_watch a') (l_st a') /\ bext t t' /\ st_cons (l_st a') = st_cons (l_st a).
Proof.
  intros W Hx I HW. unfold replace_watches. rewrite Hx. cbn [assertb bind].
  assert (HW' : WS (upd (l_watch a) x ([] ++ l_watch a x)) (l_st a)).
  { intros y. cbn [app]. unfold upd. destruct (Nat.eqb_spec y x) as [->|]; apply HW. }
  destruct (loop_safe Pb x (length (l_watch a x)) (l_st a) (l_watch a) t (l_bd a) [] (l_watch a x) Hx (ws_watch a W) I HW') as [L1 L2].
  destruct (watch_loop _ _ _ _ _ _ _ _) as [[[[s' W'] t1] B']| |] eqn:E; cbn [bind]; [|congruence|split; discriminate].
  split; [discriminate|]. intros a' t' H. inversion H; subst a' t'. cbn [l_st l_watch l_bd with_bd with_watch with_st].
  destruct (L2 _ _ _ _ eq_refl). split; auto. split; auto. eapply loop_frame; eauto.
Qed.
Lemma vars_safe : forall vs a t, wsi a -> LI (fun i => In (VBool i) vs) [] (l_st a) t (l_bd a) -> WS (l_watch a) (l_st a) ->
  (forall v, In v vs -> ready (l_st a) t v) ->
  lra_vars vs a t <> UB /\ forall a' t', lra_vars vs a t = Ok (a', t') -> LI (fun _ => False) [] (l_st a') t' (l_bd a') /\ WS (l_watch a') (l_st a').
Proof.
  induction vs as [|v vs IH]; intros a t W I HW HR; cbn [lra_vars].
  { split; [discriminate|]. intros a' t' H. inversion H; subst. auto. }
  assert (X : (match v with VBool i => lra_bool_var a t i | VRat x => replace_watches a t x end) <> UB /\
    forall a1 t1, (match v with VBool i => lra_bool_var a t i | VRat x => replace_watches a t x end) = Ok (a1, t1) ->
      LI (fun i => In (VBool i) vs) [] (l_st a1) t1 (l_bd a1) /\ WS (l_watch a1) (l_st a1) /\ bext t t1 /\ st_cons (l_st a1) = st_cons (l_st a)).
  { pose proof (HR v (or_introl eq_refl)) as Rv. destruct v as [i|x].
    - destruct Rv as [Hi Db].
      assert (I' : LI (fun j => In (VBool j) vs) [i] (l_st a) t (l_bd a)).
      { eapply LI_weak; [| |exact I]; [easy|]. intros j [E|Hj]; [injection E as ->; right; now left|auto]. }
      destruct (bool_var_safe _ a t i W Hi Db I' (I_m _ _ _ _ _ I i Hi)) as [B1 B2]. split; auto. intros a1 t1 H.
      destruct (B2 a1 t1 H) as (L & E1 & E2 & E3). split; [exact L|]. rewrite E1, E2, E3. split; [exact HW|]. split; [apply bext_refl|auto].
    - apply rat_safe; auto. eapply LI_weak; [| |exact I]; [easy|]. intros j [E|Hj]; [discriminate|auto]. }
  destruct X as [X1 X2].
  destruct (match v with VBool i => lra_bool_var a t i | VRat x => replace_watches a t x end) as [[a1 t1]| |] eqn:E; cbn [bind]; [|congruence|split; discriminate].
  destruct (X2 _ _ eq_refl) as (L1 & W1 & BX & EC).
  apply IH; auto.
  - apply (lra_vars_steps (fun _ => 0%Z) (fun _ => 0%Z) [v] a t a1 t1); auto. cbn [lra_vars]. rewrite E. reflexivity.
  - intros u Hu. specialize (HR u (or_intror Hu)). destruct u as [i|y]; cbn [ready] in *.
    + destruct HR as [H1 H2]. split; [now apply (isC_eq _ _ i EC)|]. now apply (bx_b _ _ BX).
    + now rewrite (bx_q _ _ BX).
Qed.
Lemma rat_vars_safe a t x : wsi a -> mdef (t_qm t) x = true -> LI (fun _ => False) (ords (l_watch a x)) (l_st a) t (l_bd a) -> WS (l_watch a) (l_st a) ->
  lra_vars [VRat x] a t <> UB /\ forall a' t', lra_vars [VRat x] a t = Ok (a', t') -> LI (fun _ => False) [] (l_st a') t' (l_bd a') /\ WS (l_watch a') (l_st a').
Proof.
  intros W Hx I HW. cbn [lra_vars]. destruct (rat_safe _ a t x W Hx I HW) as [X1 X2].
  destruct (replace_watches a t x) as [[a1 t1]| |]; cbn [bind]; [|congruence|split; discriminate]. split; [discriminate|].
  intros a' t' H. inversion H; subst. destruct (X2 _ _ eq_refl) as (L & WW & _). auto.
Qed.
