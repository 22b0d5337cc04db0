(** Following the watched variables of the linear constraints fails no assertion. *)
From Coq Require Import List Arith ZArith QArith Bool Lia Permutation Lqa.
From Verif Require Import Base Core_Model Analysis_Model Bool_Model Sat_Base Sat_Inv Sat_Trail Sort_Proofs
  Trail_Model Spec_Trail Trail_Proofs Solver_Model Spec_Theory Theory_Inv Theory_Bool Comb_Bcp Comb_Safe1
  Lincons_Model Spec_Lincons Lincons_Proofs Lincons_Proofs2 Lra_Model Spec_Lra Lra_Fm Lra_Bounds Lra_Hist Lra_Steps Lra_Keep
  Lra_Range Lra_Good Lra_Good2 Lra_Confl Lra_Watch Lra_Watch2 Lra_Safe2 Lra_Cut Lra_Cut2 Lra_Cut3.
Import ListNotations.
Open Scope nat_scope.

Lemma cv_nodup s c : sinv s -> stored s c -> NoDup (cv s (lord (lc_lit c))).
Proof.
  intros HS Hc. rewrite <- (proj1 (stored_cv s c HS Hc)), lc_vars_terms by auto. apply nt_nodup. now apply stored_norm.
Qed.

(** ** Bounds::update *)
Lemma update_tot s t c B x rest : sinv s -> stored s c -> lc_empty c = false -> mdef (t_bm t) (lord (lc_lit c)) = true ->
  lc_vars s c = x :: rest -> mdef (t_qm t) x = false -> (forall y, In y rest -> mdef (t_qm t) y = true) -> bd_update s t c B <> UB.
Proof.
  intros HS Hc He Db Ev Dx Dr. unfold bd_update. rewrite Db. cbn [assertb bind].
  pose proof Ev as Ev'. rewrite lc_vars_terms in Ev' by auto. destruct (lc_terms s c) as [|[y k] ts] eqn:Et; [discriminate|]. cbn [map fst] in Ev'. injection Ev' as -> Er.
  cbn [at_ nth_error value_of bind].
  assert (Hk : ~ (k == 0)%Q) by (eapply (coef_nz s c x); eauto; rewrite Et; now left).
  destruct (Qeq_bool k 0) eqn:Ek; [apply Qeq_bool_iff in Ek; contradiction|]. cbn [negb assertb bind].
  unfold lc_implied_value. rewrite Et. cbn [tl].
  destruct (eval_terms_ok (t_qm t) ts (lc_rhs c)) as (r & -> & _); [apply forallb_forall; intros v Hv; apply Dr; rewrite <- Er; exact Hv|]. cbn [bind].
  unfold eval_lit. rewrite Db. cbn [value_of bind]. match goal with |- context [if ?u then c else lc_neg c] => set (b := u) end. clearbody b. set (c1 := if b then c else lc_neg c).
  assert (He1 : lc_empty c1 = false) by (unfold c1; destruct b; exact He).
  assert (Ev1 : lc_vars s c1 = x :: rest) by (unfold c1; destruct b; exact Ev).
  assert (BU : forall v, bound_unit s t x v c1 <> UB /\ forall b1, bound_unit s t x v c1 = Ok b1 -> b_cons b1 = c1).
  { intros v. unfold bound_unit, bound_dep. rewrite He1, Ev1, Dx. cbn [negb assertb bind andb].
    assert (F : forallb (mdef (t_qm t)) rest = true) by (apply forallb_forall; exact Dr). rewrite F. cbn [assertb bind]. split; [discriminate|].
    intros b1 H. injection H as <-. reflexivity. }
  assert (K : (0 < k \/ k < 0)%Q). { destruct (Qlt_le_dec 0 k); [left; auto|right]. apply Qle_lt_or_eq in q. destruct q; [auto|contradiction]. }
  destruct (implies_eq c1) eqn:Ie.
  { apply bind_ub; [apply BU|]. intros b1 _. destruct (add_lower_bound _ _ _ _). destruct (add_upper_bound _ _ _ _). discriminate. }
  destruct (implies_neq c1) eqn:In_.
  { apply bind_ub; [apply BU|]. intros b1 E1. apply bind_ub; [|intros []; discriminate].
    unfold add_inequality. rewrite (proj2 (BU _) _ E1). unfold implies_neq in In_. rewrite In_. cbn [assertb bind].
    destruct (inequality _ _ _ _). match goal with |- (if ?u then _ else _) <> _ => destruct u end; discriminate. }
  destruct (implies_lb c1 k) eqn:Il.
  { apply bind_ub; [apply BU|]. intros b1 _. destruct (add_lower_bound _ _ _ _). discriminate. }
  assert (Iu : implies_ub c1 k = true).
  { unfold implies_eq, implies_neq, implies_lb, implies_ub in *. destruct (opred_eqb (lc_pred c1) PEq).
    - cbn [andb] in *. destruct (lneg (lc_lit c1)); discriminate.
    - destruct K as [K|K]; apply qltb_lt in K; rewrite K in *; destruct (lneg (lc_lit c1)); cbn in *; rewrite ?orb_true_r in *; auto; discriminate. }
  rewrite Iu. cbn [assertb bind]. apply bind_ub; [apply BU|]. intros b1 _. destruct (add_upper_bound _ _ _ _). discriminate.
Qed.

(** ** replace_watch *)
Lemma find_free_tot (qm : model Q) vs stop : forall fuel i, i < length vs -> 2 < length vs -> find_free fuel qm vs i stop <> UB.
Proof.
  induction fuel as [|f IH]; intros i Hi H2; cbn [find_free]; [discriminate|]. apply bind_ub; [now apply at_ub|]. intros v _.
  destruct (negb _); [discriminate|]. cbn zeta. destruct (_ =? stop); [discriminate|]. apply IH; [|auto]. destruct (Nat.leb_spec (length vs) (i + 1)); lia.
Qed.
Lemma find_free_idx (qm : model Q) vs stop : 2 <= stop -> stop < length vs -> forall fuel i o j, 2 <= i -> i < length vs ->
  find_free fuel qm vs i stop = Ok (o, j) -> 2 <= j < length vs.
Proof.
  intros H2 Hs. induction fuel as [|f IH]; intros i o j Hi Hl H; cbn [find_free] in H; [discriminate|]. binv H.
  destruct (negb _); [inversion H; subst; lia|]. cbn zeta in H. destruct (_ =? stop) eqn:E in H.
  - inversion H; subst. apply Nat.eqb_eq in E. lia.
  - eapply IH; [| |exact H]; destruct (Nat.leb_spec (length vs) (i + 1)); lia.
Qed.

Lemma rw_tot s W qm c idx x : sinv s -> stored s c -> lc_empty c = false -> mdef qm x = true -> let i := lord (lc_lit c) in
  In x (firstn 2 (cv s i)) -> (2 < lc_size c -> 2 <= idx < lc_size c) ->
  (forall v0 v1 rest, cv s i = v0 :: v1 :: rest -> mdef qm v0 = true -> mdef qm v1 = true -> forall v, In v rest -> mdef qm v = true) ->
  replace_watch s W qm (c, idx) x <> UB.
Proof.
  intros HS Hc He Hx i Hi Hidx Hall. destruct (stored_cv s c HS Hc) as [Ecv _]. fold i in Ecv.
  pose proof (vars_size s c HS Hc) as Hlen. rewrite Ecv in Hlen.
  unfold replace_watch. rewrite Ecv. destruct (cv s i) as [|v0 l] eqn:Ev; [destruct Hi|]. cbn [at_ nth_error value_of bind].
  destruct (Nat.leb_spec (lc_size c) 1) as [E1|E1].
  { destruct l; [|cbn in Hlen; lia]. destruct Hi as [->|[]]. rewrite Nat.eqb_refl. discriminate. }
  destruct l as [|v1 rest]; [cbn in Hlen; lia|]. cbn [at_ nth_error value_of bind].
  destruct (mdef qm v0 && mdef qm v1) eqn:Eaa.
  { apply andb_true_iff in Eaa. destruct Eaa as [D0 D1]. cbn [forallb]. rewrite D0, D1.
    assert (F : forallb (mdef qm) rest = true) by (apply forallb_forall; exact (Hall v0 v1 rest eq_refl D0 D1)). rewrite F. discriminate. }
  set (s1 := if v1 =? x then s else cons_swap s c 0 1).
  assert (S1 : sinv s1 /\ stored s1 c /\ exists u0, lc_vars s1 c = u0 :: x :: rest /\ mdef qm u0 = false).
  { unfold s1. destruct (Nat.eqb_spec v1 x) as [->|N].
    - split; auto. split; auto. exists v0. split; auto. rewrite Hx, andb_true_r in Eaa. exact Eaa.
    - destruct Hi as [->|[->|[]]]; [|congruence]. destruct (swap_sinv s c 0 1) as [A G]; auto; try lia. split; auto.
      split; [eapply stored_grows; eauto|]. exists v1. rewrite swap_vars, Ecv, swap01 by (auto; lia). split; auto. rewrite Hx in Eaa. exact Eaa. }
  clearbody s1. destruct S1 as (I1 & Hc1 & u0 & V1 & D0). rewrite V1. cbn [at_ nth_error value_of bind]. rewrite Nat.eqb_refl. cbn [assertb bind].
  destruct (Nat.ltb_spec 2 (lc_size c)) as [E2|E2]; [|discriminate]. destruct (Hidx E2) as [A1 A2].
  apply Nat.leb_le in A1. apply Nat.ltb_lt in A2. rewrite A1, A2. cbn [andb assertb bind]. apply Nat.leb_le in A1. apply Nat.ltb_lt in A2.
  cbn [length] in Hlen. apply bind_ub; [apply find_free_tot; cbn [length]; lia|]. intros [[j|] idx'] EF; [|discriminate].
  apply find_free_lt in EF; [|lia..]. destruct EF as (J0 & Hj & r & Hr & Dr). apply bind_ub; [|discriminate].
  cbn [length] in Hj. apply at_ub. rewrite swap_vars by (auto; lia). rewrite swap_nth_length, V1. cbn [length]. lia.
Qed.
Lemma rw_shape s W qm c idx x s' W' w' rm : sinv s -> stored s c -> mdef qm x = true -> let i := lord (lc_lit c) in
  (2 < lc_size c -> 2 <= idx < lc_size c) -> replace_watch s W qm (c, idx) x = Ok (s', W', w', rm) ->
  (2 < lc_size c -> 2 <= snd w' < lc_size c) /\
  (rm = false -> ((forall v, In v (cv s i) -> mdef qm v = true) /\ s' = s) \/
    exists u0 rest, cv s' i = u0 :: x :: rest /\ mdef qm u0 = false /\ forall v, In v rest -> mdef qm v = true) /\
  (rm = true -> In x (skipn 2 (cv s' i)) /\ forall r, In r (firstn 2 (cv s' i)) -> ~ In r (firstn 2 (cv s i)) -> mdef qm r = false /\ In r (skipn 2 (cv s i))).
Proof.
  intros HS Hc Hx i Hidx H. pose proof H as H0. apply replace_watch_spec in H0; auto. fold i in H0. cbn zeta in H0. destruct H0 as (_ & _ & _ & _ & H0).
  destruct (stored_cv s c HS Hc) as [Ecv _]. fold i in Ecv. pose proof (vars_size s c HS Hc) as Hlen. rewrite Ecv in Hlen.
  unfold replace_watch in H. rewrite Ecv in H. binv H. apply at_nth in Eq.
  destruct (lc_size c <=? 1) eqn:E1.
  { binv H. inversion H; subst s' W' w' rm. apply Nat.leb_le in E1. split; [lia|]. split; [|discriminate]. intros _. left. split; auto.
    apply Nat.eqb_eq in As. destruct (cv s i) as [|u [|u' l]]; [discriminate Eq| |cbn in Hlen; lia]. cbn in Eq. injection Eq as ->. intros v [<-|[]]. congruence. }
  apply Nat.leb_gt in E1. binv H. apply at_nth in Eq0.
  destruct (cv s i) as [|v0 [|v1 rest]] eqn:Ev; [discriminate|cbn in Eq0; discriminate|].
  cbn in Eq, Eq0. injection Eq as <-. injection Eq0 as <-.
  destruct (mdef qm v0 && mdef qm v1) eqn:Eaa.
  { binv H. inversion H; subst s' W' w' rm. split; [auto|]. split; [|discriminate]. intros _. left. split; auto. rewrite forallb_forall in As. exact As. }
  cbn zeta in H. set (s1 := if v1 =? x then s else cons_swap s c 0 1) in *.
  binv H. apply Nat.eqb_eq in As. subst a. apply at_nth in Eq.
  assert (S1 : sinv s1 /\ stored s1 c /\ (x = v0 \/ x = v1) /\ exists u0, cv s1 i = u0 :: x :: rest /\ (u0 = v0 \/ u0 = v1) /\ mdef qm u0 = false).
  { revert Eq. unfold s1. destruct (Nat.eqb_spec v1 x) as [E0|E0]; intros Eq.
    - subst v1. split; auto. split; auto. split; auto. exists v0. split; [exact Ev|]. split; auto.
      rewrite Hx, andb_true_r in Eaa. exact Eaa.
    - destruct (swap_sinv s c 0 1) as [A G]; auto; try lia.
      pose proof (stored_grows _ _ c G Hc) as Hc1. split; auto. split; auto.
      rewrite swap_vars, Ecv, swap01 in Eq by (auto; lia). cbn in Eq. injection Eq as ->. split; auto.
      exists v1. unfold i. rewrite <- (proj1 (stored_cv _ c A Hc1)), swap_vars, Ecv, swap01 by (auto; lia). split; auto. split; auto.
      rewrite Hx in Eaa. exact Eaa. }
  destruct S1 as (I1 & Hc1 & X1 & u0 & V1 & U0 & D0). clearbody s1. clear Eq.
  assert (Ecv1 : lc_vars s1 c = u0 :: x :: rest) by (rewrite (proj1 (stored_cv s1 c I1 Hc1)); exact V1).
  cbn [length] in Hlen. destruct (Nat.ltb_spec 2 (lc_size c)) as [E2|E2].
  2:{ inversion H; subst s' W' w' rm. split; [lia|]. split; [|discriminate]. intros _. right. exists u0, rest. split; auto. split; auto.
      destruct rest; cbn in *; [easy|lia]. }
  rewrite Ecv1 in H. binv H. destruct (Hidx E2) as [A1 A2].
  pose proof Eq as Er. apply find_free_idx in Er; [|cbn [length]; lia..]. cbn [length] in Er.
  destruct o as [j|].
  - pose proof Eq as EqF. apply find_free_lt in EqF; [|lia..]. destruct EqF as (_ & Hj & r & Hr & Dr). cbn [length] in Hj.
    assert (Hj2 : 2 <= j).
    { assert (G : forall f p, 2 <= p -> forall o q, find_free f qm (u0 :: x :: rest) p idx = Ok (Some o, q) -> 2 <= o).
      { induction f as [|f IH]; intros p Hp o q HF; cbn [find_free] in HF; [discriminate|]. binv HF.
        destruct (negb _); [inversion HF; subst; exact Hp|]. cbn zeta in HF. destruct (_ =? idx) in HF; [discriminate|].
        eapply IH; [|exact HF]. match goal with |- 2 <= ?e => destruct (length (u0 :: x :: rest) <=? p + 1); lia end. }
      exact (G _ _ A1 _ _ Eq). }
    destruct (swap_sinv s1 c 1 j) as [A G]; auto; try lia.
    pose proof (stored_grows _ _ c G Hc1) as Hc2.
    assert (V2 : lc_vars (cons_swap s1 c 1 j) c = u0 :: r :: set_nth (j - 2) x rest).
    { rewrite swap_vars, Ecv1 by (auto; lia). now apply swap1j. }
    rewrite V2 in H. cbn [at_ nth_error value_of bind] in H. inversion H; subst s' W' w' rm. cbn [snd]. split; [lia|]. split.
    + intros Hn. exfalso. destruct (Nat.eqb_spec r x) as [X0|X0] in Hn; [rewrite X0 in Dr; congruence|discriminate].
    + intros _. rewrite (proj1 (stored_cv _ c A Hc2)) in V2. fold i in V2. rewrite V2. cbn [skipn firstn].
      assert (Hr' : nth_error rest (j - 2) = Some r) by (destruct j as [|[|j]]; [lia|lia|]; cbn in Hr; cbn [Nat.sub]; now rewrite Nat.sub_0_r).
      split.
      * apply nth_error_In with (n := j - 2). apply nth_error_set_nth_eq. apply nth_error_Some. congruence.
      * intros r' [<-|[<-|[]]] N; [exfalso; apply N; cbn; destruct U0; auto|]. split; auto. eapply nth_error_In; eauto.
  - inversion H; subst s' W' w' rm. cbn [snd]. split; [lia|]. split; [|discriminate]. intros _. right. exists u0, rest. split; auto. split; auto.
    destruct H0 as [(_ & _ & _ & _ & H0)|(H0 & _)]; [exact H0|discriminate].
Qed.

(** ** the watch lists *)
Definition WE (s : store) (y : nat) (w : lcons * nat) : Prop :=
  stored s (fst w) /\ lc_empty (fst w) = false /\ In y (firstn 2 (cv s (lord (lc_lit (fst w))))) /\
  (2 < lc_size (fst w) -> 2 <= snd w < lc_size (fst w)).
Definition WS (W : nat -> list (lcons * nat)) (s : store) : Prop := forall y, NoDup (ords (W y)) /\ forall w, In w (W y) -> WE s y w.
(** at most one rational variable at each level *)
Definition One (t : trail) : Prop := forall x y k, lv t x = Some k -> lv t y = Some k -> x = y.
(** the first variable of a constraint is assigned last *)
Definition Zi (k : nat) (s : store) (t : trail) (i : nat) : Prop :=
  forall v0 j, hd_error (cv s i) = Some v0 -> lv t v0 = Some j -> j < k -> below t j (cv s i).

Lemma last_perm {A} (l : list A) d : Permutation (match l with [] => [] | _ => last l d :: removelast l end) l.
Proof.
  destruct l as [|a l]; [constructor|]. rewrite (app_removelast_last (l := a :: l) d) at 3 by discriminate.
  apply Permutation_cons_append.
Qed.
Lemma WE_same s s' y w : grows s s' -> cv s' (lord (lc_lit (fst w))) = cv s (lord (lc_lit (fst w))) -> WE s y w -> WE s' y w.
Proof. intros G E (A & B & C & D). split; [eapply stored_grows; eauto|]. split; auto. rewrite E. auto. Qed.
Lemma stored_isC s c : sinv s -> stored s c -> lc_empty c = false -> isC s (lord (lc_lit c)).
Proof. intros HS Hc. now apply stored_cv. Qed.
Lemma first2 (l : list nat) a b r : NoDup l -> In a (firstn 2 l) -> In b (firstn 2 l) -> a <> b -> In r (firstn 2 l) -> r = a \/ r = b.
Proof.
  destruct l as [|u [|v l]]; cbn; try tauto; intros N; [|intuition congruence]. intros [<-|[]] [<-|[]]; congruence.
Qed.

Lemma WS_rm s W qm c idx x s' W' w' don todo todo' : sinv s -> sinv s' -> grows s s' -> stored s c -> lc_empty c = false -> mdef qm x = true ->
  replace_watch s W qm (c, idx) x = Ok (s', W', w', true) -> Permutation todo' todo ->
  WS (upd W x (don ++ (c, idx) :: todo)) s -> WS (upd W' x (don ++ todo')) s'.
Proof.
  intros HS HS' G Hc He Hx H P HW. set (i := lord (lc_lit c)).
  assert (Hcw : WE s x (c, idx)) by (specialize (HW x); unfold upd in HW; rewrite Nat.eqb_refl in HW; apply HW, in_app_iff; right; now left).
  destruct Hcw as (_ & _ & Hx2 & Hidx). cbn [fst snd] in Hx2, Hidx. fold i in Hx2.
  pose proof (rw_shape _ _ _ _ _ _ _ _ _ _ HS Hc Hx Hidx H) as (SI & _ & _).
  pose proof (replace_watch_spec _ _ _ _ _ _ _ _ _ _ HS Hc Hx H) as SP. cbn zeta in SP. fold i in SP.
  destruct SP as (Ew & C1 & Oth & M1 & [(X & _)|(_ & v0 & r & F1 & D0 & Dr & I0 & ->)]); [discriminate|].
  assert (Nr : r <> x) by congruence. assert (N0 : v0 <> x) by congruence.
  assert (Hc' : stored s' c) by (eapply stored_grows; eauto).
  assert (N0r : v0 <> r).
  { pose proof (cv_nodup s' c HS' Hc') as ND. fold i in ND. rewrite <- (firstn_skipn 2 (cv s' i)), F1 in ND. inversion ND. intros ->. cbn in *. tauto. }
  assert (Rr : ~ In r (firstn 2 (cv s i))).
  { intros X. destruct (first2 _ x v0 r (cv_nodup s c HS Hc) Hx2 I0 ltac:(auto) X); congruence. }
  assert (KW : forall y w, WE s y w -> lord (lc_lit (fst w)) <> i -> WE s' y w).
  { intros y w Hw N. apply (WE_same s s'); auto. apply Oth; auto. destruct Hw as (A & B & _). now apply stored_isC. }
  intros y. unfold upd. destruct (Nat.eqb_spec y x) as [->|Ny].
  - pose proof (HW x) as [ND HWx]. unfold upd in ND, HWx. rewrite Nat.eqb_refl in ND, HWx. rewrite ords_app in ND. cbn [ords map fst] in ND. fold i in ND. fold (ords todo) in ND.
    assert (ND' : NoDup (ords don ++ ords todo')).
    { apply NoDup_remove_1 in ND. eapply Permutation_NoDup; [|exact ND]. apply Permutation_app_head, Permutation_map, Permutation_sym, P. }
    split; [now rewrite ords_app|]. intros w Hw. apply KW.
    + apply HWx. apply in_app_iff. apply in_app_iff in Hw. destruct Hw as [Hw|Hw]; auto. right. right. eapply Permutation_in; eauto.
    + apply NoDup_remove_2 in ND. intros E. apply ND. apply in_app_iff. apply in_app_iff in Hw. destruct Hw as [Hw|Hw].
      * left. rewrite <- E. unfold ords. now apply (in_map (fun w => lord (lc_lit (fst w)))).
      * right. rewrite <- E. unfold ords. apply (in_map (fun w => lord (lc_lit (fst w)))). eapply Permutation_in; eauto.
  - pose proof (HW y) as [ND HWy]. unfold upd in ND, HWy. destruct (Nat.eqb_spec y x); [congruence|]. destruct (Nat.eqb_spec y r) as [->|Nyr].
    + assert (Ni : ~ In i (ords (W r))).
      { intros X. unfold ords in X. apply in_map_iff in X. destruct X as (w & E & Hw). destruct (HWy w Hw) as (_ & _ & X & _). rewrite E in X. auto. }
      split.
      * rewrite ords_app. cbn [ords map]. rewrite Ew. fold i. eapply Permutation_NoDup; [apply Permutation_cons_append|]. constructor; auto.
      * intros w Hw. apply in_app_iff in Hw. destruct Hw as [Hw|[<-|[]]].
        -- apply KW; auto. intros E. apply Ni. rewrite <- E. unfold ords. now apply (in_map (fun w => lord (lc_lit (fst w)))).
        -- unfold WE. rewrite Ew. split; auto. split; auto. split; [|exact SI]. fold i. rewrite F1. cbn. auto.
    + split; auto. intros w Hw. specialize (HWy w Hw). destruct (Nat.eq_dec (lord (lc_lit (fst w))) i) as [E|N]; [|now apply KW].
      destruct HWy as (A & B & C & D). split; [eapply stored_grows; eauto|]. split; auto. split; auto. rewrite E in *. rewrite F1.
      destruct (first2 _ x v0 y (cv_nodup s c HS Hc) Hx2 I0 ltac:(auto) C) as [->| ->]; [congruence|]. cbn. auto.
Qed.
Lemma WS_keep s W qm c idx x s' W' w' don todo : sinv s -> sinv s' -> grows s s' -> stored s c -> mdef qm x = true ->
  replace_watch s W qm (c, idx) x = Ok (s', W', w', false) ->
  WS (upd W x (don ++ (c, idx) :: todo)) s -> WS (upd W' x ((don ++ [w']) ++ todo)) s'.
Proof.
  intros HS HS' G Hc Hx H HW. set (i := lord (lc_lit c)).
  assert (Hcw : WE s x (c, idx)) by (specialize (HW x); unfold upd in HW; rewrite Nat.eqb_refl in HW; apply HW, in_app_iff; right; now left).
  destruct Hcw as (_ & He & Hx2 & Hidx). cbn [fst snd] in He, Hx2, Hidx. fold i in Hx2.
  pose proof (rw_shape _ _ _ _ _ _ _ _ _ _ HS Hc Hx Hidx H) as (SI & _ & _).
  pose proof (replace_watch_spec _ _ _ _ _ _ _ _ _ _ HS Hc Hx H) as SP. cbn zeta in SP. fold i in SP.
  destruct SP as (Ew & C1 & Oth & M1 & [(_ & -> & F1 & F2 & _)|(X & _)]); [|discriminate].
  assert (KW : forall y w, WE s y w -> WE s' y w).
  { intros y w Hw. destruct Hw as (A & B & C & D). split; [eapply stored_grows; eauto|]. split; auto. split; auto.
    destruct (Nat.eq_dec (lord (lc_lit (fst w))) i) as [E|N]; [rewrite E in *; now apply F1|]. rewrite Oth; auto. now apply stored_isC. }
  intros y. pose proof (HW y) as [ND HWy]. unfold upd in ND, HWy |- *. destruct (Nat.eqb_spec y x) as [Ey|Ny]; [subst y|split; auto].
  rewrite <- app_assoc. cbn [app]. rewrite ords_app in *. cbn [ords map fst] in ND |- *. rewrite Ew. split; [exact ND|].
  intros w Hw. apply in_app_iff in Hw. destruct Hw as [Hw|[<-|Hw]].
  - apply KW, HWy, in_app_iff. auto.
  - unfold WE. rewrite Ew. split; [eapply stored_grows; eauto|]. split; auto. split; [|exact SI]. fold i. now apply F1.
  - apply KW, HWy, in_app_iff. right. now right.
Qed.

(** ** the state between two steps of the loop *)
Definition Mi (td : list nat) (s : store) (t : trail) (i : nat) : Prop :=
  OKi (dl t) s t i /\ Zi (dl t) s t i /\ Ai (S (dl t)) s t i /\ ((Vi (S (dl t)) s t i /\ Ei (S (dl t)) s t i /\ Zi (S (dl t)) s t i) \/ In i td).
Record LI (Pb : nat -> Prop) (td : list nat) (s : store) (t : trail) (B : bnds) : Prop := {
  I_l : linv s t B; I_o : One t; I_t : TT t; I_r : R1 t; I_n : length (st_cons s) <= mnum (t_bm t);
  I_m : forall i, isC s i -> Mi td s t i;
  I_q : forall j, j < dl t -> Qi s (cutl t j) B;
  I_u : forall i, isC s i -> Ui s t B i \/ Pb i \/ In i td;
  I_f : forall x, fe s t B x \/ In x (bd_upd B) }.

Lemma Zi_mono k k' s t i : k <= k' -> Zi k' s t i -> Zi k s t i.
Proof. intros L H v0 j H1 H2 H3. apply (H v0 j); auto. lia. Qed.
Lemma bx_Zi k s t t' i : bx t t' -> Zi k s t i -> Zi k s t' i.
Proof. intros B H v0 j H1 H2 H3. rewrite (bx_lv t t') in H2 by auto. apply (bx_below t t'); auto. eauto. Qed.
Lemma free_Zi k s t i u l : cv s i = u :: l -> lv t u = None -> Zi k s t i.
Proof. intros E N v0 j H1. rewrite E in H1. cbn in H1. injection H1 as <-. congruence. Qed.
Lemma full_Zi s t i : TT t -> (forall v, In v (cv s i) -> mdef (t_qm t) v = true) -> Zi (dl t) s t i -> Zi (S (dl t)) s t i.
Proof.
  intros T F H v0 j H1 H2 H3. destruct (Nat.eq_dec j (dl t)) as [->|N]; [|apply (H v0 j); auto; lia].
  apply def_below; auto. now apply forallb_forall.
Qed.
Lemma undef_lv t u : TT t -> mdef (t_qm t) u = false -> lv t u = None.
Proof. intros T D. destruct (lv t u) eqn:E; auto. exfalso. assert (X : lv t u <> None) by congruence. apply tt_q in X; auto. congruence. Qed.
Lemma Mi_re td td' s s' t i : sinv s -> sinv s' -> grows s s' -> isC s i -> cv s' i = cv s i -> (In i td -> In i td') -> Mi td s t i -> Mi td' s' t i.
Proof.
  intros S1 S2 G C E HI (A & A2 & A3 & D). assert (X : forall v, In v (cv s' i) <-> In v (cv s i)) by (rewrite E; tauto).
  assert (X1 : forall v, In v (firstn 2 (cv s' i)) <-> In v (firstn 2 (cv s i))) by (rewrite E; tauto).
  assert (X2 : skipn 2 (cv s' i) = skipn 2 (cv s i)) by (rewrite E; auto).
  assert (Z : forall k, Zi k s t i -> Zi k s' t i) by (unfold Zi; intros k; now rewrite E).
  split; [eapply (re_OKi _ s); eauto|]. split; [auto|]. split; [eapply (re_Ai _ s); eauto|].
  destruct D as [(B1 & B2 & B3)|D]; [left; split; [eapply (re_Vi _ s); eauto|split; [eapply (re_Ei _ s); eauto|auto]]|right; auto].
Qed.
Lemma Mi_bx td td' s t t' i : TT t -> bx t t' -> t_lvl t' (VBool i) = t_lvl t (VBool i) -> (In i td -> In i td') -> Mi td s t i -> Mi td' s t' i.
Proof.
  intros T B E HI ((A & A1 & A1') & A2 & A3 & D). pose proof (bx_dl _ _ B) as Dl. unfold Mi. rewrite Dl.
  split; [split; [eapply bx_Vi; eauto|split; [eapply bx_Ei; eauto|eapply bx_Ai; eauto]]|].
  split; [eapply bx_Zi; eauto|]. split; [eapply bx_Ai; eauto|].
  destruct D as [(B1 & B2 & B3)|D]; [left; split; [eapply bx_Vi; eauto|split; [eapply bx_Ei; eauto|eapply bx_Zi; eauto]]|right; auto].
Qed.
Lemma Mi_done td s t i : OKi (S (dl t)) s t i -> Zi (S (dl t)) s t i -> Mi td s t i.
Proof.
  intros O Z. split; [eapply OKi_mono; [|exact O]; lia|]. split; [eapply Zi_mono; [|exact Z]; lia|]. destruct O as (A & A2 & A3). split; auto.
Qed.

Lemma LI_swap Pb td td' s s' t B i : LI Pb td s t B -> linv s' t B -> grows s s' -> st_cons s' = st_cons s ->
  (forall j, isC s j -> j <> i -> cv s' j = cv s j) -> (forall j, j <> i -> In j td -> In j td') ->
  Mi td' s' t i -> Ui s' t B i \/ Pb i \/ In i td' -> LI Pb td' s' t B.
Proof.
  intros [I1 I3 I4 I5 I6 I7 I8 I9 I10] L' G EC Oth HT HM HU. pose proof (li_s _ _ _ I1) as HS. pose proof (li_s _ _ _ L') as HS'.
  assert (HiC : forall j, isC s' j <-> isC s j) by (intros; now apply isC_eq).
  constructor; auto.
  - now rewrite EC.
  - intros j Hj. apply HiC in Hj. destruct (Nat.eq_dec j i) as [->|N]; [exact HM|]. eapply (Mi_re td td' s s'); auto.
  - intros j Hj. eapply (kt_Q j s s' t t); auto using kt_refl. intros k Hk. left. now apply HiC.
  - intros j Hj. apply HiC in Hj. destruct (Nat.eq_dec j i) as [->|N]; [exact HU|]. destruct (I9 j Hj) as [U|[U|U]]; auto.
    left. apply (Ui_env s s' t t); auto using bext_refl, tlater_refl.
  - intros x. destruct (I10 x); auto. left. apply (fe_env s s' t t); auto using bext_refl, tlater_refl.
Qed.

(** a constraint that stays in the list *)
Definition settled (s : store) (t : trail) (x i : nat) : Prop :=
  (forall v, In v (cv s i) -> mdef (t_qm t) v = true) \/
  exists u0 rest, cv s i = u0 :: x :: rest /\ mdef (t_qm t) u0 = false /\ forall v, In v rest -> mdef (t_qm t) v = true.

Section Kept.
Variables (Pb : nat -> Prop) (td : list nat) (s : store) (t : trail) (B : bnds) (c : lcons) (x : nat).
Hypothesis I : LI Pb (lord (lc_lit c) :: td) s t B.
Hypothesis Hc : stored s c.
Hypothesis He : lc_empty c = false.
Hypothesis Hx : mdef (t_qm t) x = true.
Hypothesis Hs : settled s t x (lord (lc_lit c)).
Let i := lord (lc_lit c).
Let HS : sinv s := li_s _ _ _ (I_l _ _ _ _ _ I).
Let T : TT t := I_t _ _ _ _ _ I.

Lemma kept_full : fully_assigned s (t_qm t) c = forallb (mdef (t_qm t)) (cv s i).
Proof. unfold fully_assigned. rewrite He. now rewrite (proj1 (stored_cv s c HS Hc)). Qed.
Lemma kept_unit : forallb (mdef (t_qm t)) (cv s i) = false -> exists u0 rest, cv s i = u0 :: rest /\ mdef (t_qm t) u0 = false /\
  (forall v, In v rest -> mdef (t_qm t) v = true) /\ is_unit s (t_qm t) c = Ok true.
Proof.
  intros F. destruct Hs as [Ha|(u0 & rest & E & D & R)].
  { exfalso. assert (X : forallb (mdef (t_qm t)) (cv s i) = true) by (apply forallb_forall; exact Ha). congruence. }
  fold i in E. exists u0, (x :: rest). split; auto. split; auto. split; [intros v [<-|Hv]; auto|].
  unfold is_unit. rewrite He, (proj1 (stored_cv s c HS Hc)). fold i. rewrite E. cbn [at_ nth_error value_of bind]. rewrite D.
  destruct (lc_size c =? 1); auto. now rewrite Hx.
Qed.
Lemma agree_assert : mdef (t_bm t) i = true -> forallb (mdef (t_qm t)) (cv s i) = true ->
  exists o, lc_eval_opt s (t_qm t) c = Ok o /\ obool_eqb o (eval_lit (t_bm t) (lc_lit c)) = true.
Proof.
  intros Db F. unfold lc_eval_opt. rewrite (proj1 (stored_cv s c HS Hc)). fold i. rewrite F.
  destruct (lc_eval_tot s (t_qm t) c HS) as (b & E); [rewrite (proj1 (stored_cv s c HS Hc)); fold i; now apply forallb_forall|].
  rewrite E. cbn [bind]. exists (Some b). split; auto.
  assert (A : agree s t i).
  { destruct (I_m _ _ _ _ _ I i) as (_ & _ & A & _); [now apply stored_isC|]. apply tt_b in Db; auto. destruct (t_lvl t (VBool i)) as [k|] eqn:Ek; [|congruence].
    pose proof (tt_le _ _ _ T Ek). apply (A (dl t) k); auto; [lia|now apply def_below]. }
  unfold agree in A. unfold i in A. rewrite <- (eval_holds s (t_qm t) c _ HS Hc E) in A. fold i in A. unfold eval_lit. fold i. rewrite Db. cbn [obool_eqb].
  destruct b, (mval (t_bm t) i), (lneg (lc_lit c)); cbn in *; auto; intuition congruence.
Qed.
Lemma kept_tot : watch_kept s t B c <> UB.
Proof.
  unfold watch_kept. rewrite kept_full. fold i. destruct (mdef (t_bm t) i) eqn:Db; destruct (forallb (mdef (t_qm t)) (cv s i)) eqn:F.
  - destruct (agree_assert Db F) as (o & -> & E). cbn [bind]. rewrite E. discriminate.
  - destruct (kept_unit F) as (u0 & rest & E & D & R & ->). cbn [bind assertb]. apply bind_ub; [|discriminate].
    eapply update_tot; eauto. now rewrite (proj1 (stored_cv s c HS Hc)).
  - apply bind_ub; [|discriminate]. apply sem_tot; auto. rewrite (proj1 (stored_cv s c HS Hc)). now apply forallb_forall.
  - destruct (kept_unit F) as (u0 & rest & E & D & R & ->). discriminate.
Qed.
Lemma kept_LI t1 B1 : watch_kept s t B c = Ok (t1, B1) -> LI Pb td s t1 B1.
Proof.
  intros H. pose proof I as [I1 I3 I4 I5 I6 I7 I8 I9 I10].
  assert (HiC : isC s i) by now apply stored_isC.
  assert (Hne : cv s i <> []) by now apply cv_ne.
  assert (L1 : linv s t1 B1).
  { apply (watch_kept_steps (fun _ => 0%Z) (fun _ => 0%Z)) in H; auto. apply linv_steps in H; auto. }
  assert (Sk : forall v, In v (skipn 2 (cv s i)) -> mdef (t_qm t) v = true).
  { intros v Hv. destruct Hs as [Ha|(u0 & rest & E & D & R)]; fold i in Ha || fold i in E.
    - apply Ha. rewrite <- (firstn_skipn 2 (cv s i)). apply in_app_iff. auto.
    - rewrite E in Hv. auto. }
  assert (Zf : Zi (S (dl t)) s t i).
  { destruct Hs as [Ha|(u0 & rest & E & D & R)]; fold i in Ha || fold i in E.
    - apply full_Zi; auto. apply (I7 i HiC).
    - eapply free_Zi; [exact E|]. now apply undef_lv. }
  pose proof H as HK. apply (watch_kept_ok (mkDb [] []) (fun _ => False)) in HK; auto; [|apply (I7 i HiC)]. destruct HK as (BX & T1 & _ & OK1 & Oth). fold i in OK1, Oth.
  pose proof (bx_dl _ _ BX) as Dl.
  assert (HM : forall j, isC s j -> Mi td s t1 j).
  { intros j Hj. destruct (Nat.eq_dec j i) as [->|N].
    - apply Mi_done; rewrite Dl; auto. eapply bx_Zi; eauto.
    - apply (Mi_bx (i :: td) td s t t1); auto. intros [E|E]; [exfalso; apply N; symmetry; exact E|auto]. }
  assert (HO : One t1) by (intros a b k; rewrite !(bx_lv t t1) by auto; apply I3).
  assert (HR : R1 t1) by (intros y; rewrite (bx_lv t t1) by auto; apply I5).
  assert (HN : length (st_cons s) <= mnum (t_bm t1)) by (rewrite (bx_num _ _ BX); auto).
  assert (Idle : t1 = t -> B1 = B -> Ui s t B i -> LI Pb td s t1 B1).
  { intros -> -> U. constructor; auto. intros j Hj. destruct (Nat.eq_dec j i) as [->|N]; auto. destruct (I9 j Hj) as [X|[X|[X|X]]]; auto. exfalso. apply N. symmetry. exact X. }
  revert H. unfold watch_kept. rewrite kept_full. fold i. intros H. destruct (mdef (t_bm t) i) eqn:Db; destruct (forallb (mdef (t_qm t)) (cv s i)) eqn:F.
  - binv H. inversion H; subst t1 B1. apply Idle; auto. apply Ui_full. now apply forallb_forall.
  - binv H. inversion H; subst t1 a0. clear Idle.
    destruct (update_spec s t c B B1 I1 Hc Eq0) as (y & U).
    constructor; auto.
    + intros j Hj. destruct (cutl_later t j) as (Lj & _ & Rj). apply (upd_Q s t c B B1 y); auto.
    + intros j Hj. destruct (Nat.eq_dec j i) as [->|N]; [left; apply (upd_now s t c B B1 y); auto|].
      destruct (I9 j Hj) as [X|[X|[X|X]]]; auto; [|exfalso; apply N; symmetry; exact X]. left. apply (upd_Ui s t c B B1 y); auto using tlater_refl.
    + apply (upd_fb s t c B B1 y); auto.
  - binv H. inversion H; subst a B1. clear Idle.
    destruct (sem_ok s t c t1 HS Hc Hne T I5 Eq) as (k & xv & S1 & S2 & S3 & S4 & S5 & S6). fold i in S1, S2, S3, S5, S6.
    pose proof (lx_step t i None k _ t1 T S1 S5) as LX. destruct LX as [LX1 LX2 LX3 LX4]. pose proof (Build_lx t t1 LX1 LX2 LX3 LX4) as LX.
    constructor; auto.
    + intros j Hj. rewrite Dl in Hj. apply (kt_Q j s s t t1); auto using grows_refl. now apply bx_kt.
    + intros j Hj. destruct (Nat.eq_dec j i) as [->|N].
      * left. apply Ui_full. intros v Hv. rewrite (bx_q _ _ LX1). rewrite forallb_forall in F. auto.
      * destruct (I9 j Hj) as [X|[X|[X|X]]]; auto; [|exfalso; apply N; symmetry; exact X]. left. apply (Ui_env s s t t1); auto using grows_refl.
        rewrite !tt_b by auto. now rewrite Oth.
    + intros y. destruct (I10 y); auto. left. apply (fe_env s s t t1); auto using grows_refl.
  - binv H. inversion H; subst t1 B1. apply Idle; auto. now apply Ui_undef.
Qed.
End Kept.

Lemma two_all s t i v0 v1 rest : TT t -> One t -> NoDup (cv s i) -> Vi (dl t) s t i -> cv s i = v0 :: v1 :: rest ->
  mdef (t_qm t) v0 = true -> mdef (t_qm t) v1 = true -> forall v, In v rest -> mdef (t_qm t) v = true.
Proof.
  intros T O ND HV E D0 D1 v Hv. apply tt_q in D0, D1; auto.
  destruct (lv t v0) as [k0|] eqn:E0; [|congruence]. destruct (lv t v1) as [k1|] eqn:E1; [|congruence].
  pose proof (tt_le _ _ _ T E0) as L0. pose proof (tt_le _ _ _ T E1) as L1.
  assert (N : k0 <> k1). { intros <-. pose proof (O _ _ _ E0 E1). subst. rewrite E in ND. inversion ND. cbn in *. tauto. }
  assert (X : exists j, below t j (skipn 2 (cv s i))).
  { destruct (Nat.eq_dec k0 (dl t)) as [->|].
    - exists k1. apply (HV v1 k1); auto; [rewrite E; cbn; auto|lia].
    - exists k0. apply (HV v0 k0); auto; [rewrite E; cbn; auto|lia]. }
  destruct X as (j & X). rewrite E in X. destruct (X v Hv) as (j' & Ej & _). apply tt_q; auto. congruence.
Qed.

Lemma loop_safe Pb x : forall n s W t B don todo, mdef (t_qm t) x = true -> wst s W -> LI Pb (ords todo) s t B -> WS (upd W x (don ++ todo)) s ->
  watch_loop n x s W t B don todo <> UB /\
  forall s' W' t' B', watch_loop n x s W t B don todo = Ok (s', W', t', B') -> LI Pb [] s' t' B' /\ WS W' s'.
Proof.
  induction n as [|n IH]; intros s W t B don todo Hx HW I HWS; destruct todo as [|w todo]; cbn [watch_loop].
  1,3: split; [discriminate|]; intros s' W' t' B' H; inversion H; subst; rewrite app_nil_r in HWS; auto.
  { split; discriminate. }
  destruct w as [c idx]. pose proof (li_s _ _ _ (I_l _ _ _ _ _ I)) as HS. set (i := lord (lc_lit c)).
  assert (Hcw : WE s x (c, idx)) by (specialize (HWS x); unfold upd in HWS; rewrite Nat.eqb_refl in HWS; apply HWS, in_app_iff; right; now left).
  destruct Hcw as (Hc & He & Hx2 & Hidx). cbn [fst snd] in Hc, He, Hx2, Hidx. fold i in Hx2.
  assert (HiC : isC s i) by now apply stored_isC.
  assert (Tot : replace_watch s W (t_qm t) (c, idx) x <> UB).
  { apply rw_tot; auto. intros v0 v1 rest E. apply (two_all s t i); auto; [apply I|apply I|now apply cv_nodup|].
    destruct (I_m _ _ _ _ _ I i HiC) as ((V & _) & _). exact V. }
  destruct (replace_watch s W (t_qm t) (c, idx) x) as [[[[s0 W0] w0] rm]| |] eqn:Eq; cbn [bind]; [|congruence|split; discriminate].
  pose proof (replace_watch_spec _ _ _ _ _ _ _ _ _ _ HS Hc Hx Eq) as SP. cbn zeta in SP. fold i in SP. destruct SP as (Ew & C1 & Oth & M1 & SP).
  pose proof (rw_shape _ _ _ _ _ _ _ _ _ _ HS Hc Hx Hidx Eq) as (_ & SH & SH'). fold i in SH, SH'.
  pose proof Eq as Est. apply (replace_watch_steps (fun _ => 0%Z) (fun _ => 0%Z)) in Est; auto. destruct Est as (Est & S1 & G & HW1 & _).
  assert (L1 : linv s0 t B). { specialize (Est t B eq_refl). apply linv_steps in Est; [exact Est|apply I]. }
  pose proof (I_t _ _ _ _ _ I) as T.
  destruct rm.
  - destruct SP as [(E & _)|(_ & v0 & r & F1 & D0 & Dr & I0 & Ew')]; [discriminate|].
    set (todo' := match todo with [] => [] | _ => last todo (c, idx) :: removelast todo end).
    pose proof (last_perm todo (c, idx)) as P. fold todo' in P.
    apply IH; auto.
    + assert (L0 : lv t v0 = None) by now apply undef_lv. assert (Lr : lv t r = None) by now apply undef_lv.
      assert (Ec : exists l, cv s0 i = v0 :: r :: l) by (exists (skipn 2 (cv s0 i)); rewrite <- (firstn_skipn 2 (cv s0 i)) at 1; now rewrite F1).
      destruct Ec as (l & Ec).
      apply (LI_swap Pb (ords ((c, idx) :: todo)) _ s s0 t B i); auto.
      * intros j N [E|Hj]; [exfalso; apply N; symmetry; exact E|]. unfold ords. eapply Permutation_in; [apply Permutation_map, Permutation_sym, P|exact Hj].
      * apply Mi_done; [eapply OKi_free; eauto|eapply free_Zi; eauto].
      * left. apply (Ui_two s0 t B i v0 r); auto; [rewrite Ec; cbn; auto..|].
        pose proof (cv_nodup s0 c S1 (stored_grows _ _ _ G Hc)) as ND. fold i in ND. rewrite Ec in ND. inversion ND. intros ->. cbn in *. tauto.
    + apply (WS_rm s W (t_qm t) c idx x s0 W0 w0 don todo todo'); auto.
  - destruct SP as [(_ & Ew' & F1 & F2 & Hd)|(E & _)]; [|discriminate]. subst W0. rewrite Ew.
    assert (Hc0 : stored s0 c) by (eapply stored_grows; eauto).
    assert (ST : settled s0 t x i).
    { destruct (SH eq_refl) as [[Ha ->]|X]; [left; exact Ha|right; exact X]. }
    assert (I' : LI Pb (i :: ords todo) s0 t B).
    { apply (LI_swap Pb (ords ((c, idx) :: todo)) _ s s0 t B i); auto; [|right; right; now left].
      destruct (I_m _ _ _ _ _ I i HiC) as (O & Z & A & _). split; [eapply (re_OKi _ s); eauto|]. split.
      { destruct (SH eq_refl) as [[Ha ->]|(u0 & rest & E & D & _)]; [exact Z|]. eapply free_Zi; [exact E|]. now apply undef_lv. }
      split; [eapply (re_Ai _ s); eauto|]. right. now left. }
    pose proof (kept_tot Pb (ords todo) s0 t B c x I' Hc0 He Hx ST) as KT.
    destruct (watch_kept s0 t B c) as [[t1 B1]| |] eqn:EK; cbn [bind]; [|congruence|split; discriminate].
    pose proof (kept_LI Pb (ords todo) s0 t B c x I' Hc0 He ST t1 B1 EK) as I1.
    apply IH; auto.
    + now rewrite (watch_kept_qm _ _ _ _ _ _ EK).
    + apply (WS_keep s W (t_qm t) c idx x s0 W w0 don todo); auto.
Qed.
