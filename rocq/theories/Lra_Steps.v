(** Every call of the plugin is a sequence of elementary steps on the constraints, the trail and
    the bounds. *)
From Coq Require Import List Arith ZArith QArith Bool Lia Permutation.
From Verif Require Import Base Core_Model Sort_Proofs Trail_Model Lincons_Model Spec_Lincons Lincons_Proofs
  Lincons_Proofs2 Lra_Model Spec_Lra Lra_Fm Lra_Bounds Lra_Hist.
Import ListNotations.
Open Scope nat_scope.

(** ** constraints of the repository *)
Definition stored (s : store) (c : lcons) : Prop :=
  exists c0, In c0 (st_set s) /\ lord (lc_lit c) = lord (lc_lit c0) /\ lc_pos c = lc_pos c0 /\
    lc_pred c = lc_pred c0 /\ lc_rhs c = lc_rhs c0.
Record sinv (s : store) : Prop := {
  si_inv : inv s;
  si_cons : forall i c, nth_error (st_cons s) i = Some c ->
    (In c (st_set s) /\ lord (lc_lit c) = i) \/ c = lc_default }.

Lemma stored_neg s c : stored s c -> stored s (lc_neg c).
Proof. intros (c0 & H & E1 & E2 & E3 & E4). exists c0. cbn. auto. Qed.
Lemma stored_self s c : In c (st_set s) -> stored s c.
Proof. intros H. exists c. auto. Qed.
Lemma stored_get s i : sinv s -> lc_empty (lc_get s i) = false -> stored s (lc_get s i).
Proof.
  intros HS HE. unfold lc_get in *. destruct (nth_error (st_cons s) i) as [c|] eqn:E.
  - rewrite (nth_error_nth _ _ _ E) in *.
    destruct (si_cons s HS _ _ E) as [[H1 _]|H1]; [now apply stored_self|rewrite H1 in HE; discriminate HE].
  - rewrite nth_overflow in HE by now apply nth_error_None. discriminate HE.
Qed.
Lemma get_lord s i : sinv s -> lc_empty (lc_get s i) = false -> lord (lc_lit (lc_get s i)) = i.
Proof.
  intros HS HE. unfold lc_get in *. destruct (nth_error (st_cons s) i) as [c|] eqn:E.
  - rewrite (nth_error_nth _ _ _ E) in *.
    destruct (si_cons s HS _ _ E) as [[_ H1]|H1]; [exact H1|rewrite H1 in HE; discriminate HE].
  - rewrite nth_overflow in HE by now apply nth_error_None. discriminate HE.
Qed.
Lemma stored_grows s s' c : grows s s' -> stored s c -> stored s' c.
Proof. intros HG (c0 & H & E). exists c0. split; [apply (HG c0 H)|exact E]. Qed.
Lemma terms_pos s c c' : lc_pos c = lc_pos c' -> lc_terms s c = lc_terms s c'.
Proof. intros E. unfold lc_terms, lc_vars, lc_coef. now rewrite E. Qed.
Lemma vars_pos s c c' : lc_pos c = lc_pos c' -> lc_vars s c = lc_vars s c'.
Proof. intros E. unfold lc_vars. now rewrite E. Qed.
Lemma stored_terms s s' c : grows s s' -> stored s c -> Permutation (lc_terms s c) (lc_terms s' c).
Proof.
  intros HG (c0 & H & _ & E & _). rewrite (terms_pos s c c0), (terms_pos s' c c0) by auto. apply (HG c0 H).
Qed.
Lemma stored_norm s c : sinv s -> stored s c -> norm_terms (lc_terms s c).
Proof.
  intros HS (c0 & H & _ & E & _). rewrite (terms_pos s c c0) by auto. apply (g_norm s c0), (si_inv s HS), H.
Qed.
Lemma lc_vars_terms s c : sinv s -> lc_vars s c = map fst (lc_terms s c).
Proof.
  intros HS. unfold lc_terms. rewrite map_fst_combine; [reflexivity|]. apply slices_length, (si_inv s HS).
Qed.
Lemma stored_size s c : sinv s -> stored s c -> length (lc_terms s c) = lc_size c.
Proof.
  intros HS (c0 & H & _ & E & _). rewrite (terms_pos s c c0) by auto.
  unfold lc_size. rewrite E. apply good_size; [apply (si_inv s HS)|]. apply (si_inv s HS), H.
Qed.
Lemma stored_get_eq s c : sinv s -> stored s c ->
  lc_pos (lc_get s (lord (lc_lit c))) = lc_pos c /\ lc_pred (lc_get s (lord (lc_lit c))) = lc_pred c /\
  lc_rhs (lc_get s (lord (lc_lit c))) = lc_rhs c.
Proof.
  intros HS (c0 & H & E1 & E2 & E3 & E4). rewrite E1. unfold lc_get.
  pose proof (g_at s c0 (i_good s (si_inv s HS) c0 H)) as G. erewrite nth_error_nth by exact G. auto.
Qed.

Lemma grows_refl s : grows s s.
Proof. intros c H. split; [exact H|apply Permutation_refl]. Qed.
Lemma grows_trans a b c : grows a b -> grows b c -> grows a c.
Proof.
  intros H1 H2 x Hx. destruct (H1 x Hx) as [A P1]. destruct (H2 x A) as [B P2]. split; [exact B|].
  eapply Permutation_trans; eauto.
Qed.

Section H.
Variables (hi : nat -> Z) (hv : Q -> Z).

Lemma insert_cons_shape s ts c : 
  let s' := fst (insert_cons hi hv s ts c) in
  (st_cons s' = st_cons s /\ st_set s' = st_set s) \/
  (st_cons s' = st_cons s ++ [c] /\ st_set s' = st_set s ++ [c]).
Proof. unfold insert_cons. destruct (set_find _ _ _ _); cbn; auto. Qed.
Lemma make_sinv s q s' c : sinv s -> distinct_vars q ->
  lc_make hi hv s (rq_terms q) (rq_pred q) (rq_rhs q) = (s', c) ->
  sinv s' /\ grows s s' /\ stored s' c.
Proof.
  intros HS Hd E. destruct (make_ok hi hv s q s' c (si_inv s HS) Hd E) as (I & G & c0 & M).
  split; [|split; [exact G|]].
  - constructor; [exact I|].
    assert (F : exists ts c1, s' = fst (insert_cons hi hv s ts c1) /\ lord (lc_lit c1) = length (st_cons s)).
    { destruct q as [ts p rhs]. unfold distinct_vars in Hd. cbn [rq_terms rq_pred rq_rhs] in *. fold (nonzero ts) in Hd.
      destruct (find_norm ts) as [k|] eqn:Ek.
      - destruct (normalise_ok ts k Hd Ek) as (_ & _ & Hne).
        rewrite (lc_make_some hi hv s ts p rhs k (i_len s (si_inv s HS)) Ek Hne) in E. inversion E. eexists _, _. split; reflexivity.
      - rewrite (lc_make_none hi hv s ts p rhs Ek) in E. inversion E. eauto. }
    destruct F as (ts & c1 & -> & Hl). destruct (insert_cons_shape s ts c1) as [[E1 E2]|[E1 E2]]; rewrite E1, E2.
    + apply HS.
    + intros i x Hx. rewrite in_app_iff. destruct (Nat.lt_ge_cases i (length (st_cons s))) as [L|L].
      * rewrite nth_error_app1 in Hx by auto. destruct (si_cons s HS i x Hx) as [[A1 A2]|A]; auto.
      * rewrite nth_error_app2 in Hx by auto. destruct (i - length (st_cons s)) as [|n] eqn:En.
        -- cbn in Hx. inversion Hx; subst x. left. split; [right; now left|lia].
        -- cbn in Hx. destruct n; discriminate Hx.
  - destruct M as (M1 & M2 & M3 & M4 & M5 & _). exists c0. auto.
Qed.
Lemma resize_sinv s n : sinv s -> sinv (lc_resize s n) /\ grows s (lc_resize s n).
Proof.
  intros HS. destruct (resize_ok s n (si_inv s HS)) as [I G]. split; [|exact G]. constructor; [exact I|].
  cbn. intros i c Hc. destruct (Nat.lt_ge_cases i (length (st_cons s))) as [L|L].
  - rewrite nth_error_app1 in Hc by auto. now apply HS.
  - rewrite nth_error_app2 in Hc by auto. apply nth_error_In, repeat_spec in Hc. auto.
Qed.
Lemma swap_sinv s c i j : sinv s -> stored s c -> i < lc_size c -> j < lc_size c ->
  sinv (cons_swap s c i j) /\ grows s (cons_swap s c i j).
Proof.
  intros HS (c0 & H & _ & E & _) Hi Hj. unfold lc_size in *. unfold cons_swap. rewrite E in *.
  destruct (swap_ok s (fst (lc_pos c0) + i) (fst (lc_pos c0) + j) c0 (si_inv s HS) H) as [I G]; [lia..|].
  split; [|exact G]. constructor; [exact I|]. apply HS.
Qed.

(** ** elementary steps *)
(** queries of the bounds of a variable *)
Inductive vq (s : store) (t : trail) : vbounds -> vbounds -> Prop :=
| vq_refl w : vq s t w w
| vq_upper w w' : vq s t (fst (upper_bound s t w)) w' -> vq s t w w'
| vq_lower w w' : vq s t (fst (lower_bound s t w)) w' -> vq s t w w'
| vq_neq w v w' : vq s t (fst (inequality s t w v)) w' -> vq s t w w'.
Lemma vq_trans s t a b c : vq s t a b -> vq s t b c -> vq s t a c.
Proof. induction 1; intros; eauto using vq. Qed.
Lemma vq_upper' s t w w' o : upper_bound s t w = (w', o) -> vq s t w w'.
Proof. intros E. apply vq_upper. rewrite E. constructor. Qed.
Lemma vq_lower' s t w w' o : lower_bound s t w = (w', o) -> vq s t w w'.
Proof. intros E. apply vq_lower. rewrite E. constructor. Qed.
Lemma vq_neq' s t w v w' o : inequality s t w v = (w', o) -> vq s t w w'.
Proof. intros E. apply (vq_neq s t w v). rewrite E. constructor. Qed.
Lemma vq_allowed s t w v w' o : is_allowed s t w v = (w', o) -> vq s t w w'.
Proof.
  unfold is_allowed. destruct (inequality s t w v) as [w1 n] eqn:E1. intros H.
  apply vq_neq' in E1. destruct n; [fin|].
  unfold check_lower_bound in H. destruct (lower_bound s t w1) as [w2 lo] eqn:E2.
  apply vq_lower' in E2. pose proof (vq_trans _ _ _ _ _ E1 E2). destruct (match lo with Some _ => _ | None => _ end); [|fin].
  unfold check_upper_bound in H. destruct (upper_bound s t w2) as [w3 up] eqn:E3.
  apply vq_upper' in E3. pose proof (vq_trans _ _ _ _ _ H0 E3). fin.
Qed.

Definition stt : Type := (store * trail * bnds)%type.
Inductive estep : stt -> stt -> Prop :=
| es_swap s t B c i j : stored s c -> i < lc_size c -> j < lc_size c ->
    forallb (mdef (t_qm t)) (tl (lc_vars s c)) = false ->
    estep (s, t, B) (cons_swap s c i j, t, B)
| es_make s t B q s' c : distinct_vars q ->
    lc_make hi hv s (rq_terms q) (rq_pred q) (rq_rhs q) = (s', c) ->
    estep (s, t, B) (s', if mnum (t_bm t) <=? lord (lc_lit c) then add_bool t (S (lord (lc_lit c))) else t, B)
| es_more s t B nb nq : mnum (t_bm t) <= nb -> mnum (t_qm t) <= nq ->
    estep (s, t, B) (lc_resize s nb, trail_resize t nb nq, B)
| es_sem s t B c k v t' : stored s c ->
    (k = dl t \/ forall y, In y (lc_vars s c) -> exists j, t_lvl t (VRat y) = Some j /\ j <= k) ->
    t_step t (TPropagate (VBool (lord (lc_lit c))) None k v) = Ok t' -> estep (s, t, B) (s, t', B)
| es_decide s t B x q w1 : x < mnum (t_qm t) -> is_allowed s t (bd_of B x) q = (w1, true) ->
    estep (s, t, B) (s, trail_decide (with_qm t (set_value (t_qm t) x q)) (VRat x), B)
| es_query s t B x w : vq s t (bd_of B x) w -> estep (s, t, B) (s, t, bd_set B x w)
| es_mark s t B l : estep (s, t, B) (s, t, mkBd (bd_of B) l)
| es_update s t B c B' : stored s c -> bd_update s t c B = Ok B' -> estep (s, t, B) (s, t, B')
| es_deduce s t B c B' : stored s c -> deduce s t c B = Ok B' -> estep (s, t, B) (s, t, B').
Inductive esteps : stt -> stt -> Prop :=
| e_refl a : esteps a a
| e_cons a b c : estep a b -> esteps b c -> esteps a c.
Lemma e_trans a b c : esteps a b -> esteps b c -> esteps a c.
Proof. induction 1; intros; eauto using esteps. Qed.
Lemma e_one a b : estep a b -> esteps a b.
Proof. intros H. eapply e_cons; [exact H|constructor]. Qed.

(** together with the operations of the rest of the solver *)
Inductive rsteps : stt -> stt -> Prop :=
| r_refl a : rsteps a a
| r_own a b c : rsteps a b -> esteps b c -> rsteps a c
| r_foreign a s t B o t' : rsteps a (s, t, B) -> foreign t o -> t_step t o = Ok t' -> rsteps a (s, t', B).

Lemma estep_sinv a b : estep a b -> sinv (fst (fst a)) ->
  sinv (fst (fst b)) /\ grows (fst (fst a)) (fst (fst b)).
Proof.
  destruct 1; cbn [fst]; intros HS; try (split; [exact HS|apply grows_refl]).
  - now apply swap_sinv.
  - destruct (make_sinv s q s' c HS) as (A & G & _); auto.
  - now apply resize_sinv.
Qed.
Lemma esteps_sinv a b : esteps a b -> sinv (fst (fst a)) ->
  sinv (fst (fst b)) /\ grows (fst (fst a)) (fst (fst b)).
Proof.
  induction 1 as [a|a b c H1 H2 IH]; intros HS; [split; [exact HS|apply grows_refl]|].
  destruct (estep_sinv a b H1 HS) as [A G]. destruct (IH A) as [A2 G2]. split; [exact A2|].
  eapply grows_trans; eauto.
Qed.

(** ** the functions of the plugin *)
Ltac sp := repeat match goal with |- _ /\ _ => split end.
Definition wst (s : store) (W : nat -> list (lcons * nat)) : Prop :=
  forall x w, In w (W x) -> stored s (fst w).
Lemma wst_grows s s' W : grows s s' -> wst s W -> wst s' W.
Proof. intros G H x w Hw. eapply stored_grows; eauto. Qed.
Lemma wst_add s W x c i : wst s W -> stored s c -> wst s (upd W x (W x ++ [(c, i)])).
Proof.
  intros H Hc y w. unfold upd. destruct (y =? x); [|apply H]. rewrite in_app_iff. intros [Hw|[<-|[]]]; eauto.
Qed.

Lemma vars_size s c : sinv s -> stored s c -> length (lc_vars s c) = lc_size c.
Proof. intros HS Hc. rewrite lc_vars_terms, map_length by auto. now apply stored_size. Qed.
Lemma at_lt {A} (l : list A) i x : at_ l i = Ok x -> i < length l.
Proof.
  unfold at_. destruct (nth_error l i) eqn:E; [|discriminate]. intros _. apply nth_error_Some. congruence.
Qed.
Lemma at_nth {A} (l : list A) i x : at_ l i = Ok x -> nth_error l i = Some x.
Proof. unfold at_. destruct (nth_error l i) eqn:E; [|discriminate]. intros H. now inversion H. Qed.
Lemma tl_unassigned (qm : model Q) vs i v : nth_error vs i = Some v -> 0 < i -> mdef qm v = false ->
  forallb (mdef qm) (tl vs) = false.
Proof.
  intros H Hi Hv. rewrite <- not_true_iff_false, forallb_forall. intros A.
  destruct vs as [|u vs]; [now destruct i|]. destruct i as [|i]; [lia|]. cbn in *.
  apply nth_error_In in H. rewrite (A v H) in Hv. discriminate.
Qed.
Lemma find_free_lt (qm : model Q) vs stop : 0 < stop -> forall fuel i j i', 0 < i -> find_free fuel qm vs i stop = Ok (Some j, i') ->
  0 < j /\ j < length vs /\ exists v, nth_error vs j = Some v /\ mdef qm v = false.
Proof.
  intros Hst. induction fuel as [|f IH]; intros i j i' Hi; cbn [find_free]; [discriminate|]. intros H. binv H.
  pose proof (at_nth _ _ _ Eq) as En. apply at_lt in Eq. destruct (mdef qm a) eqn:Ed; cbn [negb] in H.
  2:{ assert (i = j) by congruence. subst j. eauto. } cbn zeta in H. 
  destruct ((if length vs <=? i + 1 then 2 else i + 1) =? stop); [discriminate|]. eapply IH; [|exact H].
  destruct (length vs <=? i + 1); lia.
Qed.
Lemma swap_id {A} i (l : list A) : swap_nth i i l = l.
Proof.
  unfold swap_nth. destruct (nth_error l i) as [x|] eqn:E; [|reflexivity]. revert i E.
  induction l as [|y l IH]; intros [|i] E; cbn in *; try congruence. f_equal. now apply IH.
Qed.
Lemma swap_self s c i : cons_swap s c i i = s.
Proof. unfold cons_swap, lc_swap. rewrite !swap_id. now destruct s. Qed.
Lemma swap_vars s c i j : sinv s -> stored s c -> i < lc_size c -> j < lc_size c ->
  lc_vars (cons_swap s c i j) c = swap_nth i j (lc_vars s c).
Proof.
  intros HS (c0 & H & _ & E & _) Hi Hj. unfold lc_size in *. unfold cons_swap, lc_vars, lc_swap. cbn [st_vars]. rewrite E in *.
  pose proof (good_pos_le s c0 (i_good s (si_inv s HS) c0 H)) as Hp.
  rewrite slice_swap_in by lia. f_equal; lia.
Qed.

Lemma replace_watch_steps s W qm w x s' W' w' rm : sinv s -> wst s W -> stored s (fst w) -> mdef qm x = true ->
  replace_watch s W qm w x = Ok (s', W', w', rm) ->
  (forall t B, t_qm t = qm -> esteps (s, t, B) (s', t, B)) /\ sinv s' /\ grows s s' /\ wst s' W' /\ fst w' = fst w.
Proof.
  intros HS HW Hc Hx. destruct w as [c idx]. cbn [fst] in *. unfold replace_watch. intros H. binv H.
  destruct (lc_size c <=? 1) eqn:E1.
  { binv H. inversion H; subst. sp; auto using grows_refl. intros; constructor. }
  apply Nat.leb_gt in E1. binv H. destruct (mdef qm a && mdef qm a0) eqn:Eaa.
  { binv H. inversion H; subst. sp; auto using grows_refl. intros; constructor. }
  cbn zeta in H. set (s1 := if a0 =? x then s else cons_swap s c 0 1) in *.
  destruct (at_ (lc_vars s1 c) 1) as [u1| |] eqn:Eu; cbn [bind] in H; try discriminate H.
  destruct (Nat.eqb_spec u1 x) as [Ex|]; cbn [assertb bind] in H; [|discriminate H]. subst u1.
  assert (S1 : (forall t B, t_qm t = qm -> esteps (s, t, B) (s1, t, B)) /\ sinv s1 /\ grows s s1).
  { revert Eu. unfold s1. destruct (Nat.eqb_spec a0 x) as [E0|E0]; intros Eu; [split; [intros; constructor|split; auto using grows_refl]|].
    destruct (swap_sinv s c 0 1) as [A G]; auto; try lia. split; [|split; auto].
    intros t B Et. apply e_one. apply es_swap; auto; try lia. rewrite Et.
    rewrite swap_vars in Eu by (auto; lia). apply at_nth in Eq, Eq0, Eu.
    apply (tl_unassigned qm _ 1 a0); auto.
    unfold swap_nth in Eu. rewrite Eq, Eq0 in Eu. rewrite nth_error_set_nth_neq in Eu by lia.
    rewrite nth_error_set_nth_eq in Eu by (apply nth_error_Some; congruence).
    assert (a = x) by congruence. subst a. rewrite Hx in Eaa. exact Eaa. }
  destruct S1 as (R1 & I1 & G1). pose proof (stored_grows s s1 c G1 Hc) as Hc1.
  clearbody s1. destruct (2 <? lc_size c).
  2:{ inversion H; subst. sp; auto. eapply wst_grows; eauto. }
  binv H. destruct o as [j|].
  2:{ inversion H; subst. sp; auto. eapply wst_grows; eauto. }
  apply andb_true_iff in As. destruct As as [As _]. apply Nat.leb_le in As.
  match goal with E : find_free _ _ _ _ _ = _ |- _ => apply find_free_lt in E; [|lia..]; rewrite vars_size in E by auto;
    destruct E as (Hj0 & Hj & v & Hv & Hd) end.
  destruct (swap_sinv s1 c 1 j) as [A G]; auto.
  binv H. inversion H; subst. split; [|split; [exact A|split; [eapply grows_trans; eauto|split; [|reflexivity]]]].
  - intros t B Et. eapply e_trans; [now apply R1|]. apply e_one. apply es_swap; auto. rewrite Et.
    now apply (tl_unassigned qm _ j v).
  - apply wst_add; [|eapply stored_grows; eauto]. eapply wst_grows; [|exact HW]. eapply grows_trans; eauto.
Qed.

Lemma max_level_below t : forall vs k m, max_level t vs k = Ok m ->
  k <= m /\ forall y, In y vs -> exists j, t_lvl t (VRat y) = Some j /\ j <= m.
Proof.
  induction vs as [|v vs IH]; cbn [max_level]; intros k m H; [inversion H; subst; split; [auto|intros y []]|].
  destruct (t_lvl t (VRat v)) as [j|] eqn:E; cbn [value_of bind] in H; [|discriminate].
  destruct (IH _ _ H) as [L A]. split; [lia|]. intros y [<-|Hy]; [exists j; split; [exact E|lia]|auto].
Qed.
Lemma sem_propagate_steps s t c t' B : stored s c -> sem_propagate s t c = Ok t' -> estep (s, t, B) (s, t', B).
Proof.
  intros Hc. unfold sem_propagate. intros H. binv H.
  eapply (es_sem s t B c a (xorb (lneg (lc_lit c)) a0, 0%Q)); [exact Hc|right; eapply max_level_below; eassumption|].
  exact H.
Qed.

Lemma sem_propagate_qm s t c t' : sem_propagate s t c = Ok t' -> t_qm t' = t_qm t.
Proof.
  unfold sem_propagate, trail_propagate. intros H. binv H.
  destruct (_ <=? _); [|discriminate H]. inversion H; subst. reflexivity.
Qed.
Lemma watch_kept_qm s t B c t' B' : watch_kept s t B c = Ok (t', B') -> t_qm t' = t_qm t.
Proof.
  unfold watch_kept. intros H.
  destruct (mdef _ _); destruct (fully_assigned _ _ _); binv H; inversion H; subst; auto.
  eapply sem_propagate_qm; eauto.
Qed.
Lemma watch_kept_steps s t B c t' B' : stored s c -> watch_kept s t B c = Ok (t', B') ->
  esteps (s, t, B) (s, t', B').
Proof.
  intros Hc. unfold watch_kept. intros H.
  destruct (mdef _ _); destruct (fully_assigned _ _ _); binv H; inversion H; subst; try constructor.
  - apply e_one. eapply es_update; eauto.
  - apply e_one. eapply sem_propagate_steps; eauto.
Qed.

Lemma last_rest_in {A} (l : list A) d x : In x (match l with [] => [] | _ => last l d :: removelast l end) -> In x l.
Proof.
  destruct l as [|a l]; [auto|]. intros [<-|H].
  - destruct (exists_last (l := a :: l)) as (l' & y & E); [discriminate|]. rewrite E, last_last. apply in_app_iff. right. left. auto.
  - rewrite (app_removelast_last (l := a :: l) d); [|discriminate]. apply in_app_iff. auto.
Qed.
Lemma watch_loop_steps x : forall n s W t B d l s' W' t' B',
  watch_loop n x s W t B d l = Ok (s', W', t', B') -> mdef (t_qm t) x = true -> sinv s -> wst s W ->
  (forall w, In w (d ++ l) -> stored s (fst w)) ->
  esteps (s, t, B) (s', t', B') /\ wst s' W'.
Proof.
  induction n as [|n IH]; intros s W t B d l s' W' t' B'; destruct l as [|w l]; cbn [watch_loop];
    intros H Hx HS HW Hl; try discriminate.
  - inversion H; subst. split; [constructor|]. intros y w. unfold upd. destruct (y =? x); [|apply HW].
    intros Hw. apply Hl. rewrite app_nil_r. exact Hw.
  - inversion H; subst. split; [constructor|]. intros y w. unfold upd. destruct (y =? x); [|apply HW].
    intros Hw. apply Hl. rewrite app_nil_r. exact Hw.
  - binv H. apply replace_watch_steps in Eq; auto; [|apply Hl, in_app_iff; right; left; auto].
    destruct Eq as (R & S1 & G & W1 & Ew). 
    assert (Hl1 : forall u, In u (d ++ w :: l) -> stored s0 (fst u)) by (intros; eapply stored_grows; eauto).
    destruct b.
    + eapply IH in H; auto.
      * destruct H as [H1 H2]. split; [|exact H2]. eapply e_trans; eauto.
      * intros u Hu. apply Hl1. rewrite in_app_iff in *. destruct Hu as [Hu|Hu]; auto.
        apply last_rest_in in Hu. right. right. exact Hu.
    + binv H. pose proof (watch_kept_qm _ _ _ _ _ _ Eq) as Eqm. apply watch_kept_steps in Eq.
      2:{ rewrite Ew. apply Hl1. apply in_app_iff. right. left. auto. }
      eapply IH in H; auto.
      * destruct H as [H1 H2]. split; [|exact H2]. eapply e_trans; [now apply R|]. eapply e_trans; eauto.
      * now rewrite Eqm.
      * intros u. rewrite <- app_assoc. rewrite in_app_iff. cbn [app]. intros [Hu|[<-|Hu]].
        -- apply Hl1. apply in_app_iff. auto.
        -- rewrite Ew. apply Hl1. apply in_app_iff. right. left. auto.
        -- apply Hl1. apply in_app_iff. right. right. auto.
Qed.

Record wsi (a : lra) : Prop := {
  ws_st : sinv (l_st a);
  ws_watch : wst (l_st a) (l_watch a);
  ws_occur : forall x c, In c (l_occur a x) -> stored (l_st a) c }.
Definition run3 (a : lra) (t : trail) : stt := (l_st a, t, l_bd a).
Notation goes a t a' t' := (esteps (run3 a t) (run3 a' t') /\ wsi a').

Lemma goes_trans a t a1 t1 a2 t2 : goes a t a1 t1 -> goes a1 t1 a2 t2 -> goes a t a2 t2.
Proof. intros [H1 _] [H2 W]. split; [eapply e_trans; eauto|exact W]. Qed.
Lemma goes_refl a t : wsi a -> goes a t a t.
Proof. split; [constructor|auto]. Qed.
Lemma wsi_grows a s : wsi a -> sinv s -> grows (l_st a) s -> wsi (with_st a s).
Proof.
  intros [H1 H2 H3] HS HG. constructor; cbn; auto.
  - eapply wst_grows; eauto.
  - intros x c Hc. eapply stored_grows; eauto.
Qed.
Lemma wsi_bd a B : wsi a -> wsi (with_bd a B).
Proof. intros [H1 H2 H3]. constructor; auto. Qed.

Lemma lra_vars_steps : forall vs a t a' t', lra_vars vs a t = Ok (a', t') -> wsi a -> goes a t a' t'.
Proof.
  induction vs as [|v vs IH]; intros a t a' t'; cbn [lra_vars]; intros H Ha.
  { inversion H; subst. now apply goes_refl. }
  binv H. assert (G1 : goes a t l t0).
  2:{ eapply goes_trans; [exact G1|]. apply IH; [exact H|apply G1]. }
  clear H IH. destruct v as [i|x].
  - unfold lra_bool_var in Eq. binv Eq. apply negb_true_iff in As.
    pose proof (stored_get (l_st a) i (ws_st a Ha) As) as Hc.
    destruct (fully_assigned _ _ _); binv Eq; [inversion Eq; subst; now apply goes_refl|].
    match type of Eq with (if ?b then _ else _) = _ => destruct b end; [|inversion Eq; subst; now apply goes_refl].
    binv Eq. inversion Eq; subst. split; [|now apply wsi_bd].
    apply e_one. eapply es_update; eauto.
  - unfold replace_watches in Eq. binv Eq. inversion Eq; subst.
    match goal with E : watch_loop _ _ _ _ _ _ _ _ = _ |- _ => apply watch_loop_steps in E; [destruct E as [R W1]|assumption|apply Ha|apply Ha|] end.
    2:{ intros w Hw. cbn [app] in Hw. eapply (ws_watch a Ha); eauto. }
    split; [exact R|]. destruct (esteps_sinv _ _ R) as [S1 G1]; [apply Ha|]. cbn [fst] in *.
    constructor; cbn; auto. intros y c Hc. eapply stored_grows; [exact G1|]. eapply (ws_occur a Ha); eauto.
Qed.

Lemma propagate_bounds_steps : forall es a t a', propagate_bounds es a t = Ok a' -> wsi a -> goes a t a' t.
Proof.
  induction es as [|[[i|x] r] es IH]; intros a t a'; cbn [propagate_bounds]; intros H Ha;
    [inversion H; subst; now apply goes_refl| |eauto].
  destruct (lc_empty _) eqn:E0; [eauto|]. binv H.
  eapply goes_trans; [|apply IH; [exact H|now apply wsi_bd]]. split; [|now apply wsi_bd].
  apply e_one. eapply es_deduce; [|exact Eq].
  destruct (mval (t_bm t) i); [|apply stored_neg]; apply (stored_get (l_st a) i); auto; apply Ha.
Qed.

Lemma implied_steps s t c B B' b : is_implied s t c B = (B', b) -> esteps (s, t, B) (s, t, B').
Proof.
  unfold is_implied. destruct (eval_lit _ _); [intros H; inversion H; constructor|].
  assert (G : forall ts B r B' o, implied_loop s t c ts B r = (B', o) -> esteps (s, t, B) (s, t, B')).
  { induction ts as [|[v k] ts IH]; intros B0 r B1 o; cbn [implied_loop]; intros H; [inversion H; constructor|].
    destruct (mdef (t_qm t) v); [eapply IH; eauto|]. binv H.
    assert (Q1 : esteps (s, t, B0) (s, t, bd_set B0 v v0)).
    { apply e_one, es_query. destruct (same_dir c k); [eapply vq_upper'|eapply vq_lower']; eassumption. }
    destruct o0; [|inversion H; subst; exact Q1]. eapply e_trans; [exact Q1|]. eapply IH; eauto. }
  destruct (implied_loop _ _ _ _ _ _) as [B1 [r|]] eqn:E; intros H; apply G in E; inversion H; subst; auto.
Qed.
Lemma try_implied_steps a t c a' t' : try_implied a t c = Ok (a', t') -> wsi a -> stored (l_st a) c -> goes a t a' t'.
Proof.
  unfold try_implied. intros H Ha Hc. destruct (is_implied _ _ _ _) as [B b] eqn:E. apply implied_steps in E.
  destruct b; [|inversion H; subst; split; [exact E|now apply wsi_bd]].
  binv H. inversion H; subst. split; [|now apply wsi_bd].
  eapply e_trans; [exact E|]. apply e_one.
  eapply (es_sem _ _ _ c (dl t) (negb (lneg (lc_lit c)), 0%Q)); [assumption|now left|].
  unfold trail_propagate in *. cbn [t_step put fst with_bm]. unfold trail_propagate, dl in *. cbn [t_levels with_bm].
  match type of Eq with (if ?b then _ else _) = _ => destruct b end; [|discriminate].
  inversion Eq; subst. reflexivity.
Qed.
Lemma unassigned_loop_steps : forall cs a t a' t', unassigned_loop cs a t = Ok (a', t') -> wsi a ->
  (forall c, In c cs -> stored (l_st a) c) -> goes a t a' t'.
Proof.
  induction cs as [|c cs IH]; intros a t a' t'; cbn [unassigned_loop]; intros H Ha Hc; [inversion H; subst; now apply goes_refl|].
  destruct (mdef _ _); [apply IH; auto; intros; apply Hc; now right|]. binv H.
  apply try_implied_steps in Eq; auto; [|apply Hc; now left].
  destruct (esteps_sinv _ _ (proj1 Eq) (ws_st a Ha)) as [_ G1]. cbn [fst run3] in G1.
  apply try_implied_steps in Eq0; [|apply Eq|apply stored_neg; eapply stored_grows; [exact G1|apply Hc; now left]].
  destruct (esteps_sinv _ _ (proj1 Eq0) (ws_st _ (proj2 Eq))) as [_ G2]. cbn [fst run3] in G2.
  eapply goes_trans; [exact Eq|]. eapply goes_trans; [exact Eq0|]. apply IH; [exact H|apply Eq0|].
  intros d Hd. eapply stored_grows; [exact G2|]. eapply stored_grows; [exact G1|]. apply Hc. now right.
Qed.

Lemma move_front_steps c t B : let qm := t_qm t in
  forall n s i out stop, sinv s -> stored s c -> stop <= lc_size c -> out <= stop -> out <= i ->
  let s' := move_front n s qm c i out stop in
  esteps (s, t, B) (s', t, B).
Proof.
  intros qm. induction n as [|n IH]; intros s i out stop HS Hc Hs Ho Hoi; cbn zeta; cbn [move_front]; [constructor|].
  destruct (Nat.eqb_spec out stop) as [E|E]; [constructor|].
  destruct (nth_error (lc_vars s c) i) as [v|] eqn:En; [|constructor].
  assert (Hi : i < lc_size c). { rewrite <- (vars_size s c) by auto. apply nth_error_Some. congruence. }
  destruct (mdef qm v) eqn:Ev; [apply IH; auto|].
  destruct (Nat.eq_dec i out) as [->|Hne]; [rewrite swap_self; apply IH; auto; lia|].
  destruct (swap_sinv s c i out) as [A G]; auto; try lia.
  eapply e_cons; [apply (es_swap s t B c i out); auto; [lia|apply (tl_unassigned qm _ i v); auto; lia]|].
  apply IH; try lia; eauto using stored_grows.
Qed.

Variable opt : lopt.
Lemma watch_new_steps a qm c a' t : wsi a -> stored (l_st a) c -> t_qm t = qm -> watch_new a qm c = Ok a' -> goes a t a' t.
Proof.
  intros Ha Hc <-. unfold watch_new. cbn zeta. set (stop := if lc_size c =? 1 then 1 else 2).
  set (s1 := move_front (lc_size c) (l_st a) (t_qm t) c 0 0 stop). intros H.
  unfold watch_cons in H. binv H. apply negb_true_iff, Nat.leb_gt in As.
  assert (R : esteps (l_st a, t, l_bd a) (s1, t, l_bd a)).
  { apply move_front_steps; auto; try apply Ha; [|lia..].
    unfold stop, lc_size. destruct (Nat.eqb_spec (snd (lc_pos c) - fst (lc_pos c)) 1); lia. }
  destruct (esteps_sinv _ _ R (ws_st a Ha)) as [S1 G1]. cbn [fst] in *.
  pose proof (wsi_grows a s1 Ha S1 G1) as W1. cbn [l_st l_watch with_st] in *.
  pose proof (stored_grows _ _ c G1 Hc) as Hc1.
  destruct (1 <? lc_size c); binv H; inversion H; subst; (split; [exact R|]); constructor; cbn; auto;
    try apply W1; repeat apply wst_add; auto; try apply W1.
Qed.

Lemma constraint_steps a t q a' t' c : wsi a -> distinct_vars q ->
  lra_constraint hi hv opt a t (rq_terms q) (rq_pred q) (rq_rhs q) = Ok (a', t', c) ->
  goes a t a' t' /\ stored (l_st a') c.
Proof.
  intros Ha Hd. unfold lra_constraint.
  destruct (lc_make _ _ _ _ _ _) as [s c0] eqn:Em.
  destruct (make_sinv _ q s c0 (ws_st a Ha) Hd Em) as (S1 & G1 & C1).
  pose proof (wsi_grows a s Ha S1 G1) as W1.
  assert (R1 : goes a t (with_st a s) (if mnum (t_bm t) <=? lord (lc_lit c0) then add_bool t (S (lord (lc_lit c0))) else t)).
  { split; [|exact W1]. apply e_one. eapply es_make; eauto. }
  destruct (Nat.leb_spec (mnum (t_bm t)) (lord (lc_lit c0))) as [Hn|Hn]; intros H; binv H.
  2:{ inversion H; subst. split; [exact R1|]. exact C1. }
  inversion H; subst. clear H.
  set (a2 := if o_bounds opt || o_unassigned opt then _ else _) in Eq.
  assert (W2 : wsi a2 /\ l_st a2 = s /\ l_bd a2 = l_bd a).
  { unfold a2. destruct (_ || _); [|auto]. split; [|auto]. constructor; cbn; [exact S1|apply W1|].
    set (c1 := if lneg (lc_lit c) then lc_neg c else c).
    assert (C2 : stored s c1) by (unfold c1; destruct (lneg _); auto using stored_neg).
    assert (F : forall vs m, (forall x d, In d (m x) -> stored s d) ->
      forall x d, In d (fold_left (fun m v => upd m v (m v ++ [c1])) vs m x) -> stored s d).
    { induction vs as [|v vs IH]; cbn; intros m Hm; [exact Hm|]. apply IH. intros x d. unfold upd.
      destruct (x =? v); [|apply Hm]. rewrite in_app_iff. intros [Hx|[<-|[]]]; eauto. }
    apply F. apply W1. }
  clearbody a2. destruct W2 as (W2 & E1 & E2).
  assert (R2 : goes a t a2 (add_bool t (S (lord (lc_lit c))))).
  { split; [|exact W2]. unfold run3. rewrite E1, E2. apply R1. }
  assert (R3 := watch_new_steps a2 _ c a' (add_bool t (S (lord (lc_lit c)))) W2 ltac:(rewrite E1; exact C1) eq_refl Eq).
  split; [eapply goes_trans; eauto|]. destruct (esteps_sinv _ _ (proj1 R3)) as [_ G3]; [apply W2|].
  eapply stored_grows; [exact G3|]. cbn [fst run3]. rewrite E1. exact C1.
Qed.

Lemma distinct_perm a b p q : Permutation a b -> NoDup (map fst a) -> distinct_vars (mkReq b p q).
Proof.
  intros P H. unfold distinct_vars. cbn [rq_terms].
  assert (N : NoDup (map fst b)) by (eapply Permutation_NoDup; [apply Permutation_map, P|exact H]).
  clear P H a. induction b as [|[v c] b IH]; cbn; [constructor|]. inversion N as [|? ? N1 N2]; subst.
  destruct (negb _); [|auto]. cbn. constructor; auto. intros A. apply N1.
  apply in_map_iff in A. destruct A as (u & E & A). apply filter_In in A. apply in_map_iff. exists u. tauto.
Qed.
(** the constraint [c] is empty iff the elimination left no variables; otherwise it means the
    derived constraint *)
Lemma fm_finish_steps a t f a' t' c : wsi a -> NoDup (map fst (fm_terms f)) ->
  fm_finish hi hv opt a t f = Ok (a', t', c) ->
  goes a t a' t' /\ (fm_terms f <> [] -> stored (l_st a') c).
Proof.
  intros Ha Hd. unfold fm_finish. destruct (fm_terms f) as [|u us] eqn:Ef; intros H.
  { inversion H; subst. split; [now apply goes_refl|congruence]. }
  rewrite <- Ef in *. clear Ef. binv H.
  pose proof (sort_perm (level_gt t) (fm_terms f)) as P.
  pose proof (distinct_perm _ _ (fm_pred f) (- fm_const f)%Q P Hd) as D.
  match goal with E : lra_constraint _ _ _ _ _ _ _ _ = _ |- _ => apply (constraint_steps a t (mkReq _ _ _) _ _ _ Ha D) in E;
    destruct E as [G C] end.
  destruct (mdef _ _); binv H; inversion H; subst; [auto|].
  split; [|auto]. eapply goes_trans; [exact G|]. split; [|apply G].
  apply e_one. eapply sem_propagate_steps; eauto.
Qed.
Lemma resolve_nodup f g x h : fm_resolve f g x = Ok h -> NoDup (map fst (fm_terms h)).
Proof. intros H. destruct (resolve_inv _ _ _ _ H) as (a & b & _ & _ & _ & _ & N & _). exact N. Qed.

Lemma query_goes a t x w : wsi a -> vq (l_st a) t (bd_of (l_bd a) x) w ->
  goes a t (with_bd a (bd_set (l_bd a) x w)) t.
Proof. intros Ha H. split; [|now apply wsi_bd]. apply e_one. now apply es_query. Qed.

Lemma bound_conflict_steps a t x a' t' o : wsi a -> bound_conflict hi hv opt a t x = Ok (a', t', o) -> goes a t a' t'.
Proof.
  intros Ha. unfold bound_conflict. intros H.
  destruct (lower_bound _ _ _) as [w1 lb] eqn:E1. destruct (upper_bound _ _ _) as [w2 ub] eqn:E2.
  apply vq_lower' in E1. apply vq_upper' in E2. pose proof (vq_trans _ _ _ _ _ E1 E2) as Q.
  pose proof (query_goes a t x w2 Ha Q) as G0.
  destruct lb as [lb|]; [|inversion H; subst; exact G0]. destruct ub as [ub|]; [|inversion H; subst; exact G0].
  destruct (_ || _); [inversion H; subst; exact G0|]. binv H.
  match goal with R : fm_resolve _ _ _ = Ok ?f, E : fm_finish _ _ _ _ _ ?f = _ |- _ =>
    apply fm_finish_steps in E; [destruct E as [G1 _]|apply G0|eapply resolve_nodup; eauto] end.
  inversion H; subst. eapply goes_trans; eauto.
Qed.
Lemma neq_side_steps a t n b m cl a' t' cl' : wsi a -> neq_side hi hv opt a t n b m cl = Ok (a', t', cl') -> goes a t a' t'.
Proof.
  intros Ha. unfold neq_side. intros H. binv H.
  match goal with R : fm_resolve _ _ _ = Ok ?f, E : fm_finish _ _ _ _ _ ?f = _ |- _ =>
    apply fm_finish_steps in E; [destruct E as [G1 _]|apply Ha|eapply resolve_nodup; eauto] end.
  destruct (lc_empty _); binv H; inversion H; subst; auto.
Qed.
Lemma neq_conflict_steps a t x a' t' o : wsi a -> neq_conflict hi hv opt a t x = Ok (a', t', o) -> goes a t a' t'.
Proof.
  intros Ha. unfold neq_conflict. intros H.
  destruct (lower_bound _ _ _) as [w1 lb] eqn:E1. destruct (upper_bound _ _ _) as [w2 ub] eqn:E2.
  apply vq_lower' in E1. apply vq_upper' in E2. pose proof (vq_trans _ _ _ _ _ E1 E2) as Q.
  pose proof (query_goes a t x w2 Ha Q) as G0.
  destruct lb as [lb|]; [|inversion H; subst; exact G0]. destruct ub as [ub|]; [|inversion H; subst; exact G0].
  destruct (_ || _); [inversion H; subst; exact G0|]. destruct (inequality _ _ _ _) as [w3 n] eqn:E3.
  apply vq_neq' in E3.
  assert (G1 : goes a t (with_bd (with_bd a (bd_set (l_bd a) x w2)) (bd_set (bd_set (l_bd a) x w2) x w3)) t).
  { eapply goes_trans; [exact G0|]. apply query_goes; [apply G0|]. cbn [l_st l_bd with_bd].
    rewrite bd_set_same, Nat.eqb_refl. exact E3. }
  destruct n as [n|]; [|inversion H; subst; exact G1]. binv H.
  match goal with E : neq_side _ _ _ (with_bd _ _) _ _ _ _ _ = _ |- _ => apply neq_side_steps in E; [|apply G1]; rename E into G2 end.
  match goal with E : neq_side _ _ _ _ _ _ _ _ _ = _ |- _ => apply neq_side_steps in E; [|apply G2]; rename E into G3 end.
  inversion H; subst. eapply goes_trans; [exact G1|]. eapply goes_trans; eauto.
Qed.
Lemma check_bounds_steps a t x a' t' o : wsi a -> check_bounds hi hv opt a t x = Ok (a', t', o) -> goes a t a' t'.
Proof.
  intros Ha. unfold check_bounds. intros H. binv H. apply bound_conflict_steps in Eq; auto.
  destruct o0; [inversion H; subst; exact Eq|]. apply neq_conflict_steps in H; [|apply Eq].
  eapply goes_trans; eauto.
Qed.
Lemma effectively_steps a t x a' b : wsi a -> effectively_decided a t x = (a', b) -> goes a t a' t.
Proof.
  intros Ha. unfold effectively_decided. destruct (mdef _ _); [intros H; inversion H; subst; now apply goes_refl|]. intros H.
  destruct (lower_bound _ _ _) as [w1 lb] eqn:E1. apply vq_lower' in E1.
  destruct lb as [lb|]; [|inversion H; subst; now apply query_goes].
  destruct (upper_bound _ _ _) as [w2 ub] eqn:E2. apply vq_upper' in E2.
  inversion H; subst. apply query_goes; auto. eapply vq_trans; eauto.
Qed.
Lemma decided_goes a t a' t' l : goes a t a' t' -> goes a t (with_decided a' l) t'.
Proof. intros [R [W1 W2 W3]]. split; [exact R|]. constructor; auto. Qed.
Lemma finish_loop_steps : forall vs k a t acc a' t' cs, wsi a ->
  finish_loop hi hv opt vs k a t acc = Ok (a', t', cs) -> goes a t a' t'.
Proof.
  induction vs as [|x vs IH]; intros k a t acc a' t' cs Ha; cbn [finish_loop]; intros H; [inversion H; subst; now apply goes_refl|].
  destruct (existsb _ _); [eauto|]. binv H. apply check_bounds_steps in Eq; auto. destruct o as [c|].
  - destruct (o_all opt); [|inversion H; subst; exact Eq]. eapply goes_trans; [exact Eq|]. eapply IH; [apply Eq|exact H].
  - destruct (if o_rational opt then _ else _) as [a2 b] eqn:E.
    assert (G2 : goes l t0 a2 t0).
    { destruct (o_rational opt); [eapply effectively_steps; eauto; apply Eq|]. inversion E; subst. apply goes_refl, Eq. }
    eapply goes_trans; [exact Eq|]. 
    assert (G3 : goes l t0 (if b then with_decided a2 (l_decided a2 ++ [x]) else a2) t0)
      by (destruct b; [now apply decided_goes|exact G2]).
    eapply goes_trans; [exact G3|]. eapply IH; [apply G3|exact H].
Qed.
Lemma propagate_steps a t a' t' cs : wsi a -> lra_propagate hi hv opt a t = Ok (a', t', cs) -> goes a t a' t'.
Proof.
  intros Ha. unfold lra_propagate. intros H. destruct (cursor_assigned _ _) as [cur es]. binv H.
  assert (A0 : wsi (with_cur a cur)) by (destruct Ha; constructor; auto).
  apply lra_vars_steps in Eq; auto.
  assert (G1 : goes a t l t0) by exact Eq.
  assert (A2 : goes l t0 a1 t0).
  { destruct (o_bounds opt); [eapply propagate_bounds_steps; eauto; apply G1|inversion Eq0; subst; apply goes_refl, G1]. }
  assert (A3 : goes a1 t0 l0 t1).
  { destruct (o_unassigned opt); [|inversion Eq1; subst; apply goes_refl, A2]. unfold propagate_unassigned in Eq1.
    destruct (_ =? _); [inversion Eq1; subst; apply goes_refl, A2|].
    destruct (rev _) as [|[[i|x] r] es']; [discriminate|inversion Eq1; subst; apply goes_refl, A2|].
    eapply unassigned_loop_steps; eauto; [apply A2|]. intros c Hc. eapply (ws_occur _ (proj2 A2)); eauto. }
  eapply goes_trans; [exact G1|]. eapply goes_trans; [exact A2|]. eapply goes_trans; [exact A3|].
  unfold lra_finish in H. destruct (bd_changed _) as [B ch] eqn:E. binv H. inversion H; subst.
  match goal with F : finish_loop _ _ _ _ _ _ _ _ = _ |- _ => apply finish_loop_steps in F; [|apply wsi_bd, A3]; rename F into G4 end.
  assert (G5 : goes l0 t1 (with_bd l0 B) t1).
  { split; [|apply wsi_bd, A3]. unfold bd_changed in E. inversion E; subst. apply e_one. apply es_mark. }
  eapply goes_trans; [exact G5|]. destruct G4 as [R [W1 W2 W3]]. split; [exact R|constructor; auto].
Qed.

Lemma loops_vq s t : forall fuel,
  (forall w v len w' o, around_zero fuel s t w v len = Ok (w', o) -> vq s t w w') /\
  (forall w v w' o, all_integers fuel s t w v = Ok (w', o) -> vq s t w w') /\
  (forall w v d w' o, walk fuel s t w v d = Ok (w', o) -> vq s t w w') /\
  (forall w f v d w' o, walk_within fuel s t w f v d = Ok (w', o) -> vq s t w w') /\
  (forall w v l w' o, halve fuel s t w v l = Ok (w', o) -> vq s t w w').
Proof.
  induction fuel as [|fuel (I1 & I2 & I3 & I4 & I5)]; [repeat split; discriminate|].
  repeat split; intros *; cbn [around_zero all_integers walk walk_within halve]; intros H;
    repeat match type of H with
    | (if ?b then _ else _) = _ => destruct b
    | (let '(_, _) := is_allowed ?s ?t ?w ?v in _) = _ =>
        let E := fresh "E" in let w' := fresh "w" in destruct (is_allowed s t w v) as [w' ?] eqn:E;
        apply vq_allowed in E
    end; try (inversion H; subst); eauto using vq_trans, vq_refl.
Qed.
Lemma find_integer_vq fuel s t w w' o : find_integer fuel s t w = Ok (w', o) -> vq s t w w'.
Proof.
  unfold find_integer. intros H. destruct (loops_vq s t fuel) as (I1 & I2 & I3 & I4 & _).
  destruct (lower_bound _ _ _) as [w1 lb] eqn:E1. apply vq_lower' in E1.
  destruct (upper_bound _ _ _) as [w2 ub] eqn:E2. apply vq_upper' in E2. pose proof (vq_trans _ _ _ _ _ E1 E2) as Q.
  destruct lb as [lb|], ub as [ub|].
  - destruct (Qle_bool 0 _); [binv H; eauto using vq_trans|]. destruct (Qle_bool _ 0); binv H; eauto using vq_trans.
  - binv H. destruct o0; [inversion H; subst; eauto using vq_trans|]. binv H. inversion H; subst. eauto using vq_trans.
  - binv H. destruct o0; [inversion H; subst; eauto using vq_trans|]. binv H. inversion H; subst. eauto using vq_trans.
  - binv H. inversion H; subst. eauto using vq_trans.
Qed.
Lemma pick_value_vq fuel s t w c w' q : pick_value fuel s t w c = Ok (w', q) -> vq s t w w'.
Proof.
  intros Eq. unfold pick_value in Eq. destruct (is_allowed _ _ _ _) as [w1 b1] eqn:E1.
  apply vq_allowed in E1. destruct b1; [inversion Eq; subst; auto|]. binv Eq.
  apply find_integer_vq in Eq0; auto. destruct o; [inversion Eq; subst; eauto using vq_trans|].
  destruct (lower_bound _ _ _) as [w3 lb] eqn:E3. apply vq_lower' in E3.
  destruct (upper_bound _ _ _) as [w4 ub] eqn:E4. apply vq_upper' in E4.
  binv Eq. destruct (loops_vq s t fuel) as (_ & _ & _ & _ & I5). apply I5 in Eq. eauto using vq_trans.
Qed.
Lemma decide_steps fuel a t v a' t' : wsi a -> has_var t v -> lra_decide fuel a t v = Ok (a', t') -> goes a t a' t'.
Proof.
  intros Ha Hv. unfold lra_decide. destruct v as [i|x]; [intros H; inversion H; subst; now apply goes_refl|]. intros H. binv H.
  cbn [l_st l_bd with_cache with_bd] in *. inversion H; subst; clear H.
  apply pick_value_vq in Eq.
  split; [|destruct Ha; constructor; auto].
  eapply e_cons; [eapply es_query; exact Eq|].
  eapply e_cons; [apply es_query with (x := x) (w := v0); rewrite bd_set_same, Nat.eqb_refl; eapply vq_allowed; exact Ep0|].
  destruct (is_allowed (l_st a) t v0 q) as [w2 b2] eqn:E2.
  apply is_allowed_spec in Ep0. destruct Ep0 as [V A]. apply is_allowed_spec in E2 as E3. destruct E3 as [_ A2].
  rewrite V in A2. assert (b2 = true) as -> by (apply A2, A; reflexivity).
  apply e_one. apply es_decide with (w1 := w2); [exact Hv|]. cbn [l_bd with_bd with_cache]. rewrite bd_set_same, Nat.eqb_refl. exact E2.
Qed.

(** every run of the plugin is a sequence of elementary steps *)
Theorem run_steps a t : lra_run hi hv opt a t ->
  rsteps (store_new, trail_new 0 0, bnds_new) (run3 a t) /\ wsi a.
Proof.
  induction 1 as [|a t o t' _ [R W] Hf Hs|a t nb nq _ [R W] Hb Hq|a t q a' t' c _ [R W] Hd E|a t a' t' cs _ [R W] E
                 |a t fuel v a' t' _ [R W] Hv E|a t _ [R W]].
  - split; [constructor|]. constructor; cbn; try tauto. + constructor; [apply inv_new|]. intros [|i] c E; discriminate E. + intros x w [].
  - split; [|exact W]. eapply r_foreign; eauto.
  - destruct (resize_sinv (l_st a) nb (ws_st a W)) as [S1 G1]. split; [|now apply wsi_grows].
    eapply r_own; [exact R|]. apply e_one. now apply es_more.
  - apply constraint_steps in E; auto. destruct E as [[R1 W1] _]. split; [eapply r_own; eauto|exact W1].
  - apply propagate_steps in E; auto. destruct E as [R1 W1]. split; [eapply r_own; eauto|exact W1].
  - apply decide_steps in E; auto. destruct E as [R1 W1]. split; [eapply r_own; eauto|exact W1].
  - split; [exact R|]. destruct W. constructor; auto.
Qed.
End H.
