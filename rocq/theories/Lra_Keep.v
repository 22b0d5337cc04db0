(** The order of the variables in constraints with at most one unassigned variable, at the front,
    does not change. *)
From Coq Require Import List Arith ZArith QArith Bool Lia Permutation.
From Verif Require Import Base Core_Model Trail_Model Lincons_Model Spec_Lincons Lincons_Proofs
  Lincons_Proofs2 Lra_Model Spec_Lra Lra_Fm Lra_Bounds Lra_Hist Lra_Steps.
Import ListNotations.
Open Scope nat_scope.

Definition kept (s s' : store) (qm : model Q) : Prop :=
  forall c, stored s c -> forallb (mdef qm) (tl (lc_vars s c)) = true -> lc_vars s' c = lc_vars s c.
Lemma kept_refl s qm : kept s s qm.
Proof. intros c _ _. reflexivity. Qed.
Lemma kept_vars s s' qm : (exists l, st_vars s' = st_vars s ++ l) -> inv s -> kept s s' qm.
Proof.
  intros [l E] HI c (c0 & H & _ & Ec & _) _. unfold lc_vars. rewrite E, Ec. apply slice_app_l.
  destruct (g_pos _ _ (i_good s HI c0 H)) as [(-> & _)|P]; cbn; lia.
Qed.
Lemma kept_swap s c i j qm : inv s -> stored s c -> i < lc_size c -> j < lc_size c ->
  forallb (mdef qm) (tl (lc_vars s c)) = false -> kept s (cons_swap s c i j) qm.
Proof.
  intros HI (c0 & H & _ & E & _) Hi Hj HF d (d0 & H' & _ & E' & _) HT.
  assert (N : c0 <> d0).
  { intros ->. rewrite (vars_pos s c d0 E) in HF. rewrite (vars_pos s d d0 E') in HT. congruence. }
  destruct (i_pair s HI c0 d0 H H' N) as [D _]. unfold disjoint in D.
  unfold lc_size in *. unfold lc_vars, cons_swap, lc_swap. cbn [st_vars]. rewrite E in *. rewrite E'.
  pose proof (good_pos_le s c0 (i_good s HI c0 H)).
  apply slice_swap_out; try lia.
Qed.
Lemma make_shape hi hv s q s' c : inv s -> distinct_vars q ->
  lc_make hi hv s (rq_terms q) (rq_pred q) (rq_rhs q) = (s', c) ->
  (exists l, st_vars s' = st_vars s ++ l) /\
  (st_cons s' = st_cons s \/ exists d, st_cons s' = st_cons s ++ [d] /\ lord (lc_lit c) = length (st_cons s)).
Proof.
  intros HI Hd E.
  assert (F : forall ts c1, let s1 := fst (insert_cons hi hv s ts c1) in
     lord (lc_lit c1) = length (st_cons s) ->
     (exists l, st_vars s1 = st_vars s ++ l) /\
     (st_cons s1 = st_cons s \/ exists d, st_cons s1 = st_cons s ++ [d] /\
        lord (lc_lit (snd (insert_cons hi hv s ts c1))) = length (st_cons s))).
  { intros ts c1 s1 L. unfold s1, insert_cons. destruct (set_find _ _ _ _); cbn.
    - split; [exists []; now rewrite app_nil_r|auto].
    - split; [eauto|right; exists c1; split; [reflexivity|exact L]]. }
  destruct q as [ts p rhs]. unfold distinct_vars in Hd. cbn [rq_terms rq_pred rq_rhs] in *. fold (nonzero ts) in Hd.
  destruct (find_norm ts) as [k|] eqn:Ek.
  - destruct (normalise_ok ts k Hd Ek) as (_ & _ & Hne).
    rewrite (lc_make_some hi hv s ts p rhs k (i_len s HI) Ek Hne) in E. inversion E; subst; clear E.
    match goal with |- context [insert_cons hi hv s ?x ?y] => destruct (F x y eq_refl) as [A B] end.
    split; [exact A|]. destruct B as [B|(d & B & L)]; [now left|right; exists d; split; [exact B|]].
    etransitivity; [|exact L]. unfold with_sign. destruct (flips k p); reflexivity.
  - rewrite (lc_make_none hi hv s ts p rhs Ek) in E. inversion E; subst; clear E.
    match goal with |- context [insert_cons hi hv s ?x ?y] => destruct (F x y eq_refl) as [A B] end.
    split; [exact A|]. destruct B as [B|(d & B & L)]; [now left|right; exists d; split; [exact B|]].
    etransitivity; [|exact L]. unfold with_sign. destruct (negb _); reflexivity.
Qed.
Lemma estep_kept hi hv s t B s' t' B' : estep hi hv (s, t, B) (s', t', B') -> sinv s -> kept s s' (t_qm t).
Proof.
  intros H HS. pose proof (si_inv s HS) as HI. inversion H; subst; try apply kept_refl.
  - now apply kept_swap.
  - match goal with E : lc_make _ _ _ _ _ _ = _ |- _ => apply make_shape in E; auto; destruct E as [E _]; now apply kept_vars end.
  - apply kept_vars; auto. exists []. cbn. now rewrite app_nil_r.
Qed.
