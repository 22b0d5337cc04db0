(** Linear_arithmetic::decide fails no assertion if some value is permitted, and the checks of the
    bounds find a conflict whenever no value is permitted. *)
From Coq Require Import List Arith ZArith QArith Bool Lia Permutation Lqa.
From Verif Require Import Base Core_Model Sort_Proofs Trail_Model Lincons_Model Spec_Lincons Lincons_Proofs
  Lincons_Proofs2 Lra_Model Spec_Lra Lra_Fm Lra_Bounds.
Import ListNotations.
Open Scope nat_scope.

(** ** more fuel does not change an answer *)
Definition lres {A} (a b : res A) : Prop := a = Fuel \/ a = b.
Lemma lres_refl {A} (a : res A) : lres a a. Proof. now right. Qed.
Lemma lres_fuel {A} (a : res A) : lres Fuel a. Proof. now left. Qed.
Lemma lres_bind {A B} (a b : res A) (f g : A -> res B) : lres a b -> (forall x, lres (f x) (g x)) -> lres (bind a f) (bind b g).
Proof. intros [->| ->] H; [now left|]. destruct b; cbn [bind]; auto using lres_refl. Qed.
Local Hint Resolve lres_refl lres_fuel : core.

Lemma around_mono s t len : forall f f' w v, f <= f' -> lres (around_zero f s t w v len) (around_zero f' s t w v len).
Proof.
  induction f as [|f IH]; intros [|f'] w v L; try (left; reflexivity); [lia|]. cbn [around_zero]. destruct (Qle_bool v len); auto.
  destruct (is_allowed s t w v) as [w1 [|]]; auto. destruct (is_allowed s t w1 (- v)%Q) as [w2 [|]]; auto. apply IH. lia.
Qed.
Lemma all_mono s t : forall f f' w v, f <= f' -> lres (all_integers f s t w v) (all_integers f' s t w v).
Proof.
  induction f as [|f IH]; intros [|f'] w v L; try (left; reflexivity); [lia|]. cbn [all_integers].
  destruct (is_allowed s t w v) as [w1 [|]]; auto. destruct (is_allowed s t w1 (- v)%Q) as [w2 [|]]; auto. apply IH. lia.
Qed.
Lemma walk_mono s t d : forall f f' w v, f <= f' -> lres (walk f s t w v d) (walk f' s t w v d).
Proof.
  induction f as [|f IH]; intros [|f'] w v L; try (left; reflexivity); [lia|]. cbn [walk].
  destruct (is_allowed s t w v) as [w1 [|]]; auto. apply IH. lia.
Qed.
Lemma within_mono s t ins d : forall f f' w v, f <= f' -> lres (walk_within f s t w ins v d) (walk_within f' s t w ins v d).
Proof.
  induction f as [|f IH]; intros [|f'] w v L; try (left; reflexivity); [lia|]. cbn [walk_within]. destruct (ins v); auto.
  destruct (is_allowed s t w v) as [w1 [|]]; auto. apply IH. lia.
Qed.
Lemma halve_mono s t l : forall f f' w v, f <= f' -> lres (halve f s t w v l) (halve f' s t w v l).
Proof.
  induction f as [|f IH]; intros [|f'] w v L; try (left; reflexivity); [lia|]. cbn [halve].
  destruct (is_allowed s t w v) as [w1 [|]]; auto. apply IH. lia.
Qed.
Lemma find_mono s t f f' w : f <= f' -> lres (find_integer f s t w) (find_integer f' s t w).
Proof.
  intros L. unfold find_integer. destruct (lower_bound s t w) as [w1 lb]. destruct (upper_bound s t w1) as [w2 ub].
  destruct lb as [lb|], ub as [ub|].
  - destruct (Qle_bool 0 (b_val lb)); [apply lres_bind; auto; intros _; now apply within_mono|].
    destruct (Qle_bool (b_val ub) 0); [apply lres_bind; auto; intros _; now apply within_mono|].
    apply lres_bind; auto; intros _. apply lres_bind; auto; intros _. now apply around_mono.
  - apply lres_bind; [now apply around_mono|]. intros [w3 [q|]]; auto. apply lres_bind; [now apply walk_mono|]. intros [w4 q]; auto.
  - apply lres_bind; [now apply around_mono|]. intros [w3 [q|]]; auto. apply lres_bind; [now apply walk_mono|]. intros [w4 q]; auto.
  - apply lres_bind; [now apply all_mono|]. intros [w3 q]; auto.
Qed.
Lemma pick_mono s t f f' w o : f <= f' -> lres (pick_value f s t w o) (pick_value f' s t w o).
Proof.
  intros L. unfold pick_value. destruct (is_allowed s t w _) as [w1 [|]]; auto. apply lres_bind; [now apply find_mono|].
  intros [w2 [q|]]; auto. destruct (lower_bound s t w2) as [w3 lb]. destruct (upper_bound s t w3) as [w4 ub].
  apply lres_bind; auto; intros ?. apply lres_bind; auto; intros ?. now apply halve_mono.
Qed.
Lemma decide_mono a t v f f' : f <= f' -> lres (lra_decide f a t v) (lra_decide f' a t v).
Proof.
  intros L. destruct v as [i|x]; cbn [lra_decide]; auto. apply lres_bind; [now apply pick_mono|]. intros [w q]; auto.
Qed.
(** Linear_arithmetic::decide fails no assertion if some value is permitted *)
Lemma decide_tot a t x fuel : vb_history (bd_of (l_bd a) x) ->
  (exists v, permitted (l_st a) t (bd_of (l_bd a) x) v) -> lra_decide fuel a t (VRat x) <> UB.
Proof.
  intros HH HF. destruct (decide_ok a t x HH HF) as (n & D). destruct (D (Nat.max n fuel)) as (a' & q & E & _); [lia|].
  destruct (decide_mono a t (VRat x) fuel (Nat.max n fuel)) as [M|M]; [lia|congruence|congruence].
Qed.

(** ** no conflict of the bounds of one variable: some value is permitted *)
Lemma nq_add_inj c i j : (c + nq i == c + nq j)%Q -> i = j.
Proof. intros H. apply nq_inj. lra. Qed.
Lemma free_value s t w : vb_history w ->
  (forall lb ub, snd (lower_bound s t w) = Some lb -> snd (upper_bound s t w) = Some ub ->
     (b_val lb < b_val ub)%Q \/
     (b_val lb == b_val ub)%Q /\ b_strict lb = false /\ b_strict ub = false /\
     forall b, In b (vb_neq w) -> is_obsolete s t b = false -> differs b (b_val lb)) ->
  exists v, permitted s t w v.
Proof.
  intros HH H. rewrite lower_view, upper_view in H. set (V := view s t w) in *.
  assert (G : exists v, allowed V v).
  { unfold allowed. destruct (hd_error (fst (fst V))) as [lb|] eqn:EL; destruct (hd_error (snd (fst V))) as [ub|] eqn:EU.
    - destruct (H lb ub eq_refl eq_refl) as [L|(E & S1 & S2 & N)].
      + destruct (avoid V (fun i => mid (b_val lb) (b_val ub) (S i))) as (i & Hi).
        { intros i j E. apply (mid_inj V _ _ _ _ L) in E. lia. }
        exists (mid (b_val lb) (b_val ub) (S i)). destruct (mid_range V (b_val lb) (S i) (b_val ub) L) as (R1 & R2 & R3).
        specialize (R3 (Nat.neq_succ_0 i)). split; [|split; [|exact Hi]].
        * intros b Hb. injection Hb as <-. unfold above. destruct (b_strict lb); lra.
        * intros b Hb. injection Hb as <-. unfold below. destruct (b_strict ub); lra.
      + exists (b_val lb). split; [|split].
        * intros b Hb. injection Hb as <-. unfold above. rewrite S1. lra.
        * intros b Hb. injection Hb as <-. unfold below. rewrite S2. lra.
        * intros b Hb. unfold V, view in Hb. cbn [snd] in Hb. apply filter_In in Hb. destruct Hb as [Hb O]. apply N; auto.
          now apply negb_true_iff in O.
    - destruct (avoid V (fun i => (b_val lb + 1 + nq i)%Q)) as (i & Hi); [intros; now apply (nq_add_inj (b_val lb + 1))|].
      exists (b_val lb + 1 + nq i)%Q. pose proof (nq_nonneg i). split; [|split; [discriminate|exact Hi]].
      intros b Hb. injection Hb as <-. unfold above. destruct (b_strict lb); lra.
    - destruct (avoid V (fun i => (b_val ub - 1 - nq i)%Q)) as (i & Hi).
      { intros i j E. apply nq_inj. lra. }
      exists (b_val ub - 1 - nq i)%Q. pose proof (nq_nonneg i). split; [discriminate|split; [|exact Hi]].
      intros b Hb. injection Hb as <-. unfold below. destruct (b_strict ub); lra.
    - destruct (avoid V (fun i => nq i)) as (i & Hi); [intros; now apply nq_inj|].
      exists (nq i). split; [discriminate|split; [discriminate|exact Hi]]. }
  destruct G as (v & G). exists v. now apply permitted_allowed.
Qed.
