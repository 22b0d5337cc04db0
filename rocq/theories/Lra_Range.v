(** Assigned variables exist, in every run of the plugin. *)
From Coq Require Import List Arith ZArith QArith Bool Lia Permutation.
From Verif Require Import Base Core_Model Trail_Model Lincons_Model Spec_Lincons Lincons_Proofs
  Lincons_Proofs2 Lra_Model Spec_Lra Lra_Fm Lra_Bounds Lra_Hist Lra_Steps Lra_Keep Lra_Good.
Import ListNotations.
Open Scope nat_scope.

Definition inr {T} (m : model T) : Prop := forall i, mdef m i = true -> i < mnum m.
Record rng (s : store) (t : trail) : Prop := {
  rg_c : length (st_cons s) <= mnum (t_bm t);
  rg_b : inr (t_bm t);
  rg_q : inr (t_qm t) }.

Lemma backtrack_num t k t' : trail_backtrack t k = Ok t' ->
  mnum (t_bm t') = mnum (t_bm t) /\ mnum (t_qm t') = mnum (t_qm t).
Proof.
  unfold trail_backtrack. destruct (_ <=? _); [|discriminate]. intros H. inversion H; subst. clear H.
  assert (U : forall es t0, let t1 := fold_left (unassign k) es t0 in
    mnum (t_bm t1) = mnum (t_bm t0) /\ mnum (t_qm t1) = mnum (t_qm t0)).
  { induction es as [|e es IH]; intros t0; cbn; [auto|].
    destruct (IH (unassign k t0 e)) as [A B]. cbn zeta in *. rewrite A, B.
    unfold unassign. destruct e as [v r]. cbn [fst]. destruct (t_lvl t0 v) as [j|]; [|auto].
    destruct (k <? j); [|auto]. destruct v; cbn; auto. }
  generalize (dl t - k). intros n. revert t. induction n as [|n IH]; intros t; cbn [backtrack_loop]; [auto|].
  destruct (IH (pop_level (fold_left (unassign k) (recent t) t))) as [A B].
  destruct (U (recent t) t) as [A1 B1]. cbn zeta in *. cbn [pop_level t_bm t_qm] in *. split; congruence.
Qed.
Lemma inr_set {T} (m : model T) i x : inr m -> i < mnum m -> inr (set_value m i x).
Proof. intros H Hi j. cbn. unfold upd. destruct (Nat.eqb_spec j i) as [->|]; auto. Qed.
Lemma inr_restr {T} (m m' : model T) : restr m m' -> mnum m <= mnum m' -> inr m -> inr m'.
Proof. intros [_ R] N H i Hi. destruct (R i Hi) as (A & _). specialize (H i A). lia. Qed.
Lemma inr_resize {T} (m : model T) x0 n : inr (model_resize x0 m n).
Proof. intros i. cbn [model_resize mdef mnum]. destruct (Nat.ltb_spec i (Nat.min n (mnum m))); [lia|discriminate]. Qed.

Lemma stored_lord s c : sinv s -> stored s c -> lord (lc_lit c) < length (st_cons s).
Proof.
  intros HS (c0 & H & E & _). rewrite E. apply nth_error_Some.
  rewrite (g_at s c0 (i_good s (si_inv s HS) c0 H)). discriminate.
Qed.
Lemma estep_rng hi hv s t B s' t' B' : estep hi hv (s, t, B) (s', t', B') -> sinv s -> rng s t -> rng s' t'.
Proof.
  intros H HS [R1 R2 R3]. inversion H; subst; try (constructor; assumption).
  - match goal with E : lc_make _ _ _ _ _ _ = _ |- _ => apply make_shape in E; [destruct E as [_ E]|apply HS|auto] end.
    destruct (Nat.leb_spec (mnum (t_bm t)) (lord (lc_lit c))) as [L|L].
    + constructor; cbn [add_bool trail_resize t_bm t_qm]; try apply inr_resize. cbn [model_resize mnum].
      match goal with E : _ \/ _ |- _ => destruct E as [->|(d & -> & Ed)] end; [lia|rewrite app_length; cbn; lia].
    + constructor; auto. match goal with E : _ \/ _ |- _ => destruct E as [->|(d & -> & Ed)] end; [lia|rewrite app_length; cbn; lia].
  - constructor; cbn [trail_resize t_bm t_qm]; try apply inr_resize.
    cbn [model_resize mnum lc_resize st_cons]. rewrite app_length, repeat_length. lia.
  - match goal with E : t_step _ _ = _ |- _ => cbn [t_step put] in E; unfold trail_propagate in E;
      destruct (_ <=? _); [|discriminate]; inversion E; subst end.
    constructor; cbn; auto. apply (inr_set (t_bm t)); auto.
    match goal with S : stored _ _ |- _ => pose proof (stored_lord _ _ HS S) end. lia.
  - constructor; cbn; auto. apply (inr_set (t_qm t)); auto.
Qed.
Lemma esteps_rng hi hv p q : esteps hi hv p q -> sinv (fst (fst p)) ->
  rng (fst (fst p)) (snd (fst p)) -> rng (fst (fst q)) (snd (fst q)).
Proof.
  induction 1 as [a|[[s t] B] [[s1 t1] B1] c H1 _ IH]; [auto|]. intros HS R. apply IH.
  - now apply (estep_sinv hi hv _ _ H1).
  - eapply estep_rng; eauto.
Qed.
Lemma foreign_rng s t o t' : foreign t o -> t_step t o = Ok t' -> rng s t -> rng s t'.
Proof.
  intros HF HE [R1 R2 R3]. destruct o as [[i|x] q|[i|x] r k q|k| |]; cbn [foreign has_var] in HF; try contradiction; cbn [t_step put] in HE.
  - inversion HE; subst. constructor; cbn; auto. now apply (inr_set (t_bm t)).
  - unfold trail_propagate in HE. destruct (_ <=? _); [|discriminate]. inversion HE; subst.
      constructor; cbn; auto. now apply (inr_set (t_bm t)).
  - destruct (backtrack_restr _ _ _ HE) as [A1 A2]. destruct (backtrack_num _ _ _ HE) as [N1 N2].
      constructor; [lia|eapply inr_restr; eauto; lia..].
  - inversion HE; subst. constructor; cbn; auto; intros i Hi; discriminate Hi.
Qed.
Lemma rsteps_rng hi hv p q : rsteps hi hv p q -> sinv (fst (fst p)) ->
  rng (fst (fst p)) (snd (fst p)) -> sinv (fst (fst q)) /\ rng (fst (fst q)) (snd (fst q)).
Proof.
  induction 1 as [a|a b c _ IH H2|a s t B o t' _ IH H2 H3]; [auto| |]; intros HS R; destruct (IH HS R) as [A1 A2].
  - split; [now apply (esteps_sinv hi hv _ _ H2)|eapply esteps_rng; eauto].
  - cbn [fst snd] in *. split; [exact A1|eapply foreign_rng; eauto].
Qed.
Lemma rng_init : rng store_new (trail_new 0 0).
Proof. constructor; [cbn; lia|intros i H; discriminate H..]. Qed.
