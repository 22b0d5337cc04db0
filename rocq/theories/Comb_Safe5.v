(** A check of a problem with booleans and linear constraints fails no assertion. *)
From Coq Require Import List Arith ZArith QArith NArith Bool Lia Permutation Sorted.
From Verif Require Import Base Core_Model Literal_Proofs Analysis_Model Bool_Model Sat_Base Sat_Inv Sat_Trail Sat_Prop Sat_Bcp Sat_Main Sort_Proofs
  Trail_Model Spec_Trail Trail_Proofs Solver_Model Spec_Sat Spec_Theory Theory_Inv Theory_Strict Theory_Sound Theory_Bool Comb_Bcp Theory_Level
  Lincons_Model Spec_Lincons Lincons_Proofs Lincons_Proofs2 Lra_Model Spec_Lra Lra_Fm Lra_Bounds Lra_Hist Lra_Steps Lra_Keep
  Lra_Range Lra_Good Lra_Good2 Lra_Confl Lra_Watch Lra_Watch2 Comb_Model Comb_Lra Spec_Comb Comb_Final Theory_Safe Comb_Safe1
  Lra_Safe1 Lra_Safe2 Lra_Cut Lra_Cut2 Lra_Cut3 Lra_Safe3 Lra_Safe4 Lra_Safe5 Lra_Safe6 Lra_Shape Comb_Safe2 Comb_Safe3 Comb_Safe4.
Import ListNotations.
Open Scope nat_scope.

Section S.
Variables (hi : nat -> Z) (hv : Q -> Z) (opt : lopt).
Hypothesis HU : o_unassigned opt = false.

Lemma problem_ws h a t : problem hi hv opt h a t -> WS (l_watch a) (l_st a) /\ (forall up x, lst (l_bd a) up x = []) /\ bd_upd (l_bd a) = [].
Proof.
  induction 1 as [|h a t nb nq H IH L1 L2|h a t q a' t' c H IH Hd Hv E].
  - split; [|split; [intros [|] x; reflexivity|reflexivity]]. intros y. split; [constructor|intros w []].
  - destruct IH as (A & B & C). split; [|split; [exact B|exact C]]. cbn [with_st l_st l_watch]. intros y. destruct (A y) as [A1 A2]. split; [exact A1|].
    intros w Hw. destruct (A2 w Hw) as (W1 & W2 & W3 & W4). split; [exact W1|]. split; [exact W2|]. split; [|exact W4].
    unfold cv in *. rewrite get_resize. exact W3.
  - destruct IH as (A & B & C). pose proof (problem_SU _ _ _ _ _ _ H) as [R W N T F G Cu NE M Al].
    destruct (run_sinv hi hv opt _ _ R) as [WI _].
    destruct (constraint_ws hi hv opt a t q a' t' c WI Hd N W A E) as [A' ->]. auto.
Qed.

Section Run.
Context {HS : Type} (he : heur HS) (hash : lit -> N).
Variables (df : nat) (h : list (request * lit)) (a : lra) (t : trail) (cs : list clause) (o : phase_opt) (hs : HS).
Hypothesis HPb : problem hi hv opt h a t.
Hypothesis HV : forall c l, In c cs -> In l c -> lord l < mnum (t_bm t).
Hypothesis HN : forall c, In c cs -> c <> [].
Let s0 := mkS (mkDb cs []) t (bstate_new o, a) hs 0.
Let th := bl_theory hi hv opt df.
Hypothesis HP : picks_unassigned th he hash s0.

Lemma start_SPE : SPE hi hv opt (mnum (t_qm t)) (l_st a) (bstate_new o, a) (mkDb cs []) t.
Proof.
  split; [exact (start_PE hi hv opt h a t cs o HPb HV)|]. split.
  - intros c Hc. unfold clauses_of in Hc. cbn in Hc. rewrite app_nil_r in Hc. auto.
  - left. destruct (problem_ws h a t HPb) as (A & B & C). pose proof (problem_SU hi hv opt h a t HPb) as [R W N T F G Cu NE M Al].
    destruct (run_sinv hi hv opt _ _ R) as [WI SI0]. destruct F as [F1 F2 F3 F4 F5]. cbn [snd].
    apply EN_fresh; auto.
Qed.
Theorem check_safe fuel : check_lra hi hv opt he hash df fuel cs o a t hs <> UB.
Proof.
  unfold check_lra. fold th. pose proof (problem_SU hi hv opt h a t HPb) as [R W N T F G Cu NE M Al].
  pose proof start_SPE as P0.
  apply (run_safe th he hash ltm _ _ _ _ (bl_level2 hi hv opt df (mnum (t_qm t)) (l_st a) HU) (bl_safe_ok hi hv opt df (mnum (t_qm t)) (l_st a) HU)
    cs (mnum (t_bm t)) HV fuel s0).
  - apply start_SE; auto.
  - constructor.
  - cbn [s_trail]. destruct F as [F1 F2 F3 F4 F5]. apply DR_fresh; auto.
  - cbn. lia.
  - exact HP.
Qed.
End Run.
End S.
Print Assumptions check_safe.
