(** C28: recorded bounds of rational variables. *)
From Coq Require Import List Arith ZArith QArith Bool Lqa.
From Verif Require Import Base Core_Model Lincons_Model Spec_Lincons Trail_Model Lra_Model Spec_Lra.
From Verif Require Import Lra_Hist Lra_Examples Lra_Examples2 Lra_Steps Lra_Good Lra_Good2.
Import ListNotations.
Open Scope nat_scope.

(** C28: in every run of the plugin (any options, any hash functions, any interleaving of its calls
    with decisions, propagations and backtracks of the rest of the solver), every value that a
    rational assignment gives to [x] satisfies all recorded bounds and disequalities of [x] that are
    not obsolete, if the assignment extends the assigned rational values and agrees with the
    constraints whose literals are assigned. *)
Theorem C28 : forall hi hv opt a t r, lra_run hi hv opt a t -> agrees (l_st a) t r ->
  forall x, permitted (l_st a) t (bd_of (l_bd a) x) (r x).
Proof. exact bounds_implied. Qed.
Print Assumptions C28.

(** x1 >= 0, then x0 + x1 <= 3: the bound x0 <= 3 is deduced from the second and the bound of x1. *)
Definition c28_script : list lop :=
  [XSize 0 2; XCons [(0, 1%Q); (1, 1%Q)] PLeq 3%Q; XCons [(1, (-1)%Q)] PLeq 0%Q; XProp;
   XSet (mkLit 1 true); XProp; XSet (mkLit 0 false); XProp].
Definition c28_opt : lopt := mkOpt true false false true.
Example C28_nonvacuous : exists a t r b,
  lra_run ex_hash ex_hashq c28_opt a t /\ agrees (l_st a) t r /\
  In b (vb_ub (bd_of (l_bd a) 0)) /\ is_obsolete (l_st a) t b = false /\ b_deps b <> [] /\ b_val b = 3%Q /\
  match trail_backtrack t 1 with Ok t' => is_obsolete (l_st a) t' b = true | _ => False end.
Proof.
  exists (fst (xend c28_opt c28_script)), (snd (xend c28_opt c28_script)), (fun _ => 1%Q),
    (hd (Bnd 0 0 lc_default [] 0 0) (vb_ub (bd_of (l_bd (fst (xend c28_opt c28_script))) 0))).
  split; [apply xend_run|]. split.
  { split.
    - intros x. assert (Z : mdef (t_qm (snd (xend c28_opt c28_script))) x = false)
        by (vm_compute; destruct x as [|[|x]]; reflexivity).
      rewrite Z. intros F; discriminate F.
    - intros i. destruct i as [|[|i]].
      + vm_compute. intros _ _. split; [intros _ H; discriminate H|reflexivity].
      + vm_compute. intros _ _. split; [intros H; discriminate H|intros H; discriminate H].
      + assert (Z : mdef (t_bm (snd (xend c28_opt c28_script))) (S (S i)) = false) by (vm_compute; reflexivity).
        rewrite Z. intros F; discriminate F. }
  split; [vm_compute; auto|]. split; [vm_compute; reflexivity|]. split; [vm_compute; discriminate|].
  split; vm_compute; reflexivity.
Qed.
