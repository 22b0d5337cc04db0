(** C29, C30: conflict clauses of the linear arithmetic plugin. *)
From Coq Require Import List Arith ZArith QArith Bool.
From Verif Require Import Base Core_Model Lincons_Model Spec_Lincons Trail_Model Lra_Model Spec_Lra.
From Verif Require Import Lra_Hist Lra_Examples Lra_Examples2 Lra_Steps Lra_Confl.
Import ListNotations.
Open Scope nat_scope.

(** C29: in every run of the plugin, the clause returned by the analysis of a bound conflict of [x] is
    true in every world (every value of the rational variables, with each boolean variable of a linear
    constraint true iff the constraint holds), and every literal of it is false in the trail after
    the analysis (which may have added derived constraints and their values). *)
Theorem C29 : forall hi hv opt a t x a' t' cl, lra_run hi hv opt a t ->
  bound_conflict hi hv opt a t x = Ok (a', t', Some cl) ->
  theory_lemma (l_st a') cl /\ eval_clause (t_bm t') cl = Some false.
Proof. exact (fun hi hv opt a t x a' t' cl R => bound_conflict_lemma hi hv opt a t x a' t' cl (run_cinv hi hv opt a t R)). Qed.
Print Assumptions C29.

(** C30: the same for the analysis of a disequality conflict. *)
Theorem C30 : forall hi hv opt a t x a' t' cl, lra_run hi hv opt a t ->
  neq_conflict hi hv opt a t x = Ok (a', t', Some cl) ->
  theory_lemma (l_st a') cl /\ eval_clause (t_bm t') cl = Some false.
Proof. exact (fun hi hv opt a t x a' t' cl R => neq_conflict_lemma hi hv opt a t x a' t' cl (run_cinv hi hv opt a t R)). Qed.
Print Assumptions C30.

(** C29, C30 together, for the method the solver calls: all conflicts that one call of propagate
    returns are true in every world of the resulting repository of constraints, and false in the
    resulting trail. *)
Theorem C29_C30_propagate : forall hi hv opt a t a' t' cs, lra_run hi hv opt a t ->
  lra_propagate hi hv opt a t = Ok (a', t', cs) ->
  forall cl, In cl cs -> theory_lemma (l_st a') cl /\ eval_clause (t_bm t') cl = Some false.
Proof. exact (fun hi hv opt a t a' t' cs R => propagate_lemma hi hv opt a t a' t' cs (run_cinv hi hv opt a t R)). Qed.
Print Assumptions C29_C30_propagate.

(** x2 = 0, x1 >= 0, x0 + x1 + x2 <= 3, x0 >= 4: x1 is eliminated, the constraint x2 <= -1 is
    derived and added to the repository as variable 3. *)
Definition c29_script : list lop :=
  [XSize 0 3; XCons [(0, 1%Q); (1, 1%Q); (2, 1%Q)] PLeq 3%Q; XCons [(1, (-1)%Q)] PLeq 0%Q;
   XCons [(0, (-1)%Q)] PLeq (-4)%Q; XProp; XDecide 2;
   XSet (mkLit 1 true); XProp; XSet (mkLit 0 false); XProp; XSet (mkLit 2 true)].
Definition c29_opt : lopt := mkOpt true false false true.
Example C29_nonvacuous : exists a t a' t',
  lra_run ex_hash ex_hashq c29_opt a t /\
  lra_propagate ex_hash ex_hashq c29_opt a t =
    Ok (a', t', [[mkLit 0 true; mkLit 1 false; mkLit 2 false; mkLit 3 false]]) /\
  lc_terms (l_st a') (lc_get (l_st a') 3) = [(2, 1%Q)] /\ lc_pred (lc_get (l_st a') 3) = PLeq /\
  lc_rhs (lc_get (l_st a') 3) = (-1)%Q.
Proof.
  exists (fst (xend c29_opt c29_script)), (snd (xend c29_opt c29_script)).
  destruct (lra_propagate ex_hash ex_hashq c29_opt (fst (xend c29_opt c29_script)) (snd (xend c29_opt c29_script)))
    as [[[a' t'] cs]| |] eqn:E; [|vm_compute in E; discriminate E..].
  exists a', t'. split; [apply xend_run|]. vm_compute in E. inversion E; subst. repeat split.
Qed.
(** the same after the call: the analysis itself, called on a state of a run *)
Example C29_nonvacuous_analysis : exists a t a' t' cl,
  lra_run ex_hash ex_hashq (mkOpt false false false false) a t /\
  bound_conflict ex_hash ex_hashq (mkOpt false false false false) a t 0 = Ok (a', t', Some cl) /\ length cl = 2.
Proof.
  set (o := mkOpt false false false false).
  set (sc := [XSize 0 1; XCons [(0, 1%Q)] PLeq 3%Q; XCons [(0, (-1)%Q)] PLeq (-4)%Q; XSet (mkLit 1 true); XProp;
              XSet (mkLit 0 false); XProp]).
  exists (fst (xend o sc)), (snd (xend o sc)).
  destruct (bound_conflict ex_hash ex_hashq o (fst (xend o sc)) (snd (xend o sc)) 0) as [[[a' t'] [cl|]]| |] eqn:E;
    [|vm_compute in E; discriminate E..].
  exists a', t', cl. split; [apply xend_run|]. split; [reflexivity|]. vm_compute in E. inversion E; subst. reflexivity.
Qed.

(** x1 = 0, x0 + x1 <= 3, x0 + x1 >= 3, 2 x0 + x1 <> 6: two constraints about x1 are derived. *)
Definition c30_script : list lop :=
  [XSize 0 2; XCons [(0, 1%Q); (1, 1%Q)] PLeq 3%Q; XCons [(0, 1%Q); (1, 1%Q)] PLt 3%Q;
   XCons [(0, 2%Q); (1, 1%Q)] PEq 6%Q; XProp; XDecide 1;
   XSet (mkLit 0 false); XProp; XSet (mkLit 1 true); XProp; XSet (mkLit 2 true)].
Example C30_nonvacuous : exists a t a' t',
  lra_run ex_hash ex_hashq c29_opt a t /\
  lra_propagate ex_hash ex_hashq c29_opt a t =
    Ok (a', t', [[mkLit 0 true; mkLit 1 false; mkLit 2 false; mkLit 3 true; mkLit 4 false]]) /\
  lc_terms (l_st a') (lc_get (l_st a') 3) = [(1, 1%Q)] /\ lc_terms (l_st a') (lc_get (l_st a') 4) = [(1, 1%Q)].
Proof.
  exists (fst (xend c29_opt c30_script)), (snd (xend c29_opt c30_script)).
  destruct (lra_propagate ex_hash ex_hashq c29_opt (fst (xend c29_opt c30_script)) (snd (xend c29_opt c30_script)))
    as [[[a' t'] cs]| |] eqn:E; [|vm_compute in E; discriminate E..].
  exists a', t'. split; [apply xend_run|]. vm_compute in E. inversion E; subst. repeat split.
Qed.
