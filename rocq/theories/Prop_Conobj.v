(** C70: what a linear constraint object tells about itself. *)
From Coq Require Import List Arith ZArith QArith Bool.
From Verif Require Import Base Core_Model Lincons_Model Spec_Lincons Conobj_Model Spec_Conobj Conobj_Proofs Prop_Lincons.
Import ListNotations.
Open Scope nat_scope.

(** vars(), coef(), pred(), rhs() and lit(): the variables are those of the request with a
    coefficient other than 0, each once, with one coefficient each; and the constraint they form,
    negated if the literal is negative, is the condition the object stands for. *)
Theorem C70_parts : forall hi hv s h d q P,
  lc_history hi hv s h -> cons_of h d q P ->
  length (lc_vars s d) = length (lc_coef s d) /\ NoDup (lc_vars s d) /\
  (forall v, In v (lc_vars s d) <-> req_vars q v) /\
  (forall r, P r <->
     signed (lneg (lc_lit d)) (rel (lc_pred d) (lin r (combine (lc_vars s d) (lc_coef s d))) (lc_rhs d))).
Proof.
  intros hi hv s h d q P H C. destruct (obj_facts hi hv s h H d q P C) as (L & N & _ & M).
  split; [exact L|]. split; [exact N|]. split; [intros v; exact (obj_vars hi hv s h H d q P v C)|exact M].
Qed.
Print Assumptions C70_parts.

(** eval(model, cons) fails no assertion; it answers nothing iff a variable of the constraint has
    no value, and otherwise the truth value of the constraint. *)
Theorem C70_eval : forall hi hv s h d q P m,
  lc_history hi hv s h -> cons_of h d q P ->
  exists o, lc_eval_opt s m d = Ok o /\
    match o with
    | None => exists v, req_vars q v /\ mdef m v = false
    | Some b => (forall v, req_vars q v -> mdef m v = true) /\ (b = true <-> P (mval m))
    end.
Proof. intros hi hv s h d q P m H C. exact (obj_eval hi hv s h H d q P m C). Qed.
Print Assumptions C70_eval.

(** is_strict(): the values on the boundary violate the constraint. *)
Theorem C70_strict : forall hi hv s h d q P r,
  lc_history hi hv s h -> cons_of h d q P ->
  (lin r (combine (lc_vars s d) (lc_coef s d)) == lc_rhs d)%Q ->
  lc_strict d = true <-> ~ P r.
Proof. intros hi hv s h d q P r H C E. exact (obj_strict hi hv s h H d q P r C E). Qed.
Print Assumptions C70_strict.

(** The same for the values that make the two sides of the request equal. *)
Theorem C70_strict_request : forall hi hv s h d q P r,
  lc_history hi hv s h -> cons_of h d q P ->
  (lin r (rq_terms q) == rq_rhs q)%Q -> lc_strict d = true <-> ~ P r.
Proof. intros hi hv s h d q P r H C E. exact (obj_strict_request hi hv s h H d q P r C E). Qed.
Print Assumptions C70_strict_request.

(** The constraint that vars(), coef() and rhs() show is the requested one multiplied by a number
    other than 0; or the request has no variables and the sides shown are both 0. *)
Theorem C70_multiple : forall hi hv s h d q P,
  lc_history hi hv s h -> cons_of h d q P ->
  (lc_vars s d = [] /\ (lc_rhs d == 0)%Q /\ forall r, (lin r (rq_terms q) == 0)%Q) \/
  (exists k, ~ (k == 0)%Q /\ (lc_rhs d == k * rq_rhs q)%Q /\
     forall r, (lin r (combine (lc_vars s d) (lc_coef s d)) == k * lin r (rq_terms q))%Q).
Proof. intros hi hv s h d q P H. exact (obj_multiple hi hv s h H d q P). Qed.
Print Assumptions C70_multiple.

(** implied_value(model): if all variables but the first have values, it fails no assertion and
    gives the right-hand side of the constraint that is left for the first variable. *)
Theorem C70_implied_value : forall hi hv s h d q P m x a vs cs,
  lc_history hi hv s h -> cons_of h d q P ->
  lc_vars s d = x :: vs -> lc_coef s d = a :: cs -> (forall v, In v vs -> mdef m v = true) ->
  exists k, lc_implied_value s m d = Ok k /\
    forall r, (forall v, In v vs -> (r v == mval m v)%Q) ->
      P r <-> signed (lneg (lc_lit d)) (rel (lc_pred d) (a * r x) k).
Proof. intros hi hv s h d q P m x a vs cs H. exact (obj_implied hi hv s h H d q P m x a vs cs). Qed.
Print Assumptions C70_implied_value.

(** operator<<: the printed constraint, read as usual, is the condition. *)
Theorem C70_print : forall hi hv s h d q P r,
  lc_history hi hv s h -> cons_of h d q P -> reads_as r (lc_print s d) (P r).
Proof. intros hi hv s h d q P r H. exact (obj_print hi hv s h H d q P r). Qed.
Print Assumptions C70_print.

(** The history of [C25_nonvacuous]: the object of -x - 2y < -3 is the negation of x + 2y <= 3
    with its variables swapped; its negation is not strict; with x = 1 the rest of 2y <= 2. *)
Definition C70_d : lcons := snd (C25_run C25_s2 C25_q2).
Definition C70_m : model Q := mkModel (fun _ => 1%Q) (fun v => v =? 0) (fun _ => 0%Z) 0 5.
Example C70_nonvacuous :
  lc_history C25_hi C25_hv C25_s8 C25_h /\
  cons_of C25_h C70_d C25_q2 (fun r => req_holds r C25_q2) /\
  cons_of C25_h (lc_neg C70_d) C25_q2 (fun r => ~ req_holds r C25_q2) /\
  lc_vars C25_s8 C70_d = [1; 0] /\ lc_coef C25_s8 C70_d = [2%Q; 1%Q] /\
  lc_strict C70_d = true /\ lc_strict (lc_neg C70_d) = false /\
  (forall v, In v [0] -> mdef C70_m v = true) /\
  lc_implied_value C25_s8 C70_m C70_d = Ok 2%Q /\
  lc_eval_opt C25_s8 C70_m C70_d = Ok None /\
  lc_print C25_s8 C70_d = [TNum 2; TTimes; TVar 1; TPlus; TVar 0; TRel SGt; TNum 3] /\
  (lin (fun _ => 1%Q) (rq_terms C25_q2) == rq_rhs C25_q2)%Q /\
  (lin (fun _ => 1%Q) (combine (lc_vars C25_s8 C70_d) (lc_coef C25_s8 C70_d)) == lc_rhs C70_d)%Q.
Proof.
  assert (C : cons_of C25_h C70_d C25_q2 (fun r => req_holds r C25_q2))
    by (constructor; unfold C25_h, C70_d; do 4 right; left; reflexivity).
  split; [exact (proj1 C25_nonvacuous)|]. split; [exact C|]. split; [exact (co_negation _ _ _ _ C)|].
  repeat (split; [solve [vm_compute; reflexivity|intros v [<-|[]]; reflexivity]|]). vm_compute. reflexivity.
Qed.
