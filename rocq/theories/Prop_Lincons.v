(** C25, C26, C27: linear constraints and polynomials. *)
From Coq Require Import List Arith ZArith QArith Bool Permutation Sorted.
From Verif Require Import Base Core_Model Lincons_Model Spec_Lincons Lincons_Proofs Lincons_Proofs2.
Import ListNotations.
Open Scope nat_scope.

(** C25: for every history of the repository (any hash functions), every request made in it with
    distinct variables (zero coefficients allowed, any sign of the leading coefficient) and every
    assignment [r] of the rational variables and [b] of the boolean variables that agree on the
    stored constraints, the returned literal is true iff [sum coef*vars pred rhs]. *)
Theorem C25 : forall hi hv s h q c r b,
  lc_history hi hv s h -> In (q, c) h -> respects s h r b ->
  lit_holds b (lc_lit c) <-> req_holds r q.
Proof. exact literal_means. Qed.
Print Assumptions C25.

(** C25: every rational assignment can be completed to one that agrees on the stored constraints. *)
Theorem C25_agreeing_assignment : forall hi hv s h r,
  lc_history hi hv s h -> exists b, respects s h r b.
Proof. exact respects_exists. Qed.
Print Assumptions C25_agreeing_assignment.

(** C25: evaluating the returned constraint in a model that assigns the variables of the request
    does not fail and gives the truth value of the request. *)
Theorem C25_eval : forall hi hv s h q c m,
  lc_history hi hv s h -> In (q, c) h ->
  (forall v, In v (map fst (filter (fun t => negb (Qeq_bool (snd t) 0)) (rq_terms q))) -> mdef m v = true) ->
  exists v, lc_eval s m c = Ok v /\ (v = true <-> req_holds (mval m) q).
Proof. exact eval_ok. Qed.
Print Assumptions C25_eval.

(** C26: requests whose literals are of the same variable are equivalent (same sign) or each is
    equivalent to the negation of the other (opposite signs). *)
Theorem C26_no_mixup : forall hi hv s h q1 c1 q2 c2,
  lc_history hi hv s h -> In (q1, c1) h -> In (q2, c2) h ->
  lord (lc_lit c1) = lord (lc_lit c2) ->
  forall r, req_holds r q1 <->
            (if Bool.eqb (lneg (lc_lit c1)) (lneg (lc_lit c2)) then req_holds r q2 else ~ req_holds r q2).
Proof. exact same_variable. Qed.
Print Assumptions C26_no_mixup.

(** C26: equivalent requests return the same literal. *)
Theorem C26_equivalent : forall hi hv s h q1 c1 q2 c2,
  lc_history hi hv s h -> In (q1, c1) h -> In (q2, c2) h ->
  (forall r, req_holds r q1 <-> req_holds r q2) -> lc_lit c1 = lc_lit c2.
Proof. exact (fun hi hv s h q1 c1 q2 c2 => equivalent_same hi hv s h q1 c1 q2 c2 true). Qed.
Print Assumptions C26_equivalent.

(** C26: complementary requests return complementary literals. *)
Theorem C26_complementary : forall hi hv s h q1 c1 q2 c2,
  lc_history hi hv s h -> In (q1, c1) h -> In (q2, c2) h ->
  (forall r, req_holds r q1 <-> ~ req_holds r q2) -> lc_lit c1 = neg (lc_lit c2).
Proof. exact (fun hi hv s h q1 c1 q2 c2 => equivalent_same hi hv s h q1 c1 q2 c2 false). Qed.
Print Assumptions C26_complementary.

(** A non-trivial history: 2x + 4y <= 6, -x - 2y < -3 (its complement), y + 1/2 x <= 3/2 (equal),
    0 <= -1 with a zero coefficient, five variables twice in different orders with different
    factors, a resize and a swap. *)
Definition C25_hi : nat -> Z := Z.of_nat.
Definition C25_hv (q : Q) : Z := (37 * Qnum q + 13 * Zpos (Qden q))%Z.
Definition C25_q1 := mkReq [(0, 2%Q); (1, 4%Q)] PLeq 6.
Definition C25_q2 := mkReq [(0, (-1)%Q); (1, (-2)%Q)] PLt (-3).
Definition C25_q3 := mkReq [(1, 1%Q); (0, (1#2)%Q)] PLeq (3#2).
Definition C25_q4 := mkReq [(2, 0%Q)] PLeq (-1).
Definition C25_q5 := mkReq [(0, 1%Q); (1, 1%Q); (2, 1%Q); (3, 1%Q); (4, 2%Q)] PEq 1.
Definition C25_q6 := mkReq [(4, (-4)%Q); (1, (-2)%Q); (3, (-2)%Q); (2, (-2)%Q); (0, (-2)%Q)] PEq (-2).
Definition C25_run (s : store) (q : request) : store * lcons :=
  lc_make C25_hi C25_hv s (rq_terms q) (rq_pred q) (rq_rhs q).
Definition C25_s1 := fst (C25_run store_new C25_q1).
Definition C25_s2 := lc_swap C25_s1 0 1.
Definition C25_s3 := fst (C25_run C25_s2 C25_q2).
Definition C25_s4 := fst (C25_run C25_s3 C25_q3).
Definition C25_s5 := lc_resize C25_s4 3.
Definition C25_s6 := fst (C25_run C25_s5 C25_q4).
Definition C25_s7 := fst (C25_run C25_s6 C25_q5).
Definition C25_s8 := fst (C25_run C25_s7 C25_q6).
Definition C25_h :=
  [(C25_q6, snd (C25_run C25_s7 C25_q6)); (C25_q5, snd (C25_run C25_s6 C25_q5));
   (C25_q4, snd (C25_run C25_s5 C25_q4)); (C25_q3, snd (C25_run C25_s3 C25_q3));
   (C25_q2, snd (C25_run C25_s2 C25_q2)); (C25_q1, snd (C25_run store_new C25_q1))].
Ltac C25_distinct := unfold distinct_vars; cbn; repeat constructor; simpl; intuition discriminate.
Example C25_nonvacuous :
  lc_history C25_hi C25_hv C25_s8 C25_h /\
  map (fun qc => lc_lit (snd qc)) C25_h =
  [mkLit 4 false; mkLit 4 false; mkLit 3 true; mkLit 0 false; mkLit 0 true; mkLit 0 false].
Proof.
  split; [|vm_compute; reflexivity].
  eapply lh_make; [eapply lh_make; [eapply lh_make; [eapply lh_resize; eapply lh_make; [eapply lh_make; [eapply lh_swap; [eapply lh_make; [apply lh_new|C25_distinct|apply surjective_pairing]|left; reflexivity| |]|C25_distinct|apply surjective_pairing]|C25_distinct|apply surjective_pairing]|C25_distinct|apply surjective_pairing]|C25_distinct|apply surjective_pairing]|C25_distinct|apply surjective_pairing];
  vm_compute; repeat constructor.
Qed.

(** C25 and C26 are false for requests that repeat a variable: after x0 + 4 x1 + x38 <= 0, the
    request x0 + x38 + x38 <= 0 gets the same literal (with the hash functions of the code:
    std::hash<int> is the identity, Long_fraction hashes n/d to 37 n + 13 d). *)
Theorem C25_repeated_refuted :
  exists q1 q2 s1 c1 s2 c2 r,
    lc_make C25_hi C25_hv store_new (rq_terms q1) (rq_pred q1) (rq_rhs q1) = (s1, c1) /\
    lc_make C25_hi C25_hv s1 (rq_terms q2) (rq_pred q2) (rq_rhs q2) = (s2, c2) /\
    lc_lit c1 = lc_lit c2 /\ req_holds r q1 /\ ~ req_holds r q2.
Proof.
  exists (mkReq [(0, 1%Q); (1, 4%Q); (38, 1%Q)] PLeq 0), (mkReq [(0, 1%Q); (38, 1%Q); (38, 1%Q)] PLeq 0).
  eexists _, _, _, _, (fun v => if v =? 1 then (-1)%Q else if v =? 38 then 1%Q else 0%Q).
  split; [vm_compute; reflexivity|]. split; [vm_compute; reflexivity|].
  split; [vm_compute; reflexivity|]. split; vm_compute; [discriminate|auto].
Qed.
Print Assumptions C25_repeated_refuted.

(** C27: values of the results *)
Theorem C27_add : forall r p x, (pvalue r (poly_add p x) == pvalue r p + pvalue r x)%Q.
Proof. exact poly_add_value. Qed.
Print Assumptions C27_add.
Theorem C27_sub : forall r p x, (pvalue r (poly_sub p x) == pvalue r p - pvalue r x)%Q.
Proof. exact poly_sub_value. Qed.
Print Assumptions C27_sub.
Theorem C27_negate : forall r p, (pvalue r (poly_negate p) == - pvalue r p)%Q.
Proof. exact poly_negate_value. Qed.
Print Assumptions C27_negate.
(** C27: subtract_var fails exactly if the variable occurs *)
Theorem C27_subtract_var : forall p v,
  match poly_subtract_var p v with
  | Ok p' => ~ In v (map fst (p_terms p)) /\ (forall r, (pvalue r p' == pvalue r p - r v)%Q) /\
             (poly_wf p -> poly_wf p')
  | UB => In v (map fst (p_terms p))
  | Fuel => False
  end.
Proof. exact poly_subtract_var_ok. Qed.
Print Assumptions C27_subtract_var.
(** C27: no zero coefficient and no repeated variable *)
Theorem C27_add_wf : forall p x,
  poly_wf p -> Forall (fun t => ~ snd t == 0)%Q (p_terms x) -> poly_wf (poly_add p x).
Proof. exact poly_add_wf. Qed.
Print Assumptions C27_add_wf.
Theorem C27_sub_wf : forall p x,
  poly_wf p -> Forall (fun t => ~ snd t == 0)%Q (p_terms x) -> poly_wf (poly_sub p x).
Proof. exact poly_sub_wf. Qed.
Print Assumptions C27_sub_wf.
(** C27: sort only reorders, by decreasing decision level, unassigned variables last *)
Theorem C27_sort : forall t p r,
  (Permutation (p_terms p) (p_terms (poly_sort t p)) /\ (pvalue r (poly_sort t p) == pvalue r p)%Q /\
   (poly_wf p -> poly_wf (poly_sort t p))) /\
  StronglySorted (fun a b => match t_lvl t (VRat (fst b)), t_lvl t (VRat (fst a)) with
                             | None, _ => True | Some y, Some x => y <= x | Some _, None => False end)
                 (p_terms (poly_sort t p)).
Proof. exact (fun t p r => conj (poly_sort_ok t p r) (poly_sort_sorted t p)). Qed.
Print Assumptions C27_sort.

(** 2x + 3y + 1 minus 2x - z + 2 is 3y + z - 1: a term disappears, one is merged, one appended. *)
Example C27_nonvacuous :
  map (fun t => (fst t, Qred (snd t)))
      (p_terms (poly_sub (mkPoly [(0, 2%Q); (1, 3%Q)] 1) (mkPoly [(0, 2%Q); (2, (-1)%Q)] 2))) =
  [(1, 3%Q); (2, 1%Q)] /\
  poly_wf (mkPoly [(0, 2%Q); (1, 3%Q)] 1) /\
  Forall (fun t => ~ snd t == 0)%Q (p_terms (mkPoly [(0, 2%Q); (2, (-1)%Q)] 2)).
Proof.
  split; [vm_compute; reflexivity|]. split; [split|].
  - repeat constructor; simpl; intuition discriminate.
  - repeat constructor; simpl; discriminate.
  - repeat constructor; simpl; discriminate.
Qed.
