(** C16 Literal encoding is faithful; C17 Clause evaluation is three-valued truth. *)
From Coq Require Import List ZArith Bool.
From Verif Require Import Base Core_Model Literal_Model Literal_Proofs.
Import ListNotations.

(** C16: round trip of the constructor, involutive negation that keeps the variable and flips the
    sign without overflow, equality = same variable and sign, distinct literals have distinct array
    slots inside an array of 2*num_vars slots, comparison is a strict order compatible with
    equality. *)
Theorem C16_literal_encoding :
  (forall ord, (0 <= ord)%Z -> L_ord (L_make ord) = ord /\ L_is_neg (L_make ord) = false) /\
  (forall v, L_reachable v ->
     L_neg (L_neg v) = v /\ L_ord (L_neg v) = L_ord v /\
     L_is_neg (L_neg v) = negb (L_is_neg v) /\ (0 <= L_ord v < 2 ^ 31 - 1)%Z /\
     (- 2 ^ 31 <= L_neg v < 2 ^ 31)%Z) /\
  (forall a b, L_reachable a -> L_reachable b ->
     (L_eq a b = true <-> L_ord a = L_ord b /\ L_is_neg a = L_is_neg b) /\
     (L_index a = L_index b -> a = b) /\
     (L_cmp a b = 0%Z <-> a = b)) /\
  (forall a b c, (L_cmp a b < 0 -> L_cmp b c < 0 -> L_cmp a c < 0)%Z) /\
  (forall v n, L_reachable v -> (L_ord v < n)%Z -> (0 <= L_index v < LM_slots n)%Z).
Proof. exact literal_encoding_lemma. Qed.
Print Assumptions C16_literal_encoding.

Example C16_nonvacuous :
  L_reachable (L_neg (L_make 41)) /\ L_ord (L_neg (L_make 41)) = 41%Z /\
  L_is_neg (L_neg (L_make 41)) = true /\ L_index (L_neg (L_make 41)) = 83%Z.
Proof. split; [apply LR_neg, LR_make; split; reflexivity || discriminate | now vm_compute]. Qed.

(** C17 *)
Theorem C17_clause_evaluation : forall (m : model bool) (c : clause),
  (eval_clause m c = Some true <-> exists l, In l c /\ eval_lit m l = Some true) /\
  (eval_clause m c = Some false <-> forall l, In l c -> eval_lit m l = Some false) /\
  (eval_clause m c = None <->
     (forall l, In l c -> eval_lit m l <> Some true) /\ exists l, In l c /\ eval_lit m l = None).
Proof. exact (fun m c => conj (eval_clause_true m c) (conj (eval_clause_false m c) (eval_clause_none m c))). Qed.
Print Assumptions C17_clause_evaluation.

(** [eval_lit] itself against the meaning of a literal in a partial assignment. *)
Theorem C17_literal_evaluation : forall (m : model bool) (l : lit),
  (eval_lit m l = None <-> mdef m (lord l) = false) /\
  (forall b, eval_lit m l = Some b <->
     mdef m (lord l) = true /\ b = (if lneg l then negb (mval m (lord l)) else mval m (lord l))).
Proof. exact eval_lit_spec. Qed.
Print Assumptions C17_literal_evaluation.

Example C17_nonvacuous :
  let m := set_value (set_value (model_new false 4) 0 true) 1 false in
  eval_clause m [mkLit 0 true; mkLit 1 true] = Some true /\
  eval_clause m [mkLit 0 true; mkLit 1 false] = Some false /\
  eval_clause m [mkLit 0 true; mkLit 2 false] = None.
Proof. now vm_compute. Qed.
