(** Specification of variable orders and of the Luby sequence. *)
From Coq Require Import List Arith ZArith NArith Bool.
From Verif Require Import Base Core_Model Order_Model.
Open Scope nat_scope.

(** the variable exists / is assigned in the trail's models *)
Definition var_defined (t : trail) (v : var) : bool :=
  match v with VBool i => mdef (t_bm t) i | VRat i => mdef (t_qm t) i end.
Definition var_exists (t : trail) (v : var) : Prop :=
  match v with VBool i => i < mnum (t_bm t) | VRat i => i < mnum (t_qm t) end.

(** Luby, Sinclair, Zuckerman: t_i = 2^(k-1) if i = 2^k - 1,
    and t_i = t_(i - 2^(k-1) + 1) if 2^(k-1) <= i < 2^k - 1. *)
Inductive luby_seq : N -> Z -> Prop :=
| luby_top k : (1 <= k)%N -> luby_seq (2 ^ k - 1)%N (2 ^ (Z.of_N k - 1))%Z
| luby_rec k i z : (1 <= k)%N -> (2 ^ (k - 1) <= i < 2 ^ k - 1)%N ->
    luby_seq (i - (2 ^ (k - 1) - 1))%N z -> luby_seq i z.


(** A set of score values closed under what the orders do with scores, all above the initial best
    score -1 (for floats: the non-negative values and +infinity). *)
Record score_closed {F} (fo : fops F) (good : F -> Prop) : Prop := mkClosed {
  sc_zero : good (f_zero fo);
  sc_one : good (f_one fo);
  sc_add : forall a b, good a -> good b -> good (f_add fo a b);
  sc_mul : forall a, good a -> good (f_mul fo a (f_grow fo));
  sc_div : forall a, good a -> good (f_div fo a (f_threshold fo));
  sc_gt : forall a, good a -> f_gt fo a (f_neg1 fo) = true }.

(** An answer of pick is sound: the variable exists and is unassigned. *)
Definition pick_sound (t : trail) (o : option var) : Prop :=
  forall v, o = Some v -> var_exists t v /\ var_defined t v = false.
(** An answer of pick is complete for the variables [A]: none only if all of them are assigned. *)
Definition pick_complete (t : trail) (A : var -> Prop) (o : option var) : Prop :=
  o = None -> forall v, A v -> var_exists t v -> var_defined t v = true.
