(** Model of the int encoding used by Literal.h / Literal_map.h, over Z. *)
From Coq Require Import ZArith Bool Lia.
Open Scope Z_scope.

(** Literal.h 30-31 constructor: value = var_ord + 1. *)
Definition L_make (ord : Z) : Z := ord + 1.
(** Literal.h operator~ and negate(): value = -value. *)
Definition L_neg (value : Z) : Z := - value.
(** Literal.h var().ord(): abs(value) - 1. *)
Definition L_ord (value : Z) : Z := Z.abs value - 1.
(** Literal.h is_negation(): value < 0. *)
Definition L_is_neg (value : Z) : bool := value <? 0.
(** Literal.h operator==. *)
Definition L_eq (a b : Z) : bool := a =? b.
(** Literal.h index() and Literal_map.h index(). *)
Definition L_index (value : Z) : Z := L_ord value * 2 + (if L_is_neg value then 1 else 0).
(** Literal.h operator<=>. *)
Definition L_cmp (a b : Z) : Z := L_index a - L_index b.
(** Literal_map.h 95 resize: number of slots for [n] variables. *)
Definition LM_slots (n : Z) : Z := n * 2.

(** Values a Literal object can take: built by the constructor from an ordinal in [0, 2^31-2] and
    negated any number of times. *)
Inductive L_reachable : Z -> Prop :=
| LR_make ord : 0 <= ord < 2 ^ 31 - 1 -> L_reachable (L_make ord)
| LR_neg v : L_reachable v -> L_reachable (L_neg v).
