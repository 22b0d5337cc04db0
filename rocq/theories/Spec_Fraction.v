(** What a user of Fraction<int> expects. *)
From Coq Require Import ZArith QArith.
From Verif Require Import Base Fraction_Model.
Open Scope Z_scope.

(** the number a fraction stands for *)
Definition fvalue (f : frac) : Q := (inject_Z (fnum f) / inject_Z (fden f))%Q.
(** the fractions in lowest terms with a positive denominator, both numbers of type int *)
Record proper (f : frac) : Prop := mkProper {
  pr_num : - 2 ^ 31 <= fnum f < 2 ^ 31;
  pr_den : 0 < fden f < 2 ^ 31;
  pr_gcd : Z.gcd (fnum f) (fden f) = 1 }.
(** [q], in lowest terms, has a numerator and a denominator of type int *)
Definition fits (q : Q) : Prop := - 2 ^ 31 <= Qnum (Qred q) < 2 ^ 31 /\ Z.pos (Qden (Qred q)) < 2 ^ 31.
(** the operation returns a proper fraction of value [q] *)
Definition gives (r : res frac) (q : Q) : Prop := exists f, r = Ok f /\ proper f /\ (fvalue f == q)%Q.
(** the operation is exact: it returns [q] if int can represent it, and never anything else *)
Definition computes (r : res frac) (q : Q) : Prop := (fits q -> gives r q) /\ forall f, r = Ok f -> proper f /\ (fvalue f == q)%Q.
(** an operation with a truth value decides [P] *)
Definition tells (r : res bool) (P : Prop) : Prop := exists b, r = Ok b /\ (b = true <-> P).
