(** Decimal notation: the number a sequence of digits denotes. *)
From Coq Require Import List ZArith Ascii QArith.
Import ListNotations.
Local Open Scope Z_scope.

Definition is_digit (c : ascii) : Prop := In c ["0"; "1"; "2"; "3"; "4"; "5"; "6"; "7"; "8"; "9"]%char.
Definition digit_value (c : ascii) : Z := Z.of_nat (nat_of_ascii c) - Z.of_nat (nat_of_ascii "0").
(** positional notation: the first of [k+1] digits counts 10^k *)
Fixpoint digits_value (s : list ascii) : Z :=
  match s with [] => 0 | c :: s' => digit_value c * 10 ^ Z.of_nat (length s') + digits_value s' end.
(** [d1...dk.f1...fm] *)
Definition decimal_value (d f : list ascii) : Q :=
  (inject_Z (digits_value d) + inject_Z (digits_value f) / inject_Z (10 ^ Z.of_nat (length f)))%Q.
