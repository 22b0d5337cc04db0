(** Model of lra/Fraction.h, for the type [Fraction<int>]. *)
From Coq Require Import ZArith Bool.
From Verif Require Import Base.
Open Scope Z_scope.

(** the values of int (32 bits) and std::int64_t; a result outside them is undefined behaviour of signed arithmetic *)
Definition INT_MIN : Z := - 2 ^ 31.
Definition INT_MAX : Z := 2 ^ 31 - 1.
Definition int_ok (z : Z) : bool := (INT_MIN <=? z) && (z <=? INT_MAX).
Definition int32 (z : Z) : res Z := if int_ok z then Ok z else UB.
Definition int64 (z : Z) : res Z := if (- 2 ^ 63 <=? z) && (z <? 2 ^ 63) then Ok z else UB.
(** std::abs *)
Definition iabs (z : Z) : res Z := int32 (Z.abs z).
(** integer division, towards zero *)
Definition idiv (a b : Z) : res Z := if b =? 0 then UB else int32 (Z.quot a b).
Definition idiv64 (a b : Z) : res Z := if b =? 0 then UB else int64 (Z.quot a b).

(** Fraction.h 19-140: the class and its two members. The operators += -= *= /= (62-115) assign the result of the operators below. Printing
    (157-171) is not modelled. *)
Record frac : Type := mkF { fnum : Z; fden : Z }.
(** 22: from an integer *)
Definition f_int (n : Z) : frac := mkF n 1.
(** 24-29: from a numerator and a denominator *)
Definition f_make (n d : Z) : res frac :=
  a <- iabs n ;; b <- iabs d ;;
  s <- int32 ((if xorb (n <? 0) (d <? 0) then -1 else 1) * a) ;;
  p <- idiv s (Z.gcd n d) ;; q <- idiv b (Z.gcd n d) ;;
  Ok (mkF p q).
(** 49-54: explicit conversion to int *)
Definition f_to_int (f : frac) : res Z := idiv (fnum f) (fden f).
(** 131-134 inv *)
Definition f_inv (f : frac) : res frac :=
  a <- iabs (fnum f) ;; n <- int32 ((if fnum f <? 0 then -1 else 1) * fden f) ;; Ok (mkF n a).

(** 183-190 operator==, 202-205 operator!= *)
Definition f_eq (l r : frac) : bool := (fnum l =? fnum r) && (fden l =? fden r).
Definition f_ne (l r : frac) : bool := negb (f_eq l r).
(** 217-222 operator<, 234-239 operator<= *)
Definition f_lt (l r : frac) : res bool :=
  a <- int64 (fnum l * fden r) ;; b <- int64 (fnum r * fden l) ;; Ok (a <? b).
Definition f_le (l r : frac) : res bool :=
  a <- int64 (fnum l * fden r) ;; b <- int64 (fnum r * fden l) ;; Ok (a <=? b).
(** 251-254 operator>, 266-269 operator>= *)
Definition f_gt (l r : frac) : res bool := b <- f_le l r ;; Ok (negb b).
Definition f_ge (l r : frac) : res bool := b <- f_lt l r ;; Ok (negb b).
(** 281-329: the operators <=, <, >=, > of a fraction and an integer, 341-361 == and != *)
Definition f_le_int (l : frac) (r : Z) : res bool := b <- int64 (fden l * r) ;; Ok (fnum l <=? b).
Definition f_lt_int (l : frac) (r : Z) : res bool := b <- int64 (fden l * r) ;; Ok (fnum l <? b).
Definition f_ge_int (l : frac) (r : Z) : res bool := b <- f_lt_int l r ;; Ok (negb b).
Definition f_gt_int (l : frac) (r : Z) : res bool := b <- f_le_int l r ;; Ok (negb b).
Definition f_eq_int (l : frac) (r : Z) : bool := (fden l =? 1) && (fnum l =? r).
Definition f_ne_int (l : frac) (r : Z) : bool := negb (f_eq_int l r).
(** 373-421: an integer and a fraction, with the arguments exchanged *)
Definition int_le_f (l : Z) (r : frac) : res bool := f_ge_int r l.
Definition int_lt_f (l : Z) (r : frac) : res bool := f_gt_int r l.
Definition int_ge_f (l : Z) (r : frac) : res bool := f_le_int r l.
Definition int_gt_f (l : Z) (r : frac) : res bool := f_lt_int r l.

(** 431-434 operator- *)
Definition f_neg (f : frac) : res frac := n <- int32 (- fnum f) ;; Ok (mkF n (fden f)).
(** 452-459 and 491-498: the common end of operator+ and operator*; std::gcd needs |num| and |denom| in std::int64_t *)
Definition f_reduce (num denom : Z) : res frac :=
  _ <- int64 (Z.abs num) ;; _ <- int64 (Z.abs denom) ;;
  n <- idiv64 num (Z.gcd num denom) ;; d <- idiv64 denom (Z.gcd num denom) ;;
  _ <- assertb (int_ok n) ;; _ <- assertb (int_ok d) ;;
  Ok (mkF n d).
(** 446-460 operator+ *)
Definition f_add (l r : frac) : res frac :=
  a <- int64 (fnum l * fden r) ;; b <- int64 (fnum r * fden l) ;; n <- int64 (a + b) ;;
  d <- int64 (fden l * fden r) ;; f_reduce n d.
(** 472-475 operator- *)
Definition f_sub (l r : frac) : res frac := r' <- f_neg r ;; f_add l r'.
(** 487-499 operator* *)
Definition f_mul (l r : frac) : res frac :=
  n <- int64 (fnum l * fnum r) ;; d <- int64 (fden l * fden r) ;; f_reduce n d.
(** 511-514 operator/ *)
Definition f_div (l r : frac) : res frac := r' <- f_inv r ;; f_mul l r'.
(** 526-574: a fraction and an integer; 586-634: an integer and a fraction *)
Definition f_add_int (l : frac) (r : Z) : res frac := f_add l (f_int r).
Definition f_sub_int (l : frac) (r : Z) : res frac := r' <- int32 (- r) ;; f_add_int l r'.
Definition f_mul_int (l : frac) (r : Z) : res frac := f_mul l (f_int r).
Definition f_div_int (l : frac) (r : Z) : res frac := f_div l (f_int r).
Definition int_add_f (l : Z) (r : frac) : res frac := f_add_int r l.
Definition int_sub_f (l : Z) (r : frac) : res frac := r' <- f_neg r ;; int_add_f l r'.
Definition int_mul_f (l : Z) (r : frac) : res frac := f_mul_int r l.
Definition int_div_f (l : Z) (r : frac) : res frac := r' <- f_inv r ;; int_mul_f l r'.

(** 686-694: the number that std::hash<Fraction<int>> hashes, with conversions to std::uint64_t *)
Definition f_key (f : frac) : Z := Z.lor (Z.shiftl (fnum f mod 2 ^ 64) 32 mod 2 ^ 64) (fden f mod 2 ^ 64).
