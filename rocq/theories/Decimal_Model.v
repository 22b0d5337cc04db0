(** Numerals of the input language: terms/Term_manager.cpp 381-411 mk_integer_constant and
    mk_rational_constant, with the gcd of two Rationals. Texts are lists of characters. *)
From Coq Require Import List ZArith Bool Ascii QArith Qcanon.
From Verif Require Import Base Rational_Model Spec_Rational Terms_Model.
Import ListNotations.
Local Open Scope Z_scope.

(** mpq_set_str on a text in base 10: the text must be a nonempty sequence of digits (other texts, for
    which the call fails and its result is ignored, are UB). *)
Definition dig (c : ascii) : option Z :=
  let n := Z.of_nat (nat_of_ascii c) in if (48 <=? n) && (n <=? 57) then Some (n - 48) else None.
Fixpoint read_digits (acc : Z) (s : list ascii) : res Z :=
  match s with
  | [] => Ok acc
  | c :: s' => match dig c with Some d => read_digits (10 * acc + d) s' | None => UB end
  end.
Definition set_str (s : list ascii) : res Z := match s with [] => UB | _ => read_digits 0 s end.

(** Long_fraction.h 545-560: the template gcd for signed words ([%] truncates) *)
Fixpoint sgcd_loop (fuel : nat) (a b : Z) : Z :=
  match fuel with
  | O => 0
  | S f => let r := Z.rem a b in if r =? 0 then b else sgcd_loop f b r
  end.
Definition sgcd (a b : Z) : Z :=
  if a =? 0 then b
  else if b =? 0 then a
  else let '(a', b') := if a <? b then (b, a) else (a, b) in
       sgcd_loop (S (Z.to_nat (Z.log2 (a' * b')))) a' b'.
(** Long_fraction.cpp 116-126 gcd *)
Definition lf_gcd (a b : lf) : res lf :=
  i <- lf_isInteger a ;; j <- lf_isInteger b ;;
  _ <- assertb (i && j) ;;
  if wv a && wv b then Ok (lf_word (sgcd (num a) (num b)))
  else a' <- ensure_mpq a ;; b' <- ensure_mpq b ;; Ok (lf_mpz (Z.gcd (fst (mq a')) (fst (mq b')))).

(** Rational(str.c_str()) *)
Definition lf_of_text (s : list ascii) : res lf := n <- set_str s ;; lf_str n 1.
(** 381-386 mk_integer_constant, the number *)
Definition integer_constant (s : list ascii) : res lf :=
  x <- lf_of_text s ;; i <- lf_isInteger x ;; _ <- assertb i ;; Ok x.

(** str.find('.'), substr *)
Fixpoint split_dot (s : list ascii) : option (list ascii * list ascii) :=
  match s with
  | [] => None
  | c :: s' =>
      if Ascii.eqb c "." then Some ([], s')
      else match split_dot s' with Some (a, b) => Some (c :: a, b) | None => None end
  end.
(** 400-404: precision *= 10 for every digit *)
Fixpoint precision (p : lf) (s : list ascii) : res lf :=
  match s with [] => Ok p | _ :: s' => r <- lf_mul_assign p (lf_word 10) ;; precision (fst r) s' end.
(** 388-411 mk_rational_constant, the number *)
Definition rational_constant (s : list ascii) : res lf :=
  match split_dot s with
  | None => integer_constant s
  | Some (ip, fp) =>
      integral <- lf_of_text ip ;;
      prec <- precision (lf_word 1) fp ;;
      frac <- lf_of_text fp ;;
      g <- lf_gcd prec frac ;;
      num <- lf_div frac g ;;
      den <- lf_div prec g ;;
      m <- lf_mul integral (fst (fst den)) ;;
      a <- lf_add (fst (fst m)) (fst (fst num)) ;;
      r <- lf_div (fst (fst a)) (fst (fst den)) ;;
      Ok (fst (fst r))
  end.
(** the term *)
Definition mk_numeral (H : hashes) (T : table) (s : list ascii) : res (table * term) :=
  r <- integer_constant s ;; Ok (arith_const H T (Q2Qc (Spec_Rational.value r))).
Definition mk_decimal (H : hashes) (T : table) (s : list ascii) : res (table * term) :=
  r <- rational_constant s ;; Ok (arith_const H T (Q2Qc (Spec_Rational.value r))).
