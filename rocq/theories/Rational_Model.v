(** Model of the rational numbers of the solver: lra/Long_fraction.h and lra/Long_fraction.cpp
    ([using Rational = Long_fraction], lra/Rational.h 12).

    C++ integers are modelled as [Z] with explicit ranges. Signed 64-bit results outside the
    range are undefined behaviour ([UB]); unsigned results and conversions wrap around.
    A failing [assert], [abort()], a division by zero and GMP's division-by-zero trap are [UB].
    GMP integers are unbounded [Z]; a GMP rational is a pair numerator, denominator, and the
    mpq_ functions return canonical results (their documented contract).
    Not modelled here: the memory pool of mpq objects (alloc / release), which is in Pool_Model.v, and exceptions of allocation. *)
From Coq Require Import ZArith Bool List.
From Verif Require Import Base.
Import ListNotations.
Local Open Scope Z_scope.

(** Long_fraction.h 28-36 *)
Definition WORD_MIN : Z := -2147483648.
Definition WORD_MAX : Z := 2147483647.
Definition UWORD_MAX : Z := 4294967295.
Definition LWORD_MIN : Z := -9223372036854775808.
Definition LWORD_MAX : Z := 9223372036854775807.
Definition two32 : Z := 4294967296.
Definition two64 : Z := 18446744073709551616.

(** Result of a signed 64-bit operation: overflow is undefined. *)
Definition lw (z : Z) : res Z :=
  if (LWORD_MIN <=? z) && (z <=? LWORD_MAX) then Ok z else UB.
(** Conversions: to uint32_t, to int32_t, to uint64_t, to int64_t. *)
Definition to_u32 (z : Z) : Z := z mod two32.
Definition to_i32 (z : Z) : Z := let u := z mod two32 in if WORD_MAX <? u then u - two32 else u.
Definition to_u64 (z : Z) : Z := z mod two64.
Definition to_i64 (z : Z) : Z := let u := z mod two64 in if LWORD_MAX <? u then u - two64 else u.
(** Unsigned division and signed division (truncating); a zero divisor is undefined. *)
Definition udiv (a b : Z) : res Z := if b =? 0 then UB else Ok (a / b).
Definition sdiv (a b : Z) : res Z := if b =? 0 then UB else lw (Z.quot a b).

(** Long_fraction.h 69-79: absVal, for 32 and for 64 bit operands *)
Definition absVal32 (x : Z) : Z := if x <? 0 then to_u32 (- to_u32 x) else to_u32 x.
Definition absVal64 (x : Z) : Z := if x <? 0 then to_u64 (- to_u64 x) else to_u64 x.

(** Long_fraction.h 546-560: template gcd on unsigned operands. The loop carries fuel;
    [ugcd] gives it enough (proved in Rational_Proofs.v: the result is the gcd). *)
Fixpoint gcd_loop (fuel : nat) (a b : Z) : Z :=
  match fuel with
  | O => 0
  | S f => let r := a mod b in if r =? 0 then b else gcd_loop f b r
  end.
Definition ugcd (a b : Z) : Z :=
  if a =? 0 then b
  else if b =? 0 then a
  else let '(a', b') := if a <? b then (b, a) else (a, b) in
       gcd_loop (S (Z.to_nat (Z.log2 (a' * b')))) a' b'.

(** Long_fraction.h 82-129: class Long_fraction. [wv], [ma], [mv] are the three bits of [state]
    (word part valid, mpq memory allocated, mpq part valid), [mq] is the content of the mpq. *)
Record lf : Type := mkLf { wv : bool; ma : bool; mv : bool; num : Z; den : Z; mq : Z * Z }.

(** Long_fraction.h 134, 135: Long_fraction() and Long_fraction(word) *)
Definition lf_word (x : Z) : lf := mkLf true false false x 1 (0, 1).
Definition lf_default : lf := lf_word 0.

(** Long_fraction.h 191-200 fitsWord, with its assertion *)
Definition mpz_fits_sint (z : Z) : bool := (WORD_MIN <=? z) && (z <=? WORD_MAX).
Definition mpz_fits_uint (z : Z) : bool := (0 <=? z) && (z <=? UWORD_MAX).
Definition fits_mpq (q : Z * Z) : bool := mpz_fits_sint (fst q) && mpz_fits_uint (snd q).
Definition fitsWord (x : lf) : res bool :=
  _ <- assertb (negb (wv x) && mv x) ;; Ok (fits_mpq (mq x)).

(** 201-210 try_fit_word *)
Definition try_fit_word (x : lf) : res lf :=
  f <- fitsWord x ;;
  if f : bool then Ok (mkLf true (ma x) (mv x) (fst (mq x)) (snd (mq x)) (mq x)) else Ok x.

(** 168-182 ensure_mpq_valid *)
Definition ensure_mpq (x : lf) : res lf :=
  if mv x then Ok x
  else _ <- assertb (wv x) ;; Ok (mkLf (wv x) true true (num x) (den x) (num x, den x)).

(** 113-123 setOnlyWordPartValid after assigning num and den *)
Definition set_word (x : lf) (n d : Z) : lf := mkLf true (ma x) false n d (mq x).

(** 638-643 wordAndMpqEqual *)
Definition wordAndMpqEqual (x : lf) : bool :=
  (to_u32 (to_u64 (Z.abs (snd (mq x)))) =? den x) &&
  (to_i32 (to_i64 (fst (mq x))) =? num x).

(** 628-636 isWellFormed *)
Definition isWellFormed (x : lf) : res bool :=
  _ <- (if wv x then Ok tt else f <- fitsWord x ;; assertb (negb f)) ;;
  Ok ((wv x || mv x)
      && (negb (wv x) || (negb (den x =? 0) && (ugcd (absVal32 (num x)) (den x) =? 1)))
      && (negb (mv x) || negb (snd (mq x) =? 0))
      && (negb (wv x && mv x) || wordAndMpqEqual x)).
Definition assert_wf (x : lf) : res unit := b <- isWellFormed x ;; assertb b.

(** GMP: mpq_canonicalize, mpq_add, mpq_sub, mpq_mul, mpq_div, mpq_neg, mpq_inv *)
Definition mpq_canon (n d : Z) : Z * Z :=
  let g := Z.gcd n d in (Z.sgn d * (n / g), Z.abs d / g).
Definition mpq_add (p q : Z * Z) : res (Z * Z) :=
  Ok (mpq_canon (fst p * snd q + fst q * snd p) (snd p * snd q)).
Definition mpq_sub (p q : Z * Z) : res (Z * Z) :=
  Ok (mpq_canon (fst p * snd q - fst q * snd p) (snd p * snd q)).
Definition mpq_mul (p q : Z * Z) : res (Z * Z) :=
  Ok (mpq_canon (fst p * fst q) (snd p * snd q)).
Definition mpq_div (p q : Z * Z) : res (Z * Z) :=
  if fst q =? 0 then UB else Ok (mpq_canon (fst p * snd q) (snd p * fst q)).
Definition mpq_neg (q : Z * Z) : Z * Z := (- fst q, snd q).
Definition mpq_inv (q : Z * Z) : res (Z * Z) :=
  if fst q =? 0 then UB else Ok (Z.sgn (fst q) * snd q, Z.abs (fst q)).

(** 645-660 Long_fraction(word n, uword d). [n / common] converts [n] to unsigned. *)
Definition lf_make (n d : Z) : res lf :=
  _ <- assertb (0 <? d) ;;
  if n =? 0 then Ok (lf_word 0)
  else let common := ugcd (absVal32 n) d in
       if 1 <? common then
         Ok (mkLf true false false (to_i32 (to_u32 n / common)) (d / common) (0, 1))
       else Ok (mkLf true false false n d (0, 1)).

(** Long_fraction.cpp 59-69: Long_fraction(uint32_t) *)
Definition lf_uint (x : Z) : lf :=
  if WORD_MAX <? x then mkLf false true true 0 1 (x, 1) else mkLf true false false x 1 (0, 1).
(** Long_fraction.cpp 46-57: Long_fraction(mpz_t) *)
Definition lf_mpz (z : Z) : lf :=
  if mpz_fits_sint z then mkLf true false false z 1 (0, 1) else mkLf false true true 0 1 (z, 1).
(** Long_fraction.cpp 35-44: Long_fraction(const char* ), for a string that denotes
    numerator [n] and denominator [d]; kill_mpq (161-167) drops the mpq if it fits a word. *)
Definition lf_str (n d : Z) : res lf :=
  if d =? 0 then UB else
  x <- try_fit_word (mkLf false true true 0 1 (mpq_canon n d)) ;;
  let x := if wv x then mkLf true false false (num x) (den x) (mq x) else x in
  _ <- assert_wf x ;; Ok x.

(** 444-456 copy constructor *)
Definition lf_copy (x : lf) : res lf :=
  if wv x then Ok (mkLf true false false (num x) (den x) (0, 1))
  else _ <- assertb (mv x) ;; Ok (mkLf false true true 0 1 (mq x)).
(** 458-463 move constructor: new object and what is left of the source *)
Definition lf_move (x : lf) : lf * lf :=
  if ma x then (x, mkLf true false false (num x) (den x) (0, 1)) else (x, x).
(** 465-480 copy assignment *)
Definition lf_assign (this x : lf) : res lf :=
  if wv x then Ok (set_word this (num x) (den x))
  else _ <- assertb (mv x) ;; Ok (mkLf false true true (num this) (den this) (mq x)).

(** 482-489 operator==; the operands may get their mpq part filled in *)
Definition lf_eq (a b : lf) : res (bool * lf * lf) :=
  if wv a && wv b then Ok ((num a =? num b) && (den a =? den b), a, b)
  else a' <- ensure_mpq a ;; b' <- ensure_mpq b ;;
       Ok ((fst (mq a') =? fst (mq b')) && (snd (mq a') =? snd (mq b')), a', b').

(** 491-503 unary minus *)
Definition lf_neg (a : lf) : res (lf * lf) :=
  if wv a && (WORD_MIN <? num a) then r <- lf_make (- num a) (den a) ;; Ok (r, a)
  else a' <- ensure_mpq a ;;
       r <- try_fit_word (mkLf false true true 0 1 (mpq_neg (mq a'))) ;; Ok (r, a').

(** 505-517 negate *)
Definition lf_negate (a : lf) : res lf :=
  x <- (if wv a && (WORD_MIN <? num a) then Ok (set_word a (- num a) (den a))
        else a' <- ensure_mpq a ;;
             try_fit_word (mkLf false true true (num a') (den a') (mpq_neg (mq a')))) ;;
  _ <- assert_wf x ;; Ok x.

(** 223-227 compare(lword, lword) and 519-530 compare; mpq_cmp is the sign of the difference *)
Definition cmp (a b : Z) : Z := if a <? b then -1 else if b <? a then 1 else 0.
Definition lf_compare (a b : lf) : res (Z * lf * lf) :=
  if wv a && wv b then
    if den b =? den a then Ok (cmp (num a) (num b), a, b)
    else l <- lw (num a * den b) ;; r <- lw (num b * den a) ;; Ok (cmp l r, a, b)
  else a' <- ensure_mpq a ;; b' <- ensure_mpq b ;;
       Ok (cmp (fst (mq a') * snd (mq b')) (fst (mq b') * snd (mq a')), a', b').

(** 532-544 sign *)
Definition lf_sign (a : lf) : res Z :=
  if wv a then Ok (if num a <? 0 then -1 else if 0 <? num a then 1 else 0)
  else _ <- assertb (mv a) ;; Ok (Z.sgn (fst (mq a))).

(** 298-305 isInteger *)
Definition lf_isInteger (a : lf) : res bool :=
  if wv a then Ok (den a =? 1)
  else _ <- assertb (mv a) ;; Ok (mpz_fits_uint (snd (mq a)) && (to_u64 (snd (mq a)) =? 1)).

(** 397-405 isZero, isOne *)
Definition lf_isZero (a : lf) : res bool :=
  _ <- (if wv a then Ok tt else f <- fitsWord a ;; assertb (negb f)) ;;
  Ok (wv a && (num a =? 0)).
Definition lf_isOne (a : lf) : res bool :=
  _ <- (if wv a then Ok tt else f <- fitsWord a ;; assertb (negb f)) ;;
  Ok (wv a && (num a =? 1) && (den a =? 1)).

(** 584-626: the CHECK_ macros; [Ok None] is [goto overflow] *)
Definition check_word {A} (z : Z) (k : Z -> res (option A)) : res (option A) :=
  if (z <? WORD_MIN) || (WORD_MAX <? z) then Ok None else k z.
Definition check_uword {A} (z : Z) (k : Z -> res (option A)) : res (option A) :=
  if z <? 1 then UB else if UWORD_MAX <? z then Ok None else k z.
Definition check_sum {A} (s1 s2 : Z) (k : Z -> res (option A)) : res (option A) :=
  if (0 <? s1) && (LWORD_MAX - s1 <? s2) then Ok None
  else if (s1 <? 0) && (s2 <? LWORD_MIN - s1) then Ok None
  else n <- lw (s1 + s2) ;; k n.
Definition check_sub {A} (s1 s2 : Z) (k : Z -> res (option A)) : res (option A) :=
  if (0 <=? s1) && (s2 <? s1 - LWORD_MAX) then Ok None
  else if (s1 <? 0) && ((s1 + 1) + LWORD_MAX <? s2) then Ok None
  else n <- lw (s1 - s2) ;; k n.

(** The common tail of 676-690, 738-752, 867-878 and 905-916: reduce [n/d] by [common]. [use] is
    the test on [common] ([!= 1] or [> 1]). *)
Definition reduce (use : bool) (n d common : Z) : res (option (Z * Z)) :=
  if use then
    q <- sdiv n common ;;
    check_word q (fun zn =>
      p <- udiv d common ;; check_uword p (fun zd => Ok (Some (zn, zd))))
  else check_word n (fun zn => check_uword d (fun zd => Ok (Some (zn, zd)))).

(** 662-713 addition, the word part *)
Definition add_word (an ad bn bd : Z) : res (option (Z * Z)) :=
  if bn =? 0 then Ok (Some (an, ad))
  else if an =? 0 then Ok (Some (bn, bd))
  else if (ad =? bd) && (WORD_MIN <? bn) && (an =? - bn) then Ok (Some (0, 1))
  else if bd =? 1 then
    m <- lw (bn * ad) ;; t <- lw (an + m) ;; check_word t (fun n => Ok (Some (n, ad)))
  else if ad =? 1 then
    m <- lw (an * bd) ;; t <- lw (bn + m) ;; check_word t (fun n => Ok (Some (n, bd)))
  else
    let common := ugcd ad bd in
    bq <- udiv bd common ;;
    aq <- udiv ad common ;;
    n1 <- lw (an * (if common =? 1 then bd else bq)) ;;
    n2 <- lw (bn * (if common =? 1 then ad else aq)) ;;
    check_sum n1 n2 (fun n =>
      let d := to_u64 (ad * bq) in
      let common := to_u32 (ugcd (absVal64 n) d) in
      reduce (negb (common =? 1)) n d common).

(** 724-781 substraction, the word part *)
Definition sub_word (an ad bn bd : Z) : res (option (Z * Z)) :=
  if bn =? 0 then Ok (Some (an, ad))
  else if an =? 0 then t <- lw (- bn) ;; check_word t (fun n => Ok (Some (n, bd)))
  else if (ad =? bd) && (an =? bn) then Ok (Some (0, 1))
  else if bd =? 1 then
    m <- lw (bn * ad) ;; t <- lw (an - m) ;; check_word t (fun n => Ok (Some (n, ad)))
  else if ad =? 1 then
    m <- lw (an * bd) ;; t <- lw (m - bn) ;; check_word t (fun n => Ok (Some (n, bd)))
  else
    let common := ugcd ad bd in
    let tail n d :=
      let common := to_u32 (ugcd (absVal64 n) d) in
      reduce (negb (common =? 1)) n d common in
    if negb (common =? 1) then
      bq <- udiv bd common ;;
      aq <- udiv ad common ;;
      n1 <- lw (an * bq) ;;
      n2 <- lw (bn * aq) ;;
      n <- lw (n1 - n2) ;;
      tail n (to_u64 (ad * bq))
    else
      n1 <- lw (an * bd) ;;
      n2 <- lw (bn * ad) ;;
      check_sub n1 n2 (fun n => tail n (to_u64 (ad * bd))).

(** 806-832 multiplication, the word part *)
Definition mul_word (an ad bn bd : Z) : res (option (Z * Z)) :=
  let common1 := ugcd (absVal32 an) bd in
  let common2 := ugcd ad (absVal32 bn) in
  k1 <- (if 1 <? common1 then sdiv an common1 else Ok an) ;;
  k4 <- (if 1 <? common1 then udiv bd common1 else Ok bd) ;;
  k2 <- (if 1 <? common2 then sdiv bn common2 else Ok bn) ;;
  k3 <- (if 1 <? common2 then udiv ad common2 else Ok ad) ;;
  p <- lw (k1 * k2) ;;
  check_word p (fun zn => check_uword (to_u64 (k3 * k4)) (fun zd => Ok (Some (zn, zd)))).

(** Sign test of 837-843, 937-943, 969-975 *)
Definition flip (an bn : Z) : bool :=
  ((bn <? 0) && (0 <=? an)) || ((0 <? bn) && (an <=? 0)).

(** 856-880 division and 1005-1025 divisionAssign, the word part *)
Definition div_word (an ad bn bd : Z) : res (option (Z * Z)) :=
  let common1 := ugcd (absVal32 an) (absVal32 bn) in
  let common2 := ugcd ad bd in
  x1 <- udiv (absVal32 an) common1 ;;
  x2 <- udiv bd common2 ;;
  check_word (to_i64 (to_u64 (x1 * x2))) (fun zn =>
    y1 <- udiv (absVal32 bn) common1 ;;
    y2 <- udiv ad common2 ;;
    check_uword (to_u64 (y1 * y2)) (fun zd =>
      Ok (Some (if flip an bn then - zn else zn, zd)))).

(** 972-995 multiplicationAssign, the word part *)
Definition mula_word (an ad bn bd : Z) : res (option (Z * Z)) :=
  let common1 := ugcd (absVal32 an) bd in
  let common2 := ugcd ad (absVal32 bn) in
  x1 <- (if 1 <? common1 then udiv (absVal32 an) common1 else Ok (absVal32 an)) ;;
  x2 <- (if 1 <? common2 then udiv (absVal32 bn) common2 else Ok (absVal32 bn)) ;;
  p <- lw (x1 * x2) ;;
  check_word p (fun zn =>
    y1 <- (if 1 <? common2 then udiv ad common2 else Ok ad) ;;
    y2 <- (if 1 <? common1 then udiv bd common1 else Ok bd) ;;
    check_uword (to_u64 (y1 * y2)) (fun zd =>
      Ok (Some (if flip an bn then - zn else zn, zd)))).

(** 900-932 additionAssign, the word part, for a nonzero [bn] *)
Definition adda_word (an ad bn bd : Z) : res (option (Z * Z)) :=
  if bd =? 1 then
    m <- lw (bn * ad) ;; t <- lw (an + m) ;; check_word t (fun n => Ok (Some (n, ad)))
  else if an =? 0 then Ok (Some (bn, bd))
  else
    c1 <- lw (an * bd) ;;
    c2 <- lw (bn * ad) ;;
    check_sum c1 c2 (fun n =>
      let d := to_u64 (ad * bd) in
      let common := to_i64 (ugcd (absVal64 n) d) in
      reduce (1 <? common) n d common).

(** 941-963 substractionAssign, the word part *)
Definition suba_word (an ad bn bd : Z) : res (option (Z * Z)) :=
  let common := ugcd ad bd in
  bq <- udiv bd common ;;
  t1 <- lw (an * bq) ;;
  check_word t1 (fun n1 =>
    aq <- udiv ad common ;;
    t2 <- lw (bn * aq) ;;
    check_word t2 (fun n2 =>
      n <- lw (n1 - n2) ;;
      let d := to_u64 (ad * bq) in
      let common := to_u32 (ugcd (absVal64 n) d) in
      reduce (1 <? common) n d common)).

(** The multi-precision tail of every operation: 699-706, 762-769, 809-816, 848-855, 887-894, ...
    [keep] is the object that receives the result (its num, den remain in place). *)
Definition slow (op : Z * Z -> Z * Z -> res (Z * Z)) (keep a b : lf) : res (lf * lf * lf) :=
  a' <- ensure_mpq a ;;
  b' <- ensure_mpq b ;;
  v <- op (mq a') (mq b') ;;
  d <- try_fit_word (mkLf false true true (num keep) (den keep) v) ;;
  Ok (d, a', b').

(** Word path if both word parts are valid and it does not overflow, otherwise mpq path. *)
Definition arith (fast : Z -> Z -> Z -> Z -> res (option (Z * Z)))
    (op : Z * Z -> Z * Z -> res (Z * Z)) (keep a b : lf) : res (lf * lf * lf) :=
  if wv a && wv b then
    r <- fast (num a) (den a) (num b) (den b) ;;
    match r with
    | Some (n, d) => let x := set_word keep n d in _ <- assert_wf x ;; Ok (x, a, b)
    | None => slow op keep a b
    end
  else slow op keep a b.

(** 662-722 addition, 724-790 substraction with a fresh destination; the result is the
    destination and the two operands (whose mpq parts may have been filled in).
    For a call with both operands the same object the operand results coincide: every read of an
    operand precedes the write of the destination. *)
Definition addition (a b : lf) := arith add_word mpq_add lf_default a b.
Definition substraction (a b : lf) := arith sub_word mpq_sub lf_default a b.

(** 792-841 multiplication (the word path has no closing assertion in the C++ text, but the
    calling operator checks the result) *)
Definition is_word (x : lf) (n : Z) : bool := wv x && (num x =? n).
Definition multiplication (a b : lf) : res (lf * lf * lf) :=
  if is_word a 0 || is_word b 0 then Ok (set_word lf_default 0 1, a, b)
  else if is_word a 1 && (den a =? 1) then d <- lf_assign lf_default b ;; Ok (d, a, b)
  else if is_word b 1 && (den b =? 1) then d <- lf_assign lf_default a ;; Ok (d, a, b)
  else arith mul_word mpq_mul lf_default a b.

(** 843-889 division *)
Definition division (a b : lf) : res (lf * lf * lf) :=
  if is_word b 1 && (den b =? 1) then d <- lf_assign lf_default a ;; Ok (d, a, b)
  else if is_word a 0 then Ok (lf_word 0, a, b)
  else if (wv a && wv b) && ((num a =? num b) && (den a =? den b))
  then Ok (set_word lf_default 1 1, a, b)
  else arith div_word mpq_div lf_default a b.

(** 327-362 operator+, -, *, / with the assertions around the computation *)
Definition guarded (f : lf -> lf -> res (lf * lf * lf)) (a b : lf) : res (lf * lf * lf) :=
  _ <- assert_wf a ;;
  _ <- assert_wf b ;;
  r <- f a b ;;
  _ <- assert_wf (fst (fst r)) ;;
  Ok r.
Definition lf_add := guarded addition.
Definition lf_sub := guarded substraction.
Definition lf_mul := guarded multiplication.
Definition lf_div := guarded division.

(** 900-939 additionAssign: the new value of the left operand and the right operand *)
Definition fst3 {A B C} (t : A * B * C) : A * C := let '(a, _, c) := t in (a, c).
Definition additionAssign (a b : lf) : res (lf * lf) :=
  if is_word b 0 then Ok (a, b)
  else r <- arith adda_word mpq_add a a b ;; Ok (fst3 r).
(** 941-970, 972-1003, 1005-1035 *)
Definition substractionAssign (a b : lf) := r <- arith suba_word mpq_sub a a b ;; Ok (fst3 r).
Definition multiplicationAssign (a b : lf) := r <- arith mula_word mpq_mul a a b ;; Ok (fst3 r).
Definition divisionAssign (a b : lf) := r <- arith div_word mpq_div a a b ;; Ok (fst3 r).

(** 363-394 operator+=, -=, *=, /= *)
Definition guarded2 (f : lf -> lf -> res (lf * lf)) (a b : lf) : res (lf * lf) :=
  _ <- assert_wf a ;;
  _ <- assert_wf b ;;
  r <- f a b ;;
  _ <- assert_wf (fst r) ;;
  Ok r.
Definition lf_add_assign := guarded2 additionAssign.
Definition lf_sub_assign := guarded2 substractionAssign.
Definition lf_mul_assign := guarded2 multiplicationAssign.
Definition lf_div_assign := guarded2 divisionAssign.

(** 306-320 ceil, 321-325 floor *)
Definition cdiv (n d : Z) : Z := - ((- n) / d).
Definition lf_ceil (a : lf) : res lf :=
  i <- lf_isInteger a ;;
  if i : bool then lf_copy a
  else if wv a then
    q <- udiv (absVal32 (num a)) (den a) ;;
    let ret := to_i32 q in
    Ok (lf_word (if num a <? 0 then - ret else ret + 1))
  else Ok (lf_mpz (cdiv (fst (mq a)) (snd (mq a)))).
Definition lf_floor (a : lf) : res lf :=
  i <- lf_isInteger a ;;
  if i : bool then lf_copy a
  else c <- lf_ceil a ;; r <- lf_sub c (lf_word 1) ;; Ok (fst (fst r)).

(** 243-251, 257-264 get_den, get_num *)
Definition lf_get_den (a : lf) : res (lf * lf) :=
  if wv a && (den a <=? WORD_MAX) then Ok (lf_uint (den a), a)
  else a' <- ensure_mpq a ;; Ok (lf_mpz (snd (mq a')), a').
Definition lf_get_num (a : lf) : res lf :=
  if wv a then Ok (lf_word (num a)) else Ok (lf_mpz (fst (mq a))).

(** 1042-1067 inverse *)
Definition lf_inverse (a : lf) : res (lf * lf) :=
  let overflow :=
    a' <- ensure_mpq a ;;
    v <- mpq_inv (mq a') ;;
    d <- try_fit_word (mkLf false true true 0 1 v) ;;
    _ <- assert_wf d ;; Ok (d, a') in
  if wv a then
    _ <- assertb (negb (num a =? 0)) ;;
    r <- (if 0 <? num a
          then check_word (den a) (fun zn => check_uword (num a) (fun zd => Ok (Some (zn, zd))))
          else check_word (- den a) (fun zn =>
                 check_uword (- num a) (fun zd => Ok (Some (zn, zd))))) ;;
    match r with
    | Some (zn, zd) => Ok (mkLf true false false zn zd (0, 1), a)
    | None => overflow
    end
  else overflow.

(** 421-427 inv: [-den] is an unsigned and [-num] a signed negation (undefined for the smallest
    word), then conversions; the multi-precision part is not consulted *)
Definition lf_inv (a : lf) : res lf :=
  s <- lf_sign a ;;
  if 0 <=? s then lf_make (to_i32 (den a)) (to_u32 (num a))
  else if num a =? WORD_MIN then UB
  else lf_make (to_i32 (to_u32 (- den a))) (to_u32 (- num a)).

(** 408-419 operator% *)
Definition lf_mod (a d : lf) : res lf :=
  i <- lf_isInteger a ;; j <- lf_isInteger d ;;
  _ <- assertb (i && j) ;;
  if wv a && wv d then
    if (num d =? 0) || ((num a =? WORD_MIN) && (num d =? -1)) then UB
    else let w := absVal32 (Z.rem (num a) (num d)) in
         Ok (lf_word (to_i32 (if 0 <? num d then w else to_u32 (- w))))
  else
    q <- lf_div a d ;;
    let '(q, a, d) := q in
    r <- lf_floor q ;;
    m <- lf_mul r d ;;
    let '(m, _, _) := m in
    s <- lf_sub a m ;; Ok (fst (fst s)).

(** Long_fraction.cpp 148-168 fastrat_fdiv_q *)
Definition fdiv_q (n d : lf) : res (lf * lf * lf) :=
  i <- lf_isInteger n ;; j <- lf_isInteger d ;;
  _ <- assertb (i && j) ;;
  if (wv n && wv d) && negb (num n =? WORD_MIN) then
    if num d =? 0 then UB
    else
      let quo := Z.quot (num n) (num d) in
      let neg := ((num n <? 0) && (0 <=? num d)) || ((num d <? 0) && (0 <=? num n)) in
      Ok (lf_word (if negb (Z.rem (num n) (num d) =? 0) && neg then quo - 1 else quo), n, d)
  else
    n' <- ensure_mpq n ;; d' <- ensure_mpq d ;;
    if fst (mq d') =? 0 then UB
    else Ok (lf_mpz (fst (mq n') / fst (mq d')), n', d').

(** Long_fraction.cpp 140-143 fastrat_round_to_int *)
Definition round_to_int (n : lf) : res lf :=
  half <- lf_make 1 2 ;;
  r <- lf_add n half ;;
  let s := fst (fst r) in
  nu <- lf_get_num s ;;
  de <- lf_get_den s ;;
  q <- fdiv_q nu (fst de) ;;
  Ok (fst (fst q)).

(** 279-296 getHashValue. The limbs of a negative mpq numerator are not visited ([_mp_size] is
    negative); [limbs] stands for the little-endian 64-bit limbs of a positive number, truncated
    by the conversion to 32 bits. *)
Definition mix (limbs : list Z) : Z :=
  fold_left (fun h l => Z.lxor ((h * 16777619) mod two32) l mod two32) limbs 2166136261.
Definition lf_hash (limbs_of : Z -> list Z) (a : lf) : Z :=
  if wv a then to_u32 (37 * to_u32 (num a) + 13 * den a)
  else to_u32 (mix (if fst (mq a) <? 0 then [] else limbs_of (fst (mq a)))
               + mix (limbs_of (snd (mq a)))).
