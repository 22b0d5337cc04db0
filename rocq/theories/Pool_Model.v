(** Model of the memory of lra/Long_fraction.h and lra/Long_fraction.cpp: the pool of GMP rationals, and the constructors, assignments and
    operators as they allocate, share, write and release them. The arithmetic on words and on GMP rationals is that of Rational_Model.v. *)
From Coq Require Import ZArith Bool List Arith.
From Verif Require Import Base Rational_Model.
Import ListNotations.

(** Long_fraction.h 92-95: the members of an object; [o_wv], [o_ma], [o_mv] are the three bits of [state], [o_ptr] is the pointer mpq *)
Record obj : Type := mkO { o_wv : bool; o_ma : bool; o_mv : bool; o_num : Z; o_den : Z; o_ptr : option nat }.
(** Long_fraction.h 84-91 class mpqPool: [cells] and [size] are the deque [store], whose elements do not move; [free] is the stack [pool]. [objs] are the
    objects of the program, by names of our choice. *)
Record mem : Type := mkM { cells : nat -> Z * Z; size : nat; free : list nat; objs : nat -> option obj }.
Definition mem_empty : mem := mkM (fun _ => (0%Z, 1%Z)) 0 [] (fun _ => None).
Definition setf {A} (f : nat -> A) (i : nat) (v : A) : nat -> A := fun k => if k =? i then v else f k.

(** Long_fraction.cpp 20-29 alloc, 31-33 release *)
Definition h_alloc (m : mem) : nat * mem :=
  match free m with
  | a :: l => (a, mkM (cells m) (size m) l (objs m))
  | [] => (size m, mkM (setf (cells m) (size m) (0%Z, 1%Z)) (S (size m)) [] (objs m))
  end.
Definition h_release (m : mem) (a : nat) : mem := mkM (cells m) (size m) (a :: free m) (objs m).

(** access to an object that is not alive, or through a null pointer, is undefined *)
Definition h_get (m : mem) (i : nat) : res obj := match objs m i with Some o => Ok o | None => UB end.
Definition h_ptr (o : obj) : res nat := match o_ptr o with Some a => Ok a | None => UB end.
Definition h_put (m : mem) (i : nat) (o : obj) : mem := mkM (cells m) (size m) (free m) (setf (objs m) i (Some o)).
Definition h_write (m : mem) (a : nat) (v : Z * Z) : mem := mkM (setf (cells m) a v) (size m) (free m) (objs m).
(** the object as a value of Rational_Model.v, following the pointer *)
Definition view (m : mem) (o : obj) : lf :=
  mkLf (o_wv o) (o_ma o) (o_mv o) (o_num o) (o_den o)
    (if o_ma o then match o_ptr o with Some a => cells m a | None => (0%Z, 1%Z) end else (0%Z, 1%Z)).
Definition look (m : mem) (i : nat) : option lf := match objs m i with Some o => Some (view m o) | None => None end.
Definition h_look (m : mem) (i : nat) : res lf := o <- h_get m i ;; Ok (view m o).
(** *mpq of an object *)
Definition h_read (m : mem) (i : nat) : res (Z * Z) := o <- h_get m i ;; a <- h_ptr o ;; Ok (cells m a).
(** assert(isWellFormed()) *)
Definition h_assert (m : mem) (i : nat) : res unit := x <- h_look m i ;; assert_wf x.

(** Long_fraction.h 134: a new object with the initial values of its members *)
Definition h_new (m : mem) (i : nat) : res mem :=
  match objs m i with None => Ok (h_put m i (mkO true false false 0 1 None)) | Some _ => UB end.
(** assignments to num and den followed by setOnlyWordPartValid (Long_fraction.h 113-116) *)
Definition h_word (m : mem) (i : nat) (n d : Z) : res mem :=
  o <- h_get m i ;; Ok (h_put m i (mkO true (o_ma o) false n d (o_ptr o))).
(** Long_fraction.h 183-189 ensure_mpq_memory_allocated *)
Definition h_mem (m : mem) (i : nat) : res mem :=
  o <- h_get m i ;;
  if o_ma o then Ok m
  else let (a, m1) := h_alloc m in Ok (h_put m1 i (mkO (o_wv o) true (o_mv o) (o_num o) (o_den o) (Some a))).
(** a GMP function that writes to mpq, as in Long_fraction.h 453-454, then state = MPQ_ALLOCATED_AND_VALID *)
Definition h_store (m : mem) (i : nat) (v : Z * Z) : res mem :=
  o <- h_get m i ;; a <- h_ptr o ;;
  Ok (h_put (h_write m a v) i (mkO false true true (o_num o) (o_den o) (Some a))).
(** Long_fraction.h 168-178 ensure_mpq_valid *)
Definition h_ensure (m : mem) (i : nat) : res mem :=
  o <- h_get m i ;;
  if o_mv o then Ok m
  else _ <- assertb (o_wv o) ;; m1 <- h_mem m i ;; o1 <- h_get m1 i ;; a <- h_ptr o1 ;;
       Ok (h_put (h_write m1 a (o_num o, o_den o)) i (mkO (o_wv o) true true (o_num o) (o_den o) (Some a))).
(** Long_fraction.h 191-210 fitsWord and try_fit_word *)
Definition h_fit (m : mem) (i : nat) : res mem :=
  o <- h_get m i ;; x <- try_fit_word (view m o) ;;
  Ok (h_put m i (mkO (wv x) (o_ma o) (o_mv o) (num x) (den x) (o_ptr o))).
(** Long_fraction.h 161-167 kill_mpq *)
Definition h_kill (m : mem) (i : nat) : res mem :=
  o <- h_get m i ;;
  if o_ma o then a <- h_ptr o ;; Ok (h_put (h_release m a) i (mkO true false false (o_num o) (o_den o) (o_ptr o)))
  else Ok m.

(** Long_fraction.h 135 Long_fraction(word), Long_fraction.cpp 59-69 Long_fraction(uint32_t) *)
Definition c_word (m : mem) (i : nat) (n : Z) : res mem := m1 <- h_new m i ;; h_word m1 i n 1.
Definition c_uint (m : mem) (i : nat) (x : Z) : res mem :=
  m1 <- h_new m i ;;
  if (WORD_MAX <? x)%Z then m2 <- h_mem m1 i ;; h_store m2 i (x, 1%Z) else h_word m1 i x 1.
(** Long_fraction.cpp 35-44: from a string that denotes [n] over [d] *)
Definition c_str (m : mem) (i : nat) (n d : Z) : res mem :=
  if (d =? 0)%Z then UB else
  m1 <- h_new m i ;; m2 <- h_mem m1 i ;; m3 <- h_store m2 i (mpq_canon n d) ;; m4 <- h_fit m3 i ;;
  o <- h_get m4 i ;; m5 <- (if o_wv o then h_kill m4 i else Ok m4) ;;
  _ <- h_assert m5 i ;; Ok m5.
(** Long_fraction.h 444-456 copy constructor, 458-463 move constructor *)
Definition c_copy (m : mem) (i j : nat) : res mem :=
  m1 <- h_new m i ;; o <- h_get m1 j ;;
  if o_wv o then h_word m1 i (o_num o) (o_den o)
  else _ <- assertb (o_mv o) ;; m2 <- h_mem m1 i ;; v <- h_read m2 j ;; h_store m2 i v.
Definition c_move (m : mem) (i j : nat) : res mem :=
  m1 <- h_new m i ;; o <- h_get m1 j ;;
  if o_ma o then Ok (h_put (h_put m1 i o) j (mkO true false false (o_num o) (o_den o) None))
  else Ok (h_put m1 i (mkO (o_wv o) (o_ma o) (o_mv o) (o_num o) (o_den o) None)).
(** Long_fraction.h 465-480 copy assignment, 150-156 move assignment (four swaps) *)
Definition c_assign (m : mem) (i j : nat) : res mem :=
  o <- h_get m j ;;
  if o_wv o then h_word m i (o_num o) (o_den o)
  else _ <- assertb (o_mv o) ;; m1 <- h_mem m i ;; v <- h_read m1 j ;; h_store m1 i v.
Definition c_moveassign (m : mem) (i j : nat) : res mem :=
  a <- h_get m i ;; b <- h_get m j ;; Ok (h_put (h_put m i b) j a).
(** Long_fraction.h 149 the destructor, Long_fraction.cpp 73-78 reset *)
Definition c_destroy (m : mem) (i : nat) : res mem :=
  m1 <- h_kill m i ;; Ok (mkM (cells m1) (size m1) (free m1) (setf (objs m1) i None)).
Definition c_reset (m : mem) (i : nat) : res mem := m1 <- h_kill m i ;; h_word m1 i 0 1.

(** The label [overflow] of the operations in Long_fraction.h 662-1035: the result of [op] on the GMP parts of [j] and [k] is written to [i]. The
    operations in place call ensure_mpq_valid on the destination, which is [j] there. *)
Definition h_slow (op : Z * Z -> Z * Z -> res (Z * Z)) (m : mem) (i j k : nat) : res mem :=
  m1 <- h_ensure m j ;; m2 <- h_ensure m1 k ;; m3 <- h_mem m2 i ;;
  a <- h_read m3 j ;; b <- h_read m3 k ;; v <- op a b ;; m4 <- h_store m3 i v ;; h_fit m4 i.
(** Long_fraction.h 662-1035: words if both word parts are valid and there is no overflow *)
Definition h_arith (fast : Z -> Z -> Z -> Z -> res (option (Z * Z))) (op : Z * Z -> Z * Z -> res (Z * Z)) (m : mem) (i j k : nat) : res mem :=
  a <- h_look m j ;; b <- h_look m k ;;
  if wv a && wv b then
    r <- fast (num a) (den a) (num b) (den b) ;;
    match r with
    | Some (n, d) => m1 <- h_word m i n d ;; _ <- h_assert m1 i ;; Ok m1
    | None => h_slow op m i j k
    end
  else h_slow op m i j k.

(** Long_fraction.h 662-722 addition, 724-790 substraction, 792-841 multiplication, 843-889 division. The assignment of 0 or 1 to the
    destination, which swaps with a temporary object there, is a write of the words: the destination is new and has no memory. *)
Inductive aop : Set := Add | Sub | Mul | Div.
Definition h_op (f : aop) (m : mem) (i j k : nat) : res mem :=
  a <- h_look m j ;; b <- h_look m k ;;
  match f with
  | Add => h_arith add_word mpq_add m i j k
  | Sub => h_arith sub_word mpq_sub m i j k
  | Mul =>
      if is_word a 0 || is_word b 0 then h_word m i 0 1
      else if is_word a 1 && (den a =? 1)%Z then c_assign m i k
      else if is_word b 1 && (den b =? 1)%Z then c_assign m i j
      else h_arith mul_word mpq_mul m i j k
  | Div =>
      if is_word b 1 && (den b =? 1)%Z then c_assign m i j
      else if is_word a 0 then h_word m i 0 1
      else if (wv a && wv b) && ((num a =? num b)%Z && (den a =? den b)%Z) then h_word m i 1 1
      else h_arith div_word mpq_div m i j k
  end.
(** Long_fraction.h 327-362 operator+, -, *, /, without the copy of the result that the compiler elides: the new object [i] is the returned one *)
Definition c_op (f : aop) (m : mem) (i j k : nat) : res mem :=
  m1 <- h_new m i ;; _ <- h_assert m1 j ;; _ <- h_assert m1 k ;; m2 <- h_op f m1 i j k ;; _ <- h_assert m2 i ;; Ok m2.
(** Long_fraction.h 900-1035 additionAssign and so on, 363-394 operator+=, -=, *=, /= *)
Definition h_opassign (f : aop) (m : mem) (i j : nat) : res mem :=
  b <- h_look m j ;;
  match f with
  | Add => if is_word b 0 then Ok m else h_arith adda_word mpq_add m i i j
  | Sub => h_arith suba_word mpq_sub m i i j
  | Mul => h_arith mula_word mpq_mul m i i j
  | Div => h_arith div_word mpq_div m i i j
  end.
Definition c_opassign (f : aop) (m : mem) (i j : nat) : res mem :=
  _ <- h_assert m i ;; _ <- h_assert m j ;; m1 <- h_opassign f m i j ;; _ <- h_assert m1 i ;; Ok m1.
(** Long_fraction.h 491-503 unary minus, 505-517 negate *)
Definition c_neg (m : mem) (i j : nat) : res mem :=
  x <- h_look m j ;;
  if wv x && (WORD_MIN <? num x)%Z then
    r <- lf_make (- num x) (den x) ;; m1 <- h_new m i ;; h_word m1 i (num r) (den r)
  else m1 <- h_ensure m j ;; m2 <- h_new m1 i ;; m3 <- h_mem m2 i ;; v <- h_read m3 j ;;
       m4 <- h_store m3 i (mpq_neg v) ;; h_fit m4 i.
Definition c_negate (m : mem) (i : nat) : res mem :=
  x <- h_look m i ;;
  m1 <- (if wv x && (WORD_MIN <? num x)%Z then h_word m i (- num x) (den x)
         else m1 <- h_ensure m i ;; v <- h_read m1 i ;; m2 <- h_store m1 i (mpq_neg v) ;; h_fit m2 i) ;;
  _ <- h_assert m1 i ;; Ok m1.
(** Long_fraction.h 519-530 compare *)
Definition c_compare (m : mem) (i j : nat) : res (mem * Z) :=
  a <- h_look m i ;; b <- h_look m j ;;
  if wv a && wv b then
    if (den b =? den a)%Z then Ok (m, cmp (num a) (num b))
    else l <- lw (num a * den b) ;; r <- lw (num b * den a) ;; Ok (m, cmp l r)
  else m1 <- h_ensure m i ;; m2 <- h_ensure m1 j ;; p <- h_read m2 i ;; q <- h_read m2 j ;;
       Ok (m2, cmp (fst p * snd q) (fst q * snd p)).

(** Long_fraction.h 1042-1067 inverse *)
Definition c_inverse (m : mem) (i j : nat) : res mem :=
  m1 <- h_new m i ;; x <- h_look m1 j ;;
  let overflow :=
    m2 <- h_ensure m1 j ;; m3 <- h_mem m2 i ;; v <- h_read m3 j ;; w <- mpq_inv v ;; m4 <- h_store m3 i w ;; m5 <- h_fit m4 i ;;
    _ <- h_assert m5 i ;; Ok m5 in
  if wv x then
    _ <- assertb (negb (num x =? 0)%Z) ;;
    r <- (if (0 <? num x)%Z
          then check_word (den x) (fun zn => check_uword (num x) (fun zd => Ok (Some (zn, zd))))
          else check_word (- den x) (fun zn => check_uword (- num x) (fun zd => Ok (Some (zn, zd))))) ;;
    match r with Some (zn, zd) => h_word m1 i zn zd | None => overflow end
  else overflow.
(** Long_fraction.cpp 46-57 Long_fraction(mpz_t) *)
Definition c_mpz (m : mem) (i : nat) (z : Z) : res mem :=
  m1 <- h_new m i ;;
  if mpz_fits_sint z then h_word m1 i z 1 else m2 <- h_mem m1 i ;; h_store m2 i (z, 1%Z).
(** Long_fraction.h 306-320 ceil; the integer mpz() is a number of the thread, written and read at once *)
Definition c_ceil (m : mem) (i j : nat) : res mem :=
  x <- h_look m j ;; b <- lf_isInteger x ;;
  if b : bool then c_copy m i j
  else if wv x then
    q <- udiv (absVal32 (num x)) (den x) ;;
    let ret := to_i32 q in c_word m i (if (num x <? 0)%Z then - ret else ret + 1)%Z
  else v <- h_read m j ;; c_mpz m i (cdiv (fst v) (snd v)).

(** Long_fraction.h 321-325 floor; [t] and [u] are the temporary objects ceil() and 1, destroyed at the end of the expression *)
Definition c_floor (m : mem) (i j t u : nat) : res mem :=
  x <- h_look m j ;; b <- lf_isInteger x ;;
  if b : bool then c_copy m i j
  else m1 <- c_ceil m t j ;; m2 <- c_word m1 u 1 ;; m3 <- c_op Sub m2 i t u ;; m4 <- c_destroy m3 u ;; c_destroy m4 t.

(** What a program does with numbers, one operation after the other. *)
Inductive cmd : Set :=
| NewWord (i : nat) (n : Z) | NewUint (i : nat) (n : Z) | NewStr (i : nat) (n d : Z)
| Copy (i j : nat) | Move (i j : nat) | Assign (i j : nat) | MoveAssign (i j : nat)
| Destroy (i : nat) | Reset (i : nat)
| Op (f : aop) (i j k : nat) | OpAssign (f : aop) (i j : nat) | Neg (i j : nat) | Negate (i : nat)
| Compare (i j : nat) | Inverse (i j : nat) | Ceil (i j : nat) | Floor (i j t u : nat).
Definition quiet (r : res mem) : res (mem * option Z) := m <- r ;; Ok (m, None).
Definition step (m : mem) (c : cmd) : res (mem * option Z) :=
  match c with
  | NewWord i n => quiet (c_word m i n)
  | NewUint i n => quiet (c_uint m i n)
  | NewStr i n d => quiet (c_str m i n d)
  | Copy i j => quiet (c_copy m i j)
  | Move i j => quiet (c_move m i j)
  | Assign i j => quiet (c_assign m i j)
  | MoveAssign i j => quiet (c_moveassign m i j)
  | Destroy i => quiet (c_destroy m i)
  | Reset i => quiet (c_reset m i)
  | Op f i j k => quiet (c_op f m i j k)
  | OpAssign f i j => quiet (c_opassign f m i j)
  | Neg i j => quiet (c_neg m i j)
  | Negate i => quiet (c_negate m i)
  | Inverse i j => quiet (c_inverse m i j)
  | Ceil i j => quiet (c_ceil m i j)
  | Floor i j t u => quiet (c_floor m i j t u)
  | Compare i j => r <- c_compare m i j ;; Ok (fst r, Some (snd r))
  end.
