(** Model of terms/Term_manager.cpp and of the polynomials of terms/Arithmetic_polynomial.h.

    [UB] is a failing assert, a thrown std::logic_error / std::invalid_argument or UNIMPLEMENTED.
    Where the order of evaluation of call arguments is unspecified in C++ (mk_iff, mk_xor,
    mk_bool_ite), the model evaluates from left to right: only the numbers of new terms depend on
    it. Writing to the caller's argument array (mk_or, mk_and, mk_arithmetic_times) is not
    observable, the callers pass temporaries. *)
From Coq Require Import List Arith ZArith QArith Qcanon NArith Bool Lia.
From Verif Require Import Base Terms_Model Rational_Model Spec_Rational.
Import ListNotations.
Close Scope Qc_scope.
Close Scope Q_scope.
Close Scope Z_scope.
Open Scope nat_scope.

Definition q_eqb (a b : Qc) : bool := if Qc_eq_dec a b then true else false.

(** ** Arithmetic_polynomial.h: monomials sorted by variable; [None] is term_t::Undef (-1), which
    is the smallest variable *)
Definition mono : Type := (option term * Qc)%type.
Definition tpoly : Type := list mono.
Definition mv_ltb (a b : option term) : bool :=
  match a, b with
  | None, Some _ => true
  | Some x, Some y => t_ltb x y
  | _, None => false
  end.
(** 182-188 add_term: upper_bound; the assert is that the variable is new *)
Fixpoint tp_insert (v : option term) (c : Qc) (p : tpoly) : tpoly :=
  match p with
  | [] => [(v, c)]
  | m :: p' => if mv_ltb v (fst m) then (v, c) :: p else m :: tp_insert v c p'
  end.
(** 89-180 merge: this := this + coeff * other *)
Fixpoint tp_merge (p q : tpoly) (c : Qc) {struct p} : tpoly :=
  (fix go (q : tpoly) : tpoly :=
     match p, q with
     | [], _ => map (fun m => (fst m, snd m * c)%Qc) q
     | _, [] => p
     | (v, a) :: p', (w, b) :: q' =>
         if mv_ltb v w then (v, a) :: tp_merge p' q c
         else if mv_ltb w v then (w, (b * c)%Qc) :: go q'
         else let s := (a + b * c)%Qc in
              if q_eqb s 0 then tp_merge p' q' c else (v, s) :: tp_merge p' q' c
     end) q.
(** 207-213 negate, 223-229 multiply_by *)
Definition tp_negate (p : tpoly) : tpoly := map (fun m => (fst m, - snd m)%Qc) p.
Definition tp_scale (p : tpoly) (c : Qc) : tpoly := map (fun m => (fst m, snd m * c)%Qc) p.

Section Manager.
Variable H : hashes.

(** Term_manager.cpp 529-561 term_to_poly. The recursion is on the monomials of a polynomial, which
    are no polynomials; [fuel] bounds it. *)
Fixpoint term_to_poly_f (fuel : nat) (T : table) (t : term) : res tpoly :=
  match fuel with
  | 0 => Fuel
  | S f =>
      if is_arith_const T t then
        if t_eqb t zero_term then Ok []
        else v <- const_value T t ;; Ok [(None, v)]
      else if is_uninterp T t || is_ite T t || is_app T t then Ok [(Some t, 1%Qc)]
      else if is_product T t then
        x <- var_of_product T t ;; c <- coeff_of_product T t ;; Ok [(Some x, c)]
      else if is_poly T t then
        ms <- monomials_of T t ;;
        (fix go (p : tpoly) (ms : list term) : res tpoly :=
           match ms with
           | [] => Ok p
           | m :: ms' => q <- term_to_poly_f f T m ;; go (tp_merge p q 1) ms'
           end) [] ms
      else UB
  end.
Definition term_to_poly (T : table) (t : term) : res tpoly := term_to_poly_f 2 T t.

(** 568-579 monomial_to_term *)
Definition mono_to_term (T : table) (m : mono) : res (table * term) :=
  _ <- assertb (negb (q_eqb (snd m) 0)) ;;
  match fst m with
  | None => Ok (arith_const H T (snd m))
  | Some x => if q_eqb (snd m) 1 then Ok (T, x) else arith_product H T (snd m) x
  end.
Fixpoint monos_to_terms (T : table) (p : tpoly) : res (table * list term) :=
  match p with
  | [] => Ok (T, [])
  | m :: p' =>
      r <- mono_to_term T m ;;
      rs <- monos_to_terms (fst r) p' ;;
      Ok (fst rs, snd r :: snd rs)
  end.
(** 563-594 poly_to_term *)
Definition poly_to_term (T : table) (p : tpoly) : res (table * term) :=
  match p with
  | [] => Ok (T, zero_term)
  | [m] => mono_to_term T m
  | _ => r <- monos_to_terms T p ;; arith_poly H (fst r) (snd r)
  end.

(** 312-334 mk_or: the loop over the sorted arguments after the first; [kept] are the arguments
    kept so far, last first. None: an opposite pair was found. *)
Fixpoint or_loop (prev : term) (kept : list term) (l : list term) : res (option (term * list term)) :=
  match l with
  | [] => Ok (Some (prev, kept))
  | c :: l' =>
      if t_eqb prev c then or_loop prev kept l'
      else if t_eqb c (opp prev) then Ok None
      else _ <- assertb (negb (t_eqb c true_term) && negb (t_eqb c false_term)) ;;
           or_loop c (c :: kept) l'
  end.
Definition mk_or (T : table) (args : list term) : res (table * term) :=
  match sort_by t_ltb args with
  | [] => Ok (T, false_term)
  | first :: l =>
      if t_eqb first true_term then Ok (T, true_term)
      else
        r <- or_loop first (if t_eqb first false_term then [] else [first]) l ;;
        match r with
        | None => Ok (T, true_term)
        | Some (prev, kept) =>
            if length kept <=? 1 then Ok (T, prev) else Ok (or_term H T (rev kept))
        end
  end.
(** 336-343 mk_and *)
Definition mk_and (T : table) (args : list term) : res (table * term) :=
  r <- mk_or T (map opp args) ;; Ok (fst r, opp (snd r)).
(** 345-357 mk_binary_or *)
Definition mk_binary_or (T : table) (x y : term) : table * term :=
  if t_eqb x y then (T, x)
  else if t_eqb x true_term then (T, x)
  else if t_eqb y true_term then (T, y)
  else if t_eqb x false_term then (T, y)
  else if t_eqb y false_term then (T, x)
  else if t_eqb (opp x) y then (T, true_term)
  else or_term H T (if t_ltb y x then [y; x] else [x; y]).
(** 359-362 mk_binary_and *)
Definition mk_binary_and (T : table) (x y : term) : table * term :=
  let (T1, t) := mk_binary_or T (opp x) (opp y) in (T1, opp t).
(** 364-366 mk_implies *)
Definition mk_implies (T : table) (x y : term) : table * term := mk_binary_or T (opp x) y.
(** 368-372 mk_iff *)
Definition mk_iff (T : table) (x y : term) : table * term :=
  let (T1, a) := mk_implies T x y in
  let (T2, b) := mk_implies T1 y x in mk_binary_and T2 a b.
(** 374-378 mk_xor *)
Definition mk_xor (T : table) (x y : term) : table * term :=
  let (T1, a) := mk_binary_or T x y in
  let (T2, b) := mk_binary_and T1 x y in mk_binary_and T2 a (opp b).

(** 413-418 is_var_like *)
Definition is_var_like (T : table) (t : term) : bool := is_uninterp T t || is_ite T t || is_app T t.

(** 473-482 direct_arithmetic_binary_equality *)
Definition direct_bineq (T : table) (t1 t2 : term) : res (table * term) :=
  _ <- assertb (negb (t_eqb t1 t2)) ;;
  _ <- assertb (is_var_like T t1 || is_var_like T t2) ;;
  if negb (is_var_like T t1) || (is_var_like T t2 && t_ltb t2 t1)
  then arith_bineq H T t2 t1 else arith_bineq H T t1 t2.
(** 420-471 mk_arithmetic_eq *)
Definition mk_arith_eq (T : table) (t1 t2 : term) : res (table * term) :=
  if t_eqb t1 t2 then Ok (T, true_term)
  else
    p <- term_to_poly T t1 ;; q <- term_to_poly T t2 ;;
    let p := tp_merge p q (- (1))%Qc in
    let general := r <- poly_to_term T p ;; arith_eq_zero H (fst r) (snd r) in
    match p with
    | [] => UB
    | [(None, c)] => _ <- assertb (negb (q_eqb c 0)) ;; Ok (T, false_term)
    | [(Some x, _)] => arith_eq_zero H T x
    | [(None, c1); (v2, c2)] =>
        _ <- assertb (negb (q_eqb c1 0) && negb (q_eqb c2 0)) ;;
        match v2 with
        | None => UB
        | Some x2 => let (T1, k) := arith_const H T (- c1 / c2)%Qc in direct_bineq T1 x2 k
        end
    | [(Some x1, c1); (v2, c2)] =>
        match v2 with
        | None => UB
        | Some x2 => if q_eqb (c1 + c2)%Qc 0 then direct_bineq T x1 x2 else general
        end
    | _ => general
    end.

(** 510-520 mk_arithmetic_minus *)
Definition mk_minus (T : table) (t1 t2 : term) : res (table * term) :=
  p <- term_to_poly T t1 ;; q <- term_to_poly T t2 ;; poly_to_term T (tp_merge p q (- (1))%Qc).
(** 522-527 mk_unary_minus *)
Definition mk_uminus (T : table) (t : term) : res (table * term) :=
  p <- term_to_poly T t ;; poly_to_term T (tp_negate p).
(** 499-508 mk_arithmetic_geq *)
Definition mk_geq (T : table) (t1 t2 : term) : res (table * term) :=
  r <- mk_minus T t1 t2 ;;
  let (T1, d) := r : table * term in
  if is_arith_const T1 d then
    v <- const_value T1 d ;; Ok (T1, if Qclt_le_dec v 0 then false_term else true_term)
  else arith_geq_zero H T1 d.
(** 484-497 mk_arithmetic_leq, mk_arithmetic_lt, mk_arithmetic_gt *)
Definition mk_leq (T : table) (t1 t2 : term) : res (table * term) := mk_geq T t2 t1.
Definition mk_lt (T : table) (t1 t2 : term) : res (table * term) :=
  r <- mk_geq T t1 t2 ;; Ok (fst r, opp (snd r)).
Definition mk_gt (T : table) (t1 t2 : term) : res (table * term) := mk_lt T t2 t1.

(** 596-604 mk_arithmetic_plus *)
Fixpoint sum_polys (T : table) (p : tpoly) (args : list term) : res tpoly :=
  match args with
  | [] => Ok p
  | a :: args' => q <- term_to_poly T a ;; sum_polys T (tp_merge p q 1) args'
  end.
Definition mk_plus (T : table) (args : list term) : res (table * term) :=
  p <- sum_polys T [] args ;; poly_to_term T p.

(** 606-664 mk_arithmetic_times; std::partition of two elements *)
Fixpoint mul_consts (T : table) (v : Qc) (l : list term) : res Qc :=
  match l with
  | [] => Ok v
  | c :: l' => x <- const_value T c ;; mul_consts T (v * x)%Qc l'
  end.
Definition mk_times (T : table) (args : list term) : res (table * term) :=
  match args with
  | [] => Ok (arith_const H T 1)
  | [a] => Ok (T, a)
  | _ =>
      _ <- assertb (length args =? 2) ;;
      let consts := filter (is_arith_const T) args in
      let others := filter (fun a => negb (is_arith_const T a)) args in
      _ <- assertb (length others <=? 1) ;;
      v <- mul_consts T 1 consts ;;
      if q_eqb v 0 then Ok (T, zero_term)
      else
        match others with
        | [] => Ok (arith_const H T v)
        | x :: _ =>
            if q_eqb v 1 then Ok (T, x)
            else match kind_of T x with
                 | KUninterp | KIte | KApp =>
                     _ <- assertb (is_real T x) ;; arith_product H T v x
                 | KProduct =>
                     y <- var_of_product T x ;; c <- coeff_of_product T x ;;
                     arith_product H T (c * v)%Qc y
                 | KPoly => p <- term_to_poly T x ;; poly_to_term T (tp_scale p v)
                 | _ => UB
                 end
        end
  end.

(** Long_fraction::inv (C24) on the object the string constructor makes for this number *)
Definition q_inv (q : Qc) : res Qc :=
  a <- lf_str (Qnum q) (Zpos (Qden q)) ;; r <- lf_inv a ;; Ok (Q2Qc (Spec_Rational.value r)).
(** 666-677 mk_divides; [operator/] is exact for nonzero divisors (C22), division by zero traps *)
Definition mk_divides (T : table) (t1 t2 : term) : res (table * term) :=
  _ <- assertb (is_arith_const T t2) ;;
  v <- const_value T t2 ;;
  if is_arith_const T t1 then
    u <- const_value T t1 ;;
    if q_eqb v 0 then UB else Ok (arith_const H T (u / v)%Qc)
  else
    m <- q_inv v ;;
    let (T1, k) := arith_const H T m in mk_times T1 [t1; k].

(** 698-745 mk_bool_ite *)
Definition mk_bool_ite (T : table) (c t e : term) : table * term :=
  if t_eqb t e then (T, t)
  else if t_eqb c true_term then (T, t)
  else if t_eqb c false_term then (T, e)
  else if t_eqb t (opp e) then mk_iff T c t
  else if t_eqb c t then mk_binary_or T t e
  else if t_eqb c e then mk_binary_and T e t
  else if t_eqb c (opp t) then mk_binary_and T t e
  else if t_eqb c (opp e) then mk_binary_or T e t
  else if t_eqb t true_term then mk_binary_or T c e
  else if t_eqb t false_term then mk_binary_and T (opp c) e
  else if t_eqb e false_term then mk_binary_and T c t
  else if t_eqb e true_term then mk_binary_or T (opp c) t
  else
    let '(c, t, e) := if tneg c then (opp c, e, t) else (c, t, e) in
    let (T1, a) := mk_implies T c t in
    let (T2, b) := mk_implies T1 (opp c) e in
    mk_binary_and T2 a b.
(** 747-760 mk_arithmetic_ite *)
Definition mk_arith_ite (T : table) (c t e : term) : res (table * term) :=
  if t_eqb c true_term then Ok (T, t)
  else if t_eqb c false_term then Ok (T, e)
  else if t_eqb t e then Ok (T, t)
  else if tneg c then arith_ite H T (opp c) e t else arith_ite H T c t e.
(** 679-696 mk_ite *)
Definition mk_ite (T : table) (i t e : term) : res (table * term) :=
  _ <- assertb (is_bool T i) ;;
  _ <- assertb (ty_eqb (type_of T e) (type_of T t)) ;;
  match type_of T t with
  | TBool => Ok (mk_bool_ite T i t e)
  | TReal => mk_arith_ite T i t e
  | TNull => UB
  end.

(** 295-310 mk_binary_eq *)
Definition mk_binary_eq (T : table) (t1 t2 : term) : res (table * term) :=
  _ <- assertb (ty_eqb (type_of T t1) (type_of T t2)) ;;
  match type_of T t1 with
  | TReal => mk_arith_eq T t1 t2
  | TBool => Ok (mk_iff T t1 t2)
  | TNull => UB
  end.
(** 286-293 mk_eq *)
Definition mk_eq (T : table) (args : list term) : res (table * term) :=
  match args with [a; b] => mk_binary_eq T a b | _ => UB end.

(** 241-253 distinct: the negated equality of every pair, then mk_and *)
Fixpoint neqs_with (T : table) (a : term) (l : list term) : res (table * list term) :=
  match l with
  | [] => Ok (T, [])
  | b :: l' =>
      r <- mk_eq T [a; b] ;; rs <- neqs_with (fst r) a l' ;; Ok (fst rs, opp (snd r) :: snd rs)
  end.
Fixpoint neqs (T : table) (l : list term) : res (table * list term) :=
  match l with
  | [] => Ok (T, [])
  | a :: l' => r <- neqs_with T a l' ;; rs <- neqs (fst r) l' ;; Ok (fst rs, snd r ++ snd rs)
  end.
Definition mk_distinct (T : table) (args : list term) : res (table * term) :=
  r <- neqs T args ;; mk_and (fst r) (snd r).

(** 265-279 mk_app(name, ...), with the symbol already looked up *)
Definition mk_app (T : table) (f : term) (ret : ty) (args : list term) : table * term :=
  app_term H T ret (f :: args).

(** The operators of mk_term(string, ...), 162-263. *)
Inductive op := OGe | OLe | OLt | OGt | OEq | OOr | OAnd | OImp | ONot | OMinus | OPlus | OTimes
             | ODiv | OIte | OXor | ODistinct.
Definition mk_term (T : table) (o : op) (args : list term) : res (table * term) :=
  match o, args with
  | OGe, [a; b] => mk_geq T a b
  | OLe, [a; b] => mk_leq T a b
  | OLt, [a; b] => mk_lt T a b
  | OGt, [a; b] => mk_gt T a b
  | OEq, _ => mk_eq T args
  | OOr, _ => mk_or T args
  | OAnd, _ => mk_and T args
  | OImp, [a; b] => Ok (mk_implies T a b)
  | ONot, [a] => Ok (T, opp a)
  | OMinus, [a] => mk_uminus T a
  | OMinus, [a; b] => mk_minus T a b
  | OPlus, _ => mk_plus T args
  | OTimes, _ => mk_times T args
  | ODiv, [a; b] => mk_divides T a b
  | OIte, [c; t; e] => mk_ite T c t e
  | OXor, [a; b] => Ok (mk_xor T a b)
  | ODistinct, _ => mk_distinct T args
  | _, _ => UB
  end.
End Manager.
