(** Model of lra/Linear_constraint.h, lra/Linear_constraints.h and utils/Linear_polynomial.{h,cpp}.

    Simplifications. [Rational] is [Q]: a value that is stored is kept in lowest terms by [Qred]
    (Long_fraction keeps canonical values and computes exactly, see C21 and C22), so equality of
    rationals ([Qeq_bool]) and Leibniz equality coincide on stored values. The two parallel input
    ranges of variables and coefficients are one list of pairs. Ordinals are [nat], sizes do not
    overflow int. std::hash<int> and std::hash<Rational> are arbitrary functions. *)
From Coq Require Import List Arith ZArith QArith Bool.
From Verif Require Import Base Core_Model.
Import ListNotations.
Open Scope nat_scope.

(** Linear_constraint.h 24-28 Order_predicate::Type *)
Inductive opred := PEq | PLt | PLeq.
Definition opred_eqb (a b : opred) : bool :=
  match a, b with PEq, PEq | PLt, PLt | PLeq, PLeq => true | _, _ => false end.

Definition qltb (a b : Q) : bool := negb (Qle_bool b a).
(** Linear_constraint.h 73-86: operator()(lhs, rhs) *)
Definition pred_eval (p : opred) (a b : Q) : bool :=
  match p with PEq => Qeq_bool a b | PLt => qltb a b | PLeq => Qle_bool a b end.

(** Linear_constraint.h 124-260: literal, index range, predicate, right-hand side. The pointer to
    the repository is implicit. *)
Record lcons : Type := mkLc { lc_lit : lit; lc_pos : nat * nat; lc_pred : opred; lc_rhs : Q }.

(** Linear_constraint.h 131-136: the empty constraint (Literal.h: the default literal is of no
    variable; no function below looks at it). *)
Definition lc_default : lcons := mkLc (mkLit 0 false) (0, 0) PEq 0%Q.

(** Linear_constraints.h 212-219: the four containers. [st_set] lists the elements of the hash
    set in the order of insertion. *)
Record store : Type := mkSt {
  st_vars : list nat; st_coef : list Q; st_cons : list lcons; st_set : list lcons }.
Definition store_new : store := mkSt [] [] [] [].

(** Linear_constraint.h 173, 179 empty(), size() *)
Definition lc_empty (c : lcons) : bool := snd (lc_pos c) <=? fst (lc_pos c).
Definition lc_size (c : lcons) : nat := snd (lc_pos c) - fst (lc_pos c).

(** Linear_constraints.h 112-149 vars(cons), coef(cons) and Linear_constraint.h 185-199: subrange
    of the shared vector; the empty range for an empty constraint. *)
Definition slice {A} (p : nat * nat) (l : list A) : list A := firstn (snd p - fst p) (skipn (fst p) l).
Definition lc_vars (s : store) (c : lcons) : list nat := slice (lc_pos c) (st_vars s).
Definition lc_coef (s : store) (c : lcons) : list Q := slice (lc_pos c) (st_coef s).
Definition lc_terms (s : store) (c : lcons) : list (nat * Q) := combine (lc_vars s c) (lc_coef s c).

(** Linear_constraint.h 205-208 operator~ *)
Definition lc_neg (c : lcons) : lcons := mkLc (neg (lc_lit c)) (lc_pos c) (lc_pred c) (lc_rhs c).
(** Linear_constraint.h 218-223 is_strict *)
Definition strict_of (l : lit) (p : opred) : bool :=
  (lneg l && opred_eqb p PLeq) || (negb (lneg l) && opred_eqb p PLt) || (lneg l && opred_eqb p PEq).
Definition lc_strict (c : lcons) : bool := strict_of (lc_lit c) (lc_pred c).

(** Linear_constraints.h 159-171 eval: the loop subtracting the terms from the right-hand side,
    with the assert that the variables are assigned. *)
Fixpoint eval_terms (m : model Q) (ts : list (nat * Q)) (r : Q) : res Q :=
  match ts with
  | [] => Ok r
  | (v, c) :: ts' => _ <- assertb (mdef m v) ;; eval_terms m ts' (r - c * mval m v)%Q
  end.
Definition lc_eval (s : store) (m : model Q) (c : lcons) : res bool :=
  r <- eval_terms m (lc_terms s c) (lc_rhs c) ;;
  Ok (xorb (lneg (lc_lit c)) (pred_eval (lc_pred c) 0 r)).
(** Linear_constraint.h 278-289 eval(model, cons) *)
Definition lc_eval_opt (s : store) (m : model Q) (c : lcons) : res (option bool) :=
  if forallb (mdef m) (lc_vars s c) then b <- lc_eval s m c ;; Ok (Some b) else Ok None.
(** Linear_constraints.h 182-201 implied_value *)
Definition lc_implied_value (s : store) (m : model Q) (c : lcons) : res Q :=
  eval_terms m (tl (lc_terms s c)) (lc_rhs c).

(** Linear_constraints.h 223-244 find_norm_constant. The initial value INT_MAX of min_var is
    [None]. *)
Fixpoint min_term (ts : list (nat * Q)) (best : option (nat * Q)) : option (nat * Q) :=
  match ts with
  | [] => best
  | (v, c) :: ts' =>
      min_term ts'
        (if match best with None => true | Some (b, _) => v <? b end && negb (Qeq_bool c 0)
         then Some (v, c) else best)
  end.
Definition find_norm (ts : list (nat * Q)) : option Q :=
  match min_term ts None with
  | Some (_, c) => if Qeq_bool c 0 then None else Some (Qred (1 / c))
  | None => None
  end.
(** 247-262 norm_pred *)
Definition norm_pred (mult : Q) (p : opred) : opred :=
  if qltb mult 0 then match p with PLt => PLeq | PLeq => PLt | PEq => PEq end else p.

(** 266-303 add: append the terms, drop those with coefficient 0, multiply by [mult]. *)
Definition nonzero (ts : list (nat * Q)) : list (nat * Q) :=
  filter (fun t => negb (Qeq_bool (snd t) 0)) ts.
Definition scale (k : Q) (ts : list (nat * Q)) : list (nat * Q) :=
  map (fun t => (fst t, Qred (snd t * k))) ts.
Definition lc_add (s : store) (mult : Q) (ts : list (nat * Q)) : store * (lit * (nat * nat)) :=
  let ts' := scale mult (nonzero ts) in
  (mkSt (st_vars s ++ map fst ts') (st_coef s ++ map snd ts') (st_cons s) (st_set s),
   (mkLit (length (st_cons s)) false, (length (st_vars s), length (st_vars s) + length ts'))).

(** Linear_constraint.h 394-478 Linear_constraint_equal *)
(** std::find in the variables, then the coefficient at the same distance *)
Fixpoint coef_at (v : nat) (ts : list (nat * Q)) : option Q :=
  match ts with
  | [] => None
  | (w, c) :: ts' => if w =? v then Some c else coef_at v ts'
  end.
Definition brute_force_equal (a b : list (nat * Q)) : bool :=
  forallb (fun t => match coef_at (fst t) b with Some c => Qeq_bool (snd t) c | None => false end) a.
(** operator< of std::pair<int, Value> *)
Definition pair_lt (a b : nat * Q) : bool :=
  (fst a <? fst b) || ((fst a =? fst b) && qltb (snd a) (snd b)).
(** std::lower_bound in a sorted vector: the first element that is not less than the key *)
Definition lower_bound (key : nat * Q) (l : list (nat * Q)) : option (nat * Q) :=
  find (fun t => negb (pair_lt t key)) l.
Definition sort_equal (a b : list (nat * Q)) : bool :=
  let values := sort_by pair_lt a in
  forallb (fun t => match lower_bound t values with
                    | Some u => (fst u =? fst t) && Qeq_bool (snd u) (snd t)
                    | None => false
                    end) b.
Definition lc_equal (s : store) (a b : lcons) : bool :=
  if negb ((lc_size a =? lc_size b) && opred_eqb (lc_pred a) (lc_pred b)
           && Qeq_bool (lc_rhs a) (lc_rhs b))
  then false
  else if lc_size a <=? 4 then brute_force_equal (lc_terms s a) (lc_terms s b)
  else sort_equal (lc_terms s a) (lc_terms s b).

Section Hash.
Variable hash_int : nat -> Z.
Variable hash_val : Q -> Z.

(** Linear_constraint.h 359-388 Linear_constraint_hash (std::size_t has 64 bits) *)
Definition lc_hash (s : store) (c : lcons) : Z :=
  let hv := fold_left (fun h v => (h + hash_int v)%Z) (lc_vars s c) 0%Z in
  let hc := fold_left (fun h x => (h + hash_val x)%Z) (lc_coef s c) (hash_val (lc_rhs c)) in
  ((hv * 3 + hc) mod 18446744073709551616)%Z.

(** cons_set.insert(cons): an element with the same hash that compares equal to the new one
    (the new element is the first argument of the comparison, as in libstdc++), if there is one.
    If there are several, which one is found is not specified; here the oldest one. *)
Definition set_find (s : store) (c : lcons) : option lcons :=
  find (fun x => (lc_hash s c =? lc_hash s x)%Z && lc_equal s c x) (st_set s).

(** vector::erase of an index range *)
Definition erase {A} (p : nat * nat) (l : list A) : list A := firstn (fst p) l ++ skipn (snd p) l.

(** Linear_constraints.h 44-84 make *)
Definition lc_make (s : store) (ts : list (nat * Q)) (p : opred) (rhs : Q) : store * lcons :=
  let '(s1, c, is_negation) :=
    match find_norm ts with
    | Some mult =>
        let '(s1, (l, range)) := lc_add s mult ts in
        let c := mkLc l range (norm_pred mult p) (Qred (mult * rhs)) in
        (s1, c, negb (opred_eqb p PEq) && qltb mult 0)
    | None =>
        (s, mkLc (mkLit (length (st_cons s)) false) (0, 0) PEq 0%Q, negb (pred_eval p 0 rhs))
    end in
  let s1 := mkSt (st_vars s1) (st_coef s1) (st_cons s1 ++ [c]) (st_set s1) in
  let '(s2, it) :=
    match set_find s1 c with
    | Some it =>
        ((* duplicate: remove the new values; an empty constraint has empty ranges *)
         if lc_empty c then mkSt (st_vars s1) (st_coef s1) (removelast (st_cons s1)) (st_set s1)
         else mkSt (erase (lc_pos c) (st_vars s1)) (erase (lc_pos c) (st_coef s1))
                   (removelast (st_cons s1)) (st_set s1), it)
    | None => (mkSt (st_vars s1) (st_coef s1) (st_cons s1) (st_set s1 ++ [c]), c)
    end in
  (s2, mkLc (if is_negation then neg (lc_lit it) else lc_lit it) (lc_pos it) (lc_pred it)
            (lc_rhs it)).
End Hash.

(** Linear_constraints.h 90 resize(num_bool_vars) (only ever grows the vector) *)
Definition lc_resize (s : store) (n : nat) : store :=
  mkSt (st_vars s) (st_coef s) (st_cons s ++ repeat lc_default (n - length (st_cons s))) (st_set s).
(** Linear_constraints.h 98-105 operator[] *)
Definition lc_get (s : store) (i : nat) : lcons := nth i (st_cons s) lc_default.

(** The plugin reorders the variables of a constraint in place (Linear_arithmetic.cpp 113-114,
    145-146, 162-163: std::iter_swap on variables and coefficients at the same two indices). *)
Definition swap_nth {A} (i j : nat) (l : list A) : list A :=
  match nth_error l i, nth_error l j with
  | Some x, Some y => set_nth i y (set_nth j x l)
  | _, _ => l
  end.
Definition lc_swap (s : store) (i j : nat) : store :=
  mkSt (swap_nth i j (st_vars s)) (swap_nth i j (st_coef s)) (st_cons s) (st_set s).

(** ** utils/Linear_polynomial.{h,cpp}: variables with coefficients and a constant. The two
    parallel vectors are one list of pairs. *)
Record poly : Type := mkPoly { p_terms : list (nat * Q); p_const : Q }.

(** Linear_polynomial.cpp 6-21: body of the loop of add: add to the first occurrence and erase it
    if it becomes 0, otherwise append. *)
Fixpoint poly_insert (ts : list (nat * Q)) (v : nat) (c : Q) : list (nat * Q) :=
  match ts with
  | [] => [(v, c)]
  | (w, d) :: ts' =>
      if w =? v then (let e := (d + c)%Q in if Qeq_bool e 0 then ts' else (w, e) :: ts')
      else (w, d) :: poly_insert ts' v c
  end.
(** 5-24 add *)
Definition poly_add (p x : poly) : poly :=
  mkPoly (fold_left (fun ts t => poly_insert ts (fst t) (snd t)) (p_terms x) (p_terms p))
         (p_const p + p_const x)%Q.
(** 26-36 sub: negates the argument and adds it *)
Definition poly_sub (p x : poly) : poly :=
  poly_add p (mkPoly (map (fun t => (fst t, (snd t * -1)%Q)) (p_terms x)) (p_const x * -1)%Q).
(** 38-45 negate *)
Definition poly_negate (p : poly) : poly :=
  mkPoly (map (fun t => (fst t, (- snd t)%Q)) (p_terms p)) (- p_const p)%Q.
(** 47-66 sort: by decision level, highest first (std::optional: no level is below every level;
    std::sort is not stable, insertion keeps the order of ties). *)
Definition level_gt (t : trail) (a b : nat * Q) : bool :=
  match t_lvl t (VRat (fst a)), t_lvl t (VRat (fst b)) with
  | Some x, Some y => y <? x
  | Some _, None => true
  | None, _ => false
  end.
Definition poly_sort (t : trail) (p : poly) : poly :=
  mkPoly (sort_by (level_gt t) (p_terms p)) (p_const p).
(** 68-73 subtract_var, with its assertion *)
Definition poly_subtract_var (p : poly) (v : nat) : res poly :=
  _ <- assertb (negb (existsb (fun t => fst t =? v) (p_terms p))) ;;
  Ok (mkPoly (p_terms p ++ [(v, (-1)%Q)]) (p_const p)).
