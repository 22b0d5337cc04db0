(** Model of the linear arithmetic plugin: lra/Variable_bounds.h, lra/Bounds.{h,cpp},
    lra/Lra_conflict_analysis.{h,cpp} and lra/Linear_arithmetic.{h,cpp}.

    Simplifications. [Rational] is [Q] (see Lincons_Model.v). The vectors indexed by rational
    variables are total maps (resize creates default elements). The back of a stack of bounds is
    the head of the list. Failing asserts are [UB]. Pointers to bounds are copies. *)
From Coq Require Import List Arith ZArith QArith Qround Bool.
From Verif Require Import Base Core_Model Bool_Model Trail_Model Lincons_Model.
Import ListNotations.
Open Scope nat_scope.

(** ** Variable_bounds.h 65-218 Implied_value *)
Inductive bound : Type :=
| Bnd (x : nat) (val : Q) (c : lcons) (deps : list bound) (ct vt : Z).
Definition b_var (b : bound) : nat := match b with Bnd x _ _ _ _ _ => x end.
Definition b_val (b : bound) : Q := match b with Bnd _ v _ _ _ _ => v end.
Definition b_cons (b : bound) : lcons := match b with Bnd _ _ c _ _ _ => c end.
Definition b_deps (b : bound) : list bound := match b with Bnd _ _ _ d _ _ => d end.

(** 206-217 compute_timestamps: var_time *)
Definition var_time (s : store) (qm : model Q) (x : nat) (c : lcons) : Z :=
  fold_left (fun k y => if negb (y =? x) && mdef qm y then Z.max k (mts qm y) else k)
            (lc_vars s c) 0%Z.
(** 97-103: constructor of a deduced bound, with its assertion *)
Definition bound_dep (s : store) (t : trail) (x : nat) (v : Q) (c : lcons) (deps : list bound)
  : res bound :=
  _ <- assertb (negb (lc_empty c)) ;;
  Ok (Bnd x v c deps (mts (t_bm t) (lord (lc_lit c))) (var_time s (t_qm t) x c)).
(** 77-85: constructor of a bound implied by a unit constraint, with its assertions *)
Definition bound_unit (s : store) (t : trail) (x : nat) (v : Q) (c : lcons) : res bound :=
  _ <- assertb (negb (lc_empty c)) ;;
  _ <- assertb (match lc_vars s c with
                | [] => false
                | y :: ys => negb (mdef (t_qm t) y) && forallb (mdef (t_qm t)) ys
                end) ;;
  bound_dep s t x v c [].

(** 133-139 is_strict: the constraint or the constraint of a direct dependency is strict *)
Definition b_strict (b : bound) : bool :=
  lc_strict (b_cons b) || existsb (fun d => lc_strict (b_cons d)) (b_deps b).

(** 150-186 is_obsolete *)
Fixpoint is_obsolete (s : store) (t : trail) (b : bound) : bool :=
  match b with
  | Bnd x _ c deps ct vt =>
      negb (is_true (eval_lit (t_bm t) (lc_lit c)))
      || (ct <? mts (t_bm t) (lord (lc_lit c)))%Z
      || existsb (fun y => negb (y =? x) && negb (existsb (fun d => b_var d =? y) deps)
                           && (negb (mdef (t_qm t) y) || (vt <? mts (t_qm t) y)%Z))
                 (lc_vars s c)
      || existsb (is_obsolete s t) deps
  end.

(** 237-260 Bound_comparer *)
Definition is_better (less : Q -> Q -> bool) (a b : bound) : bool :=
  less (b_val a) (b_val b)
  || (Qeq_bool (b_val a) (b_val b) && b_strict a && negb (b_strict b)).

(** ** Variable_bounds.h 269-469 Variable_bounds *)
Record vbounds : Type := mkVb { vb_ub : list bound; vb_lb : list bound; vb_neq : list bound }.
Definition vb_new : vbounds := mkVb [] [] [].

(** 450-456 remove_obsolete *)
Fixpoint drop_obsolete (s : store) (t : trail) (l : list bound) : list bound :=
  match l with
  | [] => []
  | b :: l' => if is_obsolete s t b then drop_obsolete s t l' else l
  end.
(** 282-313 upper_bound, lower_bound *)
Definition upper_bound (s : store) (t : trail) (w : vbounds) : vbounds * option bound :=
  let l := drop_obsolete s t (vb_ub w) in (mkVb l (vb_lb w) (vb_neq w), hd_error l).
Definition lower_bound (s : store) (t : trail) (w : vbounds) : vbounds * option bound :=
  let l := drop_obsolete s t (vb_lb w) in (mkVb (vb_ub w) l (vb_neq w), hd_error l).
(** 321-334 inequality (with 463-468 remove_all_obsolete) *)
Definition inequality (s : store) (t : trail) (w : vbounds) (v : Q) : vbounds * option bound :=
  let l := filter (fun b => negb (is_obsolete s t b)) (vb_neq w) in
  (mkVb (vb_ub w) (vb_lb w) l, find (fun b => Qeq_bool (b_val b) v) l).
(** 342-353 add_inequality *)
Definition add_inequality (s : store) (t : trail) (w : vbounds) (b : bound) : res (vbounds * bool) :=
  _ <- assertb (opred_eqb (lc_pred (b_cons b)) PEq && lneg (lc_lit (b_cons b))) ;;
  let '(w1, neq) := inequality s t w (b_val b) in
  if match neq with
     | None => true
     | Some n => negb (lit_eqb (lc_lit (b_cons n)) (lc_lit (b_cons b)))
     end
  then Ok (mkVb (vb_ub w1) (vb_lb w1) (vb_neq w1 ++ [b]), true)
  else Ok (w1, false).
(** 361-389 add_upper_bound, add_lower_bound *)
Definition add_upper_bound (s : store) (t : trail) (w : vbounds) (b : bound) : vbounds * bool :=
  let '(w1, o) := upper_bound s t w in
  if match o with None => true | Some b0 => is_better qltb b b0 end
  then (mkVb (b :: vb_ub w1) (vb_lb w1) (vb_neq w1), true) else (w1, false).
Definition add_lower_bound (s : store) (t : trail) (w : vbounds) (b : bound) : vbounds * bool :=
  let '(w1, o) := lower_bound s t w in
  if match o with None => true | Some b0 => is_better (fun x y => qltb y x) b b0 end
  then (mkVb (vb_ub w1) (b :: vb_lb w1) (vb_neq w1), true) else (w1, false).
(** 398-421 check_lower_bound, check_upper_bound *)
Definition check_lower_bound (s : store) (t : trail) (w : vbounds) (v : Q) : vbounds * bool :=
  let '(w1, o) := lower_bound s t w in
  (w1, match o with
       | Some b => qltb (b_val b) v || (Qeq_bool (b_val b) v && negb (b_strict b))
       | None => true
       end).
Definition check_upper_bound (s : store) (t : trail) (w : vbounds) (v : Q) : vbounds * bool :=
  let '(w1, o) := upper_bound s t w in
  (w1, match o with
       | Some b => qltb v (b_val b) || (Qeq_bool (b_val b) v && negb (b_strict b))
       | None => true
       end).
(** 431-435 is_allowed (&& does not evaluate its second operand if the first one is false) *)
Definition is_allowed (s : store) (t : trail) (w : vbounds) (v : Q) : vbounds * bool :=
  let '(w1, n) := inequality s t w v in
  match n with
  | Some _ => (w1, false)
  | None =>
      let '(w2, b1) := check_lower_bound s t w1 v in
      if b1 then check_upper_bound s t w2 v else (w2, false)
  end.

(** ** Bounds.{h,cpp}: [bd_of] is the member bounds, [bd_upd] is updated_write. *)
Record bnds : Type := mkBd { bd_of : nat -> vbounds; bd_upd : list nat }.
Definition bnds_new : bnds := mkBd (fun _ => vb_new) [].
Definition bd_set (B : bnds) (x : nat) (w : vbounds) : bnds := mkBd (upd (bd_of B) x w) (bd_upd B).
(** updated_write.push_back(x) if has_changed *)
Definition bd_mark (B : bnds) (x : nat) (changed : bool) : bnds :=
  if changed then mkBd (bd_of B) (bd_upd B ++ [x]) else B.

(** Bounds.cpp 7-12 depends_on *)
Fixpoint depends_on (b : bound) (v : nat) : bool :=
  match b with
  | Bnd _ _ _ deps _ _ =>
      existsb (fun d => (lord (lc_lit (b_cons d)) =? v) || depends_on d v) deps
  end.
(** Bounds.h 125-144 count_distinct_bounds *)
Fixpoint bound_vars (b : bound) : list nat :=
  match b with Bnd _ _ c deps _ _ => lord (lc_lit c) :: flat_map bound_vars deps end.
Definition count_distinct (bs : list bound) : nat :=
  length (nodup Nat.eq_dec (flat_map bound_vars bs)).

(** Bounds.h 106-117 Deduced_properties *)
Record dprop : Type := mkDp {
  dp_bound : Q; dp_deps : list bound; dp_num : nat; dp_var : nat; dp_coef : Q }.
(** Bounds.cpp 39 *)
Definition dp_sub (p : dprop) (x : Q) : dprop :=
  mkDp (dp_bound p - x)%Q (dp_deps p) (dp_num p) (dp_var p) (dp_coef p).
(** Bounds.cpp 61-71, 140-150 *)
Definition dp_use (p : dprop) (v : nat) (k : Q) (o : option bound) : dprop :=
  match o with
  | Some b => mkDp (dp_bound p - k * b_val b)%Q (dp_deps p ++ [b]) (dp_num p) (dp_var p) (dp_coef p)
  | None => mkDp (dp_bound p) (dp_deps p) (S (dp_num p)) v k
  end.
Definition dep_opt (o : option bound) (v : nat) : bool :=
  match o with Some b => depends_on b v | None => false end.

(** Bounds.cpp 33-74: the loop of deduce_from_equality; [None] is the early return *)
Fixpoint eq_loop (s : store) (t : trail) (c : lcons) (ts : list (nat * Q)) (B : bnds) (p0 p1 : dprop)
  : bnds * option (dprop * dprop) :=
  match ts with
  | [] => (B, Some (p0, p1))
  | (v, k) :: ts' =>
      if mdef (t_qm t) v
      then eq_loop s t c ts' B (dp_sub p0 (k * mval (t_qm t) v)) (dp_sub p1 (k * mval (t_qm t) v))
      else
        let '(w1, u) := upper_bound s t (bd_of B v) in
        let '(w2, l) := lower_bound s t w1 in
        let B1 := bd_set B v w2 in
        let '(b0, b1) := if qltb k 0 then (l, u) else (u, l) in
        if dep_opt b0 (lord (lc_lit c)) || dep_opt b1 (lord (lc_lit c)) then (B1, None)
        else eq_loop s t c ts' B1 (dp_use p0 v k b0) (dp_use p1 v k b1)
  end.
(** Bounds.cpp 78-101: one iteration of the second loop; [i] is 0 or 1. threshold is 1.0, so
    max_deps is the number of variables. *)
Definition eq_add (s : store) (t : trail) (c : lcons) (first : bool) (p : dprop) (B : bnds)
  : res bnds :=
  if (count_distinct (dp_deps p) <=? lc_size c) && (dp_num p =? 1) then
    let x := dp_var p in
    b <- bound_dep s t x (dp_bound p / dp_coef p)%Q c (dp_deps p) ;;
    let '(w, changed) :=
      if (first && qltb 0 (dp_coef p)) || (negb first && qltb (dp_coef p) 0)
      then add_lower_bound s t (bd_of B x) b else add_upper_bound s t (bd_of B x) b in
    Ok (bd_mark (bd_set B x w) x changed)
  else Ok B.
(** Bounds.cpp 21-102 deduce_from_equality (unbounded_var is not initialised in the code; it is
    only read if num_vars is 1) *)
Definition deduce_eq (s : store) (t : trail) (c : lcons) (B : bnds) : res bnds :=
  _ <- assertb (negb (lneg (lc_lit c))) ;;
  _ <- assertb (opred_eqb (lc_pred c) PEq) ;;
  _ <- assertb (is_true (eval_lit (t_bm t) (lc_lit c))) ;;
  let p := mkDp (lc_rhs c) [] 0 0 0 in
  match eq_loop s t c (lc_terms s c) B p p with
  | (B1, None) => Ok B1
  | (B1, Some (p0, p1)) => B2 <- eq_add s t c true p0 B1 ;; eq_add s t c false p1 B2
  end.

(** Bounds.cpp 125-126, 161-162, 223-224: the constraint bounds the variable from above if its
    coefficient has this sign *)
Definition same_dir (c : lcons) (k : Q) : bool :=
  (negb (lneg (lc_lit c)) && qltb 0 k) || (lneg (lc_lit c) && qltb k 0).
(** Bounds.cpp 116-152: the loop of deduce_from_inequality *)
Fixpoint ineq_loop (s : store) (t : trail) (c : lcons) (ts : list (nat * Q)) (B : bnds) (p : dprop)
  : bnds * option dprop :=
  match ts with
  | [] => (B, Some p)
  | (v, k) :: ts' =>
      if mdef (t_qm t) v then ineq_loop s t c ts' B (dp_sub p (k * mval (t_qm t) v))
      else
        let '(w, o) := if same_dir c k then lower_bound s t (bd_of B v)
                       else upper_bound s t (bd_of B v) in
        let B1 := bd_set B v w in
        if dep_opt o (lord (lc_lit c)) then (B1, None)
        else ineq_loop s t c ts' B1 (dp_use p v k o)
  end.
(** Bounds.cpp 104-176 deduce_from_inequality *)
Definition deduce_ineq (s : store) (t : trail) (c : lcons) (B : bnds) : res bnds :=
  _ <- assertb (is_true (eval_lit (t_bm t) (lc_lit c))) ;;
  _ <- assertb (negb (opred_eqb (lc_pred c) PEq)) ;;
  match ineq_loop s t c (lc_terms s c) B (mkDp (lc_rhs c) [] 0 0 0) with
  | (B1, None) => Ok B1
  | (B1, Some p) =>
      if (count_distinct (dp_deps p) <=? lc_size c) && (dp_num p =? 1) then
        let x := dp_var p in
        b <- bound_dep s t x (dp_bound p / dp_coef p)%Q c (dp_deps p) ;;
        let '(w, changed) := if same_dir c (dp_coef p) then add_upper_bound s t (bd_of B1 x) b
                             else add_lower_bound s t (bd_of B1 x) b in
        Ok (bd_mark (bd_set B1 x w) x changed)
      else Ok B1
  end.
(** Bounds.cpp 178-197 deduce *)
Definition deduce (s : store) (t : trail) (c : lcons) (B : bnds) : res bnds :=
  _ <- assertb (is_true (eval_lit (t_bm t) (lc_lit c))) ;;
  if lc_size c <=? 1 then Ok B
  else if opred_eqb (lc_pred c) PEq then (if lneg (lc_lit c) then Ok B else deduce_eq s t c B)
  else deduce_ineq s t c B.

(** Bounds.cpp 213-239: the loop of is_implied; [None] is the early [return false] *)
Fixpoint implied_loop (s : store) (t : trail) (c : lcons) (ts : list (nat * Q)) (B : bnds) (r : Q)
  : bnds * option Q :=
  match ts with
  | [] => (B, Some r)
  | (v, k) :: ts' =>
      if mdef (t_qm t) v then implied_loop s t c ts' B (r - k * mval (t_qm t) v)%Q
      else
        let '(w, o) := if same_dir c k then upper_bound s t (bd_of B v)
                       else lower_bound s t (bd_of B v) in
        let B1 := bd_set B v w in
        match o with
        | None => (B1, None)
        | Some b => implied_loop s t c ts' B1 (r - k * b_val b)%Q
        end
  end.
(** Bounds.cpp 199-242 is_implied *)
Definition is_implied (s : store) (t : trail) (c : lcons) (B : bnds) : bnds * bool :=
  match eval_lit (t_bm t) (lc_lit c) with
  | Some b => (B, b)
  | None =>
      match implied_loop s t c (lc_terms s c) B (lc_rhs c) with
      | (B1, None) => (B1, false)
      | (B1, Some r) => (B1, if lneg (lc_lit c) then negb (pred_eval (lc_pred c) 0 r)
                             else pred_eval (lc_pred c) 0 r)
      end
  end.

(** Bounds.cpp 244-274 implies_equality, implies_inequality, implies_lower_bound,
    implies_upper_bound ([k] is coef().front()) *)
Definition implies_eq (c : lcons) : bool := opred_eqb (lc_pred c) PEq && negb (lneg (lc_lit c)).
Definition implies_neq (c : lcons) : bool := opred_eqb (lc_pred c) PEq && lneg (lc_lit c).
Definition implies_lb (c : lcons) (k : Q) : bool :=
  if opred_eqb (lc_pred c) PEq then negb (lneg (lc_lit c))
  else (qltb 0 k && lneg (lc_lit c)) || (qltb k 0 && negb (lneg (lc_lit c))).
Definition implies_ub (c : lcons) (k : Q) : bool :=
  if opred_eqb (lc_pred c) PEq then negb (lneg (lc_lit c))
  else (qltb k 0 && lneg (lc_lit c)) || (qltb 0 k && negb (lneg (lc_lit c))).

(** Bounds.cpp 276-312 update *)
Definition bd_update (s : store) (t : trail) (c : lcons) (B : bnds) : res bnds :=
  _ <- assertb (mdef (t_bm t) (lord (lc_lit c))) ;;
  '(x, k) <- at_ (lc_terms s c) 0 ;;
  _ <- assertb (negb (Qeq_bool k 0)) ;;
  r <- lc_implied_value s (t_qm t) c ;;
  let v := (r / k)%Q in
  b <- value_of (eval_lit (t_bm t) (lc_lit c)) ;;
  let c1 := if b then c else lc_neg c in
  let w := bd_of B x in
  if implies_eq c1 then
    b1 <- bound_unit s t x v c1 ;;
    let '(w1, h1) := add_lower_bound s t w b1 in
    let '(w2, h2) := add_upper_bound s t w1 b1 in
    Ok (bd_mark (bd_set B x w2) x (h1 || h2))
  else if implies_neq c1 then
    b1 <- bound_unit s t x v c1 ;;
    '(w1, _) <- add_inequality s t w b1 ;;
    Ok (bd_mark (bd_set B x w1) x true)
  else if implies_lb c1 k then
    b1 <- bound_unit s t x v c1 ;;
    let '(w1, h) := add_lower_bound s t w b1 in
    Ok (bd_mark (bd_set B x w1) x h)
  else
    _ <- assertb (implies_ub c1 k) ;;
    b1 <- bound_unit s t x v c1 ;;
    let '(w1, h) := add_upper_bound s t w b1 in
    Ok (bd_mark (bd_set B x w1) x h).

(** Bounds.cpp 314-323 changed: sorted, without duplicates; the write buffer becomes empty *)
Fixpoint unique_nat (l : list nat) : list nat :=
  match l with
  | a :: (b :: _) as l' => if a =? b then unique_nat l' else a :: unique_nat l'
  | _ => l
  end.
Definition bd_changed (B : bnds) : bnds * list nat :=
  (mkBd (bd_of B) [], unique_nat (sort_by Nat.ltb (bd_upd B))).

(** ** Lra_conflict_analysis.{h,cpp} *)
(** Fm_elimination: polynomial, constant and predicate *)
Record fm : Type := mkFm { fm_terms : list (nat * Q); fm_const : Q; fm_pred : opred }.

(** Lra_conflict_analysis.h 41-70 normalize: [cur] is the element at out_it *)
Fixpoint merge_terms (cur : nat * Q) (ts : list (nat * Q)) : list (nat * Q) :=
  match ts with
  | [] => if Qeq_bool (snd cur) 0 then [] else [cur]
  | (v, c) :: ts' =>
      if fst cur =? v then merge_terms (fst cur, (snd cur + c)%Q) ts'
      else (if Qeq_bool (snd cur) 0 then [] else [cur]) ++ merge_terms (v, c) ts'
  end.
Definition fm_normalize (ts : list (nat * Q)) : list (nat * Q) :=
  match sort_by (fun a b => fst a <? fst b) ts with
  | [] => []
  | a :: ts' => merge_terms a ts'
  end.

(** Lra_conflict_analysis.cpp 29-44 init(cons, pred, mult) *)
Definition fm_init_with (s : store) (c : lcons) (p : opred) (mult : Q) : res fm :=
  _ <- assertb (negb (lc_empty c)) ;;
  Ok (mkFm (map (fun a => (fst a, (snd a * mult)%Q)) (lc_terms s c)) (- lc_rhs c * mult)%Q p).
(** 6-27 init(cons) *)
Definition fm_init (s : store) (c : lcons) : res fm :=
  _ <- assertb (negb (opred_eqb (lc_pred c) PEq) || negb (lneg (lc_lit c))) ;;
  let p := if lneg (lc_lit c)
           then match lc_pred c with PLeq => PLt | PLt => PLeq | PEq => PEq end
           else lc_pred c in
  fm_init_with s c p (if opred_eqb p (lc_pred c) then 1 else -1)%Q.
(** 96-110 combine *)
Definition fm_combine (a b : opred) : opred :=
  match a, b with
  | PEq, PEq => PEq
  | _, _ => if negb (opred_eqb a PLt) && negb (opred_eqb b PLt) then PLeq else PLt
  end.
(** 52-94 resolve *)
Definition fm_resolve (f g : fm) (x : nat) : res fm :=
  _ <- assertb (negb (match fm_terms f with [] => true | _ => false end)) ;;
  _ <- assertb (negb (match fm_terms g with [] => true | _ => false end)) ;;
  a <- value_of (coef_at x (fm_terms f)) ;;
  b <- value_of (coef_at x (fm_terms g)) ;;
  let k := (- a / b)%Q in
  let flip := qltb k 0 && negb (opred_eqb (fm_pred g) PEq) in
  let k := if flip then (- k)%Q else k in
  let ts := if flip then map (fun u => (fst u, (- snd u)%Q)) (fm_terms f) else fm_terms f in
  let c0 := if flip then (- fm_const f)%Q else fm_const f in
  let ts' := fm_normalize (ts ++ map (fun u => (fst u, (snd u * k)%Q)) (fm_terms g)) in
  _ <- assertb (match coef_at x ts' with None => true | Some _ => false end) ;;
  Ok (mkFm ts' (c0 + fm_const g * k)%Q (fm_combine (fm_pred f) (fm_pred g))).

(** 136-152 eliminate: the derived constraint and the literals pushed to the clause *)
Fixpoint eliminate (s : store) (qm : model Q) (b : bound) : res (fm * clause) :=
  match b with
  | Bnd _ _ c deps _ _ =>
      f <- fm_init s c ;;
      (fix go (ds : list bound) (f : fm) (cl : clause) : res (fm * clause) :=
         match ds with
         | [] => Ok (f, cl)
         | d :: ds' =>
             if mdef qm (b_var d) then go ds' f cl
             else '(g, cl1) <- eliminate s qm d ;;
                  f1 <- fm_resolve f g (b_var d) ;;
                  go ds' f1 (cl ++ cl1)
         end) deps f [neg (lc_lit c)]
  end.

(** 154-160 finish: sort and remove duplicates *)
Fixpoint unique_lit (c : clause) : clause :=
  match c with
  | a :: (b :: _) as c' => if lit_eqb a b then unique_lit c' else a :: unique_lit c'
  | _ => c
  end.
Definition sort_clause (c : clause) : clause :=
  unique_lit (sort_by (fun a b => lidx a <? lidx b) c).

(** ** Linear_arithmetic.{h,cpp} *)
(** Linear_arithmetic.h 34-62 Options *)
Record lopt : Type := mkOpt {
  o_bounds : bool; o_unassigned : bool; o_rational : bool; o_all : bool }.
Definition opt_default : lopt := mkOpt false false false true.

(** Linear_arithmetic.h 193-225: the members, and the cursor of Theory *)
Record lra : Type := mkLra {
  l_st : store;
  l_watch : nat -> list (lcons * nat);
  l_bd : bnds;
  l_cache : nat -> option Q;
  l_check : list nat;
  l_occur : nat -> list lcons;
  l_decided : list nat;
  l_cur : cursor }.
Definition lra_new : lra :=
  mkLra store_new (fun _ => []) bnds_new (fun _ => None) [] (fun _ => []) [] cursor_new.
Definition with_st (a : lra) (s : store) : lra :=
  mkLra s (l_watch a) (l_bd a) (l_cache a) (l_check a) (l_occur a) (l_decided a) (l_cur a).
Definition with_watch (a : lra) (w : nat -> list (lcons * nat)) : lra :=
  mkLra (l_st a) w (l_bd a) (l_cache a) (l_check a) (l_occur a) (l_decided a) (l_cur a).
Definition with_bd (a : lra) (B : bnds) : lra :=
  mkLra (l_st a) (l_watch a) B (l_cache a) (l_check a) (l_occur a) (l_decided a) (l_cur a).
Definition with_cache (a : lra) (m : nat -> option Q) : lra :=
  mkLra (l_st a) (l_watch a) (l_bd a) m (l_check a) (l_occur a) (l_decided a) (l_cur a).
Definition with_check (a : lra) (l : list nat) : lra :=
  mkLra (l_st a) (l_watch a) (l_bd a) (l_cache a) l (l_occur a) (l_decided a) (l_cur a).
Definition with_occur (a : lra) (m : nat -> list lcons) : lra :=
  mkLra (l_st a) (l_watch a) (l_bd a) (l_cache a) (l_check a) m (l_decided a) (l_cur a).
Definition with_decided (a : lra) (l : list nat) : lra :=
  mkLra (l_st a) (l_watch a) (l_bd a) (l_cache a) (l_check a) (l_occur a) l (l_cur a).
Definition with_cur (a : lra) (c : cursor) : lra :=
  mkLra (l_st a) (l_watch a) (l_bd a) (l_cache a) (l_check a) (l_occur a) (l_decided a) c.

(** iter_swap on variables and coefficients at positions [i] and [j] of the constraint *)
Definition cons_swap (s : store) (c : lcons) (i j : nat) : store :=
  lc_swap s (fst (lc_pos c) + i) (fst (lc_pos c) + j).

(** Linear_arithmetic.cpp 252-257 is_fully_assigned *)
Definition fully_assigned (s : store) (qm : model Q) (c : lcons) : bool :=
  lc_empty c || forallb (mdef qm) (lc_vars s c).
(** 240-250 is_unit *)
Definition is_unit (s : store) (qm : model Q) (c : lcons) : res bool :=
  if lc_empty c then Ok false
  else v0 <- at_ (lc_vars s c) 0 ;;
       if mdef qm v0 then Ok false
       else if lc_size c =? 1 then Ok true
       else v1 <- at_ (lc_vars s c) 1 ;; Ok (mdef qm v1).

(** 90-99 watch(cons); Linear_arithmetic.h 199-202: the initial index *)
Definition watch_cons (a : lra) (c : lcons) : res lra :=
  _ <- assertb (negb (lc_empty c)) ;;
  let w := (c, Nat.min 2 (lc_size c - 1)) in
  v0 <- at_ (lc_vars (l_st a) c) 0 ;;
  let W := upd (l_watch a) v0 (l_watch a v0 ++ [w]) in
  if 1 <? lc_size c then
    v1 <- at_ (lc_vars (l_st a) c) 1 ;;
    Ok (with_watch a (upd W v1 (W v1 ++ [w])))
  else Ok (with_watch a W).
(** 101-116: move at most two unassigned variables to the front; [n] iterations are left *)
Fixpoint move_front (n : nat) (s : store) (qm : model Q) (c : lcons) (i out stop : nat) : store :=
  match n with
  | 0 => s
  | S n' =>
      if out =? stop then s
      else match nth_error (lc_vars s c) i with
           | Some v => if mdef qm v then move_front n' s qm c (S i) out stop
                       else move_front n' (cons_swap s c i out) qm c (S i) (S out) stop
           | None => s
           end
  end.
(** 101-119 watch(cons, model) *)
Definition watch_new (a : lra) (qm : model Q) (c : lcons) : res lra :=
  let stop := if lc_size c =? 1 then 1 else 2 in
  watch_cons (with_st a (move_front (lc_size c) (l_st a) qm c 0 0 stop)) c.

(** 361-378 propagate(trail, models, cons) *)
Fixpoint max_level (t : trail) (vs : list nat) (k : nat) : res nat :=
  match vs with
  | [] => Ok k
  | v :: vs' => j <- value_of (t_lvl t (VRat v)) ;; max_level t vs' (Nat.max k j)
  end.
Definition sem_propagate (s : store) (t : trail) (c : lcons) : res trail :=
  _ <- assertb (match eval_lit (t_bm t) (lc_lit c) with None => true | Some _ => false end) ;;
  k <- max_level t (lc_vars s c) 0 ;;
  b <- lc_eval s (t_qm t) c ;;
  trail_propagate (with_bm t (set_value (t_bm t) (lord (lc_lit c)) (xorb (lneg (lc_lit c)) b)))
                  (lvar (lc_lit c)) None k.

(** 157-177: the do-while loop of replace_watch from position [i]; the position of an unassigned
    variable if one is found, and the final watch.index *)
Fixpoint find_free (fuel : nat) (qm : model Q) (vs : list nat) (i stop : nat)
  : res (option nat * nat) :=
  match fuel with
  | 0 => Fuel
  | S f =>
      v <- at_ vs i ;;
      if negb (mdef qm v) then Ok (Some i, i)
      else let i' := if length vs <=? i + 1 then 2 else i + 1 in
           if i' =? stop then Ok (None, i') else find_free f qm vs i' stop
  end.
(** 121-181 replace_watch(model, watch, var): the store, the watch lists, the watch and whether
    the watch is to be removed from the list of [x] *)
Definition replace_watch (s : store) (W : nat -> list (lcons * nat)) (qm : model Q)
           (w : lcons * nat) (x : nat)
  : res (store * (nat -> list (lcons * nat)) * (lcons * nat) * bool) :=
  let '(c, idx) := w in
  v0 <- at_ (lc_vars s c) 0 ;;
  if lc_size c <=? 1 then
    _ <- assertb (v0 =? x) ;; Ok (s, W, w, false)
  else
    v1 <- at_ (lc_vars s c) 1 ;;
    if mdef qm v0 && mdef qm v1 then
      _ <- assertb (forallb (mdef qm) (lc_vars s c)) ;; Ok (s, W, w, false)
    else
      let s1 := if v1 =? x then s else cons_swap s c 0 1 in
      u1 <- at_ (lc_vars s1 c) 1 ;;
      _ <- assertb (u1 =? x) ;;
      if 2 <? lc_size c then
        _ <- assertb ((2 <=? idx) && (idx <? lc_size c)) ;;
        '(o, idx') <- find_free (lc_size c) qm (lc_vars s1 c) idx idx ;;
        match o with
        | Some j =>
            let s2 := cons_swap s1 c 1 j in
            r <- at_ (lc_vars s2 c) 1 ;;
            Ok (s2, upd W r (W r ++ [(c, idx')]), (c, idx'), negb (r =? x))
        | None => Ok (s1, W, (c, idx'), false)
        end
      else Ok (s1, W, (c, idx), false).

(** optional<bool> == optional<bool> *)
Definition obool_eqb (a b : option bool) : bool :=
  match a, b with
  | Some x, Some y => Bool.eqb x y
  | None, None => true
  | _, _ => false
  end.

(** 199-225: a constraint that stays in the watch list *)
Definition watch_kept (s : store) (t : trail) (B : bnds) (c : lcons) : res (trail * bnds) :=
  if mdef (t_bm t) (lord (lc_lit c)) then
    if fully_assigned s (t_qm t) c then
      o <- lc_eval_opt s (t_qm t) c ;;
      _ <- assertb (obool_eqb o (eval_lit (t_bm t) (lc_lit c))) ;;
      Ok (t, B)
    else
      u <- is_unit s (t_qm t) c ;;
      _ <- assertb u ;;
      B1 <- bd_update s t c B ;; Ok (t, B1)
  else
    if fully_assigned s (t_qm t) c then
      t1 <- sem_propagate s t c ;; Ok (t1, B)
    else
      u <- is_unit s (t_qm t) c ;;
      _ <- assertb u ;; Ok (t, B).

(** 188-226: the watch list of [x] is [done ++ todo]; [n] is the length of [todo]. Removing a
    watch swaps it with the last one. *)
Fixpoint watch_loop (n : nat) (x : nat) (s : store) (W : nat -> list (lcons * nat)) (t : trail)
         (B : bnds) (don todo : list (lcons * nat))
  : res (store * (nat -> list (lcons * nat)) * trail * bnds) :=
  match todo with
  | [] => Ok (s, upd W x don, t, B)
  | w :: rest =>
      match n with
      | 0 => Fuel
      | S n' =>
          '(s1, W1, w1, removed) <- replace_watch s W (t_qm t) w x ;;
          if removed then
            watch_loop n' x s1 W1 t B don
              (match rest with [] => [] | _ => last rest w :: removelast rest end)
          else
            '(t1, B1) <- watch_kept s1 t B (fst w1) ;;
            watch_loop n' x s1 W1 t1 B1 (don ++ [w1]) rest
      end
  end.
(** 183-227 replace_watch(trail, models, var) *)
Definition replace_watches (a : lra) (t : trail) (x : nat) : res (lra * trail) :=
  _ <- assertb (mdef (t_qm t) x) ;;
  '(s, W, t1, B) <- watch_loop (length (l_watch a x)) x (l_st a) (l_watch a) t (l_bd a) []
                               (l_watch a x) ;;
  Ok (with_bd (with_watch (with_st a s) W) B, t1).

(** 54-67: a variable reported by assigned() *)
Definition lra_bool_var (a : lra) (t : trail) (v : nat) : res (lra * trail) :=
  let c := lc_get (l_st a) v in
  _ <- assertb (negb (lc_empty c)) ;;
  if fully_assigned (l_st a) (t_qm t) c then
    o <- lc_eval_opt (l_st a) (t_qm t) c ;;
    _ <- assertb (obool_eqb o (eval_lit (t_bm t) (lc_lit c))) ;;
    Ok (a, t)
  else
    u <- is_unit (l_st a) (t_qm t) c ;;
    if u then B <- bd_update (l_st a) t c (l_bd a) ;; Ok (with_bd a B, t)
    else Ok (a, t).
(** 52-76 *)
Fixpoint lra_vars (vs : list var) (a : lra) (t : trail) : res (lra * trail) :=
  match vs with
  | [] => Ok (a, t)
  | v :: vs' =>
      '(a1, t1) <- (match v with
                    | VBool i => lra_bool_var a t i
                    | VRat x => replace_watches a t x
                    end) ;;
      lra_vars vs' a1 t1
  end.
(** 45-46 *)
Definition relevant (a : lra) (v : var) : bool :=
  match v with VRat _ => true | VBool i => negb (lc_empty (lc_get (l_st a) i)) end.

(** 278-297 propagate_bounds over the elements of the current level, oldest first *)
Fixpoint propagate_bounds (es : list entry) (a : lra) (t : trail) : res lra :=
  match es with
  | [] => Ok a
  | (VRat _, _) :: es' => propagate_bounds es' a t
  | (VBool i, _) :: es' =>
      let c := lc_get (l_st a) i in
      if lc_empty c then propagate_bounds es' a t
      else
        let c1 := if mval (t_bm t) i then c else lc_neg c in
        _ <- assertb (Bool.eqb (mval (t_bm t) (lord (lc_lit c1))) (negb (lneg (lc_lit c1)))) ;;
        B <- deduce (l_st a) t c1 (l_bd a) ;;
        propagate_bounds es' (with_bd a B) t
  end.

(** 316-323: try the constraint, then its negation *)
Definition try_implied (a : lra) (t : trail) (c : lcons) : res (lra * trail) :=
  let '(B, b) := is_implied (l_st a) t c (l_bd a) in
  if b then
    t1 <- trail_propagate t (lvar (lc_lit c)) None (dl t) ;;
    Ok (with_bd a B, with_bm t1 (set_value (t_bm t1) (lord (lc_lit c)) (negb (lneg (lc_lit c)))))
  else Ok (with_bd a B, t).
Fixpoint unassigned_loop (cs : list lcons) (a : lra) (t : trail) : res (lra * trail) :=
  match cs with
  | [] => Ok (a, t)
  | c :: cs' =>
      if mdef (t_bm t) (lord (lc_lit c)) then unassigned_loop cs' a t
      else '(a1, t1) <- try_implied a t c ;;
           '(a2, t2) <- try_implied a1 t1 (lc_neg c) ;;
           unassigned_loop cs' a2 t2
  end.
(** 299-326 propagate_unassigned *)
Definition propagate_unassigned (a : lra) (t : trail) : res (lra * trail) :=
  if dl t =? 0 then Ok (a, t)
  else
    match rev (recent t) with
    | [] => UB
    | (VRat x, _) :: _ => unassigned_loop (l_occur a x) a t
    | (VBool _, _) :: _ => Ok (a, t)
    end.

(** trail.resize(boolean, n) for [n] above the current number (Trail.cpp 6-18); the event only
    calls constraints.resize with the current size *)
Definition add_bool (t : trail) (n : nat) : trail := trail_resize t n (mnum (t_qm t)).

Section Hash.
Variable hash_int : nat -> Z.
Variable hash_val : Q -> Z.
Variable opt : lopt.

(** Linear_arithmetic.h 103-126 constraint *)
Definition lra_constraint (a : lra) (t : trail) (ts : list (nat * Q)) (p : opred) (rhs : Q)
  : res (lra * trail * lcons) :=
  let '(s, c) := lc_make hash_int hash_val (l_st a) ts p rhs in
  let a1 := with_st a s in
  let i := lord (lc_lit c) in
  if mnum (t_bm t) <=? i then
    let a2 := if o_bounds opt || o_unassigned opt
              then with_occur a1
                     (fold_left (fun m v => upd m v (m v ++ [if lneg (lc_lit c) then lc_neg c else c]))
                                (lc_vars s c) (l_occur a1))
              else a1 in
    let t1 := add_bool t (S i) in
    a3 <- watch_new a2 (t_qm t1) c ;;
    Ok (a3, t1, c)
  else Ok (a1, t, c).

(** Lra_conflict_analysis.cpp 112-134 Fm_elimination::finish. The comparator of std::sort is not
    called for a single element. *)
Definition fm_finish (a : lra) (t : trail) (f : fm) : res (lra * trail * lcons) :=
  match fm_terms f with
  | [] => Ok (a, t, lc_default)
  | _ :: _ =>
      _ <- assertb ((length (fm_terms f) <=? 1)
                    || forallb (fun u => match t_lvl t (VRat (fst u)) with Some _ => true | None => false end)
                               (fm_terms f)) ;;
      let ts := sort_by (level_gt t) (fm_terms f) in
      '(a1, t1, c) <- lra_constraint a t ts (fm_pred f) (- fm_const f)%Q ;;
      if mdef (t_bm t1) (lord (lc_lit c)) then Ok (a1, t1, c)
      else t2 <- sem_propagate (l_st a1) t1 c ;; Ok (a1, t2, c)
  end.

(** assert(eval(models.boolean(), derived.lit()) == false) and
    assert(eval(models.owned(), derived) == false) *)
Definition derived_false (a : lra) (t : trail) (c : lcons) : res unit :=
  _ <- assertb (is_false (eval_lit (t_bm t) (lc_lit c))) ;;
  o <- lc_eval_opt (l_st a) (t_qm t) c ;;
  assertb (is_false o).

(** Lra_conflict_analysis.cpp 162-197 Bound_conflict_analysis::analyze *)
Definition bound_conflict (a : lra) (t : trail) (x : nat) : res (lra * trail * option clause) :=
  let s := l_st a in
  let '(w1, lb) := lower_bound s t (bd_of (l_bd a) x) in
  let '(w2, ub) := upper_bound s t w1 in
  let a := with_bd a (bd_set (l_bd a) x w2) in
  match lb, ub with
  | Some lb, Some ub =>
      let strict := b_strict lb || b_strict ub in
      if qltb (b_val lb) (b_val ub) || (Qeq_bool (b_val lb) (b_val ub) && negb strict)
      then Ok (a, t, None)
      else
        _ <- assertb (b_var lb =? b_var ub) ;;
        '(f, cl1) <- eliminate s (t_qm t) lb ;;
        '(g, cl2) <- eliminate s (t_qm t) ub ;;
        f1 <- fm_resolve f g (b_var ub) ;;
        let cl := sort_clause (cl1 ++ cl2) in
        '(a1, t1, c) <- fm_finish a t f1 ;;
        cl' <- (if lc_empty c then Ok cl
                else _ <- derived_false a1 t1 c ;; Ok (cl ++ [lc_lit c])) ;;
        _ <- assertb (2 <=? length cl') ;;
        _ <- assertb (is_false (eval_clause (t_bm t1) cl')) ;;
        Ok (a1, t1, Some cl')
  | _, _ => Ok (a, t, None)
  end.

(** 230-242: one iteration of the loop of Inequality_conflict_analysis::analyze *)
Definition neq_side (a : lra) (t : trail) (neq b : bound) (mult : Q) (cl : clause)
  : res (lra * trail * clause) :=
  '(f, cl1) <- eliminate (l_st a) (t_qm t) b ;;
  g <- fm_init_with (l_st a) (b_cons neq) PLt mult ;;
  f1 <- fm_resolve f g (b_var neq) ;;
  '(a1, t1, c) <- fm_finish a t f1 ;;
  if lc_empty c then Ok (a1, t1, cl ++ cl1)
  else _ <- derived_false a1 t1 c ;; Ok (a1, t1, cl ++ cl1 ++ [lc_lit c]).
(** 199-246 Inequality_conflict_analysis::analyze *)
Definition neq_conflict (a : lra) (t : trail) (x : nat) : res (lra * trail * option clause) :=
  let s := l_st a in
  let '(w1, lb) := lower_bound s t (bd_of (l_bd a) x) in
  let '(w2, ub) := upper_bound s t w1 in
  let a := with_bd a (bd_set (l_bd a) x w2) in
  match lb, ub with
  | Some lb, Some ub =>
      if negb (Qeq_bool (b_val lb) (b_val ub)) || lc_strict (b_cons lb) || lc_strict (b_cons ub)
      then Ok (a, t, None)
      else
        let '(w3, neq) := inequality s t w2 (b_val lb) in
        let a := with_bd a (bd_set (l_bd a) x w3) in
        match neq with
        | None => Ok (a, t, None)
        | Some neq =>
            _ <- assertb (b_var lb =? b_var ub) ;;
            _ <- assertb (b_var neq =? b_var lb) ;;
            k <- at_ (lc_coef s (b_cons neq)) 0 ;;
            let mult := if qltb 0 k then 1%Q else (-1)%Q in
            '(a1, t1, cl1) <- neq_side a t neq lb mult [neg (lc_lit (b_cons neq))] ;;
            '(a2, t2, cl2) <- neq_side a1 t1 neq ub (- mult)%Q cl1 ;;
            _ <- assertb (is_false (eval_clause (t_bm t2) cl2)) ;;
            Ok (a2, t2, Some (sort_clause cl2))
        end
  | _, _ => Ok (a, t, None)
  end.

(** Linear_arithmetic.cpp 259-271 check_bounds *)
Definition check_bounds (a : lra) (t : trail) (x : nat) : res (lra * trail * option clause) :=
  '(a1, t1, o) <- bound_conflict a t x ;;
  match o with
  | Some c => Ok (a1, t1, Some c)
  | None => neq_conflict a1 t1 x
  end.

(** 20-35 is_effectively_decided *)
Definition effectively_decided (a : lra) (t : trail) (x : nat) : lra * bool :=
  if mdef (t_qm t) x then (a, false)
  else
    let '(w1, lb) := lower_bound (l_st a) t (bd_of (l_bd a) x) in
    match lb with
    | None => (with_bd a (bd_set (l_bd a) x w1), false)
    | Some lb =>
        let '(w2, ub) := upper_bound (l_st a) t w1 in
        (with_bd a (bd_set (l_bd a) x w2),
         match ub with
         | None => false
         | Some ub => Qeq_bool (b_val lb) (b_val ub) && negb (b_strict lb) && negb (b_strict ub)
         end)
    end.

(** 338-356: the loop of finish; [checked] is the set of variables already seen *)
Fixpoint finish_loop (vs : list nat) (checked : list nat) (a : lra) (t : trail) (acc : list clause)
  : res (lra * trail * list clause) :=
  match vs with
  | [] => Ok (a, t, acc)
  | x :: vs' =>
      if existsb (Nat.eqb x) checked then finish_loop vs' checked a t acc
      else
        '(a1, t1, o) <- check_bounds a t x ;;
        match o with
        | Some c => if o_all opt then finish_loop vs' (x :: checked) a1 t1 (acc ++ [c])
                    else Ok (a1, t1, acc ++ [c])
        | None =>
            let '(a2, b) := if o_rational opt then effectively_decided a1 t1 x else (a1, false) in
            finish_loop vs' (x :: checked)
                        (if b then with_decided a2 (l_decided a2 ++ [x]) else a2) t1 acc
        end
  end.
(** 328-359 finish *)
Definition lra_finish (a : lra) (t : trail) : res (lra * trail * list clause) :=
  let '(B, changed) := bd_changed (l_bd a) in
  let a := with_bd a B in
  '(a1, t1, cs) <- finish_loop (l_check a ++ changed) [] a t [] ;;
  Ok (with_check a1 [], t1, cs).

(** 37-88 propagate *)
Definition lra_propagate (a : lra) (t : trail) : res (lra * trail * list clause) :=
  let '(cur, es) := cursor_assigned (l_cur a) t in
  let a := with_cur a cur in
  '(a1, t1) <- lra_vars (filter (relevant a) (map fst es)) a t ;;
  a2 <- (if o_bounds opt then propagate_bounds (rev (recent t1)) a1 t1 else Ok a1) ;;
  '(a3, t3) <- (if o_unassigned opt then propagate_unassigned a2 t1 else Ok (a2, t1)) ;;
  lra_finish a3 t3.

(** 399-412 check_around_zero from [v] on *)
Fixpoint around_zero (fuel : nat) (s : store) (t : trail) (w : vbounds) (v len : Q)
  : res (vbounds * option Q) :=
  match fuel with
  | 0 => Fuel
  | S f =>
      if Qle_bool v len then
        let '(w1, b1) := is_allowed s t w v in
        if b1 then Ok (w1, Some v)
        else let '(w2, b2) := is_allowed s t w1 (- v)%Q in
             if b2 then Ok (w2, Some (- v)%Q)
             else around_zero f s t w2 (v + 1)%Q len
      else Ok (w, None)
  end.
(** 420-431: all integers *)
Fixpoint all_integers (fuel : nat) (s : store) (t : trail) (w : vbounds) (v : Q) : res (vbounds * Q) :=
  match fuel with
  | 0 => Fuel
  | S f =>
      let '(w1, b1) := is_allowed s t w v in
      if b1 then Ok (w1, v)
      else let '(w2, b2) := is_allowed s t w1 (- v)%Q in
           if b2 then Ok (w2, (- v)%Q) else all_integers f s t w2 (v + 1)%Q
  end.
(** 444-447, 460-463: from [v] in steps of [d] until an allowed value is found *)
Fixpoint walk (fuel : nat) (s : store) (t : trail) (w : vbounds) (v d : Q) : res (vbounds * Q) :=
  match fuel with
  | 0 => Fuel
  | S f =>
      let '(w1, b) := is_allowed s t w v in
      if b then Ok (w1, v) else walk f s t w1 (v + d)%Q d
  end.
(** 474-480, 486-492: from [v] in steps of [d] while [inside v] *)
Fixpoint walk_within (fuel : nat) (s : store) (t : trail) (w : vbounds) (inside : Q -> bool) (v d : Q)
  : res (vbounds * option Q) :=
  match fuel with
  | 0 => Fuel
  | S f =>
      if inside v then
        let '(w1, b) := is_allowed s t w v in
        if b then Ok (w1, Some v) else walk_within f s t w1 inside (v + d)%Q d
      else Ok (w, None)
  end.
(** Rational::floor, ceil (see C23) *)
Definition qfloor (v : Q) : Q := inject_Z (Qfloor v).
Definition qceil (v : Q) : Q := inject_Z (Qceiling v).
(** 396-504 find_integer *)
Definition find_integer (fuel : nat) (s : store) (t : trail) (w : vbounds) : res (vbounds * option Q) :=
  let '(w1, lb) := lower_bound s t w in
  let '(w2, ub) := upper_bound s t w1 in
  match lb, ub with
  | None, None => '(w3, v) <- all_integers fuel s t w2 0%Q ;; Ok (w3, Some v)
  | None, Some ub =>
      let f := qfloor (b_val ub) in
      '(w3, o) <- around_zero fuel s t w2 0%Q f ;;
      match o with
      | Some v => Ok (w3, Some v)
      | None => '(w4, v) <- walk fuel s t w3 (if qltb 0 f then (- f)%Q else f) (-1)%Q ;;
                Ok (w4, Some v)
      end
  | Some lb, None =>
      let c := qceil (b_val lb) in
      '(w3, o) <- around_zero fuel s t w2 0%Q (- c)%Q ;;
      match o with
      | Some v => Ok (w3, Some v)
      | None => '(w4, v) <- walk fuel s t w3 (if qltb c 0 then (- c)%Q else c) 1%Q ;;
                Ok (w4, Some v)
      end
  | Some lb, Some ub =>
      if Qle_bool 0 (b_val lb) then
        _ <- assertb (Qle_bool 0 (b_val ub)) ;;
        walk_within fuel s t w2 (fun v => Qle_bool v (b_val ub)) (qceil (b_val lb)) 1%Q
      else if Qle_bool (b_val ub) 0 then
        _ <- assertb (Qle_bool (b_val lb) 0) ;;
        walk_within fuel s t w2 (fun v => Qle_bool (b_val lb) v) (qfloor (b_val ub)) (-1)%Q
      else
        _ <- assertb (Qle_bool (b_val lb) 0) ;;
        _ <- assertb (Qle_bool 0 (b_val ub)) ;;
        around_zero fuel s t w2 0%Q
          (if qltb (- b_val lb) (b_val ub) then b_val ub else (- b_val lb)%Q)
  end.
(** 533-536: halve the distance to the lower bound *)
Fixpoint halve (fuel : nat) (s : store) (t : trail) (w : vbounds) (v l : Q) : res (vbounds * Q) :=
  match fuel with
  | 0 => Fuel
  | S f =>
      let '(w1, b) := is_allowed s t w v in
      if b then Ok (w1, v) else halve f s t w1 ((v + l) / 2)%Q l
  end.
(** 513-538: the value chosen by decide *)
Definition pick_value (fuel : nat) (s : store) (t : trail) (w : vbounds) (cached : option Q)
  : res (vbounds * Q) :=
  let v := match cached with Some v => v | None => 0%Q end in
  let '(w1, b) := is_allowed s t w v in
  if b then Ok (w1, v)
  else
    '(w2, o) <- find_integer fuel s t w1 ;;
    match o with
    | Some v => Ok (w2, v)
    | None =>
        let '(w3, lb) := lower_bound s t w2 in
        let '(w4, ub) := upper_bound s t w3 in
        lb <- value_of lb ;;
        ub <- value_of ub ;;
        halve fuel s t w4 (b_val ub) (b_val lb)
    end.
(** 506-545 decide *)
Definition lra_decide (fuel : nat) (a : lra) (t : trail) (v : var) : res (lra * trail) :=
  match v with
  | VBool _ => Ok (a, t)
  | VRat x =>
      '(w, q) <- pick_value fuel (l_st a) t (bd_of (l_bd a) x) (l_cache a x) ;;
      let a1 := with_cache (with_bd a (bd_set (l_bd a) x w)) (upd (l_cache a) x (Some q)) in
      let '(w1, b) := is_allowed (l_st a1) t w q in
      _ <- assertb b ;;
      Ok (with_bd a1 (bd_set (l_bd a1) x w1),
          trail_decide (with_qm t (set_value (t_qm t) x q)) (VRat x))
  end.
End Hash.

(** Theory.cpp 5-9 on_before_backtrack *)
Definition lra_before_backtrack (a : lra) : lra := with_cur a (cursor_reset (l_cur a)).
