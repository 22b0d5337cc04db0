(** Model of parser/Solver_wrapper.{h,cpp}: translation of assertions to clauses and linear constraints. *)
From Coq Require Import List Arith ZArith QArith Qcanon NArith Bool.
From Verif Require Import Base Core_Model Lincons_Model Terms_Model Visitor_Model.
Import ListNotations.
Close Scope Qc_scope.
Close Scope Q_scope.
Open Scope nat_scope.

(** unordered_map keyed by handles *)
Fixpoint m_find {A} (m : list (term * A)) (t : term) : option A :=
  match m with [] => None | (a, x) :: m' => if t_eqb a t then Some x else m_find m' t end.

(** The state of the internalizer and the part of the solver it writes: the repository of linear constraints,
    the number of rational variables, internal_bool_vars, internal_rational_vars, the asserted clauses.
    The number of Boolean variables is the length of the repository's vector: Trail::resize notifies the
    arithmetic plugin, which resizes it (Linear_arithmetic.cpp 14-17, Trail.cpp 6-18), and a new constraint
    adds both (Linear_arithmetic.h 108-124). The watches of the plugin and the trail are not kept here: the
    translation does not read them. [is_calls] records the calls that change them, the latest first, so that
    they can be computed from it (Check_Model.v). *)
Inductive call := CallBool | CallReal | CallLin (ts : list (nat * Q)) (o : opred) (rhs : Q).
Record ist : Type := mkIs {
  is_store : store; is_nreal : nat;
  is_bool : list (term * lit); is_real : list (term * nat);
  is_cls : list (list lit);
  is_calls : list call }.
Definition is_new : ist := mkIs store_new 0 [] [] [] [].

Section Internalizer.
Variable ndebug : bool.
Variable hi : nat -> Z.
Variable hv : Q -> Z.
Variable T : table.

(** Yaga.cpp 103-108 make(boolean), make(rational) *)
Definition make_bool (st : ist) : ist * nat :=
  let n := length (st_cons (is_store st)) in
  (mkIs (lc_resize (is_store st) (S n)) (is_nreal st) (is_bool st) (is_real st) (is_cls st) (CallBool :: is_calls st), n).
Definition make_real (st : ist) : ist * nat :=
  (mkIs (is_store st) (S (is_nreal st)) (is_bool st) (is_real st) (is_cls st) (CallReal :: is_calls st), is_nreal st).
(** Yaga.h 203-206 assert_clause *)
Definition add_clause (st : ist) (c : list lit) : ist :=
  mkIs (is_store st) (is_nreal st) (is_bool st) (is_real st) (is_cls st ++ [c]) (is_calls st).
(** Yaga.h 163-184 linear_constraint: throws if a variable is out of range *)
Definition linear_constraint (st : ist) (p : poly) (o : opred) : res (ist * lit) :=
  _ <- assertb (forallb (fun t => fst t <? is_nreal st) (p_terms p)) ;;
  let (s, c) := lc_make hi hv (is_store st) (p_terms p) o (- p_const p)%Q in
  Ok (mkIs s (is_nreal st) (is_bool st) (is_real st) (is_cls st)
           (CallLin (p_terms p) o (- p_const p)%Q :: is_calls st), lc_lit c).

(** Solver_wrapper.h 86-91 insert_var, and the assertions before insert in Solver_wrapper.cpp *)
Definition put_bool (st : ist) (t : term) (l : lit) : res ist :=
  match m_find (is_bool st) t with
  | Some _ => UB
  | None => Ok (mkIs (is_store st) (is_nreal st) ((t, l) :: is_bool st) (is_real st) (is_cls st) (is_calls st))
  end.
Definition put_real (st : ist) (t : term) (v : nat) : res ist :=
  match m_find (is_real st) t with
  | Some _ => UB
  | None => Ok (mkIs (is_store st) (is_nreal st) (is_bool st) ((t, v) :: is_real st) (is_cls st) (is_calls st))
  end.
(** Solver_wrapper.h 70-74 internal_rational_var *)
Definition rvar (st : ist) (t : term) : res nat := value_of (m_find (is_real st) t).

(** Solver_wrapper.cpp 138-159: the loop of internalize_poly over the monomials *)
Fixpoint poly_loop (st : ist) (p : poly) (l : list term) : res poly :=
  match l with
  | [] => Ok p
  | a :: l' =>
      match kind_of T a with
      | KArithConst => q <- const_value T a ;; poly_loop st (mkPoly (p_terms p) (this q)) l'
      | KUninterp | KIte | KApp =>
          v <- rvar st a ;; poly_loop st (mkPoly (p_terms p ++ [(v, 1%Q)]) (p_const p)) l'
      | KProduct =>
          x <- var_of_product T a ;; v <- rvar st x ;; q <- coeff_of_product T a ;;
          poly_loop st (mkPoly (p_terms p ++ [(v, this q)]) (p_const p)) l'
      | _ => UB
      end
  end.
(** Solver_wrapper.cpp 115-162 internalize_poly *)
Definition internalize_poly (st : ist) (t : term) : res poly :=
  match kind_of T t with
  | KArithConst => q <- const_value T t ;; Ok (mkPoly [] (this q))
  | KUninterp | KIte | KApp => v <- rvar st t ;; Ok (mkPoly [(v, 1%Q)] 0%Q)
  | KProduct =>
      x <- var_of_product T t ;; v <- rvar st x ;; q <- coeff_of_product T t ;; Ok (mkPoly [(v, this q)] 0%Q)
  | KPoly => poly_loop st (mkPoly [] 0%Q) (get_args T t)
  | _ => UB
  end.

(** literal of an argument of a disjunction, Solver_wrapper.cpp 263-273 *)
Definition arg_lit (st : ist) (a : term) : res lit :=
  l <- value_of (m_find (is_bool st) (pos a)) ;; Ok (if tneg a then neg l else l).
Fixpoint arg_lits (st : ist) (l : list term) : res (list lit) :=
  match l with [] => Ok [] | a :: l' => x <- arg_lit st a ;; xs <- arg_lits st l' ;; Ok (x :: xs) end.

(** Solver_wrapper.cpp 202-211: the polynomial of a binary equality *)
Definition bineq_poly (st : ist) (l r : term) : res poly :=
  if is_arith_const T r then
    v <- rvar st l ;; q <- const_value T r ;; Ok (mkPoly [(v, 1%Q)] (- this q)%Q)
  else v <- rvar st l ;; w <- rvar st r ;; Ok (mkPoly [(v, 1%Q); (w, (-1)%Q)] 0%Q).

(** Solver_wrapper.cpp 164-326 visit; exceptions and failing assertions are [UB].
    [ndebug]: a build with NDEBUG. Then the assertions of lines 206-207, which can fail, are not checked; the other
    ones are kept, since they cannot fail on the terms of the term manager (C47_total). *)
Definition int_visit (st : ist) (t : term) : res ist :=
  match kind_of T t with
  | KArithGe =>
      a <- at_ (get_args T t) 0 ;;
      _ <- assertb (negb (t_eqb a zero_term)) ;;
      p <- internalize_poly st a ;;
      if tneg t then
        ' (st1, l) <- linear_constraint st p PLt ;; put_bool st1 (pos t) (neg l)
      else
        ' (st1, l) <- linear_constraint st (poly_negate p) PLeq ;; put_bool st1 (pos t) l
  | KArithEq =>
      a <- at_ (get_args T t) 0 ;;
      p <- internalize_poly st a ;;
      ' (st1, l) <- linear_constraint st p PEq ;;
      _ <- assertb (negb (lneg l)) ;;
      put_bool st1 (pos t) l
  | KArithBineq =>
      l <- at_ (get_args T t) 0 ;; r <- at_ (get_args T t) 1 ;;
      _ <- assertb (ndebug || is_uninterp T l || is_ite T l) ;;
      _ <- assertb (ndebug || is_uninterp T r || is_ite T r || is_arith_const T r) ;;
      p <- bineq_poly st l r ;;
      ' (st1, x) <- linear_constraint st p PEq ;;
      _ <- assertb (negb (lneg x)) ;;
      put_bool st1 (pos t) x
  | KApp =>
      match type_of T t with
      | TReal => let (st1, v) := make_real st in put_real st1 t v
      | TBool => let (st1, v) := make_bool st in put_bool st1 t (mkLit v false)
      | TNull => UB
      end
  | KUninterp =>
      match type_of T t with
      | TBool => let (st1, v) := make_bool st in put_bool st1 (pos t) (mkLit v false)
      | TReal => let (st1, v) := make_real st in put_real st1 t v
      | TNull => Ok st
      end
  | KOr =>
      let args := get_args T t in
      _ <- assertb (2 <=? length args) ;;
      _ <- assertb (forallb (Terms_Model.is_bool T) args) ;;
      let (st1, v) := make_bool st in
      let l := mkLit v false in
      st2 <- put_bool st1 (pos t) l ;;
      ls <- arg_lits st2 args ;;
      let st3 := fold_left (fun s a => add_clause s [l; neg a]) ls st2 in
      Ok (add_clause st3 (ls ++ [neg l]))
  | KIte =>
      _ <- assertb (Terms_Model.is_real T t) ;;
      c <- at_ (get_args T t) 0 ;; a <- at_ (get_args T t) 1 ;; b <- at_ (get_args T t) 2 ;;
      let (st1, v) := make_real st in
      st2 <- put_real st1 t v ;;
      pa <- internalize_poly st2 a ;;
      pb <- internalize_poly st2 b ;;
      pa <- poly_subtract_var pa v ;;
      pb <- poly_subtract_var pb v ;;
      ' (st3, la) <- linear_constraint st2 pa PEq ;;
      ' (st4, lb) <- linear_constraint st3 pb PEq ;;
      _ <- assertb (negb (tneg c)) ;;
      l <- value_of (m_find (is_bool st4) c) ;;
      Ok (add_clause (add_clause st4 [l; lb]) [neg l; la])
  | KConst => _ <- assertb (t_eqb t true_term) ;; Ok st
  | KArithConst | KProduct | KPoly => Ok st
  | KReserved | KEq | KDistinct | KXor => UB
  end.

(** Solver_wrapper.cpp 36-49: unit clauses of the assertions *)
Fixpoint top_clauses (st : ist) (l : list term) : res ist :=
  match l with
  | [] => Ok st
  | a :: l' =>
      if t_eqb a true_term then top_clauses st l'
      else x <- arg_lit st a ;; top_clauses (add_clause st [x]) l'
  end.

(** Solver_wrapper.cpp 24-49: check up to the call of the solver; None: answered unsat at once. [p] are the
    indices the visitor has processed; Yaga.cpp 69-73 init clears the clauses. *)
Definition translate (p : list nat) (st : ist) (assertions : list term) : res (option (list nat * ist)) :=
  if existsb (fun t => t_eqb t false_term) assertions then Ok None
  else
    let st0 := mkIs (is_store st) (is_nreal st) (is_bool st) (is_real st) [] (is_calls st) in
    ' (p', st1) <- visit_span int_visit T p st0 assertions ;;
    st2 <- top_clauses st1 assertions ;;
    Ok (Some (p', st2)).
End Internalizer.
