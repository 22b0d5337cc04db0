(** Model of uf/Uninterpreted_functions.{h,cpp}: the plugin for uninterpreted functions. *)
From Coq Require Import List Arith ZArith QArith Qcanon Bool.
From Verif Require Import Base Core_Model Trail_Model Lincons_Model Lra_Model Terms_Model Internalizer_Model.
Import ListNotations.
Close Scope Qc_scope.
Close Scope Q_scope.
Open Scope nat_scope.

(** Term_types.h 32 var_value_t *)
Inductive uval : Type := PB (b : bool) | PR (q : Q).
Definition uval_eqb (a b : uval) : bool :=
  match a, b with
  | PB x, PB y => Bool.eqb x y
  | PR x, PR y => Qeq_bool x y
  | _, _ => false
  end.
(** equality of keys of std::map<std::vector<var_value_t>, ...> *)
Fixpoint vals_eqb (a b : list uval) : bool :=
  match a, b with
  | [], [] => true
  | x :: a', y :: b' => uval_eqb x y && vals_eqb a' b'
  | _, _ => false
  end.

(** Uninterpreted_functions.h 74-78 Function_application *)
Record fapp : Type := mkFa { fa_val : uval; fa_app : term; fa_lvl : nat }.
(** h 80 function_application_map_t (the order of the keys is not used by the plugin) *)
Definition fmap : Type := list (list uval * fapp).
Fixpoint fm_find (m : fmap) (k : list uval) : option fapp :=
  match m with [] => None | (a, x) :: m' => if vals_eqb a k then Some x else fm_find m' k end.
(** h 122-131: the members that change. A watchlist is the application term and [to_watch]. *)
Record uf : Type := mkUf { u_watch : list (term * list var); u_fns : list (term * fmap) }.
Definition uf_new : uf := mkUf [] [].
Definition fns_get (F : list (term * fmap)) (f : term) : fmap :=
  match m_find F f with Some m => m | None => [] end.
(** cpp 345-361: functions[fnc_symbol] exists afterwards; a new entry is added *)
Fixpoint fns_put (F : list (term * fmap)) (f : term) (m : fmap) : list (term * fmap) :=
  match F with
  | [] => [(f, m)]
  | (g, m0) :: F' => if t_eqb g f then (g, m) :: F' else (g, m0) :: fns_put F' f m
  end.

Section Uf.
Variables (hi : nat -> Z) (hv : Q -> Z) (opt : lopt).
Variable T : table.
(** the maps of the internalizer, which the plugin reads *)
Variable bv : list (term * lit).
Variable rv : list (term * nat).

(** cpp 64-90 term_to_var *)
Definition uf_var (t : term) : option var :=
  match type_of T t with
  | TReal => match m_find rv t with Some v => Some (VRat v) | None => None end
  | TBool => match m_find bv t with Some l => Some (VBool (lord l)) | None => None end
  | TNull => None
  end.

(** cpp 92-119 vars_to_watch; the recursion is on the arguments, whose indices are smaller *)
Fixpoint vars_to_watch_f (fuel : nat) (t : term) : list var :=
  match fuel with
  | 0 => []
  | S f =>
      match kind_of T t with
      | KArithConst | KConst => []
      | KProduct | KPoly => flat_map (vars_to_watch_f f) (get_args T t)
      | _ => match uf_var t with Some v => [v] | None => [] end
      end
  end.
Definition vars_to_watch (t : term) : list var := vars_to_watch_f (S (tix t)) t.
(** cpp 121-135 register_application_term *)
Definition uf_register (u : uf) (v : var) (t : term) : res uf :=
  _ <- assertb (k_eqb (kind_of T t) KApp) ;;
  Ok (mkUf (u_watch u ++ [(t, v :: flat_map vars_to_watch (get_args T t))]) (u_fns u)).

(** cpp 141-154 on_before_backtrack *)
Definition uf_before_backtrack (u : uf) (level : nat) : uf :=
  mkUf (u_watch u)
       (map (fun e => (fst e, filter (fun x => negb (level <? fa_lvl (snd x))) (snd e))) (u_fns u)).

(** cpp 22-33 Assignment_watchlist::on_assign: the index runs from the last to the first *)
Definition on_assign (t : trail) (w : list var) : res (list var) :=
  w0 <- at_ w 0 ;;
  _ <- assertb (match t_lvl t w0 with Some _ => true | None => false end) ;;
  Ok (fold_left (fun w i => match nth_error w i with
                            | Some x => match t_lvl t x with None => swap_nth i 0 w | Some _ => w end
                            | None => w
                            end) (rev (seq 0 (length w))) w).
(** cpp 6-8 all_assigned *)
Definition all_assigned (t : trail) (w : list var) : res bool :=
  w0 <- at_ w 0 ;; Ok (match t_lvl t w0 with Some _ => true | None => false end).

Definition get_rat (x : uval) : res Q := match x with PR q => Ok q | PB _ => UB end.
(** cpp 200-215: sum and highest level of the monomials, given the evaluation of a term *)
Fixpoint sum_values (ev : term -> res (uval * nat)) (s : Q) (k : nat) (l : list term) : res (uval * nat) :=
  match l with
  | [] => Ok (PR s, k)
  | a :: l' => x <- ev a ;; p <- get_rat (fst x) ;; sum_values ev (s + p)%Q (Nat.max k (snd x)) l'
  end.
(** cpp 156-225 evaluate: the value of the variable of a Boolean term, not of its literal. *)
Fixpoint evaluate_f (fuel : nat) (tr : trail) (t : term) : res (uval * nat) :=
  match fuel with
  | 0 => Fuel
  | S f =>
      match uf_var t with
      | Some v =>
          k <- value_of (t_lvl tr v) ;;
          Ok (match v with VRat i => PR (mval (t_qm tr) i) | VBool i => PB (mval (t_bm tr) i) end, k)
      | None =>
          match kind_of T t with
          | KArithConst => q <- const_value T t ;; Ok (PR (this q), 0)
          | KConst => Ok (PB (t_eqb t true_term), 0)
          | KProduct =>
              _ <- assertb (Terms_Model.is_real T t) ;;
              a <- at_ (get_args T t) 0 ;; b <- at_ (get_args T t) 1 ;;
              x <- evaluate_f f tr a ;; y <- evaluate_f f tr b ;;
              p <- get_rat (fst x) ;; q <- get_rat (fst y) ;;
              Ok (PR (p * q)%Q, Nat.max (snd x) (snd y))
          | KPoly =>
              _ <- assertb (Terms_Model.is_real T t) ;;
              sum_values (evaluate_f f tr) 0%Q 0 (get_args T t)
          | _ => UB
          end
      end
  end.
Definition evaluate (tr : trail) (t : term) : res (uval * nat) := evaluate_f (S (tix t)) tr t.

(** cpp 227-265 term_to_poly *)
Definition uf_rvar (t : term) : option nat :=
  match uf_var t with Some (VRat v) => Some v | Some (VBool v) => Some v | None => None end.
Fixpoint uf_poly_loop (p : poly) (l : list term) : res poly :=
  match l with
  | [] => Ok p
  | a :: l' =>
      match uf_rvar a with
      | Some v => uf_poly_loop (mkPoly (p_terms p ++ [(v, 1%Q)]) (p_const p)) l'
      | None =>
          if is_arith_const T a then q <- const_value T a ;; uf_poly_loop (mkPoly (p_terms p) (this q)) l'
          else
            _ <- assertb (k_eqb (kind_of T a) KProduct) ;;
            x <- var_of_product T a ;; v <- value_of (uf_rvar x) ;; q <- coeff_of_product T a ;;
            uf_poly_loop (mkPoly (p_terms p ++ [(v, this q)]) (p_const p)) l'
      end
  end.
Definition uf_poly (t : term) : res poly :=
  _ <- assertb (Terms_Model.is_real T t) ;;
  match uf_rvar t with
  | Some v => Ok (mkPoly [(v, 1%Q)] 0%Q)
  | None =>
      match kind_of T t with
      | KArithConst => q <- const_value T t ;; Ok (mkPoly [] (this q))
      | KProduct => x <- var_of_product T t ;; v <- value_of (uf_rvar x) ;; q <- coeff_of_product T t ;; Ok (mkPoly [(v, this q)] 0%Q)
      | KPoly => uf_poly_loop (mkPoly [] 0%Q) (get_args T t)
      | _ => UB
      end
  end.

(** cpp 267-314 assert_equality. Nothing happens for Boolean terms: the switch has the case of the
    real type only. The range check is the one of Yaga.h 171-178. *)
Definition assert_equality (t u : term) (a : lra) (tr : trail) (c : clause) (make_equal : bool)
  : res (lra * trail * clause) :=
  _ <- assertb (ty_eqb (type_of T t) (type_of T u)) ;;
  match type_of T t with
  | TReal =>
      p1 <- uf_poly t ;; p2 <- uf_poly u ;;
      let p := poly_sub p1 p2 in
      match p_terms p with
      | [] => _ <- assertb (Qeq_bool (p_const p) 0) ;; Ok (a, tr, c)
      | _ :: _ =>
          let p := poly_sort tr p in
          _ <- assertb (forallb (fun x => fst x <? mnum (t_qm tr)) (p_terms p)) ;;
          ' (a1, tr1, lc) <- lra_constraint hi hv opt a tr (p_terms p) PEq (- p_const p)%Q ;;
          _ <- assertb (negb (lneg (lc_lit lc))) ;;
          let l := if make_equal then lc_lit lc else neg (lc_lit lc) in
          if mdef (t_bm tr1) (lord l) then Ok (a1, tr1, c ++ [l])
          else
            x <- evaluate tr1 t ;; y <- evaluate tr1 u ;;
            _ <- assertb (Bool.eqb (negb make_equal) (uval_eqb (fst x) (fst y))) ;;
            tr2 <- trail_propagate tr1 (lvar l) None (Nat.max (snd x) (snd y)) ;;
            Ok (a1, with_bm tr2 (set_value (t_bm tr2) (lord l) (negb make_equal)), c ++ [l])
      end
  | _ => Ok (a, tr, c)
  end.

(** cpp 320-328: values of the arguments and the highest level *)
Fixpoint eval_args (tr : trail) (l : list term) (k : nat) : res (list uval * nat) :=
  match l with
  | [] => Ok ([], k)
  | a :: l' =>
      x <- evaluate tr a ;; r <- eval_args tr l' (Nat.max k (snd x)) ;; Ok (fst x :: fst r, snd r)
  end.
(** cpp 358-361: disequalities of the arguments *)
Fixpoint args_loop (l1 l2 : list term) (a : lra) (tr : trail) (c : clause) : res (lra * trail * clause) :=
  match l1 with
  | [] => Ok (a, tr, c)
  | x :: l1' =>
      match l2 with
      | [] => UB
      | y :: l2' => ' (a1, tr1, c1) <- assert_equality x y a tr c false ;; args_loop l1' l2' a1 tr1 c1
      end
  end.
(** cpp 317-366 add_function_value *)
Definition add_function_value (F : list (term * fmap)) (a : lra) (tr : trail) (t : term)
  : res (list (term * fmap) * lra * trail * list clause) :=
  _ <- assertb (k_eqb (kind_of T t) KApp) ;;
  ' (vals, k) <- eval_args tr (get_args T t) 0 ;;
  x <- evaluate tr t ;;
  let k := Nat.max k (snd x) in
  f <- fnc_symbol T t ;;
  let m := fns_get F f in
  match fm_find m vals with
  | None => Ok (fns_put F f (m ++ [(vals, mkFa (fst x) t k)]), a, tr, [])
  | Some e =>
      if uval_eqb (fa_val e) (fst x) then Ok (F, a, tr, [])
      else
        ' (a1, tr1, c1) <- args_loop (get_args T (fa_app e)) (get_args T t) a tr [] ;;
        ' (a2, tr2, c2) <- assert_equality t (fa_app e) a1 tr1 c1 true ;;
        Ok (F, a2, tr2, [c2])
  end.

(** cpp 46-55: the watch lists, for one assigned variable *)
Fixpoint watch_pass (v : var) (ws : list (term * list var)) (F : list (term * fmap)) (a : lra) (tr : trail)
  : res (list (term * list var) * list (term * fmap) * lra * trail * list clause) :=
  match ws with
  | [] => Ok ([], F, a, tr, [])
  | (t, w) :: ws' =>
      w0 <- at_ w 0 ;;
      if var_eqb v w0 then
        w1 <- on_assign tr w ;;
        al <- all_assigned tr w1 ;;
        ' (F1, a1, tr1, c1) <- (if al : bool then add_function_value F a tr t else Ok (F, a, tr, [])) ;;
        ' (ws2, F2, a2, tr2, c2) <- watch_pass v ws' F1 a1 tr1 ;;
        Ok ((t, w1) :: ws2, F2, a2, tr2, c1 ++ c2)
      else
        ' (ws2, F2, a2, tr2, c2) <- watch_pass v ws' F a tr ;;
        Ok ((t, w) :: ws2, F2, a2, tr2, c2)
  end.
Fixpoint assigned_loop (vs : list entry) (u : uf) (a : lra) (tr : trail) : res (uf * lra * trail * list clause) :=
  match vs with
  | [] => Ok (u, a, tr, [])
  | e :: vs' =>
      ' (ws, F, a1, tr1, c1) <- watch_pass (fst e) (u_watch u) (u_fns u) a tr ;;
      ' (u2, a2, tr2, c2) <- assigned_loop vs' (mkUf ws F) a1 tr1 ;;
      Ok (u2, a2, tr2, c1 ++ c2)
  end.
(** cpp 40-58 propagate: a copy of the list of the current level, oldest first *)
Definition uf_propagate (u : uf) (a : lra) (tr : trail) : res (uf * lra * trail * list clause) :=
  assigned_loop (rev (recent tr)) u a tr.
End Uf.

(** cpp 368-378 get_model: the values of each function *)
Definition uf_model (u : uf) : list (term * list (list uval * uval)) :=
  map (fun e => (fst e, map (fun x => (fst x, fa_val (snd x))) (snd e))) (u_fns u).
