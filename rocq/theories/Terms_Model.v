(** Model of terms/Term_types.h, Terms.{h,cpp}, Term_hash_table.{h,cpp}: the term table with hash
    consing. Rational constants are exact and in lowest terms ([Qc]), see Long_fraction (C20-C24).
    Term names (symbol_table, name_table) are left out. *)
From Coq Require Import List Arith ZArith QArith Qcanon NArith Bool Lia.
From Verif Require Import Base.
Import ListNotations.
Close Scope Qc_scope.
Close Scope Q_scope.
Open Scope nat_scope.

(** Term_types.h 24-29, Terms.h 76-118: handle; [x = 2 * tix + tneg]. The handle -1 (Undef) only
    occurs as the variable of constant monomials, see [mvar] in TermMgr_Model. *)
Record term : Type := mkT { tix : nat; tneg : bool }.
Definition tx (t : term) : nat := 2 * tix t + (if tneg t then 1 else 0).
Definition t_eqb (a b : term) : bool := (tix a =? tix b) && eqb (tneg a) (tneg b).
(** operator< on handles *)
Definition t_ltb (a b : term) : bool := tx a <? tx b.
(** Terms.h 94 opposite_term, 106 positive_term, 88 is_negated *)
Definition opp (t : term) : term := mkT (tix t) (negb (tneg t)).
Definition pos (t : term) : term := mkT (tix t) false.

(** Term_types.h 42-45 *)
Definition true_term : term := mkT 1 false.
Definition false_term : term := mkT 1 true.
Definition zero_term : term := mkT 2 false.

(** Term_types.h 34-39 *)
Inductive ty := TNull | TBool | TReal.
Definition ty_eqb (a b : ty) : bool :=
  match a, b with TNull, TNull | TBool, TBool | TReal, TReal => true | _, _ => false end.

(** Term_types.h 53-89 *)
Inductive kind :=
| KReserved | KConst | KArithConst | KUninterp | KIte | KApp | KEq | KDistinct | KOr | KXor
| KArithEq | KArithGe | KArithBineq | KProduct | KPoly.
Definition kcode (k : kind) : nat :=
  match k with
  | KReserved => 0 | KConst => 1 | KArithConst => 2 | KUninterp => 3 | KIte => 4 | KApp => 5
  | KEq => 6 | KDistinct => 7 | KOr => 8 | KXor => 9 | KArithEq => 10 | KArithGe => 11
  | KArithBineq => 12 | KProduct => 13 | KPoly => 14
  end.
Definition k_eqb (a b : kind) : bool := kcode a =? kcode b.

(** Terms.h 18-75: descriptors *)
Inductive desc := DNone | DArgs (args : list term) | DRat (q : Qc) | DConst (i : nat).
(** Terms.h 134-140 *)
Record node : Type := mkNode { n_kind : kind; n_type : ty; n_desc : desc }.

(** inner_table and known_terms (pairs of hash and handle) *)
Record table : Type := mkTab { tt_nodes : list node; tt_known : list (N * term) }.

Definition reserved_node : node := mkNode KReserved TNull DNone.
(** inner_table[index_of(t)]; out of range (undefined behaviour) reads as the reserved node *)
Definition node_of (T : table) (t : term) : node := nth (tix t) (tt_nodes T) reserved_node.
(** Terms.cpp 60-66 *)
Definition kind_of (T : table) (t : term) : kind := n_kind (node_of T t).
Definition type_of (T : table) (t : term) : ty := n_type (node_of T t).
(** the descriptor as list of arguments *)
Definition dargs (n : node) : list term := match n_desc n with DArgs a => a | _ => [] end.

(** The hash functions of Terms.cpp 8-32, arbitrary here. *)
Record hashes : Type := mkH {
  h_comp : kind -> list term -> N;
  h_int : kind -> ty -> nat -> N;
  h_rat : Qc -> N }.

Fixpoint args_eqb (a b : list term) : bool :=
  match a, b with
  | [], [] => true
  | x :: a', y :: b' => t_eqb x y && args_eqb a' b'
  | _, _ => false
  end.

(** What a constructor asks for. *)
Inductive request :=
| RComp (k : kind) (ty : ty) (args : list term)
| RRat (q : Qc)
| RConst (ty : ty) (i : nat).
(** Term_hash_table.h 15-48, Terms.cpp 114-194: hash stored in the proxy *)
Definition req_hash (H : hashes) (r : request) : N :=
  match r with
  | RComp k _ args => h_comp H k args
  | RRat q => h_rat H q
  | RConst ty i => h_int H KConst ty i
  end.
(** Term_hash_table.cpp 48-107 KeyEqual: kind, type, then the descriptor. The static_cast of the
    descriptor is to the class of the same kind. *)
Definition key_equal (T : table) (r : request) (e : term) : bool :=
  let n := node_of T e in
  match r with
  | RComp k ty args =>
      k_eqb (n_kind n) k && ty_eqb (n_type n) ty &&
      match n_desc n with DArgs a => args_eqb a args | _ => false end
  | RRat q =>
      k_eqb (n_kind n) KArithConst && ty_eqb (n_type n) TReal &&
      match n_desc n with DRat q' => if Qc_eq_dec q' q then true else false | _ => false end
  | RConst ty i =>
      k_eqb (n_kind n) KConst && ty_eqb (n_type n) ty &&
      match n_desc n with DConst j => j =? i | _ => false end
  end.
(** Terms.cpp 68-90 construct_*: the new element of the table *)
Definition req_node (r : request) : node :=
  match r with
  | RComp k ty args => mkNode k ty (DArgs args)
  | RRat q => mkNode KArithConst TReal (DRat q)
  | RConst ty i => mkNode KConst ty (DConst i)
  end.

(** Term_hash_table.cpp 9-45 get_composite_term / get_rational_term / get_constant_term: find in the
    unordered set (equal hash and KeyEqual), otherwise construct and insert. *)
Definition get_term (H : hashes) (T : table) (r : request) : table * term :=
  match find (fun e => (fst e =? req_hash H r)%N && key_equal T r (snd e)) (tt_known T) with
  | Some e => (T, snd e)
  | None =>
      let t := mkT (length (tt_nodes T)) false in
      (mkTab (tt_nodes T ++ [req_node r]) ((req_hash H r, t) :: tt_known T), t)
  end.
(** Terms.cpp 92-98, 196-200 new_uninterpreted_constant: always a new element, not in the set *)
Definition new_uninterpreted (T : table) (ty : ty) : table * term :=
  (mkTab (tt_nodes T ++ [mkNode KUninterp ty DNone]) (tt_known T), mkT (length (tt_nodes T)) false).

(** Terms.cpp 100-112 add_primitive_terms *)
Definition table_new (H : hashes) : table :=
  let T0 := mkTab [reserved_node] [] in
  let (T1, _) := get_term H T0 (RConst TBool 0) in
  fst (get_term H T1 (RRat 0)).

Section Table.
Variable H : hashes.
(** Terms.cpp 120-124 *)
Definition arith_const (T : table) (q : Qc) : table * term := get_term H T (RRat q).
(** Terms.cpp 126-130 *)
Definition or_term (T : table) (args : list term) : table * term := get_term H T (RComp KOr TBool args).
(** Terms.cpp 237-272 *)
Definition is_arith_const (T : table) (t : term) : bool := k_eqb (kind_of T t) KArithConst.
Definition is_uninterp (T : table) (t : term) : bool := k_eqb (kind_of T t) KUninterp.
Definition is_product (T : table) (t : term) : bool := k_eqb (kind_of T t) KProduct.
Definition is_poly (T : table) (t : term) : bool := k_eqb (kind_of T t) KPoly.
Definition is_ite (T : table) (t : term) : bool := k_eqb (kind_of T t) KIte.
Definition is_app (T : table) (t : term) : bool := k_eqb (kind_of T t) KApp.
Definition is_real (T : table) (t : term) : bool := ty_eqb (type_of T t) TReal.
Definition is_bool (T : table) (t : term) : bool := ty_eqb (type_of T t) TBool.
(** Terms.cpp 242-247 arithmetic_constant_value *)
Definition const_value (T : table) (t : term) : res Qc :=
  match kind_of T t, n_desc (node_of T t) with KArithConst, DRat q => Ok q | _, _ => UB end.
(** Terms.cpp 132-141 arithmetic_product *)
Definition arith_product (T : table) (c : Qc) (x : term) : res (table * term) :=
  _ <- assertb (is_uninterp T x || ((is_ite T x || is_app T x) && is_real T x)) ;;
  let (T1, ct) := arith_const T c in
  Ok (get_term H T1 (RComp KProduct TReal [ct; x])).
(** Terms.cpp 143-148 arithmetic_polynomial *)
Definition arith_poly (T : table) (ms : list term) : res (table * term) :=
  _ <- assertb (2 <=? length ms) ;; Ok (get_term H T (RComp KPoly TReal ms)).
(** Terms.cpp 150-164 arithmetic_geq_zero, arithmetic_eq_zero *)
Definition arith_geq_zero (T : table) (t : term) : res (table * term) :=
  _ <- assertb (is_real T t) ;; Ok (get_term H T (RComp KArithGe TBool [t])).
Definition arith_eq_zero (T : table) (t : term) : res (table * term) :=
  _ <- assertb (is_real T t) ;; Ok (get_term H T (RComp KArithEq TBool [t])).
(** Terms.cpp 166-175 arithmetic_binary_eq *)
Definition arith_bineq (T : table) (t1 t2 : term) : res (table * term) :=
  _ <- assertb (is_real T t1 && is_real T t2) ;;
  _ <- assertb (is_uninterp T t1 || is_ite T t1 || is_app T t1) ;;
  _ <- assertb (negb (is_product T t2) && negb (is_poly T t2)) ;;
  Ok (get_term H T (RComp KArithBineq TBool [t1; t2])).
(** Terms.cpp 177-185 arithmetic_ite *)
Definition arith_ite (T : table) (c t e : term) : res (table * term) :=
  _ <- assertb (is_bool T c && is_real T t && is_real T e) ;;
  Ok (get_term H T (RComp KIte TReal [c; t; e])).
(** Terms.cpp 187-194 app_term *)
Definition app_term (T : table) (ty : ty) (args : list term) : table * term :=
  get_term H T (RComp KApp ty args).
End Table.

(** Terms.cpp 274-288 var_of_product, coeff_of_product *)
Definition var_of_product (T : table) (t : term) : res term :=
  match kind_of T t, n_desc (node_of T t) with KProduct, DArgs [_; x] => Ok x | _, _ => UB end.
Definition coeff_of_product (T : table) (t : term) : res Qc :=
  match kind_of T t, n_desc (node_of T t) with KProduct, DArgs [c; _] => const_value T c | _, _ => UB end.
(** Terms.cpp 290-295 monomials_of *)
Definition monomials_of (T : table) (t : term) : res (list term) :=
  match kind_of T t, n_desc (node_of T t) with KPoly, DArgs a => Ok a | _, _ => UB end.
(** Terms.cpp 297-305 get_fnc_symbol *)
Definition fnc_symbol (T : table) (t : term) : res term :=
  match kind_of T t, n_desc (node_of T t) with KApp, DArgs (f :: _) => Ok f | _, _ => UB end.
(** Terms.cpp 307-328 get_args: the arguments; without the function symbol for applications. The
    assert that a composite term has arguments is part of the table's invariant. *)
Definition get_args (T : table) (t : term) : list term :=
  match kind_of T t with
  | KArithConst | KConst | KUninterp => []
  | KApp => tl (dargs (node_of T t))
  | _ => dargs (node_of T t)
  end.
