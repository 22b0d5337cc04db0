(** Model of terms/Term_rewriter.h and of the expansion of defined functions (parser/Parser_context.cpp). *)
From Coq Require Import List Arith ZArith QArith Qcanon NArith Bool.
From Verif Require Import Base Terms_Model TermMgr_Model.
Import ListNotations.
Close Scope Qc_scope.
Close Scope Q_scope.
Open Scope nat_scope.

Section Rewriter.
Variable H : hashes.

(** Term_manager.cpp 126-160 mk_term(Kind, args); thrown exceptions are [UB]. *)
Definition mk_kind (T : table) (k : kind) (args : list term) : res (table * term) :=
  match k, args with
  | KArithGe, [a] => mk_geq H T a zero_term
  | KArithEq, [a] => mk_arith_eq H T a zero_term
  | KArithBineq, [a; b] => mk_arith_eq H T a b
  | KEq, [a; b] => mk_binary_eq H T a b
  | KOr, _ => mk_or H T args
  | KProduct, _ => mk_times H T args
  | KPoly, _ => mk_plus H T args
  | KIte, [c; t; e] => mk_ite H T c t e
  | KApp, a :: _ => Ok (app_term H T (type_of T a) args)     (* 281-284 mk_app(span) *)
  | _, _ => UB
  end.

(** unordered_map<term_t, term_t> *)
Definition smap : Type := list (term * term).
Fixpoint s_find (m : smap) (t : term) : option term :=
  match m with [] => None | (a, b) :: m' => if t_eqb a t then Some b else s_find m' t end.
(** insert does not replace an element *)
Definition s_insert (m : smap) (a b : term) : smap :=
  match s_find m a with Some _ => m | None => m ++ [(a, b)] end.
Definition t_mem (l : list term) (t : term) : bool := existsb (fun a => t_eqb a t) l.

(** Term_rewriter.h 83-108 VarSubstituteConfig::rewrite *)
Definition subst_var (T : table) (m : smap) (t : term) : term :=
  if negb (tneg t) && k_eqb (kind_of T t) KUninterp
  then match s_find m t with Some u => u | None => t end
  else t.

(** Term_rewriter.h 49-58: new arguments and needs_change *)
Fixpoint new_args (T : table) (sub : smap) (l : list term) : res (list term * bool) :=
  match l with
  | [] => Ok ([], false)
  | a :: l' =>
      let (b, ch) := match s_find sub a with Some b => (b, true) | None => (a, false) end in
      _ <- assertb (ty_eqb (type_of T a) (type_of T b)) ;;
      r <- new_args T sub l' ;;
      Ok (b :: fst r, ch || snd r)
  end.

(** Term_rewriter.h 34-68: the loop, with the test of line 43 as it is written: a child is pushed if it
    has been processed. *)
Fixpoint rewrite_loop (cfg : table -> term -> term) (fuel : nat) (work : list (term * nat)) (proc : list term) (sub : smap) (T : table)
  : res (table * smap) :=
  match work with
  | [] => Ok (T, sub)
  | (t, k) :: w =>
      match fuel with
      | 0 => Fuel
      | S f =>
          _ <- assertb (negb (t_mem proc t)) ;;
          let children := get_args T t in
          match nth_error children k with
          | Some c =>
              if t_mem proc c then rewrite_loop cfg f ((c, 0) :: (t, S k) :: w) proc sub T
              else rewrite_loop cfg f ((t, S k) :: w) proc sub T
          | None =>
              _ <- assertb (match s_find sub t with None => true | Some _ => false end) ;;
              na <- new_args T sub children ;;
              r <- (if snd na then mk_kind T (kind_of T t) (fst na) else Ok (T, t)) ;;
              let '(T1, nt) := r in
              let rw := cfg T1 nt in
              if negb (t_eqb rw nt) || snd na then
                _ <- assertb (ty_eqb (type_of T1 t) (type_of T1 rw)) ;;
                rewrite_loop cfg f w (t :: proc) (s_insert sub t rw) T1
              else rewrite_loop cfg f w (t :: proc) sub T1
          end
      end
  end.
(** Term_rewriter.h 18-33, 69-72 *)
Definition rewrite (cfg : table -> term -> term) (fuel : nat) (T : table) (root : term) : res (table * term) :=
  ' (T', sub) <- rewrite_loop cfg fuel [(root, 0)] [] [] T ;;
  Ok (T', match s_find sub root with Some t => t | None => root end).

(** Parser_context.cpp 161-172 resolve, with the loop that builds the map *)
Definition resolve (fuel : nat) (T : table) (formals : list term) (body : term) (args : list term) : res (table * term) :=
  _ <- assertb (length formals =? length args) ;;
  let m := fold_left (fun m p => s_insert m (fst p) (snd p)) (combine formals args) [] in
  rewrite (fun T t => subst_var T m t) fuel T body.
End Rewriter.
