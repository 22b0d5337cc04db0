(** Model of the printer of models: parser/Smt2_parser.cpp 22-152 Print_model, lra/Long_fraction.cpp 80-95 print. *)
From Coq Require Import List Arith ZArith Bool Ascii String.
From Verif Require Import Base Rational_Model Lexer_Model.
Import ListNotations.
Open Scope nat_scope.

(** operator<< of an unsigned number: decimal digits *)
Definition digit (z : Z) : ascii := ascii_of_nat (48 + Z.to_nat z).
Fixpoint dec_f (fuel : nat) (z : Z) : text :=
  match fuel with
  | 0 => []
  | S f => if (z <? 10)%Z then [digit z] else dec_f f (z / 10) ++ [digit (z mod 10)]
  end.
Definition dec_text (z : Z) : text := dec_f (S (Z.to_nat (Z.log2 z))) z.

(** Long_fraction.cpp 80-95 print *)
Definition lf_print (x : lf) : res text :=
  s <- lf_sign x ;;
  let sign := (s <? 0)%Z in
  if wv x then
    let n := dec_text (absVal32 (num x)) in
    if (den x =? 1)%Z then Ok (t_of (if sign then "(- " else "") ++ n ++ t_of (if sign then ")" else ""))
    else Ok (t_of "(/ " ++ t_of (if sign then "(- " else "") ++ n ++ t_of (if sign then ") " else " ") ++ dec_text (den x) ++ t_of ")")
  else
    _ <- assertb (mv x) ;;
    let q := if sign then mpq_neg (mq x) else mq x in
    Ok (t_of "(/ " ++ t_of (if sign then "(- " else "") ++ dec_text (fst q) ++ t_of (if sign then ") " else " ") ++ dec_text (snd q) ++ t_of ")").

(** terms::var_value_t with the Rational as an object *)
Inductive pval : Type := VB (b : bool) | VF (x : lf).
(** 27-32 print_variable *)
Definition print_variable (v : pval) : res text :=
  match v with VB b => Ok (t_of (if b then "true" else "false")) | VF x => lf_print x end.
(** 34-44 print_type(value.index()) *)
Definition print_type (v : pval) : text := t_of (match v with VB _ => "Bool" | VF _ => "Real" end).
Definition nl : text := [ascii_of_nat 10].

(** 71-82 visit *)
Definition visit (name : option text) (v : pval) : res text :=
  match name with
  | None => Ok []
  | Some n => s <- print_variable v ;; Ok (t_of "(define-fun " ++ n ++ t_of " () " ++ print_type v ++ t_of " " ++ s ++ t_of ")" ++ nl)
  end.

(** 99-107: "x" + std::to_string(i) *)
Definition arg_name (i : nat) : text := t_of "x" ++ dec_text (Z.of_nat i).
Fixpoint print_args (i : nat) (l : list pval) : text :=
  match l with
  | [] => []
  | v :: l' => t_of (if 0 <? i then " (" else "(") ++ arg_name i ++ t_of " " ++ print_type v ++ t_of ")" ++ print_args (S i) l'
  end.
(** 128-133; arg_names[j] beyond the end is UB *)
Fixpoint print_eqs (n j : nat) (l : list pval) : res text :=
  match l with
  | [] => Ok []
  | v :: l' =>
      _ <- assertb (j <? n) ;; s <- print_variable v ;; r <- print_eqs n (S j) l' ;;
      Ok (t_of " (= " ++ arg_name j ++ t_of " " ++ s ++ t_of ")" ++ r)
  end.
(** 120-142: the other entries *)
Fixpoint print_ites (n : nat) (l : list (list pval * pval)) : res text :=
  match l with
  | [] => Ok []
  | (k, v) :: l' =>
      e <- print_eqs n 0 k ;; s <- print_variable v ;; r <- print_ites n l' ;;
      Ok (t_of "  (ite" ++ t_of (if 1 <? n then " (and" else "") ++ e ++ t_of (if 1 <? n then ")" else "") ++ t_of " " ++ s ++ nl ++ r)
  end.
Fixpoint parens (n : nat) : text := match n with 0 => [] | S m => t_of ")" ++ parens m end.
(** 92-151 visit_fnc; [values] in the order of the std::map. *values.begin() of an empty map is UB. *)
Definition visit_fnc (name : option text) (values : list (list pval * pval)) : res text :=
  match name with
  | None => Ok []
  | Some nm =>
      match values with
      | [] => UB
      | (k0, v0) :: rest =>
          let n := List.length k0 in
          body <- print_ites n rest ;; s <- print_variable v0 ;;
          Ok (t_of "(define-fun " ++ nm ++ t_of " (" ++ print_args 0 k0 ++ t_of ") " ++ print_type v0 ++ nl ++ body
              ++ t_of "       " ++ s ++ t_of " " ++ parens (List.length values) ++ nl)
      end
  end.
