(** Model of the printing of linear constraints: Linear_constraint.h 299-353. *)
From Coq Require Import List Arith ZArith QArith Bool.
From Verif Require Import Base Core_Model Lincons_Model.
Import ListNotations.
Open Scope nat_scope.

(** The pieces written to the stream. Simplification: tokens instead of characters (the white space
    around the symbols separates them; a number is one token, a rational variable (Variable.h
    81-97) is one token). *)
Inductive symbol : Type := SEq | SNe | SLt | SLe | SGt | SGe.
Inductive token : Type :=
| TNum (q : Q) | TTimes | TPlus | TVar (v : nat) | TRel (x : symbol).

(** 301-313: the loop over the variables and coefficients; [delim] is nothing before the first
    iteration and " + " later. *)
Fixpoint print_terms (delim : list token) (ts : list (nat * Q)) : list token :=
  match ts with
  | [] => []
  | (v, c) :: ts' =>
      delim ++ (if negb (Qeq_bool c 1) then [TNum c; TTimes] else []) ++ [TVar v] ++ print_terms [TPlus] ts'
  end.

(** 320-349: the two switches *)
Definition print_symbol (negation : bool) (p : opred) : symbol :=
  if negb negation then match p with PEq => SEq | PLt => SLt | PLeq => SLe end
  else match p with PEq => SNe | PLt => SGe | PLeq => SGt end.

(** 299-353 operator<< *)
Definition lc_print (s : store) (c : lcons) : list token :=
  print_terms [] (lc_terms s c) ++ (if lc_empty c then [TNum 0] else []) ++
  [TRel (print_symbol (lneg (lc_lit c)) (lc_pred c))] ++ [TNum (lc_rhs c)].
