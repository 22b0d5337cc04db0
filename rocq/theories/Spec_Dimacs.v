(** Specification for C51: DIMACS files and the satisfiability of the clauses they list. *)
From Coq Require Import Ascii String List Arith ZArith Bool.
From Verif Require Import Spec_Decimal.
Import ListNotations.
Open Scope nat_scope.

(** ** Clauses of nonzero numbers: 3 is the third variable, -3 its negation *)
Definition num_holds (a : Z -> bool) (z : Z) : Prop := if (0 <? z)%Z then a z = true else a (- z)%Z = false.
Definition nums_hold (a : Z -> bool) (c : list Z) : Prop := exists z, In z c /\ num_holds a z.
Definition satisfiable (cs : list (list Z)) : Prop := exists a, forall c, In c cs -> nums_hold a c.
(** clauses over the variables 1..n *)
Definition over (n : Z) (cs : list (list Z)) : Prop := forall c z, In c cs -> In z c -> z <> 0%Z /\ (- n <= z <= n)%Z.

(** ** Layout *)
Definition space (c : ascii) : Prop := In (nat_of_ascii c) [32; 9; 11; 12; 13].
Definition spaces (s : list ascii) : Prop := Forall space s.
(** a number in decimal notation *)
Inductive numeral : Z -> list ascii -> Prop :=
| num_pos ds : ds <> [] -> Forall is_digit ds -> numeral (digits_value ds) ds
| num_neg ds : ds <> [] -> Forall is_digit ds -> numeral (- digits_value ds) ("-"%char :: ds).
(** numbers separated by white space *)
Inductive nums : list Z -> list ascii -> Prop :=
| nums_nil s : spaces s -> nums [] s
| nums_one z p s q : spaces p -> numeral z s -> spaces q -> nums [z] (p ++ s ++ q)
| nums_more z zs p s q r : spaces p -> numeral z s -> q <> [] -> spaces q -> nums zs r -> nums (z :: zs) (p ++ s ++ q ++ r).
Definition one_line (s : list ascii) : Prop := Forall (fun c => nat_of_ascii c <> 10) s.
(** a comment: the first visible character is c *)
Inductive comment : list ascii -> Prop :=
| comment_line p s : spaces p -> one_line s -> comment (p ++ "c"%char :: s).
(** the lines after the problem line: comments and numbers, in any arrangement *)
Inductive body : list Z -> list (list ascii) -> Prop :=
| body_nil : body [] []
| body_comment zs l ls : comment l -> body zs ls -> body zs (l :: ls)
| body_nums zs zs' l ls : nums zs l -> body zs' ls -> body (zs ++ zs') (l :: ls).
Definition problem_line (n m : Z) (l : list ascii) : Prop :=
  exists p q r, spaces p /\ q <> [] /\ spaces q /\ nums [n; m] r /\ l = p ++ list_ascii_of_string "p cnf" ++ q ++ r.
(** the lines with their ends; the end of the last line may be missing *)
Definition nl : list ascii := [ascii_of_nat 10].
Definition text_of (ls : list (list ascii)) (s : list ascii) : Prop :=
  s = concat (map (fun l => l ++ nl) ls) \/
  exists ls' l, ls = ls' ++ [l] /\ s = concat (map (fun l => l ++ nl) ls') ++ l.
(** [s] is a DIMACS file: comments, the problem line with the numbers of variables and of clauses, then the clauses,
    each followed by 0 *)
Definition dimacs (n : Z) (cs : list (list Z)) (s : list ascii) : Prop :=
  (0 <= n < 2 ^ 31)%Z /\ (Z.of_nat (length cs) < 2 ^ 31)%Z /\ over n cs /\
  exists head p tail, Forall comment head /\ problem_line n (Z.of_nat (length cs)) p /\
    body (flat_map (fun c => c ++ [0%Z]) cs) tail /\ text_of (head ++ p :: tail) s.
(** [s] announces [m] clauses and lists [cs], then the numbers [rest] of a clause without its 0 *)
Definition listing (n m : Z) (cs : list (list Z)) (rest : list Z) (s : list ascii) : Prop :=
  (0 <= n < 2 ^ 31)%Z /\ (- 2 ^ 31 <= m < 2 ^ 31)%Z /\ over n (cs ++ [rest]) /\
  exists head p tail, Forall comment head /\ problem_line n m p /\
    body (flat_map (fun c => c ++ [0%Z]) cs ++ rest) tail /\ text_of (head ++ p :: tail) s.
