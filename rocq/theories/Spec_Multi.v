(** Specification for several conflicts at once. *)
From Coq Require Import List Arith ZArith Bool.
From Verif Require Import Base Core_Model Analysis_Model.
Import ListNotations.
Open Scope nat_scope.

(** [c'] and [lv] are the clause and the backtrack level derived from the conflict [c] *)
Definition derived (d : db) (t : trail) (c c' : clause) (lv : Z) : Prop :=
  exists c1 rs, analyze d t c = Ok (c1, lv, rs) /\
    ((c1 = [] /\ c' = []) \/ (c1 <> [] /\ minimize d t c1 = Ok c')).
(** the first two literals are on the same decision level *)
Definition split_clause (t : trail) (c : clause) : Prop :=
  exists l0 l1 c' k, c = l0 :: l1 :: c' /\ t_lvl t (lvar l0) = Some k /\ t_lvl t (lvar l1) = Some k.
