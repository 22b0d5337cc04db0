(** Specification of C70: what a linear constraint object tells about itself. *)
From Coq Require Import List Arith ZArith QArith Bool.
From Verif Require Import Base Core_Model Lincons_Model Spec_Lincons Conobj_Model.
Import ListNotations.
Open Scope nat_scope.

(** The constraint objects a user of a repository with history [h] holds, each with the request it
    comes from and the condition on the rational variables it stands for: the objects returned by
    requests, and negations [~c] of objects. *)
Inductive cons_of (h : list (request * lcons)) : lcons -> request -> ((nat -> Q) -> Prop) -> Prop :=
| co_request q c : In (q, c) h -> cons_of h c q (fun r => req_holds r q)
| co_negation d q P : cons_of h d q P -> cons_of h (lc_neg d) q (fun r => ~ P r).

(** [a pred b], or its negation *)
Definition signed (negated : bool) (A : Prop) : Prop := if negated then ~ A else A.

(** the variables of a request that have a coefficient other than 0 *)
Definition req_vars (q : request) (v : nat) : Prop :=
  exists c, In (v, c) (rq_terms q) /\ ~ (c == 0)%Q.

(** ** How a printed constraint is read: sums of terms, a term is a variable, a number, or a number
    times a variable; two sums with a symbol between them. *)
Inductive term_value (r : nat -> Q) : list token -> Q -> Prop :=
| tv_var v : term_value r [TVar v] (r v)
| tv_num c : term_value r [TNum c] c
| tv_times c v : term_value r [TNum c; TTimes; TVar v] (c * r v)%Q.
Inductive sum_value (r : nat -> Q) : list token -> Q -> Prop :=
| sv_term t x : term_value r t x -> sum_value r t x
| sv_plus t x u y : term_value r t x -> sum_value r u y -> sum_value r (t ++ [TPlus] ++ u) (x + y)%Q.
Definition symbol_means (x : symbol) (a b : Q) : Prop :=
  match x with
  | SEq => (a == b)%Q | SNe => ~ (a == b)%Q
  | SLt => (a < b)%Q | SLe => (a <= b)%Q
  | SGt => (b < a)%Q | SGe => (b <= a)%Q
  end.
(** [text] is a constraint that holds under [r] iff [A] *)
Definition reads_as (r : nat -> Q) (text : list token) (A : Prop) : Prop :=
  exists t x sym u y, text = t ++ [TRel sym] ++ u /\ sum_value r t x /\ sum_value r u y /\
    (A <-> symbol_means sym x y).
