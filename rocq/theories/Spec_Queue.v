(** Specification of a priority queue: a finite map from variables to scores. *)
From Coq Require Import List Bool.
From Verif Require Import Core_Model Order_Model Queue_Model.
Import ListNotations.

(** Laws of score comparison on the set [good] of scores in use: a strict weak order (floats without
    NaN satisfy it; NaN does not). *)
Record score_laws {F} (fo : fops F) (good : F -> Prop) : Prop := mkLaws {
  sl_irr : forall a, good a -> f_gt fo a a = false;
  sl_asym : forall a b, good a -> good b -> f_gt fo a b = true -> f_gt fo b a = false;
  sl_neg : forall a b c, good a -> good b -> good c ->
           f_gt fo a b = false -> f_gt fo b c = false -> f_gt fo a c = false;
  sl_eq : forall a b, good a -> good b -> f_eq fo a b = negb (f_gt fo a b) && negb (f_gt fo b a);
  sl_ge : forall a b, good a -> good b -> f_ge fo a b = negb (f_gt fo b a) }.

Section Spec.
Context {F : Type}.
Variable fo : fops F.
Variable good : F -> Prop.

(** Contents of a queue: each variable has a score or is absent. *)
Definition contents : Type := var -> option F.

(** [v] has the highest score; among variables with the same score it is the smallest one. *)
Definition best (M : contents) (v : var) : Prop :=
  exists s, M v = Some s /\
  forall w r, M w = Some r -> w <> v ->
    f_gt fo s r = true \/ (f_gt fo s r = false /\ f_gt fo r s = false /\ var_ltb v w = true).

(** What each operation does to the contents, and when it may be called. *)
Inductive spec_step : contents -> qop -> contents -> Prop :=
| ss_push M M' v s : M v = None -> good s ->
    (forall w, M' w = if var_eqb w v then Some s else M w) -> spec_step M (QPush v s) M'
| ss_pop M M' v : best M v ->
    (forall w, M' w = if var_eqb w v then None else M w) -> spec_step M QPop M'
| ss_update M M' v s : good s ->
    (forall w, M' w = match M w with
                      | None => None
                      | Some r => if var_eqb w v then Some s else Some r
                      end) -> spec_step M (QUpdate v s) M'
| ss_rescale M M' f : (forall s, good s -> good (f_div fo s f)) ->
    (forall w, M' w = match M w with None => None | Some r => Some (f_div fo r f) end) ->
    spec_step M (QRescale f) M'.

(** All histories of legal calls on a new queue, with the contents they lead to. *)
Inductive history : list qop -> contents -> Prop :=
| h_new : history [] (fun _ => None)
| h_step h M o M' : history h M -> spec_step M o M' -> history (h ++ [o]) M'.
End Spec.
