(** A concrete run of the linear arithmetic plugin, used as an example beside its theorems. *)
From Coq Require Import List Arith ZArith QArith Bool.
From Verif Require Import Base Core_Model Lincons_Model Trail_Model Lra_Model Spec_Lra Lra_Hist.
Import ListNotations.
Open Scope nat_scope.

Definition ex_hash (_ : nat) : Z := 0%Z.
Definition ex_hashq (_ : Q) : Z := 0%Z.
Notation ex_make := (lra_constraint ex_hash ex_hashq opt_default).
Notation ex_prop := (lra_propagate ex_hash ex_hashq opt_default).
(** put a literal on the trail as a decision on a new level *)
Definition ex_set (t : trail) (l : lit) : trail :=
  trail_decide (with_bm t (set_value (t_bm t) (lord l) (negb (lneg l)))) (VBool (lord l)).

(** x0 has bounds 0 <= x0 <= 5 and x0 <> 0; x0 = 5 is not decided *)
Definition ex_bounds : res (lra * trail * lcons) :=
  '(a, t, c1) <- ex_make lra_new (trail_new 0 3) [(0, 1%Q)] PLeq 5%Q ;;
  '(a, t, c2) <- ex_make a t [(0, (-1)%Q)] PLeq 0%Q ;;
  '(a, t, c3) <- ex_make a t [(0, 1%Q)] PEq 0%Q ;;
  '(a, t, c4) <- ex_make a t [(0, 1%Q)] PEq 5%Q ;;
  '(a, t, _) <- ex_prop a (ex_set t (lc_lit c1)) ;;
  '(a, t, _) <- ex_prop a (ex_set t (lc_lit c2)) ;;
  '(a, t, _) <- ex_prop a (ex_set t (neg (lc_lit c3))) ;;
  Ok (a, t, c4).
Lemma ex_bounds_history a t c : ex_bounds = Ok (a, t, c) -> lra_history ex_hash ex_hashq opt_default a.
Proof.
  unfold ex_bounds. intros H. binv H. injection H as <- _ _.
  eauto 10 using lh_new, lh_constraint, lh_propagate.
Qed.

Definition is_ok {A} (m : res A) : bool := match m with Ok _ => true | _ => false end.
Definition get3 {A B C} (a : A) (b : B) (c : C) (m : res (A * B * C)) : A * B * C :=
  match m with Ok p => p | _ => (a, b, c) end.
Definition ex_a : lra := fst (fst (get3 lra_new (trail_new 0 0) lc_default ex_bounds)).
Definition ex_t : trail := snd (fst (get3 lra_new (trail_new 0 0) lc_default ex_bounds)).
Definition ex_c : lcons := snd (get3 lra_new (trail_new 0 0) lc_default ex_bounds).
Lemma ex_bounds_ok : ex_bounds = Ok (ex_a, ex_t, ex_c).
Proof.
  assert (E : is_ok ex_bounds = true) by (vm_compute; reflexivity).
  unfold ex_a, ex_t, ex_c. destruct ex_bounds as [[[a t] c]| |]; [reflexivity|discriminate..].
Qed.
