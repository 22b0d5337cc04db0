(** Common definitions: outcomes of C++ functions and list helpers. *)
From Coq Require Import List Arith ZArith Bool Lia.
Import ListNotations.

(** Outcome of a modelled C++ function.
    [UB]   : undefined behaviour was reached (out-of-range access, dereference of an empty
             optional, failing assert).
    [Fuel] : the recursion fuel standing for an unbounded C++ loop is exhausted. *)
Inductive res (A : Type) : Type :=
| Ok (a : A)
| UB
| Fuel.
Arguments Ok {A} _.
Arguments UB {A}.
Arguments Fuel {A}.

Definition bind {A B} (m : res A) (f : A -> res B) : res B :=
  match m with Ok a => f a | UB => UB | Fuel => Fuel end.

Declare Scope res_scope.
Delimit Scope res_scope with res.
Notation "x <- m ;; f" := (bind m (fun x => f))
  (at level 100, m at next level, right associativity) : res_scope.
Notation "' p <- m ;; f" := (bind m (fun p => f))
  (at level 100, p pattern, m at next level, right associativity) : res_scope.
Open Scope res_scope.

(** C++ [assert(b)]: a failing assertion is reported as [UB]. *)
Definition assertb (b : bool) : res unit := if b then Ok tt else UB.

(** [opt.value()] *)
Definition value_of {A} (o : option A) : res A :=
  match o with Some a => Ok a | None => UB end.

(** [vec[i]] *)
Definition at_ {A} (l : list A) (i : nat) : res A := value_of (nth_error l i).

(** [safe m Q]: m does not reach UB and its result, if any, satisfies Q. *)
Definition safe {A} (m : res A) (Q : A -> Prop) : Prop :=
  match m with Ok a => Q a | UB => False | Fuel => True end.

Lemma safe_bind {A B} (m : res A) (f : A -> res B) (P : A -> Prop) (Q : B -> Prop) :
  safe m P -> (forall a, P a -> safe (f a) Q) -> safe (bind m f) Q.
Proof. destruct m; simpl; intros; auto. Qed.

Lemma safe_weaken {A} (m : res A) (P Q : A -> Prop) :
  safe m P -> (forall a, P a -> Q a) -> safe m Q.
Proof. destruct m; simpl; auto. Qed.

Lemma safe_ok {A} (a : A) (Q : A -> Prop) : Q a -> safe (Ok a) Q.
Proof. auto. Qed.

Lemma safe_assertb b (Q : unit -> Prop) : b = true -> Q tt -> safe (assertb b) Q.
Proof. intros ->. auto. Qed.

(** [l[i] = x] (no effect out of range; callers check the range). *)
Fixpoint set_nth {A} (i : nat) (x : A) (l : list A) : list A :=
  match l, i with
  | [], _ => []
  | _ :: l', 0 => x :: l'
  | y :: l', S i' => y :: set_nth i' x l'
  end.

Lemma set_nth_length {A} i (x : A) l : length (set_nth i x l) = length l.
Proof. revert i; induction l; destruct i; simpl; auto. Qed.

Lemma nth_error_set_nth_eq {A} i (x : A) l :
  i < length l -> nth_error (set_nth i x l) i = Some x.
Proof. revert i; induction l; destruct i; simpl; intros; try lia; auto. apply IHl; lia. Qed.

Lemma nth_error_set_nth_neq {A} i j (x : A) l :
  i <> j -> nth_error (set_nth i x l) j = nth_error l j.
Proof.
  revert i j; induction l; destruct i, j; simpl; intros; try lia; auto.
Qed.

Lemma nth_set_nth_eq {A} i (x : A) l d :
  i < length l -> nth i (set_nth i x l) d = x.
Proof. revert i; induction l; destruct i; simpl; intros; try lia; auto. apply IHl; lia. Qed.

Lemma nth_set_nth_neq {A} i j (x : A) l d :
  i <> j -> nth j (set_nth i x l) d = nth j l d.
Proof. revert i j; induction l; destruct i, j; simpl; intros; try lia; auto. Qed.

Lemma set_nth_out {A} i (x : A) l : length l <= i -> set_nth i x l = l.
Proof. revert i; induction l; destruct i; simpl; intros; try lia; auto. rewrite IHl; auto; lia. Qed.

Lemma set_nth_app {A} i (x : A) l1 l2 :
  set_nth i x (l1 ++ l2) =
  if i <? length l1 then set_nth i x l1 ++ l2 else l1 ++ set_nth (i - length l1) x l2.
Proof.
  revert i; induction l1; intros; simpl.
  - now rewrite Nat.sub_0_r.
  - destruct i; simpl; auto. rewrite IHl1.
    change (S i <? S (length l1)) with (i <? length l1).
    destruct (i <? length l1); auto.
Qed.

Lemma set_nth_In {A} i (x y : A) l : In y (set_nth i x l) -> y = x \/ In y l.
Proof.
  revert i; induction l; destruct i; simpl; intuition.
  apply IHl in H0; intuition.
Qed.

(** Functional update of total maps over [nat]. *)
Definition upd {A} (f : nat -> A) (i : nat) (x : A) : nat -> A :=
  fun j => if j =? i then x else f j.

Lemma upd_eq {A} (f : nat -> A) i x : upd f i x i = x.
Proof. unfold upd. now rewrite Nat.eqb_refl. Qed.

Lemma upd_neq {A} (f : nat -> A) i j x : j <> i -> upd f i x j = f j.
Proof. unfold upd. intros. now rewrite (proj2 (Nat.eqb_neq j i)). Qed.

(** Insertion sort with a boolean strict order; stands for [std::sort] (see the uniqueness
    lemma in the proof files: on a strict total order every sort gives the same result). *)
Fixpoint insert_by {A} (lt : A -> A -> bool) (x : A) (l : list A) : list A :=
  match l with
  | [] => [x]
  | y :: l' => if lt y x then y :: insert_by lt x l' else x :: l
  end.

Definition sort_by {A} (lt : A -> A -> bool) (l : list A) : list A :=
  fold_right (insert_by lt) [] l.
