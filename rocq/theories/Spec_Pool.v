(** What a program expects of its numbers: each is a value of its own. *)
From Coq Require Import ZArith QArith List Bool.
From Verif Require Import Base Rational_Model Spec_Rational Pool_Model.
Import ListNotations.

(** the values of the objects of a program; [None]: there is no object of that name *)
Definition env : Type := nat -> option Q.
Definition reads (m : mem) : env := fun i => match look m i with Some x => Some (value x) | None => None end.
Definition has (e : env) (i : nat) (q : Q) : Prop := exists p, e i = Some p /\ (p == q)%Q.
Definition alive (e : env) (i : nat) : Prop := e i <> None.
(** no object except those in [l] is created, destroyed or gets another value *)
Definition only (l : list nat) (e e' : env) : Prop := forall k, ~ In k l -> (e k = None -> e' k = None) /\ forall q, has e k q -> has e' k q.
Definition becomes (e e' : env) (i : nat) (q : Q) : Prop := has e' i q /\ only [i] e e'.
Definition apply (f : aop) (p q : Q) : Q :=
  match f with Add => p + q | Sub => p - q | Mul => p * q | Div => p / q end%Q.

(** commands the C++ language and the arithmetic allow *)
Definition legal (e : env) (c : cmd) : Prop :=
  match c with
  | NewWord i n => e i = None /\ (- 2 ^ 31 <= n < 2 ^ 31)%Z
  | NewUint i n => e i = None /\ (0 <= n < 2 ^ 32)%Z
  | NewStr i n d => e i = None /\ d <> 0%Z
  | Copy i j | Move i j | Neg i j | Ceil i j => e i = None /\ alive e j
  | Floor i j t u => e i = None /\ e t = None /\ e u = None /\ i <> t /\ i <> u /\ t <> u /\ alive e j
  | Inverse i j => e i = None /\ alive e j /\ ~ has e j 0
  | Assign i j | MoveAssign i j | Compare i j => alive e i /\ alive e j
  | Destroy i | Reset i | Negate i => alive e i
  | Op f i j k => e i = None /\ alive e j /\ alive e k /\ (f = Div -> ~ has e k 0)
  | OpAssign f i j => alive e i /\ alive e j /\ (f = Div -> ~ has e j 0)
  end.
(** what the command does to the values, and the number it returns *)
Definition effect (e : env) (c : cmd) (e' : env) (out : option Z) : Prop :=
  match c with
  | NewWord i n | NewUint i n => becomes e e' i (inject_Z n)
  | NewStr i n d => becomes e e' i (inject_Z n / inject_Z d)
  | Copy i j | Assign i j => forall q, has e j q -> becomes e e' i q
  | Move i j => forall q, has e j q -> has e' i q /\ alive e' j /\ only [i; j] e e'
  | MoveAssign i j => forall p q, has e i p -> has e j q -> has e' i q /\ has e' j p /\ only [i; j] e e'
  | Destroy i => e' i = None /\ only [i] e e'
  | Reset i => becomes e e' i 0
  | Op f i j k => forall p q, has e j p -> has e k q -> becomes e e' i (apply f p q)
  | OpAssign f i j => forall p q, has e i p -> has e j q -> becomes e e' i (apply f p q)
  | Neg i j => forall q, has e j q -> becomes e e' i (- q)
  | Inverse i j => forall q, has e j q -> becomes e e' i (/ q)
  | Ceil i j => forall q, has e j q -> exists z, becomes e e' i (inject_Z z) /\ (q <= inject_Z z)%Q /\ (inject_Z z < q + 1)%Q
  | Floor i j _ _ => forall q, has e j q -> exists z, becomes e e' i (inject_Z z) /\ (inject_Z z <= q)%Q /\ (q < inject_Z z + 1)%Q
  | Negate i => forall q, has e i q -> becomes e e' i (- q)
  | Compare i j => only [] e e' /\ forall p q, has e i p -> has e j q ->
      exists z, out = Some z /\ ((z < 0)%Z <-> (p < q)%Q) /\ (z = 0%Z <-> (p == q)%Q) /\ ((0 < z)%Z <-> (q < p)%Q)
  end.

(** the states of a program that starts without numbers *)
Inductive reached : mem -> Prop :=
| r_start : reached mem_empty
| r_step m c m' out : reached m -> legal (reads m) c -> step m c = Ok (m', out) -> reached m'.

(** the cell of GMP memory an object holds *)
Definition holds (m : mem) (i a : nat) : Prop := exists o, objs m i = Some o /\ o_ma o = true /\ o_ptr o = Some a.
(** no cell is held twice, or held and free, or free twice, and none is lost *)
Definition well_used (m : mem) : Prop :=
  (forall i j a, holds m i a -> holds m j a -> i = j) /\ (forall i a, holds m i a -> ~ In a (free m)) /\ NoDup (free m) /\
  (forall a, (a < size m)%nat <-> In a (free m) \/ exists i, holds m i a).
