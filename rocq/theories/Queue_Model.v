(** Model of variable_order/Variable_priority_queue.h/.cpp: a 4-ary max-heap of (variable, score)
    nodes with a position table. *)
From Coq Require Import List Arith ZArith Bool.
From Verif Require Import Base Core_Model Order_Model.
Import ListNotations.
Open Scope nat_scope.

Section Queue.
Context {F : Type}.
Variable fo : fops F.

(** Variable_priority_queue.h 99 Node *)
Notation node := (var * F)%type.

(** Variable_priority_queue.h 102-105: pq and position. [position] is a vector (by type) of vectors
    (by ordinal) of ints; the two types of the model are two lists. A type whose vector has not
    been allocated reads as an empty list, which no access can tell apart. *)
Record queue : Type := mkQ { q_pq : list node; q_pb : list Z; q_pr : list Z }.
Definition q_new : queue := mkQ [] [] [].

(** position[var.type()][var.ord()]; None when out of range *)
Definition pget (q : queue) (v : var) : option Z :=
  match v with VBool i => nth_error (q_pb q) i | VRat i => nth_error (q_pr q) i end.
Definition pset (q : queue) (v : var) (z : Z) : queue :=
  match v with
  | VBool i => mkQ (q_pq q) (set_nth i z (q_pb q)) (q_pr q)
  | VRat i => mkQ (q_pq q) (q_pb q) (set_nth i z (q_pr q))
  end.
Definition with_pq (q : queue) (l : list node) : queue := mkQ l (q_pb q) (q_pr q).

(** Variable_priority_queue.h 110 missing *)
Definition missing : Z := (-1)%Z.

(** Variable_priority_queue.h 129-133 is_before on nodes (118-121 on variables is [var_ltb]) *)
Definition node_before (a b : node) : bool :=
  f_gt fo (snd a) (snd b) || (f_eq fo (snd a) (snd b) && var_ltb (fst a) (fst b)).

(** Variable_priority_queue.h 43-48 contains *)
Definition q_contains (q : queue) (v : var) : bool :=
  match pget q v with Some z => negb (z =? missing)%Z | None => false end.

(** Variable_priority_queue.h 71-87 top, empty, size; 93-97 vars *)
Definition q_top (q : queue) : res var :=
  match q_pq q with [] => UB | n :: _ => Ok (fst n) end.
Definition q_empty (q : queue) : bool := match q_pq q with [] => true | _ => false end.
Definition q_size (q : queue) : nat := length (q_pq q).
Definition q_vars (q : queue) : list var := map fst (q_pq q).

(** Variable_priority_queue.h 141-150 find: index of the variable or the end *)
Definition q_find (q : queue) (v : var) : nat :=
  match pget q v with
  | Some z => if (z <? 0)%Z then length (q_pq q) else Z.to_nat z
  | None => length (q_pq q)
  end.

(** Variable_priority_queue.h 157-161 parent, 168-174 children (half-open index range) *)
Definition parent (i : nat) : nat := if 0 <? i then (i - 1) / 4 else 0.
Definition children (q : queue) (i : nat) : nat * nat :=
  let b := Nat.min (i * 4 + 1) (length (q_pq q)) in
  (b, Nat.min (b + 4) (length (q_pq q))).

(** Variable_priority_queue.h 181-190 swap *)
Definition q_swap (q : queue) (i j : nat) : res queue :=
  a <- at_ (q_pq q) i ;;
  b <- at_ (q_pq q) j ;;
  let q1 := with_pq q (set_nth j a (set_nth i b (q_pq q))) in
  va <- at_ (q_pq q1) i ;;
  vb <- at_ (q_pq q1) j ;;
  pa <- value_of (pget q1 (fst va)) ;;
  pb <- value_of (pget q1 (fst vb)) ;;
  Ok (pset (pset q1 (fst va) pb) (fst vb) pa).

(** Variable_priority_queue.cpp 81-91 fix_up *)
Fixpoint fix_up (fuel : nat) (q : queue) (i : nat) : res queue :=
  match fuel with
  | 0 => Fuel
  | S f =>
      if i =? 0 then Ok q
      else
        a <- at_ (q_pq q) i ;;
        b <- at_ (q_pq q) (parent i) ;;
        q1 <- (if node_before a b then q_swap q i (parent i) else Ok q) ;;
        fix_up f q1 (parent i)
  end.

(** Variable_priority_queue.cpp 97-105: index of the first maximum among [k] nodes from [c]. *)
Fixpoint max_child (l : list node) (best c k : nat) : res nat :=
  match k with
  | 0 => Ok best
  | S k' =>
      a <- at_ l c ;;
      b <- at_ l best ;;
      max_child l (if node_before a b then c else best) (S c) k'
  end.

(** Variable_priority_queue.cpp 93-118 fix_down *)
Fixpoint fix_down (fuel : nat) (q : queue) (i : nat) : res queue :=
  match fuel with
  | 0 => Fuel
  | S f =>
      let (b, e) := children q i in
      if e <=? b then Ok q
      else
        m <- max_child (q_pq q) b (S b) (e - S b) ;;
        x <- at_ (q_pq q) m ;;
        y <- at_ (q_pq q) i ;;
        if node_before x y then q1 <- q_swap q m i ;; fix_down f q1 m
        else Ok q
  end.

(** the resize calls of Variable_priority_queue.cpp 7-15 *)
Definition grow_pos (l : list Z) (i : nat) : list Z :=
  if length l <=? i then l ++ repeat missing (S i - length l) else l.
Definition q_reserve (q : queue) (v : var) : queue :=
  match v with
  | VBool i => mkQ (q_pq q) (grow_pos (q_pb q) i) (q_pr q)
  | VRat i => mkQ (q_pq q) (q_pb q) (grow_pos (q_pr q) i)
  end.

(** Variable_priority_queue.cpp 5-21 push *)
Definition q_push (q : queue) (v : var) (s : F) : res queue :=
  let q1 := q_reserve q v in
  z <- value_of (pget q1 v) ;;
  _ <- assertb (z =? missing)%Z ;;
  let n := length (q_pq q1) in
  let q2 := pset q1 v (Z.of_nat n) in
  fix_up (S n) (with_pq q2 (q_pq q2 ++ [(v, s)])) n.

(** Variable_priority_queue.cpp 23-38 pop *)
Definition q_pop (q : queue) : res queue :=
  v <- q_top q ;;
  q1 <- q_swap q 0 (length (q_pq q) - 1) ;;
  let q2 := with_pq q1 (removelast (q_pq q1)) in
  q3 <- (if q_empty q2 then Ok q2 else fix_down (S (length (q_pq q2))) q2 0) ;;
  _ <- value_of (pget q3 v) ;;
  Ok (pset q3 v missing).

(** Variable_priority_queue.cpp 40-60 update *)
Definition q_update (q : queue) (v : var) (s : F) : res queue :=
  let i := q_find q v in
  if i =? length (q_pq q) then Ok q
  else
    a <- at_ (q_pq q) i ;;
    let q1 := with_pq q (set_nth i (fst a, s) (q_pq q)) in
    if f_ge fo s (snd a) then fix_up (S i) q1 i
    else fix_down (S (length (q_pq q1))) q1 i.

(** Variable_priority_queue.cpp 73-77: [fix_down] for i, i-1, ..., 0. *)
Fixpoint fix_all (q : queue) (i : nat) : res queue :=
  q1 <- fix_down (S (length (q_pq q))) q i ;;
  match i with 0 => Ok q1 | S i' => fix_all q1 i' end.

(** Variable_priority_queue.cpp 62-79 rescale *)
Definition q_rescale (q : queue) (factor : F) : res queue :=
  let q1 := with_pq q (map (fun n => (fst n, f_div fo (snd n) factor)) (q_pq q)) in
  if q_empty q1 then Ok q1 else fix_all q1 ((length (q_pq q1) - 1) / 4).

(** A client calling the queue. *)
Inductive qop : Type :=
| QPush (v : var) (s : F)
| QPop
| QUpdate (v : var) (s : F)
| QRescale (factor : F).
Definition q_step (q : queue) (o : qop) : res queue :=
  match o with
  | QPush v s => q_push q v s
  | QPop => q_pop q
  | QUpdate v s => q_update q v s
  | QRescale f => q_rescale q f
  end.
Fixpoint q_run (q : queue) (h : list qop) : res queue :=
  match h with [] => Ok q | o :: h' => q1 <- q_step q o ;; q_run q1 h' end.
End Queue.
