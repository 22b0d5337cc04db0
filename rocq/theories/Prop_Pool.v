(** C69: numbers are values of their own, and their memory is used well. *)
From Coq Require Import ZArith QArith Bool List Arith Lia.
From Verif Require Import Base Rational_Model Spec_Rational Pool_Model Spec_Pool Pool_Inv Pool_Step.
Import ListNotations.

(** In a program that starts without numbers, every command the language allows ends, without an undefined access or a failed assertion, and
    changes the numbers it names as stated and no other. *)
Theorem C69_independent_values m c : reached m -> legal (reads m) c ->
  exists m' out, step m c = Ok (m', out) /\ effect (reads m) c (reads m') out.
Proof. intros R L. destruct (step_ok m c (reached_ok m R) L) as (m' & out & H & _ & E). eauto. Qed.
Print Assumptions C69_independent_values.

(** No two numbers share memory, none uses memory that was given back, nothing is given back twice and nothing is lost. *)
Theorem C69_memory m : reached m -> well_used m.
Proof.
  intros R. destruct (reached_ok m R) as [I _]. unfold well_used.
  split; [exact (i_one _ I)|]. split; [exact (i_used _ I)|]. split; [exact (i_nodup _ I)|].
  intros a. split; [exact (i_leak _ I a)|]. intros [F|(i & o & E & MA & P)]; [exact (i_free _ I a F)|].
  destruct (i_ptr _ I i o E MA) as (b & B & L). congruence.
Qed.
Print Assumptions C69_memory.

(** The commands of a list in turn, each checked to be legal first. *)
Definition dead (m : mem) (i : nat) : bool := match look m i with None => true | _ => false end.
Definition nonzero (m : mem) (i : nat) : bool := match look m i with Some x => negb (Qeq_bool (value x) 0) | None => true end.
Definition legalb (m : mem) (c : cmd) : bool :=
  match c with
  | NewWord i n => dead m i && ((- 2 ^ 31 <=? n) && (n <? 2 ^ 31))%Z
  | NewUint i n => dead m i && ((0 <=? n) && (n <? 2 ^ 32))%Z
  | NewStr i n d => dead m i && negb (d =? 0)%Z
  | Floor i j t u => dead m i && (dead m t && (dead m u && (negb (i =? t)%nat && (negb (i =? u)%nat && (negb (t =? u)%nat && negb (dead m j))))))
  | Inverse i j => dead m i && (negb (dead m j) && nonzero m j)
  | Copy i j | Move i j | Neg i j | Ceil i j => dead m i && negb (dead m j)
  | Assign i j | MoveAssign i j | Compare i j => negb (dead m i) && negb (dead m j)
  | Destroy i | Reset i | Negate i => negb (dead m i)
  | Op _ i j k => dead m i && negb (dead m j) && negb (dead m k) && nonzero m k
  | OpAssign _ i j => negb (dead m i) && negb (dead m j) && nonzero m j
  end.
Fixpoint run (m : mem) (l : list cmd) : res mem :=
  match l with
  | [] => Ok m
  | c :: r => if legalb m c then match step m c with Ok (m', _) => run m' r | UB => UB | Fuel => Fuel end else UB
  end.
Lemma dead_ok m i : dead m i = true -> reads m i = None.
Proof. unfold dead, reads. destruct (look m i); [discriminate|auto]. Qed.
Lemma alive_ok m i : negb (dead m i) = true -> alive (reads m) i.
Proof. unfold dead, alive, reads. destruct (look m i); discriminate. Qed.
Lemma nonzero_ok m i : nonzero m i = true -> ~ has (reads m) i 0.
Proof.
  unfold nonzero, has, reads. intros H (p & E & Z). destruct (look m i); [|discriminate]. injection E as <-.
  apply Qeq_bool_iff in Z. rewrite Z in H. discriminate.
Qed.
Lemma legalb_ok m c : legalb m c = true -> legal (reads m) c.
Proof.
  destruct c; cbn [legalb legal]; rewrite ?andb_true_iff; intros H; repeat match goal with H : _ /\ _ |- _ => destruct H end;
    repeat split; auto using dead_ok, alive_ok, nonzero_ok; try (apply Z.leb_le; assumption); try (apply Z.ltb_lt; assumption).
  all: first [apply Z.eqb_neq; now apply negb_true_iff|apply Nat.eqb_neq; now apply negb_true_iff].
Qed.
Lemma run_reached l : forall m m', reached m -> run m l = Ok m' -> reached m'.
Proof.
  induction l as [|c l IH]; intros m m' R E; cbn [run] in E; [injection E as <-; exact R|].
  destruct (legalb m c) eqn:L; [|discriminate]. destruct (step m c) as [[m1 o]| |] eqn:S; try discriminate.
  apply (IH m1 m'); [|exact E]. eapply r_step; [exact R|exact (legalb_ok m c L)|exact S].
Qed.
Definition hasb (m : mem) (i : nat) (q : Q) : bool := match reads m i with Some p => Qeq_bool p q | None => false end.
Lemma hasb_ok m i q : hasb m i q = true -> has (reads m) i q.
Proof. unfold hasb, has. destruct (reads m i) as [p|]; [|discriminate]. intros H. exists p. split; [reflexivity|now apply Qeq_bool_iff]. Qed.

Definition third : Q := 10000000000 # 3.
(** Two numbers that do not fit words, a copy, a move, an operation in place on the copy, a destruction, a product that takes over the memory
    that was given back, an assignment to the moved object, an inverse and numbers rounded up and down. *)
Definition program : list cmd :=
  [NewStr 0 10000000000 3; NewWord 1 5; Op Add 2 0 1; Copy 3 0; Move 4 0; OpAssign Sub 3 2; Destroy 2; Op Mul 5 4 4; Assign 0 5; Negate 5; MoveAssign 4 5; Inverse 6 0; Ceil 7 4; Floor 8 5 9 10].
Definition outcome (m : mem) : bool :=
  hasb m 0 (third * third) && hasb m 3 (- (5)) && hasb m 5 third && hasb m 4 (- (third * third)) && dead m 2 && hasb m 7 (- (11111111111111111111)) && hasb m 8 3333333333.
Lemma outcome_ok l : match run mem_empty l with Ok m => outcome m | _ => false end = true -> exists m, run mem_empty l = Ok m /\ reached m /\
  has (reads m) 0 (third * third) /\ has (reads m) 3 (- (5)) /\ has (reads m) 5 third /\ has (reads m) 4 (- (third * third)) /\ reads m 2%nat = None /\ has (reads m) 7 (- (11111111111111111111)) /\ has (reads m) 8 3333333333.
Proof.
  destruct (run mem_empty l) as [m| |] eqn:E; intros C; [|discriminate C|discriminate C]. exists m. split; [reflexivity|].
  split; [exact (run_reached l mem_empty m r_start E)|]. unfold outcome in C.
  apply andb_true_iff in C. destruct C as [C H7]. apply andb_true_iff in C. destruct C as [C H6]. apply andb_true_iff in C. destruct C as [C H5]. apply andb_true_iff in C. destruct C as [C H4]. apply andb_true_iff in C. destruct C as [C H3].
  apply andb_true_iff in C. destruct C as [H1 H2].
  split; [exact (hasb_ok _ _ _ H1)|]. split; [exact (hasb_ok _ _ _ H2)|]. split; [exact (hasb_ok _ _ _ H3)|]. split; [exact (hasb_ok _ _ _ H4)|]. split; [exact (dead_ok _ _ H5)|]. split; [exact (hasb_ok _ _ _ H6)|exact (hasb_ok _ _ _ H7)].
Qed.
Example C69_nonvacuous : exists m, run mem_empty program = Ok m /\ reached m /\
  has (reads m) 0 (third * third) /\ has (reads m) 3 (- (5)) /\ has (reads m) 5 third /\ has (reads m) 4 (- (third * third)) /\ reads m 2%nat = None /\ has (reads m) 7 (- (11111111111111111111)) /\ has (reads m) 8 3333333333.
Proof. apply (outcome_ok program). vm_compute. reflexivity. Qed.
