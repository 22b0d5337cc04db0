(** C18 The priority queue behaves like a finite map with maximum extraction;
    C19 A variable order never skips an unassigned variable;
    C20 The restart schedule follows the Luby sequence. *)
From Coq Require Import List Arith ZArith NArith QArith Bool.
From Verif Require Import Base Core_Model Order_Model Spec_Order Order_Proofs Queue_Model Spec_Queue Queue_Proofs
  Trail_Model Spec_Trail Gvsids_Model Spec_Gvsids Gvsids_Proofs.
Import ListNotations.
Open Scope nat_scope.

(** C18: after every legal history of calls, whatever the scores (any values compared by a strict
    weak order, e.g. floats other than NaN), no call goes out of range or fails an assertion, and
    contains, empty, top, the list of variables and the size are those of the finite map [M] the
    history describes. *)
Theorem C18_priority_queue : forall (F : Type) (fo : fops F) (good : F -> Prop) (h : list qop) (M : var -> option F),
  score_laws fo good -> history fo good h M ->
  exists q, q_run fo q_new h = Ok q /\
    (forall v, q_contains q v = true <-> M v <> None) /\
    (q_empty q = true <-> forall v, M v = None) /\
    (q_empty q = false -> exists v, q_top q = Ok v /\ best fo M v) /\
    NoDup (q_vars q) /\ (forall v, In v (q_vars q) <-> M v <> None) /\ q_size q = length (q_vars q).
Proof. exact (fun F fo good h M laws H => queue_lemma fo good laws h M H). Qed.
Print Assumptions C18_priority_queue.

Example C18_nonvacuous : exists M,
  history qops (fun _ => True) [QPush (VBool 2) 1%Q; QPush (VRat 0) 3%Q; QUpdate (VBool 2) 7%Q; QRescale 2%Q; QPop] M /\
  M (VRat 0) = Some (3 / 2)%Q /\ M (VBool 2) = None.
Proof.
  eexists (fun w => if var_eqb w (VBool 2) then None else if var_eqb w (VRat 0) then Some (3 / 2)%Q else None).
  split; [|split; reflexivity].
  apply (h_step qops _ [QPush (VBool 2) 1%Q; QPush (VRat 0) 3%Q; QUpdate (VBool 2) 7%Q; QRescale 2%Q]
    (fun w => if var_eqb w (VBool 2) then Some (7 / 2)%Q else if var_eqb w (VRat 0) then Some (3 / 2)%Q else None)).
  1: apply (h_step qops _ [QPush (VBool 2) 1%Q; QPush (VRat 0) 3%Q; QUpdate (VBool 2) 7%Q]
    (fun w => if var_eqb w (VBool 2) then Some 7%Q else if var_eqb w (VRat 0) then Some 3%Q else None)).
  1: apply (h_step qops _ [QPush (VBool 2) 1%Q; QPush (VRat 0) 3%Q]
    (fun w => if var_eqb w (VBool 2) then Some 1%Q else if var_eqb w (VRat 0) then Some 3%Q else None)).
  1: apply (h_step qops _ [QPush (VBool 2) 1%Q]
    (fun w => if var_eqb w (VBool 2) then Some 1%Q else None)).
  1: apply (h_step qops _ [] (fun _ => None)).
  - constructor.
  - constructor; auto.
  - constructor; auto. intros [w|w]; simpl; destruct w as [|[|[|w]]]; reflexivity.
  - constructor; auto. intros [w|w]; simpl; destruct w as [|[|[|w]]]; reflexivity.
  - constructor; auto. intros [w|w]; simpl; destruct w as [|[|[|w]]]; reflexivity.
  - apply ss_pop with (v := VBool 2).
    + exists (7 / 2)%Q. split; auto. intros [w|w] r H N; simpl in H; destruct w as [|[|[|w]]]; try discriminate; try congruence.
      injection H as <-. left. reflexivity.
    + intros [w|w]; simpl; destruct w as [|[|[|w]]]; reflexivity.
Qed.

(** C19, First_unassigned: sound, complete, and the first unassigned variable in variable order. *)
Theorem C19_first_unassigned : forall t : trail,
  pick_sound t (fu_pick t) /\ pick_complete t (fun _ => True) (fu_pick t) /\
  (forall v w, fu_pick t = Some v -> var_exists t w -> var_ltb w v = true -> var_defined t w = true).
Proof. exact fu_pick_lemma. Qed.
Print Assumptions C19_first_unassigned.

(** C19, Evsids (used by the propositional solvers): after every sequence of events. *)
Theorem C19_evsids : forall (F : Type) (fo : fops F) (good : F -> Prop) (n : nat) (h : list evop) (t : trail),
  score_closed fo good -> n = mnum (t_bm t) ->
  pick_sound t (ev_pick fo (ev_run fo n h) t) /\
  pick_complete t (fun v => match v with VBool _ => True | VRat _ => False end) (ev_pick fo (ev_run fo n h) t).
Proof. exact (fun F fo good n h t => ev_pick_lemma fo good n h t). Qed.
Print Assumptions C19_evsids.

(** C19, Combined_order: sound if both parts are, complete for the variables of either part. *)
Theorem C19_combined : forall (A B : Type) (a : order A) (b : order B) sa sb t VA VB,
  pick_sound t (snd (o_pick a sa t)) -> pick_complete t VA (snd (o_pick a sa t)) ->
  pick_sound t (snd (o_pick b sb t)) -> pick_complete t VB (snd (o_pick b sb t)) ->
  pick_sound t (snd (o_pick (combined a b) (sa, sb) t)) /\
  pick_complete t (fun v => VA v \/ VB v) (snd (o_pick (combined a b) (sa, sb) t)).
Proof. exact @combined_pick_lemma. Qed.
Print Assumptions C19_combined.

Example C19_nonvacuous :
  score_closed qops qpos /\
  ev_pick qops (ev_run qops 3 [EvLearned [mkLit 1 true; mkLit 2 false]; EvResolved [mkLit 2 true]])
    (put (trail_new 3 0) (VBool 2) (true, 0%Q)) = Some (VBool 1) /\
  snd (o_pick (combined (evsids_order qops) first_unassigned) (ev_run qops 1 [], tt)
    (put (trail_new 1 1) (VBool 0) (true, 0%Q))) = Some (VRat 0).
Proof. split; [exact q_closed|]. now vm_compute. Qed.

(** C19, Generalized_vsids (used with linear arithmetic), over every history of trail operations,
    events and calls of pick: an answer is an existing unassigned variable; the answer none means
    that every variable is assigned, except possibly variables that were on level 0 at a restart
    (none are lost if the solver propagates them again before the next call). Nothing goes out of
    range and no assertion fails unless effectively decided variables are reported. *)
Theorem C19_generalized_vsids : forall (F : Type) (fo : fops F) (good : F -> Prop) (cons_vars : nat -> list nat)
    (h : list gop) (a : atrail) (lost : var -> Prop) (dec : list nat) (ed : nat -> bool),
  score_laws fo good -> score_closed fo good ->
  g_history cons_vars h a lost -> Forall (fun x => x < at_nq a) dec ->
  match g_run fo cons_vars (gv_new fo, trail_new 0 0) h with
  | Ok (g, t) =>
      shows t a /\
      match g_pick fo g t dec ed with
      | Ok (_, Some v) => in_range (at_nb a) (at_nq a) v = true /\ at_rec a v = None
      | Ok (_, None) => forall v, in_range (at_nb a) (at_nq a) v = true -> at_rec a v <> None \/ lost v
      | UB => dec <> []
      | Fuel => False
      end
  | UB => ~ no_effectively_decided h
  | Fuel => False
  end.
Proof. exact (fun F fo good cv h a lost dec ed laws closed => gvsids_lemma fo good laws closed cv h a lost dec ed). Qed.
Print Assumptions C19_generalized_vsids.

Definition C19_history : list gop :=
  [GTrail (TResize 2 1); GLearned [mkLit 1 false]; GPick [] (fun _ => false);
   GTrail (TDecide (VBool 1) (true, 0%Q)); GPick [] (fun _ => false);
   GTrail (TDecide (VRat 0) (true, 5%Q)); GTrail (TPropagate (VBool 0) None 2 (true, 0%Q)); GPick [] (fun _ => false);
   GTrail (TBacktrack 1)].
Example C19_generalized_vsids_nonvacuous :
  (exists a lost, g_history (fun _ => [0]) C19_history a lost /\ at_rec a (VRat 0) = None) /\
  match g_run qops (fun _ => [0]) (gv_new qops, trail_new 0 0) C19_history with
  | Ok (g, t) => match g_pick qops g t [] (fun _ => false) with Ok (_, o) => o = Some (VRat 0) | _ => False end
  | _ => False
  end.
Proof.
  split; [|vm_compute; reflexivity]. eexists _, _. split.
  - unfold C19_history.
    repeat match goal with
    | |- g_history _ [] _ _ => apply gh_new
    | |- g_history _ ?l _ _ => let l' := eval cbv in (removelast l) in let x := eval cbv in (last l (GLearned [])) in
        change l with (l' ++ [x]); apply gh_step
    end; simpl; auto; try (repeat split; auto; fail).
    intros l [<-|[]]. simpl. split; auto. intros x [<-|[]]. auto.
  - reflexivity.
Qed.

(** The property fails for Generalized_vsids on its own: a variable that pick has dropped while it
    was assigned at level 0 is not put back by a restart. *)
Theorem C19_generalized_vsids_restart_refuted : exists h a lost,
  g_history (fun _ => []) h a lost /\ at_rec a (VBool 0) = None /\ at_nb a = 1 /\
  match g_run qops (fun _ => []) (gv_new qops, trail_new 0 0) h with
  | Ok (g, t) => exists g', g_pick qops g t [] (fun _ => false) = Ok (g', None)
  | _ => False
  end.
Proof.
  exists (((([] ++ [GTrail (TResize 1 0)]) ++ [GTrail (TPropagate (VBool 0) None 0 (true, 0%Q))])
           ++ [GPick [] (fun _ => false)]) ++ [GTrail TClear]).
  eexists _, _. split.
  - repeat apply gh_step; [apply gh_new| | | |]; simpl; auto.
  - split; [reflexivity|]. split; [reflexivity|]. vm_compute. eexists. reflexivity.
Qed.
Print Assumptions C19_generalized_vsids_restart_refuted.

(** With effectively decided variables (option prop_rational) an assertion of push can fail: a
    variable reported again while it is still at the head of the queue is pushed twice. *)
Theorem C19_effectively_decided_refuted : exists h a lost,
  g_history (fun _ => []) h a lost /\ g_run qops (fun _ => []) (gv_new qops, trail_new 0 0) h = UB.
Proof.
  exists (((([] ++ [GTrail (TResize 0 1)]) ++ [GPick [0] (fun _ => true)]) ++ [GTrail (TDecide (VRat 0) (true, 5%Q))]
          ++ [GTrail (TBacktrack 0)]) ++ [GPick [0] (fun _ => true)]).
  eexists _, _. split; [|vm_compute; reflexivity].
  rewrite app_assoc. repeat apply gh_step; [apply gh_new| | | | |]; simpl; auto.
Qed.
Print Assumptions C19_effectively_decided_refuted.

(** C20: after [length segs] restarts the next one is asked for exactly when luby(i) * mult clauses
    have been learned since, where i = length segs + 1; the product fits an int for mult = 550 and
    i < 2^23 - 1. *)
Theorem C20_luby_restarts : forall (mult : Z) (segs : list (list (trail * clause))) (seg : list (trail * clause)),
  (N.of_nat (length segs) + 1 < 2 ^ 32 - 1)%N ->
  exists z, luby_seq (N.of_nat (length segs) + 1) z /\
  (r_should luby_restart
     (fold_left (fun s x => r_learned luby_restart s (fst x) (snd x)) seg (luby_after mult segs)) = true <->
   (z * mult <= Z.of_nat (length seg))%Z) /\
  (mult = 550%Z -> (N.of_nat (length segs) + 1 < 2 ^ 23 - 1)%N -> (0 < z * mult < 2 ^ 31)%Z).
Proof. exact luby_lemma. Qed.
Print Assumptions C20_luby_restarts.

(** the sequence is a function, so [z] above is the i-th element *)
Theorem C20_luby_unique : forall i z z', luby_seq i z -> luby_seq i z' -> z' = z.
Proof. exact (fun i z z' H H' => luby_seq_fun i z H z' H'). Qed.
Print Assumptions C20_luby_unique.

Example C20_nonvacuous : luby_seq 6 2%Z /\ luby 6 = Ok 2%Z /\
  map (fun i => luby_value (N.of_nat i)) (seq 1 15) = [1;1;2;1;1;2;4;1;1;2;1;1;2;4;8]%Z.
Proof.
  split; [|split; vm_compute; reflexivity].
  apply (luby_rec 3); [discriminate|split; [discriminate|reflexivity]|]. exact (luby_top 2 ltac:(discriminate)).
Qed.
