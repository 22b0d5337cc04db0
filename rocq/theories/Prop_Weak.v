(** C58: a plugin that keeps the weaker contract of Spec_Theory.v and a run in which the answer unsat is wrong. *)
From Coq Require Import List Arith ZArith QArith NArith Bool Lia Permutation.
From Verif Require Import Base Core_Model Literal_Proofs Analysis_Model Bool_Model Sat_Base
  Trail_Model Spec_Trail Solver_Model Spec_Sat Spec_Theory Prop_Theory.
Import ListNotations.
Open Scope nat_scope.

(** ** A plugin that follows a script *)
(** It is not a model of code in /repo. Each call of propagate makes the literals of one entry true, each with its reason and level, and
    returns the conflicts of the entry; it stops the run if the contract does not allow this. Its theory has every model. *)
Definition entry_ops : Type := list (lit * option cref * nat) * list clause.
Definition ref_ok (d : db) (r : cref) : bool :=
  match r with CAsserted i => i <? length (asserted d) | CLearned i => i <? length (learned d) end.
Definition false_below (t : trail) (k : nat) (x : lit) : bool :=
  is_false (eval_lit (t_bm t) x) && match lit_level t x with Some j => j <=? k | None => false end.
Definition may_assign (d : db) (t : trail) (l : lit) (ro : option cref) (k : nat) : bool :=
  (lord l <? mnum (t_bm t)) && match lit_level t l with None => true | Some _ => false end &&
  match ro with
  | None => negb (k =? 0)
  | Some r => ref_ok d r && match getc d r with
                            | x :: c => lit_eqb x l && negb (mem_lit l c) && forallb (false_below t k) c
                            | [] => false
                            end
  end.
Fixpoint do_ops (d : db) (ops : list (lit * option cref * nat)) (t : trail) : res trail :=
  match ops with
  | [] => Ok t
  | (l, ro, k) :: ops' =>
      _ <- assertb (may_assign d t l ro k) ;;
      t1 <- t_step t (TPropagate (lvar l) ro k (negb (lneg l), 0%Q)) ;;
      do_ops d ops' t1
  end.
Definition may_conflict (d : db) (t : trail) (c : clause) : bool :=
  existsb (clause_eqb c) (all_clauses d) && forallb (fun l => is_false (eval_lit (t_bm t) l)) c.
Definition script_propagate (_ : nat) (s : list entry_ops) (d : db) (t : trail) : res (list entry_ops * db * trail * list clause) :=
  match s with
  | [] => Ok ([], d, t, [])
  | (ops, cs) :: s' =>
      t1 <- do_ops d ops t ;;
      _ <- assertb (forallb (may_conflict d t1) cs) ;;
      Ok (s', d, t1, cs)
  end.
Definition script_theory : theory (list entry_ops) :=
  mkTheory script_propagate
    (fun s d t v => t' <- t_step t (TDecide v (false, 0%Q)) ;; Ok (s, t'))
    (fun s d t k => s) (fun s d t r => Ok s) (fun s d t => s).
Definition any_model (_ : list entry_ops) (_ : nat -> bool) : Prop := True.
(** the variables are decided in the given order *)
Definition script_heur : heur (list var) :=
  mkHeur (fun l d t => match l with
                       | v :: l' => (l', if negb (is_def t v) && in_range (mnum (t_bm t)) (mnum (t_qm t)) v then Some v else None)
                       | [] => ([], None)
                       end)
    (fun _ _ _ => false) (fun _ => false) (fun s _ _ => s) (fun s _ _ => s) (fun s _ _ => s) (fun s => s).

Lemma may_justified d ent t l ro k : may_assign d t l ro k = true ->
  lord l < mnum (t_bm t) /\ lit_level t l = None /\ justified false d ent t l ro k.
Proof.
  unfold may_assign. rewrite !andb_true_iff, Nat.ltb_lt. intros [[A B] C]. split; auto. split; [destruct (lit_level t l); auto; discriminate|].
  destruct ro as [r|]; cbn [justified].
  - apply andb_true_iff in C. destruct C as [C D]. split; [destruct r; cbn in *; now apply Nat.ltb_lt|].
    destruct (getc d r) as [|x c]; [discriminate|]. rewrite !andb_true_iff, negb_true_iff in D. destruct D as [[D1 D2] D3].
    apply lit_eqb_eq in D1. subst x. assert (N : ~ In l c) by (intros N; apply mem_lit_In in N; congruence).
    split; [exists c; auto|]. split; [|discriminate]. intros x [<-|X]; auto. right.
    rewrite forallb_forall in D3. specialize (D3 x X). unfold false_below in D3. apply andb_true_iff in D3. destruct D3 as [D3 D4]. split.
    + destruct (eval_lit (t_bm t) x) as [[|]|]; cbn in D3; auto; discriminate.
    + destruct (lit_level t x) as [j|]; [|discriminate]. exists j. split; auto. now apply Nat.leb_le.
  - intros ->. discriminate.
Qed.
Lemma do_ops_ok d ent : forall ops t t', do_ops d ops t = Ok t' -> prop_ops false d ent t t'.
Proof.
  induction ops as [|[[l ro] k] ops IH]; intros t t' H; cbn [do_ops] in H; [injection H as <-; constructor|].
  destruct (may_assign d t l ro k) eqn:M; cbn [assertb bind] in H; [|discriminate].
  destruct (t_step t _) as [t1| |] eqn:E; cbn [bind] in H; try discriminate.
  destruct (may_justified d ent t l ro k M) as (A & B & C). eapply po_bool; eauto.
Qed.
Lemma clause_eqb_eq : forall a b, clause_eqb a b = true -> a = b.
Proof.
  induction a as [|x a IH]; intros [|y b] H; cbn in H; try discriminate; auto.
  apply andb_true_iff in H. destruct H as [H1 H2]. apply lit_eqb_eq in H1. f_equal; auto.
Qed.
Lemma script_plugin : plugin_ok false script_theory any_model (fun _ _ _ => True).
Proof.
  constructor; cbn [script_theory th_propagate th_decide th_before_backtrack th_learned th_restart]; try (intros; split; [exact I|intros a; tauto]); auto.
  - intros fuel s d t s' d' t' cs _ H. unfold script_propagate in H.
    assert (SC : forall d, same_clauses d d) by (intros x; split; [induction (asserted x)|induction (learned x)]; constructor; auto).
    assert (RF : forall n a b, refines any_model n a b) by (intros; split; [tauto|intros x _; exists x; split; [exact I|auto]]).
    destruct s as [|[ops cs0] s].
    + injection H as <- <- <- <-. split; [exact I|]. split; [apply SC|]. split; [apply RF|]. split; [constructor|easy].
    + destruct (do_ops d ops t) as [t1| |] eqn:E; cbn [bind] in H; try discriminate.
      destruct (forallb (may_conflict d t1) cs0) eqn:F; cbn [assertb bind] in H; [|discriminate]. injection H as <- <- <- <-.
      split; [exact I|]. split; [apply SC|]. split; [apply RF|]. split; [eapply do_ops_ok; eauto|].
      intros c Hc. rewrite forallb_forall in F. specialize (F c Hc). unfold may_conflict in F. apply andb_true_iff in F. destruct F as [F1 F2].
      apply existsb_exists in F1. destruct F1 as (c' & C1 & C2). apply clause_eqb_eq in C2. subst c'. split.
      * intros a _ Ha. apply Ha. exact C1.
      * intros l Hl. rewrite forallb_forall in F2. specialize (F2 l Hl). destruct (eval_lit (t_bm t1) l) as [[|]|]; cbn in F2; auto; discriminate.
  - intros s d t v s' t' _ _ _ H. cbn [bind t_step] in H. injection H as <- <-. split; [exact I|]. split; [intros a; tauto|]. exists (false, 0%Q). reflexivity.
Qed.
Lemma script_picks hash s0 : picks_unassigned script_theory script_heur hash s0.
Proof.
  intros s fuel ts d t h v _ _ H. cbn in H. destruct (s_he s) as [|w l]; [discriminate|].
  destruct (negb (is_def t w) && _) eqn:E; [|discriminate]. injection H as _ <-. apply andb_true_iff in E. destruct E as [E1 E2]. now apply negb_true_iff in E1.
Qed.

(** ** The run *)
(** variables: 0 l, 1 m, 2 y, 3 a, 4 b, 5 p *)
Definition wk_p i := mkLit i false.
Definition wk_n i := mkLit i true.
Definition wk_cs : list clause :=
  [[wk_p 2; wk_p 0]; [wk_p 3; wk_p 0]; [wk_p 4; wk_p 0]; [wk_n 3; wk_n 4; wk_p 0; wk_p 1]; [wk_n 0; wk_n 2]; [wk_p 5; wk_n 2; wk_p 0]; [wk_n 5]].
Definition wk_script : list entry_ops :=
  [([], []);
   ([(wk_n 1, None, 1); (wk_p 2, Some (CAsserted 0), 1)], []);
   ([(wk_p 3, Some (CAsserted 1), 2); (wk_p 4, Some (CAsserted 2), 2)], [[wk_n 3; wk_n 4; wk_p 0; wk_p 1]]);
   ([], [[wk_n 0; wk_n 2]]);
   ([], []);
   ([], [[wk_p 5; wk_n 2; wk_p 0]]);
   ([], [[wk_n 5]])].
Definition wk_start : solver := mkS (mkDb wk_cs []) (trail_new 6 1) wk_script [VBool 0; VRat 0; VBool 5] 0.

(** The plugin makes a and b true at level 2 because of l, which is false at level 1. The first conflict is minimised to (l or m), both of
    level 1, and the semantic split decides l again, at level 2, without undoing level 1, where y is true because of l. The second conflict
    makes l false because of y. The third conflict (p or not y or l) is now minimised to p: y and l are each removed because of
    the other. The clause p is not a consequence of the clauses, and with (not p) the answer is unsat. *)
Theorem C58_refuted : exists (TS HS : Type) (th : theory TS) (he : heur HS) (hash : lit -> N)
    (tm : TS -> (nat -> bool) -> Prop) (PI : TS -> db -> trail -> Prop) (cs : list clause) (n0 : nat)
    (fuel : nat) (t0 : trail) (ts0 : TS) (h : HS) (old : nat) s',
  plugin_ok false th tm PI /\
  (forall c l, In c cs -> In l c -> lord l < n0) /\ n0 <= mnum (t_bm t0) /\
  fresh_trail t0 /\ (0 <= mgts (t_bm t0))%Z /\ PI ts0 (mkDb cs []) t0 /\
  picks_unassigned th he hash (mkS (mkDb cs []) t0 ts0 h old) /\
  run th he hash fuel (mkS (mkDb cs []) t0 ts0 h old) = Ok (s', Unsat) /\
  exists a, tm ts0 a /\ all_hold a cs.
Proof.
  exists _, _, script_theory, script_heur, (fun _ => 0%N), any_model, (fun _ _ _ => True), wk_cs, 6, 20, (trail_new 6 1), wk_script, [VBool 0; VRat 0; VBool 5], 0.
  eexists. split; [exact script_plugin|]. split.
  { intros c l Hc Hl. cbn in Hc. repeat (destruct Hc as [<-|Hc]; [cbn in Hl; repeat (destruct Hl as [<-|Hl]; [cbn; lia|]); easy|]). easy. }
  split; [cbn; lia|]. split; [split; cbn; auto|]. split; [cbn; lia|]. split; [exact I|]. split; [apply script_picks|].
  split; [vm_compute; reflexivity|]. exists (fun i => i =? 0). split; [exact I|].
  intros c Hc. cbn in Hc. unfold clause_holds.
  repeat (destruct Hc as [<-|Hc]; [first [exists (wk_p 0); split; [cbn; tauto|reflexivity]|exists (wk_n 2); split; [cbn; tauto|reflexivity]|exists (wk_n 5); split; [cbn; tauto|reflexivity]]|]). easy.
Qed.
Print Assumptions C58_refuted.

(** ** The hypotheses of [C58_unsat_sound_partial] *)
(** variables: 0 l, 1 a, 2 z. The plugin makes a true at level 2 because of l, of level 1; no conflict raises a level. *)
Definition wl_cs : list clause := [[wk_p 1; wk_p 0]; [wk_n 1; wk_p 0]; [wk_n 0]].
Definition wl_script : list entry_ops :=
  [([], []); ([], []); ([(wk_p 1, Some (CAsserted 0), 2)], [[wk_n 1; wk_p 0]]); ([], [[wk_p 0]]); ([], [[wk_n 0]])].
Definition wl_start : solver := mkS (mkDb wl_cs []) (trail_new 3 0) wl_script [VBool 0; VBool 2] 0.
Definition wl_next (s : solver) : solver := match step script_theory script_heur (fun _ => 0%N) 0 s with Ok (s', _) => s' | _ => s end.
Definition wl_states : list solver := [wl_start; wl_next wl_start; wl_next (wl_next wl_start); wl_next (wl_next (wl_next wl_start));
  wl_next (wl_next (wl_next (wl_next wl_start)))].
Lemma wl_fuel fuel s : step script_theory script_heur (fun _ => 0%N) fuel s = step script_theory script_heur (fun _ => 0%N) 0 s.
Proof. reflexivity. Qed.
Lemma wl_reach s : reach script_theory script_heur (fun _ => 0%N) wl_start s -> In s wl_states.
Proof.
  induction 1 as [|s fuel s' R IH E]; [left; reflexivity|]. rewrite wl_fuel in E.
  assert (W : wl_next s = s') by (unfold wl_next; rewrite E; reflexivity). subst s'. unfold wl_states in *.
  destruct IH as [<-|[<-|[<-|[<-|[<-|[]]]]]]; cbn [In]; auto 8. exfalso. vm_compute in E. discriminate E.
Qed.
Example C58_nonvacuous : exists s',
  levels_never_rise script_theory script_heur (fun _ => 0%N) wl_start /\
  run script_theory script_heur (fun _ => 0%N) 20 wl_start = Ok (s', Unsat) /\
  exists s d ts t cs, In s wl_states /\ th_propagate script_theory 0 (s_th s) (s_db s) (s_trail s) = Ok (ts, d, t, cs) /\
    lit_level t (wk_p 1) = Some 2 /\ t_rsn t (VBool 1) = Some (CAsserted 0) /\ lit_level t (wk_p 0) = Some 1.
Proof.
  eexists. split; [|split; [vm_compute; reflexivity|]].
  - intros s fuel ts d t cs s' R P C E i k k' L L'. apply wl_reach in R.
    destruct R as [<-|[<-|[<-|[<-|[<-|[]]]]]]; vm_compute in P; injection P as <- <- <- <-; try (exfalso; apply C; reflexivity);
      vm_compute in E; try discriminate E; injection E as <-; destruct i as [|[|[|i]]]; vm_compute in L, L'; try discriminate L; try discriminate L';
      injection L as <-; injection L' as <-; lia.
  - exists (wl_next (wl_next wl_start)). eexists _, _, _, _. split; [right; right; left; reflexivity|].
    split; [vm_compute; reflexivity|]. repeat split; vm_compute; reflexivity.
Qed.
