(** C35, C58: the unsat answers of the main loop are right for every theory plugin that keeps the
    contract of Spec_Theory.v. *)
From Coq Require Import List Arith ZArith QArith NArith Bool Lia Permutation.
From Verif Require Import Base Core_Model Analysis_Model Bool_Model Trail_Model Spec_Trail Solver_Model Spec_Sat Spec_Theory
  Theory_Bool Theory_Toy Theory_Sound.
Import ListNotations.
Open Scope nat_scope.

(** C35. Any plugin that keeps the contract, any variable order and restart policy that picks
    existing unassigned variables, any clauses, any number of steps: Unsat is answered only if no
    model of the theory satisfies the clauses. *)
Theorem C35_unsat_sound : forall (TS HS : Type) (th : theory TS) (he : heur HS) (hash : lit -> N)
    (tm : TS -> (nat -> bool) -> Prop) (PI : TS -> db -> trail -> Prop) (cs : list clause) (n0 : nat)
    (fuel : nat) (t0 : trail) (ts0 : TS) (h : HS) (old : nat) s',
  plugin_ok true th tm PI ->
  (forall c l, In c cs -> In l c -> lord l < n0) -> n0 <= mnum (t_bm t0) ->
  fresh_trail t0 -> (0 <= mgts (t_bm t0))%Z -> PI ts0 (mkDb cs []) t0 ->
  picks_unassigned th he hash (mkS (mkDb cs []) t0 ts0 h old) ->
  run th he hash fuel (mkS (mkDb cs []) t0 ts0 h old) = Ok (s', Unsat) ->
  ~ exists a, tm ts0 a /\ all_hold a cs.
Proof. intros. eapply unsat_ok_strict; eauto. Qed.
Print Assumptions C35_unsat_sound.

(** The contract is kept by the propositional plugin. *)
Theorem C35_bool_plugin : plugin_ok true bool_theory (fun _ _ => True) (bool_pi true).
Proof. exact (bool_plugin true). Qed.
Print Assumptions C35_bool_plugin.

(** It is kept by a plugin with a rational variable, and a run of that plugin decides a value of
    the rational variable, makes a semantic split and answers Unsat (first clause set), and uses a
    lemma of the theory (second clause set). *)
Example C35_nonvacuous :
  let p i := mkLit i false in let n i := mkLit i true in
  plugin_ok true toy_theory toy_models toy_pi /\
  (let cs := [[p 0; p 1]; [n 0; p 2]; [n 0; n 2]; [n 1; p 2]; [n 1; n 2]] in
   let s0 := mkS (mkDb cs []) (trail_new 3 1) (bstate_new PhasePositive) tt 0 in
   toy_pi (bstate_new PhasePositive) (mkDb cs []) (trail_new 3 1) /\
   picks_unassigned toy_theory toy_heur (fun _ => 0%N) s0 /\
   (exists s1 s2, step toy_theory toy_heur (fun _ => 0%N) 20 s0 = Ok (s1, None) /\
      t_lvl (s_trail s1) (VRat 0) = Some 1 /\
      step toy_theory toy_heur (fun _ => 0%N) 20 s1 = Ok (s2, None) /\
      t_lvl (s_trail s2) (VRat 0) = None /\ t_lvl (s_trail s2) (VBool 0) = Some 1 /\
      t_rsn (s_trail s2) (VBool 0) = None) /\
   exists s', run toy_theory toy_heur (fun _ => 0%N) 20 s0 = Ok (s', Unsat)) /\
  (let s0 := mkS (mkDb [[p 0]; [p 1]] []) (trail_new 2 1) (bstate_new PhasePositive) tt 0 in
   (exists a, all_hold a [[p 0]; [p 1]]) /\
   exists s', run toy_theory toy_heur (fun _ => 0%N) 20 s0 = Ok (s', Unsat)).
Proof.
  cbv zeta. split; [apply toy_plugin|]. split.
  - split; [|split; [apply toy_picks|split]].
    + split; [|cbn; lia]. apply tpi_fresh. intros c l Hc Hl. cbn in Hc.
      repeat (destruct Hc as [<-|Hc]; [cbn in Hl; repeat (destruct Hl as [<-|Hl]; [cbn; lia|]); easy|]). easy.
    + eexists. eexists. split; [vm_compute; reflexivity|]. split; [vm_compute; reflexivity|]. split; [vm_compute; reflexivity|].
      repeat split; vm_compute; reflexivity.
    + eexists. vm_compute. reflexivity.
  - split.
    + exists (fun _ => true). intros c [<-|[<-|[]]]; eexists; (split; [left; reflexivity|reflexivity]).
    + eexists. vm_compute. reflexivity.
Qed.

(** C58, partial: the contract without the demand on the levels inside a reason clause, for runs in
    which no conflict raises the decision level of an assigned variable. *)
Theorem C58_unsat_sound_partial : forall (TS HS : Type) (th : theory TS) (he : heur HS) (hash : lit -> N)
    (tm : TS -> (nat -> bool) -> Prop) (PI : TS -> db -> trail -> Prop) (cs : list clause) (n0 : nat)
    (fuel : nat) (t0 : trail) (ts0 : TS) (h : HS) (old : nat) s',
  plugin_ok false th tm PI ->
  (forall c l, In c cs -> In l c -> lord l < n0) -> n0 <= mnum (t_bm t0) ->
  fresh_trail t0 -> (0 <= mgts (t_bm t0))%Z -> PI ts0 (mkDb cs []) t0 ->
  picks_unassigned th he hash (mkS (mkDb cs []) t0 ts0 h old) ->
  levels_never_rise th he hash (mkS (mkDb cs []) t0 ts0 h old) ->
  run th he hash fuel (mkS (mkDb cs []) t0 ts0 h old) = Ok (s', Unsat) ->
  ~ exists a, tm ts0 a /\ all_hold a cs.
Proof. intros. eapply unsat_ok_partial; eauto. Qed.
Print Assumptions C58_unsat_sound_partial.
