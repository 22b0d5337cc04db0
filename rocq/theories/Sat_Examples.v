(** Concrete instances that show that the hypotheses of the SAT theorems can be met. *)
From Coq Require Import List Arith ZArith NArith QArith Bool Lia.
From Verif Require Import Base Core_Model Analysis_Model Bool_Model Solver_Model Spec_Sat Order_Model.
Import ListNotations.
Open Scope nat_scope.

(** Concrete instances used below: pigeonhole 3 -> 2 (unsat), and a satisfiable set with a repeated
    literal and a tautology; Evsids with a restart after every Luby(i) conflicts. *)
Definition ex_php : list clause :=
  let p i j := mkLit (2 * i + j) false in
  let q i j := mkLit (2 * i + j) true in
  [[p 0 0; p 0 1]; [p 1 0; p 1 1]; [p 2 0; p 2 1];
   [q 0 0; q 1 0]; [q 0 0; q 2 0]; [q 1 0; q 2 0];
   [q 0 1; q 1 1]; [q 0 1; q 2 1]; [q 1 1; q 2 1]].
Definition ex_sat : list clause :=
  [[mkLit 0 true; mkLit 1 true; mkLit 1 true]; [mkLit 0 true; mkLit 1 false]; [mkLit 2 false; mkLit 2 true];
   [mkLit 0 false; mkLit 3 false; mkLit 2 true]; [mkLit 3 true; mkLit 2 true]].
Definition ex_he := heur_of (evsids_order qops) luby_restart.
Definition ex_h (n : nat) (cs : list clause) := (ev_init qops (ev_new qops n) (mkDb cs []), luby_start 1).
Definition ex_hash (l : lit) : N := N.of_nat (lidx l).
Definition ex_run (n : nat) (cs : list clause) := check_bool ex_he ex_hash 200 n cs PhaseCache (ex_h n cs).


Definition moment_check {HS} (he : heur HS) hash (s0 : solver (TS := bstate) (HS := HS)) : bool :=
  match step bool_theory he hash 50 s0 with
  | Ok (s, None) =>
      match bool_propagate 50 (s_th s) (s_db s) (s_trail s) with
      | Ok (ts, d, t, [c]) => (dl t =? 1) && match t_rsn t (VBool 3) with Some _ => true | None => false end
      | _ => false
      end
  | _ => false
  end.
Lemma moment_check_ok {HS} (he : heur HS) hash s0 : moment_check he hash s0 = true ->
  exists s ts d t c, reach bool_theory he hash s0 s /\
    bool_propagate 50 (s_th s) (s_db s) (s_trail s) = Ok (ts, d, t, [c]) /\ dl t = 1 /\
    t_rsn t (VBool 3) <> None.
Proof.
  intros H. unfold moment_check in H.
  destruct (step bool_theory he hash 50 s0) as [[s [a|]]| |] eqn:E; try discriminate.
  destruct (bool_propagate 50 (s_th s) (s_db s) (s_trail s)) as [[[[ts d] t] [|c [|? ?]]]| |] eqn:EP; try discriminate.
  apply andb_true_iff in H. destruct H as [H1 H2].
  exists s, ts, d, t, c. split; [eapply reach_step; [apply reach_start|exact E]|]. split; auto.
  split; [now apply Nat.eqb_eq|]. intros K. rewrite K in H2. discriminate.
Qed.
Lemma ex_moment_lemma :
  exists s ts d t c, reach bool_theory ex_he ex_hash (solver_start 6 ex_php PhaseCache (ex_h 6 ex_php)) s /\
    bool_propagate 50 (s_th s) (s_db s) (s_trail s) = Ok (ts, d, t, [c]) /\ dl t = 1 /\
    t_rsn t (VBool 3) <> None.
Proof. apply moment_check_ok. vm_compute. reflexivity. Qed.
