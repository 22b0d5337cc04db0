(** C33, C56, C57: complete checks with boolean propagation and linear arithmetic (logic QF_LRA). *)
From Coq Require Import List Arith ZArith QArith NArith Bool Lia.
From Verif Require Import Base Core_Model Bool_Model Trail_Model Spec_Trail Solver_Model Spec_Sat Spec_Theory Theory_Toy
  Lincons_Model Spec_Lincons Lra_Model Lra_Examples Comb_Model Spec_Comb Comb_Final.
Import ListNotations.
Open Scope nat_scope.

Section Statements.
Context {HS : Type}.
(** the solver before the first iteration of check() *)
Definition start (cs : list clause) (o : phase_opt) (a : lra) (t : trail) (hs : HS) :=
  mkS (mkDb cs []) t (bstate_new o, a) hs 0.
(** the clauses only mention existing variables *)
Definition clauses_in (t : trail) (cs : list clause) : Prop := forall c l, In c cs -> In l c -> lord l < mnum (t_bm t).
End Statements.

(** C33: at every moment of a check at which a propagate() found no conflict, the literal of a linear
    constraint of the problem whose variables are assigned is on the trail, and it is true iff the
    constraint holds at the assigned values. *)
Theorem C33 : forall hi hv opt HS (he : heur HS) hash df h a t cs o hs s fuel ts d t' q l,
  o_unassigned opt = false -> problem hi hv opt h a t -> clauses_in t cs ->
  picks_unassigned (bl_theory hi hv opt df) he hash (start cs o a t hs) ->
  reach (bl_theory hi hv opt df) he hash (start cs o a t hs) s ->
  th_propagate (bl_theory hi hv opt df) fuel (s_th s) (s_db s) (s_trail s) = Ok (ts, d, t', []) ->
  In (q, l) h -> (forall v k, In (v, k) (rq_terms q) -> ~ (k == 0)%Q -> mdef (t_qm t') v = true) ->
  mdef (t_bm t') (lord l) = true /\ (Spec_Sat.lit_holds (mval (t_bm t')) l = true <-> req_holds (mval (t_qm t')) q).
Proof.
  intros hi hv opt HS he hash df h a t cs o hs s fuel ts d t' q l HU HPb HR HP.
  exact (evaluated hi hv opt HU he hash df h a t cs o hs HPb HR HP s fuel ts d t' q l).
Qed.
Print Assumptions C33.

(** C56: if check() answers unsat, the problem has no solution. *)
Theorem C56 : forall hi hv opt HS (he : heur HS) hash df fuel h a t cs o hs s',
  o_unassigned opt = false -> problem hi hv opt h a t -> clauses_in t cs ->
  picks_unassigned (bl_theory hi hv opt df) he hash (start cs o a t hs) ->
  check_lra hi hv opt he hash df fuel cs o a t hs = Ok (s', Unsat) ->
  ~ exists b r, solution h cs b r.
Proof.
  intros hi hv opt HS he hash df fuel h a t cs o hs s' HU HPb HR HP.
  exact (unsat_answer hi hv opt HU he hash df h a t cs o hs HPb HR HP fuel s').
Qed.
Print Assumptions C56.

(** C57: if check() answers sat, every variable of the problem has a value and the values in the models are a solution. *)
Theorem C57 : forall hi hv opt HS (he : heur HS) hash df fuel h a t cs o hs s',
  o_unassigned opt = false -> problem hi hv opt h a t -> clauses_in t cs ->
  picks_unassigned (bl_theory hi hv opt df) he hash (start cs o a t hs) ->
  picks_all (bl_theory hi hv opt df) he hash (start cs o a t hs) ->
  check_lra hi hv opt he hash df fuel cs o a t hs = Ok (s', Sat) ->
  (forall v, in_range (mnum (t_bm t)) (mnum (t_qm t)) v = true -> is_def (s_trail s') v = true) /\
  solution h cs (mval (t_bm (s_trail s'))) (mval (t_qm (s_trail s'))).
Proof.
  intros hi hv opt HS he hash df fuel h a t cs o hs s' HU HPb HR HP HA E. split.
  - exact (sat_assigned hi hv opt HU he hash df h a t cs o hs HPb HR HP fuel s' HA E).
  - exact (sat_answer hi hv opt HU he hash df h a t cs o hs HPb HR HP fuel s' HA E).
Qed.
Print Assumptions C57.

(** The two answers exclude each other, whatever the orders, restarts, hash functions and fuel are. *)
Corollary C56_C57_agree : forall hi hv opt hi' hv' opt' HS (he : heur HS) HS' (he' : heur HS') hash hash' df df' fuel fuel' h a t a' t' cs o o' hs hs' s s',
  o_unassigned opt = false -> o_unassigned opt' = false ->
  problem hi hv opt h a t -> problem hi' hv' opt' h a' t' -> clauses_in t cs -> clauses_in t' cs ->
  picks_unassigned (bl_theory hi hv opt df) he hash (start cs o a t hs) ->
  picks_unassigned (bl_theory hi' hv' opt' df') he' hash' (start cs o' a' t' hs') ->
  picks_all (bl_theory hi' hv' opt' df') he' hash' (start cs o' a' t' hs') ->
  check_lra hi hv opt he hash df fuel cs o a t hs = Ok (s, Unsat) ->
  check_lra hi' hv' opt' he' hash' df' fuel' cs o' a' t' hs' = Ok (s', Sat) -> False.
Proof.
  intros. match goal with H : check_lra _ _ _ _ _ _ _ _ _ _ _ _ = Ok (_, Unsat) |- _ => eapply C56 in H; eauto end.
  match goal with H : check_lra _ _ _ _ _ _ _ _ _ _ _ _ = Ok (_, Sat) |- _ => eapply C57 in H; eauto; destruct H end. eauto.
Qed.
Print Assumptions C56_C57_agree.

(** ** examples *)
(** rationals x0, x1; literal 0 is a plain boolean variable *)
Fixpoint make_all (opt : lopt) (qs : list request) (x : res (list (request * lit) * lra * trail)) :=
  match qs with
  | [] => x
  | q :: qs' =>
      make_all opt qs'
        ('(h, a, t) <- x ;;
         '(a', t', c) <- lra_constraint ex_hash ex_hashq opt a t (rq_terms q) (rq_pred q) (rq_rhs q) ;;
         Ok ((q, lc_lit c) :: h, a', t'))
  end.
Definition ex_start (nb nq : nat) : res (list (request * lit) * lra * trail) :=
  Ok ([], with_st lra_new (lc_resize (l_st lra_new) nb), trail_resize (trail_new 0 0) nb nq).
Definition rq_ok (nq : nat) (q : request) : Prop := distinct_vars q /\ forall v k, In (v, k) (rq_terms q) -> v < nq.
Lemma constraint_qm opt a t q a' t' c :
  lra_constraint ex_hash ex_hashq opt a t (rq_terms q) (rq_pred q) (rq_rhs q) = Ok (a', t', c) -> mnum (t_qm t') = mnum (t_qm t).
Proof.
  unfold lra_constraint. destruct (lc_make _ _ _ _ _ _) as [s c0]. destruct (_ <=? _).
  - destruct (watch_new _ _ _); cbn [bind]; intros H; inversion H; reflexivity.
  - intros H. inversion H. reflexivity.
Qed.
Lemma make_all_problem opt nq qs : Forall (rq_ok nq) qs -> forall h0 a0 t0 h a t,
  problem ex_hash ex_hashq opt h0 a0 t0 -> mnum (t_qm t0) = nq ->
  make_all opt qs (Ok (h0, a0, t0)) = Ok (h, a, t) -> problem ex_hash ex_hashq opt h a t.
Proof.
  induction 1 as [|q qs [Hd Hv] HF IH]; intros h0 a0 t0 h a t P N H; cbn [make_all bind] in H.
  - inversion H. now subst.
  - destruct (lra_constraint ex_hash ex_hashq opt a0 t0 (rq_terms q) (rq_pred q) (rq_rhs q)) as [[[a1 t1] c]| |] eqn:E; cbn [bind] in H.
    + eapply IH; [|rewrite (constraint_qm _ _ _ _ _ _ _ E); exact N|exact H]. eapply pb_constraint; eauto. now rewrite N.
    + exfalso. revert H. clear. induction qs as [|q qs IH]; cbn [make_all bind]; [discriminate|exact IH].
    + exfalso. revert H. clear. induction qs as [|q qs IH]; cbn [make_all bind]; [discriminate|exact IH].
Qed.
(** x0 + x1 <= 1, x0 >= 1, x1 > 0, x0 = x1 *)
Definition ex_qs : list request :=
  [mkReq [(0, 1%Q); (1, 1%Q)] PLeq 1%Q; mkReq [(0, (-1)%Q)] PLeq (-1)%Q; mkReq [(1, (-1)%Q)] PLt 0%Q; mkReq [(0, 1%Q); (1, (-1)%Q)] PEq 0%Q].
Lemma ex_qs_ok : Forall (rq_ok 2) ex_qs.
Proof.
  unfold ex_qs. repeat (apply Forall_cons; [split; [unfold distinct_vars; cbn; repeat (apply NoDup_cons; [cbn; intuition discriminate|]); apply NoDup_nil|
    cbn; intros v k H; repeat (destruct H as [H|H]; [inversion H; lia|]); easy]|]). apply Forall_nil.
Qed.
Definition ex_opt : lopt := mkOpt true false true true.
Definition ex_pb : list (request * lit) * lra * trail :=
  match make_all ex_opt ex_qs (ex_start 1 2) with Ok x => x | _ => ([], lra_new, trail_new 0 0) end.
Lemma ex_problem : problem ex_hash ex_hashq ex_opt (fst (fst ex_pb)) (snd (fst ex_pb)) (snd ex_pb).
Proof.
  assert (P0 : problem ex_hash ex_hashq ex_opt [] (with_st lra_new (lc_resize (l_st lra_new) 1)) (trail_resize (trail_new 0 0) 1 2))
    by (apply pb_vars; [constructor|cbn; lia|cbn; lia]).
  unfold ex_pb. destruct (make_all ex_opt ex_qs (ex_start 1 2)) as [[[h a] t]| |] eqn:E; [|vm_compute in E; discriminate E..].
  exact (make_all_problem ex_opt 2 ex_qs ex_qs_ok _ _ _ _ _ _ P0 eq_refl E).
Qed.
Definition pl (i : nat) : lit := mkLit i false.
Definition nl (i : nat) : lit := mkLit i true.
(** p0 or x0 + x1 <= 1; x0 >= 1; x1 > 0; p0 implies x0 = x1 *)
Definition ex_sat : list clause := [[pl 1; pl 0]; [nl 2]; [nl 3]; [nl 0; pl 4]].
(** and x0 + x1 <= 1 iff x0 = x1 *)
Definition ex_unsat : list clause := ex_sat ++ [[nl 1; pl 4]; [pl 1; nl 4]].
Lemma ex_in cs : forallb (forallb (fun l => lord l <? mnum (t_bm (snd ex_pb)))) cs = true -> clauses_in (snd ex_pb) cs.
Proof. intros H c l Hc Hl. apply Nat.ltb_lt. rewrite forallb_forall in H. specialize (H c Hc). rewrite forallb_forall in H. now apply H. Qed.
Lemma toy_all hi hv opt df hash h a t cs o : o_unassigned opt = false -> problem hi hv opt h a t -> clauses_in t cs ->
  picks_all (bl_theory hi hv opt df) toy_heur hash (start cs o a t tt).
Proof.
  intros HU HPb HR s fuel ts d t' hh R EP EK v Hv.
  destruct (sizes hi hv opt HU toy_heur hash df _ _ _ cs o tt HPb HR (toy_picks _ _ _) s fuel ts d t' R EP) as [S1 S2].
  cbn in EK. injection EK as _ EK. unfold toy_pick in EK.
  destruct (is_def t' v) eqn:D; auto. exfalso.
  match type of EK with match ?l with _ => _ end = _ => destruct l as [|v' l'] eqn:E; [|discriminate] end.
  assert (Hin : In v (filter (fun v => negb (is_def t' v)) (map VRat (seq 0 (mnum (t_qm t'))) ++ map VBool (seq 0 (mnum (t_bm t')))))).
  { apply filter_In. split; [|now rewrite D]. apply in_app_iff. destruct v as [i|i]; [right|left]; apply in_map_iff; exists i; (split; [reflexivity|]); apply in_seq;
      cbn [in_range start s_trail] in Hv; apply Nat.ltb_lt in Hv; lia. }
  rewrite E in Hin. destruct Hin.
Qed.
(** an unsatisfiable problem: a linear constraint (variable 5) is derived, three clauses are learned *)
Example C56_nonvacuous : exists s',
  problem ex_hash ex_hashq ex_opt (fst (fst ex_pb)) (snd (fst ex_pb)) (snd ex_pb) /\ clauses_in (snd ex_pb) ex_unsat /\
  picks_unassigned (bl_theory ex_hash ex_hashq ex_opt 50) toy_heur (fun _ => 0%N) (start ex_unsat PhasePositive (snd (fst ex_pb)) (snd ex_pb) tt) /\
  check_lra ex_hash ex_hashq ex_opt toy_heur (fun _ => 0%N) 50 50 ex_unsat PhasePositive (snd (fst ex_pb)) (snd ex_pb) tt = Ok (s', Unsat) /\
  length (learned (s_db s')) = 3 /\ mnum (t_bm (snd ex_pb)) = 5 /\ mnum (t_bm (s_trail s')) = 6.
Proof.
  assert (B : match check_lra ex_hash ex_hashq ex_opt toy_heur (fun _ => 0%N) 50 50 ex_unsat PhasePositive (snd (fst ex_pb)) (snd ex_pb) tt with
    | Ok (s', Unsat) => (length (learned (s_db s')) =? 3) && (mnum (t_bm (snd ex_pb)) =? 5) && (mnum (t_bm (s_trail s')) =? 6)
    | _ => false end = true) by (vm_compute; reflexivity).
  destruct (check_lra ex_hash ex_hashq ex_opt toy_heur (fun _ => 0%N) 50 50 ex_unsat PhasePositive (snd (fst ex_pb)) (snd ex_pb) tt) as [[s' [|]]| |];
    try discriminate B.
  apply andb_true_iff in B. destruct B as [B B3]. apply andb_true_iff in B. destruct B as [B1 B2]. apply Nat.eqb_eq in B1, B2, B3.
  exists s'. split; [exact ex_problem|]. split; [apply ex_in; vm_compute; reflexivity|]. split; [apply toy_picks|].
  split; [reflexivity|]. split; [exact B1|]. split; [exact B2|exact B3].
Qed.
(** a satisfiable one: x0 = x1 = 1 *)
Example C57_nonvacuous : exists s',
  problem ex_hash ex_hashq ex_opt (fst (fst ex_pb)) (snd (fst ex_pb)) (snd ex_pb) /\ clauses_in (snd ex_pb) ex_sat /\
  picks_unassigned (bl_theory ex_hash ex_hashq ex_opt 50) toy_heur (fun _ => 0%N) (start ex_sat PhasePositive (snd (fst ex_pb)) (snd ex_pb) tt) /\
  picks_all (bl_theory ex_hash ex_hashq ex_opt 50) toy_heur (fun _ => 0%N) (start ex_sat PhasePositive (snd (fst ex_pb)) (snd ex_pb) tt) /\
  check_lra ex_hash ex_hashq ex_opt toy_heur (fun _ => 0%N) 50 50 ex_sat PhasePositive (snd (fst ex_pb)) (snd ex_pb) tt = Ok (s', Sat) /\
  map (mval (t_qm (s_trail s'))) [0; 1] = [1%Q; 1%Q] /\ map (mval (t_bm (s_trail s'))) [0; 1; 2; 3; 4] = [true; false; false; false; true].
Proof.
  assert (B : match check_lra ex_hash ex_hashq ex_opt toy_heur (fun _ => 0%N) 50 50 ex_sat PhasePositive (snd (fst ex_pb)) (snd ex_pb) tt with
    | Ok (s', Sat) => (map (mval (t_qm (s_trail s'))) [0; 1], map (mval (t_bm (s_trail s'))) [0; 1; 2; 3; 4])
    | _ => ([], []) end = ([1%Q; 1%Q], [true; false; false; false; true])) by (vm_compute; reflexivity).
  destruct (check_lra ex_hash ex_hashq ex_opt toy_heur (fun _ => 0%N) 50 50 ex_sat PhasePositive (snd (fst ex_pb)) (snd ex_pb) tt) as [[s' [|]]| |];
    try discriminate B.
  injection B as B1 B2 B3 B4 B5 B6 B7.
  exists s'. split; [exact ex_problem|]. split; [apply ex_in; vm_compute; reflexivity|]. split; [apply toy_picks|].
  split; [apply (toy_all ex_hash ex_hashq ex_opt 50 (fun _ => 0%N) _ _ _ ex_sat PhasePositive eq_refl ex_problem); apply ex_in; vm_compute; reflexivity|]. split; [reflexivity|].
  cbn [map]. rewrite B1, B2, B3, B4, B5, B6, B7. split; reflexivity.
Qed.
(** C33: the state of the second run after the decisions of x0 and x1; all constraints are evaluated *)
Example C33_nonvacuous : exists s ts d t',
  reach (bl_theory ex_hash ex_hashq ex_opt 50) toy_heur (fun _ => 0%N) (start ex_sat PhasePositive (snd (fst ex_pb)) (snd ex_pb) tt) s /\
  th_propagate (bl_theory ex_hash ex_hashq ex_opt 50) 50 (s_th s) (s_db s) (s_trail s) = Ok (ts, d, t', []) /\
  dl t' = 2 /\ mdef (t_qm t') 0 = true /\ mdef (t_qm t') 1 = true /\ length (fst (fst ex_pb)) = 4.
Proof.
  set (th := bl_theory ex_hash ex_hashq ex_opt 50).
  assert (B : match step th toy_heur (fun _ => 0%N) 50 (start ex_sat PhasePositive (snd (fst ex_pb)) (snd ex_pb) tt) with
    | Ok (s1, None) => match step th toy_heur (fun _ => 0%N) 50 s1 with
      | Ok (s2, None) => match th_propagate th 50 (s_th s2) (s_db s2) (s_trail s2) with
        | Ok (ts, d, t', []) => (dl t' =? 2) && mdef (t_qm t') 0 && mdef (t_qm t') 1 && (length (fst (fst ex_pb)) =? 4)
        | _ => false end
      | _ => false end
    | _ => false end = true) by (vm_compute; reflexivity).
  destruct (step th toy_heur (fun _ => 0%N) 50 (start ex_sat PhasePositive (snd (fst ex_pb)) (snd ex_pb) tt)) as [[s1 [|]]| |] eqn:E1; try discriminate B.
  destruct (step th toy_heur (fun _ => 0%N) 50 s1) as [[s2 [|]]| |] eqn:E2; try discriminate B.
  destruct (th_propagate th 50 (s_th s2) (s_db s2) (s_trail s2)) as [[[[ts d] t'] [|]]| |] eqn:E3; try discriminate B.
  exists s2, ts, d, t'. split; [econstructor; [econstructor; [constructor|exact E1]|exact E2]|].
  apply andb_true_iff in B. destruct B as [B B4]. apply andb_true_iff in B. destruct B as [B B3]. apply andb_true_iff in B. destruct B as [B1 B2].
  apply Nat.eqb_eq in B1, B4. split; [exact E3|]. repeat (split; [assumption|]). assumption.
Qed.
