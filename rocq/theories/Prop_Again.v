(** C48, the solver's part: the later checks of a process keep the trail of the first. *)
From Coq Require Import List Arith ZArith QArith Qcanon NArith Bool Lia.
From Verif Require Import Base Core_Model Bool_Model Trail_Model Spec_Trail Solver_Model Spec_Sat Theory_Toy
  Lincons_Model Lra_Model Lra_Examples Comb_Model Prop_Comb
  Terms_Model Spec_Terms Terms_Proofs TermMgr_Model Spec_TermMgr Spec_Visitor
  Internalizer_Model Spec_Internalizer Check_Model Spec_Check Again_Model Prop_Terms Prop_Visitor Prop_Internalizer Prop_Check.
Import ListNotations.
Close Scope Qc_scope.
Close Scope Q_scope.
Open Scope nat_scope.

(** ** The propositional solver *)
(** boolean propagation has visited all of the trail *)
Definition seen (b : bstate) (t : trail) : Prop := b_level b = Some (dl t) /\ b_next b = length (recent t).

(** After a check that left assigned variables, all of them visited by boolean propagation, every later check in which the variable order
    finds no variable without a value answers sat, whatever clauses [cs] it is given, and with the trail of the earlier check. *)
Theorem C48_stale : forall HS (he : heur HS) hash fuel s cs (hs : db -> trail -> HS) h',
  trail_empty (s_trail s) = false -> seen (s_th s) (s_trail s) ->
  h_pick he (hs (mkDb cs []) (s_trail s)) (mkDb cs []) (s_trail s) = (h', None) ->
  exists s', run bool_theory he hash (S fuel) (next_solver s cs (s_trail s) (s_th s) hs) = Ok (s', Sat) /\ s_trail s' = s_trail s.
Proof.
  intros HS he hash fuel s cs hs h' TE (L & N) P. cbn [run]. unfold step, next_solver. cbn [s_th s_db s_trail s_he s_old th_propagate bool_theory].
  unfold bool_propagate, bool_initialize. rewrite TE. cbn [bind]. unfold theory_assigned. rewrite L, Nat.eqb_refl, N, <- (rev_length (recent (s_trail s))), skipn_all.
  cbn [push_assigned bcp_loop bind b_watched]. rewrite P. cbn [bind]. eexists. split; [reflexivity|]. reflexivity.
Qed.
Print Assumptions C48_stale.

(** the hypotheses hold after the first check of the clause x or y *)
Definition ag_first := check_bool toy_heur (fun _ => 0%N) 20 2 [[mkLit 0 false; mkLit 1 false]] PhasePositive tt.
Example C48_stale_nonvacuous : exists s h',
  ag_first = Ok (s, Sat) /\ trail_empty (s_trail s) = false /\ seen (s_th s) (s_trail s) /\
  h_pick toy_heur tt (mkDb [[mkLit 0 false]; [mkLit 0 true]] []) (s_trail s) = (h', None).
Proof.
  destruct ag_first as [[s [|]]| |] eqn:E; vm_compute in E; try discriminate E. injection E as <-.
  eexists _, tt. repeat split.
Qed.

(** ** Whole checks *)
Definition ag_a1 : list term := [mkT 5 false].
Definition ag_a2 : list term := [mkT 5 false; mkT 3 false; mkT 3 true].
Definition tr_out (x : res (option (list nat * ist))) : list nat * ist := match x with Ok (Some y) => y | _ => ([], is_new) end.
Definition ag_st1 := tr_out (translate false Hi Hv v_T1 [] is_new ag_a1).
Definition ag_st2 := tr_out (translate false Hi Hv v_T1 (fst ag_st1) (snd ag_st1) ag_a2).
Definition ag_c1 := check_assertions Hi Hv q_opt false toy_heur (fun _ => 0%N) 50 50 PhasePositive (fun _ _ => tt) v_T1 ag_a1.
Definition ag_s1 : solver (TS := bstate * lra) (HS := unit) :=
  match ag_c1 with Ok (_, Some (_, s)) => s | _ => mkS (mkDb [] []) (trail_new 0 0) (bstate_new PhasePositive, lra_new) tt 0 end.
Definition ag_c2 := check_again Hi Hv q_opt false toy_heur (fun _ => 0%N) 50 50 (fun _ _ => tt) v_T1 (fst ag_st1) (snd ag_st1) ag_s1 ag_a2.
(** check (or x y); then check (or x y), x, (not x). The first answer is sat. The second check is given the clauses x and (not x), which no
    assignment satisfies, and answers sat too: its search starts from the trail of the first and looks at none of the clauses. *)
Theorem C48_again_refuted : exists T a1 p st s a2 p' st' x,
  reach H0 T /\ Forall (bool_t T) a1 /\ Forall (bool_t T) a2 /\
  translate false Hi Hv T [] is_new a1 = Ok (Some (p, st)) /\
  check_assertions Hi Hv q_opt false toy_heur (fun _ => 0%N) 50 50 PhasePositive (fun _ _ => tt) T a1 = Ok (Sat, Some (st, s)) /\
  translate false Hi Hv T p st a2 = Ok (Some (p', st')) /\
  check_again Hi Hv q_opt false toy_heur (fun _ => 0%N) 50 50 (fun _ _ => tt) T p st s a2 = Ok (Sat, x) /\
  (forall b r, ~ solves st' b r) /\ (forall I, ~ satisfies I T a2).
Proof.
  exists v_T1, ag_a1, (fst ag_st1), (snd ag_st1), ag_s1, ag_a2, (fst ag_st2), (snd ag_st2),
    (match ag_c2 with Ok (_, x) => x | _ => None end).
  split; [exact v_reach1|]. split; [apply bools_ok; vm_compute; reflexivity|]. split; [apply bools_ok; vm_compute; reflexivity|].
  split; [vm_compute; reflexivity|]. split; [vm_compute; reflexivity|]. split; [vm_compute; reflexivity|].
  split; [vm_compute; reflexivity|]. split.
  - intros b r (_ & S). let c := eval vm_compute in (is_cls (snd ag_st2)) in change (is_cls (snd ag_st2)) with c in S.
    inversion S as [|? ? S1 S2]; subst. inversion S2 as [|? ? S3 S4]; subst. inversion S4 as [|? ? S5 S6]; subst. clear S S2 S4 S6.
    destruct S3 as (l & [<-|[]] & S3). destruct S5 as (l & [<-|[]] & S5). revert S3 S5. vm_compute. intros S3 S5. congruence.
  - intros I S. inversion S as [|? ? S1 S2]; subst. inversion S2 as [|? ? S3 S4]; subst. inversion S4 as [|? ? S5 S6]; subst.
    vm_compute in S3, S5. destruct I as [ib ir fb fr]. destruct (ib 3); discriminate.
Qed.
Print Assumptions C48_again_refuted.
