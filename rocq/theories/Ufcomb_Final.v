(** Answers of a complete check with boolean propagation, linear arithmetic and uninterpreted functions. *)
From Coq Require Import List Arith ZArith QArith Qcanon NArith Bool Lia Permutation.
From Verif Require Import Base Terms_Model Spec_Terms Terms_Proofs TermMgr_Model Spec_TermMgr TermMgr_Base TermMgr_Arith TermMgr_Term
  Internalizer_Model Spec_Internalizer Internalizer_Proofs Uf_Model Spec_Uf Uf_Proofs Uf_Confl Ufcomb_Model Ufcomb_Eq Ufcomb_Watch Ufcomb_Level.
From Verif Require Import Base Core_Model Literal_Proofs Analysis_Model Bool_Model Sat_Base Sat_Inv Sat_Trail Sat_Prop Sat_Bcp Sat_Main Sort_Proofs
  Trail_Model Spec_Trail Trail_Proofs Solver_Model Spec_Sat Spec_Theory Theory_Inv Theory_Strict Theory_Sound Theory_Bool Comb_Bcp Theory_Level
  Lincons_Model Spec_Lincons Lincons_Proofs Lincons_Proofs2 Lra_Model Spec_Lra Lra_Fm Lra_Bounds Lra_Hist Lra_Steps Lra_Keep
  Lra_Range Lra_Good Lra_Confl Lra_Watch Lra_Watch2 Comb_Model Comb_Lra Spec_Comb Comb_Final.
Import ListNotations.
Close Scope Qc_scope.
Close Scope Q_scope.
Open Scope nat_scope.

Section Answers.
Variables (hi : nat -> Z) (hv : Q -> Z) (opt : lopt) (HU : o_unassigned opt = false).
Variables (H : hashes) (T : table) (bv : list (term * lit)) (rv : list (term * nat)).
Hypothesis WF : wf H T.
Hypothesis M : maps_ok T rv.
Context {HS : Type} (he : heur HS) (hash : lit -> N).
Variables (df : nat) (h : list (request * lit)) (a : lra) (u : uf) (t : trail) (cs : list clause) (o : phase_opt) (hs : HS).
Hypothesis NC : nc_ok T bv rv (map fst (u_watch u)).
Hypothesis HPb : problem hi hv opt h a t.
Hypothesis HR : forall c l, In c cs -> In l c -> lord l < mnum (t_bm t).
Hypothesis HW : Forall (wl_ok T rv (mnum (t_qm t))) (u_watch u).
Hypothesis HF0 : u_fns u = [].
Let s0 := mkS (mkDb cs []) t (bstate_new o, a, u) hs 0.
Let th := ul_theory hi hv opt T bv rv df.
Let ws := map fst (u_watch u).
Hypothesis HP : picks_unassigned th he hash s0.

Lemma start_PE3 : PE3 hi hv opt (mnum (t_qm t)) (l_st a) T bv rv ws (bstate_new o, a, u) (mkDb cs []) t.
Proof.
  pose proof (problem_SU hi hv opt h a t HPb) as [R W N TTt F G C NE Me A].
  assert (D0 : dl t = 0) by (unfold dl; now rewrite (ft_levels _ F)).
  split; [exact (start_PE hi hv opt h a t cs o HPb HR)|]. cbn [snd]. rewrite D0. split.
  - split; [exact HW|]. split; [reflexivity|]. intros f m e Hf. rewrite HF0 in Hf. destruct Hf.
  - intros x Hx w0 j E0 Lw HPj. cbn in HPj. lia.
Qed.
Lemma ucheck_cases fuel s' ans : check_uflra hi hv opt T bv rv he hash df fuel cs o a u t hs = Ok (s', ans) ->
  match ans with
  | Unsat => ~ exists m, utm T rv (bstate_new o, a, u) m /\ all_hold m cs
  | Sat => sat_state th he (PD3 hi hv opt (mnum (t_qm t)) (l_st a) T bv rv ws) cs (reach th he hash s0) s'
  end.
Proof.
  pose proof (problem_SU hi hv opt h a t HPb) as [R W N TTt F G C NE Me A].
  intros HC. eapply (run_level_start th he hash (utm T rv) _ _ _ _ (ul_level hi hv opt df (mnum (t_qm t)) (l_st a) HU H T bv rv WF M ws NC) cs (mnum (t_bm t)) HR) in HC; eauto.
  apply start_PE3.
Qed.
Lemma uunsat_answer fuel s' : check_uflra hi hv opt T bv rv he hash df fuel cs o a u t hs = Ok (s', Unsat) ->
  ~ exists I b r, solution h cs b r /\ Spec_Uf.reads T rv I r.
Proof.
  intros HC (I & b & r & H1 & H2). apply ucheck_cases in HC. apply HC. exists b. split; [|apply H1]. exists I, r. split; auto.
  exact (solution_consistent hi hv opt h a t cs HPb b r H1).
Qed.
Lemma usat_answer fuel s' : picks_all th he hash s0 ->
  check_uflra hi hv opt T bv rv he hash df fuel cs o a u t hs = Ok (s', Sat) ->
  solution h cs (mval (t_bm (s_trail s'))) (mval (t_qm (s_trail s'))) /\
  (forall v, in_range (mnum (t_bm t)) (mnum (t_qm t)) v = true -> is_def (s_trail s') v = true) /\
  TT (s_trail s') /\ tab_ok T bv rv false ws (s_trail s') (u_fns (snd (s_th s'))) /\
  forall tm, In tm ws -> exists j, recorded T bv rv (u_fns (snd (s_th s'))) (s_trail s') tm j.
Proof.
  intros HA HC. apply ucheck_cases in HC. destruct HC as ((HPD & HUC) & HUn & HF & s1 & f1 & h1 & R1 & EP & EK).
  specialize (HA _ _ _ _ _ _ R1 EP EK). cbn [s0 s_trail] in HA.
  split; [exact (PD_solution hi hv opt h a t cs HPb HR _ _ _ HPD HUn HF HA)|]. split; [exact HA|].
  destruct HUC as [(U1 & U2 & U3) RC]. split; [apply HPD|]. split; [exact U3|]. intros tm Ht. rewrite <- U2 in Ht. apply in_map_iff in Ht. destruct Ht as (x & <- & Hx).
  destruct (proj1 (Forall_forall _ _) U1 x Hx) as (Nx & Vx & _). destruct (snd x) as [|w l] eqn:Ex; [congruence|].
  destruct (Vx w (or_introl eq_refl)) as (r & -> & Lr).
  assert (D : is_def (s_trail s') (VRat r) = true) by (apply HA; now apply Nat.ltb_lt).
  assert (HT : TT (s_trail s')) by apply HPD.
  cbn in D. apply tt_q in D; auto. unfold lv in D. destruct (t_lvl (s_trail s') (VRat r)) as [j|] eqn:Ej; [|congruence]. exists j.
  apply (RC x Hx (VRat r) j); auto; [now rewrite Ex|]. pose proof (tt_le _ _ _ HT Ej). cbn. lia.
Qed.
Lemma usizes s fuel ts d t' : reach th he hash s0 s ->
  th_propagate th fuel (s_th s) (s_db s) (s_trail s) = Ok (ts, d, t', []) ->
  mnum (t_bm t) <= mnum (t_bm t') /\ mnum (t_qm t') = mnum (t_qm t).
Proof.
  pose proof (problem_SU hi hv opt h a t HPb) as [R W N TTt F G C NE Me A].
  intros R1 EP. destruct (propagate_level th he hash (utm T rv) _ _ _ _ (ul_level hi hv opt df (mnum (t_qm t)) (l_st a) HU H T bv rv WF M ws NC) cs (mnum (t_bm t)) HR t (bstate_new o, a, u) hs 0 s fuel ts d t' F G (le_n _) start_PE3 HP R1 EP) as (P & _ & Q0).
  split; auto. destruct P as (((_ & _ & _ & L & _) & _) & _). apply L.
Qed.
End Answers.
