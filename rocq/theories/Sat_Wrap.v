(** Final forms of the lemmas behind Prop_Sat.v. *)
From Coq Require Import List Arith ZArith NArith QArith Bool Lia Permutation.
From Verif Require Import Base Core_Model Analysis_Model Bool_Model Solver_Model Spec_Sat Order_Model
  Sat_Base Sat_Inv Subsumption_Proofs Sat_Analysis Sat_Analysis2 Sat_Main Sat_Thms Order_Proofs.
Import ListNotations.
Open Scope nat_scope.

Definition legalb (n : nat) (cs : list clause) : bool :=
  forallb (fun c => negb (is_nil c) && forallb (fun l => lord l <? n) c) cs.
Lemma legal_dec n cs : legalb n cs = true -> legal n cs.
Proof.
  intros H c Hc. unfold legalb in H. rewrite forallb_forall in H. specialize (H c Hc).
  apply andb_true_iff in H. destruct H as [H1 H2]. split.
  - intros ->. discriminate.
  - intros l Hl. rewrite forallb_forall in H2. specialize (H2 l Hl). now apply Nat.ltb_lt.
Qed.

Lemma evsids_admissible {RS} n (r : restart_policy RS) d rs :
  admissible n (heur_of (evsids_order qops) r) (ev_init qops (ev_new qops n) d, rs).
Proof.
  eexists. split; [apply heur_of_ok, evsids_q_spec|]. simpl. apply ev_init_q, ev_new_q.
Qed.
Lemma first_unassigned_admissible {RS} n (r : restart_policy RS) rs :
  admissible n (heur_of first_unassigned r) (tt, rs).
Proof. eexists. split; [apply heur_of_ok, first_unassigned_spec|]. simpl. auto. Qed.

Section Wrap.
Variables (HS : Type) (he : heur HS) (hash : lit -> N) (n : nat) (cs : list clause) (o : phase_opt) (h : HS).

Lemma sat_model_lemma fuel s :
  legal n cs -> admissible n he h -> check_bool he hash fuel n cs o h = Ok (s, Sat) ->
  (forall i, i < n -> mdef (t_bm (s_trail s)) i = true) /\ all_hold (mval (t_bm (s_trail s))) cs.
Proof. intros Hl (I & HO & Hh) E. exact (check_answer he hash n I HO cs Hl o h Hh fuel s Sat E). Qed.
Lemma unsat_lemma fuel s :
  legal n cs -> admissible n he h -> check_bool he hash fuel n cs o h = Ok (s, Unsat) -> forall a, ~ all_hold a cs.
Proof. intros Hl (I & HO & Hh) E. exact (check_answer he hash n I HO cs Hl o h Hh fuel s Unsat E). Qed.
Lemma termination_lemma : legal n cs -> admissible n he h ->
  exists k s a, forall fuel, k <= fuel -> check_bool he hash fuel n cs o h = Ok (s, a).
Proof.
  intros Hl (I & HO & Hh). destruct (check_terminates he hash n I HO cs Hl o h Hh) as (k & [s a] & H). eauto.
Qed.
Lemma decision_lemma : legal n cs -> admissible n he h ->
  exists k s a, (forall fuel, k <= fuel -> check_bool he hash fuel n cs o h = Ok (s, a)) /\
    (a = Sat <-> exists v, all_hold v cs).
Proof.
  intros Hl Ha. destruct (termination_lemma Hl Ha) as (k & s & a & H). exists k, s, a. split; auto.
  specialize (H k (le_n k)). destruct a; split; intros K; auto; try discriminate.
  - apply sat_model_lemma in H; auto. destruct H. eauto.
  - destruct K as (v & Hv). exfalso. eapply unsat_lemma; eauto.
Qed.
Let s0 := solver_start n cs o h.
Lemma learned_lemma d t : legal n cs -> admissible n he h -> moment bool_theory he hash s0 d t ->
  forall c, In c (learned d) -> entails cs c.
Proof. intros Hl (I & HO & Hh) M. exact (gd_learned _ _ _ _ (moment_good he hash n I HO cs Hl o h Hh d t M)). Qed.
Lemma asserted_lemma d t : legal n cs -> admissible n he h -> moment bool_theory he hash s0 d t ->
  length (asserted d) = length cs /\ forall i, Permutation (nth i cs []) (nth i (asserted d) []).
Proof.
  intros Hl (I & HO & Hh) M. pose proof (gd_asserted _ _ _ _ (moment_good he hash n I HO cs Hl o h Hh d t M)) as F.
  split; [symmetry; eapply Forall2_length'; eauto|]. intros i. now apply Forall2_perm_nth.
Qed.
Lemma range_lemma d t : legal n cs -> admissible n he h -> moment bool_theory he hash s0 d t ->
  legal n (asserted d ++ learned d).
Proof.
  intros Hl (I & HO & Hh) M c Hc. eapply getc_range; eauto.
  exact (gd_db _ _ _ _ (moment_good he hash n I HO cs Hl o h Hh d t M)).
Qed.
Lemma exhaustive_lemma s fuel ts d t : legal n cs -> admissible n he h -> reach bool_theory he hash s0 s ->
  bool_propagate fuel (s_th s) (s_db s) (s_trail s) = Ok (ts, d, t, []) ->
  forall c, In c (asserted d ++ learned d) ->
    eval_clause (t_bm t) c <> Some false /\
    (NoDup c -> forall l, In l c -> (forall x, In x c -> x <> l -> eval_lit (t_bm t) x = Some false) ->
       eval_lit (t_bm t) l = Some true).
Proof. intros Hl (I & HO & Hh) R E. exact (propagate_exhaustive he hash n I HO cs Hl o h Hh s fuel ts d t R E). Qed.
Lemma conflict_lemma s fuel ts d t out : legal n cs -> admissible n he h -> reach bool_theory he hash s0 s ->
  bool_propagate fuel (s_th s) (s_db s) (s_trail s) = Ok (ts, d, t, out) ->
  forall c, In c out -> In c (asserted d ++ learned d) /\ forall l, In l c -> eval_lit (t_bm t) l = Some false.
Proof. intros Hl (I & HO & Hh) R E. exact (propagate_conflict he hash n I HO cs Hl o h Hh s fuel ts d t out R E). Qed.
Lemma reasons_lemma d t v r : legal n cs -> admissible n he h -> moment bool_theory he hash s0 d t ->
  t_rsn t v = Some r ->
  In (getc d r) (asserted d ++ learned d) /\
  exists l, In l (getc d r) /\ lvar l = v /\ eval_lit (t_bm t) l = Some true /\
    forall x, In x (getc d r) -> x <> l -> eval_lit (t_bm t) x = Some false /\ assigned_before t (lvar x) v.
Proof.
  intros Hl (I & HO & Hh) M E. destruct (moment_implied he hash n I HO cs Hl o h Hh d t v r M E) as [V H].
  split; auto. now apply getc_in.
Qed.
Lemma analysis_lemma d t c : legal n cs -> admissible n he h -> moment bool_theory he hash s0 d t ->
  (forall l, In l c -> eval_lit (t_bm t) l = Some false) ->
  exists c' lvl resolved, analyze d t c = Ok (c', lvl, resolved) /\
    (forall a, clause_holds a c -> (forall v r, t_rsn t v = Some r -> clause_holds a (getc d r)) ->
       clause_holds a c') /\
    (forall l, In l c' -> eval_lit (t_bm t) l = Some false) /\
    NoDup c' /\ levels_decrease t c' /\
    ((c' = [] /\ lvl = (-1)%Z /\ forall l, In l c -> lit_level t l = Some 0) \/
     (exists l0 rest k, c' = l0 :: rest /\ lit_level t l0 = Some k /\ (0 <= lvl < Z.of_nat k)%Z /\
        (forall l, In l rest -> exists j, lit_level t l = Some j /\ (Z.of_nat j <= lvl)%Z) /\
        (rest <> [] -> exists l, In l rest /\ lit_level t l = Some (Z.to_nat lvl)) /\
        (rest = [] -> lvl = 0%Z))).
Proof.
  intros Hl (I & HO & Hh) M Hf. pose proof (gd_ti _ _ _ _ (moment_good he hash n I HO cs Hl o h Hh d t M)) as HT.
  destruct (analyze_general n d t HT c Hf) as (c' & lvl & acc & A1 & A2 & A3 & A4 & A5 & A6).
  exists c', lvl, acc. split; auto. split; auto. split; auto. split; auto. split; [now apply sorted_levels|].
  destruct A6 as [A6|(l0 & rest & k & B1 & B2 & B3 & B4 & B5 & B6 & _)]; auto.
  right. exists l0, rest, k. auto 10.
Qed.
Lemma minimise_lemma d t c : legal n cs -> admissible n he h -> moment bool_theory he hash s0 d t ->
  (forall l, In l c -> eval_lit (t_bm t) l = Some false) ->
  exists c', minimize d t c = Ok c' /\ sub c' c /\
    (forall a, clause_holds a c -> (forall v r, t_rsn t v = Some r -> clause_holds a (getc d r)) ->
       clause_holds a c') /\
    (forall k l, 1 <= k -> In l c -> lit_level t l = Some k ->
       exists l', In l' c' /\ lit_level t l' = Some k).
Proof.
  intros Hl (I & HO & Hh) M Hf. pose proof (gd_ti _ _ _ _ (moment_good he hash n I HO cs Hl o h Hh d t M)) as HT.
  exact (minimize_general n d t c HT Hf).
Qed.
End Wrap.

Lemma no_UB_lemma :
  (forall HS (he : heur HS) hash n cs o h fuel,
     legal n cs -> admissible n he h -> check_bool he hash fuel n cs o h <> UB) /\
  (forall HS (he : heur HS) hash n cs o h d t,
     legal n cs -> admissible n he h -> moment bool_theory he hash (solver_start n cs o h) d t ->
     legal n (asserted d ++ learned d)) /\
  (forall HS (he : heur HS) hash n cs o h fuel,
     In [] cs -> check_bool he hash (S fuel) n cs o h = UB).
Proof.
  split; [|split].
  - intros HS he hash n cs o h fuel Hl (I & HO & Hh). exact (check_safe he hash n I HO cs Hl o h Hh fuel).
  - exact range_lemma.
  - intros. now apply empty_clause_UB.
Qed.
