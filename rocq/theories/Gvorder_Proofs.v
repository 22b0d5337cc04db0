(** Generalized_vsids proposes unassigned variables and gives up only when all variables are assigned, in every check
    with boolean propagation and linear arithmetic. *)
From Coq Require Import List Arith ZArith QArith NArith Bool Lia Permutation Sorted.
From Verif Require Import Base Core_Model Analysis_Model Bool_Model Sat_Base Sat_Inv Sat_Trail Sat_Prop Sat_Bcp
  Sort_Proofs Subsumption_Proofs Sat_Analysis Spec_Multi Multi_Proofs
  Trail_Model Spec_Trail Trail_Proofs Solver_Model Spec_Sat Spec_Theory Theory_Inv Theory_Strict Theory_Sound Theory_Bool Comb_Bcp Theory_Level
  Order_Model Queue_Model Spec_Queue Queue_Proofs Gvsids_Model Spec_Gvsids Order_Proofs Gvsids_Proofs Gvorder_Model.
Import ListNotations.
Open Scope nat_scope.

(** literals that follow from clauses by unit propagation *)
Inductive up (C : clause -> Prop) : lit -> Prop :=
| up_i c l : C c -> once l c -> (forall x, In x c -> x <> l -> up C (neg x)) -> up C l.
Lemma up_mono (C C' : clause -> Prop) l : (forall c, C c -> C' c) -> up C l -> up C' l.
Proof. intros H U. induction U as [c l A B D IH]. eapply up_i; eauto. Qed.
Definition lost (C : clause -> Prop) (v : var) : Prop := exists l, v = VBool (lord l) /\ up C l.

(** ** the state of the order *)
Section Order.
Context {F : Type}.
Variables (fo : fops F) (good : F -> Prop).
Hypothesis laws : score_laws fo good.
Hypothesis closed : score_closed fo good.
Variables (cons_vars : nat -> nat -> list nat) (dec : nat -> list nat) (ed : nat -> nat -> bool).
Variables (nb0 nq0 : nat).
Notation gcore := (gcore fo good).
Notation order := (gv_order fo cons_vars dec ed).

Definition gst (C : clause -> Prop) (t : trail) (g : @gv F) (nb nq : nat) : Prop :=
  exists D E, gcore g nb nq D E /\ (forall v, D v -> in_range nb nq v = true) /\ (forall v, E v -> in_range nb nq v = true) /\
    forall v, in_range nb nq v = true -> D v \/ t_lvl t v <> None \/ lost C v.
(** answers with which no assertion of the order fails *)
Definition sure : Prop := (forall n, dec n = []) /\ (forall n b x, In x (cons_vars n b) -> x < nq0).
Definition gvi (C : clause -> Prop) (t : trail) (s : gvs) : Prop :=
  match fst s with
  | None => ~ sure
  | Some g => exists nb nq, nb0 <= nb <= mnum (t_bm t) /\ nq0 <= nq <= mnum (t_qm t) /\ gst C t g nb nq
  end.

Lemma gvi_keep (C C' : clause -> Prop) t t' s : (forall c, C c -> C' c) -> mnum (t_bm t) <= mnum (t_bm t') -> mnum (t_qm t) <= mnum (t_qm t') ->
  (forall v, t_lvl t v <> None -> t_lvl t' v <> None) -> gvi C t s -> gvi C' t' s.
Proof.
  intros HC N1 N2 L H. unfold gvi in *. destruct (fst s) as [g|]; auto. destruct H as (nb & nq & B1 & B2 & D & E & G & R1 & R2 & A).
  exists nb, nq. split; [lia|]. split; [lia|]. exists D, E. split; auto. split; auto. split; auto. intros v Hv.
  destruct (A v Hv) as [X|[X|(l & X & Y)]]; auto. right; right. exists l. split; auto. eapply up_mono; eauto.
Qed.
Lemma grow_ok (C : clause -> Prop) t g nb nq : nb <= mnum (t_bm t) -> nq <= mnum (t_qm t) -> gst C t g nb nq ->
  exists g', gv_grow fo g t = Ok g' /\ gst C t g' (mnum (t_bm t)) (mnum (t_qm t)).
Proof.
  intros B1 B2 (D & E & G & R1 & R2 & A). destruct (core_resize fo good laws closed g nb nq _ _ D E G R1 B1 B2) as (g' & E1 & G1).
  exists g'. split; auto. assert (MON : forall w, in_range nb nq w = true -> in_range (mnum (t_bm t)) (mnum (t_qm t)) w = true).
  { intros [i|i]; simpl; rewrite !Nat.ltb_lt; lia. }
  eexists _, E. split; [exact G1|]. split; [intros w [X|[X _]]; auto|]. split; [auto|].
  intros v Hv. destruct (in_range nb nq v) eqn:X; auto. destruct (A v X); auto.
Qed.

Lemma score_range g nb nq D E v s : gcore g nb nq D E -> g_score g v = Ok s -> in_range nb nq v = true.
Proof.
  intros G H. destruct v as [i|i]; cbn in *; apply Nat.ltb_lt; unfold at_ in H.
  - rewrite <- (gc_lb _ _ _ _ _ _ _ G). destruct (nth_error (g_sb g) i) eqn:X; [|discriminate]. apply nth_error_Some. congruence.
  - rewrite <- (gc_lq _ _ _ _ _ _ _ G). destruct (nth_error (g_sr g) i) eqn:X; [|discriminate]. apply nth_error_Some. congruence.
Qed.
Lemma bumps_keep nb nq D E : forall vs g g', gcore g nb nq D E -> g_bumps fo g vs = Ok g' -> gcore g' nb nq D E.
Proof.
  induction vs as [|v vs IH]; intros g g' G H; cbn [g_bumps] in H; [injection H as <-; auto|].
  destruct (g_bump1 fo g v) as [g1| |] eqn:E1; cbn [bind] in H; try discriminate.
  assert (R : in_range nb nq v = true).
  { unfold g_bump1 in E1. destruct (g_score g v) eqn:Es; cbn [bind] in E1; try discriminate. eapply score_range; eauto. }
  destruct (core_bump1 fo good laws closed g nb nq D E v G R) as (g2 & E2 & G2). rewrite E1 in E2. injection E2 as <-. eauto.
Qed.
Lemma clauses_keep cv nb nq D E : forall cs g g', gcore g nb nq D E -> g_bump_clauses fo cv g cs = Ok g' -> gcore g' nb nq D E.
Proof.
  induction cs as [|c cs IH]; intros g g' G H; cbn [g_bump_clauses] in H; [injection H as <-; auto|].
  destruct (g_bump_clause fo cv g c) as [g1| |] eqn:E1; cbn [bind] in H; try discriminate.
  eapply IH; [|exact H]. eapply bumps_keep; eauto.
Qed.
Lemma push_ed_range nq nb D : forall ds g E g', gcore g nb nq D E -> g_push_ed fo g ds = Ok g' -> Forall (fun x => x < nq) ds.
Proof.
  induction ds as [|x ds IH]; intros g E g' G H; [constructor|]. cbn [g_push_ed] in H.
  destruct (g_score g (VRat x)) as [s| |] eqn:Es; cbn [bind] in H; try discriminate.
  destruct (q_push fo (g_ed g) (VRat x) s) as [e| |] eqn:Ep; cbn [bind] in H; try discriminate.
  pose proof (score_range _ _ _ _ _ _ _ G Es) as R. pose proof R as R'. cbn in R'. apply Nat.ltb_lt in R'.
  destruct (score_ok fo good g nb nq D E (VRat x) G R) as (s' & Es' & Gs). rewrite Es in Es'. injection Es' as <-.
  constructor; auto. eapply (IH _ (fun w => E w \/ w = VRat x)); [|exact H]. destruct G as [A1 A2 A3 A4 A5 A6 A7]. split; auto.
  cbn [with_queues g_ed]. eapply push_dom; eauto.
Qed.

Lemma bump_sure n c nb nq D E g : sure -> nq0 <= nq -> (forall l, In l c -> lord l < nb) -> gcore g nb nq D E ->
  exists g', g_bump_clause fo (cons_vars n) g c = Ok g' /\ gcore g' nb nq D E.
Proof.
  intros [_ S] N R G. apply (core_bumps fo good laws closed); auto. intros v Hv. unfold g_clause_vars in Hv. apply in_flat_map in Hv. destruct Hv as (l & Hl & [<-|Hv]).
  - apply Nat.ltb_lt. auto.
  - apply in_map_iff in Hv. destruct Hv as (x & <- & Hx). apply Nat.ltb_lt. apply S in Hx. lia.
Qed.
Lemma bumps_sure n nb nq D E : forall cs g, sure -> nq0 <= nq -> (forall c l, In c cs -> In l c -> lord l < nb) -> gcore g nb nq D E ->
  exists g', g_bump_clauses fo (cons_vars n) g cs = Ok g' /\ gcore g' nb nq D E.
Proof.
  induction cs as [|c cs IH]; intros g S N R G; cbn [g_bump_clauses]; [eauto|].
  destruct (bump_sure n c nb nq D E g) as (g1 & E1 & G1); auto; [intros l; apply R; now left|]. rewrite E1. cbn [bind]. apply IH; auto. intros c' l Hc. apply R. now right.
Qed.

Lemma event_ok (C : clause -> Prop) t t' s f : nb0 <= mnum (t_bm t) -> nq0 <= mnum (t_qm t) -> gvi C t s ->
  mnum (t_bm t) <= mnum (t_bm t') -> mnum (t_qm t) <= mnum (t_qm t') ->
  (forall g g', gst C t g (mnum (t_bm t)) (mnum (t_qm t)) -> f g = Ok g' -> gst C t' g' (mnum (t_bm t)) (mnum (t_qm t))) ->
  (forall g, gst C t g (mnum (t_bm t)) (mnum (t_qm t)) -> sure -> exists g', f g = Ok g') ->
  gvi C t' (gv_event fo s t f).
Proof.
  intros H1 H2 H N1 N2 Hf Hs. unfold gv_event. unfold gvi in H. destruct (fst s) as [g|]; [|exact H].
  destruct H as (nb & nq & B1 & B2 & G). destruct (grow_ok C t g nb nq) as (g1 & E1 & G1); [lia|lia|exact G|]. rewrite E1. cbn [bind].
  destruct (f g1) as [g2| |] eqn:E2; [|intros S; destruct (Hs g1 G1 S); congruence..]. cbn. eexists _, _. split; [|split; [|eapply Hf; eauto]]; lia.
Qed.
Lemma learned_ok (C : clause -> Prop) t s c : nb0 <= mnum (t_bm t) -> nq0 <= mnum (t_qm t) -> (forall l, In l c -> lord l < mnum (t_bm t)) -> gvi C t s -> gvi C t (o_learned order s t c).
Proof.
  intros H1 H2 HC H. cbn. apply (event_ok C t t); auto;
    [|intros g (D & E & G & R) S; unfold g_learned; destruct (bump_sure (snd s) c _ _ D E g S H2 HC G) as (g1 & E1 & _); rewrite E1; cbn; eauto].
  intros g g' (D & E & G & R) Hg. exists D, E. split; auto.
  unfold g_learned in Hg. destruct (g_bump_clause fo _ g c) as [g1| |] eqn:E1; cbn [bind] in Hg; try discriminate. injection Hg as <-.
  apply (bumps_keep _ _ _ _ _ _ _ G) in E1. destruct E1 as [A1 A2 A3 A4 A5 A6 A7]. split; cbn; auto. now apply (sc_mul _ _ closed).
Qed.
Lemma resolved_ok (C : clause -> Prop) t s c : nb0 <= mnum (t_bm t) -> nq0 <= mnum (t_qm t) -> (forall l, In l c -> lord l < mnum (t_bm t)) -> gvi C t s -> gvi C t (o_resolved order s t c).
Proof.
  intros H1 H2 HC H. cbn. apply (event_ok C t t); auto;
    [|intros g (D & E & G & R) S; destruct (bump_sure (snd s) c _ _ D E g S H2 HC G) as (g1 & E1 & _); eauto].
  intros g g' (D & E & G & R) Hg. exists D, E. split; auto.
  eapply bumps_keep; eauto.
Qed.
(** [t'] is the trail after the backtrack; [C'] explains the variables of level 0 that are lost if the trail is cleared *)
Lemma before_ok (C C' : clause -> Prop) a t t' k s : nb0 <= mnum (t_bm t) -> nq0 <= mnum (t_qm t) -> tinv t a -> k <= dl t ->
  mnum (t_bm t) <= mnum (t_bm t') -> mnum (t_qm t) <= mnum (t_qm t') -> (forall c, C c -> C' c) ->
  (forall v j, t_lvl t v = Some j -> j <= k -> t_lvl t' v <> None \/ lost C' v) ->
  gvi C t s -> gvi C' t' (o_before_backtrack order s t k).
Proof.
  intros H1 H2 T K N1 N2 HC HL H. cbn. unfold gv_event. unfold gvi in H. destruct (fst s) as [g|]; [|exact H].
  destruct H as (nb & nq & B1 & B2 & G). destruct (grow_ok C t g nb nq) as (g1 & E1 & G1); [lia|lia|exact G|]. rewrite E1. cbn [bind].
  destruct G1 as (D & E & G1 & R1 & R2 & A). pose proof T as [_ T']. destruct (sh_num _ _ T') as [Nb Nq]. rewrite Nb, Nq in *.
  destruct (core_before_backtrack fo good laws (fun _ => []) a t k g1 D E T K G1) as (g3 & E3 & G3). rewrite E3.
  cbn. exists (at_nb a), (at_nq a). split; [lia|]. split; [lia|].
  eexists _, E. split; [exact G3|]. split; [|split; [auto|]].
  - intros v [X|(l & X & _)]; auto. rewrite (sh_lvl _ _ T') in X. destruct (at_rec a v) as [gg|] eqn:Z; [|discriminate]. now apply (sh_ok _ _ T' _ _ Z).
  - intros v Hv. destruct (A v Hv) as [X|[X|(l & X & Y)]].
    + auto.
    + destruct (t_lvl t v) as [j|] eqn:Ej; [|congruence]. destruct (le_lt_dec j k) as [L|L].
      * destruct (HL v j Ej L); auto.
      * left. right. exists j. auto.
    + right; right. exists l. split; auto. eapply up_mono; eauto.
Qed.
Lemma pick_ok (C : clause -> Prop) t s s' o : nb0 <= mnum (t_bm t) -> nq0 <= mnum (t_qm t) -> (forall v, is_def t v = true <-> t_lvl t v <> None) ->
  gvi C t s -> gv_pick fo dec ed s t = (s', o) ->
  gvi C t s' /\ match o with
  | Some v => in_range (mnum (t_bm t)) (mnum (t_qm t)) v = true /\ is_def t v = false
  | None => forall v, in_range (mnum (t_bm t)) (mnum (t_qm t)) v = true -> is_def t v = true \/ lost C v
  end.
Proof.
  intros H1 H2 HD H E. unfold gv_pick in E.
  assert (FU : forall o', fu_pick t = o' -> match o' with
    | Some v => in_range (mnum (t_bm t)) (mnum (t_qm t)) v = true /\ is_def t v = false
    | None => forall v, in_range (mnum (t_bm t)) (mnum (t_qm t)) v = true -> is_def t v = true \/ lost C v end).
  { intros o' <-. pose proof (fu_pick_spec t) as Sp. destruct (fu_pick t) as [[i|i]|]; cbn -[Nat.ltb] in *.
    - rewrite Nat.ltb_lt. tauto.
    - rewrite Nat.ltb_lt. tauto.
    - intros [i|i] Hi; left; cbn -[Nat.ltb] in *; apply Nat.ltb_lt in Hi; [exact (Sp (VBool i) Hi)|exact (Sp (VRat i) Hi)]. }
  unfold gvi in H. destruct (fst s) as [g|]; [|injection E as <- <-; split; [exact H|now apply FU]].
  destruct H as (nb & nq & B1 & B2 & G). destruct (grow_ok C t g nb nq) as (g1 & E1 & G1); [lia|lia|exact G|]. rewrite E1 in E. cbn [bind] in E.
  destruct G1 as (D & EE & G1 & R1 & R2 & A).
  assert (SU : sure -> exists x, g_pick fo g1 t (dec (snd s)) (ed (snd s)) = Ok x).
  { intros [S _]. pose proof (core_pick fo good laws (fun _ => []) _ _ t g1 D EE [] (ed (snd s)) G1 R1 R2 (Forall_nil _)) as P. rewrite S.
    destruct (g_pick fo g1 t [] (ed (snd s))) as [x| |]; cbn in P; [eauto|congruence|tauto]. }
  destruct (g_pick fo g1 t (dec (snd s)) (ed (snd s))) as [[g2 o2]| |] eqn:E2;
    [|injection E as <- <-; split; [intros S; destruct (SU S); discriminate|now apply FU]..].
  injection E as <- <-.
  assert (RG : Forall (fun x => x < mnum (t_qm t)) (dec (snd s))).
  { unfold g_pick in E2. destruct (g_push_ed fo g1 (dec (snd s))) as [g3| |] eqn:E3; cbn [bind] in E2; try discriminate. eapply push_ed_range; eauto. }
  pose proof (core_pick fo good laws (fun _ => []) _ _ t g1 D EE (dec (snd s)) (ed (snd s)) G1 R1 R2 RG) as P. rewrite E2 in P. cbn [outcome fst snd] in P.
  destruct P as (D' & E' & P1 & P2 & P3 & P4 & P5).
  assert (AS : forall v, assigned t v = true <-> t_lvl t v <> None) by (intros v; unfold assigned; destruct (t_lvl t v); split; congruence).
  split.
  - cbn. exists (mnum (t_bm t)), (mnum (t_qm t)). split; [lia|]. split; [lia|]. exists D', E'. split; auto. split; auto. split; auto.
    intros v Hv. destruct (A v Hv) as [X|[X|X]]; auto. apply P3 in X. rewrite AS in X. destruct X; auto.
  - destruct o2 as [v|].
    + destruct P5 as [P5 P6]. split; auto. destruct (is_def t v) eqn:X; auto. apply HD, AS in X. congruence.
    + intros v Hv. destruct (A v Hv) as [X|[X|X]]; auto.
      * apply P3 in X. destruct X as [X|X]; [exfalso; eapply P5; eauto|]. left. now apply HD, AS.
      * left. now apply HD.
Qed.
End Order.

Lemma start_ok {F} (fo : fops F) good (laws : score_laws fo good) (closed : score_closed fo good) cv dec C d t :
  (forall c l, In c (asserted d ++ learned d) -> In l c -> lord l < mnum (t_bm t)) ->
  gvi fo good cv dec (mnum (t_bm t)) (mnum (t_qm t)) C t (gv_start fo cv d t).
Proof.
  intros HC. unfold gv_start, gv_event. cbn [fst snd].
  assert (G0 : gcore fo good (gv_new fo) 0 0 (fun _ => False) (fun _ => False)).
  { split; cbn; auto; [apply (sc_one _ _ closed)|..]; exists (fun _ => None); (split; [apply new_inv|tauto]). }
  unfold gv_grow. destruct (core_resize fo good laws closed (gv_new fo) 0 0 (mnum (t_bm t)) (mnum (t_qm t)) _ _ G0) as (g1 & E1 & G1); [tauto|lia|lia|].
  rewrite E1. cbn [bind].
  assert (G2 : gcore fo good (mkGv (map (fun _ => f_zero fo) (g_sb g1)) (map (fun _ => f_zero fo) (g_sr g1)) (g_vars g1) (g_ed g1) (g_inc g1)) (mnum (t_bm t)) (mnum (t_qm t))
    (fun v => False \/ in_range (mnum (t_bm t)) (mnum (t_qm t)) v = true /\ in_range 0 0 v = false) (fun _ => False)).
  { destruct G1 as [A1 A2 A3 A4 A5 A6 A7]; split; cbn [g_sb g_sr g_vars g_ed g_inc];
    [rewrite map_length; exact A1|rewrite map_length; exact A2|..|exact A5|exact A6|exact A7]; apply Forall_forall; intros x Hx; apply in_map_iff in Hx; destruct Hx as (y & <- & _); apply (sc_zero _ _ closed). }
  destruct (g_init fo (cv 0) g1 d) as [g2| |] eqn:E2;
    [|intros S; unfold g_init in E2; destruct (bumps_sure fo good laws closed cv dec _ 0 _ _ _ _ _ _ S (le_n _) HC G2) as (g3 & E3 & _); congruence..].
  cbn. exists (mnum (t_bm t)), (mnum (t_qm t)). split; [lia|]. split; [lia|].
  unfold g_init in E2. eapply (clauses_keep fo good laws closed) in E2; [|exact G2].
  eexists _, _. split; [exact E2|]. split; [intros v [[]|[X _]]; auto|]. split; [tauto|].
  intros v Hv. left. right. split; auto. destruct v; reflexivity.
Qed.
