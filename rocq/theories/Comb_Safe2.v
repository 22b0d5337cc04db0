(** Invariants of boolean propagation together with linear arithmetic under which neither fails an assertion. *)
From Coq Require Import List Arith ZArith QArith NArith Bool Lia Permutation Sorted.
From Verif Require Import Base Core_Model Literal_Proofs Analysis_Model Bool_Model Sat_Base Sat_Inv Sat_Trail Sat_Prop Sat_Bcp Sat_Main Sort_Proofs
  Trail_Model Spec_Trail Trail_Proofs Solver_Model Spec_Sat Spec_Theory Theory_Inv Theory_Strict Theory_Sound Theory_Bool Comb_Bcp Theory_Level
  Lincons_Model Spec_Lincons Lincons_Proofs Lincons_Proofs2 Lra_Model Spec_Lra Lra_Fm Lra_Bounds Lra_Hist Lra_Steps Lra_Keep
  Lra_Range Lra_Good Lra_Good2 Lra_Confl Lra_Watch Lra_Watch2 Comb_Model Comb_Lra Theory_Safe Comb_Safe1
  Lra_Safe1 Lra_Safe2 Lra_Cut Lra_Cut2 Lra_Cut3 Lra_Safe3 Lra_Safe4 Lra_Safe5 Lra_Safe6 Lra_Shape Lra_Safe7.
Import ListNotations.
Open Scope nat_scope.

(** ** reasons of the current level keep all other literals false *)
Lemma tt_entry t v ro : TT t -> In (v, ro) (recent t) -> t_lvl t v <> None.
Proof.
  intros (a & N & A) H. rewrite recent_lists in H by auto. apply (sh_list _ _ A) in H; auto. destruct H as (g & E & _).
  rewrite (sh_lvl _ _ A), E. discriminate.
Qed.
Lemma RS_ops s d e t t' : prop_ops s d e t t' -> TT t -> RS d t -> RS d t'.
Proof.
  induction 1 as [t|t n t' Hn H IH|t l ro k t1 t' L1 L2 J S H IH|t x k q t1 t' L1 L2 S H IH]; intros T R; auto; apply IH.
  - now apply tt_resize.
  - intros i r Hin y Hy.
    assert (X : forall o, t_lvl t (VBool o) <> None -> o < Nat.min n (mnum (t_bm t))).
    { intros o D. destruct (t_lvl t (VBool o)) as [j|] eqn:Ej; [|congruence]. apply (tt_range t) in Ej; auto. cbn in Ej. apply Nat.ltb_lt in Ej. lia. }
    unfold tv, eval_lit, true_lit, trail_resize, model_resize. cbn [t_bm mdef mval].
    destruct (R i r Hin y Hy) as [E|E].
    + left. pose proof (X i (tt_entry t _ _ T Hin)) as L. destruct (Nat.ltb_spec i (Nat.min n (mnum (t_bm t)))); [exact E|lia].
    + right. unfold tv, eval_lit in E. destruct (mdef (t_bm t) (lord y)) eqn:D; [|discriminate].
      assert (L := D). apply (tt_b t _ T) in L. apply X in L. destruct (Nat.ltb_spec (lord y) (Nat.min n (mnum (t_bm t)))); [|lia]. exact E.
  - eapply tt_any; [exact T| |exact L2|exact S]. cbn. now apply Nat.ltb_lt.
  - intros i r Hin y Hy. pose proof T as (a0 & N & _).
    destruct (lists_prop _ _ _ _ _ _ N S) as [ED LS].
    destruct (step_prop_inv _ _ _ _ _ _ S) as (K & _ & _ & M & _). cbn [put fst] in M.
    assert (N1 : t_levels t1 <> []).
    { intros E1. cbn in S. unfold trail_propagate in S. destruct (k <=? _); [|discriminate]. injection S as <-. cbn [t_levels] in E1.
      apply (f_equal (@length _)) in E1. rewrite map_first_length in E1. cbn in E1. destruct (t_levels t); [congruence|discriminate]. }
    rewrite recent_lists in Hin by auto. rewrite LS in Hin. rewrite ED in Hin.
    assert (Hin' : (VBool i, Some r) = (lvar l, ro) \/ In (VBool i, Some r) (recent t)).
    { rewrite recent_lists by auto. destruct (_ && _); [destruct Hin; auto|auto]. }
    destruct Hin' as [E|Hin'].
    + injection E as E1 E2. subst ro i. cbn in J. destruct J as (_ & _ & J & _). destruct (J y Hy) as [E|[E _]].
      * left. rewrite E. rewrite M. unfold true_lit. unfold lvar; cbn [put fst with_bm t_bm set_value mval]. rewrite upd_eq. destruct l as [o n]. cbn. now rewrite negb_involutive.
      * right. eapply tv_step; eauto.
    + destruct (R i r Hin' y Hy) as [E|E]; [left|right; eapply tv_step; eauto].
      rewrite E, M. unfold true_lit. unfold lvar; cbn [put fst with_bm t_bm set_value mval]. unfold upd. destruct (Nat.eqb_spec i (lord l)); [|reflexivity].
      exfalso. apply (tt_entry t _ _ T Hin'). subst i. exact L2.
  - eapply tt_any; [exact T| |exact L2|exact S]. cbn. now apply Nat.ltb_lt.
  - intros i r Hin y Hy. pose proof T as (a0 & N & _).
    destruct (lists_prop _ _ _ _ _ _ N S) as [ED LS].
    destruct (step_prop_inv _ _ _ _ _ _ S) as (K & _ & _ & M & _). cbn [put fst] in M.
    assert (N1 : t_levels t1 <> []).
    { intros E1. cbn in S. unfold trail_propagate in S. destruct (k <=? _); [|discriminate]. injection S as <-. cbn [t_levels] in E1.
      apply (f_equal (@length _)) in E1. rewrite map_first_length in E1. cbn in E1. destruct (t_levels t); [congruence|discriminate]. }
    rewrite recent_lists in Hin by auto. rewrite LS in Hin. rewrite ED in Hin.
    assert (Hin' : In (VBool i, Some r) (recent t)).
    { rewrite recent_lists by auto. destruct (_ && _); [destruct Hin as [Hin|Hin]; [discriminate|auto]|auto]. }
    destruct (R i r Hin' y Hy) as [E|E]; [left|right; eapply tv_step; eauto]. rewrite E, M. reflexivity.
Qed.
Lemma RS_perm d d' t : dbperm d d' -> RS d t -> RS d' t.
Proof. intros P R i r Hin y Hy. apply (R i r Hin y). eapply Permutation_in; [|exact Hy]. apply Permutation_sym. now apply dbperm_getc. Qed.
Lemma NEc_perm d d' : dbperm d d' -> NEc d -> NEc d'.
Proof.
  intros [P1 P2] N c Hc E. subst c. unfold clauses_of in Hc. apply in_app_iff in Hc.
  assert (X : forall l l', Forall2 (@Permutation lit) l l' -> In [] l' -> In [] l).
  { induction 1 as [|x y l l' H1 H2 IH]; [auto|]. intros [->|H]; [left; apply Permutation_nil; now apply Permutation_sym|right; auto]. }
  apply (N []); [|reflexivity]. apply in_app_iff. destruct Hc as [Hc|Hc]; [left|right]; eapply X; eauto.
Qed.

(** ** the invariants between the operations *)
Definition DS (s : store) (t : trail) : Prop := DD t /\ NL s t.
Definition XB (a : lra) (t : trail) : Prop := WS (l_watch a) (l_st a) /\ DS (l_st a) t /\ bd_upd (l_bd a) = [].
Definition OZ (k : nat) (s : store) (t : trail) (i : nat) : Prop := OKi k s t i /\ Zi k s t i.
Definition QC (a : lra) (t : trail) : Prop := forall j, j < dl t -> Qi (l_st a) (cutl t j) (l_bd a).
(** before propagation: only booleans are new *)
Definition EN (a : lra) (t : trail) : Prop :=
  XB a t /\ (forall i, isC (l_st a) i -> OZ (S (dl t)) (l_st a) t i) /\ QC a t /\ (forall x, fe (l_st a) t (l_bd a) x) /\
  forall i, isC (l_st a) i -> Ui (l_st a) t (l_bd a) i \/ lpnd a t (VBool i).
(** before propagation: the rational variable [x] was decided *)
Definition ED (x : nat) (a : lra) (t : trail) : Prop :=
  XB a t /\ map fst (recent t) = [VRat x] /\ 1 <= dl t /\ lskip a t = 0 /\
  (forall i, isC (l_st a) i -> Mi (ords (l_watch a x)) (l_st a) t i) /\ QC a t /\ (forall y, fe (l_st a) t (l_bd a) y) /\
  forall i, isC (l_st a) i -> Ui (l_st a) t (l_bd a) i \/ In i (ords (l_watch a x)).
(** a conflict *)
Definition XC (a : lra) (t : trail) : Prop := XB a t /\ (forall i, isC (l_st a) i -> OZ (dl t) (l_st a) t i) /\ QC a t.
(** nothing to propagate *)
Definition XD (a : lra) (t : trail) : Prop :=
  XB a t /\ (forall i, isC (l_st a) i -> OZ (S (dl t)) (l_st a) t i) /\ QC a t /\ Qi (l_st a) t (l_bd a).

Lemma in_skipn {A} (x : A) n l : In x (skipn n l) -> In x l.
Proof. intros H. rewrite <- (firstn_skipn n l). apply in_app_iff. auto. Qed.
Lemma DD_One t : DD t -> One t.
Proof. intros D x y k X Y. apply (DD_r _ D) in X. apply (DD_r _ D) in Y. destruct X as [_ X], Y as [_ Y]. congruence. Qed.
Lemma OZ_mono k k' s t i : k <= k' -> OZ k' s t i -> OZ k s t i.
Proof. intros L [A B]. split; [eapply OKi_mono|eapply Zi_mono]; eauto. Qed.
Lemma OZ_Mi td s t i : OZ (S (dl t)) s t i -> Mi td s t i.
Proof. intros [(A & B & C) Z]. split; [eapply OKi_mono with (k' := S (dl t)); [lia|split; auto]|]. split; [eapply Zi_mono; [|exact Z]; lia|]. auto. Qed.

Section S.
Variables (hi : nat -> Z) (hv : Q -> Z) (opt : lopt) (df nq : nat) (s0 : store).
Hypothesis HU : o_unassigned opt = false.
Notation LI0 := (Comb_Lra.LI hi hv opt nq s0).

Lemma li_linv a t : LI0 a t -> linv (l_st a) t (l_bd a).
Proof. intros H. apply (ci_l a t). eapply run_cinv. apply (li_run _ _ _ _ _ _ _ H). Qed.

Lemma lra_core a t : LI0 a t -> TT t -> NL (l_st a) t -> (forall i, isC (l_st a) i -> PEi (lpnd a t) [] (l_st a) t i) ->
  let vs := filter (relevant a) (map fst (snd (cursor_assigned (l_cur a) t))) in
  (forall cur, lra_vars vs (with_cur a cur) t <> UB /\ forall a' t', lra_vars vs (with_cur a cur) t = Ok (a', t') ->
    LI (fun _ => False) [] (l_st a') t' (l_bd a') /\ WS (l_watch a') (l_st a')) ->
  lra_propagate hi hv opt a t <> UB /\ forall a' t' cs, lra_propagate hi hv opt a t = Ok (a', t', cs) ->
    FA a' t' /\ bd_upd (l_bd a') = [] /\ (cs = [] -> forall x, fe (l_st a') t' (l_bd a') x).
Proof.
  intros HL T HNL HP vs HV. pose proof HL as [RN Wc0 R0 N0 Q0 G0].
  pose proof (run_cinv hi hv opt a t RN) as CI. pose proof (ci_w _ _ CI) as W.
  unfold lra_propagate. fold (lpnd a t) in *. destruct (cursor_assigned (l_cur a) t) as [cur es] eqn:Ec.
  cbn [snd] in vs. fold vs. destruct (HV cur) as [V1 V2].
  change (relevant (with_cur a cur)) with (relevant a). fold vs.
  rewrite HU.
  assert (X : forall a1 t1, lra_vars vs (with_cur a cur) t = Ok (a1, t1) ->
    (FA a1 t1 /\ cinv a1 t1 /\ (forall x, fe (l_st a1) t1 (l_bd a1) x \/ In x (bd_upd (l_bd a1)))) /\ NL (l_st a1) t1).
  { intros a1 t1 E. destruct (V2 _ _ E) as [[I1 I3 I4 I5 I6 I7 I8 I9 I10] WS1].
    assert (A0 : wsi (with_cur a cur)) by (destruct W; constructor; auto).
    assert (C0 : cinv (with_cur a cur) t) by (destruct CI; constructor; auto).
    pose proof (lra_vars_steps hi hv _ _ _ _ _ E A0) as G.
    pose proof (cinv_goes hi hv _ _ _ _ C0 G) as C1.
    assert (P0 : forall i, isC (l_st a) i -> PEi (fun v => In v vs) [] (l_st a) t i).
    { intros i Hi. eapply PEi_P; [| |apply HP; exact Hi]; unfold lpnd; rewrite Ec; cbn [snd].
      - intros [[]|(v & Y1 & Y2)]. right. exists v. split; auto. apply filter_In. auto.
      - intros Y. apply filter_In. split; auto. cbn. unfold isC in Hi. now rewrite Hi. }
    assert (LE : length (st_cons (l_st a)) <= mnum (t_bm t)) by lia.
    destruct (lra_vars_ok (mkDb [] []) (fun _ => False) _ _ _ _ _ E A0 T R0 LE Wc0 P0) as (K1 & K2 & K3 & K4 & K5 & K6 & K7).
    split.
    2:{ apply (ni_nl (l_st a1) t1). apply (NI_steps hi hv _ _ (proj1 G)); cbn [fst snd run3]; [now rewrite (bx_dl _ _ K2)|].
        apply TT_NI; [apply A0|exact T|exact N0|exact HNL]. }
    split; [|split; [exact C1|exact I10]]. split; [apply C1|]. split; [constructor; auto|].
    - apply C1.
    - rewrite K1, (bx_num _ _ K2). exact N0.
    - constructor; auto.
      + intros i Hi. destruct (I7 i Hi) as (_ & _ & _ & [(_ & _ & Z)|[]]). exact Z.
      + intros i Hi. destruct (I9 i Hi) as [Y|[[]|[]]]. exact Y. }
  assert (Y : forall a1 t1, lra_vars vs (with_cur a cur) t = Ok (a1, t1) ->
    (if o_bounds opt then propagate_bounds (rev (recent t1)) a1 t1 else Ok a1) <> UB /\
    forall a2, (if o_bounds opt then propagate_bounds (rev (recent t1)) a1 t1 else Ok a1) = Ok a2 ->
      FA a2 t1 /\ cinv a2 t1 /\ (forall x, fe (l_st a2) t1 (l_bd a2) x \/ In x (bd_upd (l_bd a2)))).
  { intros a1 t1 E. destruct (X _ _ E) as ((F1 & C1 & F2) & N1). destruct (o_bounds opt).
    - apply (propagate_bounds_safe hi hv); auto. intros v ro Hin. now apply in_rev.
    - split; [discriminate|]. intros a2 E2. injection E2 as <-. auto. }
  split.
  - apply bind_ub; [exact V1|]. intros [a1 t1] E. destruct (Y _ _ E) as [Y1 Y2]. apply bind_ub; [exact Y1|]. intros a2 E2. cbn [bind].
    destruct (Y2 _ E2) as ((F1 & F2 & F3) & C1 & _). apply (lra_finish_tot hi hv opt a2 t1); auto.
  - intros a' t' cs H. destruct (lra_vars vs (with_cur a cur) t) as [[a1 t1]| |] eqn:E; cbn [bind] in H; try discriminate.
    destruct (Y _ _ eq_refl) as [_ Z2]. destruct (if o_bounds opt then _ else _) as [a2| |]; cbn [bind] in H; try discriminate.
    destruct (Z2 _ eq_refl) as (F1 & C1 & F2).
    destruct (finish_FS hi hv opt a2 t1 a' t' cs F1 F2 H) as (Y1 & Y2 & Y3). split; auto. split; auto. intros Ecs. apply Y3. exact Ecs.
Qed.
Lemma EN_vars a t cur : LI0 a t -> TT t -> EN a t ->
  let vs := filter (relevant a) (map fst (snd (cursor_assigned (l_cur a) t))) in
  lra_vars vs (with_cur a cur) t <> UB /\ forall a' t', lra_vars vs (with_cur a cur) t = Ok (a', t') ->
    LI (fun _ => False) [] (l_st a') t' (l_bd a') /\ WS (l_watch a') (l_st a').
Proof.
  intros HL T ((X2 & X3 & X4) & HO & HQ & HF & HUi) vs. pose proof HL as [RN Wc0 R0 N0 Q0 G0].
  pose proof (run_cinv hi hv opt a t RN) as CI. pose proof (ci_w _ _ CI) as W.
  apply vars_safe.
  - destruct W; constructor; auto.
  - cbn [with_cur l_st l_bd]. constructor; auto.
    + apply CI.
    + now apply DD_One, X3.
    + lia.
    + intros i Hi. apply OZ_Mi. auto.
    + intros i Hi. destruct (HUi i Hi) as [Y|Y]; [auto|]. right. left. apply filter_In. split; [exact Y|].
      cbn. unfold isC in Hi. now rewrite Hi.
  - exact X2.
  - intros v Hv. apply filter_In in Hv. destruct Hv as [H1 H2]. cbn [with_cur l_st].
    assert (D : t_lvl t v <> None).
    { unfold cursor_assigned in H1. cbn [snd] in H1. apply in_map_iff in H1. destruct H1 as ([v' ro] & <- & H1). 
      apply in_skipn in H1. apply in_rev in H1. eapply tt_entry; eauto. }
    destruct v as [i|x]; cbn.
    + split; [|now apply tt_b]. cbn in H2. unfold isC. now apply negb_true_iff in H2.
    + now apply tt_q.
Qed.
Lemma ED_vars x a t cur : LI0 a t -> TT t -> ED x a t ->
  let vs := filter (relevant a) (map fst (snd (cursor_assigned (l_cur a) t))) in
  lra_vars vs (with_cur a cur) t <> UB /\ forall a' t', lra_vars vs (with_cur a cur) t = Ok (a', t') ->
    LI (fun _ => False) [] (l_st a') t' (l_bd a') /\ WS (l_watch a') (l_st a').
Proof.
  intros HL T ((X2 & X3 & X4) & HRc & _ & HS & HO & HQ & HF & HUi) vs. pose proof HL as [RN Wc0 R0 N0 Q0 G0].
  pose proof (run_cinv hi hv opt a t RN) as CI. pose proof (ci_w _ _ CI) as W.
  assert (E : vs = [VRat x]).
  { unfold vs, cursor_assigned. cbn [snd]. fold (lskip a t). rewrite HS. cbn [skipn]. destruct (recent t) as [|[v ro] [|]]; try discriminate HRc. injection HRc as ->. reflexivity. }
  rewrite E. apply rat_vars_safe; auto.
  - destruct W; constructor; auto.
  - apply tt_q; auto. destruct (recent t) as [|[v ro] [|]] eqn:Er; try discriminate HRc. injection HRc as ->.
    apply (tt_entry t _ ro T). rewrite Er. now left.
  - cbn [with_cur l_st l_bd l_watch]. constructor; auto.
    + apply CI.
    + now apply DD_One, X3.
    + lia.
    + intros i Hi. destruct (HUi i Hi); auto.
Qed.
Lemma lra_safe a t : LI0 a t -> TT t -> (forall i, isC (l_st a) i -> PEi (lpnd a t) [] (l_st a) t i) -> (EN a t \/ exists x, ED x a t) ->
  lra_propagate hi hv opt a t <> UB /\ forall a' t' cs, lra_propagate hi hv opt a t = Ok (a', t', cs) ->
    TT t' /\ XC a' t' /\ (cs = [] -> XD a' t').
Proof.
  intros HL T HP HE.
  assert (D : DS (l_st a) t) by (destruct HE as [(X & _)|(x & X & _)]; apply X). destruct D as [D DN].
  assert (V := fun cur => match HE with or_introl E => EN_vars a t cur HL T E | or_intror (ex_intro _ x E) => ED_vars x a t cur HL T E end).
  destruct (lra_core a t HL T DN HP V) as [C1 C2]. split; [exact C1|].
  intros a' t' cs H. destruct (C2 _ _ _ H) as ((F1 & F2 & [L1 L3 L4 L5 L6 L7]) & F3 & F4).
  assert (X : XB a' t').
  { split; [exact L4|split; [|exact F3]]. split; [eapply DD_lra; eauto|]. pose proof HL as [RN Wc0 R0 N0 _ _]. destruct (run_sinv hi hv opt _ _ RN) as [WSI SI].
    destruct (lra_propagate_ok hi hv opt (mkDb [] []) (fun _ => False) a t a' t' cs HU WSI T R0 N0 Wc0 HP H) as (_ & _ & _ & _ & tm & E5 & _ & E6 & _).
    apply (ni_nl (l_st a') t'). apply (NI_steps hi hv _ _ (proj1 (propagate_steps hi hv opt _ _ _ _ _ WSI H))); cbn [fst snd run3].
    - rewrite (fx_dl _ _ E6), (bx_dl _ _ E5). reflexivity.
    - apply TT_NI; auto. }
  assert (O : forall i, isC (l_st a') i -> OZ (S (dl t')) (l_st a') t' i) by (intros i Hi; split; [now apply (jo_ok _ _ _ F2)|auto]).
  split; [apply (jo_t _ _ _ F2)|]. split.
  - split; auto. split; [|exact L6]. intros i Hi. eapply OZ_mono; [|apply O; exact Hi]. lia.
  - intros Ecs. exact (conj X (conj O (conj L6 (conj L7 (F4 Ecs))))).
Qed.
Lemma XD_EN a t : XD a t -> EN a t.
Proof. intros (A & B & C & [D1 D2]). exact (conj A (conj B (conj C (conj D2 (fun i Hi => or_introl (D1 i Hi)))))). Qed.
Lemma XD_XC a t : XD a t -> XC a t.
Proof. intros (A & B & C & D). split; auto. split; auto. intros i Hi. eapply OZ_mono; [|apply B; exact Hi]. lia. Qed.
Lemma bx_QC a t t' : TT t -> TT t' -> bx t t' -> lx t t' -> linv (l_st a) t (l_bd a) -> QC a t -> QC a t'.
Proof.
  intros T T' B X L Q j Hj. rewrite (bx_dl _ _ B) in Hj. pose proof (li_s _ _ _ L) as HS.
  apply (kt_Q j (l_st a) (l_st a) t); auto using grows_refl. now apply bx_kt.
Qed.
Lemma bx_XB a t t' : DS (l_st a) t' -> XB a t -> XB a t'.
Proof. intros D (A & C & E). split; auto. Qed.
Lemma bx_OZ s t t' i : TT t -> bx t t' -> OZ (S (dl t)) s t i -> OZ (S (dl t')) s t' i.
Proof.
  intros T B [(V & E & A) Z]. rewrite (bx_dl _ _ B). split; [|now apply (bx_Zi _ _ t)]. split; [now apply (bx_Vi _ _ t)|]. split; [now apply (bx_Ei _ _ t)|].
  destruct (t_lvl t (VBool i)) as [k|] eqn:L.
  - apply (bx_Ai _ _ t); auto. right. rewrite (bx_lvl _ _ B _ _ L). auto.
  - intros j j' J1 J2 Hb _. apply (bx_below t t') in Hb; auto. destruct (E j J1 Hb) as (j0 & E0 & _). congruence.
Qed.
Lemma bx_OZd s t t' i : TT t -> bx t t' -> OZ (dl t) s t i -> OZ (dl t') s t' i.
Proof.
  intros T B [(V & E & A) Z]. rewrite (bx_dl _ _ B). split; [|now apply (bx_Zi _ _ t)]. split; [now apply (bx_Vi _ _ t)|]. split; [now apply (bx_Ei _ _ t)|].
  apply (bx_Ai _ _ t); auto.
Qed.
Lemma EN_bx a t t' : TT t -> TT t' -> bx t t' -> lx t t' -> DS (l_st a) t' -> linv (l_st a) t (l_bd a) -> lskip a t <= length (recent t) -> EN a t -> EN a t'.
Proof.
  intros T T' B X D L K (A1 & A2 & A3 & A4 & A5). pose proof (li_s _ _ _ L) as HS.
  split; [now apply (bx_XB a t)|]. split; [intros i Hi; apply (bx_OZ _ t); auto|]. split; [now apply (bx_QC a t)|].
  split; [intros x; apply (fe_env (l_st a) (l_st a) t); auto using grows_refl; apply X|].
  intros i Hi. unfold lpnd, cursor_assigned. cbn [snd]. fold (lskip a t'). rewrite (lskip_bx a t t' B).
  destruct (t_lvl t (VBool i)) as [k|] eqn:E.
  - destruct (A5 i Hi) as [U|P]; [left|right].
    + apply (Ui_env (l_st a) (l_st a) t); auto using grows_refl; [apply X|apply X|]. intros _. apply tt_b; auto. congruence.
    + now apply (pend_old _ t).
  - destruct (t_lvl t' (VBool i)) as [k|] eqn:E'.
    + right. apply (pend_new _ t); auto. congruence.
    + left. apply Ui_undef. destruct (mdef (t_bm t') i) eqn:F; auto. apply tt_b in F; auto. congruence.
Qed.
Lemma EN_XC a t : EN a t -> XC a t.
Proof. intros (A & B & C & _). split; auto. split; auto. intros i Hi. eapply OZ_mono; [|apply B; exact Hi]. lia. Qed.
Lemma ED_XC x a t : ED x a t -> XC a t.
Proof. intros (A & _ & _ & _ & B & C & _). split; auto. split; auto. intros i Hi. destruct (B i Hi) as (M1 & M2 & _). split; auto. Qed.
Lemma XC_bx a t t' : TT t -> TT t' -> bx t t' -> lx t t' -> DS (l_st a) t' -> linv (l_st a) t (l_bd a) -> XC a t -> XC a t'.
Proof.
  intros T T' B X D L (A1 & A2 & A3). split; [now apply (bx_XB a t)|]. split; [intros i Hi; apply (bx_OZd _ t); auto|]. now apply (bx_QC a t).
Qed.
Notation PE0 := (Comb_Lra.PE hi hv opt nq s0).
Notation PA0 := (Comb_Lra.PA hi hv opt nq s0).
Notation PC0 := (Comb_Lra.PC hi hv opt nq s0).
Notation PD0 := (Comb_Lra.PD hi hv opt nq s0).
Notation ent := (fun _ : lit => False).

Lemma round1 b a d t fuel b1 d1 t1 c1 : PE0 (b, a) d t -> (trail_empty t = false -> units_done d t) ->
  bool_propagate fuel b d t = Ok (b1, d1, t1, c1) ->
  dbperm d d1 /\ TT t1 /\ bx t t1 /\ prop_ops true d1 ent t t1 /\ lx t t1 /\ LI0 a t1 /\
  (forall i, isC (l_st a) i -> PEi (lpnd a t1) [] (l_st a) t1 i).
Proof.
  intros (HE & HL & HP & KB & KL) HUn EB. cbn [fst snd] in *. pose proof (proj1 HE) as (T & V & _).
  destruct (bool_propagate2 ent _ _ _ _ _ _ _ _ HE HUn EB) as (B1 & B2 & B3 & B4 & B5 & B6 & B7 & B8 & B9 & B10).
  pose proof (proj1 B2) as T1. pose proof (LI_bx hi hv opt nq s0 _ _ _ _ _ T B4 B3 HL) as HL1.
  assert (LX : lx t t1) by (apply (prop_ops_lx d1 ent); auto; intros x; now apply bx_lv).
  split; auto. split; auto. split; auto. split; auto. split; auto. split; auto. intros i Hi. apply (PEi_bx a t); auto.
Qed.
Lemma round2 b a d t fuel b1 d1 t1 a2 t2 : PE0 (b, a) d t -> (trail_empty t = false -> units_done d t) ->
  bool_propagate fuel b d t = Ok (b1, d1, t1, []) -> lra_propagate hi hv opt a t1 = Ok (a2, t2, []) ->
  PE0 (b1, a2) d1 t2 /\ units_done d1 t2 /\ bx t t2 /\ prop_ops true d1 ent t t2.
Proof.
  intros (HE & HL & HP & KB & KL) HUn EB EL. cbn [fst snd] in *. pose proof (proj1 HE) as (T & V & _).
  destruct (bool_propagate2 ent _ _ _ _ _ _ _ _ HE HUn EB) as (B1 & B2 & B3 & B4 & B5 & B6 & B7 & B8 & B9 & B10).
  pose proof (proj1 B2) as T1. pose proof (LI_bx hi hv opt nq s0 _ _ _ _ _ T B4 B3 HL) as HL1. pose proof HL1 as [R1' W1 R01 N1 Q1 G1].
  destruct (run_sinv hi hv opt _ _ R1') as [WSI SI].
  assert (HP1 : forall i, isC (l_st a) i -> PEi (lpnd a t1) [] (l_st a) t1 i) by (intros i Hi; exact (PEi_bx a t t1 i T B4 KL (HP i Hi))).
  destruct (lra_propagate_ok hi hv opt d1 ent a t1 a2 t2 [] HU WSI T1 R01 N1 W1 HP1 EL) as (L1 & L2 & L3 & L4 & tm & L5 & L6 & L7 & L8).
  specialize (L8 eq_refl). subst tm.
  pose proof (propagate_steps hi hv opt _ _ _ _ _ WSI EL) as [G _].
  pose proof (lr_propagate hi hv opt _ _ _ _ _ R1' EL) as R2.
  assert (HL2 : LI0 a2 t2).
  { constructor; [exact R2|apply (jo_c _ _ _ L2)|apply (jo_r _ _ _ L2)|apply (jo_n _ _ _ L2)|destruct (prop_ops_kept _ _ _ _ T1 L4) as (_ & [_ ->] & _); exact Q1|
      eapply grows_trans; [exact G1|apply (esteps_grows _ _ _ _ _ _ G WSI)]]. }
  pose proof (jo_t _ _ _ L2) as T2.
  pose proof (prop_ops_tpi _ _ _ _ B2 L4) as P2.
  assert (PO : prop_ops true d1 ent t t2) by (eapply prop_ops_trans; eauto).
  destruct (B9 eq_refl) as [PB1 U1].
  assert (HB1 : bskip b1 t1 <= length (recent t1)).
  { unfold bskip. rewrite B6, Nat.eqb_refl, B7. now apply bx_length. }
  split; [|split; [eapply units_bx; eauto|split; [eapply bx_trans; eauto|exact PO]]].
  split; [|cbn [fst snd]; split; [exact HL2|split; [|split]]].
  - split; [exact P2|]. intros _. split; [exact B5|]. intros r Hr. cbn [fst]. eapply (cen_round b1 t1 t2); auto.
    intros u Eu. apply U1. rewrite <- Eu. now apply getc_in.
  - intros i Hi. apply OKi_PEi. apply (jo_ok _ _ _ L2). exact Hi.
  - rewrite (bskip_bx _ _ _ L5). pose proof (bx_length _ _ L5). lia.
  - unfold lskip. rewrite L3. cbn. pose proof (bx_length _ _ L5). destruct (dl t2 =? dl t1); lia.
Qed.
Lemma ED_bool x fuel b d t b' d' t' cs : map fst (recent t) = [VRat x] -> 1 <= dl t ->
  bool_propagate fuel b d t = Ok (b', d', t', cs) -> t' = t.
Proof.
  intros HRc HD H. unfold bool_propagate in H. destruct (bool_initialize b d t) as [[b1 s]| |] eqn:EI; cbn [bind] in H; try discriminate.
  assert (S : s = []).
  { unfold bool_initialize in EI. replace (trail_empty t) with false in EI.
    - cbn [bind theory_assigned] in EI. injection EI as _ <-.
      destruct (recent t) as [|[v ro] [|]]; try discriminate HRc. injection HRc as ->. cbn [rev app].
      match goal with |- push_assigned _ (skipn ?n _) _ = _ => destruct n as [|[|]]; reflexivity end.
    - symmetry. unfold trail_empty, dl in *. destruct (t_levels t) as [|[|e0 l0] [|l1 l2]]; reflexivity || (cbn in HD; lia). }
  subst s. destruct fuel; cbn [bcp_loop bind] in H; injection H as _ _ <- _; reflexivity.
Qed.
Definition XE (a : lra) (t : trail) : Prop := EN a t \/ exists x, ED x a t.
Lemma XE_XC a t : XE a t -> XC a t.
Proof. intros [H|(x & H)]; [now apply EN_XC|now apply (ED_XC x)]. Qed.
Lemma XE_DD a t : XE a t -> DS (l_st a) t.
Proof. intros H. apply (proj1 (XE_XC _ _ H)). Qed.
Lemma XE_bool b a d t fuel b1 d1 t1 c1 : PE0 (b, a) d t -> (trail_empty t = false -> units_done d t) -> XE a t ->
  bool_propagate fuel b d t = Ok (b1, d1, t1, c1) -> XE a t1 /\ XC a t1.
Proof.
  intros HP HUn HX EB. pose proof HP as (HE & HL & _ & _ & KL). cbn [fst snd] in *. pose proof (proj1 HE) as (T & _ & _).
  destruct (round1 _ _ _ _ _ _ _ _ _ HP HUn EB) as (R1' & T1 & B & PO & LX & HL1 & HP1).
  assert (X : XE a t1).
  { destruct HX as [HX|(x & HX)].
    - left. apply (EN_bx a t); auto; [|apply li_linv; exact HL]. split; [eapply DD_bool; [exact EB|apply HX]|]. eapply NL_bool; [destruct T as (aa & N & _); exact N|exact EB|apply HX].
    - right. exists x. pose proof HX as (_ & Y1 & Y2 & _). rewrite (ED_bool _ _ _ _ _ _ _ _ _ Y1 Y2 EB). exact HX. }
  split; [exact X|now apply XE_XC].
Qed.
Theorem bl_safe : forall n fuel b a d t, PE0 (b, a) d t -> (trail_empty t = false -> units_done d t) -> RS d t -> NEc d -> XE a t ->
  bl_propagate hi hv opt n fuel b a d t <> UB /\
  forall b' a' d' t' cs, bl_propagate hi hv opt n fuel b a d t = Ok ((b', a'), d', t', cs) ->
    NEc d' /\ XC a' t' /\ (cs = [] -> XD a' t').
Proof.
  induction n as [|n IH]; intros fuel b a d t HP HUn HRS HN HX; [split; discriminate|]. cbn [bl_propagate].
  pose proof HP as (HE & HL & _ & _ & KL). cbn [fst snd] in *. pose proof (proj1 HE) as (T & _ & _).
  pose proof (bool_propagate_tot fuel b d t HE HUn HRS HN) as TB.
  destruct (bool_propagate fuel b d t) as [[[[b1 d1] t1] c1]| |] eqn:EB; cbn [bind]; [|congruence|split; discriminate].
  destruct (round1 _ _ _ _ _ _ _ _ _ HP HUn EB) as (P1 & T1 & B & PO & LX & HL1 & HP1).
  destruct (XE_bool _ _ _ _ _ _ _ _ _ HP HUn HX EB) as [X1 X2]. pose proof (NEc_perm _ _ P1 HN) as N1.
  destruct c1 as [|cl c1]; [|split; [discriminate|]; intros b' a' d' t' cs H; injection H as <- <- <- <- <-; split; auto; split; auto; discriminate].
  destruct (lra_safe a t1 HL1 T1 HP1 X1) as [L1 L2].
  destruct (lra_propagate hi hv opt a t1) as [[[a2 t2] c2]| |] eqn:EL; cbn [bind]; [|congruence|split; discriminate].
  destruct (L2 _ _ _ eq_refl) as (T2 & Y1 & Y2).
  destruct c2 as [|cl c2]; [|split; [discriminate|]; intros b' a' d' t' cs H; injection H as <- <- <- <- <-; split; auto; split; auto; discriminate].
  destruct (Nat.eqb_spec (length (recent t2)) (length (recent t))) as [EQ|NQ].
  - split; [discriminate|]. intros b' a' d' t' cs H. injection H as <- <- <- <- <-. split; auto.
  - destruct (round2 _ _ _ _ _ _ _ _ _ _ HP HUn EB EL) as (Q1 & Q2 & Q3 & Q4).
    apply IH; auto.
    + apply (RS_ops true d1 ent t t2); auto. now apply (RS_perm d).
    + left. apply XD_EN. now apply Y2.
Qed.
End S.
