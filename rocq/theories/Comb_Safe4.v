(** The plugins for booleans and linear arithmetic meet the contract of Theory_Safe: no run fails an assertion. *)
From Coq Require Import List Arith ZArith QArith NArith Bool Lia Permutation Sorted.
From Verif Require Import Base Core_Model Literal_Proofs Analysis_Model Bool_Model Sat_Base Sat_Inv Sat_Trail Sat_Prop Sat_Bcp Sat_Main Sort_Proofs
  Trail_Model Spec_Trail Trail_Proofs Solver_Model Spec_Sat Spec_Theory Theory_Inv Theory_Strict Theory_Sound Theory_Bool Comb_Bcp Theory_Level
  Lincons_Model Spec_Lincons Lincons_Proofs Lincons_Proofs2 Lra_Model Spec_Lra Lra_Fm Lra_Bounds Lra_Hist Lra_Steps Lra_Keep
  Lra_Range Lra_Good Lra_Good2 Lra_Confl Lra_Watch Lra_Watch2 Comb_Model Comb_Lra Theory_Safe Comb_Safe1
  Lra_Safe1 Lra_Safe2 Lra_Cut Lra_Cut2 Lra_Cut3 Lra_Safe3 Lra_Safe4 Lra_Safe5 Lra_Safe6 Lra_Shape Lra_Safe7 Comb_Safe2 Comb_Safe3.
Import ListNotations.
Open Scope nat_scope.

Lemma later_t t1 t2 t3 : tlater t1 t2 -> tlater t2 t3 -> tlater t1 t3.
Proof. intros [A1 A2] [B1 B2]. constructor; eapply later_trans; eauto. Qed.

Lemma ED_vq x a t t' y w : linv (l_st a) t (l_bd a) -> tlater t t' -> vq (l_st a) t (bd_of (l_bd a) y) w -> ED x a t' ->
  ED x (with_bd a (bd_set (l_bd a) y w)) t'.
Proof.
  intros L TL V ((X2 & X3 & X4) & A1 & A2 & A3 & A4 & A5 & A6 & A7).
  split; [split; [exact X2|split; [exact X3|exact X4]]|].
  split; [exact A1|]. split; [exact A2|]. split; [exact A3|]. split; [exact A4|]. cbn [with_bd l_st l_bd l_watch].
  split; [|split].
  - intros j Hj. apply (vq_Qi _ t); auto. eapply later_t; [exact TL|apply cutl_later].
  - intros z. apply (vq_fe _ t); auto.
  - intros i Hi. destruct (A7 i Hi) as [U|U]; [left; apply (vq_Ui _ t); auto|right; exact U].
Qed.

Lemma lra_dec df a t x a' t' : TT t -> linv (l_st a) t (l_bd a) -> t_lvl t (VRat x) = None -> x < mnum (t_qm t) ->
  (forall m, cu_level (l_cur a) = Some m -> m <= dl t) -> Wc (l_watch a) (l_st a) ->
  lra_decide df a t (VRat x) = Ok (a', t') -> XD a t -> ED x a' t'.
Proof.
  intros T L U Rx HC W E X. unfold lra_decide in E. sb E. destruct zz as [w q]. cbn [with_bd with_cache l_st l_bd] in E.
  match type of E with context [is_allowed ?s ?t ?w ?q] => destruct (is_allowed s t w q) as [w1 b1] eqn:EA end.
  destruct b1; [|discriminate]. cbn [assertb bind] in E. injection E as <- <-.
  match goal with H : pick_value _ _ _ _ _ = _ |- _ => pose proof (pick_value_vq _ _ _ _ _ _ _ H) as V1 end.
  destruct (linv_query _ _ _ _ _ L V1) as [L1 _].
  pose proof (vq_allowed _ _ _ _ _ _ EA) as V2. apply is_allowed_spec in EA. destruct EA as [_ EA].
  assert (PQ : permitted (l_st a) t (bd_of (l_bd a) x) q).
  { apply (vq_perm (l_st a) t t (l_bd a) x w x q L V1 (tlater_refl t)). unfold bd_set at 1. cbn [bd_of]. rewrite upd_eq.
    apply permitted_allowed; [exact (vq_history _ _ _ _ V1 (li_h _ _ _ L x))|]. now apply EA. }
  set (t1 := trail_decide (with_qm t (set_value (t_qm t) x q)) (VRat x)).
  assert (SD : t_step t (TDecide (VRat x) (true, q)) = Ok t1) by reflexivity.
  destruct (step_kp t _ _ t1 T U SD) as [_ TL].
  pose proof (dec_rat a t x q t1 T L U Rx HC W PQ SD X) as D0.
  pose proof (ED_vq x a t t1 x w L TL V1 D0) as D1.
  assert (V2' : vq (l_st a) t (bd_of (bd_set (l_bd a) x w) x) w1) by (unfold bd_set at 1; cbn [bd_of]; rewrite upd_eq; exact V2).
  exact (ED_vq x (with_bd a (bd_set (l_bd a) x w)) t t1 x w1 L1 TL V2' D1).
Qed.

Lemma EN_fresh a t : sinv (l_st a) -> t_levels t = [[]] -> (forall v, t_lvl t v = None) -> (forall i, mdef (t_bm t) i = false) ->
  WS (l_watch a) (l_st a) -> bd_upd (l_bd a) = [] -> EN a t.
Proof.
  intros HS HL F FB W U. assert (D0 : dl t = 0) by (unfold dl; rewrite HL; reflexivity).
  split; [|split; [|split; [|split]]].
  - split; [exact W|]. split; [|exact U]. split; [constructor; [congruence| |]; intros i k; rewrite F; discriminate|]. intros i j ro k _ _ E. rewrite F in E. discriminate.
  - intros i Hi. split; [split; [|split]|].
    + intros v j Hv Ej. unfold lv in Ej. rewrite F in Ej. discriminate.
    + intros j Hj Hb. exfalso. pose proof (cv_ne _ _ HS Hi) as Ne. destruct (cv (l_st a) i) as [|u l]; [congruence|].
      destruct (Hb u (or_introl eq_refl)) as (j' & E & _). unfold lv in E. rewrite F in E. discriminate.
    + intros j j' _ _ _ E. rewrite F in E. discriminate.
    + intros v j _ E. unfold lv in E. rewrite F in E. discriminate.
  - intros j Hj. lia.
  - intros x. exists 0%Q. apply permitted_iff.
    assert (O : forall b, is_obsolete (l_st a) t b = false -> False).
    { intros b Ob. apply live_lit in Ob. unfold eval_lit in Ob. rewrite FB in Ob. discriminate. }
    split; intros; exfalso; eauto.
  - intros i Hi. left. apply Ui_undef, FB.
Qed.

Section S.
Variables (hi : nat -> Z) (hv : Q -> Z) (opt : lopt) (df nq : nat) (s0 : store).
Hypothesis HU : o_unassigned opt = false.
Notation LI0 := (Comb_Lra.LI hi hv opt nq s0).
Notation PE0 := (Comb_Lra.PE hi hv opt nq s0).
Notation PA0 := (Comb_Lra.PA hi hv opt nq s0).
Notation PD0 := (Comb_Lra.PD hi hv opt nq s0).
Notation PC0 := (Comb_Lra.PC hi hv opt nq s0).

(** the second half of [bl_safe] without the assumption on reasons *)
Lemma bl_inv : forall n fuel b a d t b' a' d' t' cs, PE0 (b, a) d t -> (trail_empty t = false -> units_done d t) -> NEc d -> XE a t ->
  bl_propagate hi hv opt n fuel b a d t = Ok ((b', a'), d', t', cs) -> NEc d' /\ XC a' t' /\ (cs = [] -> XD a' t').
Proof.
  induction n as [|n IH]; intros fuel b a d t b' a' d' t' cs HP HUn HN HX H; [discriminate|]. cbn [bl_propagate] in H.
  pose proof HP as (HE & HL & _ & _ & KL). cbn [fst snd] in *. pose proof (proj1 HE) as (T & _ & _).
  destruct (bool_propagate fuel b d t) as [[[[b1 d1] t1] c1]| |] eqn:EB; cbn [bind] in H; [|discriminate|discriminate].
  destruct (round1 hi hv opt nq s0 _ _ _ _ _ _ _ _ _ HP HUn EB) as (P1 & T1 & B & PO & LX & HL1 & HP1).
  destruct (XE_bool hi hv opt nq s0 _ _ _ _ _ _ _ _ _ HP HUn HX EB) as [X1 X2]. pose proof (NEc_perm _ _ P1 HN) as N1.
  destruct c1 as [|cl c1]; [|injection H as <- <- <- <- <-; split; auto; split; auto; discriminate].
  destruct (lra_safe hi hv opt nq s0 HU a t1 HL1 T1 HP1 X1) as [L1 L2].
  destruct (lra_propagate hi hv opt a t1) as [[[a2 t2] c2]| |] eqn:EL; cbn [bind] in H; [|discriminate|discriminate].
  destruct (L2 _ _ _ eq_refl) as (T2 & Y1 & Y2).
  destruct c2 as [|cl c2]; [|injection H as <- <- <- <- <-; split; auto; split; auto; discriminate].
  destruct (Nat.eqb_spec (length (recent t2)) (length (recent t))) as [EQ|NQ].
  - injection H as <- <- <- <- <-. split; auto.
  - destruct (round2 hi hv opt nq s0 HU _ _ _ _ _ _ _ _ _ _ HP HUn EB EL) as (Q1 & Q2 & Q3 & Q4).
    eapply IH; [exact Q1|auto|exact N1| |exact H]. left. apply XD_EN. now apply Y2.
Qed.

Definition SPE p d t := PE0 p d t /\ NEc d /\ XE (snd p) t.
Definition SPA p d t := PA0 p d t /\ NEc d /\ EN (snd p) t.
Definition SPD p d t := PD0 p d t /\ NEc d /\ XD (snd p) t.
Definition SPC k p d t := PC0 k p d t /\ NEc d /\ XC (snd p) t.

Lemma PC_linv k p d t : PC0 k p d t -> TT t /\ LI0 (snd p) t /\ linv (l_st (snd p)) t (l_bd (snd p)).
Proof. intros (P1 & _ & _ & P4 & _). split; [apply P1|]. split; [exact P4|]. now apply (li_linv hi hv opt nq s0). Qed.

Lemma bl_level2 : level_ok (bl_theory hi hv opt df) ltm SPE SPA SPD SPC.
Proof.
  pose proof (bl_level hi hv opt df nq s0 HU) as LK. split.
  - intros p d t (A & N & X). split; [exact (lk_enter _ _ _ _ _ _ LK p d t A)|]. split; [exact N|now left].
  - intros fuel [b a] d t [b' a'] d' t' cs (A & N & X) HUn H.
    destruct (lk_propagate _ _ _ _ _ _ LK _ _ _ _ _ _ _ _ A HUn H) as (K1 & K2 & K3).
    pose proof H as H1. cbn [bl_theory th_propagate fst snd] in H1. destruct (bl_inv _ _ _ _ _ _ _ _ _ _ _ A HUn N X H1) as (N1 & X1 & X2).
    split; [|split; [|exact K3]].
    + intros E. destruct (K1 E) as [K4 K5]. split; [|exact K5]. split; [exact K4|]. split; [exact N1|exact (X2 E)].
    + intros E. split; [exact (K2 E)|]. split; [exact N1|exact X1].
  - intros [b a] d t v ts' t' (A & N & X) U R H. destruct (lk_decide _ _ _ _ _ _ LK _ _ _ _ _ _ A U R H) as (K1 & K2 & K3).
    split; [|split; [exact K2|exact K3]]. split; [exact K1|]. split; [exact N|].
    pose proof A as (AC & _ & CL). destruct (PC_linv _ _ _ _ AC) as (T & HL & L). cbn [fst snd] in *.
    cbn [bl_theory th_decide fst snd] in H. unfold bl_decide in H. sb H. destruct zz as [a1 t1]. injection H as <- <-. cbn [snd].
    destruct v as [i|x].
    + match goal with H : lra_decide _ _ _ _ = _ |- _ => cbn in H; injection H as <- <- end. destruct K3 as (x & SD).
      left. apply (dec_bool a t i x); auto. cbn in R. now apply Nat.ltb_lt.
    + right. exists x. match goal with H : lra_decide _ _ _ _ = _ |- _ => cbn [bool_decide] in H; apply (lra_dec df a t x a1 t1) in H; auto end;
        [cbn in R; now apply Nat.ltb_lt|apply HL].
  - intros k [b a] d t c ts' (A & N & X) Nc F K H. destruct (lk_learned _ _ _ _ _ _ LK _ _ _ _ _ _ A Nc F K H) as (K1 & K2).
    split; [|exact K2]. split; [exact K1|]. cbn [bl_theory th_learned fst snd] in H. sb H. injection H as <-. cbn [snd]. split; [|exact X].
    intros c' Hc. unfold clauses_of in Hc. cbn in Hc. rewrite app_assoc, in_app_iff in Hc. destruct Hc as [Hc|[<-|[]]]; auto.
  - intros k k' p d t L (A & N & X). split; [exact (lk_mono _ _ _ _ _ _ LK k k' p d t L A)|]. split; [exact N|exact X].
  - intros [b a] d t k t' (A & N & X) Hk H. destruct (lk_backtrack _ _ _ _ _ _ LK _ _ _ _ _ A Hk H) as (K1 & K2). split; [|exact K2].
    split; [exact K1|]. split; [exact N|]. destruct (PC_linv _ _ _ _ A) as (T & HL & L). pose proof K1 as ((_ & HL' & _) & _).
    apply (li_linv hi hv opt nq s0) in HL'. apply XD_EN. exact (XC_back a t k t' T L HL' Hk H X).
  - intros [b a] d t k t' (A & N & X) Hk H. destruct (lk_undo _ _ _ _ _ _ LK _ _ _ _ _ A Hk H) as (K1 & K2). split; [|exact K2].
    split; [exact K1|]. split; [exact N|]. destruct (PC_linv _ _ _ _ A) as (T & HL & L). destruct (PC_linv _ _ _ _ (proj1 K1)) as (_ & _ & L').
    exact (XC_back a t k t' T L L' Hk H X).
  - intros [b a] d t l r t' (A & N & X) R U Hr H. pose proof (lk_assert _ _ _ _ _ _ LK _ _ _ _ _ _ A R U Hr H) as A'.
    split; [exact A'|]. split; [exact N|]. pose proof A as ((HE & HL & _ & _ & KL) & _). pose proof A' as ((HE' & _) & _). cbn [snd] in *.
    pose proof (proj1 (proj1 HE)) as T. pose proof (proj1 (proj1 HE')) as T'.
    apply (EN_bx a t t' T T'); auto.
    + exact (bx_prop t (lord l) _ _ _ _ T U eq_refl H).
    + exact (lx_step t (lord l) _ _ _ _ T U H).
    + split; [apply (DD_prop t (lord l) (Some r) (dl t) _ t' H); [left; discriminate|apply X]|].
      apply (NL_prop _ t (lord l) (Some r) (dl t) (negb (lneg l), 0%Q) t'); [destruct T as (aa & NN & _); exact NN|exact H|auto|apply X].
    + now apply (li_linv hi hv opt nq s0).
  - intros [b a] d t l t' (A & N & X) R U H. split; [exact (lk_split _ _ _ _ _ _ LK _ _ _ _ _ A R U H)|]. split; [exact N|]. left.
    pose proof A as (AC & _ & CL). destruct (PC_linv _ _ _ _ AC) as (T & HL & L). cbn [fst snd] in *.
    apply (dec_bool a t (lord l) (negb (lneg l), 0%Q)); auto.
  - intros [b a] d t L (A & N & X) HL. destruct (lk_restart _ _ _ _ _ _ LK _ _ _ _ A HL) as (K1 & K2). split; [|exact K2]. split; [exact K1|]. split.
    + intros c Hc. unfold clauses_of in Hc. cbn in Hc. apply N. unfold clauses_of. apply in_app_iff in Hc. apply in_app_iff. destruct Hc; auto.
    + left. destruct (PC_linv _ _ _ _ A) as (_ & _ & LV). destruct X as ((X2 & _ & X4) & _). cbn [bl_theory th_restart th_before_backtrack fst snd] in *.
      apply EN_fresh; auto. apply (li_s _ _ _ LV).
Qed.

Lemma bl_safe_ok : safe_ok (bl_theory hi hv opt df) SPE SPD SPC.
Proof.
  split.
  - intros fuel [b a] d t (A & N & X) HUn HRS. cbn [bl_theory th_propagate fst snd]. apply (bl_safe hi hv opt nq s0 HU); auto.
  - intros fuel [b a] d t [b' a'] d' t' cs (A & N & X) HUn D H. cbn [bl_theory th_propagate fst snd] in H.
    destruct (bl_inv _ _ _ _ _ _ _ _ _ _ _ A HUn N X H) as (_ & (X1 & _) & _).
    apply DR_DD; [|apply X1].
    apply (bl_propagate_ok hi hv opt df nq s0 HU (fun _ => False)) in H; auto. destruct H as (_ & _ & _ & _ & PO & _).
    apply (zero_ops d' t t' PO). apply D.
  - intros [b a] d t v (A & N & X) U R. cbn [bl_theory th_decide fst snd]. unfold bl_decide. apply bind_ub; [|intros [a1 t1] _; discriminate].
    destruct v as [i|x]; [discriminate|]. cbn [bool_decide]. destruct (PC_linv _ _ _ _ (proj1 A)) as (_ & _ & L).
    apply decide_tot; [apply (li_h _ _ _ L)|]. destruct X as (_ & _ & _ & Q). apply (proj2 Q).
  - intros k [b a] d t c (A & N & X) Nc _ _. cbn [bl_theory th_learned fst snd]. apply bind_ub; [|discriminate].
    unfold bool_learned. pose proof (getc_add_new d c) as E. unfold add_learned, new_ref in E. rewrite E. destruct c; [congruence|discriminate].
Qed.
End S.
