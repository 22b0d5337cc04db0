(** The plugins for booleans, linear arithmetic and uninterpreted functions meet the contract of Theory_Safe: no run fails an assertion. *)
From Coq Require Import List Arith ZArith QArith Qcanon NArith Bool Lia Lqa Permutation Sorted.
From Verif Require Import Base Terms_Model Spec_Terms Terms_Proofs TermMgr_Model Spec_TermMgr TermMgr_Base TermMgr_Arith TermMgr_Term
  Internalizer_Model Spec_Internalizer Internalizer_Proofs Uf_Model Spec_Uf Uf_Proofs Uf_Confl Ufcomb_Model Ufcomb_Eq Ufcomb_Watch Ufcomb_Level Ufcomb_Safe1 Ufcomb_Final.
From Verif Require Import Base Core_Model Literal_Proofs Analysis_Model Bool_Model Sat_Base Sat_Inv Sat_Trail Sat_Prop Sat_Bcp Sat_Main Sort_Proofs
  Trail_Model Spec_Trail Trail_Proofs Solver_Model Spec_Sat Spec_Theory Theory_Inv Theory_Strict Theory_Sound Theory_Bool Comb_Bcp Theory_Level
  Lincons_Model Spec_Lincons Lincons_Proofs Lincons_Proofs2 Lra_Model Spec_Lra Lra_Fm Lra_Bounds Lra_Hist Lra_Steps Lra_Keep
  Lra_Range Lra_Good Lra_Good2 Lra_Confl Lra_Watch Lra_Watch2 Comb_Model Comb_Lra Spec_Comb Comb_Final Theory_Safe Comb_Safe1
  Lra_Safe1 Lra_Safe2 Lra_Cut Lra_Cut2 Lra_Cut3 Lra_Safe3 Lra_Safe4 Lra_Safe5 Lra_Safe6 Lra_Shape Lra_Safe7 Comb_Safe2 Comb_Safe3 Comb_Safe4 Comb_Safe5.
Import ListNotations.
Close Scope Qc_scope.
Close Scope Q_scope.
Open Scope nat_scope.

Section S.
Variables (hi : nat -> Z) (hv : Q -> Z) (opt : lopt) (df nq : nat) (s0 : store).
Hypothesis HU : o_unassigned opt = false.
Variables (H : hashes) (T : table) (bv : list (term * lit)) (rv : list (term * nat)).
Hypothesis WF : wf H T.
Hypothesis M : maps_ok T rv.
Variable ws : list term.
Hypothesis NC : nc_ok T bv rv ws.
Hypothesis RG : reg_ok T bv rv ws.
Notation LI0 := (Comb_Lra.LI hi hv opt nq s0).
Notation PE0 := (Comb_Lra.PE hi hv opt nq s0).
Notation PC0 := (Comb_Lra.PC hi hv opt nq s0).
Notation PE3 := (PE3 hi hv opt nq s0 T bv rv ws).
Notation PA3 := (PA3 hi hv opt nq s0 T bv rv ws).
Notation PD3 := (PD3 hi hv opt nq s0 T bv rv ws).
Notation PC3 := (PC3 hi hv opt nq s0 T bv rv ws).
Notation UC := (UC T bv rv nq ws).
Notation ent := (fun _ : lit => False).
Definition WC3 (u : uf) : Prop := Forall (wcov T bv rv) (u_watch u).

Lemma XD_FA a t : LI0 a t -> TT t -> XD a t -> FA a t.
Proof.
  intros HL HT ((X1 & X2 & X3) & XO & XQ & XI). pose proof HL as [RN Wc0 R0 N0 Q0 G0].
  destruct (run_sinv hi hv opt _ _ RN) as [WSI SI].
  split; [exact WSI|]. split.
  - constructor; auto. intros i Hi. apply (XO i Hi).
  - constructor; auto.
    + apply (li_linv hi hv opt nq s0); exact HL.
    + apply DD_One, X2.
    + intros i Hi. apply (XO i Hi).
    + apply XI.
Qed.
Lemma kept_XC a t a' t' : LI0 a t -> TT t -> XD a t -> Ufcomb_Safe1.kept a t a' t' -> esteps hi hv (run3 a t) (run3 a' t') -> XC a' t'.
Proof.
  intros HL HT XDa (((F1 & F2 & [L1 L3 L4 L5 L6 L7]) & F3) & Fx & KD) G. pose proof XDa as ((X1 & X2 & X3) & XO & XQ & XI).
  pose proof HL as [RN Wc0 R0 N0 Q0 G0]. destruct (run_sinv hi hv opt _ _ RN) as [WSI SI].
  split; [split; [exact L4|split; [|congruence]]|].
  - split; [apply KD, X2|]. apply (ni_nl (l_st a') t'). apply (NI_steps hi hv _ _ G); cbn [fst snd run3]; [now rewrite (fx_dl _ _ Fx)|]. apply TT_NI; auto. apply X2.
  - split; [|exact L6]. intros i Hi. eapply OZ_mono; [apply le_S, le_n|]. split; [now apply (jo_ok _ _ _ F2)|auto].
Qed.
Lemma uround b a u d t fuel b1 d1 t1 a2 t2 : PE3 (b, a, u) d t -> (trail_empty t = false -> units_done d t) ->
  bool_propagate fuel b d t = Ok (b1, d1, t1, []) -> lra_propagate hi hv opt a t1 = Ok (a2, t2, []) ->
  PE3 (b1, a2, u) d1 t2 /\ units_done d1 t2 /\ bx t t2 /\ prop_ops true d1 ent t t2 /\ LI0 a2 t2 /\ TT t2.
Proof.
  intros [HP HC] HUn EB EL. cbn [fst snd] in *. destruct (round2 hi hv opt nq s0 HU _ _ _ _ _ _ _ _ _ _ HP HUn EB EL) as (Q1 & Q2 & Q3 & Q4).
  pose proof HP as (HE & _). pose proof (proj1 (proj1 HE)) as HT. pose proof Q1 as (HE2 & HL2 & _). pose proof (proj1 (proj1 HE2)) as HT2.
  split; [|auto]. split; [exact Q1|]. cbn [snd]. rewrite (bx_dl _ _ Q3). exact (UC_bx nq T bv rv ws (dl t) u t t2 HT HT2 Q3 HC).
Qed.
(** what propagation of the three plugins keeps *)
Lemma ul_inv : forall n fuel b a u d t b' a' u' d' t' cs, PE3 (b, a, u) d t -> (trail_empty t = false -> units_done d t) -> NEc d -> XE a t -> WC3 u ->
  ul_propagate hi hv opt T bv rv n fuel b a u d t = Ok ((b', a', u'), d', t', cs) -> NEc d' /\ XC a' t' /\ WC3 u' /\ (cs = [] -> XD a' t').
Proof.
  induction n as [|n IH]; intros fuel b a u d t b' a' u' d' t' cs HP3 HUn HN HX HW E; [discriminate|]. cbn [ul_propagate] in E.
  pose proof HP3 as [HP HC]. cbn [fst snd] in *. pose proof HP as (HE & HL & _ & _ & KL). cbn [fst snd] in *. pose proof (proj1 HE) as (HT & _ & _).
  destruct (bool_propagate fuel b d t) as [[[[b1 d1] t1] c1]| |] eqn:EB; cbn [bind] in E; [|discriminate|discriminate].
  destruct (round1 hi hv opt nq s0 _ _ _ _ _ _ _ _ _ HP HUn EB) as (P1 & T1 & B & PO & LX & HL1 & HP1).
  destruct (XE_bool hi hv opt nq s0 _ _ _ _ _ _ _ _ _ HP HUn HX EB) as [X1 X2]. pose proof (NEc_perm _ _ P1 HN) as N1.
  destruct c1 as [|cl c1]; [|injection E as <- <- <- <- <- <-; split; auto; split; auto; split; auto; discriminate].
  destruct (lra_safe hi hv opt nq s0 HU a t1 HL1 T1 HP1 X1) as [L1 L2].
  destruct (lra_propagate hi hv opt a t1) as [[[a2 t2] c2]| |] eqn:EL; cbn [bind] in E; [|discriminate|discriminate].
  destruct (L2 _ _ _ eq_refl) as (T2 & Y1 & Y2).
  destruct c2 as [|cl c2]; [|injection E as <- <- <- <- <- <-; split; auto; split; auto; split; auto; discriminate].
  specialize (Y2 eq_refl). destruct (uround _ _ _ _ _ _ _ _ _ _ _ HP3 HUn EB EL) as (Q1 & Q2 & Q3 & Q4 & HL2 & _).
  pose proof (XD_FA _ _ HL2 T2 Y2) as FA2. pose proof Q1 as [_ [UI2 RC2]]. cbn [fst snd] in *.
  destruct (uf_safe hi hv opt H T bv rv WF M nq ws RG NC u a2 t2 FA2 UI2 HW) as [_ US].
  destruct (uf_propagate hi hv opt T bv rv u a2 t2) as [[[[u3 a3] t3] c3]| |] eqn:EU; cbn [bind] in E; try discriminate.
  destruct (US _ _ _ _ eq_refl) as [K W3].
  destruct (uf_step hi hv opt H T bv rv WF M nq ws d1 ent NC u a2 t2 u3 a3 t3 c3 (proj1 FA2) (proj1 (proj2 FA2)) (conj UI2 RC2) EU) as (A1 & A2 & A3 & A4).
  destruct c3 as [|cl c3].
  - destruct (A3 eq_refl) as (-> & -> & _). destruct (Nat.eqb_spec (length (recent t2)) (length (recent t))) as [EQ|NQ].
    + injection E as <- <- <- <- <- <-. split; auto.
    + eapply IH; [|intros _; exact Q2|exact N1| |exact W3|exact E].
      * split; [exact (proj1 Q1)|exact A2].
      * left. now apply XD_EN.
  - injection E as <- <- <- <- <- <-. split; auto. split; [|split; [exact W3|discriminate]].
    eapply kept_XC; eauto. apply (as_goes _ _ _ _ _ _ _ _ _ A1).
Qed.
Lemma ul_safe : forall n fuel b a u d t, PE3 (b, a, u) d t -> (trail_empty t = false -> units_done d t) -> RS d t -> NEc d -> XE a t -> WC3 u ->
  ul_propagate hi hv opt T bv rv n fuel b a u d t <> UB.
Proof.
  induction n as [|n IH]; intros fuel b a u d t HP3 HUn HRS HN HX HW; [discriminate|]. cbn [ul_propagate].
  pose proof HP3 as [HP HC]. cbn [fst snd] in *. pose proof HP as (HE & HL & _ & _ & KL). cbn [fst snd] in *. pose proof (proj1 HE) as (HT & _ & _).
  pose proof (bool_propagate_tot fuel b d t HE HUn HRS HN) as TB.
  destruct (bool_propagate fuel b d t) as [[[[b1 d1] t1] c1]| |] eqn:EB; cbn [bind]; [|congruence|discriminate].
  destruct (round1 hi hv opt nq s0 _ _ _ _ _ _ _ _ _ HP HUn EB) as (P1 & T1 & B & PO & LX & HL1 & HP1).
  destruct (XE_bool hi hv opt nq s0 _ _ _ _ _ _ _ _ _ HP HUn HX EB) as [X1 X2]. pose proof (NEc_perm _ _ P1 HN) as N1.
  destruct c1 as [|cl c1]; [|discriminate].
  destruct (lra_safe hi hv opt nq s0 HU a t1 HL1 T1 HP1 X1) as [L1 L2].
  destruct (lra_propagate hi hv opt a t1) as [[[a2 t2] c2]| |] eqn:EL; cbn [bind]; [|congruence|discriminate].
  destruct (L2 _ _ _ eq_refl) as (T2 & Y1 & Y2). destruct c2 as [|cl c2]; [|discriminate].
  specialize (Y2 eq_refl). destruct (uround _ _ _ _ _ _ _ _ _ _ _ HP3 HUn EB EL) as (Q1 & Q2 & Q3 & Q4 & HL2 & _).
  pose proof (XD_FA _ _ HL2 T2 Y2) as FA2. pose proof Q1 as [_ [UI2 RC2]]. cbn [fst snd] in *.
  destruct (uf_safe hi hv opt H T bv rv WF M nq ws RG NC u a2 t2 FA2 UI2 HW) as [UT US].
  destruct (uf_propagate hi hv opt T bv rv u a2 t2) as [[[[u3 a3] t3] c3]| |] eqn:EU; cbn [bind]; [|congruence|discriminate].
  destruct (US _ _ _ _ eq_refl) as [K W3].
  destruct (uf_step hi hv opt H T bv rv WF M nq ws d1 ent NC u a2 t2 u3 a3 t3 c3 (proj1 FA2) (proj1 (proj2 FA2)) (conj UI2 RC2) EU) as (A1 & A2 & A3 & A4).
  destruct c3 as [|cl c3]; [|discriminate]. destruct (A3 eq_refl) as (-> & -> & _).
  destruct (Nat.eqb_spec (length (recent t2)) (length (recent t))) as [EQ|NQ]; [discriminate|].
  apply IH; auto.
  - split; [exact (proj1 Q1)|exact A2].
  - apply (RS_ops true d1 ent t t2); auto. now apply (RS_perm d).
  - left. now apply XD_EN.
Qed.

Definition UPE (p : bstate * lra * uf) d t := PE3 p d t /\ NEc d /\ XE (snd (fst p)) t /\ WC3 (snd p).
Definition UPA (p : bstate * lra * uf) d t := PA3 p d t /\ NEc d /\ EN (snd (fst p)) t /\ WC3 (snd p).
Definition UPD (p : bstate * lra * uf) d t := PD3 p d t /\ NEc d /\ XD (snd (fst p)) t /\ WC3 (snd p).
Definition UPC k (p : bstate * lra * uf) d t := PC3 k p d t /\ NEc d /\ XC (snd (fst p)) t /\ WC3 (snd p).
Notation PC_linv := (PC_linv hi hv opt nq s0).

Lemma ul_level2 : level_ok (ul_theory hi hv opt T bv rv df) (utm T rv) UPE UPA UPD UPC.
Proof.
  pose proof (ul_level hi hv opt df nq s0 HU H T bv rv WF M ws NC) as LK. split.
  - intros p d t (A & N & X & W3). split; [exact (lk_enter _ _ _ _ _ _ LK p d t A)|]. split; [exact N|]. split; [now left|exact W3].
  - intros fuel [[b a] u] d t [[b' a'] u'] d' t' cs (A & N & X & W3) HUn E.
    destruct (lk_propagate _ _ _ _ _ _ LK _ _ _ _ _ _ _ _ A HUn E) as (K1 & K2 & K3).
    pose proof E as H1. cbn [ul_theory th_propagate fst snd] in H1. destruct (ul_inv _ _ _ _ _ _ _ _ _ _ _ _ _ A HUn N X W3 H1) as (N1 & X1 & X3 & X2).
    split; [|split; [|exact K3]].
    + intros E0. destruct (K1 E0) as [K4 K5]. split; [|exact K5]. split; [exact K4|]. split; [exact N1|]. split; [exact (X2 E0)|exact X3].
    + intros E0. split; [exact (K2 E0)|]. split; [exact N1|]. split; [exact X1|exact X3].
  - intros [[b a] u] d t v ts' t' (A & N & X & W3) U R E. destruct (lk_decide _ _ _ _ _ _ LK _ _ _ _ _ _ A U R E) as (K1 & K2 & K3).
    split; [|split; [exact K2|exact K3]]. split; [exact K1|]. split; [exact N|].
    pose proof A as [(AC & _ & CL) _]. destruct (PC_linv _ _ _ _ AC) as (HT & HL & L). cbn [fst snd] in *.
    cbn [ul_theory th_decide fst snd] in E. unfold ul_decide in E. sb E. destruct zz as [a1 t1]. injection E as <- <-. cbn [snd fst]. split; [|exact W3].
    destruct v as [i|x].
    + match goal with H : lra_decide _ _ _ _ = _ |- _ => cbn in H; injection H as <- <- end. destruct K3 as (x & SD).
      left. apply (dec_bool a t i x); auto. cbn in R. now apply Nat.ltb_lt.
    + right. exists x. match goal with H : lra_decide _ _ _ _ = _ |- _ => cbn [bool_decide] in H; apply (lra_dec df a t x a1 t1) in H; auto end;
        [cbn in R; now apply Nat.ltb_lt|apply HL].
  - intros k [[b a] u] d t c ts' (A & N & X & W3) Nc F K E. destruct (lk_learned _ _ _ _ _ _ LK _ _ _ _ _ _ A Nc F K E) as (K1 & K2).
    split; [|exact K2]. split; [exact K1|]. cbn [ul_theory th_learned fst snd] in E. sb E. injection E as <-. cbn [snd fst]. split; [|split; [exact X|exact W3]].
    intros c' Hc. unfold clauses_of in Hc. cbn in Hc. rewrite app_assoc, in_app_iff in Hc. destruct Hc as [Hc|[<-|[]]]; auto.
  - intros k k' p d t L (A & N & X). split; [exact (lk_mono _ _ _ _ _ _ LK k k' p d t L A)|]. split; [exact N|exact X].
  - intros [[b a] u] d t k t' (A & N & X & W3) Hk E. destruct (lk_backtrack _ _ _ _ _ _ LK _ _ _ _ _ A Hk E) as (K1 & K2). split; [|exact K2].
    split; [exact K1|]. split; [exact N|]. split; [|exact W3]. destruct (PC_linv _ _ _ _ (proj1 A)) as (HT & HL & L). pose proof K1 as (((_ & HL' & _) & _) & _).
    apply (li_linv hi hv opt nq s0) in HL'. apply XD_EN. exact (XC_back a t k t' HT L HL' Hk E X).
  - intros [[b a] u] d t k t' (A & N & X & W3) Hk E. destruct (lk_undo _ _ _ _ _ _ LK _ _ _ _ _ A Hk E) as (K1 & K2). split; [|exact K2].
    split; [exact K1|]. split; [exact N|]. split; [|exact W3]. destruct (PC_linv _ _ _ _ (proj1 A)) as (HT & HL & L). destruct (PC_linv _ _ _ _ (proj1 (proj1 K1))) as (_ & _ & L').
    exact (XC_back a t k t' HT L L' Hk E X).
  - intros [[b a] u] d t l r t' (A & N & X & W3) R U Hr E. pose proof (lk_assert _ _ _ _ _ _ LK _ _ _ _ _ _ A R U Hr E) as A'.
    split; [exact A'|]. split; [exact N|]. split; [|exact W3]. pose proof A as [((HE & HL & _ & _ & KL) & _) _]. pose proof A' as [((HE' & _) & _) _]. cbn [fst snd] in *.
    pose proof (proj1 (proj1 HE)) as HT. pose proof (proj1 (proj1 HE')) as HT'.
    apply (EN_bx a t t' HT HT'); auto.
    + exact (bx_prop t (lord l) _ _ _ _ HT U eq_refl E).
    + exact (lx_step t (lord l) _ _ _ _ HT U E).
    + split; [apply (DD_prop t (lord l) (Some r) (dl t) _ t' E); [left; discriminate|apply X]|].
      apply (NL_prop _ t (lord l) (Some r) (dl t) (negb (lneg l), 0%Q) t'); [destruct HT as (aa & NN & _); exact NN|exact E|auto|apply X].
    + now apply (li_linv hi hv opt nq s0).
  - intros [[b a] u] d t l t' (A & N & X & W3) R U E. split; [exact (lk_split _ _ _ _ _ _ LK _ _ _ _ _ A R U E)|]. split; [exact N|]. split; [|exact W3]. left.
    pose proof A as [(AC & _ & CL) _]. destruct (PC_linv _ _ _ _ AC) as (HT & HL & L). cbn [fst snd] in *.
    apply (dec_bool a t (lord l) (negb (lneg l), 0%Q)); auto.
  - intros [[b a] u] d t L (A & N & X & W3) HL. destruct (lk_restart _ _ _ _ _ _ LK _ _ _ _ A HL) as (K1 & K2). split; [|exact K2]. split; [exact K1|]. split; [|split; [|exact W3]].
    + intros c Hc. unfold clauses_of in Hc. cbn in Hc. apply N. unfold clauses_of. apply in_app_iff in Hc. apply in_app_iff. destruct Hc; auto.
    + left. destruct (PC_linv _ _ _ _ (proj1 A)) as (_ & _ & LV). destruct X as ((X2 & _ & X4) & _). cbn [ul_theory th_restart th_before_backtrack fst snd] in *.
      apply EN_fresh; auto. apply (li_s _ _ _ LV).
Qed.
Lemma ul_safe_ok : safe_ok (ul_theory hi hv opt T bv rv df) UPE UPD UPC.
Proof.
  split.
  - intros fuel [[b a] u] d t (A & N & X & W3) HUn HRS. cbn [ul_theory th_propagate fst snd]. apply ul_safe; auto.
  - intros fuel [[b a] u] d t [[b' a'] u'] d' t' cs (A & N & X & W3) HUn D E. cbn [ul_theory th_propagate fst snd] in E.
    destruct (ul_inv _ _ _ _ _ _ _ _ _ _ _ _ _ A HUn N X W3 E) as (_ & (X1 & _) & _).
    apply DR_DD; [|apply X1].
    apply (ul_propagate_ok hi hv opt nq s0 HU H T bv rv WF M ws NC (fun _ => False)) in E; auto. destruct E as (_ & _ & _ & _ & PO & _).
    apply (zero_ops d' t t' PO). apply D.
  - intros [[b a] u] d t v (A & N & X & W3) U R. cbn [ul_theory th_decide fst snd]. unfold ul_decide. apply bind_ub; [|intros [a1 t1] _; discriminate].
    destruct v as [i|x]; [discriminate|]. cbn [bool_decide]. destruct (PC_linv _ _ _ _ (proj1 (proj1 A))) as (_ & _ & L).
    apply decide_tot; [apply (li_h _ _ _ L)|]. destruct X as (_ & _ & _ & Q). apply (proj2 Q).
  - intros k [[b a] u] d t c (A & N & X) Nc _ _. cbn [ul_theory th_learned fst snd]. apply bind_ub; [|discriminate].
    unfold bool_learned. pose proof (getc_add_new d c) as E. unfold add_learned, new_ref in E. rewrite E. destruct c; [congruence|discriminate].
Qed.
End S.

Section Run.
Variables (hi : nat -> Z) (hv : Q -> Z) (opt : lopt) (HU : o_unassigned opt = false).
Variables (H : hashes) (T : table) (bv : list (term * lit)) (rv : list (term * nat)).
Hypothesis WF : wf H T.
Hypothesis M : maps_ok T rv.
Context {HS : Type} (he : heur HS) (hash : lit -> N).
Variables (df : nat) (h : list (request * lit)) (a : lra) (u : uf) (t : trail) (cs : list clause) (o : phase_opt) (hs : HS).
Hypothesis NC : nc_ok T bv rv (map fst (u_watch u)).
Hypothesis RG : reg_ok T bv rv (map fst (u_watch u)).
Hypothesis HPb : problem hi hv opt h a t.
Hypothesis HV : forall c l, In c cs -> In l c -> lord l < mnum (t_bm t).
Hypothesis HN : forall c, In c cs -> c <> [].
Hypothesis HW : Forall (wl_ok T rv (mnum (t_qm t))) (u_watch u).
Hypothesis HC : Forall (wcov T bv rv) (u_watch u).
Hypothesis HF0 : u_fns u = [].
Let s0 := mkS (mkDb cs []) t (bstate_new o, a, u) hs 0.
Let th := ul_theory hi hv opt T bv rv df.
Hypothesis HP : picks_unassigned th he hash s0.

Lemma start_UPE : UPE hi hv opt (mnum (t_qm t)) (l_st a) T bv rv (map fst (u_watch u)) (bstate_new o, a, u) (mkDb cs []) t.
Proof.
  split; [exact (start_PE3 hi hv opt T bv rv h a u t cs o HPb HV HW HF0)|].
  pose proof (start_SPE hi hv opt h a t cs o HPb HV HN) as (_ & A & B). split; [exact A|]. split; [exact B|exact HC].
Qed.
Theorem ucheck_safe fuel : check_uflra hi hv opt T bv rv he hash df fuel cs o a u t hs <> UB.
Proof.
  unfold check_uflra. fold th. pose proof (problem_SU hi hv opt h a t HPb) as [R W N TTt F G Cu NE Me Al].
  pose proof start_UPE as P0.
  apply (run_safe th he hash (utm T rv) _ _ _ _ (ul_level2 hi hv opt df (mnum (t_qm t)) (l_st a) HU H T bv rv WF M _ NC RG) (ul_safe_ok hi hv opt df (mnum (t_qm t)) (l_st a) HU H T bv rv WF M _ NC RG)
    cs (mnum (t_bm t)) HV fuel s0).
  - apply start_SE; auto.
  - constructor.
  - cbn [s_trail]. destruct F as [F1 F2 F3 F4 F5]. apply DR_fresh; auto.
  - cbn. lia.
  - exact HP.
Qed.
End Run.
Print Assumptions ucheck_safe.
