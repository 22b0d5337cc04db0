(** Boolean propagation, linear arithmetic and uninterpreted functions together satisfy the level-aware plugin contract. *)
From Coq Require Import List Arith ZArith QArith Qcanon NArith Bool Lia Lqa Permutation Sorted.
From Verif Require Import Base Terms_Model Spec_Terms Terms_Proofs TermMgr_Model Spec_TermMgr TermMgr_Base TermMgr_Arith TermMgr_Term
  Internalizer_Model Spec_Internalizer Internalizer_Proofs Uf_Model Spec_Uf Uf_Proofs Uf_Confl Ufcomb_Model Ufcomb_Eq Ufcomb_Watch.
From Verif Require Import Base Core_Model Literal_Proofs Analysis_Model Bool_Model Sat_Base Sat_Inv Sat_Trail Sat_Prop Sat_Bcp Sat_Main Sort_Proofs
  Trail_Model Spec_Trail Trail_Proofs Solver_Model Spec_Sat Spec_Theory Theory_Inv Theory_Strict Theory_Sound Theory_Bool Comb_Bcp Theory_Level
  Lincons_Model Spec_Lincons Lincons_Proofs Lincons_Proofs2 Lra_Model Spec_Lra Lra_Fm Lra_Bounds Lra_Hist Lra_Steps Lra_Keep
  Lra_Range Lra_Good Lra_Confl Lra_Watch Lra_Watch2 Comb_Model Comb_Lra.
Import ListNotations.
Close Scope Qc_scope.
Close Scope Q_scope.
Open Scope nat_scope.

Section V.
Variables (hi : nat -> Z) (hv : Q -> Z) (opt : lopt) (df : nat) (nq : nat) (s0 : store).
Hypothesis HU : o_unassigned opt = false.
Variables (H : hashes) (T : table) (bv : list (term * lit)) (rv : list (term * nat)).
Hypothesis WF : wf H T.
Hypothesis M : maps_ok T rv.
Variable ws : list term.
Hypothesis NC : nc_ok T bv rv ws.

Definition utm (p : bstate * lra * uf) (m : nat -> bool) : Prop :=
  exists I r, Spec_Lra.consistent (l_st (snd (fst p))) r m /\ Spec_Uf.reads T rv I r.
Notation PE := (PE hi hv opt nq s0).
Notation PA := (PA hi hv opt nq s0).
Notation PD := (PD hi hv opt nq s0).
Notation PC := (PC hi hv opt nq s0).
Notation LI := (LI hi hv opt nq s0).
Notation UC := (UC T bv rv nq ws).
Definition PE3 (p : bstate * lra * uf) d t : Prop := PE (fst p) d t /\ UC (dl t) (snd p) t.
Definition PA3 (p : bstate * lra * uf) d t : Prop := PA (fst p) d t /\ UC (dl t) (snd p) t.
Definition PD3 (p : bstate * lra * uf) d t : Prop := PD (fst p) d t /\ UC (S (dl t)) (snd p) t.
Definition PC3 k (p : bstate * lra * uf) d t : Prop := PC k (fst p) d t /\ UC k (snd p) t.

Lemma bx_keep t t' : TT t -> TT t' -> bx t t' -> keep_all t t'.
Proof.
  intros HT HT' B k v l E L. split; [now apply (bx_lvl _ _ B)|].
  assert (X : sameval t t' v).
  { destruct v as [i|x]; cbn; [|now rewrite (bx_qm _ _ B)].
    assert (D : mdef (t_bm t) i = true) by (apply tt_b; auto; congruence).
    pose proof (bx_val _ _ B (mkLit i false) (mval (t_bm t) i)) as V. unfold tv, eval_lit in V. cbn in V. rewrite D in V.
    destruct (mval (t_bm t) i) eqn:EV; specialize (V eq_refl); destruct (mdef (t_bm t') i); try discriminate; injection V as V; destruct (mval (t_bm t') i); auto; discriminate. }
  unfold sameval in X. unfold var_val. destruct v; congruence.
Qed.
Lemma UC_bx k u t t' : TT t -> TT t' -> bx t t' -> UC k u t -> UC k u t'.
Proof.
  intros HT HT' B. apply UC_keep; [now apply bx_keep|]. intros r j _ L. now rewrite <- (bx_lv _ _ r B).
Qed.
Lemma UC_fx k u t t' : TT t -> fx t t' -> UC k u t -> UC k u t'.
Proof.
  intros HT B. apply UC_keep; [now apply fx_keep|]. intros r j _ L. now rewrite <- (fx_lv _ _ B).
Qed.
Lemma UC_decide u t v x t' : TT t -> t_lvl t v = None -> t_step t (TDecide v x) = Ok t' -> UC (S (dl t)) u t -> UC (dl t') u t'.
Proof.
  intros HT U S HC. assert (N : t_levels t <> []) by (destruct HT as (a0 & N & _); exact N).
  destruct (kx_decide _ _ _ _ N U S) as (K & D & _). rewrite D. eapply UC_keep; [| |exact HC].
  - intros k w l E L. pose proof (tt_le _ _ _ HT E) as Ll. apply (kx_pres _ l _ _ K (le_n_S _ _ Ll) w l E). auto.
  - intros r j Hj L. apply (K (VRat r) j Hj). exact L.
Qed.

Lemma usteps_refine b b' u u' a t a' t' : esteps hi hv (run3 a t) (run3 a' t') -> wsi a ->
  refines utm (length (st_cons (l_st a))) (b, a, u) (b', a', u').
Proof.
  intros HS W. destruct (esteps_grows _ _ _ _ _ _ HS W) as (S1 & S2 & G). destruct (esteps_app _ _ _ _ HS S1) as (l & E). cbn in E.
  split; intros m (I & r & C & Rd); cbn in *.
  - exists I, r. split; auto. cbn in *. eapply consistent_grows; eauto.
  - exists (fun i => if i <? length (st_cons (l_st a)) then m i else
      if Lra_Confl.rel_dec (lc_pred (lc_get (l_st a') i)) (Spec_Lincons.lin r (lc_terms (l_st a') (lc_get (l_st a') i))) (lc_rhs (lc_get (l_st a') i)) then true else false).
    split.
    + exists I, r. split; auto. cbn [fst snd]. intros i He. destruct (Nat.ltb_spec i (length (st_cons (l_st a)))).
      * assert (EG : lc_get (l_st a') i = lc_get (l_st a) i) by (unfold lc_get; rewrite E; now apply app_nth1).
        assert (Hi : isC (l_st a) i) by (unfold isC; now rewrite <- EG). rewrite (C i Hi). symmetry. now apply stored_holds_grows.
      * unfold stored_holds. destruct (Lra_Confl.rel_dec _ _ _); split; auto; discriminate.
    + intros i Hi. apply Nat.ltb_lt in Hi. now rewrite Hi.
Qed.
Lemma urefines_trans n n1 (p q r : bstate * lra * uf) : n <= n1 -> refines utm n p q -> refines utm n1 q r -> refines utm n p r.
Proof.
  intros L [A1 A2] [B1 B2]. split; [auto|]. intros m Hm. destruct (A2 m Hm) as (m1 & H1 & E1). destruct (B2 m1 H1) as (m2 & H2 & E2).
  exists m2. split; auto. intros i Hi. rewrite E2, E1; auto. lia.
Qed.
Lemma urefines_same n b b' a u u' : refines utm n (b, a, u) (b', a, u').
Proof. split; [auto|]. intros m Hm. exists m. auto. Qed.
Lemma utm_same (b b' : bstate) a a' (u u' : uf) : l_st a' = l_st a -> same_models utm (b, a, u) (b', a', u').
Proof. intros E m. unfold utm. cbn. rewrite E. tauto. Qed.

Lemma ul_propagate_ok ent : forall n fuel b a u d t b' a' u' d' t' cs, PE3 (b, a, u) d t -> (trail_empty t = false -> units_done d t) ->
  ul_propagate hi hv opt T bv rv n fuel b a u d t = Ok ((b', a', u'), d', t', cs) ->
  (cs = [] -> PD3 (b', a', u') d' t' /\ units_done d' t') /\ (cs <> [] -> PC3 (dl t') (b', a', u') d' t') /\
  dbperm d d' /\ refines utm (mnum (t_bm t)) (b, a, u) (b', a', u') /\ prop_ops true d' ent t t' /\
  (forall c, In c cs -> lemma_of utm (b', a', u') d c /\ forall l, In l c -> eval_lit (t_bm t') l = Some false).
Proof.
  induction n as [|n IH]; intros fuel b a u d t b' a' u' d' t' cs [(HE & HL & HP & KB & KL) HC] HUn E; [discriminate|]. cbn [fst snd] in *.
  cbn [ul_propagate] in E. destruct (bool_propagate fuel b d t) as [[[[b1 d1] t1] c1]| |] eqn:EB; cbn [bind] in E; try discriminate.
  pose proof (proj1 HE) as (HT & V & _).
  destruct (bool_propagate2 ent _ _ _ _ _ _ _ _ HE HUn EB) as (B1 & B2 & B3 & B4 & B5 & B6 & B7 & B8 & B9 & B10).
  pose proof (proj1 B2) as T1. pose proof (LI_bx hi hv opt nq s0 _ _ _ _ _ HT B4 B3 HL) as HL1. pose proof HL1 as [R1' W1 R01 N1 Q1 G1].
  destruct (run_sinv hi hv opt _ _ R1') as [WS SI].
  pose proof (UC_bx _ _ _ _ HT T1 B4 HC) as HC1. rewrite <- (bx_dl _ _ B4) in HC1.
  destruct c1 as [|cl c1].
  - destruct (lra_propagate hi hv opt a t1) as [[[a2 t2] c2]| |] eqn:EL; cbn [bind] in E; try discriminate.
    assert (HP1 : forall i, isC (l_st a) i -> PEi (lpnd a t1) [] (l_st a) t1 i) by (intros i Hi; exact (PEi_bx a t t1 i HT B4 KL (HP i Hi))).
    destruct (lra_propagate_ok hi hv opt d1 ent a t1 a2 t2 c2 HU WS T1 R01 N1 W1 HP1 EL) as (L1 & L2 & L3 & L4 & tm & L5 & L6 & L7 & L8).
    pose proof (propagate_steps hi hv opt _ _ _ _ _ WS EL) as [G _].
    pose proof (fun u2 => usteps_refine b1 b1 u u2 _ _ _ _ G WS) as RF. rewrite N1, (bx_num _ _ B4) in RF.
    assert (RF' : forall u2, refines utm (mnum (t_bm t)) (b, a, u) (b1, a2, u2)) by (intros u2; eapply urefines_trans; [apply le_n|apply (urefines_same _ b b1 _ _ u)|apply RF]).
    pose proof (lr_propagate hi hv opt _ _ _ _ _ R1' EL) as R2.
    assert (HL2 : LI a2 t2) by (constructor; [exact R2|apply (jo_c _ _ _ L2)|apply (jo_r _ _ _ L2)|apply (jo_n _ _ _ L2)|destruct (prop_ops_kept _ _ _ _ T1 L4) as (_ & [_ ->] & _); exact Q1|
      eapply grows_trans; [exact G1|apply (esteps_grows _ _ _ _ _ _ G WS)]]).
    pose proof (jo_t _ _ _ L2) as T2.
    pose proof (prop_ops_tpi _ _ _ _ B2 L4) as P2.
    assert (PO : prop_ops true d1 ent t t2) by (eapply prop_ops_trans; eauto).
    assert (D2 : dl t2 = dl t1) by (rewrite (fx_dl _ _ L7); apply (bx_dl _ _ L5)).
    assert (HC2 : UC (dl t2) u t2) by (rewrite D2; eapply UC_fx; [exact L6|exact L7|]; eapply UC_bx; [exact T1|exact L6|exact L5|exact HC1]).
    assert (PB2 : PB (dl t2) d1 t2).
    { assert (IV : in_vars (mnum (t_bm tm)) d1) by (rewrite (bx_num _ _ L5); apply B2).
      apply (fx_PB _ _ tm t2); auto. rewrite D2. eapply kx_PB; [exact T1|exact L6|now apply kx_bx|exact B8]. }
    destruct (B9 eq_refl) as [PB1 U1].
    destruct c2 as [|cl c2].
    + specialize (L8 eq_refl). subst tm.
      destruct (uf_propagate hi hv opt T bv rv u a2 t2) as [[[[u3 a3] t3] c3]| |] eqn:EU; cbn [bind] in E; try discriminate.
      destruct (uf_step hi hv opt H T bv rv WF M nq ws d1 ent NC u a2 t2 u3 a3 t3 c3 L1 L2 HC2 EU) as (A1 & A2 & A3 & A4).
      destruct c3 as [|cl c3].
      * destruct (A3 eq_refl) as (-> & -> & HC3). destruct (Nat.eqb_spec (length (recent t2)) (length (recent t))) as [EQ|NQ].
        -- injection E as <- <- <- <- <- <-.
           assert (LE : length (recent t2) = length (recent t1)).
           { pose proof (bx_length _ _ B4). pose proof (bx_length _ _ L5). lia. }
           split; [intros _|split; [congruence|]].
           ++ split; [|eapply units_bx; eauto]. split; [|exact HC3]. split; [|cbn [fst snd]; split].
              ** split; [exact P2|]. split; [exact B5|]. split; [|split; [exact HL2|exact (jo_ok _ _ _ L2)]].
                 eapply kx_PB; [exact T1|exact T2| |rewrite (bx_dl _ _ L5); exact PB1]. now apply bx_same_kx.
              ** intros m Em. rewrite B6 in Em. injection Em as <-. rewrite (bx_dl _ _ L5). lia.
              ** intros m Em. rewrite L3 in Em. cbn in Em. injection Em as <-. rewrite (bx_dl _ _ L5). lia.
           ++ split; [exact B1|]. split; [exact (RF' _)|]. split; [exact PO|]. intros c [].
        -- assert (HB1 : bskip b1 t1 <= length (recent t1)).
           { unfold bskip. rewrite B6, Nat.eqb_refl, B7. now apply bx_length. }
           eapply IH in E.
           ++ destruct E as (I1 & I2 & I3 & I4 & I5 & I6). split; [exact I1|]. split; [exact I2|]. split; [eapply dbperm_trans; eauto|].
              split; [eapply urefines_trans; [|exact (RF' u3)|exact I4]; rewrite (bx_num _ _ L5), (bx_num _ _ B4); lia|].
              split; [eapply prop_ops_trans; [eapply prop_ops_perm; [exact I3|exact PO]|exact I5]|].
              intros c Hc. destruct (I6 c Hc) as [J1 J2]. split; auto. intros m Hm Hall. apply J1; auto. eapply perm_hold; eauto.
           ++ split; [|exact A2]. split; [|cbn [fst snd]; split; [exact HL2|split; [|split]]].
              ** split; [exact P2|]. intros _. split; [exact B5|]. intros r Hr. cbn [fst]. eapply (cen_round b1 t1 t2); auto.
                 intros w Ew. apply U1. rewrite <- Ew. now apply getc_in.
              ** intros i Hi. apply OKi_PEi. apply (jo_ok _ _ _ L2). exact Hi.
              ** rewrite (bskip_bx _ _ _ L5). pose proof (bx_length _ _ L5). lia.
              ** unfold lskip. rewrite L3. cbn. pose proof (bx_length _ _ L5). destruct (dl t2 =? dl t1); lia.
           ++ intros _. eapply units_bx; eauto.
      * injection E as <- <- <- <- <- <-. destruct (as_fin _ _ _ _ _ _ _ _ _ A1) as (F1 & F2 & F3 & F4 & F5).
        pose proof (usteps_refine b1 b1 u u3 _ _ _ _ (as_goes _ _ _ _ _ _ _ _ _ A1) L1) as RU. rewrite (jo_n _ _ _ L2) in RU.
        split; [discriminate|]. split; [intros _|].
        -- split; [|exact A2]. split; [eapply prop_ops_tpi; eauto|]. split; [exact B5|]. split; [|split].
           ++ rewrite (fx_dl _ _ F3). apply (fx_PB _ _ t2 t3); auto; [apply F2|apply P2].
           ++ destruct HL2 as [H1 H2 H3 H4 H5 H6]. constructor; cbn [snd fst].
              ** now apply (as_run _ _ _ _ _ _ _ _ _ A1).
              ** apply F2.
              ** apply F2.
              ** apply F2.
              ** destruct (prop_ops_kept _ _ _ _ T2 F4) as (_ & [_ ->] & _). exact H5.
              ** eapply grows_trans; [exact H6|apply (esteps_grows _ _ _ _ _ _ (as_goes _ _ _ _ _ _ _ _ _ A1) L1)].
           ++ cbn [snd fst]. intros i Hi. eapply OKi_mono; [|apply (jo_ok _ _ _ F2); exact Hi]. lia.
        -- split; [exact B1|]. split; [eapply urefines_trans; [|exact (RF' u)|exact RU]; rewrite (bx_num _ _ L5), (bx_num _ _ B4); lia|].
           split; [eapply prop_ops_trans; eauto|]. intros c Hc. destruct (A4 c Hc) as (K1 & K2 & K3). split; [|exact K3].
           intros m (I & r & Cm & Rd) _. destruct (K2 I m r Cm Rd) as (l & Hl & Hh). exists l. split; auto.
           unfold Spec_Lincons.lit_holds in Hh. unfold Spec_Sat.lit_holds. rewrite Hh. destruct (lneg l); reflexivity.
    + injection E as <- <- <- <- <- <-. split; [discriminate|]. split; [intros _|].
      * split; [|exact HC2]. split; [exact P2|]. split; [exact B5|]. split; [exact PB2|]. split; [exact HL2|].
        intros i Hi. eapply OKi_mono; [|apply (jo_ok _ _ _ L2); exact Hi]. lia.
      * split; [exact B1|]. split; [exact (RF' _)|]. split; [exact PO|].
        intros c Hc. destruct (propagate_lemma hi hv opt _ _ _ _ _ (run_cinv _ _ _ _ _ R1') EL c Hc) as [J1 J2]. split.
        -- intros m (I & r & Hm & _) _. destruct (J1 r m Hm) as (l & Hl & Hh). exists l. split; auto. unfold Spec_Lincons.lit_holds in Hh. unfold Spec_Sat.lit_holds. rewrite Hh. destruct (lneg l); reflexivity.
        -- apply cl_false. now rewrite J2.
  - injection E as <- <- <- <- <- <-. split; [discriminate|]. split; [intros _|].
    + split; [|exact HC1]. split; [exact B2|]. split; [exact B5|]. split; [exact B8|]. split; [exact HL1|]. intros i Hi. cbn [snd fst] in *.
      eapply kx_OKi; [exact SI|rewrite (bx_dl _ _ B4); now apply kx_bx|]. destruct (HP i Hi) as [O _]. rewrite (bx_dl _ _ B4). exact O.
    + split; [exact B1|]. split; [apply urefines_same|]. split; [exact B3|]. intros c Hc. destruct (B10 c Hc) as [J1 J2]. split; [|exact J2].
      intros m _ Hall. apply (perm_hold _ _ _ B1 Hall). exact J1.
Qed.

Lemma ul_level : level_ok (ul_theory hi hv opt T bv rv df) utm PE3 PA3 PD3 PC3.
Proof.
  pose proof (bl_level hi hv opt df nq s0 HU) as BL. split.
  - intros p d t [A B]. split; [apply A|exact B].
  - intros fuel [[b a] u] d t [[b' a'] u'] d' t' cs HE Hn E. cbn [ul_theory th_propagate fst snd] in E.
    apply (ul_propagate_ok (fun l => lemma_of utm (b', a', u') d [l])) in E; auto.
  - intros [[b a] u] d t v ts' t' [HD HC] U R E. cbn [ul_theory th_decide fst snd] in E. unfold ul_decide in E.
    destruct (lra_decide df a (bool_decide b t v) v) as [[a1 t1]| |] eqn:E1; cbn [bind] in E; try discriminate. injection E as <- <-.
    assert (HT : TT t) by apply HD.
    destruct (lk_decide _ _ _ _ _ _ BL (b, a) d t v (b, a1) t1 HD U R) as (X1 & _ & x & X3).
    { cbn. unfold bl_decide. now rewrite E1. }
    split; [split; [exact X1|]|split; [|eauto]].
    + eapply UC_decide; eauto.
    + apply utm_same. unfold lra_decide in E1. destruct v; [now injection E1 as <- _|]. binv E1. now injection E1 as <- <-.
  - intros k [[b a] u] d t c ts' [HP HC] N F K E. cbn [ul_theory th_learned fst snd] in *.
    destruct (bool_learned b _ _) as [b1| |] eqn:E1; cbn [bind] in E; try discriminate. injection E as <-. split; [|now apply utm_same].
    split; [|exact HC]. eapply (lk_learned _ _ _ _ _ _ BL k (b, a)); eauto. cbn. now rewrite E1.
  - intros k k' p d t L [A B]. split; [eapply (lk_mono _ _ _ _ _ _ BL); eauto|eapply UC_mono; eauto].
  - intros [[b a] u] d t k t' [HP HC] KD E. split; [|now apply utm_same]. destruct (lk_backtrack _ _ _ _ _ _ BL (b, a) d t k t' HP KD E) as [X _].
    split; [exact X|]. destruct (kx_back _ _ _ (proj1 (proj1 HP)) E) as (K & D & _). rewrite D. cbn [snd ul_theory th_before_backtrack].
    eapply UC_back; [exact K|lia|exact HC].
  - intros [[b a] u] d t k t' [HP HC] LD E. split; [|now apply utm_same]. destruct (lk_undo _ _ _ _ _ _ BL (b, a) d t k t' HP LD E) as [X _].
    split; [exact X|]. destruct (kx_back _ _ _ (proj1 (proj1 HP)) E) as (K & D & _). rewrite D. cbn [snd ul_theory th_before_backtrack].
    eapply UC_back; [exact K|lia|exact HC].
  - intros [[b a] u] d t l r t' [HP HC] R U Hr S. pose proof (lk_assert _ _ _ _ _ _ BL (b, a) d t l r t' HP R U Hr S) as X.
    split; [exact X|]. assert (HT : TT t) by apply HP. assert (HT' : TT t') by apply X.
    pose proof (bx_prop t (lord l) _ _ _ _ HT U eq_refl S) as B. rewrite (bx_dl _ _ B). exact (UC_bx _ _ _ _ HT HT' B HC).
  - intros [[b a] u] d t l t' [HD HC] R U S. split; [exact (lk_split _ _ _ _ _ _ BL (b, a) d t l t' HD R U S)|]. eapply UC_decide; [apply HD|exact U|exact S|exact HC].
  - intros [[b a] u] d t L [HP HC] HL. destruct (lk_restart _ _ _ _ _ _ BL (b, a) d t L HP HL) as [X _]. split; [|now apply utm_same].
    split; [exact X|]. cbn [snd ul_theory th_before_backtrack th_restart]. change (dl (trail_clear t)) with 0.
    destruct HP as (_ & _ & _ & P4 & _). eapply UC_restart; [apply P4|exact HC].
Qed.
End V.
