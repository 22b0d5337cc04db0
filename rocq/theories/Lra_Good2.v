(** The invariant of the recorded bounds holds in every run. *)
From Coq Require Import List Arith ZArith QArith Bool Lia Permutation Lqa.
From Verif Require Import Base Core_Model Sort_Proofs Trail_Model Lincons_Model Spec_Lincons Lincons_Proofs
  Lincons_Proofs2 Lra_Model Spec_Lra Lra_Fm Lra_Bounds Lra_Hist Lra_Steps Lra_Keep Lra_Good.
Import ListNotations.
Open Scope nat_scope.
Arguments Qred : simpl never.
Arguments Qmult : simpl never.
Arguments Qplus : simpl never.
Arguments Qminus : simpl never.
Arguments Qopp : simpl never.
Arguments Qdiv : simpl never.

Definition ls (w : vbounds) (up : bool) : list bound := if up then vb_ub w else vb_lb w.
Definition lst (B : bnds) (up : bool) (x : nat) : list bound := ls (bd_of B x) up.
Record neqok (s : store) (t : trail) (b : bound) : Prop := {
  nq_node : nodev s t b; nq_deps : b_deps b = []; nq_pred : lc_pred (b_cons b) = PEq;
  nq_neg : lneg (lc_lit (b_cons b)) = true;
  nq_front : is_obsolete s t b = false -> hd_error (lc_vars s (b_cons b)) = Some (b_var b) }.
Record linv (s : store) (t : trail) (B : bnds) : Prop := {
  li_s : sinv s;
  li_c : tclock t;
  li_h : bh B;
  li_good : forall up x b, In b (lst B up x) -> b_var b = x /\ bgood s t up b;
  li_dep : forall up x b d, In b (lst B up x) -> In d (b_deps b) -> is_obsolete s t d = false ->
    In d (lst B (depdir s up b d) (b_var d));
  li_neq : forall x b, In b (vb_neq (bd_of B x)) -> b_var b = x /\ neqok s t b;
  li_val : forall x, mdef (t_qm t) x = true -> permitted s t (bd_of B x) (mval (t_qm t) x) }.

Lemma permitted_iff s t w v : permitted s t w v <->
  (forall up b, In b (ls w up) -> is_obsolete s t b = false -> dirholds up b v) /\
  (forall b, In b (vb_neq w) -> is_obsolete s t b = false -> differs b v).
Proof.
  unfold permitted. split.
  - intros (A & B & C). split; [|exact C]. intros [|] b; [apply B|apply A].
  - intros [A C]. split; [apply (A false)|]. split; [apply (A true)|exact C].
Qed.
Lemma neq_mono s s' t t' b : sinv s -> sinv s' -> grows s s' -> tlater t t' -> neqok s t b ->
  is_obsolete s' t' b = false -> is_obsolete s t b = false.
Proof.
  intros S1 S2 G L [N D _ _ _]. rewrite !obsolete_eq, D. cbn [existsb]. rewrite !orb_false_r.
  now apply node_obs_mono.
Qed.
Lemma neq_unit s t b : sinv s -> neqok s t b -> is_obsolete s t b = false ->
  exists l, lc_vars s (b_cons b) = b_var b :: l /\ forallb (mdef (t_qm t)) l = true.
Proof.
  intros HS [N D _ _ F] O. specialize (F O).
  destruct (lc_vars s (b_cons b)) as [|y l] eqn:E; [discriminate F|]. cbn in F. inversion F; subst y.
  exists l. split; [reflexivity|]. rewrite obsolete_eq, D, orb_false_r in O. unfold node_obs in O. rewrite !orb_false_iff in O.
  destruct O as [_ O]. apply forallb_forall. intros z Hz. destruct (mdef (t_qm t) z) eqn:Ez; auto.
  rewrite <- not_true_iff_false in O. exfalso. apply O. apply existsb_exists. exists z. rewrite E. split; [now right|].
  rewrite Ez. cbn [negb orb]. rewrite andb_true_r. unfold other. rewrite D. cbn [existsb negb]. rewrite andb_true_r.
  apply negb_true_iff, Nat.eqb_neq. intros ->. pose proof (stored_norm s _ HS (nv_stored _ _ _ N)) as NT.
  pose proof (nt_nodup _ NT) as ND. rewrite <- lc_vars_terms, E in ND by auto. inversion ND; subst. tauto.
Qed.
Lemma neqok_pres s s' t t' b : sinv s -> sinv s' -> grows s s' -> kept s s' (t_qm t) -> tlater t t' -> neqok s t b -> neqok s' t' b.
Proof.
  intros S1 S2 G K L H. pose proof H as [N D P Q F]. constructor; auto; [apply (nodev_pres s s' t t'); auto|].
  intros O. assert (O' : is_obsolete s t b = false) by (apply (neq_mono s s' t t'); auto).
  destruct (neq_unit s t b S1 H O') as (l & E & A). rewrite K; [auto|apply N|]. rewrite E. exact A.
Qed.

(** steps of the trail and of the constraints *)
Lemma linv_env s t B s' t' : linv s t B -> sinv s' -> grows s s' -> kept s s' (t_qm t) -> tlater t t' -> tclock t' ->
  (forall x, mdef (t_qm t') x = true ->
     (mdef (t_qm t) x = true /\ mval (t_qm t') x = mval (t_qm t) x) \/
     permitted s t (bd_of B x) (mval (t_qm t') x)) -> linv s' t' B.
Proof.
  intros [I1 I2 I3 I4 I5 I6 I7] S' G K L C HV. constructor; auto.
  - intros up x b Hb. destruct (I4 up x b Hb) as [E Gd]. split; [exact E|]. apply (bgood_pres s s' t t'); auto.
  - intros up x b d Hb Hd O. destruct (I4 up x b Hb) as [E Gd]. inversion Gd as [? ? N Dr Hds]; subst.
    rewrite (depdir_pres s s') by (auto; apply (nv_stored _ _ _ N)).
    apply (I5 up (b_var b) b d); auto. apply (obs_mono s s' t t' I1 S' G L (depdir s up b d) d (Hds d Hd)); auto.
  - intros x b Hb. destruct (I6 x b Hb) as [E Gd]. split; [exact E|]. apply (neqok_pres s s' t t'); auto.
  - intros x Hx. assert (P : permitted s t (bd_of B x) (mval (t_qm t') x)).
    { destruct (HV x Hx) as [[D E]|P]; [rewrite E; auto|exact P]. }
    apply permitted_iff in P. apply permitted_iff. destruct P as [P1 P2]. split.
    + intros up b Hb O. apply P1; auto. destruct (I4 up x b Hb) as [_ Gd]. apply (obs_mono s s' t t' I1 S' G L up b Gd); auto.
    + intros b Hb O. apply P2; auto. destruct (I6 x b Hb) as [_ Gd]. apply (neq_mono s s' t t'); auto.
Qed.

(** the bounds lose obsolete elements and get new ones *)
Lemma linv_ext s t B B' (nw : bool -> bound -> Prop) (nn : bound -> Prop) : linv s t B -> bh B' ->
  (forall up x b, In b (lst B' up x) -> In b (lst B up x) \/ (nw up b /\ b_var b = x)) ->
  (forall up x b, In b (lst B up x) -> is_obsolete s t b = false -> In b (lst B' up x)) ->
  (forall x b, In b (vb_neq (bd_of B' x)) -> In b (vb_neq (bd_of B x)) \/ (nn b /\ b_var b = x)) ->
  (forall up b, nw up b -> bgood s t up b /\ mdef (t_qm t) (b_var b) = false /\
     forall d, In d (b_deps b) -> is_obsolete s t d = false -> In d (lst B (depdir s up b d) (b_var d))) ->
  (forall b, nn b -> neqok s t b /\ mdef (t_qm t) (b_var b) = false) -> linv s t B'.
Proof.
  intros [I1 I2 I3 I4 I5 I6 I7] H1 H2 H3 H4 H5 H6. constructor; auto.
  - intros up x b Hb. destruct (H2 up x b Hb) as [Hb'|[Hb' E]]; [auto|]. split; [exact E|]. now apply H5.
  - intros up x b d Hb Hd O. apply H3; [|exact O].
    destruct (H2 up x b Hb) as [Hb'|[Hb' E]]; [eauto|]. destruct (H5 up b Hb') as (_ & _ & K). auto.
  - intros x b Hb. destruct (H4 x b Hb) as [Hb'|[Hb' E]]; [auto|]. split; [exact E|]. now apply H6.
  - intros x Hx. specialize (I7 x Hx). apply permitted_iff in I7. apply permitted_iff. destruct I7 as [P1 P2]. split.
    + intros up b Hb O. destruct (H2 up x b Hb) as [Hb'|[Hb' E]]; [auto|].
      destruct (H5 up b Hb') as (_ & K & _). congruence.
    + intros b Hb O. destruct (H4 x b Hb) as [Hb'|[Hb' E]]; [auto|].
      destruct (H6 b Hb') as (_ & K). congruence.
Qed.

(** ** queries and additions on one variable *)
Record vext (s : store) (t : trail) (w w' : vbounds) (nw : bool -> bound -> Prop) (nn : bound -> Prop) : Prop := {
  ve_in : forall up b, In b (ls w' up) -> In b (ls w up) \/ nw up b;
  ve_keep : forall up b, In b (ls w up) -> is_obsolete s t b = false -> In b (ls w' up);
  ve_neq : forall b, In b (vb_neq w') -> In b (vb_neq w) \/ nn b }.
Lemma vext_trans s t w1 w2 w3 n1 n2 m1 m2 : vext s t w1 w2 n1 m1 -> vext s t w2 w3 n2 m2 ->
  vext s t w1 w3 (fun up b => n1 up b \/ n2 up b) (fun b => m1 b \/ m2 b).
Proof.
  intros [A1 A2 A3] [B1 B2 B3]. constructor.
  - intros up b H. destruct (B1 up b H) as [H'|H']; [|auto]. destruct (A1 up b H'); auto.
  - auto.
  - intros b H. destruct (B3 b H) as [H'|H']; [|auto]. destruct (A3 b H'); auto.
Qed.
Lemma vext_weak s t w w' (n1 n2 : bool -> bound -> Prop) (m1 m2 : bound -> Prop) :
  (forall up b, n1 up b -> n2 up b) -> (forall b, m1 b -> m2 b) -> vext s t w w' n1 m1 -> vext s t w w' n2 m2.
Proof.
  intros H1 H2 [A B C]. constructor; auto.
  - intros up b H. destruct (A up b H); auto.
  - intros b H. destruct (C b H); auto.
Qed.
Notation none2 := (fun (_ : bool) (_ : bound) => False).
Notation none1 := (fun (_ : bound) => False).
Lemma vext_refl s t w : vext s t w w none2 none1.
Proof. constructor; auto. Qed.
Lemma drop_in s t l b : In b (drop_obsolete s t l) -> In b l.
Proof. induction l as [|a l IH]; cbn; auto. destruct (is_obsolete s t a); cbn; tauto. Qed.
Lemma drop_keep s t l b : In b l -> is_obsolete s t b = false -> In b (drop_obsolete s t l).
Proof.
  induction l as [|a l IH]; cbn; auto. destruct (is_obsolete s t a) eqn:E; cbn; [|tauto].
  intros [->|H] O; [congruence|auto].
Qed.
Lemma vext_upper s t w : vext s t w (fst (upper_bound s t w)) none2 none1.
Proof.
  constructor; cbn; auto; intros [|] b; cbn; auto; intros; [left; eapply drop_in; eauto|now apply drop_keep].
Qed.
Lemma vext_lower s t w : vext s t w (fst (lower_bound s t w)) none2 none1.
Proof.
  constructor; cbn; auto; intros [|] b; cbn; auto; intros; [left; eapply drop_in; eauto|now apply drop_keep].
Qed.
Lemma vext_inequality s t w v : vext s t w (fst (inequality s t w v)) none2 none1.
Proof. constructor; cbn; auto. intros b H. apply filter_In in H. tauto. Qed.
Lemma vext_vq s t w w' : vq s t w w' -> vext s t w w' none2 none1.
Proof.
  induction 1; [apply vext_refl| | |]; (eapply vext_weak; [| |eapply vext_trans; [|exact IHvq]]).
  3: apply vext_upper. 5: apply vext_lower. 7: apply (vext_inequality s t w v).
  all: cbn; tauto.
Qed.
Lemma vext_aub s t w b w' h : add_upper_bound s t w b = (w', h) ->
  vext s t w w' (fun up e => up = true /\ e = b) none1.
Proof.
  unfold add_upper_bound. destruct (upper_bound s t w) as [w1 o] eqn:E.
  assert (X : vext s t w w1 none2 none1) by (replace w1 with (fst (upper_bound s t w)) by (rewrite E; reflexivity); apply vext_upper).
  destruct (match o with None => _ | Some _ => _ end); intros H; inversion H; subst.
  - destruct X as [X1 X2 X3]. constructor; cbn; auto.
    + intros [|] e; cbn.
      * intros [<-|He]; [auto|]. destruct (X1 true e He); tauto.
      * intros He. destruct (X1 false e He); tauto.
    + intros [|] e He O; cbn; [right|]; [apply (X2 true e He O)|apply (X2 false e He O)].
  - eapply vext_weak; [| |exact X]; cbn; tauto.
Qed.
Lemma vext_alb s t w b w' h : add_lower_bound s t w b = (w', h) ->
  vext s t w w' (fun up e => up = false /\ e = b) none1.
Proof.
  unfold add_lower_bound. destruct (lower_bound s t w) as [w1 o] eqn:E.
  assert (X : vext s t w w1 none2 none1) by (replace w1 with (fst (lower_bound s t w)) by (rewrite E; reflexivity); apply vext_lower).
  destruct (match o with None => _ | Some _ => _ end); intros H; inversion H; subst.
  - destruct X as [X1 X2 X3]. constructor; cbn; auto.
    + intros [|] e; cbn.
      * intros He. destruct (X1 true e He); tauto.
      * intros [<-|He]; [auto|]. destruct (X1 false e He); tauto.
    + intros [|] e He O; cbn; [|right]; [apply (X2 true e He O)|apply (X2 false e He O)].
  - eapply vext_weak; [| |exact X]; cbn; tauto.
Qed.
Lemma vext_aneq s t w b w' h : add_inequality s t w b = Ok (w', h) -> vext s t w w' none2 (fun e => e = b).
Proof.
  unfold add_inequality. intros H. binv H. 
  assert (X : vext s t w v none2 none1) by (replace v with (fst (inequality s t w (b_val b))) by (rewrite Ep; reflexivity); apply vext_inequality).
  destruct (match o with None => _ | Some _ => _ end); inversion H; subst.
  - destruct X as [X1 X2 X3]. constructor; cbn; auto.
    intros e He. apply in_app_iff in He. destruct He as [He|[<-|[]]]; [|auto]. destruct (X3 e He); tauto.
  - eapply vext_weak; [| |exact X]; cbn; tauto.
Qed.
(** an addition to the bounds of [x] *)
Lemma linv_set s t B x w nw nn : linv s t B -> vb_history w -> vext s t (bd_of B x) w nw nn ->
  (forall up b, nw up b -> b_var b = x /\ bgood s t up b /\ mdef (t_qm t) x = false /\
     forall d, In d (b_deps b) -> is_obsolete s t d = false -> In d (lst B (depdir s up b d) (b_var d))) ->
  (forall b, nn b -> b_var b = x /\ neqok s t b /\ mdef (t_qm t) x = false) ->
  linv s t (bd_set B x w).
Proof.
  intros I Hw [X1 X2 X3] H1 H2. apply (linv_ext s t B _ nw nn); auto.
  - apply bh_set; auto. apply I.
  - intros up y b. unfold lst. rewrite bd_set_same. destruct (Nat.eqb_spec y x) as [->|N]; [|auto].
    intros Hb. destruct (X1 up b Hb) as [Hb'|Hb']; [auto|]. right. split; [exact Hb'|]. now apply (H1 up).
  - intros up y b. unfold lst. rewrite bd_set_same. destruct (Nat.eqb_spec y x) as [->|N]; [|auto]. apply X2.
  - intros y b. rewrite bd_set_same. destruct (Nat.eqb_spec y x) as [->|N]; [|auto].
    intros Hb. destruct (X3 b Hb) as [Hb'|Hb']; [auto|]. right. split; [exact Hb'|]. now apply H2.
  - intros up b Hb. destruct (H1 up b Hb) as (E & G & M & D). subst x. auto.
  - intros b Hb. destruct (H2 b Hb) as (E & G & M). subst x. auto.
Qed.
Lemma linv_mark s t B x h : linv s t B -> linv s t (bd_mark B x h).
Proof. intros [A1 A2 A3 A4 A5 A6 A7]. unfold bd_mark. destruct h; constructor; auto. Qed.
Lemma linv_upd s t B l : linv s t B -> linv s t (mkBd (bd_of B) l).
Proof. intros [A1 A2 A3 A4 A5 A6 A7]. constructor; auto. Qed.

(** ** new bounds *)
Fixpoint dsum (DB : list (bound * Q)) : Q :=
  match DB with [] => 0 | (d, k) :: DB' => k * b_val d + dsum DB' end.
Definition dterms (DB : list (bound * Q)) : list (nat * Q) := map (fun q => (b_var (fst q), snd q)) DB.
Lemma dsum_app a b : (dsum (a ++ b) == dsum a + dsum b)%Q.
Proof. induction a as [|[d k] a IH]; cbn [dsum app]; [lra|]. rewrite IH. lra. Qed.

Lemma var_time_lt s qm x c : clocked qm -> (exists y, In y (lc_vars s c) /\ y <> x /\ mdef qm y = true) ->
  (var_time s qm x c < mgts qm)%Z.
Proof.
  intros [C0 C] (y & Hy & Hn & Hd). unfold var_time.
  assert (G : forall (l : list nat) (k : Z), (k < mgts qm)%Z ->
    Z.lt (fold_left (fun k y => if negb (y =? x) && mdef qm y then Z.max k (mts qm y) else k) l k) (mgts qm)).
  { induction l as [|z l IH]; intros k Hk; cbn [fold_left]; [exact Hk|]. apply IH.
    destruct (negb (z =? x) && mdef qm z) eqn:E; [|exact Hk]. apply andb_true_iff in E. destruct E as [_ E].
    specialize (C z E). lia. }
  apply G. specialize (C y Hd). lia.
Qed.

Lemma nd_app_r (a b : list nat) : NoDup (a ++ b) -> NoDup b.
Proof. induction a as [|x a IH]; cbn; auto. intros H. inversion H; auto. Qed.
Lemma nd_app_l (a b : list nat) : NoDup (a ++ b) -> NoDup a.
Proof.
  induction a as [|x a IH]; cbn; [constructor|]. intros H. inversion H; subst. constructor; auto.
  intros Hx. apply H2, in_app_iff. auto.
Qed.
Lemma mk_node s t c x k v A DB : sinv s -> tclock t -> stored s c ->
  is_true (eval_lit (t_bm t) (lc_lit c)) = true ->
  Permutation (lc_terms s c) (A ++ dterms DB ++ [(x, k)]) ->
  (forall y j, In (y, j) A -> mdef (t_qm t) y = true) ->
  (v * k == lc_rhs c - lin (mval (t_qm t)) A - dsum DB)%Q ->
  nodev s t (Bnd x v c (map fst DB) (mts (t_bm t) (lord (lc_lit c))) (var_time s (t_qm t) x c)).
Proof.
  intros HS [C1 C2] Hc HT P HA HV.
  pose proof (nt_nodup _ (stored_norm s c HS Hc)) as ND.
  assert (ND2 : NoDup (map fst (A ++ dterms DB ++ [(x, k)])))
    by (eapply Permutation_NoDup; [apply Permutation_map, P|exact ND]).
  assert (ED : map fst (dterms DB) = map b_var (map fst DB)) by (unfold dterms; rewrite !map_map; reflexivity).
  rewrite !map_app, ED in ND2. cbn [map fst] in ND2.
  assert (P' : Permutation (map fst (lc_terms s c)) (map fst A ++ map b_var (map fst DB) ++ [x])).
  { apply (Permutation_map fst) in P. rewrite !map_app, ED in P. exact P. }
  assert (NX : ~ In x (map fst A) /\ ~ In x (map b_var (map fst DB))).
  { rewrite app_assoc in ND2. apply NoDup_remove_2 in ND2. rewrite app_nil_r in ND2. rewrite in_app_iff in ND2. tauto. }
  assert (NA : forall y, In y (map fst A) -> ~ In y (map b_var (map fst DB))).
  { intros y H1 H2. clear - ND2 H1 H2. induction A as [|[a j] A IH]; [destruct H1|].
    cbn [map fst app] in ND2. inversion ND2; subst. destruct H1 as [<-|H1]; [|auto].
    apply H3. rewrite !in_app_iff. auto. }
  assert (NDD : NoDup (map b_var (map fst DB))).
  { now apply nd_app_r, nd_app_l in ND2. }
  constructor; cbn [b_cons b_var b_deps b_ct b_vt b_val]; auto.
  - eapply Permutation_in; [symmetry; exact P'|]. rewrite !in_app_iff. right. right. now left.
  - intros d Hd. apply (in_map b_var) in Hd. split; [intros E; rewrite E in Hd; tauto|].
    eapply Permutation_in; [symmetry; exact P'|]. rewrite !in_app_iff. auto.
  - unfold eval_lit in HT. destruct (mdef (t_bm t) (lord (lc_lit c))) eqn:E; [|discriminate]. now apply C1.
  - intros y Hy Ho. unfold other in Ho. cbn [b_var b_deps] in Ho. apply andb_true_iff in Ho. destruct Ho as [O1 O2].
    apply var_time_lt; auto. exists y. rewrite lc_vars_terms by auto. split; [exact Hy|].
    apply negb_true_iff, Nat.eqb_neq in O1. split; [exact O1|].
    eapply Permutation_in in Hy; [|exact P']. rewrite !in_app_iff in Hy. destruct Hy as [Hy|[Hy|[Hy|[]]]]; [| |congruence].
    + apply in_map_iff in Hy. destruct Hy as ([w j] & E & Hy). cbn in E. subst w. eauto.
    + exfalso. apply negb_true_iff in O2. rewrite <- not_true_iff_false in O2. apply O2.
      apply in_map_iff in Hy. destruct Hy as (d & E & Hy). apply existsb_exists. exists d. rewrite E, Nat.eqb_refl. auto.
  - intros _. rewrite (lin_perm _ _ _ P). rewrite !lin_app. cbn [lin].
    set (p := pt _ _).
    assert (PX : p x = v) by (unfold p, pt; cbn [b_var b_val]; now rewrite Nat.eqb_refl).
    assert (EA : (lin p A == lin (mval (t_qm t)) A)%Q).
    { apply lin_ext_in. intros y j Hy. apply (in_map fst) in Hy. cbn [fst] in Hy. unfold p, pt. cbn [b_var b_deps].
      destruct (Nat.eqb_spec y x) as [->|Hn]; [tauto|].
      destruct (find _ _) as [d|] eqn:Ef; [|reflexivity]. exfalso. apply find_some in Ef. destruct Ef as [F1 F2].
      apply Nat.eqb_eq in F2. apply (NA y Hy). rewrite <- F2. now apply in_map. }
    assert (EDs : (lin p (dterms DB) == dsum DB)%Q).
    { assert (G : forall DB', (forall q, In q DB' -> In q DB) -> (lin p (dterms DB') == dsum DB')%Q).
      { induction DB' as [|[d j] DB' IH]; intros Hi; cbn [dterms map lin dsum fst snd]; [reflexivity|].
        fold (dterms DB'). rewrite IH by (intros; apply Hi; now right).
        assert (Hd : In d (map fst DB)) by (change d with (fst (d, j)); apply in_map, Hi; now left).
        assert (p (b_var d) = b_val d) as ->; [|reflexivity].
        unfold p, pt. cbn [b_var b_deps]. destruct (Nat.eqb_spec (b_var d) x) as [E|Hn].
        - exfalso. apply (proj2 NX). rewrite <- E. now apply in_map.
        - now rewrite find_dep. }
      apply G. auto. }
    rewrite EA, EDs, PX. lra.
Qed.

Lemma coef_nz s c y k : sinv s -> stored s c -> In (y, k) (lc_terms s c) -> ~ (k == 0)%Q.
Proof. intros HS Hc Hi. apply (nt_nz _ (stored_norm s c HS Hc) (y, k) Hi). Qed.

Definition newb (s : store) (t : trail) (c : lcons) (x : nat) (v : Q) (deps : list bound) : bound :=
  Bnd x v c deps (mts (t_bm t) (lord (lc_lit c))) (var_time s (t_qm t) x c).
Lemma mk_good s t B c x k v A DB up : linv s t B -> stored s c ->
  is_true (eval_lit (t_bm t) (lc_lit c)) = true ->
  Permutation (lc_terms s c) (A ++ dterms DB ++ [(x, k)]) ->
  (forall y j, In (y, j) A -> mdef (t_qm t) y = true) ->
  (v * k == lc_rhs c - lin (mval (t_qm t)) A - dsum DB)%Q ->
  match lc_pred c with PEq => lneg (lc_lit c) = false
                     | _ => Bool.eqb up (qltb 0 k) = negb (lneg (lc_lit c)) end ->
  (forall d j, In (d, j) DB -> In d (lst B (if Bool.eqb up (qltb 0 k) then qltb j 0 else qltb 0 j) (b_var d))) ->
  let b := newb s t c x v (map fst DB) in
  bgood s t up b /\ forall d, In d (b_deps b) -> In d (lst B (depdir s up b d) (b_var d)).
Proof.
  intros I Hc HT P HA HV HD HB b.
  pose proof (li_s _ _ _ I) as HS.
  assert (N : nodev s t b) by (apply (mk_node s t c x k v A DB); auto; apply I).
  pose proof (nt_nodup _ (stored_norm s c HS Hc)) as ND.
  assert (EX : cf x (lc_terms s c) = k).
  { apply cf_in; [exact ND|]. eapply Permutation_in; [symmetry; exact P|]. rewrite !in_app_iff. right; right; now left. }
  assert (ES : sg s up b = Bool.eqb up (qltb 0 k)) by (unfold sg; cbn [b newb b_var b_cons]; now rewrite EX).
  assert (K : forall d, In d (b_deps b) -> In d (lst B (depdir s up b d) (b_var d))).
  { cbn [b newb b_deps]. intros d Hd. apply in_map_iff in Hd. destruct Hd as ([d' j] & E & Hd). cbn in E. subst d'.
    unfold depdir. rewrite ES. cbn [b newb b_cons].
    assert (cf (b_var d) (lc_terms s c) = j) as ->; [|now apply HB].
    apply cf_in; [exact ND|]. eapply Permutation_in; [symmetry; exact P|]. rewrite !in_app_iff. right; left.
    change (b_var d, j) with ((fun q => (b_var (fst q), snd q)) (d, j)). now apply in_map. }
  split; [|exact K]. constructor; [exact N| |].
  - unfold dirok. rewrite ES. exact HD.
  - intros d Hd. apply (li_good _ _ _ I _ _ _ (K d Hd)).
Qed.

(** ** deductions from a constraint with one bound missing *)
Record dinv (s : store) (t : trail) (c : lcons) (B : bnds) (sgn : bool) (ts : list (nat * Q)) (p : dprop)
  (A : list (nat * Q)) (DB : list (bound * Q)) (M : list (nat * Q)) : Prop := {
  dv_perm : Permutation (lc_terms s c) (A ++ dterms DB ++ M ++ ts);
  dv_deps : dp_deps p = map fst DB;
  dv_A : forall y j, In (y, j) A -> mdef (t_qm t) y = true;
  dv_M : forall y j, In (y, j) M -> mdef (t_qm t) y = false;
  dv_DB : forall d j, In (d, j) DB -> is_obsolete s t d = false /\
    In d (lst B (if sgn then qltb j 0 else qltb 0 j) (b_var d));
  dv_num : dp_num p = length M;
  dv_head : forall y j, In (y, j) M -> length M = 1 -> dp_var p = y /\ dp_coef p = j;
  dv_val : (dp_bound p == lc_rhs c - lin (mval (t_qm t)) A - dsum DB)%Q }.

Lemma dinv_nil s t c B sgn : dinv s t c B sgn (lc_terms s c) (mkDp (lc_rhs c) [] 0 0 0) [] [] [].
Proof. constructor; cbn; auto; try (intros; contradiction). lra. Qed.
Lemma dinv_B s t c B B' sgn ts p A DB M : dinv s t c B sgn ts p A DB M ->
  (forall up x b, In b (lst B up x) -> is_obsolete s t b = false -> In b (lst B' up x)) ->
  dinv s t c B' sgn ts p A DB M.
Proof.
  intros [D1 D2 D3 D4 D5 D6 D7 D8] H. constructor; auto. intros d j Hd. destruct (D5 d j Hd) as [O Hi]. auto.
Qed.
Lemma dinv_sub s t c B sgn v k ts p A DB M : mdef (t_qm t) v = true -> dinv s t c B sgn ((v, k) :: ts) p A DB M ->
  dinv s t c B sgn ts (dp_sub p (k * mval (t_qm t) v)) ((v, k) :: A) DB M.
Proof.
  intros Hv [D1 D2 D3 D4 D5 D6 D7 D8]. constructor; cbn [dp_sub dp_deps dp_num dp_var dp_coef dp_bound]; auto.
  - rewrite D1. rewrite !app_assoc. symmetry. apply (Permutation_middle ((A ++ dterms DB) ++ M) ts (v, k)).
  - intros y j [E|Hy]; [inversion E; subst; auto|eauto].
  - cbn [lin]. rewrite D8. lra.
Qed.
Lemma dinv_use s t c B sgn v k ts p A DB M o : mdef (t_qm t) v = false -> dinv s t c B sgn ((v, k) :: ts) p A DB M ->
  match o with None => True | Some b => b_var b = v /\ is_obsolete s t b = false /\
    In b (lst B (if sgn then qltb k 0 else qltb 0 k) v) end ->
  exists DB' M', dinv s t c B sgn ts (dp_use p v k o) A DB' M'.
Proof.
  intros Hv [D1 D2 D3 D4 D5 D6 D7 D8] Ho. destruct o as [b|].
  - destruct Ho as (E & O & Hi). exists (DB ++ [(b, k)]), M.
    constructor; cbn [dp_use dp_deps dp_num dp_var dp_coef dp_bound]; auto.
    + rewrite D1. unfold dterms. rewrite map_app. cbn [map fst snd]. rewrite E. fold (dterms DB).
      apply Permutation_app_head. rewrite <- app_assoc. apply Permutation_app_head. cbn [app].
      symmetry. apply Permutation_middle.
    + rewrite map_app, D2. reflexivity.
    + intros d j Hd. apply in_app_iff in Hd. destruct Hd as [Hd|[Hd|[]]]; [auto|]. inversion Hd; subst. auto.
    + rewrite dsum_app. cbn [dsum]. rewrite D8. lra.
  - exists DB, ((v, k) :: M). constructor; cbn [dp_use dp_deps dp_num dp_var dp_coef dp_bound]; auto.
    + rewrite D1. apply Permutation_app_head, Permutation_app_head. symmetry. apply (Permutation_middle M ts (v, k)).
    + intros y j [Hy|Hy]; [inversion Hy; subst; auto|eauto].
    + cbn [length]. now rewrite D6.
    + intros y j [Hy|Hy] L; [inversion Hy; subst; auto|]. destruct M; [destruct Hy|discriminate L].
Qed.

Lemma front_upper s t w w' o : upper_bound s t w = (w', o) ->
  match o with None => True | Some b => is_obsolete s t b = false /\ In b (vb_ub w') end.
Proof.
  unfold upper_bound. intros H. inversion H; subst. clear H. induction (vb_ub w) as [|a l IH]; cbn; [exact I|].
  destruct (is_obsolete s t a) eqn:E; [exact IH|]. cbn. auto.
Qed.
Lemma front_lower s t w w' o : lower_bound s t w = (w', o) ->
  match o with None => True | Some b => is_obsolete s t b = false /\ In b (vb_lb w') end.
Proof.
  unfold lower_bound. intros H. inversion H; subst. clear H. induction (vb_lb w) as [|a l IH]; cbn; [exact I|].
  destruct (is_obsolete s t a) eqn:E; [exact IH|]. cbn. auto.
Qed.
(** queries *)
Lemma vq_history s t w w' : vq s t w w' -> vb_history w -> vb_history w'.
Proof. induction 1; auto; intros; apply IHvq; now constructor. Qed.
Lemma linv_query s t B x w : linv s t B -> vq s t (bd_of B x) w -> linv s t (bd_set B x w) /\
  (forall up y b, In b (lst B up y) -> is_obsolete s t b = false -> In b (lst (bd_set B x w) up y)).
Proof.
  intros I Q. pose proof (vext_vq _ _ _ _ Q) as X. split.
  - eapply linv_set; eauto; cbn; try tauto. apply (vq_history _ _ _ _ Q), (li_h _ _ _ I).
  - intros up y b. unfold lst. rewrite bd_set_same. destruct (Nat.eqb_spec y x) as [->|N]; [|auto]. apply X.
Qed.

(** [P] a property of the bounds that survives queries *)
Definition keeps (s : store) (t : trail) (B B' : bnds) : Prop :=
  forall up x b, In b (lst B up x) -> is_obsolete s t b = false -> In b (lst B' up x).
Lemma keeps_trans s t a b c : keeps s t a b -> keeps s t b c -> keeps s t a c.
Proof. unfold keeps. auto. Qed.

Lemma ineq_loop_inv s t c (Hc : stored s c) :
  forall ts B p A DB M B' o, linv s t B -> dinv s t c B (negb (lneg (lc_lit c))) ts p A DB M ->
  ineq_loop s t c ts B p = (B', o) -> linv s t B' /\
  match o with None => True | Some p' => exists A' DB' M', dinv s t c B' (negb (lneg (lc_lit c))) [] p' A' DB' M' end.
Proof.
  induction ts as [|[v k] ts IH]; intros B p A DB M B' o I D; cbn [ineq_loop].
  - intros H. inversion H; subst. eauto 6.
  - destruct (mdef (t_qm t) v) eqn:Ev; [intros H; eapply IH; eauto using dinv_sub|].
    intros H. binv H.
    assert (Hk : ~ (k == 0)%Q).
    { apply (coef_nz s c v k); auto; [apply I|]. eapply Permutation_in; [symmetry; apply D|].
      rewrite !in_app_iff. right; right; right; now left. }
    assert (Q : vq s t (bd_of B v) v0) by (destruct (same_dir c k); [eapply vq_lower'|eapply vq_upper']; eassumption).
    destruct (linv_query s t B v v0 I Q) as [I1 K1].
    apply (dinv_B _ _ _ _ (bd_set B v v0)) in D; [|exact K1].
    destruct (dep_opt o0 _); [inversion H; subst; auto|].
    destruct (dinv_use s t c (bd_set B v v0) (negb (lneg (lc_lit c))) v k ts p A DB M o0 Ev D) as (DB' & M' & D').
    { destruct o0 as [b|]; [|exact Logic.I].
      assert (Z : is_obsolete s t b = false /\ In b (ls v0 (if negb (lneg (lc_lit c)) then qltb k 0 else qltb 0 k))).
      { unfold same_dir in Ep. revert Ep.
        destruct (lneg (lc_lit c)); cbn [negb andb orb]; rewrite ?orb_false_r.
        - destruct (qltb k 0) eqn:E1; intros Ep.
          + apply front_lower in Ep. replace (qltb 0 k) with false by (symmetry; apply qltb_ge; apply qltb_lt in E1; lra). exact Ep.
          + apply front_upper in Ep. replace (qltb 0 k) with true by (symmetry; apply qltb_lt; apply qltb_ge in E1; destruct (Qlt_le_dec 0 k); [assumption|exfalso; apply Hk; lra]). exact Ep.
        - destruct (qltb 0 k) eqn:E1; intros Ep.
          + apply front_lower in Ep. replace (qltb k 0) with false by (symmetry; apply qltb_ge; apply qltb_lt in E1; lra). exact Ep.
          + apply front_upper in Ep. replace (qltb k 0) with true by (symmetry; apply qltb_lt; apply qltb_ge in E1; destruct (Qlt_le_dec k 0); [assumption|exfalso; apply Hk; lra]). exact Ep. }
      destruct Z as [Z1 Z2].
      assert (Z3 : In b (lst (bd_set B v v0) (if negb (lneg (lc_lit c)) then qltb k 0 else qltb 0 k) v))
        by (unfold lst; rewrite bd_set_same, Nat.eqb_refl; exact Z2).
      split; [|auto]. apply (li_good _ _ _ I1 _ _ _ Z3). }
    eapply IH; eauto.
Qed.

Lemma eq_loop_inv s t c (Hc : stored s c) :
  forall ts B p0 p1 A0 DB0 M0 A1 DB1 M1 B' o, linv s t B ->
  dinv s t c B false ts p0 A0 DB0 M0 -> dinv s t c B true ts p1 A1 DB1 M1 ->
  eq_loop s t c ts B p0 p1 = (B', o) -> linv s t B' /\
  match o with None => True | Some (q0, q1) =>
    (exists A DB M, dinv s t c B' false [] q0 A DB M) /\ (exists A DB M, dinv s t c B' true [] q1 A DB M) end.
Proof.
  induction ts as [|[v k] ts IH]; intros B p0 p1 A0 DB0 M0 A1 DB1 M1 B' o I D0 D1; cbn [eq_loop].
  - intros H. inversion H; subst. split; [exact I|split; do 3 eexists; eassumption].
  - destruct (mdef (t_qm t) v) eqn:Ev; [intros H; eapply IH; eauto using dinv_sub|].
    intros H. destruct (upper_bound s t (bd_of B v)) as [w1 u] eqn:E1. destruct (lower_bound s t w1) as [w2 l] eqn:E2.
    assert (Hk : ~ (k == 0)%Q).
    { apply (coef_nz s c v k); auto; [apply I|]. eapply Permutation_in; [symmetry; apply D0|].
      rewrite !in_app_iff. right; right; right; now left. }
    assert (Q : vq s t (bd_of B v) w2) by (eapply vq_trans; [eapply vq_upper'|eapply vq_lower']; eassumption).
    destruct (linv_query s t B v w2 I Q) as [I1 K1].
    apply (dinv_B _ _ _ _ (bd_set B v w2)) in D0; [|exact K1].
    apply (dinv_B _ _ _ _ (bd_set B v w2)) in D1; [|exact K1].
    assert (Fu : match u with None => True | Some b => b_var b = v /\ is_obsolete s t b = false /\
                   In b (lst (bd_set B v w2) true v) end).
    { destruct u as [b|]; [|exact Logic.I]. apply front_upper in E1. destruct E1 as [O Hi].
      assert (Z : In b (lst (bd_set B v w2) true v)).
      { unfold lst; rewrite bd_set_same, Nat.eqb_refl. unfold lower_bound in E2. inversion E2; subst. exact Hi. }
      split; [|auto]. apply (li_good _ _ _ I1 _ _ _ Z). }
    assert (Fl : match l with None => True | Some b => b_var b = v /\ is_obsolete s t b = false /\
                   In b (lst (bd_set B v w2) false v) end).
    { destruct l as [b|]; [|exact Logic.I]. apply front_lower in E2. destruct E2 as [O Hi].
      assert (Z : In b (lst (bd_set B v w2) false v)) by (unfold lst; rewrite bd_set_same, Nat.eqb_refl; exact Hi).
      split; [|auto]. apply (li_good _ _ _ I1 _ _ _ Z). }
    destruct (if qltb k 0 then (l, u) else (u, l)) as [b0 b1] eqn:Eb.
    destruct (dinv_use s t c (bd_set B v w2) false v k ts p0 A0 DB0 M0 b0 Ev D0) as (DB0' & M0' & D0').
    { destruct (qltb k 0) eqn:E3; inversion Eb; subst.
      - replace (qltb 0 k) with false by (symmetry; apply qltb_ge; apply qltb_lt in E3; lra). exact Fl.
      - replace (qltb 0 k) with true by (symmetry; apply qltb_lt; apply qltb_ge in E3; destruct (Qlt_le_dec 0 k); [assumption|exfalso; apply Hk; lra]). exact Fu. }
    destruct (dinv_use s t c (bd_set B v w2) true v k ts p1 A1 DB1 M1 b1 Ev D1) as (DB1' & M1' & D1').
    { destruct (qltb k 0) eqn:E3; inversion Eb; subst; assumption. }
    destruct (_ || _); [inversion H; subst; auto|]. eapply IH; eauto.
Qed.

Lemma linv_add s t B c x k v A DB up w ch : linv s t B -> stored s c ->
  is_true (eval_lit (t_bm t) (lc_lit c)) = true -> mdef (t_qm t) x = false ->
  Permutation (lc_terms s c) (A ++ dterms DB ++ [(x, k)]) ->
  (forall y j, In (y, j) A -> mdef (t_qm t) y = true) ->
  (v * k == lc_rhs c - lin (mval (t_qm t)) A - dsum DB)%Q ->
  match lc_pred c with PEq => lneg (lc_lit c) = false
                     | _ => Bool.eqb up (qltb 0 k) = negb (lneg (lc_lit c)) end ->
  (forall d j, In (d, j) DB -> In d (lst B (if Bool.eqb up (qltb 0 k) then qltb j 0 else qltb 0 j) (b_var d))) ->
  (if up then add_upper_bound else add_lower_bound) s t (bd_of B x) (newb s t c x v (map fst DB)) = (w, ch) ->
  linv s t (bd_set B x w) /\ keeps s t B (bd_set B x w).
Proof.
  intros I Hc HT Hx P HA HV HD HB E.
  destruct (mk_good s t B c x k v A DB up I Hc HT P HA HV HD HB) as [G K].
  assert (X : vext s t (bd_of B x) w (fun u e => u = up /\ e = newb s t c x v (map fst DB)) none1)
    by (destruct up; [eapply vext_aub|eapply vext_alb]; exact E).
  assert (Hw : vb_history w) by (destruct up; [eapply vh_aub|eapply vh_alb]; try exact E; apply I).
  split.
  - eapply linv_set; eauto; cbn beta; [|tauto]. intros u e [-> ->]. cbn [b_var newb]. auto.
  - intros u y e. unfold lst. rewrite bd_set_same. destruct (Nat.eqb_spec y x) as [->|N]; [|auto]. apply X.
Qed.

Lemma dinv_end s t c B sgn p A DB M : dinv s t c B sgn [] p A DB M -> dp_num p = 1 ->
  M = [(dp_var p, dp_coef p)] /\ mdef (t_qm t) (dp_var p) = false /\
  Permutation (lc_terms s c) (A ++ dterms DB ++ [(dp_var p, dp_coef p)]).
Proof.
  intros [D1 D2 D3 D4 D5 D6 D7 D8] E. rewrite D6 in E. destruct M as [|[y j] [|]]; try discriminate E.
  destruct (D7 y j (or_introl eq_refl) eq_refl) as [E1 E2]. rewrite E1, E2.
  split; [reflexivity|]. split; [eapply D4; now left|]. rewrite app_nil_r in D1. exact D1.
Qed.
Lemma dinv_coef s t c B sgn p A DB M : sinv s -> stored s c -> dinv s t c B sgn [] p A DB M -> dp_num p = 1 ->
  ~ (dp_coef p == 0)%Q /\
  (dp_bound p / dp_coef p * dp_coef p == lc_rhs c - lin (mval (t_qm t)) A - dsum DB)%Q.
Proof.
  intros HS Hc D E. destruct (dinv_end _ _ _ _ _ _ _ _ _ D E) as (_ & _ & P).
  assert (Z : ~ (dp_coef p == 0)%Q).
  { apply (coef_nz s c (dp_var p)); auto. eapply Permutation_in; [symmetry; exact P|]. rewrite !in_app_iff. right; right; now left. }
  split; [exact Z|]. rewrite <- (dv_val _ _ _ _ _ _ _ _ _ _ D). field. exact Z.
Qed.

Lemma eq_add_inv s t c B first p A DB M B' : linv s t B -> stored s c ->
  is_true (eval_lit (t_bm t) (lc_lit c)) = true -> lc_pred c = PEq -> lneg (lc_lit c) = false ->
  dinv s t c B (negb first) [] p A DB M -> eq_add s t c first p B = Ok B' -> linv s t B' /\ keeps s t B B'.
Proof.
  intros I Hc HT Ep En D. unfold eq_add.
  destruct (count_distinct (dp_deps p) <=? lc_size c); cbn [andb]; [|intros H; okinv H; split; [exact I|red; auto]].
  destruct (Nat.eqb_spec (dp_num p) 1) as [E1|_]; [|intros H; okinv H; split; [exact I|red; auto]].
  intros H. binv H. okinv H.
  destruct (dinv_end _ _ _ _ _ _ _ _ _ D E1) as (_ & Hx & P).
  destruct (dinv_coef _ _ _ _ _ _ _ _ _ (li_s _ _ _ I) Hc D E1) as [Hz HV].
  unfold bound_dep in Eq. binv Eq. okinv Eq.
  rewrite (dv_deps _ _ _ _ _ _ _ _ _ _ D) in Ep0.
  fold (newb s t c (dp_var p) (dp_bound p / dp_coef p) (map fst DB)) in Ep0.
  set (up := negb ((first && qltb 0 (dp_coef p)) || (negb first && qltb (dp_coef p) 0))).
  assert (Eu : Bool.eqb up (qltb 0 (dp_coef p)) = negb first).
  { unfold up. destruct (qltb 0 (dp_coef p)) eqn:F1.
    - replace (qltb (dp_coef p) 0) with false by (symmetry; apply qltb_ge; apply qltb_lt in F1; lra). destruct first; reflexivity.
    - replace (qltb (dp_coef p) 0) with true by (symmetry; apply qltb_lt; apply qltb_ge in F1; destruct (Qlt_le_dec (dp_coef p) 0); [assumption|exfalso; apply Hz; lra]). destruct first; reflexivity. }
  assert (Ea : (if up then add_upper_bound else add_lower_bound) s t (bd_of B (dp_var p))
     (newb s t c (dp_var p) (dp_bound p / dp_coef p) (map fst DB)) = (v, b)).
  { rewrite <- Ep0. unfold up. destruct (_ || _); reflexivity. }
  destruct (linv_add s t B c (dp_var p) (dp_coef p) (dp_bound p / dp_coef p)%Q A DB up v b I Hc HT Hx P) as [I' K']; auto.
  - apply D.
  - rewrite Ep. exact En.
  - intros d j Hd. rewrite Eu. apply (dv_DB _ _ _ _ _ _ _ _ _ _ D d j Hd).
  - split; [now apply linv_mark|]. unfold bd_mark. destruct b; exact K'.
Qed.

Lemma opred_eq a b : opred_eqb a b = true <-> a = b.
Proof. destruct a, b; cbn; split; congruence. Qed.

Lemma deduce_inv s t c B B' : linv s t B -> stored s c -> deduce s t c B = Ok B' -> linv s t B'.
Proof.
  intros I Hc. unfold deduce. intros H. binv H.
  destruct (lc_size c <=? 1); [now okinv H|].
  destruct (opred_eqb (lc_pred c) PEq) eqn:Ep.
  - apply opred_eq in Ep. destruct (lneg (lc_lit c)) eqn:En; [now okinv H|].
    unfold deduce_eq in H. binv H. assert (HT : is_true (eval_lit (t_bm t) (lc_lit c)) = true) by assumption.
    destruct (eq_loop_inv s t c Hc _ _ _ _ _ _ _ _ _ _ _ _ I (dinv_nil s t c B false) (dinv_nil s t c B true) Ep0) as [I1 D].
    destruct o as [[p0 p1]|]; [|now okinv H]. destruct D as [(A0 & DB0 & M0 & D0) (A1 & DB1 & M1 & D1)].
    binv H. destruct (eq_add_inv s t c b true p0 A0 DB0 M0 _ I1 Hc HT Ep En D0 Eq) as [I2 K2].
    eapply (eq_add_inv s t c a false p1 A1 DB1 M1); eauto. eapply dinv_B; eauto.
  - unfold deduce_ineq in H. binv H. assert (HT : is_true (eval_lit (t_bm t) (lc_lit c)) = true) by assumption.
    destruct (ineq_loop_inv s t c Hc _ _ _ _ _ _ _ _ I (dinv_nil s t c B _) Ep0) as [I1 D].
    destruct o as [p|]; [|now okinv H]. destruct D as (A & DB & M & D).
    destruct (count_distinct (dp_deps p) <=? lc_size c); cbn [andb] in H; [|now okinv H].
    destruct (Nat.eqb_spec (dp_num p) 1) as [E1|_]; [|now okinv H].
    binv H. okinv H.
    destruct (dinv_end _ _ _ _ _ _ _ _ _ D E1) as (_ & Hx & P).
    destruct (dinv_coef _ _ _ _ _ _ _ _ _ (li_s _ _ _ I) Hc D E1) as [Hz HV].
    unfold bound_dep in Eq. binv Eq. okinv Eq.
    rewrite (dv_deps _ _ _ _ _ _ _ _ _ _ D) in Ep1.
    fold (newb s t c (dp_var p) (dp_bound p / dp_coef p) (map fst DB)) in Ep1.
    set (up := same_dir c (dp_coef p)) in *.
    assert (Eu : Bool.eqb up (qltb 0 (dp_coef p)) = negb (lneg (lc_lit c))).
    { unfold up, same_dir. destruct (qltb 0 (dp_coef p)) eqn:F1.
      - replace (qltb (dp_coef p) 0) with false by (symmetry; apply qltb_ge; apply qltb_lt in F1; lra). destruct (lneg (lc_lit c)); reflexivity.
      - replace (qltb (dp_coef p) 0) with true by (symmetry; apply qltb_lt; apply qltb_ge in F1; destruct (Qlt_le_dec (dp_coef p) 0); [assumption|exfalso; apply Hz; lra]). destruct (lneg (lc_lit c)); reflexivity. }
    assert (Ea : (if up then add_upper_bound else add_lower_bound) s t (bd_of b (dp_var p))
       (newb s t c (dp_var p) (dp_bound p / dp_coef p) (map fst DB)) = (v, b0)).
    { rewrite <- Ep1. destruct up; reflexivity. }
    apply linv_mark.
    apply (fun Z1 Z2 Z3 Z4 => proj1 (linv_add s t b c (dp_var p) (dp_coef p) (dp_bound p / dp_coef p)%Q A DB up v b0 I1 Hc HT Hx P Z1 HV Z2 Z3 Z4)); auto.
    + apply D.
    + destruct (lc_pred c); try exact Eu; discriminate Ep.
    + intros d j Hd. rewrite Eu. apply (dv_DB _ _ _ _ _ _ _ _ _ _ D d j Hd).
Qed.

(** ** bounds of unit constraints *)
Lemma at0 {T} (l : list T) a : at_ l 0 = Ok a -> exists l', l = a :: l'.
Proof. destruct l as [|b l]; cbn; intros H; inversion H; subst; eauto. Qed.
Lemma eval_terms_inv m : forall ts r0 r, eval_terms m ts r0 = Ok r ->
  (forall y j, In (y, j) ts -> mdef m y = true) /\ (r == r0 - lin (mval m) ts)%Q.
Proof.
  induction ts as [|[y j] ts IH]; intros r0 r H; cbn [eval_terms] in H.
  - okinv H. split; [intros ? ? []|]. cbn [lin]. lra.
  - binv H. apply IH in H. destruct H as [H1 H2]. split.
    + intros z i [E|Hz]; [inversion E; subst; auto|eauto].
    + cbn [lin]. rewrite H2. lra.
Qed.
Lemma lc_terms_neg s c : lc_terms s (lc_neg c) = lc_terms s c.
Proof. reflexivity. Qed.
Lemma eval_neg (m : model bool) l b : eval_lit m l = Some b -> eval_lit m (neg l) = Some (negb b).
Proof.
  unfold eval_lit. cbn [neg lord lneg]. destruct (mdef m (lord l)); [|discriminate]. intros H. 
  assert (b = Bool.eqb (mval m (lord l)) (negb (lneg l))) by congruence. subst b.
  destruct (mval m (lord l)), (lneg l); reflexivity.
Qed.

Lemma update_inv s t c B B' : linv s t B -> stored s c -> bd_update s t c B = Ok B' -> linv s t B'.
Proof.
  intros I Hc. unfold bd_update. intros H.
  destruct (mdef (t_bm t) (lord (lc_lit c))) eqn:Ed; cbn [assertb bind] in H; [|discriminate H].
  destruct (at_ (lc_terms s c) 0) as [[x k]| |] eqn:Ea; cbn [bind] in H; try discriminate H.
  apply at0 in Ea. destruct Ea as [rest Et].
  destruct (negb (Qeq_bool k 0)) eqn:Ez; cbn [assertb bind] in H; [|discriminate H].
  assert (Hz : ~ (k == 0)%Q).
  { intros Hz. apply Qeq_bool_iff in Hz. rewrite Hz in Ez. discriminate Ez. }
  destruct (lc_implied_value s (t_qm t) c) as [r| |] eqn:Er; cbn [bind] in H; try discriminate H.
  unfold lc_implied_value in Er. rewrite Et in Er. cbn [tl] in Er. apply eval_terms_inv in Er. destruct Er as [HA Hr].
  destruct (eval_lit (t_bm t) (lc_lit c)) as [b|] eqn:El; cbn [value_of bind] in H; [|discriminate H].
  set (c1 := if b then c else lc_neg c) in *.
  assert (Hc1 : stored s c1) by (unfold c1; destruct b; auto using stored_neg).
  assert (HT : is_true (eval_lit (t_bm t) (lc_lit c1)) = true).
  { unfold c1. destruct b; [now rewrite El|]. cbn [lc_neg lc_lit]. now rewrite (eval_neg _ _ _ El). }
  assert (Et1 : lc_terms s c1 = (x, k) :: rest) by (unfold c1; destruct b; auto).
  assert (ER : lc_rhs c1 = lc_rhs c) by (unfold c1; destruct b; reflexivity).
  assert (P : Permutation (lc_terms s c1) (rest ++ dterms [] ++ [(x, k)])).
  { rewrite Et1. cbn [dterms map app]. apply Permutation_cons_append. }
  assert (HV : (r / k * k == lc_rhs c1 - lin (mval (t_qm t)) rest - dsum [])%Q).
  { cbn [dsum]. rewrite ER, Hr. field. exact Hz. }
  assert (Hun : forall b1, bound_unit s t x (r / k) c1 = Ok b1 ->
     b1 = newb s t c1 x (r / k) (map fst (@nil (bound * Q))) /\ mdef (t_qm t) x = false).
  { unfold bound_unit, bound_dep. intros b1 Hb. rewrite (lc_vars_terms s c1) in Hb by (auto; apply I). rewrite Et1 in Hb. cbn [map fst] in Hb.
    binv Hb. okinv Hb. split; [reflexivity|]. apply andb_true_iff in As0. destruct As0 as [Z _].
    now apply negb_true_iff in Z. }
  destruct (implies_eq c1) eqn:I1.
  { unfold implies_eq in I1. apply andb_true_iff in I1. destruct I1 as [I1 I2]. apply opred_eq in I1. apply negb_true_iff in I2.
    destruct (bound_unit s t x (r / k) c1) as [b1| |] eqn:Eb; cbn [bind] in H; try discriminate H.
    destruct (Hun b1 eq_refl) as [-> Hx].
    destruct (add_lower_bound s t (bd_of B x) _) as [w1 h1] eqn:E1. destruct (add_upper_bound s t w1 _) as [w2 h2] eqn:E2.
    okinv H. apply linv_mark.
    assert (HD : forall up : bool, match lc_pred c1 with PEq => lneg (lc_lit c1) = false
                     | _ => Bool.eqb up (qltb 0 k) = negb (lneg (lc_lit c1)) end) by (intros up; rewrite I1; exact I2).
    assert (G : forall up, bgood s t up (newb s t c1 x (r / k) (map fst (@nil (bound * Q))))).
    { intros up. eapply proj1, (mk_good s t B c1 x k (r / k) rest [] up); auto.
      - apply HD.
      - intros d j []. }
    eapply (linv_set s t B x w2); [exact I| |eapply vext_trans; [eapply vext_alb, E1|eapply vext_aub, E2]| |cbn; tauto].
    - eapply vh_aub; [exact E2|]. eapply vh_alb; [exact E1|]. apply I.
    - cbn beta. intros up e He. assert (e = newb s t c1 x (r / k) (map fst (@nil (bound * Q)))) by tauto. subst e.
      cbn [newb b_var b_deps map]. split; [reflexivity|]. split; [apply G|]. split; [exact Hx|]. intros d []. }
  destruct (implies_neq c1) eqn:I2.
  { unfold implies_neq in I2. apply andb_true_iff in I2. destruct I2 as [I2 I3]. apply opred_eq in I2.
    destruct (bound_unit s t x (r / k) c1) as [b1| |] eqn:Eb; cbn [bind] in H; try discriminate H.
    destruct (Hun b1 eq_refl) as [-> Hx].
    destruct (add_inequality s t (bd_of B x) _) as [[w1 h1]| |] eqn:E1; cbn [bind] in H; try discriminate H.
    okinv H. apply linv_mark.
    eapply (linv_set s t B x w1); [exact I| |eapply vext_aneq, E1|cbn; tauto|].
    - eapply vh_add_neq; [|exact E1]. apply I.
    - cbn beta. intros e ->. split; [reflexivity|]. split; [|exact Hx]. constructor; auto.
      + apply (mk_node s t c1 x k (r / k) rest []); auto; apply I.
      + intros _. cbn [newb b_cons b_var]. rewrite lc_vars_terms by apply I. rewrite Et1. reflexivity. }
  assert (Np : lc_pred c1 <> PEq).
  { intros E. unfold implies_eq, implies_neq in I1, I2. rewrite E in I1, I2. cbn in I1, I2. destruct (lneg (lc_lit c1)); discriminate. }
  assert (Op : opred_eqb (lc_pred c1) PEq = false).
  { destruct (opred_eqb (lc_pred c1) PEq) eqn:E; [|reflexivity]. apply opred_eq in E. tauto. }
  assert (Go : forall up w h, Bool.eqb up (qltb 0 k) = negb (lneg (lc_lit c1)) -> mdef (t_qm t) x = false ->
     (if up then add_upper_bound else add_lower_bound) s t (bd_of B x) (newb s t c1 x (r / k) (map fst (@nil (bound * Q)))) = (w, h) ->
     linv s t (bd_mark (bd_set B x w) x h)).
  { intros up w h Eu Hx E. apply linv_mark. eapply (linv_add s t B c1 x k (r / k) rest [] up); eauto.
    - destruct (lc_pred c1); auto. congruence.
    - intros d j []. }
  destruct (implies_lb c1 k) eqn:I3.
  - destruct (bound_unit s t x (r / k) c1) as [b1| |] eqn:Eb; cbn [bind] in H; try discriminate H.
    destruct (Hun b1 eq_refl) as [-> Hx].
    destruct (add_lower_bound s t (bd_of B x) _) as [w1 h1] eqn:E1. okinv H. apply (Go false); auto.
    unfold implies_lb in I3. rewrite Op in I3. destruct (lneg (lc_lit c1)); cbn [negb andb] in *; rewrite ?andb_true_r, ?andb_false_r, ?orb_false_r in I3; cbn [orb] in I3.
    + rewrite I3. reflexivity.
    + replace (qltb 0 k) with false by (symmetry; apply qltb_ge; apply qltb_lt in I3; lra). reflexivity.
  - destruct (implies_ub c1 k) eqn:I4; cbn [assertb bind] in H; [|discriminate H].
    destruct (bound_unit s t x (r / k) c1) as [b1| |] eqn:Eb; cbn [bind] in H; try discriminate H.
    destruct (Hun b1 eq_refl) as [-> Hx].
    destruct (add_upper_bound s t (bd_of B x) _) as [w1 h1] eqn:E1. okinv H. apply (Go true); auto.
    unfold implies_ub in I4. rewrite Op in I4. destruct (lneg (lc_lit c1)); cbn [negb andb] in *; rewrite ?andb_true_r, ?andb_false_r, ?orb_false_r in I4; cbn [orb] in I4.
    + replace (qltb 0 k) with false by (symmetry; apply qltb_ge; apply qltb_lt in I4; lra). reflexivity.
    + rewrite I4. reflexivity.
Qed.

(** ** all steps *)
Lemma restr_env s t B s' t' : linv s t B -> sinv s' -> grows s s' -> kept s s' (t_qm t) -> tlater t t' -> tclock t' ->
  restr (t_qm t) (t_qm t') -> linv s' t' B.
Proof. intros I S' G K L C R. apply (linv_env s t); auto. intros x Hx. left. destruct R as [_ R]. destruct (R x Hx) as (R1 & R2 & _). auto. Qed.

Lemma linv_step hi hv s t B s' t' B' : estep hi hv (s, t, B) (s', t', B') -> linv s t B -> linv s' t' B'.
Proof.
  intros H I. pose proof (li_s _ _ _ I) as HS. pose proof (li_c _ _ _ I) as HC.
  assert (ST := estep_sinv hi hv _ _ H). cbn [fst snd] in ST. assert (KP := estep_kept hi hv _ _ _ _ _ _ H HS).
  inversion H; subst.
  - apply (restr_env s t' B' _ t'); auto using tlater_refl, restr_refl; apply ST; auto.
  - destruct (mnum (t_bm t) <=? lord (lc_lit c)).
    + destruct (more_later t (S (lord (lc_lit c))) (mnum (t_qm t)) HC) as (L & C & R). apply (restr_env s t B' s'); auto; apply ST; auto.
    + apply (restr_env s t B' s' t); auto using tlater_refl, restr_refl; apply ST; auto.
  - destruct (more_later t nb nq HC) as (L & C & R). apply (restr_env s t B' _); auto; apply ST; auto.
  - match goal with E : t_step _ _ = _ |- _ => apply sem_later in E; [|exact HC]; destruct E as (L & C & R) end.
    apply (restr_env s' t B' s'); auto using grows_refl.
  - destruct (decide_later t x q HC) as (L & C). apply (linv_env s' t B' s'); auto using grows_refl.
    intros y Hy. cbn [trail_decide with_qm t_qm] in *. cbn in Hy |- *. 
    destruct (Nat.eq_dec y x) as [->|Hn].
    + right. rewrite upd_eq. apply permitted_allowed; [apply I|].
      match goal with E : is_allowed _ _ _ _ = _ |- _ => apply is_allowed_spec in E; now apply E end.
    + left. rewrite upd_neq in Hy by auto. rewrite upd_neq by auto. auto.
  - now apply linv_query.
  - now apply linv_upd.
  - eapply update_inv; eauto.
  - eapply deduce_inv; eauto.
Qed.

Lemma linv_init : linv store_new (trail_new 0 0) bnds_new.
Proof.
  constructor.
  - constructor; [exact inv_new|]. intros [|i] c E; discriminate E.
  - split; split; cbn; try reflexivity; try discriminate; intros; discriminate.
  - intros x. constructor.
  - intros [|] x b [].
  - intros [|] x b d [].
  - intros x b [].
  - intros x H. discriminate H.
Qed.
Lemma linv_steps hi hv p q : esteps hi hv p q ->
  linv (fst (fst p)) (snd (fst p)) (snd p) -> linv (fst (fst q)) (snd (fst q)) (snd q).
Proof.
  induction 1 as [a|[[s t] B] [[s1 t1] B1] c H1 _ IH]; [auto|]. intros I. apply IH. eapply linv_step; eauto.
Qed.
Lemma linv_rsteps hi hv p q : rsteps hi hv p q ->
  linv (fst (fst p)) (snd (fst p)) (snd p) -> linv (fst (fst q)) (snd (fst q)) (snd q).
Proof.
  induction 1 as [a|a b c _ IH H2|a s t B o t' _ IH H2 H3]; [auto|intros I; eapply linv_steps; eauto|]. intros I. specialize (IH I). cbn [fst snd] in *.
  destruct (foreign_later t o t') as (L & C & R); auto; [apply IH|]. apply (restr_env s t B s); auto using grows_refl, kept_refl. apply IH.
Qed.
Lemma run_linv hi hv opt a t : lra_run hi hv opt a t -> linv (l_st a) t (l_bd a).
Proof.
  intros R. destruct (run_steps hi hv opt a t R) as [E _].
  exact (linv_rsteps hi hv _ _ E linv_init).
Qed.

(** ** C28 *)
Lemma agrees_holds s t r b : sinv s -> nodev s t b -> agrees s t r -> node_obs s t b = false -> lc_holds s r (b_cons b).
Proof.
  intros HS N [_ A] O. pose proof (nv_stored _ _ _ N) as Hc.
  destruct (stored_get_eq s _ HS Hc) as (E1 & E2 & E3).
  unfold node_obs in O. apply orb_false_iff in O. destruct O as [O _]. apply orb_false_iff in O. destruct O as [O _].
  apply negb_false_iff in O. unfold eval_lit in O.
  destruct (mdef (t_bm t) (lord (lc_lit (b_cons b)))) eqn:Ed; [|discriminate O]. cbn in O.
  specialize (A _ Ed). unfold stored_holds in A. unfold lc_holds.
  assert (ET : forall c, lc_pos (lc_get s (lord (lc_lit (b_cons b)))) = lc_pos c ->
                         lc_terms s (lc_get s (lord (lc_lit (b_cons b)))) = lc_terms s c).
  { intros c E. unfold lc_terms, lc_vars, lc_coef. now rewrite E. }
  rewrite (ET _ E1), E2, E3 in A.
  assert (NE : lc_empty (lc_get s (lord (lc_lit (b_cons b)))) = false).
  { unfold lc_empty, lc_size. rewrite E1. pose proof (nv_in _ _ _ N) as Hi.
    destruct (lc_pos (b_cons b)) as [i j] eqn:Ep. cbn [fst snd]. unfold lc_terms, lc_vars, lc_coef in Hi. rewrite Ep in Hi.
    unfold slice in Hi. cbn [fst snd] in Hi. destruct (Nat.leb_spec j i) as [L|L]; [|reflexivity].
    exfalso. replace (j - i) with 0 in Hi by lia. exact Hi. }
  specialize (A NE). destruct (lneg (lc_lit (b_cons b))), (mval (t_bm t) (lord (lc_lit (b_cons b)))); cbn in O; try discriminate O.
  - intros H. apply A in H. discriminate H.
  - now apply A.
Qed.

Lemma good_holds s t r : sinv s -> agrees s t r -> forall up b, bgood s t up b -> is_obsolete s t b = false ->
  dirholds up b (r (b_var b)).
Proof.
  intros HS A up b G. induction G as [up b N D _ IH]. rewrite obsolete_eq, orb_false_iff. intros [O1 O2].
  apply (follows s t up b r); auto; [apply A|now apply (agrees_holds s t)|].
  intros d Hd. apply IH; auto. destruct (is_obsolete s t d) eqn:E; [|reflexivity].
  rewrite <- O2. symmetry. apply existsb_exists. eauto.
Qed.
Lemma neq_holds s t r b : sinv s -> agrees s t r -> neqok s t b -> is_obsolete s t b = false -> differs b (r (b_var b)).
Proof.
  intros HS A [N D P Q _] O. rewrite obsolete_eq, D, orb_false_r in O. 
  pose proof (agrees_holds s t r b HS N A O) as H. unfold lc_holds in H. rewrite P, Q in H. cbn [rel] in H.
  unfold differs. intros E. apply H. rewrite <- (nv_val _ _ _ N O). apply lin_ext_in. intros y k Hy.
  unfold pt. destruct (Nat.eqb_spec y (b_var b)) as [->|Hn]; [symmetry; exact E|]. rewrite D. cbn [find].
  destruct A as [A _]. apply A. unfold node_obs in O. apply orb_false_iff in O. destruct O as [_ O].
  rewrite <- not_true_iff_false, existsb_exists in O. destruct (mdef (t_qm t) y) eqn:Ed; [reflexivity|].
  exfalso. apply O. exists y. rewrite lc_vars_terms by exact HS. split; [now apply (in_map fst) in Hy|].
  unfold other. rewrite D, Ed. apply Nat.eqb_neq in Hn. rewrite Hn. reflexivity.
Qed.
Theorem bounds_implied hi hv opt a t r : lra_run hi hv opt a t -> agrees (l_st a) t r ->
  forall x, permitted (l_st a) t (bd_of (l_bd a) x) (r x).
Proof.
  intros R A x. pose proof (run_linv hi hv opt a t R) as I. apply permitted_iff. split.
  - intros up b Hb O. destruct (li_good _ _ _ I up x b Hb) as [E G]. rewrite <- E. 
    apply (good_holds (l_st a) t); auto. apply I.
  - intros b Hb O. destruct (li_neq _ _ _ I x b Hb) as [E G]. rewrite <- E.
    apply (neq_holds (l_st a) t); auto. apply I.
Qed.
