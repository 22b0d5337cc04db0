(** Values permitted by the recorded bounds satisfy the unit constraints the bounds come from. *)
From Coq Require Import List Arith ZArith QArith Bool Lia Permutation Lqa.
From Verif Require Import Base Core_Model Sort_Proofs Trail_Model Lincons_Model Spec_Lincons Lincons_Proofs
  Lincons_Proofs2 Lra_Model Spec_Lra Lra_Fm Lra_Bounds Lra_Hist Lra_Steps Lra_Keep Lra_Good Lra_Good2 Lra_Confl.
Import ListNotations.
Open Scope nat_scope.
Arguments Qred : simpl never.
Arguments Qmult : simpl never.
Arguments Qplus : simpl never.
Arguments Qminus : simpl never.
Arguments Qopp : simpl never.
Arguments Qdiv : simpl never.

(** ** additions to the bounds of one variable *)
Definition nkeep (s : store) (t : trail) (w w' : vbounds) : Prop :=
  forall b, In b (vb_neq w) -> is_obsolete s t b = false -> In b (vb_neq w').
Lemma ub_neq s t w b : vb_neq (fst (add_upper_bound s t w b)) = vb_neq w.
Proof. unfold add_upper_bound, upper_bound. destruct (match hd_error _ with None => _ | Some _ => _ end); reflexivity. Qed.
Lemma lb_neq s t w b : vb_neq (fst (add_lower_bound s t w b)) = vb_neq w.
Proof. unfold add_lower_bound, lower_bound. destruct (match hd_error _ with None => _ | Some _ => _ end); reflexivity. Qed.
Lemma vext_perm s t w w' nw nn v : vext s t w w' nw nn -> nkeep s t w w' -> permitted s t w' v -> permitted s t w v.
Proof.
  intros [_ K _] N. rewrite !permitted_iff. intros [A B]. split; [|intros b Hb O; apply B; auto].
  intros up b Hb O. apply A; auto.
Qed.
Lemma qltb_false a b : qltb a b = false -> (b <= a)%Q.
Proof. apply qltb_ge. Qed.
Lemma alb_above s t w b w' h v : add_lower_bound s t w b = (w', h) -> is_obsolete s t b = false -> permitted s t w' v -> above b v.
Proof.
  intros H O (P & _). unfold add_lower_bound, lower_bound in H. destruct (hd_error (drop_obsolete s t (vb_lb w))) as [b0|] eqn:E.
  - destruct (is_better _ b b0) eqn:I; injection H as <- <-; cbn [vb_lb] in P.
    + apply P; auto. now left.
    + destruct (drop_head _ _ _ _ E) as [H1 H2].
      assert (A : above b0 v) by (apply P; auto; now apply drop_keep).
      unfold is_better in I. apply orb_false_iff in I. destruct I as [I1 I2]. apply qltb_false in I1.
      unfold above in *. destruct (b_strict b) eqn:S1, (b_strict b0) eqn:S2; try lra.
      cbn in I2. rewrite andb_true_r, andb_true_r in I2. apply Qeq_bool_neq in I2.
      assert (~ (b_val b == b_val b0)%Q) by auto. destruct (Qlt_le_dec (b_val b) (b_val b0)); [lra|]. exfalso. apply H. lra.
  - injection H as <- <-. apply P; [now left|auto].
Qed.
Lemma aub_below s t w b w' h v : add_upper_bound s t w b = (w', h) -> is_obsolete s t b = false -> permitted s t w' v -> below b v.
Proof.
  intros H O (_ & P & _). unfold add_upper_bound, upper_bound in H. destruct (hd_error (drop_obsolete s t (vb_ub w))) as [b0|] eqn:E.
  - destruct (is_better _ b b0) eqn:I; injection H as <- <-; cbn [vb_ub] in P.
    + apply P; auto. now left.
    + destruct (drop_head _ _ _ _ E) as [H1 H2].
      assert (A : below b0 v) by (apply P; auto; now apply drop_keep).
      unfold is_better in I. apply orb_false_iff in I. destruct I as [I1 I2]. apply qltb_false in I1.
      unfold below in *. destruct (b_strict b) eqn:S1, (b_strict b0) eqn:S2; try lra.
      cbn in I2. rewrite andb_true_r, andb_true_r in I2. apply Qeq_bool_neq in I2.
      assert (~ (b_val b == b_val b0)%Q) by auto. destruct (Qlt_le_dec (b_val b0) (b_val b)); [lra|]. exfalso. apply H. lra.
  - injection H as <- <-. apply P; [now left|auto].
Qed.
Lemma neq_filter s t w : nkeep s t w (mkVb (vb_ub w) (vb_lb w) (filter (fun b => negb (is_obsolete s t b)) (vb_neq w))).
Proof. intros b Hb O. cbn. apply filter_In. now rewrite O. Qed.
Lemma aneq_differs s t w b w' h v : add_inequality s t w b = Ok (w', h) -> is_obsolete s t b = false -> permitted s t w' v -> differs b v.
Proof.
  intros H O (_ & _ & P). unfold add_inequality in H. destruct (assertb _); cbn [bind] in H; try discriminate.
  destruct (inequality s t w (b_val b)) as [w1 n] eqn:E. unfold inequality in E. injection E as <- E. destruct n as [n|].
  - destruct (negb (lit_eqb _ _)); injection H as <- <-; cbn [vb_neq] in P.
    + apply P; auto. apply in_app_iff. right. now left.
    + apply find_some in E. destruct E as [E1 E2]. apply filter_In in E1. destruct E1 as [E1 E3]. apply negb_true_iff in E3.
      assert (D : differs n v). { apply P; auto. apply filter_In. now rewrite E3. }
      apply Qeq_bool_iff in E2. unfold differs in *. intros X. apply D. rewrite E2. exact X.
  - injection H as <- <-. cbn [vb_neq] in P. apply P; auto. apply in_app_iff. right. now left.
Qed.
Lemma aneq_keep s t w b w' h : add_inequality s t w b = Ok (w', h) -> nkeep s t w w'.
Proof.
  intros H e He O. unfold add_inequality in H. destruct (assertb _); cbn [bind] in H; try discriminate.
  unfold inequality in H. destruct (match find _ _ with None => _ | Some _ => _ end); injection H as <- <-; cbn [vb_neq];
    [apply in_app_iff; left|]; apply filter_In; now rewrite O.
Qed.
Lemma nkeep_eq s t w w' : vb_neq w' = vb_neq w -> nkeep s t w w'.
Proof. intros E b Hb _. now rewrite E. Qed.

(** a bound made from the trail is in force *)
Lemma var_time_ge s qm x c y : In y (lc_vars s c) -> y <> x -> mdef qm y = true -> (mts qm y <= var_time s qm x c)%Z.
Proof.
  intros Hy N D. unfold var_time.
  assert (M : forall (l : list nat) (k : Z), (k <= fold_left (fun k y => if negb (y =? x)%nat && mdef qm y then Z.max k (mts qm y) else k) l k)%Z).
  { induction l as [|z l IH]; intros k; cbn [fold_left]; [lia|]. destruct (_ && _); [|apply IH]. specialize (IH (Z.max k (mts qm z))). lia. }
  generalize 0%Z. revert Hy. generalize (lc_vars s c). induction l as [|z l IH]; intros Hy k; [easy|]. cbn [fold_left].
  destruct Hy as [->|Hy]; [|now apply IH]. apply Nat.eqb_neq in N. rewrite N, D. cbn [negb andb].
  match goal with |- (_ <= fold_left _ _ ?k)%Z => specialize (M l k) end. lia.
Qed.
Lemma new_live s t c x v : is_true (eval_lit (t_bm t) (lc_lit c)) = true ->
  (forall y, In y (lc_vars s c) -> y <> x -> mdef (t_qm t) y = true) -> is_obsolete s t (newb s t c x v []) = false.
Proof.
  intros HT HA. unfold newb. cbn [is_obsolete existsb]. rewrite HT, Z.ltb_irrefl. cbn [negb orb]. rewrite orb_false_r.
  apply not_true_iff_false. intros X. apply existsb_exists in X. destruct X as (y & Hy & X). rewrite andb_true_r in X. apply andb_true_iff in X.
  destruct X as [N X]. apply negb_true_iff, Nat.eqb_neq in N. rewrite (HA y Hy N) in X. cbn in X. apply Z.ltb_lt in X.
  pose proof (var_time_ge s (t_qm t) x c y Hy N (HA y Hy N)). lia.
Qed.

(** what update() does *)
Record upds (s : store) (t : trail) (c : lcons) (B B' : bnds) (x : nat) : Prop := {
  us_vars : exists rest, lc_vars s c = x :: rest /\ forall y, In y rest -> mdef (t_qm t) y = true;
  us_x : mdef (t_qm t) x = false;
  us_oth : forall y, y <> x -> bd_of B' y = bd_of B y;
  us_in : forall up b, In b (ls (bd_of B' x) up) -> In b (ls (bd_of B x) up) \/ ((b_cons b = c \/ b_cons b = lc_neg c) /\ b_deps b = []);
  us_neq : forall b, In b (vb_neq (bd_of B' x)) -> In b (vb_neq (bd_of B x)) \/ ((b_cons b = c \/ b_cons b = lc_neg c) /\ b_deps b = []);
  us_keep : forall up b, In b (ls (bd_of B x) up) -> is_obsolete s t b = false -> In b (ls (bd_of B' x) up);
  us_nkeep : nkeep s t (bd_of B x) (bd_of B' x);
  us_mark : bd_upd B' = bd_upd B ++ [x] \/ (bd_upd B' = bd_upd B /\ forall v, permitted s t (bd_of B x) v -> permitted s t (bd_of B' x) v);
  us_holds : forall v b, permitted s t (bd_of B' x) v -> eval_lit (t_bm t) (lc_lit c) = Some b ->
    lc_holds s (upd (mval (t_qm t)) x v) (if b then c else lc_neg c) }.

Lemma lin_upd_out r x v ts : ~ In x (map fst ts) -> lin (upd r x v) ts = lin r ts.
Proof.
  induction ts as [|[y k] ts IH]; cbn [map fst lin]; intros N; [reflexivity|]. rewrite IH by (intros X; apply N; now right). rewrite upd_neq by (intros E; apply N; now left). reflexivity.
Qed.
Lemma sgn_mul k D : ((0 < k)%Q -> (0 < D -> 0 < k * D)%Q /\ (0 <= D -> 0 <= k * D)%Q /\ (D < 0 -> k * D < 0)%Q /\ (D <= 0 -> k * D <= 0)%Q) /\
  ((k < 0)%Q -> (0 < D -> k * D < 0)%Q /\ (0 <= D -> k * D <= 0)%Q /\ (D < 0 -> 0 < k * D)%Q /\ (D <= 0 -> 0 <= k * D)%Q).
Proof. split; intros; repeat split; intros; nra. Qed.
Lemma update_spec s t c B B' : linv s t B -> stored s c -> bd_update s t c B = Ok B' -> exists x, upds s t c B B' x.
Proof.
  intros I Hc. unfold bd_update. intros H.
  destruct (mdef (t_bm t) (lord (lc_lit c))) eqn:Ed; cbn [assertb bind] in H; [|discriminate H].
  destruct (at_ (lc_terms s c) 0) as [[x k]| |] eqn:Ea; cbn [bind] in H; try discriminate H.
  apply at0 in Ea. destruct Ea as [rest Et].
  destruct (negb (Qeq_bool k 0)) eqn:Ez; cbn [assertb bind] in H; [|discriminate H].
  assert (Hz : ~ (k == 0)%Q).
  { intros Hz. apply Qeq_bool_iff in Hz. rewrite Hz in Ez. discriminate Ez. }
  destruct (lc_implied_value s (t_qm t) c) as [r| |] eqn:Er; cbn [bind] in H; try discriminate H.
  unfold lc_implied_value in Er. rewrite Et in Er. cbn [tl] in Er. apply eval_terms_inv in Er. destruct Er as [HA Hr].
  destruct (eval_lit (t_bm t) (lc_lit c)) as [b|] eqn:El; cbn [value_of bind] in H; [|discriminate H].
  set (c1 := if b then c else lc_neg c) in *.
  assert (HT : is_true (eval_lit (t_bm t) (lc_lit c1)) = true).
  { unfold c1. destruct b; [now rewrite El|]. cbn [lc_neg lc_lit]. now rewrite (eval_neg _ _ _ El). }
  assert (Et1 : lc_terms s c1 = (x, k) :: rest) by (unfold c1; destruct b; auto).
  assert (ER : lc_rhs c1 = lc_rhs c) by (unfold c1; destruct b; reflexivity).
  pose proof (li_s _ _ _ I) as HS.
  assert (EV : lc_vars s c = x :: map fst rest) by (rewrite lc_vars_terms by exact HS; now rewrite Et).
  assert (EV1 : lc_vars s c1 = x :: map fst rest) by (rewrite lc_vars_terms by exact HS; now rewrite Et1).
  pose proof (nt_nodup _ (stored_norm s c HS Hc)) as ND. rewrite Et in ND. cbn [map fst] in ND. apply NoDup_cons_iff in ND. destruct ND as [NX _].
  assert (HA' : forall y, In y (map fst rest) -> mdef (t_qm t) y = true).
  { intros y Hy. apply in_map_iff in Hy. destruct Hy as ([z j] & E & Hy). cbn in E. subst z. eauto. }
  assert (CC : b_cons (newb s t c1 x (r / k) []) = c \/ b_cons (newb s t c1 x (r / k) []) = lc_neg c) by (cbn; unfold c1; destruct b; auto).
  assert (Hun : forall b1, bound_unit s t x (r / k) c1 = Ok b1 -> b1 = newb s t c1 x (r / k) [] /\ mdef (t_qm t) x = false).
  { unfold bound_unit, bound_dep. intros b1 Hb. rewrite EV1 in Hb.
    binv Hb. okinv Hb. split; [reflexivity|]. apply andb_true_iff in As0. destruct As0 as [Z _].
    now apply negb_true_iff in Z. }
  assert (LV : is_obsolete s t (newb s t c1 x (r / k) []) = false).
  { apply new_live; auto. intros y Hy N. rewrite EV1 in Hy. destruct Hy as [->|Hy]; [congruence|auto]. }
  (* the value of the constraint *)
  assert (VAL : forall v, (lin (upd (mval (t_qm t)) x v) (lc_terms s c1) - lc_rhs c1 == k * (v - r / k))%Q).
  { intros v. rewrite Et1. cbn [lin]. rewrite lin_upd_out, upd_eq by auto. rewrite ER. assert (r == k * (r / k))%Q by (field; auto). lra. }
  assert (ST : b_strict (newb s t c1 x (r / k) []) = lc_strict c1) by (unfold b_strict; cbn; apply orb_false_r).
  assert (KS : (0 < k \/ k < 0)%Q) by (destruct (Qlt_le_dec 0 k); [auto|]; right; destruct (Qlt_le_dec k 0); auto; exfalso; apply Hz; lra).
  assert (SET : forall w h, (bd_of (bd_mark (bd_set B x w) x h) x = w) /\ (forall y, y <> x -> bd_of (bd_mark (bd_set B x w) x h) y = bd_of B y) /\
     bd_upd (bd_mark (bd_set B x w) x h) = if h then bd_upd B ++ [x] else bd_upd B).
  { intros w h. unfold bd_mark, bd_set. destruct h; cbn; (split; [now rewrite upd_eq|split; [intros y N; now rewrite upd_neq|reflexivity]]). }
  exists x.
  destruct (implies_eq c1) eqn:I1.
  { unfold implies_eq in I1. apply andb_true_iff in I1. destruct I1 as [I1 I2]. apply opred_eq in I1. apply negb_true_iff in I2.
    destruct (bound_unit s t x (r / k) c1) as [b1| |] eqn:Eb; cbn [bind] in H; try discriminate H.
    destruct (Hun b1 eq_refl) as [-> Hx].
    destruct (add_lower_bound s t (bd_of B x) _) as [w1 h1] eqn:E1. destruct (add_upper_bound s t w1 _) as [w2 h2] eqn:E2.
    okinv H. destruct (SET w2 (h1 || h2)) as (S1 & S2 & S3).
    pose proof (vext_alb _ _ _ _ _ _ E1) as X1. pose proof (vext_aub _ _ _ _ _ _ E2) as X2. pose proof (vext_trans _ _ _ _ _ _ _ _ _ X1 X2) as X.
    assert (N1 : vb_neq w1 = vb_neq (bd_of B x)) by (rewrite <- (lb_neq s t (bd_of B x) (newb s t c1 x (r / k) [])), E1; reflexivity).
    assert (N2 : vb_neq w2 = vb_neq w1) by (rewrite <- (ub_neq s t w1 (newb s t c1 x (r / k) [])), E2; reflexivity).
    constructor; rewrite ?S1; auto.
    - eauto.
    - intros up e He. destruct (ve_in _ _ _ _ _ _ X up e He) as [Y|[[_ Y]|[_ Y]]]; [auto|subst|subst]; auto.
    - intros e He. rewrite N2, N1 in He. auto.
    - apply (ve_keep _ _ _ _ _ _ X).
    - apply nkeep_eq. congruence.
    - rewrite S3. destruct (h1 || h2) eqn:Eh; [auto|]. right. split; auto. apply orb_false_iff in Eh. destruct Eh as [-> ->].
      intros v P. apply permitted_iff in P. apply permitted_iff. destruct P as [P1 P2]. split.
      + intros up e He O. apply P1; auto.
        assert (A1 : forall up e, In e (ls w2 up) -> In e (ls w1 up)).
        { unfold add_upper_bound, upper_bound in E2. destruct (match hd_error _ with None => _ | Some _ => _ end); [discriminate|].
          injection E2 as <-. intros [|] e0; cbn; auto. apply drop_in. }
        assert (A2 : forall up e, In e (ls w1 up) -> In e (ls (bd_of B x) up)).
        { unfold add_lower_bound, lower_bound in E1. destruct (match hd_error _ with None => _ | Some _ => _ end); [discriminate|].
          injection E1 as <-. intros [|] e0; cbn; auto. apply drop_in. }
        auto.
      + intros e He. apply P2. congruence.
    - intros v b' P Eb'. assert (b' = b) by congruence; subst b'. fold c1. pose proof (aub_below _ _ _ _ _ _ v E2 LV P) as A1.
      assert (P' : permitted s t w1 v) by (eapply vext_perm; [exact X2|now apply nkeep_eq|exact P]).
      pose proof (alb_above _ _ _ _ _ _ v E1 LV P') as A2.
      unfold above, below in *. rewrite ST in *. unfold lc_strict, strict_of in *. rewrite I1, I2 in *. cbn in A1, A2.
      unfold lc_holds. rewrite I1, I2. cbn [rel]. specialize (VAL v). assert (v - r / k == 0)%Q by lra. rewrite H in VAL. lra. }
  destruct (implies_neq c1) eqn:I2.
  { unfold implies_neq in I2. apply andb_true_iff in I2. destruct I2 as [I2 I3]. apply opred_eq in I2.
    destruct (bound_unit s t x (r / k) c1) as [b1| |] eqn:Eb; cbn [bind] in H; try discriminate H.
    destruct (Hun b1 eq_refl) as [-> Hx].
    destruct (add_inequality s t (bd_of B x) _) as [[w1 h1]| |] eqn:E1; cbn [bind] in H; try discriminate H.
    okinv H. destruct (SET w1 true) as (S1 & S2 & S3). pose proof (vext_aneq _ _ _ _ _ _ E1) as X.
    constructor; rewrite ?S1; auto.
    - eauto.
    - intros up e He. destruct (ve_in _ _ _ _ _ _ X up e He) as [Y|Y]; [auto|destruct Y].
    - intros e He. destruct (ve_neq _ _ _ _ _ _ X e He) as [Y|Y]; [auto|subst]; auto.
    - apply (ve_keep _ _ _ _ _ _ X).
    - eapply aneq_keep; eauto.
    - intros v b' P Eb'. assert (b' = b) by congruence; subst b'. fold c1. pose proof (aneq_differs _ _ _ _ _ _ v E1 LV P) as A1.
      unfold lc_holds. rewrite I2, I3. cbn [rel]. specialize (VAL v). unfold differs in A1. cbn [newb b_val] in A1. intros X0.
      assert (k * (v - r / k) == 0)%Q by lra. apply Qmult_integral in H. destruct H; [auto|]. apply A1. lra. }
  assert (Np : lc_pred c1 <> PEq).
  { intros E. unfold implies_eq, implies_neq in I1, I2. rewrite E in I1, I2. cbn in I1, I2. destruct (lneg (lc_lit c1)); discriminate. }
  assert (Op : opred_eqb (lc_pred c1) PEq = false).
  { destruct (opred_eqb (lc_pred c1) PEq) eqn:E; [|reflexivity]. apply opred_eq in E. tauto. }
  destruct (implies_lb c1 k) eqn:I3.
  - destruct (bound_unit s t x (r / k) c1) as [b1| |] eqn:Eb; cbn [bind] in H; try discriminate H.
    destruct (Hun b1 eq_refl) as [-> Hx].
    destruct (add_lower_bound s t (bd_of B x) _) as [w1 h1] eqn:E1. okinv H. destruct (SET w1 h1) as (S1 & S2 & S3).
    pose proof (vext_alb _ _ _ _ _ _ E1) as X.
    assert (N1 : vb_neq w1 = vb_neq (bd_of B x)) by (rewrite <- (lb_neq s t (bd_of B x) (newb s t c1 x (r / k) [])), E1; reflexivity).
    constructor; rewrite ?S1; auto.
    + eauto.
    + intros up e He. destruct (ve_in _ _ _ _ _ _ X up e He) as [Y|[_ Y]]; [auto|subst]; auto.
    + intros e He. rewrite N1 in He. auto.
    + apply (ve_keep _ _ _ _ _ _ X).
    + now apply nkeep_eq.
    + rewrite S3. destruct h1; [auto|]. right. split; auto. intros v P. apply permitted_iff in P. apply permitted_iff. destruct P as [P1 P2].
      split; [|intros e He; apply P2; congruence]. intros up e He O. apply P1; auto. revert He.
      unfold add_lower_bound, lower_bound in E1. destruct (match hd_error _ with None => _ | Some _ => _ end); [discriminate|].
      injection E1 as <-. destruct up; cbn; auto. apply drop_in.
    + intros v b' P Eb'. assert (b' = b) by congruence; subst b'. fold c1. pose proof (alb_above _ _ _ _ _ _ v E1 LV P) as A1.
      unfold above in A1. rewrite ST in A1. cbn [newb b_val] in A1. specialize (VAL v).
      unfold implies_lb in I3. rewrite Op in I3. unfold lc_strict, strict_of in A1. unfold lc_holds.
      destruct (lneg (lc_lit c1)), (lc_pred c1); cbn in I3, A1; rewrite ?andb_true_r, ?andb_false_r, ?orb_false_r in I3; cbn in I3; try congruence;
        apply qltb_lt in I3; destruct (sgn_mul k (v - r / k)) as [M1 M2];
        first [specialize (M1 I3); destruct M1 as (M1 & M3 & M4 & M5)|specialize (M2 I3); destruct M2 as (M2 & M3 & M4 & M5)];
        set (M := (k * (v - r / k))%Q) in *; clearbody M; set (q := (r / k)%Q) in *; clearbody q; cbn [rel]; try (match goal with |- ~ _ => intros X0 end);
        first [assert (Z : (0 < v - q)%Q) by lra|assert (Z : (0 <= v - q)%Q) by lra];
        first [specialize (M1 Z)|specialize (M2 Z)|specialize (M3 Z)]; lra.
  - destruct (implies_ub c1 k) eqn:I4; cbn [assertb bind] in H; [|discriminate H].
    destruct (bound_unit s t x (r / k) c1) as [b1| |] eqn:Eb; cbn [bind] in H; try discriminate H.
    destruct (Hun b1 eq_refl) as [-> Hx].
    destruct (add_upper_bound s t (bd_of B x) _) as [w1 h1] eqn:E1. okinv H. destruct (SET w1 h1) as (S1 & S2 & S3).
    pose proof (vext_aub _ _ _ _ _ _ E1) as X.
    assert (N1 : vb_neq w1 = vb_neq (bd_of B x)) by (rewrite <- (ub_neq s t (bd_of B x) (newb s t c1 x (r / k) [])), E1; reflexivity).
    constructor; rewrite ?S1; auto.
    + eauto.
    + intros up e He. destruct (ve_in _ _ _ _ _ _ X up e He) as [Y|[_ Y]]; [auto|subst]; auto.
    + intros e He. rewrite N1 in He. auto.
    + apply (ve_keep _ _ _ _ _ _ X).
    + now apply nkeep_eq.
    + rewrite S3. destruct h1; [auto|]. right. split; auto. intros v P. apply permitted_iff in P. apply permitted_iff. destruct P as [P1 P2].
      split; [|intros e He; apply P2; congruence]. intros up e He O. apply P1; auto. revert He.
      unfold add_upper_bound, upper_bound in E1. destruct (match hd_error _ with None => _ | Some _ => _ end); [discriminate|].
      injection E1 as <-. destruct up; cbn; auto. apply drop_in.
    + intros v b' P Eb'. assert (b' = b) by congruence; subst b'. fold c1. pose proof (aub_below _ _ _ _ _ _ v E1 LV P) as A1.
      unfold below in A1. rewrite ST in A1. cbn [newb b_val] in A1. specialize (VAL v).
      unfold implies_ub in I4. rewrite Op in I4. unfold lc_strict, strict_of in A1. unfold lc_holds.
      destruct (lneg (lc_lit c1)), (lc_pred c1); cbn in I4, A1; rewrite ?andb_true_r, ?andb_false_r, ?orb_false_r in I4; cbn in I4; try congruence;
        apply qltb_lt in I4; destruct (sgn_mul k (v - r / k)) as [M1 M2];
        first [specialize (M1 I4); destruct M1 as (M1 & M3 & M4 & M5)|specialize (M2 I4); destruct M2 as (M2 & M3 & M4 & M5)];
        set (M := (k * (v - r / k))%Q) in *; clearbody M; set (q := (r / k)%Q) in *; clearbody q; cbn [rel]; try (match goal with |- ~ _ => intros X0 end);
        first [assert (Z : (v - q < 0)%Q) by lra|assert (Z : (v - q <= 0)%Q) by lra];
        first [specialize (M4 Z)|specialize (M5 Z)]; lra.
Qed.
