(** Recorded bounds follow from the constraints on the trail. *)
From Coq Require Import List Arith ZArith QArith Bool Lia Permutation Lqa.
From Verif Require Import Base Core_Model Sort_Proofs Trail_Model Lincons_Model Spec_Lincons Lincons_Proofs
  Lincons_Proofs2 Lra_Model Spec_Lra Lra_Fm Lra_Bounds Lra_Hist Lra_Steps.
Import ListNotations.
Open Scope nat_scope.
Arguments Qred : simpl never.
Arguments Qmult : simpl never.
Arguments Qplus : simpl never.
Arguments Qminus : simpl never.
Arguments Qopp : simpl never.
Arguments Qdiv : simpl never.

(** ** timestamps *)
Definition later {T} (m m' : model T) : Prop :=
  (mgts m <= mgts m')%Z /\
  forall i, mdef m' i = true ->
    (mdef m i = true /\ mval m' i = mval m i /\ mts m' i = mts m i) \/ (mgts m <= mts m' i)%Z.
Definition clocked {T} (m : model T) : Prop :=
  (0 <= mgts m)%Z /\ forall i, mdef m i = true -> (0 <= mts m i < mgts m)%Z.
(** fewer variables are assigned *)
Definition restr {T} (m m' : model T) : Prop :=
  mgts m' = mgts m /\
  forall i, mdef m' i = true -> mdef m i = true /\ mval m' i = mval m i /\ mts m' i = mts m i.

Lemma later_refl {T} (m : model T) : later m m.
Proof. split; [lia|]. auto. Qed.
Lemma restr_refl {T} (m : model T) : restr m m.
Proof. split; auto. Qed.
Lemma restr_trans {T} (a b c : model T) : restr a b -> restr b c -> restr a c.
Proof.
  intros [H1 H2] [H3 H4]. split; [congruence|]. intros i Hi. destruct (H4 i Hi) as (A & B & C).
  destruct (H2 i A) as (A' & B' & C'). repeat split; congruence.
Qed.
Lemma restr_later {T} (m m' : model T) : restr m m' -> later m m'.
Proof. intros [H1 H2]. split; [lia|]. intros i Hi. left. auto. Qed.
Lemma restr_clocked {T} (m m' : model T) : restr m m' -> clocked m -> clocked m'.
Proof.
  intros [H1 H2] [H3 H4]. split; [lia|]. intros i Hi. destruct (H2 i Hi) as (A & B & C).
  rewrite C, H1. now apply H4.
Qed.
Lemma set_later {T} (m : model T) i x : later m (set_value m i x).
Proof.
  split; cbn; [lia|]. intros j. unfold upd. destruct (j =? i); [right; lia|left; auto].
Qed.
Lemma set_clocked {T} (m : model T) i x : clocked m -> clocked (set_value m i x).
Proof.
  intros [H1 H2]. split; cbn; [lia|]. intros j. unfold upd. destruct (j =? i); [lia|].
  intros Hj. specialize (H2 j Hj). lia.
Qed.
Lemma clear_restr {T} (m : model T) i : restr m (model_clear m i).
Proof. split; cbn; [reflexivity|]. intros j. unfold upd. destruct (j =? i); [discriminate|auto]. Qed.
Lemma clear_all_restr {T} (m : model T) : restr m (model_clear_all m).
Proof. split; cbn; [reflexivity|]. intros i Hi. discriminate Hi. Qed.
Lemma resize_restr {T} (m : model T) x0 n : restr m (model_resize x0 m n).
Proof.
  split; cbn [model_resize mgts mdef mval mts]; [reflexivity|]. intros j.
  destruct (j <? Nat.min n (mnum m)); [auto|discriminate].
Qed.

Lemma backtrack_restr t k t' : trail_backtrack t k = Ok t' ->
  restr (t_bm t) (t_bm t') /\ restr (t_qm t) (t_qm t').
Proof.
  unfold trail_backtrack. destruct (_ <=? _); [|discriminate]. intros H. inversion H; subst. clear H.
  assert (U : forall es t0, let t1 := fold_left (unassign k) es t0 in
    restr (t_bm t0) (t_bm t1) /\ restr (t_qm t0) (t_qm t1)).
  { induction es as [|e es IH]; intros t0; cbn; [split; apply restr_refl|].
    destruct (IH (unassign k t0 e)) as [A B].
    assert (G : restr (t_bm t0) (t_bm (unassign k t0 e)) /\ restr (t_qm t0) (t_qm (unassign k t0 e))).
    { unfold unassign. destruct e as [v r]. cbn [fst]. destruct (t_lvl t0 v) as [j|]; [|split; apply restr_refl].
      destruct (k <? j); [|split; apply restr_refl].
      destruct v; cbn; split; try apply restr_refl; apply clear_restr. }
    destruct G. split; eapply restr_trans; eauto. }
  generalize (dl t - k). intros n. revert t. induction n as [|n IH]; intros t; cbn [backtrack_loop]; [split; apply restr_refl|].
  destruct (IH (pop_level (fold_left (unassign k) (recent t) t))) as [A B].
  destruct (U (recent t) t) as [A1 B1]. cbn zeta in *. split; eapply restr_trans; eauto.
Qed.

(** ** steps of the trail *)
Record tlater (t t' : trail) : Prop := {
  tl_b : later (t_bm t) (t_bm t');
  tl_q : later (t_qm t) (t_qm t') }.
Definition tclock (t : trail) : Prop := clocked (t_bm t) /\ clocked (t_qm t).
Lemma tlater_refl t : tlater t t.
Proof. constructor; apply later_refl. Qed.
Lemma foreign_later t o t' : foreign t o -> t_step t o = Ok t' -> tclock t ->
  tlater t t' /\ tclock t' /\ restr (t_qm t) (t_qm t').
Proof.
  intros F H [C1 C2]. destruct o as [[i|x] q|[i|x] r k q|k| |]; cbn [foreign] in F; try contradiction; cbn [t_step put] in H.
  - inversion H; subst. split; [|split; [split|]]; [constructor| | |]; cbn; auto using set_later, later_refl, set_clocked, restr_refl.
  - unfold trail_propagate in H. destruct (_ <=? _); [|discriminate]. inversion H; subst.
    split; [|split; [split|]]; [constructor| | |]; cbn; auto using set_later, later_refl, set_clocked, restr_refl.
  - destruct (backtrack_restr _ _ _ H) as [A B].
    split; [|split; [split|]]; [constructor| | |]; eauto using restr_later, restr_clocked.
  - inversion H; subst.
    split; [|split; [split|]]; [constructor| | |]; cbn; eauto using restr_later, restr_clocked, clear_all_restr.
Qed.
Lemma sem_later t i r k v t' : t_step t (TPropagate (VBool i) r k v) = Ok t' -> tclock t ->
  tlater t t' /\ tclock t' /\ restr (t_qm t) (t_qm t').
Proof.
  intros H [C1 C2]. cbn [t_step put] in H. unfold trail_propagate in H. destruct (_ <=? _); [|discriminate]. inversion H; subst.
  split; [|split; [split|]]; [constructor| | |]; cbn; auto using set_later, later_refl, set_clocked, restr_refl.
Qed.
Lemma more_later t nb nq : tclock t ->
  tlater t (trail_resize t nb nq) /\ tclock (trail_resize t nb nq) /\ restr (t_qm t) (t_qm (trail_resize t nb nq)).
Proof.
  intros [C1 C2]. split; [|split; [split|]]; [constructor| | |]; cbn [t_bm t_qm trail_resize];
    eauto using restr_later, restr_clocked, resize_restr.
Qed.
Lemma decide_later t x q : tclock t ->
  let t' := trail_decide (with_qm t (set_value (t_qm t) x q)) (VRat x) in tlater t t' /\ tclock t'.
Proof.
  intros [C1 C2]. split; [constructor|split]; cbn; auto using set_later, later_refl, set_clocked.
Qed.

(** ** bounds *)
Definition b_ct (b : bound) : Z := match b with Bnd _ _ _ _ k _ => k end.
Definition b_vt (b : bound) : Z := match b with Bnd _ _ _ _ _ k => k end.
(** variables whose value is used *)
Definition other (b : bound) (y : nat) : bool :=
  negb (y =? b_var b) && negb (existsb (fun d => b_var d =? y) (b_deps b)).
Definition node_obs (s : store) (t : trail) (b : bound) : bool :=
  negb (is_true (eval_lit (t_bm t) (lc_lit (b_cons b))))
  || (b_ct b <? mts (t_bm t) (lord (lc_lit (b_cons b))))%Z
  || existsb (fun y => other b y && (negb (mdef (t_qm t) y) || (b_vt b <? mts (t_qm t) y)%Z))
             (lc_vars s (b_cons b)).
Lemma obsolete_eq s t b : is_obsolete s t b = node_obs s t b || existsb (is_obsolete s t) (b_deps b).
Proof. destruct b; reflexivity. Qed.
(** the values used by the bound *)
Definition pt (qm : model Q) (b : bound) (y : nat) : Q :=
  if y =? b_var b then b_val b
  else match find (fun d => b_var d =? y) (b_deps b) with Some d => b_val d | None => mval qm y end.

Notation bterms s b := (lc_terms s (b_cons b)).
Record nodev (s : store) (t : trail) (b : bound) : Prop := {
  nv_stored : stored s (b_cons b);
  nv_in : In (b_var b) (map fst (bterms s b));
  nv_nd : NoDup (map b_var (b_deps b));
  nv_deps : forall d, In d (b_deps b) -> b_var d <> b_var b /\ In (b_var d) (map fst (bterms s b));
  nv_ct : (b_ct b < mgts (t_bm t))%Z;
  nv_vt : forall y, In y (map fst (bterms s b)) -> other b y = true -> (b_vt b < mgts (t_qm t))%Z;
  nv_val : node_obs s t b = false -> (lin (pt (t_qm t) b) (bterms s b) == lc_rhs (b_cons b))%Q }.

(** the constraint is used as [... <= rhs] (true) or as [... >= rhs] (false) *)
Definition sg (s : store) (up : bool) (b : bound) : bool :=
  Bool.eqb up (qltb 0 (cf (b_var b) (bterms s b))).
Definition depdir (s : store) (up : bool) (b d : bound) : bool :=
  if sg s up b then qltb (cf (b_var d) (bterms s b)) 0 else qltb 0 (cf (b_var d) (bterms s b)).
Definition dirok (s : store) (up : bool) (b : bound) : Prop :=
  match lc_pred (b_cons b) with
  | PEq => lneg (lc_lit (b_cons b)) = false
  | _ => sg s up b = negb (lneg (lc_lit (b_cons b)))
  end.
Inductive bgood (s : store) (t : trail) : bool -> bound -> Prop :=
| BG up b : nodev s t b -> dirok s up b ->
    (forall d, In d (b_deps b) -> bgood s t (depdir s up b d) d) -> bgood s t up b.

(** ** preservation *)
Lemma cf_perm v a b : Permutation a b -> NoDup (map fst a) -> cf v a = cf v b.
Proof.
  intros P N. assert (N' : NoDup (map fst b)) by (eapply Permutation_NoDup; [apply Permutation_map, P|exact N]).
  destruct (in_dec Nat.eq_dec v (map fst a)) as [H|H].
  - apply in_map_iff in H. destruct H as ([w c] & E & H). cbn in E. subst w.
    rewrite (cf_in v c a), (cf_in v c b); auto. eapply Permutation_in; eauto.
  - rewrite !cf_notin; auto. intros A. apply H. eapply Permutation_in; [symmetry; apply Permutation_map, P|exact A].
Qed.
Lemma existsb_perm {A} (f : A -> bool) a b : Permutation a b -> existsb f a = existsb f b.
Proof.
  induction 1; cbn; auto.
  - now rewrite IHPermutation.
  - destruct (f x), (f y); reflexivity.
  - congruence.
Qed.
Section Pres.
Variables (s s' : store) (t t' : trail).
Hypothesis HS : sinv s.
Hypothesis HS' : sinv s'.
Hypothesis HG : grows s s'.
Hypothesis HT : tlater t t'.

Lemma cf_pres v c : stored s c -> cf v (lc_terms s' c) = cf v (lc_terms s c).
Proof.
  intros Hc. symmetry. apply cf_perm; [now apply stored_terms|]. apply (nt_nodup _ (stored_norm s c HS Hc)).
Qed.
Lemma vars_pres c : stored s c -> Permutation (map fst (lc_terms s c)) (map fst (lc_terms s' c)).
Proof. intros Hc. apply Permutation_map. now apply stored_terms. Qed.
(** once a bound is obsolete it stays so *)
Lemma node_obs_mono b : nodev s t b -> node_obs s' t' b = false -> node_obs s t b = false.
Proof.
  intros N. unfold node_obs. rewrite !orb_false_iff. intros [[A B] C].
  pose proof (nv_stored s t b N) as Hc. pose proof (nv_ct s t b N) as Hct.
  apply negb_false_iff in A. unfold eval_lit in *. 
  destruct (mdef (t_bm t') (lord (lc_lit (b_cons b)))) eqn:D; [|discriminate].
  apply Z.ltb_ge in B. destruct HT as [[_ LB] [_ LQ]]. destruct (LB _ D) as [(D0 & V0 & T0)|X]; [|lia].
  rewrite V0 in A. rewrite T0 in B. rewrite D0. rewrite A. cbn. split; [split; [reflexivity|now apply Z.ltb_ge]|].
  rewrite lc_vars_terms in * by auto.
  rewrite (existsb_perm _ _ _ (vars_pres _ Hc)).
  assert (VT := nv_vt s t b N).
  assert (C' : forall y, In y (map fst (lc_terms s' (b_cons b))) -> other b y = true ->
    mdef (t_qm t) y = true /\ (mts (t_qm t) y <= b_vt b)%Z).
  { intros y Hy Ho. assert (E : other b y && (negb (mdef (t_qm t') y) || (b_vt b <? mts (t_qm t') y)%Z) = false).
    { destruct (other b y && _) eqn:E; auto. rewrite <- not_true_iff_false in C. exfalso. apply C.
      apply existsb_exists. exists y. auto. }
    rewrite Ho in E. cbn in E. apply orb_false_iff in E. destruct E as [E1 E2]. apply negb_false_iff in E1. apply Z.ltb_ge in E2.
    specialize (VT y ltac:(eapply Permutation_in; [symmetry; apply vars_pres; exact Hc|exact Hy]) Ho).
    destruct (LQ y E1) as [(D1 & V1 & T1)|X]; [|lia]. split; [exact D1|lia]. }
  apply not_true_iff_false. intros X. apply existsb_exists in X. destruct X as (y & Hy & X).
  apply andb_true_iff in X. destruct X as [Ho X]. destruct (C' y Hy Ho) as [D1 T1].
  rewrite D1 in X. cbn in X. apply Z.ltb_lt in X. lia.
Qed.
Lemma other_kept b y : nodev s t b -> node_obs s' t' b = false -> In y (map fst (lc_terms s (b_cons b))) ->
  other b y = true -> mval (t_qm t') y = mval (t_qm t) y /\ mdef (t_qm t') y = true.
Proof.
  intros N O Hy Ho. unfold node_obs in O. rewrite !orb_false_iff in O. destruct O as [_ C].
  pose proof (nv_stored s t b N) as Hc. assert (VT := nv_vt s t b N y Hy Ho).
  rewrite lc_vars_terms in C by auto.
  assert (E : other b y && (negb (mdef (t_qm t') y) || (b_vt b <? mts (t_qm t') y)%Z) = false).
  { destruct (other b y && _) eqn:E; auto. rewrite <- not_true_iff_false in C. exfalso. apply C.
    apply existsb_exists. exists y. split; auto. eapply Permutation_in; [apply vars_pres; exact Hc|exact Hy]. }
  rewrite Ho in E. cbn in E. apply orb_false_iff in E. destruct E as [E1 E2]. apply negb_false_iff in E1. apply Z.ltb_ge in E2.
  destruct HT as [_ [_ LQ]]. destruct (LQ y E1) as [(D1 & V1 & T1)|X]; [auto|lia].
Qed.
Lemma lin_ext_in r r' ts : (forall v c, In (v, c) ts -> (r v == r' v)%Q) -> (lin r ts == lin r' ts)%Q.
Proof.
  induction ts as [|[v c] ts IH]; cbn [lin]; intros H; [reflexivity|].
  rewrite IH by (intros; eapply H; right; eauto). rewrite (H v c) by (left; auto). reflexivity.
Qed.
Lemma nodev_pres b : nodev s t b -> nodev s' t' b.
Proof.
  intros N. assert (OM := node_obs_mono b N). assert (OK := fun y => other_kept b y N).
  destruct N as [N1 N2 N3 N4 N5 N6 N7]. pose proof (vars_pres _ N1) as P.
  constructor; auto.
  - eapply stored_grows; eauto.
  - eapply Permutation_in; eauto.
  - intros d Hd. destruct (N4 d Hd) as [A B]. split; [exact A|]. eapply Permutation_in; eauto.
  - destruct HT as [[L _] _]. lia.
  - intros y Hy Ho. specialize (N6 y ltac:(eapply Permutation_in; [symmetry; exact P|exact Hy]) Ho).
    destruct HT as [_ [L _]]. lia.
  - intros O. specialize (N7 (OM O)). rewrite <- N7.
    rewrite <- (lin_perm (pt (t_qm t') b) _ _ (stored_terms s s' _ HG N1)).
    apply lin_ext_in. intros y k Hy. unfold pt.
    destruct (y =? b_var b) eqn:E1; [reflexivity|].
    destruct (find _ _) eqn:E2; [reflexivity|].
    destruct (OK y O) as [E _].
    + change y with (fst (y, k)). now apply in_map.
    + unfold other. rewrite E1. cbn. apply negb_true_iff, not_true_iff_false. intros X. apply existsb_exists in X.
      destruct X as (d & Hd & X). apply (find_none _ _ E2) in Hd. congruence.
    + rewrite E. reflexivity.
Qed.
Lemma sg_pres up b : stored s (b_cons b) -> sg s' up b = sg s up b.
Proof. intros H. unfold sg. now rewrite cf_pres. Qed.
Lemma depdir_pres up b d : stored s (b_cons b) -> depdir s' up b d = depdir s up b d.
Proof. intros H. unfold depdir. now rewrite sg_pres, !cf_pres. Qed.
Lemma dirok_pres up b : stored s (b_cons b) -> dirok s up b -> dirok s' up b.
Proof. intros H. unfold dirok. now rewrite sg_pres. Qed.
Lemma bgood_pres up b : bgood s t up b -> bgood s' t' up b.
Proof.
  induction 1 as [up b N D Hd IH]. constructor.
  - now apply nodev_pres.
  - apply dirok_pres; auto. apply (nv_stored _ _ _ N).
  - intros d Hi. rewrite depdir_pres by apply (nv_stored _ _ _ N). auto.
Qed.
Lemma obs_mono up b : bgood s t up b -> is_obsolete s' t' b = false -> is_obsolete s t b = false.
Proof.
  induction 1 as [up b N D Hd IH]. rewrite !obsolete_eq, !orb_false_iff. intros [A B]. split.
  - now apply node_obs_mono.
  - apply not_true_iff_false. intros X. apply existsb_exists in X. destruct X as (d & Hi & X).
    assert (is_obsolete s' t' d = false).
    { destruct (is_obsolete s' t' d) eqn:E; auto. rewrite <- not_true_iff_false in B. exfalso. apply B.
      apply existsb_exists. eauto. }
    specialize (IH d Hi H). congruence.
Qed.
End Pres.

(** ** one deduction step *)
Definition dirholds (up : bool) (b : bound) (v : Q) : Prop := if up then below b v else above b v.

Lemma cf_sum x ts : NoDup (map fst ts) -> (coef_sum x ts == cf x ts)%Q.
Proof.
  intros N. destruct (in_dec Nat.eq_dec x (map fst ts)) as [H|H].
  - apply in_map_iff in H. destruct H as ([w c] & E & H). cbn in E. subst w.
    rewrite (coef_sum_in x ts c N H), (cf_in x c ts N H). reflexivity.
  - rewrite coef_sum_notin, cf_notin by auto. reflexivity.
Qed.
Lemma lin_diff (r p : nat -> Q) (e : Q) x ts :
  (forall y k, In (y, k) ts -> y <> x -> (0 <= e * k * (r y - p y))%Q) ->
  (e * coef_sum x ts * (r x - p x) <= e * (lin r ts - lin p ts))%Q /\
  ((exists y k, In (y, k) ts /\ y <> x /\ (0 < e * k * (r y - p y))%Q) ->
   (e * coef_sum x ts * (r x - p x) < e * (lin r ts - lin p ts))%Q).
Proof.
  unfold coef_sum. induction ts as [|[y k] ts IH]; cbn [lin]; intros H.
  - split; [lra|]. intros (y & k & [] & _).
  - destruct IH as [A B]; [intros; apply H; auto; now right|].
    destruct (Nat.eqb_spec y x) as [->|N].
    + split; [lra|]. intros (z & j & [Hz|Hz] & Hn & Hp); [inversion Hz; subst; tauto|].
      specialize (B ltac:(eauto)). lra.
    + specialize (H y k (or_introl eq_refl) N). split; [lra|].
      intros (z & j & [Hz|Hz] & Hn & Hp).
      * inversion Hz; subst. lra.
      * specialize (B ltac:(eauto)). lra.
Qed.

Lemma find_dep (ds : list bound) d : NoDup (map b_var ds) -> In d ds ->
  find (fun e => b_var e =? b_var d) ds = Some d.
Proof.
  induction ds as [|e ds IH]; cbn; intros N H; [tauto|]. inversion N as [|? ? N1 N2]; subst.
  destruct H as [->|H]; [now rewrite Nat.eqb_refl|].
  destruct (Nat.eqb_spec (b_var e) (b_var d)) as [E|E]; [|auto].
  exfalso. apply N1. rewrite E. now apply in_map.
Qed.
Lemma dirholds_strict up d v : dirholds up d v -> (if up then v <= b_val d else b_val d <= v)%Q /\
  (b_strict d = true -> (if up then v < b_val d else b_val d < v)%Q).
Proof.
  unfold dirholds, below, above. destruct up, (b_strict d); intros H; split; intros; try discriminate; lra.
Qed.

Lemma follows s t up b r : sinv s -> nodev s t b -> dirok s up b -> node_obs s t b = false ->
  (forall y, mdef (t_qm t) y = true -> (r y == mval (t_qm t) y)%Q) ->
  lc_holds s r (b_cons b) ->
  (forall d, In d (b_deps b) -> dirholds (depdir s up b d) d (r (b_var d))) ->
  dirholds up b (r (b_var b)).
Proof.
  intros HS N D O HA HC HD. pose proof (nv_val _ _ _ N O) as HV.
  pose proof (stored_norm s _ HS (nv_stored _ _ _ N)) as NT. pose proof (nt_nodup _ NT) as ND.
  set (e := if sg s up b then 1%Q else (-1)%Q).
  set (x := b_var b) in *. set (ts := bterms s b) in *. set (p := pt (t_qm t) b) in *.
  assert (PX : p x = b_val b) by (unfold p, pt; fold x; now rewrite Nat.eqb_refl).
  assert (PD : forall d, In d (b_deps b) -> p (b_var d) = b_val d).
  { intros d Hd. unfold p, pt. destruct (nv_deps _ _ _ N d Hd) as [Hn _].
    rewrite (proj2 (Nat.eqb_neq _ _) Hn). rewrite find_dep; auto. apply (nv_nd _ _ _ N). }
  assert (PO : forall y, In y (map fst ts) -> other b y = true -> (p y == r y)%Q).
  { intros y Hy Ho. unfold p, pt. pose proof Ho as Ho'. unfold other in Ho'. apply andb_true_iff in Ho'. destruct Ho' as [H1 H2].
    apply negb_true_iff in H1, H2. rewrite H1.
    destruct (find _ _) as [d|] eqn:Ef.
    { apply find_some in Ef. exfalso. rewrite <- not_true_iff_false in H2. apply H2. apply existsb_exists. eauto. }
    symmetry. apply HA. unfold node_obs in O. rewrite !orb_false_iff in O. destruct O as [_ O].
    rewrite lc_vars_terms in O by auto. fold ts in O.
    destruct (mdef (t_qm t) y) eqn:Em; auto. rewrite <- not_true_iff_false in O. exfalso. apply O. apply existsb_exists.
    exists y. rewrite Ho, Em. auto. }
  assert (KD : forall y k, In (y, k) ts -> y <> x -> (0 <= e * k * (r y - p y))%Q /\
     (forall d, In d (b_deps b) -> b_var d = y -> b_strict d = true -> (0 < e * k * (r y - p y))%Q)).
  { intros y k Hy Hn. destruct (existsb (fun d => b_var d =? y) (b_deps b)) eqn:Ee.
    - apply existsb_exists in Ee. destruct Ee as (d & Hd & Ed). apply Nat.eqb_eq in Ed.
      assert (KN : ~ (k == 0)%Q) by apply (nt_nz _ NT (y, k) Hy).
      assert (G : (0 <= e * k * (r y - p y))%Q /\ (b_strict d = true -> (0 < e * k * (r y - p y))%Q)).
      { subst y. rewrite (PD d Hd). specialize (HD d Hd). apply dirholds_strict in HD.
        unfold depdir in HD. fold ts in HD. rewrite (cf_in (b_var d) k ts ND Hy) in HD. unfold e.
        destruct (sg s up b).
        - destruct (qltb k 0) eqn:Ek; [apply qltb_lt in Ek|apply qltb_ge in Ek]; destruct HD as [D1 D2];
            (split; [|intros Hs; specialize (D2 Hs)]); nra.
        - destruct (qltb 0 k) eqn:Ek; [apply qltb_lt in Ek|apply qltb_ge in Ek]; destruct HD as [D1 D2];
            (split; [|intros Hs; specialize (D2 Hs)]); nra. }
      split; [apply G|]. intros d' Hd' Ed' Hs. apply G.
      assert (d' = d); [|subst; auto].
      assert (F1 := find_dep _ d (nv_nd _ _ _ N) Hd). assert (F2 := find_dep _ d' (nv_nd _ _ _ N) Hd').
      rewrite Ed in F1. rewrite Ed' in F2. congruence.
    - assert (Hy' : In y (map fst ts)) by (change y with (fst (y, k)); now apply in_map).
      assert (Ho : other b y = true). { unfold other. rewrite Ee. fold x. rewrite (proj2 (Nat.eqb_neq _ _) Hn). reflexivity. }
      specialize (PO y Hy' Ho). split; [rewrite PO; lra|].
      intros d Hd Ed. exfalso. rewrite <- not_true_iff_false in Ee. apply Ee. apply existsb_exists. exists d. rewrite Ed, Nat.eqb_refl. auto. }
  destruct (lin_diff r p e x ts) as [L1 L2]; [intros; now apply KD|].
  rewrite cf_sum in L1, L2 by auto. rewrite PX in L1, L2.
  set (a := cf x ts) in *.
  assert (AN : ~ (a == 0)%Q).
  { pose proof (nv_in _ _ _ N) as HI. fold x ts in HI. apply in_map_iff in HI. destruct HI as ([w c] & E & HI). cbn in E. subst w.
    unfold a. rewrite (cf_in x c ts ND HI). apply (nt_nz _ NT (x, c) HI). }
  assert (SG : if up then (0 < e * a)%Q else (e * a < 0)%Q).
  { unfold e, sg. fold x ts a. destruct (qltb 0 a) eqn:Ea; [apply qltb_lt in Ea|apply qltb_ge in Ea]; destruct up; cbn [Bool.eqb]; lra. }
  assert (CH : (e * (lin r ts - lin p ts) <= 0)%Q /\ (lc_strict (b_cons b) = true -> (e * (lin r ts - lin p ts) < 0)%Q)).
  { rewrite HV. unfold lc_holds in HC. fold ts in HC. unfold lc_strict, strict_of. unfold dirok in D. unfold e.
    destruct (lc_pred (b_cons b)) eqn:Ep; [rewrite D in HC|..]; try rewrite D; try rewrite D in *; cbn [rel opred_eqb] in HC |- *;
      destruct (lneg (lc_lit (b_cons b))); cbn [negb andb orb] in *; try discriminate;
      try (destruct (sg s up b)); split; intros; try discriminate; try lra. }
  assert (V : (e * a * (r x - b_val b) <= 0)%Q /\ (b_strict b = true -> (e * a * (r x - b_val b) < 0)%Q)).
  { split; [lra|]. unfold b_strict. intros Hs. apply orb_true_iff in Hs. destruct Hs as [Hs|Hs].
    - destruct CH as [_ CH]. specialize (CH Hs). lra.
    - apply existsb_exists in Hs. destruct Hs as (d & Hd & Hs). destruct CH as [CH _].
      destruct (nv_deps _ _ _ N d Hd) as [Hn Hi]. apply in_map_iff in Hi. destruct Hi as ([w k] & E & Hi). cbn in E. subst w.
      assert (L3 : (e * a * (r x - b_val b) < e * (lin r ts - lin p ts))%Q); [|lra].
      apply L2. exists (b_var d), k. split; [exact Hi|]. split; [exact Hn|].
      destruct (KD (b_var d) k Hi Hn) as [_ K]. apply (K d Hd eq_refl). unfold b_strict. rewrite Hs. reflexivity. }
  destruct V as [V1 V2]. unfold dirholds, below, above.
  destruct up, (b_strict b); try specialize (V2 eq_refl); clearbody e a; nra.
Qed.
