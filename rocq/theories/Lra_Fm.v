(** Fourier-Motzkin elimination: normalisation and resolution of two constraints. *)
From Coq Require Import List Arith ZArith QArith Bool Permutation Sorted Lia Lqa.
From Verif Require Import Base Core_Model Sort_Proofs Lincons_Model Spec_Lincons Lincons_Proofs
     Lra_Model Spec_Lra.
Import ListNotations.
Open Scope nat_scope.
Arguments Qred : simpl never.
Arguments Qmult : simpl never.
Arguments Qplus : simpl never.
Arguments Qminus : simpl never.
Arguments Qopp : simpl never.
Arguments Qdiv : simpl never.

Lemma lin_map r k ts : (lin r (map (fun u => (fst u, (snd u * k)%Q)) ts) == k * lin r ts)%Q.
Proof. induction ts as [|[v c] ts IH]; cbn [lin map fst snd]; [lra|]. rewrite IH. lra. Qed.
Lemma lin_opp r ts : (lin r (map (fun u => (fst u, (- snd u)%Q)) ts) == - lin r ts)%Q.
Proof. induction ts as [|[v c] ts IH]; cbn [lin map fst snd]; [lra|]. rewrite IH. lra. Qed.

Lemma lin_merge r ts : forall cur, (lin r (merge_terms cur ts) == snd cur * r (fst cur) + lin r ts)%Q.
Proof.
  induction ts as [|[v c] ts IH]; intros [w d]; cbn [merge_terms lin fst snd].
  - destruct (Qeq_bool d 0) eqn:E; cbn [lin]; [apply Qeq_bool_iff in E; rewrite E; lra|lra].
  - destruct (Nat.eqb_spec w v) as [->|N].
    + rewrite IH. cbn [fst snd]. lra.
    + rewrite lin_app, IH. cbn [fst snd].
      destruct (Qeq_bool d 0) eqn:E; cbn [lin]; [apply Qeq_bool_iff in E; rewrite E; lra|lra].
Qed.

Definition key_le (a b : nat * Q) : Prop := fst a <= fst b.
Lemma merge_in ts : forall cur u, In u (merge_terms cur ts) ->
  (fst u = fst cur \/ In (fst u) (map fst ts)) /\ ~ (snd u == 0)%Q.
Proof.
  induction ts as [|[v c] ts IH]; intros [w d] u; cbn [merge_terms fst snd map].
  - destruct (Qeq_bool d 0) eqn:E; intros H; [destruct H|].
    destruct H as [<-|[]]. cbn [fst snd]. split; [auto|].
    intros A. apply Qeq_bool_iff in A. congruence.
  - destruct (Nat.eqb_spec w v) as [->|N].
    + intros H. apply IH in H. cbn [fst snd] in H. destruct H as [[H|H] H0]; simpl; auto.
    + rewrite in_app_iff. intros [H|H].
      * destruct (Qeq_bool d 0) eqn:E; [destruct H|].
        destruct H as [<-|[]]. cbn [fst snd]. split; [auto|].
        intros A. apply Qeq_bool_iff in A. congruence.
      * apply IH in H. cbn [fst snd] in H. destruct H as [[H|H] H0]; simpl; auto.
Qed.
Lemma merge_nodup ts : forall cur, StronglySorted key_le (cur :: ts) ->
  NoDup (map fst (merge_terms cur ts)).
Proof.
  induction ts as [|[v c] ts IH]; intros [w d] HS; cbn [merge_terms fst snd map].
  - destruct (Qeq_bool d 0); simpl; repeat constructor; simpl; tauto.
  - inversion HS as [|? ? HS' HF]; subst.
    destruct (Nat.eqb_spec w v) as [->|N].
    + apply IH. constructor; [inversion HS'; auto|].
      inversion HF; subst. auto.
    + rewrite map_app. specialize (IH (v, c) HS').
      destruct (Qeq_bool d 0); cbn [map app]; [exact IH|].
      constructor; [|exact IH].
      rewrite in_map_iff. intros (u & E & Hu). apply merge_in in Hu. destruct Hu as [Hu _].
      cbn [fst] in *.
      assert (A : w < v) by (inversion HF as [|? ? A]; subst; unfold key_le in A; simpl in A; lia).
      destruct Hu as [Hu|Hu]; [lia|].
      inversion HS' as [|? ? _ HF']; subst. rewrite in_map_iff in Hu. destruct Hu as (u' & E' & Hu').
      rewrite Forall_forall in HF'. specialize (HF' _ Hu'). unfold key_le in HF'. simpl in HF'. lia.
Qed.

Lemma key_sorted ts : StronglySorted key_le (sort_by (fun a b : nat * Q => fst a <? fst b) ts).
Proof.
  apply sort_sorted.
  - intros a b c. unfold key_le. lia.
  - intros a b H. apply Nat.ltb_lt in H. unfold key_le. lia.
  - intros a b H. apply Nat.ltb_ge in H. unfold key_le. lia.
Qed.
Lemma lin_normalize r ts : (lin r (fm_normalize ts) == lin r ts)%Q.
Proof.
  unfold fm_normalize. rewrite (lin_perm r ts _ (sort_perm (fun a b => fst a <? fst b) ts)).
  destruct (sort_by _ ts) as [|[v c] l]; [reflexivity|]. rewrite lin_merge. cbn [lin fst snd]. reflexivity.
Qed.
Lemma normalize_in ts u : In u (fm_normalize ts) -> In (fst u) (map fst ts) /\ ~ (snd u == 0)%Q.
Proof.
  unfold fm_normalize. intros H.
  assert (P := sort_perm (fun a b => fst a <? fst b) ts).
  destruct (sort_by _ ts) as [|a l]; [destruct H|].
  apply merge_in in H. destruct H as [H H0]. split; [|auto].
  apply Permutation_map with (f := fst) in P. eapply Permutation_in; [symmetry; exact P|].
  simpl. destruct H; auto.
Qed.
Lemma normalize_wf ts : NoDup (map fst (fm_normalize ts)) /\
  Forall (fun u => ~ snd u == 0)%Q (fm_normalize ts).
Proof.
  split.
  - unfold fm_normalize. assert (P := key_sorted ts).
    destruct (sort_by _ ts) as [|a l]; [constructor|]. apply merge_nodup. exact P.
  - apply Forall_forall. intros u H. apply normalize_in in H. tauto.
Qed.

(** the coefficient of a variable in a list of terms, repeated terms added up *)
Definition coef_sum (x : nat) (ts : list (nat * Q)) : Q := lin (fun y => if y =? x then 1 else 0)%Q ts.
Lemma coef_sum_notin x ts : ~ In x (map fst ts) -> (coef_sum x ts == 0)%Q.
Proof.
  unfold coef_sum. induction ts as [|[v c] ts IH]; cbn [lin map fst]; intros H; [reflexivity|].
  rewrite IH by (simpl in H; tauto). destruct (Nat.eqb_spec v x) as [->|N]; [simpl in H; tauto|lra].
Qed.
Lemma coef_sum_in x ts c : NoDup (map fst ts) -> In (x, c) ts -> (coef_sum x ts == c)%Q.
Proof.
  induction ts as [|[v d] ts IH]; intros HN H; [destruct H|]. destruct H as [H|H].
  - inversion H; subst. unfold coef_sum. cbn [lin]. rewrite Nat.eqb_refl.
    fold (coef_sum x ts). cbn [map fst] in HN. inversion HN; subst. rewrite coef_sum_notin by auto. lra.
  - cbn [map fst] in HN. inversion HN as [|? ? N0 N1]; subst. unfold coef_sum. cbn [lin].
    fold (coef_sum x ts). rewrite IH by auto.
    destruct (Nat.eqb_spec v x) as [->|N]; [|lra].
    exfalso. apply N0. apply in_map_iff. exists (x, c). auto.
Qed.
Lemma coef_sum_normalize x ts : (coef_sum x (fm_normalize ts) == coef_sum x ts)%Q.
Proof. apply lin_normalize. Qed.
Lemma normalize_elim x ts : (coef_sum x ts == 0)%Q -> ~ In x (map fst (fm_normalize ts)).
Proof.
  intros H A. rewrite in_map_iff in A. destruct A as ([y c] & E & A). simpl in E. subst y.
  destruct (normalize_wf ts) as [W0 W1].
  assert (B := coef_sum_in x _ c W0 A). rewrite coef_sum_normalize, H in B.
  rewrite Forall_forall in W1. specialize (W1 _ A). simpl in W1. apply W1. symmetry. exact B.
Qed.
Lemma coef_at_none_iff v ts : ~ In v (map fst ts) -> coef_at v ts = None.
Proof.
  induction ts as [|[w c] ts IH]; simpl; auto. intros H.
  destruct (Nat.eqb_spec w v) as [->|N]; [tauto|]. apply IH. tauto.
Qed.

(** value of a polynomial after changing one variable *)
Lemma lin_upd_coef r x v ts : (lin (upd r x v) ts == lin r ts + coef_sum x ts * (v - r x))%Q.
Proof.
  unfold coef_sum. induction ts as [|[y c] ts IH]; cbn [lin]; [lra|].
  rewrite IH. unfold upd. destruct (Nat.eqb_spec y x) as [->|N]; lra.
Qed.

Definition flipped (f g : fm) (a b : Q) : bool := qltb (- a / b)%Q 0 && negb (opred_eqb (fm_pred g) PEq).
Definition multiplier (f g : fm) (a b : Q) : Q :=
  if flipped f g a b then (- (- a / b))%Q else (- a / b)%Q.

Lemma resolve_inv f g x h : fm_resolve f g x = Ok h ->
  exists a b, coef_at x (fm_terms f) = Some a /\ coef_at x (fm_terms g) = Some b /\
    coef_at x (fm_terms h) = None /\
    fm_pred h = fm_combine (fm_pred f) (fm_pred g) /\
    NoDup (map fst (fm_terms h)) /\ Forall (fun u => ~ snd u == 0)%Q (fm_terms h) /\
    (forall u, In u (fm_terms h) -> In (fst u) (map fst (fm_terms f)) \/ In (fst u) (map fst (fm_terms g))) /\
    (forall y, (coef_sum y (fm_terms h) ==
       (if flipped f g a b then - coef_sum y (fm_terms f) else coef_sum y (fm_terms f)) +
       multiplier f g a b * coef_sum y (fm_terms g))%Q) /\
    (forall r, (lin r (fm_terms h) + fm_const h ==
       (if flipped f g a b then - (lin r (fm_terms f) + fm_const f) else lin r (fm_terms f) + fm_const f) +
       multiplier f g a b * (lin r (fm_terms g) + fm_const g))%Q).
Proof.
  unfold fm_resolve. intros H.
  destruct (fm_terms f) as [|f0 fr] eqn:Ef; [discriminate|]. rewrite <- Ef in *.
  destruct (fm_terms g) as [|g0 gr] eqn:Eg; [discriminate|]. rewrite <- Eg in *.
  cbn [assertb bind negb] in H.
  destruct (coef_at x (fm_terms f)) as [a|] eqn:Ea; [|discriminate]. cbn [value_of bind] in H.
  destruct (coef_at x (fm_terms g)) as [b|] eqn:Eb; [|discriminate]. cbn [value_of bind] in H.
  exists a, b. fold (flipped f g a b) in H. fold (multiplier f g a b) in H.
  remember (multiplier f g a b) as m eqn:Em.
  remember (flipped f g a b) as fl eqn:Efl.
  match type of H with context [fm_normalize ?l] => set (ts := l) in H end.
  destruct (coef_at x (fm_normalize ts)) eqn:Ex; [discriminate|]. cbn [assertb bind] in H.
  assert (h = {| fm_terms := fm_normalize ts;
                 fm_const := ((if fl then - fm_const f else fm_const f) + fm_const g * m)%Q;
                 fm_pred := fm_combine (fm_pred f) (fm_pred g) |}) by congruence. subst h.
  cbn [fm_terms fm_const fm_pred].
  split; [reflexivity|]. split; [reflexivity|]. split; [exact Ex|]. split; [reflexivity|].
  destruct (normalize_wf ts) as [W0 W1]. split; [exact W0|]. split; [exact W1|].
  split; [|split].
  - intros u Hu. apply normalize_in in Hu. destruct Hu as [Hu _]. unfold ts in Hu.
    rewrite map_app, in_app_iff, map_map in Hu. cbn [fst] in Hu. destruct Hu as [Hu|Hu]; [left|right; exact Hu].
    destruct fl; [|exact Hu]. rewrite map_map in Hu. exact Hu.
  - intros y. unfold coef_sum. rewrite lin_normalize. unfold ts. rewrite lin_app, lin_map.
    destruct fl; [rewrite lin_opp|]; lra.
  - intros r. rewrite lin_normalize. unfold ts. rewrite lin_app, lin_map.
    destruct fl; [rewrite lin_opp|]; lra.
Qed.

(** the two constraints bound the variable from opposite sides, or one is an equality *)
Lemma resolve_sound f g x h r : fm_resolve f g x = Ok h -> fm_wf f -> fm_wf g -> resolvable f g x ->
  fm_holds r f -> fm_holds r g -> fm_holds r h.
Proof.
  intros HR [Wf Zf] [Wg Zg] HO Hf Hg.
  destruct (resolve_inv _ _ _ _ HR) as (a & b & Ea & Eb & _ & Ep & _ & _ & _ & _ & EL).
  apply coef_at_in in Ea, Eb.
  assert (Za : ~ (a == 0)%Q) by (rewrite Forall_forall in Zf; apply (Zf _ Ea)).
  assert (Zb : ~ (b == 0)%Q) by (rewrite Forall_forall in Zg; apply (Zg _ Eb)).
  unfold fm_holds in *. rewrite (rel_morph _ _ _ 0 0 (EL r) (Qeq_refl 0)). rewrite Ep.
  remember (lin r (fm_terms f) + fm_const f)%Q as F. remember (lin r (fm_terms g) + fm_const g)%Q as G.
  unfold multiplier.
  destruct (flipped f g a b) eqn:Efl.
  - unfold flipped in Efl. apply andb_true_iff in Efl. destruct Efl as [E1 E2].
    apply qltb_lt in E1. apply negb_true_iff in E2.
    assert (Pg : fm_pred g <> PEq) by (intros A; apply opred_eqb_eq in A; congruence).
    assert (Pf : fm_pred f = PEq).
    { destruct HO as [A|[A|A]]; [exact A|congruence|]. specialize (A _ _ Ea Eb).
      exfalso. assert (0 < - a / b)%Q; [|lra].
      setoid_replace (- a / b)%Q with ((- (a * b)) * (/ b * / b))%Q by (field; auto).
      assert (0 < / b * / b)%Q.
      { destruct (Qlt_le_dec 0 b) as [L|L].
        - apply Qinv_lt_0_compat in L. nra.
        - assert (L' : (0 < - b)%Q) by lra. apply Qinv_lt_0_compat in L'.
          assert (/ b == - / - b)%Q by (field; auto). nra. }
      nra. }
    rewrite Pf in *. cbn [rel] in Hf.
    set (k := (- (- a / b))%Q). assert (0 < k)%Q by (unfold k; lra). clearbody k.
    destruct (fm_pred g); cbn [rel fm_combine opred_eqb negb andb] in *; try congruence; nra.
  - unfold flipped in Efl. set (k := (- a / b)%Q) in *. apply andb_false_iff in Efl.
    assert (K : fm_pred g = PEq \/ (0 < k)%Q).
    { destruct Efl as [E|E].
      - right. apply qltb_ge in E. assert (~ (k == 0)%Q); [|lra].
        unfold k. intros A. apply Za. assert (- a == (- a / b) * b)%Q by (field; auto).
        rewrite A in H. lra.
      - left. apply negb_false_iff in E. apply opred_eqb_eq in E. exact E. }
    clearbody k.
    destruct (fm_pred f), (fm_pred g); cbn [rel fm_combine opred_eqb negb andb] in *;
      destruct K as [K|K]; try discriminate K; try nra;
      try (rewrite Hg; nra).
Qed.

Lemma resolve_total f g x : fm_wf f -> fm_wf g ->
  In x (map fst (fm_terms f)) -> In x (map fst (fm_terms g)) -> exists h, fm_resolve f g x = Ok h.
Proof.
  intros [Wf Zf] [Wg Zg] Hf Hg. unfold fm_resolve.
  destruct (fm_terms f) as [|f0 fr] eqn:Ef; [destruct Hf|]. rewrite <- Ef in *.
  destruct (fm_terms g) as [|g0 gr] eqn:Eg; [destruct Hg|]. rewrite <- Eg in *.
  cbn [assertb bind negb].
  destruct (coef_at x (fm_terms f)) as [a|] eqn:Ea; [|exfalso; eapply coef_at_none; eauto].
  destruct (coef_at x (fm_terms g)) as [b|] eqn:Eb; [|exfalso; eapply coef_at_none; eauto].
  cbn [value_of bind]. fold (flipped f g a b). fold (multiplier f g a b).
  apply coef_at_in in Ea, Eb.
  assert (Zb : ~ (b == 0)%Q) by (rewrite Forall_forall in Zg; apply (Zg _ Eb)).
  match goal with |- context [fm_normalize ?l] => set (ts := l) end.
  assert (HC : (coef_sum x ts == 0)%Q).
  { unfold ts, coef_sum. rewrite lin_app, lin_map.
    assert (Cf := coef_sum_in x _ _ Wf Ea). assert (Cg := coef_sum_in x _ _ Wg Eb).
    unfold coef_sum in Cf, Cg. rewrite Cg. unfold multiplier.
    destruct (flipped f g a b); [rewrite lin_opp|]; rewrite Cf; field; auto. }
  rewrite (coef_at_none_iff x _ (normalize_elim x ts HC)). cbn [assertb bind]. eexists. reflexivity.
Qed.

Lemma resolve_complete f g x h r : fm_resolve f g x = Ok h -> fm_wf f -> fm_wf g -> resolvable f g x ->
  fm_holds r h -> exists v, fm_holds (upd r x v) f /\ fm_holds (upd r x v) g.
Proof.
  intros HR [Wf Zf] [Wg Zg] HO Hh.
  destruct (resolve_inv _ _ _ _ HR) as (a & b & Ea & Eb & _ & Ep & _ & _ & _ & _ & EL).
  apply coef_at_in in Ea, Eb.
  assert (Za : ~ (a == 0)%Q) by (rewrite Forall_forall in Zf; apply (Zf _ Ea)).
  assert (Zb : ~ (b == 0)%Q) by (rewrite Forall_forall in Zg; apply (Zg _ Eb)).
  assert (Cf := coef_sum_in x _ _ Wf Ea). assert (Cg := coef_sum_in x _ _ Wg Eb).
  unfold fm_holds in Hh. rewrite (rel_morph _ _ _ 0 0 (EL r) (Qeq_refl 0)), Ep in Hh.
  assert (UF : forall v, (lin (upd r x v) (fm_terms f) + fm_const f ==
                 lin r (fm_terms f) + fm_const f + a * (v - r x))%Q)
    by (intros v; rewrite lin_upd_coef, Cf; lra).
  assert (UG : forall v, (lin (upd r x v) (fm_terms g) + fm_const g ==
                 lin r (fm_terms g) + fm_const g + b * (v - r x))%Q)
    by (intros v; rewrite lin_upd_coef, Cg; lra).
  assert (K : exists v, rel (fm_pred f) (lin r (fm_terms f) + fm_const f + a * (v - r x))%Q 0%Q /\
                        rel (fm_pred g) (lin r (fm_terms g) + fm_const g + b * (v - r x))%Q 0%Q).
  2:{ destruct K as (v & K1 & K2). exists v. unfold fm_holds. split.
      - now rewrite (rel_morph _ _ _ 0 0 (UF v) (Qeq_refl 0)).
      - now rewrite (rel_morph _ _ _ 0 0 (UG v) (Qeq_refl 0)). }
  clear UF UG Cf Cg EL HR.
  remember (lin r (fm_terms f) + fm_const f)%Q as F. remember (lin r (fm_terms g) + fm_const g)%Q as G.
  (* any value of f can be reached *)
  assert (FV : forall y, exists v, (F + a * (v - r x) == y)%Q /\
             (G + b * (v - r x) == G + b / a * (y - F))%Q).
  { intros y. exists (r x + (y - F) / a)%Q. split; field; auto. }
  assert (GV : exists v, (G + b * (v - r x) == 0)%Q /\ (F + a * (v - r x) == F + (- a / b) * G)%Q).
  { exists (r x - G / b)%Q. split; field; auto. }
  destruct (opred_eqb (fm_pred g) PEq) eqn:Pg.
  - (* g is an equality *)
    unfold multiplier, flipped in Hh. rewrite Pg in Hh. cbn [negb] in Hh. rewrite andb_false_r in Hh.
    apply opred_eqb_eq in Pg. rewrite Pg in *. destruct GV as (v & V1 & V2). exists v. split.
    + rewrite (rel_morph _ _ _ 0 0 V2 (Qeq_refl 0)).
      destruct (fm_pred f); cbn [fm_combine opred_eqb negb andb rel] in *; exact Hh.
    + cbn [rel]. exact V1.
  - unfold multiplier, flipped in Hh. rewrite Pg in Hh. cbn [negb] in Hh. rewrite andb_true_r in Hh.
    set (k := (- a / b)%Q) in *.
    assert (Bk : (b / a == - / k)%Q) by (unfold k; field; auto).
    assert (Kz : ~ (k == 0)%Q).
    { unfold k. intros A. apply Za. assert (- a == (- a / b) * b)%Q by (field; auto). rewrite A in H. lra. }
    assert (Kp : forall y, (k * (G + b / a * (y - F)) == k * G + F - y)%Q).
    { intros y. rewrite Bk. field. auto. }
    destruct (opred_eqb (fm_pred f) PEq) eqn:Pf.
    + apply opred_eqb_eq in Pf. rewrite Pf in *. destruct (FV 0%Q) as (v & V1 & V2). exists v.
      split; [exact V1|]. rewrite (rel_morph _ _ _ 0 0 V2 (Qeq_refl 0)). specialize (Kp 0%Q).
      remember (G + b / a * (0 - F))%Q as G'. clear HeqG' V1 V2 FV GV Bk.
      destruct (qltb k 0) eqn:Kn.
      * apply qltb_lt in Kn.
        destruct (fm_pred g); cbn [fm_combine opred_eqb negb andb rel] in *; try discriminate; nra.
      * apply qltb_ge in Kn.
        destruct (fm_pred g); cbn [fm_combine opred_eqb negb andb rel] in *; try discriminate; nra.
    + assert (OP : (a * b < 0)%Q).
      { destruct HO as [A|[A|A]]; [apply opred_eqb_eq in A; congruence|apply opred_eqb_eq in A; congruence|].
        apply A; auto. }
      assert (Kpos : (0 < k)%Q).
      { destruct (Qlt_le_dec 0 k) as [L|L]; [exact L|exfalso].
        assert (- a == k * b)%Q by (unfold k; field; auto). nra. }
      assert (Kn : qltb k 0 = false) by (apply qltb_ge; lra). rewrite Kn in Hh.
      destruct (opred_eqb (fm_pred f) PLeq && opred_eqb (fm_pred g) PLeq) eqn:LL.
      * apply andb_true_iff in LL. destruct LL as [L1 L2]. apply opred_eqb_eq in L1, L2.
        rewrite L1, L2 in *. cbn [fm_combine opred_eqb negb andb rel] in *.
        destruct (FV 0%Q) as (v & V1 & V2). exists v. specialize (Kp 0%Q).
        split; [lra|]. rewrite V2. nra.
      * assert (Hlt : (F + k * G < 0)%Q).
        { destruct (fm_pred f), (fm_pred g); cbn [fm_combine opred_eqb negb andb rel] in *; try discriminate; exact Hh. }
        destruct (FV ((F + k * G) / 2)%Q) as (v & V1 & V2). exists v. specialize (Kp ((F + k * G) / 2)%Q).
        assert (E2 : ((F + k * G) / 2 < 0)%Q).
        { setoid_replace ((F + k * G) / 2)%Q with ((F + k * G) * (1 # 2))%Q by (field; auto). lra. }
        assert (E3 : (k * G + F - (F + k * G) / 2 == (F + k * G) / 2)%Q) by (field; auto).
        rewrite E3 in Kp.
        assert (G2 : (G + b * (v - r x) < 0)%Q) by (rewrite V2; nra).
        assert (F2 : (F + a * (v - r x) < 0)%Q) by (rewrite V1; lra).
        clear - F2 G2 Pf Pg.
        split; [destruct (fm_pred f)|destruct (fm_pred g)]; cbn [rel opred_eqb] in *; try discriminate; lra.
Qed.

Lemma resolve_exact f g x : fm_wf f -> fm_wf g ->
  In x (map fst (fm_terms f)) -> In x (map fst (fm_terms g)) -> resolvable f g x ->
  exists h, fm_resolve f g x = Ok h /\ fm_wf h /\ ~ In x (map fst (fm_terms h)) /\
    forall r, fm_holds r h <-> exists v, fm_holds (upd r x v) f /\ fm_holds (upd r x v) g.
Proof.
  intros Wf Wg Hf Hg HO. destruct (resolve_total f g x Wf Wg Hf Hg) as (h & HR).
  exists h. split; [exact HR|].
  destruct (resolve_inv _ _ _ _ HR) as (a & b & Ea & Eb & Ex & Ep & W0 & W1 & _ & _ & EL).
  split; [split; assumption|]. split; [now apply coef_at_none|].
  intros r. split; [apply (resolve_complete f g x); auto|].
  intros (v & H1 & H2). assert (H := resolve_sound _ _ _ _ _ HR Wf Wg HO H1 H2).
  unfold fm_holds in *. apply coef_at_none in Ex. apply coef_sum_notin in Ex.
  assert (E : (lin (upd r x v) (fm_terms h) + fm_const h == lin r (fm_terms h) + fm_const h)%Q)
    by (rewrite lin_upd_coef, Ex; lra).
  now rewrite <- (rel_morph _ _ _ 0 0 E (Qeq_refl 0)).
Qed.

(** the initial constraint of an elimination means the literal of the linear constraint *)
Lemma init_with_inv s c p k f : fm_init_with s c p k = Ok f ->
  f = mkFm (map (fun u => (fst u, (snd u * k)%Q)) (lc_terms s c)) (- lc_rhs c * k)%Q p.
Proof. unfold fm_init_with. destruct (lc_empty c); simpl; congruence. Qed.

Lemma init_inv s c f : fm_init s c = Ok f ->
  (lc_pred c = PEq -> lneg (lc_lit c) = false) /\
  fm_pred f = (if lneg (lc_lit c) then match lc_pred c with PLeq => PLt | PLt => PLeq | PEq => PEq end
               else lc_pred c) /\
  (let k := (if lneg (lc_lit c) then -1 else 1)%Q in
   fm_terms f = map (fun u => (fst u, (snd u * k)%Q)) (lc_terms s c) /\
   fm_const f = (- lc_rhs c * k)%Q).
Proof.
  unfold fm_init. intros H.
  destruct (negb (opred_eqb (lc_pred c) PEq) || negb (lneg (lc_lit c))) eqn:E; [|discriminate].
  cbn [assertb bind] in H. apply init_with_inv in H. subst f. cbn [fm_pred fm_terms fm_const].
  assert (A : lc_pred c = PEq -> lneg (lc_lit c) = false).
  { intros A. rewrite A in E. simpl in E. now apply negb_true_iff in E. }
  split; [exact A|]. split; [reflexivity|].
  destruct (lneg (lc_lit c)); [|destruct (lc_pred c); split; reflexivity].
  destruct (lc_pred c) eqn:P; cbn [opred_eqb]; [specialize (A eq_refl); discriminate|split; reflexivity..].
Qed.

Lemma init_holds s c f r : fm_init s c = Ok f -> (fm_holds r f <-> lc_holds s r c).
Proof.
  intros H. destruct (init_inv _ _ _ H) as (A & P & T & C). unfold fm_holds, lc_holds.
  rewrite P, C.
  assert (L : (lin r (fm_terms f) == (if lneg (lc_lit c) then -1 else 1) * lin r (lc_terms s c))%Q)
    by (rewrite T; apply lin_map).
  destruct (lneg (lc_lit c)).
  - destruct (lc_pred c); cbn [rel]; [specialize (A eq_refl); discriminate| |]; lra.
  - destruct (lc_pred c); cbn [rel]; lra.
Qed.
