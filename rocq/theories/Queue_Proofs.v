From Coq Require Import List Arith ZArith QArith Bool Lia Permutation.
From Verif Require Import Base Core_Model Order_Model Queue_Model Spec_Queue.
Import ListNotations.
Open Scope nat_scope.

Lemma var_eqb_spec a b : reflect (a = b) (var_eqb a b).
Proof.
  destruct a as [x|x], b as [y|y]; simpl; try (constructor; congruence);
    destruct (Nat.eqb_spec x y); constructor; congruence.
Qed.
Lemma var_ltb_irr a : var_ltb a a = false.
Proof. destruct a; simpl; apply Nat.ltb_irrefl. Qed.
Lemma var_ltb_neg a b c : var_ltb a b = false -> var_ltb b c = false -> var_ltb a c = false.
Proof.
  destruct a, b, c; simpl; try discriminate; auto;
    repeat match goal with |- context [?x <? ?y] => destruct (Nat.ltb_spec x y) end; try discriminate; auto; lia.
Qed.
Lemma var_ltb_asym a b : var_ltb a b = true -> var_ltb b a = false.
Proof.
  destruct a, b; simpl; try discriminate; auto;
    repeat match goal with |- context [?x <? ?y] => destruct (Nat.ltb_spec x y) end; try discriminate; auto; lia.
Qed.
Lemma var_ltb_tot a b : a <> b -> var_ltb a b = false -> var_ltb b a = true.
Proof.
  destruct a, b; simpl; try discriminate; auto;
    repeat match goal with |- context [?x <? ?y] => destruct (Nat.ltb_spec x y) end; try discriminate; auto; intros;
    exfalso; match goal with N : _ <> _ |- _ => apply N end; f_equal; lia.
Qed.

Lemma parent_lt j : 0 < j -> parent j < j.
Proof.
  intros. unfold parent. rewrite (proj2 (Nat.ltb_lt 0 j)); auto. apply Nat.div_lt_upper_bound; lia.
Qed.
Lemma parent_iff j i : 0 < j -> (parent j = i <-> 4 * i + 1 <= j <= 4 * i + 4).
Proof.
  intros. unfold parent. rewrite (proj2 (Nat.ltb_lt 0 j)); auto.
  pose proof (Nat.div_mod (j - 1) 4). pose proof (Nat.mod_upper_bound (j - 1) 4).
  split; intros; [subst; lia|]. assert (4 * ((j-1)/4) + (j-1) mod 4 = j - 1) by lia. lia.
Qed.

Section P.
Context {F : Type}.
Variable fo : fops F.
Variable good : F -> Prop.
Hypothesis laws : score_laws fo good.
Notation bef := (node_before fo).
Notation queue := (@queue F).
Notation node := (var * F)%type.
Definition gn (n : node) : Prop := good (snd n).

Lemma bef_neg a b c : gn a -> gn b -> gn c -> bef a b = false -> bef b c = false -> bef a c = false.
Proof.
  destruct laws as [Hi Ha Hn He Hg]. unfold gn, node_before. intros Ga Gb Gc H1 H2.
  apply orb_false_iff in H1, H2. destruct H1 as [H1 H1'], H2 as [H2 H2'].
  rewrite (Hn _ (snd b) _ Ga Gb Gc H1 H2). simpl.
  destruct (f_eq fo (snd a) (snd c)) eqn:E; auto. simpl.
  rewrite He in E; auto. apply andb_true_iff in E. destruct E as [E1 E2]. apply negb_true_iff in E1, E2.
  assert (B1 : f_gt fo (snd b) (snd a) = false) by (apply (Hn _ (snd c)); auto).
  assert (B2 : f_gt fo (snd c) (snd b) = false) by (apply (Hn _ (snd a)); auto).
  rewrite He, H1, B1 in H1'; auto. rewrite He, H2, B2 in H2'; auto. simpl in *.
  eapply var_ltb_neg; eauto.
Qed.
Lemma bef_asym a b : gn a -> gn b -> bef a b = true -> bef b a = false.
Proof.
  destruct laws as [Hi Ha Hn He Hg]. unfold gn, node_before. intros Ga Gb H.
  apply orb_true_iff in H. destruct H as [H|H].
  - rewrite (Ha _ _ Ga Gb H). rewrite He; auto. rewrite H. simpl. now rewrite andb_false_r.
  - apply andb_true_iff in H. destruct H as [H1 H2]. rewrite He in H1; auto.
    apply andb_true_iff in H1. destruct H1 as [E1 E2]. apply negb_true_iff in E1, E2.
    rewrite E2. simpl. rewrite (var_ltb_asym _ _ H2). apply andb_false_r.
Qed.

(** * positions *)
Definition W1 (q : queue) : Prop :=
  forall i v s, nth_error (q_pq q) i = Some (v, s) -> pget q v = Some (Z.of_nat i).
Definition W2 (ex : var -> Prop) (q : queue) : Prop :=
  forall v, ~ ex v -> ~ In v (map fst (q_pq q)) -> pget q v = None \/ pget q v = Some missing.

Lemma W1_inj q i j v s s' : W1 q -> nth_error (q_pq q) i = Some (v, s) -> nth_error (q_pq q) j = Some (v, s') -> i = j.
Proof. intros H A B. apply H in A. apply H in B. apply Nat2Z.inj. congruence. Qed.
Lemma W1_nodup q : W1 q -> NoDup (map fst (q_pq q)).
Proof.
  intros H. apply NoDup_nth_error. intros i j Hi E. rewrite map_length in Hi.
  rewrite !nth_error_map in E.
  destruct (nth_error (q_pq q) i) as [[v s]|] eqn:A; [|apply nth_error_None in A; lia].
  destruct (nth_error (q_pq q) j) as [[w s']|] eqn:B; simpl in E; inversion E; subst.
  eapply W1_inj; eauto.
Qed.

Lemma pget_pset_eq (q : queue) v z z0 : pget q v = Some z0 -> pget (pset q v z) v = Some z.
Proof.
  destruct v; simpl; intros H; apply nth_error_set_nth_eq; apply nth_error_Some; congruence.
Qed.
Lemma pget_pset_neq (q : queue) v w z : v <> w -> pget (pset q v z) w = pget q w.
Proof.
  destruct v, w; simpl; intros; auto; apply nth_error_set_nth_neq; congruence.
Qed.
Lemma pq_pset (q : queue) v z : q_pq (pset q v z) = q_pq q.
Proof. destruct v; auto. Qed.
Lemma pget_with_pq (q : queue) l v : pget (with_pq q l) v = pget q v.
Proof. destruct v; auto. Qed.
Lemma pq_with_pq (q : queue) l : q_pq (with_pq q l) = l.
Proof. auto. Qed.

Definition swapl (l : list node) i j a b := set_nth j a (set_nth i b l).
Lemma nth_swapl l i j a b k : i < length l -> j < length l ->
  nth_error l i = Some a -> nth_error l j = Some b ->
  nth_error (swapl l i j a b) k = if k =? j then Some a else if k =? i then Some b else nth_error l k.
Proof.
  intros Hi Hj A B. unfold swapl. destruct (Nat.eqb_spec k j) as [->|Hk].
  - rewrite nth_error_set_nth_eq; auto. now rewrite set_nth_length.
  - rewrite nth_error_set_nth_neq; auto. destruct (Nat.eqb_spec k i) as [->|Hk2].
    + rewrite nth_error_set_nth_eq; auto.
    + rewrite nth_error_set_nth_neq; auto.
Qed.
Lemma swapl_length l i j a b : length (swapl l i j a b) = length l.
Proof. unfold swapl. now rewrite !set_nth_length. Qed.

Lemma perm_of_get (l l' : list node) : NoDup l -> NoDup l' -> (forall n, In n l <-> In n l') -> Permutation l l'.
Proof. intros. now apply NoDup_Permutation. Qed.

Lemma swap_spec q i j : W1 q -> i < length (q_pq q) -> j < length (q_pq q) ->
  exists q' a b, q_swap q i j = Ok q' /\ nth_error (q_pq q) i = Some a /\ nth_error (q_pq q) j = Some b /\
    q_pq q' = swapl (q_pq q) i j a b /\ W1 q' /\
    (forall v, ~ In v (map fst (q_pq q)) -> pget q' v = pget q v) /\
    Permutation (q_pq q') (q_pq q).
Proof.
  intros HW Hi Hj. unfold q_swap, at_.
  destruct (nth_error (q_pq q) i) as [a|] eqn:A; [|apply nth_error_None in A; lia].
  destruct (nth_error (q_pq q) j) as [b|] eqn:B; [|apply nth_error_None in B; lia].
  cbn [value_of bind]. rewrite pq_with_pq. fold (swapl (q_pq q) i j a b).
  rewrite !nth_swapl by auto.
  assert (Ga : pget q (fst a) = Some (Z.of_nat i)) by (destruct a; eapply HW; eauto).
  assert (Gb : pget q (fst b) = Some (Z.of_nat j)) by (destruct b; eapply HW; eauto).
  assert (E : (if i =? j then Some a else if i =? i then Some b else nth_error (q_pq q) i) = Some b).
  { destruct (Nat.eqb_spec i j); [subst; congruence|now rewrite Nat.eqb_refl]. }
  rewrite E, (Nat.eqb_refl j). cbn [value_of bind]. rewrite !pget_with_pq, Ga, Gb. cbn [value_of bind].
  set (q1 := with_pq q (swapl (q_pq q) i j a b)).
  eexists _, a, b. split; [reflexivity|]. split; [auto|]. split; [auto|]. rewrite !pq_pset.
  split; [reflexivity|].
  assert (X1 : forall v, v <> fst a -> v <> fst b -> pget (pset (pset q1 (fst b) (Z.of_nat i)) (fst a) (Z.of_nat j)) v = pget q v).
  { intros v N1 N2. rewrite !pget_pset_neq by congruence. apply pget_with_pq. }
  assert (Xa : pget (pset (pset q1 (fst b) (Z.of_nat i)) (fst a) (Z.of_nat j)) (fst a) = Some (Z.of_nat j)).
  { destruct (var_eqb_spec (fst b) (fst a)) as [Eq|Ne].
    - rewrite Eq. eapply pget_pset_eq. eapply (pget_pset_eq _ _ _ (Z.of_nat i)). unfold q1. now rewrite pget_with_pq.
    - eapply pget_pset_eq. rewrite pget_pset_neq by auto. unfold q1. rewrite pget_with_pq. eauto. }
  assert (Xb : pget (pset (pset q1 (fst b) (Z.of_nat i)) (fst a) (Z.of_nat j)) (fst b) = Some (Z.of_nat i)).
  { destruct (var_eqb_spec (fst b) (fst a)) as [Eq|Ne].
    - rewrite Eq at 2. rewrite Xa. f_equal. rewrite Eq in Gb. congruence.
    - rewrite pget_pset_neq by auto. eapply (pget_pset_eq _ _ _ (Z.of_nat j)). unfold q1. rewrite pget_with_pq. eauto. }
  assert (W : W1 (pset (pset q1 (fst b) (Z.of_nat i)) (fst a) (Z.of_nat j))).
  { intros k v s. rewrite !pq_pset. unfold q1. rewrite pq_with_pq, nth_swapl by auto. fold q1.
    destruct (Nat.eqb_spec k j) as [->|Nj].
    + intros H. inversion H; subst a. exact Xa.
    + destruct (Nat.eqb_spec k i) as [->|Ni].
      * intros H. inversion H; subst b. exact Xb.
      * intros H. rewrite X1.
        -- eapply HW; eauto.
        -- intros ->. destruct a as [va sa]. apply Ni. eapply (W1_inj q k i); eauto.
        -- intros ->. destruct b as [vb sb]. apply Nj. eapply (W1_inj q k j); eauto. }
  split; [exact W|]. split.
  - intros v Hv. apply X1; intros ->; apply Hv; apply in_map; eapply nth_error_In; eauto.
  - unfold q1. rewrite pq_with_pq. apply perm_of_get.
    + pose proof (NoDup_map_inv _ _ (W1_nodup _ W)) as ND. now rewrite !pq_pset in ND.
    + exact (NoDup_map_inv _ _ (W1_nodup q HW)).
    + intros n. split; intros H; apply In_nth_error in H; destruct H as [k H].
      * rewrite nth_swapl in H by auto. destruct (k =? j); [inversion H; subst; eapply nth_error_In; eauto|].
        destruct (k =? i); [inversion H; subst; eapply nth_error_In; eauto|]. eapply nth_error_In; eauto.
      * destruct (Nat.eqb_spec k i) as [->|Ni].
        -- apply (nth_error_In _ j). rewrite nth_swapl by auto. rewrite Nat.eqb_refl. congruence.
        -- destruct (Nat.eqb_spec k j) as [->|Nj].
           ++ apply (nth_error_In _ i). rewrite nth_swapl by auto. destruct (Nat.eqb_spec i j); [congruence|]. rewrite Nat.eqb_refl. congruence.
           ++ apply (nth_error_In _ k). rewrite nth_swapl by auto.
              destruct (Nat.eqb_spec k j); [congruence|]. destruct (Nat.eqb_spec k i); congruence.
Qed.

(** * heap order *)
Definition ok (l : list node) (j : nat) : Prop :=
  forall a b, nth_error l j = Some a -> nth_error l (parent j) = Some b -> bef a b = false.
Definition heap (l : list node) : Prop := forall j, 0 < j -> ok l j.
Definition heap_up (l : list node) (k : nat) : Prop :=
  (forall j, 0 < j -> j <> k -> ok l j) /\
  (0 < k -> forall c, 0 < c -> parent c = k -> forall a b,
     nth_error l c = Some a -> nth_error l (parent k) = Some b -> bef a b = false).
Definition GN (l : list node) : Prop := Forall gn l.

Lemma GN_nth l i a : GN l -> nth_error l i = Some a -> gn a.
Proof. intros H E. unfold GN in H. rewrite Forall_forall in H. apply H. eapply nth_error_In; eauto. Qed.
Lemma GN_perm l l' : Permutation l' l -> GN l -> GN l'.
Proof.
  unfold GN. rewrite !Forall_forall. intros P H x Hx. apply H. eapply Permutation_in; eauto.
Qed.
Lemma heap_heap_up l k : GN l -> heap l -> heap_up l k.
Proof.
  intros G H. split; [auto|]. intros Hk c Hc Pc a b A B.
  destruct (nth_error l k) as [x|] eqn:X.
  - apply (bef_neg a x b); try (eapply GN_nth; eauto; fail).
    + apply (H c Hc); auto. now rewrite Pc.
    + apply (H k Hk); auto.
  - exfalso. apply nth_error_None in X. assert (c < length l) by (apply nth_error_Some; congruence).
    pose proof (parent_lt c Hc). lia.
Qed.

Definition frame (q q' : queue) : Prop :=
  Permutation (q_pq q') (q_pq q) /\ (forall v, ~ In v (map fst (q_pq q)) -> pget q' v = pget q v).
Lemma frame_refl q : frame q q.
Proof. split; auto. Qed.
Lemma frame_trans q1 q2 q3 : frame q1 q2 -> frame q2 q3 -> frame q1 q3.
Proof.
  intros [P1 F1] [P2 F2]. split; [eapply perm_trans; eauto|]. intros v Hv.
  rewrite F2, F1; auto. intros H. apply Hv. eapply Permutation_in; [|exact H].
  now apply Permutation_map.
Qed.
Lemma frame_len q q' : frame q q' -> length (q_pq q') = length (q_pq q).
Proof. intros [P _]. now apply Permutation_length. Qed.

Lemma fix_up_spec : forall fuel q i, i < fuel -> i < length (q_pq q) ->
  W1 q -> GN (q_pq q) -> heap_up (q_pq q) i ->
  exists q', fix_up fo fuel q i = Ok q' /\ W1 q' /\ frame q q' /\ heap (q_pq q').
Proof.
  induction fuel as [|fuel IH]; intros q i Hf Hi HW HG HH; [lia|]. cbn [fix_up].
  destruct (Nat.eqb_spec i 0) as [->|Hi0].
  - exists q. split; auto. split; auto. split; [apply frame_refl|]. intros j Hj. apply HH; lia.
  - assert (Hp : parent i < i) by (apply parent_lt; lia). unfold at_.
    destruct (nth_error (q_pq q) i) as [a|] eqn:A; [|apply nth_error_None in A; lia].
    destruct (nth_error (q_pq q) (parent i)) as [b|] eqn:B; [|apply nth_error_None in B; lia].
    cbn [value_of bind]. assert (Ga : gn a) by (eapply GN_nth; eauto). assert (Gb : gn b) by (eapply GN_nth; eauto).
    destruct HH as [H1 H2]. destruct (bef a b) eqn:E.
    + destruct (swap_spec q i (parent i)) as (q1 & a' & b' & S1 & A' & B' & S2 & S3 & S4 & S5); auto; [lia|].
      rewrite A in A'. rewrite B in B'. inversion A'; inversion B'; subst a' b'. clear A' B'.
      rewrite S1. cbn [bind].
      assert (FR : frame q q1) by (split; auto).
      destruct (IH q1 (parent i)) as (q' & R1 & R2 & R3 & R4); auto; try lia.
      * rewrite (frame_len _ _ FR). lia.
      * eapply GN_perm; eauto.
      * rewrite S2. set (l := q_pq q) in *. set (p := parent i) in *.
        assert (NS : forall k, nth_error (swapl l i p a b) k = if k =? p then Some a else if k =? i then Some b else nth_error l k).
        { intros. apply nth_swapl; auto; lia. }
        split.
        -- intros j Hj Njp x y X Y. rewrite NS in X, Y.
           destruct (Nat.eqb_spec j p); [congruence|].
           destruct (Nat.eqb_spec j i) as [->|Nji].
           ++ fold p in Y. rewrite Nat.eqb_refl in Y. inversion X; inversion Y; subst. now apply bef_asym.
           ++ destruct (Nat.eqb_spec (parent j) p) as [Ep|Np].
              ** inversion Y; subst y. apply (bef_neg x b a); auto; [eapply GN_nth; eauto| |now apply bef_asym].
                 apply (H1 j); auto. now rewrite Ep.
              ** destruct (Nat.eqb_spec (parent j) i) as [Ei|Ni].
                 --- inversion Y; subst y. apply (H2 ltac:(lia) j); auto.
                 --- apply (H1 j); auto.
        -- intros Hp0 c Hc Pc x y X Y. rewrite NS in X, Y.
           assert (G1 : parent p < p) by (apply parent_lt; auto).
           destruct (Nat.eqb_spec (parent p) p); [lia|]. destruct (Nat.eqb_spec (parent p) i); [lia|].
           pose proof (parent_lt c Hc). destruct (Nat.eqb_spec c p); [lia|].
           destruct (Nat.eqb_spec c i).
           ++ inversion X; subst. apply (H1 p); auto; lia.
           ++ apply (bef_neg x b y); auto; try (eapply GN_nth; eauto; fail).
              ** apply (H1 c); auto. now rewrite Pc.
              ** apply (H1 p); auto; lia.
      * exists q'. split; [exact R1|]. split; auto. split; auto. eapply frame_trans; eauto.
    + cbn [bind]. apply (IH q (parent i)); auto; try lia.
      apply heap_heap_up; auto. intros j Hj. destruct (Nat.eq_dec j i) as [->|N]; [|apply H1; auto].
      intros x y X Y. congruence.
Qed.

Lemma max_child_spec l : GN l -> forall k best c, best < length l -> c + k <= length l ->
  exists m, max_child fo l best c k = Ok m /\ (m = best \/ c <= m < c + k) /\
    forall j, j = best \/ c <= j < c + k -> forall x y, nth_error l j = Some x -> nth_error l m = Some y -> bef x y = false.
Proof.
  intros G. assert (Irr : forall x, gn x -> bef x x = false).
  { intros x Gx. destruct (bef x x) eqn:E; auto. rewrite <- (bef_asym x x); auto. }
  induction k as [|k IH]; intros best c Hb Hc; cbn [max_child].
  - exists best. split; auto. split; auto. intros j [->|Hj] x y X Y; [|lia].
    rewrite X in Y. inversion Y; subst. apply Irr. eapply GN_nth; eauto.
  - unfold at_. destruct (nth_error l c) as [a|] eqn:A; [|apply nth_error_None in A; lia].
    destruct (nth_error l best) as [b|] eqn:B; [|apply nth_error_None in B; lia]. cbn [value_of bind].
    assert (Ga : gn a) by (eapply GN_nth; eauto). assert (Gb : gn b) by (eapply GN_nth; eauto).
    destruct (IH (if bef a b then c else best) (S c)) as (m & E & M1 & M2); [destruct (bef a b); lia|lia|].
    exists m. split; [exact E|]. split; [destruct (bef a b); lia|].
    intros j Hj x y X Y.
    assert (Gy : gn y) by (eapply GN_nth; eauto).
    destruct (bef a b) eqn:Eab.
    + assert (Hay : bef a y = false) by (apply (M2 c); auto).
      destruct Hj as [->|Hj].
      * rewrite X in B. inversion B; subst. apply (bef_neg b a y); auto. now apply bef_asym.
      * destruct (Nat.eq_dec j c); [subst; rewrite X in A; inversion A; subst; auto|]. apply (M2 j); auto; lia.
    + assert (Hby : bef b y = false) by (apply (M2 best); auto).
      destruct Hj as [->|Hj]; [rewrite X in B; inversion B; subst; auto|].
      destruct (Nat.eq_dec j c); [subst|apply (M2 j); auto; lia].
      rewrite X in A. inversion A; subst. apply (bef_neg a b y); auto.
Qed.

Definition heap_from (l : list node) (k : nat) : Prop := forall j, 0 < j -> k <= parent j -> ok l j.
Definition heap_dn (l : list node) (k i : nat) : Prop :=
  (forall j, 0 < j -> k <= parent j -> parent j <> i -> ok l j) /\
  (0 < i -> k <= parent i -> forall c, 0 < c -> parent c = i -> forall a b,
     nth_error l c = Some a -> nth_error l (parent i) = Some b -> bef a b = false).

Lemma fix_down_spec k : forall fuel q i, length (q_pq q) < fuel + i -> i < length (q_pq q) -> k <= i ->
  W1 q -> GN (q_pq q) -> heap_dn (q_pq q) k i ->
  exists q', fix_down fo fuel q i = Ok q' /\ W1 q' /\ frame q q' /\ heap_from (q_pq q') k.
Proof.
  induction fuel as [|fuel IH]; intros q i Hf Hi Hk HW HG HH; [lia|]. cbn [fix_down]. unfold children.
  set (l := q_pq q) in *. set (n := length l) in *.
  destruct (Nat.leb_spec (Nat.min (Nat.min (i*4+1) n + 4) n) (Nat.min (i*4+1) n)) as [Hle|Hlt].
  - exists q. split; auto. split; auto. split; [apply frame_refl|]. intros j Hj Kj.
    destruct (Nat.eq_dec (parent j) i) as [E|N]; [|apply HH; auto].
    apply parent_iff in E; auto. intros x y X Y. assert (j < n) by (apply nth_error_Some; fold l in X; congruence). lia.
  - assert (Eb : Nat.min (i*4+1) n = 4*i+1) by lia. rewrite Eb in *.
    set (e := Nat.min (4*i+1+4) n) in *.
    destruct (max_child_spec l HG (e - S (4*i+1)) (4*i+1) (S (4*i+1))) as (m & M0 & M1 & M2); [fold n; lia|fold n; lia|].
    rewrite M0. cbn [bind]. assert (Hm : 4*i+1 <= m < e) by lia.
    assert (Pm : parent m = i) by (apply parent_iff; lia).
    unfold at_. destruct (nth_error l m) as [x|] eqn:X; [|apply nth_error_None in X; fold n in X; lia].
    destruct (nth_error l i) as [y|] eqn:Y; [|apply nth_error_None in Y; fold n in Y; lia].
    cbn [value_of bind]. assert (Gx : gn x) by (eapply GN_nth; eauto). assert (Gy : gn y) by (eapply GN_nth; eauto).
    assert (Mx : forall j a, 0 < j -> parent j = i -> nth_error l j = Some a -> bef a x = false).
    { intros j a Hj Pj A. apply parent_iff in Pj; auto. assert (j < n) by (apply nth_error_Some; congruence).
      apply (M2 j) with (x := a); auto. lia. }
    destruct HH as [H1 H2]. destruct (bef x y) eqn:E.
    + destruct (swap_spec q m i) as (q1 & x' & y' & S1 & X' & Y' & S2 & S3 & S4 & S5); auto; [fold l; fold n; lia|].
      fold l in X', Y', S2, S4, S5. rewrite X in X'. rewrite Y in Y'. inversion X'; inversion Y'; subst x' y'. clear X' Y'.
      rewrite S1. cbn [bind]. assert (FR : frame q q1) by (split; auto).
      destruct (IH q1 m) as (q' & R1 & R2 & R3 & R4); auto.
      * rewrite (frame_len _ _ FR). fold l. fold n. lia.
      * rewrite (frame_len _ _ FR). fold l. fold n. lia.
      * lia.
      * eapply GN_perm; eauto.
      * rewrite S2.
        assert (NS : forall z, nth_error (swapl l m i x y) z = if z =? i then Some x else if z =? m then Some y else nth_error l z).
        { intros. apply nth_swapl; auto; fold n; lia. }
        split.
        -- intros j Hj Kj Njm a b A B. rewrite NS in A, B.
           destruct (Nat.eqb_spec (parent j) i) as [Ei|Ni].
           ++ pose proof (parent_lt j Hj). destruct (Nat.eqb_spec j i); [lia|]. inversion B; subst b.
              destruct (Nat.eqb_spec j m) as [->|Nj].
              ** inversion A; subst. now apply bef_asym.
              ** eapply Mx; eauto.
           ++ destruct (Nat.eqb_spec (parent j) m); [congruence|].
              destruct (Nat.eqb_spec j i) as [->|Nji].
              ** inversion A; subst. apply (H2 Hj Kj m); auto. lia.
              ** destruct (Nat.eqb_spec j m) as [->|Njm']; [congruence|]. apply (H1 j); auto.
        -- intros Hm0 Km c Hc Pc a b A B. rewrite NS in A, B. rewrite Pm, Nat.eqb_refl in B. inversion B; subst b.
           pose proof (parent_lt c Hc). destruct (Nat.eqb_spec c i); [lia|]. destruct (Nat.eqb_spec c m); [lia|].
           apply (H1 c); auto; try lia. now rewrite Pc.
      * exists q'. split; [exact R1|]. split; auto. split; auto. eapply frame_trans; eauto.
    + exists q. split; auto. split; auto. split; [apply frame_refl|]. intros j Hj Kj.
      destruct (Nat.eq_dec (parent j) i) as [Ei|N]; [|apply H1; auto].
      intros a b A B. fold l in A, B. rewrite Ei, Y in B. inversion B; subst b.
      apply (bef_neg a x y); auto; [eapply GN_nth; eauto|]. eapply Mx; eauto.
Qed.

(** * the invariant of a queue *)
Record qinv (q : queue) (M : contents) : Prop := mkQInv {
  qi_w1 : W1 q;
  qi_w2 : W2 (fun _ => False) q;
  qi_gn : GN (q_pq q);
  qi_heap : heap (q_pq q);
  qi_rep : forall v s, M v = Some s <-> In (v, s) (q_pq q) }.

Lemma heap_top l x : GN l -> heap l -> nth_error l 0 = Some x -> forall j y, nth_error l j = Some y -> bef y x = false.
Proof.
  intros G H X j. induction j as [j IH] using lt_wf_ind. intros y Y.
  destruct (Nat.eq_dec j 0) as [->|N].
  - rewrite X in Y. inversion Y; subst. assert (gn y) by (eapply GN_nth; eauto).
    destruct (bef y y) eqn:E; auto. rewrite <- (bef_asym y y); auto.
  - assert (P : parent j < j) by (apply parent_lt; lia).
    assert (j < length l) by (apply nth_error_Some; congruence).
    destruct (nth_error l (parent j)) as [z|] eqn:Z; [|apply nth_error_None in Z; lia].
    apply (bef_neg y z x); try (eapply GN_nth; eauto; fail).
    + apply (H j); auto. lia.
    + eapply IH; eauto.
Qed.

Lemma bef_false_best v s w r : good s -> good r -> w <> v -> bef (w, r) (v, s) = false ->
  f_gt fo s r = true \/ (f_gt fo s r = false /\ f_gt fo r s = false /\ var_ltb v w = true).
Proof.
  intros Gs Gr N H. unfold node_before in H. simpl in H. apply orb_false_iff in H. destruct H as [H1 H2].
  destruct (f_gt fo s r) eqn:E; auto. right. split; auto. split; auto.
  rewrite (sl_eq _ _ laws), H1, E in H2; auto. simpl in H2. now apply var_ltb_tot in H2.
Qed.

Lemma top_spec q M : qinv q M ->
  match q_pq q with
  | [] => forall v, M v = None
  | n :: _ => best fo M (fst n)
  end.
Proof.
  intros [A B C D E]. destruct (q_pq q) as [|[v s] l] eqn:Q.
  - intros v. destruct (M v) as [s|] eqn:X; auto. apply E in X. destruct X.
  - exists s. simpl. split; [apply E; left; auto|]. intros w r X N. apply E in X.
    apply In_nth_error in X. destruct X as [j X].
    apply bef_false_best; auto.
    + apply (GN_nth _ 0 (v, s) C). reflexivity.
    + apply (GN_nth _ _ _ C X).
    + apply (heap_top ((v, s) :: l) (v, s) C D eq_refl j). exact X.
Qed.

Lemma frame_rep q q' M : frame q q' -> (forall v s, M v = Some s <-> In (v, s) (q_pq q)) ->
  forall v s, M v = Some s <-> In (v, s) (q_pq q').
Proof.
  intros [P _] H v s. rewrite H. split; apply Permutation_in; auto. now apply Permutation_sym.
Qed.
Lemma frame_W2 ex q q' : frame q q' -> W2 ex q -> W2 ex q'.
Proof.
  intros [P Fr] H v Hex Hv.
  assert (N : ~ In v (map fst (q_pq q))).
  { intros X. apply Hv. eapply Permutation_in; [|exact X]. apply Permutation_map. now apply Permutation_sym. }
  rewrite Fr; auto.
Qed.

Lemma contains_spec q M v : qinv q M -> (q_contains q v = true <-> M v <> None).
Proof.
  intros [A B C D E]. unfold q_contains. destruct (M v) as [s|] eqn:X.
  - apply E in X. apply In_nth_error in X. destruct X as [i X]. rewrite (A _ _ _ X).
    split; [congruence|]. intros _. unfold missing. destruct (Z.eqb_spec (Z.of_nat i) (-1)); auto. lia.
  - split; [|congruence]. destruct (B v) as [G|G]; auto.
    + rewrite in_map_iff. intros ((w & s) & E1 & E2). simpl in E1. subst. apply E in E2. congruence.
    + rewrite G. discriminate.
    + rewrite G. discriminate.
Qed.

Lemma grow_nth l i j z : nth_error (grow_pos l i) j = Some z ->
  nth_error l j = Some z \/ (nth_error l j = None /\ z = missing).
Proof.
  unfold grow_pos. destruct (length l <=? i); auto. intros H.
  destruct (lt_dec j (length l)).
  - rewrite nth_error_app1 in H; auto.
  - right. split; [apply nth_error_None; lia|]. rewrite nth_error_app2 in H by lia.
    apply nth_error_In, repeat_spec in H. auto.
Qed.
Lemma grow_nth_old l i j z : nth_error l j = Some z -> nth_error (grow_pos l i) j = Some z.
Proof.
  unfold grow_pos. destruct (length l <=? i); auto. intros H. rewrite nth_error_app1; auto.
  apply nth_error_Some. congruence.
Qed.
Lemma grow_in l i : exists z, nth_error (grow_pos l i) i = Some z.
Proof.
  assert (H : nth_error (grow_pos l i) i <> None).
  { apply nth_error_Some. unfold grow_pos. destruct (Nat.leb_spec (length l) i); auto.
    rewrite app_length, repeat_length. lia. }
  destruct (nth_error (grow_pos l i) i); eauto. congruence.
Qed.
Lemma reserve_old (q : queue) v w z : pget q w = Some z -> pget (q_reserve q v) w = Some z.
Proof. destruct v, w; simpl; auto; apply grow_nth_old. Qed.
Lemma reserve_new (q : queue) v w z : pget (q_reserve q v) w = Some z -> pget q w = Some z \/ (pget q w = None /\ z = missing).
Proof. destruct v, w; simpl; auto; apply grow_nth. Qed.
Lemma reserve_in (q : queue) v : exists z, pget (q_reserve q v) v = Some z.
Proof. destruct v; simpl; apply grow_in. Qed.
Lemma reserve_pq (q : queue) v : q_pq (q_reserve q v) = q_pq q.
Proof. destruct v; auto. Qed.

Lemma push_inv q M v s M' : qinv q M -> M v = None -> good s ->
  (forall w, M' w = if var_eqb w v then Some s else M w) ->
  exists q', q_push fo q v s = Ok q' /\ qinv q' M'.
Proof.
  intros [A B C D E] HN Gs HM. unfold q_push.
  assert (Nv : ~ In v (map fst (q_pq q))).
  { rewrite in_map_iff. intros ((w & r) & E1 & E2). simpl in E1. subst. apply E in E2. congruence. }
  destruct (reserve_in q v) as [z Hz]. rewrite Hz. cbn [value_of bind].
  assert (z = missing).
  { apply reserve_new in Hz. destruct (B v) as [G|G]; auto; rewrite G in Hz; destruct Hz as [Hz|[Hz Hz']]; congruence. }
  subst z. rewrite Z.eqb_refl. cbn [assertb bind]. rewrite pq_pset, reserve_pq. set (n := length (q_pq q)).
  set (q2 := with_pq _ _).
  assert (Lq : q_pq q2 = q_pq q ++ [(v, s)]) by reflexivity.
  assert (P1 : pget q2 v = Some (Z.of_nat n)).
  { unfold q2. rewrite pget_with_pq. eapply pget_pset_eq; eauto. }
  assert (P2 : forall w, w <> v -> pget q2 w = pget (q_reserve q v) w).
  { intros w Hw. unfold q2. rewrite pget_with_pq, pget_pset_neq; auto. }
  destruct (fix_up_spec (S n) q2 n) as (q' & R1 & R2 & R3 & R4); auto.
  - rewrite Lq, app_length. simpl. fold n. lia.
  - intros i w r. rewrite Lq. intros X. destruct (lt_dec i n).
    + rewrite nth_error_app1 in X by auto. rewrite P2.
      * apply reserve_old. eapply A; eauto.
      * intros ->. apply Nv. apply in_map_iff. exists (v, r). split; auto. eapply nth_error_In; eauto.
    + rewrite nth_error_app2 in X by (fold n; lia). destruct (i - length (q_pq q)) eqn:Ei; simpl in X.
      * inversion X; subst. rewrite P1. do 2 f_equal. fold n in Ei. lia.
      * destruct n1; discriminate.
  - rewrite Lq. apply Forall_app. split; auto.
  - rewrite Lq. split.
    + intros j Hj Nj x y X Y. assert (j < n).
      { assert (j < length (q_pq q ++ [(v, s)])) by (apply nth_error_Some; congruence). rewrite app_length in H. simpl in H. fold n in H. lia. }
      pose proof (parent_lt j Hj). rewrite nth_error_app1 in X, Y by (fold n; lia). apply (D j); auto.
    + intros Hn c Hc Pc x y X Y. exfalso. pose proof (parent_lt c Hc).
      assert (H0 : c < length (q_pq q ++ [(v, s)])) by (apply nth_error_Some; congruence). rewrite app_length in H0. simpl in H0. fold n in H0. lia.
  - exists q'. split; [exact R1|]. split; auto.
    + apply (frame_W2 _ q2); auto. intros w _ Hw. rewrite Lq, map_app, in_app_iff in Hw. simpl in Hw.
      assert (w <> v) by (intros ->; apply Hw; auto). rewrite P2 by auto.
      destruct (pget (q_reserve q v) w) as [z|] eqn:Ez; auto. right.
      apply reserve_new in Ez. destruct (B w) as [G|G]; auto; rewrite G in Ez; destruct Ez as [Ez|[Ez ->]]; congruence.
    + eapply GN_perm; [apply R3|]. rewrite Lq. apply Forall_app. split; auto.
    + apply (frame_rep q2 q'); auto. intros w r. rewrite HM, Lq, in_app_iff. simpl.
      destruct (var_eqb_spec w v) as [->|N].
      * split; [intros X; inversion X; auto|]. intros [X|[X|[]]]; [|congruence].
        exfalso. apply Nv. apply in_map_iff. exists (v, r); auto.
      * rewrite E. split; auto. intros [X|[X|[]]]; auto. congruence.
Qed.

Lemma in_NoDup_fst (l : list node) v s s' : NoDup (map fst l) -> In (v, s) l -> In (v, s') l -> s = s'.
Proof.
  induction l as [|[w r] l IH]; simpl; [tauto|]. intros ND H1 H2. inversion ND; subst.
  destruct H1 as [H1|H1], H2 as [H2|H2].
  - congruence.
  - inversion H1; subst. exfalso. apply H3. apply in_map_iff. exists (v, s'); auto.
  - inversion H2; subst. exfalso. apply H3. apply in_map_iff. exists (v, s); auto.
  - auto.
Qed.

Lemma best_unique M v w : (forall u r, M u = Some r -> good r) -> best fo M v -> best fo M w -> v = w.
Proof.
  intros G (s & A & B) (r & C & D). destruct (var_eqb_spec v w); auto. exfalso.
  destruct (B w r C ltac:(congruence)) as [X|(X1 & X2 & X3)], (D v s A n) as [Y|(Y1 & Y2 & Y3)].
  - rewrite (sl_asym _ _ laws _ _ (G _ _ A) (G _ _ C) X) in Y. discriminate.
  - congruence.
  - congruence.
  - rewrite (var_ltb_asym _ _ X3) in Y3. discriminate.
Qed.

Lemma removelast_nth (l : list node) i : i < length l - 1 -> nth_error (removelast l) i = nth_error l i.
Proof.
  revert i. induction l as [|x l IH]; intros i H; simpl in *; [lia|].
  destruct l as [|y l]; [simpl in H; lia|]. destruct i; auto. simpl. apply IH. simpl in *. lia.
Qed.
Lemma removelast_len (l : list node) : length (removelast l) = length l - 1.
Proof. induction l as [|x [|y l] IH]; simpl in *; auto. rewrite IH. lia. Qed.

Lemma pop_inv q M v M' : qinv q M -> best fo M v ->
  (forall w, M' w = if var_eqb w v then None else M w) ->
  exists q', q_pop fo q = Ok q' /\ qinv q' M'.
Proof.
  intros HI Hb HM. pose proof (top_spec q M HI) as T. destruct HI as [A B C D E].
  unfold q_pop, q_top. destruct (q_pq q) as [|[v0 s0] l0] eqn:Q.
  { destruct Hb as (s & X & _). rewrite T in X. discriminate. }
  assert (v0 = v).
  { eapply best_unique; eauto. intros u r X. apply E in X. unfold GN in C. rewrite Forall_forall in C. apply (C _ X). }
  subst v0. cbn [bind fst].
  assert (HL : 0 < length (q_pq q)) by (rewrite Q; simpl; lia).
  destruct (swap_spec q 0 (length (q_pq q) - 1)) as (q1 & a & b & S1 & S2 & S3 & S4 & S5 & S6 & S7); auto; try lia.
  rewrite <- Q. rewrite S1. cbn [bind].
  assert (a = (v, s0)) by (rewrite Q in S2; simpl in S2; congruence). subst a.
  set (n := length (q_pq q)) in *. set (q2 := with_pq q1 _).
  assert (L1 : length (q_pq q1) = n) by (rewrite S4, swapl_length; auto).
  assert (L2 : q_pq q2 = removelast (q_pq q1)) by reflexivity.
  assert (N2 : forall i, i < n - 1 -> nth_error (q_pq q2) i = nth_error (q_pq q1) i).
  { intros i Hi. rewrite L2. apply removelast_nth. rewrite L1. lia. }
  assert (LL : length (q_pq q2) = n - 1) by (rewrite L2, removelast_len, L1; auto).
  assert (NQ : forall i, i < n - 1 -> nth_error (q_pq q2) i = if i =? 0 then Some b else nth_error (q_pq q) i).
  { intros i Hi. rewrite N2, S4, nth_swapl by (auto; fold n; lia). destruct (Nat.eqb_spec i (n-1)); [lia|auto]. }
  assert (PERM : Permutation (q_pq q) ((v, s0) :: q_pq q2)).
  { rewrite <- S7. destruct (exists_last (l := q_pq q1)) as (l1 & a & E1); [intros X; rewrite X in L1; simpl in L1; lia|].
    rewrite L2, E1, removelast_last.
    assert (a = (v, s0)).
    { assert (X : nth_error (q_pq q1) (n - 1) = Some (v, s0)) by (rewrite S4, nth_swapl, Nat.eqb_refl by (auto; fold n; lia); auto).
      rewrite E1, nth_error_app2 in X; rewrite E1, app_length in L1; simpl in L1; [|lia].
      replace (n - 1 - length l1) with 0 in X by lia. simpl in X. congruence. }
    subst a. apply Permutation_sym. apply Permutation_cons_append. }
  assert (W1q2 : W1 q2).
  { intros i w r X. unfold q2. rewrite pget_with_pq. apply (S5 i w r). rewrite <- N2; auto.
    rewrite <- LL. apply nth_error_Some. congruence. }
  assert (ND : NoDup (map fst ((v, s0) :: q_pq q2))).
  { eapply Permutation_NoDup; [apply Permutation_map; exact PERM|]. now apply W1_nodup. }
  assert (Nv : ~ In v (map fst (q_pq q2))) by (inversion ND; auto).
  assert (W2q2 : W2 (fun w => w = v) q2).
  { intros w Hw Hn. unfold q2. rewrite pget_with_pq. assert (~ In w (map fst (q_pq q))).
    { intros X. apply (Permutation_in (l' := map fst ((v, s0) :: q_pq q2))) in X; [|now apply Permutation_map].
      simpl in X. destruct X as [X|X]; auto. }
    rewrite S6; auto. }
  assert (G2 : GN (q_pq q2)).
  { assert (X : GN ((v, s0) :: q_pq q2)) by (eapply GN_perm; [apply Permutation_sym; exact PERM|rewrite Q; auto]).
    inversion X; auto. }
  assert (H3 : exists q3, (if q_empty q2 then Ok q2 else fix_down fo (S (length (q_pq q2))) q2 0) = Ok q3 /\
                W1 q3 /\ frame q2 q3 /\ heap (q_pq q3)).
  { unfold q_empty. destruct (q_pq q2) as [|x l] eqn:E2.
    - exists q2. split; auto. split; auto. split; [apply frame_refl|]. rewrite E2. intros j Hj x y X. destruct j; discriminate.
    - rewrite <- E2 in *. assert (length (q_pq q2) > 0) by (rewrite E2; simpl; lia).
      destruct (fix_down_spec 0 (S (length (q_pq q2))) q2 0) as (q3 & R1 & R2 & R3 & R4); auto; try lia.
      + split; [|lia]. intros j Hj _ Pj x' y' X Y. pose proof (parent_lt j Hj).
        assert (j < n - 1) by (rewrite <- LL; apply nth_error_Some; congruence).
        rewrite NQ in X, Y by lia. destruct (Nat.eqb_spec j 0); [lia|]. destruct (Nat.eqb_spec (parent j) 0); [lia|].
        rewrite Q in X, Y. apply (D j); auto.
      + exists q3. split; auto. split; auto. split; auto. intros j Hj. apply R4; auto; lia. }
  destruct H3 as (q3 & R1 & R2 & R3 & R4). rewrite R1. cbn [bind].
  assert (Pv : exists z, pget q3 v = Some z).
  { rewrite (proj2 R3); auto. unfold q2. rewrite pget_with_pq. exists (Z.of_nat (n - 1)). apply (S5 (n-1) v s0).
    rewrite S4, nth_swapl, Nat.eqb_refl by (auto; fold n; lia). auto. }
  destruct Pv as [z Pv]. rewrite Pv. cbn [value_of bind]. eexists. split; [reflexivity|].
  assert (Nv3 : ~ In v (map fst (q_pq q3))).
  { intros X. apply Nv. eapply Permutation_in; [apply Permutation_map; apply R3|]. exact X. }
  split; rewrite ?pq_pset; auto.
  - intros i w r. rewrite pq_pset. intros X. rewrite pget_pset_neq; [eapply R2; eauto|].
    intros ->. apply Nv3. apply in_map_iff. exists (w, r). split; auto. eapply nth_error_In; eauto.
  - intros w _. rewrite pq_pset. intros Hw. destruct (var_eqb_spec w v) as [->|N].
    + right. eapply pget_pset_eq; eauto.
    + rewrite pget_pset_neq by congruence. apply (frame_W2 _ _ _ R3 W2q2); auto.
  - eapply GN_perm; [apply R3|auto].
  - intros w r. assert (X : In (w, r) (q_pq q3) <-> In (w, r) (q_pq q2)).
    { split; apply Permutation_in; [|apply Permutation_sym]; apply R3. }
    rewrite X, HM. destruct (var_eqb_spec w v) as [->|N].
    + split; [discriminate|]. intros Y. exfalso. apply Nv. apply in_map_iff. exists (v, r); auto.
    + rewrite E, <- Q. split; intros Y.
      * apply (Permutation_in _ PERM) in Y. destruct Y as [Y|Y]; auto. congruence.
      * apply (Permutation_in _ (Permutation_sym PERM)). right; auto.
Qed.

Lemma map_fst_set_nth (l : list node) i v s s' : nth_error l i = Some (v, s) ->
  map fst (set_nth i (v, s') l) = map fst l.
Proof.
  revert i. induction l as [|[w r] l IH]; intros [|i]; simpl; intros H; try discriminate; auto.
  - inversion H; subst; auto.
  - f_equal. auto.
Qed.

Lemma update_inv q M v s M' : qinv q M -> good s ->
  (forall w, M' w = match M w with None => None | Some r => if var_eqb w v then Some s else Some r end) ->
  exists q', q_update fo q v s = Ok q' /\ qinv q' M'.
Proof.
  intros HI Gs HM. pose proof HI as HI0. destruct HI as [A B C D E]. unfold q_update.
  destruct (M v) as [r|] eqn:Mv.
  2:{ assert (Nv : ~ In v (map fst (q_pq q))).
      { rewrite in_map_iff. intros ((w & r) & E1 & E2). simpl in E1. subst. apply E in E2. congruence. }
      assert (q_find q v = length (q_pq q)) as ->.
      { unfold q_find. destruct (B v) as [G|G]; auto; rewrite G; auto. }
      rewrite Nat.eqb_refl. exists q. split; auto. split; auto. intros w r. rewrite <- E, HM.
      destruct (M w) as [x|] eqn:X; [|tauto]. destruct (var_eqb_spec w v); [congruence|tauto]. }
  apply E in Mv. apply In_nth_error in Mv. destruct Mv as [i Hi].
  assert (Fi : q_find q v = i).
  { unfold q_find. rewrite (A _ _ _ Hi). destruct (Z.ltb_spec (Z.of_nat i) 0); lia. }
  rewrite Fi. clear Fi. assert (Li : i < length (q_pq q)) by (apply nth_error_Some; congruence).
  destruct (Nat.eqb_spec i (length (q_pq q))); [lia|]. unfold at_. rewrite Hi. cbn [value_of bind fst snd].
  set (q1 := with_pq q (set_nth i (v, s) (q_pq q))).
  assert (Lq : q_pq q1 = set_nth i (v, s) (q_pq q)) by reflexivity.
  assert (Ln : length (q_pq q1) = length (q_pq q)) by (rewrite Lq; apply set_nth_length).
  assert (NS : forall k, nth_error (q_pq q1) k = if k =? i then Some (v, s) else nth_error (q_pq q) k).
  { intros k. rewrite Lq. destruct (Nat.eqb_spec k i); [subst; apply nth_error_set_nth_eq; auto|apply nth_error_set_nth_neq; auto]. }
  assert (W1q : W1 q1).
  { intros k w x X. unfold q1. rewrite pget_with_pq. rewrite NS in X. destruct (Nat.eqb_spec k i) as [->|Nk].
    - assert (w = v) as -> by congruence. eapply A; eauto.
    - eapply A; eauto. }
  assert (Vq : map fst (q_pq q1) = map fst (q_pq q)) by (rewrite Lq; eapply map_fst_set_nth; eauto).
  assert (W2q : W2 (fun _ => False) q1).
  { intros w Hw Hn. rewrite Vq in Hn. unfold q1. rewrite pget_with_pq. apply B; auto. }
  assert (Gq : GN (q_pq q1)).
  { rewrite Lq. unfold GN. apply Forall_forall. intros x Hx. apply set_nth_In in Hx. destruct Hx as [->|Hx]; [exact Gs|].
    unfold GN in C. rewrite Forall_forall in C. now apply C. }
  assert (Gr : gn (v, r)) by exact (GN_nth _ _ _ C Hi).
  assert (REP : forall w x, M' w = Some x <-> In (w, x) (q_pq q1)).
  { intros w x. rewrite HM. split; intros X.
    - destruct (M w) as [y|] eqn:Y; [|discriminate]. destruct (var_eqb_spec w v) as [->|N].
      + inversion X; subst x. apply (nth_error_In _ i). rewrite NS, Nat.eqb_refl. auto.
      + inversion X; subst x. apply E in Y. apply In_nth_error in Y. destruct Y as [k Y].
        apply (nth_error_In _ k). rewrite NS. destruct (Nat.eqb_spec k i) as [Ek|]; auto. rewrite Ek, Hi in Y. congruence.
    - apply In_nth_error in X. destruct X as [k X]. rewrite NS in X. destruct (Nat.eqb_spec k i) as [Ek|N].
      + assert (w = v /\ x = s) as [-> ->] by (split; congruence). assert (M v = Some r) as -> by (apply E; eapply nth_error_In; eauto).
        destruct (var_eqb_spec v v); congruence.
      + assert (M w = Some x) as -> by (apply E; eapply nth_error_In; eauto).
        destruct (var_eqb_spec w v) as [Ew|]; auto. rewrite Ew in X. exfalso. apply N. exact (W1_inj q k i v x r A X Hi). }
  assert (FIN : forall q', W1 q' /\ frame q1 q' /\ heap (q_pq q') -> qinv q' M').
  { intros q' (X & Y & Z). split; auto.
    - eapply frame_W2; eauto.
    - eapply GN_perm; [apply Y|auto].
    - eapply frame_rep; eauto. }
  rewrite (sl_ge _ _ laws) by auto. destruct (f_gt fo r s) eqn:Egt; cbn [negb].
  - (* score decreases *)
    destruct (fix_down_spec 0 (S (length (q_pq q1))) q1 i) as (q' & R1 & R2 & R3 & R4); auto; try lia.
    + split.
      * intros j Hj _ Pj a b X Y. rewrite NS in X, Y. destruct (Nat.eqb_spec (parent j) i); [congruence|].
        destruct (Nat.eqb_spec j i) as [Ej|Nj]; [|apply (D j); auto]. injection X as <-.
        assert (Gb : gn b) by exact (GN_nth _ _ _ C Y).
        apply (bef_neg (v, s) (v, r) b); auto; [|apply (D j); auto; rewrite Ej; auto].
        unfold node_before. simpl. rewrite (sl_asym _ _ laws r s Gr Gs Egt).
        rewrite (sl_eq _ _ laws); auto. rewrite Egt. simpl. now rewrite andb_false_r.
      * intros Hi0 _ c Hc Pc a b X Y. rewrite NS in X, Y. pose proof (parent_lt c Hc). pose proof (parent_lt i Hi0).
        destruct (Nat.eqb_spec c i); [lia|]. destruct (Nat.eqb_spec (parent i) i); [lia|].
        apply (proj2 (heap_heap_up _ i C D) Hi0 c Hc Pc); auto.
    + exists q'. split; auto. apply FIN. split; auto. split; auto. intros j Hj. apply R4; auto; lia.
  - (* score does not decrease *)
    destruct (fix_up_spec (S i) q1 i) as (q' & R1 & R2 & R3 & R4); auto; try lia.
    + split.
      * intros j Hj Nj a b X Y. rewrite NS in X, Y. destruct (Nat.eqb_spec j i); [congruence|].
        destruct (Nat.eqb_spec (parent j) i) as [Pj|Pj]; [|apply (D j); auto]. injection Y as <-.
        assert (Ga : gn a) by exact (GN_nth _ _ _ C X).
        apply (bef_neg a (v, r) (v, s)); auto; [apply (D j); auto; now rewrite Pj|].
        unfold node_before. simpl. rewrite Egt. rewrite var_ltb_irr. simpl. now rewrite andb_false_r.
      * intros Hi0 c Hc Pc a b X Y. rewrite NS in X, Y. pose proof (parent_lt c Hc). pose proof (parent_lt i Hi0).
        destruct (Nat.eqb_spec c i); [lia|]. destruct (Nat.eqb_spec (parent i) i); [lia|].
        apply (proj2 (heap_heap_up _ i C D) Hi0 c Hc Pc); auto.
    + exists q'. split; auto.
Qed.

Lemma fix_all_spec : forall i q, i < length (q_pq q) -> W1 q -> GN (q_pq q) -> heap_from (q_pq q) (S i) ->
  exists q', fix_all fo q i = Ok q' /\ W1 q' /\ frame q q' /\ heap (q_pq q').
Proof.
  induction i as [|i IH]; intros q Hi HW HG HH; cbn [fix_all].
  - destruct (fix_down_spec 0 (S (length (q_pq q))) q 0) as (q1 & R1 & R2 & R3 & R4); auto; try lia.
    + split; [|lia]. intros j Hj _ Pj. apply HH; auto; lia.
    + rewrite R1. cbn [bind]. exists q1. split; auto. split; auto. split; auto. intros j Hj. apply R4; auto; lia.
  - destruct (fix_down_spec (S i) (S (length (q_pq q))) q (S i)) as (q1 & R1 & R2 & R3 & R4); auto; try lia.
    + split.
      * intros j Hj Kj Pj. apply HH; auto; lia.
      * intros _ Kj. pose proof (parent_lt (S i)). lia.
    + rewrite R1. cbn [bind]. destruct (IH q1) as (q2 & T1 & T2 & T3 & T4); auto.
      * rewrite (frame_len _ _ R3). lia.
      * eapply GN_perm; [apply R3|auto].
      * exists q2. split; auto. split; auto. split; auto. eapply frame_trans; eauto.
Qed.

Lemma rescale_inv q M f M' : qinv q M -> (forall s, good s -> good (f_div fo s f)) ->
  (forall w, M' w = match M w with None => None | Some r => Some (f_div fo r f) end) ->
  exists q', q_rescale fo q f = Ok q' /\ qinv q' M'.
Proof.
  intros [A B C D E] Gf HM. unfold q_rescale. set (g := fun n : node => (fst n, f_div fo (snd n) f)).
  set (q1 := with_pq q (map g (q_pq q))).
  assert (Lq : q_pq q1 = map g (q_pq q)) by reflexivity.
  assert (Vq : map fst (q_pq q1) = map fst (q_pq q)) by (rewrite Lq, map_map; now apply map_ext).
  assert (W1q : W1 q1).
  { intros k w x X. unfold q1. rewrite pget_with_pq. rewrite Lq, nth_error_map in X.
    destruct (nth_error (q_pq q) k) as [[w' x']|] eqn:Y; inversion X; subst. eapply A; eauto. }
  assert (W2q : W2 (fun _ => False) q1).
  { intros w Hw Hn. rewrite Vq in Hn. unfold q1. rewrite pget_with_pq. apply B; auto. }
  assert (Gq : GN (q_pq q1)).
  { rewrite Lq. apply Forall_map. eapply Forall_impl; [|exact C]. intros a Ha. apply Gf. exact Ha. }
  assert (REP : forall w x, M' w = Some x <-> In (w, x) (q_pq q1)).
  { intros w x. rewrite HM, Lq, in_map_iff. split.
    - destruct (M w) as [y|] eqn:Y; [|discriminate]. intros X. inversion X; subst. apply E in Y. exists (w, y); auto.
    - intros ((w' & y) & X & Y). inversion X; subst. apply E in Y. rewrite Y. auto. }
  assert (FIN : forall q', W1 q' /\ frame q1 q' /\ heap (q_pq q') -> qinv q' M').
  { intros q' (X & Y & Z). split; auto.
    - eapply frame_W2; eauto.
    - eapply GN_perm; [apply Y|auto].
    - eapply frame_rep; eauto. }
  unfold q_empty. destruct (q_pq q1) as [|x l] eqn:E1.
  - exists q1. split; auto. apply FIN. split; auto. split; [apply frame_refl|]. rewrite E1. intros j Hj a b X. destruct j; discriminate.
  - rewrite <- E1 in *. assert (length (q_pq q1) > 0) by (rewrite E1; simpl; lia).
    destruct (fix_all_spec ((length (q_pq q1) - 1) / 4) q1) as (q' & R1 & R2 & R3 & R4); auto.
    + apply Nat.div_lt_upper_bound; lia.
    + intros j Hj Kj a b X Y. exfalso. assert (j < length (q_pq q1)) by (apply nth_error_Some; congruence).
      pose proof (proj1 (parent_iff j (parent j) Hj) eq_refl).
      assert (S ((length (q_pq q1) - 1) / 4) * 4 > length (q_pq q1) - 1).
      { pose proof (Nat.div_mod (length (q_pq q1) - 1) 4). pose proof (Nat.mod_upper_bound (length (q_pq q1) - 1) 4). lia. }
      lia.
    + exists q'. split; auto.
Qed.

Lemma new_inv : qinv q_new (fun _ => None).
Proof.
  split.
  - intros i v s H. destruct i; discriminate.
  - intros v _ _. left. destruct v as [i|i]; destruct i; auto.
  - constructor.
  - intros j Hj a b X. destruct j; discriminate.
  - intros v s. split; [discriminate|intros []].
Qed.

Lemma step_inv q M o M' : qinv q M -> spec_step fo good M o M' ->
  exists q', q_step fo q o = Ok q' /\ qinv q' M'.
Proof.
  intros H S. inversion S; subst; simpl.
  - eapply push_inv; eauto.
  - eapply pop_inv; eauto.
  - eapply update_inv; eauto.
  - eapply rescale_inv; eauto.
Qed.

Lemma run_app h o : forall q, q_run fo q (h ++ [o]) = bind (q_run fo q h) (fun q1 => q_step fo q1 o).
Proof.
  induction h as [|o' h IH]; intros q; simpl.
  - destruct (q_step fo q o); auto.
  - destruct (q_step fo q o'); simpl; auto.
Qed.

Lemma history_inv h M : history fo good h M -> exists q, q_run fo q_new h = Ok q /\ qinv q M.
Proof.
  induction 1 as [|h M o M' Hh (q & E & HI) HS].
  - exists q_new. split; auto. apply new_inv.
  - destruct (step_inv _ _ _ _ HI HS) as (q' & E' & HI'). exists q'. rewrite run_app, E. simpl. auto.
Qed.

Lemma queue_lemma h M : history fo good h M ->
  exists q, q_run fo q_new h = Ok q /\
    (forall v, q_contains q v = true <-> M v <> None) /\
    (q_empty q = true <-> forall v, M v = None) /\
    (q_empty q = false -> exists v, q_top q = Ok v /\ best fo M v) /\
    NoDup (q_vars q) /\ (forall v, In v (q_vars q) <-> M v <> None) /\ q_size q = length (q_vars q).
Proof.
  intros H. destruct (history_inv _ _ H) as (q & E & HI). exists q. split; auto.
  pose proof (top_spec _ _ HI) as T.
  split; [intros; now apply contains_spec|]. split; [|split].
  - unfold q_empty. destruct (q_pq q) as [|n l] eqn:Q; [tauto|]. split; [discriminate|].
    intros X. destruct T as (s & Y & _). rewrite X in Y. discriminate.
  - unfold q_empty, q_top. destruct (q_pq q) as [|n l] eqn:Q; [discriminate|]. eauto.
  - split; [apply W1_nodup; apply HI|]. split.
    + intros v. unfold q_vars. rewrite in_map_iff. split.
      * intros ((w & s) & X & Y). simpl in X. subst. apply HI in Y. congruence.
      * destruct (M v) as [s|] eqn:Y; [|congruence]. intros _. exists (v, s). split; auto. now apply HI.
    + unfold q_size, q_vars. now rewrite map_length.
Qed.
End P.

(** exact rationals as scores *)
Lemma q_laws good : score_laws qops good.
Proof.
  split; simpl; intros.
  - apply negb_false_iff, Qle_bool_iff, Qle_refl.
  - apply negb_true_iff in H1. apply negb_false_iff, Qle_bool_iff. apply Qlt_le_weak, Qnot_le_lt.
    intros X. apply Qle_bool_iff in X. congruence.
  - apply negb_false_iff in H2, H3. apply negb_false_iff. apply Qle_bool_iff in H2, H3. apply Qle_bool_iff.
    eapply Qle_trans; eauto.
  - rewrite !negb_involutive. destruct (Qeq_bool a b) eqn:E.
    + apply Qeq_bool_iff in E. symmetry. apply andb_true_iff. rewrite !Qle_bool_iff. rewrite E. split; apply Qle_refl.
    + symmetry. apply andb_false_iff. destruct (Qle_bool a b) eqn:A; auto. destruct (Qle_bool b a) eqn:B; auto. exfalso.
      apply Qle_bool_iff in A, B. assert (X : (a == b)%Q) by (apply Qle_antisym; auto). apply Qeq_bool_iff in X. congruence.
  - rewrite negb_involutive. auto.
Qed.
