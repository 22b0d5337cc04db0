(** Bounds of a variable: the reported bounds are the tightest recorded ones, deciding a variable
    terminates with a permitted value, and constraints reported as implied by bounds hold. *)
From Coq Require Import List Arith ZArith QArith Qround Bool Permutation Lia Lqa.
From Verif Require Import Base Core_Model Lincons_Model Spec_Lincons Lincons_Proofs Lra_Model Spec_Lra.
Import ListNotations.
Open Scope nat_scope.
Arguments Qred : simpl never.
Arguments Qmult : simpl never.
Arguments Qplus : simpl never.
Arguments Qminus : simpl never.
Arguments Qopp : simpl never.
Arguments Qdiv : simpl never.

Lemma drop_idem s t l : drop_obsolete s t (drop_obsolete s t l) = drop_obsolete s t l.
Proof. induction l as [|b l IH]; simpl; auto. destruct (is_obsolete s t b) eqn:E; simpl; [auto|now rewrite E]. Qed.
Lemma drop_head s t l b : hd_error (drop_obsolete s t l) = Some b -> In b l /\ is_obsolete s t b = false.
Proof.
  induction l as [|a l IH]; simpl; [discriminate|]. destruct (is_obsolete s t a) eqn:E.
  - intros H. apply IH in H. tauto.
  - simpl. intros H. inversion H; subst. auto.
Qed.
Lemma drop_none s t l : hd_error (drop_obsolete s t l) = None -> forall b, In b l -> is_obsolete s t b = true.
Proof.
  induction l as [|a l IH]; simpl; [tauto|]. destruct (is_obsolete s t a) eqn:E.
  - intros H b [<-|Hb]; auto.
  - discriminate.
Qed.
Lemma filter_idem {A} (f : A -> bool) l : filter f (filter f l) = filter f l.
Proof. induction l as [|a l IH]; simpl; auto. destruct (f a) eqn:E; simpl; [rewrite E|]; congruence. Qed.

(** what the queries can see of the bounds *)
Definition view (s : store) (t : trail) (w : vbounds) : list bound * list bound * list bound :=
  (drop_obsolete s t (vb_lb w), drop_obsolete s t (vb_ub w),
   filter (fun b => negb (is_obsolete s t b)) (vb_neq w)).
Definition allowed (V : list bound * list bound * list bound) (v : Q) : Prop :=
  (forall b, hd_error (fst (fst V)) = Some b -> above b v) /\
  (forall b, hd_error (snd (fst V)) = Some b -> below b v) /\
  (forall b, In b (snd V) -> differs b v).

Lemma view_lower s t w : view s t (fst (lower_bound s t w)) = view s t w.
Proof. unfold view, lower_bound. simpl. now rewrite drop_idem. Qed.
Lemma view_upper s t w : view s t (fst (upper_bound s t w)) = view s t w.
Proof. unfold view, upper_bound. simpl. now rewrite drop_idem. Qed.
Lemma view_neq s t w v : view s t (fst (inequality s t w v)) = view s t w.
Proof. unfold view, inequality. simpl. now rewrite filter_idem. Qed.
Lemma lower_view s t w : snd (lower_bound s t w) = hd_error (fst (fst (view s t w))).
Proof. reflexivity. Qed.
Lemma upper_view s t w : snd (upper_bound s t w) = hd_error (snd (fst (view s t w))).
Proof. reflexivity. Qed.

Lemma is_allowed_spec s t w v w' b : is_allowed s t w v = (w', b) ->
  view s t w' = view s t w /\ (b = true <-> allowed (view s t w) v).
Proof.
  unfold is_allowed. destruct (inequality s t w v) as [w1 n] eqn:En.
  assert (V1 : view s t w1 = view s t w) by (rewrite <- (view_neq s t w v), En; reflexivity).
  assert (N : n = None <-> forall b, In b (snd (view s t w)) -> differs b v).
  { unfold inequality in En. assert (n = find (fun b => Qeq_bool (b_val b) v) (snd (view s t w))).
    { unfold view. simpl. congruence. }
    subst n. split.
    - intros Hn b0 Hb A. apply (find_none _ _ Hn) in Hb. apply Qeq_bool_iff in A. congruence.
    - intros Ha. destruct (find _ _) as [b0|] eqn:F; [|reflexivity].
      apply find_some in F. destruct F as [F1 F2]. apply Qeq_bool_iff in F2. now apply Ha in F1. }
  destruct n as [n|].
  - intros H. inversion H; subst. split; [exact V1|]. split; [discriminate|].
    intros (_ & _ & A). apply N in A. discriminate.
  - assert (N' := proj1 N eq_refl). clear N.
    unfold check_lower_bound. destruct (lower_bound s t w1) as [w2 lo] eqn:El.
    assert (V2 : view s t w2 = view s t w) by (rewrite <- V1, <- (view_lower s t w1), El; reflexivity).
    assert (Lo : lo = hd_error (fst (fst (view s t w)))).
    { rewrite <- V1, <- lower_view, El. reflexivity. }
    set (b1 := match lo with Some b0 => _ | None => true end).
    assert (B1 : b1 = true <-> forall b, hd_error (fst (fst (view s t w))) = Some b -> above b v).
    { rewrite <- Lo. unfold b1. destruct lo as [b0|].
      - rewrite orb_true_iff, andb_true_iff, qltb_lt, Qeq_bool_iff, negb_true_iff. split.
        + intros H b2 E. inversion E; subst. unfold above. destruct (b_strict b2); [|lra].
          destruct H as [H|[_ H]]; [exact H|discriminate].
        + intros H. specialize (H _ eq_refl). unfold above in H. destruct (b_strict b0); [auto|].
          destruct (Qlt_le_dec (b_val b0) v); [auto|right]. split; [lra|reflexivity].
      - split; [discriminate|reflexivity]. }
    clearbody b1. destruct b1.
    + unfold check_upper_bound. destruct (upper_bound s t w2) as [w3 up] eqn:Eu. intros H.
      injection H as <- <-.
      assert (V3 : view s t w3 = view s t w) by (rewrite <- V2, <- (view_upper s t w2), Eu; reflexivity).
      assert (Up : up = hd_error (snd (fst (view s t w)))).
      { rewrite <- V2, <- upper_view, Eu. reflexivity. }
      split; [exact V3|]. unfold allowed. rewrite <- Up. destruct up as [b0|].
      * rewrite orb_true_iff, andb_true_iff, qltb_lt, Qeq_bool_iff, negb_true_iff. split.
        -- intros H. split; [now apply B1|]. split; [|exact N'].
           intros b2 E. inversion E; subst. unfold below. destruct (b_strict b2); [|lra].
           destruct H as [H|[_ H]]; [exact H|discriminate].
        -- intros (_ & H & _). specialize (H _ eq_refl). unfold below in H. destruct (b_strict b0); [auto|].
           destruct (Qlt_le_dec v (b_val b0)); [auto|right]. split; [lra|reflexivity].
      * split; [|reflexivity]. intros _. split; [now apply B1|]. split; [discriminate|exact N'].
    + intros H. injection H as <- <-. split; [exact V2|]. split; [discriminate|].
      intros (A & _). apply B1 in A. discriminate.
Qed.

Lemma allowed_morph V v v' : (v == v')%Q -> allowed V v -> allowed V v'.
Proof.
  intros E (A & B & C). split; [|split].
  - intros b H. specialize (A b H). unfold above in *. destruct (b_strict b); lra.
  - intros b H. specialize (B b H). unfold below in *. destruct (b_strict b); lra.
  - intros b H. specialize (C b H). unfold differs in *. lra.
Qed.

(** ** recorded bounds are ordered: the newest is the tightest *)
Definition tighter_lb (a b : bound) : Prop := forall v, above a v -> above b v.
Definition tighter_ub (a b : bound) : Prop := forall v, below a v -> below b v.
Inductive chain (R : bound -> bound -> Prop) : list bound -> Prop :=
| ch_nil : chain R []
| ch_cons b l : (forall c, In c l -> R b c) -> chain R l -> chain R (b :: l).

Lemma chain_drop R s t l : chain R l -> chain R (drop_obsolete s t l).
Proof. induction 1 as [|b l H HC IH]; simpl; [constructor|]. destruct (is_obsolete s t b); [exact IH|now constructor]. Qed.

Lemma vb_chain w : vb_history w -> chain tighter_lb (vb_lb w) /\ chain tighter_ub (vb_ub w).
Proof.
  induction 1 as [|w s t b HW [IL IU]|w s t b HW [IL IU]|w s t b w' h HW [IL IU] HA|w s t HW [IL IU]
                 |w s t HW [IL IU]|w s t v HW [IL IU]].
  - split; constructor.
  - unfold add_upper_bound, upper_bound. set (l := drop_obsolete s t (vb_ub w)).
    assert (HL : chain tighter_ub l) by (unfold l; apply chain_drop; exact IU). clearbody l.
    destruct l as [|b0 l]; cbn [hd_error].
    + cbn [fst vb_lb vb_ub]. split; [exact IL|]. constructor; [simpl; tauto|exact HL].
    + destruct (is_better qltb b b0) eqn:E; cbn [fst vb_lb vb_ub]; (split; [exact IL|]); [|exact HL].
      inversion HL as [|? ? A B]; subst. constructor; [|exact HL].
      assert (T : tighter_ub b b0).
      { unfold is_better in E. rewrite orb_true_iff, !andb_true_iff, qltb_lt, Qeq_bool_iff in E.
        intros v. unfold below. destruct (b_strict b), (b_strict b0); intros; simpl in E; try lra;
        destruct E as [E|[[_ E] E']]; try discriminate; lra. }
      intros c [<-|Hc]; [exact T|]. intros v Hv. apply (A c Hc). apply T. exact Hv.
  - unfold add_lower_bound, lower_bound. set (l := drop_obsolete s t (vb_lb w)).
    assert (HL : chain tighter_lb l) by (unfold l; apply chain_drop; exact IL). clearbody l.
    destruct l as [|b0 l]; cbn [hd_error].
    + cbn [fst vb_lb vb_ub]. split; [|exact IU]. constructor; [simpl; tauto|exact HL].
    + destruct (is_better (fun x y => qltb y x) b b0) eqn:E; cbn [fst vb_lb vb_ub]; (split; [|exact IU]); [|exact HL].
      inversion HL as [|? ? A B]; subst. constructor; [|exact HL].
      assert (T : tighter_lb b b0).
      { unfold is_better in E. rewrite orb_true_iff, !andb_true_iff, qltb_lt, Qeq_bool_iff in E.
        intros v. unfold above. destruct (b_strict b), (b_strict b0); intros; simpl in E; try lra;
        destruct E as [E|[[_ E] E']]; try discriminate; lra. }
      intros c [<-|Hc]; [exact T|]. intros v Hv. apply (A c Hc). apply T. exact Hv.
  - unfold add_inequality in HA. destruct (assertb _) as [u| |]; cbn [bind] in HA; try discriminate.
    unfold inequality in HA. destruct (match find _ _ with None => _ | _ => _ end);
      injection HA as <- _; cbn [vb_lb vb_ub]; auto.
  - cbn [upper_bound fst vb_lb vb_ub]. split; [exact IL|apply chain_drop; exact IU].
  - cbn [lower_bound fst vb_lb vb_ub]. split; [apply chain_drop; exact IL|exact IU].
  - cbn [inequality fst vb_lb vb_ub]. auto.
Qed.

Lemma chain_top (R : bound -> bound -> Prop) s t l b :
  (forall x, R x x) ->
  chain R l -> In b l -> is_obsolete s t b = false ->
  exists a, hd_error (drop_obsolete s t l) = Some a /\ R a b.
Proof.
  intros Rr. induction 1 as [|a l H HC IH]; intros Hb Ho; [destruct Hb|].
  simpl. destruct (is_obsolete s t a) eqn:E.
  - destruct Hb as [->|Hb]; [congruence|auto].
  - exists a. split; [reflexivity|]. destruct Hb as [->|Hb]; [apply Rr|auto].
Qed.

Lemma permitted_allowed s t w v : vb_history w -> (permitted s t w v <-> allowed (view s t w) v).
Proof.
  intros HH. destruct (vb_chain w HH) as [CL CU]. split.
  - intros (A & B & C). split; [|split].
    + intros b Hb. unfold view in Hb. cbn [fst] in Hb. apply drop_head in Hb. destruct Hb. now apply A.
    + intros b Hb. unfold view in Hb. cbn [fst snd] in Hb. apply drop_head in Hb. destruct Hb. now apply B.
    + intros b Hb. unfold view in Hb. cbn [snd] in Hb. apply filter_In in Hb. destruct Hb as [H1 H2].
      apply C; [exact H1|]. now apply negb_true_iff.
  - intros (A & B & C). split; [|split].
    + intros b Hb Ho. destruct (chain_top tighter_lb s t _ b (fun x v H => H) CL Hb Ho) as (a & Ha & R).
      apply R. apply A. exact Ha.
    + intros b Hb Ho. destruct (chain_top tighter_ub s t _ b (fun x v H => H) CU Hb Ho) as (a & Ha & R).
      apply R. apply B. exact Ha.
    + intros b Hb Ho. apply C. unfold view. cbn [snd]. apply filter_In. split; [exact Hb|].
      now apply negb_true_iff.
Qed.

(** ** the search loops *)
Definition nq (n : nat) : Q := inject_Z (Z.of_nat n).
Lemma nq_S n : (nq (S n) == nq n + 1)%Q.
Proof. unfold nq. rewrite Nat2Z.inj_succ, <- Z.add_1_r, inject_Z_plus. reflexivity. Qed.
Lemma nq_0 : (nq 0 == 0)%Q. Proof. reflexivity. Qed.
Lemma nq_inj a b : (nq a == nq b)%Q -> a = b.
Proof. unfold nq. rewrite inject_Z_injective. lia. Qed.
Lemma nq_nonneg n : (0 <= nq n)%Q.
Proof. unfold nq. change 0%Q with (inject_Z 0). rewrite <- Zle_Qle. lia. Qed.
Lemma arch (x : Q) : exists n, (x < nq n)%Q.
Proof.
  exists (S (Z.to_nat (Qceiling x))). rewrite nq_S. unfold nq. assert (H := Qle_ceiling x).
  assert (inject_Z (Qceiling x) <= inject_Z (Z.of_nat (Z.to_nat (Qceiling x))))%Q
    by (rewrite <- Zle_Qle; lia). lra.
Qed.

Lemma pigeon (D : list Q) (g : nat -> Q) : (forall i j, (g i == g j)%Q -> i = j) ->
  exists i, i <= length D /\ forall d, In d D -> ~ (d == g i)%Q.
Proof.
  intros HI.
  destruct (existsb (fun i => forallb (fun d => negb (Qeq_bool d (g i))) D) (seq 0 (S (length D)))) eqn:E.
  - apply existsb_exists in E. destruct E as (i & Hi & Hf). apply in_seq in Hi.
    exists i. split; [lia|]. intros d Hd A. rewrite forallb_forall in Hf. specialize (Hf d Hd).
    apply Qeq_bool_iff in A. rewrite A in Hf. discriminate.
  - exfalso.
    assert (NoDup (map (fun i => Qred (g i)) (seq 0 (S (length D))))).
    { assert (G : forall n m, NoDup (map (fun i => Qred (g i)) (seq m n))).
      { induction n as [|n IH]; intros m; cbn [seq map]; constructor; [|apply IH].
        rewrite in_map_iff. intros (j & E1 & E2). apply in_seq in E2.
        assert (j = m); [|lia]. apply HI.
        rewrite <- (Qred_correct (g j)), <- (Qred_correct (g m)), E1. reflexivity. }
      apply G. }
    assert (incl (map (fun i => Qred (g i)) (seq 0 (S (length D)))) (map Qred D)).
    { intros q Hq. rewrite in_map_iff in Hq. destruct Hq as (i & <- & Hi).
      destruct (forallb (fun d => negb (Qeq_bool d (g i))) D) eqn:F.
      - exfalso. assert (existsb (fun i => forallb (fun d => negb (Qeq_bool d (g i))) D) (seq 0 (S (length D))) = true).
        { apply existsb_exists. eauto. } congruence.
      - assert (exists d, In d D /\ Qeq_bool d (g i) = true).
        { clear - F. induction D as [|d D IH]; cbn [forallb] in F; [discriminate|].
          apply andb_false_iff in F. destruct F as [F|F].
          - exists d. split; [now left|]. now apply negb_false_iff.
          - destruct (IH F) as (e & A & B). exists e. split; [now right|exact B]. }
        destruct H0 as (d & Hd & A). apply Qeq_bool_iff in A. apply in_map_iff. exists d.
        split; [now apply Qred_complete|exact Hd]. }
    assert (L := NoDup_incl_length H H0). rewrite !map_length, seq_length in L. lia.
Qed.

Section Search.
Variables (s : store) (t : trail) (V : list bound * list bound * list bound).
Notation ok w := (view s t w = V).

Lemma walk_ok d : forall i fuel w v, ok w -> i < fuel -> allowed V (v + nq i * d)%Q ->
  exists w' v', walk fuel s t w v d = Ok (w', v') /\ ok w' /\ allowed V v'.
Proof.
  induction i as [|i IH]; intros fuel w v Hw Hf Ha; (destruct fuel as [|fuel]; [lia|]); cbn [walk];
    destruct (is_allowed s t w v) as [w1 b] eqn:E; apply is_allowed_spec in E; rewrite Hw in E;
    destruct E as [E1 E2]; destruct b;
    try (exists w1, v; split; [reflexivity|]; split; [exact E1|now apply E2]).
  - exfalso. assert (false = true); [|discriminate]. apply E2. eapply allowed_morph; [|exact Ha].
    rewrite nq_0. lra.
  - apply IH; [exact E1|lia|]. eapply allowed_morph; [|exact Ha]. rewrite nq_S. lra.
Qed.

Lemma all_ok : forall i fuel w v, ok w -> i < fuel -> allowed V (v + nq i)%Q ->
  exists w' v', all_integers fuel s t w v = Ok (w', v') /\ ok w' /\ allowed V v'.
Proof.
  induction i as [|i IH]; intros fuel w v Hw Hf Ha; (destruct fuel as [|fuel]; [lia|]); cbn [all_integers];
    destruct (is_allowed s t w v) as [w1 b] eqn:E; apply is_allowed_spec in E; rewrite Hw in E;
    destruct E as [E1 E2]; destruct b;
    try (exists w1, v; split; [reflexivity|]; split; [exact E1|now apply E2]);
    destruct (is_allowed s t w1 (- v)%Q) as [w2 b] eqn:E; apply is_allowed_spec in E; rewrite E1 in E;
    destruct E as [E3 E4]; destruct b;
    try (exists w2, (- v)%Q; split; [reflexivity|]; split; [exact E3|now apply E4]).
  - exfalso. assert (false = true); [|discriminate]. apply E2. eapply allowed_morph; [|exact Ha].
    rewrite nq_0. lra.
  - apply IH; [exact E3|lia|]. eapply allowed_morph; [|exact Ha]. rewrite nq_S. lra.
Qed.

Lemma around_ok len : forall n fuel w v, ok w -> n < fuel -> (len < v + nq n)%Q ->
  exists w' o, around_zero fuel s t w v len = Ok (w', o) /\ ok w' /\ forall q, o = Some q -> allowed V q.
Proof.
  induction n as [|n IH]; intros fuel w v Hw Hf Hl; (destruct fuel as [|fuel]; [lia|]); cbn [around_zero];
    (destruct (Qle_bool v len) eqn:El; [apply Qle_bool_iff in El|exists w, None; split; [reflexivity|];
      split; [exact Hw|discriminate]]).
  - exfalso. rewrite nq_0 in Hl. lra.
  - destruct (is_allowed s t w v) as [w1 b] eqn:E. apply is_allowed_spec in E. rewrite Hw in E.
    destruct E as [E1 E2]. destruct b.
    { exists w1, (Some v). split; [reflexivity|]. split; [exact E1|]. intros q A. injection A as <-. now apply E2. }
    destruct (is_allowed s t w1 (- v)%Q) as [w2 b] eqn:E. apply is_allowed_spec in E. rewrite E1 in E.
    destruct E as [E3 E4]. destruct b.
    { exists w2, (Some (- v)%Q). split; [reflexivity|]. split; [exact E3|]. intros q A.
      assert (q = (- v)%Q) by congruence. subst q. now apply E4. }
    apply IH; [exact E3|lia|]. rewrite nq_S in Hl. lra.
Qed.

Lemma within_ok inside d : (forall a b, (a == b)%Q -> inside a = inside b) ->
  forall n fuel w v, ok w -> n < fuel -> inside (v + nq n * d)%Q = false ->
  exists w' o, walk_within fuel s t w inside v d = Ok (w', o) /\ ok w' /\ forall q, o = Some q -> allowed V q.
Proof.
  intros HM.
  induction n as [|n IH]; intros fuel w v Hw Hf Hl; (destruct fuel as [|fuel]; [lia|]); cbn [walk_within];
    (destruct (inside v) eqn:El; [|exists w, None; split; [reflexivity|];
      split; [exact Hw|discriminate]]).
  - exfalso. assert (A : (v == v + nq 0 * d)%Q) by (rewrite nq_0; lra). rewrite (HM _ _ A) in El. congruence.
  - destruct (is_allowed s t w v) as [w1 b] eqn:E. apply is_allowed_spec in E. rewrite Hw in E.
    destruct E as [E1 E2]. destruct b.
    { exists w1, (Some v). split; [reflexivity|]. split; [exact E1|]. intros q A. injection A as <-. now apply E2. }
    apply IH; [exact E1|lia|]. rewrite <- Hl. apply HM. rewrite nq_S. lra.
Qed.

(** the points visited by halving *)
Fixpoint mid (l v : Q) (i : nat) : Q := match i with 0 => v | S i' => mid l ((v + l) / 2)%Q i' end.
Lemma half_eq a b : ((a + b) / 2 == a * (1 # 2) + b * (1 # 2))%Q.
Proof. field. Qed.
Lemma mid_range l i : forall v, (l < v)%Q -> (l < mid l v i)%Q /\ (mid l v i <= v)%Q /\ (i <> 0%nat -> (mid l v i < v)%Q).
Proof.
  induction i as [|i IH]; intros v H; cbn [mid]; [split; [lra|split; [lra|tauto]]|].
  assert (E := half_eq v l). destruct (IH ((v + l) / 2)%Q) as (A & B & _); [lra|]. repeat split; intros; lra.
Qed.
Lemma mid_step l : forall i v, (mid l v (S i) == (mid l v i + l) / 2)%Q.
Proof.
  induction i as [|i IH]; intros v; [reflexivity|].
  change (mid l v (S (S i))) with (mid l ((v + l) / 2)%Q (S i)). rewrite IH. reflexivity.
Qed.
Lemma mid_decr l v i j : (l < v)%Q -> i < j -> (mid l v j < mid l v i)%Q.
Proof.
  intros H. induction 1 as [|j Hj IH].
  - rewrite mid_step, half_eq. destruct (mid_range l i v H) as (A & _). lra.
  - rewrite mid_step, half_eq. destruct (mid_range l j v H) as (A & _). lra.
Qed.
Lemma mid_inj l v i j : (l < v)%Q -> (mid l v i == mid l v j)%Q -> i = j.
Proof.
  intros H E. destruct (Nat.lt_trichotomy i j) as [L|[L|L]]; [|exact L|];
    apply (mid_decr l v) in L; auto; lra.
Qed.
Lemma halve_ok l : forall i fuel w v, ok w -> i < fuel -> allowed V (mid l v i) ->
  exists w' v', halve fuel s t w v l = Ok (w', v') /\ ok w' /\ allowed V v'.
Proof.
  induction i as [|i IH]; intros fuel w v Hw Hf Ha; (destruct fuel as [|fuel]; [lia|]); cbn [halve];
    destruct (is_allowed s t w v) as [w1 b] eqn:E; apply is_allowed_spec in E; rewrite Hw in E;
    destruct E as [E1 E2]; destruct b;
    try (exists w1, v; split; [reflexivity|]; split; [exact E1|now apply E2]).
  - exfalso. assert (false = true); [|discriminate]. apply E2. exact Ha.
  - apply IH; [exact E1|lia|exact Ha].
Qed.

Lemma avoid (g : nat -> Q) : (forall i j, (g i == g j)%Q -> i = j) ->
  exists i, forall b, In b (snd V) -> differs b (g i).
Proof.
  intros HI. destruct (pigeon (map b_val (snd V)) g HI) as (i & _ & H). exists i.
  intros b Hb. apply H. now apply in_map.
Qed.

Lemma floor_le x : (qfloor x <= x)%Q. Proof. apply Qfloor_le. Qed.
Lemma ceil_ge x : (x <= qceil x)%Q. Proof. apply Qle_ceiling. Qed.

Lemma find_integer_ok : (exists v, allowed V v) ->
  exists n, forall fuel w, n <= fuel -> ok w ->
  exists w' o, find_integer fuel s t w = Ok (w', o) /\ ok w' /\ (forall q, o = Some q -> allowed V q) /\
    (o = None -> exists lb ub, hd_error (fst (fst V)) = Some lb /\ hd_error (snd (fst V)) = Some ub).
Proof.
  intros (v0 & HA).
  assert (HL : forall w, ok w -> snd (lower_bound s t w) = hd_error (fst (fst V)))
    by (intros w <-; apply lower_view).
  assert (HU : forall w, ok w -> snd (upper_bound s t w) = hd_error (snd (fst V)))
    by (intros w <-; apply upper_view).
  assert (OL : forall w, ok w -> ok (fst (lower_bound s t w))) by (intros w <-; apply view_lower).
  assert (OU : forall w, ok w -> ok (fst (upper_bound s t w))) by (intros w <-; apply view_upper).
  assert (EX : exists n, forall fuel w2, n <= fuel -> ok w2 ->
     exists w' o,
       (match hd_error (fst (fst V)), hd_error (snd (fst V)) with
        | None, None => '(w3, v) <- all_integers fuel s t w2 0%Q ;; Ok (w3, Some v)
        | None, Some ub =>
            let f := qfloor (b_val ub) in
            '(w3, o) <- around_zero fuel s t w2 0%Q f ;;
            match o with
            | Some v => Ok (w3, Some v)
            | None => '(w4, v) <- walk fuel s t w3 (if qltb 0 f then (- f)%Q else f) (-1)%Q ;;
                      Ok (w4, Some v)
            end
        | Some lb, None =>
            let c := qceil (b_val lb) in
            '(w3, o) <- around_zero fuel s t w2 0%Q (- c)%Q ;;
            match o with
            | Some v => Ok (w3, Some v)
            | None => '(w4, v) <- walk fuel s t w3 (if qltb c 0 then (- c)%Q else c) 1%Q ;;
                      Ok (w4, Some v)
            end
        | Some lb, Some ub =>
            if Qle_bool 0 (b_val lb) then
              _ <- assertb (Qle_bool 0 (b_val ub)) ;;
              walk_within fuel s t w2 (fun v => Qle_bool v (b_val ub)) (qceil (b_val lb)) 1%Q
            else if Qle_bool (b_val ub) 0 then
              _ <- assertb (Qle_bool (b_val lb) 0) ;;
              walk_within fuel s t w2 (fun v => Qle_bool (b_val lb) v) (qfloor (b_val ub)) (-1)%Q
            else
              _ <- assertb (Qle_bool (b_val lb) 0) ;;
              _ <- assertb (Qle_bool 0 (b_val ub)) ;;
              around_zero fuel s t w2 0%Q
                (if qltb (- b_val lb) (b_val ub) then b_val ub else (- b_val lb)%Q)
        end) = Ok (w', o) /\ ok w' /\ (forall q, o = Some q -> allowed V q) /\
        (o = None -> exists lb ub, hd_error (fst (fst V)) = Some lb /\ hd_error (snd (fst V)) = Some ub)).
  2:{ destruct EX as (n & EX). exists n. intros fuel w Hf Hw. unfold find_integer.
      assert (X1 := HL w Hw). assert (X2 := OL w Hw).
      destruct (lower_bound s t w) as [w1 lb]. cbn [fst snd] in X1, X2. subst lb.
      assert (X1 := HU w1 X2). assert (X3 := OU w1 X2).
      destruct (upper_bound s t w1) as [w2 ub]. cbn [fst snd] in X1, X3. subst ub.
      apply EX; assumption. }
  clear HL HU OL OU. destruct HA as (AL & AU & AD).
  destruct (hd_error (fst (fst V))) as [lb|] eqn:EL; destruct (hd_error (snd (fst V))) as [ub|] eqn:EU.
  - specialize (AL _ eq_refl). specialize (AU _ eq_refl).
    assert (LV : (b_val lb <= v0)%Q) by (unfold above in AL; destruct (b_strict lb); lra).
    assert (VU : (v0 <= b_val ub)%Q) by (unfold below in AU; destruct (b_strict ub); lra).
    destruct (Qle_bool 0 (b_val lb)) eqn:E1.
    + apply Qle_bool_iff in E1.
      assert (E2 : Qle_bool 0 (b_val ub) = true) by (apply Qle_bool_iff; lra). rewrite E2.
      destruct (arch (b_val ub - qceil (b_val lb))) as (n & Hn). exists (S n). intros fuel w Hf Hw.
      cbn [assertb bind].
      destruct (within_ok (fun v => Qle_bool v (b_val ub)) 1%Q) with (n := n) (fuel := fuel) (w := w)
        (v := qceil (b_val lb)) as (w' & o & A & B & C); [|exact Hw|lia| |].
      * intros a b E. apply eq_true_iff_eq. rewrite !Qle_bool_iff. rewrite E. reflexivity.
      * apply not_true_iff_false. rewrite Qle_bool_iff. lra.
      * exists w', o. split; [exact A|]. split; [exact B|]. split; [exact C|]. intros _. eauto.
    + destruct (Qle_bool (b_val ub) 0) eqn:E2.
      * apply Qle_bool_iff in E2.
        assert (E3 : Qle_bool (b_val lb) 0 = true) by (apply Qle_bool_iff; lra). rewrite E3.
        destruct (arch (qfloor (b_val ub) - b_val lb)) as (n & Hn). exists (S n). intros fuel w Hf Hw.
        cbn [assertb bind].
        destruct (within_ok (fun v => Qle_bool (b_val lb) v) (-1)%Q) with (n := n) (fuel := fuel) (w := w)
          (v := qfloor (b_val ub)) as (w' & o & A & B & C); [|exact Hw|lia| |].
        -- intros a b E. apply eq_true_iff_eq. rewrite !Qle_bool_iff. rewrite E. reflexivity.
        -- apply not_true_iff_false. rewrite Qle_bool_iff. lra.
        -- exists w', o. split; [exact A|]. split; [exact B|]. split; [exact C|]. intros _. eauto.
      * assert (~ (0 <= b_val lb)%Q) by (rewrite <- Qle_bool_iff; congruence).
        assert (~ (b_val ub <= 0)%Q) by (rewrite <- Qle_bool_iff; congruence).
        assert (E3 : Qle_bool (b_val lb) 0 = true) by (apply Qle_bool_iff; lra). rewrite E3.
        assert (E4 : Qle_bool 0 (b_val ub) = true) by (apply Qle_bool_iff; lra). rewrite E4.
        set (len := if qltb (- b_val lb) (b_val ub) then b_val ub else (- b_val lb)%Q).
        destruct (arch len) as (n & Hn). exists (S n). intros fuel w Hf Hw. cbn [assertb bind].
        destruct (around_ok len n fuel w 0%Q) as (w' & o & A & B & C); [exact Hw|lia|lra|].
        exists w', o. split; [exact A|]. split; [exact B|]. split; [exact C|]. intros _. eauto.
  - set (c := qceil (b_val lb)). set (c0 := if qltb c 0 then (- c)%Q else c).
    assert (C0 : (b_val lb <= c0)%Q).
    { assert (H := ceil_ge (b_val lb)). fold c in H. unfold c0. destruct (qltb c 0) eqn:E; [|exact H].
      apply qltb_lt in E. lra. }
    destruct (avoid (fun i => (c0 + nq (S i) * 1)%Q)) as (i & Hi).
    { intros i j E. assert (nq (S i) == nq (S j))%Q by lra. apply nq_inj in H. lia. }
    destruct (arch (- c)) as (n & Hn). exists (S n + S (S i)). intros fuel w Hf Hw. cbn zeta. fold c. fold c0.
    destruct (around_ok (- c)%Q n fuel w 0%Q) as (w3 & o & A & B & C); [exact Hw|lia|lra|].
    rewrite A. cbn [bind]. destruct o as [q|].
    { exists w3, (Some q). split; [reflexivity|]. split; [exact B|]. split; [exact C|discriminate]. }
    destruct (walk_ok 1%Q (S i) fuel w3 c0) as (w4 & q & A1 & B1 & C1); [exact B|lia| |].
    { split; [|split; [rewrite EU; discriminate|exact Hi]].
      intros b Hb. assert (b = lb) by congruence. subst b. unfold above.
      assert (N0 := nq_nonneg i). assert (N1 := nq_S i). destruct (b_strict lb); lra. }
    rewrite A1. cbn [bind]. exists w4, (Some q). split; [reflexivity|]. split; [exact B1|].
    split; [|discriminate]. intros q' E. injection E as <-. exact C1.
  - set (f := qfloor (b_val ub)). set (f0 := if qltb 0 f then (- f)%Q else f).
    assert (F0 : (f0 <= b_val ub)%Q).
    { assert (H := floor_le (b_val ub)). fold f in H. unfold f0. destruct (qltb 0 f) eqn:E; [|exact H].
      apply qltb_lt in E. lra. }
    destruct (avoid (fun i => (f0 + nq (S i) * (-1))%Q)) as (i & Hi).
    { intros i j E. assert (nq (S i) == nq (S j))%Q by lra. apply nq_inj in H. lia. }
    destruct (arch f) as (n & Hn). exists (S n + S (S i)). intros fuel w Hf Hw. cbn zeta. fold f. fold f0.
    destruct (around_ok f n fuel w 0%Q) as (w3 & o & A & B & C); [exact Hw|lia|lra|].
    rewrite A. cbn [bind]. destruct o as [q|].
    { exists w3, (Some q). split; [reflexivity|]. split; [exact B|]. split; [exact C|discriminate]. }
    destruct (walk_ok (-1)%Q (S i) fuel w3 f0) as (w4 & q & A1 & B1 & C1); [exact B|lia| |].
    { split; [rewrite EL; discriminate|]. split; [|exact Hi].
      intros b Hb. assert (b = ub) by congruence. subst b. unfold below.
      assert (N0 := nq_nonneg i). assert (N1 := nq_S i). destruct (b_strict ub); lra. }
    rewrite A1. cbn [bind]. exists w4, (Some q). split; [reflexivity|]. split; [exact B1|].
    split; [|discriminate]. intros q' E. injection E as <-. exact C1.
  - destruct (avoid nq) as (i & Hi); [exact nq_inj|].
    exists (S i). intros fuel w Hf Hw.
    destruct (all_ok i fuel w 0%Q) as (w' & q & A & B & C); [exact Hw|lia| |].
    { split; [rewrite EL; discriminate|]. split; [rewrite EU; discriminate|].
      intros b Hb. specialize (Hi b Hb). unfold differs in *. lra. }
    rewrite A. cbn [bind]. exists w', (Some q). split; [reflexivity|]. split; [exact B|].
    split; [|discriminate]. intros q' E. injection E as <-. exact C.
Qed.

Lemma pick_ok cached : (exists v, allowed V v) ->
  exists n, forall fuel w, n <= fuel -> ok w ->
  exists w' v, pick_value fuel s t w cached = Ok (w', v) /\ ok w' /\ allowed V v.
Proof.
  intros HA. destruct (find_integer_ok HA) as (n & FI). destruct HA as (v0 & AL & AU & AD).
  assert (M : exists m, forall lb ub, hd_error (fst (fst V)) = Some lb -> hd_error (snd (fst V)) = Some ub ->
                exists i, i < m /\ allowed V (mid (b_val lb) (b_val ub) i)).
  { destruct (hd_error (fst (fst V))) as [lb|] eqn:EL; [|exists 0; discriminate].
    destruct (hd_error (snd (fst V))) as [ub|] eqn:EU; [|exists 0; discriminate].
    specialize (AL _ eq_refl). specialize (AU _ eq_refl).
    destruct (Qlt_le_dec (b_val lb) (b_val ub)) as [L|L].
    - destruct (avoid (fun i => mid (b_val lb) (b_val ub) (S i))) as (i & Hi).
      { intros i j E. apply mid_inj in E; [lia|exact L]. }
      exists (S (S i)). intros lb' ub' E1 E2. injection E1 as <-. injection E2 as <-.
      exists (S i). split; [lia|]. destruct (mid_range (b_val lb) (S i) (b_val ub) L) as (R1 & R2 & R3).
      split; [|split; [|exact Hi]].
      + intros b Hb. assert (b = lb) by congruence. subst b. unfold above. destruct (b_strict lb); lra.
      + intros b Hb. assert (b = ub) by congruence. subst b. unfold below.
        assert (R4 := R3 (Nat.neq_succ_0 i)). destruct (b_strict ub); lra.
    - exists 1. intros lb' ub' E1 E2. injection E1 as <-. injection E2 as <-. exists 0. split; [lia|].
      cbn [mid].
      assert (E : (v0 == b_val ub)%Q).
      { unfold above, below in *. destruct (b_strict lb), (b_strict ub); lra. }
      eapply allowed_morph; [exact E|]. split; [|split; [|exact AD]].
      + intros b Hb. assert (b = lb) by congruence. subst b. exact AL.
      + intros b Hb. assert (b = ub) by congruence. subst b. exact AU. }
  destruct M as (m & M). exists (n + m). intros fuel w Hf Hw. unfold pick_value.
  destruct (is_allowed s t w _) as [w1 b] eqn:E. apply is_allowed_spec in E. rewrite Hw in E.
  destruct E as [E1 E2]. destruct b.
  { eexists w1, _. split; [reflexivity|]. split; [exact E1|now apply E2]. }
  destruct (FI fuel w1) as (w2 & o & A & B & C & D); [lia|exact E1|]. rewrite A. cbn [bind].
  destruct o as [q|].
  { exists w2, q. split; [reflexivity|]. split; [exact B|now apply C]. }
  destruct (D eq_refl) as (lb & ub & EL & EU). destruct (M _ _ EL EU) as (i & Hi & Ha).
  assert (X1 := lower_view s t w2). assert (X2 := view_lower s t w2). rewrite B in X1, X2.
  destruct (lower_bound s t w2) as [w3 lo]. cbn [fst snd] in X1, X2. subst lo.
  assert (X1 := upper_view s t w3). assert (X3 := view_upper s t w3). rewrite X2 in X1, X3.
  destruct (upper_bound s t w3) as [w4 up]. cbn [fst snd] in X1, X3. subst up.
  rewrite EL, EU. cbn [value_of bind].
  destruct (halve_ok (b_val lb) i fuel w4 (b_val ub)) as (w5 & q & A1 & B1 & C1); [exact X3|lia|exact Ha|].
  exists w5, q. auto.
Qed.
End Search.

Lemma decide_ok a t x : vb_history (bd_of (l_bd a) x) ->
  (exists v, permitted (l_st a) t (bd_of (l_bd a) x) v) ->
  exists n, forall fuel, n <= fuel -> exists a' q,
    lra_decide fuel a t (VRat x) =
      Ok (a', trail_decide (with_qm t (set_value (t_qm t) x q)) (VRat x)) /\
    permitted (l_st a) t (bd_of (l_bd a) x) q /\ l_cache a' x = Some q.
Proof.
  intros HH (v & Hv). apply (permitted_allowed _ _ _ _ HH) in Hv.
  destruct (pick_ok (l_st a) t (view (l_st a) t (bd_of (l_bd a) x)) (l_cache a x) (ex_intro _ v Hv)) as (n & P).
  exists n. intros fuel Hf. destruct (P fuel (bd_of (l_bd a) x) Hf eq_refl) as (w & q & A & B & C).
  unfold lra_decide. rewrite A. cbn [bind l_st with_cache with_bd].
  destruct (is_allowed (l_st a) t w q) as [w1 b] eqn:E. apply is_allowed_spec in E. rewrite B in E.
  destruct E as [E1 E2]. assert (b = true) by now apply E2. subst b. cbn [assertb bind].
  eexists _, q. split; [reflexivity|]. split; [now apply (permitted_allowed _ _ _ _ HH)|].
  cbn [l_cache with_bd with_cache]. apply upd_eq.
Qed.

(** ** constraints implied by bounds *)
Lemma bd_set_same B x w y : bd_of (bd_set B x w) y = if y =? x then w else bd_of B y.
Proof. reflexivity. Qed.

Definition same_views (s : store) (t : trail) (B B' : bnds) : Prop :=
  forall x, view s t (bd_of B' x) = view s t (bd_of B x).
Lemma same_views_set s t B x w : view s t w = view s t (bd_of B x) -> same_views s t B (bd_set B x w).
Proof. intros H y. rewrite bd_set_same. destruct (Nat.eqb_spec y x) as [->|N]; auto. Qed.
Lemma within_views s t B B' r : same_views s t B B' -> within s t B r -> within s t B' r.
Proof.
  intros HV (A & L & U). split; [exact A|]. split; intros x b.
  - rewrite lower_view, HV, <- lower_view. apply L.
  - rewrite upper_view, HV, <- upper_view. apply U.
Qed.

Lemma implied_loop_ok s t c r : forall ts B a B' z, within s t B r ->
  implied_loop s t c ts B a = (B', Some z) ->
  (if lneg (lc_lit c) then (a - lin r ts <= z)%Q else (z <= a - lin r ts)%Q).
Proof.
  induction ts as [|[v k] ts IH]; intros B a B' z HW; cbn [implied_loop lin].
  - intros H. injection H as _ <-. destruct (lneg (lc_lit c)); lra.
  - destruct (mdef (t_qm t) v) eqn:D.
    + intros H. apply (IH _ _ _ _ HW) in H. destruct HW as (A & _). specialize (A v D).
      destruct (lneg (lc_lit c)); rewrite A; lra.
    + destruct (same_dir c k) eqn:S.
      * destruct (upper_bound s t (bd_of B v)) as [w o] eqn:E.
        destruct o as [b|]; [|discriminate]. intros H.
        assert (SV : same_views s t B (bd_set B v w)).
        { apply same_views_set. rewrite <- (view_upper s t (bd_of B v)), E. reflexivity. }
        apply (IH _ _ _ _ (within_views _ _ _ _ _ SV HW)) in H.
        destruct HW as (_ & _ & U). specialize (U v b). rewrite E in U. specialize (U eq_refl).
        unfold same_dir in S. destruct (lneg (lc_lit c)); cbn [negb andb orb] in S.
        -- apply qltb_lt in S. nra.
        -- rewrite orb_false_r in S. apply qltb_lt in S. nra.
      * destruct (lower_bound s t (bd_of B v)) as [w o] eqn:E.
        destruct o as [b|]; [|discriminate]. intros H.
        assert (SV : same_views s t B (bd_set B v w)).
        { apply same_views_set. rewrite <- (view_lower s t (bd_of B v)), E. reflexivity. }
        apply (IH _ _ _ _ (within_views _ _ _ _ _ SV HW)) in H.
        destruct HW as (_ & L & _). specialize (L v b). rewrite E in L. specialize (L eq_refl).
        unfold same_dir in S. destruct (lneg (lc_lit c)); cbn [negb andb orb] in S.
        -- apply qltb_ge in S. nra.
        -- rewrite orb_false_r in S. apply qltb_ge in S. nra.
Qed.

Lemma is_implied_ok s t c B r : lc_pred c <> PEq -> within s t B r ->
  (is_true (eval_lit (t_bm t) (lc_lit c)) = true -> lc_holds s r c) ->
  snd (is_implied s t c B) = true -> lc_holds s r c.
Proof.
  intros HP HW HT. unfold is_implied. destruct (eval_lit (t_bm t) (lc_lit c)) as [b|] eqn:E.
  - simpl. intros ->. apply HT. reflexivity.
  - destruct (implied_loop s t c (lc_terms s c) B (lc_rhs c)) as [B' o] eqn:L.
    destruct o as [z|]; [|discriminate]. cbn [snd]. intros H.
    apply (implied_loop_ok _ _ _ r) in L; [|exact HW]. unfold lc_holds.
    destruct (lneg (lc_lit c)).
    + apply negb_true_iff in H. intros A.
      assert (~ rel (lc_pred c) 0 z) by (rewrite <- pred_eval_rel; congruence).
      destruct (lc_pred c); cbn [rel] in *; [congruence| |]; lra.
    + apply pred_eval_rel in H. destruct (lc_pred c); cbn [rel] in *; [congruence| |]; lra.
Qed.
