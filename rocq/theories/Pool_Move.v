(** Constructors, moves and destructors. *)
From Coq Require Import ZArith QArith Bool List Arith Lia.
From Verif Require Import Base Rational_Model Spec_Rational Rational_Proofs Pool_Model Pool_Inv Pool_Proofs.
Import ListNotations.
Local Open Scope nat_scope.

(** the cells change hands *)
Lemma inv_own m m' (s : nat -> nat) : minv m -> size m' = size m -> free m' = free m ->
  (forall k o, objs m' k = Some o -> (exists k0, objs m k0 = Some o) \/ o_ma o = false /\ o_mv o = false) ->
  (forall k b, own m' k b -> own m (s k) b) -> (forall k l b, own m' k b -> own m' l b -> s k = s l -> k = l) ->
  (forall k b, own m k b -> exists l, own m' l b) -> minv m'.
Proof.
  intros I SZ FR OB OW INJ BACK. constructor.
  - intros k o E M. rewrite SZ. destruct (OB k o E) as [[k0 E0]|[X _]]; [exact (i_ptr _ I k0 o E0 M)|congruence].
  - intros k o E M. destruct (OB k o E) as [[k0 E0]|[_ X]]; [exact (i_bit _ I k0 o E0 M)|congruence].
  - intros k l b X Y. apply (INJ k l b X Y). exact (i_one _ I _ _ b (OW _ _ X) (OW _ _ Y)).
  - intros k b X. rewrite FR. exact (i_used _ I _ b (OW _ _ X)).
  - rewrite FR. apply I.
  - rewrite FR, SZ. apply I.
  - rewrite FR, SZ. intros a A. destruct (i_leak _ I a A) as [F|[k K]]; auto. right. eauto.
Qed.

Lemma move_sim m i j x : minv m -> look m i = None -> look m j = Some x ->
  exists m', c_move m i j = Ok m' /\ minv m' /\ look m' i = Some x /\ look m' j = Some (snd (lf_move x)) /\ keeps m m' [i; j].
Proof.
  intros I LI LJ. assert (N : j <> i) by congruence. destruct (new_ok m i I LI) as (m1 & H1 & I1 & L1 & K1). unfold c_move. rewrite H1. cbn [bind].
  rewrite <- K1 in LJ by auto. destruct (look_get m1 j x LJ) as (o & E & G & ->). rewrite G. cbn [bind]. unfold lf_move. cbn [ma view].
  destruct (look_get m1 i _ L1) as (oi & EI & GI & VI). assert (MI : o_ma oi = false) by (injection VI; auto).
  destruct (o_ma o) eqn:MA.
  - eexists. split; [reflexivity|]. set (oj := mkO true false false _ _ None). set (m' := h_put _ _ _).
    assert (OI : objs m' i = Some o) by (unfold m'; cbn [objs h_put]; rewrite setf_ne by auto; apply setf_eq).
    assert (OJ : objs m' j = Some oj) by (unfold m'; cbn [objs h_put]; apply setf_eq).
    assert (OK : forall k, k <> i -> k <> j -> objs m' k = objs m1 k) by (intros k A B; unfold m'; cbn [objs h_put]; now rewrite !setf_ne by auto).
    split.
    { apply (inv_own m1 m' (fun k => if k =? i then j else k)); auto.
      - intros k q Q. destruct (Nat.eq_dec k j) as [->|NJ]; [right; rewrite OJ in Q; injection Q as <-; auto|]. left.
        destruct (Nat.eq_dec k i) as [->|NI]; [exists j; congruence|]. exists k. rewrite <- OK; auto.
      - intros k b (q & Q1 & Q2 & Q3). destruct (Nat.eqb_spec k i) as [->|NI]; [exists o; split; auto; split; auto; congruence|].
        destruct (Nat.eq_dec k j) as [->|NJ]; [rewrite OJ in Q1; injection Q1 as <-; discriminate|]. exists q. rewrite <- OK; auto.
      - intros k l b (q & Q1 & Q2 & Q3) (r & R1 & R2 & R3).
        assert (k <> j) by (intros ->; rewrite OJ in Q1; injection Q1 as <-; discriminate). assert (l <> j) by (intros ->; rewrite OJ in R1; injection R1 as <-; discriminate).
        destruct (Nat.eqb_spec k i), (Nat.eqb_spec l i); intros X; congruence.
      - intros k b (q & Q1 & Q2 & Q3). destruct (Nat.eq_dec k j) as [->|NJ]; [exists i, o; assert (q = o) by congruence; subst; auto|].
        destruct (Nat.eq_dec k i) as [->|NI]; [congruence|]. exists k, q. rewrite OK; auto. }
    split; [unfold look; rewrite OI; reflexivity|]. split; [unfold look; rewrite OJ; reflexivity|].
    intros k Q. cbn in Q. rewrite <- K1 by (intros ->; tauto). unfold look. rewrite OK by (intros ->; tauto). reflexivity.
  - assert (MV : o_mv o = false) by (destruct (o_mv o) eqn:X; auto; rewrite (i_bit _ I1 j o E X) in MA; discriminate).
    destruct (put_same m1 i oi (mkO (o_wv o) (o_ma o) (o_mv o) (o_num o) (o_den o) None) I1 EI) as (J1 & J2 & J3); cbn [o_ma o_mv o_ptr]; try congruence.
    rewrite MA in *. eexists. split; [reflexivity|]. split; [exact J1|]. split; [rewrite J2; cbn [o_wv o_ma o_mv o_num o_den mq view]; unfold view; rewrite MI, MA, MV; reflexivity|].
    split; [rewrite J3 by auto; exact LJ|]. intros k Q. cbn in Q. rewrite J3, K1; auto.
Qed.
Lemma swap_sim m i j x y : minv m -> look m i = Some x -> look m j = Some y ->
  exists m', c_moveassign m i j = Ok m' /\ minv m' /\ look m' i = Some y /\ look m' j = Some x /\ keeps m m' [i; j].
Proof.
  intros I LI LJ. destruct (look_get m i x LI) as (a & EA & GA & ->). destruct (look_get m j y LJ) as (b & EB & GB & ->). unfold c_moveassign. rewrite GA, GB. cbn [bind].
  eexists. split; [reflexivity|]. set (m' := h_put _ _ _). set (s := fun k => if k =? j then i else if k =? i then j else k).
  assert (OB : forall k, objs m' k = objs m (s k)).
  { intros k. unfold m', s. cbn [objs h_put]. unfold setf. destruct (Nat.eqb_spec k j); [congruence|]. destruct (Nat.eqb_spec k i); congruence. }
  assert (SS : forall k, s (s k) = k). { intros k. unfold s. destruct (Nat.eqb_spec k j), (Nat.eqb_spec k i); subst; rewrite ?Nat.eqb_refl; auto.
    - destruct (Nat.eqb_spec i j); congruence. - destruct (Nat.eqb_spec k j); destruct (Nat.eqb_spec k i); congruence. }
  assert (LO : forall k, look m' k = look m (s k)) by (intros k; unfold look; rewrite OB; reflexivity).
  split.
  { apply (inv_own m m' s); auto.
    - intros k o E. left. exists (s k). now rewrite <- OB.
    - intros k c (o & O1 & O2 & O3). exists o. now rewrite <- OB.
    - intros k l c _ _ E. rewrite <- (SS k), <- (SS l). congruence.
    - intros k c (o & O1 & O2 & O3). exists (s k), o. now rewrite OB, SS. }
  rewrite !LO. unfold s. rewrite !Nat.eqb_refl. split; [|split; auto].
  - destruct (Nat.eqb_spec i j); [congruence|]. exact LJ.
  - intros k Q. cbn in Q. rewrite LO. unfold s. destruct (Nat.eqb_spec k j); [subst; tauto|]. destruct (Nat.eqb_spec k i); [subst; tauto|]. reflexivity.
Qed.
Lemma destroy_sim m i x : minv m -> look m i = Some x -> exists m', c_destroy m i = Ok m' /\ minv m' /\ look m' i = None /\ forall k, k <> i -> look m' k = look m k.
Proof.
  intros I LI. destruct (kill_ok m i x I LI) as (m1 & y & H1 & I1 & L1 & MY & _ & _ & _ & _ & K1). unfold c_destroy. rewrite H1. cbn [bind]. eexists. split; [reflexivity|].
  set (m' := mkM _ _ _ _). destruct (look_get m1 i y L1) as (o & E & G & ->). cbn in MY.
  assert (OI : objs m' i = None) by (unfold m'; cbn [objs]; apply setf_eq). assert (OK : forall k, k <> i -> objs m' k = objs m1 k) by (intros k A; unfold m'; cbn [objs]; now rewrite setf_ne).
  assert (NE : forall k c, own m1 k c -> k <> i) by (intros k c (q & Q1 & Q2 & Q3) ->; congruence).
  split.
  { apply (inv_own m1 m' (fun k => k)); auto.
    - intros k q Q. left. exists k. rewrite <- OK; auto. intros ->. congruence.
    - intros k c (q & Q1 & Q2 & Q3). exists q. rewrite <- OK; auto. intros ->. congruence.
    - intros k c Q. exists k. destruct Q as (q & Q1 & Q2 & Q3). exists q. rewrite OK; auto. apply (NE k c). exists q. auto. }
  split; [unfold look; now rewrite OI|]. intros k Q. rewrite <- K1 by auto. unfold look. rewrite OK by auto. reflexivity.
Qed.
Lemma reset_sim m i x : minv m -> look m i = Some x -> exists m' y, c_reset m i = Ok m' /\ minv m' /\ look m' i = Some y /\ wv y = true /\ mv y = false /\ num y = 0%Z /\ den y = 1%Z /\ forall k, k <> i -> look m' k = look m k.
Proof.
  intros I LI. destruct (kill_ok m i x I LI) as (m1 & y & H1 & I1 & L1 & _ & _ & _ & _ & _ & K1). unfold c_reset. rewrite H1. cbn [bind].
  destruct (word_ok m1 i y 0 1 I1 L1) as (m2 & H2 & I2 & L2 & K2). exists m2, (set_word y 0 1). split; [exact H2|]. cbn. conj. intros k N. rewrite K2, K1; auto.
Qed.
Lemma nword_sim m i n : minv m -> look m i = None -> exists m', c_word m i n = Ok m' /\ minv m' /\ look m' i = Some (lf_word n) /\ forall k, k <> i -> look m' k = look m k.
Proof.
  intros I LI. destruct (new_ok m i I LI) as (m1 & H1 & I1 & L1 & K1). unfold c_word. rewrite H1. cbn [bind].
  destruct (word_ok m1 i _ n 1 I1 L1) as (m2 & H2 & I2 & L2 & K2). exists m2. conj. intros k N. rewrite K2, K1; auto.
Qed.
Lemma nuint_sim m i n : minv m -> look m i = None -> exists m', c_uint m i n = Ok m' /\ minv m' /\ look m' i = Some (lf_uint n) /\ forall k, k <> i -> look m' k = look m k.
Proof.
  intros I LI. destruct (new_ok m i I LI) as (m1 & H1 & I1 & L1 & K1). unfold c_uint. rewrite H1. cbn [bind]. unfold lf_uint. destruct (_ <? _)%Z.
  - destruct (mem_ok m1 i _ I1 L1) as (m2 & u & H2 & I2 & L2 & U0 & U1 & U2 & U3 & U4 & U5 & K2). rewrite H2. cbn [bind].
    destruct (store_ok m2 i u (n, 1%Z) I2 L2 U2) as (m3 & H3 & I3 & L3 & K3). exists m3. conj; [rewrite L3, U4, U5; reflexivity|]. intros k N. rewrite K3, K2, K1; auto.
  - destruct (word_ok m1 i _ n 1 I1 L1) as (m2 & H2 & I2 & L2 & K2). exists m2. conj. intros k N. rewrite K2, K1; auto.
Qed.
(** equal up to the GMP part if that is not valid *)
Definition alike (x y : lf) : Prop := wv x = wv y /\ mv x = mv y /\ num x = num y /\ den x = den y /\ (mv x = true -> mq x = mq y /\ ma x = ma y).
Lemma alike_wf x y : alike x y -> assert_wf x = assert_wf y.
Proof.
  intros (H1 & H2 & H3 & H4 & H5). destruct x as [w a v n d q], y as [w' a' v' n' d' q']. cbn in *. subst. unfold assert_wf, isWellFormed, fitsWord, wordAndMpqEqual. cbn.
  destruct v'; [destruct H5 as [-> ->]; auto|]. destruct w'; reflexivity.
Qed.
Lemma str_sim m i n d r : minv m -> look m i = None -> lf_str n d = Ok r -> exists m' r', c_str m i n d = Ok m' /\ minv m' /\ look m' i = Some r' /\ alike r' r /\ forall k, k <> i -> look m' k = look m k.
Proof.
  intros I LI H. unfold lf_str in H. unfold c_str. destruct (d =? 0)%Z; [discriminate|]. destruct (try_fit_word _) as [z| |] eqn:F; try discriminate. cbn [bind] in H.
  destruct (new_ok m i I LI) as (m1 & H1 & I1 & L1 & K1). rewrite H1. cbn [bind].
  destruct (mem_ok m1 i _ I1 L1) as (m2 & u & H2 & I2 & L2 & U0 & U1 & U2 & U3 & U4 & U5 & K2). rewrite H2. cbn [bind].
  destruct (store_ok m2 i u (mpq_canon n d) I2 L2 U2) as (m3 & H3 & I3 & L3 & K3). rewrite H3. cbn [bind]. rewrite U4, U5 in L3.
  destruct (fit_ok m3 i _ z I3 L3 F) as (m4 & H4 & I4 & L4 & K4). rewrite H4. cbn [bind]. destruct (look_get m4 i z L4) as (o & E & G & ->). rewrite G. cbn [bind]. cbn [wv view] in H.
  assert (KK : forall k, k <> i -> look m4 k = look m k) by (intros k N; rewrite K4, K3, K2, K1; auto).
  destruct (o_wv o) eqn:W.
  - destruct (kill_ok m4 i _ I4 L4) as (m5 & y & H5 & I5 & L5 & Y1 & Y2 & Y3 & Y4 & Y5 & K5). rewrite H5. cbn [bind]. rewrite (assert_at _ _ _ L5).
    match type of H with context [assert_wf ?t] => assert (A : alike y t) end.
    { split; [cbn; rewrite Y5; cbn; rewrite W; now destruct (o_ma o)|]. cbn. repeat split; auto; congruence. }
    rewrite (alike_wf _ _ A). destruct (assert_wf _) as [[]| |]; try discriminate. cbn [bind] in H |- *. injection H as <-. exists m5, y. conj. intros k N. rewrite K5; auto.
  - cbn [bind]. rewrite (assert_at _ _ _ L4). destruct (assert_wf _) as [[]| |]; try discriminate. cbn [bind] in H |- *. injection H as <-. exists m4, (view m4 o). conj. repeat split.
Qed.
Lemma mpz_sim m i z : minv m -> look m i = None -> exists m', c_mpz m i z = Ok m' /\ minv m' /\ look m' i = Some (lf_mpz z) /\ forall k, k <> i -> look m' k = look m k.
Proof.
  intros I LI. destruct (new_ok m i I LI) as (m1 & H1 & I1 & L1 & K1). unfold c_mpz. rewrite H1. cbn [bind]. unfold lf_mpz. destruct (mpz_fits_sint z).
  - destruct (word_ok m1 i _ z 1 I1 L1) as (m2 & H2 & I2 & L2 & K2). exists m2. conj. intros k N. rewrite K2, K1; auto.
  - destruct (mem_ok m1 i _ I1 L1) as (m2 & u & H2 & I2 & L2 & U0 & U1 & U2 & U3 & U4 & U5 & K2). rewrite H2. cbn [bind].
    destruct (store_ok m2 i u (z, 1%Z) I2 L2 U2) as (m3 & H3 & I3 & L3 & K3). exists m3. conj; [rewrite L3, U4, U5; reflexivity|]. intros k N. rewrite K3, K2, K1; auto.
Qed.
Lemma ceil_sim m i j x d : minv m -> look m i = None -> look m j = Some x -> (wv x = false -> mv x = true) -> lf_ceil x = Ok d ->
  exists m', c_ceil m i j = Ok m' /\ minv m' /\ look m' i = Some d /\ forall k, k <> i -> look m' k = look m k.
Proof.
  intros I LI LJ MV H. unfold lf_ceil in H. unfold c_ceil. rewrite (look_h m j x LJ). cbn [bind]. destruct (lf_isInteger x) as [b| |]; try discriminate. cbn [bind] in H |- *.
  destruct b; [exact (copy_sim m i j x d I LI LJ H)|]. destruct (wv x).
  - destruct (udiv _ _) as [q| |]; try discriminate. cbn [bind] in H |- *. injection H as <-. apply nword_sim; auto.
  - injection H as <-. rewrite (look_read m j x I LJ (look_mv m j x I LJ (MV eq_refl))). cbn [bind]. apply mpz_sim; auto.
Qed.
Lemma inverse_sim m i j x d x' : minv m -> look m i = None -> look m j = Some x -> lf_inverse x = Ok (d, x') ->
  exists m', c_inverse m i j = Ok m' /\ minv m' /\ look m' i = Some d /\ look m' j = Some x' /\ keeps m m' [i; j].
Proof.
  intros I LI LJ H. assert (N : i <> j) by congruence. unfold c_inverse. destruct (new_ok m i I LI) as (m1 & H1 & I1 & L1 & K1). rewrite H1. cbn [bind].
  assert (LJ1 : look m1 j = Some x) by (rewrite K1; auto). rewrite (look_h m1 j x LJ1). cbn [bind]. unfold lf_inverse in H.
  cbv zeta in H. match type of H with context [bind (ensure_mpq x) ?f] => set (ov := bind (ensure_mpq x) f) in H end.
  match goal with |- context [bind (h_ensure m1 j) ?f] => set (OV := bind (h_ensure m1 j) f) end.
  assert (O : ov = Ok (d, x') -> exists m', OV = Ok m' /\ minv m' /\ look m' i = Some d /\ look m' j = Some x' /\ keeps m m' [i; j]).
  { clear H. unfold ov, OV. intros H. destruct (ensure_mpq x) as [x1| |] eqn:EX; try discriminate. cbn [bind] in H.
    destruct (mpq_inv (mq x1)) as [v| |] eqn:V; try discriminate. cbn [bind] in H.
    destruct (try_fit_word _) as [z| |] eqn:F; try discriminate. cbn [bind] in H. destruct (assert_wf z) as [[]| |] eqn:A; try discriminate. cbn [bind] in H. injection H as <- <-.
    destruct (ensure_ok m1 j x x1 I1 LJ1 EX) as (m2 & H2 & I2 & L2 & K2). rewrite H2. cbn [bind]. rewrite <- K2 in L1 by auto.
    destruct (mem_ok m2 i _ I2 L1) as (m3 & u & H3 & I3 & L3 & U0 & U1 & U2 & U3 & U4 & U5 & K3). rewrite H3. cbn [bind].
    assert (LJ3 : look m3 j = Some x1) by (rewrite K3 by auto; exact L2).
    assert (AX : ma x1 = true) by (apply (ensure_facts _ _ EX); apply (look_mv m j x I LJ)).
    rewrite (look_read m3 j x1 I3 LJ3 AX). cbn [bind]. rewrite V. cbn [bind].
    destruct (store_ok m3 i u v I3 L3 U2) as (m4 & H4 & I4 & L4 & K4). rewrite H4. cbn [bind].
    rewrite U4, U5 in L4. destruct (fit_ok m4 i _ z I4 L4 F) as (m5 & H5 & I5 & L5 & K5). rewrite H5. cbn [bind]. rewrite (assert_at _ _ _ L5), A. cbn [bind].
    exists m5. conj.
    + rewrite K5, K4 by auto. exact LJ3.
    + intros q Q. cbn in Q. rewrite K5, K4, K3, K2, K1; auto. }
  clearbody ov OV. destruct (wv x); [|exact (O H)]. destruct (assertb _) as [[]| |]; try discriminate. cbn [bind] in H |- *.
  match type of H with (r <- ?t ;; _) = _ => destruct t as [[[zn zd]|]| |] end; try discriminate; cbn [bind] in H |- *; [|exact (O H)].
  injection H as <- <-. destruct (word_ok m1 i _ zn zd I1 L1) as (m2 & H2 & I2 & L2 & K2). exists m2. conj.
  - rewrite K2; auto.
  - intros q Q. cbn in Q. rewrite K2, K1; auto.
Qed.
Lemma floor_sim m i j t u x d : minv m -> look m i = None -> look m t = None -> look m u = None -> i <> t -> i <> u -> t <> u -> look m j = Some x ->
  (wv x = false -> mv x = true) -> lf_floor x = Ok d ->
  exists m', c_floor m i j t u = Ok m' /\ minv m' /\ look m' i = Some d /\ forall k, k <> i -> look m' k = look m k.
Proof.
  intros I LI LT LU N1 N2 N3 LJ MV H. unfold lf_floor in H. unfold c_floor. rewrite (look_h m j x LJ). cbn [bind].
  destruct (lf_isInteger x) as [b| |]; try discriminate. cbn [bind] in H |- *. destruct b; [exact (copy_sim m i j x d I LI LJ H)|].
  destruct (lf_ceil x) as [c| |] eqn:C; try discriminate. cbn [bind] in H. destruct (lf_sub c (lf_word 1)) as [[[r c'] o']| |] eqn:S; try discriminate. cbn [bind fst] in H. injection H as <-.
  destruct (ceil_sim m t j x c I LT LJ MV C) as (m1 & H1 & I1 & L1 & K1). rewrite H1. cbn [bind].
  assert (LU1 : look m1 u = None) by (rewrite K1; auto). destruct (nword_sim m1 u 1 I1 LU1) as (m2 & H2 & I2 & L2 & K2). rewrite H2. cbn [bind].
  assert (LI2 : look m2 i = None) by (rewrite K2, K1; auto). assert (LT2 : look m2 t = Some c) by (rewrite K2; auto).
  destruct (op_sim Sub m2 i t u c (lf_word 1) r c' o' I2 LI2 LT2 L2 S) as (m3 & H3 & I3 & L3 & LT3 & LU3 & K3). rewrite H3. cbn [bind].
  destruct (destroy_sim m3 u o' I3 LU3) as (m4 & H4 & I4 & L4 & K4). rewrite H4. cbn [bind].
  assert (LT4 : look m4 t = Some c') by (rewrite K4; auto). destruct (destroy_sim m4 t c' I4 LT4) as (m5 & H5 & I5 & L5 & K5).
  exists m5. split; [exact H5|]. split; [exact I5|]. split; [rewrite K5, K4; auto|]. intros k N.
  destruct (Nat.eq_dec k t) as [->|NT]; [congruence|]. rewrite K5 by auto. destruct (Nat.eq_dec k u) as [->|NU]; [congruence|]. rewrite K4 by auto.
  rewrite K3 by (cbn; intros [<-|[<-|[<-|[]]]]; congruence). rewrite K2, K1; auto.
Qed.
