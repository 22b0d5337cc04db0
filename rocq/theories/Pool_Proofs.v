(** Every operation on the memory does to the objects it names what Rational_Model.v says, and nothing to the others. *)
From Coq Require Import ZArith QArith Bool List Arith Lia.
From Verif Require Import Base Rational_Model Spec_Rational Rational_Proofs Pool_Model Pool_Inv.
Import ListNotations.
Local Open Scope nat_scope.
Ltac conj := repeat match goal with |- _ /\ _ => split end; auto using keeps_refl.

(** ** Facts about Rational_Model *)
Lemma ensure_facts x y : ensure_mpq x = Ok y -> num y = num x /\ den y = den x /\ wv y = wv x /\ mv y = true /\ ((mv x = true -> ma x = true) -> ma y = true).
Proof.
  unfold ensure_mpq. destruct (mv x) eqn:M; [intros H; injection H as <-; conj|].
  destruct (wv x) eqn:W; [|discriminate]. cbn [assertb bind]. intros H. injection H as <-. conj.
Qed.
Lemma ensure_again x y : ensure_mpq x = Ok y -> ensure_mpq y = Ok y.
Proof. intros H. destruct (ensure_facts x y H) as (_ & _ & _ & M & _). unfold ensure_mpq. now rewrite M. Qed.
Definition stale (d k : lf) : Prop := wv d = false -> num d = num k /\ den d = den k.
Lemma fit_stale x y : try_fit_word x = Ok y -> stale y x.
Proof.
  unfold try_fit_word, fitsWord, stale. destruct (assertb _); cbn [bind]; try discriminate. destruct (fits_mpq _); intros H; injection H as <-; auto. discriminate.
Qed.
Lemma slow_stale op k a b d a' b' : slow op k a b = Ok (d, a', b') -> stale d k /\ ensure_mpq a = Ok a' /\ ensure_mpq b = Ok b'.
Proof.
  unfold slow. destruct (ensure_mpq a) as [x| |]; try discriminate. cbn [bind]. destruct (ensure_mpq b) as [y| |]; try discriminate. cbn [bind].
  destruct (op _ _) as [v| |]; try discriminate. cbn [bind]. destruct (try_fit_word _) as [z| |] eqn:F; try discriminate. cbn [bind].
  intros H. injection H as <- <- <-. split; [|auto]. intros W. destruct (fit_stale _ _ F W) as [-> ->]. auto.
Qed.
Definition unmoved (x' x : lf) : Prop := num x' = num x /\ den x' = den x /\ wv x' = wv x.
Lemma unmoved_refl x : unmoved x x.
Proof. repeat split. Qed.
Lemma ensure_unmoved x y : ensure_mpq x = Ok y -> unmoved y x.
Proof. intros H. destruct (ensure_facts x y H) as (H1 & H2 & H3 & _). now repeat split. Qed.
Lemma arith_stale fast op k a b d a' b' : arith fast op k a b = Ok (d, a', b') -> stale d k /\ unmoved a' a /\ unmoved b' b.
Proof.
  unfold arith. assert (S : slow op k a b = Ok (d, a', b') -> stale d k /\ unmoved a' a /\ unmoved b' b).
  { intros H. apply slow_stale in H. destruct H as (H1 & H2 & H3). split; auto. split; now apply ensure_unmoved. }
  destruct (wv a && wv b); auto. destruct (fast _ _ _ _) as [[[n e]|]| |]; try discriminate; cbn [bind]; auto.
  destruct (assert_wf _); try discriminate. cbn [bind]. intros H. injection H as <- <- <-. split; [|split; apply unmoved_refl]. intros W. discriminate.
Qed.

(** ** The two paths of the operations *)
Lemma slow_sim op m i j k d0 x y d x' y' : minv m -> look m i = Some d0 -> look m j = Some x -> look m k = Some y -> slow op d0 x y = Ok (d, x', y') ->
  exists m', h_slow op m i j k = Ok m' /\ minv m' /\ look m' i = Some d /\ (j <> i -> look m' j = Some x') /\ (k <> i -> look m' k = Some y') /\ keeps m m' [i; j; k].
Proof.
  intros I LI LJ LK H. unfold slow in H. destruct (ensure_mpq x) as [x1| |] eqn:EX; try discriminate. cbn [bind] in H.
  destruct (ensure_mpq y) as [y1| |] eqn:EY; try discriminate. cbn [bind] in H. destruct (op _ _) as [v| |] eqn:V; try discriminate. cbn [bind] in H.
  destruct (try_fit_word _) as [z| |] eqn:F; try discriminate. cbn [bind] in H. injection H as <- <- <-.
  destruct (ensure_ok m j x x1 I LJ EX) as (m1 & H1 & I1 & L1 & K1). unfold h_slow. rewrite H1. cbn [bind].
  destruct (ensure_facts _ _ EX) as (NX & DX & WX & MX & AX). destruct (ensure_facts _ _ EY) as (NY & DY & WY & MY & AY).
  specialize (AX (look_mv m j x I LJ)). specialize (AY (look_mv m k y I LK)).
  assert (LK1 : exists y0, look m1 k = Some y0 /\ ensure_mpq y0 = Ok y1).
  { destruct (Nat.eq_dec k j) as [->|N]; [|exists y; rewrite K1; auto]. exists x1. split; auto. assert (x = y) by congruence. subst y.
    assert (x1 = y1) by congruence. subst y1. eapply ensure_again. exact EX. }
  destruct LK1 as (y0 & LK1 & EY0). destruct (ensure_ok m1 k y0 y1 I1 LK1 EY0) as (m2 & H2 & I2 & L2 & K2). rewrite H2. cbn [bind].
  assert (LJ2 : look m2 j = Some x1).
  { destruct (Nat.eq_dec j k) as [->|N]; [|rewrite K2; auto]. rewrite L2. f_equal. rewrite L1 in LK1. injection LK1 as <-. rewrite (ensure_again _ _ EX) in EY0. congruence. }
  assert (LI2 : exists w, look m2 i = Some w /\ num w = num d0 /\ den w = den d0).
  { destruct (Nat.eq_dec i k) as [->|N1]; [exists y1; split; auto; assert (d0 = y) by congruence; subst; auto|].
    destruct (Nat.eq_dec i j) as [->|N2]; [exists x1; split; auto; assert (d0 = x) by congruence; subst; auto|]. exists d0. rewrite K2, K1; auto. }
  destruct LI2 as (w & LI2 & NW & DW). destruct (mem_ok m2 i w I2 LI2) as (m3 & u & H3 & I3 & L3 & U0 & U1 & U2 & U3 & U4 & U5 & K3). rewrite H3. cbn [bind].
  assert (LJ3 : look m3 j = Some x1).
  { destruct (Nat.eq_dec j i) as [->|N]; [|rewrite K3; auto]. assert (w = x1) by congruence. subst w. rewrite L3. f_equal. auto. }
  assert (LK3 : look m3 k = Some y1).
  { destruct (Nat.eq_dec k i) as [->|N]; [|rewrite K3; auto]. assert (w = y1) by congruence. subst w. rewrite L3. f_equal. auto. }
  rewrite (look_read m3 j x1 I3 LJ3 AX), (look_read m3 k y1 I3 LK3 AY). cbn [bind]. rewrite V. cbn [bind].
  destruct (store_ok m3 i u v I3 L3 U2) as (m4 & H4 & I4 & L4 & K4). rewrite H4. cbn [bind].
  rewrite U4, U5, NW, DW in L4. destruct (fit_ok m4 i _ z I4 L4 F) as (m5 & H5 & I5 & L5 & K5). exists m5. split; [exact H5|]. split; [exact I5|]. split; [exact L5|].
  split; [intros N; rewrite K5, K4; auto|]. split; [intros N; rewrite K5, K4; auto|].
  intros q Q. cbn in Q. rewrite K5, K4, K3, K2, K1; auto; intros ->; tauto.
Qed.
Lemma assert_at m i x : look m i = Some x -> h_assert m i = assert_wf x.
Proof. intros L. unfold h_assert. now rewrite (look_h m i x L). Qed.
Lemma arith_sim fast op m i j k d0 x y d x' y' : minv m -> look m i = Some d0 -> look m j = Some x -> look m k = Some y -> arith fast op d0 x y = Ok (d, x', y') ->
  exists m', h_arith fast op m i j k = Ok m' /\ minv m' /\ look m' i = Some d /\ (j <> i -> look m' j = Some x') /\ (k <> i -> look m' k = Some y') /\ keeps m m' [i; j; k].
Proof.
  intros I LI LJ LK H. unfold arith in H. unfold h_arith. rewrite (look_h m j x LJ), (look_h m k y LK). cbn [bind].
  destruct (wv x && wv y); [|eapply slow_sim; eauto]. destruct (fast _ _ _ _) as [[[n e]|]| |]; try discriminate; cbn [bind] in *; [|eapply slow_sim; eauto].
  destruct (assert_wf _) as [[]| |] eqn:A; try discriminate. cbn [bind] in H. injection H as <- <- <-.
  destruct (word_ok m i d0 n e I LI) as (m1 & H1 & I1 & L1 & K1). rewrite H1. cbn [bind]. rewrite (assert_at m1 i _ L1), A. cbn [bind].
  exists m1. split; [reflexivity|]. split; [exact I1|]. split; [exact L1|]. split; [intros N; rewrite K1; auto|]. split; [intros N; rewrite K1; auto|].
  intros q Q. cbn in Q. apply K1. intros ->. tauto.
Qed.
Lemma assign_sim m i j t x d : minv m -> look m i = Some t -> look m j = Some x -> lf_assign t x = Ok d ->
  exists m', c_assign m i j = Ok m' /\ minv m' /\ look m' i = Some d /\ forall k, k <> i -> look m' k = look m k.
Proof.
  intros I LI LJ H. unfold lf_assign in H. unfold c_assign. destruct (look_get m j x LJ) as (o & E & G & ->). rewrite G. cbn [bind]. cbn [wv view num den mv] in H.
  destruct (o_wv o). { injection H as <-. now apply word_ok. }
  destruct (o_mv o) eqn:MV; [|discriminate]. cbn [assertb bind] in *. injection H as <-.
  destruct (mem_ok m i t I LI) as (m1 & u & H1 & I1 & L1 & U0 & U1 & U2 & U3 & U4 & U5 & K1). rewrite H1. cbn [bind].
  assert (A : o_ma o = true) by (exact (i_bit _ I j o E MV)).
  assert (LJ1 : look m1 j = Some (view m o)).
  { destruct (Nat.eq_dec j i) as [->|N]; [|rewrite K1; auto]. assert (t = view m o) by congruence. subst t. rewrite L1. f_equal. apply U0. exact A. }
  rewrite (look_read m1 j _ I1 LJ1 A). cbn [bind]. destruct (store_ok m1 i u (mq (view m o)) I1 L1 U2) as (m2 & H2 & I2 & L2 & K2).
  exists m2. split; [exact H2|]. split; [exact I2|]. split; [rewrite L2, U4, U5; reflexivity|]. intros k N. rewrite K2, K1; auto.
Qed.

(** ** The commands *)
Definition lf_op (f : aop) : lf -> lf -> res (lf * lf * lf) :=
  match f with Add => lf_add | Sub => lf_sub | Mul => lf_mul | Div => lf_div end.
Definition lf_opa (f : aop) : lf -> lf -> res (lf * lf) :=
  match f with Add => lf_add_assign | Sub => lf_sub_assign | Mul => lf_mul_assign | Div => lf_div_assign end.
Definition bare (f : aop) : lf -> lf -> res (lf * lf * lf) :=
  match f with Add => addition | Sub => substraction | Mul => multiplication | Div => division end.
Definition barea (f : aop) : lf -> lf -> res (lf * lf) :=
  match f with Add => additionAssign | Sub => substractionAssign | Mul => multiplicationAssign | Div => divisionAssign end.
Lemma bare_sim f m i j k x y d x' y' : minv m -> i <> j -> i <> k -> look m i = Some lf_default -> look m j = Some x -> look m k = Some y -> bare f x y = Ok (d, x', y') ->
  exists m', h_op f m i j k = Ok m' /\ minv m' /\ look m' i = Some d /\ look m' j = Some x' /\ look m' k = Some y' /\ keeps m m' [i; j; k].
Proof.
  intros I NJ NK LI LJ LK H. assert (NJ' : j <> i) by auto. assert (NK' : k <> i) by auto. unfold h_op. rewrite (look_h m j x LJ), (look_h m k y LK). cbn [bind].
  assert (AR : forall fast op, arith fast op lf_default x y = Ok (d, x', y') ->
    exists m', h_arith fast op m i j k = Ok m' /\ minv m' /\ look m' i = Some d /\ look m' j = Some x' /\ look m' k = Some y' /\ keeps m m' [i; j; k]).
  { intros fast op A. destruct (arith_sim fast op m i j k _ _ _ _ _ _ I LI LJ LK A) as (m' & H1 & H2 & H3 & H4 & H5 & H6). exists m'. conj. }
  assert (WD : forall n e, (Ok (set_word lf_default n e, x, y) = Ok (d, x', y')) ->
    exists m', h_word m i n e = Ok m' /\ minv m' /\ look m' i = Some d /\ look m' j = Some x' /\ look m' k = Some y' /\ keeps m m' [i; j; k]).
  { intros n e E. injection E as <- <- <-. destruct (word_ok m i _ n e I LI) as (m' & H1 & H2 & H3 & H4). exists m'. rewrite (H4 j), (H4 k) by auto. conj.
    apply keeps_one with i; cbn; auto. }
  assert (AS : forall q z, look m q = Some z -> (t <- lf_assign lf_default z ;; Ok (t, x, y)) = Ok (d, x', y') ->
    exists m', c_assign m i q = Ok m' /\ minv m' /\ look m' i = Some d /\ look m' j = Some x' /\ look m' k = Some y' /\ keeps m m' [i; j; k]).
  { intros q z LQ E. destruct (lf_assign lf_default z) as [t| |] eqn:T; try discriminate. cbn [bind] in E. injection E as <- <- <-.
    destruct (assign_sim m i q _ z t I LI LQ T) as (m' & H1 & H2 & H3 & H4). exists m'. rewrite (H4 j), (H4 k) by auto. conj.
    apply keeps_one with i; cbn; auto. }
  destruct f; cbn [bare] in H; auto.
  - unfold multiplication in H. destruct (is_word x 0 || is_word y 0); auto. destruct (is_word x 1 && _); [eapply AS; eauto|]. destruct (is_word y 1 && _); [eapply AS; eauto|]. auto.
  - unfold division in H. destruct (is_word y 1 && _); [eapply AS; eauto|]. destruct (is_word x 0); [apply WD; exact H|]. destruct (_ && _); auto.
Qed.
Lemma op_sim f m i j k x y d x' y' : minv m -> look m i = None -> look m j = Some x -> look m k = Some y -> lf_op f x y = Ok (d, x', y') ->
  exists m', c_op f m i j k = Ok m' /\ minv m' /\ look m' i = Some d /\ look m' j = Some x' /\ look m' k = Some y' /\ keeps m m' [i; j; k].
Proof.
  intros I LI LJ LK H. assert (NJ : i <> j) by congruence. assert (NK : i <> k) by congruence.
  assert (B : assert_wf x = Ok tt /\ assert_wf y = Ok tt /\ bare f x y = Ok (d, x', y') /\ assert_wf d = Ok tt).
  { assert (G : guarded (bare f) x y = Ok (d, x', y')) by (destruct f; exact H). unfold guarded in G.
    destruct (assert_wf x) as [[]| |]; try discriminate. destruct (assert_wf y) as [[]| |]; try discriminate. cbn [bind] in G.
    destruct (bare f x y) as [[[r a] b]| |]; try discriminate. cbn [bind fst] in G. destruct (assert_wf r) as [[]| |] eqn:A; try discriminate. cbn [bind] in G.
    injection G as <- <- <-. auto. }
  destruct B as (B1 & B2 & B3 & B4). destruct (new_ok m i I LI) as (m1 & H1 & I1 & L1 & K1). unfold c_op. rewrite H1. cbn [bind].
  rewrite <- K1 in LJ, LK by auto. rewrite (assert_at _ _ _ LJ), (assert_at _ _ _ LK), B1, B2. cbn [bind].
  destruct (bare_sim f m1 i j k x y d x' y' I1 NJ NK L1 LJ LK B3) as (m2 & H2 & I2 & L2 & L3 & L4 & K2). rewrite H2. cbn [bind]. rewrite (assert_at _ _ _ L2), B4. cbn [bind].
  exists m2. conj. intros q Q. cbn in Q. rewrite K2, K1; auto.
Qed.
Lemma opa_sim f m i j x y d y' : minv m -> look m i = Some x -> look m j = Some y -> lf_opa f x y = Ok (d, y') ->
  exists m', c_opassign f m i j = Ok m' /\ minv m' /\ look m' i = Some d /\ (j <> i -> look m' j = Some y') /\ keeps m m' [i; j].
Proof.
  intros I LI LJ H.
  assert (B : assert_wf x = Ok tt /\ assert_wf y = Ok tt /\ barea f x y = Ok (d, y') /\ assert_wf d = Ok tt).
  { assert (G : guarded2 (barea f) x y = Ok (d, y')) by (destruct f; exact H). unfold guarded2 in G.
    destruct (assert_wf x) as [[]| |]; try discriminate. destruct (assert_wf y) as [[]| |]; try discriminate. cbn [bind] in G.
    destruct (barea f x y) as [[r b]| |]; try discriminate. cbn [bind fst] in G. destruct (assert_wf r) as [[]| |] eqn:A; try discriminate. cbn [bind] in G.
    injection G as <- <-. auto. }
  destruct B as (B1 & B2 & B3 & B4). unfold c_opassign. rewrite (assert_at _ _ _ LI), (assert_at _ _ _ LJ), B1, B2. cbn [bind]. unfold h_opassign. rewrite (look_h m j y LJ). cbn [bind].
  assert (AR : forall fast op, (r <- arith fast op x x y ;; Ok (fst3 r)) = Ok (d, y') ->
    exists m', h_arith fast op m i i j = Ok m' /\ minv m' /\ look m' i = Some d /\ (j <> i -> look m' j = Some y') /\ keeps m m' [i; j]).
  { intros fast op A. destruct (arith fast op x x y) as [[[r a] b]| |] eqn:E; try discriminate. cbn [bind fst3] in A. injection A as <- <-.
    destruct (arith_sim fast op m i i j _ _ _ _ _ _ I LI LI LJ E) as (m' & H1 & H2 & H3 & H4 & H5 & H6). exists m'. conj.
    intros q Q. apply H6. cbn in *. tauto. }
  assert (FIN : forall r, (exists m', r = Ok m' /\ minv m' /\ look m' i = Some d /\ (j <> i -> look m' j = Some y') /\ keeps m m' [i; j]) ->
    exists m', (m1 <- r ;; _ <- h_assert m1 i ;; Ok m1) = Ok m' /\ minv m' /\ look m' i = Some d /\ (j <> i -> look m' j = Some y') /\ keeps m m' [i; j]).
  { intros r (m' & -> & H1 & H2 & H3 & H4). cbn [bind]. rewrite (assert_at _ _ _ H2), B4. cbn [bind]. eauto 10. }
  apply FIN. destruct f; cbn [barea] in B3; auto. unfold additionAssign in B3. destruct (is_word y 0); auto.
  injection B3 as <- <-. exists m. conj.
Qed.
Lemma copy_sim m i j x d : minv m -> look m i = None -> look m j = Some x -> lf_copy x = Ok d ->
  exists m', c_copy m i j = Ok m' /\ minv m' /\ look m' i = Some d /\ forall k, k <> i -> look m' k = look m k.
Proof.
  intros I LI LJ H. assert (N : j <> i) by congruence. destruct (new_ok m i I LI) as (m1 & H1 & I1 & L1 & K1).
  rewrite <- K1 in LJ by auto. assert (AS : lf_assign lf_default x = Ok d). { unfold lf_assign. unfold lf_copy in H. destruct (wv x); exact H. }
  destruct (assign_sim m1 i j _ x d I1 L1 LJ AS) as (m2 & H2 & I2 & L2 & K2). exists m2. split; [|split; [exact I2|split; [exact L2|intros k Q; rewrite K2, K1; auto]]].
  unfold c_copy. rewrite H1. cbn [bind]. exact H2.
Qed.
Lemma neg_sim m i j x d x' : minv m -> look m i = None -> look m j = Some x -> lf_neg x = Ok (d, x') ->
  exists m' d', c_neg m i j = Ok m' /\ minv m' /\ look m' i = Some d' /\ wv d' = wv d /\ num d' = num d /\ den d' = den d /\ ma d' = ma d /\ mv d' = mv d /\ mq d' = mq d /\
    look m' j = Some x' /\ keeps m m' [i; j].
Proof.
  intros I LI LJ H. assert (N : i <> j) by congruence. unfold lf_neg in H. unfold c_neg. rewrite (look_h m j x LJ). cbn [bind].
  destruct (wv x && _).
  - destruct (lf_make _ _) as [r| |] eqn:R; try discriminate. cbn [bind] in H |- *. injection H as <- <-.
    destruct (new_ok m i I LI) as (m1 & H1 & I1 & L1 & K1). rewrite H1. cbn [bind]. destruct (word_ok m1 i _ (num r) (den r) I1 L1) as (m2 & H2 & I2 & L2 & K2).
    exists m2, (set_word lf_default (num r) (den r)). split; [exact H2|]. split; [exact I2|]. split; [exact L2|].
    assert (E : wv r = true /\ ma r = false /\ mv r = false /\ mq r = (0, 1)%Z).
    { unfold lf_make in R. destruct (assertb _); try discriminate. cbn [bind] in R. destruct (_ =? 0)%Z; [injection R as <-; auto|]. destruct (_ <? _)%Z; injection R as <-; auto. }
    destruct E as (-> & -> & -> & ->). rewrite K2, K1 by auto. cbn. conj. intros q Q. cbn in Q. rewrite K2, K1; auto.
  - destruct (ensure_mpq x) as [x1| |] eqn:EX; try discriminate. cbn [bind] in H. destruct (try_fit_word _) as [z| |] eqn:F; try discriminate. cbn [bind] in H. injection H as <- <-.
    destruct (ensure_ok m j x x1 I LJ EX) as (m1 & H1 & I1 & L1 & K1). rewrite H1. cbn [bind]. rewrite <- K1 in LI by auto.
    destruct (new_ok m1 i I1 LI) as (m2 & H2 & I2 & L2 & K2). rewrite H2. cbn [bind].
    destruct (mem_ok m2 i _ I2 L2) as (m3 & u & H3 & I3 & L3 & U0 & U1 & U2 & U3 & U4 & U5 & K3). rewrite H3. cbn [bind].
    assert (LJ3 : look m3 j = Some x1) by (rewrite K3, K2 by auto; exact L1).
    assert (AX : ma x1 = true) by (apply (ensure_facts _ _ EX); apply (look_mv m j x I LJ)).
    rewrite (look_read m3 j x1 I3 LJ3 AX). cbn [bind]. destruct (store_ok m3 i u (mpq_neg (mq x1)) I3 L3 U2) as (m4 & H4 & I4 & L4 & K4). rewrite H4. cbn [bind].
    rewrite U4, U5 in L4. destruct (fit_ok m4 i _ z I4 L4 F) as (m5 & H5 & I5 & L5 & K5). exists m5, z. conj.
    + rewrite K5, K4 by auto. exact LJ3.
    + intros q Q. cbn in Q. rewrite K5, K4, K3, K2, K1; auto.
Qed.
Lemma negate_sim m i x d : minv m -> look m i = Some x -> lf_negate x = Ok d ->
  exists m', c_negate m i = Ok m' /\ minv m' /\ look m' i = Some d /\ forall k, k <> i -> look m' k = look m k.
Proof.
  intros I LI H. unfold lf_negate in H. unfold c_negate. rewrite (look_h m i x LI). cbn [bind]. destruct (wv x && _).
  - cbn [bind] in H. destruct (assert_wf _) as [[]| |] eqn:A; try discriminate. cbn [bind] in H. injection H as <-.
    destruct (word_ok m i x (- num x) (den x) I LI) as (m1 & H1 & I1 & L1 & K1). rewrite H1. cbn [bind]. rewrite (assert_at _ _ _ L1), A. cbn [bind]. eauto 10.
  - destruct (ensure_mpq x) as [x1| |] eqn:EX; try discriminate. cbn [bind] in H. destruct (try_fit_word _) as [z| |] eqn:F; try discriminate. cbn [bind] in H.
    destruct (assert_wf z) as [[]| |] eqn:A; try discriminate. cbn [bind] in H. injection H as <-.
    destruct (ensure_ok m i x x1 I LI EX) as (m1 & H1 & I1 & L1 & K1). rewrite H1. cbn [bind].
    assert (AX : ma x1 = true) by (apply (ensure_facts _ _ EX); apply (look_mv m i x I LI)). rewrite (look_read m1 i x1 I1 L1 AX). cbn [bind].
    destruct (store_ok m1 i x1 (mpq_neg (mq x1)) I1 L1 AX) as (m2 & H2 & I2 & L2 & K2). rewrite H2. cbn [bind].
    destruct (fit_ok m2 i _ z I2 L2 F) as (m3 & H3 & I3 & L3 & K3). rewrite H3. cbn [bind]. rewrite (assert_at _ _ _ L3), A. cbn [bind]. exists m3. conj.
    intros k Q. rewrite K3, K2, K1; auto.
Qed.
Lemma compare_sim m i j x y z x' y' : minv m -> look m i = Some x -> look m j = Some y -> lf_compare x y = Ok (z, x', y') ->
  exists m', c_compare m i j = Ok (m', z) /\ minv m' /\ look m' i = Some x' /\ look m' j = Some y' /\ keeps m m' [i; j].
Proof.
  intros I LI LJ H. unfold lf_compare in H. unfold c_compare. rewrite (look_h _ _ _ LI), (look_h _ _ _ LJ). cbn [bind]. destruct (wv x && wv y).
  - destruct (_ =? _)%Z; [injection H as <- <- <-; exists m; conj|]. destruct (lw _); try discriminate. cbn [bind] in *. destruct (lw _); try discriminate. cbn [bind] in *.
    injection H as <- <- <-. exists m. conj.
  - destruct (ensure_mpq x) as [x1| |] eqn:EX; try discriminate. cbn [bind] in H. destruct (ensure_mpq y) as [y1| |] eqn:EY; try discriminate. cbn [bind] in H. injection H as <- <- <-.
    destruct (ensure_ok m i x x1 I LI EX) as (m1 & H1 & I1 & L1 & K1). rewrite H1. cbn [bind].
    assert (AX : ma x1 = true) by (apply (ensure_facts _ _ EX); apply (look_mv m i x I LI)). assert (AY : ma y1 = true) by (apply (ensure_facts _ _ EY); apply (look_mv m j y I LJ)).
    assert (LJ1 : exists y0, look m1 j = Some y0 /\ ensure_mpq y0 = Ok y1).
    { destruct (Nat.eq_dec j i) as [->|N]; [|exists y; rewrite K1; auto]. exists x1. split; auto. assert (x = y) by congruence. subst y.
      assert (x1 = y1) by congruence. subst y1. eapply ensure_again. exact EX. }
    destruct LJ1 as (y0 & LJ1 & EY0). destruct (ensure_ok m1 j y0 y1 I1 LJ1 EY0) as (m2 & H2 & I2 & L2 & K2). rewrite H2. cbn [bind].
    assert (LI2 : look m2 i = Some x1).
    { destruct (Nat.eq_dec i j) as [->|N]; [|rewrite K2; auto]. rewrite L2. f_equal. rewrite L1 in LJ1. injection LJ1 as <-. rewrite (ensure_again _ _ EX) in EY0. congruence. }
    rewrite (look_read _ _ _ I2 LI2 AX), (look_read _ _ _ I2 L2 AY). cbn [bind]. exists m2. conj. intros q Q. cbn in Q. rewrite K2, K1; auto; intros ->; tauto.
Qed.
