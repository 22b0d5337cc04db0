(** Unary operations on rational numbers, rounding, constructors and inverses. *)
From Coq Require Import ZArith QArith Qround Bool Lia List Znumtheory.
From Verif Require Import Base Rational_Model Spec_Rational Rational_Proofs Rational_Proofs2.
Local Open Scope Z_scope.

Lemma lf_make_ok n d : word n -> uword d -> 0 <= n \/ Z.gcd n d = 1 ->
  exists r, lf_make n d = Ok r /\ canonical r /\ denotes (parts r) n d.
Proof.
  intros W U H. unfold word, uword in W, U. unfold lf_make.
  destruct (Z.ltb_spec 0 d); [|lia]. cbn [assertb bind].
  destruct (Z.eqb_spec n 0) as [->|N].
  { destruct (lf_word_spec 0) as [C P]; [ranges; lia|]. exists (lf_word 0).
    split; [reflexivity|]. split; [exact C|]. split; [apply (in_lowest _ C)|]. rewrite P. reflexivity. }
  cbv zeta. rewrite absVal32_abs by assumption. rewrite ugcd_gcd by lia. rewrite Z.gcd_abs_l.
  pose proof (gcd_pos_r n d ltac:(lia)) as G.
  destruct (Z.ltb_spec 1 (Z.gcd n d)) as [G1|G1].
  - destruct H as [H|H]; [|lia]. rewrite to_u32_id by (ranges; lia).
    pose proof (div_le n (Z.gcd n d) G ltac:(lia)) as Q1.
    rewrite to_i32_id by (ranges; lia).
    destruct (lowest_reduce n d ltac:(lia)) as [P' G'].
    pose proof (div_le d (Z.gcd n d) G ltac:(lia)) as D.
    destruct (word_canonical (mkLf true false false 0 1 (0, 1)) (n / Z.gcd n d) (d / Z.gcd n d)) as [C P].
    { split; [unfold word; ranges; lia|]. split; [unfold uword; lia|assumption]. }
    eexists. split; [reflexivity|]. split; [exact C|].
    split; [apply (in_lowest _ C)|]. unfold parts; cbn [wv num den fst snd].
    apply reduce_value. lia.
  - destruct (word_canonical (mkLf true false false 0 1 (0, 1)) n d) as [C P].
    { split; [exact W|]. split; [exact U|lia]. }
    eexists. split; [reflexivity|]. split; [exact C|]. split; [apply (in_lowest _ C)|]. reflexivity.
Qed.

Lemma denotes_returns m n d : 0 < d ->
  (exists r, m = Ok r /\ canonical r /\ denotes (parts r) n d) -> returns m (n # Z.to_pos d).
Proof.
  intros P (r & E & C & D). exists r. conjs; auto.
  apply value_of_denotes with n d; auto; [lia|]. cbn [Qnum Qden]. now rewrite Z2Pos.id.
Qed.

Lemma lf_str_ok n d : d <> 0 -> returns (lf_str n d) (inject_Z n / inject_Z d).
Proof.
  intros H. destruct (lf_str_spec n d H) as (r & E & C & P). exists r. conjs; auto.
  destruct (canon_spec n d H) as [L V]. apply value_of_denotes with n d; auto.
  - rewrite P. now split.
  - unfold Qdiv, Qinv, inject_Z. cbn [Qnum Qden]. destruct d as [|p|p]; [contradiction| |];
    cbn [Qmult Qnum Qden]; lia.
Qed.

Section Unary.
Variable a : lf.
Hypothesis Ca : canonical a.

Lemma neg_denotes v n d : v = (- n, d) -> lowest n d -> lowest (fst v) (snd v).
Proof. intros -> [P G]. cbn. split; [assumption|]. now rewrite Z.gcd_opp_l. Qed.

Lemma value_opp r : canonical r -> parts r = (- fst (parts a), snd (parts a)) ->
  (value r == - value a)%Q.
Proof.
  intros C E. destruct (canonical_pos a Ca) as (n & p & P & V). rewrite V.
  unfold value. rewrite E, P. cbn [fst snd Z.to_pos]. reflexivity.
Qed.

Lemma lf_neg_ok : computes (lf_neg a) a (- value a).
Proof.
  unfold lf_neg. destruct (wv a && (WORD_MIN <? num a)) eqn:W.
  - apply andb_true_iff in W. destruct W as [W M]. apply Z.ltb_lt in M.
    pose proof (canonical_word a Ca W) as (Wn & Wd & G). unfold word in Wn.
    destruct (lf_make_ok (- num a) (den a)) as (r & E & C & D).
    { unfold word. ranges. lia. } { assumption. } { right. now rewrite Z.gcd_opp_l. }
    rewrite E. cbn [bind]. exists r, a. conjs; auto; [|now apply canonical_same].
    apply value_opp; auto. rewrite (parts_word a W). cbn [fst snd].
    destruct D as [L V]. destruct (parts r) as [x y]; cbn [fst snd] in *.
    destruct (lowest_unique x y (- num a) (den a)) as [-> ->]; auto.
    split; [unfold uword in Wd; lia|now rewrite Z.gcd_opp_l].
  - destruct (ensure_spec a Ca) as (a' & Ea & Ca' & Pa & _ & Ma & _).
    rewrite Ea. cbn [bind]. rewrite Ma. unfold mpq_neg.
    destruct (try_fit_spec 0 1 (- fst (parts a), snd (parts a))) as (r & E & C & P).
    { eapply neg_denotes; [reflexivity|apply (in_lowest a Ca)]. }
    rewrite E. cbn [bind]. exists r, a'. conjs; auto; [|now split]. now apply value_opp.
Qed.

Lemma lf_negate_ok : returns (lf_negate a) (- value a).
Proof.
  unfold lf_negate. destruct (wv a && (WORD_MIN <? num a)) eqn:W.
  - apply andb_true_iff in W. destruct W as [W M]. apply Z.ltb_lt in M.
    pose proof (canonical_word a Ca W) as (Wn & Wd & G). unfold word in Wn. cbn [bind].
    destruct (word_canonical a (- num a) (den a)) as [C P].
    { split; [unfold word; ranges; lia|]. split; [assumption|now rewrite Z.gcd_opp_l]. }
    rewrite wf_canonical by assumption. cbn [bind]. eexists. conjs; [reflexivity|exact C|].
    apply value_opp; auto. rewrite P. now rewrite (parts_word a W).
  - destruct (ensure_spec a Ca) as (a' & Ea & Ca' & Pa & _ & Ma & _).
    rewrite Ea. cbn [bind]. rewrite Ma. unfold mpq_neg.
    destruct (try_fit_spec (num a') (den a') (- fst (parts a), snd (parts a))) as (r & E & C & P).
    { eapply neg_denotes; [reflexivity|apply (in_lowest a Ca)]. }
    rewrite E. cbn [bind]. rewrite wf_canonical by assumption. cbn [bind].
    exists r. conjs; auto. now apply value_opp.
Qed.

Lemma lf_sign_ok : exists s, lf_sign a = Ok s /\ (s < 0 <-> (value a < 0)%Q) /\
  (s = 0 <-> (value a == 0)%Q) /\ (s > 0 <-> (0 < value a)%Q).
Proof.
  assert (K : forall s, s = Z.sgn (fst (parts a)) -> (s < 0 <-> (value a < 0)%Q) /\
    (s = 0 <-> (value a == 0)%Q) /\ (s > 0 <-> (0 < value a)%Q)).
  { intros s ->. destruct (canonical_pos a Ca) as (n & p & -> & ->). unfold Qlt, Qeq. cbn [Qnum Qden fst].
    lia. }
  unfold lf_sign. destruct (wv a) eqn:W.
  - eexists. split; [reflexivity|]. apply K. rewrite parts_word by assumption. cbn [fst].
    destruct (Z.ltb_spec (num a) 0), (Z.ltb_spec 0 (num a)); lia.
  - rewrite (canonical_mv a Ca W). cbn [assertb bind]. eexists. split; [reflexivity|]. apply K.
    unfold parts. now rewrite W.
Qed.

Lemma isInteger_parts : exists i, lf_isInteger a = Ok i /\ (i = true <-> snd (parts a) = 1).
Proof.
  pose proof (in_lowest a Ca) as [P _].
  unfold lf_isInteger. destruct (wv a) eqn:W.
  - eexists. split; [reflexivity|]. rewrite parts_word by assumption. apply Z.eqb_eq.
  - rewrite (canonical_mv a Ca W). cbn [assertb bind]. eexists. split; [reflexivity|].
    unfold parts in *. rewrite W in *. rewrite andb_true_iff, Z.eqb_eq.
    unfold mpz_fits_uint. rewrite andb_true_iff, !Z.leb_le. split.
    + intros [R E]. rewrite to_u64_id in E by (ranges; lia). exact E.
    + intros ->. split; [ranges; lia|reflexivity].
Qed.

Lemma integer_parts : snd (parts a) = 1 <-> exists z, (value a == inject_Z z)%Q.
Proof.
  pose proof (in_lowest a Ca) as [P G].
  destruct (canonical_pos a Ca) as (n & p & E & V). rewrite E, V in *. cbn [fst snd] in *. split.
  - intros H. exists n. unfold Qeq, inject_Z. cbn [Qnum Qden]. lia.
  - intros [z H]. unfold Qeq, inject_Z in H. cbn [Qnum Qden] in H.
    destruct (lowest_unique n (Zpos p) z 1) as [_ ->]; auto.
    + split; assumption.
    + split; [lia|apply Z.gcd_1_r].
Qed.

Lemma lf_isInteger_ok : exists i, lf_isInteger a = Ok i /\
  (i = true <-> exists z, (value a == inject_Z z)%Q).
Proof.
  destruct isInteger_parts as (i & E & H). exists i. split; [exact E|]. now rewrite H, integer_parts.
Qed.

Lemma nofit_guard : (if wv a then Ok tt else f <- fitsWord a ;; assertb (negb f)) = Ok tt.
Proof.
  destruct (wv a) eqn:W; [reflexivity|]. unfold fitsWord. rewrite W, (canonical_mv a Ca W).
  cbn [negb andb assertb bind]. now rewrite canonical_nofit.
Qed.

Lemma lf_isZero_ok : exists i, lf_isZero a = Ok i /\ (i = true <-> (value a == 0)%Q).
Proof.
  unfold lf_isZero. rewrite nofit_guard. cbn [bind]. eexists. split; [reflexivity|].
  fold (is_word a 0). destruct (canonical_pos a Ca) as (n & p & P & V). rewrite V. split.
  - intros H. apply is_zero_parts in H; auto. rewrite P in H. injection H as -> H. reflexivity.
  - intros H. destruct (is_word a 0) eqn:E; [reflexivity|]. apply is_zero_false in E; auto.
    rewrite P in E. unfold Qeq in H. cbn in *. lia.
Qed.

Lemma lf_isOne_ok : exists i, lf_isOne a = Ok i /\ (i = true <-> (value a == 1)%Q).
Proof.
  unfold lf_isOne. rewrite nofit_guard. cbn [bind]. eexists. split; [reflexivity|].
  fold (is_word a 1). destruct (canonical_pos a Ca) as (n & p & P & V). rewrite V. split.
  - intros H. apply is_one in H. rewrite P in H. injection H as -> ->. reflexivity.
  - intros H. pose proof (in_lowest a Ca) as L. rewrite P in L. cbn [fst snd] in L.
    destruct (lowest_unique n (Zpos p) 1 1) as [E1 E2]; auto.
    { split; [lia|reflexivity]. }
    assert (W : wv a = true).
    { apply (fast_iff_fits a Ca). rewrite P, E1, E2. apply fits_iff; cbn; [lia|].
      unfold word, uword. ranges. lia. }
    unfold is_word. rewrite W. rewrite parts_word in P by assumption. injection P as -> ->.
    rewrite E1, E2. reflexivity.
Qed.

(** Rounding *)
Lemma ceil_bounds n p z : z = - (- n / Zpos p) -> Qceiling (n # p) = z.
Proof. intros ->. reflexivity. Qed.

Lemma value_int r z : canonical r -> parts r = (z, 1) -> (value r == inject_Z z)%Q.
Proof. intros C E. unfold value. rewrite E. reflexivity. Qed.

Lemma lf_ceil_ok : returns (lf_ceil a) (inject_Z (Qceiling (value a))).
Proof.
  unfold lf_ceil. destruct isInteger_parts as (i & E & H). rewrite E. cbn [bind].
  pose proof (in_lowest a Ca) as [P G].
  destruct (canonical_pos a Ca) as (n & p & Pa & V).
  destruct i.
  - destruct (lf_copy_spec a Ca) as (r & Er & Cr & Pr). exists r. conjs; auto.
    assert (S : snd (parts a) = 1) by now apply H. rewrite Pa in S. cbn in S.
    apply value_int; [assumption|]. rewrite Pr, Pa, V. f_equal; [|assumption].
    unfold Qceiling, Qfloor, Qopp. cbn [Qnum Qden]. rewrite S, Z.div_1_r. lia.
  - assert (S : Zpos p <> 1) by (rewrite Pa in H; cbn in H; intros X; apply H in X; discriminate).
    destruct (wv a) eqn:W.
    + pose proof (canonical_word a Ca W) as (Wn & Wd & _). unfold word, uword in Wn, Wd.
      rewrite parts_word in Pa by assumption. injection Pa as En Ed. rewrite Ed in *.
      rewrite absVal32_abs by assumption. rewrite udiv_ok by lia. cbn [bind]. cbv zeta.
      assert (Q : 0 <= Z.abs (num a) / Zpos p <= 2 ^ 30).
      { split; [apply Z.div_pos; lia|]. apply Z.div_le_upper_bound; [lia|].
        change (2 ^ 30) with 1073741824. ranges. lia. }
      change (2 ^ 30) with 1073741824 in Q.
      rewrite to_i32_id by (ranges; lia).
      assert (D : (if num a <? 0 then - (Z.abs (num a) / Zpos p) else Z.abs (num a) / Zpos p + 1) =
        Qceiling (value a)).
      { rewrite V. unfold Qceiling, Qfloor, Qopp. cbn [Qnum Qden]. rewrite <- En.
        destruct (Z.ltb_spec (num a) 0).
        - rewrite Z.abs_neq by lia. reflexivity.
        - rewrite Z.abs_eq by lia.
          assert (M : num a mod Zpos p <> 0).
          { intros M. apply Z.mod_divide in M; [|lia].
            rewrite parts_word in G by assumption. cbn [fst snd] in G.
            assert (Zpos p | 1) by (rewrite <- G, Ed; apply Z.gcd_greatest; [assumption|apply Z.divide_refl]).
            apply Z.divide_1_r_nonneg in H1; lia. }
          rewrite Z.div_opp_l_nz by (auto; lia). lia. }
      rewrite D. destruct (lf_word_spec (Qceiling (value a))) as [C Q'].
      { rewrite <- D. destruct (num a <? 0); ranges; lia. }
      eexists. conjs; [reflexivity|exact C|]. now apply value_int.
    + destruct (lf_mpz_spec (cdiv (fst (mq a)) (snd (mq a)))) as [C Q'].
      eexists. conjs; [reflexivity|exact C|].
      assert (M : mq a = (n, Zpos p)) by (rewrite <- Pa; unfold parts; now rewrite W).
      rewrite (value_int _ _ C Q'), M, V. reflexivity.
Qed.

Lemma one_ok : canonical (lf_word 1) /\ value (lf_word 1) = 1%Q.
Proof. split; [apply lf_word_spec; ranges; lia|reflexivity]. Qed.

Lemma lf_floor_ok : returns (lf_floor a) (inject_Z (Qfloor (value a))).
Proof.
  unfold lf_floor. destruct isInteger_parts as (i & E & H). rewrite E. cbn [bind].
  destruct (canonical_pos a Ca) as (n & p & Pa & V). rewrite Pa in H. cbn [snd] in H.
  destruct i.
  - destruct (lf_copy_spec a Ca) as (r & Er & Cr & Pr). exists r. conjs; auto.
    assert (S : Zpos p = 1) by now apply H.
    apply value_int; [assumption|]. rewrite Pr, Pa, V. f_equal; [|assumption].
    unfold Qfloor. rewrite S, Z.div_1_r. reflexivity.
  - assert (S : Zpos p <> 1) by (intros X; apply H in X; discriminate).
    destruct lf_ceil_ok as (c & Ec & Cc & Vc). rewrite Ec. cbn [bind].
    destruct one_ok as [C1 V1].
    destruct (lf_sub_ok c (lf_word 1) Cc C1) as (r & c' & o' & Er & Cr & Vr & _). rewrite Er. cbn [bind fst].
    exists r. conjs; auto. rewrite Vr, Vc, V1.
    assert (F : Qfloor (value a) = Qceiling (value a) - 1).
    { rewrite V. unfold Qceiling, Qfloor, Qopp. cbn [Qnum Qden].
      pose proof (in_lowest a Ca) as [_ G]. rewrite Pa in G. cbn [fst snd] in G.
      assert (M : n mod Zpos p <> 0).
      { intros M. apply Z.mod_divide in M; [|lia].
        assert (D : (Zpos p | 1)) by (rewrite <- G; apply Z.gcd_greatest; [assumption|apply Z.divide_refl]).
        apply Z.divide_1_r_nonneg in D; lia. }
      rewrite Z.div_opp_l_nz by (auto; lia). lia. }
    rewrite F. unfold Z.sub. rewrite inject_Z_plus. reflexivity.
Qed.

Lemma lf_get_num_ok : exists r, lf_get_num a = Ok r /\ canonical r /\ parts r = (fst (parts a), 1).
Proof.
  unfold lf_get_num. destruct (wv a) eqn:W.
  - eexists. split; [reflexivity|]. rewrite (parts_word a W). cbn [fst].
    apply lf_word_spec. apply (canonical_word a Ca W).
  - eexists. split; [reflexivity|]. unfold parts. rewrite W. apply lf_mpz_spec.
Qed.
Lemma lf_get_den_ok : exists r a', lf_get_den a = Ok (r, a') /\ canonical r /\
  parts r = (snd (parts a), 1) /\ same a' a.
Proof.
  unfold lf_get_den. destruct (wv a && (den a <=? WORD_MAX)) eqn:W.
  - apply andb_true_iff in W. destruct W as [W _].
    pose proof (canonical_word a Ca W) as (_ & U & _). unfold uword in U.
    destruct (lf_uint_spec (den a)) as [C P]; [lia|].
    do 2 eexists. split; [reflexivity|]. rewrite (parts_word a W). conjs; auto.
    now apply canonical_same.
  - destruct (ensure_spec a Ca) as (a' & Ea & Ca' & Pa & _ & Ma & _). rewrite Ea. cbn [bind].
    destruct (lf_mpz_spec (snd (mq a'))) as [C P].
    do 2 eexists. split; [reflexivity|]. rewrite Ma in *. conjs; auto. now split.
Qed.

Lemma lf_inverse_ok : ~ (value a == 0)%Q -> computes (lf_inverse a) a (/ value a).
Proof.
  intros Nz. destruct (canonical_pos a Ca) as (n & p & P & V).
  assert (N : n <> 0) by (intros ->; apply Nz; rewrite V; reflexivity).
  pose proof (in_lowest a Ca) as [_ G]. rewrite P in G. cbn [fst snd] in G.
  assert (L : lowest (Z.sgn n * Zpos p) (Z.abs n)).
  { split; [lia|]. rewrite Z.gcd_abs_r.
    destruct (Z_lt_le_dec n 0).
    - rewrite Z.sgn_neg by lia. replace (-1 * Zpos p) with (- Zpos p) by lia.
      now rewrite Z.gcd_opp_l, Z.gcd_comm.
    - rewrite Z.sgn_pos by lia. rewrite Z.mul_1_l. now rewrite Z.gcd_comm. }
  assert (Q : forall r, canonical r -> parts r = (Z.sgn n * Zpos p, Z.abs n) -> (value r == / value a)%Q).
  { intros r C E. rewrite V. unfold value, Qinv. rewrite E. cbn [fst snd Qnum Qden].
    destruct n as [|m|m]; [contradiction| |]; unfold Qeq; cbn; lia. }
  unfold lf_inverse.
  set (overflow := a' <- ensure_mpq a;; v <- mpq_inv (mq a');;
    d <- try_fit_word (mkLf false true true 0 1 v);; _ <- assert_wf d;; Ok (d, a')).
  assert (O : computes overflow a (/ value a)).
  { unfold overflow. destruct (ensure_spec a Ca) as (a' & Ea & Ca' & Pa & _ & Ma & _).
    rewrite Ea. cbn [bind]. rewrite Ma, P. unfold mpq_inv. cbn [fst snd].
    destruct (Z.eqb_spec n 0); [contradiction|]. cbn [bind].
    destruct (try_fit_spec 0 1 (Z.sgn n * Zpos p, Z.abs n) L) as (r & E & C & Pr).
    rewrite E. cbn [bind]. rewrite wf_canonical by assumption. cbn [bind].
    exists r, a'. conjs; auto. now split. }
  destruct (wv a) eqn:W; [|exact O].
  pose proof (canonical_word a Ca W) as (Wn & Wd & _). unfold word, uword in Wn, Wd.
  rewrite parts_word in P by assumption. injection P as En Ed. rewrite En, Ed in *.
  destruct (Z.eqb_spec n 0); [contradiction|]. cbn [negb assertb bind].
  assert (K : forall zn zd, word zn -> uword zd -> (zn, zd) = (Z.sgn n * Zpos p, Z.abs n) ->
    computes (Ok (mkLf true false false zn zd (0, 1), a)) a (/ value a)).
  { intros zn zd W1 W2 E. injection E as E1 E2.
    destruct (word_canonical (mkLf true false false 0 1 (0, 1)) zn zd) as [C Pr].
    { split; [assumption|]. split; [assumption|]. rewrite E1, E2. apply L. }
    do 2 eexists. conjs; [reflexivity|exact C| |now apply canonical_same].
    apply Q; [exact C|]. rewrite <- E1, <- E2. exact Pr. }
  destruct (Z.ltb_spec 0 n).
  - unfold check_word. destruct ((Zpos p <? WORD_MIN) || (WORD_MAX <? Zpos p)) eqn:R; [exact O|].
    apply orb_false_iff in R. rewrite !Z.ltb_ge in R. unfold check_uword.
    destruct (Z.ltb_spec n 1); [lia|]. destruct (Z.ltb_spec UWORD_MAX n); [ranges; lia|]. cbn [bind].
    apply K; [unfold word; lia|unfold uword; lia|]. f_equal; lia.
  - unfold check_word. destruct ((- Zpos p <? WORD_MIN) || (WORD_MAX <? - Zpos p)) eqn:R; [exact O|].
    apply orb_false_iff in R. rewrite !Z.ltb_ge in R. unfold check_uword.
    destruct (Z.ltb_spec (- n) 1); [lia|]. destruct (Z.ltb_spec UWORD_MAX (- n)); [ranges; lia|].
    cbn [bind]. apply K; [unfold word; lia|unfold uword; lia|]. f_equal; lia.
Qed.

Lemma lf_inv_ok : wv a = true -> ~ (value a == 0)%Q -> WORD_MIN < num a -> den a <= WORD_MAX ->
  returns (lf_inv a) (/ value a).
Proof.
  intros W Nz M D. destruct (canonical_pos a Ca) as (n & p & P & V).
  assert (N : n <> 0) by (intros ->; apply Nz; rewrite V; reflexivity).
  pose proof (canonical_word a Ca W) as (Wn & Wd & G). unfold word, uword in Wn, Wd.
  rewrite parts_word in P by assumption. injection P as En Ed. rewrite En, Ed in *.
  unfold lf_inv, lf_sign. rewrite W, En. cbn [bind].
  assert (S : (0 <=? (if n <? 0 then -1 else if 0 <? n then 1 else 0)) = (0 <? n)).
  { destruct (Z.ltb_spec n 0), (Z.ltb_spec 0 n); cbn; auto; lia. }
  rewrite S. destruct (Z.ltb_spec 0 n).
  - rewrite Ed, to_i32_id, to_u32_id by (ranges; lia).
    destruct (lf_make_ok (Zpos p) n) as (r & E & C & Dn).
    { unfold word. ranges. lia. } { unfold uword. ranges. lia. } { left. lia. }
    exists r. conjs; auto. rewrite V. apply value_of_denotes with (Zpos p) n; auto.
    unfold Qinv. destruct n; cbn [Qnum Qden]; lia.
  - destruct (Z.eqb_spec n WORD_MIN); [lia|].
    assert (X : to_i32 (to_u32 (- Zpos p)) = - Zpos p).
    { unfold to_i32, to_u32. rewrite Z.mod_mod by (ranges; lia). fold (to_i32 (- Zpos p)).
      apply to_i32_id. ranges. lia. }
    rewrite Ed, X, to_u32_id by (ranges; lia).
    destruct (lf_make_ok (- Zpos p) (- n)) as (r & E & C & Dn).
    { unfold word. ranges. lia. } { unfold uword. ranges. lia. }
    { right. rewrite Z.gcd_opp_l, Z.gcd_opp_r. now rewrite Z.gcd_comm. }
    exists r. conjs; auto. rewrite V. apply value_of_denotes with (- Zpos p) (- n); auto; [lia|].
    unfold Qinv. destruct n; cbn [Qnum Qden]; lia.
Qed.
End Unary.

(** Floor division of integers *)
Section Fdiv.
Variables a b : lf.
Hypothesis Ca : canonical a.
Hypothesis Cb : canonical b.
Variables x y : Z.
Hypothesis Va : (value a == inject_Z x)%Q.
Hypothesis Vb : (value b == inject_Z y)%Q.

Lemma int_parts c z : canonical c -> (value c == inject_Z z)%Q -> parts c = (z, 1).
Proof.
  intros C V. destruct (canonical_pos c C) as (n & p & P & E).
  assert (S : snd (parts c) = 1) by (apply integer_parts; [assumption|now exists z]).
  rewrite P in *. cbn in S. rewrite S. f_equal. rewrite E in V. unfold Qeq, inject_Z in V.
  cbn in V. lia.
Qed.

Lemma is_int c z : canonical c -> (value c == inject_Z z)%Q -> lf_isInteger c = Ok true.
Proof.
  intros C V. destruct (isInteger_parts c C) as (i & -> & H). f_equal. apply H.
  now rewrite (int_parts c z).
Qed.

Lemma floor_unique p q k : q <> 0 -> (0 <= p - k * q < q \/ q < p - k * q <= 0) -> p / q = k.
Proof.
  intros H R. symmetry. apply Z.div_unique with (p - k * q); [tauto|ring].
Qed.

Lemma fdiv_q_ok : y <> 0 -> exists r a' b', fdiv_q a b = Ok (r, a', b') /\ canonical r /\
  (value r == inject_Z (x / y))%Q /\ same a' a /\ same b' b.
Proof.
  intros Ny. pose proof (int_parts a x Ca Va) as Pa. pose proof (int_parts b y Cb Vb) as Pb.
  unfold fdiv_q. rewrite (is_int a x), (is_int b y) by assumption. cbn [bind andb assertb].
  destruct ((wv a && wv b) && negb (num a =? WORD_MIN)) eqn:W.
  - apply andb_true_iff in W. destruct W as [W M]. apply andb_true_iff in W. destruct W as [Wa Wb].
    apply negb_true_iff, Z.eqb_neq in M.
    pose proof (canonical_word a Ca Wa) as (Wn & _). pose proof (canonical_word b Cb Wb) as (Wm & _).
    unfold word in *. rewrite parts_word in Pa, Pb by assumption. injection Pa as Ea _. injection Pb as Eb _.
    rewrite Ea, Eb in *. destruct (Z.eqb_spec y 0); [contradiction|]. cbv zeta.
    pose proof (Z.quot_rem x y Ny) as QR.
    pose proof (Z.rem_bound_abs x y Ny) as RB.
    pose proof (Z.rem_sign_nz x y) as RS.
    set (q := Z.quot x y) in *. set (r := Z.rem x y) in *.
    set (z := if _ && _ then q - 1 else q).
    assert (Z1 : x / y = z).
    { subst z. apply floor_unique; [assumption|].
      destruct (Z.eqb_spec r 0) as [R0|R0]; cbn [negb andb].
      - rewrite R0 in QR. lia.
      - specialize (RS Ny R0).
        destruct (Z.ltb_spec x 0), (Z.leb_spec 0 y), (Z.ltb_spec y 0), (Z.leb_spec 0 x);
          cbn [andb orb]; try lia. }
    assert (Zr : WORD_MIN <= z <= WORD_MAX).
    { rewrite <- Z1. pose proof (Z.div_mod x y Ny) as DM.
      destruct (Z_lt_le_dec y 0).
      - pose proof (Z.mod_neg_bound x y l). ranges. nia.
      - pose proof (Z.mod_pos_bound x y ltac:(lia)). ranges. nia. }
    destruct (lf_word_spec z Zr) as [C P].
    do 3 eexists. conjs; [reflexivity|exact C| |now apply canonical_same|now apply canonical_same].
    rewrite Z1. now apply value_int.
  - destruct (ensure_spec a Ca) as (a' & Ea & Ca' & Pa' & _ & Ma & _).
    destruct (ensure_spec b Cb) as (b' & Eb & Cb' & Pb' & _ & Mb & _).
    rewrite Ea, Eb. cbn [bind]. rewrite Ma, Mb, Pa, Pb. cbn [fst].
    destruct (Z.eqb_spec y 0); [contradiction|].
    destruct (lf_mpz_spec (x / y)) as [C P].
    do 3 eexists. conjs; [reflexivity|exact C| |now split|now split]. now apply value_int.
Qed.

Lemma mod_word_ok : wv a = true -> wv b = true -> 0 <= x -> 0 < y ->
  returns (lf_mod a b) (inject_Z (x mod y)).
Proof.
  intros Wa Wb Px Py.
  pose proof (int_parts a x Ca Va) as Pa. pose proof (int_parts b y Cb Vb) as Pb.
  pose proof (canonical_word a Ca Wa) as (Wn & _). pose proof (canonical_word b Cb Wb) as (Wm & _).
  unfold word in *.
  unfold lf_mod. rewrite (is_int a x), (is_int b y) by assumption. cbn [bind andb assertb].
  rewrite Wa, Wb. cbn [andb].
  rewrite parts_word in Pa, Pb by assumption. injection Pa as Ea _. injection Pb as Eb _.
  rewrite Ea, Eb in *.
  destruct (Z.eqb_spec y 0); [lia|]. destruct (Z.eqb_spec x WORD_MIN); [ranges; lia|].
  cbn [andb orb]. rewrite Z.rem_mod_nonneg by lia.
  pose proof (Z.mod_pos_bound x y ltac:(lia)) as M.
  rewrite absVal32_abs by (ranges; lia). rewrite Z.abs_eq by lia.
  destruct (Z.ltb_spec 0 y); [|lia]. rewrite to_i32_id by (ranges; lia).
  destruct (lf_word_spec (x mod y)) as [C P]; [ranges; lia|].
  eexists. conjs; [reflexivity|exact C|]. now apply value_int.
Qed.

Lemma same_val_int c d z : same c d -> (value d == inject_Z z)%Q -> (value c == inject_Z z)%Q.
Proof. intros S E. now rewrite (same_value c d S). Qed.

Lemma mod_mpq_ok : wv a && wv b = false -> y <> 0 ->
  returns (lf_mod a b) (inject_Z (x mod y)).
Proof.
  intros W Ny.
  unfold lf_mod. rewrite (is_int a x), (is_int b y) by assumption. cbn [bind andb assertb].
  rewrite W.
  assert (Nz : ~ (value b == 0)%Q).
  { rewrite Vb. unfold Qeq. cbn. lia. }
  destruct (lf_div_ok a b Ca Cb Nz) as (q & a' & b' & E & Cq & Vq & Sa & Sb). rewrite E. cbn [bind].
  destruct (lf_floor_ok q Cq) as (f & Ef & Cf & Vf). rewrite Ef. cbn [bind].
  destruct (lf_mul_ok f b' Cf (proj1 Sb)) as (m & f' & b'' & Em & Cm & Vm & _). rewrite Em. cbn [bind].
  destruct (lf_sub_ok a' m (proj1 Sa) Cm) as (s & u & v & Es & Cs & Vs & _). rewrite Es. cbn [bind fst].
  exists s. conjs; auto. rewrite Vs, Vm, Vf, (same_val_int a' a x Sa Va), (same_val_int b' b y Sb Vb).
  assert (F : Qfloor (value q) = x / y).
  { rewrite (Qfloor_comp _ _ Vq). rewrite (Qfloor_comp (value a / value b) (inject_Z x / inject_Z y)).
    - unfold Qdiv, Qinv, inject_Z. cbn [Qnum Qden]. destruct y as [|p|p]; [contradiction| |].
      + cbn [Qmult Qnum Qden Qfloor]. rewrite Z.mul_1_r. now rewrite Pos.mul_1_l.
      + cbn [Qmult Qnum Qden Qfloor]. rewrite Pos.mul_1_l.
        rewrite <- Z.div_opp_opp by lia. f_equal; lia.
    - rewrite Va, Vb. reflexivity. }
  rewrite F. rewrite Zmod_eq_full by assumption.
  unfold Z.sub. rewrite inject_Z_plus, inject_Z_opp, inject_Z_mult. reflexivity.
Qed.
End Fdiv.

Lemma round_ok a : canonical a -> returns (round_to_int a) (inject_Z (Qfloor (value a + (1 # 2)))).
Proof.
  intros Ca. unfold round_to_int.
  destruct (lf_make_ok 1 2) as (h & Eh & Ch & Dh).
  { unfold word. ranges. lia. } { unfold uword. ranges. lia. } { left. lia. }
  assert (Vh : (value h == 1 # 2)%Q) by (apply value_of_denotes with 1 2; auto; lia).
  rewrite Eh. cbn [bind].
  destruct (lf_add_ok a h Ca Ch) as (s & a' & h' & Es & Cs & Vs & _). rewrite Es. cbn [bind fst]. cbv zeta.
  destruct (lf_get_num_ok s Cs) as (n & En & Cn & Pn). rewrite En. cbn [bind].
  destruct (lf_get_den_ok s Cs) as (d & s' & Ed & Cd & Pd & _). rewrite Ed. cbn [bind fst].
  destruct (canonical_pos s Cs) as (sn & sp & Ps & Ws).
  rewrite Ps in Pn, Pd. cbn [fst snd] in Pn, Pd.
  destruct (fdiv_q_ok n d Cn Cd sn (Zpos sp)) as (q & n' & d' & Eq & Cq & Vq & _).
  { now apply value_int. } { now apply value_int. } { lia. }
  rewrite Eq. cbn [bind fst]. exists q. conjs; auto. rewrite Vq.
  assert (F : Qfloor (value a + (1 # 2)) = Qfloor (value s)).
  { apply Qfloor_comp. rewrite Vs, Vh. reflexivity. }
  rewrite F, Ws. reflexivity.
Qed.

(** Everything a program can hold is canonical. *)
Lemma c2_all m a b q r a' b' : computes2 m a b q -> m = Ok (r, a', b') ->
  canonical r /\ canonical a' /\ canonical b'.
Proof.
  intros (r0 & a0 & b0 & E & C & _ & [A _] & [B _]) E'. rewrite E in E'.
  injection E' as <- <- <-. auto.
Qed.
Lemma as_all m b q r b' : assigns m b q -> m = Ok (r, b') -> canonical r /\ canonical b'.
Proof.
  intros (r0 & b0 & E & C & _ & [B _]) E'. rewrite E in E'. injection E' as <- <-. auto.
Qed.
Lemma c1_all m a q r a' : computes m a q -> m = Ok (r, a') -> canonical r /\ canonical a'.
Proof.
  intros (r0 & b0 & E & C & _ & [B _]) E'. rewrite E in E'. injection E' as <- <-. auto.
Qed.
Lemma ret_all m q r : returns m q -> m = Ok r -> canonical r.
Proof. intros (r0 & E & C & _) E'. rewrite E in E'. injection E' as <-. auto. Qed.

Lemma produced_canonical x : produced x -> canonical x.
Proof.
  induction 1 as [x H|x H|n d r H E|n d r Hn Hd G E|a r P IH E|a P IH|k a r Pk IHk P IH E
    |f a b r a' b' x Pa IHa Pb IHb F E X|f a b r b' x Pa IHa Pb IHb F E X
    |a r a' x P IH E X|a r P IH E|a r a' x P IH N E X|f a r P IH F E|a r a' x P IH E X
    |a b c a' b' x Pa IHa Pb IHb E X|a b c a' b' x Pa IHa Pb IHb E X].
  - apply lf_word_spec. change (2 ^ 31) with 2147483648 in H. ranges. lia.
  - apply lf_uint_spec. change (2 ^ 32) with 4294967296 in H. ranges. lia.
  - eapply ret_all; [exact (lf_str_ok n d H)|exact E].
  - change (2 ^ 31) with 2147483648 in Hn. change (2 ^ 32) with 4294967296 in Hd.
    destruct (lf_make_ok n d) as (r' & E' & C & _); auto.
    { unfold word. ranges. lia. } { unfold uword. ranges. lia. }
    rewrite E in E'. injection E' as <-. exact C.
  - destruct (lf_copy_spec a IH) as (r' & E' & C & _). rewrite E in E'. injection E' as <-. exact C.
  - unfold lf_move. destruct (ma a); exact IH.
  - destruct (lf_assign_spec k a IH) as (r' & E' & C & _). rewrite E in E'. injection E' as <-. exact C.
  - assert (A : canonical r /\ canonical a' /\ canonical b').
    { destruct F as [->|[->|[->|[-> N]]]]; eapply c2_all; try exact E.
      - exact (lf_add_ok a b IHa IHb).
      - exact (lf_sub_ok a b IHa IHb).
      - exact (lf_mul_ok a b IHa IHb).
      - exact (lf_div_ok a b IHa IHb N). }
    destruct X as [->|[->| ->]]; tauto.
  - assert (A : canonical r /\ canonical b').
    { destruct F as [->|[->|[->|[-> N]]]]; eapply as_all; try exact E.
      - exact (lf_add_assign_ok a b IHa IHb).
      - exact (lf_sub_assign_ok a b IHa IHb).
      - exact (lf_mul_assign_ok a b IHa IHb).
      - exact (lf_div_assign_ok a b IHa IHb N). }
    destruct X as [->| ->]; tauto.
  - assert (A : canonical r /\ canonical a') by (eapply c1_all; [apply (lf_neg_ok a IH)|exact E]).
    destruct X as [->| ->]; tauto.
  - eapply ret_all; [exact (lf_negate_ok a IH)|exact E].
  - assert (A : canonical r /\ canonical a') by (eapply c1_all; [apply (lf_inverse_ok a IH N)|exact E]).
    destruct X as [->| ->]; tauto.
  - destruct F as [->|[->|[->| ->]]].
    + eapply ret_all; [exact (lf_floor_ok a IH)|exact E].
    + eapply ret_all; [exact (lf_ceil_ok a IH)|exact E].
    + eapply ret_all; [exact (round_ok a IH)|exact E].
    + destruct (lf_get_num_ok a IH) as (r' & E' & C & _). rewrite E in E'. injection E' as <-. exact C.
  - destruct (lf_get_den_ok a IH) as (r' & b0 & E' & C & _ & [B _]). rewrite E in E'.
    injection E' as <- <-. destruct X as [->| ->]; assumption.
  - destruct (lf_compare_ok a b IHa IHb) as (c0 & a0 & b0 & E' & [A _] & [B _] & _).
    rewrite E in E'. injection E' as <- <- <-. destruct X as [->| ->]; assumption.
  - destruct (lf_eq_ok a b IHa IHb) as (c0 & a0 & b0 & E' & [A _] & [B _] & _).
    rewrite E in E'. injection E' as <- <- <-. destruct X as [->| ->]; assumption.
Qed.

Lemma lf_make_returns n d : - 2 ^ 31 <= n < 2 ^ 31 -> 0 < d < 2 ^ 32 -> 0 <= n \/ Z.gcd n d = 1 ->
  returns (lf_make n d) (inject_Z n / inject_Z d).
Proof.
  intros Hn Hd G. change (2 ^ 31) with 2147483648 in Hn. change (2 ^ 32) with 4294967296 in Hd.
  destruct (lf_make_ok n d) as (r & E & C & D); auto.
  { unfold word. ranges. lia. } { unfold uword. ranges. lia. }
  exists r. conjs; auto. apply value_of_denotes with n d; auto; [lia|].
  unfold Qdiv, Qinv, inject_Z. cbn [Qnum Qden]. destruct d as [|p|p]; [lia| |lia].
  cbn [Qmult Qnum Qden]. lia.
Qed.

(** floor and ceiling characterised by inequalities *)
Lemma floor_spec q : (inject_Z (Qfloor q) <= q)%Q /\
  forall z, (inject_Z z <= q)%Q -> (z <= Qfloor q)%Z.
Proof.
  split; [apply Qfloor_le|]. intros z H. rewrite <- (Qfloor_Z z). now apply Qfloor_resp_le.
Qed.
Lemma ceil_spec q : (q <= inject_Z (Qceiling q))%Q /\
  forall z, (q <= inject_Z z)%Q -> (Qceiling q <= z)%Z.
Proof.
  split; [apply Qle_ceiling|]. intros z H. rewrite <- (Qceiling_Z z). now apply Qceiling_resp_le.
Qed.
