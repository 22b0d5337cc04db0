(** Object-level proofs about the rational numbers: the representation invariant and the value
    of every operation. *)
From Coq Require Import ZArith QArith Qround Bool Lia List Znumtheory.
From Verif Require Import Base Rational_Model Spec_Rational Rational_Proofs.
Local Open Scope Z_scope.

Ltac conjs := repeat match goal with |- _ /\ _ => split end.

Lemma fits_iff n d : 0 < d -> (fits n d <-> word n /\ uword d).
Proof.
  intros P. unfold fits, word, uword. ranges.
  change (2 ^ 31) with 2147483648. change (2 ^ 32) with 4294967296. lia.
Qed.

Lemma fits_mpq_iff q : 0 < snd q -> (fits_mpq q = true <-> fits (fst q) (snd q)).
Proof.
  intros P. rewrite fits_iff by assumption. unfold fits_mpq, mpz_fits_sint, mpz_fits_uint.
  rewrite !andb_true_iff, !Z.leb_le. unfold word, uword. lia.
Qed.

Lemma canonical_word x : canonical x -> wv x = true -> wlow (num x) (den x).
Proof.
  intros C W. destruct C as [_ _ [P G] _ F]. unfold parts in *. rewrite W in *. cbn [fst snd] in *.
  apply proj1 in F. specialize (F eq_refl). apply fits_iff in F; [|assumption].
  destruct F. now split.
Qed.

Lemma canonical_mv x : canonical x -> wv x = false -> mv x = true.
Proof. intros [[W|M] _ _ _ _] H; congruence. Qed.

Lemma canonical_mq x : canonical x -> mv x = true -> mq x = parts x.
Proof.
  intros C M. unfold parts. destruct (wv x) eqn:W; [|reflexivity]. now apply agree.
Qed.

Lemma canonical_nofit x : canonical x -> wv x = false -> fits_mpq (mq x) = false.
Proof.
  intros C W. destruct (fits_mpq (mq x)) eqn:F; [|reflexivity].
  pose proof (in_lowest x C) as [P G]. pose proof (fast_iff_fits x C) as [_ Q].
  unfold parts in *. rewrite W in *.
  apply fits_mpq_iff in F; [|assumption]. specialize (Q F). congruence.
Qed.

Lemma wf_canonical x : canonical x -> assert_wf x = Ok tt.
Proof.
  intros C. unfold assert_wf, isWellFormed, fitsWord.
  destruct (wv x) eqn:W.
  - cbn [bind negb orb andb]. pose proof (canonical_word x C W) as (Wn & Wd & G).
    unfold uword in Wd. unfold word in Wn.
    rewrite absVal32_abs by assumption. rewrite ugcd_gcd by lia. rewrite Z.gcd_abs_l, G.
    destruct (Z.eqb_spec (den x) 0); [lia|]. cbn [negb andb Z.eqb Pos.eqb].
    destruct (mv x) eqn:M; cbn [negb orb andb assertb]; [|reflexivity].
    pose proof (agree x C W M) as A. unfold wordAndMpqEqual. rewrite A. cbn [fst snd].
    rewrite Z.abs_eq by lia. rewrite to_u64_id by (ranges; lia). rewrite to_u32_id by (ranges; lia).
    rewrite to_i64_id by (ranges; lia). rewrite to_i32_id by assumption.
    rewrite !Z.eqb_refl.
    destruct (Z.eqb_spec (den x) 0); [lia|]. reflexivity.
  - pose proof (canonical_mv x C W) as M. rewrite M. cbn [bind negb andb orb assertb].
    rewrite (canonical_nofit x C W). cbn [negb assertb bind].
    pose proof (in_lowest x C) as [P _]. unfold parts in P. rewrite W in P.
    destruct (Z.eqb_spec (snd (mq x)) 0); [lia|]. reflexivity.
Qed.

Lemma ensure_spec x : canonical x -> exists x', ensure_mpq x = Ok x' /\ canonical x' /\
  parts x' = parts x /\ mv x' = true /\ mq x' = parts x /\ wv x' = wv x /\
  num x' = num x /\ den x' = den x.
Proof.
  intros C. unfold ensure_mpq. destruct (mv x) eqn:M.
  - exists x. conjs; auto. now apply canonical_mq.
  - destruct (wv x) eqn:W; [|rewrite (canonical_mv x C W) in M; discriminate].
    cbn [assertb bind]. pose proof C as [C1 C2 C3 C4 C5].
    eexists. split; [reflexivity|].
    assert (E : parts x = (num x, den x)) by (unfold parts; now rewrite W).
    split; [|now rewrite E].
    constructor; cbn [wv ma mv num den mq]; auto; try discriminate.
    + unfold parts in *; cbn. now rewrite W in C3.
    + unfold parts in *; cbn. rewrite W in C5. exact C5.
Qed.

Lemma try_fit_spec n0 d0 v : lowest (fst v) (snd v) ->
  exists r, try_fit_word (mkLf false true true n0 d0 v) = Ok r /\ canonical r /\ parts r = v.
Proof.
  intros L. unfold try_fit_word, fitsWord. cbn [wv mv mq negb andb assertb bind].
  destruct v as [n d]. cbn [fst snd] in *. pose proof L as [P G].
  destruct (fits_mpq (n, d)) eqn:F; eexists; (split; [reflexivity|]); (split; [|reflexivity]).
  - apply fits_mpq_iff in F; [|assumption].
    constructor; cbn [wv ma mv num den mq]; auto; try (unfold parts; cbn; tauto).
  - constructor; cbn [wv ma mv num den mq]; auto; try discriminate.

    + unfold parts. cbn [wv mq fst snd]. split; [discriminate|]. intros H.
      apply (fits_mpq_iff (n, d)) in H; [|assumption]. congruence.
Qed.

Lemma word_canonical k n d : wlow n d -> canonical (set_word k n d) /\ parts (set_word k n d) = (n, d).
Proof.
  intros W. split; [|reflexivity]. pose proof W as (Wn & Wd & G).
  constructor; cbn [set_word wv ma mv num den mq]; auto; try discriminate.
  - now apply wlow_lowest.
  - unfold parts. cbn [set_word wv num den fst snd]. split; [|reflexivity]. intros _.
    apply fits_iff; [unfold uword in Wd; lia|]. now split.
Qed.

(** [v] is the reduced form of [tn/td]. *)
Definition denotes (v : Z * Z) (tn td : Z) : Prop :=
  lowest (fst v) (snd v) /\ fst v * td = tn * snd v.

Lemma canonical_same x : canonical x -> same x x.
Proof. now split. Qed.

Lemma slow_spec op keep a b tn td : canonical a -> canonical b ->
  (exists v, op (parts a) (parts b) = Ok v /\ denotes v tn td) ->
  exists r a' b', slow op keep a b = Ok (r, a', b') /\ canonical r /\
    denotes (parts r) tn td /\ same a' a /\ same b' b.
Proof.
  intros Ca Cb (v & E & D). unfold slow.
  destruct (ensure_spec a Ca) as (a' & Ea & Ca' & Pa & _ & Ma & _).
  destruct (ensure_spec b Cb) as (b' & Eb & Cb' & Pb & _ & Mb & _).
  rewrite Ea, Eb. cbn [bind]. rewrite Ma, Mb, E. cbn [bind].
  destruct (try_fit_spec (num keep) (den keep) v (proj1 D)) as (r & Er & Cr & Pr).
  rewrite Er. cbn [bind]. exists r, a', b'. rewrite Pr. conjs; auto; now split.
Qed.

Lemma arith_spec fast op keep a b tn td : canonical a -> canonical b ->
  (wv a = true -> wv b = true -> yields (fast (num a) (den a) (num b) (den b)) tn td) ->
  (exists v, op (parts a) (parts b) = Ok v /\ denotes v tn td) ->
  exists r a' b', arith fast op keep a b = Ok (r, a', b') /\ canonical r /\
    denotes (parts r) tn td /\ same a' a /\ same b' b.
Proof.
  intros Ca Cb Y O. unfold arith. destruct (wv a && wv b) eqn:W; [|now apply slow_spec].
  apply andb_true_iff in W. destruct W as [Wa Wb]. destruct (Y Wa Wb) as (o & E & G).
  rewrite E. cbn [bind]. destruct o as [[n d]|]; [|now apply slow_spec].
  destruct G as [G V]. destruct (word_canonical keep n d G) as [C P].
  cbv zeta. rewrite wf_canonical by assumption. cbn [bind].
  exists (set_word keep n d), a, b. rewrite P. split; [reflexivity|]. split; [assumption|].
  split; [split; [now apply wlow_lowest|exact V]|]. split; now apply canonical_same.
Qed.

(** ** From fractions to [Q] *)

Lemma canonical_pos x : canonical x -> exists n p, parts x = (n, Zpos p) /\ value x = (n # p)%Q.
Proof.
  intros C. destruct (in_lowest x C) as [P _]. unfold value.
  destruct (parts x) as [n d]. cbn [fst snd] in *.
  destruct d as [|p|p]; try lia. now exists n, p.
Qed.

Lemma value_of_denotes r tn td (q : Q) : canonical r -> denotes (parts r) tn td -> td <> 0 ->
  (Qnum q * td = tn * QDen q) -> (value r == q)%Q.
Proof.
  intros C [L D] T E. destruct (canonical_pos r C) as (n & p & P & ->).
  rewrite P in D. cbn [fst snd] in D. unfold Qeq. cbn [Qnum Qden].
  apply Z.mul_reg_r with td; [assumption|].
  replace (n * QDen q * td) with (n * td * QDen q) by ring. rewrite D.
  replace (Qnum q * Z.pos p * td) with (Qnum q * td * Z.pos p) by ring. rewrite E. ring.
Qed.

Lemma same_value x y : same x y -> value x = value y.
Proof. intros [_ E]. unfold value. now rewrite E. Qed.

Lemma value_parts_eq x y : canonical x -> canonical y -> (value x == value y)%Q -> parts x = parts y.
Proof.
  intros Cx Cy E.
  pose proof (in_lowest x Cx) as Lx. pose proof (in_lowest y Cy) as Ly.
  destruct (canonical_pos x Cx) as (n & p & Px & Vx).
  destruct (canonical_pos y Cy) as (m & q & Py & Vy).
  rewrite Vx, Vy in E. rewrite Px, Py in *. cbn [fst snd] in *. unfold Qeq in E. cbn in E.
  destruct (lowest_unique n (Zpos p) m (Zpos q)) as [-> ->]; auto.
Qed.

(** ** Constructors *)

Lemma lf_word_spec x : WORD_MIN <= x <= WORD_MAX -> canonical (lf_word x) /\ parts (lf_word x) = (x, 1).
Proof.
  intros H. apply (word_canonical (mkLf true false false 0 1 (0, 1)) x 1).
  split; [exact H|]. split; [unfold uword; ranges; lia|apply Z.gcd_1_r].
Qed.

Lemma lf_mpz_spec z : canonical (lf_mpz z) /\ parts (lf_mpz z) = (z, 1).
Proof.
  unfold lf_mpz. destruct (mpz_fits_sint z) eqn:F.
  - apply lf_word_spec. unfold mpz_fits_sint in F. apply andb_true_iff in F.
    rewrite !Z.leb_le in F. lia.
  - split; [|reflexivity]. constructor; cbn [wv ma mv num den mq]; auto; try discriminate.
    + split; cbn; [lia|apply Z.gcd_1_r].
    + unfold parts. cbn. split; [discriminate|]. intros H.
      apply fits_iff in H; [|lia]. destruct H as [H _]. unfold word in H.
      unfold mpz_fits_sint in F. apply andb_false_iff in F. rewrite !Z.leb_gt in F. lia.
Qed.

Lemma lf_uint_spec x : 0 <= x <= UWORD_MAX -> canonical (lf_uint x) /\ parts (lf_uint x) = (x, 1).
Proof.
  intros H. unfold lf_uint. destruct (Z.ltb_spec WORD_MAX x).
  - pose proof (lf_mpz_spec x) as S. unfold lf_mpz in S.
    assert (F : mpz_fits_sint x = false).
    { unfold mpz_fits_sint. apply andb_false_iff. right. apply Z.leb_gt. lia. }
    now rewrite F in S.
  - apply lf_word_spec. ranges. lia.
Qed.

Lemma lf_str_spec n d : d <> 0 -> exists r, lf_str n d = Ok r /\ canonical r /\
  parts r = mpq_canon n d.
Proof.
  intros H. destruct (canon_spec n d H) as [L V]. unfold lf_str.
  destruct (Z.eqb_spec d 0); [lia|].
  destruct (try_fit_spec 0 1 (mpq_canon n d) L) as (r & E & C & P). rewrite E. cbn [bind].
  set (x := if wv r then mkLf true false false (num r) (den r) (mq r) else r).
  assert (X : canonical x /\ parts x = mpq_canon n d).
  { subst x. destruct (wv r) eqn:W; [|now split].
    destruct (word_canonical (mkLf true false false 0 1 (mq r)) (num r) (den r)
      (canonical_word r C W)) as [C' P'].
    split; [exact C'|]. rewrite <- P. unfold parts at 2. rewrite W. exact P'. }
  rewrite wf_canonical by apply X. cbn [bind]. exists x. split; [reflexivity|exact X].
Qed.

Lemma lf_copy_spec x : canonical x -> exists r, lf_copy x = Ok r /\ canonical r /\ parts r = parts x.
Proof.
  intros C. unfold lf_copy. destruct (wv x) eqn:W.
  - destruct (word_canonical (mkLf true false false 0 1 (0, 1)) (num x) (den x)
      (canonical_word x C W)) as [C' P'].
    eexists. split; [reflexivity|]. split; [exact C'|]. unfold parts at 2. now rewrite W.
  - rewrite (canonical_mv x C W). cbn [assertb bind]. eexists. split; [reflexivity|].
    split; [|unfold parts; now rewrite W].
    constructor; cbn [wv ma mv num den mq]; auto; try discriminate.
    + pose proof (in_lowest x C) as L. unfold parts in *. now rewrite W in L.
    + pose proof (fast_iff_fits x C) as F. unfold parts in *. rewrite W in F. exact F.
Qed.

Lemma lf_assign_spec k x : canonical x ->
  exists r, lf_assign k x = Ok r /\ canonical r /\ parts r = parts x.
Proof.
  intros C. unfold lf_assign. destruct (wv x) eqn:W.
  - destruct (word_canonical k (num x) (den x) (canonical_word x C W)) as [C' P'].
    eexists. split; [reflexivity|]. split; [exact C'|]. unfold parts at 2. now rewrite W.
  - rewrite (canonical_mv x C W). cbn [assertb bind]. eexists. split; [reflexivity|].
    split; [|unfold parts; now rewrite W].
    constructor; cbn [wv ma mv num den mq]; auto; try discriminate.
    + pose proof (in_lowest x C) as L. unfold parts in *. now rewrite W in L.
    + pose proof (fast_iff_fits x C) as F. unfold parts in *. rewrite W in F. exact F.
Qed.

(** ** Binary operations *)

Lemma is_word_true x n : is_word x n = true -> wv x = true /\ num x = n.
Proof. unfold is_word. rewrite andb_true_iff, Z.eqb_eq. tauto. Qed.

Lemma parts_word x : wv x = true -> parts x = (num x, den x).
Proof. intros W. unfold parts. now rewrite W. Qed.

Lemma is_one x : is_word x 1 && (den x =? 1) = true -> parts x = (1, 1).
Proof.
  rewrite andb_true_iff, Z.eqb_eq. intros [H D].
  apply is_word_true in H. destruct H as [W N]. rewrite parts_word, N, D by assumption. reflexivity.
Qed.

Lemma is_zero_parts x : canonical x -> is_word x 0 = true -> parts x = (0, 1).
Proof.
  intros C H. apply is_word_true in H. destruct H as [W N].
  rewrite parts_word by assumption. pose proof (canonical_word x C W) as (_ & U & G).
  rewrite N in *. rewrite Z.gcd_0_l in G. unfold uword in U. f_equal. lia.
Qed.

Lemma is_zero_false x : canonical x -> is_word x 0 = false -> fst (parts x) <> 0.
Proof.
  intros C H E. unfold is_word in H. destruct (wv x) eqn:W.
  - rewrite parts_word in E by assumption. cbn in *. apply Z.eqb_neq in H. contradiction.
  - pose proof (in_lowest x C) as [P G]. rewrite E, Z.gcd_0_l in G.
    assert (snd (parts x) = 1) by lia.
    pose proof (fast_iff_fits x C) as [_ F].
    rewrite W in F. assert (false = true); [|discriminate]. apply F.
    apply fits_iff; [lia|]. rewrite E, H0. unfold word, uword. ranges. lia.
Qed.

Section Ops.
Variables a b : lf.
Hypothesis Ca : canonical a.
Hypothesis Cb : canonical b.
Let an := fst (parts a).
Let ad := snd (parts a).
Let bn := fst (parts b).
Let bd := snd (parts b).

Lemma pos_a : 0 < ad. Proof. apply (in_lowest a Ca). Qed.
Lemma pos_b : 0 < bd. Proof. apply (in_lowest b Cb). Qed.

Definition outcome (m : res (lf * lf * lf)) (tn td : Z) : Prop :=
  exists r a' b', m = Ok (r, a', b') /\ canonical r /\ denotes (parts r) tn td /\
    same a' a /\ same b' b.

Lemma outcome_guarded f tn td : outcome (f a b) tn td -> outcome (guarded f a b) tn td.
Proof.
  intros (r & a' & b' & E & C & D & A & B). unfold guarded.
  rewrite !wf_canonical by assumption. cbn [bind]. rewrite E. cbn [bind fst].
  rewrite wf_canonical by assumption. cbn [bind]. exists r, a', b'. auto.
Qed.

Definition outcome2 (m : res (lf * lf)) (tn td : Z) : Prop :=
  exists r b', m = Ok (r, b') /\ canonical r /\ denotes (parts r) tn td /\ same b' b.

Lemma outcome_fst3 m tn td : outcome m tn td -> outcome2 (r <- m ;; Ok (fst3 r)) tn td.
Proof.
  intros (r & a' & b' & E & C & D & A & B). rewrite E. cbn [bind fst3].
  exists r, b'. auto.
Qed.

Lemma outcome2_guarded f tn td : outcome2 (f a b) tn td -> outcome2 (guarded2 f a b) tn td.
Proof.
  intros (r & b' & E & C & D & B). unfold guarded2.
  rewrite !wf_canonical by assumption. cbn [bind]. rewrite E. cbn [bind fst].
  rewrite wf_canonical by assumption. cbn [bind]. exists r, b'. auto.
Qed.

Lemma arith_outcome fast op keep tn td :
  (wv a = true -> wv b = true -> yields (fast (num a) (den a) (num b) (den b)) tn td) ->
  (exists v, op (parts a) (parts b) = Ok v /\ denotes v tn td) ->
  outcome (arith fast op keep a b) tn td.
Proof. now apply arith_spec. Qed.

Ltac words := let Wa := fresh in let Wb := fresh in intros Wa Wb;
  unfold an, ad, bn, bd; rewrite !parts_word by assumption; cbn [fst snd].

Lemma addition_outcome : outcome (addition a b) (an * bd + bn * ad) (ad * bd).
Proof.
  apply arith_outcome.
  - words. apply add_word_yields; now apply canonical_word.
  - eexists. split; [reflexivity|]. apply canon_spec. pose proof pos_a. pose proof pos_b. unfold ad, bd in *. nia.
Qed.
Lemma substraction_outcome : outcome (substraction a b) (an * bd - bn * ad) (ad * bd).
Proof.
  apply arith_outcome.
  - words. apply sub_word_yields; now apply canonical_word.
  - eexists. split; [reflexivity|]. apply canon_spec. pose proof pos_a. pose proof pos_b. unfold ad, bd in *. nia.
Qed.

Lemma multiplication_outcome : outcome (multiplication a b) (an * bn) (ad * bd).
Proof.
  unfold multiplication.
  destruct (is_word a 0 || is_word b 0) eqn:Z0.
  { exists (set_word lf_default 0 1), a, b. split; [reflexivity|].
    destruct (word_canonical lf_default 0 1) as [C P].
    { split; [unfold word; ranges; lia|]. split; [unfold uword; ranges; lia|reflexivity]. }
    split; [exact C|]. split; [|split; now apply canonical_same].
    apply orb_true_iff in Z0. split; [split; cbn; [lia|reflexivity]|].
    rewrite P. cbn [fst snd]. unfold an, bn.
    destruct Z0 as [Z0|Z0]; apply is_zero_parts in Z0; auto; rewrite Z0; cbn [fst]; ring. }
  destruct (is_word a 1 && (den a =? 1)) eqn:O1.
  { destruct (lf_assign_spec lf_default b Cb) as (r & E & C & P). rewrite E. cbn [bind].
    exists r, a, b. split; [reflexivity|]. split; [exact C|].
    split; [|split; now apply canonical_same]. split; [apply (in_lowest r C)|].
    apply is_one in O1. unfold an, ad. rewrite O1, P. cbn [fst snd]. fold bn bd. ring. }
  destruct (is_word b 1 && (den b =? 1)) eqn:O2.
  { destruct (lf_assign_spec lf_default a Ca) as (r & E & C & P). rewrite E. cbn [bind].
    exists r, a, b. split; [reflexivity|]. split; [exact C|].
    split; [|split; now apply canonical_same]. split; [apply (in_lowest r C)|].
    apply is_one in O2. unfold bn, bd. rewrite O2, P. cbn [fst snd]. fold an ad. ring. }
  apply arith_outcome.
  - words. apply mul_word_yields; now apply canonical_word.
  - eexists. split; [reflexivity|]. apply canon_spec. pose proof pos_a. pose proof pos_b. unfold ad, bd in *. nia.
Qed.

Lemma mpq_div_outcome : bn <> 0 ->
  exists v, mpq_div (parts a) (parts b) = Ok v /\ denotes v (an * bd) (ad * bn).
Proof.
  intros N. unfold mpq_div. fold bn. destruct (Z.eqb_spec bn 0); [contradiction|].
  eexists. split; [reflexivity|]. apply canon_spec. pose proof pos_a. unfold ad, bn in *. nia.
Qed.

Lemma division_outcome : bn <> 0 -> outcome (division a b) (an * bd) (ad * bn).
Proof.
  intros N. unfold division.
  destruct (is_word b 1 && (den b =? 1)) eqn:O2.
  { destruct (lf_assign_spec lf_default a Ca) as (r & E & C & P). rewrite E. cbn [bind].
    exists r, a, b. split; [reflexivity|]. split; [exact C|].
    split; [|split; now apply canonical_same]. split; [apply (in_lowest r C)|].
    apply is_one in O2. unfold bn, bd. rewrite O2, P. cbn [fst snd]. fold an ad. ring. }
  destruct (is_word a 0) eqn:Z0.
  { destruct (lf_word_spec 0) as [C P]; [ranges; lia|].
    exists (lf_word 0), a, b. split; [reflexivity|]. split; [exact C|].
    split; [|split; now apply canonical_same]. split; [apply (in_lowest _ C)|].
    apply is_zero_parts in Z0; auto. unfold an, ad. rewrite Z0, P. cbn [fst snd]. ring. }
  destruct ((wv a && wv b) && ((num a =? num b) && (den a =? den b))) eqn:Eq.
  { apply andb_true_iff in Eq. destruct Eq as [W E]. apply andb_true_iff in W. destruct W as [Wa Wb].
    apply andb_true_iff in E. rewrite !Z.eqb_eq in E. destruct E as [E1 E2].
    destruct (word_canonical lf_default 1 1) as [C P].
    { split; [unfold word; ranges; lia|]. split; [unfold uword; ranges; lia|reflexivity]. }
    exists (set_word lf_default 1 1), a, b. split; [reflexivity|]. split; [exact C|].
    split; [|split; now apply canonical_same]. split; [apply (in_lowest _ C)|].
    rewrite P. unfold an, ad, bn, bd. rewrite !parts_word by assumption. cbn [fst snd].
    rewrite E1, E2. ring. }
  apply arith_outcome; [|now apply mpq_div_outcome].
  intros Wa Wb. unfold an, ad, bn, bd in *. rewrite !parts_word in * by assumption. cbn [fst snd] in *.
  apply div_word_yields; auto; now apply canonical_word.
Qed.

Lemma additionAssign_outcome : outcome2 (additionAssign a b) (an * bd + bn * ad) (ad * bd).
Proof.
  unfold additionAssign. destruct (is_word b 0) eqn:Z0.
  - exists a, b. split; [reflexivity|]. split; [assumption|]. split; [|now apply canonical_same].
    split; [apply (in_lowest a Ca)|]. apply is_zero_parts in Z0; auto. fold an ad.
    unfold bn, bd. rewrite Z0. cbn [fst snd]. ring.
  - apply outcome_fst3. apply arith_outcome.
    + words. apply adda_word_yields; now apply canonical_word.
    + eexists. split; [reflexivity|]. apply canon_spec. pose proof pos_a. pose proof pos_b. unfold ad, bd in *. nia.
Qed.
Lemma substractionAssign_outcome : outcome2 (substractionAssign a b) (an * bd - bn * ad) (ad * bd).
Proof.
  apply outcome_fst3. apply arith_outcome.
  - words. apply suba_word_yields; now apply canonical_word.
  - eexists. split; [reflexivity|]. apply canon_spec. pose proof pos_a. pose proof pos_b. unfold ad, bd in *. nia.
Qed.
Lemma multiplicationAssign_outcome : outcome2 (multiplicationAssign a b) (an * bn) (ad * bd).
Proof.
  apply outcome_fst3. apply arith_outcome.
  - words. apply mula_word_yields; now apply canonical_word.
  - eexists. split; [reflexivity|]. apply canon_spec. pose proof pos_a. pose proof pos_b. unfold ad, bd in *. nia.
Qed.
Lemma divisionAssign_outcome : bn <> 0 -> outcome2 (divisionAssign a b) (an * bd) (ad * bn).
Proof.
  intros N. apply outcome_fst3. apply arith_outcome; [|now apply mpq_div_outcome].
  intros Wa Wb. unfold an, ad, bn, bd in *. rewrite !parts_word in * by assumption. cbn [fst snd] in *.
  apply div_word_yields; auto; now apply canonical_word.
Qed.

(** In terms of [Q] *)
Lemma outcome_computes m tn td q : outcome m tn td -> td <> 0 -> Qnum q * td = tn * QDen q ->
  computes2 m a b q.
Proof.
  intros (r & a' & b' & E & C & D & A & B) T V. exists r, a', b'.
  conjs; auto. now apply value_of_denotes with tn td.
Qed.
Lemma outcome2_assigns m tn td q : outcome2 m tn td -> td <> 0 -> Qnum q * td = tn * QDen q ->
  assigns m b q.
Proof.
  intros (r & b' & E & C & D & B) T V. exists r, b'.
  conjs; auto. now apply value_of_denotes with tn td.
Qed.

Lemma ad_bd : ad * bd <> 0.
Proof. pose proof pos_a. pose proof pos_b. nia. Qed.

Lemma vals : exists n p m q, an = n /\ ad = Zpos p /\ bn = m /\ bd = Zpos q /\
  value a = (n # p)%Q /\ value b = (m # q)%Q.
Proof.
  destruct (canonical_pos a Ca) as (n & p & P & V).
  destruct (canonical_pos b Cb) as (m & q & Q & W).
  exists n, p, m, q. unfold an, ad, bn, bd. rewrite P, Q. cbn [fst snd]. auto 10.
Qed.

Lemma value_b_nonzero : ~ (value b == 0)%Q -> bn <> 0.
Proof.
  destruct vals as (n & p & m & q & -> & _ & -> & _ & _ & ->). intros H E. apply H.
  subst m. reflexivity.
Qed.

Lemma num_plus : Qnum (value a + value b) * (ad * bd) = (an * bd + bn * ad) * QDen (value a + value b).
Proof.
  destruct vals as (n & p & m & q & -> & -> & -> & -> & -> & ->). cbn [Qplus Qnum Qden]. lia.
Qed.
Lemma num_minus : Qnum (value a - value b) * (ad * bd) = (an * bd - bn * ad) * QDen (value a - value b).
Proof.
  destruct vals as (n & p & m & q & -> & -> & -> & -> & -> & ->).
  cbn [Qminus Qopp Qplus Qnum Qden]. lia.
Qed.
Lemma num_mult : Qnum (value a * value b) * (ad * bd) = (an * bn) * QDen (value a * value b).
Proof.
  destruct vals as (n & p & m & q & -> & -> & -> & -> & -> & ->). cbn [Qmult Qnum Qden]. lia.
Qed.
Lemma num_div : bn <> 0 ->
  Qnum (value a / value b) * (ad * bn) = (an * bd) * QDen (value a / value b).
Proof.
  destruct vals as (n & p & m & q & -> & -> & -> & -> & -> & ->). intros H.
  unfold Qdiv, Qinv. cbn [Qnum Qden]. destruct m as [|m|m]; [contradiction| |]; cbn [Qmult Qnum Qden]; lia.
Qed.

Lemma lf_add_ok : computes2 (lf_add a b) a b (value a + value b).
Proof. eapply outcome_computes; [apply outcome_guarded, addition_outcome|apply ad_bd|apply num_plus]. Qed.
Lemma lf_sub_ok : computes2 (lf_sub a b) a b (value a - value b).
Proof. eapply outcome_computes; [apply outcome_guarded, substraction_outcome|apply ad_bd|apply num_minus]. Qed.
Lemma lf_mul_ok : computes2 (lf_mul a b) a b (value a * value b).
Proof. eapply outcome_computes; [apply outcome_guarded, multiplication_outcome|apply ad_bd|apply num_mult]. Qed.
Lemma lf_div_ok : ~ (value b == 0)%Q -> computes2 (lf_div a b) a b (value a / value b).
Proof.
  intros H%value_b_nonzero. eapply outcome_computes;
    [apply outcome_guarded, division_outcome, H|pose proof pos_a; unfold ad, bn in *; nia|apply num_div, H].
Qed.
Lemma lf_add_assign_ok : assigns (lf_add_assign a b) b (value a + value b).
Proof. eapply outcome2_assigns; [apply outcome2_guarded, additionAssign_outcome|apply ad_bd|apply num_plus]. Qed.
Lemma lf_sub_assign_ok : assigns (lf_sub_assign a b) b (value a - value b).
Proof. eapply outcome2_assigns; [apply outcome2_guarded, substractionAssign_outcome|apply ad_bd|apply num_minus]. Qed.
Lemma lf_mul_assign_ok : assigns (lf_mul_assign a b) b (value a * value b).
Proof. eapply outcome2_assigns; [apply outcome2_guarded, multiplicationAssign_outcome|apply ad_bd|apply num_mult]. Qed.
Lemma lf_div_assign_ok : ~ (value b == 0)%Q -> assigns (lf_div_assign a b) b (value a / value b).
Proof.
  intros H%value_b_nonzero. eapply outcome2_assigns;
    [apply outcome2_guarded, divisionAssign_outcome, H|pose proof pos_a; unfold ad, bn in *; nia|apply num_div, H].
Qed.

(** Comparisons *)
Lemma cmp_spec x y : (cmp x y < 0 <-> x < y) /\ (cmp x y = 0 <-> x = y) /\ (cmp x y > 0 <-> x > y).
Proof. unfold cmp. destruct (Z.ltb_spec x y), (Z.ltb_spec y x); lia. Qed.

Lemma lf_compare_ok : exists c a' b', lf_compare a b = Ok (c, a', b') /\ same a' a /\ same b' b /\
  (c < 0 <-> (value a < value b)%Q) /\ (c = 0 <-> (value a == value b)%Q) /\
  (c > 0 <-> (value b < value a)%Q).
Proof.
  assert (K : forall c, c = cmp (an * bd) (bn * ad) ->
    (c < 0 <-> (value a < value b)%Q) /\ (c = 0 <-> (value a == value b)%Q) /\
    (c > 0 <-> (value b < value a)%Q)).
  { intros c ->. pose proof (cmp_spec (an * bd) (bn * ad)) as (K1 & K2 & K3).
    rewrite K1, K2, K3.
    destruct vals as (n & p & m & q & -> & -> & -> & -> & -> & ->).
    unfold Qlt, Qeq. cbn [Qnum Qden]. lia. }
  unfold lf_compare. destruct (wv a && wv b) eqn:W.
  - apply andb_true_iff in W. destruct W as [Wa Wb].
    pose proof (canonical_word a Ca Wa) as (W1 & U1 & _).
    pose proof (canonical_word b Cb Wb) as (W2 & U2 & _).
    unfold an, ad, bn, bd in K. rewrite !parts_word in K by assumption. cbn [fst snd] in K.
    destruct (Z.eqb_spec (den b) (den a)) as [E|E].
    + do 3 eexists. split; [reflexivity|]. split; [now apply canonical_same|].
      split; [now apply canonical_same|]. apply K. rewrite E. unfold uword in U1.
      unfold cmp. destruct (Z.ltb_spec (num a) (num b)), (Z.ltb_spec (num a * den a) (num b * den a)),
        (Z.ltb_spec (num b) (num a)), (Z.ltb_spec (num b * den a) (num a * den a)); try reflexivity; nia.
    + unfold uword in *.
      pose proof (mul_bound (num a) (den b) W1 ltac:(lia)) as M1.
      pose proof (mul_bound (num b) (den a) W2 ltac:(lia)) as M2.
      change (2 ^ 31) with 2147483648 in *.
      rewrite !lw_ok by (ranges; lia). cbn [bind].
      do 3 eexists. split; [reflexivity|]. split; [now apply canonical_same|].
      split; [now apply canonical_same|]. now apply K.
  - destruct (ensure_spec a Ca) as (a' & Ea & Ca' & Pa & _ & Ma & _).
    destruct (ensure_spec b Cb) as (b' & Eb & Cb' & Pb & _ & Mb & _).
    rewrite Ea, Eb. cbn [bind]. do 3 eexists. split; [reflexivity|].
    split; [now split|]. split; [now split|]. apply K. rewrite Ma, Mb. reflexivity.
Qed.

Lemma pair_eqb_parts (p q : Z * Z) : (fst p =? fst q) && (snd p =? snd q) = true <-> p = q.
Proof.
  rewrite andb_true_iff, !Z.eqb_eq. destruct p, q; cbn. split; [intros [-> ->]|intros [= -> ->]]; auto.
Qed.

Lemma lf_eq_ok : exists e a' b', lf_eq a b = Ok (e, a', b') /\ same a' a /\ same b' b /\
  (e = true <-> (value a == value b)%Q).
Proof.
  assert (K : parts a = parts b <-> (value a == value b)%Q).
  { split; [|now apply value_parts_eq]. intros E. unfold value. now rewrite E. }
  unfold lf_eq. destruct (wv a && wv b) eqn:W.
  - apply andb_true_iff in W. destruct W as [Wa Wb].
    do 3 eexists. split; [reflexivity|]. split; [now apply canonical_same|].
    split; [now apply canonical_same|]. rewrite <- K, !parts_word by assumption.
    apply (pair_eqb_parts (num a, den a) (num b, den b)).
  - destruct (ensure_spec a Ca) as (a' & Ea & Ca' & Pa & _ & Ma & _).
    destruct (ensure_spec b Cb) as (b' & Eb & Cb' & Pb & _ & Mb & _).
    rewrite Ea, Eb. cbn [bind]. do 3 eexists. split; [reflexivity|].
    split; [now split|]. split; [now split|]. rewrite Ma, Mb, <- K. apply pair_eqb_parts.
Qed.

Lemma hash_ok limbs : (value a == value b)%Q -> lf_hash limbs a = lf_hash limbs b.
Proof.
  intros E. apply value_parts_eq in E; auto.
  assert (W : wv a = wv b).
  { pose proof (fast_iff_fits a Ca) as Fa. pose proof (fast_iff_fits b Cb) as Fb.
    rewrite <- E in Fb. destruct (wv a), (wv b); auto.
    - symmetry. apply Fb. now apply Fa.
    - apply Fa. now apply Fb. }
  unfold lf_hash. unfold parts in E. rewrite W in E. rewrite W.
  destruct (wv b); [injection E as -> ->|rewrite E]; reflexivity.
Qed.
End Ops.
