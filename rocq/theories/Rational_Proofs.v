(** Proofs about the rational numbers (Rational_Model.v against Spec_Rational.v). *)
From Coq Require Import ZArith QArith Qround Bool Lia List Znumtheory.
From Verif Require Import Base Rational_Model Spec_Rational.
Local Open Scope Z_scope.

Ltac ranges := unfold WORD_MIN, WORD_MAX, UWORD_MAX, LWORD_MIN, LWORD_MAX, two32, two64 in *.

(** ** Machine arithmetic *)

Lemma lw_ok z : LWORD_MIN <= z <= LWORD_MAX -> lw z = Ok z.
Proof.
  intros [H1 H2]. unfold lw. apply Z.leb_le in H1, H2. now rewrite H1, H2.
Qed.

Lemma to_u32_id z : 0 <= z <= UWORD_MAX -> to_u32 z = z.
Proof. intros. unfold to_u32. apply Z.mod_small. ranges. lia. Qed.
Lemma to_u64_id z : 0 <= z < two64 -> to_u64 z = z.
Proof. intros. unfold to_u64. now apply Z.mod_small. Qed.
Lemma to_i32_id z : WORD_MIN <= z <= WORD_MAX -> to_i32 z = z.
Proof.
  intros H. unfold to_i32. destruct (Z_lt_le_dec z 0).
  - replace (z mod two32) with (z + two32).
    + destruct (Z.ltb_spec WORD_MAX (z + two32)); ranges; lia.
    + rewrite <- (Z.mod_add z 1 two32) by (ranges; lia). rewrite Z.mod_small; ranges; lia.
  - rewrite Z.mod_small by (ranges; lia).
    destruct (Z.ltb_spec WORD_MAX z); lia.
Qed.
Lemma to_i64_id z : LWORD_MIN <= z <= LWORD_MAX -> to_i64 z = z.
Proof.
  intros H. unfold to_i64. destruct (Z_lt_le_dec z 0).
  - replace (z mod two64) with (z + two64).
    + destruct (Z.ltb_spec LWORD_MAX (z + two64)); ranges; lia.
    + rewrite <- (Z.mod_add z 1 two64) by (ranges; lia). rewrite Z.mod_small; ranges; lia.
  - rewrite Z.mod_small by (ranges; lia).
    destruct (Z.ltb_spec LWORD_MAX z); lia.
Qed.
Lemma to_i64_big z : LWORD_MAX < z < two64 -> to_i64 z = z - two64.
Proof.
  intros H. unfold to_i64. rewrite Z.mod_small by (ranges; lia).
  destruct (Z.ltb_spec LWORD_MAX z); lia.
Qed.

Lemma absVal32_abs x : WORD_MIN <= x <= WORD_MAX -> absVal32 x = Z.abs x.
Proof.
  intros H. unfold absVal32. destruct (Z.ltb_spec x 0).
  - unfold to_u32.
    replace (x mod two32) with (x + two32).
    + replace ((- (x + two32)) mod two32) with (- x); [lia|].
      rewrite <- (Z.mod_add (- (x + two32)) 1 two32) by (ranges; lia).
      rewrite Z.mod_small; ranges; lia.
    + rewrite <- (Z.mod_add x 1 two32) by (ranges; lia). rewrite Z.mod_small; ranges; lia.
  - rewrite to_u32_id; ranges; lia.
Qed.
Lemma absVal64_abs x : LWORD_MIN <= x <= LWORD_MAX -> absVal64 x = Z.abs x.
Proof.
  intros H. unfold absVal64. destruct (Z.ltb_spec x 0).
  - unfold to_u64.
    replace (x mod two64) with (x + two64).
    + replace ((- (x + two64)) mod two64) with (- x); [lia|].
      rewrite <- (Z.mod_add (- (x + two64)) 1 two64) by (ranges; lia).
      rewrite Z.mod_small; ranges; lia.
    + rewrite <- (Z.mod_add x 1 two64) by (ranges; lia). rewrite Z.mod_small; ranges; lia.
  - rewrite to_u64_id; ranges; lia.
Qed.

Lemma gcd_loop_spec f : forall a b, 0 < b <= a -> a * b < 2 ^ Z.of_nat f ->
  gcd_loop f a b = Z.gcd a b.
Proof.
  induction f as [|f IH]; intros a b H L.
  - change (2 ^ Z.of_nat 0) with 1 in L. nia.
  - cbn [gcd_loop]. cbv zeta.
    pose proof (Z.mod_pos_bound a b ltac:(lia)) as M.
    pose proof (Z.div_mod a b ltac:(lia)) as E.
    assert (D : 1 <= a / b) by (apply Z.div_le_lower_bound; lia).
    destruct (Z.eqb_spec (a mod b) 0) as [Z0|NZ].
    + rewrite (Z.gcd_comm a b), <- Z.gcd_mod by lia. rewrite Z0, Z.gcd_0_l. lia.
    + rewrite IH.
      * rewrite (Z.gcd_comm b (a mod b)). rewrite Z.gcd_mod by lia. apply Z.gcd_comm.
      * lia.
      * rewrite Nat2Z.inj_succ, Z.pow_succ_r in L by lia. nia.
Qed.

Lemma ugcd_gcd a b : 0 <= a -> 0 <= b -> ugcd a b = Z.gcd a b.
Proof.
  intros Ha Hb. unfold ugcd.
  destruct (Z.eqb_spec a 0) as [->|Na]. { rewrite Z.gcd_0_l. lia. }
  destruct (Z.eqb_spec b 0) as [->|Nb]. { rewrite Z.gcd_0_r. lia. }
  assert (F : forall x y, 0 < y <= x ->
    gcd_loop (S (Z.to_nat (Z.log2 (x * y)))) x y = Z.gcd x y).
  { intros x y H. apply gcd_loop_spec; [lia|].
    rewrite Nat2Z.inj_succ, Z2Nat.id by apply Z.log2_nonneg.
    apply Z.log2_spec. nia. }
  destruct (Z.ltb_spec a b).
  - rewrite F by lia. apply Z.gcd_comm.
  - apply F. lia.
Qed.

Lemma udiv_ok a b : b <> 0 -> udiv a b = Ok (a / b).
Proof. intros H. unfold udiv. destruct (Z.eqb_spec b 0); [lia|reflexivity]. Qed.

Lemma sdiv_exact k c : 0 < c -> LWORD_MIN <= k * c <= LWORD_MAX -> sdiv (k * c) c = Ok k.
Proof.
  intros H R. unfold sdiv. destruct (Z.eqb_spec c 0); [lia|].
  rewrite Z.quot_mul by lia. apply lw_ok.
  destruct (Z_lt_le_dec k 0); ranges; nia.
Qed.

(** ** Number theory *)

Lemma gcd_pos_r n d : 0 < d -> 0 < Z.gcd n d.
Proof.
  intros H. pose proof (Z.gcd_nonneg n d).
  assert (Z.gcd n d <> 0); [|lia]. intros E. apply Z.gcd_eq_0 in E. lia.
Qed.

Lemma lowest_unique n d n' d' :
  lowest n d -> lowest n' d' -> n * d' = n' * d -> n = n' /\ d = d'.
Proof.
  intros [P G] [P' G'] E.
  assert (D1 : (d | d')).
  { apply Gauss with n.
    - exists n'. lia.
    - apply Zgcd_1_rel_prime. now rewrite Z.gcd_comm. }
  assert (D2 : (d' | d)).
  { apply Gauss with n'.
    - exists n. lia.
    - apply Zgcd_1_rel_prime. now rewrite Z.gcd_comm. }
  assert (d = d') by (apply Z.divide_antisym_nonneg; auto; lia).
  subst d'. split; [nia|reflexivity].
Qed.

Lemma lowest_reduce n d : 0 < d -> lowest (n / Z.gcd n d) (d / Z.gcd n d).
Proof.
  intros H. pose proof (gcd_pos_r n d H) as G.
  destruct (Z.gcd_divide_r n d) as [k K].
  split.
  - rewrite K at 1. rewrite Z.div_mul by lia. nia.
  - apply Z.gcd_div_gcd; [lia|reflexivity].
Qed.

Lemma reduce_value n d : 0 < d -> (n / Z.gcd n d) * d = n * (d / Z.gcd n d).
Proof.
  intros H. pose proof (gcd_pos_r n d H) as G.
  destruct (Z.gcd_divide_l n d) as [j J].
  destruct (Z.gcd_divide_r n d) as [k K].
  assert (J' : n / Z.gcd n d = j) by (rewrite J at 1; now rewrite Z.div_mul by lia).
  assert (K' : d / Z.gcd n d = k) by (rewrite K at 1; now rewrite Z.div_mul by lia).
  rewrite J', K'. set (g := Z.gcd n d) in *. clearbody g. clear J' K'. subst n d. ring.
Qed.

Lemma canon_spec n d : d <> 0 ->
  let v := mpq_canon n d in lowest (fst v) (snd v) /\ fst v * d = n * snd v.
Proof.
  intros H. unfold mpq_canon. cbn [fst snd].
  assert (A : 0 < Z.abs d) by lia.
  assert (G : Z.gcd n d = Z.gcd n (Z.abs d)) by (now rewrite Z.gcd_abs_r).
  rewrite G.
  pose proof (lowest_reduce n (Z.abs d) A) as [P Q].
  pose proof (reduce_value n (Z.abs d) A) as V.
  set (g := Z.gcd n (Z.abs d)) in *.
  destruct (Z_lt_le_dec d 0).
  - rewrite Z.sgn_neg by lia. split.
    + split; [assumption|]. rewrite <- Q.
      replace (-1 * (n / g)) with (- (n / g)) by lia. apply Z.gcd_opp_l.
    + replace d with (- Z.abs d) at 1 by lia. lia.
  - rewrite Z.sgn_pos by lia. rewrite Z.mul_1_l. split; [split; assumption|].
    replace d with (Z.abs d) at 1 by lia. assumption.
Qed.

Lemma gcd_1_divides a a' b b' : (a' | a) -> (b' | b) -> Z.gcd a b = 1 -> Z.gcd a' b' = 1.
Proof.
  intros A B G. apply Zgcd_1_rel_prime.
  apply Zgcd_1_rel_prime in G.
  apply rel_prime_div with a; [|assumption].
  apply rel_prime_sym. apply rel_prime_div with b; [|assumption]. now apply rel_prime_sym.
Qed.

Lemma gcd_1_mul_r a b c : Z.gcd a b = 1 -> Z.gcd a c = 1 -> Z.gcd a (b * c) = 1.
Proof.
  rewrite !Zgcd_1_rel_prime. intros. now apply rel_prime_mult.
Qed.
Lemma gcd_1_mul_l a b c : Z.gcd a c = 1 -> Z.gcd b c = 1 -> Z.gcd (a * b) c = 1.
Proof.
  intros. rewrite Z.gcd_comm. apply gcd_1_mul_r; now rewrite Z.gcd_comm.
Qed.

(** Sum of two fractions over the least common denominator: what can still be cancelled divides
    the gcd of the denominators. *)
Lemma sum_gcd an ad bn bd s : lowest an ad -> lowest bn bd -> s = 1 \/ s = -1 ->
  let g := Z.gcd ad bd in
  let n := an * (bd / g) + s * (bn * (ad / g)) in
  let d := ad * (bd / g) in
  (Z.gcd n d | g) /\ 0 < d /\ n * (ad * bd) = (an * bd + s * (bn * ad)) * d.
Proof.
  intros [Pa Ga] [Pb Gb] Hs. cbv zeta.
  pose proof (gcd_pos_r ad bd Pb) as G0.
  destruct (Z.gcd_divide_l ad bd) as [a' A].
  destruct (Z.gcd_divide_r ad bd) as [b' B].
  assert (A' : ad / Z.gcd ad bd = a') by (rewrite A at 1; now rewrite Z.div_mul by lia).
  assert (B' : bd / Z.gcd ad bd = b') by (rewrite B at 1; now rewrite Z.div_mul by lia).
  assert (C : Z.gcd a' b' = 1).
  { rewrite <- A', <- B'. apply Z.gcd_div_gcd; [lia|reflexivity]. }
  rewrite A', B'. set (g := Z.gcd ad bd) in *.
  assert (0 < a') by nia. assert (0 < b') by nia.
  assert (Ca : Z.gcd an a' = 1) by (apply gcd_1_divides with an ad; auto; [apply Z.divide_refl|exists g; lia]).
  assert (Cb : Z.gcd bn b' = 1) by (apply gcd_1_divides with bn bd; auto; [apply Z.divide_refl|exists g; lia]).
  assert (N1 : Z.gcd (an * b' + s * (bn * a')) a' = 1).
  { rewrite Z.gcd_comm. replace (an * b' + s * (bn * a')) with (an * b' + (s * bn) * a') by lia.
    rewrite Z.gcd_add_mult_diag_r. apply gcd_1_mul_r; [now rewrite Z.gcd_comm|assumption]. }
  assert (N2 : Z.gcd (an * b' + s * (bn * a')) b' = 1).
  { rewrite Z.gcd_comm. replace (an * b' + s * (bn * a')) with (s * bn * a' + an * b') by lia.
    rewrite Z.gcd_add_mult_diag_r. apply gcd_1_mul_r; [|now rewrite Z.gcd_comm].
    destruct Hs; subst s.
    - rewrite Z.mul_1_l. now rewrite Z.gcd_comm.
    - replace (-1 * bn) with (- bn) by lia. rewrite Z.gcd_opp_r. now rewrite Z.gcd_comm. }
  set (n := an * b' + s * (bn * a')) in *.
  split; [|split].
  - pose proof (Z.gcd_divide_r n (ad * b')) as D.
    pose proof (Z.gcd_divide_l n (ad * b')) as E.
    set (h := Z.gcd n (ad * b')) in *.
    apply Gauss with (a' * b').
    + replace (a' * b' * g) with (ad * b') by nia. assumption.
    + apply Zgcd_1_rel_prime. apply gcd_1_mul_r.
      * apply gcd_1_divides with n a'; auto. apply Z.divide_refl.
      * apply gcd_1_divides with n b'; auto. apply Z.divide_refl.
  - nia.
  - subst n. rewrite B, A. ring.
Qed.

(** ** Word paths *)

Definition word (z : Z) : Prop := WORD_MIN <= z <= WORD_MAX.
Definition uword (z : Z) : Prop := 0 < z <= UWORD_MAX.
Definition wlow (n d : Z) : Prop := word n /\ uword d /\ Z.gcd n d = 1.

Lemma wlow_lowest n d : wlow n d -> lowest n d.
Proof. intros (W & U & G). split; [unfold uword in U; lia|assumption]. Qed.

(** [o] is absent or a canonical word fraction equal to [tn/td]. *)
Definition good (o : option (Z * Z)) (tn td : Z) : Prop :=
  match o with Some (n, d) => wlow n d /\ n * td = tn * d | None => True end.
Definition yields (m : res (option (Z * Z))) (tn td : Z) : Prop :=
  exists o, m = Ok o /\ good o tn td.

Lemma yields_some n d tn td : wlow n d -> n * td = tn * d -> yields (Ok (Some (n, d))) tn td.
Proof. intros. exists (Some (n, d)). now split. Qed.
Lemma yields_none tn td : yields (Ok None) tn td.
Proof. exists None. now split. Qed.

Lemma check_word_yields z k tn td : (word z -> yields (k z) tn td) ->
  yields (check_word z k) tn td.
Proof.
  intros H. unfold check_word.
  destruct (Z.ltb_spec z WORD_MIN); [apply yields_none|].
  destruct (Z.ltb_spec WORD_MAX z); [apply yields_none|]. apply H. unfold word. lia.
Qed.
Lemma check_uword_yields z k tn td : 0 < z -> (uword z -> yields (k z) tn td) ->
  yields (check_uword z k) tn td.
Proof.
  intros P H. unfold check_uword.
  destruct (Z.ltb_spec z 1); [lia|].
  destruct (Z.ltb_spec UWORD_MAX z); [apply yields_none|]. apply H. unfold uword. lia.
Qed.
Definition lword (z : Z) : Prop := LWORD_MIN <= z <= LWORD_MAX.
Lemma check_sum_yields s1 s2 k tn td : lword s1 -> lword s2 ->
  (lword (s1 + s2) -> yields (k (s1 + s2)) tn td) -> yields (check_sum s1 s2 k) tn td.
Proof.
  intros L1 L2 H. unfold check_sum, lword in *.
  destruct ((0 <? s1) && (LWORD_MAX - s1 <? s2)) eqn:E1; [apply yields_none|].
  destruct ((s1 <? 0) && (s2 <? LWORD_MIN - s1)) eqn:E2; [apply yields_none|].
  assert (L : LWORD_MIN <= s1 + s2 <= LWORD_MAX).
  { apply andb_false_iff in E1, E2. rewrite !Z.ltb_ge in E1, E2. ranges. lia. }
  rewrite lw_ok by exact L. cbn [bind]. auto.
Qed.
Lemma check_sub_yields s1 s2 k tn td : lword s1 -> lword s2 ->
  (lword (s1 - s2) -> yields (k (s1 - s2)) tn td) -> yields (check_sub s1 s2 k) tn td.
Proof.
  intros L1 L2 H. unfold check_sub, lword in *.
  destruct ((0 <=? s1) && (s2 <? s1 - LWORD_MAX)) eqn:E1; [apply yields_none|].
  destruct ((s1 <? 0) && (s1 + 1 + LWORD_MAX <? s2)) eqn:E2; [apply yields_none|].
  assert (L : LWORD_MIN <= s1 - s2 <= LWORD_MAX).
  { apply andb_false_iff in E1, E2. rewrite !Z.ltb_ge in E1, E2. rewrite Z.leb_gt in E1.
    ranges. lia. }
  rewrite lw_ok by exact L. cbn [bind]. auto.
Qed.

Lemma reduce_yields use n d c tn td : 0 < d -> lword n ->
  (use = true -> c = Z.gcd n d) -> (use = false -> Z.gcd n d = 1 \/ UWORD_MAX < d) ->
  n * td = tn * d -> yields (reduce use n d c) tn td.
Proof.
  intros P L T F V. unfold reduce. destruct use.
  - specialize (T eq_refl). subst c. pose proof (gcd_pos_r n d P) as G.
    assert (S : sdiv n (Z.gcd n d) = Ok (n / Z.gcd n d)).
    { destruct (Z.gcd_divide_l n d) as [j J]. rewrite J at 3. rewrite Z.div_mul by lia.
      rewrite J at 1. apply sdiv_exact; [lia|]. rewrite <- J. exact L. }
    rewrite S. cbn [bind]. apply check_word_yields. intros W.
    rewrite udiv_ok by lia. cbn [bind].
    destruct (lowest_reduce n d P) as [P' Q'].
    apply check_uword_yields; [assumption|]. intros U.
    apply yields_some; [now split|].
    pose proof (reduce_value n d P) as R.
    set (q := n / Z.gcd n d) in *. set (p := d / Z.gcd n d) in *.
    apply Z.mul_reg_r with d; [lia|].
    replace (q * td * d) with (q * d * td) by ring. rewrite R.
    replace (n * p * td) with (n * td * p) by ring. rewrite V. ring.
  - specialize (F eq_refl). apply check_word_yields. intros W.
    unfold check_uword. destruct (Z.ltb_spec d 1); [lia|].
    destruct (Z.ltb_spec UWORD_MAX d); [apply yields_none|].
    destruct F as [F|F]; [|lia]. apply yields_some; [|assumption].
    split; [assumption|]. split; [unfold uword; lia|assumption].
Qed.

Ltac wl := match goal with H : wlow _ _ |- _ => let W := fresh "W" in let U := fresh "U" in
  let G := fresh "G" in destruct H as (W & U & G); unfold word, uword in W, U end.

Lemma gcd_sum_int an ad bn : Z.gcd an ad = 1 -> Z.gcd (an + bn * ad) ad = 1.
Proof.
  intros G. rewrite Z.gcd_comm, Z.gcd_add_mult_diag_r, Z.gcd_comm. assumption.
Qed.

Lemma half_div : forall b g, 2 <= g -> 0 <= b -> 2 * (b / g) <= b.
Proof.
  intros b g G B. pose proof (Z.mul_div_le b g ltac:(lia)) as H.
  pose proof (Z.div_pos b g B ltac:(lia)) as P.
  assert (2 * (b / g) <= g * (b / g)) by (apply Z.mul_le_mono_nonneg_r; lia). lia.
Qed.

Lemma mul_bound a b : word a -> 0 <= b <= UWORD_MAX -> - (2 ^ 31 * b) <= a * b <= (2 ^ 31 - 1) * b.
Proof. unfold word. ranges. change (2 ^ 31) with 2147483648. intros. nia. Qed.

Ltac lwok := rewrite lw_ok by (ranges; lia); cbn [bind].

Lemma tail_yields n d g tn td : 0 < d < two64 -> lword n -> 0 < g <= UWORD_MAX ->
  (Z.gcd n d | g) -> n * td = tn * d ->
  let common := to_u32 (ugcd (absVal64 n) d) in
  yields (reduce (negb (common =? 1)) n d common) tn td.
Proof.
  intros P L G D V common.
  assert (C : common = Z.gcd n d).
  { unfold common. rewrite absVal64_abs by exact L. rewrite ugcd_gcd by lia.
    rewrite Z.gcd_abs_l. apply to_u32_id. split; [apply Z.gcd_nonneg|].
    apply Z.divide_pos_le in D; lia. }
  apply reduce_yields; auto; try lia.
Qed.
Lemma tail_yields1 n d g tn td : 0 < d < two64 -> lword n -> 0 < g <= UWORD_MAX ->
  (Z.gcd n d | g) -> n * td = tn * d ->
  let common := to_u32 (ugcd (absVal64 n) d) in
  yields (reduce (1 <? common) n d common) tn td.
Proof.
  intros P L G D V common.
  assert (C : common = Z.gcd n d).
  { unfold common. rewrite absVal64_abs by exact L. rewrite ugcd_gcd by lia.
    rewrite Z.gcd_abs_l. apply to_u32_id. split; [apply Z.gcd_nonneg|].
    apply Z.divide_pos_le in D; lia. }
  pose proof (gcd_pos_r n d ltac:(lia)).
  apply reduce_yields; auto; try lia.
Qed.

Lemma div_le a b : 0 < b -> 0 <= a -> 0 <= a / b <= a.
Proof. intros. split; [apply Z.div_pos; lia|]. apply Z.div_le_upper_bound; nia. Qed.

Lemma add_word_yields an ad bn bd : wlow an ad -> wlow bn bd ->
  yields (add_word an ad bn bd) (an * bd + bn * ad) (ad * bd).
Proof.
  intros A B.
  pose proof (wlow_lowest _ _ A) as LA. pose proof (wlow_lowest _ _ B) as LB.
  pose proof A as (Wa & Ua & Ga). pose proof B as (Wb & Ub & Gb).
  unfold uword in Ua, Ub.
  pose proof (mul_bound bn ad Wb ltac:(lia)) as M1.
  pose proof (mul_bound an bd Wa ltac:(lia)) as M2.
  change (2 ^ 31) with 2147483648 in *.
  unfold add_word.
  destruct (Z.eqb_spec bn 0) as [->|Nb]. { apply yields_some; [assumption|ring]. }
  destruct (Z.eqb_spec an 0) as [->|Na]. { apply yields_some; [assumption|ring]. }
  destruct ((ad =? bd) && (WORD_MIN <? bn) && (an =? - bn)) eqn:E.
  { apply andb_true_iff in E. destruct E as [E E3]. apply andb_true_iff in E. destruct E as [E1 E2].
    apply Z.eqb_eq in E1, E3. subst bd an. apply yields_some; [|ring].
    split; [unfold word; ranges; lia|]. split; [unfold uword; ranges; lia|reflexivity]. }
  unfold word in Wa, Wb.
  destruct (Z.eqb_spec bd 1) as [->|Nd].
  { lwok. lwok. apply check_word_yields. intros W. apply yields_some; [|ring].
    split; [assumption|]. split; [unfold uword; lia|]. now apply gcd_sum_int. }
  destruct (Z.eqb_spec ad 1) as [->|Ne].
  { lwok. lwok. apply check_word_yields. intros W. apply yields_some; [|ring].
    split; [assumption|]. split; [unfold uword; lia|]. now apply gcd_sum_int. }
  cbv zeta. rewrite ugcd_gcd by lia.
  pose proof (sum_gcd an ad bn bd 1 LA LB (or_introl eq_refl)) as S. cbv zeta in S.
  rewrite !Z.mul_1_l in S. destruct S as (S1 & S2 & S3).
  pose proof (gcd_pos_r ad bd ltac:(lia)) as G0.
  assert (Gu : Z.gcd ad bd <= UWORD_MAX).
  { pose proof (Z.gcd_divide_l ad bd) as D. apply Z.divide_pos_le in D; lia. }
  pose proof (div_le ad (Z.gcd ad bd) ltac:(lia) ltac:(lia)) as Qa.
  pose proof (div_le bd (Z.gcd ad bd) ltac:(lia) ltac:(lia)) as Qb.
  rewrite !udiv_ok by lia. cbn [bind].
  assert (I1 : (if Z.gcd ad bd =? 1 then bd else bd / Z.gcd ad bd) = bd / Z.gcd ad bd).
  { destruct (Z.eqb_spec (Z.gcd ad bd) 1) as [->|]; [now rewrite Z.div_1_r|reflexivity]. }
  assert (I2 : (if Z.gcd ad bd =? 1 then ad else ad / Z.gcd ad bd) = ad / Z.gcd ad bd).
  { destruct (Z.eqb_spec (Z.gcd ad bd) 1) as [->|]; [now rewrite Z.div_1_r|reflexivity]. }
  rewrite I1, I2. clear I1 I2.
  pose proof (mul_bound an (bd / Z.gcd ad bd) Wa ltac:(lia)) as B1.
  pose proof (mul_bound bn (ad / Z.gcd ad bd) Wb ltac:(lia)) as B2.
  change (2 ^ 31) with 2147483648 in *.
  set (g := Z.gcd ad bd) in *. set (aq := ad / g) in *. set (bq := bd / g) in *.
  lwok. lwok.
  apply check_sum_yields; try (unfold lword; ranges; lia). intros L.
  assert (D64 : ad * bq < two64) by (ranges; nia).
  rewrite to_u64_id by lia.
  apply tail_yields with g; auto; lia.
Qed.

Lemma sub_word_yields an ad bn bd : wlow an ad -> wlow bn bd ->
  yields (sub_word an ad bn bd) (an * bd - bn * ad) (ad * bd).
Proof.
  intros A B.
  pose proof (wlow_lowest _ _ A) as LA. pose proof (wlow_lowest _ _ B) as LB.
  pose proof A as (Wa & Ua & Ga). pose proof B as (Wb & Ub & Gb).
  unfold uword in Ua, Ub.
  pose proof (mul_bound bn ad Wb ltac:(lia)) as M1.
  pose proof (mul_bound an bd Wa ltac:(lia)) as M2.
  change (2 ^ 31) with 2147483648 in *.
  unfold sub_word.
  destruct (Z.eqb_spec bn 0) as [->|Nb]. { apply yields_some; [assumption|ring]. }
  destruct (Z.eqb_spec an 0) as [->|Na].
  { unfold word in Wb. lwok. apply check_word_yields. intros W. apply yields_some; [|ring].
    split; [assumption|]. split; [assumption|]. now rewrite Z.gcd_opp_l. }
  destruct ((ad =? bd) && (an =? bn)) eqn:E.
  { apply andb_true_iff in E. destruct E as [E1 E2].
    apply Z.eqb_eq in E1, E2. subst bd bn. apply yields_some; [|ring].
    split; [unfold word; ranges; lia|]. split; [unfold uword; ranges; lia|reflexivity]. }
  unfold word in Wa, Wb.
  destruct (Z.eqb_spec bd 1) as [->|Nd].
  { lwok. lwok. apply check_word_yields. intros W. apply yields_some; [|ring].
    split; [assumption|]. split; [unfold uword; lia|].
    replace (an - bn * ad) with (an + (- bn) * ad) by ring. now apply gcd_sum_int. }
  destruct (Z.eqb_spec ad 1) as [->|Ne].
  { lwok. lwok. apply check_word_yields. intros W. apply yields_some; [|ring].
    split; [assumption|]. split; [unfold uword; lia|].
    replace (an * bd - bn) with (- bn + an * bd) by ring. apply gcd_sum_int.
    now rewrite Z.gcd_opp_l. }
  cbv zeta. rewrite ugcd_gcd by lia.
  pose proof (sum_gcd an ad bn bd (-1) LA LB (or_intror eq_refl)) as S. cbv zeta in S.
  destruct S as (S1 & S2 & S3).
  pose proof (gcd_pos_r ad bd ltac:(lia)) as G0.
  assert (Gu : Z.gcd ad bd <= UWORD_MAX).
  { pose proof (Z.gcd_divide_l ad bd) as D. apply Z.divide_pos_le in D; lia. }
  pose proof (div_le ad (Z.gcd ad bd) ltac:(lia) ltac:(lia)) as Qa.
  pose proof (div_le bd (Z.gcd ad bd) ltac:(lia) ltac:(lia)) as Qb.
  pose proof (mul_bound an (bd / Z.gcd ad bd) Wa ltac:(lia)) as B1.
  pose proof (mul_bound bn (ad / Z.gcd ad bd) Wb ltac:(lia)) as B2.
  change (2 ^ 31) with 2147483648 in *.
  destruct (Z.eqb_spec (Z.gcd ad bd) 1) as [G1|G1]; cbn [negb].
  - rewrite G1 in *. rewrite !Z.div_1_r in *.
    lwok. lwok. apply check_sub_yields; try (unfold lword; ranges; lia). intros L.
    assert (D64 : ad * bd < two64) by (ranges; nia).
    rewrite to_u64_id by nia.
    apply tail_yields with 1; try lia; auto.
    all: replace (an * bd - bn * ad) with (an * bd + -1 * (bn * ad)) by ring; exact S1.
  - rewrite !udiv_ok by lia. cbn [bind].
    assert (H1 : 2 * (bd / Z.gcd ad bd) <= bd).
    { apply half_div; lia. }
    assert (H2 : 2 * (ad / Z.gcd ad bd) <= ad).
    { apply half_div; lia. }
    set (g := Z.gcd ad bd) in *. set (aq := ad / g) in *. set (bq := bd / g) in *.
    lwok. lwok. lwok.
    assert (D64 : ad * bq < two64) by (ranges; nia).
    rewrite to_u64_id by lia.
    replace (an * bq - bn * aq) with (an * bq + -1 * (bn * aq)) by ring.
    apply tail_yields with g; [lia|unfold lword; ranges; lia|lia|exact S1|lia].
Qed.

Lemma suba_word_yields an ad bn bd : wlow an ad -> wlow bn bd ->
  yields (suba_word an ad bn bd) (an * bd - bn * ad) (ad * bd).
Proof.
  intros A B.
  pose proof (wlow_lowest _ _ A) as LA. pose proof (wlow_lowest _ _ B) as LB.
  pose proof A as (Wa & Ua & Ga). pose proof B as (Wb & Ub & Gb).
  unfold uword in Ua, Ub. unfold suba_word.
  cbv zeta. rewrite ugcd_gcd by lia.
  pose proof (sum_gcd an ad bn bd (-1) LA LB (or_intror eq_refl)) as S. cbv zeta in S.
  destruct S as (S1 & S2 & S3).
  pose proof (gcd_pos_r ad bd ltac:(lia)) as G0.
  assert (Gu : Z.gcd ad bd <= UWORD_MAX).
  { pose proof (Z.gcd_divide_l ad bd) as D. apply Z.divide_pos_le in D; lia. }
  pose proof (div_le ad (Z.gcd ad bd) ltac:(lia) ltac:(lia)) as Qa.
  pose proof (div_le bd (Z.gcd ad bd) ltac:(lia) ltac:(lia)) as Qb.
  pose proof (mul_bound an (bd / Z.gcd ad bd) Wa ltac:(lia)) as B1.
  pose proof (mul_bound bn (ad / Z.gcd ad bd) Wb ltac:(lia)) as B2.
  change (2 ^ 31) with 2147483648 in *. unfold word in Wa, Wb.
  set (g := Z.gcd ad bd) in *.
  rewrite !udiv_ok by lia. cbn [bind]. set (aq := ad / g) in *. set (bq := bd / g) in *.
  lwok. apply check_word_yields. intros W1. lwok. apply check_word_yields. intros W2.
  unfold word in W1, W2. lwok.
  assert (D64 : ad * bq < two64) by (ranges; nia).
  rewrite to_u64_id by lia.
  replace (an * bq - bn * aq) with (an * bq + -1 * (bn * aq)) by ring.
  apply tail_yields1 with g; [lia|unfold lword; ranges; lia|lia|exact S1|lia].
Qed.

Lemma adda_word_yields an ad bn bd : wlow an ad -> wlow bn bd ->
  yields (adda_word an ad bn bd) (an * bd + bn * ad) (ad * bd).
Proof.
  intros A B.
  pose proof A as (Wa & Ua & Ga). pose proof B as (Wb & Ub & Gb).
  unfold uword in Ua, Ub.
  pose proof (mul_bound bn ad Wb ltac:(lia)) as M1.
  pose proof (mul_bound an bd Wa ltac:(lia)) as M2.
  change (2 ^ 31) with 2147483648 in *. unfold word in Wa, Wb.
  unfold adda_word.
  destruct (Z.eqb_spec bd 1) as [->|Nd].
  { lwok. lwok. apply check_word_yields. intros W. apply yields_some; [|ring].
    split; [assumption|]. split; [unfold uword; lia|]. now apply gcd_sum_int. }
  destruct (Z.eqb_spec an 0) as [->|Na]. { apply yields_some; [assumption|ring]. }
  lwok. lwok. apply check_sum_yields; try (unfold lword; ranges; lia). intros L. cbv zeta.
  assert (D64 : 0 < ad * bd < two64) by (ranges; nia).
  rewrite to_u64_id by lia. rewrite absVal64_abs by exact L. rewrite ugcd_gcd by lia.
  rewrite Z.gcd_abs_l.
  set (n := an * bd + bn * ad) in *. set (d := ad * bd) in *.
  pose proof (gcd_pos_r n d ltac:(lia)) as G0.
  assert (Gd : Z.gcd n d <= d).
  { pose proof (Z.gcd_divide_r n d) as D. apply Z.divide_pos_le in D; lia. }
  apply reduce_yields; try lia; auto.
  - intros H. apply Z.ltb_lt in H.
    destruct (Z_le_gt_dec (Z.gcd n d) LWORD_MAX).
    + apply to_i64_id. ranges. lia.
    + rewrite to_i64_big in H by (ranges; lia). ranges. lia.
  - intros H. apply Z.ltb_ge in H.
    destruct (Z_le_gt_dec (Z.gcd n d) LWORD_MAX).
    + rewrite to_i64_id in H by (ranges; lia). left. lia.
    + right. ranges. lia.
Qed.

(** ** Products and quotients *)

Lemma cross_coprime an ad bn bd c1 c2 k1 k2 k3 k4 :
  an = k1 * c1 -> bd = k4 * c1 -> bn = k2 * c2 -> ad = k3 * c2 ->
  Z.gcd an ad = 1 -> Z.gcd bn bd = 1 -> Z.gcd k1 k4 = 1 -> Z.gcd k2 k3 = 1 ->
  Z.gcd (k1 * k2) (k3 * k4) = 1.
Proof.
  intros E1 E4 E2 E3 Ga Gb G14 G23.
  apply gcd_1_mul_l; apply gcd_1_mul_r; auto.
  - apply gcd_1_divides with an ad; auto; [exists c1|exists c2]; lia.
  - apply gcd_1_divides with bn bd; auto; [exists c2|exists c1]; lia.
Qed.

Lemma gcd_split a b : 0 < b -> exists k l, a = k * Z.gcd a b /\ b = l * Z.gcd a b /\
  Z.gcd k l = 1 /\ 0 < Z.gcd a b /\ 0 < l.
Proof.
  intros H. pose proof (gcd_pos_r a b H) as G.
  destruct (Z.gcd_divide_l a b) as [k K]. destruct (Z.gcd_divide_r a b) as [l L].
  exists k, l. repeat split; auto; [|nia].
  replace k with (a / Z.gcd a b) by (rewrite K at 1; now rewrite Z.div_mul by lia).
  replace l with (b / Z.gcd a b) by (rewrite L at 1; now rewrite Z.div_mul by lia).
  apply Z.gcd_div_gcd; [lia|reflexivity].
Qed.

Lemma if_div a c k : 0 < c -> a = k * c ->
  (if 1 <? c then udiv a c else Ok a) = Ok k.
Proof.
  intros P ->. destruct (Z.ltb_spec 1 c).
  - rewrite udiv_ok by lia. now rewrite Z.div_mul by lia.
  - replace c with 1 by lia. now rewrite Z.mul_1_r.
Qed.
Lemma if_sdiv a c k : 0 < c -> lword a -> a = k * c ->
  (if 1 <? c then sdiv a c else Ok a) = Ok k.
Proof.
  intros P L ->. destruct (Z.ltb_spec 1 c).
  - now apply sdiv_exact.
  - replace c with 1 by lia. now rewrite Z.mul_1_r.
Qed.

Lemma mul_word_yields an ad bn bd : wlow an ad -> wlow bn bd ->
  yields (mul_word an ad bn bd) (an * bn) (ad * bd).
Proof.
  intros A B.
  pose proof A as (Wa & Ua & Ga). pose proof B as (Wb & Ub & Gb).
  unfold uword in Ua, Ub. unfold mul_word. cbv zeta.
  rewrite !absVal32_abs by (unfold word in *; assumption).
  rewrite !ugcd_gcd by lia. rewrite Z.gcd_abs_l, Z.gcd_abs_r, (Z.gcd_comm ad bn).
  destruct (gcd_split an bd ltac:(lia)) as (k1 & k4 & E1 & E4 & G14 & P1 & P4).
  destruct (gcd_split bn ad ltac:(lia)) as (k2 & k3 & E2 & E3 & G23 & P2 & P3).
  set (c1 := Z.gcd an bd) in *. set (c2 := Z.gcd bn ad) in *.
  unfold word in Wa, Wb.
  rewrite (if_sdiv an c1 k1) by (auto; unfold lword; ranges; lia).
  rewrite (if_div bd c1 k4) by (auto; lia).
  rewrite (if_sdiv bn c2 k2) by (auto; unfold lword; ranges; lia).
  rewrite (if_div ad c2 k3) by (auto; lia). cbn [bind].
  assert (K1 : Z.abs k1 <= 2 ^ 31) by (change (2 ^ 31) with 2147483648; ranges; nia).
  assert (K2 : Z.abs k2 <= 2 ^ 31) by (change (2 ^ 31) with 2147483648; ranges; nia).
  assert (K3 : k3 <= UWORD_MAX) by (ranges; nia).
  assert (K4 : k4 <= UWORD_MAX) by (ranges; nia).
  change (2 ^ 31) with 2147483648 in *.
  rewrite lw_ok by (ranges; nia). cbn [bind].
  apply check_word_yields. intros W.
  rewrite to_u64_id by (ranges; nia).
  apply check_uword_yields; [nia|]. intros U.
  apply yields_some.
  - split; [assumption|]. split; [assumption|].
    apply cross_coprime with an ad bn bd c1 c2; auto.
  - rewrite E1, E2, E3, E4. ring.
Qed.

Lemma flip_sign an bn : bn <> 0 -> forall z, z = Z.abs an * Z.abs bn ->
  (if flip an bn then - z else z) = an * bn.
Proof.
  intros H z ->. unfold flip.
  destruct (Z.ltb_spec bn 0), (Z.leb_spec 0 an), (Z.ltb_spec 0 bn), (Z.leb_spec an 0);
    cbn [andb orb]; nia.
Qed.

Lemma mula_word_yields an ad bn bd : wlow an ad -> wlow bn bd ->
  yields (mula_word an ad bn bd) (an * bn) (ad * bd).
Proof.
  intros A B.
  pose proof A as (Wa & Ua & Ga). pose proof B as (Wb & Ub & Gb).
  unfold uword in Ua, Ub. unfold mula_word. cbv zeta.
  rewrite !absVal32_abs by (unfold word in *; assumption).
  rewrite !ugcd_gcd by lia. rewrite (Z.gcd_comm ad (Z.abs bn)).
  destruct (gcd_split (Z.abs an) bd ltac:(lia)) as (k1 & k4 & E1 & E4 & G14 & P1 & P4).
  destruct (gcd_split (Z.abs bn) ad ltac:(lia)) as (k2 & k3 & E2 & E3 & G23 & P2 & P3).
  set (c1 := Z.gcd (Z.abs an) bd) in *. set (c2 := Z.gcd (Z.abs bn) ad) in *.
  unfold word in Wa, Wb.
  rewrite (if_div (Z.abs an) c1 k1) by (auto; lia).
  rewrite (if_div bd c1 k4) by (auto; lia).
  rewrite (if_div (Z.abs bn) c2 k2) by (auto; lia).
  rewrite (if_div ad c2 k3) by (auto; lia). cbn [bind].
  assert (K1 : 0 <= k1 <= 2 ^ 31) by (change (2 ^ 31) with 2147483648; ranges; nia).
  assert (K2 : 0 <= k2 <= 2 ^ 31) by (change (2 ^ 31) with 2147483648; ranges; nia).
  assert (K3 : k3 <= UWORD_MAX) by (ranges; nia).
  assert (K4 : k4 <= UWORD_MAX) by (ranges; nia).
  change (2 ^ 31) with 2147483648 in *.
  rewrite lw_ok by (ranges; nia). cbn [bind].
  apply check_word_yields. intros W.
  rewrite to_u64_id by (ranges; nia).
  apply check_uword_yields; [nia|]. intros U.
  assert (C : Z.gcd (k1 * k2) (k3 * k4) = 1).
  { apply cross_coprime with (Z.abs an) ad (Z.abs bn) bd c1 c2; auto; now rewrite Z.gcd_abs_l. }
  assert (S : exists s, (if flip an bn then - (k1 * k2) else k1 * k2) = s * (k1 * k2) /\
    (s = 1 \/ s = -1) /\ s * (Z.abs an * Z.abs bn) = an * bn).
  { unfold flip. destruct (Z.ltb_spec bn 0), (Z.leb_spec 0 an), (Z.ltb_spec 0 bn), (Z.leb_spec an 0);
    cbn [andb orb]; try (exists 1; repeat split; [ring|tauto|nia]);
    exists (-1); repeat split; try ring; try tauto; nia. }
  destruct S as (s & S1 & S2 & S3). rewrite S1.
  apply yields_some.
  - split; [|split; [assumption|]].
    + unfold word in *. destruct S2; subst s; ranges; lia.
    + destruct S2; subst s; [now rewrite Z.mul_1_l|].
      replace (-1 * (k1 * k2)) with (- (k1 * k2)) by ring. now rewrite Z.gcd_opp_l.
  - rewrite <- S3. rewrite E1, E2, E3, E4. ring.
Qed.

Lemma div_word_yields an ad bn bd : wlow an ad -> wlow bn bd -> bn <> 0 ->
  yields (div_word an ad bn bd) (an * bd) (ad * bn).
Proof.
  intros A B Nz.
  pose proof A as (Wa & Ua & Ga). pose proof B as (Wb & Ub & Gb).
  unfold uword in Ua, Ub. unfold div_word. cbv zeta.
  rewrite !absVal32_abs by (unfold word in *; assumption).
  rewrite !ugcd_gcd by lia.
  destruct (gcd_split (Z.abs an) (Z.abs bn) ltac:(lia)) as (k1 & k4 & E1 & E4 & G14 & P1 & P4).
  rewrite (Z.gcd_comm ad bd).
  destruct (gcd_split bd ad ltac:(lia)) as (k2 & k3 & E2 & E3 & G23 & P2 & P3).
  set (c1 := Z.gcd (Z.abs an) (Z.abs bn)) in *. set (c2 := Z.gcd bd ad) in *.
  unfold word in Wa, Wb.
  rewrite !udiv_ok by lia. cbn [bind].
  assert (Q1 : Z.abs an / c1 = k1) by (rewrite E1; now rewrite Z.div_mul by lia).
  assert (Q2 : bd / c2 = k2) by (rewrite E2; now rewrite Z.div_mul by lia).
  assert (Q3 : ad / c2 = k3) by (rewrite E3; now rewrite Z.div_mul by lia).
  assert (Q4 : Z.abs bn / c1 = k4) by (rewrite E4; now rewrite Z.div_mul by lia).
  rewrite Q1, Q2, Q3, Q4.
  assert (K1 : 0 <= k1 <= 2 ^ 31) by (change (2 ^ 31) with 2147483648; ranges; nia).
  assert (K4 : 0 <= k4 <= 2 ^ 31) by (change (2 ^ 31) with 2147483648; ranges; nia).
  assert (K3 : k3 <= UWORD_MAX) by (ranges; nia).
  assert (K2 : 0 < k2 <= UWORD_MAX) by (ranges; nia).
  change (2 ^ 31) with 2147483648 in *.
  assert (R1 : 0 <= k1 * k2 <= LWORD_MAX) by (ranges; nia).
  rewrite (to_u64_id (k1 * k2)) by (ranges; lia).
  rewrite to_i64_id by (ranges; lia).
  apply check_word_yields. intros W.
  rewrite to_u64_id by (ranges; nia).
  apply check_uword_yields; [nia|]. intros U.
  assert (C : Z.gcd (k1 * k2) (k4 * k3) = 1).
  { rewrite (Z.mul_comm k4 k3).
    apply gcd_1_mul_l; apply gcd_1_mul_r; auto.
    - apply gcd_1_divides with (Z.abs an) ad; [exists c1; lia|exists c2; lia|].
      now rewrite Z.gcd_abs_l.
    - apply gcd_1_divides with bd (Z.abs bn); [exists c2; lia|exists c1; lia|].
      now rewrite Z.gcd_comm, Z.gcd_abs_l. }
  assert (S : exists s, (if flip an bn then - (k1 * k2) else k1 * k2) = s * (k1 * k2) /\
    (s = 1 \/ s = -1) /\ s * (Z.abs an * bn) = an * Z.abs bn).
  { unfold flip. destruct (Z.ltb_spec bn 0), (Z.leb_spec 0 an), (Z.ltb_spec 0 bn), (Z.leb_spec an 0);
    cbn [andb orb]; try (exists 1; repeat split; [ring|tauto|nia]);
    exists (-1); repeat split; try ring; try tauto; nia. }
  destruct S as (s & S1 & S2 & S3). rewrite S1.
  apply yields_some.
  - split; [|split; [assumption|]].
    + unfold word in *. destruct S2; subst s; ranges; lia.
    + destruct S2; subst s; [now rewrite Z.mul_1_l|].
      replace (-1 * (k1 * k2)) with (- (k1 * k2)) by ring. now rewrite Z.gcd_opp_l.
  - rewrite E2, E3. rewrite E1, E4 in S3. nia.
Qed.
