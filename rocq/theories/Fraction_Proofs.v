(** Proofs about Fraction_Model. *)
From Coq Require Import ZArith QArith Bool Lia.
From Coq Require Qcanon Znumtheory.
From Verif Require Import Base Fraction_Model Spec_Fraction.
Open Scope Z_scope.

Ltac pw := change (2 ^ 31) with 2147483648 in *; change (2 ^ 63) with 9223372036854775808 in *;
           change INT_MIN with (-2147483648) in *; change INT_MAX with 2147483647 in *.

Lemma int_ok_iff z : int_ok z = true <-> - 2 ^ 31 <= z < 2 ^ 31.
Proof. unfold int_ok. pw. rewrite andb_true_iff, !Z.leb_le. lia. Qed.
Lemma int32_ok z : - 2 ^ 31 <= z < 2 ^ 31 -> int32 z = Ok z.
Proof. intros H. unfold int32. apply int_ok_iff in H. now rewrite H. Qed.
Lemma int32_inv z x : int32 z = Ok x -> x = z /\ - 2 ^ 31 <= z < 2 ^ 31.
Proof. unfold int32. destruct (int_ok z) eqn:E; [|discriminate]. intros H. injection H as <-. now apply int_ok_iff in E. Qed.
Lemma int64_ok z : - 2 ^ 63 <= z < 2 ^ 63 -> int64 z = Ok z.
Proof. intros H. unfold int64. destruct (Z.leb_spec (- 2 ^ 63) z), (Z.ltb_spec z (2 ^ 63)); cbn [andb]; auto; lia. Qed.
Lemma prod_bound a b : - 2 ^ 31 <= a < 2 ^ 31 -> - 2 ^ 31 <= b < 2 ^ 31 -> - 2 ^ 62 <= a * b <= 2 ^ 62.
Proof.
  intros A B. assert (Z.abs (a * b) <= 2 ^ 62); [|lia]. rewrite Z.abs_mul. change (2 ^ 62) with (2 ^ 31 * 2 ^ 31).
  apply Z.mul_le_mono_nonneg; lia.
Qed.

(** ** values *)
Lemma value_pos n d : 0 < d -> (inject_Z n / inject_Z d == n # Z.to_pos d)%Q.
Proof.
  intros H. destruct d as [|p|p]; try lia. cbn [Z.to_pos]. unfold Qdiv, Qinv, inject_Z, Qeq, Qmult. cbn. lia.
Qed.
Lemma red_unique n d : 0 < d -> Z.gcd n d = 1 -> Qred (n # Z.to_pos d) = (n # Z.to_pos d).
Proof. intros H G. apply Qcanon.Qred_iff. cbn. now rewrite Z2Pos.id by lia. Qed.
Lemma fits_iff n d q : 0 < d -> Z.gcd n d = 1 -> (q == inject_Z n / inject_Z d)%Q -> (fits q <-> - 2 ^ 31 <= n < 2 ^ 31 /\ d < 2 ^ 31).
Proof.
  intros H G E. unfold fits. rewrite (Qred_complete q (n # Z.to_pos d)) by (rewrite E; now apply value_pos).
  rewrite red_unique by auto. cbn [Qnum Qden]. rewrite Z2Pos.id by lia. tauto.
Qed.
Lemma proper_fits f q : proper f -> (q == fvalue f)%Q -> fits q.
Proof. intros [A B C] E. apply (fits_iff (fnum f) (fden f)); auto; lia. Qed.
Lemma value_scale g n d : 0 < g -> 0 < d -> (inject_Z (g * n) / inject_Z (g * d) == inject_Z n / inject_Z d)%Q.
Proof.
  intros G D. rewrite !value_pos by nia. unfold Qeq. cbn [Qnum Qden]. rewrite !Z2Pos.id by nia. ring.
Qed.
Lemma lowest n d : 0 < d -> exists g n' d', 0 < g /\ Z.gcd n d = g /\ n = g * n' /\ d = g * d' /\ 0 < d' /\ Z.gcd n' d' = 1.
Proof.
  intros D. exists (Z.gcd n d). destruct (Z.gcd_divide_l n d) as (n' & N). destruct (Z.gcd_divide_r n d) as (d' & E).
  assert (G : 0 < Z.gcd n d). { pose proof (Z.gcd_nonneg n d). assert (Z.gcd n d <> 0); [|lia]. intros X. apply Z.gcd_eq_0_r in X. lia. }
  exists n', d'. split; auto. split; auto. split; [lia|]. split; [lia|]. split; [nia|].
  assert (X : Z.gcd (n' * Z.gcd n d) (d' * Z.gcd n d) = Z.gcd n d) by now rewrite <- N, <- E.
  rewrite Z.gcd_mul_mono_r_nonneg in X by lia. nia.
Qed.
Lemma quot_mul g x : g <> 0 -> Z.quot (g * x) g = x.
Proof. intros H. rewrite Z.mul_comm. now apply Z.quot_mul. Qed.

(** ** operations *)
Lemma computes_eq r q q' : (q == q')%Q -> computes r q -> computes r q'.
Proof.
  intros E [A B]. split.
  - intros F. assert (F' : fits q) by (unfold fits in *; now rewrite (Qred_complete _ _ E)).
    destruct (A F') as (f & X & Y & Z). exists f. rewrite Z. auto.
  - intros f X. destruct (B f X) as [Y Z]. rewrite Z. auto.
Qed.
Lemma reduce_ok n d : 0 < d < 2 ^ 63 -> - 2 ^ 63 < n < 2 ^ 63 -> computes (f_reduce n d) (inject_Z n / inject_Z d).
Proof.
  intros D N. destruct (lowest n d) as (g & n' & d' & G & EG & EN & ED & D' & C); [lia|].
  assert (V : (inject_Z n / inject_Z d == inject_Z n' / inject_Z d')%Q) by (rewrite EN, ED; now apply value_scale).
  assert (n' <= Z.abs n /\ - Z.abs n <= n') by nia. assert (d' <= d) by nia.
  unfold f_reduce. rewrite !int64_ok by lia. cbn [bind]. rewrite EG. unfold idiv64. destruct (Z.eqb_spec g 0); [lia|].
  rewrite EN, ED, !quot_mul, !int64_ok by lia. rewrite <- EN, <- ED. cbn [bind].
  assert (FI := fits_iff n' d' _ D' C V). destruct (int_ok n') eqn:E1; cbn [assertb bind].
  2:{ split; [|discriminate]. intros F. apply FI in F. destruct F as [F _]. apply int_ok_iff in F. congruence. }
  destruct (int_ok d') eqn:E2; cbn [assertb bind].
  2:{ split; [|discriminate]. intros F. apply FI in F. destruct F as [_ F]. assert (X : - 2 ^ 31 <= d' < 2 ^ 31) by lia. apply int_ok_iff in X. congruence. }
  apply int_ok_iff in E1, E2. assert (P : proper (mkF n' d')) by (split; cbn; auto; lia).
  assert (X : (fvalue (mkF n' d') == inject_Z n / inject_Z d)%Q) by (rewrite V; reflexivity).
  split; [intros _; exists (mkF n' d'); auto|]. intros f H1. injection H1 as <-. auto.
Qed.
Ltac qz := rewrite !inject_Z_plus, ?inject_Z_mult, ?inject_Z_opp.
Lemma inj_nz d : 0 < d -> ~ (inject_Z d == 0)%Q.
Proof. intros H. unfold Qeq. cbn. lia. Qed.
Lemma add_ok a b : proper a -> proper b -> computes (f_add a b) (fvalue a + fvalue b).
Proof.
  intros [A1 A2 A3] [B1 B2 B3]. unfold f_add.
  pose proof (prod_bound (fnum a) (fden b) A1 ltac:(lia)). pose proof (prod_bound (fnum b) (fden a) B1 ltac:(lia)).
  pose proof (prod_bound (fden a) (fden b) ltac:(lia) ltac:(lia)).
  assert (P1 : - 2 ^ 31 * (2 ^ 31 - 1) <= fnum a * fden b <= (2 ^ 31 - 1) * (2 ^ 31 - 1)) by nia.
  assert (P2 : - 2 ^ 31 * (2 ^ 31 - 1) <= fnum b * fden a <= (2 ^ 31 - 1) * (2 ^ 31 - 1)) by nia.
  do 4 (rewrite int64_ok by lia; cbn [bind]). eapply computes_eq; [|apply reduce_ok; [nia|lia]]. unfold fvalue. qz. field. split; apply inj_nz; lia.
Qed.
Lemma mul_ok a b : proper a -> proper b -> computes (f_mul a b) (fvalue a * fvalue b).
Proof.
  intros [A1 A2 A3] [B1 B2 B3]. unfold f_mul.
  pose proof (prod_bound (fnum a) (fnum b) A1 B1). pose proof (prod_bound (fden a) (fden b) ltac:(lia) ltac:(lia)).
  do 2 (rewrite int64_ok by lia; cbn [bind]). eapply computes_eq; [|apply reduce_ok; [nia|lia]]. unfold fvalue. rewrite !inject_Z_mult. field. split; apply inj_nz; lia.
Qed.
Lemma neg_ok a : proper a -> computes (f_neg a) (- fvalue a).
Proof.
  intros [A1 A2 A3]. unfold f_neg.
  assert (V : (- fvalue a == inject_Z (- fnum a) / inject_Z (fden a))%Q). { unfold fvalue. rewrite inject_Z_opp. field. apply inj_nz; lia. }
  assert (G : Z.gcd (- fnum a) (fden a) = 1) by now rewrite Z.gcd_opp_l.
  assert (FI := fits_iff (- fnum a) (fden a) _ ltac:(lia) G V). split.
  - intros F. apply FI in F. rewrite int32_ok by lia. cbn [bind]. eexists. split; [reflexivity|]. split; [split; cbn; auto; lia|]. now rewrite V.
  - intros f H. destruct (int32 (- fnum a)) as [x| |] eqn:E; cbn [bind] in H; try discriminate. injection H as <-. apply int32_inv in E. destruct E as [-> E].
    split; [split; cbn; auto|]. now rewrite V.
Qed.
Lemma inv_ok a : proper a -> fnum a <> 0 -> computes (f_inv a) (/ fvalue a).
Proof.
  intros [A1 A2 A3] N. unfold f_inv, iabs. set (s := if fnum a <? 0 then -1 else 1).
  assert (S : s = Z.sgn (fnum a)) by (unfold s; destruct (Z.ltb_spec (fnum a) 0); destruct (fnum a); lia).
  assert (V : (/ fvalue a == inject_Z (s * fden a) / inject_Z (Z.abs (fnum a)))%Q).
  { unfold fvalue. assert (N1 : ~ (inject_Z (fnum a) == 0)%Q) by (unfold Qeq; cbn; lia). assert (N2 := inj_nz (fden a) ltac:(lia)).
    destruct (Z.abs_spec (fnum a)) as [[X ->]|[X ->]].
    - assert (s = 1) by (unfold s; destruct (Z.ltb_spec (fnum a) 0); lia). rewrite H. rewrite inject_Z_mult. field. auto.
    - assert (s = -1) by (unfold s; destruct (Z.ltb_spec (fnum a) 0); lia). rewrite H. rewrite inject_Z_mult, inject_Z_opp. field. auto. }
  assert (G : Z.gcd (s * fden a) (Z.abs (fnum a)) = 1).
  { rewrite Z.gcd_abs_r. assert (s = 1 \/ s = -1) as [-> | ->] by (unfold s; destruct (Z.ltb_spec (fnum a) 0); auto).
    - rewrite Z.mul_1_l, Z.gcd_comm. exact A3.
    - replace (-1 * fden a) with (- fden a) by lia. rewrite Z.gcd_opp_l, Z.gcd_comm. exact A3. }
  assert (FI := fits_iff (s * fden a) (Z.abs (fnum a)) _ ltac:(lia) G V).
  assert (R : - 2 ^ 31 <= s * fden a < 2 ^ 31) by (unfold s; destruct (fnum a <? 0); lia).
  rewrite (int32_ok (s * fden a)) by auto. split.
  - intros F. apply FI in F. rewrite int32_ok by lia. cbn [bind]. eexists. split; [reflexivity|]. split; [split; cbn; auto; lia|]. now rewrite V.
  - intros f H. destruct (int32 (Z.abs (fnum a))) as [x| |] eqn:E; cbn [bind] in H; try discriminate. injection H as <-. apply int32_inv in E. destruct E as [-> E].
    split; [split; cbn; auto; lia|]. now rewrite V.
Qed.
Lemma int_proper n : - 2 ^ 31 <= n < 2 ^ 31 -> proper (f_int n) /\ (fvalue (f_int n) == inject_Z n)%Q.
Proof. intros H. split; [split; cbn; auto; [lia|apply Z.gcd_1_r]|]. unfold fvalue. cbn [f_int fnum fden]. field. Qed.
Lemma make_ok n d : - 2 ^ 31 < n < 2 ^ 31 -> - 2 ^ 31 < d < 2 ^ 31 -> d <> 0 -> gives (f_make n d) (inject_Z n / inject_Z d).
Proof.
  intros N D D0. unfold f_make, iabs. rewrite !int32_ok by lia. cbn [bind].
  set (s := if xorb (n <? 0) (d <? 0) then -1 else 1).
  assert (S : s = 1 \/ s = -1) by (unfold s; destruct (xorb _ _); auto).
  rewrite int32_ok by (destruct S as [-> | ->]; lia). cbn [bind].
  destruct (lowest (Z.abs n) (Z.abs d)) as (g & n' & d' & G & EG & EN & ED & D' & C); [lia|].
  rewrite Z.gcd_abs_l, Z.gcd_abs_r in EG. rewrite EG. unfold idiv. destruct (Z.eqb_spec g 0); [lia|].
  assert (n' <= Z.abs n /\ 0 <= n') by nia. assert (d' <= Z.abs d) by nia.
  assert (Q1 : Z.quot (s * Z.abs n) g = s * n'). { rewrite EN. replace (s * (g * n')) with (g * (s * n')) by ring. now apply quot_mul. }
  assert (Q2 : Z.quot (Z.abs d) g = d') by (rewrite ED; now apply quot_mul).
  rewrite Q1, Q2, !int32_ok by (destruct S as [-> | ->]; lia). cbn [bind]. eexists. split; [reflexivity|]. split.
  - split; cbn [fnum fden]; [destruct S as [-> | ->]; lia|lia|].
    destruct S as [-> | ->]; [now rewrite Z.mul_1_l|replace (-1 * n') with (- n') by lia; rewrite Z.gcd_opp_l; exact C].
  - unfold fvalue. cbn [fnum fden].
    assert (X : inject_Z n = inject_Z (Z.sgn n * (g * n'))) by (rewrite <- EN; f_equal; destruct n; cbn; lia).
    assert (Y : inject_Z d = inject_Z (Z.sgn d * (g * d'))) by (rewrite <- ED; f_equal; destruct d; cbn; lia).
    rewrite X, Y, !inject_Z_mult. assert (inj_g := inj_nz g G). assert (inj_d := inj_nz d' D').
    destruct (Z.eq_dec n 0) as [-> |Nn].
    { assert (n' = 0) by nia. subst n'. cbn [Z.sgn]. destruct d; try lia; cbn [Z.sgn]; field; auto. }
    unfold s. destruct (Z.ltb_spec n 0), (Z.ltb_spec d 0); cbn [xorb];
      first [rewrite (Z.sgn_neg n) by lia|rewrite (Z.sgn_pos n) by lia]; first [rewrite (Z.sgn_neg d) by lia|rewrite (Z.sgn_pos d) by lia]; field; auto.
Qed.
Lemma neg_gives a : proper a -> - 2 ^ 31 < fnum a -> gives (f_neg a) (- fvalue a).
Proof.
  intros P H. apply neg_ok; auto. destruct P as [A1 A2 A3].
  apply (fits_iff (- fnum a) (fden a)); [lia|now rewrite Z.gcd_opp_l| |lia]. unfold fvalue. rewrite inject_Z_opp. field. apply inj_nz; lia.
Qed.
Lemma inv_gives a : proper a -> fnum a <> 0 -> - 2 ^ 31 < fnum a -> gives (f_inv a) (/ fvalue a).
Proof.
  intros P N H. assert (O := inv_ok a P N). destruct P as [A1 A2 A3]. unfold f_inv, iabs in *. rewrite int32_ok in * by lia. cbn [bind] in *.
  rewrite int32_ok in * by (destruct (fnum a <? 0); lia). cbn [bind] in *. eexists. split; [reflexivity|]. now apply O.
Qed.
Lemma sub_ok a b : proper a -> proper b -> - 2 ^ 31 < fnum b -> computes (f_sub a b) (fvalue a - fvalue b).
Proof.
  intros A B H. destruct (neg_gives b B H) as (f & E & P & V). unfold f_sub. rewrite E. cbn [bind].
  eapply computes_eq; [|apply add_ok; auto]. rewrite V. ring.
Qed.
Lemma div_ok a b : proper a -> proper b -> fnum b <> 0 -> - 2 ^ 31 < fnum b -> computes (f_div a b) (fvalue a / fvalue b).
Proof.
  intros A B N H. destruct (inv_gives b B N H) as (f & E & P & V). unfold f_div. rewrite E. cbn [bind].
  eapply computes_eq; [|apply mul_ok; auto]. rewrite V. reflexivity.
Qed.

(** ** comparisons *)
Lemma cross a b : proper a -> proper b ->
  ((fvalue a < fvalue b)%Q <-> fnum a * fden b < fnum b * fden a) /\ ((fvalue a <= fvalue b)%Q <-> fnum a * fden b <= fnum b * fden a) /\
  ((fvalue a == fvalue b)%Q <-> fnum a * fden b = fnum b * fden a).
Proof.
  intros [A1 A2 A3] [B1 B2 B3]. unfold fvalue. rewrite !value_pos by lia. unfold Qlt, Qle, Qeq. cbn [Qnum Qden]. rewrite !Z2Pos.id by lia. tauto.
Qed.
Lemma prods a b : proper a -> proper b -> - 2 ^ 62 <= fnum a * fden b <= 2 ^ 62.
Proof. intros [A1 A2 A3] [B1 B2 B3]. apply prod_bound; lia. Qed.
Lemma lt_ok a b : proper a -> proper b -> f_lt a b = Ok (fnum a * fden b <? fnum b * fden a).
Proof.
  intros A B. pose proof (prods a b A B). pose proof (prods b a B A). unfold f_lt. do 2 (rewrite int64_ok by lia; cbn [bind]). reflexivity.
Qed.
Lemma le_ok a b : proper a -> proper b -> f_le a b = Ok (fnum a * fden b <=? fnum b * fden a).
Proof.
  intros A B. pose proof (prods a b A B). pose proof (prods b a B A). unfold f_le. do 2 (rewrite int64_ok by lia; cbn [bind]). reflexivity.
Qed.
Lemma eq_ok a b : proper a -> proper b -> (f_eq a b = true <-> (fvalue a == fvalue b)%Q).
Proof.
  intros A B. rewrite (proj2 (proj2 (cross a b A B))). unfold f_eq. rewrite andb_true_iff, !Z.eqb_eq. split; [intros [-> ->]; lia|].
  destruct A as [A1 A2 A3], B as [B1 B2 B3]. intros E.
  assert (D1 : (fden a | fden b)). { apply (Z.gauss _ (fnum a)); [exists (fnum b); lia|now rewrite Z.gcd_comm]. }
  assert (D2 : (fden b | fden a)). { apply (Z.gauss _ (fnum b)); [exists (fnum a); lia|now rewrite Z.gcd_comm]. }
  assert (X : fden a = fden b). { apply Z.divide_antisym_nonneg; auto; lia. }
  split; auto. rewrite X in E. nia.
Qed.
Lemma key_ok a b : proper a -> proper b -> f_key a = f_key b -> a = b.
Proof.
  intros [A1 A2 A3] [B1 B2 B3]. unfold f_key.
  assert (K : forall n d, - 2 ^ 31 <= n < 2 ^ 31 -> 0 < d < 2 ^ 31 ->
    Z.lor (Z.shiftl (n mod 2 ^ 64) 32 mod 2 ^ 64) (d mod 2 ^ 64) = (n mod 2 ^ 32) * 2 ^ 32 + d).
  { intros n d N D. rewrite (Z.mod_small d) by lia. rewrite Z.shiftl_mul_pow2 by lia.
    assert (E : n mod 2 ^ 64 * 2 ^ 32 mod 2 ^ 64 = n mod 2 ^ 32 * 2 ^ 32).
    { replace (n mod 2 ^ 64 * 2 ^ 32 mod 2 ^ 64) with (n mod 2 ^ 64 * 2 ^ 32 mod (2 ^ 32 * 2 ^ 32)) by reflexivity.
      rewrite Z.mul_mod_distr_r by lia. f_equal. symmetry. apply Znumtheory.Zmod_div_mod; try lia. exists (2 ^ 32). reflexivity. }
    rewrite E, <- Z.shiftl_mul_pow2 by lia.
    assert (L : Z.land (Z.shiftl (n mod 2 ^ 32) 32) d = 0).
    { apply Z.bits_inj'. intros k Hk. rewrite Z.land_spec, Z.bits_0. destruct (Z.ltb_spec k 32).
      - now rewrite Z.shiftl_spec_low by lia.
      - rewrite (Z.bits_above_log2 d k); [apply andb_false_r|lia|]. apply Z.log2_lt_pow2; [lia|]. apply Z.lt_le_trans with (2 ^ 31); [lia|]. apply Z.pow_le_mono_r; lia. }
    now rewrite <- Z.lxor_lor, <- Z.add_nocarry_lxor by exact L. }
  rewrite !K by auto. intros H. pose proof (Z.mod_pos_bound (fnum a) (2 ^ 32) ltac:(lia)). pose proof (Z.mod_pos_bound (fnum b) (2 ^ 32) ltac:(lia)).
  assert (X : fden a = fden b /\ fnum a mod 2 ^ 32 = fnum b mod 2 ^ 32) by lia. destruct X as [X Y].
  assert (Z : fnum a = fnum b).
  { pose proof (Z.div_mod (fnum a) (2 ^ 32) ltac:(lia)). pose proof (Z.div_mod (fnum b) (2 ^ 32) ltac:(lia)). lia. }
  destruct a, b. cbn in *. congruence.
Qed.
