(** C68: arithmetic with Fraction<int>. *)
From Coq Require Import ZArith QArith Bool Lia.
From Verif Require Import Base Fraction_Model Spec_Fraction Fraction_Proofs.
Open Scope Z_scope.

(** The constructor from two numbers of type int returns the quotient in lowest terms. Missing: the smallest int, see [C68_min_refuted]. *)
Theorem C68_make_partial : forall n d, - 2 ^ 31 < n < 2 ^ 31 -> - 2 ^ 31 < d < 2 ^ 31 -> d <> 0 ->
  gives (f_make n d) (inject_Z n / inject_Z d).
Proof. exact make_ok. Qed.
Print Assumptions C68_make_partial.
Example C68_make_nonvacuous : f_make 6 (-4) = Ok (mkF (-3) 2) /\ f_make 0 (-7) = Ok (mkF 0 1).
Proof. split; reflexivity. Qed.

(** Sum, product, negation and inverse: the exact value if int can represent it, otherwise the run stops. *)
Theorem C68_add : forall a b, proper a -> proper b -> computes (f_add a b) (fvalue a + fvalue b).
Proof. exact add_ok. Qed.
Print Assumptions C68_add.
Theorem C68_mul : forall a b, proper a -> proper b -> computes (f_mul a b) (fvalue a * fvalue b).
Proof. exact mul_ok. Qed.
Print Assumptions C68_mul.
Theorem C68_neg : forall a, proper a -> computes (f_neg a) (- fvalue a).
Proof. exact neg_ok. Qed.
Print Assumptions C68_neg.
Theorem C68_inv : forall a, proper a -> ~ (fvalue a == 0)%Q -> computes (f_inv a) (/ fvalue a).
Proof. intros a P N. apply inv_ok; auto. intros E. apply N. unfold fvalue. rewrite E. reflexivity. Qed.
Print Assumptions C68_inv.
(** Difference and quotient. Missing: a second operand with the smallest int as numerator ([C68_min_refuted]), division by zero ([C68_zero_refuted]). *)
Theorem C68_sub_partial : forall a b, proper a -> proper b -> - 2 ^ 31 < fnum b -> computes (f_sub a b) (fvalue a - fvalue b).
Proof. exact sub_ok. Qed.
Print Assumptions C68_sub_partial.
Theorem C68_div_partial : forall a b, proper a -> proper b -> ~ (fvalue b == 0)%Q -> - 2 ^ 31 < fnum b ->
  computes (f_div a b) (fvalue a / fvalue b).
Proof. intros a b A B N. apply div_ok; auto. intros E. apply N. unfold fvalue. rewrite E. reflexivity. Qed.
Print Assumptions C68_div_partial.
(** the same for a fraction and a number of type int, in both orders *)
Theorem C68_mixed_partial : forall a n, proper a -> - 2 ^ 31 < n < 2 ^ 31 -> let q := inject_Z n in
  computes (f_add_int a n) (fvalue a + q) /\ computes (int_add_f n a) (q + fvalue a) /\
  computes (f_sub_int a n) (fvalue a - q) /\ (- 2 ^ 31 < fnum a -> computes (int_sub_f n a) (q - fvalue a)) /\
  computes (f_mul_int a n) (fvalue a * q) /\ computes (int_mul_f n a) (q * fvalue a) /\
  (n <> 0 -> computes (f_div_int a n) (fvalue a / q)) /\
  (~ (fvalue a == 0)%Q -> - 2 ^ 31 < fnum a -> computes (int_div_f n a) (q / fvalue a)).
Proof.
  intros a n P N q. destruct (int_proper n) as [PN VN]; [lia|]. destruct (int_proper (- n)) as [PM VM]; [lia|].
  assert (AD : computes (f_add_int a n) (fvalue a + q)) by (eapply computes_eq; [|apply add_ok; auto]; rewrite VN; reflexivity).
  assert (MU : computes (f_mul_int a n) (fvalue a * q)) by (eapply computes_eq; [|apply mul_ok; auto]; rewrite VN; reflexivity).
  split; [exact AD|]. split; [eapply computes_eq; [|exact AD]; ring|]. split.
  { unfold f_sub_int. rewrite int32_ok by lia. cbn [bind]. eapply computes_eq; [|apply add_ok; auto]. rewrite VM. unfold q. rewrite inject_Z_opp. ring. }
  split.
  { intros M. destruct (neg_gives a P M) as (f & E & Pf & V). unfold int_sub_f. rewrite E. cbn [bind]. eapply computes_eq; [|apply add_ok; auto].
    rewrite VN, V. unfold q. ring. }
  split; [exact MU|]. split; [eapply computes_eq; [|exact MU]; ring|]. split.
  { intros Z. eapply computes_eq; [|apply div_ok; auto; cbn; lia]. rewrite VN. reflexivity. }
  intros Z M. assert (Z' : fnum a <> 0) by (intros E; apply Z; unfold fvalue; rewrite E; reflexivity).
  destruct (inv_gives a P Z' M) as (f & E & Pf & V). unfold int_div_f. rewrite E. cbn [bind]. eapply computes_eq; [|apply mul_ok; auto].
  rewrite VN, V. unfold q. unfold Qdiv. ring.
Qed.
Print Assumptions C68_mixed_partial.
Example C68_arith_nonvacuous : let a := mkF 1 6 in let b := mkF (-3) 4 in
  proper a /\ proper b /\ fits (fvalue a + fvalue b) /\
  f_add a b = Ok (mkF (-7) 12) /\ f_sub a b = Ok (mkF 11 12) /\ f_mul a b = Ok (mkF (-1) 8) /\ f_div a b = Ok (mkF (-2) 9) /\
  f_mul (mkF 65536 1) (mkF 65536 1) = UB.
Proof. cbv zeta. repeat split; try (vm_compute; congruence); try lia. Qed.

(** Comparisons *)
Theorem C68_compare : forall a b, proper a -> proper b ->
  (f_eq a b = true <-> (fvalue a == fvalue b)%Q) /\ (f_ne a b = true <-> ~ (fvalue a == fvalue b)%Q) /\
  tells (f_lt a b) (fvalue a < fvalue b)%Q /\ tells (f_le a b) (fvalue a <= fvalue b)%Q /\
  tells (f_gt a b) (fvalue b < fvalue a)%Q /\ tells (f_ge a b) (fvalue b <= fvalue a)%Q.
Proof.
  intros a b A B. pose proof (eq_ok a b A B) as EQ. destruct (cross a b A B) as (C1 & C2 & _). split; [exact EQ|]. split.
  { unfold f_ne. rewrite negb_true_iff, <- EQ. destruct (f_eq a b); split; congruence. }
  unfold f_gt, f_ge. rewrite lt_ok, le_ok by auto. cbn [bind].
  split; [eexists; split; [reflexivity|]; rewrite Z.ltb_lt; symmetry; exact C1|]. split; [eexists; split; [reflexivity|]; rewrite Z.leb_le; symmetry; exact C2|].
  split; eexists; (split; [reflexivity|]); rewrite negb_true_iff.
  - rewrite Z.leb_gt. split; intros H; [apply Qnot_le_lt; intros X; apply C2 in X; lia|]. apply Qlt_not_le in H. rewrite C2 in H. lia.
  - rewrite Z.ltb_ge. split; intros H; [apply Qnot_lt_le; intros X; apply C1 in X; lia|]. apply Qle_not_lt in H. rewrite C1 in H. lia.
Qed.
Print Assumptions C68_compare.
(** with a number of type int, in both orders *)
Theorem C68_compare_int : forall a n, proper a -> - 2 ^ 31 <= n < 2 ^ 31 -> let q := inject_Z n in
  (f_eq_int a n = true <-> (fvalue a == q)%Q) /\ (f_ne_int a n = true <-> ~ (fvalue a == q)%Q) /\
  tells (f_lt_int a n) (fvalue a < q)%Q /\ tells (f_le_int a n) (fvalue a <= q)%Q /\ tells (f_gt_int a n) (q < fvalue a)%Q /\ tells (f_ge_int a n) (q <= fvalue a)%Q /\
  tells (int_lt_f n a) (q < fvalue a)%Q /\ tells (int_le_f n a) (q <= fvalue a)%Q /\ tells (int_gt_f n a) (fvalue a < q)%Q /\ tells (int_ge_f n a) (fvalue a <= q)%Q.
Proof.
  intros a n A N q. destruct (int_proper n N) as [PN VN]. destruct (C68_compare a (f_int n) A PN) as (E1 & E2 & L1 & L2 & L3 & L4).
  assert (X1 : f_eq_int a n = f_eq a (f_int n)) by (unfold f_eq_int, f_eq; cbn [f_int fnum fden]; apply andb_comm).
  assert (B : - 2 ^ 62 <= fden a * n <= 2 ^ 62) by (destruct A; apply prod_bound; lia).
  assert (X2 : f_lt_int a n = f_lt a (f_int n)). { rewrite lt_ok by auto. unfold f_lt_int. rewrite int64_ok by lia. cbn [bind f_int fnum fden]. do 2 f_equal; lia. }
  assert (X3 : f_le_int a n = f_le a (f_int n)). { rewrite le_ok by auto. unfold f_le_int. rewrite int64_ok by lia. cbn [bind f_int fnum fden]. do 2 f_equal; lia. }
  assert (TE : forall r P Q, (P <-> Q) -> tells r P -> tells r Q) by (intros r P Q H (b & H1 & H2); exists b; rewrite H2; auto).
  assert (W1 : (fvalue a == fvalue (f_int n) <-> fvalue a == q)%Q) by (rewrite VN; reflexivity).
  assert (W2 : (fvalue a < fvalue (f_int n) <-> fvalue a < q)%Q) by (rewrite VN; reflexivity).
  assert (W3 : (fvalue a <= fvalue (f_int n) <-> fvalue a <= q)%Q) by (rewrite VN; reflexivity).
  assert (W4 : (fvalue (f_int n) < fvalue a <-> q < fvalue a)%Q) by (rewrite VN; reflexivity).
  assert (W5 : (fvalue (f_int n) <= fvalue a <-> q <= fvalue a)%Q) by (rewrite VN; reflexivity).
  unfold f_ne_int, int_lt_f, int_le_f, int_gt_f, int_ge_f, f_gt_int, f_ge_int. rewrite X1, X2, X3. fold (f_ne a (f_int n)). fold (f_gt a (f_int n)). fold (f_ge a (f_int n)).
  rewrite E1, E2, W1. repeat split; auto; try tauto; eauto.
Qed.
Print Assumptions C68_compare_int.
(** The number that is hashed is different for different fractions. *)
Theorem C68_hash : forall a b, proper a -> proper b -> (f_key a = f_key b <-> (fvalue a == fvalue b)%Q).
Proof.
  intros a b A B. rewrite <- (eq_ok a b A B). split.
  - intros H. apply key_ok in H; auto. subst. unfold f_eq. now rewrite !Z.eqb_refl.
  - unfold f_eq. rewrite andb_true_iff, !Z.eqb_eq. intros [H1 H2]. unfold f_key. now rewrite H1, H2.
Qed.
Print Assumptions C68_hash.
Example C68_compare_nonvacuous : proper (mkF (-1) 3) /\ f_lt (mkF (-1) 3) (mkF (-1) 4) = Ok true /\ f_ge_int (mkF (-1) 3) 0 = Ok false.
Proof. repeat split; try (cbn; lia). Qed.

(** The conversion to int rounds towards zero. *)
Theorem C68_to_int : forall a, proper a -> exists z, f_to_int a = Ok z /\
  if 0 <=? fnum a then (inject_Z z <= fvalue a < inject_Z (z + 1))%Q else (inject_Z (z - 1) < fvalue a <= inject_Z z)%Q.
Proof.
  intros a [A1 A2 A3]. exists (fnum a ÷ fden a). split.
  { unfold f_to_int, idiv. destruct (Z.eqb_spec (fden a) 0); [lia|]. apply int32_ok. pose proof (Z.quot_rem' (fnum a) (fden a)).
    destruct (Z.leb_spec 0 (fnum a)); [pose proof (Z.rem_bound_pos (fnum a) (fden a) ltac:(lia) ltac:(lia))|pose proof (Z.rem_bound_pos_neg (fnum a) (fden a) ltac:(lia) ltac:(lia))]; split; nia. }
  pose proof (Z.quot_rem' (fnum a) (fden a)) as QR. assert (V : (fvalue a == fnum a # Z.to_pos (fden a))%Q) by (apply value_pos; lia).
  destruct (Z.leb_spec 0 (fnum a)); rewrite V; unfold Qle, Qlt; cbn [Qnum Qden inject_Z]; rewrite !Z2Pos.id by lia.
  - pose proof (Z.rem_bound_pos (fnum a) (fden a) ltac:(lia) ltac:(lia)). split; nia.
  - pose proof (Z.rem_bound_pos_neg (fnum a) (fden a) ltac:(lia) ltac:(lia)). split; nia.
Qed.
Print Assumptions C68_to_int.
(** The comment at the operator promises the integer below: -1/2 is converted to 0. *)
Theorem C68_round_refuted : exists a z, proper a /\ f_to_int a = Ok z /\ ~ (inject_Z z <= fvalue a)%Q.
Proof. exists (mkF (-1) 2), 0. repeat split; try (cbn; lia). vm_compute. congruence. Qed.
Print Assumptions C68_round_refuted.
(** Division by zero returns 1/0 instead of stopping. *)
Theorem C68_zero_refuted : exists a b f, proper a /\ proper b /\ (fvalue b == 0)%Q /\ f_div a b = Ok f /\ fden f = 0.
Proof. exists (mkF 2 3), (mkF 0 1), (mkF 1 0). repeat split; cbn; lia. Qed.
Print Assumptions C68_zero_refuted.
(** Operations with the smallest int overflow although the results are numbers of type int: the fraction with numerator INT_MIN and denominator 2,
    the difference -1 - INT_MIN and the quotient 2 / INT_MIN. *)
Theorem C68_min_refuted :
  (exists n d, - 2 ^ 31 <= n < 2 ^ 31 /\ 0 < d < 2 ^ 31 /\ fits (inject_Z n / inject_Z d) /\ f_make n d = UB) /\
  (exists a b, proper a /\ proper b /\ fits (fvalue a - fvalue b) /\ f_sub a b = UB) /\
  (exists a b, proper a /\ proper b /\ ~ (fvalue b == 0)%Q /\ fits (fvalue a / fvalue b) /\ f_div a b = UB).
Proof.
  split; [|split].
  - exists (- 2 ^ 31), 2. repeat split; try (vm_compute; congruence).
  - exists (mkF (-1) 1), (mkF (- 2 ^ 31) 1). repeat split; try (vm_compute; congruence).
  - exists (mkF 2 1), (mkF (- 2 ^ 31) 1). repeat split; try (vm_compute; congruence).
Qed.
Print Assumptions C68_min_refuted.
