(** Properties C21-C24: the rational numbers. Specification in Spec_Rational.v. *)
From Coq Require Import ZArith QArith Qround Bool Lia List.
From Verif Require Import Base Rational_Model Spec_Rational Rational_Proofs Rational_Proofs2
  Rational_Proofs3.
Local Open Scope Z_scope.

(** C21: +, -, *, /, unary minus and the in-place forms are exact, do not reach undefined
    behaviour and keep the operands intact. *)
Theorem C21_exact_arithmetic a b : canonical a -> canonical b ->
  computes2 (lf_add a b) a b (value a + value b) /\
  computes2 (lf_sub a b) a b (value a - value b) /\
  computes2 (lf_mul a b) a b (value a * value b) /\
  (~ (value b == 0)%Q -> computes2 (lf_div a b) a b (value a / value b)) /\
  computes (lf_neg a) a (- value a).
Proof.
  exact (fun Ca Cb => conj (lf_add_ok a b Ca Cb) (conj (lf_sub_ok a b Ca Cb)
    (conj (lf_mul_ok a b Ca Cb) (conj (lf_div_ok a b Ca Cb) (lf_neg_ok a Ca))))).
Qed.
Print Assumptions C21_exact_arithmetic.

Theorem C21_exact_assignment a b : canonical a -> canonical b ->
  assigns (lf_add_assign a b) b (value a + value b) /\
  assigns (lf_sub_assign a b) b (value a - value b) /\
  assigns (lf_mul_assign a b) b (value a * value b) /\
  (~ (value b == 0)%Q -> assigns (lf_div_assign a b) b (value a / value b)) /\
  returns (lf_negate a) (- value a).
Proof.
  exact (fun Ca Cb => conj (lf_add_assign_ok a b Ca Cb) (conj (lf_sub_assign_ok a b Ca Cb)
    (conj (lf_mul_assign_ok a b Ca Cb) (conj (lf_div_assign_ok a b Ca Cb) (lf_negate_ok a Ca))))).
Qed.
Print Assumptions C21_exact_assignment.

(** The cases that leave the word path, return to it, and cancel. *)
Example C21_example :
  exists s t u v,
    lf_add (lf_word 2147483647) (lf_word 2147483647) = Ok s /\ wv (fst (fst s)) = false /\ (value (fst (fst s)) == 4294967294)%Q /\
    lf_sub (fst (fst s)) (lf_word 2147483647) = Ok t /\ wv (fst (fst t)) = true /\ num (fst (fst t)) = 2147483647 /\
    lf_mul (mkLf true false false 1 3 (0, 1)) (lf_word (-6)) = Ok u /\ parts (fst (fst u)) = (-2, 1) /\
    lf_div (lf_word 2) (lf_word (-6)) = Ok v /\ parts (fst (fst v)) = (-1, 3).
Proof.
  do 4 eexists. repeat (split; [vm_compute; reflexivity|]). vm_compute; reflexivity.
Qed.

(** C22: whatever a program can build is canonical; equality, order, sign, integrality and hash
    agree with the denoted rational. *)
Theorem C22_canonical x : produced x -> canonical x.
Proof. exact (produced_canonical x). Qed.
Print Assumptions C22_canonical.

Theorem C22_order a b : canonical a -> canonical b ->
  (exists c a' b', lf_compare a b = Ok (c, a', b') /\ same a' a /\ same b' b /\
     (c < 0 <-> (value a < value b)%Q) /\ (c = 0 <-> (value a == value b)%Q) /\
     (c > 0 <-> (value b < value a)%Q)) /\
  (exists e a' b', lf_eq a b = Ok (e, a', b') /\ same a' a /\ same b' b /\
     (e = true <-> (value a == value b)%Q)) /\
  (exists s, lf_sign a = Ok s /\ (s < 0 <-> (value a < 0)%Q) /\ (s = 0 <-> (value a == 0)%Q) /\
     (s > 0 <-> (0 < value a)%Q)) /\
  (exists i, lf_isInteger a = Ok i /\ (i = true <-> exists z, (value a == inject_Z z)%Q)) /\
  (exists i, lf_isZero a = Ok i /\ (i = true <-> (value a == 0)%Q)) /\
  (exists i, lf_isOne a = Ok i /\ (i = true <-> (value a == 1)%Q)) /\
  (forall limbs, (value a == value b)%Q -> lf_hash limbs a = lf_hash limbs b).
Proof.
  exact (fun Ca Cb => conj (lf_compare_ok a b Ca Cb) (conj (lf_eq_ok a b Ca Cb)
    (conj (lf_sign_ok a Ca) (conj (lf_isInteger_ok a Ca) (conj (lf_isZero_ok a Ca)
    (conj (lf_isOne_ok a Ca) (hash_ok a b Ca Cb))))))).
Qed.
Print Assumptions C22_order.

Example C22_example : exists s, produced s /\ wv s = false /\ parts s = (4294967294, 1).
Proof.
  destruct (lf_add (lf_word 2147483647) (lf_word 2147483647)) as [[[s a] b]| |] eqn:E;
    try (vm_compute in E; discriminate).
  exists s. split.
  - eapply (p_binary lf_add (lf_word 2147483647) (lf_word 2147483647)); eauto;
      apply p_word; lia.
  - vm_compute in E. injection E as <- _ _. now split.
Qed.

(** C23: floor and ceil. *)
Theorem C23_rounding a : canonical a ->
  (exists z, returns (lf_floor a) (inject_Z z) /\ (inject_Z z <= value a)%Q /\
     forall y, (inject_Z y <= value a)%Q -> y <= z) /\
  (exists z, returns (lf_ceil a) (inject_Z z) /\ (value a <= inject_Z z)%Q /\
     forall y, (value a <= inject_Z y)%Q -> z <= y).
Proof.
  exact (fun Ca => conj
    (ex_intro _ (Qfloor (value a)) (conj (lf_floor_ok a Ca) (floor_spec (value a))))
    (ex_intro _ (Qceiling (value a)) (conj (lf_ceil_ok a Ca) (ceil_spec (value a))))).
Qed.
Print Assumptions C23_rounding.

(** Rounding to the nearest integer: floor of [r + 1/2]. *)
Theorem C23_round_to_int a : canonical a ->
  exists z, returns (round_to_int a) (inject_Z z) /\ (inject_Z z <= value a + (1 # 2))%Q /\
    forall y, (inject_Z y <= value a + (1 # 2))%Q -> y <= z.
Proof.
  exact (fun Ca => ex_intro _ (Qfloor (value a + (1 # 2)))
    (conj (round_ok a Ca) (floor_spec (value a + (1 # 2))))).
Qed.
Print Assumptions C23_round_to_int.

Example C23_example : exists f c g,
  lf_floor (mkLf true false false (-7) 2 (0, 1)) = Ok f /\ parts f = (-4, 1) /\
  lf_ceil (mkLf true false false (-7) 2 (0, 1)) = Ok c /\ parts c = (-3, 1) /\
  lf_floor (mkLf false true true 0 1 (-30000000001, 10)) = Ok g /\ parts g = (-3000000001, 1).
Proof.
  do 3 eexists. repeat (split; [vm_compute; reflexivity|]). vm_compute; reflexivity.
Qed.

(** C24: the two-argument constructor, [inverse] and integer division.
    [inverse()] and the string constructor meet the property in full. *)
Theorem C24_inverse a : canonical a -> ~ (value a == 0)%Q -> computes (lf_inverse a) a (/ value a).
Proof. exact (lf_inverse_ok a). Qed.
Print Assumptions C24_inverse.

Theorem C24_string n d : d <> 0 -> returns (lf_str n d) (inject_Z n / inject_Z d).
Proof. exact (lf_str_ok n d). Qed.
Print Assumptions C24_string.

(** The constructor is exact unless the numerator is negative and not coprime with [d]. *)
Theorem C24_make_partial n d : - 2 ^ 31 <= n < 2 ^ 31 -> 0 < d < 2 ^ 32 ->
  0 <= n \/ Z.gcd n d = 1 -> returns (lf_make n d) (inject_Z n / inject_Z d).
Proof. exact (lf_make_returns n d). Qed.
Print Assumptions C24_make_partial.

(** In the remaining case it is wrong: Rational(-2, 4) is 2147483647/2, and Rational(-400, 6)
    is not even in lowest terms. *)
Theorem C24_make_refuted :
  (exists n d r, - 2 ^ 31 <= n < 2 ^ 31 /\ 0 < d < 2 ^ 32 /\ lf_make n d = Ok r /\
     ~ (value r == inject_Z n / inject_Z d)%Q) /\
  (exists n d r, - 2 ^ 31 <= n < 2 ^ 31 /\ 0 < d < 2 ^ 32 /\ lf_make n d = Ok r /\ ~ canonical r).
Proof.
  split.
  - exists (-2), 4, (mkLf true false false 2147483647 2 (0, 1)).
    repeat split; try lia. unfold value, Qeq. vm_compute. discriminate.
  - exists (-400), 6, (mkLf true false false 2147483448 3 (0, 1)).
    repeat split; try lia. intros [_ _ [_ G] _ _]. vm_compute in G. discriminate.
Qed.
Print Assumptions C24_make_refuted.

(** [inv()] is exact for operands in the word representation whose denominator fits a signed
    word; it ignores the multi-precision part and truncates the denominator otherwise. *)
Theorem C24_inv_partial a : canonical a -> wv a = true -> ~ (value a == 0)%Q ->
  WORD_MIN < num a -> den a <= WORD_MAX -> returns (lf_inv a) (/ value a).
Proof. exact (lf_inv_ok a). Qed.
Print Assumptions C24_inv_partial.

Theorem C24_inv_refuted :
  (exists a r, produced a /\ ~ (value a == 0)%Q /\ lf_inv a = Ok r /\ ~ (value r == / value a)%Q) /\
  (exists a, produced a /\ ~ (value a == 0)%Q /\ lf_inv a = UB).
Proof.
  split.
  - destruct (lf_make 1 3000000000) as [a| |] eqn:E; try (vm_compute in E; discriminate).
    destruct (lf_inv a) as [r| |] eqn:F;
      try (vm_compute in E; injection E as <-; vm_compute in F; discriminate).
    exists a, r. split; [|split; [|split; [exact F|]]].
    + apply (p_make 1 3000000000); [lia|lia|now left|exact E].
    + vm_compute in E. injection E as <-. unfold Qeq. vm_compute. discriminate.
    + vm_compute in E. injection E as <-. vm_compute in F. injection F as <-.
      unfold Qeq. vm_compute. discriminate.
  - destruct (lf_str 5000000000 1) as [a| |] eqn:E; try (vm_compute in E; discriminate).
    exists a. split; [|split].
    + apply (p_str 5000000000 1); [lia|exact E].
    + vm_compute in E. injection E as <-. unfold Qeq. vm_compute. discriminate.
    + vm_compute in E. injection E as <-. vm_compute. reflexivity.
Qed.
Print Assumptions C24_inv_refuted.

(** [%] is the floor modulus for a nonnegative dividend and positive divisor in the word
    representation, and for every nonzero divisor in the multi-precision one. *)
Theorem C24_mod_partial a b x y : canonical a -> canonical b ->
  (value a == inject_Z x)%Q -> (value b == inject_Z y)%Q ->
  (wv a = true -> wv b = true -> 0 <= x -> 0 < y -> returns (lf_mod a b) (inject_Z (x mod y))) /\
  (wv a && wv b = false -> y <> 0 -> returns (lf_mod a b) (inject_Z (x mod y))).
Proof.
  exact (fun Ca Cb Va Vb => conj (mod_word_ok a b Ca Cb x y Va Vb) (mod_mpq_ok a b Ca Cb x y Va Vb)).
Qed.
Print Assumptions C24_mod_partial.

(** -7 % 3 is 1, although -7 - 1 is not a multiple of 3. *)
Theorem C24_mod_refuted : exists r, lf_mod (lf_word (-7)) (lf_word 3) = Ok r /\
  (value r == 1)%Q /\ ~ exists k, -7 - 1 = k * 3.
Proof.
  eexists. split; [vm_compute; reflexivity|]. split; [reflexivity|]. intros [k H]. lia.
Qed.
Print Assumptions C24_mod_refuted.

(** Floor division of integers. *)
Theorem C24_floor_division a b x y : canonical a -> canonical b ->
  (value a == inject_Z x)%Q -> (value b == inject_Z y)%Q -> y <> 0 ->
  exists r a' b', fdiv_q a b = Ok (r, a', b') /\ canonical r /\
    (value r == inject_Z (x / y))%Q /\ same a' a /\ same b' b.
Proof. exact (fun Ca Cb => fdiv_q_ok a b Ca Cb x y). Qed.
Print Assumptions C24_floor_division.

Example C24_example : exists r i, lf_make 6 4 = Ok r /\ parts r = (3, 2) /\
  lf_inv r = Ok i /\ parts i = (2, 3).
Proof.
  do 2 eexists. repeat (split; [vm_compute; reflexivity|]). vm_compute; reflexivity.
Qed.
