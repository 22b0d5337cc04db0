(** Numerals are read exactly. *)
From Coq Require Import List ZArith Bool Ascii QArith Qcanon Lia Field.
From Verif Require Import Base Rational_Model Spec_Rational Rational_Proofs Rational_Proofs2 Rational_Proofs3 Terms_Model Decimal_Model Spec_Decimal.
Import ListNotations.
Local Open Scope Z_scope.

Lemma dig_ok c : is_digit c -> dig c = Some (digit_value c) /\ 0 <= digit_value c <= 9 /\ c <> "."%char.
Proof. intros D. repeat (destruct D as [<-|D]; [vm_compute; repeat split; discriminate|]). destruct D. Qed.
Lemma read_ok s : Forall is_digit s -> forall acc,
  read_digits acc s = Ok (acc * 10 ^ Z.of_nat (length s) + digits_value s).
Proof.
  induction 1 as [|c s D _ IH]; intros acc.
  - cbn. f_equal. lia.
  - cbn [read_digits]. rewrite (proj1 (dig_ok c D)), IH. f_equal. cbn [length digits_value].
    rewrite Nat2Z.inj_succ, Z.pow_succ_r by lia. ring.
Qed.
Lemma digits_nonneg s : Forall is_digit s -> 0 <= digits_value s.
Proof.
  induction 1 as [|c s D _ IH]; cbn; [lia|]. destruct (dig_ok c D) as (_ & B & _).
  pose proof (Z.pow_nonneg 10 (Z.of_nat (length s)) ltac:(lia)). nia.
Qed.
Lemma set_str_ok s : Forall is_digit s -> s <> [] -> set_str s = Ok (digits_value s).
Proof.
  intros F N. unfold set_str. destruct s as [|c s']; [congruence|]. now rewrite read_ok.
Qed.
Lemma text_ok s : Forall is_digit s -> s <> [] -> returns (lf_of_text s) (inject_Z (digits_value s)).
Proof.
  intros F N. unfold lf_of_text. rewrite set_str_ok by assumption. cbn [bind].
  destruct (lf_str_ok (digits_value s) 1 ltac:(lia)) as (r & E & C & V). exists r. split; [exact E|split; [exact C|]].
  rewrite V. field.
Qed.
Lemma integer_ok s : Forall is_digit s -> s <> [] -> returns (integer_constant s) (inject_Z (digits_value s)).
Proof.
  intros F N. unfold integer_constant. destruct (text_ok s F N) as (r & -> & C & V). cbn [bind].
  rewrite (is_int r _ C V). cbn [bind assertb]. exists r. auto.
Qed.

Lemma sgcd_loop_ok f : forall a b, 0 <= a -> 0 < b -> sgcd_loop f a b = gcd_loop f a b.
Proof.
  induction f as [|f IH]; intros a b A B; [reflexivity|]. cbn [sgcd_loop gcd_loop]. cbv zeta.
  rewrite Z.rem_mod_nonneg by lia. destruct (Z.eqb_spec (a mod b) 0); [reflexivity|].
  apply IH; [lia|]. pose proof (Z.mod_pos_bound a b B). lia.
Qed.
Lemma sgcd_ok a b : 0 <= a -> 0 <= b -> sgcd a b = Z.gcd a b.
Proof.
  intros A B. rewrite <- ugcd_gcd by assumption. unfold sgcd, ugcd.
  destruct (Z.eqb_spec a 0); [reflexivity|]. destruct (Z.eqb_spec b 0); [reflexivity|].
  destruct (a <? b); apply sgcd_loop_ok; lia.
Qed.
Lemma lf_gcd_ok a b x y : canonical a -> canonical b -> (Spec_Rational.value a == inject_Z x)%Q -> (Spec_Rational.value b == inject_Z y)%Q ->
  0 < x -> 0 <= y -> returns (lf_gcd a b) (inject_Z (Z.gcd x y)).
Proof.
  intros Ca Cb Va Vb Px Py. pose proof (int_parts a x Ca Va) as Pa. pose proof (int_parts b y Cb Vb) as Pb.
  unfold lf_gcd. rewrite (is_int a x), (is_int b y) by assumption. cbn [bind andb assertb].
  destruct (wv a && wv b) eqn:W.
  - apply andb_true_iff in W. destruct W as [Wa Wb].
    pose proof (canonical_word a Ca Wa) as (Wn & _). pose proof (canonical_word b Cb Wb) as (Wm & _).
    unfold word in *. rewrite parts_word in Pa, Pb by assumption. injection Pa as Ea _. injection Pb as Eb _.
    rewrite Ea, Eb in *. rewrite sgcd_ok by lia.
    assert (G : 0 <= Z.gcd x y <= x).
    { split; [apply Z.gcd_nonneg|]. apply Z.divide_pos_le; [lia|apply Z.gcd_divide_l]. }
    destruct (lf_word_spec (Z.gcd x y)) as [C P]. { ranges. lia. }
    eexists. split; [reflexivity|]. split; [exact C|]. now apply value_int.
  - destruct (ensure_spec a Ca) as (a' & Ea & Ca' & Pa' & _ & Ma & _).
    destruct (ensure_spec b Cb) as (b' & Eb & Cb' & Pb' & _ & Mb & _).
    rewrite Ea, Eb. cbn [bind]. rewrite Ma, Mb, Pa, Pb. cbn [fst].
    destruct (lf_mpz_spec (Z.gcd x y)) as [C P].
    eexists. split; [reflexivity|]. split; [exact C|]. now apply value_int.
Qed.

Lemma precision_ok s : forall p x, canonical p -> (Spec_Rational.value p == inject_Z x)%Q ->
  returns (precision p s) (inject_Z (x * 10 ^ Z.of_nat (length s))).
Proof.
  induction s as [|c s IH]; intros p x C V.
  - exists p. split; [reflexivity|]. split; [exact C|]. rewrite V. cbn. now rewrite Z.mul_1_r.
  - cbn [precision]. destruct (lf_word_spec 10) as [C10 P10]. { ranges. lia. }
    destruct (lf_mul_assign_ok p (lf_word 10) C C10) as (r & b' & E & Cr & Vr & _). rewrite E. cbn [bind fst].
    destruct (IH r (x * 10) Cr) as (q & Eq & Cq & Vq).
    { rewrite Vr, V, inject_Z_mult. reflexivity. }
    exists q. split; [exact Eq|]. split; [exact Cq|]. rewrite Vq. cbn [length].
    rewrite Nat2Z.inj_succ, Z.pow_succ_r by lia. rewrite Z.mul_assoc. reflexivity.
Qed.

Lemma split_ok d f : Forall is_digit d -> split_dot (d ++ "."%char :: f) = Some (d, f).
Proof.
  induction 1 as [|c d D _ IH]; [reflexivity|]. cbn [app split_dot].
  destruct (Ascii.eqb_spec c "."). { exfalso. now apply (proj2 (proj2 (dig_ok c D))). }
  now rewrite IH.
Qed.

Lemma decimal_ok d f : Forall is_digit d -> d <> [] -> Forall is_digit f -> f <> [] ->
  returns (rational_constant (d ++ "."%char :: f)) (decimal_value d f).
Proof.
  intros Fd Nd Ff Nf. unfold rational_constant. rewrite split_ok by assumption.
  destruct (text_ok d Fd Nd) as (i & -> & Ci & Vi). cbn [bind].
  destruct (lf_word_spec 1) as [C1 P1]. { ranges. lia. }
  destruct (precision_ok f (lf_word 1) 1 C1) as (p & -> & Cp & Vp). { now apply value_int. }
  rewrite Z.mul_1_l in Vp. cbn [bind].
  destruct (text_ok f Ff Nf) as (fr & -> & Cf & Vf). cbn [bind].
  set (P := 10 ^ Z.of_nat (length f)) in *. set (F := digits_value f) in *.
  assert (PP : 0 < P) by (apply Z.pow_pos_nonneg; lia).
  pose proof (digits_nonneg f Ff) as PF. fold F in PF.
  destruct (lf_gcd_ok p fr P F Cp Cf Vp Vf PP PF) as (g & -> & Cg & Vg). cbn [bind].
  assert (GP : 0 < Z.gcd P F).
  { pose proof (Z.gcd_nonneg P F). destruct (Z.eq_dec (Z.gcd P F) 0) as [E|]; [|lia].
    apply Z.gcd_eq_0_l in E. lia. }
  assert (NG : ~ (Spec_Rational.value g == 0)%Q).
  { rewrite Vg. unfold Qeq, inject_Z. cbn. lia. }
  assert (NP : ~ (inject_Z P == 0)%Q) by (unfold Qeq, inject_Z; cbn; lia).
  assert (NGQ : ~ (inject_Z (Z.gcd P F) == 0)%Q) by (unfold Qeq, inject_Z; cbn; lia).
  destruct (lf_div_ok fr g Cf Cg NG) as (nu & ? & ? & E1 & Cn & Vn & _). rewrite E1. cbn [bind fst].
  destruct (lf_div_ok p g Cp Cg NG) as (de & ? & ? & E2 & Cd & Vd & _). rewrite E2. cbn [bind fst].
  destruct (lf_mul_ok i de Ci Cd) as (m & ? & ? & E3 & Cm & Vm & _). rewrite E3. cbn [bind fst].
  destruct (lf_add_ok m nu Cm Cn) as (a & ? & ? & E4 & Ca & Va & _). rewrite E4. cbn [bind fst].
  assert (ND : ~ (Spec_Rational.value de == 0)%Q).
  { rewrite Vd, Vp, Vg. intro Z0. apply NP.
    setoid_replace (inject_Z P) with (inject_Z P / inject_Z (Z.gcd P F) * inject_Z (Z.gcd P F))%Q by (field; exact NGQ).
    rewrite Z0. ring. }
  destruct (lf_div_ok a de Ca Cd ND) as (r & ? & ? & E5 & Cr & Vr & _). rewrite E5. cbn [bind fst].
  exists r. split; [reflexivity|]. split; [exact Cr|]. rewrite Vr, Va, Vm, Vn, Vd, Vp, Vg, Vf, Vi. unfold decimal_value.
  fold P F. field. split; assumption.
Qed.
