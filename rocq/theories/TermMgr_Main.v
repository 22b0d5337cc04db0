(** C39-C44 from the lemmas about tables. *)
From Coq Require Import List Arith ZArith QArith Qcanon NArith Bool Lia Ascii.
From Verif Require Import Base Rational_Model Spec_Rational Rational_Proofs Rational_Proofs2 Rational_Proofs3 Terms_Model Spec_Terms Terms_Proofs
  TermMgr_Model Spec_TermMgr TermMgr_Base TermMgr_Bool TermMgr_Arith TermMgr_Eq TermMgr_Term Decimal_Model Spec_Decimal Decimal_Proofs.
Import ListNotations.
Close Scope Qc_scope.
Close Scope Q_scope.
Open Scope nat_scope.

(** ** C39 *)
Lemma f2_nth : forall {A B} {R : A -> B -> Prop} {a b}, Forall2 R a b -> forall i x y, nth_error a i = Some x -> nth_error b i = Some y -> R x y.
Proof. intros A B R a b F. induction F; intros [|i] u v E1 E2; simpl in *; try discriminate; [congruence|eauto]. Qed.
Theorem sharing_ok : forall H h T ts, Forall op_ok h -> t_history H (table_new H) h = (T, ts) ->
  length ts = length h /\
  (forall i o t, nth_error h i = Some o -> nth_error ts i = Some t -> node_of T t = op_node o) /\
  (forall i j oi oj ti tj, i <> j -> nth_error h i = Some oi -> nth_error h j = Some oj ->
     nth_error ts i = Some ti -> nth_error ts j = Some tj -> (ti = tj <-> oi = oj /\ exists r, oi = TGet r)).
Proof.
  intros H h T ts O E. pose proof (proj1 (shares_table_new H)) as S0.
  destruct (history_ok _ _ _ _ _ S0 O E) as (_ & _ & F). split; [symmetry; eapply f2_length; exact F|]. split.
  - intros i o t A B. eapply (f2_nth F); eauto.
  - intros i j oi oj ti tj NE A B C D. destruct (Nat.lt_total i j) as [L|[L|L]]; [|congruence|].
    + eapply history_eq; eauto.
    + pose proof (history_eq _ _ _ _ _ S0 O E j i oj oi tj ti L B A D C) as X.
      split.
      * intros ->. destruct X as [X _]. destruct (X eq_refl) as [-> Y]. auto.
      * intros [-> Y]. symmetry. apply X. auto.
Qed.
Theorem immutable_ok : forall H h1 h2 T1 ts1 T ts, Forall op_ok (h1 ++ h2) -> t_history H (table_new H) h1 = (T1, ts1) ->
  t_history H (table_new H) (h1 ++ h2) = (T, ts) ->
  (exists ts2, ts = ts1 ++ ts2) /\ forall t, tix t < length (tt_nodes T1) -> tix t < length (tt_nodes T) /\ node_of T t = node_of T1 t.
Proof.
  intros H h1 h2 T1 ts1 T ts O E1 E. rewrite history_app, E1 in E.
  destruct (t_history H T1 h2) as [T2 ts2] eqn:E2. inversion E; subst. split; [eauto|].
  apply Forall_app in O. destruct O as [O1 O2].
  destruct (history_ok _ _ _ _ _ (proj1 (shares_table_new H)) O1 E1) as (S1 & _ & _).
  destruct (history_ok _ _ _ _ _ S1 O2 E2) as (_ & X & _).
  intros t L. split; [eapply Nat.lt_le_trans; [exact L|apply ext_len; auto]|now apply ext_node].
Qed.

(** ** C40, C41 *)
Theorem op_correct : forall H T o args tys y, reach H T -> Forall2 (has_type T) args tys -> op_sig o tys = Some y ->
  o <> ODiv -> (o = OTimes -> lin T args) ->
  (o = OEq \/ o = ODistinct -> forall a b, In a args -> In b args -> ~ unit_pair T a b) ->
  exists T' t, mk_term H T o args = Ok (T', t) /\ reach H T' /\ has_type T' t y /\ keeps T T' /\
    forall I, teval I T' t = op_sem o (map (teval I T) args).
Proof.
  intros H T o args tys y R F G ND L U. pose proof (reach_wf H T R) as W.
  destruct (mk_term_ok H T o args tys y W F G L ND) as [([T' t] & E & W' & X & HT & D)|(_ & C & a & b & A & B & UP)].
  - exists T', t. split; auto. split; [eapply r_op; eauto|]. split; auto. split; auto. now apply ext_keeps.
  - exfalso. exact (U C a b A B UP).
Qed.
Theorem op_sound : forall H T o args tys y T' t, reach H T -> Forall2 (has_type T) args tys -> op_sig o tys = Some y ->
  o <> ODiv -> mk_term H T o args = Ok (T', t) ->
  reach H T' /\ has_type T' t y /\ keeps T T' /\ forall I, teval I T' t = op_sem o (map (teval I T) args).
Proof.
  intros H T o args tys y T' t R F G ND E. pose proof (reach_wf H T R) as W.
  destruct (mk_term_ok H T o args tys y W F G) as [([T1 t1] & E1 & W' & X & HT & D)|(E1 & _)]; auto.
  - intros ->. eapply times_ok_lin; eauto.
  - rewrite E in E1. inversion E1; subst. split; [eapply r_op; eauto|]. split; auto. split; auto. now apply ext_keeps.
  - congruence.
Qed.
Theorem app_correct : forall H T f ret args T' t, reach H T -> valid T f -> tneg f = false -> kind_of T f = KUninterp ->
  ret = TBool \/ ret = TReal -> Forall (typed T) args -> mk_app H T f ret args = (T', t) ->
  reach H T' /\ has_type T' t ret /\ keeps T T' /\
  forall I, teval I T' t = match ret with
                           | TReal => VR (i_freal I (tix f) (map (teval I T) args))
                           | _ => VB (i_fbool I (tix f) (map (teval I T) args))
                           end.
Proof.
  intros H T f ret args T' t R V N K RT TA E. destruct (app_ok H T f ret args T' t (reach_wf H T R) V N K RT TA E) as (W & X & HT & D).
  split; [eapply r_app; eauto|]. split; auto. split; auto. now apply ext_keeps.
Qed.

(** ** C42 *)
Theorem eq_atom : forall H T a b T' t, reach H T -> real_t T a -> real_t T b -> mk_arith_eq H T a b = Ok (T', t) ->
  t = true_term \/ t = false_term \/ mentions T' t.
Proof.
  intros H T a b T' t R A B E.
  destruct (arith_eq_ok H T a b (reach_wf H T R) A B) as [(T1 & t1 & E1 & S1 & Y)|(E1 & _)]; [|congruence].
  rewrite E in E1. inversion E1; subst. destruct Y as (W & _). eapply shape_mentions; eauto.
Qed.
Theorem eq_total : forall H T a b, reach H T -> real_t T a -> real_t T b -> ~ unit_pair T a b ->
  exists T' t, mk_arith_eq H T a b = Ok (T', t).
Proof.
  intros H T a b R A B U.
  destruct (arith_eq_ok H T a b (reach_wf H T R) A B) as [(T1 & t1 & E1 & _)|(_ & k & x & N & _ & C)]; eauto.
  exfalso. apply U. exists k, x. auto.
Qed.

(** ** C43 *)
Theorem numeral_ok : forall H T s, reach H T -> Forall is_digit s -> s <> [] ->
  exists T' t, mk_numeral H T s = Ok (T', t) /\ reach H T' /\ real_t T' t /\ keeps T T' /\
    forall I, (this (treal I T' t) == inject_Z (digits_value s))%Q.
Proof.
  intros H T s R F N. destruct (integer_ok s F N) as (r & E & _ & V). unfold mk_numeral. rewrite E. cbn [bind].
  destruct (const_ok H T (Q2Qc (Spec_Rational.value r)) (reach_wf H T R)) as (T1 & k & EK & W1 & X1 & R1 & N1). rewrite EK.
  exists T1, k. split; auto. split; [eapply r_num; eauto|]. split; auto. split; [now apply ext_keeps|].
  intros I. rewrite (const_eval H T1 I k _ W1 R1 N1). cbn [this Q2Qc]. rewrite Qred_correct. exact V.
Qed.
Theorem decimal_term_ok : forall H T d f, reach H T -> Forall is_digit d -> d <> [] -> Forall is_digit f -> f <> [] ->
  exists T' t, mk_decimal H T (d ++ "."%char :: f) = Ok (T', t) /\ reach H T' /\ real_t T' t /\ keeps T T' /\
    forall I, (this (treal I T' t) == decimal_value d f)%Q.
Proof.
  intros H T d f R Fd Nd Ff Nf. destruct (decimal_ok d f Fd Nd Ff Nf) as (r & E & _ & V). unfold mk_decimal. rewrite E. cbn [bind].
  destruct (const_ok H T (Q2Qc (Spec_Rational.value r)) (reach_wf H T R)) as (T1 & k & EK & W1 & X1 & R1 & N1). rewrite EK.
  exists T1, k. split; auto. split; [eapply r_num; eauto|]. split; auto. split; [now apply ext_keeps|].
  intros I. rewrite (const_eval H T1 I k _ W1 R1 N1). cbn [this Q2Qc]. rewrite Qred_correct. exact V.
Qed.

(** ** C44 *)
Lemma q_inv_ok : forall q : Qc, q <> 0%Qc -> (- 2 ^ 31 < Qnum q < 2 ^ 31)%Z -> (Zpos (Qden q) < 2 ^ 31)%Z -> q_inv q = Ok (/ q)%Qc.
Proof.
  intros q NZ BN BD. unfold q_inv.
  destruct (lf_str_ok (Qnum q) (Zpos (Qden q)) ltac:(discriminate)) as (a & E & C & V). rewrite E. cbn [bind].
  assert (VQ : (Spec_Rational.value a == q)%Q).
  { rewrite V. unfold Qeq, Qdiv, Qinv, inject_Z; simpl. destruct (this q) as [n d]; simpl. lia. }
  assert (P : parts a = (Qnum q, Zpos (Qden q))).
  { destruct (canonical_pos a C) as (n & p & P & EV). rewrite P. rewrite EV in VQ.
    pose proof (in_lowest _ C) as [_ L]. rewrite P in L. cbn [fst snd] in L.
    assert (G : Qred (n # p)%Q = (n # p)%Q).
    { apply Qcanon.Qred_iff. exact L. }
    assert (G2 : Qred (this q) = this q) by (apply canon).
    assert (EQ : (n # p)%Q = this q). { rewrite <- G, <- G2. now apply Qred_complete. }
    rewrite <- EQ. reflexivity. }
  assert (W : wv a = true).
  { apply (fast_iff_fits _ C). rewrite P. unfold fits. cbn [fst snd]. lia. }
  rewrite parts_word in P by assumption. injection P as P1 P2.
  destruct (lf_inv_ok a C W) as (r & -> & Cr & Vr).
  - rewrite VQ. intro Z0. apply NZ. apply Qc_is_canon. exact Z0.
  - rewrite P1. unfold WORD_MIN. lia.
  - rewrite P2. unfold WORD_MAX. lia.
  - cbn [bind]. f_equal. apply Qc_is_canon. unfold Qcinv, Q2Qc. cbn [this]. rewrite !Qred_correct, Vr, VQ. reflexivity.
Qed.

Theorem divides_exact : forall H T a b q, reach H T -> real_t T a -> real_t T b ->
  node_of T b = mkNode KArithConst TReal (DRat q) -> q <> 0%Qc ->
  is_arith_const T a = true \/ ((- 2 ^ 31 < Qnum q < 2 ^ 31)%Z /\ (Zpos (Qden q) < 2 ^ 31)%Z) ->
  exists T' t, mk_term H T ODiv [a; b] = Ok (T', t) /\ reach H T' /\ real_t T' t /\ keeps T T' /\
    forall I, teval I T' t = op_sem ODiv [teval I T a; teval I T b].
Proof.
  intros H T a b q R A B N NZ C. pose proof (reach_wf H T R) as W.
  destruct (divides_ok H T a b q W A B N) as [D1 D2].
  assert (Y : yrr H T (mk_divides H T a b) (fun I => (treal I T a / q)%Qc)).
  { destruct (is_arith_const T a) eqn:CA; [now apply D1|]. destruct C as [C|[C1 C2]]; [discriminate|].
    exact (D2 eq_refl _ (q_inv_ok q NZ C1 C2)). }
  destruct Y as ([T' t] & E & Y). exists T', t. split; auto.
  split; [eapply (r_op H T ODiv [a; b] [TReal; TReal] TReal); eauto|].
  apply yr_yv in Y. destruct Y as (W' & X & HT & D). split; auto. split; [now apply ext_keeps|].
  intros I. cbn [fst snd] in D. rewrite D, (real_value H T I a W A), (real_value H T I b W B), (const_eval H T I b q W B N). reflexivity.
Qed.

Lemma sig_bool_y : forall o args, op_sig o (map (fun _ : term => TBool) args) = Some TBool -> o <> ODiv /\ o <> OTimes.
Proof.
  intros o args E. split; intros ->; simpl in E.
  - destruct args; simpl in E; discriminate.
  - destruct (forallb _ _); discriminate.
Qed.
Theorem bool_ops : forall H T o args, reach H T -> Forall (bool_t T) args ->
  op_sig o (map (fun _ => TBool) args) = Some TBool ->
  exists T' t, mk_term H T o args = Ok (T', t) /\ reach H T' /\ bool_t T' t /\ keeps T T' /\
    forall I, teval I T' t = op_sem o (map (teval I T) args).
Proof.
  intros H T o args R F G. destruct (sig_bool_y _ _ G) as [ND NT].
  apply (op_correct H T o args _ TBool R) with (2 := G); auto; try contradiction.
  - clear G. induction F; simpl; constructor; auto.
  - intros _ a b Ia Ib (k & x & _ & [[_ E]|[_ E]]).
    + eapply Forall_forall in Ia; [|exact F]. destruct Ia as [_ Ia]. unfold type_of in Ia. rewrite E in Ia. discriminate.
    + eapply Forall_forall in Ib; [|exact F]. destruct Ib as [_ Ib]. unfold type_of in Ib. rewrite E in Ib. discriminate.
Qed.
Theorem bool_direct : forall H T a b c, reach H T -> bool_t T a -> bool_t T b -> bool_t T c ->
  let ok r f := bool_t (fst r) (snd r) /\ keeps T (fst r) /\ forall I, tholds I (fst r) (snd r) = f (fun t => tholds I T t) in
  ok (mk_binary_or H T a b) (fun v => v a || v b) /\ ok (mk_binary_and H T a b) (fun v => v a && v b) /\
  ok (mk_implies H T a b) (fun v => implb (v a) (v b)) /\ ok (mk_iff H T a b) (fun v => Bool.eqb (v a) (v b)) /\
  ok (mk_xor H T a b) (fun v => xorb (v a) (v b)) /\ ok (mk_bool_ite H T a b c) (fun v => if v a then v b else v c).
Proof.
  intros H T a b c R A B C ok. pose proof (reach_wf H T R) as W.
  assert (K : forall r f, yb H T r (fun I => f (fun t => tholds I T t)) -> ok r f).
  { intros r f (_ & X & Bt & D). split; [exact Bt|]. split; [now apply ext_keeps|exact D]. }
  split; [|split; [|split; [|split; [|split]]]]; apply K.
  - now apply binary_or_ok. - now apply binary_and_ok. - now apply implies_ok. - now apply iff_ok. - now apply xor_ok. - now apply bool_ite_ok.
Qed.
