(** Equality, products, division, ite, applications and distinct. *)
From Coq Require Import List Arith ZArith QArith Qcanon NArith Bool Lia.
From Verif Require Import Base Terms_Model Spec_Terms Spec_TermMgr Terms_Proofs TermMgr_Model TermMgr_Base TermMgr_Bool TermMgr_Arith.
Import ListNotations.
Close Scope Qc_scope.
Close Scope Q_scope.
Open Scope nat_scope.

Lemma merge_empty : forall c p q, c <> 0%Qc -> sorted_p p -> sorted_p q ->
  Forall (fun m : mono => snd m <> 0%Qc) p -> Forall (fun m : mono => snd m <> 0%Qc) q ->
  tp_merge p q c = [] -> map fst p = map fst q /\ Forall2 (fun m n : mono => (snd m + snd n * c)%Qc = 0%Qc) p q.
Proof.
  intros c p q NZ. revert q. induction p as [|[v a] p IH]; intros q SP SQ ZP ZQ E.
  - rewrite merge_nil_l in E. destruct q; [auto|discriminate].
  - destruct q as [|[w b] q].
    + rewrite merge_nil_r in E. discriminate.
    + rewrite merge_cons in E. destruct (mv_ltb v w) eqn:E1; [discriminate|].
      destruct (mv_ltb w v) eqn:E2; [discriminate|]. pose proof (mv_tri _ _ E1 E2); subst w.
      destruct (q_eqb (a + b * c)%Qc 0) eqn:E3; [|discriminate]. apply q_eqb_eq in E3.
      destruct SP, SQ. inversion ZP; inversion ZQ; subst.
      destruct (IH q) as [M F]; auto. simpl. split; [congruence|constructor; auto].
Qed.
Lemma merge_empty_eq : forall T p q, poly_ok T p -> poly_ok T q -> tp_merge p q (- (1))%Qc = [] -> p = q.
Proof.
  intros T p q P Q E. apply poly_split in P. apply poly_split in Q. destruct P as (P1 & P2 & _), Q as (Q1 & Q2 & _).
  destruct (merge_empty _ _ _ neg1_nz P1 Q1 P2 Q2 E) as [M F]. clear -M F. revert M. induction F; simpl; auto.
  intros M. inversion M. destruct x as [v a], y as [w b]; simpl in *; subst. f_equal; auto.
  f_equal. replace b with (a + b * - (1) + b)%Qc by (rewrite H; ring). ring.
Qed.

Section E.
Variable H : hashes.

Lemma same_node : forall T a b r, wf H T -> valid T a -> valid T b -> tneg a = false -> tneg b = false ->
  node_of T a = node_of T b -> node_req (node_of T a) = Some r -> a = b.
Proof.
  intros T [i m] [j n] r W [_ A] [_ B] N1 N2 E R; simpl in *; subst. f_equal.
  pose proof (node_of_some _ (mkT i false) A) as X. pose proof (node_of_some _ (mkT j false) B) as Y.
  rewrite <- E in Y. simpl in *. eapply (sh_uniq _ _ (wf_shares _ _ W)); eauto.
Qed.
Lemma same_const : forall T a b q, wf H T -> real_t T a -> real_t T b -> node_of T a = const_node q ->
  node_of T b = const_node q -> a = b.
Proof.
  intros T a b q W A B E1 E2. eapply (same_node T a b (RRat q) W); try apply A; try apply B; try congruence.
  rewrite E1. reflexivity.
Qed.
Lemma same_repr : forall T m a b, wf H T -> mono_repr T m a -> mono_repr T m b -> a = b.
Proof.
  intros T [v c] a b W (RA & ZA & A) (RB & ZB & B). simpl in *. destruct v as [x|].
  - destruct A as [V [[A1 A2]|(A1 & k & Rk & Nk & _ & _ & NA)]], B as [V' [[B1 B2]|(B1 & k' & Rk' & Nk' & _ & _ & NB)]]; try congruence.
    assert (k = k') by (eapply same_const; eauto). subst k'.
    eapply (same_node T a b (RComp KProduct TReal [k; x]) W); try apply RA; try apply RB; try congruence.
    rewrite NA. reflexivity.
  - eapply same_const; eauto.
Qed.

Lemma poly_same : forall T a b p, wf H T -> real_t T a -> real_t T b -> poly_of T a p -> poly_of T b p ->
  a = b \/
  (exists k x, p = [(Some x, 1%Qc)] /\ node_of T k = const_node 1 /\ varkind (kind_of T x) /\
     ((b = x /\ node_of T a = mkNode KProduct TReal (DArgs [k; x])) \/
      (a = x /\ node_of T b = mkNode KProduct TReal (DArgs [k; x])))).
Proof.
  intros T a b p W A B PA PB.
  inversion PA as [EA EP|q Zq NA EP|KA EP|k x q NA Rk Nk Zq Vx EP|ms p' NA LA SA FA EP]; subst.
  - inversion PB as [EB EP|q Zq NB EP|KB EP|k x q NB Rk Nk Zq Vx EP|ms p' NB LB SB FB EP]; subst; auto.
    apply f2_length in FB. simpl in FB. lia.
  - inversion PB as [EB EP|q' Zq' NB EP|KB EP|k x q' NB Rk Nk Zq' Vx EP|ms p' NB LB SB FB EP]; subst.
    + left. eapply same_const; eauto.
    + apply f2_length in FB. simpl in FB. lia.
  - inversion PB as [EB EP|q' Zq' NB EP|KB EP|k x q' NB Rk Nk Zq' Vx EP|ms p' NB LB SB FB EP]; subst.
    + auto.
    + right. exists k, a. repeat split; auto.
    + apply f2_length in FB. simpl in FB. lia.
  - inversion PB as [EB EP|q' Zq' NB EP|KB EP|k' x' q' NB Rk' Nk' Zq' Vx' EP|ms p' NB LB SB FB EP]; subst.
    + right. exists k, x. split; auto.
    + left. assert (k = k') by (eapply same_const; eauto). subst k'.
      eapply (same_node T a b (RComp KProduct TReal [k; x]) W); try apply A; try apply B; try congruence.
      rewrite NA. reflexivity.
    + apply f2_length in FB. simpl in FB. lia.
  - assert (2 <= length p) by (apply f2_length in FA; lia).
    inversion PB as [EB EP|q' Zq' NB EP|KB EP|k' x' q' NB Rk' Nk' Zq' Vx' EP|ms' p' NB LB SB FB EP]; subst; simpl in *; try lia.
    left. assert (ms = ms').
    { clear -W FA FB. revert ms' FB. induction FA; intros ms' FB; inversion FB; subst; auto. f_equal; auto.
      eapply same_repr; eauto. }
    subst ms'. eapply (same_node T a b (RComp KPoly TReal ms) W); try apply A; try apply B; try congruence.
    rewrite NA. reflexivity.
Qed.

Lemma eq_zero_ok : forall T x, wf H T -> real_t T x -> is_arith_const T x = false ->
  exists T' t, arith_eq_zero H T x = Ok (T', t) /\ node_of T' t = mkNode KArithEq TBool (DArgs [x]) /\
    yb H T (T', t) (fun I => Qc_eqb (treal I T x) 0).
Proof.
  intros T x W R NC. unfold arith_eq_zero, is_real. rewrite (proj1 (proj2 R)). cbn [ty_eqb assertb bind].
  destruct (get_term H T (RComp KArithEq TBool [x])) as [T' t] eqn:G. exists T', t. split; auto.
  assert (RO : req_ok (RComp KArithEq TBool [x])) by (unfold req_ok, op_ok; repeat split; discriminate).
  destruct (get_wf _ _ _ _ _ W RO G) as (W' & X & Vt & N & DD & Q & _).
  { right; right. split; [unfold wf_node; simpl; auto|]. simpl. intros t0 [<-|[]]. apply R. }
  split; auto. split; [|split; [|split]]; simpl; auto.
  - split; auto. unfold type_of. now rewrite DD.
  - intros J. unfold tholds. rewrite (teval_node _ _ J t W' Vt N), DD.
    change (Qc_eqb (treal J T' x) 0 = Qc_eqb (treal J T x) 0). now rewrite (treal_ext J _ _ x X (proj1 R)).
Qed.
Lemma bineq_ok : forall T s x, wf H T -> varlike T s -> (varlike T x \/ real_t T x /\ is_arith_const T x = true) -> s <> x ->
  exists T' t, arith_bineq H T s x = Ok (T', t) /\ node_of T' t = mkNode KArithBineq TBool (DArgs [s; x]) /\
    yb H T (T', t) (fun I => Qc_eqb (treal I T s) (treal I T x)).
Proof.
  intros T s x W V C NE.
  assert (R : real_t T x) by (destruct C as [C|C]; apply C).
  unfold arith_bineq, is_real. rewrite (proj1 (proj2 R)), (proj1 (proj2 (proj1 V))). cbn [ty_eqb andb assertb bind].
  destruct (varlike_flags _ _ V) as (_ & F & _). unfold is_var_like in F. rewrite F. cbn [assertb bind].
  assert (NP : negb (is_product T x) && negb (is_poly T x) = true).
  { destruct C as [C|[_ C]].
    - destruct (varlike_flags _ _ C) as (_ & _ & _ & -> & ->). reflexivity.
    - unfold is_arith_const, is_product, is_poly in *. apply k_eqb_eq in C. rewrite C. reflexivity. }
  rewrite NP. cbn [assertb bind].
  destruct (get_term H T (RComp KArithBineq TBool [s; x])) as [T' t] eqn:G. exists T', t. split; auto.
  assert (RO : req_ok (RComp KArithBineq TBool [s; x])) by (unfold req_ok, op_ok; repeat split; discriminate).
  destruct (get_wf _ _ _ _ _ W RO G) as (W' & X & Vt & N & DD & Q & _).
  { right; right. split; [unfold wf_node; simpl; auto|]. simpl. intros t0 [<-|[<-|[]]]; [apply V|apply R]. }
  split; auto. split; [|split; [|split]]; simpl; auto.
  - split; auto. unfold type_of. now rewrite DD.
  - intros J. unfold tholds. rewrite (teval_node _ _ J t W' Vt N), DD.
    change (Qc_eqb (treal J T' s) (treal J T' x) = Qc_eqb (treal J T s) (treal J T x)).
    now rewrite (treal_ext J _ _ x X (proj1 R)), (treal_ext J _ _ s X (proj1 (proj1 V))).
Qed.

Lemma poly_term_kind : forall T p T' t, wf H T -> poly_ok T p -> 2 <= length p ->
  poly_to_term H T p = Ok (T', t) -> exists ms, node_of T' t = mkNode KPoly TReal (DArgs ms) /\ Forall2 (mono_repr T') p ms.
Proof.
  intros T p T' t W [SO F] L E. unfold poly_to_term in E. destruct p as [|m [|m' p]]; simpl in L; try lia.
  destruct (monos_ok_terms _ _ T W F) as (T1 & ts & E1 & W1 & X1 & R & D). rewrite E1 in E. cbn [bind fst snd] in E.
  unfold arith_poly in E. pose proof (f2_length R) as L'. simpl in L'. rewrite <- L' in E. cbn [Nat.leb assertb bind] in E.
  inversion E as [G].
  assert (RO : req_ok (RComp KPoly TReal ts)) by (unfold req_ok, op_ok; repeat split; discriminate).
  pose proof (shares_get _ _ _ _ _ (wf_shares _ _ W1) RO G) as (_ & X & _ & _ & N). exists ts. split; auto.
  clear -R X. induction R; constructor; auto. eapply repr_ext; eauto.
Qed.

Lemma Qc_eqb_eq : forall a b, Qc_eqb a b = true <-> a = b.
Proof. intros. unfold Qc_eqb. destruct (Qc_eq_dec a b); split; congruence. Qed.
Lemma Qc_eqb_iff : forall a b c d, (a = b <-> c = d) -> Qc_eqb a b = Qc_eqb c d.
Proof. intros. unfold Qc_eqb. destruct (Qc_eq_dec a b), (Qc_eq_dec c d); tauto. Qed.

(** the atom has a variable *)
Definition eq_shape (T : table) (t : term) : Prop :=
  t = true_term \/ t = false_term \/
  (exists x, node_of T t = mkNode KArithEq TBool (DArgs [x]) /\ real_t T x /\ is_arith_const T x = false) \/
  (exists x y, node_of T t = mkNode KArithBineq TBool (DArgs [x; y]) /\ varlike T x).

Lemma arith_eq_ok : forall T a b, wf H T -> real_t T a -> real_t T b ->
  (exists T' t, mk_arith_eq H T a b = Ok (T', t) /\ eq_shape T' t /\
     yb H T (T', t) (fun I => Qc_eqb (treal I T a) (treal I T b))) \/
  (mk_arith_eq H T a b = UB /\ exists k x, node_of T k = const_node 1 /\ varkind (kind_of T x) /\
     ((b = x /\ node_of T a = mkNode KProduct TReal (DArgs [k; x])) \/
      (a = x /\ node_of T b = mkNode KProduct TReal (DArgs [k; x])))).
Proof.
  intros T a b W A B. unfold mk_arith_eq.
  destruct (t_eqb a b) eqn:EAB.
  { apply t_eqb_eq in EAB; subst. left. exists T, true_term. split; auto. split; [left; auto|].
    apply yb_true; auto. intros. now apply Qc_eqb_eq. }
  apply t_eqb_neq in EAB.
  destruct (to_poly H T a W A) as (p & E1 & O1 & PA & V1). destruct (to_poly H T b W B) as (q & E2 & O2 & PB & V2).
  rewrite E1, E2. cbn [bind].
  pose proof (merge_ok T _ _ _ neg1_nz O1 O2) as O.
  assert (V : forall I, pval I T (tp_merge p q (- (1))%Qc) = (treal I T a - treal I T b)%Qc).
  { intros J. rewrite merge_val, V1, V2. ring. }
  assert (DIFF : forall x y : Qc, (x = y <-> (x - y)%Qc = 0%Qc)).
  { intros x y. split; [intros ->; ring|]. intros E. replace x with (x - y + y)%Qc by ring. rewrite E. ring. }
  assert (EMPTY : tp_merge p q (- (1))%Qc = [] -> exists k x, node_of T k = const_node 1 /\ varkind (kind_of T x) /\
     ((b = x /\ node_of T a = mkNode KProduct TReal (DArgs [k; x])) \/
      (a = x /\ node_of T b = mkNode KProduct TReal (DArgs [k; x])))).
  { intros E. pose proof (merge_empty_eq _ _ _ O1 O2 E); subst q.
    destruct (poly_same T a b p W A B PA PB) as [X|(k & x & _ & X)]; [contradiction|eauto]. }
  assert (GEN : forall d, 2 <= length d -> poly_ok T d -> (forall I, pval I T d = (treal I T a - treal I T b)%Qc) ->
     exists T' t, (r <- poly_to_term H T d ;; arith_eq_zero H (fst r) (snd r)) = Ok (T', t) /\ eq_shape T' t /\
       yb H T (T', t) (fun I => Qc_eqb (treal I T a) (treal I T b))).
  { clear O V EMPTY. intros d L O V. destruct (poly_term_ok H d T W O) as ([T1 s] & E & Y). simpl in *.
    rewrite E. cbn [bind fst snd]. destruct Y as (W1 & X1 & R1 & D1). simpl in *.
    destruct (poly_term_kind T d T1 s W O L E) as (ms & N & _).
    assert (NC : is_arith_const T1 s = false) by (unfold is_arith_const, kind_of; rewrite N; reflexivity).
    destruct (eq_zero_ok T1 s W1 R1 NC) as (T' & t & E' & N' & Y).
    exists T', t. split; auto. split.
    - right; right; left. exists s. split; auto. destruct Y as (W' & X' & _). simpl in *.
      split; [eapply real_ext; eauto|]. now rewrite (const_ext _ _ _ X' (proj1 R1)).
    - eapply yb_from; [exact X1|]. eapply yb_ext; [exact Y|]. intros J; simpl. rewrite D1, V.
      apply Qc_eqb_iff. symmetry. apply DIFF. }
  set (d := tp_merge p q (- (1))%Qc) in *.
  cbv zeta.
  destruct d as [|[v1 c1] [|[v2 c2] d']].
  - right. split; auto.
  - left. destruct O as [_ F]. inversion F as [|? ? [NZ VO] _]; subst. simpl in NZ, VO. destruct v1 as [x|].
    + assert (NC : is_arith_const T x = false) by apply (varlike_flags _ _ VO).
      destruct (eq_zero_ok T x W (proj1 VO) NC) as (T' & t & E' & N' & Y). exists T', t. split; auto. split.
      * right; right; left. exists x. split; auto. destruct Y as (W' & X' & _). simpl in *.
        split; [eapply real_ext; eauto; apply VO|]. rewrite (const_ext _ _ _ X'); auto. apply VO.
      * eapply yb_ext; [exact Y|]. intros J; simpl. apply Qc_eqb_iff. rewrite (DIFF (treal J T a)), <- V. unfold pval; simpl.
        split; [intros ->; ring|]. intros E. replace (c1 * treal J T x + 0)%Qc with (c1 * treal J T x)%Qc in E by ring.
        apply Qcmult_integral in E. tauto.
    + rewrite (proj2 (q_eqb_neq _ _) NZ). cbn [negb assertb bind]. exists T, false_term. split; auto. split; [right; left; auto|].
      apply yb_false; auto. intros J. apply not_true_iff_false. intros E. apply Qc_eqb_eq in E. apply DIFF in E.
      rewrite <- V in E. unfold pval in E; simpl in E. apply NZ. rewrite <- E. ring.
  - left. destruct O as [SO F] eqn:EO. clear EO. pose proof F as F0.
    inversion F as [|? ? [NZ1 VO1] F1]; subst. inversion F1 as [|? ? [NZ2 VO2] F2]; subst. simpl in NZ1, NZ2, VO1, VO2.
    assert (L12 : mv_ltb v1 v2 = true). { destruct SO as [S1 _]. inversion S1; subst. auto. }
    destruct d' as [|m3 d'].
    2:{ assert (G := GEN ((v1, c1) :: (v2, c2) :: m3 :: d') ltac:(simpl; lia) (conj SO F0) V).
        destruct v1; exact G. }
    destruct v1 as [x1|].
    + destruct v2 as [x2|]; [|discriminate].
      destruct (q_eqb (c1 + c2)%Qc 0) eqn:EC.
      * apply q_eqb_eq in EC.
        assert (NE : x1 <> x2). { intros ->. now rewrite mv_irrefl in L12. }
        unfold direct_bineq. rewrite (proj2 (t_eqb_neq _ _) NE). cbn [negb assertb bind].
        destruct (varlike_flags _ _ VO1) as (_ & FV1 & _). destruct (varlike_flags _ _ VO2) as (_ & FV2 & _).
        rewrite FV1, FV2. cbn [orb negb andb assertb bind].
        assert (t_ltb x2 x1 = false).
        { simpl in L12. unfold t_ltb in *. apply Nat.ltb_lt in L12. apply Nat.ltb_ge. lia. }
        rewrite H0. destruct (bineq_ok T x1 x2 W VO1 (or_introl VO2) NE) as (T' & t & E' & N' & Y).
        exists T', t. split; auto. split.
        -- right; right; right. exists x1, x2. split; auto. destruct Y as (W' & X' & _). eapply var_ext; eauto.
        -- eapply yb_ext; [exact Y|]. intros J; simpl. apply Qc_eqb_iff. rewrite (DIFF (treal J T a)), <- V. unfold pval; simpl.
           assert (C2 : c2 = (- c1)%Qc). { replace c2 with (c1 + c2 - c1)%Qc by ring. rewrite EC. ring. }
           subst c2. split; [intros ->; ring|].
           intros E. apply DIFF. replace (c1 * treal J T x1 + (- c1 * treal J T x2 + 0))%Qc with (c1 * (treal J T x1 - treal J T x2))%Qc in E by ring.
           apply Qcmult_integral in E. tauto.
      * apply (GEN ((Some x1, c1) :: (Some x2, c2) :: [])); simpl; auto.
    + destruct v2 as [x2|]; [|discriminate].
      rewrite (proj2 (q_eqb_neq _ _) NZ1), (proj2 (q_eqb_neq _ _) NZ2). cbn [negb andb assertb bind].
      destruct (const_ok H T (- c1 / c2)%Qc W) as (T1 & k & EK & W1 & X1 & R1 & N1). rewrite EK.
      pose proof (var_ext _ _ _ X1 VO2) as V2'.
      assert (NE : x2 <> k). { intros ->. eapply varlike_node; eauto. }
      unfold direct_bineq. rewrite (proj2 (t_eqb_neq _ _) NE). cbn [negb assertb bind].
      destruct (varlike_flags _ _ V2') as (_ & FV2 & _). rewrite FV2. cbn [orb negb assertb bind].
      assert (FK : is_var_like T1 k = false).
      { unfold is_var_like, is_uninterp, is_ite, is_app, kind_of. rewrite N1. reflexivity. }
      rewrite FK. cbn [andb].
      destruct (bineq_ok T1 x2 k W1 V2' (or_intror (conj R1 (proj1 (const_kind _ _ _ N1)))) NE) as (T' & t & E' & N' & Y).
      exists T', t. split; auto. split.
      * right; right; right. exists x2, k. split; auto. destruct Y as (W' & X' & _). eapply var_ext; eauto.
      * eapply yb_from; [exact X1|]. eapply yb_ext; [exact Y|]. intros J; simpl. apply Qc_eqb_iff.
        rewrite (DIFF (treal J T a)), <- V. unfold pval; simpl.
        rewrite (const_eval H _ J _ _ W1 R1 N1), (treal_ext J _ _ x2 X1); [|apply VO2].
        split.
        -- intros ->. field. exact NZ2.
        -- intros E. assert (E9 : (c2 * treal J T x2)%Qc = (- c1)%Qc).
           { replace (c2 * treal J T x2)%Qc with (c1 * 1 + (c2 * treal J T x2 + 0) - c1)%Qc by ring. rewrite E. ring. }
           rewrite <- E9. field. exact NZ2.
Qed.

(** *** products *)
Lemma real_const : forall T t, wf H T -> real_t T t -> is_arith_const T t = true -> exists q, node_of T t = const_node q.
Proof.
  intros T t W R IC. destruct (poly_of_ex H T t W R) as [p P].
  assert (K : kind_of T t = KArithConst) by (now apply k_eqb_eq). unfold kind_of in K.
  inversion P as [E|q Z N|KA|k x q N|ms p' N]; subst; eauto.
  - exists 0%Qc. destruct (small_node _ _ zero_term W (proj1 R) ltac:(simpl; lia)) as [[E0 _]|[_ E0]]; [discriminate|auto].
  - unfold kind_of in KA. rewrite K in KA. destruct KA as [X|[X|X]]; discriminate.
  - rewrite N in K. discriminate.
  - rewrite N in K. discriminate.
Qed.
Lemma real_noconst : forall T t, wf H T -> real_t T t -> is_arith_const T t = false ->
  varlike T t \/ (exists k x q, node_of T t = mkNode KProduct TReal (DArgs [k; x]) /\ real_t T k /\ node_of T k = const_node q /\ q <> 0%Qc /\ varlike T x) \/
  (exists ms, node_of T t = mkNode KPoly TReal (DArgs ms)).
Proof.
  intros T t W R IC. destruct (poly_of_ex H T t W R) as [p P].
  inversion P as [E|q Z N|KA|k x q N Rk Nk Zq Vx|ms p' N]; subst.
  - exfalso. destruct (small_node _ _ zero_term W (proj1 R) ltac:(simpl; lia)) as [[E0 _]|[_ E0]]; [discriminate|].
    destruct (const_kind _ _ _ E0) as [X _]. congruence.
  - exfalso. destruct (const_kind _ _ _ N) as [X _]. congruence.
  - left. split; auto.
  - right; left. exists k, x, q. auto.
  - right; right. eauto.
Qed.

Lemma scale_term_ok : forall T v x, wf H T -> real_t T x -> is_arith_const T x = false -> v <> 0%Qc ->
  yrr H T (match kind_of T x with
         | KUninterp | KIte | KApp => _ <- assertb (is_real T x) ;; arith_product H T v x
         | KProduct => y <- var_of_product T x ;; c <- coeff_of_product T x ;; arith_product H T (c * v)%Qc y
         | KPoly => p <- term_to_poly T x ;; poly_to_term H T (tp_scale p v)
         | _ => UB
         end) (fun I => (v * treal I T x)%Qc).
Proof.
  intros T v x W R NC NZ. destruct (real_noconst T x W R NC) as [V|[(k & y & q & N & Rk & Nk & Zq & Vy)|(ms & N)]].
  - destruct (product_ok H T v x W NZ V) as (T' & t & E & W' & X & R' & _ & D).
    assert (IR : is_real T x = true) by (unfold is_real; now rewrite (proj1 (proj2 R))). rewrite IR. cbn [assertb bind].
    destruct V as [_ [K|[K|K]]]; rewrite K, E; eexists; (split; [reflexivity|]); (split; [|split; [|split]]); simpl; auto.
  - assert (NZ' : (q * v)%Qc <> 0%Qc) by (intro E; apply Qcmult_integral in E; tauto).
    destruct (product_ok H T (q * v)%Qc y W NZ' Vy) as (T' & t & E & W' & X & R' & _ & D).
    unfold var_of_product, coeff_of_product, kind_of. rewrite N. cbn [n_kind n_desc bind].
    rewrite (proj2 (const_kind _ _ _ Nk)). cbn [bind]. rewrite E. eexists; split; [reflexivity|].
    split; [|split; [|split]]; simpl; auto. intros J. rewrite D.
    assert (PO : poly_of T x [(Some y, q)]) by (eapply po_prod; eauto).
    rewrite <- (poly_of_val H T x _ J W R PO). unfold pval; simpl. ring.
  - assert (K : kind_of T x = KPoly) by (unfold kind_of; now rewrite N). rewrite K.
    destruct (to_poly H T x W R) as (p & E & O & _ & V). rewrite E. cbn [bind].
    eapply yrr_ext; [apply poly_term_ok; auto; now apply scale_ok|]. intros J; simpl. rewrite scale_val, V. reflexivity.
Qed.

Lemma times_ok : forall T args, wf H T -> Forall (real_t T) args -> lin T args ->
  yrr H T (mk_times H T args) (fun I => Qcprod (map (treal I T) args)).
Proof.
  intros T args W F L. destruct args as [|a [|b [|c args]]]; simpl in L; try tauto.
  - destruct (const_ok H T 1%Qc W) as (T1 & k & EK & W1 & X1 & R1 & N1). unfold mk_times. rewrite EK.
    eexists; split; [reflexivity|]. split; [|split; [|split]]; simpl; auto. intros J. apply (const_eval H); auto.
  - inversion F; subst. eexists; split; [reflexivity|]. apply yr_same; auto. intros J; simpl. ring.
  - inversion F as [|? ? A F']; subst. inversion F' as [|? ? B _]; subst. unfold mk_times. cbn [length Nat.eqb assertb bind].
    cbv zeta.
    assert (ONE : forall v x, real_t T x -> is_arith_const T x = false ->
      yrr H T (if q_eqb v 0 then Ok (T, zero_term) else if q_eqb v 1 then Ok (T, x) else
         match kind_of T x with
         | KUninterp | KIte | KApp => _ <- assertb (is_real T x) ;; arith_product H T v x
         | KProduct => y <- var_of_product T x ;; c <- coeff_of_product T x ;; arith_product H T (c * v)%Qc y
         | KPoly => p <- term_to_poly T x ;; poly_to_term H T (tp_scale p v)
         | _ => UB
         end) (fun I => (v * treal I T x)%Qc)).
    { intros v x R NC. destruct (q_eqb v 0) eqn:E0.
      - apply q_eqb_eq in E0; subst. eexists; split; [reflexivity|]. apply yr_same; auto. { apply (prim_types _ _ W). }
        intros J. unfold treal at 1. rewrite (proj2 (proj2 (prim_teval _ _ J W))). simpl. ring.
      - apply q_eqb_neq in E0. destruct (q_eqb v 1) eqn:E1.
        + apply q_eqb_eq in E1; subst. eexists; split; [reflexivity|]. apply yr_same; auto. intros J; ring.
        + now apply scale_term_ok. }
    cbn [filter]. destruct (is_arith_const T a) eqn:CA, (is_arith_const T b) eqn:CB; try (destruct L; discriminate);
      cbn [negb length Nat.leb assertb bind mul_consts].
    + destruct (real_const T a W A CA) as [qa NA]. destruct (real_const T b W B CB) as [qb NB].
      rewrite (proj2 (const_kind _ _ _ NA)), (proj2 (const_kind _ _ _ NB)). cbn [bind].
      assert (VV : forall I, Qcprod (map (treal I T) [a; b]) = (1 * qa * qb)%Qc).
      { intros J. simpl. rewrite (const_eval H _ J _ _ W A NA), (const_eval H _ J _ _ W B NB). ring. }
      destruct (q_eqb _ 0) eqn:E0.
      * apply q_eqb_eq in E0. eexists; split; [reflexivity|]. apply yr_same; auto. { apply (prim_types _ _ W). }
        intros J. rewrite VV, E0. unfold treal. now rewrite (proj2 (proj2 (prim_teval _ _ J W))).
      * destruct (const_ok H T (1 * qa * qb)%Qc W) as (T1 & k & EK & W1 & X1 & R1 & N1). rewrite EK.
        eexists; split; [reflexivity|]. split; [|split; [|split]]; cbn [fst snd]; auto. intros J. rewrite VV. apply (const_eval H); auto.
    + destruct (real_const T a W A CA) as [qa NA]. rewrite (proj2 (const_kind _ _ _ NA)). cbn [bind].
      eapply yrr_ext; [apply ONE; auto|]. intros J; simpl. rewrite (const_eval H _ J _ _ W A NA). ring.
    + destruct (real_const T b W B CB) as [qb NB]. rewrite (proj2 (const_kind _ _ _ NB)). cbn [bind].
      eapply yrr_ext; [apply ONE; auto|]. intros J; simpl. rewrite (const_eval H _ J _ _ W B NB). ring.
Qed.

(** division multiplies by what [inv] returned *)
Lemma divides_ok : forall T a b q, wf H T -> real_t T a -> real_t T b -> node_of T b = const_node q ->
  (is_arith_const T a = true -> q <> 0%Qc -> yrr H T (mk_divides H T a b) (fun I => (treal I T a / q)%Qc)) /\
  (is_arith_const T a = false -> forall m, q_inv q = Ok m -> yrr H T (mk_divides H T a b) (fun I => (treal I T a * m)%Qc)).
Proof.
  intros T a b q W A B NB. unfold mk_divides. destruct (const_kind _ _ _ NB) as [CB VB]. rewrite CB, VB. cbn [assertb bind].
  split; intros CA; rewrite CA.
  - intros NZ. destruct (real_const T a W A CA) as [qa NA]. rewrite (proj2 (const_kind _ _ _ NA)). cbn [bind].
    rewrite (proj2 (q_eqb_neq _ _) NZ).
    destruct (const_ok H T (qa / q)%Qc W) as (T1 & k & EK & W1 & X1 & R1 & N1). rewrite EK.
    eexists; split; [reflexivity|]. split; [|split; [|split]]; simpl; auto. intros J.
    rewrite (const_eval H _ J _ _ W A NA). apply (const_eval H); auto.
  - intros m C. rewrite C. cbn [bind].
    destruct (const_ok H T m W) as (T1 & k & EK & W1 & X1 & R1 & N1). rewrite EK.
    destruct (times_ok T1 [a; k] W1) as (p & E & Y).
    + constructor; [eapply real_ext; eauto|]. constructor; auto.
    + right. apply (const_kind _ _ _ N1).
    + exists p. split; auto. destruct Y as (W2 & X2 & R2 & D2). split; [|split; [|split]]; auto.
      { eapply ext_trans; eauto. }
      intros J. rewrite D2. simpl. rewrite (const_eval H _ J _ _ W1 R1 N1), (treal_ext J _ _ a X1); [|apply A]. ring.
Qed.
End E.
