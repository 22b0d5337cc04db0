(** Proofs for C36: the clauses are congruence lemmas. *)
From Coq Require Import List Arith ZArith QArith Qcanon Bool Lia Lqa Permutation.
From Verif Require Import Base Core_Model Trail_Model Spec_Trail Trail_Proofs Lincons_Model Spec_Lincons Lincons_Proofs Lincons_Proofs2
  Lra_Model Lra_Hist Spec_Lra Lra_Steps Lra_Confl
  Terms_Model Spec_Terms Terms_Proofs TermMgr_Model Spec_TermMgr TermMgr_Base TermMgr_Arith TermMgr_Term
  Internalizer_Model Spec_Internalizer Internalizer_Proofs Uf_Model Spec_Uf Uf_Proofs.
Import ListNotations.
Close Scope Qc_scope.
Close Scope Q_scope.
Open Scope nat_scope.

Lemma in_poly_insert ts v c x : In x (map fst (poly_insert ts v c)) -> x = v \/ In x (map fst ts).
Proof.
  induction ts as [|[w d] ts IH]; simpl; [intros [<-|[]]; auto|]. destruct (w =? v).
  - destruct (Qeq_bool _ _); simpl; tauto.
  - simpl. intros [A|A]; auto. destruct (IH A); auto.
Qed.
(** a polynomial that is zero everywhere has no terms *)
Lemma poly_zero p : poly_wf p -> (forall r, pvalue r p == 0)%Q -> p_terms p = [].
Proof.
  intros [N F] Z. destruct (p_terms p) as [|[v c] ts] eqn:E; auto. exfalso. unfold pvalue in Z. rewrite E in Z. simpl in *.
  inversion N as [|? ? N1 N2]; subst. inversion F as [|? ? F1 F2]; subst. apply F1. simpl.
  assert (L : forall r1 r2, (forall w, In w (map fst ts) -> r1 w == r2 w)%Q -> (Spec_Lincons.lin r1 ts == Spec_Lincons.lin r2 ts)%Q).
  { clear. induction ts as [|[w d] ts IH]; intros r1 r2 A; simpl; [reflexivity|]. rewrite (IH r1 r2), (A w); simpl; auto; try reflexivity.
    intros x Ix. apply A. simpl. auto. }
  pose proof (Z (fun _ => 0%Q)) as Z0. pose proof (Z (fun w => if w =? v then 1 else 0)%Q) as Z1. simpl in Z0, Z1. rewrite Nat.eqb_refl in Z1.
  rewrite (L (fun w => if w =? v then 1 else 0)%Q (fun _ => 0%Q)) in Z1; [lra|].
  intros w Iw. destruct (Nat.eqb_spec w v); [subst; contradiction|reflexivity].
Qed.

Section C.
Variables (hi : nat -> Z) (hv : Q -> Z) (opt : lopt).
Variable H : hashes.
Variable T : table.
Variable bv : list (term * lit).
Variable rv : list (term * nat).
Hypothesis W : wf H T.
Hypothesis M : maps_ok T rv.
Definition st0 : ist := mkIs store_new 0 [] rv [] [].

Lemma key_varlike t v : In (t, v) rv -> varlike T t.
Proof. intros A. destruct (proj2 M t v A) as [R K]. split; auto. Qed.
Lemma rvar_real t : type_of T t = TReal -> uf_rvar T bv rv t = m_find rv t.
Proof. intros R. unfold uf_rvar, uf_var. rewrite R. now destruct (m_find rv t). Qed.
Lemma find_not t : ~ varkind (kind_of T t) -> m_find rv t = None.
Proof. intros N. destruct (m_find rv t) as [v|] eqn:E; auto. apply m_find_in, key_varlike in E. exfalso. apply N, E. Qed.

Lemma ufloop_img : forall tp ms p q, Forall2 (mono_repr T) tp ms -> uf_poly_loop T bv rv p ms = Ok q -> img st0 tp p = Ok q.
Proof.
  intros tp ms p q F. revert p. induction F as [|[v c] t tp ms (R & NZ & Mn) F IH]; intros p E; [exact E|].
  cbn [uf_poly_loop] in E. rewrite (rvar_real t) in E by apply R. destruct v as [x|]; simpl in Mn.
  - destruct Mn as [V [[-> ->]|(N1 & k & Rk & Nk & L1 & L2 & Nt)]].
    + cbn [img]. unfold rvar, st0. cbn [Internalizer_Model.is_real]. destruct (m_find rv x) as [v|] eqn:Ev.
      * cbn [value_of bind]. apply IH. exact E.
      * exfalso. destruct V as [_ K]. unfold is_arith_const in E.
        destruct K as [K|[K|K]]; rewrite K in E; discriminate E.
    + assert (K : kind_of T t = KProduct) by (unfold kind_of; now rewrite Nt).
      rewrite (find_not t) in E by (rewrite K; intros [X|[X|X]]; discriminate X).
      assert (A : is_arith_const T t = false) by (unfold is_arith_const; now rewrite K). rewrite A, K in E.
      unfold var_of_product, coeff_of_product in E. rewrite K, Nt in E. cbn [n_desc bind k_eqb assertb] in E.
      rewrite (rvar_real x) in E by apply V. rewrite (proj2 (const_kind _ _ _ Nk)) in E.
      cbn [img]. unfold rvar, st0. cbn [Internalizer_Model.is_real]. destruct (m_find rv x) as [v|] eqn:Ev; [|discriminate E].
      cbn [value_of bind] in *. apply IH. exact E.
  - assert (K : kind_of T t = KArithConst) by (unfold kind_of; now rewrite Mn).
    rewrite (find_not t) in E by (rewrite K; intros [X|[X|X]]; discriminate X).
    rewrite (proj1 (const_kind _ _ _ Mn)), (proj2 (const_kind _ _ _ Mn)) in E. cbn [bind img] in *. apply IH. exact E.
Qed.
Lemma ufpoly_int t p : real_t T t -> uf_poly T bv rv t = Ok p -> internalize_poly T st0 t = Ok p.
Proof.
  intros R E. destruct (poly_of_ex H T t W R) as [tp P]. rewrite (ipoly_img H T st0 t tp W R P).
  unfold uf_poly in E. ba E As. rewrite (rvar_real t) in E by apply R. inversion P; subst.
  - destruct (small_node _ _ zero_term W (proj1 R) ltac:(simpl; lia)) as [[E1 _]|[_ E1]]; [discriminate|].
    assert (K : kind_of T zero_term = KArithConst) by (unfold kind_of; now rewrite E1).
    rewrite (find_not zero_term), K, (proj2 (const_kind _ _ _ E1)) in E by (rewrite K; intros [X|[X|X]]; discriminate X). exact E.
  - assert (K : kind_of T t = KArithConst) by (unfold kind_of; now rewrite H1).
    rewrite (find_not t), K, (proj2 (const_kind _ _ _ H1)) in E by (rewrite K; intros [X|[X|X]]; discriminate X). exact E.
  - cbn [img]. unfold rvar, st0. cbn [Internalizer_Model.is_real]. destruct (m_find rv t) as [v|] eqn:Ev; [exact E|].
    destruct H0 as [K|[K|K]]; rewrite K in E; discriminate E.
  - assert (K : kind_of T t = KProduct) by (unfold kind_of; now rewrite H0).
    rewrite (find_not t), K in E by (rewrite K; intros [X|[X|X]]; discriminate X).
    unfold var_of_product, coeff_of_product in E. rewrite K, H0 in E. cbn [n_desc bind] in E.
    rewrite (rvar_real x), (proj2 (const_kind _ _ _ H2)) in E by apply H4.
    cbn [img]. unfold rvar, st0. cbn [Internalizer_Model.is_real]. destruct (m_find rv x) as [v|] eqn:Ev; [exact E|discriminate E].
  - assert (K : kind_of T t = KPoly) by (unfold kind_of; now rewrite H0).
    rewrite (find_not t), K in E by (rewrite K; intros [X|[X|X]]; discriminate X).
    unfold get_args in E. rewrite K, H0 in E. cbn [dargs n_desc] in E. eapply ufloop_img; eauto.
Qed.
Lemma ufpoly_ok t p : real_t T t -> uf_poly T bv rv t = Ok p ->
  poly_wf p /\ (forall I r, reads T rv I r -> pvalue r p == this (treal I T t))%Q.
Proof.
  intros R E. apply ufpoly_int in E; auto. destruct (ipoly_ok H T st0 t p W R (proj1 M) E) as (A & _ & _ & B). split; auto.
  intros I r Rd. apply B. intros x v Ix _. now apply Rd.
Qed.

Notation aeq := (assert_equality hi hv opt T bv rv).
Lemma qc_eq (a b : Qc) : (this a == this b)%Q <-> a = b.
Proof. split; [apply Qc_is_canon|now intros ->]. Qed.

Lemma aeq_ok t u a tr c m a' tr' c' : real_t T t -> real_t T u -> wsi a -> aeq t u a tr c m = Ok (a', tr', c') ->
  wsi a' /\ sinv (l_st a') /\ grows (l_st a) (l_st a') /\
  ((c' = c /\ forall I q, reads T rv I q -> treal I T t = treal I T u) \/
   exists l, c' = c ++ [l] /\ forall I b q, consistent (l_st a') b q -> reads T rv I q ->
     (lit_holds b l <-> (if m then treal I T t = treal I T u else treal I T t <> treal I T u))).
Proof.
  intros Rt Ru Ha E. unfold assert_equality in E. ba E As. rewrite (proj1 (proj2 Rt)) in E.
  bi E p1 E1. bi E p2 E2. cbn zeta in E.
  destruct (ufpoly_ok t p1 Rt E1) as [W1 V1]. destruct (ufpoly_ok u p2 Ru E2) as [W2 V2].
  pose proof (poly_sub_wf p1 p2 W1 (proj2 W2)) as WS.
  assert (VS : forall I q, reads T rv I q -> (pvalue q (poly_sub p1 p2) == 0)%Q <-> treal I T t = treal I T u).
  { intros I q Rd. rewrite poly_sub_value, (V1 I q Rd), (V2 I q Rd), <- qc_eq. split; intros; lra. }
  destruct (p_terms (poly_sub p1 p2)) as [|t0 ts] eqn:PT.
  - ba E Z. inversion E; subst. split; auto. split; [apply Ha|]. split; [apply grows_refl|]. left. split; auto.
    intros I q Rd. apply (VS I q Rd). unfold pvalue. rewrite PT. simpl. apply Qeq_bool_eq in Z. rewrite Z. ring.
  - set (p := poly_sort tr (poly_sub p1 p2)) in *.
    destruct (poly_sort_ok tr (poly_sub p1 p2) (fun _ => 0%Q)) as (PP & _ & WP). fold p in PP, WP. specialize (WP WS).
    assert (NE : p_terms p <> []).
    { intros X. rewrite X, PT in PP. apply Permutation_sym, Permutation_nil in PP. discriminate. }
    assert (VP : forall q, (pvalue q p == pvalue q (poly_sub p1 p2))%Q) by (intros q; apply poly_sort_ok).
    ba E As2. bi E [[a1 tr1] lc] Ec. ba E As3.
    pose proof (Internalizer_Proofs.nonzero_id _ (proj2 WP)) as NZ.
    assert (D : distinct_vars (req_of p PEq)).
    { unfold distinct_vars, req_of. cbn [rq_terms]. change (NoDup (map fst (nonzero (p_terms p)))). rewrite NZ. apply WP. }
    destruct (constraint_facts hi hv opt a tr (req_of p PEq) a1 tr1 lc Ha D Ec) as (_ & (c0 & Mn) & _).
    destruct (constraint_steps hi hv opt a tr (req_of p PEq) a1 tr1 lc Ha D Ec) as ([St Wa] & _).
    destruct (esteps_grows _ _ _ _ _ _ St Ha) as (_ & S1 & G1).
    set (l := if m then lc_lit lc else neg (lc_lit lc)) in *.
    assert (X : a' = a1 /\ c' = c ++ [l]).
    { destruct (mdef (t_bm tr1) (lord l)); [inversion E; auto|]. bi E x Ex. bi E y Ey. ba E As4. bi E tr2 E4. inversion E; auto. }
    destruct X as [-> ->]. split; auto. split; auto. split; auto. right. exists l. split; auto.
    intros I b q HC Rd.
    assert (HL : lit_holds b (lc_lit lc) <-> treal I T t = treal I T u).
    { assert (CO : cons_ok [(req_of p PEq, lc)] b q).
      { apply (consistent_ok (l_st a1)); auto.
        - split; [apply S1|]. intros q0 d [[= <- <-]|[]]. eauto.
        - intros q0 d [[= <- <-]|[]]. unfold proper. cbn [req_of rq_terms]. now rewrite NZ. }
      rewrite (CO _ _ (or_introl eq_refl)), req_mean. simpl. rewrite VP. now apply VS. }
    unfold l. destruct m; [exact HL|]. rewrite <- HL. unfold lit_holds, neg. cbn [lord lneg].
    destruct (b (lord (lc_lit lc))), (lneg (lc_lit lc)); simpl; intuition congruence.
Qed.

Lemma aeq_bool x a tr c m : type_of T x <> TReal -> aeq x x a tr c m = Ok (a, tr, c).
Proof.
  intros N. unfold assert_equality. rewrite (proj2 (ty_eqb_eq _ _) eq_refl). cbn [assertb bind]. destruct (type_of T x); auto. congruence.
Qed.
Lemma sub_self p : poly_wf p -> p_terms (poly_sub p p) = [].
Proof.
  intros P. apply poly_zero; [apply poly_sub_wf; [exact P|apply P]|]. intros r. rewrite poly_sub_value. ring.
Qed.
Lemma aeq_self_gen t a tr c m a' tr' c' : (forall p, uf_poly T bv rv t = Ok p -> poly_wf p) ->
  aeq t t a tr c m = Ok (a', tr', c') -> a' = a /\ tr' = tr /\ c' = c.
Proof.
  intros P E. destruct (type_of T t) eqn:TY.
  1,2: rewrite aeq_bool in E by congruence; inversion E; auto.
  unfold assert_equality in E. ba E As. rewrite TY in E. bi E p1 E1. bi E p2 E2. assert (p1 = p2) as -> by congruence.
  cbn zeta in E. rewrite (sub_self p2 (P p2 E2)) in E. ba E Z. inversion E; auto.
Qed.
Lemma app_poly t p : kind_of T t = KApp -> type_of T t = TReal -> uf_poly T bv rv t = Ok p ->
  exists v, In (t, v) rv /\ p = mkPoly [(v, 1%Q)] 0%Q.
Proof.
  intros K R E. unfold uf_poly in E. ba E As. rewrite (rvar_real t R) in E. destruct (m_find rv t) as [v|] eqn:Ev.
  - exists v. split; [now apply m_find_in|congruence].
  - rewrite K in E. discriminate.
Qed.
Lemma aeq_self_app t a tr c m a' tr' c' : kind_of T t = KApp -> aeq t t a tr c m = Ok (a', tr', c') -> a' = a /\ tr' = tr /\ c' = c.
Proof.
  intros K. apply aeq_self_gen. intros p E. assert (R : type_of T t = TReal).
  { unfold uf_poly in E. ba E As. unfold Terms_Model.is_real in As. now apply ty_eqb_eq. }
  destruct (app_poly t p K R E) as (v & _ & ->). split; simpl.
  - constructor; [intros []|constructor].
  - constructor; [|constructor]. simpl. intros X. discriminate X.
Qed.
Lemma aeq_apps t u a tr c m a' tr' c' : kind_of T t = KApp -> kind_of T u = KApp -> type_of T t = TReal -> t <> u ->
  aeq t u a tr c m = Ok (a', tr', c') -> exists l, c' = c ++ [l].
Proof.
  intros K1 K2 R N E. unfold assert_equality in E. ba E As. apply ty_eqb_eq in As. rewrite R in E, As. bi E p1 E1. bi E p2 E2. cbn zeta in E.
  destruct (app_poly t p1 K1 R E1) as (v & V1 & ->). destruct (app_poly u p2 K2 (eq_sym As) E2) as (w & V2 & ->).
  destruct (p_terms (poly_sub (mkPoly [(v, 1%Q)] 0%Q) (mkPoly [(w, 1%Q)] 0%Q))) as [|t0 ts] eqn:PT.
  - exfalso. cbn [poly_sub poly_add p_terms fold_left map fst snd poly_insert] in PT. destruct (Nat.eqb_spec v w) as [->|]; [|discriminate PT].
    apply N. eapply nodup_inj; [apply M|eauto|eauto].
  - ba E As2. bi E [[a1 tr1] lc] Ec. ba E As3. destruct (mdef _ _); [inversion E; eauto|].
    bi E x Ex. bi E y Ey. ba E As4. bi E tr2 E4. inversion E; eauto.
Qed.

Definition pair_ok (x y : term) : Prop := (x = y /\ bool_t T x) \/ (real_t T x /\ real_t T y).
Lemma args_ok : forall l1 l2 a tr c a' tr' c', Forall2 pair_ok l1 l2 -> wsi a ->
  args_loop hi hv opt T bv rv l1 l2 a tr c = Ok (a', tr', c') ->
  wsi a' /\ grows (l_st a) (l_st a') /\ exists d, c' = c ++ d /\ forall I b q, consistent (l_st a') b q -> reads T rv I q ->
    (exists l, In l d /\ lit_holds b l) \/ map (teval I T) l1 = map (teval I T) l2.
Proof.
  induction l1 as [|x l1 IH]; intros l2 a tr c a' tr' c' F Ha E; inversion F as [|? y ? l2' Pxy F']; subst; cbn [args_loop] in E.
  - inversion E; subst. split; auto. split; [apply grows_refl|]. exists []. rewrite app_nil_r. auto.
  - bi E [[a1 tr1] c1] Eq. destruct Pxy as [[<- B]|[Rx Ry]].
    + rewrite aeq_bool in Eq by (destruct B as [_ B]; congruence). inversion Eq; subst.
      destruct (IH _ _ _ _ _ _ _ F' Ha E) as (A1 & A2 & d & A3 & A4). split; auto. split; auto. exists d. split; auto.
      intros I b q HC Rd. destruct (A4 I b q HC Rd) as [A|A]; auto. right. simpl. now rewrite A.
    + destruct (aeq_ok x y a tr c false a1 tr1 c1 Rx Ry Ha Eq) as (B1 & B2 & B3 & B4).
      destruct (IH _ _ _ _ _ _ _ F' B1 E) as (A1 & A2 & d & A3 & A4). split; auto. split; [eapply grows_trans; eauto|].
      assert (VE : forall I, treal I T x = treal I T y -> teval I T x = teval I T y).
      { intros I V. rewrite (real_value _ _ I x W Rx), (real_value _ _ I y W Ry). now rewrite V. }
      destruct B4 as [[-> B4]|(l & -> & B4)].
      * exists d. split; auto. intros I b q HC Rd. destruct (A4 I b q HC Rd) as [A|A]; auto. right. simpl. rewrite A. f_equal. apply VE. eauto.
      * exists (l :: d). rewrite <- app_assoc in A3. split; [exact A3|]. intros I b q HC Rd.
        assert (HC1 : consistent (l_st a1) b q).
        { apply (consistent_grows (l_st a1) (l_st a') q b); auto. apply A1. }
        destruct (Qc_eq_dec (treal I T x) (treal I T y)) as [V|V].
        -- destruct (A4 I b q HC Rd) as [(l' & L1 & L2)|A]; [left; exists l'; simpl; auto|]. right. simpl. rewrite A. f_equal. auto.
        -- left. exists l. split; [simpl; auto|]. apply (B4 I b q HC1 Rd). exact V.
Qed.
Lemma args_self : forall l a tr c a' tr' c', Forall (typed T) l ->
  args_loop hi hv opt T bv rv l l a tr c = Ok (a', tr', c') -> a' = a /\ tr' = tr /\ c' = c.
Proof.
  induction l as [|x l IH]; intros a tr c a' tr' c' F E; cbn [args_loop] in E; [inversion E; auto|].
  inversion F; subst. bi E [[a1 tr1] c1] Eq. apply aeq_self_gen in Eq.
  - destruct Eq as (-> & -> & ->). eapply IH; eauto.
  - intros p P. destruct H2 as [[_ B]|R]; [|eapply ufpoly_ok; eauto]. exfalso. unfold uf_poly in P. ba P As.
    unfold Terms_Model.is_real in As. apply ty_eqb_eq in As. congruence.
Qed.

Lemma app_node t f : kind_of T t = KApp -> fnc_symbol T t = Ok f ->
  valid T t /\ Forall (typed T) (get_args T t) /\ (forall I, type_of T t = TReal -> tneg t = false ->
    treal I T t = i_freal I (tix f) (map (teval I T) (get_args T t))).
Proof.
  intros K S. assert (L : tix t < length (tt_nodes T)).
  { destruct (Nat.lt_ge_cases (tix t) (length (tt_nodes T))) as [|G]; auto. unfold kind_of, node_of in K. rewrite nth_overflow in K by auto. discriminate. }
  assert (U : 3 <= tix t).
  { destruct (Nat.lt_ge_cases (tix t) 3) as [U|U]; auto. destruct (wf_prim _ _ W) as [l E]. unfold kind_of, node_of in K. rewrite E in K.
    destruct (tix t) as [|[|[|]]]; try discriminate. lia. }
  assert (V : valid T t) by (split; lia). split; auto.
  destruct (node_wf _ _ t W U L) as [Wn _]. unfold fnc_symbol in S. unfold get_args, dargs, type_of. rewrite K in *. unfold kind_of in K.
  unfold wf_node in Wn. rewrite K in Wn.
  destruct (n_desc (node_of T t)) as [|l|q|j] eqn:D; try discriminate. destruct l as [|g args]; try discriminate. injection S as ->.
  split; [apply Wn|]. intros I TY N. unfold treal. rewrite (teval_node _ _ I t W V N). unfold node_value. rewrite K, D, TY. reflexivity.
Qed.

Definition cov (ws : list term) : Prop := forall t1 t2 f, In t1 ws -> In t2 ws -> t1 <> t2 ->
  fnc_symbol T t1 = Ok f -> fnc_symbol T t2 = Ok f -> real_t T t1 /\ real_t T t2 /\ Forall2 pair_ok (get_args T t1) (get_args T t2).
(** the values of the Boolean terms do not matter *)
Definition lem0 (s : store) (c : clause) : Prop :=
  forall I b q, (forall i, lc_empty (lc_get s i) = false -> (b i = true <-> stored_holds q s i)) ->
    reads T rv I q -> exists l, In l c /\ lit_holds b l.
Definition good (r : bool) (a' : lra) (cs : list clause) : Prop :=
  forall c, In c cs -> (r = false -> c <> []) /\ (c <> [] -> lem0 (l_st a') c).

Lemma lemma_mono a a' c : wsi a -> wsi a' -> grows (l_st a) (l_st a') -> lem0 (l_st a) c -> lem0 (l_st a') c.
Proof.
  intros A B G V I b q HC Rd. apply (V I b q); auto. apply (consistent_grows (l_st a) (l_st a') q b); auto; [apply A|apply B].
Qed.
Lemma good_mono r a a' cs : wsi a -> wsi a' -> grows (l_st a) (l_st a') -> good r a cs -> good r a' cs.
Proof. intros A B G V c Ic. destruct (V c Ic) as [V1 V2]. split; auto. intros N. apply (lemma_mono a a' c A B G). auto. Qed.
Lemma good_app r a c d : good r a c -> good r a d -> good r a (c ++ d).
Proof. intros A B x Ix. apply in_app_iff in Ix. destruct Ix; auto. Qed.

Lemma uval_eqb_refl x : uval_eqb x x = true.
Proof. destruct x; simpl; [apply eqb_reflx|]. apply Qeq_bool_iff. reflexivity. Qed.
Lemma fm_find_in m k e : fm_find m k = Some e -> exists k', In (k', e) m.
Proof. induction m as [|[a x] m IH]; simpl; [discriminate|]. destruct (vals_eqb a k); [intros [= ->]; eauto|]. intros E. destruct (IH E); eauto. Qed.

Lemma afv_good r ws F a tr t F' a' tr' cs : tl_ok tr -> tab_ok T bv rv r ws tr F -> In t ws -> cov ws -> wsi a ->
  add_function_value hi hv opt T bv rv F a tr t = Ok (F', a', tr', cs) ->
  wsi a' /\ grows (l_st a) (l_st a') /\ good r a' cs.
Proof.
  intros O TA Iw CV Ha E. unfold add_function_value in E. ba E As. apply k_eqb_eq in As. bi E [vals k] Ev. bi E [x kx] Ex. bi E f Ef. cbn zeta in E.
  destruct (fm_find _ _) as [e|] eqn:FM.
  2:{ inversion E; subst. split; auto. split; [apply grows_refl|]. intros c []. }
  cbn [fst] in E. destruct (uval_eqb (fa_val e) x) eqn:UE.
  { inversion E; subst. split; auto. split; [apply grows_refl|]. intros c []. }
  bi E [[a1 tr1] c1] E1. bi E [[a2 tr2] c2] E2. inversion E; subst. clear E.
  apply fm_find_in in FM. destruct FM as [k' FM]. apply get_in in FM. destruct FM as (m & M1 & M2).
  destruct (TA f m (k', e) M1 M2) as (C1 & C2 & C3 & C4). cbn [snd] in *.
  destruct (app_node t f As Ef) as (Vt & Ft & St). destruct (app_node (fa_app e) f C1 C2) as (Ve & Fe & Se).
  destruct (t_eqb t (fa_app e)) eqn:TE.
  - apply t_eqb_eq in TE. rewrite <- TE in *. apply args_self in E1; auto. destruct E1 as (-> & -> & ->).
    apply aeq_self_app in E2; auto. destruct E2 as (-> & -> & ->). split; auto. split; [apply grows_refl|].
    intros c [<-|[]]. split; [|congruence]. intros R _. destruct (C4 (or_introl R)) as (k1 & k2 & _ & D2 & _). cbn [snd] in D2.
    rewrite <- TE in D2. rewrite Ex in D2. injection D2 as -> _. rewrite uval_eqb_refl in UE. discriminate.
  - apply t_eqb_neq in TE. destruct (CV (fa_app e) t f C3 Iw) as (Re & Rt & FP); auto.
    destruct (args_ok _ _ _ _ _ _ _ _ FP Ha E1) as (A1 & A2 & d & A3 & A4). cbn [app] in A3. subst c1.
    destruct (aeq_ok t (fa_app e) a1 tr1 d true a' tr' c2 Rt Re A1 E2) as (B1 & B2 & B3 & B4).
    destruct (aeq_apps t (fa_app e) a1 tr1 d true a' tr' c2 As C1 (proj1 (proj2 Rt)) TE E2) as (l & EL).
    split; auto. split; [eapply grows_trans; eauto|]. intros c [<-|[]]. split; [intros _; rewrite EL; now destruct d|].
    intros _ I b q HC Rd.
    destruct B4 as [[X _]|(l' & -> & B4)].
    { exfalso. rewrite X in EL. apply (f_equal (@length _)) in EL. rewrite app_length in EL. simpl in EL. lia. }
    assert (HC1 : consistent (l_st a1) b q).
    { apply (consistent_grows (l_st a1) (l_st a') q b); auto. apply A1. }
    destruct (A4 I b q HC1 Rd) as [(l0 & L1 & L2)|V].
    + exists l0. split; auto. apply in_app_iff; auto.
    + exists l'. split; [apply in_app_iff; simpl; auto|]. apply (B4 I b q HC Rd).
      rewrite St, Se; try apply Rt; try apply Re. now rewrite V.
Qed.

Lemma pass_good r ws : cov ws -> forall v wl F a tr wl' F' a' tr' cs, tl_ok tr -> tab_ok T bv rv r ws tr F -> (forall x, In x wl -> In (fst x) ws) -> wsi a ->
  watch_pass hi hv opt T bv rv v wl F a tr = Ok (wl', F', a', tr', cs) ->
  wsi a' /\ grows (l_st a) (l_st a') /\ good r a' cs.
Proof.
  intros CV v. induction wl as [|[t w] wl IH]; intros F a tr wl' F' a' tr' cs O TA J Ha E; cbn [watch_pass] in E.
  - inversion E; subst. split; auto. split; [apply grows_refl|]. intros c [].
  - bi E w0 Ew. destruct (var_eqb v w0).
    + bi E w1 Ew1. bi E al Eal. bi E [[[F1 a3] tr1] c1] Eq2. bi E [[[[ws2 F2] a4] tr2] c2] Eq3. inversion E; subst.
      assert (X : (tab_ok T bv rv r ws tr1 F1 /\ fine tr tr1) /\ wsi a3 /\ grows (l_st a) (l_st a3) /\ good r a3 c1).
      { assert (It : In t ws) by (apply (J (t, w)); left; auto).
        destruct al; [split; [eapply afv_ok; eauto|eapply afv_good; eauto]|]. inversion Eq2; subst.
        split; [split; auto; now apply fine_refl|]. split; auto. split; [apply grows_refl|]. intros c []. }
      destruct X as ((X1 & X2) & X3 & X4 & X5).
      destruct (IH _ _ _ _ _ _ _ _ (proj1 X2) X1 (fun x Ix => J x (or_intror Ix)) X3 Eq3) as (Y1 & Y2 & Y3).
      split; auto. split; [eapply grows_trans; eauto|]. apply good_app; auto. eapply good_mono; [exact X3|exact Y1|exact Y2|exact X5].
    + bi E [[[[ws2 F2] a4] tr2] c2] Eq0. inversion E; subst. eapply IH; eauto. intros x Ix. apply J. now right.
Qed.
Lemma loop_good r ws : cov ws -> forall vs u a tr u' a' tr' cs, tl_ok tr -> map fst (u_watch u) = ws -> tab_ok T bv rv r ws tr (u_fns u) -> wsi a ->
  assigned_loop hi hv opt T bv rv vs u a tr = Ok (u', a', tr', cs) ->
  wsi a' /\ grows (l_st a) (l_st a') /\ good r a' cs.
Proof.
  intros CV. induction vs as [|v vs IH]; intros u a tr u' a' tr' cs O Ew TA Ha E; cbn [assigned_loop] in E.
  - inversion E; subst. split; auto. split; [apply grows_refl|]. intros c [].
  - bi E [[[[wl F] a1] tr1] c1] Eq. bi E [[[u2 a2] tr2] c2] Eq0. inversion E; subst.
    assert (J : forall x, In x (u_watch u) -> In (fst x) (map fst (u_watch u))) by (intros x Ix; now apply in_map).
    destruct (pass_ok hi hv opt T bv rv r (map fst (u_watch u)) _ _ _ _ _ _ _ _ _ _ O TA J Eq) as (X1 & X2 & X3).
    destruct (pass_good r _ CV _ _ _ _ _ _ _ _ _ _ O TA J Ha Eq) as (Z1 & Z2 & Z3).
    destruct (IH (mkUf wl F) _ _ _ _ _ _ (proj1 X2) X3 X1 Z1 Eq0) as (Y1 & Y2 & Y3).
    split; auto. split; [eapply grows_trans; eauto|]. apply good_app; auto. eapply good_mono; [exact Z1|exact Y1|exact Y2|exact Z3].
Qed.
Lemma congruence_lemma r u tr a u' a' tr' cs : uf_history hi hv opt T bv rv r u tr -> covered T u -> wsi a ->
  uf_propagate hi hv opt T bv rv u a tr = Ok (u', a', tr', cs) ->
  forall c, In c cs -> (r = false -> c <> []) /\ (c <> [] -> valid_lemma T bv rv (l_st a') c).
Proof.
  intros Hh CV Ha E. assert (G : good r a' cs); [|intros c Ic; destruct (G c Ic) as [G1 G2]; split; auto; intros N I b q HC Rd _; exact (G2 N I b q HC Rd)].
  destruct (history_ok hi hv opt T bv rv r u tr Hh) as [O TA]. eapply (loop_good r (map fst (u_watch u))); eauto.
  intros t1 t2 f I1 I2 N S1 S2. apply in_map_iff in I1, I2. destruct I1 as ([? w1] & <- & I1), I2 as ([? w2] & <- & I2). cbn [fst] in *.
  eapply CV; eauto.
Qed.
End C.
