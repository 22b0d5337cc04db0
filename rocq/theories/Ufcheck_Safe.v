(** A check of assertions with the logic QF_UFLRA fails no assertion: the translation registers every application with the variables
    of its arguments. *)
From Coq Require Import List Arith ZArith QArith Qcanon NArith Bool Lia Lqa Permutation.
From Verif Require Import Base Core_Model Bool_Model Trail_Model Spec_Trail Solver_Model Spec_Sat Spec_Theory Lincons_Model Spec_Lincons
  Lra_Model Lra_Watch Comb_Model Spec_Comb Comb_Final Comb_Bcp Comb_Lra Lra_Shape Comb_Safe1.
From Verif Require Import Terms_Model Spec_Terms Terms_Proofs TermMgr_Model Spec_TermMgr TermMgr_Base TermMgr_Arith TermMgr_Term
  Visitor_Model Spec_Visitor Visitor_Proofs Internalizer_Model Spec_Internalizer Internalizer_Proofs Internalizer_Step Internalizer_Main
  Check_Model Spec_Check Check_Proofs Check_Safe Uf_Model Spec_Uf Uf_Proofs Uf_Confl Ufcomb_Model Ufcomb_Eq Ufcomb_Watch Ufcomb_Final
  Ufcomb_Safe1 Ufcomb_Safe2 Ufcheck_Model Spec_Ufcheck Ufcheck_Cancel Ufcheck_Proofs.
Import ListNotations.
Close Scope Qc_scope.
Close Scope Q_scope.
Open Scope nat_scope.

(** ** polynomials of terms *)
Section P.
Variables (H : hashes) (T : table) (bv : list (term * lit)) (rv : list (term * nat)).
Hypothesis W : wf H T.
Lemma symbol_tot t : kind_of T t = KApp -> exists f, fnc_symbol T t = Ok f.
Proof.
  intros K. assert (L : tix t < length (tt_nodes T)).
  { destruct (Nat.lt_ge_cases (tix t) (length (tt_nodes T))) as [|G]; auto. unfold kind_of, node_of in K. rewrite nth_overflow in K by auto. discriminate. }
  assert (U : 3 <= tix t).
  { destruct (Nat.lt_ge_cases (tix t) 3) as [U|U]; auto. destruct (wf_prim _ _ W) as [l E]. unfold kind_of, node_of in K. rewrite E in K.
    destruct (tix t) as [|[|[|]]]; try discriminate. lia. }
  destruct (node_wf _ _ t W U L) as [Wn _]. unfold fnc_symbol. rewrite K. unfold kind_of in K. unfold wf_node in Wn. rewrite K in Wn.
  destruct (n_desc (node_of T t)) as [|l|q|j] eqn:D; try contradiction. destruct l as [|g args]; try contradiction. eauto.
Qed.
Lemma vtw_var n x v : varlike T x -> m_find rv x = Some v -> In (VRat v) (vars_to_watch_f T bv rv (S n) x).
Proof.
  intros [R K] F. cbn [vars_to_watch_f]. unfold uf_var. rewrite (proj1 (proj2 R)), F. destruct K as [K|[K|K]]; rewrite K; now left.
Qed.
Lemma vtw n t tp x v : tix t < n -> real_t T t -> poly_of T t tp -> In x (tvars tp) -> m_find rv x = Some v -> In (VRat v) (vars_to_watch_f T bv rv n t).
Proof.
  intros L R P I F. destruct n as [|n]; [lia|]. destruct P as [->|q NZ N|K|k y q N Rk Nk NZ V|ms p N LL S FF]; cbn [tvars] in I.
  - destruct I.
  - destruct I.
  - destruct I as [<-|[]]. now apply vtw_var.
  - destruct I as [<-|[]]. assert (K : kind_of T t = KProduct) by (unfold kind_of; now rewrite N).
    assert (A : In y (get_args T t)) by (unfold get_args, kind_of; rewrite N; simpl; auto). pose proof (wf_acyclic _ _ W t y A) as LY.
    cbn [vars_to_watch_f]. rewrite K. apply in_flat_map. exists y. split; auto. destruct n as [|n]; [lia|]. now apply vtw_var.
  - assert (K : kind_of T t = KPoly) by (unfold kind_of; now rewrite N). apply tvars_in in I. destruct I as (c & I).
    assert (exists m, In m ms /\ mono_repr T (Some x, c) m) as (m & Im & (Rm & NZ & V & M)).
    { clear - FF I. induction FF; destruct I; subst; simpl; eauto. destruct (IHFF H0) as (z & ? & ?); eauto. }
    assert (A : In m (get_args T t)) by (unfold get_args, kind_of; rewrite N; simpl; auto). pose proof (wf_acyclic _ _ W t m A) as LM.
    cbn [vars_to_watch_f]. rewrite K. apply in_flat_map. exists m. split; auto. destruct n as [|n]; [lia|].
    destruct M as [[_ ->]|(_ & k & Rk & Nk & L1 & L2 & Nm)]; [now apply vtw_var|].
    assert (Km : kind_of T m = KProduct) by (unfold kind_of; now rewrite Nm).
    assert (Ax : In x (get_args T m)) by (unfold get_args, kind_of; rewrite Nm; simpl; auto). pose proof (wf_acyclic _ _ W m x Ax) as LX.
    cbn [vars_to_watch_f]. rewrite Km. apply in_flat_map. exists x. split; auto. destruct n as [|n]; [lia|]. now apply vtw_var.
Qed.
Hypothesis M : maps_ok T rv.
Lemma loop_tot : forall tp ms p, Forall2 (mono_repr T) tp ms -> (forall x, In x (tvars tp) -> exists v, m_find rv x = Some v) ->
  exists q, uf_poly_loop T bv rv p ms = Ok q.
Proof.
  intros tp ms p F. revert p. induction F as [|[v c] t tp ms (R & NZ & Mn) F IH]; intros p FV; [cbn; eauto|].
  cbn [uf_poly_loop]. rewrite (rvar_real T bv rv t) by apply R. destruct v as [x|]; cbn [tvars] in FV; simpl in Mn.
  - destruct (FV x (or_introl eq_refl)) as (v & Ev). assert (FV2 : forall x, In x (tvars tp) -> exists v, m_find rv x = Some v) by (intros; apply FV; now right).
    destruct Mn as [V [[-> ->]|(N1 & k & Rk & Nk & L1 & L2 & Nt)]].
    + rewrite Ev. now apply IH.
    + assert (K : kind_of T t = KProduct) by (unfold kind_of; now rewrite Nt).
      rewrite (find_not T rv M t) by (rewrite K; intros [X|[X|X]]; discriminate X).
      assert (A : is_arith_const T t = false) by (unfold is_arith_const; now rewrite K). rewrite A, K.
      unfold var_of_product, coeff_of_product. rewrite K, Nt. cbn [n_desc bind k_eqb assertb].
      rewrite (rvar_real T bv rv x) by apply V. rewrite (proj2 (const_kind _ _ _ Nk)), Ev. cbn [value_of bind]. now apply IH.
  - assert (K : kind_of T t = KArithConst) by (unfold kind_of; now rewrite Mn).
    rewrite (find_not T rv M t) by (rewrite K; intros [X|[X|X]]; discriminate X).
    rewrite (proj1 (const_kind _ _ _ Mn)), (proj2 (const_kind _ _ _ Mn)). cbn [bind]. now apply IH.
Qed.
Lemma ufpoly_tot t : real_t T t -> (forall tp x, poly_of T t tp -> In x (tvars tp) -> exists v, m_find rv x = Some v) -> exists p, uf_poly T bv rv t = Ok p.
Proof.
  intros R FV. destruct (poly_of_ex H T t W R) as [tp P]. specialize (FV tp). unfold uf_poly.
  replace (Terms_Model.is_real T t) with true by (symmetry; unfold Terms_Model.is_real; apply ty_eqb_eq; apply R). cbn [assertb bind].
  rewrite (rvar_real T bv rv t) by apply R. pose proof (fun x => FV x P) as FV2. clear FV. destruct P as [->|q NZ N|K|k y q N Rk Nk NZ V|ms p N LL S FF]; cbn [tvars] in FV2.
  - destruct (small_node _ _ zero_term W (proj1 R) ltac:(simpl; lia)) as [[E1 _]|[_ E1]]; [discriminate|].
    assert (K : kind_of T zero_term = KArithConst) by (unfold kind_of; now rewrite E1).
    rewrite (find_not T rv M zero_term), K, (proj2 (const_kind _ _ _ E1)) by (rewrite K; intros [X|[X|X]]; discriminate X). cbn; eauto.
  - assert (K : kind_of T t = KArithConst) by (unfold kind_of; now rewrite N).
    rewrite (find_not T rv M t), K, (proj2 (const_kind _ _ _ N)) by (rewrite K; intros [X|[X|X]]; discriminate X). cbn; eauto.
  - destruct (FV2 t (or_introl eq_refl)) as (v & ->). eauto.
  - assert (K : kind_of T t = KProduct) by (unfold kind_of; now rewrite N). destruct (FV2 y (or_introl eq_refl)) as (v & Ev).
    rewrite (find_not T rv M t), K by (rewrite K; intros [X|[X|X]]; discriminate X).
    unfold var_of_product, coeff_of_product. rewrite K, N. cbn [n_desc bind].
    rewrite (rvar_real T bv rv y), (proj2 (const_kind _ _ _ Nk)), Ev by apply V. cbn; eauto.
  - assert (K : kind_of T t = KPoly) by (unfold kind_of; now rewrite N).
    rewrite (find_not T rv M t), K by (rewrite K; intros [X|[X|X]]; discriminate X).
    unfold get_args. rewrite K, N. cbn [dargs n_desc]. eapply loop_tot; eauto.
Qed.
Lemma ufpoly_var t p v : real_t T t -> uf_poly T bv rv t = Ok p -> In v (map fst (p_terms p)) -> exists tp x, poly_of T t tp /\ In x (tvars tp) /\ In (x, v) rv.
Proof.
  intros R E Iv. apply (ufpoly_int H T bv rv W M t p R) in E. destruct (poly_of_ex H T t W R) as [tp P]. rewrite (ipoly_img H T _ t tp W R P) in E.
  pose proof (img_shape _ _ _ _ E) as (n & E1 & E2 & _). simpl in E1. rewrite E1 in Iv. apply in_map_iff in Iv. destruct Iv as (w & <- & Iw).
  exists tp. assert (exists x, In x (tvars tp) /\ In (x, fst w) rv) as (x & Ix & Jx).
  { clear - E2 Iw. cbn [Internalizer_Model.is_real] in E2. induction E2; destruct Iw; subst; simpl; eauto. destruct (IHE2 H0) as (z & ? & ?); eauto. }
  eauto.
Qed.
End P.

(** ** what registration leaves *)
Section U.
Variables (hi : nat -> Z) (hv : Q -> Z) (opt : lopt).
Variable ndebug : bool.
Variable H : hashes.
Variable T : table.
Hypothesis W : wf H T.
Notation iv := (int_visit ndebug hi hv T).
Notation uv := (ufi_visit hi hv ndebug T).
Notation J := (J hi hv T True).

Definition WV (st : ist) (u : uf) : Prop := forall x, In x (u_watch u) -> kind_of T (fst x) = KApp /\
  (exists v, In (fst x, v) (is_real st) /\ In (VRat v) (snd x)) /\
  forall a tp y, In a (get_args T (fst x)) -> poly_of T a tp -> In y (tvars tp) -> exists v, In (y, v) (is_real st) /\ In (VRat v) (snd x).
Lemma WV_step o st u h t st' u' : J o st h -> WV st u -> ~ In (tix t) (map tix o) -> typed T t -> Forall (typed T) o -> args_first T (o ++ [t]) ->
  (kind_of T t = KApp -> real_app T t) -> uv (st, u) t = Ok (st', u') -> WV st' u' /\ exists h', J (o ++ [t]) st' h'.
Proof.
  intros HJ HW NI TY FT AF RA E. apply uv_inv in E. destruct E as [E1 E2].
  destruct (step ndebug hi hv H T W True o st h t st' HJ NI TY E1) as (h' & HJ' & X). split; [|exists h'; auto].
  destruct X as (hn & bn & rn & cn & X1 & X2 & X3 & X4).
  assert (OLD : WV st' u).
  { intros x Ix. destruct (HW x Ix) as (A & (v & B1 & B2) & C). split; auto. split.
    - exists v. split; auto. rewrite X3. apply in_app_iff; auto.
    - intros a tp y Ia P Iy. destruct (C a tp y Ia P Iy) as (w & D1 & D2). exists w. split; auto. rewrite X3. apply in_app_iff; auto. }
  destruct E2 as [[-> K]|(K & v & -> & V)]; [exact OLD|].
  destruct (RA K) as [Rt Ra]. specialize (V (proj1 (proj2 Rt))). subst v.
  unfold int_visit in E1. rewrite K, (proj1 (proj2 Rt)) in E1. cbn [make_real] in E1. apply put_real_ok in E1. destruct E1 as [_ E1].
  assert (ER : is_real st' = (t, is_nreal st) :: is_real st) by (rewrite E1; reflexivity).
  intros x Ix. cbn [u_watch] in Ix. apply in_app_iff in Ix. destruct Ix as [Ix|[<-|[]]]; [exact (OLD x Ix)|]. cbn [fst snd]. split; auto. split.
  - exists (is_nreal st). split; [rewrite ER; now left|now left].
  - intros a tp y Ia P Iy. rewrite Forall_forall in Ra. pose proof (Ra a Ia) as R.
    destruct (poly_of_le H T a tp y W R P Iy) as (_ & Vy & D).
    assert (S : subterm T y a).
    { destruct D as [->|[D|(m & D1 & D2)]]; [constructor| |]; [eapply sub_arg; eauto; constructor|]. eapply sub_arg; [exact D1|]. eapply sub_arg; eauto. constructor. }
    assert (Iy2 : In (tix y) (map tix o)).
    { eapply first_closed; [|apply (AF o t [] eq_refl a Ia)|exact S]. intros b w l E. apply (AF b w (l ++ [t])). rewrite E, <- app_assoc. reflexivity. }
    destruct (find_real hi hv T True o st h y HJ Iy2 Vy FT) as (v & Fv). exists v. split; [rewrite ER; right; now apply m_find_in|]. right.
    apply in_flat_map. exists a. split; auto. unfold vars_to_watch. eapply (vtw H); eauto.
Qed.
Lemma WV_run : forall n o st u h st' u', J o st h -> WV st u -> NoDup (map tix (o ++ n)) -> Forall (typed T) (o ++ n) -> args_first T (o ++ n) ->
  (forall t, In t n -> kind_of T t = KApp -> real_app T t) -> run uv (st, u) n = Ok (st', u') -> WV st' u'.
Proof.
  induction n as [|t n IH]; cbn [run]; intros o st u h st' u' HJ HW ND F AF RA E.
  - injection E as <- <-. exact HW.
  - destruct (uv (st, u) t) as [[st1 u1]| |] eqn:E1; cbn [bind] in E; try discriminate.
    assert (NI : ~ In (tix t) (map tix o)).
    { rewrite map_app in ND. simpl in ND. apply NoDup_remove_2 in ND. intros X. apply ND. apply in_app_iff. auto. }
    pose proof (proj1 (Forall_app _ _ _) F) as [F1 F2]. inversion F2 as [|? ? F3 F4]; subst.
    assert (AF1 : args_first T (o ++ [t])).
    { intros b w l EQ. apply (AF b w (l ++ n)). replace (o ++ t :: n) with ((o ++ [t]) ++ n) by (rewrite <- app_assoc; reflexivity). rewrite EQ, <- app_assoc. reflexivity. }
    destruct (WV_step o st u h t st1 u1 HJ HW NI F3 F1 AF1 (RA t (or_introl eq_refl)) E1) as (HW1 & h1 & HJ1).
    replace (o ++ t :: n) with ((o ++ [t]) ++ n) in * by (rewrite <- app_assoc; reflexivity).
    eapply IH; eauto. intros x Ix. apply RA. now right.
Qed.

Variable assertions : list term.
Hypothesis B : Forall (bool_t T) assertions.
Hypothesis RF : real_functions T assertions.
Notation TU := (TU hi hv ndebug T assertions).
Lemma in_same {A} (m : list (term * A)) t x y : NoDup (map fst m) -> In (t, x) m -> In (t, y) m -> x = y.
Proof.
  induction m as [|[a w] m IH]; simpl; intros ND A1 A2; [destruct A1|]. inversion ND as [|? ? N1 N2]; subst.
  destruct A1 as [A1|A1], A2 as [A2|A2]; auto.
  - congruence.
  - injection A1 as -> ->. exfalso. apply N1. apply in_map_iff. exists (t, y); auto.
  - injection A2 as -> ->. exfalso. apply N1. apply in_map_iff. exists (t, x); auto.
Qed.
Lemma tu_reg st u o st1 : TU st u o st1 -> reg_ok T (is_bool st) (is_real st) (map fst (u_watch u)) /\ Forall (wcov T (is_bool st) (is_real st)) (u_watch u).
Proof.
  intros X. pose proof (tu_maps hi hv ndebug H T W assertions RF _ _ _ _ X) as MO. destruct (tu_J hi hv ndebug H T W assertions RF _ _ _ _ X) as (h & HJ & _).
  destruct (tu_same hi hv ndebug T assertions _ _ _ _ X) as (EB & ER & _). destruct X as [R TC ND F AF _ _].
  assert (HW : WV st1 u).
  { refine (WV_run o [] is_new uf_new [] st1 u (J_new hi hv T True) _ ND (typed_of T assertions o F) AF _ R); [intros x []|].
    intros t It K. eapply (root_app T assertions RF); eauto. }
  pose proof (j_rnd _ _ _ _ _ _ _ HJ) as RND. rewrite <- ER in RND.
  assert (RA : forall x, In x (u_watch u) -> Forall (real_t T) (get_args T (fst x))).
  { intros x Ix. destruct (HW x Ix) as (K & (v & Iv & _) & _).
    destruct (j_rkey _ _ _ _ _ _ _ HJ _ _ Iv) as [Io [Rx _]]. apply in_map_iff in Io. destruct Io as (w & Ew & Iw).
    assert (w = fst x). { pose proof (typed_of T assertions o F) as FT. rewrite Forall_forall in FT. symmetry. apply (same_real T (fst x) w); auto. }
    subst w. apply (root_app T assertions RF o (fst x) F Iw K). }
  split.
  - intros tm Im. apply in_map_iff in Im. destruct Im as (x & <- & Ix). destruct (HW x Ix) as (K & _ & C). split; [apply (symbol_tot H); auto|].
    apply Forall_forall. intros a Ia. pose proof (RA x Ix) as RX. rewrite Forall_forall in RX. split; auto.
    apply (ufpoly_tot H); auto. intros tp y P Iy. destruct (C a tp y Ia P Iy) as (v & D & _). rewrite <- ER in D. eapply in_find; eauto.
  - apply Forall_forall. intros x Ix. destruct (HW x Ix) as (K & (v0 & Iv & Jv) & C). rewrite <- ER in Iv. split.
    + intros v Fv. apply m_find_in in Fv. now rewrite (in_same _ _ _ _ RND Fv Iv).
    + intros a p v Ia P Iv2. pose proof (RA x Ix) as RX. rewrite Forall_forall in RX.
      destruct (ufpoly_var H T _ _ W MO a p v (RX a Ia) P Iv2) as (tp & y & P1 & P2 & P3). destruct (C a tp y Ia P1 P2) as (w & D1 & D2). rewrite <- ER in D1.
      now rewrite (in_same _ _ _ _ RND P3 D1).
Qed.

(** ** the translation *)
Lemma uv_ub st u t : uv (st, u) t = UB -> iv st t = UB.
Proof.
  unfold ufi_visit. destruct (match kind_of T t, type_of T t with KApp, TReal => _ | KApp, TBool => _ | _, _ => _ end) as [u1| |] eqn:E1; cbn [bind].
  - destruct (iv st t) as [st1| |]; cbn [bind]; congruence.
  - destruct (kind_of T t) eqn:K, (type_of T t); try discriminate; unfold uf_register in E1; rewrite K in E1; discriminate E1.
  - discriminate.
Qed.
Lemma run_ub : forall o st u, run uv (st, u) o = UB -> run iv st o = UB.
Proof.
  induction o as [|t o IH]; cbn [run]; intros st u E; [discriminate|].
  destruct (uv (st, u) t) as [[st1 u1]| |] eqn:E1; cbn [bind] in E; try discriminate.
  - apply uv_inv in E1. destruct E1 as [-> _]. cbn [bind]. eauto.
  - apply uv_ub in E1. rewrite E1. reflexivity.
Qed.
Lemma translate_uf_safe : translate ndebug hi hv T [] is_new assertions <> UB -> translate_uf hi hv ndebug T assertions <> UB.
Proof.
  unfold translate_uf, translate. destruct (existsb _ _) eqn:EX; [discriminate|].
  destruct (visited H T W assertions B) as (p0 & o & E & IV & ND & F & Q).
  rewrite (span_any uv T assertions [] [] p0 o) by exact E. rewrite (span_any iv T assertions [] [] p0 o) by exact E. change (mkIs _ _ _ _ _ _) with is_new.
  destruct (run uv (is_new, uf_new) o) as [[st1 u1]| |] eqn:R; cbn [bind]; try discriminate.
  - rewrite (urun _ _ _ _ _ _ _ _ _ R). cbn [bind]. destruct (top_clauses st1 assertions) as [st2| |]; cbn [bind]; congruence.
  - rewrite (run_ub _ _ _ R). cbn [bind]. congruence.
Qed.

Hypothesis HU : o_unassigned opt = false.
Lemma uf_assertions_safe {HS} (he : heur HS) hash df fuel o hs :
  translate ndebug hi hv T [] is_new assertions <> UB ->
  uf_order_ok hi hv opt ndebug he hash df o hs T assertions ->
  check_assertions_uf hi hv opt ndebug T he hash df fuel o hs assertions <> UB.
Proof.
  intros NT OK. unfold check_assertions_uf. apply bind_ub; [exact (translate_uf_safe NT)|]. intros [[st u]|] TR; [|discriminate].
  destruct (translate_uf_inv hi hv ndebug H T W assertions B st u TR) as (o1 & st1 & X). destruct (tu_tr _ _ _ _ _ _ _ _ _ X) as [p TR0].
  destruct (translated hi hv opt ndebug H T W assertions B p st TR0) as (a & t & o0 & h & RP & Y). rewrite RP. cbn [bind].
  destruct (tu_watch hi hv ndebug H T W assertions RF _ _ _ _ _ X (tr_nq _ _ _ _ _ _ _ _ _ _ Y)) as (HW & HF0 & NC & _).
  pose proof (tu_maps hi hv ndebug H T W assertions RF _ _ _ _ X) as MO. destruct (tu_reg _ _ _ _ X) as [RG WC].
  apply bind_ub; [|intros [s ans] _; discriminate].
  apply (ucheck_safe hi hv opt HU H T (is_bool st) (is_real st) W MO he hash df (lits_of h) a u t (is_cls st) o _ NC RG
    (tr_pb _ _ _ _ _ _ _ _ _ _ Y) (clauses_ok hi hv opt T assertions st a t o0 h Y)); auto.
  - exact (translated_ne hi hv ndebug H T W assertions B p st TR0).
  - exact (proj1 (OK st u a t TR RP)).
Qed.
Lemma false_arg s root : In root assertions -> subterm T s root -> kind_of T s <> KApp -> ~ In false_term (get_args T s).
Proof.
  intros Ir Ss NK Ia. assert (V : valid T s). { eapply sub_valid; eauto. rewrite Forall_forall in B. apply (B root Ir). }
  pose proof (in_dargs _ _ _ Ia) as D.
  destruct (le_lt_dec 3 (tix s)) as [L|L].
  + destruct (node_wf _ _ _ W L (proj2 V)) as [N _]. revert N D. unfold wf_node, dargs. unfold kind_of in NK.
    assert (R1 : ~ real_t T false_term) by (intros (_ & _ & X); discriminate).
    assert (V1 : ~ varlike T false_term) by (intros [X _]; auto).
    destruct (n_kind (node_of T s)) eqn:K, (n_desc (node_of T s)) as [|l| |]; simpl; try tauto; intros N D.
    * destruct l as [|c [|u [|w [|]]]]; try tauto. destruct N as (_ & N1 & N4 & N5 & N2 & N3).
      destruct D as [->|[->|[->|[]]]]; auto.
    * destruct N as (_ & _ & F). rewrite Forall_forall in F. destruct (F _ D) as [_ X]. apply X. reflexivity.
    * destruct l as [|c [|]]; try tauto. destruct N as (_ & N & _). destruct D as [->|[]]. auto.
    * destruct l as [|c [|]]; try tauto. destruct N as (_ & N & _). destruct D as [->|[]]. auto.
    * destruct l as [|c [|u [|]]]; try tauto. destruct N as (_ & N1 & N2 & _). destruct D as [->|[->|[]]]; auto.
      destruct N2 as [N2|[N2 _]]; auto.
    * destruct l as [|c [|u [|]]]; try tauto. destruct N as (_ & N1 & _ & N2). destruct D as [->|[->|[]]]; auto.
    * destruct N as (_ & _ & q & _ & F). clear - F D R1. induction F; destruct D; subst; auto. apply R1. apply H.
  + destruct (small_node _ _ _ W V L) as [[_ E]|[_ E]]; unfold dargs in D; rewrite E in D; simpl in D; tauto.
Qed.
(** real functions are supported, in a build with assertions unless an application is compared with another variable or a number *)
Lemma real_supported : ndebug = true \/ (forall s root, In root assertions -> subterm T s root -> kind_of T s = KArithBineq -> forall a, In a (get_args T s) -> kind_of T a <> KApp) ->
  supported ndebug T assertions.
Proof.
  intros D s root Ir Ss. assert (AP : kind_of T s = KApp -> real_app T s) by (intros K; apply (proj1 RF); split; eauto). split; [|split].
  - intros K TB. exfalso. destruct (AP K) as [[_ [R _]] _]. congruence.
  - intros ND K a Ia. destruct D as [D|D]; [congruence|eauto].
  - intros a Ia ->. destruct (kind_of T s) eqn:K; try (eapply false_arg; eauto; congruence).
    destruct (AP eq_refl) as [_ RA]. rewrite Forall_forall in RA. destruct (RA _ Ia) as (_ & _ & X). discriminate.
Qed.
End U.
Print Assumptions uf_assertions_safe.
