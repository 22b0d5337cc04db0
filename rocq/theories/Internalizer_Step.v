(** Proofs for C47: the invariant of the translation. *)
From Coq Require Import List Arith ZArith QArith Qcanon Bool Lia Lqa Permutation.
From Verif Require Import Base Core_Model Lincons_Model Spec_Lincons Lincons_Proofs Lincons_Proofs2
  Terms_Model Spec_Terms Terms_Proofs TermMgr_Model Spec_TermMgr TermMgr_Base TermMgr_Arith TermMgr_Term
  Visitor_Model Spec_Visitor Visitor_Proofs Rewriter_Proofs Internalizer_Model Spec_Internalizer Internalizer_Proofs.
Import ListNotations.
Close Scope Qc_scope.
Close Scope Q_scope.
Open Scope nat_scope.

Section Step.
Variable ndebug : bool.
Variable hi : nat -> Z.
Variable hv : Q -> Z.
Variable H : hashes.
Variable T : table.
Hypothesis W : wf H T.

Definition plain (t : term) : Prop := kind_of T t = KOr \/ kind_of T t = KUninterp \/ kind_of T t = KApp.
(** every entry of the maps has the value of its term *)
Definition bsem (st : ist) (I : interp) (b : nat -> bool) : Prop :=
  forall t l, In (t, l) (is_bool st) -> (lit_holds b l <-> tholds I T t = true).
Definition rsemv (st : ist) (I : interp) (r : nat -> Q) : Prop :=
  forall t v, In (t, v) (is_real st) -> (r v == this (treal I T t))%Q.
(** the key under which a Boolean term is stored *)
Definition key (t : term) : term := match kind_of T t with KApp => t | _ => pos t end.
Definition dom (st : ist) (u : term) : Prop :=
  (bool_t T u -> tix u <> 1 -> exists l, In (key u, l) (is_bool st)) /\
  (varlike T u -> exists v, In (u, v) (is_real st)).
Definition nvars (st : ist) : nat := length (st_cons (is_store st)).

(** [full]: no clause was dropped *)
Variable full : Prop.
Record J (o : list term) (st : ist) (h : list (Spec_Lincons.request * lcons)) : Prop := {
  j_hist : hist (is_store st) h;
  j_req : forall q c, In (q, c) h -> proper q;
  j_rlt : forall t v, In (t, v) (is_real st) -> v < is_nreal st;
  j_rinj : NoDup (map snd (is_real st));
  j_bkey : forall t l, In (t, l) (is_bool st) -> In (tix t) (map tix o) /\ bool_t T t /\ (kind_of T t = KApp \/ tneg t = false);
  j_rkey : forall t v, In (t, v) (is_real st) -> In (tix t) (map tix o) /\ varlike T t;
  j_plain : forall t l, In (t, l) (is_bool st) -> plain t ->
    lneg l = false /\ lord l < nvars st /\ lc_empty (lc_get (is_store st) (lord l)) = true;
  j_pinj : forall t l t' l', In (t, l) (is_bool st) -> In (t', l') (is_bool st) -> plain t -> plain t' -> lord l = lord l' -> t = t';
  j_atom : forall t l, In (t, l) (is_bool st) -> ~ plain t ->
    forall I b r, cons_ok h b r -> rsemv st I r -> (lit_holds b l <-> tholds I T t = true);
  j_snd : full -> forall I b r, cons_ok h b r -> Forall (clause_holds b) (is_cls st) -> agrees T st I b r -> bsem st I b /\ rsemv st I r;
  j_cpl : forall I b r, cons_ok h b r -> bsem st I b -> rsemv st I r -> Forall (clause_holds b) (is_cls st);
  j_dom : forall u, In u o -> dom st u;
  j_bnd : NoDup (map fst (is_bool st));
  j_rnd : NoDup (map fst (is_real st));
  j_built : full -> built hi hv (is_calls st) (is_store st) (is_nreal st) h }.

Lemma J_new : J [] is_new [].
Proof.
  constructor; simpl; try tauto; try (intros; tauto).
  - apply hist_new.
  - constructor.
  - intros. split; intros x y E; destruct E.
  - constructor.
  - constructor.
  - constructor.
  - constructor.
Qed.

Lemma cons_ok_app h1 h2 b r : cons_ok (h1 ++ h2) b r <-> cons_ok h1 b r /\ cons_ok h2 b r.
Proof.
  unfold cons_ok. split.
  - intros C. split; intros q c E; apply C; apply in_app_iff; auto.
  - intros [A B] q c E. apply in_app_iff in E. destruct E; auto.
Qed.

(** maps and clauses are only added to *)
Definition ext (st : ist) (h : list (Spec_Lincons.request * lcons)) (st' : ist) (h' : list (Spec_Lincons.request * lcons)) : Prop :=
  exists hn bn rn cn, h' = hn ++ h /\ is_bool st' = bn ++ is_bool st /\ is_real st' = rn ++ is_real st /\ is_cls st' = is_cls st ++ cn.
Lemma ext_refl st h : ext st h st h.
Proof. exists [], [], [], []. now rewrite app_nil_r. Qed.
Lemma ext_trans st h st1 h1 st2 h2 : ext st h st1 h1 -> ext st1 h1 st2 h2 -> ext st h st2 h2.
Proof.
  intros (a & b & c & d & -> & E1 & E2 & E3) (a' & b' & c' & d' & -> & F1 & F2 & F3). exists (a' ++ a), (b' ++ b), (c' ++ c), (d ++ d').
  rewrite F1, F2, F3, E1, E2, E3, !app_assoc. auto.
Qed.
Definition JX (o : list term) (st : ist) (h : list (Spec_Lincons.request * lcons)) (st' : ist) (h' : list (Spec_Lincons.request * lcons)) : Prop :=
  J o st' h' /\ ext st h st' h'.
Lemma J_ext o st h t st' hn bn rn cn :
  J o st h -> ~ In (tix t) (map tix o) ->
  hist (is_store st') (hn ++ h) -> (forall q c, In (q, c) hn -> proper q) ->
  (forall v, v < nvars st -> lc_get (is_store st') v = lc_get (is_store st) v) -> nvars st <= nvars st' ->
  is_bool st' = bn ++ is_bool st -> is_real st' = rn ++ is_real st -> is_cls st' = is_cls st ++ cn ->
  (rn = [] /\ is_nreal st' = is_nreal st \/ rn = [(t, is_nreal st)] /\ is_nreal st' = S (is_nreal st) /\ varlike T t) ->
  (bn = [] \/ exists k l, bn = [(k, l)] /\ tix k = tix t /\ bool_t T k /\ (kind_of T k = KApp \/ tneg k = false) /\
     (plain k -> lneg l = false /\ lord l = nvars st /\ nvars st < nvars st' /\ lc_empty (lc_get (is_store st') (nvars st)) = true) /\
     (~ plain k -> forall I b r, cons_ok (hn ++ h) b r -> rsemv st' I r -> (lit_holds b l <-> tholds I T k = true))) ->
  (forall I b r, cons_ok (hn ++ h) b r -> Forall (clause_holds b) cn -> agrees T st' I b r -> bsem st I b -> rsemv st I r ->
     (forall k l, In (k, l) bn -> (lit_holds b l <-> tholds I T k = true)) /\
     (forall k v, In (k, v) rn -> (r v == this (treal I T k))%Q)) ->
  (forall I b r, cons_ok (hn ++ h) b r -> bsem st' I b -> rsemv st' I r -> Forall (clause_holds b) cn) ->
  dom st' t ->
  (full -> built hi hv (is_calls st) (is_store st) (is_nreal st) h -> built hi hv (is_calls st') (is_store st') (is_nreal st') (hn ++ h)) ->
  JX (o ++ [t]) st h st' (hn ++ h).
Proof.
  intros [jh jq jl ji jb jr jp jpi ja js jc jd jn1 jn2 jbt] NI HH HP HG HL EB ER EC CR CB SN CP D BT.
  assert (MB : forall I b, bsem st' I b -> bsem st I b).
  { intros I b B x l E. apply B. rewrite EB. apply in_app_iff; auto. }
  assert (MR : forall I r, rsemv st' I r -> rsemv st I r).
  { intros I b B x l E. apply B. rewrite ER. apply in_app_iff; auto. }
  assert (MO : forall x, In x (map tix o) -> In x (map tix (o ++ [t]))).
  { intros x E. rewrite map_app. apply in_app_iff; auto. }
  assert (MT : In (tix t) (map tix (o ++ [t]))).
  { rewrite map_app. apply in_app_iff. right. left. auto. }
  split; [|exists hn, bn, rn, cn; auto].
  constructor; auto.
  - intros q c E. apply in_app_iff in E. destruct E; eauto.
  - intros x v E. rewrite ER in E. destruct CR as [[-> N]|(-> & N & _)]; rewrite N; simpl in E.
    + eauto.
    + destruct E as [[= <- <-]|E]; [lia|]. apply jl in E. lia.
  - rewrite ER. destruct CR as [[-> N]|(-> & N & _)]; simpl; auto. constructor; auto.
    intros E. apply in_map_iff in E. destruct E as ([x v] & Ev & Ex). simpl in Ev. subst. apply jl in Ex. lia.
  - intros x l E. rewrite EB in E. destruct CB as [->|(k & l0 & -> & K1 & K2 & K3 & _)]; simpl in E.
    + destruct (jb _ _ E) as (A & B). split; auto.
    + destruct E as [[= <- <-]|E].
      * rewrite K1. auto.
      * destruct (jb _ _ E) as (A & B). split; auto.
  - intros x v E. rewrite ER in E. destruct CR as [[-> N]|(-> & N & V)]; simpl in E.
    + destruct (jr _ _ E) as (A & B). split; auto.
    + destruct E as [[= <- <-]|E]; [split; auto|]. destruct (jr _ _ E) as (A & B). split; auto.
  - intros x l E P. rewrite EB in E.
    assert (O : In (x, l) (is_bool st) -> lneg l = false /\ lord l < nvars st' /\ lc_empty (lc_get (is_store st') (lord l)) = true).
    { intros E'. destruct (jp _ _ E' P) as (A & B & C). split; auto. split; [lia|]. rewrite HG; auto. }
    destruct CB as [->|(k & l0 & -> & K1 & K2 & K3 & K4 & _)]; simpl in E; auto.
    destruct E as [[= <- <-]|E]; auto. destruct (K4 P) as (A & B & C & F). rewrite B. auto.
  - intros x l x' l' E E' P P' EQ. rewrite EB in E, E'.
    destruct CB as [->|(k & l0 & -> & K1 & K2 & K3 & K4 & _)]; simpl in E, E'; [eauto|].
    destruct E as [E|E], E' as [E'|E'].
    + congruence.
    + injection E as -> ->. destruct (K4 P) as (_ & B & _). destruct (jp _ _ E' P') as (_ & B' & _). lia.
    + injection E' as -> ->. destruct (K4 P') as (_ & B & _). destruct (jp _ _ E P) as (_ & B' & _). lia.
    + eauto.
  - intros x l E NP I b r C R. rewrite EB in E.
    assert (O : In (x, l) (is_bool st) -> (lit_holds b l <-> tholds I T x = true)).
    { intros E'. apply (ja _ _ E' NP I b r); auto. apply cons_ok_app in C. apply C. }
    destruct CB as [->|(k & l0 & -> & K1 & K2 & K3 & K4 & K5)]; simpl in E; auto.
    destruct E as [[= <- <-]|E]; auto. apply (K5 NP I b r); auto.
  - intros FU I b r C F A. rewrite EC in F. apply Forall_app in F. destruct F as [F1 F2].
    destruct (js FU I b r) as [B0 R0]; auto.
    { apply cons_ok_app in C; apply C. }
    { destruct A as [A1 A2]. split; intros x y E U.
      - apply A1; auto. rewrite EB. apply in_app_iff; auto.
      - apply A2; auto. rewrite ER. apply in_app_iff; auto. }
    destruct (SN I b r C F2 A B0 R0) as [S1 S2]. split; intros x y E.
    + rewrite EB in E. apply in_app_iff in E. destruct E as [E|E]; auto.
    + rewrite ER in E. apply in_app_iff in E. destruct E as [E|E]; auto.
  - intros I b r C B R. rewrite EC. apply Forall_app. split.
    + eapply jc; eauto. apply cons_ok_app in C; apply C.
    + eapply CP; eauto.
  - intros u E. apply in_app_iff in E. destruct E as [E|[<-|[]]]; auto.
    destruct (jd u E) as [D1 D2]. split.
    + intros B N. destruct (D1 B N) as [l L]. exists l. rewrite EB. apply in_app_iff; auto.
    + intros V. destruct (D2 V) as [v L]. exists v. rewrite ER. apply in_app_iff; auto.
  - rewrite EB. destruct CB as [->|(k & l0 & -> & K1 & _)]; auto. simpl. constructor; auto.
    intros E. apply in_map_iff in E. destruct E as ([x l] & Ex & Ix). simpl in Ex. subst x. apply jb in Ix. rewrite K1 in Ix. tauto.
  - rewrite ER. destruct CR as [[-> _]|(-> & _)]; auto. simpl. constructor; auto.
    intros E. apply in_map_iff in E. destruct E as ([x l] & Ex & Ix). simpl in Ex. subst x. apply jr in Ix. tauto.
Qed.

(** ** Values of the kinds of terms *)
Lemma pos_valid t : valid T t -> valid T (pos t).
Proof. auto. Qed.
Lemma lit_neg b l : lit_holds b (neg l) <-> ~ lit_holds b l.
Proof. unfold lit_holds, neg. simpl. destruct (b (lord l)), (lneg l); simpl; intuition congruence. Qed.
Lemma tholds_sign I t : bool_t T t -> tholds I T t = if tneg t then negb (tholds I T (pos t)) else tholds I T (pos t).
Proof.
  intros B. destruct t as [i m]. destruct m; auto. simpl.
  change (mkT i true) with (opp (mkT i false)). rewrite (tholds_opp H T I); auto.
Qed.

Lemma put_bool_ok st t l st' : put_bool st t l = Ok st' ->
  m_find (is_bool st) t = None /\ st' = mkIs (is_store st) (is_nreal st) ((t, l) :: is_bool st) (is_real st) (is_cls st) (is_calls st).
Proof. unfold put_bool. destruct (m_find (is_bool st) t); [discriminate|]. intros [= <-]. auto. Qed.
Lemma put_real_ok st t l st' : put_real st t l = Ok st' ->
  m_find (is_real st) t = None /\ st' = mkIs (is_store st) (is_nreal st) (is_bool st) ((t, l) :: is_real st) (is_cls st) (is_calls st).
Proof. unfold put_real. destruct (m_find (is_real st) t); [discriminate|]. intros [= <-]. auto. Qed.

Lemma bool_not_var t : bool_t T t -> ~ varlike T t.
Proof. intros [_ B] [[_ [R _]] _]. congruence. Qed.
Lemma var_not_bool t : varlike T t -> ~ bool_t T t.
Proof. intros A B. eapply bool_not_var; eauto. Qed.

Lemma skip_ext o st h t : J o st h -> ~ In (tix t) (map tix o) -> dom st t -> JX (o ++ [t]) st h st h.
Proof.
  intros HJ NI D. change h with ([] ++ h).
  apply (J_ext o st h t st [] [] [] []); auto; simpl; try tauto.
  - apply (j_hist _ _ _ HJ).
  - now rewrite app_nil_r.
Qed.

(** *** atoms *)
Lemma atom_ext o st h t p op st1 l l' st' : J o st h -> ~ In (tix t) (map tix o) -> bool_t T t -> ~ plain t ->
  poly_wf p -> p_terms p <> [] -> linear_constraint hi hv st p op = Ok (st1, l) -> put_bool st1 (pos t) l' = Ok st' ->
  (forall I b r, rsemv st I r -> (lit_holds b l <-> rel op (pvalue r p) 0) -> (lit_holds b l' <-> tholds I T (pos t) = true)) ->
  exists h', JX (o ++ [t]) st h st' h'.
Proof.
  intros HJ NI B NP PW PN LC PB SEM.
  destruct (lin_step hi hv st p op st1 l h (j_hist _ _ _ HJ) PW PN LC) as (s' & c & -> & -> & HH & HG & HL & _ & BT).
  apply put_bool_ok in PB. destruct PB as [_ ->]. simpl.
  assert (M : forall I b r, cons_ok ([(req_of p op, c)] ++ h) b r -> rsemv st I r -> (lit_holds b l' <-> tholds I T (pos t) = true)).
  { intros I b r C R. apply (SEM I b r R). rewrite (C (req_of p op) c); [|left; auto]. apply req_mean. }
  exists ([(req_of p op, c)] ++ h).
  apply (J_ext o st h t _ [(req_of p op, c)] [(pos t, l')] [] []); auto; simpl; auto.
  - intros q d [[= <- <-]|[]]. unfold proper, req_of. simpl. rewrite nonzero_id; auto. apply PW.
  - now rewrite app_nil_r.
  - right. exists (pos t), l'. split; auto. split; auto. split; [exact B|]. split; auto. split; [intros P; contradiction|].
    intros _ I b r C R. apply (M I b r); auto.
  - intros I b r C _ A B0 R0. split; [|tauto]. intros k x [[= <- <-]|[]]. apply (M I b r); auto.
  - split.
    + intros _ _. exists l'. simpl. left. unfold key. destruct (kind_of T t) eqn:K; auto. exfalso. apply NP. unfold plain. auto.
    + intros V0. exfalso. exact (bool_not_var t B V0).
Qed.

Lemma geb_spec a : (Qc_geb a 0 = true <-> (0 <= this a)%Q).
Proof.
  unfold Qc_geb. destruct (Qclt_le_dec a 0) as [L|L].
  - split; [discriminate|]. intros G. unfold Qclt in L. change (this 0%Qc) with 0%Q in L. lra.
  - split; [intros _|reflexivity]. unfold Qcle in L. exact L.
Qed.
Lemma eqb_spec a c : (Qc_eqb a c = true <-> (this a == this c)%Q).
Proof.
  unfold Qc_eqb. destruct (Qc_eq_dec a c) as [->|N].
  - split; auto. intros _; reflexivity.
  - split; [discriminate|]. intros E. exfalso. apply N. now apply Qc_is_canon.
Qed.

Lemma tholds_node I t : valid T t -> tholds I T (pos t) = as_b (node_value I (tix t) (values I (tt_nodes T)) (node_of T t)).
Proof. intros V. unfold tholds. rewrite (teval_node H T I (pos t) W V eq_refl). reflexivity. Qed.
Lemma rsemv_rsem st I r n : rsemv st I r -> rsem T st I r n.
Proof. intros R x v E _. now apply R. Qed.

Lemma node_shape t : valid T t -> 3 <= tix t -> wf_node T (node_of T t).
Proof. intros [_ V] L. apply (node_wf H T t W L V). Qed.
Lemma big t : valid T t -> kind_of T t <> KConst -> kind_of T t <> KArithConst -> 3 <= tix t.
Proof.
  intros V N1 N2. destruct (le_lt_dec 3 (tix t)); auto. unfold kind_of in *.
  destruct (small_node H T t W V l) as [[_ E]|[_ E]]; rewrite E in *; simpl in *; congruence.
Qed.

Lemma ge_step o st h t st' : J o st h -> ~ In (tix t) (map tix o) -> typed T t -> kind_of T t = KArithGe ->
  int_visit ndebug hi hv T st t = Ok st' -> exists h', JX (o ++ [t]) st h st' h'.
Proof.
  intros HJ NI TY K E. unfold int_visit in E. rewrite K in E.
  assert (V : valid T t) by (destruct TY as [[V _]|[V _]]; auto).
  pose proof (node_shape t V (big t V ltac:(congruence) ltac:(congruence))) as WN. unfold wf_node in WN.
  unfold kind_of in K. rewrite K in WN. destruct (n_desc (node_of T t)) as [|[|a [|]]| |] eqn:ND; try tauto.
  destruct WN as (TB & RA & CA).
  assert (B : bool_t T t) by (split; auto).
  assert (NP : ~ plain t) by (unfold plain, kind_of; rewrite K; intuition discriminate).
  assert (GA : get_args T t = [a]) by (unfold get_args, kind_of; rewrite K; unfold dargs; now rewrite ND).
  rewrite GA in E. cbn [at_ value_of nth_error bind] in E.
  destruct (assertb _); cbn [bind] in E; try discriminate.
  destruct (internalize_poly T st a) as [p| |] eqn:P; cbn [bind] in E; try discriminate.
  destruct (ipoly_ok H T st a p W RA (j_rinj _ _ _ HJ) P) as (PW & PV & PN & PS).
  assert (TH : forall I, tholds I T (pos t) = true <-> (0 <= this (treal I T a))%Q).
  { intros I. rewrite (tholds_node I t V). unfold node_value. rewrite K, ND. simpl. fold (teval I T a). fold (treal I T a). apply geb_spec. }
  destruct (tneg t) eqn:SG.
  - destruct (linear_constraint hi hv st p PLt) as [[st1 l]| |] eqn:LC; cbn [bind] in E; try discriminate.
    eapply (atom_ext o st h t p PLt st1 l (neg l) st'); eauto.
    intros I b r R L. rewrite TH, lit_neg, L. simpl. rewrite <- (PS I r (rsemv_rsem _ _ _ _ R)). split; intros; lra.
  - destruct (linear_constraint hi hv st (poly_negate p) PLeq) as [[st1 l]| |] eqn:LC; cbn [bind] in E; try discriminate.
    eapply (atom_ext o st h t (poly_negate p) PLeq st1 l l st'); eauto.
    + now apply poly_negate_wf.
    + unfold poly_negate. simpl. specialize (PN CA). destruct (p_terms p); simpl; congruence.
    + intros I b r R L. rewrite TH, L. simpl. rewrite poly_negate_value, <- (PS I r (rsemv_rsem _ _ _ _ R)). split; intros; lra.
Qed.

Lemma eq_step o st h t st' : J o st h -> ~ In (tix t) (map tix o) -> typed T t -> kind_of T t = KArithEq ->
  int_visit ndebug hi hv T st t = Ok st' -> exists h', JX (o ++ [t]) st h st' h'.
Proof.
  intros HJ NI TY K E. unfold int_visit in E. rewrite K in E.
  assert (V : valid T t) by (destruct TY as [[V _]|[V _]]; auto).
  pose proof (node_shape t V (big t V ltac:(congruence) ltac:(congruence))) as WN. unfold wf_node in WN.
  unfold kind_of in K. rewrite K in WN. destruct (n_desc (node_of T t)) as [|[|a [|]]| |] eqn:ND; try tauto.
  destruct WN as (TB & RA & CA).
  assert (B : bool_t T t) by (split; auto).
  assert (NP : ~ plain t) by (unfold plain, kind_of; rewrite K; intuition discriminate).
  assert (GA : get_args T t = [a]) by (unfold get_args, kind_of; rewrite K; unfold dargs; now rewrite ND).
  rewrite GA in E. cbn [at_ value_of nth_error bind] in E.
  destruct (internalize_poly T st a) as [p| |] eqn:P; cbn [bind] in E; try discriminate.
  destruct (ipoly_ok H T st a p W RA (j_rinj _ _ _ HJ) P) as (PW & PV & PN & PS).
  destruct (linear_constraint hi hv st p PEq) as [[st1 l]| |] eqn:LC; cbn [bind] in E; try discriminate.
  destruct (assertb _); cbn [bind] in E; try discriminate.
  eapply (atom_ext o st h t p PEq st1 l l st'); eauto.
  intros I b r R L. rewrite L. simpl. rewrite (PS I r (rsemv_rsem _ _ _ _ R)).
  rewrite (tholds_node I t V). unfold node_value. rewrite K, ND. simpl. fold (teval I T a). fold (treal I T a). rewrite eqb_spec. reflexivity.
Qed.

Lemma bineq_step o st h t st' : J o st h -> ~ In (tix t) (map tix o) -> typed T t -> kind_of T t = KArithBineq ->
  int_visit ndebug hi hv T st t = Ok st' -> exists h', JX (o ++ [t]) st h st' h'.
Proof.
  intros HJ NI TY K E. unfold int_visit in E. rewrite K in E.
  assert (V : valid T t) by (destruct TY as [[V _]|[V _]]; auto).
  pose proof (node_shape t V (big t V ltac:(congruence) ltac:(congruence))) as WN. unfold wf_node in WN.
  unfold kind_of in K. rewrite K in WN. destruct (n_desc (node_of T t)) as [|[|a [|c [|]]]| |] eqn:ND; try tauto.
  destruct WN as (TB & VA & VC & NE).
  assert (B : bool_t T t) by (split; auto).
  assert (NP : ~ plain t) by (unfold plain, kind_of; rewrite K; intuition discriminate).
  assert (GA : get_args T t = [a; c]) by (unfold get_args, kind_of; rewrite K; unfold dargs; now rewrite ND).
  rewrite GA in E. cbn [at_ value_of nth_error bind] in E.
  destruct (assertb (ndebug || is_uninterp T a || is_ite T a)); cbn [bind] in E; try discriminate.
  destruct (assertb (ndebug || is_uninterp T c || is_ite T c || is_arith_const T c)); cbn [bind] in E; try discriminate.
  destruct (bineq_poly T st a c) as [p| |] eqn:P; cbn [bind] in E; try discriminate.
  destruct (linear_constraint hi hv st p PEq) as [[st1 l]| |] eqn:LC; cbn [bind] in E; try discriminate.
  destruct (assertb _); cbn [bind] in E; try discriminate.
  assert (TH : forall I, tholds I T (pos t) = true <-> (this (treal I T a) == this (treal I T c))%Q).
  { intros I. rewrite (tholds_node I t V). unfold node_value. rewrite K, ND. simpl.
    fold (teval I T a). fold (treal I T a). fold (teval I T c). fold (treal I T c). apply eqb_spec. }
  assert (X : poly_wf p /\ p_terms p <> [] /\ forall I r, rsemv st I r -> (pvalue r p == this (treal I T a) - this (treal I T c))%Q).
  { unfold bineq_poly, rvar in P. destruct (m_find (is_real st) a) as [v|] eqn:MA; [|destruct (is_arith_const T c); discriminate].
    apply m_find_in in MA. destruct (is_arith_const T c) eqn:CC.
    - cbn [value_of bind] in P. destruct VC as [VC|[RC _]]; [apply varlike_flags in VC; destruct VC as (_ & _ & VC & _); congruence|].
      assert (exists q, node_of T c = const_node q) as [q NC].
      { destruct (le_lt_dec 3 (tix c)) as [L|L].
        - pose proof (node_shape c (proj1 RC) L) as WC. unfold wf_node in WC. unfold is_arith_const, kind_of in CC.
          destruct (node_of T c) as [kc tc dc]. simpl in *. destruct kc; try discriminate. destruct dc; try tauto.
          destruct WC as [-> _]. eexists; reflexivity.
        - destruct (small_node H T c W (proj1 RC) L) as [[_ N]|[_ N]]; eauto.
          unfold is_arith_const, kind_of in CC. rewrite N in CC. discriminate. }
      rewrite (proj2 (const_kind _ _ _ NC)) in P. cbn [bind] in P. injection P as <-. split; [|split].
      + split; simpl; [repeat constructor; simpl; tauto|]. repeat constructor. simpl. discriminate.
      + discriminate.
      + intros I r R. unfold pvalue. simpl. rewrite (R _ _ MA). rewrite (const_eval H _ I _ _ W RC NC). ring.
    - destruct VC as [VC|[_ VC]]; [|congruence].
      destruct (m_find (is_real st) c) as [w|] eqn:MC; cbn [value_of bind] in P; try discriminate. injection P as <-.
      apply m_find_in in MC. split; [|split].
      + split; simpl.
        * repeat constructor; simpl; try tauto. intros [->|[]]. apply NE. eapply nodup_inj; eauto. apply (j_rinj _ _ _ HJ).
        * repeat constructor; simpl; discriminate.
      + discriminate.
      + intros I r R. unfold pvalue. simpl. rewrite (R _ _ MA), (R _ _ MC). ring. }
  destruct X as (PW & PN & PS).
  eapply (atom_ext o st h t p PEq st1 l l st'); eauto.
  intros I b r R L. rewrite L, TH. simpl. rewrite (PS I r R). split; intros; lra.
Qed.

(** *** constants and applications *)
Lemma fresh_get st : lc_empty (lc_get (lc_resize (is_store st) (S (nvars st))) (nvars st)) = true.
Proof. rewrite resize_get. unfold lc_get. rewrite nth_overflow; auto. Qed.

Lemma resize_nvars st a b c d e : nvars (mkIs (lc_resize (is_store st) (S (nvars st))) a b c d e) = S (nvars st).
Proof. apply resize_len. Qed.
Lemma newb_step o st h t k st' : J o st h -> ~ In (tix t) (map tix o) -> bool_t T t -> user T t -> k = key t ->
  put_bool (fst (make_bool st)) k (mkLit (nvars st) false) = Ok st' -> JX (o ++ [t]) st h st' h.
Proof.
  intros HJ NI B U KE P. apply put_bool_ok in P. destruct P as [_ ->]. simpl.
  assert (KT : tix k = tix t /\ kind_of T k = kind_of T t /\ bool_t T k /\ (kind_of T k = KApp \/ tneg k = false)).
  { subst k. unfold key. destruct U as [U|U]; rewrite U; simpl.
    - repeat (split; auto).
    - auto. }
  destruct KT as (K1 & K2 & K3 & K4).
  change h with ([] ++ h).
  apply (J_ext o st h t _ [] [(k, mkLit (nvars st) false)] [] []); simpl; auto; try tauto.
  - apply hist_resize. apply (j_hist _ _ _ HJ).
  - intros v L. apply resize_get.
  - match goal with |- context [nvars (mkIs ?s ?a ?b ?c ?d ?e)] => pose proof (resize_nvars st a b c d e : nvars (mkIs s a b c d e) = _) end; lia.
  - now rewrite app_nil_r.
  - right. exists k, (mkLit (nvars st) false). split; auto. split; auto. split; auto. split; auto. split.
    + intros _. simpl. split; auto. split; auto. split; [|apply fresh_get]. match goal with |- context [nvars (mkIs ?s ?a ?b ?c ?d ?e)] => pose proof (resize_nvars st a b c d e : nvars (mkIs s a b c d e) = _) end; lia.
    + intros NP. exfalso. apply NP. unfold plain. rewrite K2. destruct U; auto.
  - intros I b r C _ [A1 A2] _ _. split; [|tauto]. intros x l [[= <- <-]|[]]. apply A1; [left; auto|].
    unfold user. rewrite K2. exact U.
  - split.
    + intros _ _. exists (mkLit (nvars st) false). simpl. left. congruence.
    + intros V0. exfalso. exact (bool_not_var t B V0).
  - intros _ BT. exact (bt_bool hi hv _ _ _ _ BT).
Qed.
Lemma newr_step o st h t st' : J o st h -> ~ In (tix t) (map tix o) -> varlike T t -> user T t ->
  put_real (fst (make_real st)) t (is_nreal st) = Ok st' -> JX (o ++ [t]) st h st' h.
Proof.
  intros HJ NI V U P. apply put_real_ok in P. destruct P as [_ ->]. simpl.
  change h with ([] ++ h).
  apply (J_ext o st h t _ [] [] [(t, is_nreal st)] []); simpl; auto; try tauto.
  - apply (j_hist _ _ _ HJ).
  - now rewrite app_nil_r.
  - intros I b r C _ [A1 A2] _ _. split; [tauto|]. intros x l [[= <- <-]|[]]. apply A2; [left; auto|auto].
  - split.
    + intros B0. exfalso. exact (bool_not_var t B0 V).
    + intros _. exists (is_nreal st). simpl. auto.
  - intros _ BT. exact (bt_real hi hv _ _ _ _ BT).
Qed.

(** *** disjunctions *)
Lemma arg_lits_ok st : forall l ls, arg_lits st l = Ok ls ->
  Forall2 (fun a x => exists y, In (pos a, y) (is_bool st) /\ x = if tneg a then neg y else y) l ls.
Proof.
  induction l as [|a l IH]; simpl; intros ls E; [injection E as <-; constructor|].
  unfold arg_lit in E. destruct (m_find (is_bool st) (pos a)) as [y|] eqn:M; cbn [value_of bind] in E; try discriminate.
  destruct (arg_lits st l) as [xs| |]; cbn [bind] in E; try discriminate. injection E as <-.
  constructor; auto. exists y. split; auto. now apply m_find_in.
Qed.
Lemma or_fold l : forall ls st, fold_left (fun s a => add_clause s [l; neg a]) ls st =
  mkIs (is_store st) (is_nreal st) (is_bool st) (is_real st) (is_cls st ++ map (fun a => [l; neg a]) ls) (is_calls st).
Proof.
  induction ls as [|a ls IH]; intros st; simpl.
  - rewrite app_nil_r. now destruct st.
  - rewrite IH. simpl. now rewrite <- app_assoc.
Qed.
Lemma lit_dec b l : lit_holds b l \/ ~ lit_holds b l.
Proof. unfold lit_holds. destruct (b (lord l)), (lneg l); simpl; auto; right; discriminate. Qed.

Lemma or_step o st h t st' : J o st h -> ~ In (tix t) (map tix o) -> typed T t -> kind_of T t = KOr ->
  int_visit ndebug hi hv T st t = Ok st' -> exists h', JX (o ++ [t]) st h st' h'.
Proof.
  intros HJ NI TY K E. unfold int_visit in E. rewrite K in E.
  assert (V : valid T t) by (destruct TY as [[V _]|[V _]]; auto).
  pose proof (node_shape t V (big t V ltac:(congruence) ltac:(congruence))) as WN. unfold wf_node in WN.
  pose proof K as K'. unfold kind_of in K'. rewrite K' in WN. destruct (n_desc (node_of T t)) as [|args| |] eqn:ND; try tauto.
  destruct WN as (TB & LA & FA).
  assert (B : bool_t T t) by (split; auto).
  assert (GA : get_args T t = args) by (unfold get_args; rewrite K; unfold dargs; now rewrite ND).
  rewrite GA in E.
  destruct (assertb (2 <=? length args)) as [as1| |]; cbn [bind] in E; try discriminate.
  destruct (assertb (forallb _ args)) as [as2| |]; cbn [bind] in E; try discriminate.
  cbn [make_bool] in E. fold (nvars st) in E.
  set (l := mkLit (nvars st) false) in *.
  destruct (put_bool _ (pos t) l) as [st2| |] eqn:P; cbn [bind] in E; try discriminate.
  apply put_bool_ok in P. destruct P as [_ ->]. cbn [is_store is_nreal is_bool is_real is_cls is_calls] in E.
  destruct (arg_lits _ args) as [ls| |] eqn:A; cbn [bind] in E; try discriminate. injection E as <-.
  rewrite or_fold. unfold add_clause. cbn [is_store is_nreal is_bool is_real is_cls is_calls].
  apply arg_lits_ok in A. cbn [is_bool] in A.
  assert (A' : Forall2 (fun a x => exists y, In (pos a, y) (is_bool st) /\ x = if tneg a then neg y else y) args ls).
  { assert (LT : forall a, In a args -> tix a < tix t). { intros u Iu. apply (wf_acyclic H T W). now rewrite GA. }
    clear - A LT. induction A as [|u x us xs E A IH]; constructor.
    - destruct E as (y & [Ey|Iy] & Ex); eauto.
      exfalso. injection Ey as E0 E1. specialize (LT u (or_introl eq_refl)). lia.
    - apply IH. intros; apply LT; simpl; auto. }
  clear A.
  assert (SA : forall I b, bsem st I b -> Forall2 (fun a x => lit_holds b x <-> tholds I T a = true) args ls).
  { intros I b BS. clear - A' BS FA W. induction A' as [|u x us xs (y & Iy & Ex) A IH]; constructor.
    - inversion FA as [|? ? [BU _] _]; subst. rewrite (tholds_sign I u BU). pose proof (BS _ _ Iy) as Y.
      destruct (tneg u); auto. rewrite lit_neg, Y. destruct (tholds I T (pos u)); simpl; intuition congruence.
    - inversion FA; subst. auto. }
  assert (TH : forall I, tholds I T (pos t) = existsb (tholds I T) args).
  { intros I. rewrite (tholds_node I t V). unfold node_value. rewrite K', ND. reflexivity. }
  exists h. change h with ([] ++ h).
  apply (J_ext o st h t _ [] [(pos t, l)] [] (map (fun a => [l; neg a]) ls ++ [ls ++ [neg l]])); simpl; auto; try tauto.
  - apply hist_resize. apply (j_hist _ _ _ HJ).
  - intros v L. apply resize_get.
  - match goal with |- context [nvars (mkIs ?s ?a ?b ?c ?d ?e)] => pose proof (resize_nvars st a b c d e : nvars (mkIs s a b c d e) = _) end; lia.
  - now rewrite app_assoc.
  - right. exists (pos t), l. split; auto. split; auto. split; [exact B|]. split; auto. split.
    + intros _. simpl. split; auto. split; auto. split; [|apply fresh_get]. match goal with |- context [nvars (mkIs ?s ?a ?b ?c ?d ?e)] => pose proof (resize_nvars st a b c d e : nvars (mkIs s a b c d e) = _) end; lia.
    + intros NP. exfalso. apply NP. left. exact K.
  - intros I b r C F _ BS _. split; [|tauto]. intros k x [[= <- <-]|[]]. specialize (SA I b BS). rewrite TH.
    apply Forall_app in F. destruct F as [F1 F2]. inversion F2 as [|? ? (x & Ix & Hx) _]; subst. clear F2.
    split.
    + intros L. apply in_app_iff in Ix. destruct Ix as [Ix|[<-|[]]].
      * apply existsb_exists. clear - SA Ix Hx. induction SA as [|a y args ls E SA IH]; [destruct Ix|].
        destruct Ix as [->|Ix]; [exists a; split; [left; auto|tauto]|].
        destruct (IH Ix) as (z & ? & ?). exists z. split; [right|]; auto.
      * apply lit_neg in Hx. contradiction.
    + intros X. apply existsb_exists in X. destruct X as (a & Ia & Ha).
      assert (exists y, In y ls /\ lit_holds b y) as (y & Iy & Hy).
      { clear - SA Ia Ha. induction SA as [|c y args ls E SA IH]; [destruct Ia|].
        destruct Ia as [->|Ia]; [exists y; split; [left; auto|tauto]|].
        destruct (IH Ia) as (z & ? & ?). exists z. split; [right|]; auto. }
      rewrite Forall_map, Forall_forall in F1. destruct (F1 y Iy) as (z & [<-|[<-|[]]] & Hz); auto.
      apply lit_neg in Hz. contradiction.
  - intros I b r C BS _.
    assert (BS0 : bsem st I b). { intros x y Ix. apply BS. simpl. auto. }
    specialize (SA I b BS0). assert (HL : lit_holds b l <-> existsb (tholds I T) args = true).
    { rewrite <- TH. apply BS. simpl. auto. }
    apply Forall_app. split.
    + apply Forall_map, Forall_forall. intros y Iy. destruct (lit_dec b y) as [Y|Y].
      * exists l. split; [left; auto|]. apply HL. apply existsb_exists.
        clear - SA Iy Y. induction SA as [|a z args ls E SA IH]; [destruct Iy|].
        destruct Iy as [->|Ix]; [exists a; split; [left; auto|tauto]|].
        destruct (IH Ix) as (w & ? & ?). exists w. split; [right|]; auto.
      * exists (neg y). split; [right; left; auto|]. now apply lit_neg.
    + constructor; auto. destruct (lit_dec b l) as [L|L].
      * apply HL in L. apply existsb_exists in L. destruct L as (a & Ia & Ha).
        assert (exists y, In y ls /\ lit_holds b y) as (y & Iy & Hy).
        { clear - SA Ia Ha. induction SA as [|c y args ls E SA IH]; [destruct Ia|].
          destruct Ia as [->|Ia]; [exists y; split; [left; auto|tauto]|].
          destruct (IH Ia) as (z & ? & ?). exists z. split; [right|]; auto. }
        exists y. split; auto. apply in_app_iff; auto.
      * exists (neg l). split; [apply in_app_iff; right; left; auto|]. now apply lit_neg.
  - split.
    + intros _ _. exists l. simpl. left. unfold key. now rewrite K.
    + intros V0. exfalso. exact (bool_not_var t B V0).
  - intros _ BT. exact (bt_bool hi hv _ _ _ _ BT).
Qed.

(** *** if-then-else *)
Lemma ite_step o st h t st' : J o st h -> ~ In (tix t) (map tix o) -> typed T t -> kind_of T t = KIte ->
  int_visit ndebug hi hv T st t = Ok st' -> exists h', JX (o ++ [t]) st h st' h'.
Proof.
  intros HJ NI TY K E. unfold int_visit in E. rewrite K in E.
  assert (V : valid T t) by (destruct TY as [[V _]|[V _]]; auto).
  pose proof (node_shape t V (big t V ltac:(congruence) ltac:(congruence))) as WN. unfold wf_node in WN.
  pose proof K as K'. unfold kind_of in K'. rewrite K' in WN. destruct (n_desc (node_of T t)) as [|[|c [|u [|w [|]]]]| |] eqn:ND; try tauto.
  destruct WN as (TR & BC & NC & SC & RU & RW).
  assert (RT : real_t T t). { destruct TY as [[_ B]|R]; auto. unfold type_of in B. congruence. }
  assert (VL : varlike T t). { split; auto. right; left. exact K. }
  assert (GA : get_args T t = [c; u; w]) by (unfold get_args; rewrite K; unfold dargs; now rewrite ND).
  assert (LU : tix u < tix t) by (apply (wf_acyclic H T W); rewrite GA; simpl; auto).
  assert (LW : tix w < tix t) by (apply (wf_acyclic H T W); rewrite GA; simpl; auto).
  destruct (assertb (Terms_Model.is_real T t)) as [as1| |]; cbn [bind] in E; try discriminate.
  rewrite GA in E. cbn [at_ value_of nth_error bind make_real] in E.
  set (v := is_nreal st) in *.
  destruct (put_real _ t v) as [st2| |] eqn:P; cbn [bind] in E; try discriminate.
  apply put_real_ok in P. destruct P as [_ P]. cbn [is_store is_nreal is_bool is_real is_cls is_calls] in P.
  assert (ND2 : NoDup (map snd (is_real st2))).
  { subst st2. simpl. constructor; [|apply (j_rinj _ _ _ HJ)]. intros Ix. apply in_map_iff in Ix.
    destruct Ix as ([x y] & Ey & Ix). simpl in Ey. subst y. apply (j_rlt _ _ _ HJ) in Ix. unfold v in Ix. lia. }
  destruct (internalize_poly T st2 u) as [pu| |] eqn:PU; cbn [bind] in E; try discriminate.
  destruct (internalize_poly T st2 w) as [pw| |] eqn:PW; cbn [bind] in E; try discriminate.
  destruct (ipoly_ok H T st2 u pu W RU ND2 PU) as (U1 & _ & _ & U4).
  destruct (ipoly_ok H T st2 w pw W RW ND2 PW) as (W1 & _ & _ & W4).
  pose proof (poly_subtract_var_ok pu v) as SU. pose proof (poly_subtract_var_ok pw v) as SW.
  destruct (poly_subtract_var pu v) as [pu'| |] eqn:EU; cbn [bind] in E; try discriminate.
  destruct (poly_subtract_var pw v) as [pw'| |] eqn:EW; cbn [bind] in E; try discriminate.
  destruct SU as (_ & SU1 & SU2), SW as (_ & SW1 & SW2).
  assert (NU : p_terms pu' <> []).
  { unfold poly_subtract_var in EU. destruct (existsb _ _); simpl in EU; try discriminate. injection EU as <-. simpl. intros X. apply app_eq_nil in X. destruct X; discriminate. }
  assert (NW : p_terms pw' <> []).
  { unfold poly_subtract_var in EW. destruct (existsb _ _); simpl in EW; try discriminate. injection EW as <-. simpl. intros X. apply app_eq_nil in X. destruct X; discriminate. }
  destruct (linear_constraint hi hv st2 pu' PEq) as [[st3 la]| |] eqn:L1; cbn [bind] in E; try discriminate.
  destruct (linear_constraint hi hv st3 pw' PEq) as [[st4 lb]| |] eqn:L2; cbn [bind] in E; try discriminate.
  assert (H2 : hist (is_store st2) h) by (subst st2; apply (j_hist _ _ _ HJ)).
  destruct (lin_step hi hv st2 pu' PEq st3 la h H2 (SU2 U1) NU L1) as (s3 & c3 & E3 & El3 & H3 & G3 & N3 & _ & B3).
  assert (H3' : hist (is_store st3) ((req_of pu' PEq, c3) :: h)) by (subst st3; exact H3).
  destruct (lin_step hi hv st3 pw' PEq st4 lb _ H3' (SW2 W1) NW L2) as (s4 & c4 & E4 & El4 & H4 & G4 & N4 & _ & B4).
  rewrite SC in E. cbn [negb assertb bind] in E.
  subst st4 st3 st2. cbn [is_store is_nreal is_bool is_real is_cls is_calls] in *.
  destruct (m_find (is_bool st) c) as [l|] eqn:ML; cbn [value_of bind] in E; try discriminate. injection E as <-.
  unfold add_clause. cbn [is_store is_nreal is_bool is_real is_cls is_calls]. rewrite <- app_assoc. simpl.
  apply m_find_in in ML.
  assert (TV : forall I, treal I T t = if tholds I T c then treal I T u else treal I T w).
  { intros I. unfold treal at 1. rewrite (teval_node H T I t W V (proj2 (proj2 RT))). unfold node_value. rewrite K', ND.
    fold (teval I T c). fold (tholds I T c). destruct (tholds I T c); reflexivity. }
  set (hn := [(req_of pw' PEq, c4); (req_of pu' PEq, c3)]).
  assert (RS : forall I r x y0 n, n < tix t -> rsemv st I r -> rsem T (mkIs x (S v) (is_bool st) ((t, v) :: is_real st) (is_cls st) y0) I r n).
  { intros I r x y0 n Ln R y z Iy Ly. simpl in Iy. destruct Iy as [[= <- <-]|Iy]; [lia|]. now apply R. }
  assert (MU : forall I b r, cons_ok (hn ++ h) b r -> rsemv st I r -> (lit_holds b la <-> (r v == this (treal I T u))%Q)).
  { intros I b r C R. rewrite El3, (C (req_of pu' PEq) c3) by (simpl; auto). rewrite req_mean. simpl.
    rewrite SU1. assert (X := U4 I r (RS I r _ _ _ LU R)). split; intros; lra. }
  assert (MW : forall I b r, cons_ok (hn ++ h) b r -> rsemv st I r -> (lit_holds b lb <-> (r v == this (treal I T w))%Q)).
  { intros I b r C R. rewrite El4, (C (req_of pw' PEq) c4) by (simpl; auto). rewrite req_mean. simpl.
    rewrite SW1. assert (X := W4 I r (RS I r _ _ _ LW R)). split; intros; lra. }
  exists (hn ++ h).
  apply (J_ext o st h t _ hn [] [(t, v)] [[l; lb]; [neg l; la]]); simpl; auto; try tauto.
  - intros q d [[= <- <-]|[[= <- <-]|[]]]; unfold proper, req_of; simpl; rewrite nonzero_id; auto; [apply (SW2 W1)|apply (SU2 U1)].
  - intros x Lx. unfold nvars in Lx. rewrite G4 by lia. now apply G3.
  - unfold nvars. simpl. lia.
  - intros I b r C F _ BS R. split; [tauto|]. intros k x [[= <- <-]|[]].
    inversion F as [|? ? (z1 & I1 & Z1) F']; subst. inversion F' as [|? ? (z2 & I2 & Z2) _]; subst. clear F F'.
    rewrite TV. pose proof (BS _ _ ML) as BL. simpl in I1, I2. destruct (tholds I T c).
    + apply (MU I b r); auto. destruct I2 as [<-|[<-|[]]]; auto. apply lit_neg in Z2. exfalso. apply Z2, BL. auto.
    + apply (MW I b r); auto. destruct I1 as [<-|[<-|[]]]; auto. apply BL in Z1. discriminate.
  - intros I b r C BS R.
    assert (R0 : rsemv st I r). { intros x y Ix. apply R. simpl. auto. }
    assert (RV : (r v == this (treal I T t))%Q) by (apply R; simpl; auto). rewrite TV in RV.
    assert (BL : lit_holds b l <-> tholds I T c = true) by (apply BS; simpl; auto).
    destruct (tholds I T c).
    + constructor; [|constructor; auto].
      * exists l. split; [left; auto|tauto].
      * exists la. split; [right; left; auto|]. now apply (MU I b r).
    + constructor; [|constructor; auto].
      * exists lb. split; [right; left; auto|]. now apply (MW I b r).
      * exists (neg l). split; [left; auto|]. apply lit_neg. intros X. apply BL in X. discriminate.
  - split.
    + intros B0. exfalso. exact (bool_not_var t B0 VL).
    + intros _. exists v. simpl. auto.
  - intros _ BT. apply B4, B3. exact (bt_real hi hv _ _ _ _ BT).
Qed.

Lemma key_pos t : kind_of T t <> KApp -> key t = pos t.
Proof. unfold key. destruct (kind_of T t); congruence. Qed.

Lemma step o st h t st' : J o st h -> ~ In (tix t) (map tix o) -> typed T t ->
  int_visit ndebug hi hv T st t = Ok st' -> exists h', JX (o ++ [t]) st h st' h'.
Proof.
  intros HJ NI TY E. destruct (kind_of T t) eqn:K.
  all: try (unfold int_visit in E; rewrite K in E; discriminate).
  all: try (eapply ge_step; eauto; fail).
  all: try (eapply eq_step; eauto; fail).
  all: try (eapply bineq_step; eauto; fail).
  all: try (eapply or_step; eauto; fail).
  all: try (eapply ite_step; eauto; fail).
  all: unfold int_visit in E; rewrite K in E.
  - destruct (assertb _); cbn [bind] in E; try discriminate. injection E as <-. exists h. apply skip_ext; auto. split.
    + intros [V _] N. exfalso. destruct (le_lt_dec 3 (tix t)) as [L|L].
      * pose proof (node_shape t V L) as WN. unfold wf_node, kind_of in *. rewrite K in WN. destruct (n_desc (node_of T t)); tauto.
      * destruct (small_node H T t W V L) as [[? _]|[_ X]]; auto. unfold kind_of in K. rewrite X in K. discriminate.
    + intros [_ [V|[V|V]]]; congruence.
  - injection E as <-. exists h. apply skip_ext; auto. split; [|intros [_ [V|[V|V]]]; congruence].
    intros [V B] _. exfalso. destruct (le_lt_dec 3 (tix t)) as [L|L].
    + pose proof (node_shape t V L) as WN. unfold wf_node, kind_of, type_of in *. rewrite K in WN.
      destruct (n_desc (node_of T t)); try tauto. destruct WN; congruence.
    + destruct (small_node H T t W V L) as [[_ X]|[_ X]]; unfold kind_of, type_of in *; rewrite X in *; discriminate.
  - destruct TY as [B|R].
    + rewrite (proj2 B) in E. exists h. apply (newb_step o st h t (pos t)); auto; [left; auto|]. now rewrite key_pos by congruence.
    + rewrite (proj1 (proj2 R)) in E. exists h. apply (newr_step o st h t); auto; [|left; auto]. split; auto. left; auto.
  - destruct TY as [B|R].
    + rewrite (proj2 B) in E. exists h. apply (newb_step o st h t t); auto; [right; auto|]. unfold key. now rewrite K.
    + rewrite (proj1 (proj2 R)) in E. exists h. apply (newr_step o st h t); auto; [|right; auto]. split; auto. right; right; auto.
  - injection E as <-. exists h. apply skip_ext; auto. split; [|intros [_ [V|[V|V]]]; congruence].
    intros [V B] _. exfalso. pose proof (node_shape t V (big t V ltac:(congruence) ltac:(congruence))) as WN.
    unfold wf_node, kind_of, type_of in *. rewrite K in WN. destruct (n_desc (node_of T t)) as [|[|? [|? [|]]]| |]; try tauto. destruct WN; congruence.
  - injection E as <-. exists h. apply skip_ext; auto. split; [|intros [_ [V|[V|V]]]; congruence].
    intros [V B] _. exfalso. pose proof (node_shape t V (big t V ltac:(congruence) ltac:(congruence))) as WN.
    unfold wf_node, kind_of, type_of in *. rewrite K in WN. destruct (n_desc (node_of T t)); try tauto. destruct WN; congruence.
Qed.

Lemma run_J : forall n o st h st', J o st h -> NoDup (map tix (o ++ n)) -> Forall (typed T) n ->
  run (int_visit ndebug hi hv T) st n = Ok st' -> exists h', JX (o ++ n) st h st' h'.
Proof.
  induction n as [|t n IH]; intros o st h st' HJ ND F E; simpl in E.
  - injection E as <-. rewrite app_nil_r. exists h. split; [exact HJ|apply ext_refl].
  - inversion F; subst. destruct (int_visit ndebug hi hv T st t) as [st1| |] eqn:Ev; cbn [bind] in E; try discriminate.
    assert (NI : ~ In (tix t) (map tix o)).
    { rewrite map_app in ND. simpl in ND. apply NoDup_remove_2 in ND. intros X. apply ND. apply in_app_iff. auto. }
    destruct (step o st h t st1 HJ NI H2 Ev) as [h1 [J1 X1]].
    replace (o ++ t :: n) with ((o ++ [t]) ++ n) in * by (rewrite <- app_assoc; reflexivity).
    destruct (IH _ _ _ _ J1 ND H3 E) as [h2 [J2 X2]]. exists h2. split; [exact J2|eapply ext_trans; eauto].
Qed.

(** ** The translation does not fail on supported terms *)
Definition sh (u : term) : Prop :=
  (kind_of T u = KApp -> type_of T u = TBool -> tneg u = false) /\
  (ndebug = false -> kind_of T u = KArithBineq -> forall a, In a (get_args T u) -> kind_of T a <> KApp) /\
  (kind_of T u = KConst -> u = true_term).

Lemma in_find {A} (m : list (term * A)) t x : In (t, x) m -> exists y, m_find m t = Some y.
Proof.
  intros I. destruct (m_find m t) eqn:E; eauto. exfalso. apply (proj1 (m_find_none m t) E). apply in_map_iff. exists (t, x). auto.
Qed.
Lemma same_ix a u : tix a = tix u -> kind_of T a = kind_of T u /\ type_of T a = type_of T u /\ get_args T a = get_args T u.
Proof. intros E. unfold get_args, kind_of, type_of, node_of. rewrite E. auto. Qed.

Lemma find_bool o st h a : J o st h -> Forall sh o -> In (tix a) (map tix o) -> bool_t T a -> tix a <> 1 -> sh a ->
  exists l, m_find (is_bool st) (pos a) = Some l.
Proof.
  intros HJ FS Ia B N SA. apply in_map_iff in Ia. destruct Ia as (u & Eu & Iu).
  destruct (same_ix _ _ Eu) as (K1 & K2 & _).
  assert (BU : bool_t T u). { destruct B as [V B]. split; [unfold valid in *; now rewrite Eu|congruence]. }
  destruct (j_dom _ _ _ HJ u Iu) as [D _]. destruct (D BU ltac:(congruence)) as [l L].
  assert (KP : key u = pos a).
  { unfold key. destruct (kind_of T u) eqn:KU; try (unfold pos; now rewrite Eu).
    rewrite Forall_forall in FS. destruct (FS u Iu) as [S1 _]. specialize (S1 KU (proj2 BU)).
    destruct u as [i m]; simpl in *; subst. reflexivity. }
  rewrite KP in L. eapply in_find; eauto.
Qed.
Lemma find_real o st h a : J o st h -> In (tix a) (map tix o) -> varlike T a -> Forall (typed T) o -> exists v, m_find (is_real st) a = Some v.
Proof.
  intros HJ Ia V FT. apply in_map_iff in Ia. destruct Ia as (u & Eu & Iu).
  destruct (same_ix _ _ Eu) as (K1 & K2 & _).
  assert (u = a).
  { destruct V as [(V & R & N) _]. rewrite Forall_forall in FT. destruct (FT u Iu) as [[_ B]|(_ & _ & N')]; [congruence|].
    destruct u as [i m], a as [j k]; simpl in *; subst. reflexivity. }
  subst u. destruct (j_dom _ _ _ HJ a Iu) as [_ D]. destruct (D V) as [v L]. eapply in_find; eauto.
Qed.

Lemma put_bool_tot o st h st1 t k l : J o st h -> ~ In (tix t) (map tix o) -> tix k = tix t -> is_bool st1 = is_bool st ->
  exists st', put_bool st1 k l = Ok st'.
Proof.
  intros HJ NI E EB. unfold put_bool. destruct (m_find (is_bool st1) k) as [y|] eqn:M; eauto. exfalso.
  apply m_find_in in M. rewrite EB in M. apply (j_bkey _ _ _ HJ) in M. rewrite E in M. tauto.
Qed.
Lemma put_real_tot o st h st1 t l : J o st h -> ~ In (tix t) (map tix o) -> is_real st1 = is_real st ->
  exists st', put_real st1 t l = Ok st'.
Proof.
  intros HJ NI EB. unfold put_real. destruct (m_find (is_real st1) t) as [y|] eqn:M; eauto. exfalso.
  apply m_find_in in M. rewrite EB in M. apply (j_rkey _ _ _ HJ) in M. tauto.
Qed.
Lemma poly_range o st h st2 p a : J o st h -> (is_real st2 = is_real st /\ is_nreal st2 = is_nreal st) ->
  (forall v, In v (map fst (p_terms p)) -> exists x, In (x, v) (is_real st2) /\ tix x <= tix a) ->
  forall v, In v (map fst (p_terms p)) -> v < is_nreal st2.
Proof. intros HJ [E1 E2] F v Iv. destruct (F v Iv) as (x & Ix & _). rewrite E1 in Ix. rewrite E2. eapply j_rlt; eauto. Qed.
Lemma linear_maps st p o st' l : linear_constraint hi hv st p o = Ok (st', l) ->
  is_bool st' = is_bool st /\ is_real st' = is_real st /\ is_nreal st' = is_nreal st /\ is_cls st' = is_cls st.
Proof.
  unfold linear_constraint. destruct (assertb _); simpl; try discriminate. destruct (lc_make _ _ _ _ _ _). intros [= <- <-]. auto.
Qed.
Lemma negate_vars p : map fst (p_terms (poly_negate p)) = map fst (p_terms p).
Proof. unfold poly_negate. simpl. rewrite map_map. apply map_ext. auto. Qed.

Section Total.
Variable o : list term.
Variable st : ist.
Variable h : list (Spec_Lincons.request * lcons).
Variable t : term.
Hypothesis HJ : J o st h.
Hypothesis NI : ~ In (tix t) (map tix o).
Hypothesis TY : typed T t.
Hypothesis FT : Forall (typed T) o.
Hypothesis FS : Forall sh o.
Hypothesis AF : args_first T (o ++ [t]).
Hypothesis ST : sh t.
Hypothesis SA : forall a, In a (get_args T t) -> sh a.

Lemma sub_seen a x : In a (get_args T t) -> subterm T x a -> In (tix x) (map tix o).
Proof.
  intros Ia S. eapply first_closed; [|apply (AF o t [] eq_refl a Ia)|exact S].
  intros b u l E. apply (AF b u (l ++ [t])). rewrite E, <- app_assoc. reflexivity.
Qed.
Lemma arg_poly a : In a (get_args T t) -> real_t T a -> exists p, internalize_poly T st a = Ok p.
Proof.
  intros Ia R. apply (ipoly_tot H); auto. intros x V S. eapply find_real; eauto. eapply sub_seen; eauto.
Qed.
Lemma arg_lits_tot st2 : (forall k, In (tix k) (map tix o) -> m_find (is_bool st2) k = m_find (is_bool st) k) ->
  forall l, (forall a, In a l -> In a (get_args T t) /\ bool_t T a /\ tix a <> 1) -> exists ls, arg_lits st2 l = Ok ls.
Proof.
  intros EF. induction l as [|a l IH]; simpl; intros F; eauto.
  destruct (F a (or_introl eq_refl)) as (Ia & B & N). pose proof (sub_seen a a Ia (sub_refl _ _)) as Sa.
  destruct (find_bool o st h a HJ FS Sa B N (SA a Ia)) as [y Y]. unfold arg_lit. rewrite EF by exact Sa. rewrite Y. cbn [value_of bind].
  destruct IH as [ls E]; [intros; apply F; auto|]. rewrite E. cbn [bind]. eauto.
Qed.

Lemma step_tot : exists st', int_visit ndebug hi hv T st t = Ok st'.
Proof.
  assert (V : valid T t) by (destruct TY as [[V _]|[V _]]; auto).
  assert (PBT : forall st1 k l, tix k = tix t -> is_bool st1 = is_bool st -> exists st', put_bool st1 k l = Ok st').
  { intros. eapply put_bool_tot; eauto. }
  assert (WN : kind_of T t <> KConst -> kind_of T t <> KArithConst -> wf_node T (node_of T t)).
  { intros A B. apply node_shape; auto. apply big; auto. }
  unfold int_visit. unfold wf_node in WN. fold (kind_of T t) in WN.
  destruct (kind_of T t) eqn:K; try (exfalso; apply WN; discriminate); eauto.
  - rewrite (proj2 (proj2 ST) K). simpl. eauto.
  - destruct TY as [B|R].
    + rewrite (proj2 B). apply PBT; auto.
    + rewrite (proj1 (proj2 R)). eapply put_real_tot; eauto.
  - specialize (WN ltac:(discriminate) ltac:(discriminate)).
    destruct (n_desc (node_of T t)) as [|[|c [|u [|w [|]]]]| |] eqn:ND; try tauto. destruct WN as (TR & BC & NC & SC & RU & RW).
    assert (GA : get_args T t = [c; u; w]) by (unfold get_args; rewrite K; unfold dargs; now rewrite ND).
    assert (IU : In u (get_args T t)) by (rewrite GA; simpl; auto).
    assert (IW : In w (get_args T t)) by (rewrite GA; simpl; auto).
    assert (LU : tix u < tix t) by (apply (wf_acyclic H T W); auto).
    assert (LW : tix w < tix t) by (apply (wf_acyclic H T W); auto).
    assert (IC : In c (get_args T t)) by (rewrite GA; simpl; auto).
    unfold Terms_Model.is_real. unfold type_of at 1. rewrite TR. cbn [ty_eqb assertb bind]. rewrite GA. cbn [at_ value_of nth_error bind make_real].
    destruct (put_real_tot o st h (fst (make_real st)) t (is_nreal st) HJ NI eq_refl) as [st2 P]. cbn [make_real fst] in P. rewrite P. cbn [bind].
    apply put_real_ok in P. destruct P as [_ P]. cbn [is_store is_nreal is_bool is_real is_cls is_calls] in P.
    assert (ND2 : NoDup (map snd (is_real st2))).
    { subst st2. simpl. constructor; [|apply (j_rinj _ _ _ HJ)]. intros Ix. apply in_map_iff in Ix.
      destruct Ix as ([x y] & Ey & Ix). simpl in Ey. subst y. apply (j_rlt _ _ _ HJ) in Ix. lia. }
    assert (FR : forall a x, In a (get_args T t) -> varlike T x -> subterm T x a -> exists v, m_find (is_real st2) x = Some v).
    { intros a x Ia Vx Sx. pose proof (sub_seen a x Ia Sx) as Sn. destruct (find_real o st h x HJ Sn Vx FT) as [v Fv].
      exists v. subst st2. simpl. destruct (t_eqb t x) eqn:Et; auto. apply t_eqb_eq in Et. subst x. contradiction. }
    assert (ALL : forall x v, In (x, v) (is_real st2) -> v < is_nreal st2).
    { subst st2. simpl. intros x v [[= <- <-]|Ix]; [lia|]. apply (j_rlt _ _ _ HJ) in Ix. lia. }
    assert (SUB : forall a p, In a (get_args T t) -> tix a < tix t -> real_t T a -> internalize_poly T st2 a = Ok p ->
       exists p', poly_subtract_var p (is_nreal st) = Ok p' /\ forall v, In v (map fst (p_terms p')) -> v < is_nreal st2).
    { intros a p Ia La Ra Pa. destruct (ipoly_ok H T st2 a p W Ra ND2 Pa) as (_ & P2 & _).
      pose proof (poly_subtract_var_ok p (is_nreal st)) as SO. unfold poly_subtract_var in *.
      destruct (existsb _ _) eqn:EX; cbn [negb assertb bind] in *.
      - exfalso. destruct (P2 _ SO) as (x & Ix & Lx). assert (x = t); [|subst; lia].
        eapply nodup_inj; [exact ND2|exact Ix|]. subst st2. simpl. auto.
      - eexists. split; [reflexivity|]. intros v Iv. cbn [p_terms] in Iv. rewrite map_app in Iv. apply in_app_iff in Iv.
        destruct Iv as [Iv|[<-|[]]].
        + destruct (P2 _ Iv) as (x & Ix & _). eauto.
        + subst st2. simpl. lia. }
    destruct (ipoly_tot H T st2 u W RU (fun x Vx => FR u x IU Vx)) as [pu PU].
    destruct (ipoly_tot H T st2 w W RW (fun x Vx => FR w x IW Vx)) as [pw PW].
    rewrite PU, PW. cbn [bind].
    destruct (SUB u pu IU LU RU PU) as (pu' & EU & RGU). destruct (SUB w pw IW LW RW PW) as (pw' & EW & RGW).
    rewrite EU, EW. cbn [bind].
    destruct (lin_tot hi hv st2 pu' PEq RGU) as [[st3 la] L1]. rewrite L1. cbn [bind].
    destruct (linear_maps _ _ _ _ _ L1) as (M1 & M2 & M3 & _).
    rewrite <- M3 in RGW. destruct (lin_tot hi hv st3 pw' PEq RGW) as [[st4 lb] L2]. rewrite L2. cbn [bind].
    destruct (linear_maps _ _ _ _ _ L2) as (M1' & _). rewrite SC. cbn [negb assertb bind].
    destruct (find_bool o st h c HJ FS (sub_seen c c IC (sub_refl _ _)) BC NC (SA c IC)) as [y Y].
    assert (Ec : pos c = c) by (destruct c as [i m]; simpl in *; subst; reflexivity). rewrite Ec in Y.
    rewrite M1', M1. subst st2. cbn [is_bool]. rewrite Y. cbn [value_of bind]. eauto.
  - destruct TY as [B|R].
    + rewrite (proj2 B). apply PBT; auto.
    + rewrite (proj1 (proj2 R)). eapply put_real_tot; eauto.
  - specialize (WN ltac:(discriminate) ltac:(discriminate)). destruct (n_desc (node_of T t)) as [|args| |] eqn:ND; try tauto.
    destruct WN as (TB & LA & FA).
    assert (GA : get_args T t = args) by (unfold get_args; rewrite K; unfold dargs; now rewrite ND).
    rewrite GA. replace (2 <=? length args) with true by (symmetry; now apply Nat.leb_le). cbn [assertb bind].
    replace (forallb (Terms_Model.is_bool T) args) with true.
    2: { symmetry. apply forallb_forall. intros a Ia. rewrite Forall_forall in FA. destruct (FA a Ia) as [[_ B] _].
         unfold Terms_Model.is_bool. now rewrite B. }
    cbn [assertb bind]. unfold make_bool. destruct (PBT (fst (make_bool st)) (pos t) (mkLit (length (st_cons (is_store st))) false) eq_refl eq_refl) as [st2 P].
    unfold make_bool in P. cbn [fst] in P. rewrite P. cbn [bind]. apply put_bool_ok in P. destruct P as [_ P].
    destruct (arg_lits_tot st2) with (l := args) as [ls E].
    + intros k Sk. subst st2. simpl. destruct (t_eqb (pos t) k) eqn:Et; auto. apply t_eqb_eq in Et. subst k. contradiction.
    + intros a Ia. rewrite GA. rewrite Forall_forall in FA. destruct (FA a Ia). auto.
    + rewrite E. cbn [bind]. eauto.
  - specialize (WN ltac:(discriminate) ltac:(discriminate)).
    destruct (n_desc (node_of T t)) as [|[|a [|]]| |] eqn:ND; try tauto. destruct WN as (TB & RA & CA).
    assert (GA : get_args T t = [a]) by (unfold get_args; rewrite K; unfold dargs; now rewrite ND).
    assert (IA : In a (get_args T t)) by (rewrite GA; simpl; auto).
    rewrite GA. cbn [at_ value_of nth_error bind]. destruct (arg_poly a IA RA) as [p P]. rewrite P. cbn [bind].
    destruct (ipoly_ok H T st a p W RA (j_rinj _ _ _ HJ) P) as (P1 & P2 & P3 & _).
    destruct (lin_tot hi hv st p PEq (poly_range o st h st p a HJ (conj eq_refl eq_refl) P2)) as [[st1 l] L]. rewrite L. cbn [bind].
    destruct (lin_step hi hv st p PEq st1 l h (j_hist _ _ _ HJ) P1 (P3 CA) L) as (? & ? & _ & _ & _ & _ & _ & SG & _).
    rewrite (SG eq_refl). cbn [negb assertb bind]. apply PBT; auto. apply (linear_maps _ _ _ _ _ L).
  - specialize (WN ltac:(discriminate) ltac:(discriminate)).
    destruct (n_desc (node_of T t)) as [|[|a [|]]| |] eqn:ND; try tauto. destruct WN as (TB & RA & CA).
    assert (GA : get_args T t = [a]) by (unfold get_args; rewrite K; unfold dargs; now rewrite ND).
    assert (IA : In a (get_args T t)) by (rewrite GA; simpl; auto).
    rewrite GA. cbn [at_ value_of nth_error bind].
    destruct (t_eqb a zero_term) eqn:EZ.
    { exfalso. apply t_eqb_eq in EZ. subst a. destruct (wf_prim _ _ W) as [l0 E]. unfold is_arith_const, kind_of, node_of in CA. rewrite E in CA. discriminate. }
    cbn [negb assertb bind].
    destruct (arg_poly a IA RA) as [p P]. rewrite P. cbn [bind].
    destruct (ipoly_ok H T st a p W RA (j_rinj _ _ _ HJ) P) as (P1 & P2 & P3 & _).
    pose proof (poly_range o st h st p a HJ (conj eq_refl eq_refl) P2) as RG.
    destruct (tneg t).
    + destruct (lin_tot hi hv st p PLt RG) as [[st1 l] L]. rewrite L. cbn [bind]. apply PBT; auto. apply (linear_maps _ _ _ _ _ L).
    + rewrite <- negate_vars in RG. destruct (lin_tot hi hv st (poly_negate p) PLeq RG) as [[st1 l] L]. rewrite L. cbn [bind].
      apply PBT; auto. apply (linear_maps _ _ _ _ _ L).
  - specialize (WN ltac:(discriminate) ltac:(discriminate)).
    destruct (n_desc (node_of T t)) as [|[|a [|c [|]]]| |] eqn:ND; try tauto. destruct WN as (TB & VA & VC & NE).
    assert (GA : get_args T t = [a; c]) by (unfold get_args; rewrite K; unfold dargs; now rewrite ND).
    assert (IA : In a (get_args T t)) by (rewrite GA; simpl; auto).
    assert (IC : In c (get_args T t)) by (rewrite GA; simpl; auto).
    destruct ST as (_ & SB & _). pose proof (fun R => SB R K) as SB'. clear SB. rename SB' into SB.
    assert (KA : ndebug || is_uninterp T a || is_ite T a = true).
    { destruct ndebug; [reflexivity|]. specialize (SB eq_refl). destruct VA as [_ [X|[X|X]]]; unfold is_uninterp, is_ite; rewrite X; auto. exfalso. exact (SB a IA X). }
    assert (KC : ndebug || is_uninterp T c || is_ite T c || is_arith_const T c = true).
    { destruct ndebug; [reflexivity|]. specialize (SB eq_refl). destruct VC as [[_ [X|[X|X]]]|[_ X]]; [| | |rewrite X; apply orb_true_r]; unfold is_uninterp, is_ite; rewrite X; auto. exfalso. exact (SB c IC X). }
    rewrite GA. cbn [at_ value_of nth_error bind]. rewrite KA, KC. cbn [assertb bind].
    destruct (find_real o st h a HJ (sub_seen a a IA (sub_refl _ _)) VA FT) as [v Fv].
    pose proof (m_find_in _ _ _ Fv) as Fvi.
    assert (exists p, bineq_poly T st a c = Ok p /\ poly_wf p /\ p_terms p <> [] /\ forall x, In x (map fst (p_terms p)) -> x < is_nreal st) as (p & P & PW & PN & PR).
    { unfold bineq_poly, rvar. rewrite Fv. cbn [value_of bind]. destruct (is_arith_const T c) eqn:CC.
      - assert (exists q, const_value T c = Ok q) as [q Q0].
        { destruct VC as [VC|[RC _]]; [apply varlike_flags in VC; destruct VC as (_ & _ & VC & _); congruence|].
          destruct (le_lt_dec 3 (tix c)) as [L|L].
          - pose proof (node_shape c (proj1 RC) L) as WC. unfold wf_node in WC. unfold is_arith_const, kind_of in CC. unfold const_value.
            unfold kind_of. destruct (node_of T c) as [kc tc dc]. simpl in *. destruct kc; try discriminate. destruct dc; try tauto. simpl. eauto.
          - destruct (small_node H T c W (proj1 RC) L) as [[_ N]|[_ N]].
            + unfold is_arith_const, kind_of in CC. rewrite N in CC. discriminate.
            + rewrite (proj2 (const_kind _ _ _ N)). eauto. }
        rewrite Q0. cbn [bind]. eexists. split; [reflexivity|]. split; [|split].
        + split; simpl; [repeat constructor; simpl; tauto|]. repeat constructor. simpl. discriminate.
        + discriminate.
        + simpl. intros x [<-|[]]. eapply j_rlt; eauto.
      - destruct VC as [VC|[_ VC]]; [|congruence].
        destruct (find_real o st h c HJ (sub_seen c c IC (sub_refl _ _)) VC FT) as [w Fw]. rewrite Fw. cbn [value_of bind].
        pose proof (m_find_in _ _ _ Fw) as Fwi. eexists. split; [reflexivity|]. split; [|split].
        + split; simpl.
          * repeat constructor; simpl; try tauto. intros [->|[]]. apply NE. eapply nodup_inj; eauto. apply (j_rinj _ _ _ HJ).
          * repeat constructor; simpl; discriminate.
        + discriminate.
        + simpl. intros x [<-|[<-|[]]]; eapply j_rlt; eauto. }
    rewrite P. cbn [bind]. destruct (lin_tot hi hv st p PEq PR) as [[st1 l] L]. rewrite L. cbn [bind].
    destruct (lin_step hi hv st p PEq st1 l h (j_hist _ _ _ HJ) PW PN L) as (? & ? & _ & _ & _ & _ & _ & SG & _).
    rewrite (SG eq_refl). cbn [negb assertb bind]. apply PBT; auto. apply (linear_maps _ _ _ _ _ L).
Qed.
End Total.

Lemma run_tot : forall n o st h, J o st h -> NoDup (map tix (o ++ n)) -> Forall (typed T) (o ++ n) -> Forall sh (o ++ n) ->
  (forall u a, In u n -> In a (get_args T u) -> sh a) -> args_first T (o ++ n) ->
  exists st', run (int_visit ndebug hi hv T) st n = Ok st'.
Proof.
  induction n as [|t n IH]; intros o st h HJ ND F FS SA AF; simpl; eauto.
  assert (NI : ~ In (tix t) (map tix o)).
  { rewrite map_app in ND. simpl in ND. apply NoDup_remove_2 in ND. intros X. apply ND. apply in_app_iff. auto. }
  apply Forall_app in F. destruct F as [F1 F2]. inversion F2 as [|? ? TT F3]; subst.
  apply Forall_app in FS. destruct FS as [S1 S2]. inversion S2 as [|? ? ST S3]; subst.
  assert (AF' : args_first T (o ++ [t])).
  { intros b u l E. apply (AF b u (l ++ n)). rewrite app_comm_cons, app_assoc, <- E, <- app_assoc. reflexivity. }
  destruct (step_tot o st h t HJ NI TT F1 S1 AF' ST) as [st1 E1].
  { intros a Ia. eapply SA; eauto. left; auto. }
  rewrite E1. cbn [bind]. destruct (step o st h t st1 HJ NI TT E1) as [h1 [J1 _]].
  apply (IH (o ++ [t]) st1 h1); auto.
  - now rewrite <- app_assoc.
  - apply Forall_app. split; auto. apply Forall_app. split; auto.
  - apply Forall_app. split; auto. apply Forall_app. split; auto.
  - intros u a Iu. apply SA. right; auto.
  - now rewrite <- app_assoc.
Qed.
End Step.
