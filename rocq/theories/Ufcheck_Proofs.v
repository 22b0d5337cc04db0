(** Proofs for C63: checks of assertions with the logic QF_UFLRA. *)
From Coq Require Import List Arith ZArith QArith Qcanon NArith Bool Lia Lqa Permutation.
From Verif Require Import Base Core_Model Bool_Model Trail_Model Spec_Trail Trail_Proofs Solver_Model Spec_Sat Spec_Theory Theory_Inv Theory_Bool Lincons_Model Spec_Lincons Lincons_Proofs Lincons_Proofs2
  Lra_Model Lra_Watch Comb_Model Spec_Comb Comb_Final Comb_Bcp Comb_Lra.
From Verif Require Import Terms_Model Spec_Terms Terms_Proofs TermMgr_Model Spec_TermMgr TermMgr_Base TermMgr_Arith TermMgr_Term
  Visitor_Model Spec_Visitor Visitor_Proofs Internalizer_Model Spec_Internalizer Internalizer_Proofs Internalizer_Step Internalizer_Main
  Check_Model Spec_Check Check_Proofs Uf_Model Spec_Uf Uf_Proofs Uf_Confl Ufcomb_Model Ufcomb_Eq Ufcomb_Watch Ufcomb_Final
  Ufcheck_Model Spec_Ufcheck Ufcheck_Cancel.
Import ListNotations.
Close Scope Qc_scope.
Close Scope Q_scope.
Open Scope nat_scope.

Section U.
Variables (hi : nat -> Z) (hv : Q -> Z) (opt : lopt).
Variable ndebug : bool.
Variable H : hashes.
Variable T : table.
Hypothesis W : wf H T.
Notation iv := (int_visit ndebug hi hv T).
Notation uv := (ufi_visit hi hv ndebug T).
Notation J := (J hi hv T True).

(** ** the translation of the terms is the one of QF_LRA *)
Lemma uv_inv st u t st' u' : uv (st, u) t = Ok (st', u') -> iv st t = Ok st' /\
  (u' = u /\ kind_of T t <> KApp \/
   kind_of T t = KApp /\ exists v, u' = mkUf (u_watch u ++ [(t, v :: flat_map (vars_to_watch T (is_bool st) (is_real st)) (get_args T t))]) (u_fns u) /\
     (type_of T t = TReal -> v = VRat (is_nreal st))).
Proof.
  unfold ufi_visit. intros E.
  destruct (match kind_of T t, type_of T t with KApp, TReal => _ | KApp, TBool => _ | _, _ => _ end) as [u1| |] eqn:E1; cbn [bind] in E; try discriminate.
  destruct (iv st t) as [st1| |] eqn:E2; cbn [bind] in E; try discriminate. injection E as <- <-. split; auto.
  destruct (kind_of T t) eqn:K; try (injection E1 as <-; left; split; [auto|congruence]).
  destruct (type_of T t) eqn:TY; unfold uf_register in E1; rewrite ?K in E1; cbn [k_eqb assertb bind] in E1.
  - injection E1 as <-. exfalso. unfold int_visit in E2. rewrite K, TY in E2. discriminate.
  - injection E1 as <-. right. split; auto. eexists. split; [reflexivity|]. congruence.
  - injection E1 as <-. right. split; auto. eexists. split; [reflexivity|]. auto.
Qed.
Lemma urun : forall o st u st' u', run uv (st, u) o = Ok (st', u') -> run iv st o = Ok st'.
Proof.
  induction o as [|t o IH]; cbn [run]; intros st u st' u' E; [congruence|].
  destruct (uv (st, u) t) as [[st1 u1]| |] eqn:E1; cbn [bind] in E; try discriminate. apply uv_inv in E1. destruct E1 as [-> _]. cbn [bind]. eauto.
Qed.

(** ** watch lists *)
Definition kapp (t : term) : bool := k_eqb (kind_of T t) KApp.
Lemma kapp_ok t : kapp t = true <-> kind_of T t = KApp.
Proof. unfold kapp. destruct (kind_of T t); cbn; split; congruence. Qed.
Definition UW (o : list term) (st : ist) (u : uf) : Prop :=
  u_fns u = [] /\ map fst (u_watch u) = filter kapp o /\
  forall x, In x (u_watch u) -> snd x <> [] /\ (forall v, In v (snd x) -> exists y r, v = VRat r /\ In (y, r) (is_real st)) /\
    exists r, In (fst x, r) (is_real st).
Lemma real_args t a : real_t T t -> kind_of T t = KProduct \/ kind_of T t = KPoly -> In a (get_args T t) -> real_t T a.
Proof.
  intros R K Ia. destruct (poly_of_ex H T t W R) as [tp P]. inversion P; subst.
  - destruct (small_node _ _ zero_term W (proj1 R) ltac:(simpl; lia)) as [[E1 _]|[_ E1]]; [discriminate|].
    unfold kind_of in K. rewrite E1 in K. destruct K; discriminate.
  - unfold kind_of in K. rewrite H1 in K. destruct K; discriminate.
  - unfold varkind in H0. destruct K as [K|K]; rewrite K in H0; destruct H0 as [X|[X|X]]; discriminate.
  - assert (Kt : kind_of T t = KProduct) by (unfold kind_of; now rewrite H0). unfold get_args in Ia. rewrite Kt, H0 in Ia. cbn in Ia.
    destruct Ia as [<-|[<-|[]]]; auto. apply H4.
  - assert (Kt : kind_of T t = KPoly) by (unfold kind_of; now rewrite H0). unfold get_args in Ia. rewrite Kt, H0 in Ia. cbn [dargs n_desc] in Ia.
    clear -H3 Ia. induction H3 as [|m x p ms R F IH]; [destruct Ia|]. destruct Ia as [<-|Ia]; auto. apply R.
Qed.
Lemma watched bv rv : forall n t v, real_t T t -> In v (vars_to_watch_f T bv rv n t) -> exists y r, v = VRat r /\ In (y, r) rv.
Proof.
  induction n as [|n IH]; intros t v R Iv; [destruct Iv|]. cbn [vars_to_watch_f] in Iv.
  assert (X : In v (match uf_var T bv rv t with Some v => [v] | None => [] end) -> exists y r, v = VRat r /\ In (y, r) rv).
  { unfold uf_var. rewrite (proj1 (proj2 R)). destruct (m_find rv t) as [w|] eqn:E; [|intros []]. intros [<-|[]]. exists t, w. split; auto. now apply m_find_in. }
  assert (Y : kind_of T t = KProduct \/ kind_of T t = KPoly -> In v (flat_map (vars_to_watch_f T bv rv n) (get_args T t)) -> exists y r, v = VRat r /\ In (y, r) rv).
  { intros K Ivv. apply in_flat_map in Ivv. destruct Ivv as (a & Ia & Iva). apply (IH a); auto. eapply real_args; eauto. }
  destruct (kind_of T t); auto; destruct Iv.
Qed.
Lemma UW_step o st u h t st' u' : J o st h -> UW o st u -> ~ In (tix t) (map tix o) -> typed T t -> (kind_of T t = KApp -> real_app T t) ->
  uv (st, u) t = Ok (st', u') -> UW (o ++ [t]) st' u' /\ exists h', J (o ++ [t]) st' h' /\ ext st h st' h'.
Proof.
  intros HJ (U1 & U2 & U3) NI TY RA E. apply uv_inv in E. destruct E as [E1 E2].
  destruct (step ndebug hi hv H T W True o st h t st' HJ NI TY E1) as (h' & HJ' & X). split; [|exists h'; split; auto].
  destruct X as (hn & bn & rn & cn & X1 & X2 & X3 & X4).
  assert (OLD : forall x, In x (u_watch u) -> snd x <> [] /\ (forall v, In v (snd x) -> exists y r, v = VRat r /\ In (y, r) (is_real st')) /\ exists r, In (fst x, r) (is_real st')).
  { intros x Ix. destruct (U3 x Ix) as (A & B & r & C). split; auto. split.
    - intros v Iv. destruct (B v Iv) as (y & s & D & F). exists y, s. split; auto. rewrite X3. apply in_app_iff; auto.
    - exists r. rewrite X3. apply in_app_iff; auto. }
  unfold UW. rewrite filter_app. cbn [filter]. destruct E2 as [[-> K]|(K & v & -> & V)].
  - split; auto. split; [|exact OLD]. destruct (kapp t) eqn:KT; [apply kapp_ok in KT; congruence|]. now rewrite app_nil_r.
  - rewrite (proj2 (kapp_ok t) K). cbn [u_watch u_fns]. split; auto. split; [rewrite map_app, U2; reflexivity|].
    destruct (RA K) as [Rt Ra]. specialize (V (proj1 (proj2 Rt))). subst v.
    unfold int_visit in E1. rewrite K, (proj1 (proj2 Rt)) in E1. cbn [make_real] in E1. apply put_real_ok in E1. destruct E1 as [_ E1].
    assert (ER : is_real st' = (t, is_nreal st) :: is_real st) by (rewrite E1; reflexivity).
    intros x Ix. apply in_app_iff in Ix. destruct Ix as [Ix|[<-|[]]]; [exact (OLD x Ix)|]. cbn [fst snd]. split; [discriminate|]. split.
    + intros w [<-|Iw]; [exists t, (is_nreal st); split; auto; rewrite ER; now left|]. apply in_flat_map in Iw. destruct Iw as (a & Ia & Iw).
      rewrite Forall_forall in Ra. destruct (watched _ _ _ a w (Ra a Ia) Iw) as (y & r & -> & Iy). exists y, r. split; auto. rewrite ER. now right.
    + exists (is_nreal st). rewrite ER. now left.
Qed.
Lemma UW_run : forall n o st u h st' u', J o st h -> UW o st u -> NoDup (map tix (o ++ n)) -> Forall (typed T) n ->
  (forall t, In t n -> kind_of T t = KApp -> real_app T t) -> run uv (st, u) n = Ok (st', u') -> UW (o ++ n) st' u'.
Proof.
  induction n as [|t n IH]; cbn [run]; intros o st u h st' u' HJ HU ND F RA E.
  - injection E as <- <-. now rewrite app_nil_r.
  - destruct (uv (st, u) t) as [[st1 u1]| |] eqn:E1; cbn [bind] in E; try discriminate. inversion F as [|? ? F1 F2]; subst.
    assert (NI : ~ In (tix t) (map tix o)).
    { rewrite map_app in ND. simpl in ND. apply NoDup_remove_2 in ND. intros X. apply ND. apply in_app_iff. auto. }
    destruct (UW_step o st u h t st1 u1 HJ HU NI F1 (RA t (or_introl eq_refl)) E1) as (HU1 & h1 & HJ1 & _).
    replace (o ++ t :: n) with ((o ++ [t]) ++ n) in * by (rewrite <- app_assoc; reflexivity).
    eapply IH; eauto. intros x Ix. apply RA. now right.
Qed.

(** real terms are evaluated without the Boolean variables *)
Lemma eval_nobool bv rv tr : forall n t, real_t T t -> evaluate_f T bv rv n tr t = evaluate_f T [] rv n tr t.
Proof.
  induction n as [|n IH]; intros t R; cbn [evaluate_f]; auto.
  assert (V : uf_var T bv rv t = uf_var T [] rv t) by (unfold uf_var; now rewrite (proj1 (proj2 R))). rewrite V.
  destruct (uf_var T [] rv t); auto. destruct (kind_of T t) eqn:K; auto.
  - pose proof (fun a => real_args t a R (or_introl K)) as RA. destruct (get_args T t) as [|a [|b l]]; auto. cbn [at_ nth_error bind].
    destruct (assertb (Terms_Model.is_real T t)); cbn [bind]; auto. unfold at_. cbn [nth_error value_of bind].
    rewrite !IH by (apply RA; cbn; auto). reflexivity.
  - pose proof (fun a => real_args t a R (or_intror K)) as RA. destruct (assertb (Terms_Model.is_real T t)); cbn [bind]; auto.
    generalize 0%Q, 0. revert RA. generalize (get_args T t). clear -IH. induction l as [|a l IHl]; cbn [sum_values]; intros RA q j; auto.
    rewrite IH by (apply RA; now left). destruct (evaluate_f T [] rv n tr a) as [[x m]| |]; cbn [bind]; auto.
    destruct (get_rat (fst (x, m))); cbn [bind]; auto. apply IHl. intros; apply RA; now right.
Qed.
Lemma args_nobool bv rv tr : forall l j, Forall (real_t T) l -> eval_args T bv rv tr l j = eval_args T [] rv tr l j.
Proof.
  induction l as [|a l IH]; cbn [eval_args]; intros j F; auto. inversion F as [|? ? F1 F2]; subst. unfold evaluate. rewrite eval_nobool by auto.
  destruct (evaluate_f T [] rv _ tr a) as [[x m]| |]; cbn [bind]; auto. rewrite IH; auto.
Qed.

(** ** the values of terms under the trail are their values in the interpretation *)
Section Values.
Variables (bv : list (term * lit)) (rv : list (term * nat)) (tr : trail) (I : interp) (o : list term).
Hypothesis CL : args_first T o.
Hypothesis RV : forall x v, In (x, v) rv -> In (tix x) (map tix o) -> (mval (t_qm tr) v == this (treal I T x))%Q.
Scheme denotes_i := Minimality for denotes Sort Prop
  with sums_i := Minimality for sums Sort Prop.
Lemma closed t a : In (tix t) (map tix o) -> In a (get_args T t) -> In (tix a) (map tix o).
Proof.
  intros It Ia. eapply first_closed; [exact CL|exact It|]. econstructor; [exact Ia|]. constructor.
Qed.
Lemma denotes_value : forall t x, denotes T bv rv tr t x -> real_t T t -> In (tix t) (map tix o) -> exists q, x = PR q /\ (q == this (treal I T t))%Q.
Proof.
  apply (denotes_i T bv rv tr (fun t x => real_t T t -> In (tix t) (map tix o) -> exists q, x = PR q /\ (q == this (treal I T t))%Q)
    (fun l s => (forall a, In a l -> real_t T a /\ In (tix a) (map tix o)) -> (s == this (fold_right Qcplus 0%Qc (map (treal I T) l)))%Q)).
  - intros t v _ Iv _ R It. exists (mval (t_qm tr) v). split; auto.
  - intros t l B _ _ R. exfalso. destruct R as (_ & R & _). congruence.
  - intros t q E R It. exists (this q). split; auto. unfold const_value in E. destruct (kind_of T t) eqn:K; try discriminate.
    destruct (n_desc (node_of T t)) eqn:D; try discriminate. injection E as ->. 
    unfold treal. rewrite (teval_node _ _ I t W (proj1 R) (proj2 (proj2 R))). unfold node_value. unfold kind_of in K. rewrite K, D. cbn. reflexivity.
  - intros R. exfalso. destruct R as (V & R & _). destruct (small_node _ _ true_term W V ltac:(simpl; lia)) as [[_ X]|[X _]]; [|discriminate]. unfold type_of in R. rewrite X in R. discriminate.
  - intros R. exfalso. destruct R as (V & R & _). destruct (small_node _ _ false_term W V ltac:(simpl; lia)) as [[_ X]|[X _]]; [|discriminate]. unfold type_of in R. rewrite X in R. discriminate.
  - intros t a b p q K EA _ IHa _ IHb R It. 
    destruct IHa as (p' & Ep & Vp); [eapply real_args; eauto; rewrite EA; cbn; auto|eapply closed; eauto; rewrite EA; cbn; auto|].
    destruct IHb as (q' & Eq' & Vq); [eapply real_args; eauto; rewrite EA; cbn; auto|eapply closed; eauto; rewrite EA; cbn; auto|].
    injection Ep as <-. injection Eq' as <-. exists (p * q)%Q. split; auto.
    unfold treal. rewrite (teval_node _ _ I t W (proj1 R) (proj2 (proj2 R))). unfold node_value. unfold get_args in EA. rewrite K in EA. unfold kind_of in K.
    unfold dargs in EA. rewrite K. destruct (n_desc (node_of T t)); try discriminate. rewrite EA. cbn [map as_r].
    fold (teval I T a). fold (teval I T b). fold (treal I T a). fold (treal I T b). rewrite this_mult, Vp, Vq. reflexivity.
  - intros t s K _ IH R It. exists s. split; auto. rewrite IH.
    2: { intros a Ia. split; [eapply real_args; eauto|eapply closed; eauto]. }
    unfold treal at 2. rewrite (teval_node _ _ I t W (proj1 R) (proj2 (proj2 R))). unfold node_value. unfold get_args. rewrite K. unfold kind_of in K. rewrite K.
    unfold dargs. destruct (n_desc (node_of T t)); cbn [map fold_right as_r]; reflexivity.
  - intros q E _. cbn. exact E.
  - intros a l p s q _ IHa _ IHl E F. cbn [map fold_right]. destruct (F a (or_introl eq_refl)) as [Ra Ia]. destruct (IHa Ra Ia) as (p' & Ep & Vp). injection Ep as <-.
    rewrite E, this_plus, Vp, (IHl (fun x Ix => F x (or_intror Ix))). reflexivity.
Qed.
End Values.

(** ** tables as interpretations *)
Definition entered (x : value) : uval := match x with VB b => PB b | VR q => PR (this q) end.
Definition tables (st : ist) (b : nat -> bool) (r : nat -> Q) (F : list (term * fmap)) : interp :=
  let i := read st b r in
  mkI (i_bool i) (i_real i)
    (fun f args => match fm_find (fns_get F (mkT f false)) (map entered args) with Some e => match fa_val e with PB x => x | PR _ => false end | None => false end)
    (fun f args => match fm_find (fns_get F (mkT f false)) (map entered args) with Some e => match fa_val e with PR q => Q2Qc q | PB _ => 0%Qc end | None => 0%Qc end).
Lemma entered_eqb x y : uval_eqb x (entered (shown y)) = uval_eqb x y.
Proof.
  destruct x as [b|q], y as [c|r]; cbn; auto. apply eq_true_iff_eq. rewrite !Qeq_bool_iff. cbn. rewrite Qred_correct. tauto.
Qed.
Lemma entered_find m : forall vs, fm_find m (map entered (map shown vs)) = fm_find m vs.
Proof.
  assert (X : forall k vs, vals_eqb k (map entered (map shown vs)) = vals_eqb k vs).
  { induction k as [|x k IH]; intros [|y vs]; cbn [map vals_eqb]; auto. now rewrite entered_eqb, IH. }
  intros vs. induction m as [|[k e] m IH]; cbn [fm_find]; auto. now rewrite X, IH.
Qed.
Lemma find_entry m vs e : fm_find m vs = Some e -> exists k, In (k, e) m /\ vals_eqb k vs = true.
Proof.
  induction m as [|[k x] m IH]; cbn [fm_find]; [discriminate|]. destruct (vals_eqb k vs) eqn:E.
  - intros [= ->]. exists k. split; auto. now left.
  - intros Ex. destruct (IH Ex) as (k' & A & B). exists k'. split; auto. now right.
Qed.
Lemma shown_eqb : forall k vs, vals_eqb k vs = true -> map shown k = map shown vs.
Proof.
  induction k as [|x k IH]; intros [|y vs] E; cbn [vals_eqb map] in *; try discriminate; auto. apply andb_true_iff in E. destruct E as [E1 E2].
  rewrite (IH _ E2). f_equal. destruct x as [b|q], y as [c|r]; cbn in *; try discriminate; [now apply Bool.eqb_prop in E1; subst|].
  apply Qeq_bool_iff in E1. f_equal. apply Qc_is_canon. cbn. now rewrite !Qred_correct.
Qed.
Lemma get_in F f m e : In e (fns_get F f) -> m = fns_get F f -> In (f, m) F.
Proof.
  unfold fns_get. intros Ie ->. destruct (m_find F f) as [m|] eqn:E; [|destruct Ie]. now apply m_find_in.
Qed.

Variable assertions : list term.
Hypothesis B : Forall (bool_t T) assertions.

(** ** the visit and its result *)
Record TU (st : ist) (u : uf) (o : list term) (st1 : ist) : Prop := {
  tu_run : run uv (is_new, uf_new) o = Ok (st1, u);
  tu_top : top_clauses st1 assertions = Ok st;
  tu_nd : NoDup (map tix o);
  tu_typed : Forall (fun t => typed T t /\ of_roots T assertions t) o;
  tu_first : args_first T o;
  tu_all : Forall (fun t => In (tix t) (map tix o)) assertions;
  tu_tr : exists p, translate ndebug hi hv T [] is_new assertions = Ok (Some (p, st)) }.
Lemma translate_uf_inv st u : translate_uf hi hv ndebug T assertions = Ok (Some (st, u)) -> exists o st1, TU st u o st1.
Proof.
  unfold translate_uf. destruct (existsb _ _) eqn:EX; [discriminate|].
  destruct (visited H T W assertions B) as (p0 & o & E & IV & ND & F & Q).
  rewrite (span_any uv T assertions [] [] p0 o) by exact E.
  destruct (run uv (is_new, uf_new) o) as [[st1 u1]| |] eqn:R; cbn [bind]; try discriminate.
  destruct (top_clauses st1 assertions) as [st2| |] eqn:TC; cbn [bind]; try discriminate. intros [= <- <-].
  exists o, st1. constructor; auto; [apply (v_first _ _ _ IV)|]. exists p0.
  unfold translate. rewrite EX, (span_any iv T assertions [] [] p0 o) by exact E. change (mkIs _ _ _ _ _ _) with is_new.
  rewrite (urun _ _ _ _ _ R). cbn [bind]. rewrite TC. reflexivity.
Qed.
Lemma translate_uf_none : translate_uf hi hv ndebug T assertions = Ok None -> translate ndebug hi hv T [] is_new assertions = Ok None.
Proof.
  unfold translate_uf, translate. destruct (existsb _ _); auto. destruct (visit_span _ _ _ _ _) as [[p [st1 u]]| |]; cbn [bind]; try discriminate.
  destruct (top_clauses _ _); cbn [bind]; discriminate.
Qed.
Lemma typed_of o : Forall (fun t => typed T t /\ of_roots T assertions t) o -> Forall (typed T) o.
Proof. intros F. eapply Forall_impl; [|exact F]. intros t X; apply X. Qed.

(** a prefix of the visit *)
Lemma prefix o1 o2 st1 : NoDup (map tix (o1 ++ o2)) -> Forall (typed T) (o1 ++ o2) -> run iv is_new (o1 ++ o2) = Ok st1 ->
  exists sa ha h, run iv is_new o1 = Ok sa /\ J o1 sa ha /\ J (o1 ++ o2) st1 h /\ ext sa ha st1 h.
Proof.
  intros ND F R. rewrite run_app in R. destruct (run iv is_new o1) as [sa| |] eqn:R1; cbn [bind] in R; try discriminate.
  apply Forall_app in F. destruct F as [F1 F2].
  assert (ND1 : NoDup (map tix ([] ++ o1))).
  { cbn. rewrite map_app in ND. clear -ND. induction (map tix o1) as [|x l IH]; [constructor|]. cbn in ND. inversion ND as [|? ? N1 N2]; subst. constructor; auto.
    intros X. apply N1. apply in_app_iff; auto. }
  destruct (run_J ndebug hi hv H T W True o1 [] is_new [] sa (J_new hi hv T True) ND1 F1 R1) as (ha & HA & _). cbn in HA.
  destruct (run_J ndebug hi hv H T W True o2 o1 sa ha st1 HA ND F2 R) as (h & HJ & X). exists sa, ha, h. auto.
Qed.

Hypothesis RF : real_functions T assertions.
Lemma root_app o t : Forall (fun t => typed T t /\ of_roots T assertions t) o -> In t o -> kind_of T t = KApp -> real_app T t.
Proof.
  intros F It K. rewrite Forall_forall in F. destruct (F t It) as [_ (root & Ir & Sr)]. apply (proj1 RF). split; auto. exists root. auto.
Qed.
Lemma tu_J st u o st1 : TU st u o st1 -> exists h, J o st1 h /\ UW o st1 u.
Proof.
  intros [R TC ND F AF _ _]. pose proof (urun _ _ _ _ _ R) as R1.
  destruct (run_J ndebug hi hv H T W True o [] is_new [] st1 (J_new hi hv T True) ND (typed_of o F) R1) as (h & HJ & _). exists h. split; auto.
  refine (UW_run o [] is_new uf_new [] st1 u (J_new hi hv T True) _ ND (typed_of o F) _ R).
  - split; [reflexivity|]. split; [reflexivity|]. intros x [].
  - intros t It K. eapply root_app; eauto.
Qed.
Lemma tu_same st u o st1 : TU st u o st1 -> is_bool st = is_bool st1 /\ is_real st = is_real st1 /\ is_nreal st = is_nreal st1 /\ is_store st = is_store st1 /\
  exists cs, is_cls st = is_cls st1 ++ cs.
Proof. intros X. destruct (top_ok _ _ _ (tu_top _ _ _ _ X)) as (cs & -> & _). cbn. eauto 6. Qed.
Lemma tu_maps st u o st1 : TU st u o st1 -> maps_ok T (is_real st).
Proof.
  intros X. destruct (tu_J _ _ _ _ X) as (h & HJ & _). destruct (tu_same _ _ _ _ X) as (_ & -> & _).
  split; [exact (j_rinj _ _ _ _ _ _ _ HJ)|]. intros t v It. destruct (j_rkey _ _ _ _ _ _ _ HJ t v It) as [_ [R K]]. split; auto.
Qed.
Lemma tu_watch st u o st1 nq : TU st u o st1 -> nq = is_nreal st -> Forall (wl_ok T (is_real st) nq) (u_watch u) /\ u_fns u = [] /\ nc_ok T (is_bool st) (is_real st) (map fst (u_watch u)) /\
  map fst (u_watch u) = filter kapp o.
Proof.
  intros X ->. pose proof (tu_maps _ _ _ _ X) as MO. destruct (tu_J _ _ _ _ X) as (h & HJ & U1 & U2 & U3). destruct (tu_same _ _ _ _ X) as (EB & ER & EN & _).
  assert (AP : forall t, In t (filter kapp o) -> In t o /\ kind_of T t = KApp).
  { intros t It. apply filter_In in It. destruct It as [It K]. split; auto. now apply kapp_ok. }
  split; [|split; [exact U1|split; [|exact U2]]].
  - apply Forall_forall. intros x Ix. destruct (U3 x Ix) as (A1 & A2 & r & A3). 
    assert (If : In (fst x) (filter kapp o)) by (rewrite <- U2; now apply in_map).
    destruct (AP _ If) as [Io K]. split; auto. split.
    + intros v Iv. destruct (A2 v Iv) as (y & s & -> & Iy). exists s. split; auto. rewrite EN. exact (j_rlt _ _ _ _ _ _ _ HJ y s Iy).
    + split; [apply (root_app o (fst x) (tu_typed _ _ _ _ X) Io K)|]. split; auto. rewrite ER. eapply in_find; eauto.
  - rewrite U2. intros t1 t2 f I1 I2 _ S1 S2. destruct (AP _ I1) as [J1 K1]. destruct (AP _ I2) as [J2 K2].
    destruct (root_app o t1 (tu_typed _ _ _ _ X) J1 K1) as [R1 A1]. destruct (root_app o t2 (tu_typed _ _ _ _ X) J2 K2) as [R2 A2].
    split; auto. split; auto.
    assert (AL : Forall2 (aligned T) (get_args T t1) (get_args T t2)).
    { pose proof (tu_typed _ _ _ _ X) as F. rewrite Forall_forall in F. destruct (F t1 J1) as [_ (r1 & Y1 & Z1)]. destruct (F t2 J2) as [_ (r2 & Y2 & Z2)].
      apply (proj2 RF t1 t2 f); auto; split; eauto. }
    revert A1 A2. induction AL as [|x y l1 l2 A AL IH]; intros A1 A2; [constructor|]. inversion A1; inversion A2; subst. constructor; auto.
    split; auto. split; auto. apply (aligned_nocancel H T _ _ W MO); auto.
Qed.

(** ** unsatisfiable *)
Lemma complete_all st u o st1 : TU st u o st1 -> forall I, satisfies I T assertions -> exists b r, solves st b r /\ Spec_Uf.reads T (is_real st) I r.
Proof.
  intros X I S. destruct (tu_J _ _ _ _ X) as (h & HJ & _). destruct (tu_same _ _ _ _ X) as (_ & ER & _).
  destruct (values_ok hi hv T True o st1 h I HJ) as (b & r & C & CK & BS & RS). exists b, r. split; [|intros t v It; rewrite ER in It; exact (RS t v It)].
  destruct (top_ok _ _ _ (tu_top _ _ _ _ X)) as (cs & -> & _ & E3). split; [exact C|]. cbn [is_cls]. apply Forall_app. split; [eapply j_cpl; eauto|].
  apply Forall_forall. intros c Ic. destruct (E3 c Ic) as (a & y & Ia & Iy & ->). unfold satisfies in S. rewrite Forall_forall in *.
  exists (if tneg a then neg y else y). split; [left; auto|]. apply (lit_sign H T W st1 I b a y BS (B a Ia) Iy); auto.
Qed.

(** ** satisfiable *)
Section Sat.
Context {TS HS : Type}.
Variables (st : ist) (u : uf) (o : list term) (st1 : ist) (X : TU st u o st1).
Variables (s : solver (TS := TS) (HS := HS)) (F : list (term * fmap)).
Let tr := s_trail s.
Let b := mval (t_bm tr).
Let r := mval (t_qm tr).
Hypothesis SOL : solves st b r.
Hypothesis AB : forall c l, In (c, l) (is_bool st) -> mdef (t_bm tr) (lord l) = true.
Hypothesis AR : forall c v, In (c, v) (is_real st) -> mdef (t_qm tr) v = true.
Hypothesis HT : Lra_Watch.TT tr.
Hypothesis TAB : tab_ok T (is_bool st) (is_real st) false (map fst (u_watch u)) tr F.
Hypothesis REC : forall tm, In tm (map fst (u_watch u)) -> exists j, recorded T (is_bool st) (is_real st) F tr tm j.
Let fm := map (fun e : term * fmap => (fst e, map (fun x : list uval * fapp => (fst x, fa_val (snd x))) (snd e))) F.

Lemma UN c : is_uninterp T c = true <-> kind_of T c = KUninterp.
Proof. unfold is_uninterp. destruct (kind_of T c); cbn; split; congruence. Qed.
Lemma plain_sign c l : In (c, l) (is_bool st) -> kind_of T c = KUninterp -> lneg l = false.
Proof.
  intros Ic Kc. destruct (tu_J _ _ _ _ X) as (h & HJ & _). destruct (tu_same _ _ _ _ X) as (EB & _). rewrite EB in Ic.
  apply (j_plain _ _ _ _ _ _ _ HJ c l Ic). unfold plain. auto.
Qed.
(** the shown constants *)
Lemma shown_bool I c l : Spec_Check.reads T (show_model T st s) I -> In (c, l) (is_bool st) -> kind_of T c = KUninterp -> (lit_holds b l <-> tholds I T c = true).
Proof.
  intros R Ic Kc. specialize (R c (inl (b (lord l)))). cbn iota in R. rewrite R.
  - unfold lit_holds. now rewrite (plain_sign c l Ic Kc).
  - apply in_app_iff. left. apply in_map_iff. exists (c, l). split; auto. apply filter_In. split; auto. cbn [fst snd]. fold tr.
    rewrite (AB c l Ic). rewrite (proj2 (UN c) Kc). reflexivity.
Qed.
Lemma shown_real I c v : Spec_Check.reads T (show_model T st s) I -> In (c, v) (is_real st) -> kind_of T c = KUninterp -> (r v == this (treal I T c))%Q.
Proof.
  intros R Ic Kc. specialize (R c (inr (r v))). cbn iota in R. symmetry. apply R.
  apply in_app_iff. right. apply in_map_iff. exists (c, v). split; auto. apply filter_In. split; auto. cbn [fst snd]. fold tr.
  rewrite (AR c v Ic). rewrite (proj2 (UN c) Kc). reflexivity.
Qed.
Lemma real_same x y : tix x = tix y -> tneg x = false -> tneg y = false -> x = y.
Proof. destruct x, y; cbn. congruence. Qed.
Lemma same_real x y : tix x = tix y -> typed T y -> real_t T x -> x = y /\ real_t T y.
Proof.
  intros E TY R. destruct (same_ix T x y E) as (_ & E2 & _). destruct TY as [[_ Y]|Y]; [destruct R as (_ & R & _); congruence|].
  split; auto. apply real_same; auto; [apply R|apply Y].
Qed.
Lemma entry_value I f vals e q : reads_functions fm I -> fm_find (fns_get F f) vals = Some e -> fa_val e = PR q -> (this (i_freal I (tix f) (map shown vals)) == q)%Q.
Proof.
  intros R E V. destruct (find_entry _ _ _ E) as (k & Ik & Ek). rewrite <- (shown_eqb _ _ Ek).
  specialize (R f (map (fun x => (fst x, fa_val (snd x))) (fns_get F f)) k (fa_val e)). rewrite V in R. apply R.
  - unfold fm. apply in_map_iff. exists (f, fns_get F f). split; auto. eapply get_in; eauto.
  - apply in_map_iff. exists (k, e). cbn. rewrite V. auto.
Qed.
Lemma symbol_pos t f : kind_of T t = KApp -> real_t T t -> fnc_symbol T t = Ok f -> f = mkT (tix f) false.
Proof.
  intros K (V & _) S. assert (L : 3 <= tix t) by (apply (big H T W); auto; congruence).
  destruct (node_wf _ _ t W L (proj2 V)) as [Wn _]. unfold fnc_symbol in S. rewrite K in S. unfold kind_of in K. unfold wf_node in Wn. rewrite K in Wn.
  destruct (n_desc (node_of T t)) as [|l|q|j]; try discriminate. destruct l as [|g args]; try discriminate. injection S as ->.
  destruct Wn as (_ & _ & N & _). destruct f; cbn in *; congruence.
Qed.

Lemma apps_agree I : Spec_Check.reads T (show_model T st s) I -> reads_functions fm I -> forall o1 o2, o = o1 ++ o2 ->
  forall x v, In (x, v) (is_real st) -> In (tix x) (map tix o1) -> kind_of T x = KApp -> (r v == this (treal I T x))%Q.
Proof.
  intros R1 R2. destruct (tu_J _ _ _ _ X) as (h0 & HJ0 & U1 & U2 & U3). destruct (tu_same _ _ _ _ X) as (EB & ER & EN & ES & cs & EC).
  pose proof (typed_of _ (tu_typed _ _ _ _ X)) as TY. pose proof (tu_nd _ _ _ _ X) as ND. pose proof (urun _ _ _ _ _ (tu_run _ _ _ _ X)) as RU.
  induction o1 as [|t o1 IH] using rev_ind; intros o2 Eo x v Ix It K; [destruct It|].
  rewrite <- app_assoc in Eo. cbn [app] in Eo. specialize (IH (t :: o2) Eo).
  rewrite map_app in It. apply in_app_iff in It. destruct It as [It|[Et|[]]]; [now apply (IH x v)|].
  assert (To : In t o) by (rewrite Eo; apply in_app_iff; right; now left).
  assert (RX : real_t T x). { rewrite ER in Ix. destruct (j_rkey _ _ _ _ _ _ _ HJ0 x v Ix) as [_ [RX _]]. exact RX. }
  destruct (same_real x t) as [-> _]; auto. { rewrite Forall_forall in TY. auto. }
  destruct (root_app o t (tu_typed _ _ _ _ X) To K) as [_ RA].
  (* the state before the application *)
  pose proof ND as ND'. pose proof TY as TY'. pose proof RU as RU'. rewrite Eo in ND', TY', RU'.
  destruct (prefix o1 (t :: o2) st1 ND' TY' RU') as (sa & ha & h & RS & HA & HJ & hn & bn & rn & cn & X1 & X2 & X3 & X4).
  assert (CK : cons_ok ha b r).
  { pose proof (consistent_ok _ h b r (j_hist _ _ _ _ _ _ _ HJ) (j_req _ _ _ _ _ _ _ HJ)) as CK. rewrite <- ES in CK. specialize (CK (proj1 SOL)). rewrite X1 in CK. now apply cons_ok_app in CK. }
  assert (FC : Forall (clause_holds b) (is_cls sa)).
  { pose proof (proj2 SOL) as Y. rewrite EC, X4 in Y. apply Forall_app in Y. destruct Y as [Y _]. apply Forall_app in Y. apply Y. }
  assert (AG : agrees T sa I b r).
  { split.
    - intros y l Iy U. assert (Iy' : In (y, l) (is_bool st)) by (rewrite EB, X2; apply in_app_iff; auto). destruct U as [U|U]; [now apply shown_bool|].
      exfalso. destruct (j_bkey _ _ _ _ _ _ _ HA y l Iy) as (Io & [_ BT] & _). apply in_map_iff in Io. destruct Io as (z & Ez & Iz).
      destruct (same_ix T z y Ez) as (K1 & K2 & _). assert (Kz : kind_of T z = KApp) by congruence.
      destruct (root_app o z (tu_typed _ _ _ _ X)) as [(_ & TZ & _) _]; auto; [rewrite Eo; apply in_app_iff; auto|]. congruence.
    - intros y w Iy U. assert (Iy' : In (y, w) (is_real st)) by (rewrite ER, X3; apply in_app_iff; auto). destruct U as [U|U]; [now apply shown_real|].
      apply (IH y w Iy'); auto. apply (j_rkey _ _ _ _ _ _ _ HA y w Iy). }
  destruct (j_snd _ _ _ _ _ _ _ HA Logic.I I b r CK FC AG) as [_ RSM].
  assert (RV : forall y w, In (y, w) (is_real st) -> In (tix y) (map tix o1) -> (mval (t_qm tr) w == this (treal I T y))%Q).
  { intros y w Iy Io. apply in_map_iff in Io. destruct Io as (z & Ez & Iz). pose proof Iy as Iy0. rewrite ER in Iy0.
    destruct (j_rkey _ _ _ _ _ _ _ HJ0 y w Iy0) as [_ VL].
    destruct (same_real y z (eq_sym Ez)) as [Eyz _]; [rewrite Forall_forall in TY'; apply TY', in_app_iff; auto|apply VL|]. subst z.
    destruct (j_dom _ _ _ _ _ _ _ HA y Iz) as [_ D]. destruct (D VL) as [w' Iw]. change (r w == this (treal I T y))%Q.
    assert (w' = w).
    { assert (Iw' : In (y, w') (is_real st1)) by (rewrite X3; apply in_app_iff; auto).
      pose proof (nodup_find _ _ _ (j_rnd _ _ _ _ _ _ _ HJ0) Iw') as F1. pose proof (nodup_find _ _ _ (j_rnd _ _ _ _ _ _ _ HJ0) Iy0) as F2. congruence. }
    subst w'. exact (RSM y w Iw). }
  assert (CL : args_first T o1).
  { intros b1 z l E a Ia. apply (tu_first _ _ _ _ X b1 z (l ++ t :: o2)); auto. rewrite Eo, E, <- app_assoc. reflexivity. }
  assert (Tw : In t (map fst (u_watch u))) by (rewrite U2; apply filter_In; split; auto; now apply kapp_ok).
  destruct (REC t Tw) as (j & vals & k1 & y & k2 & f & e & A1 & A2 & A3 & A4 & A5 & A6 & A7 & A8).
  assert (VL : varlike T t) by (split; auto; right; right; auto).
  destruct (ev_var T (is_bool st) (is_real st) _ tr t y k2 VL A2) as (v' & V1 & -> & _).
  assert (v' = v). { rewrite ER in V1, Ix. pose proof (nodup_find _ _ _ (j_rnd _ _ _ _ _ _ _ HJ0) Ix). congruence. } subst v'.
  destruct (fa_val e) as [bb|q] eqn:FV; cbn [uval_eqb] in A7; [discriminate|]. apply Qeq_bool_iff in A7.
  pose proof (entry_value I f vals e q R2 A6 FV) as EV.
  destruct (app_node H T W t f K A5) as (_ & _ & AN). rewrite (AN I (proj1 (proj2 RX)) (proj2 (proj2 RX))).
  assert (EM : map (teval I T) (get_args T t) = map shown vals).
  { rewrite args_nobool in A1 by exact RA. pose proof (args_denotes T [] (is_real st) (ex_intro _ H W) (fun t l (F : In (t, l) []) => match F with end) tr (tt_tl tr HT) _ _ _ _ A1) as DN.
    assert (IA : forall a, In a (get_args T t) -> In (tix a) (map tix o1)) by (intros a Ia; exact (tu_first _ _ _ _ X o1 t o2 Eo a Ia)).
    clear -DN RA IA RV CL W. induction DN as [|a q l vs D DN IH]; cbn [map]; auto. inversion RA as [|? ? R1 R2]; subst.
    destruct (denotes_value [] (is_real st) tr I o1 CL RV a q D R1 (IA a (or_introl eq_refl))) as (q' & -> & Q).
    rewrite IH by (auto; intros z Iz; apply IA; now right). f_equal. rewrite (real_value H T I a W R1). cbn [shown]. f_equal.
    apply Qc_is_canon. cbn. now rewrite Qred_correct, Q. }
  rewrite EM, EV, A7. reflexivity.
Qed.
Lemma model_satisfies I : Spec_Check.reads T (show_model T st s) I -> reads_functions fm I -> satisfies I T assertions.
Proof.
  intros R1 R2. destruct (tu_tr _ _ _ _ X) as [p TR]. apply (sound_main ndebug hi hv H T W assertions B p st TR I b r SOL).
  destruct (tu_J _ _ _ _ X) as (h0 & HJ0 & _). destruct (tu_same _ _ _ _ X) as (EB & ER & _). split.
  - intros y l Iy U. destruct U as [U|U]; [now apply shown_bool|]. exfalso. rewrite EB in Iy. destruct (j_bkey _ _ _ _ _ _ _ HJ0 y l Iy) as (Io & [_ BT] & _).
    apply in_map_iff in Io. destruct Io as (z & Ez & Iz). destruct (same_ix T z y Ez) as (K1 & K2 & _). assert (Kz : kind_of T z = KApp) by congruence.
    destruct (root_app o z (tu_typed _ _ _ _ X) Iz Kz) as [(_ & TZ & _) _]. congruence.
  - intros y w Iy U. destruct U as [U|U]; [now apply shown_real|]. apply (apps_agree I R1 R2 o [] (eq_sym (app_nil_r o)) y w Iy); auto.
    rewrite ER in Iy. apply (j_rkey _ _ _ _ _ _ _ HJ0 y w Iy).
Qed.
(** an interpretation with the shown values *)
Lemma model_exists : exists I, Spec_Check.reads T (show_model T st s) I /\ reads_functions fm I.
Proof.
  exists (tables st b r F). destruct (tu_J _ _ _ _ X) as (h0 & HJ & U1 & U2 & U3). destruct (tu_same _ _ _ _ X) as (EB & ER & _). split.
  - intros c x Ix. unfold show_model in Ix. fold tr in Ix. apply in_app_iff in Ix.
    destruct Ix as [Ix|Ix]; apply in_map_iff in Ix; destruct Ix as ([c' y] & [= -> <-] & Iy);
      apply filter_In in Iy; destruct Iy as [Iy U]; cbn [fst snd] in *; apply andb_true_iff in U; destruct U as [U _]; apply UN in U.
    + pose proof (plain_sign c y Iy U) as PS. pose proof Iy as It. rewrite EB in It. destruct (j_bkey _ _ _ _ _ _ _ HJ c y It) as (_ & Bt & SG).
      destruct SG as [SG|SG]; [congruence|]. assert (Et : c = mkT (tix c) false) by (destruct c; simpl in *; congruence).
      assert (Ep : pos c = c) by (destruct c; simpl in *; subst; reflexivity).
      rewrite <- Ep at 1. rewrite (tholds_node H T W _ c (proj1 Bt)). unfold node_value. unfold kind_of in U. rewrite U.
      destruct Bt as [_ Bt]. unfold type_of in Bt. rewrite Bt. cbn [as_b tables read i_bool]. rewrite <- Et, EB.
      rewrite (nodup_find _ _ _ (j_bnd _ _ _ _ _ _ _ HJ) It), PS. cbn [negb]. fold b. now destruct (b (lord y)).
    + pose proof Iy as It. rewrite ER in It. destruct (j_rkey _ _ _ _ _ _ _ HJ c y It) as (_ & (Vt & Rt & SG) & _).
      assert (Et : c = mkT (tix c) false) by (destruct c; simpl in *; congruence).
      unfold treal. rewrite (teval_node H T _ c W Vt SG). unfold node_value. unfold kind_of in U. rewrite U.
      unfold type_of in Rt. rewrite Rt. cbn [as_r tables read i_real]. rewrite <- Et, ER.
      rewrite (nodup_find _ _ _ (j_rnd _ _ _ _ _ _ _ HJ) It). cbn. apply Qred_correct.
  - intros f m args v Hf Ha. unfold fm in Hf. apply in_map_iff in Hf. destruct Hf as ([f' m'] & [= -> <-] & Hf). cbn [fst snd] in Ha.
    apply in_map_iff in Ha. destruct Ha as ([k e] & [= -> <-] & He). destruct (TAB f m' (args, e) Hf He) as (K & S & Iw & C).
    cbn [fst snd] in *. specialize (C (or_introl eq_refl)). destruct C as (k1 & k2 & C1 & C2 & _). cbn [fst snd] in *.
    assert (Rt : real_t T (fa_app e)). { apply (root_app o (fa_app e) (tu_typed _ _ _ _ X)); auto. rewrite U2 in Iw. apply filter_In in Iw. apply Iw. }
    assert (VL : varlike T (fa_app e)) by (split; auto; right; right; auto).
    destruct (ev_var T (is_bool st) (is_real st) _ tr _ _ k2 VL C2) as (v' & V1 & V2 & _).
    destruct (REC _ Iw) as (j & vals & j1 & y & j2 & f' & e0 & A1 & A2 & A3 & A4 & A5 & A6 & A7 & A8).
    rewrite C1 in A1. injection A1 as <- <-. rewrite C2 in A2. injection A2 as <- <-. rewrite S in A5. injection A5 as <-.
    rewrite V2 in *. cbn [tables i_freal]. rewrite <- (symbol_pos _ _ K Rt S), entered_find, A6.
    destruct (fa_val e0) as [bb|q0]; cbn [uval_eqb] in A7; [discriminate|]. apply Qeq_bool_iff in A7. cbn. rewrite Qred_correct. exact A7.
Qed.
Lemma model_complete c : occurs T assertions c -> exists v, In (c, v) (show_model T st s).
Proof.
  intros (Kc & Nc & root & y & Ir & Sy & Ey). destruct (tu_J _ _ _ _ X) as (h0 & HJ & _). destruct (tu_same _ _ _ _ X) as (EB & ER & _).
  assert (Iy : In (tix y) (map tix o)).
  { eapply first_closed; [apply (tu_first _ _ _ _ X)| |exact Sy]. pose proof (tu_all _ _ _ _ X) as Q0. rewrite Forall_forall in Q0. auto. }
  apply in_map_iff in Iy. destruct Iy as (z & Ez & Iz). pose proof (typed_of _ (tu_typed _ _ _ _ X)) as TY. rewrite Forall_forall in TY. pose proof (TY z Iz) as TYz.
  assert (Ezc : pos z = c) by (subst c; destruct z, y; cbn in *; unfold pos; cbn; congruence).
  assert (Kz : kind_of T z = KUninterp) by (rewrite <- Ezc in Kc; exact Kc).
  destruct (j_dom _ _ _ _ _ _ _ HJ z Iz) as [D1 D2]. unfold show_model. fold tr. destruct TYz as [Bz|Rz].
  - assert (N1 : tix z <> 1).
    { intros E1. unfold kind_of, node_of in Kz. destruct (wf_prim _ _ W) as [l0 E0]. rewrite E1, E0 in Kz. discriminate. }
    destruct (D1 Bz N1) as [l Il]. assert (Kk : key T z = pos z) by (apply key_pos; congruence). rewrite Kk, Ezc, <- EB in Il.
    exists (inl (b (lord l))). apply in_app_iff. left. apply in_map_iff. exists (c, l). split; auto. apply filter_In. split; auto. cbn [fst snd].
    rewrite (AB c l Il). rewrite (proj2 (UN c) Kc). reflexivity.
  - assert (Ez' : z = c) by (rewrite <- Ezc; destruct Rz as (_ & _ & N); destruct z; cbn in *; subst; reflexivity).
    destruct (D2 (conj Rz (or_introl Kz))) as [v Iv]. rewrite Ez', <- ER in Iv.
    exists (inr (r v)). apply in_app_iff. right. apply in_map_iff. exists (c, v). split; auto. apply filter_In. split; auto. cbn [fst snd].
    rewrite (AR c v Iv). rewrite (proj2 (UN c) Kc). reflexivity.
Qed.
End Sat.
(** ** answers *)
Section Answer.
Context {HS : Type}.
Variables (he : heur HS) (hash : lit -> N) (df fuel : nat) (o : phase_opt) (hs : db -> trail -> HS).
Hypothesis HU : o_unassigned opt = false.
Hypothesis OK : uf_order_ok hi hv opt ndebug he hash df o hs T assertions.

Lemma ucheck_unsat x : check_assertions_uf hi hv opt ndebug T he hash df fuel o hs assertions = Ok (Unsat, x) ->
  forall I, ~ satisfies I T assertions.
Proof.
  unfold check_assertions_uf. intros E I S. destruct (translate_uf hi hv ndebug T assertions) as [[[st u]|]| |] eqn:TR; cbn [bind] in E; try discriminate.
  - destruct (translate_uf_inv st u TR) as (o1 & st1 & X). destruct (tu_tr _ _ _ _ X) as [p TR0].
    destruct (translated hi hv opt ndebug H T W assertions B p st TR0) as (a & t & o0 & h & RP & Y). rewrite RP in E. cbn [bind] in E.
    destruct (check_uflra _ _ _ _ _ _ _ _ _ _ _ _ _ _ _ _) as [[s ans]| |] eqn:CL; cbn [bind] in E; try discriminate. injection E as -> <-.
    destruct (OK st u a t TR RP) as [P1 P2].
    destruct (tu_watch _ _ _ _ _ X (tr_nq _ _ _ _ _ _ _ _ _ _ Y)) as (HW & HF0 & NC & _).
    apply (uunsat_answer hi hv opt HU H T (is_bool st) (is_real st) W (tu_maps _ _ _ _ X) he hash df (lits_of h) a u t (is_cls st) o (hs (mkDb (is_cls st) []) t)
      NC (tr_pb _ _ _ _ _ _ _ _ _ _ Y) (clauses_ok hi hv opt T assertions st a t o0 h Y) HW HF0 P1 fuel s CL).
    destruct (complete_all _ _ _ _ X I S) as (b & r & SV & RD). exists I, b, r. split; auto. now apply (solves_solution hi hv opt T assertions st a t o0 h).
  - exact (none_main ndebug hi hv H T W assertions B (translate_uf_none TR) I S).
Qed.
Lemma ucheck_sat x : check_assertions_uf hi hv opt ndebug T he hash df fuel o hs assertions = Ok (Sat, x) ->
  exists st s, x = Some (st, s) /\
    (exists I, Spec_Check.reads T (show_model T st s) I /\ reads_functions (show_functions s) I) /\
    (forall I, Spec_Check.reads T (show_model T st s) I -> reads_functions (show_functions s) I -> satisfies I T assertions) /\
    (forall c, occurs T assertions c -> exists v, In (c, v) (show_model T st s)).
Proof.
  unfold check_assertions_uf. intros E. destruct (translate_uf hi hv ndebug T assertions) as [[[st u]|]| |] eqn:TR; cbn [bind] in E; try discriminate.
  destruct (translate_uf_inv st u TR) as (o1 & st1 & X). destruct (tu_tr _ _ _ _ X) as [p TR0].
  destruct (translated hi hv opt ndebug H T W assertions B p st TR0) as (a & t & o0 & h & RP & Y). rewrite RP in E. cbn [bind] in E.
  destruct (check_uflra _ _ _ _ _ _ _ _ _ _ _ _ _ _ _ _) as [[s ans]| |] eqn:CL; cbn [bind] in E; try discriminate. injection E as -> <-.
  destruct (OK st u a t TR RP) as [P1 P2].
  destruct (tu_watch _ _ _ _ _ X (tr_nq _ _ _ _ _ _ _ _ _ _ Y)) as (HW & HF0 & NC & _).
  destruct (usat_answer hi hv opt HU H T (is_bool st) (is_real st) W (tu_maps _ _ _ _ X) he hash df (lits_of h) a u t (is_cls st) o (hs (mkDb (is_cls st) []) t)
      NC (tr_pb _ _ _ _ _ _ _ _ _ _ Y) (clauses_ok hi hv opt T assertions st a t o0 h Y) HW HF0 P1 fuel s P2 CL) as (SOL & AS & HT & TAB & REC).
  apply (solves_solution hi hv opt T assertions st a t o0 h _ _ Y) in SOL.
  assert (AB : forall c l, In (c, l) (is_bool st) -> mdef (t_bm (s_trail s)) (lord l) = true).
  { intros c l Ic. apply (AS (VBool (lord l))). cbn. apply Nat.ltb_lt. rewrite (tr_nb _ _ _ _ _ _ _ _ _ _ Y). exact (k_bool _ (tr_k _ _ _ _ _ _ _ _ _ _ Y) _ _ Ic). }
  assert (AR : forall c v, In (c, v) (is_real st) -> mdef (t_qm (s_trail s)) v = true).
  { intros c v Ic. apply (AS (VRat v)). cbn. apply Nat.ltb_lt. rewrite (tr_nq _ _ _ _ _ _ _ _ _ _ Y). exact (tr_real _ _ _ _ _ _ _ _ _ _ Y _ _ Ic). }
  exists st, s. split; auto. split; [|split].
  - exact (model_exists st u o1 st1 X s _ TAB REC).
  - intros I. exact (model_satisfies st u o1 st1 X s _ SOL AB AR HT REC I).
  - exact (model_complete st u o1 st1 X s AB AR).
Qed.
End Answer.
End U.
