(** Proofs for C47, C48: the whole translation. *)
From Coq Require Import List Arith ZArith QArith Qcanon Bool Lia Lqa Permutation.
From Verif Require Import Base Core_Model Lincons_Model Spec_Lincons Lincons_Proofs Lincons_Proofs2
  Terms_Model Spec_Terms Terms_Proofs TermMgr_Model Spec_TermMgr TermMgr_Base TermMgr_Arith TermMgr_Term TermMgr_Main
  Visitor_Model Spec_Visitor Visitor_Proofs Rewriter_Proofs Internalizer_Model Spec_Internalizer Internalizer_Proofs Internalizer_Step.
Import ListNotations.
Close Scope Qc_scope.
Close Scope Q_scope.
Open Scope nat_scope.

Lemma args_typed H T t a : wf H T -> valid T t -> In a (get_args T t) -> typed T a.
Proof.
  intros W V I. pose proof (in_dargs _ _ _ I) as D.
  destruct (le_lt_dec 3 (tix t)) as [L|L].
  - destruct (node_wf _ _ _ W L (proj2 V)) as [N _]. revert N I D. unfold wf_node, dargs, get_args, kind_of.
    destruct (n_kind (node_of T t)) eqn:K, (n_desc (node_of T t)) as [|l| |] eqn:E; simpl; try tauto; intros N I D.
    + destruct l as [|c [|u [|w [|]]]]; try tauto. destruct N as (_ & N1 & _ & _ & N2 & N3). unfold typed.
      simpl in D. destruct D as [<-|[<-|[<-|[]]]]; auto.
    + unfold dargs in I. rewrite E in I. destruct l as [|f l]; try tauto. destruct N as (_ & _ & _ & _ & F). simpl in I. rewrite Forall_forall in F. auto.
    + destruct N as (_ & _ & F). rewrite Forall_forall in F. left. now apply F.
    + destruct l as [|c [|]]; try tauto. destruct N as (_ & N & _). destruct D as [<-|[]]. right; auto.
    + destruct l as [|c [|]]; try tauto. destruct N as (_ & N & _). destruct D as [<-|[]]. right; auto.
    + destruct l as [|c [|u [|]]]; try tauto. destruct N as (_ & N1 & N2 & _). right. destruct D as [<-|[<-|[]]].
      * apply N1.
      * destruct N2 as [N2|[N2 _]]; auto. apply N2.
    + destruct l as [|c [|u [|]]]; try tauto. destruct N as (_ & N1 & _ & N2). right. destruct D as [<-|[<-|[]]]; auto. apply N2.
    + destruct N as (_ & _ & p & _ & F). right. clear - F D. induction F; destruct D; subst; auto. apply H.
  - exfalso. destruct (small_node _ _ _ W V L) as [[_ E]|[_ E]]; unfold dargs in D; rewrite E in D; simpl in D; tauto.
Qed.

Section Main.
Variable ndebug : bool.
Variable hi : nat -> Z.
Variable hv : Q -> Z.
Variable H : hashes.
Variable T : table.
Hypothesis W : wf H T.
Variable assertions : list term.
Hypothesis B : Forall (bool_t T) assertions.

(** what is visited *)
Lemma visited : exists p order, visit_span record T [] [] assertions = Ok (p, order) /\ vinv T p order /\
  NoDup (map tix order) /\ Forall (fun t => typed T t /\ of_roots T assertions t) order /\
  Forall (fun t => In (tix t) (map tix order)) assertions.
Proof.
  destruct (span_ok T (wf_acyclic _ _ W) (fun t => of_roots T assertions t /\ typed T t)) with (roots := assertions) (p := @nil nat) (o := @nil term)
    as (p & o & E & IV & Fp & (n & En & Fn) & Q).
  - intros t a [(root & Ir & St) TY] Ia. split.
    + exists root. split; auto. eapply subterm_trans; [|exact St]. econstructor; eauto. constructor.
    + eapply args_typed; eauto. destruct TY as [[V _]|[V _]]; auto.
  - rewrite Forall_forall in *. intros t It. specialize (B t It). split; [|apply B]. split; [|left; auto].
    exists t. split; auto. constructor.
  - constructor.
  - apply vinv_nil.
  - simpl in En. subst n. exists p, o. split; auto. split; auto.
    split. { rewrite <- (rev_involutive (map tix o)), <- (v_eq _ _ _ IV). apply NoDup_rev. apply IV. }
    split. { eapply Forall_impl; [|exact Fn]. intros t [X1 X2]. split; auto. }
    rewrite (v_eq _ _ _ IV) in Q. eapply Forall_impl; [|exact Q]. intros t It. now apply in_rev.
Qed.

Lemma top_ok : forall l st st', top_clauses st l = Ok st' ->
  exists cs, st' = mkIs (is_store st) (is_nreal st) (is_bool st) (is_real st) (is_cls st ++ cs) (is_calls st) /\
    (forall a, In a l -> a = true_term \/ exists y, In (pos a, y) (is_bool st) /\ In [if tneg a then neg y else y] cs) /\
    (forall c, In c cs -> exists a y, In a l /\ In (pos a, y) (is_bool st) /\ c = [if tneg a then neg y else y]).
Proof.
  induction l as [|a l IH]; simpl; intros st st' E.
  - injection E as <-. exists []. rewrite app_nil_r. split; [now destruct st|]. split; intros; contradiction.
  - destruct (t_eqb a true_term) eqn:Et.
    + destruct (IH _ _ E) as (cs & E1 & E2 & E3). exists cs. split; auto. split.
      * intros x [<-|Ix]; auto. left. now apply t_eqb_eq.
      * intros c Ic. destruct (E3 c Ic) as (x & y & Ix & R). eauto 6.
    + unfold arg_lit in E. destruct (m_find (is_bool st) (pos a)) as [y|] eqn:M; cbn [value_of bind] in E; try discriminate.
      apply m_find_in in M. destruct (IH _ _ E) as (cs & E1 & E2 & E3). cbn [add_clause is_store is_nreal is_bool is_real is_cls is_calls] in *.
      exists ([if tneg a then neg y else y] :: cs). split; [rewrite E1; now rewrite <- app_assoc|]. split.
      * intros x [<-|Ix]; [right; exists y; split; auto; left; auto|].
        destruct (E2 x Ix) as [?|(z & ? & ?)]; auto. right. exists z. split; auto. right; auto.
      * intros c [<-|Ic]; [eauto 6|]. destruct (E3 c Ic) as (x & z & Ix & R). eauto 6.
Qed.

Lemma translate_inv p st : translate ndebug hi hv T [] is_new assertions = Ok (Some (p, st)) ->
  exists o st1 h, J hi hv T True o st1 h /\ top_clauses st1 assertions = Ok st /\
    Forall (fun t => typed T t /\ of_roots T assertions t) o.
Proof.
  unfold translate. destruct (existsb _ _); [discriminate|].
  destruct visited as (p0 & o & E & IV & ND & F & _).
  rewrite (span_any (int_visit ndebug hi hv T) T assertions [] [] p0 o) by exact E.
  change (mkIs _ _ _ _ _ _) with is_new.
  destruct (run (int_visit ndebug hi hv T) is_new o) as [st1| |] eqn:R; cbn [bind]; try discriminate.
  destruct (top_clauses st1 assertions) as [st2| |] eqn:TC; cbn [bind]; try discriminate. intros [= <- <-].
  destruct (run_J ndebug hi hv H T W True o [] is_new [] st1 (J_new hi hv T True) ND) as [h [HJ _]]; auto.
  { eapply Forall_impl; [|exact F]. intros t Ht; apply Ht. }
  exists o, st1, h. auto.
Qed.

Lemma lit_sign st I b a y : bsem T st I b -> bool_t T a -> In (pos a, y) (is_bool st) ->
  (lit_holds b (if tneg a then neg y else y) <-> tholds I T a = true).
Proof.
  intros BS Ba Iy. pose proof (BS _ _ Iy) as Y. rewrite (tholds_sign H T W I a Ba).
  destruct (tneg a); auto. rewrite lit_neg, Y. destruct (tholds I T (pos a)); simpl; intuition congruence.
Qed.
Lemma true_holds I : tholds I T true_term = true.
Proof. unfold tholds. now rewrite (proj1 (prim_teval _ _ I W)). Qed.

Lemma sound_main p st : translate ndebug hi hv T [] is_new assertions = Ok (Some (p, st)) ->
  forall I b r, solves st b r -> agrees T st I b r -> satisfies I T assertions.
Proof.
  intros E I b r [C F] A. destruct (translate_inv p st E) as (o & st1 & h & HJ & TC & _).
  destruct (top_ok _ _ _ TC) as (cs & -> & E2 & _). cbn [is_store is_cls] in *.
  pose proof (consistent_ok _ h b r (j_hist _ _ _ _ _ _ _ HJ) (j_req _ _ _ _ _ _ _ HJ) C) as CK.
  apply Forall_app in F. destruct F as [F1 F2].
  destruct (j_snd _ _ _ _ _ _ _ HJ Logic.I I b r CK F1 A) as [BS _].
  unfold satisfies. rewrite Forall_forall in *. intros a Ia. destruct (E2 a Ia) as [->|(y & Iy & Ic)]; [apply true_holds|].
  apply (lit_sign st1 I b a y BS (B a Ia) Iy). destruct (F2 _ Ic) as (x & [<-|[]] & Hx). exact Hx.
Qed.

(** A rational assignment and a Boolean one with the values of the terms *)
Definition rval (st : ist) (I : interp) (v : nat) : Q :=
  match find (fun e => snd e =? v) (is_real st) with Some (x, _) => this (treal I T x) | None => 0%Q end.
Definition plainb (t : term) : bool := match kind_of T t with KOr | KUninterp | KApp => true | _ => false end.
Definition bval (st : ist) (I : interp) (r : nat -> Q) (v : nat) : bool :=
  let s := is_store st in
  if lc_empty (lc_get s v) then
    match find (fun e => (lord (snd e) =? v) && plainb (fst e)) (is_bool st) with Some (x, _) => tholds I T x | None => false end
  else pred_eval (lc_pred (lc_get s v)) (Spec_Lincons.lin r (lc_terms s (lc_get s v))) (lc_rhs (lc_get s v)).
Lemma plainb_spec t : plainb t = true <-> plain T t.
Proof. unfold plainb, plain. destruct (kind_of T t); intuition congruence. Qed.

Lemma values_ok full o st h I : J hi hv T full o st h -> exists b r, consistent (is_store st) b r /\ cons_ok h b r /\ bsem T st I b /\ rsemv T st I r.
Proof.
  intros HJ. set (r := rval st I). set (b := bval st I r).
  assert (RS : rsemv T st I r).
  { intros t v It. unfold r, rval. destruct (find _ _) as [[x w]|] eqn:Fd.
    - apply find_some in Fd. destruct Fd as [Ix Ew]. simpl in Ew. apply Nat.eqb_eq in Ew. subst w.
      rewrite (nodup_inj _ _ _ _ (j_rinj _ _ _ _ _ _ _ HJ) Ix It). reflexivity.
    - exfalso. pose proof (List.find_none _ _ Fd _ It) as X. simpl in X. rewrite Nat.eqb_refl in X. discriminate. }
  assert (C : consistent (is_store st) b r).
  { intros v Ev. unfold b, bval. rewrite Ev. unfold stored_holds. apply pred_eval_rel. }
  pose proof (consistent_ok _ h b r (j_hist _ _ _ _ _ _ _ HJ) (j_req _ _ _ _ _ _ _ HJ) C) as CK.
  exists b, r. split; auto. split; auto. split; auto.
  intros t l It. destruct (plainb t) eqn:PB.
  - pose proof PB as PP. apply plainb_spec in PP.
    destruct (j_plain _ _ _ _ _ _ _ HJ t l It PP) as (S1 & _ & S3).
    unfold lit_holds. rewrite S1. simpl. unfold b, bval. rewrite S3.
    destruct (find _ _) as [[x w]|] eqn:Fd.
    + apply find_some in Fd. destruct Fd as [Ix Ew]. simpl in Ew. apply andb_true_iff in Ew. destruct Ew as [Ew Px].
      apply Nat.eqb_eq in Ew. apply plainb_spec in Px. rewrite (j_pinj _ _ _ _ _ _ _ HJ x w t l Ix It Px PP Ew). tauto.
    + exfalso. pose proof (List.find_none _ _ Fd _ It) as X. simpl in X. rewrite Nat.eqb_refl, PB in X. discriminate.
  - apply (j_atom _ _ _ _ _ _ _ HJ t l It) with (r := r); auto. intros PP. apply plainb_spec in PP. congruence.
Qed.

Lemma complete_main p st : translate ndebug hi hv T [] is_new assertions = Ok (Some (p, st)) ->
  forall I, satisfies I T assertions -> exists b r, solves st b r /\ agrees T st I b r.
Proof.
  intros E I S. destruct (translate_inv p st E) as (o & st1 & h & HJ & TC & _).
  destruct (top_ok _ _ _ TC) as (cs & -> & _ & E3).
  destruct (values_ok True o st1 h I HJ) as (b & r & C & CK & BS & RS).
  exists b, r. split; [split|split].
  - exact C.
  - cbn [is_cls]. apply Forall_app. split; [eapply j_cpl; eauto|].
    apply Forall_forall. intros c Ic. destruct (E3 c Ic) as (a & y & Ia & Iy & ->). unfold satisfies in S. rewrite Forall_forall in *.
    exists (if tneg a then neg y else y). split; [left; auto|]. apply (lit_sign st1 I b a y BS (B a Ia) Iy); auto.
  - intros t l It _. apply BS. exact It.
  - intros t v It _. apply RS. exact It.
Qed.

Lemma sh_root t : supported ndebug T assertions -> ~ In false_term assertions -> of_roots T assertions t -> sh ndebug T t.
Proof.
  intros SU NF (root & Ir & St). destruct (SU t root Ir St) as (S1 & S2 & _). split; auto. split; auto.
  intros K.
  assert (V : valid T t). { eapply sub_valid; eauto. rewrite Forall_forall in B. apply (B root Ir). }
  assert (tix t = 1).
  { destruct (le_lt_dec 3 (tix t)) as [L|L].
    - destruct (node_wf _ _ _ W L (proj2 V)) as [N _]. unfold wf_node, kind_of in *. rewrite K in N. destruct (n_desc (node_of T t)); tauto.
    - destruct (small_node _ _ _ W V L) as [[? _]|[_ X]]; auto. unfold kind_of in K. rewrite X in K. discriminate. }
  destruct t as [i m]. simpl in *. subst i. destruct m; auto. exfalso.
  assert (X : forall x y, subterm T x y -> x = false_term -> y = false_term \/ exists z, subterm T z y /\ In false_term (get_args T z)).
  { induction 1 as [|x a y Ia Sx IH]; auto. intros Ex. destruct (IH Ex) as [->|(z & Sz & Iz)].
    - right. exists y. split; auto. constructor.
    - right. exists z. split; auto. econstructor; eauto. }
  destruct (X _ _ St eq_refl) as [->|(z & Sz & Iz)]; auto.
  destruct (SU z root Ir Sz) as (_ & _ & S3). exact (S3 _ Iz eq_refl).
Qed.

Lemma total_main : supported ndebug T assertions -> exists x, translate ndebug hi hv T [] is_new assertions = Ok x.
Proof.
  intros SU. unfold translate. destruct (existsb (fun t => t_eqb t false_term) assertions) eqn:EF; eauto.
  assert (NF : ~ In false_term assertions).
  { intros X. rewrite <- not_true_iff_false in EF. apply EF. apply existsb_exists. exists false_term. split; auto. }
  destruct visited as (p0 & o & E & IV & ND & F & Q).
  rewrite (span_any (int_visit ndebug hi hv T) T assertions [] [] p0 o) by exact E.
  change (mkIs _ _ _ _ _ _) with is_new.
  assert (FT : Forall (typed T) o) by (eapply Forall_impl; [|exact F]; intros t Ht; apply Ht).
  assert (FS : Forall (sh ndebug T) o) by (eapply Forall_impl; [|exact F]; intros t Ht; apply sh_root; auto; apply Ht).
  destruct (run_tot ndebug hi hv H T W True o [] is_new [] (J_new hi hv T True) ND FT FS) as [st1 R].
  - intros u a Iu Ia. apply sh_root; auto. rewrite Forall_forall in F. destruct (F u Iu) as [_ (root & Ir & Sr)].
    exists root. split; auto. eapply subterm_trans; [|exact Sr]. econstructor; eauto. constructor.
  - apply IV.
  - destruct (run_J ndebug hi hv H T W True o [] is_new [] st1 (J_new hi hv T True) ND FT R) as [h [HJ _]]. simpl in HJ. rewrite R. cbn [bind].
    assert (TOP : forall l st2, is_bool st2 = is_bool st1 -> (forall a, In a l -> In a assertions) -> exists st3, top_clauses st2 l = Ok st3).
    { induction l as [|a l IH]; simpl; intros st2 E2 Sub; eauto. destruct (t_eqb a true_term) eqn:Et; [apply IH; auto|].
      assert (Ia : In a assertions) by (apply Sub; auto).
      rewrite Forall_forall in Q. pose proof (Q a Ia) as Sa. pose proof (proj1 (Forall_forall _ _) B a Ia) as Ba.
      destruct (find_bool ndebug hi hv T True o st1 h a HJ FS Sa Ba) as [y Y].
      - intros X. apply t_eqb_neq in Et. destruct a as [i m]; simpl in *; subst i. destruct m; [contradiction|apply Et; reflexivity].
      - apply sh_root; auto. exists a. split; auto. constructor.
      - unfold arg_lit. rewrite E2, Y. cbn [value_of bind]. apply IH; auto. }
    destruct (TOP assertions st1 eq_refl (fun a x => x)) as [st2 ->]. cbn [bind]. eauto.
Qed.

Lemma none_main : translate ndebug hi hv T [] is_new assertions = Ok None -> forall I, ~ satisfies I T assertions.
Proof.
  unfold translate. destruct (existsb (fun t => t_eqb t false_term) assertions) eqn:EF.
  - intros _ I S. apply existsb_exists in EF. destruct EF as (a & Ia & Ea). apply t_eqb_eq in Ea. subst a.
    unfold satisfies in S. rewrite Forall_forall in S. specialize (S _ Ia). change false_term with (opp true_term) in S.
    rewrite (tholds_opp H T I true_term W) in S; [rewrite true_holds in S; discriminate|].
    rewrite Forall_forall in B. exact (B _ Ia).
  - destruct (visit_span _ _ _ _ _) as [[a b]| |]; cbn [bind]; try discriminate.
    destruct (top_clauses _ _); cbn [bind]; discriminate.
Qed.

(** the assignment read back by the user *)
Definition read (st : ist) (b : nat -> bool) (r : nat -> Q) : interp :=
  mkI (fun i => match m_find (is_bool st) (mkT i false) with Some l => Bool.eqb (b (lord l)) (negb (lneg l)) | None => false end)
      (fun i => match m_find (is_real st) (mkT i false) with Some v => Q2Qc (r v) | None => 0%Qc end)
      (fun _ _ => false) (fun _ _ => 0%Qc).
Lemma nodup_find {A} (m : list (term * A)) t x : NoDup (map fst m) -> In (t, x) m -> m_find m t = Some x.
Proof.
  induction m as [|[a y] m IH]; simpl; intros ND Ix; [destruct Ix|]. inversion ND as [|? ? N1 N2]; subst.
  destruct Ix as [Ix|Ix].
  - injection Ix as -> ->. now rewrite t_eqb_refl.
  - destruct (t_eqb a t) eqn:E; auto. apply t_eqb_eq in E. subst. exfalso. apply N1. apply in_map_iff. exists (t, x). auto.
Qed.
Lemma read_agrees p st : no_apps T assertions -> translate ndebug hi hv T [] is_new assertions = Ok (Some (p, st)) ->
  forall b r, agrees T st (read st b r) b r.
Proof.
  intros NA E b r. destruct (translate_inv p st E) as (o & st1 & h & HJ & TC & F).
  destruct (top_ok _ _ _ TC) as (cs & -> & _). cbn [is_bool is_real] in *.
  assert (NK : forall t, In (tix t) (map tix o) -> kind_of T t <> KApp).
  { intros t It. apply in_map_iff in It. destruct It as (u & Eu & Iu). rewrite Forall_forall in F. destruct (F u Iu) as [_ (root & Ir & Sr)].
    unfold kind_of, node_of. rewrite <- Eu. apply (NA u root Ir Sr). }
  split; cbn [is_bool is_real].
  - intros t l It U. destruct (j_bkey _ _ _ _ _ _ _ HJ t l It) as (Ix & Bt & SG). pose proof (NK t Ix) as NKt.
    destruct U as [U|U]; [|congruence]. destruct SG as [SG|SG]; [congruence|].
    assert (Et : t = mkT (tix t) false) by (destruct t; simpl in *; congruence).
    assert (Ep : pos t = t) by (destruct t; simpl in *; subst; reflexivity).
    rewrite <- Ep at 1. rewrite (tholds_node H T W _ t (proj1 Bt)). unfold node_value. unfold kind_of in U. rewrite U.
    destruct Bt as [_ Bt]. unfold type_of in Bt. rewrite Bt. cbn [as_b read i_bool is_bool]. rewrite <- Et.
    rewrite (nodup_find _ _ _ (j_bnd _ _ _ _ _ _ _ HJ) It). unfold lit_holds. symmetry. apply Bool.eqb_true_iff.
  - intros t v It U. destruct (j_rkey _ _ _ _ _ _ _ HJ t v It) as (Ix & (Vt & Rt & SG) & _). pose proof (NK t Ix) as NKt.
    destruct U as [U|U]; [|congruence].
    assert (Et : t = mkT (tix t) false) by (destruct t; simpl in *; congruence).
    unfold treal. rewrite (teval_node H T _ t W Vt SG). unfold node_value. unfold kind_of in U. rewrite U.
    unfold type_of in Rt. rewrite Rt. cbn [as_r read i_real is_real]. rewrite <- Et.
    rewrite (nodup_find _ _ _ (j_rnd _ _ _ _ _ _ _ HJ) It). simpl. symmetry. apply Qred_correct.
Qed.

Lemma equisat_main p st : no_apps T assertions -> translate ndebug hi hv T [] is_new assertions = Ok (Some (p, st)) ->
  (exists I, satisfies I T assertions) <-> (exists b r, solves st b r).
Proof.
  intros NA E. split.
  - intros (I & S). destruct (complete_main p st E I S) as (b & r & X & _). eauto.
  - intros (b & r & X). exists (read st b r). eapply sound_main; eauto. eapply read_agrees; eauto.
Qed.
Lemma no_apps_supported : no_apps T assertions -> ~ In false_term assertions -> supported ndebug T assertions.
Proof.
  intros NA NF s root Ir Ss. split; [intros K; exfalso; eapply NA; eauto|]. split.
  - intros _ _ a Ia. apply (NA a root Ir). eapply subterm_trans; [|exact Ss]. econstructor; eauto. constructor.
  - intros a Ia ->. assert (V : valid T s). { eapply sub_valid; eauto. rewrite Forall_forall in B. apply (B root Ir). }
    pose proof (NA s root Ir Ss) as NK. pose proof (in_dargs _ _ _ Ia) as D.
    destruct (le_lt_dec 3 (tix s)) as [L|L].
    + destruct (node_wf _ _ _ W L (proj2 V)) as [N _]. revert N D. unfold wf_node, dargs. unfold kind_of in NK.
      assert (R1 : ~ real_t T false_term) by (intros (_ & _ & X); discriminate).
      assert (V1 : ~ varlike T false_term) by (intros [X _]; auto).
      destruct (n_kind (node_of T s)) eqn:K, (n_desc (node_of T s)) as [|l| |]; simpl; try tauto; intros N D.
      * destruct l as [|c [|u [|w [|]]]]; try tauto. destruct N as (_ & N1 & N4 & N5 & N2 & N3).
        destruct D as [->|[->|[->|[]]]]; auto.
      * destruct N as (_ & _ & F). rewrite Forall_forall in F. destruct (F _ D) as [_ X]. apply X. reflexivity.
      * destruct l as [|c [|]]; try tauto. destruct N as (_ & N & _). destruct D as [->|[]]. auto.
      * destruct l as [|c [|]]; try tauto. destruct N as (_ & N & _). destruct D as [->|[]]. auto.
      * destruct l as [|c [|u [|]]]; try tauto. destruct N as (_ & N1 & N2 & _). destruct D as [->|[->|[]]]; auto.
        destruct N2 as [N2|[N2 _]]; auto.
      * destruct l as [|c [|u [|]]]; try tauto. destruct N as (_ & N1 & _ & N2). destruct D as [->|[->|[]]]; auto.
      * destruct N as (_ & _ & q & _ & F). clear - F D R1. induction F; destruct D; subst; auto. apply R1. apply H.
    + destruct (small_node _ _ _ W V L) as [[_ E]|[_ E]]; unfold dargs in D; rewrite E in D; simpl in D; tauto.
Qed.
End Main.

(** ** Several checks *)
Section Multi.
Variable ndebug : bool.
Variable hi : nat -> Z.
Variable hv : Q -> Z.
Variable H : hashes.

Definition clear_cls (st : ist) : ist := mkIs (is_store st) (is_nreal st) (is_bool st) (is_real st) [] (is_calls st).
Lemma J_clear T full o st h : J hi hv T full o st h -> J hi hv T False o (clear_cls st) h.
Proof. intros [jh jq jl ji jb jr jp jpi ja js jc jd jn1 jn2 jbt]. constructor; auto; simpl; try tauto. intros; constructor. Qed.

Lemma J_store T o st h s' : J hi hv T False o st h -> hist s' h ->
  (forall v, v < nvars st -> lc_get s' v = lc_get (is_store st) v) -> nvars st <= length (st_cons s') ->
  J hi hv T False o (with_store st s') h.
Proof.
  intros [jh jq jl ji jb jr jp jpi ja js jc jd jn1 jn2 jbt] Hh G L. constructor; auto; try tauto.
  intros t l It P. destruct (jp t l It P) as (A & B & C). split; auto. split; [unfold nvars; simpl; lia|]. simpl. rewrite G; auto.
Qed.

Lemma J_keeps T T' full o st h : keeps T T' -> Forall (valid T) o -> J hi hv T full o st h -> J hi hv T' full o st h.
Proof.
  intros [K1 K2] FV [jh jq jl ji jb jr jp jpi ja js jc jd jn1 jn2 jbt].
  assert (KN : forall t, valid T t -> node_of T' t = node_of T t) by (intros t V; apply (K1 t V)).
  assert (KK : forall t, valid T t -> kind_of T' t = kind_of T t) by (intros t V; unfold kind_of; now rewrite KN).
  assert (KT : forall t, valid T t -> type_of T' t = type_of T t) by (intros t V; unfold type_of; now rewrite KN).
  assert (BV : forall t l, In (t, l) (is_bool st) -> valid T t) by (intros t l It; apply (jb t l It)).
  assert (RV : forall t l, In (t, l) (is_real st) -> valid T t) by (intros t l It; apply (jr t l It)).
  assert (PL : forall t, valid T t -> plain T' t -> plain T t) by (intros t V; unfold plain; now rewrite KK).
  assert (BS : forall I b, bsem T' st I b <-> bsem T st I b).
  { intros I b. split; intros X t l It; specialize (X t l It); unfold tholds in *; rewrite K2 in *; eauto. }
  assert (RS : forall I r, rsemv T' st I r <-> rsemv T st I r).
  { intros I b. split; intros X t l It; specialize (X t l It); unfold treal in *; rewrite K2 in *; eauto. }
  constructor; auto.
  - intros t l It. destruct (jb t l It) as (A & [V B] & C). split; auto. split; [|rewrite KK; auto].
    split; [apply (K1 t V)|rewrite KT; auto].
  - intros t l It. destruct (jr t l It) as (A & (V & B & C) & D). split; auto. split; [|rewrite KK; auto].
    split; [apply (K1 t V)|rewrite KT; auto].
  - intros t l It P. apply (jp t l It). eauto.
  - intros t l t' l' It It' P P' E. eapply jpi; eauto.
  - intros t l It NP I b r C R. unfold tholds. rewrite K2 by eauto. apply (ja t l It) with (r := r); auto.
    + unfold plain in *. rewrite KK in NP; eauto.
    + now apply RS.
  - intros FU I b r C F [A1 A2]. rewrite BS, RS. apply js; auto. split.
    + intros t l It U. specialize (A1 t l It). unfold tholds in *. rewrite K2 in A1 by eauto. apply A1.
      unfold user in *. rewrite KK; eauto.
    + intros t l It U. specialize (A2 t l It). unfold treal in *. rewrite K2 in A2 by eauto. apply A2.
      unfold user in *. rewrite KK; eauto.
  - intros I b r C. rewrite BS, RS. apply jc; auto.
  - intros u Iu. rewrite Forall_forall in FV. pose proof (FV u Iu) as V. destruct (jd u Iu) as [D1 D2]. split.
    + intros [_ B] N. unfold key. rewrite KK by auto. apply D1; auto. split; auto. now rewrite <- KT.
    + intros [(_ & R & N) VK]. apply D2. split; [split; [auto|split; [now rewrite <- KT|auto]]|now rewrite <- KK].
Qed.

Definition kinv (T : table) (p : list nat) (st : ist) : Prop :=
  wf H T /\ exists o h, J hi hv T False o (clear_cls st) h /\ vinv T p o /\ Forall (valid T) o.

Lemma translate_gen T p st assertions p' st' : kinv T p st -> Forall (bool_t T) assertions ->
  translate ndebug hi hv T p st assertions = Ok (Some (p', st')) ->
  exists o st1 h, J hi hv T False o st1 h /\ top_clauses st1 assertions = Ok st' /\ vinv T p' o /\ Forall (valid T) o.
Proof.
  intros (W & o & h & HJ & IV & FV) B. unfold translate. destruct (existsb _ _); [discriminate|].
  destruct (span_ok T (wf_acyclic _ _ W) (typed T)) with (roots := assertions) (p := p) (o := o)
    as (p1 & o1 & E & IV1 & Fp & (n & En & Fn) & Q1).
  - intros t a TY Ia. eapply args_typed; eauto. destruct TY as [[V _]|[V _]]; auto.
  - rewrite Forall_forall in *. intros t It. specialize (B t It). split; [left; auto|]. apply B.
  - rewrite (v_eq _ _ _ IV). apply Forall_rev. apply Forall_map. eapply Forall_impl; [|exact FV]. intros t V. apply V.
  - exact IV.
  - subst o1. change (mkIs _ _ _ _ _ _) with (clear_cls st).
    rewrite (span_any (int_visit ndebug hi hv T) T assertions p o p1 n) by exact E.
    destruct (run (int_visit ndebug hi hv T) (clear_cls st) n) as [st1| |] eqn:R; cbn [bind]; try discriminate.
    destruct (top_clauses st1 assertions) as [st2| |] eqn:TC; cbn [bind]; try discriminate. intros [= <- <-].
    assert (ND : NoDup (map tix (o ++ n))).
    { rewrite <- (rev_involutive (map tix (o ++ n))), <- (v_eq _ _ _ IV1). apply NoDup_rev. apply IV1. }
    destruct (run_J ndebug hi hv H T W False n o (clear_cls st) h st1 HJ ND Fn R) as [h1 [HJ1 _]].
    exists (o ++ n), st1, h1. split; auto. split; auto. split; auto. apply Forall_app. split; auto.
    eapply Forall_impl; [|exact Fn]. intros t [[V _]|[V _]]; auto.
Qed.

Lemma checks_inv T p st : checks ndebug hi hv H T p st -> kinv T p st.
Proof.
  induction 1 as [|T T' p st C IH K R|T p st a p' st' C IH B E|T p st q s' c C IH D E|T p st c i j C IH Ic Hi Hj].
  - split; [apply reach_wf; constructor|]. exists [], []. split; [apply J_new|]. split; [apply vinv_nil|constructor].
  - destruct IH as (W & o & h & HJ & IV & FV). split; [now apply reach_wf|]. exists o, h. split; [|split].
    + eapply J_keeps; eauto.
    + split; [apply IV | apply IV | eapply first_keeps; eauto; apply IV].
    + eapply Forall_impl; [|exact FV]. intros t V. now apply K.
  - destruct (translate_gen T p st a p' st' IH B E) as (o & st1 & h & HJ & TC & IV & FV). split; [apply IH|].
    exists o, h. split; [|split]; auto. destruct (top_ok _ _ _ TC) as (cs & -> & _). exact (J_clear _ _ _ _ _ HJ).
  - destruct IH as (W & o & h & HJ & IV & FV). split; auto. exists o, h. split; [|split]; auto.
    pose proof (j_hist _ _ _ _ _ _ _ HJ) as Hh. simpl in Hh.
    destruct (make_ok hi hv (is_store st) q s' c (proj1 Hh) D E) as (M1 & M2 & _).
    apply (J_store T o (clear_cls st) h s' HJ).
    + eapply hist_grows; eauto.
    + intros v L. eapply make_get; eauto.
    + eapply make_len; eauto.
  - destruct IH as (W & o & h & HJ & IV & FV). split; auto. exists o, h. split; [|split]; auto.
    pose proof (j_hist _ _ _ _ _ _ _ HJ) as Hh. simpl in Hh.
    destruct (swap_ok (is_store st) i j c (proj1 Hh) Ic Hi Hj) as (M1 & M2).
    apply (J_store T o (clear_cls st) h _ HJ); auto. eapply hist_grows; eauto.
Qed.

Lemma multi_main T p st assertions p' st' : checks ndebug hi hv H T p st -> Forall (bool_t T) assertions ->
  translate ndebug hi hv T p st assertions = Ok (Some (p', st')) ->
  forall I, satisfies I T assertions -> exists b r, solves st' b r /\ agrees T st' I b r.
Proof.
  intros C B E I S. pose proof (checks_inv T p st C) as KI. pose proof (proj1 KI) as W.
  destruct (translate_gen T p st assertions p' st' KI B E) as (o & st1 & h & HJ & TC & _).
  destruct (top_ok _ _ _ TC) as (cs & -> & _ & E3).
  destruct (values_ok hi hv T False o st1 h I HJ) as (b & r & CS & CK & BS & RS).
  exists b, r. split; [split|split].
  - exact CS.
  - cbn [is_cls]. apply Forall_app. split; [eapply j_cpl; eauto|].
    apply Forall_forall. intros c Ic. destruct (E3 c Ic) as (a & y & Ia & Iy & ->). unfold satisfies in S. rewrite Forall_forall in *.
    exists (if tneg a then neg y else y). split; [left; auto|]. apply (lit_sign H T W st1 I b a y BS (B a Ia) Iy); auto.
  - intros t l It _. apply BS. exact It.
  - intros t v It _. apply RS. exact It.
Qed.
End Multi.
