(** Aligned arguments: no variable is lost in the difference of their polynomials. *)
From Coq Require Import List Arith ZArith QArith Qcanon Bool Lia Lqa.
From Verif Require Import Base Core_Model Lincons_Model Terms_Model Spec_Terms Terms_Proofs TermMgr_Model Spec_TermMgr TermMgr_Base TermMgr_Arith TermMgr_Term
  Internalizer_Model Internalizer_Proofs Uf_Model Spec_Uf Uf_Proofs Uf_Confl Ufcomb_Eq Spec_Ufcheck.
Import ListNotations.
Close Scope Qc_scope.
Close Scope Q_scope.
Open Scope nat_scope.

(** ** coefficients of a difference *)
Fixpoint coef (ts : list (nat * Q)) (v : nat) : option Q :=
  match ts with [] => None | (w, d) :: ts' => if w =? v then Some d else coef ts' v end.
Lemma coef_none ts v : coef ts v = None <-> ~ In v (map fst ts).
Proof.
  induction ts as [|[w d] ts IH]; cbn [coef map fst]; [cbn; tauto|]. destruct (Nat.eqb_spec w v) as [->|N].
  - split; [discriminate|]. intros X. exfalso. apply X. now left.
  - rewrite IH. cbn. tauto.
Qed.
Lemma coef_in ts v c : NoDup (map fst ts) -> (coef ts v = Some c <-> In (v, c) ts).
Proof.
  induction ts as [|[w d] ts IH]; cbn [coef map fst]; intros ND; [cbn; split; [discriminate|tauto]|]. inversion ND as [|? ? N1 N2]; subst.
  destruct (Nat.eqb_spec w v) as [->|N].
  - split; [intros [= ->]; now left|]. intros [X|X]; [congruence|]. exfalso. apply N1. apply in_map_iff. exists (v, c). auto.
  - rewrite (IH N2). cbn. split; [auto|]. intros [X|X]; auto. congruence.
Qed.
Definition plus_opt (x y : option Q) : option Q :=
  match x, y with
  | Some a, Some b => if Qeq_bool (a + b) 0 then None else Some (a + b)%Q
  | Some a, None => Some a
  | None, y => y
  end.
Lemma insert_keys ts v c : NoDup (map fst ts) -> NoDup (map fst (poly_insert ts v c)).
Proof.
  intros ND. induction ts as [|[w d] ts IH]; cbn [poly_insert map fst]; [repeat constructor; cbn; tauto|]. inversion ND as [|? ? N1 N2]; subst.
  destruct (Nat.eqb_spec w v) as [->|N].
  - destruct (Qeq_bool _ 0); auto.
  - cbn [map fst]. constructor; auto. clear -N1 N. induction ts as [|[y e] ts IH]; cbn [poly_insert map fst].
    + cbn. intros [X|[]]. congruence.
    + cbn in N1. destruct (Nat.eqb_spec y v).
      * destruct (Qeq_bool _ 0); cbn; tauto.
      * cbn [map fst]. intros [X|X]; [tauto|]. apply IH in X; tauto.
Qed.
Lemma insert_coef ts v c w : NoDup (map fst ts) -> coef (poly_insert ts v c) w = if v =? w then plus_opt (coef ts v) (Some c) else coef ts w.
Proof.
  intros ND. induction ts as [|[x d] ts IH]; cbn [poly_insert coef map fst].
  - now destruct (v =? w).
  - inversion ND as [|? ? N1 N2]; subst. destruct (Nat.eqb_spec x v) as [->|N].
    + cbn [plus_opt]. assert (X : coef ts v = None) by (now apply coef_none). destruct (Qeq_bool (d + c) 0); cbn [coef]; destruct (Nat.eqb_spec v w) as [->|]; auto.
    + cbn [coef]. rewrite (IH N2). destruct (Nat.eqb_spec x w) as [->|]; auto. destruct (Nat.eqb_spec v w); auto. congruence.
Qed.
Lemma fold_coef : forall B A w, NoDup (map fst A) -> NoDup (map fst B) ->
  coef (fold_left (fun ts t => poly_insert ts (fst t) (snd t)) B A) w = plus_opt (coef A w) (coef B w).
Proof.
  induction B as [|[v c] B IH]; intros A w NA NB; cbn [fold_left coef fst snd map].
  - now destruct (coef A w).
  - inversion NB as [|? ? N1 N2]; subst. rewrite IH, insert_coef by (auto; now apply insert_keys).
    destruct (Nat.eqb_spec v w) as [->|N]; auto. rewrite (proj2 (coef_none B w) N1). now destruct (plus_opt (coef A w) (Some c)).
Qed.
Lemma coef_map B w : coef (map (fun t => (fst t, (snd t * -1)%Q)) B) w = match coef B w with Some c => Some (c * -1)%Q | None => None end.
Proof. induction B as [|[v c] B IH]; cbn [map coef fst snd]; auto. now destruct (v =? w). Qed.
Lemma sub_coef p1 p2 w : NoDup (map fst (p_terms p1)) -> NoDup (map fst (p_terms p2)) ->
  coef (p_terms (poly_sub p1 p2)) w =
  plus_opt (coef (p_terms p1) w) (match coef (p_terms p2) w with Some c => Some (c * -1)%Q | None => None end).
Proof.
  intros N1 N2. unfold poly_sub, poly_add. cbn [p_terms]. rewrite fold_coef, coef_map; auto.
  rewrite map_map. cbn [fst]. exact N2.
Qed.

Section A.
Variable H : hashes.
Variable T : table.
Variable bv : list (term * lit).
Variable rv : list (term * nat).
Hypothesis W : wf H T.
Hypothesis M : maps_ok T rv.
Let st0 := Uf_Confl.st0 rv.

(** ** monomials *)
Lemma mono_one t m : mono_repr T m t -> monomial T t = match fst m with Some x => [(x, snd m)] | None => [] end.
Proof.
  destruct m as [v c]. intros (R & NZ & C). cbn [fst snd] in *. unfold monomial. destruct v as [x|].
  - destruct C as [V [[-> ->]|(N1 & k & Rk & Nk & L1 & L2 & Nt)]].
    + destruct V as [_ [K|[K|K]]]; rewrite K; reflexivity.
    + assert (K : kind_of T t = KProduct) by (unfold kind_of; now rewrite Nt). rewrite K. unfold get_args. rewrite K, Nt. cbn [dargs n_desc].
      now rewrite (proj2 (const_kind _ _ _ Nk)).
  - assert (K : kind_of T t = KArithConst) by (unfold kind_of; now rewrite C). now rewrite K.
Qed.
Lemma monos_of t tp : real_t T t -> poly_of T t tp -> forall x q, In (x, q) (monomials T t) <-> In (Some x, q) tp.
Proof.
  intros R P x q. unfold monomials. inversion P; subst.
  - destruct (small_node _ _ zero_term W (proj1 R) ltac:(simpl; lia)) as [[E1 _]|[_ E1]]; [discriminate|].
    assert (K : kind_of T zero_term = KArithConst) by (unfold kind_of; now rewrite E1). unfold monomial. rewrite K. cbn. tauto.
  - assert (K : kind_of T t = KArithConst) by (unfold kind_of; now rewrite H1). unfold monomial. rewrite K. cbn. intuition congruence.
  - unfold monomial. destruct H0 as [K|[K|K]]; rewrite K; cbn; intuition congruence.
  - assert (K : kind_of T t = KProduct) by (unfold kind_of; now rewrite H0). unfold monomial, get_args. rewrite K, H0. cbn [dargs n_desc].
    rewrite (proj2 (const_kind _ _ _ H2)). cbn. intuition congruence.
  - assert (K : kind_of T t = KPoly) by (unfold kind_of; now rewrite H0). rewrite K. unfold get_args. rewrite K, H0. cbn [dargs n_desc].
    clear -H3. induction H3 as [|m t tp ms R F IH]; cbn [flat_map]; [cbn; tauto|]. rewrite in_app_iff, IH, (mono_one _ _ R). clear.
    destruct m as [[y|] c]; cbn; intuition congruence.
Qed.
Lemma img_terms : forall tp p p', img st0 tp p = Ok p' -> forall v c, In (v, c) (p_terms p') <-> In (v, c) (p_terms p) \/
  exists x q, In (Some x, q) tp /\ m_find rv x = Some v /\ c = this q.
Proof.
  induction tp as [|[[x|] d] tp IH]; cbn [img]; intros p p' E v c.
  - injection E as <-. split; [auto|]. intros [X|(x & q & [] & _)]. exact X.
  - unfold rvar, st0, Uf_Confl.st0 in E. cbn [Internalizer_Model.is_real] in E. destruct (m_find rv x) as [y|] eqn:Ex; [|discriminate]. cbn [value_of bind] in E.
    rewrite (IH _ _ E). cbn [p_terms]. rewrite in_app_iff. cbn [In]. split.
    + intros [[X|[X|[]]]|(z & q & X1 & X2)]; auto.
      * injection X as <- <-. right. exists x, d. auto.
      * right. exists z, q. auto.
    + intros [X|(z & q & [X1|X1] & X2 & X3)]; auto.
      * injection X1 as <- <-. left. right. left. rewrite Ex in X2. congruence.
      * right. exists z, q. auto.
  - rewrite (IH _ _ E). cbn [p_terms In]. split; intros [X|(z & q & X1 & X2)]; auto; right; exists z, q; auto.
    destruct X1 as [X1|X1]; [discriminate|]. auto.
Qed.
Lemma poly_terms t p : real_t T t -> uf_poly T bv rv t = Ok p -> NoDup (map fst (p_terms p)) /\
  forall v c, In (v, c) (p_terms p) <-> exists x q, In (x, q) (monomials T t) /\ m_find rv x = Some v /\ c = this q.
Proof.
  intros R E. split; [apply (ufpoly_ok H T bv rv W M t p R E)|]. apply (ufpoly_int H T bv rv W M t p R) in E.
  destruct (poly_of_ex H T t W R) as [tp P]. rewrite (ipoly_img H T _ t tp W R P) in E. intros v c.
  rewrite (img_terms _ _ _ E). cbn [p_terms In]. split.
  - intros [[]|(x & q & X1 & X2)]. exists x, q. split; [|exact X2]. now apply (monos_of t tp R P).
  - intros (x & q & X1 & X2). right. exists x, q. split; [|exact X2]. now apply (monos_of t tp R P).
Qed.
Lemma aligned_nocancel t u : real_t T t -> real_t T u -> aligned T t u -> nocancel T bv rv t u.
Proof.
  intros R1 R2 A p1 p2 E1 E2. destruct (poly_terms t p1 R1 E1) as [N1 C1]. destruct (poly_terms u p2 R2 E2) as [N2 C2].
  pose proof (sub_coef p1 p2) as SC.
  destruct A as [A|A].
  - left. destruct (p_terms (poly_sub p1 p2)) as [|[v c] l] eqn:ED; auto. exfalso. specialize (SC v N1 N2). try rewrite ED in SC. cbn [coef] in SC. rewrite Nat.eqb_refl in SC.
    assert (X : coef (p_terms p1) v = coef (p_terms p2) v).
    { assert (Y : forall d, coef (p_terms p1) v = Some d <-> coef (p_terms p2) v = Some d).
      { intros d. rewrite !coef_in by auto. rewrite C1, C2. split; intros (x & q & Z1 & Z2); exists x, q; (split; [now apply A|exact Z2]). }
      destruct (coef (p_terms p1) v) as [d|]; [symmetry; now apply Y|]. destruct (coef (p_terms p2) v) as [d|]; auto. now apply Y. }
    rewrite X in SC. destruct (coef (p_terms p2) v) as [d|]; cbn [plus_opt] in SC; [|discriminate].
    assert (Z : Qeq_bool (d + d * -1) 0 = true) by (apply Qeq_bool_iff; ring). now rewrite Z in SC.
  - right. intros v Hv. destruct (in_dec Nat.eq_dec v (map fst (p_terms (poly_sub p1 p2)))) as [|N]; auto. exfalso. apply coef_none in N.
    rewrite (SC v N1 N2) in N. apply in_app_iff in Hv.
    destruct (coef (p_terms p1) v) as [a|] eqn:Ea, (coef (p_terms p2) v) as [b|] eqn:Eb; cbn [plus_opt] in N; try discriminate.
    + destruct (Qeq_bool (a + b * -1) 0) eqn:Q; [|discriminate]. apply Qeq_bool_iff in Q. apply (coef_in _ _ _ N1) in Ea. apply (coef_in _ _ _ N2) in Eb.
      apply C1 in Ea. apply C2 in Eb. destruct Ea as (x & q & X1 & X2 & ->). destruct Eb as (y & r & Y1 & Y2 & ->).
      apply m_find_in in X2. apply m_find_in in Y2. assert (x = y) by (apply (nodup_inj _ _ _ _ (proj1 M) X2 Y2)). subst y.
      assert (q = r) by (apply Qc_is_canon; lra). subst r. exact (A _ X1 Y1).
    + destruct Hv as [Hv|Hv]; [now apply coef_none in Ea|now apply coef_none in Eb].
Qed.
End A.
