(** Proofs for C47: polynomials, constraints. *)
From Coq Require Import List Arith ZArith QArith Qcanon Bool Lia Lqa Permutation.
From Verif Require Import Base Core_Model Lincons_Model Spec_Lincons Lincons_Proofs Lincons_Proofs2
  Terms_Model Spec_Terms Terms_Proofs TermMgr_Model Spec_TermMgr TermMgr_Base TermMgr_Arith TermMgr_Term
  Visitor_Model Spec_Visitor Visitor_Proofs Internalizer_Model Spec_Internalizer.
Import ListNotations.
Close Scope Qc_scope.
Close Scope Q_scope.
Open Scope nat_scope.

Lemma m_find_in {A} (m : list (term * A)) t x : m_find m t = Some x -> In (t, x) m.
Proof.
  induction m as [|[a y] m IH]; simpl; try discriminate. destruct (t_eqb a t) eqn:E; auto.
  apply t_eqb_eq in E. intros [= ->]. subst. auto.
Qed.
Lemma m_find_none {A} (m : list (term * A)) t : m_find m t = None <-> ~ In t (map fst m).
Proof.
  induction m as [|[a y] m IH]; simpl; [tauto|]. destruct (t_eqb a t) eqn:E.
  - apply t_eqb_eq in E. split; [discriminate|]. intros N. exfalso. auto.
  - rewrite IH. apply t_eqb_neq in E. tauto.
Qed.

(** ** Polynomials *)
(** the polynomial over solver variables for a polynomial over terms *)
Fixpoint img (st : ist) (tp : tpoly) (p : poly) : res poly :=
  match tp with
  | [] => Ok p
  | (None, c) :: tp' => img st tp' (mkPoly (p_terms p) (this c))
  | (Some x, c) :: tp' => v <- rvar st x ;; img st tp' (mkPoly (p_terms p ++ [(v, this c)]) (p_const p))
  end.

Lemma loop_img T st : forall tp ms p, Forall2 (mono_repr T) tp ms -> poly_loop T st p ms = img st tp p.
Proof.
  intros tp ms p F. revert p. induction F as [|[v c] t tp ms (R & NZ & M) F IH]; intros p; simpl; auto.
  destruct v as [x|]; simpl in M.
  - destruct M as [V [[-> ->]|(N1 & k & Rk & Nk & L1 & L2 & Nt)]].
    + destruct V as [_ [K|[K|K]]]; rewrite K; destruct (rvar st x); cbn [bind]; auto.
    + assert (K : kind_of T t = KProduct) by (unfold kind_of; now rewrite Nt). rewrite K.
      unfold var_of_product, coeff_of_product. rewrite K, Nt. cbn [n_desc bind].
      rewrite (proj2 (const_kind _ _ _ Nk)). destruct (rvar st x); cbn [bind]; auto.
  - assert (K : kind_of T t = KArithConst) by (unfold kind_of; now rewrite M).
    rewrite K. rewrite (proj2 (const_kind _ _ _ M)). cbn [bind]. auto.
Qed.

Lemma ipoly_img H T st t tp : wf H T -> real_t T t -> poly_of T t tp ->
  internalize_poly T st t = img st tp (mkPoly [] 0%Q).
Proof.
  intros W R P. unfold internalize_poly. inversion P; subst.
  - destruct (small_node _ _ zero_term W (proj1 R) ltac:(simpl; lia)) as [[E _]|[_ E]]; [discriminate|].
    assert (K : kind_of T zero_term = KArithConst) by (unfold kind_of; now rewrite E).
    rewrite K. rewrite (proj2 (const_kind _ _ _ E)). reflexivity.
  - assert (K : kind_of T t = KArithConst) by (unfold kind_of; now rewrite H1).
    rewrite K. rewrite (proj2 (const_kind _ _ _ H1)). reflexivity.
  - destruct H0 as [K|[K|K]]; rewrite K; simpl; destruct (rvar st t); reflexivity.
  - assert (K : kind_of T t = KProduct) by (unfold kind_of; now rewrite H0).
    rewrite K. unfold var_of_product, coeff_of_product. rewrite K, H0. cbn [n_desc bind].
    rewrite (proj2 (const_kind _ _ _ H2)). simpl. destruct (rvar st x); reflexivity.
  - assert (K : kind_of T t = KPoly) by (unfold kind_of; now rewrite H0). rewrite K.
    unfold get_args. rewrite K, H0. cbn [dargs n_desc]. now apply loop_img.
Qed.

Definition tvars (tp : tpoly) : list term :=
  flat_map (fun m => match fst m with Some x => [x] | None => [] end) tp.
Lemma tvars_in tp x : In x (tvars tp) <-> exists c, In (Some x, c) tp.
Proof.
  unfold tvars. rewrite in_flat_map. split.
  - intros ([v c] & I & J). simpl in J. destruct v; [|destruct J]. destruct J as [->|[]]. eauto.
  - intros (c & I). exists (Some x, c). simpl. auto.
Qed.
Lemma tvars_nodup : forall tp, sorted_p tp -> NoDup (tvars tp).
Proof.
  induction tp as [|[v c] tp IH]; simpl; intros S; [constructor|]. destruct S as [F S].
  destruct v as [x|]; simpl; auto. constructor; auto. intros I. apply tvars_in in I. destruct I as (d & I).
  rewrite Forall_forall in F. specialize (F _ I). simpl in F. unfold t_ltb in F. rewrite Nat.ltb_irrefl in F. discriminate.
Qed.

Lemma img_ok st : forall tp p, (forall x, In x (tvars tp) -> exists v, m_find (is_real st) x = Some v) -> exists p', img st tp p = Ok p'.
Proof.
  induction tp as [|[[x|] c] tp IH]; simpl; intros p F; eauto.
  destruct (F x (or_introl eq_refl)) as [v E]. unfold rvar. rewrite E. simpl. eauto.
Qed.

Lemma img_shape st : forall tp p p', img st tp p = Ok p' -> exists n, p_terms p' = p_terms p ++ n /\
  Forall2 (fun x t => In (x, fst t) (is_real st)) (tvars tp) n /\
  (Forall (fun m => snd m <> 0%Qc) tp -> Forall (fun t => ~ snd t == 0)%Q n).
Proof.
  induction tp as [|[[x|] c] tp IH]; simpl; intros p p' E.
  - injection E as <-. exists []. rewrite app_nil_r. auto.
  - unfold rvar in E. destruct (m_find (is_real st) x) as [v|] eqn:M; [|discriminate]. simpl in E.
    apply IH in E. destruct E as (n & E1 & E2 & E3). simpl in E1. exists ((v, this c) :: n).
    rewrite <- app_assoc in E1. split; auto. split.
    + constructor; auto. now apply m_find_in.
    + intros F. inversion F as [|? ? N1 N2]; subst. constructor; [|now apply E3]. simpl in *. intros Z. apply N1. apply Qc_is_canon. exact Z.
  - apply IH in E. destruct E as (n & E1 & E2 & E3). exists n. split; auto. split; auto. intros F. inversion F; auto.
Qed.

Lemma this_plus a b : (this (a + b)%Qc == this a + this b)%Q.
Proof. unfold Qcplus, Q2Qc. simpl. apply Qred_correct. Qed.
Lemma this_mult a b : (this (a * b)%Qc == this a * this b)%Q.
Proof. unfold Qcmult, Q2Qc. simpl. apply Qred_correct. Qed.

Lemma lin_app r a b : (Spec_Lincons.lin r (a ++ b) == Spec_Lincons.lin r a + Spec_Lincons.lin r b)%Q.
Proof. induction a as [|[v c] a IH]; simpl; [ring|]. rewrite IH. ring. Qed.

Definition has_none (tp : tpoly) : Prop := exists c, In (None, c) tp.
Lemma img_value st I T r : forall tp p p',
  (forall x v, In x (tvars tp) -> In (x, v) (is_real st) -> (r v == this (treal I T x))%Q) ->
  sorted_p tp -> (has_none tp -> p_const p == 0)%Q -> img st tp p = Ok p' ->
  (pvalue r p' == pvalue r p + this (pval I T tp))%Q.
Proof.
  induction tp as [|[[x|] c] tp IH]; intros p p' RS S Z E.
  - simpl in E. injection E as <-. change (this (pval I T [])) with 0%Q. ring.
  - simpl in E. unfold rvar in E. destruct (m_find (is_real st) x) as [v|] eqn:M; [|discriminate]. simpl in E.
    destruct S as [F S]. apply IH in E; auto.
    + rewrite E, pval_cons, this_plus, this_mult. cbn [fst snd]. unfold pvalue. cbn [p_terms p_const]. rewrite lin_app. simpl.
      rewrite (RS x v); [|simpl; auto|now apply m_find_in]. ring.
    + intros y w Iy. apply RS. simpl. auto.
    + intros (d & J). apply Z. exists d. right; auto.
  - simpl in E. destruct S as [F S]. apply IH in E; auto.
    + rewrite E, pval_cons, this_plus, this_mult. cbn [fst snd]. unfold pvalue. cbn [p_terms p_const vval].
      rewrite (Z (ex_intro _ c (or_introl eq_refl))). change (this 1%Qc) with 1%Q. ring.
    + intros (d & J). rewrite Forall_forall in F. specialize (F _ J). simpl in F. discriminate.
Qed.

Lemma forall2_nodup {A B} (R : A -> B -> Prop) (f : B -> nat) l1 l2 : Forall2 R l1 l2 -> NoDup l1 ->
  (forall x y a b, R x a -> R y b -> f a = f b -> x = y) -> NoDup (map f l2).
Proof.
  intros F ND I. induction F as [|x a l1 l2 Rx F IH]; simpl; [constructor|]. inversion ND; subst. constructor; auto.
  intros J. apply in_map_iff in J. destruct J as (b & Eb & Ib).
  assert (exists y, In y l1 /\ R y b) as (y & Iy & Ry).
  { clear - F Ib. induction F; destruct Ib; subst; simpl; eauto. destruct (IHF H0) as (z & ? & ?); eauto. }
  apply H1. rewrite (I x y a b); auto.
Qed.

(** the variables of the polynomial of a term *)
Lemma poly_of_le H T t tp x : wf H T -> real_t T t -> poly_of T t tp -> In x (tvars tp) -> tix x <= tix t /\ varlike T x /\ (x = t \/ In x (get_args T t) \/ exists m, In m (get_args T t) /\ In x (get_args T m)).
Proof.
  intros W R P I. inversion P; subst; simpl in I.
  - destruct I.
  - destruct I.
  - destruct I as [<-|[]]. split; auto. split; auto. split; auto.
  - destruct I as [<-|[]].
    assert (A : In x0 (get_args T t)). { unfold get_args, kind_of. rewrite H0. simpl. auto. }
    pose proof (wf_acyclic _ _ W t x0 A). split; [lia|]. auto.
  - apply tvars_in in I. destruct I as (c & I).
    assert (G : forall m, In m ms -> In m (get_args T t)). { intros m Im. unfold get_args, kind_of. rewrite H0. simpl. auto. }
    assert (exists m, In m ms /\ mono_repr T (Some x, c) m) as (m & Im & (Rm & NZ & V & M)).
    { clear - H3 I. induction H3; destruct I; subst; simpl; eauto. destruct (IHForall2 H0) as (z & ? & ?); eauto. }
    pose proof (wf_acyclic _ _ W t m (G m Im)) as Lm. simpl in *.
    destruct M as [[_ ->]|(_ & k & Rk & Nk & L1 & L2 & Nm)].
    + split; [lia|]. split; auto.
    + split; [lia|]. split; auto. right; right. exists m. split; auto. unfold get_args, kind_of. rewrite Nm. simpl. auto.
Qed.

Lemma poly_of_vars H T t tp : wf H T -> poly_of T t tp -> is_arith_const T t = false -> tvars tp <> [].
Proof.
  intros W P C. inversion P; subst; simpl; try discriminate.
  - destruct (wf_prim _ _ W) as [l E]. unfold is_arith_const, kind_of, node_of in C. rewrite E in C. discriminate.
  - unfold is_arith_const, kind_of in C. rewrite H1 in C. discriminate.
  - pose proof (f2_length H3) as L. destruct tp as [|[v c] [|[v' c'] tp]]; simpl in *; try lia.
    destruct v, v'; simpl; try discriminate. destruct H2 as [F _]. inversion F; subst. simpl in *. discriminate.
Qed.

Definition rsem (T : table) (st : ist) (I : interp) (r : nat -> Q) (n : nat) : Prop :=
  forall x v, In (x, v) (is_real st) -> tix x <= n -> (r v == this (treal I T x))%Q.

Lemma nodup_inj {A} (m : list (A * nat)) x y v : NoDup (map snd m) -> In (x, v) m -> In (y, v) m -> x = y.
Proof.
  induction m as [|[a w] m IH]; simpl; intros ND A1 A2; [destruct A1|]. inversion ND; subst.
  destruct A1 as [A1|A1], A2 as [A2|A2]; auto.
  - congruence.
  - injection A1 as -> ->. exfalso. apply H1. apply in_map_iff. exists (y, v); auto.
  - injection A2 as -> ->. exfalso. apply H1. apply in_map_iff. exists (x, v); auto.
Qed.

Lemma ipoly_ok H T st t p : wf H T -> real_t T t -> NoDup (map snd (is_real st)) -> internalize_poly T st t = Ok p ->
  poly_wf p /\ (forall v, In v (map fst (p_terms p)) -> exists x, In (x, v) (is_real st) /\ tix x <= tix t) /\
  (is_arith_const T t = false -> p_terms p <> []) /\
  (forall I r, rsem T st I r (tix t) -> pvalue r p == this (treal I T t))%Q.
Proof.
  intros W R ND E. destruct (poly_of_ex H T t W R) as [tp P]. rewrite (ipoly_img H T st t tp W R P) in E.
  destruct (poly_of_ok H T t tp W R P) as [S F].
  pose proof (img_shape _ _ _ _ E) as (n & E1 & E2 & E3). simpl in E1.
  split; [|split; [|split]].
  - split; rewrite E1.
    + eapply forall2_nodup; [exact E2|now apply tvars_nodup|]. simpl. intros x y a b A B Eab. rewrite Eab in A. eapply nodup_inj; eauto.
    + apply E3. eapply Forall_impl; [|exact F]. intros m M; apply M.
  - intros v Iv. rewrite E1 in Iv. apply in_map_iff in Iv. destruct Iv as (u & <- & Iu).
    assert (exists x, In x (tvars tp) /\ In (x, fst u) (is_real st)) as (x & Ix & Jx).
    { clear - E2 Iu. induction E2; destruct Iu; subst; simpl; eauto. destruct (IHE2 H0) as (z & ? & ?); eauto. }
    exists x. split; auto. eapply poly_of_le; eauto.
  - intros C. rewrite E1. pose proof (poly_of_vars H T t tp W P C) as N. inversion E2; congruence.
  - intros I r RS. assert (V := img_value st I T r tp (mkPoly [] 0%Q) p). rewrite V; auto.
    + rewrite (poly_of_val H T t tp I W R P). unfold pvalue. simpl. ring.
    + intros x v Ix Jx. apply RS; auto. eapply poly_of_le; eauto.
    + intros _. reflexivity.
Qed.
Lemma ipoly_tot H T st t : wf H T -> real_t T t ->
  (forall x, varlike T x -> subterm T x t -> exists v, m_find (is_real st) x = Some v) ->
  exists p, internalize_poly T st t = Ok p.
Proof.
  intros W R F. destruct (poly_of_ex H T t W R) as [tp P]. rewrite (ipoly_img H T st t tp W R P).
  apply img_ok. intros x Ix. destruct (poly_of_le H T t tp x W R P Ix) as (_ & V & D). apply F; auto.
  destruct D as [->|[D|(m & D1 & D2)]]; [constructor| |].
  - eapply sub_arg; eauto. constructor.
  - eapply sub_arg; [exact D1|]. eapply sub_arg; eauto. constructor.
Qed.

(** ** Constraints *)
Section Cons.
Variable hi : nat -> Z.
Variable hv : Q -> Z.

Lemma make_cons s ts p rhs s' c : lc_make hi hv s ts p rhs = (s', c) ->
  st_cons s' = st_cons s \/ exists x, st_cons s' = st_cons s ++ [x].
Proof.
  unfold lc_make. destruct (find_norm ts) as [k|].
  - simpl. match goal with |- context [set_find hi hv ?a ?b] => destruct (set_find hi hv a b) eqn:E end; intros [= <- <-]; simpl.
    + left. destruct (lc_empty _); simpl; now rewrite removelast_snoc.
    + right. eauto.
  - simpl. match goal with |- context [set_find hi hv ?a ?b] => destruct (set_find hi hv a b) eqn:E end; intros [= <- <-]; simpl.
    + left. now rewrite removelast_snoc.
    + right. eauto.
Qed.
Lemma make_get s ts p rhs s' c v : lc_make hi hv s ts p rhs = (s', c) -> v < length (st_cons s) -> lc_get s' v = lc_get s v.
Proof.
  intros M L. unfold lc_get. destruct (make_cons _ _ _ _ _ _ M) as [->|[x ->]]; auto. now rewrite app_nth1.
Qed.
Lemma make_len s ts p rhs s' c : lc_make hi hv s ts p rhs = (s', c) -> length (st_cons s) <= length (st_cons s').
Proof. intros M. destruct (make_cons _ _ _ _ _ _ M) as [->|[x ->]]; auto. rewrite app_length. lia. Qed.

Lemma resize_get s n v : lc_get (lc_resize s n) v = lc_get s v.
Proof.
  unfold lc_get, lc_resize. simpl. destruct (Nat.lt_ge_cases v (length (st_cons s))) as [L|L].
  - now rewrite app_nth1.
  - rewrite app_nth2, (nth_overflow (st_cons s)) by lia.
    generalize (v - length (st_cons s)) (n - length (st_cons s)). intros a b. revert b. induction a; intros [|b]; simpl; auto.
Qed.
Lemma resize_len s : length (st_cons (lc_resize s (S (length (st_cons s))))) = S (length (st_cons s)).
Proof. unfold lc_resize. cbn [st_cons]. rewrite app_length, repeat_length. lia. Qed.

Definition req_of (p : poly) (o : opred) : Spec_Lincons.request := mkReq (p_terms p) o (- p_const p)%Q.
Lemma req_mean r p o : req_holds r (req_of p o) <-> rel o (pvalue r p) 0.
Proof.
  unfold req_holds, req_of, pvalue. simpl. destruct o; simpl; split; intros; lra.
Qed.
Lemma nonzero_id ts : Forall (fun t => ~ snd t == 0)%Q ts -> nonzero ts = ts.
Proof.
  induction 1 as [|t ts N F IH]; simpl; auto. destruct (Qeq_bool (snd t) 0) eqn:E; simpl; [|now rewrite IH].
  apply Qeq_bool_eq in E. contradiction.
Qed.
Lemma make_sign s ts rhs s' c : inv s -> NoDup (map fst (nonzero ts)) -> nonzero ts <> [] ->
  lc_make hi hv s ts PEq rhs = (s', c) -> lneg (lc_lit c) = false.
Proof.
  intros HI Hd N E. destruct (find_norm ts) as [k|] eqn:Ek.
  - destruct (normalise_ok ts k Hd Ek) as (Hn & Hk0 & Hne).
    rewrite (lc_make_some hi hv s ts PEq rhs k (i_len s HI) Ek Hne) in E.
    set (ts' := scale k (nonzero ts)) in *. set (c1 := mkLc _ _ _ _) in E.
    destruct (insert_cons hi hv s ts' c1) as [s2 it] eqn:Ei. simpl in E. injection E as <- <-.
    apply insert_cons_ok in Ei; auto.
    + destruct Ei as (I1 & I2 & I3 & I4 & _). simpl. exact I4.
    + simpl. apply Qred_complete, Qred_correct.
  - exfalso. destruct (nonzero ts) as [|t l] eqn:En; auto. assert (It : In t (nonzero ts)) by (rewrite En; left; auto).
    apply in_nonzero in It. destruct It as [T1 T2]. apply T2. eapply find_norm_none; eauto.
Qed.

(** the repository is well formed and every literal it returned for a request still represents it *)
Definition hist (s : store) (h : list (Spec_Lincons.request * lcons)) : Prop :=
  inv s /\ forall q c, In (q, c) h -> exists c0, means s c0 c q.
Lemma hist_new : hist store_new [].
Proof. split; [apply inv_new|]. intros q c []. Qed.
Lemma hist_grows s s' h : hist s h -> inv s' -> grows s s' -> hist s' h.
Proof.
  intros [A M] I G. split; auto. intros q c Iq. destruct (M q c Iq) as (c0 & Mc). exists c0. eapply means_grows; eauto.
Qed.
Lemma hist_resize s h n : hist s h -> hist (lc_resize s n) h.
Proof. intros Hh. destruct (resize_ok s n (proj1 Hh)). eapply hist_grows; eauto. Qed.

(** the calls made, with the repository, the number of rational variables and the requests they produced *)
Inductive built : list call -> store -> nat -> list (Spec_Lincons.request * lcons) -> Prop :=
| bt_new : built [] store_new 0 []
| bt_bool cs s n h : built cs s n h -> built (CallBool :: cs) (lc_resize s (S (length (st_cons s)))) n h
| bt_real cs s n h : built cs s n h -> built (CallReal :: cs) s (S n) h
| bt_lin cs s n h q s' c : built cs s n h -> NoDup (map fst (rq_terms q)) -> Forall (fun t => ~ snd t == 0)%Q (rq_terms q) ->
    rq_terms q <> [] -> (forall v k, In (v, k) (rq_terms q) -> v < n) ->
    lc_make hi hv s (rq_terms q) (rq_pred q) (rq_rhs q) = (s', c) ->
    built (CallLin (rq_terms q) (rq_pred q) (rq_rhs q) :: cs) s' n ((q, c) :: h).

Lemma lin_step st p o st' l h : hist (is_store st) h -> poly_wf p -> p_terms p <> [] ->
  linear_constraint hi hv st p o = Ok (st', l) ->
  exists s' c, st' = mkIs s' (is_nreal st) (is_bool st) (is_real st) (is_cls st) (CallLin (p_terms p) o (- p_const p)%Q :: is_calls st) /\ l = lc_lit c /\
    hist s' ((req_of p o, c) :: h) /\
    (forall v, v < length (st_cons (is_store st)) -> lc_get s' v = lc_get (is_store st) v) /\
    length (st_cons (is_store st)) <= length (st_cons s') /\ (o = PEq -> lneg l = false) /\
    (built (is_calls st) (is_store st) (is_nreal st) h -> built (CallLin (p_terms p) o (- p_const p)%Q :: is_calls st) s' (is_nreal st) ((req_of p o, c) :: h)).
Proof.
  intros Hh [W1 W2] N E. unfold linear_constraint in E. destruct (forallb _ _) eqn:FB; simpl in E; [|discriminate].
  destruct (lc_make hi hv (is_store st) (p_terms p) o (- p_const p)) as [s' c] eqn:M. injection E as <- <-.
  pose proof (nonzero_id _ W2) as NZ.
  exists s', c. split; auto. split; auto. split; [|split; [|split; [|split]]].
  - destruct (make_ok hi hv (is_store st) (req_of p o) s' c (proj1 Hh)) as (M1 & M2 & c0 & M3); auto.
    { unfold distinct_vars. simpl. change (NoDup (map fst (nonzero (p_terms p)))). now rewrite NZ. }
    split; auto. intros q d [[= <- <-]|Iq]; eauto. eapply hist_grows; eauto.
  - intros v L. eapply make_get; eauto.
  - eapply make_len; eauto.
  - intros ->. eapply make_sign; [apply (proj1 Hh)| | |exact M]; rewrite NZ; auto.
  - intros BT. apply (bt_lin _ _ _ _ (req_of p o) s' c BT); auto.
    intros v k Iv. rewrite forallb_forall in FB. specialize (FB _ Iv). now apply Nat.ltb_lt in FB.
Qed.
Lemma lin_tot st p o : (forall v, In v (map fst (p_terms p)) -> v < is_nreal st) -> exists r, linear_constraint hi hv st p o = Ok r.
Proof.
  intros F. unfold linear_constraint. replace (forallb _ _) with true.
  - simpl. destruct (lc_make _ _ _ _ _ _). eauto.
  - symmetry. apply forallb_forall. intros t It. apply Nat.ltb_lt. apply F. now apply in_map.
Qed.

(** every literal the repository returned means its request *)
Definition cons_ok (h : list (Spec_Lincons.request * lcons)) (b : nat -> bool) (r : nat -> Q) : Prop :=
  forall q c, In (q, c) h -> (lit_holds b (lc_lit c) <-> req_holds r q).
Definition proper (q : Spec_Lincons.request) : Prop := nonzero (rq_terms q) <> [].
Lemma consistent_ok s h b r : hist s h -> (forall q c, In (q, c) h -> proper q) ->
  consistent s b r -> cons_ok h b r.
Proof.
  intros [HI HM] HP HC q c Iq. destruct (HM q c Iq) as (c0 & M). pose proof (means_get s c0 c q HI M) as G.
  assert (HR : b (lord (lc_lit c)) = true <-> stored_holds r s (lord (lc_lit c))).
  { apply HC. rewrite G. destruct M as (M1 & M2 & M3 & M4 & M5 & M6 & M7).
    destruct (g_pos s c0 (i_good s HI c0 M1)) as [(P1 & _)|P1].
    - exfalso. apply (HP q c Iq). rewrite lc_terms_slice, P1 in M6. unfold slice in M6. simpl in M6.
      apply Permutation_length in M6. simpl in M6. destruct (nonzero (rq_terms q)); auto. simpl in M6. lia.
    - unfold lc_empty. apply Nat.leb_gt. lia. }
  unfold stored_holds in HR. rewrite G in HR. destruct M as (_ & _ & _ & _ & _ & _ & M). rewrite (M r) in HR.
  unfold lit_holds. destruct (lneg (lc_lit c)); simpl in *.
  - rewrite <- not_true_iff_false, HR.
    unfold req_holds in *. destruct (rel_dec (rq_pred q) (Spec_Lincons.lin r (rq_terms q)) (rq_rhs q)); tauto.
  - tauto.
Qed.
End Cons.
