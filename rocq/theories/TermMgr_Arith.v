(** Polynomials and the arithmetic constructors of the term manager. *)
From Coq Require Import List Arith ZArith QArith Qcanon NArith Bool Lia.
From Verif Require Import Base Terms_Model Spec_Terms Terms_Proofs TermMgr_Model TermMgr_Base TermMgr_Bool.
Import ListNotations.
Close Scope Qc_scope.
Close Scope Q_scope.
Open Scope nat_scope.

Lemma q_eqb_eq : forall a b, q_eqb a b = true <-> a = b.
Proof. intros. unfold q_eqb. destruct (Qc_eq_dec a b); split; congruence. Qed.
Lemma q_eqb_neq : forall a b, q_eqb a b = false <-> a <> b.
Proof. intros. unfold q_eqb. destruct (Qc_eq_dec a b); split; congruence. Qed.

(** ** The order of monomials *)
Lemma mv_trans : forall a b c, mv_ltb a b = true -> mv_ltb b c = true -> mv_ltb a c = true.
Proof.
  intros [a|] [b|] [c|]; simpl; auto; try discriminate. unfold t_ltb. rewrite !Nat.ltb_lt. lia.
Qed.
Lemma mv_irrefl : forall a, mv_ltb a a = false.
Proof. intros [a|]; simpl; auto. unfold t_ltb. apply Nat.ltb_irrefl. Qed.
Lemma mv_tri : forall a b, mv_ltb a b = false -> mv_ltb b a = false -> a = b.
Proof.
  intros [a|] [b|]; simpl; auto; try discriminate. unfold t_ltb. rewrite !Nat.ltb_ge. intros.
  f_equal. apply tx_inj. lia.
Qed.

(** ** Values of polynomials *)
Definition vval (I : interp) (T : table) (v : option term) : Qc :=
  match v with None => 1%Qc | Some x => treal I T x end.
Definition pval (I : interp) (T : table) (p : tpoly) : Qc :=
  Qcsum (map (fun m => (snd m * vval I T (fst m))%Qc) p).
Definition mono_ok (T : table) (m : mono) : Prop :=
  snd m <> 0%Qc /\ match fst m with Some x => varlike T x | None => True end.
Definition poly_ok (T : table) (p : tpoly) : Prop := sorted_p p /\ Forall (mono_ok T) p.

Lemma merge_nil_l : forall q c, tp_merge [] q c = map (fun m => (fst m, snd m * c)%Qc) q.
Proof. intros []; reflexivity. Qed.
Lemma merge_nil_r : forall p c, tp_merge p [] c = p.
Proof. intros [|[v a] p]; reflexivity. Qed.
Lemma merge_cons : forall v a p w b q c, tp_merge (@cons mono (v, a) p) (@cons mono (w, b) q) c =
  if mv_ltb v w then @cons mono (v, a) (tp_merge p (@cons mono (w, b) q) c)
  else if mv_ltb w v then @cons mono (w, (b * c)%Qc) (tp_merge (@cons mono (v, a) p) q c)
  else if q_eqb (a + b * c)%Qc 0 then tp_merge p q c else @cons mono (v, (a + b * c)%Qc) (tp_merge p q c).
Proof. reflexivity. Qed.

Lemma pval_cons : forall I T m p, pval I T (m :: p) = (snd m * vval I T (fst m) + pval I T p)%Qc.
Proof. reflexivity. Qed.
Lemma merge_val : forall I T c p q, pval I T (tp_merge p q c) = (pval I T p + c * pval I T q)%Qc.
Proof.
  intros I T c. induction p as [|[v a] p IHp].
  - intros q. rewrite merge_nil_l. unfold pval. rewrite map_map.
    induction q as [|[w b] q IH]; simpl; [ring|]. simpl in IH. rewrite IH. ring.
  - induction q as [|[w b] q IHq].
    + rewrite merge_nil_r. unfold pval; simpl. ring.
    + rewrite merge_cons. destruct (mv_ltb v w) eqn:E1.
      * rewrite !pval_cons, IHp, ?pval_cons. cbn [fst snd]. ring.
      * destruct (mv_ltb w v) eqn:E2.
        -- rewrite !pval_cons, IHq, ?pval_cons. cbn [fst snd]. ring.
        -- pose proof (mv_tri _ _ E1 E2); subst w. rewrite !pval_cons. cbn [fst snd].
           destruct (q_eqb (a + b * c)%Qc 0) eqn:E3.
           ++ apply q_eqb_eq in E3. rewrite IHp.
              transitivity ((a + b * c) * vval I T v + (pval I T p + c * pval I T q))%Qc.
              ** rewrite E3. ring.
              ** ring.
           ++ rewrite pval_cons, IHp. cbn [fst snd]. ring.
Qed.
Lemma merge_forall : forall (P : option term -> Prop) c p q,
  Forall (fun m => P (fst m)) p -> Forall (fun m => P (fst m)) q -> Forall (fun m => P (fst m)) (tp_merge p q c).
Proof.
  intros P c. induction p as [|[v a] p IHp]; intros q FP.
  - intros FQ. rewrite merge_nil_l. rewrite Forall_map. exact FQ.
  - inversion FP; subst. induction q as [|[w b] q IHq]; intros FQ.
    + rewrite merge_nil_r. auto.
    + inversion FQ; subst. rewrite merge_cons. destruct (mv_ltb v w); [|destruct (mv_ltb w v)].
      * constructor; auto.
      * constructor; auto.
      * destruct (q_eqb _ _); [auto|constructor; auto].
Qed.
Lemma merge_nonzero : forall c p q, c <> 0%Qc -> Forall (fun m => snd m <> 0%Qc) p -> Forall (fun m : mono => snd m <> 0%Qc) q ->
  Forall (fun m => snd m <> 0%Qc) (tp_merge p q c).
Proof.
  intros c p q NZ. assert (M : forall b, b <> 0%Qc -> (b * c)%Qc <> 0%Qc).
  { intros b Nb E. apply Qcmult_integral in E. tauto. }
  revert q. induction p as [|[v a] p IHp]; intros q FP.
  - intros FQ. rewrite merge_nil_l. rewrite Forall_map. eapply Forall_impl; [|exact FQ]. simpl. auto.
  - inversion FP; subst. induction q as [|[w b] q IHq]; intros FQ.
    + rewrite merge_nil_r. auto.
    + inversion FQ; subst. rewrite merge_cons. destruct (mv_ltb v w); [|destruct (mv_ltb w v)].
      * constructor; auto.
      * constructor; simpl; auto.
      * destruct (q_eqb _ _) eqn:E; [auto|constructor; auto]. now apply q_eqb_neq.
Qed.
Lemma merge_sorted : forall c p q, sorted_p p -> sorted_p q -> sorted_p (tp_merge p q c).
Proof.
  intros c. induction p as [|[v a] p IHp]; intros q SP.
  - intros SQ. rewrite merge_nil_l. induction q as [|[w b] q IH]; simpl; auto. destruct SQ as [A B].
    split; auto. rewrite Forall_map. exact A.
  - destruct SP as [A B]. induction q as [|[w b] q IHq]; intros SQ.
    + rewrite merge_nil_r. simpl; auto.
    + pose proof SQ as SQ'. destruct SQ as [C D]. rewrite merge_cons. simpl in A, C.
      destruct (mv_ltb v w) eqn:E1; [|destruct (mv_ltb w v) eqn:E2].
      * split; [|apply IHp; auto].
        apply (merge_forall (fun x => mv_ltb v x = true)); auto. constructor; auto.
        eapply Forall_impl; [|exact C]. simpl. intros; eapply mv_trans; eauto.
      * split; [|apply IHq; auto].
        apply (merge_forall (fun x => mv_ltb w x = true)); auto. constructor; auto.
        eapply Forall_impl; [|exact A]. simpl. intros; eapply mv_trans; eauto.
      * pose proof (mv_tri _ _ E1 E2); subst w.
        destruct (q_eqb _ _); [apply IHp; auto|]. split; [|apply IHp; auto].
        apply (merge_forall (fun x => mv_ltb v x = true)); auto.
Qed.
Lemma poly_split : forall T p, poly_ok T p <-> sorted_p p /\ Forall (fun m => snd m <> 0%Qc) p /\
  Forall (fun m => match fst m with Some x => varlike T x | None => True end) p.
Proof.
  intros T p. unfold poly_ok, mono_ok. split.
  - intros [A B]. split; auto. split; eapply Forall_impl; try exact B; simpl; tauto.
  - intros (A & B & C). split; auto. clear A. induction B; inversion C; subst; constructor; auto.
Qed.
Lemma merge_ok : forall T c p q, c <> 0%Qc -> poly_ok T p -> poly_ok T q -> poly_ok T (tp_merge p q c).
Proof.
  intros T c p q NZ P Q. apply poly_split in P. apply poly_split in Q. apply poly_split.
  destruct P as (P1 & P2 & P3), Q as (Q1 & Q2 & Q3). split; [|split].
  - now apply merge_sorted.
  - now apply merge_nonzero.
  - now apply (merge_forall (fun v => match v with Some x => varlike T x | None => True end)).
Qed.
Lemma scale_ok : forall T c p, c <> 0%Qc -> poly_ok T p -> poly_ok T (tp_scale p c).
Proof.
  intros T c p NZ [P1 P2]. unfold tp_scale. split.
  - clear P2. induction p as [|m p IH]; simpl; auto. destruct P1 as [A B]. split; auto.
    rewrite Forall_map. exact A.
  - rewrite Forall_map. eapply Forall_impl; [|exact P2]. unfold mono_ok; simpl. intros m [A B]. split; auto.
    intros E. apply Qcmult_integral in E. tauto.
Qed.
Lemma scale_val : forall I T c p, pval I T (tp_scale p c) = (c * pval I T p)%Qc.
Proof.
  intros. unfold pval, tp_scale. induction p as [|m p IH]; simpl; [ring|]. rewrite IH. ring.
Qed.
Lemma negate_scale : forall p, tp_negate p = tp_scale p (- (1))%Qc.
Proof. intros. unfold tp_negate, tp_scale. apply map_ext. intros [v c]; simpl. f_equal. ring. Qed.
Lemma neg1_nz : (- (1))%Qc <> 0%Qc. Proof. intro E. discriminate E. Qed.
Lemma one_nz : 1%Qc <> 0%Qc. Proof. intro E. discriminate E. Qed.

Lemma merge_snoc : forall p v c, Forall (fun m => mv_ltb (fst m) v = true) p ->
  tp_merge p [(v, c)] 1 = p ++ [(v, c)].
Proof.
  induction p as [|[w b] p IH]; intros v c F.
  - rewrite merge_nil_l. simpl. now rewrite Qcmult_1_r.
  - inversion F; subst. rewrite merge_cons. simpl in H1. rewrite H1, IH; auto.
Qed.
Lemma sorted_snoc_inv : forall p m q, sorted_p (p ++ m :: q) -> Forall (fun x => mv_ltb (fst x) (fst m) = true) p.
Proof.
  induction p as [|x p IH]; intros m q SO; simpl in *; constructor.
  - destruct SO as [A _]. apply Forall_app in A. destruct A as [_ A]. now inversion A.
  - eapply IH. apply SO.
Qed.

Lemma f2_length : forall {A B} {R : A -> B -> Prop} {a b}, Forall2 R a b -> length a = length b.
Proof. intros A B R a b F. induction F; simpl; congruence. Qed.

Lemma repr_valid : forall T p ts a, Forall2 (mono_repr T) p ts -> In a ts -> valid T a.
Proof.
  intros T p ts a F. induction F as [|m t p ts R F IH]; simpl; [tauto|]. intros [<-|Ia]; auto. apply R.
Qed.

Section A.
Variable H : hashes.

(** the call returned a real term with value [f] *)
Definition yr (T : table) (r : table * term) (f : interp -> Qc) : Prop :=
  wf H (fst r) /\ ext T (fst r) /\ real_t (fst r) (snd r) /\ forall I, treal I (fst r) (snd r) = f I.
Definition yrr (T : table) (r : res (table * term)) (f : interp -> Qc) : Prop :=
  exists p, r = Ok p /\ yr T p f.

Lemma pval_ext : forall I T T' p, ext T T' -> Forall (mono_ok T) p -> pval I T' p = pval I T p.
Proof.
  intros I T T' p X F. unfold pval. f_equal. apply map_ext_in. intros [v c] Im.
  eapply Forall_forall in F; eauto. destruct F as [_ F]. simpl in *. destruct v as [x|]; simpl; auto.
  rewrite (treal_ext I _ _ _ X); auto. apply F.
Qed.
Lemma poly_ok_ext : forall T T' p, ext T T' -> poly_ok T p -> poly_ok T' p.
Proof.
  intros T T' p X [A B]. split; auto. eapply Forall_impl; [|exact B].
  intros [v c] [C D]; split; auto. simpl in *. destruct v; auto. eapply var_ext; eauto.
Qed.

(** *** elements *)
Lemma const_ok : forall T q, wf H T -> exists T' t, arith_const H T q = (T', t) /\
  wf H T' /\ ext T T' /\ real_t T' t /\ node_of T' t = const_node q.
Proof.
  intros T q W. destruct (arith_const H T q) as [T' t] eqn:E. exists T', t. split; auto.
  unfold arith_const in E. destruct (get_wf _ _ (RRat q) _ _ W I E) as (W' & X & V & N & D & Q & _).
  { destruct (Qc_eq_dec q 0) as [->|NZ]; auto. right; right. simpl. split; auto. unfold wf_node; simpl. auto. tauto. }
  split; auto. split; auto. split; auto. split; auto. split; auto. unfold type_of. now rewrite D.
Qed.
Lemma const_eval : forall T I t q, wf H T -> real_t T t -> node_of T t = const_node q -> treal I T t = q.
Proof.
  intros T I t q W (V & _ & N) E. unfold treal. rewrite (teval_node _ _ I t W V N), E. reflexivity.
Qed.
Lemma const_kind : forall T t q, node_of T t = const_node q -> is_arith_const T t = true /\ const_value T t = Ok q.
Proof. intros T t q E. unfold is_arith_const, const_value, kind_of. rewrite E. auto. Qed.

Lemma varlike_flags : forall T x, varlike T x ->
  (is_uninterp T x || ((is_ite T x || is_app T x) && is_real T x)) = true /\ is_var_like T x = true /\ is_arith_const T x = false /\
  is_product T x = false /\ is_poly T x = false.
Proof.
  intros T x ((V & TY & N) & K). unfold is_var_like, is_uninterp, is_ite, is_app, is_real, is_arith_const, is_product, is_poly.
  rewrite TY. destruct K as [K|[K|K]]; rewrite K; auto.
Qed.
Lemma varlike_node : forall T x, varlike T x -> forall q, node_of T x <> const_node q.
Proof. intros T x [_ K] q E. unfold kind_of in K. rewrite E in K. destruct K as [K|[K|K]]; discriminate. Qed.

Lemma product_ok : forall T c x, wf H T -> c <> 0%Qc -> varlike T x ->
  exists T' t, arith_product H T c x = Ok (T', t) /\ wf H T' /\ ext T T' /\ real_t T' t /\
    (exists k, real_t T' k /\ node_of T' k = const_node c /\ tix x < tix t /\ tix k < tix t /\
       node_of T' t = mkNode KProduct TReal (DArgs [k; x])) /\
    forall I, treal I T' t = (c * treal I T x)%Qc.
Proof.
  intros T c x W NZ V. unfold arith_product. rewrite (proj1 (varlike_flags _ _ V)). simpl.
  destruct (const_ok T c W) as (T1 & k & E1 & W1 & X1 & R1 & N1). rewrite E1.
  destruct (get_term H T1 (RComp KProduct TReal [k; x])) as [T' t] eqn:E. exists T', t. split; auto.
  assert (RO : req_ok (RComp KProduct TReal [k; x])) by (unfold req_ok, op_ok; repeat split; discriminate).
  pose proof (var_ext _ _ _ X1 V) as V1.
  destruct (get_wf _ _ _ _ _ W1 RO E) as (W' & X & Vt & N & D & Q & _).
  { right; right. split.
    - unfold wf_node; simpl. split; auto. split; auto. split; eauto.
    - simpl. intros a [<-|[<-|[]]]; [apply R1|apply V1]. }
  split; auto. split; [eapply ext_trans; eauto|]. split.
  { split; auto. split; auto. unfold type_of. now rewrite D. }
  split.
  - exists k. split; [eapply real_ext; eauto|]. split; [rewrite (node_ext _ _ _ X); auto; apply R1|].
    split; [apply Q; simpl; auto|]. split; [apply Q; simpl; auto|]. exact D.
  - intros J. unfold treal at 1. rewrite (teval_node _ _ J t W' Vt N), D. simpl.
    fold (teval J T' k). fold (teval J T' x). fold (treal J T' k). fold (treal J T' x).
    rewrite (treal_ext J _ _ x (ext_trans _ _ _ X1 X) (proj1 (proj1 V))).
    rewrite (treal_ext J _ _ k X (proj1 R1)). now rewrite (const_eval _ J _ _ W1 R1 N1).
Qed.

(** *** poly_to_term *)
Lemma mono_ok_term : forall T m, wf H T -> mono_ok T m ->
  exists T' t, mono_to_term H T m = Ok (T', t) /\ wf H T' /\ ext T T' /\ mono_repr T' m t /\
    forall I, treal I T' t = (snd m * vval I T (fst m))%Qc.
Proof.
  intros T [v c] W [NZ V]. unfold mono_to_term. simpl in *.
  rewrite (proj2 (q_eqb_neq _ _) NZ). simpl. destruct v as [x|].
  - destruct (q_eqb c 1) eqn:E1.
    + apply q_eqb_eq in E1; subst. exists T, x. split; auto. split; auto. split; [apply ext_refl|].
      split; [|intros; simpl; ring]. split; [apply V|]. split; auto. simpl. split; auto.
    + apply q_eqb_neq in E1. destruct (product_ok T c x W NZ V) as (T' & t & E & W' & X & R & K & D).
      exists T', t. split; auto. split; auto. split; auto. split; auto.
      split; auto. split; auto. simpl. split; [eapply var_ext; eauto|]. right. split; auto.
  - destruct (const_ok T c W) as (T' & t & E & W' & X & R & N). exists T', t. rewrite E. split; auto. split; auto.
    split; auto. split; [split; auto|]. intros J. rewrite (const_eval _ J _ _ W' R N). simpl. ring.
Qed.
Lemma monos_ok_terms : forall p T, wf H T -> Forall (mono_ok T) p ->
  exists T' ts, monos_to_terms H T p = Ok (T', ts) /\ wf H T' /\ ext T T' /\ Forall2 (mono_repr T') p ts /\
    forall I, map (treal I T') ts = map (fun m => (snd m * vval I T (fst m))%Qc) p.
Proof.
  induction p as [|m p IH]; intros T W F; simpl.
  - exists T, []. split; auto. split; auto. split; [apply ext_refl|]. split; auto.
  - inversion F as [|? ? F1 F2]; subst. destruct (mono_ok_term T m W F1) as (T1 & t & E & W1 & X1 & R & D).
    rewrite E. simpl. destruct (IH T1 W1) as (T2 & ts & E2 & W2 & X2 & R2 & D2).
    { eapply Forall_impl; [|exact F2]. intros [v c] [A B]; split; auto. simpl in *. destruct v; auto. eapply var_ext; eauto. }
    rewrite E2. simpl. exists T2, (t :: ts). split; auto. split; auto. split; [eapply ext_trans; eauto|].
    split; [constructor; auto; eapply repr_ext; eauto|].
    intros J. simpl. rewrite D2. f_equal.
    + rewrite (treal_ext J _ _ t X2), D; auto. apply R.
    + apply map_ext_in. intros [v c] Im. eapply Forall_forall in F2; eauto. destruct F2 as [_ F2]. simpl in *.
      destruct v as [x|]; simpl; auto. rewrite (treal_ext J _ _ x X1); auto. apply F2.
Qed.
Lemma poly_term_ok : forall p T, wf H T -> poly_ok T p ->
  yrr T (poly_to_term H T p) (fun I => pval I T p).
Proof.
  intros p T W [SO F]. unfold poly_to_term. destruct p as [|m [|m' p]].
  - eexists; split; [reflexivity|]. split; [|split; [|split]]; simpl; auto using ext_refl.
    + apply (prim_types _ _ W).
    + intros J. unfold treal. now rewrite (proj2 (proj2 (prim_teval _ _ J W))).
  - inversion F; subst. destruct (mono_ok_term T m W H2) as (T' & t & E & W' & X & R & D).
    rewrite E. eexists; split; [reflexivity|]. split; [|split; [|split]]; simpl; auto.
    + apply R.
    + intros J. rewrite D. unfold pval; simpl. ring.
  - destruct (monos_ok_terms _ T W F) as (T1 & ts & E & W1 & X1 & R & D). rewrite E. cbn [bind fst snd].
    unfold arith_poly. pose proof (f2_length R) as L. simpl in L. rewrite <- L. cbn [Nat.leb assertb bind].
    destruct (get_term H T1 (RComp KPoly TReal ts)) as [T' t] eqn:G.
    assert (RO : req_ok (RComp KPoly TReal ts)) by (unfold req_ok, op_ok; repeat split; discriminate).
    destruct (get_wf _ _ _ _ _ W1 RO G) as (W' & X & Vt & N & DD & Q & _).
    { right; right. split.
      - unfold wf_node; simpl. split; auto. split; [lia|]. exists (m :: m' :: p). split; auto.
      - simpl. intros a Ia. exact (repr_valid _ _ _ _ R Ia). }
    eexists; split; [reflexivity|]. split; [|split; [|split]]; simpl; auto.
    + eapply ext_trans; eauto.
    + split; auto. split; auto. unfold type_of. now rewrite DD.
    + intros J. unfold treal. rewrite (teval_node _ _ J t W' Vt N), DD. simpl. unfold pval.
      rewrite <- D. f_equal. apply map_ext_in. intros a Ia. fold (teval J T' a). fold (treal J T' a).
      apply (treal_ext J _ _ a X). exact (repr_valid _ _ _ _ R Ia).
Qed.

(** *** term_to_poly *)
(** the polynomial of a term, read off the table *)
Inductive poly_of (T : table) (t : term) : tpoly -> Prop :=
| po_zero : t = zero_term -> poly_of T t []
| po_const : forall q, q <> 0%Qc -> node_of T t = const_node q -> poly_of T t [(None, q)]
| po_var : varkind (kind_of T t) -> poly_of T t [(Some t, 1%Qc)]
| po_prod : forall k x q, node_of T t = mkNode KProduct TReal (DArgs [k; x]) -> real_t T k -> node_of T k = const_node q ->
    q <> 0%Qc -> varlike T x -> poly_of T t [(Some x, q)]
| po_poly : forall ms p, node_of T t = mkNode KPoly TReal (DArgs ms) -> 2 <= length ms -> sorted_p p ->
    Forall2 (mono_repr T) p ms -> poly_of T t p.

Lemma poly_of_ex : forall T t, wf H T -> real_t T t -> exists p, poly_of T t p.
Proof.
  intros T t W (V & TY & N). destruct (Nat.lt_ge_cases (tix t) 3) as [U|U].
  - destruct (small_node _ _ _ W V U) as [[E1 E]|[E1 E]].
    + unfold type_of in TY. rewrite E in TY. discriminate.
    + exists []. apply po_zero. destruct t as [i m]; simpl in *; subst. reflexivity.
  - pose proof (node_wf _ _ _ W U (proj2 V)) as [Wn Ln]. unfold type_of in TY.
    destruct (node_of T t) as [kd ty d] eqn:E. unfold wf_node in Wn; simpl in *. subst ty.
    assert (K : kind_of T t = kd) by (unfold kind_of; now rewrite E).
    destruct kd, d as [|args|q|j]; try tauto; try (destruct Wn; discriminate).
    + exists [(None, q)]. apply po_const; auto. tauto.
    + exists [(Some t, 1%Qc)]. apply po_var. unfold varkind; auto.
    + exists [(Some t, 1%Qc)]. apply po_var. unfold varkind; auto.
    + exists [(Some t, 1%Qc)]. apply po_var. unfold varkind; auto.
    + destruct args as [|c [|]]; try tauto; destruct Wn; discriminate.
    + destruct args as [|c [|]]; try tauto; destruct Wn; discriminate.
    + destruct args as [|c [|t1 [|]]]; try tauto; destruct Wn; discriminate.
    + destruct args as [|k [|x [|]]]; try tauto. destruct Wn as (_ & A & (q & B & C) & D).
      exists [(Some x, q)]. eapply po_prod; eauto.
    + destruct Wn as (_ & A & p & B & C). exists p. eapply po_poly; eauto.
Qed.

Lemma poly_of_ok : forall T t p, wf H T -> real_t T t -> poly_of T t p -> poly_ok T p.
Proof.
  intros T t p W R P. inversion P; subst.
  - split; simpl; auto.
  - split; simpl; auto. constructor; auto. split; simpl; auto.
  - split; simpl; auto. constructor; auto. split; simpl; [apply one_nz|]. split; auto.
  - split; simpl; auto. constructor; auto. split; simpl; auto.
  - split; auto. clear -H3. induction H3; constructor; auto.
    destruct H as (A & B & C). split; auto. destruct x as [[x|] c]; simpl in *; auto. apply C.
Qed.

Lemma repr_term : forall T m t f, wf H T -> mono_repr T m t -> term_to_poly_f (S f) T t = Ok [m].
Proof.
  intros T [v c] t f W (R & NZ & C). simpl in *. destruct v as [x|].
  - destruct C as [V [[-> ->]|(N1 & k & Rk & Nk & L1 & L2 & Nt)]].
    + destruct (varlike_flags _ _ V) as (_ & F & A & B & D). unfold is_var_like in F. now rewrite A, F.
    + unfold is_arith_const, is_uninterp, is_ite, is_app, is_product, var_of_product, coeff_of_product, kind_of.
      rewrite Nt. simpl. unfold const_value, kind_of. now rewrite Nk.
  - destruct (const_kind _ _ _ C) as [A B]. rewrite A.
    destruct (t_eqb t zero_term) eqn:E.
    + apply t_eqb_eq in E; subst. destruct (small_node _ _ zero_term W (proj1 R) ltac:(simpl; lia)) as [[E _]|[_ E]]; [discriminate|].
      rewrite C in E. inversion E. congruence.
    + now rewrite B.
Qed.

Lemma term_poly_ok : forall T t p, wf H T -> real_t T t -> poly_of T t p -> term_to_poly T t = Ok p.
Proof.
  intros T t p W R P. unfold term_to_poly. inversion P; subst.
  - simpl. assert (E : is_arith_const T zero_term = true).
    { destruct (small_node _ _ zero_term W (proj1 R) ltac:(simpl; lia)) as [[E _]|[_ E]]; [discriminate|].
      apply (const_kind _ _ _ E). }
    rewrite E. reflexivity.
  - apply repr_term; auto. split; auto.
  - apply repr_term; auto. split; auto. split; [apply one_nz|]. simpl. split; [split; auto|]. auto.
  - cbn [term_to_poly_f]. unfold is_arith_const, is_uninterp, is_ite, is_app, is_product, var_of_product, coeff_of_product, kind_of.
    rewrite H0. simpl. unfold const_value, kind_of. now rewrite H2.
  - cbn -[term_to_poly_f]. remember 1 as f eqn:Ef. cbn [term_to_poly_f].
    unfold is_arith_const, is_uninterp, is_ite, is_app, is_product, is_poly, monomials_of, kind_of.
    rewrite H0. cbn [n_kind n_desc k_eqb kcode Nat.eqb orb bind].
    assert (G : forall ms p' q, Forall2 (mono_repr T) q ms -> sorted_p (p' ++ q) ->
      (fix go (p0 : tpoly) (ms0 : list term) {struct ms0} : res tpoly :=
         match ms0 with
         | [] => Ok p0
         | m :: ms' => q0 <- term_to_poly_f f T m;; go (tp_merge p0 q0 1) ms'
         end) p' ms = Ok (p' ++ q)).
    { clear -W Ef. induction ms as [|m ms IH]; intros p' q F SO; inversion F; subst.
      - now rewrite app_nil_r.
      - rewrite (repr_term _ _ _ _ W H3). cbn [bind].
        assert (M : tp_merge p' [x] 1 = p' ++ [x]).
        { destruct x as [v c]. apply merge_snoc. apply sorted_snoc_inv in SO. exact SO. }
        rewrite M, (IH _ l); auto; rewrite <- app_assoc; auto. }
    rewrite (G ms [] p); auto.
Qed.

Lemma repr_val : forall T m t I, wf H T -> mono_repr T m t -> treal I T t = (snd m * vval I T (fst m))%Qc.
Proof.
  intros T [v c] t J W (R & NZ & C). simpl in *. destruct v as [x|].
  - destruct C as [V [[-> ->]|(N1 & k & Rk & Nk & L1 & L2 & Nt)]]; [simpl; ring|].
    unfold treal. rewrite (teval_node _ _ J t W (proj1 R) (proj2 (proj2 R))), Nt. simpl.
    fold (teval J T k). fold (teval J T x). fold (treal J T k). fold (treal J T x).
    now rewrite (const_eval _ J _ _ W Rk Nk).
  - rewrite (const_eval _ J _ _ W R C). simpl. ring.
Qed.
Lemma poly_of_val : forall T t p I, wf H T -> real_t T t -> poly_of T t p -> pval I T p = treal I T t.
Proof.
  intros T t p J W R P. inversion P; subst.
  - unfold treal. now rewrite (proj2 (proj2 (prim_teval _ _ J W))).
  - rewrite (const_eval _ J _ _ W R H1). unfold pval; simpl. ring.
  - unfold pval; simpl. ring.
  - unfold treal. rewrite (teval_node _ _ J t W (proj1 R) (proj2 (proj2 R))), H0. simpl.
    fold (teval J T k). fold (teval J T x). fold (treal J T k). fold (treal J T x).
    rewrite (const_eval _ J _ _ W H1 H2). unfold pval; simpl. ring.
  - unfold treal. rewrite (teval_node _ _ J t W (proj1 R) (proj2 (proj2 R))), H0. simpl.
    unfold pval. f_equal. clear -W H3. induction H3 as [|m t0 p ms R F IH]; simpl; auto.
    rewrite IH. fold (teval J T t0). fold (treal J T t0). now rewrite (repr_val _ _ _ J W R).
Qed.
Lemma to_poly : forall T t, wf H T -> real_t T t -> exists p, term_to_poly T t = Ok p /\ poly_ok T p /\
  poly_of T t p /\ forall I, pval I T p = treal I T t.
Proof.
  intros T t W R. destruct (poly_of_ex T t W R) as [p P]. exists p.
  split; [now apply term_poly_ok|]. split; [eapply poly_of_ok; eauto|]. split; auto.
  intros; now apply poly_of_val.
Qed.

(** *** the constructors *)
Lemma yr_ext : forall T r f g, yr T r f -> (forall I, f I = g I) -> yr T r g.
Proof. intros T r f g (A & B & C & D) E. split; [|split; [|split]]; auto. intros; now rewrite D. Qed.
Lemma yrr_ext : forall T r f g, yrr T r f -> (forall I, f I = g I) -> yrr T r g.
Proof. intros T r f g (p & A & B) E. exists p. split; auto. eapply yr_ext; eauto. Qed.
Lemma yr_same : forall T t f, wf H T -> real_t T t -> (forall I, treal I T t = f I) -> yr T (T, t) f.
Proof. intros T t f W B E. split; [|split; [|split]]; simpl; auto using ext_refl. Qed.

Lemma minus_ok : forall T a b, wf H T -> real_t T a -> real_t T b ->
  yrr T (mk_minus H T a b) (fun I => (treal I T a - treal I T b)%Qc).
Proof.
  intros T a b W A B. unfold mk_minus.
  destruct (to_poly T a W A) as (p & E1 & O1 & _ & V1). destruct (to_poly T b W B) as (q & E2 & O2 & _ & V2).
  rewrite E1, E2. cbn [bind]. eapply yrr_ext; [apply poly_term_ok; auto; apply merge_ok; auto using neg1_nz|].
  intros J; simpl. rewrite merge_val, V1, V2. ring.
Qed.
Lemma uminus_ok : forall T a, wf H T -> real_t T a -> yrr T (mk_uminus H T a) (fun I => (- treal I T a)%Qc).
Proof.
  intros T a W A. unfold mk_uminus. destruct (to_poly T a W A) as (p & E1 & O1 & _ & V1). rewrite E1. cbn [bind].
  rewrite negate_scale. eapply yrr_ext; [apply poly_term_ok; auto; apply scale_ok; auto using neg1_nz|].
  intros J; simpl. rewrite scale_val, V1. ring.
Qed.
Lemma sum_polys_ok : forall T args p, wf H T -> Forall (real_t T) args -> poly_ok T p ->
  exists q, sum_polys T p args = Ok q /\ poly_ok T q /\
    forall I, pval I T q = (pval I T p + Qcsum (map (treal I T) args))%Qc.
Proof.
  intros T args. induction args as [|a args IH]; intros p W F O; simpl.
  - exists p. split; auto. split; auto. intros; ring.
  - inversion F; subst. destruct (to_poly T a W H2) as (q & E1 & O1 & _ & V1). rewrite E1. cbn [bind].
    destruct (IH (tp_merge p q 1) W H3 (merge_ok _ _ _ _ one_nz O O1)) as (r & E & O2 & V).
    exists r. split; auto. split; auto. intros J. rewrite V, merge_val, V1. ring.
Qed.
Lemma plus_ok : forall T args, wf H T -> Forall (real_t T) args ->
  yrr T (mk_plus H T args) (fun I => Qcsum (map (treal I T) args)).
Proof.
  intros T args W F. unfold mk_plus.
  destruct (sum_polys_ok T args [] W F) as (q & E & O & V); [split; simpl; auto|].
  rewrite E. cbn [bind]. eapply yrr_ext; [apply poly_term_ok; auto|].
  intros J; simpl. rewrite V. unfold pval; simpl. ring.
Qed.
Lemma geq_ok : forall T a b, wf H T -> real_t T a -> real_t T b ->
  yrb H T (mk_geq H T a b) (fun I => Qc_geb (treal I T a) (treal I T b)).
Proof.
  intros T a b W A B. unfold mk_geq. destruct (minus_ok T a b W A B) as ([T1 d] & E & W1 & X1 & R1 & V1).
  simpl in *. rewrite E. cbn [bind].
  assert (GE : forall x y : Qc, Qc_geb x y = Qc_geb (x - y)%Qc 0).
  { intros x y. unfold Qc_geb. destruct (Qclt_le_dec x y) as [L|L], (Qclt_le_dec (x - y) 0) as [M|M]; auto; exfalso.
    - apply Qclt_minus_iff in L. apply (Qcplus_le_compat _ _ (y - x) (y - x)) in M; [|apply Qcle_refl].
      replace (0 + (y - x))%Qc with (y + - x)%Qc in M by ring. replace (x - y + (y - x))%Qc with 0%Qc in M by ring.
      exact (Qclt_not_le _ _ L M).
    - apply Qcle_minus_iff in L. replace (x + - y)%Qc with (x - y)%Qc in L by ring. exact (Qclt_not_le _ _ M L). }
  destruct (is_arith_const T1 d) eqn:IC.
  - (* constant difference *)
    assert (ND : exists v, node_of T1 d = const_node v).
    { destruct (poly_of_ex T1 d W1 R1) as [p P].
      assert (K : kind_of T1 d = KArithConst) by (now apply k_eqb_eq).
      inversion P; subst; eauto.
      - exists 0%Qc. destruct (small_node _ _ zero_term W1 (proj1 R1) ltac:(simpl; lia)) as [[E0 _]|[_ E0]]; [discriminate|auto].
      - rewrite K in H0. destruct H0 as [X|[X|X]]; discriminate.
      - unfold kind_of in K. rewrite H0 in K. discriminate.
      - unfold kind_of in K. rewrite H0 in K. discriminate. }
    destruct ND as [v ND]. rewrite (proj2 (const_kind _ _ _ ND)). cbn [bind].
    assert (VV : forall I, (treal I T a - treal I T b)%Qc = v).
    { intros I. rewrite <- V1. apply (const_eval _ I _ _ W1 R1 ND). }
    eexists; split; [reflexivity|]. eapply yb_from; [exact X1|].
    destruct (Qclt_le_dec v 0) as [L|L].
    + apply yb_false; auto. intros I. rewrite GE, VV. unfold Qc_geb. destruct (Qclt_le_dec v 0); auto.
      exfalso. exact (Qclt_not_le _ _ L q).
    + apply yb_true; auto. intros I. rewrite GE, VV. unfold Qc_geb. destruct (Qclt_le_dec v 0); auto.
      exfalso. exact (Qclt_not_le _ _ q L).
  - unfold arith_geq_zero. assert (RR : is_real T1 d = true) by (unfold is_real; now rewrite (proj1 (proj2 R1))).
    rewrite RR. cbn [assertb bind]. destruct (get_term H T1 (RComp KArithGe TBool [d])) as [T' t] eqn:G.
    assert (RO : req_ok (RComp KArithGe TBool [d])) by (unfold req_ok, op_ok; repeat split; discriminate).
    destruct (get_wf _ _ _ _ _ W1 RO G) as (W' & X & Vt & N & DD & Q & _).
    { right; right. split; [unfold wf_node; simpl; auto|]. simpl. intros t0 [<-|[]]. apply R1. }
    eexists; split; [reflexivity|]. split; [|split; [|split]]; simpl; auto.
    + eapply ext_trans; eauto.
    + split; auto. unfold type_of. now rewrite DD.
    + intros J. unfold tholds. rewrite (teval_node _ _ J t W' Vt N), DD. simpl.
      fold (teval J T' d). fold (treal J T' d). rewrite (treal_ext J _ _ d X (proj1 R1)), V1. symmetry. apply GE.
Qed.
Lemma lt_ok : forall T a b, wf H T -> real_t T a -> real_t T b ->
  yrb H T (mk_lt H T a b) (fun I => negb (Qc_geb (treal I T a) (treal I T b))).
Proof.
  intros T a b W A B. unfold mk_lt. destruct (geq_ok T a b W A B) as (p & E & Y). rewrite E. cbn [bind].
  eexists; split; [reflexivity|]. now apply yb_opp.
Qed.
Lemma arith_ite_ok : forall T c t e, wf H T -> bool_t T c -> real_t T t -> real_t T e ->
  yrr T (mk_arith_ite H T c t e) (fun I => if tholds I T c then treal I T t else treal I T e).
Proof.
  intros T c t e W C A B. unfold mk_arith_ite.
  destruct (t_eqb c true_term) eqn:E1.
  { apply t_eqb_eq in E1; subst. eexists; split; [reflexivity|]. apply yr_same; auto. intros. now rewrite (tholds_true H). }
  destruct (t_eqb c false_term) eqn:E2.
  { apply t_eqb_eq in E2; subst. eexists; split; [reflexivity|]. apply yr_same; auto. intros. now rewrite (tholds_false H). }
  destruct (t_eqb t e) eqn:E3.
  { apply t_eqb_eq in E3; subst. eexists; split; [reflexivity|]. apply yr_same; auto. intros I. now destruct (tholds I T c). }
  apply t_eqb_neq in E1, E2.
  assert (NC : tix c <> 1). { intro E. destruct c as [i []]; simpl in E; subst; auto. }
  assert (G : forall c t e, tix c <> 1 -> tneg c = false -> bool_t T c -> real_t T t -> real_t T e ->
    yrr T (arith_ite H T c t e) (fun I => if tholds I T c then treal I T t else treal I T e)).
  { clear -W. intros c t e NC NEG C A B. unfold arith_ite, is_bool, is_real.
    rewrite (proj2 C), (proj1 (proj2 A)), (proj1 (proj2 B)). cbn [ty_eqb andb assertb bind].
    destruct (get_term H T (RComp KIte TReal [c; t; e])) as [T' r] eqn:G.
    assert (RO : req_ok (RComp KIte TReal [c; t; e])) by (unfold req_ok, op_ok; repeat split; discriminate).
    destruct (get_wf _ _ _ _ _ W RO G) as (W' & X & Vt & N & DD & Q & _).
    { right; right. split; [unfold wf_node; simpl; auto 6|]. simpl. intros t0 [<-|[<-|[<-|[]]]]; [apply C|apply A|apply B]. }
    eexists; split; [reflexivity|]. split; [|split; [|split]]; simpl; auto.
    + split; auto. split; auto. unfold type_of. now rewrite DD.
    + intros J. unfold treal at 1. rewrite (teval_node _ _ J r W' Vt N), DD. simpl.
      change (as_r (if tholds J T' c then teval J T' t else teval J T' e) =
        (if tholds J T c then treal J T t else treal J T e)).
      rewrite (tholds_ext J _ _ c X (proj1 C)).
      rewrite <- (treal_ext J _ _ _ X (proj1 A)), <- (treal_ext J _ _ _ X (proj1 B)).
      now destruct (tholds J T c). }
  destruct (tneg c) eqn:NEG.
  - eapply yrr_ext; [apply (G (opp c) e t); auto using bool_opp; unfold opp; simpl; rewrite ?NEG; auto|].
    intros J; simpl. rewrite (tholds_opp _ _ J _ W C). now destruct (tholds J T c).
  - apply G; auto.
Qed.
End A.
