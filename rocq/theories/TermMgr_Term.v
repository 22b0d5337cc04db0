(** All operators of the term manager, and reachable tables. *)
From Coq Require Import List Arith ZArith QArith Qcanon NArith Bool Lia.
From Verif Require Import Base Terms_Model Spec_Terms Terms_Proofs TermMgr_Model Spec_TermMgr TermMgr_Base TermMgr_Bool TermMgr_Arith TermMgr_Eq.
Import ListNotations.
Close Scope Qc_scope.
Close Scope Q_scope.
Open Scope nat_scope.

Lemma op_eq_dec : forall a b : op, {a = b} + {a <> b}.
Proof. decide equality. Qed.

Section M.
Variable H : hashes.

(** the call returned a term of type [y] with the value [f] *)
Definition yv (T : table) (r : table * term) (y : ty) (f : interp -> value) : Prop :=
  wf H (fst r) /\ ext T (fst r) /\ has_type (fst r) (snd r) y /\ forall I, teval I (fst r) (snd r) = f I.
Definition yrv (T : table) (r : res (table * term)) (y : ty) (f : interp -> value) : Prop :=
  exists p, r = Ok p /\ yv T p y f.

Lemma yb_yv : forall T r f, yb H T r f -> yv T r TBool (fun I => VB (f I)).
Proof.
  intros T r f (A & B & C & D). split; [|split; [|split]]; auto. intros I. rewrite (bool_value _ _ I _ A C). now rewrite D.
Qed.
Lemma yr_yv : forall T r f, yr H T r f -> yv T r TReal (fun I => VR (f I)).
Proof.
  intros T r f (A & B & C & D). split; [|split; [|split]]; auto. intros I. rewrite (real_value _ _ I _ A C). now rewrite D.
Qed.
Lemma yv_ext : forall T r y f g, yv T r y f -> (forall I, f I = g I) -> yv T r y g.
Proof. intros T r y f g (A & B & C & D) E. split; [|split; [|split]]; auto. intros; now rewrite D. Qed.

Lemma f2_real : forall T args tys, Forall2 (has_type T) args tys -> forallb (ty_eqb TReal) tys = true -> Forall (real_t T) args.
Proof.
  intros T args tys F. induction F as [|a y args tys A F IH]; simpl; constructor; apply andb_prop in H0; destruct H0 as [E1 E2].
  - destruct y; try discriminate. exact A.
  - auto.
Qed.
Lemma f2_bool : forall T args tys, Forall2 (has_type T) args tys -> forallb (ty_eqb TBool) tys = true -> Forall (bool_t T) args.
Proof.
  intros T args tys F. induction F as [|a y args tys A F IH]; simpl; constructor; apply andb_prop in H0; destruct H0 as [E1 E2].
  - destruct y; try discriminate. exact A.
  - auto.
Qed.
Lemma vals_bool : forall T args I, wf H T -> Forall (bool_t T) args -> map (teval I T) args = map (fun a => VB (tholds I T a)) args.
Proof. intros T args I W F. induction F; simpl; auto. rewrite IHF. f_equal. now apply (bool_value H). Qed.
Lemma vals_real : forall T args I, wf H T -> Forall (real_t T) args -> map (teval I T) args = map (fun a => VR (treal I T a)) args.
Proof. intros T args I W F. induction F; simpl; auto. rewrite IHF. f_equal. now apply (real_value H). Qed.

(** *** equality of two terms of one sort *)
Lemma eq_ok : forall T a b y, wf H T -> has_type T a y -> has_type T b y ->
  (exists T' t, mk_eq H T [a; b] = Ok (T', t) /\ yb H T (T', t) (fun I => value_eqb (teval I T a) (teval I T b))) \/
  (mk_eq H T [a; b] = UB /\ y = TReal /\ unit_pair T a b).
Proof.
  intros T a b y W A B. unfold mk_eq, mk_binary_eq. destruct y; simpl in A, B; try tauto.
  - rewrite (proj2 A), (proj2 B). cbn [ty_eqb assertb bind]. left.
    pose proof (iff_ok H T a b W A B) as Y. destruct (mk_iff H T a b) as [T' t]. exists T', t. split; auto.
    eapply yb_ext; [exact Y|]. intros I; simpl. now rewrite (bool_value _ _ I _ W A), (bool_value _ _ I _ W B).
  - rewrite (proj1 (proj2 A)), (proj1 (proj2 B)). cbn [ty_eqb assertb bind].
    destruct (arith_eq_ok H T a b W A B) as [(T' & t & E & _ & Y)|(E & k & x & N & _ & C)].
    + left. exists T', t. split; auto. eapply yb_ext; [exact Y|]. intros I; simpl.
      now rewrite (real_value _ _ I _ W A), (real_value _ _ I _ W B).
    + right. split; auto. split; auto. exists k, x. auto.
Qed.

Lemma has_valid : forall T t y, has_type T t y -> valid T t.
Proof. intros T t [] A; simpl in A; try tauto; apply A. Qed.
Lemma has_ext : forall T T' t y, ext T T' -> has_type T t y -> has_type T' t y.
Proof. intros T T' t [] X A; simpl in *; auto; [eapply bool_ext|eapply real_ext]; eauto. Qed.

Lemma args_valid : forall T t a, wf H T -> valid T t -> In a (dargs (node_of T t)) -> tix a < length (tt_nodes T).
Proof.
  intros T t a W V I. destruct (le_lt_dec 3 (tix t)) as [L|L].
  - destruct (node_wf _ _ _ W L (proj2 V)) as [_ A]. specialize (A _ I). destruct V. lia.
  - destruct (small_node _ _ _ W V L) as [[_ E]|[_ E]]; rewrite E in I; destruct I.
Qed.
Lemma unit_back : forall T T' a b, wf H T -> ext T T' -> valid T a -> valid T b -> unit_pair T' a b -> unit_pair T a b.
Proof.
  intros T T' a b W X A B (k & x & N & C). exists k, x.
  rewrite (node_ext _ _ _ X A), (node_ext _ _ _ X B) in C. split; auto.
  assert (K : tix k < length (tt_nodes T)).
  { destruct C as [[_ C]|[_ C]].
    - apply (args_valid T a k W A). rewrite C. simpl; auto.
    - apply (args_valid T b k W B). rewrite C. simpl; auto. }
  assert (valid T k).
  { split; auto. destruct (le_lt_dec 1 (tix k)); auto. exfalso.
    assert (E : tix k = 0) by lia. destruct C as [[_ C]|[_ C]].
    - destruct (le_lt_dec 3 (tix a)) as [L|L].
      + destruct (node_wf _ _ _ W L (proj2 A)) as [Z _]. rewrite C in Z. simpl in Z. destruct Z as (_ & (Z & _) & _). destruct Z. lia.
      + destruct (small_node _ _ _ W A L) as [[_ E1]|[_ E1]]; rewrite E1 in C; discriminate.
    - destruct (le_lt_dec 3 (tix b)) as [L|L].
      + destruct (node_wf _ _ _ W L (proj2 B)) as [Z _]. rewrite C in Z. simpl in Z. destruct Z as (_ & (Z & _) & _). destruct Z. lia.
      + destruct (small_node _ _ _ W B L) as [[_ E1]|[_ E1]]; rewrite E1 in C; discriminate. }
  now rewrite <- (node_ext _ _ _ X H0).
Qed.

Definition ylist (T : table) (p : table * list term) (f : interp -> bool) : Prop :=
  wf H (fst p) /\ ext T (fst p) /\ Forall (bool_t (fst p)) (snd p) /\ forall I, forallb (tholds I (fst p)) (snd p) = f I.
Lemma forallb_ext_t : forall T T' ts I, ext T T' -> Forall (bool_t T) ts -> forallb (tholds I T') ts = forallb (tholds I T) ts.
Proof. intros T T' ts I X F. induction F; simpl; auto. rewrite IHF. f_equal. apply (tholds_ext I _ _ _ X). apply H0. Qed.
Lemma vals_ext : forall T T' l I y, ext T T' -> Forall (fun b => has_type T b y) l -> map (teval I T') l = map (teval I T) l.
Proof.
  intros T T' l I y X F. induction F; simpl; auto. rewrite IHF. f_equal. apply teval_ext; auto.
  destruct (has_valid _ _ _ H0); auto.
Qed.

Lemma neqs_with_ok : forall l T a y, wf H T -> has_type T a y -> Forall (fun b => has_type T b y) l ->
  (exists p, neqs_with H T a l = Ok p /\
     ylist T p (fun I => negb (existsb (value_eqb (teval I T a)) (map (teval I T) l)))) \/
  (neqs_with H T a l = UB /\ y = TReal /\ exists b, In b l /\ unit_pair T a b).
Proof.
  induction l as [|b l IH]; intros T a y W A F.
  - left. eexists; split; [reflexivity|]. split; [|split; [|split]]; simpl; auto using ext_refl.
  - inversion F as [|? ? B F']; subst. cbn [neqs_with].
    destruct (eq_ok T a b y W A B) as [(T' & t & E & Y)|(E & ? & U)].
    2:{ right. rewrite E. split; auto. split; auto. exists b; simpl; auto. }
    rewrite E. cbn [bind fst snd]. apply yb_opp in Y. cbn [fst snd] in Y. destruct Y as (W' & X & Bt & D). cbn [fst snd] in *.
    assert (F2 : Forall (fun b => has_type T' b y) l).
    { eapply Forall_impl; [|exact F']. intros; eapply has_ext; eauto. }
    destruct (IH T' a y W' (has_ext _ _ _ _ X A) F2) as [(p & E2 & W2 & X2 & B2 & D2)|(E2 & ? & c & Ic & U)].
    + left. rewrite E2. cbn [bind]. eexists; split; [reflexivity|]. split; [|split; [|split]]; cbn [fst snd]; auto.
      * eapply ext_trans; eauto.
      * constructor; auto. eapply bool_ext; eauto.
      * intros I. cbn [forallb map existsb]. rewrite D2, negb_orb, (vals_ext T T' l I y X F').
        rewrite (teval_ext I T T' a X); [|destruct (has_valid _ _ _ A); auto]. f_equal.
        rewrite (tholds_ext I _ _ _ X2 (proj1 Bt)). apply D.
    + right. rewrite E2. split; auto. split; auto. exists c. split; [simpl; auto|].
      eapply unit_back; eauto using has_valid. eapply has_valid. eapply Forall_forall in F'; eauto.
Qed.
Lemma neqs_ok : forall l T y, wf H T -> Forall (fun b => has_type T b y) l ->
  (exists p, neqs H T l = Ok p /\ ylist T p (fun I => all_distinct (map (teval I T) l))) \/
  (neqs H T l = UB /\ y = TReal /\ exists a b, In a l /\ In b l /\ unit_pair T a b).
Proof.
  induction l as [|a l IH]; intros T y W F.
  - left. eexists; split; [reflexivity|]. split; [|split; [|split]]; simpl; auto using ext_refl.
  - inversion F as [|? ? A F']; subst. cbn [neqs].
    destruct (neqs_with_ok l T a y W A F') as [(p & E & W' & X & B & D)|(E & ? & b & Ib & U)].
    2:{ right. rewrite E. split; auto. split; auto. exists a, b; simpl; auto. }
    rewrite E. cbn [bind].
    assert (F2 : Forall (fun b => has_type (fst p) b y) l).
    { eapply Forall_impl; [|exact F']. intros; eapply has_ext; eauto. }
    destruct (IH (fst p) y W' F2) as [(p2 & E2 & W2 & X2 & B2 & D2)|(E2 & ? & c & d & Ic & Id & U)].
    + left. rewrite E2. cbn [bind]. eexists; split; [reflexivity|]. split; [|split; [|split]]; cbn [fst snd]; auto.
      * eapply ext_trans; eauto.
      * apply Forall_app. split; auto. eapply Forall_impl; [|exact B]. intros; eapply bool_ext; eauto.
      * intros I. cbn [map all_distinct]. rewrite forallb_app, D2, (forallb_ext_t _ _ _ I X2 B), D.
        now rewrite (vals_ext T _ l I y X F').
    + right. rewrite E2. split; auto. split; auto. exists c, d. split; [simpl; auto|]. split; [simpl; auto|].
      eapply unit_back; eauto; eapply has_valid; eapply Forall_forall in F'; eauto.
Qed.

Definition div_exact (T : table) (a b : term) : Prop :=
  forall q, node_of T b = const_node q -> q <> 0%Qc /\ (is_arith_const T a = true \/ q_inv q = Ok (/ q)%Qc).

Lemma times_ok_lin : forall T args r, mk_times H T args = Ok r -> lin T args.
Proof.
  intros T [|a [|b [|c args]]] r E; simpl; auto.
  - unfold mk_times in E. cbn [length Nat.eqb assertb bind filter] in E.
    destruct (is_arith_const T a), (is_arith_const T b); auto. discriminate.
  - discriminate.
Qed.

(** what every operator returns *)
Theorem mk_term_ok : forall T o args tys y, wf H T -> Forall2 (has_type T) args tys -> op_sig o tys = Some y ->
  (o = OTimes -> lin T args) -> o <> ODiv ->
  yrv T (mk_term H T o args) y (fun I => op_sem o (map (teval I T) args)) \/
  (mk_term H T o args = UB /\ (o = OEq \/ o = ODistinct) /\ exists a b, In a args /\ In b args /\ unit_pair T a b).
Proof.
  intros T o args tys y W F G L ND.
  assert (BV : forall a I, bool_t T a -> teval I T a = VB (tholds I T a)) by (intros; now apply (bool_value H)).
  assert (RV : forall a I, real_t T a -> teval I T a = VR (treal I T a)) by (intros; now apply (real_value H)).
  assert (LB : forall r f g, yrb H T r f -> (forall I, VB (f I) = g I) -> yrv T r TBool g).
  { intros r f g (p & -> & Y) E. exists p. split; auto. eapply yv_ext; [apply yb_yv; exact Y|exact E]. }
  assert (LR : forall r f g, yrr H T r f -> (forall I, VR (f I) = g I) -> yrv T r TReal g).
  { intros r f g (p & -> & Y) E. exists p. split; auto. eapply yv_ext; [apply yr_yv; exact Y|exact E]. }
  assert (LB0 : forall p f g, yb H T p f -> (forall I, VB (f I) = g I) -> yrv T (Ok p) TBool g).
  { intros p f g Y E. exists p. split; auto. eapply yv_ext; [apply yb_yv; exact Y|exact E]. }
  assert (TWO : forall y1 y2, Forall2 (has_type T) args [y1; y2] ->
     exists a b, args = [a; b] /\ has_type T a y1 /\ has_type T b y2).
  { intros y1 y2 F2. inversion F2 as [|a ? ? ? A F3]; subst. inversion F3 as [|b ? ? ? B F4]; subst. inversion F4; subst. eauto 6. }
  destruct (op_eq_dec o OEq) as [->|NE].
  { assert (E : exists z, tys = [z; z] /\ y = TBool).
    { simpl in G. destruct tys as [|[] [|[] [|]]]; try discriminate; inversion G; eauto. }
    destruct E as (z & -> & ->). destruct (TWO _ _ F) as (a & b & -> & A & B).
    destruct (eq_ok T a b z W A B) as [(T' & t & E & Y)|(E & _ & U)].
    - left. apply LB with (f := fun I => value_eqb (teval I T a) (teval I T b)); auto. exists (T', t). auto.
    - right. split; auto. split; auto. exists a, b. simpl; auto. }
  destruct (op_eq_dec o ODistinct) as [->|NDI].
  { simpl in G. destruct (forallb (ty_eqb TBool) tys || forallb (ty_eqb TReal) tys) eqn:E; inversion G; subst y.
    assert (Z : exists z, Forall (fun b => has_type T b z) args).
    { apply orb_prop in E. destruct E as [E|E].
      - exists TBool. exact (f2_bool _ _ _ F E).
      - exists TReal. exact (f2_real _ _ _ F E). }
    destruct Z as [z FZ]. cbn [mk_term]. unfold mk_distinct.
    destruct (neqs_ok args T z W FZ) as [(p & EP & W' & X & B & D)|(EP & _ & U)].
    - left. rewrite EP. cbn [bind]. destruct (and_ok H (fst p) (snd p) W' B) as (r & ER & Y). rewrite ER.
      eapply LB0; [eapply yb_from; [exact X|exact Y]|]. intros I; simpl. now rewrite D.
    - right. rewrite EP. split; auto. }
  left. destruct o; simpl in G; try congruence.
  - (* OGe *) destruct tys as [|[] [|[] [|]]]; inversion G; subst. destruct (TWO _ _ F) as (a & b & -> & A & B).
    eapply LB; [apply geq_ok; auto|]. intros I; simpl. now rewrite (RV _ I A), (RV _ I B).
  - destruct tys as [|[] [|[] [|]]]; inversion G; subst. destruct (TWO _ _ F) as (a & b & -> & A & B).
    eapply LB; [apply (geq_ok H T b a); auto|]. intros I; simpl. now rewrite (RV _ I A), (RV _ I B).
  - destruct tys as [|[] [|[] [|]]]; inversion G; subst. destruct (TWO _ _ F) as (a & b & -> & A & B).
    eapply LB; [apply lt_ok; auto|]. intros I; simpl. now rewrite (RV _ I A), (RV _ I B).
  - destruct tys as [|[] [|[] [|]]]; inversion G; subst. destruct (TWO _ _ F) as (a & b & -> & A & B).
    eapply LB; [apply (lt_ok H T b a); auto|]. intros I; simpl. now rewrite (RV _ I A), (RV _ I B).
  - (* OOr *) destruct (forallb (ty_eqb TBool) tys) eqn:E; inversion G; subst. pose proof (f2_bool _ _ _ F E) as B.
    eapply LB; [apply or_ok; auto|]. intros I; simpl. f_equal. rewrite vals_bool; auto.
    clear. induction args; simpl; congruence.
  - (* OAnd *) destruct (forallb (ty_eqb TBool) tys) eqn:E; inversion G; subst. pose proof (f2_bool _ _ _ F E) as B.
    eapply LB; [apply and_ok; auto|]. intros I; simpl. f_equal. rewrite vals_bool; auto.
    clear. induction args; simpl; congruence.
  - (* OImp *) destruct tys as [|[] [|[] [|]]]; inversion G; subst. destruct (TWO _ _ F) as (a & b & -> & A & B).
    eapply LB0; [apply implies_ok; auto|]. intros I; simpl. now rewrite (BV _ I A), (BV _ I B).
  - (* ONot *) destruct tys as [|[] [|]]; inversion G; subst.
    inversion F as [|a ? ? ? A F3]; subst. inversion F3; subst. simpl in A.
    eapply LB0; [apply yb_same; [exact W|apply bool_opp, A|intros I; reflexivity]|]. intros I; simpl.
    rewrite (tholds_opp _ _ I _ W A). now rewrite (BV _ I A).
  - (* OMinus *) destruct tys as [|[] [|[] [|]]]; inversion G; subst.
    + inversion F as [|a ? ? ? A F3]; subst. inversion F3; subst. simpl in A.
      eapply LR; [apply uminus_ok; auto|]. intros I; simpl. now rewrite (RV _ I A).
    + destruct (TWO _ _ F) as (a & b & -> & A & B).
      eapply LR; [apply minus_ok; auto|]. intros I; simpl. now rewrite (RV _ I A), (RV _ I B).
  - (* OPlus *) destruct (forallb (ty_eqb TReal) tys) eqn:E; inversion G; subst. pose proof (f2_real _ _ _ F E) as B.
    eapply LR; [apply plus_ok; auto|]. intros I; simpl. f_equal. rewrite vals_real; auto. rewrite map_map. reflexivity.
  - (* OTimes *) destruct (forallb (ty_eqb TReal) tys) eqn:E; inversion G; subst. pose proof (f2_real _ _ _ F E) as B.
    eapply LR; [apply times_ok; auto|]. intros I; simpl. f_equal. rewrite vals_real; auto. rewrite map_map. reflexivity.
  - (* OIte *)
    assert (E : exists z, tys = [TBool; z; z] /\ y = z /\ (z = TBool \/ z = TReal)).
    { destruct tys as [|[] [|[] [|[] [|]]]]; try discriminate; inversion G; eauto. }
    destruct E as (z & -> & -> & Z).
    inversion F as [|c ? ? ? C F3]; subst. inversion F3 as [|t ? ? ? A F4]; subst. inversion F4 as [|e ? ? ? B F5]; subst. inversion F5; subst.
    simpl in C. cbn [mk_term]. unfold mk_ite, is_bool. rewrite (proj2 C). cbn [ty_eqb assertb bind].
    destruct Z as [->| ->]; simpl in A, B.
    + rewrite (proj2 A), (proj2 B). cbn [ty_eqb assertb bind].
      eapply LB0; [apply bool_ite_ok; auto|]. intros I; simpl. rewrite (BV _ I C), (BV _ I A), (BV _ I B). simpl.
      now destruct (tholds I T c).
    + rewrite (proj1 (proj2 A)), (proj1 (proj2 B)). cbn [ty_eqb assertb bind].
      eapply LR; [apply arith_ite_ok; auto|]. intros I; simpl. rewrite (BV _ I C), (RV _ I A), (RV _ I B). simpl.
      now destruct (tholds I T c).
  - (* OXor *) destruct tys as [|[] [|[] [|]]]; inversion G; subst. destruct (TWO _ _ F) as (a & b & -> & A & B).
    eapply LB0; [apply xor_ok; auto|]. intros I; simpl. now rewrite (BV _ I A), (BV _ I B).
Qed.

(** division *)
Lemma div_cases : forall T a b, wf H T -> real_t T a -> real_t T b ->
  mk_divides H T a b = UB \/ mk_divides H T a b = Fuel \/
  exists q, node_of T b = const_node q /\
    ((is_arith_const T a = true /\ q <> 0%Qc /\ yrr H T (mk_divides H T a b) (fun I => (treal I T a / q)%Qc)) \/
     (is_arith_const T a = false /\ exists m, q_inv q = Ok m /\ yrr H T (mk_divides H T a b) (fun I => (treal I T a * m)%Qc))).
Proof.
  intros T a b W A B. destruct (is_arith_const T b) eqn:CB.
  2:{ left. unfold mk_divides. rewrite CB. reflexivity. }
  destruct (real_const H T b W B CB) as [q N]. destruct (divides_ok H T a b q W A B N) as [D1 D2].
  destruct (is_arith_const T a) eqn:CA.
  - destruct (q_eqb q 0) eqn:EQ.
    + left. apply q_eqb_eq in EQ. subst. unfold mk_divides. destruct (const_kind _ _ _ N) as [_ V]. rewrite CB, V. cbn [assertb bind].
      rewrite CA. destruct (real_const H T a W A CA) as [qa NA]. rewrite (proj2 (const_kind _ _ _ NA)). reflexivity.
    + apply q_eqb_neq in EQ. right; right. exists q. split; auto.
  - destruct (q_inv q) as [m| |] eqn:Q.
    + right; right. exists q. split; auto. right. split; auto. exists m. auto.
    + left. unfold mk_divides. destruct (const_kind _ _ _ N) as [_ V]. rewrite CB, V, CA. cbn [assertb bind]. rewrite Q. reflexivity.
    + right; left. unfold mk_divides. destruct (const_kind _ _ _ N) as [_ V]. rewrite CB, V, CA. cbn [assertb bind]. rewrite Q. reflexivity.
Qed.

Lemma op_wf : forall T o args tys y T' t, wf H T -> Forall2 (has_type T) args tys -> op_sig o tys = Some y ->
  mk_term H T o args = Ok (T', t) -> wf H T' /\ ext T T' /\ has_type T' t y.
Proof.
  intros T o args tys y T' t W F G E.
  destruct (op_eq_dec o ODiv) as [->|ND].
  - simpl in G. destruct tys as [|[] [|[] [|]]]; inversion G; subst.
    inversion F as [|a ? ? ? A F3]; subst. inversion F3 as [|b ? ? ? B F4]; subst. inversion F4; subst.
    cbn [mk_term] in E.
    destruct (div_cases T a b W A B) as [Z|[Z|(q & N & [(_ & _ & p & EP & Y)|(_ & m & _ & p & EP & Y)])]]; try congruence;
      rewrite EP in E; inversion E; subst; destruct Y as (? & ? & ? & _); auto.
  - destruct (mk_term_ok T o args tys y W F G) as [(p & EP & Y)|(Z & _)]; auto; try congruence.
    + intros ->. eapply times_ok_lin; eauto.
    + rewrite EP in E. inversion E; subst. destruct Y as (? & ? & ? & _). auto.
Qed.

Lemma app_ok : forall T f ret args T' t, wf H T -> valid T f -> tneg f = false -> kind_of T f = KUninterp ->
  ret = TBool \/ ret = TReal -> Forall (typed T) args -> mk_app H T f ret args = (T', t) ->
  yv T (T', t) ret (fun I => match ret with
                             | TReal => VR (i_freal I (tix f) (map (teval I T) args))
                             | _ => VB (i_fbool I (tix f) (map (teval I T) args))
                             end).
Proof.
  intros T f ret args T' t W V NF KF RT TA E. unfold mk_app, app_term in E.
  assert (RO : req_ok (RComp KApp ret (f :: args))) by (unfold req_ok, op_ok; repeat split; discriminate).
  assert (VA : forall a, In a args -> valid T a).
  { intros a Ia. eapply Forall_forall in TA; eauto. destruct TA as [TA|TA]; apply TA. }
  destruct (get_wf _ _ _ _ _ W RO E) as (W' & X & Vt & N & DD & Q & _).
  { right; right. split.
    - unfold wf_node; simpl. auto.
    - simpl. intros a [<-|Ia]; auto. }
  split; [|split; [|split]]; cbn [fst snd]; auto.
  - destruct RT as [->| ->]; simpl; split; auto.
    + unfold type_of. now rewrite DD.
    + split; auto. unfold type_of. now rewrite DD.
  - intros I. rewrite (teval_node _ _ I t W' Vt N), DD.
    assert (EA : map (look (values I (tt_nodes T'))) args = map (teval I T) args).
    { apply map_ext_in. intros a Ia. apply (teval_ext I T T' a X). now apply VA. }
    destruct RT as [->| ->]; cbn [node_value req_node n_kind n_type n_desc]; now rewrite EA.
Qed.

Theorem reach_wf : forall T, reach H T -> wf H T.
Proof.
  intros T R. induction R.
  - apply table_new_wf.
  - eapply new_wf; eauto.
  - destruct (const_ok H T q IHR) as (T1 & k & E & W1 & _). rewrite E in H0. inversion H0; subst; auto.
  - eapply app_ok; eauto.
  - eapply op_wf; eauto.
Qed.

Lemma ext_keeps : forall T T', ext T T' -> keeps T T'.
Proof.
  intros T T' X. split.
  - intros t V. split; [eapply valid_ext; eauto|apply node_ext; auto].
  - intros I t V. apply teval_ext; auto. apply V.
Qed.

(** *** variables of an equation *)
Lemma mentions_real : forall T x, wf H T -> real_t T x -> is_arith_const T x = false -> mentions T x.
Proof.
  intros T x W R NC. destruct (poly_of_ex H T x W R) as [p P].
  assert (VM : forall y, varlike T y -> mentions T y).
  { intros y [_ K]. apply m_var. destruct K as [K|[K|K]]; auto. }
  inversion P as [E|q Z N|KA|k y q N Rk Nk Zq Vx|ms p' N L SO FA]; subst.
  - destruct (small_node _ _ zero_term W (proj1 R) ltac:(simpl; lia)) as [[E0 _]|[_ E0]]; [discriminate|].
    destruct (const_kind _ _ _ E0) as [X _]. congruence.
  - destruct (const_kind _ _ _ N) as [X _]. congruence.
  - apply m_var. destruct KA as [K|[K|K]]; auto.
  - eapply m_arg; [rewrite N; simpl; eauto|]. auto.
  - assert (exists y m, In m ms /\ In (Some y, snd (nth 1 p (None, 0%Qc))) p /\ mono_repr T (Some y, snd (nth 1 p (None, 0%Qc))) m) as (y & m & Im & _ & Rm).
    { inversion FA as [|m1 t1 p1 ms1 R1 F1]; subst; [simpl in L; lia|].
      inversion F1 as [|m2 t2 p2 ms2 R2 F2]; subst; [simpl in L; lia|].
      destruct SO as [S1 _]. inversion S1 as [|? ? L12]; subst. destruct m2 as [[y|] c]; [|simpl in L12; destruct (fst m1); discriminate].
      exists y, t2. simpl. auto. }
    eapply m_arg; [rewrite N; simpl; eauto|].
    destruct Rm as (_ & _ & Vy & [[_ ->]|(_ & k & _ & _ & _ & _ & Nm)]); auto.
    eapply m_arg; [rewrite Nm; simpl; eauto|]. auto.
Qed.
Lemma shape_mentions : forall T t, wf H T -> eq_shape T t -> t = true_term \/ t = false_term \/ mentions T t.
Proof.
  intros T t W [E|[E|[(x & N & R & NC)|(x & y & N & V)]]]; auto; right; right.
  - eapply m_arg; [rewrite N; simpl; eauto|]. now apply mentions_real.
  - apply (m_arg T t x); [rewrite N; simpl; auto|]. apply mentions_real; auto; [apply V|apply (varlike_flags _ _ V)].
Qed.
End M.
