(** Proofs for C37: the recorded values stay values of the trail. *)
From Coq Require Import List Arith ZArith QArith Qcanon Bool Lia.
From Verif Require Import Base Core_Model Trail_Model Spec_Trail Trail_Proofs Lincons_Model Spec_Lincons Lra_Model Lra_Hist
  Terms_Model Spec_Terms Terms_Proofs TermMgr_Model TermMgr_Base Internalizer_Model Internalizer_Proofs Uf_Model Spec_Uf.
Import ListNotations.
Close Scope Qc_scope.
Close Scope Q_scope.
Open Scope nat_scope.

Definition var_val (tr : trail) (v : var) : uval :=
  match v with VRat i => PR (mval (t_qm tr) i) | VBool i => PB (mval (t_bm tr) i) end.
(** variables assigned at a level up to [k] keep level and value *)
Definition pres (k : nat) (tr tr' : trail) : Prop :=
  forall v l, t_lvl tr v = Some l -> l <= k -> t_lvl tr' v = Some l /\ var_val tr' v = var_val tr v.
Definition tl_ok (tr : trail) : Prop :=
  forall v l, t_lvl tr v = Some l -> in_range (mnum (t_bm tr)) (mnum (t_qm tr)) v = true /\ is_def tr v = true.
Definition keep_all (tr tr' : trail) : Prop := forall k, pres k tr tr'.

Lemma pres_refl k tr : pres k tr tr. Proof. intros v l E _. auto. Qed.
Lemma keep_refl tr : keep_all tr tr. Proof. intros k. apply pres_refl. Qed.
Lemma pres_trans k a b c : pres k a b -> pres k b c -> pres k a c.
Proof. intros A B v l E L. destruct (A v l E L) as [E1 V1]. destruct (B v l E1 L) as [E2 V2]. split; auto. congruence. Qed.
Lemma keep_trans a b c : keep_all a b -> keep_all b c -> keep_all a c.
Proof. intros A B k. eapply pres_trans; eauto. Qed.

Lemma at_in {A} (l : list A) i x : at_ l i = Ok x -> nth_error l i = Some x.
Proof. unfold at_. destruct (nth_error l i); [now intros [= ->]|discriminate]. Qed.

Lemma bind_ok {A B} (m : res A) (f : A -> res B) x : bind m f = Ok x -> exists y, m = Ok y /\ f y = Ok x.
Proof. destruct m; simpl; try discriminate. eauto. Qed.
Lemma assert_ok {B} b (m : res B) x : bind (assertb b) (fun _ => m) = Ok x -> b = true /\ m = Ok x.
Proof. destruct b; simpl; try discriminate. auto. Qed.
Tactic Notation "bi" hyp(H) simple_intropattern(p) ident(E) := apply bind_ok in H; destruct H as (p & E & H).
Tactic Notation "ba" hyp(H) ident(E) := apply assert_ok in H; destruct H as (E & H).

Section U.
Variables (hi : nat -> Z) (hv : Q -> Z) (opt : lopt).
Variable T : table.
Variable bv : list (term * lit).
Variable rv : list (term * nat).
Notation evaluate := (evaluate T bv rv).
Notation evaluate_f := (evaluate_f T bv rv).
Notation eval_args := (eval_args T bv rv).

Lemma sum_pres (ev ev' : term -> res (uval * nat)) k :
  (forall t x l, ev t = Ok (x, l) -> l <= k -> ev' t = Ok (x, l)) ->
  forall ts s j x l, sum_values ev s j ts = Ok (x, l) -> l <= k -> sum_values ev' s j ts = Ok (x, l) /\ j <= l.
Proof.
  intros P. induction ts as [|t ts IH]; intros s j x l E L.
  - simpl in *. split; auto. injection E as _ <-. lia.
  - cbn [sum_values] in *. bi E [y m] Eq. bi E q Eq0. destruct (IH _ _ _ _ E L) as [E1 L1]. cbn [snd fst] in *.
    split; [|lia]. rewrite (P t y m); auto; [|lia]. cbn [bind fst snd]. rewrite Eq0. exact E1.
Qed.
Lemma evalf_pres tr tr' k : pres k tr tr' -> forall n t x l, evaluate_f n tr t = Ok (x, l) -> l <= k -> evaluate_f n tr' t = Ok (x, l).
Proof.
  intros P. induction n as [|n IH]; intros t x l E L; [discriminate|]. cbn [Uf_Model.evaluate_f] in *.
  destruct (uf_var T bv rv t) as [v|] eqn:V.
  - destruct (t_lvl tr v) as [m|] eqn:Lv; [|discriminate]. cbn [value_of bind] in *.
    assert (m = l) as -> by congruence. destruct (P v l Lv L) as [E1 V1]. rewrite E1. cbn [value_of bind].
    destruct v; unfold var_val in V1; injection V1 as ->; exact E.
  - destruct (kind_of T t); try exact E.
    + ba E As. bi E a Ea. bi E b Eb. bi E [y1 m1] E1. bi E [y2 m2] E2. bi E q1 E3. bi E q2 E4. cbn [fst snd] in *. inversion E; subst.
      rewrite As, Ea, Eb. cbn [assertb bind]. rewrite (IH a y1 m1), (IH b y2 m2) by (auto; lia). cbn [bind fst snd]. rewrite E3, E4. reflexivity.
    + ba E As. rewrite As. cbn [assertb bind]. eapply sum_pres; eauto.
Qed.
Lemma eval_pres tr tr' k t x l : pres k tr tr' -> evaluate tr t = Ok (x, l) -> l <= k -> evaluate tr' t = Ok (x, l).
Proof. intros P. apply evalf_pres. exact P. Qed.
Lemma args_pres tr tr' k : pres k tr tr' -> forall ts j vs l, eval_args tr ts j = Ok (vs, l) -> l <= k -> eval_args tr' ts j = Ok (vs, l) /\ j <= l.
Proof.
  intros P. induction ts as [|t ts IH]; intros j vs l E L; cbn [Uf_Model.eval_args] in *.
  - split; auto. injection E as _ <-. lia.
  - bi E [y m] Eq. bi E [ws m2] Eq0. cbn [fst snd] in *. inversion E; subst.
    destruct (IH _ _ _ Eq0 L) as [E1 L1]. split; [|lia]. rewrite (eval_pres tr tr' k t y m); auto; [|lia]. cbn [bind fst snd].
    rewrite E1. reflexivity.
Qed.

(** ** Operations on the trail *)
Definition fine (tr tr' : trail) : Prop := tl_ok tr' /\ keep_all tr tr'.
Lemma fine_refl tr : tl_ok tr -> fine tr tr. Proof. split; auto using keep_refl. Qed.
Lemma fine_trans a b c : fine a b -> fine b c -> fine a c.
Proof. intros [_ A] [O B]. split; auto. eapply keep_trans; eauto. Qed.

Lemma in_range_min a b c d v : in_range (Nat.min a c) (Nat.min b d) v = in_range a b v && in_range c d v.
Proof. destruct v; simpl; rewrite <- ?Nat.ltb_lt; repeat (match goal with |- context [?x <? ?y] => destruct (Nat.ltb_spec x y) end); auto; lia. Qed.
Lemma resize_fine tr nb nq : tl_ok tr -> mnum (t_bm tr) <= nb -> mnum (t_qm tr) <= nq -> fine tr (trail_resize tr nb nq).
Proof.
  intros O B R. assert (M1 : Nat.min nb (mnum (t_bm tr)) = mnum (t_bm tr)) by lia. assert (M2 : Nat.min nq (mnum (t_qm tr)) = mnum (t_qm tr)) by lia.
  split.
  - intros v l E. cbn [trail_resize t_lvl t_bm t_qm mnum model_resize] in *. rewrite M1, M2 in E.
    destruct (in_range _ _ v) eqn:IR; [|discriminate]. destruct (O v l E) as [_ D]. split.
    + destruct v; simpl in *; rewrite Nat.ltb_lt in *; lia.
    + unfold is_def in *. cbn [trail_resize t_bm t_qm mdef model_resize]. rewrite ?M1, ?M2. destruct v; simpl in IR; rewrite IR; auto.
  - intros k v l E _. destruct (O v l E) as [IR _]. cbn [trail_resize t_lvl]. rewrite M1, M2, IR. split; auto.
    unfold var_val. cbn [trail_resize t_bm t_qm mval model_resize]. rewrite ?M1, ?M2. destruct v; simpl in IR; rewrite IR; auto.
Qed.
Lemma var_val_put tr v x w : w <> v -> var_val (put tr v x) w = var_val tr w.
Proof.
  intros N. destruct v as [i|i], w as [j|j]; simpl; auto; unfold upd; (destruct (Nat.eqb_spec j i); [subst; now exfalso; apply N|auto]).
Qed.
Lemma var_eqb_spec v w : reflect (v = w) (var_eqb v w).
Proof.
  destruct v as [i|i], w as [j|j]; simpl; try (constructor; discriminate); destruct (Nat.eqb_spec i j); constructor; congruence.
Qed.
Lemma put_nums tr v x : mnum (t_bm (put tr v x)) = mnum (t_bm tr) /\ mnum (t_qm (put tr v x)) = mnum (t_qm tr).
Proof. destruct v; auto. Qed.
Lemma assign_fine tr v x f :
  tl_ok tr -> in_range (mnum (t_bm tr)) (mnum (t_qm tr)) v = true -> t_lvl tr v = None ->
  forall tr', t_lvl tr' = vupd (t_lvl tr) v f -> t_bm tr' = t_bm (put tr v x) -> t_qm tr' = t_qm (put tr v x) -> fine tr tr'.
Proof.
  intros O IR N tr' E1 E2 E3. destruct (put_nums tr v x) as [P1 P2]. split.
  - intros w l E. rewrite E1 in E. unfold vupd in E. rewrite E2, E3, P1, P2.
    assert (D : is_def tr' w = is_def (put tr v x) w) by (unfold is_def; now rewrite E2, E3). rewrite D, is_def_put.
    destruct (var_eqb w v) eqn:W.
    + destruct (var_eqb_spec w v); [subst|discriminate]. auto.
    + exact (O w l E).
  - intros k w l E _. rewrite E1. unfold vupd. destruct (var_eqb_spec w v) as [->|NE]; [congruence|]. split; auto.
    assert (V : var_val tr' w = var_val (put tr v x) w) by (unfold var_val; now rewrite E2, E3). rewrite V. now apply var_val_put.
Qed.
Lemma unassign_keep level tr e : tl_ok tr -> tl_ok (unassign level tr e) /\ pres level tr (unassign level tr e).
Proof.
  intros O. unfold unassign. destruct e as [v r]. cbn [fst]. destruct (t_lvl tr v) as [k|] eqn:E; [|auto using pres_refl].
  destruct (Nat.ltb_spec level k) as [L|L]; [|auto using pres_refl]. split.
  - intros w l El. assert (Ew : vupd (t_lvl tr) v None w = Some l) by (destruct v; exact El). unfold vupd in Ew.
    destruct (var_eqb_spec w v); [discriminate|]. destruct (O w l Ew) as [IR D]. destruct v as [i|i], w as [j|j]; simpl in *; auto;
      unfold upd; split; auto; (destruct (Nat.eqb_spec j i); [subst; now exfalso; apply n|auto]).
  - intros w l El Ll. assert (w <> v) by (intros ->; rewrite E in El; injection El as ->; lia).
    assert (X : vupd (t_lvl tr) v None w = Some l) by (unfold vupd; destruct (var_eqb_spec w v); [contradiction|auto]).
    destruct v, w; auto.
Qed.
Lemma backtrack_keep level : forall n tr, tl_ok tr -> tl_ok (backtrack_loop n level tr) /\ pres level tr (backtrack_loop n level tr).
Proof.
  induction n as [|n IH]; intros tr O; simpl; [auto using pres_refl|].
  assert (F : forall es tr, tl_ok tr -> tl_ok (fold_left (unassign level) es tr) /\ pres level tr (fold_left (unassign level) es tr)).
  { induction es as [|e es IHe]; intros tr0 O0; simpl; [auto using pres_refl|]. destruct (unassign_keep level tr0 e O0) as [A B].
    destruct (IHe _ A) as [C D]. split; auto. eapply pres_trans; eauto. }
  destruct (F (recent tr) tr O) as [A B]. set (t1 := fold_left _ _ _) in *.
  assert (A' : tl_ok (pop_level t1)) by exact A. assert (B' : pres level t1 (pop_level t1)) by (intros v l E _; auto).
  destruct (IH _ A') as [C D]. split; auto. eapply pres_trans; [exact B|]. eapply pres_trans; [exact B'|exact D].
Qed.

Lemma step_ok tr o tr' : tl_ok tr -> may tr o -> t_step tr o = Ok tr' -> tl_ok tr' /\
  match o with TBacktrack k => pres k tr tr' | TClear => True | _ => keep_all tr tr' end.
Proof.
  intros O M E. destruct o as [v x|v r k x|k| |nb nq]; cbn [t_step may] in *.
  - inversion E; subst. destruct M as [M1 M2]. apply (assign_fine tr v x (Some (length (t_levels (put tr v x)))) O M1 M2); destruct v; reflexivity.
  - destruct M as [M1 M2]. unfold trail_propagate in E. destruct (_ <=? _); [|discriminate]. inversion E; subst.
    apply (assign_fine tr v x (Some k) O M1 M2); destruct v; reflexivity.
  - unfold trail_backtrack in E. destruct (_ <=? _); [|discriminate]. inversion E; subst. now apply backtrack_keep.
  - inversion E; subst. split; auto. intros v l X. discriminate X.
  - inversion E; subst. destruct M. now apply resize_fine.
Qed.
Lemma constraint_fine a tr ts p rhs a' tr' c : tl_ok tr -> lra_constraint hi hv opt a tr ts p rhs = Ok (a', tr', c) ->
  fine tr tr' /\ lord (lc_lit c) < mnum (t_bm tr').
Proof.
  intros O. unfold lra_constraint. destruct (lc_make _ _ _ _ _ _) as [s c0]. destruct (Nat.leb_spec (mnum (t_bm tr)) (lord (lc_lit c0))) as [L|L]; intros E.
  - bi E a3 E1. inversion E; subst. split; [|simpl; lia]. apply resize_fine; auto.
  - inversion E; subst. split; auto. now apply fine_refl.
Qed.

Lemma aeq_fine t u a tr c m a' tr' c' : tl_ok tr -> assert_equality hi hv opt T bv rv t u a tr c m = Ok (a', tr', c') -> fine tr tr'.
Proof.
  intros O E. unfold assert_equality in E. ba E As. destruct (type_of T t); try (inversion E; subst; now apply fine_refl).
  bi E p1 E1. bi E p2 E2. cbn zeta in E. destruct (p_terms (poly_sub p1 p2)) as [|pt0 pts] eqn:PT.
  - ba E As2. inversion E; subst. now apply fine_refl.
  - ba E As2. bi E [[a2 tr1] lc] Eq1. ba E As3. destruct (constraint_fine _ _ _ _ _ _ _ _ O Eq1) as [F LC].
    set (l := if m then _ else _) in *. assert (Ll : lord l = lord (lc_lit lc)) by (unfold l; destruct m; reflexivity).
    destruct (mdef (t_bm tr1) (lord l)) eqn:D; [inversion E; subst; exact F|]. bi E x Ex. bi E y Ey. ba E As4. bi E tr2 Eq4. inversion E; subst.
    unfold trail_propagate in Eq4. destruct (_ <=? _); [|discriminate]. inversion Eq4; subst. eapply fine_trans; [exact F|].
    destruct F as [O1 _]. apply (assign_fine tr1 (lvar l) (negb m, 0%Q) (Some (Nat.max (snd x) (snd y)))); auto.
    + simpl. rewrite Ll. now apply Nat.ltb_lt.
    + destruct (t_lvl tr1 (lvar l)) eqn:X; auto. destruct (O1 _ _ X) as [_ D1]. unfold lvar, is_def in D1. congruence.
Qed.
Lemma args_fine : forall l1 l2 a tr c a' tr' c', tl_ok tr -> args_loop hi hv opt T bv rv l1 l2 a tr c = Ok (a', tr', c') -> fine tr tr'.
Proof.
  induction l1 as [|x l1 IH]; intros l2 a tr c a' tr' c' O E; cbn [args_loop] in E; [inversion E; subst; now apply fine_refl|].
  destruct l2 as [|y l2]; [discriminate|]. bi E [[a1 tr1] c1] Eq. apply aeq_fine in Eq; auto.
  eapply fine_trans; [exact Eq|]. eapply IH; [apply Eq|exact E].
Qed.

(** ** The table *)
(** evaluated when recorded, and still so *)
Definition current (tr : trail) (e : list uval * fapp) : Prop :=
  exists k1 k2, eval_args tr (get_args T (fa_app (snd e))) 0 = Ok (fst e, k1) /\ evaluate tr (fa_app (snd e)) = Ok (fa_val (snd e), k2) /\
    fa_lvl (snd e) = Nat.max k1 k2.
Definition tab_ok (r : bool) (ws : list term) (tr : trail) (F : list (term * fmap)) : Prop :=
  forall f m e, In (f, m) F -> In e m ->
    kind_of T (fa_app (snd e)) = KApp /\ fnc_symbol T (fa_app (snd e)) = Ok f /\ In (fa_app (snd e)) ws /\
    (r = false \/ 0 < fa_lvl (snd e) -> current tr e).

Lemma current_pres k tr tr' e : pres k tr tr' -> fa_lvl (snd e) <= k -> current tr e -> current tr' e.
Proof.
  intros P L (k1 & k2 & A & B & C). exists k1, k2. split; [|split]; auto.
  - eapply args_pres; eauto. lia.
  - eapply eval_pres; eauto. lia.
Qed.
Lemma tab_keep r ws tr tr' F : keep_all tr tr' -> tab_ok r ws tr F -> tab_ok r ws tr' F.
Proof.
  intros K W f m e A B. destruct (W f m e A B) as (C1 & C2 & C3 & C4). split; [|split; [|split]]; auto.
  intros D. eapply current_pres; [apply K|apply le_n|]. auto.
Qed.
Lemma put_in F f m g n : In (g, n) (fns_put F f m) -> In (g, n) F \/ (g = f /\ n = m).
Proof.
  induction F as [|[h k] F IH]; simpl; [intros [[= <- <-]|[]]; auto|]. destruct (t_eqb h f) eqn:E; simpl.
  - apply t_eqb_eq in E. intros [[= <- <-]|A]; auto.
  - intros [A|A]; auto. destruct (IH A); auto.
Qed.
Lemma get_in F f e : In e (fns_get F f) -> exists m, In (f, m) F /\ In e m.
Proof. unfold fns_get. destruct (m_find F f) as [m|] eqn:E; [|intros []]. apply m_find_in in E. eauto. Qed.

Lemma afv_ok r ws F a tr t F' a' tr' cs : tl_ok tr -> tab_ok r ws tr F -> In t ws ->
  add_function_value hi hv opt T bv rv F a tr t = Ok (F', a', tr', cs) -> tab_ok r ws tr' F' /\ fine tr tr'.
Proof.
  intros O W Iw E. unfold add_function_value in E. ba E As. bi E [vals k] Eq. bi E [x kx] Eq0. bi E f Eq1. cbn zeta in E.
  apply k_eqb_eq in As. destruct (fm_find _ _) as [e|] eqn:FM.
  - destruct (uval_eqb _ _); [inversion E; subst; split; auto; now apply fine_refl|]. bi E [[a1 tr1] c1] Eq2. bi E [[a2 tr2] c2] Eq3.
    inversion E; subst. apply args_fine in Eq2; auto. apply aeq_fine in Eq3; [|apply Eq2].
    assert (FF := fine_trans _ _ _ Eq2 Eq3). split; auto. eapply tab_keep; [apply FF|exact W].
  - inversion E; subst. split; [|now apply fine_refl]. intros g m e A B. apply put_in in A. destruct A as [A|[-> ->]]; [eapply W; eauto|].
    apply in_app_iff in B. destruct B as [B|[<-|[]]].
    + apply get_in in B. destruct B as (m & B1 & B2). eapply W; eauto.
    + cbn [snd fst fa_app fa_val fa_lvl]. split; [|split; [|split]]; auto. intros _. exists k, kx. auto.
Qed.
Lemma pass_ok r ws : forall v wl F a tr wl' F' a' tr' cs, tl_ok tr -> tab_ok r ws tr F -> (forall x, In x wl -> In (fst x) ws) ->
  watch_pass hi hv opt T bv rv v wl F a tr = Ok (wl', F', a', tr', cs) ->
  tab_ok r ws tr' F' /\ fine tr tr' /\ map fst wl' = map fst wl.
Proof.
  induction wl as [|[t w] wl IH]; intros F a tr wl' F' a' tr' cs O W I E; cbn [watch_pass] in E.
  - inversion E; subst. split; auto. split; auto. now apply fine_refl.
  - bi E w0 Ew. destruct (var_eqb v w0).
    + bi E w1 Ew1. bi E al Eal. bi E [[[F1 a3] tr1] c1] Eq2. bi E [[[[ws2 F2] a4] tr2] c2] Eq3. inversion E; subst.
      assert (X : tab_ok r ws tr1 F1 /\ fine tr tr1).
      { destruct al; [eapply afv_ok; eauto; apply (I (t, w)); left; auto|]. inversion Eq2; subst. split; auto. now apply fine_refl. }
      destruct X as [X1 X2]. destruct (IH _ _ _ _ _ _ _ _ (proj1 X2) X1 (fun x Ix => I x (or_intror Ix)) Eq3) as (Y1 & Y2 & Y3).
      split; auto. split; [eapply fine_trans; eauto|]. simpl. congruence.
    + bi E [[[[ws2 F2] a4] tr2] c2] Eq0. inversion E; subst.
      destruct (IH _ _ _ _ _ _ _ _ O W (fun x Ix => I x (or_intror Ix)) Eq0) as (Y1 & Y2 & Y3). split; auto. split; auto. simpl. congruence.
Qed.
Lemma loop_ok r ws : forall vs u a tr u' a' tr' cs, tl_ok tr -> map fst (u_watch u) = ws -> tab_ok r ws tr (u_fns u) ->
  assigned_loop hi hv opt T bv rv vs u a tr = Ok (u', a', tr', cs) -> tab_ok r ws tr' (u_fns u') /\ fine tr tr' /\ map fst (u_watch u') = ws.
Proof.
  induction vs as [|v vs IH]; intros u a tr u' a' tr' cs O Ew W E; cbn [assigned_loop] in E.
  - inversion E; subst. split; auto. split; auto. now apply fine_refl.
  - bi E [[[[wl F] a1] tr1] c1] Eq. bi E [[[u2 a2] tr2] c2] Eq0. inversion E; subst.
    destruct (pass_ok r (map fst (u_watch u)) _ _ _ _ _ _ _ _ _ _ O W (fun x Ix => in_map fst _ x Ix) Eq) as (X1 & X2 & X3).
    destruct (IH (mkUf wl F) _ _ _ _ _ _ (proj1 X2) X3 X1 Eq0) as (Y1 & Y2 & Y3). split; auto. split; auto. eapply fine_trans; eauto.
Qed.
Lemma tab_more r ws ws' tr F : (forall x, In x ws -> In x ws') -> tab_ok r ws tr F -> tab_ok r ws' tr F.
Proof. intros I W f m e A B. destruct (W f m e A B) as (C1 & C2 & C3 & C4). split; [|split; [|split]]; auto. Qed.
Lemma bb_tab r ws tr tr' u k : tab_ok r ws tr (u_fns u) -> pres k tr tr' -> tab_ok r ws tr' (u_fns (uf_before_backtrack u k)).
Proof.
  intros W P f m e A B. cbn [uf_before_backtrack u_fns] in A. apply in_map_iff in A. destruct A as ([g n] & Eg & A). cbn [fst snd] in Eg.
  injection Eg as -> <-. apply filter_In in B. destruct B as [B1 B2]. apply negb_true_iff, Nat.ltb_ge in B2.
  destruct (W f n e A B1) as (C1 & C2 & C3 & C4). split; [|split; [|split]]; auto. intros D. eapply current_pres; eauto.
Qed.
Lemma bb_clear r ws tr tr' u : tab_ok r ws tr (u_fns u) -> tab_ok true ws tr' (u_fns (uf_before_backtrack u 0)).
Proof.
  intros W f m e A B. cbn [uf_before_backtrack u_fns] in A. apply in_map_iff in A. destruct A as ([g n] & Eg & A). cbn [fst snd] in Eg.
  injection Eg as -> <-. apply filter_In in B. destruct B as [B1 B2]. apply negb_true_iff, Nat.ltb_ge in B2.
  destruct (W f n e A B1) as (C1 & C2 & C3 & C4). split; [|split; [|split]]; auto. intros [X|D]; [discriminate|lia].
Qed.

Lemma history_ok r u tr : uf_history hi hv opt T bv rv r u tr -> tl_ok tr /\ tab_ok r (map fst (u_watch u)) tr (u_fns u).
Proof.
  induction 1 as [nb nq|r u tr v t u' Hh [O W] E|r u tr o tr' Hh [O W] M E|r u tr a u' a' tr' cs Hh [O W] E].
  - split; [intros v l X; discriminate X|]. intros f m e [].
  - split; auto. unfold uf_register in E. ba E As. inversion E; subst. cbn [u_watch u_fns]. eapply tab_more; [|exact W].
    intros x Ix. rewrite map_app. apply in_app_iff. auto.
  - destruct (step_ok tr o tr' O M E) as [O' K]. split; auto.
    destruct o; cbn [told is_clear u_watch uf_before_backtrack]; rewrite ?orb_false_r, ?orb_true_r; try (eapply tab_keep; eauto; fail).
    + eapply bb_tab; eauto.
    + eapply bb_clear; eauto.
  - unfold uf_propagate in E. destruct (loop_ok r _ _ _ _ _ _ _ _ _ O eq_refl W E) as (X1 & [X2 _] & X3). rewrite X3. auto.
Qed.

(** ** Values of the specification *)
Hypothesis Wt : exists H, wf H T.
Hypothesis Hpos : forall t l, In (t, l) bv -> lneg l = false.
Lemma prod_args t : kind_of T t = KProduct -> exists a b, get_args T t = [a; b].
Proof.
  intros K. destruct Wt as [H W]. assert (L : tix t < length (tt_nodes T)).
  { destruct (Nat.lt_ge_cases (tix t) (length (tt_nodes T))) as [|G]; auto. unfold kind_of, node_of in K. rewrite nth_overflow in K by auto. discriminate. }
  destruct (Nat.lt_ge_cases (tix t) 3) as [U|U].
  - exfalso. destruct (wf_prim _ _ W) as [l E]. unfold kind_of, node_of in K. rewrite E in K. destruct (tix t) as [|[|[|]]]; try discriminate. lia.
  - destruct (node_wf _ _ t W U L) as [Wn _]. unfold get_args. rewrite K. unfold kind_of in K. unfold wf_node in Wn. rewrite K in Wn.
    unfold dargs. destruct (n_desc (node_of T t)) as [|l|q|j]; try contradiction. destruct l as [|c [|x [|? ?]]]; try contradiction. eauto.
Qed.
Lemma const_term t : kind_of T t = KConst -> t = true_term \/ t = false_term.
Proof.
  intros K. destruct Wt as [H W]. assert (L : tix t < length (tt_nodes T)).
  { destruct (Nat.lt_ge_cases (tix t) (length (tt_nodes T))) as [|G]; auto. unfold kind_of, node_of in K. rewrite nth_overflow in K by auto. discriminate. }
  destruct (Nat.lt_ge_cases (tix t) 3) as [U|U].
  - destruct (wf_prim _ _ W) as [l E]. unfold kind_of, node_of in K. rewrite E in K. destruct t as [[|[|[|]]] []]; simpl in *; try discriminate; auto; lia.
  - exfalso. destruct (node_wf _ _ t W U L) as [Wn _]. unfold kind_of in K. unfold wf_node in Wn. rewrite K in Wn. exact Wn.
Qed.
Lemma eval_denotes tr : tl_ok tr -> forall n t x l, evaluate_f n tr t = Ok (x, l) -> denotes T bv rv tr t x.
Proof.
  intros O. induction n as [|n IH]; intros t x l E; [discriminate|]. cbn [Uf_Model.evaluate_f] in E.
  destruct (uf_var T bv rv t) as [v|] eqn:V.
  - destruct (t_lvl tr v) as [m|] eqn:Lv; [|discriminate]. cbn [value_of bind] in E. destruct (O v m Lv) as [_ D]. inversion E; subst. clear E.
    unfold uf_var in V. destruct (type_of T t) eqn:TY; try discriminate.
    + destruct (m_find bv t) as [b|] eqn:M; [|discriminate]. injection V as <-. apply m_find_in in M.
      pose proof (d_bool T bv rv tr t b TY M D) as X. rewrite (Hpos _ _ M) in X. simpl in X. destruct (mval (t_bm tr) (lord b)); exact X.
    + destruct (m_find rv t) as [w|] eqn:M; [|discriminate]. injection V as <-. apply m_find_in in M. now apply d_rat.
  - destruct (kind_of T t) eqn:K; try discriminate.
    + inversion E; subst. destruct (const_term t K) as [->| ->]; [apply d_true|apply d_false].
    + bi E q Eq. inversion E; subst. now apply d_const.
    + ba E As. bi E a Eq. bi E b Eq0. bi E [y1 m1] Eq1. bi E [y2 m2] Eq2. bi E q1 Eq3. bi E q2 Eq4. destruct (prod_args t K) as (b1 & b2 & EA). rewrite EA in *. simpl in Eq, Eq0.
      injection Eq as ->. injection Eq0 as ->. inversion E; subst. apply IH in Eq1, Eq2. cbn [fst snd] in *.
      destruct y1, y2; try discriminate. simpl in *. injection Eq3 as ->. injection Eq4 as ->. eapply d_prod; eauto.
    + ba E As. assert (S : forall ts s j x l, sum_values (evaluate_f n tr) s j ts = Ok (x, l) ->
        exists q w, x = PR q /\ sums T bv rv tr ts w /\ (q == s + w)%Q).
      { clear E. induction ts as [|a ts IHs]; intros s j x0 l0 E; cbn [sum_values] in E.
        - inversion E; subst. exists s, 0%Q. split; auto. split; [now constructor|]. ring.
        - bi E [y m] Eq. bi E q0 Eq0. apply IH in Eq. cbn [fst snd] in *. destruct y as [|y]; [discriminate|]. simpl in Eq0. injection Eq0 as <-.
          destruct (IHs _ _ _ _ E) as (q & w & E1 & E2 & E3). exists q, (y + w)%Q. split; auto. split.
          + eapply s_cons; eauto. reflexivity.
          + rewrite E3. ring. }
      destruct (S _ _ _ _ _ E) as (q & w & E1 & E2 & E3). subst x. apply d_poly; auto.
      destruct E2 as [q0 Z|b bs p s q0 D1 D2 Z]; [apply s_nil|eapply s_cons; [exact D1|exact D2|]]; rewrite E3, Z; ring.
Qed.
Lemma args_denotes tr : tl_ok tr -> forall ts j vs l, eval_args tr ts j = Ok (vs, l) -> Forall2 (denotes T bv rv tr) ts vs.
Proof.
  intros O. induction ts as [|t ts IH]; intros j vs l E; cbn [Uf_Model.eval_args] in E; [inversion E; constructor|].
  bi E [y m] Eq. bi E [ws m2] Eq0. inversion E; subst. constructor; [eapply eval_denotes; eauto|eapply IH; eauto].
Qed.
Lemma table_lemma r u tr f m e : uf_history hi hv opt T bv rv r u tr -> In (f, m) (u_fns u) -> In e m ->
  r = false \/ 0 < fa_lvl (snd e) -> entry_ok T bv rv tr f e.
Proof.
  intros Hh A B D. destruct (history_ok r u tr Hh) as [O W]. destruct (W f m e A B) as (C1 & C2 & _ & C4). destruct (C4 D) as (k1 & k2 & E1 & E2 & _).
  split; auto. split; auto. split; [eapply args_denotes; eauto|eapply eval_denotes; eauto].
Qed.
End U.
