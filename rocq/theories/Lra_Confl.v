(** The clauses of conflict analysis are true in every world. *)
From Coq Require Import List Arith ZArith QArith Bool Lia Permutation Lqa.
From Verif Require Import Base Core_Model Literal_Proofs Sort_Proofs Sat_Base Trail_Model Lincons_Model Spec_Lincons Lincons_Proofs
  Lincons_Proofs2 Lra_Model Spec_Lra Lra_Fm Lra_Bounds Lra_Hist Lra_Steps Lra_Keep Lra_Good Lra_Good2
  Lra_Range Lra_Elim.
Import ListNotations.
Open Scope nat_scope.
Arguments Qred : simpl never.
Arguments Qmult : simpl never.
Arguments Qplus : simpl never.
Arguments Qminus : simpl never.
Arguments Qopp : simpl never.
Arguments Qdiv : simpl never.

(** ** worlds *)
Lemma lc_holds_perm s s' r c : Permutation (lc_terms s c) (lc_terms s' c) -> (lc_holds s r c <-> lc_holds s' r c).
Proof.
  intros P. unfold lc_holds. cbn zeta.
  pose proof (rel_morph (lc_pred c) _ _ (lc_rhs c) (lc_rhs c) (lin_perm r _ _ P) (Qeq_refl _)).
  destruct (lneg _); tauto.
Qed.
Lemma lc_holds_grows s s' r c : grows s s' -> stored s c -> (lc_holds s r c <-> lc_holds s' r c).
Proof. intros G H. apply lc_holds_perm. now apply stored_terms. Qed.
Lemma rel_dec p a b : {rel p a b} + {~ rel p a b}.
Proof.
  destruct p; cbn [rel].
  - destruct (Qeq_dec a b); auto.
  - destruct (Qlt_le_dec a b); [left; auto|right; lra].
  - destruct (Qlt_le_dec b a); [right; lra|left; auto].
Qed.
Lemma cons_lit s c r b : sinv s -> stored s c -> lc_empty c = false -> consistent s r b ->
  (lc_holds s r c <-> lit_holds b (lc_lit c)).
Proof.
  intros HS Hc He HC. destruct (stored_get_eq s c HS Hc) as (E1 & E2 & E3).
  assert (E0 : lc_empty (lc_get s (lord (lc_lit c))) = false) by (unfold lc_empty in *; rewrite E1; exact He).
  specialize (HC _ E0). unfold stored_holds in HC. rewrite E2, E3, (terms_pos s _ c E1) in HC.
  unfold lc_holds, lit_holds. cbn zeta. destruct (lneg (lc_lit c)); cbn [negb]; [|tauto].
  destruct (b (lord (lc_lit c))); split; intros H.
  - exfalso. apply H. now apply HC.
  - discriminate H.
  - reflexivity.
  - intros A. apply HC in A. discriminate A.
Qed.
Lemma consistent_grows s s' r b : sinv s -> sinv s' -> grows s s' -> consistent s' r b -> consistent s r b.
Proof.
  intros S1 S2 G HC i He. pose proof (stored_get s i S1 He) as Hc. pose proof (get_lord s i S1 He) as Ei.
  set (c := lc_get s i) in *. pose proof (stored_grows _ _ c G Hc) as Hc'.
  destruct (stored_get_eq s' c S2 Hc') as (E1 & E2 & E3). rewrite Ei in E1, E2, E3.
  assert (E0 : lc_empty (lc_get s' i) = false) by (unfold lc_empty in *; rewrite E1; exact He).
  rewrite (HC i E0). unfold stored_holds. rewrite E2, E3, (terms_pos s' _ c E1). fold c.
  apply rel_morph; [apply lin_perm, Permutation_sym; now apply stored_terms|reflexivity].
Qed.
Lemma lemma_grows s s' cl : sinv s -> sinv s' -> grows s s' -> theory_lemma s cl -> theory_lemma s' cl.
Proof. intros S1 S2 G H r b HC. apply (H r b). eapply consistent_grows; eauto. Qed.
Lemma esteps_grows hi hv a t a' t' : esteps hi hv (run3 a t) (run3 a' t') -> wsi a ->
  sinv (l_st a) /\ sinv (l_st a') /\ grows (l_st a) (l_st a').
Proof.
  intros R W. destruct (esteps_sinv hi hv _ _ R (ws_st a W)) as [A B]. cbn in *. split; [apply W|auto].
Qed.

(** ** extension of the trail *)
Record bext (t t' : trail) : Prop := {
  bx_q : forall x, mdef (t_qm t') x = mdef (t_qm t) x;
  bx_v : forall x, mdef (t_qm t) x = true -> mval (t_qm t') x = mval (t_qm t) x /\ mts (t_qm t') x = mts (t_qm t) x;
  bx_b : forall i, mdef (t_bm t) i = true -> mdef (t_bm t') i = true /\ mval (t_bm t') i = mval (t_bm t) i /\
    mts (t_bm t') i = mts (t_bm t) i }.
Lemma bext_refl t : bext t t.
Proof. constructor; auto. Qed.
Lemma bext_trans a b c : bext a b -> bext b c -> bext a c.
Proof.
  intros [A1 A2 A3] [B1 B2 B3]. constructor.
  - intros x. now rewrite B1.
  - intros x H. destruct (A2 x H) as [E1 E2]. rewrite <- (A1 x) in H. destruct (B2 x H). split; congruence.
  - intros i H. destruct (A3 i H) as (E1 & E2 & E3). destruct (B3 i E1) as (F1 & F2 & F3). split; [auto|split; congruence].
Qed.
Lemma bext_lit t t' l b : bext t t' -> eval_lit (t_bm t) l = Some b -> eval_lit (t_bm t') l = Some b.
Proof.
  intros X. unfold eval_lit. destruct (mdef (t_bm t) (lord l)) eqn:E; [|discriminate].
  destruct (bx_b _ _ X _ E) as (A & B & _). now rewrite A, B.
Qed.
Lemma bext_clause t t' cl : bext t t' -> eval_clause (t_bm t) cl = Some false -> eval_clause (t_bm t') cl = Some false.
Proof. rewrite !eval_clause_false. intros X H l Hl. eapply bext_lit; eauto. Qed.
Lemma bext_add s t n : rng s t -> mnum (t_bm t) <= n -> bext t (add_bool t n).
Proof.
  intros [_ R2 R3] Hn. unfold inr in *. constructor; cbn [add_bool trail_resize t_qm t_bm model_resize mdef mval mts].
  - intros x. rewrite Nat.min_id. destruct (Nat.ltb_spec x (mnum (t_qm t))); auto.
    destruct (mdef (t_qm t) x) eqn:E; auto. apply R3 in E. lia.
  - intros x E. rewrite Nat.min_id. apply R3 in E. destruct (Nat.ltb_spec x (mnum (t_qm t))); auto. lia.
  - intros i E. pose proof (R2 i E). destruct (Nat.ltb_spec i (Nat.min n (mnum (t_bm t)))); auto. lia.
Qed.
Lemma bext_sem s t c t' : sem_propagate s t c = Ok t' -> bext t t'.
Proof.
  unfold sem_propagate. intros H. binv H. unfold eval_lit in As.
  destruct (mdef (t_bm t) (lord (lc_lit c))) eqn:E; [discriminate|].
  unfold trail_propagate in H. destruct (_ <=? _); [|discriminate]. inversion H; subst. clear H.
  constructor; cbn; auto. intros i Hi. unfold upd. destruct (Nat.eqb_spec i (lord (lc_lit c))) as [->|]; [congruence|auto].
Qed.

Section C.
Variables (hi : nat -> Z) (hv : Q -> Z) (opt : lopt).
Notation goes a t a' t' := (esteps hi hv (run3 a t) (run3 a' t') /\ wsi a').

Lemma watch_new_bd a qm c a' : watch_new a qm c = Ok a' -> l_bd a' = l_bd a.
Proof.
  unfold watch_new. cbn zeta. set (s1 := move_front _ _ _ _ _ _ _). intros H.
  unfold watch_cons in H. binv H. destruct (1 <? lc_size c); binv H; inversion H; reflexivity.
Qed.
Lemma constraint_facts a t q a' t' c : wsi a -> distinct_vars q ->
  lra_constraint hi hv opt a t (rq_terms q) (rq_pred q) (rq_rhs q) = Ok (a', t', c) ->
  l_bd a' = l_bd a /\ (exists c0, means (l_st a') c0 c q) /\ (rng (l_st a) t -> bext t t').
Proof.
  intros Ha Hd. unfold lra_constraint.
  destruct (lc_make _ _ _ _ _ _) as [s c0] eqn:Em.
  destruct (make_ok hi hv _ q s c0 (si_inv _ (ws_st a Ha)) Hd Em) as (_ & _ & d & M).
  destruct (make_sinv hi hv _ q s c0 (ws_st a Ha) Hd Em) as (S1 & G1 & C1).
  pose proof (wsi_grows a s Ha S1 G1) as W1.
  destruct (Nat.leb_spec (mnum (t_bm t)) (lord (lc_lit c0))) as [Hn|Hn]; intros H; binv H.
  2:{ inversion H; subst. split; [reflexivity|]. split; [exists d; exact M|]. intros _. apply bext_refl. }
  inversion H; subst. clear H.
  set (a2 := if o_bounds opt || o_unassigned opt then _ else _) in Eq.
  assert (W2 : wsi a2 /\ l_st a2 = s /\ l_bd a2 = l_bd a).
  { unfold a2. destruct (_ || _); [|auto]. split; [|auto]. constructor; cbn; [exact S1|apply W1|].
    set (c1 := if lneg (lc_lit c) then lc_neg c else c).
    assert (C2 : stored s c1) by (unfold c1; destruct (lneg _); auto using stored_neg).
    assert (F : forall vs m, (forall x d, In d (m x) -> stored s d) ->
      forall x d, In d (fold_left (fun m v => upd m v (m v ++ [c1])) vs m x) -> stored s d).
    { induction vs as [|v vs IH]; cbn; intros m Hm; [exact Hm|]. apply IH. intros x e. unfold upd.
      destruct (x =? v); [|apply Hm]. rewrite in_app_iff. intros [Hx|[<-|[]]]; eauto. }
    apply F. apply W1. }
  clearbody a2. destruct W2 as (W2 & E1 & E2).
  assert (R3 := watch_new_steps hi hv a2 _ c a' (add_bool t (S (lord (lc_lit c)))) W2 ltac:(rewrite E1; exact C1) eq_refl Eq).
  split; [rewrite (watch_new_bd _ _ _ _ Eq); exact E2|]. split.
  - exists d. destruct (esteps_grows _ _ _ _ _ _ (proj1 R3) W2) as (_ & _ & G). rewrite E1 in G.
    eapply means_grows; [exact G|exact M].
  - intros R. eapply bext_add; [exact R|lia].
Qed.

Lemma nonzero_id ts : Forall (fun u => ~ snd u == 0)%Q ts -> nonzero ts = ts.
Proof.
  induction 1 as [|u ts H _ IH]; [reflexivity|]. unfold nonzero in *. cbn [filter]. rewrite IH.
  destruct (Qeq_bool (snd u) 0) eqn:E; [apply Qeq_bool_iff in E; contradiction|reflexivity].
Qed.
(** finish: the derived constraint is interned and propagated *)
Record finished (a : lra) (t : trail) (f : fm) (a' : lra) (t' : trail) (c : lcons) : Prop := {
  fi_goes : goes a t a' t';
  fi_bd : l_bd a' = l_bd a;
  fi_ext : rng (l_st a) t -> bext t t';
  fi_empty : fm_terms f = [] -> lc_empty c = true;
  fi_means : fm_terms f <> [] -> stored (l_st a') c /\ lc_empty c = false /\
    forall r, lc_holds (l_st a') r c <-> fm_holds r f }.
Lemma fm_finish_facts a t f a' t' c : wsi a -> fm_wf f -> fm_finish hi hv opt a t f = Ok (a', t', c) ->
  finished a t f a' t' c.
Proof.
  intros Ha [Hd Hz] H. destruct (fm_finish_steps hi hv opt a t f a' t' c Ha Hd H) as [G St].
  unfold fm_finish in H. destruct (fm_terms f) as [|u us] eqn:Ef.
  { inversion H; subst. constructor; auto; try congruence. intros _. apply bext_refl. }
  rewrite <- Ef in *. assert (Hne : fm_terms f <> []) by congruence. clear Ef. binv H.
  pose proof (sort_perm (level_gt t) (fm_terms f)) as P.
  pose proof (distinct_perm hi hv _ _ (fm_pred f) (- fm_const f)%Q P Hd) as D.
  match goal with E : lra_constraint _ _ _ _ _ _ _ _ = _ |- _ => apply (constraint_facts a t (mkReq _ _ _) _ _ _ Ha D) in E;
    destruct E as (B & (c0 & M) & X) end.
  assert (K : l_st a' = l_st l0 /\ l_bd a' = l_bd a /\ (rng (l_st a) t -> bext t t') /\ c = l).
  { destruct (mdef _ _); binv H; inversion H; subst; [auto|]. split; [reflexivity|]. split; [exact B|]. split; [|reflexivity].
    intros R. eapply bext_trans; [auto|]. eapply bext_sem; eauto. }
  destruct K as (K1 & K2 & K3 & ->). specialize (St Hne). constructor; auto; try congruence. intros _.
  split; [exact St|]. rewrite K1 in *. destruct M as (M1 & M2 & M3 & M4 & M5 & M6 & M7).
  cbn [rq_terms] in M6. rewrite nonzero_id in M6 by (eapply Permutation_Forall; [exact P|exact Hz]).
  split.
  - destruct (lc_empty l) eqn:E; [|reflexivity]. exfalso.
    pose proof (stored_size _ _ (ws_st _ (proj2 G)) ltac:(rewrite K1; exact St)) as Z. rewrite K1 in Z.
    unfold lc_empty, lc_size in *. apply Nat.leb_le in E.
    replace (snd (lc_pos l) - fst (lc_pos l)) with 0 in Z by lia.
    rewrite (terms_pos (l_st l0) l c0 M3) in Z. apply Permutation_length in M6. rewrite !map_length in M6.
    rewrite Z in M6. destruct (fm_terms f); [congruence|]. apply Permutation_length in P. rewrite <- M6 in P. discriminate P.
  - intros r. unfold lc_holds. cbn zeta. specialize (M7 r). rewrite M4, M5, (terms_pos _ _ _ M3).
    assert (Q : req_holds r (mkReq (sort_by (level_gt t) (fm_terms f)) (fm_pred f) (- fm_const f)%Q) <-> fm_holds r f).
    { unfold req_holds, fm_holds. cbn [rq_pred rq_terms rq_rhs].
      rewrite (rel_morph (fm_pred f) _ _ _ _ (lin_perm r _ _ (Permutation_sym P)) (Qeq_refl _)).
      destruct (fm_pred f); cbn [rel]; split; intros; lra. }
    rewrite <- Q. destruct (lneg (lc_lit l)); cbn [negb pm] in M7; [|tauto].
    unfold req_holds in *. destruct (rel_dec (fm_pred f) (lin r (sort_by (level_gt t) (fm_terms f))) (- fm_const f)%Q);
      cbn [rq_pred rq_terms rq_rhs] in *; tauto.
Qed.

(** ** sorting a clause keeps its literals *)
Lemma unique_in c l : In l (unique_lit c) <-> In l c.
Proof.
  induction c as [|a c IH]; [reflexivity|]. cbn [unique_lit]. destruct c as [|b c]; [reflexivity|].
  destruct (lit_eqb a b) eqn:E.
  - apply lit_eqb_eq in E. subst b. rewrite IH. cbn. tauto.
  - cbn [In] in *. rewrite IH. tauto.
Qed.
Lemma sort_in c l : In l (sort_clause c) <-> In l c.
Proof.
  unfold sort_clause. rewrite unique_in. split; intros H; (eapply Permutation_in; [|exact H]);
    [apply Permutation_sym|]; apply sort_perm.
Qed.

(** ** two bounds that leave no value *)
Definition vfree (f : fm) (qm : model Q) : Prop := forall y, In y (map fst (fm_terms f)) -> mdef qm y = true.
Lemma resolve_vars f g x h : fm_resolve f g x = Ok h -> ~ In x (map fst (fm_terms h)) /\ fm_wf h /\
  forall y, In y (map fst (fm_terms h)) -> y <> x /\ (In y (map fst (fm_terms f)) \/ In y (map fst (fm_terms g))).
Proof.
  intros H. destruct (resolve_inv _ _ _ _ H) as (a & b & _ & _ & Ex & _ & N & Z & V & _).
  apply coef_at_none in Ex. split; [exact Ex|]. split; [split; assumption|].
  intros y Hy. split; [intros ->; contradiction|]. apply in_map_iff in Hy. destruct Hy as (u & <- & Hu). auto.
Qed.
Lemma opposite f g x : fm_wf f -> fm_wf g -> (fm_pred f = PEq \/ (coef_sum x (fm_terms f) < 0)%Q) ->
  (fm_pred g = PEq \/ (0 < coef_sum x (fm_terms g))%Q) -> resolvable f g x.
Proof.
  intros [Wf _] [Wg _] [H|H] [K|K]; unfold resolvable; auto. right; right. intros a b Ha Hb.
  rewrite (coef_sum_in x _ _ Wf Ha) in H. rewrite (coef_sum_in x _ _ Wg Hb) in K. nra.
Qed.
Lemma opposite' f g x : fm_wf f -> fm_wf g -> (fm_pred f = PEq \/ (0 < coef_sum x (fm_terms f))%Q) ->
  (fm_pred g = PEq \/ (coef_sum x (fm_terms g) < 0)%Q) -> resolvable f g x.
Proof.
  intros [Wf _] [Wg _] [H|H] [K|K]; unfold resolvable; auto. right; right. intros a b Ha Hb.
  rewrite (coef_sum_in x _ _ Wf Ha) in H. rewrite (coef_sum_in x _ _ Wg Hb) in K. nra.
Qed.
Lemma ext_upd qm r x v : mdef qm x = false -> ext qm r -> ext qm (upd r x v).
Proof. intros Hx H y Hy. unfold upd. destruct (Nat.eqb_spec y x) as [->|]; [congruence|auto]. Qed.

(** the derived constraint: entailed by the reasons, false under the assigned values *)
Record derives (s : store) (t : trail) (cs : list lcons) (extra : (nat -> Q) -> Prop) (f : fm) : Prop := {
  dv_wf : fm_wf f;
  dv_vars : vfree f (t_qm t);
  dv_rsn : Forall (reason s t) cs;
  dv_snd : forall r, (forall c, In c cs -> lc_holds s r c) -> extra r -> fm_holds r f;
  dv_false : forall r, ext (t_qm t) r -> ~ fm_holds r f }.

Definition no_room (lb ub : bound) : Prop :=
  qltb (b_val lb) (b_val ub) || (Qeq_bool (b_val lb) (b_val ub) && negb (b_strict lb || b_strict ub)) = false.
Lemma no_room_empty lb ub v : no_room lb ub -> above lb v -> below ub v -> False.
Proof.
  unfold no_room, above, below. rewrite orb_false_iff, andb_false_iff. intros [A B] H1 H2.
  apply qltb_ge in A. destruct B as [B|B].
  - apply Qeq_bool_neq in B. destruct (b_strict lb), (b_strict ub); apply B; lra.
  - apply negb_false_iff, orb_true_iff in B. destruct (b_strict lb), (b_strict ub); destruct B; try discriminate; lra.
Qed.

Lemma bounds_clash s t B x lb ub : linv s t B -> In lb (lst B false x) -> In ub (lst B true x) ->
  is_obsolete s t lb = false -> is_obsolete s t ub = false -> no_room lb ub ->
  exists f cs1 g cs2 f1, eliminate s (t_qm t) lb = Ok (f, lits cs1) /\ eliminate s (t_qm t) ub = Ok (g, lits cs2) /\
    fm_resolve f g x = Ok f1 /\ derives s t (cs1 ++ cs2) (fun _ => True) f1.
Proof.
  intros I Hl Hu Ol Ou NR.
  destruct (li_good _ _ _ I _ _ _ Hl) as [El Gl]. destruct (li_good _ _ _ I _ _ _ Hu) as [Eu Gu].
  assert (Hx : mdef (t_qm t) x = false).
  { destruct (mdef (t_qm t) x) eqn:E; [|reflexivity]. exfalso.
    destruct (proj1 (permitted_iff _ _ _ _) (li_val _ _ _ I x E)) as [P _].
    apply (no_room_empty lb ub (mval (t_qm t) x) NR); [apply (P false lb)|apply (P true ub)]; auto. }
  destruct (eliminated s t B I false lb) as (f & cs1 & F); auto; try (rewrite El; auto).
  destruct (eliminated s t B I true ub) as (g & cs2 & G); auto; try (rewrite Eu; auto).
  destruct F as [F1 F2 F3 F4 F5 F6 F7 F8]. destruct G as [G1 G2 G3 G4 G5 G6 G7 G8].
  rewrite El in *. rewrite Eu in *. cbn [dirsgn] in *.
  pose proof (opposite f g x F2 G2 F5 G5) as R.
  destruct (resolve_exact f g x F2 G2 F4 G4 R) as (f1 & E & W & Nx & Ex).
  exists f, cs1, g, cs2, f1. split; [exact F1|]. split; [exact G1|]. split; [exact E|].
  destruct (resolve_vars _ _ _ _ E) as (_ & _ & V). constructor.
  - exact W.
  - intros y Hy. destruct (V y Hy) as [Ny [Y|Y]]; [destruct (F3 y Y)|destruct (G3 y Y)]; congruence.
  - apply Forall_app. auto.
  - intros r Hr _. eapply resolve_sound; eauto; [apply F8|apply G8]; intros c Hc; apply Hr, in_app_iff; auto.
  - intros r Er Hf. apply Ex in Hf. destruct Hf as (v & H1 & H2).
    pose proof (ext_upd _ r x v Hx Er) as Er'.
    apply (no_room_empty lb ub v NR); [specialize (F6 _ Er' H1)|specialize (G6 _ Er' H2)];
      rewrite upd_eq in *; assumption.
Qed.

(** ** the clause of a bound conflict *)
(** with a derived constraint [c]: the reasons imply it *)
Lemma reasons_hold s cs r b : sinv s -> consistent s r b -> (forall c, In c cs -> stored s c /\ lc_empty c = false) ->
  (exists l, In l (lits cs) /\ lit_holds b l) \/ (forall c, In c cs -> lc_holds s r c).
Proof.
  intros HS HC. induction cs as [|c cs IH]; intros Hc; [right; intros c []|].
  destruct (Hc c (or_introl eq_refl)) as [St Ne]. pose proof (cons_lit s c r b HS St Ne HC) as L.
  destruct (bool_dec (b (lord (lc_lit c))) (negb (lneg (lc_lit c)))) as [D|D].
  - destruct IH as [(l & H1 & H2)|IH]; [intros d Hd; apply Hc; now right|left; exists l; split; [now right|auto]|].
    right. intros d [<-|Hd]; [now apply L|auto].
  - left. exists (neg (lc_lit c)). split; [now left|]. unfold lit_holds, neg. cbn.
    destruct (b _), (lneg _); cbn in *; congruence.
Qed.
Lemma no_terms f r r' : fm_terms f = [] -> fm_holds r f -> fm_holds r' f.
Proof. intros E. unfold fm_holds. rewrite E. auto. Qed.
Lemma ext_self qm : ext qm (mval qm).
Proof. intros y _. reflexivity. Qed.

Lemma derived_lit s t cs P f a t0 a' t' c r b : derives s t cs P f -> finished a t0 f a' t' c ->
  sinv (l_st a') -> consistent (l_st a') r b -> fm_holds r f ->
  lc_empty c = false /\ lit_holds b (lc_lit c).
Proof.
  intros D F HS HC H. destruct (fm_terms f) as [|u us] eqn:E.
  - exfalso. apply (dv_false _ _ _ _ _ D (mval (t_qm t)) (ext_self _)). eapply no_terms; eauto.
  - destruct (fi_means _ _ _ _ _ _ F) as (M1 & M2 & M3); [congruence|]. split; [exact M2|].
    apply (cons_lit (l_st a') c r b); auto. now apply M3.
Qed.

Record cinv (a : lra) (t : trail) : Prop := {
  ci_w : wsi a; ci_l : linv (l_st a) t (l_bd a); ci_r : rng (l_st a) t }.
Lemma cinv_goes a t a' t' : cinv a t -> goes a t a' t' -> cinv a' t'.
Proof.
  intros [W L R] [S W']. constructor; [exact W'| |].
  - apply (linv_steps hi hv _ _ S). exact L.
  - apply (esteps_rng hi hv _ _ S); [apply W|exact R].
Qed.

Theorem bound_conflict_lemma a t x a' t' cl : cinv a t -> bound_conflict hi hv opt a t x = Ok (a', t', Some cl) ->
  theory_lemma (l_st a') cl /\ eval_clause (t_bm t') cl = Some false.
Proof.
  intros CI H. pose proof (ci_w _ _ CI) as W. unfold bound_conflict in H.
  destruct (lower_bound _ _ _) as [w1 lb] eqn:E1. destruct (upper_bound _ _ _) as [w2 ub] eqn:E2.
  pose proof (front_lower _ _ _ _ _ E1) as L1. pose proof (front_upper _ _ _ _ _ E2) as L2.
  pose proof (vq_trans _ _ _ _ _ (vq_lower' _ _ _ _ _ E1) (vq_upper' _ _ _ _ _ E2)) as VQ.
  pose proof (query_goes hi hv a t x w2 W VQ) as G0.
  assert (EB : vb_lb w2 = vb_lb w1) by (unfold upper_bound in E2; inversion E2; reflexivity).
  destruct lb as [lb|]; [|discriminate H]. destruct ub as [ub|]; [|discriminate H].
  destruct L1 as [O1 I1]. destruct L2 as [O2 I2]. rewrite <- EB in I1.
  destruct (_ || _) eqn:NR in H; [discriminate H|].
  set (a0 := with_bd a (bd_set (l_bd a) x w2)) in *.
  pose proof (cinv_goes _ _ _ _ CI G0) as C0. 
  assert (HL : In lb (lst (l_bd a0) false x)) by (unfold lst, a0; cbn [l_bd with_bd]; rewrite bd_set_same, Nat.eqb_refl; exact I1).
  assert (HU : In ub (lst (l_bd a0) true x)) by (unfold lst, a0; cbn [l_bd with_bd]; rewrite bd_set_same, Nat.eqb_refl; exact I2).
  destruct (bounds_clash (l_st a0) t (l_bd a0) x lb ub (ci_l _ _ C0) HL HU O1 O2 NR)
    as (f & cs1 & g & cs2 & f1 & F & G & R & D).
  destruct (li_good _ _ _ (ci_l _ _ C0) _ _ _ HU) as [Eu _].
  cbn [l_st with_bd a0] in F, G. rewrite F, G in H. cbn [bind] in H. rewrite Eu, R in H. cbn [bind] in H.
  binv H. inversion H; subst. clear H.
  match goal with E : fm_finish _ _ _ _ _ _ = Ok (_, _, ?d) |- _ => apply fm_finish_facts in E;
     [|apply C0|apply D]; rename E into FF; rename d into c end.
  match goal with E : is_false (eval_clause _ _) = true |- _ => apply is_false_iff in E; split; [|exact E] end.
  pose proof (fi_goes _ _ _ _ _ _ FF) as [S1 W1].
  destruct (esteps_grows _ _ _ _ _ _ S1 (ci_w _ _ C0)) as (SA & SB & GR).
  intros r b HC. pose proof (consistent_grows _ _ _ _ SA SB GR HC) as HC0.
  assert (SI : forall l, In l (lits (cs1 ++ cs2)) -> In l cl).
  { intros l Hl. unfold lits in Hl. rewrite map_app in Hl. fold (lits cs1) (lits cs2) in Hl.
    apply sort_in in Hl. destruct (lc_empty c); [okinv Eq0; subst; exact Hl|].
    binv Eq0. inversion Eq0; subst. apply in_app_iff. now left. }
  destruct (reasons_hold (l_st a0) (cs1 ++ cs2) r b SA HC0) as [(l & H1 & H2)|RH].
  - intros d Hd. pose proof (dv_rsn _ _ _ _ _ D) as RS. rewrite Forall_forall in RS. destruct (RS d Hd) as (X & _ & Y). auto.
  - eauto.
  - pose proof (dv_snd _ _ _ _ _ D r RH I) as HF.
    destruct (derived_lit _ _ _ _ _ _ _ _ _ _ r b D FF SB HC HF) as [Ne Li].
    rewrite Ne in Eq0. binv Eq0. inversion Eq0; subst. exists (lc_lit c). split; [|exact Li].
    apply in_app_iff. right. now left.
Qed.

(** ** disequality conflicts *)
Lemma neq_fm s t nq mult : sinv s -> neqok s t nq -> is_obsolete s t nq = false -> ~ (mult == 0)%Q ->
  exists g, fm_init_with s (b_cons nq) PLt mult = Ok g /\ fm_wf g /\ fm_pred g = PLt /\
    (forall y, In y (map fst (fm_terms g)) -> y = b_var nq \/ mdef (t_qm t) y = true) /\
    In (b_var nq) (map fst (fm_terms g)) /\
    (coef_sum (b_var nq) (fm_terms g) == mult * coef_sum (b_var nq) (lc_terms s (b_cons nq)))%Q /\
    (forall r, fm_holds r g <-> (mult * (lin r (lc_terms s (b_cons nq)) - lc_rhs (b_cons nq)) < 0)%Q).
Proof.
  intros HS N O Hm. pose proof (nv_stored _ _ _ (nq_node _ _ _ N)) as St.
  pose proof (nv_in _ _ _ (nq_node _ _ _ N)) as Hi. pose proof (stored_norm s _ HS St) as NT.
  exists (mkFm (map (fun u => (fst u, (snd u * mult)%Q)) (lc_terms s (b_cons nq))) (- lc_rhs (b_cons nq) * mult)%Q PLt).
  cbn [fm_terms fm_pred fm_const]. unfold fm_holds. cbn [fm_terms fm_pred fm_const].
  assert (EM : map fst (map (fun u => (fst u, (snd u * mult)%Q)) (lc_terms s (b_cons nq))) = map fst (lc_terms s (b_cons nq)))
    by (rewrite map_map; reflexivity).
  split; [unfold fm_init_with; rewrite (nonempty_in _ _ _ Hi); reflexivity|].
  split.
  { split; cbn [fm_terms]; [rewrite EM; apply NT|]. apply Forall_forall. intros u Hu. apply in_map_iff in Hu.
    destruct Hu as ([y k] & <- & Hy). cbn [snd fst]. pose proof (coef_nz s _ y k HS St Hy) as K. intros E.
    apply Qmult_integral in E. tauto. }
  split; [reflexivity|]. split.
  { rewrite EM. intros y Hy. destruct (neq_unit s t nq HS N O) as (l & E & A). rewrite <- lc_vars_terms, E in Hy by auto.
    destruct Hy as [<-|Hy]; [now left|right]. rewrite forallb_forall in A. auto. }
  split; [now rewrite EM|]. split; [unfold coef_sum; apply lin_map|].
  intros r. rewrite (rel_morph PLt _ (mult * (lin r (lc_terms s (b_cons nq)) - lc_rhs (b_cons nq)))%Q 0 0); [reflexivity| |reflexivity].
  rewrite lin_map. ring.
Qed.
(** the polynomial of the disequality when all variables but [x] have their values *)
Lemma neq_value s t nq r : sinv s -> neqok s t nq -> is_obsolete s t nq = false -> ext (t_qm t) r ->
  (lin r (lc_terms s (b_cons nq)) - lc_rhs (b_cons nq) ==
   coef_sum (b_var nq) (lc_terms s (b_cons nq)) * (r (b_var nq) - b_val nq))%Q.
Proof.
  intros HS N O E. pose proof (neq_unit s t nq HS N O) as (l & El & A).
  pose proof O as O'. rewrite obsolete_eq, (nq_deps _ _ _ N), orb_false_r in O'.
  pose proof (nv_val _ _ _ (nq_node _ _ _ N) O') as V.
  set (ts := lc_terms s (b_cons nq)) in *. set (x := b_var nq) in *.
  assert (P : (lin r ts == lin (upd (pt (t_qm t) nq) x (r x)) ts)%Q).
  { apply lin_ext_in. intros y k Hy. unfold upd. destruct (Nat.eqb_spec y x) as [->|Ny]; [reflexivity|].
    unfold pt. fold x. destruct (Nat.eqb_spec y x) as [|_]; [contradiction|]. rewrite (nq_deps _ _ _ N). cbn [find].
    apply E. assert (Hy' : In y (lc_vars s (b_cons nq))) by (rewrite lc_vars_terms by auto; now apply (in_map fst) in Hy).
    rewrite El in Hy'. destruct Hy' as [Hy'|Hy']; [congruence|]. rewrite forallb_forall in A. auto. }
  rewrite P, lin_upd_coef, V. unfold pt at 1. fold x. rewrite Nat.eqb_refl. ring.
Qed.

Definition side_sign (up : bool) (k : Q) : Prop := if up then (k < 0)%Q else (0 < k)%Q.
Lemma neq_clash s t B x up b nq mult : linv s t B -> In b (lst B up x) -> In nq (vb_neq (bd_of B x)) ->
  is_obsolete s t b = false -> is_obsolete s t nq = false -> mdef (t_qm t) x = false -> (b_val b == b_val nq)%Q ->
  side_sign up (mult * coef_sum x (lc_terms s (b_cons nq)))%Q ->
  exists f cs g f1, eliminate s (t_qm t) b = Ok (f, lits cs) /\ fm_init_with s (b_cons nq) PLt mult = Ok g /\
    fm_resolve f g x = Ok f1 /\
    derives s t cs (fun r => mult * (lin r (lc_terms s (b_cons nq)) - lc_rhs (b_cons nq)) < 0)%Q f1.
Proof.
  intros I Hb Hn Ob On Hx Ev Sg. pose proof (li_s _ _ _ I) as HS.
  destruct (li_good _ _ _ I _ _ _ Hb) as [Eb Gb]. destruct (li_neq _ _ _ I _ _ Hn) as [En N].
  assert (Hm : ~ (mult == 0)%Q).
  { intros Z. destruct up; unfold side_sign in Sg; rewrite Z in Sg; lra. }
  destruct (eliminated s t B I up b) as (f & cs & F); auto; try (rewrite Eb; auto).
  destruct F as [F1 F2 F3 F4 F5 F6 F7 F8]. rewrite Eb in *.
  destruct (neq_fm s t nq mult HS N On Hm) as (g & G1 & G2 & G3 & G4 & G5 & G6 & G7). rewrite En in *.
  assert (R : resolvable f g x).
  { destruct up; cbn [dirsgn side_sign] in *; [apply opposite'|apply opposite]; auto; right; rewrite G6; exact Sg. }
  destruct (resolve_exact f g x F2 G2 F4 G5 R) as (f1 & E & W & Nx & Ex).
  exists f, cs, g, f1. split; [exact F1|]. split; [exact G1|]. split; [exact E|].
  destruct (resolve_vars _ _ _ _ E) as (_ & _ & V). constructor.
  - exact W.
  - intros y Hy. destruct (V y Hy) as [Ny [Y|Y]]; [destruct (F3 y Y)|destruct (G4 y Y)]; congruence.
  - exact F7.
  - intros r Hr Hg. eapply resolve_sound; eauto. now apply G7.
  - intros r Er Hf. apply Ex in Hf. destruct Hf as (v & H1 & H2).
    pose proof (ext_upd _ r x v Hx Er) as Er'. apply G7 in H2. specialize (F6 _ Er' H1). rewrite upd_eq in F6.
    pose proof (neq_value s t nq _ HS N On Er') as NV. rewrite En, upd_eq in NV. rewrite NV in H2.
    set (k := coef_sum x (lc_terms s (b_cons nq))) in *. rewrite Qmult_assoc in H2. set (mk := (mult * k)%Q) in *. clearbody mk.
    destruct up; cbn [dirholds side_sign] in *; unfold above, below in F6; destruct (b_strict b); nra.
Qed.

(** obsolescence does not change when the trail is extended *)
Lemma node_ext s s' t t' b : sinv s -> sinv s' -> grows s s' -> bext t t' -> stored s (b_cons b) ->
  node_obs s t b = false -> node_obs s' t' b = false.
Proof.
  intros S1 S2 G X Hc. unfold node_obs. rewrite !orb_false_iff. intros [[A B] C].
  apply negb_false_iff in A. assert (A' := A). unfold eval_lit in A'.
  destruct (mdef (t_bm t) (lord (lc_lit (b_cons b)))) eqn:D; [|discriminate]. clear A'.
  destruct (bx_b _ _ X _ D) as (D1 & D2 & D3).
  split; [split|].
  - apply is_true_iff in A. rewrite (bext_lit _ _ _ _ X A). reflexivity.
  - rewrite D3. exact B.
  - rewrite lc_vars_terms in * by auto.
    rewrite (existsb_perm _ _ _ (Permutation_map fst (Permutation_sym (stored_terms _ _ _ G Hc)))).
    apply not_true_iff_false. intros E. apply existsb_exists in E. destruct E as (y & Hy & E).
    rewrite <- not_true_iff_false in C. apply C. apply existsb_exists. exists y. split; [exact Hy|].
    apply andb_true_iff in E. destruct E as [E1 E2]. rewrite E1. cbn [andb]. rewrite (bx_q _ _ X) in E2.
    destruct (mdef (t_qm t) y) eqn:Dy; [|reflexivity]. cbn [negb orb] in *. now rewrite <- (proj2 (bx_v _ _ X y Dy)).
Qed.
Lemma obs_ext s s' t t' up b : sinv s -> sinv s' -> grows s s' -> bext t t' -> bgood s t up b ->
  is_obsolete s t b = false -> is_obsolete s' t' b = false.
Proof.
  intros S1 S2 G X H. induction H as [up b N D _ IH]. rewrite !obsolete_eq, !orb_false_iff. intros [O1 O2].
  split; [apply (node_ext s s' t t' b); auto; apply N|]. apply not_true_iff_false. intros E. apply existsb_exists in E.
  destruct E as (d & Hd & E). rewrite IH in E; [discriminate E|exact Hd|].
  destruct (is_obsolete s t d) eqn:F; [|reflexivity]. rewrite <- O2. symmetry. apply existsb_exists. eauto.
Qed.
Lemma neq_ext s s' t t' b : sinv s -> sinv s' -> grows s s' -> bext t t' -> neqok s t b ->
  is_obsolete s t b = false -> is_obsolete s' t' b = false.
Proof.
  intros S1 S2 G X N. rewrite !obsolete_eq, (nq_deps _ _ _ N). cbn [existsb]. rewrite !orb_false_r.
  apply node_ext; auto. apply (nq_node _ _ _ N).
Qed.

Lemma neq_side_lemma a t x up b nq mult cl a' t' cl' : cinv a t -> In b (lst (l_bd a) up x) ->
  In nq (vb_neq (bd_of (l_bd a) x)) -> is_obsolete (l_st a) t b = false -> is_obsolete (l_st a) t nq = false ->
  mdef (t_qm t) x = false -> (b_val b == b_val nq)%Q ->
  side_sign up (mult * coef_sum x (lc_terms (l_st a) (b_cons nq)))%Q ->
  neq_side hi hv opt a t nq b mult cl = Ok (a', t', cl') ->
  goes a t a' t' /\ l_bd a' = l_bd a /\ bext t t' /\ (forall l, In l cl -> In l cl') /\
  forall r be, consistent (l_st a') r be ->
    (mult * (lin r (lc_terms (l_st a) (b_cons nq)) - lc_rhs (b_cons nq)) < 0)%Q -> exists l, In l cl' /\ lit_holds be l.
Proof.
  intros CI Hb Hn Ob On Hx Ev Sg H.
  destruct (neq_clash (l_st a) t (l_bd a) x up b nq mult (ci_l _ _ CI) Hb Hn Ob On Hx Ev Sg)
    as (f & cs & g & f1 & F & G & R & D).
  destruct (li_neq _ _ _ (ci_l _ _ CI) _ _ Hn) as [En _].
  unfold neq_side in H. rewrite F in H. cbn [bind] in H. rewrite G in H. cbn [bind] in H. rewrite En, R in H. cbn [bind] in H.
  binv H.
  match goal with E : fm_finish _ _ _ _ _ _ = Ok (_, _, ?d) |- _ => apply fm_finish_facts in E;
     [|apply CI|apply D]; rename E into FF; rename d into c end.
  assert (K : a' = l0 /\ t' = t0 /\ cl' = cl ++ lits cs ++ (if lc_empty c then [] else [lc_lit c])).
  { destruct (lc_empty c); binv H; inversion H; subst; [rewrite app_nil_r|]; auto. }
  destruct K as (-> & -> & ->). clear H.
  split; [apply FF|]. split; [apply FF|]. split; [apply FF, CI|]. split; [intros l; rewrite in_app_iff; auto|].
  pose proof (fi_goes _ _ _ _ _ _ FF) as [S1 W1].
  destruct (esteps_grows _ _ _ _ _ _ S1 (ci_w _ _ CI)) as (SA & SB & GR).
  intros r be HC HR. pose proof (consistent_grows _ _ _ _ SA SB GR HC) as HC0.
  destruct (reasons_hold (l_st a) cs r be SA HC0) as [(l & H1 & H2)|RH].
  - intros d Hd. pose proof (dv_rsn _ _ _ _ _ D) as RS. rewrite Forall_forall in RS. destruct (RS d Hd) as (X & _ & Y). auto.
  - exists l. rewrite !in_app_iff. auto.
  - pose proof (dv_snd _ _ _ _ _ D r RH HR) as HF.
    destruct (derived_lit _ _ _ _ _ _ _ _ _ _ r be D FF SB HC HF) as [Ne Li]. rewrite Ne.
    exists (lc_lit c). split; [|exact Li]. rewrite !in_app_iff. right. right. now left.
Qed.

Theorem neq_conflict_lemma a t x a' t' cl : cinv a t -> neq_conflict hi hv opt a t x = Ok (a', t', Some cl) ->
  theory_lemma (l_st a') cl /\ eval_clause (t_bm t') cl = Some false.
Proof.
  intros CI H. pose proof (ci_w _ _ CI) as W. unfold neq_conflict in H.
  destruct (lower_bound _ _ _) as [w1 lb] eqn:E1. destruct (upper_bound _ _ _) as [w2 ub] eqn:E2.
  pose proof (front_lower _ _ _ _ _ E1) as L1. pose proof (front_upper _ _ _ _ _ E2) as L2.
  pose proof (vq_trans _ _ _ _ _ (vq_lower' _ _ _ _ _ E1) (vq_upper' _ _ _ _ _ E2)) as VQ.
  pose proof (query_goes hi hv a t x w2 W VQ) as G0.
  assert (EB : vb_lb w2 = vb_lb w1) by (unfold upper_bound in E2; inversion E2; reflexivity).
  destruct lb as [lb|]; [|discriminate H]. destruct ub as [ub|]; [|discriminate H].
  destruct L1 as [O1 I1]. destruct L2 as [O2 I2]. rewrite <- EB in I1.
  destruct (_ || _) eqn:NR in H; [discriminate H|].
  apply orb_false_iff in NR. destruct NR as [NR _]. apply orb_false_iff in NR. destruct NR as [NR _].
  apply negb_false_iff, Qeq_bool_iff in NR.
  destruct (inequality _ _ _ _) as [w3 n] eqn:E3.
  destruct n as [nq|]; [|discriminate H].
  assert (L3 : In nq (vb_neq w3) /\ is_obsolete (l_st a) t nq = false /\ (b_val nq == b_val lb)%Q /\
    vb_ub w3 = vb_ub w2 /\ vb_lb w3 = vb_lb w2).
  { unfold inequality in E3. inversion E3 as [[Ew Ef]]. cbn [vb_neq vb_ub vb_lb]. clear E3 Ew.
    destruct (find_some _ _ Ef) as [A1 A2]. apply Qeq_bool_iff in A2. split; [exact A1|].
    apply filter_In in A1. destruct A1 as [_ A1]. apply negb_true_iff in A1. auto. }
  destruct L3 as (I3 & O3 & V3 & EU & EL). rewrite <- EU in I2. rewrite <- EL in I1.
  set (a0 := with_bd (with_bd a (bd_set (l_bd a) x w2)) (bd_set (bd_set (l_bd a) x w2) x w3)) in *.
  assert (G1 : goes a t a0 t).
  { eapply goes_trans; [exact G0|]. apply query_goes; [apply G0|]. cbn [l_st l_bd with_bd].
    rewrite bd_set_same, Nat.eqb_refl. eapply vq_neq'; eauto. }
  change (with_bd _ (bd_set (l_bd (with_bd a (bd_set (l_bd a) x w2))) x w3)) with a0 in H.
  pose proof (cinv_goes _ _ _ _ CI G1) as C0.
  assert (Bx : bd_of (l_bd a0) x = w3) by (unfold a0; cbn [l_bd with_bd]; rewrite bd_set_same, Nat.eqb_refl; reflexivity).
  assert (HL : In lb (lst (l_bd a0) false x)) by (unfold lst; rewrite Bx; exact I1).
  assert (HU : In ub (lst (l_bd a0) true x)) by (unfold lst; rewrite Bx; exact I2).
  assert (HN : In nq (vb_neq (bd_of (l_bd a0) x))) by (rewrite Bx; exact I3).
  assert (Es : l_st a0 = l_st a) by reflexivity.
  rewrite <- Es in O1, O2, O3. rewrite <- Es in H. clearbody a0. clear G0 CI Es E1 E2 E3 W VQ.
  destruct (li_neq _ _ _ (ci_l _ _ C0) _ _ HN) as [En NK]. pose proof (li_s _ _ _ (ci_l _ _ C0)) as HS.
  assert (Hx : mdef (t_qm t) x = false).
  { destruct (mdef (t_qm t) x) eqn:E; [|reflexivity]. exfalso.
    destruct (proj1 (permitted_iff _ _ _ _) (li_val _ _ _ (ci_l _ _ C0) x E)) as [P PN].
    specialize (P false lb HL O1) as PL. specialize (P true ub HU O2) as PU. specialize (PN nq HN O3).
    cbn [dirholds] in *. unfold differs, above, below in *. apply PN.
    destruct (b_strict lb), (b_strict ub); lra. }
  binv H. inversion H; subst a' t' cl. clear H.
  match goal with E : at_ _ 0 = Ok ?y |- _ => rename E into Ek; rename y into k end.
  assert (KK : (coef_sum x (lc_terms (l_st a0) (b_cons nq)) == k)%Q /\ ~ (k == 0)%Q).
  { destruct (neq_unit _ _ _ HS NK O3) as (l' & El & _). rewrite En in El.
    apply at_nth in Ek. destruct (lc_coef (l_st a0) (b_cons nq)) as [|k0 ks] eqn:Ec; [discriminate Ek|]. cbn in Ek. inversion Ek; subst k0.
    assert (Hin : In (x, k) (lc_terms (l_st a0) (b_cons nq))) by (unfold lc_terms; rewrite El, Ec; now left).
    pose proof (nv_stored _ _ _ (nq_node _ _ _ NK)) as St. split; [|eapply coef_nz; eauto].
    apply coef_sum_in; [|exact Hin]. apply (stored_norm _ _ HS St). }
  destruct KK as [K1 K2]. set (mult := (if qltb 0 k then 1 else -1)%Q) in *.
  assert (MK : (0 < mult * k)%Q).
  { unfold mult. destruct (qltb 0 k) eqn:Q0; [apply qltb_lt in Q0; lra|]. apply qltb_ge in Q0.
    assert (k < 0)%Q by (destruct (Qlt_le_dec k 0); auto; exfalso; apply K2; lra). lra. }
  clearbody mult.
  match goal with E : neq_side _ _ _ _ _ _ _ mult _ = _ |- _ => rename E into N1 end.
  match goal with E : neq_side _ _ _ _ _ _ _ (- mult)%Q _ = _ |- _ => rename E into N2 end.
  apply (neq_side_lemma a0 t x false lb nq mult) in N1; auto; [|lra|cbn [side_sign]; rewrite K1; exact MK].
  destruct N1 as (G2 & B2 & X2 & Sub1 & T1).
  rename t1 into tz. rename l0 into a1, t0 into t1.
  pose proof (cinv_goes _ _ _ _ C0 G2) as C1.
  destruct (esteps_grows _ _ _ _ _ _ (proj1 G2) (ci_w _ _ C0)) as (SA & SB & GR).
  pose proof (stored_terms _ _ _ GR (nv_stored _ _ _ (nq_node _ _ _ NK))) as PT.
  assert (K3 : (coef_sum x (lc_terms (l_st a1) (b_cons nq)) == k)%Q)
    by (rewrite <- K1; unfold coef_sum; apply lin_perm; symmetry; exact PT).
  apply (neq_side_lemma a1 t1 x true ub nq (- mult)%Q) in N2; try rewrite B2; auto.
  2:{ eapply obs_ext; [exact SA|exact SB|exact GR|exact X2| |exact O2]. eapply (li_good _ _ _ (ci_l _ _ C0)); eauto. }
  2:{ eapply neq_ext; [exact SA|exact SB|exact GR|exact X2| |exact O3]. exact NK. }
  2:{ rewrite (bx_q _ _ X2). exact Hx. }
  2:{ lra. }
  2:{ cbn [side_sign]. rewrite K3. lra. }
  destruct N2 as (G3 & B3 & X3 & Sub2 & T2).
  destruct (esteps_grows _ _ _ _ _ _ (proj1 G3) (ci_w _ _ C1)) as (_ & SC & GR2).
  match goal with E : is_false (eval_clause _ _) = true |- _ => apply is_false_iff in E; rename E into EF end.
  split.
  - intros r be HC. pose proof (consistent_grows _ _ _ _ SB SC GR2 HC) as HC1.
    pose proof (consistent_grows _ _ _ _ SA SB GR HC1) as HC0.
    match goal with |- exists l, In l (sort_clause ?c) /\ _ => assert (Goal : exists l, In l c /\ lit_holds be l) end.
    2:{ destruct Goal as (w & Hl & Hb). exists w. split; [now apply sort_in|exact Hb]. }
    pose proof (nv_stored _ _ _ (nq_node _ _ _ NK)) as St.
    pose proof (nonempty_in _ _ _ (nv_in _ _ _ (nq_node _ _ _ NK))) as Ne.
    pose proof (cons_lit (l_st a0) _ r be HS St Ne HC0) as CL.
    destruct (bool_dec (be (lord (lc_lit (b_cons nq)))) (negb (lneg (lc_lit (b_cons nq))))) as [Dl|Dl].
    2:{ exists (neg (lc_lit (b_cons nq))). split; [apply Sub2, Sub1; now left|]. unfold lit_holds, neg. cbn.
        destruct (be _), (lneg _); cbn in *; congruence. }
    apply CL in Dl. unfold lc_holds in Dl. rewrite (nq_pred _ _ _ NK), (nq_neg _ _ _ NK) in Dl. cbn [rel] in Dl.
    set (d := (lin r (lc_terms (l_st a0) (b_cons nq)) - lc_rhs (b_cons nq))%Q) in *.
    assert (Hd : ~ (mult * d == 0)%Q).
    { intros Z. apply Qmult_integral in Z. destruct Z as [Z|Z]; [rewrite Z in MK; lra|]. apply Dl. unfold d in Z. lra. }
    destruct (Qlt_le_dec (mult * d) 0) as [Q1|Q1].
    + destruct (T1 r be HC1 Q1) as (w & Hl & Hbe). eauto.
    + apply (T2 r be HC). assert (PL : (lin r (lc_terms (l_st a1) (b_cons nq)) == lin r (lc_terms (l_st a0) (b_cons nq)))%Q)
        by (apply lin_perm; symmetry; exact PT).
      rewrite PL. fold d. assert (Q2 : (0 < mult * d)%Q) by (destruct (Qlt_le_dec 0 (mult * d)); auto; exfalso; apply Hd; lra).
      lra.
  - rewrite eval_clause_false in *. intros w Hl. apply EF. now apply sort_in.
Qed.

(** ** all conflicts of one call of propagate *)
Lemma bound_conflict_ext a t x a' t' o : cinv a t -> bound_conflict hi hv opt a t x = Ok (a', t', o) -> bext t t'.
Proof.
  intros CI H. pose proof (ci_w _ _ CI) as W. unfold bound_conflict in H.
  destruct (lower_bound _ _ _) as [w1 lb] eqn:E1. destruct (upper_bound _ _ _) as [w2 ub] eqn:E2.
  destruct lb as [lb|]; [|inversion H; subst; apply bext_refl]. destruct ub as [ub|]; [|inversion H; subst; apply bext_refl].
  destruct (_ || _); [inversion H; subst; apply bext_refl|]. binv H.
  match goal with R : fm_resolve _ _ _ = Ok ?f, E : fm_finish _ _ _ _ _ ?f = _ |- _ =>
    apply fm_finish_facts in E; [|now apply wsi_bd|eapply resolve_vars; eauto]; pose proof (fi_ext _ _ _ _ _ _ E) as X end.
  inversion H; subst. apply X. apply CI.
Qed.
Lemma neq_side_ext a t n b m cl a' t' cl' : cinv a t -> neq_side hi hv opt a t n b m cl = Ok (a', t', cl') ->
  bext t t' /\ cinv a' t'.
Proof.
  intros CI H. pose proof (neq_side_steps hi hv opt _ _ _ _ _ _ _ _ _ (ci_w _ _ CI) H) as G.
  split; [|eapply cinv_goes; eauto]. unfold neq_side in H. binv H.
  match goal with R : fm_resolve _ _ _ = Ok ?f, E : fm_finish _ _ _ _ _ ?f = _ |- _ =>
    apply fm_finish_facts in E; [|apply CI|eapply resolve_vars; eauto]; pose proof (fi_ext _ _ _ _ _ _ E) as X end.
  destruct (lc_empty _); binv H; inversion H; subst; apply X, CI.
Qed.
Lemma neq_conflict_ext a t x a' t' o : cinv a t -> neq_conflict hi hv opt a t x = Ok (a', t', o) -> bext t t'.
Proof.
  intros CI H. pose proof (ci_w _ _ CI) as W. unfold neq_conflict in H.
  destruct (lower_bound _ _ _) as [w1 lb] eqn:E1. destruct (upper_bound _ _ _) as [w2 ub] eqn:E2.
  pose proof (vq_trans _ _ _ _ _ (vq_lower' _ _ _ _ _ E1) (vq_upper' _ _ _ _ _ E2)) as VQ.
  pose proof (query_goes hi hv a t x w2 W VQ) as G0.
  destruct lb as [lb|]; [|inversion H; subst; apply bext_refl]. destruct ub as [ub|]; [|inversion H; subst; apply bext_refl].
  destruct (_ || _); [inversion H; subst; apply bext_refl|]. destruct (inequality _ _ _ _) as [w3 n] eqn:E3.
  destruct n as [nq|]; [|inversion H; subst; apply bext_refl].
  set (a0 := with_bd (with_bd a (bd_set (l_bd a) x w2)) (bd_set (bd_set (l_bd a) x w2) x w3)) in *.
  assert (G1 : goes a t a0 t).
  { eapply goes_trans; [exact G0|]. apply query_goes; [apply G0|]. cbn [l_st l_bd with_bd].
    rewrite bd_set_same, Nat.eqb_refl. eapply vq_neq'; eauto. }
  pose proof (cinv_goes _ _ _ _ CI G1) as C0. binv H.
  match goal with E : neq_side _ _ _ (with_bd _ _) _ _ _ _ _ = _ |- _ => apply neq_side_ext in E; [destruct E as [X1 C1]|exact C0] end.
  match goal with E : neq_side _ _ _ _ _ _ _ _ _ = _ |- _ => apply neq_side_ext in E; [destruct E as [X2 C2]|exact C1] end.
  inversion H; subst. eapply bext_trans; eauto.
Qed.
Lemma check_bounds_lemma a t x a' t' o : cinv a t -> check_bounds hi hv opt a t x = Ok (a', t', o) ->
  bext t t' /\ forall cl, o = Some cl -> theory_lemma (l_st a') cl /\ eval_clause (t_bm t') cl = Some false.
Proof.
  intros CI H. unfold check_bounds in H. binv H.
  pose proof (bound_conflict_steps hi hv opt _ _ _ _ _ _ (ci_w _ _ CI) Eq) as G.
  pose proof (bound_conflict_ext _ _ _ _ _ _ CI Eq) as X.
  destruct o0 as [c|].
  - inversion H; subst. split; [exact X|]. intros cl E. inversion E; subst. eapply bound_conflict_lemma; eauto.
  - pose proof (cinv_goes _ _ _ _ CI G) as C1. split; [eapply bext_trans; [exact X|eapply neq_conflict_ext; eauto]|].
    intros cl ->. eapply neq_conflict_lemma; eauto.
Qed.
Definition confl_ok (a : lra) (t : trail) (cs : list clause) : Prop :=
  forall cl, In cl cs -> theory_lemma (l_st a) cl /\ eval_clause (t_bm t) cl = Some false.
Lemma confl_pres a t a' t' cs : cinv a t -> goes a t a' t' -> bext t t' -> confl_ok a t cs -> confl_ok a' t' cs.
Proof.
  intros CI G X H cl Hc. destruct (H cl Hc) as [A B]. destruct (esteps_grows _ _ _ _ _ _ (proj1 G) (ci_w _ _ CI)) as (S1 & S2 & GR).
  split; [exact (lemma_grows _ _ _ S1 S2 GR A)|exact (bext_clause _ _ _ X B)].
Qed.
Lemma finish_loop_lemma : forall vs k a t acc a' t' cs, cinv a t -> confl_ok a t acc ->
  finish_loop hi hv opt vs k a t acc = Ok (a', t', cs) -> confl_ok a' t' cs.
Proof.
  induction vs as [|x vs IH]; intros k a t acc a' t' cs CI HA; cbn [finish_loop]; intros H; [inversion H; subst; exact HA|].
  destruct (existsb _ _); [eauto|]. binv H.
  pose proof (check_bounds_steps hi hv opt _ _ _ _ _ _ (ci_w _ _ CI) Eq) as G.
  destruct (check_bounds_lemma _ _ _ _ _ _ CI Eq) as [X L]. pose proof (cinv_goes _ _ _ _ CI G) as C1.
  pose proof (confl_pres _ _ _ _ _ CI G X HA) as HA1.
  destruct o as [c|].
  - assert (HA2 : confl_ok l t0 (acc ++ [c])).
    { intros cl Hc. apply in_app_iff in Hc. destruct Hc as [Hc|[<-|[]]]; auto. }
    destruct (o_all opt); [eapply IH; eauto|inversion H; subst; exact HA2].
  - destruct (if o_rational opt then _ else _) as [a2 b] eqn:E.
    assert (G2 : goes l t0 a2 t0).
    { destruct (o_rational opt); [eapply effectively_steps; eauto; apply G|]. inversion E; subst. apply goes_refl, G. }
    assert (G3 : goes l t0 (if b then with_decided a2 (l_decided a2 ++ [x]) else a2) t0)
      by (destruct b; [now apply decided_goes|exact G2]).
    eapply IH; [| |exact H]; [eapply cinv_goes; eauto|]. eapply confl_pres; [exact C1|exact G3|apply bext_refl|exact HA1].
Qed.
Theorem propagate_lemma a t a' t' cs : cinv a t -> lra_propagate hi hv opt a t = Ok (a', t', cs) -> confl_ok a' t' cs.
Proof.
  intros CI H. pose proof (ci_w _ _ CI) as Ha. unfold lra_propagate in H. destruct (cursor_assigned _ _) as [cur es]. binv H.
  assert (A0 : wsi (with_cur a cur)) by (destruct Ha; constructor; auto).
  apply (lra_vars_steps hi hv) in Eq; auto.
  assert (G1 : goes a t l t0) by exact Eq.
  assert (A2 : goes l t0 a1 t0).
  { destruct (o_bounds opt); [eapply propagate_bounds_steps; eauto; apply G1|inversion Eq0; subst; apply goes_refl, G1]. }
  assert (A3 : goes a1 t0 l0 t1).
  { destruct (o_unassigned opt); [|inversion Eq1; subst; apply goes_refl, A2]. unfold propagate_unassigned in Eq1.
    destruct (_ =? _); [inversion Eq1; subst; apply goes_refl, A2|].
    destruct (rev _) as [|[[i|x] r] es']; [discriminate|inversion Eq1; subst; apply goes_refl, A2|].
    eapply unassigned_loop_steps; eauto; [apply A2|]. intros c Hc. eapply (ws_occur _ (proj2 A2)); eauto. }
  unfold lra_finish in H. destruct (bd_changed _) as [B ch] eqn:E. binv H. inversion H; subst.
  assert (G5 : goes l0 t1 (with_bd l0 B) t1).
  { split; [|apply wsi_bd, A3]. unfold bd_changed in E. inversion E; subst. apply e_one. apply es_mark. }
  assert (C5 : cinv (with_bd l0 B) t1).
  { eapply cinv_goes; [exact CI|]. eapply goes_trans; [exact G1|]. eapply goes_trans; [exact A2|]. eapply goes_trans; [exact A3|]. exact G5. }
  match goal with F : finish_loop _ _ _ _ _ _ _ _ = _ |- _ => apply finish_loop_lemma in F; [exact F|exact C5|intros cl []] end.
Qed.

Lemma run_cinv a t : lra_run hi hv opt a t -> cinv a t.
Proof.
  intros H. pose proof (run_linv _ _ _ _ _ H) as L. destruct (run_steps _ _ _ _ _ H) as [R W]. constructor; auto.
  apply (rsteps_rng hi hv _ _ R); [constructor; [apply inv_new|intros [|i] c E; discriminate E]|exact rng_init].
Qed.
End C.
