(** Boolean propagation and linear arithmetic assign booleans without a reason only at levels that
    were started by a rational variable. *)
From Coq Require Import List Arith ZArith QArith Bool Lia.
From Verif Require Import Base Core_Model Bool_Model Sat_Base Sat_Inv
  Trail_Model Spec_Trail Trail_Proofs Solver_Model Spec_Theory Theory_Inv Theory_Strict Theory_Bool Theory_Safe
  Lincons_Model Lra_Model Lra_Hist Lra_Watch.
Import ListNotations.
Open Scope nat_scope.

Ltac sb H := match type of H with bind ?m _ = Ok _ => let zz := fresh "zz" in destruct m as [zz| |] eqn:?; cbn [bind] in H; [|discriminate|discriminate] end.

Record DD (t : trail) : Prop := mkDD {
  DD_n : t_levels t <> [];
  DD_b : forall i k, t_lvl t (VBool i) = Some (S k) -> t_rsn t (VBool i) = None ->
    decided_by t (S k) = Some (VBool i) \/ exists x, decided_by t (S k) = Some (VRat x);
  DD_r : forall x k, t_lvl t (VRat x) = Some k -> 1 <= k /\ decided_by t k = Some (VRat x) }.

Lemma DD_prop t i ro k x t' : t_step t (TPropagate (VBool i) ro k x) = Ok t' ->
  (ro <> None \/ k = 0 \/ exists y, decided_by t k = Some (VRat y)) -> DD t -> DD t'.
Proof.
  intros H HR [N D1 D2]. destruct (lists_prop _ _ _ _ _ _ N H) as [_ LS]. destruct (step_prop_inv _ _ _ _ _ _ H) as (K & L1 & L2 & _).
  assert (DB : forall j y, decided_by t j = Some y -> decided_by t' j = Some y).
  { intros j y E. rewrite <- E. specialize (LS j). destruct (_ && _).
    - eapply decided_push; [exact LS|congruence].
    - unfold decided_by. now rewrite LS. }
  constructor.
  - cbn in H. unfold trail_propagate in H. destruct (k <=? _); [|discriminate]. injection H as <-. cbn [t_levels].
    intros E. apply (f_equal (@length _)) in E. rewrite map_first_length in E. cbn in E. destruct (t_levels t); [congruence|discriminate].
  - intros j k' L R. rewrite L1 in L. rewrite L2 in R. destruct (var_eq_dec (VBool j) (VBool i)) as [E|NE].
    + injection E as ->. rewrite vupd_eq in L. rewrite vupd_eq in R. destruct HR as [HR|[HR|(y & HY)]]; [congruence|congruence|]. right. exists y. apply DB. congruence.
    + rewrite vupd_neq in L by congruence. rewrite vupd_neq in R by congruence. destruct (D1 j k' L R) as [E|(y & E)]; [left|right; exists y]; auto.
  - intros y k' L. rewrite L1 in L. rewrite vupd_neq in L by congruence. destruct (D2 y k' L). auto.
Qed.
Lemma max_level_in t : forall vs k0 k, max_level t vs k0 = Ok k -> k = k0 \/ exists v, t_lvl t (VRat v) = Some k.
Proof.
  induction vs as [|v vs IH]; intros k0 k H; cbn [max_level] in H; [injection H as <-; auto|].
  destruct (t_lvl t (VRat v)) as [j|] eqn:E; cbn [value_of bind] in H; [|discriminate].
  destruct (IH _ _ H) as [->|X]; [|auto]. destruct (Nat.max_spec k0 j) as [[_ ->]|[_ ->]]; eauto.
Qed.
Lemma DD_sem s t c t' : sem_propagate s t c = Ok t' -> DD t -> DD t'.
Proof.
  unfold sem_propagate. intros H D. sb H. sb H. sb H.
  match goal with E : max_level _ _ _ = Ok _ |- _ => destruct (max_level_in _ _ _ _ E) as [->|(v & V)] end.
  all: match type of H with trail_propagate (with_bm _ (set_value _ ?i ?b)) _ _ ?k = _ =>
    apply (DD_prop t i None k (b, 0%Q) t' H) end; auto.
  right; right. exists v. apply (DD_r _ D). exact V.
Qed.
Lemma DD_add t n : DD t -> DD (add_bool t n).
Proof.
  intros [N D1 D2]. constructor; auto.
  - intros i k L R. unfold add_bool, trail_resize in L, R. cbn [t_lvl t_rsn] in L, R. destruct (in_range _ _ _); [|discriminate].
    destruct (D1 i k L R) as [X|(x & X)]; [left|right; exists x]; exact X.
  - intros x k L. unfold add_bool, trail_resize in L. cbn [t_lvl] in L. destruct (in_range _ _ _); [|discriminate]. exact (D2 x k L).
Qed.
Lemma DD_watch n x : forall s W t B don todo s' W' t' B', watch_loop n x s W t B don todo = Ok (s', W', t', B') -> DD t -> DD t'.
Proof.
  induction n as [|n IH]; intros s W t B don [|w todo] s' W' t' B' H D; cbn [watch_loop] in H; try (injection H as <- <- <- <-; exact D); [discriminate|].
  destruct (replace_watch s W (t_qm t) w x) as [[[[s1 W1] w1] rm]| |]; cbn [bind] in H; try discriminate.
  destruct rm; [eapply IH; eauto|].
  destruct (watch_kept s1 t B (fst w1)) as [[t1 B1]| |] eqn:E; cbn [bind] in H; try discriminate.
  apply (IH _ _ _ _ _ _ _ _ _ _ H). unfold watch_kept in E. destruct (mdef _ _).
  - destruct (fully_assigned _ _ _).
    + sb E. sb E. injection E as <- <-. exact D.
    + sb E. sb E. sb E. injection E as <- <-. exact D.
  - destruct (fully_assigned _ _ _).
    + destruct (sem_propagate _ _ _) as [t2| |] eqn:Es; cbn [bind] in E; try discriminate. injection E as <- <-. eapply DD_sem; eauto.
    + sb E. sb E. injection E as <- <-. exact D.
Qed.
Lemma DD_vars : forall vs a t a' t', lra_vars vs a t = Ok (a', t') -> DD t -> DD t'.
Proof.
  induction vs as [|[i|x] vs IH]; intros a t a' t' H D; cbn [lra_vars] in H; [injection H as _ <-; exact D| |].
  - destruct (lra_bool_var a t i) as [[a1 t1]| |] eqn:E; cbn [bind] in H; try discriminate. apply (IH _ _ _ _ H).
    unfold lra_bool_var in E. sb E. destruct (fully_assigned _ _ _).
    + sb E. sb E. injection E as _ <-. exact D.
    + destruct (is_unit _ _ _) as [[|]| |]; cbn [bind] in E; try discriminate.
      * sb E. injection E as _ <-. exact D.
      * injection E as _ <-. exact D.
  - destruct (replace_watches a t x) as [[a1 t1]| |] eqn:E; cbn [bind] in H; try discriminate. apply (IH _ _ _ _ H).
    unfold replace_watches in E. sb E.
    destruct (watch_loop _ _ _ _ _ _ _ _) as [[[[sx Wx] t2] Bx]| |] eqn:Ew; cbn [bind] in E; try discriminate.
    injection E as _ <-. exact (DD_watch _ _ _ _ _ _ _ _ _ _ _ _ Ew D).
Qed.
Section Fin.
Variables (hi : nat -> Z) (hv : Q -> Z) (opt : lopt).
Lemma DD_cons a t ts p q a' t' c : lra_constraint hi hv opt a t ts p q = Ok (a', t', c) -> DD t -> DD t'.
Proof.
  unfold lra_constraint. destruct (lc_make _ _ _ _ _ _) as [s c1]. destruct (_ <=? _); intros H D.
  - sb H. injection H as _ <- _. apply DD_add. exact D.
  - injection H as _ <- _. exact D.
Qed.
Lemma DD_fm a t f a' t' c : fm_finish hi hv opt a t f = Ok (a', t', c) -> DD t -> DD t'.
Proof.
  unfold fm_finish. intros H D. destruct (fm_terms f); [injection H as _ <- _; exact D|]. sb H.
  destruct (lra_constraint _ _ _ _ _ _ _ _) as [[[a1 t1] c1]| |] eqn:E; cbn [bind] in H; try discriminate. apply DD_cons in E; auto.
  destruct (mdef _ _); [injection H as _ <- _; exact E|].
  destruct (sem_propagate _ _ _) as [t2| |] eqn:Es; cbn [bind] in H; try discriminate. injection H as _ <- _. eapply DD_sem; eauto.
Qed.
Lemma DD_bound a t x a' t' o : bound_conflict hi hv opt a t x = Ok (a', t', o) -> DD t -> DD t'.
Proof.
  unfold bound_conflict. intros H D. destruct (lower_bound _ _ _) as [w1 [lb|]]; destruct (upper_bound _ _ _) as [w2 [ub|]];
    try (injection H as _ <- _; exact D).
  destruct (_ || _); [injection H as _ <- _; exact D|]. sb H.
  destruct (eliminate _ _ lb) as [[f1 c1]| |]; cbn [bind] in H; try discriminate.
  destruct (eliminate _ _ ub) as [[f2 c2]| |]; cbn [bind] in H; try discriminate. sb H.
  destruct (fm_finish _ _ _ _ _ _) as [[[a1 t1] c3]| |] eqn:E; cbn [bind] in H; try discriminate.
  sb H. sb H. sb H. injection H as _ <- _. eapply DD_fm; eauto.
Qed.
Lemma DD_side a t n b m cl a' t' cl' : neq_side hi hv opt a t n b m cl = Ok (a', t', cl') -> DD t -> DD t'.
Proof.
  unfold neq_side. intros H D. destruct (eliminate _ _ _) as [[f1 c1]| |]; cbn [bind] in H; try discriminate. sb H. sb H.
  destruct (fm_finish _ _ _ _ _ _) as [[[a1 t1] c3]| |] eqn:E; cbn [bind] in H; try discriminate. apply DD_fm in E; auto.
  destruct (lc_empty _); [injection H as _ <- _; exact E|]. sb H. injection H as _ <- _. exact E.
Qed.
Lemma DD_neq a t x a' t' o : neq_conflict hi hv opt a t x = Ok (a', t', o) -> DD t -> DD t'.
Proof.
  unfold neq_conflict. intros H D. destruct (lower_bound _ _ _) as [w1 [lb|]]; destruct (upper_bound _ _ _) as [w2 [ub|]];
    try (injection H as _ <- _; exact D).
  destruct (_ || _); [injection H as _ <- _; exact D|]. destruct (inequality _ _ _ _) as [w3 [n|]]; [|injection H as _ <- _; exact D].
  sb H. sb H. sb H.
  destruct (neq_side _ _ _ _ _ _ lb _ _) as [[[a1 t1] c1]| |] eqn:E1; cbn [bind] in H; try discriminate.
  destruct (neq_side _ _ _ _ _ _ ub _ _) as [[[a2 t2] c2]| |] eqn:E2; cbn [bind] in H; try discriminate.
  sb H. injection H as _ <- _. eapply DD_side; eauto. eapply DD_side; eauto.
Qed.
Lemma DD_loop : forall vs ck a t acc a' t' cs, finish_loop hi hv opt vs ck a t acc = Ok (a', t', cs) -> DD t -> DD t'.
Proof.
  induction vs as [|x vs IH]; intros ck a t acc a' t' cs H D; cbn [finish_loop] in H; [injection H as _ <- _; exact D|].
  destruct (existsb _ _); [eapply IH; eauto|]. unfold check_bounds in H.
  destruct (bound_conflict _ _ _ _ _ _) as [[[a1 t1] o]| |] eqn:E1; cbn [bind] in H; try discriminate. apply DD_bound in E1; auto.
  assert (R : forall a2 t2 o2, DD t2 -> match o2 with
     | Some c => if o_all opt then finish_loop hi hv opt vs (x :: ck) a2 t2 (acc ++ [c]) else Ok (a2, t2, acc ++ [c])
     | None => let '(a3, b) := if o_rational opt then effectively_decided a2 t2 x else (a2, false) in
        finish_loop hi hv opt vs (x :: ck) (if b then with_decided a3 (l_decided a3 ++ [x]) else a3) t2 acc end = Ok (a', t', cs) -> DD t').
  { intros a2 t2 [c|] D2 H2.
    - destruct (o_all opt); [eapply IH; eauto|injection H2 as _ <- _; exact D2].
    - destruct (if o_rational opt then _ else _) as [a3 b]. eapply IH; eauto. }
  destruct o as [c|].
  - cbn [bind] in H. exact (R a1 t1 (Some c) E1 H).
  - destruct (neq_conflict _ _ _ _ _ _) as [[[a2 t2] o2]| |] eqn:E2; cbn [bind] in H; try discriminate.
    apply DD_neq in E2; auto. exact (R a2 t2 o2 E2 H).
Qed.
Lemma DD_lra a t a' t' cs : o_unassigned opt = false ->
  lra_propagate hi hv opt a t = Ok (a', t', cs) -> DD t -> DD t'.
Proof.
  intros O2 H D. unfold lra_propagate in H. destruct (cursor_assigned _ _) as [cur es].
  destruct (lra_vars _ _ _) as [[a1 t1]| |] eqn:E; cbn [bind] in H; try discriminate. apply DD_vars in E; auto.
  destruct (if o_bounds opt then _ else _) as [a3| |]; cbn [bind] in H; try discriminate. rewrite O2 in H. cbn [bind] in H. unfold lra_finish in H. destruct (bd_changed _) as [B ch].
  destruct (finish_loop _ _ _ _ _ _ _ _) as [[[a2 t2] cs2]| |] eqn:E2; cbn [bind] in H; try discriminate. injection H as _ <- _. eapply DD_loop; eauto.
Qed.
End Fin.
Lemma DD_bcp : forall fuel t d w s t' d' w' o, bcp_loop fuel t d w s = Ok (t', d', w', o) -> DD t -> DD t'.
Proof.
  induction fuel as [|fuel IH]; intros t d w [|[l ro] s] t' d' w' o H D; cbn [bcp_loop] in H; try (injection H as <- _ _ _; exact D); [discriminate|].
  match type of H with bind ?m _ = _ => destruct m as [t1| |] eqn:E; cbn [bind] in H; try discriminate end.
  assert (D1 : DD t1).
  { destruct ro as [r|]; [|injection E as <-; exact D]. destruct (mdef _ _); [injection E as <-; exact D|].
    apply (DD_prop t (lord l) (Some r) (dl t) (negb (lneg l), 0%Q) t1 E); auto. left. discriminate. }
  sb H. sb H. destruct (falsified _ _ _ _ _) as [[[[d2 w2] s2] [c|]]| |]; cbn [bind] in H; try discriminate.
  - injection H as <- _ _ _. exact D1.
  - eapply IH; eauto.
Qed.
Lemma DD_bool fuel b d t b' d' t' cs : bool_propagate fuel b d t = Ok (b', d', t', cs) -> DD t -> DD t'.
Proof.
  unfold bool_propagate. intros H D. destruct (bool_initialize _ _ _) as [[b1 s]| |]; cbn [bind] in H; try discriminate.
  destruct (bcp_loop _ _ _ _ _) as [[[[t2 d2] w2] o]| |] eqn:E; cbn [bind] in H; try discriminate. injection H as _ _ <- _. eapply DD_bcp; eauto.
Qed.
Lemma DD_decide t v x t' : TT t -> t_lvl t v = None -> t_step t (TDecide v x) = Ok t' -> DD t -> DD t'.
Proof.
  intros G NL H [N D1 D2]. pose proof (lists_dec _ _ _ _ N H) as LS.
  assert (F : forall u, (u = v /\ t_lvl t' u = Some (S (dl t))) \/ (t_lvl t' u = t_lvl t u /\ t_rsn t' u = t_rsn t u)).
  { intros u. cbn in H. injection H as <-. unfold trail_decide. cbn [t_lvl t_rsn].
    assert (E1 : t_lvl (put t v x) = t_lvl t) by (destruct v; reflexivity). assert (E2 : t_rsn (put t v x) = t_rsn t) by (destruct v; reflexivity).
    rewrite E1, E2.
    destruct (var_eq_dec u v) as [->|NE]; [left|right; rewrite !vupd_neq by congruence; auto].
    split; auto. rewrite vupd_eq. f_equal. replace (t_levels (put t v x)) with (t_levels t) by (destruct v; reflexivity). unfold dl. destruct (t_levels t); [congruence|cbn; lia]. }
  assert (K : forall u k, t_lvl t u = Some k -> lists t' k = lists t k).
  { intros u k L. rewrite LS. pose proof (tt_le t u k G L). destruct (Nat.eqb_spec k (S (dl t))); [lia|auto]. }
  constructor.
  - cbn in H. injection H as <-. unfold trail_decide. cbn [t_levels]. discriminate.
  - intros i k L R. destruct (F (VBool i)) as [[E0 E]|[E1 E2]].
    + left. rewrite E in L. injection L as <-. unfold decided_by. rewrite LS, Nat.eqb_refl. cbn. congruence.
    + rewrite E1 in L. rewrite E2 in R. unfold decided_by. rewrite (K _ _ L). exact (D1 i k L R).
  - intros y k L. destruct (F (VRat y)) as [[E0 E]|[E1 E2]].
    + rewrite E in L. injection L as <-. split; [lia|]. unfold decided_by. rewrite LS, Nat.eqb_refl. cbn. congruence.
    + rewrite E1 in L. unfold decided_by. rewrite (K _ _ L). exact (D2 y k L).
Qed.
Lemma tt_back t k t1 : TT t -> trail_backtrack t k = Ok t1 ->
  (forall v, t_lvl t1 v = match t_lvl t v with Some j => if j <=? k then Some j else None | None => None end) /\
  (forall v, t_rsn t1 v = match t_lvl t v with Some j => if j <=? k then t_rsn t v else None | None => None end) /\
  (forall i, i <= k -> lists t1 i = lists t i) /\ t_levels t1 <> [].
Proof.
  intros (a & T) S. 
  assert (K : k <= dl t) by (unfold trail_backtrack in S; destruct (Nat.leb_spec k (dl t)); [auto|discriminate]).
  destruct (inv_backtrack t a k T) as (t1' & E & T1 & LS).
  { destruct T as [_ T]. simpl. now rewrite <- (sh_dl _ _ T). }
  rewrite S in E. injection E as <-.
  pose proof T as [_ A]. pose proof T1 as [N1 A1].
  split; [|split; [|split; auto]].
  - intros v. rewrite (sh_lvl _ _ A1), (sh_lvl _ _ A). simpl. destruct (at_rec a v) as [g|]; simpl; auto.
    destruct (a_level g <=? k); auto.
  - intros v. rewrite (sh_rsn _ _ A1), (sh_lvl _ _ A), (sh_rsn _ _ A). simpl. destruct (at_rec a v) as [g|]; simpl; auto.
    destruct (a_level g <=? k); auto.
Qed.
Lemma DD_back t k t' : TT t -> trail_backtrack t k = Ok t' -> DD t -> DD t'.
Proof.
  intros G H [N D1 D2]. destruct (tt_back _ _ _ G H) as (EL & ER & LS & N1). constructor; [exact N1| |].
  - intros i j L R. rewrite EL in L. rewrite ER in R.
    destruct (t_lvl t (VBool i)) as [j'|] eqn:E; [|discriminate]. destruct (Nat.leb_spec j' k) as [X|]; [|discriminate]. injection L as ->.
    unfold decided_by. rewrite LS by auto. exact (D1 i j E R).
  - intros y j L. rewrite EL in L. destruct (t_lvl t (VRat y)) as [j'|] eqn:E; [|discriminate].
    destruct (Nat.leb_spec j' k) as [X|]; [|discriminate]. injection L as ->.
    unfold decided_by. rewrite LS by auto. exact (D2 y j E).
Qed.
(** what remains of [DR]: nothing is assigned without a reason at level 0 *)
Lemma DR_DD t : (forall i, t_lvl t (VBool i) = Some 0 -> t_rsn t (VBool i) <> None) -> DD t -> DR t.
Proof. intros H D. split; [exact H|exact (DD_b _ D)]. Qed.
Lemma zero_ops d t t' : prop_ops true d (fun _ => False) t t' ->
  (forall i, t_lvl t (VBool i) = Some 0 -> t_rsn t (VBool i) <> None) ->
  (forall i, t_lvl t' (VBool i) = Some 0 -> t_rsn t' (VBool i) <> None).
Proof.
  induction 1 as [t|t n t' Hn H IH|t l ro k t1 t' L1 L2 J S H IH|t x k q t1 t' L1 L2 S H IH]; intros Z; auto; apply IH; intros i.
  - unfold trail_resize. cbn [t_lvl t_rsn]. destruct (in_range _ _ _); [apply Z|discriminate].
  - destruct (step_prop_inv _ _ _ _ _ _ S) as (_ & -> & -> & _). destruct (var_eq_dec (VBool i) (lvar l)) as [E|N].
    + rewrite E, !vupd_eq. intros Ek. injection Ek as ->. destruct ro; [discriminate|]. cbn in J. destruct (J eq_refl).
    + rewrite !vupd_neq by congruence. apply Z.
  - destruct (step_prop_inv _ _ _ _ _ _ S) as (_ & -> & -> & _). rewrite !vupd_neq by congruence. apply Z.
Qed.

(** reasons of the current level keep all other literals false *)
Lemma tv_step t v ro k x t' y b : TT t -> t_lvl t v = None -> t_step t (TPropagate v ro k x) = Ok t' -> tv t y = Some b -> tv t' y = Some b.
Proof.
  intros T N S E. destruct (step_prop_inv _ _ _ _ _ _ S) as (_ & _ & _ & M & _). unfold tv, eval_lit in *. rewrite M.
  destruct v as [i|z]; [|exact E]. cbn [put t_bm with_bm]. destruct (mdef (t_bm t) (lord y)) eqn:D; [|discriminate].
  apply (tt_b t _ T) in D. assert (NE : lord y <> i) by (intros E0; apply D; unfold lvar in *; rewrite E0; exact N).
  unfold set_value. cbn [mdef mval]. unfold upd. destruct (Nat.eqb_spec i (lord y)); [congruence|]. destruct (Nat.eqb_spec (lord y) i); [congruence|].
  destruct (mdef (t_bm t) (lord y)) eqn:D2; [exact E|]. exfalso. apply (tt_b t _ T) in D. congruence.
Qed.
