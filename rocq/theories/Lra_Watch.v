(** Watched variables of linear constraints: which constraints are noticed when their last variable
    is assigned, at every decision level. *)
From Coq Require Import List Arith ZArith QArith Bool Lia Permutation Sorted Lqa.
From Verif Require Import Base Core_Model Analysis_Model Bool_Model Sat_Base Sat_Inv Sat_Trail Sort_Proofs
  Trail_Model Spec_Trail Trail_Proofs Solver_Model Spec_Theory Theory_Inv Theory_Bool Comb_Bcp
  Lincons_Model Spec_Lincons Lincons_Proofs Lincons_Proofs2 Lra_Model Spec_Lra Lra_Fm Lra_Bounds Lra_Hist Lra_Steps Lra_Keep
  Lra_Range.
Import ListNotations.
Open Scope nat_scope.

(** ** trails *)
Definition TT (t : trail) : Prop := exists a, tinv t a.
Definition lv (t : trail) (x : nat) : option nat := t_lvl t (VRat x).
Lemma tt_def t v : TT t -> is_def t v = true <-> t_lvl t v <> None.
Proof.
  intros (a & _ & A). rewrite (sh_def _ _ A v), (sh_lvl _ _ A).
  destruct (at_rec a v); simpl; split; congruence.
Qed.
Lemma tt_q t x : TT t -> mdef (t_qm t) x = true <-> lv t x <> None.
Proof. intros H. exact (tt_def t (VRat x) H). Qed.
Lemma tt_b t i : TT t -> mdef (t_bm t) i = true <-> t_lvl t (VBool i) <> None.
Proof. intros H. exact (tt_def t (VBool i) H). Qed.
Lemma tt_le t v k : TT t -> t_lvl t v = Some k -> k <= dl t.
Proof.
  intros (a & _ & A). rewrite (sh_lvl _ _ A). destruct (at_rec a v) as [g|] eqn:E; [|discriminate].
  intros H. injection H as <-. destruct (sh_ok _ _ A v g E) as [_ B]. rewrite (sh_dl _ _ A). lia.
Qed.
Lemma tt_recent t v : TT t -> t_lvl t v = Some (dl t) -> In v (map fst (recent t)).
Proof.
  intros (a & N & A) H. rewrite (sh_lvl _ _ A) in H. destruct (at_rec a v) as [g|] eqn:E; [|discriminate].
  injection H as H. destruct (sh_ok _ _ A v g E) as [_ B].
  assert (Q : In (v, a_reason g) (lists t (dl t))).
  { apply (sh_list _ _ A); [lia|]. exists g. split; auto. rewrite <- (sh_dl _ _ A) in B. split; auto. lia. }
  rewrite <- recent_lists in Q by auto. apply in_map_iff. exists (v, a_reason g). auto.
Qed.

(** ** constraints by index *)
Definition isC (s : store) (i : nat) : Prop := lc_empty (lc_get s i) = false.
Definition cv (s : store) (i : nat) : list nat := lc_vars s (lc_get s i).
Lemma stored_cv s c : sinv s -> stored s c -> lc_vars s c = cv s (lord (lc_lit c)) /\ (lc_empty c = false -> isC s (lord (lc_lit c))).
Proof.
  intros HS Hc. destruct (stored_get_eq s c HS Hc) as (E & _). split; [now apply vars_pos|].
  unfold isC, lc_empty. now rewrite E.
Qed.
Lemma cv_ne s i : sinv s -> isC s i -> cv s i <> [].
Proof.
  intros HS H E. pose proof (vars_size s _ HS (stored_get s i HS H)) as L. fold (cv s i) in L. rewrite E in L.
  unfold isC, lc_empty, lc_size in *. apply Nat.leb_gt in H. cbn in L. lia.
Qed.
Lemma stored_size_cv s c : sinv s -> stored s c -> length (cv s (lord (lc_lit c))) = lc_size c.
Proof. intros HS Hc. rewrite <- (proj1 (stored_cv s c HS Hc)). now apply vars_size. Qed.

Lemma swap_other s c p q i : inv s -> sinv s -> stored s c -> p < lc_size c -> q < lc_size c -> isC s i -> i <> lord (lc_lit c) ->
  cv (cons_swap s c p q) i = cv s i.
Proof.
  intros HI HS (c0 & H & El & E & _) Hp Hq Hi N.
  destruct (stored_get s i HS Hi) as (d0 & H' & El' & E' & _). rewrite (get_lord s i HS Hi) in El'.
  assert (N0 : c0 <> d0) by (intros ->; congruence).
  destruct (i_pair s HI c0 d0 H H' N0) as [D _]. unfold disjoint in D.
  unfold lc_size in *. unfold cv, lc_vars, cons_swap, lc_swap, lc_get in *. cbn [st_vars st_cons]. rewrite E in *. rewrite E' in *.
  pose proof (good_pos_le s c0 (i_good s HI c0 H)).
  apply slice_swap_out; try lia.
Qed.
Lemma swap01 {A} (a b : A) l : swap_nth 0 1 (a :: b :: l) = b :: a :: l.
Proof. reflexivity. Qed.
Lemma swap1j {A} (a b r : A) l j : nth_error (a :: b :: l) j = Some r -> 2 <= j -> swap_nth 1 j (a :: b :: l) = a :: r :: set_nth (j - 2) b l.
Proof. intros H Hj. destruct j as [|[|j]]; try lia. unfold swap_nth. rewrite H. cbn. now rewrite Nat.sub_0_r. Qed.

(** the cyclic search visits every position from 2 on *)
Lemma find_free_none (qm : model Q) vs stop : 2 <= stop -> stop < length vs ->
  forall fuel i i', 2 <= i -> i < length vs -> find_free fuel qm vs i stop = Ok (None, i') ->
  forall j v, nth_error vs j = Some v -> 2 <= j -> (if i <? stop then i <= j < stop else i <= j \/ j < stop) -> mdef qm v = true.
Proof.
  intros H2 Hs. induction fuel as [|f IH]; intros i i' Hi Hl H j v Hv Hj C; cbn [find_free] in H; [discriminate|].
  binv H. apply at_nth in Eq. destruct (mdef qm a) eqn:Ed; cbn [negb] in H; [|discriminate]. cbn zeta in H.
  destruct (Nat.eq_dec j i) as [->|Nj]; [congruence|].
  destruct (Nat.leb_spec (length vs) (i + 1)) as [L|L].
  - assert (j < length vs) by (apply nth_error_Some; congruence).
    destruct (Nat.eqb_spec 2 stop) as [E|E].
    + subst stop. destruct (Nat.ltb_spec i 2); lia.
    + eapply (IH 2 i'); eauto; try lia. destruct (Nat.ltb_spec 2 stop); [|lia].
      destruct (Nat.ltb_spec i stop); lia.
  - destruct (Nat.eqb_spec (i + 1) stop) as [E|E].
    + destruct (Nat.ltb_spec i stop); lia.
    + eapply (IH (i + 1) i'); eauto; try lia.
      destruct (Nat.ltb_spec i stop), (Nat.ltb_spec (i + 1) stop); lia.
Qed.

Definition ords (ws : list (lcons * nat)) : list nat := map (fun w => lord (lc_lit (fst w))) ws.
Definition hasw (W : nat -> list (lcons * nat)) (y i : nat) : Prop := In i (ords (W y)).

(** what replace_watch does to the constraint of the watch and to the others *)
Lemma replace_watch_spec s W qm c idx x s' W' w' rm : sinv s -> stored s c -> mdef qm x = true ->
  replace_watch s W qm (c, idx) x = Ok (s', W', w', rm) -> let i := lord (lc_lit c) in
  fst w' = c /\ st_cons s' = st_cons s /\ (forall j, isC s j -> j <> i -> cv s' j = cv s j) /\
  (forall v, In v (cv s' i) <-> In v (cv s i)) /\
  ((rm = false /\ W' = W /\ (forall v, In v (firstn 2 (cv s' i)) <-> In v (firstn 2 (cv s i))) /\ skipn 2 (cv s' i) = skipn 2 (cv s i) /\
    forall v, In v (skipn 2 (cv s i)) -> mdef qm v = true) \/
   (rm = true /\ exists v0 r, firstn 2 (cv s' i) = [v0; r] /\ mdef qm v0 = false /\ mdef qm r = false /\ In v0 (firstn 2 (cv s i)) /\
      W' = upd W r (W r ++ [w']))).
Proof.
  intros HS Hc Hx H i. destruct (stored_cv s c HS Hc) as [Ecv _]. fold i in Ecv.
  pose proof (vars_size s c HS Hc) as Hlen. rewrite Ecv in Hlen.
  unfold replace_watch in H. rewrite Ecv in H. binv H. apply at_nth in Eq.
  destruct (lc_size c <=? 1) eqn:E1.
  { binv H. inversion H; subst s' W' w' rm. repeat (split; [reflexivity || tauto|]). left. split; auto. split; auto. split; [tauto|]. split; auto.
    apply Nat.leb_le in E1. destruct (cv s i) as [|u [|u' l]]; cbn in *; try lia; easy. }
  apply Nat.leb_gt in E1. binv H. apply at_nth in Eq0.
  destruct (cv s i) as [|v0 [|v1 rest]] eqn:Ev; [discriminate|cbn in Eq0; discriminate|].
  cbn in Eq, Eq0. injection Eq as <-. injection Eq0 as <-.
  destruct (mdef qm v0 && mdef qm v1) eqn:Eaa.
  { binv H. inversion H; subst s' W' w' rm. rewrite Ev. repeat (split; [reflexivity || tauto|]). left. split; auto. split; auto. split; [tauto|]. split; auto.
    cbn in As. apply andb_true_iff in As. destruct As as [_ As]. apply andb_true_iff in As. destruct As as [_ As].
    rewrite forallb_forall in As. exact As. }
  cbn zeta in H. set (s1 := if v1 =? x then s else cons_swap s c 0 1) in *.
  binv H. apply Nat.eqb_eq in As. subst a. apply at_nth in Eq.
  assert (S1 : sinv s1 /\ stored s1 c /\ st_cons s1 = st_cons s /\ (forall j, isC s j -> j <> i -> cv s1 j = cv s j) /\
    exists u0, cv s1 i = u0 :: x :: rest /\ (forall v, In v [u0; x] <-> In v [v0; v1]) /\ mdef qm u0 = false).
  { revert Eq. unfold s1. destruct (Nat.eqb_spec v1 x) as [E0|E0]; intros Eq.
    - subst v1. split; auto. split; auto. split; auto. split; auto. exists v0. split; [exact Ev|]. split; [tauto|].
      rewrite Hx, andb_true_r in Eaa. exact Eaa.
    - destruct (swap_sinv s c 0 1) as [A G]; auto; try lia.
      pose proof (stored_grows _ _ c G Hc) as Hc1. split; auto. split; auto. split; auto.
      split; [intros; apply swap_other; auto; try lia; apply HS|].
      rewrite swap_vars, Ecv, swap01 in Eq by (auto; lia). cbn in Eq. injection Eq as ->.
      exists v1. unfold i. rewrite <- (proj1 (stored_cv _ c A Hc1)), swap_vars, Ecv, swap01 by (auto; lia). split; auto. split; [cbn; tauto|].
      rewrite Hx in Eaa. exact Eaa. }
  destruct S1 as (I1 & Hc1 & C1 & O1 & u0 & V1 & M1 & D0). clearbody s1. clear Eq.
  assert (Ecv1 : lc_vars s1 c = u0 :: x :: rest) by (rewrite (proj1 (stored_cv s1 c I1 Hc1)); exact V1).
  assert (Same : forall v, In v (cv s1 i) <-> In v (v0 :: v1 :: rest)).
  { intros v. rewrite V1. specialize (M1 v). cbn in *. tauto. }
  cbn in Hlen. destruct (Nat.ltb_spec 2 (lc_size c)) as [E2|E2].
  2:{ inversion H; subst s' W' w' rm. split; auto. split; auto. split; auto. split; [exact Same|]. left. rewrite V1. split; auto. split; auto.
    split; [exact M1|]. split; [reflexivity|]. destruct rest; cbn in *; [easy|lia]. }
  rewrite Ecv1 in H. binv H. apply andb_true_iff in As. destruct As as [A1 A2]. apply Nat.leb_le in A1. apply Nat.ltb_lt in A2.
  destruct o as [j|].
  2:{ inversion H; subst s' W' w' rm. split; auto. split; auto. split; auto. split; [exact Same|]. left. rewrite V1. split; auto. split; auto.
    split; [exact M1|]. split; [reflexivity|]. intros v Hv. cbn in Hv. apply In_nth_error in Hv. destruct Hv as (p & Hp).
    eapply (find_free_none qm (u0 :: x :: rest) idx A1); [cbn; lia|exact A1| |exact Eq| |  |]; [cbn; lia|exact (Hp : nth_error (u0 :: x :: rest) (S (S p)) = Some v)|lia|].
    destruct (Nat.ltb_spec idx idx); lia. }
  pose proof Eq as EqF. apply find_free_lt in EqF; [|lia..]. destruct EqF as (_ & Hj & r & Hr & Dr).
  assert (Hj2 : 2 <= j).
  { destruct j as [|[|j]]; [cbn in Hr; injection Hr as <-; exfalso|cbn in Hr; injection Hr as <-; congruence|lia].
    assert (G : forall f p, 2 <= p -> forall o q, find_free f qm (u0 :: x :: rest) p idx = Ok (Some o, q) -> 2 <= o).
    { induction f as [|f IH]; intros p Hp o q HF; cbn [find_free] in HF; [discriminate|]. binv HF.
      destruct (negb _); [inversion HF; subst; exact Hp|]. cbn zeta in HF. destruct (_ =? idx) in HF; [discriminate|].
      eapply IH; [|exact HF]. destruct (_ <=? _); lia. }
    specialize (G _ _ A1 _ _ Eq). lia. }
  destruct (swap_sinv s1 c 1 j) as [A G]; auto; [cbn in Hj; lia|].
  pose proof (stored_grows _ _ c G Hc1) as Hc2.
  assert (V2 : lc_vars (cons_swap s1 c 1 j) c = u0 :: r :: set_nth (j - 2) x rest).
  { rewrite swap_vars, Ecv1 by (auto; cbn in Hj; lia). now apply swap1j. }
  rewrite V2 in H. cbn in H. inversion H; subst s' W' w' rm.
  destruct (Nat.eqb_spec r x) as [Er|Nr]; [rewrite Er in Dr; congruence|]. cbn [negb].
  split; auto. split; [exact C1|]. split.
  { intros p Hp Np. rewrite <- (O1 p Hp Np). apply swap_other; auto; try (cbn in Hj; lia); [apply I1|].
    unfold isC, lc_get in *. now rewrite C1. }
  rewrite (proj1 (stored_cv _ c A Hc2)) in V2. fold i in V2.
  split.
  { intros v. rewrite <- (Same v). pose proof (stored_terms _ _ c G Hc1) as P.
    unfold i. rewrite <- (proj1 (stored_cv _ c A Hc2)), <- (proj1 (stored_cv _ c I1 Hc1)), !lc_vars_terms by auto.
    split; apply Permutation_in, Permutation_map; [now apply Permutation_sym|exact P]. }
  right. split; auto. exists u0, r. rewrite V2. split; auto. split; auto. split; auto. split; [|reflexivity].
  cbn. specialize (M1 u0). cbn in M1. tauto.
Qed.

(** ** what holds of constraint [i] for the levels below [k] *)
Definition below (t : trail) (j : nat) (vs : list nat) : Prop := forall v, In v vs -> exists j', lv t v = Some j' /\ j' <= j.
Definition agree (s : store) (t : trail) (i : nat) : Prop := mval (t_bm t) i = true <-> stored_holds (mval (t_qm t)) s i.
Definition Vi (k : nat) (s : store) (t : trail) (i : nat) : Prop :=
  forall v j, In v (firstn 2 (cv s i)) -> lv t v = Some j -> j < k -> below t j (skipn 2 (cv s i)).
Definition Ei (k : nat) (s : store) (t : trail) (i : nat) : Prop :=
  forall j, j < k -> below t j (cv s i) -> exists j', t_lvl t (VBool i) = Some j' /\ j' <= j.
Definition Ai (k : nat) (s : store) (t : trail) (i : nat) : Prop :=
  forall j j', j < k -> j' < k -> below t j (cv s i) -> t_lvl t (VBool i) = Some j' -> agree s t i.
Definition OKi (k : nat) (s : store) (t : trail) (i : nat) : Prop := Vi k s t i /\ Ei k s t i /\ Ai k s t i.
Lemma OKi_mono k k' s t i : k <= k' -> OKi k' s t i -> OKi k s t i.
Proof.
  intros L (A & B & C). split; [|split].
  - intros v j H1 H2 H3. apply (A v j); auto. lia.
  - intros j H1 H2. apply B; auto. lia.
  - intros j j' H1 H2. apply C; lia.
Qed.
(** no variable of [vs] is known unassigned *)
Lemma below_def t j vs : TT t -> below t j vs -> forallb (mdef (t_qm t)) vs = true.
Proof. intros T B. apply forallb_forall. intros v Hv. destruct (B v Hv) as (j' & E & _). apply tt_q; auto. congruence. Qed.
Lemma def_below t vs : TT t -> forallb (mdef (t_qm t)) vs = true -> below t (dl t) vs.
Proof.
  intros T H v Hv. rewrite forallb_forall in H. apply H in Hv. apply tt_q in Hv; auto.
  destruct (lv t v) as [j|] eqn:E; [|congruence]. exists j. split; auto. eapply tt_le; eauto.
Qed.
Lemma OKi_free k s t i v0 r : firstn 2 (cv s i) = [v0; r] -> lv t v0 = None -> lv t r = None -> OKi k s t i.
Proof.
  intros E H0 H1. assert (I0 : In v0 (cv s i)).
  { rewrite <- (firstn_skipn 2 (cv s i)), E. cbn. auto. }
  split; [|split].
  - intros v j Hv L. rewrite E in Hv. destruct Hv as [<-|[<-|[]]]; congruence.
  - intros j _ B. destruct (B v0 I0) as (j' & L & _). congruence.
  - intros j j' _ _ B. destruct (B v0 I0) as (j0 & L & _). congruence.
Qed.

(** variables to be processed *)
Definition PEi (P : var -> Prop) (td : list nat) (s : store) (t : trail) (i : nat) : Prop :=
  OKi (dl t) s t i /\
  ((Vi (S (dl t)) s t i /\ Ei (S (dl t)) s t i) \/ (In i td \/ exists v, In v (firstn 2 (cv s i)) /\ P (VRat v))) /\
  (Ai (S (dl t)) s t i \/ P (VBool i) \/ (In i td \/ exists v, In v (firstn 2 (cv s i)) /\ P (VRat v))).

(** ** boolean steps at the top level *)
Lemma bx_lv t t' x : bx t t' -> lv t' x = lv t x.
Proof.
  intros B. unfold lv. destruct (t_lvl t (VRat x)) as [k|] eqn:E; [now apply (bx_lvl _ _ B)|].
  destruct (t_lvl t' (VRat x)) as [k|] eqn:E'; auto. exfalso. destruct (bx_new _ _ B) as (new & _ & N1 & N2).
  specialize (N2 _ E ltac:(congruence)). apply in_map_iff in N2. destruct N2 as (e & E1 & E2). destruct (N1 e E2) as (i & Ei & _). congruence.
Qed.
Lemma bx_below t t' j vs : bx t t' -> below t' j vs <-> below t j vs.
Proof. intros B. split; intros H v Hv; destruct (H v Hv) as (j' & E & L); exists j'; split; auto; rewrite <- E; [symmetry|]; now apply bx_lv. Qed.
Lemma bx_agree t t' s i k : TT t -> bx t t' -> t_lvl t (VBool i) = Some k -> agree s t i -> agree s t' i.
Proof.
  intros T B L A. unfold agree in *. rewrite (bx_qm _ _ B).
  assert (D : mdef (t_bm t) i = true) by (apply tt_b; auto; congruence).
  assert (V : mval (t_bm t') i = mval (t_bm t) i); [|now rewrite V].
  pose proof (bx_val _ _ B (mkLit i false) (mval (t_bm t) i)) as V. unfold tv, eval_lit in V. cbn in V. rewrite D in V.
  specialize (V ltac:(destruct (mval (t_bm t) i); reflexivity)). destruct (mdef (t_bm t') i); [|discriminate].
  destruct (mval (t_bm t') i), (mval (t_bm t) i); cbn in V; congruence.
Qed.
Lemma bx_Vi k s t t' i : bx t t' -> Vi k s t i -> Vi k s t' i.
Proof. intros B H v j Hv E L. rewrite (bx_lv t t' v B) in E. apply (bx_below t t'); auto. eapply H; eauto. Qed.
Lemma bx_Ei k s t t' i : bx t t' -> Ei k s t i -> Ei k s t' i.
Proof.
  intros B H j L Hb. apply (bx_below t t') in Hb; auto. destruct (H j L Hb) as (j' & E & L'). exists j'. split; auto. now apply (bx_lvl _ _ B).
Qed.
Lemma bx_Ai k s t t' i : TT t -> bx t t' -> k <= dl t \/ t_lvl t' (VBool i) = t_lvl t (VBool i) -> Ai k s t i -> Ai k s t' i.
Proof.
  intros T B C H j j' L1 L2 Hb E. apply (bx_below t t') in Hb; auto.
  destruct (t_lvl t (VBool i)) as [k0|] eqn:E0.
  - assert (k0 = j') by (pose proof (bx_lvl _ _ B _ _ E0); congruence). subst k0. eapply bx_agree; eauto.
  - destruct C as [C|C]; [|congruence]. pose proof (bx_top _ _ B _ _ E0 E). lia.
Qed.
Lemma bx_PEi (P P' : var -> Prop) td s t t' i : TT t -> bx t t' -> (forall v, P v -> P' v) ->
  (t_lvl t (VBool i) = None -> t_lvl t' (VBool i) <> None -> P' (VBool i)) -> PEi P td s t i -> PEi P' td s t' i.
Proof.
  intros T B HP HN ((A1 & A2 & A3) & C & D). unfold PEi. rewrite (bx_dl _ _ B). split; [|split].
  - split; [eapply bx_Vi; eauto|split; [eapply bx_Ei; eauto|eapply bx_Ai; eauto]].
  - destruct C as [[C1 C2]|[C|(v & C1 & C2)]]; [left; split; [eapply bx_Vi; eauto|eapply bx_Ei; eauto]|right; left; auto|right; right; eauto].
  - destruct D as [D|[D|[D|(v & D1 & D2)]]]; [|right; left; auto|right; right; left; auto|right; right; right; eauto].
    destruct (t_lvl t (VBool i)) as [k0|] eqn:E0.
    + left. eapply bx_Ai; eauto. right. rewrite E0. now apply (bx_lvl _ _ B).
    + destruct (t_lvl t' (VBool i)) as [k1|] eqn:E1; [right; left; apply HN; congruence|].
      left. eapply bx_Ai; eauto. right. congruence.
Qed.

(** ** evaluation *)
Lemma forallb_map {A B} (f : A -> B) g l : forallb g (map f l) = forallb (fun x => g (f x)) l.
Proof. induction l; cbn; auto. now rewrite IHl. Qed.
Lemma eval_terms_def m : forall ts r x, eval_terms m ts r = Ok x -> forallb (mdef m) (map fst ts) = true.
Proof. induction ts as [|[v c] ts IH]; cbn; intros r x H; auto. binv H. cbn. eauto. Qed.
Lemma eval_holds s m c b : sinv s -> stored s c -> lc_eval s m c = Ok b ->
  (xorb (lneg (lc_lit c)) b = true <-> stored_holds (mval m) s (lord (lc_lit c))).
Proof.
  intros HS Hc H. unfold lc_eval in H. binv H. injection H as <-.
  destruct (stored_get_eq s c HS Hc) as (E1 & E2 & E3).
  pose proof (eval_terms_def _ _ _ _ Eq) as D. destruct (eval_terms_ok m (lc_terms s c) (lc_rhs c) D) as (x & X1 & X2).
  rewrite Eq in X1. injection X1 as <-.
  replace (xorb _ (xorb _ _)) with (pred_eval (lc_pred c) 0 a) by (destruct (lneg (lc_lit c)), (pred_eval (lc_pred c) 0 a); reflexivity).
  rewrite pred_eval_rel. unfold stored_holds. rewrite E2, E3, (terms_pos s _ c E1).
  destruct (lc_pred c); cbn [rel]; rewrite X2; split; intros; lra.
Qed.
Lemma max_level_spec t : forall vs k m, max_level t vs k = Ok m ->
  k <= m /\ below t m vs /\ (m = k \/ exists v, In v vs /\ lv t v = Some m).
Proof.
  induction vs as [|v vs IH]; cbn [max_level]; intros k m H; [injection H as <-; split; auto; split; [intros v []|auto]|].
  binv H. apply IH in H. destruct H as (H1 & H2 & H3). unfold value_of in Eq. unfold lv.
  destruct (t_lvl t (VRat v)) as [j|] eqn:E; [|discriminate]. injection Eq as <-. split; [lia|]. split.
  - intros u [<-|Hu]; [exists j; split; auto; lia|auto].
  - destruct H3 as [H3|(u & U1 & U2)]; [|right; exists u; cbn; auto].
    destruct (Nat.max_spec k j) as [[L X]|[L X]]; rewrite X in H3; [right; exists v; cbn; split; auto; congruence|left; congruence].
Qed.

(** rational variables are never assigned at level 0 *)
Definition R1 (t : trail) : Prop := forall x, lv t x <> Some 0.

Lemma bx_prop t i ro k x t1 : TT t -> t_lvl t (VBool i) = None -> k = dl t ->
  t_step t (TPropagate (VBool i) ro k x) = Ok t1 -> bx t t1.
Proof.
  intros T L -> S. pose proof S as S0. apply step_prop_inv in S. destruct S as (_ & L1 & _ & B & Q). cbn in B, Q.
  assert (N : t_levels t <> []) by (destruct T as (a & N & _); exact N).
  assert (TL : t_levels t1 = ((VBool i, ro) :: recent t) :: tl (t_levels t)).
  { cbn [t_step put fst] in S0. unfold trail_propagate in S0. unfold dl in S0. cbn [t_levels with_bm] in S0. rewrite Nat.leb_refl in S0. injection S0 as <-.
    cbn [t_levels with_bm]. unfold dl. cbn [t_levels with_bm]. rewrite Nat.sub_diag. unfold recent. destruct (t_levels t) as [|l ls]; [congruence|]. destruct ls; reflexivity. }
  split.
  - exact Q.
  - rewrite B. reflexivity.
  - unfold dl. rewrite TL. destruct (t_levels t); [congruence|]. cbn. lia.
  - now rewrite TL.
  - exists [(VBool i, ro)]. unfold recent at 1. rewrite TL. split; [reflexivity|]. split.
    + intros e [<-|[]]. exists i. auto.
    + intros v E1 E2. rewrite L1 in E2. cbn. destruct (var_eq_dec v (VBool i)) as [->|Nv]; auto. rewrite vupd_neq in E2 by auto. congruence.
  - intros v k E. rewrite L1. rewrite vupd_neq; auto. congruence.
  - intros v k E E1. rewrite L1 in E1. destruct (var_eq_dec v (VBool i)) as [->|Nv]; [rewrite vupd_eq in E1; congruence|]. rewrite vupd_neq in E1 by auto. congruence.
  - intros y b Hy. unfold tv, eval_lit in *. rewrite B. cbn. unfold upd. destruct (Nat.eqb_spec (lord y) i) as [<-|Ny]; auto. exfalso.
    assert (mdef (t_bm t) (lord y) = true) by (destruct (mdef (t_bm t) (lord y)); [auto|discriminate]).
    apply tt_b in H; auto.
Qed.

Lemma po_one d ent t i k x t1 : i < mnum (t_bm t) -> t_lvl t (VBool i) = None -> 1 <= k ->
  t_step t (TPropagate (VBool i) None k (x, 0%Q)) = Ok t1 -> prop_ops true d ent t t1.
Proof.
  intros H1 H2 H3 H4. eapply (po_bool true d ent t (mkLit i (negb x)) None k t1); cbn; auto.
  - intros ->. lia.
  - rewrite negb_involutive. exact H4.
  - constructor.
Qed.
Lemma tt_prop t i k x t1 : TT t -> i < mnum (t_bm t) -> t_lvl t (VBool i) = None ->
  t_step t (TPropagate (VBool i) None k x) = Ok t1 -> TT t1.
Proof.
  intros (a & T) H1 H2 H3. destruct (step_prop_inv _ _ _ _ _ _ H3) as (K & _).
  destruct (inv_step t a (TPropagate (VBool i) None k x) T) as (t1' & E & T').
  { destruct T as [_ T]. split; [|split].
    * destruct (sh_num _ _ T) as [<- _]. cbn. now apply Nat.ltb_lt.
    * rewrite (sh_lvl _ _ T) in H2. destruct (at_rec a (VBool i)); [discriminate|auto].
    * now rewrite <- (sh_dl _ _ T). }
  rewrite H3 in E. injection E as <-. eexists; eauto.
Qed.
Lemma sem_ok s t c t1 : sinv s -> stored s c -> cv s (lord (lc_lit c)) <> [] -> TT t -> R1 t -> sem_propagate s t c = Ok t1 ->
  let i := lord (lc_lit c) in exists k x,
  t_lvl t (VBool i) = None /\ below t k (cv s i) /\ (exists v, In v (cv s i) /\ lv t v = Some k) /\ 1 <= k /\
  t_step t (TPropagate (VBool i) None k (x, 0%Q)) = Ok t1 /\ agree s t1 i.
Proof.
  intros HS Hc Hne T R H i. unfold sem_propagate in H. binv H. exists a, (xorb (lneg (lc_lit c)) a0).
  assert (L : t_lvl t (VBool i) = None).
  { unfold eval_lit in As. destruct (mdef (t_bm t) (lord (lc_lit c))) eqn:D; [discriminate|].
    destruct (t_lvl t (VBool i)) eqn:E; auto. exfalso. assert (X : t_lvl t (VBool i) <> None) by congruence. apply (tt_b t i T) in X. unfold i in X. congruence. }
  apply max_level_spec in Eq. rewrite (proj1 (stored_cv s c HS Hc)) in Eq. fold i in Eq, Hne. destruct Eq as (_ & B & M).
  assert (M' : exists v, In v (cv s i) /\ lv t v = Some a).
  { destruct M as [->|M]; auto. destruct (cv s i) as [|v l] eqn:Ev; [congruence|]. destruct (B v ltac:(cbn; auto)) as (j & J & JL).
    exists v. split; [cbn; auto|]. rewrite J. f_equal. lia. }
  split; auto. split; auto. split; auto. split.
  { destruct M' as (v & _ & Lv). destruct a; [|lia]. exfalso. eapply R; eauto. }
  split; [exact H|]. pose proof H as H0.
  assert (S : t_step t (TPropagate (VBool i) None a (xorb (lneg (lc_lit c)) a0, 0%Q)) = Ok t1) by exact H.
  destruct (step_prop_inv _ _ _ _ _ _ S) as (_ & _ & _ & Eb & Eq'). unfold agree. rewrite Eb, Eq'. cbn. rewrite upd_eq.
  apply (eval_holds s (t_qm t) c a0); auto.
Qed.

(** a watched constraint that stays: afterwards it is in order up to the current level *)
Lemma watch_kept_ok d ent s t B c t1 B1 : sinv s -> stored s c -> let i := lord (lc_lit c) in
  cv s i <> [] -> TT t -> R1 t -> length (st_cons s) <= mnum (t_bm t) ->
  OKi (dl t) s t i -> (forall v, In v (skipn 2 (cv s i)) -> mdef (t_qm t) v = true) ->
  watch_kept s t B c = Ok (t1, B1) ->
  bx t t1 /\ TT t1 /\ prop_ops true d ent t t1 /\ OKi (S (dl t)) s t1 i /\
  (forall j, j <> i -> t_lvl t1 (VBool j) = t_lvl t (VBool j)).
Proof.
  intros HS Hc i Hne T R Hn (O1 & O2 & O3) Hd H.
  assert (V : Vi (S (dl t)) s t i).
  { intros v j Hv Ej L. destruct (Nat.eq_dec j (dl t)) as [->|N]; [|apply (O1 v j); auto; lia].
    apply def_below; auto. apply forallb_forall. exact Hd. }
  assert (Ecv : lc_vars s c = cv s i) by (now apply stored_cv).
  assert (Hf : fully_assigned s (t_qm t) c = forallb (mdef (t_qm t)) (cv s i)).
  { unfold fully_assigned. rewrite Ecv. destruct (lc_empty c) eqn:E; auto. exfalso. apply Hne.
    apply length_zero_iff_nil. unfold i. rewrite stored_size_cv by auto. unfold lc_empty, lc_size in *. apply Nat.leb_le in E. lia. }
  assert (Nf : forallb (mdef (t_qm t)) (cv s i) = false -> Ei (S (dl t)) s t i /\ Ai (S (dl t)) s t i).
  { intros F. split; [intros j L Bl|intros j j' L L' Bl]; apply below_def in Bl; auto; congruence. }
  unfold watch_kept in H. rewrite Hf in H. fold i in H.
  destruct (mdef (t_bm t) i) eqn:Db; destruct (forallb (mdef (t_qm t)) (cv s i)) eqn:F.
  - binv H. inversion H; subst t1 B1. split; [apply bx_refl|]. split; auto. split; [constructor|]. split; auto. split; [auto|]. split.
    + intros j L Bl. destruct (Nat.eq_dec j (dl t)) as [->|N]; [|apply O2; auto; lia].
      apply tt_b in Db; auto. destruct (t_lvl t (VBool i)) as [k|] eqn:E; [|congruence]. exists k. split; auto. eapply tt_le; eauto.
    + intros _ _ _ _ _ _. unfold lc_eval_opt in Eq. rewrite Ecv, F in Eq. binv Eq. injection Eq as <-.
      unfold agree. unfold i; rewrite <- (eval_holds s (t_qm t) c _ HS Hc Eq0). unfold eval_lit, obool_eqb in As. fold i in As.
      rewrite Db in As. apply Bool.eqb_prop in As. subst.
      fold i. destruct (mval (t_bm t) i), (lneg (lc_lit c)); cbn; split; auto; discriminate.
  - binv H. inversion H; subst t1 B1. split; [apply bx_refl|]. split; auto. split; [constructor|]. split; [|auto]. split; auto.
  - binv H. inversion H; subst a B1. destruct (sem_ok s t c t1 HS Hc Hne T R Eq) as (k & x & S1 & S2 & S3 & S4 & S5 & S6). fold i in S1, S2, S3, S5, S6.
    assert (k = dl t).
    { destruct (step_prop_inv _ _ _ _ _ _ S5) as (K & _). destruct (Nat.eq_dec k (dl t)); auto. exfalso.
      destruct (O2 k ltac:(lia) S2) as (j' & X & _). congruence. }
    subst k. assert (Hi : i < mnum (t_bm t)) by (pose proof (stored_lord s c HS Hc); unfold i; lia).
    pose proof (bx_prop t i None (dl t) _ t1 T S1 eq_refl S5) as BX. pose proof (tt_prop _ _ _ _ _ T Hi S1 S5) as T1.
    destruct (step_prop_inv _ _ _ _ _ _ S5) as (_ & L1 & _).
    split; auto. split; auto. split; [eapply po_one; eauto|]. split.
    + split; [eapply bx_Vi; eauto|]. split.
      * intros j L Bl. apply (bx_below t t1) in Bl; auto. destruct (Nat.eq_dec j (dl t)) as [->|N].
        -- exists (dl t). rewrite L1, vupd_eq. auto.
        -- destruct (O2 j ltac:(lia) Bl) as (j' & X & _). congruence.
      * intros _ _ _ _ _ _. exact S6.
    + intros j N. rewrite L1, vupd_neq; auto. congruence.
  - binv H. inversion H; subst t1 B1. split; [apply bx_refl|]. split; auto. split; [constructor|]. split; [|auto]. split; auto.
Qed.

Definition Wc (W : nat -> list (lcons * nat)) (s : store) : Prop :=
  forall i, isC s i -> forall v, In v (firstn 2 (cv s i)) -> hasw W v i.

Lemma stored_holds_grows s s' r i : sinv s -> sinv s' -> grows s s' -> isC s i -> (stored_holds r s' i <-> stored_holds r s i).
Proof.
  intros S1 S2 G He. pose proof (stored_get s i S1 He) as Hc. pose proof (get_lord s i S1 He) as Ei.
  set (c := lc_get s i) in *. pose proof (stored_grows _ _ c G Hc) as Hc'.
  destruct (stored_get_eq s' c S2 Hc') as (E1 & E2 & E3). rewrite Ei in E1, E2, E3.
  unfold stored_holds. rewrite E2, E3, (terms_pos s' _ c E1). fold c.
  apply rel_morph; [apply lin_perm, Permutation_sym; now apply stored_terms|reflexivity].
Qed.
Lemma isC_eq s s' i : st_cons s' = st_cons s -> isC s' i <-> isC s i.
Proof. intros E. unfold isC, lc_get. rewrite E. tauto. Qed.
(** reordering the watched variables among themselves *)
Lemma re_Vi k s s' t i : (forall v, In v (firstn 2 (cv s' i)) <-> In v (firstn 2 (cv s i))) -> skipn 2 (cv s' i) = skipn 2 (cv s i) ->
  Vi k s t i -> Vi k s' t i.
Proof. intros E1 E2 H v j Hv. rewrite E2. apply H. now apply E1. Qed.
Lemma re_below s s' t i j : (forall v, In v (cv s' i) <-> In v (cv s i)) -> below t j (cv s' i) -> below t j (cv s i).
Proof. intros E H v Hv. apply H. now apply E. Qed.
Lemma re_Ei k s s' t i : (forall v, In v (cv s' i) <-> In v (cv s i)) -> Ei k s t i -> Ei k s' t i.
Proof. intros E H j Hj Hb. apply H; auto. eapply re_below; eauto. Qed.
Lemma re_Ai k s s' t i : sinv s -> sinv s' -> grows s s' -> isC s i -> (forall v, In v (cv s' i) <-> In v (cv s i)) -> Ai k s t i -> Ai k s' t i.
Proof.
  intros S1 S2 G C E H j j' Hj Hj' Hb L. unfold agree. rewrite (stored_holds_grows s s' _ i S1 S2 G C).
  eapply H; [exact Hj|exact Hj'|eapply re_below; eauto|exact L].
Qed.
Lemma re_OKi k s s' t i : sinv s -> sinv s' -> grows s s' -> isC s i -> (forall v, In v (cv s' i) <-> In v (cv s i)) ->
  (forall v, In v (firstn 2 (cv s' i)) <-> In v (firstn 2 (cv s i))) -> skipn 2 (cv s' i) = skipn 2 (cv s i) ->
  OKi k s t i -> OKi k s' t i.
Proof. intros S1 S2 G C E E1 E2 (A & B & D). split; [eapply (re_Vi k s); eauto|split; [eapply (re_Ei k s); eauto|eapply (re_Ai k s); eauto]]. Qed.
Lemma same_PEi P td s s' t i : sinv s -> sinv s' -> grows s s' -> isC s i -> cv s' i = cv s i -> PEi P td s t i -> PEi P td s' t i.
Proof.
  intros S1 S2 G C E (A & B & D). assert (X : forall v, In v (cv s' i) <-> In v (cv s i)) by (rewrite E; tauto).
  assert (X1 : forall v, In v (firstn 2 (cv s' i)) <-> In v (firstn 2 (cv s i))) by (rewrite E; tauto).
  assert (X2 : skipn 2 (cv s' i) = skipn 2 (cv s i)) by (rewrite E; auto).
  split; [eapply (re_OKi _ s); eauto|]. rewrite E. split.
  - destruct B as [[B1 B2]|B]; [left; split; [eapply (re_Vi _ s); eauto|eapply (re_Ei _ s); eauto]|right; exact B].
  - destruct D as [D|D]; [left; eapply (re_Ai _ s); eauto|right; exact D].
Qed.
Lemma PEi_td P td td' s t i : (In i td -> In i td') -> PEi P td s t i -> PEi P td' s t i.
Proof. intros H (A & B & C). split; auto. split; [destruct B as [B|[B|B]]|destruct C as [C|[C|[C|C]]]]; auto. Qed.
Lemma OKi_PEi P td s t i : OKi (S (dl t)) s t i -> PEi P td s t i.
Proof. intros O. split; [eapply OKi_mono; [|exact O]; lia|]. destruct O as (A & B & C). auto. Qed.

Lemma ords_app a b : ords (a ++ b) = ords a ++ ords b.
Proof. apply map_app. Qed.
Lemma last_rest_all {A} (l : list A) d x : In x l -> In x (match l with [] => [] | _ => last l d :: removelast l end).
Proof.
  destruct l as [|a l]; [auto|]. intros H. rewrite (app_removelast_last (l := a :: l) d) in H by discriminate.
  apply in_app_iff in H. destruct H as [H|[H|[]]]; [right; auto|left; auto].
Qed.

Lemma watch_loop_ok d ent P x : forall n s W t B don todo s' W' t' B',
  watch_loop n x s W t B don todo = Ok (s', W', t', B') ->
  mdef (t_qm t) x = true -> sinv s -> wst s W -> (forall w, In w (don ++ todo) -> stored s (fst w)) ->
  TT t -> R1 t -> length (st_cons s) <= mnum (t_bm t) -> Wc (upd W x (don ++ todo)) s ->
  (forall i, isC s i -> PEi P (ords todo) s t i) ->
  st_cons s' = st_cons s /\ bx t t' /\ TT t' /\ prop_ops true d ent t t' /\ Wc W' s' /\ (forall i, isC s i -> PEi P [] s' t' i).
Proof.
  induction n as [|n IH]; intros s W t B don todo s' W' t' B'; destruct todo as [|w todo]; cbn [watch_loop];
    intros H Hx HS HW Hl T R Hn HC HP; try discriminate.
  1,2: inversion H; subst; rewrite app_nil_r in HC; split; [auto|]; split; [apply bx_refl|]; split; [auto|]; split; [constructor|]; split; [auto|auto].
  binv H. destruct w as [c idx].
  assert (Hc : stored s c) by (apply (Hl (c, idx)), in_app_iff; right; left; auto).
  pose proof (replace_watch_spec _ _ _ _ _ _ _ _ _ _ HS Hc Hx Eq) as SP. cbn zeta in SP.
  assert (Hne : lc_vars s c <> []).
  { unfold replace_watch in Eq. destruct (lc_vars s c); [discriminate Eq|discriminate]. }
  apply (replace_watch_steps (fun _ => 0%Z) (fun _ => 0%Z)) in Eq; auto. cbn [fst] in Eq. destruct Eq as (Est & S1 & G & W1 & Ew).
  set (i := lord (lc_lit c)) in *. destruct SP as (_ & C1 & O1 & M1 & SP).
  assert (Hl1 : forall u, In u (don ++ (c, idx) :: todo) -> stored s0 (fst u)) by (intros; eapply stored_grows; eauto).
  assert (HiC : forall j, isC s0 j <-> isC s j) by (intros; now apply isC_eq).
  assert (Hc1 : stored s0 c) by (eapply stored_grows; eauto).
  destruct b.
  - destruct SP as [(E & _)|(_ & v0 & r & F1 & D0 & Dr & I0 & Ew')]; [discriminate|].
    assert (L0 : lv t v0 = None).
    { destruct (lv t v0) eqn:E; auto. exfalso. assert (X : lv t v0 <> None) by congruence. apply tt_q in X; auto. congruence. }
    assert (Lr : lv t r = None).
    { destruct (lv t r) eqn:E; auto. exfalso. assert (X : lv t r <> None) by congruence. apply tt_q in X; auto. congruence. }
    set (todo' := match todo with [] => [] | _ => last todo (c, idx) :: removelast todo end) in *.
    assert (Htd : forall u, In u todo' <-> In u todo) by (intros u; split; [apply last_rest_in|apply last_rest_all]).
    assert (Hod : forall j, In j (ords todo') <-> In j (ords todo)).
    { intros j. unfold ords. rewrite !in_map_iff. split; intros (u & U1 & U2); exists u; split; auto; now apply Htd. }
    match goal with E : watch_loop n _ _ _ _ _ _ _ = _ |- _ => apply IH in E; auto end.
    + destruct H as (K1 & K2 & K3 & K4 & K5 & K6). split; [congruence|]. repeat (split; [assumption|]).
      intros j Hj. apply K6. now apply HiC.
    + intros u Hu. apply Hl1. apply in_app_iff. apply in_app_iff in Hu. destruct Hu as [Hu|Hu]; auto. right. right. now apply Htd.
    + now rewrite C1.
    + intros j Hj v Hv. unfold hasw. unfold upd at 1. subst l.
      assert (Nr : r <> x) by congruence. assert (N0 : v0 <> x) by congruence.
      destruct (Nat.eq_dec j i) as [->|Nj].
      * rewrite F1 in Hv. destruct Hv as [<-|[<-|[]]].
        -- destruct (Nat.eqb_spec v0 x); [congruence|]. specialize (HC i (proj1 (HiC i) Hj) v0 I0). unfold hasw, upd in HC.
           destruct (Nat.eqb_spec v0 x); [congruence|]. unfold upd. destruct (Nat.eqb_spec v0 r) as [Er|]; auto.
           rewrite ords_app. apply in_app_iff. left. now rewrite <- Er.
        -- destruct (Nat.eqb_spec r x); [congruence|]. unfold upd. rewrite Nat.eqb_refl, ords_app. apply in_app_iff. right. cbn. left.
           unfold i. now rewrite Ew.
      * rewrite (O1 j (proj1 (HiC j) Hj) Nj) in Hv. specialize (HC j (proj1 (HiC j) Hj) v Hv). unfold hasw, upd in HC.
        destruct (Nat.eqb_spec v x) as [Ev|Nv].
        -- rewrite ords_app in *. apply in_app_iff. apply in_app_iff in HC. destruct HC as [HC|[HC|HC]]; auto; [cbn in HC; unfold i in Nj; congruence|].
           right. apply Hod. exact HC.
        -- unfold upd. destruct (Nat.eqb_spec v r) as [Er|]; auto. rewrite ords_app. apply in_app_iff. left. now rewrite <- Er.
    + intros j Hj0. pose proof (proj1 (HiC j) Hj0) as Hj. destruct (Nat.eq_dec j i) as [->|Nj].
      * apply OKi_PEi. eapply OKi_free; eauto.
      * eapply same_PEi; [exact HS|exact S1|exact G|exact Hj|now apply O1|].
        eapply PEi_td; [|apply HP; exact Hj]. intros [X|X]; [cbn in X; unfold i in Nj; congruence|now apply Hod].
  - destruct SP as [(_ & Ew' & F1 & F2 & Hd)|(E & _)]; [|discriminate]. subst l. rewrite Ew in *.
    binv H. 
    rewrite (proj1 (stored_cv s c HS Hc)) in Hne. fold i in Hne.
    assert (Hne0 : cv s0 i <> []).
    { destruct (cv s i) as [|u l0] eqn:Eu; [congruence|]. intros X. specialize (M1 u). rewrite X in M1. cbn in M1. tauto. }
    assert (HiCi : isC s i).
    { unfold i. apply (stored_cv s c HS Hc). pose proof (stored_size_cv s c HS Hc) as X. fold i in X. unfold lc_empty, lc_size in *.
      apply Nat.leb_gt. destruct (cv s i); [congruence|cbn in X; lia]. }
    assert (OK0 : OKi (dl t) s0 t i) by (eapply re_OKi; [exact HS|exact S1|exact G|exact HiCi|auto..]; apply HP; auto).
    pose proof Eq as EqK. apply watch_kept_qm in EqK.
    apply (watch_kept_ok d ent) in Eq; auto; [|now rewrite C1|fold i; now rewrite F2].
    destruct Eq as (BX & T1 & P1 & OK1 & Oth). fold i in OK1, Oth.
    assert (Dl : dl t0 = dl t) by (apply (bx_dl _ _ BX)).
    match goal with E : watch_loop n _ _ _ _ _ _ _ = _ |- _ => apply IH in E; auto end.
    + destruct H as (K1 & K2 & K3 & K4 & K5 & K6). split; [congruence|]. split; [eapply bx_trans; eauto|]. split; auto.
      split; [eapply prop_ops_trans; eauto|]. split; auto. intros j Hj. apply K6. now apply HiC.
    + now rewrite EqK.
    + intros u Hu. rewrite <- app_assoc in Hu. apply in_app_iff in Hu. destruct Hu as [Hu|[<-|Hu]].
      * apply Hl1, in_app_iff; auto.
      * rewrite Ew. exact Hc1.
      * apply Hl1, in_app_iff. right. now right.
    + intros y. rewrite (bx_lv t t0) by auto. apply R.
    + rewrite C1. rewrite (bx_num _ _ BX). exact Hn.
    + intros j Hj v Hv. assert (Hj1 := proj1 (HiC j) Hj). assert (Hv1 : In v (firstn 2 (cv s j))).
      { destruct (Nat.eq_dec j i) as [->|Nj]; [now apply F1|]. now rewrite (O1 j Hj1 Nj) in Hv. }
      specialize (HC j Hj1 v Hv1). unfold hasw, upd in *. destruct (v =? x); auto.
      rewrite <- app_assoc, ords_app. rewrite ords_app in HC. cbn in HC |- *. now rewrite Ew.
    + intros j Hj0. pose proof (proj1 (HiC j) Hj0) as Hj. destruct (Nat.eq_dec j i) as [->|Nj].
      * apply OKi_PEi. now rewrite Dl.
      * eapply (bx_PEi P P); [exact T|exact BX|auto|intros X Y; rewrite Oth in Y by auto; congruence|].
        eapply same_PEi; [exact HS|exact S1|exact G|exact Hj|now apply O1|].
        eapply PEi_td; [|apply HP; exact Hj]. intros [X|X]; [cbn in X; unfold i in Nj; congruence|exact X].
Qed.

Lemma PEi_P (P P' : var -> Prop) td td' s t i :
  ((In i td \/ exists v, In v (firstn 2 (cv s i)) /\ P (VRat v)) -> (In i td' \/ exists v, In v (firstn 2 (cv s i)) /\ P' (VRat v))) ->
  (P (VBool i) -> P' (VBool i)) -> PEi P td s t i -> PEi P' td' s t i.
Proof. intros H1 H2 (A & B & C). split; auto. split; [destruct B as [B|B]|destruct C as [C|[C|C]]]; auto. Qed.
Lemma PEi_done s t i : PEi (fun v => In v []) [] s t i -> OKi (S (dl t)) s t i.
Proof.
  intros (A & B & C). destruct B as [[B1 B2]|[[]|(v & _ & [])]]. destruct C as [C|[[]|[[]|(v & _ & [])]]]. split; auto.
Qed.
Lemma full_cv s t i : sinv s -> isC s i -> fully_assigned s (t_qm t) (lc_get s i) = forallb (mdef (t_qm t)) (cv s i).
Proof. intros HS H. unfold fully_assigned. unfold isC in H. rewrite H. reflexivity. Qed.
Lemma lra_vars_ok d ent : forall vs a t a' t', lra_vars vs a t = Ok (a', t') -> wsi a -> TT t -> R1 t ->
  length (st_cons (l_st a)) <= mnum (t_bm t) -> Wc (l_watch a) (l_st a) ->
  (forall i, isC (l_st a) i -> PEi (fun v => In v vs) [] (l_st a) t i) ->
  st_cons (l_st a') = st_cons (l_st a) /\ bx t t' /\ TT t' /\ prop_ops true d ent t t' /\ Wc (l_watch a') (l_st a') /\ l_cur a' = l_cur a /\
  (forall i, isC (l_st a') i -> OKi (S (dl t')) (l_st a') t' i).
Proof.
  induction vs as [|v vs IH]; intros a t a' t'; intros H W T R Hn HC HP; cbn [lra_vars] in H.
  { inversion H; subst. split; auto. split; [apply bx_refl|]. split; auto. split; [constructor|]. split; auto. split; auto.
    intros i Hi. apply PEi_done. now apply HP. }
  binv H.
  assert (W1 : wsi l).
  { apply (lra_vars_steps (fun _ => 0%Z) (fun _ => 0%Z) [v] a t l t0); auto. cbn [lra_vars]. rewrite Eq. reflexivity. }
  assert (X : st_cons (l_st l) = st_cons (l_st a) /\ bx t t0 /\ TT t0 /\ prop_ops true d ent t t0 /\ Wc (l_watch l) (l_st l) /\ l_cur l = l_cur a /\
    forall i, isC (l_st a) i -> PEi (fun v => In v vs) [] (l_st l) t0 i).
  { destruct v as [i|x].
    - assert (O : Ai (S (dl t)) (l_st a) t i /\ t0 = t /\ l_st l = l_st a /\ l_watch l = l_watch a /\ l_cur l = l_cur a).
      { pose proof Eq as Eq'. unfold lra_bool_var in Eq. binv Eq. apply negb_true_iff in As. fold (isC (l_st a) i) in As.
        pose proof (ws_st a W) as HS. rewrite (full_cv _ _ _ HS As) in Eq. destruct (forallb (mdef (t_qm t)) (cv (l_st a) i)) eqn:F.
        - binv Eq. inversion Eq; subst l t0. split; [|auto]. unfold lc_eval_opt in Eq0. fold (cv (l_st a) i) in Eq0. rewrite F in Eq0. binv Eq0. injection Eq0 as <-.
          intros j1 j2 _ _ _ L. pose proof (stored_get _ _ HS As) as Hst.
          unfold agree. pose proof (get_lord (l_st a) i HS As) as El. rewrite <- El at 2. rewrite <- (eval_holds _ (t_qm t) _ _ HS Hst Eq1).
          assert (Db : mdef (t_bm t) i = true) by (apply tt_b; auto; congruence).
          unfold eval_lit, obool_eqb in As0. rewrite El, Db in As0. apply Bool.eqb_prop in As0. subst.
          destruct (mval (t_bm t) i), (lneg (lc_lit (lc_get (l_st a) i))); cbn; split; auto; discriminate.
        - binv Eq. assert (A : Ai (S (dl t)) (l_st a) t i).
          { intros j j' _ _ Bl. apply below_def in Bl; auto. congruence. }
          match type of Eq with (if ?b then _ else _) = _ => destruct b end; [binv Eq|]; inversion Eq; subst; auto. }
      destruct O as (O & -> & E1 & E2 & E3). rewrite E1, E2. split; auto. split; [apply bx_refl|]. split; auto. split; [constructor|]. split; auto. split; auto.
      intros j Hj. specialize (HP j Hj). destruct (Nat.eq_dec j i) as [->|Nj].
      + destruct HP as (A & B & _). split; auto. split; [|left; exact O]. destruct B as [B|[[]|(v & B1 & [B2|B2])]]; [left; auto|discriminate|right; right; eauto].
      + eapply PEi_P; [| |exact HP].
        * intros [[]|(v & B1 & [B2|B2])]; [discriminate|right; eauto].
        * intros [B|B]; [injection B; congruence|auto].
    - unfold replace_watches in Eq. binv Eq. inversion Eq; subst l t0. cbn [l_st l_watch l_cur with_bd with_watch with_st].
      match goal with E : watch_loop _ _ _ _ _ _ _ _ = _ |- _ => apply (watch_loop_ok d ent (fun v => In v vs)) in E; auto; [|apply W|apply W|..] end.
      + destruct Eq0 as (K1 & K2 & K3 & K4 & K5 & K6). repeat (split; [assumption || reflexivity|]). assumption.
      + intros w Hw. cbn [app] in Hw. eapply (ws_watch a W); eauto.
      + intros i Hi v Hv. specialize (HC i Hi v Hv). unfold hasw, upd in *. cbn [app]. destruct (Nat.eqb_spec v x) as [->|]; auto.
      + intros i Hi. eapply PEi_P; [| |apply HP; exact Hi].
        * intros [[]|(v & B1 & [B2|B2])]; [|right; eauto]. injection B2 as <-. left. exact (HC i Hi x B1).
        * intros [B|B]; [discriminate|auto]. }
  destruct X as (X1 & X2 & X3 & X4 & X5 & X6 & X7).
  apply IH in H; auto.
  - destruct H as (K1 & K2 & K3 & K4 & K5 & K6 & K7). split; [congruence|]. split; [eapply bx_trans; eauto|]. split; auto.
    split; [eapply prop_ops_trans; eauto|]. split; auto. split; [congruence|auto].
  - intros y. rewrite (bx_lv t t0) by auto. apply R.
  - rewrite X1, (bx_num _ _ X2). exact Hn.
  - intros i Hi. apply X7. now apply (isC_eq _ _ i X1).
Qed.
