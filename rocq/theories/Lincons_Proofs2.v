From Coq Require Import List Arith ZArith QArith Bool Lia Permutation Sorted Lqa Qfield.
From Verif Require Import Base Core_Model Sort_Proofs Lincons_Model Spec_Lincons Lincons_Proofs.
Import ListNotations.
Open Scope nat_scope.
Arguments Qred : simpl never.
Arguments Qmult : simpl never.
Arguments Qplus : simpl never.
Arguments Qminus : simpl never.

(** ** a normalised constraint is determined by its set of solutions *)
Definition cf (v : nat) (ts : list (nat * Q)) : Q := match coef_at v ts with Some c => c | None => 0 end.

Lemma cf_notin v ts : ~ In v (map fst ts) -> cf v ts = 0%Q.
Proof.
  intros H. unfold cf. destruct (coef_at v ts) eqn:E; auto. apply coef_at_in in E.
  exfalso. apply H. change v with (fst (v, q)). now apply in_map.
Qed.
Lemma lin_upd_notin r v x ts : ~ In v (map fst ts) -> (lin (upd r v x) ts == lin r ts)%Q.
Proof.
  induction ts as [|[w d] ts IH]; simpl; intros H; [reflexivity|].
  rewrite IH by tauto. rewrite upd_neq by tauto. reflexivity.
Qed.
Lemma lin_upd r v x ts : NoDup (map fst ts) ->
  (lin (upd r v x) ts == lin r ts + cf v ts * (x - r v))%Q.
Proof.
  induction ts as [|[w d] ts IH]; intros Hn; [unfold cf; simpl; ring|].
  simpl in Hn. apply NoDup_cons_iff in Hn. destruct Hn as [H1 H2]. simpl. unfold cf. simpl.
  destruct (Nat.eqb_spec w v) as [->|Hv].
  - rewrite upd_eq, lin_upd_notin by auto. ring.
  - rewrite upd_neq by auto. rewrite IH by auto. unfold cf. destruct (coef_at v ts); ring.
Qed.
Lemma lin_at0 ts : (lin (fun _ => 0%Q) ts == 0)%Q.
Proof. induction ts as [|[v c] ts IH]; simpl; [reflexivity|]. rewrite IH. ring. Qed.

Definition pm (b : bool) (P : Prop) : Prop := if b then P else ~ P.

(** one-dimensional case *)
Lemma half_lines pa pb (b dir : bool) t0 t1 :
  (forall t, rel pa t t0 <-> pm b (if dir then rel pb t t1 else rel pb t1 t)) ->
  (t0 == t1)%Q /\ (dir = true -> b = true /\ pa = pb).
Proof.
  intros H.
  pose proof (H t0) as A0. pose proof (H t1) as A1. pose proof (H (t0 + 1)%Q) as A2.
  pose proof (H (t0 - 1)%Q) as A3. pose proof (H (t1 + 1)%Q) as A4. pose proof (H (t1 - 1)%Q) as A5.
  pose proof (H ((t0 + t1) / 2)%Q) as A6.
  assert (E2 : ((t0 + t1) / 2 == (1 # 2) * t0 + (1 # 2) * t1)%Q) by field.
  clear H.
  assert (T : (t0 < t1 \/ t0 == t1 \/ t1 < t0)%Q).
  { destruct (Q_dec t0 t1) as [[?|?]|?]; auto. }
  destruct dir; destruct pa, pb; destruct b; simpl in *;
    destruct T as [T|[T|T]]; try (split; [exact T|intros K; try discriminate K; split; reflexivity]); exfalso;
    try (assert (X : (t0 == t0)%Q) by reflexivity); 
    try (assert (X1 : (t1 == t1)%Q) by reflexivity); 
    try (assert (~ (t0 + 1 == t0)%Q) by lra); try (assert (~ (t0 - 1 == t0)%Q) by lra);
    try (assert (~ (t1 + 1 == t1)%Q) by lra); try (assert (~ (t1 - 1 == t1)%Q) by lra);
    lra.
Qed.

Lemma cf_in v c ts : NoDup (map fst ts) -> In (v, c) ts -> cf v ts = c.
Proof. intros H1 H2. unfold cf. now rewrite (in_coef_at v ts c). Qed.
Lemma cf_nz v ts : (forall t, In t ts -> ~ (snd t == 0)%Q) -> In v (map fst ts) -> ~ (cf v ts == 0)%Q.
Proof.
  intros H1 H2. unfold cf. destruct (coef_at v ts) eqn:E.
  - apply coef_at_in in E. apply (H1 (v, q) E).
  - apply coef_at_none in E. contradiction.
Qed.
Lemma cf_in_iff v ts : (forall t, In t ts -> ~ (snd t == 0)%Q) -> ~ (cf v ts == 0)%Q <-> In v (map fst ts).
Proof.
  intros H. split; [|now apply cf_nz]. intros Hc.
  destruct (in_dec Nat.eq_dec v (map fst ts)) as [Hi|Hi]; auto. rewrite cf_notin in Hc by auto.
  exfalso. apply Hc. reflexivity.
Qed.

Lemma sem_unique a pa ra b pb rb (s : bool) :
  norm_terms a -> norm_terms b -> Qred ra = ra -> Qred rb = rb ->
  a <> [] ->
  (forall r, rel pa (lin r a) ra <-> pm s (rel pb (lin r b) rb)) ->
  s = true /\ Permutation a b /\ pa = pb /\ ra = rb.
Proof.
  intros Ha Hb Cra Crb Hne Heq.
  destruct (nt_min a Ha Hne) as (v & Hv & Hmin).
  assert (Hav : cf v a = 1%Q) by (apply cf_in; auto; apply Ha).
  set (k := cf v b).
  (* along the axis of v *)
  assert (Hline : forall r t, rel pa t (ra - lin r a + r v) <-> pm s (rel pb (k * t) (rb - lin r b + k * r v))).
  { intros r t. specialize (Heq (upd r v t)).
    rewrite (rel_morph pa _ (lin r a + (t - r v))%Q _ ra) in Heq;
      [|rewrite lin_upd by apply Ha; rewrite Hav; ring|reflexivity].
    assert (Hq : rel pb (lin (upd r v t) b) rb <-> rel pb (k * t) (rb - lin r b + k * r v)).
    { pose proof (lin_upd r v t b (nt_nodup b Hb)) as E. fold k in E.
      destruct pb; simpl; rewrite E; split; intros; lra. }
    assert (Hp : rel pa (lin r a + (t - r v)) ra <-> rel pa t (ra - lin r a + r v)).
    { destruct pa; simpl; split; intros; lra. }
    destruct s; simpl in *; tauto. }
  (* k is not 0 *)
  assert (Hk0 : ~ (k == 0)%Q).
  { intros Hk. specialize (Hline (fun _ => 0%Q)).
    set (R := (rb - lin (fun _ => 0%Q) b + k * 0)%Q) in *.
    assert (C : forall t t', rel pa t (ra - lin (fun _ => 0%Q) a + 0) <-> rel pa t' (ra - lin (fun _ => 0%Q) a + 0)).
    { intros t t'. rewrite (Hline t), (Hline t').
      assert (E : rel pb (k * t) R <-> rel pb (k * t') R) by (apply rel_morph; [rewrite Hk; ring|reflexivity]).
      destruct s; simpl; tauto. }
    set (T := (ra - lin (fun _ => 0%Q) a + 0)%Q) in *.
    pose proof (C T (T + 1)%Q). pose proof (C T (T - 1)%Q). 
    destruct pa; simpl in *; lra. }
  (* the boundaries coincide *)
  assert (Hdir : forall r, (ra - lin r a + r v == (rb - lin r b + k * r v) / k)%Q /\
                   ((0 < k)%Q -> s = true /\ pa = pb)).
  { intros r. set (t1 := ((rb - lin r b + k * r v) / k)%Q).
    assert (E1 : (rb - lin r b + k * r v == k * t1)%Q) by (unfold t1; field; auto).
    destruct (Q_dec 0 k) as [[Hk|Hk]|Hk]; [| |exfalso; apply Hk0; now symmetry].
    - destruct (half_lines pa pb s true (ra - lin r a + r v) t1) as [H1 H2]; [|split; auto].
      intros t. rewrite (Hline r t).
      assert (E : rel pb (k * t) (rb - lin r b + k * r v) <-> rel pb t t1).
      { rewrite (rel_morph pb _ (k * t)%Q _ (k * t1)%Q) by (auto; reflexivity).
        destruct pb; simpl; [split; intros K; [apply Qmult_inj_l in K; auto|now rewrite K]|now apply Qmult_lt_l|now apply Qmult_le_l]. }
      destruct s; simpl; tauto.
    - destruct (half_lines pa pb s false (ra - lin r a + r v) t1) as [H1 H2]; [|split; auto; intros; lra].
      intros t. rewrite (Hline r t).
      assert (E : rel pb (k * t) (rb - lin r b + k * r v) <-> rel pb t1 t).
      { rewrite (rel_morph pb _ (k * t)%Q _ (k * t1)%Q) by (auto; reflexivity).
        assert (0 < - k)%Q by lra.
        pose proof (Qmult_lt_l t1 t (- k) H). pose proof (Qmult_le_l t1 t (- k) H).
        destruct pb; simpl; [split; intros K; [apply Qmult_inj_l in K; auto; now symmetry|now rewrite K]| |];
          split; intros; lra. }
      destruct s; simpl; tauto. }
  assert (Hlin : forall r, (k * (ra - lin r a) == rb - lin r b)%Q).
  { intros r. destruct (Hdir r) as [H _]. 
    assert (E : (k * (ra - lin r a + r v) == rb - lin r b + k * r v)%Q) by (rewrite H; field; auto). lra. }
  assert (Hr : (k * ra == rb)%Q).
  { specialize (Hlin (fun _ => 0%Q)). rewrite !lin_at0 in Hlin. lra. }
  assert (Hl : forall r, (lin r b == k * lin r a)%Q) by (intros r; specialize (Hlin r); lra).
  assert (Hc : forall w, (cf w b == k * cf w a)%Q).
  { intros w. pose proof (Hl (upd (fun _ => 0%Q) w 1%Q)) as E.
    rewrite !lin_upd in E by (apply Ha || apply Hb). rewrite !lin_at0 in E. lra. }
  (* k = 1 *)
  assert (Hin : forall w, In w (map fst a) <-> In w (map fst b)).
  { intros w. rewrite <- !cf_in_iff by (apply Ha || apply Hb). rewrite (Hc w). split; intros H H2; apply H.
    - apply Qmult_integral in H2. tauto.
    - rewrite H2. ring. }
  assert (Hvb : In v (map fst b)) by (apply Hin; change v with (fst (v, 1%Q)); now apply in_map).
  assert (Hbne : b <> []) by (intros ->; destruct Hvb).
  destruct (nt_min b Hb Hbne) as (w & Hw & Hminb).
  assert (w = v).
  { assert (w <= v) by (apply in_map_iff in Hvb; destruct Hvb as (t & <- & Ht); now apply Hminb).
    assert (In w (map fst a)) as Hwa by (apply Hin; change w with (fst (w, 1%Q)); now apply in_map).
    apply in_map_iff in Hwa. destruct Hwa as (t & <- & Ht). specialize (Hmin t Ht). lia. }
  subst w. assert (Hk1 : k = 1%Q) by (apply cf_in; auto; apply Hb).
  rewrite Hk1 in *. destruct (Hdir (fun _ => 0%Q)) as [_ Hd]. destruct Hd as [Hs Hp]; [reflexivity|].
  repeat split; auto.
  - apply NoDup_Permutation; [apply NoDup_fst, Ha|apply NoDup_fst, Hb|].
    assert (G : forall x y, norm_terms x -> norm_terms y -> (forall w, (cf w x == cf w y)%Q) ->
              (forall w, In w (map fst x) -> In w (map fst y)) -> forall t, In t x -> In t y).
    { intros x y Hx Hy Hxy Hs2 [u c] Ht. assert (Hu : In u (map fst y)).
      { apply Hs2. change u with (fst (u, c)). now apply in_map. }
      apply in_map_iff in Hu. destruct Hu as ([u' d] & Eu & Hud). simpl in Eu. subst u'.
      replace c with d; auto. apply canon_eq.
      - apply (nt_canon y Hy (u, d)); auto.
      - apply (nt_canon x Hx (u, c)); auto.
      - rewrite <- (cf_in u d y), <- (cf_in u c x) by (auto; apply Hx || apply Hy). symmetry. auto. }
    intros t. split.
    + apply G; auto; [intros u; rewrite (Hc u); ring|intros u; apply Hin].
    + apply G; auto; [intros u; rewrite (Hc u); ring|intros u; apply Hin].
  - apply canon_eq; auto. lra.
Qed.

(** ** invariant of the repository *)
Section Inv.
Variable hi : nat -> Z.
Variable hv : Q -> Z.

Record good (s : store) (c : lcons) : Prop := {
  g_sign : lneg (lc_lit c) = false;
  g_at : nth_error (st_cons s) (lord (lc_lit c)) = Some c;
  g_norm : norm_terms (lc_terms s c);
  g_rhs : Qred (lc_rhs c) = lc_rhs c;
  g_pos : (lc_pos c = (0, 0) /\ lc_pred c = PEq /\ lc_rhs c = 0%Q) \/
          (fst (lc_pos c) < snd (lc_pos c) <= length (st_vars s)) }.

Definition same (s : store) (a b : lcons) : Prop :=
  Permutation (lc_terms s a) (lc_terms s b) /\ lc_pred a = lc_pred b /\ lc_rhs a = lc_rhs b.
Definition disjoint (a b : lcons) : Prop :=
  snd (lc_pos a) <= fst (lc_pos b) \/ snd (lc_pos b) <= fst (lc_pos a).

Record inv (s : store) : Prop := {
  i_len : length (st_vars s) = length (st_coef s);
  i_good : forall c, In c (st_set s) -> good s c;
  i_pair : forall a b, In a (st_set s) -> In b (st_set s) -> a <> b -> disjoint a b /\ ~ same s a b }.

Lemma lc_size_terms s c : length (st_vars s) = length (st_coef s) -> snd (lc_pos c) <= length (st_vars s) ->
  length (lc_terms s c) = lc_size c.
Proof.
  intros Hl Hp. rewrite lc_terms_slice, slice_length; auto. unfold all_terms. rewrite combine_length. lia.
Qed.
Lemma good_size s c : length (st_vars s) = length (st_coef s) -> good s c -> length (lc_terms s c) = lc_size c.
Proof.
  intros Hl Hg. apply lc_size_terms; auto. destruct (g_pos _ _ Hg) as [(-> & _ & _)|H]; simpl; lia.
Qed.

Lemma lc_equal_spec s a b : length (st_vars s) = length (st_coef s) -> good s a -> good s b ->
  lc_equal s a b = true <-> same s a b.
Proof.
  intros Hl Ha Hb. pose proof (good_size s a Hl Ha) as Sa. pose proof (good_size s b Hl Hb) as Sb.
  unfold lc_equal, same.
  destruct (Nat.eqb_spec (lc_size a) (lc_size b)) as [E|E]; simpl.
  - destruct (opred_eqb (lc_pred a) (lc_pred b)) eqn:Ep; simpl.
    + apply opred_eqb_eq in Ep. destruct (Qeq_bool (lc_rhs a) (lc_rhs b)) eqn:Er; simpl.
      * apply Qeq_bool_iff in Er. assert (lc_rhs a = lc_rhs b) by (apply canon_eq; auto; [apply Ha|apply Hb]).
        assert (HL : length (lc_terms s a) = length (lc_terms s b)) by lia.
        destruct (lc_size a <=? 4).
        -- rewrite brute_force_spec; [tauto|apply Ha|apply Hb|auto].
        -- rewrite sort_equal_spec; [tauto|apply Ha|apply Hb|auto].
      * split; [discriminate|]. intros (_ & _ & H). rewrite H in Er. apply Qeq_bool_neq in Er.
        exfalso. apply Er. reflexivity.
    + split; [discriminate|]. intros (_ & H & _). apply (proj2 (opred_eqb_eq _ _)) in H. congruence.
  - split; [discriminate|]. intros (H & _ & _). apply Permutation_length in H. lia.
Qed.

Lemma fold_add_perm {A} (f : A -> Z) a b z : Permutation a b ->
  fold_left (fun h x => (h + f x)%Z) a z = fold_left (fun h x => (h + f x)%Z) b z.
Proof.
  intros H. revert z. induction H; intros z; simpl; auto.
  - f_equal. lia.
  - now rewrite IHPermutation1, IHPermutation2.
Qed.
Lemma map_fst_combine {A B} (a : list A) (b : list B) : length a = length b -> map fst (combine a b) = a.
Proof. revert b. induction a; intros [|y b]; simpl; intros; try discriminate; auto. f_equal. auto. Qed.
Lemma map_snd_combine {A B} (a : list A) (b : list B) : length a = length b -> map snd (combine a b) = b.
Proof. revert b. induction a; intros [|y b]; simpl; intros; try discriminate; auto. f_equal. auto. Qed.
Lemma slices_length s c : length (st_vars s) = length (st_coef s) -> length (lc_vars s c) = length (lc_coef s c).
Proof. intros H. unfold lc_vars, lc_coef, slice. rewrite !firstn_length, !skipn_length. lia. Qed.
Lemma same_hash s a b : length (st_vars s) = length (st_coef s) -> same s a b ->
  lc_hash hi hv s a = lc_hash hi hv s b.
Proof.
  intros Hl (HP & _ & Hr). unfold lc_hash. rewrite Hr.
  assert (Permutation (lc_vars s a) (lc_vars s b)).
  { apply (Permutation_map fst) in HP. unfold lc_terms in HP. rewrite !map_fst_combine in HP by now apply slices_length. auto. }
  assert (Permutation (lc_coef s a) (lc_coef s b)).
  { apply (Permutation_map snd) in HP. unfold lc_terms in HP. rewrite !map_snd_combine in HP by now apply slices_length. auto. }
  rewrite (fold_add_perm hi _ _ 0%Z H). rewrite (fold_add_perm hv _ _ _ H0). reflexivity.
Qed.

Lemma set_find_some s c x : set_find hi hv s c = Some x -> In x (st_set s) /\ lc_equal s c x = true.
Proof. unfold set_find. intros H. apply find_some in H. rewrite andb_true_iff in H. tauto. Qed.
Lemma set_find_none s c x : length (st_vars s) = length (st_coef s) -> good s c -> good s x ->
  set_find hi hv s c = None -> In x (st_set s) -> ~ same s c x.
Proof.
  unfold set_find. intros Hl Hc Hx H Hin Hs. apply (find_none _ _ H) in Hin.
  rewrite (same_hash s c x Hl Hs), Z.eqb_refl in Hin. simpl in Hin.
  apply lc_equal_spec in Hs; auto. congruence.
Qed.

(** what a stored constraint means, and what a returned constraint means *)
Definition means (s : store) (c0 : lcons) (c : lcons) (q : request) : Prop :=
  In c0 (st_set s) /\ lord (lc_lit c) = lord (lc_lit c0) /\ lc_pos c = lc_pos c0 /\
  lc_pred c = lc_pred c0 /\ lc_rhs c = lc_rhs c0 /\
  Permutation (map fst (lc_terms s c0)) (map fst (nonzero (rq_terms q))) /\
  forall r, rel (lc_pred c0) (lin r (lc_terms s c0)) (lc_rhs c0) <-> pm (negb (lneg (lc_lit c))) (req_holds r q).

(** the store grew: the constraints of the set are still there with the same terms *)
Definition grows (s s' : store) : Prop :=
  forall c, In c (st_set s) -> In c (st_set s') /\ Permutation (lc_terms s c) (lc_terms s' c).

Lemma means_grows s s' c0 c q : grows s s' -> means s c0 c q -> means s' c0 c q.
Proof.
  intros Hg (H1 & H2 & H3 & H4 & H5 & H7 & H6). destruct (Hg c0 H1) as [G1 G2].
  repeat split; auto; try intros K.
  - rewrite <- H7. apply Permutation_map, Permutation_sym, G2.
  - apply H6. eapply rel_morph; [apply lin_perm, G2|reflexivity|exact K].
  - eapply rel_morph; [apply lin_perm, Permutation_sym, G2|reflexivity|]. apply H6. exact K.
Qed.

(** insertion of a new normalised constraint at the end of the store *)
Definition push (s : store) (ts : list (nat * Q)) (c : lcons) : store :=
  mkSt (st_vars s ++ map fst ts) (st_coef s ++ map snd ts) (st_cons s ++ [c]) (st_set s).

Lemma combine_app {A B} (a a' : list A) (b b' : list B) : length a = length b ->
  combine (a ++ a') (b ++ b') = combine a b ++ combine a' b'.
Proof. revert b. induction a; intros [|y b]; simpl; intros; try discriminate; auto. f_equal. auto. Qed.
Lemma combine_map_fst_snd {A B} (l : list (A * B)) : combine (map fst l) (map snd l) = l.
Proof. induction l as [|[x y] l IH]; simpl; auto. now rewrite IH. Qed.

Lemma all_terms_push s ts c : length (st_vars s) = length (st_coef s) ->
  all_terms (push s ts c) = all_terms s ++ ts.
Proof. intros H. unfold all_terms, push. simpl. rewrite combine_app by auto. now rewrite combine_map_fst_snd. Qed.

Lemma push_terms_old s ts c x : length (st_vars s) = length (st_coef s) -> snd (lc_pos x) <= length (st_vars s) ->
  lc_terms (push s ts c) x = lc_terms s x.
Proof.
  intros Hl Hp. rewrite !lc_terms_slice, all_terms_push by auto. apply slice_app_l.
  unfold all_terms. rewrite combine_length. lia.
Qed.
Lemma good_pos_le s c : good s c -> snd (lc_pos c) <= length (st_vars s).
Proof. intros H. destruct (g_pos _ _ H) as [(-> & _)|?]; simpl; lia. Qed.

Lemma good_push s ts c x : length (st_vars s) = length (st_coef s) -> good s x -> good (push s ts c) x.
Proof.
  intros Hl Hg. pose proof (good_pos_le s x Hg) as Hp. destruct Hg as [G1 G2 G3 G4 G5]. constructor; auto.
  - simpl. rewrite nth_error_app1; auto. apply nth_error_Some. congruence.
  - now rewrite push_terms_old.
  - simpl. rewrite app_length. intuition lia.
Qed.

(** [insert_cons]: second half of [lc_make] *)
Definition insert_cons (s : store) (ts : list (nat * Q)) (c : lcons) : store * lcons :=
  let s1 := push s ts c in
  match set_find hi hv s1 c with
  | Some it => (s, it)
  | None => (mkSt (st_vars s1) (st_coef s1) (st_cons s1) (st_set s1 ++ [c]), c)
  end.

Lemma insert_cons_ok s ts c s' it : inv s -> norm_terms ts -> Qred (lc_rhs c) = lc_rhs c ->
  lc_lit c = mkLit (length (st_cons s)) false ->
  (ts = [] /\ lc_pos c = (0, 0) /\ lc_pred c = PEq /\ lc_rhs c = 0%Q) \/
  (ts <> [] /\ lc_pos c = (length (st_vars s), length (st_vars s) + length ts)) ->
  insert_cons s ts c = (s', it) ->
  inv s' /\ grows s s' /\ In it (st_set s') /\ lneg (lc_lit it) = false /\
  lc_pred it = lc_pred c /\ lc_rhs it = lc_rhs c /\ Permutation ts (lc_terms s' it).
Proof.
  intros HI Hn Hr Hlit Hpos E. pose proof (i_len s HI) as Hl.
  set (s1 := push s ts c) in *.
  assert (Hl1 : length (st_vars s1) = length (st_coef s1)) by (simpl; rewrite !app_length, !map_length; lia).
  assert (Hterms : lc_terms s1 c = ts).
  { rewrite lc_terms_slice. unfold s1. rewrite all_terms_push by auto.
    destruct Hpos as [(-> & -> & _)|(_ & ->)]; [reflexivity|].
    assert (EL : length (st_vars s) = length (all_terms s)) by (unfold all_terms; rewrite combine_length; lia).
    rewrite EL. apply slice_app_r. }
  assert (Hgc : good s1 c).
  { constructor; auto.
    - now rewrite Hlit.
    - rewrite Hlit. simpl. rewrite nth_error_app2 by lia. now rewrite Nat.sub_diag.
    - now rewrite Hterms.
    - destruct Hpos as [(H1 & H2 & H3 & H4)|(Hne & ->)]; auto.
      right. simpl. rewrite app_length, map_length. destruct ts; [congruence|simpl; lia]. }
  unfold insert_cons in E. fold s1 in E. destruct (set_find hi hv s1 c) as [x|] eqn:Ef.
  - injection E as <- <-. apply set_find_some in Ef. destruct Ef as [Hx Heq].
    assert (Hgx : good s x) by (apply HI; exact Hx).
    assert (Hgx1 : good s1 x) by (apply good_push; auto).
    apply lc_equal_spec in Heq; auto. destruct Heq as (H1 & H2 & H3).
    split; [exact HI|]. split; [intros y Hy; auto|]. split; [exact Hx|]. split; [apply Hgx|].
    split; [auto|]. split; [auto|]. rewrite Hterms in H1. unfold s1 in H1. rewrite push_terms_old in H1; auto. now apply good_pos_le.
  - injection E as <- <-. 
    set (s2 := mkSt (st_vars s1) (st_coef s1) (st_cons s1) (st_set s1 ++ [c])).
    assert (HT : forall y, lc_terms s2 y = lc_terms s1 y) by reflexivity.
    assert (HG : forall y, good s1 y -> good s2 y) by (intros y [G1 G2 G3 G4 G5]; constructor; auto).
    assert (Hnew : forall y, In y (st_set s) -> y <> c /\ disjoint y c /\ ~ same s1 y c).
    { intros y Hy. assert (Hgy : good s y) by now apply HI. 
      assert (Hgy1 : good s1 y) by now apply good_push.
      assert (Hlt : lord (lc_lit y) < length (st_cons s)) by (apply nth_error_Some; rewrite (g_at s y Hgy); discriminate).
      repeat split.
      - intros ->. rewrite Hlit in Hlt. simpl in Hlt. lia.
      - pose proof (good_pos_le s y Hgy) as Hp. unfold disjoint.
        destruct Hpos as [(_ & -> & _)|(_ & ->)]; simpl; lia.
      - intros (K1 & K2 & K3).
        apply (set_find_none s1 c y Hl1 Hgc Hgy1 Ef); [exact Hy|].
        repeat split; auto. now apply Permutation_sym. }
    split; [constructor; auto|split; [intros y Hy; split|split; [|split; [|split; [|split]]]]]; auto.
    + intros y Hy. simpl in Hy. apply in_app_or in Hy. destruct Hy as [Hy|[<-|[]]]; auto.
      apply HG, good_push; auto. now apply HI.
    + intros a b Ha Hb Hab. split; simpl in Ha, Hb; apply in_app_or in Ha, Hb;
      destruct Ha as [Ha|[<-|[]]], Hb as [Hb|[<-|[]]]; try congruence.
      * now apply (i_pair s HI).
      * now apply Hnew.
      * destruct (Hnew b Hb) as (_ & K & _). destruct K; [right|left]; auto.
      * assert (good s a) by now apply HI. assert (good s b) by now apply HI.
        destruct (i_pair s HI a b Ha Hb Hab) as [_ K]. intros K2. apply K.
        destruct K2 as (K2 & K3 & K4). repeat split; auto. rewrite !HT in K2. unfold s1 in K2.
        rewrite !push_terms_old in K2; auto; now apply good_pos_le.
      * intros K. now apply (Hnew a Ha).
      * destruct (Hnew b Hb) as (_ & _ & K). intros (K1 & K2 & K3). apply K. repeat split; auto.
        now apply Permutation_sym.
    + simpl. apply in_or_app. auto.
    + rewrite HT. unfold s1. rewrite push_terms_old; auto. apply good_pos_le. now apply HI.
    + simpl. apply in_or_app. simpl. auto.
    + apply Hgc.
    + now rewrite HT, Hterms.
Qed.

Lemma removelast_snoc {A} (l : list A) x : removelast (l ++ [x]) = l.
Proof. rewrite removelast_app by discriminate. simpl. apply app_nil_r. Qed.

Definition with_sign (b : bool) (c : lcons) : lcons :=
  mkLc (if b then neg (lc_lit c) else lc_lit c) (lc_pos c) (lc_pred c) (lc_rhs c).

Lemma store_eta s : mkSt (st_vars s) (st_coef s) (st_cons s) (st_set s) = s.
Proof. now destruct s. Qed.

Lemma lc_make_some s ts p rhs k : length (st_vars s) = length (st_coef s) -> find_norm ts = Some k ->
  let ts' := scale k (nonzero ts) in
  let c := mkLc (mkLit (length (st_cons s)) false) (length (st_vars s), length (st_vars s) + length ts')
                (norm_pred k p) (Qred (k * rhs)) in
  ts' <> [] ->
  lc_make hi hv s ts p rhs =
  (fst (insert_cons s ts' c), with_sign (flips k p) (snd (insert_cons s ts' c))).
Proof.
  intros Hl Hk ts' c Hne. unfold lc_make. rewrite Hk. unfold lc_add. fold ts'. cbv beta iota zeta.
  fold c. cbn [st_vars st_coef st_cons st_set]. unfold insert_cons.
  change (mkSt (st_vars s ++ map fst ts') (st_coef s ++ map snd ts') (st_cons s ++ [c]) (st_set s))
    with (push s ts' c).
  assert (He : lc_empty c = false).
  { unfold lc_empty, c. simpl. apply Nat.leb_gt. destruct ts'; [congruence|simpl; lia]. }
  destruct (set_find hi hv (push s ts' c) c) as [it|].
  - rewrite He. simpl. rewrite removelast_snoc.
    replace (length ts') with (length (map fst ts')) at 1 by apply map_length. rewrite erase_app.
    replace (length ts') with (length (map snd ts')) by apply map_length. rewrite Hl, erase_app.
    now rewrite store_eta.
  - reflexivity.
Qed.
Lemma lc_make_none s ts p rhs : find_norm ts = None ->
  let c := mkLc (mkLit (length (st_cons s)) false) (0, 0) PEq 0%Q in
  lc_make hi hv s ts p rhs =
  (fst (insert_cons s [] c), with_sign (negb (pred_eval p 0 rhs)) (snd (insert_cons s [] c))).
Proof.
  intros Hk c. unfold lc_make. rewrite Hk. cbv beta iota zeta. fold c.
  cbn [st_vars st_coef st_cons st_set]. unfold insert_cons.
  assert (Ep : push s [] c = mkSt (st_vars s) (st_coef s) (st_cons s ++ [c]) (st_set s)).
  { unfold push. simpl. now rewrite !app_nil_r. }
  rewrite Ep.
  destruct (set_find hi hv _ c) as [it|].
  - simpl. rewrite removelast_snoc. now rewrite store_eta.
  - reflexivity.
Qed.

Lemma make_ok s q s' c : inv s -> distinct_vars q ->
  lc_make hi hv s (rq_terms q) (rq_pred q) (rq_rhs q) = (s', c) ->
  inv s' /\ grows s s' /\ exists c0, means s' c0 c q.
Proof.
  intros HI Hd E. destruct q as [ts p rhs]. unfold distinct_vars in Hd. simpl in *. fold (nonzero ts) in Hd.
  destruct (find_norm ts) as [k|] eqn:Ek.
  - destruct (normalise_ok ts k Hd Ek) as (Hn & Hk0 & Hne).
    rewrite (lc_make_some s ts p rhs k (i_len s HI) Ek Hne) in E.
    set (ts' := scale k (nonzero ts)) in *.
    set (c1 := mkLc _ _ _ _) in E.
    destruct (insert_cons s ts' c1) as [s2 it] eqn:Ei. simpl in E. injection E as <- <-.
    apply insert_cons_ok in Ei; auto.
    + destruct Ei as (I1 & I2 & I3 & I4 & I5 & I6 & I7). split; auto. split; auto. exists it.
      unfold means. unfold with_sign. simpl.
      split; auto. split; [destruct (flips k p); auto|]. repeat (split; [reflexivity|]).
      split; [rewrite <- (Permutation_map fst I7); unfold ts'; now rewrite scale_fst|].
      intros r.
      assert (K : rel (lc_pred it) (lin r (lc_terms s2 it)) (lc_rhs it) <->
                  rel (norm_pred k p) (k * lin r ts) (k * rhs)).
      { rewrite I5, I6. simpl. apply rel_morph; [|apply Qred_correct].
        rewrite <- (lin_perm r _ _ I7). unfold ts'. rewrite lin_scale, lin_nonzero. reflexivity. }
      rewrite K, rel_scale by auto. unfold req_holds. simpl.
      destruct (flips k p); simpl; rewrite I4; simpl; tauto.
    + simpl. apply Qred_complete, Qred_correct.
  - pose proof (find_norm_none ts Ek) as Hz.
    rewrite (lc_make_none s ts p rhs Ek) in E. set (c1 := mkLc _ _ _ _) in E.
    destruct (insert_cons s [] c1) as [s2 it] eqn:Ei. simpl in E. injection E as <- <-.
    apply insert_cons_ok in Ei; auto; [|constructor; [apply NoDup_nil|simpl; tauto|simpl; tauto|tauto]].
    destruct Ei as (I1 & I2 & I3 & I4 & I5 & I6 & I7). split; auto. split; auto. exists it.
    unfold means. unfold with_sign. simpl.
    split; auto. split; [destruct (negb _); auto|]. repeat (split; [reflexivity|]).
    apply Permutation_nil in I7.
    split.
    { rewrite I7. simpl. replace (nonzero ts) with (@nil (nat * Q)); auto.
      destruct (nonzero ts) as [|t l] eqn:En; auto. exfalso.
      assert (Ht : In t (nonzero ts)) by (rewrite En; now left). apply in_nonzero in Ht.
      destruct Ht as [T1 T2]. apply T2. auto. }
    intros r. rewrite I7, I5, I6. simpl.
    assert (K : req_holds r {| rq_terms := ts; rq_pred := p; rq_rhs := rhs |} <-> pred_eval p 0 rhs = true).
    { unfold req_holds. simpl. rewrite pred_eval_rel. apply rel_morph; [|reflexivity]. now apply lin_zero. }
    destruct (pred_eval p 0 rhs); simpl; rewrite I4; simpl; rewrite K; intuition (try reflexivity; try congruence).
Qed.

Lemma resize_ok s n : inv s -> inv (lc_resize s n) /\ grows s (lc_resize s n).
Proof.
  intros HI. split; [|intros c Hc; split; [exact Hc|apply Permutation_refl]].
  constructor; [apply HI| |apply HI].
  intros c Hc. destruct (i_good s HI c Hc) as [G1 G2 G3 G4 G5]. constructor; auto.
  simpl. rewrite nth_error_app1; auto. apply nth_error_Some. congruence.
Qed.

Lemma swap_ok s i j c : inv s -> In c (st_set s) ->
  fst (lc_pos c) <= i < snd (lc_pos c) -> fst (lc_pos c) <= j < snd (lc_pos c) ->
  inv (lc_swap s i j) /\ grows s (lc_swap s i j).
Proof.
  intros HI Hc Hi Hj. pose proof (i_len s HI) as Hl.
  pose proof (good_pos_le s c (i_good s HI c Hc)) as Hp.
  assert (EA : all_terms (lc_swap s i j) = swap_nth i j (all_terms s)).
  { unfold all_terms, lc_swap. simpl. apply combine_swap; lia. }
  assert (LA : length (all_terms s) = length (st_vars s)) by (unfold all_terms; rewrite combine_length; lia).
  assert (HP : forall y, In y (st_set s) -> Permutation (lc_terms s y) (lc_terms (lc_swap s i j) y)).
  { intros y Hy. rewrite !lc_terms_slice, EA.
    pose proof (good_pos_le s y (i_good s HI y Hy)) as Hpy.
    destruct (Nat.eq_dec (lord (lc_lit y)) (lord (lc_lit c))) as [E|E].
    - assert (y = c). { pose proof (g_at s y (i_good s HI y Hy)). pose proof (g_at s c (i_good s HI c Hc)). congruence. }
      subst y. rewrite slice_swap_in by lia. apply swap_perm.
    - assert (y <> c) by congruence.
      destruct (i_pair s HI y c Hy Hc H) as [D _].
      rewrite slice_swap_out; try lia; [apply Permutation_refl| |];
        destruct D as [D|D]; lia. }
  split; [|intros y Hy; split; [exact Hy|now apply HP]].
  constructor.
  - simpl. now rewrite !swap_nth_length.
  - intros y Hy. destruct (i_good s HI y Hy) as [G1 G2 G3 G4 G5]. constructor; auto.
    + eapply norm_terms_perm; [now apply HP|auto].
    + simpl. now rewrite swap_nth_length.
  - intros a b Ha Hb Hab. simpl in *. destruct (i_pair s HI a b Ha Hb Hab) as [D N]. split; auto.
    intros (K1 & K2 & K3). apply N. repeat split; auto.
    etransitivity; [now apply HP|]. etransitivity; [exact K1|]. apply Permutation_sym. now apply HP.
Qed.

Lemma inv_new : inv store_new.
Proof. constructor; simpl; tauto. Qed.

Lemma history_inv s h : lc_history hi hv s h ->
  inv s /\ forall q c, In (q, c) h -> exists c0, means s c0 c q.
Proof.
  induction 1 as [|s h q s' c H [IH1 IH2] Hd E|s h n H [IH1 IH2]|s h q c i j H [IH1 IH2] Hin Hi Hj].
  - split; [apply inv_new|]. intros q c [].
  - destruct (make_ok s q s' c IH1 Hd E) as (I1 & I2 & I3). split; auto.
    intros q' c' [[= -> ->]|Hin]; auto. destruct (IH2 q' c' Hin) as (c0 & Hm). exists c0.
    eapply means_grows; eauto.
  - destruct (resize_ok s n IH1) as [I1 I2]. split; [exact I1|]. intros q' c' Hin.
    destruct (IH2 q' c' Hin) as (c0 & Hm). exists c0. eapply means_grows; eauto.
  - destruct (IH2 q c Hin) as (c0 & Hm). pose proof Hm as (M1 & M2 & M3 & _). rewrite M3 in Hi, Hj.
    destruct (swap_ok s i j c0 IH1 M1 Hi Hj) as [I1 I2]. split; auto. intros q' c' Hin'.
    destruct (IH2 q' c' Hin') as (c0' & Hm'). exists c0'. eapply means_grows; eauto.
Qed.

Lemma means_get s c0 c q : inv s -> means s c0 c q -> lc_get s (lord (lc_lit c)) = c0.
Proof.
  intros HI (M1 & M2 & _). rewrite M2. unfold lc_get. apply nth_error_nth.
  apply (g_at s c0), HI, M1.
Qed.

(** the literal of a request means the request *)
Lemma literal_means s h q c r b : lc_history hi hv s h -> In (q, c) h -> respects s h r b ->
  lit_holds b (lc_lit c) <-> req_holds r q.
Proof.
  intros H Hin Hr. destruct (history_inv s h H) as [HI Hm]. destruct (Hm q c Hin) as (c0 & M).
  pose proof (means_get s c0 c q HI M) as G. specialize (Hr q c Hin). unfold stored_holds in Hr.
  rewrite G in Hr. destruct M as (_ & _ & _ & _ & _ & _ & M). rewrite (M r) in Hr.
  unfold lit_holds. destruct (lneg (lc_lit c)); simpl in *.
  - rewrite <- not_true_iff_false, Hr.
    unfold req_holds in *. destruct (rel_dec (rq_pred q) (lin r (rq_terms q)) (rq_rhs q)); tauto.
  - tauto.
Qed.

Lemma respects_exists s h r : lc_history hi hv s h -> exists b, respects s h r b.
Proof.
  intros H. exists (fun v => pred_eval (lc_pred (lc_get s v)) (lin r (lc_terms s (lc_get s v))) (lc_rhs (lc_get s v))).
  intros q c Hin. apply pred_eval_rel.
Qed.

Lemma pm_sym (b : bool) (P R : Prop) : (R \/ ~ R) -> (P <-> pm b R) -> (R <-> pm b P).
Proof. destruct b; simpl; tauto. Qed.

Lemma same_variable s h q1 c1 q2 c2 : lc_history hi hv s h -> In (q1, c1) h -> In (q2, c2) h ->
  lord (lc_lit c1) = lord (lc_lit c2) ->
  forall r, req_holds r q1 <-> pm (Bool.eqb (lneg (lc_lit c1)) (lneg (lc_lit c2))) (req_holds r q2).
Proof.
  intros H H1 H2 Ho r. destruct (history_inv s h H) as [HI Hm].
  destruct (Hm q1 c1 H1) as (d1 & M1). destruct (Hm q2 c2 H2) as (d2 & M2).
  pose proof (means_get s d1 c1 q1 HI M1) as G1. pose proof (means_get s d2 c2 q2 HI M2) as G2.
  assert (Hd : d2 = d1) by congruence. clear G2. subst d2.
  destruct M1 as (_ & _ & _ & _ & _ & _ & M1). destruct M2 as (_ & _ & _ & _ & _ & _ & M2).
  specialize (M1 r). specialize (M2 r).
  assert (D1 : req_holds r q1 \/ ~ req_holds r q1) by (unfold req_holds; destruct (rel_dec (rq_pred q1) (lin r (rq_terms q1)) (rq_rhs q1)); auto).
  assert (D2 : req_holds r q2 \/ ~ req_holds r q2) by (unfold req_holds; destruct (rel_dec (rq_pred q2) (lin r (rq_terms q2)) (rq_rhs q2)); auto).
  destruct (lneg (lc_lit c1)), (lneg (lc_lit c2)); simpl in *; tauto.
Qed.

Lemma norm_nil_const s c : good s c -> length (st_vars s) = length (st_coef s) -> lc_terms s c = [] ->
  lc_pred c = PEq /\ lc_rhs c = 0%Q.
Proof.
  intros Hg Hl He. pose proof (good_size s c Hl Hg) as Hs. rewrite He in Hs. unfold lc_size in Hs. simpl in Hs.
  destruct (g_pos s c Hg) as [(_ & H1 & H2)|H]; auto. lia.
Qed.

Lemma equivalent_same s h q1 c1 q2 c2 (b : bool) : lc_history hi hv s h -> In (q1, c1) h -> In (q2, c2) h ->
  (forall r, req_holds r q1 <-> pm b (req_holds r q2)) ->
  lc_lit c1 = if b then lc_lit c2 else neg (lc_lit c2).
Proof.
  intros H H1 H2 Heq. destruct (history_inv s h H) as [HI Hm].
  destruct (Hm q1 c1 H1) as (d1 & M1). destruct (Hm q2 c2 H2) as (d2 & M2).
  destruct M1 as (S1 & O1 & _ & _ & _ & _ & M1). destruct M2 as (S2 & O2 & _ & _ & _ & _ & M2).
  assert (G1 : good s d1) by now apply HI. assert (G2 : good s d2) by now apply HI.
  set (bb := Bool.eqb (Bool.eqb (lneg (lc_lit c1)) (lneg (lc_lit c2))) b).
  assert (K : forall r, rel (lc_pred d1) (lin r (lc_terms s d1)) (lc_rhs d1) <->
                        pm bb (rel (lc_pred d2) (lin r (lc_terms s d2)) (lc_rhs d2))).
  { intros r. specialize (M1 r). specialize (M2 r). specialize (Heq r).
    assert (D1 : req_holds r q1 \/ ~ req_holds r q1) by (unfold req_holds; destruct (rel_dec (rq_pred q1) (lin r (rq_terms q1)) (rq_rhs q1)); auto).
    assert (D2 : req_holds r q2 \/ ~ req_holds r q2) by (unfold req_holds; destruct (rel_dec (rq_pred q2) (lin r (rq_terms q2)) (rq_rhs q2)); auto).
    unfold bb. destruct (lneg (lc_lit c1)), (lneg (lc_lit c2)), b; simpl in *; tauto. }
  assert (Hs : bb = true /\ same s d1 d2).
  { pose proof (i_len s HI) as Hl.
    destruct (lc_terms s d1) as [|x l] eqn:E1.
    - destruct (lc_terms s d2) as [|y l'] eqn:E2.
      + destruct (norm_nil_const s d1 G1 Hl E1) as [P1 R1]. destruct (norm_nil_const s d2 G2 Hl E2) as [P2 R2].
        split.
        * specialize (K (fun _ => 0%Q)). rewrite P1, P2, R1, R2 in K. destruct bb; auto. simpl in K.
          exfalso. assert ((0 == 0)%Q) by reflexivity. tauto.
        * repeat split; try congruence. rewrite E1, E2. auto.
      + exfalso. rewrite <- E2 in K.
        destruct (sem_unique (lc_terms s d2) (lc_pred d2) (lc_rhs d2) [] (lc_pred d1) (lc_rhs d1) bb) as (_ & P & _).
        * apply G2.
        * rewrite <- E1. apply G1.
        * apply G2.
        * apply G1.
        * rewrite E2. discriminate.
        * intros r. specialize (K r). apply pm_sym; [|exact K].
          destruct (rel_dec (lc_pred d2) (lin r (lc_terms s d2)) (lc_rhs d2)); auto.
        * apply Permutation_sym, Permutation_nil in P. congruence.
    - rewrite <- E1 in K.
      destruct (sem_unique (lc_terms s d1) (lc_pred d1) (lc_rhs d1) (lc_terms s d2) (lc_pred d2) (lc_rhs d2) bb) as (P0 & P & P2 & P3);
        auto; try apply G1; try apply G2; [rewrite E1; discriminate|]. split; auto. repeat split; auto. }
  destruct Hs as [Hb Hs].
  assert (lord (lc_lit d1) = lord (lc_lit d2)).
  { destruct (Nat.eq_dec (lord (lc_lit d1)) (lord (lc_lit d2))); auto. exfalso.
    apply (i_pair s HI d1 d2 S1 S2); auto. congruence. }
  unfold bb in Hb. destruct (lc_lit c1) as [o1 n1], (lc_lit c2) as [o2 n2]. simpl in *.
  unfold neg. simpl. destruct b, n1, n2; simpl in *; try discriminate; f_equal; congruence.
Qed.

(** evaluation *)
Lemma eval_terms_ok m ts r0 : forallb (mdef m) (map fst ts) = true ->
  exists x, eval_terms m ts r0 = Ok x /\ (x == r0 - lin (mval m) ts)%Q.
Proof.
  revert r0. induction ts as [|[v c] ts IH]; simpl; intros r0 H.
  - exists r0. split; auto. ring.
  - apply andb_true_iff in H. destruct H as [H1 H2]. rewrite H1. simpl.
    destruct (IH (r0 - c * mval m v)%Q H2) as (x & E1 & E2). exists x. split; auto. rewrite E2. ring.
Qed.

Lemma eval_ok s h q c m : lc_history hi hv s h -> In (q, c) h ->
  (forall v, In v (map fst (nonzero (rq_terms q))) -> mdef m v = true) ->
  exists v, lc_eval s m c = Ok v /\ (v = true <-> req_holds (mval m) q).
Proof.
  intros H Hin Hd. destruct (history_inv s h H) as [HI Hm]. destruct (Hm q c Hin) as (c0 & M).
  destruct M as (S0 & _ & Hp & Hpr & Hr & HP & M). specialize (M (mval m)).
  assert (Ht : lc_terms s c = lc_terms s c0) by (unfold lc_terms, lc_vars, lc_coef; now rewrite Hp).
  assert (Hd' : forallb (mdef m) (map fst (lc_terms s c)) = true).
  { apply forallb_forall. intros v Hv. apply Hd. rewrite Ht in Hv. now apply (Permutation_in _ HP). }
  destruct (eval_terms_ok m (lc_terms s c) (lc_rhs c) Hd') as (x & E1 & E2).
  unfold lc_eval. rewrite E1. simpl. eexists. split; [reflexivity|].
  assert (K : pred_eval (lc_pred c) 0 x = true <-> rel (lc_pred c0) (lin (mval m) (lc_terms s c0)) (lc_rhs c0)).
  { rewrite pred_eval_rel, Hpr. rewrite Ht, Hr in E2. destruct (lc_pred c0); simpl; rewrite E2; split; intros; lra. }
  rewrite M in K.
  assert (D1 : req_holds (mval m) q \/ ~ req_holds (mval m) q) by (unfold req_holds; destruct (rel_dec (rq_pred q) (lin (mval m) (rq_terms q)) (rq_rhs q)); auto).
  destruct (lneg (lc_lit c)), (pred_eval (lc_pred c) 0 x); simpl in *; intuition congruence.
Qed.

End Inv.

(** ** polynomials *)
Lemma lin_insert r ts v c : (lin r (poly_insert ts v c) == lin r ts + c * r v)%Q.
Proof.
  induction ts as [|[w d] ts IH]; simpl; [ring|].
  destruct (Nat.eqb_spec w v) as [->|].
  - destruct (Qeq_bool (d + c) 0) eqn:E.
    + apply Qeq_bool_iff in E. setoid_replace c with (- d)%Q by lra. ring.
    + simpl. ring.
  - simpl. rewrite IH. ring.
Qed.
Lemma poly_add_value r p x : (pvalue r (poly_add p x) == pvalue r p + pvalue r x)%Q.
Proof.
  unfold pvalue, poly_add. simpl.
  assert (H : forall xs ts, (lin r (fold_left (fun ts t => poly_insert ts (fst t) (snd t)) xs ts) == lin r ts + lin r xs)%Q).
  { induction xs as [|[v c] xs IH]; simpl; intros ts; [ring|]. rewrite IH, lin_insert. ring. }
  rewrite H. ring.
Qed.
Lemma lin_map_scale r k (f : Q -> Q) ts : (forall x, f x == k * x)%Q ->
  (lin r (map (fun t => (fst t, f (snd t))) ts) == k * lin r ts)%Q.
Proof. intros H. induction ts as [|[v c] ts IH]; simpl; [ring|]. rewrite IH, H. ring. Qed.
Lemma poly_sub_value r p x : (pvalue r (poly_sub p x) == pvalue r p - pvalue r x)%Q.
Proof.
  unfold poly_sub. rewrite poly_add_value. unfold pvalue at 2. simpl.
  rewrite (lin_map_scale r (-1) (fun y => y * -1)%Q) by (intros; ring). unfold pvalue. ring.
Qed.
Lemma poly_negate_value r p : (pvalue r (poly_negate p) == - pvalue r p)%Q.
Proof.
  unfold poly_negate, pvalue. simpl. rewrite (lin_map_scale r (-1) (fun y => - y)%Q) by (intros; ring). ring.
Qed.

Lemma insert_fst ts v c w : In w (map fst (poly_insert ts v c)) -> w = v \/ In w (map fst ts).
Proof.
  induction ts as [|[u d] ts IH]; simpl; [intuition|].
  destruct (Nat.eqb_spec u v) as [->|].
  - destruct (Qeq_bool (d + c) 0); simpl; tauto.
  - simpl. intros [H|H]; auto. apply IH in H. tauto.
Qed.
Lemma insert_wf ts v c : ~ (c == 0)%Q -> NoDup (map fst ts) -> Forall (fun t => ~ snd t == 0)%Q ts ->
  NoDup (map fst (poly_insert ts v c)) /\ Forall (fun t => ~ snd t == 0)%Q (poly_insert ts v c).
Proof.
  intros Hc. induction ts as [|[u d] ts IH]; simpl; intros Hn Hf.
  - split; [repeat constructor; simpl; tauto|repeat constructor; auto].
  - apply NoDup_cons_iff in Hn. destruct Hn as [Hn1 Hn2]. apply Forall_cons_iff in Hf. destruct Hf as [Hf1 Hf2].
    destruct (Nat.eqb_spec u v) as [->|Hv].
    + destruct (Qeq_bool (d + c) 0) eqn:E; simpl; auto. split; [now constructor|].
      constructor; auto. simpl. now apply Qeq_bool_neq.
    + destruct (IH Hn2 Hf2) as [I1 I2]. simpl. split; constructor; auto.
      intros H. apply insert_fst in H. destruct H; congruence.
Qed.
Lemma poly_add_wf p x : poly_wf p -> Forall (fun t => ~ snd t == 0)%Q (p_terms x) -> poly_wf (poly_add p x).
Proof.
  unfold poly_wf, poly_add. simpl. intros [H1 H2] Hx. revert H1 H2. generalize (p_terms p).
  induction (p_terms x) as [|[v c] xs IH]; simpl; intros ts H1 H2; auto.
  apply Forall_cons_iff in Hx. destruct Hx as [Hc Hx].
  destruct (insert_wf ts v c Hc H1 H2). apply IH; auto.
Qed.
Lemma poly_sub_wf p x : poly_wf p -> Forall (fun t => ~ snd t == 0)%Q (p_terms x) -> poly_wf (poly_sub p x).
Proof.
  intros Hp Hx. apply poly_add_wf; auto. simpl. rewrite Forall_forall in *. intros t Ht.
  apply in_map_iff in Ht. destruct Ht as (u & <- & Hu). simpl. intros E. apply (Hx u Hu). lra.
Qed.
Lemma poly_negate_wf p : poly_wf p -> poly_wf (poly_negate p).
Proof.
  intros [H1 H2]. split; simpl.
  - rewrite map_map. simpl. exact H1.
  - rewrite Forall_forall in *. intros t Ht. apply in_map_iff in Ht. destruct Ht as (u & <- & Hu). simpl.
    intros E. apply (H2 u Hu). lra.
Qed.
Lemma poly_subtract_var_ok p v : 
  match poly_subtract_var p v with
  | Ok p' => ~ In v (map fst (p_terms p)) /\ (forall r, (pvalue r p' == pvalue r p - r v)%Q) /\ (poly_wf p -> poly_wf p')
  | UB => In v (map fst (p_terms p))
  | Fuel => False
  end.
Proof.
  unfold poly_subtract_var. destruct (existsb (fun t => fst t =? v) (p_terms p)) eqn:E; simpl.
  - apply existsb_exists in E. destruct E as (t & Ht & E). apply Nat.eqb_eq in E. subst v. now apply in_map.
  - assert (Hn : ~ In v (map fst (p_terms p))).
    { intros H. apply in_map_iff in H. destruct H as (t & <- & Ht). apply not_true_iff_false in E. apply E.
      apply existsb_exists. exists t. split; auto. apply Nat.eqb_refl. }
    split; auto. split.
    + intros r. unfold pvalue. simpl. rewrite lin_app. simpl. ring.
    + intros [H1 H2]. split; simpl.
      * rewrite map_app. simpl. apply (Permutation_NoDup (Permutation_cons_append _ v)). now constructor.
      * apply Forall_app. split; auto. repeat constructor. simpl. discriminate.
Qed.

(** sorting by decision level *)
Lemma poly_sort_ok t p r : Permutation (p_terms p) (p_terms (poly_sort t p)) /\
  (pvalue r (poly_sort t p) == pvalue r p)%Q /\ (poly_wf p -> poly_wf (poly_sort t p)).
Proof.
  pose proof (sort_perm (level_gt t) (p_terms p)) as HP. split; [exact HP|]. split.
  - unfold pvalue, poly_sort. simpl. now rewrite <- (lin_perm r _ _ HP).
  - intros [H1 H2]. split; simpl.
    + eapply Permutation_NoDup; [apply Permutation_map, HP|auto].
    + eapply Permutation_Forall; eauto.
Qed.
Definition level_geq (t : trail) (a b : nat * Q) : Prop :=
  match t_lvl t (VRat (fst b)), t_lvl t (VRat (fst a)) with
  | None, _ => True
  | Some y, Some x => y <= x
  | Some _, None => False
  end.
Lemma poly_sort_sorted t p : StronglySorted (level_geq t) (p_terms (poly_sort t p)).
Proof.
  apply sort_sorted.
  - intros x y z. unfold level_geq.
    destruct (t_lvl t (VRat (fst x))), (t_lvl t (VRat (fst y))), (t_lvl t (VRat (fst z))); simpl; try tauto; lia.
  - intros x y. unfold level_gt, level_geq.
    destruct (t_lvl t (VRat (fst x))), (t_lvl t (VRat (fst y))); try discriminate; auto.
    intros H. apply Nat.ltb_lt in H. lia.
  - intros x y. unfold level_gt, level_geq.
    destruct (t_lvl t (VRat (fst x))), (t_lvl t (VRat (fst y))); try discriminate; auto.
    intros H. apply Nat.ltb_ge in H. lia.
Qed.
