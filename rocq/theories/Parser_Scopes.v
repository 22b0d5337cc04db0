(** Scopes of the parser (C49). *)
From Coq Require Import Ascii String List Arith Bool Lia.
From Verif Require Import Base Terms_Model TermMgr_Model Lexer_Model Parser_Model Spec_Parser.
Import ListNotations.
Open Scope nat_scope.

Lemma text_eqb_eq a : forall b, text_eqb a b = true <-> a = b.
Proof.
  induction a as [|x a IH]; intros [|y b]; cbn; split; intros E; try discriminate; auto.
  - apply andb_true_iff in E. destruct E as [E1 E2]. apply Ascii.eqb_eq in E1. apply IH in E2. congruence.
  - injection E as -> ->. rewrite Ascii.eqb_refl. now apply IH.
Qed.
Lemma text_eqb_refl a : text_eqb a a = true. Proof. now apply text_eqb_eq. Qed.
Lemma text_eqb_sym a b : text_eqb a b = text_eqb b a.
Proof.
  destruct (text_eqb a b) eqn:E, (text_eqb b a) eqn:F; auto.
  - apply text_eqb_eq in E. subst. now rewrite text_eqb_refl in F.
  - apply text_eqb_eq in F. subst. now rewrite text_eqb_refl in E.
Qed.
Lemma text_eqb_spec a b : reflect (a = b) (text_eqb a b).
Proof. destruct (text_eqb a b) eqn:E; constructor; [now apply text_eqb_eq|]. intros ->. now rewrite text_eqb_refl in E. Qed.

Lemma find_set {A} (m : list (text * A)) k x n : tm_find m k <> None -> tm_find (tm_set m k x) n = if text_eqb k n then Some x else tm_find m n.
Proof.
  induction m as [|[a y] m IH]; cbn; [congruence|]. intros F. destruct (text_eqb_spec a k) as [->|N].
  - cbn. destruct (text_eqb k n); reflexivity.
  - cbn. destruct (text_eqb_spec a n) as [->|N2].
    + destruct (text_eqb_spec k n); [congruence|reflexivity].
    + apply IH. exact F.
Qed.
Lemma set_keys {A} (m : list (text * A)) k x : map fst (tm_set m k x) = map fst m.
Proof. induction m as [|[a y] m IH]; cbn; [reflexivity|]. destruct (text_eqb a k); cbn; congruence. Qed.
Lemma find_none {A} (m : list (text * A)) k : ~ In k (map fst m) -> tm_find m k = None.
Proof. induction m as [|[a y] m IH]; cbn; [reflexivity|]. intros N. destruct (text_eqb_spec a k); [subst; tauto|]. apply IH. tauto. Qed.
Lemma find_some_in {A} (m : list (text * A)) k x : tm_find m k = Some x -> In k (map fst m).
Proof. induction m as [|[a y] m IH]; cbn; [discriminate|]. destruct (text_eqb_spec a k); auto. Qed.
Lemma find_in {A} (m : list (text * A)) k x : tm_find m k = Some x -> In (k, x) m.
Proof. induction m as [|[a y] m IH]; cbn; [discriminate|]. destruct (text_eqb_spec a k); [intros E; injection E as ->; subst; auto|auto]. Qed.
Lemma erase_keys {A} (m : list (text * A)) k n : In n (map fst (tm_erase m k)) -> In n (map fst m).
Proof. induction m as [|[a y] m IH]; cbn; [tauto|]. destruct (text_eqb a k); cbn; tauto. Qed.
Lemma find_erase {A} (m : list (text * A)) k n : NoDup (map fst m) -> tm_find (tm_erase m k) n = if text_eqb k n then None else tm_find m n.
Proof.
  induction m as [|[a y] m IH]; cbn; intros ND; [destruct (text_eqb k n); reflexivity|]. inversion ND as [|? ? N1 N2]; subst.
  destruct (text_eqb_spec a k) as [->|N].
  - destruct (text_eqb_spec k n) as [->|]; [now apply find_none|reflexivity].
  - cbn. destruct (text_eqb_spec a n) as [->|N3].
    + destruct (text_eqb_spec k n); [congruence|reflexivity].
    + auto.
Qed.
Lemma erase_nodup {A} (m : list (text * A)) k : NoDup (map fst m) -> NoDup (map fst (tm_erase m k)).
Proof.
  induction m as [|[a y] m IH]; cbn; auto. intros ND. inversion ND as [|? ? N1 N2]; subst. destruct (text_eqb a k); auto. cbn. constructor; auto.
  intros I. apply N1. eapply erase_keys; eauto.
Qed.
Lemma assoc_find {A} (m : list (text * A)) n : assoc m n = tm_find m n.
Proof. induction m as [|[a y] m IH]; cbn; [reflexivity|]. now rewrite IH. Qed.

(** ** Refinement *)
Definition vals (l : list (text * term)) (n : text) : list term := map snd (filter (fun b => text_eqb (fst b) n) l).
Fixpoint limits_of (fs : list (list (text * term))) : list nat :=
  match fs with _ :: ((_ :: _) as r) => List.length (List.concat r) :: limits_of r | _ => [] end.
Definition map_ok (m : list (text * binder)) (l : list (text * term)) : Prop :=
  NoDup (map fst m) /\ forall n, tm_find m n = match vals l n with [] => None | c :: s => Some (mkBd c s) end.
Record scopes (L : lets) (fs : list (list (text * term))) : Prop := {
  sc_map : map_ok (ls_map L) (concat fs);
  sc_known : ls_known L = map fst (concat fs);
  sc_limits : ls_limits L = limits_of fs;
  sc_base : fs <> []
}.
Lemma vals_cons a x l n : vals ((a, x) :: l) n = if text_eqb a n then x :: vals l n else vals l n.
Proof. unfold vals. cbn. destruct (text_eqb a n); reflexivity. Qed.
Lemma vals_assoc l n : assoc l n = match vals l n with [] => None | c :: _ => Some c end.
Proof. induction l as [|[a x] l IH]; [reflexivity|]. rewrite vals_cons. cbn. destruct (text_eqb a n); [reflexivity|exact IH]. Qed.
Lemma get_scopes L fs n : scopes L fs -> let_get L n = assoc (concat fs) n.
Proof. intros [[ND M] _ _ _]. unfold let_get. rewrite M, vals_assoc. destruct (vals (concat fs) n); reflexivity. Qed.
Lemma new_scopes : scopes lets_new [[]].
Proof. split; try reflexivity; [|discriminate]. split; [constructor|reflexivity]. Qed.
Lemma push_scopes L fs : scopes L fs -> scopes (push_frame L) ([] :: fs).
Proof.
  intros [M K LI B]. split; auto; [|discriminate]. unfold push_frame. cbn [ls_limits limits_of]. destruct fs as [|f fs]; [congruence|].
  rewrite K, LI, map_length. reflexivity.
Qed.
Lemma add_scopes L f fs n t : scopes L (f :: fs) -> scopes (add_binding L n t) (((n, t) :: f) :: fs).
Proof.
  intros [[ND M] K LI B]. unfold add_binding.
  assert (LI' : ls_limits L = limits_of (((n, t) :: f) :: fs)) by (rewrite LI; destruct fs; reflexivity).
  assert (CC : concat (((n, t) :: f) :: fs) = (n, t) :: concat (f :: fs)) by reflexivity.
  destruct (tm_find (ls_map L) n) as [b|] eqn:F; split; cbn [ls_map ls_known ls_limits]; rewrite ?CC; auto; try discriminate; try (cbn; rewrite K; reflexivity).
  - split; [now rewrite set_keys|]. intros k. rewrite find_set by congruence. rewrite vals_cons. rewrite M. destruct (text_eqb_spec n k); [|reflexivity]. subst.
    rewrite M in F. destruct (vals (concat (f :: fs)) k); [discriminate|]. injection F as <-. reflexivity.
  - split.
    + cbn. constructor; auto. intros I. apply in_map_iff in I. destruct I as ([a x] & E & I). cbn in E. subst a.
      rewrite M in F. destruct (vals (concat (f :: fs)) n) eqn:V; [|discriminate]. pose proof (M n) as Mn. rewrite V in Mn.
      clear - I Mn. induction (ls_map L) as [|[a y] m IH]; [destruct I|]. cbn in Mn. destruct (text_eqb_spec a n); [discriminate|]. destruct I as [I|I]; [congruence|auto].
    + intros k. cbn [tm_find]. rewrite vals_cons, M. destruct (text_eqb_spec n k); [|reflexivity]. subst. rewrite M in F. destruct (vals (concat (f :: fs)) k); [reflexivity|discriminate].
Qed.
Lemma pop_loop_ok l : forall f m, map_ok m (f ++ l) -> exists m', pop_loop (List.length l) m (map fst (f ++ l)) = Ok (m', map fst l) /\ map_ok m' l.
Proof.
  induction f as [|[n t] f IH]; intros m M; cbn [app].
  - exists m. split; auto. destruct l as [|p l]; [reflexivity|]. cbn [map pop_loop]. cbn [List.length]. rewrite map_length, Nat.ltb_irrefl. reflexivity.
  - cbn [map fst pop_loop]. destruct (Nat.ltb_spec (List.length l) (List.length (n :: map fst (f ++ l)))) as [LT|GE].
    2:{ cbn in GE. rewrite map_length, app_length in GE. lia. }
    destruct M as [ND M]. pose proof (M n) as Mn. cbn [app] in Mn, M. rewrite vals_cons, text_eqb_refl in Mn. rewrite Mn. cbn [bd_shadow].
    apply IH. destruct (vals (f ++ l) n) as [|s ss] eqn:V.
    + split; [now apply erase_nodup|]. intros k. rewrite find_erase by auto. rewrite M, vals_cons. destruct (text_eqb_spec n k); [subst; now rewrite V|reflexivity].
    + split; [now rewrite set_keys|]. intros k. rewrite find_set by congruence. rewrite M, vals_cons. destruct (text_eqb_spec n k); [subst; now rewrite V|reflexivity].
Qed.
Lemma pop_scopes L f fs : scopes L (f :: fs) -> fs <> [] -> exists L', pop_frame L = Ok L' /\ scopes L' fs.
Proof.
  intros [M K LI B] N. destruct fs as [|g fs]; [congruence|]. unfold pop_frame. rewrite LI. cbn [limits_of]. rewrite K.
  change (concat (f :: g :: fs)) with (f ++ concat (g :: fs)) in *. destruct (pop_loop_ok (concat (g :: fs)) f (ls_map L) M) as (m' & E & M').
  rewrite E. cbn [bind]. eexists. split; [reflexivity|]. split; auto.
Qed.
Lemma step_scopes L fs o gs : scopes L fs -> sstep fs o = Some gs -> exists L', mstep L o = Ok L' /\ scopes L' gs.
Proof.
  intros R E. destruct o as [|n t|]; cbn [sstep mstep] in *.
  - injection E as <-. eexists. split; [reflexivity|]. now apply push_scopes.
  - destruct fs as [|f fs]; [discriminate|]. injection E as <-. eexists. split; [reflexivity|]. now apply add_scopes.
  - destruct fs as [|f [|g fs]]; try discriminate. injection E as <-. eapply pop_scopes; eauto. discriminate.
Qed.
Lemma run_scopes os : forall L fs gs, scopes L fs -> srun fs os = Some gs -> exists L', mrun L os = Ok L' /\ scopes L' gs.
Proof.
  induction os as [|o os IH]; intros L fs gs R E; cbn [srun mrun] in *; [injection E as <-; eauto|].
  destruct (sstep fs o) as [hs|] eqn:S1; [|discriminate]. destruct (step_scopes L fs o hs R S1) as (L' & -> & R'). cbn [bind]. eauto.
Qed.
Lemma adds_scopes bs : forall L f fs, scopes L (f :: fs) -> scopes (add_bindings L bs) ((rev bs ++ f) :: fs).
Proof.
  induction bs as [|[n t] bs IH]; intros L f fs R; [exact R|]. cbn [add_bindings fold_left fst snd]. fold (add_bindings (add_binding L n t) bs).
  cbn [rev]. rewrite <- app_assoc. cbn [app]. apply IH, add_scopes, R.
Qed.
Lemma let_scopes L fs bs : scopes L fs -> scopes (add_let_bindings L bs) ((rev bs) :: fs).
Proof. intros R. unfold add_let_bindings. rewrite <- (app_nil_r (rev bs)). apply adds_scopes, push_scopes, R. Qed.
