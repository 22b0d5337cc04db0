(** Proofs for C45: expansion of defined functions. *)
From Coq Require Import List Arith ZArith QArith Qcanon NArith Bool Lia.
From Verif Require Import Base Terms_Model Spec_Terms Terms_Proofs TermMgr_Model Spec_TermMgr TermMgr_Base TermMgr_Arith TermMgr_Term
  Visitor_Model Spec_Visitor Visitor_Proofs Rewriter_Model Spec_Rewriter.
Import ListNotations.
Close Scope Qc_scope.
Close Scope Q_scope.
Open Scope nat_scope.

Lemma new_args_nil T : forall l, new_args T [] l = Ok (l, false).
Proof. induction l; simpl; auto. destruct (type_of T a); simpl; rewrite IHl; reflexivity. Qed.

(** the loop never pushes a child: the result is the configuration's result on the root *)
Lemma loop_children H cfg T t : forall n k f, n = length (get_args T t) - k -> k <= length (get_args T t) ->
  rewrite_loop H cfg (n + f) [(t, k)] [] [] T = rewrite_loop H cfg f [(t, length (get_args T t))] [] [] T.
Proof.
  induction n; intros k f En Lk.
  - replace (length (get_args T t)) with k by lia. reflexivity.
  - cbn [Nat.add rewrite_loop]. cbn [t_mem existsb negb assertb bind].
    destruct (nth_error (get_args T t) k) eqn:E; [|apply nth_error_None in E; lia].
    apply IHn; lia.
Qed.
Lemma rewrite_char H cfg T t fuel : length (get_args T t) < fuel ->
  type_of T (cfg T t) = type_of T t ->
  rewrite H cfg fuel T t = Ok (T, cfg T t).
Proof.
  intros L TY. unfold rewrite.
  replace fuel with ((length (get_args T t) - 0) + S (fuel - length (get_args T t) - 1)) by lia.
  rewrite (loop_children H cfg T t _ 0 _ eq_refl) by lia.
  cbn [rewrite_loop]. cbn [t_mem existsb negb assertb bind s_find].
  rewrite (proj2 (nth_error_None _ _)) by lia. rewrite new_args_nil. cbn [bind snd fst].
  rewrite orb_false_r. destruct (t_eqb (cfg T t) t) eqn:E; cbn [negb].
  - assert (cfg T t = t) as ->. { apply t_eqb_eq. exact E. }
    destruct (fuel - length (get_args T t) - 1); simpl; auto.
  - rewrite TY. destruct (type_of T t); cbn [ty_eqb assertb bind];
    destruct (fuel - length (get_args T t) - 1); simpl; rewrite t_eqb_refl; auto.
Qed.

(** the map *)
Lemma s_find_insert m a b t : s_find (s_insert m a b) t =
  match s_find m t with Some u => Some u | None => if t_eqb a t then Some b else None end.
Proof.
  unfold s_insert. destruct (s_find m a) eqn:E.
  - destruct (s_find m t) eqn:F; auto. destruct (t_eqb a t) eqn:G; auto. apply t_eqb_eq in G. congruence.
  - clear E. induction m as [|[x y] m IH]; simpl; auto. destruct (t_eqb x t); auto.
Qed.
Definition bmap (l : list (term * term)) (m : smap) : smap := fold_left (fun m p => s_insert m (fst p) (snd p)) l m.
Lemma bmap_find : forall l m t, s_find (bmap l m) t = match s_find m t with Some u => Some u | None => s_find l t end.
Proof.
  induction l as [|[a b] l IH]; intros m t; simpl.
  - destruct (s_find m t); auto.
  - unfold bmap in *. simpl. rewrite IH, s_find_insert. destruct (s_find m t); auto. destruct (t_eqb a t); auto.
Qed.

Lemma find_in : forall l t u, s_find l t = Some u -> In (t, u) l.
Proof.
  induction l as [|[a b] l IH]; simpl; intros t u E; try discriminate.
  destruct (t_eqb a t) eqn:G; auto. apply t_eqb_eq in G. left. congruence.
Qed.
Lemma find_none : forall l t, s_find l t = None -> ~ In t (map fst l).
Proof.
  induction l as [|[a b] l IH]; simpl; intros t E; auto.
  destruct (t_eqb a t) eqn:G; try discriminate. intros [<-|I]; [|apply (IH t E I)]. now rewrite t_eqb_refl in G.
Qed.

Definition formal_ok (T : table) (f : term) := valid T f /\ tneg f = false /\ kind_of T f = KUninterp.
Definition arg_ok (T : table) (f a : term) := match type_of T f with TBool => bool_t T a | TReal => real_t T a | TNull => False end.

Lemma combine_in {A B} (R : A -> B -> Prop) l1 l2 a b : Forall2 R l1 l2 -> In (a, b) (combine l1 l2) -> R a b.
Proof. intros F. induction F; simpl; intros []; auto. injection H0 as -> ->; auto. Qed.
Lemma fst_combine {A B} (l1 : list A) (l2 : list B) : length l1 = length l2 -> map fst (combine l1 l2) = l1.
Proof. revert l2; induction l1; intros [|] L; simpl in *; try lia; auto. rewrite IHl1; auto. Qed.

(** what resolve returns *)
Lemma resolve_char H T formals body args fuel : macro T formals body args -> length (get_args T body) < fuel ->
  resolve H fuel T formals body args =
  Ok (T, match s_find (combine formals args) body with Some a => a | None => body end).
Proof.
  intros (ND & V & NB & F & F2) L. pose proof (f2_length F2) as LE. unfold resolve.
  rewrite LE, Nat.eqb_refl. cbn [assertb bind].
  fold (bmap (combine formals args) []).
  assert (E : subst_var T (bmap (combine formals args) []) body =
     match s_find (combine formals args) body with Some a => a | None => body end).
  { unfold subst_var. rewrite bmap_find. simpl. destruct (s_find (combine formals args) body) as [a|] eqn:E.
    - apply find_in in E. assert (In body formals) by (eapply in_combine_l; eauto).
      rewrite Forall_forall in F. destruct (F _ H0) as (_ & N & K). rewrite N, K. reflexivity.
    - destruct (negb (tneg body) && k_eqb (kind_of T body) KUninterp); auto. }
  rewrite <- E. apply rewrite_char; auto. rewrite E.
  destruct (s_find (combine formals args) body) as [a|] eqn:E2; auto.
  apply find_in in E2. pose proof (combine_in _ _ _ _ _ F2 E2) as R. simpl in R.
  destruct (type_of T body); [destruct R | symmetry; now symmetry; apply R | apply R].
Qed.

(** a term's value depends only on the constants that occur in it *)
Lemma node_congr I J i vs ws n :
  (n_kind n = KUninterp -> i_bool I i = i_bool J i /\ i_real I i = i_real J i) ->
  i_fbool I = i_fbool J -> i_freal I = i_freal J ->
  (forall a, In a (match n_kind n with KApp => tl (dargs n) | _ => dargs n end) -> look vs a = look ws a) ->
  node_value I i vs n = node_value J i ws n.
Proof.
  intros U F1 F2 A. unfold node_value, dargs in *. destruct (n_kind n) eqn:K; destruct (n_desc n) as [|l| |] eqn:D; auto.
  all: try (destruct (U eq_refl) as [-> ->]; reflexivity).
  - destruct l as [|c [|t [|e []]]]; auto. rewrite !A; simpl; auto.
  - destruct l as [|f l]; auto. simpl in A. rewrite F1, F2.
    assert (M : map (look vs) l = map (look ws) l) by (apply map_ext_in; auto). rewrite M. reflexivity.
  - f_equal. clear - A. induction l; simpl; auto. rewrite A by (simpl; auto). f_equal. apply IHl. intros; apply A; simpl; auto.
  - destruct l as [|c []]; auto. rewrite !A; simpl; auto.
  - destruct l as [|c []]; auto. rewrite !A; simpl; auto.
  - destruct l as [|c [|d []]]; auto. rewrite !A; simpl; auto.
  - destruct l as [|c [|d []]]; auto. rewrite !A; simpl; auto.
  - do 2 f_equal. apply map_ext_in. intros a Ia. now rewrite A.
Qed.

Lemma teval_look I T t : look (values I (tt_nodes T)) t = teval I T t.
Proof. reflexivity. Qed.
Lemma teval_pos I T t : teval I T t = if tneg t then vneg (teval I T (mkT (tix t) false)) else teval I T (mkT (tix t) false).
Proof. destruct t as [i []]; reflexivity. Qed.

Lemma teval_depends H T I J : wf H T -> i_fbool I = i_fbool J -> i_freal I = i_freal J ->
  forall t, valid T t ->
  (forall s, subterm T s t -> kind_of T s = KUninterp -> i_bool I (tix s) = i_bool J (tix s) /\ i_real I (tix s) = i_real J (tix s)) ->
  teval I T t = teval J T t.
Proof.
  intros W F1 F2. 
  assert (G : forall n t, tix t < n -> valid T t ->
    (forall s, subterm T s t -> kind_of T s = KUninterp -> i_bool I (tix s) = i_bool J (tix s) /\ i_real I (tix s) = i_real J (tix s)) ->
    teval I T t = teval J T t); [|intros t V D; apply (G (S (tix t))); auto].
  induction n as [|n IH]; intros t L V D; [lia|].
  rewrite (teval_pos I), (teval_pos J).
  assert (E : teval I T (mkT (tix t) false) = teval J T (mkT (tix t) false)); [|now rewrite E].
  assert (V' : valid T (mkT (tix t) false)) by exact V.
  rewrite !(teval_node H T) by auto.
  apply node_congr; auto.
  - intros K. apply (D t); [constructor|]. exact K.
  - intros a Ia. rewrite !teval_look.
    assert (Ia' : In a (get_args T t)).
    { unfold get_args, kind_of. unfold kind_of in Ia. fold (node_of T t) in *. change (node_of T (mkT (tix t) false)) with (node_of T t) in Ia.
      destruct (le_lt_dec 3 (tix t)) as [L3|L3].
      - destruct (node_wf _ _ _ W L3 (proj2 V)) as [N _]. revert N Ia. unfold wf_node, dargs.
        destruct (n_kind (node_of T t)), (n_desc (node_of T t)); simpl; tauto.
      - destruct (small_node _ _ _ W V L3) as [[_ E]|[_ E]]; rewrite E in *; destruct Ia. }
    apply IH.
    + pose proof (wf_acyclic _ _ W t a Ia'). lia.
    + eapply args_in_table; eauto.
    + intros s Ss. apply D. econstructor; eauto.
Qed.

Lemma set_consts_f I cs : i_fbool (set_consts I cs) = i_fbool I /\ i_freal (set_consts I cs) = i_freal I.
Proof. induction cs as [|[f v] cs [A B]]; simpl; auto. Qed.
Lemma set_consts_other I cs i : ~ In i (map (fun p => tix (fst p)) cs) ->
  i_bool (set_consts I cs) i = i_bool I i /\ i_real (set_consts I cs) i = i_real I i.
Proof.
  induction cs as [|[f v] cs IH]; simpl; auto. intros N. rewrite (proj2 (Nat.eqb_neq _ _)) by auto. auto.
Qed.
Lemma set_consts_in I cs f v : NoDup (map (fun p => tix (fst p)) cs) -> In (f, v) cs ->
  i_bool (set_consts I cs) (tix f) = as_b v /\ i_real (set_consts I cs) (tix f) = as_r v.
Proof.
  induction cs as [|[g w] cs IH]; simpl; intros ND E; [destruct E|]. destruct E as [E|E].
  - injection E as -> ->. now rewrite Nat.eqb_refl.
  - inversion ND as [|? ? N1 N2]; subst. destruct (tix f =? tix g) eqn:Q; auto.
    exfalso. apply Nat.eqb_eq in Q. apply N1. rewrite <- Q. apply in_map_iff. exists (f, v). auto.
Qed.

Lemma keys_combine I T formals args : length formals = length args ->
  map (fun p => tix (fst p)) (combine formals (map (teval I T) args)) = map tix formals.
Proof. intros L. rewrite <- map_map with (f := fst) (g := tix), fst_combine; auto. now rewrite map_length. Qed.

Lemma resolve_formal H T formals body args fuel : wf H T -> macro T formals body args -> length (get_args T body) < fuel ->
  In body formals ->
  exists t, resolve H fuel T formals body args = Ok (T, t) /\ expands T formals body args T t.
Proof.
  intros W M L I. pose proof (resolve_char H _ _ _ _ _ M L) as R. destruct M as (ND & V & NB & F & F2).
  pose proof (f2_length F2) as LE.
  destruct (s_find (combine formals args) body) as [a|] eqn:E.
  2:{ exfalso. apply find_none in E. rewrite fst_combine in E; auto. }
  exists a. split; auto. intros J. apply find_in in E.
  assert (E' : In (body, teval J T a) (combine formals (map (teval J T) args))).
  { clear - E. revert args E. induction formals; intros [|b args] E; simpl in *; auto.
    destruct E as [E|E]; [left; congruence|auto]. }
  rewrite Forall_forall in F. destruct (F _ I) as (_ & NF & K).
  pose proof (combine_in _ _ _ _ _ F2 E) as A. simpl in A.
  assert (ND' : NoDup (map (fun p => tix (fst p)) (combine formals (map (teval J T) args)))) by (rewrite keys_combine; auto).
  destruct (set_consts_in J _ body (teval J T a) ND' E') as [B1 B2].
  rewrite (teval_node H T _ body W V NF). unfold node_value. fold (kind_of T body). rewrite K.
  fold (type_of T body). rewrite B1, B2.
  destruct (type_of T body) eqn:TY; [destruct A| |].
  - rewrite (bool_value H T J a W A). destruct (n_desc (node_of T body)); reflexivity.
  - rewrite (real_value H T J a W A). destruct (n_desc (node_of T body)); reflexivity.
Qed.

Lemma resolve_closed H T formals body args fuel : wf H T -> macro T formals body args -> length (get_args T body) < fuel ->
  (forall s f, subterm T s body -> In f formals -> tix s <> tix f) ->
  exists t, resolve H fuel T formals body args = Ok (T, t) /\ expands T formals body args T t.
Proof.
  intros W M L N. pose proof (resolve_char H _ _ _ _ _ M L) as R. destruct M as (ND & V & NB & F & F2).
  pose proof (f2_length F2) as LE.
  destruct (s_find (combine formals args) body) as [a|] eqn:E.
  { exfalso. apply find_in in E. apply in_combine_l in E. apply (N body body); auto. constructor. }
  exists body. split; auto. intros J.
  destruct (set_consts_f J (combine formals (map (teval J T) args))) as [F3 F4].
  apply (teval_depends H); auto.
  intros s Ss _. destruct (set_consts_other J (combine formals (map (teval J T) args)) (tix s)) as [A B].
  - rewrite keys_combine; auto. intros I. apply in_map_iff in I. destruct I as (f & Ef & If). apply (N s f); auto.
  - now rewrite A, B.
Qed.
