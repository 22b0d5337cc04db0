(** Proofs for C64. *)
From Coq Require Import Ascii String List Arith ZArith QArith NArith Bool Lia.
From Verif Require Import Base Core_Model Bool_Model Trail_Model Solver_Model Lra_Model Terms_Model TermMgr_Model Lexer_Model Spec_Print Print_Proofs Parser_Model Parser_Scopes Script_Model
  Spec_Parser Parser_Proofs Spec_Script Script_Proofs Script_Sem Order_Model Gvorder_Model Check_Model Ufcheck_Model Tool_Model Spec_Tool.
Import ListNotations.
Close Scope Q_scope.
Open Scope nat_scope.

(** ** The command line *)
Definition set_item (o : options) (i : item) : options :=
  match i with
  | IRational => mkOptions true (op_bounds o) (op_stats o) (op_phase o)
  | IBounds => mkOptions (op_rational o) true (op_stats o) (op_phase o)
  | IStats => mkOptions (op_rational o) (op_bounds o) true (op_phase o)
  | IPhase v => mkOptions (op_rational o) (op_bounds o) (op_stats o) (phase_arg v (op_phase o))
  | IPath _ => o
  end.
Definition set_path (p : text) (i : item) : text := match i with IPath q => q | _ => p end.
Lemma dashed_ok a : dashed a = true <-> starts_dash a.
Proof.
  unfold dashed, starts_dash. destruct a as [|c a]; [split; [discriminate|intros (r & X); discriminate]|].
  rewrite Ascii.eqb_eq. split; [intros ->; eauto|intros (r & X); congruence].
Qed.
Lemma undashed p s : ~ starts_dash p -> (exists r, t_of s = "-"%char :: r) -> text_eqb p (t_of s) = false.
Proof. intros N (r & E). destruct (text_eqb_spec p (t_of s)) as [->|]; [|reflexivity]. contradiction N. exists r. exact E. Qed.
Lemma read_item i rest o p : item_ok i -> read_args (item_args i ++ rest) o p = read_args rest (set_item o i) (set_path p i).
Proof.
  destruct i as [| | |v|q]; intros OK; try reflexivity. cbn [item_args app read_args set_item set_path]. cbn [item_ok] in OK.
  rewrite !(undashed q) by (exact OK || (eexists; reflexivity)).
  destruct (dashed q) eqn:D; [apply dashed_ok in D; contradiction|reflexivity].
Qed.
Lemma read_items is : forall rest o p, Forall item_ok is -> read_args (line is ++ rest) o p = read_args rest (fold_left set_item is o) (fold_left set_path is p).
Proof.
  induction is as [|i is IH]; intros rest o p F; [reflexivity|]. inversion F as [|? ? F1 F2]; subst.
  unfold line. cbn [flat_map fold_left]. rewrite <- app_assoc, read_item by exact F1. exact (IH _ _ _ F2).
Qed.
Lemma read_tail is tail : Forall item_ok is -> tail = [] \/ tail = [t_of "--phase"] ->
  read_args (line is ++ tail) options_default [] = Some (fold_left set_item is options_default, fold_left set_path is []).
Proof. intros F [-> | ->]; rewrite read_items by exact F; reflexivity. Qed.

Lemma sets_rational is : forall o, op_rational (fold_left set_item is o) = true <-> In IRational is \/ op_rational o = true.
Proof.
  induction is as [|i is IH]; intros o; cbn [fold_left]; [cbn; tauto|]. rewrite IH. destruct i; cbn; intuition (congruence || discriminate).
Qed.
Lemma sets_bounds is : forall o, op_bounds (fold_left set_item is o) = true <-> In IBounds is \/ op_bounds o = true.
Proof.
  induction is as [|i is IH]; intros o; cbn [fold_left]; [cbn; tauto|]. rewrite IH. destruct i; cbn; intuition (congruence || discriminate).
Qed.
Lemma sets_stats is : forall o, op_stats (fold_left set_item is o) = true <-> In IStats is \/ op_stats o = true.
Proof.
  induction is as [|i is IH]; intros o; cbn [fold_left]; [cbn; tauto|]. rewrite IH. destruct i; cbn; intuition (congruence || discriminate).
Qed.
Lemma phase_cases v ph : phase_named v (phase_arg v ph) \/ (phase_arg v ph = ph /\ forall q, ~ phase_named v q).
Proof.
  unfold phase_arg. destruct (text_eqb_spec v (t_of "positive")) as [->|N1]; [left; constructor|]. destruct (text_eqb_spec v (t_of "negative")) as [->|N2]; [left; constructor|].
  destruct (text_eqb_spec v (t_of "cache")) as [->|N3]; [left; constructor|]. right. split; [reflexivity|]. intros q X. inversion X; congruence.
Qed.
Lemma sets_phase is : forall o,
  (exists is1 v is2, is = is1 ++ IPhase v :: is2 /\ phase_named v (op_phase (fold_left set_item is o)) /\ forall w q, In (IPhase w) is2 -> ~ phase_named w q) \/
  (op_phase (fold_left set_item is o) = op_phase o /\ forall w q, In (IPhase w) is -> ~ phase_named w q).
Proof.
  induction is as [|i is IH]; intros o; cbn [fold_left]; [right; split; [reflexivity|intros w q []]|].
  destruct (IH (set_item o i)) as [(is1 & v & is2 & -> & P & N)|[E N]].
  - left. exists (i :: is1), v, is2. auto.
  - rewrite E. destruct i as [| | |v|p]; cbn [set_item op_phase]; try (right; split; [reflexivity|]; intros w q [X|X]; [discriminate|exact (N w q X)]).
    destruct (phase_cases v (op_phase o)) as [P|[P Q]].
    + left. exists [], v, is. auto.
    + right. split; [exact P|]. intros w q [X|X]; [injection X as <-; apply Q|exact (N w q X)].
Qed.
Lemma sets_path is : forall p, (exists is1 is2, is = is1 ++ IPath (fold_left set_path is p) :: is2 /\ forall q, ~ In (IPath q) is2) \/
  (fold_left set_path is p = p /\ forall q, ~ In (IPath q) is).
Proof.
  induction is as [|i is IH]; intros p; cbn [fold_left]; [right; split; [reflexivity|intros q []]|].
  destruct (IH (set_path p i)) as [(is1 & is2 & E & N)|[E N]].
  - left. exists (i :: is1), is2. rewrite E at 1. auto.
  - rewrite E. destruct i as [| | |v|q]; cbn [set_path]; try (right; split; [reflexivity|]; intros x [X|X]; [discriminate|exact (N x X)]).
    left. exists [], is. auto.
Qed.
Lemma options_ok is tail : Forall item_ok is -> tail = [] \/ tail = [t_of "--phase"] ->
  exists o p, read_args (line is ++ tail) options_default [] = Some (o, p) /\
    (op_rational o = true <-> In IRational is) /\ (op_bounds o = true <-> In IBounds is) /\ (op_stats o = true <-> In IStats is) /\
    phase_asked is (op_phase o) /\ path_asked is p.
Proof.
  intros F TL. exists (fold_left set_item is options_default), (fold_left set_path is []). split; [exact (read_tail is tail F TL)|].
  split; [rewrite sets_rational; cbn; intuition discriminate|]. split; [rewrite sets_bounds; cbn; intuition discriminate|]. split; [rewrite sets_stats; cbn; intuition discriminate|].
  split; [exact (sets_phase is options_default)|exact (sets_path is [])].
Qed.
Lemma lines n : forall args, List.length args <= n ->
  (exists is tail, Forall item_ok is /\ args = line is ++ tail /\ (tail = [] \/ tail = [t_of "--phase"])) \/
  (exists is a rest, Forall item_ok is /\ args = line is ++ a :: rest /\ unrecognized a).
Proof.
  induction n as [|n IH]; intros [|a args] L; cbn [List.length] in L; try lia; try (left; exists [], []; cbn; auto; fail).
  assert (ST : forall i rest, item_ok i -> a :: args = item_args i ++ rest -> List.length rest <= n ->
    (exists is tail, Forall item_ok is /\ a :: args = line is ++ tail /\ (tail = [] \/ tail = [t_of "--phase"])) \/
    (exists is b rest, Forall item_ok is /\ a :: args = line is ++ b :: rest /\ unrecognized b)).
  { intros i rest OK E L2. destruct (IH rest L2) as [(is & tl & F & -> & T)|(is & b & r & F & -> & U)].
    - left. exists (i :: is), tl. split; [constructor; assumption|]. split; [|exact T]. rewrite E. unfold line. cbn [flat_map]. rewrite <- app_assoc. reflexivity.
    - right. exists (i :: is), b, r. split; [constructor; assumption|]. split; [|exact U]. rewrite E. unfold line. cbn [flat_map]. rewrite <- app_assoc. reflexivity. }
  destruct (text_eqb_spec a (t_of "--prop-rational")) as [->|N1]; [apply (ST IRational args); auto; cbn; auto; lia|].
  destruct (text_eqb_spec a (t_of "--deduce-bounds")) as [->|N2]; [apply (ST IBounds args); auto; cbn; auto; lia|].
  destruct (text_eqb_spec a (t_of "--print-stats")) as [->|N3]; [apply (ST IStats args); auto; cbn; auto; lia|].
  destruct (text_eqb_spec a (t_of "--phase")) as [->|N4].
  { destruct args as [|v args]; [left; exists [], [t_of "--phase"]; cbn; auto|]. apply (ST (IPhase v) args); auto; [exact I|]. cbn [List.length] in L. lia. }
  destruct (dashed a) eqn:D.
  - apply dashed_ok in D. right. exists [], a, args. split; [constructor|]. split; [reflexivity|]. split; [exact D|]. cbn [In]. intuition congruence.
  - apply (ST (IPath a) args); [|reflexivity|lia]. intros S. apply dashed_ok in S. congruence.
Qed.
Lemma read_unrecognized is a rest : Forall item_ok is -> unrecognized a -> read_args (line is ++ a :: rest) options_default [] = None.
Proof.
  intros F [D N]. rewrite read_items by exact F. cbn [read_args]. cbn [In] in N.
  destruct (text_eqb_spec a (t_of "--prop-rational")) as [X|_]; [exfalso; intuition congruence|].
  destruct (text_eqb_spec a (t_of "--deduce-bounds")) as [X|_]; [exfalso; intuition congruence|].
  destruct (text_eqb_spec a (t_of "--print-stats")) as [X|_]; [exfalso; intuition congruence|].
  destruct (text_eqb_spec a (t_of "--phase")) as [X|_]; [exfalso; intuition congruence|].
  apply dashed_ok in D. rewrite D. reflexivity.
Qed.

(** ** The commands up to the first check *)
Section Run.
Variable H : hashes.
Definition lnext (l : option bool) (c : command) : option bool := match c with KLogic b => Some b | _ => l end.
Lemma effect_uf k c k' : effect H k c = Ok k' -> k_uf k' = match c with KLogic b => b | _ => k_uf k end.
Proof.
  destruct c as [e| |n y|n ys y|n ps y e|b|kw v|kw v| |]; cbn [effect]; intros E; try (injection E as <-; reflexivity).
  - destruct (build H (k_ctx k) e) as [[u C]| |]; cbn [bind] in E; try discriminate. injection E as <-. reflexivity.
  - destruct (declare_const _ _ _); cbn [bind] in E; try discriminate. injection E as <-. reflexivity.
  - destruct ys; [destruct (declare_const _ _ _); cbn [bind] in E; try discriminate; injection E as <-; reflexivity|].
    destruct (k_uf k) eqn:U; [destruct (declare_fun _ _ _ _); cbn [bind] in E; try discriminate|]; injection E as <-; cbn; exact U.
  - destruct (bind_vars _ _) as [fs C1]. destruct (build H C1 e) as [[u C2]| |]; cbn [bind] in E; try discriminate.
    destruct (pop_frame _); cbn [bind] in E; try discriminate. destruct (store_def _ _ _ _ _); cbn [bind] in E; try discriminate. injection E as <-. reflexivity.
Qed.
Lemma sets_ok c rest : sets_logic (ctoks c ++ rest) = match c with KLogic _ => true | _ => false end.
Proof. destruct c; reflexivity. Qed.
(** [pre]: no check-sat and no exit *)
Definition quiet (c : command) : Prop := c <> KCheck /\ c <> KExit.
Definition told (l : option bool) : bool := match l with Some _ => true | None => false end.
Definition isuf (l : option bool) : bool := match l with Some b => b | None => false end.
Lemma run_quiet pre : forall n l k rest r, Forall quiet pre -> csorts pre -> k_checks k = [] -> k_uf k = isuf l -> List.length pre < n ->
  run_to_check H n (told l) k (stoks (pre ++ KCheck :: rest)) = Ok r ->
  exists k1 k2, effects H k pre = Ok k1 /\ effect H k1 KCheck = Ok k2 /\ k_checks k1 = [] /\ k_uf k2 = isuf (fold_left lnext pre l) /\
    r = Some (told (fold_left lnext pre l), k2).
Proof.
  induction pre as [|c pre IH]; intros n l k rest r Q SO CK U L E; (destruct n as [|n]; [cbn [List.length] in L; lia|]).
  - cbn [app stoks flat_map run_to_check] in E. rewrite command_effect in E by (exact I || discriminate). cbn [effect bind k_checks] in E. injection E as <-.
    exists k. eexists. split; [reflexivity|]. split; [reflexivity|]. cbn [k_uf k_checks fold_left]. auto.
  - inversion Q as [|? ? [Q1 Q2] Q3]; subst. assert (S2 : csorts_ok c /\ csorts pre) by (destruct c; congruence || exact SO). destruct S2 as [S1 S2].
    cbn [app stoks flat_map run_to_check] in E. fold (stoks (pre ++ KCheck :: rest)) in E. rewrite command_effect in E by auto. rewrite sets_ok in E.
    assert (E2 : effects H k (c :: pre) = (k' <- effect H k c ;; effects H k' pre)) by (destruct c; congruence || reflexivity). rewrite E2.
    destruct (effect H k c) as [k'| |] eqn:EF; cbn [bind] in E; try discriminate.
    assert (CK2 : k_checks k' = []) by (rewrite (effect_checks H k c k' EF); destruct c; congruence || exact CK). rewrite CK2 in E.
    cbn [bind fold_left]. apply (IH n (lnext l c) k' rest r Q3 S2 CK2).
    + rewrite (effect_uf k c k' EF). destruct c; exact U || reflexivity.
    + cbn [List.length] in L. lia.
    + assert (T : told (lnext l c) = told l || match c with KLogic _ => true | _ => false end) by (destruct c, l; reflexivity). rewrite T. exact E.
Qed.
Lemma checked_first cs : forall acc pre rest, checked acc cs = pre :: rest -> exists mid r, Forall quiet mid /\ cs = mid ++ KCheck :: r /\ pre = acc ++ mid.
Proof.
  induction cs as [|c cs IH]; intros acc pre rest E; [discriminate|].
  assert (D : c = KCheck \/ c = KExit \/ quiet c) by (destruct c; (left; reflexivity) || (right; left; reflexivity) || (right; right; split; discriminate)).
  destruct D as [->|[->|D]]; cbn [checked] in E.
  - injection E as <- _. exists [], cs. rewrite app_nil_r. auto.
  - discriminate.
  - assert (E2 : checked (acc ++ [c]) cs = pre :: rest) by (destruct D as [D1 D2]; destruct c; congruence || exact E).
    destruct (IH _ _ _ E2) as (mid & r & F & -> & ->). exists (c :: mid), r. split; [constructor; assumption|]. split; [reflexivity|]. rewrite <- app_assoc. reflexivity.
Qed.
Lemma csorts_app pre : forall cs, Forall quiet pre -> csorts (pre ++ cs) -> csorts pre /\ csorts cs.
Proof.
  induction pre as [|c pre IH]; intros cs Q S; [split; [exact I|exact S]|]. inversion Q as [|? ? [Q1 Q2] Q3]; subst.
  assert (S2 : csorts_ok c /\ csorts (pre ++ cs)) by (destruct c; congruence || exact S). destruct S2 as [S1 S2]. destruct (IH cs Q3 S2) as [S3 S4].
  split; [|exact S4]. destruct c; congruence || (split; assumption).
Qed.
Lemma quiet_checked pre : forall acc, Forall quiet pre -> checked acc (pre ++ [KCheck]) = [acc ++ pre].
Proof.
  induction pre as [|c pre IH]; intros acc Q; [cbn; rewrite app_nil_r; reflexivity|]. inversion Q as [|? ? [Q1 Q2] Q3]; subst.
  assert (E : checked acc ((c :: pre) ++ [KCheck]) = checked (acc ++ [c]) (pre ++ [KCheck])) by (destruct c; congruence || reflexivity).
  rewrite E, IH by exact Q3. rewrite <- app_assoc. reflexivity.
Qed.
(** The state at the first check is that of running the commands up to it. *)
Lemma run_first cs pre rest n r : script_ok w_new false cs -> checked [] cs = pre :: rest -> List.length cs <= n ->
  run_to_check H (S n) false (k_new H) (stoks cs) = Ok r ->
  exists k c, r = Some (told (logic_after pre), k) /\ k_checks k = [c] /\ k_uf k = isuf (logic_after pre) /\
    run_script H (stoks (pre ++ [KCheck])) = Ok k /\ effects H (k_new H) (pre ++ [KCheck]) = Ok k /\
    script_ok w_new false (pre ++ [KCheck]) /\ checked [] (pre ++ [KCheck]) = [pre].
Proof.
  intros OK CP L E. destruct (checked_first cs [] pre rest CP) as (mid & rr & Q & -> & EP). cbn [app] in EP. subst mid.
  pose proof (script_sorts _ _ _ OK) as SO. destruct (csorts_app pre _ Q SO) as [S1 S2].
  assert (NX : Forall (fun c => c <> KExit) pre) by (eapply Forall_impl; [|exact Q]; intros c [_ X]; exact X).
  destruct (run_quiet pre (S n) None (k_new H) rr r Q S1 eq_refl eq_refl) as (k1 & k2 & E1 & E2 & C1 & U & ->).
  { rewrite app_length in L. lia. }
  { exact E. }
  assert (EE : effects H (k_new H) (pre ++ [KCheck]) = Ok k2) by (rewrite effects_snoc by (assumption || discriminate); rewrite E1; exact E2).
  assert (OK2 : script_ok w_new false (pre ++ [KCheck])).
  { apply (script_pre rr). { apply Forall_app. split; [exact NX|]. constructor; [discriminate|constructor]. } rewrite <- app_assoc. exact OK. }
  exists k2, (k_asserts k1, c_tab (k_ctx k1)). split; [reflexivity|]. split. { cbn [effect] in E2. injection E2 as <-. cbn [k_checks]. rewrite C1. reflexivity. }
  split; [exact U|]. split; [rewrite run_effects by exact (script_sorts _ _ _ OK2); exact EE|]. split; [exact EE|]. split; [exact OK2|]. exact (quiet_checked pre [] Q).
Qed.
End Run.

Section None_.
Variable H : hashes.
Lemma run_none cs : forall acc n set k k', csorts cs -> checked acc cs = [] -> effects H k cs = Ok k' -> k_checks k = [] -> List.length cs < n ->
  run_to_check H n set k (stoks cs) = Ok None.
Proof.
  induction cs as [|c cs IH]; intros acc n set k k' SO CH E CK L; (destruct n as [|n]; [cbn [List.length] in L; lia|]).
  - cbn [stoks flat_map run_to_check parse_command bind]. rewrite CK. reflexivity.
  - assert (D : c = KCheck \/ c = KExit \/ quiet c) by (destruct c; (left; reflexivity) || (right; left; reflexivity) || (right; right; split; discriminate)).
    destruct D as [->|[->|[D1 D2]]]; [discriminate| |].
    + cbn. rewrite CK. reflexivity.
    + assert (S2 : csorts_ok c /\ csorts cs) by (destruct c; congruence || exact SO). destruct S2 as [S1 S2].
      assert (E2 : effects H k (c :: cs) = (k' <- effect H k c ;; effects H k' cs)) by (destruct c; congruence || reflexivity). rewrite E2 in E.
      cbn [stoks flat_map run_to_check]. fold (stoks cs). rewrite command_effect by auto. destruct (effect H k c) as [k1| |] eqn:EF; cbn [bind] in E |- *; try discriminate.
      assert (CK2 : k_checks k1 = []) by (rewrite (effect_checks H k c k1 EF); destruct c; congruence || exact CK). rewrite CK2.
      apply (IH (acc ++ [c]) n _ k1 k' S2); auto; [destruct c; congruence || exact CH|cbn [List.length] in L; lia].
Qed.
End None_.
Lemma path_unique is p q : path_asked is p -> path_asked is q -> p = q.
Proof.
  assert (L : forall is1 is2 is3 is4 (a b : text), is1 ++ IPath a :: is2 = is3 ++ IPath b :: is4 -> (forall q, ~ In (IPath q) is2) -> (forall q, ~ In (IPath q) is4) -> a = b).
  { induction is1 as [|i is1 IH]; intros is2 is3 is4 a b E N1 N2; destruct is3 as [|j is3]; cbn [app] in E.
    - congruence.
    - injection E as _ E. exfalso. apply (N1 b). rewrite E. apply in_or_app. right. left. reflexivity.
    - injection E as _ E. exfalso. apply (N2 a). rewrite <- E. apply in_or_app. right. left. reflexivity.
    - injection E as _ E. exact (IH _ _ _ _ _ E N1 N2). }
  assert (IN : forall (is1 is2 : list item) a, In (IPath a) (is1 ++ IPath a :: is2)) by (intros; apply in_or_app; right; left; reflexivity).
  intros [(i1 & i2 & E & N)|[-> N]] [(i3 & i4 & E2 & N2)|[-> N2]].
  - rewrite E in E2. exact (L _ _ _ _ _ _ E2 N N2).
  - exfalso. apply (N2 p). rewrite E. apply IN.
  - exfalso. apply (N q). rewrite E2. apply IN.
  - reflexivity.
Qed.
