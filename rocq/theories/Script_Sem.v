(** Proofs for C60: the assertions of a script. *)
From Coq Require Import Ascii String List Arith ZArith QArith Qcanon Bool Lia.
From Verif Require Import Base Terms_Model Spec_Terms Terms_Proofs TermMgr_Model Spec_TermMgr TermMgr_Base TermMgr_Arith TermMgr_Term Rewriter_Model Decimal_Model
  Spec_Decimal Visitor_Proofs Lexer_Model Spec_Print Parser_Model Spec_Parser Parser_Scopes Parser_Proofs Parser_Sem Script_Model Spec_Script Script_Proofs.
Import ListNotations.
Close Scope Qc_scope.
Close Scope Q_scope.
Open Scope nat_scope.

Lemma assoc_none {A} (m : list (text * A)) n : ~ In n (map fst m) <-> assoc m n = None.
Proof.
  rewrite assoc_find. split; [apply find_none|]. intros E I. induction m as [|[a x] m IH]; [destruct I|]. cbn in *.
  destruct (text_eqb_spec a n); [discriminate|]. destruct I as [I|I]; auto.
Qed.
Lemma assoc_in {A} (m : list (text * A)) n x : assoc m n = Some x -> In (n, x) m.
Proof. rewrite assoc_find. apply find_in. Qed.
Lemma in_assoc {A} (m : list (text * A)) n x : NoDup (map fst m) -> In (n, x) m -> assoc m n = Some x.
Proof.
  induction m as [|[a y] m IH]; [intros _ []|]. cbn. intros ND. inversion ND as [|? ? N1 N2]; subst. intros [E|I].
  - injection E as -> ->. now rewrite text_eqb_refl.
  - destruct (text_eqb_spec a n); [|auto]. subst. exfalso. apply N1. apply in_map_iff. exists (n, x). auto.
Qed.

(** ** Invariant *)
Definition sym_ok (T : table) (p : text * term) (d : text * (list ty * ty)) : Prop :=
  fst p = fst d /\ has_type T (snd p) (snd (snd d)) /\ tneg (snd p) = false /\ kind_of T (snd p) = KUninterp /\ sort_ok (snd (snd d)).
Definition is_fun (d : text * (list ty * ty)) : bool := match fst (snd d) with [] => false | _ => true end.
Section Inv.
Variable H : hashes.
Record inv (k : kst) (w : world) (uf : bool) : Prop := {
  iv_reach : reach H (c_tab (k_ctx k));
  iv_uf : k_uf k = uf;
  iv_scopes : scopes (c_lets (k_ctx k)) [[]];
  iv_names : Forall2 (sym_ok (c_tab (k_ctx k))) (c_names (k_ctx k)) (w_decl w);
  iv_index : NoDup (map (fun p => tix (snd p)) (c_names (k_ctx k)));
  iv_decls : c_decls (k_ctx k) = filter is_fun (w_decl w);
  iv_defs : forall n y, assoc (w_def w) n = Some y -> exists body, assoc (c_defs (k_ctx k)) n = Some ([], y, body) /\ has_type (c_tab (k_ctx k)) body y;
  iv_macros : forall n, assoc (w_def w) n = None -> ~ In n (w_macro w) -> assoc (c_defs (k_ctx k)) n = None;
  iv_used : NoDup (used w);
  iv_theory : Forall (fun n => n <> t_of "true" /\ n <> t_of "false" /\ assoc theory_ops n = None) (used w);
  iv_asserts : Forall (bool_t (c_tab (k_ctx k))) (k_asserts k) }.
Lemma inv_new : inv (k_new H) w_new false.
Proof. split; try (cbn; constructor; fail); try (cbn; discriminate); try reflexivity. exact new_scopes. Qed.

Lemma decl_name T names ds n d : Forall2 (sym_ok T) names ds -> assoc ds n = Some d -> exists t, assoc names n = Some t /\ sym_ok T (n, t) (n, d).
Proof.
  intros F. induction F as [|[a t] [b x] names ds S F IH]; cbn; [discriminate|]. destruct S as (S1 & S2). cbn in S1. subst b.
  destruct (text_eqb_spec a n) as [->|]; [|exact IH]. intros E. injection E as ->. exists t. split; auto. split; auto.
Qed.
Lemma name_decl T names ds n t : Forall2 (sym_ok T) names ds -> assoc names n = Some t -> exists d, assoc ds n = Some d /\ sym_ok T (n, t) (n, d).
Proof.
  intros F. induction F as [|[a u] [b x] names ds S F IH]; cbn; [discriminate|]. destruct S as (S1 & S2). cbn in S1. subst b.
  destruct (text_eqb_spec a n) as [->|]; [|exact IH]. intros E. injection E as ->. exists x. split; auto. split; auto.
Qed.
Lemma filter_assoc ds n d : NoDup (map fst ds) -> assoc ds n = Some d -> is_fun (n, d) = true -> assoc (filter is_fun ds) n = Some d.
Proof.
  intros ND A F. apply in_assoc.
  - clear - ND. induction ds as [|x ds IH]; cbn; [constructor|]. inversion ND as [|? ? N1 N2]; subst. destruct (is_fun x); cbn; auto. constructor; auto.
    intros I. apply N1. apply in_map_iff in I. destruct I as (z & E & I). apply filter_In in I. apply in_map_iff. exists z. tauto.
  - apply filter_In. split; auto. now apply assoc_in.
Qed.
Lemma filter_none ds n : (forall d, assoc ds n = Some d -> is_fun (n, d) = false) -> NoDup (map fst ds) -> assoc (filter is_fun ds) n = None.
Proof.
  intros N ND. apply assoc_none. intros I. apply in_map_iff in I. destruct I as ([a d] & E & I). cbn in E. subst a. apply filter_In in I. destruct I as [I F].
  rewrite (N d) in F; [discriminate|]. now apply in_assoc.
Qed.
Lemma used_parts k w uf : inv k w uf -> NoDup (map fst (w_decl w)) /\ (forall n, In n (map fst (w_decl w)) -> ~ In n (map fst (w_def w)) /\ ~ In n (w_macro w)) /\
  (forall n, In n (map fst (w_def w)) -> ~ In n (w_macro w)).
Proof.
  intros V. pose proof (iv_used _ _ _ V) as ND. unfold used in ND. clear V.
  assert (X : forall A (a b : list A), NoDup (a ++ b) -> NoDup a /\ NoDup b /\ forall x, In x a -> ~ In x b).
  { intros A a b. induction a as [|x a IH]; cbn; intros N; [repeat split; auto; constructor|]. inversion N as [|? ? N1 N2]; subst. destruct (IH N2) as (P & Q & R). rewrite in_app_iff in N1.
    repeat split; auto; [constructor; tauto|]. intros y [->|I]; auto. }
  destruct (X _ _ _ ND) as (P & Q & R). destruct (X _ _ _ Q) as (P2 & Q2 & R2). split; auto. split; auto. intros n I. specialize (R n I). rewrite in_app_iff in R. tauto.
Qed.
Lemma inv_describes k w uf : inv k w uf -> describes (k_ctx k) (sig_of w).
Proof.
  intros V. destruct (used_parts k w uf V) as (ND & DJ & DM). split.
  - intros n y E. cbn [sig_of sg_const] in E. unfold global. destruct (assoc (w_def w) n) as [y'|] eqn:WD.
    + injection E as ->. destruct (iv_defs _ _ _ V n y WD) as (body & A & B). rewrite A. eauto.
    + destruct (assoc (w_decl w) n) as [[[|s l] y']|] eqn:DC; try discriminate. injection E as ->.
      destruct (decl_name _ _ _ _ _ (iv_names _ _ _ V) DC) as (t & A & S). rewrite (iv_macros _ _ _ V n WD).
      * exists t. split; auto. apply S.
      * apply (DJ n). apply in_map_iff. exists (n, ([], y)). split; auto. now apply assoc_in.
  - intros n so ret E. cbn [sig_of sg_fun] in E. destruct (assoc (w_decl w) n) as [[[|s l] y']|] eqn:DC; try discriminate. injection E as <- <-.
    assert (I : In n (map fst (w_decl w))) by (apply in_map_iff; exists (n, (s :: l, y')); split; auto; now apply assoc_in). destruct (DJ n I) as [N1 N2].
    destruct (decl_name _ _ _ _ _ (iv_names _ _ _ V) DC) as (t & A & S). split; [apply (iv_macros _ _ _ V); auto; now apply assoc_none|].
    split; [rewrite (iv_decls _ _ _ V); now apply filter_assoc|]. destruct S as (S1 & S2 & S3 & S4 & S5). cbn in *. split; auto. exists t. split; auto. split; [eapply type_valid; eauto|auto].
  - intros n o E B. assert (NU : ~ In n (used w)). { intros I. pose proof (proj1 (Forall_forall _ _) (iv_theory _ _ _ V) n I) as (_ & _ & X). unfold builtin in B. rewrite X in B. discriminate. }
    unfold used in NU. rewrite !in_app_iff in NU. split.
    + apply (iv_macros _ _ _ V); [apply assoc_none; tauto|tauto].
    + rewrite (iv_decls _ _ _ V). apply assoc_none. intros I. apply NU. left. apply in_map_iff in I. destruct I as (z & Z & I). apply filter_In in I. apply in_map_iff. exists z. tauto.
Qed.

(** ** One command *)
Record grows (k k' : kst) : Prop := {
  gr_keeps : keeps (c_tab (k_ctx k)) (c_tab (k_ctx k'));
  gr_names : forall n t, assoc (c_names (k_ctx k)) n = Some t -> assoc (c_names (k_ctx k')) n = Some t;
  gr_defs : forall n d, assoc (c_defs (k_ctx k)) n = Some d -> assoc (c_defs (k_ctx k')) n = Some d }.
Lemma grows_refl k : grows k k. Proof. split; auto. apply keeps_refl. Qed.
Lemma grows_trans a b c : grows a b -> grows b c -> grows a c.
Proof. intros [A B C] [A' B' C']. split; auto. eapply keeps_trans; eauto. Qed.
Lemma sym_keeps T T' p d : keeps T T' -> sym_ok T p d -> sym_ok T' p d.
Proof.
  intros K (A & B & C & D & E). split; auto. split; [eapply keeps_type; eauto|]. split; auto. split; auto. destruct K as [K _]. destruct (K (snd p) (type_valid _ _ _ B)) as [_ N].
  unfold kind_of in *. now rewrite N.
Qed.
Lemma syms_keeps T T' names ds : keeps T T' -> Forall2 (sym_ok T) names ds -> Forall2 (sym_ok T') names ds.
Proof. intros K F. induction F; constructor; auto. eapply sym_keeps; eauto. Qed.
Lemma bools_keeps T T' ts : keeps T T' -> Forall (bool_t T) ts -> Forall (bool_t T') ts.
Proof. intros K F. induction F; constructor; auto. apply (keeps_type T T' _ TBool K); auto. Qed.
Lemma new_ok T y T' t : reach H T -> sort_ok y -> new_uninterpreted T y = (T', t) ->
  reach H T' /\ keeps T T' /\ has_type T' t y /\ tneg t = false /\ kind_of T' t = KUninterp /\ tix t = List.length (tt_nodes T).
Proof.
  intros R S E. destruct (new_wf H T y T' t (reach_wf H T R) S E) as (W & X & V & N & ND & IX). split; [eapply r_decl; eauto|]. split; [now apply ext_keeps|].
  split; [|split; auto; split; auto; unfold kind_of; now rewrite ND]. destruct S as [-> | ->]; cbn; unfold bool_t, real_t, type_of; rewrite ND; auto.
Qed.

(** the table grew *)
Lemma inv_tab k w uf L' T' : inv k w uf -> reach H T' -> keeps (c_tab (k_ctx k)) T' -> scopes L' [[]] ->
  inv (with_ctx k (mkCtx L' (c_defs (k_ctx k)) (c_decls (k_ctx k)) (c_names (k_ctx k)) T')) w uf.
Proof.
  intros V R K SC. destruct V. split; cbn; auto; [eapply syms_keeps; eauto| |eapply bools_keeps; eauto].
  intros n y E. destruct (iv_defs0 n y E) as (b & A & B). exists b. split; auto. eapply keeps_type; eauto.
Qed.
Lemma fresh_parts w n : fresh w n -> assoc (w_decl w) n = None /\ assoc (w_def w) n = None /\ ~ In n (w_macro w).
Proof. intros [N _]. unfold used in N. rewrite !in_app_iff in N. rewrite <- !assoc_none. tauto. Qed.
Lemma names_fst T names ds : Forall2 (sym_ok T) names ds -> map fst names = map fst ds.
Proof. induction 1 as [|p d ? ? S F IH]; cbn; [reflexivity|]. destruct S as [-> _]. congruence. Qed.
Lemma declare_const_ok k w uf n y C d : inv k w uf -> fresh w n -> sort_ok y -> declare_const (k_ctx k) y n = Ok C -> snd d = y ->
  is_fun (n, d) = false -> inv (with_ctx k C) (add_decl w n d) uf /\ grows k (with_ctx k C).
Proof.
  intros V F S E DY NF. destruct (fresh_parts w n F) as (FD & FF & FM). unfold declare_const in E. destruct (new_uninterpreted (c_tab (k_ctx k)) y) as [T' t] eqn:N.
  destruct (new_ok _ _ _ _ (iv_reach _ _ _ V) S N) as (R & K & HT & NG & KU & IX). unfold set_name in E. cbn [with_tab c_names] in E.
  assert (NN : tm_find (c_names (k_ctx k)) n = None). { rewrite <- assoc_find. apply assoc_none. rewrite (names_fst _ _ _ (iv_names _ _ _ V)). now apply assoc_none. }
  rewrite NN in E. cbn [assertb bind] in E. injection E as <-. split.
  - pose proof (inv_tab k w uf (c_lets (k_ctx k)) T' V R K (iv_scopes _ _ _ V)) as V'. destruct V'. destruct k as [[L df dc nm T] asr u ck]. cbn in *. split; cbn; auto.
    + constructor; auto. split; cbn; auto. rewrite DY. auto.
    + constructor; auto. rewrite IX. intros I. apply in_map_iff in I. destruct I as (p & E & I). pose proof (iv_names _ _ _ V) as FN. cbn in FN.
      assert (VA : valid T (snd p)). { clear - FN I. induction FN as [|a b l m S F IH]; [destruct I|]. destruct I as [->|I]; auto. destruct S as (_ & S & _). eapply type_valid; eauto. }
      destruct VA. lia.
    + rewrite NF. auto.
    + unfold used. cbn. constructor; [|exact iv_used0]. apply F.
    + unfold used. cbn. constructor; auto. apply F.
  - split; cbn; auto. intros m u A. destruct (text_eqb_spec n m) as [->|]; [|exact A]. rewrite assoc_find in A. congruence.
Qed.
Lemma declare_fun_ok k w uf n y ys C : inv k w uf -> fresh w n -> sort_ok y -> ys <> [] -> declare_fun (k_ctx k) y ys n = Ok C ->
  inv (with_ctx k C) (add_decl w n (ys, y)) uf /\ grows k (with_ctx k C).
Proof.
  intros V F S NE E. unfold declare_fun in E. destruct (declare_const (k_ctx k) y n) as [C1| |] eqn:DC; cbn [bind] in E; try discriminate.
  destruct (declare_const_ok k w uf n y C1 ([], y) V F S DC eq_refl eq_refl) as [V' G]. destruct (assertb _); cbn [bind] in E; try discriminate. injection E as <-.
  split; [|destruct G; split; auto]. destruct V'. cbn in *. split; cbn; auto.
  - inversion iv_names0; subst. constructor; auto.
  - destruct ys; [congruence|]. cbn. congruence.
Qed.
Lemma bind_vars_ok ps : forall C f fs, reach H (c_tab C) -> scopes (c_lets C) (f :: fs) -> Forall (fun p : text * ty => sort_ok (snd p)) ps ->
  forall env, local_types (c_tab C) f env -> exists bs C', bind_vars C ps = (map snd bs, C') /\ scopes (c_lets C') ((rev bs ++ f) :: fs) /\ reach H (c_tab C') /\
   keeps (c_tab C) (c_tab C') /\ c_defs C' = c_defs C /\ c_decls C' = c_decls C /\ c_names C' = c_names C /\ local_types (c_tab C') (rev bs ++ f) (rev ps ++ env).
Proof.
  induction ps as [|[n y] ps IH]; intros C f fs R SC F env LT; cbn [bind_vars].
  - exists [], C. repeat (split; auto). all: apply keeps_refl.
  - inversion F as [|? ? F1 F2]; subst. cbn in F1. destruct (new_uninterpreted (c_tab C) y) as [T' t] eqn:N. destruct (new_ok _ _ _ _ R F1 N) as (R' & K & HT & _).
    destruct (IH (mkCtx (add_binding (c_lets C) n t) (c_defs C) (c_decls C) (c_names C) T') ((n, t) :: f) fs R' (add_scopes _ _ _ _ _ SC) F2 ((n, y) :: env)) as (bs & C' & E & S' & R2 & K2 & D1 & D2 & D3 & LT2).
    { constructor; [split; auto|]. exact (local_types_keeps _ _ _ _ K LT). }
    rewrite E. exists ((n, t) :: bs), C'. cbn [rev map snd]. rewrite <- !app_assoc. cbn [app]. split; [reflexivity|]. split; [exact S'|]. split; [exact R2|]. split; [exact (keeps_trans _ _ _ K K2)|auto].
Qed.

(** *** values *)
Definition declared_by (k : kst) (ds : list (text * (list ty * ty))) (I : interp) (M : meaning) : Prop :=
  forall n sorts y t, In (n, (sorts, y)) ds -> assoc (c_names (k_ctx k)) n = Some t ->
    match sorts with
    | [] => mn_const M n = teval I (c_tab (k_ctx k)) t
    | _ => forall vs, mn_fun M n vs = match y with TReal => VR (i_freal I (tix t) vs) | _ => VB (i_fbool I (tix t) vs) end
    end.
Definition defs_by (k : kst) (w : world) (I : interp) (M : meaning) : Prop :=
  forall n y body, assoc (w_def w) n = Some y -> assoc (c_defs (k_ctx k)) n = Some ([], y, body) -> mn_const M n = teval I (c_tab (k_ctx k)) body.
Lemma inv_interprets k w uf I M : inv k w uf -> declared_by k (w_decl w) I M -> defs_by k w I M -> interprets (k_ctx k) (sig_of w) I M.
Proof.
  intros V DB FB. destruct (used_parts k w uf V) as (ND & DJ & DM). split.
  - intros n y t E G. cbn [sig_of sg_const] in E. unfold global in G. destruct (assoc (w_def w) n) as [y'|] eqn:WD.
    + injection E as ->. destruct (iv_defs _ _ _ V n y WD) as (body & A & B). rewrite A in G. injection G as <-. exact (FB n y body WD A).
    + destruct (assoc (w_decl w) n) as [[[|s l] y']|] eqn:DC; try discriminate. injection E as ->. apply assoc_in in DC.
      rewrite (iv_macros _ _ _ V n WD) in G; [exact (DB n [] y t DC G)|]. apply (DJ n). apply in_map_iff. exists (n, ([], y)). auto.
  - intros n so ret f vs E G. cbn [sig_of sg_fun] in E. destruct (assoc (w_decl w) n) as [[[|s l] y']|] eqn:DC; try discriminate. injection E as <- <-. apply assoc_in in DC.
    exact (DB n (s :: l) y' f DC G vs).
Qed.
Lemma declared_back k k' w uf ds I M : inv k w uf -> grows k k' -> incl (w_decl w) ds -> declared_by k' ds I M -> declared_by k (w_decl w) I M.
Proof.
  intros V G IN DB n so y t D N. pose proof (DB n so y t (IN _ D) (gr_names _ _ G _ _ N)) as X. destruct so; auto. rewrite X. apply (gr_keeps _ _ G).
  destruct (name_decl _ _ _ _ _ (iv_names _ _ _ V) N) as (d & A & S). destruct S as (_ & S & _). eapply type_valid; eauto.
Qed.
Lemma defs_forth k k' w w' uf I M : inv k w uf -> grows k k' -> w_def w' = w_def w -> defs_by k w I M -> defs_by k' w' I M.
Proof.
  intros V G E FB n y body WD CD. rewrite E in WD. destruct (iv_defs _ _ _ V n y WD) as (b & A & B). rewrite (gr_defs _ _ G _ _ A) in CD. injection CD as <-.
  rewrite (FB n y b WD A). symmetry. apply (gr_keeps _ _ G). eapply type_valid; eauto.
Qed.

Definition gives (k k' : kst) (w : world) (c : command) : Prop :=
  match c with
  | KAssert e => exists u, k_asserts k' = k_asserts k ++ [u] /\
      forall I M, interprets (k_ctx k) (sig_of w) I M -> teval I (c_tab (k_ctx k')) u = evalue (sig_of w) M [] e
  | KDefineFun n [] y e => k_asserts k' = k_asserts k /\ exists body, assoc (c_defs (k_ctx k')) (nm_text n) = Some ([], y, body) /\
      forall I M, interprets (k_ctx k) (sig_of w) I M -> teval I (c_tab (k_ctx k')) body = evalue (sig_of w) M [] e
  | _ => k_asserts k' = k_asserts k
  end.
Definition logic_of (uf : bool) (c : command) : bool := match c with KLogic b => b | _ => uf end.
Lemma inv_after k w uf C : inv k w uf -> reach H (c_tab C) -> after (k_ctx k) C [[]] -> inv (with_ctx k C) w uf /\ grows k (with_ctx k C).
Proof.
  intros V R A. destruct A as [K A B D SC]. split.
  - pose proof (inv_tab k w uf (c_lets C) (c_tab C) V R K SC) as V'. destruct C as [l d c n T]. cbn in *. now rewrite A, B, D.
  - split; cbn; auto; intros; congruence.
Qed.
Lemma step_ok k w uf c k' : inv k w uf -> command_ok w uf c -> c <> KExit -> effect H k c = Ok k' ->
  inv k' (declares w c) (logic_of uf c) /\ grows k k' /\ gives k k' w c.
Proof.
  intros V OK NX E. pose proof (inv_describes k w uf V) as DS. destruct c as [e| |n y|n ys y|n ps y e|b|kw v|kw v| |]; cbn [effect command_ok declares logic_of gives] in *;
    try (injection E as <-; split; [exact V|split; [apply grows_refl|reflexivity]]).
  - destruct OK as [DO TY]. destruct (build H (k_ctx k) e) as [[u C]| |] eqn:B; cbn [bind] in E; try discriminate. injection E as <-.
    destruct (sound_all H (sig_of w) e (k_ctx k) [[]] [] TBool u C (iv_reach _ _ _ V) DS (iv_scopes _ _ _ V) (Forall2_nil _) DO TY B) as (R & HT & AF & VL).
    destruct (inv_after k w uf C V R AF) as [V' G]. split; [|split].
    + destruct V'. split; cbn in *; auto. apply Forall_app. split; auto.
    + destruct G. split; auto.
    + exists u. split; [reflexivity|]. intros I M IT. cbn. exact (VL I M [] IT (Forall2_nil _)).
  - injection E as <-. split; [|split]; [|split; cbn; auto; apply keeps_refl|reflexivity]. destruct V. split; auto.
  - destruct OK as [F S]. destruct (declare_const (k_ctx k) y (nm_text n)) as [C| |] eqn:DC; cbn [bind] in E; try discriminate. injection E as <-.
    destruct (declare_const_ok k w uf (nm_text n) y C ([], y) V F S DC eq_refl eq_refl) as [V' G]. auto.
  - destruct OK as (F & S & FS & U). destruct ys as [|s ys].
    + destruct (declare_const (k_ctx k) y (nm_text n)) as [C| |] eqn:DC; cbn [bind] in E; try discriminate. injection E as <-.
      destruct (declare_const_ok k w uf (nm_text n) y C ([], y) V F S DC eq_refl eq_refl) as [V' G]. auto.
    + destruct U as [U|U]; [discriminate|]. rewrite (iv_uf _ _ _ V), U in E. destruct (declare_fun (k_ctx k) y (s :: ys) (nm_text n)) as [C| |] eqn:DC; cbn [bind] in E; try discriminate. injection E as <-.
      rewrite U in V. rewrite U. destruct (declare_fun_ok k w true (nm_text n) y (s :: ys) C V F S) as [V' G]; [discriminate|exact DC|]. auto.
  - destruct OK as (F & S & FS & DO & TY). destruct (fresh_parts w _ F) as (FD & FF & FM).
    assert (FS' : Forall (fun p : text * ty => sort_ok (snd p)) (params_env ps)). { unfold params_env. clear - FS. induction FS; constructor; auto. }
    destruct (bind_vars_ok (params_env ps) (with_lets (k_ctx k) (push_frame (c_lets (k_ctx k)))) [] [[]] (iv_reach _ _ _ V) (push_scopes _ _ (iv_scopes _ _ _ V)) FS' [] (Forall2_nil _))
      as (bs & C1 & EB & SC & R1 & K1 & D1 & D2 & D3 & LT). rewrite EB in E. cbn [with_lets c_tab c_defs c_decls c_names] in K1, D1, D2, D3.
    assert (AF1 : after (k_ctx k) C1 [rev bs ++ []; []]) by (split; auto).
    destruct (build H C1 e) as [[body C2]| |] eqn:B; cbn [bind] in E; try discriminate.
    assert (LT' : local_types (c_tab C1) (List.concat [rev bs ++ []; []]) (bind_new (params_env ps) [])). { cbn [List.concat]. rewrite !app_nil_r. unfold bind_new. rewrite !app_nil_r in *. exact LT. }
    destruct (sound_all H (sig_of w) e C1 _ _ y body C2 R1 (after_describes _ _ _ _ AF1 DS) SC LT' DO TY B) as (R2 & HT & AF2 & VL).
    pose proof (after_trans _ _ _ _ _ AF1 AF2) as AF. destruct (pop_scopes _ _ _ (af_scopes _ _ _ AF)) as (L & PL & SL); [discriminate|]. rewrite PL in E. cbn [bind] in E.
    unfold store_def in E. cbn [with_lets c_defs c_lets c_decls c_names c_tab] in E.
    assert (DN : assoc (c_defs (k_ctx k)) (nm_text n) = None) by (apply (iv_macros _ _ _ V); auto).
    destruct AF as [K A Bq D SCq]. rewrite A in E. rewrite <- assoc_find, DN in E. cbn [assertb bind] in E. injection E as <-.
    assert (G : grows k (with_ctx k (mkCtx L ((nm_text n, (map snd bs, y, body)) :: c_defs (k_ctx k)) (c_decls C2) (c_names C2) (c_tab C2)))).
    { split; cbn; auto; [rewrite D; auto|]. intros m d X. destruct (text_eqb_spec (nm_text n) m) as [<-|]; auto. congruence. }
    pose proof (inv_tab k w uf L (c_tab C2) V R2 K SL) as V'. rewrite <- Bq, <- D in V'.
    destruct ps as [|p ps].
    + cbn [params_env map] in EB. cbn [bind_vars] in EB. injection EB as EB1 EB2. destruct bs; [|discriminate]. split; [|split; [exact G|]].
      * destruct V'. cbn in *. split; cbn; auto.
        -- intros m y'. destruct (text_eqb_spec (nm_text n) m) as [<-|]; auto. intros X. injection X as <-. exists body. auto.
        -- intros m. destruct (text_eqb_spec (nm_text n) m) as [<-|]; [discriminate|]. auto.
        -- unfold used in *. cbn. apply NoDup_Add with (a := nm_text n) (l := map fst (w_decl w) ++ map fst (w_def w) ++ w_macro w); [apply Add_app|]. split; auto. apply F.
        -- unfold used in *. cbn. rewrite Forall_app in *. destruct iv_theory0. split; auto. constructor; auto. apply F.
      * split; [reflexivity|]. exists body. cbn. rewrite text_eqb_refl. split; auto. intros I M IT. apply VL; [|constructor]. exact (after_interprets _ _ _ _ _ _ AF1 DS IT).
    + split; [|split; [exact G|reflexivity]]. destruct V'. cbn in *. split; cbn; auto.
      * intros m y' X. destruct (text_eqb_spec (nm_text n) m) as [<-|]; auto. congruence.
      * intros m X Y. destruct (text_eqb_spec (nm_text n) m) as [<-|]; [exfalso; apply Y; now left|]. apply iv_macros0; auto.
      * unfold used in *. cbn. rewrite app_assoc in *. apply NoDup_Add with (a := nm_text n) (l := (map fst (w_decl w) ++ map fst (w_def w)) ++ w_macro w); [apply Add_app|]. split; auto. 
        destruct F as [F _]. unfold used in F. now rewrite app_assoc in F.
      * unfold used in *. cbn. rewrite !Forall_app in *. destruct iv_theory0 as (? & ? & ?). split; auto. split; auto. constructor; auto. apply F.
  - injection E as <-. split; [|split]; [|split; cbn; auto; apply keeps_refl|reflexivity]. destruct V. split; auto.
Qed.

(** ** Scripts *)
Lemma world_incl cs : forall w, incl (w_decl w) (w_decl (world_of w cs)) /\ incl (w_def w) (w_def (world_of w cs)).
Proof.
  induction cs as [|c cs IH]; intros w; [split; apply incl_refl|].
  assert (D : incl (w_decl w) (w_decl (declares w c)) /\ incl (w_def w) (w_def (declares w c))).
  { destruct c as [e| |n y|n ys y|n [|p ps] y e|b|kw v|kw v| |]; cbn; split; try apply incl_refl; apply incl_tl; apply incl_refl. }
  destruct D as [D1 D2]. destruct (IH (declares w c)) as [E1 E2]. destruct c; cbn [world_of]; try (split; [exact (incl_tran D1 E1)|exact (incl_tran D2 E2)]). split; apply incl_refl.
Qed.
Lemma effects_cons k c cs : c <> KExit -> effects H k (c :: cs) = (k' <- effect H k c ;; effects H k' cs).
Proof. destruct c; congruence || reflexivity. Qed.
Lemma script_cons w uf c cs : c <> KExit -> script_ok w uf (c :: cs) -> command_ok w uf c /\ script_ok (declares w c) (logic_of uf c) cs.
Proof. destruct c; congruence || (intros _ X; exact X). Qed.
Lemma world_cons w c cs : c <> KExit -> world_of w (c :: cs) = world_of (declares w c) cs.
Proof. destruct c; congruence || reflexivity. Qed.
Lemma run_ok cs : forall k w uf k', inv k w uf -> script_ok w uf cs -> effects H k cs = Ok k' -> exists uf', inv k' (world_of w cs) uf' /\ grows k k' /\
  forall I M, declared_by k' (w_decl (world_of w cs)) I M -> defs_by k w I M ->
    map (teval I (c_tab (k_ctx k'))) (k_asserts k') = map (teval I (c_tab (k_ctx k))) (k_asserts k) ++ asserted M w cs.
Proof.
  induction cs as [|c cs IH]; intros k w uf k' V OK E.
  - cbn [effects] in E. injection E as <-. exists uf. split; auto. split; [apply grows_refl|]. intros. cbn [asserted]. now rewrite app_nil_r.
  - assert (D : c = KExit \/ c <> KExit) by (destruct c; auto; right; discriminate). destruct D as [->|D].
    { cbn [effects] in E. injection E as <-. exists uf. split; auto. split; [apply grows_refl|]. intros. cbn [asserted]. now rewrite app_nil_r. }
    destruct (script_cons _ _ _ _ D OK) as [OC OS]. rewrite effects_cons in E by auto. destruct (effect H k c) as [k1| |] eqn:EF; cbn [bind] in E; try discriminate.
    destruct (step_ok k w uf c k1 V OC D EF) as (V1 & G1 & GV). destruct (IH k1 (declares w c) (logic_of uf c) k' V1 OS E) as (uf' & V' & G' & VL).
    rewrite world_cons by auto. exists uf'. split; auto. split; [eapply grows_trans; eauto|]. intros I M DB FB.
    destruct (world_incl cs (declares w c)) as [WI1 WI2].
    assert (WI0 : incl (w_decl w) (w_decl (world_of (declares w c) cs))). { eapply incl_tran; [|exact WI1]. destruct c as [e| |n y|n ys y|n [|p ps] y e|b|kw v|kw v| |]; cbn; try apply incl_refl; apply incl_tl; apply incl_refl. }
    assert (IT : interprets (k_ctx k) (sig_of w) I M). { eapply inv_interprets; eauto. apply (declared_back k k' w uf (w_decl (world_of (declares w c) cs)) I M); auto. eapply grows_trans; eauto. }
    assert (KP : map (teval I (c_tab (k_ctx k1))) (k_asserts k) = map (teval I (c_tab (k_ctx k))) (k_asserts k)).
    { apply map_ext_in. intros a IA. apply (gr_keeps _ _ G1). pose proof (proj1 (Forall_forall _ _) (iv_asserts _ _ _ V) a IA) as [X _]. exact X. }
    assert (PLAIN : k_asserts k1 = k_asserts k -> w_def (declares w c) = w_def w -> asserted M w (c :: cs) = asserted M (declares w c) cs ->
      map (teval I (c_tab (k_ctx k'))) (k_asserts k') = map (teval I (c_tab (k_ctx k))) (k_asserts k) ++ asserted M w (c :: cs)).
    { intros A B Cq. rewrite Cq, (VL I M DB), A, KP; auto. exact (defs_forth k k1 w _ uf I M V G1 B FB). }
    destruct c as [e| |n y|n ys y|n [|p ps] y e|b|kw v|kw v| |]; try congruence; try (apply PLAIN; [exact GV|reflexivity|reflexivity]).
    + destruct GV as (u & A & B). cbn [asserted declares] in *. rewrite (VL I M DB), A, map_app, KP, <- app_assoc by exact (defs_forth k k1 w _ uf I M V G1 eq_refl FB).
      cbn [map app]. now rewrite (B I M IT).
    + destruct GV as (A & body & B & Cq). cbn [asserted declares] in *. specialize (Cq I M IT). set (v := evalue (sig_of w) M [] e) in *.
      rewrite (VL I (define M (nm_text n) v)), A, KP; auto.
      * intros m so y' t DI N. specialize (DB m so y' t DI N). destruct so; [|exact DB]. cbn [define mn_const]. destruct (text_eqb_spec (nm_text n) m) as [<-|]; [|exact DB].
        exfalso. destruct (used_parts _ _ _ V') as (_ & DJ & _). destruct (DJ (nm_text n)) as [DJ1 _]; [apply in_map_iff; exists (nm_text n, ([], y')); auto|].
        apply DJ1. apply in_map_iff. exists (nm_text n, y). split; auto. apply WI2. now left.
      * intros m y' bd WD CD. cbn [define mn_const]. destruct (text_eqb_spec (nm_text n) m) as [<-|NE].
        -- cbn in WD. rewrite text_eqb_refl in WD. injection WD as <-. rewrite B in CD. injection CD as <-. now rewrite Cq.
        -- cbn in WD. destruct (text_eqb_spec (nm_text n) m); [congruence|]. destruct (iv_defs _ _ _ V m y' WD) as (b0 & A0 & B0). rewrite (gr_defs _ _ G1 _ _ A0) in CD. injection CD as <-.
           rewrite (FB m y' b0 WD A0). symmetry. apply (gr_keeps _ _ G1). eapply type_valid; eauto.
Qed.

(** ** From interpretations to meanings and back *)
Definition mean_of (k : kst) (w : world) (I : interp) : meaning :=
  mkMean (fun n => match assoc (c_names (k_ctx k)) n with Some t => teval I (c_tab (k_ctx k)) t | None => VB true end)
    (fun n vs => match assoc (c_names (k_ctx k)) n with
                 | Some t => match assoc (w_decl w) n with Some (_, TReal) => VR (i_freal I (tix t) vs) | _ => VB (i_fbool I (tix t) vs) end
                 | None => VB true
                 end).
Lemma mean_ok k w uf I : inv k w uf -> respects (w_decl w) (mean_of k w I) /\ declared_by k (w_decl w) I (mean_of k w I).
Proof.
  intros V. destruct (used_parts k w uf V) as (ND & _ & _). split.
  - intros n so y D. pose proof (in_assoc _ _ _ ND D) as AD. destruct (decl_name _ _ _ _ _ (iv_names _ _ _ V) AD) as (t & A & S). destruct S as (_ & S2 & _ & _ & S5). cbn in S2, S5.
    destruct so as [|s so]; cbn [mean_of mn_const mn_fun]; rewrite A.
    + destruct S5 as [-> | ->]; [rewrite (bool_value H _ I t (reach_wf H _ (iv_reach _ _ _ V)) S2)|rewrite (real_value H _ I t (reach_wf H _ (iv_reach _ _ _ V)) S2)]; reflexivity.
    + intros vs. rewrite AD. destruct S5 as [-> | ->]; reflexivity.
  - intros n so y t D N. pose proof (in_assoc _ _ _ ND D) as AD. destruct so; cbn [mean_of mn_const mn_fun]; rewrite N; [reflexivity|]. intros vs. now rewrite AD.
Qed.
Fixpoint name_at (names : list (text * term)) (i : nat) : text :=
  match names with [] => [] | (n, t) :: l => if tix t =? i then n else name_at l i end.
Lemma name_at_ok names n t : NoDup (map (fun p => tix (snd p)) names) -> In (n, t) names -> name_at names (tix t) = n.
Proof.
  induction names as [|[m u] l IH]; [intros _ []|]. cbn. intros ND [E|I].
  - injection E as -> ->. now rewrite Nat.eqb_refl.
  - inversion ND as [|? ? N1 N2]; subst. destruct (Nat.eqb_spec (tix u) (tix t)) as [E|]; [|auto]. exfalso. apply N1. rewrite E. apply in_map_iff. exists (n, t). auto.
Qed.
Definition interp_of (k : kst) (M : meaning) : interp :=
  let at_ i := name_at (c_names (k_ctx k)) i in
  mkI (fun i => as_b (mn_const M (at_ i))) (fun i => as_r (mn_const M (at_ i))) (fun i vs => as_b (mn_fun M (at_ i) vs)) (fun i vs => as_r (mn_fun M (at_ i) vs)).
Lemma interp_ok k w uf M : inv k w uf -> respects (w_decl w) M -> declared_by k (w_decl w) (interp_of k M) M.
Proof.
  intros V R n so y t D N. destruct (used_parts k w uf V) as (ND & _ & _). pose proof (in_assoc _ _ _ ND D) as AD.
  destruct (decl_name _ _ _ _ _ (iv_names _ _ _ V) AD) as (t' & A & S). rewrite N in A. injection A as <-. destruct S as (_ & S2 & S3 & S4 & S5). cbn in S2, S3, S4, S5.
  pose proof (name_at_ok _ n t (iv_index _ _ _ V) (assoc_in _ _ _ N)) as AT. specialize (R n so y D).
  destruct so as [|s so].
  - rewrite (teval_node H _ _ t (reach_wf H _ (iv_reach _ _ _ V)) (type_valid _ _ _ S2) S3). unfold node_value. unfold kind_of in S4. rewrite S4.
    pose proof (type_ty _ _ _ S2) as TY. unfold type_of in TY. rewrite TY. cbn [interp_of i_bool i_real]. rewrite AT. destruct S5 as [-> | ->]; destruct (mn_const M n); cbn in *; congruence.
  - intros vs. specialize (R vs). cbn [interp_of i_fbool i_freal]. rewrite AT. destruct S5 as [-> | ->]; destruct (mn_fun M n vs); cbn in *; congruence.
Qed.
Lemma holds_values T I ts : wf H T -> Forall (bool_t T) ts -> (Forall (fun a => tholds I T a = true) ts <-> Forall (eq (VB true)) (map (teval I T) ts)).
Proof.
  intros W F. induction F as [|t ts B F IH]; cbn [map]; [split; constructor|]. rewrite !Forall_cons_iff, IH, (bool_value H T I t W B). split; intros [X Y]; split; auto; congruence.
Qed.
Lemma script_main cs k' : script_ok w_new false cs -> effects H (k_new H) cs = Ok k' ->
  reach H (c_tab (k_ctx k')) /\ Forall (bool_t (c_tab (k_ctx k'))) (k_asserts k') /\
  ((exists I, Forall (fun a => tholds I (c_tab (k_ctx k')) a = true) (k_asserts k')) <-> script_sat cs).
Proof.
  intros OK E. destruct (run_ok cs (k_new H) w_new false k' inv_new OK E) as (uf' & V & G & VL). pose proof (iv_reach _ _ _ V) as R. pose proof (iv_asserts _ _ _ V) as BA.
  split; auto. split; auto. assert (FB : forall I M, defs_by (k_new H) w_new I M) by (intros I M n y b X; discriminate X). split.
  - intros (I & S). destruct (mean_ok k' _ uf' I V) as [RS DB]. exists (mean_of k' (world_of w_new cs) I). split; auto.
    apply (holds_values _ I _ (reach_wf H _ R) BA) in S. now rewrite (VL I _ DB (FB _ _)) in S.
  - intros (M & RS & S). exists (interp_of k' M). apply (holds_values _ _ _ (reach_wf H _ R) BA). now rewrite (VL _ M (interp_ok k' _ uf' M V RS) (FB _ _)).
Qed.

(** ** Calls of check-sat *)
Lemma effects_snoc pre : forall k c, Forall (fun c => c <> KExit) pre -> c <> KExit -> effects H k (pre ++ [c]) = (k' <- effects H k pre ;; effect H k' c).
Proof.
  induction pre as [|d pre IH]; intros k c F D; cbn [app].
  - rewrite effects_cons by auto. cbn [effects bind]. destruct (effect H k c); reflexivity.
  - inversion F; subst. rewrite !effects_cons by auto. destruct (effect H k d); cbn [bind]; auto.
Qed.
Lemma effect_checks k c k' : effect H k c = Ok k' -> k_checks k' = match c with KCheck => (k_asserts k, c_tab (k_ctx k)) :: k_checks k | _ => k_checks k end.
Proof.
  destruct c as [e| |n y|n ys y|n ps y e|b|kw v|kw v| |]; cbn [effect]; intros E; try (injection E as <-; reflexivity).
  - destruct (build H (k_ctx k) e) as [[u C]| |]; cbn [bind] in E; try discriminate. now injection E as <-.
  - destruct (declare_const _ _ _); cbn [bind] in E; try discriminate. now injection E as <-.
  - destruct ys; [destruct (declare_const _ _ _); cbn [bind] in E; try discriminate; now injection E as <-|]. destruct (k_uf k); [|now injection E as <-].
    destruct (declare_fun _ _ _ _); cbn [bind] in E; try discriminate; now injection E as <-.
  - destruct (bind_vars _ _) as [fo C1]. destruct (build H C1 e) as [[u C]| |]; cbn [bind] in E; try discriminate. destruct (pop_frame _); cbn [bind] in E; try discriminate.
    destruct (store_def _ _ _ _ _); cbn [bind] in E; try discriminate. now injection E as <-.
Qed.
Lemma checks_ok cs : forall pre k k', Forall (fun c => c <> KExit) pre -> effects H (k_new H) pre = Ok k -> effects H k cs = Ok k' ->
  exists l, k_checks k' = rev l ++ k_checks k /\ Forall2 (fun p x => exists km, effects H (k_new H) p = Ok km /\ x = (k_asserts km, c_tab (k_ctx km))) (checked pre cs) l.
Proof.
  induction cs as [|c cs IH]; intros pre k k' F EP E.
  - cbn [effects] in E. injection E as <-. exists []. split; [reflexivity|constructor].
  - assert (D : c = KExit \/ c <> KExit) by (destruct c; auto; right; discriminate). destruct D as [->|D].
    { cbn [effects] in E. injection E as <-. exists []. split; [reflexivity|constructor]. }
    rewrite effects_cons in E by auto. destruct (effect H k c) as [k1| |] eqn:EF; cbn [bind] in E; try discriminate. pose proof (effect_checks _ _ _ EF) as CK.
    assert (EP' : effects H (k_new H) (pre ++ [c]) = Ok k1) by (rewrite effects_snoc, EP by auto; exact EF).
    destruct (IH (pre ++ [c]) k1 k') as (l & A & B); auto; [apply Forall_app; split; auto|].
    destruct c as [e| |n y|n ys y|n ps y e|b|kw v|kw v| |]; try congruence; try (exists l; split; [rewrite A, CK; reflexivity|exact B]).
    exists ((k_asserts k, c_tab (k_ctx k)) :: l). split; [rewrite A, CK; cbn [rev]; now rewrite <- app_assoc|]. cbn [checked]. constructor; [exists k; auto|exact B].
Qed.
Lemma script_pre cs : forall w uf pre, Forall (fun c => c <> KExit) pre -> script_ok w uf (pre ++ cs) -> script_ok w uf pre.
Proof.
  intros w uf pre F. revert w uf. induction F as [|c pre D F IH]; intros w uf OK; [exact I|]. cbn [app] in OK. destruct (script_cons _ _ _ _ D OK) as [A B]. specialize (IH _ _ B).
  destruct c; try congruence; split; auto.
Qed.
Lemma checked_pre cs : forall pre p, Forall (fun c => c <> KExit) pre -> In p (checked pre cs) -> Forall (fun c => c <> KExit) p /\ exists r, pre ++ cs = p ++ r.
Proof.
  induction cs as [|c cs IH]; intros pre p F I; [destruct I|]. assert (D : c = KExit \/ c <> KExit) by (destruct c; auto; right; discriminate). destruct D as [->|D]; [destruct I|].
  assert (X : (p = pre /\ c = KCheck) \/ In p (checked (pre ++ [c]) cs)) by (destruct c; auto; destruct I; auto). destruct X as [[-> _]|X]; [split; eauto|].
  destruct (IH (pre ++ [c]) p) as (A & r & B); auto; [apply Forall_app; split; auto|]. split; auto. exists r. rewrite <- B, <- app_assoc. reflexivity.
Qed.

(** ** A result is returned *)
Lemma step_total k w uf c : inv k w uf -> command_ok w uf c -> command_simple w c -> c <> KExit -> exists k', effect H k c = Ok k'.
Proof.
  intros V OK SI NX. pose proof (inv_describes k w uf V) as DS.
  assert (DC : forall n y, fresh w n -> sort_ok y -> exists C, declare_const (k_ctx k) y n = Ok C).
  { intros n y F S. destruct (fresh_parts w n F) as (FD & _). unfold declare_const. destruct (new_uninterpreted (c_tab (k_ctx k)) y) as [T' t]. unfold set_name. cbn [with_tab c_names].
    assert (NN : tm_find (c_names (k_ctx k)) n = None). { rewrite <- assoc_find. apply assoc_none. rewrite (names_fst _ _ _ (iv_names _ _ _ V)). now apply assoc_none. }
    rewrite NN. cbn [assertb bind]. eauto. }
  destruct c as [e| |n y|n ys y|n ps y e|b|kw v|kw v| |]; cbn [effect command_ok command_simple] in *; eauto.
  - destruct OK as [DO TY]. destruct (total_all H (sig_of w) e (k_ctx k) [[]] [] TBool (iv_reach _ _ _ V) DS (iv_scopes _ _ _ V) (Forall2_nil _) DO TY SI) as (t & C & ->). cbn. eauto.
  - destruct OK as [F S]. destruct (DC _ y F S) as (C & ->). cbn. eauto.
  - destruct OK as (F & S & _). destruct (DC _ y F S) as (C & EC). destruct ys; [rewrite EC; cbn; eauto|]. destruct (k_uf k); eauto. unfold declare_fun. rewrite EC. cbn [bind].
    assert (NN : tm_find (c_decls C) (nm_text n) = None).
    { unfold declare_const in EC. destruct (new_uninterpreted (c_tab (k_ctx k)) y) as [T' u]. unfold set_name in EC. destruct (assertb _); cbn in EC; try discriminate. injection EC as <-. cbn.
      rewrite (iv_decls _ _ _ V), <- assoc_find. apply filter_none; [|apply (used_parts k w uf V)]. intros d X. destruct (fresh_parts w _ F) as (FD & _). congruence. }
    rewrite NN. cbn. eauto.
  - destruct OK as (F & S & FS & DO & TY). destruct (fresh_parts w _ F) as (FD & FF & FM).
    assert (FS' : Forall (fun p : text * ty => sort_ok (snd p)) (params_env ps)). { unfold params_env. clear - FS. induction FS; constructor; auto. }
    destruct (bind_vars_ok (params_env ps) (with_lets (k_ctx k) (push_frame (c_lets (k_ctx k)))) [] [[]] (iv_reach _ _ _ V) (push_scopes _ _ (iv_scopes _ _ _ V)) FS' [] (Forall2_nil _))
      as (bs & C1 & EB & SC & R1 & K1 & D1 & D2 & D3 & LT). rewrite EB. cbn [with_lets c_tab c_defs c_decls c_names] in K1, D1, D2, D3.
    assert (AF1 : after (k_ctx k) C1 [rev bs ++ []; []]) by (split; auto).
    assert (LT' : local_types (c_tab C1) (List.concat [rev bs ++ []; []]) (bind_new (params_env ps) [])). { cbn [List.concat]. rewrite !app_nil_r. unfold bind_new. rewrite !app_nil_r in *. exact LT. }
    destruct (total_all H (sig_of w) e C1 _ _ y R1 (after_describes _ _ _ _ AF1 DS) SC LT' DO TY SI) as (body & C2 & B). rewrite B. cbn [bind].
    destruct (sound_all H (sig_of w) e C1 _ _ y body C2 R1 (after_describes _ _ _ _ AF1 DS) SC LT' DO TY B) as (R2 & HT & AF2 & VL).
    pose proof (after_trans _ _ _ _ _ AF1 AF2) as AF. destruct (pop_scopes _ _ _ (af_scopes _ _ _ AF)) as (L & PL & SL); [discriminate|]. rewrite PL. cbn [bind].
    unfold store_def. cbn [with_lets c_defs]. rewrite (af_defs _ _ _ AF), <- assoc_find, (iv_macros _ _ _ V) by auto. cbn. eauto.
Qed.
Lemma run_total cs : forall k w uf, inv k w uf -> script_ok w uf cs -> script_simple w cs -> exists k', effects H k cs = Ok k'.
Proof.
  induction cs as [|c cs IH]; intros k w uf V OK SI; [cbn; eauto|]. assert (D : c = KExit \/ c <> KExit) by (destruct c; auto; right; discriminate). destruct D as [->|D]; [cbn; eauto|].
  destruct (script_cons _ _ _ _ D OK) as [OC OS]. assert (S2 : command_simple w c /\ script_simple (declares w c) cs) by (destruct c; congruence || exact SI).
  destruct S2 as [S1 S2]. destruct (step_total k w uf c V OC S1 D) as (k1 & E). rewrite effects_cons, E by auto. cbn [bind].
  destruct (step_ok k w uf c k1 V OC D E) as (V1 & _). exact (IH _ _ _ V1 OS S2).
Qed.
End Inv.
Lemma script_sorts cs : forall w uf, script_ok w uf cs -> csorts cs.
Proof.
  induction cs as [|c cs IH]; intros w uf OK; [exact I|]. assert (D : c = KExit \/ c <> KExit) by (destruct c; auto; right; discriminate). destruct D as [->|D]; [exact I|].
  destruct (script_cons _ _ _ _ D OK) as [A B]. specialize (IH _ _ B). destruct c; try congruence; split; auto; cbn in *; tauto.
Qed.
