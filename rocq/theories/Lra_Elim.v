(** Elimination of the unassigned variables from a recorded bound: it succeeds, follows from the
    constraints whose literals are collected, and says the same about the variable as the bound. *)
From Coq Require Import List Arith ZArith QArith Bool Lia Permutation Lqa.
From Verif Require Import Base Core_Model Sort_Proofs Trail_Model Lincons_Model Spec_Lincons Lincons_Proofs
  Lincons_Proofs2 Lra_Model Spec_Lra Lra_Fm Lra_Bounds Lra_Hist Lra_Steps Lra_Good Lra_Good2.
Import ListNotations.
Open Scope nat_scope.
Arguments Qred : simpl never.
Arguments Qmult : simpl never.
Arguments Qplus : simpl never.
Arguments Qminus : simpl never.
Arguments Qopp : simpl never.
Arguments Qdiv : simpl never.

Fixpoint elim_go (s : store) (qm : model Q) (ds : list bound) (f : fm) (cl : clause) : res (fm * clause) :=
  match ds with
  | [] => Ok (f, cl)
  | d :: ds' =>
      if mdef qm (b_var d) then elim_go s qm ds' f cl
      else '(g, cl1) <- eliminate s qm d ;;
           f1 <- fm_resolve f g (b_var d) ;;
           elim_go s qm ds' f1 (cl ++ cl1)
  end.
Lemma eliminate_eq s qm b : eliminate s qm b =
  (f <- fm_init s (b_cons b) ;; elim_go s qm (b_deps b) f [neg (lc_lit (b_cons b))]).
Proof.
  destruct b as [x v c deps ct vt]. cbn [eliminate b_cons b_deps]. destruct (fm_init s c) as [f| |]; cbn [bind]; auto.
  generalize [neg (lc_lit c)]. revert f. induction deps as [|d ds IH]; intros f cl; [reflexivity|].
  cbn [elim_go]. destruct (mdef qm (b_var d)); [apply IH|].
  destruct (eliminate s qm d) as [[g cl1]| |]; cbn [bind]; auto.
  destruct (fm_resolve f g (b_var d)) as [f1| |]; cbn [bind]; auto.
Qed.

Definition ext (qm : model Q) (r : nat -> Q) : Prop := forall y, mdef qm y = true -> (r y == mval qm y)%Q.
Definition dirsgn (up : bool) (k : Q) : Prop := if up then (0 < k)%Q else (k < 0)%Q.
Definition lits (cs : list lcons) : clause := map (fun c => neg (lc_lit c)) cs.
Definition reason (s : store) (t : trail) (c : lcons) : Prop :=
  stored s c /\ eval_lit (t_bm t) (lc_lit c) = Some true /\ lc_empty c = false.

Record elim (s : store) (t : trail) (up : bool) (b : bound) (f : fm) (cs : list lcons) : Prop := {
  el_eq : eliminate s (t_qm t) b = Ok (f, lits cs);
  el_wf : fm_wf f;
  el_vars : forall y, In y (map fst (fm_terms f)) -> y = b_var b \/ mdef (t_qm t) y = true;
  el_in : In (b_var b) (map fst (fm_terms f));
  el_sgn : fm_pred f = PEq \/ dirsgn up (coef_sum (b_var b) (fm_terms f));
  el_dir : forall r, ext (t_qm t) r -> fm_holds r f -> dirholds up b (r (b_var b));
  el_rsn : Forall (reason s t) cs;
  el_snd : forall r, (forall c, In c cs -> lc_holds s r c) -> fm_holds r f }.

Lemma coef_nonzero x ts : NoDup (map fst ts) -> Forall (fun u => ~ snd u == 0)%Q ts ->
  (In x (map fst ts) <-> ~ (coef_sum x ts == 0)%Q).
Proof.
  intros N Z. split.
  - intros H. apply in_map_iff in H. destruct H as ([w c] & E & H). cbn in E. subst w.
    rewrite (coef_sum_in x ts c N H). rewrite Forall_forall in Z. apply (Z (x, c) H).
  - intros H. destruct (in_dec Nat.eq_dec x (map fst ts)) as [I|I]; auto. exfalso. apply H. now apply coef_sum_notin.
Qed.
Lemma coef_at_sum x ts a : NoDup (map fst ts) -> coef_at x ts = Some a -> (coef_sum x ts == a)%Q.
Proof.
  intros N H. apply coef_sum_in; auto. clear N. induction ts as [|[w c] ts IH]; cbn in H; [discriminate|].
  destruct (Nat.eqb_spec w x) as [->|]; [left; congruence|right; auto].
Qed.
Lemma dirholds_eq up b v v' : (v == v')%Q -> dirholds up b v -> dirholds up b v'.
Proof. intros E. unfold dirholds, below, above. destruct up, (b_strict b); rewrite E; auto. Qed.
Lemma nonempty_in s c y : In y (map fst (lc_terms s c)) -> lc_empty c = false.
Proof.
  intros Hi. unfold lc_empty, lc_size.
  destruct (lc_pos c) as [i j] eqn:Ep. cbn [fst snd]. unfold lc_terms, lc_vars, lc_coef in Hi. rewrite Ep in Hi.
  unfold slice in Hi. cbn [fst snd] in Hi. destruct (Nat.leb_spec j i) as [L|L]; [|reflexivity].
  exfalso. replace (j - i) with 0 in Hi by lia. exact Hi.
Qed.
Lemma qdiv_sign a b : ~ (b == 0)%Q -> (qltb (- a / b) 0 = true <-> (0 < a * b)%Q).
Proof.
  intros Hb. rewrite qltb_lt.
  assert (E : (- a / b * (b * b) == - (a * b))%Q) by (field; exact Hb).
  assert (P : (0 < b * b)%Q) by nra. split; intros H; nra.
Qed.

Section El.
Context (s : store) (t : trail) (B : bnds) (HI : linv s t B).
Notation qm := (t_qm t).

(** state of the loop over the dependencies of [b]: [pr] processed, [ds] left *)
Record elst (up : bool) (b : bound) (pr ds : list bound) (f : fm) (cs : list lcons) : Prop := {
  es_wf : fm_wf f;
  es_vars : forall y, In y (map fst (fm_terms f)) -> y = b_var b \/ mdef qm y = true \/
              (exists d, In d ds /\ b_var d = y);
  es_sgn : forall y, mdef qm y = false -> y = b_var b \/ (exists d, In d ds /\ b_var d = y) ->
              let k := coef_sum y (fm_terms f) in let a := cf y (bterms s b) in
              (fm_pred f = PEq /\ (k == a)%Q) \/
              (fm_pred f <> PEq /\ (if sg s up b then 0 < k * a else k * a < 0)%Q);
  es_rsn : Forall (reason s t) cs;
  es_snd : forall r, (forall c, In c cs -> lc_holds s r c) -> fm_holds r f;
  es_cmp : forall r, ext qm r -> fm_holds r f -> exists r',
              (forall y, (forall d, In d pr -> mdef qm (b_var d) = false -> b_var d <> y) -> r' y = r y) /\
              lc_holds s r' (b_cons b) /\
              (forall d, In d pr -> mdef qm (b_var d) = false -> dirholds (depdir s up b d) d (r' (b_var d))) }.

Lemma cf_nonzero b y : stored s (b_cons b) -> In y (map fst (bterms s b)) -> ~ (cf y (bterms s b) == 0)%Q.
Proof.
  intros Hc H. pose proof (stored_norm s _ (li_s _ _ _ HI) Hc) as NT.
  apply in_map_iff in H. destruct H as ([w c] & E & H). cbn in E. subst w.
  rewrite (cf_in y c _ (nt_nodup _ NT) H). apply (nt_nz _ NT (y, c) H).
Qed.

Lemma elst_init up b : nodev s t b -> dirok s up b -> node_obs s t b = false ->
  (forall y, In y (map fst (bterms s b)) -> y <> b_var b -> ~ (exists d, In d (b_deps b) /\ b_var d = y) -> mdef qm y = true) ->
  exists f, fm_init s (b_cons b) = Ok f /\ elst up b [] (b_deps b) f [b_cons b].
Proof.
  intros N D O HO. pose proof (nv_stored _ _ _ N) as Hc.
  pose proof (stored_norm s _ (li_s _ _ _ HI) Hc) as NT.
  assert (Hp : lc_pred (b_cons b) = PEq -> lneg (lc_lit (b_cons b)) = false).
  { intros E. unfold dirok in D. now rewrite E in D. }
  assert (He : lc_empty (b_cons b) = false) by (eapply nonempty_in, (nv_in _ _ _ N)).
  assert (F : exists f, fm_init s (b_cons b) = Ok f).
  { unfold fm_init, fm_init_with. rewrite He. cbn [negb assertb bind].
    destruct (lc_pred (b_cons b)) eqn:Ep; cbn [opred_eqb negb orb]; [rewrite Hp by auto|..]; cbn [negb orb assertb bind]; eauto. }
  destruct F as [f F]. exists f. split; [exact F|].
  destruct (init_inv _ _ _ F) as (_ & P & T & C).
  set (k := (if lneg (lc_lit (b_cons b)) then -1 else 1)%Q) in *.
  assert (K : ~ (k == 0)%Q) by (unfold k; destruct (lneg _); lra).
  assert (MF : map fst (fm_terms f) = map fst (bterms s b)) by (rewrite T, map_map; reflexivity).
  constructor.
  - split; [rewrite MF; apply NT|]. rewrite T. apply Forall_forall. intros u Hu. apply in_map_iff in Hu.
    destruct Hu as (w & <- & Hw). cbn [snd]. pose proof (nt_nz _ NT w Hw). intros E. apply Qmult_integral in E. tauto.
  - intros y. rewrite MF. intros Hy. destruct (Nat.eq_dec y (b_var b)) as [E|E]; auto. right.
    destruct (existsb (fun d => b_var d =? y) (b_deps b)) eqn:Ee.
    + right. apply existsb_exists in Ee. destruct Ee as (d & Hd & Ed). apply Nat.eqb_eq in Ed. eauto.
    + left. apply HO; auto. intros (d & Hd & Ed). rewrite <- not_true_iff_false in Ee. apply Ee. apply existsb_exists.
      exists d. split; auto. now apply Nat.eqb_eq.
  - intros y Hy Hin. cbn zeta.
    assert (Hb : In y (map fst (bterms s b))).
    { destruct Hin as [->|(d & Hd & <-)]; [apply (nv_in _ _ _ N)|]. now apply (nv_deps _ _ _ N). }
    pose proof (cf_nonzero b y Hc Hb) as CN.
    assert (CK : (coef_sum y (fm_terms f) == k * cf y (bterms s b))%Q).
    { rewrite T. unfold coef_sum. rewrite lin_map. fold (coef_sum y (bterms s b)). rewrite cf_sum by apply NT. reflexivity. }
    unfold dirok in D. rewrite P. unfold k in CK. set (a := cf y (bterms s b)) in *. clearbody a.
    assert (AA : (0 < a * a)%Q) by nra.
    destruct (lc_pred (b_cons b)) eqn:Ep.
    + rewrite (Hp eq_refl) in *. left. split; [reflexivity|]. rewrite CK. ring.
    + right. rewrite D. destruct (lneg (lc_lit (b_cons b))); cbn [negb]; (split; [discriminate|]); rewrite CK; nra.
    + right. rewrite D. destruct (lneg (lc_lit (b_cons b))); cbn [negb]; (split; [discriminate|]); rewrite CK; nra.
  - constructor; [|constructor]. split; [exact Hc|]. split; [|exact He]. unfold node_obs in O. rewrite !orb_false_iff in O.
    destruct O as [[O _] _]. apply negb_false_iff in O. unfold is_true in O.
    destruct (eval_lit _ _) as [[|]|]; auto; discriminate.
  - intros r H. apply (init_holds _ _ _ r F). apply H. now left.
  - intros r _ H. exists r. split; [auto|]. split; [apply (init_holds _ _ _ r F), H|]. intros d [].
Qed.

Lemma elst_step up b pr d ds f cs : nodev s t b -> mdef qm (b_var b) = false -> b_deps b = pr ++ d :: ds ->
  elst up b pr (d :: ds) f cs -> mdef qm (b_var d) = false ->
  forall g cs1, elim s t (depdir s up b d) d g cs1 ->
  exists f1, fm_resolve f g (b_var d) = Ok f1 /\ elst up b (pr ++ [d]) ds f1 (cs ++ cs1).
Proof.
  intros N Hx Ed E Hd g cs1 G. destruct E as [WF VF SG RS SN CM]. destruct G as [GE GW GV GI GS GD GR GN].
  assert (Hin : In d (b_deps b)) by (rewrite Ed; apply in_or_app; right; now left).
  destruct (nv_deps _ _ _ N d Hin) as [Dx Dt].
  pose proof (cf_nonzero b (b_var d) (nv_stored _ _ _ N) Dt) as CN.
  pose proof (nv_nd _ _ _ N) as ND. rewrite Ed, map_app in ND. cbn [map] in ND.
  pose proof (SG (b_var d) Hd (or_intror (ex_intro _ d (conj (or_introl eq_refl) eq_refl)))) as SD. cbn zeta in SD.
  set (a := coef_sum (b_var d) (fm_terms f)) in *. set (bb := coef_sum (b_var d) (fm_terms g)) in *.
  set (ad := cf (b_var d) (bterms s b)) in *.
  assert (AN : ~ (a == 0)%Q). { destruct SD as [[_ E]|[_ E]]; [now rewrite E|]. intros Z. destruct (sg s up b); rewrite Z in E; lra. }
  assert (FI : In (b_var d) (map fst (fm_terms f))) by (apply coef_nonzero; [apply WF|apply WF|exact AN]).
  assert (BN : ~ (bb == 0)%Q) by (apply coef_nonzero; [apply GW|apply GW|exact GI]).
  assert (DD : dirsgn (depdir s up b d) bb -> if sg s up b then (ad * bb < 0)%Q else (0 < ad * bb)%Q).
  { unfold depdir, dirsgn. fold ad. destruct (sg s up b).
    - destruct (qltb ad 0) eqn:E; [apply qltb_lt in E|apply qltb_ge in E]; intros; nra.
    - destruct (qltb 0 ad) eqn:E; [apply qltb_lt in E|apply qltb_ge in E]; intros; nra. }
  assert (RV : resolvable f g (b_var d)).
  { destruct SD as [[E _]|[NE SD]]; [now left|]. destruct GS as [E|GS]; [right; now left|]. right. right.
    intros a' b' Ha Hb. apply (coef_sum_in _ _ _ (proj1 WF)) in Ha. apply (coef_sum_in _ _ _ (proj1 GW)) in Hb.
    rewrite <- Ha, <- Hb. fold a bb. specialize (DD GS). destruct (sg s up b); clear - SD DD CN; nra. }
  destruct (resolve_total f g (b_var d) WF GW FI GI) as [f1 R]. exists f1. split; [exact R|].
  destruct (resolve_inv _ _ _ _ R) as (a' & b' & Ea & Eb & Ex & Ep & ND1 & NZ1 & V1 & C1 & _).
  apply (coef_at_sum _ _ _ (proj1 WF)) in Ea. apply (coef_at_sum _ _ _ (proj1 GW)) in Eb. fold a in Ea. fold bb in Eb.
  assert (XN : ~ In (b_var d) (map fst (fm_terms f1))).
  { intros H. rewrite coef_nonzero in H by auto. apply H. apply coef_sum_notin. intros H'.
    clear - Ex H'. induction (fm_terms f1) as [|[w c] ts IH]; cbn in *; [tauto|].
    destruct (Nat.eqb_spec w (b_var d)); [discriminate|]. destruct H' as [?|?]; [congruence|auto]. }
  assert (NDd : ~ In (b_var d) (map b_var pr) /\ ~ In (b_var d) (map b_var ds)).
  { apply NoDup_remove_2 in ND. rewrite in_app_iff in ND. tauto. }
  constructor.
  - split; auto.
  - intros y Hy. assert (Hyd : y <> b_var d) by (intros ->; tauto).
    apply in_map_iff in Hy. destruct Hy as (u & <- & Hu). destruct (V1 u Hu) as [H|H].
    + destruct (VF _ H) as [?|[?|(e & [<-|He] & Ee)]]; [auto|auto|congruence|right; right; eauto].
    + destruct (GV _ H); [congruence|auto].
  - intros y Hy Hyin. cbn zeta.
    assert (Yd : y <> b_var d).
    { destruct Hyin as [->|(e & He & <-)]; [congruence|]. intros E. apply (proj2 NDd). rewrite <- E. now apply in_map. }
    assert (Gy : (coef_sum y (fm_terms g) == 0)%Q).
    { apply coef_sum_notin. intros H. destruct (GV _ H); congruence. }
    specialize (C1 y). rewrite Gy in C1.
    assert (Hyin' : y = b_var b \/ exists e, In e (d :: ds) /\ b_var e = y).
    { destruct Hyin as [?|(e & He & Ee)]; [auto|right; exists e; split; [now right|auto]]. }
    specialize (SG y Hy Hyin'). cbn zeta in SG.
    set (ky := coef_sum y (fm_terms f)) in *. set (ay := cf y (bterms s b)) in *.
    assert (AY : ~ (ay == 0)%Q).
    { apply (cf_nonzero b y (nv_stored _ _ _ N)). destruct Hyin' as [->|(e & He & <-)]; [apply (nv_in _ _ _ N)|].
      apply (nv_deps _ _ _ N e). rewrite Ed. apply in_or_app. now right. }
    unfold flipped in C1. rewrite Ep.
    assert (FL : qltb (- a' / b') 0 = true <-> (0 < a * bb)%Q).
    { rewrite Ea, Eb. apply qdiv_sign. now rewrite <- Eb. }
    destruct SD as [[Pf SD]|[Pf SD]]; destruct SG as [[Pf' SG]|[Pf' SG]]; try contradiction.
    + destruct (fm_pred g) eqn:Pg; rewrite Pf in *; cbn [fm_combine opred_eqb negb andb] in *.
      * left. split; [reflexivity|]. rewrite andb_false_r in C1. rewrite C1, SG. ring.
      * right. split; [discriminate|]. destruct GS as [?|GS]; [discriminate|]. specialize (DD GS).
        rewrite andb_true_r in C1. destruct (sg s up b).
        -- destruct (qltb (- a' / b') 0); [exfalso; destruct FL as [FL _]; specialize (FL eq_refl); rewrite SD in FL; lra|].
           rewrite C1, SG. clear - AY. nra.
        -- destruct (qltb (- a' / b') 0); [|exfalso; destruct FL as [_ FL]; rewrite SD in FL; specialize (FL DD); discriminate].
           rewrite C1, SG. clear - AY. nra.
      * right. split; [discriminate|]. destruct GS as [?|GS]; [discriminate|]. specialize (DD GS).
        rewrite andb_true_r in C1. destruct (sg s up b).
        -- destruct (qltb (- a' / b') 0); [exfalso; destruct FL as [FL _]; specialize (FL eq_refl); rewrite SD in FL; lra|].
           rewrite C1, SG. clear - AY. nra.
        -- destruct (qltb (- a' / b') 0); [|exfalso; destruct FL as [_ FL]; rewrite SD in FL; specialize (FL DD); discriminate].
           rewrite C1, SG. clear - AY. nra.
    + right. split; [destruct (fm_pred f), (fm_pred g); cbn; congruence|].
      assert (NF : qltb (- a' / b') 0 && negb (opred_eqb (fm_pred g) PEq) = false).
      { destruct (fm_pred g) eqn:Pg; cbn [opred_eqb negb]; [apply andb_false_r|..];
          (destruct GS as [?|GS]; [discriminate|]); specialize (DD GS); rewrite andb_true_r;
          rewrite <- not_true_iff_false; intros Z; apply FL in Z; destruct (sg s up b); clear - SD DD Z CN; nra. }
      rewrite NF in C1. destruct (sg s up b); rewrite C1; clear - SG; nra.
  - apply Forall_app. split; auto.
  - intros r H. apply (resolve_sound f g (b_var d) f1 r); auto.
    + apply SN. intros c Hc. apply H, in_or_app. now left.
    + apply GN. intros c Hc. apply H, in_or_app. now right.
  - intros r Hr H. destruct (resolve_complete f g (b_var d) f1 r R WF GW RV H) as (v & Hf & Hg).
    assert (Hr' : ext qm (upd r (b_var d) v)).
    { intros y Hy. unfold upd. destruct (Nat.eqb_spec y (b_var d)) as [->|]; [congruence|auto]. }
    destruct (CM _ Hr' Hf) as (r' & A1 & A2 & A3). exists r'.
    assert (Rd : r' (b_var d) = v).
    { rewrite A1; [apply upd_eq|]. intros e He _ Ee. apply (proj1 NDd). rewrite <- Ee. now apply in_map. }
    split; [|split; [exact A2|]].
    + intros y Hy. rewrite A1; [|intros e He; apply Hy, in_or_app; now left].
      rewrite upd_neq; auto. intros E. subst y. apply (Hy d); auto. apply in_or_app. right. now left.
    + intros e He Hed. apply in_app_or in He. destruct He as [He|[<-|[]]]; [auto|]. rewrite Rd.
      specialize (GD _ Hr' Hg). now rewrite upd_eq in GD.
Qed.

Lemma elst_skip up b pr d ds f cs : mdef qm (b_var d) = true ->
  elst up b pr (d :: ds) f cs -> elst up b (pr ++ [d]) ds f cs.
Proof.
  intros Hd [WF VF SG RS SN CM]. constructor; auto.
  - intros y Hy. destruct (VF y Hy) as [?|[?|(e & [<-|He] & <-)]]; eauto.
  - intros y Hy Hin. apply SG; auto. destruct Hin as [?|(e & He & Ee)]; [auto|right; exists e; split; [now right|auto]].
  - intros r Hr H. destruct (CM r Hr H) as (r' & A1 & A2 & A3). exists r'. split; [|split; [exact A2|]].
    + intros y Hy. apply A1. intros e He. apply Hy, in_or_app. now left.
    + intros e He Hed. apply in_app_or in He. destruct He as [He|[<-|[]]]; [auto|congruence].
Qed.

Lemma elst_loop up b : nodev s t b -> mdef qm (b_var b) = false ->
  forall ds pr f cs, b_deps b = pr ++ ds -> elst up b pr ds f cs ->
  (forall d, In d ds -> mdef qm (b_var d) = false -> exists g cs1, elim s t (depdir s up b d) d g cs1) ->
  exists f1 cs1, elim_go s qm ds f (lits cs) = Ok (f1, lits cs1) /\ elst up b (b_deps b) [] f1 cs1.
Proof.
  intros N Hx. induction ds as [|d ds IH]; intros pr f cs Ed E HD.
  - rewrite app_nil_r in Ed. rewrite Ed. exists f, cs. cbn [elim_go]. auto.
  - cbn [elim_go]. assert (Ed' : b_deps b = (pr ++ [d]) ++ ds) by (rewrite <- app_assoc; exact Ed).
    destruct (mdef qm (b_var d)) eqn:Md.
    + apply (IH (pr ++ [d])); auto; [now apply elst_skip|]. intros e He. apply HD. now right.
    + destruct (HD d (or_introl eq_refl) Md) as (g & cs1 & G).
      rewrite (el_eq _ _ _ _ _ _ G). cbn [bind].
      destruct (elst_step up b pr d ds f cs N Hx Ed E Md g cs1 G) as (f1 & R & E1). rewrite R. cbn [bind].
      replace (lits cs ++ lits cs1) with (lits (cs ++ cs1)) by apply map_app.
      apply (IH (pr ++ [d])); auto. intros e He. apply HD. now right.
Qed.

Theorem eliminated up b : bgood s t up b -> In b (lst B up (b_var b)) -> is_obsolete s t b = false ->
  mdef qm (b_var b) = false -> exists f cs, elim s t up b f cs.
Proof.
  intros G. induction G as [up b N D HG IH]. intros Hb O Hx.
  pose proof O as O'. rewrite obsolete_eq, orb_false_iff in O'. destruct O' as [O1 O2].
  assert (OD : forall d, In d (b_deps b) -> is_obsolete s t d = false).
  { intros d Hd. destruct (is_obsolete s t d) eqn:E; [|reflexivity]. rewrite <- O2. symmetry. apply existsb_exists. eauto. }
  destruct (elst_init up b N D O1) as (f0 & F0 & E0).
  { intros y Hy Hn Hd. unfold node_obs in O1. rewrite !orb_false_iff in O1. destruct O1 as [_ O1].
    rewrite lc_vars_terms in O1 by apply HI. destruct (mdef qm y) eqn:Em; auto. rewrite <- not_true_iff_false in O1.
    exfalso. apply O1. apply existsb_exists. exists y. split; [exact Hy|]. rewrite Em. cbn [negb orb]. rewrite andb_true_r.
    unfold other. apply andb_true_iff. split; [apply negb_true_iff; now apply Nat.eqb_neq|]. apply negb_true_iff.
    rewrite <- not_true_iff_false. intros Ee. apply existsb_exists in Ee. destruct Ee as (d & Hd' & Ed). apply Hd. exists d.
    split; auto. now apply Nat.eqb_eq. }
  destruct (elst_loop up b N Hx (b_deps b) [] f0 [b_cons b] eq_refl E0) as (f & cs & L & E).
  { intros d Hd Md. apply (IH d Hd); auto. apply (li_dep _ _ _ HI up (b_var b) b d); auto. }
  exists f, cs. destruct E as [WF VF SG RS SN CM].
  pose proof (SG (b_var b) Hx (or_introl eq_refl)) as SX. cbn zeta in SX.
  pose proof (cf_nonzero b (b_var b) (nv_stored _ _ _ N) (nv_in _ _ _ N)) as CN.
  set (ax := cf (b_var b) (bterms s b)) in *. set (kx := coef_sum (b_var b) (fm_terms f)) in *.
  constructor; auto.
  - rewrite eliminate_eq, F0. cbn [bind]. exact L.
  - intros y Hy. destruct (VF y Hy) as [?|[?|(d & [] & _)]]; auto.
  - apply coef_nonzero; [apply WF..|]. fold kx. destruct SX as [[_ E]|[_ E]]; [now rewrite E|].
    intros Z. destruct (sg s up b); rewrite Z in E; lra.
  - destruct SX as [[E _]|[_ E]]; [now left|right]. unfold sg in E. fold ax in E. unfold dirsgn.
    destruct (qltb 0 ax) eqn:Ex; [apply qltb_lt in Ex|apply qltb_ge in Ex]; destruct up; cbn [Bool.eqb] in E; fold kx; nra.
  - intros r Hr H. destruct (CM r Hr H) as (r' & A1 & A2 & A3).
    assert (Ex : r' (b_var b) = r (b_var b)).
    { apply A1. intros d Hd _. apply (nv_deps _ _ _ N d Hd). }
    rewrite <- Ex. apply (follows s t up b r'); auto; [apply HI|..].
    + intros y Hy. rewrite A1; [auto|]. intros d _ Hd E'. congruence.
    + intros d Hd. destruct (mdef qm (b_var d)) eqn:Md; [|auto].
      apply (dirholds_eq _ _ (mval qm (b_var d))).
      * rewrite A1; [symmetry; auto|]. intros e _ He E'. congruence.
      * pose proof (li_val _ _ _ HI _ Md) as P. apply permitted_iff in P. apply (proj1 P (depdir s up b d)); auto.
        apply (li_dep _ _ _ HI up (b_var b) b d); auto.
Qed.
End El.
