(** Proofs of C70. *)
From Coq Require Import List Arith ZArith QArith Bool Lia Permutation Lqa.
From Verif Require Import Base Core_Model Lincons_Model Spec_Lincons Lincons_Proofs Lincons_Proofs2 Conobj_Model Spec_Conobj.
Import ListNotations.
Open Scope nat_scope.
Arguments Qmult : simpl never.
Arguments Qplus : simpl never.
Arguments Qminus : simpl never.

Section Obj.
Variable hi : nat -> Z.
Variable hv : Q -> Z.
Variables (s : store) (h : list (request * lcons)).
Hypothesis H : lc_history hi hv s h.

Lemma obj_facts d q P : cons_of h d q P ->
  length (lc_vars s d) = length (lc_coef s d) /\ NoDup (lc_vars s d) /\
  Permutation (lc_vars s d) (map fst (nonzero (rq_terms q))) /\
  (forall r, P r <-> signed (lneg (lc_lit d)) (rel (lc_pred d) (lin r (lc_terms s d)) (lc_rhs d))).
Proof.
  destruct (history_inv hi hv s h H) as [HI Hm].
  induction 1 as [q c Hin|d q P _ IH].
  - destruct (Hm q c Hin) as (c0 & S0 & _ & Hp & Hpr & Hr & HP & M).
    assert (Ht : lc_terms s c = lc_terms s c0) by (unfold lc_terms, lc_vars, lc_coef; now rewrite Hp).
    assert (L : length (lc_vars s c) = length (lc_coef s c)) by (apply slices_length, HI).
    assert (F : map fst (lc_terms s c) = lc_vars s c) by (apply map_fst_combine, L).
    split; [exact L|]. rewrite <- F, Ht. split; [|split; [exact HP|]].
    + destruct (g_norm s c0 (i_good s HI c0 S0)). assumption.
    + intros r. specialize (M r). rewrite Hpr, Hr.
      assert (D : req_holds r q \/ ~ req_holds r q)
        by (unfold req_holds; destruct (rel_dec (rq_pred q) (lin r (rq_terms q)) (rq_rhs q)); auto).
      destruct (lneg (lc_lit c)); simpl in *; tauto.
  - destruct IH as (L & N & HP & M). split; [exact L|]. split; [exact N|]. split; [exact HP|].
    intros r. rewrite (M r). change (lc_terms s (lc_neg d)) with (lc_terms s d). cbn.
    destruct (rel_dec (lc_pred d) (lin r (lc_terms s d)) (lc_rhs d)); destruct (lneg (lc_lit d)); simpl; tauto.
Qed.

Lemma obj_nonempty d q P : cons_of h d q P -> lc_empty d = false -> lc_terms s d <> [].
Proof.
  destruct (history_inv hi hv s h H) as [HI Hm].
  induction 1 as [q c Hin|d q P _ IH]; [|exact IH].
  destruct (Hm q c Hin) as (c0 & S0 & _ & Hp & _). intros E Z.
  assert (Ht : lc_terms s c = lc_terms s c0) by (unfold lc_terms, lc_vars, lc_coef; now rewrite Hp).
  pose proof (good_size s c0 (i_len s HI) (i_good s HI c0 S0)) as L. rewrite <- Ht, Z in L.
  unfold lc_empty in E. apply Nat.leb_gt in E. unfold lc_size in L. rewrite Hp in E. cbn in L. lia.
Qed.

Lemma obj_vars d q P v : cons_of h d q P -> In v (lc_vars s d) <-> req_vars q v.
Proof.
  intros C. destruct (obj_facts d q P C) as (_ & _ & HP & _). unfold req_vars. split.
  - intros I. apply (Permutation_in _ HP) in I. apply in_map_iff in I. destruct I as ([w c] & <- & I).
    apply in_nonzero in I. exists c. exact I.
  - intros (c & I & Z). apply (Permutation_in _ (Permutation_sym HP)). apply in_map_iff. exists (v, c).
    split; [reflexivity|]. apply in_nonzero. now split.
Qed.

Lemma obj_eval d q P m : cons_of h d q P ->
  exists o, lc_eval_opt s m d = Ok o /\
    match o with
    | None => exists v, req_vars q v /\ mdef m v = false
    | Some b => (forall v, req_vars q v -> mdef m v = true) /\ (b = true <-> P (mval m))
    end.
Proof.
  intros C. destruct (obj_facts d q P C) as (L & _ & _ & M). unfold lc_eval_opt.
  destruct (forallb (mdef m) (lc_vars s d)) eqn:E.
  - assert (E' : forallb (mdef m) (map fst (lc_terms s d)) = true) by (unfold lc_terms; now rewrite map_fst_combine).
    destruct (eval_terms_ok m (lc_terms s d) (lc_rhs d) E') as (x & E1 & E2).
    unfold lc_eval. rewrite E1. cbn. eexists. split; [reflexivity|]. split.
    + intros v I. apply (obj_vars d q P v C) in I. rewrite forallb_forall in E. now apply E.
    + rewrite (M (mval m)).
      assert (K : pred_eval (lc_pred d) 0 x = true <-> rel (lc_pred d) (lin (mval m) (lc_terms s d)) (lc_rhs d)).
      { rewrite pred_eval_rel. destruct (lc_pred d); simpl; rewrite E2; split; intros; lra. }
      destruct (lneg (lc_lit d)), (pred_eval (lc_pred d) 0 x); simpl in *; intuition congruence.
  - exists None. split; [reflexivity|]. apply not_true_iff_false in E. rewrite forallb_forall in E.
    assert (X : exists v, In v (lc_vars s d) /\ mdef m v = false).
    { clear - E. induction (lc_vars s d) as [|w l IH]; [exfalso; apply E; intros ? []|].
      destruct (mdef m w) eqn:W; [|exists w; simpl; auto].
      destruct IH as (v & I & F); [|exists v; simpl; auto].
      intros A. apply E. intros v [<-|I]; auto. }
    destruct X as (v & I & F). exists v. split; [now apply (obj_vars d q P v C)|exact F].
Qed.

Lemma obj_strict d q P r : cons_of h d q P ->
  (lin r (lc_terms s d) == lc_rhs d)%Q -> lc_strict d = true <-> ~ P r.
Proof.
  intros C E. destruct (obj_facts d q P C) as (_ & _ & _ & M). rewrite (M r).
  unfold lc_strict, strict_of. destruct (lneg (lc_lit d)), (lc_pred d); simpl;
    (split; [intros B A; try discriminate B; try lra|intros A; try reflexivity; exfalso; apply A; try intros A'; lra]).
Qed.

Lemma lin_agree r r' ts : (forall v, In v (map fst ts) -> (r v == r' v)%Q) -> (lin r ts == lin r' ts)%Q.
Proof.
  induction ts as [|[v c] ts IH]; simpl; intros A; [reflexivity|].
  rewrite IH by (intros; apply A; auto). rewrite (A v) by auto. reflexivity.
Qed.

Lemma obj_implied d q P m x a vs cs : cons_of h d q P ->
  lc_vars s d = x :: vs -> lc_coef s d = a :: cs -> (forall v, In v vs -> mdef m v = true) ->
  exists k, lc_implied_value s m d = Ok k /\
    forall r, (forall v, In v vs -> (r v == mval m v)%Q) ->
      P r <-> signed (lneg (lc_lit d)) (rel (lc_pred d) (a * r x) k).
Proof.
  intros C V A D. destruct (obj_facts d q P C) as (L & _ & _ & M).
  rewrite V, A in L. injection L as L.
  assert (T : lc_terms s d = (x, a) :: combine vs cs) by (unfold lc_terms; rewrite V, A; reflexivity).
  unfold lc_implied_value. rewrite T. cbn [tl].
  assert (F : map fst (combine vs cs) = vs) by (now apply map_fst_combine).
  destruct (eval_terms_ok m (combine vs cs) (lc_rhs d)) as (k & E1 & E2).
  { rewrite F. now apply forallb_forall. }
  exists k. split; [exact E1|]. intros r R. rewrite (M r), T. cbn [lin].
  assert (G : (lin r (combine vs cs) == lin (mval m) (combine vs cs))%Q) by (apply lin_agree; rewrite F; exact R).
  assert (K : rel (lc_pred d) (a * r x + lin r (combine vs cs)) (lc_rhs d) <-> rel (lc_pred d) (a * r x) k).
  { destruct (lc_pred d); simpl; rewrite E2; split; intros; lra. }
  destruct (lneg (lc_lit d)); simpl; tauto.
Qed.

(** the shown constraint is a multiple of the requested one *)
Lemma obj_multiple d q P : cons_of h d q P ->
  (lc_vars s d = [] /\ (lc_rhs d == 0)%Q /\ forall r, (lin r (rq_terms q) == 0)%Q) \/
  (exists k, ~ (k == 0)%Q /\ (lc_rhs d == k * rq_rhs q)%Q /\
     forall r, (lin r (lc_terms s d) == k * lin r (rq_terms q))%Q).
Proof.
  destruct (history_inv hi hv s h H) as [HI Hm].
  induction 1 as [q c Hin|d q P _ IH]; [|exact IH].
  pose proof (obj_facts c q _ (co_request h q c Hin)) as (L & ND & HV & _).
  destruct (Hm q c Hin) as (c0 & S0 & _ & Hp & Hpr & Hr & HP & M).
  pose proof (i_good s HI c0 S0) as G.
  assert (Ht : lc_terms s c = lc_terms s c0) by (unfold lc_terms, lc_vars, lc_coef; now rewrite Hp).
  assert (NQ : NoDup (map fst (nonzero (rq_terms q)))) by exact (Permutation_NoDup HV ND).
  destruct (find_norm (rq_terms q)) as [k|] eqn:Ek.
  - right. exists k. destruct (normalise_ok _ k NQ Ek) as (Hn & Hk0 & Hne).
    destruct (sem_unique (scale k (nonzero (rq_terms q))) (norm_pred k (rq_pred q)) (Qred (k * rq_rhs q))
                (lc_terms s c0) (lc_pred c0) (lc_rhs c0)
                (Bool.eqb (flips k (rq_pred q)) (lneg (lc_lit c)))) as (_ & PE & _ & RE);
      [exact Hn|apply G|apply Qred_complete, Qred_correct|apply G|exact Hne| |].
    + intros r.
      assert (K : rel (norm_pred k (rq_pred q)) (lin r (scale k (nonzero (rq_terms q)))) (Qred (k * rq_rhs q)) <->
                  rel (norm_pred k (rq_pred q)) (k * lin r (rq_terms q)) (k * rq_rhs q)).
      { apply rel_morph; [|apply Qred_correct]. rewrite lin_scale, lin_nonzero. reflexivity. }
      rewrite K, rel_scale by auto. specialize (M r). unfold req_holds in M.
      destruct (rel_dec (rq_pred q) (lin r (rq_terms q)) (rq_rhs q)), (flips k (rq_pred q)), (lneg (lc_lit c)); simpl in *; tauto.
    + split; [exact Hk0|]. split; [rewrite Hr, <- RE; apply Qred_correct|].
      intros r. rewrite Ht, <- (lin_perm r _ _ PE), lin_scale, lin_nonzero. reflexivity.
  - left. pose proof (find_norm_none _ Ek) as Hz.
    assert (E0 : nonzero (rq_terms q) = []).
    { destruct (nonzero (rq_terms q)) as [|t l] eqn:En; auto. exfalso.
      assert (It : In t (nonzero (rq_terms q))) by (rewrite En; now left).
      apply in_nonzero in It. destruct It as [T1 T2]. apply T2. auto. }
    rewrite E0 in HP, HV. apply Permutation_sym, Permutation_nil in HP. apply Permutation_sym, Permutation_nil in HV.
    apply map_eq_nil in HP. destruct (norm_nil_const s c0 G (i_len s HI) HP) as (_ & R0).
    split; [exact HV|]. split; [now rewrite Hr, R0|]. intros r. now apply lin_zero.
Qed.

Lemma obj_strict_request d q P r : cons_of h d q P ->
  (lin r (rq_terms q) == rq_rhs q)%Q -> lc_strict d = true <-> ~ P r.
Proof.
  intros C E. apply (obj_strict d q P r C). destruct (obj_multiple d q P C) as [(V & R & _)|(k & _ & R & M)].
  - unfold lc_terms. rewrite V, R. reflexivity.
  - rewrite M, E, R. reflexivity.
Qed.

Lemma print_terms_value r t ts : exists x,
  sum_value r (print_terms [] (t :: ts)) x /\ (x == lin r (t :: ts))%Q.
Proof.
  assert (T : forall v c, exists x, term_value r ((if negb (Qeq_bool c 1) then [TNum c; TTimes] else []) ++ [TVar v]) x /\ (x == c * r v)%Q).
  { intros v c. destruct (Qeq_bool c 1) eqn:E; cbn.
    - exists (r v). split; [constructor|]. apply Qeq_bool_iff in E. rewrite E. ring.
    - exists (c * r v)%Q. split; [constructor|reflexivity]. }
  revert t. induction ts as [|t' ts IH]; intros [v c]; destruct (T v c) as (x & X & E).
  - exists x. split; [constructor; exact X|]. cbn. rewrite E. ring.
  - destruct (IH t') as (y & Y & F). exists (x + y)%Q. split.
    + destruct t' as [v' c']. 
      replace (print_terms [] ((v, c) :: (v', c') :: ts)) with
        (((if negb (Qeq_bool c 1) then [TNum c; TTimes] else []) ++ [TVar v]) ++ [TPlus] ++ print_terms [] ((v', c') :: ts))
        by (cbn; now rewrite <- !app_assoc).
      now apply sv_plus.
    + rewrite E, F. destruct t' as [v' c']. cbn [lin]. ring.
Qed.

Lemma obj_print d q P r : cons_of h d q P -> reads_as r (lc_print s d) (P r).
Proof.
  intros C. destruct (obj_facts d q P C) as (L & _ & _ & M). specialize (M r).
  assert (K : forall x, (x == lin r (lc_terms s d))%Q ->
    (P r <-> symbol_means (print_symbol (lneg (lc_lit d)) (lc_pred d)) x (lc_rhs d))).
  { intros x E. rewrite M. destruct (lneg (lc_lit d)), (lc_pred d); cbn; rewrite E; split; intros; lra. }
  unfold reads_as, lc_print. destruct (lc_empty d) eqn:EM.
  - assert (Z : lc_terms s d = []).
    { unfold lc_terms, lc_vars, slice. unfold lc_empty in EM. apply Nat.leb_le in EM.
      replace (snd (lc_pos d) - fst (lc_pos d)) with 0 by lia. reflexivity. }
    rewrite Z in *. exists [TNum 0], 0%Q, (print_symbol (lneg (lc_lit d)) (lc_pred d)), [TNum (lc_rhs d)], (lc_rhs d).
    split; [reflexivity|]. repeat split; try (constructor; constructor); apply K; cbn; reflexivity.
  - destruct (lc_terms s d) as [|t ts] eqn:Z.
    + exfalso. apply (obj_nonempty d q P C EM). exact Z.
    + destruct (print_terms_value r t ts) as (x & X & E).
      exists (print_terms [] (t :: ts)), x, (print_symbol (lneg (lc_lit d)) (lc_pred d)), [TNum (lc_rhs d)], (lc_rhs d).
      split; [reflexivity|]. split; [exact X|]. split; [constructor; constructor|]. apply K, E.
Qed.
End Obj.
