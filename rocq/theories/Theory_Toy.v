(** A small plugin with a value for a rational variable x, used to show that the contract of
    Spec_Theory.v can be met by a theory whose conflicts need semantic splits: variable 0 means
    0 < x and variable 1 means x < 0. It is not a model of code in /repo. *)
From Coq Require Import List Arith ZArith QArith NArith Bool Lia Permutation.
From Verif Require Import Base Core_Model Literal_Proofs Analysis_Model Bool_Model Sat_Base Sat_Inv
  Trail_Model Spec_Trail Trail_Proofs Solver_Model Spec_Sat Spec_Theory Theory_Inv Theory_Strict Theory_Bool.
Import ListNotations.
Open Scope nat_scope.

Definition toy_models (_ : bstate) (a : nat -> bool) : Prop :=
  exists x : Q, (a 0 = true <-> (0 < x)%Q) /\ (a 1 = true <-> (x < 0)%Q).
Definition force (t : trail) (i k : nat) : res trail :=
  if mdef (t_bm t) i then Ok t else t_step t (TPropagate (VBool i) None k (false, 0%Q)).
Definition both (t : trail) : bool :=
  is_true (eval_lit (t_bm t) (mkLit 0 false)) && is_true (eval_lit (t_bm t) (mkLit 1 false)).
Definition exclusion : clause := [mkLit 0 true; mkLit 1 true].
Definition toy_propagate (fuel : nat) (b : bstate) (d : db) (t : trail) : res (bstate * db * trail * list clause) :=
  ' (b1, d1, t1, cs) <- bool_propagate fuel b d t ;;
  match cs with
  | _ :: _ => Ok (b1, d1, t1, cs)
  | [] =>
      if both t1 then Ok (b1, d1, t1, [exclusion])
      else match t_lvl t1 (VRat 0) with
           | Some k =>
               if (k =? dl t1) && (1 <=? k) then
                 t2 <- force t1 0 k ;; t3 <- force t2 1 k ;; bool_propagate fuel b1 d1 t3
               else Ok (b1, d1, t1, [])
           | None => Ok (b1, d1, t1, [])
           end
  end.
Definition toy_theory : theory bstate :=
  mkTheory toy_propagate
    (fun b d t v => match v with
                    | VBool _ => Ok (b, bool_decide b t v)
                    | VRat _ => t' <- t_step t (TDecide v (true, 0%Q)) ;; Ok (b, t')
                    end)
    (fun b d t k => bool_before_backtrack b t k) (fun b d t r => bool_learned b d r) (fun b d t => b).
Definition toy_pi (_ : bstate) (d : db) (t : trail) : Prop := tpi true d t /\ 2 <= mnum (t_bm t).

Lemma exclusion_true b d : lemma_of toy_models b d exclusion.
Proof.
  intros a (x & A & B) _. destruct (a 0) eqn:E0.
  - exists (mkLit 1 true). split; [simpl; auto|]. cbn. destruct (a 1); [|auto].
    exfalso. apply (Qlt_irrefl 0). apply (Qlt_trans _ x); [apply A|apply B]; auto.
  - exists (mkLit 0 true). split; [simpl; auto|]. cbn. now rewrite E0.
Qed.
Lemma prop_ops_bm d e t t' : prop_ops true d e t t' -> mnum (t_bm t) <= mnum (t_bm t').
Proof.
  induction 1 as [t|t n t' Hn H IH|t l ro k t1 t' H1 H2 H3 H4 H5 IH|t x k q t1 t' H1 H2 H3 H4 IH]; auto.
  - cbn in IH. lia.
  - apply step_prop_inv in H4. destruct H4 as (_ & _ & _ & E & _). rewrite E in IH. exact IH.
  - apply step_prop_inv in H3. destruct H3 as (_ & _ & _ & E & _). rewrite E in IH. exact IH.
Qed.
Lemma force_ok (ent : lit -> Prop) d t i k t' : tpi true d t -> i < mnum (t_bm t) -> k = dl t -> 1 <= k -> force t i k = Ok t' ->
  tpi true d t' /\ prop_ops true d ent t t' /\ mnum (t_bm t') = mnum (t_bm t) /\ dl t' = dl t.
Proof.
  unfold force. intros P R -> K H. destruct (mdef (t_bm t) i) eqn:M.
  - injection H as <-. split; auto. split; [constructor|auto].
  - assert (U : t_lvl t (VBool i) = None).
    { destruct (t_lvl t (VBool i)) eqn:E; auto. assert (X : t_lvl t (VBool i) <> None) by congruence.
      apply (tpi_def true _ _ _ P) in X. congruence. }
    split; [|split; [|split]].
    + eapply tpi_prop; [exact P| |exact U|auto|exact H]. now apply Nat.ltb_lt.
    + eapply (po_bool _ _ _ _ (mkLit i true)); [exact R|exact U| |exact H|constructor]. cbn. lia.
    + destruct (step_prop_inv _ _ _ _ _ _ H) as (_ & _ & _ & -> & _). reflexivity.
    + destruct P as ((a & [N _]) & _). now destruct (lists_prop _ _ _ _ _ _ N H).
Qed.

Lemma toy_plugin : plugin_ok true toy_theory toy_models toy_pi.
Proof.
  assert (RF : forall n ts ts', refines toy_models n ts ts') by (intros; split; [auto|intros a Ha; exists a; auto]).
  split.
  - intros fuel ts d t ts' d' t' cs (P & Q0) H. cbn in H. unfold toy_propagate in H.
    destruct (bool_propagate fuel ts d t) as [[[[b1 d1] t1] cs1]| |] eqn:E1; cbn [bind] in H; try discriminate.
    eapply (bool_propagate_ok true (fun l => lemma_of toy_models ts' d [l])) in E1; [|exact P].
    destruct E1 as (A & B & C & _ & E). pose proof (prop_ops_bm _ _ _ _ C) as M1.
    assert (DB : forall d0, dbperm d d0 -> forall c, In c (clauses_of d0) -> lemma_of toy_models ts' d c).
    { intros d0 PD c Hc a _ Ha. apply (perm_hold _ _ _ PD Ha). exact Hc. }
    destruct cs1 as [|c1 cs1].
    2: { injection H as <- <- <- <-. split; [split; [auto|lia]|]. split; [exact A|]. split; [apply RF|]. split; [exact C|].
         intros c Hc. destruct (E c Hc). split; eauto. }
    destruct (both t1) eqn:EB.
    { injection H as <- <- <- <-. split; [split; [auto|lia]|]. split; [exact A|]. split; [apply RF|]. split; [exact C|].
      intros c [<-|[]]. split; [apply exclusion_true|]. unfold both in EB. apply andb_true_iff in EB. destruct EB as [E0 E1].
      apply is_true_iff in E0, E1. intros l [<-|[<-|[]]]; [now apply (eval_lit_neg_false _ (mkLit 0 false))|now apply (eval_lit_neg_false _ (mkLit 1 false))]. }
    assert (DONE : Ok (b1, d1, t1, []) = Ok (ts', d', t', cs) -> toy_pi ts' d' t' /\ same_clauses d d' /\
      refines toy_models (mnum (t_bm t)) ts ts' /\ prop_ops true d' (fun l => lemma_of toy_models ts' d [l]) t t' /\
      (forall c, In c cs -> lemma_of toy_models ts' d c /\ (forall l, In l c -> eval_lit (t_bm t') l = Some false))).
    { intros X. injection X as <- <- <- <-. split; [split; [auto|lia]|]. split; [exact A|]. split; [apply RF|]. split; [exact C|]. easy. }
    destruct (t_lvl t1 (VRat 0)) as [k|]; [|auto]. destruct ((k =? dl t1) && (1 <=? k)) eqn:EK; [|auto]. clear DONE.
    apply andb_true_iff in EK. destruct EK as [EK1 EK2]. apply Nat.eqb_eq in EK1. apply Nat.leb_le in EK2.
    destruct (force t1 0 k) as [t2| |] eqn:F1; cbn [bind] in H; try discriminate.
    destruct (force t2 1 k) as [t3| |] eqn:F2; cbn [bind] in H; try discriminate.
    eapply (force_ok (fun l => lemma_of toy_models ts' d [l])) in F1; eauto; [|lia]. destruct F1 as (P2 & O2 & N2 & D2).
    eapply (force_ok (fun l => lemma_of toy_models ts' d [l])) in F2; eauto; [|lia|congruence]. destruct F2 as (P3 & O3 & N3 & D3).
    eapply (bool_propagate_ok true (fun l => lemma_of toy_models ts' d [l])) in H; [|exact P3].
    destruct H as (A' & B' & C' & _ & E'). pose proof (prop_ops_bm _ _ _ _ C') as M2.
    split; [split; [auto|lia]|]. split; [eapply dbperm_trans; eauto|]. split; [apply RF|]. split.
    + eapply prop_ops_trans; [|exact C']. eapply prop_ops_perm; [exact A'|]. eapply prop_ops_trans; [exact C|].
      eapply prop_ops_trans; eauto.
    + intros c Hc. destruct (E' c Hc). split; auto. eapply DB; [|eassumption]. eapply dbperm_trans; eauto.
  - intros ts d t v ts' t' (P & Q0) U R H. cbn in H.
    assert (E : ts' = ts /\ exists x, t_step t (TDecide v x) = Ok t').
    { destruct v as [i|i]; injection H as <- <-; split; auto; [eexists (_, 0%Q)|exists (true, 0%Q)]; reflexivity. }
    destruct E as [-> [x E]]. split; [|split; [intros a; tauto|eauto]]. split; [eapply tpi_decide; eauto|].
    cbn in E. injection E as <-. destruct v; exact Q0.
  - intros ts d t c ts' (P & Q0) N F H. split; [|intros a; tauto]. split; auto.
    destruct P as (A & V & C). split; auto. split; auto.
    intros c' l Hc Hl. unfold clauses_of in Hc. cbn in Hc. rewrite app_assoc, in_app_iff in Hc. destruct Hc as [Hc|[<-|[]]]; [eapply V; eauto|].
    destruct (tpi_false true d t l (conj A (conj V C)) (F l Hl)) as (j & Hj & _). destruct A as (a & [_ A]).
    unfold lit_level in Hj. rewrite (sh_lvl _ _ A) in Hj. destruct (at_rec a (lvar l)) as [g|] eqn:E; [|discriminate].
    destruct (sh_ok _ _ A _ _ E) as [R _]. destruct (sh_num _ _ A) as [-> _]. cbn in R. now apply Nat.ltb_lt.
  - intros ts d t k t' (P & Q0) H. split; [|intros a; tauto]. split; [eapply tpi_backtrack; eauto|].
    destruct P as ((a & T) & _). assert (K : k <= dl t) by (unfold trail_backtrack in H; destruct (Nat.leb_spec k (dl t)); [auto|discriminate]).
    pose proof T as [_ A].
    destruct (inv_backtrack t a k T) as (t1' & E & [_ A1] & _); [simpl; now rewrite <- (sh_dl _ _ A)|]. rewrite H in E. injection E as <-.
    destruct (sh_num _ _ A1) as [-> _]. cbn. destruct (sh_num _ _ A) as [<- _]. exact Q0.
  - intros ts d t l r t' (P & Q0) R U V H. split.
    + eapply tpi_prop; [exact P| |exact U| |exact H]; auto. cbn. now apply Nat.ltb_lt.
    + destruct (step_prop_inv _ _ _ _ _ _ H) as (_ & _ & _ & -> & _). exact Q0.
  - intros ts d t l t' (P & Q0) R U H. split.
    + eapply tpi_decide; [exact P| |exact U|exact H]. cbn. now apply Nat.ltb_lt.
    + cbn in H. injection H as <-. exact Q0.
  - intros ts d t L (P & Q0) HL. split; [|intros a; tauto]. split; [|exact Q0]. eapply tpi_clear; eauto.
    intros c Hc. unfold clauses_of in *. cbn in Hc. apply in_app_iff in Hc. apply in_app_iff. destruct Hc; auto.
Qed.

(** picks x first, then boolean variables in order *)
Definition toy_pick (t : trail) : option var :=
  match filter (fun v => negb (is_def t v))
               (map VRat (seq 0 (mnum (t_qm t))) ++ map VBool (seq 0 (mnum (t_bm t)))) with
  | [] => None
  | v :: _ => Some v
  end.
Definition toy_heur : heur unit :=
  mkHeur (fun s _ t => (s, toy_pick t)) (fun _ _ _ => false) (fun _ => false) (fun s _ _ => s)
         (fun s _ _ => s) (fun s _ _ => s) (fun s => s).
Lemma toy_picks {TS} (th : theory TS) hash s0 : picks_unassigned th toy_heur hash s0.
Proof.
  intros s fuel ts d t h v _ _ H. cbn in H. injection H as _ H. unfold toy_pick in H.
  match type of H with match ?l with _ => _ end = _ => destruct l as [|v' l'] eqn:E; [discriminate|] end. injection H as ->.
  assert (Hin : In v (v :: l')) by (simpl; auto). rewrite <- E, filter_In, in_app_iff, !in_map_iff in Hin.
  destruct Hin as [Hin D]. split; [now destruct (is_def t v)|].
  destruct Hin as [(i & <- & Hi)|(i & <- & Hi)]; apply in_seq in Hi; apply Nat.ltb_lt; lia.
Qed.
Lemma fresh_new n m : fresh_trail (trail_new n m).
Proof. split; cbn; auto. Qed.
Lemma tpi_fresh strict cs n m : (forall c l, In c cs -> In l c -> lord l < n) -> tpi strict (mkDb cs []) (trail_new n m).
Proof.
  intros H. split; [exists (at_new n m); apply inv_new|]. split.
  - intros c l Hc. unfold clauses_of in Hc. cbn in Hc. rewrite app_nil_r in Hc. now apply H.
  - intros _ k v ro Hin. destruct k; unfold lists, assigned_at in Hin; cbn in Hin; easy.
Qed.
