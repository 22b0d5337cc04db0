(** Scripts of plugin runs, used for the examples beside the theorems about runs. *)
From Coq Require Import List Arith ZArith QArith Bool.
From Verif Require Import Base Core_Model Lincons_Model Spec_Lincons Trail_Model Lra_Model Spec_Lra Lra_Hist Lra_Examples.
Import ListNotations.
Open Scope nat_scope.

Inductive lop : Type :=
| XSet (l : lit) (** a boolean decision of the rest of the solver *)
| XBack (k : nat) (** backtrack *)
| XSize (nb nq : nat)
| XCons (ts : list (nat * Q)) (p : opred) (rhs : Q)
| XProp
| XDecide (x : nat).
Fixpoint nodupb (l : list nat) : bool :=
  match l with [] => true | x :: l' => negb (existsb (Nat.eqb x) l') && nodupb l' end.
Lemma nodupb_ok l : nodupb l = true -> NoDup l.
Proof.
  induction l as [|x l IH]; cbn; [constructor|]. rewrite andb_true_iff, negb_true_iff. intros [H1 H2].
  constructor; auto. intros Hi. rewrite <- not_true_iff_false, existsb_exists in H1. apply H1. exists x.
  split; auto. apply Nat.eqb_refl.
Qed.
Definition xstep (opt : lopt) (a : lra) (t : trail) (o : lop) : res (lra * trail * list clause) :=
  match o with
  | XSet l => _ <- assertb (lord l <? mnum (t_bm t)) ;; t' <- t_step t (TDecide (VBool (lord l)) (negb (lneg l), 0%Q)) ;; Ok (a, t', [])
  | XBack k => t' <- t_step t (TBacktrack k) ;; Ok (lra_before_backtrack a, t', [])
  | XSize nb nq =>
      _ <- assertb ((mnum (t_bm t) <=? nb) && (mnum (t_qm t) <=? nq)) ;;
      Ok (with_st a (lc_resize (l_st a) nb), trail_resize t nb nq, [])
  | XCons ts p rhs =>
      _ <- assertb (nodupb (map fst (filter (fun t => negb (Qeq_bool (snd t) 0)) ts))) ;;
      '(a', t', _) <- lra_constraint ex_hash ex_hashq opt a t ts p rhs ;; Ok (a', t', [])
  | XProp => lra_propagate ex_hash ex_hashq opt a t
  | XDecide x => _ <- assertb (x <? mnum (t_qm t)) ;; '(a', t') <- lra_decide 10 a t (VRat x) ;; Ok (a', t', [])
  end.
Fixpoint xrun (opt : lopt) (a : lra) (t : trail) (os : list lop) : res (lra * trail) :=
  match os with
  | [] => Ok (a, t)
  | o :: os' => '(a', t', _) <- xstep opt a t o ;; xrun opt a' t' os'
  end.
Lemma xstep_run opt a t o a' t' cs : lra_run ex_hash ex_hashq opt a t -> xstep opt a t o = Ok (a', t', cs) ->
  lra_run ex_hash ex_hashq opt a' t'.
Proof.
  intros R H. destruct o; cbn [xstep] in H.
  - binv H. inversion H; subst. eapply lr_foreign; [exact R| |exact Eq]. now apply Nat.ltb_lt.
  - binv H. inversion H; subst. eapply lr_foreign; [apply lr_backtrack, R| |exact Eq]. exact I.
  - binv H. inversion H; subst. apply andb_true_iff in As. destruct As as [A1 A2].
    apply Nat.leb_le in A1, A2. now apply lr_resize.
  - binv H. inversion H; subst. apply nodupb_ok in As.
    eapply (lr_constraint _ _ _ a t (mkReq ts p rhs)); eauto.
  - eapply lr_propagate; eauto.
  - binv H. inversion H; subst. eapply lr_decide; eauto. now apply Nat.ltb_lt.
Qed.
Lemma xrun_run opt os : forall a t a' t', lra_run ex_hash ex_hashq opt a t -> xrun opt a t os = Ok (a', t') ->
  lra_run ex_hash ex_hashq opt a' t'.
Proof.
  induction os as [|o os IH]; intros a t a' t' R H; cbn [xrun] in H.
  - inversion H; subst. exact R.
  - destruct (xstep opt a t o) as [[[a1 t1] cs]| |] eqn:E; cbn [bind] in H; try discriminate H.
    eapply IH; [|exact H]. eapply xstep_run; eauto.
Qed.
Definition xend (opt : lopt) (os : list lop) : lra * trail :=
  match xrun opt lra_new (trail_new 0 0) os with Ok p => p | _ => (lra_new, trail_new 0 0) end.
Lemma xend_run opt os : lra_run ex_hash ex_hashq opt (fst (xend opt os)) (snd (xend opt os)).
Proof.
  unfold xend. destruct (xrun opt lra_new (trail_new 0 0) os) as [[a t]| |] eqn:E; cbn [fst snd];
    try apply lr_new. eapply xrun_run; [|exact E]. apply lr_new.
Qed.
