(** C31, C32, C34: linear arithmetic. *)
From Coq Require Import List Arith ZArith QArith Bool Lqa.
From Verif Require Import Base Core_Model Lincons_Model Spec_Lincons Lincons_Proofs Trail_Model Lra_Model Spec_Lra.
From Verif Require Import Lra_Fm Lra_Bounds Lra_Hist Lra_Examples.
Import ListNotations.
Open Scope nat_scope.

(** C31: eliminating [x] from two constraints that contain it, and that bound it from opposite sides
    or one of which is an equality, does not fail, gives a constraint without [x], and the result
    holds in exactly the assignments in which some value of [x] satisfies both (so in particular in
    every assignment that satisfies both). *)
Theorem C31 : forall f g x, fm_wf f -> fm_wf g ->
  In x (map fst (fm_terms f)) -> In x (map fst (fm_terms g)) -> resolvable f g x ->
  exists h, fm_resolve f g x = Ok h /\ fm_wf h /\ ~ In x (map fst (fm_terms h)) /\
    forall r, fm_holds r h <-> exists v, fm_holds (upd r x v) f /\ fm_holds (upd r x v) g.
Proof. exact resolve_exact. Qed.
Print Assumptions C31.
(** C31: any assignment that satisfies both satisfies the result, for every successful call *)
Theorem C31_sound : forall f g x h r, fm_resolve f g x = Ok h -> fm_wf f -> fm_wf g ->
  resolvable f g x -> fm_holds r f -> fm_holds r g -> fm_holds r h.
Proof. exact resolve_sound. Qed.
Print Assumptions C31_sound.
(** C31: what is resolved first means the same as the literal of the constraint *)
Theorem C31_init : forall s c f r, fm_init s c = Ok f -> (fm_holds r f <-> lc_holds s r c).
Proof. exact init_holds. Qed.
Print Assumptions C31_init.

(** 2x + y - 4 <= 0 and -3x + z < 0: x is eliminated with a fractional multiplier. *)
Example C31_nonvacuous :
  let f := mkFm [(0, 2%Q); (1, 1%Q)] (-4)%Q PLeq in
  let g := mkFm [(0, (-3)%Q); (2, 1%Q)] 0%Q PLt in
  fm_wf f /\ fm_wf g /\ resolvable f g 0 /\
  exists h, fm_resolve f g 0 = Ok h /\
    map (fun u => (fst u, Qred (snd u))) (fm_terms h) = [(1, 1%Q); (2, (2 # 3)%Q)] /\ fm_pred h = PLt.
Proof.
  cbv zeta. split; [split|split; [split|split]].
  - repeat constructor; simpl; intuition discriminate.
  - repeat constructor; simpl; discriminate.
  - repeat constructor; simpl; intuition discriminate.
  - repeat constructor; simpl; discriminate.
  - right. right. intros a b [A|[A|[]]] [B|[B|[]]]; inversion A; inversion B; subst; reflexivity.
  - eexists. split; [vm_compute; reflexivity|]. split; reflexivity.
Qed.

(** C32: in every state of the plugin (any sequence of calls, any options and hash functions), if
    some value satisfies every recorded bound and disequality of [x] that is not obsolete, deciding
    [x] terminates (for all large enough fuel), fails no assertion and assigns such a value. *)
Theorem C32 : forall hi hv opt a t x,
  lra_history hi hv opt a ->
  (exists v, permitted (l_st a) t (bd_of (l_bd a) x) v) ->
  exists n, forall fuel, n <= fuel -> exists a' q,
    lra_decide fuel a t (VRat x) =
      Ok (a', trail_decide (with_qm t (set_value (t_qm t) x q)) (VRat x)) /\
    permitted (l_st a) t (bd_of (l_bd a) x) q /\ l_cache a' x = Some q.
Proof. exact (fun hi hv opt a t x H => decide_ok a t x (history_bh hi hv opt a H x)). Qed.
Print Assumptions C32.

(** x0 in [0, 5] without 0: the first candidate is not permitted, the second is. *)
Example C32_nonvacuous : exists a t c,
  ex_bounds = Ok (a, t, c) /\ lra_history ex_hash ex_hashq opt_default a /\
  permitted (l_st a) t (bd_of (l_bd a) 0) 2%Q /\ ~ permitted (l_st a) t (bd_of (l_bd a) 0) 0%Q /\
  mdef (t_qm t) 0 = false /\
  match lra_decide 10 a t (VRat 0) with
  | Ok (_, t') => mdef (t_qm t') 0 = true /\ mval (t_qm t') 0 = 1%Q
  | _ => False
  end.
Proof.
  exists ex_a, ex_t, ex_c. split; [exact ex_bounds_ok|].
  split; [exact (ex_bounds_history _ _ _ ex_bounds_ok)|].
  split; [|split; [|split]].
  - split; [|split].
    + change (forall b, In b (vb_lb (bd_of (l_bd ex_a) 0)) -> is_obsolete (l_st ex_a) ex_t b = false -> above b 2).
      assert (E : forallb (fun b => qltb (b_val b) 2) (vb_lb (bd_of (l_bd ex_a) 0)) = true) by (vm_compute; reflexivity).
      rewrite forallb_forall in E. intros b Hb _. apply E, qltb_lt in Hb. unfold above.
      destruct (b_strict b); lra.
    + assert (E : forallb (fun b => qltb 2 (b_val b)) (vb_ub (bd_of (l_bd ex_a) 0)) = true) by (vm_compute; reflexivity).
      rewrite forallb_forall in E. intros b Hb _. apply E, qltb_lt in Hb. unfold below.
      destruct (b_strict b); lra.
    + assert (E : forallb (fun b => qltb (b_val b) 2) (vb_neq (bd_of (l_bd ex_a) 0)) = true) by (vm_compute; reflexivity).
      rewrite forallb_forall in E. intros b Hb _. apply E, qltb_lt in Hb. unfold differs. lra.
  - intros (_ & _ & N).
    assert (E : existsb (fun b => Qeq_bool (b_val b) 0 && negb (is_obsolete (l_st ex_a) ex_t b))
                  (vb_neq (bd_of (l_bd ex_a) 0)) = true) by (vm_compute; reflexivity).
    apply existsb_exists in E. destruct E as (b & Hb & E). apply andb_true_iff in E. destruct E as [E1 E2].
    apply (N b Hb); [apply negb_true_iff; exact E2|apply Qeq_bool_iff; exact E1].
  - vm_compute. reflexivity.
  - vm_compute. split; reflexivity.
Qed.

(** C34, for constraints that are not equalities: every assignment that extends the assigned values
    and lies within the reported bounds (and satisfies the constraint if its literal is already
    true) satisfies a constraint reported as implied. Missing: equalities, see [C34_refuted]. *)
Theorem C34_partial : forall s t c B r,
  lc_pred c <> PEq -> within s t B r ->
  (is_true (eval_lit (t_bm t) (lc_lit c)) = true -> lc_holds s r c) ->
  snd (is_implied s t c B) = true -> lc_holds s r c.
Proof. exact is_implied_ok. Qed.
Print Assumptions C34_partial.

(** the example state admits x0 = 3 *)
Lemma ex_within : within (l_st ex_a) ex_t (l_bd ex_a) (fun _ => 3%Q).
Proof.
  split; [|split].
  - intros [|[|[|x]]]; vm_compute; discriminate.
  - intros [|x] b; vm_compute; intros H; inversion H; subst. vm_compute. discriminate.
  - intros [|x] b; vm_compute; intros H; inversion H; subst. vm_compute. discriminate.
Qed.
(** With 0 <= x0 <= 5 the constraint x0 < 6 is implied, and its value is not known before. *)
Example C34_nonvacuous :
  let c := mkLc (mkLit 7 false) (0, 1) PLt 6%Q in
  lc_terms (l_st ex_a) c = [(0, 1%Q)] /\ eval_lit (t_bm ex_t) (lc_lit c) = None /\
  snd (is_implied (l_st ex_a) ex_t c (l_bd ex_a)) = true /\
  within (l_st ex_a) ex_t (l_bd ex_a) (fun _ => 3%Q).
Proof.
  cbv zeta. split; [vm_compute; reflexivity|]. split; [vm_compute; reflexivity|].
  split; [vm_compute; reflexivity|exact ex_within].
Qed.

(** C34 is false for equalities (reachable only with the option prop_unassigned): with
    0 <= x0 <= 5, the constraint x0 = 5 is reported as implied although x0 = 3 is possible. *)
Theorem C34_refuted : exists a t c r,
  lra_history ex_hash ex_hashq opt_default a /\ ex_bounds = Ok (a, t, c) /\
  within (l_st a) t (l_bd a) r /\ eval_lit (t_bm t) (lc_lit c) = None /\
  snd (is_implied (l_st a) t c (l_bd a)) = true /\ ~ lc_holds (l_st a) r c.
Proof.
  exists ex_a, ex_t, ex_c, (fun _ => 3%Q). split; [exact (ex_bounds_history _ _ _ ex_bounds_ok)|].
  split; [exact ex_bounds_ok|]. split; [exact ex_within|].
  split; [vm_compute; reflexivity|]. split; [vm_compute; reflexivity|]. vm_compute. discriminate.
Qed.
Print Assumptions C34_refuted.
