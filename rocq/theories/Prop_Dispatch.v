(** C52: events reach the registered listeners. *)
From Coq Require Import List Arith Bool Lia Permutation.
From Verif Require Import Dispatch_Model.
Import ListNotations.

(** ** Specification *)
(** how often [x] is registered after a history, the latest operation first: add counts one more, remove one less *)
Fixpoint registered (x : nat) (h : list d_op) : nat :=
  match h with
  | [] => 0
  | Add y :: h' => if y =? x then S (registered x h') else registered x h'
  | Remove y :: h' => if y =? x then pred (registered x h') else registered x h'
  end.
(** how many calls to [x] *)
Definition calls_to {E} (x : nat) (calls : list (nat * E)) : nat := length (filter (fun c => fst c =? x) calls).
(** [x] is called before [y] *)
Definition called_before {E} (x y : nat) (calls : list (nat * E)) : Prop :=
  exists c1 c2 c3 e e', calls = c1 ++ (x, e) :: c2 ++ (y, e') :: c3.
(** no listener is added while it is registered *)
Fixpoint added_once (h : list d_op) : Prop :=
  match h with [] => True | Add x :: h' => registered x h' = 0 /\ added_once h' | Remove _ :: h' => added_once h' end.
(** [x] was added before the last time [y] was added, and not since; the latest operation first *)
Fixpoint added_before (x y : nat) (h : list d_op) : Prop :=
  match h with
  | [] => False
  | Add z :: h' => if z =? y then registered x h' <> 0 else if z =? x then False else added_before x y h'
  | Remove _ :: h' => added_before x y h'
  end.

(** ** Proofs *)
Lemma send_map {E} (l : listeners) (e : E) : d_send l e = map (fun x => (x, e)) l.
Proof.
  unfold d_send. assert (G : forall acc, fold_left (fun calls x => calls ++ [(x, e)]) l acc = acc ++ map (fun x => (x, e)) l).
  { induction l as [|x l IH]; intros acc; cbn [fold_left map]; [now rewrite app_nil_r|]. rewrite IH, <- app_assoc. reflexivity. }
  apply G.
Qed.
Definition cnt (x : nat) (l : listeners) : nat := length (filter (fun y => y =? x) l).
Lemma cnt_app x l l' : cnt x (l ++ l') = cnt x l + cnt x l'.
Proof. unfold cnt. now rewrite filter_app, app_length. Qed.
Lemma cnt_remove x y l : cnt x (d_remove l y) = if y =? x then pred (cnt x l) else cnt x l.
Proof.
  induction l as [|z l IH]; [now destruct (y =? x)|]. cbn [d_remove]. unfold cnt in *. destruct (Nat.eqb_spec z y) as [->|N].
  - cbn [filter]. destruct (Nat.eqb_spec y x); reflexivity.
  - cbn [filter]. destruct (Nat.eqb_spec z x) as [->|]; cbn [length]; rewrite IH; destruct (Nat.eqb_spec y x); subst; try reflexivity. contradiction.
Qed.
Lemma run_rev h : d_run (rev h) = fold_right (fun o l => d_step l o) [] h.
Proof. unfold d_run. rewrite <- fold_left_rev_right, rev_involutive. reflexivity. Qed.
Definition after (h : list d_op) : listeners := fold_right (fun o l => d_step l o) [] h.
Lemma cnt_after x h : cnt x (after h) = registered x h.
Proof.
  induction h as [|[y|y] h IH]; [reflexivity| |]; cbn [after fold_right d_step registered]; fold (after h).
  - unfold d_add. rewrite cnt_app, IH. unfold cnt. cbn [filter]. destruct (Nat.eqb_spec y x); cbn [length]; lia.
  - rewrite cnt_remove, IH. reflexivity.
Qed.
Lemma cnt_in x l : cnt x l <> 0 <-> In x l.
Proof.
  unfold cnt. split.
  - intros N. destruct (filter (fun y => y =? x) l) as [|y f] eqn:E; [contradiction|]. assert (I : In y (filter (fun y => y =? x) l)) by (rewrite E; now left).
    apply filter_In in I. destruct I as [I J]. apply Nat.eqb_eq in J. now subst.
  - intros I N. assert (J : In x (filter (fun y => y =? x) l)) by (apply filter_In; split; [exact I|apply Nat.eqb_refl]). destruct (filter _ l); [destruct J|discriminate].
Qed.
Lemma calls_cnt {E} x l (e : E) : calls_to x (d_send l e) = cnt x l.
Proof.
  rewrite send_map. unfold calls_to, cnt. induction l as [|y l IH]; [reflexivity|]. cbn [map filter fst]. destruct (y =? x); cbn [length]; now rewrite IH.
Qed.
Definition ord (x y : nat) (l : listeners) : Prop := exists l1 l2 l3, l = l1 ++ x :: l2 ++ y :: l3.
Lemma ord_calls {E} x y l (e : E) : called_before x y (d_send l e) <-> ord x y l.
Proof.
  rewrite send_map. split.
  - intros (c1 & c2 & c3 & e1 & e2 & Eq). apply map_eq_app in Eq. destruct Eq as (l1 & r1 & -> & _ & Eq).
    apply map_eq_cons in Eq. destruct Eq as (x' & r2 & -> & Ex & Eq). injection Ex as -> _.
    apply map_eq_app in Eq. destruct Eq as (l2 & r3 & -> & _ & Eq). apply map_eq_cons in Eq. destruct Eq as (y' & r4 & -> & Ey & _). injection Ey as -> _.
    exists l1, l2, r4. reflexivity.
  - intros (l1 & l2 & l3 & ->). do 5 eexists. rewrite map_app. cbn [map]. rewrite map_app. reflexivity.
Qed.
Lemma in_remove z y l : In z (d_remove l y) -> In z l.
Proof. induction l as [|w l IH]; [auto|]. cbn [d_remove]. destruct (w =? y); cbn [In]; tauto. Qed.
Lemma remove_in z y l : z <> y -> In z l -> In z (d_remove l y).
Proof. intros N. induction l as [|w l IH]; [auto|]. cbn [d_remove]. destruct (Nat.eqb_spec w y) as [->|]; cbn [In]; intuition congruence. Qed.
(** [x] before [y], by recursion *)
Fixpoint bef (x y : nat) (l : listeners) : Prop := match l with [] => False | z :: l' => (z = x /\ In y l') \/ bef x y l' end.
Lemma bef_ord x y l : ord x y l <-> bef x y l.
Proof.
  split.
  - intros (l1 & l2 & l3 & ->). induction l1 as [|z l1 IH]; cbn [app bef]; [left; split; auto; apply in_or_app; right; now left|now right].
  - induction l as [|z l IH]; [intros []|]. intros [[-> I]|B].
    + apply in_split in I. destruct I as (l2 & l3 & ->). exists [], l2, l3. reflexivity.
    + destruct (IH B) as (l1 & l2 & l3 & ->). exists (z :: l1), l2, l3. reflexivity.
Qed.
Lemma bef_remove x y z l : bef x y (d_remove l z) -> bef x y l.
Proof.
  induction l as [|w l IH]; [auto|]. cbn [d_remove]. destruct (w =? z); cbn [bef]; [auto|]. intros [[-> I]|B]; [left; split; auto; eapply in_remove; eauto|auto].
Qed.
Lemma remove_bef x y z l : In x (d_remove l z) -> In y (d_remove l z) -> NoDup l -> bef x y l -> bef x y (d_remove l z).
Proof.
  induction l as [|w l IH]; [auto|]. cbn [d_remove]. intros Ix Iy N B. inversion N as [|? ? NI ND]; subst. destruct (Nat.eqb_spec w z) as [->|NZ].
  - destruct B as [[-> _]|B]; [contradiction|exact B].
  - cbn [bef]. destruct B as [[-> I]|B].
    + left. split; auto. destruct Iy as [<-|Iy]; [contradiction|exact Iy].
    + right. apply IH; auto.
      * destruct Ix as [<-|Ix]; auto. exfalso. clear -B NI. induction l as [|v l IHl]; [destruct B|]. destruct B as [[-> _]|B]; [apply NI; now left|apply IHl; auto; intros I; apply NI; now right].
      * destruct Iy as [<-|Iy]; auto. exfalso. clear -B NI. induction l as [|v l IHl]; [destruct B|]. destruct B as [[_ J]|B]; [apply NI; now right|apply IHl; auto; intros I; apply NI; now right].
Qed.
Lemma bef_app x y l z : bef x y (l ++ [z]) <-> bef x y l \/ (z = y /\ In x l).
Proof.
  induction l as [|w l IH]; cbn [app bef In]; [tauto|]. rewrite IH, in_app_iff. cbn [In]. intuition (subst; auto).
Qed.
Lemma nodup_after h : added_once h -> NoDup (after h).
Proof.
  induction h as [|[y|y] h IH]; cbn [added_once after fold_right d_step]; [intros _; constructor| |]; fold (after h); intros A.
  - destruct A as [R A]. unfold d_add. apply (Permutation_NoDup (Permutation_cons_append (after h) y)). constructor; [|auto]. rewrite <- cnt_in, cnt_after. lia.
  - specialize (IH A). clear -IH. induction IH as [|z l N ND IH]; [constructor|]. cbn [d_remove]. destruct (z =? y); [exact ND|]. constructor; [|exact IH]. intros I. apply N. eapply in_remove; eauto.
Qed.
Lemma once_le x h : added_once h -> registered x h <= 1.
Proof.
  induction h as [|[y|y] h IH]; cbn [added_once registered]; intros A; [lia| |]; destruct (Nat.eqb_spec y x); subst; try (destruct A as [R A]); try specialize (IH A); lia.
Qed.
Lemma order_after x y h : x <> y -> added_once h -> registered x h <> 0 -> registered y h <> 0 -> bef x y (after h) <-> added_before x y h.
Proof.
  intros NE. induction h as [|[z|z] h IH]; cbn [added_once registered added_before after fold_right d_step]; [intros _ ?; contradiction| |]; fold (after h); intros A Rx Ry.
  - destruct A as [R A]. unfold d_add. rewrite bef_app. destruct (Nat.eqb_spec z y) as [->|NY].
    + destruct (Nat.eqb_spec y x); [congruence|]. rewrite <- cnt_in, cnt_after. split; [|now right]. intros [B|[_ B]]; [|exact B]. exfalso.
      assert (I : In y (after h)) by (clear -B; induction (after h) as [|w l IHl]; [destruct B|destruct B as [[_ I]|B]; [now right|right; auto]]).
      apply cnt_in in I. rewrite cnt_after in I. contradiction.
    + destruct (Nat.eqb_spec z x) as [->|NX].
      * split; [|intros []]. intros [B|[E _]]; [|congruence].
        assert (I : In x (after h)) by (clear -B; induction (after h) as [|w l IHl]; [destruct B|destruct B as [[-> I]|B]; [now left|right; auto]]).
        apply cnt_in in I. rewrite cnt_after in I. contradiction.
      * rewrite <- IH by auto. split; [|now left]. intros [B|[E _]]; [exact B|congruence].
  - assert (Rx' : registered x h <> 0) by (destruct (z =? x); lia). assert (Ry' : registered y h <> 0) by (destruct (z =? y); lia).
    rewrite <- IH by auto. split; [apply bef_remove|]. intros B.
    pose proof (cnt_after x (Remove z :: h)) as Cx. pose proof (cnt_after y (Remove z :: h)) as Cy. cbn [after fold_right d_step registered] in Cx, Cy. fold (after h) in Cx, Cy.
    apply remove_bef; auto; [apply cnt_in; lia|apply cnt_in; lia|now apply nodup_after].
Qed.

(** ** C52 *)
(** An event is delivered to each listener as often as it is registered (once if it is added at most once at a time, and never
    after it was removed), and in the order of registration. Histories: the latest operation first. *)
Theorem C52 : forall (E : Type) (h : list d_op) (e : E),
  let calls := d_send (d_run (rev h)) e in
  (forall x, calls_to x calls = registered x h) /\
  (forall c, In c calls -> snd c = e) /\
  (added_once h -> (forall x, calls_to x calls <= 1) /\
     forall x y, x <> y -> registered x h <> 0 -> registered y h <> 0 -> (called_before x y calls <-> added_before x y h)).
Proof.
  intros E h e. cbv zeta. rewrite run_rev. fold (after h). split; [intros x; now rewrite calls_cnt, cnt_after|]. split.
  - intros c I. rewrite send_map in I. apply in_map_iff in I. destruct I as (x & <- & _). reflexivity.
  - intros A. split; [intros x; rewrite calls_cnt, cnt_after; now apply once_le|]. intros x y NE Rx Ry. rewrite ord_calls, bef_ord. now apply order_after.
Qed.
Print Assumptions C52.

(** *** Components of a solver *)
(** a new object has an address that no existing object has (addresses of destroyed objects may be used again) *)
Fixpoint fresh_all (s : parts) (h : list (part * nat)) : Prop :=
  match h with [] => True | (w, x) :: h' => ~ In x (alive s) /\ fresh_all (p_set s w x) h' end.
Definition current (s : parts) : list nat :=
  p_sub s :: concat (map (fun p => match p with Some x => [x] | None => [] end) [p_th s; p_order s; p_restart s]).
Record pinv (s : parts) : Prop := mkPinv {
  pi_nodup : NoDup (p_disp s);
  pi_parts : Permutation (p_disp s) (current s);
  pi_alive : forall x, In x (alive s) <-> In x (current s) }.
Lemma remove_mid l1 l2 x : ~ In x l1 -> d_remove (l1 ++ x :: l2) x = l1 ++ l2.
Proof.
  induction l1 as [|y l1 IH]; intros N; cbn [app d_remove]; [now rewrite Nat.eqb_refl|]. destruct (Nat.eqb_spec y x) as [->|]; [exfalso; apply N; now left|].
  rewrite IH; auto. intros I. apply N. now right.
Qed.
Lemma pinv_replace (d : listeners) (l1 l2 : list nat) (p : option nat) (al : list nat) x :
  NoDup d -> Permutation d (l1 ++ match p with Some y => [y] | None => [] end ++ l2) ->
  (forall z, In z al <-> In z (l1 ++ match p with Some y => [y] | None => [] end ++ l2)) -> ~ In x al ->
  NoDup (d_add (d_remove_ptr d p) x) /\ Permutation (d_add (d_remove_ptr d p) x) (l1 ++ [x] ++ l2) /\
  (forall z, In z (drop (x :: al) p) <-> In z (l1 ++ [x] ++ l2)).
Proof.
  intros ND P A F. assert (NX : ~ In x d) by (intros I; apply F, A; eapply Permutation_in; eauto).
  assert (G : NoDup (d_remove_ptr d p) /\ Permutation (d_remove_ptr d p) (l1 ++ l2) /\ ~ In x (d_remove_ptr d p)).
  { destruct p as [y|]; cbn [d_remove_ptr]; [|auto]. assert (I : In y d) by (eapply Permutation_in; [apply Permutation_sym; exact P|apply in_or_app; right; now left]).
    apply in_split in I. destruct I as (d1 & d2 & ->). pose proof (NoDup_remove_1 _ _ _ ND) as N1. pose proof (NoDup_remove_2 _ _ _ ND) as N2.
    rewrite remove_mid by (intros I; apply N2, in_or_app; now left). split; [exact N1|]. split; [|intros I; apply NX; apply in_app_or in I; apply in_or_app; destruct I; [left|right; right]; auto].
    cbn [app] in P. exact (Permutation_app_inv _ _ _ _ _ P). }
  destruct G as (G1 & G2 & G3). unfold d_add. split; [|split].
  - apply (Permutation_NoDup (Permutation_cons_append _ x)). now constructor.
  - rewrite <- Permutation_cons_append, G2. cbn [app]. apply Permutation_middle.
  - intros z. destruct p as [y|]; cbn [drop app] in *.
    + rewrite filter_In. cbn [In]. rewrite A. assert (NY : NoDup (l1 ++ y :: l2)) by (eapply Permutation_NoDup; eauto). apply NoDup_remove_2 in NY.
      rewrite negb_true_iff, Nat.eqb_neq. rewrite !in_app_iff in *. cbn [In]. split; [intuition congruence|]. intros I. split.
      * intuition.
      * intros ->. assert (x <> y) by (intros ->; apply F, A; apply in_or_app; right; now left). intuition.
    + cbn [In]. rewrite A, !in_app_iff. cbn [In]. intuition.
Qed.
Definition opt (p : option nat) : list nat := match p with Some y => [y] | None => [] end.
Lemma pinv_set s w x : pinv s -> ~ In x (alive s) -> pinv (p_set s w x).
Proof.
  intros [ND P A] F. destruct s as [d sb th vo rp al]. unfold current in *. cbn [p_disp p_sub p_th p_order p_restart alive map concat] in *.
  destruct w; cbn [p_set p_disp p_sub p_th p_order p_restart alive].
  - destruct (pinv_replace d [sb] (opt vo ++ opt rp ++ []) th al x ND P A F) as (X & Y & Z). constructor; assumption.
  - assert (EQ : forall q, sb :: opt th ++ opt q ++ opt rp ++ [] = (sb :: opt th) ++ opt q ++ (opt rp ++ [])) by (intros; cbn [app]; reflexivity).
    destruct (pinv_replace d (sb :: opt th) (opt rp ++ []) vo al x ND P A F) as (X & Y & Z). constructor; assumption.
  - assert (E : forall q, sb :: opt th ++ opt vo ++ opt q ++ [] = (sb :: opt th ++ opt vo) ++ opt q ++ []) by (intros; cbn [app]; now rewrite <- app_assoc).
    fold (opt th) (opt vo) (opt rp) in P, A. rewrite (E rp) in P. assert (A' : forall z, In z al <-> In z ((sb :: opt th ++ opt vo) ++ opt rp ++ [])) by (intros z; rewrite A, E; reflexivity).
    destruct (pinv_replace d (sb :: opt th ++ opt vo) [] rp al x ND P A' F) as (X & Y & Z). constructor; cbn [p_disp alive]; auto.
    + unfold current. cbn [p_sub p_th p_order p_restart map concat]. fold (opt th) (opt vo) (opt (Some x)). rewrite (E (Some x)). exact Y.
    + unfold current. cbn [p_sub p_th p_order p_restart map concat]. fold (opt th) (opt vo) (opt (Some x)). rewrite (E (Some x)). exact Z.
Qed.
(** Whatever components were replaced before, an event of a solver is delivered exactly once to its subsumption and to its current
    theory, variable order and restart policy, and to no other object; these exist (no destroyed object is called). *)
Theorem C52_solver : forall (E : Type) (h : list (part * nat)) (e : E), fresh_all p_new h ->
  let s := p_run h in let calls := d_send (p_disp s) e in
  (forall x, calls_to x calls = if in_dec Nat.eq_dec x (current s) then 1 else 0) /\
  (forall x, calls_to x calls <> 0 -> In x (alive s)).
Proof.
  intros E h e F. cbv zeta. unfold p_run. assert (I : pinv p_new).
  { constructor; [repeat constructor; intros []|reflexivity|reflexivity]. }
  revert F I. generalize p_new. induction h as [|[w x] h IH]; intros s F I; cbn [fold_left fst snd].
  - destruct I as [ND P A]. assert (G : forall x, calls_to x (d_send (p_disp s) e) = if in_dec Nat.eq_dec x (current s) then 1 else 0).
    { intros x. rewrite calls_cnt. destruct (in_dec Nat.eq_dec x (current s)) as [J|J].
      - apply (Permutation_in _ (Permutation_sym P)) in J. apply in_split in J. destruct J as (l1 & l2 & Ed). rewrite Ed in *. apply NoDup_remove_2 in ND.
        rewrite cnt_app. unfold cnt at 2. cbn [filter]. rewrite Nat.eqb_refl. cbn [length]. fold (cnt x l2).
        assert (Z1 : cnt x l1 = 0) by (destruct (Nat.eq_dec (cnt x l1) 0) as [|Nz]; auto; exfalso; apply cnt_in in Nz; apply ND, in_or_app; now left).
        assert (Z2 : cnt x l2 = 0) by (destruct (Nat.eq_dec (cnt x l2) 0) as [|Nz]; auto; exfalso; apply cnt_in in Nz; apply ND, in_or_app; now right). lia.
      - destruct (Nat.eq_dec (cnt x (p_disp s)) 0) as [|Nz]; auto. exfalso. apply cnt_in in Nz. apply J. eapply Permutation_in; eauto. }
    split; [exact G|]. intros x N. rewrite G in N. apply A. now destruct (in_dec Nat.eq_dec x (current s)).
  - cbn [fresh_all] in F. destruct F as [F1 F2]. apply IH; [exact F2|]. now apply pinv_set.
Qed.
Print Assumptions C52_solver.

Example C52_nonvacuous :
  added_once (rev [Add 3; Add 5; Add 4; Remove 3; Add 3; Remove 7]) /\ d_send (d_run [Add 3; Add 5; Add 4; Remove 3; Add 3; Remove 7]) true = [(5, true); (4, true); (3, true)] /\
  added_before 5 3 (rev [Add 3; Add 5; Add 4; Remove 3; Add 3; Remove 7]) /\
  fresh_all p_new [(PTheory, 1); (POrder, 2); (PTheory, 3); (PRestart, 1)] /\ current (p_run [(PTheory, 1); (POrder, 2); (PTheory, 3); (PRestart, 1)]) = [0; 3; 2; 1].
Proof. cbn. intuition lia. Qed.
