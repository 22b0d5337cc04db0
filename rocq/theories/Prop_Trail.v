(** C13 Backtracking restores exactly the lower levels; C14 Trail bookkeeping is consistent;
    C15 A changed value is always visible in its timestamp; C53 No trail element is skipped by a
    plugin; C54 Combined propagation reaches a common fixpoint. *)
From Coq Require Import List Arith ZArith QArith Bool.
From Verif Require Import Base Core_Model Trail_Model Spec_Trail Trail_Proofs.
Import ListNotations.
Open Scope nat_scope.

(** C13, on every trail reachable by legal operations. *)
Theorem C13_backtrack : forall nb nq h a k t,
  t_history nb nq h a -> t_run (trail_new nb nq) h = Ok t -> k <= dl t ->
  exists t', trail_backtrack t k = Ok t' /\ dl t' = k /\
    (forall v, is_def t' v = true <-> is_def t v = true /\ exists j, t_lvl t v = Some j /\ j <= k) /\
    (forall v, is_def t' v = true -> t_lvl t' v = t_lvl t v /\ t_rsn t' v = t_rsn t v /\
       (forall x, has_value t v x -> has_value t' v x)) /\
    (forall v, is_def t' v = false -> t_lvl t' v = None /\ t_rsn t' v = None) /\
    (forall i, i <= k -> assigned_at t' i = assigned_at t i).
Proof. exact backtrack_lemma. Qed.
Print Assumptions C13_backtrack.

(** C14: after every legal history the trail shows exactly the records of Spec_Trail.v, and
    recent() is the list of the current level. *)
Theorem C14_bookkeeping : forall nb nq h a,
  t_history nb nq h a ->
  exists t, t_run (trail_new nb nq) h = Ok t /\ shows t a /\ lists t (dl t) = recent t.
Proof. exact trail_history_lemma. Qed.
Print Assumptions C14_bookkeeping.

Definition C14_history : list top :=
  ((((([] ++ [TPropagate (VBool 0) (Some (CAsserted 1)) 0 (true, 0%Q)]) ++ [TDecide (VBool 1) (false, 0%Q)])
   ++ [TDecide (VRat 0) (true, 5%Q)]) ++ [TPropagate (VBool 2) (Some (CLearned 0)) 1 (true, 0%Q)])
   ++ [TPropagate (VBool 3) None 2 (true, 0%Q)]).
Example C14_nonvacuous : (exists a, t_history 4 1 C14_history a /\ at_dl a = 2) /\
  match t_run (trail_new 4 1) C14_history with
  | Ok t => lists t 2 = [(VBool 3, None); (VBool 2, Some (CLearned 0)); (VRat 0, None)] /\
            lists t 1 = [(VBool 2, Some (CLearned 0)); (VBool 1, None)] /\
            match trail_backtrack t 1 with
            | Ok t' => is_def t' (VBool 2) = true /\ is_def t' (VBool 3) = false /\ is_def t' (VRat 0) = false
            | _ => False
            end
  | _ => False
  end.
Proof.
  split; [|now vm_compute]. eexists. split.
  - unfold C14_history. repeat apply th_step; [apply th_new| | | | |]; simpl; auto.
  - reflexivity.
Qed.

(** C15: [x0] is the value given to new variables. *)
Theorem C15_timestamps : forall (T : Type) (x0 : T) (n : nat) (h1 h2 : list (mop T)) (i : nat),
  let m1 := m_run x0 (model_new x0 n) h1 in
  let m2 := m_run x0 (model_new x0 n) (h1 ++ h2) in
  mdef m1 i = true -> mdef m2 i = true -> mts m1 i = mts m2 i ->
  (forall y, ~ In (MSet i y) h2) /\ ~ In (MClear i) h2 /\ ~ In MClearAll h2 /\
  forall p q, h2 = p ++ q ->
    mdef (m_run x0 (model_new x0 n) (h1 ++ p)) i = true /\
    mval (m_run x0 (model_new x0 n) (h1 ++ p)) i = mval m1 i.
Proof. exact @timestamp_lemma. Qed.
Print Assumptions C15_timestamps.

(** C15: an assignment gets a timestamp above every earlier one. *)
Theorem C15_later_is_larger : forall (T : Type) (x0 : T) (n : nat) (h1 h2 : list (mop T)) (i j : nat) (y : T),
  let m1 := m_run x0 (model_new x0 n) h1 in
  let m2 := m_run x0 (model_new x0 n) (h1 ++ h2) in
  let m3 := set_value m2 j y in
  mdef m3 j = true /\ mval m3 j = y /\ (mts m1 i < mts m3 j)%Z.
Proof. exact @timestamp_later. Qed.
Print Assumptions C15_later_is_larger.

Example C15_nonvacuous :
  let m := m_run false (model_new false 3) [MSet 1 true; MSet 0 true] in
  let m' := m_run false (model_new false 3) ([MSet 1 true; MSet 0 true] ++ [MClear 0; MSet 0 true; MResize 5; MSet 2 true]) in
  mdef m 1 = true /\ mdef m' 1 = true /\ mts m 1 = mts m' 1 /\ mdef m' 0 = true /\ mts m 0 <> mts m' 0.
Proof. vm_compute. repeat split; discriminate || reflexivity. Qed.

(** C53: whatever the history, right after a call of assigned() the ranges given to the plugin
    since its current level was opened (or since the last backtrack or restart) are, in order, the
    whole level. *)
Theorem C53_nothing_skipped : forall nb nq h t c acc,
  c_run (trail_new nb nq) cursor_new [] (h ++ [CAssignedCall]) = Ok (t, c, acc) -> acc = rev (recent t).
Proof. exact cursor_lemma. Qed.
Print Assumptions C53_nothing_skipped.

Example C53_nonvacuous :
  match c_run (trail_new 4 0) cursor_new []
    ([COp (TPropagate (VBool 0) None 0 (true, 0%Q)); CAssignedCall; COp (TDecide (VBool 1) (true, 0%Q)); CAssignedCall;
      COp (TPropagate (VBool 2) None 0 (true, 0%Q)); COp (TPropagate (VBool 3) None 1 (true, 0%Q))] ++ [CAssignedCall]) with
  | Ok (t, c, acc) => acc = [(VBool 1, None); (VBool 2, None); (VBool 3, None)]
  | _ => False
  end.
Proof. vm_compute. reflexivity. Qed.

(** C54, for arbitrary plugins: without conflict the call ends with a pass in which every plugin was
    called once, in order, and the size of the current level did not change; a conflict is the
    answer of a plugin on the final state. *)
Theorem C54_fixpoint : forall (PS : Type) fuel (ps : list (@plugin PS)) ss d t ss' d' t' cs,
  comb_propagate fuel ps ss d t = Ok (ss', d', t', cs) ->
  (cs = [] -> exists ss0 d0 t0, quiet_pass ps ss0 d0 t0 ss' d' t' /\ length (recent t') = length (recent t0)) /\
  (cs <> [] -> exists p s d1 t1 s', In p ps /\ p s d1 t1 = Ok (s', d', t', cs)).
Proof. exact @comb_lemma. Qed.
Print Assumptions C54_fixpoint.

(** C54: if plugins only add to the current level, nothing was added by any plugin in that pass. *)
Theorem C54_nothing_added : forall (PS : Type) (ps : list (@plugin PS)),
  (forall p s d t s' d' t' cs, In p ps -> p s d t = Ok (s', d', t', cs) -> exists es, recent t' = es ++ recent t) ->
  forall ss d t ss' d' t', quiet_pass ps ss d t ss' d' t' -> length (recent t') = length (recent t) ->
  silent_pass ps ss d t ss' d' t'.
Proof. exact @quiet_unchanged. Qed.
Print Assumptions C54_nothing_added.

(** C54: the loop ends, when plugins succeed, only add to the level and the level cannot exceed [n]. *)
Theorem C54_terminates : forall (PS : Type) (ps : list (@plugin PS)) (P : trail -> Prop) n,
  (forall p s d t, In p ps -> P t ->
     exists s' d' t' cs, p s d t = Ok (s', d', t', cs) /\ P t' /\ length (recent t) <= length (recent t') <= n) ->
  forall k fuel ss d t, length ss = length ps -> P t -> length (recent t) <= n -> n - length (recent t) <= k -> k < fuel ->
  exists r, comb_propagate fuel ps ss d t = Ok r.
Proof. exact @comb_terminates. Qed.
Print Assumptions C54_terminates.

Definition C54_add (i : nat) : @plugin unit := fun s d t =>
  if mdef (t_bm t) i then Ok (s, d, t, [])
  else if (i =? 0) || mdef (t_bm t) (i - 1)
       then t1 <- trail_propagate (put t (VBool i) (true, 0%Q)) (VBool i) None 0 ;; Ok (s, d, t1, [])
       else Ok (s, d, t, []).
Example C54_nonvacuous :
  match comb_propagate 5 [C54_add 2; C54_add 1; C54_add 0] [tt; tt; tt] (mkDb [] []) (trail_new 3 0) with
  | Ok (_, _, t, cs) => cs = [] /\ map fst (recent t) = [VBool 2; VBool 1; VBool 0]
  | _ => False
  end.
Proof. vm_compute. auto. Qed.
