(** Model of Theory.cpp and bool/Bool_theory.{h,cpp}. *)
From Coq Require Import List Arith ZArith Bool Lia.
From Verif Require Import Base Core_Model.
Import ListNotations.
Open Scope nat_scope.

(** Bool_theory.h 82-93 Watched_clause: clause pointer and next index to check. *)
Definition watch : Type := (cref * nat)%type.

(** Bool_theory.h 89-92: constructor, index = min(2, size-1) as int (size 0 would give -1; such
    clauses are UB before this point). *)
Definition new_watch (d : db) (r : cref) : watch := (r, Nat.min 2 (length (getc d r) - 1)).

Definition watch_map := lit -> list watch.
Definition wm_set (w : watch_map) (l : lit) (x : list watch) : watch_map :=
  fun k => if lit_eqb k l then x else w k.
Definition wm_push (w : watch_map) (l : lit) (x : watch) : watch_map :=
  wm_set w l (w l ++ [x]).

(** Bool_theory.h 17-29. *)
Inductive phase_opt := PhasePositive | PhaseNegative | PhaseCache.

(** Theory's fields (current_level: -1 is None) and Bool_theory's fields that live across calls.
    [satisfied] is cleared at the start of propagate() and therefore local to it. *)
Record bstate : Type := mkB {
  b_watched : watch_map;
  b_phase : nat -> bool;
  b_opt : phase_opt;
  b_level : option nat;
  b_next : nat }.

(** initial state (Bool_theory.cpp 29-36: phases default to true). *)
Definition bstate_new (o : phase_opt) : bstate := mkB (fun _ => []) (fun _ => true) o None 0.

(** Theory.cpp 11-17 assigned(trail): oldest-first list of the delivered elements. *)
Definition theory_assigned (level : option nat) (next : nat) (t : trail)
  : list entry * option nat * nat :=
  let skip := match level with Some k => if dl t =? k then next else 0 | None => 0 end in
  (skipn skip (rev (recent t)), Some (dl t), length (recent t)).

(** Bool_theory.cpp 5-27 decide. *)
Definition bool_decide (b : bstate) (t : trail) (v : var) : trail :=
  match v with
  | VBool i =>
      let x := match b_opt b with
               | PhasePositive => true
               | PhaseNegative => false
               | PhaseCache => b_phase b i
               end in
      trail_decide (with_bm t (set_value (t_bm t) i x)) v
  | VRat _ => t
  end.

(** Bool_theory.cpp 45-51: body of the phase caching loop. *)
Definition cache_phase (m : model bool) (ph : nat -> bool) (e : entry) : nat -> bool :=
  match fst e with VBool i => upd ph i (mval m i) | VRat _ => ph end.

(** Bool_theory.cpp 38-53 on_before_backtrack (levels decision_level() .. level+1). *)
Definition bool_before_backtrack (b : bstate) (t : trail) (level : nat) : bstate :=
  mkB (b_watched b)
      (fold_left (fun ph es => fold_left (cache_phase (t_bm t)) (rev es) ph)
                 (firstn (dl t - level) (t_levels t)) (b_phase b))
      (b_opt b) None 0.

(** Bool_theory.cpp 55-70 on_learned_clause; learned[0] of an empty clause is UB. *)
Definition bool_learned (b : bstate) (d : db) (r : cref) : res bstate :=
  match getc d r with
  | [] => UB
  | l0 :: c' =>
      let w1 := wm_push (b_watched b) l0 (new_watch d r) in
      let w2 := match c' with [] => w1 | l1 :: _ => wm_push w1 l1 (new_watch d r) end in
      Ok (mkB w2 (b_phase b) (b_opt b) (b_level b) (b_next b))
  end.

(** stack of satisfied literals; head = back of the vector *)
Definition sat_stack := list (lit * option cref).

(** Bool_theory.cpp 92-104: one clause of the initialisation loop; clause[0] of an empty clause
    is UB. *)
Definition init_clause (d : db) (acc : watch_map * sat_stack) (r : cref)
  : res (watch_map * sat_stack) :=
  let (w, s) := acc in
  match getc d r with
  | [] => UB
  | [l0] => Ok (wm_push w l0 (new_watch d r), (l0, Some r) :: s)
  | l0 :: l1 :: _ => Ok (wm_push (wm_push w l0 (new_watch d r)) l1 (new_watch d r), s)
  end.
Fixpoint init_clauses (d : db) (rs : list cref) (acc : watch_map * sat_stack)
  : res (watch_map * sat_stack) :=
  match rs with
  | [] => Ok acc
  | r :: rs' => a <- init_clause d acc r ;; init_clauses d rs' a
  end.

(** all clauses in the order asserted, learned *)
Definition all_refs (d : db) : list cref :=
  map CAsserted (seq 0 (length (asserted d))) ++ map CLearned (seq 0 (length (learned d))).

(** Bool_theory.cpp 109-116: literal of an assigned variable. *)
Definition true_lit (m : model bool) (v : nat) : lit := mkLit v (negb (mval m v)).
Fixpoint push_assigned (m : model bool) (es : list entry) (s : sat_stack) : sat_stack :=
  match es with
  | [] => s
  | (VBool v, r) :: es' => push_assigned m es' ((true_lit m v, r) :: s)
  | (VRat _, _) :: es' => push_assigned m es' s
  end.

(** Bool_theory.cpp 72-117 initialize. *)
Definition bool_initialize (b : bstate) (d : db) (t : trail) : res (bstate * sat_stack) :=
  '(w, s) <- (if trail_empty t then init_clauses d (all_refs d) (fun _ => [], [])
              else Ok (b_watched b, [])) ;;
  let '(es, lv, nx) := theory_assigned (b_level b) (b_next b) t in
  Ok (mkB w (b_phase b) (b_opt b) lv nx, push_assigned (t_bm t) es s).

(** Bool_theory.cpp 165-182: the do-while search for a non-false literal starting at [idx],
    wrapping to 2, until it is back at [stop]. [fuel] bounds the iterations (length of the clause
    suffices, see the proofs); running out is reported as [Fuel]. *)
Fixpoint watch_search (fuel : nat) (m : model bool) (c : clause) (idx stop : nat)
  : res (option nat) :=
  match fuel with
  | 0 => Fuel
  | S fuel' =>
      l <- at_ c idx ;;
      if negb (is_false (eval_lit m l)) then Ok (Some idx)
      else let idx' := if length c <=? idx + 1 then 2 else idx + 1 in
           if idx' =? stop then Ok None else watch_search fuel' m c idx' stop
  end.

(** std::swap(clause[i], clause[j]) *)
Definition swap {A} (i j : nat) (l : list A) : list A :=
  match nth_error l i, nth_error l j with
  | Some x, Some y => set_nth i y (set_nth j x l)
  | _, _ => l
  end.

(** Bool_theory.cpp 155-185 replace_second_watch: the new position or None. *)
Definition replace_second_watch (m : model bool) (c : clause) (idx : nat) : res (option nat) :=
  _ <- assertb (2 <=? length c) ;;
  l1 <- at_ c 1 ;;
  _ <- assertb (is_false (eval_lit m l1)) ;;
  if 2 <? length c then
    _ <- assertb ((2 <=? idx) && (idx <? length c)) ;;
    watch_search (length c) m c idx idx
  else Ok None.

(** Bool_theory.cpp 229-231: the second literal has the highest level among positions >= 1
    ([*trail.decision_level(...)] of an unassigned variable is UB). *)
Definition level_check (t : trail) (c : clause) : bool :=
  match tl c with
  | [] => true
  | l1 :: rest =>
      match lit_level t l1 with
      | None => false
      | Some k1 =>
          forallb (fun l => match lit_level t l with Some k => k <=? k1 | None => false end) rest
      end
  end.

(** Bool_theory.cpp 187-249 falsified: the watch list of [fl] is [done ++ todo], [i] is
    [length done]. [n] is structural fuel equal to [length todo]. Erasing the current watch swaps
    it with the back and pops. A push into the list that is being iterated would invalidate the
    reference [watch], hence UB. *)
Fixpoint falsified_loop (n : nat) (t : trail) (fl : lit) (d : db) (w : watch_map)
         (done todo : list watch) (s : sat_stack)
  : res (db * watch_map * sat_stack * option clause) :=
  match todo with
  | [] => Ok (d, wm_set w fl done, s, None)
  | (r, idx) :: rest =>
      match n with
      | 0 => Fuel
      | S n' =>
          let m := t_bm t in
          let c := getc d r in
          _ <- assertb (1 <=? length c) ;;
          if length c =? 1 then
            _ <- assertb (is_false (eval_clause m c)) ;;
            Ok (d, wm_set w fl (done ++ todo), s, Some c)
          else
            l0 <- at_ c 0 ;;
            let c1 := if lit_eqb l0 fl then swap 0 1 c else c in
            let d1 := setc d r c1 in
            l0' <- at_ c1 0 ;;
            l1' <- at_ c1 1 ;;
            _ <- assertb (lit_eqb l1' fl) ;;
            if is_true (eval_lit m l0') then
              falsified_loop n' t fl d1 w (done ++ [(r, idx)]) rest s
            else
              o <- replace_second_watch m c1 idx ;;
              match o with
              | Some j =>
                  let c2 := swap 1 j c1 in
                  l1'' <- at_ c2 1 ;;
                  _ <- assertb (negb (lit_eqb l1'' fl)) ;;
                  falsified_loop n' t fl (setc d1 r c2) (wm_push w l1'' (r, j)) done
                    (match rest with [] => [] | _ => last rest (r, idx) :: removelast rest end) s
              | None =>
                  _ <- assertb (level_check t c1) ;;
                  if is_false (eval_lit m l0') then
                    _ <- assertb (is_false (eval_clause m c1)) ;;
                    Ok (d1, wm_set w fl (done ++ todo), s, Some c1)
                  else
                    _ <- assertb (forallb (fun l => is_false (eval_lit m l)) (tl c1)) ;;
                    falsified_loop n' t fl d1 w (done ++ [(r, idx)]) rest ((l0', Some r) :: s)
              end
      end
  end.

Definition falsified (t : trail) (fl : lit) (d : db) (w : watch_map) (s : sat_stack)
  : res (db * watch_map * sat_stack * option clause) :=
  _ <- assertb (is_false (eval_lit (t_bm t) fl)) ;;
  falsified_loop (length (w fl)) t fl d w [] (w fl) s.

(** Bool_theory.cpp 127-150: the propagation loop. *)
Fixpoint bcp_loop (fuel : nat) (t : trail) (d : db) (w : watch_map) (s : sat_stack)
  : res (trail * db * watch_map * option clause) :=
  match s with
  | [] => Ok (t, d, w, None)
  | (l, reason) :: s' =>
      match fuel with
      | 0 => Fuel
      | S fuel' =>
          t1 <- (match reason with
                 | Some r =>
                     if mdef (t_bm t) (lord l) then Ok t
                     else trail_propagate
                            (with_bm t (set_value (t_bm t) (lord l) (negb (lneg l))))
                            (lvar l) (Some r) (dl t)
                 | None => Ok t
                 end) ;;
          _ <- assertb (is_true (eval_lit (t_bm t1) l)) ;;
          _ <- assertb (match reason with
                        | None => true
                        | Some r => forallb (fun o => lit_eqb o l || is_false (eval_lit (t_bm t1) o))
                                            (getc d r)
                        end) ;;
          '(d2, w2, s2, conflict) <- falsified t1 (neg l) d w s' ;;
          match conflict with
          | Some c => Ok (t1, d2, w2, Some c)
          | None => bcp_loop fuel' t1 d2 w2 s2
          end
      end
  end.

(** Bool_theory.cpp 119-153 propagate. *)
Definition bool_propagate (fuel : nat) (b : bstate) (d : db) (t : trail)
  : res (bstate * db * trail * list clause) :=
  '(b1, s) <- bool_initialize b d t ;;
  '(t2, d2, w2, conflict) <- bcp_loop fuel t d (b_watched b1) s ;;
  Ok (mkB w2 (b_phase b1) (b_opt b1) (b_level b1) (b_next b1), d2, t2,
      match conflict with Some c => [c] | None => [] end).
