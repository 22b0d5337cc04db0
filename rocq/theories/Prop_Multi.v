(** C55: several conflicts at once. *)
From Coq Require Import List Arith ZArith NArith Bool.
From Verif Require Import Base Core_Model Analysis_Model Solver_Model Spec_Multi Multi_Proofs.
Import ListNotations.
Open Scope nat_scope.

(** C55: after any non-empty list of conflicts, for any theory and heuristics, the backtrack level
    is the least level derived from a conflict, and the clauses appended to the learned ones are,
    each once, exactly those derived at this level - without the semantic splits unless all of them
    are semantic splits. The asserted clauses and the old learned clauses are unchanged. *)
Theorem C55 : forall TS HS (th : theory TS) (he : heur HS) d t ts h cs lc lv h1 d' ts' h' rs,
  cs <> [] ->
  analyze_conflicts he d t h cs [] None = Ok (lc, lv, h1) ->
  learn th he d t ts h1 lc = Ok (d', ts', h', rs) ->
  exists l new, lv = Some l /\
    (forall c c' l1, In c cs -> derived d t c c' l1 -> (l <= l1)%Z) /\
    asserted d' = asserted d /\ learned d' = learned d ++ new /\ NoDup new /\
    rs = map CLearned (seq (length (learned d)) (length new)) /\
    forall c', In c' new <-> (exists c, In c cs /\ derived d t c c' l) /\
      (split_clause t c' -> forall c c0, In c cs -> derived d t c c0 l -> split_clause t c0).
Proof. exact @multi_ok. Qed.
Print Assumptions C55.

Definition ex_theory : theory unit :=
  mkTheory (fun _ s d t => Ok (s, d, t, [])) (fun s _ t _ => Ok (s, t)) (fun s _ _ _ => s)
           (fun s _ _ _ => Ok s) (fun s _ _ => s).
Definition ex_heur : heur unit :=
  mkHeur (fun s _ _ => (s, None)) (fun _ _ _ => false) (fun _ => false) (fun s _ _ => s)
         (fun s _ _ => s) (fun s _ _ => s) (fun s => s).
(** x0 decided on level 1, x1 on level 2, x2 propagated by a theory (no reason) on level 2 *)
Definition ex_trail : trail :=
  let set t i := with_bm t (set_value (t_bm t) i true) in
  let t := trail_decide (set (trail_decide (set (trail_new 3 0) 0) (VBool 0)) 1) (VBool 1) in
  match trail_propagate (set t 2) (VBool 2) None 2 with Ok t' => t' | _ => t end.
(** A semantic split and twice the same propagating clause: one clause is learned. With a unit
    conflict, which backtracks further, only that one is. *)
Example C55_nonvacuous :
  let n i := mkLit i true in
  let d := mkDb [] [] in
  let cs := [[n 1; n 2]; [n 0; n 1]; [n 1; n 0]] in
  (exists lc, analyze_conflicts ex_heur d ex_trail tt cs [] None = Ok (lc, Some 1%Z, tt) /\ length lc = 3 /\
     match learn ex_theory ex_heur d ex_trail tt tt lc with
     | Ok (d', _, _, _) => learned d' = [[n 1; n 0]]
     | _ => False
     end) /\
  (exists lc, analyze_conflicts ex_heur d ex_trail tt (cs ++ [[n 1]]) [] None = Ok (lc, Some 0%Z, tt) /\
     match learn ex_theory ex_heur d ex_trail tt tt lc with
     | Ok (d', _, _, _) => learned d' = [[n 1]]
     | _ => False
     end).
Proof.
  cbv zeta. split; eexists; (split; [vm_compute; reflexivity|]).
  - split; vm_compute; reflexivity.
  - vm_compute. reflexivity.
Qed.
