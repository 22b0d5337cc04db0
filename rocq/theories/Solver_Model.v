(** Model of Solver.{h,cpp}: the main loop, generic in the theory plugin and the heuristics. *)
From Coq Require Import List Arith ZArith NArith Bool Lia.
From Verif Require Import Base Core_Model Analysis_Model.
Import ListNotations.
Open Scope nat_scope.

(** Theory.h: the plugin interface as used by Solver (state [TS]). [th_propagate] takes the fuel
    of its unbounded loops. *)
Record theory (TS : Type) : Type := mkTheory {
  th_propagate : nat -> TS -> db -> trail -> res (TS * db * trail * list clause);
  th_decide : TS -> db -> trail -> var -> res (TS * trail);
  th_before_backtrack : TS -> db -> trail -> nat -> TS;
  th_learned : TS -> db -> trail -> cref -> res TS;
  th_restart : TS -> db -> trail -> TS }.
Arguments mkTheory {TS}.
Arguments th_propagate {TS}.
Arguments th_decide {TS}.
Arguments th_before_backtrack {TS}.
Arguments th_learned {TS}.
Arguments th_restart {TS}.

(** Variable_order.h + Restart.h: variable order and restart policy together (state [HS]). *)
Record heur (HS : Type) : Type := mkHeur {
  h_pick : HS -> db -> trail -> HS * option var;
  h_is_before : HS -> var -> var -> bool;
  h_should_restart : HS -> bool;
  h_learned : HS -> trail -> clause -> HS;
  h_resolved : HS -> trail -> clause -> HS;
  h_before_backtrack : HS -> trail -> nat -> HS;
  h_restart : HS -> HS }.
Arguments mkHeur {HS}.
Arguments h_pick {HS}.
Arguments h_is_before {HS}.
Arguments h_should_restart {HS}.
Arguments h_learned {HS}.
Arguments h_resolved {HS}.
Arguments h_before_backtrack {HS}.
Arguments h_restart {HS}.

Inductive answer := Sat | Unsat.

Section Solver.
Context {TS HS : Type}.
Variable th : theory TS.
Variable he : heur HS.
Variable hash : lit -> N.

(** Solver's fields that matter: database, trail, theory, heuristics, Subsumption::old_size. *)
Record solver : Type := mkS {
  s_db : db;
  s_trail : trail;
  s_th : TS;
  s_he : HS;
  s_old : nat }.

(** Solver.cpp 20-46: loop over the conflicts; [level] starts at INT_MAX (None). Also threads the
    heuristics through on_conflict_resolved. *)
Fixpoint analyze_conflicts (d : db) (t : trail) (h : HS) (cs : list clause)
         (acc : list clause) (level : option Z) : res (list clause * option Z * HS) :=
  match cs with
  | [] => Ok (acc, level, h)
  | c :: cs' =>
      '(c1, l1, resolved) <- analyze d t c ;;
      let h1 := fold_left (fun h c => h_resolved he h t c) resolved h in
      c2 <- (match c1 with [] => Ok [] | _ => minimize d t c1 end) ;;
      match level with
      | None => analyze_conflicts d t h1 cs' [c2] (Some l1)
      | Some l =>
          if (l1 <? l)%Z then analyze_conflicts d t h1 cs' [c2] (Some l1)
          else if (l1 =? l)%Z then analyze_conflicts d t h1 cs' (acc ++ [c2]) level
          else analyze_conflicts d t h1 cs' acc level
      end
  end.

(** Literal vectors compare lexicographically by literal index. *)
Fixpoint lex_lt (a b : clause) : bool :=
  match a, b with
  | [], [] => false
  | [], _ => true
  | _, [] => false
  | x :: a', y :: b' => if lidx x <? lidx y then true
                        else if lidx y <? lidx x then false else lex_lt a' b'
  end.

(** Solver.cpp 53-66: comparator of learn(). *)
Definition learn_lt (a b : clause) : bool :=
  if length a <? length b then true
  else if length b <? length a then false
  else lex_lt a b.

Fixpoint clause_eqb (a b : clause) : bool :=
  match a, b with
  | [], [] => true
  | x :: a', y :: b' => lit_eqb x y && clause_eqb a' b'
  | _, _ => false
  end.

(** std::unique: remove consecutive duplicates. *)
Fixpoint unique (l : list clause) : list clause :=
  match l with
  | a :: (b :: _) as l' => if clause_eqb a b then unique l' else a :: unique l'
  | _ => l
  end.

(** Solver.cpp 91-95 is_semantic_split. *)
Definition is_semantic_split (t : trail) (c : clause) : res bool :=
  match c with
  | l0 :: l1 :: _ =>
      k0 <- value_of (lit_level t l0) ;;
      k1 <- value_of (lit_level t l1) ;;
      Ok (k0 =? k1)
  | _ => Ok false
  end.

Fixpoint map_res {A B} (f : A -> res B) (l : list A) : res (list B) :=
  match l with
  | [] => Ok []
  | x :: l' => y <- f x ;; ys <- map_res f l' ;; Ok (y :: ys)
  end.

(** Solver.cpp 70-77: drop semantic splits if some clause is not one (C++ stops evaluating
    any_of at the first hit; evaluating all is equivalent because the predicate is pure and the
    following remove_if evaluates all). *)
Definition drop_splits (t : trail) (cs : list clause) : res (list clause) :=
  bs <- map_res (is_semantic_split t) cs ;;
  if existsb negb bs then
    Ok (map fst (filter (fun p => negb (snd p)) (combine cs bs)))
  else Ok cs.

(** Solver.cpp 79-86: add the clauses one by one and trigger the events. *)
Fixpoint learn_loop (t : trail) (cs : list clause) (d : db) (ts : TS) (h : HS)
  : res (db * TS * HS) :=
  match cs with
  | [] => Ok (d, ts, h)
  | c :: cs' =>
      let d1 := mkDb (asserted d) (learned d ++ [c]) in
      ts1 <- th_learned th ts d1 t (CLearned (length (learned d))) ;;
      learn_loop t cs' d1 ts1 (h_learned he h t c)
  end.

(** Solver.cpp 50-89 learn: returns the range of new clauses as references. *)
Definition learn (d : db) (t : trail) (ts : TS) (h : HS) (cs : list clause)
  : res (db * TS * HS * list cref) :=
  cs1 <- drop_splits t (unique (sort_by learn_lt cs)) ;;
  '(d1, ts1, h1) <- learn_loop t cs1 d ts h ;;
  Ok (d1, ts1, h1, map CLearned (seq (length (learned d)) (length cs1))).

(** Solver.cpp 109-119: best literal among those of the top level. *)
Fixpoint pick_split (t : trail) (h : HS) (k : nat) (best : lit) (c : clause) : res lit :=
  match c with
  | [] => Ok best
  | l :: c' =>
      if at_level t k l then
        _ <- assertb (match t_rsn t (lvar l) with None => true | Some _ => false end) ;;
        pick_split t h k (if h_is_before he h (lvar l) (lvar best) then l else best) c'
      else Ok best
  end.

(** Solver.cpp 140-147: propagate the first literal of every clause. *)
Fixpoint propagate_all (d : db) (t : trail) (level : nat) (rs : list cref) : res trail :=
  match rs with
  | [] => Ok t
  | r :: rs' =>
      l <- at_ (getc d r) 0 ;;
      t1 <- (if mdef (t_bm t) (lord l) then Ok t
             else t' <- trail_propagate t (lvar l) (Some r) level ;;
                  Ok (with_bm t' (set_value (t_bm t') (lord l) (negb (lneg l))))) ;;
      propagate_all d t1 level rs'
  end.

(** Solver.cpp 97-149 backtrack_with. A negative level violates the assert in Trail::backtrack. *)
Definition backtrack_with (s : solver) (rs : list cref) (levelz : Z) : res solver :=
  if (levelz <? 0)%Z then UB else
  let level := Z.to_nat levelz in
  let t := s_trail s in
  let d := s_db s in
  let ts := th_before_backtrack th (s_th s) d t level in
  let h := h_before_backtrack he (s_he s) t level in
  r0 <- at_ rs 0 ;;
  bs <- map_res (fun r => is_semantic_split t (getc d r)) rs ;;
  split <- is_semantic_split t (getc d r0) ;;
  if split : bool then
    _ <- assertb (forallb (fun b => b) bs) ;;
    match getc d r0 with
    | [] => UB
    | l0 :: c' =>
        k <- value_of (lit_level t l0) ;;
        l <- pick_split t h k l0 c' ;;
        es <- assigned_at t (level + 1) ;;
        _ <- assertb (match last es (VBool 0, None) with (VRat _, _) => true | _ => false end) ;;
        t1 <- trail_backtrack t level ;;
        let t2 := trail_decide t1 (lvar l) in
        Ok (mkS d (with_bm t2 (set_value (t_bm t2) (lord l) (negb (lneg l)))) ts h (s_old s))
    end
  else
    _ <- assertb (forallb negb bs) ;;
    t1 <- trail_backtrack t level ;;
    t2 <- propagate_all d t1 level rs ;;
    Ok (mkS d t2 ts h (s_old s)).

(** Solver.cpp 178-186 restart. Listeners of on_restart: Subsumption, theory, heuristics. *)
Definition restart (s : solver) : res solver :=
  let t := s_trail s in
  let ts := th_before_backtrack th (s_th s) (s_db s) t 0 in
  let h := h_before_backtrack he (s_he s) t 0 in
  let t1 := trail_clear t in
  L <- remove_subsumed hash (s_old s) (learned (s_db s)) ;;
  let d1 := mkDb (asserted (s_db s)) L in
  Ok (mkS d1 t1 (th_restart th ts d1 t1) (h_restart he h) (length L)).

Definition is_nil {A} (l : list A) : bool := match l with [] => true | _ => false end.

(** Solver.cpp 202-216: the body executed after a conflict above level 0; None = unsat. *)
Definition on_conflict (s : solver) (cs : list clause) : res (option solver) :=
  '(lc, level, h) <- analyze_conflicts (s_db s) (s_trail s) (s_he s) cs [] None ;;
  if existsb is_nil lc then Ok None else
  '(d1, ts1, h1, rs) <- learn (s_db s) (s_trail s) (s_th s) h lc ;;
  let s1 := mkS d1 (s_trail s) ts1 h1 (s_old s) in
  if h_should_restart he h1 then s2 <- restart s1 ;; Ok (Some s2)
  else lv <- value_of level ;; s2 <- backtrack_with s1 rs lv ;; Ok (Some s2).

(** One iteration of Solver.cpp 192-227. *)
Definition step (fuel : nat) (s : solver) : res (solver * option answer) :=
  '(ts1, d1, t1, cs) <- th_propagate th fuel (s_th s) (s_db s) (s_trail s) ;;
  let s1 := mkS d1 t1 ts1 (s_he s) (s_old s) in
  match cs with
  | _ :: _ =>
      if dl t1 =? 0 then Ok (s1, Some Unsat)
      else o <- on_conflict s1 cs ;;
           match o with
           | None => Ok (s1, Some Unsat)
           | Some s2 => Ok (s2, None)
           end
  | [] =>
      let (h1, ov) := h_pick he (s_he s1) d1 t1 in
      match ov with
      | None => Ok (mkS d1 t1 ts1 h1 (s_old s), Some Sat)
      | Some v => '(ts2, t2) <- th_decide th ts1 d1 t1 v ;;
                  Ok (mkS d1 t2 ts2 h1 (s_old s), None)
      end
  end.

(** Solver.cpp 188-228 check, after init() (which only allocates memory and notifies the
    heuristics; see [solver_start]). *)
Fixpoint run (fuel : nat) (s : solver) : res (solver * answer) :=
  match fuel with
  | 0 => Fuel
  | S fuel' =>
      '(s1, o) <- step fuel s ;;
      match o with
      | Some a => Ok (s1, a)
      | None => run fuel' s1
      end
  end.
End Solver.
Arguments mkS {TS HS}.
Arguments s_db {TS HS}.
Arguments s_trail {TS HS}.
Arguments s_th {TS HS}.
Arguments s_he {TS HS}.
Arguments s_old {TS HS}.

(** The propositional solver: Yaga.cpp (logic Propositional) = Bool_theory as the only plugin. *)
From Verif Require Import Bool_Model.
Definition bool_theory : theory bstate :=
  mkTheory
    (fun fuel b d t => bool_propagate fuel b d t)
    (fun b d t v => Ok (b, bool_decide b t v))
    (fun b d t k => bool_before_backtrack b t k)
    (fun b d t r => bool_learned b d r)
    (fun b d t => b).

(** State at the start of check() of a freshly created solver with [n] boolean variables whose
    database holds the clauses [cs]. *)
Definition solver_start {HS} (n : nat) (cs : list clause) (o : phase_opt) (h : HS)
  : solver (TS := bstate) (HS := HS) :=
  mkS (mkDb cs []) (trail_new n 0) (bstate_new o) h 0.

(** Solver::check() on a fresh propositional solver. *)
Definition check_bool {HS} (he : heur HS) (hash : lit -> N) (fuel n : nat) (cs : list clause)
           (o : phase_opt) (h : HS) : res (solver (TS := bstate) (HS := HS) * answer) :=
  run bool_theory he hash fuel (solver_start n cs o h).
