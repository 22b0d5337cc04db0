(** Model of Conflict_analysis.{h,cpp} and Subsumption.{h,cpp}. *)
From Coq Require Import List Arith ZArith NArith Bool Lia.
From Verif Require Import Base Core_Model.
Import ListNotations.
Open Scope nat_scope.

(** ** Conflict_analysis *)

(** [conflict.insert(lit)] on the unordered_set; the set is kept as a duplicate-free list, its
    order never influences the result (finish() sorts). Returns whether the literal is new. *)
Definition cset_insert (l : lit) (s : list lit) : list lit * bool :=
  if mem_lit l s then (s, false) else (l :: s, true).

Definition cset_remove (l : lit) (s : list lit) : list lit :=
  filter (fun x => negb (lit_eqb x l)) s.

(** Conflict_analysis.cpp 9-13: loop of init(). *)
Fixpoint init_loop (t : trail) (c : clause) (s : list lit) (top : nat) : res (list lit * nat) :=
  match c with
  | [] => Ok (s, top)
  | l :: c' =>
      k <- value_of (lit_level t l) ;;
      init_loop t c' (fst (cset_insert l s)) (Nat.max top k)
  end.

Definition at_level (t : trail) (k : nat) (l : lit) : bool :=
  match lit_level t l with Some j => j =? k | None => false end.

(** Conflict_analysis.cpp 15-17: count_if over the set (levels exist: checked in the loop). *)
Definition count_level (t : trail) (k : nat) (s : list lit) : Z :=
  Z.of_nat (length (filter (at_level t k) s)).

(** Conflict_analysis.cpp 24-34: loop of resolve(). *)
Fixpoint resolve_loop (t : trail) (top : nat) (cl : lit) (other : clause) (s : list lit) (n : Z)
  : list lit * Z :=
  match other with
  | [] => (s, n)
  | l :: other' =>
      if lit_eqb l (neg cl) then resolve_loop t top cl other' s n
      else let (s', ins) := cset_insert l s in
           resolve_loop t top cl other' s' (if ins && at_level t top l then n + 1 else n)%Z
  end.

(** Conflict_analysis.cpp 20-40 resolve(); the assert of line 36 is kept. *)
Definition resolve (t : trail) (top : nat) (other : clause) (cl : lit) (s : list lit) (n : Z)
  : res (list lit * Z) :=
  let (s', n') := resolve_loop t top cl other s n in
  _ <- assertb (at_level t top cl) ;;
  Ok (cset_remove cl s', n' - 1)%Z.

(** Conflict_analysis.h 75 can_backtrack(). *)
Definition can_backtrack (s : list lit) (n : Z) : bool := (n =? 1)%Z && (1 <? length s).

(** Conflict_analysis.h 41-55: the loop over assigned(top_level) in reverse order (the level list
    is stored newest first). The third component collects the clauses passed to [on_resolve]. *)
Fixpoint analyze_loop (d : db) (t : trail) (top : nat) (es : list entry) (s : list lit) (n : Z)
         (acc : list clause) : res (list lit * Z * list clause) :=
  if can_backtrack s n then Ok (s, n, acc) else
  match es with
  | [] => Ok (s, n, acc)
  | (VBool v, Some r) :: es' =>
      k <- value_of (t_lvl t (VBool v)) ;;
      let l := mkLit v (mval (t_bm t) v) in
      if (k =? top) && mem_lit l s then
        '(s', n') <- resolve t top (getc d r) l s n ;;
        analyze_loop d t top es' s' n' (acc ++ [getc d r])
      else analyze_loop d t top es' s n acc
  | _ :: es' => analyze_loop d t top es' s n acc
  end.

(** Conflict_analysis.cpp 52-57: comparator of finish(); value_or(-1) is level 0 vs. S level. *)
Definition lvl_or (t : trail) (l : lit) : nat :=
  match lit_level t l with Some k => S k | None => 0 end.
Definition finish_lt (t : trail) (a b : lit) : bool :=
  (lvl_or t b <? lvl_or t a) || ((lvl_or t a =? lvl_or t b) && (lord a <? lord b)).

(** Conflict_analysis.cpp 42-66 finish(). *)
Definition finish (t : trail) (top : nat) (s : list lit) (n : Z) : res (clause * Z) :=
  let c := sort_by (finish_lt t) s in
  match c with
  | [] => Ok ([], (-1)%Z)
  | _ =>
      _ <- assertb (is_false (eval_clause (t_bm t) c)) ;;
      if (2 <=? n)%Z then Ok (c, Z.of_nat top - 1)%Z
      else match c with
           | _ :: l1 :: _ => k <- value_of (lit_level t l1) ;; Ok (c, Z.of_nat k)
           | _ => Ok (c, 0%Z)
           end
  end.

(** Conflict_analysis.h 31-58 analyze(). *)
Definition analyze (d : db) (t : trail) (c : clause) : res (clause * Z * list clause) :=
  _ <- assertb (is_false (eval_clause (t_bm t) c)) ;;
  '(s, top) <- init_loop t c [] 0 ;;
  es <- assigned_at t top ;;
  '(s', n', acc) <- analyze_loop d t top es s (count_level t top s) [] ;;
  '(c', level) <- finish t top s' n' ;;
  Ok (c', level, acc).

(** ** Subsumption *)

(** Subsumption.cpp 60-85 selfsubsumes(first, second, lit), including its two asserts. *)
Definition selfsubsumes (first second : clause) (l : lit) : res bool :=
  _ <- assertb (mem_lit l first) ;;
  _ <- assertb (mem_lit (neg l) second) ;;
  Ok ((length first <=? length second) &&
      forallb (fun x => lit_eqb x l || mem_lit x second) first).

(** Subsumption.cpp 9-16: the predicate of minimize(); [cur] is the vector as it is in memory
    while std::remove_if runs. *)
Definition is_redundant (d : db) (t : trail) (cur : clause) (l : lit) : res bool :=
  if is_true (eval_lit (t_bm t) (neg l)) then
    match t_rsn t (lvar l) with
    | Some r => selfsubsumes (getc d r) cur (neg l)
    | None => Ok false
    end
  else Ok false.

(** std::remove_if on the vector [orig]: [kept] are the elements already moved to the front,
    [rest] the elements not yet tested; the vector in memory is
    [kept ++ skipn (length kept) orig]. *)
Fixpoint minimize_loop (d : db) (t : trail) (orig kept rest : clause) : res clause :=
  match rest with
  | [] => Ok kept
  | l :: rest' =>
      b <- is_redundant d t (kept ++ skipn (length kept) orig) l ;;
      minimize_loop d t orig (if b then kept else kept ++ [l]) rest'
  end.

(** Subsumption.cpp 5-19 minimize(). *)
Definition minimize (d : db) (t : trail) (c : clause) : res clause := minimize_loop d t c [] c.

Section Subsumption.
(** std::hash<int> on the literal's int value is implementation defined: any function. *)
Variable hash : lit -> N.

(** Subsumption.h 87-98 make_proxy: the signature (the pointer part is the clause's index). *)
Definition sig (c : clause) : N :=
  fold_left (fun s l => N.lor s (N.shiftl 1 (N.land (hash l) 63))) c 0%N.

(** Subsumption.cpp 32-58 subsumes(): 64-bit complement of the second signature. *)
Definition subsumes (sig1 : N) (c1 : clause) (sig2 : N) (c2 : clause) : bool :=
  (N.land sig1 (N.lxor sig2 (N.ones 64)) =? 0)%N &&
  (length c1 <? length c2) &&
  forallb (fun l => mem_lit l c2) c1.

(** Literal_map<std::vector<Clause_ptr>> occur: entries are (index in learned, signature). *)
Definition occur_map := lit -> list (nat * N).

(** Subsumption.cpp 87-104 index(begin, end): clauses [i .. i + length cs). *)
Fixpoint index_from (i : nat) (cs : list clause) (occ : occur_map) : occur_map :=
  match cs with
  | [] => occ
  | c :: cs' =>
      index_from (S i) cs'
        (fold_left (fun o l => fun x => if lit_eqb x l then o x ++ [(i, sig c)] else o x) c occ)
  end.
Definition index (lo hi : nat) (L : list clause) : occur_map :=
  index_from lo (firstn (hi - lo) (skipn lo L)) (fun _ => []).

(** Subsumption.cpp 113-123: literal with the shortest occurrence list. *)
Fixpoint best_lit (occ : occur_map) (best : lit) (c : clause) : lit :=
  match c with
  | [] => best
  | l :: c' => best_lit occ (if length (occ l) <? length (occ best) then l else best) c'
  end.

(** Subsumption.cpp 126-132: loop over the occurrence list. *)
Fixpoint clear_loop (i : nat) (s : N) (others : list (nat * N)) (L : list clause) : list clause :=
  match others with
  | [] => L
  | (j, sj) :: others' =>
      clear_loop i s others'
        (if negb (j =? i) && subsumes s (nth i L []) sj (nth j L []) then set_nth j [] L else L)
  end.

(** Subsumption.cpp 106-133 remove_subsumed(clause). *)
Definition remove_subsumed_by (occ : occur_map) (L : list clause) (i : nat) : list clause :=
  match nth i L [] with
  | [] => L
  | l :: c => clear_loop i (sig (l :: c)) (occ (best_lit occ l c)) L
  end.

(** Subsumption.cpp 135-158 remove_subsumed(db); [old_size] beyond the deque is UB. *)
Definition remove_subsumed (old_size : nat) (L : list clause) : res (list clause) :=
  if old_size <=? length L then
    let occ1 := index 0 old_size L in
    let L1 := fold_left (remove_subsumed_by occ1) (seq old_size (length L - old_size)) L in
    let occ2 := index old_size (length L1) L1 in
    let L2 := fold_left (remove_subsumed_by occ2) (seq 0 (length L1)) L1 in
    Ok (filter (fun c => negb (match c with [] => true | _ => false end)) L2)
  else UB.
End Subsumption.
