(** C51: the SAT tool decides DIMACS files. *)
From Coq Require Import Ascii String List Arith ZArith QArith NArith Bool Lia.
From Verif Require Import Base Core_Model Bool_Model Trail_Model Solver_Model Spec_Sat Sat_Wrap Order_Model Order_Proofs Sat_Examples Lexer_Model Spec_Decimal Dimacs_Model Spec_Dimacs Dimacs_Proofs.
Import ListNotations.
Close Scope Q_scope.
Open Scope nat_scope.

(** C51: for every DIMACS file the tool ends, prints SAT if the clauses of the file are satisfiable and UNSAT if they are not
    (never ERROR), for every admissible variable order and restart policy. *)
Theorem C51 : forall HS (he : heur HS) (hash : lit -> N) (o : phase_opt) (h : nat -> list clause -> HS) n cs s,
  (forall n cs, admissible n he (h n cs)) -> dimacs n cs s ->
  exists k p, (forall fuel, k <= fuel -> sat_tool he hash fuel o h s = Ok p) /\
    ((p = PSat /\ satisfiable cs) \/ (p = PUnsat /\ ~ satisfiable cs)).
Proof. intros HS he hash o h n cs s HA. exact (tool_ok he hash o h HA n cs s). Qed.
Print Assumptions C51.

(** with the variable order and restart policy of the tool: Evsids and Glucose_restart *)
Theorem C51_tool : forall (hash : lit -> N) (o : phase_opt) n cs s, dimacs n cs s ->
  exists k p, (forall fuel, k <= fuel ->
      sat_tool (heur_of (evsids_order qops) glucose_restart) hash fuel o
               (fun n cs => (ev_init qops (ev_new qops n) (mkDb cs []), glucose_start)) s = Ok p) /\
    ((p = PSat /\ satisfiable cs) \/ (p = PUnsat /\ ~ satisfiable cs)).
Proof.
  intros hash o n cs s. apply C51. intros n0 cs0. exact (evsids_admissible n0 glucose_restart (mkDb cs0 []) glucose_start).
Qed.
Print Assumptions C51_tool.

(** A file that announces [m] clauses and lists others: clauses after the first [m] and a last clause without its 0 are
    ignored; if there are fewer, the file is refused, or UNSAT is printed if one of them is empty. *)
Theorem C51_counts : forall HS (he : heur HS) (hash : lit -> N) (o : phase_opt) (h : nat -> list clause -> HS) n m cs rest s,
  (forall n cs, admissible n he (h n cs)) -> listing n m cs rest s -> let cs' := firstn (Z.to_nat m) cs in
  exists k p, (forall fuel, k <= fuel -> sat_tool he hash fuel o h s = Ok p) /\
    ((p = PBad /\ (Z.of_nat (length cs) < m)%Z /\ ~ In [] cs) \/
     (((m <= Z.of_nat (length cs))%Z \/ In [] cs) /\ ((p = PSat /\ satisfiable cs') \/ (p = PUnsat /\ ~ satisfiable cs')))).
Proof. intros HS he hash o h n m cs rest s HA. exact (tool_counts he hash o h HA n m cs rest s). Qed.
Print Assumptions C51_counts.

(** *** Examples *)
Definition nlc : string := String (ascii_of_nat 10) EmptyString.
Definition tool_run := sat_tool (heur_of (evsids_order qops) glucose_restart) ex_hash 100 PhaseCache
  (fun n cs => (ev_init qops (ev_new qops n) (mkDb cs []), glucose_start)).
(** comments, clauses over several lines and several clauses on a line *)
Definition d_cs : list (list Z) := [[1; -3]; [2; 3; -1]; [-2; 1]]%Z.
Definition d_body : list (list ascii) := [t_of "1 -3 0 2"; t_of "  c the second clause"; t_of "3   -1"; t_of " 0 -2 1 00"].
Definition d_text : list ascii := t_of ("c example" ++ nlc ++ "p cnf 3  3" ++ nlc ++ "1 -3 0 2" ++ nlc ++ "  c the second clause" ++ nlc ++ "3   -1" ++ nlc ++ " 0 -2 1 00")%string.
Definition u_cs : list (list Z) := [[1; 2]; [-1; 2]; [1; -2]; [-1; -2; -2]]%Z.
Definition u_text : list ascii := t_of ("p cnf 2 4" ++ nlc ++ "1 2 0 -1 2 0 1 -2 0 -1 -2 -2 0" ++ nlc)%string.
Ltac each := cbn [firstn skipn Nat.add t_of list_ascii_of_string]; repeat (apply Forall_cons || apply Forall_nil).
Tactic Notation "sp" := unfold spaces; each; vm_compute; auto 10.
Lemma num_p (ds : list ascii) z : digits_value ds = z -> ds <> [] -> Forall is_digit ds -> numeral z ds.
Proof. intros <- N F. now constructor. Qed.
Lemma num_m (ds : list ascii) z : digits_value ds = (- z)%Z -> ds <> [] -> Forall is_digit ds -> numeral z ("-"%char :: ds).
Proof. intros E N F. replace z with (- digits_value ds)%Z by lia. now constructor. Qed.
Ltac digs := each; vm_compute; auto 12.
(** [nums] by splitting after [k] blanks, [l] characters of the number and [m] blanks *)
Lemma nums_cut z zs k l m s : firstn m (skipn (k + l) s) <> [] -> spaces (firstn k s) -> spaces (firstn m (skipn (k + l) s)) ->
  numeral z (firstn l (skipn k s)) -> nums zs (skipn (k + l + m) s) -> nums (z :: zs) s.
Proof.
  intros N S1 S2 Z R. rewrite <- (firstn_skipn k s). rewrite <- (firstn_skipn l (skipn k s)). rewrite <- (firstn_skipn m (skipn l (skipn k s))).
  assert (SK : forall a b (x : list ascii), skipn a (skipn b x) = skipn (b + a) x) by (intros a b; induction b as [|b IH]; intros [|y x]; cbn; auto; now rewrite skipn_nil).
  rewrite !SK in *. apply nums_more; auto.
Qed.
Ltac cut k l m := apply (nums_cut _ _ k l m); [discriminate|sp|sp| |].
Ltac num1 := first [apply num_p; [reflexivity|discriminate|digs]|apply num_m; [reflexivity|discriminate|digs]].
Lemma d_dimacs : dimacs 3 d_cs d_text.
Proof.
  split; [lia|]. split; [reflexivity|]. split.
  { intros c z I J. cbn in I. repeat (destruct I as [<-|I]; [cbn in J; repeat (destruct J as [<-|J]; [lia|]); destruct J|]). destruct I. }
  exists [t_of "c example"], (t_of "p cnf 3  3"), d_body. split.
  { constructor; [|constructor]. apply (comment_line [] (t_of " example")); [constructor|]. each; vm_compute; discriminate. }
  split.
  { exists [], [" "%char], (t_of "3  3"). split; [constructor|]. split; [discriminate|]. split; [sp|]. split; [|reflexivity].
    cut 0 1 2; [num1|]. apply (nums_one 3 [] (t_of "3") []); [constructor|num1|constructor]. }
  split; [|right; exists [t_of "c example"; t_of "p cnf 3  3"; t_of "1 -3 0 2"; t_of "  c the second clause"; t_of "3   -1"], (t_of " 0 -2 1 00"); split; vm_compute; reflexivity].
  change (flat_map (fun c => c ++ [0%Z]) d_cs) with ([1; -3; 0; 2] ++ [3; -1] ++ [0; -2; 1; 0] ++ [])%Z. unfold d_body.
  apply body_nums.
  { cut 0 1 1; [num1|]. cut 0 2 1; [num1|]. cut 0 1 1; [num1|]. apply (nums_one 2 [] (t_of "2") []); [constructor|num1|constructor]. }
  apply body_comment. { apply (comment_line (t_of "  ") (t_of " the second clause")); [sp|each; vm_compute; discriminate]. }
  apply body_nums. { cut 0 1 3; [num1|]. apply (nums_one (-1) [] (t_of "-1") []); [constructor|num1|constructor]. }
  apply body_nums; [|constructor].
  cut 1 1 1; [num1|]. cut 0 2 1; [num1|]. cut 0 1 1; [num1|]. apply (nums_one 0 [] (t_of "00") []); [constructor|num1|constructor].
Qed.
Example C51_nonvacuous : dimacs 3 d_cs d_text /\ satisfiable d_cs /\ tool_run d_text = Ok PSat /\ ~ satisfiable u_cs /\ tool_run u_text = Ok PUnsat.
Proof.
  split; [exact d_dimacs|]. split.
  { exists (fun _ => true). intros c I. cbn in I. destruct I as [<-|[<-|[<-|[]]]]; [exists 1%Z|exists 2%Z|exists 1%Z]; cbn; auto. }
  split; [vm_compute; reflexivity|]. split; [|vm_compute; reflexivity].
  intros (a & H). assert (X : forall c, In c u_cs -> exists z, In z c /\ num_holds a z) by exact H.
  destruct (X [1; 2]%Z) as (z1 & I1 & H1); [cbn; auto|]. destruct (X [-1; 2]%Z) as (z2 & I2 & H2); [cbn; auto|].
  destruct (X [1; -2]%Z) as (z3 & I3 & H3); [cbn; auto|]. destruct (X [-1; -2; -2]%Z) as (z4 & I4 & H4); [cbn; auto 6|]. clear X H.
  cbn in I1, I2, I3, I4. unfold num_holds in *.
  destruct I1 as [<-|[<-|[]]], I2 as [<-|[<-|[]]], I3 as [<-|[<-|[]]], I4 as [<-|[<-|[<-|[]]]]; cbn in *; congruence.
Qed.

(** "p cnf 1 3" with the clauses 1 and -1, and "p cnf 1 1" with the clauses 1, -1 and the number 1 *)
Definition few_text : list ascii := t_of ("p cnf 1 3" ++ nlc ++ "1 0 -1 0" ++ nlc)%string.
Definition many_text : list ascii := t_of ("p cnf 1 1" ++ nlc ++ "1 0 -1 0 1" ++ nlc)%string.
Example C51_counts_nonvacuous : listing 1 3 [[1]; [-1]]%Z [] few_text /\ tool_run few_text = Ok PBad /\
  listing 1 1 [[1]; [-1]]%Z [1%Z] many_text /\ tool_run many_text = Ok PSat.
Proof.
  split.
  { split; [lia|]. split; [lia|]. split.
    { intros c z I J. cbn in I. repeat (destruct I as [<-|I]; [cbn in J; repeat (destruct J as [<-|J]; [lia|]); destruct J|]). destruct I. }
    exists [], (t_of "p cnf 1 3"), [t_of "1 0 -1 0"]. split; [constructor|]. split.
    { exists [], [" "%char], (t_of "1 3"). split; [constructor|]. split; [discriminate|]. split; [sp|]. split; [|reflexivity].
      cut 0 1 1; [num1|]. apply (nums_one 3 [] (t_of "3") []); [constructor|num1|constructor]. }
    split; [|left; vm_compute; reflexivity].
    change (flat_map (fun c => c ++ [0%Z]) [[1]; [-1]]%Z ++ [])%Z with ([1; 0; -1; 0] ++ [])%Z. apply body_nums; [|constructor].
    cut 0 1 1; [num1|]. cut 0 1 1; [num1|]. cut 0 2 1; [num1|]. apply (nums_one 0 [] (t_of "0") []); [constructor|num1|constructor]. }
  split; [vm_compute; reflexivity|]. split; [|vm_compute; reflexivity].
  split; [lia|]. split; [lia|]. split.
  { intros c z I J. cbn in I. repeat (destruct I as [<-|I]; [cbn in J; repeat (destruct J as [<-|J]; [lia|]); destruct J|]). destruct I. }
  exists [], (t_of "p cnf 1 1"), [t_of "1 0 -1 0 1"]. split; [constructor|]. split.
  { exists [], [" "%char], (t_of "1 1"). split; [constructor|]. split; [discriminate|]. split; [sp|]. split; [|reflexivity].
    cut 0 1 1; [num1|]. apply (nums_one 1 [] (t_of "1") []); [constructor|num1|constructor]. }
  split; [|left; vm_compute; reflexivity].
  change (flat_map (fun c => c ++ [0%Z]) [[1]; [-1]]%Z ++ [1])%Z with ([1; 0; -1; 0; 1] ++ [])%Z. apply body_nums; [|constructor].
  cut 0 1 1; [num1|]. cut 0 1 1; [num1|]. cut 0 2 1; [num1|]. cut 0 1 1; [num1|]. apply (nums_one 1 [] (t_of "1") []); [constructor|num1|constructor].
Qed.

(** Files that are not DIMACS are not always refused: clauses after the announced number are ignored, so the answer for
    the clauses 1 and -1 is SAT; and what follows something that is not a number is skipped up to the end of the line. *)
Theorem C51_malformed_refuted :
  tool_run (t_of ("p cnf 1 1" ++ nlc ++ "1 0 -1 0" ++ nlc)) = Ok PSat /\
  tool_run (t_of ("p cnf 2 1" ++ nlc ++ "-1 x 2 0" ++ nlc ++ "1 0" ++ nlc)) = Ok PSat.
Proof. repeat split; vm_compute; reflexivity. Qed.
Print Assumptions C51_malformed_refuted.
