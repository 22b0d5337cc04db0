(** Specification of the trail: what is recorded for each assigned variable. *)
From Coq Require Import List Arith ZArith QArith Bool.
From Verif Require Import Base Core_Model Trail_Model.
Import ListNotations.
Open Scope nat_scope.

(** Record of an assigned variable: its decision level, the last level whose list shows it, its
    reason and its value. *)
Record asg : Type := mkAsg { a_level : nat; a_top : nat; a_reason : option cref; a_value : xvalue }.

(** Abstract trail: current level, number of variables per type, records of assigned variables. *)
Record atrail : Type := mkAT { at_dl : nat; at_nb : nat; at_nq : nat; at_rec : var -> option asg }.
Definition at_new (nb nq : nat) : atrail := mkAT 0 nb nq (fun _ => None).

(** legal call of an operation *)
Definition t_legal (a : atrail) (o : top) : Prop :=
  match o with
  | TDecide v _ => in_range (at_nb a) (at_nq a) v = true /\ at_rec a v = None
  | TPropagate v _ k _ => in_range (at_nb a) (at_nq a) v = true /\ at_rec a v = None /\ k <= at_dl a
  | TBacktrack k => k <= at_dl a
  | TClear => True
  | TResize nb nq => at_nb a <= nb /\ at_nq a <= nq
  end.

(** a variable of level above [k] is forgotten; the others keep level, reason and value *)
Definition cut (k : nat) (o : option asg) : option asg :=
  match o with
  | None => None
  | Some g => if a_level g <=? k
              then Some (mkAsg (a_level g) (Nat.min (a_top g) k) (a_reason g) (a_value g))
              else None
  end.

Definition at_step (a : atrail) (o : top) : atrail :=
  match o with
  | TDecide v x =>
      mkAT (S (at_dl a)) (at_nb a) (at_nq a)
           (vupd (at_rec a) v (Some (mkAsg (S (at_dl a)) (S (at_dl a)) None x)))
  | TPropagate v r k x =>
      mkAT (at_dl a) (at_nb a) (at_nq a) (vupd (at_rec a) v (Some (mkAsg k (at_dl a) r x)))
  | TBacktrack k => mkAT k (at_nb a) (at_nq a) (fun v => cut k (at_rec a v))
  | TClear => mkAT 0 (at_nb a) (at_nq a) (fun _ => None)
  | TResize nb nq => mkAT (at_dl a) nb nq (at_rec a)
  end.

(** legal histories and the abstract trail they lead to *)
Inductive t_history (nb nq : nat) : list top -> atrail -> Prop :=
| th_new : t_history nb nq [] (at_new nb nq)
| th_step h a o : t_history nb nq h a -> t_legal a o -> t_history nb nq (h ++ [o]) (at_step a o).

(** is_defined / value of a variable of either type *)
Definition is_def (t : trail) (v : var) : bool :=
  match v with VBool i => mdef (t_bm t) i | VRat i => mdef (t_qm t) i end.
Definition has_value (t : trail) (v : var) (x : xvalue) : Prop :=
  match v with VBool i => mval (t_bm t) i = fst x | VRat i => mval (t_qm t) i = snd x end.

(** the list of level [i] *)
Definition lists (t : trail) (i : nat) : list entry :=
  match assigned_at t i with Ok es => es | _ => [] end.

(** What a trail shows of an abstract trail. *)
Record shows (t : trail) (a : atrail) : Prop := mkShows {
  sh_dl : dl t = at_dl a;
  sh_num : mnum (t_bm t) = at_nb a /\ mnum (t_qm t) = at_nq a;
  sh_lvl : forall v, t_lvl t v = option_map a_level (at_rec a v);
  sh_rsn : forall v, t_rsn t v = match at_rec a v with Some g => a_reason g | None => None end;
  sh_def : forall v, is_def t v = match at_rec a v with Some _ => true | None => false end;
  sh_val : forall v g, at_rec a v = Some g -> has_value t v (a_value g);
  sh_list : forall i v r, i <= dl t ->
    (In (v, r) (lists t i) <-> exists g, at_rec a v = Some g /\ a_level g <= i <= a_top g /\ a_reason g = r);
  sh_once : forall i, NoDup (map fst (lists t i));
  sh_ok : forall v g, at_rec a v = Some g ->
    in_range (at_nb a) (at_nq a) v = true /\ a_level g <= a_top g <= at_dl a }.

(** ** What a plugin has been given (C53)
    A plugin's view of the current level starts anew when the level is opened, and after every
    backtrack or restart. *)
Definition starts_level (o : top) : bool :=
  match o with TDecide _ _ | TBacktrack _ | TClear => true | _ => false end.
(** runs the trail and the cursor and collects what assigned() returned for the current level *)
Fixpoint c_run (t : trail) (c : cursor) (acc : list entry) (h : list cop)
  : res (trail * cursor * list entry) :=
  match h with
  | [] => Ok (t, c, acc)
  | COp o :: h' =>
      t1 <- t_step t o ;; c_run t1 (c_notify c o) (if starts_level o then [] else acc) h'
  | CAssignedCall :: h' =>
      let (c1, range) := cursor_assigned c t in c_run t c1 (acc ++ range) h'
  end.

(** ** One pass over the plugins (C54) *)
Section Pass.
Context {PS : Type}.
(** every plugin is called once, in order, and reports no conflict *)
Inductive quiet_pass : list (@plugin PS) -> list PS -> db -> trail -> list PS -> db -> trail -> Prop :=
| qp_nil d t : quiet_pass [] [] d t [] d t
| qp_cons p ps s ss d t s1 d1 t1 ss1 d2 t2 :
    p s d t = Ok (s1, d1, t1, []) -> quiet_pass ps ss d1 t1 ss1 d2 t2 ->
    quiet_pass (p :: ps) (s :: ss) d t (s1 :: ss1) d2 t2.
(** ... and no plugin changes the list of the current level *)
Inductive silent_pass : list (@plugin PS) -> list PS -> db -> trail -> list PS -> db -> trail -> Prop :=
| sp_nil d t : silent_pass [] [] d t [] d t
| sp_cons p ps s ss d t s1 d1 t1 ss1 d2 t2 :
    p s d t = Ok (s1, d1, t1, []) -> recent t1 = recent t -> silent_pass ps ss d1 t1 ss1 d2 t2 ->
    silent_pass (p :: ps) (s :: ss) d t (s1 :: ss1) d2 t2.
End Pass.
