(** Specification for C64: the SMT tool's command line and answer. *)
From Coq Require Import Ascii String List Arith Bool.
From Verif Require Import Base Bool_Model Terms_Model Lexer_Model Spec_Script.
Import ListNotations.
Open Scope nat_scope.

(** ** Command lines *)
Inductive item : Type := IRational | IBounds | IStats | IPhase (v : text) | IPath (p : text).
Definition item_args (i : item) : list text :=
  match i with
  | IRational => [t_of "--prop-rational"]
  | IBounds => [t_of "--deduce-bounds"]
  | IStats => [t_of "--print-stats"]
  | IPhase v => [t_of "--phase"; v]
  | IPath p => [p]
  end.
Definition starts_dash (p : text) : Prop := exists r, p = "-"%char :: r.
Definition item_ok (i : item) : Prop := match i with IPath p => ~ starts_dash p | _ => True end.
Definition line (is : list item) : list text := flat_map item_args is.
(** an argument that looks like an option and is none *)
Definition unrecognized (a : text) : Prop :=
  starts_dash a /\ ~ In a [t_of "--prop-rational"; t_of "--deduce-bounds"; t_of "--print-stats"; t_of "--phase"].
(** the phase asked for: the last one with a known name *)
Inductive phase_named : text -> phase_opt -> Prop :=
| pn_pos : phase_named (t_of "positive") PhasePositive
| pn_neg : phase_named (t_of "negative") PhaseNegative
| pn_cache : phase_named (t_of "cache") PhaseCache.
Definition phase_asked (is : list item) (ph : phase_opt) : Prop :=
  (exists is1 v is2, is = is1 ++ IPhase v :: is2 /\ phase_named v ph /\ forall w q, In (IPhase w) is2 -> ~ phase_named w q) \/
  (ph = PhasePositive /\ forall w q, In (IPhase w) is -> ~ phase_named w q).
(** the file asked for: the last one, none if there is none *)
Definition path_asked (is : list item) (p : text) : Prop :=
  (exists is1 is2, is = is1 ++ IPath p :: is2 /\ forall q, ~ In (IPath q) is2) \/ (p = [] /\ forall q, ~ In (IPath q) is).

(** ** Scripts *)
(** the logic in force after some commands; [None]: none *)
Definition logic_after (cs : list command) : option bool :=
  fold_left (fun l c => match c with KLogic b => Some b | _ => l end) cs None.
