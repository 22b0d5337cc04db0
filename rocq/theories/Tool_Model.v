(** Model of smt_solver.cpp (the SMT tool): the command line, the file, the commands up to the first check-sat and the
    printed answer. *)
From Coq Require Import Ascii String List Arith ZArith QArith NArith Bool.
From Verif Require Import Base Core_Model Bool_Model Trail_Model Solver_Model Lra_Model Terms_Model TermMgr_Model Lexer_Model Parser_Model Script_Model
  Order_Model Gvorder_Model Check_Model Ufcheck_Model.
Import ListNotations.
Close Scope Q_scope.
Open Scope nat_scope.

(** ** The command line *)
(** Options.h 10-29 *)
Record options : Type := mkOptions { op_rational : bool; op_bounds : bool; op_stats : bool; op_phase : phase_opt }.
Definition options_default : options := mkOptions false false false PhasePositive.
(** smt_solver.cpp 47-58: another value leaves the phase as it is *)
Definition phase_arg (v : text) (ph : phase_opt) : phase_opt :=
  if text_eqb v (t_of "positive") then PhasePositive
  else if text_eqb v (t_of "negative") then PhaseNegative
  else if text_eqb v (t_of "cache") then PhaseCache else ph.
(** std::string::starts_with("-") *)
Definition dashed (a : text) : bool := match a with c :: _ => Ascii.eqb c "-"%char | [] => false end.
(** smt_solver.cpp 27-71, the arguments after the program's name; [None]: "Unrecognized option" *)
Fixpoint read_args (args : list text) (o : options) (path : text) : option (options * text) :=
  match args with
  | [] => Some (o, path)
  | a :: args' =>
      if text_eqb a (t_of "--prop-rational") then read_args args' (mkOptions true (op_bounds o) (op_stats o) (op_phase o)) path
      else if text_eqb a (t_of "--deduce-bounds") then read_args args' (mkOptions (op_rational o) true (op_stats o) (op_phase o)) path
      else if text_eqb a (t_of "--print-stats") then read_args args' (mkOptions (op_rational o) (op_bounds o) true (op_phase o)) path
      else if text_eqb a (t_of "--phase") then
        match args' with
        | [] => Some (o, path)
        | v :: args'' => read_args args'' (mkOptions (op_rational o) (op_bounds o) (op_stats o) (phase_arg v (op_phase o))) path
        end
      else if dashed a then None
      else read_args args' o a
  end.

(** Yaga.cpp 25-29, 45-49 with the defaults of Linear_arithmetic.h 34-54 *)
Definition lra_options (o : options) : lopt := mkOpt (op_bounds o) false (op_rational o) true.

(** ** The run *)
(** the usage message; a file that cannot be opened; no check-sat; the first answer *)
Inductive printed : Type := PUsage | PNoFile | PNothing | PAnswer (a : answer).

Section Tool.
(** scores, restart policy, what linear arithmetic answers to the variable order's questions, hashes (cf. Gvorder_Model, Check_Model) *)
Context {F RS : Type}.
Variables (fo : fops F) (rp : restart_policy RS) (r0 : RS).
Variables (cv : nat -> nat -> list nat) (dec : nat -> list nat) (ed : nat -> nat -> bool).
Variables (hi : nat -> Z) (hv : Q -> Z) (hash : lit -> N) (H : hashes) (ndebug : bool) (df fuel : nat).

Definition sets_logic (toks : list tok) : bool := match toks with LParen :: Word w :: _ => word w "set-logic" | _ => false end.
(** Smt2_parser.cpp 178-182 up to the first call of check_sat: whether the logic was set, and the state. The closing parenthesis
    of check-sat is read before the answer is printed. *)
Fixpoint run_to_check (n : nat) (set : bool) (k : kst) (toks : list tok) : res (option (bool * kst)) :=
  match n with
  | 0 => Fuel
  | S n' =>
      ' (go, k', r) <- parse_command H k toks ;;
      match k_checks k' with
      | _ :: _ => Ok (Some (set, k'))
      | [] => if go : bool then run_to_check n' (set || sets_logic toks) k' r else Ok None
      end
  end.
(** Smt2_parser.cpp 209-214; Yaga.cpp 16-56: the solver set up for the logic. Without set-logic there is no theory (null pointer). *)
Definition answer_check (o : options) (set uf : bool) (c : list term * table) : res answer :=
  _ <- assertb set ;;
  let he := heur_of (gv_order fo cv dec ed) rp in
  let hs := fun d t => (gv_start fo cv d t, r0) in
  if uf then ' (a, _) <- check_assertions_uf hi hv (lra_options o) ndebug (snd c) he hash df fuel (op_phase o) hs (fst c) ;; Ok a
  else ' (a, _) <- check_assertions hi hv (lra_options o) ndebug he hash df fuel (op_phase o) hs (snd c) (fst c) ;; Ok a.
(** smt_solver.cpp 23-93, Smt2_parser.cpp 438-451. [files]: the texts of the files that can be opened. The whole text is split into
    tokens first; a text that cannot be is [UB]. *)
Definition smt_tool (files : text -> option text) (args : list text) : res printed :=
  match read_args args options_default [] with
  | None => Ok PUsage
  | Some (o, path) =>
      match path with
      | [] => Ok PUsage
      | _ =>
          match files path with
          | None => Ok PNoFile
          | Some s =>
              toks <- value_of (lex s) ;;
              r <- run_to_check (S (List.length toks)) false (k_new H) toks ;;
              match r with
              | None => Ok PNothing
              | Some (set, k) =>
                  match k_checks k with
                  | [] => Ok PNothing
                  | c :: _ => a <- answer_check o set (k_uf k) c ;; Ok (PAnswer a)
                  end
              end
          end
      end
  end.
End Tool.
