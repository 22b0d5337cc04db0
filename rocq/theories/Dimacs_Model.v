(** Model of sat_solver.cpp: the command line tool for DIMACS files. *)
From Coq Require Import Ascii String List Arith ZArith NArith Bool.
From Verif Require Import Base Core_Model Bool_Model Trail_Model Solver_Model Lexer_Model.
Import ListNotations.
Open Scope nat_scope.

(** std::isspace in the C locale *)
Definition spaceb (c : ascii) : bool := (code c =? 32) || ((9 <=? code c) && (code c <=? 13)).
Definition newline (c : ascii) : bool := code c =? 10.
(** std::getline until the input ends: 50. A last line without newline counts unless it is empty. *)
Fixpoint lines (cur : text) (s : text) : list text :=
  match s with
  | [] => match cur with [] => [] | _ => [rev cur] end
  | c :: s' => if newline c then rev cur :: lines [] s' else lines (c :: cur) s'
  end.
(** 52-54: leading white space is erased *)
Definition trim (s : text) : text := snd (span spaceb s).
Fixpoint starts_with (p s : text) : bool :=
  match p, s with [], _ => true | x :: p', y :: s' => Ascii.eqb x y && starts_with p' s' | _, [] => false end.

(** operator>>(int) of a stream in the C locale: white space is skipped, then an optional sign and decimal digits.
    [None] is failure (no digit, or a value that does not fit an int); the streams here are not used after one. *)
Definition digit_val (c : ascii) : Z := Z.of_nat (code c) - 48.
Definition number (ds : text) : Z := fold_left (fun z c => 10 * z + digit_val c)%Z ds 0%Z.
Definition fits_int (z : Z) : bool := ((- 2 ^ 31 <=? z) && (z <? 2 ^ 31))%Z.
Definition read_int (s : text) : option (Z * text) :=
  let s1 := trim s in
  let '(sign, s2) := match s1 with
                     | c :: r => if Ascii.eqb c "-" then (-1, r)%Z else if Ascii.eqb c "+" then (1, r)%Z else (1, s1)%Z
                     | [] => (1, s1)%Z
                     end in
  let '(ds, rest) := span digitb s2 in
  match ds with
  | [] => None
  | _ :: _ => let z := (sign * number ds)%Z in if fits_int z then Some (z, rest) else None
  end.

(** 42-48: the variables of main; [r_cls] are the clauses of the database, the latest first. num_clauses is not bounded
    (the code counts down from an int, one for each clause of the file). *)
Record reader : Type := mkR { r_init : bool; r_nv : Z; r_nc : Z; r_buf : clause; r_cls : list clause }.
Definition reader_new : reader := mkR false 0 0 [] [].
(** how reading goes on: next token or line, UNSAT printed, an error message *)
Inductive reading : Type := Go (r : reader) | EmptyClause | Error.

(** 78-111: one number of a line that is neither a comment nor the problem line *)
Definition read_lit (r : reader) (z : Z) : reading :=
  if negb (r_init r) then Error
  else if ((r_nv r <? z) || (z <? - r_nv r))%Z then Error
  else if (z =? 0)%Z then
    if ((0 <? r_nc r)%Z && match r_buf r with [] => true | _ => false end) then EmptyClause
    else Go (mkR true (r_nv r) (r_nc r - 1) [] (if (0 <? r_nc r)%Z then rev (r_buf r) :: r_cls r else r_cls r))
  else Go (mkR true (r_nv r) (r_nc r) ((if (z <? 0)%Z then mkLit (Z.to_nat (- z - 1)) true else mkLit (Z.to_nat (z - 1)) false) :: r_buf r) (r_cls r)).
(** 76-112: while (stream >> var). Each number takes at least one character: [fuel] is the length of the line. *)
Fixpoint read_lits (fuel : nat) (r : reader) (s : text) : res reading :=
  match read_int s with
  | None => Ok (Go r)
  | Some (z, s') =>
      match fuel with
      | 0 => Fuel
      | S f => match read_lit r z with Go r' => read_lits f r' s' | x => Ok x end
      end
  end.
(** 55-113: one line. A negative number of variables makes std::vector::resize throw (Trail.cpp 6-18). *)
Definition read_line (r : reader) (line : text) : res reading :=
  let s := trim line in
  if starts_with (t_of "c") s then Ok (Go r)
  else if starts_with (t_of "p cnf") s then
    if r_init r then Ok Error
    else match read_int (skipn 5 s) with
         | None => Ok Error
         | Some (nv, s1) =>
             match read_int s1 with
             | None => Ok Error
             | Some (nc, _) => if (nv <? 0)%Z then UB else Ok (Go (mkR true nv nc (r_buf r) (r_cls r)))
             end
         end
  else read_lits (length s) r s.
Fixpoint read_lines (r : reader) (ls : list text) : res reading :=
  match ls with
  | [] => Ok (Go r)
  | l :: ls' => x <- read_line r l ;; match x with Go r' => read_lines r' ls' | _ => Ok x end
  end.

(** 16-25 is_satisfying *)
Definition is_satisfying (t : trail) (d : db) : bool :=
  forallb (existsb (fun l => mdef (t_bm t) (lord l) && Bool.eqb (mval (t_bm t) (lord l)) (negb (lneg l)))) (asserted d).

(** what is printed: SAT, UNSAT, ERROR, or a message about the input *)
Inductive printed : Type := PSat | PUnsat | PError | PBad.
(** 27-154 main. [h] is the state of the variable order and restart policy after Solver::init. The statistics are left
    out. *)
Definition sat_tool {HS} (he : heur HS) (hash : lit -> N) (fuel : nat) (o : phase_opt) (h : nat -> list clause -> HS)
           (input : text) : res printed :=
  x <- read_lines reader_new (lines [] input) ;;
  match x with
  | Error => Ok PBad
  | EmptyClause => Ok PUnsat
  | Go r =>
      if negb (r_init r) then Ok PBad
      else if (0 <? r_nc r)%Z then Ok PBad
      else
        let n := Z.to_nat (r_nv r) in
        let cs := rev (r_cls r) in
        '(s, a) <- check_bool he hash fuel n cs o (h n cs) ;;
        match a with
        | Sat => Ok (if is_satisfying (s_trail s) (s_db s) then PSat else PError)
        | Unsat => Ok PUnsat
        end
  end.
