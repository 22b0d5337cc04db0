(** The combination of boolean propagation and linear arithmetic that Yaga uses for logic QF_LRA. *)
From Coq Require Import List Arith ZArith QArith NArith Bool.
From Verif Require Import Base Core_Model Bool_Model Trail_Model Solver_Model Lincons_Model Lra_Model.
Import ListNotations.
Open Scope nat_scope.

Section C.
Variables (hi : nat -> Z) (hv : Q -> Z) (opt : lopt).

(** Theory_combination.cpp 8-31 propagate, with the two plugins of Yaga.cpp 22-30 in the order in which
    they are added: Bool_theory, Linear_arithmetic. [n] bounds the rounds of the outer loop, [fuel] is
    handed to Bool_theory. *)
Fixpoint bl_propagate (n fuel : nat) (b : bstate) (a : lra) (d : db) (t : trail)
  : res ((bstate * lra) * db * trail * list clause) :=
  match n with
  | O => Fuel
  | S n' =>
      let old_size := length (recent t) in
      '(b1, d1, t1, c1) <- bool_propagate fuel b d t ;;
      match c1 with
      | _ :: _ => Ok ((b1, a), d1, t1, c1)
      | [] =>
          '(a2, t2, c2) <- lra_propagate hi hv opt a t1 ;;
          match c2 with
          | _ :: _ => Ok ((b1, a2), d1, t2, c2)
          | [] => if length (recent t2) =? old_size then Ok ((b1, a2), d1, t2, [])
                  else bl_propagate n' fuel b1 a2 d1 t2
          end
      end
  end.
(** Theory_combination.cpp 33-39 decide; [df] bounds the search of a value in Linear_arithmetic::decide *)
Definition bl_decide (df : nat) (b : bstate) (a : lra) (t : trail) (v : var) : res ((bstate * lra) * trail) :=
  '(a', t') <- lra_decide df a (bool_decide b t v) v ;;
  Ok ((b, a'), t').
(** Theory_combination.cpp 49-55 on_before_backtrack: Bool_theory.cpp 30-53, Theory.cpp 5-9.
    72-78 on_learned_clause: only Bool_theory overrides it. 88-94 on_restart: no plugin overrides it. *)
Definition bl_theory (df : nat) : theory (bstate * lra) :=
  mkTheory
    (fun fuel p d t => bl_propagate fuel fuel (fst p) (snd p) d t)
    (fun p d t v => bl_decide df (fst p) (snd p) t v)
    (fun p d t k => (bool_before_backtrack (fst p) t k, lra_before_backtrack (snd p)))
    (fun p d t r => b' <- bool_learned (fst p) d r ;; Ok (b', snd p))
    (fun p d t => p).

(** Solver::check (Solver.cpp 188-228) of a solver with these plugins: [a] and [t] are the plugin and the
    trail after the constraints of the problem were created, [cs] the clauses of the problem *)
Definition check_lra {HS} (he : heur HS) (hash : lit -> N) (df fuel : nat) (cs : list clause) (o : phase_opt)
           (a : lra) (t : trail) (h : HS) : res (solver (TS := bstate * lra) (HS := HS) * answer) :=
  run (bl_theory df) he hash fuel (mkS (mkDb cs []) t (bstate_new o, a) h 0).
End C.
