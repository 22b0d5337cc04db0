(** The combination of boolean propagation, linear arithmetic and uninterpreted functions that Yaga uses for logic QF_UFLRA. *)
From Coq Require Import List Arith ZArith QArith NArith Bool.
From Verif Require Import Base Core_Model Bool_Model Trail_Model Solver_Model Lincons_Model Lra_Model Comb_Model
  Terms_Model Internalizer_Model Uf_Model.
Import ListNotations.
Open Scope nat_scope.

Section C.
Variables (hi : nat -> Z) (hv : Q -> Z) (opt : lopt).
Variable T : table.
(** the maps of the internalizer, which the plugin for uninterpreted functions reads *)
Variable bv : list (term * lit).
Variable rv : list (term * nat).

(** Theory_combination.cpp 8-31 propagate, with the three plugins of Yaga.cpp 40-53 in the order in which
    they are added: Bool_theory, Linear_arithmetic, Uninterpreted_functions. [n] bounds the rounds of the outer loop,
    [fuel] is handed to Bool_theory. *)
Fixpoint ul_propagate (n fuel : nat) (b : bstate) (a : lra) (u : uf) (d : db) (t : trail)
  : res ((bstate * lra * uf) * db * trail * list clause) :=
  match n with
  | O => Fuel
  | S n' =>
      let old_size := length (recent t) in
      '(b1, d1, t1, c1) <- bool_propagate fuel b d t ;;
      match c1 with
      | _ :: _ => Ok ((b1, a, u), d1, t1, c1)
      | [] =>
          '(a2, t2, c2) <- lra_propagate hi hv opt a t1 ;;
          match c2 with
          | _ :: _ => Ok ((b1, a2, u), d1, t2, c2)
          | [] =>
              '(u3, a3, t3, c3) <- uf_propagate hi hv opt T bv rv u a2 t2 ;;
              match c3 with
              | _ :: _ => Ok ((b1, a3, u3), d1, t3, c3)
              | [] => if length (recent t3) =? old_size then Ok ((b1, a3, u3), d1, t3, [])
                      else ul_propagate n' fuel b1 a3 u3 d1 t3
              end
          end
      end
  end.
(** Theory_combination.cpp 33-39 decide; Uninterpreted_functions.cpp 60-62 decide is empty *)
Definition ul_decide (df : nat) (b : bstate) (a : lra) (u : uf) (t : trail) (v : var) : res ((bstate * lra * uf) * trail) :=
  '(a', t') <- lra_decide df a (bool_decide b t v) v ;;
  Ok ((b, a', u), t').
(** Theory_combination.cpp 49-55 on_before_backtrack: Bool_theory.cpp 30-53, Theory.cpp 5-9, Uninterpreted_functions.cpp 141-154.
    72-78 on_learned_clause: only Bool_theory overrides it. 88-94 on_restart: no plugin overrides it. *)
Definition ul_theory (df : nat) : theory (bstate * lra * uf) :=
  mkTheory
    (fun fuel p d t => let '(b, a, u) := p in ul_propagate fuel fuel b a u d t)
    (fun p d t v => let '(b, a, u) := p in ul_decide df b a u t v)
    (fun p d t k => let '(b, a, u) := p in (bool_before_backtrack b t k, lra_before_backtrack a, uf_before_backtrack u k))
    (fun p d t r => let '(b, a, u) := p in b' <- bool_learned b d r ;; Ok (b', a, u))
    (fun p d t => p).

(** Solver::check (Solver.cpp 188-228) of a solver with these plugins: [a], [u] and [t] are the plugins and the
    trail after the constraints and applications of the problem were created, [cs] the clauses of the problem *)
Definition check_uflra {HS} (he : heur HS) (hash : lit -> N) (df fuel : nat) (cs : list clause) (o : phase_opt)
           (a : lra) (u : uf) (t : trail) (h : HS) : res (solver (TS := bstate * lra * uf) (HS := HS) * answer) :=
  run (ul_theory df) he hash fuel (mkS (mkDb cs []) t (bstate_new o, a, u) h 0).
End C.
