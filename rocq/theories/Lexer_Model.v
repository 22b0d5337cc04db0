(** Model of parser/smt2_lexer.ll: the tokens of a text. Longest match; among rules of equal length the first. *)
From Coq Require Import List Arith Bool Ascii String.
From Verif Require Import Base.
Import ListNotations.
Open Scope nat_scope.
Definition text : Type := list ascii.
Definition t_of (s : string) : text := list_ascii_of_string s.
Fixpoint text_eqb (a b : text) : bool :=
  match a, b with [], [] => true | x :: a', y :: b' => Ascii.eqb x y && text_eqb a' b' | _, _ => false end.

(** smt2_tokens.h: the words of 38-68 are one constructor with their spelling *)
Inductive tok : Type :=
| LParen | RParen | Word (s : text) | Sym (s : text) | QSym (s : text) | Num (s : text) | Dec (s : text)
| Hex (s : text) | Bin (s : text) | Str (s : text) | Kw (s : text).

Definition code (c : ascii) : nat := nat_of_ascii c.
Definition between (c : ascii) (a b : ascii) : bool := (code a <=? code c) && (code c <=? code b).
Definition digitb (c : ascii) : bool := between c "0" "9".
Definition among (c : ascii) (s : string) : bool := existsb (Ascii.eqb c) (t_of s).
(** 28 the characters of SIMPLE_SYMBOL: a digit cannot be the first *)
Definition sym1 (c : ascii) : bool := between c "a" "z" || between c "A" "Z" || among c "~!@$%^&*+=<>.?/_-".
Definition symc (c : ascii) : bool := sym1 c || digitb c.
(** 21, 22 NEW_LINE, WHITESPACE *)
Definition blank (c : ascii) : bool := (code c =? 32) || (code c =? 9) || (code c =? 13) || (code c =? 12) || (code c =? 10).
(** 38-68 *)
Definition words : list text := map t_of ["assert"; "as"; "!"; "check-sat"; "declare-const"; "declare-fun"; "declare-sort"; "define-const"; "define-fun";
  "define-sort"; "echo"; "exit"; "get-assertions"; "get-assignment"; "get-info"; "get-model"; "get-option"; "get-unsat-core"; "get-value"; "_"; "let";
  "match"; "par"; "pop"; "push"; "reset"; "set-info"; "set-logic"; "set-option"]%string.
Definition reserved (s : text) : bool := existsb (text_eqb s) words.
Definition sym_tok (s : text) : tok := if reserved s then Word s else Sym s.

Fixpoint span (p : ascii -> bool) (l : text) : text * text :=
  match l with [] => ([], []) | c :: l' => if p c then (c :: fst (span p l'), snd (span p l')) else ([], l) end.
(** 23 STRING_LITERAL, after the first quote: a doubled quote goes on *)
Fixpoint span_string (l : text) : option (text * text) :=
  match l with
  | [] => None
  | c :: l' =>
      if Ascii.eqb c """" then
        match l' with
        | d :: l'' => if Ascii.eqb d """" then match span_string l'' with Some (s, r) => Some (c :: d :: s, r) | None => None end else Some ([c], l')
        | [] => Some ([c], [])
        end
      else match span_string l' with Some (s, r) => Some (c :: s, r) | None => None end
  end.
Definition hexb (c : ascii) : bool := digitb c || between c "a" "f" || between c "A" "F".
Definition binb (c : ascii) : bool := between c "0" "1".

(** One token, or [None] for skipped text; [None] outside: no rule applies (parseError). *)
Definition lex1 (l : text) : option (option tok * text) :=
  match l with
  | [] => None
  | c :: l' =>
      if blank c then Some (None, l')
      else if Ascii.eqb c "(" then Some (Some LParen, l')
      else if Ascii.eqb c ")" then Some (Some RParen, l')
      else if Ascii.eqb c ";" then Some (None, snd (span (fun d => negb (code d =? 10)) l'))
      else if digitb c then
        let '(ds, r) := span digitb l in
        match r with
        | p :: d :: _ =>
            if Ascii.eqb p "." && digitb d then let '(fs, r') := span digitb (tl r) in Some (Some (Dec (ds ++ p :: fs)), r')
            else Some (Some (Num ds), r)
        | _ => Some (Some (Num ds), r)
        end
      else if sym1 c then let '(s, r) := span symc l in Some (Some (sym_tok s), r)
      else if Ascii.eqb c ":" then
        match l' with
        | d :: _ => if sym1 d then let '(s, r) := span symc l' in Some (Some (Kw (c :: s)), r) else None
        | [] => None
        end
      else if Ascii.eqb c "|" then
        match span (fun d => negb (Ascii.eqb d "|") && negb (code d =? 92)) l' with
        | (s, e :: r) => if Ascii.eqb e "|" then Some (Some (QSym (c :: s ++ [e])), r) else None
        | (_, []) => None
        end
      else if Ascii.eqb c """" then match span_string l' with Some (s, r) => Some (Some (Str (c :: s)), r) | None => None end
      else if Ascii.eqb c "#" then
        match l' with
        | k :: d :: _ =>
            if Ascii.eqb k "x" && hexb d then let '(s, r) := span hexb (tl l') in Some (Some (Hex (c :: k :: s)), r)
            else if Ascii.eqb k "b" && binb d then let '(s, r) := span binb (tl l') in Some (Some (Bin (c :: k :: s)), r)
            else None
        | _ => None
        end
      else None
  end.
(** The whole text (Flex_lexer.cpp: next_token until the end of the file); [None]: an error. *)
Fixpoint lex_f (fuel : nat) (l : text) : option (list tok) :=
  match fuel with
  | 0 => None
  | S f =>
      match l with
      | [] => Some []
      | _ => match lex1 l with
             | None => None
             | Some (None, r) => lex_f f r
             | Some (Some t, r) => match lex_f f r with Some ts => Some (t :: ts) | None => None end
             end
      end
  end.
Definition lex (l : text) : option (list tok) := lex_f (S (List.length l)) l.
