(** Specification of the rational numbers: the value of an object and the canonical form.
    Independent of the algorithms in Rational_Model.v; only the fields of the object are used. *)
From Coq Require Import ZArith QArith Qround Bool.
From Verif Require Import Base Rational_Model.
Local Open Scope Z_scope.

(** Numerator and denominator an object presents: the machine words if they are valid, the
    multi-precision pair otherwise. *)
Definition parts (x : lf) : Z * Z := if wv x then (num x, den x) else mq x.

(** The rational number an object denotes. *)
Definition value (x : lf) : Q := (fst (parts x) # Z.to_pos (snd (parts x)))%Q.

(** [n/d] in lowest terms with a positive denominator. *)
Definition lowest (n d : Z) : Prop := 0 < d /\ Z.gcd n d = 1.

(** [n] fits a signed and [d] an unsigned 32-bit word. *)
Definition fits (n d : Z) : Prop := - 2 ^ 31 <= n < 2 ^ 31 /\ 0 <= d < 2 ^ 32.

(** Canonical object: some part is valid; valid parts are in lowest terms and agree; the word
    part is valid exactly if the number fits. *)
Record canonical (x : lf) : Prop := {
  some_part : wv x = true \/ mv x = true;
  mem_part : mv x = true -> ma x = true;
  in_lowest : lowest (fst (parts x)) (snd (parts x));
  agree : wv x = true -> mv x = true -> mq x = (num x, den x);
  fast_iff_fits : wv x = true <-> fits (fst (parts x)) (snd (parts x))
}.

(** The outcome of an operation on [a] and [b] denotes [q]: it terminates without undefined
    behaviour, the result is canonical with value [q], and the operands still denote what they
    denoted and are canonical. *)
Definition same (x y : lf) : Prop := canonical x /\ parts x = parts y.
Definition computes2 (m : res (lf * lf * lf)) (a b : lf) (q : Q) : Prop :=
  exists r a' b', m = Ok (r, a', b') /\ canonical r /\ (value r == q)%Q /\ same a' a /\ same b' b.
(** In-place form: new left operand and the right operand. *)
Definition assigns (m : res (lf * lf)) (b : lf) (q : Q) : Prop :=
  exists r b', m = Ok (r, b') /\ canonical r /\ (value r == q)%Q /\ same b' b.
(** Unary form. *)
Definition computes (m : res (lf * lf)) (a : lf) (q : Q) : Prop :=
  exists r a', m = Ok (r, a') /\ canonical r /\ (value r == q)%Q /\ same a' a.
Definition returns (m : res lf) (q : Q) : Prop :=
  exists r, m = Ok r /\ canonical r /\ (value r == q)%Q.

(** Objects a program can hold: everything built by the public constructors and operations.
    Operations also update their operands (the multi-precision part is filled in on demand), so
    the operands after the call are included. The two-argument constructor is restricted to the
    arguments for which it is correct (see [C24_make_refuted]). *)
Inductive produced : lf -> Prop :=
| p_word x : - 2 ^ 31 <= x < 2 ^ 31 -> produced (lf_word x)
| p_uint x : 0 <= x < 2 ^ 32 -> produced (lf_uint x)
| p_str n d r : d <> 0 -> lf_str n d = Ok r -> produced r
| p_make n d r : - 2 ^ 31 <= n < 2 ^ 31 -> 0 < d < 2 ^ 32 -> 0 <= n \/ Z.gcd n d = 1 ->
    lf_make n d = Ok r -> produced r
| p_copy a r : produced a -> lf_copy a = Ok r -> produced r
| p_move a : produced a -> produced (fst (lf_move a))
| p_assign k a r : produced k -> produced a -> lf_assign k a = Ok r -> produced r
| p_binary f a b r a' b' x : produced a -> produced b ->
    f = lf_add \/ f = lf_sub \/ f = lf_mul \/ f = lf_div /\ ~ (value b == 0)%Q ->
    f a b = Ok (r, a', b') -> x = r \/ x = a' \/ x = b' -> produced x
| p_inplace f a b r b' x : produced a -> produced b ->
    f = lf_add_assign \/ f = lf_sub_assign \/ f = lf_mul_assign \/
    f = lf_div_assign /\ ~ (value b == 0)%Q ->
    f a b = Ok (r, b') -> x = r \/ x = b' -> produced x
| p_neg a r a' x : produced a -> lf_neg a = Ok (r, a') -> x = r \/ x = a' -> produced x
| p_negate a r : produced a -> lf_negate a = Ok r -> produced r
| p_inverse a r a' x : produced a -> ~ (value a == 0)%Q -> lf_inverse a = Ok (r, a') ->
    x = r \/ x = a' -> produced x
| p_round f a r : produced a -> f = lf_floor \/ f = lf_ceil \/ f = round_to_int \/ f = lf_get_num ->
    f a = Ok r -> produced r
| p_den a r a' x : produced a -> lf_get_den a = Ok (r, a') -> x = r \/ x = a' -> produced x
| p_compare a b c a' b' x : produced a -> produced b -> lf_compare a b = Ok (c, a', b') ->
    x = a' \/ x = b' -> produced x
| p_equal a b c a' b' x : produced a -> produced b -> lf_eq a b = Ok (c, a', b') ->
    x = a' \/ x = b' -> produced x.
