(** C39-C44: hash consing and the constructors of the term manager. *)
From Coq Require Import List Arith ZArith QArith Qcanon NArith Bool Lia Ascii String.
From Verif Require Import Base Rational_Model Terms_Model Spec_Terms Terms_Proofs TermMgr_Model Spec_TermMgr TermMgr_Base TermMgr_Bool
  TermMgr_Arith TermMgr_Eq TermMgr_Term Decimal_Model Spec_Decimal TermMgr_Main.
Import ListNotations.
Close Scope string_scope.
Close Scope Qc_scope.
Close Scope Q_scope.
Open Scope nat_scope.

(** ** C39 *)
(** Whatever the hash functions are: after any history of constructor calls and declarations each handle
    has the content asked for, and two calls returned the same handle exactly if they are sharing
    constructor calls with the same kind, type and arguments (or number). *)
Theorem C39_sharing : forall H h T ts, Forall op_ok h -> t_history H (table_new H) h = (T, ts) ->
  List.length ts = List.length h /\
  (forall i o t, nth_error h i = Some o -> nth_error ts i = Some t -> node_of T t = op_node o) /\
  (forall i j oi oj ti tj, i <> j -> nth_error h i = Some oi -> nth_error h j = Some oj ->
     nth_error ts i = Some ti -> nth_error ts j = Some tj -> (ti = tj <-> oi = oj /\ exists r, oi = TGet r)).
Proof. exact sharing_ok. Qed.
Print Assumptions C39_sharing.

(** The content behind a handle never changes. *)
Theorem C39_immutable : forall H h1 h2 T1 ts1 T ts, Forall op_ok (h1 ++ h2) -> t_history H (table_new H) h1 = (T1, ts1) ->
  t_history H (table_new H) (h1 ++ h2) = (T, ts) ->
  (exists ts2, ts = ts1 ++ ts2) /\
  forall t, tix t < List.length (tt_nodes T1) -> tix t < List.length (tt_nodes T) /\ node_of T t = node_of T1 t.
Proof. exact immutable_ok. Qed.
Print Assumptions C39_immutable.

(** for the examples: the result of a call *)
Definition done (r : res (table * term)) : bool := match r with Ok _ => true | _ => false end.
Definition out (r : res (table * term)) : table * term := match r with Ok p => p | _ => (mkTab [] [], zero_term) end.
Lemma out_ok : forall r, done r = true -> r = Ok (fst (out r), snd (out r)).
Proof. intros [[T t]| |] E; try discriminate. reflexivity. Qed.
(** a hash function with only collisions *)
Definition H0 : hashes := mkH (fun _ _ => 0%N) (fun _ _ _ => 0%N) (fun _ => 0%N).
Example C39_nonvacuous :
  let x := mkT 3 false in let y := mkT 4 false in
  let h := [TNew TBool; TNew TBool; TGet (RComp KOr TBool [x; y]); TGet (RRat 1); TGet (RComp KOr TBool [y; x]);
            TGet (RComp KOr TBool [x; y]); TGet (RRat 0)] in
  Forall op_ok h /\
  snd (t_history H0 (table_new H0) h) = [x; y; mkT 5 false; mkT 6 false; mkT 7 false; mkT 5 false; zero_term].
Proof. split; [repeat constructor; discriminate|vm_compute; reflexivity]. Qed.

(** ** C40 *)
(** Every Boolean operator on Boolean arguments returns a Boolean term with the operator's value under
    every interpretation; the terms made before keep their content and value. *)
Theorem C40_boolean : forall H T o args, reach H T -> Forall (bool_t T) args ->
  op_sig o (map (fun _ => TBool) args) = Some TBool ->
  exists T' t, mk_term H T o args = Ok (T', t) /\ reach H T' /\ bool_t T' t /\ keeps T T' /\
    forall I, teval I T' t = op_sem o (map (teval I T) args).
Proof. exact bool_ops. Qed.
Print Assumptions C40_boolean.

(** The constructors that are called directly. *)
Theorem C40_direct : forall H T a b c, reach H T -> bool_t T a -> bool_t T b -> bool_t T c ->
  let ok r f := bool_t (fst r) (snd r) /\ keeps T (fst r) /\ forall I, tholds I (fst r) (snd r) = f (fun t => tholds I T t) in
  ok (mk_binary_or H T a b) (fun v => v a || v b) /\ ok (mk_binary_and H T a b) (fun v => v a && v b) /\
  ok (mk_implies H T a b) (fun v => implb (v a) (v b)) /\ ok (mk_iff H T a b) (fun v => Bool.eqb (v a) (v b)) /\
  ok (mk_xor H T a b) (fun v => xorb (v a) (v b)) /\ ok (mk_bool_ite H T a b c) (fun v => if v a then v b else v c).
Proof. exact bool_direct. Qed.
Print Assumptions C40_direct.

(** x, y Boolean: (or x (not y) x false) is the disjunction of two literals, (or x y (not x)) is true *)
Example C40_nonvacuous :
  let r1 := new_uninterpreted (table_new H0) TBool in let x := snd r1 in
  let r2 := new_uninterpreted (fst r1) TBool in let y := snd r2 in let T := fst r2 in
  reach H0 T /\ Forall (bool_t T) [x; opp y; x; false_term] /\
  (exists T', mk_term H0 T OOr [x; opp y; x; false_term] = Ok (T', mkT 5 false) /\
     node_of T' (mkT 5 false) = mkNode KOr TBool (DArgs [x; opp y])) /\
  mk_term H0 T OOr [x; y; opp x] = Ok (T, true_term).
Proof.
  cbv zeta. split.
  { eapply r_decl; [eapply r_decl; [apply r_new|left; reflexivity|apply surjective_pairing]|left; reflexivity|apply surjective_pairing]. }
  split; [repeat constructor; vm_compute; lia|].
  split; [eexists; split; vm_compute; reflexivity|vm_compute; reflexivity].
Qed.

(** ** C41 *)
(** Whenever an operator applied to well-typed arguments returns (division excepted, see C44), the term has
    the operator's value under every interpretation. *)
Theorem C41_sound : forall H T o args tys y T' t, reach H T -> Forall2 (has_type T) args tys -> op_sig o tys = Some y ->
  o <> ODiv -> mk_term H T o args = Ok (T', t) ->
  reach H T' /\ has_type T' t y /\ keeps T T' /\ forall I, teval I T' t = op_sem o (map (teval I T) args).
Proof. exact op_sound. Qed.
Print Assumptions C41_sound.

(** It returns, if products are linear and equations are not between a variable and one times this variable. *)
Theorem C41_total : forall H T o args tys y, reach H T -> Forall2 (has_type T) args tys -> op_sig o tys = Some y ->
  o <> ODiv -> (o = OTimes -> lin T args) ->
  (o = OEq \/ o = ODistinct -> forall a b, In a args -> In b args -> ~ unit_pair T a b) ->
  exists T' t, mk_term H T o args = Ok (T', t) /\ reach H T' /\ has_type T' t y /\ keeps T T' /\
    forall I, teval I T' t = op_sem o (map (teval I T) args).
Proof. exact op_correct. Qed.
Print Assumptions C41_total.

(** Applications of declared functions. *)
Theorem C41_app : forall H T f ret args T' t, reach H T -> valid T f -> tneg f = false -> kind_of T f = KUninterp ->
  ret = TBool \/ ret = TReal -> Forall (typed T) args -> mk_app H T f ret args = (T', t) ->
  reach H T' /\ has_type T' t ret /\ keeps T T' /\
  forall I, teval I T' t = match ret with
                           | TReal => VR (i_freal I (tix f) (map (teval I T) args))
                           | _ => VB (i_fbool I (tix f) (map (teval I T) args))
                           end.
Proof. exact app_correct. Qed.
Print Assumptions C41_app.

(** x real; (+ x 1 x), (>= (+ x 1 x) x), (= (+ x 1 x) x) *)
Definition x_tab := new_uninterpreted (table_new H0) TReal.
Definition one_tab := arith_const H0 (fst x_tab) 1.
Example C41_nonvacuous :
  let T := fst one_tab in let x := snd x_tab in let one := snd one_tab in
  reach H0 T /\ Forall2 (has_type T) [x; one; x] [TReal; TReal; TReal] /\
  match mk_term H0 T OPlus [x; one; x] with
  | Ok (T1, s) => kind_of T1 s = KPoly /\
      match mk_term H0 T1 OGe [s; x], mk_term H0 T1 OEq [s; x] with
      | Ok (T2, g), Ok (T3, e) => kind_of T2 g = KArithGe /\ kind_of T3 e = KArithBineq
      | _, _ => False
      end
  | _ => False
  end.
Proof.
  cbv zeta. split.
  { eapply r_num; [eapply r_decl; [apply r_new|right; reflexivity|apply surjective_pairing]|apply surjective_pairing]. }
  split; [repeat constructor; vm_compute; lia|].
  vm_compute. auto.
Qed.

(** ** C42 *)
(** An equality that is returned is true, false, or an atom with a variable (a declared constant, an
    application or an if-then-else term). *)
Theorem C42_atom : forall H T a b T' t, reach H T -> real_t T a -> real_t T b -> mk_arith_eq H T a b = Ok (T', t) ->
  t = true_term \/ t = false_term \/ mentions T' t.
Proof. exact eq_atom. Qed.
Print Assumptions C42_atom.

(** It is returned unless one argument is a variable and the other one is 1 times this variable. *)
Theorem C42_total_partial : forall H T a b, reach H T -> real_t T a -> real_t T b -> ~ unit_pair T a b ->
  exists T' t, mk_arith_eq H T a b = Ok (T', t).
Proof. exact eq_total. Qed.
Print Assumptions C42_total_partial.

(** (= x ( * 2 ( * 1/2 x))): the assertion of the polynomial constructor fails. *)
Definition half : Qc := Q2Qc (1 # 2).
Definition two : Qc := Q2Qc 2.
Definition half_tab := arith_const H0 (fst x_tab) half.
Definition two_tab := arith_const H0 (fst half_tab) two.
Definition half_x := out (mk_term H0 (fst two_tab) OTimes [snd half_tab; snd x_tab]).
Definition one_x := out (mk_term H0 (fst half_x) OTimes [snd two_tab; snd half_x]).
Theorem C42_total_refuted : exists T x z, reach H0 T /\ real_t T x /\ real_t T z /\ mk_arith_eq H0 T x z = UB.
Proof.
  exists (fst one_x), (snd x_tab), (snd one_x). split.
  { apply (r_op H0 (fst half_x) OTimes [snd two_tab; snd half_x] [TReal; TReal] TReal (fst one_x) (snd one_x)).
    - apply (r_op H0 (fst two_tab) OTimes [snd half_tab; snd x_tab] [TReal; TReal] TReal (fst half_x) (snd half_x)).
      + eapply r_num; [eapply r_num; [eapply r_decl; [apply r_new|right; reflexivity|apply surjective_pairing]|apply surjective_pairing]|apply surjective_pairing].
      + repeat constructor; vm_compute; lia.
      + reflexivity.
      + apply out_ok. vm_compute. reflexivity.
    - repeat constructor; vm_compute; lia.
    - reflexivity.
    - apply out_ok. vm_compute. reflexivity. }
  split; [repeat constructor; vm_compute; lia|]. split; [repeat constructor; vm_compute; lia|].
  vm_compute. reflexivity.
Qed.
Print Assumptions C42_total_refuted.
Example C42_nonvacuous :
  let T := fst one_tab in let x := snd x_tab in let one := snd one_tab in
  reach H0 T /\ real_t T x /\ real_t T one /\ ~ unit_pair T x one /\
  done (mk_arith_eq H0 T x one) = true /\
  node_of (fst (out (mk_arith_eq H0 T x one))) (snd (out (mk_arith_eq H0 T x one))) = mkNode KArithBineq TBool (DArgs [x; one]).
Proof.
  cbv zeta. split; [exact (proj1 C41_nonvacuous)|]. split; [repeat constructor; vm_compute; lia|]. split; [repeat constructor; vm_compute; lia|].
  split.
  - intros (k & x & _ & [[_ E]|[_ E]]); vm_compute in E; discriminate.
  - split; vm_compute; reflexivity.
Qed.

(** ** C43 *)
Theorem C43_numeral : forall H T s, reach H T -> Forall is_digit s -> s <> [] ->
  exists T' t, mk_numeral H T s = Ok (T', t) /\ reach H T' /\ real_t T' t /\ keeps T T' /\
    forall I, (this (treal I T' t) == inject_Z (digits_value s))%Q.
Proof. exact numeral_ok. Qed.
Print Assumptions C43_numeral.
Theorem C43_decimal : forall H T d f, reach H T -> Forall is_digit d -> d <> [] -> Forall is_digit f -> f <> [] ->
  exists T' t, mk_decimal H T (d ++ "."%char :: f) = Ok (T', t) /\ reach H T' /\ real_t T' t /\ keeps T T' /\
    forall I, (this (treal I T' t) == decimal_value d f)%Q.
Proof. exact decimal_term_ok. Qed.
Print Assumptions C43_decimal.
Example C43_nonvacuous :
  let d := list_ascii_of_string "012" in let f := list_ascii_of_string "0750" in
  Forall is_digit d /\ Forall is_digit f /\ (decimal_value d f == 483 # 40)%Q /\
  let r := mk_decimal H0 (table_new H0) (list_ascii_of_string "012.0750") in
  done r = true /\ exists q, const_value (fst (out r)) (snd (out r)) = Ok q /\ this q = (483 # 40)%Q.
Proof.
  cbv zeta. split; [repeat constructor; simpl; tauto|]. split; [repeat constructor; simpl; tauto|]. split; [reflexivity|].
  split; [vm_compute; reflexivity|]. eexists. split; [vm_compute; reflexivity|]. reflexivity.
Qed.

(** ** C44 *)
(** Division is exact if the dividend is a number, or numerator and denominator of the divisor are small. *)
Theorem C44_partial : forall H T a b q, reach H T -> real_t T a -> real_t T b ->
  node_of T b = mkNode KArithConst TReal (DRat q) -> q <> 0%Qc ->
  is_arith_const T a = true \/ ((- 2 ^ 31 < Qnum q < 2 ^ 31)%Z /\ (Zpos (Qden q) < 2 ^ 31)%Z) ->
  exists T' t, mk_term H T ODiv [a; b] = Ok (T', t) /\ reach H T' /\ real_t T' t /\ keeps T T' /\
    forall I, teval I T' t = op_sem ODiv [teval I T a; teval I T b].
Proof. exact divides_exact. Qed.
Print Assumptions C44_partial.

(** Dividing x by 1/3000000000 gives a negative number for x = 1; (/ x 5000000000) fails. *)
Definition tiny : Qc := Q2Qc (1 # 3000000000).
Definition big : Qc := Q2Qc 5000000000.
Definition at_one : interp := mkI (fun _ => true) (fun _ => 1%Qc) (fun _ _ => true) (fun _ _ => 1%Qc).
Theorem C44_refuted :
  (exists T x c T' t, reach H0 T /\ real_t T x /\ real_t T c /\ node_of T c = mkNode KArithConst TReal (DRat tiny) /\
     mk_term H0 T ODiv [x; c] = Ok (T', t) /\ teval at_one T' t <> op_sem ODiv [teval at_one T x; teval at_one T c]) /\
  (exists T x c, reach H0 T /\ real_t T x /\ real_t T c /\ node_of T c = mkNode KArithConst TReal (DRat big) /\
     mk_term H0 T ODiv [x; c] = UB).
Proof.
  split.
  - pose (r1 := arith_const H0 (fst x_tab) tiny). pose (r := mk_term H0 (fst r1) ODiv [snd x_tab; snd r1]).
    exists (fst r1), (snd x_tab), (snd r1), (fst (out r)), (snd (out r)). split.
    { eapply r_num; [eapply r_decl; [apply r_new|right; reflexivity|apply surjective_pairing]|apply surjective_pairing]. }
    split; [repeat constructor; vm_compute; lia|]. split; [repeat constructor; vm_compute; lia|].
    split; [vm_compute; reflexivity|]. split; [apply out_ok; vm_compute; reflexivity|].
    intros X. apply (f_equal (fun v => Qc_geb (as_r v) 0%Qc)) in X. vm_compute in X. discriminate.
  - pose (r1 := arith_const H0 (fst x_tab) big). exists (fst r1), (snd x_tab), (snd r1). split.
    { eapply r_num; [eapply r_decl; [apply r_new|right; reflexivity|apply surjective_pairing]|apply surjective_pairing]. }
    split; [repeat constructor; vm_compute; lia|]. split; [repeat constructor; vm_compute; lia|].
    split; vm_compute; reflexivity.
Qed.
Print Assumptions C44_refuted.
Example C44_nonvacuous :
  let r := arith_const H0 (fst x_tab) (Q2Qc (-3 # 2)) in
  let d := mk_term H0 (fst r) ODiv [snd x_tab; snd r] in
  reach H0 (fst r) /\ done d = true /\
    exists k q, node_of (fst (out d)) (snd (out d)) = mkNode KProduct TReal (DArgs [k; snd x_tab]) /\
      const_value (fst (out d)) k = Ok q /\ this q = (-2 # 3)%Q.
Proof.
  cbv zeta. split.
  { eapply r_num; [eapply r_decl; [apply r_new|right; reflexivity|apply surjective_pairing]|apply surjective_pairing]. }
  split; [vm_compute; reflexivity|]. exists (mkT 5 false). eexists. split; [vm_compute; reflexivity|]. split; vm_compute; reflexivity.
Qed.
