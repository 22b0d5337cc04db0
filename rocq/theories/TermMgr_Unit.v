(** No product with coefficient 1 is made, as long as products are not multiplied or divided. *)
From Coq Require Import List Arith ZArith QArith Qcanon Bool Lia.
From Verif Require Import Base Terms_Model TermMgr_Model Spec_TermMgr.
Import ListNotations.
Close Scope Qc_scope.
Close Scope Q_scope.
Open Scope nat_scope.

(** the coefficient of every product in the table is a number other than 1 *)
Definition not_unit (T : table) (n : node) : Prop := n_kind n = KProduct ->
  exists c x q, n_desc n = DArgs [c; x] /\ tix c < length (tt_nodes T) /\ n_desc (node_of T c) = DRat q /\ q <> 1%Qc.
Definition NU (T : table) : Prop := Forall (not_unit T) (tt_nodes T).
Definition post {A} (m : res (table * A)) : Prop := match m with Ok p => NU (fst p) | _ => True end.

Lemma nu_ext T T' : (exists l, tt_nodes T' = tt_nodes T ++ l /\ Forall (not_unit T') l) -> NU T -> NU T'.
Proof.
  intros (l & E & F) N. unfold NU. rewrite E. apply Forall_app. split; [|exact F]. eapply Forall_impl; [|exact N].
  intros n U K. destruct (U K) as (c & x & q & A & B & C & D). exists c, x, q. split; [exact A|]. rewrite E, app_length. split; [lia|].
  split; [|exact D]. unfold node_of in *. rewrite E, app_nth1; assumption.
Qed.
Lemma nu_pair T a b : NU T -> ~ unit_pair T a b.
Proof.
  intros N (k & x & NK & P).
  assert (X : forall t, node_of T t = mkNode KProduct TReal (DArgs [k; x]) -> False).
  { intros t E. unfold NU in N. rewrite Forall_forall in N.
    destruct (nth_in_or_default (tix t) (tt_nodes T) reserved_node) as [I|D]; [|unfold node_of in E; rewrite D in E; discriminate].
    destruct (N _ I) as (c & y & q & A & B & C & D); [unfold node_of in E; now rewrite E|]. unfold node_of in E. rewrite E in A. cbn in A. injection A as <- <-.
    rewrite NK in C. cbn in C. injection C as <-. now apply D. }
  destruct P as [[_ E]|[_ E]]; eauto.
Qed.

Section NotUnit.
Variable H : hashes.
Lemma nu_get T r : NU T -> (forall ty a, r <> RComp KProduct ty a) -> NU (fst (get_term H T r)).
Proof.
  unfold get_term. intros N R. destruct (find _ _); cbn [fst]; [exact N|]. eapply nu_ext; [|exact N]. exists [req_node r]. split; [reflexivity|].
  constructor; [|constructor]. intros K. destruct r as [k ty a|q|ty i]; cbn in K; try discriminate. subst k. now destruct (R ty a).
Qed.
Lemma nu_const T q : NU T -> NU (fst (arith_const H T q)).
Proof. intros N. apply nu_get; [exact N|discriminate]. Qed.
Lemma nu_or T a : NU T -> NU (fst (or_term H T a)).
Proof. intros N. apply nu_get; [exact N|discriminate]. Qed.
Lemma nu_comp T k ty a : NU T -> k <> KProduct -> NU (fst (get_term H T (RComp k ty a))).
Proof. intros N K. apply nu_get; [exact N|]. intros ty0 a0 E. injection E as -> _ _. exact (K eq_refl). Qed.
Lemma nu_new : NU (table_new H).
Proof.
  unfold table_new. assert (N : NU (mkTab [reserved_node] [])) by (constructor; [discriminate|constructor]).
  pose proof (nu_get _ (RConst TBool 0) N ltac:(discriminate)) as N1. destruct (get_term H _ _) as [T1 t1]. apply nu_get; [exact N1|discriminate].
Qed.
Lemma nu_uninterp T ty : NU T -> NU (fst (new_uninterpreted T ty)).
Proof. intros N. eapply nu_ext; [|exact N]. eexists. split; [reflexivity|]. constructor; [discriminate|constructor]. Qed.
Lemma const_node_of T q : let (T1, k) := arith_const H T q in tix k < length (tt_nodes T1) /\ n_desc (node_of T1 k) = DRat q.
Proof.
  unfold arith_const, get_term. destruct (find _ _) as [e|] eqn:F.
  - apply find_some in F. destruct F as [_ F]. apply andb_true_iff in F. destruct F as [_ F]. cbn [key_equal] in F. apply andb_true_iff in F. destruct F as [F G].
    destruct (n_desc (node_of T (snd e))) eqn:D; try discriminate. match type of G with (if Qc_eq_dec ?a q then _ else _) = _ => destruct (Qc_eq_dec a q); [subst|discriminate] end. split; [|reflexivity].
    unfold node_of in D. destruct (Nat.lt_ge_cases (tix (snd e)) (length (tt_nodes T))) as [L|L]; [exact L|]. rewrite nth_overflow in D by exact L. discriminate.
  - cbn [tix tt_nodes]. rewrite app_length. cbn. split; [lia|]. unfold node_of. cbn [tix tt_nodes]. rewrite app_nth2, Nat.sub_diag by lia. reflexivity.
Qed.
Lemma nu_product T c x : NU T -> c <> 1%Qc -> post (arith_product H T c x).
Proof.
  intros N C. unfold arith_product. destruct (assertb _); cbn [bind]; try exact I. pose proof (nu_const T c N) as N1. pose proof (const_node_of T c) as P.
  destruct (arith_const H T c) as [T1 k]. cbn [fst] in N1. destruct P as [P1 P2]. cbn [post]. unfold get_term. destruct (find _ _); cbn [fst]; [exact N1|].
  eapply nu_ext; [|exact N1]. eexists. split; [reflexivity|]. constructor; [|constructor]. intros _. exists k, x, c. cbn [req_node n_desc tt_nodes]. split; [reflexivity|].
  rewrite app_length. split; [lia|]. split; [|exact C]. unfold node_of in *. cbn [tt_nodes]. rewrite app_nth1; assumption.
Qed.
Lemma post_ok {A} T (x : A) : NU T -> post (Ok (T, x)).
Proof. intros N. exact N. Qed.
Lemma post_pair p : NU (fst p) -> @post term (Ok p).
Proof. intros N. exact N. Qed.
End NotUnit.

Create HintDb nu.
#[global] Hint Resolve nu_const nu_or nu_uninterp post_ok post_pair : nu.
#[global] Hint Extern 1 (NU (fst (get_term _ _ (RComp _ _ _)))) => (apply nu_comp; [auto with nu|discriminate]) : nu.
#[global] Hint Extern 0 (NU (fst (_, _))) => (cbn [fst]) : nu.

Ltac nu1 :=
  match goal with
  | |- post UB => exact I
  | |- post Fuel => exact I
  | |- post (bind ?m _) =>
      let P := fresh "P" in
      first [ assert (P : post m) by (auto with nu); let E := fresh "E" in destruct m as [[? ?]| |] eqn:E; cbn [bind fst snd post] in P |- *;
              [|exact I|exact I]
            | destruct m as [?| |]; cbn [bind fst snd]; [|exact I|exact I] ]
  | |- post (let (_, _) := ?m in _) =>
      let P := fresh "P" in assert (P : NU (fst m)) by (auto with nu); destruct m as [? ?]; cbn [fst snd] in P |- *
  | |- NU (fst (let (_, _) := ?m in _)) =>
      let P := fresh "P" in assert (P : NU (fst m)) by (auto with nu); destruct m as [? ?]; cbn [fst snd] in P |- *
  | |- post (if ?b then _ else _) => destruct b
  | |- NU (fst (if ?b then _ else _)) => destruct b
  | |- post (match ?x with _ => _ end) => destruct x
  | |- _ => solve [auto with nu]
  end.
Ltac nu := intros; repeat nu1.

Section Manager.
Variable H : hashes.
Lemma nu_poly T c : NU T -> post (arith_poly H T c).
Proof. unfold arith_poly. nu. Qed.
Lemma nu_gez T t : NU T -> post (arith_geq_zero H T t).
Proof. unfold arith_geq_zero. nu. Qed.
Lemma nu_eqz T t : NU T -> post (arith_eq_zero H T t).
Proof. unfold arith_eq_zero. nu. Qed.
Lemma nu_bineq T a b : NU T -> post (arith_bineq H T a b).
Proof. unfold arith_bineq. nu. Qed.
Lemma nu_aite T a b c : NU T -> post (arith_ite H T a b c).
Proof. unfold arith_ite. nu. Qed.
#[local] Hint Resolve nu_poly nu_gez nu_eqz nu_bineq nu_aite : nu.
Lemma nu_mono T m : NU T -> post (mono_to_term H T m).
Proof.
  intros N. unfold mono_to_term. destruct (assertb _); cbn [bind]; try exact I. destruct (fst m) as [x|]; [|apply post_pair, nu_const, N].
  unfold q_eqb at 1. destruct (Qc_eq_dec _ _); [exact N|]. now apply nu_product.
Qed.
#[local] Hint Resolve nu_mono : nu.
Lemma nu_monos p : forall T, NU T -> post (monos_to_terms H T p).
Proof.
  induction p as [|m p IH]; intros T N; cbn [monos_to_terms]; [exact N|].
  pose proof (nu_mono T m N) as P. destruct (mono_to_term H T m) as [[T1 t]| |]; cbn [bind fst snd post] in *; try exact I.
  specialize (IH T1 P). destruct (monos_to_terms H T1 p) as [[T2 ts]| |]; cbn [bind fst snd post] in *; try exact I. exact IH.
Qed.
#[local] Hint Resolve nu_monos : nu.
Lemma nu_ptt T p : NU T -> post (poly_to_term H T p).
Proof. unfold poly_to_term. nu. Qed.
#[local] Hint Resolve nu_ptt : nu.
Lemma nu_mk_or T a : NU T -> post (mk_or H T a).
Proof. unfold mk_or. nu. Qed.
#[local] Hint Resolve nu_mk_or : nu.
Lemma nu_mk_and T a : NU T -> post (mk_and H T a).
Proof. unfold mk_and. nu. Qed.
Lemma nu_bor T x y : NU T -> NU (fst (mk_binary_or H T x y)).
Proof. unfold mk_binary_or. nu. Qed.
#[local] Hint Resolve nu_mk_and nu_bor : nu.
Lemma nu_band T x y : NU T -> NU (fst (mk_binary_and H T x y)).
Proof. unfold mk_binary_and. nu. Qed.
Lemma nu_imp T x y : NU T -> NU (fst (mk_implies H T x y)).
Proof. unfold mk_implies. nu. Qed.
#[local] Hint Resolve nu_band nu_imp : nu.
Lemma nu_iff T x y : NU T -> NU (fst (mk_iff H T x y)).
Proof. unfold mk_iff. nu. Qed.
Lemma nu_xor T x y : NU T -> NU (fst (mk_xor H T x y)).
Proof. unfold mk_xor. nu. Qed.
#[local] Hint Resolve nu_iff nu_xor : nu.
Lemma nu_dbineq T x y : NU T -> post (direct_bineq H T x y).
Proof. unfold direct_bineq. nu. Qed.
#[local] Hint Resolve nu_dbineq : nu.
Lemma nu_aeq T x y : NU T -> post (mk_arith_eq H T x y).
Proof. unfold mk_arith_eq. nu. Qed.
Lemma nu_minus T x y : NU T -> post (mk_minus H T x y).
Proof. unfold mk_minus. nu. Qed.
Lemma nu_uminus T x : NU T -> post (mk_uminus H T x).
Proof. unfold mk_uminus. nu. Qed.
#[local] Hint Resolve nu_aeq nu_minus nu_uminus : nu.
Lemma nu_geq T x y : NU T -> post (mk_geq H T x y).
Proof. unfold mk_geq. nu. Qed.
#[local] Hint Resolve nu_geq : nu.
Lemma nu_lt T x y : NU T -> post (mk_lt H T x y).
Proof. unfold mk_lt. nu. Qed.
#[local] Hint Resolve nu_lt : nu.
Lemma nu_plus T a : NU T -> post (mk_plus H T a).
Proof. unfold mk_plus. nu. Qed.
#[local] Hint Resolve nu_plus : nu.
(** no factor of a product of two terms is a product *)
Lemma nu_times T a : NU T -> (length a = 2 -> Forall (fun t => kind_of T t <> KProduct) a) -> post (mk_times H T a).
Proof.
  intros N F. unfold mk_times. destruct a as [|x [|y l]]; [apply post_pair, nu_const, N|exact N|].
  destruct (assertb (length _ =? 2)) eqn:L; cbn [bind]; try exact I. unfold assertb in L. destruct (Nat.eqb_spec (length (x :: y :: l)) 2) as [E|]; [|discriminate]. specialize (F E).
  destruct (assertb _); cbn [bind]; try exact I. destruct (mul_consts _ _ _) as [v| |]; cbn [bind]; try exact I. destruct (q_eqb v 0); [exact N|].
  destruct (filter (fun a => negb (is_arith_const T a)) (x :: y :: l)) as [|z r] eqn:FI; [apply post_pair, nu_const, N|].
  assert (K : kind_of T z <> KProduct). { rewrite Forall_forall in F. apply F. assert (Iz : In z (filter (fun a => negb (is_arith_const T a)) (x :: y :: l))) by (rewrite FI; now left). now apply filter_In in Iz. }
  unfold q_eqb at 1. destruct (Qc_eq_dec v 1) as [|V]; [exact N|].
  destruct (kind_of T z); try exact I; try (now destruct K); try (destruct (assertb _); cbn [bind]; try exact I; now apply nu_product).
  destruct (term_to_poly T z); cbn [bind]; try exact I. now apply nu_ptt.
Qed.
Lemma nu_div T x y : NU T -> tix x < length (tt_nodes T) -> kind_of T x <> KProduct -> post (mk_divides H T x y).
Proof.
  intros N V K. unfold mk_divides. destruct (assertb _); cbn [bind]; try exact I. destruct (const_value T y) as [v| |]; cbn [bind]; try exact I.
  destruct (is_arith_const T x).
  { destruct (const_value T x) as [u0| |]; cbn [bind]; try exact I. destruct (q_eqb v 0); [exact I|]. apply post_pair, nu_const, N. }
  destruct (q_inv v) as [m| |]; cbn [bind]; try exact I. pose proof (nu_const H T m N) as N1. pose proof (const_node_of H T m) as P.
  assert (X : tt_nodes (fst (arith_const H T m)) = tt_nodes T \/ exists n, tt_nodes (fst (arith_const H T m)) = tt_nodes T ++ [n]).
  { unfold arith_const, get_term. destruct (find _ _); [left; reflexivity|right; eexists; reflexivity]. }
  assert (PK : kind_of (fst (arith_const H T m)) (snd (arith_const H T m)) <> KProduct).
  { unfold arith_const, get_term. destruct (find _ _) as [e|] eqn:F; cbn [fst snd].
    - apply find_some in F. destruct F as [_ F]. apply andb_true_iff in F. destruct F as [_ F]. cbn [key_equal] in F. unfold kind_of. destruct (n_kind (node_of T (snd e))); cbn in F; discriminate.
    - unfold kind_of, node_of. cbn [tix tt_nodes]. rewrite app_nth2, Nat.sub_diag by lia. discriminate. }
  destruct (arith_const H T m) as [T1 k]. cbn [fst snd] in *. apply nu_times; [exact N1|]. intros _. constructor; [|constructor; [exact PK|constructor]].
  unfold kind_of, node_of in *. destruct X as [->|(n & ->)]; [exact K|]. rewrite app_nth1 by exact V. exact K.
Qed.
Lemma nu_bite T c x y : NU T -> NU (fst (mk_bool_ite H T c x y)).
Proof. unfold mk_bool_ite. intros. destruct (tneg c); nu. Qed.
Lemma nu_rite T c x y : NU T -> post (mk_arith_ite H T c x y).
Proof. unfold mk_arith_ite. nu. Qed.
#[local] Hint Resolve nu_bite nu_rite : nu.
Lemma nu_ite T c x y : NU T -> post (mk_ite H T c x y).
Proof. unfold mk_ite. nu. Qed.
Lemma nu_beq T x y : NU T -> post (mk_binary_eq H T x y).
Proof. unfold mk_binary_eq. nu. Qed.
#[local] Hint Resolve nu_ite nu_beq : nu.
Lemma nu_eq T a : NU T -> post (mk_eq H T a).
Proof. unfold mk_eq. nu. Qed.
#[local] Hint Resolve nu_eq : nu.
Lemma nu_neqs_with a l : forall T, NU T -> post (neqs_with H T a l).
Proof.
  induction l as [|b l IH]; intros T N; cbn [neqs_with]; [exact N|].
  pose proof (nu_eq T [a; b] N) as P. destruct (mk_eq H T [a; b]) as [[T1 t]| |]; cbn [bind fst snd post] in *; try exact I.
  specialize (IH T1 P). destruct (neqs_with H T1 a l) as [[T2 ts]| |]; cbn [bind fst snd post] in *; try exact I. exact IH.
Qed.
#[local] Hint Resolve nu_neqs_with : nu.
Lemma nu_neqs l : forall T, NU T -> post (neqs H T l).
Proof.
  induction l as [|a l IH]; intros T N; cbn [neqs]; [exact N|].
  pose proof (nu_neqs_with a l T N) as P. destruct (neqs_with H T a l) as [[T1 t]| |]; cbn [bind fst snd post] in *; try exact I.
  specialize (IH T1 P). destruct (neqs H T1 l) as [[T2 ts]| |]; cbn [bind fst snd post] in *; try exact I. exact IH.
Qed.
#[local] Hint Resolve nu_neqs : nu.
Lemma nu_distinct T a : NU T -> post (mk_distinct H T a).
Proof. unfold mk_distinct. nu. Qed.
#[local] Hint Resolve nu_distinct : nu.
Lemma nu_term T o a : NU T -> (o = OTimes -> length a = 2 -> Forall (fun t => kind_of T t <> KProduct) a) ->
  (o = ODiv -> forall x y, a = [x; y] -> tix x < length (tt_nodes T) /\ kind_of T x <> KProduct) -> post (mk_term H T o a).
Proof.
  intros N P Q. destruct o; try (clear P Q; unfold mk_term, mk_leq, mk_gt; nu; fail).
  - cbn [mk_term]. now apply nu_times, P.
  - unfold mk_term. destruct a as [|x [|y [|]]]; try exact I. destruct (Q eq_refl x y eq_refl). now apply nu_div.
Qed.
Lemma nu_app T f ret a : NU T -> NU (fst (mk_app H T f ret a)).
Proof. intros N. unfold mk_app, app_term. apply nu_comp; [exact N|discriminate]. Qed.
End Manager.
