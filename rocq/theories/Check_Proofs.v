(** Proofs for C61. *)
From Coq Require Import List Arith ZArith QArith Qcanon NArith Bool Lia Permutation.
From Verif Require Import Base Core_Model Bool_Model Trail_Model Spec_Trail Solver_Model Spec_Sat Spec_Theory
  Lincons_Model Spec_Lincons Lincons_Proofs Lincons_Proofs2 Lra_Model Comb_Model Spec_Comb Comb_Final
  Terms_Model Spec_Terms Terms_Proofs TermMgr_Model Spec_TermMgr TermMgr_Base TermMgr_Arith TermMgr_Term
  Visitor_Model Spec_Visitor Visitor_Proofs Internalizer_Model Spec_Internalizer Internalizer_Proofs Internalizer_Step Internalizer_Main Check_Model Prop_Comb Spec_Check.
Import ListNotations.
Close Scope Qc_scope.
Close Scope Q_scope.
Open Scope nat_scope.

(** ** the plugin and the trail *)
Lemma set_nth_same {A} : forall (l : list A) i x, nth_error l i = Some x -> set_nth i x l = l.
Proof. induction l as [|y l IH]; intros [|i] x E; simpl in *; try discriminate; [congruence|now rewrite IH]. Qed.
Lemma swap_same {A} i (l : list A) : swap_nth i i l = l.
Proof.
  unfold swap_nth. destruct (nth_error l i) as [x|] eqn:E; auto. now rewrite (set_nth_same l i x E), (set_nth_same l i x E).
Qed.
Lemma cons_swap_same s c i : cons_swap s c i i = s.
Proof. unfold cons_swap, lc_swap. rewrite !swap_same. now destruct s. Qed.
Lemma move_front_fresh qm c : (forall v, mdef qm v = false) -> forall n s i stop, move_front n s qm c i i stop = s.
Proof.
  intros F. induction n as [|n IH]; intros s i stop; cbn [move_front]; auto.
  destruct (i =? stop); auto. destruct (nth_error _ _); auto. rewrite F, cons_swap_same. apply IH.
Qed.
Lemma resize_same s : lc_resize s (length (st_cons s)) = s.
Proof. unfold lc_resize. rewrite Nat.sub_diag. simpl. rewrite app_nil_r. now destruct s. Qed.

Section Replay.
Variables (hi : nat -> Z) (hv : Q -> Z) (opt : lopt).

Definition lits_of (h : list (Spec_Lincons.request * lcons)) : list (Spec_Lincons.request * lit) := map (fun x => (fst x, lc_lit (snd x))) h.

Lemma make_nonempty s q s' c : inv s -> NoDup (map fst (rq_terms q)) -> Forall (fun t => ~ snd t == 0)%Q (rq_terms q) -> rq_terms q <> [] ->
  lc_make hi hv s (rq_terms q) (rq_pred q) (rq_rhs q) = (s', c) -> lc_empty c = false /\ length (lc_vars s' c) = lc_size c.
Proof.
  intros HI ND NZ NE M. assert (D : distinct_vars q) by (unfold distinct_vars; change (NoDup (map fst (nonzero (rq_terms q)))); now rewrite nonzero_id).
  destruct (make_ok hi hv s q s' c HI D M) as (I' & _ & c0 & M1 & M2 & M3 & M4 & M5 & M6 & M7).
  rewrite nonzero_id in M6 by auto.
  destruct (g_pos s' c0 (i_good s' I' c0 M1)) as [(P1 & _)|P1].
  - exfalso. apply NE. rewrite lc_terms_slice, P1 in M6. unfold slice in M6. simpl in M6.
    apply Permutation_length in M6. simpl in M6. destruct (rq_terms q); auto. simpl in M6. lia.
  - split; [unfold lc_empty; rewrite M3; apply Nat.leb_gt; lia|].
    unfold lc_vars, lc_size, slice. rewrite M3, firstn_length, skipn_length. lia.
Qed.

Lemma built_replay cs s n h : built hi hv cs s n h -> exists a t, replay hi hv opt cs = Ok (a, t) /\
  problem hi hv opt (lits_of h) a t /\ l_st a = s /\ mnum (t_qm t) = n /\ hist s h.
Proof.
  induction 1 as [|cs s n h B IH|cs s n h B IH|cs s n h q s' c B IH ND NZ NE RG M].
  - exists lra_new, (trail_new 0 0). split; [reflexivity|]. split; [constructor|]. split; [reflexivity|]. split; [reflexivity|]. apply hist_new.
  - destruct IH as (a & t & E & P & S & N & Hh). cbn [replay]. rewrite E. cbn [bind].
    eexists _, _. split; [reflexivity|]. split; [apply (pb_vars hi hv opt _ a t); auto; lia|].
    cbn [fst snd new_vars with_st l_st trail_resize t_qm mnum]. split; [|split; [exact N|now apply hist_resize]].
    rewrite S. rewrite <- (su_n _ _ _ _ _ _ (problem_SU hi hv opt _ _ _ P)). now rewrite S.
  - destruct IH as (a & t & E & P & S & N & Hh). cbn [replay]. rewrite E. cbn [bind].
    eexists _, _. split; [reflexivity|]. split; [apply (pb_vars hi hv opt _ a t); auto; lia|].
    cbn [fst snd new_vars with_st l_st trail_resize t_qm mnum]. split; [|split; [now rewrite N|exact Hh]].
    rewrite <- (su_n _ _ _ _ _ _ (problem_SU hi hv opt _ _ _ P)), S. apply resize_same.
  - destruct IH as (a & t & E & P & S & N & Hh). cbn [replay]. rewrite E. cbn [bind].
    destruct (make_nonempty s q s' c (proj1 Hh) ND NZ NE M) as [EC LC].
    assert (D : distinct_vars q) by (unfold distinct_vars; change (NoDup (map fst (nonzero (rq_terms q)))); now rewrite nonzero_id).
    assert (Hh' : hist s' ((q, c) :: h)).
    { destruct (make_ok hi hv s q s' c (proj1 Hh) D M) as (I1 & I2 & I3). split; auto.
      intros q' d [[= <- <-]|Iq]; auto. exact (proj2 (hist_grows s s' h Hh I1 I2) q' d Iq). }
    assert (L : exists a' t', lra_constraint hi hv opt a t (rq_terms q) (rq_pred q) (rq_rhs q) = Ok (a', t', c) /\ l_st a' = s' /\ mnum (t_qm t') = n).
    { unfold lra_constraint. rewrite S, M. destruct (mnum (t_bm t) <=? lord (lc_lit c)).
      - set (a2 := if o_bounds opt || o_unassigned opt then _ else _).
        assert (S2 : l_st a2 = s') by (unfold a2; destruct (_ || _); reflexivity). clearbody a2.
        unfold watch_new. rewrite move_front_fresh.
        2: { apply (ft_qdef _ (fresh_resize t (Datatypes.S (lord (lc_lit c))) (mnum (t_qm t)) (su_f _ _ _ _ _ _ (problem_SU hi hv opt _ _ _ P)))). }
        rewrite S2. unfold watch_cons. rewrite EC. cbn [negb assertb bind with_st l_st].
        assert (X : forall i, i < lc_size c -> exists v, at_ (lc_vars s' c) i = Ok v).
        { intros i Li. unfold at_. destruct (nth_error (lc_vars s' c) i) as [v|] eqn:En; [exists v; reflexivity|].
          apply nth_error_None in En. lia. }
        assert (Z : 0 < lc_size c) by (unfold lc_empty, lc_size in *; apply Nat.leb_gt in EC; lia).
        destruct (X 0 Z) as [v0 E0]. rewrite E0. cbn [bind].
        destruct (1 <? lc_size c) eqn:E1.
        + apply Nat.ltb_lt in E1. destruct (X 1 E1) as [v1 E2]. rewrite E2. cbn [bind]. eexists _, _. split; [reflexivity|]. split; [reflexivity|exact N].
        + cbn [bind]. eexists _, _. split; [reflexivity|]. split; [reflexivity|exact N].
      - eexists _, _. split; [reflexivity|]. split; [reflexivity|exact N]. }
    destruct L as (a' & t' & L & S' & N'). rewrite L. cbn [bind]. exists a', t'. split; [reflexivity|].
    split; [|split; [exact S'|split; [exact N'|exact Hh']]].
    apply (pb_constraint hi hv opt _ a t q a' t' c P D); auto. intros v k Iv. rewrite N. eauto.
Qed.
End Replay.

(** ** the literals of the clauses *)
Section Lits.
Variable ndebug : bool.
Variable hi : nat -> Z.
Variable hv : Q -> Z.
Variable T : table.
Record K (st : ist) : Prop := {
  k_set : forall d, In d (st_set (is_store st)) -> lord (lc_lit d) < nvars st;
  k_bool : forall t l, In (t, l) (is_bool st) -> lord l < nvars st;
  k_cls : forall c l, In c (is_cls st) -> In l c -> lord l < nvars st }.
Lemma K_new : K is_new.
Proof. constructor; simpl; tauto. Qed.
Lemma make_lit s ts p rhs s' c : (forall d, In d (st_set s) -> lord (lc_lit d) < length (st_cons s)) -> lc_make hi hv s ts p rhs = (s', c) ->
  length (st_cons s) <= length (st_cons s') /\ lord (lc_lit c) < length (st_cons s') /\
  forall d, In d (st_set s') -> lord (lc_lit d) < length (st_cons s').
Proof.
  intros F M. split; [exact (make_len _ _ _ _ _ _ _ _ M)|]. revert M. unfold lc_make.
  destruct (find_norm ts) as [k|]; simpl;
  match goal with |- context [set_find hi hv ?a ?b] => destruct (set_find hi hv a b) as [it|] eqn:E end; intros [= <- <-].
  - apply find_some in E. destruct E as [E _]. simpl in E.
    match goal with |- context [if lc_empty ?x then _ else _] => destruct (lc_empty x) end;
      simpl; rewrite removelast_snoc; (split; [destruct (_ && _); simpl; apply (F it E)|exact F]).
  - simpl. rewrite app_length. simpl. split; [destruct (_ && _); simpl; lia|].
    intros d Id. apply in_app_iff in Id. destruct Id as [Id|[<-|[]]]; [specialize (F d Id); lia|simpl; lia].
  - apply find_some in E. destruct E as [E _]. simpl in E. simpl. rewrite removelast_snoc. split; [destruct (negb _); simpl; apply (F it E)|exact F].
  - simpl. rewrite app_length. simpl. split; [destruct (negb _); simpl; lia|].
    intros d Id. apply in_app_iff in Id. destruct Id as [Id|[<-|[]]]; [specialize (F d Id); lia|simpl; lia].
Qed.
Lemma K_lin st p o st' l : K st -> linear_constraint hi hv st p o = Ok (st', l) -> K st' /\ lord l < nvars st' /\ nvars st <= nvars st'.
Proof.
  intros [A B C] E. unfold linear_constraint in E. destruct (assertb _); cbn [bind] in E; try discriminate.
  destruct (lc_make hi hv (is_store st) (p_terms p) o (- p_const p)) as [s c] eqn:M. injection E as <- <-.
  destruct (make_lit _ _ _ _ _ _ A M) as (L & M1 & M2). split; [|split; [exact M1|exact L]].
  constructor; cbn [is_store is_bool is_cls]; unfold nvars in *; cbn [is_store]; auto.
  - intros t x I. specialize (B t x I). lia.
  - intros x y I1 I2. specialize (C x y I1 I2). lia.
Qed.
Lemma K_make_bool st : K st -> K (fst (make_bool st)) /\ nvars (fst (make_bool st)) = S (nvars st).
Proof.
  intros [A B C]. unfold make_bool. cbn [fst].
  assert (N : nvars (mkIs (lc_resize (is_store st) (S (length (st_cons (is_store st))))) (is_nreal st) (is_bool st) (is_real st) (is_cls st) (CallBool :: is_calls st)) = S (nvars st)) by apply resize_len.
  split; auto. constructor; rewrite N; cbn [is_store is_bool is_cls].
  - intros d I. cbn [lc_resize st_set] in I. specialize (A d I). lia.
  - intros t x I. specialize (B t x I). lia.
  - intros x y I1 I2. specialize (C x y I1 I2). lia.
Qed.
Lemma K_put_bool st t l st' : K st -> lord l < nvars st -> put_bool st t l = Ok st' -> K st' /\ nvars st' = nvars st.
Proof.
  intros [A B C] L P. apply put_bool_ok in P. destruct P as [_ ->]. split; [|reflexivity].
  constructor; cbn [is_store is_bool is_cls]; unfold nvars in *; cbn [is_store]; auto.
  intros x y [[= <- <-]|I]; auto. apply (B x y I).
Qed.
Lemma K_make_real st : K st -> K (fst (make_real st)).
Proof. intros [A B C]. constructor; cbn [make_real fst is_store is_bool is_cls]; unfold nvars in *; cbn [is_store]; auto. Qed.
Lemma K_put_real st t v st' : K st -> put_real st t v = Ok st' -> K st'.
Proof.
  intros [A B C] P. apply put_real_ok in P. destruct P as [_ ->].
  constructor; cbn [is_store is_bool is_cls]; unfold nvars in *; cbn [is_store]; auto.
Qed.
Lemma K_clause st c : K st -> (forall l, In l c -> lord l < nvars st) -> K (add_clause st c) /\ nvars (add_clause st c) = nvars st.
Proof.
  intros [A B C] F. split; [|reflexivity]. constructor; cbn [add_clause is_store is_bool is_cls]; unfold nvars in *; cbn [is_store]; auto.
  intros x y I1 I2. apply in_app_iff in I1. destruct I1 as [I1|[<-|[]]]; eauto.
Qed.
Lemma K_arg_lits st : K st -> forall l ls, arg_lits st l = Ok ls -> forall x, In x ls -> lord x < nvars st.
Proof.
  intros HK l ls E x Ix. apply arg_lits_ok in E. induction E as [|a y l ls (z & Iz & ->) E IH]; [destruct Ix|].
  destruct Ix as [<-|Ix]; auto. pose proof (k_bool _ HK _ _ Iz). destruct (tneg a); auto.
Qed.
Lemma K_fold l : forall ls st, K st -> lord l < nvars st -> (forall x, In x ls -> lord x < nvars st) ->
  K (fold_left (fun s a => add_clause s [l; neg a]) ls st) /\ nvars (fold_left (fun s a => add_clause s [l; neg a]) ls st) = nvars st.
Proof.
  induction ls as [|a ls IH]; intros st HK Hl F; cbn [fold_left]; auto.
  destruct (K_clause st [l; neg a] HK) as [K1 N1].
  { intros x [<-|[<-|[]]]; auto. simpl. apply F. now left. }
  destruct (IH _ K1) as [K2 N2]; [now rewrite N1|intros x Ix; rewrite N1; apply F; now right|]. split; [exact K2|]. rewrite N2. exact N1.
Qed.
Lemma K_visit st t st' : K st -> int_visit ndebug hi hv T st t = Ok st' -> K st'.
Proof.
  intros HK E.
  assert (NB : forall k, put_bool (fst (make_bool st)) k (mkLit (nvars st) false) = Ok st' -> K st').
  { intros k P. destruct (K_make_bool st HK) as [K1 N1]. apply (K_put_bool _ _ _ _ K1) in P; [apply P|]. rewrite N1. simpl. lia. }
  assert (NR : forall v, put_real (fst (make_real st)) t v = Ok st' -> K st') by (intros v; apply K_put_real, K_make_real, HK).
  assert (AT : forall p o (n : bool), (' (st1, l) <- linear_constraint hi hv st p o ;; put_bool st1 (pos t) (if n then neg l else l)) = Ok st' -> K st').
  { intros p o n P. destruct (linear_constraint hi hv st p o) as [[st1 l]| |] eqn:L; cbn [bind] in P; try discriminate.
    destruct (K_lin _ _ _ _ _ HK L) as (K1 & L1 & _). apply (K_put_bool _ _ _ _ K1) in P; [apply P|]. destruct n; auto. }
  assert (AE : forall p, (' (st1, l) <- linear_constraint hi hv st p PEq ;; _ <- assertb (negb (lneg l)) ;; put_bool st1 (pos t) l) = Ok st' -> K st').
  { intros p P. apply (AT p PEq false). destruct (linear_constraint hi hv st p PEq) as [[st1 l]| |] eqn:L; cbn [bind] in *; try discriminate.
    destruct (assertb _); cbn [bind] in P; try discriminate. exact P. }
  assert (IT : forall c a b, (let (st1, v) := make_real st in
      st2 <- put_real st1 t v ;;
      pa <- internalize_poly T st2 a ;;
      pb <- internalize_poly T st2 b ;;
      pa <- poly_subtract_var pa v ;;
      pb <- poly_subtract_var pb v ;;
      ' (st3, la) <- linear_constraint hi hv st2 pa PEq ;;
      ' (st4, lb) <- linear_constraint hi hv st3 pb PEq ;;
      _ <- assertb (negb (tneg c)) ;;
      l <- value_of (m_find (is_bool st4) c) ;;
      Ok (add_clause (add_clause st4 [l; lb]) [neg l; la])) = Ok st' -> K st').
  { intros c a b P. pose proof (K_make_real st HK) as K1. destruct (make_real st) as [st1 v]. cbn [fst] in K1.
    destruct (put_real st1 t v) as [st2| |] eqn:P2; cbn [bind] in P; try discriminate. pose proof (K_put_real _ _ _ _ K1 P2) as K2.
    destruct (internalize_poly T st2 a) as [pa| |]; cbn [bind] in P; try discriminate.
    destruct (internalize_poly T st2 b) as [pb| |]; cbn [bind] in P; try discriminate.
    destruct (poly_subtract_var pa v) as [pa'| |]; cbn [bind] in P; try discriminate.
    destruct (poly_subtract_var pb v) as [pb'| |]; cbn [bind] in P; try discriminate.
    destruct (linear_constraint hi hv st2 pa' PEq) as [[st3 la]| |] eqn:L3; cbn [bind] in P; try discriminate.
    destruct (linear_constraint hi hv st3 pb' PEq) as [[st4 lb]| |] eqn:L4; cbn [bind] in P; try discriminate.
    destruct (K_lin _ _ _ _ _ K2 L3) as (K3 & A3 & B3). destruct (K_lin _ _ _ _ _ K3 L4) as (K4 & A4 & B4).
    destruct (assertb _); cbn [bind] in P; try discriminate.
    destruct (m_find (is_bool st4) c) as [l|] eqn:M; cbn [value_of bind] in P; try discriminate. injection P as <-.
    apply m_find_in in M. pose proof (k_bool _ K4 _ _ M) as Ll.
    destruct (K_clause st4 [l; lb] K4) as [K5 N5]. { intros x [<-|[<-|[]]]; lia. }
    apply (K_clause _ _ K5). rewrite N5. intros x [<-|[<-|[]]]; simpl; lia. }
  assert (OR : forall args, (let (st1, v) := make_bool st in
      let l := mkLit v false in
      st2 <- put_bool st1 (pos t) l ;;
      ls <- arg_lits st2 args ;;
      let st3 := fold_left (fun s a => add_clause s [l; neg a]) ls st2 in
      Ok (add_clause st3 (ls ++ [neg l]))) = Ok st' -> K st').
  { intros args P. destruct (K_make_bool st HK) as [K1 N1]. pose proof (eq_refl : snd (make_bool st) = nvars st) as V.
    destruct (make_bool st) as [st1 v]. cbn [fst snd] in *. subst v. cbv zeta in P.
    destruct (put_bool st1 (pos t) (mkLit (nvars st) false)) as [st2| |] eqn:P2; cbn [bind] in P; try discriminate.
    apply (K_put_bool _ _ _ _ K1) in P2; [|rewrite N1; simpl; lia]. destruct P2 as [K2 N2].
    destruct (arg_lits st2 args) as [ls| |] eqn:A; cbn [bind] in P; try discriminate. injection P as <-.
    pose proof (K_arg_lits st2 K2 _ _ A) as F.
    destruct (K_fold (mkLit (nvars st) false) ls st2 K2) as [K3 N3]; auto. { rewrite N2, N1. simpl. lia. }
    apply (K_clause _ _ K3). rewrite N3. intros x Ix. apply in_app_iff in Ix. destruct Ix as [Ix|[<-|[]]]; auto. rewrite N2, N1. simpl. lia. }
  unfold int_visit in E. destruct (kind_of T t); try discriminate; try (injection E as <-; exact HK).
  all: repeat match type of E with
    | bind (assertb ?b) _ = _ => destruct (assertb b); cbn [bind] in E; try discriminate
    | bind (at_ ?l ?i) _ = _ => destruct (at_ l i); cbn [bind] in E; try discriminate
    | bind (internalize_poly ?a ?b ?c) _ = _ => destruct (internalize_poly a b c); cbn [bind] in E; try discriminate
    | bind (bineq_poly ?a ?b ?c ?d) _ = _ => destruct (bineq_poly a b c d); cbn [bind] in E; try discriminate
    end.
  all: try (injection E as <-; exact HK).
  all: try (exact (IT _ _ _ E)).
  all: try (exact (OR _ E)).
  all: try (exact (AE _ E)).
  all: try (destruct (tneg t); [exact (AT _ _ true E)|exact (AT _ _ false E)]).
  all: destruct (type_of T t); try discriminate; try (injection E as <-; exact HK); first [exact (NB _ E)|exact (NR _ E)].
Qed.
Lemma K_run : forall o st st', K st -> run (int_visit ndebug hi hv T) st o = Ok st' -> K st'.
Proof.
  induction o as [|t o IH]; simpl; intros st st' HK E; [now injection E as <-|].
  destruct (int_visit ndebug hi hv T st t) as [st1| |] eqn:E1; cbn [bind] in E; try discriminate. exact (IH _ _ (K_visit _ _ _ HK E1) E).
Qed.
Lemma K_top : forall l st st', K st -> top_clauses st l = Ok st' -> K st'.
Proof.
  induction l as [|a l IH]; simpl; intros st st' HK E; [now injection E as <-|].
  destruct (t_eqb a true_term); [eauto|]. unfold arg_lit in E.
  destruct (m_find (is_bool st) (pos a)) as [y|] eqn:M; cbn [value_of bind] in E; try discriminate.
  apply m_find_in in M. apply IH in E; auto. apply K_clause; auto. intros x [<-|[]]. pose proof (k_bool _ HK _ _ M). destruct (tneg a); auto.
Qed.
End Lits.

(** ** checks *)
Section Check.
Variables (hi : nat -> Z) (hv : Q -> Z) (opt : lopt).
Variable ndebug : bool.
Variable H : hashes.
Variable T : table.
Hypothesis W : wf H T.
Variable assertions : list term.
Hypothesis B : Forall (bool_t T) assertions.

Record Tr (st : ist) (a : lra) (t : trail) (o : list term) (h : list (Spec_Lincons.request * lcons)) : Prop := {
  tr_pb : problem hi hv opt (lits_of h) a t;
  tr_st : l_st a = is_store st;
  tr_nb : mnum (t_bm t) = nvars st;
  tr_nq : mnum (t_qm t) = is_nreal st;
  tr_hist : hist (is_store st) h;
  tr_req : forall q c, In (q, c) h -> proper q;
  tr_k : K st;
  tr_plain : forall x l, In (x, l) (is_bool st) -> plain T x -> lneg l = false;
  tr_bkey : forall x l, In (x, l) (is_bool st) -> In (tix x) (map tix o);
  tr_rkey : forall x v, In (x, v) (is_real st) -> In (tix x) (map tix o) /\ varlike T x;
  tr_real : forall x v, In (x, v) (is_real st) -> v < is_nreal st;
  tr_dom : forall u, In u o -> dom T st u;
  tr_typed : Forall (fun u => typed T u /\ of_roots T assertions u) o;
  tr_all : forall x root, In root assertions -> subterm T x root -> In (tix x) (map tix o) }.
Lemma translated p st : translate ndebug hi hv T [] is_new assertions = Ok (Some (p, st)) ->
  exists a t o h, replay hi hv opt (is_calls st) = Ok (a, t) /\ Tr st a t o h.
Proof.
  unfold translate. destruct (existsb _ _); [discriminate|].
  destruct (visited H T W assertions B) as (p0 & o & E & IV & ND & F & Q).
  rewrite (span_any (int_visit ndebug hi hv T) T assertions [] [] p0 o) by exact E.
  change (mkIs _ _ _ _ _ _) with is_new.
  destruct (run (int_visit ndebug hi hv T) is_new o) as [st1| |] eqn:R; cbn [bind]; try discriminate.
  destruct (top_clauses st1 assertions) as [st2| |] eqn:TC; cbn [bind]; try discriminate. intros [= <- <-].
  destruct (run_J ndebug hi hv H T W True o [] is_new [] st1 (J_new hi hv T True) ND) as [h [HJ _]]; auto.
  { eapply Forall_impl; [|exact F]. intros t Ht; apply Ht. }
  pose proof (K_run ndebug hi hv T _ _ _ K_new R) as K1. pose proof (K_top _ _ _ K1 TC) as K2.
  pose proof (j_built _ _ _ _ _ _ _ HJ Logic.I) as BT.
  destruct (built_replay hi hv opt _ _ _ _ BT) as (a & t & E1 & PB & S & N & Hh).
  destruct (top_ok _ _ _ TC) as (cs & -> & _). cbn [is_calls].
  exists a, t, o, h. split; auto. simpl in HJ.
  constructor; cbn [is_store is_nreal is_bool is_real]; auto.
  - pose proof (su_n _ _ _ _ _ _ (problem_SU hi hv opt _ _ _ PB)) as X. rewrite S in X. symmetry. exact X.
  - exact (j_req _ _ _ _ _ _ _ HJ).
  - intros x l Ix Px. apply (j_plain _ _ _ _ _ _ _ HJ x l Ix Px).
  - intros x l Ix. apply (j_bkey _ _ _ _ _ _ _ HJ x l Ix).
  - intros x v Ix. apply (j_rkey _ _ _ _ _ _ _ HJ x v Ix).
  - exact (j_rlt _ _ _ _ _ _ _ HJ).
  - exact (j_dom _ _ _ _ _ _ _ HJ).
  - intros x root Ir Sx. eapply first_closed; [apply (v_first _ _ _ IV)| |exact Sx]. rewrite Forall_forall in Q. auto.
Qed.

Lemma lit_same b l : Spec_Sat.lit_holds b l = true <-> lit_holds b l.
Proof. unfold Spec_Sat.lit_holds, lit_holds. destruct (lneg l), (b (lord l)); simpl; intuition congruence. Qed.
Lemma solves_solution st a t o h b r : Tr st a t o h -> (solves st b r <-> solution (lits_of h) (is_cls st) b r).
Proof.
  intros X. unfold solves, solution.
  assert (CL : Forall (clause_holds b) (is_cls st) <-> all_hold b (is_cls st)).
  { rewrite Forall_forall. unfold all_hold, clause_holds, Spec_Sat.clause_holds. split; intros F c Ic; destruct (F c Ic) as (l & Il & Hl); exists l; split; auto; now apply lit_same. }
  rewrite CL. split; intros [A C]; split; auto.
  - pose proof (consistent_ok _ h b r (tr_hist _ _ _ _ _ X) (tr_req _ _ _ _ _ X) A) as CK.
    intros q l Iq. unfold lits_of in Iq. apply in_map_iff in Iq. destruct Iq as ([q' c] & [= -> <-] & Iq). rewrite lit_same. apply (CK q c Iq).
  - intros v Ev. pose proof (problem_SU hi hv opt _ _ _ (tr_pb _ _ _ _ _ X)) as SU0. pose proof (tr_st _ _ _ _ _ X) as S.
    assert (IC : Lra_Watch.isC (l_st a) v) by (rewrite S; exact Ev).
    destruct (su_all _ _ _ _ _ _ SU0 v IC) as (q & l & Iq & <-).
    pose proof (C q l Iq) as Cq. unfold lits_of in Iq. apply in_map_iff in Iq. destruct Iq as ([q' c] & [= -> <-] & Iq).
    destruct (tr_hist _ _ _ _ _ X) as [HI HM]. destruct (HM q c Iq) as (c0 & M). pose proof (means_get _ c0 c q HI M) as G.
    unfold stored_holds. rewrite G. destruct M as (_ & _ & _ & _ & _ & _ & M). rewrite (M r).
    rewrite lit_same in Cq. unfold lit_holds in Cq. destruct (lneg (lc_lit c)); simpl in *.
    + rewrite <- Cq. destruct (b (lord (lc_lit c))); intuition congruence.
    + exact Cq.
Qed.

Lemma clauses_ok st a t o h : Tr st a t o h -> clauses_in t (is_cls st).
Proof. intros X c l Ic Il. rewrite (tr_nb _ _ _ _ _ X). exact (k_cls _ (tr_k _ _ _ _ _ X) c l Ic Il). Qed.

Context {HS : Type}.
Variables (he : heur HS) (hash : lit -> N) (df fuel : nat) (o : phase_opt) (hs : db -> trail -> HS).
Hypothesis HU : o_unassigned opt = false.
Hypothesis OK : order_ok hi hv opt ndebug he hash df o hs T assertions.

Lemma check_unsat x : check_assertions hi hv opt ndebug he hash df fuel o hs T assertions = Ok (Unsat, x) ->
  forall I, ~ satisfies I T assertions.
Proof.
  unfold check_assertions. intros E I S. destruct (translate ndebug hi hv T [] is_new assertions) as [[[p st]|]| |] eqn:TR; cbn [bind] in E; try discriminate.
  - destruct (translated p st TR) as (a & t & o0 & h & RP & X). rewrite RP in E. cbn [bind] in E.
    destruct (check_lra _ _ _ _ _ _ _ _ _ _ _ _) as [[s ans]| |] eqn:CL; cbn [bind] in E; try discriminate. injection E as -> <-.
    destruct (OK p st a t TR RP) as [P1 P2].
    apply (C56 hi hv opt HS he hash df fuel (lits_of h) a t (is_cls st) o (hs (mkDb (is_cls st) []) t) s HU (tr_pb _ _ _ _ _ X) (clauses_ok _ _ _ _ _ X) P1 CL).
    destruct (complete_main ndebug hi hv H T W assertions B p st TR I S) as (b & r & SV & _). exists b, r. now apply (solves_solution st a t o0 h).
  - exact (none_main ndebug hi hv H T W assertions B TR I S).
Qed.

Lemma check_sat x : check_assertions hi hv opt ndebug he hash df fuel o hs T assertions = Ok (Sat, x) -> no_apps T assertions ->
  exists st s, x = Some (st, s) /\ (exists I, reads T (show_model T st s) I) /\
    (forall I, reads T (show_model T st s) I -> satisfies I T assertions) /\
    (forall c, occurs T assertions c -> exists v, In (c, v) (show_model T st s)).
Proof.
  unfold check_assertions. intros E NA. destruct (translate ndebug hi hv T [] is_new assertions) as [[[p st]|]| |] eqn:TR; cbn [bind] in E; try discriminate.
  destruct (translated p st TR) as (a & t & o0 & h & RP & X). rewrite RP in E. cbn [bind] in E.
  destruct (check_lra _ _ _ _ _ _ _ _ _ _ _ _) as [[s ans]| |] eqn:CL; cbn [bind] in E; try discriminate. injection E as -> <-.
  destruct (OK p st a t TR RP) as [P1 P2].
  destruct (C57 hi hv opt HS he hash df fuel (lits_of h) a t (is_cls st) o (hs (mkDb (is_cls st) []) t) s HU (tr_pb _ _ _ _ _ X) (clauses_ok _ _ _ _ _ X) P1 P2 CL) as [AS SOL].
  apply (solves_solution st a t o0 h _ _ X) in SOL.
  set (b := mval (t_bm (s_trail s))) in *. set (r := mval (t_qm (s_trail s))) in *.
  assert (AB : forall c l, In (c, l) (is_bool st) -> mdef (t_bm (s_trail s)) (lord l) = true).
  { intros c l Ic. apply (AS (VBool (lord l))). cbn. apply Nat.ltb_lt. rewrite (tr_nb _ _ _ _ _ X). exact (k_bool _ (tr_k _ _ _ _ _ X) _ _ Ic). }
  assert (AR : forall c v, In (c, v) (is_real st) -> mdef (t_qm (s_trail s)) v = true).
  { intros c v Ic. apply (AS (VRat v)). cbn. apply Nat.ltb_lt. rewrite (tr_nq _ _ _ _ _ X). exact (tr_real _ _ _ _ _ X _ _ Ic). }
  assert (UN : forall c, is_uninterp T c = true <-> kind_of T c = KUninterp).
  { intros c. unfold is_uninterp. destruct (kind_of T c); cbn; split; congruence. }
  assert (SB : forall c l, In (c, l) (is_bool st) -> kind_of T c = KUninterp -> lneg l = false).
  { intros c l Ic Kc. apply (tr_plain _ _ _ _ _ X c l Ic). unfold plain. auto. }
  assert (NK : forall c, In (tix c) (map tix o0) -> kind_of T c <> KApp).
  { intros c Ic. apply in_map_iff in Ic. destruct Ic as (u & Eu & Iu). pose proof (tr_typed _ _ _ _ _ X) as F. rewrite Forall_forall in F.
    destruct (F u Iu) as [_ (root & Ir & Sr)]. unfold kind_of, node_of. rewrite <- Eu. apply (NA u root Ir Sr). }
  assert (RA : forall I, reads T (show_model T st s) I <-> agrees T st I b r).
  { intros I. unfold reads, show_model. split.
    - intros R. split.
      + intros c l Ic U. assert (Kc : kind_of T c = KUninterp). { destruct U as [U|U]; auto. exfalso. exact (NK c (tr_bkey _ _ _ _ _ X c l Ic) U). }
        specialize (R c (inl (b (lord l)))). cbn iota in R. rewrite R.
        * unfold lit_holds. now rewrite (SB c l Ic Kc).
        * apply in_app_iff. left. apply in_map_iff. exists (c, l). split; auto. apply filter_In. split; auto. cbn [fst snd].
          rewrite (AB c l Ic). rewrite (proj2 (UN c) Kc). reflexivity.
      + intros c v Ic U. assert (Kc : kind_of T c = KUninterp). { destruct U as [U|U]; auto. exfalso. exact (NK c (proj1 (tr_rkey _ _ _ _ _ X c v Ic)) U). }
        specialize (R c (inr (r v))). cbn iota in R. symmetry. apply R.
        apply in_app_iff. right. apply in_map_iff. exists (c, v). split; auto. apply filter_In. split; auto. cbn [fst snd].
        rewrite (AR c v Ic). rewrite (proj2 (UN c) Kc). reflexivity.
    - intros [A1 A2] c x Ix. apply in_app_iff in Ix. destruct Ix as [Ix|Ix]; apply in_map_iff in Ix; destruct Ix as ([c' y] & [= -> <-] & Iy);
        apply filter_In in Iy; destruct Iy as [Iy U]; cbn [fst snd] in *; apply andb_true_iff in U; destruct U as [U _]; apply UN in U.
      + specialize (A1 c y Iy (or_introl U)). unfold lit_holds in A1. rewrite (SB c y Iy U) in A1. cbn [negb] in A1. fold b.
        destruct (b (lord y)), (tholds I T c); intuition congruence.
      + specialize (A2 c y Iy (or_introl U)). symmetry. exact A2. }
  exists st, s. split; auto. split; [|split].
  - exists (read st b r). apply RA. exact (read_agrees ndebug hi hv H T W assertions B p st NA TR b r).
  - intros I R. apply (sound_main ndebug hi hv H T W assertions B p st TR I b r SOL). now apply RA.
  - intros c (Kc & Nc & root & y & Ir & Sy & Ey).
    pose proof (tr_all _ _ _ _ _ X y root Ir Sy) as Iy. apply in_map_iff in Iy. destruct Iy as (u & Eu & Iu).
    pose proof (tr_typed _ _ _ _ _ X) as F. rewrite Forall_forall in F. destruct (F u Iu) as [TYu _].
    assert (Euc : pos u = c) by (subst c; destruct u, y; cbn in *; unfold pos; cbn; congruence).
    assert (Ku : kind_of T u = KUninterp) by (rewrite <- Euc in Kc; exact Kc).
    destruct (tr_dom _ _ _ _ _ X u Iu) as [D1 D2]. unfold show_model. destruct TYu as [Bu|Ru].
    + assert (N1 : tix u <> 1).
      { intros E1. unfold kind_of, node_of in Ku. destruct (wf_prim _ _ W) as [l0 E0]. rewrite E1, E0 in Ku. discriminate. }
      destruct (D1 Bu N1) as [l Il]. assert (Kk : key T u = pos u) by (apply key_pos; congruence). rewrite Kk, Euc in Il.
      exists (inl (b (lord l))). apply in_app_iff. left. apply in_map_iff. exists (c, l). split; auto. apply filter_In. split; auto. cbn [fst snd].
      rewrite (AB c l Il). rewrite (proj2 (UN c) Kc). reflexivity.
    + assert (Eu' : u = c) by (rewrite <- Euc; destruct Ru as (_ & _ & N); destruct u; cbn in *; subst; reflexivity).
      destruct (D2 (conj Ru (or_introl Ku))) as [v Iv]. rewrite Eu' in Iv.
      exists (inr (r v)). apply in_app_iff. right. apply in_map_iff. exists (c, v). split; auto. apply filter_In. split; auto. cbn [fst snd].
      rewrite (AR c v Iv). rewrite (proj2 (UN c) Kc). reflexivity.
Qed.
End Check.
