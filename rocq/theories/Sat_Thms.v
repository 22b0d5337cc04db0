(** Property-level lemmas of the propositional solver. *)
From Coq Require Import List Arith ZArith NArith QArith Bool Lia Permutation Sorting.Sorted.
From Verif Require Import Base Core_Model Literal_Proofs Analysis_Model Bool_Model Solver_Model Spec_Sat
  Sat_Base Sat_Inv Sat_Bcp Sat_Trail Sat_Bcp2 Sat_Prop Subsumption_Proofs Sat_Analysis Sat_Analysis2 Sat_Main Sat_Term.
Import ListNotations.
Open Scope nat_scope.

Section Thms.
Context {HS : Type}.
Variable he : heur HS.
Variable hash : lit -> N.
Variable n : nat.
Variable HInv : HS -> trail -> Prop.
Hypothesis HO : order_ok n he HInv.
Variable cs : list clause.
Hypothesis Hcs : legal n cs.
Variable o : phase_opt.
Variable h : HS.
Hypothesis Hh : HInv h (trail_new n 0).

Let s0 := solver_start n cs o h.
Let th := bool_theory.

Lemma start_inv : SI n HInv cs s0.
Proof. now apply start_SI. Qed.

Lemma check_safe fuel : check_bool he hash fuel n cs o h <> UB.
Proof.
  unfold check_bool. pose proof (run_ok he hash n HInv HO cs fuel s0 start_inv) as H.
  fold s0. destruct (run bool_theory he hash fuel s0); simpl in H; congruence || easy.
Qed.

Lemma check_answer fuel s a : check_bool he hash fuel n cs o h = Ok (s, a) -> answer_ok n cs s a.
Proof.
  unfold check_bool. pose proof (run_ok he hash n HInv HO cs fuel s0 start_inv) as H.
  fold s0. intros E. rewrite E in H. simpl in H. tauto.
Qed.

Lemma check_terminates : exists k q, forall fuel, k <= fuel -> check_bool he hash fuel n cs o h = Ok q.
Proof. unfold check_bool. eapply run_terminates; eauto using start_inv. Qed.

Lemma reach_inv s : reach th he hash s0 s -> SI n HInv cs s.
Proof.
  induction 1 as [|s fuel s' R IH E]; [apply start_inv|].
  pose proof (step_ok he hash n HInv HO cs s fuel IH) as H. unfold th in E. rewrite E in H. exact H.
Qed.

Lemma reach_propagate s fuel ts d t out :
  reach th he hash s0 s -> th_propagate th fuel (s_th s) (s_db s) (s_trail s) = Ok (ts, d, t, out) ->
  exists oc, out = match oc with Some c => [c] | None => [] end /\
             MidI n HInv cs (mkS d t ts (s_he s) (s_old s)) oc.
Proof.
  intros R E. pose proof (propagate_mid he n HInv HO cs s fuel (reach_inv s R)) as H.
  cbn [th th_propagate bool_theory] in E. rewrite E in H. destruct H as (oc & H1 & H2 & _). eauto.
Qed.

Record good (d : db) (t : trail) : Prop := mkGood {
  gd_ti : TI n d t;
  gd_db : DBI n d;
  gd_asserted : Forall2 (@Permutation lit) cs (asserted d);
  gd_learned : forall c, In c (learned d) -> entails cs c;
  gd_nodup : forall c, In c (learned d) -> NoDup c }.

Lemma moment_good d t : moment th he hash s0 d t -> good d t.
Proof.
  intros [s R|s fuel ts d' t' out R E|s fuel ts d' t' out lc level h1 d1 ts1 h2 rs R E Hne Hdl A N L].
  - apply reach_inv in R. destruct R as [[A B _ _] C D E _ _]. constructor; auto.
  - destruct (reach_propagate _ _ _ _ _ _ R E) as (oc & _ & M). destruct M. constructor; auto.
  - destruct (reach_propagate _ _ _ _ _ _ R E) as (oc & -> & M). destruct oc as [c|]; [|congruence].
    pose proof M as [M1 M2 M3 (HW & r & R1 & R2 & R3 & R4) M5 M6 M7 M8 M9].
    cbn [s_db s_trail s_th s_he s_old] in *.
    destruct (analyze_conflicts_ok he n HInv HO d' t' (s_he s) c) as (c' & h' & A1 & A2 & A3); auto; try lia.
    { apply entails_in. rewrite R2. now apply getc_in. }
    rewrite A1 in A. inversion A; subst lc level h1. destruct A2 as (L1 & L2 & L3 & L4).
    unfold th in L. rewrite (learn_ok he n d' t' ts h' c' L4) in L. inversion L; subst.
    constructor; simpl.
    + now apply TI_add.
    + apply DBI_add; auto.
      * now apply asserting_ne in L4.
      * intros l Hl. pose proof (tv_in_flat _ _ _ M1 _ _ (L2 l Hl)) as I.
        destruct (ti_range _ _ _ M1 _ I) as (i & Ei & Hi). unfold lvar in Ei. inversion Ei; subst; auto.
    + auto.
    + intros x Hx. apply in_app_iff in Hx. destruct Hx as [Hx|[<-|[]]]; auto.
      intros a Ha. apply L3. eapply db_entailed; eauto.
    + intros x Hx. apply in_app_iff in Hx. destruct Hx as [Hx|[<-|[]]]; auto.
Qed.

Lemma propagate_exhaustive s fuel ts d t :
  reach th he hash s0 s -> th_propagate th fuel (s_th s) (s_db s) (s_trail s) = Ok (ts, d, t, []) ->
  forall c, In c (asserted d ++ learned d) ->
    eval_clause (t_bm t) c <> Some false /\
    (NoDup c -> forall l, In l c -> (forall x, In x c -> x <> l -> eval_lit (t_bm t) x = Some false) ->
       eval_lit (t_bm t) l = Some true).
Proof.
  intros R E c Hc. destruct (reach_propagate _ _ _ _ _ _ R E) as (oc & Eo & M).
  destruct oc; [discriminate|]. destruct M as [M1 M2 M3 (fl & [W1 W2 W3]) M5 M6 M7 M8 M9]. simpl in *.
  apply in_getc in Hc. destruct Hc as (r & V & <-). specialize (W2 r V).
  assert (F : forall x y rest, (tv t x = Some false -> wlit_ok t [] fl [] r rest x y) ->
     eval_lit (t_bm t) x = Some false -> eval_lit (t_bm t) y = Some true).
  { intros x y rest K Hx. destruct (K Hx) as [[]|[[_ []]|[(K1 & _)|(_ & _ & [[_ []]|[_ []]])]]]. exact K1. }
  destruct (getc d r) as [|u [|v rest]] eqn:Hcr; [destruct W2| |].
  - destruct W2 as [[W2 _]|(_ & [[_ []]|[[_ []]|[_ []]]])]. split.
    + rewrite eval_clause_false. intros Hall. specialize (Hall u (or_introl eq_refl)). unfold tv in W2. congruence.
    + intros _ l [<-|[]] _. exact W2.
  - destruct W2 as [Wa Wb]. pose proof (F _ _ _ Wa) as Fa. pose proof (F _ _ _ Wb) as Fb. split.
    + rewrite eval_clause_false. intros Hall.
      pose proof (Hall u (or_introl eq_refl)) as K1. pose proof (Hall v (or_intror (or_introl eq_refl))) as K2.
      rewrite (Fa K1) in K2. discriminate.
    + intros ND l Hl Hx. inversion ND as [|? ? N1 N2]; subst.
      destruct Hl as [<-|Hl].
      * apply Fb. apply Hx; [simpl; auto|]. intros ->. apply N1. simpl; auto.
      * assert (u <> l) by (intros ->; apply N1; auto).
        assert (Hv := Fa (Hx u (or_introl eq_refl) H)).
        destruct (lit_eq_dec v l) as [->|Hvl]; auto.
        rewrite (Hx v) in Hv; simpl; auto. discriminate.
Qed.

Lemma propagate_conflict s fuel ts d t out :
  reach th he hash s0 s -> th_propagate th fuel (s_th s) (s_db s) (s_trail s) = Ok (ts, d, t, out) ->
  forall c, In c out -> In c (asserted d ++ learned d) /\ forall l, In l c -> eval_lit (t_bm t) l = Some false.
Proof.
  intros R E c Hc. destruct (reach_propagate _ _ _ _ _ _ R E) as (oc & Eo & M).
  destruct oc as [c'|]; [|subst; easy]. subst. destruct Hc as [->|[]].
  destruct M as [M1 M2 M3 (HW & r & R1 & R2 & R3 & R4) M5 M6 M7 M8 M9]. simpl in *.
  split; [rewrite R2; now apply getc_in|]. exact R3.
Qed.

Lemma moment_implied d t v r : moment th he hash s0 d t -> t_rsn t v = Some r ->
  valid d r /\
  exists l, In l (getc d r) /\ lvar l = v /\ eval_lit (t_bm t) l = Some true /\
    forall x, In x (getc d r) -> x <> l ->
      eval_lit (t_bm t) x = Some false /\ assigned_before t (lvar x) v.
Proof.
  intros M Hr. apply moment_good in M. destruct M as [HT _ _ _ _].
  pose proof (rsn_flat n d t HT v r Hr) as I. destruct (ti_range _ _ _ HT v) as (i & -> & _).
  { apply in_map_iff. exists (v, Some r); auto. }
  destruct (flat_reason _ _ _ _ _ HT I) as (R1 & R2 & R3). split; auto.
  exists (tlit (tval t) i). split; auto. split; auto. split; [eapply tv_tlit; eauto|].
  intros x Hx Hne. split.
  - destruct (R3 x Hx); [congruence|auto].
  - apply in_split in I. destruct I as (es1 & es2 & Ef).
    pose proof (ti_flat _ _ _ HT) as F. rewrite Ef in F. apply flat_ok_mid in F.
    destruct F as (j & Ej & _ & _ & F). inversion Ej; subst j. destruct (F x Hx) as [?|[A _]]; [congruence|].
    apply in_map_iff in A. destruct A as ([w e2] & Ew & A). simpl in Ew. subst w.
    apply in_split in A. destruct A as (es3 & es4 & ->). exists es1, (Some r), es3, e2, es4. exact Ef.
Qed.

Lemma minimize_general d t c : TI n d t -> all_false t c ->
  exists c', minimize d t c = Ok c' /\ sub c' c /\
    (forall a, clause_holds a c -> (forall v r, t_rsn t v = Some r -> clause_holds a (getc d r)) ->
       clause_holds a c') /\
    (forall k x, 1 <= k -> In x c -> lev t x = Some k -> exists y, In y c' /\ lev t y = Some k).
Proof.
  intros HT Hf.
  pose (rs := concat (map (fun e : entry => match snd e with Some r => [getc d r] | None => [] end) (flat t))).
  assert (HRS : forall v r, In (v, Some r) (flat t) -> In (getc d r) rs).
  { intros v r I. apply in_concat. exists [getc d r]. split; [|simpl; auto].
    apply in_map_iff. exists (v, Some r). auto. }
  destruct (minimize_loop_ok n d t HT c Hf c [] [] eq_refl sub_nil) as (c' & M1 & M2 & M3).
  { intros x []. }
  exists c'. split; [exact M1|]. split; auto. split.
  - intros a (x & X1 & X2) Hr.
    assert (Ha : all_hold a rs).
    { intros y Hy. apply in_concat in Hy. destruct Hy as (ys & Y1 & Y2). apply in_map_iff in Y1.
      destruct Y1 as ([v [r|]] & <- & Y3); [|destruct Y2]. destruct Y2 as [<-|[]]. apply (Hr v).
      now apply (ti_rsn _ _ _ HT) in Y3. }
    assert (D : (exists y, In y c' /\ lit_holds a y = true) \/ forall y, In y c' -> lit_holds a y = false).
    { clear. induction c' as [|y c' IH]; [right; easy|].
      destruct (lit_holds a y) eqn:E; [left; exists y; simpl; auto|].
      destruct IH as [(z & Z1 & Z2)|IH]; [left; exists z; simpl; auto|right].
      intros z [<-|Hz]; auto. }
    destruct D as [D|D]; [exact D|]. exfalso.
    rewrite (removed_false n d t HT rs HRS c c' a Hf M3 Ha D (flat t) [] eq_refl x X1) in X2; [discriminate|].
    exact (all_false_in_flat n d t HT c x Hf X1).
  - intros k x Hk Hx Hl.
    destruct (removed_level n d t HT c c' k Hf Hk M3 (flat t) [] eq_refl x Hx) as (y & Y1 & Y2 & Y3); auto.
    { exact (all_false_in_flat n d t HT c x Hf Hx). }
    eauto.
Qed.
End Thms.

Lemma sorted_levels t c : StronglySorted (lev_ge t) c -> levels_decrease t c.
Proof.
  intros S c1 a c2 b c3 ->.
  assert (S2 : StronglySorted (lev_ge t) (a :: c2 ++ b :: c3)).
  { clear -S. induction c1; auto. apply IHc1. now inversion S. }
  inversion S2 as [|? ? _ F]; subst. rewrite Forall_forall in F.
  specialize (F b (in_elt _ _ _)). unfold lev_ge, lvl_or in F.
  destruct (lit_level t a), (lit_level t b); auto; try lia.
Qed.

(** ** an empty asserted clause *)
Lemma init_clauses_empty d : forall rs acc, (exists r, In r rs /\ getc d r = []) -> init_clauses d rs acc = UB.
Proof.
  induction rs as [|r rs IH]; intros [w s] (r0 & H & E); [easy|]. cbn [init_clauses].
  destruct (getc d r) as [|l0 [|l1 c]] eqn:Er; unfold init_clause; rewrite Er; auto; cbn [bind];
    apply IH; exists r0; (destruct H as [->|H]; [congruence|auto]).
Qed.
Lemma empty_clause_UB {HS} (he : heur HS) hash n cs o h fuel :
  In [] cs -> check_bool he hash (S fuel) n cs o h = UB.
Proof.
  intros H. unfold check_bool. cbn [run]. unfold step. cbn [th_propagate bool_theory].
  unfold bool_propagate, bool_initialize. cbn [solver_start s_trail s_db s_th trail_new t_levels].
  change (trail_empty (trail_new n 0)) with true. cbn match.
  rewrite init_clauses_empty; auto. apply In_nth with (d := []) in H. destruct H as (i & Hi & E).
  exists (CAsserted i). split; auto. apply in_app_iff. left. apply in_map, in_seq. simpl. lia.
Qed.
Lemma getc_range n d : DBI n d -> forall c, In c (asserted d ++ learned d) -> c <> [] /\ forall l, In l c -> lord l < n.
Proof. intros H c Hc. apply in_getc in Hc. destruct Hc as (r & V & <-). now apply H. Qed.
