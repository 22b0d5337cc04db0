(** Termination of the propositional solver. *)
From Coq Require Import List Arith ZArith NArith Bool Lia Permutation Sorting.Sorted Wf_nat.
From Verif Require Import Base Core_Model Literal_Proofs Analysis_Model Bool_Model Solver_Model Sat_Base Sat_Inv
  Sat_Bcp Sat_Trail Sat_Bcp2 Sat_Prop Sort_Proofs Subsumption_Proofs Sat_Analysis Sat_Main.
Import ListNotations.
Open Scope nat_scope.

(** ** more fuel does not change a result *)
Lemma bcp_loop_mono : forall fuel fuel' t d w s,
  fuel <= fuel' -> bcp_loop fuel t d w s <> Fuel -> bcp_loop fuel' t d w s = bcp_loop fuel t d w s.
Proof.
  induction fuel as [|fuel IH]; intros fuel' t d w s Hf H.
  - destruct s as [|[l r] s]; [destruct fuel'; reflexivity|]. simpl in H. congruence.
  - destruct fuel' as [|fuel']; [lia|]. destruct s as [|[l r] s]; [reflexivity|].
    cbn [bcp_loop] in *.
    match goal with |- bind ?m ?f = bind ?m ?g => destruct m as [t1| |]; cbn [bind] in *; auto end.
    match goal with |- bind ?m ?f = bind ?m ?g => destruct m as [[]| |]; cbn [bind] in *; auto end.
    match goal with |- bind ?m ?f = bind ?m ?g => destruct m as [[]| |]; cbn [bind] in *; auto end.
    match goal with |- bind ?m ?f = bind ?m ?g => destruct m as [[[[d2 w2] s2] o]| |]; cbn [bind] in *; auto end.
    destruct o; auto. apply IH; auto. lia.
Qed.

Lemma propagate_mono fuel fuel' b d t :
  fuel <= fuel' -> bool_propagate fuel b d t <> Fuel ->
  bool_propagate fuel' b d t = bool_propagate fuel b d t.
Proof.
  intros Hf H. unfold bool_propagate in *. destruct (bool_initialize b d t) as [[b1 s]| |]; cbn [bind] in *; auto.
  rewrite (bcp_loop_mono fuel fuel'); auto. intros E. rewrite E in H. simpl in H. congruence.
Qed.

(** ** the measure: sets of literals that contain no duplicate-free clause of the database *)
Fixpoint powerset (l : list lit) : list (list lit) :=
  match l with
  | [] => [[]]
  | x :: l' => powerset l' ++ map (cons x) (powerset l')
  end.

Lemma powerset_filter p l : In (filter p l) (powerset l).
Proof.
  induction l as [|x l IH]; simpl; auto. apply in_app_iff. destruct (p x); auto.
  right. apply in_map. auto.
Qed.

Definition univ (n : nat) : list lit :=
  flat_map (fun i => [mkLit i false; mkLit i true]) (seq 0 n).
Lemma univ_in n l : lord l < n -> In l (univ n).
Proof.
  intros H. apply in_flat_map. exists (lord l). split; [apply in_seq; lia|].
  destruct l as [i []]; simpl; auto.
Qed.

Fixpoint nodupb (c : clause) : bool :=
  match c with [] => true | l :: c' => negb (mem_lit l c') && nodupb c' end.
Lemma nodupb_iff c : nodupb c = true <-> NoDup c.
Proof.
  induction c as [|l c IH]; simpl; [split; auto; constructor|].
  rewrite andb_true_iff, negb_true_iff, mem_lit_notIn, IH. split.
  - intros []. now constructor.
  - intros H. inversion H; auto.
Qed.

Definition covers (c : clause) (S : list lit) : bool := nodupb c && forallb (fun l => mem_lit l S) c.
Lemma covers_iff c S : covers c S = true <-> NoDup c /\ incl c S.
Proof.
  unfold covers. rewrite andb_true_iff, nodupb_iff, forallb_forall. unfold incl.
  split; intros [A B]; split; auto; intros l Hl; apply mem_lit_In; auto.
Qed.

Definition uncovered (cs : list clause) (S : list lit) : bool := negb (existsb (fun c => covers c S) cs).
Definition measure (n : nat) (cs : list clause) : nat :=
  length (filter (uncovered cs) (powerset (univ n))).

Lemma filter_le {A} (p q : A -> bool) l :
  (forall x, In x l -> p x = true -> q x = true) -> length (filter p l) <= length (filter q l).
Proof.
  induction l as [|x l IH]; simpl; intros H; auto.
  assert (IH' : length (filter p l) <= length (filter q l)) by (apply IH; auto).
  destruct (p x) eqn:E; [rewrite (H x); auto; simpl; lia|]. destruct (q x); simpl; lia.
Qed.
Lemma filter_lt {A} (p q : A -> bool) l x :
  (forall x, In x l -> p x = true -> q x = true) -> In x l -> p x = false -> q x = true ->
  length (filter p l) < length (filter q l).
Proof.
  induction l as [|y l IH]; simpl; intros H Hx Hp Hq; [easy|]. destruct Hx as [->|Hx].
  - rewrite Hp, Hq. simpl. assert (length (filter p l) <= length (filter q l)) by (apply filter_le; auto). lia.
  - assert (length (filter p l) < length (filter q l)) by (apply IH; auto).
    destruct (p y) eqn:E; [rewrite (H y); auto; simpl; lia|]. destruct (q y); simpl; lia.
Qed.

(** every duplicate-free clause of [cs] has a duplicate-free subset in [cs'] *)
Definition refines (cs cs' : list clause) : Prop :=
  forall c, In c cs -> NoDup c -> exists c', In c' cs' /\ NoDup c' /\ incl c' c.

Lemma refines_uncovered cs cs' S : refines cs cs' -> uncovered cs' S = true -> uncovered cs S = true.
Proof.
  unfold uncovered. rewrite !negb_true_iff, <- !not_true_iff_false, !existsb_exists.
  intros H N (c & C1 & C2). apply N. apply covers_iff in C2. destruct C2 as [C2 C3].
  destruct (H c C1 C2) as (c' & A & B & C). exists c'. split; auto. apply covers_iff. split; auto.
  intros l Hl; auto.
Qed.

Lemma measure_le n cs cs' : refines cs cs' -> measure n cs' <= measure n cs.
Proof. intros H. apply filter_le. intros S _. now apply refines_uncovered. Qed.

Lemma measure_lt n cs cs' c :
  refines cs cs' -> refines [c] cs' -> NoDup c -> (forall l, In l c -> lord l < n) ->
  (forall x, In x cs -> NoDup x -> ~ incl x c) ->
  measure n cs' < measure n cs.
Proof.
  intros H1 H2 Hn Hv Hno. set (S := filter (fun l => mem_lit l c) (univ n)).
  assert (HS : forall l, In l S <-> In l c).
  { intros l. unfold S. rewrite filter_In, mem_lit_In. split; [tauto|]. intros Hl. split; auto. apply univ_in; auto. }
  apply filter_lt with (x := S).
  - intros x _. now apply refines_uncovered.
  - apply powerset_filter.
  - unfold uncovered. rewrite negb_false_iff, existsb_exists.
    destruct (H2 c (or_introl eq_refl) Hn) as (c' & A & B & C). exists c'. split; auto.
    apply covers_iff. split; auto. intros l Hl. apply HS. auto.
  - unfold uncovered. rewrite negb_true_iff, <- not_true_iff_false, existsb_exists.
    intros (x & X1 & X2). apply covers_iff in X2. destruct X2 as [X2 X3]. apply (Hno x X1 X2).
    intros l Hl. apply HS. auto.
Qed.

Lemma refines_perm cs cs' : Forall2 (@Permutation lit) cs cs' -> refines cs cs' /\ refines cs' cs.
Proof.
  induction 1 as [|x y cs cs' P F [IH1 IH2]]; [split; intros c []|].
  split; intros c [<-|Hc] Hn.
  - exists y. split; [simpl; auto|]. split; [eapply Permutation_NoDup; eauto|].
    intros l. apply Permutation_in. now apply Permutation_sym.
  - destruct (IH1 c Hc Hn) as (c' & A & B & C). exists c'; simpl; auto.
  - exists x. split; [simpl; auto|]. split; [eapply Permutation_NoDup; [apply Permutation_sym|]; eauto|].
    intros l. apply Permutation_in; auto.
  - destruct (IH2 c Hc Hn) as (c' & A & B & C). exists c'; simpl; auto.
Qed.

Lemma refines_trans a b c : refines a b -> refines b c -> refines a c.
Proof.
  intros H1 H2 x Hx Hn. destruct (H1 x Hx Hn) as (y & A & B & C). destruct (H2 y A B) as (z & D & E & F).
  exists z. repeat split; auto. intros l Hl; auto.
Qed.

Lemma dbperm_forall2 d d' : dbperm d d' -> Forall2 (@Permutation lit) (clauses_of d) (clauses_of d').
Proof. intros [H1 H2]. unfold clauses_of. apply Forall2_app; auto. Qed.

(** a learned clause is not a superset of an existing clause *)
Lemma learnable_new n d t w c x :
  TI n d t -> WW d t w -> 1 <= dl t -> learnable n d t c ->
  In x (clauses_of d) -> NoDup x -> ~ incl x c.
Proof.
  intros HT [_ HW] Hdl (L1 & L2 & L3 & (l0 & rest & Ec & A1 & A2 & A3)) Hx Hn Hincl.
  apply in_getc in Hx. destruct Hx as (r & V & <-). specialize (HW r V).
  assert (Hf : all_false t (getc d r)) by (intros l Hl; apply L2; auto).
  assert (Htop : forall l, In l (getc d r) -> lev t l = Some (dl t) -> l = l0).
  { intros l Hl E. apply Hincl in Hl. rewrite Ec in Hl. destruct Hl as [Hl|Hl]; auto.
    destruct (A2 l Hl) as (k & K1 & K2). rewrite K1 in E. inversion E. lia. }
  destruct (getc d r) as [|u [|v cr]]; [destruct HW| |].
  - destruct HW as [[HW _]|HW]; [|lia]. specialize (Hf u (or_introl eq_refl)). congruence.
  - destruct HW as [Wa Wb].
    assert (Hu : tv t u = Some false) by (apply Hf; simpl; auto).
    assert (Hv : tv t v = Some false) by (apply Hf; simpl; auto).
    assert (Eu : lev t u = Some (dl t)).
    { destruct (tv_some_lev _ _ _ HT _ _ Hu) as (k & K). pose proof (lev_le_dl _ _ _ HT _ _ K).
      destruct (Nat.eq_dec k (dl t)) as [->|]; auto. destruct (Wa k Hu K ltac:(lia)). congruence. }
    assert (Ev : lev t v = Some (dl t)).
    { destruct (tv_some_lev _ _ _ HT _ _ Hv) as (k & K). pose proof (lev_le_dl _ _ _ HT _ _ K).
      destruct (Nat.eq_dec k (dl t)) as [->|]; auto. destruct (Wb k Hv K ltac:(lia)). congruence. }
    apply Htop in Eu; [|simpl; auto]. apply Htop in Ev; [|simpl; auto]. subst.
    inversion Hn as [|? ? N1 N2]. apply N1. simpl; auto.
Qed.

(** the number of decisions is bounded by the number of variables *)
Lemma dl_bound n d t : TI n d t -> dl t <= n.
Proof.
  intros HT.
  assert (H1 : dl t <= length (flat t)).
  { pose proof (ti_lev _ _ _ HT) as HL. unfold flat, dl. clear HT.
    assert (G : length (t_levels t) <= S (length (concat (t_levels t)))).
    { revert HL. generalize (t_levels t) as ls. induction ls as [|es ls IH]; intros HL; simpl; [lia|].
      destruct HL as [(_ & HL & _) HL2]. specialize (IH HL2). rewrite app_length.
      destruct ls as [|e ls]; [simpl; lia|].
      cbn [length] in HL. destruct HL as (es' & v & -> & _). rewrite app_length. simpl in *. lia. }
    lia. }
  assert (H2 : length (flat t) <= n).
  { pose proof (flat_ok_nodup _ _ _ (ti_flat _ _ _ HT)) as ND.
    assert (K : length (map fst (flat t)) <= length (map VBool (seq 0 n))); [|rewrite !map_length, seq_length in K; exact K].
    apply NoDup_incl_length; auto. intros v Hv. destruct (ti_range _ _ _ HT v Hv) as (i & -> & Hi).
    apply in_map. apply in_seq. lia. }
  lia.
Qed.

Section Term.
Context {HS : Type}.
Variable he : heur HS.
Variable hash : lit -> N.
Variable n : nat.
Variable HInv : HS -> trail -> Prop.
Hypothesis HO : order_ok n he HInv.

Definition mu (s : solver (TS := bstate) (HS := HS)) : nat := measure n (clauses_of (s_db s)).

(** with enough fuel, an iteration ends the run, or decreases the measure, or adds a decision *)
Lemma step_progress cs0 s : SI n HInv cs0 s ->
  exists k q, (forall fuel, k <= fuel -> step bool_theory he hash fuel s = Ok q) /\
    match q with
    | (_, Some _) => True
    | (s', None) => SI n HInv cs0 s' /\
        (mu s' < mu s \/ (mu s' = mu s /\ dl (s_trail s') = S (dl (s_trail s))))
    end.
Proof.
  intros HS0. destruct (propagate_terminates n _ _ _ (si_bi _ _ _ _ HS0)) as (k & Hk).
  pose proof (propagate_mid he n HInv HO cs0 s k HS0) as HM.
  pose proof (step_ok he hash n HInv HO cs0 s k HS0) as Hstep.
  pose proof (Hk k (le_n k)) as Hnf.
  destruct (bool_propagate k (s_th s) (s_db s) (s_trail s)) as [[[[b' d'] t'] cs]| |] eqn:EP; [|easy|congruence].
  assert (EP' : forall fuel, k <= fuel -> bool_propagate fuel (s_th s) (s_db s) (s_trail s) = Ok (b', d', t', cs)).
  { intros fuel Hf. rewrite (propagate_mono k fuel); auto. }
  assert (Hq : forall fuel, k <= fuel -> step bool_theory he hash fuel s = step bool_theory he hash k s).
  { intros fuel Hf. unfold step. cbn [th_propagate bool_theory]. rewrite EP' by auto. rewrite EP. reflexivity. }
  simpl in HM. destruct HM as (o & -> & HM & Hdl & HP).
  assert (Hmu : measure n (clauses_of d') = mu s).
  { destruct (refines_perm _ _ (dbperm_forall2 _ _ HP)) as [R1 R2].
    apply Nat.le_antisymm; apply measure_le; auto. }
  destruct (step bool_theory he hash k s) as [[s' oa]| |] eqn:ES; [|easy|].
  - exists k, (s', oa). split; auto. destruct oa as [a|]; auto. split; [exact Hstep|].
    unfold step in ES. cbn [th_propagate bool_theory] in ES. rewrite EP in ES. cbn [bind] in ES.
    destruct o as [c|].
    + destruct (Nat.eqb_spec (dl t') 0) as [E|E]; [discriminate|].
      destruct (on_conflict_ok he hash n HInv HO cs0 _ c HM) as (s2 & c' & S1 & S2 & S3 & S4 & S5 & S6); [simpl; lia|].
      cbn [s_db s_trail s_th s_he s_old] in *. unfold bool_theory in ES, S1. rewrite S1 in ES. cbn [bind] in ES.
      inversion ES; subst s2. left. rewrite <- Hmu. unfold mu.
      assert (ND' : forall x, In x (learned (s_db s')) -> NoDup x) by apply S2.
      apply measure_lt with (c := c').
      * intros x Hx Hn. unfold clauses_of in *. apply in_app_iff in Hx. destruct Hx as [Hx|Hx].
        -- exists x. rewrite S4. split; [apply in_app_iff; auto|]. split; auto. apply incl_refl.
        -- destruct (S6 x (or_introl Hx)) as (x' & X1 & X2). exists x'. split; [apply in_app_iff; auto|].
           split; auto.
      * intros x [<-|[]] Hn. destruct (S6 c' (or_intror eq_refl)) as (x' & X1 & X2). exists x'.
        split; [unfold clauses_of; apply in_app_iff; auto|]. split; auto.
      * apply S3.
      * intros l Hl. destruct S3 as (_ & L2 & _). pose proof (mi_ti _ _ _ _ _ HM) as HT. simpl in HT.
        pose proof (tv_in_flat _ _ _ HT _ _ (L2 l Hl)) as I.
        destruct (ti_range _ _ _ HT _ I) as (i & Ei & Hi). unfold lvar in Ei. inversion Ei; subst; auto.
      * intros x Hx Hn. eapply learnable_new; eauto.
        -- exact (mi_ti _ _ _ _ _ HM).
        -- pose proof (mi_watch _ _ _ _ _ HM) as [W _]. exact W.
        -- lia.
    + cbn [s_he] in ES. pose proof (ok_pick _ _ _ HO (s_he s) d' t' (mi_he _ _ _ _ _ HM)) as HP'.
      destruct (h_pick he (s_he s) d' t') as [h1 [v|]]; [|discriminate].
      destruct HP' as (i & -> & Hi & Hd & Hx). cbn [th_decide bind] in ES. inversion ES; subst s'.
      right. split; [exact Hmu|]. cbn [s_trail]. rewrite <- Hdl.
      pose proof (dl_S _ _ _ (mi_ti _ _ _ _ _ HM)) as DS. cbn [s_trail] in DS.
      unfold bool_decide, trail_decide, dl. cbn [t_levels length with_bm]. unfold dl in DS. lia.
  - exfalso. unfold step in ES. cbn [th_propagate bool_theory] in ES. rewrite EP in ES. cbn [bind] in ES.
    destruct o as [c|].
    + destruct (Nat.eqb_spec (dl t') 0) as [E|E]; [discriminate|].
      destruct (on_conflict_ok he hash n HInv HO cs0 _ c HM) as (s2 & c' & S1 & _); [simpl; lia|].
      cbn [s_db s_trail s_th s_he s_old] in *. unfold bool_theory in ES, S1. rewrite S1 in ES. discriminate.
    + cbn [s_he] in ES. destruct (h_pick he (s_he s) d' t') as [h1 [v|]]; discriminate.
Qed.

Lemma run_terminates cs0 : forall m s, SI n HInv cs0 s ->
  (S n) * mu s + (n - dl (s_trail s)) < m ->
  exists k q, forall fuel, k <= fuel -> run bool_theory he hash fuel s = Ok q.
Proof.
  induction m as [|m IH]; intros s HS0 Hm; [lia|].
  destruct (step_progress cs0 s HS0) as (k & [s' [a|]] & Hk & HP).
  - exists (S k), (s', a). intros [|fuel] Hf; [lia|]. cbn [run]. rewrite Hk by lia. reflexivity.
  - destruct HP as [HS1 HP].
    pose proof (dl_bound n _ _ (bi_ti _ _ _ _ (si_bi _ _ _ _ HS1))) as B1.
    destruct (IH s' HS1) as (k' & q & Hq).
    { destruct HP as [HP|[HP1 HP2]]; [nia|]. rewrite HP1. lia. }
    exists (S (Nat.max k k')), q. intros [|fuel] Hf; [lia|]. cbn [run]. rewrite Hk by lia. cbn [bind].
    apply Hq. lia.
Qed.
End Term.
