(** Soundness of conflict analysis, learning and backtracking for arbitrary plugins. *)
From Coq Require Import List Arith ZArith QArith NArith Bool Lia Permutation Sorting.Sorted.
From Verif Require Import Base Core_Model Literal_Proofs Analysis_Model Bool_Model Sat_Base Sat_Inv Sat_Trail Sat_Prop Sat_Bcp
  Sort_Proofs Subsumption_Proofs Sat_Analysis
  Trail_Model Spec_Trail Trail_Proofs Solver_Model Spec_Sat Spec_Multi Multi_Proofs Spec_Theory Theory_Inv Theory_Strict.
Import ListNotations.
Open Scope nat_scope.

Lemma value_of_ok {A} (o : option A) x : value_of o = Ok x -> o = Some x.
Proof. destruct o; cbn; intros H; inversion H; auto. Qed.

(** ** Analysis *)
Section A.
Variables (M : (nat -> bool) -> Prop) (d : db) (t : trail).
Definition ment (c : clause) : Prop := forall a, M a -> clause_holds a c.
Hypothesis G : GI (fun l => forall a, M a -> lit_holds a l = true) d t.
Hypothesis HD : forall c, In c (clauses_of d) -> ment c.

Lemma ment_incl c c' : (forall x, In x c -> In x c') -> ment c -> ment c'.
Proof. intros H H1 a Ha. destruct (H1 a Ha) as (l & A & B). exists l; auto. Qed.

Definition below (top : nat) (s : list lit) : Prop := forall x k, In x s -> lev t x = Some k -> k <= top.

Lemma init_loop_inv : forall c s top s' top', init_loop t c s top = Ok (s', top') -> NoDup s ->
  NoDup s' /\ (forall x, In x s' <-> In x s \/ In x c) /\ top <= top' /\ (below top s -> below top' s') /\
  (top' = top \/ exists x, In x c /\ lev t x = Some top').
Proof.
  induction c as [|l c IH]; intros s top s' top' H Hs; cbn [init_loop] in H.
  - injection H as <- <-. split; [auto|]. split; [intros x; simpl; tauto|]. split; auto.
  - destruct (lit_level t l) as [k|] eqn:Hk; cbn [value_of bind] in H; [|discriminate].
    destruct (cset_insert l s) as [s1 b] eqn:E. cbn [fst] in H. apply cset_insert_spec in E.
    assert (E' : NoDup s1 /\ forall x, In x s1 <-> x = l \/ In x s).
    { destruct E as [(_ & ? & ->)|(_ & ? & ->)]; split; auto.
      - constructor; auto.
      - simpl. intuition.
      - intuition. subst; auto. }
    destruct E' as [E1 E2]. apply IH in H; auto. destruct H as (I1 & I2 & I3 & I4 & I5). split; auto.
    split; [intros x; rewrite I2, E2; simpl; intuition auto|]. split; [lia|]. split.
    + intros B. apply I4. intros x j Hx Hj. apply E2 in Hx. destruct Hx as [->|Hx].
      * unfold lev, lit_level in *. assert (j = k) by congruence. lia.
      * specialize (B x j Hx Hj). lia.
    + destruct I5 as [I5|(x & X1 & X2)]; [|right; exists x; simpl; auto].
      destruct (Nat.max_spec top k) as [[M1 M2]|[M1 M2]]; rewrite M2 in I5; auto.
      right. exists l. simpl. split; auto. unfold lev, lit_level in *. congruence.
Qed.

Definition cinv (top : nat) (s : list lit) (m : Z) : Prop :=
  NoDup s /\ all_false t s /\ ment s /\ m = count_level t top s /\ below top s.

Lemma false_lit i : mdef (t_bm t) i = true -> neg (mkLit i (mval (t_bm t) i)) = tlit (tval t) i.
Proof. reflexivity. Qed.

Lemma resolve_inv top r i s m s' m' :
  t_rsn t (VBool i) = Some r -> t_lvl t (VBool i) = Some top -> In (mkLit i (mval (t_bm t) i)) s ->
  resolve t top (getc d r) (mkLit i (mval (t_bm t) i)) s m = Ok (s', m') -> cinv top s m ->
  cinv top s' m' /\
  (forall x, In x s' <-> (In x s /\ x <> mkLit i (mval (t_bm t) i)) \/
                        (In x (getc d r) /\ x <> tlit (tval t) i)).
Proof.
  set (l := mkLit i (mval (t_bm t) i)). intros Hr Hl Hin H (I1 & I2 & I3 & I4 & I5).
  assert (Hnl : neg l = tlit (tval t) i) by reflexivity.
  destruct (gi_rsn _ _ _ G i r Hr) as (k & Hk & V & R1 & R2). assert (k = top) by congruence. subst k.
  unfold resolve in H. destruct (resolve_loop t top l (getc d r) s m) as [s1 m1] eqn:Er.
  apply (resolve_loop_ok t) in Er; auto. destruct Er as (E1 & E2 & E3).
  destruct (at_level t top l) eqn:Al; cbn [assertb bind] in H; [|discriminate]. injection H as <- <-.
  assert (Hne : forall x, In x (getc d r) -> x <> neg l -> x <> l).
  { intros x Hx Hx' ->. destruct (R2 _ Hx) as [?|(_ & O & _)]; [congruence|]. unfold older in O. simpl in O. lia. }
  assert (Hl1 : In l s1) by (apply E3; auto).
  assert (HI : forall x, In x (cset_remove l s1) <-> (In x s /\ x <> l) \/ (In x (getc d r) /\ x <> tlit (tval t) i)).
  { intros x. rewrite cset_remove_in, E3, <- Hnl. split.
    - intros [[A|[A B]] C]; auto.
    - intros [[A B]|[A B]]; split; auto. }
  split; [|exact HI]. split; [now apply NoDup_filter|]. split; [|split; [|split]].
  - intros x Hx. apply HI in Hx. destruct Hx as [[Hx _]|[Hx Hx']]; auto. destruct (R2 x Hx) as [?|(A & _)]; [congruence|exact A].
  - intros a Ha. destruct (I3 a Ha) as (x & X1 & X2). destruct (lit_eq_dec x l) as [-> |Hxl].
    + destruct (HD _ (getc_in _ _ V) a Ha) as (y & Y1 & Y2).
      assert (y <> neg l). { intros ->. rewrite lit_holds_neg, X2 in Y2. discriminate. }
      exists y. split; auto. apply HI. auto.
    + exists x. split; auto. apply HI. auto.
  - rewrite E2. symmetry. apply (cset_remove_count t); auto.
  - intros x k Hx Hk'. apply HI in Hx. destruct Hx as [[Hx _]|[Hx Hx']]; [eapply I5; eauto|].
    destruct (R2 x Hx) as [?|(_ & _ & j & A & B)]; [congruence|]. assert (j = k) by congruence. lia.
Qed.

Lemma analyze_loop_inv top : forall es s m acc s' m' acc',
  (forall e, In e es -> In e (lists t top)) -> top <= dl t ->
  analyze_loop d t top es s m acc = Ok (s', m', acc') -> cinv top s m -> cinv top s' m'.
Proof.
  induction es as [|[v ro] es IH]; intros s m acc s' m' acc' Hes Htop H I; cbn [analyze_loop] in H.
  - destruct (can_backtrack s m); injection H as <- <- _; auto.
  - assert (Hes' : forall e, In e es -> In e (lists t top)) by (intros; apply Hes; simpl; auto).
    destruct (can_backtrack s m); [injection H as <- <- _; auto|].
    destruct v as [i|x]; [|eapply IH; eauto]. destruct ro as [r|]; [|eapply IH; eauto].
    destruct (t_lvl t (VBool i)) as [k|] eqn:Ek; cbn [value_of bind] in H; [|discriminate].
    destruct ((k =? top) && mem_lit _ s) eqn:Ec; [|eapply IH; eauto].
    apply andb_true_iff in Ec. destruct Ec as [Ec1 Ec2]. apply Nat.eqb_eq in Ec1. subst k. apply mem_lit_In in Ec2.
    destruct (resolve t top (getc d r) _ s m) as [[s1 m1]| |] eqn:Er; cbn [bind] in H; try discriminate.
    destruct (gi_entry _ _ _ G top (VBool i) (Some r) Htop) as [Hr _]; [apply Hes; simpl; auto|].
    eapply IH; eauto. eapply resolve_inv; eauto.
Qed.

Lemma lists_at k es : assigned_at t k = Ok es -> es = lists t k /\ k <= dl t.
Proof.
  unfold lists. intros H. rewrite H. split; auto. unfold assigned_at in H. destruct (Nat.leb_spec k (dl t)); [auto|discriminate].
Qed.

(** what a derived clause looks like *)
Definition lev_ge' := lev_ge t.
Definition drest (c : clause) (lz : Z) : Prop :=
  forall l0 rest, c = l0 :: rest -> split_clause t c \/ forall x, In x rest -> exists k, lev t x = Some k /\ (Z.of_nat k <= lz)%Z.

Lemma lev_some x c : all_false t c -> In x c -> exists k, lev t x = Some k.
Proof. intros H Hx. eapply gi_tv_lev; eauto. Qed.
Lemma sorted_head c l0 rest x k0 k : StronglySorted (lev_ge t) c -> c = l0 :: rest -> In x rest ->
  lev t l0 = Some k0 -> lev t x = Some k -> k <= k0.
Proof.
  intros S -> Hx H0 Hk. inversion S as [|? ? S1 S2]; subst. rewrite Forall_forall in S2. specialize (S2 x Hx).
  unfold lev_ge, lvl_or, lit_level, lev in *. rewrite H0, Hk in S2. lia.
Qed.

Lemma analyze_inv c c1 lz rs : all_false t c -> ment c -> analyze d t c = Ok (c1, lz, rs) ->
  NoDup c1 /\ all_false t c1 /\ ment c1 /\ StronglySorted (lev_ge t) c1 /\
  (forall c2, sub c2 c1 -> drest c2 lz).
Proof.
  intros Hf He H. unfold analyze in H. destruct (is_false (eval_clause (t_bm t) c)); cbn [assertb bind] in H; [|discriminate].
  destruct (init_loop t c [] 0) as [[s top]| |] eqn:Ei; cbn [bind] in H; try discriminate.
  apply init_loop_inv in Ei; [|constructor]. destruct Ei as (I1 & I2 & I3 & I4 & I5).
  destruct (assigned_at t top) as [es| |] eqn:Ea; cbn [bind] in H; try discriminate.
  apply lists_at in Ea. destruct Ea as [-> Ht].
  destruct (analyze_loop d t top (lists t top) s (count_level t top s) []) as [[[s1 m1] acc1]| |] eqn:El; cbn [bind] in H; try discriminate.
  destruct (finish t top s1 m1) as [[c' lv]| |] eqn:Ef; cbn [bind] in H; try discriminate. injection H as <- <- _.
  apply analyze_loop_inv in El; auto.
  2:{ split; auto. split; [intros x Hx; apply I2 in Hx; destruct Hx as [[]|Hx]; auto|].
      split; [eapply ment_incl; [|exact He]; intros x Hx; apply I2; auto|]. split; auto. apply I4. intros x k []. }
  destruct El as (J1 & J2 & J3 & J4 & J5).
  assert (HP : Permutation s1 (sort_by (finish_lt t) s1)) by apply sort_perm.
  assert (HS : StronglySorted (lev_ge t) (sort_by (finish_lt t) s1)) by apply finish_sorted.
  unfold finish in Ef. set (cc := sort_by (finish_lt t) s1) in *. clearbody cc.
  assert (Hcc : c' = cc).
  { destruct cc as [|l0 rest]; [injection Ef as <- _; auto|].
    destruct (is_false (eval_clause (t_bm t) (l0 :: rest))); cbn [assertb bind] in Ef; [|discriminate].
    destruct (2 <=? m1)%Z; [injection Ef as <- _; auto|]. destruct rest as [|l1 rest]; [injection Ef as <- _; auto|].
    destruct (lit_level t l1); cbn [value_of bind] in Ef; [injection Ef as <- _; auto|discriminate]. }
  subst c'. assert (HF : all_false t cc) by (eapply all_false_perm; eauto).
  split; [eapply Permutation_NoDup; eauto|]. split; auto.
  split; [eapply ment_incl; [|exact J3]; intros x Hx; eapply Permutation_in; eauto|]. split; auto.
  intros c2 Hsub l0 rest ->.
  assert (HS2 : StronglySorted (lev_ge t) (l0 :: rest)) by (eapply sub_sorted; eauto).
  assert (HF2 : all_false t (l0 :: rest)) by (intros x Hx; apply HF; eapply sub_in; eauto).
  destruct cc as [|y0 ys]; [inversion Hsub|].
  destruct (is_false (eval_clause (t_bm t) (y0 :: ys))); cbn [assertb bind] in Ef; [|discriminate].
  destruct (Z.leb_spec 2 m1).
  - injection Ef as <-.
    destruct rest as [|l1 rest]; [right; intros x []|].
    destruct (lev_some l0 _ HF2) as (k0 & K0); [simpl; auto|]. destruct (lev_some l1 _ HF2) as (k1 & K1); [simpl; auto|].
    destruct (Nat.eq_dec k0 k1) as [->|N]; [left; exists l0, l1, rest, k1; auto|]. right.
    assert (k1 <= k0) by (eapply (sorted_head _ l0 (l1 :: rest) l1); eauto; simpl; auto).
    assert (k0 <= top).
    { eapply J5; [|exact K0]. eapply Permutation_in; [apply Permutation_sym; exact HP|]. eapply sub_in; [exact Hsub|simpl; auto]. }
    intros x Hx. destruct (lev_some x _ HF2) as (k & K); [simpl; auto|]. exists k. split; auto.
    assert (k <= k1); [|lia]. destruct Hx as [<-|Hx]; [assert (k = k1) by congruence; lia|].
    inversion HS2 as [|? ? S1 S2]; subst. eapply (sorted_head _ l1 rest x); eauto.
  - destruct ys as [|y1 ys].
    + right. inversion Hsub as [|? ? ? S|? ? ? S]; subst; inversion S; subst. intros x [].
    + destruct (lit_level t y1) as [k1|] eqn:K1; cbn [value_of bind] in Ef; [|discriminate]. injection Ef as <-.
      right. intros x Hx. destruct (lev_some x _ HF2) as (k & K); [simpl; auto|]. exists k. split; auto.
      assert (Hin : In x (y1 :: ys)).
      { inversion Hsub as [|? ? ? S|? ? ? S]; subst; eapply sub_in; [exact S|simpl; auto|exact S|auto]. }
      apply inj_le. destruct Hin as [<-|Hin]; [unfold lev, lit_level in *; assert (k = k1) by congruence; lia|].
      inversion HS as [|? ? S1 S2]; subst. eapply (sorted_head _ y1 ys x); eauto.
Qed.

(** ** Minimisation *)
Definition rem (orig : clause) (l : lit) : Prop :=
  exists r, t_rsn t (lvar l) = Some r /\ forall x, In x (getc d r) -> x = neg l \/ In x orig.

Lemma is_redundant_inv orig cur l b : (forall x, In x cur -> In x orig) ->
  is_redundant d t cur l = Ok b -> b = true -> rem orig l.
Proof.
  intros Hs H ->. unfold is_redundant in H. destruct (is_true _); [|discriminate].
  destruct (t_rsn t (lvar l)) as [r|] eqn:Er; [|discriminate]. unfold selfsubsumes in H.
  destruct (mem_lit (neg l) (getc d r)); cbn [assertb bind] in H; [|discriminate].
  destruct (mem_lit (neg (neg l)) cur); cbn [assertb bind] in H; [|discriminate]. injection H as H.
  apply andb_true_iff in H. destruct H as [_ H]. exists r. split; auto. rewrite forallb_forall in H.
  intros x Hx. specialize (H x Hx). apply orb_true_iff in H. destruct H as [H|H]; [left; now apply lit_eqb_eq|].
  right. apply Hs. now apply mem_lit_In.
Qed.

Lemma minimize_loop_inv orig : forall rest tested kept c, orig = tested ++ rest -> sub kept tested ->
  (forall x, In x tested -> In x kept \/ rem orig x) -> minimize_loop d t orig kept rest = Ok c ->
  sub c orig /\ forall x, In x orig -> In x c \/ rem orig x.
Proof.
  induction rest as [|l rest IH]; intros tested kept c Ho Hs Hr H; cbn [minimize_loop] in H.
  - injection H as <-. rewrite app_nil_r in Ho. subst. auto.
  - destruct (is_redundant d t _ l) as [b| |] eqn:Eb; cbn [bind] in H; try discriminate.
    assert (HB : b = true -> rem orig l).
    { eapply is_redundant_inv; [|exact Eb]. intros x Hx. apply in_app_iff in Hx. destruct Hx as [Hx|Hx]; [|eapply skipn_in; eauto].
      rewrite Ho. apply in_app_iff. left. eapply sub_in; eauto. }
    eapply (IH (tested ++ [l])); [| | |exact H].
    + rewrite <- app_assoc. auto.
    + destruct b.
      * rewrite <- (app_nil_r kept). apply sub_app; auto. repeat constructor.
      * apply sub_app; auto. apply sub_refl.
    + intros x Hx. apply in_app_iff in Hx. destruct Hx as [Hx|[<-|[]]].
      * destruct (Hr x Hx); auto. left. destruct b; auto. apply in_app_iff; auto.
      * destruct b; [right; auto|left; apply in_app_iff; simpl; auto].
Qed.

Lemma rem_false orig c a : all_false t orig -> (forall x, In x orig -> In x c \/ rem orig x) -> M a ->
  (forall x, In x c -> lit_holds a x = false) -> forall x, In x orig -> lit_holds a x = false.
Proof.
  intros Hf Hr Ha Hc.
  assert (P : forall n x, Z.to_nat (mts (t_bm t) (lord x)) < n -> In x orig -> lit_holds a x = false).
  { induction n as [|n IH]; intros x Hn Hx; [lia|]. destruct (Hr x Hx) as [K|(r & K1 & K2)]; auto.
    destruct (gi_rsn _ _ _ G _ _ K1) as (k & Hk & V & R1 & R2).
    assert (Etl : tlit (tval t) (lord x) = neg x).
    { change (lord x) with (lord (neg x)). apply true_lit_of. apply eval_lit_neg_true. apply Hf; auto. }
    destruct (HD _ (getc_in _ _ V) a Ha) as (y & Y1 & Y2).
    destruct (K2 y Y1) as [->|Hy]; [rewrite lit_holds_neg in Y2; now apply negb_true_iff|].
    destruct (R2 y Y1) as [->|(A & O & _)]; [rewrite Etl, lit_holds_neg in Y2; now apply negb_true_iff|].
    rewrite (IH y) in Y2; [discriminate| |auto]. unfold older in O.
    assert (D : mdef (t_bm t) (lord y) = true) by (unfold tv, eval_lit in A; destruct (mdef (t_bm t) (lord y)); auto; discriminate).
    apply (gi_ts _ _ _ G) in D. lia. }
  intros x. apply (P (S (Z.to_nat (mts (t_bm t) (lord x))))). lia.
Qed.

Lemma holds_dec a (c : clause) : clause_holds a c \/ forall y, In y c -> lit_holds a y = false.
Proof.
  induction c as [|y c IH]; [right; easy|].
  destruct (lit_holds a y) eqn:E; [left; exists y; simpl; auto|].
  destruct IH as [(z & Z1 & Z2)|IH]; [left; exists z; simpl; auto|right]. intros z [<-|Hz]; auto.
Qed.

Lemma derived_inv c c' lz : all_false t c -> ment c -> derived d t c c' lz ->
  all_false t c' /\ ment c' /\ drest c' lz.
Proof.
  intros Hf He (c1 & rs & A & B). destruct (analyze_inv c c1 lz rs Hf He A) as (I1 & I2 & I3 & I4 & I5).
  destruct B as [[-> ->]|[N B]].
  - split; [intros x []|]. split; auto. apply I5. apply sub_refl.
  - unfold minimize in B. apply (minimize_loop_inv c1 c1 [] []) in B; [|reflexivity|apply sub_nil|intros x []].
    destruct B as [B1 B2]. split; [intros x Hx; apply I2; eapply sub_in; eauto|]. split; auto.
    intros a Ha. destruct (holds_dec a c') as [D|D]; auto. exfalso. destruct (I3 a Ha) as (x & X1 & X2).
    rewrite (rem_false c1 c' a I2 B2 Ha D x X1) in X2. discriminate.
Qed.

(** ** With reasons that contain another literal of the same level *)
Hypothesis HGS : GS d t.

Lemma SS_mid {A} (R : A -> A -> Prop) pre x post y : StronglySorted R (pre ++ x :: post) -> In y pre -> R y x.
Proof.
  induction pre as [|z pre IH]; [easy|]. simpl. intros S. inversion S as [|? ? S1 S2]; subst. intros [->|H]; auto.
  rewrite Forall_forall in S2. apply S2. apply in_app_iff. simpl. auto.
Qed.
Lemma false_mk x i : tv t x = Some false -> lord x = i -> x = mkLit i (mval (t_bm t) i).
Proof.
  intros H <-. unfold tv, eval_lit in H. destruct (mdef (t_bm t) (lord x)); [|discriminate].
  destruct x as [v b]. cbn in *. destruct b, (mval (t_bm t) v); cbn in H; congruence.
Qed.

Lemma analyze_loop_strict top : 1 <= top -> top <= dl t -> forall es pre s m acc s' m' acc',
  lists t top = pre ++ es -> analyze_loop d t top es s m acc = Ok (s', m', acc') -> cinv top s m -> (1 <= m)%Z ->
  (forall l r, In l s -> lev t l = Some top -> t_rsn t (lvar l) = Some r -> In (lvar l, Some r) es) ->
  (1 <= m')%Z /\ ((2 <= m')%Z -> forall l, In l s' -> lev t l = Some top -> t_rsn t (lvar l) = None).
Proof.
  intros Ht1 Ht2. induction es as [|[v ro] es IH]; intros pre s m acc s' m' acc' HL H I Hm HE; cbn [analyze_loop] in H.
  - assert (X : s' = s /\ m' = m) by (destruct (can_backtrack s m); injection H as <- <- _; auto). destruct X as [-> ->].
    split; auto. intros _ l L1 L2. destruct (t_rsn t (lvar l)) as [r|] eqn:E; auto. destruct (HE l r L1 L2 E).
  - destruct (can_backtrack s m) eqn:Ecb.
    { injection H as <- <- _. split; auto. unfold can_backtrack in Ecb. apply andb_true_iff in Ecb. destruct Ecb as [Ecb _].
      apply Z.eqb_eq in Ecb. lia. }
    assert (HL' : lists t top = (pre ++ [(v, ro)]) ++ es) by (rewrite <- app_assoc; auto).
    assert (Skip : (forall l r, In l s -> lev t l = Some top -> t_rsn t (lvar l) = Some r -> (lvar l, Some r) <> (v, ro)) ->
      forall l r, In l s -> lev t l = Some top -> t_rsn t (lvar l) = Some r -> In (lvar l, Some r) es).
    { intros X l r L1 L2 L3. destruct (HE l r L1 L2 L3) as [E|E]; auto. destruct (X l r L1 L2 L3). congruence. }
    destruct v as [i|x]; [|eapply IH; eauto; apply Skip; unfold lvar; congruence].
    destruct ro as [r|]; [|eapply IH; eauto; apply Skip; congruence].
    destruct (t_lvl t (VBool i)) as [k|] eqn:Ek; cbn [value_of bind] in H; [|discriminate].
    destruct ((k =? top) && mem_lit _ s) eqn:Ec.
    + apply andb_true_iff in Ec. destruct Ec as [Ec1 Ec2]. apply Nat.eqb_eq in Ec1. subst k. apply mem_lit_In in Ec2.
      destruct (resolve t top (getc d r) _ s m) as [[s1 m1]| |] eqn:Er; cbn [bind] in H; try discriminate.
      assert (Hr : t_rsn t (VBool i) = Some r).
      { eapply (gi_entry _ _ _ G top (VBool i) (Some r)); auto. rewrite HL. apply in_app_iff. simpl. auto. }
      destruct (resolve_inv top r i s m s1 m1 Hr Ek Ec2 Er I) as [I1 I2].
      destruct (gi_rsn _ _ _ G i r Hr) as (k & Hk & V & R1 & R2). assert (k = top) by congruence. subst k.
      eapply (IH (pre ++ [(VBool i, Some r)])); eauto.
      * destruct (gs_strict _ _ HGS i r top Hr Ek Ht1) as (x & X1 & X2 & X3). destruct I1 as (_ & _ & _ & -> & _).
        apply count_level_pos with (x := x); auto. apply I2. auto.
      * intros l r' L1 L2 L3. apply I2 in L1. destruct L1 as [[L1 N]|[L1 N]].
        -- destruct (HE l r' L1 L2 L3) as [E|E]; auto. exfalso. apply N. apply false_mk; [apply I; auto|].
           unfold lvar in E. congruence.
        -- destruct (R2 l L1) as [?|(F & O & _)]; [congruence|].
           pose proof (gi_listed _ _ _ G (lvar l) top L2) as IN. rewrite L3, HL in IN. apply in_app_iff in IN.
           unfold older in O. destruct IN as [IN|[IN|IN]]; auto; exfalso.
           ++ pose proof (gs_sorted _ _ HGS top) as S. rewrite HL in S. pose proof (SS_mid _ _ _ _ _ S IN) as X.
              unfold newer in X. simpl in X. lia.
           ++ unfold lvar in IN. injection IN as IN _. rewrite IN in O. lia.
    + eapply IH; eauto. apply Skip. intros l r' L1 L2 L3 E. unfold lvar in E. injection E as E _. apply andb_false_iff in Ec.
      unfold lev, lvar in L2. rewrite <- E, L2 in Ek. injection Ek as <-. rewrite Nat.eqb_refl in Ec. destruct Ec as [Ec|Ec]; [discriminate|].
      apply mem_lit_notIn in Ec. apply Ec. rewrite <- (false_mk l i); auto. apply I; auto.
Qed.

(** some literal of level [k] survives minimisation *)
Lemma rem_level orig c k : all_false t orig -> 1 <= k -> (forall x, In x orig -> In x c \/ rem orig x) ->
  forall x, In x orig -> lev t x = Some k -> exists y, In y c /\ In y orig /\ lev t y = Some k.
Proof.
  intros Hf Hk Hr.
  assert (P : forall n x, Z.to_nat (mts (t_bm t) (lord x)) < n -> In x orig -> lev t x = Some k ->
    exists y, In y c /\ In y orig /\ lev t y = Some k).
  { induction n as [|n IH]; intros x Hn Hx Hl; [lia|]. destruct (Hr x Hx) as [K|(r & K1 & K2)]; [eauto|].
    destruct (gi_rsn _ _ _ G _ _ K1) as (j & Hj & V & R1 & R2). unfold lev, lvar in Hl.
    destruct (gs_strict _ _ HGS _ _ k K1 Hl Hk) as (y & Y1 & Y2 & Y3).
    assert (Etl : tlit (tval t) (lord x) = neg x).
    { change (lord x) with (lord (neg x)). apply true_lit_of. apply eval_lit_neg_true. apply Hf; auto. }
    rewrite Etl in Y2. destruct (K2 y Y1) as [?|Hy]; [congruence|].
    destruct (R2 y Y1) as [?|(A & O & _)]; [congruence|]. apply (IH y); auto. unfold older in O.
    assert (D : mdef (t_bm t) (lord y) = true) by (unfold tv, eval_lit in A; destruct (mdef (t_bm t) (lord y)); auto; discriminate).
    apply (gi_ts _ _ _ G) in D. lia. }
  intros x. apply (P (S (Z.to_nat (mts (t_bm t) (lord x))))). lia.
Qed.

Lemma count_two k (c : list lit) : NoDup c -> (2 <= count_level t k c)%Z ->
  exists x y, In x c /\ In y c /\ x <> y /\ lev t x = Some k /\ lev t y = Some k.
Proof.
  intros N H. unfold count_level in H. pose proof (NoDup_filter (at_level t k) N) as N'.
  assert (E : forall z, In z (filter (at_level t k) c) -> In z c /\ lev t z = Some k).
  { intros z Hz. apply filter_In in Hz. destruct Hz. split; auto. now apply at_level_iff. }
  destruct (filter (at_level t k) c) as [|x [|y l]]; simpl in H; try lia.
  exists x, y. destruct (E x), (E y); simpl; auto. repeat split; auto. inversion N'; subst. simpl in *. intros ->; auto.
Qed.
Lemma count_one k (c : list lit) x y : NoDup c -> (count_level t k c < 2)%Z -> In x c -> In y c -> lev t x = Some k -> lev t y = Some k -> x = y.
Proof.
  intros N H Hx Hy Lx Ly. unfold count_level in H. pose proof (NoDup_filter (at_level t k) N) as N'.
  assert (A : In x (filter (at_level t k) c)) by (apply filter_In; split; auto; now apply at_level_iff).
  assert (B : In y (filter (at_level t k) c)) by (apply filter_In; split; auto; now apply at_level_iff).
  destruct (filter (at_level t k) c) as [|u [|w l]]; simpl in *; try lia; try easy. destruct A as [<-|[]], B as [<-|[]]. auto.
Qed.

(** the derived clause of a conflict: either several literals of the top level are left and the
    level below it is the target, or exactly one literal is above the target level and some
    literal is of the target level *)
Definition dstrict (c : clause) (lz : Z) : Prop :=
  (split_clause t c -> forall l0 rest k, c = l0 :: rest -> lev t l0 = Some k -> (lz < Z.of_nat k)%Z) /\
  (~ split_clause t c -> forall l0 rest, c = l0 :: rest -> (1 <= lz)%Z ->
     exists x, In x rest /\ x <> l0 /\ lev t x = Some (Z.to_nat lz)).

Lemma derived_strict c c' lz : all_false t c -> ment c -> derived d t c c' lz -> (0 <= lz)%Z -> dstrict c' lz.
Proof.
  intros Hf He (c1 & rs & H & B) Hz. destruct (analyze_inv c c1 lz rs Hf He H) as (A1 & A2 & A3 & A4 & _).
  unfold analyze in H. destruct (is_false (eval_clause (t_bm t) c)); cbn [assertb bind] in H; [|discriminate].
  destruct (init_loop t c [] 0) as [[s top]| |] eqn:Ei; cbn [bind] in H; try discriminate.
  apply init_loop_inv in Ei; [|constructor]. destruct Ei as (I1 & I2 & I3 & I4 & I5).
  destruct (assigned_at t top) as [es| |] eqn:Ea; cbn [bind] in H; try discriminate.
  apply lists_at in Ea. destruct Ea as [-> Ht].
  destruct (analyze_loop d t top (lists t top) s (count_level t top s) []) as [[[s1 m1] acc1]| |] eqn:El; cbn [bind] in H; try discriminate.
  destruct (finish t top s1 m1) as [[c0 lv]| |] eqn:Ef; cbn [bind] in H; try discriminate. injection H as -> -> _.
  assert (I0 : cinv top s (count_level t top s)).
  { split; auto. split; [intros x Hx; apply I2 in Hx; destruct Hx as [[]|Hx]; auto|].
    split; [eapply ment_incl; [|exact He]; intros x Hx; apply I2; auto|]. split; auto. apply I4. intros x k []. }
  assert (J := analyze_loop_inv top _ _ _ _ _ _ _ (fun e He => He) Ht El I0). destruct J as (J1 & J2 & J3 & J4 & J5).
  assert (HP : Permutation s1 c1 /\ (c1 <> [] -> if (2 <=? m1)%Z then lz = (Z.of_nat top - 1)%Z else
     match c1 with _ :: l1 :: _ => exists k, lev t l1 = Some k /\ lz = Z.of_nat k | _ => lz = 0%Z end)).
  { unfold finish in Ef. pose proof (sort_perm (finish_lt t) s1) as HP. set (cc := sort_by (finish_lt t) s1) in *. clearbody cc.
    destruct cc as [|y0 ys]; [injection Ef as <- <-; split; [auto|congruence]|].
    destruct (is_false (eval_clause (t_bm t) (y0 :: ys))); cbn [assertb bind] in Ef; [|discriminate].
    destruct (2 <=? m1)%Z; [injection Ef as <- <-; auto|]. destruct ys as [|y1 ys]; [injection Ef as <- <-; auto|].
    destruct (lit_level t y1) as [k|] eqn:E; cbn [value_of bind] in Ef; [injection Ef as <- <-; split; auto; intros _; exists k; auto|discriminate]. }
  destruct HP as [HP HLZ].
  assert (J5' : below top c1).
  { intros x k Hx. apply J5. eapply Permutation_in; [apply Permutation_sym; exact HP|auto]. }
  assert (J4' : m1 = count_level t top c1).
  { rewrite J4. unfold count_level. f_equal. clear -HP. induction HP; simpl; auto.
    - destruct (at_level t top x); simpl; auto.
    - destruct (at_level t top x), (at_level t top y); simpl; auto.
    - congruence. }
  destruct B as [[-> ->]|[N B]]; [split; discriminate|].
  unfold minimize in B. apply (minimize_loop_inv c1 c1 [] []) in B; [|reflexivity|apply sub_nil|intros x []].
  destruct B as [B1 B2]. specialize (HLZ N).
  assert (F' : all_false t c') by (intros x Hx; apply A2; eapply sub_in; eauto).
  assert (S' : StronglySorted (lev_ge t) c') by (eapply sub_sorted; eauto).
  assert (N' : NoDup c') by (eapply sub_nodup; eauto).
  destruct (Nat.eq_dec top 0) as [->|Htop].
  - (* conflict at level 0 *)
    destruct (Z.leb_spec 2 m1); [lia|]. assert (E1 : exists x, c1 = [x]).
    { destruct c1 as [|x [|y c1]]; [congruence|eauto|]. exfalso.
      assert (L0 : forall z, In z (x :: y :: c1) -> lev t z = Some 0).
      { intros z Hzz. destruct (lev_some z _ A2 Hzz) as (k & K). pose proof (J5' _ _ Hzz K). assert (k = 0) by lia. congruence. }
      assert (x = y); [|subst; inversion A1; subst; simpl in *; tauto].
      eapply (count_one 0); [exact A1|lia|simpl; auto|simpl; auto|apply L0; simpl; auto|apply L0; simpl; auto]. }
    destruct E1 as (x & ->). subst lz. split; [|intros; lia].
    intros (l0 & l1 & c2 & k & E & _). subst c'. exfalso. apply sub_length in B1. simpl in B1. lia.
  - assert (Hm0 : (1 <= count_level t top s)%Z).
    { destruct I5 as [I5|(x & X1 & X2)]; [lia|]. apply count_level_pos with (x := x); auto. apply I2. auto. }
    destruct (analyze_loop_strict top ltac:(lia) Ht (lists t top) [] s _ [] s1 m1 acc1 eq_refl El I0 Hm0) as [K1 K2].
    { intros l r L1 L2 L3. rewrite <- L3. apply (gi_listed _ _ _ G). exact L2. }
    assert (K2' : (2 <= m1)%Z -> forall l, In l c1 -> lev t l = Some top -> In l c').
    { intros Hm l L1 L2. destruct (B2 l L1) as [?|(r & R & _)]; auto. exfalso. rewrite K2 in R; [discriminate|auto| |auto].
      eapply Permutation_in; [apply Permutation_sym; exact HP|auto]. }
    assert (Sub : forall x, In x c' -> In x c1) by (intros; eapply sub_in; eauto).
    assert (Hhd : exists x, In x c' /\ lev t x = Some top).
    { assert (X : exists x, In x c1 /\ lev t x = Some top).
      { unfold count_level in J4'. destruct (filter (at_level t top) c1) as [|x xs] eqn:E; [simpl in J4'; lia|].
        assert (Ix : In x (filter (at_level t top) c1)) by (rewrite E; simpl; auto). apply filter_In in Ix. destruct Ix.
        exists x. split; auto. now apply at_level_iff. }
      destruct X as (x & X1 & X2). destruct (rem_level c1 c' top A2 ltac:(lia) B2 x X1 X2) as (y & Y1 & _ & Y2). eauto. }
    assert (L0T : forall l0 rest, c' = l0 :: rest -> lev t l0 = Some top).
    { intros l0 rest E. destruct Hhd as (x & X1 & X2). destruct (lev_some l0 c' F') as (k & Kk); [subst; simpl; auto|].
      pose proof (J5' l0 k) as Y. rewrite E in X1. destruct X1 as [<-|X1]; auto.
      pose proof (sorted_head c' l0 rest x k top S' E X1 Kk X2). assert (k <= top) by (apply Y; auto; apply Sub; subst; simpl; auto).
      assert (k = top) by lia. congruence. }
    destruct (Z.leb_spec 2 m1) as [Hm|Hm].
    + subst lz. split.
      * intros _ l0 rest k E Kk. rewrite (L0T _ _ E) in Kk. injection Kk as <-. lia.
      * intros NS l0 rest E _. exfalso. apply NS. rewrite J4' in Hm. destruct (count_two top c1 A1 Hm) as (x & y & X1 & Y1 & XY & X2 & Y2).
        rewrite <- J4' in Hm. pose proof (K2' Hm x X1 X2) as X3. pose proof (K2' Hm y Y1 Y2) as Y3.
        destruct rest as [|l1 rest]; [exfalso; subst c'; simpl in X3, Y3; apply XY; intuition congruence|].
        exists l0, l1, rest, top. split; auto. split; [exact (L0T _ _ E)|].
        assert (Z : exists z, In z (l1 :: rest) /\ lev t z = Some top).
        { rewrite E in X3, Y3. destruct X3 as [<-|X3]; [|eauto]. destruct Y3 as [<-|Y3]; [congruence|eauto]. }
        destruct Z as (z & Z1 & Z2). destruct (lev_some l1 c' F') as (k & Kk); [subst; simpl; auto|].
        assert (k <= top) by (eapply J5'; [apply Sub; subst c'; simpl; auto|exact Kk]).
        destruct Z1 as [<-|Z1]; [exact Z2|]. rewrite E in S'. inversion S' as [|? ? S1 S2]; subst.
        pose proof (sorted_head (l1 :: rest) l1 rest z k top S1 eq_refl Z1 Kk Z2). assert (k = top) by lia. subst k. exact Kk.
    + assert (Uniq : forall x, In x c' -> lev t x = Some top -> forall l0 rest, c' = l0 :: rest -> x = l0).
      { intros x X1 X2 l0 rest E. eapply (count_one top c1); [exact A1|lia|auto|apply Sub; subst; simpl; auto|auto|eauto]. }
      assert (NSP : ~ split_clause t c').
      { intros (l0 & l1 & c2 & k & E & E1 & E2). pose proof (L0T _ _ E) as X. unfold lev in X. rewrite X in E1. injection E1 as <-.
        assert (l1 = l0). { eapply (Uniq l1); [subst; simpl; auto|exact E2|exact E]. }
        rewrite E in N'. inversion N'; subst. simpl in *. tauto. }
      split; [tauto|]. intros _ l0 rest E Hlz.
      destruct c1 as [|x0 [|x1 c1]]; [congruence|lia|]. destruct HLZ as (k & Kk & ->).
      assert (L01 : x1 <> x0) by (inversion A1; subst; simpl in *; intros ->; tauto).
      assert (Hk : k <> top).
      { intros ->. apply L01. eapply (count_one top (x0 :: x1 :: c1)); [exact A1|lia|simpl; auto|simpl; auto|exact Kk|].
        destruct (lev_some x0 (x0 :: x1 :: c1) A2) as (j & Jj); [simpl; auto|].
        pose proof (sorted_head _ x0 (x1 :: c1) x1 j top A4 eq_refl (or_introl eq_refl) Jj Kk).
        assert (j <= top) by (eapply J5'; [|exact Jj]; simpl; auto). assert (j = top) by lia. congruence. }
      destruct (rem_level (x0 :: x1 :: c1) c' k A2 ltac:(lia) B2 x1) as (y & Y1 & _ & Y2); [simpl; auto|exact Kk|].
      exists y. rewrite Nat2Z.id. assert (y <> l0).
      { intros ->. rewrite (L0T _ _ E) in Y2. congruence. }
      split; [|auto]. rewrite E in Y1. destruct Y1 as [<-|Y1]; [congruence|auto].
Qed.
End A.


(** ** The main loop *)
Lemma step_put t l r k : t_step t (TPropagate (lvar l) (Some r) k (negb (lneg l), 0%Q)) =
  (t' <- trail_propagate t (lvar l) (Some r) k ;; Ok (with_bm t' (set_value (t_bm t') (lord l) (negb (lneg l))))).
Proof.
  unfold t_step, trail_propagate. replace (dl (put t (lvar l) (negb (lneg l), 0%Q))) with (dl t) by reflexivity.
  destruct (k <=? dl t); reflexivity.
Qed.
Lemma step_put_decide t l : t_step t (TDecide (lvar l) (negb (lneg l), 0%Q)) =
  Ok (let t2 := trail_decide t (lvar l) in with_bm t2 (set_value (t_bm t2) (lord l) (negb (lneg l)))).
Proof. reflexivity. Qed.

Lemma clause_perm_holds a c c' : Permutation c c' -> clause_holds a c -> clause_holds a c'.
Proof. intros P (l & A & B). exists l. split; auto. eapply Permutation_in; eauto. Qed.
Lemma all_hold_perm a (cs cs' : list clause) : Forall2 (@Permutation lit) cs cs' -> all_hold a cs -> all_hold a cs'.
Proof.
  intros F H c Hc. induction F as [|x y l l' P F IH]; [easy|]. destruct Hc as [<-|Hc].
  - eapply clause_perm_holds; eauto. apply H. simpl; auto.
  - apply IH; auto. intros z Hz. apply H. simpl; auto.
Qed.
Lemma Forall2_perm_sym (l l' : list clause) : Forall2 (@Permutation lit) l l' -> Forall2 (@Permutation lit) l' l.
Proof. induction 1; constructor; auto. now apply Permutation_sym. Qed.

Section Run.
Context {TS HS : Type}.
Variables (th : theory TS) (he : heur HS) (hash : lit -> N).
Variables (tm : TS -> (nat -> bool) -> Prop) (PI : TS -> db -> trail -> Prop) (strict : bool).
Hypothesis HP : plugin_ok strict th tm PI.
Variables (cs : list clause) (n0 : nat).
Hypothesis HR : forall c l, In c cs -> In l c -> lord l < n0.
Notation state := (solver (TS := TS) (HS := HS)).

Definition models (ts : TS) (a : nat -> bool) : Prop := tm ts a /\ all_hold a cs.
Definition entl (ts : TS) (l : lit) : Prop := forall a, models ts a -> lit_holds a l = true.

Record SI (ts0 : TS) (ts : TS) (d : db) (t : trail) : Prop := mkSI {
  si_gi : GI (entl ts) d t;
  si_pi : PI ts d t;
  si_as : Forall2 (@Permutation lit) cs (asserted d);
  si_le : forall c a, In c (learned d) -> models ts a -> clause_holds a c;
  si_num : n0 <= mnum (t_bm t);
  si_ex : (exists a, models ts0 a) -> exists a, models ts a;
  si_gs : strict = true -> GS d t }.

Lemma si_db ts0 ts d t : SI ts0 ts d t -> forall c, In c (clauses_of d) -> ment (models ts) c.
Proof.
  intros I c Hc a Ha. unfold clauses_of in Hc. apply in_app_iff in Hc. destruct Hc as [Hc|Hc].
  - eapply all_hold_perm; [apply (si_as _ _ _ _ I)| |exact Hc]. apply Ha.
  - eapply si_le; eauto.
Qed.
Lemma same_models_models ts ts' a : same_models tm ts ts' -> models ts' a <-> models ts a.
Proof. intros H. unfold models. rewrite (H a). tauto. Qed.
Lemma SI_same ts0 ts ts' d t : same_models tm ts ts' -> SI ts0 ts d t -> PI ts' d t -> SI ts0 ts' d t.
Proof.
  intros S [] P. split; auto.
  - eapply GI_ent; [|eassumption]. intros l H a Ha. apply H. now apply (same_models_models _ _ _ S).
  - intros c a Hc Ha. eapply si_le0; eauto. now apply (same_models_models _ _ _ S).
  - intros H. destruct (si_ex0 H) as (a & Ha). exists a. now apply (same_models_models _ _ _ S).
Qed.

Lemma prop_ops_mnum e d t t' : prop_ops strict d e t t' -> mnum (t_bm t) <= mnum (t_bm t').
Proof.
  induction 1 as [t|t n t' Hn H IH|t l ro k t1 t' H1 H2 H3 H4 H5 IH|t x k q t1 t' H1 H2 H3 H4 IH]; auto.
  - cbn in IH. lia.
  - apply step_prop_inv in H4. destruct H4 as (_ & _ & _ & E & _). rewrite E in IH. exact IH.
  - apply step_prop_inv in H3. destruct H3 as (_ & _ & _ & E & _). rewrite E in IH. exact IH.
Qed.
Lemma prop_ops_gi (e e' : lit -> Prop) d t t' : (forall l, e l -> e' l) -> prop_ops strict d e t t' -> GI e' d t -> GI e' d t'.
Proof.
  intros He. induction 1 as [t|t n t' Hn H IH|t l ro k t1 t' H1 H2 H3 H4 H5 IH|t x k q t1 t' H1 H2 H3 H4 IH]; intros G; auto.
  - apply IH. apply GI_resize; auto.
  - apply IH. eapply GI_assign; eauto. destruct ro as [r|]; [|intros E; apply He; auto].
    destruct H3 as (A & B & C & _). repeat split; auto. discriminate.
  - apply IH. eapply GI_rat; eauto.
Qed.
Lemma prop_ops_gs (e e' : lit -> Prop) d t t' : strict = true -> (forall l, e l -> e' l) -> prop_ops strict d e t t' ->
  GI e' d t -> GS d t -> GS d t'.
Proof.
  intros ST He. induction 1 as [t|t n t' Hn H IH|t l ro k t1 t' H1 H2 H3 H4 H5 IH|t x k q t1 t' H1 H2 H3 H4 IH]; intros G GSS; auto.
  - apply IH; [apply GI_resize; auto|eapply GS_resize; eauto].
  - assert (J : justified strict d e' t l ro k) by (destruct ro; [exact H3|intros E; apply He; auto]).
    apply IH.
    + eapply GI_assign; eauto. destruct ro as [r|]; [|exact J].
      destruct H3 as (A & B & C & _). repeat split; auto. discriminate.
    + eapply GS_assign; eauto. rewrite <- ST. exact J.
  - apply IH; [eapply GI_rat; eauto|eapply GS_rat; eauto].
Qed.

Lemma SI_propagate ts0 fuel ts d t ts' d' t' ccs : SI ts0 ts d t ->
  th_propagate th fuel ts d t = Ok (ts', d', t', ccs) ->
  SI ts0 ts' d' t' /\ forall c, In c ccs -> ment (models ts') c /\ all_false t' c.
Proof.
  intros I H. destruct (pk_propagate _ _ _ _ HP _ _ _ _ _ _ _ _ (si_pi _ _ _ _ I) H) as (P1 & P2 & [R1 R2] & P4 & P5).
  assert (Hm : forall a, models ts' a -> models ts a) by (intros a [A B]; split; auto).
  assert (HA : forall a, models ts' a -> all_hold a (all_clauses d)).
  { intros a Ha c Hc. eapply (si_db _ _ _ _ I); eauto. }
  split.
  - split; auto.
    + eapply prop_ops_gi; [|exact P4|].
      * intros l Hl a Ha. destruct (Hl a) as (x & [<-|[]] & X); [apply Ha|now apply HA|exact X].
      * eapply GI_perm; [exact P2|]. eapply GI_ent; [|apply (si_gi _ _ _ _ I)]. intros l Hl a Ha. apply Hl. auto.
    + destruct P2 as [P2 _]. eapply Forall2_perm_trans; [apply (si_as _ _ _ _ I)|exact P2].
    + intros c a Hc Ha. destruct P2 as [_ P2].
      eapply (all_hold_perm a (learned d)); eauto. intros c' Hc'. eapply si_le; eauto.
    + pose proof (prop_ops_mnum _ _ _ _ P4). pose proof (si_num _ _ _ _ I). lia.
    + intros E. destruct (si_ex _ _ _ _ I E) as (a & A1 & A2). destruct (R2 a A1) as (a' & B1 & B2).
      exists a'. split; auto. intros c Hc. destruct (A2 c Hc) as (l & L1 & L2). exists l. split; auto.
      unfold lit_holds in *. rewrite B2; auto. pose proof (HR c l Hc L1). pose proof (si_num _ _ _ _ I). lia.
    + intros ST. eapply (prop_ops_gs _ (entl ts')); [exact ST| |exact P4| |].
      * intros l Hl a Ha. destruct (Hl a) as (x & [<-|[]] & X); [apply Ha|now apply HA|exact X].
      * eapply GI_perm; [exact P2|]. eapply GI_ent; [|apply (si_gi _ _ _ _ I)]. intros l Hl a Ha. apply Hl. auto.
      * eapply GS_perm; [exact P2|]. now apply (si_gs _ _ _ _ I).
  - intros c Hc. destruct (P5 c Hc) as [A B]. split; auto. intros a Ha. apply A; [apply Ha|now apply HA].
Qed.

Lemma SI_decide ts0 ts d t v ts' t' : SI ts0 ts d t -> is_def t v = false ->
  in_range (mnum (t_bm t)) (mnum (t_qm t)) v = true -> th_decide th ts d t v = Ok (ts', t') -> SI ts0 ts' d t'.
Proof.
  intros I U R H.
  assert (U' : t_lvl t v = None).
  { destruct (t_lvl t v) eqn:E; auto. assert (X : is_def t v = true) by (apply (gi_def _ _ _ (si_gi _ _ _ _ I)); congruence). congruence. }
  destruct (pk_decide _ _ _ _ HP _ _ _ _ _ _ (si_pi _ _ _ _ I) U' R H) as (P1 & P2 & x & P3).
  destruct I. split; auto.
  - eapply GI_decide; eauto. eapply GI_ent; [|eassumption]. intros l Hl a Ha. apply Hl. now apply (same_models_models _ _ _ P2).
  - intros c a Hc Ha. eapply si_le0; eauto. now apply (same_models_models _ _ _ P2).
  - cbn in P3. injection P3 as <-. destruct v; exact si_num0.
  - intros H0. destruct (si_ex0 H0) as (a & Ha). exists a. now apply (same_models_models _ _ _ P2).
  - intros ST. eapply GS_decide; eauto.
Qed.

Lemma SI_learn_loop ts0 t : forall new d ts h d' ts' h', SI ts0 ts d t ->
  (forall c, In c new -> c <> [] /\ all_false t c /\ ment (models ts) c) ->
  learn_loop th he t new d ts h = Ok (d', ts', h') ->
  SI ts0 ts' d' t /\ (forall a, models ts' a <-> models ts a).
Proof.
  induction new as [|c new IH]; intros d ts h d' ts' h' I Hn H; cbn [learn_loop] in H.
  - injection H as <- <- _. split; auto. tauto.
  - destruct (th_learned th ts _ t _) as [ts1| |] eqn:El; cbn [bind] in H; try discriminate.
    destruct (Hn c (or_introl eq_refl)) as (N1 & N2 & N3).
    destruct (pk_learned _ _ _ _ HP _ _ _ _ _ (si_pi _ _ _ _ I) N1 N2 El) as [P1 P2].
    assert (I1 : SI ts0 ts1 (mkDb (asserted d) (learned d ++ [c])) t).
    { destruct I. split; auto.
      - apply GI_app. eapply GI_ent; [|eassumption]. intros l Hl a Ha. apply Hl. now apply (same_models_models _ _ _ P2).
      - intros c' a Hc Ha. apply (same_models_models _ _ _ P2) in Ha. cbn in Hc. apply in_app_iff in Hc.
        destruct Hc as [Hc|[<-|[]]]; eauto.
      - intros H0. destruct (si_ex0 H0) as (a & Ha). exists a. now apply (same_models_models _ _ _ P2).
      - intros ST. eapply GS_app; eauto. }
    pose proof (fun X => IH _ _ _ _ _ _ I1 X H) as IH'. destruct IH' as [J1 J2].
    + intros c' Hc'. destruct (Hn c' (or_intror Hc')) as (A1 & A2 & A3). repeat split; auto.
      intros a Ha. apply A3. now apply (same_models_models _ _ _ P2).
    + split; auto. intros a. rewrite J2. now apply same_models_models.
Qed.

Lemma SI_restart ts0 s s' : SI ts0 (s_th s) (s_db s) (s_trail s) -> restart th he hash s = Ok s' ->
  SI ts0 (s_th s') (s_db s') (s_trail s').
Proof.
  intros I H. unfold restart in H.
  destruct (remove_subsumed hash (s_old s) (learned (s_db s))) as [L| |] eqn:E; cbn [bind] in H; try discriminate.
  injection H as <-. cbn [s_th s_db s_trail].
  assert (SL : forall c, In c L -> In c (learned (s_db s))).
  { destruct (le_gt_dec (s_old s) (length (learned (s_db s)))) as [Hl|Hl].
    - destruct (remove_subsumed_ok hash _ _ Hl) as (L' & E' & S & _). rewrite E in E'. injection E' as <-.
      intros c Hc. eapply sub_in; eauto.
    - unfold remove_subsumed in E. destruct (Nat.leb_spec (s_old s) (length (learned (s_db s)))); [lia|discriminate]. }
  destruct (pk_restart _ _ _ _ HP _ _ _ L (si_pi _ _ _ _ I) SL) as [P1 P2].
  destruct I. split; auto.
  - eapply GI_clear. eapply GI_ent; [|eassumption]. intros l Hl a Ha. apply Hl. now apply (same_models_models _ _ _ P2).
  - intros c a Hc Ha. eapply si_le0; eauto. now apply (same_models_models _ _ _ P2).
  - intros H0. destruct (si_ex0 H0) as (a & Ha). exists a. now apply (same_models_models _ _ _ P2).
  - intros ST. eapply GS_clear. now apply si_gs0.
Qed.

Lemma trail_backtrack_tv t k t1 e d x b : GI e d t -> trail_backtrack t k = Ok t1 -> tv t x = Some b ->
  (exists j, lev t x = Some j /\ j <= k) -> tv t1 x = Some b.
Proof.
  intros G H Hx (j & J1 & J2). destruct (GI_backtrack _ _ _ _ _ G H) as (G1 & _ & _ & EV & _ & _ & _ & EL & _).
  assert (L1 : lev t1 x = Some j).
  { unfold lev in *. rewrite EL, J1. destruct (Nat.leb_spec j k); [auto|lia]. }
  destruct (gi_lev_tv _ _ _ G1 _ _ L1) as (b' & B). rewrite B. unfold tv, eval_lit in *. rewrite EV in B.
  destruct (mdef (t_bm t) (lord x)); [|discriminate]. destruct (mdef (t_bm t1) (lord x)); [congruence|discriminate].
Qed.

Lemma assign_facts e d t l ro k t1 : GI e d t -> lord l < mnum (t_bm t) -> lit_level t l = None ->
  t_step t (TPropagate (lvar l) ro k (negb (lneg l), 0%Q)) = Ok t1 ->
  dl t1 = dl t /\ mnum (t_bm t1) = mnum (t_bm t) /\
  (forall x b, tv t x = Some b -> tv t1 x = Some b) /\ (forall x j, lev t x = Some j -> lev t1 x = Some j).
Proof.
  intros G R U S. destruct (step_prop_inv _ _ _ _ _ _ S) as (K & L1 & _ & B & _). unfold lvar in B, L1. cbn in B.
  assert (UD : mdef (t_bm t) (lord l) = false).
  { destruct (mdef (t_bm t) (lord l)) eqn:E; auto. apply (gi_bdef _ _ _ G) in E. elim E. exact U. }
  split; [|split; [rewrite B; reflexivity|split]].
  - destruct (gi_tr _ _ _ G) as (a & T). destruct (inv_step t a (TPropagate (lvar l) ro k (negb (lneg l), 0%Q)) T) as (t1' & E & T').
    + destruct T as [_ T]. split; [|split].
      * destruct (sh_num _ _ T) as [<- _]. cbn. now apply Nat.ltb_lt.
      * eapply gi_rec_none; eauto.
      * now rewrite <- (sh_dl _ _ T).
    + rewrite S in E. injection E as <-. destruct T as [_ T], T' as [_ T']. rewrite (sh_dl _ _ T), (sh_dl _ _ T'). reflexivity.
  - intros x b E. assert (NE : lord x <> lord l).
    { intros E'. unfold tv, eval_lit in E. rewrite E', UD in E. discriminate. }
    unfold tv, eval_lit in *. rewrite B. cbn. rewrite !upd_neq by auto. exact E.
  - intros x j E. unfold lev in *. rewrite L1. rewrite vupd_neq; auto.
    intros E'. unfold lit_level in U. unfold lvar in *. injection E' as E'. congruence.
Qed.

Definition ready (d : db) (t : trail) (r : cref) : Prop :=
  is_ref d r /\ forall l0 rest, getc d r = l0 :: rest -> lord l0 < mnum (t_bm t) /\
    (forall x, In x rest -> tv t x = Some false /\ exists j, lev t x = Some j /\ j <= dl t) /\
    (strict = true -> 1 <= dl t -> exists x, In x rest /\ x <> l0 /\ lev t x = Some (dl t)).

Lemma SI_propagate_all ts0 ts d k : forall rs t t', SI ts0 ts d t -> dl t = k ->
  (forall r, In r rs -> ready d t r) -> propagate_all d t k rs = Ok t' -> SI ts0 ts d t'.
Proof.
  induction rs as [|r rs IH]; intros t t' I Hk Hr H; cbn [propagate_all] in H.
  - injection H as <-. auto.
  - destruct (at_ (getc d r) 0) as [l| |] eqn:El; cbn [bind] in H; try discriminate.
    destruct (Hr r (or_introl eq_refl)) as [R1 R2].
    destruct (getc d r) as [|l0 rest] eqn:Ec; [discriminate|]. cbn in El. injection El as <-.
    destruct (R2 l0 rest eq_refl) as (R3 & R4 & R5).
    destruct (mdef (t_bm t) (lord l0)) eqn:Ed; cbn [bind] in H.
    + eapply IH; eauto. intros r' Hr'. apply Hr. simpl; auto.
    + rewrite <- step_put in H. destruct (t_step t _) as [t1| |] eqn:Es; cbn [bind] in H; try discriminate.
      assert (U : lit_level t l0 = None).
      { unfold lit_level, lvar. destruct (t_lvl t (VBool (lord l0))) eqn:E; auto.
        assert (X : mdef (t_bm t) (lord l0) = true) by (apply (gi_bdef _ _ _ (si_gi _ _ _ _ I)); congruence). congruence. }
      destruct (assign_facts _ _ _ _ _ _ _ (si_gi _ _ _ _ I) R3 U Es) as (F1 & F2 & F3 & F4).
      apply (IH t1 t'); auto.
      * pose proof I as []. split; auto.
        -- eapply GI_assign; [exact si_gi0|exact R3|exact U| |exact Es]. split; auto. rewrite Ec. split; [apply (once_unit (t_bm t)); [exact Ed|intros y Hy; now apply R4]|].
           split; [|discriminate]. intros x [<-|Hx]; auto. right. destruct (R4 x Hx) as [A (j & J1 & J2)]. split; auto.
           exists j. split; [exact J1|lia].
        -- eapply (pk_assert _ _ _ _ HP); eauto. rewrite Hk. exact Es.
        -- lia.
        -- intros ST. eapply GS_assign; [exact si_gi0|now apply si_gs0|exact R3|exact U| |exact Es]. split; auto. rewrite Ec. split; [apply (once_unit (t_bm t)); [exact Ed|intros y Hy; now apply R4]|].
           split.
           ++ intros x [<-|Hx]; auto. right. destruct (R4 x Hx) as [A (j & J1 & J2)]. split; auto. exists j. split; [exact J1|lia].
           ++ intros _ Hk1. destruct (R5 ST) as (x & X1 & X2 & X3); [lia|]. exists x. rewrite <- Hk. simpl. auto.
      * lia.
      * intros r' Hr'. destruct (Hr r' (or_intror Hr')) as [A B]. split; auto. intros y ys Ey. destruct (B y ys Ey) as (B1 & B2 & B3).
        split; [lia|]. split.
        -- intros x Hx. destruct (B2 x Hx) as [C (j & J1 & J2)]. split; auto. exists j. split; auto. lia.
        -- intros ST Hd. rewrite F1 in *. destruct (B3 ST Hd) as (x & X1 & X2 & X3). exists x. auto.
Qed.

Lemma pick_split_in t h k : forall c best l, pick_split he t h k best c = Ok l -> l = best \/ In l c.
Proof.
  induction c as [|x c IH]; intros best l H; cbn [pick_split] in H; [injection H as <-; auto|].
  destruct (at_level t k x); [|injection H as <-; auto].
  destruct (t_rsn t (lvar x)); cbn [assertb bind] in H; [discriminate|]. apply IH in H.
  destruct (h_is_before he h (lvar x) (lvar best)); simpl; intuition.
Qed.

(** the condition of the semantic split, proved or assumed *)
Definition split_ok (t : trail) (h : HS) (levelz : Z) (c : clause) : Prop :=
  split_clause t c -> forall l0 rest k l, c = l0 :: rest -> lit_level t l0 = Some k ->
    pick_split he t h k l0 rest = Ok l -> forall j, lev t l = Some j -> (levelz < Z.of_nat j)%Z.

Lemma SI_backtrack_with ts0 (s s' : state) rs lz : SI ts0 (s_th s) (s_db s) (s_trail s) ->
  (forall r, In r rs -> is_ref (s_db s) r /\ all_false (s_trail s) (getc (s_db s) r) /\
     drest (s_trail s) (getc (s_db s) r) lz /\
     (strict = true -> (0 <= lz)%Z -> dstrict (s_trail s) (getc (s_db s) r) lz)) ->
  (forall r, at_ rs 0 = Ok r -> (0 <= lz)%Z -> split_clause (s_trail s) (getc (s_db s) r) -> backtrack_with th he s rs lz = Ok s' ->
     split_ok (s_trail s) (h_before_backtrack he (s_he s) (s_trail s) (Z.to_nat lz)) lz (getc (s_db s) r)) ->
  backtrack_with th he s rs lz = Ok s' -> SI ts0 (s_th s') (s_db s') (s_trail s').
Proof.
  intros I Hr HSp H. pose proof H as H0. unfold backtrack_with in H. destruct (Z.ltb_spec lz 0); [discriminate|].
  destruct (at_ rs 0) as [r0| |] eqn:E0; cbn [bind] in H; try discriminate.
  assert (Hin0 : In r0 rs).
  { destruct rs as [|r rs]; [discriminate|]. cbn in E0. injection E0 as <-. simpl; auto. }
  destruct (map_res _ rs) as [bs| |] eqn:Eb; cbn [bind] in H; try discriminate.
  destruct (is_semantic_split (s_trail s) (getc (s_db s) r0)) as [sp| |] eqn:Es; cbn [bind] in H; try discriminate.
  set (k := Z.to_nat lz) in *.
  assert (HB : forall t1, trail_backtrack (s_trail s) k = Ok t1 ->
    SI ts0 (th_before_backtrack th (s_th s) (s_db s) (s_trail s) k) (s_db s) t1).
  { intros t1 Ht. destruct (pk_backtrack _ _ _ _ HP _ _ _ _ _ (si_pi _ _ _ _ I) Ht) as [P1 P2].
    destruct I. destruct (GI_backtrack _ _ _ _ _ si_gi0 Ht) as (G1 & _ & _ & _ & _ & EN & _). split; auto.
    - eapply GI_ent; [|exact G1]. intros l Hl a Ha. apply Hl. now apply (same_models_models _ _ _ P2).
    - intros c a Hc Ha. eapply si_le0; eauto. now apply (same_models_models _ _ _ P2).
    - rewrite EN. auto.
    - intros X. destruct (si_ex0 X) as (a & Ha). exists a. now apply (same_models_models _ _ _ P2).
    - intros ST. eapply GS_backtrack; [exact si_gi0|now apply si_gs0|exact Ht]. }
  destruct sp.
  - destruct (forallb _ bs); cbn [assertb bind] in H; [|discriminate].
    assert (SC : split_clause (s_trail s) (getc (s_db s) r0)) by (apply (split_spec _ _ _ Es); auto).
    specialize (HSp r0 eq_refl H1 SC H0). destruct (Hr r0 Hin0) as (R1 & R2 & R3 & _).
    destruct (getc (s_db s) r0) as [|l0 c'] eqn:Ec; [discriminate|].
    destruct (lit_level (s_trail s) l0) as [k0|] eqn:Ek; cbn [value_of bind] in H; [|discriminate].
    destruct (pick_split he (s_trail s) _ k0 l0 c') as [l| |] eqn:Ep; cbn [bind] in H; try discriminate.
    pose proof (HSp SC _ _ _ _ eq_refl Ek Ep) as Hj.
    assert (Hl : In l (l0 :: c')) by (apply pick_split_in in Ep; simpl; intuition).
    destruct (assigned_at (s_trail s) (k + 1)) as [es| |]; cbn [bind] in H; try discriminate.
    destruct (match last es (VBool 0, None) with (VRat _, _) => true | _ => false end); cbn [assertb bind] in H; [|discriminate].
    destruct (trail_backtrack (s_trail s) k) as [t1| |] eqn:Et; cbn [bind] in H; try discriminate.
    injection H as <-. cbn [s_th s_db s_trail]. pose proof (HB t1 eq_refl) as I1.
    destruct (gi_tv_lev _ _ _ (si_gi _ _ _ _ I) l false (R2 l Hl)) as (j & J). specialize (Hj j J).
    destruct (GI_backtrack _ _ _ _ _ (si_gi _ _ _ _ I) Et) as (_ & _ & _ & _ & _ & EN & _ & EL & _).
    assert (U : t_lvl t1 (lvar l) = None).
    { rewrite EL. unfold lev in J. rewrite J. destruct (Nat.leb_spec j k); [|auto]. unfold k in *. lia. }
    assert (RG : lord l < mnum (t_bm t1)).
    { rewrite EN. pose proof (gi_range _ _ _ (si_gi _ _ _ _ I) _ _ J) as X. cbn in X. now apply Nat.ltb_lt. }
    destruct I1. split; auto.
    + eapply GI_decide; [exact si_gi0| |exact U|apply step_put_decide]. cbn. now apply Nat.ltb_lt.
    + eapply (pk_split _ _ _ _ HP); eauto.
    + intros ST. eapply GS_decide; [exact si_gi0|now apply si_gs0|exact U|apply step_put_decide].
  - destruct (forallb negb bs) eqn:Ef; cbn [assertb bind] in H; [|discriminate].
    destruct (trail_backtrack (s_trail s) k) as [t1| |] eqn:Et; cbn [bind] in H; try discriminate.
    destruct (propagate_all (s_db s) t1 k rs) as [t2| |] eqn:Ep; cbn [bind] in H; try discriminate.
    injection H as <-. cbn [s_th s_db s_trail].
    destruct (GI_backtrack _ _ _ _ _ (si_gi _ _ _ _ I) Et) as (_ & ED & _ & _ & _ & EN & _ & EL & _).
    eapply SI_propagate_all; [apply HB; reflexivity|exact ED| |exact Ep].
    intros r Hin. destruct (Hr r Hin) as (R1 & R2 & R3 & R5). split; auto. intros y ys Ey. rewrite Ey in *.
    assert (NSP : ~ split_clause (s_trail s) (y :: ys)).
    { intros SC. apply map_res_in in Eb. destruct Eb as [EL1 EB].
      destruct (combine_in_l rs bs r EL1 Hin) as (b & Hb). rewrite forallb_forall in Ef.
      pose proof (EB _ _ Hb) as X1. cbv beta in X1. rewrite Ey in X1. apply split_spec in X1. apply X1 in SC. subst b.
      apply in_combine_r in Hb. specialize (Ef _ Hb). discriminate. }
    split; [|split].
    + rewrite EN. destruct (gi_tv_lev _ _ _ (si_gi _ _ _ _ I) y false) as (j & J); [apply R2; simpl; auto|].
      pose proof (gi_range _ _ _ (si_gi _ _ _ _ I) _ _ J) as X. cbn in X. now apply Nat.ltb_lt.
    + intros x Hx. destruct (R3 y ys eq_refl) as [SC|R4].
      * tauto.
      * destruct (R4 x Hx) as (j & J1 & J2). assert (j <= k) by (unfold k; lia). split.
        -- eapply trail_backtrack_tv; [apply (si_gi _ _ _ _ I)|exact Et|apply R2; simpl; auto|eauto].
        -- exists j. split; [|lia]. unfold lev in *. rewrite EL, J1. destruct (Nat.leb_spec j k); [auto|lia].
    + intros ST Hd. destruct (R5 ST H1) as [_ R6]. destruct (R6 NSP y ys eq_refl) as (x & X1 & X2 & X3); [unfold k in *; lia|].
      exists x. split; auto. split; auto. unfold lev in *. rewrite EL, X3. fold k. rewrite Nat.leb_refl, ED. auto.
Qed.

Lemma split_level e d (s s' : state) rs lz r l0 rest k l : (0 <= lz)%Z -> GI e d (s_trail s) ->
  backtrack_with th he s rs lz = Ok s' -> at_ rs 0 = Ok r -> split_clause (s_trail s) (getc (s_db s) r) ->
  getc (s_db s) r = l0 :: rest -> lit_level (s_trail s) l0 = Some k ->
  pick_split he (s_trail s) (h_before_backtrack he (s_he s) (s_trail s) (Z.to_nat lz)) k l0 rest = Ok l ->
  t_lvl (s_trail s') (lvar l) = Some (S (Z.to_nat lz)).
Proof.
  intros Hz G H E0 SC Ec Ek Ep. unfold backtrack_with in H.
  destruct (Z.ltb_spec lz 0); [discriminate|]. rewrite E0 in H. cbn [bind] in H.
  destruct (map_res _ rs) as [bs| |] eqn:Eb; cbn [bind] in H; try discriminate.
  destruct (is_semantic_split (s_trail s) (getc (s_db s) r)) as [sp| |] eqn:Es; cbn [bind] in H; try discriminate.
  apply (split_spec _ _ _ Es) in SC. subst sp.
  destruct (forallb _ bs); cbn [assertb bind] in H; [|discriminate]. rewrite Ec, Ek in H. cbn [value_of bind] in H.
  rewrite Ep in H. cbn [bind] in H.
  destruct (assigned_at (s_trail s) _) as [es| |]; cbn [bind] in H; try discriminate.
  destruct (match last es (VBool 0, None) with (VRat _, _) => true | _ => false end); cbn [assertb bind] in H; [|discriminate].
  destruct (trail_backtrack (s_trail s) (Z.to_nat lz)) as [t1| |] eqn:Et; cbn [bind] in H; try discriminate.
  injection H as <-. cbn. destruct (GI_backtrack _ _ _ _ _ G Et) as (G1 & ED & _).
  rewrite vupd_eq. rewrite (gi_dlS _ _ _ G1), ED. reflexivity.
Qed.

Definition unsplit (s : state) (ccs : list clause) : Prop :=
  forall s', on_conflict th he hash s ccs = Ok (Some s') ->
    forall i k k', t_lvl (s_trail s) (VBool i) = Some k -> t_lvl (s_trail s') (VBool i) = Some k' -> k' <= k.

Lemma SI_on_conflict ts0 (s : state) ccs o : ccs <> [] -> SI ts0 (s_th s) (s_db s) (s_trail s) ->
  (forall c, In c ccs -> ment (models (s_th s)) c /\ all_false (s_trail s) c) ->
  (forall d1 ts1 h1 rs lz s', o = Some s' -> asserted d1 = asserted (s_db s) ->
     SI ts0 ts1 d1 (s_trail s) ->
     (forall r, In r rs -> exists c, In c ccs /\ derived (s_db s) (s_trail s) c (getc d1 r) lz) ->
     backtrack_with th he (mkS d1 (s_trail s) ts1 h1 (s_old s)) rs lz = Ok s' -> (0 <= lz)%Z ->
     forall r, at_ rs 0 = Ok r -> split_clause (s_trail s) (getc d1 r) ->
     split_ok (s_trail s) (h_before_backtrack he h1 (s_trail s) (Z.to_nat lz)) lz (getc d1 r)) ->
  on_conflict th he hash s ccs = Ok o ->
  match o with None => ~ exists a, models (s_th s) a | Some s' => SI ts0 (s_th s') (s_db s') (s_trail s') end.
Proof.
  intros NE I Hc HSp H. unfold on_conflict in H.
  destruct (analyze_conflicts he (s_db s) (s_trail s) (s_he s) ccs [] None) as [[[lc level] h]| |] eqn:EA; cbn [bind] in H; try discriminate.
  apply (analyze_conflicts_ok he) in EA; [|auto]. destruct level as [lz|]; [|tauto]. destruct EA as (_ & _ & EA).
  assert (DI : forall c', In c' lc -> (exists c, In c ccs /\ derived (s_db s) (s_trail s) c c' lz) /\
     all_false (s_trail s) c' /\ ment (models (s_th s)) c' /\ drest (s_trail s) c' lz /\
     (strict = true -> (0 <= lz)%Z -> dstrict (s_trail s) c' lz)).
  { intros c' Hc'. apply EA in Hc'. destruct Hc' as [[X _]|(c & C1 & C2)]; [discriminate|]. split; [eauto|].
    destruct (Hc c C1). destruct (derived_inv (models (s_th s)) (s_db s) (s_trail s) (si_gi _ _ _ _ I) (si_db _ _ _ _ I) c c' lz) as (X1 & X2 & X3); auto.
    split; auto. split; auto. split; auto. intros ST Hz.
    apply (derived_strict (models (s_th s)) (s_db s) (s_trail s) (si_gi _ _ _ _ I) (si_db _ _ _ _ I) (si_gs _ _ _ _ I ST) c c' lz); auto. }
  destruct (existsb is_nil lc) eqn:EN.
  - injection H as <-. apply existsb_exists in EN. destruct EN as (c & C1 & C2). destruct c; [|discriminate].
    destruct (DI _ C1) as (_ & _ & X & _). intros (a & Ha). destruct (X a Ha) as (l & [] & _).
  - assert (NN : forall c, In c lc -> c <> []).
    { intros c C1 ->. assert (X : existsb is_nil lc = true) by (apply existsb_exists; exists []; auto). congruence. }
    destruct (learn th he (s_db s) (s_trail s) (s_th s) h lc) as [[[[d1 ts1] h1] rs]| |] eqn:EL; cbn [bind] in H; try discriminate.
    assert (L : SI ts0 ts1 d1 (s_trail s) /\ asserted d1 = asserted (s_db s) /\ forall r, In r rs -> is_ref d1 r /\ In (getc d1 r) lc).
    { pose proof EL as EL'. apply (learn_ok th he) in EL'. destruct EL' as (new & A1 & A2 & _ & A3 & A4).
      unfold learn in EL. destruct (drop_splits _ _) as [cs1| |] eqn:ED; cbn [bind] in EL; try discriminate.
      destruct (learn_loop th he (s_trail s) cs1 (s_db s) (s_th s) h) as [[[d2 ts2] h2]| |] eqn:ELL; cbn [bind] in EL; try discriminate.
      injection EL as -> -> -> ER.
      assert (cs1 = new).
      { destruct (learn_loop_db _ _ _ _ _ _ _ _ _ _ ELL) as [_ X]. rewrite A2 in X. now apply app_inv_head in X. }
      subst cs1. split; [|split; auto].
      - eapply SI_learn_loop; [exact I| |exact ELL]. intros c C1. apply A4 in C1. destruct C1 as [C1 _].
        destruct (DI _ C1) as (_ & X1 & X2 & _). auto.
      - rewrite A3. intros r Hr. apply in_map_iff in Hr. destruct Hr as (i & <- & Hi). apply in_seq in Hi. cbn [is_ref getc].
        rewrite A2, app_length. split; [lia|]. rewrite app_nth2 by lia.
        assert (X : In (nth (i - length (learned (s_db s))) new []) new) by (apply nth_In; lia). apply A4 in X. tauto. }
    destruct L as (L1 & L2 & L3).
    destruct (h_should_restart he h1).
    + destruct (restart th he hash (mkS d1 (s_trail s) ts1 h1 (s_old s))) as [s2| |] eqn:ER; cbn [bind] in H; try discriminate.
      injection H as <-. eapply SI_restart; [|exact ER]. exact L1.
    + cbn [value_of bind] in H.
      destruct (backtrack_with th he (mkS d1 (s_trail s) ts1 h1 (s_old s)) rs lz) as [s2| |] eqn:EB; cbn [bind] in H; try discriminate.
      injection H as <-. eapply SI_backtrack_with; [| | |exact EB]; cbn [s_th s_db s_trail].
      * exact L1.
      * intros r Hr. destruct (L3 r Hr) as [X1 X2]. destruct (DI _ X2) as (_ & Y1 & _ & Y2 & Y3). auto.
      * intros r Hr Hz SC EB'. eapply HSp; eauto. intros r' Hr'. apply DI. now apply L3.
Qed.

Lemma SI_step ts0 fuel (s s' : state) o : SI ts0 (s_th s) (s_db s) (s_trail s) ->
  (forall ts d t h v, th_propagate th fuel (s_th s) (s_db s) (s_trail s) = Ok (ts, d, t, []) ->
     h_pick he (s_he s) d t = (h, Some v) -> is_def t v = false /\ in_range (mnum (t_bm t)) (mnum (t_qm t)) v = true) ->
  (forall ts d t ccs, th_propagate th fuel (s_th s) (s_db s) (s_trail s) = Ok (ts, d, t, ccs) -> ccs <> [] ->
     (forall c, In c ccs -> ment (models ts) c /\ all_false t c) ->
     SI ts0 ts d t -> forall d1 ts1 h1 rs lz s', on_conflict th he hash (mkS d t ts (s_he s) (s_old s)) ccs = Ok (Some s') ->
     asserted d1 = asserted d -> SI ts0 ts1 d1 t ->
     (forall r, In r rs -> exists c, In c ccs /\ derived d t c (getc d1 r) lz) ->
     backtrack_with th he (mkS d1 t ts1 h1 (s_old s)) rs lz = Ok s' -> (0 <= lz)%Z ->
     forall r, at_ rs 0 = Ok r -> split_clause t (getc d1 r) ->
     split_ok t (h_before_backtrack he h1 t (Z.to_nat lz)) lz (getc d1 r)) ->
  step th he hash fuel s = Ok (s', o) ->
  match o with
  | Some Unsat => ~ exists a, models ts0 a
  | _ => SI ts0 (s_th s') (s_db s') (s_trail s')
  end.
Proof.
  intros I Hpick HSp H. unfold step in H.
  destruct (th_propagate th fuel (s_th s) (s_db s) (s_trail s)) as [[[[ts1 d1] t1] ccs]| |] eqn:EP; cbn [bind] in H; try discriminate.
  destruct (SI_propagate _ _ _ _ _ _ _ _ _ I EP) as [I1 HC].
  destruct ccs as [|c ccs].
  - cbn [s_he] in H. destruct (h_pick he (s_he s) d1 t1) as [h1 ov] eqn:Eh. destruct ov as [v|].
    + destruct (th_decide th ts1 d1 t1 v) as [[ts2 t2]| |] eqn:ED; cbn [bind] in H; try discriminate. injection H as <- <-.
      cbn [s_th s_db s_trail]. destruct (Hpick _ _ _ _ _ eq_refl Eh). eapply SI_decide; eauto.
    + injection H as <- <-. exact I1.
  - assert (NE : c :: ccs <> []) by discriminate.
    destruct (Nat.eqb_spec (dl t1) 0) as [E0|E0].
    + injection H as <- <-. intros X. destruct (si_ex _ _ _ _ I1 X) as (a & Ha).
      destruct (HC c (or_introl eq_refl)) as [C1 C2]. destruct (C1 a Ha) as (l & L1 & L2).
      destruct (gi_tv_lev _ _ _ (si_gi _ _ _ _ I1) l false (C2 l L1)) as (k & K).
      pose proof (gi_lev_le _ _ _ (si_gi _ _ _ _ I1) _ _ K) as LE. assert (k = 0) by lia. subst k.
      pose proof (zero_entailed (models ts1) d1 t1 (si_gi _ _ _ _ I1) (fun c a Hc Ha => si_db _ _ _ _ I1 c Hc a Ha) a Ha (lord l) K) as Z.
      assert (Ex : tlit (tval t1) (lord l) = neg l).
      { change (lord l) with (lord (neg l)). apply true_lit_of. apply eval_lit_neg_true. apply C2; auto. }
      rewrite Ex, lit_holds_neg, L2 in Z. discriminate.
    + destruct (on_conflict th he hash (mkS d1 t1 ts1 (s_he s) (s_old s)) (c :: ccs)) as [o1| |] eqn:EO; cbn [bind] in H; try discriminate.
      assert (R : match o1 with None => ~ exists a, models ts1 a | Some s2 => SI ts0 (s_th s2) (s_db s2) (s_trail s2) end).
      { apply (SI_on_conflict ts0 (mkS d1 t1 ts1 (s_he s) (s_old s)) (c :: ccs)); auto. cbn [s_th s_db s_trail s_he s_old].
        intros d2 ts2 h2 rs lz s2 ->. eapply HSp; eauto. }
      destruct o1 as [s2|]; injection H as <- <-; auto.
      intros X. apply R. apply (si_ex _ _ _ _ I1 X).
Qed.

Lemma unsat_partial : forall fuel (s0 s s' : state), SI (s_th s0) (s_th s) (s_db s) (s_trail s) -> reach th he hash s0 s ->
  picks_unassigned th he hash s0 -> levels_never_rise th he hash s0 ->
  run th he hash fuel s = Ok (s', Unsat) -> ~ exists a, models (s_th s0) a.
Proof.
  induction fuel as [|fuel IH]; intros s0 s s' I R HPU HLN H; [discriminate|]. cbn [run] in H.
  destruct (step th he hash (S fuel) s) as [[s1 o]| |] eqn:ES; cbn [bind] in H; try discriminate.
  assert (X := ES). apply (SI_step (s_th s0)) in X; auto.
  - destruct o as [a|].
    + injection H as <- ->. exact X.
    + eapply (IH s0 s1); eauto. econstructor; eauto.
  - intros ts d t h v E1 E2. eapply HPU; eauto.
  - intros ts d t ccs E NE HC I1 d1 ts1 h1 rs lz s2 HO HA I2 HD HB Hz r Hr SC.
    intros _ l0 rest k l Ec Ek Ep j Hj.
    pose proof (split_level _ _ (mkS d1 t ts1 h1 (s_old s)) s2 rs lz r l0 rest k l Hz (si_gi _ _ _ _ I2) HB Hr SC Ec Ek Ep) as HX.
    unfold lev, lvar in *. pose proof (HLN s (S fuel) ts d t ccs s2 R E NE HO _ _ _ Hj HX). lia.
Qed.

Lemma unsat_ok_partial fuel d0 t0 ts0 h old (s' : state) : fresh_trail t0 -> (0 <= mgts (t_bm t0))%Z -> n0 <= mnum (t_bm t0) ->
  d0 = mkDb cs [] -> PI ts0 d0 t0 ->
  picks_unassigned th he hash (mkS d0 t0 ts0 h old) -> levels_never_rise th he hash (mkS d0 t0 ts0 h old) ->
  run th he hash fuel (mkS d0 t0 ts0 h old) = Ok (s', Unsat) -> ~ exists a, tm ts0 a /\ all_hold a cs.
Proof.
  intros F FG FN -> P HPU HLN H. eapply (unsat_partial fuel (mkS (mkDb cs []) t0 ts0 h old)); eauto; [|constructor].
  cbn [s_th s_db s_trail]. split; auto.
  - now apply GI_fresh.
  - apply Forall2_perm_refl.
  - intros c a [].
  - intros _. now apply GS_fresh.
Qed.

Lemma pick_split_level t h k : forall c best l, pick_split he t h k best c = Ok l -> lev t best = Some k -> lev t l = Some k.
Proof.
  induction c as [|x c IH]; intros best l H Hb; cbn [pick_split] in H; [injection H as <-; auto|].
  destruct (at_level t k x) eqn:E; [|injection H as <-; auto]. apply at_level_iff in E.
  destruct (t_rsn t (lvar x)); cbn [assertb bind] in H; [discriminate|]. apply IH in H; auto.
  destruct (h_is_before he h (lvar x) (lvar best)); auto.
Qed.

Lemma unsat_strict : strict = true -> forall fuel (s0 s s' : state), SI (s_th s0) (s_th s) (s_db s) (s_trail s) -> reach th he hash s0 s ->
  picks_unassigned th he hash s0 ->
  run th he hash fuel s = Ok (s', Unsat) -> ~ exists a, models (s_th s0) a.
Proof.
  intros ST. induction fuel as [|fuel IH]; intros s0 s s' I R HPU H; [discriminate|]. cbn [run] in H.
  destruct (step th he hash (S fuel) s) as [[s1 o]| |] eqn:ES; cbn [bind] in H; try discriminate.
  assert (X := ES). apply (SI_step (s_th s0)) in X; auto.
  - destruct o as [a|].
    + injection H as <- ->. exact X.
    + eapply (IH s0 s1); eauto. econstructor; eauto.
  - intros ts d t h v E1 E2. eapply HPU; eauto.
  - intros ts d t ccs E NE HC I1 d1 ts1 h1 rs lz s2 HO HA I2 HD HB Hz r Hr SC.
    intros _ l0 rest k l Ec Ek Ep j Hj.
    assert (Hin : In r rs) by (destruct rs; [discriminate|]; cbn in Hr; injection Hr as ->; simpl; auto).
    destruct (HD r Hin) as (c & C1 & C2). destruct (HC c C1) as [C3 C4].
    assert (DS := derived_strict (models ts) d t (si_gi _ _ _ _ I1) (si_db _ _ _ _ I1) (si_gs _ _ _ _ I1 ST) c (getc d1 r) lz C4 C3 C2 Hz).
    assert (Lj : lev t l = Some k) by (eapply pick_split_level; eauto).
    assert (j = k) by congruence. subst j. exact (proj1 DS SC l0 rest k Ec Ek).
Qed.

Lemma unsat_ok_strict fuel d0 t0 ts0 h old (s' : state) : strict = true ->
  fresh_trail t0 -> (0 <= mgts (t_bm t0))%Z -> n0 <= mnum (t_bm t0) ->
  d0 = mkDb cs [] -> PI ts0 d0 t0 -> picks_unassigned th he hash (mkS d0 t0 ts0 h old) ->
  run th he hash fuel (mkS d0 t0 ts0 h old) = Ok (s', Unsat) -> ~ exists a, tm ts0 a /\ all_hold a cs.
Proof.
  intros ST F FG FN -> P HPU H. eapply (unsat_strict ST fuel (mkS (mkDb cs []) t0 ts0 h old)); eauto; [|constructor].
  cbn [s_th s_db s_trail]. split; auto.
  - now apply GI_fresh.
  - apply Forall2_perm_refl.
  - intros c a [].
  - intros _. now apply GS_fresh.
Qed.
End Run.
