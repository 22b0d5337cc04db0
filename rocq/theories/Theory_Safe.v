(** No assertion of the main loop fails, for every plugin that meets the level-aware contract and whose own operations are defined. *)
From Coq Require Import List Arith ZArith QArith NArith Bool Lia Permutation Sorting.Sorted.
From Verif Require Import Base Core_Model Literal_Proofs Analysis_Model Bool_Model Sat_Base Sat_Inv Sat_Trail Sat_Prop Sat_Bcp
  Sort_Proofs Subsumption_Proofs Sat_Analysis Spec_Multi Multi_Proofs
  Trail_Model Spec_Trail Trail_Proofs Solver_Model Spec_Sat Spec_Theory Theory_Inv Theory_Strict Theory_Sound Theory_Bool Comb_Bcp Theory_Level.
Import ListNotations.
Open Scope nat_scope.

(** who may be on the trail without a reason: nobody on level 0; on another level the decision, and
    any boolean variable if the decision of the level is a rational variable *)
Definition decided_by (t : trail) (k : nat) : option var :=
  match lists t k with [] => None | e :: es => Some (fst (last (e :: es) e)) end.
Definition DR (t : trail) : Prop :=
  (forall i, t_lvl t (VBool i) = Some 0 -> t_rsn t (VBool i) <> None) /\
  (forall i k, t_lvl t (VBool i) = Some (S k) -> t_rsn t (VBool i) = None ->
     decided_by t (S k) = Some (VBool i) \/ exists x, decided_by t (S k) = Some (VRat x)).

(** a reason on the trail at the current level has every other literal false *)
Definition RS (d : db) (t : trail) : Prop := forall i r, In (VBool i, Some r) (recent t) ->
  forall x, In x (getc d r) -> x = true_lit (t_bm t) i \/ tv t x = Some false.
Lemma GI_RS ent d t : GI ent d t -> RS d t.
Proof.
  intros G i r Hin x Hx. destruct (gi_tr _ _ _ G) as (a & N & A).
  rewrite recent_lists in Hin by auto. apply (sh_list _ _ A) in Hin; auto. destruct Hin as (g & E & _ & E1).
  pose proof (sh_rsn _ _ A (VBool i)) as K. rewrite E in K. cbn in K.
  assert (K' : t_rsn t (VBool i) = Some r) by (cbn in E1; congruence).
  destruct (gi_rsn _ _ _ G _ _ K') as (k & _ & _ & _ & F). destruct (F x Hx) as [->|[F1 _]]; auto.
Qed.

Lemma filter_id {A} (f : A -> bool) : forall l, (forall x, In x l -> f x = true) -> filter f l = l.
Proof. induction l as [|x l IH]; intros H; cbn; auto. rewrite (H x) by (simpl; auto). f_equal. apply IH. intros; apply H; simpl; auto. Qed.

Lemma F2_len {A B} (R : A -> B -> Prop) l l' : Forall2 R l l' -> length l = length l'.
Proof. induction 1; cbn; congruence. Qed.

Section A.
Variables (M : (nat -> bool) -> Prop) (d : db) (t : trail).
Hypothesis G : GI (fun l => forall a, M a -> lit_holds a l = true) d t.
Hypothesis HD : forall c, In c (clauses_of d) -> ment M c.
Hypothesis HGS : GS d t.
Hypothesis HDR : DR t.

Lemma init_loop_tot : forall c s top, all_false t c -> exists p, init_loop t c s top = Ok p.
Proof.
  induction c as [|l c IH]; intros s top F; cbn [init_loop]; [eauto|].
  destruct (gi_tv_lev _ _ _ G l false) as (k & K); [apply F; simpl; auto|]. change (lit_level t l) with (lev t l). rewrite K. cbn [value_of bind].
  apply IH. intros x Hx. apply F. simpl; auto.
Qed.
Lemma resolve_tot top r i s m : t_lvl t (VBool i) = Some top ->
  exists p, resolve t top (getc d r) (mkLit i (mval (t_bm t) i)) s m = Ok p.
Proof.
  intros H. unfold resolve. destruct (resolve_loop _ _ _ _ _ _) as [s1 m1].
  assert (A : at_level t top (mkLit i (mval (t_bm t) i)) = true) by (apply at_level_iff; exact H). rewrite A. cbn [assertb bind]. eauto.
Qed.
Lemma analyze_loop_tot top : top <= dl t -> forall es s m acc, (forall e, In e es -> In e (lists t top)) ->
  exists p, analyze_loop d t top es s m acc = Ok p.
Proof.
  intros Ht. induction es as [|[v ro] es IH]; intros s m acc Hes; cbn [analyze_loop].
  - destruct (can_backtrack s m); eauto.
  - assert (Hes' : forall e, In e es -> In e (lists t top)) by (intros; apply Hes; simpl; auto).
    destruct (can_backtrack s m); [eauto|]. destruct v as [i|x]; [|auto]. destruct ro as [r|]; [|auto].
    destruct (gi_entry _ _ _ G top (VBool i) (Some r) Ht) as [Hr (j & J & _)]; [apply Hes; simpl; auto|].
    rewrite J. cbn [value_of bind]. destruct ((j =? top) && mem_lit _ s) eqn:E; [|auto].
    apply andb_true_iff in E. destruct E as [E _]. apply Nat.eqb_eq in E. subst j.
    destruct (resolve_tot top r i s m J) as ([s1 m1] & ->). cbn [bind]. auto.
Qed.
Lemma finish_tot top s m : all_false t s -> exists p, finish t top s m = Ok p.
Proof.
  intros F. unfold finish. pose proof (sort_perm (finish_lt t) s) as HP. set (cc := sort_by (finish_lt t) s) in *. clearbody cc.
  assert (F' : all_false t cc) by (eapply all_false_perm; eauto).
  destruct cc as [|y0 ys]; [eauto|]. rewrite eval_clause_all_false by auto. cbn [assertb bind].
  destruct (2 <=? m)%Z; [eauto|]. destruct ys as [|y1 ys]; [eauto|].
  destruct (gi_tv_lev _ _ _ G y1 false) as (k & K); [apply F'; simpl; auto|]. change (lit_level t y1) with (lev t y1). rewrite K. cbn [value_of bind]. eauto.
Qed.
Lemma top_le c s top s' top' : all_false t c -> init_loop t c s top = Ok (s', top') -> top <= dl t -> NoDup s -> top' <= dl t.
Proof.
  intros F H L N. destruct (init_loop_inv t c s top s' top' H N) as (_ & _ & _ & _ & [-> |(x & X1 & X2)]); auto.
  eapply (gi_lev_le _ _ _ G); eauto.
Qed.
Lemma cinv_start c s top : all_false t c -> ment M c -> init_loop t c [] 0 = Ok (s, top) -> Theory_Sound.cinv M t top s (count_level t top s).
Proof.
  intros Hf He Ei. apply init_loop_inv in Ei; [|constructor]. destruct Ei as (I1 & I2 & I3 & I4 & I5).
  split; auto. split; [intros x Hx; apply I2 in Hx; destruct Hx as [[]|Hx]; auto|].
  split; [eapply ment_incl; [|exact He]; intros x Hx; apply I2; auto|]. split; auto. apply I4. intros x k [].
Qed.
Lemma analyze_tot c : all_false t c -> ment M c -> exists c1 lz rs, analyze d t c = Ok (c1, lz, rs).
Proof.
  intros F Hm. unfold analyze. rewrite eval_clause_all_false by auto. cbn [assertb bind].
  destruct (init_loop_tot c [] 0 F) as ([s top] & E). rewrite E. cbn [bind].
  assert (Ht : top <= dl t) by (eapply (top_le c [] 0); eauto; [lia|constructor]).
  unfold assigned_at. destruct (Nat.leb_spec top (dl t)); [|lia].
  destruct (at_ (t_levels t) (dl t - top)) as [es| |] eqn:Ea.
  - cbn [bind]. assert (EL : es = lists t top).
    { unfold lists, assigned_at. destruct (Nat.leb_spec top (dl t)); [|lia]. now rewrite Ea. }
    subst es. destruct (analyze_loop_tot top Ht (lists t top) s (count_level t top s) [] (fun e H => H)) as ([[s1 m1] acc] & El).
    rewrite El. cbn [bind]. apply (analyze_loop_inv M d t G HD top) in El; auto; [|eapply cinv_start; eauto].
    destruct (finish_tot top s1 m1) as ([c1 lz] & Ef); [apply El|]. rewrite Ef. cbn [bind]. eauto.
  - exfalso. unfold at_ in Ea. destruct (nth_error (t_levels t) (dl t - top)) eqn:En; [discriminate|].
    apply nth_error_None in En. rewrite (gi_dlS _ _ _ G) in En. lia.
  - exfalso. unfold at_ in Ea. destruct (nth_error _ _); discriminate.
Qed.

Lemma is_redundant_tot cur l : all_false t [l] -> In l cur -> exists b, is_redundant d t cur l = Ok b.
Proof.
  intros F Hl. unfold is_redundant. destruct (is_true _); [|eauto]. destruct (t_rsn t (lvar l)) as [r|] eqn:E; [|eauto].
  destruct (gi_rsn _ _ _ G _ _ E) as (k & K & V & R1 & R2). unfold selfsubsumes.
  assert (Etl : tlit (tval t) (lord l) = neg l).
  { change (lord l) with (lord (neg l)). apply true_lit_of. apply eval_lit_neg_true. apply F; simpl; auto. }
  rewrite Etl in R1. rewrite (proj2 (mem_lit_In (neg l) _) R1). cbn [assertb bind]. rewrite neg_neg.
  rewrite (proj2 (mem_lit_In l _) Hl). cbn [assertb bind]. eauto.
Qed.
Lemma minimize_loop_tot orig : all_false t orig -> forall rest tested kept, orig = tested ++ rest -> length kept <= length tested ->
  exists c, minimize_loop d t orig kept rest = Ok c.
Proof.
  intros F. induction rest as [|l rest IH]; intros tested kept E L; cbn [minimize_loop]; [eauto|].
  destruct (is_redundant_tot (kept ++ skipn (length kept) orig) l) as (b & ->).
  - intros x [<-|[]]. apply F. rewrite E. apply in_app_iff. simpl; auto.
  - apply in_app_iff. right. rewrite E. rewrite skipn_app. apply in_app_iff. right.
    replace (length kept - length tested) with 0 by lia. simpl; auto.
  - cbn [bind]. apply (IH (tested ++ [l])); [now rewrite <- app_assoc|]. rewrite app_length. cbn.
    destruct b; [lia|rewrite app_length; cbn; lia].
Qed.
Lemma minimize_tot c : all_false t c -> exists c', minimize d t c = Ok c'.
Proof. intros F. apply (minimize_loop_tot c F c [] []); auto. Qed.

(** a conflict on level 0 resolves to the empty clause *)
Lemma analyze_loop_zero : forall es pre s m acc s' m' acc',
  lists t 0 = pre ++ es -> analyze_loop d t 0 es s m acc = Ok (s', m', acc') -> Theory_Sound.cinv M t 0 s m ->
  (forall l r, In l s -> t_rsn t (lvar l) = Some r -> In (lvar l, Some r) es) -> s' = [].
Proof.
  assert (CB : forall s m, Theory_Sound.cinv M t 0 s m -> can_backtrack s m = false).
  { intros s m (I1 & I2 & I3 & I4 & I5). unfold can_backtrack. destruct (Z.eqb_spec m 1) as [E|]; auto. cbn.
    destruct (Nat.ltb_spec 1 (length s)) as [L|L]; [exfalso|destruct s as [|? [|]]; cbn in L |- *; auto; lia].
    assert (X : filter (at_level t 0) s = s).
    { apply filter_id. intros x Hx. apply at_level_iff.
      destruct (gi_tv_lev _ _ _ G x false (I2 x Hx)) as (k & K). pose proof (I5 x k Hx K). change (lev t x = Some 0). rewrite K. f_equal. lia. }
    unfold count_level in I4. rewrite X in I4. lia. }
  induction es as [|[v ro] es IH]; intros pre s m acc s' m' acc' HL H I HE; cbn [analyze_loop] in H; rewrite (CB _ _ I) in H.
  - injection H as <- _ _. destruct s as [|l s]; auto. exfalso. destruct I as (I1 & I2 & _ & _ & I5).
    destruct (gi_tv_lev _ _ _ G l false (I2 l (or_introl eq_refl))) as (k & K). pose proof (I5 l k (or_introl eq_refl) K). assert (k = 0) by lia. subst k.
    destruct (t_rsn t (lvar l)) as [r|] eqn:E; [|exact (proj1 HDR _ K E)]. exact (HE l r (or_introl eq_refl) E).
  - assert (HL' : lists t 0 = (pre ++ [(v, ro)]) ++ es) by (rewrite <- app_assoc; auto).
    assert (Skip : (forall l r, In l s -> t_rsn t (lvar l) = Some r -> (lvar l, Some r) <> (v, ro)) ->
      forall l r, In l s -> t_rsn t (lvar l) = Some r -> In (lvar l, Some r) es).
    { intros X l r L1 L3. destruct (HE l r L1 L3) as [E|E]; auto. destruct (X l r L1 L3). congruence. }
    destruct v as [i|x]; [|eapply IH; eauto; apply Skip; unfold lvar; congruence].
    destruct ro as [r|]; [|eapply IH; eauto; apply Skip; congruence].
    assert (Hin : In (VBool i, Some r) (lists t 0)) by (rewrite HL; apply in_app_iff; simpl; auto).
    destruct (gi_entry _ _ _ G 0 (VBool i) (Some r) ltac:(lia) Hin) as [Hr (j & Ek & J0)]. assert (j = 0) by lia. subst j.
    rewrite Ek in H. cbn [value_of bind] in H. rewrite Nat.eqb_refl in H. cbn [andb] in H.
    destruct (mem_lit _ s) eqn:Ec2.
    + apply mem_lit_In in Ec2. destruct (resolve t 0 (getc d r) _ s m) as [[s1 m1]| |] eqn:Er; cbn [bind] in H; try discriminate.
      destruct (resolve_inv M d t G HD 0 r i s m s1 m1 Hr Ek Ec2 Er I) as [I1 I2].
      destruct (gi_rsn _ _ _ G i r Hr) as (k & Hk & V & R1 & R2). assert (k = 0) by congruence. subst k.
      eapply (IH (pre ++ [(VBool i, Some r)])); eauto. intros l r' L1 L3. apply I2 in L1. destruct L1 as [[L1 N]|[L1 N]].
      * destruct (HE l r' L1 L3) as [E|E]; auto. exfalso. apply N. apply (false_mk t); [apply I; auto|]. unfold lvar in E. congruence.
      * destruct (R2 l L1) as [?|(F & O & j & J1 & J2)]; [congruence|]. assert (j = 0) by lia. subst j.
        pose proof (gi_listed _ _ _ G (lvar l) 0 J1) as IN. rewrite L3, HL in IN. apply in_app_iff in IN.
        unfold older in O. destruct IN as [IN|[IN|IN]]; auto; exfalso.
        -- pose proof (gs_sorted _ _ HGS 0) as S. rewrite HL in S. pose proof (SS_mid _ _ _ _ _ S IN) as X. unfold newer in X. simpl in X. lia.
        -- unfold lvar in IN. injection IN as IN _. rewrite IN in O. lia.
    + eapply IH; eauto. apply Skip. intros l r' L1 L3 E. unfold lvar in E. injection E as E _.
      apply mem_lit_notIn in Ec2. apply Ec2. rewrite <- (false_mk t l i); auto. apply I; auto.
Qed.

(** the parts of analyze() *)
Lemma analyze_parts c c1 lz rs : all_false t c -> ment M c -> analyze d t c = Ok (c1, lz, rs) ->
  exists s top s1 m1 acc, init_loop t c [] 0 = Ok (s, top) /\ top <= dl t /\ Theory_Sound.cinv M t top s (count_level t top s) /\
    analyze_loop d t top (lists t top) s (count_level t top s) [] = Ok (s1, m1, acc) /\ Theory_Sound.cinv M t top s1 m1 /\
    finish t top s1 m1 = Ok (c1, lz) /\ Permutation s1 c1.
Proof.
  intros Hf He H. pose proof (analyze_inv M d t G HD c c1 lz rs Hf He H) as AI.
  unfold analyze in H. destruct (is_false (eval_clause (t_bm t) c)); cbn [assertb bind] in H; [|discriminate].
  destruct (init_loop t c [] 0) as [[s top]| |] eqn:Ei; cbn [bind] in H; try discriminate.
  destruct (assigned_at t top) as [es| |] eqn:Ea; cbn [bind] in H; try discriminate.
  apply lists_at in Ea. destruct Ea as [-> Ht].
  destruct (analyze_loop d t top (lists t top) s (count_level t top s) []) as [[[s1 m1] acc1]| |] eqn:El; cbn [bind] in H; try discriminate.
  destruct (finish t top s1 m1) as [[c0 lv]| |] eqn:Ef; cbn [bind] in H; try discriminate. injection H as <- <- _.
  pose proof (cinv_start c s top Hf He Ei) as I0.
  exists s, top, s1, m1, acc1. split; [reflexivity|]. split; [exact Ht|]. split; [exact I0|]. split; [exact El|].
  split; [eapply (analyze_loop_inv M d t G HD top); [| |exact El|exact I0]; auto|]. split; [exact Ef|].
  unfold finish in Ef. pose proof (sort_perm (finish_lt t) s1) as HP. set (cc := sort_by (finish_lt t) s1) in *. clearbody cc.
  destruct cc as [|y0 ys]; [injection Ef as <- _; auto|].
  destruct (is_false (eval_clause (t_bm t) (y0 :: ys))); cbn [assertb bind] in Ef; [|discriminate].
  destruct (2 <=? m1)%Z; [injection Ef as <- _; auto|]. destruct ys as [|y1 ys]; [injection Ef as <- _; auto|].
  destruct (lit_level t y1) as [k|] eqn:E; cbn [value_of bind] in Ef; [injection Ef as <- _; auto|discriminate].
Qed.

Lemma derived_tot c : all_false t c -> ment M c -> exists c1 lz rs c2, analyze d t c = Ok (c1, lz, rs) /\
  (match c1 with [] => Ok [] | _ => minimize d t c1 end) = Ok c2 /\ derived d t c c2 lz.
Proof.
  intros F Hm. destruct (analyze_tot c F Hm) as (c1 & lz & rs & E). destruct (analyze_inv M d t G HD c c1 lz rs F Hm E) as (_ & F1 & _).
  destruct c1 as [|l c1].
  - exists [], lz, rs, []. split; auto. split; auto. exists [], rs. auto.
  - destruct (minimize_tot (l :: c1) F1) as (c2 & E2). exists (l :: c1), lz, rs, c2. split; auto. split; auto.
    exists (l :: c1), rs. split; auto. right. split; auto. discriminate.
Qed.

(** a derived clause with a negative level is empty *)
Lemma derived_neg c c' lz : all_false t c -> ment M c -> derived d t c c' lz -> (lz < 0)%Z -> c' = [].
Proof.
  intros Hf He (c1 & rs & H & B) Hz. destruct (analyze_parts c c1 lz rs Hf He H) as (s & top & s1 & m1 & acc & Ei & Ht & I0 & El & I1 & Ef & HP).
  destruct B as [[_ ->]|[N B]]; auto. exfalso. apply N.
  enough (s1 = []) by (subst s1; now apply Permutation_nil).
  unfold finish in Ef. pose proof (sort_perm (finish_lt t) s1) as HP1. set (cc := sort_by (finish_lt t) s1) in *. clearbody cc.
  destruct cc as [|y0 ys]; [now apply Permutation_sym, Permutation_nil in HP1|].
  destruct (is_false (eval_clause (t_bm t) (y0 :: ys))); cbn [assertb bind] in Ef; [|discriminate].
  destruct (2 <=? m1)%Z.
  - injection Ef as _ <-. assert (top = 0) by lia. subst top.
    apply (analyze_loop_zero (lists t 0) [] s _ [] s1 m1 acc eq_refl El I0). intros l r L1 L3. rewrite <- L3. apply (gi_listed _ _ _ G).
    destruct I0 as (_ & I2 & _ & _ & I5). destruct (gi_tv_lev _ _ _ G l false (I2 l L1)) as (k & K). pose proof (I5 l k L1 K). assert (k = 0) by lia. subst k. exact K.
  - destruct ys as [|y1 ys]; [injection Ef as _ <-; lia|].
    destruct (lit_level t y1) as [k|] eqn:E; cbn [value_of bind] in Ef; [injection Ef as _ <-; lia|discriminate].
Qed.

(** in a semantic split the literals of the top level have no reason, and their level is the next one *)
Lemma derived_split c c' lz : all_false t c -> ment M c -> derived d t c c' lz -> (0 <= lz)%Z -> split_clause t c' ->
  forall l j, In l c' -> lev t l = Some j -> j <= S (Z.to_nat lz) /\ (j = S (Z.to_nat lz) -> t_rsn t (lvar l) = None).
Proof.
  intros Hf He DD Hz SP l j0 Hl Ll. pose proof (derived_strict M d t G HD HGS c c' lz Hf He DD Hz) as DS. destruct DD as (c1 & rs & H & B).
  destruct (analyze_inv M d t G HD c c1 lz rs Hf He H) as (A1 & A2 & A3 & A4 & _).
  destruct (analyze_parts c c1 lz rs Hf He H) as (s & top & s1 & m1 & acc & Ei & Ht & I0 & El & I1 & Ef & HP).
  destruct B as [[_ ->]|[N B]]; [easy|].
  unfold minimize in B. apply (minimize_loop_inv d t c1 c1 [] []) in B; [|reflexivity|apply sub_nil|intros x []]. destruct B as [B1 B2].
  pose proof (sub_in _ _ l B1 Hl) as Hl1.
  destruct (Z.leb_spec 2 m1) as [Hm|Hm].
  - assert (LZ : lz = (Z.of_nat top - 1)%Z).
    { unfold finish in Ef. set (cc := sort_by (finish_lt t) s1) in *. clearbody cc. destruct cc as [|y0 ys]; [injection Ef as <- <-; congruence|].
      destruct (is_false (eval_clause (t_bm t) (y0 :: ys))); cbn [assertb bind] in Ef; [|discriminate].
      destruct (Z.leb_spec 2 m1); [injection Ef as _ <-; auto|lia]. }
    assert (Hs1 : In l s1) by (eapply Permutation_in; [apply Permutation_sym; exact HP|exact Hl1]).
    pose proof (proj2 (proj2 (proj2 (proj2 I1))) l j0 Hs1 Ll) as TLE.
    assert (T1 : top = 0 -> False).
    { intros ->. lia. }
    assert (TL : S (Z.to_nat lz) = top) by lia. rewrite TL. split; [exact TLE|]. intros ->.
    pose proof Ei as Ei'. apply init_loop_inv in Ei'; [|constructor]. destruct Ei' as (I1' & I2' & _ & _ & I5').
    assert (Hm0 : (1 <= count_level t top s)%Z).
    { destruct I5' as [I5'|(x & X1 & X2)]; [lia|]. apply count_level_pos with (x := x); auto. apply I2'. auto. }
    destruct (analyze_loop_strict M d t G HD HGS top ltac:(lia) Ht (lists t top) [] s _ [] s1 m1 acc eq_refl El I0 Hm0) as [_ K2].
    { intros l' r L1 L2 L3. rewrite <- L3. apply (gi_listed _ _ _ G). exact L2. }
    apply K2; auto.
  - exfalso. destruct SP as (l0 & l1 & c2 & k & E & K0 & K1).
    destruct DS as [DS _]. specialize (DS ltac:(exists l0, l1, c2, k; auto) l0 (l1 :: c2) k E K0).
    assert (ND : NoDup c') by (eapply sub_nodup; eauto). rewrite E in ND.
    unfold finish in Ef. set (cc := sort_by (finish_lt t) s1) in *. clearbody cc. destruct cc as [|y0 ys]; [injection Ef as <- <-; congruence|].
    destruct (is_false (eval_clause (t_bm t) (y0 :: ys))); cbn [assertb bind] in Ef; [|discriminate].
    destruct (Z.leb_spec 2 m1); [lia|].
    assert (I0' : In l0 c1) by (apply (sub_in _ _ _ B1); rewrite E; simpl; auto).
    assert (I1'' : In l1 c1) by (apply (sub_in _ _ _ B1); rewrite E; simpl; auto).
    assert (N01 : l0 <> l1) by (intros X; inversion ND as [|? ? NI _]; apply NI; rewrite X; simpl; auto).
    destruct ys as [|y1 ys].
    + injection Ef as <- <-. destruct I0' as [I0'|[]]. destruct I1'' as [I1''|[]]. congruence.
    + destruct (lit_level t y1) as [j|] eqn:Ej; cbn [value_of bind] in Ef; [|discriminate]. injection Ef as <- <-.
      assert (X : exists x, In x (y1 :: ys) /\ lev t x = Some k).
      { destruct I0' as [I0'|I0']; [|exists l0; auto]. destruct I1'' as [I1''|I1'']; [congruence|exists l1; auto]. }
      destruct X as (x & X1 & X2). inversion A4 as [|? ? S1 _]. subst. destruct X1 as [<-|X1].
      * assert (k = j) by (unfold lev in *; unfold lit_level in Ej; congruence). lia.
      * pose proof (sorted_head t (y1 :: ys) y1 ys x j k S1 eq_refl X1 Ej X2). lia.
Qed.
End A.

(** the trail operations keep the shape *)
Lemma DR_fresh t : t_levels t = [[]] -> (forall i, t_lvl t (VBool i) = None) -> DR t.
Proof. intros _ F. split; intros i; rewrite ?F; intros; congruence. Qed.
Lemma DR_clear t : (forall i, t_lvl (trail_clear t) (VBool i) = None) -> DR (trail_clear t).
Proof. intros F. split; intros i; rewrite ?F; intros; congruence. Qed.
Lemma last_any {A} (a b : A) : forall l, l <> [] -> last l a = last l b.
Proof. induction l as [|x [|y l] IH]; intros N; [congruence|reflexivity|]. apply IH. discriminate. Qed.
Lemma decided_push t t' k e : lists t' k = e :: lists t k -> decided_by t k <> None -> decided_by t' k = decided_by t k.
Proof.
  unfold decided_by. intros ->. destruct (lists t k) as [|e1 es]; [congruence|]. intros _. f_equal. f_equal.
  change (last (e :: e1 :: es) e) with (last (e1 :: es) e). apply last_any. discriminate.
Qed.
Lemma DR_decide e d t v x t' : GI e d t -> t_step t (TDecide v x) = Ok t' -> DR t -> DR t'.
Proof.
  intros G H [D1 D2]. pose proof (lists_dec _ _ _ _ (gi_ne _ _ _ G) H) as LS.
  assert (F : forall i, (VBool i = v /\ t_lvl t' (VBool i) = Some (S (dl t))) \/
    (t_lvl t' (VBool i) = t_lvl t (VBool i) /\ t_rsn t' (VBool i) = t_rsn t (VBool i))).
  { intros i. cbn in H. injection H as <-. unfold trail_decide. cbn [t_lvl t_rsn].
    assert (E1 : t_lvl (put t v x) = t_lvl t) by (destruct v; reflexivity). assert (E2 : t_rsn (put t v x) = t_rsn t) by (destruct v; reflexivity).
    rewrite E1, E2.
    destruct (var_eq_dec (VBool i) v) as [<-|N]; [left|right; rewrite !vupd_neq by congruence; auto].
    split; auto. rewrite vupd_eq. f_equal. change (t_levels (put t (VBool i) x)) with (t_levels t). pose proof (gi_dlS _ _ _ G). lia. }
  split.
  - intros i L R. destruct (F i) as [[_ E]|[E1 E2]]; [congruence|]. rewrite E1 in L. rewrite E2 in R. exact (D1 i L R).
  - intros i k L R. destruct (F i) as [[E0 E]|[E1 E2]].
    + left. rewrite E in L. injection L as <-. unfold decided_by. rewrite LS, Nat.eqb_refl. cbn. congruence.
    + rewrite E1 in L. rewrite E2 in R. assert (E : lists t' (S k) = lists t (S k)).
      { rewrite LS. pose proof (gi_lev_le _ _ _ G (VBool i) (S k) L). destruct (Nat.eqb_spec (S k) (S (dl t))); [lia|auto]. }
      unfold decided_by. rewrite E. exact (D2 i k L R).
Qed.
Lemma DR_prop t v ro k x t' : t_levels t <> [] -> t_step t (TPropagate v ro k x) = Ok t' ->
  match v with VBool _ => ro <> None \/ exists j y, k = S j /\ decided_by t (S j) = Some (VRat y) | VRat _ => True end -> DR t -> DR t'.
Proof.
  intros G H HR [D1 D2]. destruct (lists_prop _ _ _ _ _ _ G H) as [_ LS]. destruct (step_prop_inv _ _ _ _ _ _ H) as (K & L1 & L2 & _).
  assert (DB : forall j y, decided_by t j = Some y -> decided_by t' j = Some y).
  { intros j y E. rewrite <- E. specialize (LS j). destruct (_ && _).
    - eapply decided_push; [exact LS|congruence].
    - unfold decided_by. now rewrite LS. }
  split.
  - intros i L R. rewrite L1 in L. rewrite L2 in R. destruct (var_eq_dec (VBool i) v) as [<-|N].
    + rewrite vupd_eq in L. rewrite vupd_eq in R. destruct HR as [HR|(j & y & HR & _)]; [congruence|]. congruence.
    + rewrite vupd_neq in L by congruence. rewrite vupd_neq in R by congruence. exact (D1 i L R).
  - intros i j L R. rewrite L1 in L. rewrite L2 in R. destruct (var_eq_dec (VBool i) v) as [<-|N].
    + rewrite vupd_eq in L. rewrite vupd_eq in R. destruct HR as [HR|(j' & y & HR & HY)]; [congruence|]. right. exists y. apply DB. congruence.
    + rewrite vupd_neq in L by congruence. rewrite vupd_neq in R by congruence. destruct (D2 i j L R) as [E|(y & E)]; [left|right; exists y]; auto.
Qed.
Lemma DR_backtrack e d t k t' : GI e d t -> trail_backtrack t k = Ok t' -> DR t -> DR t'.
Proof.
  intros G H [D1 D2]. destruct (GI_backtrack _ _ _ _ _ G H) as (G1 & ED & _ & EV & ET & _ & _ & EL & ER & LS). split.
  - intros i L R. rewrite EL in L. rewrite ER in R.
    destruct (t_lvl t (VBool i)) as [j|] eqn:E; [|discriminate]. destruct (Nat.leb_spec j k); [|discriminate]. injection L as ->.
    exact (D1 i E R).
  - intros i j L R. rewrite EL in L. rewrite ER in R.
    destruct (t_lvl t (VBool i)) as [j'|] eqn:E; [|discriminate]. destruct (Nat.leb_spec j' k) as [X|]; [|discriminate]. injection L as ->.
    unfold decided_by. rewrite LS by auto. exact (D2 i j E R).
Qed.

(** every operation of the plugin is defined in the states of the contract *)
Record safe_ok {TS} (th : theory TS) (PE PD : TS -> db -> trail -> Prop) (PC : nat -> TS -> db -> trail -> Prop) : Prop := mkSafe {
  sk_propagate : forall fuel ts d t, PE ts d t -> (trail_empty t = false -> units_done d t) -> RS d t -> th_propagate th fuel ts d t <> UB;
  sk_shape : forall fuel ts d t ts' d' t' cs, PE ts d t -> (trail_empty t = false -> units_done d t) -> DR t ->
    th_propagate th fuel ts d t = Ok (ts', d', t', cs) -> DR t';
  sk_decide : forall ts d t v, PD ts d t -> t_lvl t v = None -> in_range (mnum (t_bm t)) (mnum (t_qm t)) v = true ->
    th_decide th ts d t v <> UB;
  sk_learned : forall k ts d t c, PC k ts d t -> c <> [] ->
    (forall l, In l c -> eval_lit (t_bm t) l = Some false) ->
    (forall l, In l (firstn 2 c) -> exists j, lev t l = Some j /\ k <= j) ->
    th_learned th ts (mkDb (asserted d) (learned d ++ [c])) t (CLearned (length (learned d))) <> UB }.

Section Run.
Context {TS HS : Type}.
Variables (th : theory TS) (he : heur HS) (hash : lit -> N).
Variables (tm : TS -> (nat -> bool) -> Prop) (PE PA PD : TS -> db -> trail -> Prop) (PC : nat -> TS -> db -> trail -> Prop).
Hypothesis HP : level_ok th tm PE PA PD PC.
Hypothesis HS' : safe_ok th PE PD PC.
Variables (cs : list clause) (n0 : nat).
Hypothesis HR : forall c l, In c cs -> In l c -> lord l < n0.
Notation state := (solver (TS := TS) (HS := HS)).
Notation SI := (@Theory_Sound.SI TS tm (fun _ _ _ => True) true cs n0).
Notation models := (@Theory_Sound.models TS tm cs).
Notation SE := (@Theory_Level.SE TS tm PE cs n0).

Lemma map_res_tot {A B} (f : A -> res B) : forall l, (forall x, In x l -> exists y, f x = Ok y) -> exists ys, map_res f l = Ok ys.
Proof.
  induction l as [|x l IH]; intros H; cbn [map_res]; [eauto|].
  destruct (H x (or_introl eq_refl)) as (y & ->). destruct IH as (ys & ->); [intros; apply H; simpl; auto|]. cbn [bind]. eauto.
Qed.
Lemma split_tot e d t c : GI e d t -> all_false t c -> exists b, is_semantic_split t c = Ok b.
Proof.
  intros G F. unfold is_semantic_split. destruct c as [|l0 [|l1 c]]; eauto.
  destruct (gi_tv_lev _ _ _ G l0 false) as (k0 & K0); [apply F; simpl; auto|]. destruct (gi_tv_lev _ _ _ G l1 false) as (k1 & K1); [apply F; simpl; auto|].
  change (lit_level t l0) with (lev t l0). change (lit_level t l1) with (lev t l1). rewrite K0, K1. cbn [value_of bind]. eauto.
Qed.

Lemma analyze_conflicts_tot ts0 ts d t : SI ts0 ts d t -> forall ccs h acc lv,
  (forall c, In c ccs -> ment (models ts) c /\ all_false t c) -> exists p, analyze_conflicts he d t h ccs acc lv = Ok p.
Proof.
  intros I. induction ccs as [|c ccs IH]; intros h acc lv H; cbn [analyze_conflicts]; [eauto|].
  destruct (H c (or_introl eq_refl)) as [H1 H2].
  destruct (derived_tot (models ts) d t (si_gi _ _ _ _ _ _ _ _ _ I) (si_db _ _ _ _ _ _ _ _ _ I) c H2 H1) as (c1 & lz & rs & c2 & E1 & E2 & _).
  rewrite E1. cbn [bind]. rewrite E2. cbn [bind]. destruct lv as [l|]; [destruct (lz <? l)%Z; [|destruct (lz =? l)%Z]|]; apply IH; intros; apply H; simpl; auto.
Qed.

Lemma learn_loop_safe k t : forall new ts0 d ts h, SI ts0 ts d t -> PC k ts d t ->
  (forall c, In c new -> c <> [] /\ all_false t c /\ ment (models ts) c /\ forall l, In l (firstn 2 c) -> exists j, lev t l = Some j /\ k <= j) ->
  learn_loop th he t new d ts h <> UB.
Proof.
  induction new as [|c new IH]; intros ts0 d ts h I P Hn; cbn [learn_loop]; [discriminate|].
  destruct (Hn c (or_introl eq_refl)) as (N1 & N2 & N3 & N4).
  pose proof (sk_learned _ _ _ _ HS' k ts d t c P N1 N2 N4) as NU.
  destruct (th_learned th ts _ t _) as [ts1| |] eqn:El; cbn [bind]; [|congruence|discriminate].
  pose proof (SC_learn_loop th he tm PE PA PD PC HP cs n0 ts0 k t [c] d ts h) as X. cbn [learn_loop] in X. rewrite El in X. cbn [bind] in X.
  specialize (X _ _ _ I P ltac:(intros c' [<-|[]]; auto) eq_refl). destruct X as (X1 & X2 & X3).
  apply (IH ts0); auto. intros c' Hc'. destruct (Hn c' (or_intror Hc')) as (A1 & A2 & A3 & A4). repeat split; auto.
  intros a Ha. apply A3. now apply X3.
Qed.

Lemma step_ne t v ro k x t1 : t_levels t <> [] -> t_step t (TPropagate v ro k x) = Ok t1 -> t_levels t1 <> [].
Proof.
  intros N E X. cbn [t_step] in E. unfold trail_propagate in E. destruct (k <=? _); [|discriminate]. injection E as <-. cbn [t_levels] in X.
  assert (F : t_levels (put t v x) = t_levels t) by (destruct v; reflexivity). rewrite F in X.
  destruct (t_levels t); [congruence|]. rewrite Nat.add_1_r in X. discriminate.
Qed.
Lemma propagate_all_tot d k : forall rs t, k <= dl t -> (forall r, In r rs -> getc d r <> []) -> t_levels t <> [] -> DR t ->
  exists t', propagate_all d t k rs = Ok t' /\ DR t'.
Proof.
  induction rs as [|r rs IH]; intros t Hk Hr N D; cbn [propagate_all]; [eauto|].
  specialize (Hr r (or_introl eq_refl)) as Hr0. destruct (getc d r) as [|l0 c]; [congruence|].
  change (at_ (l0 :: c) 0) with (Ok l0). cbn [bind].
  destruct (mdef (t_bm t) (lord l0)); cbn [bind]; [apply IH; auto; intros; apply Hr; simpl; auto|].
  rewrite <- step_put. destruct (t_step t _) as [t1| |] eqn:E.
  - cbn [bind]. destruct (lists_prop _ _ _ _ _ _ N E) as [E1 _]. apply IH; [lia|intros; apply Hr; simpl; auto| |].
    + eapply step_ne; eauto.
    + eapply DR_prop; [exact N|exact E| |exact D]. left. discriminate.
  - exfalso. cbn [t_step] in E. unfold trail_propagate in E. destruct (Nat.leb_spec k (dl (put t (lvar l0) (negb (lneg l0), 0%Q)))) as [|L]; [discriminate|].
    unfold dl in *. cbn in *. lia.
  - exfalso. cbn [t_step] in E. unfold trail_propagate in E. destruct (k <=? _); discriminate.
Qed.

Lemma restart_safe (s : state) : s_old s <= length (learned (s_db s)) -> exists s', restart th he hash s = Ok s' /\ DR (s_trail s') /\ s_old s' <= length (learned (s_db s')).
Proof.
  intros H. unfold restart. destruct (remove_subsumed_ok hash _ _ H) as (L' & E' & _). rewrite E'. cbn [bind].
  eexists. split; [reflexivity|]. cbn [s_trail s_old s_db learned]. split; [|lia]. apply DR_clear. reflexivity.
Qed.
Lemma pick_split_tot t h k : forall c best, (forall l, In l c -> lev t l = Some k -> t_rsn t (lvar l) = None) -> exists l, pick_split he t h k best c = Ok l.
Proof.
  induction c as [|l c IH]; intros best H; cbn [pick_split]; [eauto|].
  destruct (at_level t k l) eqn:E; [|eauto]. apply at_level_iff in E. rewrite (H l (or_introl eq_refl) E). cbn [assertb bind].
  apply IH. intros; apply H; simpl; auto.
Qed.
Lemma rat_decision e d t l0 l1 k : GI e d t -> DR t -> l0 <> l1 -> tv t l0 = Some false -> tv t l1 = Some false ->
  lev t l0 = Some (S k) -> lev t l1 = Some (S k) -> t_rsn t (lvar l0) = None -> t_rsn t (lvar l1) = None ->
  exists x, decided_by t (S k) = Some (VRat x).
Proof.
  intros G [_ D] N F0 F1 L0 L1 R0 R1. destruct (D _ _ L0 R0) as [E0|]; auto. destruct (D _ _ L1 R1) as [E1|]; auto.
  exfalso. apply N. rewrite E0 in E1. injection E1 as E. rewrite (false_mk t l1 (lord l0)) by auto. apply (false_mk t l0 (lord l0)); auto.
Qed.

Lemma backtrack_with_safe ts0 (s : state) rs lz : SI ts0 (s_th s) (s_db s) (s_trail s) -> DR (s_trail s) -> (0 <= lz)%Z -> rs <> [] ->
  (forall r, In r rs -> all_false (s_trail s) (getc (s_db s) r) /\ NoDup (getc (s_db s) r) /\ getc (s_db s) r <> [] /\
     (split_clause (s_trail s) (getc (s_db s) r) ->
        (forall r', In r' rs -> split_clause (s_trail s) (getc (s_db s) r')) /\
        (forall l j, In l (getc (s_db s) r) -> lev (s_trail s) l = Some j ->
           j <= S (Z.to_nat lz) /\ (j = S (Z.to_nat lz) -> t_rsn (s_trail s) (lvar l) = None))) /\
     forall l, In l (firstn 2 (getc (s_db s) r)) -> exists j, lev (s_trail s) l = Some j /\
          (if split_dec (s_trail s) (getc (s_db s) r) then S (Z.to_nat lz) else Z.to_nat lz) <= j) ->
  exists s', backtrack_with th he s rs lz = Ok s' /\ DR (s_trail s') /\ s_db s' = s_db s /\ s_old s' = s_old s.
Proof.
  intros I D Hz NE H. unfold backtrack_with. destruct (Z.ltb_spec lz 0); [lia|].
  set (k := Z.to_nat lz) in *. assert (GG := si_gi _ _ _ _ _ _ _ _ _ I).
  destruct rs as [|r0 rs]; [congruence|]. change (at_ (r0 :: rs) 0) with (Ok r0). cbn [bind].
  destruct (map_res_tot (fun r => is_semantic_split (s_trail s) (getc (s_db s) r)) (r0 :: rs)) as (bs & Eb).
  { intros r Hr. eapply split_tot; [exact GG|]. now apply H. }
  rewrite Eb. cbn [bind]. destruct (H r0 (or_introl eq_refl)) as (F0 & N0 & E0 & S0 & T0).
  destruct (split_tot _ _ _ _ GG F0) as (sp & Es). rewrite Es. cbn [bind].
  apply map_res_in in Eb. destruct Eb as [LB IB].
  assert (BV : forall b, In b bs -> exists r, In r (r0 :: rs) /\ (b = true <-> split_clause (s_trail s) (getc (s_db s) r))).
  { intros b Hb. destruct (combine_in_r (r0 :: rs) bs b LB Hb) as (r & Hr). exists r. split; [now apply in_combine_l in Hr|].
    apply split_spec. exact (IB _ _ Hr). }
  assert (LD : forall l0, In l0 (firstn 2 (getc (s_db s) r0)) -> (if split_dec (s_trail s) (getc (s_db s) r0) then S k else k) <= dl (s_trail s)).
  { intros l0 Hl. destruct (T0 l0 Hl) as (j & J1 & J2). pose proof (gi_lev_le _ _ _ GG _ _ J1). lia. }
  destruct sp.
  - assert (SC : split_clause (s_trail s) (getc (s_db s) r0)) by (apply (split_spec _ _ _ Es); auto).
    destruct (S0 SC) as [SA SB]. destruct (split_dec (s_trail s) (getc (s_db s) r0)) as [_|]; [|contradiction].
    assert (FA : forallb (fun b => b) bs = true).
    { apply forallb_forall. intros b Hb. destruct (BV b Hb) as (r & R1 & R2). apply R2. now apply SA. }
    rewrite FA. cbn [assertb bind]. destruct SC as (l0 & l1 & c2 & k0 & EC & K0 & K1). rewrite EC in *.
    destruct (T0 l0) as (j & J1 & J2); [simpl; auto|]. assert (j = k0) by (unfold lev in J1; congruence). subst j.
    destruct (SB l0 k0 (or_introl eq_refl) K0) as [X0 Y0]. assert (k0 = S k) by lia. subst k0.
    destruct (SB l1 (S k) (or_intror (or_introl eq_refl)) K1) as [_ Y1].
    unfold lit_level. rewrite K0. cbn [value_of bind].
    destruct (pick_split_tot (s_trail s) (h_before_backtrack he (s_he s) (s_trail s) k) (S k) (l1 :: c2) l0) as (l & El).
    { intros l Hl Ll. destruct (SB l (S k) (or_intror Hl) Ll) as [_ Y]. now apply Y. }
    rewrite El. cbn [bind]. pose proof (LD l0 (or_introl eq_refl)) as LD'.
    destruct (rat_decision _ _ _ l0 l1 k GG D) as (x & DX); auto.
    { inversion N0 as [|? ? NI _]. intros ->. apply NI. simpl; auto. }
    { apply F0; simpl; auto. } { apply F0; simpl; auto. }
    unfold decided_by, lists in DX. replace (k + 1) with (S k) by lia. destruct (assigned_at (s_trail s) (S k)) as [es| |]; try discriminate.
    destruct es as [|e es]; [discriminate|]. cbn [bind]. assert (DX' : fst (last (e :: es) e) = VRat x) by congruence. rewrite (last_any e (VBool 0, None)) in DX' by discriminate.
    match goal with |- context [last ?a ?b] => destruct (last a b) as [v ro] end. cbn [fst] in DX'. subst v. cbn [assertb bind].
    destruct (trail_backtrack (s_trail s) k) as [t1| |] eqn:Et.
    + cbn [bind]. eexists. split; [reflexivity|]. cbn [s_trail s_db s_old]. split; auto.
      destruct (GI_backtrack _ _ _ _ _ GG Et) as (G1 & _). eapply DR_decide; [exact G1|apply step_put_decide|].
      eapply DR_backtrack; [exact GG|exact Et|exact D].
    + exfalso. unfold trail_backtrack in Et. destruct (Nat.leb_spec k (dl (s_trail s))); [|lia]. discriminate.
    + exfalso. unfold trail_backtrack in Et. destruct (k <=? dl (s_trail s)); discriminate.
  - assert (NSC : ~ split_clause (s_trail s) (getc (s_db s) r0)) by (intros X; apply (split_spec _ _ _ Es) in X; discriminate).
    assert (FA : forallb negb bs = true).
    { apply forallb_forall. intros b Hb. destruct (BV b Hb) as (r & R1 & R2). destruct b; auto. exfalso. apply NSC.
      destruct (H r R1) as (_ & _ & _ & Sr & _). apply Sr; [now apply R2|simpl; auto]. }
    rewrite FA. cbn [assertb bind].
    assert (KD : k <= dl (s_trail s)).
    { destruct (getc (s_db s) r0) as [|l0 c]; [congruence|]. specialize (LD l0 (or_introl eq_refl)). destruct (split_dec _ _); [contradiction|lia]. }
    destruct (trail_backtrack (s_trail s) k) as [t1| |] eqn:Et.
    + cbn [bind]. destruct (GI_backtrack _ _ _ _ _ GG Et) as (G1 & ED & _).
      destruct (propagate_all_tot (s_db s) k (r0 :: rs) t1) as (t2 & Ep & D2).
      * lia.
      * intros r Hr. now apply H.
      * apply (gi_ne _ _ _ G1).
      * eapply DR_backtrack; [exact GG|exact Et|exact D].
      * rewrite Ep. cbn [bind]. eexists. split; [reflexivity|]. auto.
    + exfalso. unfold trail_backtrack in Et. destruct (Nat.leb_spec k (dl (s_trail s))); [|lia]. discriminate.
    + exfalso. unfold trail_backtrack in Et. destruct (k <=? dl (s_trail s)); discriminate.
Qed.

Lemma analyze_conflicts_ne d t : forall ccs h acc lv lc lv' h', analyze_conflicts he d t h ccs acc lv = Ok (lc, lv', h') ->
  (lv <> None -> acc <> []) -> lv <> None \/ ccs <> [] -> lc <> [].
Proof.
  induction ccs as [|c ccs IH]; intros h acc lv lc lv' h' H HA HN; cbn [analyze_conflicts] in H.
  - injection H as <- _ _. apply HA. tauto.
  - destruct (analyze d t c) as [[[c1 l1] rs]| |]; cbn [bind] in H; try discriminate.
    destruct (match c1 with [] => Ok [] | _ :: _ => minimize d t c1 end) as [c2| |]; cbn [bind] in H; try discriminate.
    destruct lv as [l|]; [destruct (l1 <? l)%Z; [|destruct (l1 =? l)%Z]|]; eapply IH in H; eauto; try (left; discriminate); try discriminate.
    intros _ X. apply app_eq_nil in X. destruct X; discriminate.
Qed.
Lemma some_not_split t : forall L, (forall c, In c L -> split_clause t c) \/ exists c, In c L /\ ~ split_clause t c.
Proof.
  induction L as [|c L IH]; [left; intros c []|]. destruct (split_dec t c) as [S|N]; [|right; exists c; simpl; auto].
  destruct IH as [IH|(c' & H1 & H2)]; [left; intros c' [<-|H]; auto|right; exists c'; simpl; auto].
Qed.

Lemma on_conflict_safe ts0 (s : state) ccs : ccs <> [] -> SI ts0 (s_th s) (s_db s) (s_trail s) -> DR (s_trail s) ->
  s_old s <= length (learned (s_db s)) ->
  PC (dl (s_trail s)) (s_th s) (s_db s) (s_trail s) ->
  (forall c, In c ccs -> ment (models (s_th s)) c /\ all_false (s_trail s) c) ->
  on_conflict th he hash s ccs <> UB /\
  forall s', on_conflict th he hash s ccs = Ok (Some s') -> DR (s_trail s') /\ s_old s' <= length (learned (s_db s')).
Proof.
  intros NE I D HO P Hc. unfold on_conflict.
  destruct (analyze_conflicts_tot ts0 (s_th s) (s_db s) (s_trail s) I ccs (s_he s) [] None Hc) as ([[lc level] h] & EA). rewrite EA. cbn [bind]. pose proof EA as EA0.
  apply (analyze_conflicts_ok he) in EA; [|auto]. destruct level as [lz|]; [|tauto]. destruct EA as (_ & EX & EA).
  assert (GG := si_gi _ _ _ _ _ _ _ _ _ I). assert (GDB := si_db _ _ _ _ _ _ _ _ _ I). assert (GSS := si_gs _ _ _ _ _ _ _ _ _ I eq_refl).
  assert (DI : forall c', In c' lc -> (exists c, In c ccs /\ derived (s_db s) (s_trail s) c c' lz) /\
     all_false (s_trail s) c' /\ NoDup c' /\ ment (models (s_th s)) c' /\ ((lz < 0)%Z -> c' = []) /\
     ((0 <= lz)%Z -> (split_clause (s_trail s) c' -> forall l j, In l c' -> lev (s_trail s) l = Some j ->
           j <= S (Z.to_nat lz) /\ (j = S (Z.to_nat lz) -> t_rsn (s_trail s) (lvar l) = None)) /\
        forall l, In l (firstn 2 c') -> exists j, lev (s_trail s) l = Some j /\
          (if split_dec (s_trail s) c' then S (Z.to_nat lz) else Z.to_nat lz) <= j)).
  { intros c' Hc'. apply EA in Hc'. destruct Hc' as [[X _]|(c & C1 & C2)]; [discriminate|]. split; [eauto|].
    destruct (Hc c C1). destruct (derived_inv (models (s_th s)) (s_db s) (s_trail s) GG GDB c c' lz) as (X1 & X2 & X3); auto.
    split; auto. split.
    { destruct C2 as (c1 & rs & A & B). destruct (analyze_inv (models (s_th s)) (s_db s) (s_trail s) GG GDB c c1 lz rs) as (I1 & _); auto.
      destruct B as [[-> ->]|[N B]]; [constructor|].
      unfold minimize in B. apply (minimize_loop_inv (s_db s) (s_trail s) c1 c1 [] []) in B; [|reflexivity|apply sub_nil|intros x []].
      destruct B as [B1 _]. eapply sub_nodup; eauto. }
    split; auto. split; [apply (derived_neg (models (s_th s)) (s_db s) (s_trail s) GG GDB GSS D c c' lz); auto|]. intros Hz. split.
    - intros SC. apply (derived_split (models (s_th s)) (s_db s) (s_trail s) GG GDB GSS c c' lz); auto.
    - apply (first_two (models (s_th s)) (s_db s) (s_trail s) GG GDB GSS c c' lz); auto. }
  destruct (existsb is_nil lc) eqn:EN; [split; discriminate|].
  assert (NN : forall c, In c lc -> c <> []).
  { intros c C1 ->. assert (X : existsb is_nil lc = true) by (apply existsb_exists; exists []; auto). congruence. }
  assert (NL : exists c0, In c0 lc).
  { destruct lc as [|c0 lc]; [exfalso|exists c0; simpl; auto]. eapply analyze_conflicts_ne in EA0; eauto. }
  assert (Hz : (0 <= lz)%Z).
  { destruct (Z.ltb_spec lz 0); [|auto]. destruct NL as (c0 & C0). exfalso. apply (NN c0 C0). now apply DI. }
  assert (UI : forall c, In c (unique (sort_by learn_lt lc)) -> In c lc).
  { intros c C1. apply (proj1 (unique_in _ _)) in C1. eapply Permutation_in; [apply Permutation_sym, sort_perm|exact C1]. }
  destruct (learn th he (s_db s) (s_trail s) (s_th s) h lc) as [[[[d1 ts1] h1] rs]| |] eqn:EL; cbn [bind].
  - pose proof EL as EL'. apply (learn_ok th he) in EL'. destruct EL' as (new & A1 & A2 & _ & A3 & A4).
    assert (NW : new <> []).
    { destruct (some_not_split (s_trail s) lc) as [AS|(c & C1 & C2)].
      - destruct NL as (c0 & C0). assert (In c0 new) by (apply A4; auto). intros ->. easy.
      - assert (In c new) by (apply A4; split; [auto|tauto]). intros ->. easy. }
    destruct (h_should_restart he h1).
    + destruct (restart_safe (mkS d1 (s_trail s) ts1 h1 (s_old s))) as (s2 & E2 & R1 & R2).
      { cbn. rewrite A2, app_length. lia. }
      rewrite E2. cbn [bind]. split; [discriminate|]. intros s' E. injection E as <-. auto.
    + cbn [value_of bind].
      assert (ISI : SI ts0 ts1 d1 (s_trail s)).
      { unfold learn in EL. destruct (drop_splits _ _) as [cs1| |] eqn:ED; cbn [bind] in EL; try discriminate.
        destruct (learn_loop th he (s_trail s) cs1 (s_db s) (s_th s) h) as [[[d2 ts2] h2]| |] eqn:ELL; cbn [bind] in EL; try discriminate.
        injection EL as -> -> -> _.
        eapply (SC_learn_loop th he tm PE PA PD PC HP cs n0 ts0 0) in ELL; [exact (proj1 ELL)|exact I|eapply (lk_mono _ _ _ _ _ _ HP); [|exact P]; lia|].
        apply drop_splits_ok in ED. intros c C1. apply ED in C1. destruct C1 as [C1 _]. apply UI in C1.
        destruct (DI _ C1) as (_ & X1 & _ & X2 & _). split; [auto|]. split; [auto|]. split; [auto|].
        intros l Hl. assert (Hl' : In l c) by (destruct c as [|x [|y r]]; cbn in Hl |- *; tauto).
        destruct (gi_tv_lev _ _ _ GG l false (X1 l Hl')) as (j & J). exists j. split; [auto|lia]. }
      assert (RN : forall r, In r rs -> In (getc d1 r) new).
      { rewrite A3. intros r Hr. apply in_map_iff in Hr. destruct Hr as (i & <- & Hi). apply in_seq in Hi. cbn [getc].
        rewrite A2, app_nth2 by lia. apply nth_In. lia. }
      destruct (backtrack_with_safe ts0 (mkS d1 (s_trail s) ts1 h1 (s_old s)) rs lz) as (s2 & E2 & R1 & R2 & R3); cbn [s_th s_db s_trail]; auto.
      { rewrite A3. destruct new as [|c new]; [congruence|]. cbn. discriminate. }
      { intros r Hr. specialize (RN r Hr) as Hn. destruct (proj1 (A4 _) Hn) as [C1 C2]. destruct (DI _ C1) as (_ & X1 & X2 & _ & _ & X3).
        destruct (X3 Hz) as [X4 X5]. split; [auto|]. split; [auto|]. split; [auto|]. split; [|exact X5].
        intros SC. split; [|now apply X4]. intros r' Hr'. apply C2; [auto|]. apply A4. auto. }
      rewrite E2. cbn [bind]. split; [discriminate|]. intros s' E. injection E as <-. split; auto. rewrite R3, R2. cbn. rewrite A2, app_length. lia.
  - exfalso. unfold learn in EL.
    assert (LS : exists new, drop_splits (s_trail s) (unique (sort_by learn_lt lc)) = Ok new).
    { unfold drop_splits. destruct (map_res_tot (is_semantic_split (s_trail s)) (unique (sort_by learn_lt lc))) as (bs & ->).
      - intros c C1. eapply split_tot; [exact GG|]. apply DI. auto.
      - cbn [bind]. destruct (existsb negb bs); eauto. }
    destruct LS as (new & ED). rewrite ED in EL. cbn [bind] in EL.
    pose proof (learn_loop_safe 0 (s_trail s) new ts0 (s_db s) (s_th s) h I) as NU.
    destruct (learn_loop th he (s_trail s) new (s_db s) (s_th s) h) as [[[? ?] ?]| |]; cbn [bind] in EL; try discriminate.
    apply NU; auto; [eapply (lk_mono _ _ _ _ _ _ HP); [|exact P]; lia|].
    apply drop_splits_ok in ED. intros c C1. apply ED in C1. destruct C1 as [C1 _]. apply UI in C1.
    destruct (DI _ C1) as (_ & X1 & _ & X2 & _). split; [auto|]. split; [auto|]. split; [auto|].
    intros l Hl. assert (Hl' : In l c) by (destruct c as [|x [|y r]]; cbn in Hl |- *; tauto).
    destruct (gi_tv_lev _ _ _ GG l false (X1 l Hl')) as (j & J). exists j. split; [auto|lia].
  - split; discriminate.
Qed.

Lemma step_safe ts0 fuel (s : state) : SE ts0 (s_th s) (s_db s) (s_trail s) -> DR (s_trail s) -> s_old s <= length (learned (s_db s)) ->
  (forall ts d t h v, th_propagate th fuel (s_th s) (s_db s) (s_trail s) = Ok (ts, d, t, []) ->
     h_pick he (s_he s) d t = (h, Some v) -> is_def t v = false /\ in_range (mnum (t_bm t)) (mnum (t_qm t)) v = true) ->
  step th he hash fuel s <> UB /\
  forall s', step th he hash fuel s = Ok (s', None) -> DR (s_trail s') /\ s_old s' <= length (learned (s_db s')).
Proof.
  intros I D HO Hpick. pose proof I as (_ & I2 & I3). unfold step.
  pose proof (sk_propagate _ _ _ _ HS' fuel _ _ _ I2 I3 (GI_RS _ _ _ (si_gi _ _ _ _ _ _ _ _ _ (proj1 I)))) as NU.
  destruct (th_propagate th fuel (s_th s) (s_db s) (s_trail s)) as [[[[ts1 d1] t1] ccs]| |] eqn:EP; cbn [bind]; [|congruence|split; discriminate].
  destruct (SE_propagate th tm PE PA PD PC HP cs n0 HR _ _ _ _ _ _ _ _ _ I EP) as (I1 & HD & HCC & HC).
  pose proof (sk_shape _ _ _ _ HS' _ _ _ _ _ _ _ _ I2 I3 D EP) as D1.
  assert (HO1 : s_old s <= length (learned d1)).
  { destruct (lk_propagate _ _ _ _ _ _ HP _ _ _ _ _ _ _ _ I2 I3 EP) as (_ & _ & [_ P2] & _). rewrite <- (F2_len _ _ _ P2). exact HO. }
  destruct ccs as [|c ccs].
  - destruct (HD eq_refl) as [P1 P2]. cbn [s_he]. destruct (h_pick he (s_he s) d1 t1) as [h1 ov] eqn:Eh. destruct ov as [v|]; [|split; discriminate].
    destruct (Hpick _ _ _ _ _ eq_refl Eh) as [U R].
    assert (U' : t_lvl t1 v = None).
    { destruct (t_lvl t1 v) eqn:E; auto. assert (X : is_def t1 v = true) by (apply (gi_def _ _ _ (si_gi _ _ _ _ _ _ _ _ _ I1)); congruence). congruence. }
    pose proof (sk_decide _ _ _ _ HS' _ _ _ _ P1 U' R) as ND.
    destruct (th_decide th ts1 d1 t1 v) as [[ts2 t2]| |] eqn:ED; cbn [bind]; [|congruence|split; discriminate].
    split; [discriminate|]. intros s' E. injection E as <-. cbn [s_trail s_old s_db]. split; [|auto].
    destruct (lk_decide _ _ _ _ _ _ HP _ _ _ _ _ _ P1 U' R ED) as (_ & _ & x & P3). eapply DR_decide; [apply (si_gi _ _ _ _ _ _ _ _ _ I1)|exact P3|exact D1].
  - assert (NE : c :: ccs <> []) by discriminate. destruct (HCC NE) as [P1 P2].
    destruct (Nat.eqb_spec (dl t1) 0) as [E0|E0]; [split; discriminate|].
    destruct (on_conflict_safe ts0 (mkS d1 t1 ts1 (s_he s) (s_old s)) (c :: ccs)) as [O1 O2]; auto.
    destruct (on_conflict th he hash (mkS d1 t1 ts1 (s_he s) (s_old s)) (c :: ccs)) as [[s2|]| |] eqn:EO; cbn [bind]; [|split; discriminate|congruence|split; discriminate].
    split; [discriminate|]. intros s' E. injection E as <-. auto.
Qed.

Lemma run_safe : forall fuel (s0 s : state), SE (s_th s0) (s_th s) (s_db s) (s_trail s) -> reach th he hash s0 s ->
  DR (s_trail s) -> s_old s <= length (learned (s_db s)) ->
  picks_unassigned th he hash s0 -> run th he hash fuel s <> UB.
Proof.
  induction fuel as [|fuel IH]; intros s0 s I R D HO HPU; [discriminate|]. cbn [run].
  assert (HPK : forall ts d t h v, th_propagate th (S fuel) (s_th s) (s_db s) (s_trail s) = Ok (ts, d, t, []) ->
     h_pick he (s_he s) d t = (h, Some v) -> is_def t v = false /\ in_range (mnum (t_bm t)) (mnum (t_qm t)) v = true).
  { intros ts d t h v E1 E2. eapply HPU; eauto. }
  destruct (step_safe (s_th s0) (S fuel) s I D HO HPK) as [N1 N2].
  destruct (step th he hash (S fuel) s) as [[s1 o]| |] eqn:ES; cbn [bind]; [|congruence|discriminate].
  destruct o as [a|]; [discriminate|]. destruct (N2 s1 eq_refl) as [D1 O1].
  apply (IH s0 s1); auto.
  - pose proof (SE_step th he hash tm PE PA PD PC HP cs n0 HR (s_th s0) (S fuel) s s1 None I HPK ES) as X. exact X.
  - econstructor; eauto.
Qed.
End Run.
