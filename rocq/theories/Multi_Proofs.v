(** Several conflicts at once: which clauses are learned. *)
From Coq Require Import List Arith ZArith NArith Bool Lia Permutation Sorted.
From Verif Require Import Base Core_Model Analysis_Model Solver_Model Sat_Base Sort_Proofs Spec_Multi.
Import ListNotations.
Open Scope nat_scope.

Lemma lidx_inj a b : lidx a = lidx b -> a = b.
Proof.
  destruct a as [x [|]], b as [y [|]]; unfold lidx; cbn; intros; try lia; f_equal; lia.
Qed.
Lemma lex_anti : forall a b, lex_lt a b = false -> lex_lt b a = false -> a = b.
Proof.
  induction a as [|x a IH]; intros [|y b]; cbn [lex_lt]; try discriminate; [reflexivity|].
  destruct (Nat.ltb_spec (lidx x) (lidx y)); [discriminate|].
  destruct (Nat.ltb_spec (lidx y) (lidx x)); [discriminate|].
  intros A B. f_equal; [apply lidx_inj; lia|auto].
Qed.
Lemma lex_trans : forall a b c, lex_lt b a = false -> lex_lt c b = false -> lex_lt c a = false.
Proof.
  induction a as [|x a IH]; intros b c; [destruct c; auto; intros; destruct b; discriminate|].
  destruct b as [|y b]; cbn [lex_lt]; [discriminate|]. destruct c as [|z c]; cbn [lex_lt]; [discriminate|].
  destruct (Nat.ltb_spec (lidx y) (lidx x)); [discriminate|].
  destruct (Nat.ltb_spec (lidx z) (lidx y)); [discriminate|].
  destruct (Nat.ltb_spec (lidx z) (lidx x)); [lia|].
  destruct (Nat.ltb_spec (lidx x) (lidx z)); [reflexivity|].
  destruct (Nat.ltb_spec (lidx x) (lidx y)); [lia|].
  destruct (Nat.ltb_spec (lidx y) (lidx z)); [lia|]. apply IH.
Qed.
Definition lle (a b : clause) : Prop := learn_lt b a = false.
Lemma lle_anti a b : lle a b -> lle b a -> a = b.
Proof.
  unfold lle, learn_lt. destruct (Nat.ltb_spec (length b) (length a)), (Nat.ltb_spec (length a) (length b));
    try discriminate; intros; apply lex_anti; auto.
Qed.
Lemma lle_trans a b c : lle a b -> lle b c -> lle a c.
Proof.
  unfold lle, learn_lt.
  destruct (Nat.ltb_spec (length b) (length a)), (Nat.ltb_spec (length a) (length b)),
    (Nat.ltb_spec (length c) (length b)), (Nat.ltb_spec (length b) (length c)),
    (Nat.ltb_spec (length c) (length a)), (Nat.ltb_spec (length a) (length c)); try discriminate; auto; try lia.
  apply lex_trans.
Qed.
Lemma lex_asym : forall a b, lex_lt a b = true -> lex_lt b a = false.
Proof.
  induction a as [|x a IH]; intros [|y b]; cbn [lex_lt]; try discriminate; auto.
  destruct (Nat.ltb_spec (lidx x) (lidx y)), (Nat.ltb_spec (lidx y) (lidx x)); auto; try lia; discriminate.
Qed.
Lemma learn_asym a b : learn_lt a b = true -> lle a b.
Proof.
  unfold lle, learn_lt. destruct (Nat.ltb_spec (length b) (length a)), (Nat.ltb_spec (length a) (length b));
    try lia; try discriminate; auto. apply lex_asym.
Qed.

Lemma clause_eqb_eq : forall a b, clause_eqb a b = true <-> a = b.
Proof.
  induction a as [|x a IH]; intros [|y b]; cbn [clause_eqb]; try (split; discriminate); [tauto|].
  rewrite andb_true_iff, IH, lit_eqb_eq. split; [intros [-> ->]; reflexivity|intros E; inversion E; auto].
Qed.
Lemma unique_in : forall l c, In c (unique l) <-> In c l.
Proof.
  induction l as [|a l IH]; intros c; [simpl; tauto|]. destruct l as [|b l]; [simpl; tauto|].
  change (unique (a :: b :: l)) with (if clause_eqb a b then unique (b :: l) else a :: unique (b :: l)).
  destruct (clause_eqb a b) eqn:E.
  - apply clause_eqb_eq in E. subst. rewrite IH. simpl. tauto.
  - split; intros [H|H]; simpl; auto; right; apply IH; auto.
Qed.
Lemma unique_nodup : forall l, StronglySorted lle l -> NoDup (unique l).
Proof.
  induction l as [|a l IH]; intros H; [constructor|]. inversion H as [|? ? HS HF]; subst.
  destruct l as [|b l]; [repeat constructor; simpl; tauto|].
  change (unique (a :: b :: l)) with (if clause_eqb a b then unique (b :: l) else a :: unique (b :: l)).
  destruct (clause_eqb a b) eqn:E; [auto|]. constructor; [|auto].
  rewrite unique_in. intros HI.
  assert (a = b); [|subst; rewrite (proj2 (clause_eqb_eq b b) eq_refl) in E; discriminate].
  apply lle_anti; [rewrite Forall_forall in HF; apply HF; now left|].
  destruct HI as [->|HI].
  - rewrite Forall_forall in HF. apply HF. now left.
  - inversion HS as [|? ? _ HF']; subst. rewrite Forall_forall in HF'. auto.
Qed.

Lemma split_spec t c b : is_semantic_split t c = Ok b -> (b = true <-> split_clause t c).
Proof.
  unfold is_semantic_split, split_clause, lit_level. destruct c as [|l0 [|l1 c]].
  - intros H. injection H as <-. split; [discriminate|]. intros (? & ? & ? & ? & H & _). discriminate.
  - intros H. injection H as <-. split; [discriminate|]. intros (? & ? & ? & ? & H & _). discriminate.
  - destruct (t_lvl t (lvar l0)) as [k0|] eqn:E0; cbn [value_of bind]; [|discriminate].
    destruct (t_lvl t (lvar l1)) as [k1|] eqn:E1; cbn [value_of bind]; [|discriminate].
    intros H. injection H as <-. rewrite Nat.eqb_eq. split.
    + intros ->. exists l0, l1, c, k1. auto.
    + intros (a & b & c' & k & H & A & B). inversion H; subst. congruence.
Qed.
Lemma map_res_in {A B} (f : A -> res B) : forall l bs, map_res f l = Ok bs -> length bs = length l /\
  forall a b, In (a, b) (combine l bs) -> f a = Ok b.
Proof.
  induction l as [|a l IH]; intros bs; cbn [map_res].
  - intros H. injection H as <-. simpl. tauto.
  - destruct (f a) as [b| |] eqn:E; cbn [bind]; try discriminate.
    destruct (map_res f l) as [bs'| |]; cbn [bind]; try discriminate. intros H. injection H as <-.
    destruct (IH _ eq_refl) as [L I]. split; [simpl; auto|]. intros a' b'. simpl. intros [X|X]; [congruence|auto].
Qed.
Lemma combine_in_l {A B} : forall (l : list A) (bs : list B) a, length bs = length l -> In a l -> exists b, In (a, b) (combine l bs).
Proof.
  induction l as [|x l IH]; intros [|b bs] a L H; simpl in *; try tauto; try lia.
  destruct H as [->|H]; [eauto|]. destruct (IH bs a) as (b' & Hb); [lia|auto|eauto].
Qed.
Lemma combine_in_r {A B} : forall (l : list A) (bs : list B) b, length bs = length l -> In b bs -> exists a, In (a, b) (combine l bs).
Proof.
  induction l as [|x l IH]; intros [|b0 bs] b L H; simpl in *; try tauto; try lia.
  destruct H as [->|H]; [eauto|]. destruct (IH bs b) as (a' & Ha); [lia|auto|eauto].
Qed.
Lemma nodup_sub_combine {A B} (f : A * B -> bool) : forall (l : list A) (bs : list B),
  NoDup l -> NoDup (map fst (filter f (combine l bs))).
Proof.
  induction l as [|a l IH]; intros [|b bs] H; simpl; try constructor. inversion H; subst.
  destruct (f (a, b)); simpl; auto. constructor; auto.
  rewrite in_map_iff. intros ([a' b'] & E & HI). simpl in E. subst a'. apply filter_In in HI.
  destruct HI as [HI _]. apply in_combine_l in HI. auto.
Qed.
Lemma drop_splits_ok t cs cs' : drop_splits t cs = Ok cs' ->
  (NoDup cs -> NoDup cs') /\
  forall c, In c cs' <-> In c cs /\ (split_clause t c -> forall c0, In c0 cs -> split_clause t c0).
Proof.
  unfold drop_splits. destruct (map_res (is_semantic_split t) cs) as [bs| |] eqn:E; cbn [bind]; try discriminate.
  apply map_res_in in E. destruct E as [L I].
  assert (S : forall a b, In (a, b) (combine cs bs) -> (b = true <-> split_clause t a)).
  { intros a b H. apply split_spec. auto. }
  destruct (existsb negb bs) eqn:X; intros H; injection H as <-.
  - apply existsb_exists in X. destruct X as (b & Hb & Nb). apply negb_true_iff in Nb. subst b.
    destruct (combine_in_r cs bs false L Hb) as (c0 & H0).
    assert (N0 : ~ split_clause t c0) by (intros A; apply (S _ _ H0) in A; discriminate).
    split; [apply nodup_sub_combine|]. intros c. rewrite in_map_iff. split.
    + intros ([c1 b1] & <- & HI). apply filter_In in HI. destruct HI as [HI HB]. cbn [fst snd] in *.
      apply negb_true_iff in HB. subst b1. split; [eapply in_combine_l; eauto|].
      intros A. apply (S _ _ HI) in A. discriminate.
    + intros [HI HA]. destruct (combine_in_l cs bs c L HI) as (b & Hc). exists (c, b). split; [reflexivity|].
      apply filter_In. split; [exact Hc|]. cbn [snd]. destruct b; [|reflexivity]. exfalso.
      apply N0. apply HA; [now apply (S _ _ Hc)|]. eapply in_combine_l; eauto.
  - split; [auto|]. intros c. split; [|tauto]. intros HI. split; [exact HI|]. intros _ c0 H0.
    destruct (combine_in_l cs bs c0 L H0) as (b & Hb). apply (S _ _ Hb).
    assert (Y : negb b = false).
    { destruct (negb b) eqn:Y; [|reflexivity]. rewrite <- X. symmetry. apply existsb_exists.
      exists b. split; [eapply in_combine_r; eauto|exact Y]. }
    now apply negb_false_iff.
Qed.

Section M.
Context {TS HS : Type}.
Variable th : theory TS.
Variable he : heur HS.

Lemma analyze_conflicts_ok d t : forall cs h acc lv lc lv' h',
  analyze_conflicts he d t h cs acc lv = Ok (lc, lv', h') ->
  (lv = None -> acc = []) ->
  match lv' with
  | None => lv = None /\ cs = [] /\ lc = []
  | Some l =>
      (forall l0, lv = Some l0 -> (l <= l0)%Z) /\
      (forall c c' l1, In c cs -> derived d t c c' l1 -> (l <= l1)%Z) /\
      (forall c', In c' lc <-> (lv = Some l /\ In c' acc) \/ exists c, In c cs /\ derived d t c c' l)
  end.
Proof.
  induction cs as [|c cs IH]; intros h acc lv lc lv' h'; cbn [analyze_conflicts].
  - intros H Ha. injection H as <- <- _. destruct lv as [l|]; [|auto]. split; [intros l0 E; injection E; lia|].
    split; [simpl; tauto|]. intros c'. split; [auto|]. intros [[_ H]|(c & [] & _)]. exact H.
  - destruct (analyze d t c) as [[[c1 l1] rs]| |] eqn:EA; cbn [bind]; try discriminate.
    destruct (match c1 with [] => Ok [] | _ :: _ => minimize d t c1 end) as [c2| |] eqn:EM; cbn [bind]; try discriminate.
    assert (D : derived d t c c2 l1).
    { exists c1, rs. split; [exact EA|]. destruct c1; [left; split; congruence|right; split; [discriminate|exact EM]]. }
    assert (U : forall c' l', derived d t c c' l' -> c' = c2 /\ l' = l1).
    { intros c' l' (c1' & rs' & A & B). rewrite EA in A. injection A as <- <- <-. split; [|reflexivity].
      destruct B as [[-> ->]|[N B]]; [congruence|]. destruct c1; congruence. }
    set (h1 := fold_left _ rs h). clearbody h1.
    assert (Step : forall acc1 lv1,
      (lv1 = Some l1 -> forall c', In c' acc1 <-> (lv = Some l1 /\ In c' acc) \/ c' = c2) ->
      (lv1 <> Some l1 -> acc1 = acc /\ lv1 = lv) ->
      (exists m, lv1 = Some m /\ (m <= l1)%Z /\ forall l0, lv = Some l0 -> (m <= l0)%Z) ->
      analyze_conflicts he d t h1 cs acc1 lv1 = Ok (lc, lv', h') ->
      match lv' with
      | None => lv = None /\ c :: cs = [] /\ lc = []
      | Some l =>
        (forall l0, lv = Some l0 -> (l <= l0)%Z) /\
        (forall c0 c' l2, In c0 (c :: cs) -> derived d t c0 c' l2 -> (l <= l2)%Z) /\
        (forall c', In c' lc <-> (lv = Some l /\ In c' acc) \/ exists c0, In c0 (c :: cs) /\ derived d t c0 c' l)
      end).
    { intros acc1 lv1 H1 H2 (m & -> & Hm & Hm0) H. apply IH in H; [|discriminate].
      destruct lv' as [l|]; [|destruct H; discriminate]. destruct H as (A & B & C).
      specialize (A _ eq_refl). split; [|split].
      - intros l0 E. specialize (Hm0 _ E). lia.
      - intros c0 c' l2 [<-|HI] HD; [apply U in HD; lia|eauto].
      - intros c'. rewrite C. destruct (Z.eq_dec m l1) as [->|N].
        + specialize (H1 eq_refl). split.
          * intros [[E HI]|(c0 & HI & HD)].
            -- injection E as <-. apply H1 in HI. destruct HI as [HI| ->]; [left; exact HI|].
               right. exists c. split; [now left|exact D].
            -- right. exists c0. split; [now right|exact HD].
          * intros [[E HI]|(c0 & [<-|HI] & HD)].
            -- left. specialize (Hm0 _ E). assert (l = l1) by lia. subst l. split; [reflexivity|]. apply H1. auto.
            -- apply U in HD. destruct HD as [-> ->]. left. split; [reflexivity|]. apply H1. auto.
            -- right. exists c0. auto.
        + destruct H2 as [-> E2]; [congruence|]. split.
          * intros [[E HI]|(c0 & HI & HD)]; [left; split; [congruence|exact HI]|].
            right. exists c0. split; [now right|exact HD].
          * intros [[E HI]|(c0 & [<-|HI] & HD)]; [left; split; [congruence|exact HI]| |].
            -- apply U in HD. destruct HD as [-> ->]. lia.
            -- right. exists c0. auto. }
    destruct lv as [l|].
    + intros H _. revert H.
      destruct (Z.ltb_spec l1 l); [|destruct (Z.eqb_spec l1 l)]; intros H'; eapply Step; try exact H'.
      * intros _ c'. simpl. split; [intros [<-|[]]; auto|]. intros [[E _]|E]; [injection E; lia|auto].
      * congruence.
      * exists l1. split; [reflexivity|]. split; [lia|]. intros l0 E. injection E. lia.
      * intros _ c'. subst l1. rewrite in_app_iff. simpl. intuition congruence.
      * intros N. subst. congruence.
      * exists l. split; [reflexivity|]. split; [lia|]. intros l0 E. injection E. lia.
      * intros E. injection E. lia.
      * auto.
      * exists l. split; [reflexivity|]. split; [lia|]. intros l0 E. injection E. lia.
    + intros H Ha. eapply Step; try exact H.
      * intros _ c'. simpl. split; [intros [<-|[]]; auto|]. intros [[E _]|E]; [discriminate|auto].
      * congruence.
      * exists l1. split; [reflexivity|]. split; [lia|]. discriminate.
Qed.

Lemma learn_loop_db t : forall cs d ts h d' ts' h', learn_loop th he t cs d ts h = Ok (d', ts', h') ->
  asserted d' = asserted d /\ learned d' = learned d ++ cs.
Proof.
  induction cs as [|c cs IH]; intros d ts h d' ts' h'; cbn [learn_loop].
  - intros H. injection H as <- _ _. now rewrite app_nil_r.
  - destruct (th_learned _ _ _ _ _) as [ts1| |]; cbn [bind]; try discriminate. intros H. apply IH in H.
    cbn [asserted learned] in H. rewrite <- app_assoc in H. exact H.
Qed.

Lemma learn_ok d t ts h cs d' ts' h' rs : learn th he d t ts h cs = Ok (d', ts', h', rs) ->
  exists new, asserted d' = asserted d /\ learned d' = learned d ++ new /\ NoDup new /\
    rs = map CLearned (seq (length (learned d)) (length new)) /\
    forall c, In c new <-> In c cs /\ (split_clause t c -> forall c0, In c0 cs -> split_clause t c0).
Proof.
  unfold learn. destruct (drop_splits t (unique (sort_by learn_lt cs))) as [new| |] eqn:E; cbn [bind]; try discriminate.
  destruct (learn_loop th he t new d ts h) as [[[d1 ts1] h1]| |] eqn:EL; cbn [bind]; try discriminate.
  intros H. injection H as <- <- <- <-. exists new. apply learn_loop_db in EL. destruct EL as [A B].
  apply drop_splits_ok in E. destruct E as [N I].
  assert (P : forall c, In c (unique (sort_by learn_lt cs)) <-> In c cs).
  { intros c. rewrite unique_in. split; apply Permutation_in; [apply Permutation_sym|]; apply sort_perm. }
  split; [exact A|]. split; [exact B|]. split.
  - apply N, unique_nodup. apply sort_sorted.
    + exact lle_trans.
    + exact learn_asym.
    + intros a b E. exact E.
  - split; [reflexivity|]. intros c. rewrite I, P. split; intros [H1 H2]; (split; [exact H1|]); intros HSp c0 H0.
    + apply H2; [exact HSp|now apply P].
    + apply H2; [exact HSp|now apply P].
Qed.

Lemma multi_ok d t ts h cs lc lv h1 d' ts' h' rs : cs <> [] ->
  analyze_conflicts he d t h cs [] None = Ok (lc, lv, h1) ->
  learn th he d t ts h1 lc = Ok (d', ts', h', rs) ->
  exists l new, lv = Some l /\
    (forall c c' l1, In c cs -> derived d t c c' l1 -> (l <= l1)%Z) /\
    asserted d' = asserted d /\ learned d' = learned d ++ new /\ NoDup new /\
    rs = map CLearned (seq (length (learned d)) (length new)) /\
    forall c', In c' new <-> (exists c, In c cs /\ derived d t c c' l) /\
      (split_clause t c' -> forall c c0, In c cs -> derived d t c c0 l -> split_clause t c0).
Proof.
  intros NE HA HL. apply analyze_conflicts_ok in HA; [|auto]. destruct lv as [l|]; [|tauto].
  destruct HA as (_ & B & C). apply learn_ok in HL. destruct HL as (new & X1 & X2 & X3 & X4 & X5).
  assert (C' : forall c', In c' lc <-> exists c, In c cs /\ derived d t c c' l).
  { intros c'. rewrite C. split; [intros [[E _]|H]; [discriminate|exact H]|auto]. }
  exists l, new. repeat (split; [assumption || reflexivity|]). intros c'. rewrite X5, C'.
  split; intros [H1 H2]; (split; [exact H1|]).
  - intros HSp c c0 Hc HD. apply H2; [exact HSp|]. apply C'. eauto.
  - intros HSp c0 H0. apply C' in H0. destruct H0 as (c & Hc & HD). eauto.
Qed.
End M.
