(** Every legal command succeeds and has the specified effect. *)
From Coq Require Import ZArith QArith Qround Bool List Arith Lia Lqa.
From Verif Require Import Base Rational_Model Spec_Rational Rational_Proofs Rational_Proofs2 Rational_Proofs3 Prop_Rational Pool_Model Spec_Pool Pool_Inv Pool_Proofs Pool_Move.
Import ListNotations.
Local Open Scope nat_scope.

(** canonical, and the words left in place would be a number too *)
Definition good (x : lf) : Prop := canonical x /\ wlow (num x) (den x).
Definition state_ok (m : mem) : Prop := minv m /\ forall i x, look m i = Some x -> good x.
Lemma good_stale d k : canonical d -> stale d k -> good k -> good d.
Proof.
  intros C S [_ G]. split; auto. destruct (wv d) eqn:W; [now apply canonical_word|]. destruct (S W) as [-> ->]. exact G.
Qed.
Lemma default_wlow : wlow 0 1.
Proof. exact (canonical_word lf_default (proj1 (lf_word_spec 0 ltac:(unfold WORD_MIN, WORD_MAX; lia))) eq_refl). Qed.
Lemma good_default : good lf_default.
Proof. split; [|exact default_wlow]. apply lf_word_spec. unfold WORD_MIN, WORD_MAX. lia. Qed.
Lemma good_alike x y : alike x y -> good y -> good x /\ parts x = parts y.
Proof.
  intros (H1 & H2 & H3 & H4 & H5) [C G]. assert (P : parts x = parts y).
  { unfold parts. rewrite H1, H3, H4. destruct (wv y) eqn:W; auto. apply H5. rewrite H2. now apply canonical_mv. }
  split; [|exact P]. split; [|now rewrite H3, H4]. destruct C as [C1 C2 C3 C4 C5]. constructor.
  - rewrite H1, H2. exact C1.
  - intros M. destruct (H5 M) as [_ ->]. apply C2. congruence.
  - rewrite P. exact C3.
  - intros W M. destruct (H5 M) as [-> _]. rewrite H3, H4. apply C4; congruence.
  - rewrite P, H1. exact C5.
Qed.
Lemma good_same x' x : same x' x -> unmoved x' x -> good x -> good x'.
Proof. intros [C _] (H1 & H2 & _) [_ G]. split; [exact C|]. rewrite H1, H2. exact G. Qed.

Lemma same_value x' x : parts x' = parts x -> value x' = value x.
Proof. unfold value. now intros ->. Qed.
Definition kept (m m' : mem) (k : nat) : Prop :=
  look m' k = look m k \/ exists x x', look m k = Some x /\ look m' k = Some x' /\ same x' x /\ unmoved x' x.
Lemma kept_reads m m' k : kept m m' k -> reads m' k = reads m k.
Proof. unfold reads. intros [->|(x & x' & -> & -> & [_ S] & _)]; auto. now rewrite (same_value _ _ S). Qed.
Lemma kept_good m m' k x : state_ok m -> kept m m' k -> look m' k = Some x -> good x.
Proof.
  intros [_ G] [E|(y & y' & H1 & H2 & H3 & H4)] L; [rewrite E in L; exact (G k x L)|]. rewrite H2 in L. injection L as <-. eapply good_same; eauto.
Qed.
Lemma only_of (l : list nat) m m' : (forall k, ~ In k l -> kept m m' k) -> only l (reads m) (reads m').
Proof. intros H k K. unfold has. rewrite (kept_reads _ _ _ (H k K)). auto. Qed.
Lemma becomes_of m m' i d q : look m' i = Some d -> (value d == q)%Q -> (forall k, k <> i -> kept m m' k) -> becomes (reads m) (reads m') i q.
Proof. intros L V K. split; [exists (value d); unfold reads; rewrite L; auto|]. apply only_of. intros k N. apply K. intros ->. cbn in N. tauto. Qed.
Lemma state_of m m' i d : state_ok m -> minv m' -> look m' i = Some d -> good d -> (forall k, k <> i -> kept m m' k) -> state_ok m'.
Proof.
  intros S I L G K. split; [exact I|]. intros k x X. destruct (Nat.eq_dec k i) as [->|N]; [congruence|]. exact (kept_good _ _ _ _ S (K k N) X).
Qed.
Lemma alive_look m i : alive (reads m) i -> exists x, look m i = Some x.
Proof. unfold alive, reads. destruct (look m i); [eauto|congruence]. Qed.
Lemma dead_look m i : reads m i = None -> look m i = None.
Proof. unfold reads. destruct (look m i); [discriminate|auto]. Qed.
Lemma has_look m i x q : look m i = Some x -> has (reads m) i q -> (value x == q)%Q.
Proof. unfold has, reads. intros -> (p & E & H). injection E as <-. exact H. Qed.
Lemma int_value x z : parts x = (z, 1%Z) -> (value x == inject_Z z)%Q.
Proof. unfold value. intros ->. reflexivity. Qed.

(** stale words of the operations *)
Lemma set_stale k n d x : stale (set_word k n d) x.
Proof. intros W. discriminate. Qed.
Lemma assign_stale k x d : lf_assign k x = Ok d -> stale d k.
Proof. unfold lf_assign, stale. destruct (wv x); [intros H; injection H as <-; discriminate|]. destruct (mv x); [|discriminate]. cbn. intros H. injection H as <-. auto. Qed.
Lemma op_stale f x y d x' y' : lf_op f x y = Ok (d, x', y') -> stale d lf_default /\ unmoved x' x /\ unmoved y' y.
Proof.
  intros H. assert (B : bare f x y = Ok (d, x', y')).
  { assert (G : guarded (bare f) x y = Ok (d, x', y')) by (destruct f; exact H). unfold guarded in G.
    destruct (assert_wf x) as [[]| |]; try discriminate. destruct (assert_wf y) as [[]| |]; try discriminate. cbn [bind] in G.
    destruct (bare f x y) as [[[r a] b]| |]; try discriminate. cbn [bind fst] in G. destruct (assert_wf r) as [[]| |]; try discriminate. cbn [bind] in G. congruence. }
  clear H. assert (AS : forall z, (t <- lf_assign lf_default z ;; Ok (t, x, y)) = Ok (d, x', y') -> stale d lf_default /\ unmoved x' x /\ unmoved y' y).
  { intros z E. destruct (lf_assign lf_default z) as [t| |] eqn:T; try discriminate. cbn [bind] in E. injection E as <- <- <-. split; [eapply assign_stale; eauto|split; apply unmoved_refl]. }
  assert (WD : forall n e, Ok (set_word lf_default n e, x, y) = Ok (d, x', y') -> stale d lf_default /\ unmoved x' x /\ unmoved y' y).
  { intros n e E. injection E as <- <- <-. split; [apply set_stale|split; apply unmoved_refl]. }
  destruct f; cbn [bare] in B; try (eapply arith_stale; exact B).
  - unfold multiplication in B. destruct (is_word x 0 || is_word y 0); eauto. destruct (is_word x 1 && _); eauto. destruct (is_word y 1 && _); eauto. eapply arith_stale; exact B.
  - unfold division in B. destruct (is_word y 1 && _); eauto. destruct (is_word x 0); [apply (WD 0%Z 1%Z); exact B|]. destruct (_ && _); eauto. eapply arith_stale; exact B.
Qed.
Lemma opa_stale f x y d y' : lf_opa f x y = Ok (d, y') -> stale d x /\ unmoved y' y.
Proof.
  intros H. assert (B : barea f x y = Ok (d, y')).
  { assert (G : guarded2 (barea f) x y = Ok (d, y')) by (destruct f; exact H). unfold guarded2 in G.
    destruct (assert_wf x) as [[]| |]; try discriminate. destruct (assert_wf y) as [[]| |]; try discriminate. cbn [bind] in G.
    destruct (barea f x y) as [[r b]| |]; try discriminate. cbn [bind fst] in G. destruct (assert_wf r) as [[]| |]; try discriminate. cbn [bind] in G. congruence. }
  clear H. assert (AR : forall fast op, (r <- arith fast op x x y ;; Ok (fst3 r)) = Ok (d, y') -> stale d x /\ unmoved y' y).
  { intros fast op E. destruct (arith fast op x x y) as [[[r a] b]| |] eqn:A; try discriminate. cbn [bind fst3] in E. injection E as <- <-. apply arith_stale in A. tauto. }
  destruct f; cbn [barea] in B; eauto. unfold additionAssign in B. destruct (is_word y 0); eauto. injection B as <- <-. split; [intros W; auto|apply unmoved_refl].
Qed.
Lemma neg_stale x d x' : lf_neg x = Ok (d, x') -> stale d lf_default /\ unmoved x' x.
Proof.
  unfold lf_neg. destruct (wv x && _).
  - destruct (lf_make _ _) as [r| |] eqn:R; try discriminate. cbn [bind]. intros H. injection H as <- <-. split; [|apply unmoved_refl]. intros W. exfalso.
    unfold lf_make in R. destruct (assertb _); try discriminate. cbn [bind] in R. destruct (_ =? 0)%Z; [injection R as <-; discriminate|]. destruct (_ <? _)%Z; injection R as <-; discriminate.
  - destruct (ensure_mpq x) as [x1| |] eqn:EX; try discriminate. cbn [bind]. destruct (try_fit_word _) as [z| |] eqn:F; try discriminate. cbn [bind]. intros H. injection H as <- <-.
    split; [|now apply ensure_unmoved]. intros W. exact (fit_stale _ _ F W).
Qed.
Lemma negate_stale x d : lf_negate x = Ok d -> stale d x.
Proof.
  unfold lf_negate. destruct (wv x && _).
  - cbn [bind]. destruct (assert_wf _); try discriminate. cbn [bind]. intros H. injection H as <-. apply set_stale.
  - destruct (ensure_mpq x) as [x1| |] eqn:EX; try discriminate. cbn [bind]. destruct (try_fit_word _) as [z| |] eqn:F; try discriminate. cbn [bind].
    destruct (assert_wf z); try discriminate. cbn [bind]. intros H W. injection H as <-. destruct (fit_stale _ _ F W) as [-> ->]. destruct (ensure_facts _ _ EX) as (H1 & H2 & _). auto.
Qed.
Lemma compare_stale x y z x' y' : lf_compare x y = Ok (z, x', y') -> unmoved x' x /\ unmoved y' y.
Proof.
  unfold lf_compare. destruct (wv x && wv y).
  - destruct (_ =? _)%Z; [intros H; injection H as <- <- <-; split; apply unmoved_refl|]. destruct (lw _); try discriminate. cbn [bind]. destruct (lw _); try discriminate. cbn [bind].
    intros H. injection H as <- <- <-. split; apply unmoved_refl.
  - destruct (ensure_mpq x) as [x1| |] eqn:EX; try discriminate. cbn [bind]. destruct (ensure_mpq y) as [y1| |] eqn:EY; try discriminate. cbn [bind]. intros H. injection H as <- <- <-.
    split; now apply ensure_unmoved.
Qed.
Lemma inverse_stale x d x' : lf_inverse x = Ok (d, x') -> stale d lf_default /\ unmoved x' x.
Proof.
  unfold lf_inverse. intros H. cbv zeta in H. match type of H with context [bind (ensure_mpq x) ?f] => set (ov := bind (ensure_mpq x) f) in H end.
  assert (O : ov = Ok (d, x') -> stale d lf_default /\ unmoved x' x).
  { clear H. unfold ov. intros H. destruct (ensure_mpq x) as [x1| |] eqn:EX; try discriminate. cbn [bind] in H. destruct (mpq_inv (mq x1)) as [v| |]; try discriminate. cbn [bind] in H.
    destruct (try_fit_word _) as [z| |] eqn:F; try discriminate. cbn [bind] in H. destruct (assert_wf z); try discriminate. cbn [bind] in H. injection H as <- <-.
    split; [|now apply ensure_unmoved]. intros W. exact (fit_stale _ _ F W). }
  clearbody ov. destruct (wv x); [|exact (O H)]. destruct (assertb _) as [[]| |]; try discriminate. cbn [bind] in H.
  match type of H with (r <- ?t ;; _) = _ => destruct t as [[[zn zd]|]| |] end; try discriminate; cbn [bind] in H; [|exact (O H)].
  injection H as <- <-. split; [intros W; discriminate|apply unmoved_refl].
Qed.
Lemma copy_stale x d : lf_copy x = Ok d -> stale d lf_default.
Proof. unfold lf_copy. destruct (wv x); [intros E; injection E as <-; intros W; discriminate|]. destruct (mv x); [|discriminate]. cbn. intros E. injection E as <-. intros _. auto. Qed.
Lemma ceil_stale x d : lf_ceil x = Ok d -> stale d lf_default.
Proof.
  unfold lf_ceil. destruct (lf_isInteger x) as [b| |]; try discriminate. cbn [bind]. destruct b; [apply copy_stale|]. destruct (wv x).
  - destruct (udiv _ _); try discriminate. cbn [bind]. intros E. injection E as <-. intros W. discriminate.
  - intros E. injection E as <-. unfold lf_mpz. destruct (mpz_fits_sint _); intros W; [discriminate|auto].
Qed.
Lemma floor_stale x d : lf_floor x = Ok d -> stale d lf_default.
Proof.
  unfold lf_floor. destruct (lf_isInteger x) as [b| |]; try discriminate. cbn [bind]. destruct b; [apply copy_stale|].
  destruct (lf_ceil x) as [c| |]; try discriminate. cbn [bind]. destruct (lf_sub c (lf_word 1)) as [[[r c'] o']| |] eqn:S; try discriminate. cbn [bind fst]. intros H. injection H as <-.
  exact (proj1 (op_stale Sub _ _ _ _ _ S)).
Qed.
(** values of the operations *)
Lemma op_value f x y : canonical x -> canonical y -> (f = Div -> ~ (value y == 0)%Q) -> computes2 (lf_op f x y) x y (apply f (value x) (value y)).
Proof. intros X Y N. destruct (C21_exact_arithmetic x y X Y) as (A & B & C & D & _). destruct f; cbn [lf_op apply]; auto. Qed.
Lemma opa_value f x y : canonical x -> canonical y -> (f = Div -> ~ (value y == 0)%Q) -> assigns (lf_opa f x y) y (apply f (value x) (value y)).
Proof. intros X Y N. destruct (C21_exact_assignment x y X Y) as (A & B & C & D & _). destruct f; cbn [lf_opa apply]; auto. Qed.
Lemma apply_comp f p p' q q' : (p == p')%Q -> (q == q')%Q -> (apply f p q == apply f p' q')%Q.
Proof. intros A B. destruct f; cbn [apply]; rewrite A, B; reflexivity. Qed.

Lemma ceil_less q : (inject_Z (Qceiling q) < q + 1)%Q.
Proof. pose proof (Qceiling_lt q) as H. unfold Z.sub in H. rewrite inject_Z_plus, inject_Z_opp in H. change (inject_Z 1) with 1%Q in H. lra. Qed.
Lemma step_ok m c : state_ok m -> legal (reads m) c -> exists m' out, step m c = Ok (m', out) /\ state_ok m' /\ effect (reads m) c (reads m') out.
Proof.
  intros S L. pose proof S as [I G].
  (* a command with one result *)
  assert (ONE : forall i r m' d, r = Ok m' -> minv m' -> look m' i = Some d -> good d -> (forall k, k <> i -> kept m m' k) ->
    quiet r = Ok (m', None) /\ state_ok m' /\ forall q, (value d == q)%Q -> becomes (reads m) (reads m') i q).
  { intros i r m' d -> I' L' G' K. split; [reflexivity|]. split; [eapply state_of; eauto|]. intros q V. eapply becomes_of; eauto. }
  destruct c as [i n|i n|i n d|i j|i j|i j|i j|i|i|f i j k|f i j|i j|i|i j|i j|i j|i j t u]; cbn [legal step effect] in *.
  - destruct L as [D R]. destruct (lf_word_spec n) as [C P]; [unfold WORD_MIN, WORD_MAX; lia|].
    destruct (nword_sim m i n I (dead_look _ _ D)) as (m' & H & I' & L' & K). destruct (ONE i _ m' _ H I' L') as (Q1 & Q2 & Q3); [split; [exact C|exact (canonical_word _ C eq_refl)]|intros k N; left; auto|].
    exists m', None. split; [exact Q1|]. split; [exact Q2|]. apply Q3. now apply int_value.
  - destruct L as [D R]. destruct (lf_uint_spec n) as [C P]; [unfold UWORD_MAX; lia|].
    destruct (nuint_sim m i n I (dead_look _ _ D)) as (m' & H & I' & L' & K). destruct (ONE i _ m' _ H I' L') as (Q1 & Q2 & Q3).
    + eapply good_stale; [exact C| |exact good_default]. unfold lf_uint, stale. destruct (_ <? _)%Z; auto. discriminate.
    + intros k N; left; auto.
    + exists m', None. split; [exact Q1|]. split; [exact Q2|]. apply Q3. now apply int_value.
  - destruct L as [D R]. destruct (lf_str_ok n d R) as (r & E & C & V).
    destruct (str_sim m i n d r I (dead_look _ _ D) E) as (m' & r' & H & I' & L' & A & K).
    assert (GR : good r).
    { eapply good_stale; [exact C| |exact good_default]. unfold lf_str in E. destruct (d =? 0)%Z; [discriminate|]. destruct (try_fit_word _) as [z| |] eqn:F; try discriminate. cbn [bind] in E.
      destruct (assert_wf _); try discriminate. cbn [bind] in E. injection E as <-. intros W. destruct (wv z) eqn:WZ; [discriminate|]. exact (fit_stale _ _ F WZ). }
    destruct (good_alike _ _ A GR) as [G1 G2]. destruct (ONE i _ m' _ H I' L' G1) as (Q1 & Q2 & Q3); [intros k N; left; auto|].
    exists m', None. split; [exact Q1|]. split; [exact Q2|]. apply Q3. now rewrite (same_value _ _ G2).
  - destruct L as [D A]. destruct (alive_look _ _ A) as [x X]. destruct (G j x X) as [C W]. destruct (lf_copy_spec x C) as (r & E & CR & PR).
    destruct (copy_sim m i j x r I (dead_look _ _ D) X E) as (m' & H & I' & L' & K). destruct (ONE i _ m' _ H I' L') as (Q1 & Q2 & Q3).
    + eapply good_stale; [exact CR| |exact good_default]. unfold lf_copy in E. destruct (wv x); [injection E as <-; intros; discriminate|]. destruct (mv x); [|discriminate]. cbn in E. injection E as <-. intros _. auto.
    + intros k N; left; auto.
    + exists m', None. split; [exact Q1|]. split; [exact Q2|]. intros q B. apply Q3. rewrite (same_value _ _ PR). eapply has_look; eauto.
  - destruct L as [D A]. destruct (alive_look _ _ A) as [x X]. destruct (G j x X) as [C W].
    destruct (move_sim m i j x I (dead_look _ _ D) X) as (m' & H & I' & LI & LJ & K). exists m', None. rewrite H. split; [reflexivity|].
    assert (KK : forall k, ~ In k [i; j] -> kept m m' k) by (intros k N; left; auto). split.
    + split; [exact I'|]. intros k z Z. destruct (Nat.eq_dec k i) as [->|N1]; [assert (z = x) by congruence; subst; split; auto|].
      destruct (Nat.eq_dec k j) as [->|N2].
      * rewrite LJ in Z. injection Z as <-. unfold lf_move. destruct (ma x); cbn [snd]; [|split; auto]. split; [|exact W]. apply (word_canonical (mkLf true false false 0 1 (0, 1)%Z) _ _ W).
      * apply (kept_good m m' k z S); auto. apply KK. cbn. intros [<-|[<-|[]]]; congruence.
    + intros q Q. split; [exists (value x); unfold reads; rewrite LI; split; [reflexivity|exact (has_look _ _ _ _ X Q)]|]. split; [unfold alive, reads; rewrite LJ; discriminate|]. apply only_of. exact KK.
  - destruct L as [A B]. destruct (alive_look _ _ A) as [t T]. destruct (alive_look _ _ B) as [x X]. destruct (G j x X) as [C W]. destruct (lf_assign_spec t x C) as (r & E & CR & PR).
    destruct (assign_sim m i j t x r I T X E) as (m' & H & I' & L' & K). destruct (ONE i _ m' _ H I' L') as (Q1 & Q2 & Q3).
    + eapply good_stale; [exact CR|eapply assign_stale; eauto|exact (G i t T)].
    + intros k N; left; auto.
    + exists m', None. split; [exact Q1|]. split; [exact Q2|]. intros q Q. apply Q3. rewrite (same_value _ _ PR). eapply has_look; eauto.
  - destruct L as [A B]. destruct (alive_look _ _ A) as [x X]. destruct (alive_look _ _ B) as [y Y].
    destruct (swap_sim m i j x y I X Y) as (m' & H & I' & LI & LJ & K). exists m', None. rewrite H. split; [reflexivity|].
    assert (KK : forall k, ~ In k [i; j] -> kept m m' k) by (intros k N; left; auto). split.
    + split; [exact I'|]. intros k z Z. destruct (Nat.eq_dec k i) as [->|N1]; [assert (z = y) by congruence; subst; exact (G j y Y)|].
      destruct (Nat.eq_dec k j) as [->|N2]; [assert (z = x) by congruence; subst; exact (G i x X)|]. apply (kept_good m m' k z S); auto. apply KK. cbn. intros [<-|[<-|[]]]; congruence.
    + intros p q P Q. split; [exists (value y); unfold reads; rewrite LI; split; [reflexivity|exact (has_look _ _ _ _ Y Q)]|].
      split; [exists (value x); unfold reads; rewrite LJ; split; [reflexivity|exact (has_look _ _ _ _ X P)]|]. apply only_of. exact KK.
  - destruct (alive_look _ _ L) as [x X]. destruct (destroy_sim m i x I X) as (m' & H & I' & LI & K). exists m', None. rewrite H. split; [reflexivity|].
    assert (KK : forall k, ~ In k [i] -> kept m m' k) by (intros k N; left; apply K; intros ->; cbn in N; tauto). split.
    + split; [exact I'|]. intros k z Z. apply (kept_good m m' k z S); auto. left. apply K. congruence.
    + split; [unfold reads; now rewrite LI|]. apply only_of. exact KK.
  - destruct (alive_look _ _ L) as [x X]. destruct (reset_sim m i x I X) as (m' & y & H & I' & LI & Y1 & Y2 & Y3 & Y4 & K).
    assert (A : alike y lf_default) by (repeat split; auto; congruence). destruct (good_alike _ _ A good_default) as [G1 G2].
    destruct (ONE i _ m' _ H I' LI G1) as (Q1 & Q2 & Q3); [intros k N; left; auto|]. exists m', None. split; [exact Q1|]. split; [exact Q2|]. apply Q3. rewrite (same_value _ _ G2). reflexivity.
  - destruct L as (D & A & B & N). destruct (alive_look _ _ A) as [x X]. destruct (alive_look _ _ B) as [y Y]. destruct (G j x X) as [CX _]. destruct (G k y Y) as [CY _].
    destruct (op_value f x y CX CY) as (r & x' & y' & E & CR & VR & SX & SY). { intros F Z. apply (N F). exists (value y). unfold reads. rewrite Y. auto. }
    destruct (op_stale _ _ _ _ _ _ E) as (T & UX & UY). destruct (op_sim f m i j k x y r x' y' I (dead_look _ _ D) X Y E) as (m' & H & I' & LI & LJ & LK & K).
    destruct (ONE i _ m' _ H I' LI) as (Q1 & Q2 & Q3).
    + eapply good_stale; [exact CR|exact T|exact good_default].
    + intros q NQ. destruct (Nat.eq_dec q j) as [->|N1]; [right; eauto 10|]. destruct (Nat.eq_dec q k) as [->|N2]; [right; eauto 10|]. left. apply K. cbn. intros [<-|[<-|[<-|[]]]]; congruence.
    + exists m', None. split; [exact Q1|]. split; [exact Q2|]. intros p q P Q. apply Q3. rewrite VR. apply apply_comp; eapply has_look; eauto.
  - destruct L as (A & B & N). destruct (alive_look _ _ A) as [x X]. destruct (alive_look _ _ B) as [y Y]. destruct (G i x X) as [CX WX]. destruct (G j y Y) as [CY _].
    destruct (opa_value f x y CX CY) as (r & y' & E & CR & VR & SY). { intros F Z. apply (N F). exists (value y). unfold reads. rewrite Y. auto. }
    destruct (opa_stale _ _ _ _ _ E) as (T & UY). destruct (opa_sim f m i j x y r y' I X Y E) as (m' & H & I' & LI & LJ & K).
    destruct (ONE i _ m' _ H I' LI) as (Q1 & Q2 & Q3).
    + eapply good_stale; [exact CR|exact T|split; auto].
    + intros q NQ. destruct (Nat.eq_dec q j) as [->|N1]; [right; exists y, y'; auto|]. left. apply K. cbn. intros [<-|[<-|[]]]; congruence.
    + exists m', None. split; [exact Q1|]. split; [exact Q2|]. intros p q P Q. apply Q3. rewrite VR. apply apply_comp; eapply has_look; eauto.
  - destruct L as [D A]. destruct (alive_look _ _ A) as [x X]. destruct (G j x X) as [CX _]. destruct (C21_exact_arithmetic x x CX CX) as (_ & _ & _ & _ & r & x' & E & CR & VR & SX).
    destruct (neg_stale _ _ _ E) as (T & UX). destruct (neg_sim m i j x r x' I (dead_look _ _ D) X E) as (m' & d & H & I' & LI & D1 & D2 & D3 & D4 & D5 & D6 & LJ & K).
    assert (AL : alike d r) by (repeat split; auto). assert (GR : good r) by (eapply good_stale; [exact CR|exact T|exact good_default]). destruct (good_alike _ _ AL GR) as [G1 G2].
    destruct (ONE i _ m' _ H I' LI G1) as (Q1 & Q2 & Q3).
    + intros q NQ. destruct (Nat.eq_dec q j) as [->|N1]; [right; eauto 10|]. left. apply K. cbn. intros [<-|[<-|[]]]; congruence.
    + exists m', None. split; [exact Q1|]. split; [exact Q2|]. intros q Q. apply Q3. rewrite (same_value _ _ G2), VR. rewrite (has_look _ _ _ _ X Q). reflexivity.
  - destruct (alive_look _ _ L) as [x X]. destruct (G i x X) as [CX WX]. destruct (C21_exact_assignment x x CX CX) as (_ & _ & _ & _ & r & E & CR & VR).
    destruct (negate_sim m i x r I X E) as (m' & H & I' & LI & K). destruct (ONE i _ m' _ H I' LI) as (Q1 & Q2 & Q3).
    + eapply good_stale; [exact CR|exact (negate_stale _ _ E)|split; auto].
    + intros k N; left; auto.
    + exists m', None. split; [exact Q1|]. split; [exact Q2|]. intros q Q. apply Q3. rewrite VR, (has_look _ _ _ _ X Q). reflexivity.
  - destruct L as (A & B). destruct (alive_look _ _ A) as [x X]. destruct (alive_look _ _ B) as [y Y]. destruct (G i x X) as [CX _]. destruct (G j y Y) as [CY _].
    destruct (C22_order x y CX CY) as ((z & x' & y' & E & SX & SY & Z1 & Z2 & Z3) & _). destruct (compare_stale _ _ _ _ _ E) as [UX UY].
    destruct (compare_sim m i j x y z x' y' I X Y E) as (m' & H & I' & LI & LJ & K). exists m', (Some z). rewrite H. cbn [bind fst snd]. split; [reflexivity|].
    assert (KK : forall k, kept m m' k).
    { intros q. destruct (Nat.eq_dec q i) as [->|N1]; [right; eauto 10|]. destruct (Nat.eq_dec q j) as [->|N2]; [right; eauto 10|]. left. apply K. cbn. intros [<-|[<-|[]]]; congruence. }
    split; [split; [exact I'|]; intros k w WW; exact (kept_good m m' k w S (KK k) WW)|]. split; [apply only_of; intros k _; apply KK|].
    intros p q P Q. exists z. split; [reflexivity|]. rewrite <- (has_look _ _ _ _ X P), <- (has_look _ _ _ _ Y Q). split; [exact Z1|]. split; [exact Z2|]. rewrite <- Z3. lia.
  - destruct L as (D & A & N). destruct (alive_look _ _ A) as [x X]. destruct (G j x X) as [CX _].
    destruct (lf_inverse_ok x CX) as (r & x' & E & CR & VR & SX). { intros Z. apply N. exists (value x). unfold reads. rewrite X. auto. }
    destruct (inverse_stale _ _ _ E) as (T & UX). destruct (inverse_sim m i j x r x' I (dead_look _ _ D) X E) as (m' & H & I' & LI & LJ & K).
    destruct (ONE i _ m' _ H I' LI) as (Q1 & Q2 & Q3).
    + eapply good_stale; [exact CR|exact T|exact good_default].
    + intros q NQ. destruct (Nat.eq_dec q j) as [->|N1]; [right; eauto 10|]. left. apply K. cbn. intros [<-|[<-|[]]]; congruence.
    + exists m', None. split; [exact Q1|]. split; [exact Q2|]. intros q Q. apply Q3. rewrite VR, (has_look _ _ _ _ X Q). reflexivity.
  - destruct L as [D A]. destruct (alive_look _ _ A) as [x X]. destruct (G j x X) as [CX _].
    destruct (lf_ceil_ok x CX) as (r & E & CR & VR).
    destruct (ceil_sim m i j x r I (dead_look _ _ D) X) as (m' & H & I' & LI & K); [intros W; now apply canonical_mv|exact E|].
    destruct (ONE i _ m' _ H I' LI) as (Q1 & Q2 & Q3).
    + eapply good_stale; [exact CR|exact (ceil_stale _ _ E)|exact good_default].
    + intros k N; left; auto.
    + exists m', None. split; [exact Q1|]. split; [exact Q2|]. intros q Q. exists (Qceiling (value x)). split; [apply Q3; exact VR|].
      rewrite <- (has_look _ _ _ _ X Q). split; [apply Qle_ceiling|exact (ceil_less (value x))].
  - destruct L as (D & D1 & D2 & N1 & N2 & N3 & A). destruct (alive_look _ _ A) as [x X]. destruct (G j x X) as [CX _].
    destruct (lf_floor_ok x CX) as (r & E & CR & VR).
    destruct (floor_sim m i j t u x r I (dead_look _ _ D) (dead_look _ _ D1) (dead_look _ _ D2) N1 N2 N3 X) as (m' & H & I' & LI & K); [intros W; now apply canonical_mv|exact E|].
    destruct (ONE i _ m' _ H I' LI) as (Q1 & Q2 & Q3).
    + eapply good_stale; [exact CR|exact (floor_stale _ _ E)|exact good_default].
    + intros k N; left; auto.
    + exists m', None. split; [exact Q1|]. split; [exact Q2|]. intros q Q. exists (Qfloor (value x)). split; [apply Q3; exact VR|].
      rewrite <- (has_look _ _ _ _ X Q). split; [apply Qfloor_le|]. pose proof (Qlt_floor (value x)) as B. rewrite inject_Z_plus in B. exact B.
Qed.
Lemma reached_ok m : reached m -> state_ok m.
Proof.
  induction 1 as [|m c m' out R IH L E]; [split; [exact inv_empty|intros i x X; discriminate]|].
  destruct (step_ok m c IH L) as (m2 & o2 & E2 & S & _). congruence.
Qed.
