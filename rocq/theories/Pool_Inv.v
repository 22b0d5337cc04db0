(** Ownership of the cells of the pool: the primitive operations keep every other object as it is. *)
From Coq Require Import ZArith Bool List Arith Lia.
From Verif Require Import Base Rational_Model Pool_Model.
Import ListNotations.

Definition own (m : mem) (i a : nat) : Prop := exists o, objs m i = Some o /\ o_ma o = true /\ o_ptr o = Some a.
Record minv (m : mem) : Prop := mkInv {
  i_ptr : forall i o, objs m i = Some o -> o_ma o = true -> exists a, o_ptr o = Some a /\ a < size m;
  i_bit : forall i o, objs m i = Some o -> o_mv o = true -> o_ma o = true;
  i_one : forall i j a, own m i a -> own m j a -> i = j;
  i_used : forall i a, own m i a -> ~ In a (free m);
  i_nodup : NoDup (free m);
  i_free : forall a, In a (free m) -> a < size m;
  i_leak : forall a, a < size m -> In a (free m) \/ exists i, own m i a }.

Lemma inv_empty : minv mem_empty.
Proof. constructor; cbn; try discriminate; try (intros; contradiction); try (intros; lia); try constructor; intros i j; try intros a; intros (o & E & _); discriminate. Qed.

Lemma setf_eq {A} (f : nat -> A) i v : setf f i v i = v.
Proof. unfold setf. now rewrite Nat.eqb_refl. Qed.
Lemma setf_ne {A} (f : nat -> A) i v k : k <> i -> setf f i v k = f k.
Proof. intros H. unfold setf. now rewrite (proj2 (Nat.eqb_neq k i) H). Qed.

(** [m'] is [m] with another object [i] that owns the same cell, the contents of which may have changed *)
Lemma put_own m i o o' a v : minv m -> objs m i = Some o -> o_ma o = true -> o_ptr o = Some a -> o_ma o' = true -> o_ptr o' = Some a ->
  let m' := h_put (h_write m a v) i o' in
  minv m' /\ look m' i = Some (mkLf (o_wv o') true (o_mv o') (o_num o') (o_den o') v) /\ forall k, k <> i -> look m' k = look m k.
Proof.
  intros I E MA P MA' P' m'.
  assert (O : forall k b, own m' k b <-> own m k b).
  { intros k b. unfold own, m'. cbn [objs h_put h_write]. destruct (Nat.eq_dec k i) as [->|N]; [|rewrite setf_ne by auto; reflexivity].
    rewrite setf_eq. split; intros (x & X1 & X2 & X3).
    - injection X1 as <-. exists o. repeat split; auto. congruence.
    - exists o'. repeat split; auto. rewrite E in X1. injection X1 as <-. congruence. }
  split; [|split].
  - constructor; cbn [size free m' h_put h_write].
    + intros k x X M. unfold m' in X. cbn [objs h_put h_write] in X. destruct (Nat.eq_dec k i) as [->|N].
      * rewrite setf_eq in X. injection X as <-. exists a. split; auto. destruct (i_ptr _ I i o E MA) as (a' & A1 & A2). congruence.
      * rewrite setf_ne in X by auto. exact (i_ptr _ I k x X M).
    + intros k x X M. unfold m' in X. cbn [objs h_put h_write] in X. destruct (Nat.eq_dec k i) as [->|N].
      * rewrite setf_eq in X. now injection X as <-.
      * rewrite setf_ne in X by auto. exact (i_bit _ I k x X M).
    + intros k l b X Y. apply O in X, Y. exact (i_one _ I k l b X Y).
    + intros k b X. apply O in X. exact (i_used _ I k b X).
    + apply I.
    + apply I.
    + intros b B. destruct (i_leak _ I b B) as [F|[k K]]; auto. right. exists k. now apply O.
  - unfold look, m'. cbn [objs h_put h_write]. rewrite setf_eq. unfold view. cbn [cells h_put h_write]. now rewrite MA', P', setf_eq.
  - intros k N. unfold look, m'. cbn [objs h_put h_write]. rewrite setf_ne by auto. destruct (objs m k) as [x|] eqn:X; auto.
    unfold view. cbn [cells h_put h_write]. destruct (o_ma x) eqn:M; auto. destruct (o_ptr x) as [b|] eqn:B; auto.
    rewrite setf_ne; auto. intros ->. apply N. apply (i_one _ I k i a); [exists x|exists o]; auto.
Qed.
(** the same without a write, for objects that own the same cell or none *)
Lemma put_same m i o o' : minv m -> objs m i = Some o -> o_ma o' = o_ma o -> (o_ma o = true -> o_ptr o' = o_ptr o) -> (o_mv o' = true -> o_ma o = true) ->
  let m' := h_put m i o' in
  minv m' /\ look m' i = Some (mkLf (o_wv o') (o_ma o) (o_mv o') (o_num o') (o_den o') (mq (view m o))) /\ forall k, k <> i -> look m' k = look m k.
Proof.
  intros I E MA P MV m'.
  assert (O : forall k b, own m' k b <-> own m k b).
  { intros k b. unfold own, m'. cbn [objs h_put]. destruct (Nat.eq_dec k i) as [->|N]; [|rewrite setf_ne by auto; reflexivity].
    rewrite setf_eq. split; intros (x & X1 & X2 & X3).
    - injection X1 as <-. exists o. repeat split; auto; try congruence. rewrite <- P by congruence. auto.
    - exists o'. rewrite E in X1. injection X1 as <-. repeat split; auto; try congruence. rewrite P; auto. }
  split; [|split].
  - constructor; cbn [size free m' h_put].
    + intros k x X M. unfold m' in X. cbn [objs h_put] in X. destruct (Nat.eq_dec k i) as [->|N].
      * rewrite setf_eq in X. injection X as <-. rewrite P by congruence. apply (i_ptr _ I i o E). congruence.
      * rewrite setf_ne in X by auto. exact (i_ptr _ I k x X M).
    + intros k x X M. unfold m' in X. cbn [objs h_put] in X. destruct (Nat.eq_dec k i) as [->|N].
      * rewrite setf_eq in X. injection X as <-. rewrite MA. auto.
      * rewrite setf_ne in X by auto. exact (i_bit _ I k x X M).
    + intros k l b X Y. apply O in X, Y. exact (i_one _ I k l b X Y).
    + intros k b X. apply O in X. exact (i_used _ I k b X).
    + apply I.
    + apply I.
    + intros b B. destruct (i_leak _ I b B) as [F|[k K]]; auto. right. exists k. now apply O.
  - unfold look, m'. cbn [objs h_put]. rewrite setf_eq. unfold view. cbn [cells h_put mq]. rewrite MA. destruct (o_ma o) eqn:M; auto. now rewrite P.
  - intros k N. unfold look, m'. cbn [objs h_put]. now rewrite setf_ne by auto.
Qed.
Lemma look_get m i x : look m i = Some x -> exists o, objs m i = Some o /\ h_get m i = Ok o /\ x = view m o.
Proof. unfold look, h_get. destruct (objs m i) as [o|]; [|discriminate]. intros H. injection H as <-. eauto. Qed.
Lemma look_read m i x : minv m -> look m i = Some x -> ma x = true -> h_read m i = Ok (mq x).
Proof.
  intros I L M. destruct (look_get m i x L) as (o & E & G & ->). cbn in M. destruct (i_ptr _ I i o E M) as (a & P & _).
  unfold h_read. rewrite G. cbn [bind]. unfold h_ptr. rewrite P. cbn [bind]. unfold view. cbn [mq]. now rewrite M, P.
Qed.
Lemma look_h m i x : look m i = Some x -> h_look m i = Ok x.
Proof. intros L. destruct (look_get m i x L) as (o & E & G & ->). unfold h_look. now rewrite G. Qed.
Lemma look_mv m i x : minv m -> look m i = Some x -> mv x = true -> ma x = true.
Proof. intros I L. destruct (look_get m i x L) as (o & E & G & ->). cbn. apply (i_bit _ I i o E). Qed.

(** ** The primitive operations *)
Definition keeps (m m' : mem) (l : list nat) : Prop := forall k, ~ In k l -> look m' k = look m k.
Lemma keeps_refl m l : keeps m m l.
Proof. now intros k _. Qed.
Lemma keeps_trans a b c l : keeps a b l -> keeps b c l -> keeps a c l.
Proof. intros H1 H2 k K. rewrite H2, H1; auto. Qed.
Lemma keeps_one m m' i l : In i l -> (forall k, k <> i -> look m' k = look m k) -> keeps m m' l.
Proof. intros H F k K. apply F. intros ->. auto. Qed.

Lemma new_ok m i : minv m -> look m i = None -> exists m', h_new m i = Ok m' /\ minv m' /\ look m' i = Some lf_default /\ forall k, k <> i -> look m' k = look m k.
Proof.
  intros I L. unfold look in L. destruct (objs m i) eqn:E; [discriminate|]. unfold h_new. rewrite E. eexists. split; [reflexivity|].
  set (m' := h_put _ _ _). assert (O : forall k b, own m' k b <-> own m k b).
  { intros k b. unfold own, m'. cbn [objs h_put]. destruct (Nat.eq_dec k i) as [->|N]; [|rewrite setf_ne by auto; reflexivity].
    rewrite setf_eq, E. split; intros (x & X1 & X2 & X3); [injection X1 as <-; discriminate|discriminate]. }
  split; [|split].
  - constructor; cbn [size free m' h_put].
    + intros k x X M. unfold m' in X. cbn [objs h_put] in X. destruct (Nat.eq_dec k i) as [->|N].
      * rewrite setf_eq in X. injection X as <-. discriminate.
      * rewrite setf_ne in X by auto. exact (i_ptr _ I k x X M).
    + intros k x X M. unfold m' in X. cbn [objs h_put] in X. destruct (Nat.eq_dec k i) as [->|N].
      * rewrite setf_eq in X. injection X as <-. discriminate.
      * rewrite setf_ne in X by auto. exact (i_bit _ I k x X M).
    + intros k l b X Y. apply O in X, Y. exact (i_one _ I k l b X Y).
    + intros k b X. apply O in X. exact (i_used _ I k b X).
    + apply I.
    + apply I.
    + intros b B. destruct (i_leak _ I b B) as [F|[k K]]; auto. right. exists k. now apply O.
  - unfold look, m'. cbn [objs h_put]. now rewrite setf_eq.
  - intros k N. unfold look, m'. cbn [objs h_put]. now rewrite setf_ne.
Qed.
Lemma word_ok m i x n d : minv m -> look m i = Some x ->
  exists m', h_word m i n d = Ok m' /\ minv m' /\ look m' i = Some (set_word x n d) /\ forall k, k <> i -> look m' k = look m k.
Proof.
  intros I L. destruct (look_get m i x L) as (o & E & G & ->). unfold h_word. rewrite G. cbn [bind]. eexists. split; [reflexivity|].
  apply (put_same m i o); auto. cbn. discriminate.
Qed.
Lemma fit_ok m i x y : minv m -> look m i = Some x -> try_fit_word x = Ok y ->
  exists m', h_fit m i = Ok m' /\ minv m' /\ look m' i = Some y /\ forall k, k <> i -> look m' k = look m k.
Proof.
  intros I L F. destruct (look_get m i x L) as (o & E & G & ->). unfold h_fit. rewrite G. cbn [bind]. rewrite F. cbn [bind].
  eexists. split; [reflexivity|].
  destruct (put_same m i o (mkO (wv y) (o_ma o) (o_mv o) (num y) (den y) (o_ptr o))) as (J & K1 & K2); auto; [cbn; apply (i_bit _ I i o E)|].
  split; [exact J|]. split; [|exact K2]. rewrite K1. f_equal. cbn [o_wv o_mv o_num o_den]. unfold try_fit_word, fitsWord in F.
  destruct (assertb _); cbn [bind] in F; try discriminate. destruct (fits_mpq _); injection F as <-; reflexivity.
Qed.
Lemma mem_ok m i x : minv m -> look m i = Some x ->
  exists m' y, h_mem m i = Ok m' /\ minv m' /\ look m' i = Some y /\ (ma x = true -> y = x) /\
    wv y = wv x /\ ma y = true /\ mv y = mv x /\ num y = num x /\ den y = den x /\ forall k, k <> i -> look m' k = look m k.
Proof.
  intros I L. destruct (look_get m i x L) as (o & E & G & ->). unfold h_mem. rewrite G. cbn [bind]. destruct (o_ma o) eqn:MA.
  { exists m, (view m o). split; [reflexivity|]. split; [exact I|]. split; [exact L|]. cbn. rewrite MA. auto 10. }
  assert (MV : o_mv o = false) by (destruct (o_mv o) eqn:X; auto; rewrite (i_bit _ I i o E X) in MA; discriminate).
  assert (AL : exists a m1, h_alloc m = (a, m1) /\ objs m1 = objs m /\ a < size m1 /\ (forall k b, own m k b -> b <> a /\ cells m1 b = cells m b) /\
    size m <= size m1 /\ NoDup (free m1) /\ ~ In a (free m1) /\ (forall b, In b (free m1) -> In b (free m)) /\ (forall b, b < size m1 -> b = a \/ b < size m /\ (In b (free m) -> In b (free m1)))).
  { unfold h_alloc. destruct (free m) as [|a l] eqn:F.
    - eexists _, _. split; [reflexivity|]. cbn. repeat split; auto.
      + intros ->. destruct H as (o1 & A1 & A2 & A3). destruct (i_ptr _ I k o1 A1 A2) as (b & B1 & B2). assert (b = size m) by congruence. lia.
      + apply setf_ne. intros ->. destruct H as (o1 & A1 & A2 & A3). destruct (i_ptr _ I k o1 A1 A2) as (b & B1 & B2). assert (b = size m) by congruence. lia.
      + constructor.
      + intros b B. destruct (Nat.eq_dec b (size m)); auto. right. split; [lia|auto].
    - eexists _, _. split; [reflexivity|]. pose proof (i_nodup _ I) as ND. rewrite F in ND. inversion ND as [|? ? N1 N2]; subst. cbn. repeat split; auto.
      + apply (i_free _ I). rewrite F. now left.
      + intros ->. apply (i_used _ I k a H). rewrite F. now left.
      + intros b B. destruct (Nat.eq_dec b a); auto. right. split; auto. intros [X|X]; auto. congruence. }
  destruct AL as (a & m1 & -> & OB & SZ & CE & SL & ND & NI & FS & LK). eexists _, _. split; [reflexivity|].
  set (o' := mkO _ _ _ _ _ _). set (m' := h_put m1 i o').
  assert (O : forall k b, own m' k b <-> (k = i /\ b = a) \/ own m k b).
  { intros k b. unfold own, m'. cbn [objs h_put]. rewrite OB. destruct (Nat.eq_dec k i) as [->|N].
    - rewrite setf_eq, E. split.
      + intros (z & X1 & X2 & X3). injection X1 as <-. cbn in X3. left. split; congruence.
      + intros [[_ ->]|(z & X1 & X2 & X3)]; [exists o'; auto|]. injection X1 as <-. congruence.
    - rewrite setf_ne by auto. split; [intros H; now right|]. intros [[H _]|H]; [contradiction|exact H]. }
  split; [|split; [|cbn [ma view]; rewrite MA; split; [discriminate|]]].
  - constructor; cbn [size free m' h_put].
    + intros k z X M. unfold m' in X. cbn [objs h_put] in X. rewrite OB in X. destruct (Nat.eq_dec k i) as [->|N].
      * rewrite setf_eq in X. injection X as <-. exists a. auto.
      * rewrite setf_ne in X by auto. destruct (i_ptr _ I k z X M) as (b & B1 & B2). exists b. split; auto. lia.
    + intros k z X M. unfold m' in X. cbn [objs h_put] in X. rewrite OB in X. destruct (Nat.eq_dec k i) as [->|N].
      * rewrite setf_eq in X. now injection X as <-.
      * rewrite setf_ne in X by auto. exact (i_bit _ I k z X M).
    + intros k l b X Y. apply O in X, Y. destruct X as [[-> ->]|X], Y as [[-> Y]|Y]; auto.
      * exfalso. exact (proj1 (CE l a Y) eq_refl).
      * subst. exfalso. exact (proj1 (CE k a X) eq_refl).
      * exact (i_one _ I k l b X Y).
    + intros k b X. apply O in X. destruct X as [[_ ->]|X]; auto. intros F. apply (i_used _ I k b X). auto.
    + exact ND.
    + intros b B. apply FS, (i_free _ I) in B. lia.
    + intros b B. destruct (LK b B) as [->|[B1 B2]]; [right; exists i; apply O; auto|].
      destruct (i_leak _ I b B1) as [F|[k K]]; auto. right. exists k. apply O. auto.
  - unfold look, m'. cbn [objs h_put]. rewrite setf_eq. reflexivity.
  - cbn. repeat split; auto. intros k N. unfold look, m'. cbn [objs h_put]. rewrite setf_ne by auto. rewrite OB. destruct (objs m k) as [z|] eqn:Z; auto.
    unfold view. cbn [cells h_put]. destruct (o_ma z) eqn:M; auto. destruct (o_ptr z) as [b|] eqn:B; auto. rewrite (proj2 (CE k b (ex_intro _ z (conj Z (conj M B))))). reflexivity.
Qed.
Lemma store_ok m i x v : minv m -> look m i = Some x -> ma x = true ->
  exists m', h_store m i v = Ok m' /\ minv m' /\ look m' i = Some (mkLf false true true (num x) (den x) v) /\ forall k, k <> i -> look m' k = look m k.
Proof.
  intros I L M. destruct (look_get m i x L) as (o & E & G & ->). cbn in M. destruct (i_ptr _ I i o E M) as (a & P & _).
  unfold h_store. rewrite G. cbn [bind]. unfold h_ptr. rewrite P. cbn [bind]. eexists. split; [reflexivity|].
  exact (put_own m i o (mkO false true true (o_num o) (o_den o) (Some a)) a v I E M P eq_refl eq_refl).
Qed.
Lemma ensure_ok m i x y : minv m -> look m i = Some x -> ensure_mpq x = Ok y ->
  exists m', h_ensure m i = Ok m' /\ minv m' /\ look m' i = Some y /\ forall k, k <> i -> look m' k = look m k.
Proof.
  intros I L F. destruct (look_get m i x L) as (o & E & G & ->). unfold h_ensure. rewrite G. cbn [bind]. unfold ensure_mpq in F. cbn [mv view] in F. destruct (o_mv o).
  { injection F as <-. exists m. auto. }
  cbn [wv view num den] in F. destruct (o_wv o) eqn:W; [|discriminate]. cbn [assertb bind] in *. injection F as <-.
  destruct (mem_ok m i _ I L) as (m1 & z & -> & I1 & L1 & _ & Z1 & Z2 & Z3 & Z4 & Z5 & K1). cbn [bind].
  destruct (look_get m1 i z L1) as (o1 & E1 & G1 & ->). rewrite G1. cbn [bind]. cbn in Z2. destruct (i_ptr _ I1 i o1 E1 Z2) as (a & P & _).
  unfold h_ptr. rewrite P. cbn [bind]. eexists. split; [reflexivity|].
  destruct (put_own m1 i o1 (mkO true true true (o_num o) (o_den o) (Some a)) a (o_num o, o_den o) I1 E1 Z2 P eq_refl eq_refl) as (J & K2 & K3).
  split; [exact J|]. split; [exact K2|]. intros k N. rewrite K3, K1; auto.
Qed.
Lemma kill_ok m i x : minv m -> look m i = Some x ->
  exists m' y, h_kill m i = Ok m' /\ minv m' /\ look m' i = Some y /\ ma y = false /\ mv y = false /\ num y = num x /\ den y = den x /\
    wv y = (if ma x then true else wv x) /\ forall k, k <> i -> look m' k = look m k.
Proof.
  intros I L. destruct (look_get m i x L) as (o & E & G & ->). unfold h_kill. rewrite G. cbn [bind]. destruct (o_ma o) eqn:MA.
  2:{ exists m, (view m o). split; [reflexivity|]. split; [exact I|]. split; [exact L|]. cbn. rewrite MA. repeat split; auto.
      destruct (o_mv o) eqn:X; auto. rewrite (i_bit _ I i o E X) in MA. discriminate. }
  destruct (i_ptr _ I i o E MA) as (a & P & A). unfold h_ptr. rewrite P. cbn [bind]. eexists _, _. split; [reflexivity|].
  set (m' := h_put _ _ _).
  assert (O : forall k b, own m' k b <-> own m k b /\ k <> i).
  { intros k b. unfold own, m'. cbn [objs h_put h_release]. destruct (Nat.eq_dec k i) as [->|N].
    - rewrite setf_eq. split; [|intros [_ H]; contradiction]. intros (z & X1 & X2 & X3). injection X1 as <-. discriminate.
    - rewrite setf_ne by auto. tauto. }
  assert (OA : own m i a) by (exists o; auto).
  split; [|split].
  - constructor; cbn [size free m' h_put h_release].
    + intros k z X M. unfold m' in X. cbn [objs h_put h_release] in X. destruct (Nat.eq_dec k i) as [->|N].
      * rewrite setf_eq in X. injection X as <-. discriminate.
      * rewrite setf_ne in X by auto. exact (i_ptr _ I k z X M).
    + intros k z X M. unfold m' in X. cbn [objs h_put h_release] in X. destruct (Nat.eq_dec k i) as [->|N].
      * rewrite setf_eq in X. injection X as <-. discriminate.
      * rewrite setf_ne in X by auto. exact (i_bit _ I k z X M).
    + intros k l b X Y. apply O in X, Y. exact (i_one _ I k l b (proj1 X) (proj1 Y)).
    + intros k b X. apply O in X. destruct X as [X N]. intros [<-|F]; [exact (N (i_one _ I k i a X OA))|exact (i_used _ I k b X F)].
    + constructor; [exact (i_used _ I i a OA)|apply I].
    + intros b [<-|B]; auto. now apply (i_free _ I).
    + intros b B. destruct (i_leak _ I b B) as [F|[k K]]; [left; now right|]. destruct (Nat.eq_dec k i) as [->|N]; [|right; exists k; now apply O].
      left. left. destruct K as (z & Z1 & _ & Z3). rewrite E in Z1. injection Z1 as <-. congruence.
  - unfold look, m'. cbn [objs h_put h_release]. rewrite setf_eq. reflexivity.
  - cbn. rewrite MA. repeat split; auto. intros k N. unfold look, m'. cbn [objs h_put h_release]. now rewrite setf_ne by auto.
Qed.
