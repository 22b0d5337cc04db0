(** Watched variables and function tables of the plugin for uninterpreted functions: what holds for the levels below a bound. *)
From Coq Require Import List Arith ZArith QArith Qcanon Bool Lia Lqa Permutation.
From Verif Require Import Base Core_Model Analysis_Model Bool_Model Sat_Base Sat_Inv Sat_Trail Sort_Proofs
  Trail_Model Spec_Trail Trail_Proofs Solver_Model Spec_Theory Theory_Inv Theory_Bool Comb_Bcp
  Lincons_Model Spec_Lincons Lincons_Proofs Lincons_Proofs2 Lra_Model Spec_Lra Lra_Fm Lra_Bounds Lra_Hist Lra_Steps Lra_Keep
  Lra_Range Lra_Good Lra_Confl Lra_Watch Lra_Watch2 Comb_Lra
  Terms_Model Spec_Terms Terms_Proofs TermMgr_Model Spec_TermMgr TermMgr_Base TermMgr_Arith TermMgr_Term
  Internalizer_Model Spec_Internalizer Internalizer_Proofs Uf_Model Spec_Uf Uf_Proofs Uf_Confl Ufcomb_Eq.
Import ListNotations.
Close Scope Qc_scope.
Close Scope Q_scope.
Open Scope nat_scope.

(** ** Assignment_watchlist::on_assign *)
Definition oa (t : trail) (w : list var) (i : nat) : list var :=
  match nth_error w i with Some x => match t_lvl t x with None => swap_nth i 0 w | Some _ => w end | None => w end.
Lemma swap_in {A} i j (l : list A) x : In x (swap_nth i j l) -> In x l.
Proof.
  intros H. apply In_nth_error in H. destruct H as (k & H). unfold swap_nth in H.
  destruct (nth_error l i) as [a|] eqn:Ei; [|eapply nth_error_In; eauto]. destruct (nth_error l j) as [b|] eqn:Ej; [|eapply nth_error_In; eauto].
  assert (S : forall (m : list A) n y z, In y (set_nth n z m) -> y = z \/ In y m).
  { induction m as [|h m IH]; intros [|n] y z Hy; cbn in *; auto; [intuition|]. destruct Hy as [->|Hy]; auto. apply IH in Hy. tauto. }
  apply nth_error_In in H. apply S in H. destruct H as [->|H]; [eapply nth_error_In; eauto|]. apply S in H. destruct H as [->|H]; auto. eapply nth_error_In; eauto.
Qed.
Lemma swap_head {A} i (l : list A) x : nth_error l i = Some x -> nth_error (swap_nth i 0 l) 0 = Some x.
Proof.
  intros E. unfold swap_nth. rewrite E. destruct l as [|a l]; [destruct i; discriminate|]. cbn [nth_error]. 
  destruct i as [|i]; cbn [set_nth]; [exact E|]. reflexivity.
Qed.
Lemma oa_loop t : forall n w, let r := fold_left (oa t) (rev (seq 0 n)) w in
  length r = length w /\ (forall v, In v r -> In v w) /\ ((exists x, nth_error r 0 = Some x /\ t_lvl t x = None) \/ r = w).
Proof.
  induction n as [|n IH]; intros w; cbn zeta; [cbn; auto|]. rewrite seq_S, rev_app_distr. cbn [rev app plus fold_left].
  unfold oa at 2 4 6 8. destruct (nth_error w n) as [x|] eqn:En; [|apply IH]. destruct (t_lvl t x) eqn:Ex; [apply IH|].
  destruct (IH (swap_nth n 0 w)) as (A & B & C). split; [rewrite A; apply swap_nth_length|]. split.
  - intros v Hv. apply B in Hv. eapply swap_in; eauto.
  - destruct C as [C|C]; auto. left. rewrite C. exists x. split; auto. now apply swap_head.
Qed.
Lemma on_assign_ok t w w' : on_assign t w = Ok w' ->
  length w' = length w /\ (forall v, In v w' -> In v w) /\ ((exists x, nth_error w' 0 = Some x /\ t_lvl t x = None) \/ w' = w).
Proof. unfold on_assign. intros E. bi E w0 E0. ba E As. inversion E; subst. apply (oa_loop t (length w) w). Qed.

(** ** the tables only grow *)
Definition fext (F F' : list (term * fmap)) : Prop := forall f vs e, fm_find (fns_get F f) vs = Some e -> fm_find (fns_get F' f) vs = Some e.
Lemma fext_refl F : fext F F. Proof. intros f vs e E. exact E. Qed.
Lemma fext_trans F G K : fext F G -> fext G K -> fext F K. Proof. intros A B f vs e E. auto. Qed.
Lemma get_put F f m g : fns_get (fns_put F f m) g = if t_eqb f g then m else fns_get F g.
Proof.
  unfold fns_get. induction F as [|[h k] F IH]; cbn [fns_put m_find].
  - destruct (t_eqb f g); reflexivity.
  - destruct (t_eqb h f) eqn:E1; cbn [m_find].
    + apply t_eqb_eq in E1. subst h. destruct (t_eqb f g); reflexivity.
    + destruct (t_eqb h g) eqn:E2; auto. apply t_eqb_eq in E2. subst h. destruct (t_eqb f g) eqn:E3; auto.
      apply t_eqb_eq in E3. subst. rewrite (proj2 (t_eqb_eq g g) eq_refl) in E1. discriminate.
Qed.
Lemma find_app m vs e m' : fm_find m vs = Some e -> fm_find (m ++ m') vs = Some e.
Proof. induction m as [|[a x] m IH]; cbn; [discriminate|]. destruct (vals_eqb a vs); auto. Qed.
Lemma find_app_none m vs m' : fm_find m vs = None -> fm_find (m ++ m') vs = fm_find m' vs.
Proof. induction m as [|[a x] m IH]; cbn; auto. destruct (vals_eqb a vs); [discriminate|auto]. Qed.
Lemma put_fext F f e : fext F (fns_put F f (fns_get F f ++ [e])).
Proof.
  intros g vs x E. rewrite get_put. destruct (t_eqb f g) eqn:Eg; auto. apply t_eqb_eq in Eg. subst g. now apply find_app.
Qed.
Lemma vals_eqb_refl vs : vals_eqb vs vs = true.
Proof. induction vs as [|x vs IH]; cbn; auto. now rewrite uval_eqb_refl. Qed.
Lemma vals_eqb_sym : forall a b, vals_eqb a b = vals_eqb b a.
Proof.
  induction a as [|x a IH]; intros [|y b]; cbn; auto. rewrite IH. f_equal.
  destruct x, y; cbn; auto; [now destruct b0, b1|]. apply eq_true_iff_eq. rewrite !Qeq_bool_iff. split; intros; lra.
Qed.
(** removing the entries above a level keeps the others *)
Lemma find_filter k : forall m vs e, fm_find m vs = Some e -> fa_lvl e <= k ->
  fm_find (filter (fun x => negb (k <? fa_lvl (snd x))) m) vs = Some e.
Proof.
  induction m as [|[a x] m IH]; cbn [fm_find]; intros vs e E L; [discriminate|]. destruct (vals_eqb a vs) eqn:V.
  - injection E as ->. cbn [filter snd]. destruct (Nat.ltb_spec k (fa_lvl e)); [lia|]. cbn [negb fm_find]. now rewrite V.
  - cbn [filter snd]. destruct (negb (k <? fa_lvl x)); [cbn [fm_find]; rewrite V|]; now apply IH.
Qed.
Lemma get_map (g : fmap -> fmap) (F : list (term * fmap)) f : fns_get (map (fun e => (fst e, g (snd e))) F) f = match m_find F f with Some m => g m | None => [] end.
Proof. unfold fns_get. induction F as [|[h k] F IH]; cbn [map m_find fst snd]; auto. now destruct (t_eqb h f). Qed.
Lemma bb_find u k f vs e : fm_find (fns_get (u_fns u) f) vs = Some e -> fa_lvl e <= k ->
  fm_find (fns_get (u_fns (uf_before_backtrack u k)) f) vs = Some e.
Proof.
  intros E L. cbn [uf_before_backtrack u_fns]. rewrite (get_map (filter (fun x => negb (k <? fa_lvl (snd x))))). unfold fns_get in E.
  destruct (m_find (u_fns u) f); [now apply find_filter|discriminate].
Qed.

Section W.
Variables (hi : nat -> Z) (hv : Q -> Z) (opt : lopt).
Variable H : hashes.
Variable T : table.
Variable bv : list (term * lit).
Variable rv : list (term * nat).
Hypothesis WF : wf H T.
Hypothesis M : maps_ok T rv.
Variable nq : nat.
Variable ws : list term.
Notation evaluate := (evaluate T bv rv).
Notation evaluate_f := (evaluate_f T bv rv).
Notation eval_args := (eval_args T bv rv).

Lemma evalf_level tr : TT tr -> forall n t x k, evaluate_f n tr t = Ok (x, k) -> k <= dl tr.
Proof.
  intros HT. induction n as [|n IH]; intros t x k E; [discriminate|]. cbn [Uf_Model.evaluate_f] in E.
  destruct (uf_var T bv rv t) as [v|] eqn:V.
  - destruct (t_lvl tr v) as [m|] eqn:Lv; [|discriminate]. cbn [value_of bind] in E. inversion E; subst. eapply tt_le; eauto.
  - destruct (kind_of T t); try discriminate.
    + inversion E; lia.
    + bi E q Eq. inversion E; lia.
    + ba E As. bi E a Ea. bi E b Eb. bi E [y1 m1] E1. bi E [y2 m2] E2. bi E q1 E3. bi E q2 E4. cbn [fst snd] in *. inversion E; subst.
      apply IH in E1, E2. lia.
    + ba E As. revert E. assert (G : forall ts s j, j <= dl tr -> sum_values (evaluate_f n tr) s j ts = Ok (x, k) -> k <= dl tr).
      { induction ts as [|a ts IHt]; intros s j L E; cbn [sum_values] in E; [inversion E; subst; auto|]. bi E [y m] E1. bi E q E2. cbn [fst snd] in *.
        apply IH in E1. eapply IHt; [|exact E]. lia. }
      apply G. lia.
Qed.
Lemma eval_level tr t x k : TT tr -> evaluate tr t = Ok (x, k) -> k <= dl tr.
Proof. intros HT. apply evalf_level; auto. Qed.
Lemma args_level tr : TT tr -> forall ts j vs k, j <= dl tr -> eval_args tr ts j = Ok (vs, k) -> k <= dl tr.
Proof.
  intros HT. induction ts as [|t ts IH]; intros j vs k L E; cbn [Uf_Model.eval_args] in E; [inversion E; subst; auto|].
  bi E [y m] Eq. bi E [ws0 m2] Eq0. cbn [fst snd] in *. inversion E; subst. apply eval_level in Eq; auto. eapply IH; [|exact Eq0]. lia.
Qed.

(** the application is in its table with its value, all at levels up to [j] *)
Definition recorded (F : list (term * fmap)) (t : trail) (tm : term) (j : nat) : Prop :=
  exists vals k1 x k2 f e, eval_args t (get_args T tm) 0 = Ok (vals, k1) /\ evaluate t tm = Ok (x, k2) /\ k1 <= j /\ k2 <= j /\
    fnc_symbol T tm = Ok f /\ fm_find (fns_get F f) vals = Some e /\ uval_eqb (fa_val e) x = true /\ fa_lvl e <= j.
Definition RL (P : nat -> var -> Prop) (F : list (term * fmap)) (t : trail) (x : term * list var) : Prop :=
  forall w0 j, nth_error (snd x) 0 = Some w0 -> t_lvl t w0 = Some j -> P j w0 -> recorded F t (fst x) j.
Definition wl_ok (x : term * list var) : Prop :=
  snd x <> [] /\ (forall v, In v (snd x) -> exists r, v = VRat r /\ r < nq) /\ real_t T (fst x) /\ kind_of T (fst x) = KApp /\ exists v, m_find rv (fst x) = Some v.
Definition RC (k : nat) (u : uf) (t : trail) : Prop := forall x, In x (u_watch u) -> RL (fun j _ => j < k) (u_fns u) t x.
Definition UI (u : uf) (t : trail) : Prop :=
  Forall wl_ok (u_watch u) /\ map fst (u_watch u) = ws /\ tab_ok T bv rv false ws t (u_fns u).
Definition UC (k : nat) (u : uf) (t : trail) : Prop := UI u t /\ RC k u t.

Lemma recorded_pres F F' t t' tm j : fext F F' -> pres j t t' -> recorded F t tm j -> recorded F' t' tm j.
Proof.
  intros FE P (vals & k1 & x & k2 & f & e & A1 & A2 & A3 & A4 & A5 & A6 & A7 & A8). exists vals, k1, x, k2, f, e.
  split; [eapply args_pres; [exact P|exact A1|lia]|]. split; [eapply eval_pres; [exact P|exact A2|lia]|]. auto 10.
Qed.
Lemma RL_keep (P P' : nat -> var -> Prop) F F' t t' x : fext F F' -> wl_ok x ->
  (forall r j, P' j (VRat r) -> lv t' r = Some j -> P j (VRat r) /\ lv t r = Some j /\ pres j t t') -> RL P F t x -> RL P' F' t' x.
Proof.
  intros FE (_ & RT & _) K R w0 j E0 Lw HP. destruct (RT w0 (nth_error_In _ _ E0)) as (r & -> & _).
  destruct (K r j HP Lw) as (K1 & K2 & K3). eapply recorded_pres; [exact FE|exact K3|]. eapply R; eauto.
Qed.
Lemma UC_mono k k' u t : k' <= k -> UC k u t -> UC k' u t.
Proof. intros L [A B]. split; auto. intros x Hx w0 j E0 Lw HP. eapply B; eauto. cbn in *. lia. Qed.
Lemma UC_keep k u t t' : keep_all t t' -> (forall r j, j < k -> lv t' r = Some j -> lv t r = Some j) -> UC k u t -> UC k u t'.
Proof.
  intros K L [(A1 & A2 & A3) B]. split.
  - split; auto. split; auto. eapply tab_keep; eauto.
  - intros x Hx. pose proof (proj1 (Forall_forall _ _) A1 x Hx) as Wx. eapply RL_keep; [apply fext_refl|exact Wx| |exact (B x Hx)].
    intros r j Hj Lr. cbn in *. auto.
Qed.
Lemma kx_pres k j t t' : kx k t t' -> j < k -> pres j t t'.
Proof.
  intros K L v l E Ll. destruct (K v l ltac:(lia)) as [K1 K2]. split; [now apply K1|]. specialize (K2 E).
  unfold sameval in K2. unfold var_val. destruct v; congruence.
Qed.
(** backtracking *)
Lemma UC_back k k' u t t' : kx (S k) t t' -> k' <= S k -> UC k' u t -> UC k' (uf_before_backtrack u k) t'.
Proof.
  intros K L [(A1 & A2 & A3) B]. split.
  - split; [exact A1|]. split; [exact A2|]. eapply bb_tab; [exact A3|]. eapply kx_pres; [exact K|lia].
  - intros x Hx w0 j E0 Lw HP. cbn [uf_before_backtrack u_watch] in Hx. assert (Lw' : t_lvl t w0 = Some j) by (apply (K w0 j ltac:(lia)); exact Lw).
    destruct (B x Hx w0 j E0 Lw' HP) as (vals & k1 & v & k2 & f & e & X1 & X2 & X3 & X4 & X5 & X6 & X7 & X8).
    assert (P : pres j t t') by (eapply kx_pres; [exact K|lia]). exists vals, k1, v, k2, f, e.
    split; [eapply args_pres; [exact P|exact X1|lia]|]. split; [eapply eval_pres; [exact P|exact X2|lia]|]. split; auto. split; auto. split; auto.
    split; [|auto]. apply bb_find; auto. lia.
Qed.
(** restarting: every entry of the tables has a positive level *)
Lemma UC_restart u t t' : R1 t -> UC 0 u t -> UC 0 (uf_before_backtrack u 0) t'.
Proof.
  intros R [(A1 & A2 & A3) B]. split; [|intros x Hx w0 j E0 Lw HP; cbn in HP; lia]. split; [exact A1|]. split; [exact A2|].
  intros f m e Hf He. exfalso. cbn [uf_before_backtrack u_fns] in Hf. apply in_map_iff in Hf. destruct Hf as ([g n] & Eg & Hn). cbn [fst snd] in Eg.
  injection Eg as -> <-. apply filter_In in He. destruct He as [He Lv]. apply negb_true_iff, Nat.ltb_ge in Lv.
  destruct (A3 f n e Hn He) as (C1 & C2 & C3 & C4). destruct (C4 (or_introl eq_refl)) as (k1 & k2 & D1 & D2 & D3).
  rewrite <- A2 in C3. apply in_map_iff in C3. destruct C3 as (x & Ex & Hx). pose proof (proj1 (Forall_forall _ _) A1 x Hx) as (_ & _ & Rx & Kx & v & Fv).
  rewrite Ex in *. unfold Uf_Model.evaluate in D2. destruct (ev_var T bv rv _ t _ _ _ (conj Rx (or_intror (or_intror C1))) D2) as (v' & _ & _ & V3).
  apply (R v'). rewrite V3. f_equal. lia.
Qed.

(** ** propagate *)
Variables (d : db) (ent : lit -> Prop).
(** registered applications of the same function have real arguments whose variables do not cancel *)
Definition argpair (x y : term) : Prop := real_t T x /\ real_t T y /\ nocancel T bv rv x y.
Definition nc_ok : Prop := forall t1 t2 f, In t1 ws -> In t2 ws -> t1 <> t2 -> fnc_symbol T t1 = Ok f -> fnc_symbol T t2 = Ok f ->
  real_t T t1 /\ real_t T t2 /\ Forall2 argpair (get_args T t1) (get_args T t2).
Hypothesis NC : nc_ok.
Lemma nc_cov : cov T ws.
Proof.
  intros t1 t2 f I1 I2 N S1 S2. destruct (NC t1 t2 f I1 I2 N S1 S2) as (A & B & C). split; auto. split; auto.
  clear -C. induction C as [|x y l1 l2 (X & Y & _)]; constructor; auto. right; auto.
Qed.
Notation asserted := (asserted hi hv opt d ent).
Lemma fx_keep t t' : TT t -> fx t t' -> keep_all t t'.
Proof.
  intros HT F k v l E L. destruct v as [i|x].
  - assert (R : i < mnum (t_bm t)) by (apply tt_range in E; auto; cbn in E; now apply Nat.ltb_lt).
    split; [now rewrite (fx_lvl _ _ F)|]. unfold var_val. now rewrite (proj2 (fx_b _ _ F i R)).
  - split; [change (lv t' x = Some l); now rewrite (fx_lv _ _ F)|]. unfold var_val. rewrite (fx_q _ _ F); auto. apply tt_q; auto. unfold lv. congruence.
Qed.
Lemma apps_nocancel t u : kind_of T t = KApp -> kind_of T u = KApp -> real_t T t -> real_t T u -> nocancel T bv rv t u.
Proof.
  intros K1 K2 Rt Ru p1 p2 E1 E2. destruct (app_poly T bv rv t p1 K1 (proj1 (proj2 Rt)) E1) as (v & V1 & ->).
  destruct (app_poly T bv rv u p2 K2 (proj1 (proj2 Ru)) E2) as (w & V2 & ->).
  cbn [poly_sub poly_add p_terms fold_left map fst snd poly_insert]. destruct (Nat.eqb_spec v w) as [->|N]; cbn zeta.
  - left. reflexivity.
  - right. cbn. intros x Hx. exact Hx.
Qed.
Lemma afv_fin F a t tm F' a' t' cs : wsi a -> JO (l_st a) (l_watch a) t -> tab_ok T bv rv false ws t F -> In tm ws -> real_t T tm ->
  add_function_value hi hv opt T bv rv F a t tm = Ok (F', a', t', cs) ->
  asserted a t a' t' /\ (forall c, In c cs -> all_false t' c) /\ fext F F' /\
  (cs = [] -> a' = a /\ t' = t /\ recorded F' t tm (dl t)).
Proof.
  intros Ha HJ TA Iw Rt E. pose proof (jo_t _ _ _ HJ) as HT. unfold add_function_value in E. ba E As. apply k_eqb_eq in As. bi E [vals k] Ev. bi E [x kx] Ex. bi E f Ef. cbn zeta in E. cbn [fst snd] in E.
  pose proof (args_level t HT _ _ _ _ (Nat.le_0_l _) Ev) as Lk. pose proof (eval_level t _ _ _ HT Ex) as Lx.
  destruct (fm_find _ _) as [e|] eqn:FM.
  2:{ inversion E; subst. split; [now apply asserted_refl|]. split; [intros c []|]. split; [apply put_fext|]. intros _. split; auto. split; auto.
      exists vals, k, x, kx, f, (mkFa x tm (Nat.max k kx)). split; auto. split; auto. split; auto. split; auto. split; auto.
      split; [|split; [apply uval_eqb_refl|cbn; lia]]. rewrite get_put, (proj2 (t_eqb_eq f f) eq_refl), find_app_none by auto. cbn. now rewrite vals_eqb_refl. }
  pose proof FM as FM'. apply fm_find_in in FM'. destruct FM' as [k' FM']. apply get_in in FM'. destruct FM' as (m & M1 & M2).
  destruct (TA f m (k', e) M1 M2) as (C1 & C2 & C3 & C4). cbn [snd] in *. destruct (C4 (or_introl eq_refl)) as (k1 & k2 & D1 & D2 & D3). cbn [fst snd] in *.
  destruct (uval_eqb (fa_val e) x) eqn:UE.
  { inversion E; subst. split; [now apply asserted_refl|]. split; [intros c []|]. split; [apply fext_refl|]. intros _. split; auto. split; auto.
    exists vals, k, x, kx, f, e. split; auto. split; auto. split; auto. split; auto. split; auto. split; auto. split; auto.
    pose proof (args_level _ HT _ _ _ _ (Nat.le_0_l _) D1). pose proof (eval_level _ _ _ _ HT D2). lia. }
  bi E [[a1 t1] c1] E1. bi E [[a2 t2] c2] E2. inversion E; subst. clear E.
  assert (VE : vals_eqb k' vals = true).
  { clear -FM M1 M2 D1 Ev C2 Ef TA.
    assert (G : forall m0 : fmap, fm_find m0 vals = Some e -> exists k0, In (k0, e) m0 /\ vals_eqb k0 vals = true).
    { induction m0 as [|[k0 e0] m0 IH]; cbn; [discriminate|]. destruct (vals_eqb k0 vals) eqn:V; [intros [= ->]; eauto|]. intros X. destruct (IH X) as (k3 & X1 & X2). eauto. }
    destruct (G _ FM) as (k0 & G1 & G2). apply get_in in G1. destruct G1 as (m' & G3 & G4). destruct (TA f m' (k0, e) G3 G4) as (_ & _ & _ & C4).
    destruct (C4 (or_introl eq_refl)) as (j1 & j2 & B1 & _). cbn [fst snd] in B1. rewrite D1 in B1. injection B1 as -> _. exact G2. }
  assert (TE : tm <> fa_app e).
  { intros X. rewrite X, D2 in Ex. injection Ex as <- <-. rewrite uval_eqb_refl in UE. discriminate. }
  destruct (NC (fa_app e) tm f C3 Iw) as (Re & _ & FP); auto.
  destruct (args_fin hi hv opt H T bv rv WF M d ent _ _ _ _ _ _ _ _ _ _ _ _ _ _ FP Ha HJ D1 Ev VE (fun l (Hl : In l []) => match Hl with end) E1) as [A1 A2].
  destruct (as_fin _ _ _ _ _ _ _ _ _ A1) as (Ha1 & HJ1 & Fx1 & _). pose proof (fx_keep _ _ HT Fx1) as K1.
  assert (XE : uval_eqb x (fa_val e) = negb true).
  { change (negb true) with false. rewrite <- UE. clear. destruct x, (fa_val e); cbn; auto; [now destruct b, b0|]. apply eq_true_iff_eq. rewrite !Qeq_bool_iff. split; intros; lra. }
  destruct (aeq_fin hi hv opt H T bv rv WF M d ent tm (fa_app e) a1 t1 c1 true a' t' c2 x kx (fa_val e) k2 Rt Re Ha1 HJ1
    (eval_pres T bv rv _ _ _ _ _ _ (K1 kx) Ex (le_n _)) (eval_pres T bv rv _ _ _ _ _ _ (K1 k2) D2 (le_n _)) XE (apps_nocancel _ _ As C1 Rt Re) A2 E2) as [B1 B2].
  split; [eapply asserted_trans; eauto|]. split; [intros c [<-|[]]; exact B2|]. split; [apply fext_refl|discriminate].
Qed.
Lemma RL_asserted (P : nat -> var -> Prop) F F' a t a' t' x : TT t -> asserted a t a' t' -> fext F F' -> wl_ok x -> RL P F t x -> RL P F' t' x.
Proof.
  intros HT A FE Wx R. destruct (as_fin _ _ _ _ _ _ _ _ _ A) as (_ & _ & Fx & _). eapply RL_keep; [exact FE|exact Wx| |exact R].
  intros r j HP Lr. split; auto. split; [now rewrite <- (fx_lv _ _ Fx)|]. now apply fx_keep.
Qed.
Definition low (t : trail) (j : nat) (v : var) : Prop := j < dl t.
Lemma pass_fin : forall v wl F a t wl' F' a' t' cs, wsi a -> JO (l_st a) (l_watch a) t -> tab_ok T bv rv false ws t F ->
  (forall x, In x wl -> In (fst x) ws) -> Forall wl_ok wl -> Forall (RL (low t) F t) wl ->
  watch_pass hi hv opt T bv rv v wl F a t = Ok (wl', F', a', t', cs) ->
  asserted a t a' t' /\ (forall c, In c cs -> all_false t' c) /\ fext F F' /\ Forall wl_ok wl' /\ Forall (RL (low t') F' t') wl' /\
  (cs = [] -> a' = a /\ t' = t /\ forall V, Forall (RL (fun j w => j < dl t \/ In w V) F t) wl -> Forall (RL (fun j w => j < dl t \/ In w (v :: V)) F' t) wl').
Proof.
  intros v. induction wl as [|[tm w] wl IH]; intros F a t wl' F' a' t' cs Ha HJ TA J FW FR E; cbn [watch_pass] in E.
  - inversion E; subst. split; [now apply asserted_refl|]. split; [intros c []|]. split; [apply fext_refl|]. split; [constructor|]. split; [constructor|].
    intros _. split; auto.
  - inversion FW as [|? ? Wx FW']; subst. inversion FR as [|? ? Rx FR']; subst. pose proof (jo_t _ _ _ HJ) as HT.
    assert (It : In tm ws) by (apply (J (tm, w)); left; auto). assert (J' : forall x, In x wl -> In (fst x) ws) by (intros x Ix; apply J; now right).
    bi E w0 Ew. apply at_in in Ew. destruct (var_eqb_spec v w0) as [->|NV].
    + bi E w1 Ew1. bi E al Eal. bi E [[[F1 a3] t1] c1] Eq2. bi E [[[[ws2 F2] a4] t2] c2] Eq3. inversion E; subst. clear E.
      destruct (on_assign_ok _ _ _ Ew1) as (O1 & O2 & O3).
      assert (X : asserted a t a3 t1 /\ (forall c, In c c1 -> all_false t1 c) /\ fext F F1 /\ tab_ok T bv rv false ws t1 F1 /\
        (al = true -> w1 = w /\ (c1 = [] -> a3 = a /\ t1 = t /\ recorded F1 t tm (dl t))) /\
        (al = false -> a3 = a /\ t1 = t /\ F1 = F /\ c1 = [] /\ exists x, nth_error w1 0 = Some x /\ t_lvl t x = None)).
      { unfold all_assigned in Eal. bi Eal w2 Ew2. apply at_in in Ew2. inversion Eal as [Eal']. destruct (t_lvl t w2) as [j2|] eqn:L2; subst al.
        - destruct (afv_fin _ _ _ _ _ _ _ _ Ha HJ TA It (proj1 (proj2 (proj2 Wx))) Eq2) as (A1 & A2 & A3 & A4).
          split; auto. split; auto. split; auto. split; [exact (proj1 (afv_ok hi hv opt T bv rv false ws _ _ _ _ _ _ _ _ (tt_tl _ HT) TA It Eq2))|]. split; [|discriminate].
          intros _. split; auto. destruct O3 as [(x & X1 & X2)|O3]; auto. congruence.
        - inversion Eq2; subst. split; [now apply asserted_refl|]. split; [intros c []|]. split; [apply fext_refl|]. split; auto. split; [discriminate|].
          intros _. split; auto. split; auto. split; auto. split; auto. eauto. }
      destruct X as (X1 & X2 & X3 & X4 & X5 & X6). destruct (as_fin _ _ _ _ _ _ _ _ _ X1) as (Ha1 & HJ1 & Fx1 & _).
      assert (Wx1 : wl_ok (tm, w1)).
      { destruct Wx as (N0 & N1 & N2). cbn [fst snd] in *. split; [cbn [snd]; intros Z; rewrite Z in O1; destruct w; [congruence|discriminate O1]|]. split; [intros y Hy; apply N1; auto|exact N2]. }
      assert (FR1 : Forall (RL (low t1) F1 t1) wl).
      { apply Forall_forall. intros y Hy. rewrite Forall_forall in FR', FW'. unfold low. rewrite (fx_dl _ _ Fx1). eapply RL_asserted; [exact HT|exact X1|exact X3|now apply FW'|apply (FR' y Hy)]. }
      destruct (IH _ _ _ _ _ _ _ _ Ha1 HJ1 X4 J' FW' FR1 Eq3) as (Y1 & Y2 & Y3 & Y4 & Y5 & Y6).
      destruct (as_fin _ _ _ _ _ _ _ _ _ Y1) as (_ & _ & Fx2 & _). pose proof (jo_t _ _ _ HJ1) as HT1.
      split; [eapply asserted_trans; eauto|]. split.
      { intros c Hc. apply in_app_iff in Hc. destruct Hc as [Hc|Hc]; [|now apply Y2]. intros l Hl. apply (as_false _ _ _ _ _ _ _ _ _ Y1). now apply (X2 c Hc). }
      split; [eapply fext_trans; eauto|]. split; [constructor; auto|]. split.
      { constructor; auto. unfold low. rewrite (fx_dl _ _ Fx2), (fx_dl _ _ Fx1). eapply (RL_asserted _ F1 F'); [exact HT1|exact Y1|exact Y3|exact Wx1|].
        destruct al.
        - destruct (X5 eq_refl) as [-> _]. eapply (RL_asserted _ F F1); [exact HT|exact X1|exact X3|exact Wx|exact Rx].
        - destruct (X6 eq_refl) as (-> & -> & -> & _ & x & X7 & X8). intros w2 j E2 L2 _. cbn [snd] in E2. congruence. }
      intros Ec. apply app_eq_nil in Ec. destruct Ec as [-> ->]. destruct (Y6 eq_refl) as (-> & -> & Y7).
      assert (Z : a3 = a /\ t1 = t) by (destruct al; [destruct (X5 eq_refl) as [_ Z]; destruct (Z eq_refl) as (? & ? & _); auto|destruct (X6 eq_refl) as (? & ? & _); auto]).
      destruct Z as [-> ->]. split; auto. split; auto. intros V FV. inversion FV as [|? ? Vx FV']; subst. constructor.
      * destruct al.
        -- destruct (X5 eq_refl) as [-> Z]. destruct (Z eq_refl) as (_ & _ & Z'). intros w2 j E2 L2 HP. cbn [snd] in E2. rewrite Ew in E2. injection E2 as <-. cbn [fst].
           destruct (Nat.eq_dec j (dl t)) as [->|Nj].
           ++ eapply recorded_pres; [exact Y3|apply pres_refl|exact Z'].
           ++ eapply recorded_pres; [eapply fext_trans; [exact X3|exact Y3]|apply pres_refl|]. apply (Rx w0 j Ew L2). unfold low. apply tt_le in L2; auto. lia.
        -- destruct (X6 eq_refl) as (_ & _ & _ & _ & x & X7 & X8). intros w2 j E2 L2 _. cbn [snd] in E2. congruence.
      * apply Y7. apply Forall_forall. intros y Hy w2 j E2 L2 HP. eapply recorded_pres; [exact X3|apply pres_refl|]. rewrite Forall_forall in FV'. eapply FV'; eauto.
    + bi E [[[[ws2 F2] a4] t2] c2] Eq3. inversion E; subst. clear E.
      destruct (IH _ _ _ _ _ _ _ _ Ha HJ TA J' FW' FR' Eq3) as (Y1 & Y2 & Y3 & Y4 & Y5 & Y6).
      destruct (as_fin _ _ _ _ _ _ _ _ _ Y1) as (_ & _ & Fx2 & _).
      split; auto. split; auto. split; auto. split; [constructor; auto|]. split.
      { constructor; auto. unfold low. rewrite (fx_dl _ _ Fx2). eapply (RL_asserted _ F F'); [exact HT|exact Y1|exact Y3|exact Wx|exact Rx]. }
      intros Ec. destruct (Y6 Ec) as (-> & -> & Y7). split; auto. split; auto. intros V FV. inversion FV as [|? ? Vx FV']; subst. constructor; auto.
      intros w2 j E2 L2 HP. cbn [snd] in E2. rewrite Ew in E2. injection E2 as <-. eapply recorded_pres; [exact Y3|apply pres_refl|]. apply (Vx w0 j Ew L2). destruct HP as [HP|[HP|HP]]; auto. congruence.
Qed.
Lemma loop_fin : forall vs u a t u' a' t' cs, wsi a -> JO (l_st a) (l_watch a) t -> UC (dl t) u t ->
  assigned_loop hi hv opt T bv rv vs u a t = Ok (u', a', t', cs) ->
  asserted a t a' t' /\ (forall c, In c cs -> all_false t' c) /\ UC (dl t') u' t' /\
  (cs = [] -> a' = a /\ t' = t /\ forall V, Forall (RL (fun j w => j < dl t \/ In w V) (u_fns u) t) (u_watch u) ->
     Forall (RL (fun j w => j < dl t \/ In w (map fst vs) \/ In w V) (u_fns u') t) (u_watch u')).
Proof.
  induction vs as [|v vs IH]; intros u a t u' a' t' cs Ha HJ UCu E; cbn [assigned_loop] in E.
  - inversion E; subst. split; [now apply asserted_refl|]. split; [intros c []|]. split; auto. intros _. split; auto. split; auto. intros V FV.
    eapply Forall_impl; [|exact FV]. intros y Ry w0 j E0 L0 HP. eapply Ry; eauto. cbn in HP. tauto.
  - bi E [[[[wl F] a1] t1] c1] Eq. bi E [[[u2 a2] t2] c2] Eq0. inversion E; subst. destruct UCu as [(A1 & A2 & A3) B].
    assert (J : forall x, In x (u_watch u) -> In (fst x) ws) by (intros x Ix; rewrite <- A2; now apply in_map).
    assert (FR : Forall (RL (low t) (u_fns u) t) (u_watch u)) by (apply Forall_forall; exact B).
    destruct (pass_fin _ _ _ _ _ _ _ _ _ _ Ha HJ A3 J A1 FR Eq) as (X1 & X2 & X3 & X4 & X5 & X6).
    destruct (pass_ok hi hv opt T bv rv false ws _ _ _ _ _ _ _ _ _ _ (tt_tl _ (jo_t _ _ _ HJ)) A3 J Eq) as (P1 & P2 & P3).
    destruct (as_fin _ _ _ _ _ _ _ _ _ X1) as (Ha1 & HJ1 & Fx1 & _).
    assert (UC1 : UC (dl t1) (mkUf wl F) t1).
    { split; [split; [exact X4|split; [cbn [u_watch]; rewrite P3; exact A2|exact P1]]|]. intros x Hx. rewrite Forall_forall in X5. now apply X5. }
    destruct (IH _ _ _ _ _ _ _ Ha1 HJ1 UC1 Eq0) as (Y1 & Y2 & Y3 & Y4).
    split; [eapply asserted_trans; eauto|]. split.
    { intros c Hc. apply in_app_iff in Hc. destruct Hc as [Hc|Hc]; [|now apply Y2]. intros l Hl. apply (as_false _ _ _ _ _ _ _ _ _ Y1). now apply (X2 c Hc). }
    split; auto. intros Ec. apply app_eq_nil in Ec. destruct Ec as [-> ->]. destruct (X6 eq_refl) as (-> & -> & X7). destruct (Y4 eq_refl) as (-> & -> & Y5).
    split; auto. split; auto. intros V FV. specialize (Y5 _ (X7 V FV)). eapply Forall_impl; [|exact Y5]. intros y Ry w0 j E0 L0 HP. eapply Ry; eauto.
    cbn [map In] in *. tauto.
Qed.
Lemma uf_step u a t u' a' t' cs : wsi a -> JO (l_st a) (l_watch a) t -> UC (dl t) u t ->
  uf_propagate hi hv opt T bv rv u a t = Ok (u', a', t', cs) ->
  asserted a t a' t' /\ UC (dl t') u' t' /\ (cs = [] -> a' = a /\ t' = t /\ UC (S (dl t)) u' t) /\
  (forall c, In c cs -> c <> [] /\ lem0 T rv (l_st a') c /\ all_false t' c).
Proof.
  intros Ha HJ UCu E. unfold uf_propagate in E. pose proof UCu as [(A1 & A2 & A3) B].
  destruct (loop_fin _ _ _ _ _ _ _ _ Ha HJ UCu E) as (X1 & X2 & X3 & X4).
  destruct (loop_good hi hv opt H T bv rv WF M false ws nc_cov _ _ _ _ _ _ _ _ (tt_tl _ (jo_t _ _ _ HJ)) A2 A3 Ha E) as (_ & _ & G).
  split; auto. split; auto. split.
  - intros Ec. destruct (X4 Ec) as (-> & -> & X5). split; auto. split; auto. destruct X3 as [X3 _]. split; auto.
    assert (F0 : Forall (RL (fun j w => j < dl t \/ In w []) (u_fns u) t) (u_watch u)).
    { apply Forall_forall. intros x Hx w0 j E0 L0 [HP|[]]. eapply B; eauto. }
    specialize (X5 _ F0). intros x Hx w0 j E0 L0 HP. rewrite Forall_forall in X5. apply (X5 x Hx w0 j E0 L0).
    destruct (Nat.eq_dec j (dl t)) as [->|Nj]; [|left; lia]. right. left. rewrite map_rev. apply in_rev. rewrite rev_involutive. apply tt_recent; auto. apply HJ.
  - intros c Hc. destruct (G c Hc) as [G1 G2]. specialize (G1 eq_refl). auto.
Qed.
End W.
