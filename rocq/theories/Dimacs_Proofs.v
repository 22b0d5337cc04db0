(** Proofs for C51. *)
From Coq Require Import Ascii String List Arith ZArith NArith Bool Lia Permutation.
From Verif Require Import Base Core_Model Bool_Model Trail_Model Solver_Model Spec_Sat Sat_Wrap Lexer_Model Spec_Decimal Print_Proofs Dimacs_Model Spec_Dimacs.
Import ListNotations.
Open Scope nat_scope.

(** ** Lines *)
Lemma lines_line cur l s : one_line l -> lines cur (l ++ nl ++ s) = (rev cur ++ l) :: lines [] s.
Proof.
  intros O. revert cur. induction O as [|c l N O IH]; intros cur.
  - cbn. now rewrite app_nil_r.
  - cbn [app lines]. unfold newline, code. destruct (Nat.eqb_spec (nat_of_ascii c) 10); [contradiction|]. rewrite IH. cbn [rev]. now rewrite <- app_assoc.
Qed.
Lemma lines_last cur l : one_line l -> lines cur l = match rev cur ++ l with [] => [] | x => [x] end.
Proof.
  intros O. revert cur. induction O as [|c l N O IH]; intros cur.
  - cbn [lines]. rewrite app_nil_r. destruct cur as [|a cur]; [reflexivity|]. destruct (rev (a :: cur)) eqn:E; [|reflexivity]. apply (f_equal (@length _)) in E. rewrite rev_length in E. discriminate E.
  - cbn [lines]. unfold newline, code. destruct (Nat.eqb_spec (nat_of_ascii c) 10); [contradiction|]. rewrite IH. cbn [rev]. now rewrite <- app_assoc.
Qed.
Lemma lines_all ls s : Forall one_line ls -> lines [] (concat (map (fun l => l ++ nl) ls) ++ s) = ls ++ lines [] s.
Proof.
  induction 1 as [|l ls O F IH]; [reflexivity|]. cbn [map concat]. rewrite <- !app_assoc. rewrite lines_line by assumption. cbn [rev app]. now rewrite IH.
Qed.
Lemma read_lines_app ls ls' : forall r, read_lines r (ls ++ ls') = (x <- read_lines r ls ;; match x with Go r' => read_lines r' ls' | _ => Ok x end).
Proof.
  induction ls as [|l ls IH]; intros r; [reflexivity|]. cbn [app read_lines]. destruct (read_line r l) as [[r'| |]| |]; cbn [bind]; try reflexivity. apply IH.
Qed.
Lemma read_empty r : read_line r [] = Ok (Go r).
Proof. reflexivity. Qed.
Lemma read_text ls s r : Forall one_line ls -> text_of ls s -> read_lines r (lines [] s) = read_lines r ls.
Proof.
  intros F [->|(ls' & l & -> & ->)].
  - rewrite <- (app_nil_r (concat _)). rewrite lines_all by assumption. cbn [lines]. now rewrite app_nil_r.
  - apply Forall_app in F. destruct F as [F F1]. rewrite lines_all by assumption. rewrite lines_last by now inversion F1.
    cbn [rev app]. destruct l as [|c l]; [|reflexivity]. rewrite app_nil_r. rewrite read_lines_app. cbn [read_lines]. rewrite ?read_empty. cbn [bind].
    destruct (read_lines r ls') as [[r'| |]| |]; reflexivity.
Qed.

(** ** Numbers *)
Lemma space_b c : space c -> spaceb c = true.
Proof.
  unfold space, spaceb, code. intros [<-|[<-|[<-|[<-|[<-|[]]]]]]; reflexivity.
Qed.
Lemma spaces_b s : spaces s -> forallb spaceb s = true.
Proof. intros F. apply forallb_forall. intros c I. apply space_b. unfold spaces in F. rewrite Forall_forall in F. auto. Qed.
Lemma digit_b c : is_digit c -> digitb c = true /\ spaceb c = false /\ digit_val c = digit_value c /\ newline c = false.
Proof. intros I. cbn in I. repeat (destruct I as [<-|I]; [vm_compute; auto|]). destruct I. Qed.
Lemma digits_b s : Forall is_digit s -> forallb digitb s = true.
Proof. intros F. apply forallb_forall. intros c I. apply digit_b. rewrite Forall_forall in F. auto. Qed.
Lemma space_not_digit c : space c -> digitb c = false.
Proof.
  unfold space, digitb, between, code. intros S. cbn in S.
  change (nat_of_ascii "0") with 48. change (nat_of_ascii "9") with 57. destruct (Nat.leb_spec 48 (nat_of_ascii c)); [|reflexivity]. lia.
Qed.
Lemma number_acc ds : Forall is_digit ds -> forall z, fold_left (fun z c => 10 * z + digit_val c)%Z ds z = (z * 10 ^ Z.of_nat (length ds) + digits_value ds)%Z.
Proof.
  induction 1 as [|c ds D F IH]; intros z; [cbn; lia|]. cbn [fold_left length digits_value]. rewrite IH. destruct (digit_b c D) as (_ & _ & -> & _).
  rewrite Nat2Z.inj_succ, Z.pow_succ_r by lia. lia.
Qed.
Lemma number_ok ds : Forall is_digit ds -> number ds = digits_value ds.
Proof. intros F. unfold number. rewrite number_acc by assumption. lia. Qed.

Definition stops (r : text) : Prop := match r with [] => True | c :: _ => digitb c = false end.
Lemma stops_spaces q r : q <> [] -> spaces q -> stops (q ++ r).
Proof. intros N S. destruct q as [|c q]; [contradiction|]. inversion S; subst. cbn. now apply space_not_digit. Qed.
Lemma stops_blank q : spaces q -> stops q.
Proof. intros S. destruct q as [|c q]; [exact I|]. rewrite <- (app_nil_r (c :: q)). apply stops_spaces; [discriminate|exact S]. Qed.
Definition visible (s : text) : Prop := match s with [] => False | c :: _ => spaceb c = false end.
Lemma numeral_visible z s r : numeral z s -> visible (s ++ r).
Proof. intros [ds N F|ds N F]; [|reflexivity]. destruct ds as [|c ds]; [contradiction|]. inversion F; subst. cbn. now apply digit_b. Qed.
Lemma trim_spaces p s : spaces p -> match s with [] => True | c :: _ => spaceb c = false end -> trim (p ++ s) = s.
Proof. intros S V. unfold trim. now rewrite (span_all spaceb p s (spaces_b p S) V). Qed.
Lemma trim_blank s : spaces s -> trim s = [].
Proof. intros S. rewrite <- (app_nil_r s). now apply trim_spaces. Qed.
Lemma vis_cond s : visible s -> match s with [] => True | c :: _ => spaceb c = false end.
Proof. destruct s; auto. Qed.
Lemma read_numeral z p s r : spaces p -> numeral z s -> stops r -> fits_int z = true -> read_int (p ++ s ++ r) = Some (z, r).
Proof.
  intros P N S FI. unfold read_int. rewrite (trim_spaces p (s ++ r) P (vis_cond _ (numeral_visible z s r N))). cbv zeta.
  destruct N as [ds NE F|ds NE F].
  - destruct ds as [|c ds]; [contradiction|]. cbn [app]. inversion F as [|? ? D F']; subst.
    assert (E : Ascii.eqb c "-" = false /\ Ascii.eqb c "+" = false).
    { clear -D. cbn in D. repeat (destruct D as [<-|D]; [vm_compute; auto|]). destruct D. }
    destruct E as [-> ->]. change (c :: ds ++ r) with ((c :: ds) ++ r). rewrite (span_all digitb (c :: ds) r (digits_b _ F) S). cbv iota beta.
    rewrite (number_ok _ F). replace (1 * digits_value (c :: ds))%Z with (digits_value (c :: ds)) by lia. now rewrite FI.
  - cbn [app]. change (Ascii.eqb "-" "-") with true. cbv iota beta. rewrite (span_all digitb ds r (digits_b _ F) S). cbv iota beta. destruct ds as [|c ds]; [contradiction|].
    rewrite (number_ok _ F). replace (-1 * digits_value (c :: ds))%Z with (- digits_value (c :: ds))%Z by lia. now rewrite FI.
Qed.
Lemma read_blank s : spaces s -> read_int s = None.
Proof. intros S. unfold read_int. now rewrite (trim_blank s S). Qed.

(** ** Lines of numbers *)
Fixpoint feed (r : reader) (zs : list Z) : reading :=
  match zs with [] => Go r | z :: zs' => match read_lit r z with Go r' => feed r' zs' | x => x end end.
Lemma feed_app zs zs' : forall r, feed r (zs ++ zs') = match feed r zs with Go r' => feed r' zs' | x => x end.
Proof. induction zs as [|z zs IH]; intros r; [reflexivity|]. cbn [app feed]. destruct (read_lit r z); auto. Qed.
Lemma nums_read zs s : nums zs s -> Forall (fun z => fits_int z = true) zs -> forall fuel r, length zs <= fuel -> read_lits fuel r s = Ok (feed r zs).
Proof.
  induction 1 as [s S|z p s q P N Q|z zs p s q r0 P N NE Q R IH]; intros F fuel r L.
  - destruct fuel; cbn [read_lits]; rewrite (read_blank s S); reflexivity.
  - inversion F; subst. destruct fuel as [|f]; [cbn in L; lia|]. cbn [read_lits].
    rewrite (read_numeral z p s q) by (auto; now apply stops_blank).
    cbn [feed]. destruct (read_lit r z); auto. destruct f; cbn [read_lits]; rewrite (read_blank q Q); reflexivity.
  - inversion F; subst. destruct fuel as [|f]; [cbn in L; lia|]. cbn [read_lits].
    rewrite (read_numeral z p s (q ++ r0)) by (auto; now apply stops_spaces). cbn [feed]. destruct (read_lit r z); auto.
    rewrite <- IH with (fuel := f) by (auto; cbn in L; lia).
    clear -Q R. destruct f as [|f]; cbn [read_lits]; replace (read_int (q ++ r0)) with (read_int r0); auto;
      (unfold read_int; replace (trim (q ++ r0)) with (trim r0); [reflexivity|]; unfold trim;
       induction Q as [|c q S Q IH]; [reflexivity|]; cbn [app span]; rewrite (space_b c S); cbn [snd]; exact IH).
Qed.
Lemma numeral_len z s : numeral z s -> 1 <= length s.
Proof. intros [ds N F|ds N F]; [destruct ds; [contradiction|cbn; lia]|cbn; lia]. Qed.
Lemma nums_len zs s : nums zs s -> length zs <= length s.
Proof.
  induction 1 as [s S|z p s q P N Q|z zs p s q r0 P N NE Q R IH]; cbn [length]; [lia| |]; rewrite !app_length; pose proof (numeral_len z s N); lia.
Qed.
(** without the leading spaces: nothing, or a digit or minus first *)
Lemma nums_trim zs s : nums zs s -> nums zs (trim s) /\ match trim s with [] => True | c :: _ => is_digit c \/ c = "-"%char end.
Proof.
  assert (D : forall z s r, numeral z s -> match s ++ r with [] => True | c :: _ => is_digit c \/ c = "-"%char end).
  { intros z s0 r [ds N F|ds N F]; [|right; reflexivity]. destruct ds as [|c ds]; [contradiction|]. inversion F; subst. left. auto. }
  intros H. destruct H as [s0 S|z p s0 q P N Q|z zs' p s0 q r0 P N NE Q R].
  - rewrite (trim_blank s0 S). split; [constructor; constructor|exact I].
  - rewrite (trim_spaces p (s0 ++ q) P (vis_cond _ (numeral_visible z s0 q N))). split; [|eapply D; eauto]. apply (nums_one z [] s0 q); auto. constructor.
  - rewrite (trim_spaces p (s0 ++ q ++ r0) P (vis_cond _ (numeral_visible z s0 _ N))). split; [|eapply D; eauto]. apply (nums_more z zs' [] s0 q r0); auto. constructor.
Qed.
Lemma line_nums zs l r : nums zs l -> Forall (fun z => fits_int z = true) zs -> read_line r l = Ok (feed r zs).
Proof.
  intros N F. destruct (nums_trim zs l N) as [N' C]. unfold read_line.
  assert (X : starts_with (t_of "c") (trim l) = false /\ starts_with (t_of "p cnf") (trim l) = false).
  { destruct (trim l) as [|c s]; [vm_compute; auto|]. destruct C as [C| ->]; [|vm_compute; auto]. cbn in C. repeat (destruct C as [<-|C]; [vm_compute; auto|]). destruct C. }
  destruct X as [-> ->]. apply nums_read; auto. now apply nums_len.
Qed.
Lemma line_comment l r : comment l -> read_line r l = Ok (Go r).
Proof. intros [p s P O]. unfold read_line. now rewrite (trim_spaces p ("c"%char :: s) P eq_refl). Qed.
Lemma head_comments ls r : Forall comment ls -> read_lines r ls = Ok (Go r).
Proof. induction 1 as [|l ls C F IH]; [reflexivity|]. cbn [read_lines]. now rewrite (line_comment l r C). Qed.
Lemma body_read zs ls : body zs ls -> Forall (fun z => fits_int z = true) zs -> forall r, read_lines r ls = Ok (feed r zs).
Proof.
  induction 1 as [|zs l ls C B IH|zs zs' l ls N B IH]; intros F r; [reflexivity| |].
  - cbn [read_lines]. rewrite (line_comment l r C). cbn [bind]. auto.
  - apply Forall_app in F. destruct F as [F F']. cbn [read_lines]. rewrite (line_nums zs l r N F). cbn [bind]. rewrite feed_app. destruct (feed r zs); auto.
Qed.
Lemma span_skip q s : spaces q -> trim (q ++ s) = trim s.
Proof. unfold trim. induction 1 as [|c q S Q IH]; [reflexivity|]. cbn [app span]. rewrite (space_b c S). exact IH. Qed.
Lemma line_problem n m l : (0 <= n)%Z -> fits_int n = true -> fits_int m = true -> problem_line n m l -> read_line reader_new l = Ok (Go (mkR true n m [] [])).
Proof.
  intros N0 FN FM (p & q & r & P & QE & Q & N & ->). unfold read_line.
  rewrite (trim_spaces p (list_ascii_of_string "p cnf" ++ q ++ r) P eq_refl). cbn [list_ascii_of_string app].
  change (starts_with (t_of "c") ("p" :: " " :: "c" :: "n" :: "f" :: q ++ r)%char) with false.
  change (starts_with (t_of "p cnf") ("p" :: " " :: "c" :: "n" :: "f" :: q ++ r)%char) with true. cbv iota. cbn [r_init reader_new skipn].
  inversion N as [| |z zs p1 s1 q1 r1 P1 N1 NE1 Q1 R1]; subst.
  assert (E : read_int (q ++ p1 ++ s1 ++ q1 ++ r1) = Some (n, q1 ++ r1)).
  { rewrite app_assoc. apply read_numeral; auto; [now apply Forall_app|now apply stops_spaces]. }
  rewrite E. inversion R1 as [|z2 p2 s2 q2 P2 N2 Q2|z2 zs2 p2 s2 q2 r2 P2 N2 NE2 Q2 R2]; subst.
  - assert (E2 : read_int (q1 ++ p2 ++ s2 ++ q2) = Some (m, q2)).
    { rewrite app_assoc. apply read_numeral; auto; [now apply Forall_app|]. now apply stops_blank. }
    rewrite E2. destruct (Z.ltb_spec n 0); [lia|reflexivity].
  - assert (E2 : read_int (q1 ++ p2 ++ s2 ++ q2 ++ r2) = Some (m, q2 ++ r2)).
    { rewrite app_assoc. apply read_numeral; auto; [now apply Forall_app|now apply stops_spaces]. }
    rewrite E2. destruct (Z.ltb_spec n 0); [lia|reflexivity].
Qed.

(** ** Clauses *)
Definition conv (z : Z) : lit := if (z <? 0)%Z then mkLit (Z.to_nat (- z - 1)) true else mkLit (Z.to_nat (z - 1)) false.
Lemma feed_clause n m c : Forall (fun z => z <> 0 /\ - n <= z <= n)%Z c -> forall buf cls zs,
  feed (mkR true n m buf cls) (c ++ zs) = feed (mkR true n m (rev (map conv c) ++ buf) cls) zs.
Proof.
  induction 1 as [|z c [Z0 Zn] F IH]; intros buf cls zs; [reflexivity|]. cbn [app feed]. unfold read_lit. cbn [r_init r_nv r_nc r_buf r_cls negb].
  destruct (Z.ltb_spec n z); [lia|]. destruct (Z.ltb_spec z (- n)); [lia|]. cbn [orb]. destruct (Z.eqb_spec z 0); [contradiction|].
  rewrite IH. cbn [map rev]. now rewrite <- app_assoc.
Qed.
Notation empty_in cs := (existsb (fun c => match c with [] => true | _ => false end) cs).
Lemma feed_clauses n cs rest : (0 <= n)%Z -> over n (cs ++ [rest]) -> forall cls m,
  feed (mkR true n m [] cls) (flat_map (fun c => c ++ [0%Z]) cs ++ rest) =
  if empty_in (firstn (Z.to_nat m) cs) then EmptyClause
  else Go (mkR true n (m - Z.of_nat (length cs)) (rev (map conv rest)) (rev (map (map conv) (firstn (Z.to_nat m) cs)) ++ cls)).
Proof.
  intros N0. induction cs as [|c cs IH]; intros O cls m.
  - rewrite firstn_nil. cbn [flat_map app existsb map rev length]. rewrite <- (app_nil_r rest) at 1.
    rewrite feed_clause by (apply Forall_forall; intros z I; apply (O rest); [now left|exact I]). rewrite app_nil_r. cbn [feed]. do 2 f_equal. lia.
  - cbn [flat_map]. rewrite <- !app_assoc. rewrite feed_clause by (apply Forall_forall; intros z I; apply (O c); [now left|exact I]).
    rewrite app_nil_r. cbn [app feed]. unfold read_lit at 1. cbn [r_init r_nv r_nc r_buf r_cls negb].
    destruct (Z.ltb_spec n 0); [lia|]. destruct (Z.ltb_spec 0 (- n)); [lia|]. cbn [orb]. change (0 =? 0)%Z with true. cbv iota.
    assert (O' : over n (cs ++ [rest])) by (intros c' z' I J; apply (O c' z'); [now right|exact J]).
    assert (EL : (m - 1 - Z.of_nat (length cs) = m - Z.of_nat (length (c :: cs)))%Z) by (cbn [length]; lia).
    destruct (Z.ltb_spec 0 m).
    + replace (Z.to_nat m) with (S (Z.to_nat (m - 1))) by lia. cbn [firstn existsb map rev andb].
      destruct c as [|z c]; [reflexivity|]. replace (rev (map conv (z :: c))) with (rev (map conv c) ++ [conv z]) by reflexivity.
      destruct (rev (map conv c) ++ [conv z]) eqn:E; [destruct (rev (map conv c)); discriminate E|]. rewrite <- E. clear E.
      cbn [orb]. rewrite IH by assumption. rewrite EL. destruct (empty_in (firstn _ cs)); [reflexivity|]. rewrite <- app_assoc. cbn [app]. do 4 f_equal.
      change (rev (map conv c) ++ [conv z]) with (rev (map conv (z :: c))). now rewrite rev_involutive.
    + cbn [andb]. rewrite IH by assumption. rewrite EL. replace (Z.to_nat (m - 1)) with 0 by lia. replace (Z.to_nat m) with 0 by lia. reflexivity.
Qed.
Lemma fits_all n cs : (0 <= n < 2 ^ 31)%Z -> over n cs -> Forall (fun z => fits_int z = true) (flat_map (fun c => c ++ [0%Z]) cs).
Proof.
  intros N O. apply Forall_forall. intros z I. apply in_flat_map in I. destruct I as (c & I & J). apply in_app_or in J.
  unfold fits_int. apply andb_true_iff. rewrite Z.leb_le, Z.ltb_lt. destruct J as [J|[<-|[]]]; [destruct (O c z I J); lia|lia].
Qed.
Lemma numeral_line z s : numeral z s -> one_line s.
Proof.
  assert (D : forall ds, Forall is_digit ds -> one_line ds).
  { intros ds F. apply Forall_forall. intros c I. rewrite Forall_forall in F. specialize (F c I). destruct (digit_b c F) as (_ & _ & _ & N). unfold newline, code in N. now apply Nat.eqb_neq. }
  intros [ds N F|ds N F]; [now apply D|]. constructor; [vm_compute; discriminate|]. now apply D.
Qed.
Lemma spaces_line s : spaces s -> one_line s.
Proof. apply Forall_impl. intros c [<-|[<-|[<-|[<-|[<-|[]]]]]]; discriminate. Qed.
Lemma nums_line zs s : nums zs s -> one_line s.
Proof.
  induction 1 as [s S|z p s q P N Q|z zs p s q r0 P N NE Q R IH]; [now apply spaces_line| |];
    repeat (apply Forall_app; split); try (now apply spaces_line); try (eapply numeral_line; eassumption). exact IH.
Qed.
Lemma comment_one l : comment l -> one_line l.
Proof. intros [p s P O]. apply Forall_app. split; [now apply spaces_line|]. constructor; [vm_compute; discriminate|exact O]. Qed.
Lemma body_lines zs ls : body zs ls -> Forall one_line ls.
Proof. induction 1; constructor; auto; [now apply comment_one|eapply nums_line; eauto]. Qed.
Lemma problem_one n m l : problem_line n m l -> one_line l.
Proof.
  intros (p & q & r & P & _ & Q & N & ->). apply Forall_app. split; [now apply spaces_line|]. apply Forall_app. split; [repeat constructor; vm_compute; discriminate|].
  apply Forall_app. split; [now apply spaces_line|]. eapply nums_line; eauto.
Qed.
(** reading a file *)
Lemma read_listing n m cs rest s : listing n m cs rest s ->
  read_lines reader_new (lines [] s) = Ok (if empty_in (firstn (Z.to_nat m) cs) then EmptyClause
    else Go (mkR true n (m - Z.of_nat (length cs)) (rev (map conv rest)) (rev (map (map conv) (firstn (Z.to_nat m) cs))))).
Proof.
  intros (N & M & O & head & p & tail & H & P & B & T).
  rewrite (read_text (head ++ p :: tail)); auto.
  2:{ apply Forall_app. split; [eapply Forall_impl; [|exact H]; apply comment_one|]. constructor; [eapply problem_one; eauto|eapply body_lines; eauto]. }
  rewrite read_lines_app, (head_comments head _ H). cbn [bind read_lines].
  rewrite (line_problem n m p); auto; [|lia| |].
  - cbn [bind]. rewrite (body_read _ _ B).
    + rewrite (feed_clauses n cs rest (proj1 N) O []). now rewrite app_nil_r.
    + apply Forall_app. split; [apply (fits_all n cs N); intros c z I J; apply (O c z); [apply in_or_app; now left|exact J]|].
      apply Forall_forall. intros z I. destruct (O rest z) as [_ Z]; [apply in_or_app; right; now left|exact I|].
      unfold fits_int. apply andb_true_iff. rewrite Z.leb_le, Z.ltb_lt. lia.
  - unfold fits_int. apply andb_true_iff. rewrite Z.leb_le, Z.ltb_lt. lia.
  - unfold fits_int. apply andb_true_iff. rewrite Z.leb_le, Z.ltb_lt. lia.
Qed.
Lemma dimacs_listing n cs s : dimacs n cs s -> listing n (Z.of_nat (length cs)) cs [] s.
Proof.
  intros (N & M & O & head & p & tail & H & P & B & T). split; [exact N|]. split; [lia|]. split.
  - intros c z I J. apply in_app_or in I. destruct I as [I|[<-|[]]]; [now apply (O c)|destruct J].
  - exists head, p, tail. rewrite app_nil_r. auto.
Qed.

(** ** Meaning *)
Lemma conv_legal n cs : over n cs -> existsb (fun c => match c with [] => true | _ => false end) cs = false -> legal (Z.to_nat n) (map (map conv) cs).
Proof.
  intros O E c I. apply in_map_iff in I. destruct I as (c0 & <- & I). split.
  - destruct c0; [|discriminate]. exfalso. rewrite <- not_true_iff_false in E. apply E. apply existsb_exists. exists []. auto.
  - intros l J. apply in_map_iff in J. destruct J as (z & <- & J). destruct (O c0 z I J) as [Z0 Zn]. unfold conv. destruct (Z.ltb_spec z 0); cbn [lord]; lia.
Qed.
Lemma conv_holds (a : Z -> bool) z : z <> 0%Z -> num_holds a z <-> Spec_Sat.lit_holds (fun i => a (Z.of_nat i + 1)%Z) (conv z) = true.
Proof.
  intros Z0. unfold num_holds, conv, Spec_Sat.lit_holds. destruct (Z.ltb_spec 0 z), (Z.ltb_spec z 0); cbn [lneg lord]; try lia.
  - rewrite Z2Nat.id by lia. replace (z - 1 + 1)%Z with z by lia. reflexivity.
  - rewrite Z2Nat.id by lia. replace (- z - 1 + 1)%Z with (- z)%Z by lia. now rewrite negb_true_iff.
Qed.
Lemma sat_all n cs (a : Z -> bool) : over n cs -> (forall c, In c cs -> nums_hold a c) <-> all_hold (fun i => a (Z.of_nat i + 1)%Z) (map (map conv) cs).
Proof.
  intros O. split.
  - intros H c I. apply in_map_iff in I. destruct I as (c0 & <- & I). destruct (H c0 I) as (z & J & K). exists (conv z). split; [now apply in_map|].
    apply conv_holds; [|exact K]. now apply (O c0).
  - intros H c I. destruct (H (map conv c)) as (l & J & K); [now apply in_map|]. apply in_map_iff in J. destruct J as (z & <- & J). exists z. split; [exact J|].
    apply conv_holds; [|exact K]. now apply (O c).
Qed.
Lemma satisfiable_iff n cs : over n cs -> satisfiable cs <-> exists v, all_hold v (map (map conv) cs).
Proof.
  intros O. split.
  - intros (a & H). eexists. apply (sat_all n cs a O). exact H.
  - intros (v & H). exists (fun z => v (Z.to_nat (z - 1))). apply (sat_all n cs _ O). intros c I. destruct (H c I) as (l & J & K). exists l. split; [exact J|].
    rewrite <- K. unfold Spec_Sat.lit_holds. replace (Z.to_nat (Z.of_nat (lord l) + 1 - 1)) with (lord l) by lia. reflexivity.
Qed.

(** ** The tool *)
Section Tool.
Context {HS : Type} (he : heur HS) (hash : lit -> N) (o : phase_opt) (h : nat -> list clause -> HS).
Hypothesis HA : forall n cs, admissible n he (h n cs).

Lemma run_last : forall fuel s0 s' a, run bool_theory he hash fuel s0 = Ok (s', a) ->
  exists s k, reach bool_theory he hash s0 s /\ step bool_theory he hash k s = Ok (s', Some a).
Proof.
  induction fuel as [|f IH]; intros s0 s' a E; [discriminate E|]. cbn [run] in E.
  destruct (step bool_theory he hash (S f) s0) as [[s1 [x|]]| |] eqn:ES; cbn [bind] in E; try discriminate E.
  - injection E as <- <-. exists s0, (S f). split; [constructor|exact ES].
  - destruct (IH s1 s' a E) as (s & k & R & X). exists s, k. split; [|exact X]. clear -R ES. induction R; [eapply reach_step; [constructor|exact ES]|]. eapply reach_step; eauto.
Qed.
Lemma sat_moment fuel n cs s : check_bool he hash fuel n cs o (h n cs) = Ok (s, Sat) -> moment bool_theory he hash (solver_start n cs o (h n cs)) (s_db s) (s_trail s).
Proof.
  intros E. destruct (run_last _ _ _ _ E) as (s1 & k & R & X). unfold step in X.
  destruct (th_propagate bool_theory k (s_th s1) (s_db s1) (s_trail s1)) as [[[[ts d] t] c]| |] eqn:EP; cbn [bind] in X; try discriminate X.
  destruct c as [|c0 c].
  - cbn [s_he s_db s_trail s_th] in X. destruct (h_pick he (s_he s1) d t) as [h1 [v|]].
    + destruct (th_decide bool_theory ts d t v) as [[ts2 t2]| |]; discriminate X.
    + injection X as <-. cbn [s_db s_trail]. eapply moment_prop; eauto.
  - destruct (dl t =? 0); [discriminate X|]. destruct (on_conflict _ _ _ _ _) as [[s2|]| |]; discriminate X.
Qed.
Lemma sat_printed fuel n cs s : legal n cs -> check_bool he hash fuel n cs o (h n cs) = Ok (s, Sat) -> is_satisfying (s_trail s) (s_db s) = true.
Proof.
  intros L E. destruct (sat_model_lemma HS he hash n cs o (h n cs) fuel s L (HA n cs) E) as [D A].
  destruct (asserted_lemma HS he hash n cs o (h n cs) _ _ L (HA n cs) (sat_moment fuel n cs s E)) as [EL P].
  unfold is_satisfying. apply forallb_forall. intros c I. destruct (In_nth _ _ [] I) as (i & Li & Ei).
  pose proof (P i) as Pi. rewrite Ei in Pi. assert (J : In (nth i cs []) cs) by (apply nth_In; lia).
  destruct (A _ J) as (l & K & Hl). apply existsb_exists. exists l. split; [now apply (Permutation_in l Pi)|].
  rewrite D by (now apply (proj2 (L _ J))). cbn [andb]. unfold Spec_Sat.lit_holds in Hl. destruct (lneg l); cbn [negb]; [now apply negb_true_iff in Hl; rewrite Hl|now rewrite Hl].
Qed.
Lemma tool_read n cs s nc buf : over n cs -> (nc <= 0)%Z ->
  read_lines reader_new (lines [] s) = Ok (if empty_in cs then EmptyClause else Go (mkR true n nc buf (rev (map (map conv) cs)))) ->
  exists k p, (forall fuel, k <= fuel -> sat_tool he hash fuel o h s = Ok p) /\
  ((p = PSat /\ satisfiable cs) \/ (p = PUnsat /\ ~ satisfiable cs)).
Proof.
  intros O NC R.
  destruct (existsb (fun c => match c with [] => true | _ => false end) cs) eqn:EX.
  - exists 0, PUnsat. split.
    + intros fuel _. unfold sat_tool. now rewrite R.
    + right. split; [reflexivity|]. intros (a & H). apply existsb_exists in EX. destruct EX as ([|z c] & I & E); [|discriminate E]. destruct (H [] I) as (z & [] & _).
  - pose proof (conv_legal n cs O EX) as L.
    destruct (decision_lemma HS he hash (Z.to_nat n) (map (map conv) cs) o (h (Z.to_nat n) (map (map conv) cs)) L (HA _ _)) as (k & s1 & a & E & A).
    exists k, match a with Sat => PSat | Unsat => PUnsat end. split.
    + intros fuel Lf. unfold sat_tool. rewrite R. cbn [bind r_init r_nc r_nv r_cls negb]. destruct (Z.ltb_spec 0 nc); [lia|]. rewrite rev_involutive.
      pose proof (E fuel Lf) as Ef. rewrite Ef. cbn [bind]. destruct a; [|reflexivity]. now rewrite (sat_printed fuel (Z.to_nat n) _ s1 L Ef).
    + rewrite <- (satisfiable_iff n cs O) in A. destruct a; [left; split; [reflexivity|]; now apply A|right; split; [reflexivity|]; intros S; apply A in S; discriminate S].
Qed.
Lemma tool_counts n m cs rest s : listing n m cs rest s -> let cs' := firstn (Z.to_nat m) cs in
  exists k p, (forall fuel, k <= fuel -> sat_tool he hash fuel o h s = Ok p) /\
  ((p = PBad /\ (Z.of_nat (length cs) < m)%Z /\ ~ In [] cs) \/
   (((m <= Z.of_nat (length cs))%Z \/ In [] cs) /\ ((p = PSat /\ satisfiable cs') \/ (p = PUnsat /\ ~ satisfiable cs')))).
Proof.
  intros Dm cs'. pose proof (read_listing n m cs rest s Dm) as R. destruct Dm as (N & _ & O & _). fold cs' in R.
  assert (O' : over n cs').
  { intros c z I J. apply (O c z); [|exact J]. apply in_or_app. left. rewrite <- (firstn_skipn (Z.to_nat m) cs). apply in_or_app. now left. }
  assert (EI : empty_in cs = true <-> In [] cs).
  { rewrite existsb_exists. split; [intros ([|] & I & E); [exact I|discriminate]|intros I; now exists []]. }
  destruct (Z.le_gt_cases m (Z.of_nat (length cs))) as [L|L].
  - destruct (tool_read n cs' s (m - Z.of_nat (length cs))%Z _ O' ltac:(lia) R) as (k & p & A & B). exists k, p. split; [exact A|]. right. split; [now left|exact B].
  - assert (EC : cs' = cs) by (apply firstn_all2; lia). destruct (empty_in cs') eqn:EX.
    + exists 0, PUnsat. split; [intros fuel _; unfold sat_tool; now rewrite R|]. right. rewrite EC in *. split; [right; now apply EI|]. right. split; [reflexivity|].
      intros (a & H). destruct (H [] (proj1 EI EX)) as (z & [] & _).
    + exists 0, PBad. split.
      * intros fuel _. unfold sat_tool. rewrite R. cbn [bind r_init r_nc negb]. destruct (Z.ltb_spec 0 (m - Z.of_nat (length cs))); [reflexivity|lia].
      * left. split; [reflexivity|]. split; [lia|]. rewrite EC in EX. rewrite <- EI. congruence.
Qed.
Lemma tool_ok n cs s : dimacs n cs s -> exists k p, (forall fuel, k <= fuel -> sat_tool he hash fuel o h s = Ok p) /\
  ((p = PSat /\ satisfiable cs) \/ (p = PUnsat /\ ~ satisfiable cs)).
Proof.
  intros Dm. destruct (tool_counts _ _ _ _ _ (dimacs_listing n cs s Dm)) as (k & p & A & B). exists k, p. split; [exact A|].
  rewrite Nat2Z.id, firstn_all in B. destruct B as [(_ & L & _)|[_ B]]; [lia|exact B].
Qed.
End Tool.
