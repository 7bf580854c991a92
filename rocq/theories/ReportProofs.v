From Coq Require Import NArith.
From Verif Require Import Base Report ReportSpec.
Open Scope nat_scope.

Lemma len8_pos c : 1 <= len8 c.
Proof. unfold len8. repeat (destruct (N.ltb _ _)); lia. Qed.
Lemma len16_pos c : 1 <= len16 c.
Proof. unfold len16. repeat (destruct (N.ltb _ _)); lia. Qed.
Lemma bytes_cons c s : bytes (c :: s) = len8 c + bytes s.
Proof. reflexivity. Qed.
Lemma bytes_app a b : bytes (a ++ b) = bytes a + bytes b.
Proof. unfold bytes. rewrite map_app, list_sum_app. reflexivity. Qed.
Lemma bytes_zero s : bytes s = 0 -> s = [].
Proof. destruct s as [|c s]; [reflexivity|]. rewrite bytes_cons. pose proof (len8_pos c). lia. Qed.
Lemma bytes_rev s : bytes (rev s) = bytes s.
Proof. induction s as [|c s IH]; [reflexivity|]. cbn [rev]. rewrite bytes_app, IH, !bytes_cons. unfold bytes at 2. simpl. lia. Qed.

Lemma newline_split c : newline c = false -> (c =? LF)%N = false /\ (c =? CR)%N = false /\ (c =? FF)%N = false.
Proof. unfold newline. intros H. apply orb_false_elim in H as (H & H3). apply orb_false_elim in H as (H1 & H2). auto. Qed.
Lemma one_line_cons c s : one_line (c :: s) -> newline c = false /\ one_line s.
Proof. unfold one_line. cbn [forallb]. intros H. apply andb_prop in H as (H1 & H2). apply negb_true_iff in H1. auto. Qed.

(** a position behind a text on one line *)
Fixpoint units (s : text) : nat := match s with [] => 0 | c :: r => len16 c + units r end.
Lemma place_one_line s l c : one_line s -> css_place l c s = (l, c + units s).
Proof.
  revert c. induction s as [|x s IH]; intros c H; cbn [css_place units]; [f_equal; lia|].
  apply one_line_cons in H as (H1 & H2). apply newline_split in H1 as (E1 & E2 & E3). rewrite E1, E2, E3. cbn [orb].
  rewrite (IH _ H2). f_equal. lia.
Qed.
Definition lfs (s : text) : nat := length (filter (fun c => (c =? LF)%N) s).
Lemma plain_cons c s : plain (c :: s) = true -> (c =? FF)%N = false /\ plain s = true /\ ((c =? CR)%N = true -> exists r, s = LF :: r).
Proof.
  cbn [plain]. intros H. apply andb_prop in H as (H & Hp). apply andb_prop in H as (Hf & Hc). apply negb_true_iff in Hf.
  split; [exact Hf|]. split; [exact Hp|]. intros E. rewrite E in Hc. destruct s as [|d r]; [discriminate|]. apply N.eqb_eq in Hc. subst. exists r. reflexivity.
Qed.
Lemma place_whole s rest l c : plain (s ++ rest) = true -> whole_lines s -> s <> [] -> css_place l c (s ++ rest) = css_place (l + lfs s) 1 rest.
Proof.
  intros Hp [->|(s' & ->)] Hne; [contradiction|]. clear Hne. revert l c Hp. induction s' as [|x s IH]; intros l c Hp.
  - unfold lfs. simpl. f_equal. lia.
  - cbn [app css_place]. cbn [app] in Hp. apply plain_cons in Hp as (Hf & Hp & Hc). rewrite Hf, orb_false_r.
    unfold lfs. cbn [app filter]. destruct (N.eqb x LF) eqn:El.
    + rewrite (IH _ _ Hp). unfold lfs. cbn [length]. f_equal. lia.
    + destruct (N.eqb x CR) eqn:Ec.
      * destruct (Hc eq_refl) as (r & Er). rewrite Er at 1. cbn [N.eqb LF]. exact (IH _ _ Hp).
      * exact (IH _ _ Hp).
Qed.

(** lines of the text behind complete lines *)
Lemma lines_whole s rest a b acc : whole_lines s -> s <> [] ->
  exists L, lines_acc a b acc (s ++ rest) = L ++ lines_acc (b + bytes s) (b + bytes s) [] rest /\ length L = lfs s.
Proof.
  intros [->|(s' & ->)] Hne; [contradiction|]. clear Hne. revert a b acc. induction s' as [|x s IH]; intros a b acc.
  - exists [(a, rev (strip_cr acc))]. cbn. split; [|reflexivity]. reflexivity.
  - cbn [app lines_acc]. unfold lfs. cbn [filter]. destruct (N.eqb x LF) eqn:El.
    + apply N.eqb_eq in El. subst x. destruct (IH (b + 1) (b + 1) []) as (L & -> & HL). exists ((a, rev (strip_cr acc)) :: L). cbn [app length]. split.
      * f_equal. f_equal. rewrite bytes_cons. replace (b + (len8 LF + bytes (s ++ [LF]))) with (b + 1 + bytes (s ++ [LF])) by (cbn; lia). reflexivity.
      * rewrite HL. reflexivity.
    + destruct (IH a (b + len8 x) (x :: acc)) as (L & -> & HL). exists L. split; [|exact HL].
      rewrite bytes_cons. replace (b + (len8 x + bytes (s ++ [LF]))) with (b + len8 x + bytes (s ++ [LF])) by lia. reflexivity.
Qed.
Lemma lines_current s rest a b acc : one_line s -> lines_acc a b acc (s ++ rest) = lines_acc a (b + bytes s) (rev s ++ acc) rest.
Proof.
  revert b acc. induction s as [|x s IH]; intros b acc H; cbn [app lines_acc rev].
  - f_equal. cbn. lia.
  - apply one_line_cons in H as (H1 & H2). apply newline_split in H1 as (E1 & _). rewrite E1, (IH _ _ H2), bytes_cons, <- app_assoc. f_equal. lia.
Qed.
Lemma strip_cr_one_line s : one_line s -> strip_cr (rev s) = rev s.
Proof.
  intros H. destruct s as [|x s] using rev_ind; [reflexivity|]. rewrite rev_app_distr. cbn [rev app strip_cr].
  unfold one_line in H. rewrite forallb_app in H. apply andb_prop in H as (_ & H). cbn [forallb] in H. rewrite andb_true_r in H. apply negb_true_iff in H.
  apply newline_split in H as (_ & E & _). rewrite E. reflexivity.
Qed.
(** the line with [s] in it *)
Lemma line_of s rest a : one_line s -> line_ends rest -> nth_error (lines_acc a a [] (s ++ rest)) 0 = if (length s + length rest =? 0) then None else Some (a, s).
Proof.
  intros Hs Hr. rewrite (lines_current _ _ _ _ _ Hs), app_nil_r. destruct Hr as [->|(r & [-> | ->])].
  - cbn [lines_acc]. destruct s as [|x s]; [reflexivity|]. cbn [length Nat.add Nat.eqb]. destruct (rev (x :: s)) as [|y l] eqn:E.
    + apply (f_equal (@length _)) in E. rewrite rev_length in E. discriminate.
    + cbn [nth_error]. rewrite <- E, rev_involutive. reflexivity.
  - cbn [lines_acc]. replace (LF =? LF)%N with true by reflexivity. cbn [nth_error]. rewrite (strip_cr_one_line _ Hs), rev_involutive. destruct (_ =? 0) eqn:E; [apply Nat.eqb_eq in E; cbn in E; lia | reflexivity].
  - cbn [lines_acc]. replace (CR =? LF)%N with false by reflexivity. replace (LF =? LF)%N with true by reflexivity. cbn [nth_error strip_cr].
    replace (CR =? CR)%N with true by reflexivity. rewrite rev_involutive. destruct (_ =? 0) eqn:E; [apply Nat.eqb_eq in E; cbn in E; lia | reflexivity].
Qed.

Lemma skip_behind s r : skip_units (units s) (s ++ r) = Some (bytes s).
Proof.
  induction s as [|c s IH]; [destruct r; reflexivity|]. cbn [units app skip_units]. pose proof (len16_pos c).
  destruct (len16 c + units s) as [|n] eqn:E; [lia|]. rewrite <- E. replace (len16 c <=? len16 c + units s) with true by (symmetry; apply Nat.leb_le; lia).
  replace (len16 c + units s - len16 c) with (units s) by lia. rewrite IH. reflexivity.
Qed.
Lemma boundary_behind s r n : boundary (bytes s + n) (s ++ r) = boundary n r.
Proof.
  induction s as [|c s IH]; [reflexivity|]. cbn [app]. rewrite bytes_cons. pose proof (len8_pos c). unfold boundary; fold boundary.
  destruct (len8 c + bytes s + n) as [|m] eqn:E; [lia|]. rewrite <- E. replace (len8 c <=? len8 c + bytes s + n) with true by (symmetry; apply Nat.leb_le; lia).
  replace (len8 c + bytes s + n - len8 c) with (bytes s + n) by lia. exact IH.
Qed.
Lemma boundary_at n s : boundary n s = true <-> exists a b, s = a ++ b /\ n = bytes a.
Proof.
  split.
  - revert n. induction s as [|c s IH]; intros n H.
    + destruct n; [|discriminate]. exists [], []. auto.
    + destruct n as [|n]; [exists [], (c :: s); auto|]. cbn [boundary] in H. apply andb_prop in H as (Hl & H). apply Nat.leb_le in Hl.
      destruct (IH _ H) as (a & b & -> & E). exists (c :: a), b. rewrite bytes_cons. split; [reflexivity|]. lia.
  - intros (a & b & -> & ->). rewrite <- (Nat.add_0_r (bytes a)), boundary_behind. destruct b; reflexivity.
Qed.
Lemma boundary_before_last s c : boundary (bytes (s ++ [c]) - 1) (s ++ [c]) = (c <? 128)%N.
Proof.
  rewrite bytes_app. replace (bytes s + bytes [c] - 1) with (bytes s + (bytes [c] - 1)) by (rewrite bytes_cons; pose proof (len8_pos c); cbn; lia).
  rewrite boundary_behind. unfold bytes, len8. cbn [map list_sum fold_right]. destruct (N.ltb c 128) eqn:E1.
  - reflexivity.
  - destruct (N.ltb c 2048) eqn:E2; [|destruct (N.ltb c 65536) eqn:E3]; cbn [Nat.add Nat.sub boundary]; unfold len8; rewrite E1, E2, ?E3; reflexivity.
Qed.

Lemma place_col_pos s l c : 1 <= c -> 1 <= snd (css_place l c s).
Proof.
  revert l c. induction s as [|x s IH]; intros l c H; cbn [css_place]; [exact H|].
  destruct (_ || _)%bool; [apply IH; lia|]. destruct (N.eqb x CR); [|apply IH; lia].
  destruct s as [|d r]; [cbn; lia|]. destruct (N.eqb d LF); apply IH; lia.
Qed.

Lemma plain_app_r a b : plain (a ++ b) = true -> plain b = true.
Proof. induction a as [|x a IH]; cbn [app]; [auto|]. intros H. apply plain_cons in H as (_ & H & _). auto. Qed.
Lemma plain_app_l a b : plain (a ++ b) = true -> (forall a', a <> a' ++ [CR]) -> plain a = true.
Proof.
  induction a as [|x a IH]; cbn [app]; [auto|]. intros H Hn. apply plain_cons in H as (Hf & Hp & Hc). cbn [plain]. rewrite Hf. cbn [negb andb].
  assert (plain a = true) as ->. { apply IH; [exact Hp|]. intros a' ->. apply (Hn (x :: a')). reflexivity. }
  rewrite andb_true_r. destruct (N.eqb x CR) eqn:E; [|reflexivity]. destruct (Hc eq_refl) as (r & Er).
  destruct a as [|d a]; [apply N.eqb_eq in E; subst x; exfalso; apply (Hn []); reflexivity|]. injection Er as -> _. reflexivity.
Qed.
Lemma whole_no_cr s : whole_lines s -> forall a', s <> a' ++ [CR].
Proof. intros [->|(s' & ->)] a' E; [destruct a'; discriminate|]. apply app_inj_tail in E as (_ & E). discriminate. Qed.

(** the place of an error behind [earlier ++ before] *)
Lemma error_behind_line earlier before rest n : plain (earlier ++ before ++ rest) = true -> whole_lines earlier -> one_line before ->
  error_behind (earlier ++ before) n = At (lfs earlier) (1 + units before) n.
Proof.
  intros Hp Hw Hb. unfold error_behind. assert (css_place 0 1 (earlier ++ before) = (lfs earlier, 1 + units before)) as ->; [|reflexivity].
  assert (plain (earlier ++ before) = true) as Hp'.
  { rewrite app_assoc in Hp. apply (plain_app_l _ _ Hp). intros a' E.
    destruct before as [|x b] using rev_ind.
    - rewrite app_nil_r in E. exact (whole_no_cr _ Hw _ E).
    - rewrite app_assoc in E. apply app_inj_tail in E as (_ & ->). unfold one_line in Hb. rewrite forallb_app in Hb. apply andb_prop in Hb as (_ & Hb). discriminate. }
  destruct earlier as [|x e].
  - rewrite (place_one_line _ _ _ Hb). reflexivity.
  - rewrite (place_whole _ _ _ _ Hp' Hw) by discriminate. rewrite (place_one_line _ _ _ Hb). reflexivity.
Qed.

(** into_range at a position, in terms of what stands in the line before and behind it *)
Lemma range_at earlier before here later n : plain (earlier ++ before ++ here ++ later) = true -> whole_lines earlier -> one_line before -> one_line here -> line_ends later ->
  into_range (error_behind (earlier ++ before) n) (earlier ++ before ++ here ++ later) =
    let p := bytes (earlier ++ before) in
    match here with
    | [] => if last_is_ascii before then Some (p - 1, p) else None
    | _ => if boundary n here then Some (p, p + n) else None
    end.
Proof.
  intros Hp Hw Hb Hh Hl. rewrite (error_behind_line _ _ _ _ Hp Hw Hb). cbn [into_range].
  assert (nth_error (lines (earlier ++ before ++ here ++ later)) (lfs earlier) = if (length (before ++ here) + length later =? 0) then None else Some (bytes earlier, before ++ here)) as ->.
  { rewrite (app_assoc before). unfold lines.
    assert (one_line (before ++ here)) as Hbh. { unfold one_line. rewrite forallb_app. apply andb_true_intro. split; assumption. }
    destruct earlier as [|x e].
    - cbn [app lfs filter length]. exact (line_of _ _ 0 Hbh Hl).
    - destruct (lines_whole (x :: e) ((before ++ here) ++ later) 0 0 [] Hw) as (L & E & HL); [discriminate|]. cbn [Nat.add] in E. rewrite E, <- HL, nth_error_app2, Nat.sub_diag by lia.
      exact (line_of _ _ _ Hbh Hl). }
  replace (1 + units before - 1) with (units before) by lia. cbv zeta. rewrite bytes_app.
  destruct here as [|h hs].
  - rewrite app_nil_r. unfold last_is_ascii. destruct before as [|x b _] using rev_ind.
    + cbn [rev app]. destruct later as [|y later]; [reflexivity|]. cbn [skip_units units]. destruct (bytes [] <=? 0) eqn:E; [reflexivity|]. discriminate.
    + rewrite rev_app_distr. cbn [rev app]. replace (length (b ++ [x]) + length later =? 0) with false by (symmetry; apply Nat.eqb_neq; rewrite app_length; cbn; lia).
      assert (skip_units (units (b ++ [x])) (b ++ [x]) = Some (bytes (b ++ [x]))) as -> by (rewrite <- (app_nil_r (b ++ [x])) at 2; apply skip_behind).
      rewrite Nat.leb_refl. destruct (bytes (b ++ [x])) as [|k] eqn:E.
      { exfalso. apply bytes_zero in E. destruct b; discriminate. }
      rewrite <- boundary_before_last with (s := b), E. replace (S k - 1) with k by lia. destruct (boundary k (b ++ [x])); [|reflexivity]. do 2 f_equal; lia.
  - replace (length (before ++ h :: hs) + length later =? 0) with false by (symmetry; apply Nat.eqb_neq; rewrite app_length; cbn; lia).
    rewrite skip_behind. replace (bytes (before ++ h :: hs) <=? bytes before) with false by (symmetry; apply Nat.leb_gt; rewrite bytes_app, bytes_cons; pose proof (len8_pos h); lia).
    rewrite boundary_behind. destruct (boundary n (h :: hs)); [|reflexivity]. do 2 f_equal; lia.
Qed.

(** every position of a plain text that is not between CR and LF is one of those *)
Lemma split_before pre : plain pre = true -> exists earlier before, pre = earlier ++ before /\ whole_lines earlier /\ one_line before.
Proof.
  induction pre as [|x pre IH] using rev_ind; intros Hp; [exists [], []; repeat split; left; reflexivity|].
  destruct (N.eqb x LF) eqn:El.
  - apply N.eqb_eq in El. subst x. exists (pre ++ [LF]), []. rewrite app_nil_r. split; [reflexivity|]. split; [right; exists pre; reflexivity | reflexivity].
  - assert ((x =? CR)%N = false /\ (x =? FF)%N = false) as (Ec & Ef).
    { apply plain_app_r in Hp. cbn [plain] in Hp. destruct (N.eqb x FF); [discriminate|]. destruct (N.eqb x CR); [discriminate|]. auto. }
    assert (plain pre = true) as Hpre.
    { apply (plain_app_l _ [x] Hp). intros a' ->. rewrite <- app_assoc in Hp. apply plain_app_r in Hp. cbn [app] in Hp. apply plain_cons in Hp as (_ & _ & Hc).
      destruct (Hc eq_refl) as (r & Er). injection Er as -> _. discriminate. }
    destruct (IH Hpre) as (e & b & -> & He & Hb). exists e, (b ++ [x]). rewrite app_assoc. split; [reflexivity|]. split; [exact He|].
    unfold one_line. rewrite forallb_app. apply andb_true_intro. split; [exact Hb|]. cbn [forallb]. unfold newline. rewrite El, Ec, Ef. reflexivity.
Qed.
Lemma split_after s : plain s = true -> exists here later, s = here ++ later /\ one_line here /\ line_ends later.
Proof.
  induction s as [|x s IH]; intros Hp; [exists [], []; repeat split; left; reflexivity|].
  pose proof Hp as Hp0. apply plain_cons in Hp as (Hf & Hp & Hc). destruct (N.eqb x LF) eqn:El; [|destruct (N.eqb x CR) eqn:Ec].
  - apply N.eqb_eq in El. subst. exists [], (LF :: s). repeat split. right. exists s. left. reflexivity.
  - destruct (Hc eq_refl) as (r & ->). apply N.eqb_eq in Ec. subst. exists [], (CR :: LF :: r). repeat split. right. exists r. right. reflexivity.
  - destruct (IH Hp) as (h & t0 & -> & Hh & Ht). exists (x :: h), t0. repeat split; [|exact Ht]. unfold one_line. cbn [forallb]. unfold newline. rewrite El, Ec, Hf. exact Hh.
Qed.

(** errors about a piece of the text *)
Lemma exact_range pre piece post : plain (pre ++ piece ++ post) = true -> one_line piece -> piece <> [] ->
  into_range (error_behind pre (bytes piece)) (pre ++ piece ++ post) = Some (bytes pre, bytes pre + bytes piece).
Proof.
  intros Hp Ho Hne.
  assert (plain pre = true) as Hpre.
  { apply (plain_app_l _ _ Hp). intros a' ->. rewrite <- app_assoc in Hp. apply plain_app_r in Hp. cbn [app] in Hp. apply plain_cons in Hp as (_ & _ & Hc).
    destruct (Hc eq_refl) as (r & Er). destruct piece as [|y p]; [contradiction|]. injection Er as -> _. apply one_line_cons in Ho as (E & _). discriminate. }
  destruct (split_before _ Hpre) as (e & b & -> & He & Hb).
  assert (plain post = true) as Hpost. { apply plain_app_r in Hp. apply plain_app_r in Hp. exact Hp. }
  destruct (split_after _ Hpost) as (h & l & -> & Hh & Hl).
  replace ((e ++ b) ++ piece ++ h ++ l) with (e ++ b ++ (piece ++ h) ++ l) in * by (rewrite <- !app_assoc; reflexivity).
  rewrite (range_at _ _ _ _ _ Hp He Hb).
  - cbv zeta. destruct piece as [|y p]; [contradiction|]. cbn [app]. replace (boundary (bytes (y :: p)) (y :: p ++ h)) with true; [reflexivity|].
    symmetry. apply boundary_at. exists (y :: p), h. auto.
  - unfold one_line. rewrite forallb_app. apply andb_true_intro. split; assumption.
  - exact Hl.
Qed.
