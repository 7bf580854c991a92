From Coq Require Import Ascii String NArith ZArith Lia.
From Verif Require Import Base Vars VarsSpec VarText VarTextSpec VarTextProofs.
Open Scope nat_scope.

(** ** Numbers *)
Definition dig (c : ascii) : Prop := is_digit c = true.
Lemma dv_from ds : forall a, fold_left (fun v c => (v * 10 + digit c)%Z) ds a = (a * 10 ^ Z.of_nat (length ds) + digits_value ds)%Z.
Proof.
  unfold digits_value. induction ds as [|c ds IH]; intros a.
  - simpl. lia.
  - cbn [fold_left length]. rewrite (IH (a * 10 + digit c)%Z), (IH (0 * 10 + digit c)%Z). rewrite Nat2Z.inj_succ, Z.pow_succ_r by lia. ring.
Qed.
Lemma dv_app a b : digits_value (a ++ b) = (digits_value a * 10 ^ Z.of_nat (length b) + digits_value b)%Z.
Proof. unfold digits_value at 1. rewrite fold_left_app. rewrite dv_from. reflexivity. Qed.
Lemma dv_cons c ds : digits_value (c :: ds) = (digit c * 10 ^ Z.of_nat (length ds) + digits_value ds)%Z.
Proof. change (c :: ds) with ([c] ++ ds). rewrite dv_app. unfold digits_value at 1. simpl. reflexivity. Qed.
Lemma dv_zeros n ds : digits_value (repeat "0"%char n ++ ds) = digits_value ds.
Proof. induction n as [|n IH]; [reflexivity|]. simpl. rewrite dv_cons. rewrite IH. change (digit "0") with 0%Z. lia. Qed.
Lemma digit_char_value v : (v < 10)%N -> digit (digit_char v) = Z.of_N v /\ dig (digit_char v).
Proof.
  intros H. assert (E : (v = 0 \/ v = 1 \/ v = 2 \/ v = 3 \/ v = 4 \/ v = 5 \/ v = 6 \/ v = 7 \/ v = 8 \/ v = 9)%N) by lia.
  repeat (destruct E as [->|E]; [split; reflexivity|]). subst v. split; reflexivity.
Qed.
Lemma show_digits_spec fuel : forall v acc, (v < 10 ^ N.of_nat fuel)%N -> 0 < fuel ->
  exists ds, show_digits fuel v acc = ds ++ acc /\ Forall dig ds /\ ds <> [] /\ digits_value ds = Z.of_N v.
Proof.
  induction fuel as [|f IH]; intros v acc Hv Hf; [lia|]. cbn [show_digits]. destruct (N.ltb_spec v 10) as [Hlt|Hge].
  - destruct (digit_char_value v Hlt) as [A B]. exists [digit_char v]. split; [reflexivity|]. split; [constructor; [exact B|constructor]|]. split; [discriminate|].
    rewrite dv_cons, A. simpl. unfold digits_value. simpl. lia.
  - rewrite Nat2N.inj_succ, N.pow_succ_r' in Hv. destruct f as [|f]; [simpl in Hv; lia|].
    destruct (IH (v / 10)%N (digit_char (v mod 10) :: acc)) as (ds & A & B & C & D); [apply N.div_lt_upper_bound; lia|lia|].
    assert (Hm : (v mod 10 < 10)%N) by (apply N.mod_lt; lia). destruct (digit_char_value _ Hm) as [E F].
    exists (ds ++ [digit_char (v mod 10)]). rewrite A, <- app_assoc. split; [reflexivity|]. split; [apply Forall_app; split; [exact B|constructor; [exact F|constructor]]|].
    split; [destruct ds; discriminate|]. rewrite dv_app, D. change (digits_value [digit_char (v mod 10)]) with (0 * 10 + digit (digit_char (v mod 10)))%Z. rewrite E.
    simpl length. change (10 ^ Z.of_nat 1)%Z with 10%Z. rewrite (N.div_mod v 10) at 3 by lia. rewrite N2Z.inj_add, N2Z.inj_mul. lia.
Qed.
Lemma show_N_spec v : exists ds, show_N v = ds /\ Forall dig ds /\ ds <> [] /\ digits_value ds = Z.of_N v.
Proof.
  unfold show_N. destruct (show_digits_spec (S (N.size_nat v)) v []) as (ds & A & B & C & D); [|lia|exists ds; rewrite app_nil_r in A; auto].
  destruct v as [|p]; [simpl; lia|]. assert (H : (N.pos p < 2 ^ N.size (N.pos p))%N) by apply N.size_gt.
  assert (E : N.of_nat (N.size_nat (N.pos p)) = N.size (N.pos p)). { simpl. clear. induction p as [p IH|p IH|]; simpl; [| |reflexivity]; rewrite Pos2Nat.id || idtac; simpl in *; lia. }
  rewrite Nat2N.inj_succ, E. apply N.lt_le_trans with (2 ^ N.size (N.pos p))%N; [exact H|].
  transitivity (10 ^ N.size (N.pos p))%N; [apply N.pow_le_mono_l; lia|apply N.pow_le_mono_r; lia].
Qed.

Definition canonical (d : dec) : Prop := scale d = 0 \/ (mant d mod 10 <> 0)%Z.
Lemma norm_canonical k : forall m, canonical (norm m k).
Proof. induction k as [|k IH]; intros m; simpl; [left; reflexivity|]. destruct (Z.eqb_spec (m mod 10) 0); [apply IH|right; assumption]. Qed.
Lemma norm_id m k : k = 0 \/ (m mod 10 <> 0)%Z -> norm m k = mkdec m k.
Proof. intros H. destruct k as [|k]; [reflexivity|]. simpl. destruct H as [H|H]; [discriminate|]. destruct (Z.eqb_spec (m mod 10) 0); [congruence|reflexivity]. Qed.
Lemma percent_trip d : canonical d -> mul100 (div100 d) = d.
Proof.
  destruct d as [m k]. unfold canonical, div100. cbn [mant scale]. intros H. destruct k as [|k].
  - change (0 + 2) with 2. cbn [norm]. destruct (Z.eqb_spec (m mod 10) 0) as [E|E]; [|reflexivity]. pose proof (Z.div_mod m 10). destruct (Z.eqb_spec ((m / 10) mod 10) 0) as [E'|E'].
    + pose proof (Z.div_mod (m / 10) 10). unfold mul100. cbn [scale mant]. f_equal. lia.
    + unfold mul100. cbn [scale mant]. f_equal. lia.
  - destruct H as [H|H]; [discriminate|]. rewrite norm_id by (right; exact H). replace (S k + 2) with (S (S (S k))) by lia. reflexivity.
Qed.
Lemma span_digits_app ds r : Forall dig ds -> digit_next r = false -> span_digits (ds ++ r) = (ds, r).
Proof.
  intros H Hr. induction H as [|c ds Hc Hds IH].
  - simpl. destruct r as [|c r]; [reflexivity|]. simpl in *. rewrite Hr. reflexivity.
  - cbn [app span_digits]. rewrite Hc, IH. reflexivity.
Qed.
Lemma firstn_repeat_dig n : Forall dig (repeat "0"%char n).
Proof. induction n; simpl; constructor; [reflexivity|assumption]. Qed.
(** the text of a number: sign, digits, fraction *)
Lemma show_dec_spec d : exists ds1 ds2, show_dec d = (if Z.ltb (mant d) 0 then tx "-" else []) ++ ds1 ++ (if Nat.eqb (scale d) 0 then [] else "."%char :: ds2) /\
  Forall dig ds1 /\ Forall dig ds2 /\ ds1 <> [] /\ length ds2 = scale d /\ digits_value (ds1 ++ ds2) = Z.abs (mant d).
Proof.
  destruct d as [m k]. unfold show_dec. cbn [mant scale]. destruct (show_N_spec (Z.abs_N m)) as (ds & -> & B & C & D).
  set (w := repeat "0"%char (k + 1 - length ds) ++ ds). assert (Hl : k + 1 <= length w) by (unfold w; rewrite app_length, repeat_length; lia).
  exists (firstn (length w - k) w), (skipn (length w - k) w). split; [reflexivity|].
  assert (Hw : Forall dig w) by (apply Forall_app; split; [apply firstn_repeat_dig|exact B]).
  split; [rewrite <- (firstn_skipn (length w - k) w) in Hw; apply Forall_app in Hw; tauto|].
  split; [rewrite <- (firstn_skipn (length w - k) w) in Hw; apply Forall_app in Hw; tauto|].
  split; [intros E; apply (f_equal (@length _)) in E; rewrite firstn_length in E; simpl in E; lia|].
  split; [rewrite skipn_length; lia|]. rewrite firstn_skipn. unfold w. rewrite dv_zeros, D. lia.
Qed.
Lemma digit_props c : dig c -> is 45 c = false /\ is 43 c = false /\ is 46 c = false /\ is 37 c = false /\ is_white c = false.
Proof. unfold dig. bytes c; vm_compute; intros; try discriminate; repeat split. Qed.

(** the behaviour of [numeric] behind the digits *)
Definition after_digits (r : text) : Prop := digit_next r = false /\ match r with c :: _ => is 46 c = false | [] => True end /\ exponent r = None.
Definition finish (d : dec) (int : bool) (r : text) : tok * text :=
  match r with
  | c :: r' => if is 37 c then (TPercent (div100 d), r') else if ident_start r then let (u, r'') := name r in (TDim d int u, r'') else (TNumber d int, r)
  | [] => (TNumber d int, r)
  end.
Lemma numeric_show d r : canonical d -> after_digits r -> numeric (show_dec d ++ r) = finish d (Nat.eqb (scale d) 0) r.
Proof.
  intros Hd (Hr1 & Hr2 & Hr3). destruct (show_dec_spec d) as (ds1 & ds2 & -> & A & B & C & D & E). unfold numeric.
  assert (Hsign : split_sign (((if Z.ltb (mant d) 0 then tx "-" else []) ++ ds1 ++ (if Nat.eqb (scale d) 0 then [] else "."%char :: ds2)) ++ r)
     = (Z.ltb (mant d) 0, ds1 ++ (if Nat.eqb (scale d) 0 then [] else "."%char :: ds2) ++ r)).
  { destruct (Z.ltb (mant d) 0).
    - cbn [tx list_ascii_of_string app]. rewrite <- !app_assoc. reflexivity.
    - cbn [app]. rewrite <- !app_assoc. destruct ds1 as [|c ds1]; [congruence|]. apply Forall_inv in A. destruct (digit_props c A) as (A1 & A2 & _). cbn [app split_sign]. rewrite A1, A2. reflexivity. }
  rewrite Hsign. clear Hsign. cbv zeta. cbv iota.
  assert (Hm : (if Z.ltb (mant d) 0 then (- Z.abs (mant d))%Z else Z.abs (mant d)) = mant d) by (destruct (Z.ltb_spec (mant d) 0); lia).
  destruct (Nat.eqb_spec (scale d) 0) as [Ez|Ez].
  - cbn [app]. rewrite span_digits_app by assumption. cbv iota. rewrite Ez in D. destruct ds2 as [|x ds2]; [|discriminate]. rewrite app_nil_r in E.
    destruct r as [|c r].
    + cbn [app exponent length norm negb]. rewrite app_nil_r, E, Hm. destruct d as [m k]. simpl in *. subst k. reflexivity.
    + rewrite Hr2. cbn [andb]. cbv iota. rewrite Hr3. cbn [length norm negb]. rewrite app_nil_r, E, Hm. destruct d as [m k]. simpl in Ez. subst k. cbn [mant].
      unfold finish. reflexivity.
  - rewrite span_digits_app by (auto; reflexivity). cbv iota. cbn [app]. change (is 46 ".") with true.
    assert (Hn : digit_next (ds2 ++ r) = true). { destruct ds2 as [|x ds2]; [simpl in D; lia|]. apply Forall_inv in B. exact B. }
    rewrite Hn. cbn [andb]. rewrite span_digits_app by assumption. cbv iota. rewrite Hr3, D, E. rewrite Hm. cbn [negb].
    rewrite norm_id by (destruct Hd as [Hd|Hd]; auto). destruct d as [m k]. reflexivity.
Qed.
Lemma space_after r : space r -> after_digits r.
Proof. intros [->|[r' ->]]; repeat split. Qed.
Lemma percent_after r : after_digits ("%"%char :: r).
Proof. repeat split. Qed.
Lemma unit_after u r : ident_start u = true -> Forall clean u -> exponent_like u = false -> space r -> after_digits (u ++ r).
Proof.
  intros Hi Hcl He Hr. pose proof (clean_nobs _ Hcl) as Hn. destruct u as [|c u]; [discriminate|]. cbn [app]. apply nobs_cons in Hn. destruct Hn as [Hc Hn].
  assert (Hcc : is 45 c = true \/ name_start c = true) by (cbn [ident_start] in Hi; rewrite Hc in Hi; destruct (is 45 c); auto).
  split; [|split].
  - simpl. revert Hcc. clear. bytes c; vm_compute; intros []; congruence.
  - revert Hcc. clear. bytes c; vm_compute; intros []; congruence.
  - cbn [exponent]. destruct (is 101 c || is 69 c)%bool eqn:Ee; [|reflexivity].
    destruct u as [|d u].
    + cbn [app]. destruct Hr as [->|[r' ->]]; reflexivity.
    + cbn [exponent_like] in He. rewrite Ee in He. cbn [andb] in He. apply Bool.orb_false_iff in He. destruct He as [He1 He2].
      assert (Hu : digit_next (u ++ r) = digit_next u) by (destruct u as [|x u]; [destruct Hr as [->|[r' ->]]; reflexivity|reflexivity]).
      cbn [app digit_next]. rewrite He1. destruct (is 43 d || is 45 d)%bool eqn:Es; [|reflexivity]. cbn [andb]. rewrite Hu.
      destruct (is 45 d) eqn:E45; [simpl in He2; rewrite He2; reflexivity|]. rewrite Bool.orb_false_r in Es. exfalso.
      inversion Hcl as [|? ? _ Hcl']; subst. inversion Hcl' as [|? ? [Hd _] _]; subst. apply is_code in Es. subst d. discriminate Hd.
Qed.
