From Coq Require Import QArith Qround Ascii String Sorted Lqa Lia Qfield.
From Verif Require Import Base Easing EasingSpec.
Open Scope nat_scope.

(** ** Text *)
Lemma parse_point_stop s x : parse_point s = Some x <-> stop_text s x.
Proof.
  split.
  - destruct s as [|[] [|[] [|]]]; simpl; intros H; try discriminate; injection H as <-; constructor.
  - intros H; inversion H; reflexivity.
Qed.
Lemma split_app s r : (forall t, In t s -> t <> EComma) -> split_commas (s ++ EComma :: r) = s :: split_commas r.
Proof.
  induction s as [|t s IH]; intros H; [reflexivity|]. cbn [app split_commas]. rewrite IH by (intros; apply H; right; assumption).
  destruct t; try reflexivity. exfalso. apply (H EComma); [left|]; reflexivity.
Qed.
Lemma split_none s : (forall t, In t s -> t <> EComma) -> split_commas s = [s].
Proof.
  induction s as [|t s IH]; intros H; [reflexivity|]. cbn [split_commas]. rewrite IH by (intros; apply H; right; assumption).
  destruct t; try reflexivity. exfalso. apply (H EComma); [left|]; reflexivity.
Qed.
Lemma stop_no_comma s x : stop_text s x -> forall t, In t s -> t <> EComma.
Proof. intros H; inversion H; subst; simpl; intuition subst; discriminate. Qed.
Lemma split_cases l : (exists s r, l = s ++ EComma :: r /\ split_commas l = s :: split_commas r) \/ split_commas l = [l].
Proof.
  induction l as [|t l IH]; [right; reflexivity|].
  assert (Hc : t = EComma \/ t <> EComma) by (destruct t; auto; right; discriminate). destruct Hc as [->|Hc].
  - left. exists [], l. split; reflexivity.
  - assert (He : split_commas (t :: l) = match split_commas l with s :: ss => (t :: s) :: ss | [] => [[t]] end) by (destruct t; try reflexivity; congruence).
    rewrite He. destruct IH as [(s & r & -> & H)|H]; rewrite H; [left; exists (t :: s), r; split; reflexivity|right; reflexivity].
Qed.
Lemma parse_stops l xs : parse_points (split_commas l) = Some xs <-> stops_text l xs.
Proof.
  split.
  - remember (length l) as n eqn:Hn. revert l xs Hn. induction n as [n IH] using lt_wf_ind. intros l xs -> H.
    destruct (split_cases l) as [(s & r & -> & Hs)|Hs]; rewrite Hs in H; simpl in H.
    + destruct (parse_point s) as [x|] eqn:Ex; [|discriminate]. destruct (parse_points (split_commas r)) as [ys|] eqn:Ey; [|discriminate].
      injection H as <-. constructor; [apply parse_point_stop; exact Ex|]. apply (IH (length r)); auto. rewrite app_length. simpl. lia.
    + destruct (parse_point l) as [x|] eqn:Ex; [|discriminate]. injection H as <-. constructor. apply parse_point_stop; exact Ex.
  - intros H; induction H as [s x Hs|s x r xs Hs H IH].
    + rewrite split_none by (eapply stop_no_comma; eassumption). simpl. apply parse_point_stop in Hs. rewrite Hs. reflexivity.
    + rewrite split_app by (eapply stop_no_comma; eassumption). simpl. apply parse_point_stop in Hs. rewrite Hs, IH. reflexivity.
Qed.

(** ** Places *)
Definition gv (L : list (option Q * Q)) (i : nat) : option Q := match nth_error L i with Some (o, _) => o | None => None end.
Lemma set_last_length l : length (set_last l) = length l.
Proof. induction l as [|[[p|] y] [|x l] IH]; try reflexivity; simpl in *; congruence. Qed.
Lemma set_last_snd l : map snd (set_last l) = map snd l.
Proof. induction l as [|[[p|] y] [|x l] IH]; try reflexivity; cbn [set_last map] in *; rewrite IH; reflexivity. Qed.
Lemma set_first_length l : length (set_first l) = length l.
Proof. destruct l as [|[[|] ?] ?]; reflexivity. Qed.
Lemma set_first_snd l : map snd (set_first l) = map snd l.
Proof. destruct l as [|[[|] ?] ?]; reflexivity. Qed.
Lemma gv_set_last l i : gv (set_last l) i = match gv l i with Some p => Some p | None => if Nat.eqb (S i) (length l) then Some 1%Q else None end.
Proof.
  revert i; induction l as [|x [|x' l] IH]; intros i.
  - destruct i; reflexivity.
  - destruct x as [[p|] y], i as [|[|i]]; reflexivity.
  - assert (He : set_last (x :: x' :: l) = x :: set_last (x' :: l)) by (destruct x as [[|] ?]; reflexivity). rewrite He.
    destruct i as [|i].
    + destruct x as [[p|] y]; reflexivity.
    + change (gv (x :: set_last (x' :: l)) (S i)) with (gv (set_last (x' :: l)) i). rewrite IH. reflexivity.
Qed.
Lemma gv_set_first l i : gv (set_first l) i = match gv l i with Some p => Some p | None => if Nat.eqb i 0 && negb (Nat.eqb (length l) 0) then Some 0%Q else None end.
Proof. destruct l as [|[[p|] y] l], i as [|i]; try reflexivity; unfold gv; simpl; destruct (nth_error l i) as [[[|] ?]|]; reflexivity. Qed.
Lemma gv_written l i : gv (set_last (set_first l)) i = written l i.
Proof.
  rewrite gv_set_last, gv_set_first, set_first_length. unfold written, gv.
  destruct (nth_error l i) as [[[p|] y]|] eqn:En; auto.
  - assert (i < length l) by (apply nth_error_Some; congruence).
    destruct (Nat.eqb_spec i 0) as [->|Hi]; cbn [andb].
    + destruct (Nat.eqb_spec (length l) 0); [lia|reflexivity].
    + destruct (Nat.eqb_spec (S i) (length l)), (Nat.eqb_spec i (length l - 1)); auto; lia.
  - apply nth_error_None in En. destruct (Nat.eqb_spec i 0) as [->|Hi]; cbn [andb].
    + destruct l; [reflexivity|simpl in En; lia].
    + destruct (Nat.eqb_spec (S i) (length l)); [lia|reflexivity].
Qed.

Lemma rm_length prev l : length (running_max prev l) = length l.
Proof. revert prev; induction l as [|[[p|] y] l IH]; intros prev; simpl; auto. destruct (negb _); simpl; auto. Qed.
Lemma rm_snd prev l : map snd (running_max prev l) = map snd l.
Proof. revert prev; induction l as [|[[p|] y] l IH]; intros prev; simpl; auto; [|rewrite IH; reflexivity]. destruct (negb _); simpl; rewrite IH; reflexivity. Qed.
Lemma gv_cons x l i : gv (x :: l) (S i) = gv l i. Proof. reflexivity. Qed.
Lemma rm_none prev l i : gv (running_max prev l) i = None <-> gv l i = None.
Proof.
  revert prev i; induction l as [|[[p|] y] l IH]; intros prev i; simpl; [tauto| |].
  - destruct (negb _); destruct i as [|i]; rewrite ?gv_cons; try apply IH; unfold gv; simpl; split; discriminate.
  - destruct i as [|i]; rewrite ?gv_cons; [unfold gv; simpl; tauto|apply IH].
Qed.
Lemma rm_some prev l i m : gv (running_max prev l) i = Some m ->
  (prev <= m)%Q /\ (forall j q, j <= i -> gv l j = Some q -> (q <= m)%Q) /\ (m = prev \/ exists j, j <= i /\ gv l j = Some m).
Proof.
  revert prev i; induction l as [|[[p|] y] l IH]; intros prev i H; simpl in H.
  - destruct i; discriminate.
  - destruct (Qle_bool prev p) eqn:Ep; simpl in H.
    + apply Qle_bool_iff in Ep. destruct i as [|i].
      * unfold gv in H; simpl in H. injection H as <-. split; [exact Ep|]. split; [|right; exists 0; split; [lia|reflexivity]].
        intros j q Hj Hq. assert (j = 0) by lia. subst. unfold gv in Hq; simpl in Hq. injection Hq as <-. lra.
      * rewrite gv_cons in H. destruct (IH p i H) as (I1 & I2 & I3). split; [lra|]. split.
        -- intros [|j] q Hj Hq; [unfold gv in Hq; simpl in Hq; injection Hq as <-; exact I1|]. apply (I2 j); [lia|exact Hq].
        -- right. destruct I3 as [->|(j & Hj & Hg)]; [exists 0; split; [lia|reflexivity]|exists (S j); split; [lia|exact Hg]].
    + assert (Hp : (p <= prev)%Q). { destruct (Qlt_le_dec prev p); [|assumption]. assert (prev <= p)%Q by lra. apply Qle_bool_iff in H0. congruence. }
      destruct i as [|i].
      * unfold gv in H; simpl in H. injection H as <-. split; [lra|]. split; [|left; reflexivity].
        intros j q Hj Hq. assert (j = 0) by lia. subst. unfold gv in Hq; simpl in Hq. injection Hq as <-. exact Hp.
      * rewrite gv_cons in H. destruct (IH prev i H) as (I1 & I2 & I3). split; [exact I1|]. split.
        -- intros [|j] q Hj Hq; [unfold gv in Hq; simpl in Hq; injection Hq as <-; lra|]. apply (I2 j); [lia|exact Hq].
        -- destruct I3 as [->|(j & Hj & Hg)]; [left; reflexivity|right; exists (S j); split; [lia|exact Hg]].
  - destruct i as [|i]; [discriminate|]. rewrite gv_cons in H. destruct (IH prev i H) as (I1 & I2 & I3). split; [exact I1|]. split.
    + intros [|j] q Hj Hq; [discriminate|]. apply (I2 j); [lia|exact Hq].
    + destruct I3 as [->|(j & Hj & Hg)]; [left; reflexivity|right; exists (S j); split; [lia|exact Hg]].
Qed.

(** even spacing *)
Definition QN (n : nat) : Q := inject_Z (Z.of_nat n).
Lemma spread_length a b run : length (spread a b run) = length run.
Proof. unfold spread. rewrite map_length, combine_length, seq_length. apply Nat.min_id. Qed.
Lemma spread_snd a b run : map snd (spread a b run) = run.
Proof.
  unfold spread. rewrite map_map. simpl. rewrite <- (map_map snd (fun x => x)), map_id.
  generalize 0. induction run as [|y run IH]; intros n; simpl; auto. rewrite IH. reflexivity.
Qed.
Lemma nth_combine_seq (f : nat * Q -> Q) run : forall s i d, i < length run -> nth i (map f (combine (seq s (length run)) run)) d = f (s + i, nth i run 0%Q).
Proof.
  induction run as [|y run IH]; intros s i d H; simpl in *; [lia|]. destruct i as [|i]; [rewrite Nat.add_0_r; reflexivity|].
  rewrite IH by lia. f_equal. f_equal. lia.
Qed.
Lemma spread_place a b run i : i < length run -> (place (spread a b run) i == a + (b - a) * (QN (i + 1) / QN (length run + 1)))%Q.
Proof.
  intros Hi. unfold place, spread. rewrite map_map. cbn [fst].
  rewrite (nth_combine_seq (fun iy => (a + inject_Z (Z.of_nat (fst iy + 1)) * ((b - a) / inject_Z (Z.of_nat (length run + 1))))%Q)) by exact Hi.
  cbn [fst]. rewrite Nat.add_0_l. fold (QN (i + 1)) (QN (length run + 1)). field.
  unfold QN. intros H. unfold Qeq in H. simpl in H. lia.
Qed.

Lemma QN_pos n : (0 < QN (n + 1))%Q.
Proof. unfold QN, Qlt. simpl. lia. Qed.
Lemma place_app_l a b i : i < length a -> place (a ++ b) i = place a i.
Proof. intros H. unfold place. rewrite map_app, app_nth1; [reflexivity|rewrite map_length; exact H]. Qed.
Lemma place_app_r a b i : place (a ++ b) (length a + i) = place b i.
Proof. unfold place. rewrite map_app, app_nth2 by (rewrite map_length; lia). rewrite map_length. replace (length a + i - length a) with i by lia. reflexivity. Qed.
Lemma place_S x l i : place (x :: l) (S i) = place l i. Proof. reflexivity. Qed.
Definition blanks (run : list Q) : list (option Q * Q) := map (fun y => (None, y)) run.
Lemma gv_app_l a b i : i < length a -> gv (a ++ b) i = gv a i.
Proof. intros H. unfold gv. rewrite nth_error_app1 by exact H. reflexivity. Qed.
Lemma gv_app_r a b i : gv (a ++ b) (length a + i) = gv b i.
Proof. unfold gv. rewrite nth_error_app2 by lia. replace (length a + i - length a) with i by lia. reflexivity. Qed.
Lemma gv_blanks run i : gv (blanks run) i = None.
Proof. unfold gv, blanks. rewrite nth_error_map. destruct (nth_error run i); reflexivity. Qed.

Lemma fill_spec l : forall from run rs, fill_even from run l = Some rs -> let L := blanks run ++ l in
  length rs = length L /\ map snd rs = map snd L /\
  (forall i p, gv L i = Some p -> place rs i = p) /\
  (forall i b q, i < b -> gv L b = Some q -> (forall j, j < b -> gv L j = None) -> (place rs i == from + (q - from) * (QN (i + 1) / QN (b + 1)))%Q) /\
  (forall a i b p q, a < i < b -> gv L a = Some p -> gv L b = Some q -> (forall j, a < j < b -> gv L j = None) ->
     (place rs i == p + (q - p) * (QN (i - a) / QN (b - a)))%Q).
Proof.
  induction l as [|[[p|] y] l IH]; intros from run rs H L; cbn [fill_even] in H.
  - destruct run; [|discriminate]. injection H as <-. repeat split; intros; try (destruct i; discriminate); try (destruct b; discriminate).
  - destruct (fill_even p [] l) as [rest|] eqn:Er; [|discriminate]. injection H as <-.
    destruct (IH p [] rest Er) as (I1 & I2 & I3 & I4 & I5). simpl in I1, I2. cbn [blanks map app] in I3, I4, I5.
    assert (HLn : length (blanks run) = length run) by apply map_length.
    assert (Hgn : gv L (length run) = Some p).
    { unfold L. rewrite <- (Nat.add_0_r (length run)), <- HLn, gv_app_r. reflexivity. }
    assert (Hgl : forall i, i < length run -> gv L i = None).
    { intros i Hi. unfold L. rewrite gv_app_l by lia. apply gv_blanks. }
    assert (Hgr : forall i, gv L (length run + S i) = gv l i).
    { intros i. unfold L. rewrite <- HLn, gv_app_r. reflexivity. }
    assert (Hpl : forall i, i < length run -> (place (spread from p run ++ (p, y) :: rest) i == from + (p - from) * (QN (i + 1) / QN (length run + 1)))%Q).
    { intros i Hi. rewrite place_app_l by (rewrite spread_length; exact Hi). apply spread_place. exact Hi. }
    assert (Hpn : place (spread from p run ++ (p, y) :: rest) (length run) = p).
    { rewrite <- (Nat.add_0_r (length run)), <- (spread_length from p run), place_app_r. reflexivity. }
    assert (Hpr : forall i, place (spread from p run ++ (p, y) :: rest) (length run + S i) = place rest i).
    { intros i. rewrite <- (spread_length from p run) at 1. rewrite place_app_r. reflexivity. }
    assert (Hcase : forall i, i < length run \/ i = length run \/ exists j, i = length run + S j).
    { intros i. destruct (lt_eq_lt_dec i (length run)) as [[?|?]|?]; auto. right; right. exists (i - length run - 1). lia. }
    split; [unfold L; rewrite !app_length, spread_length; simpl; rewrite I1, HLn; reflexivity|].
    split; [unfold L; rewrite !map_app, spread_snd; simpl; rewrite I2; f_equal; unfold blanks; rewrite map_map; simpl; rewrite map_id; reflexivity|].
    split; [|split].
    + intros i r Hi. destruct (Hcase i) as [Hl|[->|(j & ->)]]; [rewrite Hgl in Hi by exact Hl; discriminate|rewrite Hgn in Hi; injection Hi as <-; exact Hpn|].
      rewrite Hpr. rewrite Hgr in Hi. apply I3. exact Hi.
    + intros i b q Hib Hb Hno. assert (b = length run).
      { destruct (Hcase b) as [Hl|[->|(j & ->)]]; auto; [rewrite Hgl in Hb by exact Hl; discriminate|]. rewrite (Hno (length run)) in Hgn by lia. discriminate. }
      subst b. rewrite Hgn in Hb. injection Hb as <-. apply Hpl. exact Hib.
    + intros a i b r q Hab Ha Hb Hno. destruct (Hcase a) as [Hl|[->|(a' & ->)]]; [rewrite Hgl in Ha by exact Hl; discriminate| |].
      * rewrite Hgn in Ha. injection Ha as <-. destruct (Hcase i) as [Hl|[->|(i' & ->)]]; try lia. destruct (Hcase b) as [Hl|[->|(b' & ->)]]; try lia.
        rewrite Hpr. rewrite Hgr in Hb. rewrite (I4 i' b' q); [|lia|exact Hb|].
        -- replace (length run + S i' - length run) with (i' + 1) by lia. replace (length run + S b' - length run) with (b' + 1) by lia. reflexivity.
        -- intros j Hj. rewrite <- Hgr. apply Hno. lia.
      * destruct (Hcase i) as [Hl|[->|(i' & ->)]]; try lia. destruct (Hcase b) as [Hl|[->|(b' & ->)]]; try lia.
        rewrite Hpr. rewrite Hgr in Ha, Hb. rewrite (I5 a' i' b' r q); [|lia|exact Ha|exact Hb|].
        -- replace (length run + S i' - (length run + S a')) with (i' - a') by lia. replace (length run + S b' - (length run + S a')) with (b' - a') by lia. reflexivity.
        -- intros j Hj. rewrite <- Hgr. apply Hno. lia.
  - assert (HL : L = blanks (run ++ [y]) ++ l) by (unfold L, blanks; rewrite map_app, <- app_assoc; reflexivity). rewrite HL. apply IH. exact H.
Qed.
Lemma gv_last_cons x l : l <> [] -> gv (x :: l) (length (x :: l) - 1) = gv l (length l - 1).
Proof. intros H. destruct l as [|z l]; [congruence|]. simpl length. replace (S (S (length l)) - 1) with (S (S (length l) - 1)) by lia. apply gv_cons. Qed.
Lemma fill_total l : forall from run, gv l (length l - 1) <> None \/ (l = [] /\ run = []) -> exists rs, fill_even from run l = Some rs.
Proof.
  induction l as [|[[p|] y] l IH]; intros from run H; cbn [fill_even].
  - destruct H as [H|[_ ->]]; [exfalso; apply H; reflexivity|eexists; reflexivity].
  - destruct (IH p []) as [rs ->]; [|eexists; reflexivity]. destruct l as [|x l]; [right; auto|left].
    destruct H as [H|[H _]]; [|discriminate]. rewrite gv_last_cons in H by discriminate. exact H.
  - apply IH. destruct H as [H|[H _]]; [|discriminate]. left. destruct l as [|x l]; [exfalso; apply H; reflexivity|].
    rewrite gv_last_cons in H by discriminate. exact H.
Qed.

Lemma normalise_spec l : l <> [] -> exists pts, normalise l = Some pts /\ means l pts.
Proof.
  intros Hl. destruct (Nat.eq_dec (length l) 1) as [H1|H1].
  - destruct l as [|[o y] [|? ?]]; try discriminate. assert (Hw : forall i p, written [(o, y)] i = Some p -> i = 0 /\ p = match o with Some p => p | None => 0%Q end).
    { intros [|i] p H; [split; auto|destruct i; discriminate]. unfold written in H. simpl in H. destruct o; congruence. }
    exists [(match o with Some p => p | None => 0%Q end, y)]. split; [destruct o; reflexivity|]. split; [reflexivity|]. split; [reflexivity|]. split.
    + intros i p Hi. destruct (Hw _ _ Hi) as [-> ->]. split.
      * exists 0, (match o with Some p => p | None => 0%Q end). repeat split; auto.
      * intros j q Hj Hq. destruct (Hw _ _ Hq) as [-> ->]. unfold place; simpl. lra.
    + intros a i b Hab _ Hb _. exfalso. destruct (written [(o, y)] b) eqn:Eb; [|congruence]. destruct (Hw _ _ Eb). lia.
  - set (L0 := set_last (set_first l)). assert (Hlen : length L0 = length l) by (unfold L0; rewrite set_last_length, set_first_length; reflexivity).
    assert (H2 : 2 <= length l) by (destruct l as [|? [|? ?]]; simpl in *; try congruence; lia).
    assert (Hg : forall i, gv L0 i = written l i) by (intros; apply gv_written).
    assert (Hg0 : exists p0, gv L0 0 = Some p0).
    { rewrite Hg. unfold written. destruct l as [|[[p|] y] l]; [simpl in H2; lia| |]; simpl; eauto. }
    destruct Hg0 as [p0 Hg0].
    assert (Hglast : gv L0 (length L0 - 1) <> None).
    { rewrite Hg, Hlen. unfold written. destruct (nth_error l (length l - 1)) as [[[p|] y]|] eqn:En; try discriminate.
      - rewrite Nat.eqb_refl. destruct (Nat.eqb _ 0); discriminate.
      - apply nth_error_None in En. lia. }
    assert (Hnorm : normalise l = match running_max p0 L0 with (Some p, y) :: r => option_map (cons (p, y)) (fill_even p [] r) | _ => None end).
    { unfold normalise. unfold L0 in *. destruct (set_first l) as [|[o y] r] eqn:Esf; [rewrite set_last_length in Hlen; simpl in Hlen; lia|].
      destruct r as [|x r]; [rewrite set_last_length in Hlen; simpl in Hlen; lia|].
      assert (o = Some p0). { rewrite gv_set_last in Hg0. unfold gv in Hg0. simpl in Hg0. destruct o; [congruence|discriminate]. }
      subst o. reflexivity. }
    rewrite Hnorm. set (L := running_max p0 L0). assert (HlL : length L = length l) by (unfold L; rewrite rm_length; exact Hlen).
    destruct L as [|[o y] r] eqn:EL; [simpl in HlL; lia|].
    assert (HgL0 : gv L 0 = Some p0).
    { unfold L. destruct L0 as [|[o0 y0] L1]; [discriminate|]. unfold gv in Hg0. simpl in Hg0. subst o0. simpl.
      assert (Hr : Qle_bool p0 p0 = true) by (apply Qle_bool_iff; lra). rewrite Hr. reflexivity. }
    rewrite EL in HgL0. unfold gv in HgL0. simpl in HgL0. subst o.
    assert (HlastL : gv L (length L - 1) <> None). { unfold L. rewrite rm_none, rm_length. exact Hglast. }
    destruct (fill_total r p0 []) as [rs Hrs].
    { left. rewrite EL in HlastL. rewrite gv_last_cons in HlastL; [exact HlastL|]. destruct r; [simpl in HlL; lia|discriminate]. }
    rewrite Hrs. eexists. split; [reflexivity|].
    destruct (fill_spec r p0 [] rs Hrs) as (F1 & F2 & F3 & F4 & F5). cbn [blanks map app] in *.
    assert (Hsnd : map snd L = map snd l) by (unfold L, L0; rewrite rm_snd, set_last_snd, set_first_snd; reflexivity).
    assert (Hplace : forall i p, gv L i = Some p -> place ((p0, y) :: rs) i = p).
    { rewrite EL. intros [|i] p Hi; [unfold gv in Hi; simpl in Hi; injection Hi as <-; reflexivity|]. apply F3. exact Hi. }
    split; [simpl in *; congruence|]. split; [simpl; rewrite F2; rewrite EL in Hsnd; exact Hsnd|]. split.
    + intros i p Hi. rewrite <- Hg in Hi. assert (Hne : gv L i <> None) by (unfold L; rewrite rm_none; congruence).
      destruct (gv L i) as [m|] eqn:Em; [|congruence]. rewrite (Hplace i m Em). unfold L in Em. destruct (rm_some _ _ _ _ Em) as (_ & R2 & R3). split.
      * destruct R3 as [->|(j & Hj & Hjg)]; [exists 0, p0; rewrite <- Hg; split; [lia|split; [exact Hg0|reflexivity]]|exists j, m; rewrite <- Hg; split; [exact Hj|split; [exact Hjg|reflexivity]]].
      * intros j q Hj Hq. rewrite <- Hg in Hq. eapply R2; eassumption.
    + intros a i b Hab Ha Hb Hno. rewrite <- Hg in Ha, Hb.
      assert (Ha' : gv L a <> None) by (unfold L; rewrite rm_none; exact Ha). assert (Hb' : gv L b <> None) by (unfold L; rewrite rm_none; exact Hb).
      assert (Hno' : forall k, a < k < b -> gv L k = None) by (intros k Hk; unfold L; rewrite rm_none, Hg; apply Hno; exact Hk).
      destruct (gv L a) as [pa|] eqn:Ea; [|congruence]. destruct (gv L b) as [pb|] eqn:Eb; [|congruence].
      rewrite (Hplace a pa Ea), (Hplace b pb Eb). rewrite EL in Ea, Eb, Hno'.
      destruct i as [|i]; [lia|]. destruct b as [|b]; [lia|]. rewrite place_S, gv_cons in *. destruct a as [|a].
      * unfold gv in Ea. simpl in Ea. injection Ea as <-. rewrite (F4 i b pb); [|lia|exact Eb|].
        -- replace (S i - 0) with (i + 1) by lia. replace (S b - 0) with (b + 1) by lia. reflexivity.
        -- intros j Hj. rewrite <- (Hno' (S j)) by lia. reflexivity.
      * rewrite gv_cons in Ea. rewrite (F5 a i b pa pb); [|lia|exact Ea|exact Eb|].
        -- reflexivity.
        -- intros j Hj. rewrite <- (Hno' (S j)) by lia. reflexivity.
Qed.

(** ** The curve through points *)
Lemma Qle_bool_false a b : Qle_bool a b = false -> (b < a)%Q.
Proof. intros H. apply Qnot_le_lt. intros H1. apply Qle_bool_iff in H1. congruence. Qed.
Lemma Qle_bool_lt a b : (b < a)%Q -> Qle_bool a b = false.
Proof. intros H. destruct (Qle_bool a b) eqn:E; auto. apply Qle_bool_iff in E. lra. Qed.
Lemma Qeq_bool_false a b : ~ (a == b)%Q -> Qeq_bool a b = false.
Proof. intros H. destruct (Qeq_bool a b) eqn:E; auto. apply Qeq_bool_eq in E. contradiction. Qed.

Lemma ins_pos l : ascending l -> Forall (fun k => (0 < fst k <= 1)%Q) l ->
  fold_right insert_pt [(0, 0); (1, 1)]%Q l = ((0, 0) :: l ++ [(1, 1)])%Q.
Proof.
  induction l as [|k l IH]; intros Ha Hf; [reflexivity|]. unfold ascending in Ha. simpl in Ha. inversion Ha as [|? ? Ha1 Ha2]; subst.
  apply Forall_cons_iff in Hf. destruct Hf as [Hk Hf]. simpl. rewrite IH by assumption. cbn [insert_pt fst]. rewrite Qle_bool_lt by lra.
  f_equal. destruct l as [|k' l]; cbn [app insert_pt fst].
  - destruct (Qle_bool (fst k) 1) eqn:E; [reflexivity|]. apply Qle_bool_false in E. lra.
  - simpl in Ha2. apply Forall_cons_iff in Ha2. destruct Ha2 as [Hlt _].
    destruct (Qle_bool (fst k) (fst k')) eqn:E; [reflexivity|]. apply Qle_bool_false in E. lra.
Qed.
Definition tail1 (k : Q * Q) : list (Q * Q) := if Qeq_bool (fst k) 1 then [] else [(1, 1)]%Q.
Lemma dedup_tail l : forall k, ascending (k :: l) -> dedup_pts k (l ++ [(1, 1)]%Q) = k :: l ++ tail1 (last (k :: l) k).
Proof.
  induction l as [|k' l IH]; intros k Ha.
  - unfold tail1. simpl. destruct (Qeq_bool (fst k) 1); reflexivity.
  - unfold ascending in Ha. simpl in Ha. inversion Ha as [|? ? Ha1 Ha2]; subst. apply Forall_cons_iff in Ha2. destruct Ha2 as [Hlt _].
    cbn [app dedup_pts]. rewrite Qeq_bool_false by lra. rewrite IH by exact Ha1. f_equal. f_equal. f_equal. f_equal. cbn [last]. destruct l as [|k2 l]; [reflexivity|].
    clear. revert k2. induction l as [|k3 l IH]; intros k2; [reflexivity|]. exact (IH k3).
Qed.
Definition head0 (k : Q * Q) : list (Q * Q) := if Qeq_bool (fst k) 0 then [] else [(0, 0)]%Q.
Lemma fold_insert_app l m : fold_right insert_pt [] (l ++ m) = fold_right insert_pt (fold_right insert_pt [] m) l.
Proof. apply fold_right_app. Qed.
Lemma uneven_curve k l : l <> [] -> ascending (k :: l) -> Forall (fun x => (0 <= fst x <= 1)%Q) (k :: l) ->
  uneven_pts ((k :: l) ++ [(0, 0); (1, 1)]%Q) = Some (head0 k ++ (k :: l) ++ tail1 (last (k :: l) k)).
Proof.
  intros Hl Ha Hf. unfold uneven_pts. rewrite fold_insert_app. change (fold_right insert_pt [] [(0, 0); (1, 1)]%Q) with [(0, 0); (1, 1)]%Q.
  pose proof Ha as Ha'. unfold ascending in Ha'. simpl in Ha'. inversion Ha' as [|? ? Ha1 Ha2]; subst. apply Forall_cons_iff in Hf. destruct Hf as [Hk Hf].
  assert (Hpos : Forall (fun x => (0 < fst x <= 1)%Q) l).
  { rewrite Forall_forall in *. intros x Hx. specialize (Hf x Hx). specialize (Ha2 (fst x) (in_map fst _ _ Hx)). lra. }
  cbn [fold_right]. rewrite (ins_pos l Ha1 Hpos). cbn [insert_pt]. unfold head0. cbn [fst].
  destruct (Qeq_bool (fst k) 0) eqn:E0.
  - apply Qeq_bool_eq in E0. assert (Hle : Qle_bool (fst k) 0 = true) by (apply Qle_bool_iff; lra). rewrite Hle.
    cbn [dedup_pts fst]. assert (He : Qeq_bool (fst k) 0 = true) by (apply Qeq_bool_iff; exact E0). rewrite He.
    rewrite dedup_tail by exact Ha. cbn [app]. destruct l as [|k' l]; [congruence|]. reflexivity.
  - assert (Hk0 : (0 < fst k)%Q). { destruct Hk as [Hk _]. apply Qle_lteq in Hk. destruct Hk as [Hk|Hk]; auto. symmetry in Hk. apply Qeq_bool_iff in Hk. congruence. }
    rewrite Qle_bool_lt by exact Hk0.
    assert (Hins : insert_pt k (l ++ [(1, 1)]%Q) = k :: l ++ [(1, 1)]%Q).
    { destruct l as [|k' l]; [congruence|]. cbn [app insert_pt]. simpl in Ha2. apply Forall_cons_iff in Ha2. destruct Ha2 as [Hlt _].
      destruct (Qle_bool (fst k) (fst k')) eqn:E; [reflexivity|]. apply Qle_bool_false in E. lra. }
    rewrite Hins. cbn [dedup_pts fst]. rewrite Qeq_bool_false by lra. rewrite dedup_tail by exact Ha. destruct l as [|k' l]; [congruence|]. reflexivity.
Qed.
Lemma sample_after_eq k l x : sample_after k l x =
  if Qeq_bool x (fst k) then snd k
  else match l with
       | [] => snd k
       | k' :: r => if Qle_bool (fst k') x then sample_after k' r x else lerpq (snd k) (snd k') ((x - fst k) / (fst k' - fst k))
       end.
Proof. destruct l; reflexivity. Qed.
Lemma sample_after_broken l : forall k B x, ascending (k :: l) -> (fst k <= x)%Q -> (exists t, In t (map fst (k :: l)) /\ (x <= t)%Q) ->
  on_broken (k :: l) x (sample_after k (l ++ B) x).
Proof.
  induction l as [|k' l IH]; intros [tk yk] B x Ha Hx (t & Hin & Ht); rewrite sample_after_eq; cbn [map fst snd] in *.
  - destruct Hin as [<-|[]]. assert (He : (x == tk)%Q) by lra. apply Qeq_bool_iff in He. rewrite He. apply Qeq_bool_iff in He. apply br_point; [exact He|reflexivity].
  - destruct (Qeq_bool x tk) eqn:Ex; [apply Qeq_bool_iff in Ex; apply br_point; [exact Ex|reflexivity]|].
    unfold ascending in Ha. cbn [map fst] in Ha. inversion Ha as [|? ? Ha1 Ha2]; subst. apply Forall_cons_iff in Ha2. destruct Ha2 as [Hlt _].
    cbn [app]. destruct (Qle_bool (fst k') x) eqn:El.
    + apply Qle_bool_iff in El. apply br_further. apply IH; [exact Ha1|exact El|]. destruct Hin as [<-|Hin]; [lra|]. exists t. split; assumption.
    + apply Qle_bool_false in El. destruct k' as [tk' yk']. cbn [fst snd] in *. apply br_segment; [|reflexivity].
      split; [|exact El]. apply Qle_lteq in Hx. destruct Hx as [Hx|Hx]; auto. symmetry in Hx. apply Qeq_bool_iff in Hx. congruence.
Qed.
Lemma last_default {X} (l : list X) d d' : l <> [] -> last l d = last l d'.
Proof. induction l as [|x [|y l] IH]; intros H; [congruence|reflexivity|]. apply IH. discriminate. Qed.
Lemma sample_after_end l : forall k x, ascending (k :: l) -> Forall (fun j => (fst j < x)%Q) (k :: l) -> sample_after k l x = snd (last (k :: l) k).
Proof.
  induction l as [|k' l IH]; intros k x Ha Hf; apply Forall_cons_iff in Hf; destruct Hf as [Hk Hf]; cbv beta in Hk; rewrite sample_after_eq; rewrite Qeq_bool_false by lra; [reflexivity|].
  assert (Hk' : (fst k' < x)%Q) by (apply Forall_cons_iff in Hf; apply Hf). assert (Hb : Qle_bool (fst k') x = true) by (apply Qle_bool_iff; lra). rewrite Hb.
  unfold ascending in Ha. simpl in Ha. inversion Ha as [|? ? Ha1 Ha2]; subst. rewrite IH; [|exact Ha1|exact Hf].
  change (last (k :: k' :: l) k) with (last (k' :: l) k). f_equal. apply last_default. discriminate.
Qed.

Section B.
  Variable bezier : Q -> Q -> Q -> Q -> Q -> Q.
  Notation SAMPLE := (sample_easing bezier).
  Lemma sample_points l x : 2 <= length l -> SAMPLE (LinearPoints l) x = option_map (fun d => sample_pts d x) (uneven_pts (l ++ [(0, 0); (1, 1)]%Q)).
  Proof. intros H. destruct l as [|[p y] [|k l]]; simpl in H; try lia. reflexivity. Qed.
  Lemma curve_broken l x : 2 <= length l -> ascending l -> Forall (fun k => (0 <= fst k <= 1)%Q) l ->
    (exists t t', In t (map fst l) /\ In t' (map fst l) /\ (t <= x <= t')%Q) -> exists y, SAMPLE (LinearPoints l) x = Some y /\ on_broken l x y.
  Proof.
    intros H2 Ha Hf (t & t' & Ht & Ht' & Hx). rewrite sample_points by exact H2. destruct l as [|k [|k' l]]; simpl in H2; try lia.
    rewrite uneven_curve by (auto; discriminate). cbn [option_map]. eexists. split; [reflexivity|].
    assert (Hkx : (fst k <= x)%Q).
    { unfold ascending in Ha. cbn [map] in Ha. inversion Ha as [|? ? _ Ha2]; subst. cbn [map] in Ht. destruct Ht as [<-|Ht]; [lra|].
      rewrite Forall_forall in Ha2. specialize (Ha2 t Ht). lra. }
    assert (Hs : forall B, on_broken (k :: k' :: l) x (sample_after k ((k' :: l) ++ B) x)).
    { intros B. apply sample_after_broken; [exact Ha|exact Hkx|]. exists t'. split; [exact Ht'|apply Hx]. }
    apply Qle_bool_iff in Hkx. unfold head0. destruct (Qeq_bool (fst k) 0) eqn:E0; cbn [app sample_pts fst].
    - rewrite Hkx. apply Hs.
    - apply Forall_cons_iff in Hf. destruct Hf as [Hk _]. assert (Hk0 : (0 < fst k)%Q). { destruct Hk as [Hk _]. apply Qle_lteq in Hk. destruct Hk as [Hk|Hk]; auto. symmetry in Hk. apply Qeq_bool_iff in Hk. congruence. }
      apply Qle_bool_iff in Hkx. assert (H0 : Qle_bool 0 x = true) by (apply Qle_bool_iff; lra). rewrite H0.
      rewrite sample_after_eq. cbn [fst]. rewrite Qeq_bool_false by lra. apply Qle_bool_iff in Hkx. rewrite Hkx. apply Hs.
  Qed.
  Lemma curve_outside l k x : 2 <= length l -> ascending l -> Forall (fun k => (0 <= fst k <= 1)%Q) l ->
    (fst (hd k l) == 0)%Q -> (fst (last l k) == 1)%Q ->
    ((x <= 0)%Q -> exists y, SAMPLE (LinearPoints l) x = Some y /\ (y == snd (hd k l))%Q) /\ ((1 <= x)%Q -> exists y, SAMPLE (LinearPoints l) x = Some y /\ (y == snd (last l k))%Q).
  Proof.
    intros H2 Ha Hf H0 H1. rewrite sample_points by exact H2. destruct l as [|k0 [|k' l]]; simpl in H2; try lia. cbn [hd] in *.
    rewrite uneven_curve by (auto; discriminate). cbn [option_map]. unfold head0. apply Qeq_bool_iff in H0. rewrite H0. apply Qeq_bool_iff in H0.
    assert (Hlast : last (k0 :: k' :: l) k0 = last (k0 :: k' :: l) k) by (apply last_default; discriminate). rewrite Hlast.
    unfold tail1. apply Qeq_bool_iff in H1. rewrite H1. apply Qeq_bool_iff in H1. cbn [app]. rewrite app_nil_r. cbn [sample_pts]. split; intros Hx; (eexists; split; [reflexivity|]).
    - destruct (Qle_bool (fst k0) x) eqn:E; [|reflexivity]. apply Qle_bool_iff in E. rewrite sample_after_eq. assert (He : Qeq_bool x (fst k0) = true) by (apply Qeq_bool_iff; lra). rewrite He. reflexivity.
    - assert (He : Qle_bool (fst k0) x = true) by (apply Qle_bool_iff; lra). rewrite He.
      destruct (Qlt_le_dec 1 x) as [Hlt|Hle].
      + rewrite sample_after_end; [rewrite Hlast; reflexivity|exact Ha|]. eapply Forall_impl; [|exact Hf]. simpl. intros; lra.
      + assert (Hx1 : (x == 1)%Q) by lra. clear Hx Hle He. clear H0 Hlast. revert k0 H2 Ha Hf H1. 
        assert (Hg : forall r k0, ascending (k0 :: r) -> (fst (last (k0 :: r) k) == 1)%Q -> (sample_after k0 r x == snd (last (k0 :: r) k))%Q).
        { induction r as [|k2 r IH]; intros k0 Ha H1; rewrite sample_after_eq.
          - destruct (Qeq_bool x (fst k0)); reflexivity.
          - assert (Hall : Forall (fun t => (t <= 1)%Q) (map fst (k2 :: r))).
            { clear - Ha H1. change (last (k0 :: k2 :: r) k) with (last (k2 :: r) k) in H1. unfold ascending in Ha. inversion Ha as [|? ? Ha1 _]; subst. fold (map fst (k2 :: r)) in Ha1. clear Ha.
              revert k2 Ha1 H1. induction r as [|k3 r IH]; intros k2 Ha1 H1.
              - simpl in *. constructor; [lra|constructor].
              - cbn [map]. inversion Ha1 as [|? ? Ha2 Hlt]; subst. specialize (IH k3 Ha2 H1). constructor; [|exact IH].
                cbn [map] in Hlt. apply Forall_cons_iff in Hlt. cbn [map] in IH. apply Forall_cons_iff in IH. destruct Hlt, IH. lra. }
            unfold ascending in Ha. cbn [map] in Ha. inversion Ha as [|? ? Ha1 Ha2]; subst. apply Forall_cons_iff in Ha2. destruct Ha2 as [Hlt _]. apply Forall_cons_iff in Hall. destruct Hall as [Hle _].
            rewrite Qeq_bool_false by lra. assert (Hb : Qle_bool (fst k2) x = true) by (apply Qle_bool_iff; lra). rewrite Hb. apply IH; [exact Ha1|exact H1]. }
        intros k0 _ Ha _ H1. apply Hg; assumption.
  Qed.
End B.

Lemma on_broken_ge l x y : ascending l -> on_broken l x y -> exists k r, l = k :: r /\ (fst k <= x)%Q.
Proof.
  intros Ha H; induction H as [t a l x y He _|ta a tb b l x y Hx _|p l x y H IH].
  - eexists _, _; split; [reflexivity|simpl; lra].
  - eexists _, _; split; [reflexivity|simpl; lra].
  - unfold ascending in Ha. simpl in Ha. inversion Ha as [|? ? H1 H2]; subst. destruct (IH H1) as (k & r & -> & Hk).
    simpl in H2. apply Forall_cons_iff in H2. destruct H2 as [H2 _]. eexists _, _; split; [reflexivity|lra].
Qed.
Lemma on_broken_at l : forall i t a x y, ascending l -> nth_error l i = Some (t, a) -> (x == t)%Q -> on_broken l x y -> (y == a)%Q.
Proof.
  induction l as [|[t0 a0] l IH]; intros [|i] t a x y Ha Hi Hx H; try discriminate; unfold ascending in Ha; simpl in Ha; inversion Ha as [|? ? H1 H2]; subst; simpl in Hi.
  - injection Hi as -> ->. inversion H as [? ? ? ? ? He Hy|? ? ? ? ? ? ? Hlt _|? ? ? ? Hn]; subst; [exact Hy|lra|].
    destruct (on_broken_ge _ _ _ H1 Hn) as (k & r & -> & Hk). simpl in H2. apply Forall_cons_iff in H2. destruct H2 as [H2 _]. lra.
  - assert (Hin : In t (map fst l)) by (apply nth_error_In in Hi; apply (in_map fst) in Hi; exact Hi).
    rewrite Forall_forall in H2. pose proof (H2 t Hin) as Hlt0.
    inversion H as [? ? ? ? ? He Hy|? ? tb b r ? ? Hlt _|? ? ? ? Hn]; subst; [lra| |eapply IH; eassumption].
    simpl in Hin. destruct Hin as [->|Hin]; [lra|]. inversion H1 as [|? ? _ H3]; subst. rewrite Forall_forall in H3. specialize (H3 t Hin). lra.
Qed.

(** ** steps() *)
Lemma clampq_id x : (0 <= x <= 1)%Q -> clampq x = x.
Proof. intros [H1 H2]. unfold clampq. apply Qle_bool_iff in H1, H2. rewrite H1, H2. reflexivity. Qed.
Lemma steps_formula n p x : valid_steps n p -> (0 <= x <= 1)%Q -> steps_output n p x (eval_steps n p x).
Proof.
  intros Hn Hx. unfold steps_output, eval_steps. assert (Hn1 : (1 <= n)%Z) by (destruct p; simpl in Hn; lia).
  rewrite clampq_id by exact Hx. unfold as_usize. destruct (n <? 0)%Z eqn:En; [lia|].
  set (k := Qfloor (x * inject_Z n)). exists k.
  assert (Hk1 : (inject_Z k <= x * inject_Z n)%Q) by apply Qfloor_le. assert (Hk2 : (x * inject_Z n < inject_Z (k + 1))%Q) by apply Qlt_floor.
  assert (Hnq : (0 < inject_Z n)%Q) by (change 0%Q with (inject_Z 0); rewrite <- Zlt_Qlt; lia).
  assert (Hk0 : (0 <= k)%Z).
  { change 0%Z with (Qfloor 0). apply Qfloor_resp_le. destruct Hx. apply Qmult_le_0_compat; [assumption|lra]. }
  set (c := (k + fst (jump p))%Z). exists c.
  assert (Hc0 : (0 <= c)%Z) by (unfold c; destruct p; simpl; lia).
  split; [split; assumption|]. split; [|split].
  - unfold starts_early, c. intros [-> | [-> | ->]]; reflexivity.
  - unfold starts_early, c. intros H. destruct p; simpl; try lia; exfalso; apply H; auto.
  - assert (Hj : jumps n p = Z.max (n + snd (jump p)) 1) by (destruct p; simpl in *; lia).
    assert (Hj1 : (1 <= jumps n p)%Z) by (rewrite Hj; lia). unfold c in *.
    destruct (jump p) as [a b] eqn:Ej. simpl in *. rewrite <- Hj.
    assert (Hjq : (0 < inject_Z (jumps n p))%Q) by (change 0%Q with (inject_Z 0); rewrite <- Zlt_Qlt; lia).
    set (cc := (k + a)%Z) in *. unfold clampq.
    assert (Hnn : (0 <= inject_Z cc / inject_Z (jumps n p))%Q).
    { apply Qle_shift_div_l; [exact Hjq|]. rewrite Qmult_0_l. change 0%Q with (inject_Z 0). rewrite <- Zle_Qle. exact Hc0. }
    apply Qle_bool_iff in Hnn. rewrite Hnn. destruct (Z.le_gt_cases cc (jumps n p)) as [Hle|Hgt].
    + rewrite Z.min_l by exact Hle. assert (H1 : (inject_Z cc / inject_Z (jumps n p) <= 1)%Q).
      { apply Qle_shift_div_r; [exact Hjq|]. rewrite Qmult_1_l. rewrite <- Zle_Qle. exact Hle. }
      apply Qle_bool_iff in H1. rewrite H1. reflexivity.
    + rewrite Z.min_r by lia. rewrite Qle_bool_lt; [field; intros H; lra|].
      apply Qlt_shift_div_l; [exact Hjq|]. rewrite Qmult_1_l. rewrite <- Zlt_Qlt. lia.
Qed.
