(** C72-C74: timing functions. *)
From Coq Require Import QArith Qround Ascii String Sorted Lqa Lia.
From Verif Require Import Base Easing EasingSpec EasingProofs.
Open Scope nat_scope.

(** ** C72. Parsing a timing function never panics *)
Theorem C72_no_panic : forall t, parse_easing t <> EPanic.
Proof.
  assert (Hl : forall args, parse_linear args <> EPanic).
  { intros args. unfold parse_linear. destruct args as [|t args]; [discriminate|].
    destruct (parse_points (split_commas (t :: args))) as [l|] eqn:El; [|discriminate].
    destruct (normalise_spec l) as (pts & -> & _); [|discriminate]. intros ->. apply parse_stops in El. inversion El. }
  assert (Hs : forall args, parse_steps args <> EPanic).
  { intros args. unfold parse_steps. repeat match goal with |- (match ?x with _ => _ end) <> _ => destruct x; try discriminate end. }
  assert (Hc : forall args, parse_cubic args <> EPanic).
  { intros args. unfold parse_cubic. repeat match goal with |- (match ?x with _ => _ end) <> _ => destruct x; try discriminate end. }
  intros t. unfold parse_easing. repeat match goal with |- (match ?x with _ => _ end) <> _ => destruct x; try discriminate; try apply Hl; try apply Hs; try apply Hc end.
Qed.
(** linear() accepts comma-separated stops, each a number with an optional percentage behind it, and makes of them the points that CSS says they mean *)
Lemma linear_text : forall args e, args <> [] -> (parse_easing (EFunction "linear" args) = EOk e <->
  exists l pts, stops_text args l /\ normalise l = Some pts /\ e = LinearPoints pts).
Proof.
  intros args e Hne. cbn [parse_easing]. change (String.eqb "linear" "linear") with true. cbv iota. unfold parse_linear. destruct args as [|t args]; [congruence|].
  split.
  - destruct (parse_points (split_commas (t :: args))) as [l|] eqn:El; [|discriminate]. destruct (normalise l) as [pts|] eqn:En; [|discriminate].
    intros H; injection H as <-. exists l, pts. split; [apply parse_stops; exact El|]. split; [exact En|reflexivity].
  - intros (l & pts & Hl & Hn & ->). apply parse_stops in Hl. rewrite Hl, Hn. reflexivity.
Qed.
Theorem C72_linear_partial : forall args, args <> [] ->
  (forall l, stops_text args l -> exists pts, parse_easing (EFunction "linear" args) = EOk (LinearPoints pts) /\ means l pts) /\
  (forall e, parse_easing (EFunction "linear" args) = EOk e -> exists l, stops_text args l) /\
  (forall l l', stops_text args l -> stops_text args l' -> l = l').
Proof.
  intros args Hne. split; [|split].
  - intros l Hl. assert (Hln : l <> []) by (intros ->; inversion Hl). destruct (normalise_spec l Hln) as (pts & Hn & Hm). exists pts. split; [|exact Hm].
    apply linear_text; [exact Hne|]. exists l, pts. auto.
  - intros e He. apply linear_text in He; [|exact Hne]. destruct He as (l & pts & Hl & _). exists l. exact Hl.
  - intros l l' Hl Hl'. apply parse_stops in Hl. apply parse_stops in Hl'. congruence.
Qed.
(** CSS allows the percentage first, and two percentages; both are rejected. An empty linear(), invalid in CSS, is accepted. *)
Theorem C72_grammar_refuted :
  (exists s, css_stop s /\ length s = 2 /\ parse_easing (EFunction "linear" (s ++ [EComma; ENumber 1 None])) = EErr) /\
  (exists s, css_stop s /\ length s = 3 /\ parse_easing (EFunction "linear" (s ++ [EComma; ENumber 1 None])) = EErr) /\
  (exists e, parse_easing (EFunction "linear" []) = EOk e).
Proof.
  split; [|split].
  - exists [EPercent (1 # 4); ENumber 0 None]. split; [apply (css_before 0 None [(1 # 4)]%Q); simpl; lia|]. split; reflexivity.
  - exists [ENumber 0 None; EPercent (1 # 4); EPercent (1 # 2)]. split; [apply (css_after 0 None [1 # 4; 1 # 2]%Q); simpl; lia|]. split; reflexivity.
  - eexists. reflexivity.
Qed.

(** ** C73. If the points are at different places within 0% and 100%, the timing function runs along the broken line through them *)
Theorem C73_curve_partial : forall bezier l x, 2 <= length l -> ascending l -> Forall (fun k => (0 <= fst k <= 1)%Q) l ->
  (exists t t', In t (map fst l) /\ In t' (map fst l) /\ (t <= x <= t')%Q) ->
  exists y, sample_easing bezier (LinearPoints l) x = Some y /\ on_broken l x y.
Proof. exact curve_broken. Qed.
(** and stays at the ends outside, if the points reach from 0% to 100% *)
Theorem C73_outside_partial : forall bezier l k x, 2 <= length l -> ascending l -> Forall (fun k => (0 <= fst k <= 1)%Q) l ->
  (fst (hd k l) == 0)%Q -> (fst (last l k) == 1)%Q ->
  ((x <= 0)%Q -> exists y, sample_easing bezier (LinearPoints l) x = Some y /\ (y == snd (hd k l))%Q) /\
  ((1 <= x)%Q -> exists y, sample_easing bezier (LinearPoints l) x = Some y /\ (y == snd (last l k))%Q).
Proof. exact curve_outside. Qed.

Lemma map_nth_place pts i t a : nth_error pts i = Some (t, a) -> place pts i = t.
Proof. intros H. unfold place. apply nth_error_nth. rewrite nth_error_map, H. reflexivity. Qed.
Lemma written_blanks ys i : 2 <= length ys -> written (map (fun y => (None, y)) ys) i =
  if Nat.eqb i 0 then Some 0%Q else if Nat.eqb i (length ys - 1) then Some 1%Q else None.
Proof.
  intros H. unfold written. rewrite nth_error_map, map_length. destruct (nth_error ys i) eqn:En; simpl; [reflexivity|].
  apply nth_error_None in En. destruct (Nat.eqb_spec i 0); [lia|]. destruct (Nat.eqb_spec i (length ys - 1)); [lia|reflexivity].
Qed.
Lemma means_even ys pts : 2 <= length ys -> means (map (fun y => (None, y)) ys) pts ->
  forall i, i < length ys -> (place pts i == QN i / QN (length ys - 1))%Q.
Proof.
  intros Hl (_ & _ & Hw & Hm) i Hi. pose proof (fun i => written_blanks ys i Hl) as Hb. set (n := length ys - 1) in *.
  assert (Hn : ~ (QN n == 0)%Q) by (unfold QN, Qeq; simpl; unfold n; lia).
  assert (H0 : (place pts 0 == 0)%Q).
  { destruct (Hw 0 0%Q) as [(j & q & Hj & Hjq & Hp) _]; [rewrite Hb; reflexivity|]. assert (j = 0) by lia. subst j. rewrite Hb in Hjq. simpl in Hjq. injection Hjq as <-. exact Hp. }
  assert (H1 : (place pts n == 1)%Q).
  { destruct (Hw n 1%Q) as [(j & q & Hj & Hjq & Hp) Hmx]; [rewrite Hb, Nat.eqb_refl; destruct (Nat.eqb_spec n 0); [unfold n in *; lia|reflexivity]|].
    rewrite Hb in Hjq. destruct (Nat.eqb j 0); [|destruct (Nat.eqb j n); [injection Hjq as <-; exact Hp|discriminate]]. injection Hjq as <-.
    assert (Hle : (1 <= place pts n)%Q). { apply (Hmx n); [lia|]. rewrite Hb, Nat.eqb_refl. destruct (Nat.eqb_spec n 0); [unfold n in *; lia|reflexivity]. } lra. }
  destruct (Nat.eq_dec i 0) as [->|Hi0]; [rewrite H0; unfold QN; simpl; field; exact Hn|].
  destruct (Nat.eq_dec i n) as [->|Hin]; [rewrite H1; field; exact Hn|].
  assert (Hin' : i < n) by (unfold n in *; lia).
  rewrite (Hm 0 i n); [|lia| | |].
  - rewrite H0, H1, !Nat.sub_0_r. unfold QN. field. exact Hn.
  - rewrite Hb. discriminate.
  - rewrite Hb, Nat.eqb_refl. destruct (Nat.eqb n 0); discriminate.
  - intros k Hk. rewrite Hb. destruct (Nat.eqb_spec k 0); [lia|]. destruct (Nat.eqb_spec k n); [lia|reflexivity].
Qed.
Lemma QN_lt a b : a < b <-> (QN a < QN b)%Q.
Proof. unfold QN. rewrite <- Zlt_Qlt. lia. Qed.
Lemma sorted_by_place (l : list Q) : (forall i j, i < j < length l -> (nth i l 0 < nth j l 0)%Q) -> StronglySorted Qlt l.
Proof.
  induction l as [|a l IH]; intros H; [constructor|]. constructor.
  - apply IH. intros i j Hij. apply (H (S i) (S j)). simpl. lia.
  - apply Forall_forall. intros b Hb. apply (In_nth _ _ 0%Q) in Hb. destruct Hb as (j & Hj & <-). apply (H 0 (S j)). simpl. lia.
Qed.
(** From the text to the curve: linear(y0, y1, ... yn) is, at the [i]-th of [n] even parts of the way, at yi *)
Fixpoint commas (ys : list Q) : list etok :=
  match ys with [] => [] | [y] => [ENumber y None] | y :: r => ENumber y None :: EComma :: commas r end.
Theorem C73_even : forall bezier ys, 2 <= length ys -> exists e, parse_easing (EFunction "linear" (commas ys)) = EOk e /\
  forall i y, nth_error ys i = Some y -> exists z, sample_easing bezier e (QN i / QN (length ys - 1)) = Some z /\ (z == y)%Q.
Proof.
  intros bezier ys Hl. set (l := map (fun y => (@None Q, y)) ys).
  assert (Htxt : stops_text (commas ys) l).
  { unfold l. clear l. destruct ys as [|y ys]; [simpl in Hl; lia|]. clear Hl. revert y. induction ys as [|y' ys IH]; intros y.
    - constructor. constructor.
    - change (commas (y :: y' :: ys)) with ([ENumber y None] ++ EComma :: commas (y' :: ys)). constructor; [constructor|apply IH]. }
  assert (Hne : l <> []) by (unfold l; destruct ys; [simpl in Hl; lia|discriminate]).
  destruct (normalise_spec l Hne) as (pts & Hn & Hm). exists (LinearPoints pts). split.
  { apply linear_text; [destruct ys as [|? [|? ?]]; simpl in *; try lia; discriminate|]. exists l, pts. auto. }
  pose proof (means_even ys pts Hl Hm) as Hpl. destruct Hm as (Hlen & Hsnd & _). unfold l in Hlen, Hsnd. rewrite map_length in Hlen. rewrite map_map in Hsnd. simpl in Hsnd. rewrite map_id in Hsnd.
  set (n := length ys - 1) in *. assert (Hnp : (0 < QN n)%Q) by (apply (QN_lt 0); unfold n; lia).
  assert (Hasc : ascending pts).
  { apply sorted_by_place. rewrite map_length, Hlen. intros i j Hij. fold (place pts i) (place pts j). rewrite (Hpl i), (Hpl j) by lia.
    assert (Hij' : (QN i < QN j)%Q) by (apply QN_lt; lia). apply Qlt_shift_div_l; [exact Hnp|].
    setoid_replace (QN i / QN n * QN n)%Q with (QN i) by (field; lra). exact Hij'. }
  assert (Hr : forall i, i < length ys -> (0 <= QN i / QN n <= 1)%Q).
  { intros i Hi. split; [apply Qle_shift_div_l; [exact Hnp|]|apply Qle_shift_div_r; [exact Hnp|]].
    - rewrite Qmult_0_l. unfold QN. change 0%Q with (inject_Z 0). rewrite <- Zle_Qle. lia.
    - rewrite Qmult_1_l. unfold QN. rewrite <- Zle_Qle. unfold n. lia. }
  assert (Hin : forall i, i < length ys -> In (place pts i) (map fst pts)).
  { intros i Hi. unfold place. apply nth_In. rewrite map_length. lia. }
  intros i y Hi. assert (Hil : i < length ys) by (apply nth_error_Some; congruence).
  destruct (curve_broken bezier pts (QN i / QN n)%Q) as (z & Hz & Hb).
  - lia.
  - exact Hasc.
  - apply Forall_forall. intros [t a] Hk. apply In_nth_error in Hk. destruct Hk as [j Hj]. assert (Hjl : j < length ys) by (rewrite <- Hlen; apply nth_error_Some; congruence).
    simpl. rewrite <- (map_nth_place _ _ _ _ Hj). rewrite (Hpl j Hjl). apply Hr. exact Hjl.
  - exists (place pts i), (place pts i). split; [apply Hin; exact Hil|]. split; [apply Hin; exact Hil|]. rewrite (Hpl i Hil). lra.
  - exists z. split; [exact Hz|]. destruct (nth_error pts i) as [[t a]|] eqn:Ep.
    + assert (Ha : a = y). { assert (E : nth_error (map snd pts) i = Some y) by (rewrite Hsnd; exact Hi). rewrite nth_error_map, Ep in E. simpl in E. congruence. }
      subst a. eapply on_broken_at; [exact Hasc|exact Ep| |exact Hb]. rewrite <- (map_nth_place _ _ _ _ Ep). symmetry. apply Hpl. exact Hil.
    + apply nth_error_None in Ep. lia.
Qed.
(** Whatever is parsed can be sampled: no timing function panics when it is used (in builds without debug assertions) *)
Lemma ins_in (k x : Q * Q) l : In x (insert_pt k l) <-> x = k \/ In x l.
Proof.
  induction l as [|a l IH]; simpl; [intuition|]. destruct (Qle_bool (fst k) (fst a)); simpl; [intuition|]. rewrite IH. tauto.
Qed.
Lemma dedup_one l : forall k, length (dedup_pts k l) < 2 -> forall x, In x l -> (fst x == fst k)%Q.
Proof.
  induction l as [|a l IH]; intros k H x Hx; [destruct Hx|]. simpl in H. destruct (Qeq_bool (fst k) (fst a)) eqn:E.
  - apply Qeq_bool_eq in E. destruct Hx as [<-|Hx]; [symmetry; exact E|]. apply (IH k H x Hx).
  - simpl in H. assert (Hl : 1 <= length (dedup_pts a l)) by (clear; revert a; induction l as [|b l IH]; intros a; simpl; [lia|]; destruct (Qeq_bool (fst a) (fst b)); [apply IH|simpl; lia]). lia.
Qed.
Lemma uneven_total l : exists d, uneven_pts (l ++ [(0, 0); (1, 1)]%Q) = Some d.
Proof.
  unfold uneven_pts. set (s := fold_right insert_pt [] _).
  assert (Hin : forall x, In x (l ++ [(0, 0); (1, 1)]%Q) -> In x s).
  { unfold s. generalize (l ++ [(0, 0); (1, 1)]%Q). intros m. induction m as [|a m IH]; simpl; [auto|]. intros x [<-|Hx]; apply ins_in; auto. }
  assert (H0 : In (0, 0)%Q s) by (apply Hin, in_or_app; right; simpl; auto). assert (H1 : In (1, 1)%Q s) by (apply Hin, in_or_app; right; simpl; auto).
  destruct s as [|k r]; [destruct H0|]. cbv zeta. destruct (Nat.ltb_spec (length (dedup_pts k r)) 2) as [Hlt|]; [|eexists; reflexivity]. exfalso.
  assert (Ht : forall x, In x (k :: r) -> (fst x == fst k)%Q) by (intros x [<-|Hx]; [reflexivity|eapply dedup_one; eauto]).
  apply Ht in H0. apply Ht in H1. simpl in H0, H1. rewrite <- H0 in H1. discriminate.
Qed.
Theorem C73_total : forall bezier e x, sample_easing bezier e x <> None.
Proof.
  intros bezier e x. destruct e as [ |l| | | | | |]; try discriminate. destruct l as [|[p y] [|k l]]; try discriminate.
  unfold sample_easing. destruct (uneven_total ((p, y) :: k :: l)) as [d ->]. discriminate.
Qed.
(** A single stop: linear(0.7) should be constantly 0.7, but it is 0 *)
Theorem C73_single_refuted : exists e, parse_easing (EFunction "linear" [ENumber (7 # 10) None]) = EOk e /\
  forall bezier x, exists y, sample_easing bezier e x = Some y /\ ~ (y == 7 # 10)%Q.
Proof. eexists. split; [reflexivity|]. intros bezier x. exists 0%Q. split; [reflexivity|]. intros H. vm_compute in H. discriminate. Qed.
(** Two stops at the same place make a jump, linear(0, 0.2 50%, 0.8 50%, 1); the second of them is lost: at 75% the value should be 0.9, halfway from 0.8 to 1 *)
Theorem C73_jump_refuted : exists e pts, parse_easing (EFunction "linear"
    [ENumber 0 None; EComma; ENumber (2 # 10) None; EPercent (1 # 2); EComma; ENumber (8 # 10) None; EPercent (1 # 2); EComma; ENumber 1 None]) = EOk e /\
  e = LinearPoints pts /\ on_broken pts (3 # 4) (9 # 10) /\
  forall bezier, exists y, sample_easing bezier e (3 # 4) = Some y /\ (y == 6 # 10)%Q.
Proof.
  do 2 eexists. split; [reflexivity|]. split; [reflexivity|]. split.
  - do 2 apply br_further. apply br_segment; [split; reflexivity|reflexivity].
  - intros bezier. eexists. split; [vm_compute; reflexivity|]. reflexivity.
Qed.
(** Before the first stop, linear(0.5 20%, 1): the value at 0% should be 0.5, or on the line through the two stops, but it is 0 *)
Theorem C73_before_refuted : exists pts, parse_easing (EFunction "linear" [ENumber (1 # 2) None; EPercent (1 # 5); EComma; ENumber 1 None]) = EOk (LinearPoints pts) /\
  hd (0, 0)%Q pts = (1 # 5, 1 # 2)%Q /\ forall bezier, exists y, sample_easing bezier (LinearPoints pts) 0 = Some y /\ ~ (y == 1 # 2)%Q /\
  ~ (y == (1 # 2) + (1 - (1 # 2)) * ((0 - (1 # 5)) / (1 - (1 # 5))))%Q.
Proof. eexists. split; [reflexivity|]. split; [reflexivity|]. intros bezier. exists 0%Q. split; [vm_compute; reflexivity|]. split; intros H; unfold Qeq in H; vm_compute in H; discriminate H. Qed.
(** Stops beyond 0% or 100% are accepted, and panic in builds with debug assertions *)
Theorem C73_debug_refuted : exists e, parse_easing (EFunction "linear" [ENumber 0 None; EPercent (-1 # 5); EComma; ENumber 1 None]) = EOk e /\ ~ debug_ok e.
Proof. eexists. split; [reflexivity|]. intros H. vm_compute in H. destruct H as [H _]. discriminate. Qed.
Theorem C73_debug_partial : forall l, ascending l -> Forall (fun k => (0 <= fst k <= 1)%Q) l -> debug_ok (LinearPoints l).
Proof.
  intros [|k [|k' l]] Ha Hf; try exact I. unfold debug_ok. rewrite uneven_curve by (auto; discriminate).
  unfold head0, tail1. destruct (Qeq_bool (fst k) 0) eqn:E0; [apply Qeq_bool_eq in E0|].
  - cbn [app]. split; [exact E0|]. destruct (Qeq_bool (fst (last (k :: k' :: l) k)) 1) eqn:E1.
    + rewrite app_nil_r. apply Qeq_bool_eq in E1. exact E1.
    + change (k :: k' :: l ++ [(1, 1)]%Q) with ((k :: k' :: l) ++ [(1, 1)]%Q). rewrite last_last. reflexivity.
  - cbn [app]. split; [reflexivity|]. destruct (Qeq_bool (fst (last (k :: k' :: l) k)) 1) eqn:E1.
    + rewrite app_nil_r. apply Qeq_bool_eq in E1. change (last ((0, 0)%Q :: k :: k' :: l) (0, 0)%Q) with (last (k :: k' :: l) (0, 0)%Q).
      rewrite (last_default _ (0, 0)%Q k) by discriminate. exact E1.
    + change ((0, 0)%Q :: k :: k' :: l ++ [(1, 1)]%Q) with (((0, 0)%Q :: k :: k' :: l) ++ [(1, 1)]%Q). rewrite last_last. reflexivity.
Qed.

(** ** C74. steps(n, position), for the numbers of steps that CSS allows, has the output that CSS says *)
Theorem C74_steps_partial : forall bezier n p x, valid_steps n p -> (0 <= x <= 1)%Q ->
  exists y, sample_easing bezier (Steps n p) x = Some y /\ steps_output n p x y.
Proof. intros bezier n p x Hn Hx. exists (eval_steps n p x). split; [reflexivity|]. apply steps_formula; assumption. Qed.
(** Its text *)
Theorem C74_steps_text : forall q n, parse_easing (EFunction "steps" [ENumber q (Some n)]) = EOk (Steps n PosEnd) /\
  parse_easing (EFunction "steps" [ENumber q (Some n); EComma; EIdent "jump-start"]) = EOk (Steps n JumpStart) /\
  parse_easing (EFunction "steps" [ENumber q (Some n); EComma; EIdent "jump-end"]) = EOk (Steps n JumpEnd) /\
  parse_easing (EFunction "steps" [ENumber q (Some n); EComma; EIdent "jump-none"]) = EOk (Steps n JumpNone) /\
  parse_easing (EFunction "steps" [ENumber q (Some n); EComma; EIdent "jump-both"]) = EOk (Steps n JumpBoth) /\
  parse_easing (EFunction "steps" [ENumber q (Some n); EComma; EIdent "start"]) = EOk (Steps n PosStart) /\
  parse_easing (EFunction "steps" [ENumber q (Some n); EComma; EIdent "end"]) = EOk (Steps n PosEnd).
Proof. repeat split. Qed.
(** The keywords are the curves that CSS says they are *)
Theorem C74_keywords : forall bezier,
  let is s e := exists e', parse_easing (EIdent s) = EOk e' /\ forall x, sample_easing bezier e' x = sample_easing bezier e x in
  is "ease"%string (CubicBezier (1 # 4) (1 # 10) (1 # 4) 1) /\ is "ease-in"%string (CubicBezier (42 # 100) 0 1 1) /\
  is "ease-out"%string (CubicBezier 0 0 (58 # 100) 1) /\ is "ease-in-out"%string (CubicBezier (42 # 100) 0 (58 # 100) 1) /\
  is "step-start"%string (Steps 1 JumpStart) /\ is "step-end"%string (Steps 1 JumpEnd) /\
  exists e, parse_easing (EIdent "linear") = EOk e /\ forall x, (0 <= x <= 1)%Q -> sample_easing bezier e x = Some x.
Proof.
  intros bezier is. repeat (split; [eexists; split; reflexivity|]). eexists. split; [reflexivity|]. intros x Hx. simpl. rewrite clampq_id by exact Hx. reflexivity.
Qed.
(** Numbers of steps that CSS forbids are accepted *)
Theorem C74_invalid_steps_refuted : exists n p args e, ~ valid_steps n p /\ parse_easing (EFunction "steps" args) = EOk e /\ e = Steps n p.
Proof. exists 0%Z, PosEnd, [ENumber 0 (Some 0%Z)]. eexists. split; [simpl; lia|]. split; reflexivity. Qed.

(** Examples *)
(** linear(0.5, 0.9 60%, 0.3, 0.1 40%, 1): the fourth is moved to 60%, the third is evenly spaced *)
Example C72_ex : option_map (map (fun x => (Qred (fst x), snd x))) (normalise [(None, 1 # 2); (Some (6 # 10), 9 # 10); (None, 3 # 10); (Some (4 # 10), 1 # 10); (None, 1)]%Q) =
  Some [(0, 1 # 2); (3 # 5, 9 # 10); (3 # 5, 3 # 10); (3 # 5, 1 # 10); (1, 1)]%Q.
Proof. reflexivity. Qed.
Example C73_ex : let l := [(0, 0); (1 # 4, 3 # 4); (1, 1)]%Q in 2 <= length l /\ ascending l /\ Forall (fun k => (0 <= fst k <= 1)%Q) l /\ forall b, sample_easing b (LinearPoints l) (1 # 8) = Some ((12 # 32)%Q).
Proof. repeat split; simpl; try lia; repeat constructor; simpl; try reflexivity; discriminate. Qed.
Example C74_ex : forall b, option_map Qred (sample_easing b (Steps 4 JumpBoth) (1 # 2)) = Some (3 # 5)%Q /\ valid_steps 4 JumpBoth.
Proof. intros b. split; [reflexivity|simpl; lia]. Qed.

Print Assumptions C72_no_panic. Print Assumptions C72_linear_partial. Print Assumptions C72_grammar_refuted.
Print Assumptions C73_curve_partial. Print Assumptions C73_outside_partial. Print Assumptions C73_even. Print Assumptions C73_single_refuted. Print Assumptions C73_jump_refuted.
Print Assumptions C73_before_refuted. Print Assumptions C73_debug_refuted. Print Assumptions C73_debug_partial.
Print Assumptions C74_steps_partial. Print Assumptions C74_steps_text. Print Assumptions C74_keywords. Print Assumptions C74_invalid_steps_refuted. Print Assumptions C73_total.
