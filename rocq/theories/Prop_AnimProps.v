(** C39, C40, C54: resolution of animation and transition declarations. *)
From Coq Require Import NArith Sorted.
From Verif Require Import Base Animation AnimProps AnimPropsSpec AnimPropsProofs.

(** ** C39 *)
Theorem C39_reset_lists_complete : complete animation_reset /\ complete transition_reset.
Proof.
  split; (split; [repeat constructor; cbn; intuition discriminate|]); intros []; cbn; auto 10.
Qed.
Print Assumptions C39_reset_lists_complete.

(** Resolution never fails (no index is out of bounds), whatever was declared before. *)
Theorem C39_resolution_total :
  forall P E pdec reset ds (m : pmap P E), complete reset -> exists m', resolve_to_output pdec reset ds m = Some m'.
Proof. intros P E pdec reset ds m [H1 H2]. destruct (resolve_spec pdec reset H1 H2 ds m) as (m' & H & _). eauto. Qed.
Print Assumptions C39_resolution_total.

(** After a shorthand that lists [anims], every longhand has exactly one value per listed animation: what the animation lists,
    or the default.  Earlier declarations have no effect. *)
Theorem C39_shorthand_sets_every_list :
  forall P E pdec reset ds anims (m m' : pmap P E), complete reset ->
  resolve_to_output pdec reset (ds ++ [Shorthand (Some anims)]) m = Some m' ->
  forall p, match m' p with Some l => anims <> [] /\ Forall2 (fun a v => gives a p v) anims l | None => anims = [] end.
Proof.
  intros P E pdec reset ds anims m m' [H1 H2] Hr p. destruct (resolve_spec pdec reset H1 H2 (ds ++ [Shorthand (Some anims)]) m) as (m1 & E1 & E2).
  rewrite Hr in E1. injection E1 as <-. rewrite E2, fold_left_app. cbn [fold_left effect]. destruct anims as [|a anims]; [reflexivity|].
  split; [discriminate|]. generalize (a :: anims) as l. clear. induction l as [|b l IH]; cbn [map]; [constructor|]. constructor; [apply pick_gives|exact IH].
Qed.
Print Assumptions C39_shorthand_sets_every_list.

(** Nothing declared before a shorthand matters, even if the shorthand is invalid. *)
Theorem C39_shorthand_forgets :
  forall P E pdec reset ds1 ds2 o (m m1 : pmap P E), complete reset ->
  resolve_to_output pdec reset (ds1 ++ Shorthand o :: ds2) m = Some m1 ->
  exists m2, resolve_to_output pdec reset (Shorthand o :: ds2) (fun _ => None) = Some m2 /\ forall p, m1 p = m2 p.
Proof.
  intros P E pdec reset ds1 ds2 o m m1 [H1 H2] Hr. destruct (resolve_spec pdec reset H1 H2 (ds1 ++ Shorthand o :: ds2) m) as (m' & E1 & E2).
  rewrite Hr in E1. injection E1 as <-. destruct (resolve_spec pdec reset H1 H2 (Shorthand o :: ds2) (fun _ => None)) as (m2 & E3 & E4).
  exists m2. split; [exact E3|]. intros p. rewrite E2, E4, fold_left_app. cbn [fold_left]. destruct o as [[|a l]|]; reflexivity.
Qed.
Print Assumptions C39_shorthand_forgets.

(** A longhand sets its own list and leaves the others; an invalid one changes nothing. *)
Theorem C39_longhand_overrides_its_own_list :
  forall P E pdec reset ds p l (m m1 m2 : pmap P E), complete reset ->
  resolve_to_output pdec reset ds m = Some m1 -> resolve_to_output pdec reset (ds ++ [Single p l]) m = Some m2 ->
  (forall vs, l = Some vs -> m2 p = Some vs) /\ forall q, q <> p \/ l = None -> m2 q = m1 q.
Proof.
  intros P E pdec reset ds p l m m1 m2 [H1 H2] Hr1 Hr2. destruct (resolve_spec pdec reset H1 H2 ds m) as (m' & E1 & E2).
  rewrite Hr1 in E1. injection E1 as <-. destruct (resolve_spec pdec reset H1 H2 (ds ++ [Single p l]) m) as (m' & E3 & E4).
  rewrite Hr2 in E3. injection E3 as <-. split.
  - intros vs ->. rewrite E4, fold_left_app. cbn [fold_left effect]. destruct (pdec p p); congruence.
  - intros q Hq. rewrite E4, E2, fold_left_app. cbn [fold_left effect]. destruct l as [vs|]; [|reflexivity]. destruct Hq as [Hq|Hq]; [|discriminate]. destruct (pdec q p); congruence.
Qed.
Print Assumptions C39_longhand_overrides_its_own_list.

(** The rulesets of a node act as one long list of declarations, in cascade order. *)
Theorem C39_rulesets_in_order :
  forall P E pdec reset rulesets (m : pmap P E),
  resolve_rulesets pdec reset rulesets m = resolve_to_output pdec reset (concat rulesets) m.
Proof. intros. apply resolve_rulesets_concat. Qed.
Print Assumptions C39_rulesets_in_order.

(** [animation-delay: 9s; animation: 1 2s paused, 2; animation-duration: 5s] *)
Example C39_example :
  option_map (fun m => map m [AName; ADuration; ADelay; APlayState])
    (resolve_to_output (E := unit) aprop_dec animation_reset
       [Single ADelay (Some [VDuration 9%N]);
        Shorthand (Some [[(AName, VName 1); (ADuration, VDuration 2%N); (APlayState, VPlayState PlayPaused)]; [(AName, VName 2)]]);
        Single ADuration (Some [VDuration 5%N])] (fun _ => None)) =
  Some [Some [VName 1; VName 2]; Some [VDuration 5%N]; Some [VDefault; VDefault]; Some [VPlayState PlayPaused; VDefault]].
Proof. vm_compute. reflexivity. Qed.

(** ** C40 *)
(** One configuration per name, in the order of the names; each option is the entry at the name's position, or the last one, or the
    default. *)
Theorem C40_animation_configurations :
  forall E (ease : E) (m : pmap animation_property E), exists positions,
  StronglySorted lt positions /\
  (forall i, In i positions <-> exists l n, m AName = Some l /\ nth_error l i = Some (VName n)) /\
  Forall2 (fun i c => animation_at ease m i c) positions (animation_configurations ease m).
Proof.
  intros E ease m. exists (map fst (names m AName)). unfold names. destruct (m AName) as [l|] eqn:Em.
  - destruct (named_sorted l 0) as [S _]. split; [exact S|]. split.
    + intros i. split.
      * intros Hi. apply in_map_iff in Hi. destruct Hi as ([j n] & <- & Hi). apply named_spec in Hi. destruct Hi as (k & -> & Hk). exists l, n. auto.
      * intros (l' & n & H & Hn). injection H as <-. apply in_map_iff. exists (i, n). split; [reflexivity|]. apply named_spec. exists i. auto.
    + unfold animation_configurations, names. rewrite Em. rewrite <- (map_id (map fst (named 0 l))), map_map.
      assert (H : forall x, In x (named 0 l) -> nth_error l (fst x) = Some (VName (snd x))).
      { intros [i n] Hx. apply named_spec in Hx. destruct Hx as (j & -> & Hj). exact Hj. }
      revert H. generalize (named 0 l) as ns. induction ns as [|[i n] ns IH]; intros H; cbn [map]; [constructor|]. constructor.
      * cbn [fst]. unfold animation_at. cbn [ac_name ac_timing ac_options o_initial_delay o_duration o_direction o_iteration_count o_fill_mode o_play_state].
        split; [exists l; split; [exact Em|apply (H (i, n)); left; reflexivity]|].
        repeat split; apply get_option; intros v x; destruct v; cbn; split; congruence.
      * apply IH. intros x Hx. apply H. right. exact Hx.
  - split; [constructor|]. split; [intros i; split; [intros []|intros (l & n & H & _); discriminate]|]. unfold animation_configurations, names. rewrite Em. constructor.
Qed.
Print Assumptions C40_animation_configurations.
Theorem C40_transition_configurations :
  forall E (ease : E) (m : pmap transition_property E), exists positions,
  StronglySorted lt positions /\
  (forall i, In i positions <-> exists l n, m TName = Some l /\ nth_error l i = Some (VName n)) /\
  Forall2 (fun i c => transition_at ease m i c) positions (transition_configurations ease m).
Proof.
  intros E ease m. exists (map fst (names m TName)). unfold names. destruct (m TName) as [l|] eqn:Em.
  - destruct (named_sorted l 0) as [S _]. split; [exact S|]. split.
    + intros i. split.
      * intros Hi. apply in_map_iff in Hi. destruct Hi as ([j n] & <- & Hi). apply named_spec in Hi. destruct Hi as (k & -> & Hk). exists l, n. auto.
      * intros (l' & n & H & Hn). injection H as <-. apply in_map_iff. exists (i, n). split; [reflexivity|]. apply named_spec. exists i. auto.
    + unfold transition_configurations, names. rewrite Em. rewrite <- (map_id (map fst (named 0 l))), map_map.
      assert (H : forall x, In x (named 0 l) -> nth_error l (fst x) = Some (VName (snd x))).
      { intros [i n] Hx. apply named_spec in Hx. destruct Hx as (j & -> & Hj). exact Hj. }
      revert H. generalize (named 0 l) as ns. induction ns as [|[i n] ns IH]; intros H; cbn [map]; [constructor|]. constructor.
      * cbn [fst]. unfold transition_at. cbn [tc_name tc_timing tc_delay tc_duration].
        split; [exists l; split; [exact Em|apply (H (i, n)); left; reflexivity]|].
        repeat split; apply get_option; intros v x; destruct v; cbn; split; congruence.
      * apply IH. intros x Hx. apply H. right. exact Hx.
  - split; [constructor|]. split; [intros i; split; [intros []|intros (l & n & H & _); discriminate]|]. unfold transition_configurations, names. rewrite Em. constructor.
Qed.
Print Assumptions C40_transition_configurations.

(** The debug assertions (non-empty lists, values of the expected kind) hold for whatever the parser produces. *)
Theorem C40_no_debug_panic :
  forall E (ads : list (declaration animation_property E)) (tds : list (declaration transition_property E)) am tm,
  Forall (proper a_kind AName) ads -> Forall (proper t_kind TName) tds ->
  resolve_to_output aprop_dec animation_reset ads (fun _ => None) = Some am ->
  resolve_to_output tprop_dec transition_reset tds (fun _ => None) = Some tm ->
  proper_map a_kind AName am /\ proper_map t_kind TName tm.
Proof.
  intros E ads tds am tm Ha Ht Ea Et. destruct C39_reset_lists_complete as [[A1 A2] [T1 T2]]. split.
  - refine (proper_resolve aprop_dec animation_reset A1 A2 a_kind AName _ ads _ am Ha _ Ea); [left; reflexivity|discriminate].
  - refine (proper_resolve tprop_dec transition_reset T1 T2 t_kind TName _ tds _ tm Ht _ Et); [left; reflexivity|discriminate].
Qed.
Print Assumptions C40_no_debug_panic.

(** [transition-property: 1, 2, 3; transition-duration: 5s; transition-delay: 1s, 2s] *)
Example C40_example :
  let ds := [Single TName (Some [VName 1; VName 2; VName 3]); Single TDuration (Some [VDuration 5%N]); Single TDelay (Some [VDuration 1%N; VDuration 2%N])] in
  Forall (proper t_kind TName) ds /\
  option_map (transition_configurations 7) (resolve_to_output tprop_dec transition_reset ds (fun _ => None)) =
  Some [mk_tconfig 1 1%N 5%N 7; mk_tconfig 2 2%N 5%N 7; mk_tconfig 3 2%N 5%N 7].
Proof.
  split; [|vm_compute; reflexivity].
  apply Forall_cons; [|apply Forall_cons; [|apply Forall_cons; [|constructor]]]; cbn; (split; [|discriminate]); intros v Hv; right; repeat (destruct Hv as [<-|Hv]; [eauto|]); destruct Hv.
Qed.

(** ** C54 *)
(** The transition options of a property are those of the last configured transition that names it, directly or through a
    shorthand; a property that no transition names has none. *)
Theorem C54_transition_options_per_property :
  forall E (ease : E) ids (rulesets : list (list (declaration transition_property E))), exists opts m,
  resolve_transition_options ease ids rulesets = Some opts /\
  resolve_to_output tprop_dec transition_reset (concat rulesets) (fun _ => None) = Some m /\
  forall p c, opts p = Some c <-> exists cs1 cs2, transition_configurations ease m = cs1 ++ c :: cs2 /\ In p (ids (tc_name c)) /\
                                  forall c', In c' cs2 -> ~ In p (ids (tc_name c')).
Proof.
  intros E ease ids rulesets. unfold resolve_transition_options. rewrite resolve_rulesets_concat.
  destruct (C39_resolution_total _ E tprop_dec transition_reset (concat rulesets) (fun _ => None) (proj2 C39_reset_lists_complete)) as (m & Em).
  rewrite Em. exists (transition_options_of ids (transition_configurations ease m)), m. split; [reflexivity|]. split; [reflexivity|].
  generalize (transition_configurations ease m) as cs. clear. intros cs p c. unfold transition_options_of.
  assert (Hin : forall l (c : transition_configuration E) m p, fold_left (fun m id => fun q => if Nat.eqb q id then Some c else m q) l m p =
            if in_dec Nat.eq_dec p l then Some c else m p).
  { clear. induction l as [|x l IH]; intros c m p; cbn [fold_left]; [destruct (in_dec Nat.eq_dec p []) as [[]|]; reflexivity|]. rewrite IH.
    destruct (in_dec Nat.eq_dec p l) as [Hl|Hl], (in_dec Nat.eq_dec p (x :: l)) as [Hx|Hx]; try reflexivity.
    - exfalso. apply Hx. right. exact Hl.
    - destruct (Nat.eqb_spec p x); [reflexivity|]. exfalso. destruct Hx; [congruence|tauto].
    - destruct (Nat.eqb_spec p x); [|reflexivity]. exfalso. apply Hx. left. congruence. }
  induction cs as [|d cs IH] using rev_ind.
  - cbn [fold_left]. split; [discriminate|]. intros ([|? ?] & cs2 & H & _); discriminate.
  - rewrite fold_left_app. cbn [fold_left]. rewrite Hin. destruct (in_dec Nat.eq_dec p (ids (tc_name d))) as [Hp|Hp].
    + split.
      * intros H. injection H as <-. exists cs, []. split; [reflexivity|]. split; [exact Hp|intros c' []].
      * intros (cs1 & cs2 & H & Hc & Hl). destruct cs2 as [|e cs2 _] using rev_ind.
        -- apply app_inj_tail in H. destruct H as [_ <-]. reflexivity.
        -- exfalso. rewrite app_comm_cons, app_assoc in H. apply app_inj_tail in H. destruct H as [_ <-].
           apply (Hl d); [apply in_app_iff; right; left; reflexivity|exact Hp].
    + rewrite IH. split.
      * intros (cs1 & cs2 & -> & Hc & Hl). exists cs1, (cs2 ++ [d]). split; [rewrite <- app_assoc; reflexivity|]. split; [exact Hc|].
        intros c' Hc'. apply in_app_iff in Hc'. destruct Hc' as [Hc'|[<-|[]]]; [apply Hl, Hc'|exact Hp].
      * intros (cs1 & cs2 & H & Hc & Hl). destruct cs2 as [|e cs2 _] using rev_ind.
        -- apply app_inj_tail in H. destruct H as [_ <-]. tauto.
        -- rewrite app_comm_cons, app_assoc in H. apply app_inj_tail in H. destruct H as [-> <-]. exists cs1, cs2. split; [reflexivity|]. split; [exact Hc|].
           intros c' Hc'. apply Hl. apply in_app_iff. left. exact Hc'.
Qed.
Print Assumptions C54_transition_options_per_property.
(** names 1 = {10, 11} (a shorthand), 2 = {11}; [transition: 1 5s, 2 6s] *)
Example C54_example :
  option_map (fun o => map (fun p => option_map tc_duration (o p)) [10; 11; 12])
    (resolve_transition_options tt (fun n => match n with 1 => [10; 11] | 2 => [11] | _ => [] end)
       [[Shorthand (Some [[(TName, VName 1); (TDuration, VDuration 5%N)]; [(TName, VName 2); (TDuration, VDuration 6%N)]])]]) =
  Some [Some 5%N; Some 6%N; None].
Proof. vm_compute. reflexivity. Qed.
