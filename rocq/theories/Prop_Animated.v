(** C107: what components show while transitions and animations are under way. *)
From Coq Require Import Ascii String NArith ZArith QArith.
From Verif Require Import Base Tree TreeSpec Vars VarsSpec Siblings Media MediaSpec Invalidation InvalidationSpec Matching MatchingSpec MatchingProofs Specificity SpecificitySpec Follow FollowSpec Layers Cascade Whole WholeSpec Live LiveSpec LiveProofs Animated AnimatedSpec AnimatedProofs.
From Verif Require VarFlow Inherit InheritSpec Pipeline Prop_Pipeline Prop_Follow Prop_Live Prop_NodeProps Animation AnimationSample Transition TransitionFloat NodeProps NodePropsSpec NodePropsProofs NodePropsProofs2 HeadingProofs.
Local Open Scope nat_scope.
Open Scope string_scope.
Open Scope list_scope.

(** C107.  An application runs from its start through any number of updates as in C105, and its style sheets also give nodes transitions
    and animations, at any time.  After the last update every property of every node has exactly one CSS value, and its component
    shows: the value of the last animation that gives one; else, if the property is in transition, the value of the transition; else the
    CSS value.
    For every arithmetic, easing and interpolation that starts at its first value and always yields a value (C43, C67).
    Partial: for the histories of C105 in which transitions start from what is shown ([smooth], C26_restart_on_end_refuted). *)
Theorem C107_animated_partial :
  forall (V CN TP AP KN KF FF f32 F E K : Type) (veq : forall a b : V, {a = b} + {a <> b}) (feq fle fge : f32 -> f32 -> bool)
    (resolve_name : CN -> option nat) type_ok (path_ok : FF -> bool) placeholder np initial (decode : nat -> Inherit.pvalue V) unset_code nodes
    (op : Transition.fops F) interp (ease : E -> F -> F) vdefault (asample : K -> Animation.animation -> option V) animatable afuel
    (us : list (moment CN TP AP KN KF FF f32 * styling E K)) (last : moment CN TP AP KN KF FF f32) (y : styling E K),
  let sheet_builds := loaded resolve_name type_ok path_ok placeholder in
  let value := css feq fle fge resolve_name placeholder initial decode unset_code sheet_builds (situation_of last) in
  let update mf fuel u := update veq feq fle fge resolve_name type_ok path_ok placeholder np initial decode unset_code nodes op interp ease vdefault asample animatable afuel mf fuel (fst u) (snd u) in
  (forall a b, interp a b (Transition.f_clamp op (Transition.f_zero op) (Transition.f_zero op) (Transition.f_one op)) = a) ->
  (forall e t, Transition.f_le op (Transition.f_zero op) (ease e t) = true /\ Transition.f_le op (ease e t) (Transition.f_one op) = true) ->
  (forall p, decode (unset_code p) <> Inherit.PUnset) ->
  live_from_start resolve_name placeholder decode unset_code sheet_builds nodes (map fst us ++ [last]) ->
  exists m0, forall mf, m0 <= mf -> exists n0, forall fuel, n0 <= fuel -> forall before a,
    updates veq feq fle fge resolve_name type_ok path_ok placeholder np initial decode unset_code nodes op interp ease vdefault asample animatable afuel mf fuel (us ++ [(last, y)]) (start before) = Some a ->
    smooth op interp ease asample (update mf fuel) np afuel nodes (us ++ [(last, y)]) (start before) ->
    forall n p, In n (l_alive last) -> p < np ->
      exists c, value p n c /\ (forall c', value p n c' -> c' = c) /\ forall v, should_show op interp ease asample a n p c v -> an_shown a n p = v.
Proof.
  intros V CN TP AP KN KF FF f32 F E K veq feq fle fge resolve_name type_ok path_ok placeholder np initial decode unset_code nodes op interp ease vdefault asample animatable afuel us m y sb value upd Hi He Hu H.
  assert (exists m0, live_history resolve_name placeholder decode unset_code sb nodes (nothing (l_ratio m0) (l_media m0)) (map fst us ++ [m])) as [x Hh] by (destruct (map fst us) as [|x ms]; [exists m|exists x]; exact H).
  pose proof (history_last _ _ _ _ _ _ _ _ _ _ Hh) as S. destruct (matching_ok _ _ (proj1 (proj1 S))) as [m0 M]. exists m0. intros mf Hm.
  destruct (history_fuel feq fle fge resolve_name type_ok path_ok placeholder np initial decode unset_code nodes _ _ Hh) as [n0 Hf]. exists n0. intros fuel Hfu bef a Ha Hs n p Hn Hp.
  destruct (history_inv veq feq fle fge resolve_name type_ok path_ok placeholder np initial decode unset_code nodes Hu mf fuel (map fst us ++ [m]) _ (Live.start bef) Hh (Hf fuel Hfu)) as (s & El & I); [apply start_inv|].
  pose proof (live_part veq feq fle fge resolve_name type_ok path_ok placeholder np initial decode unset_code nodes op interp ease vdefault asample animatable afuel mf fuel _ _ _ Ha) as Ea.
  rewrite map_app in Ea. cbn [map fst start an_live] in Ea. rewrite El in Ea. injection Ea as ->. rewrite last_last in I.
  destruct (live_computed feq fle fge resolve_name type_ok path_ok placeholder np initial decode unset_code nodes mf m (an_live a) n p ltac:(auto) S I Hn Hp) as [V1 V2].
  assert (Sa : NodePropsProofs.sampled op veq interp ease vdefault).
  { intros o' x' _ _. unfold Transition.t_sample_value. destruct (orb _ _); [discriminate|]. unfold Transition.curve_sample.
    destruct (He (Transition.t_easing x') (Transition.f_div op (Transition.f_sub op (Transition.f_secs op (Transition.t_elapsed x')) (Transition.f_secs op (Transition.t_delay x'))) (Transition.f_secs op (Transition.t_duration x')))) as [H1 H2].
    rewrite H1, H2. discriminate. }
  destruct (good_run veq feq fle fge resolve_name type_ok path_ok placeholder np initial decode unset_code nodes op interp ease vdefault asample animatable afuel mf fuel Hi Sa (us ++ [(m, y)]) (start bef) a ltac:(destruct us; discriminate)) as [G C]; auto; [apply start_good|].
  assert (Hnn : In n nodes) by (apply S; exact Hn).
  exists (Inherit.computed (Pipeline.world (lv_pipe (an_live a)) n) p). split; [exact V1|]. split; [exact V2|]. intros v Hv. rewrite <- (C n p Hnn Hp) in Hv. apply should_shows in Hv. apply NodePropsProofs.shows_iff in Hv.
  destruct (G n Hnn) as [I1 I2 _]. cbn in I1, I2. apply (I2 p v Hp). rewrite (I1 p Hp). exact Hv.
Qed.
Print Assumptions C107_animated_partial.

(** C107, when transitions start from what is shown: if a property whose CSS value changes is not animated by keyframes just then, and its
    transition, if it has one, does not end in that very update. *)
Theorem C107_calm_is_smooth :
  forall (V CN TP AP KN KF FF f32 F E K : Type) (veq : forall a b : V, {a = b} + {a <> b}) (feq fle fge : f32 -> f32 -> bool)
    (resolve_name : CN -> option nat) type_ok (path_ok : FF -> bool) placeholder np initial (decode : nat -> Inherit.pvalue V) unset_code nodes
    (op : Transition.fops F) interp (ease : E -> F -> F) vdefault (asample : K -> Animation.animation -> option V) animatable afuel mf fuel
    (us : list (moment CN TP AP KN KF FF f32 * styling E K)) (a : animated V F E K),
  let update u := update veq feq fle fge resolve_name type_ok path_ok placeholder np initial decode unset_code nodes op interp ease vdefault asample animatable afuel mf fuel (fst u) (snd u) in
  calm asample update np nodes us a -> smooth op interp ease asample update np afuel nodes us a.
Proof. intros. apply calm_smooth. assumption. Qed.
Print Assumptions C107_calm_is_smooth.

(** C107, where transitions go: in the histories of C105, while the CSS value of a property does not disappear (C106_lost_value_refuted),
    a transition that is under way ends at the CSS value that the property has now.  (Nothing is assumed about how transitions start.) *)
Theorem C107_transitions_end_at_css_value_partial :
  forall (V CN TP AP KN KF FF f32 F E K : Type) (veq : forall a b : V, {a = b} + {a <> b}) (feq fle fge : f32 -> f32 -> bool)
    (resolve_name : CN -> option nat) type_ok (path_ok : FF -> bool) placeholder np initial (decode : nat -> Inherit.pvalue V) unset_code nodes
    (op : Transition.fops F) interp (ease : E -> F -> F) vdefault (asample : K -> Animation.animation -> option V) animatable afuel
    (us : list (moment CN TP AP KN KF FF f32 * styling E K)) (last : moment CN TP AP KN KF FF f32) (y : styling E K),
  let sheet_builds := loaded resolve_name type_ok path_ok placeholder in
  let value := css feq fle fge resolve_name placeholder initial decode unset_code sheet_builds (situation_of last) in
  let update mf fuel u := update veq feq fle fge resolve_name type_ok path_ok placeholder np initial decode unset_code nodes op interp ease vdefault asample animatable afuel mf fuel (fst u) (snd u) in
  (forall p, decode (unset_code p) <> Inherit.PUnset) ->
  live_from_start resolve_name placeholder decode unset_code sheet_builds nodes (map fst us ++ [last]) ->
  exists m0, forall mf, m0 <= mf -> exists n0, forall fuel, n0 <= fuel -> forall before a,
    updates veq feq fle fge resolve_name type_ok path_ok placeholder np initial decode unset_code nodes op interp ease vdefault asample animatable afuel mf fuel (us ++ [(last, y)]) (start before) = Some a ->
    forall n p, In n (l_alive last) -> p < np -> value_stays (update mf fuel) n p (us ++ [(last, y)]) (start before) ->
      forall x, transition_of a n p = Some x -> Transition.t_is_active x = true -> value p n (Inherit.CVal (Transition.t_to x)).
Proof.
  intros V CN TP AP KN KF FF f32 F E K veq feq fle fge resolve_name type_ok path_ok placeholder np initial decode unset_code nodes op interp ease vdefault asample animatable afuel us m y sb value upd Hu H.
  assert (exists m0, live_history resolve_name placeholder decode unset_code sb nodes (nothing (l_ratio m0) (l_media m0)) (map fst us ++ [m])) as [x0 Hh] by (destruct (map fst us) as [|x ms]; [exists m|exists x]; exact H).
  pose proof (history_last _ _ _ _ _ _ _ _ _ _ Hh) as S. destruct (matching_ok _ _ (proj1 (proj1 S))) as [m0 M]. exists m0. intros mf Hm.
  destruct (history_fuel feq fle fge resolve_name type_ok path_ok placeholder np initial decode unset_code nodes _ _ Hh) as [n0 Hf]. exists n0. intros fuel Hfu bef a Ha n p Hn Hp Hs x Hx Hact.
  destruct (history_inv veq feq fle fge resolve_name type_ok path_ok placeholder np initial decode unset_code nodes Hu mf fuel (map fst us ++ [m]) _ (Live.start bef) Hh (Hf fuel Hfu)) as (s & El & I); [apply start_inv|].
  pose proof (live_part veq feq fle fge resolve_name type_ok path_ok placeholder np initial decode unset_code nodes op interp ease vdefault asample animatable afuel mf fuel _ _ _ Ha) as Ea.
  rewrite map_app in Ea. cbn [map fst start an_live] in Ea. rewrite El in Ea. injection Ea as ->. rewrite last_last in I.
  destruct (live_computed feq fle fge resolve_name type_ok path_ok placeholder np initial decode unset_code nodes mf m (an_live a) n p ltac:(auto) S I Hn Hp) as [V1 V2].
  assert (Hnn : In n nodes) by (apply S; exact Hn).
  assert (A : HeadingProofs.aimed (animatable p) (NodeProps.props (an_node a n) p)).
  { apply (aimed_run veq feq fle fge resolve_name type_ok path_ok placeholder np initial decode unset_code nodes op interp ease vdefault asample animatable afuel mf fuel n p (us ++ [(m, y)]) (start bef) a); [exact Hnn|exact Hp|intros q _ _ i z Hz; discriminate|intros i z Hz; discriminate|exact Hs|exact Ha]. }
  unfold transition_of in Hx. destruct (NodeProps.trans (NodeProps.props (an_node a n) p)) as [[i z]|] eqn:Ez; cbn in Hx; [|discriminate Hx]. injection Hx as ->.
  destruct (A i x Ez) as [_ B]. rewrite <- (B Hact). 
  assert (C : NodeProps.computed (NodeProps.props (an_node a n) p) = Inherit.computed (Pipeline.world (lv_pipe (an_live a)) n) p) by (eapply computed_last; eauto).
  rewrite C. exact V1.
Qed.
Print Assumptions C107_transitions_end_at_css_value_partial.

(** ** A concrete application: that of Prop_Live.v, with [* { transition: p0 1s 1s }]; when node 1 loses its class (the fourth update), node 2
    also gets an animation of p1 that lasts 2 s; 1.5 s, 1 s and 16 ms pass before the last
    updates. *)
Module Ex := Prop_NodeProps.Ex.
Definition lerp (a b : nat) (t : AnimationSample.ext) : nat := Z.to_nat (Ex.lerp (Z.of_nat a) (Z.of_nat b) t).
Definition frames (k : nat) (a : Animation.animation) : option nat := option_map Z.to_nat (Ex.sample (Z.of_nat k) a).
Definition the_animation : NodeProps.config * (NodeProps.config -> option (list (nat * nat))) :=
  ((3, Animation.mk_options 0 (Ex.ms 2000) Animation.DirNormal (Animation.Count 1) Animation.FillNone Animation.PlayRunning), fun c => Some [(1, 60)]).
Definition styled (ms : N) (anim : bool) : styling unit nat :=
  mk_styling (Ex.ms ms) (fun _ => Some Ex.opts) (fun n => if (anim && Nat.eqb n 2)%bool then Some ([fst the_animation], snd the_animation) else None) (fun _ m => m).
Definition at_rest := Prop_Live.mom [2] Prop_Live.only_b true Dark [] [] [] false.
Definition times := [(0, false); (16, false); (16, false); (16, true); (1500, false); (1000, false); (16, false)].
Definition film := combine (Prop_Live.story ++ [Prop_Live.story_end; at_rest; at_rest]) (map (fun x => styled (N.of_nat (fst x)) (snd x)) times).
Notation the_update := (update Nat.eq_dec Prop_Live.never Prop_Live.never Prop_Live.never Prop_Live.no_name (fun _ _ => true) (fun _ => true) (fun v => v) 2 (fun _ => 0) Prop_Pipeline.dec Prop_Pipeline.unsets [0; 1; 2]
  TransitionFloat.ideal lerp Ex.linear 0 frames (fun _ => true) 100).
Notation the_updates := (updates Nat.eq_dec Prop_Live.never Prop_Live.never Prop_Live.never Prop_Live.no_name (fun _ _ => true) (fun _ => true) (fun v => v) 2 (fun _ => 0) Prop_Pipeline.dec Prop_Pipeline.unsets [0; 1; 2]
  TransitionFloat.ideal lerp Ex.linear 0 frames (fun _ => true) 100).
Example C107_example :
  let run k := option_map (fun a => (an_shown a 2 0, an_shown a 2 1)) (the_updates 9 9 (firstn k film) (start (fun _ _ => 77))) in
  map run [1; 2; 3; 4; 5; 6; 7] = [Some (77, 77); Some (10, 77); Some (10, 20); Some (10, 20); Some (7, 60); Some (5, 60); Some (5, 20)].
Proof. vm_compute. reflexivity. Qed.
Lemma film_ok : live_from_start Prop_Live.no_name (fun v => v) Prop_Pipeline.dec Prop_Pipeline.unsets (loaded Prop_Live.no_name (fun _ _ => true) (fun _ : unit => true) (fun v => v)) [0; 1; 2] (map fst film).
Proof.
  change (map fst film) with (Prop_Live.story ++ [Prop_Live.story_end; at_rest; at_rest]).
  cbn [Prop_Live.story app live_from_start live_history].
  repeat match goal with
  | |- live_sane _ _ _ _ _ _ _ /\ _ => split; [apply Prop_Live.mom_sane; [repeat constructor; cbn; intuition discriminate|intros n Hn; cbn in *; tauto|auto]|]
  | |- live_goes_on _ _ _ /\ _ => split; [split; [|split; [|split; [|split; [|split; [|split; [|split; [|split]]]]]]]|]
  | |- True => exact I
  | |- forall n, In n _ -> l_data _ n = false -> _ => let n := fresh in intros n Ha Hd; Prop_Live.cases n; cbn in *; try discriminate; try (exfalso; intuition discriminate); split; reflexivity
  | |- forall n, In n _ -> l_style _ n = false -> _ => reflexivity
  | |- forall p, In p _ -> l_children _ p = false -> _ => let n := fresh in intros n Hd Hc; Prop_Live.cases n; cbn in *; try discriminate; reflexivity
  | |- forall n, In n _ -> _ -> l_theme _ n = false -> _ => let n := fresh in intros n _ H0 Hl; cbn in *; try discriminate; try (exfalso; apply H0; reflexivity); reflexivity
  | |- forall n, In n _ -> _ -> l_info _ n = false -> _ => intros; repeat split
  | |- forall a n, l_modified _ a = true \/ _ -> _ => intros a n [Hm|Hm]; discriminate
  | |- forall n b, In n _ -> l_sheet _ n = Some b -> _ => let n := fresh in intros n b Ha Hb Hl; first [discriminate Hb|Prop_Live.cases n; cbn in Ha, Hb; try discriminate Hb; try (exfalso; intuition discriminate); injection Hb as <-; (split; [exists Prop_Live.the_sheet; split; [reflexivity|exact Hl]|left; reflexivity])]
  | |- forall n d, _ -> descendant _ _ _ -> _ => intros n d Hp Hd; exfalso; first [apply Hp; reflexivity|apply Prop_Live.flat_below in Hd as (-> & _); [apply Hp; reflexivity|cbn; intuition discriminate]]
  | |- forall n, In n _ -> ~ In n _ -> _ => let n := fresh in intros n Ha Hb; cbn in *; intuition (subst; reflexivity)
  end.
Qed.
(** the histories of C107 contain it: checked by evaluating *)
Definition ceq (a b : Inherit.cvalue nat) : bool := match a, b with Inherit.CNone, Inherit.CNone => true | Inherit.CVal x, Inherit.CVal y => Nat.eqb x y | _, _ => false end.
Lemma ceq_true a b : ceq a b = true -> a = b.
Proof. destruct a, b; cbn; intros H; try discriminate; try reflexivity. apply Nat.eqb_eq in H as ->. reflexivity. Qed.
Definition calm_b (u : moment unit unit unit unit unit unit unit * styling unit nat) (a a' : animated nat AnimationSample.ext unit nat) (n : nat) : bool :=
  forallb (fun p => (ceq (Inherit.computed (Pipeline.world (lv_pipe (an_live a')) n) p) (NodeProps.computed (NodeProps.props (an_node a n) p)) ||
    (forallb (fun x => match frames (snd x) (fst x) with None => true | Some _ => false end) (NodePropsSpec.animations_on (an_node a n) p) &&
     match transition_of a n p with Some x => Transition.t_is_active (Transition.t_tick (y_delta (snd u)) x) | None => true end))%bool) (seq 0 2).
Definition stays_b (u : moment unit unit unit unit unit unit unit * styling unit nat) (a a' : animated nat AnimationSample.ext unit nat) (n : nat) : bool :=
  forallb (fun p => (is_reset (fst u) n || ceq (NodeProps.computed (NodeProps.props (an_node a n) p)) Inherit.CNone || negb (ceq (Inherit.computed (Pipeline.world (lv_pipe (an_live a')) n) p) Inherit.CNone))%bool) (seq 0 2).
Fixpoint check (us : list (moment unit unit unit unit unit unit unit * styling unit nat)) a : bool :=
  match us with
  | [] => true
  | u :: us => match the_update 9 9 (fst u) (snd u) a with Some a' => (forallb (fun n => (calm_b u a a' n && stays_b u a a' n)%bool) [0; 1; 2] && check us a')%bool | None => true end
  end.
Lemma check_calm us : forall a, check us a = true -> calm frames (fun u => the_update 9 9 (fst u) (snd u)) 2 [0; 1; 2] us a.
Proof.
  induction us as [|u us IH]; intros a H; [exact I|]. intros a' E. cbn [check] in H. rewrite E in H. apply andb_true_iff in H as [H1 H2]. split; [|auto].
  intros n Hn p Hp Hne. rewrite forallb_forall in H1. apply H1 in Hn. apply andb_true_iff in Hn as [Hn _]. unfold calm_b in Hn. rewrite forallb_forall in Hn.
  specialize (Hn p ltac:(apply in_seq; lia)). apply orb_true_iff in Hn as [Hn|Hn]; [apply ceq_true in Hn; contradiction|]. apply andb_true_iff in Hn as [Ha Hb]. split.
  - apply Forall_forall. intros x Hx. rewrite forallb_forall in Ha. apply Ha in Hx. destruct (frames (snd x) (fst x)); [discriminate|reflexivity].
  - intros x Hx. rewrite Hx in Hb. exact Hb.
Qed.
Lemma check_stays n p us : In n [0; 1; 2] -> p < 2 -> forall a, check us a = true -> value_stays (fun u => the_update 9 9 (fst u) (snd u)) n p us a.
Proof.
  intros Hn Hp. induction us as [|u us IH]; intros a H; [exact I|]. intros a' E. cbn [check] in H. rewrite E in H. apply andb_true_iff in H as [H1 H2]. split; [|auto].
  rewrite forallb_forall in H1. apply H1 in Hn. apply andb_true_iff in Hn as [_ Hn]. unfold stays_b in Hn. rewrite forallb_forall in Hn.
  specialize (Hn p ltac:(apply in_seq; lia)). apply orb_true_iff in Hn as [Hn|Hn]; [apply orb_true_iff in Hn as [Hn|Hn]; [left; exact Hn|right; left; apply ceq_true, Hn]|].
  right. right. intros Hc. rewrite Hc in Hn. discriminate.
Qed.
Example C107_film_calm : forall before, 
  calm frames (fun u => the_update 9 9 (fst u) (snd u)) 2 [0; 1; 2] film (start (fun _ _ => before)) /\
  forall n p, In n [0; 1; 2] -> p < 2 -> value_stays (fun u => the_update 9 9 (fst u) (snd u)) n p film (start (fun _ _ => before)).
Proof.
  intros b. assert (C : check film (start (fun _ _ => b)) = true) by (vm_compute; reflexivity). split; [apply check_calm, C|].
  intros n p Hn Hp. apply check_stays; auto.
Qed.
(** the arithmetic of the example meets the hypotheses *)
Example C107_arithmetic :
  (forall a b, lerp a b (Transition.f_clamp TransitionFloat.ideal (Transition.f_zero TransitionFloat.ideal) (Transition.f_zero TransitionFloat.ideal) (Transition.f_one TransitionFloat.ideal)) = a) /\
  (forall e t, Transition.f_le TransitionFloat.ideal (Transition.f_zero TransitionFloat.ideal) (Ex.linear e t) = true /\ Transition.f_le TransitionFloat.ideal (Ex.linear e t) (Transition.f_one TransitionFloat.ideal) = true).
Proof.
  destruct Prop_NodeProps.C26_witness as (H1 & H2 & _). split; [|exact H2]. intros a b. unfold lerp. rewrite H1. apply Nat2Z.id.
Qed.
