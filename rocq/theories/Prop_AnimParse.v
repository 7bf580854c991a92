(** C80: what the values of `animation` and `transition` mean. *)
From Coq Require Import Ascii String NArith ZArith QArith Permutation.
From Verif Require Import Base Vars VarText Media SheetText Easing Animation AnimProps AnimParse AnimParseSpec AnimParseProofs1 AnimParseProofs2 AnimParseProofs3.
Open Scope nat_scope.

(** ** The shorthands *)
Theorem C80_transition nm l rs : same_name nm (tx "transition") = true -> Forall calm l ->
  transition_declaration nm l = EOk (PShorthand rs) <-> exists parts, comma_list parts l /\ Forall2 transition_means parts rs.
Proof.
  intros Hn Hc. unfold transition_declaration. rewrite Hn.
  rewrite <- (loop_values_iff taccepts TDuration TDelay TName transition_pick) by (auto using transition_goes, transition_calm, transition_comma, transition_delim).
  assert (E : animation_values (transition_shorthand []) l = animation_values (loop transition_pick []) l).
  { unfold animation_values. rewrite (comma_separated_ext _ (loop transition_pick []) (fun _ => True)); auto using transition_loop. }
  rewrite E. unfold emap. destruct (animation_values _ l); split; intros H; inversion H; reflexivity.
Qed.
Print Assumptions C80_transition.
Theorem C80_animation_partial nm l rs : same_name nm (tx "animation") = true -> Forall calm l -> well_ordered l ->
  animation_declaration nm l = EOk (PShorthand rs) <-> exists parts, comma_list parts l /\ Forall2 animation_means parts rs.
Proof.
  intros Hn Hc Hw. unfold animation_declaration. rewrite Hn.
  rewrite <- (loop_values_iff accepts ADuration ADelay AName animation_pick) by (auto using animation_goes, animation_calm, animation_comma, animation_delim).
  rewrite (animation_values_loop _ Hc Hw). unfold emap. destruct (animation_values _ l); split; intros H; inversion H; reflexivity.
Qed.
Print Assumptions C80_animation_partial.
(** No longhand is set twice, and a shorthand means one thing only. *)
Theorem C80_one_meaning parts r r' : Forall calm parts -> animation_means parts r -> animation_means parts r' -> r = r' /\ NoDup (map fst r).
Proof.
  intros Hc H H'. split; [|eapply means_nodup; exact H].
  apply (loop_iff accepts ADuration ADelay AName animation_pick calm animation_goes animation_calm) in H, H'; auto. congruence.
Qed.
Print Assumptions C80_one_meaning.

(** ** The order of the words does not matter, but for the times *)
Theorem C80_order_animation l l' r : Forall calm l -> well_ordered l -> well_ordered l' -> no_repeats accepts [ADuration; ADelay; AName] l -> reordered l l' ->
  animation_shorthand [] l = EOk (r, []) -> exists r', animation_shorthand [] l' = EOk (r', []) /\ Permutation r r'.
Proof.
  intros Hc Hw Hw' Hr Ho. assert (Hc' : Forall calm l') by (eapply Permutation_Forall; [apply Ho|exact Hc]).
  rewrite !animation_loop by assumption.
  intros H. apply (loop_iff accepts ADuration ADelay AName animation_pick calm animation_goes animation_calm) in H; [|exact Hc].
  destruct (means_reorder accepts ADuration ADelay AName) with (l := l) (l' := l') (r := r) as (r' & Hm & Hp); auto using aprop_dec; try discriminate.
  - intros p x v Ha Hu. destruct x as [[]| |]; try discriminate. apply accepts_dim in Ha. exact Ha.
  - intros p x v Ha Hp. eapply accepts_time_unit; eauto.
  - exists r'. split; [|exact Hp]. apply (loop_iff accepts ADuration ADelay AName animation_pick calm animation_goes animation_calm); assumption.
Qed.
Print Assumptions C80_order_animation.
Theorem C80_order_transition l l' r : Forall calm l -> no_repeats taccepts [TDuration; TDelay; TName] l -> reordered l l' ->
  transition_shorthand [] l = EOk (r, []) -> exists r', transition_shorthand [] l' = EOk (r', []) /\ Permutation r r'.
Proof.
  intros Hc Hr Ho. assert (Hc' : Forall calm l') by (eapply Permutation_Forall; [apply Ho|exact Hc]).
  rewrite !transition_loop.
  intros H. apply (loop_iff taccepts TDuration TDelay TName transition_pick calm transition_goes transition_calm) in H; [|exact Hc].
  destruct (means_reorder taccepts TDuration TDelay TName) with (l := l) (l' := l') (r := r) as (r' & Hm & Hp); auto using tprop_dec; try discriminate.
  - intros p x v Ha Hu. destruct x as [[]| |]; try discriminate. apply taccepts_accepts, accepts_dim in Ha. destruct p; destruct Ha; auto; discriminate.
  - intros p x v Ha Hp. apply taccepts_accepts in Ha. eapply accepts_time_unit; [exact Ha|]. destruct Hp as [-> | ->]; auto.
  - exists r'. split; [|exact Hp]. apply (loop_iff taccepts TDuration TDelay TName transition_pick calm transition_goes transition_calm); assumption.
Qed.
Print Assumptions C80_order_transition.

(** ** The longhands: values with commas between them; `none` is the empty list of names *)
Theorem C80_longhand p nm l vs : same_name nm (tx (longhand_name p)) = true -> Forall calm l -> (p = AName -> forall x r, l = x :: r -> ~ is_word x "none") ->
  animation_declaration nm l = EOk (PSingle p vs) <-> exists parts, comma_list parts l /\ Forall2 (one_value (accepts p)) parts vs.
Proof.
  intros Hn Hc Hnone.
  assert (Hcmp : forall s, same_name nm (tx s) = if string_dec (string_of_list_ascii (map lower (tx s))) (string_of_list_ascii (map lower (tx (longhand_name p)))) then true else false).
  { intros s. apply same_name_lower in Hn. destruct (string_dec _ _) as [e|n]; [apply same_name_lower; congruence|].
    destruct (same_name nm (tx s)) eqn:E; [|reflexivity]. apply same_name_lower in E. congruence. }
  assert (Hl : forall parse : tree -> eresult pvalue, (forall x v, calm x -> parse x = EOk v <-> accepts p x v) ->
    emap (PSingle p) (animation_values (single parse) l) = EOk (PSingle p vs) <-> exists parts, comma_list parts l /\ Forall2 (one_value (accepts p)) parts vs).
  { intros parse Hp. rewrite <- (single_values_iff parse (accepts p) Hp l vs Hc). unfold emap. destruct (animation_values _ l); split; intros H; inversion H; reflexivity. }
  unfold animation_declaration. rewrite !Hcmp. destruct p; cbn.
  - unfold names. assert (starts_none l = false) as ->.
    { destruct l as [|[[]| |] l]; try reflexivity. cbn [starts_none]. destruct (same_name s (tx "none")) eqn:E; [|reflexivity]. exfalso. eapply (Hnone eq_refl); [reflexivity|]. exists s; auto. }
    apply Hl. intros; apply name_iff.
  - apply Hl. intros; apply time_duration; assumption.
  - apply Hl. intros; apply time_delay; assumption.
  - apply Hl. intros; apply direction_iff.
  - apply Hl. intros; apply fill_iff.
  - apply Hl. intros; apply count_iff.
  - apply Hl. intros; apply play_iff.
  - apply Hl. intros; apply timing_iff.
Qed.
Print Assumptions C80_longhand.
Theorem C80_transition_longhand p nm l vs : same_name nm (tx (tlonghand_name p)) = true -> Forall calm l -> (p = TName -> forall x r, l = x :: r -> ~ is_word x "none") ->
  transition_declaration nm l = EOk (PSingle p vs) <-> exists parts, comma_list parts l /\ Forall2 (one_value (taccepts p)) parts vs.
Proof.
  intros Hn Hc Hnone.
  assert (Hcmp : forall s, same_name nm (tx s) = if string_dec (string_of_list_ascii (map lower (tx s))) (string_of_list_ascii (map lower (tx (tlonghand_name p)))) then true else false).
  { intros s. apply same_name_lower in Hn. destruct (string_dec _ _) as [e|n]; [apply same_name_lower; congruence|].
    destruct (same_name nm (tx s)) eqn:E; [|reflexivity]. apply same_name_lower in E. congruence. }
  assert (Hl : forall parse : tree -> eresult pvalue, (forall x v, calm x -> parse x = EOk v <-> taccepts p x v) ->
    emap (PSingle p) (animation_values (single parse) l) = EOk (PSingle p vs) <-> exists parts, comma_list parts l /\ Forall2 (one_value (taccepts p)) parts vs).
  { intros parse Hp. rewrite <- (single_values_iff parse (taccepts p) Hp l vs Hc). unfold emap. destruct (animation_values _ l); split; intros H; inversion H; reflexivity. }
  unfold transition_declaration. rewrite !Hcmp. destruct p; cbn.
  - unfold names. assert (starts_none l = false) as ->.
    { destruct l as [|[[]| |] l]; try reflexivity. cbn [starts_none]. destruct (same_name s (tx "none")) eqn:E; [|reflexivity]. exfalso. eapply (Hnone eq_refl); [reflexivity|]. exists s; auto. }
    apply Hl. intros; apply tname_iff.
  - apply Hl. intros; apply ttime_duration; assumption.
  - apply Hl. intros; apply ttime_delay; assumption.
  - apply Hl. intros; apply ttiming_iff.
Qed.
Print Assumptions C80_transition_longhand.
Theorem C80_none nm x b : same_name nm (tx "animation-name") = true -> is_word x "none" ->
  animation_declaration nm (x :: b) = EOk (PSingle AName []) <-> bang b.
Proof.
  intros Hn (w & -> & Hw).
  assert (E : animation_declaration nm (Leaf (TIdent w) :: b) = emap (PSingle AName) (names parse_animation_name (Leaf (TIdent w) :: b))).
  { unfold animation_declaration. rewrite Hn. assert (same_name nm (tx "animation") = false) as ->; [|reflexivity].
    destruct (same_name nm (tx "animation")) eqn:E; [|reflexivity]. apply same_name_lower in E, Hn. rewrite E in Hn. discriminate Hn. }
  rewrite E. unfold names. cbn [starts_none none_value]. rewrite Hw. cbn [andb]. rewrite bang_important.
  destruct b as [|y [|z [|]]]; cbn [emap]; try (split; [discriminate|intros H; discriminate H]); [tauto|].
  destruct (important [y; z]); split; intros H; try discriminate; reflexivity.
Qed.
Print Assumptions C80_none.

(** ** Concrete cases *)
Definition calm_b (x : tree) : bool := match parse_duration x with EPanic => false | _ => match parse_easing (etok_of x) with EPanic => false | _ => true end end.
Lemma calm_b_ok x : calm_b x = true -> calm x.
Proof.
  unfold calm_b. intros H. assert (H1 : parse_duration x <> EPanic) by (destruct (parse_duration x); discriminate).
  assert (H2 : parse_easing (etok_of x) <> EPanic) by (destruct (parse_duration x), (parse_easing (etok_of x)); discriminate).
  split; [|exact H2]. clear H H2. intros q Ht; destruct Ht as [d int u Hu Hq | n u Hu]; cbn [parse_duration] in H1.
  - apply Qle_bool_iff in Hq. rewrite Hq, Hu in H1. cbn [andb] in H1. destruct (too_long (dec_Q d)) eqn:E; [congruence|].
    destruct (Qlt_le_dec (dec_Q d) (inject_Z (2 ^ 64))) as [L|L]; [exact L|]. apply Qle_bool_iff in L. unfold too_long in E. congruence.
  - apply Qle_lt_trans with (inject_Z (2 ^ 31)); [|reflexivity]. apply Qle_shift_div_r; [reflexivity|]. change (inject_Z (2 ^ 31) * 1000)%Q with (inject_Z (2147483648000)). rewrite <- Zle_Qle. lia.
Qed.
Lemma all_calm l : forallb calm_b l = true -> Forall calm l.
Proof. intros H. apply Forall_forall. intros x Hx. apply calm_b_ok. rewrite forallb_forall in H. exact (H x Hx). Qed.
Definition is_ok (e : eresult pvalue) : bool := match e with EOk _ => true | _ => false end.
Fixpoint ordered_b (l : list tree) : bool :=
  match l with
  | x :: ((y :: _) as r) => (negb (is_ok (parse_animation_play_state x) &&
      (is_ok (parse_duration y) || is_ok (parse_animation_direction y) || is_ok (parse_animation_fill_mode y) || is_ok (parse_iteration_count y))) && ordered_b r)%bool
  | _ => true
  end.
Lemma ordered_b_ok l : Forall calm l -> ordered_b l = true -> well_ordered l.
Proof.
  intros Hc H l1. revert l Hc H. induction l1 as [|z l1 IH]; intros l Hc H x y l2 s p v -> Hx Hy Hi.
  - cbn [app ordered_b] in H. apply andb_prop in H as [H _]. apply play_iff in Hx. rewrite Hx in H. cbn [is_ok andb] in H.
    inversion Hc as [|? ? _ Hc']; subst. inversion Hc' as [|? ? Hcy _]; subst.
    assert (E : (is_ok (parse_duration y) || is_ok (parse_animation_direction y) || is_ok (parse_animation_fill_mode y) || is_ok (parse_iteration_count y))%bool = true); [|rewrite E in H; discriminate].
    cbn in Hi. destruct Hi as [<-|[<-|[<-|[<-|[<-|[]]]]]].
    + apply time_duration in Hy; [|exact Hcy]. rewrite Hy. reflexivity.
    + apply time_delay in Hy; [|exact Hcy]. rewrite Hy. reflexivity.
    + apply direction_iff in Hy. rewrite Hy. cbn. rewrite Bool.orb_true_r. reflexivity.
    + apply fill_iff in Hy. rewrite Hy. cbn. rewrite Bool.orb_true_r. reflexivity.
    + apply count_iff in Hy. rewrite Hy. cbn. rewrite Bool.orb_true_r. reflexivity.
  - inversion Hc as [|? ? _ Hc']; subst. apply (IH (l1 ++ x :: y :: l2) Hc') with (x := x) (y := y) (l2 := l2) (s := s) (p := p) (v := v); auto.
    cbn [app ordered_b] in H. destruct (l1 ++ x :: y :: l2) as [|w t0] eqn:E; [reflexivity|]. apply andb_prop in H as [_ H]. exact H.
Qed.
Definition example : list tree := parsed (tx "3s Ease-In 1s infinite reverse both running slide-in, 200ms cubic-bezier(0.1, 0.7, 1.0, 0.1) paused 'x' !important").
Example C80_animation_nonvacuous : Forall calm example /\ well_ordered example /\
  animation_declaration (tx "Animation") example = EOk (PShorthand
    [[(ADuration, PTime (3 # 1)); (ATimingFunction, PTiming EaseIn); (ADelay, PTime (1 # 1)); (AIterationCount, PCount Infinite); (ADirection, PDirection DirReverse);
      (AFillMode, PFillMode FillBoth); (APlayState, PPlayState PlayRunning); (AName, PName (tx "slide-in"))];
     [(ADuration, PTime (200 # 1000)); (ATimingFunction, PTiming (CubicBezier (1 # 10) (7 # 10) (1 # 1) (1 # 10))); (APlayState, PPlayState PlayPaused); (AName, PName (tx "x"))]]).
Proof.
  assert (H : Forall calm example) by (apply all_calm; vm_compute; reflexivity).
  split; [exact H|]. split; [apply ordered_b_ok; [exact H|vm_compute; reflexivity]|]. vm_compute. reflexivity.
Qed.
Example C80_transition_nonvacuous : transition_declaration (tx "transition") (parsed (tx "width 2s ease-in 500ms, height 1s")) = EOk (PShorthand
  [[(TName, PName (tx "width")); (TDuration, PTime (2 # 1)); (TTimingFunction, PTiming EaseIn); (TDelay, PTime (500 # 1000))]; [(TName, PName (tx "height")); (TDuration, PTime (1 # 1))]]).
Proof. vm_compute. reflexivity. Qed.
Definition one_way : list tree := parsed (tx "2s linear 1s slide 3").
Definition other_way : list tree := parsed (tx "slide 2s 3 1s linear").
Example C80_order_nonvacuous : Forall calm one_way /\ well_ordered one_way /\ well_ordered other_way /\ no_repeats accepts [ADuration; ADelay; AName] one_way /\ reordered one_way other_way /\
  animation_shorthand [] one_way = EOk ([(ADuration, PTime (2 # 1)); (ATimingFunction, PTiming Linear); (ADelay, PTime (1 # 1)); (AName, PName (tx "slide")); (AIterationCount, PCount (Count 3))], []) /\
  animation_shorthand [] other_way = EOk ([(AName, PName (tx "slide")); (ADuration, PTime (2 # 1)); (AIterationCount, PCount (Count 3)); (ADelay, PTime (1 # 1)); (ATimingFunction, PTiming Linear)], []).
Proof.
  assert (H : Forall calm one_way) by (apply all_calm; vm_compute; reflexivity).
  assert (Ho : reordered one_way other_way).
  { split; [|vm_compute; reflexivity]. vm_compute.
    match goal with |- Permutation [?a; ?b; ?c; ?d; ?e] _ => transitivity [d; a; b; c; e]; [apply Permutation_sym, (Permutation_middle [a; b; c] [e] d)|] end.
    do 2 constructor. apply Permutation_sym. match goal with |- Permutation [?e; ?c; ?b] _ => transitivity [c; b; e]; [apply (Permutation_cons_append [c; b] e)|apply perm_swap] end. }
  split; [exact H|]. split; [apply ordered_b_ok; [exact H|vm_compute; reflexivity]|].
  split; [apply ordered_b_ok; [eapply Permutation_Forall; [apply Ho|exact H]|vm_compute; reflexivity]|].
  split; [|split; [exact Ho|split; vm_compute; reflexivity]].
  intros l1 x l2 y l3 p v v' E Hx Hy.
  assert (Hp : forall z u, In z one_way -> accepts p z u -> In p [ADuration; ADelay; AName] \/ (p = ATimingFunction /\ z = Leaf (TIdent (tx "linear"))) \/ (p = AIterationCount /\ z = Leaf (TNumber (mkdec 3 0) true))).
  { intros z u Hz. vm_compute in Hz. destruct Hz as [<-|[<-|[<-|[<-|[<-|[]]]]]]; intros Hz.
    - apply accepts_dim in Hz. destruct Hz as [-> | ->]; cbn; tauto.
    - apply accepts_word in Hz. destruct Hz as [->|Hz]; [cbn; tauto|]. destruct p; vm_compute in Hz; try tauto; intuition discriminate.
    - apply accepts_dim in Hz. destruct Hz as [-> | ->]; cbn; tauto.
    - apply accepts_word in Hz. destruct Hz as [->|Hz]; [cbn; tauto|]. destruct p; vm_compute in Hz; intuition discriminate.
    - inversion Hz; subst; kill; try tauto; match goal with Hw : is_word _ _ |- _ => destruct Hw as (? & Ew & _); discriminate Ew end. }
  destruct (Hp x v) as [Hi|[[-> Ex]|[-> Ex]]]; [rewrite E; apply in_or_app; right; left; reflexivity|exact Hx|exact Hi| |];
    (destruct (Hp y v') as [Hi|[[E' Ey]|[E' Ey]]]; [rewrite E; apply in_or_app; right; right; apply in_or_app; right; left; reflexivity|exact Hy|exact Hi| |]); try discriminate;
    exfalso; assert (Hnd : NoDup one_way) by (repeat constructor; vm_compute; intuition discriminate); rewrite E in Hnd;
    apply NoDup_remove_2 in Hnd; apply Hnd; apply in_or_app; right; apply in_or_app; right; left; congruence.
Qed.
(** ** What is not as in CSS *)
(** A play state swallows the word behind it: `paused 3s slide` is refused, and `paused reverse` is an animation called reverse. *)
Theorem C80_play_state_refuted :
  (exists l r, Forall calm l /\ animation_means l r /\ animation_shorthand [] l <> EOk (r, []) /\ animation_declaration (tx "animation") l = EErr) /\
  animation_declaration (tx "animation") (parsed (tx "paused reverse")) = EOk (PShorthand [[(APlayState, PPlayState PlayPaused); (AName, PName (tx "reverse"))]]).
Proof.
  split; [|vm_compute; reflexivity]. exists (parsed (tx "paused 3s slide")), [(APlayState, PPlayState PlayPaused); (ADuration, PTime (3 # 1)); (AName, PName (tx "slide"))].
  assert (Hc : Forall calm (parsed (tx "paused 3s slide"))) by (apply all_calm; vm_compute; reflexivity).
  split; [exact Hc|]. split; [|split; [vm_compute; discriminate|vm_compute; reflexivity]].
  apply (loop_iff accepts ADuration ADelay AName animation_pick calm animation_goes animation_calm); [exact Hc|]. vm_compute. reflexivity.
Qed.
Print Assumptions C80_play_state_refuted.
(** Negative delays, fractions of milliseconds and of iterations are refused; empty items are accepted; a very long time panics. *)
Theorem C80_values_refuted :
  animation_declaration (tx "animation-delay") (parsed (tx "-1s")) = EErr /\
  animation_declaration (tx "animation-duration") (parsed (tx "1.5ms")) = EErr /\
  animation_declaration (tx "animation-iteration-count") (parsed (tx "1.5")) = EErr /\
  transition_declaration (tx "transition") (parsed (tx "width 1s,")) = EOk (PShorthand [[(TName, PName (tx "width")); (TDuration, PTime (1 # 1))]; []]) /\
  animation_declaration (tx "animation") [] = EOk (PShorthand [[]]) /\
  animation_declaration (tx "animation-duration") (parsed (tx "3e20s")) = EPanic.
Proof. repeat split; vm_compute; reflexivity. Qed.
Print Assumptions C80_values_refuted.
