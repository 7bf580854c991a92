(** The timeline as a function of time: C18, C19, C21. *)
From Coq Require Import NArith.
From Verif Require Import Base Animation AnimationSpec AnimationProofs.
Local Open Scope N_scope.

Definition max_of (x : animation) : option N := match iteration x with IterFinite _ m => Some m | IterInfinite _ => None end.
Definition cnt_ok (x : animation) : Prop := match iteration x with IterFinite c m => c < m <= u32_max | IterInfinite c => c <= u32_max end.
Definition pos (x : animation) : N :=
  get_current_iteration x * duration x + (if 0 <? get_current_iteration x then initial_delay x else 0) + elapsed x.
Definition static (x y : animation) : Prop :=
  initial_delay y = initial_delay x /\ duration y = duration x /\ direction y = direction x /\ fill y = fill x /\
  paused y = paused x /\ max_of y = max_of x.

Lemma dir_at_succ d k : dir_at d (k + 1) =
  match d with DirAlternate | DirAlternateReverse => flip (dir_at d k) | _ => dir_at d k end.
Proof.
  destruct d; simpl; try reflexivity; rewrite N.add_1_r, N.even_succ, <- N.negb_even; destruct (N.even k); reflexivity.
Qed.

Lemma static_trans x y z : static x y -> static y z -> static x z.
Proof. intros (A1&A2&A3&A4&A5&A6) (B1&B2&B3&B4&B5&B6). repeat split; congruence. Qed.

Lemma iterate_step x :
  cnt_ok x -> state x = Running -> cur_dir x = dir_at (direction x) (get_current_iteration x) ->
  current_iteration_duration x <= elapsed x -> is_on_last_iteration x = false ->
  (max_of x = None -> get_current_iteration x < u32_max) ->
  let y := iterate (with_time x (elapsed x - current_iteration_duration x)) in
  static x y /\ cnt_ok y /\ state y = Running /\ cur_dir y = dir_at (direction y) (get_current_iteration y) /\
  pos y = pos x /\ get_current_iteration y = get_current_iteration x + 1.
Proof.
  intros Hc Hs Hd He Hl Hm y.
  destruct x as [D L e p it cd st dir fl]. unfold cnt_ok, current_iteration_duration, current_iteration_delay, pos, max_of, static, is_on_last_iteration, get_current_iteration in *.
  subst y. destruct it as [c|c m]; simpl in *.
  - specialize (Hm eq_refl). assert (E : N.min (c + 1) u32_max = c + 1) by lia.
    rewrite E. split; [repeat split|]. split; [lia|]. split; [assumption|].
    split; [rewrite Hd, dir_at_succ; destruct dir; reflexivity|]. split; [|reflexivity].
    destruct (N.ltb_spec 0 (c + 1)); [|lia]. destruct (N.eqb_spec c 0) as [->|Hne].
    + destruct (N.ltb_spec 0 0); lia.
    + destruct (N.ltb_spec 0 c); [|lia]. lia.
  - apply N.leb_gt in Hl. assert (E : N.min (N.min (c + 1) u32_max) m = c + 1) by lia.
    rewrite E. split; [repeat split|]. split; [lia|]. split; [assumption|].
    split; [rewrite Hd, dir_at_succ; destruct dir; reflexivity|]. split; [|reflexivity].
    destruct (N.ltb_spec 0 (c + 1)); [|lia]. destruct (N.eqb_spec c 0) as [->|Hne].
    + destruct (N.ltb_spec 0 0); lia.
    + destruct (N.ltb_spec 0 c); [|lia]. lia.
Qed.

Lemma pos_split x : pos x = get_current_iteration x * duration x + (initial_delay x - current_iteration_delay x) + elapsed x.
Proof.
  unfold pos, current_iteration_delay. destruct (N.eqb_spec (get_current_iteration x) 0) as [->|H].
  - simpl. lia.
  - destruct (N.ltb_spec 0 (get_current_iteration x)); lia.
Qed.

Lemma cdelay_le x : current_iteration_delay x <= initial_delay x.
Proof. unfold current_iteration_delay. destruct (_ =? _); lia. Qed.

Lemma loop_closed f : forall x y,
  iterate_loop f x = Some y -> cnt_ok x -> (max_of x = None -> pos x < initial_delay x + u32_max * duration x) ->
  state x = Running -> cur_dir x = dir_at (direction x) (get_current_iteration x) ->
  static x y /\ cnt_ok y /\ cur_dir y = dir_at (direction y) (get_current_iteration y) /\
  ((state y = Running /\ pos y = pos x /\ elapsed y < current_iteration_duration y /\
    (forall m, max_of x = Some m -> pos x < initial_delay x + m * duration x)) \/
   (state y = JustFinished /\ exists m, max_of x = Some m /\ initial_delay x + m * duration x <= pos x /\
      get_current_iteration y = m - 1 /\ elapsed y = current_iteration_duration y)).
Proof.
  induction f as [|f IH]; intros x y H Hc Hinf Hs Hd; [discriminate|]. simpl in H.
  pose proof (cdelay_le x) as HD.
  destruct (N.leb_spec (current_iteration_duration x) (elapsed x)) as [Hle|Hlt].
  - destruct (is_on_last_iteration x) eqn:El.
    + injection H as <-. split; [repeat split|]. split; [exact Hc|]. split; [exact Hd|]. right.
      split; [reflexivity|]. unfold is_on_last_iteration in El. unfold cnt_ok in Hc.
      unfold max_of. destruct (iteration x) as [c|c m] eqn:Ei; [discriminate|]. exists m. split; [reflexivity|].
      apply N.leb_le in El. assert (Ec : c = m - 1) by lia.
      assert (Eg : get_current_iteration x = c) by (unfold get_current_iteration; rewrite Ei; reflexivity).
      split; [|split; [exact (eq_trans Eg Ec)|reflexivity]].
      rewrite pos_split. unfold current_iteration_duration in Hle. rewrite Eg.
      replace (m * duration x) with (c * duration x + duration x) by (replace m with (c + 1) by lia; lia). lia.
    + assert (Hlt : max_of x = None -> get_current_iteration x < u32_max).
      { intros Hm. specialize (Hinf Hm). rewrite pos_split in Hinf. unfold current_iteration_duration in Hle.
        assert (get_current_iteration x * duration x < u32_max * duration x) by lia.
        apply (N.mul_lt_mono_pos_r (duration x)); [|assumption].
        destruct (N.eq_dec (duration x) 0) as [E0|]; [rewrite E0 in *; lia|lia]. }
      destruct (iterate_step x Hc Hs Hd Hle El Hlt) as (S1 & C1 & St1 & D1 & P1 & _).
      set (x1 := iterate _) in *. pose proof S1 as (E1 & E2 & E3 & E4 & E5 & E6).
      destruct (IH x1 y H C1) as (S2 & C2 & D2 & Hcase); [rewrite E1, E2, E6, P1; exact Hinf|exact St1|exact D1|].
      split; [eapply static_trans; eauto|]. split; [exact C2|]. split; [exact D2|].
      rewrite E1, E2, E6, P1 in Hcase. exact Hcase.
  - injection H as <-. split; [repeat split|]. split; [exact Hc|]. split; [exact Hd|]. left.
    split; [exact Hs|]. split; [reflexivity|]. split; [exact Hlt|].
    intros m Hm. unfold max_of in Hm. unfold cnt_ok in Hc. rewrite pos_split.
    unfold get_current_iteration. unfold current_iteration_duration in Hlt. destruct (iteration x) as [c|c m'] eqn:Ei; [discriminate|].
    injection Hm as ->. assert (c * duration x + duration x <= m * duration x).
    { replace (c * duration x + duration x) with ((c + 1) * duration x) by lia. apply N.mul_le_mono_r. lia. }
    lia.
Qed.

(** decoding the position *)
Lemma decode x : current_iteration_delay x <= elapsed x -> elapsed x < current_iteration_duration x ->
  initial_delay x <= pos x /\
  get_current_iteration x = (pos x - initial_delay x) / duration x /\
  elapsed x - current_iteration_delay x = (pos x - initial_delay x) mod duration x.
Proof.
  intros H1 H2. pose proof (cdelay_le x). rewrite pos_split. unfold current_iteration_duration in H2.
  assert (E : get_current_iteration x * duration x + (initial_delay x - current_iteration_delay x) + elapsed x - initial_delay x
              = duration x * get_current_iteration x + (elapsed x - current_iteration_delay x)) by lia.
  split; [lia|]. split.
  - apply (N.div_unique _ _ _ (elapsed x - current_iteration_delay x)); [lia|exact E].
  - apply (N.mod_unique _ _ (get_current_iteration x)); [lia|exact E].
Qed.

Definition from_options (o : options) (x : animation) : Prop :=
  initial_delay x = o_initial_delay o /\ duration x = o_duration o /\ direction x = o_direction o /\ fill x = o_fill_mode o /\
  max_of x = match o_iteration_count o with Count n => Some n | Infinite => None end.

(** Being at time [T] of the timeline of [o]. *)
Definition on_track (o : options) (T : N) (x : animation) : Prop :=
  from_options o x /\ cnt_ok x /\ cur_dir x = dir_at (direction x) (get_current_iteration x) /\
  match state x with
  | Pending => get_current_iteration x = 0 /\ elapsed x = T /\ (T = 0 \/ T < o_initial_delay o)
  | Running => pos x = T /\ elapsed x < current_iteration_duration x /\ current_iteration_delay x <= elapsed x /\ ~ past_end o T
  | JustFinished => exists n, o_iteration_count o = Count n /\ o_initial_delay o + n * o_duration o <= T /\
      get_current_iteration x = n - 1 /\ elapsed x = current_iteration_duration x
  | Finished => exists n, o_iteration_count o = Count n /\ o_initial_delay o + n * o_duration o <= T /\
      get_current_iteration x = n - 1 /\ current_iteration_duration x <= elapsed x
  | Canceled => False
  end.

Lemma past_end_dec o T : past_end o T \/ ~ past_end o T.
Proof. unfold past_end. destruct (end_time o) as [e|]; [destruct (N.le_gt_cases e T); [left|right]; lia|right; auto]. Qed.

Lemma fits_bound o x : from_options o x -> forall T, counter_fits o T -> o_initial_delay o <= T -> o_duration o <> 0 \/ o_iteration_count o <> Infinite ->
  max_of x = None -> T < initial_delay x + u32_max * duration x.
Proof.
  intros (E1 & E2 & _ & _ & E5) T Hf HT HL Hm. rewrite E1, E2. rewrite E5 in Hm. unfold counter_fits in Hf.
  destruct (o_iteration_count o); [discriminate|]. destruct HL as [HL|HL]; [|congruence].
  pose proof (N.div_mod (T - o_initial_delay o) (o_duration o) HL).
  pose proof (N.mod_lt (T - o_initial_delay o) (o_duration o) HL).
  assert (o_duration o * ((T - o_initial_delay o) / o_duration o) + o_duration o <= o_duration o * u32_max).
  { replace (o_duration o * _ + o_duration o) with (o_duration o * ((T - o_initial_delay o) / o_duration o + 1)) by lia.
    apply N.mul_le_mono_l. lia. }
  lia.
Qed.

(** With an infinite count and duration 0 the loop never terminates. *)
Lemma loop_diverges f : forall x, max_of x = None -> duration x = 0 -> current_iteration_delay x <= elapsed x -> iterate_loop f x = None.
Proof.
  induction f as [|f IH]; intros x Hm HL He; [reflexivity|]. simpl.
  unfold current_iteration_duration. rewrite HL. simpl.
  destruct (N.leb_spec (current_iteration_delay x) (elapsed x)); [|lia].
  assert (El : is_on_last_iteration x = false) by (unfold is_on_last_iteration, max_of in *; destruct (iteration x); [reflexivity|discriminate]).
  rewrite El. apply IH.
  - unfold max_of in *. simpl. destruct (iteration x); [reflexivity|discriminate].
  - exact HL.
  - assert (K : current_iteration_delay (iterate (with_time x (elapsed x - current_iteration_delay x))) = 0).
    { unfold current_iteration_delay, get_current_iteration, iterate. simpl. unfold max_of in Hm.
      destruct (iteration x) as [c|]; [|discriminate]. destruct (N.eqb_spec (N.min (c + 1) u32_max) 0); [|reflexivity].
      exfalso. unfold u32_max in *. lia. }
    simpl in K |- *. rewrite K. apply N.le_0_l.
Qed.

Lemma run_on_track f o T x y :
  from_options o x -> cnt_ok x -> cur_dir x = dir_at (direction x) (get_current_iteration x) -> state x = Running ->
  pos x = T -> current_iteration_delay x <= elapsed x -> counter_fits o T ->
  iterate_loop f x = Some y -> on_track o T y /\ static x y.
Proof.
  intros Ho Hc Hd Hs Hp He Hf H.
  assert (HL : o_duration o <> 0 \/ o_iteration_count o <> Infinite).
  { destruct (N.eq_dec (o_duration o) 0) as [E|]; [|auto]. right. intros Ei. destruct Ho as (_ & E2 & _ & _ & E5).
    rewrite Ei in E5. rewrite loop_diverges in H; [discriminate|exact E5|congruence|exact He]. }
  assert (HD : o_initial_delay o <= T).
  { destruct Ho as (E1 & _). rewrite <- E1, <- Hp, pos_split. pose proof (cdelay_le x). lia. }
  pose proof (fits_bound o x Ho T Hf HD HL) as Hb. rewrite <- Hp in Hb.
  destruct (loop_closed f x y H Hc Hb Hs Hd) as (Hst & C & D & Hcase).
  split; [|exact Hst].
  destruct Ho as (E1 & E2 & E3 & E4 & E5). destruct Hst as (F1 & F2 & F3 & F4 & F5 & F6).
  split; [repeat split; congruence|]. split; [exact C|]. split; [exact D|].
  assert (Hdel : elapsed y < current_iteration_duration y -> pos y = T -> current_iteration_delay y <= elapsed y).
  { intros H1 H2. rewrite pos_split in H2. unfold current_iteration_delay. destruct (N.eqb_spec (get_current_iteration y) 0) as [E0|]; [|lia].
    unfold current_iteration_delay in H2. rewrite E0 in H2. simpl in H2. rewrite F1, E1. lia. }
  destruct Hcase as [(S1 & P1 & L1 & M1)|(S1 & m & M1 & L1 & G1 & T1)]; rewrite S1.
  - rewrite Hp in P1. split; [exact P1|]. split; [exact L1|]. split; [auto|].
    unfold past_end, end_time. rewrite E5 in M1. destruct (o_iteration_count o) as [n|]; [|auto].
    specialize (M1 n eq_refl). rewrite Hp, E1, E2 in M1. lia.
  - exists m. rewrite E5 in M1. destruct (o_iteration_count o) as [n|]; [|discriminate]. injection M1 as ->.
    rewrite Hp, E1, E2 in L1. auto.
Qed.

Lemma tick_on_track f d o T x y :
  on_track o T x -> playable o -> let T' := if paused x then T else T + d in
  counter_fits o T' -> tick f d x = Some y -> on_track o T' y /\ static x y /\ (state y = Pending -> T' < o_initial_delay o).
Proof.
  intros (Ho & Hc & Hd & Hs) Hpl T' Hf H. unfold tick in H.
  assert (Hsw : exists e', stopwatch_tick d x = with_time x e' /\ e' = if paused x then elapsed x else elapsed x + d).
  { unfold stopwatch_tick. destruct (paused x); [exists (elapsed x)|exists (elapsed x + d)]; split; try reflexivity.
    destruct x; reflexivity. }
  destruct Hsw as (e' & Esw & Ee). rewrite Esw in H.
  unfold can_be_ticked in H. destruct (state x) eqn:Es.
  - (* Pending *)
    simpl in H. rewrite Es in H. destruct Hs as (G & E & HT).
    change (current_iteration_delay (with_time x e')) with (current_iteration_delay x) in H.
    assert (Hcd : current_iteration_delay x = o_initial_delay o).
    { unfold current_iteration_delay. rewrite G. simpl. apply Ho. }
    assert (He' : e' = T') by (unfold T'; destruct (paused x); congruence).
    destruct (N.leb_spec (current_iteration_delay x) e') as [Hle|Hlt].
    + unfold iterate_if_necessary in H. simpl in H. pose proof H as Hloop.
      eapply (run_on_track f o T') in H; auto.
      * destruct H as [H1 H2]. split; [exact H1|]. split; [exact H2|]. intros Hp. exfalso.
        apply loop_state in Hloop. simpl in Hloop. destruct Hloop; congruence.
      * unfold pos, with_state, with_time. simpl. unfold get_current_iteration in *. simpl. rewrite G. simpl. exact He'.
    + unfold iterate_if_necessary in H. simpl in H. rewrite Es in H. injection H as <-.
      split; [|split; [repeat split|intros _; rewrite <- He', <- Hcd; exact Hlt]].
      split; [exact Ho|]. split; [exact Hc|]. split; [exact Hd|]. simpl. rewrite Es.
      split; [exact G|]. split; [exact He'|]. right. rewrite <- He', <- Hcd. exact Hlt.
  - (* Running *)
    simpl in H. rewrite Es in H. destruct Hs as (P & L & De & NP). unfold iterate_if_necessary in H. simpl in H. rewrite Es in H.
    pose proof H as Hloop.
    eapply (run_on_track f o T') in H; auto.
    + destruct H as [H1 H2]. split; [exact H1|]. split; [exact H2|]. intros Hp. exfalso.
      apply loop_state in Hloop. simpl in Hloop. destruct Hloop; congruence.
    + unfold pos in *. simpl. unfold T'. rewrite <- P. subst e'. unfold get_current_iteration. destruct (paused x); simpl; lia.
    + change (current_iteration_delay x <= e'). subst e'. destruct (paused x); lia.
  - (* JustFinished *)
    simpl in H. destruct Hs as (n & Ec & Hn & G & E). injection H as <-.
    assert (Hr : on_track o T' (if elapsed x <? e' then with_state (with_time x e') Finished else with_time x e')).
    { split; [destruct (_ <? _); exact Ho|]. split; [destruct (_ <? _); exact Hc|]. split; [destruct (_ <? _); exact Hd|].
      assert (HT' : o_initial_delay o + n * o_duration o <= T') by (unfold T'; destruct (paused x); lia).
      destruct (N.ltb_spec (elapsed x) e') as [Hlt|Hge]; simpl.
      - exists n. split; [exact Ec|]. split; [exact HT'|]. split; [exact G|].
        change (current_iteration_duration x <= e'). lia.
      - rewrite Es. exists n. split; [exact Ec|]. split; [exact HT'|]. split; [exact G|].
        change (e' = current_iteration_duration x). subst e'. destruct (paused x); lia. }
    split; [exact Hr|]. split; [destruct (_ <? _); repeat split|].
    intros Hp. destruct (_ <? _); simpl in Hp; congruence.
  - simpl in H. injection H as <-. destruct Hs as (n & Ec & Hn & G & E).
    split; [|split; [repeat split|intros Hp; congruence]].
    split; [exact Ho|]. split; [exact Hc|]. split; [exact Hd|]. rewrite Es.
    exists n. split; [exact Ec|]. split; [unfold T'; destruct (paused x); lia|]. auto.
  - destruct Hs.
Qed.
