(** One step of the loops, and the loops: C80. *)
From Coq Require Import Ascii String NArith ZArith QArith Permutation.
From Verif Require Import Base Vars VarText Media SheetText Easing Animation AnimProps AnimParse AnimParseSpec AnimParseProofs1.
Open Scope nat_scope.

Section Loop.
  Context {P : Type} (pdec : forall a b : P, {a = b} + {a <> b}) (acc : P -> tree -> pvalue -> Prop) (duration delay name : P).
  Notation means := (means acc duration delay name).
  Definition goes (r : list (P * pvalue)) (x : tree) (p : P) (v : pvalue) : Prop :=
    acc p x v /\ ~ In p (map fst r) /\ (p = delay -> In duration (map fst r)) /\
    (p = name -> forall p' v', p' <> name -> acc p' x v' -> In p' (map fst r)).

  Lemma attempt_ok r p0 parse x k p v : (forall u, parse x = EOk u <-> acc p0 x u) -> parse x <> EPanic ->
    attempt pdec r p0 parse x k = EOk (p, v) <->
    (p = p0 /\ ~ In p0 (map fst r) /\ acc p0 x v) \/ ((In p0 (map fst r) \/ forall u, ~ acc p0 x u) /\ k = EOk (p, v)).
  Proof.
    intros Hp Hn. unfold attempt, contains. destruct (in_dec _ _ _) as [i|i].
    - split; [intros H; right; auto|]. intros [(_ & H & _)|[_ H]]; [contradiction|exact H].
    - destruct (parse x) as [u| |] eqn:E; [| |contradiction].
      + split.
        * intros H; inversion H; subst. left. repeat split; auto. apply Hp. reflexivity.
        * intros [(-> & _ & H)|[[H|H] _]]; [|contradiction|]; [apply Hp in H; congruence|].
          exfalso. apply (H u). apply Hp. reflexivity.
      + split.
        * intros H. right. split; [|exact H]. right. intros u Hu. apply Hp in Hu. discriminate.
        * intros [(_ & _ & H)|[_ H]]; [apply Hp in H; discriminate|exact H].
  Qed.
  Lemma attempt_calm r p0 parse x k : parse x <> EPanic -> k <> EPanic -> attempt pdec r p0 parse x k <> EPanic.
  Proof. intros H Hk. unfold attempt. destruct (contains _ _ _); [exact Hk|]. destruct (parse x); [discriminate|exact Hk|contradiction]. Qed.
  Lemma times_calm r x k : calm x -> k <> EPanic -> attempt_times pdec r duration delay x k <> EPanic.
  Proof. intros H Hk. unfold attempt_times. destruct (contains _ _ _); apply attempt_calm; auto using duration_calm. Qed.
  Lemma times_ok r x k p v : (forall u, parse_duration x = EOk u <-> acc duration x u) -> (forall u, parse_duration x = EOk u <-> acc delay x u) ->
    parse_duration x <> EPanic ->
    attempt_times pdec r duration delay x k = EOk (p, v) <->
    (p = duration /\ ~ In duration (map fst r) /\ acc duration x v) \/
    (p = delay /\ In duration (map fst r) /\ ~ In delay (map fst r) /\ acc delay x v) \/
    ((In duration (map fst r) /\ In delay (map fst r) \/ forall u, ~ acc duration x u) /\ k = EOk (p, v)).
  Proof.
    intros H1 H2 Hn. unfold attempt_times, contains. destruct (in_dec _ _ _) as [i|i]; rewrite attempt_ok by assumption.
    - split.
      + intros [(-> & Hd & Ha)|[[Hd|Hd] Hk]]; [tauto|tauto|]. right; right. split; [|exact Hk]. right. intros u Hu. apply (Hd u). apply H2, H1, Hu.
      + intros [(_ & H & _)|[(-> & _ & Hd & Ha)|[[[_ Hd]|Hd] Hk]]]; [contradiction|tauto|tauto|]. right. split; [|exact Hk]. right. intros u Hu. apply (Hd u). apply H1, H2, Hu.
    - split.
      + intros [(-> & Hd & Ha)|[[Hd|Hd] Hk]]; [tauto|contradiction|tauto].
      + intros [H|[(-> & H & _)|[[[Hd _]|Hd] Hk]]]; [tauto|contradiction|contradiction|tauto].
  Qed.

  (** a loop that takes one item after the other *)
  Context (pick : list (P * pvalue) -> tree -> eresult (P * pvalue)).
  Fixpoint loop (r : list (P * pvalue)) (l : list tree) : eresult (list (P * pvalue) * list tree) :=
    match l with
    | [] => EOk (r, [])
    | x :: rest => match pick r x with EPanic => EPanic | EOk a => loop (r ++ [a]) rest | EErr => EOk (r, l) end
    end.
  Context (ok : tree -> Prop) (Hpick : forall r x p v, ok x -> pick r x = EOk (p, v) <-> goes r x p v) (Hcalm : forall r x, ok x -> pick r x <> EPanic).
  Lemma loop_snoc r l x : loop r (l ++ [x]) =
    match loop r l with EOk (r', []) => match pick r' x with EPanic => EPanic | EOk a => EOk (r' ++ [a], []) | EErr => EOk (r', [x]) end
                      | EOk (r', rest) => EOk (r', rest ++ [x]) | EErr => EErr | EPanic => EPanic end.
  Proof.
    revert r; induction l as [|y l IH]; intros r; cbn [loop app].
    - destruct (pick r x); reflexivity.
    - destruct (pick r y); [apply IH|reflexivity|reflexivity].
  Qed.
  Lemma loop_calm r l : Forall ok l -> exists r' rest, loop r l = EOk (r', rest).
  Proof.
    intros H; revert r; induction H as [|x l Hx Hl IH]; intros r; cbn [loop]; [eauto|].
    destruct (pick r x) eqn:E; [apply IH|eauto|]. exfalso. exact (Hcalm r x Hx E).
  Qed.
  Lemma loop_iff l r : Forall ok l -> loop [] l = EOk (r, []) <-> means l r.
  Proof.
    intros Hc. split.
    - revert r. induction l as [|x l IH] using rev_ind; intros r.
      + cbn. intros H; inversion H; constructor.
      + apply Forall_app in Hc as [Hl Hx]. inversion Hx as [|? ? Hx' _]; subst. rewrite loop_snoc.
        destruct (loop_calm [] l Hl) as (r' & rest & E). rewrite E. destruct rest as [|y rest].
        * destruct (pick r' x) as [[p v]| |] eqn:Ep; intros H; inversion H; subst.
          apply Hpick in Ep as (Ha & Hn & Hd & Hm); [|exact Hx']. apply means_snoc; auto.
        * destruct rest; intros H; inversion H.
    - intros H; induction H as [|l r x p v Hm IH Ha Hn Hd Hname]; [reflexivity|].
      apply Forall_app in Hc as [Hl Hx]. inversion Hx as [|? ? Hx' _]; subst. rewrite loop_snoc, (IH Hl).
      assert (pick r x = EOk (p, v)) as -> by (apply Hpick; [exact Hx'|]; repeat split; assumption). reflexivity.
  Qed.
  (** an item that nothing takes ends it *)
  Lemma loop_app r l1 x l2 : (forall r, pick r x = EErr) -> loop r (l1 ++ x :: l2) =
    match loop r l1 with EOk (r', rest) => EOk (r', rest ++ x :: l2) | EErr => EErr | EPanic => EPanic end.
  Proof.
    intros Hx. revert r; induction l1 as [|y l1 IH]; intros r; cbn [loop app].
    - rewrite Hx. reflexivity.
    - destruct (pick r y); [apply IH|reflexivity|reflexivity].
  Qed.
  Lemma loop_rest r l r' rest : loop r l = EOk (r', rest) -> exists used, l = used ++ rest /\ (forall rest', (rest' = [] \/ exists x t0, rest' = x :: t0 /\ forall r, pick r x = EErr) -> loop r (used ++ rest') = EOk (r', rest')).
  Proof.
    revert r; induction l as [|y l IH]; intros r; cbn [loop].
    - intros H; inversion H; subst. exists []. split; [reflexivity|]. intros rest' [->|(x & t0 & -> & Hx)]; cbn; [reflexivity|]. rewrite Hx. reflexivity.
    - destruct (pick r y) as [a| |] eqn:E; [|intros H; inversion H; subst|discriminate].
      + intros H. apply IH in H as (used & -> & Hu). exists (y :: used). split; [reflexivity|]. intros rest' Hr. cbn. rewrite E. apply Hu, Hr.
      + exists []. split; [reflexivity|]. intros rest' [->|(x & t0 & -> & Hx)]; cbn; [reflexivity|]. rewrite Hx. reflexivity.
  Qed.
End Loop.

(** ** Transitions *)
Lemma transition_loop r l : transition_shorthand r l = loop transition_pick r l.
Proof. revert r; induction l as [|x l IH]; intros r; cbn; [reflexivity|]. destruct (transition_pick r x); auto. Qed.
Lemma taccepts_accepts p x v : taccepts p x v -> accepts (match p with TName => AName | TDuration => ADuration | TDelay => ADelay | TTimingFunction => ATimingFunction end) x v.
Proof. intros H; inversion H; subst; constructor; assumption. Qed.
Lemma transition_calm r x : calm x -> transition_pick r x <> EPanic.
Proof.
  intros H. unfold transition_pick. apply times_calm; [exact H|]. apply attempt_calm; [apply easing_calm, H|]. apply attempt_calm; [|discriminate].
  destruct x as [[]| |]; discriminate.
Qed.
Ltac unit_of H := let E := fresh "E" in pose proof (accepts_time_unit _ _ _ H ltac:(tauto)) as E.
Lemma transition_goes r x p v : calm x -> transition_pick r x = EOk (p, v) <-> goes taccepts TDuration TDelay TName r x p v.
Proof.
  intros Hc. unfold transition_pick.
  rewrite times_ok by (intros; auto using ttime_duration, ttime_delay, duration_calm).
  rewrite (attempt_ok tprop_dec taccepts) by (intros; auto using ttiming_iff, easing_calm).
  rewrite (attempt_ok tprop_dec taccepts) by (first [intros ?u; apply tname_iff | destruct x as [[]| |]; discriminate]).
  unfold goes. split.
  - intros [(-> & Hn & Ha)|[(-> & Hd & Hn & Ha)|[Ht [(-> & Hn & Ha)|[Ht' [(-> & Hn & Ha)|[_ H]]]]]]]; [| | | |discriminate H];
      (repeat split; [exact Ha | exact Hn | try discriminate; auto | try discriminate]).
    intros _ p' v' Hp' Ha'. destruct p'; [congruence| | |].
    + destruct Ht as [[Ht _]|Ht]; [exact Ht|]. elim (Ht _ Ha').
    + destruct Ht as [[_ Ht]|Ht]; [exact Ht|]. inversion Ha'; subst. elim (Ht (PTime q)). constructor. assumption.
    + destruct Ht' as [Ht'|Ht']; [exact Ht'|]. elim (Ht' _ Ha').
  - intros (Ha & Hn & Hd & Hname). destruct p.
    + right; right. split; [|right; split; [|left; auto]].
      * right. intros u Hu. inversion Ha; subst. inversion Hu as [? ? Ht| | |]; inversion Ht.
      * destruct (in_dec tprop_dec TTimingFunction (map fst r)) as [i|i]; [auto|]. right. intros u Hu. apply i, (Hname eq_refl TTimingFunction u); [discriminate|exact Hu].
    + left. auto.
    + right; left. auto.
    + right; right. split; [|left; auto]. right. intros u Hu. inversion Ha as [| |? e He|]; subst.
      inversion Hu as [? ? Ht| | |]; subst. inversion Ht; subst; cbn in He; discriminate He.
Qed.

(** ** Animations *)
Definition animation_pick (r : list (animation_property * pvalue)) (x : tree) : eresult (animation_property * pvalue) :=
  match animation_early r x with
  | EOk a => EOk a
  | EErr => attempt aprop_dec r APlayState parse_animation_play_state x (animation_late r x)
  | EPanic => EPanic
  end.
Lemma attempt_then r p0 parse x (k k' : eresult (animation_property * pvalue)) :
  match attempt aprop_dec r p0 parse x k with EOk a => EOk a | EErr => k' | EPanic => EPanic end =
  attempt aprop_dec r p0 parse x (match k with EOk a => EOk a | EErr => k' | EPanic => EPanic end).
Proof. unfold attempt. destruct (contains _ _ _); [reflexivity|]. destruct (parse x); reflexivity. Qed.
Lemma animation_pick_eq r x : animation_pick r x =
  attempt_times aprop_dec r ADuration ADelay x
  (attempt aprop_dec r ADirection parse_animation_direction x
  (attempt aprop_dec r AFillMode parse_animation_fill_mode x
  (attempt aprop_dec r AIterationCount parse_iteration_count x
  (attempt aprop_dec r APlayState parse_animation_play_state x
  (attempt aprop_dec r ATimingFunction parse_easing_function x
  (attempt aprop_dec r AName parse_animation_name x EErr)))))).
Proof.
  unfold animation_pick, animation_early, attempt_times. destruct (contains _ _ _); rewrite !attempt_then; reflexivity.
Qed.
Lemma keyword_parse_calm l x : parse_keyword l x <> EPanic.
Proof. destruct x as [[]| |]; try discriminate. apply keyword_calm. Qed.
Lemma count_calm x : parse_iteration_count x <> EPanic.
Proof.
  destruct x as [[]| |]; cbn [parse_iteration_count]; try discriminate; [destruct (same_name _ _); discriminate|]. destruct int; [|discriminate]. destruct (size_of d); discriminate.
Qed.
Lemma name_calm x : parse_animation_name x <> EPanic.
Proof. destruct x as [[]| |]; discriminate. Qed.
Lemma animation_calm r x : calm x -> animation_pick r x <> EPanic.
Proof.
  intros H. rewrite animation_pick_eq. apply times_calm; [exact H|].
  repeat (apply attempt_calm; [first [apply keyword_parse_calm | apply count_calm | apply easing_calm, H | apply name_calm]|]). discriminate.
Qed.
Lemma not_unit p x v : accepts p x v -> p <> ADuration -> p <> ADelay -> has_unit x = false.
Proof.
  intros H H1 H2. destruct x as [[]| |]; try reflexivity. apply accepts_dim in H. tauto.
Qed.
Lemma animation_goes r x p v : calm x -> animation_pick r x = EOk (p, v) <-> goes accepts ADuration ADelay AName r x p v.
Proof.
  intros Hc. rewrite animation_pick_eq.
  rewrite times_ok by (intros; auto using time_duration, time_delay, duration_calm).
  rewrite (attempt_ok aprop_dec accepts) by (first [intros ?u; apply direction_iff | apply keyword_parse_calm]).
  rewrite (attempt_ok aprop_dec accepts) by (first [intros ?u; apply fill_iff | apply keyword_parse_calm]).
  rewrite (attempt_ok aprop_dec accepts) by (first [intros ?u; apply count_iff | apply count_calm]).
  rewrite (attempt_ok aprop_dec accepts) by (first [intros ?u; apply play_iff | apply keyword_parse_calm]).
  rewrite (attempt_ok aprop_dec accepts) by (first [intros ?u; apply timing_iff | apply easing_calm; exact Hc]).
  rewrite (attempt_ok aprop_dec accepts) by (first [intros ?u; apply name_iff | apply name_calm]).
  unfold goes. split.
  - intros [(-> & Hn & Ha)|[(-> & Hd & Hn & Ha)|[Ht [(-> & Hn & Ha)|[H1 [(-> & Hn & Ha)|[H2 [(-> & Hn & Ha)|[H3 [(-> & Hn & Ha)|[H4 [(-> & Hn & Ha)|[H5 [(-> & Hn & Ha)|[_ H]]]]]]]]]]]]]]];
      [| | | | | | | |discriminate H]; (repeat split; [exact Ha | exact Hn | try discriminate; auto | try discriminate]).
    intros _ p' v' Hp' Ha'. destruct p'; [congruence| | | | | | |].
    1: { destruct Ht as [[Ht _]|Ht]; [exact Ht|]. elim (Ht _ Ha'). }
    1: { destruct Ht as [[_ Ht]|Ht]; [exact Ht|]. inversion Ha'; subst. elim (Ht (PTime q)). constructor. assumption. }
    all: match goal with H : In ?p _ \/ forall u, ~ accepts ?p _ u, H' : accepts ?p _ _ |- In ?p _ => destruct H as [H|H]; [exact H|elim (H _ H')] end.
  - intros (Ha & Hn & Hd & Hname).
    assert (Hother : forall p', p' <> AName -> p' <> p -> p <> ADuration -> p <> ADelay -> In p' (map fst r) \/ forall u, ~ accepts p' x u).
    { intros p' Hp' Hpp H1 H2. pose proof (not_unit _ _ _ Ha H1 H2) as Hu. destruct (in_dec aprop_dec p' (map fst r)) as [i|i]; [auto|]. right. intros u Hu'.
      destruct (aprop_dec p AName) as [->|np]; [apply i, (Hname eq_refl _ _ Hp' Hu')|]. apply Hpp. eapply accepts_one; eauto. }
    assert (Htime : p <> ADuration -> p <> ADelay -> forall u, ~ accepts ADuration x u).
    { intros H1 H2 u Hu. pose proof (not_unit _ _ _ Ha H1 H2) as Hx. apply accepts_time_unit in Hu; [congruence|auto]. }
    destruct p; [| left; auto | right; left; auto | | | | |];
      specialize (Htime ltac:(discriminate) ltac:(discriminate)); right; right; (split; [right; exact Htime|]);
      repeat (first [left; solve [auto] | right; split; [apply Hother; discriminate|]]).
Qed.

Lemma animation_loop l : forall r, Forall calm l -> well_ordered l -> animation_shorthand r l = loop animation_pick r l.
Proof.
  assert (H : forall n l r, length l <= n -> Forall calm l -> well_ordered l -> animation_shorthand r l = loop animation_pick r l).
  { induction n as [|n IH]; intros l' r Hn Hc Hw; destruct l' as [|x rest]; cbn [animation_shorthand loop]; try reflexivity; [cbn in Hn; lia|].
    cbn in Hn. inversion Hc as [|? ? Hx Hrest]; subst.
    assert (Hw' : well_ordered rest). { intros l1 a b l2 s p v -> Ha Hb. exact (Hw (x :: l1) a b l2 s p v eq_refl Ha Hb). }
    unfold animation_pick at 1. destruct (animation_early r x) as [a| |]; [apply IH; auto; lia| |reflexivity].
    unfold attempt at 1 2. destruct (contains aprop_dec r APlayState); [destruct (animation_late r x); auto; apply IH; auto; lia|].
    destruct (parse_animation_play_state x) as [s| |] eqn:Ep; [|destruct (animation_late r x); auto; apply IH; auto; lia|elim (keyword_parse_calm _ _ Ep)].
    set (r1 := r ++ [(APlayState, s)]). destruct rest as [|y rest]; [reflexivity|]. cbn [loop].
    assert (Hlate : animation_pick r1 y = animation_late r1 y).
    { apply play_iff in Ep. assert (He : forall p v, In p [ADuration; ADelay; ADirection; AFillMode; AIterationCount] -> ~ accepts p y v).
      { intros p v Hp Ha. exact (Hw [] x y rest s p v eq_refl Ep Ha Hp). }
      inversion Hrest as [|? ? Hy _]; subst.
      destruct (animation_pick r1 y) as [[p v]| |] eqn:E; [| |elim (animation_calm _ _ Hy E)].
      - pose proof E as E'. apply animation_goes in E'; [|exact Hy]. destruct E' as (Ha & Hn' & _ & _).
        unfold animation_pick in E. destruct (animation_early r1 y) as [[p' v']| |] eqn:Ee.
        + inversion E; subst p' v'. exfalso. unfold animation_early in Ee. unfold attempt_times in Ee.
          assert (In p [ADuration; ADelay; ADirection; AFillMode; AIterationCount]); [|eapply He; eauto].
          revert Ee. unfold attempt. destruct (contains aprop_dec r1 ADuration), (contains aprop_dec r1 ADelay), (contains aprop_dec r1 ADirection), (contains aprop_dec r1 AFillMode), (contains aprop_dec r1 AIterationCount);
            repeat match goal with |- context [match ?m with EOk _ => _ | _ => _ end] => destruct m end; intros Ee; inversion Ee; subst; cbn; tauto.
        + unfold attempt in E. unfold contains in E at 1. destruct (in_dec _ _ _) as [i|i]; [symmetry; exact E|]. elim i. unfold r1. rewrite map_app. apply in_or_app. right. left. reflexivity.
        + discriminate E.
      - unfold animation_pick in E. destruct (animation_early r1 y); [discriminate E| |discriminate E].
        unfold attempt in E. unfold contains in E at 1. destruct (in_dec _ _ _) as [i|i]; [symmetry; exact E|]. elim i. unfold r1. rewrite map_app. apply in_or_app. right. left. reflexivity. }
    rewrite Hlate. destruct (animation_late r1 y) as [b| |]; auto. apply IH; [cbn in Hn; lia| |].
    - inversion Hrest; assumption.
    - intros l1 a b' l2 s' p v -> Ha Hb. exact (Hw' (y :: l1) a b' l2 s' p v eq_refl Ha Hb). }
  intros r. apply (H (length l)); lia.
Qed.
