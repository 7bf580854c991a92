(** The parsers of single values, and one step of the loops: C80. *)
From Coq Require Import Ascii String NArith ZArith QArith Permutation.
From Verif Require Import Base Vars VarText Media SheetText Easing Animation AnimProps AnimParse AnimParseSpec.
Open Scope nat_scope.

Lemma same_name_lower w s : same_name w (tx s) = true <-> lower_string w = string_of_list_ascii (map lower (tx s)).
Proof.
  unfold same_name, lower_string. destruct (list_eq_dec _ _ _) as [e | n]; split; intros H; try discriminate; auto.
  - f_equal. exact e.
  - exfalso. apply n. apply (f_equal list_ascii_of_string) in H. rewrite !list_ascii_of_string_of_list_ascii in H. exact H.
Qed.
Lemma is_word_lower x s : string_of_list_ascii (map lower (tx s)) = s -> is_word x s <-> exists w, x = Leaf (TIdent w) /\ lower_string w = s.
Proof.
  intros E. unfold is_word. split; intros (w & -> & H); exists w; split; auto.
  - apply same_name_lower in H. rewrite H. exact E.
  - apply same_name_lower. rewrite H. symmetry. exact E.
Qed.

(** ** The parsers of single values *)
Lemma duration_iff x v : calm x -> parse_duration x = EOk v <-> exists q, v = PTime q /\ is_time x q.
Proof.
  intros [Hc _]. split.
  - destruct x as [[]| |]; cbn [parse_duration]; try discriminate.
    destruct (Qle_bool 0 (dec_Q d)) eqn:E; cbn [andb].
    + destruct (same_name unit (tx "s")) eqn:Eu.
      * destruct (too_long (dec_Q d)); intros H; inversion H; subst. eexists; split; [reflexivity|]. constructor; auto. apply Qle_bool_iff, E.
      * destruct (int && _)%bool eqn:Ei; [|discriminate]. apply andb_prop in Ei as [-> Ei].
        unfold size_of. destruct d as [m k]; cbn [mant scale]. destruct (Z.ltb_spec m 0); cbn [orb]; [discriminate|].
        destruct (Nat.eqb_spec k 0); cbn [negb]; [|discriminate]. intros H'; inversion H'; subst. eexists; split; [reflexivity|].
        rewrite <- (Z2N.id m) at 1 by lia. constructor. exact Ei.
    + destruct (int && _)%bool eqn:Ei; [|discriminate]. apply andb_prop in Ei as [-> Ei].
      unfold size_of. destruct d as [m k]; cbn [mant scale]. destruct (Z.ltb_spec m 0); cbn [orb]; [discriminate|].
      destruct (Nat.eqb_spec k 0); cbn [negb]; [|discriminate]. intros H'; inversion H'; subst. eexists; split; [reflexivity|].
      rewrite <- (Z2N.id m) at 1 by lia. constructor. exact Ei.
  - intros (q & -> & Ht). pose proof (Hc _ Ht) as Hlt. destruct Ht as [d int u Hu Hq | n u Hu]; cbn [parse_duration].
    + apply Qle_bool_iff in Hq. rewrite Hq, Hu. cbn [andb]. destruct (too_long (dec_Q d)) eqn:E; [|reflexivity].
      apply Qle_bool_iff in E. exfalso. revert E Hlt. apply Qle_not_lt.
    + assert (same_name u (tx "s") = false) as ->.
      { destruct (same_name u (tx "s")) eqn:E; [|reflexivity]. apply same_name_lower in E, Hu. rewrite E in Hu. discriminate Hu. }
      rewrite Bool.andb_false_r, Hu. cbn [andb]. unfold size_of; cbn [mant scale].
      destruct (Z.ltb_spec (Z.of_N n) 0); [lia|]. cbn. rewrite N2Z.id. reflexivity.
Qed.
Lemma duration_calm x : calm x -> parse_duration x <> EPanic.
Proof.
  intros [Hc _]. destruct x as [[]| |]; cbn [parse_duration]; try discriminate.
  destruct (Qle_bool 0 (dec_Q d)) eqn:E; cbn [andb].
  - destruct (same_name unit (tx "s")) eqn:Eu.
    + destruct (too_long (dec_Q d)) eqn:E'; [|discriminate]. apply Qle_bool_iff in E, E'.
      exfalso. assert (H : is_time (Leaf (TDim d int unit)) (dec_Q d)) by (constructor; assumption). apply Hc in H. revert E' H. apply Qle_not_lt.
    + destruct (int && _)%bool; [|discriminate]. destruct (size_of d); discriminate.
  - destruct (int && _)%bool; [|discriminate]. destruct (size_of d); discriminate.
Qed.
Lemma keyword_iff (l : list (string * pvalue)) w v :
  Forall (fun kv => string_of_list_ascii (map lower (tx (fst kv))) = fst kv) l -> NoDup (map fst l) ->
  keyword w l = EOk v <-> In (lower_string w, v) l.
Proof.
  intros Hl Hn. induction l as [|[k u] l IH]; cbn [keyword In]; [split; [discriminate|tauto]|].
  inversion Hl as [|? ? Hk Hl']; inversion Hn as [|? ? Hk' Hn']; subst. cbn [fst] in Hk, Hk'.
  destruct (same_name w (tx k)) eqn:E.
  - apply same_name_lower in E. rewrite Hk in E. split.
    + intros H; inversion H; subst. left. reflexivity.
    + intros [H | H]; [inversion H; reflexivity|]. exfalso. apply Hk'. apply in_map with (f := fst) in H. cbn [fst] in H. rewrite E in H. exact H.
  - rewrite IH by assumption. split; [auto|]. intros [H | H]; [|exact H]. inversion H; subst.
    exfalso. assert (same_name w (tx (lower_string w)) = true); [apply same_name_lower; auto|congruence].
Qed.
Lemma keyword_calm {X} w (l : list (string * X)) : keyword w l <> EPanic.
Proof. induction l as [|[k u] l IH]; cbn; [discriminate|]. destruct (same_name _ _); [discriminate|exact IH]. Qed.
Ltac each H tac := cbn [In map] in H; repeat (destruct H as [H | H]; [inversion H; subst; tac|]); try contradiction.
Ltac table := repeat constructor; cbn; intuition discriminate.
Lemma direction_iff x v : parse_animation_direction x = EOk v <-> accepts ADirection x v.
Proof.
  unfold parse_animation_direction, parse_keyword. split.
  - destruct x as [[]| |]; try discriminate. rewrite keyword_iff by table. intros H.
    assert (exists d, v = PDirection d) as [d ->] by (each H ltac:(eauto)).
    apply (acc_direction _ (lower_string s)); [exists s; split; [reflexivity|]; apply same_name_lower|]; each H ltac:(cbn; auto 6).
  - intros H; inversion H as [| |? s d (w & -> & Hw) Hi| | | | | | |]; subst. rewrite keyword_iff by table. apply same_name_lower in Hw. rewrite Hw. each Hi ltac:(cbn; auto 6).
Qed.
Lemma fill_iff x v : parse_animation_fill_mode x = EOk v <-> accepts AFillMode x v.
Proof.
  unfold parse_animation_fill_mode, parse_keyword. split.
  - destruct x as [[]| |]; try discriminate. rewrite keyword_iff by table. intros H.
    assert (exists d, v = PFillMode d) as [d ->] by (each H ltac:(eauto)).
    apply (acc_fill _ (lower_string s)); [exists s; split; [reflexivity|]; apply same_name_lower|]; each H ltac:(cbn; auto 6).
  - intros H; inversion H as [| | |? s d (w & -> & Hw) Hi| | | | | |]; subst. rewrite keyword_iff by table. apply same_name_lower in Hw. rewrite Hw. each Hi ltac:(cbn; auto 6).
Qed.
Lemma play_iff x v : parse_animation_play_state x = EOk v <-> accepts APlayState x v.
Proof.
  unfold parse_animation_play_state, parse_keyword. split.
  - destruct x as [[]| |]; try discriminate. rewrite keyword_iff by table. intros H.
    assert (exists d, v = PPlayState d) as [d ->] by (each H ltac:(eauto)).
    apply (acc_play _ (lower_string s)); [exists s; split; [reflexivity|]; apply same_name_lower|]; each H ltac:(cbn; auto 6).
  - intros H; inversion H as [| | | | | |? s d (w & -> & Hw) Hi| | |]; subst. rewrite keyword_iff by table. apply same_name_lower in Hw. rewrite Hw. each Hi ltac:(cbn; auto 6).
Qed.
Lemma count_iff x v : parse_iteration_count x = EOk v <-> accepts AIterationCount x v.
Proof.
  split.
  - destruct x as [[]| |]; cbn [parse_iteration_count]; try discriminate.
    + destruct (same_name s _) eqn:E; intros H; inversion H. constructor. exists s; auto.
    + destruct int; [|discriminate]. unfold size_of. destruct d as [m k]; cbn [mant scale]. destruct (Z.ltb_spec m 0); cbn [orb]; [discriminate|].
      destruct (Nat.eqb_spec k 0); cbn [negb]; [|discriminate]. intros H'; inversion H'; subst. rewrite <- (Z2N.id m) at 1 by lia. constructor.
  - intros H; inversion H as [| | | |? (w & -> & Hw)|n| | | |]; subst; cbn [parse_iteration_count].
    + rewrite Hw. reflexivity.
    + unfold size_of; cbn [mant scale]. destruct (Z.ltb_spec (Z.of_N n) 0); [lia|]. cbn. rewrite N2Z.id. reflexivity.
Qed.
Lemma timing_iff x v : parse_easing_function x = EOk v <-> accepts ATimingFunction x v.
Proof.
  unfold parse_easing_function. split.
  - destruct (parse_easing (etok_of x)) eqn:E; intros H; inversion H. constructor. exact E.
  - intros H; inversion H as [| | | | | | |? e He| |]; subst. rewrite He. reflexivity.
Qed.
Lemma ttiming_iff x v : parse_easing_function x = EOk v <-> taccepts TTimingFunction x v.
Proof.
  rewrite timing_iff. split; intros H; inversion H; subst; constructor; assumption.
Qed.
Lemma name_iff x v : parse_animation_name x = EOk v <-> accepts AName x v.
Proof.
  split.
  - destruct x as [[]| |]; cbn [parse_animation_name]; intros H; inversion H; subst; constructor.
  - intros H; inversion H; reflexivity.
Qed.
Lemma tname_iff x v : parse_property_name x = EOk v <-> taccepts TName x v.
Proof.
  split.
  - destruct x as [[]| |]; cbn [parse_property_name]; intros H; inversion H; subst; constructor.
  - intros H; inversion H; reflexivity.
Qed.
Lemma time_duration x v : calm x -> parse_duration x = EOk v <-> accepts ADuration x v.
Proof.
  intros H. rewrite duration_iff by exact H. split; [intros (q & -> & Hq); constructor; exact Hq|]. intros Ha; inversion Ha; eauto.
Qed.
Lemma time_delay x v : calm x -> parse_duration x = EOk v <-> accepts ADelay x v.
Proof.
  intros H. rewrite duration_iff by exact H. split; [intros (q & -> & Hq); constructor; exact Hq|]. intros Ha; inversion Ha; eauto.
Qed.
Lemma ttime_duration x v : calm x -> parse_duration x = EOk v <-> taccepts TDuration x v.
Proof.
  intros H. rewrite duration_iff by exact H. split; [intros (q & -> & Hq); constructor; exact Hq|]. intros Ha; inversion Ha; eauto.
Qed.
Lemma ttime_delay x v : calm x -> parse_duration x = EOk v <-> taccepts TDelay x v.
Proof.
  intros H. rewrite duration_iff by exact H. split; [intros (q & -> & Hq); constructor; exact Hq|]. intros Ha; inversion Ha; eauto.
Qed.
Lemma easing_calm x : calm x -> parse_easing_function x <> EPanic.
Proof. intros [_ H]. unfold parse_easing_function. destruct (parse_easing _); [discriminate|discriminate|tauto]. Qed.

(** ** Which longhands share values *)
Lemma accepts_fun p x v v' : accepts p x v -> accepts p x v' -> calm x -> v = v'.
Proof.
  intros H H' Hc. assert (forall parse : tree -> eresult pvalue, (forall u, parse x = EOk u <-> accepts p x u) -> v = v').
  { intros parse Hp. apply Hp in H, H'. congruence. }
  destruct p; [apply (H0 _ (name_iff x)) | apply (H0 _ (fun u => time_duration x u Hc)) | apply (H0 _ (fun u => time_delay x u Hc))
    | apply (H0 _ (direction_iff x)) | apply (H0 _ (fill_iff x)) | apply (H0 _ (count_iff x)) | apply (H0 _ (play_iff x)) | apply (H0 _ (timing_iff x))].
Qed.
Definition timing_words : list string := ["linear"; "ease"; "ease-in"; "ease-out"; "ease-in-out"; "step-start"; "step-end"]%string.
Lemma easing_word s e : parse_easing (EIdent s) = EOk e -> In s timing_words.
Proof.
  cbn [parse_easing]. repeat match goal with |- context [String.eqb ?a ?b] => destruct (String.eqb_spec a b); [intros _; subst; cbn; tauto|] end. discriminate.
Qed.
(** the word of a value, and the longhand *)
Definition words (p : animation_property) : list string :=
  match p with
  | ADirection => ["normal"; "reverse"; "alternate"; "alternate-reverse"] | AFillMode => ["none"; "forwards"; "backwards"; "both"]
  | AIterationCount => ["infinite"] | APlayState => ["running"; "paused"] | ATimingFunction => timing_words | _ => []
  end%string.
Lemma accepts_word p s v : accepts p (Leaf (TIdent s)) v -> p = AName \/ In (lower_string s) (words p).
Proof.
  intros H; inversion H as [? ? Ht|? ? Ht|? k d (w & E & Hw) Hi|? k d (w & E & Hw) Hi|? (w & E & Hw)| |? k d (w & E & Hw) Hi|? e He| |]; subst;
    try (inversion E; subst w; clear E; apply same_name_lower in Hw; rewrite Hw).
  - inversion Ht.
  - inversion Ht.
  - right. each Hi ltac:(cbn; auto 6).
  - right. each Hi ltac:(cbn; auto 6).
  - right. cbn. auto.
  - right. each Hi ltac:(cbn; auto 6).
  - right. apply easing_word in He. exact He.
  - left. reflexivity.
Qed.
Lemma accepts_dim p d int u v : accepts p (Leaf (TDim d int u)) v -> p = ADuration \/ p = ADelay.
Proof.
  intros H; inversion H as [? ? Ht|? ? Ht|? k e (w & E & Hw) Hi|? k e (w & E & Hw) Hi|? (w & E & Hw)| |? k e (w & E & Hw) Hi|? e He| |]; subst; auto; try discriminate E.
  discriminate He.
Qed.
Lemma accepts_time_unit p x v : accepts p x v -> p = ADuration \/ p = ADelay -> has_unit x = true.
Proof. intros H [-> | ->]; inversion H as [? ? Ht|? ? Ht| | | | | | | |]; subst; inversion Ht; reflexivity. Qed.
Ltac kill := repeat match goal with
  | H : is_time _ _ |- _ => inversion H; clear H
  | H : is_word _ _ |- _ => destruct H as (? & E & _); discriminate E
  | H : parse_easing _ = _ |- _ => discriminate H
  end.
(** a value other than a name belongs to one longhand, but for times *)
Lemma accepts_one p p' x v v' : accepts p x v -> accepts p' x v' -> p <> AName -> p' <> AName -> has_unit x = false -> p = p'.
Proof.
  intros H H' Hp Hp' Hu. destruct x as [t0| |].
  - destruct t0; try discriminate Hu.
    1: { apply accepts_word in H, H'. destruct H as [->|H]; [congruence|]. destruct H' as [->|H']; [congruence|].
      destruct p, p'; cbn in H, H'; try tauto; exfalso; intuition congruence. }
    all: inversion H; subst; kill; inversion H'; subst; kill; congruence.
  - inversion H; subst; kill; try (inversion H'; subst; kill; congruence); congruence.
  - inversion H; subst; kill; congruence.
Qed.
