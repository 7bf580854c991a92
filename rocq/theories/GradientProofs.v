From Coq Require Import Ascii String NArith ZArith QArith Lqa Lia.
From Verif Require Import Base Vars VarText SheetText ValueParse ValueParseSpec ValueParseProofs MoreValues MoreValuesSpec MoreValuesProofs Gradient GradientSpec.
From Verif Require Calc.
Open Scope nat_scope.

(** ** Words *)
Lemma word_det x k k' : word x k -> word x k' -> map lower (tx k) = map lower (tx k').
Proof. intros (s & -> & H) (s' & E & H'). injection E as <-. eapply spells_det; eauto. Qed.
Ltac two_words := match goal with H : word ?x ?a, H' : word ?x ?b |- _ => exfalso; pose proof (word_det x a b H H') as Hbad; vm_compute in Hbad; discriminate Hbad end.
Lemma eat_iff k l r : eat k l = Some r <-> exists x, l = x :: r /\ word x k.
Proof.
  split.
  - unfold eat. destruct l as [|[y|? ?|? ?] l]; try discriminate. destruct y; try discriminate. destruct (same_name s (tx k)) eqn:E; [|discriminate]. intros H. injection H as ->. eexists. split; [reflexivity|]. exists s. split; [reflexivity|apply same_spells, E].
  - intros (x & -> & s & -> & H). cbn [eat]. rewrite (proj2 (same_spells s k) H). reflexivity.
Qed.
Lemma eat_none k x r : ~ word x k -> eat k (x :: r) = None.
Proof. intros H. destruct (eat k (x :: r)) as [l|] eqn:E; [|reflexivity]. apply eat_iff in E as (y & E & Hy). injection E as <- <-. contradiction. Qed.
Lemma eat_one_iff {X} (ks : list (string * X)) l v r : NoDup (lnames ks) -> eat_one ks l = Some (v, r) <-> exists x, l = x :: r /\ a_word ks x v.
Proof.
  intros Hd. split.
  - unfold eat_one. destruct l as [|[y|? ?|? ?] l]; try discriminate. destruct y; try discriminate. destruct (lookup s ks) as [w|] eqn:E; [|discriminate]. cbn [option_map]. intros H. injection H as -> ->. apply lookup_iff in E as (k & Hi & Hs); [|exact Hd].
    eexists. split; [reflexivity|]. exists k. split; [exact Hi|]. exists s. auto.
  - intros (x & -> & k & Hi & s & -> & Hs). cbn [eat_one]. rewrite (proj2 (lookup_iff s ks v Hd)); [reflexivity|]. eauto.
Qed.
Lemma eat_one_none {X} (ks : list (string * X)) x r : NoDup (lnames ks) -> (forall k v, In (k, v) ks -> ~ word x k) -> eat_one ks (x :: r) = None.
Proof.
  intros Hd H. destruct (eat_one ks (x :: r)) as [[v l]|] eqn:E; [|reflexivity]. exfalso. apply eat_one_iff in E as (y & E & k & Hi & Hw); [|exact Hd]. injection E as <- <-. exact (H _ _ Hi Hw).
Qed.
Ltac each_word := let H := fresh in intros ? ? H; cbn in H; repeat destruct H as [H|H]; try contradiction; injection H; intros; subst; clear H; intros ?.

(** ** Reading while it can be read *)
Lemma while_sound {X} (parse : tree -> option X) (is_it : tree -> X -> Prop) : (forall x v, parse x = Some v <-> is_it x v) -> forall l vs r, while_ok parse l = (vs, r) -> exists xs, l = xs ++ r /\ Forall2 is_it xs vs.
Proof.
  intros Hp. induction l as [|x l IH]; intros vs r; cbn [while_ok]; [intros E; injection E as <- <-; exists []; auto|].
  destruct (parse x) as [v|] eqn:E; [|intros H; injection H as <- <-; exists []; auto]. destruct (while_ok parse l) as [ws rest]. intros H. injection H as <- <-. destruct (IH _ _ eq_refl) as (xs & -> & Hf). exists (x :: xs). split; [reflexivity|]. constructor; [apply Hp, E|exact Hf].
Qed.
Lemma while_complete {X} (parse : tree -> option X) (is_it : tree -> X -> Prop) : (forall x v, parse x = Some v <-> is_it x v) -> forall xs vs r, Forall2 is_it xs vs -> match r with [] => True | x :: _ => parse x = None end -> while_ok parse (xs ++ r) = (vs, r).
Proof.
  intros Hp xs vs r Hf Hr. induction Hf as [|x v xs vs Hx Hf IH]; cbn [app].
  - destruct r as [|x r]; [reflexivity|]. cbn [while_ok]. rewrite Hr. reflexivity.
  - cbn [while_ok]. rewrite (proj2 (Hp x v) Hx), IH. reflexivity.
Qed.

Section Grammar.
  Context (calc_val : list tree -> option val) (calc_angle : list tree -> option Q) (rho : Q) (opposite : Q -> Q -> Q).
  Notation pval := (parse_calc calc_val parse_val).
  Notation pangle := (parse_rotation calc_angle rho).
  Notation a_val := (a_val calc_val).
  Notation an_angle := (an_angle calc_angle rho).
  Lemma pval_iff x v : pval x = Some v <-> a_val x v.
  Proof. apply parse_calc_iff; [apply parse_val_iff|reflexivity]. Qed.
  Lemma pangle_iff x v : pangle x = Some v <-> an_angle x v.
  Proof. unfold parse_rotation. apply parse_calc_iff; [apply angle_iff|reflexivity]. Qed.
  Lemma val_word x v k : a_val x v -> word x k -> map lower (tx k) = map lower (tx "auto").
  Proof.
    intros [H|(l & (s & -> & _) & _)] (s' & E & Hs); [|discriminate]. subst x. inversion H; subst; try (match goal with H : number _ _ |- _ => destruct H as (? & ? & E & _) | H : percentage _ _ |- _ => destruct H as (? & E & _) | H : dimension _ _ _ |- _ => destruct H as (? & ? & ? & E & _) end; discriminate E).
    exact (eq_sym Hs).
  Qed.
  Lemma angle_word x v k : an_angle x v -> word x k -> map lower (tx k) = map lower (tx "none").
  Proof.
    intros [H|(l & (s & -> & _) & _)] (s' & E & Hs); [|discriminate]. subst x. inversion H as [? Hw|? ? (? & ? & E & _)|? ? ? Ht]; subst; try discriminate E.
    - destruct Hw as (s & E & Hs'). injection E as <-. eapply spells_det; eauto.
    - apply turns_dim in Ht as (? & ? & ? & E). discriminate E.
  Qed.
  Ltac odd_word := try two_words; match goal with
    | H : a_val ?x ?v, H' : word ?x ?k |- _ => exfalso; pose proof (val_word x v k H H') as Hbad; vm_compute in Hbad; discriminate Hbad
    | H : an_angle ?x ?v, H' : word ?x ?k |- _ => exfalso; pose proof (angle_word x v k H H') as Hbad; vm_compute in Hbad; discriminate Hbad end.

  (** what comes after a piece of the header *)
  Definition ends (r : list tree) : Prop := match r with [] => True | x :: _ => x = comma \/ word x "at" \/ word x "in" end.
  Lemma comma_no_word k : ~ word comma k. Proof. intros (s & E & _). discriminate. Qed.
  Lemma ends_pval r : ends r -> one pval r = None.
  Proof.
    destruct r as [|x r]; [reflexivity|]. intros H. apply one_none. destruct (pval x) as [v|] eqn:E; [|reflexivity]. apply pval_iff in E. exfalso.
    destruct H as [->|[H|H]]; [|odd_word|odd_word]. apply (proj2 (pval_iff comma v)) in E. discriminate.
  Qed.
  Lemma ends_eat_one {X} (ks : list (string * X)) r : NoDup (lnames ks) -> (forall k v, In (k, v) ks -> map lower (tx k) <> map lower (tx "at") /\ map lower (tx k) <> map lower (tx "in")) -> ends r -> eat_one ks r = None.
  Proof.
    intros Hd Hk H. destruct r as [|x r]; [reflexivity|]. apply eat_one_none; [exact Hd|]. intros k v Hi Hw. destruct (Hk k v Hi) as [H1 H2].
    destruct H as [->|[H|H]]; [exact (comma_no_word _ Hw)|exact (H1 (word_det _ _ _ Hw H))|exact (H2 (word_det _ _ _ Hw H))].
  Qed.
  Lemma ends_eat k r : map lower (tx k) <> map lower (tx "at") -> map lower (tx k) <> map lower (tx "in") -> ends r -> eat k r = None.
  Proof.
    intros H1 H2 H. destruct r as [|x r]; [reflexivity|]. apply eat_none. intros Hw. destruct H as [->|[H|H]]; [exact (comma_no_word _ Hw)|exact (H1 (word_det _ _ _ Hw H))|exact (H2 (word_det _ _ _ Hw H))].
  Qed.
  Ltac not_at_in := let H := fresh in intros ? ? H; cbn in H; repeat destruct H as [H|H]; try contradiction; injection H; intros; subst; split; vm_compute; discriminate.

  Definition piece_ok {X} (f : list tree -> maybe X) (is_it : list tree -> X -> Prop) : Prop :=
    (forall l o r, f l = Some (o, r) -> match o with None => r = l | Some v => exists xs, l = xs ++ r /\ is_it xs v end) /\
    (forall xs v r, is_it xs v -> ends r -> f (xs ++ r) = Some (Some v, r)) /\
    (forall xs v, is_it xs v -> xs <> []).

  Lemma extent_sound l s r : orelse (circle_or_ellipse calc_val l) (eat_one shape_keywords l) = Some (s, r) -> exists xs, l = xs ++ r /\ is_extent calc_val xs s.
  Proof.
    unfold circle_or_ellipse. destruct (one pval l) as [[v r1]|] eqn:E1; cbn [bind fst snd].
    - apply one_rest in E1 as (x & -> & Hx). apply pval_iff in Hx. destruct (one pval r1) as [[w r2]|] eqn:E2; cbn [orelse].
      + apply one_rest in E2 as (y & -> & Hy). apply pval_iff in Hy. intros H. injection H as <- <-. exists [x; y]. split; [reflexivity|constructor; assumption].
      + intros H. injection H as <- <-. exists [x]. split; [reflexivity|constructor; assumption].
    - cbn [orelse]. intros H. apply eat_one_iff in H as (x & -> & Hx); [|names]. exists [x]. split; [reflexivity|]. apply ie_word. exact Hx.
  Qed.
  Lemma extent_complete xs s r : is_extent calc_val xs s -> ends r -> orelse (circle_or_ellipse calc_val (xs ++ r)) (eat_one shape_keywords (xs ++ r)) = Some (s, r).
  Proof.
    intros [x v H|x y v w H H'|x s' H] Hr; cbn [app]; unfold circle_or_ellipse.
    - rewrite (proj2 (one_rest pval (x :: r) v r)); [|exists x; split; [reflexivity|apply pval_iff, H]]. cbn [bind fst snd]. rewrite (ends_pval r Hr). reflexivity.
    - rewrite (proj2 (one_rest pval (x :: y :: r) v (y :: r))); [|exists x; split; [reflexivity|apply pval_iff, H]]. cbn [bind fst snd]. rewrite (proj2 (one_rest pval (y :: r) w r)); [|exists y; split; [reflexivity|apply pval_iff, H']]. reflexivity.
    - assert (E : one pval (x :: r) = None). { apply one_none. destruct (pval x) as [v|] eqn:E; [|reflexivity]. exfalso. apply pval_iff in E. destruct H as (k & Hi & Hw). cbn in Hi. repeat destruct Hi as [Hi|Hi]; try contradiction; injection Hi as <- <-; odd_word. }
      rewrite E. cbn [bind orelse]. apply eat_one_iff; [names|]. exists x. split; [reflexivity|exact H].
  Qed.
  Lemma extent_no_shape xs s : is_extent calc_val xs s -> exists x r, xs = x :: r /\ ~ word x "circle" /\ ~ word x "ellipse".
  Proof.
    intros [x v H|x y v w H H'|x s' H]; eexists x, _; (split; [reflexivity|]); [split; intros ?; odd_word..|].
    destruct H as (k & Hi & Hw). cbn in Hi. repeat destruct Hi as [Hi|Hi]; try contradiction; injection Hi as <- <-; split; intros ?; two_words.
  Qed.
  Lemma shape_ok : piece_ok (parse_shape calc_val) (is_shape calc_val).
  Proof.
    split; [|split].
    - intros l o r. unfold parse_shape. destruct (eat_one _ l) as [[[] r1]|] eqn:E.
      + apply eat_one_iff in E as (x & -> & Hx); [|names]. destruct (orelse _ _) as [[s r2]|] eqn:E; [|discriminate]. cbn [option_map fst snd]. intros H. injection H as <- <-. apply extent_sound in E as (xs & -> & H). exists (x :: xs). split; [reflexivity|].
        apply ish_named; [|exact H]. destruct Hx as (k & Hi & Hw). cbn in Hi. repeat destruct Hi as [Hi|Hi]; try contradiction; injection Hi as <-; auto.
      + destruct (orelse _ _) as [[s r2]|] eqn:E'; [|intros H; injection H as <- <-; reflexivity]. intros H. injection H as <- <-. apply extent_sound in E' as (xs & -> & H). exists xs. split; [reflexivity|constructor; exact H].
    - intros xs v r [l s H|x l s Hw H] Hr; unfold parse_shape.
      + destruct (extent_no_shape l s H) as (x & q & -> & Hc & He). cbn [app]. rewrite eat_one_none; [|names|each_word; contradiction]. change (x :: q ++ r) with ((x :: q) ++ r). rewrite (extent_complete (x :: q) s r H Hr). reflexivity.
      + cbn [app]. rewrite (proj2 (eat_one_iff [("circle", tt); ("ellipse", tt)]%string (x :: l ++ r) tt (l ++ r) ltac:(names))); [|exists x; split; [reflexivity|]; destruct Hw as [Hw|Hw]; eexists; (split; [|exact Hw]); cbn; auto].
        rewrite (extent_complete l s r H Hr). reflexivity.
    - intros xs v [l s H|x l s Hw H]; [|discriminate]. destruct (extent_no_shape l s H) as (x & q & -> & _). discriminate.
  Qed.

  (** ** Positions *)
  Lemma val_one x v r : a_val x v -> one pval (x :: r) = Some (v, r).
  Proof. intros H. apply one_rest. exists x. split; [reflexivity|apply pval_iff, H]. Qed.
  Lemma word_no_val x k r : word x k -> map lower (tx k) <> map lower (tx "auto") -> one pval (x :: r) = None.
  Proof. intros Hw Hk. apply one_none. destruct (pval x) as [v|] eqn:E; [|reflexivity]. exfalso. apply pval_iff in E. exact (Hk (val_word _ _ _ E Hw)). Qed.
  Lemma word_eat_one {X} (ks : list (string * X)) x k v r : NoDup (lnames ks) -> word x k -> In (k, v) ks -> eat_one ks (x :: r) = Some (v, r).
  Proof. intros Hd Hw Hi. apply eat_one_iff; [exact Hd|]. exists x. split; [reflexivity|]. exists k. auto. Qed.
  Lemma val_eat_one {X} (ks : list (string * X)) x v r : NoDup (lnames ks) -> (forall k v, In (k, v) ks -> map lower (tx k) <> map lower (tx "auto")) -> a_val x v -> eat_one ks (x :: r) = None.
  Proof. intros Hd Hk H. apply eat_one_none; [exact Hd|]. intros k w Hi Hw. exact (Hk _ _ Hi (val_word _ _ _ H Hw)). Qed.
  Ltac not_auto := let H := fresh in intros ? ? H; cbn in H; repeat destruct H as [H|H]; try contradiction; injection H; intros; subst; vm_compute; discriminate.
  (** names *)
  Ltac in_words H := let k := fresh "k" in let Hi := fresh "Hi" in let Hw := fresh "Hw" in destruct H as (k & Hi & Hw); cbn in Hi; repeat destruct Hi as [Hi|Hi]; try contradiction; injection Hi; intros; subst; clear Hi.
  Ltac eat_now := first
    [ match goal with H : a_val ?x ?v |- context [one pval (?x :: ?r)] => rewrite (val_one x v r H) end
    | match goal with H : word ?x ?k |- context [one pval (?x :: ?r)] => rewrite (word_no_val x k r H) by (vm_compute; discriminate) end
    | match goal with H : ends ?r |- context [one pval ?r] => rewrite (ends_pval r H) end
    | match goal with H : ends ?r |- context [eat_one ?ks ?r] => rewrite (ends_eat_one ks r) by first [solve [names]|not_at_in|exact H] end
    | match goal with H : a_val ?x ?v |- context [eat_one ?ks (?x :: ?r)] => rewrite (val_eat_one ks x v r) by first [solve [names]|not_auto|exact H] end
    | match goal with H : word ?x ?k |- context [eat_one ?ks (?x :: ?r)] => first [erewrite (word_eat_one ks x k _ r) by first [solve [names]|exact H|cbn; eauto 10] | rewrite (eat_one_none ks x r) by first [solve [names]|each_word; two_words]] end ];
    cbn [bind orelse option_map fst snd].
  Lemma place_complete xs p r : is_place calc_val xs p -> ends r -> orelse (case_3 calc_val (xs ++ r)) (orelse (case_2 calc_val (xs ++ r)) (case_1 calc_val (xs ++ r))) = Some (p, r).
  Proof using calc_val.
    intros [x a v H|x a H|x y a b v w H H'|e x f y a b v w H Ha H1 H2 Hb H3] Hr; cbn [app]; unfold case_1, case_2, case_3.
    - inversion H as [? ? Hv|? ? Hv]; subst; [|in_words Hv]; repeat eat_now; reflexivity.
    - in_words H; repeat eat_now; reflexivity.
    - inversion H as [? ? Hv|? ? Hv]; subst; [|in_words Hv]; (inversion H' as [? ? Hv'|? ? Hv']; subst; [|in_words Hv']); repeat eat_now; reflexivity.
    - in_words H; (in_words H2); try (exfalso; apply Ha; reflexivity); try (exfalso; apply Hb; reflexivity); repeat eat_now; reflexivity.
  Qed.
  Lemma place_sound l p r : orelse (case_3 calc_val l) (orelse (case_2 calc_val l) (case_1 calc_val l)) = Some (p, r) -> exists xs, l = xs ++ r /\ is_place calc_val xs p.
  Proof using calc_val.
    destruct (case_3 calc_val l) as [q|] eqn:E3; [|destruct (case_2 calc_val l) as [q|] eqn:E2]; cbn [orelse].
    - intros H. injection H as ->. unfold case_3 in E3. destruct (eat_one _ l) as [[h r1]|] eqn:E; [|discriminate]. apply eat_one_iff in E as (e & -> & He); [|names]. cbn [bind snd fst] in E3.
      destruct (one pval r1) as [[v r2]|] eqn:E; [|discriminate]. apply one_rest in E as (x & -> & Hx). apply pval_iff in Hx. cbn [bind snd fst] in E3. destruct (eat_one _ r2) as [[b r3]|] eqn:E; [|discriminate]. apply eat_one_iff in E as (f & -> & Hf); [|names]. cbn [bind snd fst] in E3.
      destruct (one pval r3) as [[w r4]|] eqn:E; [|discriminate]. apply one_rest in E as (y & -> & Hy). apply pval_iff in Hy. cbn [bind snd fst] in E3. injection E3 as <- <-. exists [e; x; f; y]. split; [reflexivity|].
      assert (Hh : a_word sideways e (anchor_x h) /\ edge (anchor_x h)). { in_words He; (split; [eexists; split; [|eassumption]; cbn; auto|discriminate]). }
      assert (Hv : a_word upright f b /\ edge b). { in_words Hf; (split; [eexists; split; [|eassumption]; cbn; auto|discriminate]). }
      destruct Hh, Hv; apply ip_edges; assumption.
    - intros H. injection H as ->. unfold case_2 in E2.
      destruct (match one pval l with Some (v, r) => Some (at_x v p_left, r) | None => _ end) as [[h r1]|] eqn:E; [|discriminate]. cbn [bind snd fst] in E2.
      assert (Hh : exists x, l = x :: r1 /\ coordinate calc_val sideways x (anchor_x h, pos_x h)).
      { destruct (one pval l) as [[v r0]|] eqn:Ev; [apply one_rest in Ev as (x & -> & Hx); apply pval_iff in Hx; injection E as <- <-; exists x; split; [reflexivity|constructor; exact Hx]|].
        apply eat_one_iff in E as (e & -> & He); [|names]. exists e. split; [reflexivity|]. in_words He; apply co_word; eexists; (split; [|eassumption]); cbn; auto. }
      destruct Hh as (x & -> & Hx). clear E.
      destruct (match one pval r1 with Some (v, r) => Some (at_y v p_top, r) | None => _ end) as [[h' r2]|] eqn:E; [|discriminate]. cbn [bind snd fst] in E2. injection E2 as <- <-.
      assert (Hh : exists x, r1 = x :: r2 /\ coordinate calc_val upright x (anchor_y h', pos_y h')).
      { destruct (one pval r1) as [[v r0]|] eqn:Ev; [apply one_rest in Ev as (y & -> & Hy); apply pval_iff in Hy; injection E as <- <-; exists y; split; [reflexivity|constructor; exact Hy]|].
        apply eat_one_iff in E as (e & -> & He); [|names]. exists e. split; [reflexivity|]. in_words He; apply co_word; eexists; (split; [|eassumption]); cbn; auto. }
      destruct Hh as (y & -> & Hy). exists [x; y]. split; [reflexivity|]. constructor; assumption.
    - unfold case_1. destruct (one pval l) as [[v r0]|] eqn:Ev.
      + apply one_rest in Ev as (x & -> & Hx). apply pval_iff in Hx. intros H. injection H as <- <-. exists [x]. split; [reflexivity|]. apply ip_x. constructor; exact Hx.
      + intros H. apply eat_one_iff in H as (x & -> & Hx); [|names]. exists [x]. split; [reflexivity|]. in_words Hx; first [apply ip_x; apply co_word; eexists; (split; [|eassumption]); cbn; auto 12|apply ip_y; eexists; (split; [|eassumption]); cbn; auto 12].
  Qed.
  Lemma at_ok : piece_ok (parse_position calc_val) (is_at calc_val).
  Proof using calc_val.
    split; [|split].
    - intros l o r. unfold parse_position. destruct (eat "at" l) as [r1|] eqn:E; [|intros H; injection H as <- <-; reflexivity]. apply eat_iff in E as (x & -> & Hw).
      destruct (orelse _ _) as [[p r2]|] eqn:E; [|discriminate]. cbn [option_map fst snd]. intros H. injection H as <- <-. apply place_sound in E as (xs & -> & H). exists (x :: xs). split; [reflexivity|constructor; assumption].
    - intros xs v r [x l p Hw H] Hr. cbn [app]. unfold parse_position. rewrite (proj2 (eat_iff "at" (x :: l ++ r) (l ++ r))) by (exists x; auto). rewrite (place_complete l p r H Hr). reflexivity.
    - intros xs v []. discriminate.
  Qed.

  (** ** Color spaces *)
  Lemma space_ok : piece_ok parse_color_space is_space.
  Proof using.
    split; [|split].
    - intros l o r. unfold parse_color_space. destruct (eat "in" l) as [r1|] eqn:E; [|intros H; injection H as <- <-; reflexivity]. apply eat_iff in E as (w & -> & Hw).
      destruct (eat_one spaces r1) as [[[s lg] r2]|] eqn:E; [|discriminate]. apply eat_one_iff in E as (x & -> & Hx); [|names]. cbn [bind fst snd].
      assert (Hp : a_word [("oklab", Oklab); ("oklch", Oklch); ("srgb", Srgb); ("linear-rgb", LinearRgb); ("hsl", Hsl); ("hsv", Hsv)]%string x s) by (in_words Hx; eexists; (split; [|eassumption]); cbn; auto 12).
      destruct lg as [lg|]; [|intros H; injection H as <- <-; exists [w; x]; split; [reflexivity|constructor; assumption]].
      unfold parse_hue. destruct (eat "longer" r2) as [r3|] eqn:E.
      + apply eat_iff in E as (h & -> & Hh). destruct (eat "hue" r3) as [r4|] eqn:E; [|discriminate]. apply eat_iff in E as (u & -> & Hu). cbn [option_map fst snd]. intros H. injection H as <- <-. exists [w; x; h; u]. split; [reflexivity|]. apply isp_longer; try assumption.
        in_words Hx; try discriminate; eexists; (split; [|eassumption]); cbn; auto 12.
      + destruct (eat "shorter" r2) as [r3|] eqn:E'.
        * apply eat_iff in E' as (h & -> & Hh). destruct (eat "hue" r3) as [r4|] eqn:E'; [|discriminate]. apply eat_iff in E' as (u & -> & Hu). cbn [option_map fst snd]. intros H. injection H as <- <-. exists [w; x; h; u]. split; [reflexivity|]. apply isp_shorter; try assumption.
          in_words Hx; try discriminate; eexists; (split; [|eassumption]); cbn; auto 12.
        * cbn [option_map fst snd]. intros H; injection H as <- <-; exists [w; x]; split; [reflexivity|constructor; assumption].
    - intros xs v r H Hr. destruct H as [w x s Hw Hx|w x h u s Hw Hx Hh Hu|w x h u s Hw Hx Hh Hu]; cbn [app]; unfold parse_color_space;
        match goal with |- context [eat "in" (w :: ?l)] => rewrite (proj2 (eat_iff "in" (w :: l) l)) by (exists w; auto) end.
      + in_words Hx; eat_now; unfold parse_hue; repeat (rewrite ends_eat by first [vm_compute; discriminate|exact Hr]); reflexivity.
      + in_words Hx; eat_now; unfold parse_hue; (rewrite (eat_none "longer") by (intros ?; two_words)); (rewrite (proj2 (eat_iff "shorter" (h :: u :: r) (u :: r))) by (exists h; auto)); (rewrite (proj2 (eat_iff "hue" (u :: r) r)) by (exists u; auto)); reflexivity.
      + in_words Hx; eat_now; unfold parse_hue; (rewrite (proj2 (eat_iff "longer" (h :: u :: r) (u :: r))) by (exists h; auto)); (rewrite (proj2 (eat_iff "hue" (u :: r) r)) by (exists u; auto)); reflexivity.
    - intros xs v []; discriminate.
  Qed.

  (** ** Directions *)
  Lemma between_iff a b c : In a (map snd sides) -> In b (map snd sides) -> middle opposite a b = c <-> between opposite a b c.
  Proof.
    intros Ha Hb. cbn in Ha, Hb. repeat destruct Ha as [Ha|Ha]; try contradiction; subst a; (repeat destruct Hb as [Hb|Hb]; try contradiction; subst b);
      (match goal with |- middle opposite ?a ?b = _ <-> _ => let v := eval vm_compute in (middle opposite a b) in change (middle opposite a b) with v end);
      unfold between, corners, opposite_sides; cbn [In]; (split; [intros <-; tauto|]); intros H;
      repeat match goal with H : _ \/ _ |- _ => destruct H as [H|H] | H : _ /\ _ |- _ => destruct H as [? H] | H : False |- _ => contradiction | H : (_, _) = (_, _) |- _ => injection H; clear H; intros end; subst; try reflexivity; try discriminate; try congruence.
  Qed.
  Lemma side_in x a : a_word sides x a -> In a (map snd sides).
  Proof. intros (k & Hi & _). apply in_map_iff. exists (k, a). auto. Qed.
  Lemma direction_words x a : a_word directions x a <-> a_word sides x a.
  Proof. unfold a_word, directions, sides. cbn [In]. split; intros (k & Hi & Hw); exists k; (split; [tauto|exact Hw]). Qed.
  Lemma angle_one x v r : an_angle x v -> one pangle (x :: r) = Some (v, r).
  Proof. intros H. apply one_rest. exists x. split; [reflexivity|apply pangle_iff, H]. Qed.
  Lemma word_no_angle x k r : word x k -> map lower (tx k) <> map lower (tx "none") -> one pangle (x :: r) = None.
  Proof. intros Hw Hk. apply one_none. destruct (pangle x) as [v|] eqn:E; [|reflexivity]. exfalso. apply pangle_iff in E. exact (Hk (angle_word _ _ _ E Hw)). Qed.
  Lemma direction_ok : piece_ok (parse_linear_angle calc_angle rho opposite) (is_direction calc_angle rho opposite).
  Proof.
    split; [|split].
    - intros l o r. unfold parse_linear_angle. destruct (one pangle l) as [[a r1]|] eqn:E.
      + apply one_rest in E as (x & -> & Hx). apply pangle_iff in Hx. intros H. injection H as <- <-. exists [x]. split; [reflexivity|constructor; exact Hx].
      + destruct (eat "to" l) as [r1|] eqn:Et; [|intros H; injection H as <- <-; reflexivity]. apply eat_iff in Et as (x & -> & Hx). destruct (eat_one directions r1) as [[a r2]|] eqn:Ea; [|discriminate]. apply eat_one_iff in Ea as (y & -> & Hy); [|names]. cbn [bind fst snd].
        apply direction_words in Hy. destruct (eat_one directions r2) as [[b r3]|] eqn:Eb.
        * apply eat_one_iff in Eb as (y' & -> & Hy'); [|names]. apply direction_words in Hy'. intros H. injection H as <- <-. exists [x; y; y']. split; [reflexivity|]. eapply id_corner; try eassumption. apply between_iff; [eapply side_in; eassumption..|reflexivity].
        * intros H. injection H as <- <-. exists [x; y]. split; [reflexivity|]. constructor; assumption.
    - intros xs v r H Hr. destruct H as [x a H|x y a Hx Hy|x y y' a b c Hx Hy Hy' Hb]; cbn [app]; unfold parse_linear_angle.
      + rewrite (angle_one x a r H). reflexivity.
      + rewrite (word_no_angle x "to") by (assumption || (vm_compute; discriminate)). rewrite (proj2 (eat_iff "to" (x :: y :: r) (y :: r))) by (exists x; auto). rewrite (proj2 (eat_one_iff directions (y :: r) a r ltac:(names))) by (exists y; split; [reflexivity|apply direction_words, Hy]). cbn [bind fst snd].
        rewrite (ends_eat_one directions r) by first [solve [names]|not_at_in|exact Hr]. reflexivity.
      + rewrite (word_no_angle x "to") by (assumption || (vm_compute; discriminate)). rewrite (proj2 (eat_iff "to" (x :: y :: y' :: r) (y :: y' :: r))) by (exists x; auto). rewrite (proj2 (eat_one_iff directions (y :: y' :: r) a (y' :: r) ltac:(names))) by (exists y; split; [reflexivity|apply direction_words, Hy]). cbn [bind fst snd].
        rewrite (proj2 (eat_one_iff directions (y' :: r) b r ltac:(names))) by (exists y'; split; [reflexivity|apply direction_words, Hy']).
        rewrite (proj2 (between_iff a b c (side_in _ _ Hy) (side_in _ _ Hy')) Hb). reflexivity.
    - intros xs v []; discriminate.
  Qed.
  Lemma from_ok : piece_ok (parse_conic_angle calc_angle rho) (is_from calc_angle rho).
  Proof.
    split; [|split].
    - intros l o r. unfold parse_conic_angle. destruct (eat "from" l) as [r1|] eqn:E; [|intros H; injection H as <- <-; reflexivity]. apply eat_iff in E as (x & -> & Hx). destruct (one pangle r1) as [[a r2]|] eqn:E; [|discriminate].
      apply one_rest in E as (y & -> & Hy). apply pangle_iff in Hy. cbn [option_map fst snd]. intros H. injection H as <- <-. exists [x; y]. split; [reflexivity|constructor; assumption].
    - intros xs v r [x y a Hx Hy] Hr. cbn [app]. unfold parse_conic_angle. rewrite (proj2 (eat_iff "from" (x :: y :: r) (y :: r))) by (exists x; auto). rewrite (angle_one y a r Hy). reflexivity.
    - intros xs v []; discriminate.
  Qed.
End Grammar.
