(** C63: box shorthands; C64: a shorthand determines its longhands; C65: the meaning of the other shorthands. *)
From Coq Require Import Ascii String QArith Permutation.
From Verif Require Import Base Shorthand ShorthandSpec.
Open Scope nat_scope.
Open Scope list_scope.

Section S.
  Variable V : Type.
  Notation parser X := (list tok -> option (X * list tok)).
  Variables calc_val calc_f32 calc_angle plain_val color : parser V.
  Variables overflow_axis align_items justify_items : parser (pv V).
  Variables image gradient track_vec repeated_track_vec : parser V.
  Variables v_zero v_thin v_medium v_thick v_auto v_percent0 v_auto_track v_no_tracks : V.
  Variable v_float : Q -> V.
  Variable v_pair : V -> V -> V.
  Variable v_flow : bool -> bool -> V.
  Variable v_gradients : list V -> V.
  (** the assignments of the declaration `name: ts` *)
  Notation expand := (Shorthand.expand calc_val calc_f32 calc_angle plain_val color overflow_axis align_items justify_items image gradient track_vec repeated_track_vec
    v_zero v_thin v_medium v_thick v_auto v_percent0 v_auto_track v_no_tracks v_float v_pair v_flow v_gradients).
  Notation registered := (Shorthand.registered calc_val calc_f32 calc_angle plain_val color overflow_axis align_items justify_items image gradient track_vec repeated_track_vec
    v_zero v_thin v_medium v_thick v_auto v_percent0 v_auto_track v_no_tracks v_float v_pair v_flow v_gradients).

  Lemma keyword_eq (ts : list tok) : @global_keyword V ts = match ts with Ident s :: r => match keyword s with Some k => Some (k, r) | None => None end | _ => None end.
  Proof.
    destruct ts as [|[] r]; try reflexivity. cbn [global_keyword]. unfold keyword.
    destruct (String.eqb_spec s "unset"), (String.eqb_spec s "inherit"), (String.eqb_spec s "initial"); try reflexivity; subst; discriminate.
  Qed.
  Lemma starts_false (ts : list tok) : @starts_with_keyword V ts = false -> @global_keyword V ts = None.
  Proof. rewrite keyword_eq. destruct ts as [|[] r]; try reflexivity. cbn. destruct (keyword s); [discriminate|reflexivity]. Qed.
  Lemma component_eq p (ts : list tok) : property_value p ts = @component V p ts.
  Proof.
    unfold property_value, pbind, ptry, pret, component. rewrite keyword_eq. destruct ts as [|[] r]; try (destruct (p _) as [[v r']|]; reflexivity).
    destruct (keyword s); [reflexivity|]. destruct (p (Ident s :: r)) as [[v r']|]; reflexivity.
  Qed.

  Lemma more_sequence p n : forall acc ts vs rest, more n p acc ts = Some (vs, rest) -> rest = [] ->
    exists w : list (pv V), sequence p ts w /\ vs = acc ++ w /\ length w <= n.
  Proof.
    induction n as [|n IH]; intros acc ts vs rest H ->; cbn [more] in H.
    - injection H as <- ->. exists []. rewrite app_nil_r. repeat constructor.
    - destruct (p ts) as [[v r]|] eqn:E.
      + destruct (IH _ _ _ _ H eq_refl) as (w & Hw & -> & L). exists (v :: w). split; [econstructor; eassumption|]. rewrite <- app_assoc. cbn. split; [reflexivity|lia].
      + injection H as <- ->. exists []. rewrite app_nil_r. repeat constructor. cbn. lia.
  Qed.
  Lemma sequence_more p n : forall (w : list (pv V)) acc ts, p [] = None -> sequence p ts w -> length w <= n -> more n p acc ts = Some (acc ++ w, []).
  Proof.
    induction n as [|n IH]; intros w acc ts N H L.
    - destruct w; [|cbn in L; lia]. inversion H. subst. cbn. rewrite app_nil_r. reflexivity.
    - inversion H; subst; cbn [more].
      + rewrite N, app_nil_r. reflexivity.
      + rewrite H0. rewrite IH with (2 := H1); [|exact N|cbn in L; lia]. rewrite <- app_assoc. reflexivity.
  Qed.
  Definition tuple4 (l : list (pv V)) : option (pv V * pv V * pv V * pv V) := match l with [a; b; c; d] => Some (a, b, c, d) | _ => None end.
  Lemma expand4_sides v (w : list (pv V)) : length w <= 3 -> expand4 (v :: w) = tuple4 (box_sides v w).
  Proof. destruct w as [|a [|b [|c [|d w]]]]; intros L; try reflexivity. cbn in L. lia. Qed.
  Lemma four_values_iff p ts (x : pv V * pv V * pv V * pv V) : p [] = None ->
    (four_values p ts = Some (x, []) <-> exists v w, sequence p ts (v :: w) /\ length w <= 3 /\ tuple4 (box_sides v w) = Some x).
  Proof.
    intros N. unfold four_values, pbind. split.
    - destruct (p ts) as [[v r]|] eqn:E; [|discriminate]. destruct (more 3 p [v] r) as [[vs rest]|] eqn:M; [|discriminate]. destruct (expand4 vs) eqn:X; [|discriminate].
      intros H. injection H as -> ->. destruct (more_sequence p 3 [v] r vs [] M eq_refl) as (w & Hw & -> & L). exists v, w. split; [econstructor; eassumption|]. split; [exact L|].
      rewrite <- expand4_sides; assumption.
    - intros (v & w & H & L & X). inversion H as [|ts' v' r vs' E S']; subst. rewrite E, (sequence_more p 3 w [v] r N S' L). cbn [app]. rewrite expand4_sides, X by exact L. reflexivity.
  Qed.

  Lemma expand_declare name (s : @shorthand V) ts : registered name = Some s -> expand name ts = declare s ts.
  Proof. intros H. unfold Shorthand.expand. rewrite H. reflexivity. Qed.
  Lemma declare_plain (s : @shorthand V) ts a : @starts_with_keyword V ts = false -> (declare s ts = Ok a <-> snd s ts = Ok (a, [])).
  Proof.
    intros H. unfold declare. rewrite (starts_false ts H). destruct (snd s ts) as [[x r]| |]; split; intros G; try discriminate.
    - destruct r; [|discriminate]. congruence.
    - injection G as -> ->. reflexivity.
  Qed.
  Lemma lift_ok (p : parser (list (string * pv V))) ts x : lift p ts = Ok x <-> p ts = Some x.
  Proof. unfold lift. destruct (p ts); split; intros H; try discriminate; congruence. Qed.


  (** which value a box shorthand is made of *)
  Definition box_value (name : string) : parser V := if String.eqb name "border-color" then color else calc_val.

  Lemma sequence_ext {X} (p q : parser X) ts vs : (forall t, p t = q t) -> sequence p ts vs -> sequence q ts vs.
  Proof. intros E. induction 1; [constructor|]. econstructor; [rewrite <- E|]; eassumption. Qed.
  (** the common shape of the box shorthands *)
  Lemma box_core p ts (n1 n2 n3 n4 : string) f a : p [] = None ->
    (forall t r b l rest, f (t, r, b, l) rest = Some (a, rest) -> Permutation a [(n1, t); (n2, r); (n3, b); (n4, l)]) ->
    (forall x rest, exists y, f x rest = Some (y, rest)) ->
    pbind (four_values (property_value p)) f ts = Some (a, []) ->
    exists (v : pv V) w, sequence (component p) ts (v :: w) /\ length w <= 3 /\ Permutation a (combine [n1; n2; n3; n4] (box_sides v w)).
  Proof.
    intros N Hf Ht H. unfold pbind in H. destruct (four_values (property_value p) ts) as [[[[[t r] b] l] rest]|] eqn:E; [|discriminate].
    destruct (Ht (t, r, b, l) rest) as (y & Hy). rewrite Hy in H. injection H as <- ->. 
    apply four_values_iff in E; [|rewrite component_eq; unfold component; rewrite N; reflexivity].
    destruct E as (v & w & S & L & T). exists v, w. split; [apply (sequence_ext (property_value p)); [apply component_eq|exact S]|]. split; [exact L|].
    destruct w as [|w1 [|w2 [|w3 [|]]]]; cbn in L; try lia; cbn in T; injection T as <- <- <- <-; apply (Hf _ _ _ _ [] Hy).
  Qed.
  Lemma box_core_back p ts f (v : pv V) w : p [] = None -> sequence (component p) ts (v :: w) -> length w <= 3 ->
    (forall x rest, exists y, f x rest = Some (y, rest)) -> exists a : list (string * pv V), pbind (four_values (property_value p)) f ts = Some (a, []).
  Proof.
    intros N S L Ht. assert (G : exists x, tuple4 (box_sides v w) = Some x) by (destruct w as [|w1 [|w2 [|w3 [|]]]]; cbn in L; try lia; cbn; eauto).
    destruct G as [x Hx]. assert (E : four_values (property_value p) ts = Some (x, [])).
    { apply four_values_iff; [rewrite component_eq; unfold component; rewrite N; reflexivity|]. exists v, w. split; [|auto].
      apply (sequence_ext (component p)); [intros; symmetry; apply component_eq|exact S]. }
    unfold pbind. rewrite E. destruct (Ht x []) as (y & Hy). exists y. exact Hy.
  Qed.
  Lemma width_none ts : width_keyword ts = false -> width_ident v_zero v_thin v_medium v_thick ts = None.
  Proof.
    destruct ts as [|[] r]; try reflexivity. cbn. destruct (String.eqb s "none"); [discriminate|]. destruct (String.eqb s "thin"); [discriminate|].
    destruct (String.eqb s "medium"); [discriminate|]. destruct (String.eqb s "thick"); [discriminate|]. reflexivity.
  Qed.

  Lemma box_case name subs P p f n1 n2 n3 n4 ts : p [] = None ->
    registered name = Some (subs, lift P) -> P ts = pbind (four_values (property_value p)) f ts ->
    (forall t r b l rest, exists a, f (t, r, b, l) rest = Some (a, rest) /\ Permutation a [(n1, t); (n2, r); (n3, b); (n4, l)]) ->
    @starts_with_keyword V ts = false ->
    (forall a, expand name ts = Ok a -> exists v w, sequence (component p) ts (v :: w) /\ length w <= 3 /\ Permutation a (combine [n1; n2; n3; n4] (box_sides v w))) /\
    (forall v w, sequence (component p) ts (v :: w) -> length w <= 3 -> exists a, expand name ts = Ok a).
  Proof.
    intros N R E F K. rewrite (expand_declare _ _ _ R). split.
    - intros a H. apply (declare_plain _ _ _ K) in H. cbn [snd] in H. apply lift_ok in H. rewrite E in H. apply (box_core p ts n1 n2 n3 n4 f a N); [| |exact H].
      + intros t r b l rest G. destruct (F t r b l rest) as (a' & G' & Pa). rewrite G' in G. injection G as <-. exact Pa.
      + intros [[[t r] b] l] rest. destruct (F t r b l rest) as (a' & G' & _). eauto.
    - intros v w S L. destruct (box_core_back p ts f v w N S L) as (a & Ha).
      + intros [[[t r] b] l] rest. destruct (F t r b l rest) as (a' & G' & _). eauto.
      + exists a. apply (declare_plain _ _ _ K). cbn [snd]. apply lift_ok. rewrite E. exact Ha.
  Qed.
  (** C63. A box shorthand is accepted exactly when its text is one to four values, and then it assigns its four longhands by the rule. *)
  Theorem C63_box : calc_val [] = None -> color [] = None ->
    forall name ts, In name boxes -> @starts_with_keyword V ts = false -> (name = "border-width"%string -> width_keyword ts = false) ->
    (forall a, expand name ts = Ok a -> exists v w, sequence (component (box_value name)) ts (v :: w) /\ length w <= 3 /\
                                                    Permutation a (combine (longhands name) (box_sides v w))) /\
    (forall v w, sequence (component (box_value name)) ts (v :: w) -> length w <= 3 -> exists a, expand name ts = Ok a).
  Proof.
    assert (P1 : forall a b c d : string * pv V, Permutation [d; b; a; c] [a; b; c; d]).
    { intros a b c d. apply perm_trans with [d; a; b; c]; [apply perm_skip, perm_swap|]. apply perm_trans with [a; d; b; c]; [apply perm_swap|]. apply perm_skip.
      apply perm_trans with [b; d; c]; [apply perm_swap|]. apply perm_skip, perm_swap. }
    assert (P2 : forall a b c d : string * pv V, Permutation [a; b; d; c] [a; b; c; d]) by (intros; apply perm_skip, perm_skip, perm_swap).
    intros Nv Nc name ts Hn Hk Hw. destruct Hn as [<-|[<-|[<-|[<-|[<-|[]]]]]].
    - eapply box_case with (p := calc_val); [exact Nv|reflexivity|reflexivity| |exact Hk]. intros. eexists. split; [reflexivity|apply P1].
    - eapply box_case with (p := calc_val); [exact Nv|reflexivity|reflexivity| |exact Hk]. intros. eexists. split; [reflexivity|apply P1].
    - eapply box_case with (p := calc_val); [exact Nv|reflexivity| | |exact Hk].
      + unfold parse_border_width. unfold pbind at 1, ptry at 1. rewrite (width_none ts (Hw eq_refl)). reflexivity.
      + intros. eexists. split; [reflexivity|apply P1].
    - eapply box_case with (p := color); [exact Nc|reflexivity|reflexivity| |exact Hk]. intros. eexists. split; [reflexivity|apply Permutation_refl].
    - eapply box_case with (p := calc_val); [exact Nv|reflexivity|reflexivity| |exact Hk]. intros. eexists. split; [reflexivity|apply P2].
  Qed.

  Notation names a := (map fst a).
  Lemma pbind_inv {X Y} (p : parser X) (f : X -> parser Y) ts y : pbind p f ts = Some y -> exists x r, p ts = Some (x, r) /\ f x r = Some y.
  Proof. unfold pbind. destruct (p ts) as [[x r]|]; [eauto|discriminate]. Qed.
  Lemma four_names (P : parser (pv V)) f ns ts (a : list (string * pv V)) r : (forall x rest, exists y, f x rest = Some (y, rest) /\ names y = ns) ->
    pbind (four_values P) f ts = Some (a, r) -> names a = ns.
  Proof.
    intros F H. unfold pbind in H. destruct (four_values P ts) as [[x rest]|]; [|discriminate]. destruct (F x rest) as (y & E & N). rewrite E in H. injection H as <- _. exact N.
  Qed.
  Lemma ui_rect_names n ts a r : parse_ui_rect calc_val n ts = Some (a, r) -> names a = [String.append n "-left"; String.append n "-right"; String.append n "-top"; String.append n "-bottom"].
  Proof. apply four_names. intros [[[? ?] ?] ?] rest. eexists. split; reflexivity. Qed.
  Lemma border_color_names ts a r : parse_border_color color ts = Some (a, r) -> names a = ["border-top-color"; "border-right-color"; "border-bottom-color"; "border-left-color"]%string.
  Proof. apply four_names. intros [[[? ?] ?] ?] rest. eexists. split; reflexivity. Qed.
  Lemma border_radius_names ts a r : parse_border_radius calc_val ts = Some (a, r) ->
    names a = ["border-top-left-radius"; "border-top-right-radius"; "border-bottom-left-radius"; "border-bottom-right-radius"]%string.
  Proof. apply four_names. intros [[[? ?] ?] ?] rest. eexists. split; reflexivity. Qed.
  Lemma border_width_names ts a r : parse_border_width calc_val v_zero v_thin v_medium v_thick ts = Some (a, r) ->
    names a = ["border-left-width"; "border-right-width"; "border-top-width"; "border-bottom-width"]%string.
  Proof.
    intros H. unfold parse_border_width in H. unfold pbind at 1, ptry at 1 in H. destruct (width_ident v_zero v_thin v_medium v_thick ts) as [[w r']|].
    - injection H as <- _. reflexivity.
    - revert H. apply four_names. intros [[[? ?] ?] ?] rest. eexists. split; reflexivity.
  Qed.
  Lemma simple2_names n1 p1 n2 b p2 ts (a : list (string * pv V)) r : simple2 n1 p1 n2 b p2 ts = Some (a, r) -> names a = [n1; n2] \/ (b = false /\ names a = [n1]).
  Proof.
    unfold simple2, pbind, ptry, pret. intros H. destruct (p1 ts) as [[v1 r1]|]; [|discriminate]. destruct (p2 r1) as [[v2 r2]|]; [injection H as <- _; auto|].
    destruct b; injection H as <- _; auto.
  Qed.
  Lemma border_inner_names ws cs ts a r : border_inner calc_val color v_zero ws cs ts = Some (a, r) -> names a = ws ++ cs \/ names a = ws.
  Proof.
    assert (M : forall (v : pv V) l, names (map (fun n : string => (n, v)) l) = l) by (intros v l; rewrite map_map; apply map_id).
    unfold border_inner. intros H. apply pbind_inv in H. destruct H as (none & r0 & _ & H). apply pbind_inv in H. destruct H as (w & r1 & _ & H).
    apply pbind_inv in H. destruct H as (u & r2 & _ & H). apply pbind_inv in H. destruct H as (c & r3 & _ & H).
    injection H as <- _. rewrite map_app, M. destruct c; cbn [map]; rewrite ?M, ?app_nil_r; auto.
  Qed.
  Lemma outline_names ts a r : parse_outline calc_val color v_zero v_thin v_medium v_thick ts = Some (a, r) ->
    names a = ["outline-width"; "outline-color"]%string \/ names a = ["outline-width"]%string.
  Proof.
    unfold parse_outline. intros H. apply pbind_inv in H. destruct H as (k & r0 & _ & H). apply pbind_inv in H. destruct H as (w & r1 & _ & H).
    apply pbind_inv in H. destruct H as (c & r2 & _ & H). injection H as <- _. destruct c; auto.
  Qed.
  Lemma flex_names ts a r : parse_flex plain_val v_auto v_percent0 v_float ts = Some (a, r) -> names a = ["flex-grow"; "flex-shrink"; "flex-basis"]%string.
  Proof.
    unfold parse_flex. intros H. apply pbind_inv in H. destruct H as ([none|] & r0 & _ & H); [injection H as <- _; reflexivity|].
    apply pbind_inv in H. destruct H as ([g|] & r1 & _ & H).
    - apply pbind_inv in H. destruct H as (sh & r2 & _ & H). apply pbind_inv in H. destruct H as (b & r3 & _ & H). injection H as <- _. reflexivity.
    - apply pbind_inv in H. destruct H as (b & r3 & _ & H). injection H as <- _. reflexivity.
  Qed.
  Lemma background_image_names ts (a : list (string * pv V)) : background_images image gradient v_gradients ts = Some a ->
    names a = [] \/ names a = ["-bevy-image"]%string \/ names a = ["-bevy-background-gradient"]%string \/ names a = ["-bevy-image"; "-bevy-background-gradient"]%string.
  Proof.
    unfold background_images. intros H. destruct (images image gradient (split_commas [] ts) None []) as [[[i|] [|g gs]]|]; try discriminate; injection H as <-; cbn; auto.
  Qed.
  Lemma grid_template_names ts a r : parse_grid_template repeated_track_vec v_no_tracks ts = Some (a, r) -> names a = ["grid-template-rows"; "grid-template-columns"]%string.
  Proof.
    unfold parse_grid_template, pbind, ptry, pret. intros H. destruct (expect_ident "none" ts) as [[u r0]|]; [injection H as <- _; reflexivity|].
    destruct (property_value repeated_track_vec ts) as [[x r1]|]; [|discriminate]. destruct (expect_slash r1) as [[u r2]|]; [|discriminate].
    destruct (property_value repeated_track_vec r2) as [[y r3]|]; [|discriminate]. injection H as <- _. reflexivity.
  Qed.
  Lemma grid_names ts a r : parse_grid track_vec repeated_track_vec v_auto_track v_no_tracks v_flow ts = Some (a, r) ->
    names a = ["grid-template-rows"; "grid-template-columns"]%string \/
    names a = ["grid-auto-flow"; "grid-template-rows"; "grid-template-columns"; "grid-auto-rows"; "grid-auto-columns"]%string.
  Proof.
    unfold parse_grid. intros H. destruct (parse_grid_template repeated_track_vec v_no_tracks ts) as [[x r0]|] eqn:E.
    - injection H as <- _. left. eapply grid_template_names. exact E.
    - right. clear E. destruct (grid_columns track_vec repeated_track_vec v_auto_track v_no_tracks v_flow ts) as [[x r1]|] eqn:E2.
      + injection H as <- _. unfold grid_columns, pbind in E2. destruct (property_value repeated_track_vec ts) as [[y r2]|]; [|discriminate]. destruct (expect_slash r2) as [[u r3]|]; [|discriminate].
        destruct (auto_flow v_flow false r3) as [[z r4]|]; [|discriminate]. unfold ptry in E2. destruct (property_value track_vec r4) as [[q r5]|]; injection E2 as <- _; reflexivity.
      + unfold grid_rows, pbind in H. destruct (auto_flow v_flow true ts) as [[z r4]|]; [|discriminate]. unfold ptry in H. destruct (property_value track_vec r4) as [[q r5]|].
        * destruct (expect_slash r5) as [[u r6]|]; [|discriminate]. destruct (property_value repeated_track_vec r6) as [[w r7]|]; [|discriminate]. injection H as <- _. reflexivity.
        * destruct (expect_slash r4) as [[u r6]|]; [|discriminate]. destruct (property_value repeated_track_vec r6) as [[w r7]|]; [|discriminate]. injection H as <- _. reflexivity.
  Qed.
  Lemma transform_names ts (a : list (string * pv V)) r : parse_transform calc_val calc_f32 calc_angle v_zero v_float v_pair ts = Ok (a, r) ->
    exists t s q : option V, a = opt "translate" t ++ opt "scale" s ++ opt "rotate" q.
  Proof.
    unfold parse_transform. destruct (expect_ident "none" ts); [discriminate|]. intros H. apply lift_ok in H. unfold pbind in H.
    destruct (transform_translation calc_val v_zero v_pair ts) as [[t r1]|]; [|discriminate]. destruct (transform_scale calc_f32 v_float v_pair r1) as [[s r2]|]; [|discriminate].
    destruct (transform_rotation calc_angle r2) as [[q r3]|]; [|discriminate]. exists t, s, q. destruct t, s, q; try discriminate; injection H as <- _; reflexivity.
  Qed.

  Lemma keyword_or_not (ts : list tok) : (exists s k r, ts = Ident s :: r /\ @keyword V s = Some k) \/ @starts_with_keyword V ts = false.
  Proof. destruct ts as [|[] r]; auto. cbn. destruct (keyword s) as [k|] eqn:E; eauto 8. Qed.
  (** C64. `name: keyword` sets every longhand to that keyword. *)
  Theorem C64_keyword : forall name s k, In name shorthands -> keyword s = Some k ->
    exists a, expand name [Ident s] = Ok a /\ Permutation a (map (fun n => (n, k)) (longhands name)).
  Proof.
    intros name s k Hn Hk. assert (D : forall sh : @shorthand V, declare sh [Ident s] = Ok (map (fun p => (p, k)) (fst sh))).
    { intros sh. unfold declare. rewrite keyword_eq, Hk. reflexivity. }
    cbn in Hn.
    repeat (destruct Hn as [<-|Hn]; [eexists; split; [erewrite expand_declare by reflexivity; apply D|];
      apply Permutation_map; apply NoDup_Permutation; [| |intros n; cbn; intuition congruence]; repeat constructor; cbn; intuition discriminate|]). contradiction.
  Qed.

  Ltac distinct := repeat constructor; cbn; intuition discriminate.
  Lemma own sub name (a : list (string * pv V)) : names a = sub -> NoDup sub -> incl sub (longhands name) -> NoDup (names a) /\ incl (names a) (longhands name).
  Proof. intros ->. auto. Qed.
  (** C64. A shorthand assigns nothing but its own longhands, and none of them twice. *)
  Theorem C64_only_its_longhands : forall name ts a, In name shorthands -> expand name ts = Ok a -> NoDup (map fst a) /\ incl (map fst a) (longhands name).
  Proof.
    intros name ts a Hn H. destruct (keyword_or_not ts) as [(s & k & r & -> & K)|K].
    { assert (r = []) as ->.
      { unfold Shorthand.expand in H. destruct (registered name) as [sh|]; [|discriminate]. unfold declare in H. rewrite keyword_eq, K in H. destruct r; [reflexivity|discriminate]. }
      destruct (C64_keyword name s k Hn K) as (a' & E & P). rewrite E in H. injection H as ->. apply (Permutation_map fst) in P. rewrite map_map in P. cbn in P. rewrite map_id in P.
      split; [|intros n Hx; eapply Permutation_in; [exact P|exact Hx]]. eapply Permutation_NoDup; [symmetry; exact P|]. clear - Hn. cbn in Hn.
      repeat (destruct Hn as [<-|Hn]; [cbn; distinct|]). contradiction. }
    assert (G : exists sh, registered name = Some sh /\ snd sh ts = Ok (a, [])).
    { unfold Shorthand.expand in H. destruct (registered name) as [sh|]; [|discriminate]. exists sh. split; [reflexivity|]. apply (declare_plain _ _ _ K). exact H. }
    destruct G as (sh & R & G). clear H. cbn in Hn.
    repeat (destruct Hn as [<-|Hn]; [injection R as <-; cbn [snd] in G; try apply lift_ok in G|]); try contradiction.
    1,2: apply ui_rect_names in G; eapply own; [exact G|distinct|intros n; cbn; intuition].
    - apply border_width_names in G; eapply own; [exact G|distinct|intros n; cbn; intuition].
    - apply border_color_names in G; eapply own; [exact G|distinct|intros n; cbn; intuition].
    - apply border_radius_names in G; eapply own; [exact G|distinct|intros n; cbn; intuition].
    - apply border_inner_names in G; destruct G as [G|G]; (eapply own; [exact G|distinct|intros n; cbn; intuition]).
    - apply border_inner_names in G; destruct G as [G|G]; (eapply own; [exact G|distinct|intros n; cbn; intuition]).
    - apply border_inner_names in G; destruct G as [G|G]; (eapply own; [exact G|distinct|intros n; cbn; intuition]).
    - apply border_inner_names in G; destruct G as [G|G]; (eapply own; [exact G|distinct|intros n; cbn; intuition]).
    - apply border_inner_names in G; destruct G as [G|G]; (eapply own; [exact G|distinct|intros n; cbn; intuition]).
    - apply simple2_names in G; destruct G as [G|[_ G]]; (eapply own; [exact G|distinct|intros n; cbn; intuition]).
    - apply outline_names in G; destruct G as [G|G]; (eapply own; [exact G|distinct|intros n; cbn; intuition]).
    - apply flex_names in G; eapply own; [exact G|distinct|intros n; cbn; intuition].
    - apply simple2_names in G; destruct G as [G|[_ G]]; (eapply own; [exact G|distinct|intros n; cbn; intuition]).
    - apply simple2_names in G; destruct G as [G|[_ G]]; (eapply own; [exact G|distinct|intros n; cbn; intuition]).
    - unfold parse_background_image in G. destruct (background_images image gradient v_gradients ts) as [b|] eqn:E; [|discriminate]. injection G as <-. apply background_image_names in E.
      destruct E as [G|[G|[G|G]]]; (eapply own; [exact G|distinct|intros n; cbn; intuition]).
    - unfold parse_background, pbind in G. destruct (ptry (property_value color) ts) as [[c r]|]; [|discriminate]. destruct (background_images image gradient v_gradients r) as [b|] eqn:E; [|discriminate].
      injection G as <-. apply background_image_names in E. rewrite map_app. destruct c; cbn [map app fst]; destruct E as [-> |[-> |[-> | ->]]]; (split; [distinct|intros n; cbn; intuition]).
    - apply grid_template_names in G; eapply own; [exact G|distinct|intros n; cbn; intuition].
    - apply grid_names in G; destruct G as [G|G]; (eapply own; [exact G|distinct|intros n; cbn; intuition]).
    - apply transform_names in G. destruct G as (t & s & q & ->). destruct t, s, q; cbn [opt app map fst]; (split; [distinct|intros n; cbn; intuition]).
  Qed.

  (** C64. These shorthands determine every one of their longhands whenever they are accepted. *)
  Definition complete_shorthands : list string := ["margin"; "padding"; "border-width"; "border-color"; "border-radius"; "overflow"; "flex"; "gap"; "grid-template"]%string.
  Theorem C64_all_longhands_partial : forall name ts a, In name complete_shorthands -> expand name ts = Ok a -> Permutation (map fst a) (longhands name).
  Proof.
    intros name ts a Hn H. assert (Hs : In name shorthands) by (cbn in *; intuition).
    destruct (C64_only_its_longhands name ts a Hs H) as [ND I]. apply NoDup_Permutation_bis; [exact ND| |exact I].
    destruct (keyword_or_not ts) as [(s & k & r & -> & K)|K].
    { assert (r = []) as ->.
      { unfold Shorthand.expand in H. destruct (registered name) as [sh|]; [|discriminate]. unfold declare in H. rewrite keyword_eq, K in H. destruct r; [reflexivity|discriminate]. }
      destruct (C64_keyword name s k Hs K) as (a' & E & P). rewrite E in H. injection H as ->. apply Permutation_length in P. rewrite map_length in P. rewrite map_length, P. apply le_n. }
    assert (G : exists sh, registered name = Some sh /\ snd sh ts = Ok (a, [])).
    { unfold Shorthand.expand in H. destruct (registered name) as [sh|]; [|discriminate]. exists sh. split; [reflexivity|]. apply (declare_plain _ _ _ K). exact H. }
    destruct G as (sh & R & G). cbn in Hn. clear H I ND Hs.
    repeat (destruct Hn as [<-|Hn]; [injection R as <-; cbn [snd] in G; try apply lift_ok in G|]); try contradiction.
    1,2: apply ui_rect_names in G; rewrite G; apply le_n.
    - apply border_width_names in G; rewrite G; apply le_n.
    - apply border_color_names in G; rewrite G; apply le_n.
    - apply border_radius_names in G; rewrite G; apply le_n.
    - apply simple2_names in G; destruct G as [G|[G _]]; [rewrite G; apply le_n|discriminate].
    - apply flex_names in G; rewrite G; apply le_n.
    - apply simple2_names in G; destruct G as [G|[G _]]; [rewrite G; apply le_n|discriminate].
    - apply grid_template_names in G; rewrite G; apply le_n.
  Qed.

  (** C65: `flex` *)
  Theorem C65_flex : plain_val [] = None -> forall ts a, @starts_with_keyword V ts = false ->
    (expand "flex" ts = Ok a <-> exists g s b, flex_text plain_val v_auto v_percent0 ts g s b /\
       a = [("flex-grow", Value (v_float g)); ("flex-shrink", Value (v_float s)); ("flex-basis", Value b)]%string).
  Proof.
    intros N ts a K. erewrite expand_declare by reflexivity. rewrite (declare_plain _ _ _ K). cbn [snd]. rewrite lift_ok. unfold parse_flex, pbind, ptry, pret.
    assert (NB : forall r, (exists q r', r = Number q :: r') \/ (~ starts_with_number r /\ expect_number r = None)).
    { intros [|[] r]; eauto; right; split; auto. }
    split.
    - intros H. destruct (expect_ident "none" ts) as [[u r0]|] eqn:E.
      + destruct ts as [|[] r]; try discriminate. cbn [expect_ident] in E. destruct (String.eqb_spec "none" s) as [<-|]; [|discriminate].
        injection E as _ <-. injection H as <- ->. exists 0%Q, 0%Q, v_auto. split; [constructor|reflexivity].
      + destruct (NB ts) as [(g & r & ->)|[Ns En]].
        * cbn [expect_number] in H. destruct (NB r) as [(s & r' & ->)|[Ns En]].
          -- cbn [expect_number] in H. destruct (plain_val r') as [[b rb]|] eqn:Eb; injection H as <- ->.
             ++ exists g, s, b. split; [apply flex_all; exact Eb|reflexivity].
             ++ exists g, s, v_percent0. split; [constructor|reflexivity].
          -- rewrite En in H. destruct (plain_val r) as [[b rb]|] eqn:Eb; injection H as <- ->.
             ++ exists g, 1%Q, b. split; [apply flex_grow_basis; assumption|reflexivity].
             ++ exists g, 1%Q, v_percent0. split; [constructor|reflexivity].
        * rewrite En in H. destruct (plain_val ts) as [[b rb]|] eqn:Eb; [|discriminate]. injection H as <- ->. exists 1%Q, 1%Q, b. split; [|reflexivity].
          apply flex_basis; [exact Ns| |exact Eb]. intros r ->. discriminate.
    - intros (g & s & b & F & ->). destruct F as [|g|g s|g r b Ns Hb|g s r b Hb|ts b Ns Hn Hb]; cbn [expect_ident expect_number].
      + reflexivity.
      + rewrite N. reflexivity.
      + rewrite N. reflexivity.
      + destruct (NB r) as [(q & r' & ->)|[_ En]]; [contradiction Ns; exact I|]. rewrite En, Hb. reflexivity.
      + rewrite Hb. reflexivity.
      + assert (E : expect_ident "none" ts = None).
        { destruct ts as [|[] r]; try reflexivity. cbn [expect_ident]. destruct (String.eqb_spec "none" s) as [<-|]; [exfalso; eapply Hn; reflexivity|reflexivity]. }
        rewrite E. destruct (NB ts) as [(q & r' & ->)|[_ En]]; [contradiction Ns; exact I|]. rewrite En, Hb. reflexivity.
  Qed.

  (** C65: `overflow` *)
  Theorem C65_overflow : overflow_axis [] = None -> forall ts a, @starts_with_keyword V ts = false ->
    (expand "overflow" ts = Ok a <-> exists x y, a = [("overflow-x", x); ("overflow-y", y)]%string /\
       ((sequence overflow_axis ts [x] /\ y = x) \/ sequence overflow_axis ts [x; y])).
  Proof.
    intros N ts a K. erewrite expand_declare by reflexivity. rewrite (declare_plain _ _ _ K). cbn [snd]. rewrite lift_ok. unfold parse_overflow, simple2, pbind, ptry, pret. split.
    - intros H. destruct (overflow_axis ts) as [[x r]|] eqn:E; [|discriminate]. destruct (overflow_axis r) as [[y r']|] eqn:E2.
      + injection H as <- ->. exists x, y. split; [reflexivity|]. right. repeat (econstructor; [eassumption|]). constructor.
      + injection H as <- ->. exists x, x. split; [reflexivity|]. left. split; [|reflexivity]. econstructor; [eassumption|]. constructor.
    - intros (x & y & -> & [[H ->]|H]).
      + inversion H as [|? ? r ? E S]; subst. inversion S; subst. rewrite E, N. reflexivity.
      + inversion H as [|? ? r ? E S]; subst. inversion S as [|? ? r' ? E2 S2]; subst. inversion S2; subst. rewrite E, E2. reflexivity.
  Qed.

  Lemma fn_case {X} (f : string) (g : string) (A B : X) (P : X -> Prop) : (f = g -> P A) -> (f <> g -> P B) -> P (if String.eqb f g then A else B).
  Proof. intros. destruct (String.eqb_spec f g); auto. Qed.
  Lemma entirely_some {X} (p : parser X) args v : entirely p args = Some v <-> p args = Some (v, []).
  Proof. unfold entirely. destruct (p args) as [[x [|]]|]; split; intros H; try discriminate; congruence. Qed.
  Lemma two_args_some p second args v : entirely (two_args v_pair p second) args = Some v ->
    (exists x, p args = Some (x, []) /\ v = v_pair x (second x)) \/ (exists x r y, p args = Some (x, Comma :: r) /\ p r = Some (y, []) /\ v = v_pair x y).
  Proof.
    rewrite entirely_some. unfold two_args. intros H. apply pbind_inv in H. destruct H as (x & r & E & H). unfold pbind at 1, ptry in H.
    unfold pbind in H. destruct (expect_comma r) as [[u r1]|] eqn:Ec.
    - assert (r = Comma :: r1) as -> by (destruct r as [|[] r]; try discriminate; injection Ec as _ <-; reflexivity).
      destruct (p r1) as [[y r']|] eqn:E2; [|discriminate]. injection H as <- ->. right. exists x, r1, y. auto.
    - injection H as <- ->. left. exists x. auto.
  Qed.
  Lemma two_args_one p second args x : p args = Some (x, []) -> entirely (two_args v_pair p second) args = Some (v_pair x (second x)).
  Proof. intros E. rewrite entirely_some. unfold two_args, pbind. rewrite E. reflexivity. Qed.
  Lemma two_args_two p second args x r y : p args = Some (x, Comma :: r) -> p r = Some (y, []) -> entirely (two_args v_pair p second) args = Some (v_pair x y).
  Proof. intros E E2. rewrite entirely_some. unfold two_args, pbind. rewrite E. unfold ptry. cbn [expect_comma]. rewrite E2. reflexivity. Qed.

  Notation translation := (translation calc_val v_zero v_pair).
  Notation scaling := (scaling calc_f32 v_float v_pair).
  Notation rotation := (rotation calc_angle).
  Ltac fns f := repeat match goal with H : context[String.eqb f ?g] |- _ => destruct (String.eqb_spec f g); [subst f|] | |- context[String.eqb f ?g] => destruct (String.eqb_spec f g); [subst f|] end.
  Lemma option_map_some {X Y} (f : X -> Y) o y : option_map f o = Some y -> exists x, o = Some x /\ y = f x.
  Proof. destruct o; [|discriminate]. intros H. injection H as <-. eauto. Qed.
  Lemma translation_sound ts t r : transform_translation calc_val v_zero v_pair ts = Some (t, r) -> exists pre, ts = pre ++ r /\ optional translation pre t.
  Proof.
    destruct ts as [|[] ts]; try discriminate. unfold transform_translation. intros H.
    destruct (String.eqb_spec name "translate") as [->|_].
    { apply option_map_some in H. destruct H as (v & E & H). injection H as -> ->. exists [Fn "translate" args]. split; [reflexivity|]. constructor.
      apply two_args_some in E. destruct E as [(x & E & ->)|(x & q & y & E & E2 & ->)]; [apply translation_one; exact E|eapply translation_two; eassumption]. }
    destruct (String.eqb_spec name "translatex") as [->|_].
    { apply option_map_some in H. destruct H as (v & E & H). injection H as -> ->. exists [Fn "translatex" args]. split; [reflexivity|]. constructor. apply translation_x. apply entirely_some. exact E. }
    destruct (String.eqb_spec name "translatey") as [->|_].
    { apply option_map_some in H. destruct H as (v & E & H). injection H as -> ->. exists [Fn "translatey" args]. split; [reflexivity|]. constructor. apply translation_y. apply entirely_some. exact E. }
    destruct (in_list name _); [|discriminate]. injection H as <- <-. exists []. split; [reflexivity|constructor].
  Qed.
  Lemma scale_sound ts t r : transform_scale calc_f32 v_float v_pair ts = Some (t, r) -> exists pre, ts = pre ++ r /\ optional scaling pre t.
  Proof.
    assert (Z : Some (None, ts) = Some (t, r) -> exists pre, ts = pre ++ r /\ optional scaling pre t) by (intros H; injection H as <- <-; exists []; split; [reflexivity|constructor]).
    destruct ts as [|[] ts]; try exact Z. unfold transform_scale. intros H.
    destruct (String.eqb_spec name "scale") as [->|_].
    { apply option_map_some in H. destruct H as (v & E & H). injection H as -> ->. exists [Fn "scale" args]. split; [reflexivity|]. constructor.
      apply two_args_some in E. destruct E as [(x & E & ->)|(x & q & y & E & E2 & ->)]; [apply scaling_one; exact E|eapply scaling_two; eassumption]. }
    destruct (String.eqb_spec name "scalex") as [->|_].
    { apply option_map_some in H. destruct H as (v & E & H). injection H as -> ->. exists [Fn "scalex" args]. split; [reflexivity|]. constructor. apply scaling_x. apply entirely_some. exact E. }
    destruct (String.eqb_spec name "scaley") as [->|_].
    { apply option_map_some in H. destruct H as (v & E & H). injection H as -> ->. exists [Fn "scaley" args]. split; [reflexivity|]. constructor. apply scaling_y. apply entirely_some. exact E. }
    destruct (in_list name _); [discriminate|]. exact (Z H).
  Qed.
  Lemma rotation_sound ts t r : transform_rotation calc_angle ts = Some (t, r) -> exists pre, ts = pre ++ r /\ optional rotation pre t.
  Proof.
    assert (Z : Some (None, ts) = Some (t, r) -> exists pre, ts = pre ++ r /\ optional rotation pre t) by (intros H; injection H as <- <-; exists []; split; [reflexivity|constructor]).
    destruct ts as [|[] ts]; try exact Z. unfold transform_rotation, in_list. cbn [existsb]. intros H.
    destruct (String.eqb_spec name "rotate") as [->|_]; [|destruct (String.eqb_spec name "rotatez") as [->|_]]; cbn [orb] in H.
    1,2: apply option_map_some in H; destruct H as (v & E & H); injection H as -> ->; eexists [Fn _ args]; (split; [reflexivity|]); constructor; apply entirely_some in E; constructor; exact E.
    destruct (String.eqb name "scale" || _); [discriminate|]. exact (Z H).
  Qed.
  Lemma translation_complete pre t rest : optional translation pre t -> (pre = [] -> exists f args r, rest = Fn f args :: r /\ in_list f ["scale"; "scalex"; "scaley"; "rotate"; "rotatez"]%string = true) ->
    transform_translation calc_val v_zero v_pair (pre ++ rest) = Some (t, rest).
  Proof.
    intros [|tk v H] R.
    - destruct (R eq_refl) as (f & args & r & -> & I). cbn [app transform_translation].
      destruct (String.eqb_spec f "translate") as [->|_]; [discriminate|]. destruct (String.eqb_spec f "translatex") as [->|_]; [discriminate|]. destruct (String.eqb_spec f "translatey") as [->|_]; [discriminate|].
      rewrite I. reflexivity.
    - destruct H as [args x E|args x r y E E2|args x E|args x E]; cbn -[entirely two_args].
      + rewrite (two_args_one _ _ _ _ E). reflexivity.
      + rewrite (two_args_two _ _ _ _ _ _ E E2). reflexivity.
      + apply entirely_some in E. rewrite E. reflexivity.
      + apply entirely_some in E. rewrite E. reflexivity.
  Qed.
  Lemma scale_complete pre t rest : optional scaling pre t -> (pre = [] -> rest = [] \/ exists f args r, rest = Fn f args :: r /\ in_list f ["rotate"; "rotatez"]%string = true) ->
    transform_scale calc_f32 v_float v_pair (pre ++ rest) = Some (t, rest).
  Proof.
    intros [|tk v H] R.
    - destruct (R eq_refl) as [->|(f & args & r & -> & I)]; [reflexivity|]. cbn [app transform_scale]. unfold in_list in *. cbn [existsb] in I.
      destruct (String.eqb_spec f "rotate") as [->|_]; [reflexivity|]. destruct (String.eqb_spec f "rotatez") as [->|_]; [reflexivity|discriminate].
    - destruct H as [args x E|args x r y E E2|args x E|args x E]; cbn -[entirely two_args].
      + rewrite (two_args_one _ _ _ _ E). reflexivity.
      + rewrite (two_args_two _ _ _ _ _ _ E E2). reflexivity.
      + apply entirely_some in E. rewrite E. reflexivity.
      + apply entirely_some in E. rewrite E. reflexivity.
  Qed.
  Lemma rotation_complete pre t : optional rotation pre t -> transform_rotation calc_angle pre = Some (t, []).
  Proof. intros [|tk v H]; [reflexivity|]. destruct H as [args x E|args x E]; cbn -[entirely]; apply entirely_some in E; rewrite E; reflexivity. Qed.
  (** C65: `transform` takes a translation, a scaling and a rotation, in this order, each optional but not all missing, and assigns those given. *)
  Theorem C65_transform_partial : forall ts a, @starts_with_keyword V ts = false -> (forall r, ts <> Ident "none" :: r) ->
    (expand "transform" ts = Ok a <-> exists t1 t2 t3 t s r, ts = t1 ++ t2 ++ t3 /\ ts <> [] /\ optional translation t1 t /\ optional scaling t2 s /\ optional rotation t3 r /\
       a = match t with Some v => [("translate", Value v)] | None => [] end%string ++ match s with Some v => [("scale", Value v)] | None => [] end%string
           ++ match r with Some v => [("rotate", Value v)] | None => [] end%string).
  Proof.
    intros ts a K Hn. erewrite expand_declare by reflexivity. rewrite (declare_plain _ _ _ K). cbn [snd]. unfold parse_transform.
    assert (E : expect_ident "none" ts = None).
    { destruct ts as [|[] r]; try reflexivity. cbn [expect_ident]. destruct (String.eqb_spec "none" s) as [<-|]; [exfalso; eapply Hn; reflexivity|reflexivity]. }
    rewrite E, lift_ok. split.
    - intros H. apply pbind_inv in H. destruct H as (t & r1 & E1 & H). apply pbind_inv in H. destruct H as (s & r2 & E2 & H). apply pbind_inv in H. destruct H as (q & r3 & E3 & H).
      assert (r3 = [] /\ a = opt "translate" t ++ opt "scale" s ++ opt "rotate" q) as [-> ->] by (destruct t, s, q; try discriminate; injection H as <- <-; split; reflexivity).
      destruct (translation_sound _ _ _ E1) as (t1 & X1 & O1). destruct (scale_sound _ _ _ E2) as (t2 & X2 & O2). destruct (rotation_sound _ _ _ E3) as (t3 & X3 & O3).
      rewrite app_nil_r in X3. subst r2 r1. exists t1, t2, t3, t, s, q. split; [exact X1|]. split; [|auto]. intros ->. discriminate.
    - intros (t1 & t2 & t3 & t & s & r & -> & Ne & O1 & O2 & O3 & ->).
      assert (R3 : t3 = [] \/ exists f args, t3 = [Fn f args] /\ in_list f ["rotate"; "rotatez"]%string = true) by (destruct O3 as [|tk v [args x _|args x _]]; eauto).
      assert (R2 : t2 = [] \/ exists f args, t2 = [Fn f args] /\ in_list f ["scale"; "scalex"; "scaley"; "rotate"; "rotatez"]%string = true) by (destruct O2 as [|tk v [args x _|args x ? ? _ _|args x _|args x _]]; eauto).
      assert (R3' : forall f, in_list f ["rotate"; "rotatez"]%string = true -> in_list f ["scale"; "scalex"; "scaley"; "rotate"; "rotatez"]%string = true).
      { intros f. unfold in_list. cbn [existsb]. intros H. rewrite H, !orb_true_r. reflexivity. }
      unfold pbind. rewrite (translation_complete t1 t (t2 ++ t3) O1).
      2:{ intros ->. destruct R2 as [->|(f & args & -> & I)]; [|exists f, args, t3; auto]. destruct R3 as [->|(f & args & -> & I)]; [contradiction Ne; reflexivity|]. exists f, args, []. auto. }
      rewrite (scale_complete t2 s t3 O2). 2:{ intros _. destruct R3 as [->|(f & args & -> & I)]; [auto|]. right. exists f, args, []. auto. }
      rewrite (rotation_complete t3 r O3). destruct t, s, r; try reflexivity. inversion O1; subst. inversion O2; subst. inversion O3; subst. contradiction Ne; reflexivity.
  Qed.
  (** ... but `transform: none` crashes *)
  Theorem C65_transform_none_refuted : expand "transform" [Ident "none"] = Panic.
  Proof. reflexivity. Qed.
  (** C65: `gap: <row> <column>` assigns the two the wrong way round *)
  Theorem C65_gap_refuted : forall x y r, calc_val [x; y] = Some (r, [y]) -> forall c, calc_val [y] = Some (c, []) -> @starts_with_keyword V [x; y] = false -> @starts_with_keyword V [y] = false ->
    expand "gap" [x; y] = Ok [("column-gap", Value r); ("row-gap", Value c)]%string.
  Proof.
    intros x y r E c E2 K K2. erewrite expand_declare by reflexivity. rewrite (declare_plain _ _ _ K). cbn [snd]. rewrite lift_ok. unfold parse_gap, simple2, pbind, ptry, pret. rewrite !component_eq.
    assert (C1 : component calc_val [x; y] = Some (Value r, [y])) by (unfold component; cbn in K; destruct x; rewrite ?E; try reflexivity; destruct (keyword s); [discriminate|reflexivity]).
    assert (C2 : component calc_val [y] = Some (Value c, [])) by (unfold component; cbn in K2; destruct y; rewrite ?E2; try reflexivity; destruct (keyword s); [discriminate|reflexivity]).
    rewrite C1, component_eq, C2. reflexivity.
  Qed.
End S.

(** A toy instance: a value is the token read. Lengths are numbers, the only colour is `red`, the only alignment `center`. *)
Definition num_parser (ts : list tok) : option (tok * list tok) := match ts with Number q :: r => Some (Number q, r) | _ => None end.
Definition ident_parser (s : string) (ts : list tok) : option (tok * list tok) := match ts with Ident t :: r => if String.eqb s t then Some (Ident t, r) else None | _ => None end.
Definition as_pv (p : list tok -> option (tok * list tok)) (ts : list tok) : option (pv tok * list tok) := option_map (fun x => (Value (fst x), snd x)) (p ts).
Definition toy (name : string) (ts : list tok) : res (list (string * pv tok)) :=
  expand num_parser num_parser num_parser num_parser (ident_parser "red") (as_pv (ident_parser "visible")) (as_pv (ident_parser "center")) (as_pv (ident_parser "center"))
    (ident_parser "image") (ident_parser "gradient") num_parser num_parser (Number 0) (Number 1) (Number 2) (Number 5) (Ident "auto") (Other 0) (Other 1) (Other 2)
    Number (fun x y => Fn "pair" [x; y]) (fun a b => Other 3) (Fn "gradients") name ts.
(** C64 is false of the other shorthands: the longhands left out keep the value of an earlier declaration *)
Theorem C64_incomplete_refuted :
  (exists a, toy "place-items" [Ident "center"] = Ok a /\ ~ In "justify-items"%string (map fst a)) /\
  (exists a, toy "border" [Number 1; Ident "solid"] = Ok a /\ ~ In "border-top-color"%string (map fst a)) /\
  (exists a, toy "outline" [Number 1] = Ok a /\ ~ In "outline-color"%string (map fst a)) /\
  (exists a, toy "background" [Ident "red"] = Ok a /\ ~ In "-bevy-image"%string (map fst a)) /\
  (exists a, toy "grid" [Ident "none"] = Ok a /\ ~ In "grid-auto-flow"%string (map fst a)) /\
  (exists a, toy "transform" [Fn "scale" [Number 2]] = Ok a /\ ~ In "rotate"%string (map fst a)).
Proof. repeat split; (eexists; split; [vm_compute; reflexivity|cbn; intuition discriminate]). Qed.

(** Non-vacuity *)
Example C63_witness : exists v w, sequence (component num_parser) [Number 1; Number 2; Number 3] (v :: w) /\ length w = 2 /\
  toy "margin" [Number 1; Number 2; Number 3] = Ok [("margin-left", Value (Number 2)); ("margin-right", Value (Number 2)); ("margin-top", Value (Number 1)); ("margin-bottom", Value (Number 3))]%string.
Proof. exists (Value (Number 1)), [Value (Number 2); Value (Number 3)]. split; [repeat (econstructor; [reflexivity|]); constructor|]. split; reflexivity. Qed.
Example C65_witness : toy "flex" [Number 2] = Ok [("flex-grow", Value (Number 2)); ("flex-shrink", Value (Number 1)); ("flex-basis", Value (Other 0))]%string /\
  toy "transform" [Fn "translate" [Number 1; Comma; Number 2]; Fn "rotate" [Number 3]] = Ok [("translate", Value (Fn "pair" [Number 1; Number 2])); ("rotate", Value (Number 3))]%string /\
  toy "gap" [Number 1; Number 2] = Ok [("column-gap", Value (Number 1)); ("row-gap", Value (Number 2))]%string.
Proof. repeat split; vm_compute; reflexivity. Qed.

Print Assumptions C63_box. Print Assumptions C64_keyword. Print Assumptions C64_only_its_longhands. Print Assumptions C64_all_longhands_partial. Print Assumptions C64_incomplete_refuted.
Print Assumptions C65_flex. Print Assumptions C65_overflow. Print Assumptions C65_transform_partial. Print Assumptions C65_transform_none_refuted. Print Assumptions C65_gap_refuted.
