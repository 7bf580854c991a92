(** C89: keywords of enumerations.  C90: points, rectangles, angles, clip margins, line heights, text shadows, strings, paths, image modes. *)
From Coq Require Import Ascii String NArith ZArith QArith.
From Verif Require Import Base Vars VarText SheetText ValueParse ValueParseSpec ValueParseProofs MoreValues MoreValuesSpec MoreValuesProofs.
Open Scope nat_scope.

(** ** C89 *)
(** Accepted are the global keywords and the names of the variants without fields, in any letters, with hyphens anywhere; nothing else. *)
Theorem C89_keywords vs l v : good_enum vs -> declared_value (one (parse_enum vs)) l = Some v <-> is_value (single (names_variant vs)) l v.
Proof. apply keywords_correct. Qed.
Print Assumptions C89_keywords.
(** In particular the spelling of CSS, words with hyphens between them, is accepted for every variant, and means that variant. *)
Theorem C89_css_spelling vs x v : good_enum vs -> css_keyword vs x v -> declared_value (one (parse_enum vs)) [x] = Some (Value v).
Proof. intros Hg H. apply keywords_correct; [exact Hg|]. constructor. exists x. split; [reflexivity|]. apply css_names, H. Qed.
Print Assumptions C89_css_spelling.
(** The message of a refused value lists exactly the CSS spellings of the variants, so what it proposes is accepted. *)
Theorem C89_suggestions vs : good_enum vs ->
  (forall s, In s (suggestions vs) <-> exists v ws, In v vs /\ v_unit v = true /\ words_of (v_name v) ws /\ s = map lower (hyphenated ws)) /\
  (forall s, In s (suggestions vs) -> exists v, In v vs /\ declared_value (one (parse_enum vs)) [Leaf (TIdent s)] = Some (Value v)).
Proof.
  intros Hg.
  assert (H : forall s, In s (suggestions vs) <-> exists v ws, In v vs /\ v_unit v = true /\ words_of (v_name v) ws /\ s = map lower (hyphenated ws)).
  { intros s. rewrite suggestion_iff. split.
    - intros (v & Hi & Hu & ->). destruct (words_exist (v_name v)) as (ws & Hw). exists v, ws. rewrite (css_case_words _ _ Hw). auto.
    - intros (v & ws & Hi & Hu & Hw & ->). exists v. rewrite (css_case_words _ _ Hw). auto. }
  split; [exact H|]. intros s Hs. apply H in Hs as (v & ws & Hi & Hu & Hw & ->). exists v. split; [exact Hi|]. apply C89_css_spelling; [exact Hg|].
  split; [exact Hi|split; [exact Hu|]]. exists (map lower (hyphenated ws)), ws. split; [reflexivity|split; [exact Hw|]]. apply lowers_lowers.
Qed.
Print Assumptions C89_suggestions.

(** ** C90: exactly the values of the grammar, with the meaning the grammar gives them *)
Theorem C90_points calc l v : declared_value (parse_vec2 calc) l = Some v <-> is_value (is_pair 0%Q (with_calc calc is_f32)) l v.
Proof. apply vec2_correct. Qed.
Print Assumptions C90_points.
Theorem C90_translations calc l v : declared_value (parse_val2 calc) l = Some v <-> is_value (is_pair (VLen UPx 0) (with_calc calc is_val)) l v.
Proof. apply val2_correct. Qed.
Print Assumptions C90_translations.
Theorem C90_rectangles calc l v : declared_value (parse_rect calc) l = Some v <-> is_value (is_rect (with_calc calc is_f32)) l v.
Proof. apply rect_correct. Qed.
Print Assumptions C90_rectangles.
Theorem C90_angles rho calc l v : declared_value (one (parse_rotation calc rho)) l = Some v <-> is_value (single (with_calc calc (is_angle rho))) l v.
Proof. apply rotation_correct. Qed.
Print Assumptions C90_angles.
Theorem C90_clip_margin calc boxes db l v : good_enum boxes -> declared_value (parse_overflow_clip_margin calc boxes db) l = Some v <-> is_value (is_clip_margin (with_calc calc is_f32) boxes db) l v.
Proof. apply clip_correct. Qed.
Print Assumptions C90_clip_margin.
Theorem C90_z_index l v : declared_value (one parse_z_index) l = Some v <-> is_value (single integer) l v.
Proof. apply z_correct. Qed.
Print Assumptions C90_z_index.
Theorem C90_line_height l v : declared_value (one parse_line_height) l = Some v <-> is_value (single is_line_height) l v.
Proof. apply line_height_correct. Qed.
Print Assumptions C90_line_height.
Theorem C90_text_shadow {color} (color_of : tree -> option color) calc transparent dc :
  (forall x v, with_calc calc is_f32 x v -> color_of x = None) ->
  (forall s k, In k ["none"; "unset"; "inherit"; "initial"]%string -> spells s k -> color_of (Leaf (TIdent s)) = None) ->
  forall l v, declared_value (parse_text_shadow calc color_of transparent dc) l = Some v <-> is_value (is_text_shadow (with_calc calc is_f32) color_of transparent dc) l v.
Proof. intros H1 H2 l v. apply text_shadow_correct; assumption. Qed.
Print Assumptions C90_text_shadow.
(** A font may have any name but the global keywords, unless it is quoted. *)
Theorem C90_texts url_of l v :
  (declared_value (one parse_string) l = Some v <-> is_value (single is_string) l v) /\
  (declared_value (one (parse_asset_path url_of)) l = Some v <-> is_value (single (is_path url_of)) l v) /\
  (declared_value (one parse_font) l = Some v <-> is_value (single (fun x w => is_font x w /\ forall k, In k ["unset"; "inherit"; "initial"]%string -> ~ word x k)) l v).
Proof. split; [apply string_correct|split; [apply path_correct|apply font_correct]]. Qed.
Print Assumptions C90_texts.
Theorem C90_image_mode calc l v : declared_value (one (parse_image_mode calc)) l = Some v <-> is_value (single (is_image_mode (with_calc calc is_f32))) l v.
Proof. apply image_mode_correct. apply modes_apart. Qed.
Print Assumptions C90_image_mode.

(** ** Concrete cases *)
Definition of_text (s : string) : list tree := strip (parsed (tx s)).
Definition no_calc {X} (_ : list tree) : option X := None.
(** an unquoted path without white space or escapes *)
Definition plain_url (s : text) : option text := Some (removelast s).
Definition variants (l : list string) : list variant := map (fun s => mk_variant (tx s) true) l.
(** bevy_ui's FlexWrap, GridAutoFlow and OverflowClipBox *)
Definition flex_wrap : list variant := variants ["NoWrap"; "Wrap"; "WrapReverse"]%string.
Definition auto_flow : list variant := variants ["Row"; "Column"; "RowDense"; "ColumnDense"]%string.
Definition clip_box : list variant := variants ["ContentBox"; "PaddingBox"; "BorderBox"]%string.
Definition named (s : string) : variant := mk_variant (tx s) true.
Ltac good := split; [vm_compute; repeat (constructor; [let H := fresh in intros H; repeat destruct H as [H|H]; try discriminate H; contradiction|]); constructor|
  split; [let v := fresh in let Hi := fresh in let H := fresh in intros v Hi H; cbn in Hi; repeat destruct Hi as [<-|Hi]; try contradiction; vm_compute in H; repeat destruct H as [H|H]; try discriminate H; contradiction|
  let v := fresh in let k := fresh in let Hi := fresh in let Hk := fresh in let H := fresh in intros v k Hi Hk H; cbn in Hi, Hk; repeat destruct Hi as [<-|Hi]; try contradiction; repeat destruct Hk as [<-|Hk]; try contradiction; vm_compute in H; discriminate H]].
Lemma flex_wrap_good : good_enum flex_wrap. Proof. good. Qed.
Lemma auto_flow_good : good_enum auto_flow. Proof. good. Qed.
Lemma clip_box_good : good_enum clip_box. Proof. good. Qed.
Example C89_example : suggestions flex_wrap = map tx ["no-wrap"; "wrap"; "wrap-reverse"]%string /\
  declared_value (one (parse_enum flex_wrap)) (of_text "nowrap") = Some (Value (named "NoWrap")) /\ declared_value (one (parse_enum flex_wrap)) (of_text "Wrap-Reverse") = Some (Value (named "WrapReverse")) /\
  declared_value (one (parse_enum flex_wrap)) (of_text "INHERIT") = Some Inherit /\ declared_value (one (parse_enum flex_wrap)) (of_text "wrapped") = None /\
  css_keyword flex_wrap (Leaf (TIdent (tx "WRAP-reverse"))) (named "WrapReverse").
Proof.
  repeat (split; [vm_compute; reflexivity|]). split; [cbn; auto|]. split; [reflexivity|]. exists (tx "WRAP-reverse"), [tx "Wrap"; tx "Reverse"]. split; [reflexivity|]. split; [|vm_compute; reflexivity].
  assert (Hw : forall c r, forallb (fun x => negb (is_upper x)) r = true -> one_word (c :: r)).
  { intros c r H. exists c, r. split; [reflexivity|]. apply Forall_forall. intros x Hx Hc. apply upper_iff in Hc. rewrite forallb_forall in H. specialize (H x Hx). rewrite Hc in H. discriminate. }
  split; [reflexivity|]. split; [constructor; [apply Hw; reflexivity|constructor; [apply Hw; reflexivity|constructor]]|]. constructor; [|constructor]. exists "R"%char, (tx "everse"). split; [reflexivity|]. vm_compute. split; discriminate.
Qed.
Example C90_example :
  declared_value (parse_vec2 no_calc) (of_text "2 3px") = Some (Value (2, 3)%Q) /\ declared_value (parse_val2 no_calc) (of_text "5%") = Some (Value (VPercentage (500 # 100), VPercentage (500 # 100))) /\
  declared_value (parse_rect no_calc) (of_text "10 1 5 8") = Some (Value (mk_rect 5 1 10 8)) /\ declared_value (parse_rect no_calc) (of_text "10 1 5") = None /\
  option_map (fun v => match v with Value q => Qeq_bool q (- 1 # 4) | _ => false end) (declared_value (one (parse_rotation no_calc (1 # 6))) (of_text "270deg")) = Some true /\
  declared_value (parse_overflow_clip_margin no_calc clip_box (named "ContentBox")) (of_text "border-box 4px") = Some (Value (named "BorderBox", 4%Q)) /\
  declared_value (one parse_line_height) (of_text "150%") = Some (Value (LRelative (15 # 10))) /\ declared_value (one parse_z_index) (of_text "-3") = Some (Value (-3)%Z) /\
  declared_value (one (parse_asset_path plain_url)) (of_text "url(""a.png"")") = Some (Value (tx "a.png")) /\ declared_value (one (parse_asset_path plain_url)) (of_text "url(a.png)") = Some (Value (tx "a.png")) /\
  declared_value (one parse_font) (of_text "Fira") = Some (Value (tx "Fira")) /\
  declared_value (one (parse_image_mode no_calc)) (of_text "tiled(tile_y 2)") = Some (Value (ITiled (mk_tiled false true 2))) /\
  declared_value (one (parse_image_mode no_calc)) (of_text "sliced(1px 2px stretch tile(3) 4)") = Some (Value (ISliced (mk_slicer (2, 1)%Q (2, 1)%Q Stretch (Tile 3) 4))) /\
  declared_value (one (parse_image_mode no_calc)) (of_text "sliced(stretch)") = None.
Proof. repeat split; vm_compute; reflexivity. Qed.
Definition two_colors (x : tree) : option nat := match x with Leaf (TIdent s) => lookup s [("red", 0); ("blue", 1)]%string | _ => None end.
Example C90_text_shadow_example :
  (forall x v, with_calc no_calc is_f32 x v -> two_colors x = None) /\
  (forall s k, In k ["none"; "unset"; "inherit"; "initial"]%string -> spells s k -> two_colors (Leaf (TIdent s)) = None) /\
  declared_value (parse_text_shadow no_calc two_colors 8 9) (of_text "1px 2px blue") = Some (Value ((1, 2)%Q, 1)) /\ declared_value (parse_text_shadow no_calc two_colors 8 9) (of_text "red 1px 2px") = Some (Value ((1, 2)%Q, 0)) /\
  declared_value (parse_text_shadow no_calc two_colors 8 9) (of_text "none") = Some (Value ((0, 0)%Q, 8)) /\ declared_value (parse_text_shadow no_calc two_colors 8 9) (of_text "red 1px 2px blue") = None.
Proof.
  split; [intros x v [[y q (d & i & -> & _)|y q (d & i & u & -> & _)]|(l & (s & -> & _) & _)]; reflexivity|]. split.
  - intros s k Hi Hs. cbn [two_colors lookup]. assert (Hn : forall c, In c ["red"; "blue"]%string -> same_name s (tx c) = false).
    { intros c Hc. apply same_spells_f. intros Hs'. pose proof (spells_det _ _ _ Hs Hs') as E. cbn in Hc, Hi. repeat destruct Hi as [Hi|Hi]; try contradiction; subst k; repeat destruct Hc as [Hc|Hc]; try contradiction; subst c; vm_compute in E; discriminate. }
    rewrite !Hn by (cbn; tauto). reflexivity.
  - repeat split; vm_compute; reflexivity.
Qed.

(** ** What is not as in CSS *)
(** Hyphens in the wrong places, or missing ones, are accepted; keywords of two words are refused. *)
Theorem C89_spelling_refuted : good_enum auto_flow /\
  (exists x v, declared_value (one (parse_enum auto_flow)) [x] = Some (Value v) /\ ~ css_keyword auto_flow x v) /\
  declared_value (one (parse_enum auto_flow)) (of_text "r-o-w") = Some (Value (named "Row")) /\ declared_value (one (parse_enum auto_flow)) (of_text "rowdense") = Some (Value (named "RowDense")) /\
  declared_value (one (parse_enum auto_flow)) (of_text "row dense") = None.
Proof.
  split; [apply auto_flow_good|]. split; [|repeat split; vm_compute; reflexivity]. exists (Leaf (TIdent (tx "r-o-w"))), (named "Row"). split; [vm_compute; reflexivity|]. intros (_ & _ & s & ws & E & (Hn & H1 & H2) & Hs). injection E as <-.
  assert (L : length (tx "r-o-w") = length (hyphenated ws)) by (unfold same_letters in Hs; pose proof (f_equal (@length ascii) Hs) as L; rewrite !map_length in L; exact L). clear Hs.
  change (v_name (named "Row")) with (tx "Row") in Hn. destruct ws as [|w [|w2 ws]].
  - discriminate.
  - cbn in Hn, L. rewrite app_nil_r in Hn. subst w. discriminate.
  - inversion H1 as [|? ? (c & r & -> & _) _]; subst. cbn [skipn] in H2. inversion H2 as [|? ? (c2 & r2 & -> & Hc) _]; subst. cbn in Hn. injection Hn as _ Hn.
    assert (Hi : In c2 (tx "ow")) by (change (tx "ow") with ["o"; "w"]%char; rewrite Hn; apply in_or_app; right; left; reflexivity). cbn in Hi. destruct Hi as [<-|[<-|[]]]; destruct Hc as [_ Hc]; vm_compute in Hc; apply Hc; reflexivity.
Qed.
Print Assumptions C89_spelling_refuted.
(** In CSS `scale: none` leaves the size as it is; here it is the scale 0.  Words are compared with their letters as they are in `normal`, and in overflow-clip-margin the order is fixed and the margin needed. *)
Theorem C90_words_refuted :
  declared_value (parse_vec2 no_calc) (of_text "none") = Some (Value (0, 0)%Q) /\
  declared_value (one parse_line_height) (of_text "normal") = Some (Value (LRelative (12 # 10))) /\ declared_value (one parse_line_height) (of_text "NORMAL") = None /\
  declared_value (parse_overflow_clip_margin no_calc clip_box (named "ContentBox")) (of_text "4px border-box") = None /\ declared_value (parse_overflow_clip_margin no_calc clip_box (named "ContentBox")) (of_text "border-box") = None.
Proof. repeat split; vm_compute; reflexivity. Qed.
Print Assumptions C90_words_refuted.
