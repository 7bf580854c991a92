(** C85, C86: which values of lengths, aspect ratios, grids and box shadows are accepted, and what they mean. *)
From Coq Require Import Ascii String NArith ZArith QArith.
From Verif Require Import Base Vars VarText SheetText ValueParse ValueParseSpec ValueParseProofs.
Open Scope nat_scope.

(** ** C85: exactly the values of the grammar, with the meaning the grammar gives them *)
Theorem C85_lengths calc l v : declared_value (one (parse_calc calc parse_val)) l = Some v <-> is_value (fun l w => exists x, l = [x] /\ with_calc calc is_val x w) l v.
Proof. apply val_correct. Qed.
Print Assumptions C85_lengths.
Theorem C85_aspect_ratio calc l v : declared_value (parse_aspect_ratio calc) l = Some v <-> is_value (is_ratio calc) l v.
Proof. apply ratio_correct. Qed.
Print Assumptions C85_aspect_ratio.
Theorem C85_tracks l v : declared_value parse_grid_track_vec l = Some v <-> is_value is_track_list l v.
Proof. apply tracks_correct. Qed.
Print Assumptions C85_tracks.
Theorem C85_placement l v : declared_value parse_grid_placement l = Some v <-> is_value is_placement l v.
Proof. apply placement_correct. Qed.
Print Assumptions C85_placement.
(** Every template of the grammar is accepted and means what it says; and what is accepted has the form of a template, its counts being the lowest sixteen bits. *)
Theorem C85_template_partial l v :
  (is_value (is_template css_count) l v -> declared_value parse_repeated_grid_track_vec l = Some v) /\
  (declared_value parse_repeated_grid_track_vec l = Some v <-> is_value (is_template low_bits) l v).
Proof.
  assert (Hi : declared_value parse_repeated_grid_track_vec l = Some v <-> is_value (is_template low_bits) l v) by apply template_correct.
  split; [|exact Hi]. intros H. apply Hi. clear Hi. destruct H as [x H|x H|x H|l v H]; try (constructor; exact H). constructor.
  destruct H as [x H|l ts Hne H]; [constructor; exact H|]. apply itm_some; [exact Hne|]. clear Hne. induction H as [|x v l ts Hx Hl IH]; constructor; [|exact IH].
  destruct Hx as [x v Hx|x a r z n us Hc Hz [Hb ->] Hne Hf|x a r us Hc Hw Hne Hf|x a r us Hc Hw Hne Hf]; [apply irp_once, Hx|..|eapply irp_fill; eassumption|eapply irp_fit; eassumption].
  eapply irp_count; try eassumption. split; [lia|]. exists 0%Z. lia.
Qed.
Print Assumptions C85_template_partial.

(** ** C86: box shadows *)
Theorem C86_box_shadow_partial {color} (color_of : tree -> option color) calc dc dv :
  (forall x v, with_calc calc is_val x v -> color_of x = None) -> color_of comma = None ->
  (forall s k, In k ["unset"; "inherit"; "initial"]%string -> spells s k -> color_of (Leaf (TIdent s)) = None) ->
  forall l v,
  (is_value (is_shadows color_of calc dc dv false) l v -> declared_value (parse_box_shadow color_of calc dc dv) l = Some v) /\
  (declared_value (parse_box_shadow color_of calc dc dv) l = Some v <-> is_value (is_shadows color_of calc dc dv true) l v).
Proof.
  intros H1 H2 H3 l v. pose proof (box_shadow_correct color_of calc dc dv H1 H2 H3 l v) as Hi. split; [|exact Hi]. intros H. apply Hi. clear Hi.
  destruct H as [x H|x H|x H|l v H]; try (constructor; exact H). constructor.
  assert (Hs : forall l s, is_shadow color_of calc dc dv false l s -> is_shadow color_of calc dc dv true l s).
  { intros l0 s0 [pre vs post c xs Ha Hb _ Hc Hd He s Hs]. eapply ish; try eassumption. discriminate. }
  induction H as [l s H|l s r ss H Hr IH]; constructor; auto.
Qed.
Print Assumptions C86_box_shadow_partial.

(** ** Texts *)
Definition of_text (s : string) : list tree := strip (parsed (tx s)).
Definition no_calc {X} (_ : list tree) : option X := None.
Definition one_length := @one val (parse_calc no_calc parse_val).
Definition two_colors (x : tree) : option nat :=
  match x with Leaf (TIdent s) => lookup s [("red", 0); ("blue", 1)]%string | _ => None end.
Lemma two_colors_fine : (forall x v, with_calc no_calc is_val x v -> two_colors x = None) /\ two_colors comma = None /\
  (forall s k, In k ["unset"; "inherit"; "initial"]%string -> spells s k -> two_colors (Leaf (TIdent s)) = None).
Proof.
  split; [|split; [reflexivity|]].
  - intros x v [H|(l & (s & -> & _) & _)]; [|reflexivity]. inversion H; subst; try reflexivity;
      match goal with H : number _ _ |- _ => destruct H as (? & ? & -> & _) | H : percentage _ _ |- _ => destruct H as (? & -> & _) | H : dimension _ _ _ |- _ => destruct H as (? & ? & ? & -> & _) end; reflexivity.
  - intros s k Hi Hs. cbn [two_colors lookup]. cbn in Hi.
    assert (Hn : forall c, In c ["red"; "blue"]%string -> same_name s (tx c) = false).
    { intros c Hc. apply same_spells_f. intros Hs'. pose proof (spells_det _ _ _ Hs Hs') as E.
      cbn in Hc. repeat destruct Hi as [Hi|Hi]; try contradiction; subst k; repeat destruct Hc as [Hc|Hc]; try contradiction; subst c; vm_compute in E; discriminate. }
    rewrite !Hn by (cbn; tauto). reflexivity.
Qed.


(** ** Concrete cases: the texts are in the grammar, and the parser finds their meaning *)
Example C85_lengths_example : declared_value one_length (of_text "12.5px") = Some (Value (VLen UPx (125 # 10))) /\ declared_value one_length (of_text "Inherit") = Some Inherit /\
  declared_value one_length (of_text "30%") = Some (Value (VPercentage (300 # 10))) /\ declared_value one_length (of_text "3em") = None /\ declared_value one_length (of_text "1px 2px") = None.
Proof. repeat split; vm_compute; reflexivity. Qed.
Example C85_tracks_example : declared_value parse_grid_track_vec (of_text "10px 1FR minmax(20%, auto) fit-content(4)") =
    Some (Value [Size (GLen GPx 10); Size (GLen GFr 1); MinMax (GPercent (200 # 10)) GAuto; FitPx 4]) /\
  declared_value parse_grid_track_vec (of_text "minmax(1fr, auto)") = None /\ declared_value parse_grid_track_vec (of_text "none 1px") = None.
Proof. repeat split; vm_compute; reflexivity. Qed.
Example C85_template_example : is_value (is_template css_count) (of_text "repeat(2, 1fr auto) 5px") (Value [(RCount 2, [Size (GLen GFr 1); Size GAuto]); (Once, [Size (GLen GPx 5)])]).
Proof.
  assert (H1 : forall s q, spells s "fr" -> forall d, q = dec_Q d -> is_track (Leaf (TDim d true s)) (Size (GLen GFr q))) by (intros; constructor; apply is_fr; [reflexivity|]; eexists _, _, _; eauto).
  constructor. apply itm_some; [discriminate|]. constructor; [|constructor; [|constructor]].
  - eapply irp_count with (z := 2%Z); [eexists; split; [reflexivity|reflexivity]|eexists; split; reflexivity|split; [lia|reflexivity]|discriminate|].
    constructor; [apply H1; reflexivity|constructor; [|constructor]]. constructor. eapply is_word with (k := "auto"%string); [cbn; tauto|]. eexists. split; reflexivity.
  - apply irp_once. constructor. eapply is_len with (k := "px"%string); [cbn; tauto|]. eexists _, _, _. split; [reflexivity|]. split; reflexivity.
Qed.
Example C85_placement_example : declared_value parse_grid_placement (of_text "2 / span 3") = Some (Value (StartSpan 2 3)) /\ declared_value parse_grid_placement (of_text "-1 / 4") = Some (Value (StartEnd (-1) 4)) /\
  declared_value parse_grid_placement (of_text "0") = None /\ declared_value parse_grid_placement (of_text "2 / span -3") = None /\
  declared_value (parse_aspect_ratio no_calc) (of_text "16 / 9") = Some (Value (Some (16, 9)%Q)).
Proof. repeat split; vm_compute; reflexivity. Qed.
Example C86_example : declared_value (parse_box_shadow two_colors no_calc 7 VAuto) (of_text "1px 2% red, BLUE 3vw 4 5px auto, 1px 1px") =
  Some (Value [mk_shadow 0 (VLen UPx 1) (VPercentage (200 # 100)) VAuto VAuto; mk_shadow 1 (VLen UVw 3) (VLen UPx 4) (VLen UPx 5) VAuto; mk_shadow 7 (VLen UPx 1) (VLen UPx 1) VAuto VAuto]).
Proof. vm_compute. reflexivity. Qed.

(** ** What is not as in CSS *)
(** Numbers of repetitions that CSS refuses, or that need more than sixteen bits, are accepted as another number. *)
Theorem C85_template_refuted : exists l v, declared_value parse_repeated_grid_track_vec l = Some v /\ ~ is_value (is_template css_count) l v.
Proof.
  exists (of_text "repeat(-1, 1fr)"), (Value [(RCount 65535, [Size (GLen GFr 1)])]). split; [vm_compute; reflexivity|]. intros H. inversion H as [| | |? ? Hv]; subst. inversion Hv as [|? ? Hne Hf]; subst. clear H Hv Hne.
  assert (E : of_text "repeat(-1, 1fr)" = [Fun (tx "repeat") [Leaf (TNumber (mkdec (-1) 0) true); Leaf TComma; Leaf (TDim (mkdec 1 0) true (tx "fr"))]]) by (vm_compute; reflexivity).
  rewrite E in Hf. inversion Hf as [|? ? ? ? Hx _]; subst. inversion Hx as [|? ? ? ? ? ? (s & Es & _) (d & Ed & Hz) [Hb _]| |]. assert (Hd : d = mkdec (-1) 0) by congruence. rewrite Hz, Hd in Hb. clear - Hb. vm_compute in Hb. destruct Hb as [Hb _]. apply Hb. reflexivity.
Qed.
Print Assumptions C85_template_refuted.
Theorem C85_wrapped_refuted : declared_value parse_repeated_grid_track_vec (of_text "repeat(65537, 1fr)") = Some (Value [(RCount 1, [Size (GLen GFr 1)])]) /\
  declared_value parse_repeated_grid_track_vec (of_text "repeat(0, 1fr)") = Some (Value [(RCount 0, [Size (GLen GFr 1)])]).
Proof. split; vm_compute; reflexivity. Qed.
Print Assumptions C85_wrapped_refuted.
(** `auto` in capitals is refused as a length (in grids it is not), and a placement has to start with a line. *)
Theorem C85_words_refuted : declared_value one_length (of_text "auto") = Some (Value VAuto) /\ declared_value one_length (of_text "AUTO") = None /\
  declared_value parse_grid_track_vec (of_text "AUTO") = Some (Value [Size GAuto]) /\
  declared_value parse_grid_placement (of_text "span 2") = None /\ declared_value parse_grid_placement (of_text "auto") = None.
Proof. repeat split; vm_compute; reflexivity. Qed.
Print Assumptions C85_words_refuted.
(** Two colors are accepted, the second wins; `none` is refused. *)
Theorem C86_two_colors_refuted : declared_value (parse_box_shadow two_colors no_calc 7 VAuto) (of_text "red 1px 2px blue") = Some (Value [mk_shadow 1 (VLen UPx 1) (VLen UPx 2) VAuto VAuto]) /\
  declared_value (parse_box_shadow two_colors no_calc 7 VAuto) (of_text "none") = None.
Proof. split; vm_compute; reflexivity. Qed.
Print Assumptions C86_two_colors_refuted.
