(** C100: which colors are accepted, and what they mean. *)
From Coq Require Import Ascii String NArith ZArith QArith Lqa.
From Verif Require Import Base Vars VarText SheetText ValueParse ValueParseSpec ValueParseProofs MoreValues MoreValuesSpec MoreValuesProofs Gradient GradientSpec GradientProofs GradientBodyProofs.
From Verif Require Import Color ColorSpec ColorProofs.
From Verif Require Prop_ValueParse Prop_MoreValues Prop_Gradient.
Open Scope nat_scope.

(** ** The values of a property of colors *)
(** What is accepted is a keyword or one color in a notation of CSS, with the meaning of [code]; and every notation with percentages where hsl and hwb have them is accepted,
    but for currentcolor and five color spaces. *)
Definition color_value (rho : Q) (l : list tree) : option (prop_value color) := declared_value (one (color_of rho)) l.
Lemma not_keyword rho s k : In k ["none"; "unset"; "inherit"; "initial"]%string -> spells s k -> color_of rho (Leaf (TIdent s)) = None.
Proof.
  intros Hk Hs. cbn [color_of]. unfold parse_color_keyword.
  assert (Hn : forall c, In c ["transparent"; "currentcolor"]%string -> same_name s (tx c) = false).
  { intros c Hc. apply same_spells_f. intros Hs'. pose proof (spells_det _ _ _ Hs Hs') as E. cbn in Hk, Hc. repeat destruct Hk as [Hk|Hk]; try contradiction; subst k; repeat destruct Hc as [Hc|Hc]; try contradiction; subst c; vm_compute in E; discriminate. }
  rewrite !Hn by (cbn; tauto). destruct (lookup s named_colors) as [r|] eqn:E; [|reflexivity]. exfalso. eapply (apart ["none"; "unset"; "inherit"; "initial"]%string); [vm_compute; reflexivity|exact Hk|exact Hs|exact E].
Qed.
Lemma color_value_iff rho l v : color_value rho l = Some v <-> is_value (single (fun x c => color_of rho x = Some c)) l v.
Proof.
  apply declared_iff; [apply one_iff; intros; reflexivity|]. intros l0 c (x & -> & H). destruct (@global_keyword color [x]) as [(w & r)|] eqn:E; [|reflexivity]. exfalso.
  assert (r = []) as -> by (destruct x as [z|? ?|? ?]; try discriminate E; destruct z; try discriminate E; cbn [global_keyword] in E; destruct (lookup _ _); [injection E as _ <-; reflexivity|discriminate]).
  apply keyword_iff in E as (y & [= ->] & Hw). assert (Hk : exists k, In k ["none"; "unset"; "inherit"; "initial"]%string /\ word y k) by (destruct Hw as [(A & _)|[(A & _)|(A & _)]]; eexists; (split; [|exact A]); cbn; tauto).
  destruct Hk as (k & Hk & s & -> & Hs). rewrite (not_keyword rho s k Hk Hs) in H. discriminate.
Qed.
Theorem C100_colors_partial rho l :
  (forall c, color_value rho l = Some (Value c) -> exists x w, l = [x] /\ written false rho x w /\ stands_for code w c) /\
  (forall x w, l = [x] -> written false rho x w -> (supported w <-> exists c, color_value rho l = Some (Value c)) /\ (forall c, color_value rho l = Some (Value c) -> stands_for code w c)) /\
  (forall x k v, l = [x] -> word x k -> In (k, v) [("unset", Unset); ("inherit", Inherit); ("initial", Initial)]%string -> color_value rho l = Some v).
Proof.
  assert (Hv : forall x c, color_value rho [x] = Some (Value c) <-> color_of rho x = Some c).
  { intros x c. rewrite color_value_iff. split; [intros H; inversion H as [| | |l' v' (y & E & Hy) E1 E2]; injection E as ->; exact Hy|intros H; constructor; exists x; auto]. }
  split; [|split].
  - intros c H. apply color_value_iff in H. inversion H as [| | |l' v' (x & El & Hx) E1 E2]; subst. apply color_sound in Hx as (w & A & B). eauto.
  - intros x w -> Hw. pose proof (color_complete rho x w Hw) as Hc. destruct (color_of rho x) as [c|] eqn:E.
    + split; [split; [intros _; exists c; apply Hv, E|intros _; apply (stands_supported _ _ _ Hc)]|]. intros c' H. apply Hv in H. rewrite E in H. injection H as <-. exact Hc.
    + split; [split; [contradiction|intros (c & H); apply Hv in H; congruence]|]. intros c H. apply Hv in H. congruence.
  - intros x k v -> Hw Hi. apply color_value_iff. cbn in Hi. repeat destruct Hi as [Hi|Hi]; try contradiction; injection Hi as <- <-; constructor; exact Hw.
Qed.
Print Assumptions C100_colors_partial.
(** What a notation stands for is one color. *)
Theorem C100_one_meaning k w c d : stands_for k w c -> stands_for k w d -> same_color c d.
Proof. apply stands_det. Qed.
Print Assumptions C100_one_meaning.
(** Hexadecimal and named colors, rgb(), and hsl(), hwb(), oklab(), oklch() and color() but for a few cases, mean what CSS says. *)
Theorem C100_css rho x w : written true rho x w -> agreed w -> exists c, color_value rho [x] = Some (Value c) /\ stands_for css w c.
Proof.
  intros Hw Ha.
  assert (Hf : written false rho x w).
  { destruct Hw; try (econstructor; eassumption); cbn in Ha; destruct Ha as (A & B & _); [eapply wr_hsl|eapply wr_hwb]; try eassumption;
      match goal with |- share false ?g => destruct g; [exact I|exfalso; unfold is_number in *; eauto|exact I] end. }
  assert (Hs : supported w) by (destruct w as [| | | | | | | | |[] ? ? ? ?]; cbn in *; try tauto; destruct Ha as (A & _); apply A; reflexivity).
  destruct (C100_colors_partial rho [x]) as (_ & H & _). destruct (H x w eq_refl Hf) as (Hi & Hc). apply Hi in Hs as (c & E). exists c. split; [exact E|]. specialize (Hc c E).
  assert (Hal : forall g v, g <> Missing -> alpha_is 1 g v -> alpha_is 0 g v) by (intros [] v Hn; [congruence|exact (fun h => h)|exact (fun h => h)]).
  destruct w as [| | | | | | | | |s ? ? ? ?]; cbn [stands_for code css no_alpha] in *; try exact Hc; try contradiction.
  - destruct Hc as (A & B & C & D & F). repeat split; try assumption. apply Hal; [cbn in Ha; unfold sure_alpha in Ha; tauto|exact F].
  - destruct Hc as (A & B & C & D & F). repeat split; try assumption. apply Hal; [cbn in Ha; unfold sure_alpha in Ha; tauto|exact F].
  - destruct Hc as (A & B & C & D & F). repeat split; try assumption. apply Hal; [cbn in Ha; unfold sure_alpha in Ha; tauto|exact F].
  - destruct Hc as (A & B & C & D & F). repeat split; try assumption. apply Hal; [cbn in Ha; unfold sure_alpha in Ha; tauto|exact F].
  - destruct Hc as (m & Hm & A & B & C & D & F). exists m. split; [exact Hm|]. repeat split; try assumption. apply Hal; [cbn in Ha; unfold sure_alpha in Ha; tauto|exact F].
Qed.
Print Assumptions C100_css.

(** ** Where colors are parts of values: C86, C90 and C91 hold without assumptions about colors *)
Lemma color_not_val rho x c calc v : color_of rho x = Some c -> ~ with_calc calc is_val x v.
Proof.
  intros H [Hv|(l & (s & -> & Hs) & _)].
  - inversion Hv as [|y q (d & i & -> & _)|y q (d & i & -> & _)|y q (d & -> & _)|y k u q _ (d & i & s & -> & _)]; subst; try discriminate H.
  - cbn [color_of] in H. destruct (lookup s color_functions) as [f|] eqn:E; [|discriminate]. apply lookup_iff in E as (k & Hi & Hk); [|names]. pose proof (spells_det _ _ _ Hs Hk) as Ek. cbn in Hi. repeat destruct Hi as [Hi|Hi]; try contradiction; injection Hi as <- <-; vm_compute in Ek; discriminate.
Qed.
Lemma color_not_calc rho x c l : color_of rho x = Some c -> ~ call x "calc" l.
Proof.
  intros H (s & -> & Hs). cbn [color_of] in H. destruct (lookup s color_functions) as [f|] eqn:E; [|discriminate]. apply lookup_iff in E as (k & Hi & Hk); [|names]. pose proof (spells_det _ _ _ Hs Hk) as Ek.
  cbn in Hi. repeat destruct Hi as [Hi|Hi]; try contradiction; injection Hi as <- <-; vm_compute in Ek; discriminate.
Qed.
Lemma color_word rho x c k : color_of rho x = Some c -> word x k -> map lower (tx k) = map lower (tx "transparent") \/ exists n r, In (n, r) named_colors /\ map lower (tx k) = map lower (tx n).
Proof.
  intros H (s & -> & Hs). cbn [color_of] in H. unfold parse_color_keyword in H. destruct (same_name s (tx "transparent")) eqn:E; [left; apply same_spells in E; exact (spells_det _ _ _ Hs E)|].
  destruct (same_name s (tx "currentcolor")); [discriminate|]. destruct (lookup s named_colors) as [r|] eqn:El; [|discriminate]. apply lookup_iff in El as (n & Hi & Hn); [|apply names_nodup]. right. exists n, r. split; [exact Hi|]. exact (spells_det _ _ _ Hs Hn).
Qed.
(** a word that is no name *)
Lemma not_a_color rho x c k : color_of rho x = Some c -> apart_from [k] = true -> (if list_eq_dec ascii_dec (map lower (tx k)) (map lower (tx "transparent")) then true else false) = false -> ~ word x k.
Proof.
  intros H Ha Ht Hw. destruct (color_word _ _ _ _ H Hw) as [E|(n & r & Hi & E)]; [destruct (list_eq_dec _ _ _); [discriminate|contradiction]|].
  destruct Hw as (s & -> & Hs). eapply (apart [k] s k r Ha (or_introl eq_refl) Hs). apply lookup_iff; [apply names_nodup|]. exists n. split; [exact Hi|]. unfold spells in *. congruence.
Qed.
Lemma colors_are_apart rho calc_val calc_angle : colors_apart (color_of rho) calc_val calc_angle rho.
Proof.
  intros x c H. split; [intros ->; discriminate|]. split; [intros v; eapply color_not_val, H|]. split.
  - intros a [Ha|(l & Hc & _)]; [|eapply color_not_calc; [exact H|exact Hc]]. destruct Ha as [y Hw|y q (d & i & -> & _)|y q q' Ht _ _]; try discriminate H.
    + apply (not_a_color _ _ _ "none"%string H); [vm_compute; reflexivity|vm_compute; reflexivity|exact Hw].
    + destruct Ht as [(a & (d & i & u & -> & _) & _)|[(a & (d & i & u & -> & _) & _)|[(a & (d & i & u & -> & _) & _)|(d & i & u & -> & _)]]]; discriminate H.
  - intros k Hk. apply (not_a_color _ _ _ k H); cbn in Hk; repeat destruct Hk as [<-|Hk]; try contradiction; vm_compute; reflexivity.
Qed.
Theorem C100_box_shadow_partial rho calc dc dv l v :
  (is_value (is_shadows (color_of rho) calc dc dv false) l v -> declared_value (parse_box_shadow (color_of rho) calc dc dv) l = Some v) /\
  (declared_value (parse_box_shadow (color_of rho) calc dc dv) l = Some v <-> is_value (is_shadows (color_of rho) calc dc dv true) l v).
Proof.
  apply Prop_ValueParse.C86_box_shadow_partial; [|reflexivity|].
  - intros x w H. destruct (color_of rho x) as [c|] eqn:E; [|reflexivity]. exfalso. eapply color_not_val; eassumption.
  - intros s k Hk Hs. apply (not_keyword rho s k); [cbn in *; tauto|exact Hs].
Qed.
Print Assumptions C100_box_shadow_partial.
Theorem C100_text_shadow rho calc transparent dc l v :
  declared_value (parse_text_shadow calc (color_of rho) transparent dc) l = Some v <-> is_value (is_text_shadow (with_calc calc is_f32) (color_of rho) transparent dc) l v.
Proof.
  apply Prop_MoreValues.C90_text_shadow; [|intros s k Hk Hs; apply (not_keyword rho s k); [cbn in *; tauto|exact Hs]].
  intros x w [[y q (d & i & -> & _)|y q (d & i & u & -> & _)]|(l0 & Hc & _)]; try reflexivity. destruct (color_of rho x) as [c|] eqn:E; [|reflexivity]. exfalso. eapply color_not_calc; eassumption.
Qed.
Print Assumptions C100_text_shadow.
Theorem C100_gradients rho calc_val calc_angle opposite l v :
  (declared_value (parse_gradients (color_of rho) calc_val calc_angle rho opposite) l = Some v <->
    is_value (is_gradients (color_of rho) calc_val calc_angle rho opposite false (angle_place calc_angle rho)) l v) /\
  (forall gs, is_gradients (color_of rho) calc_val calc_angle rho opposite true (angle_place calc_angle rho) l gs ->
    declared_value (parse_gradients (color_of rho) calc_val calc_angle rho opposite) l = Some (Value gs)).
Proof. split; [apply Prop_Gradient.C91_gradients, colors_are_apart|intros gs; apply Prop_Gradient.C91_css_stops, colors_are_apart]. Qed.
Print Assumptions C100_gradients.

(** ** Concrete cases *)
Definition of_text (s : string) : list tree := strip (parsed (tx s)).
Definition third : Q := 159 # 1000.
Definition shown (s : string) : option (color_model * (Q * Q * Q * Q)) :=
  match color_value third (of_text s) with Some (Value c) => Some (model c, (Qred (c1 c), Qred (c2 c), Qred (c3 c), Qred (alpha c))) | _ => None end.
Example C100_cases :
  shown "#F09" = Some (Srgba, (1, 0, 3 # 5, 1))%Q /\ shown "#ff009980" = Some (Srgba, (1, 0, 3 # 5, 128 # 255))%Q /\ shown "RebeccaPurple" = Some (Srgba, (2 # 5, 1 # 5, 3 # 5, 1))%Q /\
  shown "transparent" = Some (Srgba, (0, 0, 0, 0))%Q /\ shown "rgb(214, 122, 127)" = Some (Srgba, (214 # 255, 122 # 255, 127 # 255, 1))%Q /\ shown "rgb(300 50% none / 50%)" = Some (Srgba, (1, 128 # 255, 0, 1 # 2))%Q /\
  shown "rgb(10, 20%, 30)" = None /\ shown "rgb(10 20 30 40)" = None /\ shown "rgb(10 20 30 / none)" = Some (Srgba, (2 # 51, 4 # 51, 2 # 17, 0))%Q /\
  shown "hsl(-30deg 82% 143%)" = Some (Hsla, (330, 41 # 50, 1, 1))%Q /\ shown "hsla(0.5turn, 50%, 20%, 2)" = Some (Hsla, (180, 1 # 2, 1 # 5, 1))%Q /\ shown "hwb(152deg none none / 70%)" = Some (Hwba, (152, 0, 0, 7 # 10))%Q /\
  shown "lab(100% -100% 125)" = Some (Laba, (3 # 2, - (3 # 2), 3 # 2, 1))%Q /\ shown "lch(50% 150 100grad)" = Some (Lcha, (3 # 4, 3 # 2, 90, 1))%Q /\
  shown "oklab(50% -100% 0.4)" = Some (Oklaba, (1 # 2, - (2 # 5), 2 # 5, 1))%Q /\ shown "oklch(0.5 50% 400)" = Some (Oklcha, (1 # 2, 1 # 5, 40, 1))%Q /\
  shown "color(srgb-linear 0.5 50% 0)" = Some (LinearRgba, (1 # 2, 1 # 2, 0, 1))%Q /\ shown "color(xyz 1.0 0.5 0 / 50%)" = Some (Xyza, (1, 1 # 2, 0, 1 # 2))%Q /\
  shown "color(display-p3 1 0 0)" = None /\ shown "currentcolor" = None /\ shown "#12345" = None /\ shown "reddish" = None.
Proof. repeat split; vm_compute; reflexivity. Qed.
(** the hypotheses are met: a text, how it is read, that it is agreed on *)
Example C100_css_case : exists x, of_text "hsl(-30deg 82% 143% / 0.5)" = [x] /\ exists w, written true third x w /\ agreed w.
Proof.
  eexists. split; [vm_compute; reflexivity|]. eexists. split.
  - eapply wr_hsl; [exists "hsl"%string; split; [cbn; tauto|]; eexists; split; reflexivity|apply ih_deg; eexists _, _, _; repeat split|apply ig_percent; eexists; repeat split|apply ig_percent; eexists; repeat split|exact I|exact I|].
    apply me_alpha. apply ig_number. eexists _, _. repeat split.
  - cbn. repeat split; try discriminate; intros (q & E); discriminate.
Qed.
Example C100_gradient_case : declared_value (parse_gradients (color_of third) (fun _ => None) (fun _ => None) third Qplus) (of_text "linear-gradient(90deg, #f00, rgb(0 0 255) 50%)") <> None.
Proof. vm_compute. discriminate. Qed.

(** ** Where the code differs from CSS *)
Ltac reads := repeat match goal with
  | |- exists _, _ => eexists
  | |- _ /\ _ => split
  | |- is_given (Leaf (TIdent _)) _ => apply ig_none
  | |- is_given (Leaf (TNumber _ _)) _ => apply ig_number
  | |- is_given (Leaf (TPercent _)) _ => apply ig_percent
  | |- is_hue _ (Leaf (TNumber _ _)) _ => apply ih_number
  | |- modern_end [] _ => apply me_opaque
  | |- modern_end [_; _] _ => apply me_alpha
  | |- number _ _ => unfold number
  | |- percentage _ _ => unfold percentage
  | |- word _ _ => unfold word
  | |- called _ _ _ => unfold called
  | |- call _ _ _ => unfold call
  | |- spells _ _ => reflexivity
  | |- share _ _ => exact I || reflexivity
  | |- In _ _ => cbn; tauto
  | |- _ = _ => reflexivity
  end.
(** lab(100 0 0) is white, and is not what the code makes of it: its lightness is 150 percent. Likewise lch(50 30 20). *)
Theorem C100_lab_refuted : exists x w c, of_text "lab(100 0 0)" = [x] /\ written true third x w /\ color_value third [x] = Some (Value c) /\ stands_for code w c /\ ~ stands_for css w c.
Proof.
  eexists _, (Lab (Number 100) (Number 0) (Number 0) (Number 1)), _. split; [vm_compute; reflexivity|]. split; [eapply wr_lab; [exists "lab"%string; split; [cbn; tauto|]; eexists; split; reflexivity|..]; reads|].
  split; [vm_compute; reflexivity|]. split; [|intros (_ & H & _); vm_compute in H; discriminate].
  repeat split; try (vm_compute; reflexivity). left. cbn. split; [lra|reflexivity].
Qed.
Theorem C100_lch_refuted : exists x w c, of_text "lch(50 30 20)" = [x] /\ written true third x w /\ color_value third [x] = Some (Value c) /\ ~ stands_for css w c.
Proof.
  eexists _, (Lch (Number 50) (Number 30) (Some 20%Q) (Number 1)), _. split; [vm_compute; reflexivity|]. split; [eapply wr_lch; [exists "lch"%string; split; [cbn; tauto|]; eexists; split; reflexivity|..]; reads|].
  split; [vm_compute; reflexivity|]. intros (_ & H & _). vm_compute in H. discriminate.
Qed.
(** Alpha that is missing is 0 in CSS: hsl(0 50% 50% / none) is transparent, here it is opaque; in rgb() it is transparent here too. *)
Theorem C100_missing_alpha_refuted : exists x w c, of_text "hsl(0 50% 50% / none)" = [x] /\ written true third x w /\ color_value third [x] = Some (Value c) /\ alpha c = 1%Q /\ ~ stands_for css w c.
Proof.
  eexists _, _, _. split; [vm_compute; reflexivity|]. split; [eapply wr_hsl; [exists "hsl"%string; split; [cbn; tauto|]; eexists; split; reflexivity|..]; reads|].
  split; [vm_compute; reflexivity|]. split; [reflexivity|]. intros (_ & _ & _ & _ & H). vm_compute in H. discriminate.
Qed.
(** CSS Color 4 allows hsl(120 100 50) and hwb(120 0 0). *)
Theorem C100_plain_numbers_refuted : (exists x w, of_text "hsl(120 100 50)" = [x] /\ written true third x w /\ color_value third [x] = None) /\ (exists x w, of_text "hwb(120 0 0)" = [x] /\ written true third x w /\ color_value third [x] = None).
Proof.
  split.
  - eexists _, _. split; [vm_compute; reflexivity|]. split; [eapply wr_hsl; [exists "hsl"%string; split; [cbn; tauto|]; eexists; split; reflexivity|..]; reads|vm_compute; reflexivity].
  - eexists _, _. split; [vm_compute; reflexivity|]. split; [eapply wr_hwb; [exists "hwb"%string; split; [cbn; tauto|]; eexists; split; reflexivity|..]; reads|vm_compute; reflexivity].
Qed.
