(** C91: the grammar of gradients.  C92: the colors along the line of a gradient. *)
From Coq Require Import Ascii String NArith ZArith QArith Lqa.
From Verif Require Import Base Vars VarText SheetText ValueParse ValueParseSpec ValueParseProofs MoreValues MoreValuesSpec MoreValuesProofs Gradient GradientSpec GradientProofs GradientBodyProofs GradientLineProofs.
Open Scope nat_scope.

(** ** C91 *)
(** A value is accepted exactly if it is a keyword or a list of gradients of the grammar, and means what the grammar says. *)
Theorem C91_gradients {color} (color_of : tree -> option color) calc_val calc_angle rho opposite : colors_apart color_of calc_val calc_angle rho ->
  forall l v, declared_value (parse_gradients color_of calc_val calc_angle rho opposite) l = Some v <->
    is_value (is_gradients color_of calc_val calc_angle rho opposite false (angle_place calc_angle rho)) l v.
Proof. intros H l v. apply gradients_correct, H. Qed.
Print Assumptions C91_gradients.
(** In particular what follows the rules of CSS about stops (at most two places each, hints only between stops) is accepted. *)
Theorem C91_css_stops {color} (color_of : tree -> option color) calc_val calc_angle rho opposite : colors_apart color_of calc_val calc_angle rho ->
  forall l gs, is_gradients color_of calc_val calc_angle rho opposite true (angle_place calc_angle rho) l gs ->
    declared_value (parse_gradients color_of calc_val calc_angle rho opposite) l = Some (Value gs).
Proof. intros H l gs Hg. apply gradients_correct; [exact H|]. constructor. apply gradients_lenient, Hg. Qed.
Print Assumptions C91_css_stops.

(** *** Cases *)
Definition red : tree := Leaf (TIdent (tx "red")).
Definition white : tree := Leaf (TIdent (tx "white")).
Definition blue : tree := Leaf (TIdent (tx "blue")).
Definition w (s : string) : tree := Leaf (TIdent (tx s)).
Definition pc (n : Z) : tree := Leaf (TPercent (mkdec n 2)).
Definition deg (n : Z) : tree := Leaf (TDim (mkdec n 0) true (tx "deg")).
Definition px (n : Z) : tree := Leaf (TDim (mkdec n 0) true (tx "px")).
Definition fn (s : string) (l : list tree) : tree := Fun (tx s) l.
(** red is 0, white 1, blue 2 *)
Definition colors (x : tree) : option Q := match x with Leaf (TIdent s) => lookup s [("red", 0); ("white", 1); ("blue", 2)]%string%Q | _ => None end.
Definition no_calc {X} (l : list tree) : option X := None.
Definition some_middle (a b : Q) : Q := a.
Notation read := (parse_gradients colors no_calc no_calc (1 # 6) some_middle).
Lemma colors_apart_case : colors_apart colors no_calc no_calc (1 # 6).
Proof.
  intros x c H. unfold colors in H. destruct x as [y|? ?|? ?]; [destruct y|..]; try discriminate. apply lookup_iff in H as (k & Hi & Hs); [|names].
  assert (Hx : word (Leaf (TIdent s)) k) by (exists s; auto).
  assert (Hk : (k = "red" \/ k = "white" \/ k = "blue")%string) by (cbn in Hi; repeat destruct Hi as [Hi|Hi]; try contradiction; injection Hi; intros; subst; auto).
  split; [discriminate|]. split; [|split].
  - intros v Hv. pose proof (val_word _ _ _ _ Hv Hx) as Hb. destruct Hk as [-> | [-> | ->]]; vm_compute in Hb; discriminate.
  - intros a Ha. pose proof (angle_word _ _ _ _ _ Ha Hx) as Hb. destruct Hk as [-> | [-> | ->]]; vm_compute in Hb; discriminate.
  - intros k' Hk' Hw. pose proof (word_det _ _ _ Hx Hw) as Hb. cbn in Hk'. destruct Hk as [-> | [-> | ->]]; repeat destruct Hk' as [Hk'|Hk']; try contradiction; subst k'; vm_compute in Hb; discriminate.
Qed.
(** linear-gradient(to bottom right in hsl longer hue, red 20%, white, 30%, blue 60% 80%), radial-gradient(circle closest-side at left 10px bottom 20px, red, blue) *)
Example gradients_case : declared_value read
  [fn "linear-gradient" [w "to"; w "bottom"; w "right"; w "in"; w "hsl"; w "longer"; w "hue"; comma; red; pc 20; comma; white; comma; pc 30; comma; blue; pc 60; pc 80]; comma;
   fn "radial-gradient" [w "circle"; w "closest-side"; w "at"; w "left"; px 10; w "bottom"; px 20; comma; red; comma; blue]] =
  Some (Value [Linear HslLong (3 # 8) [mk_stop 0 (Some (VLen UPx 0)) (1 # 2); mk_stop 0 (Some (VPercentage (2000 # 100))) (1 # 2); mk_stop 1 None (30 # 100); mk_stop 2 (Some (VPercentage (6000 # 100))) (1 # 2); mk_stop 2 (Some (VPercentage (8000 # 100))) (1 # 2)];
               Radial Oklab (mk_position (-1) 1 (VLen UPx 10) (VLen UPx 20)) ClosestSide [mk_stop 0 None (1 # 2); mk_stop 2 None (1 # 2)]])%Q.
Proof. vm_compute. reflexivity. Qed.
(** conic-gradient(from 90deg at right, red, blue 90deg) *)
Example conic_case : declared_value read [fn "conic-gradient" [w "from"; deg 90; w "at"; w "right"; comma; red; comma; blue; deg 90]] =
  Some (Value [Conic Oklab (90 # 360) (mk_position 1 0 (VLen UPx 0) (VLen UPx 0)) [mk_stop 0 None (1 # 2); mk_stop 2 (Some (90 # 360)) (1 # 2)]])%Q.
Proof. vm_compute. reflexivity. Qed.
(** The code is more generous than CSS: linear-gradient(red, 10%) ends with a hint, and is no gradient of CSS. *)
Theorem C91_trailing_hint_refuted : exists l gs, declared_value read l = Some (Value gs) /\ ~ exists gs', is_gradients colors no_calc no_calc (1 # 6) some_middle true (angle_place no_calc (1 # 6)) l gs'.
Proof.
  exists [fn "linear-gradient" [red; comma; pc 10]]. eexists. split; [vm_compute; reflexivity|].
  intros (gs' & H). inversion H as [x g Hg|]; subst. clear H.
  assert (Hit : forall ss b, items colors true (length_place no_calc) [red; comma; pc 10] ss b -> b = true).
  { intros ss b Hi. inversion Hi as [l' s' Hst|l' s' b' r s'' Hl Hst El|l' s' st b' d Hl Hb El]; subst; [| |reflexivity]; exfalso.
    - inversion Hst as [|? ? xs ps Hc Hn Hf Hlen]; subst. inversion Hf as [|? ? ? ? Hp Hf']; subst. destruct Hp as [[Hv _]|(v & Hv & _)]; apply pval_iff in Hv; discriminate.
    - destruct (stops_nonempty _ _ _ _ _ Hst) as (_ & x & c & q & -> & Hc). destruct l' as [|a [|a' [|a'' l']]]; try discriminate El; injection El; intros; subst; try discriminate Hc. destruct l'; discriminate. }
  inversion Hg as [x l o s a sp ss ss' (f & E & Hf) Hb Ho Hs Hz|x l o p s sh po sp ss ss' (f & E & Hf)|x l o p s a po sp ss ss' (f & E & Hf)]; subst; injection E as <- <-; try (vm_compute in Hf; discriminate Hf).
  inversion Hb as [l' ss0 (b & Hi & Hlast) E1 E2|h v l' ss0 Hne Hh (b & Hi & Hlast) E1 E2]; subst.
  - apply Hit in Hi. subst b. discriminate (Hlast eq_refl).
  - destruct (items_first _ _ _ _ _ _ Hi) as (x & c & q & -> & Hc). destruct h as [|a0 [|a1 [|a2 h]]]; [contradiction| | |]; try discriminate E1.
    + injection E1; intros; subst. discriminate Hc.
    + injection E1; intros; subst. destruct h; discriminate.
Qed.
Print Assumptions C91_trailing_hint_refuted.
(** In CSS a stop may be at 270deg.  Here it is brought back to -90deg, which is before the first stop: conic-gradient(red, blue 270deg). *)
Definition center : position := mk_position 0 0 (VLen UPx 0) (VLen UPx 0).
Theorem C91_conic_refuted : exists x,
  is_gradient colors no_calc no_calc (1 # 6) some_middle true (css_angle_place (1 # 6)) x (Conic Oklab 0 center [mk_stop 0 None (1 # 2); mk_stop 2 (Some (270 / 360)) (1 # 2)])%Q /\
  exists q, parse_gradient colors no_calc no_calc (1 # 6) some_middle x = Some (Conic Oklab 0 center [mk_stop 0 None (1 # 2); mk_stop 2 (Some q) (1 # 2)])%Q /\ (q == - 90 / 360)%Q.
Proof.
  exists (fn "conic-gradient" [red; comma; blue; deg 270]). split; [|eexists; split; [vm_compute; reflexivity|reflexivity]].
  apply (ig_conic _ _ _ _ _ _ _ _ [red; comma; blue; deg 270] None None None _ _ _ [mk_stop 0 None (1 # 2); mk_stop 2 (Some (270 / 360)) (1 # 2)]%Q); [exists (tx "conic-gradient"); split; reflexivity| |right; auto|right; auto|right; auto|constructor; reflexivity].
  apply bo_plain. exists false. split; [|auto]. apply (im_more _ _ _ [red] [mk_stop 0%Q None (1 # 2)%Q] false [blue; deg 270] [mk_stop 2%Q (Some (270 / 360))%Q (1 # 2)%Q]).
  - constructor. constructor. reflexivity.
  - apply (iso_at _ _ _ blue 2%Q [deg 270] [Some (270 / 360)%Q]); [reflexivity|discriminate| |cbn; auto]. constructor; [|constructor].
    exists (270 / 360)%Q. split; [|reflexivity]. left. exists 270%Q. split; [|reflexivity]. exists (mkdec 270 0), true, (tx "deg"). split; [reflexivity|]. split; reflexivity.
Qed.
Print Assumptions C91_conic_refuted.
(** CSS has more: a bare circle, top left, the color space first, percentages in conic gradients; all of that is refused. *)
Theorem C91_headers_refuted : Forall (fun x => declared_value read [x] = None)
  [fn "radial-gradient" [w "circle"; comma; red; comma; blue];
   fn "radial-gradient" [w "at"; w "top"; w "left"; comma; red; comma; blue];
   fn "linear-gradient" [w "in"; w "srgb"; w "to"; w "right"; comma; red; comma; blue];
   fn "conic-gradient" [red; comma; blue; pc 50]].
Proof. repeat (constructor; [vm_compute; reflexivity|]). constructor. Qed.
Print Assumptions C91_headers_refuted.

(** ** C92 *)
(** The stops of a gradient that is read are those that are written, maybe with another one at zero; and if the first stop written is not before zero, that one changes no color of the line.
    [mix]: any way of mixing in which a color mixed with itself is that color. *)
Theorem C92_zero_stop {color} (color_of : tree -> option color) calc_val calc_angle rho opposite (mix : color -> color -> Q -> color) bend (to_px : val -> Q) :
  colors_apart color_of calc_val calc_angle rho -> (forall c q, mix c c q = c) -> (forall q, (to_px (VLen UPx q) == q)%Q) ->
  forall x g, parse_gradient color_of calc_val calc_angle rho opposite x = Some g ->
  match g with
  | Linear _ _ drawn => exists l h written, call x "linear-gradient" l /\ body color_of false (linear_header calc_angle rho opposite) (None, None) (length_place calc_val) l h written /\
      ((forall s r p, written = s :: r -> st_at s = Some p -> (0 <= to_px p)%Q) -> forall len y, color_at mix bend len (map (point_of to_px) drawn) y = color_at mix bend len (map (point_of to_px) written) y)
  | Radial _ _ _ drawn => exists l h written, call x "radial-gradient" l /\ body color_of false (radial_header calc_val) (None, None, None) (length_place calc_val) l h written /\
      ((forall s r p, written = s :: r -> st_at s = Some p -> (0 <= to_px p)%Q) -> forall len y, color_at mix bend len (map (point_of to_px) drawn) y = color_at mix bend len (map (point_of to_px) written) y)
  | Conic _ _ _ drawn => exists l h written, call x "conic-gradient" l /\ body color_of false (conic_header calc_val calc_angle rho) (None, None, None) (angle_place calc_angle rho) l h written /\
      ((forall s r p, written = s :: r -> st_at s = Some p -> (0 <= p)%Q) -> forall len y, color_at mix bend len (map (point_of (fun q => q)) drawn) y = color_at mix bend len (map (point_of (fun q => q)) written) y)
  end.
Proof.
  intros Ha Hm Hz x g H. apply gradient_iff in H; [|exact Ha].
  destruct H as [x l o s a sp ss ss' Hc Hb _ _ Hf|x l o p s sh po sp ss ss' Hc Hb _ _ _ Hf|x l o p s a po sp ss ss' Hc Hb _ _ _ Hf]; eexists l, _, ss; (split; [exact Hc|split; [exact Hb|]]); intros Hp len y.
  - eapply from_zero_same; [exact Hm| |exact Hf|exact Hp]. apply Hz.
  - eapply from_zero_same; [exact Hm| |exact Hf|exact Hp]. apply Hz.
  - eapply (from_zero_same _ _ Hm (fun q => q)); [|exact Hf|exact Hp]. reflexivity.
Qed.
Print Assumptions C92_zero_stop.
(** pixels as they are, percentages of 100 pixels *)
Definition px_of (v : val) : Q := match v with VAuto => 0 | VLen _ q => q | VPercentage q => q end.
Definition blend (a b q : Q) : Q := (a + (b - a) * q)%Q.
Definition straight (h s : Q) : Q := s.
Definition drawn_at (x : tree) (y : Q) : option Q :=
  match parse_gradient colors no_calc no_calc (1 # 6) some_middle x with Some (Linear _ _ ss) => option_map Qred (color_at blend straight 100 (map (point_of px_of) ss) y) | _ => None end.
(** linear-gradient(red 20px, white, blue 80px): a fourth of the way from 20 to 80 is halfway to white *)
Example line_case : drawn_at (fn "linear-gradient" [red; px 20; comma; white; comma; blue; px 80]) 35 = Some (1 # 2)%Q /\ drawn_at (fn "linear-gradient" [red; px 20; comma; white; comma; blue; px 80]) 10 = Some 0%Q.
Proof. vm_compute. auto. Qed.
(** If the first stop is before zero the stop at zero moves it there: linear-gradient(red -50px, blue 50px) begins in red; CSS has it halfway to blue there. *)
Theorem C92_negative_refuted : exists x h written, body colors false (linear_header no_calc (1 # 6) some_middle) (None, None) (length_place no_calc) x h written /\
  option_map Qred (color_at blend straight 100 (map (point_of px_of) written) 0) = Some 1%Q /\ drawn_at (fn "linear-gradient" x) 0 = Some 0%Q.
Proof.
  exists [red; px (-50); comma; blue; px 50], (None, None), [mk_stop 0 (Some (VLen UPx (-50))) (1 # 2); mk_stop 2 (Some (VLen UPx 50)) (1 # 2)]%Q. split; [|split; vm_compute; reflexivity].
  apply (body_iff colors no_calc no_calc (1 # 6) colors_apart_case _ _ (linear_stops colors no_calc) _ _ (linear_hdr colors no_calc no_calc (1 # 6) some_middle colors_apart_case) (None, None)).
  exists None. split; [vm_compute; reflexivity|reflexivity].
Qed.
Print Assumptions C92_negative_refuted.
(** A hint in CSS is a place of the line, a part of its length; the stop keeps it as the part of the way to the next stop.
    Both agree if the stops are the ends of the line, and not in general: linear-gradient(red, white 50%, 75%, blue). *)
Definition css_part (len h a b : Q) : Q := ((h * len - a) / (b - a))%Q.
Theorem C92_hint_partial {color} (c c' : color) (h h' len : Q) : (0 < len)%Q ->
  exists a b, placed len [mk_point c None h; mk_point c' None h'] = [(c, a, h); (c', b, h')] /\ (css_part len h a b == h)%Q.
Proof.
  intros Hl. exists 0%Q, len. unfold placed. cbn [first_at last_at pt_color pt_at pt_hint ascending spread]. rewrite (proj2 (max_le 0 len)) by lra. split; [reflexivity|]. unfold css_part. field. lra.
Qed.
Print Assumptions C92_hint_partial.
Theorem C92_hint_refuted : exists l c a h c' b h' rest,
  match parse_gradient colors no_calc no_calc (1 # 6) some_middle (fn "linear-gradient" l) with Some (Linear _ _ ss) => skipn 1 (placed 100 (map (point_of px_of) ss)) | _ => [] end = (c, a, h) :: (c', b, h') :: rest /\
  In (pc 75) l /\ (h == 75 / 100)%Q /\ (css_part 100 (75 / 100) a b == 1 / 2)%Q.
Proof.
  exists [red; comma; white; pc 50; comma; pc 75; comma; blue]. eexists _, _, _, _, _, _, _. split; [vm_compute; reflexivity|]. split; [cbn; auto 10|]. split; vm_compute; reflexivity.
Qed.
Print Assumptions C92_hint_refuted.
