(** C93: where errors are reported. C94: what happens to the mistakes of a sheet. *)
From Coq Require Import Ascii String NArith.
From Verif Require Import Base Report ReportSpec ReportProofs LoadErrors LoadErrorsSpec LoadErrorsProofs LoadErrorsProofs2 LoadKeptSpec LoadKeptProofs.
Open Scope nat_scope.

(** ** C93 *)
(** An error about a piece of one line is reported at that piece, if the parser measures it as long as it is, and lines end with LF or CR LF. *)
Theorem C93_reported_where_it_is_partial : forall pre piece post, plain (pre ++ piece ++ post) = true -> one_line piece -> piece <> [] ->
  into_range (error_behind pre (bytes piece)) (pre ++ piece ++ post) = Some (bytes pre, bytes pre + bytes piece).
Proof. exact exact_range. Qed.
Example C93_ex : let pre := tx "a {" ++ [LF] ++ tx "  k: " ++ [128163%N] ++ tx " " in
  into_range (error_behind pre 2) (pre ++ tx "12" ++ tx "; }") = Some (14, 16) /\ plain (pre ++ tx "12" ++ tx "; }") = true.
Proof. split; reflexivity. Qed.

(** The range at any position of such a text, by what stands before and behind it in its line: the [n] bytes behind it if they are characters of that line;
    at the end of a line the character before it, if it is ASCII; a crash in all other cases. *)
Theorem C93_reported_range : forall earlier before here later n,
  plain (earlier ++ before ++ here ++ later) = true -> whole_lines earlier -> one_line before -> one_line here -> line_ends later ->
  into_range (error_behind (earlier ++ before) n) (earlier ++ before ++ here ++ later) =
    let p := bytes (earlier ++ before) in
    match here with
    | [] => if last_is_ascii before then Some (p - 1, p) else None
    | _ => if boundary n here then Some (p, p + n) else None
    end.
Proof. exact range_at. Qed.
Theorem C93_boundary : forall n s, boundary n s = true <-> exists a b, s = a ++ b /\ n = bytes a.
Proof. exact boundary_at. Qed.
(** every position of such a text, other than between CR and LF, is covered *)
Theorem C93_positions : forall pre rest, plain (pre ++ rest) = true -> (forall s, pre <> s ++ [CR]) ->
  exists earlier before here later, pre = earlier ++ before /\ rest = here ++ later /\ whole_lines earlier /\ one_line before /\ one_line here /\ line_ends later.
Proof.
  intros pre rest Hp Hn. destruct (split_before pre (plain_app_l _ _ Hp Hn)) as (e & b & -> & He & Hb).
  destruct (split_after rest (plain_app_r _ _ Hp)) as (h & l & -> & Hh & Hl). exists e, b, h, l. auto 8.
Qed.
(** An error of a part without its own place is reported at that part. *)
Theorem C93_part : forall pre part post, into_range (improve Unlocated (bytes pre) (bytes part)) (pre ++ part ++ post) = Some (bytes pre, bytes pre + bytes part).
Proof.
  intros. cbn [improve into_range]. rewrite !bytes_app. replace (bytes pre <=? _) with true by (symmetry; apply Nat.leb_le; lia).
  replace (bytes pre + bytes part <=? _) with true by (symmetry; apply Nat.leb_le; lia). reflexivity.
Qed.

(** Lines that end with CR or FF: a crash, or the wrong line. *)
Theorem C93_other_newlines_refuted : exists pre piece post, one_line piece /\ piece <> [] /\
  into_range (error_behind pre (bytes piece)) (pre ++ piece ++ post) = None /\
  exists pre' post', into_range (error_behind pre' (bytes piece)) (pre' ++ piece ++ post') <> None /\ into_range (error_behind pre' (bytes piece)) (pre' ++ piece ++ post') <> Some (bytes pre', bytes pre' + bytes piece).
Proof.
  exists (tx "a {" ++ [CR]), (tx "k"), (tx ": 1 }"). repeat split; try discriminate.
  exists (tx "a {" ++ [CR]), (tx ": 1 }" ++ [LF] ++ tx "b { }"). split; intros H; vm_compute in H; discriminate.
Qed.
(** The text ends too early, behind the end of a line: a crash. `a { k:` and a line end *)
Theorem C93_end_of_text_refuted : forall s, plain s = true -> into_range (error_behind (s ++ [LF]) 0) (s ++ [LF]) = None.
Proof.
  intros s Hp. assert (plain (s ++ [LF]) = true) as Hp'.
  { induction s as [|x s IH]; [reflexivity|]. cbn [app]. pose proof Hp as Hp0. apply plain_cons in Hp as (Hf & Hp & Hc). cbn [plain]. rewrite Hf, (IH Hp), andb_true_r. cbn [negb andb].
    destruct (N.eqb x CR); [|reflexivity]. destruct (Hc eq_refl) as (r & ->). reflexivity. }
  pose proof (range_at (s ++ [LF]) [] [] [] 0) as H. cbn [app] in H. rewrite app_nil_r in H. apply H; auto; [right; eauto | reflexivity | reflexivity | left; reflexivity].
Qed.
(** At the end of a line that ends with a character outside ASCII: a crash. *)
Theorem C93_last_character_refuted : forall s c n, plain (s ++ [c]) = true -> one_line [c] -> (128 <= c)%N -> into_range (error_behind (s ++ [c]) n) (s ++ [c]) = None.
Proof.
  intros s c n Hp Hc Hl. destruct (split_before _ Hp) as (e & b & E & He & Hb). rewrite E in *.
  destruct b as [|x b _] using rev_ind.
  { exfalso. rewrite app_nil_r in E. subst e. destruct He as [He|(e' & He)]; [destruct s; discriminate|]. apply app_inj_tail in He as (_ & ->). discriminate. }
  rewrite app_assoc in E. apply app_inj_tail in E as (_ & <-).
  pose proof (range_at e (b ++ [c]) [] [] n) as H. cbn [app] in H. rewrite app_nil_r in H. rewrite H; auto; [|reflexivity|left; reflexivity].
  unfold last_is_ascii. rewrite rev_app_distr. cbn [rev app]. replace (c <? 128)%N with false by (symmetry; apply N.ltb_ge; exact Hl). reflexivity.
Qed.
(** A token is measured by how cssparser prints it: `.5` as `0.5`, three bytes instead of two. At the end of a line: a crash. *)
Theorem C93_printed_length_refuted : let pre := tx "a { z-index: " in into_range (error_behind pre (bytes (tx "0.5"))) (pre ++ tx ".5" ++ [LF] ++ tx "}") = None.
Proof. reflexivity. Qed.
(** The error about an unknown at-rule has the position behind its name, and the length of its name: never the name, and a crash if the line does not go on for so long. *)
Theorem C93_unknown_at_rule_refuted : forall earlier before name here later, let at_name := tx "@" ++ name in
  plain (earlier ++ (before ++ at_name) ++ here ++ later) = true -> whole_lines earlier -> one_line before -> one_line name -> one_line here -> line_ends later -> name <> [] ->
  let r := into_range (error_behind (earlier ++ before ++ at_name) (bytes name)) (earlier ++ (before ++ at_name) ++ here ++ later) in
  (here <> [] -> bytes here < bytes name -> r = None) /\
  (forall a b, r = Some (a, b) -> b <= bytes (earlier ++ before ++ at_name) /\ a + 1 = b \/ bytes (earlier ++ before ++ at_name) <= a).
Proof.
  intros e b name h l at_name Hp He Hb Hn Hh Hl Hne r. unfold r.
  assert (one_line (b ++ at_name)) as Hbn. { unfold at_name, one_line. rewrite !forallb_app. apply andb_true_intro. split; [exact Hb|]. apply andb_true_intro. split; [reflexivity | exact Hn]. }
  rewrite (range_at e (b ++ at_name) h l (bytes name) Hp He Hbn Hh Hl). cbv zeta. split.
  - intros Hhn Hlt. destruct h as [|x h]; [contradiction|]. destruct (boundary (bytes name) (x :: h)) eqn:E; [|reflexivity].
    apply boundary_at in E as (a & b' & E & E'). rewrite E in Hlt. rewrite E', bytes_app in Hlt. lia.
  - intros a b' H. destruct h as [|x h].
    + destruct (last_is_ascii _) eqn:E; [|discriminate]. injection H as <- <-. left. split; [lia|].
      assert (1 <= bytes (e ++ b ++ at_name)); [|lia]. unfold at_name. rewrite !bytes_app. change (bytes (tx "@")) with 1. lia.
    + destruct (boundary _ _); [|discriminate]. injection H as <- <-. right. lia.
Qed.
Example C93_at_rule_ex : into_range (error_behind (tx "@page") 4) (tx "@page {}") = None /\ into_range (error_behind (tx "@page") 4) (tx "@page :first {}") = Some (5, 9).
Proof. split; reflexivity. Qed.

(** ** C94 *)
(** Loading does not crash exactly when the sheet is [safe]. *)
Theorem C94_crashes_exactly_when : forall m c l, load m c l <> None <-> safe c l.
Proof.
  intros m c l. rewrite load_bind. pose proof (load_ok c l) as H. unfold ok in H. destruct (bind _ _) as [o|]; cbn [option_map].
  - split; [intros _; apply H | discriminate].
  - split; [congruence | contradiction].
Qed.
(** Every mistake of the sheet is reported, once, in order, and nothing else is. *)
Theorem C94_every_mistake_once_partial : forall m c l r, load m c l = Some r -> m <> Ignore -> Forall2 (reported_at c) (mistakes l) (errors_of r).
Proof.
  intros m c l r H Hm. rewrite load_bind in H. pose proof (load_ok c l) as Hok. unfold ok in Hok. destruct (bind _ _) as [o|]; [|discriminate]. cbn [option_map] in H. injection H as <-.
  destruct Hok as (Hs & E). assert (errors_of (finish m o) = filter is_error (snd o)) as ->.
  { unfold errors_of, finish. destruct (existsb _ _); [|reflexivity]. destruct m; try reflexivity. contradiction. }
  rewrite E. apply located_forall. intros e He. apply Hs. exact He.
Qed.
(** The mode decides only between failing and loading, and what is printed: without mistakes all modes give the same; with mistakes ReturnError fails, and all others give the same sheet. *)
Theorem C94_modes : forall c l, safe c l -> exists calls,
  match mistakes l with
  | [] => exists advices, forall m, load m c l = Some (Loaded calls advices) /\ filter is_error advices = []
  | _ => (exists reports, load ReturnError c l = Some (Failed reports)) /\ forall m, m <> ReturnError -> exists printed, load m c l = Some (Loaded calls printed)
  end.
Proof.
  intros c l Hs. pose proof (load_ok c l) as Hok. unfold ok in Hok. destruct (bind (parse_tops [] l) _) as [o|] eqn:Eb; [|contradiction]. destruct Hok as (_ & E).
  exists (fst o). assert (forall ms, ms = mistakes l -> existsb is_error (snd o) = match ms with [] => false | _ => true end) as Hx.
  { intros ms ->. pose proof (located_forall c (mistakes l)) as F. rewrite <- E in F. specialize (F (proj2 (proj2 (proj2 (proj2 Hs))))).
    assert (forall y, In y (filter is_error (snd o)) <-> In y (snd o) /\ is_error y = true) as Hin by (intros; apply filter_In).
    destruct (mistakes l) as [|x ms]; destruct (filter is_error (snd o)) as [|y ys]; try solve [inversion F].
    - destruct (existsb is_error (snd o)) eqn:Ex; [|reflexivity]. apply existsb_exists in Ex as (y & Hy). apply Hin in Hy. destruct Hy.
    - apply existsb_exists. exists y. apply Hin. left. reflexivity. }
  destruct (mistakes l) as [|x ms] eqn:Em.
  - exists (snd o). intros m. rewrite load_bind, Eb. cbn [option_map]. unfold finish. rewrite (Hx _ eq_refl). split; [reflexivity|]. rewrite E. reflexivity.
  - split; [exists (snd o) | intros m Hm]; rewrite load_bind, Eb; cbn [option_map]; unfold finish; rewrite (Hx _ eq_refl); [reflexivity|]. destruct m; try (eexists; reflexivity). contradiction.
Qed.

(** a sheet with mistakes and `!important` that is safe *)
Definition ex_text : text := tx "a { b: 1; c: 2 !important; k; }" ++ [LF].
Definition ex_sheet : list top := [TInner (IRule (inl 1) [D (Decl 7 (tx "b") (VBad (mkerr 5 Unlocated)) (4, 5)); D (Decl 8 (tx "c") (VGood (Some (15, 25))) (10, 16)); D (Junk (mkerr 1 (error_behind (tx "a { b: 1; c: 2 !important; k") 1)) (27, 2))])].
Example C94_ex : safe ex_text ex_sheet /\ load PrintWarn ex_text ex_sheet = Some (Loaded [CRuleset [1]; CDecl 8] [RError 5 (4, 9); RAdvice (15, 25); RError 1 (28, 29)]).
Proof.
  assert (load PrintWarn ex_text ex_sheet = Some (Loaded [CRuleset [1]; CDecl 8] [RError 5 (4, 9); RAdvice (15, 25); RError 1 (28, 29)])) as E by (vm_compute; reflexivity).
  split; [|exact E]. apply (C94_crashes_exactly_when PrintWarn). rewrite E. discriminate.
Qed.

(** What is right in a sheet has its effect, whatever is wrong beside it: the declarations under their selectors, in order; the last right family and source of a font; the declarations of an animation. *)
Theorem C94_rest_loaded : forall m c l calls printed, load m c l = Some (Loaded calls printed) -> effects [] calls = good l.
Proof. exact load_good. Qed.
(** `p { a; q { b: 1 } x: bad; ) { y: 1 } z: 1 }`: the wrong declaration and the rule with the wrong selector have no effect; `z` is one of `p` *)
Example C94_rest_loaded_ex : exists calls printed, load PrintError (tx "0123456789")
  [TInner (IRule (inl 1) [D (Decl 11 (tx "a") (VGood None) (0, 1)); N (inl 2) [D (Decl 12 (tx "b") (VGood None) (0, 1))]; D (Decl 13 (tx "x") (VBad (mkerr 5 Unlocated)) (3, 1));
     N (inr (mkerr 6 (InRange 4 5))) [D (Decl 14 (tx "y") (VGood None) (0, 1))]; D (Decl 15 (tx "z") (VGood None) (0, 1))])] = Some (Loaded calls printed) /\
  effects [] calls = [EDecl [1] 11; EDecl [1; 2] 12; EDecl [1] 15].
Proof. do 2 eexists. split; [vm_compute; reflexivity | reflexivity]. Qed.

(** Crashes. A property that begins with `transition` or `animation` and is not one of those supported, in any rule of any text, in any mode. *)
Theorem C94_unknown_motion_refuted : forall m c sel id name v sub, unsupported name = true -> load m c [TInner (IRule sel [D (Decl id name v sub)])] = None.
Proof.
  intros m c sel id name v sub H. destruct (load m c _) eqn:E; [|reflexivity]. exfalso.
  assert (safe c [TInner (IRule sel [D (Decl id name v sub)])]) as (Hs & _) by (apply (C94_crashes_exactly_when m); congruence).
  specialize (Hs (Decl id name v sub)). cbn in Hs. destruct Hs as (_ & Hu & _); [auto|]. congruence.
Qed.
Example C94_unknown_motion_ex : unsupported (tx "transition-behavior") = true /\ unsupported (tx "animation-composition") = true /\ unsupported (tx "Animation-Range") = true.
Proof. repeat split; reflexivity. Qed.
(** The second of two @keyframes with the same name. *)
Theorem C94_duplicate_keyframes_refuted : forall m c a b name l k k', load m c (a ++ TKeyframes name k :: b ++ TKeyframes name k' :: l) = None.
Proof.
  intros. destruct (load m c _) eqn:E; [|reflexivity]. exfalso.
  assert (safe c (a ++ TKeyframes name k :: b ++ TKeyframes name k' :: l)) as (_ & _ & Hn & _) by (apply (C94_crashes_exactly_when m); congruence).
  unfold keyframe_names in Hn. rewrite flat_map_app in Hn. cbn [flat_map app] in Hn. rewrite flat_map_app in Hn. apply NoDup_remove_2 in Hn. apply Hn. apply in_or_app. right. apply in_or_app. right. left. reflexivity.
Qed.
(** An @font-face without a usable family or source: the error about the family says where it is, but is dropped for one that does not. *)
Theorem C94_font_face_refuted : forall m c a l f, ~ (has_family f /\ has_source f) -> load m c (a ++ TFont f :: l) = None.
Proof.
  intros m c a l f H. destruct (load m c _) eqn:E; [|reflexivity]. exfalso.
  assert (safe c (a ++ TFont f :: l)) as (_ & _ & _ & Hf & _) by (apply (C94_crashes_exactly_when m); congruence). apply H, Hf. apply in_or_app. right. left. reflexivity.
Qed.
(** `@font-face { font-family: Inter; src: url(i.ttf); }`: the family is not a string *)
Example C94_font_face_ex : let f := [FDecl (tx "font-family") (inr (mkerr 1 (error_behind (tx "@font-face { font-family: ") 5))) (13, 19); FDecl (tx "src") (inl 4) (33, 16)] in ~ (has_family f /\ has_source f).
Proof. intros f ((name & n & sub & [E|[E|[]]] & Hn) & _); [discriminate|]. injection E as <- _ _. discriminate. Qed.
(** A property name with a character across its tenth byte. *)
Theorem C94_property_name_refuted : forall m c sel id v sub, load m c [TInner (IRule sel [D (Decl id (tx "propertie" ++ [233%N] ++ tx "s") v sub)])] = None.
Proof.
  intros. destruct (load m c _) eqn:E; [|reflexivity]. exfalso.
  assert (safe c [TInner (IRule sel [D (Decl id (tx "propertie" ++ [233%N] ++ tx "s") v sub)])]) as (Hs & _) by (apply (C94_crashes_exactly_when m); congruence).
  destruct (Hs _ (or_introl eq_refl)) as (Hs' & _). apply Hs'; [reflexivity|]. apply split_char_spec. split; [cbn; lia|]. right. reflexivity.
Qed.

(** A value that comes from var(): an error without a place crashes the application, although the same value written out is only reported. *)
Theorem C94_var_value_refuted : forall printed code, dynamic_value printed (inr (mkerr code Unlocated)) = None /\
  forall m pre part post id name, m <> Ignore -> m <> ReturnError -> custom name = false -> transitions name = false -> animations name = false -> ~ split_char name ->
    load m (pre ++ part ++ post) [TInner (IRule (inl 1) [D (Decl id name (VBad (mkerr code Unlocated)) (bytes pre, bytes part))])] =
      Some (Loaded [CRuleset [1]] [RError code (bytes pre, bytes pre + bytes part)]).
Proof.
  intros printed code. split; [reflexivity|]. intros m pre part post id name Hm Hm' Hc Ht Ha Hs. rewrite load_bind. cbn [parse_tops parse_inner].
  assert (parse_ditem true (Decl id name (VBad (mkerr code Unlocated)) (bytes pre, bytes part)) = Some (PError (mkerr code (SubStr (bytes pre) (bytes part))))) as E.
  { cbn [parse_ditem]. destruct (parse_value true id name (VBad (mkerr code Unlocated))) eqn:Ev; [|apply parse_value_none in Ev as (_ & Ev); contradiction].
    unfold parse_value in Ev. rewrite custom_spec, Hc in Ev. destruct (prefix_ci name (tx "transition")) as [[]|] eqn:Et; [| |discriminate].
    { apply (prefix_some _ _ _ low_transition) in Et. unfold transitions in Ht. congruence. }
    destruct (prefix_ci name (tx "animation")) as [[]|] eqn:Ea; [| |discriminate].
    { apply (prefix_some _ _ _ low_animation) in Ea. unfold animations in Ha. congruence. }
    injection Ev as <-. reflexivity. }
  unfold parse_body. cbn [map parse_bitem all]. rewrite E. cbn [option_map bind map process process_rule process_prop]. rewrite !seq_cons. cbn [process_prop].
  unfold add_error. cbn [e_place e_code].
  pose proof (C93_part pre part post) as Hp. cbn [improve] in Hp. rewrite Hp. cbn [option_map seq join fst snd app].
  unfold finish. cbn [existsb is_error orb snd]. destruct m; try contradiction; reflexivity.
Qed.
(** variables that stand for nothing *)
Theorem C94_empty_var_refuted : forall n code, dynamic_value [] (inr (mkerr code (error_behind [] n))) = None.
Proof. reflexivity. Qed.
(** otherwise such a value is reported *)
Theorem C94_var_value_partial : forall printed e, e_place e <> Unlocated -> into_range (e_place e) printed <> None -> exists r, dynamic_value printed (inr e) = Some (inr [r]) /\ reported_at printed e r.
Proof.
  intros printed e _ H. unfold dynamic_value, add_error. destruct (into_range (e_place e) printed) as [r|] eqn:E; [|congruence]. cbn. eexists. split; [reflexivity|]. exists r. auto.
Qed.

Print Assumptions C93_reported_where_it_is_partial. Print Assumptions C93_reported_range. Print Assumptions C93_positions. Print Assumptions C93_part. Print Assumptions C93_other_newlines_refuted.
Print Assumptions C93_end_of_text_refuted. Print Assumptions C93_last_character_refuted. Print Assumptions C93_printed_length_refuted. Print Assumptions C93_unknown_at_rule_refuted.
Print Assumptions C94_crashes_exactly_when. Print Assumptions C94_every_mistake_once_partial. Print Assumptions C94_modes. Print Assumptions C94_rest_loaded. Print Assumptions C94_unknown_motion_refuted.
Print Assumptions C94_duplicate_keyframes_refuted. Print Assumptions C94_font_face_refuted. Print Assumptions C94_property_name_refuted. Print Assumptions C94_var_value_refuted. Print Assumptions C94_empty_var_refuted. Print Assumptions C94_var_value_partial.
