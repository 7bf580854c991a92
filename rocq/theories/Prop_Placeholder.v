(** C88: names of fonts and paths of assets. *)
From Coq Require Import String.
From Verif Require Import Base Inherit InheritSpec InheritProofs Placeholder PlaceholderSpec PlaceholderProofs.

(** C88.  In a sheet: every value that names a font or an asset is replaced by what it means, and values that name nothing are dropped;
    declarations with var() stay; the sheet is refused exactly if a font face has a path that is none. *)
Theorem C88_sheet_values :
  forall (load : string -> option nat) (faces : list (string * string)) (ds : list declaration),
  (build load faces ds = None <-> exists face, In face faces /\ load (snd face) = None) /\
  forall fonts ds', build load faces ds = Some (fonts, ds') ->
    (forall name h, face_of fonts name h <-> exists path, face_of faces name path /\ load path = Some h) /\
    Forall2 (fun d d' => match d, d' with
                         | Specific p v, Specific p' v' => p' = p /\ named load fonts v v'
                         | Dynamic p t, Dynamic p' t' => p' = p /\ t' = t
                         | _, _ => False end) ds ds'.
Proof.
  intros load faces ds.
  assert (K : (resolve_font_faces load faces = None <-> exists face, In face faces /\ load (snd face) = None) /\
              forall fonts, resolve_font_faces load faces = Some fonts -> Forall2 (fun a b => fst b = fst a /\ load (snd a) = Some (snd b)) faces fonts).
  { induction faces as [|[family path] r [IH1 IH2]]; cbn [resolve_font_faces].
    - split; [split; [discriminate|intros (x & [] & _)]|]. intros fonts E. injection E as <-. constructor.
    - destruct (load path) as [h|] eqn:El.
      + destruct (resolve_font_faces load r) as [l|] eqn:Er.
        * split; [split; [discriminate|]|].
          -- intros (x & [<-|Hx] & Hn); [cbn in Hn; congruence|]. exfalso. assert (Hc : Some l = None) by (apply IH1; eauto). discriminate.
          -- intros fonts E. injection E as <-. constructor; [split; [reflexivity|exact El]|apply IH2; reflexivity].
        * split; [|discriminate]. split; [intros _|reflexivity]. destruct (proj1 IH1 eq_refl) as (x & Hx & Hn). exists x. split; [right; exact Hx|exact Hn].
      + split; [|discriminate]. split; [intros _|reflexivity]. exists (family, path). split; [left; reflexivity|exact El]. }
  destruct K as [K1 K2]. unfold build. split; [destruct (resolve_font_faces load faces); cbn; rewrite <- K1; split; discriminate || reflexivity|].
  intros fonts ds' E. destruct (resolve_font_faces load faces) as [fs|]; [|discriminate]. cbn in E. injection E as <- <-. specialize (K2 fs eq_refl). split.
  - assert (M : map fst fs = map fst faces) by (clear -K2; induction K2 as [|x y l l' [E _] _ IH]; [reflexivity|cbn; rewrite E, IH; reflexivity]).
    intros name h. split.
    + intros (l1 & l2 & -> & Hn). apply Forall2_app_inv_r in K2. destruct K2 as (k1 & k2 & F1 & F2 & ->). inversion F2 as [|[fam path] y k l' [E1 E2] F3]; subst. cbn in *. subst fam.
      exists path. split; [|exact E2]. exists k1, k. split; [reflexivity|]. assert (Mk : map fst l2 = map fst k) by (clear -F3; induction F3 as [|x y l l' [E _] _ IH]; [reflexivity|cbn; rewrite E, IH; reflexivity]). rewrite <- Mk. exact Hn.
    + intros (path & (l1 & l2 & -> & Hn) & El). apply Forall2_app_inv_l in K2. destruct K2 as (k1 & k2 & F1 & F2 & ->). inversion F2 as [|y [fam h'] l' k [E1 E2] F3]; subst. cbn in *. subst fam. rewrite El in E2. injection E2 as <-.
      exists k1, k. split; [reflexivity|]. assert (Mk : map fst k = map fst l2) by (clear -F3; induction F3 as [|x y l l' [E _] _ IH]; [reflexivity|cbn; rewrite E, IH; reflexivity]). rewrite Mk. exact Hn.
  - clear K1 K2. induction ds as [|d ds IH]; cbn; constructor; [|exact IH]. destruct d as [p v|p t]; [|cbn; auto]. cbn. destruct v as [| | | |v]; try (split; [reflexivity|]; apply nm_other; discriminate).
    destruct v as [h|path|name]; cbn.
    + split; [reflexivity|]. apply nm_value. constructor.
    + destruct (load path) eqn:E; (split; [reflexivity|]); constructor; rewrite <- E; constructor.
    + destruct (find_font fs name) eqn:E; (split; [reflexivity|]); constructor; constructor; [apply find_face, E|apply find_none, E].
Qed.
Print Assumptions C88_sheet_values.

(** C88.  While the application runs: names that come from var(), from an inline style, or are inherited are computed as if they were replaced
    by what they mean where they are declared; along every history.
    Partial: all nodes have the same font faces (C88_other_sheet_refuted), the conditions of C14, no transitions. *)
Theorem C88_names_partial :
  forall (load : string -> option nat) np unset initial (w0 : world value) hs1 fonts b hs2,
  (forall p, unset p <> PUnset) -> (forall p v, unset p = PVal v -> exists h, v = Plain h) -> (forall p, exists h, initial p = Plain h) ->
  (forall n p, can_transition (w0 n) p = false) ->
  font_history unset [] before_start (hs1 ++ (fonts, b) :: hs2) ->
  let w := fold_left (fun w m => run_frame load np unset initial (fun _ => Some (fst m)) (at_frame (snd m)) w) (hs1 ++ [(fonts, b)]) w0 in
  forall n p, In n (map snd (f_visits (at_frame b))) -> p < np ->
  forall meant, all_named load fonts (at_declared b) meant -> forall c, value_at (at_parent b) meant unset initial p n c <-> computed (w n) p = c.
Proof.
  intros load np unset initial w0 hs1 fonts b hs2 Hu Hup Hip Ht Hh w n p Hn Hp mt Hmt c.
  assert (G : good load np unset initial fonts b w).
  { assert (K : forall hs fa a v, good load np unset initial fa a v -> font_history unset fa a (hs ++ (fonts, b) :: hs2) ->
                good load np unset initial fonts b (fold_left (fun w m => run_frame load np unset initial (fun _ => Some (fst m)) (at_frame (snd m)) w) (hs ++ [(fonts, b)]) v)).
    { induction hs as [|[fc c0] hs IH]; intros fa a v Hg Hf; cbn [app font_history] in Hf; destruct Hf as (H1 & H2 & H3); cbn [app fold_left fst snd].
      - apply (frame_good load np unset initial Hu Hup Hip fa fonts a b v Hg H1 H2). reflexivity.
      - apply (IH fc c0); [|exact H3]. apply (frame_good load np unset initial Hu Hup Hip fa fc a c0 v Hg H1 H2). reflexivity. }
    apply (K hs1 [] before_start w0); [|exact Hh]. split; [exact Ht|]. intros x []. }
  destruct G as [_ G]. destruct (G n Hn) as (_ & _ & _ & Gv). destruct (Gv p Hp) as [Gp _].
  assert (X : forall D D' : nat -> option (nat -> pvalue value), (forall m, match D m, D' m with Some d, Some d' => d p = d' p | None, None => True | _, _ => False end) ->
              forall m x, value_at (at_parent b) D unset initial p m x -> value_at (at_parent b) D' unset initial p m x).
  { intros D D' HD m x Hv. induction Hv as [m E|m d x E1 E2 E3|m d q cm x E1 E2 Hq IH E3]; specialize (HD m).
    - rewrite E in HD. destruct (D' m) eqn:E'; [contradiction|]. apply at_unstyled, E'.
    - rewrite E1 in HD. destruct (D' m) as [d'|] eqn:E'; [|contradiction]. eapply at_root; [exact E'|exact E2|]. rewrite <- HD. exact E3.
    - rewrite E1 in HD. destruct (D' m) as [d'|] eqn:E'; [|contradiction]. eapply at_child; [exact E'|exact E2|exact IH|]. rewrite <- HD. exact E3. }
  assert (Y : forall m, match mt m, meant load fonts (at_declared b) m with Some d, Some d' => d p = d' p | None, None => True | _, _ => False end).
  { intros m. specialize (Hmt m). unfold meant. destruct (at_declared b m), (mt m); cbn; try contradiction; [|exact I]. symmetry. apply rd_named, Hmt. }
  split.
  - intros Hv. eapply value_at_fun; [exact Gp|]. eapply X; [exact Y|exact Hv].
  - intros <-. eapply X; [|exact Gp]. intros m. specialize (Y m). destruct (mt m), (meant load fonts (at_declared b) m); try contradiction; [symmetry; exact Y|exact I].
Qed.
Print Assumptions C88_names_partial.

(** ** A concrete application: node 1 below node 0; property 0 is inherited by default *)
Module ExPh.
  Definition load (s : string) : option nat := if string_dec s "a.ttf"%string then Some 7 else if string_dec s "b.png"%string then Some 8 else None.
  Definition par (n : nat) : option nat := match n with 1 => Some 0 | _ => None end.
  Definition vis : list (option nat * nat) := [(None, 0); (Some 0, 1)].
  Definition uns (_ : nat) : pvalue value := PInherit.
  Definition ini (_ : nat) : value := Plain 0.
  Definition nt (_ : nat) : bool := false.
  Definition blank : world value := fun _ => mk_node None None (fun _ => CNone) true (fun _ => CNone) true nt.
  Definition fr (reset : bool) (r c : option (pvalue value)) : frame value :=
    mk_frame (fun _ => reset) (fun n => match n with 0 => option_map (fun x => ((fun _ => x), nt)) r | 1 => option_map (fun x => ((fun _ => x), nt)) c | _ => None end) vis.
  Definition fonts : list (string * nat) := [("Comic"%string, 7)].
  Definition m1 : moment value := mk_moment (fr true (Some (PVal (FontFamily "Comic"%string))) (Some PInherit)) par
    (declared_after (fr true (Some (PVal (FontFamily "Comic"%string))) (Some PInherit)) (at_declared before_start)).
  (** only the child is styled again, with the same values *)
  Definition m2 : moment value := mk_moment (fr false None (Some PInherit)) par (declared_after (fr false None (Some PInherit)) (at_declared m1)).
  Lemma order : tree_order par vis.
  Proof.
    split; [constructor; [intros [H|[]]; discriminate|]; constructor; [intros []|constructor]|].
    intros l1 pm n l2 E. destruct l1 as [|v [|v' l1]]; simpl in E.
    - injection E as <- <- _. split; [reflexivity|discriminate].
    - injection E as <- <- <- _. split; [reflexivity|]. intros m Hm. injection Hm as <-. left; reflexivity.
    - destruct l1; discriminate.
  Qed.
  Lemma declared1 n d p : at_declared m1 n = Some d -> d p <> PUnset.
  Proof. destruct n as [|[|n]]; cbn; intros E; try discriminate; injection E as <-; discriminate. Qed.
  Lemma follows1 : follows uns before_start m1.
  Proof.
    split; [exact order|]. split; [reflexivity|]. split; [reflexivity|]. split; [intros; discriminate|]. split.
    - intros n m [<-|[<-|[]]] E _; [discriminate|left; discriminate].
    - intros n d p Hd Hp. exfalso. exact (declared1 n d p Hd Hp).
  Qed.
  Lemma follows2 : follows uns m1 m2.
  Proof.
    split; [exact order|]. split; [reflexivity|]. split; [intros n H1 H2; contradiction|]. split; [intros n _ _ H; exfalso; apply H; reflexivity|]. split; [intros n m _ _ H; discriminate|].
    intros n d p Hd Hp. exfalso. destruct n as [|[|n]]; cbn in Hd; try discriminate; injection Hd as <-; discriminate.
  Qed.
End ExPh.
(** the child inherits the name and shows the font; so it does when it is styled again *)
Example C88_names_example :
  font_history ExPh.uns [] before_start ([] ++ (ExPh.fonts, ExPh.m1) :: [(ExPh.fonts, ExPh.m2)]) /\
  computed (run_frame ExPh.load 1 ExPh.uns ExPh.ini (fun _ => Some ExPh.fonts) (at_frame ExPh.m1) ExPh.blank 1) 0 = CVal (Plain 7) /\
  build ExPh.load [("Comic", "a.ttf")]%string [Specific 0 (PVal (FontFamily "Comic")); Specific 1 (PVal (AssetPath "no#")); Dynamic 2 5]%string =
    Some (ExPh.fonts, [Specific 0 (PVal (Plain 7)); Specific 1 PNone; Dynamic 2 5]).
Proof.
  split; [|split; vm_compute; reflexivity]. cbn [app font_history]. split; [exact ExPh.follows1|]. split; [|split; [exact ExPh.follows2|split; [|exact I]]].
  - split; [right; reflexivity|]. intros n d t E. destruct n as [|[|n]]; cbn in E; try discriminate; injection E as _ <-; reflexivity.
  - split; [left; reflexivity|]. intros n d t E. destruct n as [|[|n]]; cbn in E; try discriminate; injection E as _ <-; reflexivity.
Qed.

(** With different sheets, what a child inherits depends on the history: the name is looked up in the font faces of the child's sheet if parent and
    child are styled in the same update (here: none, so the child gets no font), but the font is inherited if only the child is styled. *)
Theorem C88_other_sheet_refuted :
  exists load np unset initial (fonts : nat -> option (list (string * nat))) (a b : moment value) (w0 : world value),
    follows unset before_start a /\ follows unset a b /\ (forall n, at_declared b n = at_declared a n) /\ at_parent b = at_parent a /\
    let w1 := run_frame load np unset initial fonts (at_frame a) w0 in let w2 := run_frame load np unset initial fonts (at_frame b) w1 in
    computed (w1 1) 0 = CNone /\ computed (w2 1) 0 = CVal (Plain 7) /\ computed (w1 0) 0 = CVal (Plain 7).
Proof.
  exists ExPh.load, 1, ExPh.uns, ExPh.ini, (fun n => match n with 0 => Some ExPh.fonts | _ => Some [] end), ExPh.m1, ExPh.m2, ExPh.blank.
  split; [exact ExPh.follows1|]. split; [exact ExPh.follows2|]. split; [intros [|[|n]]; reflexivity|]. split; [reflexivity|]. split; [|split]; vm_compute; reflexivity.
Qed.
Print Assumptions C88_other_sheet_refuted.
