(** C36: focus. *)
From Verif Require Import Base Focus FocusSpec.

Lemma opt_eqb_eq a b : opt_eqb a b = true <-> a = b.
Proof. destruct a as [x|], b as [y|]; cbn; rewrite ?Nat.eqb_eq; split; congruence. Qed.
Definition synced (f : fframe) (s : styles * option nat) : Prop :=
  snd s = focus_of f /\ forall e, styled f e = true ->
    fst s e = Some (mk_focus (opt_eqb (focus_of f) (Some e)) (opt_eqb (focus_of f) (Some e) && visible_of f)).

Lemma frame_synced f0 f s : faithful f0 f -> styled_before_focus f0 f -> synced f0 s -> synced f (focus_frame f s).
Proof.
  intros (Hf & Hv & Hs) Hb (P & D).
  assert (D0 : forall e, styled f e = true -> data_at f (fst s) e =
     Some (if fresh f e then mk_focus false false else mk_focus (opt_eqb (focus_of f0) (Some e)) (opt_eqb (focus_of f0) (Some e) && visible_of f0))).
  { intros e He. unfold data_at. rewrite He. destruct (fresh f e) eqn:F; [reflexivity|]. apply D. auto. }
  unfold focus_frame, sync_input_focus. rewrite P.
  destruct (negb (focus_changed f) || opt_eqb (focus_of f) (focus_of f0)) eqn:C.
  - assert (E : focus_of f = focus_of f0).
    { apply orb_true_iff in C. destruct C as [C|C]; [|apply opt_eqb_eq; exact C]. rewrite negb_true_iff in C.
      destruct (opt_eqb (focus_of f) (focus_of f0)) eqn:Q; [apply opt_eqb_eq; exact Q|].
      rewrite Hf in C; [discriminate|]. intros G. apply opt_eqb_eq in G. congruence. }
    split; [cbn; congruence|]. intros e He. cbn.
    assert (Fr : fresh f e = true -> opt_eqb (focus_of f) (Some e) = false).
    { intros F. apply not_true_iff_false. rewrite opt_eqb_eq. intros G. apply (Hb e F G). congruence. }
    assert (V : visible_changed f = false -> visible_of f = visible_of f0).
    { intros G. destruct (visible_of f) eqn:V1, (visible_of f0) eqn:V2; try reflexivity; rewrite Hv in G; congruence. }
    specialize (D0 e He). rewrite <- E in D0.
    destruct (visible_changed f) eqn:Vc.
    + unfold write. rewrite <- E. destruct (focus_of f) as [x|]; cbn in *.
      * rewrite (Nat.eqb_sym e x). destruct (x =? e) eqn:Q; rewrite D0; cbn; destruct (fresh f e); try reflexivity. specialize (Fr eq_refl). discriminate.
      * rewrite D0. destruct (fresh f e); reflexivity.
    + rewrite D0, (V eq_refl). destruct (fresh f e); [rewrite (Fr eq_refl); reflexivity|reflexivity].
  - apply orb_false_iff in C. destruct C as [_ C]. split; [reflexivity|]. intros e He. cbn [fst]. specialize (D0 e He).
    set (d := data_at f (fst s)) in *. unfold write. destruct (focus_of f) as [x|] eqn:Ex.
    + cbn [opt_eqb]. rewrite (Nat.eqb_sym e x). destruct (x =? e) eqn:Q.
      * cbn in C. destruct (focus_of f0) as [y|] eqn:Ey; [|rewrite D0; reflexivity].
        destruct (Nat.eqb e y); rewrite D0; reflexivity.
      * cbn. destruct (focus_of f0) as [y|] eqn:Ey; cbn in *.
        -- rewrite (Nat.eqb_sym e y). destruct (y =? e); rewrite D0; cbn; destruct (fresh f e); reflexivity.
        -- rewrite D0. destruct (fresh f e); reflexivity.
    + cbn. destruct (focus_of f0) as [y|] eqn:Ey; cbn in *.
      * rewrite (Nat.eqb_sym e y). destruct (y =? e); rewrite D0; cbn; destruct (fresh f e); reflexivity.
      * discriminate.
Qed.

(** C36 (partial).  Along every history in which no entity gets its style data while it holds the focus:
    after every frame exactly the focused entity is :focus, and :focus-visible iff focus is visible. *)
Theorem C36_exactly_the_focused_entity_partial :
  forall fs, chained faithful no_focus fs -> chained styled_before_focus no_focus fs ->
  forall e, styled (last fs no_focus) e = true ->
  exists s, after_frames fs e = Some s /\
    (focused s = true <-> focus_of (last fs no_focus) = Some e) /\
    (focused_and_visible s = true <-> focus_of (last fs no_focus) = Some e /\ visible_of (last fs no_focus) = true).
Proof.
  assert (G : forall fs f0 s, synced f0 s -> chained faithful f0 fs -> chained styled_before_focus f0 fs -> synced (last fs f0) (fold_left (fun s f => focus_frame f s) fs s)).
  { induction fs as [|f fs IH]; intros f0 s S F B; [exact S|]. destruct F as [F1 F2], B as [B1 B2].
    assert (L : forall (x : fframe) l d, last (x :: l) d = last l x).
    { intros x l. revert x. induction l as [|y l IHl]; intros x d; [reflexivity|]. change (last (y :: l) d = last (y :: l) x). rewrite (IHl y d), (IHl y x). reflexivity. }
    rewrite L. apply (IH f); [exact (frame_synced f0 f s F1 B1 S)|exact F2|exact B2]. }
  intros fs F B e He. destruct (G fs no_focus (fun _ => None, None)) as [_ D]; [split; [reflexivity|discriminate]|exact F|exact B|].
  specialize (D e He). eexists. split; [exact D|]. cbn. rewrite andb_true_iff, opt_eqb_eq. tauto.
Qed.
Print Assumptions C36_exactly_the_focused_entity_partial.

(** C36, without the [InputFocusVisible] resource: the focused entity is :focus, nothing is ever :focus-visible. *)
Definition unseen (f : fframe) : fframe := mk_fframe (focus_of f) (focus_changed f) false false (styled f) (fresh f).
Lemma unseen_faithful fs : forall f0, chained faithful f0 fs -> chained faithful (unseen f0) (map unseen fs).
Proof.
  induction fs as [|f fs IH]; intros f0 H; [exact I|]. destruct H as [(H1 & H2 & H3) H]. split; [|apply IH; exact H].
  repeat split; cbn; [exact H1|congruence|exact H3].
Qed.
Lemma unseen_styled fs : forall f0, chained styled_before_focus f0 fs -> chained styled_before_focus (unseen f0) (map unseen fs).
Proof. induction fs as [|f fs IH]; intros f0 H; [exact I|]. destruct H as [H1 H]. split; [exact H1|apply IH; exact H]. Qed.
Lemma last_unseen fs : last (map unseen fs) no_focus = unseen (last fs no_focus).
Proof. induction fs as [|f [|g fs] IH]; [reflexivity|reflexivity|exact IH]. Qed.
Lemma without_visible_frames fs : after_frames_by focus_frame_without_visible fs = after_frames (map unseen fs).
Proof.
  unfold after_frames_by, after_frames. generalize ((fun _ => None, None) : styles * option nat).
  induction fs as [|f fs IH]; intros s; [reflexivity|exact (IH _)].
Qed.
Theorem C36_without_focus_visible_partial :
  forall fs, chained faithful no_focus fs -> chained styled_before_focus no_focus fs ->
  forall e, styled (last fs no_focus) e = true ->
  exists s, after_frames_by focus_frame_without_visible fs e = Some s /\
    (focused s = true <-> focus_of (last fs no_focus) = Some e) /\ focused_and_visible s = false.
Proof.
  intros fs F B e He. rewrite without_visible_frames.
  destruct (C36_exactly_the_focused_entity_partial (map unseen fs) (unseen_faithful fs _ F) (unseen_styled fs _ B) e) as (s & A & P & Q).
  { rewrite last_unseen. exact He. }
  exists s. rewrite last_unseen in P, Q. split; [exact A|]. split; [exact P|].
  destruct (focused_and_visible s); [|reflexivity]. destruct Q as [Q _]. destruct (Q eq_refl) as [_ G]. discriminate G.
Qed.
Print Assumptions C36_without_focus_visible_partial.

(** C36, without the [InputFocus] resource nothing is ever :focus or :focus-visible. *)
Theorem C36_without_focus :
  forall visible fs e s,
  after_frames_by (fun f => focus_frame_without_focus (visible f) f) fs e = Some s -> s = mk_focus false false.
Proof.
  intros visible fs e s. unfold after_frames_by.
  assert (G : forall fs p, (forall s, fst p e = Some s -> s = mk_focus false false) ->
    forall s, fst (fold_left (fun s f => focus_frame_without_focus (visible f) f s) fs p) e = Some s -> s = mk_focus false false).
  { clear. induction fs as [|f fs IH]; intros p H; [exact H|]. apply IH. cbn. unfold data_at. intros s.
    destruct (styled f e); [|discriminate]. destruct (fresh f e); [congruence|apply H]. }
  apply G. discriminate.
Qed.
Print Assumptions C36_without_focus.

(** C36, what is missing is false: an entity that is focused before it gets its style data never becomes
    :focus, however many frames pass. *)
Theorem C36_focused_before_styled_refuted :
  forall n, let f0 := mk_fframe (Some 1) true false true (fun _ => false) (fun _ => false) in
  let f1 := mk_fframe (Some 1) false false false (Nat.eqb 1) (Nat.eqb 1) in
  let f2 := mk_fframe (Some 1) false false false (Nat.eqb 1) (fun _ => false) in
  let fs := f0 :: f1 :: repeat f2 n in
  chained faithful no_focus fs /\ after_frames fs 1 = Some (mk_focus false false).
Proof.
  intros n f0 f1 f2 fs. split.
  - assert (H : faithful no_focus f0 /\ faithful f0 f1 /\ faithful f1 f2 /\ faithful f2 f2) by (repeat split; cbn; auto; try congruence; intros e He G; congruence).
    destruct H as (H1 & H2 & H3 & H4). split; [exact H1|]. split; [exact H2|]. clear -H3 H4. destruct n as [|n]; [exact I|]. split; [exact H3|]. induction n; [exact I|]. split; assumption.
  - unfold after_frames. cbn [fold_left fs].
    assert (G : forall n s, snd s = Some 1 -> fst s 1 = Some (mk_focus false false) -> fst (fold_left (fun s f => focus_frame f s) (repeat f2 n) s) 1 = Some (mk_focus false false)).
    { clear. induction n as [|n IH]; intros s P D; [exact D|]. cbn [repeat fold_left]. apply IH; cbn; [exact P|]. exact D. }
    apply G; reflexivity.
Qed.
Print Assumptions C36_focused_before_styled_refuted.

(** focus moves 1 -> 2 -> none while visibility is switched on *)
Example C36_witness :
  let all e := Nat.ltb e 4 in
  let fs := [mk_fframe (Some 1) true false true all all; mk_fframe (Some 1) false true true all (fun _ => false); mk_fframe (Some 2) true true false all (fun _ => false)] in
  chained faithful no_focus fs /\ chained styled_before_focus no_focus fs /\
  map (after_frames fs) [1; 2] = [Some (mk_focus false false); Some (mk_focus true true)].
Proof.
  repeat split; cbn; auto; try congruence; intros e; try (intros H1 H2; congruence); try discriminate.
Qed.

(** the same without the resources: 2 is :focus in the first application, nothing is in the second *)
Example C36_without_witness :
  let all e := Nat.ltb e 4 in
  let fs := [mk_fframe (Some 1) true false true all all; mk_fframe (Some 1) false true true all (fun _ => false); mk_fframe (Some 2) true true false all (fun _ => false)] in
  map (after_frames_by focus_frame_without_visible fs) [1; 2] = [Some (mk_focus false false); Some (mk_focus true false)] /\
  map (after_frames_by (focus_frame_without_focus (Some (true, true))) fs) [1; 2] = [Some (mk_focus false false); Some (mk_focus false false)].
Proof. split; reflexivity. Qed.
