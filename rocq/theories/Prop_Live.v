(** C105: from style sheets to components, although only marked nodes are looked at. *)
From Coq Require Import Ascii String NArith.
From Verif Require Import Base Tree TreeSpec Vars VarsSpec Siblings Media MediaSpec Invalidation InvalidationSpec Matching MatchingSpec MatchingProofs Specificity SpecificitySpec Follow FollowSpec Layers Cascade Whole WholeSpec Live LiveSpec LiveProofs.
From Verif Require VarFlow Inherit InheritSpec Pipeline Prop_Pipeline Prop_Follow FollowProofs.
Open Scope string_scope.
Open Scope list_scope.

(** C105.  From the start of an application, through any number of updates in which nodes are spawned, despawned, moved and reordered,
    get and lose classes, ids, attributes and states, style sheets arrive and change, and inline styles, themes and window sizes change:
    after the last one every property of every node has exactly one CSS value (WholeSpec.v), and if that is a value, it is what the
    component shows.  Unlike in C103 nothing is assumed about which nodes are noticed when other rules apply: they are those that the
    flags of earlier matchings, and the media features asked for, lead to.
    Partial: for the histories of [live_from_start] (LiveSpec.v), where what is missing is false: C14_*_refuted, C35_*_refuted,
    C82_moved_refuted, C83_class_first_refuted, C84_*_refuted, C104_unstyled_parent_refuted; no transitions, animations. *)
Theorem C105_live_partial :
  forall (V CN TP AP KN KF FF f32 : Type) (veq : forall a b : V, {a = b} + {a <> b}) (feq fle fge : f32 -> f32 -> bool)
    (resolve_name : CN -> option nat) type_ok (path_ok : FF -> bool) placeholder np initial (decode : nat -> Inherit.pvalue V) unset_code nodes
    (ms : list (moment CN TP AP KN KF FF f32)) (last : moment CN TP AP KN KF FF f32),
  let sheet_builds := loaded resolve_name type_ok path_ok placeholder in
  let value := css feq fle fge resolve_name placeholder initial decode unset_code sheet_builds (situation_of last) in
  (forall p, decode (unset_code p) <> Inherit.PUnset) ->
  live_from_start resolve_name placeholder decode unset_code sheet_builds nodes (ms ++ [last]) ->
  exists m0, forall mf, m0 <= mf -> exists n0, forall fuel, n0 <= fuel -> forall before, exists s,
    updates veq feq fle fge resolve_name type_ok path_ok placeholder np initial decode unset_code nodes mf fuel (ms ++ [last]) (start before) = Some s /\
    forall n p, In n (l_alive last) -> p < np ->
      (exists! c, value p n c) /\ forall v, value p n (Inherit.CVal v) -> Pipeline.shown (lv_pipe s) n p = v.
Proof.
  intros V CN TP AP KN KF FF f32 veq feq fle fge resolve_name type_ok path_ok placeholder np initial decode unset_code nodes ms m sb value Hu H.
  assert (exists m0, live_history resolve_name placeholder decode unset_code sb nodes (nothing (l_ratio m0) (l_media m0)) (ms ++ [m])) as [x Hh] by (destruct ms as [|y ms]; [exists m|exists y]; exact H).
  pose proof (history_last _ _ _ _ _ _ _ _ _ _ Hh) as S. destruct (matching_ok _ _ (proj1 (proj1 S))) as [m0 M]. exists m0. intros mf Hm.
  destruct (history_fuel feq fle fge resolve_name type_ok path_ok placeholder np initial decode unset_code nodes _ _ Hh) as [n0 Hf]. exists n0. intros fuel Hfu bef.
  destruct (history_inv veq feq fle fge resolve_name type_ok path_ok placeholder np initial decode unset_code nodes Hu mf fuel (ms ++ [m]) _ (start bef) Hh (Hf fuel Hfu)) as (s & E & I); [apply start_inv|].
  exists s. split; [exact E|]. rewrite last_last in I. intros n p Hn Hp. apply (live_result feq fle fge resolve_name type_ok path_ok placeholder np initial decode unset_code nodes mf m s n p); auto.
Qed.
Print Assumptions C105_live_partial.

(** ** A concrete application: the children 1 (.a) and 2 (.b) of 0, and
    [.a + .b { p0: 10 }  @media (prefers-color-scheme: dark) { .b { p1: 20 } }  :root { p0: 5 }];  property 0 is inherited by default.
    The nodes are spawned; their style sheet arrives; the window becomes dark; 1 loses its class; 1 is despawned. *)
Definition sel (m : media_selectors unit) (s : complex) : css_selector complex (media_selectors unit) := {| layer := []; media := m; selector := s |}.
Definition the_sheet : builder complex (media_selectors unit) nat VarFlow.toks unit nat ((list nat -> option (list (nat * nat))) * VarFlow.toks) unit unit unit unit unit :=
  mk_builder [] [] [mk_ruleset [] [BSpecific (RefId 0) 14] [] []; mk_ruleset [] [BSpecific (RefId 1) 24] [] []; mk_ruleset [] [BSpecific (RefId 0) 9] [] []] []
    [(sel [] (Then [Class "b"] NextSibling (One [Class "a"])), 0); (sel [MColorScheme unit Dark] (One [Class "b"]), 1); (sel [] (One [Root]), 2)].
Definition features (c : color_scheme) : provider unit := {| p_color_scheme := Some c; p_resolution := None; p_width := None; p_height := None |}.
Definition mom (l : list nat) (cls : nat -> list string) (there : bool) (c : color_scheme) (kids data reset : list nat) (theme : bool) : moment unit unit unit unit unit unit unit :=
  let no := fun _ : nat => false in
  mk_moment (Prop_Follow.flat l cls) (fun n => if (Nat.eqb n 0 || mem n l)%bool then if there then Some the_sheet else None else None) (fun _ => None) (fun _ => features c) (fun _ => tt)
    (0 :: l) (fun n => mem n kids) (fun n => mem n data) no no no no no (fun n => mem n reset) (fun _ => theme) no.
Definition only_b (n : nat) : list string := match n with 2 => ["b"] | _ => [] end.
Definition story := [mom [1; 2] Prop_Follow.classes false Light [0] [0; 1; 2] [0; 1; 2] false; mom [1; 2] Prop_Follow.classes true Light [] [] [] false;
  mom [1; 2] Prop_Follow.classes true Dark [] [] [] true; mom [1; 2] only_b true Dark [] [1] [] false].
Definition story_end := mom [2] only_b true Dark [0] [1] [] false.
Definition never (a b : unit) := false.
Definition no_name (c : unit) : option nat := None.
Notation the_loaded := (loaded no_name (fun _ _ => true) (fun _ : unit => true) (fun v => v)).
Example C105_example :
  let run ms := option_map (fun s => (Pipeline.shown (lv_pipe s) 1 0, Pipeline.shown (lv_pipe s) 2 0, Pipeline.shown (lv_pipe s) 2 1))
    (updates Nat.eq_dec never never never no_name (fun _ _ => true) (fun _ => true) (fun v => v) 2 (fun _ => 0) Prop_Pipeline.dec Prop_Pipeline.unsets [0; 1; 2] 9 9 ms (start (fun _ _ => 77))) in
  run (firstn 1 story) = Some (77, 77, 77) /\ run (firstn 2 story) = Some (5, 10, 77) /\ run (firstn 3 story) = Some (5, 10, 20) /\ run story = Some (5, 5, 20) /\ run (story ++ [story_end]) = Some (5, 5, 20).
Proof. repeat split; vm_compute; reflexivity. Qed.
Lemma the_sheet_loads : the_loaded the_sheet.
Proof. eexists. vm_compute. reflexivity. Qed.
Lemma mom_sane l cls there c kids data reset theme : NoDup l -> (forall n, In n l -> In n [1; 2]) -> (forall n, In n reset) \/ reset = [] \/ reset = [0; 1; 2] ->
  live_sane no_name (fun v => v) Prop_Pipeline.dec Prop_Pipeline.unsets the_loaded [0; 1; 2] (mom l cls there c kids data reset theme).
Proof.
  intros N I R. assert (Z : ~ In 0 l) by (intros H; apply I in H; cbn in H; intuition discriminate).
  assert (Sh : forall n b, l_sheet (mom l cls there c kids data reset theme) n = Some b -> b = the_sheet /\ In n (0 :: l)).
  { intros n b H. cbn [l_sheet mom] in H. destruct (Nat.eqb_spec n 0) as [->|Hz]; cbn [orb] in H; [destruct there; [|discriminate]; injection H as <-; split; [reflexivity|left; reflexivity]|].
    destruct (mem n l) eqn:E; [|discriminate]. destruct there; [|discriminate]. injection H as <-. split; [reflexivity|right; apply FollowProofs.mem_In, E]. }
  split; [|split; [|split]].
  - split; [|split; [|split; [|split; [|split; [|split; [|split]]]]]].
    + apply Prop_Follow.flat_consistent; [exact N|exact Z|intros n H; right; exact H].
    + constructor; assumption.
    + intros n p H. cbn in H. destruct (mem n l); [|discriminate]. injection H as <-. left. reflexivity.
    + intros n [H|H]; [left; exact H|right; auto].
    + intros n b H. apply Sh in H as [-> _]. intros s i Hi. cbn in Hi. destruct Hi as [H|[H|[H|[]]]]; injection H as <- <-; (split; [discriminate|]); (split; [cbn; auto|]).
      * exists (0, 2, 0). split; [|unfold countable; lia]. apply (cc_then _ _ _ (0, 1, 0) (0, 1, 0)); [apply (cp_cons _ _ (0, 1, 0) (0, 0, 0)); constructor|constructor; apply (cp_cons _ _ (0, 1, 0) (0, 0, 0)); constructor].
      * exists (0, 1, 0). split; [|unfold countable; lia]. constructor. apply (cp_cons _ _ (0, 1, 0) (0, 0, 0)); constructor.
      * exists (0, 1, 0). split; [|unfold countable; lia]. constructor. apply (cp_cons _ _ (0, 1, 0) (0, 0, 0)); constructor.
    + intros n b H. apply Sh in H as [_ H]. exact H.
    + intros r p v Hv _. split; [|intros n d []]. intros n b rs d Hb _ Hrs Hd Hg. apply Sh in Hb as [-> _]. cbn in Hrs.
      destruct Hrs as [<-|[<-|[<-|[]]]]; cbn in Hd; destruct Hd as [<-|[]]; cbn in Hg; destruct Hg as [_ <-]; discriminate.
    + intros n m Hp [H|H]; [discriminate|]. right. right. right. cbn in Hp. destruct (mem n l) eqn:E; [|discriminate]. cbn in H |- *. apply FollowProofs.mem_In.
      destruct R as [R|[->| ->]]; [auto|discriminate|]. right. apply I, FollowProofs.mem_In, E.
  - intros n. cbn. unfold Prop_Follow.flat_data. destruct (Nat.eqb_spec n 0) as [->|Hz]; cbn [orb]; [split; [left; reflexivity|discriminate]|].
    destruct (mem n l) eqn:E; [apply FollowProofs.mem_In in E; split; [right; exact E|discriminate]|]. split; [intros H; exfalso; apply H; reflexivity|]. intros [H|H]; [congruence|]. apply FollowProofs.mem_In in H. congruence.
  - intros n s (b & sel & id & Hb & _ & Hi & ->). apply Sh in Hb as [-> _]. cbn in Hi. destruct Hi as [H|[H|[H|[]]]]; injection H as <- <-; cbn; tauto.
  - destruct there.
    + right. intros n p Hp. cbn in Hp. destruct (mem n l) eqn:E; [|discriminate]. injection Hp as <-. exists (Then [Class "b"] NextSibling (One [Class "a"])). split.
      * exists the_sheet, (sel [] (Then [Class "b"] NextSibling (One [Class "a"]))), 0. split; [reflexivity|]. split; [exact the_sheet_loads|]. split; [left; reflexivity|reflexivity].
      * left. eauto.
    + left. intros n s (b & sel & id & Hb & _). cbn in Hb. destruct (Nat.eqb n 0 || mem n l)%bool; discriminate.
Qed.
Lemma flat_below l n d : ~ In 0 l -> descendant (Prop_Follow.flat_tree l) n d -> n = 0 /\ In d l.
Proof.
  intros Z H. assert (K : forall a b, parent (Prop_Follow.flat_tree l) a = Some b -> b = 0 /\ In a l) by (intros a b E; cbn in E; destruct (mem a l) eqn:Em; [|discriminate]; injection E as <-; split; [reflexivity|apply FollowProofs.mem_In, Em]).
  destruct H as [e He|p e H He]; [exact (K _ _ He)|]. destruct (K _ _ He) as [-> _]. exfalso. inversion H as [e' E|p e' _ E]; subst; destruct (K _ _ E); contradiction.
Qed.
Ltac cases n := destruct n as [|[|[|n]]].
Lemma story_ok : live_from_start no_name (fun v => v) Prop_Pipeline.dec Prop_Pipeline.unsets the_loaded [0; 1; 2] (story ++ [story_end]).
Proof.
  cbn [story app live_from_start live_history].
  repeat match goal with
  | |- live_sane _ _ _ _ _ _ _ /\ _ => split; [apply mom_sane; [repeat constructor; cbn; intuition discriminate|intros n Hn; cbn in *; tauto|auto]|]
  | |- live_goes_on _ _ _ /\ _ => split; [split; [|split; [|split; [|split; [|split; [|split; [|split; [|split]]]]]]]|]
  | |- True => exact I
  | |- forall n, In n _ -> l_data _ n = false -> _ => let n := fresh in intros n Ha Hd; cases n; cbn in *; try discriminate; try (exfalso; intuition discriminate); split; reflexivity
  | |- forall n, In n _ -> l_style _ n = false -> _ => reflexivity
  | |- forall p, In p _ -> l_children _ p = false -> _ => let n := fresh in intros n Hd Hc; cases n; cbn in *; try discriminate; reflexivity
  | |- forall n, In n _ -> _ -> l_theme _ n = false -> _ => let n := fresh in intros n _ H0 Hl; cbn in *; try discriminate; try (exfalso; apply H0; reflexivity); reflexivity
  | |- forall n, In n _ -> _ -> l_info _ n = false -> _ => intros; repeat split
  | |- forall a n, l_modified _ a = true \/ _ -> _ => intros a n [Hm|Hm]; discriminate
  | |- forall n b, In n _ -> l_sheet _ n = Some b -> _ => let n := fresh in intros n b Ha Hb Hl; first [discriminate Hb|cases n; cbn in Ha, Hb; try discriminate Hb; try (exfalso; intuition discriminate); injection Hb as <-; (split; [exists the_sheet; split; [reflexivity|exact Hl]|left; reflexivity])]
  | |- forall n d, _ -> descendant _ _ _ -> _ => intros n d Hp Hd; exfalso; first [apply Hp; reflexivity|apply flat_below in Hd as (-> & _); [apply Hp; reflexivity|cbn; intuition discriminate]]
  | |- forall n, In n _ -> ~ In n _ -> _ => let n := fresh in intros n Ha Hb; cbn in *; intuition (subst; reflexivity)
  end.
Qed.
