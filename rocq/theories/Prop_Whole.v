(** C103: from style sheets to components. *)
From Coq Require Import Ascii String NArith.
From Verif Require Import Base Tree TreeSpec Siblings SiblingsSpec Vars VarsSpec Media MediaSpec Layers Cascade Matching MatchingSpec Specificity SpecificitySpec Whole WholeSpec WholeProofs.
From Verif Require VarFlow Inherit InheritSpec Pipeline PipelineSpec Prop_Pipeline.
Open Scope string_scope.
Open Scope list_scope.

(** C103.  Start an application with any components, and let any number of updates happen, in which nodes are spawned, despawned and
    moved, get and lose classes, ids, attributes and states, and style sheets, inline styles and media change.  After the last one every
    property of every node has exactly one CSS value - the declaration that wins by layer, specificity and source order among the rules
    whose selectors and media queries hold now, with var() replaced, and inheritance - and if that is a value, it is what the
    component shows.
    Partial: for the histories of [from_start] (WholeSpec.v): that a node is noticed when other rules of its sheet apply is assumed
    (C35, C82, C83 are about it), and the known defects C14_*_refuted and C84_*_refuted are left out; pseudo-elements are nodes
    (C101); no transitions, animations. *)
Theorem C103_sheets_to_components_partial :
  forall (V CN TP AP KN KF FF f32 : Type) (veq : forall a b : V, {a = b} + {a <> b}) (feq fle fge : f32 -> f32 -> bool)
    (resolve_name : CN -> option nat) type_ok (path_ok : FF -> bool) placeholder np initial (decode : nat -> Inherit.pvalue V) unset_code nodes
    (ts : list (situation CN TP AP KN KF FF f32)) (last : situation CN TP AP KN KF FF f32),
  let sheet_builds := loaded resolve_name type_ok path_ok placeholder in
  let value := css feq fle fge resolve_name placeholder initial decode unset_code sheet_builds last in
  (forall p, decode (unset_code p) <> Inherit.PUnset) ->
  from_start feq fle fge resolve_name placeholder decode unset_code sheet_builds nodes (ts ++ [last]) ->
  exists m0, forall mf, m0 <= mf -> exists n0, forall fuel, n0 <= fuel -> forall before, exists s,
    Pipeline.updates veq np initial decode unset_code nodes fuel
      (map (frame_of feq fle fge resolve_name type_ok path_ok placeholder mf) (ts ++ [last])) (Pipeline.start before) = Some s /\
    forall n p, In n (s_alive last) -> p < np ->
      (exists! c, value p n c) /\ forall v, value p n (Inherit.CVal v) -> Pipeline.shown s n p = v.
Proof.
  intros V CN TP AP KN KF FF f32 veq feq fle fge resolve_name type_ok path_ok placeholder np initial decode unset_code nodes ts t sb value Hu H.
  pose proof (from_start_last _ _ _ _ _ _ _ _ _ _ _ _ H) as S. destruct (from_start_ok feq fle fge resolve_name type_ok path_ok placeholder initial decode unset_code nodes (ts ++ [t]) H) as [m0 K]. exists m0. intros mf Hf. destruct (K mf Hf) as [Hs Ha]. clear K.
  rewrite map_app in *. cbn [map] in *. destruct (Prop_Pipeline.C87_components_show_css_partial V veq np initial decode unset_code nodes _ _ Hu Hs) as [n0 K]. exists n0. intros fuel Hfuel bef.
  destruct (K fuel Hfuel bef) as (s & E & Hv). exists s. split; [exact E|]. intros n p Hn Hp. destruct (Hv n p Hn Hp) as [(c & Hc & Uc) Hw].
  assert (At : agree mf t) by (rewrite Forall_app in Ha; destruct Ha as [_ Ha]; inversion Ha; assumption).
  assert (Us : forall n b, s_sheet t n = Some b -> usable b) by apply S.
  assert (OK : forall m c, value p m c <-> PipelineSpec.css_value initial decode unset_code (Pipeline.p_flow (frame_of feq fle fge resolve_name type_ok path_ok placeholder mf t)) p m c).
  { intros m c0. symmetry. apply css_ok; assumption. }
  split.
  - exists c. split; [apply OK; exact Hc|]. intros c' Hc'. apply Uc. apply OK. exact Hc'.
  - intros v Hv'. apply Hw. apply OK. exact Hv'.
Qed.
Print Assumptions C103_sheets_to_components_partial.

(** ** A concrete application: 0 (.a) has the children 1 (.b) and 2 (.b.c).
    [@layer base { .b.c { p0: 34; p1: 44 } }  .a { --7: 10 }  #top { --7: 20 }  .b { p0: var(--7) }]
    Property 0 is inherited by default.  Then 0 gets the id. *)
Definition base : list ascii := ["b"; "a"; "s"; "e"]%char.
Definition var_value : list nat -> option (list (nat * nat)) := fun out => match out with [x] => Some [(0, 4 + x)] | _ => None end.
Definition sel (l : list ascii) (c : list simple) : css_selector complex (media_selectors unit) := {| layer := l; media := []; selector := One c |}.
Definition the_sheet : builder complex (media_selectors unit) nat VarFlow.toks unit nat ((list nat -> option (list (nat * nat))) * VarFlow.toks) unit unit unit unit unit :=
  mk_builder [base] []
    [mk_ruleset [] [BSpecific (RefId 0) 34; BSpecific (RefName tt) 44] [] []; mk_ruleset [(7, [Tok 10])] [] [] []; mk_ruleset [(7, [Tok 20])] [] [] []; mk_ruleset [] [BDynamic (var_value, [Var 7])] [] []]
    [] [(sel base [Class "b"; Class "c"], 0); (sel [] [Id "top"], 2); (sel [] [Class "a"], 1); (sel [] [Class "b"], 3)].
Definition ftree : forest := {| children := fun p => match p with 0 => [1; 2] | _ => [] end; parent := fun c => match c with 1 | 2 => Some 0 | _ => None end |}.
Definition fdata (id : option string) (n : nat) : option node_data :=
  match n with
  | 0 => Some (mk_node_data None id ["a"] [] (fun _ => false) true None)
  | 1 => Some (mk_node_data None None ["b"] [] (fun _ => false) false None)
  | 2 => Some (mk_node_data None None ["b"; "c"] [] (fun _ => false) false None)
  | _ => None
  end.
Definition flinks (n : nat) : option siblings := match n with 1 => Some (mk_siblings None (Some 2)) | 2 => Some (mk_siblings (Some 1) None) | _ => None end.
Definition no_media : provider unit := {| p_color_scheme := None; p_resolution := None; p_width := None; p_height := None |}.
Definition sit (id : option string) (changed reset : nat -> bool) : situation unit unit unit unit unit unit unit :=
  mk_situation (mk_world ftree flinks (fdata id)) (fun n => match n with 0 | 1 | 2 => Some the_sheet | _ => None end) (fun _ => None) (fun _ => no_media) (fun _ => tt) [0; 1; 2] (fun _ => false) changed (fun _ => false) reset.
Definition never (a b : unit) := false.
Definition by_name (c : unit) : option nat := Some 1.
Notation the_loaded := (loaded by_name (fun _ _ => true) (fun _ : unit => true) (fun v => v)).
Lemma ftree_wf : wf_forest ftree.
Proof.
  constructor; cbn.
  - intros p c. destruct p as [|p]; destruct c as [|[|[|c]]]; cbn; split; intros H; try discriminate; try (repeat destruct H as [H|H]; try discriminate; destruct H; fail); auto.
  - intros [|p]; repeat constructor; cbn; intuition discriminate.
  - exists (fun n => match n with 1 | 2 => 1 | _ => 0 end), 1. split; [intros c p; destruct c as [|[|[|c]]]; cbn; intros H; inversion H; reflexivity|intros n; destruct n as [|[|[|n]]]; lia].
Qed.
Lemma sit_sane id changed reset : (forall n, reset n = true) \/ (forall n, reset n = false) -> sane by_name (fun v => v) Prop_Pipeline.dec Prop_Pipeline.unsets the_loaded [0; 1; 2] (sit id changed reset).
Proof.
  intros Hr. assert (Sh : forall n b, s_sheet (sit id changed reset) n = Some b -> b = the_sheet /\ In n [0; 1; 2]) by (intros n b H; destruct n as [|[|[|n]]]; cbn in H; inversion H; cbn; auto).
  split; [|split; [|split; [|split; [|split; [|split; [|split]]]]]].
  - constructor; cbn.
    + exact ftree_wf.
    + intros n p H. destruct n as [|[|[|n]]]; inversion H; cbn; repeat split; auto; discriminate.
    + intros n p H. destruct n as [|[|[|n]]]; inversion H; eexists; (split; [reflexivity|]). * exists [], [2]. auto. * exists [1], []. auto.
    + intros n s H Hs. destruct n as [|[|[|n]]]; discriminate.
    + intros n d H. destruct n as [|[|[|n]]]; inversion H; cbn; split; congruence.
    + intros n d H. destruct n as [|[|[|n]]]; inversion H; constructor.
  - repeat constructor; cbn; intuition discriminate.
  - intros n p H. destruct n as [|[|[|n]]]; inversion H; cbn; auto.
  - intros n H. exact H.
  - intros n b H. apply Sh in H as [-> _]. intros s i Hi. cbn in Hi. destruct Hi as [H|[H|[H|[H|[]]]]]; injection H as <- <-; (split; [discriminate|]); (split; [cbn; auto|]).
    + exists (0, 2, 0). split; [|unfold countable; lia]. constructor. apply (cp_cons _ _ (0, 1, 0) (0, 1, 0)); [constructor|]. apply (cp_cons _ _ (0, 1, 0) (0, 0, 0)); constructor.
    + exists (1, 0, 0). split; [|unfold countable; lia]. constructor. apply (cp_cons _ _ (1, 0, 0) (0, 0, 0)); constructor.
    + exists (0, 1, 0). split; [|unfold countable; lia]. constructor. apply (cp_cons _ _ (0, 1, 0) (0, 0, 0)); constructor.
    + exists (0, 1, 0). split; [|unfold countable; lia]. constructor. apply (cp_cons _ _ (0, 1, 0) (0, 0, 0)); constructor.
  - intros n b H. exact (proj2 (Sh n b H)).
  - intros r p v Hv _. split; [|intros n d []]. intros n b rs d Hb _ Hrs Hd Hg. apply Sh in Hb as [-> _]. cbn in Hrs.
    destruct Hrs as [<-|[<-|[<-|[<-|[]]]]]; cbn in Hd; [destruct Hd as [<-|[<-|[]]]|destruct Hd|destruct Hd|destruct Hd as [<-|[]]].
    + cbn in Hg. destruct Hg as [_ <-]. discriminate.
    + cbn in Hg. destruct Hg as [_ <-]. discriminate.
    + cbn in Hg. destruct Hg as (out & k & l & _ & _ & Hp & l1 & l2 & E & _). unfold var_value in Hp. destruct out as [|x [|y out]]; try discriminate. injection Hp as <-. destruct l1 as [|? [|? ?]]; [|discriminate|discriminate]. injection E as _ <- _. discriminate.
  - intros n m _ [H|H]; [discriminate|]. destruct Hr as [Hr|Hr]; [right; right; right; apply Hr|cbn in H; rewrite Hr in H; discriminate].
Qed.
Definition first := sit None (fun _ => false) (fun _ => true).
Definition second := sit (Some "top") (Nat.eqb 0) (fun _ => false).
Lemma story_ok : from_start never never never by_name (fun v => v) Prop_Pipeline.dec Prop_Pipeline.unsets the_loaded [0; 1; 2] [first; second].
Proof.
  split; [apply sit_sane; auto|]. split; [reflexivity|]. split; [apply sit_sane; auto|]. split; [|exact I].
  split; [intros n _ _; split; reflexivity|]. split.
  - intros n b _ Hb _ Hn. assert (b = the_sheet) as -> by (destruct n as [|[|[|n]]]; cbn in Hb; inversion Hb; reflexivity). split; [exact Hb|]. assert (n <> 0) as Hn0 by (intros ->; apply Hn; right; left; reflexivity).
    assert (D : w_data (s_world first) n = w_data (s_world second) n) by (destruct n as [|n]; [contradiction|reflexivity]).
    intros i r. unfold applies. split; intros (s & Hr & Hs & Hm); exists s; (split; [exact Hr|]); (split; [|exact Hm]); destruct Hr as (id & Hi & _);
      (destruct i as [|[|[|[|i]]]]; cbn in Hi; [..|destruct i; discriminate]); injection Hi as <- <-; cbn [sel selector sat all_of holds] in Hs |- *; (rewrite D in * || rewrite <- D in *); exact Hs.
  - split; [intros n d H; exfalso; apply H; reflexivity|]. split; [intros n b _ Hb Hl; exists b; auto|]. split; [discriminate|]. intros n H1 H2. contradiction.
Qed.
(** the layered rule loses p0 and wins p1; the change of the id of 0 reaches 1 and 2 through the custom property *)
Example C103_example :
  let run ts := Pipeline.updates Nat.eq_dec 2 (fun _ => 0) Prop_Pipeline.dec Prop_Pipeline.unsets [0; 1; 2] 20
    (map (frame_of never never never by_name (fun _ _ => true) (fun _ => true) (fun v => v) 20) ts) (Pipeline.start (fun _ _ => 77)) in
  option_map (fun s => (Pipeline.shown s 1 0, Pipeline.shown s 2 0, Pipeline.shown s 2 1, Pipeline.shown s 1 1)) (run [first]) = Some (10, 10, 40, 77) /\
  option_map (fun s => (Pipeline.shown s 1 0, Pipeline.shown s 2 0, Pipeline.shown s 2 1, Pipeline.shown s 1 1)) (run [first; second]) = Some (20, 20, 40, 77).
Proof. split; vm_compute; reflexivity. Qed.
