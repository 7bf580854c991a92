(** C112: from the texts of style sheets to the components. *)
From Coq Require Import Ascii String NArith.
From Verif Require Import Base VarText Tree TreeSpec Vars VarsSpec LayersSpec Nesting NestingSpec Media MediaSpec SheetText SheetTextSpec SheetTextProofs2 SheetTextProofs5 Siblings Matching MatchingSpec MatchingProofs SpecificitySpec SelText SelTextSpec SelTextProofs3 SheetSel SheetSelProofs SheetCascade SheetCascadeSpec SheetCascadeProofs2 SheetCascadeProofs3 Prop_SelText Prop_SheetSel.
From Verif Require Import Cascade Whole WholeSpec Live LiveSpec SheetWhole SheetWholeSpec SheetWholeProofs2 SheetWholeProofs3.
From Verif Require VarFlow Inherit InheritSpec Pipeline Follow Prop_Live Prop_Pipeline Prop_Follow Prop_SheetText FollowProofs.
Open Scope string_scope.
Open Scope list_scope.
Open Scope nat_scope.

Lemma text_fine CN resolve_name type_ok placeholder nth stuck declare url_value (s : text) :
  reads_front nth -> reads_values (CN := CN) resolve_name type_ok placeholder declare ->
  let rules := fun s => own (sheet (real_selectors nth stuck) declare url_value s) in plain_text rules s ->
  Forall top_ok (rules s) /\ Forall blocks_inhabited (rules s) /\
    (forall e q, In e (declarations_in (rules s)) -> In q (snd (n_decl e)) -> fits resolve_name type_ok placeholder q) /\
    (forall e a x, In e (declarations_in (rules s)) -> In a (n_alts e) -> counted_complex a x -> countable x) /\
    (forall e, In e (declarations_in (rules s)) -> Forall parsed (n_alts e)).
Proof.
  intros Hn Ht rules (Hs & Hb & Hc). split; [|split; [exact Hb|split; [|split; [exact Hc|]]]].
  - assert (Hne : forall nested l, real_selectors nth stuck nested l <> Some (Some [])) by (intros nested l E; exact (proj2 (real_good _ _ _ _ _ Hn E) eq_refl)).
    pose proof (sheet_legal (real_selectors nth stuck) declare url_value Hne _ (parsed_legal s Hs)) as G. subst rules. unfold own, sheet.
    induction G as [|x l Hx Hl IH]; [constructor|]. cbn. destruct x; cbn; try exact IH. constructor; assumption.
  - intros e q He Hin. pose proof (decls_ok (fun d => forall q, In q (snd d) -> fits resolve_name type_ok placeholder q) (real_selectors nth stuck) declare url_value (fun nm l d E q => Ht nm l d q E) (fun p ps => resolve ps p) amp_selector (parsed_white s)) as G.
    rewrite Forall_forall in G. exact (G e He q Hin).
  - assert (G : Forall (fun e => Forall parsed (n_alts e)) (declarations_in (rules s))).
    { pose proof (sheet_sels good (real_selectors nth stuck) declare url_value (fun nested l ss Hl => proj1 (real_good _ _ _ _ _ Hn Hl)) (parsed_white s)) as S. change (Forall (top_sels good) (rules s)) in S.
      unfold declarations_in. clear - S. induction S as [|t l Ht Hl IH]; [constructor|]. cbn [flat_map]. apply Forall_app. split; [|exact IH].
      apply (tops_good good (fun p parents => resolve parents p) amp_selector parsed good_amp); [|exact Ht]. intros p vs Hp Hv. apply Hp. apply all_of_Forall. exact Hv. }
    rewrite Forall_forall in G. exact G.
Qed.

(** Every such text is loaded and built, without a panic or an error, into a style sheet as C103 and C105 need it. *)
Theorem C112_loads_partial : forall CN TP AP KN KF FF (resolve_name : CN -> option nat) type_ok (path_ok : FF -> bool) placeholder nth stuck declare url_value s,
  reads_front nth -> reads_values resolve_name type_ok placeholder declare ->
  let rules := fun s => own (sheet (real_selectors nth stuck) declare url_value s) in plain_text rules s ->
  exists b, text_builder (TP := TP) (AP := AP) (KN := KN) (KF := KF) (rules s) = Some b /\ loaded resolve_name type_ok path_ok placeholder b /\ usable b.
Proof.
  intros CN TP AP KN KF FF resolve_name type_ok path_ok placeholder nth stuck declare url_value s Hn Ht rules Hs.
  destruct (text_fine CN resolve_name type_ok placeholder nth stuck declare url_value s Hn Ht Hs) as (H1 & H2 & H3 & H4 & H5).
  destruct (text_built (TP := TP) (AP := AP) (KN := KN) (KF := KF) resolve_name type_ok path_ok placeholder (rules s) H1 H2 H3 H4 H5) as (b & _ & E & Hb & Hu & _). exists b. auto.
Qed.
Print Assumptions C112_loads_partial.

(** C112.  As C105, from the texts: after any history of an application, if the style sheet of each node is what the text `texts n` loads as,
    every property of every node has exactly one value by the rules of CSS for these texts (SheetWholeSpec.v: their layers, media conditions,
    nested selectors, specificities, source order, custom properties, var(), inheritance), and if that is a value, the component shows it. *)
Theorem C112_components_partial :
  forall (V CN TP AP KN KF FF : Type) (veq : forall a b : V, {a = b} + {a <> b}) (resolve_name : CN -> option nat) type_ok (path_ok : FF -> bool) placeholder
    np initial (decode : nat -> Inherit.pvalue V) unset_code nodes (ms : list (moment CN TP AP KN KF FF fval)) (last : moment CN TP AP KN KF FF fval)
    nth stuck declare url_value (texts : nat -> option text),
  reads_front nth -> reads_values resolve_name type_ok placeholder declare ->
  let rules := fun s => own (sheet (real_selectors nth stuck) declare url_value s) in
  (forall n s, texts n = Some s -> plain_text rules s) ->
  (forall n, l_sheet last n = match texts n with Some s => text_builder (rules s) | None => None end) ->
  (forall p, decode (unset_code p) <> Inherit.PUnset) ->
  live_from_start resolve_name placeholder decode unset_code (loaded resolve_name type_ok path_ok placeholder) nodes (ms ++ [last]) ->
  let value := SheetWholeSpec.css resolve_name placeholder (situation_of last) (fun n => option_map rules (texts n)) initial decode unset_code in
  exists m0, forall mf, m0 <= mf -> exists n0, forall fuel, n0 <= fuel -> forall before, exists s,
    updates veq feq fle (fun x y => fle y x) resolve_name type_ok path_ok placeholder np initial decode unset_code nodes mf fuel (ms ++ [last]) (start before) = Some s /\
    forall n p, In n (l_alive last) -> p < np ->
      (exists! c, value p n c) /\ forall v, value p n (Inherit.CVal v) -> Pipeline.shown (lv_pipe s) n p = v.
Proof.
  intros V CN TP AP KN KF FF veq resolve_name type_ok path_ok placeholder np initial decode unset_code nodes ms last nth stuck declare url_value texts Hn Ht rules Hs Hsh Hu H value.
  destruct (Prop_Live.C105_live_partial V CN TP AP KN KF FF fval veq feq fle (fun x y => fle y x) resolve_name type_ok path_ok placeholder np initial decode unset_code nodes ms last Hu H) as (m0 & Hm).
  exists m0. intros mf Fm. destruct (Hm mf Fm) as (n0 & Hf). exists n0. intros fuel Ff bef. destruct (Hf fuel Ff bef) as (s & E & K). exists s. split; [exact E|].
  assert (C : consistent (l_alive last) (s_world (situation_of last))).
  { assert (S : forall m1, live_history resolve_name placeholder decode unset_code (loaded resolve_name type_ok path_ok placeholder) nodes m1 (ms ++ [last]) -> consistent (l_alive last) (s_world (situation_of last))).
    { clear. induction ms as [|m ms IH]; intros m1 Hh; cbn in Hh; [exact (proj1 (proj1 (proj1 Hh)))|]. eapply IH. exact (proj2 (proj2 Hh)). }
    destruct ms as [|m ms]; exact (S _ H). }
  intros n p Hin Hp. destruct (K n p Hin Hp) as ((c & Hc & Hc1) & Hv).
  assert (I : forall n p c, WholeSpec.css feq fle (fun x y => fle y x) resolve_name placeholder initial decode unset_code (loaded resolve_name type_ok path_ok placeholder) (situation_of last) p n c <-> value p n c).
  { intros n' p' c'. apply (css_iff resolve_name type_ok path_ok placeholder (situation_of last) (fun n => option_map rules (texts n)) (l_alive last) C).
    - intros a. cbn. rewrite Hsh. destruct (texts a); reflexivity.
    - intros a rs Ea. destruct (texts a) as [x|] eqn:Ex; [|discriminate]. cbn in Ea. injection Ea as <-. exact (text_fine CN resolve_name type_ok placeholder nth stuck declare url_value x Hn Ht (Hs a x Ex)). }
  split.
  - exists c. split; [apply I; exact Hc|]. intros c' Hc'. apply Hc1. apply I. exact Hc'.
  - intros v Hval. apply Hv. apply I. exact Hval.
Qed.
Print Assumptions C112_components_partial.

(** ** A concrete application, as in C105_example, with a text: the children 1 (.a) and 2 (.b) of 0.  Property 0 (pa) is inherited by default.
    The nodes are spawned; their style sheet arrives; the window becomes dark; 1 loses its class; 1 is despawned. *)
Definition the_text : text := tx "@layer base { .b { pa: green } } :root { --main: red; pa: white } .a { + .b { pa: var(--main) } } @media (prefers-color-scheme: dark) { .b { pb: green } }".
Definition code (v : text) : nat := if same_name v (tx "red") then 10 else if same_name v (tx "green") then 20 else 5.
Definition var_value : list nat -> option (list (nat * nat)) := fun out => match out with [x] => Some [(0, 4 + x)] | _ => None end.
Definition declare (nm : text) (l : list tree) : @decl_result (list (nat * VarFlow.toks) * list (builder_property unit nat ((list nat -> option (list (nat * nat))) * VarFlow.toks))) :=
  match l with
  | [Leaf (TIdent v)] => if same_name nm (tx "--main") then DVal ([(7, [Tok (code v)])], []) else if same_name nm (tx "pa") then DVal ([], [BSpecific (RefId 0) (4 + code v)]) else if same_name nm (tx "pb") then DVal ([], [BSpecific (RefId 1) (4 + code v)]) else DErr
  | [Fun f [Leaf (TIdent v)]] => if (same_name nm (tx "pa") && same_name f (tx "var") && same_name v (tx "--main"))%bool then DVal ([], [BDynamic (var_value, [Var 7])]) else DErr
  | _ => DErr
  end.
Notation rules_of := (fun s : text => own (sheet (real_selectors ex_nth (fun _ _ => false)) declare Prop_SheetText.ex_url s)).
Definition the_sheet : builder complex (media_selectors fval) nat VarFlow.toks unit nat ((list nat -> option (list (nat * nat))) * VarFlow.toks) unit unit unit unit unit :=
  Eval vm_compute in match text_builder (rules_of the_text) with Some b => b | None => mk_builder [] [] [] [] [] end.
Lemma the_sheet_text : text_builder (rules_of the_text) = Some the_sheet.
Proof. vm_compute. reflexivity. Qed.
Lemma the_text_plain : plain_text rules_of the_text.
Proof.
  split; [intros H; vm_compute in H; repeat (destruct H as [H|H]; [discriminate|]); exact H|]. split.
  - match goal with |- Forall _ ?l => let l' := eval vm_compute in l in change l with l' end; repeat (apply Forall_cons; [cbn; intuition discriminate|]); apply Forall_nil.
  - intros e a x He Ha Hx. vm_compute in He. repeat (destruct He as [<- |He]; [cbn in Ha; repeat (destruct Ha as [<- |Ha]; [repeat match goal with H : counted_complex _ _ |- _ => inversion H; clear H; subst | H : counted_compound _ _ |- _ => inversion H; clear H; subst | H : counted_simple _ _ |- _ => inversion H; clear H; subst | H : most_specific _ _ |- _ => inversion H; clear H; subst end; cbn; lia|]); destruct Ha|]). destruct He.
Qed.
Definition no_name (c : unit) : option nat := None.
Lemma declare_fits : reads_values no_name (fun _ _ => true) (fun v => v) declare.
Proof.
  intros nm l d q E Hq. unfold declare in E.
  repeat match type of E with match ?x with _ => _ end = _ => destruct x; try discriminate end; injection E as <-; cbn in Hq; try (destruct Hq; fail); destruct Hq as [<- |[]]; cbn; trivial.
Qed.
Notation the_loaded := (loaded no_name (fun _ _ => true) (fun _ : unit => true) (fun v => v)).
Lemma the_sheet_loads : the_loaded the_sheet /\ usable the_sheet.
Proof.
  assert (K : forall s, s = the_text -> exists b, text_builder (TP := unit) (AP := unit) (KN := unit) (KF := unit) (rules_of s) = Some b /\ the_loaded b /\ usable b).
  { intros s Es. apply (C112_loads_partial unit unit unit unit unit unit no_name (fun _ _ => true) (fun _ => true) (fun v => v) ex_nth (fun _ _ => false) declare Prop_SheetText.ex_url s ex_front declare_fits). rewrite Es. exact the_text_plain. }
  destruct (K the_text eq_refl) as (b & E & Hb & Hu). rewrite the_sheet_text in E. injection E as <-. auto.
Qed.
Notation mem := Follow.mem.
Definition features (c : color_scheme) : provider fval := {| p_color_scheme := Some c; p_resolution := None; p_width := None; p_height := None |}.
Definition mom (l : list nat) (cls : nat -> list string) (there : bool) (c : color_scheme) (kids data reset : list nat) (theme : bool) : moment unit unit unit unit unit unit fval :=
  let no := fun _ : nat => false in
  mk_moment (Prop_Follow.flat l cls) (fun n => if (Nat.eqb n 0 || mem n l)%bool then if there then Some the_sheet else None else None) (fun _ => None) (fun _ => features c) (fun _ => NaN)
    (0 :: l) (fun n => mem n kids) (fun n => mem n data) no no no no no (fun n => mem n reset) (fun _ => theme) no.
Definition story := [mom [1; 2] Prop_Follow.classes false Light [0] [0; 1; 2] [0; 1; 2] false; mom [1; 2] Prop_Follow.classes true Light [] [] [] false;
  mom [1; 2] Prop_Follow.classes true Dark [] [] [] true; mom [1; 2] Prop_Live.only_b true Dark [] [1] [] false].
Definition story_end := mom [2] Prop_Live.only_b true Dark [0] [1] [] false.
Example C112_example :
  let run ms := option_map (fun s => (Pipeline.shown (lv_pipe s) 1 0, Pipeline.shown (lv_pipe s) 2 0, Pipeline.shown (lv_pipe s) 2 1))
    (updates Nat.eq_dec feq fle (fun x y => fle y x) no_name (fun _ _ => true) (fun _ => true) (fun v => v) 2 (fun _ => 0) Prop_Pipeline.dec Prop_Pipeline.unsets [0; 1; 2] 9 9 ms (start (fun _ _ => 77))) in
  run (firstn 1 story) = Some (77, 77, 77) /\ run (firstn 2 story) = Some (5, 10, 77) /\ run (firstn 3 story) = Some (5, 10, 20) /\ run story = Some (5, 20, 20) /\ run (story ++ [story_end]) = Some (5, 20, 20).
Proof. repeat split; vm_compute; reflexivity. Qed.
Lemma mom_sane l cls there c kids data reset theme : NoDup l -> (forall n, In n l -> In n [1; 2]) -> (forall n, In n reset) \/ reset = [] \/ reset = [0; 1; 2] ->
  live_sane no_name (fun v => v) Prop_Pipeline.dec Prop_Pipeline.unsets the_loaded [0; 1; 2] (mom l cls there c kids data reset theme).
Proof.
  intros N I R. assert (Z : ~ In 0 l) by (intros H; apply I in H; cbn in H; intuition discriminate).
  assert (Sh : forall n b, l_sheet (mom l cls there c kids data reset theme) n = Some b -> b = the_sheet /\ In n (0 :: l)).
  { intros n b H. cbn [l_sheet mom] in H. destruct (Nat.eqb_spec n 0) as [->|Hz]; cbn [orb] in H; [destruct there; [|discriminate]; injection H as <-; split; [reflexivity|left; reflexivity]|].
    destruct (mem n l) eqn:E; [|discriminate]. destruct there; [|discriminate]. injection H as <-. split; [reflexivity|right; apply FollowProofs.mem_In, E]. }
  split; [|split; [|split]].
  - split; [|split; [|split; [|split; [|split; [|split; [|split]]]]]].
    + apply Prop_Follow.flat_consistent; [exact N|exact Z|intros n H; right; exact H].
    + constructor; assumption.
    + intros n p H. cbn in H. destruct (mem n l); [|discriminate]. injection H as <-. left. reflexivity.
    + intros n [H|H]; [left; exact H|right; auto].
    + intros n b H. apply Sh in H as [-> _]. apply the_sheet_loads.
    + intros n b H. apply Sh in H as [_ H]. exact H.
    + intros r p v Hv _. split; [|intros n d []]. intros n b rs d Hb _ Hrs Hd Hg. apply Sh in Hb as [-> _]. cbn in Hrs.
      destruct Hrs as [<-|[<-|[<-|[<-|[]]]]]; cbn in Hd; destruct Hd as [<-|[]]; [| |cbn in Hg; destruct Hg as (out & k & q & _ & _ & Hp & l1 & l2 & E & _); destruct out as [|x [|y out]]; try discriminate; injection Hp as <-; destruct l1 as [|? [|? ?]]; [|discriminate|discriminate]; injection E as _ <- _; discriminate|];
      cbn in Hg; destruct Hg as [_ <-]; discriminate.
    + intros n m Hp [H|H]; [discriminate|]. right. right. right. cbn in Hp. destruct (mem n l) eqn:E; [|discriminate]. cbn in H |- *. apply FollowProofs.mem_In.
      destruct R as [R|[->| ->]]; [auto|discriminate|]. right. apply I, FollowProofs.mem_In, E.
  - intros n. cbn. unfold Prop_Follow.flat_data. destruct (Nat.eqb_spec n 0) as [->|Hz]; cbn [orb]; [split; [left; reflexivity|discriminate]|].
    destruct (mem n l) eqn:E; [apply FollowProofs.mem_In in E; split; [right; exact E|discriminate]|]. split; [intros H; exfalso; apply H; reflexivity|]. intros [H|H]; [congruence|]. apply FollowProofs.mem_In in H. congruence.
  - intros n s (b & sel & id & Hb & _ & Hi & ->). apply Sh in Hb as [-> _]. cbn in Hi. destruct Hi as [H|[H|[H|[H|[]]]]]; injection H as <- <-; cbn; tauto.
  - destruct there.
    + right. intros n p Hp. cbn in Hp. destruct (mem n l) eqn:E; [|discriminate]. injection Hp as <-. eexists. split.
      * exists the_sheet. eexists _, 2. split; [reflexivity|]. split; [exact (proj1 the_sheet_loads)|]. split; [right; right; left; reflexivity|reflexivity].
      * left. eexists _, _. left. reflexivity.
    + left. intros n s (b & sel & id & Hb & _). cbn in Hb. destruct (Nat.eqb n 0 || mem n l)%bool; discriminate.
Qed.
Ltac cases n := destruct n as [|[|[|n]]].
Lemma story_ok : live_from_start no_name (fun v => v) Prop_Pipeline.dec Prop_Pipeline.unsets the_loaded [0; 1; 2] (story ++ [story_end]).
Proof.
  cbn [story app live_from_start live_history].
  repeat match goal with
  | |- live_sane _ _ _ _ _ _ _ /\ _ => split; [apply mom_sane; [repeat constructor; cbn; intuition discriminate|intros n Hn; cbn in *; tauto|auto]|]
  | |- live_goes_on _ _ _ /\ _ => split; [split; [|split; [|split; [|split; [|split; [|split; [|split; [|split]]]]]]]|]
  | |- True => exact I
  | |- forall n, In n _ -> l_data _ n = false -> _ => let n := fresh in intros n Ha Hd; cases n; cbn in *; try discriminate; try (exfalso; intuition discriminate); split; reflexivity
  | |- forall n, In n _ -> l_style _ n = false -> _ => reflexivity
  | |- forall p, In p _ -> l_children _ p = false -> _ => let n := fresh in intros n Hd Hc; cases n; cbn in *; try discriminate; reflexivity
  | |- forall n, In n _ -> _ -> l_theme _ n = false -> _ => let n := fresh in intros n _ H0 Hl; cbn in *; try discriminate; try (exfalso; apply H0; reflexivity); reflexivity
  | |- forall n, In n _ -> _ -> l_info _ n = false -> _ => intros; repeat split
  | |- forall a n, l_modified _ a = true \/ _ -> _ => intros a n [Hm|Hm]; discriminate
  | |- forall n b, In n _ -> l_sheet _ n = Some b -> _ => let n := fresh in intros n b Ha Hb Hl; first [discriminate Hb|cases n; cbn in Ha, Hb; try discriminate Hb; try (exfalso; intuition discriminate); injection Hb as <-; (split; [exists the_sheet; split; [reflexivity|exact Hl]|left; reflexivity])]
  | |- forall n d, _ -> descendant _ _ _ -> _ => intros n d Hp Hd; exfalso; first [apply Hp; reflexivity|apply Prop_Live.flat_below in Hd as (-> & _); [apply Hp; reflexivity|cbn; intuition discriminate]]
  | |- forall n, In n _ -> ~ In n _ -> _ => let n := fresh in intros n Ha Hb; cbn in *; intuition (subst; reflexivity)
  end.
Qed.
(** the story meets the hypotheses of C112 *)
Example C112_example_holds : exists m0, forall mf, m0 <= mf -> exists n0, forall fuel, n0 <= fuel -> forall before, exists s,
  updates Nat.eq_dec feq fle (fun x y => fle y x) no_name (fun _ _ => true) (fun _ => true) (fun v => v) 2 (fun _ => 0) Prop_Pipeline.dec Prop_Pipeline.unsets [0; 1; 2] mf fuel (story ++ [story_end]) (start before) = Some s /\
  forall n p, In n [0; 2] -> p < 2 ->
    let value := SheetWholeSpec.css no_name (fun v => v) (situation_of story_end) (fun n => option_map rules_of (if (Nat.eqb n 0 || mem n [2])%bool then Some the_text else None)) (fun _ => 0) Prop_Pipeline.dec Prop_Pipeline.unsets in
    (exists! c, value p n c) /\ forall v, value p n (Inherit.CVal v) -> Pipeline.shown (lv_pipe s) n p = v.
Proof.
  apply (C112_components_partial nat unit unit unit unit unit unit Nat.eq_dec no_name (fun _ _ => true) (fun _ => true) (fun v => v) 2 (fun _ => 0) Prop_Pipeline.dec Prop_Pipeline.unsets [0; 1; 2] story story_end
    ex_nth (fun _ _ => false) declare Prop_SheetText.ex_url (fun n => if (Nat.eqb n 0 || mem n [2])%bool then Some the_text else None) ex_front declare_fits).
  - intros n s H. destruct (Nat.eqb n 0 || mem n [2])%bool; [|discriminate]. injection H as <-. exact the_text_plain.
  - intros n. cbn [l_sheet story_end mom]. destruct (Nat.eqb n 0 || mem n [2])%bool; [|reflexivity]. symmetry. exact the_sheet_text.
  - intros [|p]; discriminate.
  - exact story_ok.
Qed.
