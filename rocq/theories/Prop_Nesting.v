(** C58: nested CSS means what it says; C59: the layer order of a sheet is the order of its source. *)
From Coq Require Import Ascii String.
From Verif Require Import Base Layers LayersSpec LayersProofs Nesting NestingSpec NestingProofs.
Open Scope list_scope.

(** C58, for any language of selectors in which `&` can be replaced: [value s parents] is what a selector stands for below the selectors
    [parents], and replacing `&` agrees with it.  Each declaration of the sheet is in one of the rulesets, in order, in the layer, under the
    media conditions and for the selectors that nested CSS gives it. *)
Theorem C58_any_language :
  forall (Sl V M D : Type) (value : Sl -> list V -> V) (stands : Sl -> V -> Prop) (amp : Sl) (replace : list Sl -> Sl -> Sl) (sheet : list (top Sl M D)),
  (forall s, stands s (value s [])) -> (forall ss vs s, Forall2 stands ss vs -> stands (replace ss s) (value s vs)) -> Forall top_ok sheet ->
  exists b, load amp replace sheet = Some b /\ Forall2 (says stands) (declarations b) (flat_map (top_entries value amp [] []) sheet).
Proof.
  intros Sl V M D value stands amp replace sheet H1 H2 Ok. destruct (load_good value stands amp replace H1 H2 sheet Ok) as (b & em & E & F & _). exists b. auto.
Qed.
(** C58, for selectors from simple selectors and combinators, whatever they mean: which elements are selected, and the specificity. *)
Theorem C58_nesting :
  forall (A C M D El : Type) (simple : A -> El -> Prop) (related : C -> El -> El -> Prop) (weight : A -> nat) (sheet : list (top (sel A C) M D)),
  Forall top_ok sheet ->
  exists b, load Amp replace_by sheet = Some b /\
    Forall2 (says (means simple related weight)) (declarations b) (flat_map (top_entries (meaning simple related weight) Amp [] []) sheet).
Proof. intros A C M D El simple related weight sheet. apply C58_any_language; [apply means_top|apply means_replace]. Qed.

Lemma define_skips_empty ns : forall h, Layers.define_layers ns h = Layers.define_layers (filter (fun n => match n with [] => false | _ => true end) ns) h.
Proof.
  unfold Layers.define_layers. induction ns as [|n ns IH]; intros h; [reflexivity|]. cbn [for_each_opt filter]. destruct n as [|c n]; [apply IH|].
  cbn [for_each_opt]. destruct (define_layer h (c :: n)); [apply IH|reflexivity].
Qed.
Definition nonempty_path (p : list (list ascii)) : bool := match p with [] => false | _ => true end.
Lemma filter_dotted em : legal_paths em -> filter (fun n => match n with [] => false | _ => true end) (map dotted em) = map dotted (filter nonempty_path em).
Proof.
  induction 1 as [|p em Hp H IH]; [reflexivity|]. cbn [map filter]. destruct (dotted p) as [|c n] eqn:E.
  - rewrite (dotted_nil p Hp E). cbn [nonempty_path]. exact IH.
  - destruct p; [discriminate|]. cbn [nonempty_path map]. rewrite E, IH. reflexivity.
Qed.
Lemma mentions_filter em : mentions (filter nonempty_path em) = mentions em.
Proof. induction em as [|[|s p] em IH]; [reflexivity|exact IH|]. cbn [filter nonempty_path]. unfold mentions in *. cbn [map concat]. rewrite IH. reflexivity. Qed.
Lemma filter_legal em : legal_paths em -> Forall legal (filter nonempty_path em).
Proof. induction 1 as [|[|s p] em Hp H IH]; [constructor|exact IH|]. cbn [filter nonempty_path]. constructor; [split; [discriminate|exact Hp]|exact IH]. Qed.
Lemma lower_ext ms ms' p q : (forall a b, mentioned_before ms a b <-> mentioned_before ms' a b) -> lower ms p q -> lower ms' p q.
Proof. intros H [p' x s|c x y s t G]; [constructor|]. constructor. apply H, G. Qed.

(** C59: the layers of the sheet are those its source mentions, and their priorities follow the order of first mention in the
    source, provided every @layer block has a rule or a layer statement in it. *)
Theorem C59_layer_order_partial :
  forall (Sl M D : Type) (amp : Sl) (replace : list Sl -> Sl -> Sl) (sheet : list (top Sl M D)), Forall top_ok sheet -> Forall blocks_inhabited sheet ->
  exists b h, load amp replace sheet = Some b /\ Layers.define_layers (defined b) [] = Some h /\
    let said := mentions (flat_map (top_layers []) sheet) in
    (forall n, In n h <-> exists p, In p said /\ n = dotted p) /\
    (forall p q, In p said -> In q said ->
       exists i j, get_layer_priority h (dotted p) = Some i /\ get_layer_priority h (dotted q) = Some j /\ (i < j <-> lower said p q) /\ (i = j <-> p = q)).
Proof.
  intros Sl M D amp replace sheet Ok Hin. destruct (load_good (V:=unit) (fun _ _ => tt) (fun _ _ => True) amp replace (fun _ => I) (fun _ _ _ _ => I) sheet Ok) as (b & em & E & _ & Df & P & S).
  specialize (S Hin). pose proof (layers_well_formed (filter nonempty_path em) (filter_legal em P)) as (h & Eh & _ & Hm & _).
  exists b, h. split; [exact E|]. split; [rewrite Df, define_skips_empty, filter_dotted by exact P; exact Eh|].
  cbn zeta. rewrite mentions_filter in Hm. split.
  - intros n. rewrite Hm. split; intros (p & Hp & ->); exists p; (split; [|reflexivity]); apply (nub_members _ _ p S); exact Hp.
  - intros p q Hp Hq. apply (nub_members _ _ p S) in Hp. apply (nub_members _ _ q S) in Hq.
    rewrite <- mentions_filter in Hp, Hq. destruct (layer_order_complete _ p q h (filter_legal em P) Eh Hp Hq) as (i & j & Ei & Ej & Hl & He). exists i, j.
    split; [exact Ei|]. split; [exact Ej|]. split; [|exact He]. rewrite Hl, mentions_filter. split; apply lower_ext; intros a b'; [apply nub_before; exact S|]. symmetry. apply nub_before. exact S.
Qed.

Notation tx s := (list_ascii_of_string s%string) (only parsing).
(** `@layer base {}  @layer theme { .a { 1 } }  @layer base { .a { 2 } }`: the source mentions base first, so theme should win *)
Definition empty_block_sheet : list (top (sel nat nat) nat nat) :=
  [ TLayer (tx "base") []; TLayer (tx "theme") [TRule (Some [Atom 0]) [BDecl 1]]; TLayer (tx "base") [TRule (Some [Atom 0]) [BDecl 2]] ].
Theorem C59_empty_block_refuted :
  Forall top_ok empty_block_sheet /\ lower (mentions (flat_map (top_layers []) empty_block_sheet)) [tx "base"] [tx "theme"] /\
  exists b h i j, load Amp replace_by empty_block_sheet = Some b /\ Layers.define_layers (defined b) [] = Some h /\
    get_layer_priority h (tx "base") = Some i /\ get_layer_priority h (tx "theme") = Some j /\ j < i.
Proof.
  assert (Lg : forall s : list ascii, s <> [] -> forallb (fun c => negb (Ascii.eqb c "."%char)) s = true -> legal_segment s).
  { intros s N H. split; [exact N|]. intros G. rewrite forallb_forall in H. specialize (H _ G). discriminate. }
  split; [|split].
  - repeat constructor; cbn; try discriminate; intros G; repeat (destruct G as [G|G]; [discriminate|]); exact G.
  - apply (lower_sibling _ [] (tx "base") (tx "theme") [] []). split; [vm_compute; discriminate|]. exists [], [[tx "theme"]; [tx "base"]]. split; [reflexivity|intros []].
  - eexists _, _, _, _. split; [vm_compute; reflexivity|]. split; [vm_compute; reflexivity|]. split; [vm_compute; reflexivity|]. split; [vm_compute; reflexivity|]. auto.
Qed.

(** Non-vacuity: nested rules, a nested @media and a nested @layer
    `@layer l { .0, .1 { 10; &.2 { 11 } 12; @media 7 { 13 } @layer m { 14 } } }` *)
Definition ex_sheet : list (top (sel nat nat) nat nat) :=
  [ TLayer (tx "l") [TRule (Some [Atom 0; Atom 1]) [BDecl 10; BRule (Some [And Amp (Atom 2)]) [BDecl 11]; BDecl 12; BMedia [7] [BDecl 13]; BLayer (tx "m") [BDecl 14]]] ].
Example C58_witness : Forall top_ok ex_sheet /\ Forall blocks_inhabited ex_sheet /\
  exists b, load Amp replace_by ex_sheet = Some b /\ map snd (declarations b) = [10; 11; 12; 13; 14] /\
    map (fun x => map c_layer (fst x)) (declarations b) = [[tx "l"; tx "l"]; [tx "l"]; [tx "l"; tx "l"]; [tx "l"]; [tx "l.m"]].
Proof.
  split; [repeat constructor; cbn; try discriminate; intros G; repeat (destruct G as [G|G]; [discriminate|]); exact G|]. split.
  - constructor; [|constructor]. cbn. repeat split; auto. left. discriminate.
  - eexists. split; [vm_compute; reflexivity|]. split; vm_compute; reflexivity.
Qed.

Print Assumptions C58_any_language. Print Assumptions C58_nesting. Print Assumptions C59_layer_order_partial. Print Assumptions C59_empty_block_refuted.
