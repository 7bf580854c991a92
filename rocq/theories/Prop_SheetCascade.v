(** C111: from the text of a sheet to the declaration that wins. *)
From Coq Require Import Ascii String NArith ZArith.
From Verif Require Import Base VarText LayersSpec Nesting NestingSpec Media MediaSpec SheetText SheetTextSpec SheetTextProofs2 SheetTextProofs5 Siblings Matching MatchingSpec MatchingProofs SpecificitySpec SelText SelTextSpec SelTextProofs3 SheetSel SheetSelProofs Cascade SheetCascade SheetCascadeSpec SheetCascadeProofs2 SheetCascadeProofs3 Prop_Nesting Prop_SheetText Prop_Matching Prop_SelText Prop_SheetSel.
Open Scope string_scope.
Open Scope list_scope.
Open Scope nat_scope.

(** Every sheet text (with the selectors of C109) is loaded, built and used without a panic, and each property of each node gets the
    declaration that CSS makes the winner: of those that apply, the one in the highest layer, then with the most specific selector, then the
    last in the text; it keeps its own value if no declaration applies. *)
Theorem C111_winner_partial : forall nodes w, consistent nodes w -> exists enough, forall fuel, enough <= fuel ->
  forall V (type_ok : nat -> V -> bool) (placeholder : V -> V) nth stuck (declare : text -> list tree -> @decl_result (list (nat * V))) url_value s,
  reads_front nth -> ~ In "\"%char s -> (forall nm l d q x, declare nm l = DVal d -> In (q, x) d -> type_ok q (placeholder x) = true) ->
  let rules := own (sheet (real_selectors nth stuck) declare url_value s) in
  let declared := flat_map (top_entries Prop_SheetSel.below amp_selector [] []) rules in
  let said := LayersSpec.mentions (flat_map (top_layers []) rules) in
  Forall blocks_inhabited rules ->
  (forall e a x, In e declared -> In a (n_alts e) -> counted_complex a x -> countable x) ->
  exists sh, load_sheet type_ok placeholder rules = Some (Built sh) /\
  forall veqb, (forall a b, veqb a b = true <-> a = b) -> forall m ratio own_value n, exists out, node_values veqb w fuel m ratio own_value sh n = Some out /\
  forall p, (exists k v, wins w m ratio said declared n p k v /\ out p = placeholder v) \/ (nobody_sets w m ratio declared n p /\ out p = own_value p).
Proof.
  intros nodes w C. destruct (matching_ok nodes w C) as [enough H]. exists enough. intros fuel F V type_ok placeholder nth stuck declare url_value s Hn Hs Ht rules declared said Hb Hc.
  apply winner_text.
  - assert (Hne : forall nested l, real_selectors nth stuck nested l <> Some (Some [])) by (intros nested l E; exact (proj2 (real_good _ _ _ _ _ Hn E) eq_refl)).
    pose proof (sheet_legal (real_selectors nth stuck) declare url_value Hne _ (parsed_legal s Hs)) as G. subst rules. unfold own, sheet.
    induction G as [|x l Hx Hl IH]; [constructor|]. cbn. destruct x; cbn; try exact IH. constructor; assumption.
  - exact Hb.
  - intros e q x He Hin. pose proof (decls_ok (fun d => forall q x, In (q, x) d -> type_ok q (placeholder x) = true) (real_selectors nth stuck) declare url_value (fun nm l d E q x => Ht nm l d q x E) (fun p ps => resolve ps p) amp_selector (parsed_white s)) as G.
    rewrite Forall_forall in G. exact (G e He q x Hin).
  - exact Hc.
  - intros x Hx n. apply H; assumption.
  - assert (G : Forall (fun e => Forall parsed (n_alts e)) declared).
    { pose proof (sheet_sels good (real_selectors nth stuck) declare url_value (fun nested l ss Hl => proj1 (real_good _ _ _ _ _ Hn Hl)) (parsed_white s)) as S. change (Forall (top_sels good) rules) in S.
      subst declared. clearbody rules. clear - S. induction S as [|t l Ht Hl IH]; [constructor|]. cbn [flat_map]. apply Forall_app. split; [|exact IH].
      apply (tops_good good Prop_SheetSel.below amp_selector parsed good_amp); [|exact Ht]. intros p vs Hp Hv. apply Hp. apply all_of_Forall. exact Hv. }
    rewrite Forall_forall in G. exact G.
Qed.
Print Assumptions C111_winner_partial.

(** There is only one winner. *)
Theorem C111_one_winner : forall V w m ratio said (declared : list (@entry complex (media_selector fval) (list (nat * V)))) n p k v k' v',
  wins w m ratio said declared n p k v -> wins w m ratio said declared n p k' v' -> k = k' /\ v = v'.
Proof. intros. eapply wins_one; eassumption. Qed.
Print Assumptions C111_one_winner.

(** ** Non-vacuity: `color` and `width` set the properties 0 and 1, `both` sets both *)
Definition two_declare (nm : text) (l : list tree) : @decl_result (list (nat * text)) :=
  match l with
  | [Leaf (TIdent v)] => if same_name nm (tx "color") then DVal [(0, v)] else if same_name nm (tx "width") then DVal [(1, v)] else if same_name nm (tx "both") then DVal [(0, v); (1, v)] else DErr
  | _ => DErr
  end.
Definition window (width : N) : provider fval := {| p_color_scheme := None; p_resolution := None; p_width := Some width; p_height := None |}.
Definition teqb (a b : text) : bool := if list_eq_dec ascii_dec a b then true else false.
Definition values_of (s : text) (width : N) (n : nat) : option (list text) :=
  match load_sheet (fun _ _ => true) (fun x => x) (own (sheet (real_selectors ex_nth (fun _ _ => false)) two_declare ex_url s)) with
  | Some (Built sh) => match node_values teqb pworld 7 (window width) NaN (fun _ => tx "own") sh n with Some out => Some (map out [0; 1; 2]) | None => None end
  | _ => None
  end.
Notation sheet_of_text s := (own (sheet (real_selectors ex_nth (fun _ _ => false)) two_declare ex_url s)).
Notation declared_in s := (flat_map (top_entries Prop_SheetSel.below amp_selector [] []) (sheet_of_text s)).
Notation said_in s := (LayersSpec.mentions (flat_map (top_layers []) (sheet_of_text s))).
Definition win_text : text := tx "@layer base { .child { both: red } } .parent { > .child { color: green; color: blue } @media (min-width: 100px) { .child { width: big } } } div { color: white } @layer theme { .child { width: huge } }".
Ltac counts := repeat match goal with H : counted_complex _ _ |- _ => inversion H; clear H; subst | H : counted_compound _ _ |- _ => inversion H; clear H; subst | H : counted_simple _ _ |- _ => inversion H; clear H; subst | H : most_specific _ _ |- _ => inversion H; clear H; subst end.
Example C111_witness : consistent [0; 1; 2; 3; 4; 5; 6] pworld /\ reads_front ex_nth /\ ~ In "\"%char win_text /\ Forall blocks_inhabited (sheet_of_text win_text) /\
  (forall e a x, In e (declared_in win_text) -> In a (n_alts e) -> counted_complex a x -> countable x) /\
  List.length (declared_in win_text) = 6 /\ said_in win_text = [[tx "base"]; [tx "theme"]] /\
  map (values_of win_text 200) [0; 2; 3] = [Some [tx "white"; tx "own"; tx "own"]; Some [tx "blue"; tx "big"; tx "own"]; Some [tx "blue"; tx "big"; tx "own"]] /\
  map (values_of win_text 20) [0; 2; 3] = [Some [tx "white"; tx "own"; tx "own"]; Some [tx "blue"; tx "huge"; tx "own"]; Some [tx "blue"; tx "huge"; tx "own"]].
Proof.
  split; [apply pworld_consistent|]. split; [apply ex_front|]. split; [intros H; vm_compute in H; repeat (destruct H as [H|H]; [discriminate|]); exact H|].
  split; [match goal with |- Forall _ ?l => let l' := eval vm_compute in l in change l with l' end; repeat (apply Forall_cons; [cbn; intuition discriminate|]); apply Forall_nil|]. split.
  { intros e a x He Ha Hx. vm_compute in He. repeat (destruct He as [<- |He]; [cbn in Ha; repeat (destruct Ha as [<- |Ha]; [counts; cbn; lia|]); destruct Ha|]). destruct He. }
  split; [vm_compute; reflexivity|]. split; [vm_compute; reflexivity|]. split; vm_compute; reflexivity.
Qed.

(** With an empty block the winner of the text can be another (C59): `base` is mentioned first, but `theme` loses. *)
Definition empty_text : text := tx "@layer base { } @layer theme { .child { width: a } } @layer base { .child { width: b } }".
Theorem C111_empty_block_refuted : ~ In "\"%char empty_text /\ (forall m ratio, wins pworld m ratio (said_in empty_text) (declared_in empty_text) 2 1 0 (tx "a")) /\
  values_of empty_text 20 2 = Some [tx "own"; tx "b"; tx "own"].
Proof.
  split; [intros H; vm_compute in H; repeat (destruct H as [H|H]; [discriminate|]); exact H|]. split; [|vm_compute; reflexivity].
  intros m ratio.
  match goal with |- wins _ _ _ ?a ?b _ _ _ _ => let a' := eval vm_compute in a in let b' := eval vm_compute in b in change a with a'; change b with b' end.
  eexists _, (One [Class "child"]), (0, 1, 0). split; [reflexivity|].
  assert (S : sat pworld (One [Class "child"]) None 2) by (cbn; split; [|exact I]; eexists; split; [reflexivity|left; reflexivity]).
  split; [split; [left; reflexivity|]; split; [exact S|intros q []]|]. split; [constructor; apply (cp_cons _ _ (0, 1, 0) (0, 0, 0)); constructor|]. split; [exists [], []; split; [reflexivity|intros v' []]|].
  intros j e' a' y v' Hj (Ha & _) Hy Hs. destruct j as [|[|j]].
  - injection Hj as <-. cbn in Ha. destruct Ha as [<-|[]]. right. split; [reflexivity|]. right. split; [|lia]. counts. reflexivity.
  - injection Hj as <-. left. cbn. apply (lower_sibling _ [] (tx "base") (tx "theme") [] []). split; [vm_compute; discriminate|]. eexists [], _. split; [reflexivity|intros []].
  - destruct j; discriminate.
Qed.
Print Assumptions C111_empty_block_refuted.
