(** C110: from the text of a sheet to the nodes its declarations apply to. *)
From Coq Require Import Ascii String NArith ZArith.
From Verif Require Import Base VarText LayersSpec Nesting NestingSpec Media SheetText SheetTextSpec SheetTextProofs2 SheetTextProofs5 Siblings Matching MatchingSpec MatchingProofs SelText SelTextSpec SelTextProofs3 SheetSel SheetSelProofs Prop_Nesting Prop_SheetText Prop_Matching Prop_SelText.
Open Scope string_scope.
Open Scope list_scope.
Open Scope nat_scope.

(** What a selector with `&` stands for in a rule with the selectors [parents] *)
Definition below (p : pcomplex) (parents : list complex) : complex := resolve parents p.

(** What a rule with the tokens [l] before its block selects, in a rule with the selectors [parents]: the list of selectors that is written
    (C109's grammar). *)
Theorem C110_alternatives : forall nth stuck nested l ps parents, reads_front nth -> real_selectors nth stuck nested l = Some (Some ps) ->
  stands_for nested parents nth eval_str l (alternatives below ps parents).
Proof.
  intros nth stuck nested l ps parents Hn E. unfold real_selectors in E. destruct (parse_comma_separated nested nth l) as [qs|] eqn:H; [|destruct (stuck nested l); discriminate]. injection E as ->.
  apply reads_ok; [exact Hn|]. exists ps. auto.
Qed.
Print Assumptions C110_alternatives.
(** A list that is written is not dropped. *)
Theorem C110_kept : forall nth stuck nested l parents ss, reads_front nth -> stands_for nested parents nth eval_str l ss ->
  exists ps, real_selectors nth stuck nested l = Some (Some ps) /\ alternatives below ps parents = ss.
Proof.
  intros nth stuck nested l parents ss Hn H. apply reads_ok in H as (ps & E & <-); [|exact Hn]. exists ps. unfold real_selectors. rewrite E. auto.
Qed.
Print Assumptions C110_kept.

(** C110.  Every sheet, with selectors of C109, is loaded; each of its declarations is in one ruleset, in order, in the layer and under the
    conditions in which it is written, and for the selectors that are written, with `&` replaced by those around. *)
Theorem C110_sheet : forall D nth stuck (declare : text -> list tree -> @decl_result D) url_value s, reads_front nth -> ~ In "\"%char s ->
  let rules := own (sheet (real_selectors nth stuck) declare url_value s) in
  exists b, load amp_selector substitute rules = Some b /\ Forall2 (NestingSpec.says (fun p v => resolve [] p = v)) (declarations b) (flat_map (top_entries below amp_selector [] []) rules).
Proof.
  intros D nth stuck declare url_value s Hn Hs rules. apply C58_any_language.
  - reflexivity.
  - intros ss vs p H. unfold below. rewrite resolve_substitute. f_equal. induction H as [|x v ss vs Hx H IH]; [reflexivity|]. cbn. rewrite Hx, IH. reflexivity.
  - assert (Hne : forall nested l, real_selectors nth stuck nested l <> Some (Some [])) by (intros nested l E; exact (proj2 (real_good _ _ _ _ _ Hn E) eq_refl)).
    pose proof (sheet_legal (real_selectors nth stuck) declare url_value Hne _ (parsed_legal s Hs)) as H. subst rules. unfold own, sheet.
    induction H as [|x l Hx Hl IH]; [constructor|]. cbn. destruct x; cbn; try exact IH. constructor; assumption.
Qed.
Print Assumptions C110_sheet.

Lemma good_amp : good amp_selector.
Proof. intros parents H. cbn. split; [exact H|exact I]. Qed.
Lemma existsb_forall2 {A B} (f : A -> bool) (R : A -> B -> Prop) (S : B -> Prop) l m :
  Forall2 R l m -> (forall a b, R a b -> In b m -> (f a = true <-> S b)) -> existsb f l = true <-> exists b, In b m /\ S b.
Proof.
  induction 1 as [|a b l m Hab H IH]; intros K; cbn; [split; [discriminate|intros (? & [] & _)]|]. rewrite orb_true_iff, (K a b Hab (or_introl eq_refl)), IH by (intros a' b' Ha Hb; apply K; [exact Ha|right; exact Hb]). split.
  - intros [Hb|(y & Hy & Hb)]; eauto.
  - intros (y & [<- |Hy] & Hb); eauto.
Qed.
(** And each declaration applies to exactly the nodes that one of those selectors describes (with C101). *)
Theorem C110_nodes : forall nodes w, consistent nodes w -> exists enough, forall fuel, enough <= fuel ->
  forall D nth stuck (declare : text -> list tree -> @decl_result D) url_value s, reads_front nth -> ~ In "\"%char s ->
  let rules := own (sheet (real_selectors nth stuck) declare url_value s) in
  exists b, load amp_selector substitute rules = Some b /\
    Forall2 (fun x e => snd x = n_decl e /\ Forall (fun c => c_layer c = dotted (n_layer e) /\ c_media c = n_media e) (fst x) /\
               forall n, existsb (fun c => matches_selector w fuel (resolve [] (c_sel c)) n) (fst x) = true <-> exists v, In v (n_alts e) /\ sat w v None n)
      (declarations b) (flat_map (top_entries below amp_selector [] []) rules).
Proof.
  intros nodes w C. destruct (matching_ok nodes w C) as [enough H]. exists enough. intros fuel F D nth stuck declare url_value s Hn Hs rules.
  destruct (C110_sheet D nth stuck declare url_value s Hn Hs) as (b & E & Hb). exists b. split; [exact E|]. fold rules in Hb.
  assert (G : Forall (fun e => Forall parsed (n_alts e)) (flat_map (top_entries below amp_selector [] []) rules)).
  { pose proof (sheet_sels good (real_selectors nth stuck) declare url_value (fun nested l ss Hl => proj1 (real_good _ _ _ _ _ Hn Hl)) (parsed_white s)) as S. change (Forall (top_sels good) rules) in S.
    clear Hb E. clearbody rules. induction S as [|t l Ht Hl IH]; [constructor|]. cbn [flat_map]. apply Forall_app. split; [|exact IH].
    apply (tops_good good below amp_selector parsed good_amp); [|exact Ht]. intros p vs Hp Hv. apply Hp. apply all_of_Forall. exact Hv. }
  induction Hb as [|x e xs es [Hd Hx] Hr IH]; [constructor|]. inversion G as [|? ? Ge Gr]; subst. constructor; [|apply IH; exact Gr].
  split; [exact Hd|]. split.
  - clear - Hx. induction Hx as [|c v cs vs (A & B & _) Hx IH]; constructor; auto.
  - intros n. eapply existsb_forall2; [exact Hx|]. intros c v (_ & _ & Ev) Hv. rewrite Ev. apply H; [exact F|]. rewrite Forall_forall in Ge. apply Ge. exact Hv.
Qed.
Print Assumptions C110_nodes.

(** The declarations of a block in a rule: its `&` is what the parser makes of that text, and describes the nodes that the rule around it does. *)
Theorem C110_blocks : (forall nth, parse_single_for_nested nth (parsed_white (tx "&")) = SOk amp_selector) /\
  forall w parents n, sat w (below amp_selector parents) None n <-> exists p, In p parents /\ sat w p None n.
Proof.
  split; [intros nth; vm_compute; reflexivity|]. intros w parents n. cbn. split.
  - intros [H _]. induction parents as [|p ps IH]; [destruct H|]. destruct H as [H|H]; [exists p; split; [left; reflexivity|exact H]|]. destruct (IH H) as (q & Hq & Hs). exists q. split; [right; exact Hq|exact Hs].
  - intros (p & Hp & Hs). split; [|exact I]. induction parents as [|q ps IH]; [destruct Hp|]. destruct Hp as [->|Hp]; [left; exact Hs|right; apply IH; exact Hp].
Qed.
Print Assumptions C110_blocks.

(** ** Non-vacuity *)
Definition ex_text : text := tx "@layer base { .parent, b { color: red; > .child:hover { width: auto } @media (min-width: 100px) { color: blue } &.x & { color: green } ? { color: black } } } .none { color: white }".
Example ex_sheet : ~ In "\"%char ex_text /\ reads_front ex_nth /\ exists b, load amp_selector substitute (own (sheet (real_selectors ex_nth (fun _ _ => false)) ex_declare ex_url ex_text)) = Some b /\
  let p0 := [One [Class "parent"]; One [LocalName "b"]] in
  map (fun x => (map (fun c => (c_layer c, resolve [] (c_sel c))) (fst x), snd x)) (declarations b) =
  [ (map (fun s => (tx "base", s)) p0, tx "color:red");
    ([(tx "base", Then [Class "child"; State Hover] Child (One [Is false p0]))], tx "width:auto");
    ([(tx "base", One [Is false p0])], tx "color:blue");
    ([(tx "base", Then [Is false p0] Descendant (One [Is false p0; Class "x"]))], tx "color:green");
    ([([], One [Class "none"])], tx "color:white") ] /\
  map (fun x => map (fun n => existsb (fun c => matches_selector pworld 7 (resolve [] (c_sel c)) n) (fst x)) [0; 1; 2; 3; 4]) (declarations b) =
  [[true; false; false; false; false]; [false; false; true; true; false]; [true; false; false; false; false]; [false; false; false; false; false]; [false; false; false; false; false]] /\
  consistent [0; 1; 2; 3; 4; 5; 6] pworld.
Proof.
  split; [intros H; vm_compute in H; repeat (destruct H as [H|H]; [discriminate|]); exact H|]. split; [apply ex_front|].
  destruct (load amp_selector substitute (own (sheet (real_selectors ex_nth (fun _ _ => false)) ex_declare ex_url ex_text))) as [b|] eqn:E; [|vm_compute in E; discriminate].
  exists b. split; [reflexivity|]. cbv zeta. vm_compute in E. injection E as <-. split; [vm_compute; reflexivity|]. split; [vm_compute; reflexivity|]. apply pworld_consistent.
Qed.
