(** C109: selectors mean what is written. *)
From Coq Require Import Ascii String NArith ZArith.
From Verif Require Import Base VarText SheetText Tree Siblings Matching MatchingSpec MatchingProofs SelText SelTextSpec SelTextProofs SelTextProofs2 SelTextProofs3 Prop_Matching.
Open Scope string_scope.
Open Scope list_scope.
Open Scope nat_scope.

(** C109.  The text of a rule is accepted exactly if it is a list of selectors in the grammar of CSS (SelTextSpec), and then it is read as
    the list that is written: types, classes, attributes, pseudo-classes with lists in brackets, combinators, pseudo-elements, and in a nested
    rule `&` or what stands for it.  [parents] are the selectors of the rule around it. *)
Theorem C109_reads : forall nested parents nth l ss, reads_front nth ->
  (exists ps, parse_comma_separated nested nth l = Some ps /\ map (resolve parents) ps = ss) <-> stands_for nested parents nth eval_str l ss.
Proof. exact reads_ok. Qed.
Print Assumptions C109_reads.

(** The grammar is not ambiguous, and lists are not empty. *)
Theorem C109_unique : forall nested parents nth l ss ss', reads_front nth -> stands_for nested parents nth eval_str l ss -> stands_for nested parents nth eval_str l ss' -> ss = ss' /\ ss <> [].
Proof.
  intros nested parents nth l ss ss' Hn H H'. split.
  - apply reads_ok in H as (ps & E & <-); [|exact Hn]. apply reads_ok in H' as (ps' & E' & <-); [|exact Hn]. rewrite E in E'. injection E' as <-. reflexivity.
  - destruct H as (n & H). specialize (H (S n) ltac:(lia)). cbn [reads] in H. destruct H; discriminate.
Qed.
Print Assumptions C109_unique.

(** What the operators of attributes mean: = ~= |= ^= $= *=, with and without the flag i. *)
Theorem C109_operators : forall op ci v x, eval_str op ci v x = true <-> attr_means op ci (list_ascii_of_string v) (list_ascii_of_string x).
Proof. intros. apply eval_text_ok. Qed.
Print Assumptions C109_operators.

Lemma nest_ok nth : reads_front nth -> forall ls parents us, nest nth parents ls = Some us <-> nested_for nth eval_str parents ls us.
Proof.
  intros Hn. induction ls as [|l ls IH]; intros parents us; cbn [nest].
  - split; [intros E; injection E as <-; constructor|]. intros H. inversion H; reflexivity.
  - split.
    + destruct (parse_comma_separated true nth l) as [ps|] eqn:E; [|discriminate]. intros H. apply IH in H. econstructor; [|exact H]. apply reads_ok; [exact Hn|]. exists ps. auto.
    + intros H. inversion H as [|? ? ts ? ? Hl Hr]; subst. apply reads_ok in Hl as (ps & -> & <-); [|exact Hn]. apply IH. exact Hr.
Qed.
(** Rules in rules, to any depth. *)
Theorem C109_nested : forall nth l ls us, reads_front nth ->
  nested_rule nth l ls = Some us <-> exists ss, stands_for false [] nth eval_str l ss /\ nested_for nth eval_str ss ls us.
Proof.
  intros nth l ls us Hn. unfold nested_rule. split.
  - destruct (parse_comma_separated false nth l) as [ps|] eqn:E; [|discriminate]. intros H. apply (nest_ok nth Hn) in H. eexists. split; [|exact H]. apply reads_ok; [exact Hn|]. exists ps. auto.
  - intros (ss & Hl & H). apply reads_ok in Hl as (ps & -> & <-); [|exact Hn]. apply (nest_ok nth Hn). exact H.
Qed.
Print Assumptions C109_nested.

Lemma stands_parsed nested parents nth l ss : all_of parsed parents -> stands_for nested parents nth eval_str l ss -> all_of parsed ss.
Proof.
  intros Hp (n & H). specialize (H n ltac:(lia)). apply reads_shape in H; [|exact Hp|discriminate]. clear - H. induction ss as [|s ss IH]; [exact I|]. destruct H as [[H _] H2]. split; [exact H|apply IH; exact H2].
Qed.
Lemma nested_parsed nth ss ls us : nested_for nth eval_str ss ls us -> all_of parsed ss -> all_of parsed us.
Proof. induction 1 as [ss|ss l ts ls us Hl Hr IH]; [trivial|]. intros Hp. apply IH. eapply stands_parsed; eauto. Qed.
Lemma existsb_iff {A} (f : A -> bool) (P : A -> Prop) l : all_of (fun x => f x = true <-> P x) l -> (existsb f l = true <-> exists x, In x l /\ P x).
Proof.
  induction l as [|x l IH]; cbn; [intros _; split; [discriminate|intros (? & [] & _)]|]. intros [Hx Hl]. rewrite orb_true_iff, Hx, (IH Hl). split.
  - intros [H|(y & Hy & H)]; eauto.
  - intros (y & [<- |Hy] & H); eauto.
Qed.
Lemma all_imp {A} (P Q : A -> Prop) l : (forall x, P x -> Q x) -> all_of P l -> all_of Q l.
Proof. intros H. induction l as [|x l IH]; [trivial|]. intros [H1 H2]. split; [auto|apply IH; exact H2]. Qed.
(** From the text to the nodes: a rule in rules applies to exactly the nodes that one of its selectors, as written, describes (with C101). *)
Theorem C109_matches : forall nodes w nth, consistent nodes w -> reads_front nth -> exists enough, forall fuel, enough <= fuel ->
  forall l ls us ss n, nested_rule nth l ls = Some us -> stands_for false [] nth eval_str l ss -> forall ts, nested_for nth eval_str ss ls ts ->
  existsb (fun s => matches_selector w fuel s n) us = true <-> exists s, In s ts /\ sat w s None n.
Proof.
  intros nodes w nth C Hn. destruct (matching_ok nodes w C) as [enough H]. exists enough. intros fuel F l ls us ss n E Hl ts Ht.
  assert (us = ts) as ->. { assert (nested_rule nth l ls = Some ts) as E' by (apply C109_nested; eauto). rewrite E in E'. injection E' as ->. reflexivity. }
  apply existsb_iff. eapply all_imp; [|eapply nested_parsed; [exact Ht|eapply (stands_parsed false []); [exact I|exact Hl]]]. intros s Hs. apply H; assumption.
Qed.
Print Assumptions C109_matches.

(** No `|` in the text: no selector asks for the namespace, which would panic. *)
Theorem C109_no_panic_partial : forall nested nth l ps, reads_front nth -> ~ has_bar l -> parse_comma_separated nested nth l = Some ps -> forallb no_bar ps = true.
Proof. intros nested nth l ps Hn Hl. apply bar_list; assumption. Qed.
Print Assumptions C109_no_panic_partial.

(** ** A reader for An+B, for the examples: odd, even, n, an integer, An and An+B *)
Definition ex_nth (l : list tree) : option (Z * Z * list tree) :=
  match drop_spaces l with
  | Leaf (TIdent s) :: r => if says s "odd" then Some (2, 1, r)%Z else if says s "even" then Some (2, 0, r)%Z else if says s "n" then Some (1, 0, r)%Z else None
  | Leaf (TDim d true u) :: Leaf (TNumber e true) :: r => if says u "n" then Some (mant d, mant e, r) else None
  | Leaf (TDim d true u) :: r => if says u "n" then Some (mant d, 0%Z, r) else None
  | Leaf (TNumber d true) :: r => Some (0%Z, mant d, r)
  | _ => None
  end.
Lemma ex_front : reads_front ex_nth.
Proof.
  intros l a b r H.
  assert (S : exists u, l = u ++ drop_spaces l /\ ~ has_amp u).
  { clear H. induction l as [|x l (u & E & Hu)]; [exists []; split; [reflexivity|intros G; inversion G]|]. cbn. destruct x as [[]| |]; try (exists []; split; [reflexivity|intros G; inversion G; fail]).
    exists (Leaf TWhite :: u). cbn. rewrite <- E. split; [reflexivity|]. intros G. inversion G; auto. }
  destruct S as (u & E & Hu).
  assert (K : forall v, drop_spaces l = v ++ r -> ~ has_amp v -> exists u, l = u ++ r /\ ~ has_amp u).
  { intros v Ev Hv. exists (u ++ v). split; [rewrite <- app_assoc, <- Ev; exact E|]. clear - Hu Hv. induction u as [|x u IH]; [exact Hv|]. intros G. cbn in G. inversion G; subst; try (apply Hu; constructor; assumption). apply IH; [|assumption]. intros G'. apply Hu. apply amp_later. exact G'. }
  assert (K1 : forall t, (forall c, t <> TDelim c) -> ~ has_amp [Leaf t]) by (intros t Ht G; inversion G as [? G'| | |? ? G']; [exact (Ht _ (eq_sym G'))|inversion G']).
  unfold ex_nth in H. destruct (drop_spaces l) as [|[[]| |] l'] eqn:Ed; try discriminate.
  - destruct (says s "odd"); [|destruct (says s "even"); [|destruct (says s "n"); [|discriminate]]]; injection H as <- <- <-; apply (K [Leaf (TIdent s)]); try reflexivity; apply K1; discriminate.
  - destruct int; [|discriminate]. injection H as <- <- <-. apply (K [Leaf (TNumber d true)]); [reflexivity|]. apply K1; discriminate.
  - destruct int; [|discriminate].
    assert (H1 : forall v, l' = v ++ r -> ~ has_amp v -> exists u0, l = u0 ++ r /\ ~ has_amp u0).
    { intros v -> Hv. apply (K (Leaf (TDim d true unit) :: v)); [reflexivity|]. intros G. inversion G; auto. }
    destruct l' as [|[[]| |] l'']; try (destruct (says unit "n"); [injection H as <- <- <-; apply (H1 []); [reflexivity|intros G; inversion G]|discriminate]).
    destruct int; (destruct (says unit "n"); [injection H as <- <- <-|discriminate]).
    + apply (H1 [Leaf (TNumber d0 true)]); [reflexivity|apply K1; discriminate].
    + apply (H1 []); [reflexivity|intros G; inversion G].
Qed.
Definition reads_text (s : string) : option (list complex) := nested_rule ex_nth (parsed_white (tx s)) [].

(** With a `|` the rule is accepted, and the first node it is tried on panics (has_namespace is unimplemented!, element.rs:32-37). *)
Theorem C109_no_panic_refuted : exists s ps, parse_comma_separated false ex_nth (parsed_white (tx s)) = Some ps /\ forallb no_bar ps = false.
Proof. exists "|a", [POne [PNoNamespace; PLocal "a"]]. split; vm_compute; reflexivity. Qed.
Print Assumptions C109_no_panic_refuted.

(** [parse_single] and [FromStr] (partial): a text that is one selector is read as that one. *)
Theorem C109_single_partial : forall nth l s, reads_front nth -> stands_for_one false [] nth eval_str l s -> exists p, parse_single nth l = Some p /\ resolve [] p = s.
Proof. intros nth l s Hn. apply single_ok. exact Hn. Qed.
Print Assumptions C109_single_partial.
(** What is missing is false: more is accepted. Of `a, b` and of `a}{ ?` only `a` is left, without an error; and [parse_single_for_nested] panics at a list. *)
Theorem C109_single_refuted :
  Forall (fun s => parse_single ex_nth (parsed_white (tx s)) = Some (POne [PLocal "a"]) /\ forall x, ~ stands_for_one false [] ex_nth eval_str (parsed_white (tx s)) x) ["a, b"; "a}{ ?"; "a,"; "a! "] /\
  parse_single_for_nested ex_nth (parsed_white (tx "a, b")) = SPanic.
Proof.
  split; [|vm_compute; reflexivity].
  assert (K : forall l, match parse_selector false ex_nth (parse_list false ex_nth (S (depth l))) start RNo l with Some (_, r) => blank r = false | None => True end -> forall x, ~ stands_for_one false [] ex_nth eval_str l x).
  { intros l E x H. destruct (single_all _ _ _ _ ex_front H) as (p & r & E1 & E2 & _). rewrite E1 in E. congruence. }
  repeat apply Forall_cons; try apply Forall_nil; (split; [vm_compute; reflexivity|apply K; vm_compute; reflexivity]).
Qed.
Print Assumptions C109_single_refuted.

(** ** Non-vacuity *)
Example ex_reads :
  reads_text ".a > b:nth-child(2n+1 of .c) ~ #x[k ~= 'v' i]::BEFORE, *:not(:hover, c + d):has(> e, f)" =
  Some [Then [PseudoEl Before] PseudoOf (Then [Id "x"; Attr "k" (eval_str "~" true "v")] LaterSibling (Then [LocalName "b"; NthOf false 2 1 [One [Class "c"]]] Child (One [Class "a"])));
        One [Universal; Not [One [State Hover]; Then [LocalName "d"] NextSibling (One [LocalName "c"])]; Has [Then [LocalName "e"] Child (One [Anchor]); Then [LocalName "f"] Descendant (One [Anchor])]]].
Proof. vm_compute. reflexivity. Qed.
(** a bad member of :is is dropped; one of :not, or of the list itself, is an error; pseudo-elements not in brackets; no & outside *)
Example ex_forgiving : reads_text ":is(.b, ?, c)" = Some [One [Is false [One [Class "b"]; One [Is true []]; One [LocalName "c"]]]] /\
  map reads_text [":not(.b, ?)"; ".b, ?"; ":has(:has(a))"; ":is(&)"; "&"; "a::before b"; "a::before.c"; "a >"; "> a"; "a,"; ""; ". a"; ":nth-of-type(2 of a)"; ":unknown"; "::first-line"] =
  [None; None; None; Some [One [Is false [One [Is true []]]]]; None; None; None; None; None; None; None; None; None; None; None].
Proof. split; vm_compute; reflexivity. Qed.
(** rules in rules: `.a, b { > .y { .z & { .w, &:hover { } } } }` *)
Example ex_nested : let p0 := [One [Class "a"]; One [LocalName "b"]] in let p1 := [Then [Class "y"] Child (One [Is false p0])] in let p2 := [Then [Is false p1] Descendant (One [Class "z"])] in
  nested_rule ex_nth (parsed_white (tx ".a, b")) [parsed_white (tx "> .y"); parsed_white (tx ".z &"); parsed_white (tx ".w, &:hover")] =
    Some [Then [Class "w"] Descendant (One [Is false p2]); One [Is false p2; State Hover]].
Proof. vm_compute. reflexivity. Qed.
(** the hypotheses of C109_matches: `.parent { > .child:hover, .none { } }` *)
Example ex_matches : exists us ss ts, let l := parsed_white (tx ".parent") in let ls := [parsed_white (tx "> .child:hover, .none")] in
  nested_rule ex_nth l ls = Some us /\ stands_for false [] ex_nth eval_str l ss /\ nested_for ex_nth eval_str ss ls ts /\ consistent [0; 1; 2; 3; 4; 5; 6] pworld /\ reads_front ex_nth /\
  map (fun n => existsb (fun s => matches_selector pworld 7 s n) us) [0; 1; 2; 3; 4] = [false; false; true; true; false].
Proof.
  destruct (nested_rule ex_nth (parsed_white (tx ".parent")) [parsed_white (tx "> .child:hover, .none")]) as [us|] eqn:E; [|vm_compute in E; discriminate].
  destruct (proj1 (C109_nested _ _ _ _ ex_front) E) as (ss & H1 & H2). exists us, ss, us. cbv zeta. split; [exact E|]. split; [exact H1|]. split; [exact H2|]. split; [apply pworld_consistent|]. split; [apply ex_front|].
  vm_compute in E. injection E as <-. vm_compute. reflexivity.
Qed.
Example ex_operators : map (fun o => eval_str o true "Ab" "x ab-c") ["~"; "|"; "^"; "$"; "*"; "="]%char = [false; false; false; false; true; false] /\
  eval_str "~" false "ab" "x ab c" = true /\ eval_str "|" false "ab" "ab-c" = true /\ eval_str "^" false "" "ab" = false /\ eval_str "=" false "Ab" "ab" = false /\ eval_str "=" true "Ab" "aB" = true.
Proof. repeat split; vm_compute; reflexivity. Qed.
Example ex_no_bar : exists ps, ~ has_bar (parsed_white (tx "a, .b c")) /\ parse_comma_separated false ex_nth (parsed_white (tx "a, .b c")) = Some ps.
Proof. eexists. split; [|vm_compute; reflexivity]. vm_compute. intros H. repeat (inversion H as [? E|? ? ? G|? ? ? G|? ? G]; clear H; try discriminate; rename G into H). Qed.
Example ex_single : stands_for_one false [] ex_nth eval_str (parsed_white (tx ".a .b")) (Then [Class "b"] Descendant (One [Class "a"])).
Proof.
  exists 0. intros n _. set (l := parsed_white (tx ".a .b")). vm_compute in l. subst l.
  apply (selector _ _ _ _ _ _ _ [] [] None [delim "."; ident ["a"%char]; Leaf TWhite; delim "."; ident ["b"%char]] []); try constructor.
  apply (rest_more _ _ _ _ _ _ None [delim "."; ident ["a"%char]] [Class "a"] [Leaf TWhite] Descendant [delim "."; ident ["b"%char]]).
  - apply (compound _ _ _ _ _ _ [] [] [delim "."; ident ["a"%char]] [Class "a"]); [constructor|reflexivity|]. apply (ss_cons _ _ _ _ _ _ [delim "."; ident ["a"%char]] (Class "a") [] []); constructor; reflexivity.
  - discriminate. - reflexivity. - constructor; [repeat constructor|discriminate].
  - apply (rest_last _ _ _ _ _ _ (Some (Descendant, One [Class "a"]))); [|discriminate].
    apply (compound _ _ _ _ _ _ [] [] [delim "."; ident ["b"%char]] [Class "b"]); [constructor|reflexivity|]. apply (ss_cons _ _ _ _ _ _ [delim "."; ident ["b"%char]] (Class "b") [] []); constructor; reflexivity.
Qed.
