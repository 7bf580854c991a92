(** C35: style invalidation. *)
From Verif Require Import Base Tree TreeSpec Siblings SiblingsSpec Invalidation InvalidationSpec InvalidationProofs.

(** C35 (partial).  Any matching algorithm that only looks, through the element API, at the element, its
    siblings, its ancestors and its first-child chain: after every history of frames from freshly spawned nodes, every
    node whose style sheet is loaded has exactly the rules that matching it now would give.
    Missing: elements reached by other combinations of steps (refuted below), style sheets changed on part of a
    tree (refuted below), changes of the hierarchy. *)
Theorem C35_fresh_matching_partial :
  forall D R (w : tree) (sheets : D -> option (prog D R)) nodes data0 fs,
  good_tree w -> (forall d p, sheets d = Some p -> only_covered p) -> history (t_forest w) nodes data0 fs -> fs <> [] ->
  exists n0, forall fuel, n0 <= fuel ->
  exists s, iframes w sheets nodes fuel fs (fresh data0) = Some s /\
    Some (i_data s) = option_map f_data (last (map Some fs) None) /\
    forall n p, In n nodes -> sheets (i_data s n) = Some p -> i_active s n = Some (answer w (i_data s) n p).
Proof.
  intros D R w sheets nodes data0 fs Hg Hc Hh Hne. destruct (iframes_total w sheets nodes (proj1 Hg)) as [n0 H0].
  exists n0. intros fuel Hf. destruct (H0 fuel Hf fs (fresh data0)) as [s Hs]. exists s. split; [exact Hs|].
  destruct (frames_settled w sheets nodes fuel fs (fresh data0) s Hg Hc Hne Hh (fresh_settled w sheets nodes data0) Hs) as (H1 & H2 & H3).
  split; [exact H3|]. intros n p Hn Hp. destruct (H1 n Hn) as [H|(p' & Hp' & Ha & _)]; [rewrite (H2 n Hn H) in Hp; discriminate|].
  rewrite Hp in Hp'. injection Hp' as <-. exact Ha.
Qed.
Print Assumptions C35_fresh_matching_partial.

(** C35 (partial).  The same for style sheets of selectors in which, from right to left, sibling combinators come
    before ancestor combinators: after every history the active rules of every node are the rules whose
    selector matches it in the hierarchy with the current data. *)
Theorem C35_selectors_partial :
  forall D (w : tree) (sheets : D -> option (list (selector D * nat))) nodes data0 fs,
  good_tree w ->
  (forall d rules, sheets d = Some rules -> Forall (fun r => siblings_then_ancestors (map fst (s_rest (fst r)))) rules) ->
  history (t_forest w) nodes data0 fs -> fs <> [] ->
  exists n0, forall fuel, n0 <= fuel -> wide (t_forest w) fuel ->
  exists s, iframes w (fun d => option_map (fun rules => match_rules fuel rules []) (sheets d)) nodes fuel fs (fresh data0) = Some s /\
    Some (i_data s) = option_map f_data (last (map Some fs) None) /\
    forall n rules, In n nodes -> sheets (i_data s n) = Some rules ->
      exists ids, selected (t_forest w) (i_data s) n rules ids /\ i_active s n = Some ids.
Proof.
  intros D w sheets nodes data0 fs Hg Hc Hh Hne.
  destruct (marks_total (t_forest w) nodes (proj1 Hg)) as [n0 H0].
  exists n0. intros fuel Hf Hw.
  set (sh := fun d => option_map (fun rules => match_rules fuel rules []) (sheets d)).
  assert (Hsh : forall d p, sh d = Some p -> only_covered p).
  { intros d p Hp. unfold sh in Hp. destruct (sheets d) as [rules|] eqn:Er; [|discriminate]. injection Hp as <-. apply rules_covered. eapply Hc; eauto. }
  assert (exists s, iframes w sh nodes fuel fs (fresh data0) = Some s) as [s Hs].
  { generalize (@fresh D (list nat) data0). clear Hh Hne Hc. induction fs as [|f fs IH]; intros s; [exists s; reflexivity|]. cbn [iframes]. unfold iframe_step.
    destruct (to_be_marked_total (t_forest w) fuel nodes (H0 fuel Hf) f (fun n => i_needs s n || f_marked f n)
      (fun n => if f_flags_reset f n then no_flags else i_flags s n)) as [l Hl].
    rewrite Hl. destruct (calculate _ _ _ _ _ _ _) as [fl' act']. apply IH. }
  exists s. split; [exact Hs|].
  destruct (frames_settled w sh nodes fuel fs (fresh data0) s Hg Hsh Hne Hh (fresh_settled w sh nodes data0) Hs) as (H1 & H2 & H3).
  split; [exact H3|]. intros n rules Hn Hp.
  destruct (H1 n Hn) as [H|(p' & Hp' & Ha & _)]; [specialize (H2 n Hn H); unfold sh in H2; rewrite Hp in H2; discriminate|].
  unfold sh in Hp'. rewrite Hp in Hp'. injection Hp' as <-.
  destruct (rules_answer w (i_data s) fuel n rules Hg Hw) as (ids & Hi & He). exists ids. split; [exact Hi|]. rewrite Ha, (He []). reflexivity.
Qed.
Print Assumptions C35_selectors_partial.

(** ** A concrete hierarchy: 0 has the children 1 and 2, 2 has the children 3 and 4 *)
Definition ex_forest : forest :=
  {| children := fun p => match p with 0 => [1; 2] | 2 => [3; 4] | _ => [] end;
     parent := fun c => match c with 1 | 2 => Some 0 | 3 | 4 => Some 2 | _ => None end |}.
Definition ex_tree : tree :=
  mk_tree ex_forest (fun e => match e with 1 => mk_siblings None (Some 2) | 2 => mk_siblings (Some 1) None
                                         | 3 => mk_siblings None (Some 4) | 4 => mk_siblings (Some 3) None | _ => no_siblings end).
Example ex_good : good_tree ex_tree.
Proof.
  split.
  - split.
    + intros p c. destruct p as [|[|[|p]]]; destruct c as [|[|[|[|[|c]]]]]; simpl; split; intros H; try discriminate; intuition discriminate.
    + intros p. destruct p as [|[|[|p]]]; simpl; repeat constructor; simpl; intuition discriminate.
    + exists (fun c => match c with 1 | 2 => 1 | 3 | 4 => 2 | _ => 0 end), 2. split.
      * intros c p. destruct c as [|[|[|[|[|c]]]]]; simpl; intros H; inversion H; reflexivity.
      * intros n. destruct n as [|[|[|[|[|n]]]]]; simpl; lia.
  - intros [|[|[|[|[|e]]]]]; simpl; try reflexivity.
    + exists [], [2]. auto.
    + exists [1], []. auto.
    + exists [], [4]. auto.
    + exists [3], []. auto.
Qed.
Definition cls (c : nat) (d : nat) : bool := Nat.eqb c d.
(** A frame in which exactly the given nodes change their class *)
Definition ex_frame (data : nat -> nat) (changed : list nat) : iframe nat :=
  mk_iframe data (fun n => existsb (Nat.eqb n) changed) (fun _ => false) (fun _ => false) (fun _ => false) (fun _ => false).
(** [.a > .b ~ .c], seen from 4 *)
Definition ex_rules : list (selector nat * nat) := [(mk_selector (cls 3) [(LaterSibling, cls 2); (Child, cls 1)], 7)].
Definition ex_on (n : nat) : nat := match n with 2 => 1 | 3 => 2 | 4 => 3 | _ => 0 end.
Definition ex_off (n : nat) : nat := match n with 3 => 2 | 4 => 3 | _ => 0 end.
Example C35_example : siblings_then_ancestors (map fst (s_rest (fst (hd (mk_selector (cls 0) [], 0) ex_rules)))) /\
  history ex_forest [0; 1; 2; 3; 4] ex_on [ex_frame ex_on []; ex_frame ex_off [2]] /\
  option_map (fun s => (i_active s 4, i_active s 3)) (iframes ex_tree (fun _ => Some (match_rules 5 ex_rules [])) [0; 1; 2; 3; 4] 20 [ex_frame ex_on []] (fresh ex_on)) = Some (Some [7], Some []) /\
  option_map (fun s => i_active s 4) (iframes ex_tree (fun _ => Some (match_rules 5 ex_rules [])) [0; 1; 2; 3; 4] 20 [ex_frame ex_on []; ex_frame ex_off [2]] (fresh ex_on)) = Some (Some []).
Proof.
  split; [|split; [|vm_compute; auto]].
  - exists [LaterSibling], [Child]. split; [reflexivity|]. split; constructor; auto.
  - cbn. split; [intros n; left; reflexivity|]. split; [intros m n H; discriminate|]. split; [|split; [intros m n H; discriminate|exact I]].
    intros n. cbn. destruct n as [|[|[|[|[|n]]]]]; try (left; reflexivity); right; auto 10.
Qed.

(** ** Refuted: other combinations *)
(** [.a + .b .c]: 3 is the subject; 1 loses its class; 3 keeps the rule. *)
Definition uncle_rules : list (selector nat * nat) := [(mk_selector (cls 3) [(Descendant, cls 2); (NextSibling, cls 1)], 7)].
Definition uncle_on (n : nat) : nat := match n with 1 => 1 | 2 => 2 | 3 => 3 | _ => 0 end.
Definition uncle_off (n : nat) : nat := match n with 2 => 2 | 3 => 3 | _ => 0 end.
Theorem C35_uncle_refuted :
  good_tree ex_tree /\ history ex_forest [0; 1; 2; 3; 4] uncle_on [ex_frame uncle_on []; ex_frame uncle_off [1]] /\
  (forall ids, selected ex_forest uncle_off 3 uncle_rules ids -> ids = []) /\
  option_map (fun s => i_active s 3) (iframes ex_tree (fun _ => Some (match_rules 5 uncle_rules [])) [0; 1; 2; 3; 4] 20
    [ex_frame uncle_on []; ex_frame uncle_off [1]] (fresh uncle_on)) = Some (Some [7]).
Proof.
  split; [exact ex_good|]. split; [|split; [|vm_compute; reflexivity]].
  - cbn. split; [intros n; left; reflexivity|]. split; [intros m n H; discriminate|]. split; [|split; [intros m n H; discriminate|exact I]].
    intros n. cbn. destruct n as [|[|[|[|[|n]]]]]; try (left; reflexivity); right; auto 10.
  - intros ids H. inversion H as [|s id rules ids' Hm Hs|s id rules ids' Hm Hs]; subst.
    + exfalso. destruct Hm as [_ (a & _ & _ & b & _ & Hb & _)]. unfold cls, uncle_off in Hb. destruct b as [|[|[|[|b]]]]; discriminate.
    + inversion Hs. reflexivity.
Qed.
Print Assumptions C35_uncle_refuted.

(** [:has(> .x)]: the matcher visits the first child and then the next siblings; 0 is the subject, its second
    child 2 loses the class; 0 keeps the rule. *)
Definition has_child : prog nat (list nat) :=
  Visit [FirstChild] (fun o => match o with
    | None => Ret []
    | Some 1 => Ret [7]
    | Some _ => Visit [Next; FirstChild] (fun o => match o with Some 1 => Ret [7] | _ => Ret [] end)
    end).
Definition has_on (n : nat) : nat := match n with 2 => 1 | _ => 0 end.
Definition has_off (n : nat) : nat := 0.
Theorem C35_has_refuted :
  good_tree ex_tree /\ history ex_forest [0; 1; 2; 3; 4] has_on [ex_frame has_on []; ex_frame has_off [2]] /\
  answer ex_tree has_off 0 has_child = [] /\
  option_map (fun s => i_active s 0) (iframes ex_tree (fun _ => Some has_child) [0; 1; 2; 3; 4] 20
    [ex_frame has_on []; ex_frame has_off [2]] (fresh has_on)) = Some (Some [7]).
Proof.
  split; [exact ex_good|]. split; [|vm_compute; auto].
  cbn. split; [intros n; left; reflexivity|]. split; [intros m n H; discriminate|]. split; [|split; [intros m n H; discriminate|exact I]].
  intros n. cbn. destruct n as [|[|[|[|[|n]]]]]; try (left; reflexivity); right; auto 10.
Qed.
Print Assumptions C35_has_refuted.

(** ** Refuted: the style sheet of one node changes *)
(** Data: class and style sheet.  [.a + .b]: the style sheet of 1 changes (its flags are reset, it and its descendants are marked);
    in the next frame 1 loses its class; 2 keeps the rule. *)
Definition reset_rules : list (selector (nat * nat) * nat) := [(mk_selector (fun d => cls 2 (fst d)) [(NextSibling, fun d => cls 1 (fst d))], 7)].
Definition reset_data (c s : nat) (n : nat) : nat * nat := match n with 1 => (c, s) | 2 => (2, 0) | _ => (0, 0) end.
Definition reset_frame (data : nat -> nat * nat) (changed reset : list nat) : iframe (nat * nat) :=
  mk_iframe data (fun n => existsb (Nat.eqb n) changed) (fun _ => false) (fun _ => false) (fun n => existsb (Nat.eqb n) reset) (fun n => existsb (Nat.eqb n) reset).
Definition reset_frames : list (iframe (nat * nat)) :=
  [reset_frame (reset_data 1 0) [] []; reset_frame (reset_data 1 1) [1] [1]; reset_frame (reset_data 0 1) [1] []].
Fixpoint all_reported {D} (nodes : list nat) (data : nat -> D) (fs : list (iframe D)) : Prop :=
  match fs with [] => True | f :: fs => reported nodes data f /\ all_reported nodes (f_data f) fs end.
Theorem C35_sheet_change_refuted :
  good_tree ex_tree /\ all_reported [0; 1; 2; 3; 4] (reset_data 1 0) reset_frames /\
  (forall ids, selected ex_forest (reset_data 0 1) 2 reset_rules ids -> ids = []) /\
  option_map (fun s => i_active s 2) (iframes ex_tree (fun d => Some (match_rules 5 (if Nat.eqb (snd d) 0 then reset_rules else []) [])) [0; 1; 2; 3; 4] 20 reset_frames (fresh (reset_data 1 0))) = Some (Some [7]).
Proof.
  split; [exact ex_good|]. split; [|split; [|vm_compute; reflexivity]].
  - cbn. split; [intros n; left; reflexivity|]. split; [|split; [|exact I]]; intros n; cbn; destruct n as [|[|[|[|[|n]]]]]; try (left; reflexivity); right; auto 10.
  - intros ids H. inversion H as [|s id rules ids' Hm Hs|s id rules ids' Hm Hs]; subst.
    + exfalso. destruct Hm as [_ (b & _ & Hb & _)]. unfold cls, reset_data in Hb. destruct b as [|[|[|b]]]; discriminate.
    + inversion Hs. reflexivity.
Qed.
Print Assumptions C35_sheet_change_refuted.
