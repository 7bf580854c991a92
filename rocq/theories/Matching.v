(** Model of selector matching: crates/bevy_flair_style/src/css_selector/element.rs:74-290 (what the `selectors` crate is told about
    an entity) and css_selector/mod.rs:476-505 (matches_selector), components.rs:311-318, lib.rs:90-99.
    The crate (selectors 0.32) is not part of /repo; its matching is modelled from its documentation and published algorithm:
    right to left, compound by compound, with the four outcomes that tell the loops where to go on.  Not modelled of it: the caches
    (fresh for every call, and the world does not change during one), the Bloom filter of [:has], i32 overflow in [An+B],
    namespaces, shadow trees; an attribute operator is a predicate on the value.  Loops carry fuel.  The flags that
    `related_new` and `apply_selector_flags` leave behind do not change the answer; they are in Invalidation.v and Structural.v. *)
From Coq Require Import String.
From Verif Require Import Base Tree Siblings.
Open Scope string_scope.
Open Scope list_scope.

(** lib.rs:104-117, css_selector/mod.rs:30-38 *)
Inductive pseudo_state := Hover | Active | Focus | FocusVisible | Disabled | Checked.
(** components.rs:252-265 NodeStyleData *)
Record node_data := mk_node_data { nd_type : option string; nd_id : option string; nd_classes : list string;
  nd_attributes : list (string * string); nd_state : pseudo_state -> bool; nd_root : bool; nd_pseudo : option pseudo }.
(** element.rs:74-79 ElementRefSystemParam: NodeStyleData, UiChildren, Siblings *)
Record world := mk_world { w_tree : forest; w_links : nat -> option siblings; w_data : nat -> option node_data }.

(** element.rs:115-131 related_new: an entity without NodeStyleData is no element *)
Definition related_new (w : world) (o : option nat) : option nat :=
  match o with Some e => match w_data w e with Some _ => Some e | None => None end | None => None end.
(** element.rs:143-150 *)
Definition parent_element (w : world) (e : nat) : option nat := related_new w (parent (w_tree w) e).
(** element.rs:152-164 *)
Definition prev_sibling_element (w : world) (e : nat) : option nat :=
  match w_links w e with Some s => related_new w (previous_sibling s) | None => None end.
(** element.rs:166-178 *)
Definition next_sibling_element (w : world) (e : nat) : option nat :=
  match w_links w e with Some s => related_new w (next_sibling s) | None => None end.
(** element.rs:180-191 *)
Definition first_element_child (w : world) (e : nat) : option nat := related_new w (hd_error (children (w_tree w) e)).
(** [ElementRef::new] panics without data (element.rs:99-113); matching is only asked for nodes that have it *)
Definition ask (w : world) (e : nat) (f : node_data -> bool) : bool := match w_data w e with Some d => f d | None => false end.
Definition opt_eqb (a b : option string) : bool := match a, b with Some a, Some b => String.eqb a b | None, None => true | _, _ => false end.
(** element.rs:193-195, components.rs:311-313 *)
Definition has_local_name (w : world) (s : string) (e : nat) : bool := ask w e (fun d => opt_eqb (nd_type d) (Some s)).
(** element.rs:197-203, lib.rs:90-99 *)
Definition match_state (w : world) (p : pseudo_state) (e : nat) : bool := ask w e (fun d => nd_state d p).
(** element.rs:205-215; QuirksMode::NoQuirks compares with case *)
Definition has_id (w : world) (s : string) (e : nat) : bool := ask w e (fun d => match nd_id d with Some i => String.eqb i s | None => false end).
(** element.rs:217-226 *)
Definition has_class (w : world) (s : string) (e : nat) : bool := ask w e (fun d => existsb (fun c => String.eqb c s) (nd_classes d)).
(** element.rs:228-230 *)
Definition is_same_type (w : world) (e f : nat) : bool :=
  ask w e (fun d => ask w f (fun d2 => match nd_type d with Some _ => opt_eqb (nd_type d) (nd_type d2) | None => false end)).
Definition attribute (d : node_data) (k : string) : option string := option_map snd (find (fun kv => String.eqb (fst kv) k) (nd_attributes d)).
(** element.rs:232-247; the namespace of an attribute selector is the empty one *)
Definition attr_matches (w : world) (k : string) (op : string -> bool) (e : nat) : bool :=
  ask w e (fun d => match attribute d k with Some v => op v | None => false end).
(** element.rs:249-251 *)
Definition has_attr (w : world) (k : string) (e : nat) : bool := ask w e (fun d => match attribute d k with Some _ => true | None => false end).
(** element.rs:253-259 *)
Definition is_empty (w : world) (e : nat) : bool := match hd_error (children (w_tree w) e) with None => true | Some _ => false end.
(** element.rs:261-263 *)
Definition is_root (w : world) (e : nat) : bool := ask w e nd_root.
(** element.rs:278-290 *)
Definition match_pseudo_element (w : world) (k : pseudo) (e : nat) : bool :=
  ask w e (fun d => match nd_pseudo d, k with Some Before, Before | Some After, After => true | _, _ => false end).

(** Selectors as the crate keeps them: the subject first.  [PseudoOf] stands between [::before] and what is left of it.
    [Has]: relative selectors; [Anchor], their leftmost compound, is the element [:has] is tested on.  [Is false] is [:is]
    and a replaced [&], [Is true] is [:where].  [:first-child] is [Nth false false 0 1]. *)
Inductive combinator := Child | Descendant | NextSibling | LaterSibling | PseudoOf.
Inductive simple :=
| Universal | LocalName (s : string) | Id (s : string) | Class (s : string) | AttrExists (k : string) | Attr (k : string) (op : string -> bool)
| State (p : pseudo_state) | Root | Empty | PseudoEl (k : pseudo) | Anchor
| Nth (from_end of_type : bool) (a b : Z) | NthOf (from_end : bool) (a b : Z) (l : list complex)
| Is (is_where : bool) (l : list complex) | Not (l : list complex) | Has (l : list complex)
with complex := One (c : list simple) | Then (c : list simple) (k : combinator) (rest : complex).

(** selectors::matching::SelectorMatchingResult *)
Inductive outcome := Matched | RestartLaterSibling | RestartDescendant | NotGlobally.
Definition is_matched (o : outcome) : bool := match o with Matched => true | _ => false end.
(** next_element_for_combinator *)
Definition step_for (w : world) (k : combinator) : nat -> option nat :=
  match k with Child | Descendant | PseudoOf => parent_element w | NextSibling | LaterSibling => prev_sibling_element w end.
Fixpoint chain (next : nat -> option nat) (fuel : nat) (e : nat) : list nat :=
  match fuel with 0 => [] | S fuel => match next e with None => [] | Some x => x :: chain next fuel x end end.
(** matches_complex_selector_internal: the loop over the candidates *)
Fixpoint try_all (k : combinator) (run : nat -> outcome) (l : list nat) : outcome :=
  match l with
  | [] => match k with NextSibling | LaterSibling => RestartDescendant | _ => NotGlobally end
  | e :: l =>
      match run e, k with
      | Matched, _ => Matched
      | NotGlobally, _ => NotGlobally
      | r, NextSibling => r
      | _, Child | _, PseudoOf => RestartDescendant
      | RestartDescendant, LaterSibling => RestartDescendant
      | _, _ => try_all k run l
      end
  end.
(** matches_generic_nth_child: is there a natural number n with An+B = index? *)
Definition nth_index_ok (a b index : Z) : bool :=
  let an := (index - b)%Z in
  if (a =? 0)%Z then (an =? 0)%Z else ((0 <=? Z.quot an a) && (a * Z.quot an a =? an))%Z.
Definition siblings_to (w : world) (from_end : bool) (fuel : nat) (e : nat) : list nat :=
  chain (if from_end then next_sibling_element w else prev_sibling_element w) fuel e.
Definition nth_matches (w : world) (fuel : nat) (from_end edge : bool) (a b : Z) (counts : nat -> bool) (e : nat) : bool :=
  if (edge && (a =? 0)%Z && (b =? 1)%Z)%bool then
    match (if from_end then next_sibling_element w e else prev_sibling_element w e) with None => true | Some _ => false end
  else nth_index_ok a b (1 + Z.of_nat (List.length (filter counts (siblings_to w from_end fuel e)))).

(** RelativeSelectorMatchHint::new and where the candidates of [:has] are looked for *)
Fixpoint leftmost (s : complex) : option combinator := match s with One _ => None | Then _ k r => match leftmost r with None => Some k | o => o end end.
Fixpoint others (s : complex) : list combinator := match s with One _ => [] | Then _ k r => match r with One _ => [] | _ => k :: others r end end.
Definition vertical (k : combinator) : bool := match k with Child | Descendant | PseudoOf => true | _ => false end.
Definition first_and_next (w : world) (fuel : nat) (e : nat) : list nat :=
  match first_element_child w e with None => [] | Some c => c :: chain (next_sibling_element w) fuel c end.
(** matches_relative_selector_subtree: depth first; [deep] bounds the depth *)
Fixpoint subtree (w : world) (fuel deep : nat) (e : nat) : list nat :=
  match deep with 0 => [] | S deep => flat_map (fun c => c :: subtree w fuel deep c) (first_and_next w fuel e) end.
Definition has_candidates (w : world) (fuel : nat) (s : complex) (e : nat) : list nat :=
  let down := existsb vertical (others s) in
  let along := existsb (fun k => negb (vertical k)) (others s) in
  let next1 := match next_sibling_element w e with None => [] | Some m => [m] end in
  let nexts := chain (next_sibling_element w) fuel e in
  match leftmost s with
  | Some Descendant => subtree w fuel fuel e
  | Some Child => if down then subtree w fuel fuel e else first_and_next w fuel e
  | Some NextSibling => if down then flat_map (subtree w fuel fuel) (if along then nexts else next1) else (if along then nexts else next1)
  | Some LaterSibling => if down then flat_map (subtree w fuel fuel) nexts else nexts
  | _ => []
  end.

(** matches_complex_selector_internal, matches_simple_selector *)
Fixpoint run (w : world) (fuel : nat) (s : complex) (anchor : option nat) (e : nat) : outcome :=
  match s with
  | One c => if forallb (fun x => test w fuel x anchor e) c then Matched else RestartLaterSibling
  | Then c k r =>
      if forallb (fun x => test w fuel x anchor e) c
      then try_all k (run w fuel r anchor) (chain (step_for w k) fuel e) else RestartLaterSibling
  end
with test (w : world) (fuel : nat) (x : simple) (anchor : option nat) (e : nat) : bool :=
  match x with
  | Universal => true
  | LocalName s => has_local_name w s e
  | Id s => has_id w s e
  | Class s => has_class w s e
  | AttrExists k => has_attr w k e
  | Attr k op => attr_matches w k op e
  | State p => match_state w p e
  | Root => is_root w e
  | Empty => is_empty w e
  | PseudoEl k => match_pseudo_element w k e
  | Anchor => match anchor with Some a => Nat.eqb a e | None => true end
  | Nth from_end of_type a b => nth_matches w fuel from_end (negb of_type) a b (fun s => (negb of_type || is_same_type w e s)%bool) e
  | NthOf from_end a b l =>
      (existsb (fun s => is_matched (run w fuel s anchor e)) l &&
       nth_matches w fuel from_end false a b (fun m => existsb (fun s => is_matched (run w fuel s anchor m)) l) e)%bool
  | Is _ l => existsb (fun s => is_matched (run w fuel s anchor e)) l
  | Not l => negb (existsb (fun s => is_matched (run w fuel s anchor e)) l)
  | Has l => existsb (fun s => existsb (fun m => is_matched (run w fuel s (Some e) m)) (has_candidates w fuel s e)) l
  end.
(** mod.rs:480-501; there is no anchor outside [:has] *)
Definition matches_selector (w : world) (fuel : nat) (s : complex) (e : nat) : bool := is_matched (run w fuel s None e).
