(** Model of how the rules that are active on a node follow every change, of the nodes' data and of the hierarchy:
    crates/bevy_flair_style/src/css_selector/element.rs:99-291 (elements leave flags behind when they are asked for),
    systems.rs:444-540 (which nodes are matched again) and the matching part of systems.rs:755-839.
    Invalidation.v has this for a hierarchy that does not change and any matching algorithm, Structural.v for compound selectors;
    here it is the algorithm of Matching.v (the `selectors` crate, not part of /repo), as a program that asks for one element after the
    other, for all its selectors.  Of the flags the crate sets on an element only those are modelled that systems.rs reads, and those
    only where they are sure to be set: [HAS_SLOW_SELECTOR_LATER_SIBLINGS] on every element on which a compound right of [+] or [~]
    was tried ("we need the flags even if we don't match"), [HAS_SLOW_SELECTOR_NTH] or [HAS_EDGE_CHILD_SELECTOR] for child-indexed
    pseudo-classes without [of], [HAS_EMPTY_SELECTOR]; not those of [:has].  More flags would only mark more nodes. *)
From Coq Require Import String.
From Verif Require Import Base Tree Siblings Invalidation Matching.
Open Scope string_scope.
Open Scope list_scope.

(** ** Programs that look at elements *)
(** An element handle is the way from the element being matched, last step first.  [Go]: element.rs:143-191, the flag is put on the
    element reached.  [Read]: the data (element.rs:193-251, 261-263, 274-290).  [Childless]: element.rs:253-259 with
    [HAS_EMPTY_SELECTOR].  [Mark]: element.rs:265-272 with one of the other flags above.  [Same]: element.rs:139-141, are two handles the
    same element? *)
Inductive eprog (R : Type) : Type :=
| Done (r : R)
| Go (d : dir) (from : list dir) (k : bool -> eprog R)
| Read (at_ : list dir) (k : option node_data -> eprog R)
| Childless (at_ : list dir) (k : bool -> eprog R)
| Mark (at_ : list dir) (k : eprog R)
| Same (a b : list dir) (k : bool -> eprog R).
Arguments Done {R} r.
Arguments Go {R} d from k.
Arguments Read {R} at_ k.
Arguments Childless {R} at_ k.
Arguments Mark {R} at_ k.
Arguments Same {R} a b k.
Fixpoint bind {A B} (p : eprog A) (f : A -> eprog B) : eprog B :=
  match p with
  | Done a => f a
  | Go d q k => Go d q (fun x => bind (k x) f)
  | Read q k => Read q (fun x => bind (k x) f)
  | Childless q k => Childless q (fun x => bind (k x) f)
  | Mark q k => Mark q (bind k f)
  | Same a b k => Same a b (fun x => bind (k x) f)
  end.

(** element.rs:143-191 *)
Definition move (w : world) (d : dir) (n : nat) : option nat :=
  match d with Up => parent_element w n | Prev => prev_sibling_element w n | Next => next_sibling_element w n | FirstChild => first_element_child w n end.
Fixpoint reach (w : world) (n : nat) (path : list dir) : option nat :=
  match path with [] => Some n | d :: path => match reach w n path with Some m => move w d m | None => None end end.
(** components.rs:186-214 NodeStyleSelectorFlags: [e_rec] the RecalculateOnChangeFlags, [e_pos] one of HAS_SLOW_SELECTOR_NTH,
    HAS_EDGE_CHILD_SELECTOR, HAS_SLOW_SELECTOR_LATER_SIBLINGS, [e_emp] HAS_EMPTY_SELECTOR *)
Record eflags := mk_eflags { e_rec : rflags; e_pos : bool; e_emp : bool }.
Definition no_eflags : eflags := mk_eflags no_flags false false.
Definition or_eflags (a b : eflags) : eflags := mk_eflags (or_flags (e_rec a) (e_rec b)) (e_pos a || e_pos b) (e_emp a || e_emp b).
Definition put (fl : nat -> eflags) (n : nat) (f : eflags) : nat -> eflags := fun a => if Nat.eqb a n then or_eflags (fl a) f else fl a.
Definition put_at (fl : nat -> eflags) (o : option nat) (f : eflags) : nat -> eflags := match o with Some n => put fl n f | None => fl end.
Definition same (a b : option nat) : bool := match a, b with Some a, Some b => Nat.eqb a b | _, _ => false end.
Definition found {A} (o : option A) : bool := match o with Some _ => true | None => false end.
Definition data_at (w : world) (o : option nat) : option node_data := match o with Some m => w_data w m | None => None end.
Definition childless (w : world) (o : option nat) : bool := match o with Some m => is_empty w m | None => false end.
(** Running a program on the element [n] *)
Fixpoint exec {R} (w : world) (n : nat) (p : eprog R) (fl : nat -> eflags) : R * (nat -> eflags) :=
  match p with
  | Done r => (r, fl)
  | Go d q k => exec w n (k (found (reach w n (d :: q)))) (put_at fl (reach w n (d :: q)) (mk_eflags (flag_of d) false false))
  | Read q k => exec w n (k (data_at w (reach w n q))) fl
  | Childless q k => exec w n (k (childless w (reach w n q))) (put_at fl (reach w n q) (mk_eflags no_flags false true))
  | Mark q k => exec w n k (put_at fl (reach w n q) (mk_eflags no_flags true false))
  | Same a b k => exec w n (k (same (reach w n a) (reach w n b))) fl
  end.

(** ** The matching algorithm: Matching.v's [run] and [test], one element after the other *)
Definition pany {A} (P : A -> eprog bool) : list A -> eprog bool :=
  fix any l := match l with [] => Done false | x :: l => bind (P x) (fun b => if b then Done true else any l) end.
Definition pall {A} (P : A -> eprog bool) : list A -> eprog bool :=
  fix all l := match l with [] => Done true | x :: l => bind (P x) (fun b => if b then all l else Done false) end.
Definition dir_for (k : combinator) : dir := match k with Child | Descendant | PseudoOf => Up | NextSibling | LaterSibling => Prev end.
Definition sideways (k : combinator) : bool := match k with NextSibling | LaterSibling => true | _ => false end.
(** the loop over the candidates *)
Fixpoint ptry (k : combinator) (run : list dir -> eprog outcome) (fuel : nat) (path : list dir) : eprog outcome :=
  let none := match k with NextSibling | LaterSibling => RestartDescendant | _ => NotGlobally end in
  match fuel with
  | 0 => Done none
  | S fuel =>
      Go (dir_for k) path (fun there =>
        if there then
          bind (run (dir_for k :: path)) (fun r =>
            match r, k with
            | Matched, _ => Done Matched
            | NotGlobally, _ => Done NotGlobally
            | r, NextSibling => Done r
            | _, Child | _, PseudoOf => Done RestartDescendant
            | RestartDescendant, LaterSibling => Done RestartDescendant
            | _, _ => ptry k run fuel (dir_for k :: path)
            end)
        else Done none)
  end.
(** the elements in one direction that count *)
Fixpoint pcount (d : dir) (counts : list dir -> eprog bool) (fuel : nat) (path : list dir) : eprog nat :=
  match fuel with
  | 0 => Done 0
  | S fuel =>
      Go d path (fun there =>
        if there then bind (counts (d :: path)) (fun c => bind (pcount d counts fuel (d :: path)) (fun n => Done (if c then S n else n))) else Done 0)
  end.
Definition pnth (fuel : nat) (from_end edge : bool) (a b : Z) (counts : list dir -> eprog bool) (path : list dir) : eprog bool :=
  let d := if from_end then Next else Prev in
  if (edge && (a =? 0)%Z && (b =? 1)%Z)%bool then Go d path (fun there => Done (negb there))
  else bind (pcount d counts fuel path) (fun n => Done (nth_index_ok a b (1 + Z.of_nat n))).
(** is there one among the following siblings, the children, the descendants? *)
Fixpoint pnexts (P : list dir -> eprog bool) (fuel : nat) (path : list dir) : eprog bool :=
  match fuel with
  | 0 => Done false
  | S fuel => Go Next path (fun there => if there then bind (P (Next :: path)) (fun b => if b then Done true else pnexts P fuel (Next :: path)) else Done false)
  end.
Definition pchildren (P : list dir -> eprog bool) (fuel : nat) (path : list dir) : eprog bool :=
  Go FirstChild path (fun there =>
    if there then bind (P (FirstChild :: path)) (fun b => if b then Done true else pnexts P fuel (FirstChild :: path)) else Done false).
Fixpoint psubtree (P : list dir -> eprog bool) (fuel deep : nat) (path : list dir) : eprog bool :=
  match deep with 0 => Done false | S deep => pchildren (fun c => bind (P c) (fun b => if b then Done true else psubtree P fuel deep c)) fuel path end.
Definition pcandidates (P : list dir -> eprog bool) (fuel : nat) (s : complex) (path : list dir) : eprog bool :=
  let down := existsb vertical (others s) in
  let along := existsb (fun k => negb (vertical k)) (others s) in
  match leftmost s with
  | Some Descendant => psubtree P fuel fuel path
  | Some Child => if down then psubtree P fuel fuel path else pchildren P fuel path
  | Some NextSibling => pnexts (if down then psubtree P fuel fuel else P) (if along then fuel else 1) path
  | Some LaterSibling => pnexts (if down then psubtree P fuel fuel else P) fuel path
  | _ => Done false
  end.
Definition read (path : list dir) (f : node_data -> bool) : eprog bool := Read path (fun o => Done (match o with Some d => f d | None => false end)).
Definition of_same_type (path path2 : list dir) : eprog bool :=
  Read path (fun o => Read path2 (fun o2 => Done (match o, o2 with
    | Some d, Some d2 => match nd_type d with Some _ => opt_eqb (nd_type d) (nd_type d2) | None => false end
    | _, _ => false end))).
Definition matched (p : eprog outcome) : eprog bool := bind p (fun o => Done (is_matched o)).

Fixpoint prun (fuel : nat) (s : complex) (anchor : option (list dir)) (path : list dir) : eprog outcome :=
  match s with
  | One c => bind (pall (fun x => ptest fuel x anchor path) c) (fun b => Done (if b then Matched else RestartLaterSibling))
  | Then c k r =>
      bind (pall (fun x => ptest fuel x anchor path) c) (fun b =>
        let go_on := if b then ptry k (prun fuel r anchor) fuel path else Done RestartLaterSibling in
        if sideways k then Mark path go_on else go_on)
  end
with ptest (fuel : nat) (x : simple) (anchor : option (list dir)) (path : list dir) : eprog bool :=
  match x with
  | Universal => Done true
  | LocalName s => read path (fun d => opt_eqb (nd_type d) (Some s))
  | Id s => read path (fun d => match nd_id d with Some i => String.eqb i s | None => false end)
  | Class s => read path (fun d => existsb (fun c => String.eqb c s) (nd_classes d))
  | AttrExists k => read path (fun d => match attribute d k with Some _ => true | None => false end)
  | Attr k op => read path (fun d => match attribute d k with Some v => op v | None => false end)
  | State p => read path (fun d => nd_state d p)
  | Root => read path nd_root
  | Empty => Childless path (fun b => Done b)
  | PseudoEl k => read path (fun d => match nd_pseudo d, k with Some Before, Before | Some After, After => true | _, _ => false end)
  | Anchor => match anchor with Some a => Same a path (fun b => Done b) | None => Done true end
  | Nth from_end of_type a b =>
      Mark path (pnth fuel from_end (negb of_type) a b (fun q => if of_type then of_same_type path q else Done true) path)
  | NthOf from_end a b l =>
      bind (pany (fun s => matched (prun fuel s anchor path)) l) (fun m =>
        if m then pnth fuel from_end false a b (fun q => pany (fun s => matched (prun fuel s anchor q)) l) path else Done false)
  | Is _ l => pany (fun s => matched (prun fuel s anchor path)) l
  | Not l => bind (pany (fun s => matched (prun fuel s anchor path)) l) (fun b => Done (negb b))
  | Has l => pany (fun s => pcandidates (fun q => matched (prun fuel s (Some path) q)) fuel s path) l
  end.
(** style_sheet.rs:294-309: a rule is a selector, whether its media queries hold, and the id of its ruleset *)
Definition erule := (complex * bool * nat)%type.
Fixpoint sheet_prog (fuel : nat) (rules : list erule) : eprog (list nat) :=
  match rules with
  | [] => Done []
  | (s, media, id) :: rules =>
      bind (matched (prun fuel s None [])) (fun b => bind (sheet_prog fuel rules) (fun ids => Done (if (b && media)%bool then id :: ids else ids)))
  end.

(** ** The systems *)
(** What happened before a frame: the world now, the rules of the style sheet of a node, if it is loaded, and what change detection reports:
    [g_children]: Changed<Children> or RemovedComponents<Children>; [g_changed]: Changed<NodeStyleData>; [g_inline]:
    Changed<RawInlineStyle>; [g_touched]: Changed<NodeStyleMarker>; [g_marked]: nodes marked earlier in the frame by other systems
    (systems.rs:179, 610) or the user, [g_late] after mark_changed_nodes_for_recalculation (systems.rs:423, 440: media);
    [g_reset]: nodes whose flags were reset (systems.rs:180-183) *)
Record eframe := mk_eframe { g_world : world; g_rules : nat -> option (list erule); g_children : nat -> bool; g_changed : nat -> bool; g_inline : nat -> bool;
  g_touched : nat -> bool; g_marked : nat -> bool; g_late : nat -> bool; g_reset : nat -> bool }.
Record estate (R : Type) := mk_estate { a_flags : nat -> eflags; a_needs : nat -> bool; a_active : nat -> option R }.
Arguments mk_estate {R}.
Arguments a_flags {R}.
Arguments a_needs {R}.
Arguments a_active {R}.
Definition mem (n : nat) (l : list nat) : bool := existsb (Nat.eqb n) l.
(** systems.rs:444-484 set_related_nodes_for_style_recalculation *)
Fixpoint related_marks (f : eframe) (fuel : nat) (fl : nat -> eflags) (nodes : list nat) : option (list nat) :=
  match nodes with
  | [] => Some []
  | p :: nodes =>
      match related_marks f fuel fl nodes with
      | None => None
      | Some rest =>
          if g_children f p then
            match (if e_pos (fl p) then option_map (map snd) (iter_ui_descendants_with_parent (w_tree (g_world f)) fuel p) else Some []) with
            | Some d => Some ((if e_emp (fl p) then [p] else []) ++ d ++ rest)
            | None => None
            end
          else Some rest
      end
  end.
(** systems.rs:486-540 mark_changed_nodes_for_recalculation: Invalidation.v's, with the reports of this frame *)
Definition changed_marks (f : eframe) (fuel : nat) (touched needs : nat -> bool) (fl : nat -> eflags) (nodes : list nat) : option (list nat) :=
  to_be_marked (w_tree (g_world f)) fuel (mk_iframe (w_data (g_world f)) (g_changed f) touched (g_inline f) (fun _ => false) (fun _ => false)) needs (fun n => e_rec (fl n)) nodes.
(** systems.rs:775-826, the matching part *)
Fixpoint ecalculate {R} (w : world) (progs : nat -> option (eprog R)) (needs : nat -> bool) (nodes : list nat) (fl : nat -> eflags) (active : nat -> option R) : (nat -> eflags) * (nat -> option R) :=
  match nodes with
  | [] => (fl, active)
  | e :: nodes =>
      match needs e, progs e with
      | true, Some p => let (r, fl) := exec w e p fl in ecalculate w progs needs nodes fl (fun a => if Nat.eqb a e then Some r else active a)
      | _, _ => ecalculate w progs needs nodes fl active
      end
  end.
(** a node that does not exist (no NodeStyleData) has no marker and no flags; when it is spawned it has the default ones (components.rs:95-103) *)
Definition gone (f : eframe) (n : nat) : bool := match w_data (g_world f) n with Some _ => false | None => true end.
Definition after_reset {R} (f : eframe) (s : estate R) : nat -> eflags := fun n => if (g_reset f n || gone f n)%bool then no_eflags else a_flags s n.
(** the nodes that are matched in this frame *)
Definition noticed_now {R} (f : eframe) (nodes : list nat) (fuel : nat) (s : estate R) : option (nat -> bool) :=
  let fl := after_reset f s in
  match related_marks f fuel fl nodes with
  | None => None
  | Some l1 =>
      let needs1 := fun n => (a_needs s n || g_marked f n || mem n l1)%bool in
      match changed_marks f fuel (fun n => (g_touched f n || g_marked f n || mem n l1)%bool) needs1 fl nodes with
      | None => None
      | Some l2 => Some (fun n => (needs1 n || mem n l2 || g_late f n || gone f n)%bool)
      end
  end.
(** One frame; the marker is cleared at the end of set_property_values (systems.rs:860-905), unless the sheet is not loaded *)
Definition estep {R} (progs : eframe -> nat -> option (eprog R)) (nodes : list nat) (fuel : nat) (f : eframe) (s : estate R) : option (estate R) :=
  match noticed_now f nodes fuel s with
  | None => None
  | Some needs =>
      let (fl, active) := ecalculate (g_world f) (progs f) needs nodes (after_reset f s) (a_active s) in
      Some (mk_estate fl (fun n => needs n && match progs f n with None => true | Some _ => negb (mem n nodes) end)%bool active)
  end.
Fixpoint esteps {R} (progs : eframe -> nat -> option (eprog R)) (nodes : list nat) (fuel : nat) (fs : list eframe) (s : estate R) : option (estate R) :=
  match fs with
  | [] => Some s
  | f :: fs => match estep progs nodes fuel f s with Some s => esteps progs nodes fuel fs s | None => None end
  end.
(** components.rs:95-103 *)
Definition new_nodes {R} : estate R := mk_estate (fun _ => no_eflags) (fun _ => true) (fun _ => None).
(** [mf]: fuel of the matching *)
Definition rule_progs (mf : nat) (f : eframe) (n : nat) : option (eprog (list nat)) := option_map (sheet_prog mf) (g_rules f n).
