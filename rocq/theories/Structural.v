(** Model of how structural pseudo-classes (:first-child, :last-child, :nth-child, :nth-last-child, :empty) follow changes of the
    hierarchy: crates/bevy_flair_style/src/systems.rs:444-484 (set_related_nodes_for_style_recalculation), 486-540
    (mark_changed_nodes_for_recalculation), the matching part of 755-839, and css_selector/element.rs:131-177, 257-275.
    One style sheet, loaded, for all nodes; rules are compound selectors (combinators: Invalidation.v).  The [selectors] crate is
    not part of /repo; used from its documentation: simple selectors of a compound are tried from left to right until one does not
    match; testing a child-indexed pseudo-class calls `apply_selector_flags` on the element it is tested on, with a flag that
    says that the children of the PARENT of that element were looked at; :empty with one for the element itself; :first-child asks
    for the previous sibling, :last-child for the next one, the others for all before or after.  The argument of :nth-child is a
    predicate on the index.  Siblings are looked up in the list of children (that the links say the same is C33). *)
From Verif Require Import Base Tree.

Inductive test := HasClass (c : nat) | FirstChild | LastChild | NthChild (sel : nat -> bool) | NthLastChild (sel : nat -> bool) | IsEmpty.
Definition rule := list test.
(** [f_pos]: HAS_EDGE_CHILD_SELECTOR, HAS_SLOW_SELECTOR_NTH or HAS_SLOW_SELECTOR_LATER_SIBLINGS; [f_empty]: HAS_EMPTY_SELECTOR;
    [f_sib]: RECALCULATE_SIBLINGS *)
Record sflags := mk_sflags { f_pos : bool; f_empty : bool; f_sib : bool }.
Definition no_sflags := mk_sflags false false false.
Definition or_sflags a b := mk_sflags (f_pos a || f_pos b) (f_empty a || f_empty b) (f_sib a || f_sib b).
Definition put_flags (fl : nat -> sflags) (n : nat) (f : sflags) : nat -> sflags := fun a => if Nat.eqb a n then or_sflags (fl a) f else fl a.

Definition sibling_list (w : forest) (n : nat) : list nat := match parent w n with None => [n] | Some p => children w p end.
Fixpoint before (n : nat) (l : list nat) : list nat := match l with [] => [] | a :: l => if Nat.eqb a n then [] else a :: before n l end.
Fixpoint after (n : nat) (l : list nat) : list nat := match l with [] => [] | a :: l => if Nat.eqb a n then l else after n l end.

(** the answer, the flags for the element (element.rs:265-272 puts them on the element itself), the siblings visited *)
Definition run_test (w : forest) (data : nat -> list nat) (n : nat) (x : test) : bool * sflags * list nat :=
  let l := sibling_list w n in
  match x with
  | HasClass c => (existsb (Nat.eqb c) (data n), no_sflags, [])
  | FirstChild => (match before n l with [] => true | _ => false end, mk_sflags true false false, match rev (before n l) with [] => [] | a :: _ => [a] end)
  | LastChild => (match after n l with [] => true | _ => false end, mk_sflags true false false, match after n l with [] => [] | a :: _ => [a] end)
  | NthChild sel => (sel (S (length (before n l))), mk_sflags true false false, before n l)
  | NthLastChild sel => (sel (S (length (after n l))), mk_sflags true false false, after n l)
  | IsEmpty => (match children w n with [] => true | _ => false end, mk_sflags false true false, [])
  end.
Definition visit (l : list nat) (fl : nat -> sflags) : nat -> sflags := fold_left (fun fl a => put_flags fl a (mk_sflags false false true)) l fl.
Fixpoint run_rule (w : forest) (data : nat -> list nat) (n : nat) (r : rule) (fl : nat -> sflags) : bool * (nat -> sflags) :=
  match r with
  | [] => (true, fl)
  | x :: r => match run_test w data n x with (b, f, v) => let fl := visit v (put_flags fl n f) in if b then run_rule w data n r fl else (false, fl) end
  end.
Fixpoint run_rules (w : forest) (data : nat -> list nat) (n : nat) (rs : list rule) (fl : nat -> sflags) : list bool * (nat -> sflags) :=
  match rs with
  | [] => ([], fl)
  | r :: rs => let (b, fl) := run_rule w data n r fl in let (bs, fl) := run_rules w data n rs fl in (b :: bs, fl)
  end.

Record state := mk_state { s_flags : nat -> sflags; s_needs : nat -> bool; s_active : nat -> list bool }.
(** What happened before a frame: the new hierarchy and data (classes), and what change detection reports: [Changed<Children>],
    [RemovedComponents<Children>], [Changed<NodeStyleData>]; nodes marked for other reasons *)
Record frame := mk_frame { g_forest : forest; g_data : nat -> list nat; g_children : nat -> bool; g_removed : nat -> bool; g_changed : nat -> bool; g_marked : nat -> bool }.

(** systems.rs:456-477 *)
Fixpoint related (f : frame) (fuel : nat) (fl : nat -> sflags) (nodes : list nat) : option (list nat) :=
  match nodes with
  | [] => Some []
  | p :: nodes =>
      match related f fuel fl nodes with
      | None => None
      | Some rest =>
          if (g_children f p || g_removed f p)%bool then
            match (if f_pos (fl p) then option_map (map snd) (iter_ui_descendants_with_parent (g_forest f) fuel p) else Some []) with
            | Some d => Some ((if f_empty (fl p) then [p] else []) ++ d ++ rest)
            | None => None
            end
          else Some rest
      end
  end.
Definition mem (n : nat) (l : list nat) : bool := existsb (Nat.eqb n) l.
(** systems.rs:509-531, with the flags that exist here *)
Definition changed_marks (f : frame) (needs : nat -> bool) (fl : nat -> sflags) (nodes : list nat) : list nat :=
  flat_map (fun e => if (g_changed f e || needs e)%bool then (if g_changed f e then [e] else []) ++ (if f_sib (fl e) then iter_ui_siblings (g_forest f) e else []) else []) nodes.
(** systems.rs:775-826 *)
Fixpoint calculate (w : forest) (data : nat -> list nat) (rs : list rule) (needs : nat -> bool) (nodes : list nat) (fl : nat -> sflags) (active : nat -> list bool) : (nat -> sflags) * (nat -> list bool) :=
  match nodes with
  | [] => (fl, active)
  | e :: nodes =>
      if needs e then let (bs, fl) := run_rules w data e rs fl in calculate w data rs needs nodes fl (fun a => if Nat.eqb a e then bs else active a)
      else calculate w data rs needs nodes fl active
  end.
Definition step (rs : list rule) (nodes : list nat) (fuel : nat) (s : state) (f : frame) : option state :=
  match related f fuel (s_flags s) nodes with
  | None => None
  | Some l =>
      let needs1 := fun n => (s_needs s n || g_marked f n || mem n l)%bool in
      let l2 := changed_marks f needs1 (s_flags s) nodes in
      let needs2 := fun n => (needs1 n || mem n l2)%bool in
      let (fl, active) := calculate (g_forest f) (g_data f) rs needs2 nodes (s_flags s) (s_active s) in
      Some (mk_state fl (fun n => needs2 n && negb (mem n nodes))%bool active)
  end.
Fixpoint frames (rs : list rule) (nodes : list nat) (fuel : nat) (fs : list frame) (s : state) : option state :=
  match fs with
  | [] => Some s
  | f :: fs => match step rs nodes fuel s f with Some s => frames rs nodes fuel fs s | None => None end
  end.
Definition fresh_nodes : state := mk_state (fun _ => no_sflags) (fun _ => true) (fun _ => []).
