(** Model of selector matching through the element API with dependency recording, and of the systems that
    decide which nodes are matched again: crates/bevy_flair_style/src/css_selector/element.rs,
    systems.rs:444-540 and the matching part of systems.rs:755-839.

    The hierarchy is Tree.forest and does not change here (every entity of it has [NodeStyleData], which the
    plugin makes a required component of [Node], lib.rs:342-343).  [D] is the type of [NodeStyleData]. *)
From Verif Require Import Base Tree Siblings.

(** The four ways to get from an element to another one: element.rs:131-177 *)
Inductive dir := Up | Prev | Next | FirstChild.

(** components.rs:177-184 RecalculateOnChangeFlags, kept per node in [NodeStyleSelectorFlags] *)
Record rflags := mk_rflags { rec_siblings : bool; rec_descendants : bool; rec_ascendants : bool }.
Definition no_flags : rflags := mk_rflags false false false.
Definition or_flags (a b : rflags) : rflags :=
  mk_rflags (rec_siblings a || rec_siblings b) (rec_descendants a || rec_descendants b) (rec_ascendants a || rec_ascendants b).
(** the flag each of the four functions passes to [related_new] (element.rs:131-177) *)
Definition flag_of (d : dir) : rflags :=
  match d with
  | Up => mk_rflags false true false
  | Prev | Next => mk_rflags true false false
  | FirstChild => mk_rflags false false true
  end.
(** components.rs:243-245 AtomicFlags::insert *)
Definition add_flags (fl : nat -> rflags) (n : nat) (f : rflags) : nat -> rflags :=
  fun a => if Nat.eqb a n then or_flags (fl a) f else fl a.

(** The hierarchy together with the [Siblings] components *)
Record tree := mk_tree { t_forest : forest; t_link : nat -> siblings }.
(** element.rs:131-177, the entity each function looks up *)
Definition step (w : tree) (d : dir) (n : nat) : option nat :=
  match d with
  | Up => parent (t_forest w) n
  | Prev => previous_sibling (t_link w n)
  | Next => next_sibling (t_link w n)
  | FirstChild => hd_error (children (t_forest w) n)
  end.
(** An element handle is what it was obtained from and how: the list of steps from the element being
    matched, last step first. *)
Fixpoint follow (w : tree) (s : nat) (path : list dir) : option nat :=
  match path with
  | [] => Some s
  | d :: path => match follow w s path with Some n => step w d n | None => None end
  end.

(** A matching algorithm (the [selectors] crate, not part of /repo, driven by
    style_sheet.rs:294-309): it obtains elements and reads their data, and finally answers.  Nothing else
    about it is assumed. *)
Inductive prog (D R : Type) : Type :=
| Ret (r : R)
| Visit (path : list dir) (k : option D -> prog D R).
Arguments Ret {D R} r.
Arguments Visit {D R} path k.

(** Running it on the element [s]: element.rs:106-119 related_new puts the flag on the element reached *)
Fixpoint run {D R} (w : tree) (data : nat -> D) (s : nat) (p : prog D R) (fl : nat -> rflags) : R * (nat -> rflags) :=
  match p with
  | Ret r => (r, fl)
  | Visit path k =>
      match follow w s path with
      | None => run w data s (k None) fl
      | Some n => run w data s (k (Some (data n)))
                    (match path with [] => fl | d :: _ => add_flags fl n (flag_of d) end)
      end
  end.

(** ** The systems *)
(** [needs]: NodeStyleMarker::needs_style_recalculation (components.rs:124-126; [needs_reset] is cleared
    earlier in the frame, systems.rs:39-51); [active]: NodeStyleActiveRules. *)
Record istate (D R : Type) := mk_istate { i_data : nat -> D; i_flags : nat -> rflags; i_needs : nat -> bool; i_active : nat -> option R }.
Arguments mk_istate {D R}.
Arguments i_data {D R}.
Arguments i_flags {D R}.
Arguments i_needs {D R}.
Arguments i_active {D R}.

(** What happened since the previous run: the new data, for which nodes change detection reports
    [NodeStyleData], [NodeStyleMarker] and [RawInlineStyle] as changed, the nodes marked by other systems
    (systems.rs:179, 423, 440, 479, 610 or the user) and the nodes whose flags were reset (systems.rs:179-184,
    [NodeStyleSelectorFlags::reset] when the effective style sheet changes). *)
Record iframe (D : Type) := mk_iframe {
  f_data : nat -> D; f_data_changed : nat -> bool; f_marker_changed : nat -> bool; f_inline_changed : nat -> bool;
  f_marked : nat -> bool; f_flags_reset : nat -> bool }.
Arguments mk_iframe {D}.
Arguments f_data {D}.
Arguments f_data_changed {D}.
Arguments f_marker_changed {D}.
Arguments f_inline_changed {D}.
Arguments f_marked {D}.
Arguments f_flags_reset {D}.

(** systems.rs:509-530, one node; [None] = the descendant or ancestor walk did not finish within [fuel] *)
Definition marks_of {D} (w : forest) (fuel : nat) (f : iframe D) (needs : bool) (fl : rflags) (e : nat) : option (list nat) :=
  if negb (f_data_changed f e || f_marker_changed f e || f_inline_changed f e) then Some []
  else if negb (f_data_changed f e) && negb needs && negb (f_inline_changed f e) then Some []
  else
    let self := if f_data_changed f e || f_inline_changed f e then [e] else [] in
    let sibs := if rec_siblings fl then iter_ui_siblings w e else [] in
    match (if rec_descendants fl then option_map (map snd) (iter_ui_descendants_with_parent w fuel e) else Some []),
          (if rec_ascendants fl then iter_ui_ancestors w fuel e else Some []) with
    | Some desc, Some asc => Some (self ++ sibs ++ desc ++ asc)
    | _, _ => None
    end.
(** systems.rs:509-531 *)
Fixpoint to_be_marked {D} (w : forest) (fuel : nat) (f : iframe D) (needs : nat -> bool) (fl : nat -> rflags) (nodes : list nat) : option (list nat) :=
  match nodes with
  | [] => Some []
  | e :: nodes =>
      match marks_of w fuel f (needs e) (fl e) e, to_be_marked w fuel f needs fl nodes with
      | Some a, Some b => Some (a ++ b)
      | _, _ => None
      end
  end.

(** systems.rs:775-826, the matching part, over all nodes.  [sheets d]: the matcher of the style sheet that the
    node's data names, if it is loaded.  The parallel iteration is a sequence here: a matcher does not read
    the flags and [fetch_or] commutes. *)
Fixpoint calculate {D R} (w : tree) (sheets : D -> option (prog D R)) (data : nat -> D) (needs : nat -> bool) (nodes : list nat)
    (fl : nat -> rflags) (active : nat -> option R) : (nat -> rflags) * (nat -> option R) :=
  match nodes with
  | [] => (fl, active)
  | e :: nodes =>
      if needs e then
        match sheets (data e) with
        | None => calculate w sheets data needs nodes fl active
        | Some p => let (r, fl') := run w data e p fl in
                    calculate w sheets data needs nodes fl' (fun a => if Nat.eqb a e then Some r else active a)
        end
      else calculate w sheets data needs nodes fl active
  end.

(** One frame: other systems, systems.rs:486-540 mark_changed_nodes_for_recalculation, the matching part of
    calculate_style_and_set_vars, and the clearing of the marker at the end of set_property_values
    (systems.rs:860-905: skipped when the sheet is not loaded). *)
Definition iframe_step {D R} (w : tree) (sheets : D -> option (prog D R)) (nodes : list nat) (fuel : nat) (f : iframe D) (s : istate D R) : option (istate D R) :=
  let data := f_data f in
  let fl := fun n => if f_flags_reset f n then no_flags else i_flags s n in
  let needs := fun n => i_needs s n || f_marked f n in
  match to_be_marked (t_forest w) fuel f needs fl nodes with
  | None => None
  | Some l =>
      let needs' := fun n => needs n || existsb (Nat.eqb n) l in
      let (fl', active') := calculate w sheets data needs' nodes fl (i_active s) in
      Some (mk_istate data fl' (fun n => needs' n && match sheets (data n) with None => true | Some _ => negb (existsb (Nat.eqb n) nodes) end) active')
  end.
Fixpoint iframes {D R} (w : tree) (sheets : D -> option (prog D R)) (nodes : list nat) (fuel : nat) (fs : list (iframe D)) (s : istate D R) : option (istate D R) :=
  match fs with
  | [] => Some s
  | f :: fs => match iframe_step w sheets nodes fuel f s with Some s' => iframes w sheets nodes fuel fs s' | None => None end
  end.
(** Freshly spawned nodes: components.rs:95-103 NodeStyleMarker::default *)
Definition fresh {D R} (data : nat -> D) : istate D R := mk_istate data (fun _ => no_flags) (fun _ => true) (fun _ => None).

(** ** Complex selectors *)
(** The matcher of a list of complex selectors without relative or structural pseudo-classes.  A compound
    selector is a predicate on an element's data.  A complex selector is its rightmost compound and, from right
    to left, the combinators with the compounds on their left.  The walk is that of the [selectors] crate: right to
    left, nearest candidate first, backtracking; the crate stops earlier in cases where backtracking cannot
    succeed, which is not modelled.  [fuel] bounds the length of each walk to the ancestors or earlier siblings. *)
Inductive comb := Descendant | Child | NextSibling | LaterSibling.
Record selector (D : Type) := mk_selector { s_subject : D -> bool; s_rest : list (comb * (D -> bool)) }.
Arguments mk_selector {D}.
Arguments s_subject {D}.
Arguments s_rest {D}.
Definition comb_dir (c : comb) : dir := match c with Descendant | Child => Up | NextSibling | LaterSibling => Prev end.
Definition comb_repeats (c : comb) : bool := match c with Descendant | LaterSibling => true | Child | NextSibling => false end.
(** Try candidates one step further each time; [k' path] continues from a candidate whose compound matches. *)
Fixpoint walk {D R} (d : dir) (more : bool) (c : D -> bool) (fuel : nat) (path : list dir)
    (next : list dir -> (bool -> prog D R) -> prog D R) (k : bool -> prog D R) : prog D R :=
  match fuel with
  | 0 => k false
  | S fuel =>
      Visit (d :: path) (fun o =>
        match o with
        | None => k false
        | Some x =>
            let retry := fun _ : unit => if more then walk d more c fuel (d :: path) next k else k false in
            if c x then next (d :: path) (fun b => if b then k true else retry tt) else retry tt
        end)
  end.
Fixpoint match_rest {D R} (fuel : nat) (l : list (comb * (D -> bool))) (path : list dir) (k : bool -> prog D R) : prog D R :=
  match l with
  | [] => k true
  | (cb, c) :: l => walk (comb_dir cb) (comb_repeats cb) c fuel path (match_rest fuel l) k
  end.
(** style_sheet.rs:294-309 (media selectors left out): the ids of the matching rulesets, in order *)
Fixpoint match_rules {D} (fuel : nat) (rules : list (selector D * nat)) (acc : list nat) : prog D (list nat) :=
  match rules with
  | [] => Ret (rev acc)
  | (s, id) :: rules =>
      Visit [] (fun o =>
        match o with
        | None => match_rules fuel rules acc
        | Some x => if s_subject s x
                    then match_rest fuel (s_rest s) [] (fun b => match_rules fuel rules (if b then id :: acc else acc))
                    else match_rules fuel rules acc
        end)
  end.
