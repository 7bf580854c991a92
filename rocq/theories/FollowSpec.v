(** Which rules should be active, which selectors and histories the marking can follow: C104. *)
From Coq Require Import String.
From Verif Require Import Base Tree TreeSpec Siblings SiblingsSpec Invalidation InvalidationSpec Matching MatchingSpec Follow.
Open Scope list_scope.

(** the ids of the rules that apply to [n] now, in the order of the sheet: the selector holds and the media queries hold *)
Inductive active_rules (w : world) (n : nat) : list erule -> list nat -> Prop :=
| ar_nil : active_rules w n [] []
| ar_yes s id rules ids : sat w s None n -> active_rules w n rules ids -> active_rules w n ((s, true, id) :: rules) (id :: ids)
| ar_no s media id rules ids : ~ (sat w s None n /\ media = true) -> active_rules w n rules ids -> active_rules w n ((s, media, id) :: rules) ids.

(** ** Selectors *)
(** Read from right to left: conditions on the node and its siblings first, then on ancestors.  [up]: the compound is one for an ancestor;
    it may ask for its position, but not for its siblings' classes, types, ids, ...; [:has] may not occur (C35_has_refuted,
    C35_uncle_refuted). *)
Fixpoint followed (up : bool) (s : complex) : Prop :=
  match s with
  | One c => all_of (followed_simple up) c
  | Then c k r => all_of (followed_simple up) c /\
      match k with NextSibling | LaterSibling => up = false /\ followed false r | Child | Descendant | PseudoOf => followed true r end
  end
with followed_simple (up : bool) (x : simple) : Prop :=
  match x with
  | Nth _ of_type _ _ => of_type = true -> up = false
  | NthOf _ _ _ l => up = false /\ all_of (followed false) l
  | Is _ l | Not l => all_of (followed up) l
  | Has _ => False
  | _ => True
  end.
(** it asks for siblings *)
Fixpoint looks_sideways (s : complex) : Prop :=
  match s with One c => any_of sideways_simple c | Then c k r => any_of sideways_simple c \/ (k = NextSibling \/ k = LaterSibling) \/ looks_sideways r end
with sideways_simple (x : simple) : Prop :=
  match x with Nth _ _ _ _ | NthOf _ _ _ _ => True | Is _ l | Not l | Has l => any_of looks_sideways l | _ => False end.
(** it asks every node for siblings: the combinator next to the subject is [+] or [~], or the subject starts with a child-indexed
    pseudo-class ([:first-child.item], but not [.item:first-child]: C83_class_first_refuted) *)
Definition asks_first (s : complex) : Prop :=
  (exists c r, s = Then c NextSibling r \/ s = Then c LaterSibling r) \/
  (exists e t a b c, s = One (Nth e t a b :: c) \/ exists k r, s = Then (Nth e t a b :: c) k r).

(** ** Histories *)
Definition selectors_at (f : eframe) (n : nat) (s : complex) : Prop := exists rules media id, g_rules f n = Some rules /\ In (s, media, id) rules.
Definition good_frame (nodes : list nat) (f : eframe) : Prop :=
  let w := g_world f in
  consistent nodes w /\ (forall n, w_data w n <> None -> In n nodes) /\ (forall n, g_rules f n <> None -> w_data w n <> None) /\
  (forall n s, selectors_at f n s -> parsed s /\ followed false s) /\
  (** no selector asks for siblings, or all parents have a loaded style sheet with a selector that asks every node *)
  ((forall n s, selectors_at f n s -> ~ looks_sideways s) \/
   (forall n p, parent (w_tree w) n = Some p -> exists s, selectors_at f p s /\ asks_first s)).
(** what Bevy's change detection and the systems that ran before report (C79-C82) *)
Definition reported_since (f0 f : eframe) : Prop :=
  let w0 := g_world f0 in let w := g_world f in
  (forall n, w_data w n <> None -> g_changed f n = false -> w_data w n = w_data w0 n /\ parent (w_tree w) n = parent (w_tree w0) n) /\
  (forall p, w_data w p <> None -> g_children f p = false -> children (w_tree w) p = children (w_tree w0) p) /\
  (** a style sheet that was loaded only changes with a mark; that one arrives is not reported *)
  (forall n, w_data w n <> None -> g_rules f0 n <> None -> g_marked f n = false -> g_late f n = false -> g_rules f n = g_rules f0 n) /\
  (** flags are only reset together with those of the whole tree (C35_sheet_change_refuted) *)
  (forall m n, g_reset f m = true -> connected (w_tree w) m n -> g_marked f n = true \/ g_late f n = true).
Fixpoint followed_history (nodes : list nat) (f0 : eframe) (fs : list eframe) : Prop :=
  match fs with [] => True | f :: fs => good_frame nodes f /\ reported_since f0 f /\ followed_history nodes f fs end.
(** before the first frame there is nothing *)
Definition nothing_yet : eframe :=
  mk_eframe (mk_world {| children := fun _ => []; parent := fun _ => None |} (fun _ => None) (fun _ => None)) (fun _ => None)
    (fun _ => false) (fun _ => false) (fun _ => false) (fun _ => false) (fun _ => false) (fun _ => false) (fun _ => false).
