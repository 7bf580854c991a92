(** What is wrong in a sheet, in source order, where it stands, and what the loader cannot cope with. *)
From Coq Require Import Ascii String NArith.
From Verif Require Import Base Report LoadErrors.
Open Scope nat_scope.

(** ** Names *)
Definition starts (w : string) (name : text) : bool := if list_eq_dec N.eq_dec (map lower (firstn (String.length w) name)) (tx w) then true else false.
Definition custom (name : text) : bool := starts "--" name.
(** names of transition and animation properties, and others that begin so *)
Definition transitions (name : text) : bool := starts "transition" name.
Definition animations (name : text) : bool := starts "animation" name.
Definition supported (name : text) : bool :=
  existsb (fun w => if list_eq_dec N.eq_dec (map lower name) (tx w) then true else false)
    ["transition"; "transition-property"; "transition-duration"; "transition-delay"; "transition-timing-function";
     "animation"; "animation-name"; "animation-duration"; "animation-delay"; "animation-timing-function"; "animation-direction";
     "animation-fill-mode"; "animation-iteration-count"; "animation-play-state"]%string.
(** a character of the name stands across its ninth or tenth byte boundary *)
Definition split_char (name : text) : Prop := 10 <= bytes name /\ ((forall a b, name = a ++ b -> bytes a <> 9) \/ (forall a b, name = a ++ b -> bytes a <> 10)).

(** ** The mistakes of a sheet, each with its place: the one its parser gave, or else the part of the text it is in *)
Definition unsupported (name : text) : bool := negb (custom name) && (transitions name || animations name) && negb (supported name).
Definition mistakes_d (rule : bool) (d : ditem) : list err :=
  match d with
  | Junk e sub => [improved e sub]
  | Decl _ name v sub =>
      if rule && unsupported name then [mkerr (if transitions name then code_unknown_transition else code_unknown_animation) (SubStr (fst sub) (snd sub))]
      else match v with VGood _ => [] | VBad e => [improved e sub] end
  end.
Definition mistakes_sel (s : selector) : list err := match s with inl _ => [] | inr e => [e] end.
Fixpoint mistakes_b (b : bitem) : list err := match b with D d => mistakes_d true d | N sel l => mistakes_sel sel ++ flat_map mistakes_b l end.
Fixpoint mistakes_i (i : inner) : list err :=
  match i with
  | IRule sel l => mistakes_sel sel ++ flat_map mistakes_b l
  | IBlock l => flat_map mistakes_i l
  | IOther _ => []
  | IJunk e sub => [improved e sub]
  end.
Definition mistakes_f (x : fitem) : list err :=
  match x with
  | FDecl name v sub =>
      if eq_ci name (tx "font-family") || eq_ci name (tx "src") then match v with inl _ => [] | inr e => [improved e sub] end
      else [mkerr code_font_property (SubStr (fst sub) (snd sub))]
  | FJunk e sub => [improved e sub]
  end.
Definition mistakes_k (k : kitem) : list err := match k with KFrame l => flat_map (mistakes_d false) l | KJunk e sub => [improved e sub] end.
Definition mistakes_t (t : top) : list err :=
  match t with TInner i => mistakes_i i | TFont l => flat_map mistakes_f l | TKeyframes _ l => flat_map mistakes_k l end.
Definition mistakes (l : list top) : list err := flat_map mistakes_t l.

(** ** The declarations of a sheet *)
Fixpoint decls_b (b : bitem) : list ditem := match b with D d => [d] | N _ l => flat_map decls_b l end.
Fixpoint decls_i (i : inner) : list ditem := match i with IRule _ l => flat_map decls_b l | IBlock l => flat_map decls_i l | _ => [] end.
Definition rule_decls (l : list top) : list ditem := flat_map (fun t => match t with TInner i => decls_i i | _ => [] end) l.
Definition keyframe_decls (l : list top) : list ditem :=
  flat_map (fun t => match t with TKeyframes _ ks => flat_map (fun k => match k with KFrame b => b | _ => [] end) ks | _ => [] end) l.
Definition keyframe_names (l : list top) : list nat := flat_map (fun t => match t with TKeyframes n _ => [n] | _ => [] end) l.
Definition has_family (l : list fitem) : Prop := exists name n sub, In (FDecl name (inl n) sub) l /\ eq_ci name (tx "font-family") = true.
Definition has_source (l : list fitem) : Prop := exists name n sub, In (FDecl name (inl n) sub) l /\ eq_ci name (tx "src") = true.

(** an error of the value that does not say where it is *)
Definition lost (v : value) : Prop := match v with VBad e => e_place e = Unlocated | VGood _ => False end.

(** ** What the loader copes with *)
Definition sound_rule_decl (d : ditem) : Prop :=
  match d with
  | Junk _ _ => True
  | Decl _ name v _ => (custom name = false -> ~ split_char name) /\ unsupported name = false /\ (custom name = true \/ supported name = true -> ~ lost v)
  end.
Definition sound_keyframe_decl (d : ditem) : Prop :=
  match d with Junk _ _ => True | Decl _ name v _ => eq_ci name (tx "animation-timing-function") = true -> ~ lost v end.
Definition safe (c : text) (l : list top) : Prop :=
  (forall d, In d (rule_decls l) -> sound_rule_decl d) /\
  (forall d, In d (keyframe_decls l) -> sound_keyframe_decl d) /\
  NoDup (keyframe_names l) /\
  (forall f, In (TFont f) l -> has_family f /\ has_source f) /\
  (forall m, In m (mistakes l) -> into_range (e_place m) c <> None).

Definition reports_of (r : result) : list rep := match r with Loaded _ l | Failed l => l end.
Definition errors_of (r : result) : list rep := filter is_error (reports_of r).
Definition reported_at (c : text) (m : err) (r : rep) : Prop := exists range, into_range (e_place m) c = Some range /\ r = RError (e_code m) range.
