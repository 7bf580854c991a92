(** Specification of nested CSS (C58) and of the layer order of a sheet (C59). *)
From Coq Require Import Ascii.
From Verif Require Import Base LayersSpec Nesting.

(** ** The language of simple selectors and combinators *)
Section E.
  Context {A C El : Type}.
  (** which elements a simple selector matches; how a combinator relates an element to those on its left *)
  Variable simple : A -> El -> Prop.
  Variable related : C -> El -> El -> Prop.
  Variable weight : A -> nat.

  (** [parent e]: e is matched by the parent rule, what `&` stands for *)
  Fixpoint matches (s : sel A C) (parent : El -> Prop) (e : El) : Prop :=
    match s with
    | Amp => parent e
    | Atom a => simple a e
    | And s t => matches s parent e /\ matches t parent e
    | Never => False
    | Or s t => matches s parent e \/ matches t parent e
    | Comb c l r => matches r parent e /\ exists e', related c e e' /\ matches l parent e'
    end.
  (** specificity; `&` counts as the most specific selector of the parent rule, and so does `:is()` *)
  Fixpoint specificity (s : sel A C) (parent : nat) : nat :=
    match s with
    | Amp => parent
    | Atom a => weight a
    | And s t => specificity s parent + specificity t parent
    | Never => 0
    | Or s t => Nat.max (specificity s parent) (specificity t parent)
    | Comb _ l r => specificity l parent + specificity r parent
    end.

  (** The alternatives of a rule: for each of its selectors the elements it selects and its specificity *)
  Notation alternative := ((El -> Prop) * nat)%type.
  Definition any_of (alts : list alternative) : El -> Prop := fun e => exists a, In a alts /\ fst a e.
  Definition strongest (alts : list alternative) : nat := list_max (map snd alts).
  (** what a selector selects, and with which specificity, in a rule with these alternatives *)
  Definition meaning (s : sel A C) (parents : list alternative) : alternative := (fun e => matches s (any_of parents) e, specificity s (strongest parents)).
  (** the same as an alternative, with nothing around *)
  Definition means (s : sel A C) (alt : alternative) : Prop := (forall e, matches s (fun _ => False) e <-> fst alt e) /\ specificity s 0 = snd alt.
End E.

Section S.
  (** selectors; what they stand for; media conditions; declarations *)
  Context {Sl V M D : Type}.
  (** [value s parents]: what the selector [s] stands for in a rule in one with the selectors [parents] *)
  Variable value : Sl -> list V -> V.
  (** [stands s v]: the selector [s], without `&`, stands for [v] *)
  Variable stands : Sl -> V -> Prop.
  Variable amp : Sl.
  Definition alternatives (ss : list Sl) (parents : list V) : list V := map (fun s => value s parents) ss.

  (** One declaration in force: in which layer, under which media conditions, for which alternatives *)
  Record entry := { n_layer : list (list ascii); n_media : list M; n_alts : list V; n_decl : D }.
  (** The declarations of a rule body in source order. A block at-rule applies to what the rule selects, as `& { .. }` would. *)
  Fixpoint body_entries (layer : list (list ascii)) (media : list M) (alts : list V) (b : body Sl M D) : list entry :=
    match b with
    | BDecl d => [ {| n_layer := layer; n_media := media; n_alts := alts; n_decl := d |} ]
    | BError => []
    | BRule None _ => []
    | BRule (Some ss) bs => flat_map (body_entries layer media (alternatives ss alts)) bs
    | BMedia ms bs => flat_map (body_entries layer (media ++ ms) (alternatives [amp] alts)) bs
    | BLayer n bs => flat_map (body_entries (layer ++ [n]) media (alternatives [amp] alts)) bs
    end.
  Fixpoint top_entries (layer : list (list ascii)) (media : list M) (t : top Sl M D) : list entry :=
    match t with
    | TRule None _ => []
    | TRule (Some ss) bs => flat_map (body_entries layer media (alternatives ss [])) bs
    | TMedia ms ts => flat_map (top_entries layer (media ++ ms)) ts
    | TLayer n ts => flat_map (top_entries (layer ++ [n]) media) ts
    | TLayers _ => []
    | TError => []
    end.

  (** A declaration of a built ruleset says the same as an entry *)
  Definition says (x : list (csel Sl M) * D) (n : entry) : Prop :=
    snd x = n_decl n /\
    Forall2 (fun s v => c_layer s = dotted (n_layer n) /\ c_media s = n_media n /\ stands (c_sel s) v)
            (fst x) (n_alts n).
  (** The declarations of all built rulesets, in order *)
  Definition declarations (b : builder Sl M D) : list (list (csel Sl M) * D) :=
    flat_map (fun r => map (fun d => (fst r, d)) (snd r)) (rulesets b).

  (** What the CSS parser guarantees: no empty selector list, no empty or dotted layer name *)
  Fixpoint body_ok (b : body Sl M D) : Prop :=
    match b with
    | BDecl _ | BError => True
    | BRule ss bs => ss <> Some [] /\ fold_right (fun b P => body_ok b /\ P) True bs
    | BMedia _ bs => fold_right (fun b P => body_ok b /\ P) True bs
    | BLayer n bs => legal_segment n /\ fold_right (fun b P => body_ok b /\ P) True bs
    end.
  Fixpoint top_ok (t : top Sl M D) : Prop :=
    match t with
    | TRule ss bs => ss <> Some [] /\ fold_right (fun b P => body_ok b /\ P) True bs
    | TMedia _ ts => fold_right (fun t P => top_ok t /\ P) True ts
    | TLayer n ts => legal_segment n /\ fold_right (fun t P => top_ok t /\ P) True ts
    | TLayers ns => Forall legal_segment ns
    | TError => True
    end.

  (** C59: the layers in the order in which the source mentions them *)
  Fixpoint body_layers (layer : list (list ascii)) (b : body Sl M D) : list (list (list ascii)) :=
    match b with
    | BDecl _ | BError | BRule None _ => []
    | BRule (Some _) bs | BMedia _ bs => flat_map (body_layers layer) bs
    | BLayer n bs => (layer ++ [n]) :: flat_map (body_layers (layer ++ [n])) bs
    end.
  Fixpoint top_layers (layer : list (list ascii)) (t : top Sl M D) : list (list (list ascii)) :=
    match t with
    | TRule (Some _) bs => flat_map (body_layers layer) bs
    | TRule None _ | TError => []
    | TMedia _ ts => flat_map (top_layers layer) ts
    | TLayer n ts => (layer ++ [n]) :: flat_map (top_layers (layer ++ [n])) ts
    | TLayers ns => map (fun n => layer ++ [n]) ns
    end.
  (** Every @layer block contains a rule or a layer statement *)
  Fixpoint inhabited (t : top Sl M D) : Prop :=
    match t with
    | TRule ss _ => ss <> None
    | TMedia _ ts | TLayer _ ts => fold_right (fun t P => inhabited t \/ P) False ts
    | TLayers ns => ns <> []
    | TError => False
    end.
  Fixpoint blocks_inhabited (t : top Sl M D) : Prop :=
    match t with
    | TLayer _ ts => fold_right (fun t P => inhabited t \/ P) False ts /\ fold_right (fun t P => blocks_inhabited t /\ P) True ts
    | TMedia _ ts => fold_right (fun t P => blocks_inhabited t /\ P) True ts
    | _ => True
    end.
End S.
