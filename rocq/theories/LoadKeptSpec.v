(** What of a sheet has an effect: everything that is right, by rule, in source order. *)
From Coq Require Import Ascii String NArith.
From Verif Require Import Base Report LoadErrors LoadErrorsSpec.
Open Scope nat_scope.

(** the effects of loading: a declaration under the selectors around it, the outermost first; a font; an animation with its declarations; other parts *)
Inductive effect := EDecl (path : list nat) (id : nat) | EFont (family source : nat) | EKeyframes (name : nat) (ids : list nat) | EOther (id : nat).
(** what a builder that is called so does: a ruleset stays open until the next one *)
Fixpoint effects (open : list nat) (l : list call) : list effect :=
  match l with
  | [] => []
  | CRuleset path :: r => effects path r
  | CDecl id :: r => EDecl open id :: effects open r
  | CFont f s :: r => EFont f s :: effects open r
  | CKeyframes n ids :: r => EKeyframes n ids :: effects open r
  | COther id :: r => EOther id :: effects open r
  end.

(** ** The right parts of a sheet *)
Definition good_d (d : ditem) : list nat := match d with Decl id _ (VGood _) _ => [id] | _ => [] end.
Fixpoint good_b (path : list nat) (b : bitem) : list effect :=
  match b with
  | D d => map (EDecl path) (good_d d)
  | N (inl s) l => flat_map (good_b (path ++ [s])) l
  | N (inr _) _ => []
  end.
Fixpoint good_i (i : inner) : list effect :=
  match i with
  | IRule (inl s) l => flat_map (good_b [s]) l
  | IRule (inr _) _ => []
  | IBlock l => flat_map good_i l
  | IOther id => [EOther id]
  | IJunk _ _ => []
  end.
(** the values of the right declarations of a font face with this name *)
Definition good_f (name : string) (l : list fitem) : list nat :=
  flat_map (fun x => match x with FDecl n (inl v) _ => if eq_ci n (tx name) then [v] else [] | _ => [] end) l.
Definition good_k (k : kitem) : list nat := match k with KFrame l => flat_map good_d l | KJunk _ _ => [] end.
Definition good_t (t : top) : list effect :=
  match t with
  | TInner i => good_i i
  | TFont l => [EFont (last (good_f "font-family" l) 0) (last (good_f "src" l) 0)]
  | TKeyframes n l => [EKeyframes n (flat_map good_k l)]
  end.
Definition good (l : list top) : list effect := flat_map good_t l.
