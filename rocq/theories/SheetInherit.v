(** Model of the propagation of style sheets: crates/bevy_flair_style/src/systems.rs:132-199
    calculate_effective_style_sheet.

    - [decl e]: the [NodeStyleSheet] component of the entity, [None] if it has none.  A style sheet
      handle is its asset id (a number); strong/weak handles and paths are not modelled.
    - [eff e]: [NodeStyleData::effective_style_sheet_asset_id] (components.rs:253); [None] is the default
      id a fresh component holds.  No declared sheet has that id (simplification).
    - [marked e]: [NodeStyleMarker::set_needs_style_recalculation] was called (176).
      The flags' reset (179) is not modelled here. *)
From Verif Require Import Base Tree.

(** components.rs:369-377 NodeStyleSheet *)
Inductive sheet_decl := SInherited | SSheet (s : nat) | SBlock.
(** AssetId, with INVALID_STYLE_SHEET_ASSET_ID *)
Inductive asset := Invalid | Asset (s : nat).
Record sheets := mk_sheets { eff : nat -> option asset; marked : nat -> bool }.

(** systems.rs:158-163: what one ancestor contributes *)
Definition contributes (decl : nat -> option sheet_decl) (e : nat) : option asset :=
  match decl e with
  | None | Some SInherited => None
  | Some (SSheet s) => Some (Asset s)
  | Some SBlock => Some Invalid
  end.
Fixpoint find_map {A B} (f : A -> option B) (l : list A) : option B :=
  match l with [] => None | x :: l => match f x with Some y => Some y | None => find_map f l end end.

(** components.rs:267-277 set_effective_style_sheet_asset_id (asset ids have decidable equality) *)
Definition asset_eq_dec (a b : option asset) : {a = b} + {a <> b}.
Proof. repeat decide equality. Defined.
Definition upd {A} (f : nat -> A) (e : nat) (v : A) : nat -> A := fun x => if Nat.eqb x e then v else f x.

(** systems.rs:148-182 the closure set_effective_style_sheet; [None] = the ancestors did not end *)
Definition set_effective (w : forest) (fuel : nat) (decl : nat -> option sheet_decl) (e : nat) (s : sheets) : option (sheets * bool) :=
  match decl e with
  | None => Some (s, false)
  | Some d =>
      match match d with
            | SInherited => option_map (fun l => match find_map (contributes decl) l with Some a => a | None => Invalid end) (iter_ui_ancestors w fuel e)
            | SSheet i => Some (Asset i)
            | SBlock => Some Invalid
            end with
      | None => None
      | Some a => if asset_eq_dec (eff s e) (Some a)
                  then Some (mk_sheets (eff s) (upd (marked s) e true), false)
                  else Some (mk_sheets (upd (eff s) e (Some a)) (upd (marked s) e true), true)
      end
  end.

(** 184-188: the changed entities, in the query's order; the result is the set of modified ones *)
Fixpoint changed_loop (w : forest) (fuel : nat) (decl : nat -> option sheet_decl) (l : list nat) (s : sheets) : option (sheets * list nat) :=
  match l with
  | [] => Some (s, [])
  | e :: l => match set_effective w fuel decl e s with
              | None => None
              | Some (s', b) => match changed_loop w fuel decl l s' with
                                | None => None
                                | Some (s'', m) => Some (s'', if b then e :: m else m)
                                end
              end
  end.
(** 192-194 *)
Fixpoint visit_all (w : forest) (fuel : nat) (decl : nat -> option sheet_decl) (l : list nat) (s : sheets) : option sheets :=
  match l with
  | [] => Some s
  | e :: l => match set_effective w fuel decl e s with None => None | Some (s', _) => visit_all w fuel decl l s' end
  end.
(** 191-197 *)
Fixpoint modified_loop (w : forest) (fuel : nat) (decl : nat -> option sheet_decl) (l : list nat) (s : sheets) : option sheets :=
  match l with
  | [] => Some s
  | e :: l => match iter_ui_descendants_with_parent w fuel e with
              | None => None
              | Some ds => match visit_all w fuel decl (map snd ds) s with None => None | Some s' => modified_loop w fuel decl l s' end
              end
  end.
(** The system.  [arrange] is the iteration order of the hash set of modified entities. *)
Definition calculate_effective (w : forest) (fuel : nat) (decl : nat -> option sheet_decl) (changed : list nat) (arrange : list nat -> list nat) (s : sheets) : option sheets :=
  match changed_loop w fuel decl changed s with
  | None => None
  | Some (s', m) => modified_loop w fuel decl (arrange m) s'
  end.
