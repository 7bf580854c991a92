(** What the effective style sheet of a node should be, and histories of frames. *)
From Coq Require Import Permutation.
From Verif Require Import Base Tree TreeSpec SheetInherit.

(** A node's own declaration decides; a node that inherits (or declares nothing) takes its parent's; no
    sheet at the top. *)
Inductive effective (w : forest) (decl : nat -> option sheet_decl) : nat -> asset -> Prop :=
| eff_own : forall e s, decl e = Some (SSheet s) -> effective w decl e (Asset s)
| eff_block : forall e, decl e = Some SBlock -> effective w decl e Invalid
| eff_parent : forall e p a, decl e = None \/ decl e = Some SInherited -> parent w e = Some p ->
    effective w decl p a -> effective w decl e a
| eff_top : forall e, decl e = None \/ decl e = Some SInherited -> parent w e = None -> effective w decl e Invalid.

(** One frame: the hierarchy, the declarations, the entities whose declaration was written or inserted
    since the last frame, and the order of the hash set. *)
Record sframe := mk_sframe { f_tree : forest; f_decl : nat -> option sheet_decl; f_changed : list nat; f_order : list nat -> list nat }.

(** [e] is not in the world *)
Definition absent (f : sframe) (e : nat) : Prop := f_decl f e = None /\ parent (f_tree f) e = None /\ children (f_tree f) e = [].
(** What may happen between two frames for Bevy's change detection to see it: every node that is not
    reported as changed has its old declaration and its old parent, or is not in the world any more.
    (Not allowed: moving a node, or removing the component, without touching [NodeStyleSheet].) *)
Definition detected (f0 f : sframe) : Prop :=
  wf_forest (f_tree f) /\ (forall m, Permutation (f_order f m) m) /\
  (forall e, In e (f_changed f) -> f_decl f e <> None) /\
  (forall e, ~ In e (f_changed f) -> (f_decl f e = f_decl f0 e /\ parent (f_tree f) e = parent (f_tree f0) e) \/ absent f e).

(** entities that lost their components hold no data *)
Definition drop_dead (f : sframe) (s : sheets) : sheets :=
  mk_sheets (fun e => match f_decl f e with None => None | Some _ => eff s e end) (fun _ => false).
Definition run_frame (fuel : nat) (f : sframe) (s : sheets) : option sheets :=
  calculate_effective (f_tree f) fuel (f_decl f) (f_changed f) (f_order f) (drop_dead f s).
Fixpoint run_frames (fuel : nat) (fs : list sframe) (s : sheets) : option sheets :=
  match fs with [] => Some s | f :: fs => match run_frame fuel f s with Some s' => run_frames fuel fs s' | None => None end end.
Fixpoint all_detected (f0 : sframe) (fs : list sframe) : Prop :=
  match fs with [] => True | f :: fs => detected f0 f /\ all_detected f fs end.
Definition empty_world : sframe := mk_sframe {| children := fun _ => []; parent := fun _ => None |} (fun _ => None) [] (fun m => m).
Definition no_data : sheets := mk_sheets (fun _ => None) (fun _ => false).

(** every node with a [NodeStyleSheet] holds the right sheet *)
Definition all_right (f : sframe) (s : sheets) : Prop :=
  forall e, f_decl f e <> None -> forall a, eff s e = Some a <-> effective (f_tree f) (f_decl f) e a.
