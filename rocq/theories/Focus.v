(** Model of crates/bevy_flair_style/src/systems.rs:302-340 sync_input_focus. *)
From Verif Require Import Base.

(** the two focus fields of components.rs NodePseudoState *)
Record focus_state := mk_focus { focused : bool; focused_and_visible : bool }.
(** [NodeStyleData] of each entity that has one *)
Definition styles := nat -> option focus_state.
(** [data_query.get_mut(e)] followed by a write: nothing happens if the entity has no data *)
Definition write (d : styles) (e : option nat) (f : focus_state -> focus_state) : styles :=
  match e with
  | None => d
  | Some e => fun x => if Nat.eqb x e then option_map f (d x) else d x
  end.
Definition opt_eqb (a b : option nat) : bool := match a, b with Some x, Some y => Nat.eqb x y | None, None => true | _, _ => false end.

(** A resource as a system sees it: its value and whether it changed since the system's last run. *)
Definition resource A := option (A * bool).

(** systems.rs:302-340; returns the data and the new [Local] previous focus *)
Definition sync_input_focus (input_focus : resource (option nat)) (visible : resource bool) (d : styles) (previous : option nat) : styles * option nat :=
  match input_focus with
  | None => (d, previous)
  | Some (focus, changed) =>
      let focus_visible := match visible with Some (v, _) => v | None => false end in
      if negb changed || opt_eqb focus previous then
        (if match visible with Some (_, c) => c | None => false end
         then write d previous (fun s => mk_focus (focused s) focus_visible) else d, previous)
      else
        let d1 := write d previous (fun _ => mk_focus false false) in
        (write d1 focus (fun _ => mk_focus true focus_visible), focus)
  end.
