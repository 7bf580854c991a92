(** Model of how custom properties reach the nodes that use them, frame by frame:
    crates/bevy_flair_style/src/systems.rs:542-612 (mark_as_changed_on_style_sheet_change), 755-839 (calculate_style_and_set_vars), 842-911
    (set_property_values: the property values), style_sheet.rs:60-100, 182-228, components.rs:388-406 (NodeVars).
    Which rules match a node is given per frame (Invalidation.v, Structural.v, MediaDeps.v, Cascade.v); so is the sheet of every node
    (SheetInherit.v): [None] stands for a sheet that is not loaded, and for no sheet.  Names, tokens, properties and values are numbers.
    The resolution of var() is Vars.v; the parser of a property is any function of the resolved tokens.  Transition options and animation
    configurations, which are handed over in the same place, are not modelled here.  The queries run in parallel: they only write to the node
    they are at, so their order plays no role. *)
From Verif Require Import Base Tree Vars.

Definition toks := list (var_or_token nat nat).
(** style_sheet.rs:46-58 *)
Inductive decl := Specific (p v : nat) | Dynamic (parser : list nat -> option (list (nat * nat))) (ts : toks).
(** style_sheet.rs:112-117; [vars] is a hash map there: of two entries with the same name the last one is in it *)
Record ruleset := mk_ruleset { r_vars : list (nat * toks); r_props : list decl }.
Definition sheet := nat -> ruleset.

(** ** Hash maps from names to tokens *)
Fixpoint get {A} (l : list (nat * A)) (k : nat) : option A :=
  match l with [] => None | (a, v) :: l => match get l k with Some v' => Some v' | None => if Nat.eqb a k then Some v else None end end.
Definition tok_dec (a b : option toks) : {a = b} + {a <> b}.
Proof. repeat decide equality. Defined.
Definition same_vars (a b : list (nat * toks)) : bool := forallb (fun k => if tok_dec (get a k) (get b k) then true else false) (map fst a ++ map fst b).

(** ** Style sheets *)
(** style_sheet.rs:182-192 resolve_rulesets *)
Definition resolve_rulesets (c : sheet) (rules : list nat) (inline : ruleset) : list ruleset := map c rules ++ [inline].
(** 212-228 *)
Definition get_vars (c : sheet) (rules : list nat) (inline : ruleset) : list (nat * toks) := flat_map r_vars (resolve_rulesets c rules inline).
(** 60-100 RulesetProperty::resolve *)
Definition resolve_decl (r : env nat nat) (d : decl) : list (nat * nat) :=
  match d with
  | Specific p v => [(p, v)]
  | Dynamic parser ts => match resolve_recursively r ts with Ok out => match parser out with Some l => l | None => [] end | Err _ => [] end
  end.
Definition set (o : nat -> nat) (p v : nat) : nat -> nat := fun q => if Nat.eqb q p then v else o q.
(** 195-210 get_property_values *)
Definition get_property_values (c : sheet) (rules : list nat) (inline : ruleset) (r : env nat nat) (output : nat -> nat) : nat -> nat :=
  fold_left (fun o rs => fold_left (fun o d => fold_left (fun o pv => set o (fst pv) (snd pv)) (resolve_decl r d) o) (r_props rs) o) (resolve_rulesets c rules inline) output.

(** ** Nodes *)
Record state := mk_state { v_needs : nat -> bool; v_rules : nat -> list nat; v_vars : nat -> list (nat * toks); v_values : nat -> nat -> nat }.
(** What is true in a frame, and what change detection reports: [f_modified]: AssetEvent::Modified for the sheet of the node;
    [f_changed]: Changed<NodeStyleData> or Changed<RawInlineStyle>; [f_marked]: marked for recalculation for another reason;
    [f_gone]: there is no such node *)
Record frame := mk_frame { f_forest : forest; f_sheet : nat -> option sheet; f_rules : nat -> list nat; f_inline : nat -> ruleset;
  f_modified : nat -> bool; f_changed : nat -> bool; f_marked : nat -> bool; f_gone : nat -> bool }.

(** systems.rs:578-611, as far as it concerns vars and marker; nodes that do not exist have none: those they will have when they are
    spawned are the default ones (components.rs:95-103, 388-392) *)
Definition on_modified (f : frame) (s : state) : state :=
  mk_state (fun n => (v_needs s n || f_modified f n || f_gone f n)%bool) (v_rules s) (fun n => if (f_modified f n || f_gone f n)%bool then [] else v_vars s n) (v_values s).
(** 509-537: marking (the flags of selectors are in Structural.v and Invalidation.v; here they are part of [f_marked]) *)
Definition mark (f : frame) (s : state) : state :=
  mk_state (fun n => (v_needs s n || f_changed f n || f_marked f n)%bool) (v_rules s) (v_vars s) (v_values s).
(** 776-825, one node: the new vars if they are different (components.rs:394-405) *)
Definition new_vars (f : frame) (s : state) (n : nat) : option (list (nat * toks)) :=
  if v_needs s n then
    match f_sheet f n with
    | Some c => let l := get_vars c (f_rules f n) (f_inline f n) in if same_vars l (v_vars s n) then None else Some l
    | None => None
    end
  else None.
Definition calculated (f : frame) (s : state) (n : nat) : bool := (v_needs s n && match f_sheet f n with Some _ => true | None => false end)%bool.
Fixpoint all_descendants (w : forest) (fuel : nat) (l : list nat) : option (list nat) :=
  match l with
  | [] => Some []
  | n :: l => match iter_ui_descendants_with_parent w fuel n, all_descendants w fuel l with Some d, Some r => Some (map snd d ++ r) | _, _ => None end
  end.
Definition mem (n : nat) (l : list nat) : bool := existsb (Nat.eqb n) l.
(** 755-839 *)
Definition calculate_style_and_set_vars (nodes : list nat) (fuel : nat) (f : frame) (s : state) : option state :=
  match all_descendants (f_forest f) fuel (filter (fun n => match new_vars f s n with Some _ => true | None => false end) nodes) with
  | None => None
  | Some l => Some (mk_state (fun n => (v_needs s n || (mem n l && mem n nodes))%bool)
                             (fun n => if (calculated f s n && mem n nodes)%bool then f_rules f n else v_rules s n)
                             (fun n => if mem n nodes then match new_vars f s n with Some v => v | None => v_vars s n end else v_vars s n)
                             (v_values s))
  end.
(** 842-911 *)
Definition set_property_values (unset : nat -> nat) (nodes : list nat) (fuel : nat) (f : frame) (s : state) : state :=
  mk_state (fun n => (v_needs s n && negb (calculated f s n && mem n nodes))%bool) (v_rules s) (v_vars s)
    (fun n => match f_sheet f n with
              | Some c => if (v_needs s n && mem n nodes)%bool
                          then get_property_values c (v_rules s n) (f_inline f n) (resolver_at (f_forest f) (fun a => get (v_vars s a)) fuel n) unset
                          else v_values s n
              | None => v_values s n
              end).
Definition step (unset : nat -> nat) (nodes : list nat) (fuel : nat) (s : state) (f : frame) : option state :=
  option_map (set_property_values unset nodes fuel f) (calculate_style_and_set_vars nodes fuel f (mark f (on_modified f s))).
Fixpoint frames (unset : nat -> nat) (nodes : list nat) (fuel : nat) (fs : list frame) (s : state) : option state :=
  match fs with
  | [] => Some s
  | f :: fs => match step unset nodes fuel s f with Some s => frames unset nodes fuel fs s | None => None end
  end.
(** new nodes: components.rs:425-460 NodeStyleMarker::default, empty NodeVars *)
Definition fresh_nodes : state := mk_state (fun _ => true) (fun _ => []) (fun _ => []) (fun _ _ => 0).
