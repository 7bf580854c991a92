(** Model of crates/bevy_flair_style/src/animations/properties.rs: resolution of `animation*` and `transition*` declarations
    (resolve_to_output, from_properties_to_animation_configuration, from_properties_to_transition_configuration), and of
    StyleSheet::resolve_transition_options and resolve_animation_configs (style_sheet.rs:230-290).

    [AnimationValues] (properties.rs:148-197) is taken after its own resolution: [None] if [resolve] failed
    (variables are modelled in Vars.v, parsing in AnimParse.v).  Hash maps are functions to options.  Names are numbers,
    [E] is the type of easing functions. *)
From Coq Require Import NArith.
From Verif Require Import Base Animation.

(** properties.rs:20-45 *)
Inductive animation_property := AName | ADuration | ADelay | ADirection | AFillMode | AIterationCount | APlayState | ATimingFunction.
(** properties.rs:50-63 *)
Inductive transition_property := TName | TDuration | TDelay | TTimingFunction.
Definition aprop_dec (a b : animation_property) : {a = b} + {a <> b}. Proof. decide equality. Defined.
Definition tprop_dec (a b : transition_property) : {a = b} + {a <> b}. Proof. decide equality. Defined.
(** properties.rs:270-291 RESET_PROPERTIES *)
Definition animation_reset : list animation_property := [ADelay; ADirection; ADuration; AFillMode; AIterationCount; AName; APlayState; ATimingFunction].
Definition transition_reset : list transition_property := [TDuration; TDelay; TName; TTimingFunction].

(** properties.rs:70-87 AnimationSpecificValue *)
Inductive avalue (E : Type) :=
  VName (n : nat) | VDuration (d : N) | VDirection (d : animation_direction) | VFillMode (f : fill_mode)
| VIterationCount (c : iteration_count) | VPlayState (s : play_state) | VTimingFunction (e : E) | VDefault.
Arguments VName {E}.
Arguments VDuration {E}.
Arguments VDirection {E}.
Arguments VFillMode {E}.
Arguments VIterationCount {E}.
Arguments VPlayState {E}.
Arguments VTimingFunction {E}.
Arguments VDefault {E}.

(** properties.rs:199-214 AnimationProperty *)
Inductive declaration (P E : Type) :=
  Shorthand (o : option (list (list (P * avalue E)))) | Single (p : P) (o : option (list (avalue E))).
Arguments Shorthand {P E}.
Arguments Single {P E}.

Section Resolve.
  Context {P E : Type} (pdec : forall a b : P, {a = b} + {a <> b}) (reset : list P).
  Definition pmap : Type := P -> option (list (avalue E)).
  Definition insert (m : pmap) (p : P) (o : option (list (avalue E))) : pmap := fun q => if pdec q p then o else m q.
  (** [output.entry(p).or_default()] *)
  Definition entry (m : pmap) (p : P) : list (avalue E) := match m p with Some l => l | None => [] end.

  (** properties.rs:342-344 *)
  Definition remove_all (m : pmap) : pmap := fold_left (fun m p => insert m p None) reset m.
  (** properties.rs:357-361 *)
  Definition push_defaults (m : pmap) : pmap := fold_left (fun m p => insert m p (Some (entry m p ++ [VDefault]))) reset m.
  (** [l[i] = v]; [None]: panic *)
  Fixpoint set_index {A} (l : list A) (i : nat) (v : A) : option (list A) :=
    match l, i with
    | [], _ => None
    | _ :: l, 0 => Some (v :: l)
    | x :: l, S i => match set_index l i v with Some l => Some (x :: l) | None => None end
    end.
  (** properties.rs:363-365 *)
  Fixpoint assign (index : nat) (animation : list (P * avalue E)) (m : pmap) : option pmap :=
    match animation with
    | [] => Some m
    | (p, v) :: animation =>
        match set_index (entry m p) index v with
        | Some l => assign index animation (insert m p (Some l))
        | None => None
        end
    end.
  (** properties.rs:356-366 *)
  Fixpoint fill (index : nat) (animations : list (list (P * avalue E))) (m : pmap) : option pmap :=
    match animations with
    | [] => Some m
    | a :: animations => match assign index a (push_defaults m) with Some m => fill (S index) animations m | None => None end
    end.
  (** properties.rs:332-387 resolve_to_output *)
  Fixpoint resolve_to_output (ds : list (declaration P E)) (m : pmap) : option pmap :=
    match ds with
    | [] => Some m
    | Shorthand o :: ds =>
        let m := remove_all m in
        match o with
        | None => resolve_to_output ds m
        | Some animations => match fill 0 animations m with Some m => resolve_to_output ds m | None => None end
        end
    | Single p o :: ds => resolve_to_output ds (match o with None => m | Some l => insert m p (Some l) end)
    end.
  (** style_sheet.rs:239-244, 283-288: the rulesets of a node, in cascade order *)
  Fixpoint resolve_rulesets (rulesets : list (list (declaration P E))) (m : pmap) : option pmap :=
    match rulesets with
    | [] => Some m
    | ds :: rulesets => match resolve_to_output ds m with Some m => resolve_rulesets rulesets m | None => None end
    end.

  (** properties.rs:433-438 get_property_index *)
  Definition get_property_index (m : pmap) (p : P) (i : nat) : option (avalue E) :=
    match m p with
    | None => None
    | Some l => match nth_error l i with Some v => Some v | None => match rev l with [] => None | v :: _ => Some v end end
    end.
  (** properties.rs:440-445 *)
  Definition as_name (v : avalue E) : option nat := match v with VName n => Some n | _ => None end.
  Fixpoint named (index : nat) (l : list (avalue E)) : list (nat * nat) :=
    match l with
    | [] => []
    | v :: l => match as_name v with Some n => (index, n) :: named (S index) l | None => named (S index) l end
    end.
  Definition names (m : pmap) (p : P) : list (nat * nat) := match m p with Some l => named 0 l | None => [] end.
End Resolve.
Arguments pmap : clear implicits.

(** properties.rs:112-146, release build: another variant gives None (a debug build panics unless it is Default) *)
Section As.
  Context {E : Type}.
  Definition as_duration (v : avalue E) : option N := match v with VDuration d => Some d | _ => None end.
  Definition as_direction (v : avalue E) : option animation_direction := match v with VDirection d => Some d | _ => None end.
  Definition as_fill_mode (v : avalue E) : option fill_mode := match v with VFillMode d => Some d | _ => None end.
  Definition as_iteration_count (v : avalue E) : option iteration_count := match v with VIterationCount d => Some d | _ => None end.
  Definition as_play_state (v : avalue E) : option play_state := match v with VPlayState d => Some d | _ => None end.
  Definition as_timing_function (v : avalue E) : option E := match v with VTimingFunction d => Some d | _ => None end.
  Definition and_then {A B} (o : option A) (f : A -> option B) : option B := match o with Some a => f a | None => None end.
  Definition or_default {A} (o : option A) (d : A) : A := match o with Some a => a | None => d end.
End As.

(** animation.rs:137-147 AnimationOptions::DEFAULT *)
Definition default_options : options := mk_options 0 0 DirNormal (Count 1) FillNone PlayRunning.
(** properties.rs:390-409 *)
Record animation_configuration (E : Type) := mk_aconfig { ac_name : nat; ac_timing : E; ac_options : options }.
Arguments mk_aconfig {E}.
Arguments ac_name {E}.
Arguments ac_timing {E}.
Arguments ac_options {E}.
(** properties.rs:412-427; transition.rs:11-19 *)
Record transition_configuration (E : Type) := mk_tconfig { tc_name : nat; tc_delay : N; tc_duration : N; tc_timing : E }.
Arguments mk_tconfig {E}.
Arguments tc_name {E}.
Arguments tc_delay {E}.
Arguments tc_duration {E}.
Arguments tc_timing {E}.

(** properties.rs:430-495; [ease]: EasingFunction::default *)
Definition animation_configurations {E} (ease : E) (m : pmap animation_property E) : list (animation_configuration E) :=
  map (fun x : nat * nat =>
    let (i, name) := x in
    let get {A} p (as_ : avalue E -> option A) d := or_default (and_then (get_property_index m p i) as_) d in
    mk_aconfig name (get ATimingFunction as_timing_function ease)
      (mk_options (get ADelay as_duration (o_initial_delay default_options)) (get ADuration as_duration (o_duration default_options))
         (get ADirection as_direction (o_direction default_options)) (get AIterationCount as_iteration_count (o_iteration_count default_options))
         (get AFillMode as_fill_mode (o_fill_mode default_options)) (get APlayState as_play_state (o_play_state default_options))))
  (names m AName).
(** properties.rs:498-545 *)
Definition transition_configurations {E} (ease : E) (m : pmap transition_property E) : list (transition_configuration E) :=
  map (fun x : nat * nat =>
    let (i, name) := x in
    let get {A} p (as_ : avalue E -> option A) d := or_default (and_then (get_property_index m p i) as_) d in
    mk_tconfig name (get TDelay as_duration 0%N) (get TDuration as_duration 0%N) (get TTimingFunction as_timing_function ease))
  (names m TName).

(** style_sheet.rs:230-274 resolve_transition_options.  [ids]: CssPropertyRegistry::resolve (the id, the ids of a
    shorthand, none on errors).  Collecting into a hash map: later entries win. *)
Definition transition_options_of {E} (ids : nat -> list nat) (configurations : list (transition_configuration E)) : nat -> option (transition_configuration E) :=
  fold_left (fun m c => fold_left (fun m id => fun q => if Nat.eqb q id then Some c else m q) (ids (tc_name c)) m) configurations (fun _ => None).
Definition resolve_transition_options {E} (ease : E) (ids : nat -> list nat) (rulesets : list (list (declaration transition_property E))) : option (nat -> option (transition_configuration E)) :=
  match resolve_rulesets tprop_dec transition_reset rulesets (fun _ => None) with
  | Some m => Some (transition_options_of ids (transition_configurations ease m))
  | None => None
  end.
(** style_sheet.rs:276-290 resolve_animation_configs *)
Definition resolve_animation_configs {E} (ease : E) (rulesets : list (list (declaration animation_property E))) : option (list (animation_configuration E)) :=
  match resolve_rulesets aprop_dec animation_reset rulesets (fun _ => None) with
  | Some m => Some (animation_configurations ease m)
  | None => None
  end.
