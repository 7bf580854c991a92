(** Specification vocabulary for `animation*` and `transition*` declarations. *)
From Coq Require Import NArith.
From Verif Require Import Base Animation AnimProps.

(** The value that one animation of a shorthand gives to property [p]: the last one it lists, or the default. *)
Definition gives {P E} (a : list (P * avalue E)) (p : P) (v : avalue E) : Prop :=
  (exists a1 a2, a = a1 ++ (p, v) :: a2 /\ forall v', ~ In (p, v') a2) \/ ((forall v', ~ In (p, v') a) /\ v = VDefault).

(** The list entry that position [i] uses: the one at the position, or the last one of a shorter list *)
Definition chosen {P E} (m : pmap P E) (p : P) (i : nat) (v : avalue E) : Prop :=
  exists l, m p = Some l /\ (nth_error l i = Some v \/ (length l <= i /\ exists l', l = l' ++ [v])).
(** An option at position [i] is [d]: the chosen entry says so, or there is none of this kind and [d] is the default *)
Definition option_is {P E A} (m : pmap P E) (p : P) (i : nat) (mk : A -> avalue E) (dflt d : A) : Prop :=
  chosen m p i (mk d) \/ ((forall d', ~ chosen m p i (mk d')) /\ d = dflt).

(** The kind of values each property takes *)
Definition a_kind {E} (p : animation_property) (v : avalue E) : Prop :=
  v = VDefault \/
  match p with
  | AName => exists x, v = VName x | ADuration | ADelay => exists x, v = VDuration x | ADirection => exists x, v = VDirection x
  | AFillMode => exists x, v = VFillMode x | AIterationCount => exists x, v = VIterationCount x
  | APlayState => exists x, v = VPlayState x | ATimingFunction => exists x, v = VTimingFunction x
  end.
Definition t_kind {E} (p : transition_property) (v : avalue E) : Prop :=
  v = VDefault \/
  match p with TName => exists x, v = VName x | TDuration | TDelay => exists x, v = VDuration x | TTimingFunction => exists x, v = VTimingFunction x end.
(** What the parser produces: values of the right kind, and empty lists only for names (`none`) *)
Definition proper {P E} (kind : P -> avalue E -> Prop) (name : P) (d : declaration P E) : Prop :=
  match d with
  | Shorthand (Some l) => forall a p v, In a l -> In (p, v) a -> kind p v
  | Single p (Some l) => (forall v, In v l -> kind p v) /\ (p <> name -> l <> [])
  | _ => True
  end.
Definition proper_map {P E} (kind : P -> avalue E -> Prop) (name : P) (m : pmap P E) : Prop :=
  forall p l, m p = Some l -> (forall v, In v l -> kind p v) /\ (p <> name -> l <> []).
(** A shorthand's list of longhands: all of them, once *)
Definition complete {P} (reset : list P) : Prop := NoDup reset /\ forall p, In p reset.
(** [chosen] options of an animation or transition at position [i] of the name list *)
Definition animation_at {E} (ease : E) (m : pmap animation_property E) (i : nat) (c : animation_configuration E) : Prop :=
  (exists l, m AName = Some l /\ nth_error l i = Some (VName (ac_name c))) /\
  option_is m ATimingFunction i VTimingFunction ease (ac_timing c) /\
  option_is m ADelay i VDuration 0%N (o_initial_delay (ac_options c)) /\
  option_is m ADuration i VDuration 0%N (o_duration (ac_options c)) /\
  option_is m ADirection i VDirection DirNormal (o_direction (ac_options c)) /\
  option_is m AIterationCount i VIterationCount (Count 1) (o_iteration_count (ac_options c)) /\
  option_is m AFillMode i VFillMode FillNone (o_fill_mode (ac_options c)) /\
  option_is m APlayState i VPlayState PlayRunning (o_play_state (ac_options c)).
Definition transition_at {E} (ease : E) (m : pmap transition_property E) (i : nat) (c : transition_configuration E) : Prop :=
  (exists l, m TName = Some l /\ nth_error l i = Some (VName (tc_name c))) /\
  option_is m TTimingFunction i VTimingFunction ease (tc_timing c) /\
  option_is m TDelay i VDuration 0%N (tc_delay c) /\
  option_is m TDuration i VDuration 0%N (tc_duration c).
