(** What media queries of nodes should answer: C82. *)
From Coq Require Import NArith.
From Verif Require Import Base Media MediaDeps.

Section Spec.
  Variable f32 : Type.
  Variables feq fle fge : f32 -> f32 -> bool.
  Notation world := (world f32).
  Notation op := (op f32).

  (** The window a node is shown on, whether it is open or not *)
  Definition shown_on (s : world) (n : nat) : option nat :=
    match n_camera f32 (nodes f32 s n) with
    | Some c => match cameras f32 s c with Some Primary => primary f32 s | Some (ToWindow w) => Some w | _ => None end
    | None => None
    end.
  (** its colour scheme: the theme of that window *)
  Definition scheme_of (s : world) (n : nat) : option color_scheme :=
    match shown_on s n with
    | Some w => match windows f32 s w with Some win => w_theme win | None => None end
    | None => None
    end.
  Definition holds (scheme : option color_scheme) (i : option (info f32)) (q : media_selector f32) : Prop :=
    match q with
    | MColorScheme _ c => scheme = Some c
    | MViewportWidth _ r => exists x, i = Some x /\ range_matches N.eqb N.leb ngeb r (i_width f32 x) = true
    | MViewportHeight _ r => exists x, i = Some x /\ range_matches N.eqb N.leb ngeb r (i_height f32 x) = true
    | MAspectRatio _ r => exists x, i = Some x /\ range_matches feq fle fge r (i_ratio f32 x) = true
    | MResolution _ r => exists x, i = Some x /\ range_matches feq fle fge r (i_scale f32 x) = true
    end.
  (** the active rules of the node are those all of whose media features hold now *)
  Definition up_to_date (s : world) (n : nat) : Prop :=
    forall rules, n_rules f32 (nodes f32 s n) = Some rules ->
      Forall2 (fun r b => b = true <-> Forall (holds (scheme_of s n) (n_info f32 (nodes f32 s n))) r) rules (n_active f32 (nodes f32 s n)).

  Definition restyled (ops : list op) (n : nat) : Prop := exists r b, In (Restyle f32 n r b) ops.
  (** In this update, the colour scheme a node sees only changes with the theme of the window it is shown on, or by opening that
      window, and a node does not lose its size. *)
  Definition steady (s : world) (ops : list op) : Prop :=
    let s' := program f32 ops s in
    forall n, restyled ops n \/
      ((scheme_of s' n = scheme_of s n \/
        (shown_on s' n = shown_on s n /\ forall w, shown_on s n = Some w -> windows f32 s w <> None -> windows f32 s' w <> None)) /\
       (n_info f32 (nodes f32 s n) <> None -> n_info f32 (nodes f32 s' n) <> None)).
  Definition steady_history (h : list (list op)) : Prop :=
    forall h1 ops h2, h = h1 ++ ops :: h2 -> steady (updates f32 feq fle fge h1) ops.
End Spec.

(** An application that sets its cameras up once: afterwards windows are opened and change their theme, sizes change, and
    anything happens to nodes and style sheets. *)
Definition plain {f32} (o : op f32) : Prop :=
  match o with
  | OpenWindow _ _ _ | SetTheme _ _ _ | ThemeMessage _ _ _ | SetInfo _ _ (Some _) | Load _ _ _ | Restyle _ _ _ _ => True
  | _ => False
  end.
Definition set_up_once {f32} (h : list (list (op f32))) : Prop :=
  match h with
  | [] => True
  | first :: rest => (forall n c, In (SetNodeCamera f32 n c) first -> restyled f32 first n) /\ forall ops o, In ops rest -> In o ops -> plain o
  end.
