(** Model of timing functions: crates/bevy_flair_css_parser/src/parser/animations.rs:17-214 (mod easing, parsing) and
    crates/bevy_flair_style/src/animations/easing.rs:30-163 (curves), with bevy_math's UnevenCore and StepsCurve as they are in bevy 0.18.
    f32 is modelled by rationals; names are lower case already (the code compares ignoring ASCII case); cubic-bezier curves are left to bevy_math. *)
From Coq Require Import QArith Qround Ascii String.
From Verif Require Import Base.
Open Scope nat_scope.

(** cssparser tokens, without white space. A number has the integer it is, if it was written as one. *)
Inductive etok := EIdent (s : string) | EFunction (s : string) (args : list etok) | ENumber (q : Q) (int : option Z) | EPercent (q : Q) | EComma | EOther.

(** easing.rs:12-27 StepPosition *)
Inductive step_position := JumpStart | JumpEnd | JumpNone | JumpBoth | PosStart | PosEnd.
(** easing.rs:77-107 EasingFunction *)
Inductive easing :=
| Linear | LinearPoints (l : list (Q * Q)) | Ease | EaseIn | EaseOut | EaseInOut
| CubicBezier (x1 y1 x2 y2 : Q) | Steps (n : Z) (pos : step_position).

(** cssparser Parser::parse_comma_separated: what is between the commas *)
Fixpoint split_commas (l : list etok) : list (list etok) :=
  match l with
  | [] => [[]]
  | EComma :: r => [] :: split_commas r
  | t :: r => match split_commas r with s :: ss => (t :: s) :: ss | [] => [[t]] end
  end.
(** animations.rs:37-47; all of a part has to be consumed *)
Definition parse_point (l : list etok) : option (option Q * Q) :=
  match l with
  | [ENumber y _] => Some (None, y)
  | [ENumber y _; EPercent p] => Some (Some p, y)
  | _ => None
  end.
Fixpoint parse_points (l : list (list etok)) : option (list (option Q * Q)) :=
  match l with
  | [] => Some []
  | s :: r => match parse_point s, parse_points r with Some x, Some xs => Some (x :: xs) | _, _ => None end
  end.
(** animations.rs:53-55 *)
Definition set_first (l : list (option Q * Q)) : list (option Q * Q) := match l with (None, y) :: r => (Some 0%Q, y) :: r | _ => l end.
(** animations.rs:61-64 *)
Fixpoint set_last (l : list (option Q * Q)) : list (option Q * Q) :=
  match l with [] => [] | [(None, y)] => [(Some 1%Q, y)] | x :: r => x :: set_last r end.
(** animations.rs:66-78 *)
Fixpoint running_max (prev : Q) (l : list (option Q * Q)) : list (option Q * Q) :=
  match l with
  | [] => []
  | (None, y) :: r => (None, y) :: running_max prev r
  | (Some p, y) :: r => if negb (Qle_bool prev p) then (Some prev, y) :: running_max prev r else (Some p, y) :: running_max p r
  end.
(** animations.rs:80-111: [from] is the progress of the last point that has one, [run] are the outputs of the points without one behind it.
    [None] = an index out of bounds *)
Definition spread (from to : Q) (run : list Q) : list (Q * Q) :=
  let space := ((to - from) / inject_Z (Z.of_nat (length run + 1)))%Q in
  map (fun iy => ((from + inject_Z (Z.of_nat (fst iy + 1)) * space)%Q, snd iy)) (combine (seq 0 (length run)) run).
Fixpoint fill_even (from : Q) (run : list Q) (l : list (option Q * Q)) : option (list (Q * Q)) :=
  match l with
  | [] => match run with [] => Some [] | _ => None end
  | (None, y) :: r => fill_even from (run ++ [y]) r
  | (Some p, y) :: r => option_map (fun rest => spread from p run ++ (p, y) :: rest) (fill_even p [] r)
  end.
(** animations.rs:23-114 parse_easing_linear_parameters, from the parsed points on. [None] = a panic *)
Definition normalise (l : list (option Q * Q)) : option (list (Q * Q)) :=
  match set_first l with
  | [] => Some []
  | [(Some p, y)] => Some [(p, y)]
  | ((Some p0, _) :: _) as l1 =>
      match running_max p0 (set_last l1) with
      | (Some p, y) :: r => option_map (cons (p, y)) (fill_even p [] r)
      | _ => None
      end
  | _ => None
  end.
Inductive eresult (X : Type) := EOk (x : X) | EErr | EPanic.
Arguments EOk {X}. Arguments EErr {X}. Arguments EPanic {X}.
Definition parse_linear (args : list etok) : eresult easing :=
  match args with
  | [] => EOk (LinearPoints [])
  | _ => match parse_points (split_commas args) with
         | None => EErr
         | Some l => match normalise l with Some pts => EOk (LinearPoints pts) | None => EPanic end
         end
  end.
(** animations.rs:116-151 parse_easing_steps_parameters; the nested block has to be consumed *)
Definition parse_step_position (s : string) : option step_position :=
  if String.eqb s "jump-start" then Some JumpStart else if String.eqb s "jump-end" then Some JumpEnd
  else if String.eqb s "jump-none" then Some JumpNone else if String.eqb s "jump-both" then Some JumpBoth
  else if String.eqb s "start" then Some PosStart else if String.eqb s "end" then Some PosEnd else None.
Definition parse_steps (args : list etok) : eresult easing :=
  match args with
  | [ENumber _ (Some n)] => EOk (Steps n PosEnd)
  | [ENumber _ (Some n); EComma; EIdent s] => match parse_step_position s with Some pos => EOk (Steps n pos) | None => EErr end
  | _ => EErr
  end.
(** animations.rs:153-171 *)
Definition parse_cubic (args : list etok) : eresult easing :=
  match args with
  | [ENumber x1 _; EComma; ENumber y1 _; EComma; ENumber x2 _; EComma; ENumber y2 _] => EOk (CubicBezier x1 y1 x2 y2)
  | _ => EErr
  end.
(** animations.rs:173-213 parse_easing_function; easing.rs:110-120 STEP_START, STEP_END *)
Definition parse_easing (t : etok) : eresult easing :=
  match t with
  | EIdent s =>
      if String.eqb s "linear" then EOk Linear else if String.eqb s "ease" then EOk Ease
      else if String.eqb s "ease-in" then EOk EaseIn else if String.eqb s "ease-out" then EOk EaseOut
      else if String.eqb s "ease-in-out" then EOk EaseInOut else if String.eqb s "step-start" then EOk (Steps 1 JumpStart)
      else if String.eqb s "step-end" then EOk (Steps 1 JumpEnd) else EErr
  | EFunction s args =>
      if String.eqb s "linear" then parse_linear args else if String.eqb s "steps" then parse_steps args
      else if String.eqb s "cubic-bezier" then parse_cubic args else EErr
  | _ => EErr
  end.

(** bevy_math UnevenCore::new: a stable sort by time, then all but the first sample of each time are dropped. [None] = fewer than two samples *)
Fixpoint insert_pt (k : Q * Q) (l : list (Q * Q)) : list (Q * Q) :=
  match l with [] => [k] | x :: r => if Qle_bool (fst k) (fst x) then k :: x :: r else x :: insert_pt k r end.
Fixpoint dedup_pts (k : Q * Q) (l : list (Q * Q)) : list (Q * Q) :=
  match l with [] => [k] | x :: r => if Qeq_bool (fst k) (fst x) then dedup_pts k r else k :: dedup_pts x r end.
Definition uneven_pts (l : list (Q * Q)) : option (list (Q * Q)) :=
  match fold_right insert_pt [] l with
  | [] => None
  | k :: r => let d := dedup_pts k r in if Nat.ltb (length d) 2 then None else Some d
  end.
(** bevy_math UnevenCore::sample_with and f32's interpolate_stable: clamped outside, linear in between *)
Definition lerpq (a b t : Q) : Q := (a + (b - a) * t)%Q.
Fixpoint sample_after (k : Q * Q) (l : list (Q * Q)) (x : Q) : Q :=
  if Qeq_bool x (fst k) then snd k
  else match l with
       | [] => snd k
       | k' :: r => if Qle_bool (fst k') x then sample_after k' r x
                    else lerpq (snd k) (snd k') ((x - fst k) / (fst k' - fst k))
       end.
Definition sample_pts (l : list (Q * Q)) (x : Q) : Q :=
  match l with [] => 0%Q | k :: r => if Qle_bool (fst k) x then sample_after k r x else snd k end.

(** easing.rs:29-40 From<StepPosition> for JumpAt, and bevy_math JumpAt::eval: what is added to the step, and to the number of steps *)
Definition jump (p : step_position) : Z * Z :=
  match p with
  | JumpStart | PosStart => (1, 0)%Z | JumpEnd | PosEnd => (0, 0)%Z | JumpNone => (0, -1)%Z | JumpBoth => (1, 1)%Z
  end.
Definition clampq (x : Q) : Q := if Qle_bool 0 x then (if Qle_bool x 1 then x else 1%Q) else 0%Q.
(** `steps as usize` of an i32, on 64 bits; `as isize` back *)
Definition as_usize (n : Z) : Z := if (n <? 0)%Z then (n + 2 ^ 64)%Z else n.
Definition eval_steps (n : Z) (p : step_position) (t : Q) : Q :=
  let (a, b) := jump p in
  let current := (Qfloor (clampq t * inject_Z (as_usize n)) + a)%Z in
  let size := Z.max (n + b) 1 in
  clampq (inject_Z current / inject_Z size)%Q.

(** easing.rs:122-163 into_easing_curve and 61-72 sample_clamped, in builds without debug assertions. [bezier] is bevy_math's
    CubicSegment::ease; [None] = the `unwrap` panics. *)
Section C.
  Variable bezier : Q -> Q -> Q -> Q -> Q -> Q.
  Definition sample_easing (e : easing) (t : Q) : option Q :=
    match e with
    | Linear => Some (clampq t)
    | LinearPoints [] => Some (clampq t)
    | LinearPoints [(p, _)] => Some p
    | LinearPoints l => option_map (fun d => sample_pts d t) (uneven_pts (l ++ [(0, 0); (1, 1)]%Q))
    | Ease => Some (bezier (1 # 4) (1 # 10) (1 # 4) 1 t)
    | EaseIn => Some (bezier (42 # 100) 0 1 1 t)
    | EaseOut => Some (bezier 0 0 (58 # 100) 1 t)
    | EaseInOut => Some (bezier (42 # 100) 0 (58 # 100) 1 t)
    | CubicBezier x1 y1 x2 y2 => Some (bezier x1 y1 x2 y2 t)
    | Steps n p => Some (eval_steps n p t)
    end%Q.
  (** easing.rs:135-139: the assertion of builds with debug assertions *)
  Definition debug_ok (e : easing) : Prop :=
    match e with
    | LinearPoints ((_ :: _ :: _) as l) =>
        match uneven_pts (l ++ [(0, 0); (1, 1)]%Q) with
        | Some (k :: r) => (fst k == 0 /\ fst (last (k :: r) k) == 1)%Q
        | _ => False
        end
    | _ => True
    end.
End C.
