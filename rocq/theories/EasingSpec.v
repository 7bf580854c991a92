(** What CSS says about timing functions (css-easing-2), independently of the code. *)
From Coq Require Import QArith Qround Ascii String Sorted.
From Verif Require Import Base Easing.
Open Scope nat_scope.

(** linear(): the arguments as written *)
Inductive stop_text : list etok -> option Q * Q -> Prop :=
| plain_stop : forall y n, stop_text [ENumber y n] (None, y)
| placed_stop : forall y n p, stop_text [ENumber y n; EPercent p] (Some p, y).
(** stops separated by commas *)
Inductive stops_text : list etok -> list (option Q * Q) -> Prop :=
| one_stop : forall s x, stop_text s x -> stops_text s [x]
| more_stops : forall s x r xs, stop_text s x -> stops_text r xs -> stops_text (s ++ EComma :: r) (x :: xs).

(** The place of a stop as written; the first is at 0 and the last at 1 if not written *)
Definition written (l : list (option Q * Q)) (i : nat) : option Q :=
  match nth_error l i with
  | Some (Some p, _) => Some p
  | Some (None, _) => if Nat.eqb i 0 then Some 0%Q else if Nat.eqb i (length l - 1) then Some 1%Q else None
  | None => None
  end.
(** The points a list of stops means: a written place is moved right to the furthest one written so far,
    the others are evenly spaced between the nearest written ones *)
Definition place (pts : list (Q * Q)) (i : nat) : Q := nth i (map fst pts) 0%Q.
Definition means (l : list (option Q * Q)) (pts : list (Q * Q)) : Prop :=
  length pts = length l /\ map snd pts = map snd l /\
  (forall i p, written l i = Some p ->
     (exists j q, j <= i /\ written l j = Some q /\ (place pts i == q)%Q) /\
     forall j q, j <= i -> written l j = Some q -> (q <= place pts i)%Q) /\
  (forall a i b, a < i < b -> written l a <> None -> written l b <> None -> (forall k, a < k < b -> written l k = None) ->
     (place pts i == place pts a + (place pts b - place pts a) * (inject_Z (Z.of_nat (i - a)) / inject_Z (Z.of_nat (b - a))))%Q).

(** The broken line through points *)
Inductive on_broken : list (Q * Q) -> Q -> Q -> Prop :=
| br_point : forall t a l x y, (x == t)%Q -> (y == a)%Q -> on_broken ((t, a) :: l) x y
| br_segment : forall ta a tb b l x y, (ta < x < tb)%Q -> (y == a + (b - a) * ((x - ta) / (tb - ta)))%Q -> on_broken ((ta, a) :: (tb, b) :: l) x y
| br_further : forall p l x y, on_broken l x y -> on_broken (p :: l) x y.
Definition ascending (l : list (Q * Q)) : Prop := StronglySorted Qlt (map fst l).

(** steps(): valid numbers of steps, and the output *)
Definition valid_steps (n : Z) (p : step_position) : Prop := match p with JumpNone => (2 <= n)%Z | _ => (1 <= n)%Z end.
Definition starts_early (p : step_position) : Prop := p = JumpStart \/ p = PosStart \/ p = JumpBoth.
Definition jumps (n : Z) (p : step_position) : Z := match p with JumpNone => (n - 1)%Z | JumpBoth => (n + 1)%Z | _ => n end.
(** [x] is in the [k]-th of [n] intervals of equal length; then [k] jumps have been made, one more if the first is at the very start; the last
    moment belongs behind the last interval, and no more jumps are made than there are *)
Definition steps_output (n : Z) (p : step_position) (x y : Q) : Prop :=
  exists k c, (inject_Z k <= x * inject_Z n < inject_Z (k + 1))%Q /\
    (starts_early p -> c = (k + 1)%Z) /\ (~ starts_early p -> c = k) /\
    (y == inject_Z (Z.min c (jumps n p)) / inject_Z (jumps n p))%Q.

(** CSS's own grammar of a stop: a number and up to two percentages behind or before it *)
Inductive css_stop : list etok -> Prop :=
| css_after : forall y n ps, length ps <= 2 -> css_stop (ENumber y n :: map EPercent ps)
| css_before : forall y n ps, length ps <= 2 -> css_stop (map EPercent ps ++ [ENumber y n]).
