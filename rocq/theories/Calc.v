(** Model of `calc()`: crates/bevy_flair_css_parser/src/calc.rs:50-365 and the value parsers it is used with,
    crates/bevy_flair_css_parser/src/reflect/ui.rs:17-34, 83-120, 133-170.
    Text is given as the token trees cssparser produces (white space and comments dropped, blocks nested).
    Numbers are rationals: f32 rounding, infinities and NaN are not modelled. The error messages are not modelled. *)
From Coq Require Import QArith Qround.
From Verif Require Import Base.

(** Outcome of a parsing function: `todo!` and the like are [Panic]; [OutOfFuel] never happens (proved, C62) *)
Inductive res (X : Type) := Ok (x : X) | Err | Panic | OutOfFuel.
Arguments Ok {X}. Arguments Err {X}. Arguments Panic {X}. Arguments OutOfFuel {X}.
(** the `?` operator *)
Definition bind {X Y} (r : res X) (f : X -> res Y) : res Y :=
  match r with Ok x => f x | Err => Err | Panic => Panic | OutOfFuel => OutOfFuel end.

(** The units of cssparser's Token::Dimension that matter; the rest is one case *)
Inductive cunit := Upx | Uvw | Uvh | Uvmin | Uvmax | Udeg | Ugrad | Urad | Uturn | Uother.
(** Tokens that are neither one of the four operators nor a block. A percentage carries its number (50% is [LPercent 50]). *)
Inductive leaf := LNumber (q : Q) | LPercent (q : Q) | LDim (q : Q) (u : cunit) | LAuto | LNone | LOther.
(** Token trees: operators, `( .. )` and `calc( .. )` *)
Inductive tok := Leaf (x : leaf) | Plus | Minus | Star | Slash | Paren (l : list tok) | CalcFn (l : list tok).

Section C.
  Context {T : Type}.
  (** The value parser: all value parsers used with calc consume one token *)
  Variable value : leaf -> option T.
  (** CalcAdd::ZERO, CalcAdd::try_add, try_sub and CalcMul::try_mul (infallible for every type that has both traits) *)
  Variable zero : T.
  Variables try_add try_sub : T -> T -> option T.
  Variable try_mul : T -> Q -> T.

  (** calc.rs:27-33, 50-60 CalcOrValue, SumOperand and Calc; true is SumOperand::Plus *)
  Inductive ast := Value (t : T) | Sum (l : list (bool * ast)) | Mul (a : ast) (q : Q).

  (** 41-48, 191-203 calc_value; None is Err *)
  Fixpoint calc_value (a : ast) : option T :=
    match a with
    | Value t => Some t
    | Sum l =>
        (fix fold (acc : T) (l : list (bool * ast)) : option T :=
           match l with
           | [] => Some acc
           | (plus, b) :: l =>
               match calc_value b with
               | None => None
               | Some v => match (if plus then try_add acc v else try_sub acc v) with Some acc => fold acc l | None => None end
               end
           end) zero l
    | Mul a q => option_map (fun v => try_mul v q) (calc_value a)
    end.

  (** Parser::expect_number *)
  Definition number (x : leaf) : option Q := match x with LNumber q => Some q | _ => None end.
  (** 238-255 the loop of parse_calc_product *)
  Fixpoint factors (acc : Q) (ts : list tok) : res (Q * list tok) :=
    match ts with
    | Star :: r => match r with Leaf x :: r => match number x with Some n => factors (acc * n) r | None => Err end | _ => Err end
    | Slash :: r => match r with Leaf x :: r => match number x with Some n => factors (acc / n) r | None => Err end | _ => Err end
    | _ => Ok (acc, ts)
    end.

  (** 205-222 parse_calc_item, 224-257 parse_calc_product, 259-284 parse_calc_sum and its loop.
      The recursion is on fuel; every call decreases it. *)
  Fixpoint parse_item (fuel : nat) (ts : list tok) : res (ast * list tok) :=
    match fuel with
    | O => OutOfFuel
    | S fuel =>
        match ts with
        | Paren l :: r | CalcFn l :: r => bind (parse_sum fuel l) (fun a => Ok (a, r))
        | Leaf x :: r => match value x with Some t => Ok (Value t, r) | None => Err end
        | _ => Err
        end
    end
  with parse_product (fuel : nat) (ts : list tok) : res (ast * list tok) :=
    match fuel with
    | O => OutOfFuel
    | S fuel =>
        bind (parse_item fuel ts) (fun '(lhs, r) =>
          match r with
          | [] => Ok (lhs, [])
          | _ => bind (factors 1 r) (fun '(q, r) => Ok (Mul lhs q, r))
          end)
    end
  with parse_sum (fuel : nat) (ts : list tok) : res ast :=
    match fuel with
    | O => OutOfFuel
    | S fuel => bind (parse_product fuel ts) (fun '(a, r) => sum_loop fuel [(true, a)] r)
    end
  with sum_loop (fuel : nat) (operands : list (bool * ast)) (ts : list tok) : res ast :=
    match fuel with
    | O => OutOfFuel
    | S fuel =>
        match ts with
        | [] => Ok (Sum operands)
        | t :: r => bind (parse_product fuel r) (fun '(a, r) =>
            match t with
            | Plus => sum_loop fuel (operands ++ [(true, a)]) r
            | Minus => sum_loop fuel (operands ++ [(false, a)]) r
            | _ => Panic
            end)
        end
    end.

  (** enough fuel for a token list: see [CalcProofs] *)
  Fixpoint size (t : tok) : nat := match t with Paren l | CalcFn l => S (fold_right (fun t n => size t + n) 0 l) | _ => 1 end%nat.
  Definition sizes (ts : list tok) : nat := fold_right (fun t n => size t + n)%nat 0%nat ts.
  Definition enough (ts : list tok) : nat := (4 * sizes ts + 3)%nat.

  (** 304-318 parse_calc_or_value, with 295-302 parse_calc_fn and 286-293 parse_calc_inner *)
  Definition parse_calc_or_value (ts : list tok) : res (ast * list tok) :=
    match ts with
    | CalcFn l :: r => bind (parse_sum (enough l) l) (fun a => Ok (a, r))
    | Leaf x :: r => match value x with Some t => Ok (Value t, r) | None => Err end
    | _ => Err
    end.
  (** 332-346 parse_calc_value: the value and the tokens left *)
  Definition parse_calc_value (ts : list tok) : res (T * list tok) :=
    bind (parse_calc_or_value ts) (fun '(a, r) => match calc_value a with Some v => Ok (v, r) | None => Err end).
End C.
Arguments ast : clear implicits.

(** bevy_ui's Val *)
Inductive val := VAuto | VPx (q : Q) | VPercent (q : Q) | VVw (q : Q) | VVh (q : Q) | VVmin (q : Q) | VVmax (q : Q).
(** ui.rs:83-116 parse_val *)
Definition parse_val (x : leaf) : option val :=
  match x with
  | LAuto => Some VAuto
  | LNumber q => Some (VPx q)
  | LPercent q => Some (VPercent q)
  | LDim q Upx => Some (VPx q) | LDim q Uvw => Some (VVw q) | LDim q Uvh => Some (VVh q)
  | LDim q Uvmin => Some (VVmin q) | LDim q Uvmax => Some (VVmax q)
  | _ => None
  end.
(** bevy_ui: Val * f32 and -Val *)
Definition val_map (f : Q -> Q) (v : val) : val :=
  match v with VAuto => VAuto | VPx q => VPx (f q) | VPercent q => VPercent (f q) | VVw q => VVw (f q) | VVh q => VVh (f q) | VVmin q => VVmin (f q) | VVmax q => VVmax (f q) end.
Definition val_mul (v : val) (k : Q) : val := val_map (fun q => q * k) v.
(** bevy_ui: v == Val::ZERO; Val's PartialEq holds all zero lengths equal whatever their unit *)
Definition is_zero (v : val) : bool :=
  match v with VAuto => false | VPx q | VPercent q | VVw q | VVh q | VVmin q | VVmax q => Qeq_bool q 0 end.
(** calc.rs:161-190 CalcAdd for Val *)
Definition val_add (a b : val) : option val :=
  if is_zero a then Some b else if is_zero b then Some a else
  match a, b with
  | VPx a, VPx b => Some (VPx (a + b)) | VPercent a, VPercent b => Some (VPercent (a + b))
  | VVw a, VVw b => Some (VVw (a + b)) | VVh a, VVh b => Some (VVh (a + b))
  | VVmin a, VVmin b => Some (VVmin (a + b)) | VVmax a, VVmax b => Some (VVmax (a + b))
  | _, _ => None
  end.
Definition val_sub (a b : val) : option val := val_add a (val_map Qopp b).
(** ui.rs:118-120 parse_calc_val *)
Definition parse_calc_val : list tok -> res (val * list tok) := parse_calc_value parse_val (VPx 0) val_add val_sub val_mul.

(** ui.rs:17-34 parse_f32, parse_calc_f32 *)
Definition parse_f32 (x : leaf) : option Q := match x with LNumber q | LDim q Upx => Some q | _ => None end.
(** calc.rs:136-149 CalcAdd for f32: try_sub adds as well *)
Definition f32_add (a b : Q) : option Q := Some (a + b).
Definition f32_sub (a b : Q) : option Q := Some (a + b).
Definition parse_calc_f32 : list tok -> res (Q * list tok) := parse_calc_value parse_f32 0 f32_add f32_sub Qmult.

(** bevy_math's Rot2, as the number of turns in (-1/2, 1/2] that as_radians (atan2) gives back *)
Definition wrap (q : Q) : Q := q - inject_Z (Qceiling (q - (1 # 2))).
(** ui.rs:133-166 parse_angle; [rho] turns are one radian *)
Definition parse_angle (rho : Q) (x : leaf) : option Q :=
  match x with
  | LNone => Some 0
  | LNumber q => if Qeq_bool q 0 then Some 0 else None
  | LDim q Udeg => Some (wrap (q / 360)) | LDim q Ugrad => Some (wrap (q / 400))
  | LDim q Urad => Some (wrap (q * rho)) | LDim q Uturn => Some (wrap q)
  | _ => None
  end.
(** calc.rs:92-98, 151-159 CalcMul and CalcAdd for Rot2 *)
Definition rot_add (a b : Q) : option Q := Some (wrap (a + b)).
Definition rot_sub (a b : Q) : option Q := Some (wrap (a - b)).
Definition rot_mul (a k : Q) : Q := wrap (a * k).
(** ui.rs:168-170 parse_calc_angle *)
Definition parse_calc_angle (rho : Q) : list tok -> res (Q * list tok) := parse_calc_value (parse_angle rho) 0 rot_add rot_sub rot_mul.
