(** What a `calc()` expression is and what it is worth (CSS Values, with the restriction documented by the library that
    the right operand of `*` and `/` is a plain number). *)
From Coq Require Import QArith.
From Verif Require Import Base Calc.

(** An expression, read off the tokens; leaves are the tokens themselves *)
Inductive expr := ELeaf (x : leaf) | EAdd (a b : expr) | ESub (a b : expr) | EMul (a : expr) (k : Q) | EDiv (a : expr) (k : Q).

Section G.
  (** which tokens are values *)
  Variable is_value : leaf -> Prop.
  Inductive is_item : list tok -> expr -> Prop :=
  | item_leaf x : is_value x -> is_item [Leaf x] (ELeaf x)
  | item_paren l e : is_sum l e -> is_item [Paren l] e
  | item_calc l e : is_sum l e -> is_item [CalcFn l] e
  with is_product : list tok -> expr -> Prop :=
  | product_item ts e : is_item ts e -> is_product ts e
  | product_mul ts e k : is_product ts e -> is_product (ts ++ [Star; Leaf (LNumber k)]) (EMul e k)
  | product_div ts e k : is_product ts e -> is_product (ts ++ [Slash; Leaf (LNumber k)]) (EDiv e k)
  with is_sum : list tok -> expr -> Prop :=
  | sum_product ts e : is_product ts e -> is_sum ts e
  | sum_add ts us a b : is_sum ts a -> is_product us b -> is_sum (ts ++ Plus :: us) (EAdd a b)
  | sum_sub ts us a b : is_sum ts a -> is_product us b -> is_sum (ts ++ Minus :: us) (ESub a b).
End G.

(** The worth of an expression over a kind of quantity with several units: one number per unit *)
Section W.
  Context {U : Type}.
  Variable worth : leaf -> U -> Q.
  Fixpoint eval (e : expr) (u : U) : Q :=
    match e with
    | ELeaf x => worth x u
    | EAdd a b => eval a u + eval b u
    | ESub a b => eval a u - eval b u
    | EMul a k => eval a u * k
    | EDiv a k => eval a u / k
    end.
End W.
(** no division by a literal zero *)
Fixpoint divides (e : expr) : Prop :=
  match e with ELeaf _ => True | EAdd a b | ESub a b => divides a /\ divides b | EMul a _ => divides a | EDiv a k => divides a /\ ~ k == 0 end.
Fixpoint leaves (e : expr) : list leaf :=
  match e with ELeaf x => [x] | EAdd a b | ESub a b => leaves a ++ leaves b | EMul a _ | EDiv a _ => leaves a end.
Fixpoint no_sub (e : expr) : Prop :=
  match e with ELeaf _ => True | EAdd a b => no_sub a /\ no_sub b | ESub _ _ => False | EMul a _ | EDiv a _ => no_sub a end.
Fixpoint no_scaling (e : expr) : Prop :=
  match e with ELeaf _ => True | EAdd a b | ESub a b => no_scaling a /\ no_scaling b | EMul _ _ | EDiv _ _ => False end.

(** Lengths: six units; a bare number counts as pixels in this library *)
Inductive lunit := Px | Percent | Vw | Vh | Vmin | Vmax.
Definition length_of (x : leaf) : option (Q * lunit) :=
  match x with
  | LNumber q | LDim q Upx => Some (q, Px) | LPercent q => Some (q, Percent) | LDim q Uvw => Some (q, Vw)
  | LDim q Uvh => Some (q, Vh) | LDim q Uvmin => Some (q, Vmin) | LDim q Uvmax => Some (q, Vmax)
  | _ => None
  end.
Definition lunit_eqb (a b : lunit) : bool :=
  match a, b with Px, Px | Percent, Percent | Vw, Vw | Vh, Vh | Vmin, Vmin | Vmax, Vmax => true | _, _ => false end.
Definition length_worth (x : leaf) (u : lunit) : Q :=
  match length_of x with Some (q, u') => if lunit_eqb u' u then q else 0 | None => 0 end.
(** how many of each unit a bevy Val is worth *)
Definition val_worth (v : val) (u : lunit) : Q :=
  match v, u with VPx q, Px | VPercent q, Percent | VVw q, Vw | VVh q, Vh | VVmin q, Vmin | VVmax q, Vmax => q | _, _ => 0 end.
(** is a length or `auto` *)
Definition is_length (x : leaf) : Prop := x = LAuto \/ exists l, length_of x = Some l.

(** Plain numbers; pixels count as numbers in this library *)
Definition is_number (x : leaf) : Prop := exists q, x = LNumber q \/ x = LDim q Upx.
Definition number_worth (x : leaf) (_ : unit) : Q := match x with LNumber q | LDim q Upx => q | _ => 0 end.

(** Angles, in turns *)
Definition is_angle (x : leaf) : Prop :=
  x = LNone \/ (exists q, x = LNumber q /\ q == 0) \/ exists q u, x = LDim q u /\ (u = Udeg \/ u = Ugrad \/ u = Urad \/ u = Uturn).
Definition angle_worth (rho : Q) (x : leaf) (_ : unit) : Q :=
  match x with LDim q Udeg => q / 360 | LDim q Ugrad => q / 400 | LDim q Urad => q * rho | LDim q Uturn => q | _ => 0 end.
(** two angles are the same rotation *)
Definition same_rotation (a b : Q) : Prop := exists k : Z, a == b + inject_Z k.
