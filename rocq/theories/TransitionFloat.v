(** The two readings of the f32 arithmetic of transition.rs: exact extended rationals and binary32. *)
From Coq Require Import NArith QArith SpecFloat.
From Verif Require Import Base AnimationSample Transition.

(** nearest integer to n/d, ties to even (core::time, try_from_secs!) *)
Definition round_half_even (n d : N) : N :=
  let q := N.div n d in let r := N.modulo n d in
  match N.compare (2 * r) d with
  | Lt => q
  | Gt => q + 1
  | Eq => if N.even q then q else q + 1
  end%N.

(** ** Exact *)
Definition ideal_add (a b : ext) : ext := match a, b with Fin x, Fin y => Fin (x + y) | _, _ => NaN end.
Definition ideal_mul (a b : ext) : ext := match a, b with Fin x, Fin y => Fin (x * y) | _, _ => NaN end.
Definition ideal_abs (a : ext) : ext :=
  match a with Fin x => Fin (if Qle_bool 0 x then x else (- x)%Q) | PosInf | NegInf => PosInf | NaN => NaN end.
Definition ideal_lt (a b : ext) : bool :=
  match a, b with
  | Fin x, Fin y => negb (Qle_bool y x)
  | NegInf, Fin _ | NegInf, PosInf | Fin _, PosInf => true
  | _, _ => false
  end.
Definition ideal_le (a b : ext) : bool :=
  match a, b with
  | Fin x, Fin y => Qle_bool x y
  | NegInf, NaN | NaN, _ => false
  | NegInf, _ => true
  | Fin _, PosInf | PosInf, PosInf => true
  | _, _ => false
  end.
Definition ideal_nan (a : ext) : bool := match a with NaN => true | _ => false end.
Definition ideal_from_secs (a : ext) : option N :=
  match a with
  | Fin q => match Qnum q with
             | Zneg _ => None
             | z => Some (round_half_even (Z.to_N z * 1000000000) (Npos (Qden q)))
             end
  | _ => None
  end.
Definition ideal : fops ext :=
  mk_fops ideal_secs ideal_from_secs ideal_add ideal_sub ideal_mul ideal_div ideal_abs ideal_lt ideal_le ideal_nan (Fin 0) (Fin 1).

(** ** binary32 *)
Definition f32_from_secs (a : spec_float) : option N :=
  match a with
  | S754_zero _ => Some 0%N
  | S754_finite false m e =>
      let n := match e with
               | Zpos p => (Npos m * 1000000000 * 2 ^ Npos p)%N
               | Z0 => (Npos m * 1000000000)%N
               | Zneg p => round_half_even (Npos m * 1000000000) (2 ^ Npos p)
               end in
      if (N.div n 1000000000 <? 18446744073709551616)%N then Some n else None
  | _ => None
  end.
Definition f32_nan (a : spec_float) : bool := match a with S754_nan => true | _ => false end.
Definition f32 : fops spec_float :=
  mk_fops f32_secs f32_from_secs (SFadd 24 128) (SFsub 24 128) (SFmul 24 128) (SFdiv 24 128) SFabs SFltb SFleb f32_nan f32_zero f32_one.
