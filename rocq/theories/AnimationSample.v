(** The two readings of the f32 arithmetic in [sample_value] (animation.rs:519-545):
    exact (extended rationals) and IEEE binary32 (stdlib SpecFloat, precision 24, emax 128). *)
From Coq Require Import NArith QArith SpecFloat Lqa.
From Verif Require Import Base Animation.

(** ** Exact *)
Inductive ext := Fin (q : Q) | PosInf | NegInf | NaN.
Definition ideal_secs (n : N) : ext := Fin (Z.of_N n # 1000000000).
Definition ideal_sub (a b : ext) : ext := match a, b with Fin x, Fin y => Fin (x - y) | _, _ => NaN end.
Definition ideal_div (a b : ext) : ext :=
  match a, b with
  | Fin x, Fin y => if Qeq_bool y 0 then (if Qeq_bool x 0 then NaN else if Qle_bool 0 x then PosInf else NegInf) else Fin (x / y)
  | _, _ => NaN
  end.
Definition ideal_in_unit (a : ext) : bool := match a with Fin x => Qle_bool 0 x && Qle_bool x 1 | _ => false end.
Definition ideal_lt0 (a : ext) : bool := match a with Fin x => negb (Qle_bool 0 x) | NegInf => true | _ => false end.
Definition ideal_ge1 (a : ext) : bool := match a with Fin x => Qle_bool 1 x | PosInf => true | _ => false end.
Definition ideal_sample {V} (curve : ext -> V) (x : animation) : option V :=
  sample_value ideal_secs ideal_sub ideal_div ideal_in_unit ideal_lt0 ideal_ge1 (Fin 0) (Fin 1) curve x.

(** ** binary32 *)
Definition f32_of_Z (z : Z) : spec_float := binary_normalize 24 128 z 0 false.
(** core::time::Duration::as_secs_f32: [(secs as f32) + (nanos as f32) / (1_000_000_000 as f32)] *)
Definition f32_secs (n : N) : spec_float :=
  SFadd 24 128 (f32_of_Z (Z.of_N (n / 1000000000)))
        (SFdiv 24 128 (f32_of_Z (Z.of_N (n mod 1000000000))) (f32_of_Z 1000000000)).
Definition f32_one : spec_float := f32_of_Z 1.
Definition f32_zero : spec_float := f32_of_Z 0.
Definition f32_sample {V} (curve : spec_float -> V) (x : animation) : option V :=
  sample_value f32_secs (SFsub 24 128) (SFdiv 24 128)
    (fun t => SFleb f32_zero t && SFleb t f32_one)%bool (fun t => SFltb t f32_zero) (fun t => SFleb f32_one t)
    f32_zero f32_one curve x.
