(** Value semantics: map variables hold independent lists. *)
From Verif Require Import Base PropMap.

Section Spec.
  Context {T : Type} (teq : forall a b : T, {a = b} + {a <> b}) (tdefault : T).

  Definition values := list (option (list T)).
  Definition value_of (a : values) (m : nat) : option (list T) := match nth_error a m with Some (Some l) => Some l | _ => None end.

  Definition write (a : values) (m i : nat) (v : T) : option values :=
    match value_of a m with
    | None => None
    | Some l => if Nat.ltb i (length l) then Some (set_nth m (Some (set_nth i v l)) a) else None
    end.
  Definition read (a : values) (m i : nat) : option T := match value_of a m with None => None | Some l => nth_error l i end.
  Fixpoint writes (a : values) (m : nat) (kvs : list (nat * T)) : option values :=
    match kvs with
    | [] => Some a
    | (i, v) :: r => match write a m i v with None => None | Some a' => writes a' m r end
    end.

  Definition spec_step (a : values) (o : op T) : option (values * outcome T) :=
    match o with
    | ONew vs => Some (a ++ [Some vs], Done)
    | OClone m => option_map (fun l => (a ++ [Some l], Done)) (value_of a m)
    | ODrop m => option_map (fun _ => (set_nth m None a, Done)) (value_of a m)
    | OSet m i v => option_map (fun a' => (a', Done)) (write a m i v)
    | OSetIfNeq m i v =>
        match read a m i with
        | None => None
        | Some old => if teq old v then Some (a, Changed false) else option_map (fun a' => (a', Changed true)) (write a m i v)
        end
    | OTake m i => match read a m i, write a m i tdefault with Some old, Some a' => Some (a', Got old) | _, _ => None end
    | OExtend m kvs => option_map (fun a' => (a', Done)) (writes a m kvs)
    | OGet m i => option_map (fun v => (a, Got v)) (read a m i)
    end.
  Fixpoint spec_run (a : values) (os : list (op T)) : option (values * list (outcome T)) :=
    match os with
    | [] => Some (a, [])
    | o :: r => match spec_step a o with
                | None => None
                | Some (a', x) => option_map (fun p => (fst p, x :: snd p)) (spec_run a' r)
                end
    end.

  (** the value of each map variable of a concrete state *)
  Definition contents (s : state T) : values := map (option_map (heap s)) (maps s).
End Spec.
