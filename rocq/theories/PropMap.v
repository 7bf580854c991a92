(** Model of crates/bevy_flair_core/src/property_map.rs: [PropertyMap<T>(Arc<[T]>)] and its
    copy-on-write operations, over a heap of reference-counted cells.

    [Arc::make_mut] writes in place iff the count is 1 (no weak references are ever created), else it
    clones the slice.  Iterators read in order and are not modelled apart from their writes
    ([PropertyMut::set_if_neq], same code as [PropertyMap::set_if_neq]).  Moves, [mem::take] and
    [mem::replace] of whole maps do not change sharing. *)
From Verif Require Import Base.

Section PropMap.
  Context {T : Type} (teq : forall a b : T, {a = b} + {a <> b}) (tdefault : T).

  Fixpoint set_nth {A} (n : nat) (v : A) (l : list A) : list A :=
    match l, n with
    | [], _ => []
    | _ :: r, 0 => v :: r
    | x :: r, S n => x :: set_nth n v r
    end.

  (** cells 0 .. [next]-1 were allocated; [refs] is the strong count (0 = freed); [maps] are the
      program's map variables ([None] = dropped) *)
  Record state := mk_state { heap : nat -> list T; refs : nat -> nat; next : nat; maps : list (option nat) }.
  Definition upd {A} (f : nat -> A) (i : nat) (v : A) : nat -> A := fun j => if Nat.eqb j i then v else f j.

  Definition empty_state : state := mk_state (fun _ => []) (fun _ => 0) 0 [].
  Definition loc_of (s : state) (m : nat) : option nat := match nth_error (maps s) m with Some (Some l) => Some l | _ => None end.

  (** a fresh map from its values (registry.rs create_unset_values_map, [PropertyMap::map], Default) *)
  Definition new_map (s : state) (vs : list T) : state :=
    mk_state (upd (heap s) (next s) vs) (upd (refs s) (next s) 1) (S (next s)) (maps s ++ [Some (next s)]).

  (** property_map.rs:13 derive(Clone): Arc::clone *)
  Definition clone_map (s : state) (m : nat) : option state :=
    match loc_of s m with
    | None => None
    | Some l => Some (mk_state (heap s) (upd (refs s) l (S (refs s l))) (next s) (maps s ++ [Some l]))
    end.

  Definition drop_map (s : state) (m : nat) : option state :=
    match loc_of s m with
    | None => None
    | Some l => Some (mk_state (heap s) (upd (refs s) l (refs s l - 1)) (next s) (set_nth m None (maps s)))
    end.

  (** Arc::make_mut *)
  Definition make_mut (s : state) (m l : nat) : state * nat :=
    if Nat.eqb (refs s l) 1 then (s, l)
    else (mk_state (upd (heap s) (next s) (heap s l)) (upd (upd (refs s) l (refs s l - 1)) (next s) 1)
                   (S (next s)) (set_nth m (Some (next s)) (maps s)), next s).

  (** property_map.rs:133-138 IndexMut followed by an assignment (panic when out of bounds) *)
  Definition set_map (s : state) (m i : nat) (v : T) : option state :=
    match loc_of s m with
    | None => None
    | Some l =>
        let (s', l') := make_mut s m l in
        if Nat.ltb i (length (heap s' l')) then
          Some (mk_state (upd (heap s') l' (set_nth i v (heap s' l'))) (refs s') (next s') (maps s'))
        else None
    end.

  Definition get_map (s : state) (m i : nat) : option T :=
    match loc_of s m with None => None | Some l => nth_error (heap s l) i end.

  (** property_map.rs:75-87 set_if_neq, and 196-211 PropertyMut::set_if_neq *)
  Definition set_if_neq_map (s : state) (m i : nat) (v : T) : option (state * bool) :=
    match get_map s m i with
    | None => None
    | Some old => if teq old v then Some (s, false) else option_map (fun s' => (s', true)) (set_map s m i v)
    end.

  (** property_map.rs:49-54 take *)
  Definition take_map (s : state) (m i : nat) : option (state * T) :=
    match get_map s m i, set_map s m i tdefault with
    | Some old, Some s' => Some (s', old)
    | _, _ => None
    end.

  (** property_map.rs:89-95 extend *)
  Fixpoint extend_map (s : state) (m : nat) (kvs : list (nat * T)) : option state :=
    match kvs with
    | [] => Some s
    | (i, v) :: r => match set_map s m i v with None => None | Some s' => extend_map s' m r end
    end.

  (** property_map.rs:67-70 ptr_eq *)
  Definition ptr_eq (s : state) (m1 m2 : nat) : option bool :=
    match loc_of s m1, loc_of s m2 with Some a, Some b => Some (Nat.eqb a b) | _, _ => None end.

  Inductive op := ONew (vs : list T) | OClone (m : nat) | ODrop (m : nat) | OSet (m i : nat) (v : T)
                | OSetIfNeq (m i : nat) (v : T) | OTake (m i : nat) | OExtend (m : nat) (kvs : list (nat * T)) | OGet (m i : nat).
  Inductive outcome := Done | Changed (b : bool) | Got (v : T).

  Definition step (s : state) (o : op) : option (state * outcome) :=
    match o with
    | ONew vs => Some (new_map s vs, Done)
    | OClone m => option_map (fun s' => (s', Done)) (clone_map s m)
    | ODrop m => option_map (fun s' => (s', Done)) (drop_map s m)
    | OSet m i v => option_map (fun s' => (s', Done)) (set_map s m i v)
    | OSetIfNeq m i v => option_map (fun r => (fst r, Changed (snd r))) (set_if_neq_map s m i v)
    | OTake m i => option_map (fun r => (fst r, Got (snd r))) (take_map s m i)
    | OExtend m kvs => option_map (fun s' => (s', Done)) (extend_map s m kvs)
    | OGet m i => option_map (fun v => (s, Got v)) (get_map s m i)
    end.
  Fixpoint run (s : state) (os : list op) : option (state * list outcome) :=
    match os with
    | [] => Some (s, [])
    | o :: r => match step s o with
                | None => None
                | Some (s', x) => option_map (fun p => (fst p, x :: snd p)) (run s' r)
                end
    end.

  (** property_map.rs:183-194, 213-220: a [PropertyMut] of map [m] at index [i] and the reference its
      [Deref] returns: the address of the cell at that moment *)
  Record reference := mk_ref { r_map : nat; r_loc : nat; r_index : nat }.
  Definition deref_proxy (s : state) (m i : nat) : option reference :=
    match loc_of s m with Some l => if Nat.ltb i (length (heap s l)) then Some (mk_ref m l i) else None | None => None end.
  (** What Rust's borrow checker allows while such a reference is alive: map [r_map] is mutably
      borrowed by the iterator, so it is only reachable through the other proxies; other maps are free. *)
  Definition allowed_while (r : reference) (o : op) : bool :=
    match o with
    | ONew _ => true
    | OClone m | ODrop m | OSet m _ _ | OTake m _ | OExtend m _ | OGet m _ => negb (Nat.eqb m (r_map r))
    | OSetIfNeq m i _ => negb (Nat.eqb m (r_map r)) || negb (Nat.eqb i (r_index r))
    end.
End PropMap.
Arguments op : clear implicits.
Arguments outcome : clear implicits.
Arguments state : clear implicits.
