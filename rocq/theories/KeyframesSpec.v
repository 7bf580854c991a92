(** What `@keyframes` should mean, said independently of the code. *)
From Coq Require Import QArith Sorted.
From Verif Require Import Base Inherit Keyframes Interp InterpSpec.
Open Scope nat_scope.

(** Keyframe selectors: `from`, `to`, a percentage from 0% to 100% (and, in this library, a number from 0 to 1) *)
Inductive selects : kf_token -> Q -> Prop :=
| sel_from : selects KFrom 0
| sel_to : selects KTo 1
| sel_percent : forall p, (0 <= p <= 100)%Q -> selects (KPercent p) (p / 100)
| sel_number : forall q, (0 <= q <= 1)%Q -> selects (KNumber q) q.

Section K.
  Context {V E D T : Type}.
  (** Calls of the builder's API *)
  Inductive action := AddProps (l : list (rprop V D)) | SetTiming (t : T).
  Definition apply_action (a : action) : kbuilder V D T -> kbuilder V D T :=
    match a with AddProps l => add_properties l | SetTiming t => set_timing t end.
  Definition run_calls (calls : list (ftime * action)) : list (kbuilder V D T) :=
    fold_left (fun b c => add_keyframe (fst c) (apply_action (snd c)) b) calls new_builder.

  (** Keyframes go from 0% to 100%, any two at least 0.1% apart *)
  Definition well_spaced (ts : list Q) : Prop := StronglySorted (fun a b => (a + (1 # 1000) < b)%Q) ts.
  Definition from_0_to_1 (ks : list (keyframe V D T)) : Prop :=
    well_spaced (map kf_time ks) /\
    (exists k r, ks = k :: r /\ (kf_time k == 0)%Q) /\ (exists r k, ks = r ++ [k] /\ (kf_time k == 1)%Q) /\
    Forall (fun k => (0 <= kf_time k <= 1)%Q) ks /\ 2 <= length ks.

  (** What the blocks of the source say about one moment: for every block, declaration and selector in source order,
      what [pick] takes from the declaration if the selector means [q] *)
  Section A.
    Context {X : Type} (pick : kf_decl V D T -> list X).
    Definition at_time (q : Q) (bs : list (block V D T)) : list X :=
      flat_map (fun b => match parse_prelude (fst b) with
        | Some ts => flat_map (fun d => flat_map (fun t => if Qeq_bool t q then pick d else []) ts) (snd b)
        | None => []
        end) bs.
  End A.
  Definition props_of (d : kf_decl V D T) : list (rprop V D) := match d with KProps l => l | _ => [] end.
  Definition timings_of (d : kf_decl V D T) : list T := match d with KTiming t => [t] | _ => [] end.
  Fixpoint last_opt {X} (l : list X) : option X := match l with [] => None | [x] => Some x | _ :: r => last_opt r end.
  (** the times at which something is declared *)
  Definition times_of (bs : list (block V D T)) : list Q :=
    flat_map (fun b => match parse_prelude (fst b) with
      | Some ts => flat_map (fun d => match d with KError => [] | _ => ts end) (snd b)
      | None => []
      end) bs.
  Definition separated (ts : list Q) : Prop :=
    forall a b, In a ts -> In b ts -> (a == b)%Q \/ (a + (1 # 1000) < b)%Q \/ (b + (1 # 1000) < a)%Q.

  Variable dyn : D -> list (nat * pvalue V).
  Variable unset : nat -> pvalue V.
  Variable initial : nat -> V.
  Variables pending computed : nat -> cvalue V.
  (** The value a keyframe declares for a property: its last declaration *)
  Definition declared (k : keyframe V D T) (p : nat) : option (cvalue V) :=
    option_map (fun x => compute unset initial p (snd x))
      (find (fun x => Nat.eqb (fst x) p) (rev (flat_map (expand dyn) (kf_props k)))).
  Definition mentioned (ks : list (keyframe V D T)) (p : nat) : Prop := exists k, In k ks /\ declared k p <> None.
  Definition or_current (o : option (cvalue V)) (p : nat) : cvalue V :=
    match o with Some v => v | None => match pending p with CNone => computed p | c => c end end.
  (** The keyframes that matter for a property: those that declare it, and the first and the last, which stand for the
      current value if they do not *)
  Fixpoint later_anchors (p : nat) (ks : list (keyframe V D T)) : list (Q * cvalue V) :=
    match ks with
    | [] => []
    | [k] => [(kf_time k, or_current (declared k p) p)]
    | k :: r => match declared k p with Some v => (kf_time k, v) :: later_anchors p r | None => later_anchors p r end
    end.
  Definition anchors (p : nat) (ks : list (keyframe V D T)) : list (Q * cvalue V) :=
    match ks with [] => [] | k :: r => (kf_time k, or_current (declared k p) p) :: later_anchors p r end.
  (** an enumeration, in any order, of the properties mentioned *)
  Definition enumerates (order : list nat) (ks : list (keyframe V D T)) : Prop := NoDup order /\ forall p, In p order <-> mentioned ks p.
End K.

(** The broken line through points in time *)
Inductive on_poly : list (Q * list atom) -> Q -> list atom -> Prop :=
| at_point : forall t a l x w, (x == t)%Q -> same w a -> on_poly ((t, a) :: l) x w
| in_segment : forall ta a tb b l x w, (ta < x < tb)%Q -> on_line ((x - ta) / (tb - ta)) a b w -> on_poly ((ta, a) :: (tb, b) :: l) x w
| further : forall p l x w, on_poly l x w -> on_poly (p :: l) x w.
(** one can go along it: neighbours are compatible, and no rotations *)
Fixpoint can_follow (l : list (Q * value)) : Prop :=
  match l with
  | (_, a) :: (((_, b) :: _) as r) => compatible (flat a) (flat b) /\ ~ is_rotation a /\ can_follow r
  | _ => True
  end.
