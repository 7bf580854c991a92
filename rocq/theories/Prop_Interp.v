(** C66, C67: interpolation between two values of an animated or transitioned property. *)
From Coq Require Import QArith Lqa.
From Verif Require Import Base Calc CalcSpec CalcProofs Interp InterpSpec InterpProofs.

(** C66. Between two values with the same skeleton whose corresponding lengths are multiples of one unit (zero is one of any unit), the value at [t] is [t] of
    the way along the straight line, in every one of its numbers: lengths, colours, offsets, gradient stops ... *)
Theorem C66_straight_line_partial : forall a b t, ~ is_rotation a -> compatible (flat a) (flat b) ->
  on_line t (flat a) (flat b) (flat (interpolate a b t)).
Proof. intros; apply value_line; assumption. Qed.

(** Rotations turn by the given fraction of the shorter way round *)
Theorem C66_rotation : forall a b t, exists d, - (1 # 2) < d <= 1 # 2 /\ same_rotation (a + d) b /\
  exists r, interpolate (ARot2 a) (ARot2 b) t = ARot2 r /\ same_rotation r (a + d * t).
Proof.
  intros a b t. exists (wrap (b - a)). split; [apply wrap_range|]. split.
  - destruct (wrap_same (b - a)) as [k Hk]. exists k. rewrite Hk. lra.
  - exists (interpolate_rot2 a b t). split; [reflexivity|]. apply wrap_same.
Qed.

(** Without the agreement of units it fails: half way from 10px to 50% is 10px, not calc(5px + 25%) *)
Theorem C66_mixed_units_refuted : exists a b t, same_shape (flat a) (flat b) /\ 0 < t < 1 /\
  ~ on_line t (flat a) (flat b) (flat (interpolate a b t)).
Proof.
  exists (AVal (VPx 10)), (AVal (VPercent 50)), (1 # 2). repeat split.
  - repeat constructor.
  - intros H. inversion H as [|? ? ? ? ? ? _ H1]; subst. inversion H1 as [|? ? ? ? ? ? H3 _]; subst.
    destruct H3 as (_ & _ & H3). specialize (H3 Px). vm_compute in H3. discriminate.
Qed.

(** C67. Between values with the same skeleton, interpolation starts at the first and ends at the second, whatever the units *)
Theorem C67_ends_partial : forall a b, ~ is_rotation a -> same_shape (flat a) (flat b) ->
  same (flat (interpolate a b 0)) (flat a) /\ same (flat (interpolate a b 1)) (flat b).
Proof. exact value_ends. Qed.
(** Rotations too *)
Theorem C67_ends_rotation : forall a b, exists r0 r1, interpolate (ARot2 a) (ARot2 b) 0 = ARot2 r0 /\ interpolate (ARot2 a) (ARot2 b) 1 = ARot2 r1 /\
  same_rotation r0 a /\ same_rotation r1 b.
Proof.
  intros a b. exists (interpolate_rot2 a b 0), (interpolate_rot2 a b 1). repeat split.
  - destruct (wrap_same (a + wrap (b - a) * 0)) as [k Hk]. exists k. unfold interpolate_rot2. rewrite Hk. lra.
  - destruct (wrap_same (a + wrap (b - a) * 1)) as [k Hk]. destruct (wrap_same (b - a)) as [l Hl]. exists (k + l)%Z.
    unfold interpolate_rot2. rewrite Hk, Hl, inject_Z_plus. lra.
Qed.
(** Any two lengths, `auto` included, unless one is `auto` and the other zero: right ends, and no panic in any build *)
Theorem C67_lengths_partial : forall a b, ~ (a = VAuto /\ zero_length b) -> ~ (zero_length a /\ b = VAuto) ->
  same (flat_val (interpolate_val a b 0)) (flat_val a) /\ same (flat_val (interpolate_val a b 1)) (flat_val b) /\
  forall debug t, interpolate_val_res debug a b t = Ok (interpolate_val a b t).
Proof.
  intros a b H1 H2. split; [apply val_end0; assumption|]. split; [apply val_end1; assumption|].
  intros debug t. destruct (val_res_ok debug a b t H1 H2) as (v & Hv & <-). exact Hv.
Qed.
(** The recursion always ends, after at most two calls *)
Theorem C67_terminates : forall debug n a b t,
  interpolate_val_fuel debug (S (S n)) a b t = interpolate_val_res debug a b t /\ interpolate_val_res debug a b t <> OutOfFuel.
Proof. exact val_terminates. Qed.

(** Going from zero to `auto` panics in builds with debug assertions; without them the value is `auto` from the very start,
    and going from `auto` to zero it is still `auto` at the end *)
Theorem C67_auto_zero_refuted :
  interpolate_val_res true (VPx 0) VAuto 0 = Panic /\ interpolate_val_res true VAuto (VPx 0) 0 = Panic /\
  ~ same (flat_val (interpolate_val (VPx 0) VAuto 0)) (flat_val (VPx 0)) /\
  ~ same (flat_val (interpolate_val VAuto (VPx 0) 1)) (flat_val (VPx 0)).
Proof.
  repeat split; try (vm_compute; reflexivity); intros H; inversion H as [|? ? ? ? H1 _]; subst; destruct H1 as [H1 _]; discriminate.
Qed.

(** One shadow and two shadows: the end is never reached *)
Theorem C67_list_lengths_refuted : forall s t, interpolate (ABoxShadow [s]) (ABoxShadow [s; s]) t = ABoxShadow [s].
Proof. reflexivity. Qed.
(** Gradients of different colour spaces, shapes or kinds likewise *)
Theorem C67_gradient_kind_refuted : forall x y t, interpolate_gradient (GLinear x) (GConic y) t = GLinear x.
Proof. reflexivity. Qed.
(** A conic stop with an angle and one without: neither end is right *)
Theorem C67_conic_angle_refuted : exists a b,
  as_angle (interpolate_angular_color_stop a b 0) <> as_angle a /\ as_angle (interpolate_angular_color_stop b a 1) <> as_angle a.
Proof. exists (mk_astop (mk_color 0 0 0 1) (Some 0) 0), (mk_astop (mk_color 0 0 0 1) None 0). split; discriminate. Qed.

(** Non-vacuity *)
Definition sh (c x : Q) (u : val) : shadow := mk_shadow (mk_color c 0 0 1) (VPx x) u (VPx 0) VAuto.
Ltac unit u := exists u; intros [] H; split; solve [congruence | reflexivity].
Ltac units := repeat first [apply Forall2_nil | apply Forall2_cons]; simpl;
  repeat match goal with |- _ /\ _ => split end; try reflexivity; try exact I; try (intros []; vm_compute; reflexivity); try solve [unit Px | unit Percent].
Example C66_case : ~ is_rotation (ABoxShadow [sh 0 0 (VPx 0)]) /\ compatible (flat (ABoxShadow [sh 0 0 (VPx 0)])) (flat (ABoxShadow [sh 1 10 (VPercent 8)])) /\
  same (flat (interpolate (ABoxShadow [sh 0 0 (VPx 0)]) (ABoxShadow [sh 1 10 (VPercent 8)]) (1 # 2))) (flat (ABoxShadow [sh (1 # 2) 5 (VPercent 4)])).
Proof. split; [intros []|]. split; units. Qed.
Example C66_gradient_case : let g x c := AGradients [GLinear (mk_lin 0 0 [mk_stop (mk_color c 0 0 1) (VPx x) 0; mk_stop (mk_color 0 c 0 1) VAuto 0])] in
  compatible (flat (g 0 0)) (flat (g 10 1)) /\ same (flat (interpolate (g 0 0) (g 10 1) (1 # 4))) (flat (g (5 # 2) (1 # 4))).
Proof. intros g. split; units. Qed.
Example C67_case : ~ (VAuto = VAuto /\ zero_length (VPx 10)) /\ ~ (zero_length VAuto /\ VPx 10 = VAuto) /\
  interpolate_val VAuto (VPx 10) (1 # 2) = VAuto /\ interpolate_val VAuto (VPx 10) 1 = VPx 10.
Proof. repeat split; try reflexivity; intros [H H']; [destruct H' as [_ H']; specialize (H' Px); vm_compute in H'|]; discriminate. Qed.

Print Assumptions C66_straight_line_partial.
Print Assumptions C66_rotation.
Print Assumptions C66_mixed_units_refuted.
Print Assumptions C67_ends_partial.
Print Assumptions C67_ends_rotation.
Print Assumptions C67_lengths_partial.
Print Assumptions C67_terminates.
Print Assumptions C67_auto_zero_refuted.
Print Assumptions C67_list_lengths_refuted.
Print Assumptions C67_gradient_kind_refuted.
Print Assumptions C67_conic_angle_refuted.
