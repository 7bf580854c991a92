(** C38, C53: components of styled entities. *)
From Verif Require Import Base Inherit NodeProps AutoInsert AutoInsertProofs AutoInsertSpec.

(** ** C38 *)
(** C38 (partial: the user leaves to the style what the style inserted, and animated components also have a style
    value; both restrictions are needed, see the refutations).  After every history, an automatic component is on the
    entity exactly if the user inserted it or one of its properties has a computed value. *)
Theorem C38_present_iff_styled_partial :
  forall V (accepts : nat -> V -> bool) (veq : forall a b : V, {a = b} + {a <> b}) regs m mine evs,
  good_registry regs ->
  (forall t, In t mine <-> m t <> None) ->
  along accepts veq regs (fun ev s => match ev with
    | User u => polite u s
    | Frame f => sound_frame accepts f (o_entity s) /\ styled_animations regs f
    end) evs (spawned m mine) ->
  let s := play accepts veq regs evs (spawned m mine) in
  forall r, In r regs -> r_auto r = true ->
  (present (o_entity s) (r_type r) <-> In (r_type r) (o_mine s) \/ has_value (e_computed (o_entity s)) r).
Proof.
  intros V accepts veq regs m mine evs Hg Hm Ha. apply good_registry_iff in Hg.
  assert (Hf : full regs (spawned m mine)).
  { split; [split; cbn; [intros t; apply Hm|intros r _ []]|]. intros r Hr Hau. cbn. split; [intros H; left; apply Hm, H|].
    split; [intros (p & v & _ & H); discriminate|]. split; [intros (p & v & _ & H); discriminate|intros []]. }
  cbv zeta. revert Ha Hf. generalize (spawned m mine) as s. unfold play. induction evs as [|ev evs IH]; intros s Ha Hf; cbn [fold_left along] in *.
  - intros r Hr Hau. destruct Hf as [[O1 O2] Hf]. destruct (Hf r Hr Hau) as (F1 & F2 & F3 & F4). rewrite <- has_value_iff in F2, F4. unfold present. split.
    + intros Hp. destruct (F1 Hp) as [H|H]; [left; exact H|right; apply F4, H].
    + intros [H|H]; [apply O1, H|apply F2, H].
  - destruct Ha as [H1 H2]. apply IH; [exact H2|]. destruct ev as [u|f]; [apply full_user; assumption|].
    destruct H1 as [H1 H1']. apply full_frame; auto. apply styled_animations_iff, H1'.
Qed.
Print Assumptions C38_present_iff_styled_partial.

(** C38 (partial: the user does not insert over, or remove, a component that the style inserted).  A component that the user
    inserted is never removed by the style. *)
Theorem C38_user_components_kept_partial :
  forall V (accepts : nat -> V -> bool) (veq : forall a b : V, {a = b} + {a <> b}) regs m mine evs,
  good_registry regs ->
  (forall t, In t mine -> m t <> None) ->
  along accepts veq regs (fun ev s => match ev with User u => considerate u s | Frame _ => True end) evs (spawned m mine) ->
  let s := play accepts veq regs evs (spawned m mine) in
  forall t, In t (o_mine s) -> present (o_entity s) t.
Proof.
  intros V accepts veq regs m mine evs Hg Hm Ha. apply good_registry_iff in Hg.
  assert (Ho : own regs (spawned m mine)) by (split; cbn; [exact Hm|intros r _ []]).
  cbv zeta. revert Ha Ho. generalize (spawned m mine) as s. unfold play. induction evs as [|ev evs IH]; intros s Ha Ho; cbn [fold_left along] in *.
  - exact (proj1 Ho).
  - destruct Ha as [H1 H2]. apply IH; [exact H2|]. destruct ev as [u|f]; [apply own_user; assumption|]. apply own_frame; assumption.
Qed.
Print Assumptions C38_user_components_kept_partial.

(** C38.  The style inserts and removes automatic components only. *)
Theorem C38_other_components_stay :
  forall V (accepts : nat -> V -> bool) (veq : forall a b : V, {a = b} + {a <> b}) regs f e t,
  good_registry regs -> (forall r, In r regs -> r_type r = t -> r_auto r = false) ->
  (present (aframe_step accepts veq regs f e) t <-> present e t).
Proof.
  intros V accepts veq regs f e t Hg Ht. apply good_registry_iff in Hg. unfold present. destruct (in_dec Nat.eq_dec t (map r_type regs)) as [Hi|Hi].
  - destruct (in_types _ _ Hi) as (r & Hr & <-). specialize (Ht r Hr eq_refl).
    destruct (frame_effect accepts veq regs f e r Hg Hr) as (_ & _ & H & _).
    destruct H as [A B C D|A B C D E E'|A B C|A A' B C D|A A' B C D E]; try congruence; try tauto.
  - rewrite (frame_unregistered accepts veq regs f e t Hi). tauto.
Qed.
Print Assumptions C38_other_components_stay.
(** ... and does not touch the components that have no properties. *)
Theorem C38_unregistered_components_untouched :
  forall V (accepts : nat -> V -> bool) (veq : forall a b : V, {a = b} + {a <> b}) regs f e t,
  (forall r, In r regs -> r_type r <> t) -> comps (aframe_step accepts veq regs f e) t = comps e t.
Proof.
  intros V accepts veq regs f e t Ht. apply frame_unregistered. intros H. destruct (in_types _ _ H) as (r & Hr & E). exact (Ht r Hr E).
Qed.
Print Assumptions C38_unregistered_components_untouched.

(** Two automatic components (0: properties 0, 1; 1: property 2, immutable) and a plain one (2: property 3). *)
Definition ex_regs : list (registration nat) :=
  [mk_registration 0 0 2 true true (fun _ => 100); mk_registration 1 2 3 true false (fun _ => 100); mk_registration 2 3 4 false true (fun _ => 100)].
Lemma ex_regs_good : good_registry ex_regs.
Proof.
  split; [cbn; repeat constructor; cbn; intuition discriminate|].
  intros r r' p [<-|[<-|[<-|[]]]] [<-|[<-|[<-|[]]]] H H'; unfold belongs in H, H'; cbn in H, H'; try reflexivity; exfalso; lia.
Qed.
Definition only (p v : nat) : nat -> cvalue nat := fun q => if Nat.eqb q p then CVal v else CNone.
Definition nothing : nat -> cvalue nat := fun _ => CNone.
(** a restyle (with values before it), animation values *)
Definition restyle (old new : nat -> cvalue nat) : event nat := Frame (mk_aframe true new nothing old nothing).
Definition yes (p v : nat) : bool := true.
Definition at_ (s : owned nat) (t : nat) : option (list nat) := option_map (fun c => map c [0; 1; 2; 3]) (comps (o_entity s) t).
(** The style sets property 0 and then 2, the user inserts component 7 and changes 0, the style drops everything. *)
Definition ex_events : list (event nat) :=
  [restyle nothing (only 0 5); User (UInsert 7 (fun _ => 9)); User (UChange 0 (fun q => if Nat.eqb q 1 then 6 else 5)); restyle (only 0 5) (only 2 8); restyle (only 2 8) nothing].
Definition ex_start : owned nat := spawned (fun t => if Nat.eqb t 2 then Some (fun _ => 1) else None) [2].
Example C38_example :
  good_registry ex_regs /\ (forall t, In t [2] <-> comps (o_entity ex_start) t <> None) /\
  along yes Nat.eq_dec ex_regs (fun ev s => match ev with
    | User u => polite u s
    | Frame f => sound_frame yes f (o_entity s) /\ styled_animations ex_regs f
    end) ex_events ex_start /\
  map (fun n => map (at_ (play yes Nat.eq_dec ex_regs (firstn n ex_events) ex_start)) [0; 1; 2; 7]) [1; 3; 4; 5] =
  [[Some [5; 100; 100; 100]; None; Some [1; 1; 1; 1]; None];
   [Some [5; 6; 5; 5]; None; Some [1; 1; 1; 1]; Some [9; 9; 9; 9]];
   [None; Some [100; 100; 8; 100]; Some [1; 1; 1; 1]; Some [9; 9; 9; 9]];
   [None; None; Some [1; 1; 1; 1]; Some [9; 9; 9; 9]]].
Proof.
  split; [exact ex_regs_good|]. split; [|split].
  - intros t. cbn. destruct (Nat.eqb_spec t 2) as [E|E]; [subst t; split; [discriminate|auto]|]. split; [intros [H|[]]; congruence|congruence].
  - assert (Hs : forall old new s, e_computed (o_entity s) = old -> e_last_anim (o_entity s) = nothing ->
      sound_frame yes (mk_aframe true new nothing old nothing) (o_entity s) /\ styled_animations ex_regs (mk_aframe true new nothing old nothing)).
    { intros old new s E1 E2. split; [split; [discriminate|split; [|reflexivity]]|].
      - intros p. right. left. rewrite E1, E2. split; reflexivity.
      - intros r _ (p & v & _ & H). discriminate. }
    cbn [along ex_events restyle polite]. split; [apply Hs; reflexivity|]. split; [vm_compute; reflexivity|]. split; [exact I|].
    split; [apply Hs; vm_compute; reflexivity|]. split; [apply Hs; vm_compute; reflexivity|exact I].
  - vm_compute. reflexivity.
Qed.

(** *** Refuted: components that only an animation styles *)
(** An animation sets property 0; a frame with style changes anywhere in the app removes the component it inserted; the animation
    is paused, so the component stays away, and even when the style sets property 0 too it does not come back. *)
Definition animated (changed : bool) (old new : nat -> cvalue nat) (last v : nat -> cvalue nat) : event nat := Frame (mk_aframe changed new v old last).
Definition paused_events : list (event nat) :=
  [animated false nothing nothing nothing (only 0 3); animated true nothing nothing (only 0 3) (only 0 3); animated true nothing (only 0 3) (only 0 3) (only 0 3)].
Theorem C38_animated_component_refuted :
  good_registry ex_regs /\
  along yes Nat.eq_dec ex_regs (fun ev s => match ev with User u => polite u s | Frame f => sound_frame yes f (o_entity s) end) paused_events ex_start /\
  map (fun n => at_ (play yes Nat.eq_dec ex_regs (firstn n paused_events) ex_start) 0) [1; 2; 3] = [Some [3; 100; 100; 100]; None; None] /\
  e_last_anim (o_entity (play yes Nat.eq_dec ex_regs paused_events ex_start)) 0 = CVal 3 /\
  e_computed (o_entity (play yes Nat.eq_dec ex_regs paused_events ex_start)) 0 = CVal 3.
Proof.
  split; [exact ex_regs_good|]. split; [|vm_compute; auto].
  cbn [along paused_events animated]. split; [split; [reflexivity|split; [intros p; right; left; split; reflexivity|reflexivity]]|].
  split; [split; [discriminate|split; [intros p; right; left; split; reflexivity|reflexivity]]|].
  split; [split; [discriminate|split; [intros p; right; left; split; reflexivity|reflexivity]]|exact I].
Qed.
Print Assumptions C38_animated_component_refuted.

(** *** Refuted: the user replaces a component that the style inserted *)
(** The user removes the inserted component; the style drops its value; the user inserts an own component; the next
    style change removes it. *)
Definition replaced_events : list (event nat) :=
  [restyle nothing (only 0 5); User (URemove 0); restyle (only 0 5) nothing; User (UInsert 0 (fun _ => 9)); restyle nothing nothing].
Theorem C38_user_component_removed_refuted :
  good_registry ex_regs /\
  along yes Nat.eq_dec ex_regs (fun ev s => match ev with
    | User (UInsert t _) => comps (o_entity s) t = None | User _ => True
    | Frame f => sound_frame yes f (o_entity s) /\ styled_animations ex_regs f end) replaced_events ex_start /\
  In 0 (o_mine (play yes Nat.eq_dec ex_regs replaced_events ex_start)) /\
  map (fun n => at_ (play yes Nat.eq_dec ex_regs (firstn n replaced_events) ex_start) 0) [4; 5] = [Some [9; 9; 9; 9]; None].
Proof.
  split; [exact ex_regs_good|]. split; [|vm_compute; auto].
  assert (Hs : forall old new s, e_computed (o_entity s) = old -> e_last_anim (o_entity s) = nothing ->
      sound_frame yes (mk_aframe true new nothing old nothing) (o_entity s) /\ styled_animations ex_regs (mk_aframe true new nothing old nothing)).
  { intros old new s E1 E2. split; [split; [discriminate|split; [|reflexivity]]|].
    - intros p. right. left. rewrite E1, E2. split; reflexivity.
    - intros r _ (p & v & _ & H). discriminate. }
  cbn [along replaced_events restyle]. split; [apply Hs; reflexivity|]. split; [exact I|]. split; [apply Hs; vm_compute; reflexivity|].
  split; [vm_compute; reflexivity|]. split; [apply Hs; vm_compute; reflexivity|exact I].
Qed.
Print Assumptions C38_user_component_removed_refuted.

(** ** C53 *)
(** A component that is present after a frame holds, in every property whose value in effect has changed, the new
    value; every other field is what it was before the frame, or the default if the component was inserted. *)
Theorem C53_changed_values_are_written :
  forall V (accepts : nat -> V -> bool) (veq : forall a b : V, {a = b} + {a <> b}) regs f e r c',
  good_registry regs -> In r regs ->
  (forall p v, a_pending f p = CVal v \/ a_panim f p = CVal v -> accepts p v = true) ->
  comps (aframe_step accepts veq regs f e) (r_type r) = Some c' ->
  let old := match comps e (r_type r) with Some c => c | None => r_default r end in
  let before p := effective (a_last f p) (a_base f p) in
  let after p := effective (a_panim f p) (a_pending f p) in
  (forall p v, belongs r p -> after p = CVal v -> before p <> CVal v -> c' p = v) /\
  (forall p, ~ belongs r p \/ after p = CNone \/ after p = before p -> c' p = old p).
Proof.
  intros V accepts veq regs f e r c' Hg Hr Hacc Hc' old before after. apply good_registry_iff in Hg.
  pose proof (frame_shows accepts veq regs f e r Hg Hr (fun p v _ Hv => Hacc p v (changes_origin veq f p v Hv)) c' Hc') as Hs. fold old in Hs.
  assert (Hc : forall p, changes veq f p = match after p with CVal v => if ceqb veq (after p) (before p) then None else Some v | CNone => None end).
  { intros p. unfold changes, new_value, after, before, effective.
    destruct (a_panim f p) as [|a], (a_last f p) as [|l], (a_pending f p) as [|x], (a_base f p) as [|y]; cbn [is_value or_else ceqb negb]; try reflexivity;
    repeat (match goal with |- context [veq ?u ?w] => destruct (veq u w); subst; cbn [negb] end); try reflexivity; try congruence. }
  split.
  - intros p v Hp Ha Hb. apply range_belongs in Hp. rewrite Hs. unfold written. destruct (in_dec Nat.eq_dec p (r_range r)) as [_|H]; [|tauto].
    rewrite Hc, Ha. destruct (before p) as [|b] eqn:Eb; cbn [ceqb]; [reflexivity|]. destruct (veq v b) as [->|]; [congruence|reflexivity].
  - intros p Hp. rewrite <- range_belongs in Hp. rewrite Hs. unfold written. destruct (in_dec Nat.eq_dec p (r_range r)) as [Hi|]; [|reflexivity].
    rewrite Hc. destruct Hp as [Hp|[Hp|Hp]]; [tauto|rewrite Hp; reflexivity|]. rewrite Hp.
    destruct (before p) as [|b]; [reflexivity|]. cbn [ceqb]. destruct (veq b b); [reflexivity|congruence].
Qed.
Print Assumptions C53_changed_values_are_written.
(** a restyle that changes property 0, with property 1 as the user left it *)
Example C53_example :
  let e := mk_entity (fun t => if Nat.eqb t 0 then Some (fun _ => 1) else None) [] (only 0 5) nothing in
  let f := mk_aframe true (only 0 6) nothing (only 0 5) nothing in
  option_map (fun c => map c [0; 1]) (comps (aframe_step yes Nat.eq_dec ex_regs f e) 0) = Some [6; 1] /\
  (forall p v, a_pending f p = CVal v \/ a_panim f p = CVal v -> yes p v = true).
Proof. split; [vm_compute; reflexivity|reflexivity]. Qed.
