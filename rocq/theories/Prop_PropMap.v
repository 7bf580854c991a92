(** C12, C44: property maps. *)
From Verif Require Import Base PropMap PropMapSpec PropMapProofs.

(** C12: sharing is unobservable: for every sequence of operations on any number of maps (creating,
    cloning, dropping, reading, assigning, set_if_neq, take, extend), the results and the final
    contents are those of maps holding independent values; it panics exactly when they would. *)
Theorem C12_value_semantics : forall (T : Type) (teq : forall a b : T, {a = b} + {a <> b}) (dflt : T) (os : list (op T)),
  option_map (fun r => (contents (fst r), snd r)) (run teq dflt empty_state os) = spec_run teq dflt [] os.
Proof. intros T teq dflt os. exact (proj1 (run_ok teq dflt os empty_state inv_empty)). Qed.
Print Assumptions C12_value_semantics.

(** C12, ptr_eq: two maps of any reachable state that are [ptr_eq] hold the same values ... *)
Theorem C12_ptr_eq_sound : forall (T : Type) (teq : forall a b : T, {a = b} + {a <> b}) (dflt : T) (os : list (op T)) s outs a b,
  run teq dflt empty_state os = Some (s, outs) ->
  ptr_eq s a b = Some true ->
  forall i, get_map s a i = get_map s b i.
Proof.
  intros T teq dflt os s outs a b _ H i. rewrite !get_ok. unfold read. rewrite (ptr_eq_contents s a b H). reflexivity.
Qed.
Print Assumptions C12_ptr_eq_sound.

(** ... a clone is [ptr_eq] to its original and stays so as long as nothing changes; [set_if_neq] with
    the current value changes nothing at all; and one effective write separates a map from all others. *)
Theorem C12_clone_shares : forall (T : Type) (s s' : state T) m,
  clone_map s m = Some s' -> ptr_eq s' m (length (maps s)) = Some true.
Proof.
  intros T s s' m H. unfold clone_map in H. destruct (loc_of s m) as [l|] eqn:L; [|discriminate]. injection H as <-.
  apply loc_of_iff in L. unfold ptr_eq, loc_of. simpl.
  rewrite nth_error_app1 by (apply nth_error_Some; congruence). rewrite L.
  rewrite nth_error_app2 by lia. rewrite Nat.sub_diag. simpl. rewrite Nat.eqb_refl. reflexivity.
Qed.
Print Assumptions C12_clone_shares.

Theorem C12_set_if_neq_equal_keeps_sharing : forall (T : Type) (teq : forall a b : T, {a = b} + {a <> b}) (s : state T) m i v,
  get_map s m i = Some v -> set_if_neq_map teq s m i v = Some (s, false).
Proof. intros T teq s m i v H. unfold set_if_neq_map. rewrite H. destruct (teq v v); [reflexivity|contradiction]. Qed.
Print Assumptions C12_set_if_neq_equal_keeps_sharing.

Theorem C12_write_separates : forall (T : Type) (teq : forall a b : T, {a = b} + {a <> b}) (dflt : T) (os : list (op T)) s outs m i v s' k,
  run teq dflt empty_state os = Some (s, outs) ->
  set_map s m i v = Some s' -> k <> m -> (exists j, get_map s k j <> None) ->
  ptr_eq s' m k = Some false.
Proof.
  intros T teq dflt os s outs m i v s' k Hr Hs Hk [j Hj].
  refine (set_splits s s' m i v k (proj2 (run_ok teq dflt os empty_state inv_empty) _ _ Hr) Hs Hk _).
  intros E. apply Hj. unfold get_map. rewrite E. reflexivity.
Qed.
Print Assumptions C12_write_separates.

Example C12_example :
  let os := [ONew [1; 2; 3]; OClone 0; OClone 1; OSetIfNeq 1 0 1; OSet 1 2 9; OTake 2 1; ODrop 0; OGet 1 2; OGet 2 2; OGet 2 1] in
  run Nat.eq_dec 0 empty_state os <> None /\
  option_map (fun r => (contents (fst r), snd r)) (run Nat.eq_dec 0 empty_state os) =
  Some ([None; Some [1; 2; 9]; Some [1; 0; 3]], [Done; Done; Done; Changed false; Done; Got 2; Done; Got 9; Got 3; Got 0]).
Proof. split; [vm_compute; discriminate|vm_compute; reflexivity]. Qed.
Example C12_example_sharing :
  (exists s outs, run Nat.eq_dec 0 empty_state [ONew [1; 2]; OClone 0; OSetIfNeq 1 0 1] = Some (s, outs) /\ ptr_eq s 0 1 = Some true) /\
  (exists s outs, run Nat.eq_dec 0 empty_state [ONew [1; 2]; OClone 0; OSetIfNeq 1 0 7] = Some (s, outs) /\ ptr_eq s 0 1 = Some false).
Proof. split; eexists; eexists; (split; [vm_compute; reflexivity|vm_compute; reflexivity]). Qed.

(** C44: "a reference read out of a mutable iterator stays valid while it is in use".  False: another
    item of the same iterator may write, which moves the map to a fresh allocation when it was shared;
    once the clone is dropped, the allocation the reference points to is freed (reference count 0)
    although every operation is one the borrow checker allows while the reference is alive. *)
Definition references_stay_valid : Prop :=
  forall (T : Type) (teq : forall a b : T, {a = b} + {a <> b}) (dflt : T) before s outs m i r after s' outs',
    run teq dflt empty_state before = Some (s, outs) ->
    deref_proxy s m i = Some r ->
    forallb (allowed_while r) after = true ->
    run teq dflt s after = Some (s', outs') ->
    refs s' (r_loc r) > 0.
Theorem C44_iter_mut_reference_dangles_refuted : ~ references_stay_valid.
Proof.
  intros H.
  pose (s := new_map empty_state [1; 2]).
  pose (s1 := match clone_map s 0 with Some x => x | None => s end).
  assert (H1 : run Nat.eq_dec 0 empty_state [ONew [1; 2]; OClone 0] = Some (s1, [Done; Done])) by reflexivity.
  assert (H2 : deref_proxy s1 0 0 = Some (mk_ref 0 0 0)) by reflexivity.
  destruct (run Nat.eq_dec 0 s1 [OSetIfNeq 0 1 7; ODrop 1]) as [[s2 o2]|] eqn:E; [|vm_compute in E; discriminate].
  specialize (H nat Nat.eq_dec 0 _ s1 _ 0 0 (mk_ref 0 0 0) [OSetIfNeq 0 1 7; ODrop 1] s2 o2 H1 H2 eq_refl E).
  injection E as <- _. vm_compute in H. inversion H.
Qed.
Print Assumptions C44_iter_mut_reference_dangles_refuted.

(** What does hold (C44, the part the crate's own use of the iterator needs): the reference stays valid
    if the map's storage was not shared when the reference was taken, whatever allowed operations
    follow; and, shared or not, as long as no other item of the iterator is written. *)
Theorem C44_reference_valid_when_unshared_partial :
  forall (T : Type) (teq : forall a b : T, {a = b} + {a <> b}) (dflt : T) before s outs m i r after s' outs',
    run teq dflt empty_state before = Some (s, outs) ->
    deref_proxy s m i = Some r ->
    (forall k, k <> m -> ptr_eq s m k <> Some true) ->
    forallb (allowed_while r) after = true ->
    run teq dflt s after = Some (s', outs') ->
    refs s' (r_loc r) > 0.
Proof.
  intros T teq dflt before s outs m i r after s' outs' Hb Hd Hs Ha Hr.
  pose proof (proj2 (run_ok teq dflt before empty_state inv_empty) _ _ Hb) as I.
  unfold deref_proxy in Hd. destruct (loc_of s m) as [l|] eqn:L; [|discriminate]. destruct (Nat.ltb i _); [|discriminate]. injection Hd as <-.
  assert (S : sole s m l).
  { split; [exact I|]. split; [exact L|]. destruct I as [_ I]. rewrite I. apply unique_cnt with (m := m); [apply loc_of_iff; exact L|].
    intros k Hk. destruct (Nat.eq_dec k m) as [E|N]; [exact E|]. exfalso. apply (Hs k N). unfold ptr_eq. rewrite L.
    apply loc_of_iff in Hk. rewrite Hk, Nat.eqb_refl. reflexivity. }
  destruct (run_sole teq dflt after (mk_ref m l i) s s' outs' S Ha Hr) as (_ & _ & R). rewrite R. lia.
Qed.
Print Assumptions C44_reference_valid_when_unshared_partial.

Theorem C44_reference_valid_without_sibling_writes_partial :
  forall (T : Type) (teq : forall a b : T, {a = b} + {a <> b}) (dflt : T) before s outs m i r after s' outs',
    run teq dflt empty_state before = Some (s, outs) ->
    deref_proxy s m i = Some r ->
    Forall (fun o => match o with ONew _ => True | OClone k | OGet k _ | ODrop k | OSet k _ _ | OTake k _ | OExtend k _ | OSetIfNeq k _ _ => k <> m end) after ->
    run teq dflt s after = Some (s', outs') ->
    refs s' (r_loc r) > 0.
Proof.
  intros T teq dflt before s outs m i r after s' outs' Hb Hd Ha Hr.
  pose proof (proj2 (run_ok teq dflt before empty_state inv_empty) _ _ Hb) as I.
  unfold deref_proxy in Hd. destruct (loc_of s m) as [l|] eqn:L; [|discriminate]. destruct (Nat.ltb i _); [|discriminate]. injection Hd as <-.
  destruct (run_untouched teq dflt after m l s s' outs' I L Ha Hr) as [I' L']. exact (live_pos s' m l I' L').
Qed.
Print Assumptions C44_reference_valid_without_sibling_writes_partial.

Example C44_example_unshared :
  exists s outs s' outs', run Nat.eq_dec 0 empty_state [ONew [1; 2]; ONew [3]] = Some (s, outs) /\
    deref_proxy s 0 0 = Some (mk_ref 0 0 0) /\ ptr_eq s 0 1 = Some false /\
    run Nat.eq_dec 0 s [OSetIfNeq 0 1 7; ODrop 1] = Some (s', outs').
Proof. eexists; eexists; eexists; eexists. repeat (split; [vm_compute; reflexivity|]). vm_compute; reflexivity. Qed.
