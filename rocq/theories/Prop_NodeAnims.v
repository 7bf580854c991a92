(** C50, C51: changing `animation-name`, and resetting a node. *)
From Coq Require Import NArith ZArith QArith Permutation.
From Verif Require Import Base AnimationSample Inherit Animation AnimationSpec Transition TransitionFloat TransitionSpec
  NodeProps NodePropsSpec NodePropsProofs NodePropsProofs2 NodeAnimsSpec NodeAnimsProofs Prop_NodeProps.
Local Open Scope nat_scope.

(** C50.  Animations that are no longer listed are cancelled, all of them, and each is reported; nothing
    is reported about the listed ones. *)
Theorem C50_unlisted_are_cancelled :
  forall K animatable fuel resolve (cs : list config) (m m' : anim_map (K := K)) name,
  set_animations animatable fuel resolve cs m = Some m' -> ~ In name (map fst cs) ->
  of_name m' name = map (fun pa => (fst pa, (cancel (fst (snd pa)), snd (snd pa)))) (of_name m name) /\
  Forall (fun pa => state (fst (snd pa)) = Canceled) (of_name m' name).
Proof.
  intros K animatable fuel resolve cs m m' name H N.
  assert (A : of_name m' name = map cancelled (of_name m name)).
  { rewrite (set_configs_other animatable fuel resolve cs name (cancel_missing cs m) m' N H), cancel_missing_of.
    dif_as E; [apply existsb_name in E; contradiction|reflexivity]. }
  split; [exact A|]. rewrite A. apply Forall_forall. intros pa Hp. apply in_map_iff in Hp. destruct Hp as (x & <- & _). reflexivity.
Qed.
Print Assumptions C50_unlisted_are_cancelled.

(** C50.  Listed animations that are not cancelled go on - updated to the new options (C21), same
    properties and keyframes, none added or removed. *)
Theorem C50_listed_continue :
  forall K animatable fuel resolve (cs : list config) (m m' : anim_map (K := K)) name o,
  set_animations animatable fuel resolve cs m = Some m' -> is_map m -> NoDup (map fst cs) -> In (name, o) cs ->
  (exists pa, In pa (of_name m name) /\ state (fst (snd pa)) <> Canceled) ->
  Forall2 (fun a b => fst b = fst a /\ snd (snd b) = snd (snd a) /\ update_options fuel o (fst (snd a)) = Some (fst (snd b)))
    (of_name m name) (of_name m' name).
Proof.
  intros K animatable fuel resolve cs m m' name o H Nm N Hi (pa & Hpa & Hs).
  destruct (set_configs_same animatable fuel resolve cs name o (cancel_missing cs m) m') as (l & A & B); try assumption.
  { unfold is_map. rewrite cancel_missing_keys. exact Nm. }
  rewrite cancel_missing_of in A. replace (existsb (fun c => Nat.eqb (fst c) name) cs) with true in A.
  2: { symmetry. apply existsb_name. apply in_map_iff. exists (name, o). auto. }
  rewrite B. clear B. unfold set_vec in A.
  destruct (forallb (fun pa => is_canceled (fst (snd pa))) (of_name m name)) eqn:F.
  { apply all_canceled_iff in F. rewrite Forall_forall in F. specialize (F pa Hpa). contradiction. }
  destruct (of_name m name) as [|x r]; [destruct Hpa|]. apply traverse_forall2 in A.
  refine (Forall2_weaken _ _ _ _ _ A). intros a b G. cbv beta in G. apply omap_inv in G. destruct G as (y & Hy & ->). auto.
Qed.
Print Assumptions C50_listed_continue.

(** C50.  A newly listed animation (or one that had been cancelled) starts afresh, one per animatable
    property of its keyframes; an unknown animation starts nothing. *)
Theorem C50_newly_listed_start :
  forall K animatable fuel resolve (cs : list config) (m m' : anim_map (K := K)) name o,
  set_animations animatable fuel resolve cs m = Some m' -> is_map m -> NoDup (map fst cs) -> In (name, o) cs ->
  Forall (fun pa => state (fst (snd pa)) = Canceled) (of_name m name) ->
  match resolve (name, o) with
  | None => of_name m' name = []
  | Some ks => Forall2 (fun pk b => fst b = fst pk /\ snd (snd b) = snd pk /\ new_animation fuel o = Some (fst (snd b)))
                 (filter (fun pk => animatable (fst pk)) ks) (of_name m' name)
  end.
Proof.
  intros K animatable fuel resolve cs m m' name o H Nm N Hi Hc.
  destruct (set_configs_same animatable fuel resolve cs name o (cancel_missing cs m) m') as (l & A & B); try assumption.
  { unfold is_map. rewrite cancel_missing_keys. exact Nm. }
  rewrite cancel_missing_of in A. replace (existsb (fun c => Nat.eqb (fst c) name) cs) with true in A.
  2: { symmetry. apply existsb_name. apply in_map_iff. exists (name, o). auto. }
  rewrite B. clear B. unfold set_vec in A. apply all_canceled_iff in Hc. rewrite Hc in A.
  destruct (resolve (name, o)) as [ks|]; [|injection A as <-; reflexivity]. apply traverse_forall2 in A.
  refine (Forall2_weaken _ _ _ _ _ A). intros a b G. cbv beta in G. apply omap_inv in G. destruct G as (y & Hy & ->). auto.
Qed.
Print Assumptions C50_newly_listed_start.

(** C50.  The Canceled events of the frame: exactly the animations present whose name is not listed. *)
Theorem C50_cancel_events :
  forall F V E K animatable fuel (f : frame_input V E K) (n n' : node F V E K) evs cs resolve,
  animations_step animatable fuel f n = Some (n', evs) -> f_configs f = Some (cs, resolve) ->
  forall name p, In (AnCanceled, name, p) evs <-> ~ In name (map fst cs) /\ exists a, In (p, a) (of_name (anims n) name).
Proof.
  intros F V E K animatable fuel f n n' evs cs resolve H Hc name p. unfold animations_step in H. rewrite Hc in H.
  destruct (set_animations _ _ _ _ _); [|discriminate]. injection H as _ <-. apply events_iff.
Qed.
Print Assumptions C50_cancel_events.

(** C50, what is missing: one would expect a Canceled event when an animation is cancelled, once.  But a
    finished animation reports Canceled after Finished, and one that was cancelled reports it again with every later
    change of the list as long as nothing on the node is ticked. *)
Theorem C50_canceled_twice_refuted :
  let go l := mk_frame_input false 0%N None None (Some (map (fun i => (i, Ex27.aopt 1000)) l, fun _ => Some [(0, 5%Z)])) (fun m : anim_map => m) in
  option_map (fun w => w_anim_events w)
    (Ex.run [go [1]; Ex.idle 500; Ex.idle 1000; go []; Ex.idle 1000; go [9]] Ex.start)
  = Some [(AnStarted, 1, 0); (AnFinished, 1, 0); (AnCanceled, 1, 0); (AnCanceled, 1, 0)].
Proof. vm_compute. reflexivity. Qed.
Print Assumptions C50_canceled_twice_refuted.

(** a history with a continuing, a new and a removed animation *)
Example C50_witness :
  let go l := mk_frame_input false 0%N None None (Some (map (fun i => (i, Ex27.aopt 1000)) l, fun c => Some [(fst c, 5%Z)])) (fun m : anim_map => m) in
  let shape w := map (fun e => (fst e, map (fun pa => (fst pa, state (fst (snd pa)), elapsed (fst (snd pa)))) (snd e))) (anims (w_node w)) in
  option_map shape (Ex.run [go [1; 2]; Ex.idle 500; go [2; 3]] Ex.start)
  = Some [(1, [(1, Canceled, Ex.ms 500)]); (2, [(2, Running, Ex.ms 500)]); (3, [(3, Pending, 0%N)])].
Proof. vm_compute. reflexivity. Qed.

(** C51.  A frame that resets a node and gives it nothing new leaves no trace of its past: no
    value, transition, option or animation, nothing shown and nothing written. *)
Theorem C51_reset_forgets :
  forall F V E K (op : fops F) (veq : forall a b : V, {a = b} + {a <> b}) interp (ease : E -> F -> F) vdefault
         (asample : K -> animation -> option V) np animatable fuel f n o p,
  frame op veq interp ease vdefault asample np animatable fuel f n = Some o -> p < np ->
  f_reset f = true -> f_restyle f = None -> f_pending f = None -> f_configs f = None ->
  anims (o_node o) = [] /\ trans (props (o_node o) p) = None /\ t_opts (props (o_node o) p) = None /\
  o_writes o p = None /\ o_events o p = [] /\ o_anim_events o = [] /\
  (forall v, ~ shows op interp ease asample (o_node o) p v).
Proof.
  intros F V E K op veq interp ease vdefault asample np animatable fuel f n o p Hf Hp Hr Hs Hd Hc.
  unfold frame in Hf. rewrite Hr in Hf. unfold tick_node in Hf.
  assert (T : has_tickable np (reset n) = false).
  { unfold has_tickable. cbn. rewrite Bool.orb_false_r. apply Bool.not_true_is_false. intros G. apply existsb_exists in G. destruct G as (q & _ & G). discriminate. }
  rewrite T in Hf. unfold options_step in Hf. rewrite Hs, Hd in Hf. unfold create_step in Hf.
  destruct (forallb _ _); [|discriminate]. unfold animations_step in Hf. rewrite Hc in Hf. injection Hf as <-. cbn.
  repeat split; try reflexivity. intros v Hv. apply shows_iff in Hv. cbn in Hv. discriminate.
Qed.
Print Assumptions C51_reset_forgets.
