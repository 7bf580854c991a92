(** C26 - C29, C46 - C48: the per-node animation machine. *)
From Coq Require Import NArith ZArith QArith Qround Permutation.
From Verif Require Import Base AnimationSample Inherit Animation Transition TransitionFloat TransitionSpec TransitionProofs
  NodeProps NodePropsSpec NodePropsProofs NodePropsProofs2.
Local Open Scope nat_scope.

(** ** Concrete histories, used as witnesses *)
Module Ex.
  Definition lerp (a b : Z) (t : ext) : Z := match t with Fin q => (a + Qfloor ((b - a # 1) * q))%Z | _ => a end.
  Definition linear (_ : unit) (t : ext) : ext := if ideal_le (Fin 0) t then (if ideal_le t (Fin 1) then t else Fin 1) else Fin 0.
  Definition sample (k : Z) (a : animation) : option Z := ideal_sample (fun _ => k) a.
  Definition ms (n : N) : N := (n * 1000000)%N.
  Definition opts : nat -> option (transition_options unit) := fun p => if Nat.eqb p 0 then Some (mk_topt (ms 1000) (ms 1000) tt) else None.
  Definition noopts : nat -> option (transition_options unit) := fun _ => None.
  Definition val (v : Z) : nat -> cvalue Z := fun p => if Nat.eqb p 0 then CVal v else CNone.
  Definition styled (d : N) (o : nat -> option (transition_options unit)) (v : Z) : frame_input Z unit Z :=
    mk_frame_input false (ms d) (Some o) (Some (val v)) None (fun m => m).
  Definition idle (d : N) : frame_input Z unit Z := mk_frame_input false (ms d) None None None (fun m => m).
  Definition run := run ideal Z.eq_dec lerp linear 0%Z sample 1 (fun _ => true) 100.
  Definition frame_world := frame_world ideal Z.eq_dec lerp linear 0%Z sample 1 (fun _ => true) 100.
  Definition shows := shows ideal lerp linear sample.
  Definition start := @start ext Z unit Z (fun _ => 7%Z).
  Definition value_at (p : nat) (w : world ext Z unit Z) : cvalue Z := or_else (anim_value ideal lerp linear sample (w_node w) p) (computed (props (w_node w) p)).
End Ex.
Lemma computed_world {A B} (o : option A) (f : A -> B) b : option_map f o = Some b -> exists w, o = Some w /\ f w = b.
Proof. destruct o as [w|]; [|discriminate]. intros H. injection H as <-. exists w. split; reflexivity. Qed.

(** ** C26 *)

(** C26 (partial).  Along every history in which fresh transitions start from the value on display, the
    component holds, after each frame, the effective value of every property - for any arithmetic,
    easing and interpolation that starts at its first value and always yields a value (C43). *)
Theorem C26_component_shows_effective_value_partial :
  forall F V E K (op : fops F) (veq : forall a b : V, {a = b} + {a <> b}) interp (ease : E -> F -> F) vdefault
         (asample : K -> animation -> option V) np animatable fuel fs c w,
  (forall a b, interp a b (f_clamp op (f_zero op) (f_zero op) (f_one op)) = a) ->
  (forall e t, f_le op (f_zero op) (ease e t) = true /\ f_le op (ease e t) (f_one op) = true) ->
  smooth op veq interp ease vdefault asample np animatable fuel fs (start c) ->
  run op veq interp ease vdefault asample np animatable fuel fs (start c) = Some w ->
  forall p v, p < np -> shows op interp ease asample (w_node w) p v -> w_component w p = v.
Proof.
  intros F V E K op veq interp ease vdefault asample np animatable fuel fs c w Hi He Hq Hr p v Hp Hs.
  assert (S : sampled op veq interp ease vdefault).
  { intros o x _ _. unfold t_sample_value. destruct (orb _ _); [discriminate|]. unfold curve_sample.
    destruct (He (t_easing x) (f_div op (f_sub op (f_secs op (t_elapsed x)) (f_secs op (t_delay x))) (f_secs op (t_duration x)))) as [H1 H2].
    rewrite H1, H2. discriminate. }
  pose proof (run_inv op veq interp ease vdefault asample np animatable fuel fs (start c) w Hi S Hq (inv_start op veq interp ease vdefault asample np c) Hr) as I.
  apply shows_iff in Hs. rewrite <- (i_shown _ _ _ _ _ _ _ w I p Hp) in Hs. exact (i_comp _ _ _ _ _ _ _ w I p v Hp Hs).
Qed.
Print Assumptions C26_component_shows_effective_value_partial.

(** C26.  A frame writes only effective values, and never the value already on display. *)
Theorem C26_no_superfluous_write_partial :
  forall F V E K (op : fops F) (veq : forall a b : V, {a = b} + {a <> b}) interp (ease : E -> F -> F) vdefault
         (asample : K -> animation -> option V) np animatable fuel fs c w f o,
  (forall a b, interp a b (f_clamp op (f_zero op) (f_zero op) (f_one op)) = a) ->
  (forall e t, f_le op (f_zero op) (ease e t) = true /\ f_le op (ease e t) (f_one op) = true) ->
  smooth op veq interp ease vdefault asample np animatable fuel (fs ++ [f]) (start c) ->
  run op veq interp ease vdefault asample np animatable fuel fs (start c) = Some w ->
  frame op veq interp ease vdefault asample np animatable fuel f (w_node w) = Some o ->
  forall p v, p < np -> o_writes o p = Some v ->
  shows op interp ease asample (o_node o) p v /\ (f_reset f = false -> ~ shows op interp ease asample (w_node w) p v).
Proof.
  intros F V E K op veq interp ease vdefault asample np animatable fuel fs c w f o Hi He Hq Hr Ho p v Hp Hw.
  assert (S : sampled op veq interp ease vdefault).
  { intros o' x _ _. unfold t_sample_value. destruct (orb _ _); [discriminate|]. unfold curve_sample.
    destruct (He (t_easing x) (f_div op (f_sub op (f_secs op (t_elapsed x)) (f_secs op (t_delay x))) (f_secs op (t_duration x)))) as [H1 H2].
    rewrite H1, H2. discriminate. }
  assert (Q : forall fs w0, run op veq interp ease vdefault asample np animatable fuel fs w0 = Some w ->
      smooth op veq interp ease vdefault asample np animatable fuel (fs ++ [f]) w0 ->
      smooth op veq interp ease vdefault asample np animatable fuel fs w0 /\
      (forall p from, p < np -> starts_fresh np fuel f (w_node w) p from -> shows op interp ease asample (w_node w) p from)).
  { clear. induction fs as [|g fs IH]; intros w0 Hr Hq; cbn in Hr.
    - injection Hr as <-. split; [exact I|]. apply Hq.
    - destruct (frame_world _ _ _ _ _ _ _ _ _ g w0) as [w1|] eqn:E1; [|discriminate]. destruct Hq as [Q1 Q2].
      destruct (IH w1 Hr (Q2 w1 E1)) as [A B]. split; [|exact B]. split; [exact Q1|]. intros w' Hw'. rewrite E1 in Hw'. injection Hw' as <-. exact A. }
  destruct (Q fs (start c) Hr Hq) as [Q1 Q2].
  pose proof (run_inv op veq interp ease vdefault asample np animatable fuel fs (start c) w Hi S Q1 (inv_start op veq interp ease vdefault asample np c) Hr) as I.
  destruct (frame_world op veq interp ease vdefault asample np animatable fuel f w) as [w'|] eqn:Ew.
  - destruct (frame_inv op veq interp ease vdefault asample np animatable fuel f w w' Hi S Q2 I Ew) as [_ M].
    specialize (M p v Hp o Ho Hw). unfold NodePropsSpec.frame_world in Ew. rewrite Ho in Ew. injection Ew as <-. exact M.
  - exfalso. unfold NodePropsSpec.frame_world in Ew. rewrite Ho in Ew. discriminate.
Qed.
Print Assumptions C26_no_superfluous_write_partial.

(** C26, what is missing is false: a transition ends in the very frame in which a new one begins.  The
    new one is recorded as already displaying its start value (100), so that value is never written: the
    component keeps the previous frame's 50 while 100 is the effective value - for the whole delay. *)
Theorem C26_restart_on_end_refuted :
  exists w, Ex.run [Ex.styled 0 Ex.opts 0; Ex.styled 16 Ex.opts 100; Ex.idle 1500; Ex.styled 1000 Ex.opts 200; Ex.idle 16; Ex.idle 16] Ex.start = Some w /\
    Ex.shows (w_node w) 0 100%Z /\ w_component w 0 = 50%Z.
Proof.
  destruct (computed_world (Ex.run [Ex.styled 0 Ex.opts 0; Ex.styled 16 Ex.opts 100; Ex.idle 1500; Ex.styled 1000 Ex.opts 200; Ex.idle 16; Ex.idle 16] Ex.start)
    (fun w => (Ex.value_at 0 w, w_component w 0)) (CVal 100%Z, 50%Z)) as (w & Hw & Hv); [vm_compute; reflexivity|].
  injection Hv as H1 H2. exists w. split; [exact Hw|]. split; [apply shows_iff; exact H1|exact H2].
Qed.
Print Assumptions C26_restart_on_end_refuted.

(** a history that meets the hypotheses of the positive theorems: a value, a transition, its end *)
Example C26_witness :
  let fs := [Ex.styled 0 Ex.opts 0; Ex.styled 16 Ex.opts 100; Ex.idle 1500; Ex.idle 1000] in
  (forall a b, Ex.lerp a b (f_clamp ideal (f_zero ideal) (f_zero ideal) (f_one ideal)) = a) /\
  (forall e t, f_le ideal (f_zero ideal) (Ex.linear e t) = true /\ f_le ideal (Ex.linear e t) (f_one ideal) = true) /\
  option_map (fun w => w_component w 0) (Ex.run (firstn 3 fs) Ex.start) = Some 50%Z /\
  option_map (fun w => w_component w 0) (Ex.run fs Ex.start) = Some 100%Z /\
  smooth ideal Z.eq_dec Ex.lerp Ex.linear 0%Z Ex.sample 1 (fun _ => true) 100 fs Ex.start.
Proof.
  cbv zeta. split; [|split; [|split; [|split]]].
  - intros a b. rewrite clamp_zero. change (f_zero ideal) with (Fin 0). unfold Ex.lerp. rewrite (Qfloor_comp ((b - a # 1) * 0) 0) by ring. change (Qfloor 0) with 0%Z. lia.
  - intros e t. unfold Ex.linear. destruct t as [q| | |]; cbn; try (split; reflexivity).
    destruct (Qle_bool 0 q) eqn:E0; cbn; [|split; reflexivity]. destruct (Qle_bool q 1) eqn:E1; cbn; [split; assumption|split; reflexivity].
  - vm_compute; reflexivity.
  - vm_compute; reflexivity.
  - split; [intros p from Hp (_ & Hc & _); destruct p; [discriminate|lia]|].
    intros w1 H1. split.
    { intros p from Hp (_ & Hc & _). destruct p; [|lia].
      assert (X : option_map (fun w => (Ex.value_at 0 w, computed (props (w_node w) 0))) (Ex.frame_world (Ex.styled 0 Ex.opts 0) Ex.start) = Some (CVal 0%Z, CVal 0%Z)) by (vm_compute; reflexivity).
      unfold Ex.frame_world in X. rewrite H1 in X. cbn [option_map] in X. injection X as X1 X2. rewrite Hc in X2. injection X2 as ->. apply shows_iff. exact X1. }
    intros w2 _. split; [intros p from Hp (_ & _ & (pend & to & H & _) & _); discriminate|].
    intros w4 _. split; [intros p from Hp (_ & _ & (pend & to & H & _) & _); discriminate|].
    intros w5 _. exact I.
Qed.

(** ** C27 *)

(** C27.  Ticking a node advances every active transition by the elapsed time (and drops those that end). *)
Theorem C27_transitions_advance :
  forall F V E K np fuel d (n n' : node F V E K) ev aev p k x,
  tick_node np fuel d n = Some (n', ev, aev) -> p < np -> trans (props n p) = Some (k, x) -> t_is_active x = true ->
  trans (props n' p) = if t_is_active (t_tick d x) then Some (k, t_tick d x) else None.
Proof. intros F V E K np fuel d n n' ev aev p k x Ht Hp Hx Ha. exact (stepped np fuel d n p k x Hp Hx Ha n' ev aev Ht). Qed.
Print Assumptions C27_transitions_advance.

(** C27 (partial).  If no animation of the node has ended, every animation that is not paused advances. *)
Theorem C27_animations_advance_partial :
  forall F V E K np fuel d (n n' : node F V E K) ev aev,
  (forall name l p a k, In (name, l) (anims n) -> In (p, (a, k)) l -> can_be_ticked a = true) ->
  tick_node np fuel d n = Some (n', ev, aev) ->
  Forall2 (fun nl nl' => fst nl' = fst nl /\
     Forall2 (fun a b => fst b = fst a /\ snd (snd b) = snd (snd a) /\
                         (paused (fst (snd a)) = false -> tick fuel d (fst (snd a)) = Some (fst (snd b)))) (snd nl) (snd nl'))
    (anims n) (anims n').
Proof.
  intros F V E K np fuel d n n' ev aev H Ht.
  assert (A : Forall (fun nl => Forall (fun pa => can_be_ticked (fst (snd pa)) = true) (snd nl)) (anims n)).
  { apply Forall_forall. intros [name l] Hn. apply Forall_forall. intros [p [a k]] Hp. exact (H name l p a k Hn Hp). }
  destruct (has_tickable np n) eqn:T.
  - pose proof (tick_node_all np fuel d n n' ev aev A T Ht) as B. refine (Forall2_weaken _ _ _ _ _ B). cbn.
    intros nl nl' [E1 E2]. split; [exact E1|]. refine (Forall2_weaken _ _ _ _ _ E2). intros a b (X1 & X2 & X3). auto.
  - pose proof (not_tickable_paused np n T) as B. unfold tick_node in Ht. rewrite T in Ht. injection Ht as <- _ _.
    clear -A B. induction (anims n) as [|nl m IH]; [constructor|]. inversion A; inversion B; subst. constructor; [|apply IH; assumption].
    split; [reflexivity|]. clear -H1 H5. induction (snd nl) as [|a l IH]; [constructor|]. inversion H1; inversion H5; subst. constructor; [|apply IH; assumption].
    split; [reflexivity|]. split; [reflexivity|]. intros Hp. specialize (H7 H2). congruence.
Qed.
Print Assumptions C27_animations_advance_partial.

Module Ex27.
  Definition aopt (d : N) : options := mk_options 0 (Ex.ms d) DirNormal (Count 1) FillForwards PlayRunning.
  (** animation 1 (1 s) and animation 2 (10 s), on different properties *)
  Definition start_both : frame_input Z unit Z :=
    mk_frame_input false 0 None None (Some ([(1, aopt 1000); (2, aopt 10000)], fun c => Some [(fst c, 5%Z)])) (fun m => m).
  Definition second_elapsed (w : world ext Z unit Z) : list N := map (fun a => elapsed (fst a)) (animations_on (w_node w) 2).
End Ex27.

(** C27, what is missing is false: once the first animation of a node has finished (it stays in the
    map), the function returns before it reaches the others: 10 s pass and the second animation, neither
    paused nor finished, does not move. *)
Theorem C27_finished_animation_starves_others_refuted :
  option_map Ex27.second_elapsed (Ex.run [Ex27.start_both; Ex.idle 500; Ex.idle 600; Ex.idle 100] Ex.start) = Some [Ex.ms 1200] /\
  option_map Ex27.second_elapsed (Ex.run [Ex27.start_both; Ex.idle 500; Ex.idle 600; Ex.idle 100; Ex.idle 5000; Ex.idle 5000] Ex.start) = Some [Ex.ms 1200] /\
  option_map (fun w => map (fun a => (state (fst a), paused (fst a))) (animations_on (w_node w) 2))
    (Ex.run [Ex27.start_both; Ex.idle 500; Ex.idle 600; Ex.idle 100; Ex.idle 5000; Ex.idle 5000] Ex.start) = Some [(Running, false)].
Proof. repeat split; vm_compute; reflexivity. Qed.
Print Assumptions C27_finished_animation_starves_others_refuted.

(** ** C28 *)

(** C28 (partial).  From the first frame in which anything on the node is ticked on, a property without
    transition options shows its style value (or an animation's) - whatever was cancelled before. *)
Theorem C28_canceled_releases_partial :
  forall F V E K (op : fops F) (veq : forall a b : V, {a = b} + {a <> b}) interp (ease : E -> F -> F) vdefault
         (asample : K -> animation -> option V) np animatable fuel fs c w f fs' w' p,
  run op veq interp ease vdefault asample np animatable fuel fs (start c) = Some w -> p < np ->
  t_opts (props (w_node w) p) = None ->
  (forall g new, In g (f :: fs') -> f_restyle g = Some new -> new p = None) ->
  (has_tickable np (w_node w) = true \/ f_reset f = true) ->
  run op veq interp ease vdefault asample np animatable fuel (f :: fs') w = Some w' ->
  no_animation_emits asample (w_node w') p ->
  forall v, shows op interp ease asample (w_node w') p v <-> computed (props (w_node w') p) = CVal v.
Proof.
  intros F V E K op veq interp ease vdefault asample np animatable fuel fs c w f fs' w' p Hr Hp Ho Hn Ht Hr' Hno v.
  assert (Q0 : forall q, q < np -> quiet (props (w_node (@start F V E K c)) q)) by (intros q _ _ i x H; discriminate).
  pose proof (quiet_run op veq interp ease vdefault asample np animatable fuel fs _ w Hr Q0) as Q.
  cbn in Hr'. destruct (frame_world _ _ _ _ _ _ _ _ _ f w) as [w1|] eqn:E1; [|discriminate].
  pose proof E1 as E1'. unfold NodePropsSpec.frame_world in E1'.
  destruct (frame op veq interp ease vdefault asample np animatable fuel f (w_node w)) as [o|] eqn:Ef; [|discriminate]. injection E1' as <-.
  destruct (released_frame op veq interp ease vdefault asample np animatable fuel f (w_node w) o p Ef Hp (Q p Hp) Ho) as [A B].
  - intros new. apply Hn. left; reflexivity.
  - tauto.
  - assert (R : trans (props (w_node w') p) = None /\ t_opts (props (w_node w') p) = None).
    { refine (released_run op veq interp ease vdefault asample np animatable fuel fs' _ w' p Hr' Hp _ B A _).
      - cbn. exact (quiet_frame op veq interp ease vdefault asample np animatable fuel f _ o Ef Q).
      - intros g new Hg. apply Hn. right; exact Hg. }
    apply shows_no_transition; [apply R|exact Hno].
Qed.
Print Assumptions C28_canceled_releases_partial.

(** C28, what is missing is false: when nothing else on the node is being animated the cancelled
    transition is never removed; it keeps showing its target (100) and later style values (200, 300) are
    ignored. *)
Theorem C28_canceled_pins_value_refuted :
  exists w, Ex.run [Ex.styled 0 Ex.opts 0; Ex.styled 16 Ex.opts 100; Ex.idle 1500; Ex.styled 16 Ex.noopts 100;
                    Ex.styled 16 Ex.noopts 200; Ex.idle 60000; Ex.styled 16 Ex.noopts 300; Ex.idle 60000] Ex.start = Some w /\
    t_opts (props (w_node w) 0) = None /\ anims (w_node w) = [] /\
    computed (props (w_node w) 0) = CVal 300%Z /\ w_component w 0 = 100%Z.
Proof.
  destruct (computed_world (Ex.run [Ex.styled 0 Ex.opts 0; Ex.styled 16 Ex.opts 100; Ex.idle 1500; Ex.styled 16 Ex.noopts 100;
                    Ex.styled 16 Ex.noopts 200; Ex.idle 60000; Ex.styled 16 Ex.noopts 300; Ex.idle 60000] Ex.start)
    (fun w => (t_opts (props (w_node w) 0), anims (w_node w), computed (props (w_node w) 0), w_component w 0)) (None, [], CVal 300%Z, 100%Z)) as (w & Hw & Hv);
    [vm_compute; reflexivity|].
  injection Hv as H1 H2 H3 H4. exists w. auto.
Qed.
Print Assumptions C28_canceled_pins_value_refuted.

(** the positive case: another property of the node is transitioning *)
Example C28_witness :
  let both p : option (transition_options unit) := Some (mk_topt 0%N (Ex.ms 1000) tt) in
  let one p : option (transition_options unit) := if Nat.eqb p 1 then Some (mk_topt 0%N (Ex.ms 1000) tt) else None in
  let f d o a b := mk_frame_input false (Ex.ms d) (Some o) (Some (fun p : nat => if Nat.eqb p 0 then CVal a else CVal b)) None (fun m : anim_map => m) in
  option_map (fun w => (has_tickable 2 (w_node w), w_component w 0))
    (NodePropsSpec.run ideal Z.eq_dec Ex.lerp Ex.linear 0%Z Ex.sample 2 (fun _ => true) 100 [f 0%N both 0%Z 0%Z; f 16%N both 100%Z 100%Z; f 200%N one 100%Z 100%Z] Ex.start) = Some (true, 100%Z) /\
  option_map (fun w => w_component w 0)
    (NodePropsSpec.run ideal Z.eq_dec Ex.lerp Ex.linear 0%Z Ex.sample 2 (fun _ => true) 100 [f 0%N both 0%Z 0%Z; f 16%N both 100%Z 100%Z; f 200%N one 100%Z 100%Z; f 200%N one 200%Z 100%Z] Ex.start) = Some 200%Z.
Proof. split; vm_compute; reflexivity. Qed.

(** ** C29 *)

(** C29.  Over every history, the events about each single transition of each property form one of the
    nine stories: Started at most once and first, Finished at most once, last and only after Started,
    never together with Canceled or Replaced. *)
Theorem C29_transition_events :
  forall F V E K (op : fops F) (veq : forall a b : V, {a = b} + {a <> b}) interp (ease : E -> F -> F) vdefault
         (asample : K -> animation -> option V) np animatable fuel fs c w p k,
  run op veq interp ease vdefault asample np animatable fuel fs (start c) = Some w -> p < np ->
  transition_story (about k (w_events w p)).
Proof.
  intros F V E K op veq interp ease vdefault asample np animatable fuel fs c w p k Hr Hp.
  destruct (tale_run op veq interp ease vdefault asample np animatable fuel fs _ w Hr (fun q _ => tale_start c q) p Hp) as (_ & H & _). apply H.
Qed.
Print Assumptions C29_transition_events.

(** C29.  And none is forgotten: the frame that takes a transition out of its delay reports Started, the
    frame that ends it reports Finished. *)
Theorem C29_events_reported :
  forall F V E K (op : fops F) (veq : forall a b : V, {a = b} + {a <> b}) interp (ease : E -> F -> F) vdefault
         (asample : K -> animation -> option V) np animatable fuel f n o p k x,
  frame op veq interp ease vdefault asample np animatable fuel f n = Some o -> p < np -> f_reset f = false ->
  trans (props n p) = Some (k, x) ->
  (t_state x = TPending -> t_state (t_tick (f_delta f) x) <> TPending -> In (EvStarted, k) (o_events o p)) /\
  (t_is_active x = true -> t_state (t_tick (f_delta f) x) = TFinished -> In (EvFinished, k) (o_events o p)).
Proof. intros. eapply reported; eassumption. Qed.
Print Assumptions C29_events_reported.

Example C29_witness :
  option_map (fun w => w_events w 0)
    (Ex.run [Ex.styled 0 Ex.opts 0; Ex.styled 16 Ex.opts 100; Ex.idle 1500; Ex.styled 16 Ex.opts 300; Ex.idle 5000; Ex.styled 16 Ex.opts 0; Ex.styled 16 Ex.noopts 0] Ex.start)
  = Some [(EvStarted, 0); (EvReplaced, 0); (EvStarted, 1); (EvFinished, 1); (EvCanceled, 2)].
Proof. vm_compute. reflexivity. Qed.

(** ** C46 *)

(** C46 (partial).  Turning a running transition back to where it came from (exact arithmetic): after
    the frame the property shows exactly what it would have shown without the style change. *)
Theorem C46_reversal_is_smooth_partial :
  forall V E K (veq : forall a b : V, {a = b} + {a <> b}) interp (ease : E -> ext -> ext) vdefault
         (asample : K -> animation -> option V) np animatable fuel fs c w f o p k x v pend options,
  run ideal veq interp ease vdefault asample np animatable fuel fs (start c) = Some w -> p < np ->
  trans (props (w_node w) p) = Some (k, x) -> t_opts (props (w_node w) p) = Some options -> animatable p = true ->
  f_reset f = false -> (forall new, f_restyle f = Some new -> new p = Some options) ->
  t_is_active x = true -> t_state (t_tick (f_delta f) x) = TRunning ->
  t_sample_value ideal interp ease (t_tick (f_delta f) x) = Some v ->
  f_pending f = Some pend -> pend p = CVal (t_rev_start x) -> (exists u, computed (props (w_node w) p) = CVal u /\ u <> t_rev_start x) ->
  frame ideal veq interp ease vdefault asample np animatable fuel f (w_node w) = Some o ->
  no_animation_emits asample (o_node o) p ->
  shows ideal interp ease asample (o_node o) p v.
Proof.
  intros V E K veq interp ease vdefault asample np animatable fuel fs c w f o p k x v pend options
    Hr Hp Hx Ho Han Hre Hst Ha Hrun Hv Hpend Hp2 (u & Hc & Hu) Hf Hno.
  assert (L : exists o1, lives ideal veq interp ease vdefault o1 x).
  { assert (G : forall fs w0, (forall p i x, p < np -> trans (props (w_node w0) p) = Some (i, x) -> exists o, lives ideal veq interp ease vdefault o x) ->
        run ideal veq interp ease vdefault asample np animatable fuel fs w0 = Some w ->
        forall p i x, p < np -> trans (props (w_node w) p) = Some (i, x) -> exists o, lives ideal veq interp ease vdefault o x).
    { clear. induction fs as [|g fs IH]; intros w0 H R; cbn in R; [injection R as <-; exact H|].
      destruct (frame_world _ _ _ _ _ _ _ _ _ g w0) as [w1|] eqn:E1; [|discriminate]. apply (IH w1); [|exact R].
      exact (frame_lives ideal veq interp ease vdefault asample np animatable fuel g w0 w1 E1 H). }
    apply (G fs (start c)) with (p := p) (i := k); try assumption. intros q i y _ H. discriminate. }
  destruct L as [o1 L].
  destruct (frame_pieces _ _ _ _ _ _ _ _ _ f (w_node w) o Hf) as (n2 & ev1 & aev1 & Et & G). rewrite Hre in Et, G.
  destruct (G p Hp) as (E2 & s4 & e3 & Ec & Ep & _). clear G.
  set (s2 := fst (tick_opt (has_tickable np (w_node w)) (f_delta f) (props (w_node w) p))) in *.
  assert (Ha2 : t_is_active (t_tick (f_delta f) x) = true) by (unfold t_is_active; rewrite Hrun; reflexivity).
  assert (S2 : trans s2 = Some (k, t_tick (f_delta f) x)).
  { rewrite <- E2. rewrite (stepped np fuel (f_delta f) (w_node w) p k x Hp Hx Ha n2 ev1 aev1 Et), Ha2. reflexivity. }
  destruct (tick_opt_fields (has_tickable np (w_node w)) (f_delta f) (props (w_node w) p)) as (F1 & _ & F3 & _). fold s2 in F1, F3.
  assert (S3 : fst (options_opt (f_restyle f) p s2) = with_options s2 (Some options)).
  { unfold options_opt. destruct (f_restyle f) as [new|].
    - unfold set_options_pst. rewrite F3, Ho, (Hst new eq_refl). reflexivity.
    - cbn. rewrite Ho in F3. destruct s2; cbn in *. subst. reflexivity. }
  rewrite S3, Hpend in Ec. unfold create_pst in Ec. cbn [with_options t_opts computed trans] in Ec. rewrite F1, Hc, Hp2, S2, Han in Ec.
  destruct (veq u (t_rev_start x)) as [|_]; [contradiction|]. cbn [negb] in Ec.
  destruct (from_possibly_reversed ideal veq interp ease vdefault (Some u) (t_rev_start x) options (t_tick (f_delta f) x)) as [y|] eqn:Er; [|discriminate].
  injection Ec as <- <-.
  assert (Rs : t_rev_start (t_tick (f_delta f) x) = t_rev_start x) by (unfold t_tick; destruct (t_is_active x); reflexivity).
  pose proof (reversed_from_running veq interp ease vdefault (Some u) (t_rev_start x) o1 options (t_tick (f_delta f) x) y v (ticked _ _ _ _ _ _ _ _ L) Hrun Rs Er Hv) as Hfy.
  pose proof (new_pending ideal veq interp ease vdefault (Some u) (t_rev_start x) options _ y Er) as Hpy.
  apply (shows_transition ideal interp ease asample (o_node o) p (serial (with_options s2 (Some options))) y); [exact Hno|rewrite Ep; reflexivity|unfold t_is_active; rewrite Hpy; reflexivity|].
  rewrite (pending_shows_start ideal interp ease y Hpy), Hfy. reflexivity.
Qed.
Print Assumptions C46_reversal_is_smooth_partial.

(** C46, what is missing is false: changing the target of a running transition to a third value makes
    the property jump to the old target.  At 50, on the way from 0 to 100, redirected to 200 in a frame
    of zero length: the component jumps to 100. *)
Theorem C46_retarget_jumps_refuted :
  option_map (fun w => w_component w 0) (Ex.run [Ex.styled 0 Ex.opts 0; Ex.styled 16 Ex.opts 100; Ex.idle 1500] Ex.start) = Some 50%Z /\
  option_map (fun w => w_component w 0) (Ex.run [Ex.styled 0 Ex.opts 0; Ex.styled 16 Ex.opts 100; Ex.idle 1500; Ex.styled 0 Ex.opts 200] Ex.start) = Some 100%Z.
Proof. split; vm_compute; reflexivity. Qed.
Print Assumptions C46_retarget_jumps_refuted.
(** (whereas turning it back leaves it at 50) *)
Example C46_witness :
  option_map (fun w => w_component w 0) (Ex.run [Ex.styled 0 Ex.opts 0; Ex.styled 16 Ex.opts 100; Ex.idle 1500; Ex.styled 0 Ex.opts 0] Ex.start) = Some 50%Z.
Proof. vm_compute; reflexivity. Qed.

(** ** C47 *)

(** C47 (partial).  While its options do not change, an animation (alone on its node) reports Started
    exactly when it leaves its delay and Finished exactly when it reaches its end, once each. *)
Theorem C47_animation_events_partial :
  forall K fuel name p (k : K) ds a c evs,
  state a = Pending -> ticked_alone fuel name p ds a k = Some (c, evs) -> evs = animation_story (state c).
Proof.
  intros K fuel name p k ds a c evs Ha H. pose proof (alone_story (K := K) fuel name p k ds a c evs) as G. rewrite Ha in G. apply G; [discriminate|exact H].
Qed.
Print Assumptions C47_animation_events_partial.
Example C47_witness : exists a, new_animation 10 (Ex27.aopt 1000) = Some a /\ state a = Pending /\
  option_map snd (ticked_alone 10 1 0 [Ex.ms 100; Ex.ms 100; Ex.ms 900; Ex.ms 10; Ex.ms 10] a 5%Z) = Some [AnStarted; AnFinished].
Proof. eexists. split; [vm_compute; reflexivity|]. split; vm_compute; reflexivity. Qed.

(** C47, what is missing is false: an animation whose duration is shortened below its elapsed time ends
    without Finished, and one that has finished and is then lengthened reports Finished twice. *)
Theorem C47_shortened_never_reports_refuted :
  let go o := mk_frame_input false 0%N None None (Some ([(1, Ex27.aopt o)], fun _ => Some [(0, 5%Z)])) (fun m : anim_map => m) in
  option_map (fun w => (w_anim_events w, map (fun a => state (fst a)) (animations_on (w_node w) 0)))
    (Ex.run [go 10000%N; Ex.idle 5000; go 2000%N; Ex.idle 16; Ex.idle 16] Ex.start) = Some ([(AnStarted, 1, 0)], [Finished]) /\
  option_map (fun w => w_anim_events w)
    (Ex.run [go 1000%N; Ex.idle 500; Ex.idle 1000; Ex.idle 16; go 2000%N; Ex.idle 2000] Ex.start) = Some [(AnStarted, 1, 0); (AnFinished, 1, 0); (AnFinished, 1, 0)].
Proof. split; vm_compute; reflexivity. Qed.
Print Assumptions C47_shortened_never_reports_refuted.

(** ** C48 *)

(** C48 (partial).  As long as at most one animation of a node emits a value for a property, the order of
    the hash map does not matter. *)
Theorem C48_order_irrelevant_partial :
  forall F V E K (op : fops F) interp (ease : E -> F -> F) (asample : K -> animation -> option V) (n n' : node F V E K) p,
  Permutation (anims n) (anims n') -> props n = props n' ->
  length (filter (fun a => match asample (snd a) (fst a) with Some _ => true | None => false end) (animations_on n p)) <= 1 ->
  forall v, shows op interp ease asample n p v <-> shows op interp ease asample n' p v.
Proof.
  intros F V E K op interp ease asample n n' p H1 H2 H3 v. rewrite !shows_iff, (order_free op interp ease asample n n' p H1 H2 H3), H2. reflexivity.
Qed.
Print Assumptions C48_order_irrelevant_partial.

(** C48, what is missing is false: two animations of the same property - which one is shown depends on
    the hash map's iteration order, not on the order in `animation-name`. *)
Theorem C48_hash_order_decides_refuted :
  let go arrange := mk_frame_input false 0%N None None
    (Some ([(1, Ex27.aopt 1000); (2, Ex27.aopt 1000)], fun c => Some [(0, if Nat.eqb (fst c) 1 then 10%Z else 20%Z)])) arrange in
  option_map (fun w => w_component w 0) (Ex.run [go (fun m : anim_map => m); Ex.idle 500] Ex.start) = Some 20%Z /\
  option_map (fun w => w_component w 0) (Ex.run [go (fun m : anim_map => rev m); Ex.idle 500] Ex.start) = Some 10%Z /\
  (forall m : anim_map (K := Z), Permutation (rev m) m).
Proof. split; [vm_compute; reflexivity|]. split; [vm_compute; reflexivity|]. intros m. symmetry. apply Permutation_rev. Qed.
Print Assumptions C48_hash_order_decides_refuted.
