From Coq Require Import NArith Permutation.
From Verif Require Import Base Schedule ScheduleSpec.
Open Scope nat_scope.

(** ** Orders *)
Section Traces.
Context {S W : Type} (run : S -> W -> W) (same : W -> W -> Prop) (inv : W -> Prop) (prec : S -> S -> bool).
Hypothesis same_refl : forall w, same w w.
Hypothesis same_trans : forall a b c, same a b -> same b c -> same a c.
Hypothesis run_same : forall s a b, same a b -> same (run s a) (run s b).
Hypothesis run_inv : forall s w, inv w -> inv (run s w).
Hypothesis commute : forall a b w, inv w -> a <> b -> prec a b = false -> prec b a = false -> same (run a (run b w)) (run b (run a w)).
Fixpoint go (l : list S) (w : W) : W := match l with [] => w | s :: r => go r (run s w) end.
Definition respects (l : list S) : Prop := forall a x b y c, l = a ++ x :: b ++ y :: c -> prec y x = false.
Lemma go_same l : forall a b, same a b -> same (go l a) (go l b).
Proof. induction l as [|s l IH]; intros a b H; [exact H|]. apply IH, run_same, H. Qed.
Lemma move x a : forall b w, inv w -> (forall y, In y a -> y <> x /\ prec x y = false /\ prec y x = false) -> same (go (a ++ x :: b) w) (go (x :: a ++ b) w).
Proof.
  induction a as [|y a IH]; intros b w Hi H; [apply same_refl|]. cbn [app go]. eapply same_trans; [apply IH; [apply run_inv, Hi|]; intros z Hz; apply H; right; exact Hz|].
  cbn [go]. apply go_same. destruct (H y (or_introl eq_refl)) as (N & P1 & P2). apply commute; auto.
Qed.
Lemma orders_same l : forall l' w, inv w -> NoDup l -> Permutation l l' -> respects l -> respects l' -> same (go l w) (go l' w).
Proof.
  induction l as [|x l IH]; intros l' w Hi Hn Hp R R'.
  - apply Permutation_nil in Hp. subst l'. apply same_refl.
  - assert (In x l') as Hx by (eapply Permutation_in; [exact Hp|left; reflexivity]). apply in_split in Hx as (a & b & ->).
    inversion Hn; subst. apply Permutation_cons_app_inv in Hp.
    assert (same (go (x :: a ++ b) w) (go (a ++ x :: b) w)).
    { assert (forall y, In y a -> y <> x /\ prec x y = false /\ prec y x = false) as Ha.
      { intros y Hy. assert (In y l) as Hyl by (eapply Permutation_in; [symmetry; exact Hp|apply in_or_app; left; exact Hy]).
        split; [congruence|]. split.
        - apply in_split in Hy as (a1 & a2 & ->). apply (R' a1 y a2 x b). rewrite <- app_assoc. reflexivity.
        - apply in_split in Hyl as (l1 & l2 & ->). apply (R [] x l1 y l2). reflexivity. }
      revert Ha. generalize a b w Hi. clear - same_refl same_trans run_same run_inv commute. induction a as [|y a IH]; intros b w Hi H; [apply same_refl|].
      cbn [app go]. eapply same_trans; [|apply (IH b (run y w)); [apply run_inv, Hi|]; intros z Hz; apply H; right; exact Hz].
      cbn [go]. apply go_same. destruct (H y (or_introl eq_refl)) as (N & P1 & P2). apply commute; auto. }
    eapply same_trans; [|exact H]. cbn [go]. apply IH; auto.
    + intros a1 y a2 z c E. apply (R (x :: a1) y a2 z c). cbn. rewrite E. reflexivity.
    + intros a1 y a2 z c E. assert (exists p q s, a ++ x :: b = p ++ y :: q ++ z :: s) as (p & q & s & E'); [|exact (R' _ _ _ _ _ E')].
      clear - E. revert a1 E. induction a as [|u a IHa]; intros a1 E.
      * cbn in *. exists (x :: a1), a2, c. rewrite E. reflexivity.
      * destruct a1 as [|v a1]; cbn in E; injection E as -> E.
        -- assert (exists q s, a ++ x :: b = q ++ z :: s) as (q & s & E').
           { apply in_split. assert (In z (a ++ b)) as Hz by (rewrite E; apply in_or_app; right; left; reflexivity). apply in_app_or in Hz as [Hz|Hz]; apply in_or_app; [left; exact Hz | right; right; exact Hz]. }
           exists [], q, s. cbn. rewrite E'. reflexivity.
        -- destruct (IHa a1 E) as (p & q & s & E'). exists (v :: p), q, s. cbn. rewrite E'. reflexivity.
Qed.
End Traces.

(** ** Sets of nodes *)
Lemma lor_swap a b c : N.lor (N.lor a b) c = N.lor (N.lor a c) b.
Proof. rewrite <- !N.lor_assoc, (N.lor_comm b c). reflexivity. Qed.
Lemma update_swap t1 v1 t2 v2 m : N.land t1 t2 = 0%N -> update t1 v1 (update t2 v2 m) = update t2 v2 (update t1 v1 m).
Proof.
  intros H. apply N.bits_inj. intros n. assert (N.testbit (N.land t1 t2) n = false) as Hn by (rewrite H; apply N.bits_0). rewrite N.land_spec in Hn.
  unfold update. rewrite !N.lor_spec, !N.ldiff_spec, !N.lor_spec, !N.ldiff_spec, !N.land_spec.
  destruct (N.testbit t1 n), (N.testbit t2 n), (N.testbit m n), (N.testbit v1 n), (N.testbit v2 n); try discriminate; reflexivity.
Qed.

(** ** Lists of nodes *)
Section Each.
Context {A : Type}.
Lemma map_each (f : nat -> A -> A) g l : (forall n x, g (f n x) = f n (g x)) -> map g (each f l) = each f (map g l).
Proof. intros H. unfold each. generalize 0. induction l as [|x l IH]; intros n; [reflexivity|]. cbn [each_from map]. rewrite IH, H. reflexivity. Qed.
Lemma flat_map_each {B} (f : nat -> A -> A) (g : A -> list B) l : (forall n x, g (f n x) = g x) -> flat_map g (each f l) = flat_map g l.
Proof. intros H. unfold each. generalize 0. induction l as [|x l IH]; intros n; [reflexivity|]. cbn [each_from flat_map]. rewrite IH, H. reflexivity. Qed.
End Each.

(** ** The systems *)
Section Systems.
Context {k : kinds} (b : behaviour k).
Notation clear := (fun p : node_props k => mkprops (p_auto p) (p_motions p) (p_rest p) []).
Lemma tick_reset m e l : map (tick b e) (reset_at b m l) = reset_at b m (map (tick b e) l).
Proof. apply map_each. intros n p. destruct (has m n); [|reflexivity]. unfold tick. destruct (existsb _ (p_motions p)); reflexivity. Qed.
Lemma clear_clear (l : list (node_props k)) : map clear (map clear l) = map clear l.
Proof. rewrite map_map. apply map_ext. intros []; reflexivity. Qed.
Lemma mute_emit w : mute (run b EmitEvents w) = mute w.
Proof. destruct w. unfold mute. cbn. rewrite clear_clear. reflexivity. Qed.
Lemma mute_quiet (w : world k) : mute (quiet w) = mute w.
Proof. destruct w. reflexivity. Qed.
Lemma run_quiet s w : quiet (run b s w) = quiet (run b s (quiet w)).
Proof. destruct w. destruct s; try reflexivity. cbn. destruct w_anyprop; reflexivity. Qed.
Lemma run_same s w w' : same w w' -> same (run b s w) (run b s w').
Proof. intros H. unfold same in *. change (quiet w = quiet w') in H. change (quiet (run b s w) = quiet (run b s w')). rewrite (run_quiet s w), (run_quiet s w'), H. reflexivity. Qed.
Lemma run_ext s w : w_ext (run b s w) = w_ext w.
Proof. destruct w, s; try reflexivity. cbn. destruct w_anyprop; reflexivity. Qed.
Lemma land_split e : single_source b e -> N.land (b_interaction_touch k b e) (b_pressed_touch k b e) = 0%N /\ N.land (b_interaction_touch k b e) (b_hovered_touch k b e) = 0%N.
Proof. unfold single_source. rewrite N.land_lor_distr_r. apply N.lor_eq_0_iff. Qed.
Definition muted (f : nat -> node_props k -> node_props k) : Prop := forall n p, f n (clear p) = clear (f n p) /\ p_events (f n p) = p_events p.
Lemma emit_each f w : muted f -> run b EmitEvents (put_props (each f (w_props w)) w) = put_props (each f (w_props (run b EmitEvents w))) (run b EmitEvents w).
Proof.
  intros H. assert (map clear (each f (w_props w)) = each f (map clear (w_props w))) as E1 by (apply map_each; intros n p; symmetry; apply H).
  assert (flat_map p_events (each f (w_props w)) = flat_map p_events (w_props w)) as E2 by (apply flat_map_each; intros n p; apply H).
  unfold run. cbn [w_props put_props put_sent]. rewrite E1, E2. reflexivity.
Qed.
Lemma emit_placeholders w : run b EmitEvents (run b Placeholders w) = run b Placeholders (run b EmitEvents w).
Proof.
  change (run b Placeholders (run b EmitEvents w)) with (put_props (each (fun n p => mkprops (p_auto p) (p_motions p) (b_placeholders k b (mute (run b EmitEvents w)) n (p_auto p) (p_motions p) (p_rest p)) (p_events p)) (w_props (run b EmitEvents w))) (run b EmitEvents w)).
  rewrite mute_emit, <- emit_each; [reflexivity|]. intros n p. split; reflexivity.
Qed.
Lemma emit_apply w : run b EmitEvents (run b Apply w) = run b Apply (run b EmitEvents w).
Proof.
  change (run b Apply (run b EmitEvents w)) with (put_app (b_apply_app k b (mute (run b EmitEvents w))) (put_cmp (b_apply_cmp k b (mute (run b EmitEvents w)))
    (put_props (each (fun n p => let r := b_apply_rest k b (mute (run b EmitEvents w)) n (p_auto p) (p_motions p) (p_rest p) in mkprops (fst r) (p_motions p) (snd r) (p_events p)) (w_props (run b EmitEvents w))) (run b EmitEvents w)))).
  rewrite mute_emit, <- emit_each; [reflexivity|]. intros n p. split; reflexivity.
Qed.
Lemma emit_remove w : run b EmitEvents (run b AutoRemove w) = run b AutoRemove (run b EmitEvents w).
Proof.
  change (run b AutoRemove (run b EmitEvents w)) with (if w_anyprop w then put_cmp (b_remove_cmp k b (mute (run b EmitEvents w)))
    (put_props (each (fun n p => mkprops (b_remove_auto k b (mute (run b EmitEvents w)) n (p_auto p)) (p_motions p) (p_rest p) (p_events p)) (w_props (run b EmitEvents w))) (run b EmitEvents w)) else run b EmitEvents w).
  rewrite mute_emit, <- emit_each; [|intros n p; split; reflexivity]. change (run b AutoRemove w) with (if w_anyprop w then put_cmp (b_remove_cmp k b (mute w))
    (put_props (each (fun n p => mkprops (b_remove_auto k b (mute w) n (p_auto p)) (p_motions p) (p_rest p) (p_events p)) (w_props w)) w) else w). destruct (w_anyprop w); reflexivity.
Qed.
Lemma emit_redraw w : run b EmitEvents (run b Redraw w) = run b Redraw (run b EmitEvents w).
Proof.
  assert (existsb (fun p => existsb (b_can_tick k b) (p_motions p)) (map clear (w_props w)) = existsb (fun p => existsb (b_can_tick k b) (p_motions p)) (w_props w)) as E.
  { induction (w_props w) as [|p l IH]; [reflexivity|]. cbn [map existsb p_motions]. rewrite IH. reflexivity. }
  unfold run. cbn [w_props put_props put_sent w_redraw put_redraw]. rewrite E. reflexivity.
Qed.
Lemma tick_resets w : quiet (run b Tick (run b ResetProps w)) = quiet (run b ResetProps (run b Tick w)).
Proof.
  pose proof (tick_reset (N.lor (w_rst w) (b_reset_added k b (w_ext w))) (w_ext w) (w_props w)) as E.
  assert (forall v, quiet (run b Tick v) = put_active false (put_props (map (tick b (w_ext v)) (w_props v)) v)) as T by (intros []; reflexivity).
  rewrite T. unfold run at 1 2 3. cbn [w_props put_props w_ext mark put_rst put_recalc]. rewrite E. destruct w. reflexivity.
Qed.
Ltac open_world := cbv beta iota zeta delta [run mark touch w_hier put_hier w_ord put_ord w_sib put_sib w_ext put_ext w_eff put_eff w_flg put_flg w_recalc put_recalc w_rst put_rst w_win put_win w_feat put_feat w_root put_root w_cls put_cls w_att put_att w_nid put_nid w_foc put_foc w_prs put_prs w_dis put_dis w_chk put_chk w_hov put_hov w_dirty put_dirty w_rul put_rul w_vrs put_vrs w_cmp put_cmp w_props put_props w_app put_app w_anyprop put_anyprop w_active put_active w_sent put_sent w_redraw put_redraw].
Lemma interaction_pressed w : N.land (b_interaction_touch k b (w_ext w)) (b_pressed_touch k b (w_ext w)) = 0%N ->
  put_active false (run b SyncInteraction (run b SyncPressed w)) = put_active false (run b SyncPressed (run b SyncInteraction w)).
Proof. intros H. destruct w. open_world. cbn [Schedule.w_ext] in H. rewrite (update_swap _ _ _ _ _ H), lor_swap. reflexivity. Qed.
Lemma interaction_hovered w : N.land (b_interaction_touch k b (w_ext w)) (b_hovered_touch k b (w_ext w)) = 0%N ->
  put_active false (run b SyncInteraction (run b SyncHovered w)) = put_active false (run b SyncHovered (run b SyncInteraction w)).
Proof. intros H. destruct w. open_world. cbn [Schedule.w_ext] in H. rewrite (update_swap _ _ _ _ _ H), lor_swap. reflexivity. Qed.
Lemma commute x y w : single_source b (w_ext w) -> x <> y -> before x y = false -> before y x = false -> same (run b x (run b y w)) (run b y (run b x w)).
Proof.
  intros Hs Hne Hxy Hyx. apply land_split in Hs as (Hp & Hh). unfold same.
  destruct x, y; first [discriminate Hxy | discriminate Hyx | exact (False_ind _ (Hne eq_refl)) | idtac]; clear Hne Hxy Hyx;
    lazymatch goal with
    | |- put_active _ (run _ EmitEvents (run _ Placeholders _)) = _ => apply (f_equal (put_active false)); exact (emit_placeholders w)
    | |- put_active _ (run _ EmitEvents (run _ Apply _)) = _ => apply (f_equal (put_active false)); exact (emit_apply w)
    | |- put_active _ (run _ EmitEvents (run _ AutoRemove _)) = _ => apply (f_equal (put_active false)); exact (emit_remove w)
    | |- put_active _ (run _ EmitEvents (run _ Redraw _)) = _ => apply (f_equal (put_active false)); exact (emit_redraw w)
    | |- put_active _ (run _ Placeholders (run _ EmitEvents _)) = _ => apply (f_equal (put_active false)); symmetry; exact (emit_placeholders w)
    | |- put_active _ (run _ Apply (run _ EmitEvents _)) = _ => apply (f_equal (put_active false)); symmetry; exact (emit_apply w)
    | |- put_active _ (run _ AutoRemove (run _ EmitEvents _)) = _ => apply (f_equal (put_active false)); symmetry; exact (emit_remove w)
    | |- put_active _ (run _ Redraw (run _ EmitEvents _)) = _ => apply (f_equal (put_active false)); symmetry; exact (emit_redraw w)
    | |- put_active _ (run _ Tick (run _ ResetProps _)) = _ => apply tick_resets
    | |- put_active _ (run _ ResetProps (run _ Tick _)) = _ => symmetry; apply tick_resets
    | |- put_active _ (run _ SyncInteraction (run _ SyncPressed _)) = _ => exact (interaction_pressed w Hp)
    | |- put_active _ (run _ SyncInteraction (run _ SyncHovered _)) = _ => exact (interaction_hovered w Hh)
    | |- put_active _ (run _ SyncPressed (run _ SyncInteraction _)) = _ => exact (eq_sym (interaction_pressed w Hp))
    | |- put_active _ (run _ SyncHovered (run _ SyncInteraction _)) = _ => exact (eq_sym (interaction_hovered w Hh))
    | |- _ => destruct w; open_world; first [rewrite lor_swap; reflexivity | reflexivity]
    end.
Qed.
End Systems.

(** ** Allowed orders *)
Fixpoint ordered (l : list system) : bool := match l with [] => true | x :: r => forallb (fun y => negb (before y x)) r && ordered r end.
Lemma ordered_respects l : ordered l = true -> forall a x b y c, l = a ++ x :: b ++ y :: c -> before y x = false.
Proof.
  induction l as [|z l IH]; intros H a x b y c E; [destruct a; discriminate|]. cbn [ordered] in H. apply andb_prop in H as (H1 & H2).
  destruct a as [|u a]; cbn in E; injection E as -> E; [|apply (IH H2 a x b y c E)]. rewrite forallb_forall in H1.
  assert (In y l) as Hy by (rewrite E; apply in_or_app; right; left; reflexivity). apply H1 in Hy. destruct (before y x); [discriminate | reflexivity].
Qed.
Lemma systems_nodup : NoDup systems.
Proof. repeat constructor; cbn; intuition discriminate. Qed.
Lemma go_run_all {k} (b : behaviour k) l : forall w, go (run b) l w = run_all b l w.
Proof. induction l as [|s l IH]; intros w; [reflexivity|]. apply IH. Qed.
Lemma any_order {k} (b : behaviour k) w o o' : allowed o -> allowed o' -> single_source b (w_ext w) -> same (run_all b o w) (run_all b o' w).
Proof.
  intros (P & R) (P' & R') Hs. rewrite <- !go_run_all.
  apply (orders_same (run b) same (fun w => single_source b (w_ext w)) before); auto.
  - reflexivity.
  - intros x y z H1 H2. unfold same in *. congruence.
  - apply run_same.
  - intros s v H. rewrite run_ext. exact H.
  - intros x y v H1 H2 H3 H4. apply commute; auto.
  - apply (Permutation_NoDup P), systems_nodup.
  - rewrite <- P. exact P'.
Qed.
