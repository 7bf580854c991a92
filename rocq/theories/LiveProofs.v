(** Proofs for C105. *)
From Coq Require Import Ascii String NArith Permutation.
From Verif Require Import Base Tree TreeSpec Vars VarsSpec Siblings Media MediaSpec Invalidation InvalidationSpec InvalidationProofs Matching MatchingSpec MatchingProofs Specificity SpecificitySpec Follow FollowSpec FollowProofs Cascade CascadeProofs CascadeProofs4 Whole WholeSpec WholeProofs Live LiveSpec.
From Verif Require VarFlow VarFlowSpec VarFlowProofs Inherit InheritSpec Pipeline PipelineSpec PipelineProofs MediaDeps.
Open Scope list_scope.

(** ** Frames that differ in how the rules are given *)
Section Ext.
  Context {V : Type} (initial : nat -> V) (decode : nat -> Inherit.pvalue V) (unset_code : nat -> nat).
  Record alike (f f' : VarFlow.frame) : Prop := {
    k_forest : VarFlow.f_forest f' = VarFlow.f_forest f; k_sheet : forall n, VarFlow.f_sheet f' n = VarFlow.f_sheet f n;
    k_rules : forall n, VarFlow.f_rules f' n = VarFlow.f_rules f n; k_inline : forall n, VarFlow.f_inline f' n = VarFlow.f_inline f n }.
  Lemma alike_sym f f' : alike f f' -> alike f' f.
  Proof. intros [A B C D]. split; congruence. Qed.
  Lemma declared_alike f f' n : alike f f' -> VarFlowSpec.declared f' n = VarFlowSpec.declared f n.
  Proof. intros [A B C D]. unfold VarFlowSpec.declared. rewrite B, C, D. reflexivity. Qed.
  Lemma declarations_alike f f' c n : alike f f' -> VarFlowSpec.declarations f' c n = VarFlowSpec.declarations f c n.
  Proof. intros [A B C D]. unfold VarFlowSpec.declarations. rewrite C, D. reflexivity. Qed.
  Lemma sees_alike f f' n r : alike f f' -> VarFlowSpec.sees f' n r -> VarFlowSpec.sees f n r.
  Proof. intros K (own & Ho & Hr). exists own. rewrite (k_forest _ _ K) in Hr. split; [|exact Hr]. intros a k. rewrite <- (declared_alike f f' a K). apply Ho. Qed.
  Lemma declares_alike f f' p n d : alike f f' -> PipelineSpec.declares decode unset_code f' p n d -> PipelineSpec.declares decode unset_code f p n d.
  Proof.
    intros K (c & r & v & Hc & Hr & Hv & Hd). exists c, r, v. rewrite (k_sheet _ _ K) in Hc. rewrite (declarations_alike f f' c n K) in Hv. split; [exact Hc|]. split; [exact (sees_alike f f' n r K Hr)|]. split; assumption.
  Qed.
  Lemma css_alike f f' p n c : alike f f' -> PipelineSpec.css_value initial decode unset_code f' p n c -> PipelineSpec.css_value initial decode unset_code f p n c.
  Proof.
    intros K. induction 1 as [n H|n d c Hp Hd Hm|n m d cm c Hp Hc IH Hd Hm].
    - apply PipelineSpec.cv_unstyled. rewrite <- (k_sheet _ _ K). exact H.
    - rewrite (k_forest _ _ K) in Hp. eapply PipelineSpec.cv_root; [exact Hp|eapply declares_alike; eauto|exact Hm].
    - rewrite (k_forest _ _ K) in Hp. eapply PipelineSpec.cv_child; [exact Hp|exact IH|eapply declares_alike; eauto|exact Hm].
  Qed.
End Ext.

Section Live.
  Context {CN TP AP KN KF FF f32 V : Type} (veq : forall a b : V, {a = b} + {a <> b}).
  Variables (feq fle fge : f32 -> f32 -> bool).
  Variables (resolve_name : CN -> option nat) (type_ok : nat -> nat -> bool) (path_ok : FF -> bool) (placeholder : nat -> nat).
  Variables (np : nat) (initial : nat -> V) (decode : nat -> Inherit.pvalue V) (unset_code : nat -> nat) (nodes : list nat).
  Hypothesis unset_ok : forall p, decode (unset_code p) <> Inherit.PUnset.
  Notation dyn := ((list nat -> option (list (nat * nat))) * VarFlow.toks)%type.
  Notation builderT := (builder complex (media_selectors f32) nat VarFlow.toks CN nat dyn TP AP KN KF FF).
  Notation sheetT := (style_sheet complex (media_selectors f32) nat VarFlow.toks nat dyn TP AP KN KF FF).
  Notation momentT := (moment CN TP AP KN KF FF f32).
  Notation loadT := (load resolve_name type_ok path_ok placeholder).
  Notation loadedT := (loaded resolve_name type_ok path_ok placeholder).
  Notation chosenT := (chosen feq fle fge).
  Notation eframeT := (eframe_of resolve_name type_ok path_ok placeholder).
  Notation frameT := (frame_with resolve_name type_ok path_ok placeholder).
  Notation activeT := (active_at feq fle fge resolve_name type_ok path_ok placeholder).
  Notation saneT := (live_sane resolve_name placeholder decode unset_code loadedT nodes).
  Notation goesT := (live_goes_on loadedT).
  Notation rulesT mf m n := (rules_at feq fle fge resolve_name type_ok path_ok placeholder mf (situation_of m) n).

  (** ** Matching *)
  Lemma numbered_in l : forall i s m k, In (s, m, k) (numbered i l) -> In s l.
  Proof. induction l as [|x l IH]; intros i s m k; [intros []|]. cbn. intros [H|H]; [injection H as <- _ _; auto|right; eapply IH; exact H]. Qed.
  Lemma numbered_has l s : In s l -> forall i, exists k, In (s, true, k) (numbered i l).
  Proof. induction l as [|x l IH]; [intros []|]. intros [->|H] i; cbn; [eauto|]. destruct (IH H (S i)) as [k Hk]. eauto. Qed.
  Lemma chosen_numbered (sh : sheetT) p ratio P : forall l l0, s_css sh = l0 ++ l ->
    fst (chosenT sh p ratio (map snd (filter (fun r : erule => P (fst (fst r)) && snd (fst r))%bool (numbered (List.length l0) (map (fun e => selector (fst e)) l))))) =
    map snd (filter (fun e => P (selector (fst e)) && media_matches f32 feq fle fge (fun _ _ => ratio) (media (fst e)) p)%bool l).
  Proof.
    induction l as [|[sel id] l IH]; intros l0 E; [reflexivity|].
    assert (E' : s_css sh = (l0 ++ [(sel, id)]) ++ l) by (rewrite E, <- app_assoc; reflexivity). specialize (IH _ E'). rewrite app_length, Nat.add_comm in IH. cbn [List.length Nat.add] in IH.
    cbn [map numbered filter fst snd]. destruct (P (selector sel)); cbn [andb]; [|exact IH].
    cbn [map snd chosen]. assert (nth_error (s_css sh) (List.length l0) = Some (sel, id)) as -> by (rewrite E, nth_error_app2, Nat.sub_diag by lia; reflexivity).
    destruct (chosenT sh p ratio _) as [ids fl]. cbn [fst] in IH |- *. destruct (media_matches _ _ _ _ _ (media sel) p); cbn [map snd fst]; rewrite IH; reflexivity.
  Qed.
  Lemma chosen_rules mf (m : momentT) n sh : loadT (l_sheet m n) = Some sh ->
    fst (chosenT sh (l_media m n) (l_ratio m n) (result (l_world m) n (sheet_prog mf (selectors_of sh)))) = rulesT mf m n.
  Proof.
    intros E. unfold rules_at. cbn [situation_of s_sheet s_world s_media s_ratio]. rewrite E. rewrite sheet_result. unfold get_matching_ruleset_ids. exact (chosen_numbered sh (l_media m n) (l_ratio m n) (fun s => matches_selector (l_world m) mf s n) (s_css sh) [] eq_refl).
  Qed.

  (** ** Media features *)
  Definition same_features (need : MediaDeps.dflags) (p p' : provider f32) (r r' : f32) : Prop :=
    (MediaDeps.on_window need = true -> p_color_scheme _ p' = p_color_scheme _ p) /\
    (MediaDeps.on_info need = true -> r' = r /\ p_resolution _ p' = p_resolution _ p /\ p_width _ p' = p_width _ p /\ p_height _ p' = p_height _ p).
  Lemma same_or a b p p' r r' : same_features (MediaDeps.or_dflags a b) p p' r r' -> same_features a p p' r r' /\ same_features b p p' r r'.
  Proof. unfold same_features. cbn. rewrite !orb_true_iff. intuition. Qed.
  Lemma ask_same q p p' r r' : same_features (asks q) p p' r r' ->
    Media.selector_matches f32 feq fle fge (fun _ _ => r') q p' = Media.selector_matches f32 feq fle fge (fun _ _ => r) q p.
  Proof.
    intros [H1 H2]. destruct q as [c|x|x|x|x]; cbn in *; [rewrite H1 by reflexivity; reflexivity|..]; destruct (H2 eq_refl) as (-> & Hr & Hw & Hh); rewrite ?Hr, ?Hw, ?Hh; try reflexivity.
    unfold get_aspect_ratio. rewrite Hw, Hh. reflexivity.
  Qed.
  Lemma media_same l p p' r r' : same_features (media_flags feq fle fge p r l) p p' r r' ->
    media_flags feq fle fge p' r' l = media_flags feq fle fge p r l /\ media_matches f32 feq fle fge (fun _ _ => r') l p' = media_matches f32 feq fle fge (fun _ _ => r) l p.
  Proof.
    assert (K : forall (x : media_selectors f32) p r, media_matches f32 feq fle fge (fun _ _ => r) x p = forallb (fun s => match Media.selector_matches f32 feq fle fge (fun _ _ => r) s p with Some b => b | None => false end) x) by (intros [|y x]; reflexivity).
    rewrite !K. clear K. induction l as [|q l IH]; [auto|]. cbn [media_flags forallb]. intros H. apply same_or in H as [H1 H2]. rewrite (ask_same q p p' r r' H1).
    destruct (Media.selector_matches _ _ _ _ _ q p) as [[|]|]; [|auto|auto]. destruct (IH H2) as [E1 E2]. rewrite E1, E2. auto.
  Qed.
  Lemma chosen_same (sh : sheetT) p p' r r' l : same_features (snd (chosenT sh p r l)) p p' r r' -> chosenT sh p' r' l = chosenT sh p r l.
  Proof.
    induction l as [|i l IH]; [reflexivity|]. cbn [chosen]. destruct (chosenT sh p r l) as [ids fl]. destruct (nth_error (s_css sh) i) as [[sel id]|]; cbn [snd]; intros H.
    - apply same_or in H as [H1 H2]. rewrite (IH H2). destruct (media_same _ _ _ _ _ H1) as [-> ->]. reflexivity.
    - rewrite (IH H). reflexivity.
  Qed.
  Definition covers (have need : MediaDeps.dflags) : Prop :=
    (MediaDeps.on_window need = true -> MediaDeps.on_window have = true) /\ (MediaDeps.on_info need = true -> MediaDeps.on_info have = true).

  (** ** From the conditions on moments to those of Follow.v *)
  Lemma selector_at_rules (m : momentT) lt n s : selectors_at (eframeT m lt) n s <-> selector_at loadedT m n s.
  Proof.
    unfold selectors_at, selector_at. cbn [eframe_of g_rules]. split.
    - intros (rules & md & id & E & H). destruct (loadT (l_sheet m n)) as [sh|] eqn:El; [|discriminate]. injection E as <-. destruct (l_sheet m n) as [b|] eqn:Eb; [|discriminate]. apply load_some in El.
      unfold selectors_of in H. apply numbered_in, in_map_iff in H as ([sel k] & <- & H). exists b, sel, k. split; [reflexivity|]. split; [exists sh; exact El|]. split; [|reflexivity].
      eapply Permutation_in; [exact (build_css_perm _ _ _ _ _ _ _ El)|exact H].
    - intros (b & sel & id & Eb & (sh & Hb) & H & ->). assert (El : loadT (l_sheet m n) = Some sh) by (rewrite Eb; apply load_some; exact Hb). rewrite El. cbn.
      assert (H' : In (selector sel) (map (fun e => selector (fst e)) (s_css sh))).
      { apply in_map_iff. exists (sel, id). split; [reflexivity|]. eapply Permutation_in; [apply Permutation_sym; exact (build_css_perm _ _ _ _ _ _ _ Hb)|exact H]. }
      destruct (numbered_has _ _ H' 0) as [k Hk]. exists (selectors_of sh), true, k. auto.
  Qed.
  Lemma consistent_more (l l' : list nat) w : (forall n, In n l -> In n l') -> consistent l w -> consistent l' w.
  Proof. intros H [A B C D E F]. constructor; auto. intros n p Hp. destruct (B n p Hp) as (X & Y & Z). auto. Qed.
  Lemma moment_good (m : momentT) lt : saneT m -> good_frame nodes (eframeT m lt).
  Proof.
    intros (S & Hal & Hf & Hsw). pose proof S as (C & _ & _ & Hn & Hu & Hsh & _). cbn [situation_of s_alive s_world s_sheet] in C, Hn, Hu, Hsh.
    split; [exact (consistent_more _ _ _ Hn C)|]. split; [intros n H; apply Hn, Hal, H|]. split; [|split].
    - intros n H. cbn in *. apply Hal. destruct (l_sheet m n) as [b|] eqn:E; [exact (Hsh n b E)|exfalso; apply H; reflexivity].
    - intros n s H. apply selector_at_rules in H. split; [|exact (Hf n s H)]. destruct H as (b & sel & id & Eb & _ & Hi & ->). exact (proj1 (proj2 (Hu n b Eb sel id Hi))).
    - destruct Hsw as [H|H]; [left; intros n s K; apply selector_at_rules in K; exact (H n s K)|right]. intros n p Hp. destruct (H n p Hp) as (s & K & A). exists s. split; [apply selector_at_rules; exact K|exact A].
  Qed.
  Lemma marked_iff (m : momentT) lt n : g_marked (eframeT m lt) n = true <-> marked_node m n.
  Proof. cbn. unfold marked_node. rewrite !orb_true_iff. tauto. Qed.
  Lemma moment_reports mf (m0 m : momentT) lt0 lt : saneT m -> goesT m0 m -> reports (rule_progs mf) (eframeT m0 lt0) (eframeT m lt).
  Proof.
    intros S (D & _ & Ch & _ & _ & Sh & Rs & _). pose proof S as (_ & Hal & _). split; [|split; [|split]].
    - intros n Hd Hc. apply D; [apply Hal; exact Hd|exact Hc].
    - intros p Hp Hc. cbn in *. apply Ch; [apply Hal; exact Hp|exact Hc].
    - intros n Hd H0 Hm _. apply Hal in Hd. assert (Hno : ~ marked_node m n) by (rewrite <- (marked_iff m lt n), Hm; discriminate). unfold rule_progs in *. cbn [eframe_of g_rules] in *. destruct (l_sheet m0 n) as [b|] eqn:Eb; [|exfalso; apply H0; reflexivity].
      destruct (loadT (Some b)) as [sh|] eqn:El; [|exfalso; apply H0; reflexivity]. destruct (Sh n b Hd Eb) as [_ [E|K]]; [exists sh; apply load_some; exact El| |]; [rewrite E, El; reflexivity|contradiction].
    - intros a n Hr Hc. left. apply marked_iff. apply (Rs a n); [|exact Hc]. cbn in Hr. unfold cleared in Hr. apply orb_true_iff in Hr. exact Hr.
  Qed.

  (** ** One update *)
  Definition sit (m : momentT) (marks : nat -> bool) : situation CN TP AP KN KF FF f32 :=
    mk_situation (l_world m) (l_sheet m) (l_inline m) (l_media m) (l_ratio m) (l_alive m) (l_modified m) (fun n => (l_data m n || l_style m n)%bool) marks (l_reset m).
  Lemma connected_down w n d : descendant w n d -> connected w n d.
  Proof. induction 1 as [e He|p e H IH He]; [eapply conn_down; [constructor|exact He]|eapply conn_down; [exact IH|exact He]]. Qed.
  Lemma noticed_mono (m : momentT) needs n : (forall k, marked_node m k -> needs k = true) -> reported_node m n -> noticed (sit m needs) n.
  Proof.
    intros K [H|[H|[H|H]]]; cbn in H; [left; exact H|right; left; exact H| |right; right; right; exact H]. right; right; left. apply K. apply orb_true_iff in H as [H|H]; unfold marked_node; tauto.
  Qed.
  Lemma flow_noticed (m : momentT) needs rules n : VarFlowSpec.noticed (Pipeline.flow_frame (frameT m needs rules)) n <-> noticed (sit m needs) n.
  Proof. unfold VarFlowSpec.noticed, noticed. cbn. rewrite (orb_true_iff (needs n)). tauto. Qed.
  Lemma frame_alike mf (m : momentT) needs rules : (forall n, rules n = rulesT mf m n) ->
    alike (Pipeline.p_flow (frame_of feq fle fge resolve_name type_ok path_ok placeholder mf (sit m needs))) (Pipeline.p_flow (frameT m needs rules)).
  Proof. intros H. split; try reflexivity. exact H. Qed.
  Lemma frame_well mf (m : momentT) needs rules : saneT m -> (forall n, rules n = rulesT mf m n) -> (forall k, marked_node m k -> needs k = true) ->
    PipelineSpec.well_behaved decode unset_code nodes (frameT m needs rules).
  Proof.
    intros (S & _) Hr Hk. assert (S' : sane resolve_name placeholder decode unset_code loadedT nodes (sit m needs)).
    { destruct S as (A & B & C & D & E & E' & F & G). repeat (split; [assumption|]). intros n p Hp Hm. exact (noticed_mono m needs n Hk (G n p Hp Hm)). }
    apply (sane_ok feq fle fge resolve_name type_ok path_ok placeholder decode unset_code mf) in S'. destruct S' as (A & B & C & D & D' & E & F).
    pose proof (frame_alike mf m needs rules Hr) as K. split; [exact A|]. split; [exact B|]. split; [exact C|]. split; [exact D|]. split; [exact D'|]. split; [|exact F].
    intros n c r d p v Hc Hs Hd Hg. rewrite (k_sheet _ _ K) in Hc. apply (sees_alike _ _ _ _ K) in Hs. rewrite (declarations_alike _ _ c n K) in Hd. exact (E n c r d p v Hc Hs Hd Hg).
  Qed.

  Definition LInv (mf : nat) (m : momentT) (s : live V) : Prop := exists needs rules a,
    good_progs nodes (rule_progs mf) (eframeT m (fun _ => false)) /\
    (forall n, rules n = rulesT mf m n) /\ PipelineProofs.Inv np initial decode unset_code nodes (frameT m needs rules) a (lv_pipe s) /\
    settled nodes (rule_progs mf) (eframeT m (fun _ => false)) (matching_state s) /\
    forall n l sh, In n nodes -> loadT (l_sheet m n) = Some sh -> lv_matching s n = Some l -> covers (lv_media s n) (snd (chosenT sh (l_media m n) (l_ratio m n) l)).
  Definition fuel_fine (m : momentT) (fuel : nat) : Prop :=
    (exists vs, PipelineProofs.fuel_ok nodes (frameT m (fun _ => false) (fun _ => [])) fuel vs) /\
    forall e, In e nodes -> (exists l, iter_ui_descendants_with_parent (w_tree (l_world m)) fuel e = Some l) /\ (exists l, iter_ui_ancestors (w_tree (l_world m)) fuel e = Some l).
  Lemma needs_marked f fuel (es : estate (list nat)) needs n : noticed_now f nodes fuel es = Some needs -> g_marked f n = true \/ g_late f n = true -> needs n = true.
  Proof.
    unfold noticed_now. destruct (related_marks _ _ _ _); [|discriminate]. destruct (changed_marks _ _ _ _ _ _); [|discriminate]. intros H. injection H as <-.
    intros [H|H]; rewrite H; rewrite ?orb_true_r; reflexivity.
  Qed.
  Lemma live_step mf fuel (m0 m : momentT) (s : live V) : LInv mf m0 s -> saneT m -> goesT m0 m -> fuel_fine m fuel ->
    exists s', update veq feq fle fge resolve_name type_ok path_ok placeholder np initial decode unset_code nodes mf fuel m s = Some s' /\ LInv mf m s'.
  Proof.
    intros (needs0 & rules0 & a & G0 & R0 & HI & S0 & C0) S G ((vs & Hfu) & Hen). unfold update. set (ef := eframeT m (late m s)). set (es := matching_state s) in *.
    destruct (noticed_enough nodes ef fuel Hen es) as [needs En]. rewrite En.
    assert (exists es', estep (rule_progs mf) nodes fuel ef es = Some es') as [es' Ees] by (unfold estep; rewrite En; destruct (ecalculate _ _ _ _ _ _); eauto). rewrite Ees.
    pose proof (good_frame_progs nodes mf ef (moment_good m (late m s) S)) as G1.
    pose proof (moment_reports mf m0 m (fun _ => false) (late m s) S G) as Rp.
    pose proof (step_settled nodes (rule_progs mf) _ ef es es' fuel G0 G1 Rp S0 Ees) as S1.
    assert (Hk : forall k, marked_node m k -> needs k = true) by (intros k Hm; apply (marked_iff m (late m s) k) in Hm; eapply needs_marked; eauto).
    assert (Hq : forall n, needs n = false -> In n (l_alive m)).
    { intros n Hno. pose proof S as (_ & Hal & _). apply Hal. intros Hd. unfold noticed_now in En. destruct (related_marks _ _ _ _); [|discriminate]. destruct (changed_marks _ _ _ _ _ _); [|discriminate]. injection En as <-.
      apply orb_false_iff in Hno as [_ Hno]. unfold gone, ef in Hno. cbn in Hno. rewrite Hd in Hno. discriminate. }
    set (rules := fun n => fst (activeT m (a_active es') n)).
    (* nodes with a loaded sheet *)
    assert (Hload : forall n sh, loadT (l_sheet m n) = Some sh -> In n nodes /\ a_active es' n = Some (result (l_world m) n (sheet_prog mf (selectors_of sh)))).
    { intros n sh El. assert (Hp : rule_progs mf ef n = Some (sheet_prog mf (selectors_of sh))) by (unfold rule_progs, ef; cbn; rewrite El; reflexivity).
      assert (Hn : In n nodes) by (destruct G1 as (_ & Hin & Hok & _); apply Hin; apply (Hok n _ Hp)). split; [exact Hn|].
      destruct (S1 n Hn) as [[_ K]|(p & Hp' & Ha & _)]; [congruence|]. rewrite Hp in Hp'. injection Hp' as <-. exact Ha. }
    assert (Hr : forall n, rules n = rulesT mf m n).
    { intros n. unfold rules, active_at. destruct (loadT (l_sheet m n)) as [sh|] eqn:El; [|unfold rules_at; cbn [situation_of s_sheet]; rewrite El; reflexivity].
      destruct (Hload n sh El) as [_ ->]. apply chosen_rules. exact El. }
    assert (Hwb : PipelineSpec.well_behaved decode unset_code nodes (frameT m needs rules)) by (eapply frame_well; eauto).
    pose proof G as (Gd & Gi & Gc & Gt & Gf & Gs & Gr & Gm & Gn).
    (* nodes that are not marked *)
    assert (Quiet : forall n sh, needs n = false -> loadT (l_sheet m0 n) = Some sh -> l_sheet m n = l_sheet m0 n /\ cleared m n = false /\
      lv_matching s n = Some (result (l_world m) n (sheet_prog mf (selectors_of sh))) /\ result (l_world m) n (sheet_prog mf (selectors_of sh)) = result (l_world m0) n (sheet_prog mf (selectors_of sh)) /\
      chosenT sh (l_media m n) (l_ratio m n) (result (l_world m) n (sheet_prog mf (selectors_of sh))) = chosenT sh (l_media m0 n) (l_ratio m0 n) (result (l_world m) n (sheet_prog mf (selectors_of sh)))).
    { intros n sh Hno El. assert (Hp0 : rule_progs mf (eframeT m0 (fun _ => false)) n = Some (sheet_prog mf (selectors_of sh))) by (unfold rule_progs; cbn; rewrite El; reflexivity).
      assert (Hn : In n nodes) by (destruct G0 as (_ & Hin & Hok & _); apply Hin; apply (Hok n _ Hp0)).
      destruct (unnoticed nodes (rule_progs mf) _ ef es fuel needs n G0 G1 Rp S0 En Hn Hno) as (p & Hp & _ & Ha & Eq & _). rewrite Hp0 in Hp. injection Hp as <-. cbn [ef eframe_of g_world] in Ha, Eq.
      assert (Hnm : ~ marked_node m n) by (intros K; apply Hk in K; congruence).
      assert (Hcl : cleared m n = false) by (unfold cleared; destruct (l_modified m n) eqn:E1; [exfalso; apply Hnm; unfold marked_node; tauto|]; destruct (l_assigned m n) eqn:E2; [exfalso; apply Hnm; unfold marked_node; tauto|reflexivity]).
      destruct (l_sheet m0 n) as [b|] eqn:Eb; [|discriminate]. assert (Hlb : loadedT b) by (exists sh; apply load_some; exact El).
      destruct (Gs n b (Hq n Hno) Eb Hlb) as [_ [Es|K]]; [|contradiction]. split; [exact Es|]. split; [exact Hcl|]. split; [exact Ha|]. split; [exact Eq|].
      apply chosen_same. assert (Hlt : late m s n = false) by (destruct (late m s n) eqn:E; [rewrite (needs_marked ef fuel es needs n En (or_intror E)) in Hno; discriminate|reflexivity]).
      destruct (C0 n _ sh Hn ltac:(rewrite Eb; exact El) Ha) as [Cw Ci]. unfold late, flags_now in Hlt. pose proof (Hq n Hno) as Hqn. apply mem_In in Hqn. rewrite Hcl, Hqn in Hlt. cbn [negb orb] in Hlt. apply orb_false_iff in Hlt as [L1 L2].
      assert (Hb : l_sheet m0 n <> None) by congruence. split.
      - intros K. apply Cw in K. rewrite K, andb_true_r in L1. exact (Gt n (Hq n Hno) Hb L1).
      - intros K. apply Ci in K. rewrite K, andb_true_r in L2. exact (Gf n (Hq n Hno) Hb L2). }
    assert (Hgo : PipelineSpec.goes_on (frameT m0 needs0 rules0) (frameT m needs rules)).
    { split; [|split; [|split; [|split]]].
      - intros n Hgo. cbn in Hgo. unfold Pipeline.gone in Hgo. apply negb_false_iff, VarFlowProofs.mem_in in Hgo. cbn in Hgo. split.
        + cbn. intros Hc. apply orb_false_iff in Hc as [H1 H2]. destruct (Gd n Hgo H1) as [_ Ep]. split; [exact Ep|]. rewrite (Gi n Hgo H2). reflexivity.
        + intros Hno Hs. rewrite flow_noticed in Hno. assert (Hn : needs n = false) by (destruct (needs n) eqn:E; [exfalso; apply Hno; right; right; left; exact E|reflexivity]).
          cbn [frame_with Pipeline.p_flow VarFlow.f_sheet VarFlow.f_rules Pipeline.flow_frame] in *. destruct (loadT (l_sheet m0 n)) as [sh|] eqn:El; [|exfalso; apply Hs; reflexivity].
          destruct (Quiet n sh Hn El) as (Es & _ & _ & Eq & Ech). rewrite Es, El. split; [reflexivity|]. rewrite Hr, R0. rewrite <- (chosen_rules mf m n sh) by (rewrite Es; exact El). rewrite <- (chosen_rules mf m0 n sh El). rewrite Ech, Eq. reflexivity.
      - intros n d Hp Hd. apply flow_noticed. apply noticed_mono; [exact Hk|]. exact (Gm n d Hp Hd).
      - intros n Hgo Hs Hs'. cbn in Hgo, Hs, Hs'. unfold Pipeline.gone in Hgo. apply negb_false_iff, VarFlowProofs.mem_in in Hgo. cbn in Hgo. destruct (l_sheet m0 n) as [b|] eqn:Eb; [|exfalso; apply Hs; reflexivity]. destruct (loadT (Some b)) as [sh|] eqn:El; [|exfalso; apply Hs; reflexivity].
        destruct (Gs n b Hgo Eb ltac:(exists sh; apply load_some; exact El)) as [(b' & Eb' & sh' & Hb') _]. apply load_some in Hb'. rewrite Eb', Hb' in Hs'. discriminate.
      - intros n d Hm Hd. apply flow_noticed. cbn in Hm. right; right; left. apply Hk. apply (Gr n d); [left; exact Hm|]. apply connected_down. exact Hd.
      - exact Gn. }
    destruct (PipelineProofs.step_inv veq np initial decode unset_code nodes unset_ok (frameT m0 needs0 rules0) (frameT m needs rules) a (lv_pipe s) fuel vs HI Hwb (or_introl Hgo) Hfu) as (b & p' & Ep & I' & _).
    fold rules. rewrite Ep. eexists. split; [reflexivity|]. exists needs, rules, b. split; [exact G1|]. split; [exact Hr|]. split; [exact I'|]. split.
    - intros n Hn. destruct (S1 n Hn) as [[_ K]|K]; [left|right; exact K]. split; [|exact K]. cbn.
      pose proof (PipelineProofs.i_flow _ _ _ _ _ _ _ _ I' n Hn) as Hg. unfold VarFlowProofs.good in Hg. cbn in Hg. unfold rule_progs, ef in K. cbn in K. destruct (loadT (l_sheet m n)) as [sh|]; [discriminate|]. cbn in Hg. apply Hg.
    - intros n l sh Hn El Hl. cbn [lv_matching lv_media] in *. destruct (Hload n sh El) as [_ Ha]. rewrite Ha in Hl. injection Hl as <-. destruct (needs n) eqn:Enn.
      + assert (mem n nodes = true) as -> by (apply mem_In; exact Hn). cbn [andb]. unfold active_at. rewrite El, Ha. split; cbn; intros ->; apply orb_true_r.
      + cbn [andb]. destruct (unnoticed nodes (rule_progs mf) _ ef es fuel needs n G0 G1 Rp S0 En Hn Enn) as (p & Hp & _).
        destruct (loadT (l_sheet m0 n)) as [sh0|] eqn:El0; [|unfold rule_progs in Hp; cbn in Hp; rewrite El0 in Hp; discriminate].
        destruct (Quiet n sh0 Enn El0) as (Es & Hcl & Hm & _ & Ech). assert (sh0 = sh) by (rewrite Es, El0 in El; congruence). subst sh0.
        pose proof (Hq n Enn) as Hqn. apply mem_In in Hqn. unfold flags_now. rewrite Hcl, Hqn, Ech. cbn [negb orb]. apply C0; assumption.
  Qed.

  (** ** Histories *)
  Lemma start_inv mf ratio media bef : LInv mf (nothing ratio media) (start bef).
  Proof.
    destruct (nothing_good nodes mf) as [Gn Sn]. exists (fun _ => false), (fun _ => []), InheritSpec.before_start. split; [exact Gn|]. split; [reflexivity|].
    split; [exact (PipelineProofs.start_inv np initial decode unset_code nodes bef)|]. split; [exact Sn|]. intros n l sh _ H. discriminate H.
  Qed.
  Lemma fuel_exists (m : momentT) : saneT m -> exists n0, forall fuel, n0 <= fuel -> fuel_fine m fuel.
  Proof.
    intros S. pose proof (frame_well 0 m (fun _ => true) (fun n => rulesT 0 m n) S (fun _ => eq_refl) (fun _ _ => eq_refl)) as W.
    destruct (PipelineProofs.fuel_exists decode unset_code nodes _ W) as (n1 & vs & H1). destruct W as (W & _). destruct (marks_total _ nodes W) as [n2 H2].
    exists (n1 + n2). intros fuel Hf. split; [exists vs; exact (H1 fuel ltac:(lia))|exact (H2 fuel ltac:(lia))].
  Qed.
  Lemma history_fuel ms : forall m0, live_history resolve_name placeholder decode unset_code loadedT nodes m0 ms -> exists n0, forall fuel, n0 <= fuel -> Forall (fun m => fuel_fine m fuel) ms.
  Proof.
    induction ms as [|m ms IH]; intros m0 H; [exists 0; constructor|]. destruct H as (S & _ & H). destruct (IH m H) as [n1 H1]. destruct (fuel_exists m S) as [n2 H2].
    exists (n1 + n2). intros fuel Hf. constructor; [apply H2|apply H1]; lia.
  Qed.
  Lemma history_inv mf fuel ms : forall m0 s, live_history resolve_name placeholder decode unset_code loadedT nodes m0 ms -> Forall (fun m => fuel_fine m fuel) ms -> LInv mf m0 s ->
    exists s', updates veq feq fle fge resolve_name type_ok path_ok placeholder np initial decode unset_code nodes mf fuel ms s = Some s' /\ LInv mf (last ms m0) s'.
  Proof.
    induction ms as [|m ms IH]; intros m0 s H F I; [exists s; auto|]. destruct H as (S & G & H). inversion F as [|? ? F1 F2]; subst. destruct (live_step mf fuel m0 m s I S G F1) as (s1 & E1 & I1).
    destruct (IH m s1 H F2 I1) as (s' & E' & I'). exists s'. cbn [updates]. rewrite E1. split; [exact E'|]. rewrite VarFlowProofs.last_cons. exact I'.
  Qed.
  Lemma history_last ms (m m0 : momentT) : live_history resolve_name placeholder decode unset_code loadedT nodes m0 (ms ++ [m]) -> saneT m.
  Proof. revert m0. induction ms as [|x ms IH]; intros m0 H; [apply H|]. destruct H as (_ & _ & H). exact (IH x H). Qed.
  Lemma live_computed mf (m : momentT) s n p : (forall x, parsed x -> forall k, matches_selector (l_world m) mf x k = true <-> sat (l_world m) x None k) ->
    saneT m -> LInv mf m s -> In n (l_alive m) -> p < np ->
    let value := css feq fle fge resolve_name placeholder initial decode unset_code loadedT (situation_of m) in
    value p n (Inherit.computed (Pipeline.world (lv_pipe s) n) p) /\ forall c, value p n c -> c = Inherit.computed (Pipeline.world (lv_pipe s) n) p.
  Proof.
    intros Ha S (needs & rules & a & _ & Hr & I & _ & _) Hn Hp value. assert (Us : forall n b, l_sheet m n = Some b -> usable b) by apply S.
    assert (OK : forall k c, value p k c <-> PipelineSpec.css_value initial decode unset_code (Pipeline.p_flow (frameT m needs rules)) p k c).
    { intros k c. unfold value. rewrite <- (css_ok feq fle fge resolve_name type_ok path_ok placeholder initial decode unset_code mf (situation_of m) Ha Us).
      assert (K : alike (Pipeline.p_flow (frame_of feq fle fge resolve_name type_ok path_ok placeholder mf (situation_of m))) (Pipeline.p_flow (frameT m needs rules))) by (split; try reflexivity; exact Hr).
      split; apply css_alike; [apply alike_sym; exact K|exact K]. }
    assert (W : PipelineSpec.well_behaved decode unset_code nodes (frameT m (fun _ => true) rules)) by (eapply frame_well; eauto).
    pose proof (PipelineProofs.computed_css np initial decode unset_code nodes (frameT m (fun _ => true) rules) a (lv_pipe s) n p W) as Hc.
    assert (I' : PipelineProofs.Inv np initial decode unset_code nodes (frameT m (fun _ => true) rules) a (lv_pipe s)) by (destruct I; split; assumption).
    specialize (Hc I' Hn Hp). assert (Hc' : value p n (Inherit.computed (Pipeline.world (lv_pipe s) n) p)).
    { apply OK. eapply css_alike; [|exact Hc]. split; reflexivity. }
    split; [exact Hc'|]. intros c' H'. apply OK in Hc', H'. eapply PipelineProofs.css_value_fun; eauto.
  Qed.
  Lemma live_result mf (m : momentT) s n p : (forall x, parsed x -> forall k, matches_selector (l_world m) mf x k = true <-> sat (l_world m) x None k) ->
    saneT m -> LInv mf m s -> In n (l_alive m) -> p < np ->
    let value := css feq fle fge resolve_name placeholder initial decode unset_code loadedT (situation_of m) in
    (exists! c, value p n c) /\ forall v, value p n (Inherit.CVal v) -> Pipeline.shown (lv_pipe s) n p = v.
  Proof.
    intros Ha S HI Hn Hp value. destruct (live_computed mf m s n p Ha S HI Hn Hp) as [Hc Hu]. fold value in Hc, Hu.
    split.
    - exists (Inherit.computed (Pipeline.world (lv_pipe s) n) p). split; [exact Hc|]. intros c' H'. symmetry. exact (Hu c' H').
    - intros v Hv. destruct HI as (needs & rules & a & _ & _ & I & _ & _). apply (PipelineProofs.i_shown _ _ _ _ _ _ _ _ I n p v Hn Hp). symmetry. exact (Hu _ Hv).
  Qed.
End Live.
