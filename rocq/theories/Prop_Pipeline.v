(** C87: what a whole update leaves in the components. *)
From Verif Require Import Base Tree TreeSpec Vars VarsSpec.
From Verif Require VarFlow VarFlowSpec VarFlowProofs Inherit InheritSpec Prop_VarFlow.
From Verif Require Import Pipeline PipelineSpec PipelineProofs.

(** C87.  Start an application with any components, and let any number of updates happen, in which nodes are spawned, despawned and moved, and
    classes, inline styles and sheets change.  After the last one, every property of every node has exactly one CSS value - by the rules that
    match now, the custom properties declared now above the node, and the values of the nodes above - and if that is a value, it is what the
    component shows.
    Partial: for the histories of [from_start] (PipelineSpec.v), which leaves out the known defects C14_*_refuted and C84_*_refuted; no transitions,
    animations and placeholders. *)
Theorem C87_components_show_css_partial :
  forall (V : Type) (veq : forall a b : V, {a = b} + {a <> b}) np initial (decode : nat -> Inherit.pvalue V) unset_code nodes fs f,
  (forall p, decode (unset_code p) <> Inherit.PUnset) -> from_start decode unset_code nodes (fs ++ [f]) ->
  exists n0, forall fuel, n0 <= fuel -> forall before, exists s,
    updates veq np initial decode unset_code nodes fuel (fs ++ [f]) (start before) = Some s /\
    forall n p, In n (p_alive f) -> p < np ->
      (exists! c, css_value initial decode unset_code (p_flow f) p n c) /\
      forall v, css_value initial decode unset_code (p_flow f) p n (Inherit.CVal v) -> shown s n p = v.
Proof.
  intros V veq np initial decode unset_code nodes fs f Hu Hh. destruct (from_start_next veq np initial decode unset_code nodes Hu fs f Hh) as [n0 H]. exists n0. intros fuel Hf bef.
  destruct (H fuel Hf bef) as (a & s & vs & E & I & Hw & Hn & Hfu). destruct (step_inv veq np initial decode unset_code nodes Hu _ f a s fuel vs I Hw Hn Hfu) as (b & s' & E' & I' & Hs).
  exists s'. rewrite updates_app, E. split; [exact E'|]. intros n p Hna Hp. pose proof (computed_css np initial decode unset_code nodes f b s' n p Hw I' Hna Hp) as Hc. split.
  - exists (Inherit.computed (world s' n) p). split; [exact Hc|]. intros c' Hc'. eapply css_value_fun; eauto.
  - intros v Hv. rewrite (Hs n p Hna Hp). rewrite (css_value_fun initial decode unset_code _ _ _ _ Hc _ Hv). reflexivity.
Qed.
Print Assumptions C87_components_show_css_partial.

(** The result does not depend on the history: two applications that end with the same tree, rules, sheets and inline styles show the same
    values, wherever CSS gives one. *)
Theorem C87_no_history_partial :
  forall (V : Type) (veq : forall a b : V, {a = b} + {a <> b}) np initial (decode : nat -> Inherit.pvalue V) unset_code nodes fs1 f1 fs2 f2,
  (forall p, decode (unset_code p) <> Inherit.PUnset) -> from_start decode unset_code nodes (fs1 ++ [f1]) -> from_start decode unset_code nodes (fs2 ++ [f2]) ->
  VarFlow.f_forest (p_flow f1) = VarFlow.f_forest (p_flow f2) -> VarFlow.f_sheet (p_flow f1) = VarFlow.f_sheet (p_flow f2) ->
  VarFlow.f_rules (p_flow f1) = VarFlow.f_rules (p_flow f2) -> VarFlow.f_inline (p_flow f1) = VarFlow.f_inline (p_flow f2) ->
  exists n0, forall fuel, n0 <= fuel -> forall before1 before2, exists s1 s2,
    updates veq np initial decode unset_code nodes fuel (fs1 ++ [f1]) (start before1) = Some s1 /\
    updates veq np initial decode unset_code nodes fuel (fs2 ++ [f2]) (start before2) = Some s2 /\
    forall n p, In n (p_alive f1) -> In n (p_alive f2) -> p < np ->
      shown s1 n p = shown s2 n p \/ css_value initial decode unset_code (p_flow f1) p n Inherit.CNone.
Proof.
  intros V veq np initial decode unset_code nodes fs1 f1 fs2 f2 Hu H1 H2 E1 E2 E3 E4.
  destruct (C87_components_show_css_partial V veq np initial decode unset_code nodes fs1 f1 Hu H1) as [n1 K1]. destruct (C87_components_show_css_partial V veq np initial decode unset_code nodes fs2 f2 Hu H2) as [n2 K2].
  exists (n1 + n2). intros fuel Hf b1 b2. destruct (K1 fuel ltac:(lia) b1) as (s1 & U1 & S1). destruct (K2 fuel ltac:(lia) b2) as (s2 & U2 & S2). exists s1, s2. split; [exact U1|]. split; [exact U2|].
  intros n p A1 A2 Hp. destruct (S1 n p A1 Hp) as [(c & Hc & _) W1]. destruct (S2 n p A2 Hp) as [_ W2]. destruct c as [|v]; [right; exact Hc|left]. rewrite (W1 v Hc). symmetry. apply W2.
  clear - Hc E1 E2 E3 E4. destruct (p_flow f1), (p_flow f2). cbn in *. subst.
  assert (D : forall g h g' h' k k' o o' m d, declares decode unset_code (VarFlow.mk_frame f_forest0 f_sheet0 f_rules0 f_inline0 g h k o) p m d -> declares decode unset_code (VarFlow.mk_frame f_forest0 f_sheet0 f_rules0 f_inline0 g' h' k' o') p m d) by (intros; assumption).
  induction Hc as [m E|m d c Ep Hd Hm|m q d cm c Ep Hq IH Hd Hm]; [apply cv_unstyled; exact E|eapply cv_root; [exact Ep|eapply D; exact Hd|exact Hm]|eapply cv_child; [exact Ep|exact IH|eapply D; exact Hd|exact Hm]].
Qed.
Print Assumptions C87_no_history_partial.

(** Where CSS gives no value, nothing is written: the component keeps what it showed, except that a property that had a value gets its initial
    value when the sheet of the node is modified. *)
Theorem C87_no_value_partial :
  forall (V : Type) (veq : forall a b : V, {a = b} + {a <> b}) np initial (decode : nat -> Inherit.pvalue V) unset_code nodes fs f0 f,
  (forall p, decode (unset_code p) <> Inherit.PUnset) -> from_start decode unset_code nodes ((fs ++ [f0]) ++ [f]) ->
  exists n0, forall fuel, n0 <= fuel -> forall before, exists s0 s,
    updates veq np initial decode unset_code nodes fuel (fs ++ [f0]) (start before) = Some s0 /\
    updates veq np initial decode unset_code nodes fuel ((fs ++ [f0]) ++ [f]) (start before) = Some s /\
    forall n p, In n (p_alive f0) -> In n (p_alive f) -> p < np -> css_value initial decode unset_code (p_flow f) p n Inherit.CNone ->
      (VarFlow.f_modified (p_flow f) n = false \/ css_value initial decode unset_code (p_flow f0) p n Inherit.CNone -> shown s n p = shown s0 n p) /\
      (VarFlow.f_modified (p_flow f) n = true -> forall v, css_value initial decode unset_code (p_flow f0) p n (Inherit.CVal v) -> shown s n p = initial p).
Proof.
  intros V veq np initial decode unset_code nodes fs f0 f Hu Hh. destruct (from_start_next veq np initial decode unset_code nodes Hu (fs ++ [f0]) f Hh) as [n0 H].
  assert (Hh0 : from_start decode unset_code nodes (fs ++ [f0])).
  { assert (K : forall l x, history decode unset_code nodes x (l ++ [f]) -> history decode unset_code nodes x l) by (induction l as [|y l IH]; intros x Hx; [exact I|]; destruct Hx as (A & B & C); exact (conj A (conj B (IH y C)))).
    destruct fs as [|x fs]; cbn [app from_start] in *; destruct Hh as (A & B & C); (split; [exact A|]; split; [exact B|]); [exact I|apply K; exact C]. }
  pose proof (from_start_well veq np initial decode unset_code nodes Hu fs f0 Hh0) as Hw0.
  exists n0. intros fuel Hf bef. destruct (H fuel Hf bef) as (a & s & vs & E & I & Hw & Hn & Hfu). destruct (step_inv veq np initial decode unset_code nodes Hu _ f a s fuel vs I Hw Hn Hfu) as (b & s' & E' & I' & Hs).
  exists s, s'. split; [exact E|]. rewrite updates_app, E. split; [exact E'|]. intros n p H0 H1 Hp Hc. rewrite last_last in I.
  pose proof (computed_css np initial decode unset_code nodes f b s' n p Hw I' H1 Hp) as Hc1. pose proof (computed_css np initial decode unset_code nodes f0 a s n p Hw0 I H0 Hp) as Hc0.
  rewrite (Hs n p H1 Hp). rewrite (css_value_fun initial decode unset_code _ _ _ _ Hc1 _ Hc). unfold initial_again. split.
  - intros [->|Hz]; [reflexivity|]. rewrite (css_value_fun initial decode unset_code _ _ _ _ Hc0 _ Hz). cbn. rewrite andb_false_r. reflexivity.
  - intros -> v Hz. rewrite (css_value_fun initial decode unset_code _ _ _ _ Hc0 _ Hz). reflexivity.
Qed.
Print Assumptions C87_no_value_partial.

(** ** A concrete application: 0 and 1 are roots, 2 is below 0, 3 is below 2 (Prop_VarFlow.under 0); property 0 is inherited by default, property 1
    has no value by default.  At 2: p0: var(--7); the root 0 declares --7 with one of two rules. *)
Definition dec (k : nat) : Inherit.pvalue nat :=
  match k with 0 => Inherit.PNone | 1 => Inherit.PUnset | 2 => Inherit.PInherit | 3 => Inherit.PInitial | S (S (S (S n))) => Inherit.PVal n end.
Definition unsets (p : nat) : nat := match p with 0 => 2 | _ => 0 end.
Definition one_value : list nat -> option (list (nat * nat)) := fun out => match out with [x] => Some [(0, x)] | _ => None end.
Definition css : VarFlow.sheet := fun i =>
  match i with 0 => VarFlow.mk_ruleset [(7, [Tok 14])] [] | 1 => VarFlow.mk_ruleset [(7, [Tok 24])] [VarFlow.Specific 1 34] | 2 => VarFlow.mk_ruleset [] [VarFlow.Dynamic one_value [Var 7]]
          | _ => VarFlow.mk_ruleset [] [] end.
Definition rules (top : nat) : nat -> list nat := fun n => match n with 0 => [top] | 2 => [2] | _ => [] end.
Definition sheets (n : nat) : option VarFlow.sheet := match n with 0 | 1 | 2 | 3 => Some css | _ => None end.
Definition app (top : nat) (marked reset : nat -> bool) : frame :=
  mk_frame (VarFlow.mk_frame (Prop_VarFlow.under 0) sheets (rules top) Prop_VarFlow.no_inline Prop_VarFlow.none Prop_VarFlow.none marked Prop_VarFlow.none) [0; 1; 2; 3] reset.
Lemma app_sees top marked reset n r : VarFlowSpec.sees (p_flow (app top marked reset)) n r -> top < 2 -> n = 2 -> r 7 = Some [Tok (14 + 10 * top)].
Proof.
  intros (o & Ho & Hr) Ht ->. specialize (Hr 7).
  assert (H2 : o 2 7 = None). { specialize (Ho 2 7). destruct (o 2 7) as [x|]; [|reflexivity]. destruct Ho as (l1 & l2 & E & _). destruct l1; discriminate. }
  assert (H0 : o 0 7 = Some [Tok (14 + 10 * top)]).
  { specialize (Ho 0 7). destruct (o 0 7) as [x|].
    - destruct Ho as (l1 & l2 & E & _). destruct top as [|[|top]]; [| |lia]; cbn in E; (destruct l1 as [|? [|? ?]]; [injection E as <- _; reflexivity|discriminate|discriminate]).
    - exfalso. apply Ho. destruct top as [|[|top]]; [| |lia]; cbn; auto. }
  inversion Hr as [e x E|e q x E Ep Hn|e E Ep]; subst; [congruence| |cbn in Ep; discriminate]. cbn in Ep. injection Ep as <-.
  inversion Hn as [e y E'|e q' y E' Ep' Hn'|e E' Ep']; subst; congruence.
Qed.
Lemma app_well top marked reset : top < 2 -> (forall n, reset n = true) \/ (forall n, reset n = false) -> well_behaved dec unsets [0; 1; 2; 3] (app top marked reset).
Proof.
  intros Ht Hr. split; [apply Prop_VarFlow.under_wf; lia|]. split; [constructor; [cbn; lia|]; constructor; [cbn; lia|]; constructor; [cbn; lia|]; constructor; [intros []|constructor]|].
  split; [apply Prop_VarFlow.under_in; lia|]. split; [intros n Hn; exact Hn|]. split; [intros n Hn; destruct n as [|[|[|[|n]]]]; cbn in *; try tauto; exfalso; apply Hn; reflexivity|]. split.
  - intros n c r d p v Ec Hs Hd Hg Hv. destruct p as [|p]; [|discriminate]. exfalso. cbn in Ec. assert (c = css) as -> by (destruct n as [|[|[|[|n]]]]; inversion Ec; reflexivity).
    assert (Hcase : d = VarFlow.Specific 1 34 \/ n = 2 /\ d = VarFlow.Dynamic one_value [Var 7]).
    { unfold VarFlowSpec.declarations in Hd. cbn in Hd. rewrite app_nil_r in Hd. destruct n as [|[|[|n]]]; cbn in Hd.
      - destruct top as [|[|top]]; cbn in Hd; [contradiction| |lia]; destruct Hd as [<-|[]]; auto.
      - contradiction.
      - destruct Hd as [<-|[]]; auto.
      - contradiction. }
    destruct Hcase as [-> |[-> ->]]; [cbn in Hg; destruct Hg; discriminate|]. apply VarFlowProofs.gives_get in Hg. pose proof (app_sees top marked reset 2 r Hs Ht eq_refl) as Er.
    cbn in Hg. unfold resolve_recursively in Hg. cbn in Hg. rewrite Er in Hg. destruct top as [|[|top]]; [| |lia]; cbn in Hg; injection Hg as <-; discriminate.
  - intros n m _ [H|H]; [discriminate|]. left. destruct Hr as [Hr|Hr]; [apply Hr|rewrite Hr in H; discriminate].
Qed.
(** two updates: everything is spawned; then another rule matches the root, and nothing else is noticed *)
Definition story : list frame := [app 0 Prop_VarFlow.none (fun _ => true); app 1 (Nat.eqb 0) (fun _ => false)].
Lemma story_ok : from_start dec unsets [0; 1; 2; 3] story.
Proof.
  cbn [from_start story history]. split; [apply app_well; [lia|left; reflexivity]|]. split; [reflexivity|]. split; [apply app_well; [lia|right; reflexivity]|]. split; [|exact I].
  split; [|split; [|split; [|split]]].
  - intros n _. split; [intros _; split; reflexivity|]. intros Hn _. split; [reflexivity|]. destruct n as [|n]; [exfalso; apply Hn; right; right; reflexivity|reflexivity].
  - intros n d H. exfalso. apply H. reflexivity.
  - intros n _ H. exact H.
  - intros n d H. discriminate.
  - intros n H1 H2. contradiction.
Qed.
(** the change of --7 at the root reaches node 2, and by inheritance node 3, in the same update; p1 of node 0 gets its value, p1 of node 2 keeps what it was spawned with *)
Example C87_example : forall V2 : nat, V2 = 77 ->
  let run fs := updates Nat.eq_dec 2 (fun _ => 0) dec unsets [0; 1; 2; 3] 20 fs (start (fun _ _ => V2)) in
  option_map (fun s => (shown s 2 0, shown s 3 0, shown s 0 1, shown s 2 1)) (run (firstn 1 story)) = Some (10, 10, 77, 77) /\
  option_map (fun s => (shown s 2 0, shown s 3 0, shown s 0 1, shown s 2 1)) (run story) = Some (20, 20, 30, 77).
Proof. intros V2 ->. split; vm_compute; reflexivity. Qed.
(** ... and these are the CSS values *)
Example C87_example_css : css_value (fun _ => 0) dec unsets (p_flow (app 1 (Nat.eqb 0) (fun _ => false))) 0 3 (Inherit.CVal 20).
Proof.
  destruct (C87_components_show_css_partial nat Nat.eq_dec 2 (fun _ => 0) dec unsets [0; 1; 2; 3] (firstn 1 story) (app 1 (Nat.eqb 0) (fun _ => false))) as [n0 H].
  - intros [|p]; discriminate.
  - exact story_ok.
  - destruct (H (n0 + 20) ltac:(lia) (fun _ _ => 77)) as (s & E & Hs). destruct (Hs 3 0) as [(c & Hc & _) Hv]; [cbn; tauto|lia|]. destruct c as [|v].
    + exfalso. revert Hc. clear. intros Hc. inversion Hc as [n E|n d c Ep Hd Hm|n m d cm c Ep Hq Hd Hm]; subst; [discriminate|discriminate|].
      cbn in Ep. injection Ep as <-. destruct Hd as (c & r & v & Ec & _ & Hv & ->). cbn in Ec. injection Ec as <-.
      destruct Hv as [(l1 & x & l2 & E & _)|[_ ->]]; [destruct l1; discriminate|]. cbn in Hm. inversion Hm as [|? Em| | | |]; subst; [|discriminate]. injection Em as ->.
      inversion Hq as [n E|n d c Ep' Hd Hm'|n m d cm c Ep' Hq' Hd Hm']; subst; [discriminate|discriminate|]. cbn in Ep'. injection Ep' as <-. destruct Hd as (c2 & r2 & v & Ec & Hs & Hv & ->). cbn in Ec. injection Ec as <-.
      pose proof (app_sees 1 (Nat.eqb 0) (fun _ => false) 2 r2 Hs ltac:(lia) eq_refl) as Er.
      assert (Hg : VarFlowSpec.gives r2 (VarFlow.Dynamic one_value [Var 7]) 0 24) by (apply VarFlowProofs.gives_get; cbn; unfold resolve_recursively; cbn; rewrite Er; reflexivity).
      assert (v = 24) as ->. { eapply VarFlowProofs.value_det; [exact Hv|]. left. exists [], (VarFlow.Dynamic one_value [Var 7]), []. split; [reflexivity|]. split; [exact Hg|intros ? []]. }
      cbn in Hm'. inversion Hm'.
    + rewrite <- (Hv v Hc) in Hc. clear Hv. 
      assert (Es : shown s 3 0 = 20).
      { revert E. rewrite (Nat.add_comm n0). generalize n0. clear. intros k E.
        assert (E' : option_map (fun s => shown s 3 0) (updates Nat.eq_dec 2 (fun _ => 0) dec unsets [0; 1; 2; 3] (20 + k) (firstn 1 story ++ [app 1 (Nat.eqb 0) (fun _ => false)]) (start (fun _ _ => 77))) = Some 20) by (vm_compute; reflexivity).
        rewrite E in E'. injection E' as E'. exact E'. }
      rewrite Es in Hc. exact Hc.
Qed.
