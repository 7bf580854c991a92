(** C96: properties set their own place of a component and nothing else.  C97: the ways of applying them agree. *)
From Coq Require Import Ascii String.
From Coq Require Import NArith.
From Verif Require Import Base Reflect ReflectSpec ReflectProofs.
Open Scope nat_scope.
Open Scope string_scope.
Open Scope list_scope.

Definition gives_some (vals : list (option rv)) : Prop := exists v, In (Some v) vals.
Lemma some_set_iff vals : some_set vals = true <-> gives_some vals.
Proof.
  unfold some_set, gives_some. rewrite existsb_exists. split; [intros ([v|] & Hi & E); [eauto | discriminate] | intros (v & Hi); eauto].
Qed.

(** After the values of a component's properties are applied to an entity and the queue has run: nothing fails, all values
    are used up, other components are as before; the component, if there, has the properties set and is otherwise the
    same; if it is not there, and registered for automatic insertion, and some value is given, the default with the
    properties set is inserted and announced once; otherwise nothing happens. *)
Theorem C96_set_properties : forall t d r e vals,
  proper t -> declares t d -> r_props r = properties_of d -> typed t (r_default r) -> (forall c, comps e (r_type r) = Some c -> typed t c) ->
  Forall2 value_for (r_props r) vals ->
  exists e1 rest q, apply_values_mut r e vals = (e1, rest, q, true) /\ (comps e (r_type r) <> None \/ r_auto r = true -> rest = map (fun _ => None) vals) /\
    let e' := flush q e1 in
    (forall ty, ty <> r_type r -> comps e' ty = comps e ty) /\
    (forall c, comps e (r_type r) = Some c -> exists c', comps e' (r_type r) = Some c' /\ typed t c' /\ set_properties (r_props r) vals c c' /\ seen e' = seen e) /\
    (comps e (r_type r) = None -> r_auto r = true -> gives_some vals ->
       exists c', comps e' (r_type r) = Some c' /\ typed t c' /\ set_properties (r_props r) vals (r_default r) c' /\ seen e' = seen e ++ [r_type r]) /\
    (comps e (r_type r) = None -> r_auto r = false \/ ~ gives_some vals -> comps e' (r_type r) = None /\ seen e' = seen e).
Proof.
  intros t d r e vals Ht Hd Hr Hdef Hc Hv. pose proof (declares_sound t d Hd) as Hs. rewrite <- Hr in Hs.
  assert (forall c, set_properties (r_props r) vals c c \/ some_set vals = true) as Hid.
  { intros c. destruct (some_set vals) eqn:Es; [right; reflexivity | left]. split; [|reflexivity]. intros p v (i & _ & Ev). apply nth_error_In in Ev. assert (some_set vals = true) as Ht' by (apply some_set_iff; exists v; exact Ev). congruence. }
  unfold apply_values_mut, apply_values_ref. destruct (comps e (r_type r)) as [c|] eqn:Ec.
  - destruct (internal_apply_typed t Ht _ _ Hs Hv c false (Hc c eq_refl)) as (c' & E & Hc' & Hset). rewrite E. cbn [orb].
    destruct (r_mutable r); cbn [negb].
    + eexists _, _, []. split; [reflexivity|]. split; [reflexivity|]. cbn. split; [intros ty Hty; apply N.eqb_neq in Hty; rewrite Hty; reflexivity|].
      split; [|split; discriminate]. intros c0 [= <-]. rewrite N.eqb_refl. eauto 10.
    + destruct (some_set vals) eqn:Es; (eexists _, _, _; split; [reflexivity|]); (split; [reflexivity|]); cbn.
      * split; [intros ty Hty; apply N.eqb_neq in Hty; rewrite Hty; reflexivity|]. split; [|split; discriminate]. intros c0 [= <-]. rewrite N.eqb_refl. eauto 10.
      * split; [reflexivity|]. split; [|split; discriminate]. intros c0 [= <-]. exists c. split; [exact Ec|]. split; [apply Hc; reflexivity|]. split; [|reflexivity]. destruct (Hid c); [assumption | congruence].
  - destruct (internal_apply_typed t Ht _ _ Hs Hv _ false Hdef) as (c' & E & Hc' & Hset). rewrite E. cbn [orb].
    destruct (r_auto r) eqn:Ea; [destruct (some_set vals) eqn:Es|].
    + assert (gives_some vals) as Hg by (apply some_set_iff; exact Es).
      exists e, (map (fun _ => None) vals), [Insert (r_type r) c'; Event (r_type r)]. split; [destruct (r_mutable r); reflexivity|]. split; [reflexivity|]. cbn.
      split; [intros ty Hty; apply N.eqb_neq in Hty; rewrite Hty; reflexivity|]. split; [discriminate|]. split; [intros; rewrite N.eqb_refl; eauto 10|]. intros _ [? | ?]; [discriminate | contradiction].
    + exists e, (map (fun _ => None) vals), []. split; [destruct (r_mutable r); reflexivity|]. split; [reflexivity|]. cbn. split; [reflexivity|]. split; [discriminate|]. split; [|intros; auto].
      intros _ _ Hg. apply some_set_iff in Hg. congruence.
    + exists e, vals, []. split; [destruct (r_mutable r); reflexivity|]. split; [intros [? | ?]; congruence|]. cbn. split; [reflexivity|]. split; [discriminate|]. split; [discriminate | auto].
Qed.

(** A property that is set shows the value, if its type has no lists... *)
Theorem C96_value_shows_partial : forall t d vals c c' p v, proper t -> declares t d -> typed t c -> set_properties (properties_of d) vals c c' ->
  given (properties_of d) vals p v -> typed (p_type p) v -> without_lists (p_type p) -> get_value p c' = Some v.
Proof.
  intros t d vals c c' p v Ht Hd Hc (H1 & _) Hg Hv Hw. destruct (H1 p v Hg) as (o & n & Eo & Ho & En). unfold get_value. rewrite En. f_equal.
  destruct (declares_sound t d Hd) as (S1 & _). destruct Hg as (i & Ep & _). apply nth_error_In in Ep. destruct (element_typed _ _ _ _ (S1 p Ep) Hc) as (o' & Eo' & Hto).
  rewrite Eo in Eo'. injection Eo' as <-. apply (shows_iff_fits _ _ _ Ho). eapply without_lists_fits; eauto.
Qed.
(** ...and otherwise exactly if no list of the value is shorter than the one that was there. *)
Theorem C96_value_shows_iff : forall ps vals c c' p v, set_properties ps vals c c' -> given ps vals p v ->
  forall o, get_value p c = Some o -> get_value p c' = Some v <-> fits o v.
Proof.
  intros ps vals c c' p v (H1 & _) Hg o Eo. destruct (H1 p v Hg) as (o' & n & Eo' & Ho & En). unfold get_value in *. rewrite Eo in Eo'. injection Eo' as <-. rewrite En.
  rewrite <- (shows_iff_fits _ _ _ Ho). split; congruence.
Qed.
(** Properties without a value keep theirs. *)
Theorem C96_others_keep : forall t d vals c c' p, declares t d -> set_properties (properties_of d) vals c c' -> In p (properties_of d) ->
  (forall v, ~ given (properties_of d) vals p v) -> get_value p c' = get_value p c.
Proof.
  intros t d vals c c' p Hd (_ & H2) Hp Hn. apply H2. intros q v Hq. destruct (declares_sound t d Hd) as (_ & S2). apply In_nth_error in Hp as (j & Ej). destruct Hq as (i & Ei & Ev).
  apply (S2 i j q p); auto. intros ->. apply (Hn v). exists j. split; [exact Ej | exact Ev].
Qed.
(** `initial`: setting every property to its initial value gives each the value it has in the default component. *)
Theorem C96_initial_partial : forall t d r c, proper t -> declares t d -> r_props r = properties_of d -> typed t (r_default r) -> typed t c ->
  Forall (fun p => without_lists (p_type p)) (r_props r) ->
  exists c', internal_apply (r_props r) c (initial_values r) false = (c', map (fun _ => None) (initial_values r), Some (some_set (initial_values r))) /\
    forall p, In p (r_props r) -> get_value p c' = get_value p (r_default r).
Proof.
  intros t d r c Ht Hd Hr Hdef Hc Hw. pose proof (declares_sound t d Hd) as (S1 & S2).
  assert (forall p, In p (properties_of d) -> exists v, get_value p (r_default r) = Some v /\ typed (p_type p) v) as Hg by (intros p Hp; apply (element_typed _ t); auto).
  assert (Forall2 value_for (r_props r) (initial_values r)) as Hv.
  { unfold initial_values. rewrite Hr. clear - Hg. induction (properties_of d) as [|p ps IH]; cbn; constructor.
    - destruct (Hg p (or_introl eq_refl)) as (v & -> & Hv). exact Hv.
    - apply IH. intros q Hq. apply Hg. right. exact Hq. }
  rewrite Hr in Hv, Hw |- *. destruct (internal_apply_typed t Ht _ _ (conj S1 S2) Hv c false Hc) as (c' & E & Hc' & Hset). exists c'. split; [exact E|].
  intros p Hp. destruct (Hg p Hp) as (v & Ev & Htv). rewrite Ev. eapply (C96_value_shows_partial t d (initial_values r) c c' p v); eauto; [|rewrite Forall_forall in Hw; apply Hw; assumption].
  destruct (In_nth_error _ _ Hp) as (i & Ei). exists i. split; [exact Ei|]. unfold initial_values. rewrite Hr. rewrite nth_error_map, Ei. cbn. rewrite Ev. reflexivity.
Qed.

(** A component like bevy's Node, with fields, nested fields and one that is not a property. *)
Definition rect : ty := TFields false [("left", TOpaque 1); ("top", TOpaque 1)].
Definition ex_type : ty := TFields false [("display", TEnum [("Flex", []); ("Grid", [])]); ("margin", rect); ("rows", TList (TOpaque 2)); ("extra", TOpaque 3)].
Definition ex_decl : declaration := Listed [Leaf "display" (TEnum [("Flex", []); ("Grid", [])]); Nested "margin" [Leaf "left" (TOpaque 1); Leaf "top" (TOpaque 1)]; Leaf "rows" (TList (TOpaque 2))].
Definition ex_comp (display : string) (l tp : N) (rows : list N) : rv :=
  Fields false [("display", Variant display []); ("margin", Fields false [("left", Opaque 1 l); ("top", Opaque 1 tp)]); ("rows", ListV (map (Opaque 2) rows)); ("extra", Opaque 3 9)].
Definition ex_reg : registration := mkregistration 7 (properties_of ex_decl) (ex_comp "Flex" 0 0 []) true true.
Lemma ex_typed display l tp rows : display = "Flex" \/ display = "Grid" -> typed ex_type (ex_comp display l tp rows).
Proof.
  intros Hd. constructor. constructor; [destruct Hd as [-> | ->]; (econstructor; [reflexivity | constructor])|].
  constructor; [repeat constructor|]. constructor; [constructor; induction rows; constructor; [constructor | assumption]|]. repeat constructor.
Qed.
Example C96_example : proper ex_type /\ declares ex_type ex_decl /\ typed ex_type (r_default ex_reg) /\
  map (fun p => show_path (p_path p)) (r_props ex_reg) = [".display"; ".margin.left"; ".margin.top"; ".rows"] /\
  fst (fst (internal_apply (r_props ex_reg) (ex_comp "Flex" 1 2 [5%N]) [Some (Variant "Grid" []); None; Some (Opaque 1 8); Some (ListV [Opaque 2 6; Opaque 2 7])] false)) = ex_comp "Grid" 1 8 [6; 7]%N.
Proof.
  split; [|split; [|split; [apply ex_typed; auto | split; reflexivity]]].
  - constructor; [repeat (constructor; [cbn; intuition discriminate|]); constructor|].
    repeat constructor; cbn; intuition discriminate.
  - constructor; [repeat (constructor; [cbn; intuition discriminate|]); constructor|]. constructor; [constructor; reflexivity|]. constructor; [|constructor; [constructor; reflexivity | constructor]].
    econstructor; [reflexivity | repeat (constructor; [cbn; intuition discriminate|]); constructor | repeat constructor].
Qed.
(** Lists do not get shorter: three tracks followed by one, or by none, are still three tracks. *)
Theorem C96_lists_refuted : exists t d c v vals c', proper t /\ declares t d /\ typed t c /\ Forall2 value_for (properties_of d) vals /\
  internal_apply (properties_of d) c vals false = (c', map (fun _ => None) vals, Some true) /\
  exists p, given (properties_of d) vals p v /\ get_value p c' <> Some v /\ get_value p c' = get_value p c.
Proof.
  exists ex_type, ex_decl, (ex_comp "Grid" 0 0 [1; 2; 3]%N), (ListV []), [None; None; None; Some (ListV [])], (ex_comp "Grid" 0 0 [1; 2; 3]%N).
  split; [apply C96_example|]. split; [apply C96_example|]. split; [apply ex_typed; auto|]. split; [repeat constructor|]. split; [reflexivity|].
  exists (mkproperty ["rows"] (TList (TOpaque 2))). split; [exists 3; split; reflexivity|]. split; [discriminate | reflexivity].
Qed.

(** ** C97 *)
Definition same_entity (e e' : entity) : Prop := (forall ty, comps e ty = comps e' ty) /\ seen e = seen e'.
Lemma internal_apply_none ps : forall c vals c' vals', internal_apply ps c vals false = (c', vals', Some false) -> c' = c.
Proof.
  assert (forall ps c vals c' vals', internal_apply ps c vals true <> (c', vals', Some false)) as Ht.
  { induction ps0 as [|p ps0 IH]; intros c [|[v|] vals] c' vals' E; cbn in E; try discriminate.
    - destruct (apply_value p c v) as [c1|]; [|discriminate]. destruct (internal_apply ps0 c1 vals true) as ((c2 & v2) & r) eqn:E2. injection E as E3 E4 E5; subst. eapply IH; eauto.
    - destruct (internal_apply ps0 c vals true) as ((c2 & v2) & r) eqn:E2. injection E as E3 E4 E5; subst. eapply IH; eauto. }
  induction ps as [|p ps IH]; intros c [|[v|] vals] c' vals' E; cbn in E; try (injection E as <- <-; reflexivity).
  - destruct (apply_value p c v) as [c1|]; [|discriminate]. destruct (internal_apply ps c1 vals true) as ((c2 & v2) & r) eqn:E2. injection E as E3 E4 E5; subst. exfalso. eapply Ht; eauto.
  - destruct (internal_apply ps c vals false) as ((c2 & v2) & r) eqn:E2. injection E as E3 E4 E5; subst. eapply IH; eauto.
Qed.
(** If the values can be applied, applying them directly, to an entity with a queue, or only with a queue, leaves the same
    values and, after the queue has run, the same components and the same events. *)
Theorem C97_same_result_partial : forall r e vals rest q, apply_values_ref r e vals = (rest, q, true) ->
  (exists e1 q1, apply_values_mut r e vals = (e1, rest, q1, true) /\ same_entity (flush q1 e1) (flush q e)) /\
  (exists e2, apply_values_world_mut r e vals = (e2, rest, true) /\ same_entity e2 (flush q e)).
Proof.
  intros r e vals rest q H. unfold apply_values_mut, apply_values_world_mut. destruct (r_mutable r); cbn [negb].
  2:{ rewrite H. split; [exists e, q | eexists]; (split; [reflexivity|]); split; reflexivity. }
  unfold apply_values_ref in H. destruct (comps e (r_type r)) as [c|] eqn:Ec.
  - destruct (internal_apply (r_props r) c vals false) as ((c' & vals') & [[|]|]) eqn:E; injection H as <- <-; try discriminate.
    + split; [eexists _, _ | eexists]; (split; [reflexivity|]); split; reflexivity.
    + apply internal_apply_none in E as ->. assert (same_entity (with_comp e (r_type r) (Some c)) e) as Hs.
      { split; [|reflexivity]. intros ty. cbn. destruct (N.eqb_spec ty (r_type r)) as [->|]; congruence. }
      split; [eexists _, _ | eexists]; (split; [reflexivity|]); exact Hs.
  - destruct (r_auto r).
    + destruct (internal_apply (r_props r) (r_default r) vals false) as ((c' & vals') & [[|]|]) eqn:E; injection H as <- <-; try discriminate;
        (split; [eexists _, _ | eexists]; (split; [reflexivity|]); split; reflexivity).
    + injection H as <- <-. split; [eexists _, _ | eexists]; (split; [reflexivity|]); split; reflexivity.
Qed.
(** Values of the right types can be applied. *)
Theorem C97_typed_values_succeed : forall t d r e vals, proper t -> declares t d -> r_props r = properties_of d -> typed t (r_default r) ->
  (forall c, comps e (r_type r) = Some c -> typed t c) -> Forall2 value_for (r_props r) vals -> exists rest q, apply_values_ref r e vals = (rest, q, true).
Proof.
  intros t d r e vals Ht Hd Hr Hdef Hc Hv. pose proof (declares_sound t d Hd) as Hs. rewrite <- Hr in Hs. unfold apply_values_ref.
  destruct (comps e (r_type r)) as [c|] eqn:Ec.
  - destruct (internal_apply_typed t Ht _ _ Hs Hv c false (Hc c eq_refl)) as (c' & -> & _). destruct (false || some_set vals); eauto.
  - destruct (r_auto r); [|eauto]. destruct (internal_apply_typed t Ht _ _ Hs Hv _ false Hdef) as (c' & -> & _). destruct (false || some_set vals); eauto.
Qed.
(** The two ways of removing a component agree. *)
Theorem C97_removal : forall r e has, exists q b, auto_remove_deferred r e has = (q, b) /\ auto_remove r e has = (flush q e, b) /\
  (b = true <-> r_auto r = true /\ comps e (r_type r) <> None /\ ~ In true has) /\
  (b = true -> comps (flush q e) (r_type r) = None) /\ (b = false -> q = []) /\ (forall ty, ty <> r_type r -> comps (flush q e) ty = comps e ty).
Proof.
  intros r e has. unfold auto_remove, auto_remove_deferred. destruct (removable r e has) eqn:Er; eexists _, _; (split; [reflexivity|]); (split; [reflexivity|]); unfold removable in Er.
  - apply andb_prop in Er as (Er & Hh). apply andb_prop in Er as (Ha & Hc). split; [|split; [|split; [discriminate|]]].
    + split; [intros _ | reflexivity]. split; [exact Ha|]. split; [destruct (comps e (r_type r)); [discriminate | discriminate Hc]|]. intros Hi. rewrite forallb_forall in Hh. discriminate (Hh _ Hi).
    + intros _. cbn. rewrite N.eqb_refl. reflexivity.
    + intros ty Hty. cbn. destruct (N.eqb_spec ty (r_type r)); [contradiction | reflexivity].
  - split; [|split; [discriminate|split; [reflexivity | reflexivity]]]. split; [discriminate|]. intros (Ha & Hc & Hh). exfalso. rewrite Ha in Er. destruct (comps e (r_type r)); [|apply Hc; reflexivity]. cbn [andb] in Er.
    apply Bool.not_true_iff_false in Er. apply Er, forallb_forall. intros [|] Hi; [contradiction | reflexivity].
Qed.
Definition ex_entity : entity := mkentity (fun t => if N.eqb t 7 then Some (ex_comp "Flex" 1 2 []) else None) [].
Example C97_example : exists q, apply_values_ref ex_reg ex_entity [None; Some (Opaque 1 5); None; None] = ([None; None; None; None], q, true) /\ q = [Insert 7 (ex_comp "Flex" 5 2 [])].
Proof. eexists. split; reflexivity. Qed.
(** With a value of a wrong type behind good ones: direct application keeps the good ones, the queued one drops them. *)
Theorem C97_errors_refuted : exists r e vals rest q e2, apply_values_ref r e vals = (rest, q, false) /\ apply_values_world_mut r e vals = (e2, rest, false) /\ ~ same_entity e2 (flush q e).
Proof.
  exists ex_reg, ex_entity, [None; Some (Opaque 1 5); Some (Opaque 4 4); None]. eexists _, _, _. split; [reflexivity|]. split; [reflexivity|]. intros (H & _). specialize (H 7%N). discriminate H.
Qed.
(** Two applications queued before the queue runs: the second undoes the first. *)
Theorem C97_queued_twice_refuted : exists r e v1 v2 r1 q1 r2 q2, apply_values_ref r e v1 = (r1, q1, true) /\ apply_values_ref r e v2 = (r2, q2, true) /\
  exists p v c', given (r_props r) v1 p v /\ (forall w, ~ given (r_props r) v2 p w) /\ comps (flush (q1 ++ q2) e) (r_type r) = Some c' /\ get_value p c' <> Some v.
Proof.
  exists ex_reg, ex_entity, [None; Some (Opaque 1 5); None; None], [None; None; Some (Opaque 1 6); None]. eexists _, _, _, _. split; [reflexivity|]. split; [reflexivity|].
  exists (mkproperty ["margin"; "left"] (TOpaque 1)), (Opaque 1 5). eexists. split; [exists 1; split; reflexivity|]. split.
  - intros w ([|[|[|[|[|i]]]]] & E1 & E2); cbn in E1, E2; try discriminate; congruence.
  - split; [reflexivity|]. discriminate.
Qed.

Print Assumptions C96_set_properties. Print Assumptions C96_value_shows_partial. Print Assumptions C96_value_shows_iff. Print Assumptions C96_others_keep. Print Assumptions C96_initial_partial.
Print Assumptions C96_lists_refuted. Print Assumptions C97_same_result_partial. Print Assumptions C97_typed_values_succeed. Print Assumptions C97_removal. Print Assumptions C97_errors_refuted. Print Assumptions C97_queued_twice_refuted.
