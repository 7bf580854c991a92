(** Proofs for C81. *)
From Coq Require Import Permutation.
From Verif Require Import Base NodeData NodeDataSpec.

(** ** Cells *)
Inductive cop (A : Type) := Put (v : A) | Take | Nothing.
Arguments Put {A}. Arguments Take {A}. Arguments Nothing {A}.
Definition cdo {A} (c : cell A) (o : cop A) : cell A := match o with Put v => put v c | Take => take c | Nothing => c end.
Definition crun {A} (l : list (cop A)) (c : cell A) : cell A := fold_left cdo l c.
Definition settled {A} (c : cell A) : Prop := added c = false /\ changed c = false /\ removed c = false.
Lemma settle_settled {A} (c : cell A) : settled (settle c). Proof. repeat split. Qed.
Lemma crun_snoc {A} (l : list (cop A)) o c : crun (l ++ [o]) c = cdo (crun l c) o.
Proof. unfold crun. rewrite fold_left_app. reflexivity. Qed.

(** nothing added and nothing removed: the component is there exactly if it was *)
Lemma marker_kept {A} (l : list (cop A)) c : settled c -> let c' := crun l c in
  (added c' = false -> removed c' = false -> has c' = has c) /\ (added c' = true -> changed c' = true) .
Proof.
  intros (Ha & Hc & Hr). induction l as [|o l IH] using rev_ind; [cbn; split; [reflexivity|congruence]|].
  cbn zeta in *. rewrite crun_snoc. destruct IH as [I1 I2]. destruct o as [v| |]; cbn [cdo]; [| |split; assumption].
  - unfold put, has in *. destruct (crun l c) as [[w|] a ch r]; cbn in *; split; intros; try congruence; auto.
  - unfold take, has in *. destruct (crun l c) as [[w|] a ch r]; cbn in *; split; intros; try congruence; auto.
Qed.
(** never taken: unchanged means unchanged *)
Lemma value_kept {A} (l : list (cop A)) c : settled c -> ~ In Take l -> let c' := crun l c in
  (changed c' = false -> value c' = value c) /\ (value c' = None -> value c = None).
Proof.
  intros (Ha & Hc & Hr) Hn. induction l as [|o l IH] using rev_ind; [cbn; auto|].
  cbn zeta in *. rewrite crun_snoc. destruct IH as [I1 I2]; [intros H; apply Hn; apply in_or_app; auto|].
  destruct o as [v| |]; cbn [cdo]; [| |split; assumption].
  - unfold put. destruct (crun l c) as [[w|] a ch r]; cbn in *; split; intros; try congruence; auto.
  - exfalso. apply Hn. apply in_or_app. right. left. reflexivity.
Qed.
(** never put after taken *)
Lemma name_kept {A} (l : list (cop A)) c : settled c -> (forall l1 l2 v, l = l1 ++ Take :: l2 -> ~ In (Put v) l2) -> let c' := crun l c in
  (removed c' = true -> value c' = None) /\ (removed c' = false -> changed c' = false -> value c' = value c) /\ (removed c' = false -> value c' = None -> value c = None).
Proof.
  intros (Ha & Hc & Hr) Hn.
  assert (Hpre : forall l1 l2, l = l1 ++ l2 -> let c' := crun l1 c in
    (removed c' = true -> value c' = None /\ In Take l1) /\ (removed c' = false -> changed c' = false -> value c' = value c) /\ (removed c' = false -> value c' = None -> value c = None)).
  { induction l1 as [|o l1 IH] using rev_ind; intros l2 E; [cbn; repeat split; congruence|].
    cbn zeta in *. rewrite crun_snoc. rewrite <- app_assoc in E. destruct (IH _ E) as (I1 & I2 & I3). destruct o as [v| |]; cbn [cdo].
    - assert (Hrm : removed (crun l1 c) = false).
      { destruct (removed (crun l1 c)) eqn:Er; [|reflexivity]. destruct (I1 eq_refl) as [_ Hi]. apply in_split in Hi as (a & b & ->).
        exfalso. apply (Hn a (b ++ Put v :: l2) v); [rewrite E, <- app_assoc; reflexivity|]. apply in_or_app. right. left. reflexivity. }
      unfold put. destruct (crun l1 c) as [[w|] a ch r]; cbn in *; repeat split; intros; try congruence; auto.
    - unfold take. destruct (crun l1 c) as [[w|] a ch r]; cbn in *; repeat split; intros; try congruence; auto;
        try (apply in_or_app; right; left; reflexivity).
    - split; [|split; assumption]. intros H. destruct (I1 H). split; [assumption|]. apply in_or_app; auto. }
  destruct (Hpre l [] ltac:(rewrite app_nil_r; reflexivity)) as (I1 & I2 & I3). repeat split; auto. intros H; apply I1, H.
Qed.

(** ** The systems as functions of the data *)
Definition eff (s : system) (e : entity) (d : style_data) : style_data :=
  match s with
  | IsRoot => if (added (e_data e) || changed (e_parent e) || removed (e_parent e))%bool then set_root (has (e_node e) && negb (has (e_parent e))) d else d
  | ApplyClasses => match value (e_classes e) with Some l => if changed (e_classes e) then set_classes l d else d | None => d end
  | ApplyAttributes => match value (e_attributes e) with Some l => if changed (e_attributes e) then set_attributes l d else d | None => d end
  | SyncPressed => if (added (e_pressed e) || removed (e_pressed e))%bool then set_pressed (has (e_pressed e)) d else d
  | SyncDisabled => if (added (e_disabled e) || removed (e_disabled e))%bool then set_disabled (has (e_disabled e)) d else d
  | SyncChecked => if (added (e_checked e) || removed (e_checked e))%bool then set_checked (has (e_checked e)) d else d
  | SyncHovered => match value (e_hovered e) with Some b => if changed (e_hovered e) then set_hovered b d else d | None => d end
  | SyncInteraction =>
      match value (e_interaction e) with
      | Some i => if changed (e_interaction e) then set_hovered (match i with Hovered => true | _ => false end) (set_pressed (match i with Pressed => true | _ => false end) d) else d
      | None => d
      end
  | TrackName =>
      let d1 := match value (e_name e) with Some n => if (changed (e_name e) || added (e_data e))%bool then set_id (Some n) d else d | None => d end in
      if removed (e_name e) then set_id None d1 else d1
  end.
(** everything but the value of the data *)
Definition same_else (e e' : entity) : Prop :=
  added (e_data e) = added (e_data e') /\ e_node e = e_node e' /\ e_parent e = e_parent e' /\ e_name e = e_name e' /\ e_classes e = e_classes e' /\ e_attributes e = e_attributes e' /\
  e_pressed e = e_pressed e' /\ e_disabled e = e_disabled e' /\ e_checked e = e_checked e' /\ e_hovered e = e_hovered e' /\ e_interaction e = e_interaction e'.
Lemma same_refl e : same_else e e. Proof. repeat split. Qed.
Lemma same_trans a b c : same_else a b -> same_else b c -> same_else a c.
Proof. unfold same_else. intros H H'. intuition congruence. Qed.
Lemma eff_same s e e' d : same_else e e' -> eff s e d = eff s e' d.
Proof.
  intros (H1 & H2 & H3 & H4 & H5 & H6 & H7 & H8 & H9 & H10 & H11). destruct s; cbn [eff]; rewrite ?H1, ?H2, ?H3, ?H4, ?H5, ?H6, ?H7, ?H8, ?H9, ?H10, ?H11; reflexivity.
Qed.
Lemma write_same f e : same_else e (write f e).
Proof. destruct e as [[v ? ? ?] ? ? ? ? ? ? ? ? ? ?]. unfold write, on_data; cbn. destruct v; repeat split. Qed.
Lemma write_value f e : value (e_data (write f e)) = option_map f (value (e_data e)).
Proof. unfold write, on_data; cbn. destruct (e_data e) as [[d|] ? ? ?]; reflexivity. Qed.
Ltac destr := repeat match goal with |- context [if ?b then _ else _] => destruct b | |- context [match ?m with Some _ => _ | None => _ end] => destruct m end.
Lemma option_map_id {A} (o : option A) : o = option_map (fun x => x) o. Proof. destruct o; reflexivity. Qed.
Lemma run_eff s e : same_else e (run s e) /\ value (e_data (run s e)) = option_map (eff s e) (value (e_data e)).
Proof.
  destruct (value (e_data e)) as [d|] eqn:E; destruct s; cbn [run option_map eff]; unfold sync_marker; cbn zeta; destr; rewrite ?write_value, ?E;
    (split; [eauto using same_refl, write_same, same_trans|reflexivity]).
Qed.
Lemma systems_eff order : forall e, same_else e (systems_run order e) /\
  value (e_data (systems_run order e)) = option_map (fun d => fold_left (fun d s => eff s e d) order d) (value (e_data e)).
Proof.
  induction order as [|s order IH]; intros e; cbn [systems_run fold_left]; [split; [apply same_refl|apply option_map_id]|].
  destruct (run_eff s e) as [Hs Hv]. destruct (IH (run s e)) as [Hs' Hv']. split; [eapply same_trans; eauto|].
  unfold systems_run in Hv'. rewrite Hv', Hv. destruct (value (e_data e)); cbn; [|reflexivity]. f_equal.
  generalize (eff s e s0). clear - Hs. induction order as [|s' order IH]; intros d; cbn; [reflexivity|]. rewrite (eff_same s' _ _ _ Hs). apply IH.
Qed.
(** a field that only one system writes *)
Lemma one_writer {B} (g : style_data -> B) (s0 : system) e order (new : B -> B) d :
  Permutation order all_systems -> (forall s d, s <> s0 -> g (eff s e d) = g d) -> (forall d, g (eff s0 e d) = new (g d)) ->
  g (fold_left (fun d s => eff s e d) order d) = new (g d).
Proof.
  intros Hp Hother Hnew.
  assert (Hnd : NoDup order). { eapply Permutation_NoDup; [apply Permutation_sym, Hp|]. repeat constructor; cbn; intuition discriminate. }
  assert (Hin : In s0 order). { eapply Permutation_in; [apply Permutation_sym, Hp|]. destruct s0; cbn; tauto. }
  apply in_split in Hin as (l1 & l2 & ->). apply NoDup_remove_2 in Hnd.
  assert (Hkeep : forall l d, ~ In s0 l -> g (fold_left (fun d s => eff s e d) l d) = g d).
  { induction l as [|s l IH]; intros d' Hn; cbn; [reflexivity|]. rewrite IH by (intros H; apply Hn; right; exact H). apply Hother. intros ->. apply Hn. left. reflexivity. }
  rewrite fold_left_app. cbn [fold_left]. rewrite Hkeep by (intros H; apply Hnd, in_or_app; auto). rewrite Hnew, Hkeep by (intros H; apply Hnd, in_or_app; auto). reflexivity.
Qed.

(** ** The operations as operations on cells *)
Definition c_node o : cop unit := match o with AddNode => Put tt | RemoveNode => Take | _ => Nothing end.
Definition c_parent o : cop nat := match o with SetParent p => Put p | RemoveParent => Take | _ => Nothing end.
Definition c_name o : cop nat := match o with SetName p => Put p | RemoveName => Take | _ => Nothing end.
Definition c_classes o : cop (list nat) := match o with SetClasses p => Put p | RemoveClasses => Take | _ => Nothing end.
Definition c_attributes o : cop (list (nat * nat)) := match o with SetAttributes p => Put p | RemoveAttributes => Take | _ => Nothing end.
Definition c_pressed o : cop unit := match o with AddPressed => Put tt | RemovePressed => Take | _ => Nothing end.
Definition c_disabled o : cop unit := match o with AddDisabled => Put tt | RemoveDisabled => Take | _ => Nothing end.
Definition c_checked o : cop unit := match o with AddChecked => Put tt | RemoveChecked => Take | _ => Nothing end.
Definition c_hovered o : cop bool := match o with SetHovered p => Put p | RemoveHovered => Take | _ => Nothing end.
Definition c_interaction o : cop interaction := match o with SetInteraction p => Put p | RemoveInteraction => Take | _ => Nothing end.
Definition program (ops : list op) (e : entity) : entity := fold_left (fun e o => do o e) ops e.
Section Proj.
  Context {A : Type} (g : entity -> cell A) (c : op -> cop A) (Hdo : forall o e, g (do o e) = cdo (g e) (c o)).
  Lemma program_cell ops : forall e, g (program ops e) = crun (map c ops) (g e).
  Proof. induction ops as [|o ops IH]; intros e; cbn; [reflexivity|]. unfold program in IH. rewrite IH, Hdo. reflexivity. Qed.
  Context (Hsame : forall e e', same_else e e' -> g e = g e') (Hsettle : forall e, g (settle_all e) = settle (g e)) (Hspawn : g spawned = empty).
  Lemma update_cell e u : g (update e u) = settle (crun (map c (fst u)) (g e)).
  Proof.
    unfold update. rewrite Hsettle. f_equal. destruct (systems_eff (snd u) (fold_left (fun e o => do o e) (fst u) e)) as [Hs _].
    rewrite <- (Hsame _ _ Hs). apply program_cell.
  Qed.
  Lemma updates_settled h : settled (g (updates h)).
  Proof.
    unfold updates. destruct h as [|u h] using rev_ind; [cbn; rewrite Hspawn; repeat split|]. rewrite fold_left_app. cbn. rewrite update_cell. apply settle_settled.
  Qed.
  Context (set : op -> option A) (unset : op)
    (Hc : forall o, c o = match set o with Some a => Put a | None => if op_dec o unset then Take else Nothing end).
  Lemma last_set_cell ops : forall cl, value (crun (map c ops) cl) = last_set set unset op_dec ops (value cl).
  Proof.
    induction ops as [|o ops IH]; intros cl; cbn [map last_set]; [reflexivity|]. cbn [crun fold_left]. unfold crun in IH. rewrite IH, Hc. f_equal.
    destruct (set o) as [a|]; [unfold cdo, put; destruct (value cl); reflexivity|]. destruct (op_dec o unset); [|reflexivity]. unfold cdo, take. destruct (value cl) eqn:E; [reflexivity|exact E].
  Qed.
  Lemma last_set_app a b v : last_set set unset op_dec (a ++ b) v = last_set set unset op_dec b (last_set set unset op_dec a v).
  Proof. revert v; induction a as [|o a IH]; intros v; cbn; [reflexivity|]. apply IH. Qed.
  Lemma component_value h : component set unset h = value (g (updates h)).
  Proof.
    unfold component. induction h as [|u h IH] using rev_ind; [cbn; rewrite Hspawn; reflexivity|].
    unfold updates. rewrite fold_left_app. cbn [fold_left]. rewrite update_cell. cbn [settle value]. rewrite last_set_cell. fold (updates h). rewrite <- IH.
    unfold all_ops. rewrite flat_map_app, last_set_app. cbn. rewrite app_nil_r. reflexivity.
  Qed.
End Proj.
Ltac proj := first [intros [] ?; reflexivity | intros ? ? H; apply H | reflexivity | intros []; reflexivity].
Lemma dodata_node o e : e_node (do o e) = cdo (e_node e) (c_node o). Proof. destruct o; reflexivity. Qed.
Lemma dodata_parent o e : e_parent (do o e) = cdo (e_parent e) (c_parent o). Proof. destruct o; reflexivity. Qed.
Lemma dodata_name o e : e_name (do o e) = cdo (e_name e) (c_name o). Proof. destruct o; reflexivity. Qed.
Lemma dodata_classes o e : e_classes (do o e) = cdo (e_classes e) (c_classes o). Proof. destruct o; reflexivity. Qed.
Lemma dodata_attributes o e : e_attributes (do o e) = cdo (e_attributes e) (c_attributes o). Proof. destruct o; reflexivity. Qed.
Lemma dodata_pressed o e : e_pressed (do o e) = cdo (e_pressed e) (c_pressed o). Proof. destruct o; reflexivity. Qed.
Lemma dodata_disabled o e : e_disabled (do o e) = cdo (e_disabled e) (c_disabled o). Proof. destruct o; reflexivity. Qed.
Lemma dodata_checked o e : e_checked (do o e) = cdo (e_checked e) (c_checked o). Proof. destruct o; reflexivity. Qed.
Lemma dodata_hovered o e : e_hovered (do o e) = cdo (e_hovered e) (c_hovered o). Proof. destruct o; reflexivity. Qed.
Lemma dodata_interaction o e : e_interaction (do o e) = cdo (e_interaction e) (c_interaction o). Proof. destruct o; reflexivity. Qed.

(** ** The data *)
Definition the_data (e : entity) : style_data := match value (e_data e) with Some d => d | None => default_data end.
Lemma program_data ops : forall e, ~ In RemoveData ops ->
  value (e_data (program ops e)) = (if existsb (fun o => match o with AddNode | AddTextSpan => true | _ => false end) ops then Some (the_data e) else value (e_data e)) /\
  (added (e_data (program ops e)) = true <-> added (e_data e) = true \/ (value (e_data e) = None /\ existsb (fun o => match o with AddNode | AddTextSpan => true | _ => false end) ops = true)).
Proof.
  induction ops as [|o ops IH]; intros e Hn; [cbn; intuition discriminate|].
  assert (Hn' : ~ In RemoveData ops) by (intros H; apply Hn; right; exact H). cbn [program fold_left existsb]. unfold program in IH. destruct (IH (do o e) Hn') as [I1 I2]. rewrite I1.
  assert (Hd : (match o with AddNode | AddTextSpan => e_data (do o e) = add_data (e_data e) | _ => e_data (do o e) = e_data e end)).
  { destruct o; try reflexivity. exfalso. apply Hn. left. reflexivity. }
  rewrite I2. unfold the_data. destruct o; cbn [orb]; rewrite Hd; (split; [reflexivity|tauto]) ||
    (unfold add_data, has, put; destruct (value (e_data e)) eqn:E; cbn; rewrite ?E; destruct (existsb _ ops); split; intuition congruence).
Qed.
Lemma update_data e u : ~ In RemoveData (fst u) -> value (e_data e) <> None \/ (In AddNode (fst u) \/ In AddTextSpan (fst u)) ->
  value (e_data (update e u)) = Some (fold_left (fun d s => eff s (program (fst u) e) d) (snd u) (the_data e)).
Proof.
  intros Hn Hd. unfold update. cbn [settle_all e_data settle value]. destruct (systems_eff (snd u) (fold_left (fun e o => do o e) (fst u) e)) as [_ Hv]. rewrite Hv.
  fold (program (fst u) e). destruct (program_data (fst u) e Hn) as [-> _].
  destruct (existsb _ (fst u)) eqn:E; [reflexivity|]. destruct Hd as [Hd|Hd].
  - unfold the_data. destruct (value (e_data e)); [reflexivity|congruence].
  - exfalso. assert (existsb (fun o => match o with AddNode | AddTextSpan => true | _ => false end) (fst u) = true); [|congruence].
    apply existsb_exists. destruct Hd as [Hd|Hd]; eexists; split; eauto.
Qed.

(** ** Histories *)
Lemma updates_snoc h u : updates (h ++ [u]) = update (updates h) u.
Proof. unfold updates. rewrite fold_left_app. reflexivity. Qed.
Definition nodes_so_far (h : list (list op * list system)) : Prop := h = [] \/ node_from_start h.
Lemma nodes_snoc h u : nodes_so_far (h ++ [u]) ->
  nodes_so_far h /\ ~ In RemoveData (fst u) /\ (value (e_data (updates h)) <> None -> True) /\ (h = [] -> In AddNode (fst u) \/ In AddTextSpan (fst u)).
Proof.
  intros [H|[(ops & order & h' & E & Ha) Hn]]; [destruct h; discriminate|].
  assert (Hn1 : ~ In RemoveData (fst u)) by (intros H; apply Hn; exists u; split; [apply in_or_app; right; left; reflexivity|exact H]).
  assert (Hn2 : ~ does h RemoveData) by (intros (v & Hv & H); apply Hn; exists v; split; [apply in_or_app; auto|exact H]).
  destruct h as [|v h]; cbn in E; injection E as E1 E2; subst.
  - split; [left; reflexivity|]. auto.
  - split; [right; split; [|exact Hn2]; eauto 6|]. split; [exact Hn1|]. split; [auto|discriminate].
Qed.
Lemma data_there h : node_from_start h -> value (e_data (updates h)) <> None.
Proof.
  induction h as [|u h IH] using rev_ind; intros Hn; [destruct Hn as [(? & ? & ? & H & _) _]; discriminate|].
  destruct (nodes_snoc h u (or_intror Hn)) as (Hso & Hr & _ & Hf). rewrite updates_snoc, update_data; [discriminate|exact Hr|].
  destruct Hso as [->|Hso]; [right; auto|left; auto].
Qed.
Lemma data_step h u : nodes_so_far (h ++ [u]) ->
  the_data (updates (h ++ [u])) = fold_left (fun d s => eff s (program (fst u) (updates h)) d) (snd u) (the_data (updates h)).
Proof.
  intros Hn. destruct (nodes_snoc h u Hn) as (Hso & Hr & _ & Hf). rewrite updates_snoc. unfold the_data at 1. rewrite update_data; [reflexivity|exact Hr|].
  destruct Hso as [->|Hso]; [right; auto|left; apply data_there, Hso].
Qed.
Lemma data_ind (P : entity -> style_data -> Prop) (ok : list op -> Prop) : P spawned default_data ->
  (forall h u, ok (fst u) -> Permutation (snd u) all_systems -> P (updates h) (the_data (updates h)) ->
     P (update (updates h) u) (fold_left (fun d s => eff s (program (fst u) (updates h)) d) (snd u) (the_data (updates h)))) ->
  forall h, runs_all h -> nodes_so_far h -> (forall u, In u h -> ok (fst u)) -> P (updates h) (the_data (updates h)).
Proof.
  intros H0 Hs h. induction h as [|u h IH] using rev_ind; intros Hr Hn Hok; [exact H0|].
  rewrite (data_step h u Hn), updates_snoc. destruct (nodes_snoc h u Hn) as (Hso & _). apply Hs.
  - apply Hok, in_or_app; right; left; reflexivity.
  - apply Hr, in_or_app; right; left; reflexivity.
  - apply IH; [|exact Hso|]; intros v Hv; [apply Hr|apply Hok]; apply in_or_app; auto.
Qed.
Lemma not_does h o : ~ does h o -> forall u, In u h -> ~ In o (fst u).
Proof. intros H u Hu Ho. apply H. exists u. auto. Qed.

(** a cell nothing is ever put in *)
Lemma crun_empty {A} (l : list (cop A)) : (forall v, ~ In (Put v) l) -> crun l empty = empty.
Proof. induction l as [|o l IH]; intros H; [reflexivity|]. destruct o; [exfalso; apply (H v); left; reflexivity| |]; apply IH; intros w Hw; apply (H w); right; exact Hw. Qed.
(** what a marker, or a component that is only ever set, becomes *)
Lemma marker_value {A} (l : list (cop A)) c b : settled c -> b = has c -> let c' := crun l c in
  (if (added c' || removed c')%bool then has c' else b) = has c'.
Proof.
  intros Hs ->. cbn zeta. destruct (marker_kept l c Hs) as [Hk _]. destruct (added (crun l c)), (removed (crun l c)); try reflexivity. symmetry. apply Hk; reflexivity.
Qed.
Definition or_else {A} (v : option A) (d : A) : A := match v with Some a => a | None => d end.
Lemma kept_value {A} (l : list (cop A)) c (b dflt : A) : settled c -> ~ In Take l -> b = or_else (value c) dflt -> let c' := crun l c in
  match value c' with Some v => if changed c' then v else b | None => b end = or_else (value c') dflt.
Proof.
  intros Hs Hn ->. cbn zeta. destruct (value_kept l c Hs Hn) as [H1 H2]. destruct (value (crun l c)) eqn:E.
  - destruct (changed (crun l c)) eqn:Ec; [reflexivity|]. rewrite <- (H1 eq_refl). reflexivity.
  - rewrite (H2 eq_refl). reflexivity.
Qed.
Lemma in_map_take {A} (c : op -> cop A) (o0 : op) ops : (forall o, c o = Take -> o = o0) -> ~ In o0 ops -> ~ In Take (map c ops).
Proof. intros Hc Hn H. apply in_map_iff in H as (o & E & Hi). apply Hc in E. subst. auto. Qed.

Definition cell_of_disabled := program_cell e_disabled c_disabled dodata_disabled.
Ltac cells := first [assumption | intros [] ?; reflexivity | intros ? ? (?&?&?&?&?&?&?&?&?&?&?); assumption | reflexivity].
Lemma upd_disabled e u : e_disabled (update e u) = settle (crun (map c_disabled (fst u)) (e_disabled e)). Proof. apply update_cell; [apply dodata_disabled|cells|cells]. Qed.
Lemma upd_checked e u : e_checked (update e u) = settle (crun (map c_checked (fst u)) (e_checked e)). Proof. apply update_cell; [apply dodata_checked|cells|cells]. Qed.
Lemma upd_pressed e u : e_pressed (update e u) = settle (crun (map c_pressed (fst u)) (e_pressed e)). Proof. apply update_cell; [apply dodata_pressed|cells|cells]. Qed.
Lemma upd_hovered e u : e_hovered (update e u) = settle (crun (map c_hovered (fst u)) (e_hovered e)). Proof. apply update_cell; [apply dodata_hovered|cells|cells]. Qed.
Lemma upd_interaction e u : e_interaction (update e u) = settle (crun (map c_interaction (fst u)) (e_interaction e)). Proof. apply update_cell; [apply dodata_interaction|cells|cells]. Qed.
Lemma upd_classes e u : e_classes (update e u) = settle (crun (map c_classes (fst u)) (e_classes e)). Proof. apply update_cell; [apply dodata_classes|cells|cells]. Qed.
Lemma upd_attributes e u : e_attributes (update e u) = settle (crun (map c_attributes (fst u)) (e_attributes e)). Proof. apply update_cell; [apply dodata_attributes|cells|cells]. Qed.
Lemma upd_name e u : e_name (update e u) = settle (crun (map c_name (fst u)) (e_name e)). Proof. apply update_cell; [apply dodata_name|cells|cells]. Qed.
Lemma upd_parent e u : e_parent (update e u) = settle (crun (map c_parent (fst u)) (e_parent e)). Proof. apply update_cell; [apply dodata_parent|cells|cells]. Qed.
Lemma upd_node e u : e_node (update e u) = settle (crun (map c_node (fst u)) (e_node e)). Proof. apply update_cell; [apply dodata_node|cells|cells]. Qed.

Lemma the_name_value h : the_name h = value (e_name (updates h)). Proof. apply (component_value e_name c_name); [apply dodata_name|cells|cells|reflexivity|intros []; reflexivity]. Qed.
Lemma the_parent_value h : the_parent h = value (e_parent (updates h)). Proof. apply (component_value e_parent c_parent); [apply dodata_parent|cells|cells|reflexivity|intros []; reflexivity]. Qed.
Lemma the_classes_value h : the_classes h = value (e_classes (updates h)). Proof. apply (component_value e_classes c_classes); [apply dodata_classes|cells|cells|reflexivity|intros []; reflexivity]. Qed.
Lemma the_attributes_value h : the_attributes h = value (e_attributes (updates h)). Proof. apply (component_value e_attributes c_attributes); [apply dodata_attributes|cells|cells|reflexivity|intros []; reflexivity]. Qed.
Lemma is_pressed_value h : is_pressed h = value (e_pressed (updates h)). Proof. apply (component_value e_pressed c_pressed); [apply dodata_pressed|cells|cells|reflexivity|intros []; reflexivity]. Qed.
Lemma is_disabled_value h : is_disabled h = value (e_disabled (updates h)). Proof. apply (component_value e_disabled c_disabled); [apply dodata_disabled|cells|cells|reflexivity|intros []; reflexivity]. Qed.
Lemma is_checked_value h : is_checked h = value (e_checked (updates h)). Proof. apply (component_value e_checked c_checked); [apply dodata_checked|cells|cells|reflexivity|intros []; reflexivity]. Qed.
Lemma the_hovered_value h : the_hovered h = value (e_hovered (updates h)). Proof. apply (component_value e_hovered c_hovered); [apply dodata_hovered|cells|cells|reflexivity|intros []; reflexivity]. Qed.
Lemma the_interaction_value h : the_interaction h = value (e_interaction (updates h)). Proof. apply (component_value e_interaction c_interaction); [apply dodata_interaction|cells|cells|reflexivity|intros []; reflexivity]. Qed.
Lemma the_node_value h : the_node h = value (e_node (updates h)). Proof. apply (component_value e_node c_node); [apply dodata_node|cells|cells|reflexivity|intros []; reflexivity]. Qed.

Ltac other := let s := fresh in let d := fresh in intros s d ?; destruct s; try congruence; cbn [eff]; cbn zeta; destr; reflexivity.
Ltac sett H g := eapply (updates_settled g); [H|cells|cells|reflexivity].

Lemma disabled_ok h : runs_all h -> nodes_so_far h -> d_disabled (the_data (updates h)) = has (e_disabled (updates h)).
Proof.
  intros Hr Hn. apply (data_ind (fun e d => d_disabled d = has (e_disabled e)) (fun _ => True)); auto. clear. intros h u _ Hp Hi.
  rewrite (one_writer d_disabled SyncDisabled _ _ (fun b => if (added (e_disabled (program (fst u) (updates h))) || removed (e_disabled (program (fst u) (updates h))))%bool then has (e_disabled (program (fst u) (updates h))) else b) _ Hp);
    [|other|intros d; cbn [eff]; destruct (_ || _)%bool; reflexivity].
  rewrite (program_cell _ _ dodata_disabled), upd_disabled. rewrite marker_value; [reflexivity| |exact Hi].
  apply (updates_settled e_disabled c_disabled); [apply dodata_disabled|cells|cells|reflexivity].
Qed.
Lemma checked_ok h : runs_all h -> nodes_so_far h -> d_checked (the_data (updates h)) = has (e_checked (updates h)).
Proof.
  intros Hr Hn. apply (data_ind (fun e d => d_checked d = has (e_checked e)) (fun _ => True)); auto. clear. intros h u _ Hp Hi.
  rewrite (one_writer d_checked SyncChecked _ _ (fun b => if (added (e_checked (program (fst u) (updates h))) || removed (e_checked (program (fst u) (updates h))))%bool then has (e_checked (program (fst u) (updates h))) else b) _ Hp);
    [|other|intros d; cbn [eff]; destruct (_ || _)%bool; reflexivity].
  rewrite (program_cell _ _ dodata_checked), upd_checked. rewrite marker_value; [reflexivity| |exact Hi].
  apply (updates_settled e_checked c_checked); [apply dodata_checked|cells|cells|reflexivity].
Qed.
Lemma classes_ok h : runs_all h -> nodes_so_far h -> ~ does h RemoveClasses -> d_classes (the_data (updates h)) = or_else (value (e_classes (updates h))) [].
Proof.
  intros Hr Hn Hk. apply (data_ind (fun e d => d_classes d = or_else (value (e_classes e)) []) (fun ops => ~ In RemoveClasses ops)); auto; [|apply not_does, Hk]. clear. intros h u Hok Hp Hi.
  set (c := e_classes (program (fst u) (updates h))).
  rewrite (one_writer d_classes ApplyClasses _ _ (fun b => match value c with Some v => if changed c then v else b | None => b end) _ Hp);
    [|other|intros d; cbn [eff]; fold c; destruct (value c); [destruct (changed c)|]; reflexivity].
  unfold c. rewrite (program_cell _ _ dodata_classes), upd_classes. apply kept_value; [|apply (in_map_take _ RemoveClasses); [intros []; (reflexivity || discriminate)|exact Hok]|exact Hi].
  apply (updates_settled e_classes c_classes); [apply dodata_classes|cells|cells|reflexivity].
Qed.
Lemma attributes_ok h : runs_all h -> nodes_so_far h -> ~ does h RemoveAttributes -> d_attributes (the_data (updates h)) = or_else (value (e_attributes (updates h))) [].
Proof.
  intros Hr Hn Hk. apply (data_ind (fun e d => d_attributes d = or_else (value (e_attributes e)) []) (fun ops => ~ In RemoveAttributes ops)); auto; [|apply not_does, Hk]. clear. intros h u Hok Hp Hi.
  set (c := e_attributes (program (fst u) (updates h))).
  rewrite (one_writer d_attributes ApplyAttributes _ _ (fun b => match value c with Some v => if changed c then v else b | None => b end) _ Hp);
    [|other|intros d; cbn [eff]; fold c; destruct (value c); [destruct (changed c)|]; reflexivity].
  unfold c. rewrite (program_cell _ _ dodata_attributes), upd_attributes. apply kept_value; [|apply (in_map_take _ RemoveAttributes); [intros []; (reflexivity || discriminate)|exact Hok]|exact Hi].
  apply (updates_settled e_attributes c_attributes); [apply dodata_attributes|cells|cells|reflexivity].
Qed.
Lemma name_ok h : runs_all h -> nodes_so_far h -> no_rename h -> d_id (the_data (updates h)) = value (e_name (updates h)).
Proof.
  intros Hr Hn Hk. apply (data_ind (fun e d => d_id d = value (e_name e)) (fun ops => forall l1 l2 n, ops = l1 ++ RemoveName :: l2 -> ~ In (SetName n) l2)); auto;
    [|intros u Hu l1 l2 n; apply (Hk u l1 l2 n Hu)]. clear. intros h u Hok Hp Hi.
  set (c := e_name (program (fst u) (updates h))). set (ad := added (e_data (program (fst u) (updates h)))).
  rewrite (one_writer d_id TrackName _ _ (fun b => if removed c then None else match value c with Some v => if (changed c || ad)%bool then Some v else b | None => b end) _ Hp);
    [|other|intros d; cbn [eff]; fold c; fold ad; destruct (removed c), (value c); try (destruct (changed c), ad); reflexivity].
  unfold c in *. rewrite (program_cell _ _ dodata_name), upd_name. cbn [settle value].
  destruct (name_kept (map c_name (fst u)) (e_name (updates h))) as (K1 & K2 & K3).
  - apply (updates_settled e_name c_name); [apply dodata_name|cells|cells|reflexivity].
  - intros l1 l2 v E Hv. apply map_eq_app in E as (o1 & o2 & E & <- & E2). destruct o2 as [|o o2]; [discriminate|]. cbn in E2. injection E2 as E3 <-.
    destruct o; try discriminate. apply in_map_iff in Hv as (o & Eo & Ho). destruct o; try discriminate. eapply (Hok _ _ n E), Ho.
  - set (c' := crun (map c_name (fst u)) (e_name (updates h))) in *. destruct (removed c'); [symmetry; apply K1; reflexivity|].
    destruct (value c') eqn:E; [|rewrite Hi; apply K3; reflexivity]. destruct (changed c'); [reflexivity|]. cbn [orb]. destruct ad; [reflexivity|].
    rewrite Hi. symmetry. apply K2; reflexivity.
Qed.
Lemma no_put {A} (c : op -> cop A) (P : op -> Prop) ops : (forall o v, c o = Put v -> P o) -> (forall o, P o -> ~ In o ops) -> forall v, ~ In (Put v) (map c ops).
Proof. intros Hc Hp v H. apply in_map_iff in H as (o & E & Hi). apply (Hp o (Hc o v E) Hi). Qed.
Lemma pressed_ok h : runs_all h -> nodes_so_far h -> (forall i, ~ does h (SetInteraction i)) -> d_pressed (the_data (updates h)) = has (e_pressed (updates h)).
Proof.
  intros Hr Hn Hk. apply (data_ind (fun e d => e_interaction e = empty /\ d_pressed d = has (e_pressed e)) (fun ops => forall i, ~ In (SetInteraction i) ops)); auto;
    [|intros u Hu i Hi; apply (Hk i); exists u; auto]. clear. intros h u Hok Hp [He Hi].
  assert (Hei : e_interaction (program (fst u) (updates h)) = empty).
  { rewrite (program_cell _ _ dodata_interaction), He. apply crun_empty, (no_put c_interaction (fun o => exists i, o = SetInteraction i)); [intros [] v; cbn; intros; try discriminate; eauto|]. intros o [i ->]. apply Hok. }
  split; [rewrite upd_interaction, <- (program_cell _ _ dodata_interaction), Hei; reflexivity|].
  set (c := e_pressed (program (fst u) (updates h))).
  rewrite (one_writer d_pressed SyncPressed _ _ (fun b => if (added c || removed c)%bool then has c else b) _ Hp);
    [|intros s d ?; destruct s; try congruence; cbn [eff]; rewrite ?Hei; cbn [empty value]; cbn zeta; destr; reflexivity|intros d; cbn [eff]; fold c; destruct (_ || _)%bool; reflexivity].
  unfold c. rewrite (program_cell _ _ dodata_pressed), upd_pressed. rewrite marker_value; [reflexivity| |exact Hi].
  apply (updates_settled e_pressed c_pressed); [apply dodata_pressed|cells|cells|reflexivity].
Qed.
Lemma hovered_ok h : runs_all h -> nodes_so_far h -> (forall i, ~ does h (SetInteraction i)) -> ~ does h RemoveHovered -> d_hovered (the_data (updates h)) = or_else (value (e_hovered (updates h))) false.
Proof.
  intros Hr Hn Hk Hh. apply (data_ind (fun e d => e_interaction e = empty /\ d_hovered d = or_else (value (e_hovered e)) false) (fun ops => (forall i, ~ In (SetInteraction i) ops) /\ ~ In RemoveHovered ops)); auto;
    [|intros u Hu; split; [intros i Hi; apply (Hk i); exists u; auto|intros Hi; apply Hh; exists u; auto]]. clear. intros h u [Hok Hok'] Hp [He Hi].
  assert (Hei : e_interaction (program (fst u) (updates h)) = empty).
  { rewrite (program_cell _ _ dodata_interaction), He. apply crun_empty, (no_put c_interaction (fun o => exists i, o = SetInteraction i)); [intros [] v; cbn; intros; try discriminate; eauto|]. intros o [i ->]. apply Hok. }
  split; [rewrite upd_interaction, <- (program_cell _ _ dodata_interaction), Hei; reflexivity|].
  set (c := e_hovered (program (fst u) (updates h))).
  rewrite (one_writer d_hovered SyncHovered _ _ (fun b => match value c with Some v => if changed c then v else b | None => b end) _ Hp);
    [|intros s d ?; destruct s; try congruence; cbn [eff]; rewrite ?Hei; cbn [empty value]; cbn zeta; destr; reflexivity|intros d; cbn [eff]; fold c; destruct (value c); [destruct (changed c)|]; reflexivity].
  unfold c. rewrite (program_cell _ _ dodata_hovered), upd_hovered. apply kept_value; [|apply (in_map_take _ RemoveHovered); [intros []; (reflexivity || discriminate)|exact Hok']|exact Hi].
  apply (updates_settled e_hovered c_hovered); [apply dodata_hovered|cells|cells|reflexivity].
Qed.
Definition inter_pressed (i : interaction) := match i with Pressed => true | _ => false end.
Definition inter_hovered (i : interaction) := match i with Hovered => true | _ => false end.
Lemma interaction_ok h : runs_all h -> nodes_so_far h -> (forall b, ~ does h (SetHovered b)) -> ~ does h AddPressed -> ~ does h RemoveInteraction ->
  d_pressed (the_data (updates h)) = inter_pressed (or_else (value (e_interaction (updates h))) NoInteraction) /\
  d_hovered (the_data (updates h)) = inter_hovered (or_else (value (e_interaction (updates h))) NoInteraction).
Proof.
  intros Hr Hn Hh Hp Hk.
  assert (G : (fun e d => e_hovered e = empty /\ e_pressed e = empty /\ (d_pressed d, d_hovered d) = (inter_pressed (or_else (value (e_interaction e)) NoInteraction), inter_hovered (or_else (value (e_interaction e)) NoInteraction))) (updates h) (the_data (updates h))).
  { apply (data_ind (fun e d => e_hovered e = empty /\ e_pressed e = empty /\ (d_pressed d, d_hovered d) = (inter_pressed (or_else (value (e_interaction e)) NoInteraction), inter_hovered (or_else (value (e_interaction e)) NoInteraction))) (fun ops => (forall b, ~ In (SetHovered b) ops) /\ ~ In AddPressed ops /\ ~ In RemoveInteraction ops)); auto;
      [|intros u Hu; repeat split; [intros i Hi; apply (Hh i); exists u; auto|intros Hi; apply Hp; exists u; auto|intros Hi; apply Hk; exists u; auto]].
    clear. intros h u (Hok1 & Hok2 & Hok3) Hp (He1 & He2 & Hi).
    assert (Hei1 : e_hovered (program (fst u) (updates h)) = empty).
    { rewrite (program_cell _ _ dodata_hovered), He1. apply crun_empty, (no_put c_hovered (fun o => exists i, o = SetHovered i)); [intros [] v; cbn; intros; try discriminate; eauto|]. intros o [i ->]. apply Hok1. }
    assert (Hei2 : e_pressed (program (fst u) (updates h)) = empty).
    { rewrite (program_cell _ _ dodata_pressed), He2. apply crun_empty, (no_put c_pressed (fun o => o = AddPressed)); [intros [] v; cbn; intros; try discriminate; eauto|]. intros o ->. apply Hok2. }
    split; [rewrite upd_hovered, <- (program_cell _ _ dodata_hovered), Hei1; reflexivity|].
    split; [rewrite upd_pressed, <- (program_cell _ _ dodata_pressed), Hei2; reflexivity|].
    set (c := e_interaction (program (fst u) (updates h))).
    rewrite (one_writer (fun d => (d_pressed d, d_hovered d)) SyncInteraction _ _ (fun b => match value c with Some i => if changed c then (inter_pressed i, inter_hovered i) else b | None => b end) _ Hp);
      [|intros s d ?; destruct s; try congruence; cbn [eff]; rewrite ?Hei1, ?Hei2; cbn [empty value added removed orb]; cbn zeta; destr; reflexivity
       |intros d; cbn [eff]; fold c; destruct (value c); [destruct (changed c)|]; reflexivity].
    destruct (value_kept (map c_interaction (fst u)) (e_interaction (updates h))) as [K1 K2];
      [apply (updates_settled e_interaction c_interaction); [apply dodata_interaction|cells|cells|reflexivity]
      |apply (in_map_take _ RemoveInteraction); [intros []; (reflexivity || discriminate)|exact Hok3]|].
    unfold c. rewrite (program_cell _ _ dodata_interaction), upd_interaction. cbn [settle value]. rewrite Hi.
    destruct (value (crun _ _)); [|rewrite (K2 eq_refl); reflexivity]. destruct (changed _); [reflexivity|]. rewrite <- (K1 eq_refl). reflexivity. }
  cbn beta in G. destruct G as (_ & _ & G). injection G; auto.
Qed.
Lemma crun_has {A} (l : list (cop A)) c : ~ In Take l -> has c = true \/ (exists v, In (Put v) l) -> has (crun l c) = true.
Proof.
  revert c. induction l as [|o l IH]; intros c Hn Hh; [destruct Hh as [H|(v & [])]; exact H|]. cbn. apply IH; [intros H; apply Hn; right; exact H|].
  destruct o as [v| |]; cbn [cdo].
  - left. unfold has, put. destruct (value c); reflexivity.
  - exfalso. apply Hn. left. reflexivity.
  - destruct Hh as [H|(v & [H|H])]; [left; exact H|discriminate|right; eauto].
Qed.
Lemma root_ok u0 h : runs_all (u0 :: h) -> nodes_so_far (u0 :: h) -> In AddNode (fst u0) -> ~ does (u0 :: h) RemoveNode ->
  d_root (the_data (updates (u0 :: h))) = negb (has (e_parent (updates (u0 :: h)))).
Proof.
  intros Hr Hn Hadd Hrm.
  assert (Hgen : forall h0 u, Permutation (snd u) all_systems -> nodes_so_far (h0 ++ [u]) -> ~ In RemoveNode (fst u) ->
    has (e_node (updates h0)) = true /\ d_root (the_data (updates h0)) = negb (has (e_parent (updates h0))) \/ h0 = [] /\ In AddNode (fst u) ->
    has (e_node (updates (h0 ++ [u]))) = true /\ d_root (the_data (updates (h0 ++ [u]))) = negb (has (e_parent (updates (h0 ++ [u]))))).
  { intros h0 u Hp Hso Hnr Hcase.
    assert (Hnode : has (e_node (program (fst u) (updates h0))) = true).
    { rewrite (program_cell _ _ dodata_node). apply crun_has; [apply (in_map_take _ RemoveNode); [intros []; (reflexivity || discriminate)|exact Hnr]|].
      destruct Hcase as [[H _]|[_ H]]; [left; exact H|]. right. exists tt. apply (in_map c_node _ _ H). }
    split; [rewrite updates_snoc, upd_node; rewrite (program_cell _ _ dodata_node) in Hnode; exact Hnode|].
    rewrite (data_step _ _ Hso). set (p := program (fst u) (updates h0)) in *.
    rewrite (one_writer d_root IsRoot _ _ (fun b => if (added (e_data p) || changed (e_parent p) || removed (e_parent p))%bool then has (e_node p) && negb (has (e_parent p)) else b)%bool _ Hp);
      [|other|intros d; cbn [eff]; destruct (_ || _)%bool; reflexivity].
    rewrite Hnode. cbn [andb]. rewrite updates_snoc, upd_parent.
    assert (Ep : e_parent p = crun (map c_parent (fst u)) (e_parent (updates h0))) by apply (program_cell _ _ dodata_parent). rewrite <- Ep. change (has (settle (e_parent p))) with (has (e_parent p)).
    destruct Hcase as [[_ Hi]|[-> Ha]].
    - destruct (_ || _)%bool eqn:Eb; [reflexivity|]. apply orb_false_iff in Eb as [Eb Er]. apply orb_false_iff in Eb as [_ Ec]. rewrite Hi. f_equal.
      destruct (marker_kept (map c_parent (fst u)) (e_parent (updates h0))) as [K1 K2]; [apply (updates_settled e_parent c_parent); [apply dodata_parent|cells|cells|reflexivity]|].
      rewrite <- Ep in K1, K2. symmetry. apply K1; [|exact Er]. destruct (added (e_parent p)); [|reflexivity]. rewrite K2 in Ec; congruence.
    - assert (Had : added (e_data p) = true).
      { unfold p. destruct (nodes_snoc [] u Hso) as (_ & Hnd & _). destruct (program_data (fst u) (updates []) Hnd) as [_ H]. apply H. right. split; [reflexivity|].
        apply existsb_exists. exists AddNode. auto. }
      rewrite Had. reflexivity. }
  assert (Hall : has (e_node (updates (u0 :: h))) = true /\ d_root (the_data (updates (u0 :: h))) = negb (has (e_parent (updates (u0 :: h))))); [|apply Hall].
  induction h as [|u h IH] using rev_ind.
  - apply (Hgen [] u0); [apply Hr; left; reflexivity|exact Hn|apply (not_does _ _ Hrm); left; reflexivity|right; auto].
  - change (u0 :: h ++ [u]) with ((u0 :: h) ++ [u]) in *. assert (Hu : In u ((u0 :: h) ++ [u])) by (apply in_or_app; right; left; reflexivity).
    apply Hgen; [apply Hr, Hu|exact Hn|apply (not_does _ _ Hrm), Hu|]. left. apply IH.
    + intros v Hv. apply Hr, in_or_app; auto.
    + apply (nodes_snoc _ u Hn).
    + intros (v & Hv & H). apply Hrm. exists v. split; [apply in_or_app; auto|exact H].
Qed.
