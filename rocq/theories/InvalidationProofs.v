From Verif Require Import Base Tree TreeSpec TreeProofs Siblings SiblingsSpec Invalidation InvalidationSpec.

(** ** Flags *)
Definition le_flags (a b : rflags) : Prop := or_flags b a = b.
Lemma le_flags_refl a : le_flags a a.
Proof. destruct a as [[] [] []]; reflexivity. Qed.
Lemma le_flags_trans a b c : le_flags a b -> le_flags b c -> le_flags a c.
Proof. destruct a as [[] [] []], b as [[] [] []], c as [[] [] []]; unfold le_flags; cbn; intros H1 H2; try discriminate H1; try discriminate H2; reflexivity. Qed.
Lemma le_or_l a b : le_flags a (or_flags a b).
Proof. destruct a as [[] [] []], b as [[] [] []]; reflexivity. Qed.
Lemma le_or_r a b : le_flags b (or_flags a b).
Proof. destruct a as [[] [] []], b as [[] [] []]; reflexivity. Qed.
Definition le_all (f g : nat -> rflags) : Prop := forall n, le_flags (f n) (g n).
Lemma le_all_add f n x : le_all f (add_flags f n x).
Proof. intros a. unfold add_flags. destruct (Nat.eqb a n); [apply le_or_l|apply le_flags_refl]. Qed.
Lemma le_all_trans f g h : le_all f g -> le_all g h -> le_all f h.
Proof. intros H H' n. eapply le_flags_trans; eauto. Qed.

(** ** Running a matcher *)
Lemma run_answer {D R} w (data : nat -> D) s (p : prog D R) : forall fl, fst (run w data s p fl) = answer w data s p.
Proof. induction p as [r|path k IH]; intros fl; [reflexivity|]. cbn [run answer]. destruct (follow w s path); apply IH. Qed.
Lemma run_mono {D R} w (data : nat -> D) s (p : prog D R) : forall fl, le_all fl (snd (run w data s p fl)).
Proof.
  induction p as [r|path k IH]; intros fl; [intros n; apply le_flags_refl|]. cbn [run]. destruct (follow w s path).
  - eapply le_all_trans; [|apply IH]. destruct path; [intros x; apply le_flags_refl|apply le_all_add].
  - apply IH.
Qed.
Fixpoint recorded {D R} (w : tree) (data : nat -> D) (s : nat) (p : prog D R) (fl : nat -> rflags) : Prop :=
  match p with
  | Ret _ => True
  | Visit path k =>
      (forall n d, follow w s path = Some n -> hd_error path = Some d -> le_flags (flag_of d) (fl n)) /\
      recorded w data s (k (option_map data (follow w s path))) fl
  end.
Lemma recorded_mono {D R} w (data : nat -> D) s (p : prog D R) : forall fl fl', le_all fl fl' -> recorded w data s p fl -> recorded w data s p fl'.
Proof.
  induction p as [r|path k IH]; intros fl fl' Hle H; [exact I|]. cbn [recorded] in *. destruct H as [H H']. split; [|eapply IH; eauto].
  intros n d Hn Hd. eapply le_flags_trans; [apply (H _ _ Hn Hd)|apply Hle].
Qed.
Lemma run_recorded {D R} w (data : nat -> D) s (p : prog D R) : forall fl, recorded w data s p (snd (run w data s p fl)).
Proof.
  induction p as [r|path k IH]; intros fl; [exact I|]. cbn [run recorded]. destruct (follow w s path) as [n|] eqn:Ef; cbn [option_map].
  - split; [|apply IH]. intros n' d En Hd. injection En as <-. destruct path as [|d' path]; [discriminate|].
    injection Hd as ->. eapply le_flags_trans; [|apply run_mono]. unfold add_flags. rewrite Nat.eqb_refl. apply le_or_r.
  - split; [discriminate|apply IH].
Qed.

Lemma recorded_stable {D R} w (data data' : nat -> D) s fl (p : prog D R) :
  only_covered p -> recorded w data s p fl ->
  (forall path n, covered path -> follow w s path = Some n ->
     (forall d, hd_error path = Some d -> le_flags (flag_of d) (fl n)) -> data' n = data n) ->
  answer w data' s p = answer w data s p /\ recorded w data' s p fl.
Proof.
  intros Hc Hr Hd. revert Hc Hr. induction p as [r|path k IH]; intros Hc Hr; [split; [reflexivity|exact I]|].
  cbn [only_covered recorded answer] in *. destruct Hc as [Hc Hk]. destruct Hr as [Hr Hr'].
  assert (E : option_map data' (follow w s path) = option_map data (follow w s path)).
  { destruct (follow w s path) as [n|] eqn:Ef; [|reflexivity]. cbn [option_map]. f_equal. eapply Hd; eauto. }
  rewrite E. destruct (IH _ (Hk _) Hr') as [Ha Hb]. split; [exact Ha|]. split; assumption.
Qed.

Lemma recorded_reset {D R} w (data : nat -> D) s (p : prog D R) fl fl' :
  (forall path m, follow w s path = Some m -> fl' m = fl m) -> recorded w data s p fl -> recorded w data s p fl'.
Proof.
  intros He. induction p as [r|path k IH]; intros H; [exact I|]. cbn [recorded] in *. destruct H as [H H']. split; [|apply IH, H'].
  intros n d Hn Hd. rewrite (He _ _ Hn). eapply H; eauto.
Qed.

(** ** The hierarchy *)
Lemma link_sibling w e p n : good_tree w -> parent (t_forest w) e = Some p ->
  previous_sibling (t_link w e) = Some n \/ next_sibling (t_link w e) = Some n -> parent (t_forest w) n = Some p.
Proof.
  intros [Hw Hl] Hp Hn. specialize (Hl e). rewrite Hp in Hl. destruct Hl as (l1 & l2 & E & E1 & E2).
  apply (wf_agree _ Hw). rewrite E. rewrite in_app_iff. cbn [In].
  destruct Hn as [Hn|Hn].
  - left. rewrite E1 in Hn. clear - Hn. destruct l1 as [|x l1 _] using rev_ind.
    + cbn in Hn. discriminate.
    + rewrite map_app in Hn. cbn [map] in Hn. rewrite last_last in Hn. injection Hn as ->. rewrite in_app_iff. right. left. reflexivity.
  - right. right. rewrite E2 in Hn. destruct l2; [discriminate|]. injection Hn as ->. left. reflexivity.
Qed.
Lemma step_sibling w e d n : good_tree w -> d = Prev \/ d = Next -> step w d e = Some n ->
  exists p, parent (t_forest w) e = Some p /\ parent (t_forest w) n = Some p.
Proof.
  intros Hg Hd Hs. destruct (parent (t_forest w) e) as [p|] eqn:Hp.
  - exists p. split; [reflexivity|]. eapply link_sibling; eauto. destruct Hd as [-> | ->]; cbn [step] in Hs; auto.
  - destruct Hg as [_ Hl]. specialize (Hl e). rewrite Hp in Hl. destruct Hd as [-> | ->]; cbn [step] in Hs; rewrite Hl in Hs; discriminate.
Qed.
Lemma follow_sibs w s sibs n : good_tree w -> Forall (fun d => d = Prev \/ d = Next) sibs -> follow w s sibs = Some n ->
  n = s \/ exists p, parent (t_forest w) s = Some p /\ parent (t_forest w) n = Some p.
Proof.
  intros Hg Hs. revert n. induction Hs as [|d sibs Hd Hs IH]; intros n Hn; [injection Hn; auto|].
  cbn [follow] in Hn. destruct (follow w s sibs) as [m|] eqn:Em; [|discriminate].
  destruct (step_sibling _ _ _ _ Hg Hd Hn) as (p & Hp & Hp'). right.
  destruct (IH _ eq_refl) as [-> | (p' & Hq & Hq')]; [exists p; auto|]. exists p'. split; [exact Hq|]. congruence.
Qed.
Lemma descendant_trans w a b c : descendant w a b -> descendant w b c -> descendant w a c.
Proof. intros H H'. induction H'; eapply desc_step; eauto. Qed.
Lemma follow_ups w s sibs ups n : good_tree w -> Forall (fun d => d = Prev \/ d = Next) sibs -> Forall (eq Up) ups -> ups <> [] ->
  follow w s (ups ++ sibs) = Some n -> descendant (t_forest w) n s.
Proof.
  intros Hg Hs Hu. revert n. induction Hu as [|d ups Hd Hu IH]; intros n Hne Hn; [congruence|]. subst d.
  cbn [app follow] in Hn. destruct (follow w s (ups ++ sibs)) as [m|] eqn:Em; [|discriminate]. cbn [step] in Hn.
  destruct ups as [|u ups].
  - cbn [app] in Em. destruct (follow_sibs _ _ _ _ Hg Hs Em) as [-> | (p & Hp & Hp')]; apply desc_child; congruence.
  - eapply descendant_trans; [apply desc_child; exact Hn|]. apply IH; congruence.
Qed.
Lemma follow_children w s path n : good_tree w -> Forall (eq FirstChild) path -> path <> [] -> follow w s path = Some n -> descendant (t_forest w) s n.
Proof.
  intros [Hw _] Hp. revert n. induction Hp as [|d path Hd Hp IH]; intros n Hne Hn; [congruence|]. subst d.
  cbn [follow] in Hn. destruct (follow w s path) as [m|] eqn:Em; [|discriminate]. cbn [step] in Hn.
  assert (Hm : parent (t_forest w) n = Some m).
  { apply (wf_agree _ Hw). destruct (children (t_forest w) m); [discriminate|]. injection Hn as ->. left. reflexivity. }
  destruct path as [|d path]; [injection Em as ->; apply desc_child; exact Hm|]. eapply desc_step; [|exact Hm]. apply IH; congruence.
Qed.
Lemma descendant_connected w a e : descendant w a e -> connected w a e.
Proof. induction 1; eapply conn_down; eauto. apply conn_refl. Qed.
Lemma connected_trans w a b c : connected w a b -> connected w b c -> connected w a c.
Proof.
  intros H H'. induction H' as [|x y z H' IH Hp|x y z H' IH Hp]; [exact H| |].
  - apply (conn_up w a y z); [apply IH, H|exact Hp].
  - apply (conn_down w a y z); [apply IH, H|exact Hp].
Qed.
Lemma connected_sym w a b : connected w a b -> connected w b a.
Proof.
  intros H. induction H as [|x y z H IH Hp|x y z H IH Hp]; [apply conn_refl| |]; apply (connected_trans w z y x); try exact IH.
  - apply (conn_down w z z y); [apply conn_refl|exact Hp].
  - apply (conn_up w z z y); [apply conn_refl|exact Hp].
Qed.
Lemma step_connected w d e n : good_tree w -> step w d e = Some n -> connected (t_forest w) e n.
Proof.
  intros Hg Hs. destruct d.
  - eapply conn_up; [apply conn_refl|exact Hs].
  - destruct (step_sibling w e Prev n Hg) as (p & Hp & Hp'); auto. eapply conn_down; [|exact Hp']. eapply conn_up; [apply conn_refl|exact Hp].
  - destruct (step_sibling w e Next n Hg) as (p & Hp & Hp'); auto. eapply conn_down; [|exact Hp']. eapply conn_up; [apply conn_refl|exact Hp].
  - eapply conn_down; [apply conn_refl|]. destruct Hg as [Hw _]. apply (wf_agree _ Hw). cbn [step] in Hs.
    destruct (children (t_forest w) e); [discriminate|]. injection Hs as ->. left. reflexivity.
Qed.
Lemma follow_connected w s path n : good_tree w -> follow w s path = Some n -> connected (t_forest w) s n.
Proof.
  intros Hg. revert n. induction path as [|d path IH]; intros n Hn; [injection Hn as ->; apply conn_refl|].
  cbn [follow] in Hn. destruct (follow w s path) as [m|] eqn:Em; [|discriminate].
  eapply connected_trans; [apply IH; reflexivity|]. eapply step_connected; eauto.
Qed.

(** ** Marking *)
Lemma le_flag_of d x : le_flags (flag_of d) x ->
  match d with Up => rec_descendants x | Prev | Next => rec_siblings x | FirstChild => rec_ascendants x end = true.
Proof. destruct d, x as [[] [] []]; unfold le_flags; cbn; intros H; try discriminate H; reflexivity. Qed.
Lemma desc_fuel w fuel r l e : wf_forest w -> iter_ui_descendants_with_parent w fuel r = Some l -> descendant w r e -> In e (map snd l).
Proof.
  intros Hw Hl He. destruct (descendants_correct w r Hw) as (n0 & l0 & Hn & _ & Hin & _).
  assert (l = l0) as ->. { eapply collect_det; [exact Hl|apply (Hn n0); lia]. }
  assert (exists p, parent w e = Some p) as [p Hp] by (inversion He; eauto).
  apply in_map_iff. exists (p, e). split; [reflexivity|]. apply Hin. auto.
Qed.
Lemma asc_fuel w fuel r l e : wf_forest w -> iter_ui_ancestors w fuel r = Some l -> descendant w e r -> In e l.
Proof.
  intros Hw Hl He. destruct (ancestors_correct w r Hw) as (n0 & l0 & Hc & Hn).
  assert (l = l0) as ->. { eapply collect_det; [exact Hl|apply (Hn n0); lia]. }
  apply (chain_descendant _ _ _ Hc), He.
Qed.
Lemma to_be_marked_In {D} w fuel (f : iframe D) needs fl nodes l m :
  to_be_marked w fuel f needs fl nodes = Some l -> In m nodes -> exists a, marks_of w fuel f (needs m) (fl m) m = Some a /\ incl a l.
Proof.
  revert l. induction nodes as [|e nodes IH]; intros l Hl Hm; [destruct Hm|]. cbn [to_be_marked] in Hl.
  destruct (marks_of w fuel f (needs e) (fl e) e) as [a|] eqn:Ea; [|discriminate].
  destruct (to_be_marked w fuel f needs fl nodes) as [b|] eqn:Eb; [|discriminate]. injection Hl as <-.
  destruct Hm as [->|Hm].
  - exists a. split; [exact Ea|]. apply incl_appl, incl_refl.
  - destruct (IH _ eq_refl Hm) as (a' & Ha' & Hi). exists a'. split; [exact Ha'|]. apply incl_appr, Hi.
Qed.
Lemma marked_by {D} w fuel (f : iframe D) needs fl nodes l s path m :
  good_tree w -> to_be_marked (t_forest w) fuel f needs fl nodes = Some l -> In m nodes -> f_data_changed f m = true ->
  covered path -> follow w s path = Some m -> (forall d, hd_error path = Some d -> le_flags (flag_of d) (fl m)) -> In s l.
Proof.
  intros Hg Hl Hm Hc Hp Hf Hfl. destruct (to_be_marked_In _ _ _ _ _ _ _ _ Hl Hm) as (a & Ha & Hi). apply Hi. clear Hi Hl Hm.
  unfold marks_of in Ha. rewrite Hc in Ha. cbn [orb negb andb] in Ha.
  destruct (if rec_descendants (fl m) then option_map (map snd) (iter_ui_descendants_with_parent (t_forest w) fuel m) else Some []) as [ds|] eqn:Ed; [|discriminate].
  destruct (if rec_ascendants (fl m) then iter_ui_ancestors (t_forest w) fuel m else Some []) as [as_|] eqn:Es; [|discriminate].
  injection Ha as <-. cbn [app In]. rewrite !in_app_iff.
  destruct path as [|d path]; [injection Hf as ->; left; reflexivity|]. specialize (Hfl d eq_refl).
  destruct Hp as [(ups & sibs & E & Hu & Hs)|Hp].
  - destruct ups as [|u ups].
    + cbn [app] in E. right. left. destruct Hs as [|d' sibs' Hd Hs']; [discriminate|]. injection E as -> ->.
      assert (rec_siblings (fl m) = true) as ->. { apply le_flag_of in Hfl. destruct Hd as [-> | ->]; exact Hfl. }
      unfold iter_ui_siblings.
      cbn [follow] in Hf. destruct (follow w s sibs') as [m'|] eqn:Em; [|discriminate].
      destruct (step_sibling _ _ _ _ Hg Hd Hf) as (p & Hp & Hp').
      rewrite Hp'. apply (wf_agree _ (proj1 Hg)).
      destruct (follow_sibs _ _ _ _ Hg Hs' Em) as [-> | (q & Hq & Hq')]; [exact Hp|congruence].
    + right. right. left. assert (u = Up) as -> by (inversion Hu; congruence). cbn [app] in E. injection E as -> ->.
      assert (Hr : rec_descendants (fl m) = true) by (apply le_flag_of in Hfl; exact Hfl).
      rewrite Hr in Ed. destruct (iter_ui_descendants_with_parent (t_forest w) fuel m) as [l'|] eqn:El; [|discriminate].
      cbn [option_map] in Ed. injection Ed as <-. eapply desc_fuel; [apply Hg|exact El|].
      apply (follow_ups w s sibs (Up :: ups)); auto. discriminate.
  - right. right. right. inversion Hp; subst.
    assert (Hr : rec_ascendants (fl m) = true) by (apply le_flag_of in Hfl; exact Hfl).
    rewrite Hr in Es. eapply asc_fuel; [apply Hg|exact Es|].
    apply (follow_children w s (FirstChild :: path)); auto. discriminate.
Qed.

(** ** Calculation *)
Lemma calculate_mono {D R} w sheets (data : nat -> D) needs nodes : forall fl (active : nat -> option R),
  le_all fl (fst (calculate w sheets data needs nodes fl active)).
Proof.
  induction nodes as [|e nodes IH]; intros fl active; [intros n; apply le_flags_refl|]. cbn [calculate].
  destruct (needs e); [|apply IH]. destruct (sheets (data e)) as [p|]; [|apply IH].
  pose proof (run_mono w data e p fl) as H. destruct (run w data e p fl) as [r fl']. eapply le_all_trans; [exact H|apply IH].
Qed.
Lemma calculate_other {D R} w sheets (data : nat -> D) needs nodes n : forall fl (active : nat -> option R),
  ~ In n nodes \/ needs n = false \/ sheets (data n) = None -> snd (calculate w sheets data needs nodes fl active) n = active n.
Proof.
  induction nodes as [|e nodes IH]; intros fl active Hn; [reflexivity|]. cbn [calculate].
  assert (Hn' : ~ In n nodes \/ needs n = false \/ sheets (data n) = None) by (cbn [In] in Hn; tauto).
  destruct (needs e) eqn:Ee; [|apply IH; exact Hn']. destruct (sheets (data e)) as [p|] eqn:Ep; [|apply IH; exact Hn'].
  destruct (run w data e p fl) as [r fl'] eqn:Er. rewrite IH by exact Hn'.
  destruct (Nat.eqb_spec n e) as [->|]; [|reflexivity]. cbn [In] in Hn. destruct Hn as [Hn|[Hn|Hn]]; [tauto|congruence|congruence].
Qed.
Lemma calculate_done {D R} w sheets (data : nat -> D) needs nodes n (p : prog D R) : forall fl active,
  In n nodes -> needs n = true -> sheets (data n) = Some p ->
  snd (calculate w sheets data needs nodes fl active) n = Some (answer w data n p) /\
  recorded w data n p (fst (calculate w sheets data needs nodes fl active)).
Proof.
  induction nodes as [|e nodes IH]; intros fl active Hi Hn Hp; [destruct Hi|].
  cbn [calculate]. destruct (Nat.eq_dec e n) as [->|Hne].
  - rewrite Hn, Hp. pose proof (run_answer w data n p fl) as Ha. pose proof (run_recorded w data n p fl) as Hr.
    destruct (run w data n p fl) as [r fl']. cbn [fst snd] in Ha, Hr. subst r.
    destruct (in_dec Nat.eq_dec n nodes) as [Hi'|Hi']; [apply IH; assumption|].
    split.
    + rewrite calculate_other by (left; exact Hi'). rewrite Nat.eqb_refl. reflexivity.
    + eapply recorded_mono; [apply calculate_mono|exact Hr].
  - destruct Hi as [Hi|Hi]; [congruence|]. destruct (needs e); [|apply IH; assumption].
    destruct (sheets (data e)) as [p'|]; [|apply IH; assumption]. destruct (run w data e p' fl) as [r fl']. apply IH; assumption.
Qed.

(** ** Frames *)
Definition settled {D R} (w : tree) (sheets : D -> option (prog D R)) (nodes : list nat) (s : istate D R) : Prop :=
  forall n, In n nodes -> i_needs s n = true \/
    exists p, sheets (i_data s n) = Some p /\ i_active s n = Some (answer w (i_data s) n p) /\ recorded w (i_data s) n p (i_flags s).
Lemma existsb_In n l : existsb (Nat.eqb n) l = true <-> In n l.
Proof.
  rewrite existsb_exists. split; [intros (x & Hx & E); apply Nat.eqb_eq in E; subst; exact Hx|intros H; exists n; split; [exact H|apply Nat.eqb_refl]].
Qed.

Lemma frame_settled {D R} w (sheets : D -> option (prog D R)) nodes fuel f s s' :
  good_tree w -> (forall d p, sheets d = Some p -> only_covered p) ->
  reported nodes (i_data s) f -> whole_trees (t_forest w) f ->
  settled w sheets nodes s -> iframe_step w sheets nodes fuel f s = Some s' ->
  settled w sheets nodes s' /\ (forall n, In n nodes -> i_needs s' n = true -> sheets (i_data s' n) = None) /\ i_data s' = f_data f.
Proof.
  intros Hg Hcov Hrep Hwt Hs Hstep. unfold iframe_step in Hstep.
  set (fl := fun n => if f_flags_reset f n then no_flags else i_flags s n) in *.
  set (needs := fun n => i_needs s n || f_marked f n) in *.
  destruct (to_be_marked (t_forest w) fuel f needs fl nodes) as [l|] eqn:El; [|discriminate].
  set (needs' := fun n => needs n || existsb (Nat.eqb n) l).
  change (fun n => i_needs s n || f_marked f n || existsb (Nat.eqb n) l) with needs' in Hstep.
  destruct (calculate w sheets (f_data f) needs' nodes fl (i_active s)) as [fl' active'] eqn:Ec.
  injection Hstep as <-. cbn [i_data i_needs].
  assert (Eneeds : forall n, In n nodes -> needs' n && match sheets (f_data f n) with None => true | Some _ => negb (existsb (Nat.eqb n) nodes) end
                     = needs' n && match sheets (f_data f n) with None => true | Some _ => false end).
  { intros n Hn. apply existsb_In in Hn. rewrite Hn. reflexivity. }
  split; [|split].
  2:{ intros n Hn Hne. change (needs' n && match sheets (f_data f n) with None => true | Some _ => negb (existsb (Nat.eqb n) nodes) end = true) in Hne. rewrite (Eneeds n Hn) in Hne. destruct (sheets (f_data f n)); [rewrite andb_false_r in Hne; discriminate|reflexivity]. }
  2: reflexivity.
  intros n Hn. cbn [i_data i_flags i_needs i_active].
  match goal with |- _ \/ ?G => change ((needs' n && match sheets (f_data f n) with None => true | Some _ => negb (existsb (Nat.eqb n) nodes) end = true) \/ G) end. rewrite (Eneeds n Hn).
  destruct (needs' n) eqn:En.
  - destruct (sheets (f_data f n)) as [p|] eqn:Ep; [|left; reflexivity]. right. exists p. split; [reflexivity|].
    destruct (calculate_done w sheets (f_data f) needs' nodes n p fl (i_active s) Hn En Ep) as [Ha Hb]. rewrite Ec in Ha, Hb. cbn [fst snd] in Ha, Hb. auto.
  - right. unfold needs' in En. apply orb_false_iff in En. destruct En as [En Enl]. unfold needs in En. apply orb_false_iff in En. destruct En as [En Enm].
    assert (Hnl : ~ In n l) by (rewrite <- existsb_In; congruence).
    destruct (Hs n Hn) as [H|(p & Hp & Ha & Hr)]; [congruence|].
    (* no flag this node relies on was reset, nothing it looked at changed *)
    assert (Hfl : forall path m, follow w n path = Some m -> fl m = i_flags s m).
    { intros path m Hm. unfold fl. destruct (f_flags_reset f m) eqn:Er; [|reflexivity].
      rewrite (Hwt m n Er) in Enm; [discriminate|]. apply connected_sym. eapply follow_connected; eauto. }
    assert (Hd : forall path m, covered path -> follow w n path = Some m ->
               (forall d, hd_error path = Some d -> le_flags (flag_of d) (i_flags s m)) -> f_data f m = i_data s m).
    { intros path m Hpa Hm Hf. destruct (Hrep m) as [Hx|[Hx Hmi]]; [exact Hx|].
      exfalso. apply Hnl. eapply (marked_by w fuel f needs fl nodes l n path m); eauto.
      intros d Hd'. rewrite (Hfl _ _ Hm). apply Hf, Hd'. }
    assert (En' : f_data f n = i_data s n) by (apply (Hd [] n); [right; constructor|reflexivity|discriminate]).
    exists p. rewrite En'. split; [exact Hp|].
    destruct (recorded_stable w (i_data s) (f_data f) n (i_flags s) p (Hcov _ _ Hp) Hr Hd) as [Ha' Hr'].
    split.
    + assert (E : snd (calculate w sheets (f_data f) needs' nodes fl (i_active s)) n = i_active s n).
      { apply calculate_other. right. left. unfold needs', needs. rewrite En, Enm, Enl. reflexivity. }
      rewrite Ec in E. cbn [snd] in E. rewrite E, Ha, Ha'. reflexivity.
    + pose proof (calculate_mono w sheets (f_data f) needs' nodes fl (i_active s)) as Hm. rewrite Ec in Hm. cbn [fst] in Hm.
      eapply recorded_mono; [exact Hm|].
      apply (recorded_reset w (f_data f) n p (i_flags s) fl); [|exact Hr'].
      intros path m Hpm. rewrite (Hfl _ _ Hpm). reflexivity.
Qed.

Lemma frames_settled {D R} w (sheets : D -> option (prog D R)) nodes fuel fs : forall s s',
  good_tree w -> (forall d p, sheets d = Some p -> only_covered p) -> fs <> [] ->
  history (t_forest w) nodes (i_data s) fs ->
  settled w sheets nodes s -> iframes w sheets nodes fuel fs s = Some s' ->
  settled w sheets nodes s' /\ (forall n, In n nodes -> i_needs s' n = true -> sheets (i_data s' n) = None) /\
  Some (i_data s') = option_map f_data (last (map Some fs) None).
Proof.
  induction fs as [|f fs IH]; intros s s' Hg Hc Hne Hh Hs Hrun; [congruence|]. cbn [history iframes] in *.
  destruct Hh as (Hrep & Hwt & Hh). destruct (iframe_step w sheets nodes fuel f s) as [s1|] eqn:E1; [|discriminate].
  destruct (frame_settled w sheets nodes fuel f s s1 Hg Hc Hrep Hwt Hs E1) as (H1 & H2 & H3).
  destruct fs as [|f' fs].
  - cbn [iframes] in Hrun. injection Hrun as <-. split; [exact H1|]. split; [exact H2|]. rewrite H3. reflexivity.
  - change (last (map Some (f :: f' :: fs)) None) with (last (map Some (f' :: fs)) None).
    apply (IH s1 s'); auto; [discriminate|]. rewrite H3. exact Hh.
Qed.

(** ** Termination *)
Lemma marks_total w (nodes : list nat) : wf_forest w -> exists n0, forall fuel, n0 <= fuel -> forall e, In e nodes ->
  (exists l, iter_ui_descendants_with_parent w fuel e = Some l) /\ (exists l, iter_ui_ancestors w fuel e = Some l).
Proof.
  intros Hw. induction nodes as [|e nodes (n0 & IH)]; [exists 0; intros fuel _ e []|].
  destruct (descendants_correct w e Hw) as (n1 & l1 & H1 & _). destruct (ancestors_correct w e Hw) as (n2 & l2 & _ & H2).
  exists (n0 + n1 + n2). intros fuel Hf e' [<-|He].
  - split; [exists l1; apply H1; lia|exists l2; apply H2; lia].
  - apply IH; [lia|exact He].
Qed.
Lemma to_be_marked_total {D} w fuel (nodes : list nat) :
  (forall e, In e nodes -> (exists l, iter_ui_descendants_with_parent w fuel e = Some l) /\ (exists l, iter_ui_ancestors w fuel e = Some l)) ->
  forall (f : iframe D) needs fl, exists l, to_be_marked w fuel f needs fl nodes = Some l.
Proof.
  induction nodes as [|e nodes IH]; intros He f needs fl; [exists []; reflexivity|]. cbn [to_be_marked].
  destruct (He e (or_introl eq_refl)) as ((l1 & H1) & (l2 & H2)).
  assert (exists a, marks_of w fuel f (needs e) (fl e) e = Some a) as [a Ha].
  { unfold marks_of. rewrite H1, H2. destruct (negb _); [eauto|]. destruct (negb _ && _ && _); [eauto|].
    destruct (rec_descendants (fl e)), (rec_ascendants (fl e)); cbn [option_map]; eauto. }
  rewrite Ha. destruct (IH (fun e' H => He e' (or_intror H)) f needs fl) as [b Hb]. rewrite Hb. eauto.
Qed.
Lemma iframes_total {D R} w (sheets : D -> option (prog D R)) nodes : wf_forest (t_forest w) ->
  exists n0, forall fuel, n0 <= fuel -> forall fs s, exists s', iframes w sheets nodes fuel fs s = Some s'.
Proof.
  intros Hw. destruct (marks_total (t_forest w) nodes Hw) as [n0 H0]. exists n0. intros fuel Hf fs.
  induction fs as [|f fs IH]; intros s; [exists s; reflexivity|]. cbn [iframes]. unfold iframe_step.
  destruct (to_be_marked_total (t_forest w) fuel nodes (H0 fuel Hf) f (fun n => i_needs s n || f_marked f n)
    (fun n => if f_flags_reset f n then no_flags else i_flags s n)) as [l Hl].
  rewrite Hl. destruct (calculate _ _ _ _ _ _ _) as [fl' act']. apply IH.
Qed.
Lemma fresh_settled {D R} w (sheets : D -> option (prog D R)) nodes data : settled w sheets nodes (fresh data).
Proof. intros n _. left. reflexivity. Qed.

(** ** Selectors: which handles are used *)
Lemma walk_covered {D R} d more (c : D -> bool) next (k : bool -> prog D R) (P : list dir -> Prop) :
  (forall path, P path -> P (d :: path)) -> (forall path, P path -> covered path) ->
  (forall b, only_covered (k b)) ->
  (forall path k', P path -> (forall b, only_covered (k' b)) -> only_covered (next path k')) ->
  forall fuel path, P path -> only_covered (walk d more c fuel path next k).
Proof.
  intros Hd HP Hk Hn. induction fuel as [|fuel IH]; intros path Hp; [apply Hk|]. cbn [walk only_covered].
  split; [apply HP, Hd, Hp|]. intros [x|]; [|apply Hk].
  assert (Hr : only_covered (if more then walk d more c fuel (d :: path) next k else k false)).
  { destruct more; [apply IH, Hd, Hp|apply Hk]. }
  destruct (c x); [|exact Hr]. apply Hn; [apply Hd, Hp|]. intros []; [apply Hk|exact Hr].
Qed.
Definition sib_path (path : list dir) : Prop := Forall (fun d => d = Prev \/ d = Next) path.
Definition sib_up_path (path : list dir) : Prop :=
  exists ups sibs, path = ups ++ sibs /\ Forall (eq Up) ups /\ Forall (fun d => d = Prev \/ d = Next) sibs.
Lemma ups_covered {D R} fuel (l : list (comb * (D -> bool))) : Forall (fun c => c = Child \/ c = Descendant) (map fst l) ->
  forall path (k : bool -> prog D R), sib_up_path path -> (forall b, only_covered (k b)) -> only_covered (match_rest fuel l path k).
Proof.
  induction l as [|[cb c] l IH]; intros Hl path k Hp Hk; [apply Hk|]. cbn [match_rest map fst] in *.
  inversion Hl; subst. assert (comb_dir cb = Up) as -> by (destruct H1 as [-> | ->]; reflexivity).
  apply (walk_covered Up _ c _ k sib_up_path); auto.
  - intros path' (ups & sibs & -> & Hu & Hs). exists (Up :: ups), sibs. repeat split; auto.
  - intros path' H. left. exact H.
Qed.
Lemma sibs_covered {D R} fuel (l : list (comb * (D -> bool))) : siblings_then_ancestors (map fst l) ->
  forall path (k : bool -> prog D R), sib_path path -> (forall b, only_covered (k b)) -> only_covered (match_rest fuel l path k).
Proof.
  induction l as [|[cb c] l IH]; intros Hl path k Hp Hk; [apply Hk|].
  destruct Hl as (sibs & ups & E & Hs & Hu). destruct sibs as [|sb sibs].
  - apply ups_covered; auto; [rewrite E; exact Hu|]. exists [], path. auto.
  - cbn [match_rest map fst app] in *. injection E as -> E. inversion Hs; subst.
    assert (comb_dir sb = Prev) as -> by (destruct H1 as [-> | ->]; reflexivity).
    apply (walk_covered Prev _ c _ k sib_path); auto.
    + intros path' H. constructor; auto.
    + intros path' H. left. exists [], path'. auto.
    + intros path' k' Hp' Hk'. apply IH; auto. exists sibs, ups. auto.
Qed.
Lemma rules_covered {D} fuel (rules : list (selector D * nat)) :
  Forall (fun r => siblings_then_ancestors (map fst (s_rest (fst r)))) rules -> forall acc, only_covered (match_rules fuel rules acc).
Proof.
  induction 1 as [|[s id] rules Hs Hr IH]; intros acc; [exact I|]. cbn [match_rules only_covered]. split; [right; constructor|].
  intros [x|]; [|apply IH]. destruct (s_subject s x); [|apply IH]. apply sibs_covered; [exact Hs|constructor|]. intros b. apply IH.
Qed.

(** ** Selectors: what the matcher answers *)
Inductive steps (w : tree) (d : dir) : nat -> list nat -> Prop :=
| steps_end : forall e, step w d e = None -> steps w d e []
| steps_next : forall e x l, step w d e = Some x -> steps w d x l -> steps w d e (x :: l).
Lemma walk_answer {D R} w (data : nat -> D) s d more c next (b : nat -> bool) :
  (forall path m (k : bool -> prog D R), follow w s path = Some m -> answer w data s (next path k) = answer w data s (k (b m))) ->
  forall fuel path m l (k : bool -> prog D R), follow w s path = Some m -> steps w d m l -> length l <= fuel ->
  answer w data s (walk d more c fuel path next k) =
  answer w data s (k (existsb (fun x => c (data x) && b x) (if more then l else firstn 1 l))).
Proof.
  intros Hn. induction fuel as [|fuel IH]; intros path m l k Hm Hl Hf.
  - destruct l; [|cbn in Hf; lia]. destruct more; reflexivity.
  - cbn [walk answer follow]. rewrite Hm. destruct Hl as [m Hs|m x l Hs Hl].
    + rewrite Hs. cbn [option_map]. destruct more; reflexivity.
    + rewrite Hs. cbn [option_map]. cbn [length] in Hf.
      assert (Hm' : follow w s (d :: path) = Some x) by (cbn [follow]; rewrite Hm; exact Hs).
      assert (Hr : answer w data s (if more then walk d more c fuel (d :: path) next k else k false) =
                   answer w data s (k (if more then existsb (fun x => c (data x) && b x) l else false))).
      { destruct more; [apply (IH _ x); auto; lia|reflexivity]. }
      destruct (c (data x)) eqn:Ec.
      * rewrite (Hn _ x) by exact Hm'. destruct (b x) eqn:Eb.
        -- destruct more; cbn [existsb firstn]; rewrite Ec, Eb; reflexivity.
        -- rewrite Hr. destruct more; cbn [existsb firstn]; rewrite Ec, Eb; reflexivity.
      * rewrite Hr. destruct more; cbn [existsb firstn]; rewrite Ec; reflexivity.
Qed.
Lemma steps_up w e l : ancestor_chain (t_forest w) e l -> steps w Up e l.
Proof. induction 1; [apply steps_end; assumption|eapply steps_next; eauto]. Qed.
Lemma nodup_split {A} (l1 l2 l1' l2' : list A) e : NoDup (l1 ++ e :: l2) -> l1 ++ e :: l2 = l1' ++ e :: l2' -> l1 = l1' /\ l2 = l2'.
Proof.
  revert l1'. induction l1 as [|x l1 IH]; intros [|y l1'] Hn E; cbn [app] in *.
  - injection E as ->. auto.
  - injection E as -> ->. inversion Hn; subst. exfalso. apply H1. rewrite in_app_iff. right. left. reflexivity.
  - injection E as -> <-. inversion Hn; subst. exfalso. apply H1. rewrite in_app_iff. right. left. reflexivity.
  - injection E as -> E. inversion Hn; subst. destruct (IH _ H2 E) as [-> ->]. auto.
Qed.
Lemma steps_prev w p l1 : forall e l2, good_tree w -> children (t_forest w) p = l1 ++ e :: l2 -> steps w Prev e (rev l1).
Proof.
  induction l1 as [|x l1 IH] using rev_ind; intros e l2 Hg Hc.
  - apply steps_end. destruct Hg as [Hw Hl]. specialize (Hl e).
    assert (Hp : parent (t_forest w) e = Some p) by (apply (wf_agree _ Hw); rewrite Hc; left; reflexivity).
    rewrite Hp in Hl. destruct Hl as (a & b & E & E1 & _). cbn [step]. rewrite E1.
    destruct (nodup_split [] l2 a b e) as [<- _]; [|congruence|reflexivity]. cbn [app] in *. rewrite <- Hc. apply (wf_nodup _ Hw).
  - rewrite rev_app_distr. cbn [rev app]. apply steps_next.
    + destruct Hg as [Hw Hl]. specialize (Hl e).
      assert (Hp : parent (t_forest w) e = Some p) by (apply (wf_agree _ Hw); rewrite Hc, in_app_iff; right; left; reflexivity).
      rewrite Hp in Hl. destruct Hl as (a & b & E & E1 & _). cbn [step]. rewrite E1.
      destruct (nodup_split (l1 ++ [x]) l2 a b e) as [<- _]; [|congruence|].
      * rewrite <- Hc. apply (wf_nodup _ Hw).
      * rewrite map_app. cbn [map]. apply last_last.
    + apply (IH x (e :: l2) Hg). rewrite Hc, <- app_assoc. reflexivity.
Qed.
(** The candidates of each combinator *)
Lemma candidates w fuel cb m : good_tree w -> wide (t_forest w) fuel -> exists l, steps w (comb_dir cb) m l /\ length l <= fuel /\
  forall a, In a (if comb_repeats cb then l else firstn 1 l) <-> related (t_forest w) cb a m.
Proof.
  intros Hg [Hw1 Hw2].
  assert (Hup : exists l, steps w Up m l /\ length l <= fuel /\ (forall a, In a l <-> descendant (t_forest w) a m) /\ (hd_error l = parent (t_forest w) m)).
  { destruct (chain_exists (t_forest w) m (proj1 Hg)) as [l Hl]. exists l. split; [apply steps_up, Hl|]. split; [apply (Hw2 _ _ Hl)|].
    split; [apply chain_descendant, Hl|]. destruct Hl; cbn [hd_error]; congruence. }
  assert (Hprev : exists l, steps w Prev m l /\ length l <= fuel /\ (forall a, In a l <-> earlier_sibling (t_forest w) a m) /\
                  (forall a, hd_error l = Some a <-> previous (t_forest w) a m)).
  { destruct (parent (t_forest w) m) as [p|] eqn:Hp.
    - assert (In m (children (t_forest w) p)) as Hi by (apply (wf_agree _ (proj1 Hg)); exact Hp).
      destruct (in_split _ _ Hi) as (l1 & l2 & E). exists (rev l1). split; [eapply steps_prev; eauto|].
      assert (Hnd : NoDup (l1 ++ m :: l2)) by (rewrite <- E; apply (wf_nodup _ (proj1 Hg))).
      split; [rewrite rev_length; specialize (Hw1 p); rewrite E, app_length in Hw1; lia|]. split.
      + intros a. rewrite <- in_rev. split.
        * intros Ha. destruct (in_split _ _ Ha) as (x & y & ->). apply (earlier _ _ _ p Hp). exists x, y, l2. rewrite E, <- app_assoc. reflexivity.
        * intros [p' Hp' (x & y & z & E')]. rewrite Hp in Hp'. injection Hp' as <-. rewrite E in E'.
          replace (x ++ a :: y ++ m :: z) with ((x ++ a :: y) ++ m :: z) in E' by (rewrite <- app_assoc; reflexivity).
          destruct (nodup_split _ _ _ _ _ Hnd E') as [-> _]. rewrite in_app_iff. right. left. reflexivity.
      + intros a. split.
        * intros Ha. destruct l1 as [|x l1 _] using rev_ind; [discriminate|]. rewrite rev_app_distr in Ha. cbn in Ha. injection Ha as ->.
          exists p, l1, l2. split; [exact Hp|]. rewrite E, <- app_assoc. reflexivity.
        * intros (p' & x & y & Hp' & E'). rewrite Hp in Hp'. injection Hp' as <-. rewrite E in E'.
          replace (x ++ a :: m :: y) with ((x ++ [a]) ++ m :: y) in E' by (rewrite <- app_assoc; reflexivity).
          destruct (nodup_split _ _ _ _ _ Hnd E') as [-> _]. rewrite rev_app_distr. reflexivity.
    - exists []. split; [|split; [cbn; lia|split]].
      + apply steps_end. destruct Hg as [_ Hl]. specialize (Hl m). rewrite Hp in Hl. cbn [step]. rewrite Hl. reflexivity.
      + intros a. split; [intros []|]. intros [p Hp' _]. congruence.
      + intros a. split; [discriminate|]. intros (p & _ & _ & Hp' & _). congruence. }
  assert (Hfirst : forall (l : list nat) a, In a (firstn 1 l) <-> hd_error l = Some a).
  { intros [|x l] a; cbn [firstn In hd_error]; [split; [tauto|discriminate]|]. split; [intros [->|[]]; reflexivity|intros E; injection E; auto]. }
  destruct cb; cbn [comb_dir comb_repeats related].
  - destruct Hup as (l & H1 & H2 & H3 & _). exists l. auto.
  - destruct Hup as (l & H1 & H2 & _ & H4). exists l. split; [exact H1|]. split; [exact H2|]. intros a. rewrite Hfirst, H4. reflexivity.
  - destruct Hprev as (l & H1 & H2 & _ & H4). exists l. split; [exact H1|]. split; [exact H2|]. intros a. rewrite Hfirst. apply H4.
  - destruct Hprev as (l & H1 & H2 & H3 & _). exists l. auto.
Qed.

Definition decide {D} (w : tree) (data : nat -> D) (fuel : nat) (l : list (comb * (D -> bool))) (m : nat) : bool :=
  answer w data m (match_rest fuel l [] Ret).
Lemma existsb_ext_In {A} (f : A -> bool) l P : (forall x, In x l <-> P x) -> (existsb f l = true <-> exists x, P x /\ f x = true).
Proof. intros H. rewrite existsb_exists. split; intros (x & Hx & Hf); exists x; split; auto; apply H, Hx. Qed.
Lemma rest_answer {D} w (data : nat -> D) fuel l : good_tree w -> wide (t_forest w) fuel ->
  (forall R s path m (k : bool -> prog D R), follow w s path = Some m ->
     answer w data s (match_rest fuel l path k) = answer w data s (k (decide w data fuel l m))) /\
  (forall m, decide w data fuel l m = true <-> rest_matches (t_forest w) data m l).
Proof.
  intros Hg Hw. induction l as [|[cb c] l [IH1 IH2]].
  - split; [intros; reflexivity|]. intros m. cbn. tauto.
  - assert (H : forall m, exists b, (b = true <-> rest_matches (t_forest w) data m ((cb, c) :: l)) /\
        forall R s path (k : bool -> prog D R), follow w s path = Some m -> answer w data s (match_rest fuel ((cb, c) :: l) path k) = answer w data s (k b)).
    { intros m. destruct (candidates w fuel cb m Hg Hw) as (cs & Hs & Hf & Hin).
      exists (existsb (fun x => c (data x) && decide w data fuel l x) (if comb_repeats cb then cs else firstn 1 cs)). split.
      - rewrite (existsb_ext_In _ _ _ Hin). cbn [rest_matches]. split; intros (a & Ha & H); exists a; split; auto.
        + apply andb_true_iff in H. destruct H as [H H']. split; [exact H|]. apply IH2, H'.
        + apply andb_true_iff. split; [apply H|]. apply IH2, H.
      - intros R s path k Hm. cbn [match_rest]. apply (walk_answer w data s (comb_dir cb) (comb_repeats cb) c (match_rest fuel l) (decide w data fuel l)) with (m := m); auto. }
    assert (Hd : forall m, decide w data fuel ((cb, c) :: l) m = true <-> rest_matches (t_forest w) data m ((cb, c) :: l)).
    { intros m. destruct (H m) as (b & Hb & Ha). unfold decide. rewrite (Ha bool m [] Ret eq_refl). exact Hb. }
    split; [|exact Hd]. intros R s path m k Hm. destruct (H m) as (b & Hb & Ha). rewrite (Ha R s path k Hm).
    do 2 f_equal. unfold decide. rewrite (Ha bool m [] Ret eq_refl). reflexivity.
Qed.
Lemma rules_answer {D} w (data : nat -> D) fuel e rules : good_tree w -> wide (t_forest w) fuel ->
  exists ids, selected (t_forest w) data e rules ids /\ forall acc, answer w data e (match_rules fuel rules acc) = rev acc ++ ids.
Proof.
  intros Hg Hw. induction rules as [|[s id] rules (ids & Hi & IH)].
  - exists []. split; [constructor|]. intros acc. rewrite app_nil_r. reflexivity.
  - destruct (rest_answer w data fuel (s_rest s) Hg Hw) as [H1 H2].
    destruct (s_subject s (data e)) eqn:Es.
    + destruct (decide w data fuel (s_rest s) e) eqn:Ed.
      * exists (id :: ids). split; [constructor; [split; [exact Es|apply H2, Ed]|exact Hi]|].
        intros acc. cbn [match_rules answer follow option_map]. rewrite Es, (H1 _ _ _ e) by reflexivity. rewrite Ed, IH. cbn [rev]. rewrite <- app_assoc. reflexivity.
      * exists ids. split; [apply sel_no; [|exact Hi]; intros [_ Hr]; apply H2 in Hr; congruence|].
        intros acc. cbn [match_rules answer follow option_map]. rewrite Es, (H1 _ _ _ e) by reflexivity. rewrite Ed, IH. reflexivity.
    + exists ids. split; [apply sel_no; [|exact Hi]; intros [Hr _]; congruence|].
      intros acc. cbn [match_rules answer follow option_map]. rewrite Es. apply IH.
Qed.
