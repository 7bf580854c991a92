From Coq Require Import Ascii String NArith Sorted.
From Verif Require Import Base Tree TreeSpec Vars VarsSpec Media MediaSpec MediaProofs Layers Cascade CascadeSpec CascadeProofs Matching MatchingSpec MatchingProofs Specificity SpecificitySpec SpecificityProofs Prop_Specificity Whole WholeSpec.
From Verif Require VarFlow VarFlowSpec VarFlowProofs Inherit InheritSpec Pipeline PipelineSpec Prop_Pipeline.
Open Scope list_scope.

(** ** The last of a concatenation of sorted parts *)
Section Last.
  Context {X Y A : Type} (G : X -> A -> Prop).
  Lemma last_none l v : last_that G l v -> ~ none_that G l.
  Proof. intros (l1 & d & l2 & -> & H & _) N. exact (N d ltac:(apply in_or_app; right; left; reflexivity) v H). Qed.
  Lemma none_app l1 l2 : none_that G (l1 ++ l2) <-> none_that G l1 /\ none_that G l2.
  Proof.
    unfold none_that. split.
    - intros H. split; intros d Hd; apply H; apply in_or_app; auto.
    - intros [H1 H2] d Hd. apply in_app_or in Hd. destruct Hd; auto.
  Qed.
  Lemma last_app l1 l2 v : last_that G (l1 ++ l2) v <-> last_that G l2 v \/ none_that G l2 /\ last_that G l1 v.
  Proof.
    split.
    - intros (a & d & c & E & H & N). revert l1 E. induction a as [|x a IH]; intros l1 E.
      + destruct l1 as [|y l1]; cbn in E.
        * left. exists [], d, c. auto.
        * injection E as <- <-. apply none_app in N. destruct N as [N1 N2]. right. split; [exact N2|]. exists [], y, l1. auto.
      + destruct l1 as [|y l1]; cbn in E.
        * left. exists (x :: a), d, c. auto.
        * injection E as <- E. destruct (IH _ E) as [L|[N2 (a' & d' & c' & E' & H')]]; [left; exact L|right]. split; [exact N2|]. exists (y :: a'), d', c'. rewrite E'. auto.
    - intros [(a & d & c & -> & H & N)|[N2 (a & d & c & -> & H & N)]].
      + exists (l1 ++ a), d, c. rewrite app_assoc. auto.
      + exists a, d, (c ++ l2). rewrite <- app_assoc. split; [reflexivity|]. split; [exact H|]. apply none_app. auto.
  Qed.
  Lemma none_flat {I} (L : I -> list X) ix : none_that G (flat_map L ix) <-> forall i, In i ix -> none_that G (L i).
  Proof.
    unfold none_that. setoid_rewrite in_flat_map. firstorder.
  Qed.
  Lemma last_sorted {I} (L : I -> list X) (R : I -> I -> Prop) ix v : StronglySorted R ix -> (forall i j, R i j -> ~ R j i) ->
    (last_that G (flat_map L ix) v <-> exists i, In i ix /\ last_that G (L i) v /\ forall j, In j ix -> none_that G (L j) \/ j = i \/ R j i).
  Proof.
    intros S As. induction S as [|i ix S IH F]; cbn [flat_map].
    - split; [intros (a & d & c & E & _); destruct a; discriminate|intros (i & [] & _)].
    - rewrite last_app, IH. rewrite none_flat. rewrite Forall_forall in F. split.
      + intros [(k & Hk & Hl & Hj)|[N Hl]].
        * exists k. split; [right; exact Hk|]. split; [exact Hl|]. intros j [<-|Hj']; [right; right; apply F; exact Hk|auto].
        * exists i. split; [left; reflexivity|]. split; [exact Hl|]. intros j [<-|Hj']; [auto|left; auto].
      + intros (k & [<-|Hk] & Hl & Hj).
        * right. split; [|exact Hl]. intros j Hj'. destruct (Hj j (or_intror Hj')) as [N|[-> |R1]]; [exact N| |].
          -- exfalso. exact (As _ _ (F _ Hj') (F _ Hj')).
          -- exfalso. exact (As _ _ (F j Hj') R1).
        * left. exists k. split; [exact Hk|]. split; [exact Hl|]. intros j Hj'. apply Hj. right. exact Hj'.
  Qed.
End Last.
Lemma last_transfer {X Y A} (G : X -> A -> Prop) (H : Y -> A -> Prop) (P : X -> Y -> Prop) l l' : Forall2 P l l' -> (forall x y v, P x y -> (G x v <-> H y v)) ->
  (forall v, last_that G l v <-> last_that H l' v) /\ (none_that G l <-> none_that H l').
Proof.
  intros F E. assert (N : none_that G l <-> none_that H l').
  { induction F as [|x y l l' Pxy F IH]; [split; intros _ d []|]. split; intros Hn d [<-|Hd] v Hv.
    - apply (Hn x (or_introl eq_refl) v). eapply E; eauto.
    - revert d Hd v Hv. apply IH. intros d Hd. apply Hn. right. exact Hd.
    - apply (Hn y (or_introl eq_refl) v). eapply E; eauto.
    - revert d Hd v Hv. apply IH. intros d Hd. apply Hn. right. exact Hd. }
  split; [|exact N]. clear N. intros v. induction F as [|x y l l' Pxy F IH].
  - split; intros (a & d & c & Eq & _); destruct a; discriminate.
  - change (x :: l) with ([x] ++ l). change (y :: l') with ([y] ++ l'). rewrite !last_app. rewrite IH.
    assert (N : none_that G l <-> none_that H l').
    { clear - F E. induction F as [|x y l l' Pxy F IH]; [split; intros _ d []|]. split; intros Hn d [<-|Hd] v Hv.
      - apply (Hn x (or_introl eq_refl) v). eapply E; eauto.
      - revert d Hd v Hv. apply IH. intros d Hd. apply Hn. right. exact Hd.
      - apply (Hn y (or_introl eq_refl) v). eapply E; eauto.
      - revert d Hd v Hv. apply IH. intros d Hd. apply Hn. right. exact Hd. }
    assert (One : last_that G [x] v <-> last_that H [y] v).
    { split; intros (a & d & c & Eq & Hd & _); (destruct a as [|? [|? ?]]; [|discriminate|discriminate]); cbn in Eq; injection Eq as <- <-;
        (exists [], y, [] || exists [], x, []); (split; [reflexivity|]); (split; [eapply E; eauto|intros ? []]). }
    rewrite N, One. reflexivity.
Qed.

(** ** The order of the rules *)
Lemma position_split {A} (f : A -> bool) l i : position f l = Some i -> exists x a y, l = x ++ a :: y /\ f a = true /\ List.length x = i /\ forall b, In b x -> f b = false.
Proof.
  revert i. induction l as [|a l IH]; intros i; cbn; [discriminate|]. destruct (f a) eqn:E.
  - intros H. injection H as <-. exists [], a, l. repeat split; auto. intros b [].
  - destruct (position f l) as [j|] eqn:Ej; [|discriminate]. cbn. intros H. injection H as <-. destruct (IH j eq_refl) as (x & b & y & -> & Hb & Hl & Hn).
    exists (a :: x), b, y. repeat split; cbn; auto. intros c [<-|Hc]; auto.
Qed.
Lemma name_eqb_eq a b : name_eqb a b = true <-> a = b.
Proof. unfold name_eqb. destruct (list_eq_dec ascii_dec a b); split; congruence. Qed.
Section Order.
  Context {CN TP AP KN KF FF f32 : Type}.
  Notation dyn := ((list nat -> option (list (nat * nat))) * VarFlow.toks)%type.
  Notation builderT := (builder complex (media_selectors f32) nat VarFlow.toks CN nat dyn TP AP KN KF FF).
  Lemma layer_order (b : builderT) l1 l2 p1 p2 : get_layer_priority (layers_hierarchy b) l1 = Some p1 -> get_layer_priority (layers_hierarchy b) l2 = Some p2 ->
    (p1 < p2 <-> layer_below b l1 l2) /\ (p1 = p2 <-> l1 = l2).
  Proof.
    unfold layer_below. set (h := layers_hierarchy b). clearbody h.
    assert (K : forall l p, l <> [] -> get_layer_priority h l = Some p -> exists x y, h = x ++ l :: y /\ List.length x = p /\ ~ In l x).
    { intros l p Hl Hp. unfold get_layer_priority in Hp. destruct l as [|c l]; [contradiction|]. destruct (position_split _ _ _ Hp) as (x & a & y & -> & Ha & Hx & Hn).
      apply name_eqb_eq in Ha. subst a. exists x, y. split; [reflexivity|]. split; [exact Hx|]. intros Hi. specialize (Hn _ Hi). assert (name_eqb (c :: l) (c :: l) = true) by (apply name_eqb_eq; reflexivity). congruence. }
    intros H1 H2. assert (P0 : forall p, get_layer_priority h [] = Some p -> p = List.length h) by (cbn; congruence).
    destruct l1 as [|c1 l1], l2 as [|c2 l2].
    - apply P0 in H1. apply P0 in H2. subst. split; [split; [lia|intros [[] _]; reflexivity]|split; reflexivity].
    - apply P0 in H1. destruct (K (c2 :: l2) p2 ltac:(discriminate) H2) as (x & y & -> & <- & _). rewrite app_length in H1. cbn in H1. split; [split; [lia|intros [[] _]; reflexivity]|split; [lia|discriminate]].
    - apply P0 in H2. destruct (K (c1 :: l1) p1 ltac:(discriminate) H1) as (x & y & -> & <- & _). rewrite app_length in H2. cbn in H2. split; [split; [intros _; split; [discriminate|auto]|lia]|split; [lia|discriminate]].
    - destruct (K (c1 :: l1) p1 ltac:(discriminate) H1) as (x1 & y1 & E1 & <- & N1). destruct (K (c2 :: l2) p2 ltac:(discriminate) H2) as (x2 & y2 & E2 & <- & N2).
      set (a1 := c1 :: l1) in *. set (a2 := c2 :: l2) in *. assert (a1 <> [] /\ a2 <> []) as [Z1 Z2] by (split; discriminate). clearbody a1 a2. clear H1 H2 K P0 c1 c2 l1 l2. subst h.
      assert (Fst : forall (u v : list (list ascii)) e y z, u ++ e :: y = v ++ e :: z -> ~ In e u -> ~ In e v -> u = v).
      { induction u as [|g u IH]; intros v e y z E Nu Nv; destruct v as [|f v]; cbn in E; [reflexivity| | |].
        - injection E as <- _. exfalso. apply Nv. left. reflexivity.
        - injection E as -> _. exfalso. apply Nu. left. reflexivity.
        - injection E as -> E. f_equal. apply (IH v e y z E); intros Hi; [apply Nu|apply Nv]; right; exact Hi. }
      assert (Lt : forall (u v : list (list ascii)) au av yu yv, u ++ au :: yu = v ++ av :: yv -> List.length u < List.length v -> exists z, v = u ++ au :: z).
      { induction u as [|e u IH]; intros v au av yu yv E L; destruct v as [|f v]; cbn in L; try lia; cbn in E; injection E as -> E.
        - exists v. reflexivity.
        - destruct (IH v au av yu yv E ltac:(lia)) as [z ->]. exists z. reflexivity. }
      assert (Eq : forall (u v : list (list ascii)) au av yu yv, u ++ au :: yu = v ++ av :: yv -> List.length u = List.length v -> au = av).
      { induction u as [|e u IH]; intros v au av yu yv E L; destruct v as [|f v]; cbn in L; try lia; cbn in E; injection E as -> E; eauto. }
      split; split.
      + intros L. split; [exact Z1|]. right. destruct (Lt _ _ _ _ _ _ E2 L) as [z ->]. exists x1, z, y2. rewrite E2, <- app_assoc. cbn. auto.
      + intros [_ [E|(x & y & z & E & Nx & Ny)]]; [contradiction|].
        assert (x1 = x) as -> by (eapply Fst; [exact E|exact N1|exact Nx]).
        assert (x2 = x ++ a1 :: y) as -> by (eapply Fst; [rewrite <- E2, E, <- app_assoc; reflexivity|exact N2|exact Ny]).
        rewrite app_length. cbn. lia.
      + intros L. eapply Eq; [exact E2|exact L].
      + intros ->. f_equal. eapply Fst; [exact E2|exact N1|exact N2].
  Qed.

  Lemma spec_cmp s u x y : counted_complex s x -> counted_complex u y -> countable x -> countable y ->
    ((specificity s < specificity u)%N <-> below x y) /\ (specificity s = specificity u <-> x = y).
  Proof. intros Hx Hy Cx Cy. destruct (C102_specificity s u) as (x' & y' & [_ Ux] & [_ Uy] & H). apply Ux in Hx. apply Uy in Hy. subst. auto. Qed.
  Variables (feq fle fge : f32 -> f32 -> bool).
  Variables (resolve_name : CN -> option nat) (type_ok : nat -> nat -> bool) (path_ok : FF -> bool) (placeholder : nat -> nat).
  Notation buildB := (build specificity resolve_name type_ok path_ok placeholder).
  Lemma has_priority (b : builderT) s sel id i : buildB b = Built s -> nth_error (css_selectors_to_rulesets b) i = Some (sel, id) -> exists p, get_layer_priority (layers_hierarchy b) (layer sel) = Some p.
  Proof.
    intros Hb Hi. apply build_css in Hb. unfold sort_css in Hb. destruct (map_opt _ (css_selectors_to_rulesets b)) as [d|] eqn:E; [|discriminate]. apply map_opt_Forall2 in E.
    destruct (Forall2_nth_error_l _ _ _ _ _ E Hi) as (k & _ & Hk). unfold sort_key in Hk. cbn in Hk. destruct (get_layer_priority (layers_hierarchy b) (layer sel)) as [p|]; [eauto|discriminate].
  Qed.
  Lemma order_iff (b : builderT) s i j : buildB b = Built s -> usable b ->
    (cascade_before specificity (layers_hierarchy b) (css_selectors_to_rulesets b) i j <-> ranks_below b i j).
  Proof.
    intros Hb Hu. split.
    - intros (si & idi & sj & idj & pi & pj & Hi & Hj & Pi & Pj & H). destruct (Hu si idi) as (Ri & _ & ci & Ci & Ki); [eapply nth_error_In; eauto|]. destruct (Hu sj idj) as (Rj & _ & cj & Cj & Kj); [eapply nth_error_In; eauto|].
      destruct (nth_error (rulesets b) idi) as [ri|] eqn:Ei; [|contradiction]. destruct (nth_error (rulesets b) idj) as [rj|] eqn:Ej; [|contradiction].
      exists si, ri, sj, rj, ci, cj. split; [exists idi; auto|]. split; [exists idj; auto|]. split; [exact Ci|]. split; [exact Cj|].
      destruct (layer_order b _ _ _ _ Pi Pj) as [L1 L2]. destruct (spec_cmp _ _ _ _ Ci Cj Ki Kj) as [S1 S2].
      destruct H as [H|[H H']]; [left; apply L1; exact H|right]. split; [apply L2; exact H|]. destruct H' as [H'|[H' Lt]]; [left; apply S1; exact H'|right]. split; [apply S2; exact H'|exact Lt].
    - intros (si & ri & sj & rj & ci & cj & (idi & Hi & Ei) & (idj & Hj & Ej) & Ci & Cj & H).
      destruct (Hu si idi) as (_ & _ & ci' & Ci' & Ki); [eapply nth_error_In; eauto|]. destruct (Hu sj idj) as (_ & _ & cj' & Cj' & Kj); [eapply nth_error_In; eauto|].
      destruct (counted_total (selector si)) as (zi & _ & Ui). destruct (counted_total (selector sj)) as (zj & _ & Uj).
      assert (ci' = ci) as -> by (rewrite (Ui _ Ci), (Ui _ Ci'); reflexivity). assert (cj' = cj) as -> by (rewrite (Uj _ Cj), (Uj _ Cj'); reflexivity).
      destruct (has_priority b s si idi i Hb Hi) as [pi Pi]. destruct (has_priority b s sj idj j Hb Hj) as [pj Pj].
      destruct (layer_order b _ _ _ _ Pi Pj) as [L1 L2]. destruct (spec_cmp _ _ _ _ Ci Cj Ki Kj) as [S1 S2].
      exists si, idi, sj, idj, pi, pj. repeat (split; [assumption|]).
      destruct H as [H|[H H']]; [left; apply L1; exact H|right]. split; [apply L2; exact H|]. destruct H' as [H'|[H' Lt]]; [left; apply S1; exact H'|right]. split; [apply S2; exact H'|exact Lt].
  Qed.
  Lemma before_asym h (css : list (css_selector complex (media_selectors f32) * nat)) i j : cascade_before specificity h css i j -> ~ cascade_before specificity h css j i.
  Proof.
    intros (si & idi & sj & idj & pi & pj & Hi & Hj & Pi & Pj & H) (sj' & idj' & si' & idi' & pj' & pi' & Hj' & Hi' & Pj' & Pi' & H').
    rewrite Hi in Hi'. rewrite Hj in Hj'. injection Hi' as <- <-. injection Hj' as <- <-. rewrite Pi in Pi'. rewrite Pj in Pj'. injection Pi' as <-. injection Pj' as <-. lia.
  Qed.

  (** ** What matches *)
  Notation situationT := (situation CN TP AP KN KF FF f32).
  Notation bruleset := (builder_ruleset nat VarFlow.toks CN nat dyn TP AP).
  Definition agree (mf : nat) (t : situationT) : Prop := forall s, parsed s -> forall n, matches_selector (s_world t) mf s n = true <-> sat (s_world t) s None n.
  Notation appliesT := (applies feq fle fge).
  Definition entry_matches (mf : nat) (t : situationT) (n : nat) (sel : css_selector complex (media_selectors f32)) : Prop :=
    matches_selector (s_world t) mf (selector sel) n = true /\ media_matches f32 feq fle fge (fun _ _ => s_ratio t n) (media sel) (s_media t n) = true.
  Lemma applies_iff mf t b n i r : agree mf t -> usable b ->
    (appliesT t b n i r <-> exists sel id, nth_error (css_selectors_to_rulesets b) i = Some (sel, id) /\ nth_error (rulesets b) id = Some r /\ entry_matches mf t n sel).
  Proof.
    intros Ha Hu. split.
    - intros (sel & (id & Hi & Hr) & Hs & Hm). exists sel, id. split; [exact Hi|]. split; [exact Hr|]. destruct (Hu sel id ltac:(eapply nth_error_In; eauto)) as (_ & Hp & _). split; [apply Ha; assumption|]. apply matches_iff. exact Hm.
    - intros (sel & id & Hi & Hr & Hs & Hm). exists sel. destruct (Hu sel id ltac:(eapply nth_error_In; eauto)) as (_ & Hp & _). split; [exists id; auto|]. split; [apply Ha; assumption|]. apply matches_iff. exact Hm.
  Qed.
  Lemma cascade_ok {X Y A} mf (t : situationT) b s n (items : bruleset -> list X) (G : X -> A -> Prop) (L : nat -> list Y) (H : Y -> A -> Prop) :
    agree mf t -> usable b -> buildB b = Built s ->
    (forall id r, nth_error (rulesets b) id = Some r -> (forall v, last_that G (items r) v <-> last_that H (L id) v) /\ (none_that G (items r) <-> none_that H (L id))) ->
    let ids := get_matching_ruleset_ids (fun x => matches_selector (s_world t) mf x n) (fun m => media_matches f32 feq fle fge (fun _ _ => s_ratio t n) m (s_media t n)) s in
    (forall v, last_that H (flat_map L ids) v <-> exists i r, appliesT t b n i r /\ last_that G (items r) v /\ forall j r', appliesT t b n j r' -> none_that G (items r') \/ j = i \/ ranks_below b j i) /\
    (none_that H (flat_map L ids) <-> forall i r, appliesT t b n i r -> none_that G (items r)).
  Proof.
    intros Ha Hu Hb Hitems ids. unfold ids.
    destruct (matching_cascade specificity resolve_name type_ok path_ok placeholder b s (fun x => matches_selector (s_world t) mf x n) (fun m => media_matches f32 feq fle fge (fun _ _ => s_ratio t n) m (s_media t n)) Hb) as (ix & F & Hix & Hs).
    set (idof i := match nth_error (css_selectors_to_rulesets b) i with Some (_, id) => id | None => 0 end).
    assert (E : flat_map L (get_matching_ruleset_ids (fun x => matches_selector (s_world t) mf x n) (fun m => media_matches f32 feq fle fge (fun _ _ => s_ratio t n) m (s_media t n)) s) = flat_map (fun i => L (idof i)) ix).
    { clear Hix Hs. induction F as [|i id l l' (sel & Hi) F IH]; [reflexivity|]. cbn. rewrite IH. unfold idof at 2. rewrite Hi. reflexivity. }
    rewrite E. clear E F ids.
    assert (In_ix : forall i r, appliesT t b n i r <-> In i ix /\ nth_error (rulesets b) (idof i) = Some r).
    { intros i r. rewrite (applies_iff mf t b n i r Ha Hu), Hix. unfold idof. split.
      - intros (sel & id & Hi & Hr & Hm). rewrite Hi. split; [exists sel, id; auto|exact Hr].
      - intros [(sel & id & Hi & Hm) Hr]. rewrite Hi in Hr. exists sel, id. auto. }
    assert (Has : forall i, In i ix -> exists r, nth_error (rulesets b) (idof i) = Some r).
    { intros i Hi. apply Hix in Hi. destruct Hi as (sel & id & Hi & _). unfold idof. rewrite Hi. destruct (Hu sel id ltac:(eapply nth_error_In; eauto)) as (Hr & _). destruct (nth_error (rulesets b) id) as [r|]; [eauto|contradiction]. }
    split.
    - intros v. rewrite (last_sorted H (fun i => L (idof i)) _ ix v Hs (before_asym _ _)). split.
      + intros (i & Hi & Hl & Hj). destruct (Has i Hi) as [r Hr]. exists i, r. split; [apply In_ix; auto|]. split; [apply (Hitems _ _ Hr); exact Hl|].
        intros j r' Hjr. apply In_ix in Hjr. destruct Hjr as [Hj1 Hj2]. destruct (Hj j Hj1) as [N|[-> |R]]; [left; apply (Hitems _ _ Hj2); exact N|auto|right; right]. apply (order_iff b s j i Hb Hu). exact R.
      + intros (i & r & Hap & Hl & Hj). apply In_ix in Hap. destruct Hap as [Hi Hr]. exists i. split; [exact Hi|]. split; [apply (Hitems _ _ Hr); exact Hl|].
        intros j Hj1. destruct (Has j Hj1) as [r' Hr']. destruct (Hj j r' (proj2 (In_ix j r') (conj Hj1 Hr'))) as [N|[-> |R]]; [left; apply (Hitems _ _ Hr'); exact N|auto|right; right]. apply (order_iff b s j i Hb Hu). exact R.
    - rewrite none_flat. split.
      + intros Hn i r Hap. apply In_ix in Hap. destruct Hap as [Hi Hr]. apply (Hitems _ _ Hr). auto.
      + intros Hn i Hi. destruct (Has i Hi) as [r Hr]. apply (Hitems _ _ Hr). apply (Hn i). apply In_ix. auto.
  Qed.
End Order.

(** ** Values *)
Lemma entry_last {A} (l : list (nat * A)) k v : VarFlowSpec.last_entry l k (Some v) <-> last_that (fun d v => d = (k, v)) l v.
Proof.
  split.
  - intros (l1 & l2 & -> & N). exists l1, (k, v), l2. split; [reflexivity|]. split; [reflexivity|]. intros d Hd v' ->. apply N. apply in_map_iff. exists (k, v'). auto.
  - intros (l1 & d & l2 & -> & -> & N). exists l1, l2. split; [reflexivity|]. intros Hi. apply in_map_iff in Hi. destruct Hi as ([k' v'] & E & Hi). cbn in E. subst. exact (N _ Hi v' eq_refl).
Qed.
Lemma entry_none {A} (l : list (nat * A)) k : VarFlowSpec.last_entry l k None <-> none_that (fun d v => d = (k, v)) l.
Proof.
  split.
  - intros N d Hd v ->. apply N. apply in_map_iff. exists (k, v). auto.
  - intros N Hi. apply in_map_iff in Hi. destruct Hi as ([k' v'] & E & Hi). cbn in E. subst. exact (N _ Hi v' eq_refl).
Qed.
Section Values.
  Context {CN TP AP KN KF FF f32 V : Type}.
  Notation dyn := ((list nat -> option (list (nat * nat))) * VarFlow.toks)%type.
  Notation builderT := (builder complex (media_selectors f32) nat VarFlow.toks CN nat dyn TP AP KN KF FF).
  Notation situationT := (situation CN TP AP KN KF FF f32).
  Variables (feq fle fge : f32 -> f32 -> bool).
  Variables (resolve_name : CN -> option nat) (type_ok : nat -> nat -> bool) (path_ok : FF -> bool) (placeholder : nat -> nat).
  Notation buildB := (build specificity resolve_name type_ok path_ok placeholder).
  Variables (initial : nat -> V) (decode : nat -> Inherit.pvalue V) (unset_code : nat -> nat).
  Notation loaded := (loaded resolve_name type_ok path_ok placeholder).
  Notation frameF := (frame_of feq fle fge resolve_name type_ok path_ok placeholder).
  Notation flowF mf t := (Pipeline.p_flow (frameF mf t)).
  Lemma load_some (b : builderT) s : load resolve_name type_ok path_ok placeholder (Some b) = Some s <-> buildB b = Built s.
  Proof. cbn. destruct (buildB b); split; congruence. Qed.
  Lemma load_none (o : option builderT) : load resolve_name type_ok path_ok placeholder o = None <-> forall b, o = Some b -> ~ loaded b.
  Proof.
    unfold load, WholeSpec.loaded. destruct o as [b|]; [|split; [intros _ b; discriminate|reflexivity]]. destruct (buildB b) eqn:E; split; try congruence.
    - intros H. exfalso. exact (H b eq_refl (ex_intro _ s E)).
    - intros _ b' H [s Hs]. injection H as <-. congruence.
  Qed.
  Lemma contents_ok (b : builderT) s id r : buildB b = Built s -> nth_error (rulesets b) id = Some r ->
    VarFlow.r_vars (contents s id) = vars r /\
    Forall2 (fun bp d => forall e p v, gives resolve_name placeholder e p bp v <-> VarFlowSpec.gives e d p v) (properties r) (VarFlow.r_props (contents s id)).
  Proof.
    intros Hb Hr. apply build_rulesets in Hb. apply map_opt_Forall2 in Hb. destruct (Forall2_nth_error_l _ _ _ _ _ Hb Hr) as (r' & Hr' & Hres).
    unfold contents. rewrite Hr'. cbn. unfold resolve_ruleset in Hres. destruct (map_opt _ (properties r)) as [ps|] eqn:E; [|discriminate]. cbn in Hres. injection Hres as <-. cbn. split; [reflexivity|].
    apply map_opt_Forall2 in E. clear - E. induction E as [|bp rp l l' H E IH]; cbn; constructor; [|exact IH]. intros e p v. unfold resolve_property in H.
    destruct bp as [[q|c] x|[parser ts]].
    - injection H as <-. cbn. reflexivity.
    - destruct (resolve_name c) as [q|] eqn:Eq; [|discriminate]. cbn in H. injection H as <-. cbn. rewrite Eq. split; intros [H1 H2]; split; congruence.
    - injection H as <-. cbn. reflexivity.
  Qed.
  Lemma inline_ok (t : situationT) n e p : Forall2 (fun d d' => forall v, inline_gives e p d v <-> VarFlowSpec.gives e d' p v) (inline_properties t n) (VarFlow.r_props (ruleset_at (s_inline t n))).
  Proof.
    unfold inline_properties, ruleset_at. destruct (s_inline t n) as [r|]; cbn; [|constructor]. induction (properties r) as [|d l IH]; cbn; constructor; [|exact IH].
    intros v. destruct d as [q x|[parser ts]]; cbn; reflexivity.
  Qed.
  Lemma inline_vars_ok (t : situationT) n : inline_vars t n = VarFlow.r_vars (ruleset_at (s_inline t n)).
  Proof. unfold inline_vars, ruleset_at. destruct (s_inline t n); reflexivity. Qed.

  Section One.
    Variables (mf : nat) (t : situationT).
    Hypothesis Ha : agree mf t.
    Hypothesis Hu : forall n b, s_sheet t n = Some b -> usable b.
    Notation f := (flowF mf t).
    Lemma sheet_some n s : load resolve_name type_ok path_ok placeholder (s_sheet t n) = Some s -> exists b, s_sheet t n = Some b /\ buildB b = Built s.
    Proof. destruct (s_sheet t n) as [b|]; [|discriminate]. intros H. apply load_some in H. eauto. Qed.
    Lemma f_sheet_none n : VarFlow.f_sheet f n = None <-> forall b, s_sheet t n = Some b -> ~ loaded b.
    Proof. cbn. rewrite <- load_none. destruct (load _ _ _ _ (s_sheet t n)); split; cbn; congruence. Qed.
    Lemma f_rules_eq n s : load resolve_name type_ok path_ok placeholder (s_sheet t n) = Some s ->
      VarFlow.f_rules f n = get_matching_ruleset_ids (fun x => matches_selector (s_world t) mf x n) (fun m => media_matches f32 feq fle fge (fun _ _ => s_ratio t n) m (s_media t n)) s.
    Proof. intros H. cbn. unfold rules_at. rewrite H. reflexivity. Qed.
    Lemma own_ok a k o : VarFlowSpec.last_entry (VarFlowSpec.declared f a) k o <-> own_var feq fle fge loaded t a k o.
    Proof.
      unfold VarFlowSpec.declared, own_var. destruct (VarFlow.f_sheet f a) as [c|] eqn:Ec.
      - cbn in Ec. destruct (load _ _ _ _ (s_sheet t a)) as [s|] eqn:El; [|discriminate]. cbn in Ec. injection Ec as <-. destruct (sheet_some _ _ El) as (b & Eb & Hb).
        rewrite (f_rules_eq a s El). change (VarFlow.f_inline f a) with (ruleset_at (s_inline t a)). rewrite <- inline_vars_ok.
        destruct (cascade_ok feq fle fge resolve_name type_ok path_ok placeholder mf t b s a vars (is_var k) (fun i => VarFlow.r_vars (contents s i)) (is_var k) Ha (Hu _ _ Eb) Hb) as [C1 C2].
        { intros id r Hr. destruct (contents_ok b s id r Hb Hr) as [-> _]. split; reflexivity. }
        assert (Hlo : loaded b) by (exists s; exact Hb). split.
        + intros H. left. exists b. split; [exact Eb|]. split; [exact Hlo|]. destruct o as [v|].
          * apply entry_last, last_app in H. destruct H as [H|[H1 H2]]; [left; exact H|right]. split; [exact H1|]. apply C1. exact H2.
          * apply entry_none, none_app in H. destruct H as [H1 H2]. split; [exact H2|]. apply C2. exact H1.
        + intros [(b' & Eb' & _ & H)|[H _]]; [|exfalso; exact (H b Eb Hlo)]. rewrite Eb in Eb'. injection Eb' as <-. destruct o as [v|].
          * apply entry_last, last_app. destruct H as [H|[H1 H2]]; [left; exact H|right]. split; [exact H1|]. apply C1. exact H2.
          * apply entry_none, none_app. destruct H as [H1 H2]. split; [|exact H1]. apply C2. exact H2.
      - pose proof (proj1 (f_sheet_none a) Ec) as Hn. split.
        + intros H. right. split; [exact Hn|]. destruct o as [v|]; [|reflexivity]. destruct H as (l1 & l2 & E & _). destruct l1; discriminate.
        + intros [(b & Eb & Hlo & _)|[_ ->]]; [exfalso; exact (Hn b Eb Hlo)|]. cbn. tauto.
    Qed.
    Lemma sees_ok n r : VarFlowSpec.sees f n r <-> sees feq fle fge loaded t n r.
    Proof.
      split; intros (own & Ho & Hr); exists own; (split; [intros a k; apply own_ok; apply Ho|exact Hr]).
    Qed.
    Lemma declares_ok p n d : PipelineSpec.declares decode unset_code f p n d <-> declared feq fle fge resolve_name placeholder decode unset_code loaded t p n d.
    Proof.
      assert (Key : forall b s r v, s_sheet t n = Some b -> buildB b = Built s -> load resolve_name type_ok path_ok placeholder (s_sheet t n) = Some s ->
        (VarFlowSpec.value_of r (VarFlowSpec.declarations f (contents s) n) (unset_code p) p v <->
         (cascaded feq fle fge t b n properties (gives resolve_name placeholder r p) (inline_properties t n) (inline_gives r p) v \/
          not_cascaded feq fle fge t b n properties (gives resolve_name placeholder r p) (inline_properties t n) (inline_gives r p) /\ v = unset_code p))).
      { intros b s r v Eb Hb El. unfold VarFlowSpec.value_of, VarFlowSpec.declarations. rewrite (f_rules_eq n s El). change (VarFlow.f_inline f n) with (ruleset_at (s_inline t n)).
        destruct (cascade_ok feq fle fge resolve_name type_ok path_ok placeholder mf t b s n properties (gives resolve_name placeholder r p) (fun i => VarFlow.r_props (contents s i)) (fun d v => VarFlowSpec.gives r d p v) Ha (Hu _ _ Eb) Hb) as [C1 C2].
        { intros id rs Hr. destruct (contents_ok b s id rs Hb Hr) as [_ F]. eapply last_transfer; [exact F|]. intros x y w Hxy. apply Hxy. }
        destruct (last_transfer (inline_gives r p) (fun d v => VarFlowSpec.gives r d p v) _ _ _ (inline_ok t n r p)) as [I1 I2]; [intros x y w Hxy; apply Hxy|].
        match goal with |- (exists l1 d0 l2, ?ds = _ /\ _ /\ _) \/ _ <-> _ => change (last_that (fun d v => VarFlowSpec.gives r d p v) ds v \/ none_that (fun d v => VarFlowSpec.gives r d p v) ds /\ v = unset_code p <->
          (cascaded feq fle fge t b n properties (gives resolve_name placeholder r p) (inline_properties t n) (inline_gives r p) v \/
          not_cascaded feq fle fge t b n properties (gives resolve_name placeholder r p) (inline_properties t n) (inline_gives r p) /\ v = unset_code p)) end.
        rewrite last_app, none_app. unfold cascaded, not_cascaded. rewrite I1, I2, C1, C2. tauto. }
      split.
      - intros (c & r & v & Ec & Hs & Hv & ->). cbn in Ec. destruct (load _ _ _ _ (s_sheet t n)) as [s|] eqn:El; [|discriminate]. cbn in Ec. injection Ec as <-. destruct (sheet_some _ _ El) as (b & Eb & Hb).
        exists b, r, v. split; [exact Eb|]. split; [exists s; exact Hb|]. split; [apply sees_ok; exact Hs|]. split; [reflexivity|]. apply (Key b s r v Eb Hb eq_refl). exact Hv.
      - intros (b & r & v & Eb & (s & Hb) & Hs & -> & Hv). assert (El : load resolve_name type_ok path_ok placeholder (s_sheet t n) = Some s) by (rewrite Eb; apply load_some; exact Hb).
        exists (contents s), r, v. split; [cbn; rewrite El; reflexivity|]. split; [apply sees_ok; exact Hs|]. split; [|reflexivity]. apply (Key b s r v Eb Hb El). exact Hv.
    Qed.
    Lemma css_ok p n c : PipelineSpec.css_value initial decode unset_code f p n c <-> css feq fle fge resolve_name placeholder initial decode unset_code loaded t p n c.
    Proof.
      split; intros H.
      - induction H as [n H|n d c Hp Hd Hm|n m d cm c Hp Hc IH Hd Hm].
        + apply css_unstyled. apply f_sheet_none. exact H.
        + eapply css_root; [exact Hp|apply declares_ok; exact Hd|exact Hm].
        + eapply css_child; [exact Hp|exact IH|apply declares_ok; exact Hd|exact Hm].
      - induction H as [n H|n d c Hp Hd Hm|n m d cm c Hp Hc IH Hd Hm].
        + apply PipelineSpec.cv_unstyled. apply f_sheet_none. exact H.
        + eapply PipelineSpec.cv_root; [exact Hp|apply declares_ok; exact Hd|exact Hm].
        + eapply PipelineSpec.cv_child; [exact Hp|exact IH|apply declares_ok; exact Hd|exact Hm].
    Qed.
  End One.

  (** ** Histories *)
  Notation saneT := (sane resolve_name placeholder decode unset_code loaded).
  Notation goes_onT := (goes_on feq fle fge loaded).
  Lemma sane_ok mf (t : situationT) nodes : saneT nodes t -> PipelineSpec.well_behaved decode unset_code nodes (frameF mf t).
  Proof.
    intros (C & ND & Hp & Hn & _ & Hsh & Hun & Hres). split; [apply (c_forest _ _ C)|]. split; [exact ND|]. split; [intros n p H; split; [apply (c_nodes _ _ C n p H)|exact (Hp n p H)]|]. split; [exact Hn|]. split; [intros n Hs; cbn in Hs |- *; destruct (s_sheet t n) as [b|] eqn:E; [exact (Hsh n b E)|exfalso; apply Hs; reflexivity]|]. split.
    - intros n c r d p v Ec _ Hd Hg Hv Hi. destruct (Hun r p v Hv Hi) as [U1 U2]. cbn in Ec. destruct (load _ _ _ _ (s_sheet t n)) as [s|] eqn:El; [|discriminate]. cbn in Ec. injection Ec as <-.
      destruct (sheet_some t n s El) as (b & Eb & Hb). unfold VarFlowSpec.declarations in Hd. apply in_app_or in Hd. destruct Hd as [Hd|Hd].
      + apply in_flat_map in Hd. destruct Hd as (id & _ & Hd). destruct (nth_error (rulesets b) id) as [rs|] eqn:Er.
        * destruct (contents_ok b s id rs Hb Er) as [_ F]. destruct (In_nth_error _ _ Hd) as [k Hk]. destruct (Forall2_nth_error _ _ _ _ _ F Hk) as (bp & Hbp & Hiff).
          apply (U1 n b rs bp Eb (ex_intro _ s Hb) (nth_error_In _ _ Er) (nth_error_In _ _ Hbp)). apply Hiff. exact Hg.
        * unfold contents in Hd. assert (nth_error (s_rulesets s) id = None) as E0.
          { pose proof (build_rulesets _ _ _ _ _ _ _ Hb) as F. apply map_opt_Forall2 in F. apply nth_error_None in Er. apply nth_error_None. apply Forall2_len in F. lia. }
          rewrite E0 in Hd. destruct Hd.
      + cbn in Hd. destruct (In_nth_error _ _ Hd) as [k Hk]. destruct (Forall2_nth_error _ _ _ _ _ (inline_ok t n r p) Hk) as (bp & Hbp & Hiff). apply (U2 n bp (nth_error_In _ _ Hbp)). apply Hiff. exact Hg.
    - intros n m H Hm. destruct (Hres n m H Hm) as [N|[N|[N|N]]]; [right; left; exact N|right; right; left; exact N|right; right; right; exact N|left; exact N].
  Qed.
  Lemma noticed_ok mf (t : situationT) n : VarFlowSpec.noticed (Pipeline.flow_frame (frameF mf t)) n <-> noticed t n.
  Proof. unfold VarFlowSpec.noticed, noticed. cbn. rewrite orb_true_iff. tauto. Qed.
  Lemma goes_on_ok mf (t0 t : situationT) : agree mf t0 -> agree mf t -> (forall n b, s_sheet t0 n = Some b -> usable b) -> goes_onT t0 t -> PipelineSpec.goes_on (frameF mf t0) (frameF mf t).
  Proof.
    intros A0 A1 Hu (H1 & H2 & H3 & H4 & H5 & H6). split; [|split; [|split; [|split]]].
    - intros n Hgo. cbn in Hgo. unfold Pipeline.gone in Hgo. apply negb_false_iff, VarFlowProofs.mem_in in Hgo. cbn in Hgo. split.
      + intros Hc. destruct (H1 n Hgo Hc) as [E1 E2]. split; [exact E1|]. cbn. rewrite E2. reflexivity.
      + intros Hn Hs. cbn in Hs. destruct (load _ _ _ _ (s_sheet t0 n)) as [s|] eqn:El; [|exfalso; apply Hs; reflexivity]. destruct (sheet_some t0 n s El) as (b & Eb & Hb).
        assert (Hn' : ~ noticed t n) by (intros K; apply Hn; apply noticed_ok; exact K). destruct (H2 n b Hgo Eb (ex_intro _ s Hb) Hn') as [Eb' Hap]. cbn. unfold rules_at. rewrite Eb', Eb. split; [reflexivity|].
        destruct (load _ _ _ _ (Some b)) as [s'|] eqn:El'; [|reflexivity]. apply load_some in El'. rewrite Hb in El'. injection El' as <-. unfold get_matching_ruleset_ids. f_equal.
        destruct (sort_css_indices specificity _ _ _ (build_css _ _ _ _ _ _ _ Hb)) as (ixs & Es & Hi & _).
        apply filter_ext_in. intros [sel id] He. rewrite Es in He. apply in_map_iff in He. destruct He as ([i e] & E & He). cbn in E. subst e. apply Hi in He. cbn [fst].
        destruct (Hu n b Eb sel id (nth_error_In _ _ He)) as (Hr & _). destruct (nth_error (rulesets b) id) as [r|] eqn:Er; [|contradiction].
        pose proof (Hap i r) as K. rewrite (applies_iff feq fle fge mf t b n i r A1 (Hu n b Eb)), (applies_iff feq fle fge mf t0 b n i r A0 (Hu n b Eb)) in K.
        assert (K' : entry_matches feq fle fge mf t n sel <-> entry_matches feq fle fge mf t0 n sel).
        { split; intros M.
          - destruct (proj1 K) as (sel' & id' & He' & _ & M'); [exists sel, id; auto|]. rewrite He in He'. injection He' as <- <-. exact M'.
          - destruct (proj2 K) as (sel' & id' & He' & _ & M'); [exists sel, id; auto|]. rewrite He in He'. injection He' as <- <-. exact M'. }
        unfold entry_matches in K'. apply eq_true_iff_eq. rewrite !andb_true_iff. exact K'.
    - intros n d Hpar Hd. apply noticed_ok. exact (H3 n d Hpar Hd).
    - intros n Hgo Hs Hs'. cbn in Hgo. unfold Pipeline.gone in Hgo. apply negb_false_iff, VarFlowProofs.mem_in in Hgo. apply Hs. apply f_sheet_none. intros b Eb Hlo. destruct (H4 n b Hgo Eb Hlo) as (b' & Eb' & Hlo'). exact (proj1 (f_sheet_none mf t n) Hs' b' Eb' Hlo').
    - intros n d Hm Hd. apply noticed_ok. exact (H5 n d Hm Hd).
    - exact H6.
  Qed.
  Lemma sane_agree (t : situationT) nodes : saneT nodes t -> exists m0, forall mf, m0 <= mf -> agree mf t.
  Proof. intros (C & _). destruct (matching_ok _ _ C) as [e H]. exists e. intros mf Hf s Hs n. apply H; assumption. Qed.
  Lemma history_agree nodes : forall (ts : list situationT) t0, history feq fle fge resolve_name placeholder decode unset_code loaded nodes t0 ts -> exists m0, forall mf, m0 <= mf -> Forall (agree mf) ts.
  Proof.
    induction ts as [|t ts IH]; intros t0 H; [exists 0; intros; constructor|]. destruct H as (S & _ & H). destruct (sane_agree _ _ S) as [m1 H1]. destruct (IH t H) as [m2 H2].
    exists (m1 + m2). intros mf Hf. constructor; [apply H1; lia|apply H2; lia].
  Qed.
  Lemma history_ok mf nodes : forall (ts : list situationT) t0, saneT nodes t0 -> agree mf t0 -> Forall (agree mf) ts -> history feq fle fge resolve_name placeholder decode unset_code loaded nodes t0 ts ->
    PipelineSpec.history decode unset_code nodes (frameF mf t0) (map (frameF mf) ts).
  Proof.
    induction ts as [|t ts IH]; intros t0 S0 A0 F H; [exact I|]. destruct H as (S & G & H). inversion F as [|? ? A F']; subst. cbn. split; [apply sane_ok; exact S|]. split; [|apply IH; assumption].
    apply goes_on_ok; try assumption. apply S0.
  Qed.
  Lemma from_start_ok nodes (ts : list situationT) : from_start feq fle fge resolve_name placeholder decode unset_code loaded nodes ts -> exists m0, forall mf, m0 <= mf ->
    PipelineSpec.from_start decode unset_code nodes (map (frameF mf) ts) /\ Forall (agree mf) ts.
  Proof.
    destruct ts as [|t ts]; [exists 0; intros; split; [exact I|constructor]|]. intros (S & R & H). destruct (sane_agree _ _ S) as [m1 H1]. destruct (history_agree nodes ts t H) as [m2 H2].
    exists (m1 + m2). intros mf Hf. specialize (H1 mf ltac:(lia)). specialize (H2 mf ltac:(lia)). split; [|constructor; assumption]. cbn. split; [apply sane_ok; exact S|]. split; [exact R|]. apply history_ok; assumption.
  Qed.
  Lemma from_start_last nodes (ts : list situationT) (t : situationT) : from_start feq fle fge resolve_name placeholder decode unset_code loaded nodes (ts ++ [t]) -> saneT nodes t.
  Proof.
    assert (K : forall ts t0, history feq fle fge resolve_name placeholder decode unset_code loaded nodes t0 (ts ++ [t]) -> saneT nodes t).
    { clear ts. induction ts as [|x ts IH]; intros t0 H; [apply H|]. destruct H as (_ & _ & H). exact (IH x H). }
    destruct ts as [|x ts]; [intros H; apply H|]. intros (_ & _ & H). exact (K ts x H).
  Qed.
End Values.
