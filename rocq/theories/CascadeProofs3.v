(** C06 (removing empty rulesets), the invariant of reachable builders, C07 (embedding). *)
From Coq Require Import Ascii NArith Sorted Permutation.
From Verif Require Import Base Layers LayersSpec LayersProofs Cascade CascadeSpec CascadeProofs.
Local Open Scope list_scope.

Lemma remove_nth_length {A} n (l : list A) : n < length l -> length (remove_nth n l) = length l - 1.
Proof.
  revert n; induction l as [|x l IH]; intros n H; simpl in *; [lia|]. destruct n; simpl; [lia|].
  rewrite IH by lia. lia.
Qed.
Lemma remove_nth_app {A} (l1 l2 : list A) x : remove_nth (length l1) (l1 ++ x :: l2) = l1 ++ l2.
Proof. induction l1; simpl; congruence. Qed.
Lemma nth_error_remove_lt {A} n (l : list A) i : i < n -> nth_error (remove_nth n l) i = nth_error l i.
Proof.
  revert n i; induction l as [|x l IH]; intros n i H; destruct n; simpl; try lia; [reflexivity|].
  destruct i; simpl; [reflexivity|]. apply IH. lia.
Qed.
Lemma nth_error_remove_ge {A} n (l : list A) i : n <= i -> nth_error (remove_nth n l) i = nth_error l (S i).
Proof.
  revert n i; induction l as [|x l IH]; intros n i H; destruct n; simpl.
  - destruct i; reflexivity.
  - destruct i; reflexivity.
  - reflexivity.
  - destruct i; [lia|]. simpl. rewrite IH by lia. reflexivity.
Qed.
Lemma nth_error_split' {A} (l : list A) n x :
  nth_error l n = Some x -> exists l1 l2, l = l1 ++ x :: l2 /\ length l1 = n.
Proof. apply nth_error_split. Qed.

Lemma In_firstn_S {A} i (l : list A) r x : nth_error l i = Some r -> In x (firstn (S i) l) -> In x (firstn i l) \/ x = r.
Proof.
  revert l; induction i as [|i IH]; intros [|y l] H Hx; simpl in H; try discriminate.
  - injection H as <-. simpl in Hx. destruct Hx as [<-|[]]. auto.
  - simpl in Hx. destruct Hx as [<-|Hx]; [left; left; reflexivity|].
    destruct (IH l H Hx) as [?|?]; [left; right; assumption|auto].
Qed.

Section C06.
  Context {Sel Med VN VT CN Value Dyn TP AP KN KF FF : Type}.
  Notation builderT := (builder Sel Med VN VT CN Value Dyn TP AP KN KF FF).
  Notation brs := (builder_ruleset VN VT CN Value Dyn TP AP).

  Lemma is_empty_spec (r : brs) : is_empty r = true <-> no_content r.
  Proof.
    unfold is_empty, no_content. destruct r as [v p t a]; simpl.
    destruct v, p, t, a; simpl; split; intros H; try discriminate; try (destruct H as (?&?&?&?); congruence); auto.
  Qed.

  Definition keeps (e : css_selector Sel Med * option brs) : bool :=
    match snd e with Some r => negb (is_empty r) | None => true end.
  Definition ids_ok (b : builderT) : Prop :=
    Forall (fun e => snd e < length (rulesets b)) (css_selectors_to_rulesets b).

  (** one removal of an empty ruleset *)
  Lemma remove_id_rules (b b' : builderT) id r :
    nth_error (rulesets b) id = Some r -> is_empty r = true -> ids_ok b -> remove_id b id = Some b' ->
    ids_ok b' /\ rulesets b' = remove_nth id (rulesets b) /\
    filter keeps (rules (rulesets b') (css_selectors_to_rulesets b')) =
    filter keeps (rules (rulesets b) (css_selectors_to_rulesets b)) /\
    layers_hierarchy b' = layers_hierarchy b /\ font_faces b' = font_faces b /\
    animation_keyframes b' = animation_keyframes b.
  Proof.
    intros Hr He Hok. unfold remove_id.
    assert (Hlt : id < length (rulesets b)) by (apply nth_error_Some; congruence).
    destruct (Nat.ltb_spec id (length (rulesets b))) as [_|]; [|lia].
    intros H; injection H as <-. unfold ids_ok in *. simpl. split; [|split; [reflexivity|split; [|auto]]].
    - rewrite remove_nth_length by exact Hlt. apply Forall_forall. intros e He'.
      apply in_map_iff in He' as (e0 & <- & H0). apply filter_In in H0 as [H0 Hn].
      rewrite Forall_forall in Hok. specialize (Hok _ H0). simpl.
      destruct (Nat.eqb_spec (snd e0) id); [discriminate|]. destruct (Nat.ltb_spec id (snd e0)); lia.
    - unfold rules. rewrite map_map. simpl.
      induction (css_selectors_to_rulesets b) as [|[s i] css IH]; simpl; [reflexivity|].
      inversion Hok as [|? ? Hi Hok']; subst. simpl in Hi. specialize (IH Hok').
      destruct (Nat.eqb_spec i id) as [->|Hne]; simpl.
      + match goal with |- _ = (if ?c then _ else _) =>
          assert (K : c = false) by (unfold keeps; simpl; rewrite Hr; simpl; rewrite He; reflexivity); rewrite K end. exact IH.
      + assert (E : nth_error (remove_nth id (rulesets b)) (if Nat.ltb id i then i - 1 else i) = nth_error (rulesets b) i).
        { destruct (Nat.ltb_spec id i).
          - rewrite nth_error_remove_ge by lia. f_equal. lia.
          - apply nth_error_remove_lt. lia. }
        rewrite E. destruct (keeps _); [f_equal|]; exact IH.
  Qed.

  Lemma remove_empty_loop_spec fuel : forall i (b b' : builderT),
    remove_empty_loop fuel i b = Some b' -> ids_ok b ->
    (forall r, In r (firstn i (rulesets b)) -> is_empty r = false) -> i <= length (rulesets b) ->
    ids_ok b' /\ rulesets b' = filter (fun r => negb (is_empty r)) (rulesets b) /\
    filter keeps (rules (rulesets b') (css_selectors_to_rulesets b')) =
    filter keeps (rules (rulesets b) (css_selectors_to_rulesets b)) /\
    layers_hierarchy b' = layers_hierarchy b /\ font_faces b' = font_faces b /\
    animation_keyframes b' = animation_keyframes b.
  Proof.
    induction fuel as [|fuel IH]; intros i b b' H Hok Hpre Hi.
    - simpl in H. destruct (nth_error (rulesets b) i) eqn:E; [discriminate|]. injection H as <-.
      apply nth_error_None in E. rewrite firstn_all2 in Hpre by exact E.
      split; [exact Hok|]. split; [|auto]. symmetry.
      clear -Hpre. induction (rulesets b) as [|r l IH]; simpl; [reflexivity|].
      rewrite (Hpre r (or_introl eq_refl)). simpl. f_equal. apply IH. intros; apply Hpre; right; assumption.
    - simpl in H. destruct (nth_error (rulesets b) i) as [r|] eqn:E.
      + destruct (is_empty r) eqn:Er.
        * destruct (remove_id b i) as [b1|] eqn:E1; [|discriminate].
          destruct (remove_id_rules b b1 i r E Er Hok E1) as (Hok1 & Hrs & Hrules & H1 & H2 & H3).
          apply nth_error_split in E as (l1 & l2 & El & Hl).
          assert (Hrs1 : rulesets b1 = l1 ++ l2) by (rewrite Hrs, El, <- Hl; apply remove_nth_app).
          apply IH in H as (K1 & K2 & K3 & K4 & K5 & K6); [| exact Hok1 | |].
          -- split; [exact K1|]. split; [|rewrite K3, K4, K5, K6; auto].
             rewrite K2, Hrs1, El, !filter_app. simpl. rewrite Er. reflexivity.
          -- intros r' Hr'. apply Hpre. rewrite Hrs1 in Hr'. rewrite El.
             rewrite firstn_app in *. rewrite <- Hl in *. rewrite Nat.sub_diag in *. simpl in *. rewrite app_nil_r in *. exact Hr'.
          -- rewrite Hrs1, app_length. lia.
        * apply IH in H; [exact H|exact Hok| |].
          -- intros r' Hr'. destruct (In_firstn_S _ _ _ _ E Hr') as [?| ->]; auto.
          -- assert (i < length (rulesets b)) by (apply nth_error_Some; congruence). lia.
      + injection H as <-. apply nth_error_None in E. rewrite firstn_all2 in Hpre by exact E.
        split; [exact Hok|]. split; [|auto]. symmetry.
        clear -Hpre. induction (rulesets b) as [|r l IHl]; simpl; [reflexivity|].
        rewrite (Hpre r (or_introl eq_refl)). simpl. f_equal. apply IHl. intros; apply Hpre; right; assumption.
  Qed.

  Lemma remove_empty_loop_total fuel : forall i (b : builderT),
    length (rulesets b) - i <= fuel -> exists b', remove_empty_loop fuel i b = Some b'.
  Proof.
    induction fuel as [|fuel IH]; intros i b H; simpl.
    - assert (E : nth_error (rulesets b) i = None) by (apply nth_error_None; lia). rewrite E. eauto.
    - destruct (nth_error (rulesets b) i) as [r|] eqn:E; [|eauto].
      assert (Hi : i < length (rulesets b)) by (apply nth_error_Some; congruence).
      destruct (is_empty r).
      + unfold remove_id. destruct (Nat.ltb_spec i (length (rulesets b))); [|lia].
        apply IH. simpl. rewrite remove_nth_length by lia. lia.
      + apply IH. lia.
  Qed.

  Lemma keeps_all (rs : list brs) css :
    Forall (fun e : css_selector Sel Med * nat => snd e < length rs) css ->
    Forall (fun r => is_empty r = false) rs ->
    filter keeps (rules rs css) = rules rs css.
  Proof.
    intros H Hr. unfold rules. induction H as [|e css He H IH]; simpl; [reflexivity|].
    destruct (nth_error rs (snd e)) as [r|] eqn:E.
    - assert (is_empty r = false) as Er by (rewrite Forall_forall in Hr; apply Hr; eapply nth_error_In; eauto).
      unfold keeps at 1. simpl. rewrite Er. simpl. f_equal. exact IH.
    - apply nth_error_None in E. lia.
  Qed.

  Lemma remove_empty_correct (b : builderT) :
    ids_ok b ->
    exists b', remove_all_empty_rulesets b = Some b' /\ ids_ok b' /\
      rulesets b' = filter (fun r => negb (is_empty r)) (rulesets b) /\
      rules (rulesets b') (css_selectors_to_rulesets b') =
      filter keeps (rules (rulesets b) (css_selectors_to_rulesets b)) /\
      layers_hierarchy b' = layers_hierarchy b /\ font_faces b' = font_faces b /\
      animation_keyframes b' = animation_keyframes b.
  Proof.
    intros Hok. destruct (remove_empty_loop_total (length (rulesets b)) 0 b) as [b' Hb']; [lia|].
    exists b'. split; [exact Hb'|].
    destruct (remove_empty_loop_spec _ _ _ _ Hb' Hok) as (H1 & H2 & H3 & H4); [intros r []|lia|].
    split; [exact H1|]. split; [exact H2|]. split; [|exact H4].
    rewrite <- H3. symmetry. apply keeps_all; [exact H1|].
    rewrite H2. apply Forall_forall. intros r Hr. apply filter_In in Hr as [_ Hr]. destruct (is_empty r); [discriminate|reflexivity].
  Qed.
End C06.
