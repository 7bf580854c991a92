From Coq Require Import QArith Sorted Lqa Lia Permutation.
From Verif Require Import Base Inherit Keyframes Interp InterpSpec KeyframesSpec.
Open Scope nat_scope.

Lemma parse_selects t q : parse_keyframe t = Some q <-> selects t q.
Proof.
  assert (Hu : forall x y : Q, (if Qle_bool 0 x && Qle_bool x 1 then Some x else None) = Some y <-> ((0 <= x <= 1)%Q /\ x = y)).
  { intros x y. destruct (Qle_bool 0 x) eqn:E1, (Qle_bool x 1) eqn:E2; simpl; try (split; [discriminate|]).
    - rewrite Qle_bool_iff in E1, E2. split; [intros H; injection H as <-; repeat split; assumption|intros [_ ->]; reflexivity].
    - intros [[_ H] _]. apply Qle_bool_iff in H. congruence.
    - intros [[H _] _]. apply Qle_bool_iff in H. congruence.
    - intros [[H _] _]. apply Qle_bool_iff in H. congruence. }
  assert (Hp : forall p : Q, (0 <= p / 100 <= 1)%Q <-> (0 <= p <= 100)%Q).
  { intros p. assert (p == p / 100 * 100)%Q by (field; discriminate). split; lra. }
  destruct t; simpl; rewrite ?Hu.
  - split; [intros H; inversion H; constructor|intros H; inversion H; reflexivity].
  - split; [intros H; inversion H; constructor|intros H; inversion H; reflexivity].
  - rewrite Hp. split; [intros [H <-]; constructor; exact H|intros H; inversion H; subst; auto].
  - split; [intros [H <-]; constructor; exact H|intros H; inversion H; subst; auto].
  - split; [discriminate|intros H; inversion H].
Qed.

Section K.
  Context {V E D T : Type}.
  Notation kbuilder := (kbuilder V D T). Notation keyframe := (keyframe V D T).
  Notation action := (@action V D T).

  Definition far (a b : Q) : Prop := (a + epsilon < b)%Q \/ (b + epsilon < a)%Q.
  Lemma not_equals a b : is_time_equals (Fin a) (Fin b) = false <-> far a b.
  Proof.
    simpl. unfold far. rewrite andb_false_iff. split.
    - intros [H|H]; apply Bool.not_true_iff_false in H; rewrite Qle_bool_iff in H; lra.
    - intros [H|H]; [right|left]; apply Bool.not_true_iff_false; rewrite Qle_bool_iff; lra.
  Qed.
  Definition time_apart (a b : ftime) : Prop := is_time_equals a b = false.

  Lemma add_keyframe_times time f (l : list kbuilder) : (forall k, kb_time (f k) = kb_time k) ->
    (map kb_time (add_keyframe time f l) = map kb_time l /\ exists k, In k l /\ is_time_equals (kb_time k) time = true) \/
    (map kb_time (add_keyframe time f l) = map kb_time l ++ [time] /\ Forall (fun k => time_apart (kb_time k) time) l).
  Proof.
    intros Hf. induction l as [|k l IH]; simpl.
    - right. rewrite Hf. split; [reflexivity|constructor].
    - destruct (is_time_equals (kb_time k) time) eqn:Ek; simpl.
      + left. rewrite Hf. split; [reflexivity|]. exists k; auto.
      + destruct IH as [[H (k' & Hi & He)]|[H Hf']]; rewrite H; [left|right]; split; auto. exists k'; auto.
  Qed.
  Lemma apply_time a (k : kbuilder) : kb_time (apply_action a k) = kb_time k.
  Proof. destruct a; reflexivity. Qed.

  Definition binv (l : list kbuilder) : Prop :=
    ForallOrdPairs time_apart (map kb_time l) /\ In (Fin 0) (map kb_time l) /\ In (Fin 1) (map kb_time l).
  Lemma fop_app {X} (R : X -> X -> Prop) l x : ForallOrdPairs R l -> Forall (fun y => R y x) l -> ForallOrdPairs R (l ++ [x]).
  Proof.
    intros H; induction H as [|y l Hy H IH]; simpl; intros Hx; [repeat constructor|].
    inversion Hx; subst. constructor; auto. apply Forall_app; auto.
  Qed.
  Lemma binv_run calls : binv (run_calls calls).
  Proof.
    unfold run_calls. induction calls as [|[t a] calls IH] using rev_ind.
    - simpl. split; [|simpl; auto]. repeat constructor.
    - rewrite fold_left_app. simpl. destruct IH as (H1 & H2 & H3).
      match goal with |- binv (add_keyframe _ _ ?b) => set (bb := b) in * end.
      destruct (add_keyframe_times t (apply_action a) bb (apply_time a)) as [[H _]|[H Hf]]; unfold binv; rewrite H; auto.
      split; [|split; apply in_or_app; auto]. apply fop_app; [exact H1|]. apply Forall_map, Hf.
  Qed.

  (** Retaining and sorting *)
  Lemma retained_in (k : kbuilder) x : In x (retained k) -> kb_time k = Fin (kf_time x) /\ (0 <= kf_time x <= 1)%Q /\ kf_props x = kb_props k /\ kf_timing x = kb_timing k.
  Proof.
    unfold retained. destruct (kb_time k) as [q| | |]; try contradiction.
    destruct (Qle_bool 0 q) eqn:E1, (Qle_bool q 1) eqn:E2; simpl; try contradiction. intros [<-|[]].
    rewrite Qle_bool_iff in E1, E2. simpl. auto.
  Qed.
  Lemma retained_intro (k : kbuilder) q : kb_time k = Fin q -> (0 <= q <= 1)%Q -> In (mk_kf q (kb_props k) (kb_timing k)) (retained k).
  Proof.
    intros H [H1 H2]. unfold retained. rewrite H. rewrite (proj2 (Qle_bool_iff _ _) H1), (proj2 (Qle_bool_iff _ _) H2). left; reflexivity.
  Qed.
  Lemma retained_far (l : list kbuilder) : ForallOrdPairs time_apart (map kb_time l) ->
    ForallOrdPairs (fun a b => far (kf_time a) (kf_time b)) (flat_map retained l).
  Proof.
    induction l as [|k l IH]; intros H; simpl; [constructor|]. inversion H as [|? ? Hk Hl]; subst.
    unfold retained at 1. destruct (kb_time k) as [q| | |] eqn:Ek; simpl; auto.
    destruct (Qle_bool 0 q && Qle_bool q 1); simpl; auto. constructor; auto.
    apply Forall_forall. intros x Hx. apply in_flat_map in Hx. destruct Hx as (y & Hy & Hx).
    apply retained_in in Hx. destruct Hx as (Ht & _). rewrite Forall_map, Forall_forall in Hk. specialize (Hk _ Hy).
    unfold time_apart in Hk. rewrite Ht in Hk. apply not_equals in Hk. simpl. exact Hk.
  Qed.

  Lemma insert_kf_perm (k : keyframe) l : Permutation (insert_kf k l) (k :: l).
  Proof. induction l as [|x l IH]; simpl; auto. destruct (Qle_bool _ _); auto. rewrite IH. apply perm_swap. Qed.
  Lemma sort_kfs_perm (l : list keyframe) : Permutation (sort_kfs l) l.
  Proof. unfold sort_kfs. induction l as [|k l IH]; simpl; auto. rewrite insert_kf_perm, IH. reflexivity. Qed.
  Definition le_kf (a b : keyframe) : Prop := (kf_time a <= kf_time b)%Q.
  Lemma insert_kf_sorted (k : keyframe) l : StronglySorted le_kf l -> StronglySorted le_kf (insert_kf k l).
  Proof.
    induction l as [|x l IH]; simpl; intros H; [repeat constructor|]. inversion H as [|? ? Hs Hx]; subst.
    destruct (Qle_bool (kf_time k) (kf_time x)) eqn:Ek.
    - rewrite Qle_bool_iff in Ek. constructor; auto. constructor; [exact Ek|]. eapply Forall_impl; [|exact Hx].
      unfold le_kf; intros y Hy; lra.
    - apply Bool.not_true_iff_false in Ek. rewrite Qle_bool_iff in Ek. constructor; auto.
      apply Forall_forall. intros y Hy. apply (Permutation_in y (insert_kf_perm k l)) in Hy. destruct Hy as [<-|Hy].
      + unfold le_kf; lra.
      + rewrite Forall_forall in Hx. apply Hx, Hy.
  Qed.
  Lemma sort_kfs_sorted (l : list keyframe) : StronglySorted le_kf (sort_kfs l).
  Proof. unfold sort_kfs. induction l; simpl; [constructor|]. apply insert_kf_sorted; assumption. Qed.

  Lemma fop_perm {X} (R : X -> X -> Prop) : (forall a b, R a b -> R b a) -> forall l l', Permutation l l' -> ForallOrdPairs R l -> ForallOrdPairs R l'.
  Proof.
    intros Hs l l' Hp. induction Hp; intros H; auto.
    - inversion H; subst. constructor; auto. eapply Permutation_Forall; eassumption.
    - inversion H as [|? ? Hx Hl]; subst. inversion Hl as [|? ? Hy Hl']; subst. inversion Hx; subst. repeat constructor; auto.
  Qed.
  Lemma sorted_far (l : list keyframe) : StronglySorted le_kf l -> ForallOrdPairs (fun a b => far (kf_time a) (kf_time b)) l -> well_spaced (map kf_time l).
  Proof.
    intros Hs; induction Hs as [|k l Hs IH Hk]; intros Hf; simpl; [constructor|]. inversion Hf as [|? ? Hkf Hlf]; subst.
    constructor; [apply IH; assumption|]. apply Forall_map. rewrite Forall_forall in *. intros x Hx.
    specialize (Hk _ Hx). specialize (Hkf _ Hx). unfold le_kf in Hk. unfold far, epsilon in Hkf. lra.
  Qed.

  Lemma build_shape (l : list kbuilder) : binv l -> from_0_to_1 (build l).
  Proof.
    intros (H1 & H2 & H3). unfold build.
    pose proof (sort_kfs_perm (flat_map retained l)) as Hp. pose proof (sort_kfs_sorted (flat_map retained l)) as Hs.
    set (ks := sort_kfs (flat_map retained l)) in *.
    assert (Hin : Forall (fun k => (0 <= kf_time k <= 1)%Q) ks).
    { apply Forall_forall. intros k Hk. apply (Permutation_in k Hp) in Hk. apply in_flat_map in Hk. destruct Hk as (x & _ & Hk).
      apply retained_in in Hk. apply Hk. }
    assert (Hw : well_spaced (map kf_time ks)).
    { apply sorted_far; [exact Hs|]. apply (fop_perm _) with (l := flat_map retained l); [unfold far; tauto|apply Permutation_sym, Hp|].
      apply retained_far, H1. }
    assert (Hex : forall q, (0 <= q <= 1)%Q -> In (Fin q) (map kb_time l) -> exists k, In k ks /\ kf_time k = q).
    { intros q Hq Hi. apply in_map_iff in Hi. destruct Hi as (x & Hx & Hi). exists (mk_kf q (kb_props x) (kb_timing x)).
      split; [|reflexivity]. apply (Permutation_in _ (Permutation_sym Hp)), in_flat_map. exists x; split; auto. apply retained_intro; auto. }
    destruct (Hex 0%Q) as (k0 & Hk0 & E0); [lra|exact H2|]. destruct (Hex 1%Q) as (k1 & Hk1 & E1); [lra|exact H3|].
    split; [exact Hw|]. split; [|split; [|split; [exact Hin|]]].
    - destruct ks as [|k r]; [contradiction|]. exists k, r. split; [reflexivity|]. inversion Hs as [|? ? _ Hf]; subst.
      inversion Hin as [|? ? Hkin _]; subst.
      destruct Hk0 as [<-|Hk0]; [rewrite E0; reflexivity|]. rewrite Forall_forall in Hf. specialize (Hf _ Hk0). unfold le_kf in Hf. rewrite E0 in Hf. lra.
    - destruct (exists_last (l := ks)) as (r & k & Hr); [intros Hn; rewrite Hn in Hk0; contradiction|]. exists r, k. split; [exact Hr|].
      rewrite Hr in *. apply in_app_or in Hk1. apply Forall_app in Hin. destruct Hin as [_ Hin]. inversion Hin as [|? ? Hkin _]; subst.
      destruct Hk1 as [Hk1|[<-|[]]]; [|rewrite E1; reflexivity].
      clear - Hs Hk1 E1 Hkin. induction r as [|x r IH]; [contradiction|]. simpl in Hs. inversion Hs as [|? ? Hs' Hf]; subst.
      destruct Hk1 as [->|Hk1]; [|apply IH; assumption]. rewrite Forall_forall in Hf. specialize (Hf k). unfold le_kf in Hf. rewrite E1 in Hf.
      assert (1 <= kf_time k)%Q by (apply Hf, in_or_app; simpl; auto). lra.
    - destruct ks as [|a [|b r]]; simpl in *; try lia; try contradiction.
      destruct Hk0 as [<-|[]]. destruct Hk1 as [<-|[]]. rewrite E0 in E1. discriminate.
  Qed.

  (** Loading is a sequence of calls *)
  Definition decl_calls (ts : list Q) (d : kf_decl V D T) : list (ftime * action) :=
    match d with
    | KProps ps => map (fun t => (Fin t, AddProps ps)) ts
    | KTiming tf => map (fun t => (Fin t, SetTiming tf)) ts
    | KError => []
    end.
  Definition block_calls (b : block V D T) : list (ftime * action) :=
    match parse_prelude (fst b) with Some ts => flat_map (decl_calls ts) (snd b) | None => [] end.
  Definition do_call (b : list kbuilder) (c : ftime * action) : list kbuilder := add_keyframe (fst c) (apply_action (snd c)) b.
  Lemma load_decl_calls ts b d : load_decl ts b d = fold_left do_call (decl_calls ts d) b.
  Proof.
    destruct d as [ps|tf|]; simpl; [| |reflexivity]; revert b; induction ts as [|t ts IH]; intros b; simpl; auto.
  Qed.
  Lemma fold_flat {X Y Z} (f : X -> Z -> X) (g : Y -> list Z) l x :
    fold_left (fun x y => fold_left f (g y) x) l x = fold_left f (flat_map g l) x.
  Proof. revert x; induction l as [|y l IH]; intros x; simpl; auto. rewrite fold_left_app. apply IH. Qed.
  Lemma fold_ext {X Y} (f g : X -> Y -> X) l x : (forall x y, f x y = g x y) -> fold_left f l x = fold_left g l x.
  Proof. intros H; revert x; induction l; intros x; simpl; auto. rewrite H. auto. Qed.
  Lemma load_block_calls b x : load_block b x = fold_left do_call (block_calls x) b.
  Proof.
    unfold load_block, block_calls. destruct (parse_prelude (fst x)) as [ts|]; [|reflexivity].
    rewrite <- fold_flat. apply fold_ext. intros; apply load_decl_calls.
  Qed.
  Lemma load_calls (bs : list (block V D T)) : load bs = build (run_calls (flat_map block_calls bs)).
  Proof.
    unfold load, run_calls. f_equal. fold do_call. rewrite <- fold_flat. apply fold_ext. intros; apply load_block_calls.
  Qed.
  Lemma load_shape (bs : list (block V D T)) : from_0_to_1 (load bs).
  Proof. rewrite load_calls. apply build_shape, binv_run. Qed.

  (** Content *)
  Definition call_props (q : Q) (c : ftime * action) : list (rprop V D) :=
    match c with (Fin t, AddProps ps) => if Qeq_bool t q then ps else [] | _ => [] end.
  Definition call_timing (q : Q) (c : ftime * action) : list T :=
    match c with (Fin t, SetTiming tf) => if Qeq_bool t q then [tf] else [] | _ => [] end.
  Lemma last_opt_app {X} (l : list X) x : last_opt (l ++ [x]) = Some x.
  Proof. induction l as [|y [|z l] IH]; simpl in *; auto. Qed.

  Definition content_ok (calls : list (ftime * action)) (k : kbuilder) : Prop :=
    exists q, kb_time k = Fin q /\ kb_props k = flat_map (call_props q) calls /\ kb_timing k = last_opt (flat_map (call_timing q) calls).
  Lemma content_skip calls k t a q : kb_time k = Fin q -> far t q -> content_ok calls k -> content_ok (calls ++ [(Fin t, a)]) k.
  Proof.
    intros Ht Hf (q' & Hq & Hp & Hl). rewrite Ht in Hq. injection Hq as <-. exists q. split; auto.
    assert (E1 : Qeq_bool t q = false).
    { apply Bool.not_true_iff_false. rewrite Qeq_bool_iff. unfold far, epsilon in Hf. lra. }
    rewrite !flat_map_app. simpl. destruct a; simpl; rewrite ?E1; simpl; rewrite ?app_nil_r; auto.
  Qed.
  Lemma content_hit calls (k : kbuilder) t a q : kb_time k = Fin q -> (t == q)%Q -> content_ok calls k -> content_ok (calls ++ [(Fin t, a)]) (apply_action a k).
  Proof.
    intros Ht He (q' & Hq & Hp & Hl). rewrite Ht in Hq. injection Hq as <-. exists q. rewrite apply_time. split; auto.
    apply Qeq_bool_iff in He. rewrite !flat_map_app. simpl. destruct a; simpl; rewrite ?He; simpl; rewrite ?app_nil_r, ?last_opt_app; [|auto].
    rewrite Hp. auto.
  Qed.
  Lemma sep_equals ts a b : separated ts -> In a ts -> In b ts -> is_time_equals (Fin a) (Fin b) = true -> (a == b)%Q.
  Proof.
    intros Hs Ha Hb He. destruct (Hs a b Ha Hb) as [H|H]; [exact H|].
    assert (is_time_equals (Fin a) (Fin b) = false) by (apply not_equals; exact H). congruence.
  Qed.
  Lemma flat_map_none {X Y} (f : X -> list Y) l : (forall x, In x l -> f x = []) -> flat_map f l = [].
  Proof. induction l as [|x l IH]; simpl; intros H; auto. rewrite H by auto. apply IH. intros; apply H; auto. Qed.

  Lemma run_content ts calls : separated ts -> In 0%Q ts -> In 1%Q ts -> (forall c, In c calls -> exists t, fst c = Fin t /\ In t ts) ->
    Forall (content_ok calls) (run_calls calls) /\ Forall (fun k => exists q, kb_time k = Fin q /\ In q ts) (run_calls calls) /\
    (forall t a, In (Fin t, a) calls -> exists k q, In k (run_calls calls) /\ kb_time k = Fin q /\ (q == t)%Q).
  Proof.
    intros Hsep H0 H1. induction calls as [|[ft a] calls IH] using rev_ind; intros Hc.
    - split; [|split; [|intros ? ? []]]; repeat constructor.
      + exists 0%Q; auto.
      + exists 1%Q; auto.
      + exists 0%Q; auto.
      + exists 1%Q; auto.
    - destruct (Hc (ft, a)) as (t & Hft & Hin); [apply in_or_app; simpl; auto|]. simpl in Hft. subst ft.
      destruct IH as (C1 & C2 & C3); [intros; apply Hc, in_or_app; auto|].
      assert (Hcalls : forall t', In (Fin t') (map fst calls) -> In t' ts).
      { intros t' Hi. apply in_map_iff in Hi. destruct Hi as (c & Hf & Hi). destruct (Hc c) as (t'' & Ht'' & Hin'); [apply in_or_app; auto|]. congruence. }
      unfold run_calls in *. rewrite fold_left_app. simpl. set (bb := fold_left _ calls new_builder) in *.
      assert (Hmain : forall pre l, bb = pre ++ l -> Forall (fun k => exists q, kb_time k = Fin q /\ far t q) pre ->
        Forall (content_ok (calls ++ [(Fin t, a)])) (add_keyframe (Fin t) (apply_action a) l) /\
        Forall (fun k => exists q, kb_time k = Fin q /\ In q ts) (add_keyframe (Fin t) (apply_action a) l) /\
        (exists k q, In k (add_keyframe (Fin t) (apply_action a) l) /\ kb_time k = Fin q /\ (q == t)%Q) /\
        (forall k q, In k l -> kb_time k = Fin q -> exists k', In k' (add_keyframe (Fin t) (apply_action a) l) /\ kb_time k' = Fin q)).
      { intros pre l; revert pre. induction l as [|k l IHl]; intros pre Hbb Hpre; simpl.
        - (* a new keyframe *)
          assert (Hfar : forall c, In c calls -> exists t', fst c = Fin t' /\ ~ (t' == t)%Q).
          { intros [ft' a'] Hi. destruct (Hc (ft', a')) as (t' & Hf & _); [apply in_or_app; auto|]. exists t'. split; [exact Hf|]. simpl in Hf. subst ft'.
            destruct (C3 _ _ Hi) as (k & q & Hk & Hq & He). rewrite Hbb, app_nil_r in Hk. rewrite Forall_forall in Hpre.
            destruct (Hpre _ Hk) as (q' & Hq' & Hf). rewrite Hq in Hq'. injection Hq' as <-. unfold far, epsilon in Hf. lra. }
          assert (Hp : flat_map (call_props t) calls = []).
          { apply flat_map_none. intros [ft' a'] Hi. destruct (Hfar _ Hi) as (t' & Hf & Hn). simpl in Hf. subst ft'. destruct a'; simpl; auto.
            destruct (Qeq_bool t' t) eqn:Eq; auto. apply Qeq_bool_iff in Eq. contradiction. }
          assert (Ht : flat_map (call_timing t) calls = []).
          { apply flat_map_none. intros [ft' a'] Hi. destruct (Hfar _ Hi) as (t' & Hf & Hn). simpl in Hf. subst ft'. destruct a'; simpl; auto.
            destruct (Qeq_bool t' t) eqn:Eq; auto. apply Qeq_bool_iff in Eq. contradiction. }
          split; [|split; [|split]].
          + constructor; [|constructor]. apply (content_hit calls (new_kb (Fin t)) t a t); [reflexivity|reflexivity|].
            exists t. rewrite Hp, Ht. auto.
          + constructor; [|constructor]. exists t. rewrite apply_time. auto.
          + exists (apply_action a (new_kb (Fin t))), t. rewrite apply_time. split; [left; reflexivity|]. split; [reflexivity|reflexivity].
          + intros ? ? [].
        - assert (Hk : In k bb) by (rewrite Hbb; apply in_or_app; simpl; auto).
          assert (Hl : forall k', In k' l -> In k' bb) by (intros; rewrite Hbb; apply in_or_app; simpl; auto).
          rewrite Forall_forall in C1, C2. destruct (C2 _ Hk) as (q & Hq & Hqin).
          destruct (is_time_equals (kb_time k) (Fin t)) eqn:Eq.
          + rewrite Hq in Eq. pose proof (sep_equals ts q t Hsep Hqin Hin Eq) as Heq. split; [|split; [|split]].
            * constructor; [apply (content_hit calls k t a q Hq); [rewrite Heq; reflexivity|apply C1, Hk]|].
              apply Forall_forall. intros k' Hk'. destruct (C2 _ (Hl _ Hk')) as (q' & Hq' & Hqin'). apply (content_skip calls k' t a q' Hq'); [|apply C1, Hl, Hk'].
              assert (Hbinv : ForallOrdPairs time_apart (map kb_time bb)) by (apply (proj1 (binv_run calls))).
              rewrite Hbb, map_app in Hbinv. simpl in Hbinv. clear - Hbinv Hk' Hq Hq' Heq Hsep Hin Hqin'.
              assert (Hap : time_apart (kb_time k) (kb_time k')).
              { clear - Hbinv Hk'. induction pre; simpl in *; [|inversion Hbinv; auto].
                inversion Hbinv as [|? ? Hf _]; subst. rewrite Forall_map, Forall_forall in Hf. apply Hf, Hk'. }
              unfold time_apart in Hap. rewrite Hq, Hq' in Hap. apply not_equals in Hap. unfold far, epsilon in *. lra.
            * constructor; [exists q; rewrite apply_time; auto|]. apply Forall_forall. intros; apply C2, Hl; assumption.
            * exists (apply_action a k), q. rewrite apply_time. split; [left; reflexivity|auto].
            * intros k' q' [->|Hi] Hq'; [exists (apply_action a k'); rewrite apply_time; simpl; auto|exists k'; simpl; auto].
          + rewrite Hq in Eq. apply not_equals in Eq. assert (Hf : far t q) by (unfold far in *; tauto).
            destruct (IHl (pre ++ [k])) as (I1 & I2 & I3 & I4).
            { rewrite Hbb, <- app_assoc. reflexivity. }
            { apply Forall_app. split; [exact Hpre|]. constructor; [|constructor]. exists q; auto. }
            split; [|split; [|split]].
            * constructor; [|exact I1]. apply (content_skip calls k t a q Hq Hf). apply C1, Hk.
            * constructor; [|exact I2]. exists q; auto.
            * destruct I3 as (k' & q' & ? & ? & ?). exists k', q'. simpl; auto.
            * intros k' q' [->|Hi] Hq'; [exists k'; simpl; auto|]. destruct (I4 _ _ Hi Hq') as (k'' & ? & ?). exists k''; simpl; auto. }
      destruct (Hmain [] bb eq_refl (Forall_nil _)) as (M1 & M2 & M3 & M4). split; [exact M1|]. split; [exact M2|].
      intros t' a' Hi. apply in_app_or in Hi. destruct Hi as [Hi|[Hi|[]]].
      + destruct (C3 _ _ Hi) as (k & q & Hk & Hq & He). destruct (M4 _ _ Hk Hq) as (k' & Hk' & Hq'). exists k', q. auto.
      + injection Hi as <- <-. exact M3.
  Qed.

  Lemma flat_map_flat {X Y Z} (f : Y -> list Z) (g : X -> list Y) l : flat_map f (flat_map g l) = flat_map (fun x => flat_map f (g x)) l.
  Proof. induction l; simpl; auto. rewrite flat_map_app. congruence. Qed.
  Lemma flat_map_ext_in {X Y} (f g : X -> list Y) l : (forall x, f x = g x) -> flat_map f l = flat_map g l.
  Proof. intros H; induction l; simpl; auto. rewrite H; congruence. Qed.
  Lemma flat_map_map' {X Y Z} (f : Y -> list Z) (g : X -> Y) l : flat_map f (map g l) = flat_map (fun x => f (g x)) l.
  Proof. induction l; simpl; auto. congruence. Qed.
  Lemma props_at q (bs : list (block V D T)) : flat_map (call_props q) (flat_map block_calls bs) = at_time props_of q bs.
  Proof.
    rewrite flat_map_flat. apply flat_map_ext_in. intros b. unfold block_calls. destruct (parse_prelude (fst b)) as [ts|]; [|reflexivity].
    rewrite flat_map_flat. apply flat_map_ext_in. intros [ps|tf|]; simpl; rewrite ?flat_map_map'; simpl.
    - reflexivity.
    - induction ts as [|t ts IH]; simpl; auto. destruct (Qeq_bool t q); auto.
    - induction ts as [|t ts IH]; simpl; auto. destruct (Qeq_bool t q); auto.
  Qed.
  Lemma timing_at q (bs : list (block V D T)) : flat_map (call_timing q) (flat_map block_calls bs) = at_time timings_of q bs.
  Proof.
    rewrite flat_map_flat. apply flat_map_ext_in. intros b. unfold block_calls. destruct (parse_prelude (fst b)) as [ts|]; [|reflexivity].
    rewrite flat_map_flat. apply flat_map_ext_in. intros [ps|tf|]; simpl; rewrite ?flat_map_map'; simpl.
    - induction ts as [|t ts IH]; simpl; auto. destruct (Qeq_bool t q); auto.
    - reflexivity.
    - induction ts as [|t ts IH]; simpl; auto. destruct (Qeq_bool t q); auto.
  Qed.
  Lemma block_calls_times (bs : list (block V D T)) c : In c (flat_map block_calls bs) -> exists t, fst c = Fin t /\ In t (times_of bs).
  Proof.
    intros H. apply in_flat_map in H. destruct H as (b & Hb & H). unfold block_calls in H. destruct (parse_prelude (fst b)) as [ts|] eqn:Eb; [|contradiction].
    apply in_flat_map in H. destruct H as (d & Hd & H).
    assert (Hd' : exists t, fst c = Fin t /\ In t (match d with KError => [] | _ => ts end)).
    { destruct d; simpl in H; try contradiction; apply in_map_iff in H; destruct H as (t' & <- & H); exists t'; auto. }
    destruct Hd' as (t & Ht & Hin). exists t. split; auto. apply in_flat_map. exists b. split; auto. rewrite Eb. apply in_flat_map. exists d; auto.
  Qed.
  Lemma times_block_calls (bs : list (block V D T)) t : In t (times_of bs) -> exists a, In (Fin t, a) (flat_map block_calls bs).
  Proof.
    intros H. apply in_flat_map in H. destruct H as (b & Hb & H). destruct (parse_prelude (fst b)) as [ts|] eqn:Eb; [|contradiction].
    apply in_flat_map in H. destruct H as (d & Hd & H).
    assert (Ha : exists a, In (Fin t, a) (decl_calls ts d)).
    { destruct d as [ps|tf|]; simpl; [exists (AddProps ps)|exists (SetTiming tf)|contradiction]; apply in_map_iff; exists t; auto. }
    destruct Ha as (a & Ha). exists a. apply in_flat_map. exists b. split; auto. unfold block_calls. rewrite Eb. apply in_flat_map. exists d; auto.
  Qed.
  Lemma parse_prelude_range l ts : parse_prelude l = Some ts -> Forall (fun t => (0 <= t <= 1)%Q) ts.
  Proof.
    revert ts; induction l as [|t l IH]; simpl; intros ts H; [injection H as <-; constructor|].
    destruct (parse_keyframe t) as [q|] eqn:Eq; [|discriminate]. destruct (parse_prelude l) as [qs|]; [|discriminate]. injection H as <-.
    constructor; [|apply IH; reflexivity]. apply parse_selects in Eq. inversion Eq; subst; try lra.
    assert (p == p / 100 * 100)%Q by (field; discriminate). lra.
  Qed.
  Lemma times_range (bs : list (block V D T)) t : In t (times_of bs) -> (0 <= t <= 1)%Q.
  Proof.
    intros H. apply in_flat_map in H. destruct H as (b & Hb & H). destruct (parse_prelude (fst b)) as [ts|] eqn:Eb; [|contradiction].
    apply in_flat_map in H. destruct H as (d & Hd & H). apply parse_prelude_range in Eb. rewrite Forall_forall in Eb. apply Eb.
    destruct d; auto; contradiction.
  Qed.

  Lemma load_content (bs : list (block V D T)) : separated (0%Q :: 1%Q :: times_of bs) ->
    (forall k, In k (load bs) -> kf_props k = at_time props_of (kf_time k) bs /\ kf_timing k = last_opt (at_time timings_of (kf_time k) bs) /\
      In (kf_time k) (0%Q :: 1%Q :: times_of bs)) /\
    (forall t, In t (times_of bs) -> exists k, In k (load bs) /\ (kf_time k == t)%Q).
  Proof.
    intros Hs. rewrite load_calls. set (calls := flat_map block_calls bs).
    destruct (run_content (0%Q :: 1%Q :: times_of bs) calls Hs) as (C1 & C2 & C3); [simpl; auto|simpl; auto| |].
    { intros c Hc. destruct (block_calls_times _ _ Hc) as (t & ? & ?). exists t; simpl; auto. }
    unfold build. split.
    - intros k Hk. apply (Permutation_in k (sort_kfs_perm _)) in Hk. apply in_flat_map in Hk. destruct Hk as (x & Hx & Hk).
      apply retained_in in Hk. destruct Hk as (Ht & _ & Hp & Htm). rewrite Forall_forall in C1, C2.
      destruct (C1 _ Hx) as (q & Hq & Hxp & Hxt). rewrite Ht in Hq. injection Hq as <-.
      destruct (C2 _ Hx) as (q & Hq & Hin). rewrite Ht in Hq. injection Hq as <-.
      rewrite Hp, Htm, Hxp, Hxt. unfold calls. rewrite props_at, timing_at. auto.
    - intros t Ht. destruct (times_block_calls _ _ Ht) as (a & Ha). destruct (C3 _ _ Ha) as (x & q & Hx & Hq & He).
      exists (mk_kf q (kb_props x) (kb_timing x)). split; [|exact He].
      apply (Permutation_in _ (Permutation_sym (sort_kfs_perm _))), in_flat_map. exists x. split; [exact Hx|]. apply retained_intro; [exact Hq|].
      apply times_range in Ht. lra.
  Qed.

  (** Nothing declared is lost, however the times are chosen *)
  Lemma fixed_front time f (k0 k1 : kbuilder) r : (forall k, kb_time (f k) = kb_time k) -> exists k0' k1' r', add_keyframe time f (k0 :: k1 :: r) = k0' :: k1' :: r' /\
    kb_time k0' = kb_time k0 /\ kb_time k1' = kb_time k1.
  Proof. intros Hf. simpl. destruct (is_time_equals (kb_time k0) time); [eauto 6|]. destruct (is_time_equals (kb_time k1) time); eauto 6. Qed.
  Lemma run_front calls : exists (k0 k1 : kbuilder) r, run_calls calls = k0 :: k1 :: r /\ kb_time k0 = Fin 0 /\ kb_time k1 = Fin 1.
  Proof.
    unfold run_calls. induction calls as [|[t a] calls IH] using rev_ind.
    - exists (new_kb (Fin 0)), (new_kb (Fin 1)), []. auto.
    - rewrite fold_left_app. destruct IH as (k0 & k1 & r & -> & H0 & H1). cbn [fold_left].
      destruct (fixed_front t (apply_action a) k0 k1 r (apply_time a)) as (k0' & k1' & r' & H & Ha & Hb). exists k0', k1', r'.
      cbn [fst snd]. rewrite H, Ha, Hb. auto.
  Qed.
  Definition contains_props (ps : list (rprop V D)) (k : kbuilder) : Prop := exists a b, kb_props k = a ++ ps ++ b.
  Lemma apply_contains ps a (k : kbuilder) : contains_props ps k -> contains_props ps (apply_action a k).
  Proof.
    intros (x & y & H). destruct a as [l|tf]; unfold contains_props; simpl; rewrite H; [exists x, (y ++ l)|exists x, y; reflexivity].
    rewrite <- !app_assoc. reflexivity.
  Qed.
  (** the keyframe a call goes to, kept in later calls *)
  Lemma add_keeps (P : kbuilder -> Prop) time f (l : list kbuilder) : (forall k, P k -> P (f k)) -> (exists k, In k l /\ P k) -> exists k, In k (add_keyframe time f l) /\ P k.
  Proof.
    intros Hf. induction l as [|x l IH]; intros (k & Hk & HP); [contradiction|]. simpl. destruct (is_time_equals (kb_time x) time).
    - destruct Hk as [->|Hk]; [exists (f k); simpl; auto|exists k; simpl; auto].
    - destruct Hk as [->|Hk]; [exists k; simpl; auto|]. destruct IH as (k' & ? & ?); [exists k; auto|]. exists k'; simpl; auto.
  Qed.
  Lemma add_here time f (l : list kbuilder) (P : kbuilder -> Prop) : (forall k, P (f k)) -> (forall k, kb_time (f k) = kb_time k) -> exists k, In k (add_keyframe time f l) /\ P k /\
    (kb_time k = time \/ (is_time_equals (kb_time k) time = true /\ exists pre post k', l = pre ++ k' :: post /\ kb_time k' = kb_time k /\ Forall (fun x => is_time_equals (kb_time x) time = false) pre)).
  Proof.
    intros HP Hf. induction l as [|x l IH]; simpl.
    - exists (f (new_kb time)). rewrite Hf. simpl; auto.
    - destruct (is_time_equals (kb_time x) time) eqn:Ex.
      + exists (f x). rewrite Hf. split; [simpl; auto|]. split; [apply HP|]. right. split; [exact Ex|]. exists [], l, x. auto.
      + destruct IH as (k & Hk & HPk & [H|(He & pre & post & k' & -> & Hk' & Hpre)]); exists k; (split; [simpl; auto|]); (split; [exact HPk|]); auto.
        right. split; [exact He|]. exists (x :: pre), post, k'. simpl. auto.
  Qed.
  Lemma run_keeps (P : kbuilder -> Prop) calls more : (forall a k, P k -> P (apply_action a k)) -> (exists k, In k (run_calls calls) /\ P k) -> exists k, In k (run_calls (calls ++ more)) /\ P k.
  Proof.
    intros HP H. unfold run_calls in *. rewrite fold_left_app. revert H. generalize (fold_left (fun b c => add_keyframe (fst c) (apply_action (snd c)) b) calls new_builder).
    induction more as [|c more IH]; intros l H; simpl; [exact H|]. apply IH. apply add_keeps; auto.
  Qed.
  Lemma run_near (calls : list (ftime * action)) (t : Q) ps : In (Fin t, AddProps ps) calls -> (0 <= t <= 1)%Q ->
    exists k : keyframe, In k (build (run_calls calls)) /\ (kf_time k - epsilon <= t <= kf_time k + epsilon)%Q /\ exists a b, kf_props k = a ++ ps ++ b.
  Proof.
    intros Hi Ht. apply in_split in Hi. destruct Hi as (c1 & c2 & ->).
    set (P := fun k : kbuilder => contains_props ps k /\ exists q, kb_time k = Fin q /\ (0 <= q <= 1)%Q /\ (q - epsilon <= t <= q + epsilon)%Q).
    assert (HP : exists k, In k (run_calls (c1 ++ [(Fin t, AddProps ps)])) /\ P k).
    { destruct (run_front c1) as (k0 & k1 & r & Hr & H0 & H1). unfold run_calls in *. rewrite fold_left_app. cbn [fold_left fst snd]. rewrite Hr.
      destruct (add_here (Fin t) (apply_action (AddProps ps)) (k0 :: k1 :: r) (contains_props ps)) as (k & Hk & Hc & Hor).
      { intros k. exists (kb_props k), []. rewrite app_nil_r. reflexivity. }
      { apply apply_time. }
      exists k. split; [exact Hk|]. split; [exact Hc|]. destruct Hor as [H|(He & pre & post & k' & Hl & Hk' & Hpre)].
      - exists t. unfold epsilon. split; auto. split; [exact Ht|lra].
      - rewrite <- Hk' in He. rewrite <- Hk'. destruct (kb_time k') as [q| | |] eqn:Eq; try discriminate. exists q. split; [reflexivity|].
        assert (Hq : (q - epsilon <= t <= q + epsilon)%Q) by (simpl in He; apply andb_true_iff in He; rewrite !Qle_bool_iff in He; exact He).
        split; [|exact Hq].
        destruct pre as [|x [|y pre]]; simpl in Hl.
        + injection Hl as <- _. rewrite H0 in Eq. injection Eq as <-. lra.
        + injection Hl as _ <- _. rewrite H1 in Eq. injection Eq as <-. lra.
        + injection Hl as <- <- _.
          inversion Hpre as [|? ? E0 Hp1]; subst. inversion Hp1 as [|? ? E1 _]; subst. rewrite H0 in E0. rewrite H1 in E1.
          apply not_equals in E0. apply not_equals in E1. unfold far in *. lra. }
    change ((Fin t, AddProps ps) :: c2) with ([(Fin t, AddProps ps)] ++ c2). rewrite app_assoc.
    destruct (run_keeps P _ c2 ltac:(intros a k [Hc Hq]; split; [apply apply_contains, Hc|rewrite apply_time; exact Hq]) HP) as (k & Hk & (a & b & Hc) & q & Hq & Hr & Hn).
    exists (mk_kf q (kb_props k) (kb_timing k)). split; [|split; [exact Hn|exists a, b; exact Hc]].
    unfold build. apply (Permutation_in _ (Permutation_sym (sort_kfs_perm _))), in_flat_map. exists k. split; [exact Hk|]. apply retained_intro; assumption.
  Qed.
End K.
