From Verif Require Import Base Inherit InheritSpec.

Section P.
  Context {V : Type} (veq : forall a b : V, {a = b} + {a <> b}).
  Variables (np : nat) (unset : nat -> pvalue V) (initial : nat -> V).
  Hypothesis unset_ok : forall p, unset p <> PUnset.

  Lemma means_fun (u : pvalue V) i par d c c' : means u i par d c -> means u i par d c' -> c = c'.
  Proof.
    intros H. revert c'. induction H; intros c' H'; inversion H'; subst; try congruence.
    apply IHmeans. assumption.
  Qed.

  Lemma compute_means (d u : pvalue V) i par c : compute_internal d u i par = Some c -> means u i par d c.
  Proof.
    destruct d; simpl; intros H.
    - injection H as <-; constructor.
    - destruct u; simpl in H; try discriminate; apply M_unset; try discriminate;
        [injection H as <-; constructor| |injection H as <-; constructor|injection H as <-; constructor].
      destruct par; injection H as <-; [apply M_inherit|apply M_inherit_root]; reflexivity.
    - destruct par; injection H as <-; [apply M_inherit|apply M_inherit_root]; reflexivity.
    - injection H as <-; constructor.
    - injection H as <-; constructor.
  Qed.

  Lemma means_compute (d u : pvalue V) i par c : means u i par d c -> compute_internal d u i par = Some c.
  Proof.
    intros H. induction H; simpl; try reflexivity; try (rewrite H; reflexivity).
    destruct u; simpl in *; try exact IHmeans.
  Qed.

  Lemma compute_panics (d u : pvalue V) i par : compute_internal d u i par = None <-> d = PUnset /\ u = PUnset.
  Proof.
    split.
    - destruct d; simpl; try discriminate; destruct par; try discriminate; destruct u; simpl; try discriminate; auto.
    - intros [-> ->]. reflexivity.
  Qed.

  Lemma total_means d p par : means (unset p) (initial p) par d (total_compute unset initial d p par).
  Proof.
    unfold total_compute. destruct (compute_internal d (unset p) (initial p) par) as [c|] eqn:E; [apply compute_means; exact E|].
    apply compute_panics in E. destruct E as [_ E]. exfalso. exact (unset_ok p E).
  Qed.

  Lemma value_at_fun parent decl p n c c' :
    value_at parent decl unset initial p n c -> value_at parent decl unset initial p n c' -> c = c'.
  Proof.
    intros H. revert c'. induction H as [n Hd|n d c Hd Hp Hm|n d m cm c Hd Hp Hv IH Hm]; intros c' H'; inversion H'; subst; try congruence.
    - rewrite Hd in H. injection H as <-. eapply means_fun; eauto.
    - rewrite Hd in H. injection H as <-. rewrite Hp in H0. injection H0 as <-. rewrite (IH _ H1) in Hm. eapply means_fun; eauto.
  Qed.

  Lemma ceqb_eq (a b : cvalue V) : ceqb veq a b = true <-> a = b.
  Proof. destruct a, b; simpl; try (split; congruence). destruct (veq v v0); split; congruence. Qed.

  Lemma forallb_pids f : forallb f (pids np) = true <-> forall p, p < np -> f p = true.
  Proof.
    unfold pids. rewrite forallb_forall. split; intros H p Hp; apply H; [apply in_seq; lia|apply in_seq in Hp; lia].
  Qed.
  Lemma existsb_pids_false f : existsb f (pids np) = false -> forall p, p < np -> f p = false.
  Proof.
    intros H p Hp. destruct (f p) eqn:E; [|reflexivity]. rewrite <- H. symmetry. apply existsb_exists. exists p. split; [apply in_seq; lia|exact E].
  Qed.

  Definition good (a : moment V) (w : world V) : Prop :=
    forall n, In n (map snd (f_visits (at_frame a))) ->
      new_values (w n) = None /\ values (w n) = at_declared a n /\
      (is_static (w n) = true -> forall p, p < np -> computed (w n) p = CNone) /\
      forall p, p < np -> value_at (at_parent a) (at_declared a) unset initial p n (computed (w n) p).

  Section Step.
    Variables (a b : moment V) (w : world V).
    Hypothesis Hgood : good a w.
    Hypothesis Hf : follows unset a b.
    Let f := at_frame b.
    Let w1 := begin_frame f w.

    Lemma Hdecl n : at_declared b n = match f_style f n with Some (d, _) => Some d | None => if f_reset f n then None else at_declared a n end.
    Proof. destruct Hf as (_ & E & _). rewrite E. reflexivity. Qed.

    (** what a visited node looks like at the beginning of the frame *)
    Lemma begin_facts n : In n (map snd (f_visits f)) ->
      (is_static (w1 n) = true -> forall p, p < np -> computed (w1 n) p = CNone) /\
      match f_style f n with
      | Some (d, t) => new_values (w1 n) = Some d /\ at_declared b n = Some d
      | None => new_values (w1 n) = None /\ values (w1 n) = at_declared b n /\
                (f_reset f n = true -> forall p, computed (w1 n) p = CNone) /\
                (f_reset f n = false -> In n (map snd (f_visits (at_frame a))) /\ computed (w1 n) = computed (w n) /\ at_declared b n = at_declared a n)
      end.
    Proof.
      intros Hn. pose proof (Hdecl n) as D. destruct Hf as (_ & _ & Hnew & _). fold f in Hnew.
      unfold w1, begin_frame.
      destruct (f_reset f n) eqn:R; destruct (f_style f n) as [[d t]|] eqn:S; simpl.
      - split; [reflexivity|]. split; [reflexivity|exact D].
      - split; [reflexivity|]. split; [reflexivity|]. split; [symmetry; exact D|]. split; [reflexivity|discriminate].
      - assert (Ha : In n (map snd (f_visits (at_frame a)))).
        { destruct (in_dec Nat.eq_dec n (map snd (f_visits (at_frame a)))) as [H|H]; [exact H|]. specialize (Hnew n Hn H). congruence. }
        destruct (Hgood n Ha) as (_ & _ & G & _). split; [exact G|]. split; [reflexivity|exact D].
      - assert (Ha : In n (map snd (f_visits (at_frame a)))).
        { destruct (in_dec Nat.eq_dec n (map snd (f_visits (at_frame a)))) as [H|H]; [exact H|]. specialize (Hnew n Hn H). congruence. }
        destruct (Hgood n Ha) as (A & B & C & _). split; [exact C|]. split; [exact A|]. split; [rewrite D; exact B|]. split; [discriminate|].
        intros _. split; [exact Ha|]. split; [reflexivity|exact D].
    Qed.

    (** a node that is not restyled keeps its value, unless it inherits from a changed parent *)
    Lemma fast_ok n p : In n (map snd (f_visits f)) -> f_style f n = None -> p < np ->
      (forall m, at_parent b n = Some m -> In m (map snd (f_visits f)) /\ exists cm, value_at (at_parent b) (at_declared b) unset initial p m cm /\
         (cm = computed (w1 m) p \/ exists d, at_declared b n = Some d /\ d p <> PInherit)) ->
      value_at (at_parent b) (at_declared b) unset initial p n (computed (w1 n) p).
    Proof.
      intros Hn S Hp Hpar. destruct (begin_facts n Hn) as [_ F]. rewrite S in F. destruct F as (_ & Hv & Fr & Fn).
      destruct Hf as (_ & _ & Hnew & Hmove & Hres & Hun). fold f in Hnew, Hmove, Hres.
      destruct (at_declared b n) as [d|] eqn:D.
      2: { assert (computed (w1 n) p = CNone) as ->; [|apply at_unstyled; exact D].
           destruct (f_reset f n) eqn:R; [apply Fr; reflexivity|]. destruct (Fn eq_refl) as (Ha & -> & Da).
           destruct (Hgood n Ha) as (_ & _ & _ & G). specialize (G p Hp). inversion G; congruence. }
      destruct (f_reset f n) eqn:R.
      { rewrite (Hdecl n), S, R in D. discriminate. }
      destruct (Fn eq_refl) as (Ha & Ec & Da). rewrite Ec.
      assert (Psame : at_parent b n = at_parent a n).
      { destruct (at_parent b n) as [x|] eqn:E1, (at_parent a n) as [y|] eqn:E2; try reflexivity.
        - destruct (Nat.eq_dec x y) as [->|N]; [reflexivity|].
          destruct (Hmove n Hn R) as [H|H]; [congruence|congruence|congruence].
        - destruct (Hmove n Hn R) as [H|H]; congruence.
        - destruct (Hmove n Hn R) as [H|H]; congruence. }
      destruct (Hgood n Ha) as (_ & _ & _ & G). specialize (G p Hp).
      inversion G as [n0 E|n0 d0 c0 E1 E2 E3|n0 d0 m cm c0 E1 E2 E3 E4]; subst n0; [congruence| |].
      - eapply at_root; [exact D|congruence|]. rewrite <- Da in E1. injection E1 as ->. exact E3.
      - rewrite <- Da in E1. injection E1 as <-. rewrite <- Psame in E2. destruct (Hpar m E2) as (Hm & cm' & Hcm & Hc).
        eapply at_child; [exact D|exact E2|exact Hcm|].
        destruct Hc as [Hc|[d' [Hd' Hne]]].
        + assert (Rm : f_reset f m = false).
          { destruct (f_reset f m) eqn:Rm; [|reflexivity]. destruct (Hres n m Hn E2 Rm) as [H|H]; congruence. }
          assert (computed (w1 m) = computed (w m)) as Em.
          { unfold w1, begin_frame. rewrite Rm. destruct (f_style f m) as [[? ?]|]; reflexivity. }
          rewrite Em in Hc.
          assert (Hma : In m (map snd (f_visits (at_frame a)))).
          { destruct (in_dec Nat.eq_dec m (map snd (f_visits (at_frame a)))) as [H|H]; [exact H|]. specialize (Hnew m Hm H). congruence. }
          destruct (Hgood m Hma) as (_ & _ & _ & Gm). specialize (Gm p Hp). rewrite <- Hc in Gm.
          rewrite (value_at_fun _ _ _ _ _ _ Gm E3). exact E4.
        + injection Hd' as ->. destruct (d' p) eqn:Ed.
          * inversion E4; subst; constructor.
          * pose proof (Hun n d' p D Ed) as Hu. inversion E4 as [| | | | |c1 Q1 Q2 Q3]; subst. apply M_unset; [exact (unset_ok p)|].
            destruct (unset p) eqn:Eu; try congruence; inversion Q2; subst; constructor.
          * contradiction.
          * inversion E4; subst; constructor.
          * inversion E4; subst; constructor.
    Qed.

    (** the state of a node that has been visited *)
    Definition done (w' : world V) (n : nat) : Prop :=
      new_values (w' n) = None /\ values (w' n) = at_declared b n /\
      (is_static (w' n) = true -> forall p, p < np -> computed (w' n) p = CNone) /\
      (same (w' n) = true -> forall p, p < np -> pending (w' n) p = computed (w1 n) p /\ pending (w' n) p = computed (w' n) p) /\
      forall p, p < np -> value_at (at_parent b) (at_declared b) unset initial p n (pending (w' n) p).

    Lemma node_done n par : In n (map snd (f_visits f)) -> at_parent b n = par ->
      (forall w' m, par = Some m -> In m (map snd (f_visits f)) -> done w' m -> forall w'', w'' n = compute_node veq np unset initial (Some (w' m)) (w1 n) -> done w'' n) /\
      (par = None -> forall w'', w'' n = compute_node veq np unset initial None (w1 n) -> done w'' n).
    Proof.
      intros Hn Hpar.
      assert (K : forall (pn : option (node V)),
        (forall p, p < np -> match pn, par with
                    | None, None => True
                    | Some x, Some m => In m (map snd (f_visits f)) /\ value_at (at_parent b) (at_declared b) unset initial p m (pending x p) /\ (same x = true -> pending x p = computed (w1 m) p)
                    | _, _ => False end) ->
        forall w'', w'' n = compute_node veq np unset initial pn (w1 n) -> done w'' n).
      { intros pn Hpn w'' Ew. unfold done. rewrite Ew. unfold compute_node.
        destruct (pending_values veq np unset initial pn (w1 n)) as [pend sh] eqn:Epv.
        destruct (begin_facts n Hn) as [Hst F].
        assert (Hval : forall p, p < np -> value_at (at_parent b) (at_declared b) unset initial p n (pend p)).
        { intros p Hp. specialize (Hpn p Hp). unfold pending_values in Epv. destruct (f_style f n) as [[d t]|] eqn:S.
          - destruct F as [Fn Fd]. rewrite Fn in Epv. injection Epv as <- _.
            destruct pn as [x|], par as [m|]; try contradiction.
            + destruct Hpn as (_ & Hm & _). eapply at_child; [exact Fd|exact Hpar|exact Hm|]. apply total_means.
            + eapply at_root; [exact Fd|exact Hpar|]. apply total_means.
          - destruct F as (Fn & Fv & Fr & Fk). rewrite Fn in Epv. injection Epv as <- _. rewrite Fv.
            destruct pn as [x|], par as [m|]; try contradiction.
            + destruct Hpn as (Hin & Hm & Hsame). destruct (at_declared b n) as [d|] eqn:D.
              * destruct (same x) eqn:Sx.
                -- apply fast_ok; auto. intros m' Em'. rewrite Hpar in Em'. injection Em' as <-. split; [exact Hin|].
                   eexists. split; [exact Hm|]. left. apply Hsame. reflexivity.
                -- destruct (d p) eqn:Ed.
                   3: { eapply at_child; [exact D|exact Hpar|exact Hm|]. rewrite Ed. apply M_inherit. reflexivity. }
                   all: apply fast_ok; auto; intros m' Em'; rewrite Hpar in Em'; injection Em' as <-; split; [exact Hin|];
                        eexists; split; [exact Hm|]; right; exists d; split; [exact D|congruence].
              * replace (computed (w1 n) p) with (@CNone V); [apply at_unstyled; exact D|].
                destruct (f_reset f n) eqn:R; [symmetry; apply Fr; reflexivity|]. destruct (Fk eq_refl) as (Ha & -> & Da).
                destruct (Hgood n Ha) as (_ & _ & _ & G). specialize (G p Hp). inversion G; congruence.
            + replace (match at_declared b n with Some _ | _ => computed (w1 n) p end) with (computed (w1 n) p) by (destruct (at_declared b n); reflexivity).
              apply fast_ok; auto. intros m Em. congruence. }
        assert (Hsh : sh = true -> forall p, p < np -> pend p = computed (w1 n) p).
        { intros Hsh p Hp. unfold pending_values in Epv. destruct (new_values (w1 n)) as [d|].
          - injection Epv as <- E. rewrite <- E in Hsh. apply andb_true_iff in Hsh. destruct Hsh as [H1 H2].
            rewrite (Hst H1 p Hp). rewrite forallb_pids in H2. specialize (H2 p Hp). apply negb_true_iff in H2.
            destruct (total_compute _ _ _ _ _); [reflexivity|discriminate].
          - injection Epv as <- E. rewrite <- E in Hsh. rewrite forallb_pids in Hsh. specialize (Hsh p Hp). apply ceqb_eq in Hsh. exact Hsh. }
        simpl. split; [reflexivity|]. split.
        { destruct (f_style f n) as [[d t]|]; [destruct F as [-> ->]; reflexivity|destruct F as (-> & -> & _); reflexivity]. }
        split.
        { intros H p Hp. apply andb_true_iff in H. destruct H as [H1 H2]. apply negb_true_iff in H2.
          rewrite (existsb_pids_false _ H2 p Hp). exact (Hst H1 p Hp). }
        split; [|exact Hval].
        intros H p Hp. apply andb_true_iff in H. destruct H as [H1 H2]. apply negb_true_iff in H2.
        rewrite (existsb_pids_false _ H2 p Hp). specialize (Hsh H1 p Hp). auto. }
      split.
      - intros w' m -> Hin Hd w'' Ew. apply (K (Some (w' m))); [|exact Ew].
        intros p Hp. destruct Hd as (_ & _ & _ & D4 & D5). split; [exact Hin|]. split; [apply D5; exact Hp|].
        intros Hs. apply D4; auto.
      - intros -> w'' Ew. apply (K None); [|exact Ew]. intros; exact I.
    Qed.

    Lemma pass_done : forall l2 l1 w', f_visits f = l1 ++ l2 ->
      (forall n, In n (map snd l1) -> done w' n) -> (forall n, ~ In n (map snd l1) -> w' n = w1 n) ->
      forall n, In n (map snd (f_visits f)) -> done (fold_left (visit veq np unset initial) l2 w') n.
    Proof.
      destruct Hf as ((Hnd & Hord) & _). fold f in Hnd, Hord.
      induction l2 as [|[pm n] l2 IH]; intros l1 w' E H1 H2 x Hx; simpl.
      - rewrite app_nil_r in E. subst l1. apply H1. exact Hx.
      - destruct (Hord l1 pm n l2 E) as [Hp Hm].
        assert (Hn : In n (map snd (f_visits f))) by (rewrite E, map_app; apply in_or_app; right; left; reflexivity).
        assert (Hnl : ~ In n (map snd l1)).
        { rewrite E, map_app in Hnd. simpl in Hnd. apply NoDup_remove_2 in Hnd. intros H. apply Hnd. apply in_or_app. left. exact H. }
        assert (Dn : done (visit veq np unset initial w' (pm, n)) n).
        { destruct (node_done n pm Hn Hp) as [K1 K2]. unfold visit. simpl. rewrite (H2 n Hnl). destruct pm as [m|]; simpl.
          - pose proof (Hm m eq_refl) as Hml.
            assert (Hin : In m (map snd (f_visits f))) by (rewrite E, map_app; apply in_or_app; left; exact Hml).
            apply (K1 w' m eq_refl Hin (H1 m Hml)). unfold set_world. rewrite Nat.eqb_refl. reflexivity.
          - apply (K2 eq_refl). unfold set_world. rewrite Nat.eqb_refl. reflexivity. }
        apply (IH (l1 ++ [(pm, n)])).
        + rewrite <- app_assoc. exact E.
        + intros y Hy. rewrite map_app in Hy. apply in_app_or in Hy. destruct Hy as [Hy|[<-|[]]].
          * assert (y <> n) by (intros ->; contradiction). unfold done. unfold visit, set_world. simpl.
            destruct (Nat.eqb_spec y n); [contradiction|]. exact (H1 y Hy).
          * exact Dn.
        + intros y Hy. rewrite map_app in Hy. unfold visit, set_world. simpl. destruct (Nat.eqb_spec y n) as [->|N].
          * exfalso. apply Hy. apply in_or_app. right. left. reflexivity.
          * apply H2. intros H. apply Hy. apply in_or_app. left. exact H.
        + exact Hx.
    Qed.

    Lemma kept : restyled f = false -> forall l2 l1, f_visits f = l1 ++ l2 ->
      (forall n p, In n (map snd l1) -> p < np -> value_at (at_parent b) (at_declared b) unset initial p n (computed (w1 n) p)) ->
      forall n p, In n (map snd (f_visits f)) -> p < np -> value_at (at_parent b) (at_declared b) unset initial p n (computed (w1 n) p).
    Proof.
      intros HR. destruct Hf as ((Hnd & Hord) & _). fold f in Hnd, Hord.
      induction l2 as [|[pm n] l2 IH]; intros l1 E H1 x p Hx Hp.
      - rewrite app_nil_r in E. subst l1. apply H1; assumption.
      - apply (IH (l1 ++ [(pm, n)])); [rewrite <- app_assoc; exact E| |exact Hx|exact Hp].
        intros y q Hy Hq. rewrite map_app in Hy. apply in_app_or in Hy. destruct Hy as [Hy|[<-|[]]]; [apply H1; assumption|]. simpl.
        destruct (Hord l1 pm n l2 E) as [Hpn Hm].
        assert (Hn : In n (map snd (f_visits f))) by (rewrite E, map_app; apply in_or_app; right; left; reflexivity).
        apply fast_ok; auto.
        + destruct (f_style f n) eqn:S; [|reflexivity]. exfalso. unfold restyled in HR.
          assert (T : existsb (fun v => match f_style f (snd v) with Some _ => true | None => false end) (f_visits f) = true).
          { apply existsb_exists. exists (pm, n). split; [rewrite E; apply in_or_app; right; left; reflexivity|]. simpl. rewrite S. reflexivity. }
          congruence.
        + intros m Em. rewrite Hpn in Em. pose proof (Hm m Em) as Hml. split; [rewrite E, map_app; apply in_or_app; left; exact Hml|].
          eexists. split; [apply H1; assumption|]. left. reflexivity.
    Qed.

    Lemma frame_good : good b (run_frame veq np unset initial f w).
    Proof.
      intros n Hn. fold f in Hn. unfold run_frame. fold w1. destruct (restyled f) eqn:HR.
      - assert (D : done (fold_left (visit veq np unset initial) (f_visits f) w1) n).
        { apply (pass_done (f_visits f) [] w1); auto. intros x []. }
        set (w2 := fold_left (visit veq np unset initial) (f_visits f) w1) in *.
        destruct D as (D1 & D2 & D3 & D4 & D5). unfold apply_node. destruct (same (w2 n)) eqn:S.
        + repeat (split; [assumption|]). intros p Hp. destruct (D4 eq_refl p Hp) as [_ E]. rewrite <- E. apply D5; exact Hp.
        + simpl. split; [exact D1|]. split; [exact D2|]. split; [|exact D5].
          intros H p Hp. apply andb_true_iff in H. destruct H as [H1 H2]. rewrite forallb_pids in H2. specialize (H2 p Hp).
          apply ceqb_eq in H2. rewrite H2. apply D3; assumption.
      - unfold apply_node, keep_node. simpl. destruct (begin_facts n Hn) as [Hst F].
        assert (S : f_style f n = None).
        { destruct (f_style f n) eqn:S; [|reflexivity]. exfalso.
          apply in_map_iff in Hn. destruct Hn as [v [Ev Hv]].
          assert (T : restyled f = true).
          { unfold restyled. apply existsb_exists. exists v. split; [exact Hv|]. rewrite Ev, S. reflexivity. }
          congruence. }
        rewrite S in F. destruct F as (F1 & F2 & _). split; [exact F1|]. split; [exact F2|]. split; [exact Hst|].
        intros p Hp. apply (kept HR (f_visits f) []); auto. intros ? ? [].
    Qed.
  End Step.

  Lemma history_good : forall hs a w, good a w -> history unset a hs ->
    forall hs1 b hs2, hs = hs1 ++ b :: hs2 ->
    good b (fold_left (fun w m => run_frame veq np unset initial (at_frame m) w) (hs1 ++ [b]) w).
  Proof.
    induction hs as [|c hs IH]; intros a w Hg Hh hs1 b hs2 E; [destruct hs1; discriminate|].
    simpl in Hh. destruct Hh as [Hf Hh]. pose proof (frame_good a c w Hg Hf) as Hg'.
    destruct hs1 as [|c' hs1]; simpl in E; injection E as <- E.
    - simpl. exact Hg'.
    - simpl. exact (IH c _ Hg' Hh hs1 b hs2 E).
  Qed.
End P.

From Verif Require Import Tree TreeSpec TreeProofs.
Lemma desc_not_root w r e : descendant w r e -> parent w e <> None.
Proof. intros H. destruct H; congruence. Qed.
Lemma desc_root_unique w r1 r2 e : parent w r1 = None -> parent w r2 = None -> descendant w r1 e -> descendant w r2 e -> r1 = r2.
Proof.
  intros P1 P2 H. revert r2 P2. induction H as [e He|p e Hp IH He]; intros r2 P2 H2.
  - destruct H2 as [e He2|p e Hp2 He2]; [congruence|]. rewrite He in He2. injection He2 as <-. apply desc_not_root in Hp2. congruence.
  - inversion H2 as [e' He2|p' e' Hp2 He2]; subst.
    + rewrite He in He2. injection He2 as ->. apply desc_not_root in Hp. congruence.
    + rewrite He in He2. injection He2 as <-. apply IH; assumption.
Qed.

Lemma visits_order w roots : wf_forest w -> NoDup roots -> (forall r, In r roots -> parent w r = None) ->
  exists n0 vs, (forall n, n0 <= n -> visits_of w n roots = Some vs) /\ tree_order (parent w) vs /\
    (forall e, In e (map snd vs) <-> exists r, In r roots /\ (e = r \/ descendant w r e)).
Proof.
  intros Hw Hnd Hr. induction roots as [|r rs IH].
  - exists 0, []. split; [reflexivity|]. split; [|intros e; split; [intros []|intros (r & [] & _)]].
    split; [constructor|]. intros l1 pm n l2 E. destruct l1; discriminate.
  - inversion Hnd as [|? ? Hn1 Hn2]; subst. destruct IH as (n0 & vs & Hv & (T1 & T2) & Tin); [assumption|intros; apply Hr; right; assumption|].
    destruct (descendants_correct w r Hw) as (n1 & l & Hl & L1 & L2 & L3).
    assert (Inl : forall e, In e (map snd l) <-> descendant w r e).
    { intros e. rewrite in_map_iff. split.
      - intros ([p e'] & E & H). simpl in E. subst e'. apply L2 in H. tauto.
      - intros H. destruct (parent w e) as [p|] eqn:E; [|exfalso; eapply desc_not_root; eauto]. exists (p, e). split; [reflexivity|]. apply L2. auto. }
    set (l' := map (fun v : nat * nat => (Some (fst v), snd v)) l).
    assert (Sl' : map snd l' = map snd l) by (unfold l'; rewrite map_map; reflexivity).
    exists (Nat.max n0 n1), ((None, r) :: l' ++ vs). split; [|split; [split|]].
    + intros n Hn. simpl. rewrite (Hl n) by lia. rewrite (Hv n) by lia. reflexivity.
    + simpl. rewrite map_app, Sl'. constructor.
      * intros H. apply in_app_or in H. destruct H as [H|H].
        -- apply Inl in H. apply desc_not_root in H. apply H. apply Hr. left; reflexivity.
        -- apply Tin in H. destruct H as (r' & H1 & [->|H2]); [contradiction|]. apply desc_not_root in H2. apply H2. apply Hr. left; reflexivity.
      * assert (D : forall x, In x (map snd l) -> ~ In x (map snd vs)).
        { intros x H1 H2. apply Inl in H1. apply Tin in H2. destruct H2 as (r' & H2 & [->|H3]).
          - apply desc_not_root in H1. apply H1. apply Hr. right; assumption.
          - assert (r = r') by (eapply desc_root_unique; eauto; apply Hr; [left; reflexivity|right; assumption]). subst. contradiction. }
        clear -D L1 T1. induction (map snd l) as [|x xs IHx]; simpl; [exact T1|]. inversion L1; subst. constructor.
        -- intros H. apply in_app_or in H. destruct H as [H|H]; [contradiction|]. apply (D x); [left; reflexivity|exact H].
        -- apply IHx; [assumption|]. intros y Hy. apply D. right; exact Hy.
    + intros l1 pm n l2 E. destruct l1 as [|v l1]; simpl in E.
      * injection E as <- <- _. split; [apply Hr; left; reflexivity|discriminate].
      * injection E as <- E. apply app_eq_app in E. destruct E as (k & [[E1 E2]|[E1 E2]]).
        -- destruct k as [|v k].
           ++ simpl in E2. destruct (T2 [] pm n l2 (eq_sym E2)) as [A B]. split; [exact A|]. intros m Em. destruct (B m Em).
           ++ simpl in E2. injection E2 as <- E2. unfold l' in E1.
              apply map_eq_app in E1. destruct E1 as (la & lb & E1 & E3 & E4).
              destruct lb as [|[p e] lb]; simpl in E4; [discriminate|]. injection E4 as E4a E4b E4c. subst pm n.
              assert (Hin : In (p, e) l) by (rewrite E1; apply in_or_app; right; left; reflexivity).
              apply L2 in Hin. split; [tauto|]. intros m Em. injection Em as <-. destruct (L3 la p e lb E1) as [->|H]; [left; reflexivity|].
              right. rewrite <- E3. rewrite map_map. exact H.
        -- destruct (T2 k pm n l2 E2) as [A B]. split; [exact A|].
           intros m Em. right. rewrite E1, map_app. apply in_or_app. right. apply B. exact Em.
    + intros e. simpl. rewrite map_app, Sl'. split.
      * intros [<-|H]; [exists r; split; [left; reflexivity|left; reflexivity]|]. apply in_app_or in H. destruct H as [H|H].
        -- exists r. split; [left; reflexivity|]. right. apply Inl. exact H.
        -- apply Tin in H. destruct H as (r' & H1 & H2). exists r'. split; [right; exact H1|exact H2].
      * intros (r' & [<-|H] & H2).
        -- destruct H2 as [->|H2]; [left; reflexivity|]. right. apply in_or_app. left. apply Inl. exact H2.
        -- right. apply in_or_app. right. apply Tin. exists r'. auto.
Qed.
