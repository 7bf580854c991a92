(** Proofs for C88. *)
From Coq Require Import String.
From Verif Require Import Base Inherit InheritSpec InheritProofs Placeholder PlaceholderSpec.

Lemma find_none l name : find_font l name = None <-> ~ In name (map fst l).
Proof.
  induction l as [|[a h] r IH]; cbn; [tauto|]. destruct (find_font r name) eqn:E.
  - split; [discriminate|]. intros H. exfalso. apply H. right. destruct (in_dec string_dec name (map fst r)); [assumption|]. apply IH in n0. discriminate.
  - destruct (string_dec a name) as [->|Hne]; split; [discriminate|intros H; exfalso; apply H; auto|intros _ [H|H]; [congruence|]; exact (proj1 IH eq_refl H)|reflexivity].
Qed.
Lemma find_face l name h : find_font l name = Some h <-> face_of l name h.
Proof.
  split.
  - revert h. induction l as [|[a x] r IH]; intros h; cbn; [discriminate|]. destruct (find_font r name) as [y|] eqn:E.
    + intros Eh. injection Eh as <-. destruct (IH y eq_refl) as (l1 & l2 & -> & Hn). exists ((a, x) :: l1), l2. split; [reflexivity|exact Hn].
    + destruct (string_dec a name) as [->|]; [|discriminate]. intros Eh. injection Eh as <-. exists [], r. split; [reflexivity|]. apply find_none, E.
  - intros (l1 & l2 & -> & Hn). apply find_none in Hn. induction l1 as [|[a x] l1 IH]; cbn; [rewrite Hn; destruct (string_dec name name); [reflexivity|contradiction]|]. rewrite IH. reflexivity.
Qed.

Section P.
  Variable load : string -> option nat.
  Definition handle (fonts : list (string * nat)) (v : value) : option nat :=
    match v with Plain h => Some h | AssetPath path => load path | FontFamily name => find_font fonts name end.
  Lemma handle_stands fonts v o : stands_for load fonts v o <-> handle fonts v = o.
  Proof.
    split.
    - intros H. destruct H as [v|path|name h H|name H]; cbn; try reflexivity; [apply find_face, H|apply find_none, H].
    - intros <-. destruct v as [h|path|name]; cbn; try constructor. destruct (find_font fonts name) eqn:E; constructor; [apply find_face, E|apply find_none, E].
  Qed.
  (** names replaced *)
  Definition rd (fonts : list (string * nat)) (d : pvalue value) : pvalue value :=
    match d with PVal v => match handle fonts v with Some h => PVal (Plain h) | None => PNone end | _ => d end.
  Lemma rd_named fonts d d' : named load fonts d d' <-> rd fonts d = d'.
  Proof.
    split.
    - intros H. destruct H as [v h H|v H|d H]; cbn.
      + apply handle_stands in H. rewrite H. reflexivity.
      + apply handle_stands in H. rewrite H. reflexivity.
      + destruct d; try reflexivity. exfalso. eapply H. reflexivity.
    - intros <-. destruct d as [| | | |v]; cbn; try (apply nm_other; discriminate). destruct (handle fonts v) eqn:E; constructor; apply handle_stands; exact E.
  Qed.
  Notation R := (resolve_value load).
  Lemma R_handle fonts v : R fonts (CVal v) = match handle fonts v with Some h => CVal (Plain h) | None => CNone end.
  Proof. destruct v as [h|path|name]; cbn; [reflexivity|destruct (load path); reflexivity|destruct (find_font fonts name); reflexivity]. Qed.
  Lemma R_idem fonts c : R fonts (R fonts c) = R fonts c.
  Proof. destruct c as [|v]; [reflexivity|]. rewrite R_handle. destruct (handle fonts v); reflexivity. Qed.

  Variables (np : nat) (unset : nat -> pvalue value) (initial : nat -> value).
  Hypothesis unset_ok : forall p, unset p <> PUnset.
  Hypothesis unset_plain : forall p v, unset p = PVal v -> exists h, v = Plain h.
  Hypothesis initial_plain : forall p, exists h, initial p = Plain h.
  Lemma R_total fonts d p par : R fonts (total_compute unset initial d p par) = total_compute unset initial (rd fonts d) p (option_map (R fonts) par).
  Proof.
    unfold total_compute. destruct (initial_plain p) as [hi Ei].
    assert (K : forall d, (forall v, d = PVal v -> exists h, v = Plain h) ->
      R fonts (match compute_resolved d (initial p) par with Some c => c | None => CNone end) = match compute_resolved d (initial p) (option_map (R fonts) par) with Some c => c | None => CNone end).
    { intros x Hx. destruct x as [| | | |v]; cbn; try reflexivity.
      - destruct par; reflexivity.
      - rewrite Ei. reflexivity.
      - destruct (Hx v eq_refl) as [h ->]. reflexivity. }
    destruct d as [| | | |v]; cbn [compute_internal rd].
    - reflexivity.
    - apply K. intros v Hv. eapply unset_plain; eauto.
    - apply K. discriminate.
    - apply K. discriminate.
    - cbn [compute_resolved]. rewrite R_handle. destruct (handle fonts v); reflexivity.
  Qed.
  Definition meant (fonts : list (string * nat)) (declared : nat -> option (nat -> pvalue value)) : nat -> option (nat -> pvalue value) :=
    fun n => option_map (fun d p => rd fonts (d p)) (declared n).
  Lemma means_plain_parent p d par par' c : means (unset p) (initial p) par d c -> (d = PUnset -> unset p <> PInherit) -> d <> PInherit -> means (unset p) (initial p) par' d c.
  Proof.
    intros H Hu Hd. destruct d as [| | | |v]; try contradiction; inversion H as [| | | | |c1 Q1 Q2]; subst; try constructor; [exact Q1|]. specialize (Hu eq_refl).
    destruct (unset p) eqn:E; try congruence; inversion Q2; subst; constructor.
  Qed.

  Definition good (fonts : list (string * nat)) (a : moment value) (w : world value) : Prop :=
    (forall n p, can_transition (w n) p = false) /\
    forall n, In n (map snd (f_visits (at_frame a))) ->
      new_values (w n) = None /\ values (w n) = at_declared a n /\
      (is_static (w n) = true -> forall p, p < np -> computed (w n) p = CNone) /\
      forall p, p < np -> value_at (at_parent a) (meant fonts (at_declared a)) unset initial p n (computed (w n) p) /\ R fonts (computed (w n) p) = computed (w n) p.

  Section Step.
    Variables (fa fb : list (string * nat)) (a b : moment value) (w : world value).
    Hypothesis Hgood : good fa a w.
    Hypothesis Hf : follows unset a b.
    Hypothesis Hfonts : fonts_follow fa fb b.
    Let f := at_frame b.
    Let w1 := begin_frame f w.
    Notation D := (meant fb (at_declared b)).

    Lemma Hdecl n : at_declared b n = match f_style f n with Some (d, _) => Some d | None => if f_reset f n then None else at_declared a n end.
    Proof. destruct Hf as (_ & E & _). rewrite E. reflexivity. Qed.
    Lemma still n p : can_transition (w1 n) p = false.
    Proof. unfold w1, begin_frame. destruct (f_style f n) as [[d t]|] eqn:S; [cbn; eapply (proj2 Hfonts); exact S|]. destruct (f_reset f n); [reflexivity|apply Hgood]. Qed.
    Lemma old_node n : In n (map snd (f_visits f)) -> f_reset f n = false -> In n (map snd (f_visits (at_frame a))) /\ fa = fb.
    Proof.
      intros Hn Hr. destruct Hf as (_ & _ & Hnew & _). split.
      - destruct (in_dec Nat.eq_dec n (map snd (f_visits (at_frame a)))) as [H|H]; [exact H|]. specialize (Hnew n Hn H). fold f in Hnew. congruence.
      - destruct (proj1 Hfonts) as [E|E]; [exact E|]. specialize (E n Hn). fold f in E. congruence.
    Qed.

    Lemma begin_facts n : In n (map snd (f_visits f)) ->
      (is_static (w1 n) = true -> forall p, p < np -> computed (w1 n) p = CNone) /\ (forall p, p < np -> R fb (computed (w1 n) p) = computed (w1 n) p) /\
      match f_style f n with
      | Some (d, t) => new_values (w1 n) = Some d /\ at_declared b n = Some d
      | None => new_values (w1 n) = None /\ values (w1 n) = at_declared b n /\
                (f_reset f n = true -> forall p, computed (w1 n) p = CNone) /\
                (f_reset f n = false -> computed (w1 n) = computed (w n) /\ at_declared b n = at_declared a n)
      end.
    Proof.
      intros Hn. pose proof (Hdecl n) as HD. unfold w1, begin_frame.
      destruct (f_reset f n) eqn:Rs; destruct (f_style f n) as [[d t]|] eqn:S; simpl.
      - split; [reflexivity|]. split; [reflexivity|]. split; [reflexivity|exact HD].
      - split; [reflexivity|]. split; [reflexivity|]. split; [reflexivity|]. split; [symmetry; exact HD|]. split; [reflexivity|discriminate].
      - destruct (old_node n Hn Rs) as [Ha E]. destruct (proj2 Hgood n Ha) as (_ & _ & G & Gv). split; [exact G|]. split; [intros p Hp; rewrite <- E; apply Gv, Hp|]. split; [reflexivity|exact HD].
      - destruct (old_node n Hn Rs) as [Ha E]. destruct (proj2 Hgood n Ha) as (A & B & C & Gv). split; [exact C|]. split; [intros p Hp; rewrite <- E; apply Gv, Hp|]. split; [exact A|]. split; [rewrite HD; exact B|]. split; [discriminate|].
        intros _. split; [reflexivity|exact HD].
    Qed.
    Lemma meant_none n : at_declared b n = None -> D n = None.
    Proof. unfold meant. intros ->. reflexivity. Qed.
    Lemma meant_some n d : at_declared b n = Some d -> D n = Some (fun p => rd fb (d p)).
    Proof. unfold meant. intros ->. reflexivity. Qed.
    Lemma none_before n p : In n (map snd (f_visits f)) -> f_style f n = None -> at_declared b n = None -> p < np -> computed (w1 n) p = CNone.
    Proof.
      intros Hn S HD Hp. destruct (begin_facts n Hn) as (_ & _ & F). rewrite S in F. destruct F as (_ & _ & Fr & Fn). destruct (f_reset f n) eqn:Rs; [apply Fr; reflexivity|].
      destruct (Fn eq_refl) as (-> & Da). destruct (old_node n Hn Rs) as [Ha _]. destruct (proj2 Hgood n Ha) as (_ & _ & _ & G). destruct (G p Hp) as [Gv _].
      assert (E : meant fa (at_declared a) n = None) by (unfold meant; rewrite <- Da, HD; reflexivity). inversion Gv; congruence.
    Qed.

    Lemma fast_ok n p : In n (map snd (f_visits f)) -> f_style f n = None -> p < np ->
      (forall m, at_parent b n = Some m -> In m (map snd (f_visits f)) /\ exists cm, value_at (at_parent b) D unset initial p m cm /\
         (cm = computed (w1 m) p \/ exists d, at_declared b n = Some d /\ d p <> PInherit)) ->
      value_at (at_parent b) D unset initial p n (computed (w1 n) p).
    Proof.
      intros Hn S Hp Hpar. destruct (begin_facts n Hn) as (_ & _ & F). rewrite S in F. destruct F as (_ & Hv & Fr & Fn).
      destruct Hf as (_ & _ & Hnew & Hmove & Hres & Hun). fold f in Hnew, Hmove, Hres.
      destruct (at_declared b n) as [d|] eqn:ED.
      2: { rewrite (none_before n p Hn S ED Hp). apply at_unstyled, meant_none, ED. }
      destruct (f_reset f n) eqn:Rs.
      { rewrite (Hdecl n), S, Rs in ED. discriminate. }
      destruct (Fn eq_refl) as (Ec & Da). destruct (old_node n Hn Rs) as [Ha Efont]. rewrite Ec.
      assert (Psame : at_parent b n = at_parent a n).
      { destruct (at_parent b n) as [x|] eqn:E1, (at_parent a n) as [y|] eqn:E2; try reflexivity.
        - destruct (Nat.eq_dec x y) as [->|N]; [reflexivity|].
          destruct (Hmove n Hn Rs) as [H|H]; [congruence|congruence|congruence].
        - destruct (Hmove n Hn Rs) as [H|H]; congruence.
        - destruct (Hmove n Hn Rs) as [H|H]; congruence. }
      destruct (proj2 Hgood n Ha) as (_ & _ & _ & G). destruct (G p Hp) as [Gv _]. rewrite Efont in Gv.
      assert (Dn : meant fb (at_declared a) n = Some (fun p => rd fb (d p))) by (unfold meant; rewrite <- Da; reflexivity).
      pose proof (meant_some n d ED) as Dn'.
      inversion Gv as [n0 E|n0 d0 c0 E1 E2 E3|n0 d0 m cm c0 E1 E2 E3 E4]; subst n0; [congruence| |].
      - eapply at_root; [exact Dn'|congruence|]. rewrite Dn in E1. injection E1 as <-. exact E3.
      - rewrite Dn in E1. injection E1 as <-. rewrite <- Psame in E2. destruct (Hpar m E2) as (Hm & cm' & Hcm & Hc).
        eapply at_child; [exact Dn'|exact E2|exact Hcm|].
        destruct Hc as [Hc|[d' [Hd' Hne]]].
        + assert (Rm : f_reset f m = false).
          { destruct (f_reset f m) eqn:Rm; [|reflexivity]. destruct (Hres n m Hn E2 Rm) as [H|H]; congruence. }
          assert (computed (w1 m) = computed (w m)) as Em.
          { unfold w1, begin_frame. rewrite Rm. destruct (f_style f m) as [[? ?]|]; reflexivity. }
          rewrite Em in Hc. destruct (old_node m Hm Rm) as [Hma _].
          destruct (proj2 Hgood m Hma) as (_ & _ & _ & Gm). destruct (Gm p Hp) as [Gmv _]. rewrite <- Hc, Efont in Gmv.
          rewrite (value_at_fun unset initial _ _ _ _ _ _ Gmv E3). exact E4.
        + injection Hd' as ->. cbn beta in E4. apply (means_plain_parent p _ (Some cm)); [exact E4| |].
          * intros E. apply (Hun n d' p ED). destruct (d' p) as [| | | |v]; try discriminate; [reflexivity|]. cbn in E. destruct (handle fb v); discriminate.
          * intros E. apply Hne. destruct (d' p) as [| | | |v]; try discriminate; [reflexivity|]. cbn in E. destruct (handle fb v); discriminate.
    Qed.

    Definition done (w' : world value) (n : nat) : Prop :=
      new_values (w' n) = None /\ values (w' n) = at_declared b n /\ (forall p, can_transition (w' n) p = false) /\
      (is_static (w' n) = true -> forall p, p < np -> computed (w' n) p = CNone) /\
      (same (w' n) = true -> forall p, p < np -> pending (w' n) p = computed (w1 n) p /\ pending (w' n) p = computed (w' n) p) /\
      forall p, p < np -> value_at (at_parent b) D unset initial p n (R fb (pending (w' n) p)).

    Lemma node_done n par : In n (map snd (f_visits f)) -> at_parent b n = par ->
      (forall w' m, par = Some m -> In m (map snd (f_visits f)) -> done w' m -> forall w'', w'' n = compute_node value_dec np unset initial (Some (w' m)) (w1 n) -> done w'' n) /\
      (par = None -> forall w'', w'' n = compute_node value_dec np unset initial None (w1 n) -> done w'' n).
    Proof.
      intros Hn Hpar.
      assert (K : forall (pn : option (node value)),
        (forall p, p < np -> match pn, par with
                    | None, None => True
                    | Some x, Some m => In m (map snd (f_visits f)) /\ value_at (at_parent b) D unset initial p m (R fb (pending x p)) /\ (same x = true -> R fb (pending x p) = computed (w1 m) p)
                    | _, _ => False end) ->
        forall w'', w'' n = compute_node value_dec np unset initial pn (w1 n) -> done w'' n).
      { intros pn Hpn w'' Ew. unfold done. rewrite Ew. unfold compute_node.
        destruct (pending_values value_dec np unset initial pn (w1 n)) as [pend sh] eqn:Epv.
        destruct (begin_facts n Hn) as (Hst & Hfix & F).
        assert (Hval : forall p, p < np -> value_at (at_parent b) D unset initial p n (R fb (pend p))).
        { intros p Hp. specialize (Hpn p Hp). unfold pending_values in Epv. destruct (f_style f n) as [[d t]|] eqn:S.
          - destruct F as [Fn Fd]. rewrite Fn in Epv. injection Epv as <- _. rewrite R_total.
            destruct pn as [x|], par as [m|]; try contradiction.
            + destruct Hpn as (_ & Hm & _). eapply at_child; [exact (meant_some n d Fd)|exact Hpar|exact Hm|]. apply total_means. exact unset_ok.
            + eapply at_root; [exact (meant_some n d Fd)|exact Hpar|]. apply total_means. exact unset_ok.
          - destruct F as (Fn & Fv & Fr & Fk). rewrite Fn in Epv. injection Epv as <- _. rewrite Fv.
            destruct pn as [x|], par as [m|]; try contradiction.
            + destruct Hpn as (Hin & Hm & Hsame). destruct (at_declared b n) as [d|] eqn:ED.
              * destruct (same x) eqn:Sx.
                -- rewrite (Hfix p Hp). apply fast_ok; auto. intros m' Em'. rewrite Hpar in Em'. injection Em' as <-. split; [exact Hin|].
                   eexists. split; [exact Hm|]. left. apply Hsame. reflexivity.
                -- destruct (d p) eqn:Ed.
                   3: { eapply at_child; [exact (meant_some n d ED)|exact Hpar|exact Hm|]. cbn beta. rewrite Ed. apply M_inherit. reflexivity. }
                   all: rewrite (Hfix p Hp); apply fast_ok; auto; intros m' Em'; rewrite Hpar in Em'; injection Em' as <-; split; [exact Hin|];
                        eexists; split; [exact Hm|]; right; exists d; split; [exact ED|congruence].
              * rewrite (none_before n p Hn S ED Hp). apply at_unstyled, meant_none, ED.
            + replace (match at_declared b n with Some _ | _ => computed (w1 n) p end) with (computed (w1 n) p) by (destruct (at_declared b n); reflexivity).
              rewrite (Hfix p Hp). apply fast_ok; auto. intros m Em. congruence. }
        assert (Hsh : sh = true -> forall p, p < np -> pend p = computed (w1 n) p).
        { intros Hsh p Hp. unfold pending_values in Epv. destruct (new_values (w1 n)) as [d|].
          - injection Epv as <- E. rewrite <- E in Hsh. apply andb_true_iff in Hsh. destruct Hsh as [H1 H2].
            rewrite (Hst H1 p Hp). rewrite (forallb_pids np) in H2. specialize (H2 p Hp). apply negb_true_iff in H2.
            destruct (total_compute _ _ _ _ _); [reflexivity|discriminate].
          - injection Epv as <- E. rewrite <- E in Hsh. rewrite (forallb_pids np) in Hsh. specialize (Hsh p Hp). apply (ceqb_eq value_dec) in Hsh. exact Hsh. }
        assert (Hto : forall p, takes_over value_dec (w1 n) pend p = false) by (intros p; unfold takes_over; rewrite still; reflexivity).
        simpl. split; [reflexivity|]. split.
        { destruct (f_style f n) as [[d t]|]; [destruct F as [-> ->]; reflexivity|destruct F as (-> & -> & _); reflexivity]. }
        split; [intros p; apply still|]. split.
        { intros H p Hp. apply andb_true_iff in H. destruct H as [H1 H2]. rewrite Hto. exact (Hst H1 p Hp). }
        split; [|exact Hval].
        intros H p Hp. apply andb_true_iff in H. destruct H as [H1 H2]. rewrite Hto. specialize (Hsh H1 p Hp). auto. }
      split.
      - intros w' m -> Hin Hd w'' Ew. apply (K (Some (w' m))); [|exact Ew].
        intros p Hp. destruct Hd as (_ & _ & _ & _ & D4 & D5). split; [exact Hin|]. split; [apply D5; exact Hp|].
        intros Hs. destruct (D4 Hs p Hp) as [-> _]. destruct (begin_facts m Hin) as (_ & Hfix & _). apply Hfix, Hp.
      - intros -> w'' Ew. apply (K None); [|exact Ew]. intros; exact I.
    Qed.

    Lemma pass_done : forall l2 l1 w', f_visits f = l1 ++ l2 ->
      (forall n, In n (map snd l1) -> done w' n) -> (forall n, ~ In n (map snd l1) -> w' n = w1 n) ->
      let w'' := fold_left (visit value_dec np unset initial) l2 w' in
      (forall n, In n (map snd (f_visits f)) -> done w'' n) /\ (forall n, ~ In n (map snd (f_visits f)) -> w'' n = w1 n).
    Proof.
      destruct Hf as ((Hnd & Hord) & _). fold f in Hnd, Hord.
      induction l2 as [|[pm n] l2 IH]; intros l1 w' E H1 H2; cbn [fold_left].
      - rewrite app_nil_r in E. subst l1. split; assumption.
      - destruct (Hord l1 pm n l2 E) as [Hp Hm].
        assert (Hn : In n (map snd (f_visits f))) by (rewrite E, map_app; apply in_or_app; right; left; reflexivity).
        assert (Hnl : ~ In n (map snd l1)).
        { rewrite E, map_app in Hnd. simpl in Hnd. apply NoDup_remove_2 in Hnd. intros H. apply Hnd. apply in_or_app. left. exact H. }
        assert (Dn : done (visit value_dec np unset initial w' (pm, n)) n).
        { destruct (node_done n pm Hn Hp) as [K1 K2]. unfold visit. simpl. rewrite (H2 n Hnl). destruct pm as [m|]; simpl.
          - pose proof (Hm m eq_refl) as Hml.
            assert (Hin : In m (map snd (f_visits f))) by (rewrite E, map_app; apply in_or_app; left; exact Hml).
            apply (K1 w' m eq_refl Hin (H1 m Hml)). unfold set_world. rewrite Nat.eqb_refl. reflexivity.
          - apply (K2 eq_refl). unfold set_world. rewrite Nat.eqb_refl. reflexivity. }
        apply (IH (l1 ++ [(pm, n)])).
        + rewrite <- app_assoc. exact E.
        + intros y Hy. rewrite map_app in Hy. apply in_app_or in Hy. destruct Hy as [Hy|[<-|[]]].
          * assert (y <> n) by (intros ->; contradiction). unfold done. unfold visit, set_world. simpl.
            destruct (Nat.eqb_spec y n); [contradiction|]. exact (H1 y Hy).
          * exact Dn.
        + intros y Hy. rewrite map_app in Hy. unfold visit, set_world. simpl. destruct (Nat.eqb_spec y n) as [->|N].
          * exfalso. apply Hy. apply in_or_app. right. left. reflexivity.
          * apply H2. intros H. apply Hy. apply in_or_app. left. exact H.
    Qed.

    Lemma kept : restyled f = false -> forall l2 l1, f_visits f = l1 ++ l2 ->
      (forall n p, In n (map snd l1) -> p < np -> value_at (at_parent b) D unset initial p n (computed (w1 n) p)) ->
      forall n p, In n (map snd (f_visits f)) -> p < np -> value_at (at_parent b) D unset initial p n (computed (w1 n) p).
    Proof.
      intros HR. destruct Hf as ((Hnd & Hord) & _). fold f in Hnd, Hord.
      induction l2 as [|[pm n] l2 IH]; intros l1 E H1 x p Hx Hp.
      - rewrite app_nil_r in E. subst l1. apply H1; assumption.
      - apply (IH (l1 ++ [(pm, n)])); [rewrite <- app_assoc; exact E| |exact Hx|exact Hp].
        intros y q Hy Hq. rewrite map_app in Hy. apply in_app_or in Hy. destruct Hy as [Hy|[<-|[]]]; [apply H1; assumption|]. simpl.
        destruct (Hord l1 pm n l2 E) as [Hpn Hm].
        assert (Hn : In n (map snd (f_visits f))) by (rewrite E, map_app; apply in_or_app; right; left; reflexivity).
        apply fast_ok; auto.
        + destruct (f_style f n) eqn:S; [|reflexivity]. exfalso. unfold restyled in HR.
          assert (T : existsb (fun v => match f_style f (snd v) with Some _ => true | None => false end) (f_visits f) = true).
          { apply existsb_exists. exists (pm, n). split; [rewrite E; apply in_or_app; right; left; reflexivity|]. simpl. rewrite S. reflexivity. }
          congruence.
        + intros m Em. rewrite Hpn in Em. pose proof (Hm m Em) as Hml. split; [rewrite E, map_app; apply in_or_app; left; exact Hml|].
          eexists. split; [apply H1; assumption|]. left. reflexivity.
    Qed.

    Lemma frame_good fonts : (forall n, In n (map snd (f_visits f)) -> fonts n = Some fb) -> good fb b (Placeholder.run_frame load np unset initial fonts f w).
    Proof.
      intros Hfo. unfold Placeholder.run_frame. fold w1. destruct (restyled f) eqn:HR.
      - destruct (pass_done (f_visits f) [] w1) as [PD PO]; [reflexivity|intros n []|reflexivity|]. cbv zeta in PD, PO.
        set (w2 := fold_left (visit value_dec np unset initial) (f_visits f) w1) in *. split.
        + intros n p. assert (C : can_transition (w2 n) p = false).
          { destruct (in_dec Nat.eq_dec n (map snd (f_visits f))) as [H|H]; [apply (PD n H)|rewrite (PO n H); apply still]. }
          unfold apply_node, resolve_node. destruct (fonts n) as [fs|]; destruct (same (w2 n)) eqn:Sm; cbn [can_transition same]; rewrite ?Sm; exact C.
        + intros n Hn. fold f in Hn. destruct (PD n Hn) as (D1 & D2 & _ & D3 & D4 & D5). unfold resolve_node. rewrite (Hfo n Hn). unfold apply_node.
          destruct (same (w2 n)) eqn:S.
          * rewrite S. split; [exact D1|]. split; [exact D2|]. split; [exact D3|]. intros p Hp. destruct (D4 eq_refl p Hp) as [E1 E]. specialize (D5 p Hp).
            destruct (begin_facts n Hn) as (_ & Hfix & _). specialize (Hfix p Hp). rewrite <- E1, E in Hfix. rewrite E, Hfix in D5. split; assumption.
          * cbn [same values new_values computed is_static pending]. rewrite ?S. cbn [same values new_values computed is_static pending]. split; [exact D1|]. split; [exact D2|]. split.
            -- intros H p Hp. apply andb_true_iff in H. destruct H as [H1 H2]. rewrite (forallb_pids np) in H2. specialize (H2 p Hp). apply (ceqb_eq value_dec) in H2. rewrite H2. apply D3; assumption.
            -- intros p Hp. split; [apply D5, Hp|apply R_idem].
      - assert (E : forall n, apply_node value_dec np (resolve_node load (fonts n) (keep_node (w1 n))) = keep_node (w1 n)) by (intros n; unfold resolve_node; destruct (fonts n); reflexivity). split.
        + intros n p. rewrite E. apply still.
        + intros n Hn. fold f in Hn. rewrite E. destruct (begin_facts n Hn) as (Hst & Hfix & F).
          assert (S : f_style f n = None).
          { destruct (f_style f n) eqn:S; [|reflexivity]. exfalso.
            apply in_map_iff in Hn. destruct Hn as [v [Ev Hv]].
            assert (T : restyled f = true).
            { unfold restyled. apply existsb_exists. exists v. split; [exact Hv|]. rewrite Ev, S. reflexivity. }
            congruence. }
          rewrite S in F. destruct F as (F1 & F2 & _). split; [exact F1|]. split; [exact F2|]. split; [exact Hst|].
          intros p Hp. split; [|apply Hfix, Hp]. apply (kept HR (f_visits f) []); auto. intros ? ? [].
    Qed.
  End Step.
End P.
