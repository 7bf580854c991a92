(** Invariant of reachable builders; C07 (embedding). *)
From Coq Require Import Ascii NArith Sorted Permutation.
From Verif Require Import Base Layers LayersSpec LayersProofs Cascade CascadeSpec CascadeProofs CascadeProofs3.
Local Open Scope list_scope.

Definition h_ok (h : list (list ascii)) : Prop :=
  exists l, h = map dotted l /\ Forall legal l /\ closed l.

Lemma h_ok_nil : h_ok [].
Proof. exists []. split; [reflexivity|]. split; [constructor|]. intros p q []. Qed.

Lemma define_layer_ok h n : h_ok h -> legal_layer n ->
  exists h', define_layer h n = Some h' /\ h_ok h' /\ (forall m, In m h -> In m h') /\ (n = [] \/ In n h') /\ subseq h h'.
Proof.
  intros (l & -> & Hl & Hc) [->|(p & Hp & ->)].
  - exists (map dotted l). unfold define_layer. simpl. split; [reflexivity|]. split; [exists l; auto|].
    split; [auto|]. split; [auto|]. apply subseq_refl.
  - exists (map dotted (adds l p)). split; [apply define_layer_path; assumption|].
    split; [|split; [|split]].
    + exists (adds l p). split; [reflexivity|]. split; [|apply adds_closed, Hc].
      apply Forall_forall. intros q Hq. apply adds_contains in Hq as [Hq|Hq].
      * rewrite Forall_forall in Hl; auto.
      * eapply legal_prefix; eauto.
    + intros m Hm. apply in_map_iff in Hm as (q & <- & Hq). apply in_map. apply adds_contains. auto.
    + right. apply in_map. apply adds_contains. right. apply prefixes_self, Hp.
    + apply subseq_map, adds_subseq.
Qed.

Lemma priority_defined h n : n = [] \/ In n h -> exists p, get_layer_priority h n = Some p.
Proof.
  intros H. destruct n as [|c n]; [simpl; eauto|]. destruct H as [H|H]; [discriminate|].
  simpl. destruct (position _ h) eqn:E; [eauto|]. apply position_None in E. rewrite Forall_forall in E.
  specialize (E _ H). simpl in E. assert (name_eqb (c :: n) (c :: n) = true) by (apply name_eqb_spec; reflexivity). congruence.
Qed.

Lemma dotted_app p q : p <> [] -> q <> [] -> dotted (p ++ q) = dotted p ++ "."%char :: dotted q.
Proof.
  induction p as [|s p IH]; intros Hp Hq; [congruence|].
  destruct p as [|s' p].
  - simpl app. rewrite dotted_cons by exact Hq. reflexivity.
  - change ((s :: s' :: p) ++ q) with (s :: ((s' :: p) ++ q)).
    rewrite (dotted_cons s (s' :: p)) by discriminate.
    rewrite dotted_cons by discriminate. rewrite IH by (discriminate || exact Hq).
    rewrite <- app_assoc. reflexivity.
Qed.

Section Inv.
  Context {Sel Med VN VT CN Value Dyn TP AP KN KF FF : Type}.
  Variables (specificity : Sel -> N) (resolve_name : CN -> option nat) (type_ok : nat -> Value -> bool)
            (path_ok : FF -> bool) (placeholder : Value -> Value).
  Notation builderT := (builder Sel Med VN VT CN Value Dyn TP AP KN KF FF).
  Notation sheetT := (style_sheet Sel Med VN VT Value Dyn TP AP KN KF FF).
  Notation buildB := (build specificity resolve_name type_ok path_ok placeholder).
  Notation reachableB := (reachable specificity resolve_name type_ok path_ok placeholder).

  Definition entry_ok (h : list (list ascii)) (n : nat) (e : css_selector Sel Med * nat) : Prop :=
    snd e < n /\ legal_layer (layer (fst e)) /\ (layer (fst e) = [] \/ In (layer (fst e)) h).
  Definition Binv (b : builderT) : Prop :=
    h_ok (layers_hierarchy b) /\
    Forall (entry_ok (layers_hierarchy b) (length (rulesets b))) (css_selectors_to_rulesets b).

  Lemma entry_ok_mono h h' n n' e : (forall m, In m h -> In m h') -> n <= n' -> entry_ok h n e -> entry_ok h' n' e.
  Proof. intros Hh Hn (H1 & H2 & H3). split; [lia|]. split; [exact H2|]. destruct H3; auto. Qed.

  Lemma update_nth_length {A} n f (l : list A) : length (update_nth n f l) = length l.
  Proof. revert n; induction l as [|x l IH]; intros [|n]; simpl; auto. Qed.

  Lemma add_css_selector_ok (b : builderT) id s :
    Binv b -> id < length (rulesets b) -> legal_layer (layer s) ->
    exists b', add_css_selector b id s = Some b' /\ Binv b' /\ rulesets b' = rulesets b /\
      css_selectors_to_rulesets b' = css_selectors_to_rulesets b ++ [(s, id)] /\
      font_faces b' = font_faces b /\ animation_keyframes b' = animation_keyframes b /\
      subseq (layers_hierarchy b) (layers_hierarchy b').
  Proof.
    intros [Hh Hc] Hid Hl. destruct (define_layer_ok _ _ Hh Hl) as (h' & E & Hh' & Hm & Hin & Hsub).
    unfold add_css_selector. rewrite E. eexists. split; [reflexivity|]. simpl.
    split; [|auto]. split; [exact Hh'|]. simpl. apply Forall_app. split.
    - eapply Forall_impl; [|exact Hc]. intros e. apply entry_ok_mono; auto.
    - constructor; [|constructor]. split; [exact Hid|]. split; [exact Hl|exact Hin].
  Qed.

  Lemma add_css_selectors_ok id ss : forall (b : builderT),
    Binv b -> id < length (rulesets b) -> Forall (fun s => legal_layer (layer s)) ss ->
    exists b', add_css_selectors b id ss = Some b' /\ Binv b' /\ rulesets b' = rulesets b /\
      css_selectors_to_rulesets b' = css_selectors_to_rulesets b ++ map (fun s => (s, id)) ss /\
      font_faces b' = font_faces b /\ animation_keyframes b' = animation_keyframes b /\
      subseq (layers_hierarchy b) (layers_hierarchy b').
  Proof.
    induction ss as [|s ss IH]; intros b Hb Hid Hss; simpl.
    - exists b. rewrite app_nil_r. repeat (split; [first [reflexivity|assumption]|]). apply subseq_refl.
    - inversion Hss as [|? ? Hs Hss']; subst.
      destruct (add_css_selector_ok b id s Hb Hid Hs) as (b1 & -> & Hb1 & E1 & E2 & E3 & E4 & E5).
      destruct (IH b1) as (b2 & -> & Hb2 & F1 & F2 & F3 & F4 & F5); [exact Hb1|rewrite E1; exact Hid|exact Hss'|].
      exists b2. split; [reflexivity|]. split; [exact Hb2|]. split; [congruence|].
      split; [rewrite F2, E2, <- app_assoc; reflexivity|]. split; [congruence|]. split; [congruence|].
      eapply subseq_trans; eauto.
  Qed.

  Definition shift_entry (n : nat) (p : option (list ascii)) (e : css_selector Sel Med * nat) : css_selector Sel Med * nat :=
    (with_layer_prefixed (fst e) p, n + snd e).
  Definition prefix_ok (p : option (list ascii)) : Prop := forall n, p = Some n -> n <> [] /\ legal_layer n.

  Lemma prefix_legal s p : prefix_ok p -> legal_layer (layer s) -> legal_layer (layer (with_layer_prefixed (Med := Med) (Sel := Sel) s p)).
  Proof.
    intros Hp Hs. destruct p as [n|]; [|exact Hs]. destruct (Hp n eq_refl) as [Hn [Hl|(q & Hq & ->)]]; [congruence|].
    simpl. destruct Hs as [E|(r & Hr & E)].
    - rewrite E. right. eauto.
    - right. exists (q ++ r). split.
      + split; [|apply Forall_app; split; [apply Hq|apply Hr]]. destruct q; [destruct Hq; congruence|discriminate].
      + rewrite dotted_app by (apply Hq || apply Hr). rewrite <- E.
        destruct (layer s) eqn:El; [|reflexivity].
        exfalso. apply (legal_dotted_nonempty r Hr). symmetry. exact E.
  Qed.

  (** contents of an embedded ruleset *)
  Definition content_of (r : ruleset VN VT Value Dyn TP AP) : builder_ruleset VN VT CN Value Dyn TP AP :=
    mk_ruleset (vars r) (map into_builder_property (properties r)) (transition_properties r) (animation_properties r).

  Lemma update_nth_last {A} (l : list A) x f : update_nth (length l) f (l ++ [x]) = l ++ [f x].
  Proof. induction l; simpl; congruence. Qed.

  Lemma embed_rulesets_ok css p rs : forall id (b : builderT),
    Binv b -> prefix_ok p -> Forall (fun e => legal_layer (layer (fst e))) css ->
    exists b', embed_rulesets b css p id rs = Some b' /\ Binv b' /\
      rulesets b' = rulesets b ++ map content_of rs /\
      css_selectors_to_rulesets b' = css_selectors_to_rulesets b ++
        concat (map (fun k => map (fun s => (with_layer_prefixed s p, length (rulesets b) + (k - id))) (selectors_of css k))
                    (seq id (length rs))) /\
      font_faces b' = font_faces b /\ animation_keyframes b' = animation_keyframes b /\
      subseq (layers_hierarchy b) (layers_hierarchy b').
  Proof.
    induction rs as [|r rs IH]; intros id b Hb Hp Hcss; simpl.
    - exists b. rewrite !app_nil_r. repeat (split; [first [reflexivity|assumption]|]). apply subseq_refl.
    - set (b2 := modify_content _ _ _).
      assert (Hrs : rulesets b2 = rulesets b ++ [content_of r]).
      { unfold b2. simpl. rewrite update_nth_last. reflexivity. }
      assert (Hb2 : Binv b2).
      { destruct Hb as [Hh Hc]. split; [exact Hh|]. rewrite Hrs. simpl.
        eapply Forall_impl; [|exact Hc]. intros e. apply entry_ok_mono; auto. rewrite app_length. lia. }
      destruct (add_css_selectors_ok (length (rulesets b)) (map (fun s => with_layer_prefixed s p) (selectors_of css id)) b2)
        as (b3 & -> & Hb3 & E1 & E2 & E3 & E4 & E5).
      + exact Hb2.
      + rewrite Hrs, app_length. simpl. lia.
      + apply Forall_forall. intros s Hs. apply in_map_iff in Hs as (s0 & <- & Hs0).
        unfold selectors_of in Hs0. apply in_map_iff in Hs0 as (e & <- & He). apply filter_In in He as [He _].
        apply prefix_legal; [exact Hp|]. rewrite Forall_forall in Hcss. apply (Hcss e He).
      + destruct (IH (S id) b3 Hb3 Hp Hcss) as (b4 & -> & Hb4 & F1 & F2 & F3 & F4 & F5).
        exists b4. split; [reflexivity|]. split; [exact Hb4|].
        split; [rewrite F1, E1, Hrs, <- app_assoc; reflexivity|].
        split; [|split; [rewrite F3, E3; reflexivity|split; [rewrite F4, E4; reflexivity|eapply subseq_trans; eauto]]].
        rewrite F2, E2. simpl. rewrite <- app_assoc. f_equal. f_equal.
        * rewrite map_map. apply map_ext. intros s. rewrite Nat.sub_diag, Nat.add_0_r. reflexivity.
        * f_equal. apply map_ext_in. intros k Hk. apply in_seq in Hk.
          rewrite E1, Hrs, app_length. simpl. apply map_ext. intros s. f_equal. lia.
  Qed.

  (** grouping by id *)
  Definition grouped (n : nat) {A} (f : A -> nat) (l : list A) : list A :=
    concat (map (fun k => filter (fun x => Nat.eqb (f x) k) l) (seq 0 n)).

  Lemma embed_ok (b : builderT) (other : sheetT) p :
    Binv b -> prefix_ok p -> Forall (fun e => legal_layer (layer (fst e))) (s_css other) ->
    exists b', embed_style_sheet b other p = Some b' /\ Binv b' /\
      rulesets b' = rulesets b ++ map content_of (s_rulesets other) /\
      css_selectors_to_rulesets b' = css_selectors_to_rulesets b ++
        map (shift_entry (length (rulesets b)) p) (grouped (length (s_rulesets other)) snd (s_css other)) /\
      font_faces b' = font_faces b ++ s_font_faces other /\
      animation_keyframes b' = animation_keyframes b ++ s_keyframes other /\
      subseq (layers_hierarchy b) (layers_hierarchy b').
  Proof.
    intros Hb Hp Hcss. destruct (embed_rulesets_ok (s_css other) p (s_rulesets other) 0 b Hb Hp Hcss)
      as (b' & E & Hb' & E1 & E2 & E3 & E4 & E5).
    unfold embed_style_sheet. rewrite E. eexists. split; [reflexivity|]. simpl.
    split; [exact Hb'|]. split; [exact E1|]. split; [|rewrite E3, E4; auto].
    rewrite E2. f_equal. unfold grouped. rewrite concat_map, map_map. f_equal.
    apply map_ext. intros k. unfold selectors_of. rewrite map_map, Nat.sub_0_r.
    apply map_ext_in. intros e He. apply filter_In in He as [_ He]. apply Nat.eqb_eq in He.
    unfold shift_entry. rewrite He. reflexivity.
  Qed.

  Lemma grouped_perm {A} (f : A -> nat) l n : Forall (fun x => f x < n) l -> Permutation (grouped n f l) l.
  Proof.
    unfold grouped. induction l as [|x l IH]; intros H.
    - replace (map _ (seq 0 n)) with (map (fun _ : nat => @nil A) (seq 0 n)) by reflexivity.
      induction (seq 0 n); simpl; auto.
    - inversion H as [|? ? Hx Hl]; subst. transitivity (x :: concat (map (fun k => filter (fun y => Nat.eqb (f y) k) l) (seq 0 n))); [|constructor; apply IH, Hl]. clear IH Hl H.
      simpl. assert (Hin : In (f x) (seq 0 n)) by (apply in_seq; lia). pose proof (seq_NoDup n 0) as Hnd.
      induction (seq 0 n) as [|k ks IHk]; [destruct Hin|]. inversion Hnd as [|? ? Hk Hnd']; subst. simpl.
      destruct (Nat.eqb_spec (f x) k) as [->|Hne].
      + simpl. constructor. apply Permutation_app_head.
        replace (map (fun k0 => if Nat.eqb k k0 then x :: filter (fun y => Nat.eqb (f y) k0) l else filter (fun y => Nat.eqb (f y) k0) l) ks)
          with (map (fun k0 => filter (fun y => Nat.eqb (f y) k0) l) ks); [reflexivity|].
        apply map_ext_in. intros a Ha. destruct (Nat.eqb_spec k a); [congruence|reflexivity].
      + rewrite IHk; [|destruct Hin; [congruence|assumption]|exact Hnd'].
        symmetry. apply Permutation_middle.
  Qed.

  (** built sheets *)
  Lemma build_css_perm (b : builderT) s : buildB b = Built s -> Permutation (s_css s) (css_selectors_to_rulesets b).
  Proof.
    intros H. apply build_css, sort_css_indices in H as (ixs & -> & _ & _ & Hp).
    rewrite Hp. rewrite map_snd_combine; [reflexivity|apply seq_length].
  Qed.
  Lemma build_rulesets_length (b : builderT) s : buildB b = Built s -> length (s_rulesets s) = length (rulesets b).
  Proof. intros H. apply build_rulesets, map_opt_Forall2, Forall2_len in H. auto. Qed.

  Lemma built_entries (b : builderT) s : Binv b -> buildB b = Built s ->
    Forall (fun e => snd e < length (s_rulesets s) /\ legal_layer (layer (fst e))) (s_css s).
  Proof.
    intros [_ Hc] H. rewrite (build_rulesets_length _ _ H).
    eapply Permutation_Forall; [symmetry; apply (build_css_perm _ _ H)|].
    eapply Forall_impl; [|exact Hc]. intros e (H1 & H2 & _). auto.
  Qed.

  Lemma define_layers_ok ls : forall h, h_ok h -> Forall legal_layer ls ->
    exists h', define_layers ls h = Some h' /\ h_ok h' /\ (forall m, In m h -> In m h').
  Proof.
    unfold define_layers. induction ls as [|n ls IH]; intros h Hh Hls; simpl; [eauto|].
    inversion Hls as [|? ? Hn Hls']; subst.
    destruct (define_layer_ok h n Hh Hn) as (h1 & -> & Hh1 & Hm & _).
    destruct (IH h1 Hh1 Hls') as (h2 & -> & Hh2 & Hm2). exists h2. auto.
  Qed.

  Lemma reachable_inv (b : builderT) : reachableB b -> Binv b.
  Proof.
    induction 1 as [|b ls b' Hr IH Hls E|b f Hr IH|b k Hr IH|b Hr IH|b id f Hr IH Hid|b id s b' Hr IH Hid Hl E|b b' Hr IH E
                   |b b0 other p b' Hr IH Hr0 IH0 Hb Hp E].
    - split; [apply h_ok_nil|constructor].
    - destruct IH as [Hh Hc]. destruct (define_layers_ok ls _ Hh Hls) as (h' & E' & Hh' & Hm).
      unfold b_define_layers in E. rewrite E' in E. injection E as <-. split; [exact Hh'|]. simpl.
      eapply Forall_impl; [|exact Hc]. intros e. apply entry_ok_mono; auto.
    - exact IH.
    - exact IH.
    - destruct IH as [Hh Hc]. split; [exact Hh|]. simpl. rewrite app_length.
      eapply Forall_impl; [|exact Hc]. intros e. apply entry_ok_mono; auto. lia.
    - destruct IH as [Hh Hc]. split; [exact Hh|]. simpl. rewrite update_nth_length. exact Hc.
    - destruct (add_css_selector_ok b id s IH Hid Hl) as (b1 & E1 & Hb1 & _). congruence.
    - destruct IH as [Hh Hc].
      assert (Hids : ids_ok b) by (eapply Forall_impl; [|exact Hc]; intros e He; apply He).
      destruct (remove_empty_correct b Hids) as (b1 & E1 & Hi1 & Hrs & Hrules & Hl & _).
      rewrite E in E1. injection E1 as <-. split; [rewrite Hl; exact Hh|]. rewrite Hl.
      apply Forall_forall. intros e He. unfold ids_ok in Hi1. rewrite Forall_forall in Hi1. split; [apply Hi1, He|].
      assert (Hin : In (fst e) (map fst (css_selectors_to_rulesets b))).
      { assert (Hm : forall {P} (rs : list (ruleset_of VN VT TP AP P)) (css : list (css_selector Sel Med * nat)), map fst (rules rs css) = map fst css).
        { intros. unfold rules. rewrite map_map. reflexivity. }
        rewrite <- (Hm _ (rulesets b)).
        assert (H1 : In (fst e) (map fst (rules (rulesets b') (css_selectors_to_rulesets b')))) by (rewrite Hm; apply in_map, He).
        rewrite Hrules in H1. apply in_map_iff in H1 as (x & <- & Hx). apply filter_In in Hx as [Hx _]. apply in_map, Hx. }
      apply in_map_iff in Hin as (e0 & <- & He0). rewrite Forall_forall in Hc. apply (Hc e0 He0).
    - pose proof (built_entries b0 other IH0 Hb) as Ho.
      destruct (embed_ok b other p IH Hp) as (b1 & E1 & Hb1 & _).
      + eapply Forall_impl; [|exact Ho]. intros e [_ He]. exact He.
      + congruence.
  Qed.

  (** A reachable builder never panics in build. *)
  Lemma build_no_panic (b : builderT) : reachableB b -> buildB b <> BuildError LayerPanic.
  Proof.
    intros Hr. apply reachable_inv in Hr as [Hh Hc]. unfold build.
    destruct (negb _); [discriminate|]. destruct (orphan b); [discriminate|].
    assert (Hd : exists dec, map_opt (fun e : css_selector Sel Med * nat => option_map (fun k => (k, e)) (sort_key specificity (layers_hierarchy b) (fst e)))
               (css_selectors_to_rulesets b) = Some dec).
    { apply map_opt_total. intros e He. rewrite Forall_forall in Hc. destruct (Hc e He) as (_ & _ & Hl).
      destruct (priority_defined _ _ Hl) as [q Eq]. unfold sort_key. rewrite Eq. simpl. eauto. }
    destruct Hd as [dec Ed]. unfold sort_css. rewrite Ed. simpl.
    destruct (map_opt _ (rulesets b)); [|discriminate]. destruct (validate_all_properties _ _); discriminate.
  Qed.

  Lemma embed_no_panic (b b0 : builderT) (other : sheetT) p : reachableB b -> reachableB b0 -> buildB b0 = Built other -> prefix_ok p ->
    exists b', embed_style_sheet b other p = Some b'.
  Proof.
    intros Hr Hr0 Hb Hp. destruct (embed_ok b other p (reachable_inv b Hr) Hp) as (b1 & E1 & _).
    - eapply Forall_impl; [|apply (built_entries b0 other (reachable_inv b0 Hr0) Hb)]. intros e [_ He]. exact He.
    - eauto.
  Qed.

  (** ** Order of embedded rules *)
  Lemma sorted_perm_unique {A} (R : A -> A -> Prop) :
    (forall x, ~ R x x) -> (forall x y, R x y -> ~ R y x) ->
    forall l l', Permutation l l' -> StronglySorted R l -> StronglySorted R l' -> l = l'.
  Proof.
    intros Hirr Has. induction l as [|x l IH]; intros l' Hp Hs Hs'.
    - apply Permutation_nil in Hp. auto.
    - destruct l' as [|y l']; [symmetry in Hp; apply Permutation_nil in Hp; discriminate|].
      inversion Hs as [|? ? Hs1 Hf]; subst. inversion Hs' as [|? ? Hs1' Hf']; subst.
      rewrite Forall_forall in Hf, Hf'.
      assert (x = y).
      { assert (H1 : In x (y :: l')) by (apply (Permutation_in x Hp); left; reflexivity).
        assert (H2 : In y (x :: l)) by (apply (Permutation_in y (Permutation_sym Hp)); left; reflexivity).
        destruct H1 as [|H1]; [auto|]. destruct H2 as [|H2]; [auto|].
        exfalso. apply (Has x y); auto. }
      subst y. f_equal. apply IH; auto. apply Permutation_cons_inv in Hp. exact Hp.
  Qed.

  Section FilterSort.
    Context {A : Type} (leb : A -> A -> bool).
    Hypothesis leb_total : forall x y, leb x y = true \/ leb y x = true.
    Hypothesis leb_trans : forall x y z, leb x y = true -> leb y z = true -> leb x z = true.
    Lemma filter_insert f x l : StronglySorted (fun a c => leb a c = true) l ->
      filter f (insert_sorted leb x l) = if f x then insert_sorted leb x (filter f l) else filter f l.
    Proof.
      induction 1 as [|y l Hs IH Hf]; simpl; [destruct (f x); reflexivity|].
      destruct (leb x y) eqn:E.
      - simpl. destruct (f x) eqn:Fx; [|reflexivity].
        assert (Hall : forall l', (forall z, In z l' -> leb x z = true) -> insert_sorted leb x l' = x :: l').
        { intros [|z l'] Hz; [reflexivity|]. simpl. rewrite (Hz z (or_introl eq_refl)). reflexivity. }
        destruct (f y) eqn:Fy; rewrite Hall; auto.
        + intros z [<-|Hz]; [exact E|]. apply filter_In in Hz as [Hz _]. rewrite Forall_forall in Hf. eauto.
        + intros z Hz. apply filter_In in Hz as [Hz _]. rewrite Forall_forall in Hf. eauto.
      - simpl. rewrite IH. destruct (f y) eqn:Fy; [|reflexivity].
        destruct (f x); [|reflexivity]. simpl. rewrite E. reflexivity.
    Qed.
    Lemma sort_sorted l : StronglySorted (fun a c => leb a c = true) (stable_sort leb l).
    Proof.
      induction l as [|x l IH]; simpl; [constructor|].
      assert (H := insert_stable leb leb_total leb_trans (fun _ _ => True) x (stable_sort leb l)).
      assert (K : forall l, StronglySorted (fun a c => leb a c = true) l <-> StronglySorted (stable_lt leb (fun _ _ => True)) l).
      { clear. intros l. split; induction 1 as [|a l Hs IH Hf]; constructor; auto; eapply Forall_impl; try exact Hf; unfold stable_lt; intuition. }
      apply K. apply H; [apply Forall_forall; auto|]. apply K, IH.
    Qed.
    Lemma filter_sort f l : filter f (stable_sort leb l) = stable_sort leb (filter f l).
    Proof.
      induction l as [|x l IH]; simpl; [reflexivity|]. rewrite filter_insert by apply sort_sorted. rewrite IH.
      destruct (f x); reflexivity.
    Qed.
  End FilterSort.

  Lemma grouped_sorted {A} (f : A -> nat) (R : A -> A -> Prop) l n :
    StronglySorted R l ->
    StronglySorted (fun a c => f a < f c \/ (f a = f c /\ R a c)) (grouped n f l).
  Proof.
    intros Hs. unfold grouped. generalize 0 as st. induction n as [|n IH]; intros st; simpl; [constructor|].
    assert (Happ : forall (Q : A -> A -> Prop) a c, StronglySorted Q a -> StronglySorted Q c ->
              (forall x y, In x a -> In y c -> Q x y) -> StronglySorted Q (a ++ c)).
    { clear. intros Q a c Ha Hc H. induction Ha as [|x a Ha IH Hf]; simpl; [exact Hc|].
      constructor; [apply IH; intros; apply H; [right|]; assumption|].
      apply Forall_app. split; [exact Hf|]. apply Forall_forall. intros y Hy. apply H; [left; reflexivity|exact Hy]. }
    apply Happ; [|apply IH|].
    - assert (H1 := StronglySorted_filter R (fun x => Nat.eqb (f x) st) l Hs).
      assert (H2 : Forall (fun x => f x = st) (filter (fun x => Nat.eqb (f x) st) l)).
      { apply Forall_forall. intros x Hx. apply filter_In in Hx as [_ Hx]. apply Nat.eqb_eq, Hx. }
      induction H1 as [|x m Hm IHm Hf]; constructor.
      + apply IHm. inversion H2; assumption.
      + inversion H2 as [|? ? Hx Hm2]; subst. rewrite Forall_forall in *. intros y Hy. right. split; [|auto].
        rewrite (Hm2 y Hy). reflexivity.
    - intros x y Hx Hy. apply filter_In in Hx as [_ Hx]. apply Nat.eqb_eq in Hx.
      apply in_concat in Hy as (m & Hm & Hy). apply in_map_iff in Hm as (k & <- & Hk).
      apply filter_In in Hy as [_ Hy]. apply Nat.eqb_eq in Hy. apply in_seq in Hk. left. lia.
  Qed.

  Lemma filter_map_comm {A B} (g : A -> B) f l : filter f (map g l) = map g (filter (fun x => f (g x)) l).
  Proof. induction l as [|x l IH]; simpl; [reflexivity|]. destruct (f (g x)); simpl; congruence. Qed.

  Lemma grouped_map {A B} (g : A -> B) (f : B -> nat) l n : grouped n f (map g l) = map g (grouped n (fun x => f (g x)) l).
  Proof.
    unfold grouped. rewrite concat_map, map_map. f_equal. apply map_ext. intros k. apply filter_map_comm.
  Qed.

  (** sorting with a total key function *)
  Definition leb_by {A} (key : A -> nat * N) (a c : A) : bool := key_leb (key a) (key c).

  Lemma sort_css_as_key h (css : list (css_selector Sel Med * nat)) out key :
    (forall e, In e css -> sort_key specificity h (fst e) = Some (key e)) ->
    sort_css specificity h css = Some out -> out = stable_sort (leb_by key) css.
  Proof.
    intros Hk. unfold sort_css. destruct (map_opt _ css) as [dec|] eqn:E; [|discriminate].
    simpl. intros H; injection H as <-. apply map_opt_Forall2 in E.
    assert (Hd : dec = map (fun e => (key e, e)) css).
    { clear -Hk E. induction E as [|e d css dec He E IH]; simpl; [reflexivity|].
      rewrite (Hk e (or_introl eq_refl)) in He. simpl in He. injection He as <-. f_equal.
      apply IH. intros; apply Hk; right; assumption. }
    rewrite Hd, (stable_sort_map (fun e => (key e, e)) (fun a c => key_leb (fst a) (fst c))), map_map. simpl.
    apply map_id.
  Qed.

  Lemma grouped_sort_id {A} (key : A -> nat * N) (f : A -> nat) l n :
    Forall (fun x => f x < n) l ->
    StronglySorted (fun a c => key_leb (key a) (key c) = true /\ (key a = key c -> f a <= f c)) l ->
    stable_sort (leb_by key) (grouped n f l) = l.
  Proof.
    intros Hn Hs.
    set (D := combine (seq 0 (length l)) l).
    assert (Hl : l = map snd D) by (unfold D; rewrite map_snd_combine; [reflexivity|apply seq_length]).
    assert (HD : StronglySorted (fun a c : nat * A => fst a < fst c) D) by apply combine_seq_sorted.
    rewrite Hl at 1. rewrite grouped_map.
    rewrite (stable_sort_map snd (leb_by key)). transitivity (map snd D); [|symmetry; exact Hl]. f_equal.
    set (R := fun a c : nat * A =>
      key_leb (key (snd a)) (key (snd c)) = true /\
      (key_leb (key (snd c)) (key (snd a)) = true -> f (snd a) < f (snd c) \/ (f (snd a) = f (snd c) /\ fst a < fst c))).
    apply (sorted_perm_unique R).
    - intros x [_ H]. specialize (H (match key_leb_total (key (snd x)) (key (snd x)) with or_introl h => h | or_intror h => h end)). lia.
    - intros x y [H1 H2] [H3 H4]. specialize (H2 H3). specialize (H4 H1). lia.
    - rewrite (sort_perm (fun a b : nat * A => leb_by key (snd a) (snd b)) _). apply grouped_perm. rewrite Hl in Hn. rewrite Forall_map in Hn. exact Hn.
    - apply (sort_stable (fun a b : nat * A => leb_by key (snd a) (snd b))).
      + intros x y. apply key_leb_total.
      + intros x y z. apply key_leb_trans.
      + apply (grouped_sorted (fun x => f (snd x)) (fun a c => fst a < fst c)). exact HD.
    - rewrite Hl in Hs. clear -Hs HD. induction D as [|d D IH]; simpl in *; [constructor|].
      inversion Hs as [|? ? Hs' Hf]; subst. inversion HD as [|? ? HD' Hlt]; subst. constructor; [auto|].
      rewrite Forall_map in Hf. rewrite Forall_forall in *. intros y Hy. destruct (Hf y Hy) as [H1 H2]. specialize (Hlt y Hy).
      split; [exact H1|]. intros H3.
      assert (E : key (snd d) = key (snd y)).
      { apply key_leb_iff in H1. apply key_leb_iff in H3. destruct (key (snd d)), (key (snd y)). simpl in *. f_equal; lia. }
      specialize (H2 E). lia.
  Qed.

  (** If the importing sheet orders the embedded (prefixed) layers compatibly, the embedded rules
      appear in the built sheet in exactly their previous order. *)
  Lemma embed_order (b b0 b' : builderT) (other s' : sheetT) p :
    reachableB b -> reachableB b0 -> buildB b0 = Built other -> prefix_ok p ->
    embed_style_sheet b other p = Some b' -> buildB b' = Built s' ->
    StronglySorted (fun e1 e2 : css_selector Sel Med * nat =>
      exists k1 k2, sort_key specificity (layers_hierarchy b') (with_layer_prefixed (fst e1) p) = Some k1 /\
                    sort_key specificity (layers_hierarchy b') (with_layer_prefixed (fst e2) p) = Some k2 /\
                    key_leb k1 k2 = true /\ (k1 = k2 -> snd e1 <= snd e2)) (s_css other) ->
    filter (fun e => Nat.leb (length (rulesets b)) (snd e)) (s_css s') =
    map (shift_entry (length (rulesets b)) p) (s_css other).
  Proof.
    intros Hr Hr0 Hb0 Hp E Hb' Hord.
    pose proof (built_entries b0 other (reachable_inv b0 Hr0) Hb0) as Ho.
    destruct (embed_ok b other p (reachable_inv b Hr) Hp) as (b1 & E1 & Hb1 & Hrs & Hcss & _).
    { eapply Forall_impl; [|exact Ho]. intros e [_ He]. exact He. }
    rewrite E in E1. injection E1 as <-.
    apply build_css in Hb'. set (n := length (rulesets b)) in *.
    set (h := layers_hierarchy b') in *.
    set (key := fun e : css_selector Sel Med * nat => match sort_key specificity h (fst e) with Some k => k | None => (0, 0%N) end).
    assert (Hkey : forall e, In e (css_selectors_to_rulesets b') -> sort_key specificity h (fst e) = Some (key e)).
    { intros e He. destruct Hb1 as [_ Hc]. rewrite Forall_forall in Hc. destruct (Hc e He) as (_ & _ & Hl).
      destruct (priority_defined _ _ Hl) as [q Eq]. unfold key, sort_key, h. rewrite Eq. reflexivity. }
    rewrite (sort_css_as_key h _ _ key Hkey Hb').
    rewrite (filter_sort (leb_by key)); [|intros; apply key_leb_total|intros x y z; apply key_leb_trans].
    rewrite Hcss, filter_app.
    assert (F1 : filter (fun e => Nat.leb n (snd e)) (css_selectors_to_rulesets b) = []).
    { destruct (reachable_inv b Hr) as [_ Hc]. clear -Hc. induction Hc as [|e css He Hc IH]; simpl; [reflexivity|].
      destruct He as [He _]. destruct (Nat.leb_spec n (snd e)); [unfold n in *; lia|exact IH]. }
    assert (F2 : forall l, filter (fun e => Nat.leb n (snd e)) (map (shift_entry n p) l) = map (shift_entry n p) l).
    { clear. induction l as [|e l IH]; simpl; [reflexivity|]. destruct (Nat.leb_spec n (n + snd e)); [f_equal; exact IH|lia]. }
    rewrite F1, F2. simpl.
    rewrite (stable_sort_map (shift_entry n p) (leb_by key)). f_equal.
    apply (grouped_sort_id (fun e => key (shift_entry n p e)) snd).
    - eapply Forall_impl; [|exact Ho]. intros e [He _]. exact He.
    - clear -Hord. induction Hord as [|e l Hs IH Hf]; constructor; [exact IH|].
      eapply Forall_impl; [|exact Hf]. intros e2 (k1 & k2 & H1 & H2 & H3 & H4).
      unfold key, shift_entry. simpl. fold h in H1, H2. rewrite H1, H2. auto.
  Qed.

  (** Special case: the imported sheet has no layers and its selectors were added ruleset by ruleset. *)
  Lemma embed_order_unlayered (b b0 b' : builderT) (other s' : sheetT) p :
    reachableB b -> reachableB b0 -> buildB b0 = Built other -> prefix_ok p ->
    embed_style_sheet b other p = Some b' -> buildB b' = Built s' ->
    Forall (fun e => layer (fst e) = []) (css_selectors_to_rulesets b0) ->
    StronglySorted le (map snd (css_selectors_to_rulesets b0)) ->
    filter (fun e => Nat.leb (length (rulesets b)) (snd e)) (s_css s') =
    map (shift_entry (length (rulesets b)) p) (s_css other).
  Proof.
    intros Hr Hr0 Hb0 Hp E Hb' Hun Hids. eapply embed_order; eauto.
    pose proof Hb0 as Hc. apply build_css, sort_css_indices in Hc as (ixs & Hout & Hin & Hs & _).
    rewrite Hout.
    assert (Hs' : StronglySorted (fun a c : nat * (css_selector Sel Med * nat) =>
              cascade_before specificity (layers_hierarchy b0) (css_selectors_to_rulesets b0) (fst a) (fst c)) ixs).
    { clear -Hs. induction ixs as [|x ixs IH]; simpl in *; [constructor|].
      inversion Hs; subst. constructor; [auto|]. rewrite Forall_map in H2. exact H2. }
    assert (Hprio : exists q, forall e, In e (css_selectors_to_rulesets b0) ->
              get_layer_priority (layers_hierarchy b') (layer (with_layer_prefixed (fst e) p)) = Some q).
    { pose proof (built_entries b0 other (reachable_inv b0 Hr0) Hb0) as Ho.
      destruct (embed_ok b other p (reachable_inv b Hr) Hp) as (b1 & E1 & [_ Hb1] & Hrs & Hcss & _).
      { eapply Forall_impl; [|exact Ho]. intros e [_ He]. exact He. }
      rewrite E in E1. injection E1 as <-.
      destruct (css_selectors_to_rulesets b0) as [|e0 css0] eqn:Ecss; [exists 0; intros e []|].
      assert (Hlay : forall e, In e (e0 :: css0) -> layer (with_layer_prefixed (fst e) p) = match p with Some n => n | None => [] end).
      { intros e He. rewrite Forall_forall in Hun. specialize (Hun e He). destruct p as [n|]; simpl; rewrite Hun; reflexivity. }
      assert (Hd : match p with Some n => n | None => [] end = [] \/ In (match p with Some n => n | None => [] end) (layers_hierarchy b')).
      { rewrite Forall_forall in Hb1. rewrite <- (Hlay e0 (or_introl eq_refl)).
        assert (H0 : In e0 (s_css other)).
        { apply (Permutation_in e0 (Permutation_sym (build_css_perm _ _ Hb0))). rewrite Ecss. left; reflexivity. }
        apply (Hb1 (shift_entry (length (rulesets b)) p e0)). rewrite Hcss. apply in_app_iff. right. apply in_map.
        apply (Permutation_in e0 (Permutation_sym (grouped_perm snd (s_css other) (length (s_rulesets other))
          (Forall_impl _ (fun e H => proj1 H) Ho)))). exact H0. }
      destruct (priority_defined _ _ Hd) as [q Hq]. exists q. intros e He. rewrite (Hlay e He). exact Hq. }
    destruct Hprio as [q Hq].
    apply (StronglySorted_map snd _ _ _) with (2 := Hs').
    intros [i e] [j f] Hi Hj (si & idi & sj & idj & pi & pj & H1 & H2 & H3 & H4 & H5). simpl in *.
    apply Hin in Hi, Hj. rewrite Hi in H1. rewrite Hj in H2. injection H1 as ->. injection H2 as ->.
    pose proof (nth_error_In _ _ Hi) as Ii. pose proof (nth_error_In _ _ Hj) as Ij.
    pose proof (Hq _ Ii) as Qi. pose proof (Hq _ Ij) as Qj. simpl in *.
    unfold sort_key. rewrite Qi, Qj. simpl.
    assert (Esel : forall s : css_selector Sel Med, selector (with_layer_prefixed s p) = selector s) by (intros; destruct p; reflexivity).
    rewrite !Esel.
    assert (pi = pj).
    { rewrite Forall_forall in Hun. pose proof (Hun _ Ii) as U1. pose proof (Hun _ Ij) as U2. simpl in U1, U2.
      rewrite U1 in H3. rewrite U2 in H4. congruence. }
    subst pj. destruct H5 as [H5|[_ H5]]; [lia|].
    eexists _, _. split; [reflexivity|]. split; [reflexivity|].
    rewrite key_leb_iff. simpl. split; [right; split; [reflexivity|]; destruct H5 as [H5|[H5 _]]; lia|].
    intros K. injection K as K. destruct H5 as [H5|[_ H5]]; [lia|].
    (* i < j and ids sorted *)
    assert (Hm : forall (l : list nat) a c x y, StronglySorted le l -> nth_error l a = Some x -> nth_error l c = Some y -> a < c -> x <= y).
    { clear. intros l a c x y Hl. revert a c. induction Hl as [|z l Hl IH Hf]; intros a c Ha Hc' Hac; [destruct a; discriminate|].
      destruct c as [|c]; [lia|]. destruct a as [|a]; simpl in *.
      - injection Ha as ->. rewrite Forall_forall in Hf. apply Hf. eapply nth_error_In; eauto.
      - apply (IH a c); auto. lia. }
    apply (Hm _ i j _ _ Hids); [| |exact H5].
    - rewrite nth_error_map, Hi. reflexivity.
    - rewrite nth_error_map, Hj. reflexivity.
  Qed.

  (** evaluation of a sheet never panics *)
  Lemma values_no_panic (b : builderT) (s : sheetT) ms mm eval veqb inline base :
    reachableB b -> buildB b = Built s ->
    exists out, get_property_values eval veqb s (get_matching_ruleset_ids ms mm s) inline base = Some out.
  Proof.
    intros Hr Hb. pose proof (built_entries b s (reachable_inv b Hr) Hb) as Ho.
    unfold get_property_values, resolve_rulesets.
    destruct (map_opt_total (fun id => nth_error (s_rulesets s) id) (get_matching_ruleset_ids ms mm s)) as [rs E].
    - intros id Hid. unfold get_matching_ruleset_ids in Hid. apply in_map_iff in Hid as (e & <- & He).
      apply filter_In in He as [He _]. rewrite Forall_forall in Ho. destruct (Ho e He) as [H _].
      destruct (nth_error (s_rulesets s) (snd e)) eqn:En; [eauto|]. apply nth_error_None in En. lia.
    - rewrite E. simpl. eauto.
  Qed.
End Inv.
(** the specification's names for what the model computes *)
Lemma imported_into_prefixed {Sel Med} p (s : css_selector Sel Med) : with_layer_prefixed s p = imported_into p s.
Proof. destruct s as [l m x], p as [p|]; simpl; [destruct l; reflexivity | reflexivity]. Qed.

Lemma may_precede_keys {Sel Med} (specificity : Sel -> N) h p (css : list (css_selector Sel Med * nat)) :
  StronglySorted (may_precede specificity h) (map (fun e => (imported_into p (fst e), snd e)) css) ->
  StronglySorted (fun e1 e2 : css_selector Sel Med * nat =>
      exists k1 k2, sort_key specificity h (with_layer_prefixed (fst e1) p) = Some k1 /\
                    sort_key specificity h (with_layer_prefixed (fst e2) p) = Some k2 /\
                    key_leb k1 k2 = true /\ (k1 = k2 -> snd e1 <= snd e2)) css.
Proof.
  induction css as [|e css IH]; simpl; intros H; [constructor|]. inversion H as [|? ? HS HF]; subst. constructor; [auto|].
  rewrite Forall_forall in HF. rewrite Forall_forall. intros e2 He2.
  destruct (HF _ (in_map _ _ _ He2)) as (p1 & p2 & E1 & E2 & Hc).
  change (fst (imported_into p (fst e), snd e)) with (imported_into p (fst e)) in *.
  change (fst (imported_into p (fst e2), snd e2)) with (imported_into p (fst e2)) in *. simpl in Hc.
  rewrite !imported_into_prefixed. unfold sort_key. rewrite E1, E2. cbn [option_map].
  exists (p1, specificity (selector (imported_into p (fst e)))), (p2, specificity (selector (imported_into p (fst e2)))).
  split; [reflexivity|]. split; [reflexivity|]. unfold key_leb. simpl.
  destruct (Nat.ltb_spec p1 p2), (Nat.eqb_spec p1 p2), (N.leb_spec (specificity (selector (fst e))) (specificity (selector (fst e2))));
    simpl; split; try reflexivity; try (intros Hk; inversion Hk); lia.
Qed.
