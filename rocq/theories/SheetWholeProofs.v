(** Proofs for C112: the strongest declaration of a text is that of the strongest rule of the builder. *)
From Coq Require Import Ascii String NArith.
From Verif Require Import Base VarText LayersSpec LayersProofs Media MediaSpec MediaProofs Matching MatchingSpec SpecificitySpec SpecificityProofs Nesting NestingSpec SheetText SelText SheetSel SheetCascade SheetCascadeSpec SheetCascadeProofs SheetCascadeProofs3.
From Verif Require Import Cascade CascadeSpec CascadeProofs WholeSpec WholeProofs SheetWholeSpec.
Open Scope list_scope.

(** ** Lists *)
Lemma last_flat {X A I} (G : X -> A -> Prop) (L : I -> list X) ds v : last_that G (flat_map L ds) v <-> exists d1 d d2, ds = d1 ++ d :: d2 /\ last_that G (L d) v /\ forall d', In d' d2 -> none_that G (L d').
Proof.
  induction ds as [|d ds IH] using rev_ind.
  - split; [intros (a & d & c & E & _); destruct a; discriminate|intros (a & d & c & E & _); destruct a; discriminate].
  - rewrite flat_map_app, last_app. cbn [flat_map]. rewrite app_nil_r, IH. split.
    + intros [H|[N (d1 & e & d2 & -> & H & Hn)]].
      * exists ds, d, []. split; [reflexivity|]. split; [exact H|intros d' []].
      * exists d1, e, (d2 ++ [d]). rewrite <- app_assoc. split; [reflexivity|]. split; [exact H|]. intros d' Hd. apply in_app_or in Hd as [Hd|[<-|[]]]; auto.
    + intros (d1 & e & d2 & E & H & Hn). destruct d2 as [|d2' d2] using rev_ind.
      * apply app_inj_tail in E as [-> ->]. left. exact H.
      * clear IHd2. rewrite app_comm_cons, app_assoc in E. apply app_inj_tail in E as [-> ->]. right. split; [apply Hn; apply in_or_app; right; left; reflexivity|]. exists d1, e, d2. split; [reflexivity|]. split; [exact H|]. intros d' Hd. apply Hn. apply in_or_app. left. exact Hd.
Qed.
Lemma last_index (P : nat -> Prop) : (forall i, P i \/ ~ P i) -> forall N i, P i -> i < N -> exists m, P m /\ i <= m /\ m < N /\ forall j, j < N -> P j -> j <= m.
Proof.
  intros Dec N. induction N as [|N IH]; intros i Hi L; [lia|]. destruct (Dec N) as [H|H].
  - exists N. split; [exact H|]. split; [lia|]. split; [lia|]. intros j Hj _. lia.
  - assert (i <> N) by congruence. destruct (IH i Hi ltac:(lia)) as (m & M1 & M2 & M3 & M4). exists m. split; [exact M1|]. split; [exact M2|]. split; [lia|]. intros j Hj Pj. assert (j <> N) by congruence. apply M4; [lia|exact Pj].
Qed.
Lemma abc_dec (x y : abc) : x = y \/ x <> y.
Proof. destruct x as [[a b] c], y as [[a' b'] c']. destruct (Nat.eq_dec a a'), (Nat.eq_dec b b'), (Nat.eq_dec c c'); subst; auto; right; congruence. Qed.

Section J.
  Context {DT X A RS : Type}.
  Notation M := (media_selector fval).
  Notation sel := (css_selector complex (list M)).
  Variables (contents : list DT -> RS) (item : DT -> list X) (items : RS -> list X) (G : X -> A -> Prop).
  Hypothesis Hitems : forall ds, items (contents ds) = flat_map item ds.
  Variables (hit : sel -> Prop) (lb : list ascii -> list ascii -> Prop).
  Definition rk (s' : sel) (j : nat) (s : sel) (i : nat) : Prop :=
    lb (layer s') (layer s) \/ layer s' = layer s /\ exists c' c, counted_complex (selector s') c' /\ counted_complex (selector s) c /\ (below c' c \/ c' = c /\ j < i).
  Definition casc (rl : list (sel * RS)) (v : A) : Prop :=
    exists i s r, nth_error rl i = Some (s, r) /\ hit s /\ last_that G (items r) v /\
    forall j s' r', nth_error rl j = Some (s', r') -> hit s' -> none_that G (items r') \/ j = i \/ rk s' j s i.
  Definition nocasc (rl : list (sel * RS)) : Prop := forall s r, In (s, r) rl -> hit s -> none_that G (items r).

  (** *** leaving out rules that give nothing *)
  Lemma casc_filter (f : sel * RS -> bool) rl v : (forall s r, f (s, r) = false -> none_that G (items r)) -> (casc (filter f rl) v <-> casc rl v).
  Proof.
    intros Hf. destruct (filter_index f rl) as (g & G1 & G2 & G3).
    assert (Inj : forall i j, g i = g j -> i = j). { intros i j E. destruct (Nat.lt_trichotomy i j) as [L|[L|L]]; [specialize (G2 _ _ L); lia|exact L|specialize (G2 _ _ L); lia]. }
    assert (Lt : forall i j, g i < g j -> i < j). { intros i j L. destruct (Nat.lt_trichotomy i j) as [L'|[->|L']]; [exact L'|lia|specialize (G2 _ _ L'); lia]. }
    split.
    - intros (i & s & r & Hi & Hh & Hl & Hw). exists (g i), s, r. split; [apply G1; exact Hi|]. split; [exact Hh|]. split; [exact Hl|]. intros j s' r' Hj Hh'. destruct (f (s', r')) eqn:Ef; [|left; exact (Hf _ _ Ef)].
      destruct (G3 j _ Hj Ef) as (k & <- & Hk). destruct (Hw k s' r' Hk Hh') as [N|[-> |R]]; [left; exact N|right; left; reflexivity|right; right]. destruct R as [R|(E & c' & c & H1 & H2 & H3)]; [left; exact R|right]. split; [exact E|]. exists c', c. split; [exact H1|]. split; [exact H2|]. destruct H3 as [H3|[H3 H4]]; [left; exact H3|right; split; [exact H3|apply G2; exact H4]].
    - intros (i & s & r & Hi & Hh & Hl & Hw). destruct (f (s, r)) eqn:Ef; [|destruct (last_none _ _ _ Hl (Hf _ _ Ef))]. destruct (G3 i _ Hi Ef) as (k & <- & Hk). exists k, s, r. split; [exact Hk|]. split; [exact Hh|]. split; [exact Hl|]. intros j s' r' Hj Hh'.
      destruct (Hw (g j) s' r' (G1 _ _ Hj) Hh') as [N|[E|R]]; [left; exact N|right; left; apply Inj; exact E|right; right]. destruct R as [R|(E & c' & c & H1 & H2 & H3)]; [left; exact R|right]. split; [exact E|]. exists c', c. split; [exact H1|]. split; [exact H2|]. destruct H3 as [H3|[H3 H4]]; [left; exact H3|right; split; [exact H3|apply Lt; exact H4]].
  Qed.
  Lemma nocasc_filter (f : sel * RS -> bool) rl : (forall s r, f (s, r) = false -> none_that G (items r)) -> (nocasc (filter f rl) <-> nocasc rl).
  Proof.
    intros Hf. unfold nocasc. split; intros H s r Hin Hh.
    - destruct (f (s, r)) eqn:Ef; [apply (H s r); [apply filter_In; auto|exact Hh]|exact (Hf _ _ Ef)].
    - apply filter_In in Hin as [Hin _]. exact (H s r Hin Hh).
  Qed.

  (** *** rulesets and declarations *)
  Variables (R : list (list (csel pcomplex M) * list DT)) (es : list (@entry complex M DT)) (said : list (list (list ascii))).
  Definition rule_list := flat_map (fun r => map (fun c => (to_css c, contents (snd r))) (fst r)) R.
  Hypothesis F : Forall2 (NestingSpec.says (fun p v => resolve [] p = v)) (flat_map (fun r => map (fun d => (fst r, d)) (snd r)) R) es.
  Variable ap : @entry complex M DT -> complex -> Prop.
  Hypothesis ap_dec : forall e a, In e es -> In a (n_alts e) -> ap e a \/ ~ ap e a.
  Hypothesis ap_in : forall e a, ap e a -> In a (n_alts e).
  Hypothesis Hit : forall e c a, In e es -> In a (n_alts e) -> c_layer c = dotted (n_layer e) -> c_media c = n_media e -> resolve [] (c_sel c) = a -> (hit (to_css c) <-> ap e a).
  Hypothesis Hlb : forall e e', In e es -> In e' es -> (lb (dotted (n_layer e')) (dotted (n_layer e)) <-> lower said (n_layer e') (n_layer e)) /\ (dotted (n_layer e') = dotted (n_layer e) -> n_layer e' = n_layer e).
  Definition text_casc (v : A) : Prop :=
    exists k e a x, nth_error es k = Some e /\ ap e a /\ counted_complex a x /\ last_that G (item (n_decl e)) v /\
    forall j e' a' y, nth_error es j = Some e' -> ap e' a' -> counted_complex a' y -> none_that G (item (n_decl e')) \/ no_stronger said (n_layer e') y j (n_layer e) x k.
  Definition text_nocasc : Prop := forall e a, In e es -> ap e a -> none_that G (item (n_decl e)).

  Notation FD := (fun r : list (csel pcomplex M) * list DT => map (fun d => (fst r, d)) (snd r)).
  Notation FR := (fun r : list (csel pcomplex M) * list DT => map (fun c => (to_css c, contents (snd r))) (fst r)).
  Definition pos id dm := off FD R id + dm.
  Definition at_ id cm := off FR R id + cm.
  Lemma pos_lt id dm id' dm' r d : nth_error R id = Some r -> nth_error (snd r) dm = Some d -> id < id' -> pos id dm < pos id' dm'.
  Proof. intros H1 H2 L. unfold pos. pose proof (off_lt FD R id id' r L H1) as B. cbv beta in B. rewrite map_length in B. apply nth_len in H2. lia. Qed.
  Lemma at_lt id cm id' cm' r c : nth_error R id = Some r -> nth_error (fst r) cm = Some c -> id < id' -> at_ id cm < at_ id' cm'.
  Proof. intros H1 H2 L. unfold at_. pose proof (off_lt FR R id id' r L H1) as B. cbv beta in B. rewrite map_length in B. apply nth_len in H2. lia. Qed.
  (** a declaration of a ruleset, as an entry *)
  Lemma entry_at id r dm d : nth_error R id = Some r -> nth_error (snd r) dm = Some d -> exists e, nth_error es (pos id dm) = Some e /\ d = n_decl e /\
    Forall2 (fun s v => c_layer s = dotted (n_layer e) /\ c_media s = n_media e /\ resolve [] (c_sel s) = v) (fst r) (n_alts e).
  Proof.
    intros H1 H2. assert (D : nth_error (flat_map FD R) (pos id dm) = Some (fst r, d)) by (apply off_get with (r := r); [exact H1|cbv beta; rewrite nth_error_map, H2; reflexivity]).
    destruct (proj1 (Forall2_at _ _ _ F _) _ D) as (e & He & Hd & Hs). exists e. auto.
  Qed.
  Lemma entry_inv j e : nth_error es j = Some e -> exists id r dm, nth_error R id = Some r /\ nth_error (snd r) dm = Some (n_decl e) /\ j = pos id dm /\
    Forall2 (fun s v => c_layer s = dotted (n_layer e) /\ c_media s = n_media e /\ resolve [] (c_sel s) = v) (fst r) (n_alts e).
  Proof.
    intros Hj. destruct (proj2 (Forall2_at _ _ _ F j) e Hj) as (x & Hx & Hd & Hs). apply off_at in Hx as (id & r & dm & H1 & H2 & H3). cbv beta in H2. rewrite nth_error_map in H2. destruct (nth_error (snd r) dm) as [d|] eqn:Ed; [|discriminate]. cbn in H2. injection H2 as <-. cbn in Hd, Hs. subst d.
    exists id, r, dm. auto.
  Qed.
  Lemma rule_at id r cm c : nth_error R id = Some r -> nth_error (fst r) cm = Some c -> nth_error rule_list (at_ id cm) = Some (to_css c, contents (snd r)).
  Proof. intros H1 H2. apply off_get with (r := r); [exact H1|]. cbv beta. rewrite nth_error_map, H2. reflexivity. Qed.
  Lemma rule_inv i s x : nth_error rule_list i = Some (s, x) -> exists id r cm c, nth_error R id = Some r /\ nth_error (fst r) cm = Some c /\ i = at_ id cm /\ s = to_css c /\ x = contents (snd r).
  Proof.
    intros H. apply off_at in H as (id & r & cm & H1 & H2 & H3). cbv beta in H2. rewrite nth_error_map in H2. destruct (nth_error (fst r) cm) as [c|] eqn:Ec; [|discriminate]. cbn in H2. injection H2 as <- <-. exists id, r, cm, c. auto.
  Qed.
  Lemma lower_irr p : ~ lower said p p. Proof. intros H. exact (lower_asym _ _ _ H H). Qed.

  Lemma casc_iff v : casc rule_list v <-> text_casc v.
  Proof.
    split.
    - intros (i & s & rs & Hi & Hh & Hl & Hw). apply rule_inv in Hi as (id & r & cm & c & H1 & H2 & H3 & -> & ->). rewrite Hitems in Hl. apply last_flat in Hl as (d1 & d & d2 & Ed & Hld & Hd2).
      assert (Hdm : nth_error (snd r) (List.length d1) = Some d) by (rewrite Ed, nth_error_app2, Nat.sub_diag by lia; reflexivity).
      destruct (entry_at id r _ d H1 Hdm) as (e & He & Hde & Hs). destruct (proj1 (Forall2_at _ _ _ Hs cm) c H2) as (a & Ha & Hc1 & Hc2 & Hc3).
      assert (Hee : In e es) by (eapply nth_error_In; exact He). assert (Ap : ap e a) by (apply (Hit e c a); auto; eapply nth_error_In; eauto).
      destruct (counted_total a) as (x & Hx & Ux). exists (pos id (List.length d1)), e, a, x. split; [exact He|]. split; [exact Ap|]. split; [exact Hx|]. split; [rewrite <- Hde; exact Hld|].
      intros j e' a' y Hj Ap' Hy. destruct (entry_inv j e' Hj) as (id' & r' & dm' & G1 & G2 & G3 & Gs). destruct (In_nth_error _ _ (ap_in _ _ Ap')) as (cm' & Hcm). destruct (proj2 (Forall2_at _ _ _ Gs cm') a' Hcm) as (c' & G4 & G5 & G6 & G7).
      assert (He' : In e' es) by (eapply nth_error_In; exact Hj). assert (Hh' : hit (to_css c')) by (apply (Hit e' c' a'); auto).
      (* a later declaration in the same ruleset gives nothing *)
      assert (Hle : id' = id -> none_that G (item (n_decl e')) \/ j <= pos id (List.length d1)).
      { intros ->. rewrite H1 in G1. injection G1 as <-. rewrite G3. unfold pos. destruct (Nat.le_gt_cases dm' (List.length d1)) as [L|L]; [right; lia|left]. rewrite Ed, nth_error_app2 in G2 by lia. destruct (dm' - List.length d1) as [|z] eqn:Ez; [lia|]. cbn in G2. apply nth_error_In in G2. exact (Hd2 _ G2). }
      assert (Idle : at_ id' cm' <= i -> id' <= id).
      { intros L. destruct (Nat.le_gt_cases id' id) as [Q|Q]; [exact Q|]. exfalso. pose proof (at_lt id cm id' cm' r c H1 H2 Q). lia. }
      assert (All : at_ id' cm' <= i -> none_that G (item (n_decl e')) \/ j <= pos id (List.length d1)).
      { intros L. specialize (Idle L). destruct (Nat.eq_dec id' id) as [Q|Q]; [apply Hle; exact Q|]. right. rewrite G3. pose proof (pos_lt id' dm' id (List.length d1) r' _ G1 G2 ltac:(lia)). lia. }
      destruct (Hw _ _ _ (rule_at id' r' cm' c' G1 G4) Hh') as [N|[E|Q]].
      + left. rewrite Hitems in N. rewrite none_flat in N. apply N. eapply nth_error_In; exact G2.
      + assert (Ei : id' = id). { pose proof (Idle ltac:(lia)) as Q1. destruct (Nat.eq_dec id' id) as [Q2|Q2]; [exact Q2|]. exfalso. pose proof (at_lt id' cm' id cm r' c' G1 G4 ltac:(lia)). lia. }
        destruct (All ltac:(lia)) as [N|L]; [left; exact N|right]. right. subst id'. rewrite H1 in G1. injection G1 as <-. assert (cm' = cm) by (unfold at_ in *; lia). subst cm'. rewrite H2 in G4. injection G4 as <-. split; [apply Hlb; auto; congruence|]. right. split; [|exact L]. apply Ux. congruence.
      + destruct Q as [Q|(El & y' & x' & C1 & C2 & Q)]; cbn [layer selector to_css] in *.
        * right. left. apply Hlb; auto. rewrite <- G5, <- Hc1. exact Q.
        * assert (Ell : n_layer e' = n_layer e) by (apply Hlb; auto; congruence). assert (x' = x) as -> by (apply Ux; congruence). assert (y' = y) as -> by (destruct (counted_total a') as (z & _ & Uz); rewrite (Uz y Hy); apply Uz; congruence).
          destruct Q as [Q|[-> Q]]; [right; right; split; [exact Ell|left; exact Q]|]. destruct (All ltac:(lia)) as [N|L]; [left; exact N|right]. right. split; [exact Ell|right; split; [reflexivity|exact L]].
    - intros (k & e & a & x & He & Ap & Hx & Hl & Hw). destruct (entry_inv k e He) as (id & r & dm & H1 & H2 & H3 & Hs). assert (Hee : In e es) by (eapply nth_error_In; exact He).
      (* the last selector of the ruleset as strong as [a] *)
      destruct (In_nth_error _ _ (ap_in _ _ Ap)) as (cm0 & Hcm0).
      destruct (last_index (fun cm => exists a', nth_error (n_alts e) cm = Some a' /\ ap e a' /\ counted_complex a' x)) with (N := List.length (n_alts e)) (i := cm0) as (cm & (b & Hb & Apb & Cb) & _ & _ & Mx).
      { intros i. destruct (nth_error (n_alts e) i) as [a'|] eqn:Ea; [|right; intros (z & Z & _); discriminate]. destruct (proj2 (Forall2_at _ _ _ Hs i) a' Ea) as (c' & C1 & C2 & C3 & C4). 
        destruct (ap_dec e a' Hee (nth_error_In _ _ Ea)) as [Q|Q]; [|right; intros (z & Z & Q1 & _); injection Z as <-; exact (Q Q1)]. destruct (counted_total a') as (y & Hy & Uy). destruct (abc_dec y x) as [-> |Ne]; [left; exists a'; split; [reflexivity|]; split; [exact Q|exact Hy]|right; intros (z & Z & _ & Z2); injection Z as <-; apply Ne; symmetry; apply Uy; exact Z2]. }
      { exists a. auto. }
      { eapply nth_len; exact Hcm0. }
      destruct (proj2 (Forall2_at _ _ _ Hs cm) b Hb) as (c & C1 & C2 & C3 & C4). assert (Hh : hit (to_css c)) by (apply (Hit e c b); auto; eapply nth_error_In; exact Hb).
      exists (at_ id cm), (to_css c), (contents (snd r)). split; [apply rule_at; assumption|]. split; [exact Hh|]. split.
      + rewrite Hitems. apply last_flat. destruct (nth_error_split _ _ H2) as (d1 & d2 & Ed & Ld). exists d1, (n_decl e), d2. split; [exact Ed|]. split; [exact Hl|]. intros d' Hd'. destruct (In_nth_error _ _ Hd') as (z & Hz).
        assert (Hdm : nth_error (snd r) (dm + S z) = Some d') by (rewrite Ed, nth_error_app2 by lia; replace (dm + S z - List.length d1) with (S z) by lia; exact Hz).
        destruct (entry_at id r _ d' H1 Hdm) as (e' & He' & Hde & Hs'). destruct (proj1 (Forall2_at _ _ _ Hs' cm) c C1) as (b' & B1 & B2 & B3 & B4).
        assert (Ap' : ap e' b') by (apply (Hit e' c b'); auto; eapply nth_error_In; eauto). rewrite Hde. destruct (Hw _ e' b' x He' Ap') as [N|[Q|(_ & [Q|[_ Q]])]]; [congruence|exact N| | |].
        * exfalso. assert (El : n_layer e' = n_layer e) by (apply Hlb; [exact Hee|eapply nth_error_In; exact He'|congruence]). rewrite El in Q. exact (lower_irr _ Q).
        * destruct (below_irr _ Q).
        * exfalso. unfold pos in *. lia.
      + intros i s' rs' Hi Hh'. apply rule_inv in Hi as (id' & r' & cm' & c' & G1 & G2 & G3 & -> & ->). rewrite Hitems.
        assert (K : (forall d', In d' (snd r') -> none_that G (item d')) \/ exists dm' e' a' y, nth_error es (pos id' dm') = Some e' /\ nth_error (snd r') dm' = Some (n_decl e') /\ nth_error (n_alts e') cm' = Some a' /\ ap e' a' /\ counted_complex a' y /\ c_layer c' = dotted (n_layer e') /\ resolve [] (c_sel c') = a' /\ no_stronger said (n_layer e') y (pos id' dm') (n_layer e) x k).
        { assert (L : forall ds z, (forall q d', nth_error ds q = Some d' -> nth_error (snd r') (z + q) = Some d') -> (forall d', In d' ds -> none_that G (item d')) \/ exists dm' e' a' y, nth_error es (pos id' dm') = Some e' /\ nth_error (snd r') dm' = Some (n_decl e') /\ nth_error (n_alts e') cm' = Some a' /\ ap e' a' /\ counted_complex a' y /\ c_layer c' = dotted (n_layer e') /\ resolve [] (c_sel c') = a' /\ no_stronger said (n_layer e') y (pos id' dm') (n_layer e) x k).
          { induction ds as [|d' ds IH]; intros z Hz; [left; intros d' []|]. destruct (IH (S z)) as [N|Y]; [intros q d'' Hq; rewrite Nat.add_succ_l, <- Nat.add_succ_r; apply (Hz (S q)); exact Hq| |right; exact Y].
            pose proof (Hz 0 d' eq_refl) as Hd. rewrite Nat.add_0_r in Hd. destruct (entry_at id' r' z d' G1 Hd) as (e' & He' & -> & Hs'). destruct (proj1 (Forall2_at _ _ _ Hs' cm') c' G2) as (a' & A1 & A2 & A3 & A4).
            assert (Ap' : ap e' a') by (apply (Hit e' c' a'); auto; eapply nth_error_In; eauto). destruct (counted_total a') as (y & Hy & _). destruct (Hw _ e' a' y He' Ap' Hy) as [N'|Q]; [left; intros d'' [<- |Hd'']; [exact N'|apply N; exact Hd'']|right; exists z, e', a', y; auto 10]. }
          exact (L (snd r') 0 (fun q d' H => H)). }
        destruct K as [N|(dm' & e' & a' & y & K1 & K2 & K3 & K4 & K5 & K6 & K7 & K8)]; [left; apply none_flat; exact N|right]. assert (He' : In e' es) by (eapply nth_error_In; exact K1).
        destruct K8 as [Q|(El & Q)]; [right; left; cbn; rewrite K6, C2; apply Hlb; auto|]. assert (Ly : c_layer c' = c_layer c) by (rewrite K6, C2, El; reflexivity).
        assert (C1' : counted_complex (selector (to_css c')) y) by (cbn; rewrite K7; exact K5). assert (C2' : counted_complex (selector (to_css c)) x) by (cbn; rewrite C4; exact Cb).
        destruct Q as [Q|[-> Q]]; [right; right; split; [exact Ly|]; exists y, x; auto|].
        assert (Li : id' <= id). { destruct (Nat.le_gt_cases id' id) as [Z|Z]; [exact Z|]. exfalso. pose proof (pos_lt id dm id' dm' r _ H1 H2 Z). lia. }
        destruct (Nat.eq_dec id' id) as [-> |Ne]; [|right; right; split; [exact Ly|]; exists x, x; split; [exact C1'|]; split; [exact C2'|]; right; split; [reflexivity|]; rewrite G3; apply (at_lt id' cm' id cm r' c'); auto; lia].
        rewrite H1 in G1. injection G1 as <-.
        assert (Lc : cm' <= cm).
        { destruct (Forall2_at _ _ _ Hs cm') as [Fa _]. destruct (Fa c' G2) as (a'' & A1 & A2 & A3 & A4). assert (Ea : a'' = a') by congruence. rewrite Ea in A1. apply Mx; [eapply nth_len; exact A1|]. exists a'. split; [exact A1|]. split; [|exact K5]. apply (Hit e c' a'); auto. eapply nth_error_In; exact A1. }
        destruct (Nat.eq_dec cm' cm) as [-> |Nc]; [left; exact G3|right]. right. split; [exact Ly|]. exists x, x. split; [exact C1'|]. split; [exact C2'|]. right. split; [reflexivity|]. rewrite G3. unfold at_. lia.
  Qed.
  Lemma nocasc_iff : nocasc rule_list <-> text_nocasc.
  Proof.
    split.
    - intros H e a He Ap. destruct (In_nth_error _ _ He) as (j & Hj). destruct (entry_inv j e Hj) as (id & r & dm & G1 & G2 & G3 & Gs). destruct (In_nth_error _ _ (ap_in _ _ Ap)) as (cm & Hcm). destruct (proj2 (Forall2_at _ _ _ Gs cm) a Hcm) as (c & G4 & G5 & G6 & G7).
      pose proof (H _ _ (nth_error_In _ _ (rule_at id r cm c G1 G4)) (proj2 (Hit e c a He (ap_in _ _ Ap) G5 G6 G7) Ap)) as N. rewrite Hitems, none_flat in N. apply N. eapply nth_error_In; exact G2.
    - intros H s rs Hin Hh. destruct (In_nth_error _ _ Hin) as (i & Hi). apply rule_inv in Hi as (id & r & cm & c & G1 & G2 & G3 & -> & ->). rewrite Hitems, none_flat. intros d Hd. destruct (In_nth_error _ _ Hd) as (dm & Hdm).
      destruct (entry_at id r dm d G1 Hdm) as (e & He & -> & Hs). destruct (proj1 (Forall2_at _ _ _ Hs cm) c G2) as (a & A1 & A2 & A3 & A4). apply (H e a); [eapply nth_error_In; exact He|]. apply (Hit e c a); auto; [eapply nth_error_In; exact He|eapply nth_error_In; exact A1].
  Qed.
End J.
