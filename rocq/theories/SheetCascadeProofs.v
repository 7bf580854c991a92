(** Proofs for C111: the winner among the rules of a built sheet. *)
From Coq Require Import Ascii String NArith ZArith Sorted.
From Verif Require Import Base VarText Layers Media Matching Specificity Nesting SheetText SelText SheetSel Cascade CascadeSpec CascadeProofs CascadeProofs2 CascadeProofs3 CascadeProofs4 Prop_Cascade SheetCascade.
Open Scope list_scope.

(** ** Lists *)
Lemma filter_index {A} (f : A -> bool) l : exists g : nat -> nat,
  (forall i x, nth_error (filter f l) i = Some x -> nth_error l (g i) = Some x) /\ (forall i j, i < j -> g i < g j) /\
  (forall k x, nth_error l k = Some x -> f x = true -> exists i, g i = k /\ nth_error (filter f l) i = Some x).
Proof.
  induction l as [|a l (g & G1 & G2 & G3)].
  - exists (fun i => i). split; [intros i x H; exact H|]. split; [auto|]. intros k x H. destruct k; discriminate.
  - cbn. destruct (f a) eqn:E.
    + exists (fun i => match i with 0 => 0 | S i => S (g i) end). split; [|split].
      * intros [|i] x H; [exact H|]. apply G1. exact H.
      * intros [|i] [|j] H; try lia. assert (i < j) by lia. specialize (G2 i j H0). lia.
      * intros [|k] x H F; [exists 0; auto|]. destruct (G3 k x H F) as (i & <- & Hi). exists (S i). auto.
    + exists (fun i => S (g i)). split; [exact G1|]. split.
      * intros i j H. specialize (G2 i j H). lia.
      * intros [|k] x H F; [injection H as <-; congruence|]. destruct (G3 k x H F) as (i & <- & Hi). exists i. auto.
Qed.
Definition off {A B} (F : A -> list B) (R : list A) (id : nat) : nat := List.length (flat_map F (firstn id R)).
Lemma off_at {A B} (F : A -> list B) R i x : nth_error (flat_map F R) i = Some x -> exists id r m, nth_error R id = Some r /\ nth_error (F r) m = Some x /\ i = off F R id + m.
Proof.
  revert i. induction R as [|r R IH]; intros i H; [destruct i; discriminate|]. cbn [flat_map] in H. destruct (Nat.lt_ge_cases i (List.length (F r))) as [L|L].
  - rewrite nth_error_app1 in H by exact L. exists 0, r, i. auto.
  - rewrite nth_error_app2 in H by exact L. destruct (IH _ H) as (id & r' & m & H1 & H2 & H3). exists (S id), r', m. split; [exact H1|]. split; [exact H2|]. unfold off in *. cbn [firstn flat_map]. rewrite app_length. lia.
Qed.
Lemma off_get {A B} (F : A -> list B) R id r m x : nth_error R id = Some r -> nth_error (F r) m = Some x -> nth_error (flat_map F R) (off F R id + m) = Some x.
Proof.
  revert id. induction R as [|r' R IH]; intros id H1 H2; [destruct id; discriminate|]. destruct id as [|id].
  - injection H1 as ->. cbn. rewrite nth_error_app1; [exact H2|]. apply nth_error_Some. congruence.
  - specialize (IH id H1 H2). unfold off in *. cbn [firstn flat_map]. rewrite app_length, nth_error_app2 by lia. rewrite <- IH. f_equal. lia.
Qed.
Lemma off_lt {A B} (F : A -> list B) R id id' r : id < id' -> nth_error R id = Some r -> off F R id + List.length (F r) <= off F R id'.
Proof.
  revert id id'. induction R as [|r' R IH]; intros id id' L H; [destruct id; discriminate|]. destruct id' as [|id']; [lia|]. destruct id as [|id].
  - injection H as ->. unfold off. cbn [firstn flat_map]. rewrite app_length. cbn. lia.
  - specialize (IH id id' ltac:(lia) H). unfold off in *. cbn [firstn flat_map]. rewrite !app_length. lia.
Qed.
Lemma nth_len {A} (l : list A) m x : nth_error l m = Some x -> m < List.length l.
Proof. intros H. apply nth_error_Some. congruence. Qed.
Lemma Forall2_at {A B} (R : A -> B -> Prop) l l' : Forall2 R l l' -> forall i, (forall x, nth_error l i = Some x -> exists y, nth_error l' i = Some y /\ R x y) /\ (forall y, nth_error l' i = Some y -> exists x, nth_error l i = Some x /\ R x y).
Proof.
  induction 1 as [|x y l l' H _ IH]; intros i; [split; intros z Hz; destruct i; discriminate|]. destruct i as [|i]; [|apply IH]. split; intros z Hz; injection Hz as <-; eexists; split; try reflexivity; exact H.
Qed.
Lemma last_concat {X} (ls : list (list (nat * X))) p v : last_declaration (concat ls) p v ->
  exists l1 l l2, ls = l1 ++ l :: l2 /\ last_declaration l p v /\ forall l' v', In l' l2 -> ~ In (p, v') l'.
Proof.
  induction ls as [|l ls IH] using rev_ind; [intros (l1 & l2 & H & _); destruct l1; discriminate|]. rewrite concat_app. cbn [concat]. rewrite app_nil_r. intros (a & b & E & N).
  assert (D : (exists v', In (p, v') l) \/ forall v', ~ In (p, v') l).
  { clear. induction l as [|[q x] l [(v' & H)|H]]; [right; intros v' []|left; exists v'; right; exact H|]. destruct (Nat.eq_dec q p) as [->|Hn]; [left; exists x; left; reflexivity|]. right. intros v' [G|G]; [congruence|exact (H v' G)]. }
  destruct D as [(v' & Hin)|Hno].
  - exists ls, l, []. split; [reflexivity|]. split; [|intros l' ? []].
    assert (G : exists c, a = concat ls ++ c /\ l = c ++ (p, v) :: b).
    { clear - E N Hin. revert E. generalize (concat ls) as k. intros k. revert a. induction k as [|z k IH]; intros a E; [exists a; auto|]. destruct a as [|z' a].
      - injection E as -> E. exfalso. apply (N v'). rewrite <- E. apply in_or_app. right. exact Hin.
      - injection E as -> E. destruct (IH a E) as (c & -> & ->). exists c. auto. }
    destruct G as (c & _ & ->). exists c, b. auto.
  - assert (G : exists c, b = c ++ l /\ concat ls = a ++ (p, v) :: c).
    { clear - E Hno. revert E. revert a. induction (concat ls) as [|z k IH]; intros a E.
      - exfalso. apply (Hno v). cbn in E. rewrite E. apply in_or_app. right. left. reflexivity.
      - destruct a as [|z' a]; [injection E as -> <-; exists k; auto|]. injection E as -> E. destruct (IH a E) as (c & -> & ->). exists c. auto. }
    destruct G as (c & -> & Ec). destruct (IH ltac:(exists a, c; split; [exact Ec|intros v' G; apply (N v'); apply in_or_app; auto])) as (l1 & l0 & l2 & -> & H1 & H2).
    exists l1, l0, (l2 ++ [l]). rewrite <- app_assoc. split; [reflexivity|]. split; [exact H1|]. intros l' v' Hl. apply in_app_or in Hl as [Hl|[<-|[]]]; eauto.
Qed.
Lemma sorted_at {A} (R : A -> A -> Prop) l1 x l2 : StronglySorted R (l1 ++ x :: l2) -> forall y, In y l1 -> R y x.
Proof.
  induction l1 as [|z l1 IH]; intros S y []; cbn in S; inversion S as [|? ? S' F]; subst; [rewrite Forall_forall in F; apply F; apply in_or_app; right; left; reflexivity|apply IH; assumption].
Qed.

(** ** The builder of a text: for any declarations and contents *)
Section G.
  Context {DT VN VT CN V DY TP AP KN KF FF : Type}.
  Notation M := (media_selector fval).
  Notation builderT := (Cascade.builder complex (list M) VN VT CN V DY TP AP KN KF FF).
  Lemma entries_ids (R : list (list (csel pcomplex M) * list DT)) : forall n, Forall (fun e => n <= snd e < n + List.length R) (entries_from n R).
  Proof.
    induction R as [|r R IH]; intros n; [constructor|]. cbn [entries_from]. apply Forall_app. split.
    - apply Forall_map, Forall_forall. intros c _. cbn. lia.
    - eapply Forall_impl; [|apply IH]. intros e H. cbn in *. lia.
  Qed.
  Definition covered (b : builderT) : Prop := forall id r, nth_error (rulesets b) id = Some r -> is_empty r = false -> exists e, In e (css_selectors_to_rulesets b) /\ snd e = id.
  Lemma covered_remove (b b' : builderT) id : covered b -> remove_id b id = Some b' -> covered b'.
  Proof.
    intros C. unfold remove_id. destruct (Nat.ltb_spec id (List.length (rulesets b))) as [L|]; [|discriminate]. intros H. injection H as <-. intros i r Hi Hr. cbn in Hi |- *.
    assert (exists e, In e (css_selectors_to_rulesets b) /\ (i < id /\ snd e = i \/ id <= i /\ snd e = S i)) as (e & He & Ei).
    { destruct (Nat.lt_ge_cases i id) as [G|G].
      - rewrite nth_error_remove_lt in Hi by exact G. destruct (C i r Hi Hr) as (e & He & Ei). exists e; auto.
      - rewrite nth_error_remove_ge in Hi by exact G. destruct (C (S i) r Hi Hr) as (e & He & Ei). exists e; auto. }
    exists (fst e, if Nat.ltb id (snd e) then snd e - 1 else snd e). split.
    - apply in_map_iff. exists e. split; [reflexivity|]. apply filter_In. split; [exact He|]. apply negb_true_iff, Nat.eqb_neq. lia.
    - cbn [snd]. destruct (Nat.ltb_spec id (snd e)); lia.
  Qed.
  Lemma covered_loop fuel : forall i (b b' : builderT), covered b -> remove_empty_loop fuel i b = Some b' -> covered b'.
  Proof.
    induction fuel as [|fuel IH]; intros i b b' C H; cbn in H; destruct (nth_error (rulesets b) i) as [r|]; try discriminate; try (injection H as <-; exact C).
    destruct (is_empty r); [destruct (remove_id b i) as [b1|] eqn:E; [|discriminate]; eapply IH; [eapply covered_remove; eauto|exact H]|eapply IH; eauto].
  Qed.
  Lemma covered_orphan (b : builderT) : covered b -> Forall (fun r => is_empty r = false) (rulesets b) -> orphan b = None.
  Proof.
    intros C N. unfold orphan. destruct (find _ _) as [id|] eqn:E; [|reflexivity]. apply find_some in E as [H1 H2]. apply in_seq in H1.
    destruct (nth_error (rulesets b) id) as [r|] eqn:Er; [|apply nth_error_None in Er; lia]. rewrite Forall_forall in N. destruct (C id r Er (N r (nth_error_In _ _ Er))) as (e & He & Ei).
    apply negb_true_iff in H2. assert (existsb (fun e => Nat.eqb (snd e) id) (css_selectors_to_rulesets b) = true) by (apply existsb_exists; exists e; split; [exact He|apply Nat.eqb_eq; exact Ei]). congruence.
  Qed.
  Lemma entries_covered (R : list (list (csel pcomplex M) * list DT)) : forall n id r, nth_error R id = Some r -> fst r <> [] -> exists e, In e (entries_from n R) /\ snd e = n + id.
  Proof.
    induction R as [|r0 R IH]; intros n id r Hr Hn; [destruct id; discriminate|]. cbn [entries_from]. destruct id as [|id].
    - injection Hr as ->. destruct (fst r) as [|c cs]; [contradiction|]. exists (to_css c, n). split; [left; reflexivity|cbn; lia].
    - destruct (IH (S n) id r Hr Hn) as (e & He & Ei). exists e. split; [apply in_or_app; right; exact He|lia].
  Qed.
End G.

Section W.
  Context {V : Type}.
  Notation M := (media_selector fval).
  Notation D := (list (nat * V)).
  Notation builderT := (Cascade.builder complex (list M) nat nat unit V unit unit unit unit unit unit).
  Notation brs := (builder_ruleset nat nat unit V unit unit unit).
  Notation rule := (css_selector complex (list M) * option brs)%type.
  Variables (type_ok : nat -> V -> bool) (placeholder : V -> V).
  Notation buildB := (build specificity (fun _ : unit => None) type_ok (fun _ : unit => true) placeholder).

  Definition decls (r : brs) : D := flat_map (fun q => match q with BSpecific (RefId i) x => [(i, x)] | _ => [] end) (properties r).
  Definition plain_rs (r : brs) : Prop := exists ds, r = contents_of ds.
  Lemma decls_contents ds : decls (contents_of ds) = concat ds.
  Proof. unfold decls, contents_of. cbn. induction (concat ds) as [|[i x] l IH]; [reflexivity|]. cbn. rewrite IH. reflexivity. Qed.
  Lemma resolve_plain (ds : list D) : resolve_ruleset (fun _ : unit => None) placeholder (contents_of ds : brs) = Some (mk_ruleset [] (map (fun d => RSpecific (fst d) (placeholder (snd d))) (concat ds)) [] []).
  Proof.
    unfold resolve_ruleset, contents_of. cbn [properties vars transition_properties animation_properties].
    assert (K : map_opt (resolve_property (fun _ : unit => None) placeholder) (map (fun d => BSpecific (RefId (fst d)) (snd d) : builder_property unit V unit) (concat ds)) = Some (map (fun d => RSpecific (fst d) (placeholder (snd d))) (concat ds))) by (induction (concat ds) as [|d l IHl]; [reflexivity|cbn; rewrite IHl; reflexivity]).
    rewrite K. reflexivity.
  Qed.
  Definition before (h : list (list ascii)) (s1 : css_selector complex (list M)) (i : nat) (s2 : css_selector complex (list M)) (j : nat) : Prop :=
    exists p1 p2, get_layer_priority h (layer s1) = Some p1 /\ get_layer_priority h (layer s2) = Some p2 /\
      (p1 < p2 \/ p1 = p2 /\ ((specificity (selector s1) < specificity (selector s2))%N \/ specificity (selector s1) = specificity (selector s2) /\ i < j)).
  (** among the rules that hit, the winner for [p] *)
  Definition winner (h : list (list ascii)) (hit : css_selector complex (list M) -> bool) (p : nat) (base o : V) (rl : list rule) : Prop :=
    (exists i s r v, nth_error rl i = Some (s, Some r) /\ hit s = true /\ last_declaration (decls r) p v /\ o = placeholder v /\
       forall j s' r' v', nth_error rl j = Some (s', Some r') -> hit s' = true -> In (p, v') (decls r') -> j = i \/ before h s' j s i) \/
    o = base /\ forall j s' r' v', nth_error rl j = Some (s', Some r') -> hit s' = true -> ~ In (p, v') (decls r').

  Lemma winner_built (cb : builderT) s ms mm veqb base out : (forall a b, veqb a b = true <-> a = b) -> ids_ok cb -> Forall plain_rs (rulesets cb) -> buildB cb = Built s ->
    get_property_values (fun _ => None) veqb s (get_matching_ruleset_ids ms mm s) None base = Some out ->
    forall p, winner (layers_hierarchy cb) (fun c => ms (selector c) && mm (media c))%bool p (base p) (out p) (rules (rulesets cb) (css_selectors_to_rulesets cb)).
  Proof.
    intros Hv Hok Hp Hb Ho p. destruct (C04_cascade_order specificity (fun _ => None) type_ok (fun _ => true) placeholder cb s ms mm Hb) as (ix & F & Hix & S).
    destruct (C05_last_declaration_wins (fun _ => None) veqb Hv s _ None base out Ho) as (rs & Fr & Hw). specialize (Hw p).
    pose proof (map_opt_Forall2 _ _ _ (build_rulesets _ _ _ _ _ _ _ Hb)) as Frs.
    (* the rules in cascade order, with their declarations *)
    assert (Q : Forall2 (fun i l => exists sel id r, nth_error (css_selectors_to_rulesets cb) i = Some (sel, id) /\ nth_error (rulesets cb) id = Some r /\ l = map (fun d => (fst d, placeholder (snd d))) (decls r))
                  ix (map (fun r => concat (map (stands_for (fun _ : unit => None)) (properties r))) rs)).
    { clear - F Fr Frs Hp. revert rs Fr. induction F as [|i id ix ids (sel & Hi) F IH]; intros rs Fr; inversion Fr as [|? r' ? rs' Hr Fr']; subst; [constructor|]. constructor; [|apply IH; exact Fr'].
      destruct (Forall2_at _ _ _ Frs id) as [_ G]. destruct (G _ Hr) as (r & Er & Res). exists sel, id, r. split; [exact Hi|]. split; [exact Er|].
      rewrite Forall_forall in Hp. destruct (Hp r (nth_error_In _ _ Er)) as (ds & ->). rewrite decls_contents. rewrite resolve_plain in Res. injection Res as <-. cbn [properties]. rewrite map_map. cbn [stands_for]. clear. induction (concat ds) as [|d l IHl]; [reflexivity|]. cbn [map concat app]. f_equal. exact IHl. }
    cbn [app] in Hw. rewrite app_nil_r in Hw.
    assert (Mem : forall j s' r', nth_error (rules (rulesets cb) (css_selectors_to_rulesets cb)) j = Some (s', Some r') -> (ms (selector s') && mm (media s'))%bool = true ->
              exists id, nth_error (css_selectors_to_rulesets cb) j = Some (s', id) /\ nth_error (rulesets cb) id = Some r' /\ In j ix).
    { intros j s' r' Hj Hh. unfold rules in Hj. rewrite nth_error_map in Hj. destruct (nth_error (css_selectors_to_rulesets cb) j) as [[s0 id]|] eqn:Ej; [|discriminate]. cbn in Hj. injection Hj as -> Hr. exists id. split; [reflexivity|]. split; [exact Hr|].
      apply Hix. exists s', id. apply andb_true_iff in Hh as [H1 H2]. auto. }
    destruct Hw as [Hw|[Hno Hbase]].
    - left. apply last_concat in Hw as (l1 & l & l2 & El & Hl & Hl2). rewrite El in Q. apply Forall2_app_inv_r in Q as (x1 & x2 & Q1 & Q2 & Ex). inversion Q2 as [|i ? x3 ? (sel & id & r & Hi & Hr & Hd) Q3]; subst.
      assert (Lv : exists v, last_declaration (decls r) p v /\ out p = placeholder v).
      { destruct Hl as (a & b & E & N). assert (G : exists a' v b', decls r = a' ++ (p, v) :: b' /\ placeholder v = out p /\ b = map (fun d => (fst d, placeholder (snd d))) b').
        { clear - E. revert a E. induction (decls r) as [|[q x] d IH]; intros a E; [destruct a; discriminate|]. destruct a as [|y a]; cbn in E.
          - injection E as -> Ev Eb. exists [], x, d. auto.
          - injection E as _ E. destruct (IH a E) as (a' & v & b' & -> & Hv & Hb). exists ((q, x) :: a'), v, b'. auto. }
        destruct G as (a' & v & b' & -> & Ev & ->). exists v. split; [|symmetry; exact Ev]. exists a', b'. split; [reflexivity|]. intros v' G. apply (N (placeholder v')). apply in_map_iff. exists (p, v'). auto. }
      destruct Lv as (v & Lv & Ov). exists i, sel, r, v.
      assert (Hit : (ms (selector sel) && mm (media sel))%bool = true).
      { destruct (proj1 (Hix i) ltac:(apply in_or_app; right; left; reflexivity)) as (sel' & id' & H1 & H2 & H3). rewrite Hi in H1. injection H1 as <- <-. rewrite H2, H3. reflexivity. }
      split; [unfold rules; rewrite nth_error_map, Hi; cbn; rewrite Hr; reflexivity|]. split; [exact Hit|]. split; [exact Lv|]. split; [exact Ov|].
      intros j s' r' v' Hj Hh Hin. destruct (Mem j s' r' Hj Hh) as (id' & Ej & Er & Ix). apply in_app_or in Ix as [Ix|[->|Ix]]; [|left; reflexivity|].
      + right. destruct (sorted_at _ _ _ _ S j Ix) as (si & idi & sj & idj & pi & pj & H1 & H2 & H3 & H4 & H5). rewrite Ej in H1. rewrite Hi in H2. injection H1 as <- <-. injection H2 as <- <-. exists pi, pj. auto.
      + exfalso. clear - Q3 Ix Hl2 Ej Er Hin. revert Hl2. induction Q3 as [|k l x3 l2 (s0 & id0 & r0 & H1 & H2 & H3) Q3 IH]; [destruct Ix|]. intros Hl2. destruct Ix as [->|Ix].
        * rewrite Ej in H1. injection H1 as <- <-. rewrite Er in H2. injection H2 as <-. apply (Hl2 l (placeholder v') (or_introl eq_refl)). subst l. apply in_map_iff. exists (p, v'). auto.
        * apply IH; [exact Ix|]. intros l' v0 Hl'. apply Hl2. right. exact Hl'.
    - right. split; [exact Hbase|]. intros j s' r' v' Hj Hh Hin. destruct (Mem j s' r' Hj Hh) as (id' & Ej & Er & Ix). apply (Hno (placeholder v')). apply in_concat.
      clear - Q Ix Ej Er Hin. induction Q as [|k l x3 l2 (s0 & id0 & r0 & H1 & H2 & H3) Q3 IH]; [destruct Ix|]. destruct Ix as [->|Ix].
      + rewrite Ej in H1. injection H1 as <- <-. rewrite Er in H2. injection H2 as <-. exists l. split; [left; reflexivity|]. subst l. apply in_map_iff. exists (p, v'). auto.
      + destruct (IH Ix) as (l' & H4 & H5). exists l'. split; [right; exact H4|exact H5].
  Qed.

  (** empty rules do not matter *)
  Lemma winner_filter h hit p base o (rl : list rule) : winner h hit p base o (filter keeps rl) -> winner h hit p base o rl.
  Proof.
    destruct (filter_index keeps rl) as (g & G1 & G2 & G3).
    assert (Em : forall (s : css_selector complex (list M)) (r : brs) v, In (p, v) (decls r) -> keeps (s, Some r) = true).
    { intros s r v H. unfold keeps. cbn. destruct (is_empty r) eqn:E; [|reflexivity]. exfalso. apply is_empty_spec in E as (_ & E & _). unfold decls in H. rewrite E in H. destruct H. }
    intros [(i & s & r & v & Hi & Hh & Hl & Ho & Hw)|[Ho Hn]].
    - left. exists (g i), s, r, v. split; [apply G1; exact Hi|]. do 3 (split; [assumption|]). intros j s' r' v' Hj Hh' Hin. destruct (G3 j _ Hj (Em s' r' v' Hin)) as (k & <- & Hk).
      destruct (Hw k s' r' v' Hk Hh' Hin) as [->|(p1 & p2 & P1 & P2 & P3)]; [left; reflexivity|right]. exists p1, p2. split; [exact P1|]. split; [exact P2|]. destruct P3 as [P3|[E [P3|[P3 L]]]]; auto. right. split; [exact E|]. right. split; [exact P3|apply G2; exact L].
    - right. split; [exact Ho|]. intros j s' r' v' Hj Hh Hin. destruct (G3 j _ Hj (Em s' r' v' Hin)) as (k & _ & Hk). exact (Hn k s' r' v' Hk Hh Hin).
  Qed.

  (** the rules of the builder, ruleset by ruleset *)
  Definition rules_of (r : list (csel pcomplex M) * list D) : list rule := map (fun c => (to_css c, Some (contents_of (snd r)))) (fst r).
  Lemma rules_flat (R : list (list (csel pcomplex M) * list D)) : rules (map (fun r => contents_of (snd r)) R) (entries_from 0 R) = flat_map rules_of R.
  Proof.
    assert (G : forall R0 R : list (list (csel pcomplex M) * list D), rules (map (fun r => contents_of (snd r)) (R0 ++ R)) (entries_from (List.length R0) R) = flat_map rules_of R).
    { clear R. intros R0 R. revert R0. induction R as [|r R IH]; intros R0; [reflexivity|]. cbn [entries_from flat_map]. unfold rules. rewrite map_app. f_equal.
      - unfold rules_of. rewrite map_map. apply map_ext. intros c. cbn. rewrite nth_error_map, nth_error_app2, Nat.sub_diag by lia. reflexivity.
      - specialize (IH (R0 ++ [r])). rewrite <- app_assoc in IH. rewrite app_length in IH. cbn in IH. rewrite Nat.add_1_r in IH. exact IH. }
    apply (G [] R).
  Qed.

  Lemma builds (cb : builderT) : font_faces cb = [] -> covered cb -> Forall (fun r => is_empty r = false) (rulesets cb) -> Forall plain_rs (rulesets cb) ->
    (forall r q x, In r (rulesets cb) -> In (q, x) (decls r) -> type_ok q (placeholder x) = true) ->
    (forall e, In e (css_selectors_to_rulesets cb) -> exists k, get_layer_priority (layers_hierarchy cb) (layer (fst e)) = Some k) -> exists s, buildB cb = Built s.
  Proof.
    intros Hf Hc Hne Hp Ht Hl. unfold build. rewrite Hf. cbn [forallb negb]. rewrite (covered_orphan cb Hc Hne). unfold sort_css.
    destruct (map_opt_total (fun e => option_map (fun k => (k, e)) (sort_key specificity (layers_hierarchy cb) (fst e))) (css_selectors_to_rulesets cb)) as (dec & ->).
    { intros e He. destruct (Hl e He) as (k & Ek). unfold sort_key. rewrite Ek. cbn. eauto. }
    cbn [option_map]. destruct (map_opt_total (resolve_ruleset (fun _ : unit => None) placeholder) (rulesets cb)) as (rs & Ers).
    { intros r Hr. rewrite Forall_forall in Hp. destruct (Hp r Hr) as (ds & ->). rewrite resolve_plain. eauto. }
    rewrite Ers. assert (Hv : validate_all_properties type_ok rs = true); [|rewrite Hv; eauto].
    apply map_opt_Forall2 in Ers. unfold validate_all_properties. apply forallb_forall. intros r' Hr'.
    assert (exists r, In r (rulesets cb) /\ resolve_ruleset (fun _ : unit => None) placeholder r = Some r') as (r & Hr & Er).
    { clear - Ers Hr'. induction Ers as [|r y l l' H _ IH]; [destruct Hr'|]. destruct Hr' as [->|Hr']; [exists r; split; [left; reflexivity|exact H]|]. destruct (IH Hr') as (r0 & H1 & H2). exists r0. split; [right; exact H1|exact H2]. }
    rewrite Forall_forall in Hp. destruct (Hp r Hr) as (ds & E). specialize (Ht r). rewrite E in *. clear E. rewrite decls_contents in Ht. rewrite resolve_plain in Er. injection Er as <-. cbn. apply forallb_forall. intros q Hq. apply in_map_iff in Hq as ([i x] & <- & Hx). cbn. apply Ht; [exact Hr|exact Hx].
  Qed.
  Lemma has_values (cb : builderT) s ms mm veqb base : ids_ok cb -> buildB cb = Built s -> exists out, get_property_values (fun _ => None) veqb s (get_matching_ruleset_ids ms mm s) None base = Some out.
  Proof.
    intros Hok Hb. destruct (C04_cascade_order specificity (fun _ => None) type_ok (fun _ => true) placeholder cb s ms mm Hb) as (ix & F & _). pose proof (map_opt_Forall2 _ _ _ (build_rulesets _ _ _ _ _ _ _ Hb)) as Frs.
    unfold get_property_values, resolve_rulesets. destruct (map_opt_total (fun id => nth_error (s_rulesets s) id) (get_matching_ruleset_ids ms mm s)) as (rs & ->); [|cbn; eauto].
    intros id Hid. assert (exists i sel, nth_error (css_selectors_to_rulesets cb) i = Some (sel, id)) as (i & sel & Hi).
    { clear - F Hid. induction F as [|i id' ix ids (sel & H) _ IH]; [destruct Hid|]. destruct Hid as [->|Hid]; eauto. }
    unfold ids_ok in Hok. rewrite Forall_forall in Hok. specialize (Hok _ (nth_error_In _ _ Hi)). cbn in Hok. destruct (nth_error (rulesets cb) id) as [r|] eqn:Er; [|apply nth_error_None in Er; lia].
    destruct (proj1 (Forall2_at _ _ _ Frs id) _ Er) as (y & Hy & _). eauto.
  Qed.
End W.
