(** C98: each CSS property sets its own property of its own component. *)
From Coq Require Import Ascii String.
From Coq Require Import NArith.
From Verif Require Import Base Reflect ReflectSpec ReflectProofs Prop_Reflect ComponentTable ComponentTableSpec ComponentTableProofs.
From Verif Require Shorthand ShorthandSpec Prop_Shorthand.
Open Scope nat_scope.
Open Scope string_scope.
Open Scope list_scope.

(** Every CSS name of the table is the name of a property of one of the components, at the place that the table says. *)
Theorem C98_names_resolve : forall T css cn path, lookup css css_table = Some (cn, path) ->
  exists c p, In c (components T) /\ c_name c = cn /\ named T css c p /\ show_path (p_path p) = path.
Proof.
  intros T css cn path H.
  assert (forallb (fun x => match resolve T (fst x) with
                            | Some (n, k) => match find_component n (components T) with
                                             | Some c => match nth_error (properties_of (c_decl c)) k with Some p => String.eqb (c_name c) n && String.eqb (show_path (p_path p)) (snd (snd x)) && String.eqb n (fst (snd x)) | None => false end
                                             | None => false end
                            | None => false end) css_table = true) as Ha by (vm_compute; reflexivity).
  rewrite forallb_forall in Ha. specialize (Ha _ (lookup_in _ _ _ H)). cbn [fst snd] in Ha. destruct (resolve T css) as [(n & k)|] eqn:Er; [|discriminate].
  destruct (find_component n (components T)) as [c|] eqn:Ef; [|discriminate]. destruct (nth_error (properties_of (c_decl c)) k) as [p|] eqn:Ep; [|discriminate].
  apply andb_prop in Ha as (Ha & H3). apply andb_prop in Ha as (H1 & H2). apply String.eqb_eq in H1, H2, H3. subst.
  exists c, p. split; [|split; [reflexivity|split; [exists k; auto | reflexivity]]].
  revert Ef. generalize (c_name c) at 1. intros s. induction (components T) as [|d ds IH]; cbn; [discriminate|]. destruct (String.eqb s (c_name d)); [intros [= ->]; left; reflexivity | right; auto].
Qed.
Lemma named_in_table T css c p : named T css c p -> In css (map fst css_table).
Proof. intros (k & E & _). unfold resolve in E. destruct (lookup css css_table) as [x|] eqn:El; [|discriminate]. apply lookup_in in El. apply (in_map fst) in El. exact El. Qed.
Definition pair_eqb (a b : option (string * nat)) : bool := match a, b with Some (x, i), Some (y, j) => String.eqb x y && Nat.eqb i j | None, None => true | _, _ => false end.
Lemma pair_eqb_spec a b : pair_eqb a b = true <-> a = b.
Proof.
  destruct a as [(x & i)|], b as [(y & j)|]; cbn; try (intuition (congruence || discriminate)).
  rewrite andb_true_iff, String.eqb_eq, Nat.eqb_eq. split; [intros (-> & ->); reflexivity | intros [= -> ->]; auto].
Qed.
Fixpoint pairwise (l : list (string * option (string * nat))) : bool := match l with [] => true | (x, a) :: l => forallb (fun y => negb (pair_eqb a (snd y))) l && pairwise l end.
Lemma pairwise_spec l : pairwise l = true -> forall x y a, In (x, a) l -> In (y, a) l -> x = y.
Proof.
  induction l as [|(z & b) l IH]; cbn [pairwise]; intros H x y a Hx Hy; [destruct Hx|]. apply andb_prop in H as (H1 & H2). rewrite forallb_forall in H1.
  assert (pair_eqb a a = true) as Ha by (apply pair_eqb_spec; reflexivity).
  destruct Hx as [Hx|Hx], Hy as [Hy|Hy].
  - congruence.
  - injection Hx as -> ->. specialize (H1 _ Hy). cbn [snd] in H1. rewrite Ha in H1. discriminate.
  - injection Hy as -> ->. specialize (H1 _ Hx). cbn [snd] in H1. rewrite Ha in H1. discriminate.
  - eapply IH; eauto.
Qed.
(** No two CSS names mean the same property. *)
Theorem C98_names_distinct : forall T css css' c p p', named T css c p -> named T css' c p' -> p_path p = p_path p' -> In c (components T) -> css = css'.
Proof.
  intros T css css' c p p' H H' Ep Hc. pose proof (named_in_table _ _ _ _ H) as Hi. pose proof (named_in_table _ _ _ _ H') as Hi'.
  destruct H as (k & E & Ek), H' as (k' & E' & Ek').
  assert (k = k') as <-.
  { assert (forallb (fun c => (fix go (l : list string) : bool := match l with [] => true | x :: l => negb (existsb (String.eqb x) l) && go l end) (map (fun p => show_path (p_path p)) (properties_of (c_decl c)))) (components T) = true) as Hn by (vm_compute; reflexivity).
    rewrite forallb_forall in Hn. specialize (Hn c Hc). cbv beta in Hn. apply (f_equal show_path) in Ep. revert Hn Ek Ek' Ep. generalize (properties_of (c_decl c)). clear. intros l.
    revert k k'. induction l as [|q l IH]; intros [|k] [|k']; cbn; intros Hn E E' Ep; try discriminate; try reflexivity.
    - injection E as <-. apply andb_prop in Hn as (Hn & _). apply Bool.negb_true_iff in Hn. exfalso. apply Bool.not_true_iff_false in Hn. apply Hn. apply existsb_exists. exists (show_path (p_path p')).
      split; [apply in_map_iff; exists p'; split; [reflexivity | eapply nth_error_In; eauto] | apply String.eqb_eq; exact Ep].
    - injection E' as <-. apply andb_prop in Hn as (Hn & _). apply Bool.negb_true_iff in Hn. exfalso. apply Bool.not_true_iff_false in Hn. apply Hn. apply existsb_exists. exists (show_path (p_path p)).
      split; [apply in_map_iff; exists p; split; [reflexivity | eapply nth_error_In; eauto] | apply String.eqb_eq; symmetry; exact Ep].
    - f_equal. apply andb_prop in Hn as (_ & Hn). eapply IH; eauto. }
  assert (pairwise (map (fun css => (css, resolve T css)) (map fst css_table)) = true) as Hp by (vm_compute; reflexivity).
  eapply (pairwise_spec _ Hp css css' (Some (c_name c, k))); apply in_map_iff; [exists css | exists css']; split; congruence.
Qed.
Lemma resolve_inj T css css' x : resolve T css = Some x -> resolve T css' = Some x -> css = css'.
Proof.
  intros E E'. assert (forall y z, resolve T y = Some z -> In y (map fst css_table)) as Hi.
  { intros y z Ey. unfold resolve in Ey. destruct (lookup y css_table) as [w|] eqn:El; [|discriminate]. apply lookup_in in El. apply (in_map fst) in El. exact El. }
  assert (pairwise (map (fun css => (css, resolve T css)) (map fst css_table)) = true) as Hp by (vm_compute; reflexivity).
  eapply (pairwise_spec _ Hp css css' (Some x)); apply in_map_iff; [exists css | exists css']; split; try congruence; eapply Hi; eauto.
Qed.
(** Whatever a shorthand assigns has a property. *)
Theorem C98_shorthands : forall V cv cf ca pv co oa ai ji im gr tv rt z th me tk au p0 at_ nt fl pr fw gs name ts a css (v : Shorthand.pv V),
  In name ShorthandSpec.shorthands -> @Shorthand.expand V cv cf ca pv co oa ai ji im gr tv rt z th me tk au p0 at_ nt fl pr fw gs name ts = Shorthand.Ok a -> In (css, v) a ->
  forall T, exists c p, In c (components T) /\ named T css c p.
Proof.
  intros until v. intros Hn E Hi T. apply Prop_Shorthand.C64_only_its_longhands in E as (_ & Hincl); [|exact Hn]. apply (in_map fst) in Hi. apply Hincl in Hi. cbn [fst] in Hi.
  assert (forallb (fun n => forallb (fun css => match lookup css css_table with Some _ => true | None => false end) (ShorthandSpec.longhands n)) ShorthandSpec.shorthands = true) as Ha by (vm_compute; reflexivity).
  rewrite forallb_forall in Ha. specialize (Ha name Hn). rewrite forallb_forall in Ha. specialize (Ha css Hi). destruct (lookup css css_table) as [(cn & path)|] eqn:El; [|discriminate].
  destruct (C98_names_resolve T css cn path El) as (c & p & Hc & _ & Hnm & _). eauto.
Qed.

Lemma changes_length T m c : List.length (changes_of T m c) = List.length (properties_of (c_decl c)).
Proof. unfold changes_of. rewrite map_length, seq_length. reflexivity. Qed.
Lemma css_at_spec T c k : match css_at T c k with Some css => resolve T css = Some (c_name c, k) | None => forall css, resolve T css <> Some (c_name c, k) end.
Proof.
  unfold css_at. destruct (@find string _ _) as [css|] eqn:Ef.
  - apply find_some in Ef as (_ & Ef). destruct (resolve T css) as [(n & j)|]; [|discriminate]. apply andb_prop in Ef as (E1 & E2). apply String.eqb_eq in E1. apply Nat.eqb_eq in E2. congruence.
  - intros css Er. assert (In css (map fst css_table)) as Hi. { unfold resolve in Er. destruct (lookup css css_table) as [w|] eqn:El; [|discriminate]. apply lookup_in in El. apply (in_map fst) in El. exact El. }
    pose proof (find_none _ _ Ef css Hi) as Hf. cbv beta in Hf. rewrite Er, String.eqb_refl, Nat.eqb_refl in Hf. discriminate.
Qed.
Lemma changes_at T m c k : k < List.length (properties_of (c_decl c)) -> nth_error (changes_of T m c) k = Some (match css_at T c k with Some css => m css | None => None end).
Proof.
  intros Hk. unfold changes_of. generalize (css_at T c). intros g. apply (map_nth_error (fun k => match g k with Some css => m css | None => None end)).
  rewrite nth_error_nth' with (d := 0) by (rewrite seq_length; exact Hk). rewrite seq_nth by exact Hk. reflexivity.
Qed.
Lemma changes_nth T m c k o : nth_error (changes_of T m c) k = Some o -> forall css, resolve T css = Some (c_name c, k) -> o = m css.
Proof.
  intros E css Er. assert (k < List.length (properties_of (c_decl c))) as Hk by (rewrite <- (changes_length T m c); apply nth_error_Some; congruence).
  rewrite (changes_at T m c k Hk) in E. pose proof (css_at_spec T c k) as Hs. destruct (css_at T c k) as [css'|]; [|destruct (Hs css Er)]. rewrite (resolve_inj T css css' _ Er Hs). congruence.
Qed.
Lemma given_iff T m c p v : given (properties_of (c_decl c)) (changes_of T m c) p v <-> exists css, named T css c p /\ m css = Some v.
Proof.
  split.
  - intros (k & Ep & Ev). assert (k < List.length (properties_of (c_decl c))) as Hk by (apply nth_error_Some; congruence).
    rewrite (changes_at T m c k Hk) in Ev. pose proof (css_at_spec T c k) as Hs. destruct (css_at T c k) as [css|]; [|discriminate]. exists css. split; [exists k; auto | congruence].
  - intros (css & (k & Er & Ep) & Em). exists k. split; [exact Ep|]. assert (k < List.length (properties_of (c_decl c))) as Hk by (apply nth_error_Some; congruence).
    pose proof (changes_at T m c k Hk) as Eo. rewrite Eo. f_equal. rewrite (changes_nth T m c k _ Eo css Er). exact Em.
Qed.
Lemma changes_typed T m c : In c (components T) -> typed_values T m -> Forall2 value_for (properties_of (c_decl c)) (changes_of T m c).
Proof.
  intros Hc Hm. assert (forall k p o, nth_error (properties_of (c_decl c)) k = Some p -> nth_error (changes_of T m c) k = Some o -> value_for p o) as H.
  { intros k p [v|] Ep Eo; [|exact I]. assert (given (properties_of (c_decl c)) (changes_of T m c) p v) as Hg by (exists k; auto). apply given_iff in Hg as (css & Hn & Em). cbn. eapply Hm; eauto. }
  pose proof (changes_length T m c) as Hl. revert H Hl. generalize (changes_of T m c). induction (properties_of (c_decl c)) as [|p ps IH]; intros [|o os] H Hl; try discriminate; constructor.
  - apply (H 0); reflexivity.
  - apply IH; [intros k; apply (H (S k)) | injection Hl; auto].
Qed.
Lemma set_css_set T m c t old new : In c (components T) -> proper t -> declares t (c_decl c) -> typed_values T m -> typed t old ->
  set_properties (properties_of (c_decl c)) (changes_of T m c) old new -> css_set T m c old new.
Proof.
  intros Hc Ht Hd Hm Ho Hs. split.
  - intros css p Hn. destruct (m css) as [v|] eqn:Em.
    + assert (given (properties_of (c_decl c)) (changes_of T m c) p v) as Hg by (apply given_iff; eauto). destruct Hs as (H1 & H2). destruct (H1 p v Hg) as (o & n & Eo & Hov & En).
      exists o, n. split; [exact Eo|]. split; [exact Hov|]. split; [exact En|]. intros Hw. pose proof (C96_value_shows_partial t (c_decl c) _ _ _ p v Ht Hd Ho (conj H1 H2) Hg (Hm css c p v Hc Hn Em) Hw) as Hsh.
      unfold get_value in Hsh. congruence.
    + eapply C96_others_keep; eauto; [destruct Hn as (k & _ & Ep); eapply nth_error_In; eauto|]. intros v Hg. destruct Hg as (k & Ep & Ev). destruct Hn as (k' & Er & Ep').
      assert (k = k') as <-. { destruct (declares_sound t (c_decl c) Hd) as (_ & S2). destruct (Nat.eq_dec k k') as [|Hne]; [assumption|]. pose proof (S2 k k' p p Hne Ep Ep') as (Ha & _). exfalso. apply Ha. exists []. rewrite app_nil_r. reflexivity. }
      pose proof (changes_nth T m c k _ Ev css Er). congruence.
  - intros q Hq. apply Hs. intros p v Hg. apply given_iff in Hg as (css & Hn & Em). eapply Hq; eauto.
Qed.

(** Setting any CSS properties to any values of their types, on an entity with any components: every component of the table
    has its own properties set, and nothing else in it or in the entity changes; a missing component is inserted exactly if it
    is one of those inserted automatically and one of its own properties has a value. *)
Theorem C98_each_sets_its_own_partial : forall T types R e m, set_up T types R -> typed_entity types R e -> typed_values T m ->
  let e' := apply_changes R e (map (changes_of T m) (components T)) in
  (forall i c r, nth_error (components T) i = Some c -> nth_error R i = Some r ->
     (forall old, comps e (r_type r) = Some old -> exists new, comps e' (r_type r) = Some new /\ css_set T m c old new) /\
     (comps e (r_type r) = None -> c_auto c = true -> touched T m c -> exists new, comps e' (r_type r) = Some new /\ css_set T m c (r_default r) new) /\
     (comps e (r_type r) = None -> c_auto c = false \/ ~ touched T m c -> comps e' (r_type r) = None)) /\
  (forall ty, ~ In ty (map r_type R) -> comps e' ty = comps e ty).
Proof.
  intros T types R e m Hs He Hm e'. unfold e', apply_changes. destruct (apply_all R e (map (changes_of T m) (components T))) as (e2 & q) eqn:E.
  destruct (apply_all_spec R e (map (changes_of T m) (components T)) (su_distinct _ _ _ Hs)) with (e' := e2) (q := q) as (A1 & _ & A3); [rewrite map_length; apply (su_length _ _ _ Hs) | exact E |].
  split.
  - intros i c r Ec Er. destruct (nth_error types i) as [t|] eqn:Et.
    2:{ apply nth_error_None in Et. rewrite (su_types _ _ _ Hs) in Et. assert (i < List.length (components T)) by (apply nth_error_Some; congruence). lia. }
    destruct (su_each _ _ _ Hs i c r t Ec Er Et) as (Hp & Hau & Ht & Hd & Hdef). pose proof (nth_error_In _ _ Ec) as Hc.
    assert (forall old, comps e (r_type r) = Some old -> typed t old) as Hty by (intros old; apply (He i r t old Er Et)).
    pose proof (changes_typed T m c Hc Hm) as Hv. rewrite <- Hp in Hv.
    destruct (C96_set_properties t (c_decl c) r e (changes_of T m c) Ht Hd Hp Hdef Hty Hv) as (e1 & rest & q1 & E1 & _ & _ & B1 & B2 & B3).
    destruct (A3 i r (changes_of T m c) Er) with (2 := E1) as (Hfin & _); [rewrite nth_error_map, Ec; reflexivity|].
    assert (gives_some (changes_of T m c) <-> touched T m c) as Hgt.
    { unfold gives_some, touched. split.
      - intros (v & Hi). apply In_nth_error in Hi as (k & Ek). assert (exists p, nth_error (properties_of (c_decl c)) k = Some p) as (p & Ep).
        { destruct (nth_error (properties_of (c_decl c)) k) eqn:En; [eauto|]. apply nth_error_None in En. rewrite <- (changes_length T m c) in En. assert (k < List.length (changes_of T m c)) by (apply nth_error_Some; congruence). lia. }
        assert (given (properties_of (c_decl c)) (changes_of T m c) p v) as Hg by (exists k; auto). apply given_iff in Hg as (css & Hn & Em). eauto 10.
      - intros (css & p & v & Hn & Em). assert (given (properties_of (c_decl c)) (changes_of T m c) p v) as (k & _ & Ek) by (apply given_iff; eauto). exists v. eapply nth_error_In; eauto. }
    rewrite Hfin, <- Hau. split; [|split].
    + intros old Eo. destruct (B1 old Eo) as (new & En & _ & Hset & _). exists new. split; [exact En|]. rewrite Hp in Hset. eapply set_css_set; eauto.
    + intros Eo Ha Htc. destruct (B2 Eo Ha (proj2 Hgt Htc)) as (new & En & _ & Hset & _). exists new. split; [exact En|]. rewrite Hp in Hset. eapply set_css_set; eauto.
    + intros Eo Ha. apply B3; [exact Eo|]. rewrite Hgt. exact Ha.
  - intros ty Hty. destruct (A1 ty Hty) as (Hc & Hq). rewrite flush_other by exact Hq. exact Hc.
Qed.

(** Each CSS property is the field that its name stands for, and every field has a CSS property, with the three exceptions. *)
Theorem C98_own_place : forall T css c p, In c (components T) -> named T css c p -> (c_name c, in_words (p_path p)) = stands_for css.
Proof.
  intros T css c p Hc H. pose proof (named_in_table _ _ _ _ H) as Hi. destruct H as (k & E & Ek).
  assert (forallb (fun css => forallb (fun c => match resolve T css with
            | Some (n, k) => negb (String.eqb n (c_name c)) || match nth_error (properties_of (c_decl c)) k with
                | Some p => String.eqb (c_name c) (fst (stands_for css)) && String.eqb (in_words (p_path p)) (snd (stands_for css)) | None => true end
            | None => true end) (components T)) (map fst css_table) = true) as Ha by (vm_compute; reflexivity).
  rewrite forallb_forall in Ha. specialize (Ha css Hi). rewrite forallb_forall in Ha. specialize (Ha c Hc). rewrite E, Ek, String.eqb_refl in Ha. cbn [negb orb] in Ha.
  apply andb_prop in Ha as (H1 & H2). apply String.eqb_eq in H1, H2. rewrite H1, H2. destruct (stands_for css); reflexivity.
Qed.
Theorem C98_every_field : forall T c p, In c (components T) -> In p (properties_of (c_decl c)) -> (exists css, named T css c p) \/ In (c_name c, in_words (p_path p)) without_css.
Proof.
  intros T c p Hc Hp. apply In_nth_error in Hp as (k & Ek).
  assert (forallb (fun c => forallb (fun k => match css_at T c k with Some _ => true | None =>
            match nth_error (properties_of (c_decl c)) k with Some p => existsb (fun x => String.eqb (fst x) (c_name c) && String.eqb (snd x) (in_words (p_path p))) without_css | None => true end end)
            (seq 0 (List.length (properties_of (c_decl c))))) (components T) = true) as Ha by (vm_compute; reflexivity).
  rewrite forallb_forall in Ha. specialize (Ha c Hc). rewrite forallb_forall in Ha. specialize (Ha k). rewrite Ek in Ha.
  assert (In k (seq 0 (List.length (properties_of (c_decl c))))) as Hk by (apply in_seq; split; [lia|]; apply nth_error_Some; congruence). specialize (Ha Hk). destruct (css_at T c k) as [css|] eqn:Es.
  - left. exists css, k. split; [|exact Ek]. unfold css_at in Es. apply find_some in Es as (_ & Es). destruct (resolve T css) as [(n & j)|]; [|discriminate]. apply andb_prop in Es as (E1 & E2). apply String.eqb_eq in E1. apply Nat.eqb_eq in E2. subst. reflexivity.
  - right. apply existsb_exists in Ha as (x & Hx & E). apply andb_prop in E as (E1 & E2). apply String.eqb_eq in E1, E2. rewrite <- E1, <- E2. destruct x. exact Hx.
Qed.

(** The CSS properties that are inherited. *)
Theorem C98_inherited : forall css, inherited css = true <-> In css ["color"; "font-family"; "font-size"; "line-height"; "-bevy-font-smooth"; "text-align"; "-bevy-line-break"].
Proof.
  intros css. unfold inherited. split.
  - destruct (lookup css css_table) as [(c & p)|] eqn:El; [|discriminate]. intros H. apply lookup_in in El.
    assert (forallb (fun x => negb (existsb (String.eqb (fst (snd x))) inherited_components) || existsb (String.eqb (fst x)) ["color"; "font-family"; "font-size"; "line-height"; "-bevy-font-smooth"; "text-align"; "-bevy-line-break"]) css_table = true) as Ha by (vm_compute; reflexivity).
    rewrite forallb_forall in Ha. specialize (Ha _ El). cbn [fst snd] in Ha. rewrite H in Ha. apply existsb_exists in Ha as (y & Hy & Eq). apply String.eqb_eq in Eq. subst. exact Hy.
  - intros H. assert (forallb (fun css => match lookup css css_table with Some (c, _) => existsb (String.eqb c) inherited_components | None => false end) ["color"; "font-family"; "font-size"; "line-height"; "-bevy-font-smooth"; "text-align"; "-bevy-line-break"] = true) as Ha by (vm_compute; reflexivity).
    rewrite forallb_forall in Ha. apply (Ha css H).
Qed.

(** The hypotheses can be met: an application in which all fields have one opaque type. *)
Definition ex_T (_ : string) : ty := TOpaque 0.
Fixpoint ty_of (d : desc) : string * ty := match d with Leaf x t => (x, t) | Nested x ds => (x, TFields false (map ty_of ds)) end.
Definition decl_ty (d : declaration) : ty := match d with Listed ds => TFields false (map ty_of ds) | Itself t => t end.
Fixpoint val_of (v : N) (d : desc) : string * rv := match d with Leaf x _ => (x, Opaque 0 v) | Nested x ds => (x, Fields false (map (val_of v) ds)) end.
Definition decl_val (v : N) (d : declaration) : rv := match d with Listed ds => Fields false (map (val_of v) ds) | Itself _ => Opaque 0 v end.
Fixpoint distinct (l : list string) : bool := match l with [] => true | x :: l => negb (existsb (String.eqb x) l) && distinct l end.
Fixpoint simple (d : desc) : bool := match d with Leaf _ t => match t with TOpaque 0 => true | _ => false end | Nested _ ds => distinct (map desc_name ds) && forallb simple ds end.
Definition simple_decl (d : declaration) : bool := match d with Listed ds => distinct (map desc_name ds) && forallb simple ds | Itself (TOpaque 0) => true | _ => false end.
Lemma distinct_spec l : distinct l = true -> NoDup l.
Proof.
  induction l as [|x l IH]; cbn; [constructor|]. intros H. apply andb_prop in H as (H1 & H2). constructor; [|auto]. intros Hi. apply Bool.negb_true_iff, Bool.not_true_iff_false in H1. apply H1, existsb_exists. exists x. rewrite String.eqb_refl. auto.
Qed.
Lemma ty_of_name d : fst (ty_of d) = desc_name d. Proof. destruct d; reflexivity. Qed.
Lemma lookup_ty_of ds d : NoDup (map desc_name ds) -> In d ds -> lookup (desc_name d) (map ty_of ds) = Some (snd (ty_of d)).
Proof.
  induction ds as [|e ds IH]; intros Hn Hi; [destruct Hi|]. inversion Hn; subst. cbn. destruct (ty_of e) as (y & u) eqn:E. pose proof (ty_of_name e) as Hy. rewrite E in Hy. cbn in Hy. subst y.
  destruct Hi as [-> | Hi]; [rewrite String.eqb_refl, E; reflexivity|]. destruct (String.eqb_spec (desc_name d) (desc_name e)) as [Eq|]; [|auto]. exfalso. apply H1. rewrite <- Eq. apply in_map. exact Hi.
Qed.
Lemma simple_desc v d : simple d = true -> proper (snd (ty_of d)) /\ typed (snd (ty_of d)) (snd (val_of v d)) /\ (forall ds, NoDup (map desc_name ds) -> In d ds -> describes (map ty_of ds) d).
Proof.
  induction d as [x t | x ds IH] using desc_ind'; cbn [simple ty_of val_of snd].
  - destruct t as [[|]| | |]; try discriminate. intros _. split; [constructor|]. split; [constructor|]. intros ds Hn Hi. constructor. apply (lookup_ty_of ds _ Hn Hi).
  - intros H. apply andb_prop in H as (Hd & Hf). apply distinct_spec in Hd. rewrite forallb_forall in Hf. rewrite Forall_forall in IH.
    assert (map fst (map ty_of ds) = map desc_name ds) as Em by (rewrite map_map; apply map_ext; apply ty_of_name). split; [|split].
    + constructor; [rewrite Em; exact Hd|]. apply Forall_forall. intros p Hp. apply in_map_iff in Hp as (d & <- & Hd'). apply IH; auto.
    + constructor. clear Hd Em. induction ds as [|d ds IHd]; cbn; [constructor|]. destruct (IH d (or_introl eq_refl) (Hf d (or_introl eq_refl))) as (_ & Ht & _).
      destruct (ty_of d) as (y & u) eqn:Ey, (val_of v d) as (z & w) eqn:Ez. assert (y = z) as -> by (destruct d; cbn in *; congruence). constructor; [exact Ht|]. apply IHd; intros; [apply IH | apply Hf]; try right; assumption.
    + intros ds' Hn Hi. econstructor; [apply (lookup_ty_of ds' _ Hn Hi) | exact Hd |]. apply Forall_forall. intros d Hd'. apply IH; auto.
Qed.
Lemma simple_decl_ok v d : simple_decl d = true -> proper (decl_ty d) /\ declares (decl_ty d) d /\ typed (decl_ty d) (decl_val v d).
Proof.
  destruct d as [ds|[[|]| | |]]; cbn [simple_decl decl_ty decl_val]; try discriminate.
  - intros H. assert (simple (Nested "" ds) = true) as Hs by exact H. destruct (simple_desc v _ Hs) as (H1 & H2 & _). split; [exact H1|]. split; [|exact H2].
    apply andb_prop in H as (Hd & Hf). apply distinct_spec in Hd. rewrite forallb_forall in Hf. constructor; [exact Hd|]. apply Forall_forall. intros d Hi. apply (simple_desc v d (Hf d Hi)); assumption.
  - intros _. split; [constructor|]. split; [apply declares_itself | constructor].
Qed.
Definition ex_types : list ty := map (fun c => decl_ty (c_decl c)) (components ex_T).
Definition ex_R : list registration := map (fun x => mkregistration (N.of_nat (fst x)) (properties_of (c_decl (snd x))) (decl_val 0 (c_decl (snd x))) (c_auto (snd x)) true) (combine (seq 0 16) (components ex_T)).
(** a node with a background color, all fields 1, and no outline; then three CSS properties *)
Definition ex_e : entity := mkentity (fun t => if N.ltb t 2 then option_map (fun c => decl_val 1 (c_decl c)) (nth_error (components ex_T) (N.to_nat t)) else None) [].
Definition ex_m (css : string) : option rv := if String.eqb css "margin-left" then Some (Opaque 0 7) else if String.eqb css "outline-width" then Some (Opaque 0 8) else if String.eqb css "color" then Some (Opaque 0 9) else None.
Example C98_example : set_up ex_T ex_types ex_R /\ typed_entity ex_types ex_R ex_e /\ typed_values ex_T ex_m /\
  let e' := apply_changes ex_R ex_e (map (changes_of ex_T ex_m) (components ex_T)) in
  option_map (element ["margin"; "left"]) (comps e' 0) = Some (Some (Opaque 0 7)) /\ option_map (element ["margin"; "right"]) (comps e' 0) = Some (Some (Opaque 0 1)) /\
  comps e' 1 = comps ex_e 1 /\ comps e' 2 = Some (Fields false [("width", Opaque 0 8); ("offset", Opaque 0 0); ("color", Opaque 0 0)]) /\ comps e' 10 = None /\ seen e' = [2%N].
Proof.
  assert (forallb (fun c => simple_decl (c_decl c)) (components ex_T) = true) as Hall by (vm_compute; reflexivity). rewrite forallb_forall in Hall.
  assert (forall i r c, nth_error ex_R i = Some r -> nth_error (components ex_T) i = Some c ->
    r_type r = N.of_nat i /\ r_props r = properties_of (c_decl c) /\ r_auto r = c_auto c /\ r_default r = decl_val 0 (c_decl c)) as HR.
  { intros i r c Er Ec. unfold ex_R in Er. rewrite nth_error_map in Er. destruct (nth_error (combine (seq 0 16) (components ex_T)) i) as [(j & c')|] eqn:E; [|discriminate].
    assert (i < 16) as Hi by (change 16 with (List.length (components ex_T)); apply nth_error_Some; congruence).
    assert (nth_error (combine (seq 0 16) (components ex_T)) i = Some (i, c)) as E2.
    { clear - Hi Ec. do 16 (destruct i as [|i]; [cbn in Ec |- *; congruence|]). lia. }
    rewrite E2 in E. injection E as <- <-. cbn in Er. injection Er as <-. cbn. auto. }
  split; [|split; [|split]].
  - constructor; [reflexivity | reflexivity | |].
    + vm_compute. repeat (constructor; [cbn; intuition discriminate|]). constructor.
    + intros i c r t Ec Er Et. destruct (HR i r c Er Ec) as (_ & H2 & H3 & H4). unfold ex_types in Et. rewrite nth_error_map, Ec in Et. cbn in Et. injection Et as <-.
      destruct (simple_decl_ok 0 (c_decl c) (Hall c (nth_error_In _ _ Ec))) as (P1 & P2 & P3). rewrite H4. auto.
  - intros i r t c Er Et Ecomp. unfold ex_types in Et. rewrite nth_error_map in Et. destruct (nth_error (components ex_T) i) as [k|] eqn:Ek; [|discriminate]. cbn in Et. injection Et as <-.
    destruct (HR i r k Er Ek) as (H1 & _). rewrite H1 in Ecomp. unfold ex_e in Ecomp. cbn [comps] in Ecomp. destruct (N.ltb _ 2); [|discriminate]. rewrite Nnat.Nat2N.id, Ek in Ecomp. cbn [option_map] in Ecomp. injection Ecomp as <-.
    apply (simple_decl_ok 1 (c_decl k) (Hall k (nth_error_In _ _ Ek))).
  - intros css c p v Hc (k & _ & Ep) Em. assert (p_type p = TOpaque 0) as ->.
    { assert (forallb (fun c => forallb (fun p => match p_type p with TOpaque 0 => true | _ => false end) (properties_of (c_decl c))) (components ex_T) = true) as Ha by (vm_compute; reflexivity).
      rewrite forallb_forall in Ha. specialize (Ha c Hc). rewrite forallb_forall in Ha. specialize (Ha p (nth_error_In _ _ Ep)). destruct (p_type p) as [[|]| | |]; try discriminate. reflexivity. }
    unfold ex_m in Em. destruct (String.eqb css "margin-left"); [injection Em as <-; constructor|]. destruct (String.eqb css "outline-width"); [injection Em as <-; constructor|]. destruct (String.eqb css "color"); [injection Em as <-; constructor | discriminate].
  - vm_compute. auto 10.
Qed.

Print Assumptions C98_names_resolve. Print Assumptions C98_own_place. Print Assumptions C98_every_field. Print Assumptions C98_names_distinct. Print Assumptions C98_shorthands. Print Assumptions C98_each_sets_its_own_partial. Print Assumptions C98_inherited.
