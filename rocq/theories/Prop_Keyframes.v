(** C68-C71: @keyframes. *)
From Coq Require Import QArith Sorted Lqa Lia.
From Verif Require Import Base Inherit Calc CalcSpec Interp InterpSpec InterpProofs Keyframes KeyframesSpec KeyframesProofs KeyframesProofs2 KeyframesProofs3 KeyframesProofs4.
Open Scope nat_scope.

(** ** C68. Whatever calls are made on the builder, with whatever times (also NaN, infinite, negative or beyond 1), and whatever the
    blocks of an @keyframes rule are, the keyframes built start at 0%, end at 100%, and are in ascending order, no two at the same moment *)
Theorem C68_built : forall (V D T : Type) (calls : list (ftime * @action V D T)), from_0_to_1 (build (run_calls calls)).
Proof. intros. apply build_shape, binv_run. Qed.
Theorem C68_loaded : forall (V D T : Type) (bs : list (block V D T)), from_0_to_1 (load bs).
Proof. intros. apply load_shape. Qed.
(** Selectors mean what CSS says they mean, and nothing else is accepted *)
Theorem C68_selectors : forall t q, parse_keyframe t = Some q <-> selects t q.
Proof. exact parse_selects. Qed.
Theorem C68_selector_lists : forall l qs, parse_prelude l = Some qs <-> Forall2 selects l qs.
Proof.
  induction l as [|t l IH]; intros qs; simpl.
  - split; intros H; [injection H as <-; constructor|inversion H; reflexivity].
  - destruct (parse_keyframe t) as [q|] eqn:Et; [apply parse_selects in Et|].
    + destruct (parse_prelude l) as [ps|] eqn:El.
      * split; intros H.
        -- injection H as <-. constructor; [exact Et|apply IH; reflexivity].
        -- inversion H as [|? q' ? ps' Hq Hl]; subst. apply IH in Hl. apply parse_selects in Et, Hq. congruence.
      * split; intros H; [discriminate|]. inversion H as [|? q' ? ps' Hq Hl]; subst. apply IH in Hl. discriminate.
    + split; intros H; [discriminate|]. inversion H as [|? q' ? ps' Hq Hl]; subst. apply parse_selects in Hq. congruence.
Qed.
(** If different moments are more than 0.1% apart, then there is one keyframe for each moment of the source, with exactly the declarations of all
    the blocks for that moment in source order, and the last timing function given for it *)
Theorem C68_content : forall (V D T : Type) (bs : list (block V D T)), separated (0%Q :: 1%Q :: times_of bs) ->
  (forall k, In k (load bs) -> kf_props k = at_time props_of (kf_time k) bs /\ kf_timing k = last_opt (at_time timings_of (kf_time k) bs) /\
     In (kf_time k) (0%Q :: 1%Q :: times_of bs)) /\
  (forall t, In t (times_of bs) -> exists k, In k (load bs) /\ (kf_time k == t)%Q).
Proof. intros. apply load_content; assumption. Qed.
(** In any case no declaration is lost: it is in a keyframe at most 0.1% away *)
Theorem C68_nothing_lost : forall (V D T : Type) (calls : list (ftime * @action V D T)) (t : Q) ps,
  In (Fin t, AddProps ps) calls -> (0 <= t <= 1)%Q ->
  exists k, In k (build (run_calls calls)) /\ (kf_time k - (1 # 1000) <= t <= kf_time k + (1 # 1000))%Q /\ exists a b, kf_props k = a ++ ps ++ b.
Proof. intros. apply run_near; assumption. Qed.

(** ** C69, C70: resolved keyframes *)
Section R.
  Context {V E D T : Type}.
  Variable dyn : D -> list (nat * pvalue V).
  Variable unset : nat -> pvalue V.
  Variable initial : nat -> V.
  Variables pending computed : nat -> cvalue V.
  Variable resolve_timing : T -> option E.
  Variable animatable : V -> bool.
  Variable interp : V -> V -> Q -> V.
  Variable ease : E -> Q -> Q.
  Variable default_easing : E.
  Notation RES := (resolve dyn unset initial pending computed resolve_timing animatable interp default_easing).
  Notation DECL := (declared dyn unset initial).

  (** Resolving does not panic and does not depend on the order in which the hash set of properties is visited *)
  Theorem C69_total_and_deterministic : forall order order' (ks : list (keyframe V D T)), from_0_to_1 ks ->
    enumerates dyn unset initial order ks -> enumerates dyn unset initial order' ks ->
    exists m m', RES order ks = Some m /\ RES order' ks = Some m' /\ forall p, m p = m' p.
  Proof.
    intros order order' ks Hk. apply resolve_order. destruct Hk as (_ & (k & r & -> & _) & _). discriminate.
  Qed.
  (** A property is animated iff some keyframe declares it and all the keyframes that matter to it have a value
      (for properties whose values can be interpolated). *)
  Theorem C69_which : forall order (ks : list (keyframe V D T)), from_0_to_1 ks -> enumerates dyn unset initial order ks -> (forall v, animatable v = true) ->
    exists m, RES order ks = Some m /\
    forall p, m p <> None <-> mentioned dyn unset initial ks p /\ Forall (fun x => exists v, snd x = CVal v) (anchors dyn unset initial pending computed p ks).
  Proof.
    intros order ks Hk Ho Ha. destruct (tracks dyn unset initial pending computed resolve_timing animatable interp default_easing order ks Hk Ho) as (m & Hm & _ & H).
    exists m. split; [exact Hm|]. intros p. rewrite (H Ha p). split; intros [H1 H2]; split; auto; (eapply Forall_impl; [|exact H2]); intros [t [|v]]; simpl; intros Hx; eauto; try contradiction; try (destruct Hx; discriminate).
  Qed.
  (** Its track has exactly the keyframes' times; a keyframe that declares it gets the declared value; the first and the last that do not
      get the current value *)
  Theorem C69_values : forall order (ks : list (keyframe V D T)), from_0_to_1 ks -> enumerates dyn unset initial order ks ->
    exists m, RES order ks = Some m /\
    forall p track, m p = Some track ->
      map pk_time track = map kf_time ks /\
      Forall2 (fun k x => forall v, DECL k p = Some v -> v = CVal (pk_value x)) ks track /\
      (forall k r x l, ks = k :: r -> track = x :: l -> DECL k p = None -> CVal (pk_value x) = match pending p with CNone => computed p | c => c end) /\
      (forall k r x l, ks = r ++ [k] -> track = l ++ [x] -> DECL k p = None -> CVal (pk_value x) = match pending p with CNone => computed p | c => c end).
  Proof.
    intros order ks Hk Ho. destruct (tracks dyn unset initial pending computed resolve_timing animatable interp default_easing order ks Hk Ho) as (m & Hm & H & _).
    exists m. split; [exact Hm|]. intros p track Ht. destruct (H p track Ht) as (_ & H1 & _ & H2 & H3 & H4). split; [exact H1|]. split; [exact H2|].
    split; intros k r x l Hkr Hx Hd; [rewrite (H3 k r x l Hkr Hx)|rewrite (H4 k r x l Hkr Hx)]; rewrite Hd; reflexivity.
  Qed.

  (** ** C70. At a keyframe's own moment the animated value is the keyframe's; between two neighbouring keyframes it is the interpolation of their
      values at the progress the timing function of the former says, where that is the former's own, if it gives a valid one,
      and else the animation's *)
  Theorem C70_sampling : forall order (ks : list (keyframe V D T)), from_0_to_1 ks -> enumerates dyn unset initial order ks ->
    exists m, RES order ks = Some m /\
    forall p track, m p = Some track -> exists value_at : nat -> V,
      (forall i k, nth_error ks i = Some k ->
         (forall v, DECL k p = Some v -> v = CVal (value_at i)) /\
         forall x, (x == kf_time k)%Q -> sample_keyframes interp ease track x = Some (value_at i)) /\
      (forall i k k' x, nth_error ks i = Some k -> nth_error ks (S i) = Some k' -> (kf_time k < x < kf_time k')%Q ->
         let e := match kf_timing k with Some t => match resolve_timing t with Some e => e | None => default_easing end | None => default_easing end in
         sample_keyframes interp ease track x = Some (interp (value_at i) (value_at (S i)) (ease e ((x - kf_time k) / (kf_time k' - kf_time k))%Q))).
  Proof.
    intros order ks Hk Ho. destruct (tracks dyn unset initial pending computed resolve_timing animatable interp default_easing order ks Hk Ho) as (m & Hm & H & _).
    exists m. split; [exact Hm|]. intros p track Ht. destruct (H p track Ht) as (_ & H1 & H2 & H3 & _).
    pose proof (shape_sorted ks Hk) as Hs. rewrite <- H1 in Hs. assert (Hlen : length track = length ks) by (rewrite <- (map_length pk_time), H1, map_length; reflexivity).
    assert (Hl : 2 <= length track) by (rewrite Hlen; apply Hk).
    assert (Hnth : forall i k, nth_error ks i = Some k -> exists x, nth_error track i = Some x /\ pk_time x = kf_time k /\
        pk_easing x = resolve_easing resolve_timing default_easing (kf_timing k) /\ forall v, DECL k p = Some v -> v = CVal (pk_value x)).
    { intros i k Hi. destruct (nth_error track i) as [x|] eqn:Ex.
      - exists x. split; [reflexivity|].
        assert (E1 : nth_error (map pk_time track) i = nth_error (map kf_time ks) i) by congruence. rewrite (map_nth_error _ _ _ Ex), (map_nth_error _ _ _ Hi) in E1.
        assert (E2 : nth_error (map pk_easing track) i = nth_error (map (fun k => resolve_easing resolve_timing default_easing (kf_timing k)) ks) i) by congruence.
        rewrite (map_nth_error _ _ _ Ex), (map_nth_error _ _ _ Hi) in E2. split; [congruence|]. split; [congruence|].
        clear - H3 Hi Ex. revert i Hi Ex. induction H3 as [|k' x' ks l Hx H3 IH]; intros [|i] Hi Ex; try discriminate; simpl in *; [|eauto].
        injection Hi as <-. injection Ex as <-. exact Hx.
      - apply nth_error_None in Ex. assert (i < length ks) by (apply nth_error_Some; congruence). lia. }
    assert (Hx0 : exists x0, nth_error track 0 = Some x0) by (destruct track; [simpl in Hl; lia|eexists; reflexivity]). destruct Hx0 as [x0 _].
    exists (fun i => match nth_error track i with Some x => pk_value x | None => pk_value x0 end). split.
    - intros i k Hi. destruct (Hnth i k Hi) as (x & Ex & Et & Ee & Ed). rewrite Ex. split; [exact Ed|].
      intros y Hy. apply nth_error_split in Ex. destruct Ex as (pre & post & -> & _).
      rewrite sample_at by (auto; rewrite Et; lra). rewrite from_eq. rewrite Et. apply Qeq_bool_iff in Hy. rewrite Hy. reflexivity.
    - intros i k k' y Hi Hi' Hy e. destruct (Hnth i k Hi) as (x & Ex & Et & Ee & Ed), (Hnth (S i) k' Hi') as (x' & Ex' & Et' & _). rewrite Ex, Ex'.
      apply nth_error_split in Ex. destruct Ex as (pre & post & -> & Hp). rewrite nth_error_app2 in Ex' by lia.
      replace (S i - length pre) with 1 in Ex' by lia. destruct post as [|x2 post]; [discriminate|]. simpl in Ex'. injection Ex' as ->.
      rewrite sample_at by (auto; rewrite Et; lra). rewrite from_eq, Et, Et'.
      destruct (Qeq_bool y (kf_time k)) eqn:Eq; [apply Qeq_bool_eq in Eq; lra|].
      destruct (Qle_bool (kf_time k') y) eqn:El; [apply Qle_bool_iff in El; lra|]. rewrite Ee. reflexivity.
  Qed.
End R.

(** ** C69/C71 for the values of the animated types *)
Section P.
  Context {E D T : Type}.
  Variable dyn : D -> list (nat * pvalue value).
  Variable unset : nat -> pvalue value.
  Variable initial : nat -> value.
  Variables pending computed : nat -> cvalue value.
  Variable resolve_timing : T -> option E.
  Variable ease : E -> Q -> Q.
  Variable default_easing : E.
  Notation RES := (resolve dyn unset initial pending computed resolve_timing (fun _ => true) interpolate default_easing).
  Notation ANCH := (anchors dyn unset initial pending computed).

  Lemma poly_track order (ks : list (keyframe value D T)) pts p : from_0_to_1 ks -> enumerates dyn unset initial order ks -> mentioned dyn unset initial ks p ->
    ANCH p ks = map (fun x => (fst x, CVal (snd x))) pts -> can_follow pts ->
    exists m track, RES order ks = Some m /\ m p = Some track /\ map pk_time track = map kf_time ks /\
      Forall (fun x => on_poly (map (fun x => (fst x, flat (snd x))) pts) (pk_time x) (flat (pk_value x))) track /\
      (Forall (is_linear ease) (map pk_easing track) -> forall x, (0 <= x <= 1)%Q ->
         exists v, sample_keyframes interpolate ease track x = Some v /\ on_poly (map (fun x => (fst x, flat (snd x))) pts) x (flat v)) /\
      map pk_easing track = map (fun k => resolve_easing resolve_timing default_easing (kf_timing k)) ks.
  Proof.
    intros Hk [Hn Ho] Hm Ha Hf. pose proof (shape_sorted ks Hk) as Hs.
    destruct (resolve_char dyn unset initial pending computed resolve_timing (fun _ => true) interpolate default_easing order ks) as (m & Hm' & Hp); [destruct Hk as (_ & (k & r & -> & _) & _); discriminate|exact Hn|].
    exists m. destruct (Hp p) as (vs & Hvs & Hlen & Hmp). fold (kcol dyn unset initial p ks) in Hvs.
    assert (Hr01 : exists k r, ks = k :: r /\ (kf_time k == 0)%Q) by apply Hk. destruct Hr01 as (k & r & -> & H0).
    rewrite ccol_eq in Hvs. cbv zeta in Hvs. cbn [anchors] in Ha.
    set (v0 := or_current pending computed (declared dyn unset initial k p) p) in *.
    destruct pts as [|[t0 a0] pts]; [discriminate|]. cbn [map fst snd] in Ha. injection Ha as <- Ha0 Ha. rewrite Ha0 in Hvs.
    rewrite <- clast_somes in Ha.
    set (col := clast (current_value pending computed p) (kcol dyn unset initial p r)) in *.
    assert (Hc1 : map fst col = map kf_time r) by (unfold col; rewrite clast_fst, kcol_fst; reflexivity).
    destruct (crest_poly ease col (kf_time k) a0 (kf_time k) a0 pts) as (ws & Hws & Hpoly & Hsample).
    { rewrite Hc1. exact Hs. }
    { apply clast_ends. }
    { exact Ha. }
    { split; [lra|]. rewrite cnext_somes, Ha. destruct pts as [|[tB b] pts]; cbn [map fst snd].
      - split; reflexivity.
      - destruct Hf as (Hcomp & _). eapply on_line_ext; [|apply on_line_start; exact Hcomp].
        assert (Hin : In tB (map fst col)).
        { assert (Hnx : cnext col = Some (tB, CVal b)) by (rewrite cnext_somes, Ha; reflexivity). apply cnext_in in Hnx. apply Hnx. }
        rewrite Hc1 in Hin. simpl in Hs. inversion Hs as [|? ? _ Hlt]; subst. rewrite Forall_forall in Hlt. specialize (Hlt _ Hin). field; intros HH; lra. }
    { exact Hf. }
    rewrite Hws in Hvs. simpl in Hvs. injection Hvs as <-. simpl in Hlen. injection Hlen as Hlen. rewrite map_length in Hlen.
    assert (Hex : existsb (Nat.eqb p) order = true) by (apply existsb_In, Ho, Hm). rewrite Hex in Hmp.
    assert (Hall : all_values (CVal a0 :: map CVal ws) = true) by (apply all_values_iff; constructor; [exact I|]; apply Forall_forall; intros x Hx; apply in_map_iff in Hx; destruct Hx as (w & <- & _); exact I).
    rewrite Hall in Hmp. simpl andb in Hmp. cbv iota in Hmp.
    destruct (ctrack_full (map kf_time (k :: r)) (a0 :: ws) (map (fun k => resolve_easing resolve_timing default_easing (kf_timing k)) (k :: r))) as (C1 & C2 & C3).
    { simpl. rewrite map_length. congruence. }
    { simpl. rewrite !map_length. reflexivity. }
    change (map CVal (a0 :: ws)) with (CVal a0 :: map CVal ws) in C1, C2, C3.
    eexists. split; [exact Hm'|]. split; [exact Hmp|]. split; [exact C1|]. split; [|split; [|exact C3]].
    - cbn [map ctrack]. constructor; [simpl; apply at_point; [reflexivity|apply same_refl]|].
      rewrite <- Hc1. set (es := map _ r). assert (Hes : length es = length col) by (unfold es; rewrite map_length, <- (map_length fst col), Hc1, map_length; reflexivity).
      clearbody es. clear - Hpoly Hes. revert es Hes. cbn [map fst snd]. unfold pts_of in Hpoly. induction Hpoly as [|[t o] w l ws Hw Hpoly IH]; intros [|e es] Hes; try discriminate; [constructor|].
      cbn [map ctrack fst]. constructor; [exact Hw|]. apply IH. simpl in Hes. congruence.
    - intros Hlin x Hx.
      assert (Hss : StronglySorted Qlt (map pk_time (ctrack (map kf_time (k :: r)) (CVal a0 :: map CVal ws) (map (fun k => resolve_easing resolve_timing default_easing (kf_timing k)) (k :: r))))) by (rewrite C1; exact Hs).
      assert (Hl2 : 2 <= length (ctrack (map kf_time (k :: r)) (CVal a0 :: map CVal ws) (map (fun k => resolve_easing resolve_timing default_easing (kf_timing k)) (k :: r)))).
      { rewrite <- (map_length pk_time), C1, map_length. apply Hk. }
      rewrite C3 in Hlin. cbn [map ctrack] in Hss, Hl2 |- *.
      eexists. split.
      + apply (sample_at interpolate ease []); [exact Hss|exact Hl2|]. simpl. lra.
      + rewrite <- Hc1. apply Hsample.
        * rewrite map_length, <- (map_length fst col), Hc1, map_length. reflexivity.
        * exact Hlin.
        * lra.
        * destruct Hk as (_ & _ & (r1 & k1 & Hr1 & H1) & _). exists (kf_time k1). split; [|lra]. rewrite Hc1.
          change (In (kf_time k1) (map kf_time (k :: r))). rewrite Hr1. apply in_map, in_or_app. right; left; reflexivity.
  Qed.

  (** C69, the keyframes in between: one that does not declare the property gets a value on the straight line, in time, between the nearest
      keyframes that do (the ends always count) -- if these have the same skeleton and units *)
  Theorem C69_missing_on_line_partial : forall order (ks : list (keyframe value D T)) pts p,
    from_0_to_1 ks -> enumerates dyn unset initial order ks -> mentioned dyn unset initial ks p ->
    ANCH p ks = map (fun x => (fst x, CVal (snd x))) pts -> can_follow pts ->
    exists m track, RES order ks = Some m /\ m p = Some track /\ map pk_time track = map kf_time ks /\
      Forall (fun x => on_poly (map (fun x => (fst x, flat (snd x))) pts) (pk_time x) (flat (pk_value x))) track.
  Proof.
    intros order ks pts p Hk Ho Hm Ha Hf. destruct (poly_track order ks pts p Hk Ho Hm Ha Hf) as (m & track & H1 & H2 & H3 & H4 & _). exists m, track. auto.
  Qed.

  (** C71. With linear timing the animated value runs, at every moment, along the broken line through the keyframes that declare the
      property -- and hence a keyframe that does not mention a property does not change its animation *)
  Theorem C71_broken_line_partial : forall order (ks : list (keyframe value D T)) pts p,
    from_0_to_1 ks -> enumerates dyn unset initial order ks -> mentioned dyn unset initial ks p ->
    ANCH p ks = map (fun x => (fst x, CVal (snd x))) pts -> can_follow pts ->
    (forall e s, (0 <= s <= 1)%Q -> (ease e s == s)%Q) ->
    exists m track, RES order ks = Some m /\ m p = Some track /\
      forall x, (0 <= x <= 1)%Q -> exists v, sample_keyframes interpolate ease track x = Some v /\ on_poly (map (fun x => (fst x, flat (snd x))) pts) x (flat v).
  Proof.
    intros order ks pts p Hk Ho Hm Ha Hf Hlin. destruct (poly_track order ks pts p Hk Ho Hm Ha Hf) as (m & track & H1 & H2 & _ & _ & H5 & _). exists m, track. split; [exact H1|]. split; [exact H2|].
    apply H5. apply Forall_forall. intros e _. exact (Hlin e).
  Qed.

  Lemma later_app p (pre post : list (keyframe value D T)) : post <> [] ->
    later_anchors dyn unset initial pending computed p (pre ++ post) =
    flat_map (fun k => match declared dyn unset initial k p with Some v => [(kf_time k, v)] | None => [] end) pre ++ later_anchors dyn unset initial pending computed p post.
  Proof.
    intros Hp. induction pre as [|k pre IH]; [reflexivity|]. cbn [app later_anchors flat_map].
    destruct (pre ++ post) as [|k' l] eqn:El; [destruct pre; [simpl in El; congruence|discriminate]|].
    rewrite IH. destruct (declared dyn unset initial k p); reflexivity.
  Qed.
  Lemma anchors_drop p (pre post : list (keyframe value D T)) k : pre <> [] -> post <> [] -> declared dyn unset initial k p = None ->
    ANCH p (pre ++ k :: post) = ANCH p (pre ++ post).
  Proof.
    intros H1 H2 Hd. destruct pre as [|k0 pre]; [congruence|]. simpl app. cbn [anchors]. f_equal.
    rewrite !later_app by (auto; discriminate). f_equal. cbn [later_anchors]. destruct post; [congruence|]. rewrite Hd. reflexivity.
  Qed.
  Lemma anchors_sorted p (ks : list (keyframe value D T)) : StronglySorted Qlt (map kf_time ks) -> StronglySorted Qlt (map fst (ANCH p ks)).
  Proof.
    assert (Hl : forall ks : list (keyframe value D T), StronglySorted Qlt (map kf_time ks) -> StronglySorted Qlt (map fst (later_anchors dyn unset initial pending computed p ks)) /\
      forall t, In t (map fst (later_anchors dyn unset initial pending computed p ks)) -> In t (map kf_time ks)).
    { clear ks. intros ks. induction ks as [|k ks IH]; intros H; [split; [constructor|tauto]|]. simpl in H. inversion H as [|? ? H1 H2]; subst. destruct (IH H1) as [I1 I2].
      cbn [later_anchors]. destruct ks as [|k' ks]; [split; [repeat constructor|auto]|].
      destruct (declared dyn unset initial k p) eqn:Ed; (split; [|intros t Ht]).
      - simpl map. constructor; [exact I1|]. apply Forall_forall. intros t Ht. apply I2 in Ht. rewrite Forall_forall in H2. auto.
      - simpl in Ht. destruct Ht as [<-|Ht]; [left; reflexivity|right; apply I2; exact Ht].
      - exact I1.
      - right. apply I2. exact Ht. }
    destruct ks as [|k ks]; intros H; [constructor|]. simpl in H. inversion H as [|? ? H1 H2]; subst. destruct (Hl ks H1) as [I1 I2]. cbn [anchors map fst].
    constructor; [exact I1|]. apply Forall_forall. intros t Ht. apply I2 in Ht. rewrite Forall_forall in H2. auto.
  Qed.
  Theorem C71_unmentioned_partial : forall order order' pre k post p pts,
    let ks := pre ++ k :: post in let ks' := pre ++ post in
    from_0_to_1 ks -> from_0_to_1 ks' -> pre <> [] -> post <> [] ->
    enumerates dyn unset initial order ks -> enumerates dyn unset initial order' ks' ->
    mentioned dyn unset initial ks p -> @declared _ _ T dyn unset initial k p = None ->
    ANCH p ks = map (fun x => (fst x, CVal (snd x))) pts -> can_follow pts ->
    (forall e s, (0 <= s <= 1)%Q -> (ease e s == s)%Q) ->
    exists m m' track track', RES order ks = Some m /\ RES order' ks' = Some m' /\ m p = Some track /\ m' p = Some track' /\
      forall x, (0 <= x <= 1)%Q -> exists v v', sample_keyframes interpolate ease track x = Some v /\ sample_keyframes interpolate ease track' x = Some v' /\ same (flat v) (flat v').
  Proof.
    intros order order' pre k post p pts ks ks' Hk Hk' Hpre Hpost Ho Ho' Hm Hd Ha Hf Hlin.
    pose proof (anchors_drop p pre post k Hpre Hpost Hd) as Hdrop. fold ks ks' in Hdrop.
    assert (Hm' : mentioned dyn unset initial ks' p).
    { destruct Hm as (k1 & Hin & Hne). exists k1. split; auto. unfold ks in Hin. apply in_app_or in Hin. unfold ks'. apply in_or_app. destruct Hin as [Hin|[<-|Hin]]; auto. congruence. }
    destruct (C71_broken_line_partial order ks pts p Hk Ho Hm Ha Hf Hlin) as (m & track & H1 & H2 & H3).
    rewrite Hdrop in Ha. destruct (C71_broken_line_partial order' ks' pts p Hk' Ho' Hm' Ha Hf Hlin) as (m' & track' & H1' & H2' & H3').
    exists m, m', track, track'. repeat split; auto. intros x Hx. destruct (H3 x Hx) as (v & Hv & Hp), (H3' x Hx) as (v' & Hv' & Hp'). exists v, v'. repeat split; auto.
    eapply on_poly_unique; [|exact Hp|exact Hp']. rewrite map_map. simpl.
    pose proof (anchors_sorted p ks' (shape_sorted ks' Hk')) as Hs. rewrite Ha, map_map in Hs. exact Hs.
  Qed.
End P.

(** ** Examples and counterexamples: numbers, one easing [true] = steps(2), [false] = linear *)
Definition ex_ease (e : bool) (s : Q) : Q := if e then (inject_Z (Qround.Qfloor (2 * s)) / 2)%Q else s.
Definition ex_dyn (_ : Empty_set) : list (nat * pvalue value) := [].
Definition ex_unset (_ : nat) : pvalue value := PInitial.
Definition ex_initial (_ : nat) : value := AF32 0.
Definition ex_none (_ : nat) : cvalue value := CNone.
Definition ex_cur (_ : nat) : cvalue value := CVal (AF32 7).
Definition ex_res (e : bool) := resolve ex_dyn ex_unset ex_initial ex_none ex_cur (fun _ : unit => None) (fun _ : value => true) interpolate e.
Definition ex_num p q : kf_decl value Empty_set unit := KProps [Specific p (PVal (AF32 q))].
Definition ex_blk (q : Q) (l : list (kf_decl value Empty_set unit)) : block value Empty_set unit := ([KPercent q], l).
(** from: p0 = 0; 50%: p1 = 9, a timing function; to, given first: p0 = 100; an invalid selector list and an invalid declaration *)
Definition ex_src := [([KTo], [ex_num 0 100]); ([KFrom; KFrom], [ex_num 0 5; ex_num 0 0; KError]); ex_blk 50 [ex_num 1 9; KTiming tt]; ([KTo; KPercent 101], [ex_num 0 3])].
Definition ex_with_middle := load ex_src.
Definition ex_without := load [([KFrom], [ex_num 0 0]); ([KTo], [ex_num 0 100])].

Lemma ex_sh1 : from_0_to_1 ex_with_middle. Proof. apply C68_loaded. Qed.
Lemma ex_sh2 : from_0_to_1 ex_without. Proof. apply C68_loaded. Qed.
Lemma ex_mentioned_src p : mentioned ex_dyn ex_unset ex_initial ex_with_middle p <-> In p [1; 0].
Proof.
  split.
  - intros (k & Hk & Hd). simpl in Hk. unfold declared in Hd. destruct p as [|[|p]]; simpl; auto. destruct Hk as [<-|[<-|[<-|[]]]]; simpl in Hd; congruence.
  - intros [<-|[<-|[]]]; unfold mentioned.
    + exists (nth 1 ex_with_middle (mk_kf 0 [] None)). split; [right; left; reflexivity|discriminate].
    + exists (nth 0 ex_with_middle (mk_kf 0 [] None)). split; [left; reflexivity|discriminate].
Qed.
Lemma ex_enum1 : enumerates ex_dyn ex_unset ex_initial [1; 0] ex_with_middle.
Proof. split; [repeat constructor; simpl; intuition discriminate|]. intros p. symmetry. apply ex_mentioned_src. Qed.
Lemma ex_enum1' : enumerates ex_dyn ex_unset ex_initial [0; 1] ex_with_middle.
Proof. split; [repeat constructor; simpl; intuition discriminate|]. intros p. rewrite ex_mentioned_src. simpl. tauto. Qed.
Lemma ex_enum2 : enumerates ex_dyn ex_unset ex_initial [0] ex_without.
Proof.
  split; [repeat constructor; simpl; tauto|]. intros p. split.
  - intros [<-|[]]. exists (nth 0 ex_without (mk_kf 0 [] None)). split; [left; reflexivity|discriminate].
  - intros (k & Hk & Hd). simpl in Hk. unfold declared in Hd. destruct p as [|p]; simpl; auto. destruct Hk as [<-|[<-|[]]]; simpl in Hd; congruence.
Qed.

(** the source of the example is separated, and what the rules say about 0% is the two declarations *)
Example C68_ex_separated : separated (0%Q :: 1%Q :: times_of ex_src) /\ at_time props_of 0%Q ex_src <> [] /\ length ex_with_middle = 3.
Proof.
  split; [|split; [discriminate|reflexivity]]. intros a b Ha Hb. simpl in Ha, Hb.
  repeat (destruct Ha as [<-|Ha]; [repeat (destruct Hb as [<-|Hb]; [first [left; reflexivity|right; left; reflexivity|right; right; reflexivity]|]); destruct Hb|]). destruct Ha.
Qed.
Example C68_ex_odd_times : length (build (@run_calls value Empty_set unit [(NotANumber, SetTiming tt); (Fin (-(1)), SetTiming tt); (PosInf, SetTiming tt); (Fin (1 # 2), SetTiming tt); (Fin (5001 # 10000), AddProps [])])) = 3.
Proof. reflexivity. Qed.
Example C69_ex_resolved : exists m, ex_res false [1; 0] ex_with_middle = Some m /\
  option_map (map (fun x => (Qred (pk_time x), pk_value x))) (m 1) = Some [(0%Q, AF32 7); (1 # 2, AF32 9); (1%Q, AF32 7)].
Proof. eexists. split; [reflexivity|]. vm_compute. reflexivity. Qed.
Example C71_ex_anchors : exists pts, anchors ex_dyn ex_unset ex_initial ex_none ex_cur 0 ex_with_middle = map (fun x => (fst x, CVal (snd x))) pts /\ can_follow pts /\ length pts = 2 /\
  declared ex_dyn ex_unset ex_initial (nth 1 ex_with_middle (mk_kf 0 [] None)) 0 = None.
Proof.
  exists [(0%Q, AF32 0); (1%Q, AF32 100)]. split; [reflexivity|]. split; [|split; reflexivity].
  split; [repeat constructor|]. split; [exact (fun H => H)|exact I].
Qed.

(** C71 fails with other timing functions: with steps(2) the keyframe at 50%, which has nothing to do with property 0, changes its value at 30% *)
Theorem C71_steps_refuted : exists m m' track track' k, In k ex_with_middle /\ declared ex_dyn ex_unset ex_initial k 0 = None /\
  ex_res true [1; 0] ex_with_middle = Some m /\ ex_res true [0] ex_without = Some m' /\ m 0 = Some track /\ m' 0 = Some track' /\
  anchors ex_dyn ex_unset ex_initial ex_none ex_cur 0 ex_with_middle = anchors ex_dyn ex_unset ex_initial ex_none ex_cur 0 ex_without /\
  exists v v', sample_keyframes interpolate ex_ease track (3 # 10) = Some v /\ sample_keyframes interpolate ex_ease track' (3 # 10) = Some v' /\ ~ same (flat v) (flat v').
Proof.
  do 4 eexists. exists (nth 1 ex_with_middle (mk_kf 0 [] None)). split; [right; left; reflexivity|]. split; [reflexivity|].
  split; [reflexivity|]. split; [reflexivity|]. split; [vm_compute; reflexivity|]. split; [vm_compute; reflexivity|]. split; [reflexivity|].
  do 2 eexists. split; [vm_compute; reflexivity|]. split; [vm_compute; reflexivity|].
  intros H. inversion H as [|? ? ? ? _ H1]; subst. inversion H1 as [|? ? ? ? H2 _]; subst. vm_compute in H2. discriminate.
Qed.
(** C69 fails for mixed units: halfway between 10px and 50%, a keyframe ex_without the property gets 10px *)
Definition ex_lens : list (keyframe value Empty_set unit) :=
  load [([KFrom], [KProps [Specific 0 (PVal (AVal (VPx 10)))]]); ([KTo], [KProps [Specific 0 (PVal (AVal (VPercent 50)))]]); ex_blk 50 [ex_num 1 9]].
Theorem C69_mixed_units_refuted : exists pts m track, anchors ex_dyn ex_unset ex_initial ex_none ex_cur 0 ex_lens = map (fun x => (fst x, CVal (snd x))) pts /\
  (forall a b, In a (map snd pts) -> In b (map snd pts) -> same_shape (flat a) (flat b)) /\
  ex_res false [0; 1] ex_lens = Some m /\ m 0 = Some track /\
  ~ Forall (fun x => on_poly (map (fun x => (fst x, flat (snd x))) pts) (pk_time x) (flat (pk_value x))) track.
Proof.
  exists [(0%Q, AVal (VPx 10)); (1%Q, AVal (VPercent 50))]. do 2 eexists. split; [reflexivity|]. split.
  { intros a b [<-|[<-|[]]] [<-|[<-|[]]]; repeat constructor. }
  split; [reflexivity|]. split; [vm_compute; reflexivity|]. intros H. inversion H as [|? ? _ H1]; subst. inversion H1 as [|? ? H2 _]; subst. clear H H1.
  cbn [pk_time pk_value map fst snd] in H2.
  inversion H2 as [? ? ? ? ? He|? ? ? ? ? ? ? ? Hl|? ? ? ? H3]; subst; [vm_compute in He; discriminate| |].
  - inversion Hl as [|? ? ? ? ? ? _ H4]; subst. inversion H4 as [|? ? ? ? ? ? H5 _]; subst. destruct H5 as (_ & _ & H5). specialize (H5 Px). vm_compute in H5. discriminate.
  - inversion H3 as [? ? ? ? ? He|? ? ? ? ? ? ? ? Hl|? ? ? ? H4]; subst; [vm_compute in He; discriminate|]. inversion H4.
Qed.

Print Assumptions C68_built. Print Assumptions C68_loaded. Print Assumptions C68_selectors. Print Assumptions C68_selector_lists. Print Assumptions C68_content. Print Assumptions C68_nothing_lost.
Print Assumptions C69_total_and_deterministic. Print Assumptions C69_which. Print Assumptions C69_values. Print Assumptions C69_missing_on_line_partial. Print Assumptions C69_mixed_units_refuted.
Print Assumptions C70_sampling. Print Assumptions C71_broken_line_partial. Print Assumptions C71_unmentioned_partial. Print Assumptions C71_steps_refuted.
