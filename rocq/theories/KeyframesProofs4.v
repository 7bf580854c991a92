From Coq Require Import QArith Sorted Lqa Lia.
From Verif Require Import Base Inherit Keyframes Interp InterpSpec InterpProofs KeyframesSpec KeyframesProofs KeyframesProofs2 KeyframesProofs3.
Open Scope nat_scope.

Section A.
  Context {V D T : Type}.
  Variable dyn : D -> list (nat * pvalue V).
  Variable unset : nat -> pvalue V.
  Variable initial : nat -> V.
  Variables pending computed : nat -> cvalue V.
  Notation keyframe := (keyframe V D T).
  Notation CUR := (current_value pending computed).
  Definition kcol (p : nat) (ks : list keyframe) : list (Q * option (cvalue V)) := map (fun k => (kf_time k, declared dyn unset initial k p)) ks.
  Notation ANCH := (anchors dyn unset initial pending computed).
  Notation LATER := (later_anchors dyn unset initial pending computed).

  Lemma or_current_cens (k : keyframe) p : cens (CUR p) (kf_time k, declared dyn unset initial k p) = (kf_time k, Some (or_current pending computed (declared dyn unset initial k p) p)).
  Proof. unfold cens, or_current, current_value, c_or. simpl. destruct (declared _ _ _ k p), (pending p); auto. Qed.
  Lemma clast_somes p (ks : list keyframe) : somes (clast (CUR p) (kcol p ks)) = LATER p ks.
  Proof.
    unfold kcol. induction ks as [|k [|k' ks] IH]; [reflexivity| |].
    - cbn [map clast later_anchors]. rewrite or_current_cens. reflexivity.
    - cbn [map clast later_anchors] in *. cbn [somes flat_map] in *. unfold somes in *. rewrite IH. simpl.
      destruct (declared dyn unset initial k p); reflexivity.
  Qed.
  Lemma cens_cens cur (x : Q * option (cvalue V)) : cens cur (cens cur x) = cens cur x.
  Proof. unfold cens. destruct (snd x) eqn:E1; simpl; rewrite ?E1; auto. Qed.
  (** the shape of the column that is filled in *)
  Lemma column_shape p k (r : list keyframe) : clast (CUR p) (cfirst (CUR p) (kcol p (k :: r))) =
    (kf_time k, Some (or_current pending computed (declared dyn unset initial k p) p)) :: clast (CUR p) (kcol p r).
  Proof.
    destruct r as [|k' r]; cbn [kcol map cfirst clast].
    - rewrite cens_cens, or_current_cens. reflexivity.
    - rewrite or_current_cens. reflexivity.
  Qed.
  Lemma clast_fst cur (l : list (Q * option (cvalue V))) : map fst (clast cur l) = map fst l.
  Proof.
    induction l as [|x [|y l] IH]; [reflexivity| |].
    - cbn [clast map]. f_equal. unfold cens. destruct (snd x); reflexivity.
    - cbn [clast map] in *. f_equal. exact IH.
  Qed.
  Lemma kcol_fst p (ks : list keyframe) : map fst (kcol p ks) = map kf_time ks.
  Proof. unfold kcol. rewrite map_map. reflexivity. Qed.

  Lemma ss_weaken (R S : Q -> Q -> Prop) l : (forall a b, R a b -> S a b) -> StronglySorted R l -> StronglySorted S l.
  Proof. intros H Hs; induction Hs as [|a l Hs IH Hf]; constructor; auto. eapply Forall_impl; [|exact Hf]. intros b; apply H. Qed.
  Lemma shape_sorted (ks : list keyframe) : from_0_to_1 ks -> StronglySorted Qlt (map kf_time ks).
  Proof. intros (Hs & _). eapply ss_weaken; [|exact Hs]. simpl. intros; lra. Qed.

  (** ** Resolving *)
  Section R.
    Context {E : Type}.
    Variable resolve_timing : T -> option E.
    Variable animatable : V -> bool.
    Variable interp : V -> V -> Q -> V.
    Variable default_easing : E.
    Notation RES := (resolve dyn unset initial pending computed resolve_timing animatable interp default_easing).
    Notation EASE k := (resolve_easing resolve_timing default_easing (kf_timing k)).

    Lemma existsb_In p l : existsb (Nat.eqb p) l = true <-> In p l.
    Proof. rewrite existsb_exists. split; [intros (x & H & E1); apply Nat.eqb_eq in E1; subst; auto|intros H; exists p; split; auto; apply Nat.eqb_refl]. Qed.
    Lemma resolve_order order order' (ks : list keyframe) : ks <> [] -> enumerates dyn unset initial order ks -> enumerates dyn unset initial order' ks ->
      exists m m', RES order ks = Some m /\ RES order' ks = Some m' /\ forall p, m p = m' p.
    Proof.
      intros Hk [Hn Ho] [Hn' Ho'].
      destruct (resolve_char dyn unset initial pending computed resolve_timing animatable interp default_easing order ks Hk Hn) as (m & Hm & Hp).
      destruct (resolve_char dyn unset initial pending computed resolve_timing animatable interp default_easing order' ks Hk Hn') as (m' & Hm' & Hp').
      exists m, m'. split; [exact Hm|]. split; [exact Hm'|]. intros p.
      destruct (Hp p) as (vs & Hvs & _ & ->), (Hp' p) as (vs' & Hvs' & _ & ->). rewrite Hvs in Hvs'. injection Hvs' as <-.
      replace (existsb (Nat.eqb p) order') with (existsb (Nat.eqb p) order); [reflexivity|].
      apply Bool.eq_iff_eq_true. rewrite !existsb_In, Ho, Ho'. reflexivity.
    Qed.

    Lemma ctrack_full (ts : list Q) (ws : list V) (es : list E) : length ws = length ts -> length es = length ts ->
      map pk_time (ctrack ts (map CVal ws) es) = ts /\ map pk_value (ctrack ts (map CVal ws) es) = ws /\ map pk_easing (ctrack ts (map CVal ws) es) = es.
    Proof.
      revert ws es; induction ts as [|t ts IH]; intros [|w ws] [|e es] H1 H2; try discriminate; [auto|]. simpl in *.
      injection H1 as H1. injection H2 as H2. destruct (IH ws es H1 H2) as (-> & -> & ->). auto.
    Qed.
    Lemma all_vals_map (vs : list (cvalue V)) : Forall is_val vs -> exists ws, vs = map CVal ws.
    Proof. intros H; induction H as [|[|v] vs Hv _ [ws ->]]; [exists []; reflexivity|contradiction|exists (v :: ws); reflexivity]. Qed.

    (** what the columns are *)
    Lemma ccol_eq p k (r : list keyframe) : ccol animatable interp (CUR p) (kcol p (k :: r)) =
      let v := or_current pending computed (declared dyn unset initial k p) p in
      option_map (cons v) (crest animatable interp (kf_time k) v (clast (CUR p) (kcol p r))).
    Proof. unfold ccol. rewrite column_shape. reflexivity. Qed.

    Lemma kcol_in_declared p (ks : list keyframe) vs : Forall2 (fun x w => forall v : cvalue V, snd x = Some v -> w = v) (clast (CUR p) (kcol p ks)) vs ->
      Forall2 (fun k w => forall v, declared dyn unset initial k p = Some v -> w = v) ks vs /\
      (forall r k, ks = r ++ [k] -> last_opt vs = Some (or_current pending computed (declared dyn unset initial k p) p)).
    Proof.
      revert vs; induction ks as [|k [|k' ks] IH]; intros vs H.
      - inversion H; subst. split; [constructor|]. intros [|z0 z1] z2 Hk; discriminate.
      - cbn [kcol map clast] in H. rewrite or_current_cens in H. inversion H as [|? w ? ? Hw Hr]; subst. inversion Hr; subst. simpl in Hw.
        split; [constructor; [|constructor]|].
        + intros v Hv. rewrite Hv in Hw. apply Hw. reflexivity.
        + intros [|x r] k' Hk; [|destruct r; discriminate]. injection Hk as <-. simpl. rewrite (Hw _ eq_refl). reflexivity.
      - cbn [kcol map clast] in H. inversion H as [|? w ? vs' Hw Hr]; subst. destruct (IH vs' Hr) as [I1 I2]. split.
        + constructor; [|exact I1]. intros v Hv. simpl in Hw. apply Hw. exact Hv.
        + intros [|x r] k2 Hk; [discriminate|]. injection Hk as -> Hk. rewrite <- (I2 r k2 Hk).
          inversion I1; subst. simpl. reflexivity.
    Qed.

    Lemma tracks order (ks : list keyframe) : from_0_to_1 ks -> enumerates dyn unset initial order ks ->
      exists m, RES order ks = Some m /\
      (forall p track, m p = Some track ->
         mentioned dyn unset initial ks p /\
         map pk_time track = map kf_time ks /\ map pk_easing track = map (fun k => EASE k) ks /\
         Forall2 (fun k x => forall v, declared dyn unset initial k p = Some v -> v = CVal (pk_value x)) ks track /\
         (forall k r x l, ks = k :: r -> track = x :: l -> CVal (pk_value x) = or_current pending computed (declared dyn unset initial k p) p) /\
         (forall k r x l, ks = r ++ [k] -> track = l ++ [x] -> CVal (pk_value x) = or_current pending computed (declared dyn unset initial k p) p)) /\
      ((forall v, animatable v = true) -> forall p, m p <> None <-> mentioned dyn unset initial ks p /\ Forall (fun x => is_val (snd x)) (ANCH p ks)).
    Proof.
      intros Hsh [Hn Ho]. pose proof (shape_sorted ks Hsh) as Hsort. destruct ks as [|k r]; [destruct Hsh as (_ & (k & r & H & _) & _); discriminate|].
      destruct (resolve_char dyn unset initial pending computed resolve_timing animatable interp default_easing order (k :: r) ltac:(discriminate) Hn) as (m & Hm & Hp).
      exists m. split; [exact Hm|]. fold (kcol 0 (k :: r)) in Hp. split.
      - intros p track Htr. destruct (Hp p) as (vs & Hvs & Hlen & Hmp). fold (kcol p (k :: r)) in Hvs. rewrite ccol_eq in Hvs.
        rewrite Htr in Hmp. destruct (existsb (Nat.eqb p) order) eqn:Ex; [|discriminate]. destruct (all_values vs) eqn:Ea; [|discriminate].
        simpl andb in Hmp. cbv iota in Hmp. apply (f_equal (fun o => match o with Some x => x | None => [] end)) in Hmp. cbv beta iota in Hmp.
        apply existsb_In, Ho in Ex. apply all_values_iff, all_vals_map in Ea. destruct Ea as [ws ->]. rewrite map_length in Hlen.
        destruct (ctrack_full (map kf_time (k :: r)) ws (map (fun k => EASE k) (k :: r))) as (C1 & C2 & C3); [rewrite map_length; exact Hlen|rewrite !map_length; reflexivity|].
        rewrite <- Hmp in C1, C2, C3. clear Hmp Htr. cbv zeta in Hvs.
        destruct (crest animatable interp _ _ _) as [us|] eqn:Eu in Hvs; [|discriminate]. simpl in Hvs. injection Hvs as Hvs.
        destruct ws as [|w ws]; [discriminate|]. simpl in Hvs. injection Hvs as Hv0 Hus. subst us.
        destruct (kcol_in_declared p r _ (crest_declared _ _ _ _ _ _ Eu)) as [D1 D2].
        destruct track as [|x0 track']; [discriminate|]. simpl in C1, C2, C3. injection C1 as C1a C1b. injection C2 as C2a C2b. injection C3 as C3a C3b.
        split; [exact Ex|]. split; [simpl; congruence|]. split; [simpl; congruence|]. split; [|split].
        + constructor.
          * intros v Hv. rewrite Hv in Hv0. simpl in Hv0. rewrite Hv0, C2a. reflexivity.
          * subst ws. clear - D1. revert track' D1. induction r as [|k' r IH]; intros [|x l] H; simpl in H; inversion H; subst; constructor; auto.
            intros v Hv. symmetry. auto.
        + intros k1 r1 x l Hk Hx. injection Hk as <- <-. injection Hx as <- <-. rewrite C2a. symmetry. exact Hv0.
        + intros k1 r1 x l Hk Hx. destruct r1 as [|k0 r1].
          * injection Hk as -> ->. destruct l as [|y l]; simpl in Hx.
            { injection Hx as -> ->. rewrite C2a. symmetry. exact Hv0. }
            { injection Hx as _ ->. rewrite map_app in C1b. destruct l; discriminate. }
          * injection Hk as <- Hk. specialize (D2 r1 k1 Hk). destruct l as [|y l]; [injection Hx as -> ->; subst r; destruct r1; discriminate|].
            injection Hx as -> ->. rewrite <- C2b, map_app, map_app in D2. simpl in D2.
            assert (Hlast : forall (X : Type) (l : list X) y, last_opt (l ++ [y]) = Some y).
            { clear. intros X l y. induction l as [|z [|z' l] IH]; auto. }
            rewrite Hlast in D2. injection D2 as D2. exact D2.
      - intros Han p. destruct (Hp p) as (vs & Hvs & Hlen & ->). fold (kcol p (k :: r)) in Hvs. rewrite ccol_eq in Hvs. cbv zeta in Hvs.
        set (v0 := or_current pending computed (declared dyn unset initial k p) p) in *.
        destruct (crest animatable interp _ _ _) as [us|] eqn:Eu in Hvs; [|discriminate]. simpl in Hvs. injection Hvs as <-.
        assert (Hall : all_values (v0 :: us) = true <-> Forall (fun x => is_val (snd x)) (ANCH p (k :: r))).
        { rewrite all_values_iff. cbn [anchors]. fold v0. rewrite !Forall_cons_iff. cbn [snd].
          split; intros [Hv Hf]; split; auto; rewrite <- clast_somes in *;
            apply (crest_all animatable interp Han (clast (CUR p) (kcol p r)) (kf_time k) v0 us); auto; rewrite clast_fst, kcol_fst; exact Hsort. }
        rewrite <- Hall. rewrite <- Ho, <- existsb_In.
        destruct (existsb (Nat.eqb p) order), (all_values (v0 :: us)); simpl; intuition congruence.
    Qed.
  End R.
End A.

(** ** Sampling *)
Section S.
  Context {V E : Type}.
  Variable interp : V -> V -> Q -> V.
  Variable ease : E -> Q -> Q.
  Notation pkf := (pkeyframe V E).
  Notation FROM := (sample_from interp ease).
  Notation SAMPLE := (sample_keyframes interp ease).

  Lemma insert_sorted (l : list pkf) : StronglySorted Qlt (map pk_time l) -> fold_right insert_pk [] l = l.
  Proof.
    induction l as [|k l IH]; intros H; [reflexivity|]. simpl in *. inversion H as [|? ? H1 H2]; subst. rewrite (IH H1).
    destruct l as [|k' l]; [reflexivity|]. simpl in *. apply Forall_cons_iff in H2. destruct H2 as [H2 _].
    apply Qlt_le_weak, Qle_bool_iff in H2. rewrite H2. reflexivity.
  Qed.
  Lemma dedup_sorted (l : list pkf) k : StronglySorted Qlt (map pk_time (k :: l)) -> dedup k l = k :: l.
  Proof.
    revert k; induction l as [|k' l IH]; intros k H; [reflexivity|]. simpl in *. inversion H as [|? ? H1 H2]; subst.
    apply Forall_cons_iff in H2. destruct H2 as [H2 _]. destruct (Qeq_bool (pk_time k) (pk_time k')) eqn:Ek; [apply Qeq_bool_eq in Ek; lra|].
    rewrite IH; auto.
  Qed.
  Lemma uneven_sorted (l : list pkf) : StronglySorted Qlt (map pk_time l) -> 2 <= length l -> uneven_new l = Some l.
  Proof.
    intros H Hl. unfold uneven_new. rewrite insert_sorted by assumption. destruct l as [|k l]; [simpl in Hl; lia|].
    rewrite dedup_sorted by assumption. destruct (Nat.ltb_spec (length (k :: l)) 2); [lia|reflexivity].
  Qed.
  Lemma from_eq (k : pkf) l x : FROM k l x =
      if Qeq_bool x (pk_time k) then pk_value k
      else match l with
         | [] => pk_value k
         | k' :: r =>
             if Qle_bool (pk_time k') x then FROM k' r x
             else interp (pk_value k) (pk_value k') (ease (pk_easing k) ((x - pk_time k) / (pk_time k' - pk_time k))%Q)
         end.
  Proof. destruct l; reflexivity. Qed.
  Lemma sorted_app_lt (a b : list Q) x y : StronglySorted Qlt (a ++ x :: b) -> In y a -> (y < x)%Q.
  Proof.
    induction a as [|z a IH]; simpl; intros H; [tauto|]. inversion H as [|? ? H1 H2]; subst. intros [->|Hy]; auto.
    rewrite Forall_forall in H2. apply H2, in_or_app. right; left; reflexivity.
  Qed.
  (** skipping the keyframes before *)
  Lemma from_skip (pre : list pkf) k0 k post x : StronglySorted Qlt (map pk_time (k0 :: pre ++ k :: post)) -> (pk_time k <= x)%Q ->
    FROM k0 (pre ++ k :: post) x = FROM k post x.
  Proof.
    revert k0; induction pre as [|k1 pre IH]; intros k0 H Hx; simpl app; rewrite from_eq.
    - simpl in H. inversion H as [|? ? H1 H2]; subst. apply Forall_cons_iff in H2. destruct H2 as [H2 _].
      destruct (Qeq_bool x (pk_time k0)) eqn:Ex; [apply Qeq_bool_eq in Ex; lra|]. apply Qle_bool_iff in Hx. rewrite Hx. reflexivity.
    - simpl in H. inversion H as [|? ? H1 H2]; subst.
      assert (H01 : (pk_time k0 < pk_time k1)%Q) by (apply Forall_cons_iff in H2; apply H2).
      assert (H1k : (pk_time k1 < pk_time k)%Q). { apply (sorted_app_lt (pk_time k1 :: map pk_time pre) (map pk_time post)); [|left; reflexivity]. rewrite map_app in H1. exact H1. }
      destruct (Qeq_bool x (pk_time k0)) eqn:Ex; [apply Qeq_bool_eq in Ex; lra|].
      assert (Hk1 : (pk_time k1 <= x)%Q) by lra. apply Qle_bool_iff in Hk1. rewrite Hk1. apply IH; auto.
  Qed.
  Lemma sample_at (pre post : list pkf) k x : StronglySorted Qlt (map pk_time (pre ++ k :: post)) -> 2 <= length (pre ++ k :: post) ->
    (pk_time k <= x)%Q -> SAMPLE (pre ++ k :: post) x = Some (FROM k post x).
  Proof.
    intros Hs Hl Hx. unfold sample_keyframes. rewrite uneven_sorted by assumption. destruct pre as [|k0 pre]; simpl app; unfold sample_track.
    - apply Qle_bool_iff in Hx. rewrite Hx. reflexivity.
    - assert (H0 : (pk_time k0 < pk_time k)%Q). { apply (sorted_app_lt (pk_time k0 :: map pk_time pre) (map pk_time post)); [|left; reflexivity]. rewrite map_app in Hs. exact Hs. }
      assert (H0x : (pk_time k0 <= x)%Q) by lra. apply Qle_bool_iff in H0x. rewrite H0x. f_equal. apply from_skip; auto.
  Qed.
End S.

(** ** The broken line *)
Lemma same_sym a b : same a b -> same b a.
Proof.
  intros H; induction H as [|x y a b Hx H IH]; constructor; auto. destruct x, y; simpl in *; try contradiction; auto; [symmetry; exact Hx|].
  destruct Hx as [-> Hx]. split; auto. intros u. symmetry. apply Hx.
Qed.
Lemma on_line_unique s a b r r' : on_line s a b r -> on_line s a b r' -> same r r'.
Proof.
  intros H; revert r'; induction H as [|x y z a b r Hx H IH]; intros r' H'; inversion H' as [|? ? z' ? ? r'' Hx' H'']; subst; constructor; [|apply IH; assumption].
  destruct x, y, z, z'; simpl in *; try contradiction; [rewrite Hx, Hx'; reflexivity|destruct Hx, Hx'; congruence|].
  destruct Hx as (? & ? & Hx), Hx' as (? & ? & Hx'). split; [congruence|]. intros u. rewrite Hx, Hx'. reflexivity.
Qed.
Lemma on_poly_ge l x w : StronglySorted Qlt (map fst l) -> on_poly l x w -> exists t a r, l = (t, a) :: r /\ (t <= x)%Q.
Proof.
  intros Hs H; induction H as [t a l x w He _|ta a tb b l x w Hx _|[t a] l x w H IH].
  - exists t, a, l. split; auto. lra.
  - exists ta, a, ((tb, b) :: l). split; auto. lra.
  - simpl in Hs. inversion Hs as [|? ? H1 H2]; subst. destruct (IH H1) as (t' & a' & r & -> & Hle). exists t, a, ((t', a') :: r). split; auto.
    simpl in H2. apply Forall_cons_iff in H2. destruct H2 as [H2 _]. lra.
Qed.
Lemma on_poly_unique l x w w' : StronglySorted Qlt (map fst l) -> on_poly l x w -> on_poly l x w' -> same w w'.
Proof.
  intros Hs H; revert w'; induction H as [t a l x w He Hw|ta a tb b l x w Hx Hw|[t a] l x w H IH]; intros w' H'.
  - simpl in Hs. inversion Hs as [|? ? H1 H2]; subst. inversion H' as [? ? ? ? ? He' Hw'|? ? ? ? ? ? ? Hx' Hw'|? ? ? ? Hn]; subst.
    + eapply same_trans; [exact Hw|apply same_sym; exact Hw'].
    + lra.
    + destruct (on_poly_ge _ _ _ H1 Hn) as (t' & a' & r & -> & Hle). simpl in H2. apply Forall_cons_iff in H2. destruct H2 as [H2 _]. lra.
  - simpl in Hs. inversion Hs as [|? ? H1 H2]; subst. inversion H' as [? ? ? ? ? He' Hw'|? ? ? ? ? ? ? Hx' Hw'|? ? ? ? Hn]; subst.
    + lra.
    + eapply on_line_unique; eassumption.
    + destruct (on_poly_ge ((tb, b) :: l) _ _ H1 Hn) as (t' & a' & r & Hr & Hle). injection Hr as <- <- <-. lra.
  - simpl in Hs. inversion Hs as [|? ? H1 H2]; subst. destruct (on_poly_ge _ _ _ H1 H) as (t' & a' & r & -> & Hle). simpl in H2. apply Forall_cons_iff in H2. destruct H2 as [H2 _].
    inversion H' as [? ? ? ? ? He' Hw'|? ? ? ? ? ? ? Hx' Hw'|? ? ? ? Hn]; subst.
    + lra.
    + lra.
    + apply IH; assumption.
Qed.
