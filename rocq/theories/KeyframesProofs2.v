From Coq Require Import QArith Sorted Lqa Lia Permutation.
From Verif Require Import Base Inherit Keyframes Interp InterpSpec InterpProofs KeyframesSpec KeyframesProofs.
Open Scope nat_scope.

(** Columns: the values of one property over the keyframes *)
Section C.
  Context {V E D T : Type}.
  Variable dyn : D -> list (nat * pvalue V).
  Variable unset : nat -> pvalue V.
  Variable initial : nat -> V.
  Variables pending computed : nat -> cvalue V.
  Variable resolve_timing : T -> option E.
  Variable animatable : V -> bool.
  Variable interp : V -> V -> Q -> V.
  Variable default_easing : E.
  Notation entry := (entry V E).
  Notation keyframe := (keyframe V D T).
  Notation ENTRY := (resolve_entry dyn unset initial resolve_timing default_easing).
  Notation CUR := (current_value pending computed).
  Notation FILL := (fill_property pending computed animatable interp).

  Lemma insert_fold (l : list (nat * pvalue V)) m p :
    fold_left (fun m pv => insert_prop m (fst pv) (snd pv)) l m p =
    match find (fun x => Nat.eqb (fst x) p) (rev l) with Some x => Some (snd x) | None => m p end.
  Proof.
    revert m; induction l as [|[q v] l IH] using rev_ind; intros m; simpl; auto.
    rewrite fold_left_app, rev_app_distr. simpl. unfold insert_prop at 1. simpl. rewrite Nat.eqb_sym.
    destruct (Nat.eqb q p); [reflexivity|]. apply IH.
  Qed.
  Lemma entry_declared k p : e_props (ENTRY k) p = declared dyn unset initial k p.
  Proof.
    unfold resolve_entry, declared, resolve_properties. simpl. rewrite insert_fold.
    destruct (find _ _); reflexivity.
  Qed.

  Definition view (p : nat) (e : entry) : Q * option (cvalue V) := (e_time e, e_props e p).
  Definition cens (cur : cvalue V) (x : Q * option (cvalue V)) : Q * option (cvalue V) :=
    match snd x with Some _ => x | None => (fst x, Some cur) end.
  Definition cfirst cur l := match l with [] => [] | x :: r => cens cur x :: r end.
  Fixpoint clast cur l := match l with [] => [] | [x] => [cens cur x] | x :: r => x :: clast cur r end.
  Fixpoint cnext (l : list (Q * option (cvalue V))) : option (Q * cvalue V) :=
    match l with [] => None | (t, Some v) :: _ => Some (t, v) | (_, None) :: r => cnext r end.
  Fixpoint crest (ta : Q) (va : cvalue V) (l : list (Q * option (cvalue V))) : option (list (cvalue V)) :=
    match l with
    | [] => Some []
    | (t, Some v) :: r => option_map (cons v) (crest t v r)
    | (t, None) :: r => match cnext r with
                        | None => None
                        | Some (tb, vb) => let v := interpolate_value animatable interp ta va tb vb t in option_map (cons v) (crest t v r)
                        end
    end.
  Definition ccol cur l : option (list (cvalue V)) :=
    match clast cur (cfirst cur l) with (t, Some v) :: r => option_map (cons v) (crest t v r) | _ => None end.

  Definition only (p : nat) (e e' : entry) : Prop := e_time e = e_time e' /\ e_easing e = e_easing e' /\ forall q, q <> p -> e_props e q = e_props e' q.
  Lemma only_refl p e : only p e e. Proof. repeat split. Qed.
  Lemma only_set p e v : only p e (set_prop e p v).
  Proof. repeat split. intros q Hq. simpl. unfold insert_prop. destruct (Nat.eqb_spec q p); congruence. Qed.
  Lemma only_ensure p e : only p e (ensure pending computed p e).
  Proof. unfold ensure. destruct (e_props e p); [apply only_refl|apply only_set]. Qed.
  Lemma only_trans p a b c : only p a b -> only p b c -> only p a c.
  Proof. intros (H1 & H2 & H3) (H4 & H5 & H6). repeat split; try congruence. intros q Hq. rewrite H3; auto. Qed.
  Lemma Forall2_refl' {X} (R : X -> X -> Prop) l : (forall x, R x x) -> Forall2 R l l.
  Proof. intros H; induction l; constructor; auto. Qed.
  Lemma Forall2_trans' {X} (R : X -> X -> Prop) a b c : (forall x y z, R x y -> R y z -> R x z) -> Forall2 R a b -> Forall2 R b c -> Forall2 R a c.
  Proof. intros Ht H; revert c; induction H; intros c Hc; inversion Hc; subst; constructor; eauto. Qed.
  Lemma view_ensure p e : view p (ensure pending computed p e) = cens (CUR p) (view p e).
  Proof. unfold ensure, cens, view. simpl. destruct (e_props e p) eqn:Ep; simpl; rewrite ?Ep; auto. unfold insert_prop. rewrite Nat.eqb_refl. reflexivity. Qed.
  Lemma fill_first_view p l : map (view p) (fill_first pending computed p l) = cfirst (CUR p) (map (view p) l).
  Proof. destruct l; simpl; auto. rewrite view_ensure. reflexivity. Qed.
  Lemma fill_last_view p l : map (view p) (fill_last pending computed p l) = clast (CUR p) (map (view p) l).
  Proof. induction l as [|e [|e' l] IH]; [reflexivity|simpl; rewrite view_ensure; reflexivity|]. cbn [fill_last map clast] in *. rewrite IH. reflexivity. Qed.
  Lemma fill_first_only p l : Forall2 (only p) l (fill_first pending computed p l).
  Proof. destruct l; constructor; [apply only_ensure|apply Forall2_refl', only_refl]. Qed.
  Lemma fill_last_only p l : Forall2 (only p) l (fill_last pending computed p l).
  Proof. induction l as [|e [|e' l] IH]; [constructor|constructor; [apply only_ensure|constructor]|]. constructor; [apply only_refl|exact IH]. Qed.
  Lemma next_view p l : next_defined p l = cnext (map (view p) l).
  Proof. induction l as [|e l IH]; simpl; auto. destruct (e_props e p); auto. Qed.
  Lemma fill_rest_view p l : forall ta va,
    option_map (map (view p)) (fill_rest animatable interp p ta va l) =
    option_map (fun vs => combine (map e_time l) (map Some vs)) (crest ta va (map (view p) l)) /\
    forall l', fill_rest animatable interp p ta va l = Some l' -> Forall2 (only p) l l'.
  Proof.
    induction l as [|e l IH]; intros ta va; [split; [reflexivity|intros l' H; injection H as <-; constructor]|].
    cbn [fill_rest map view crest]. destruct (e_props e p) as [v|] eqn:Ep.
    - destruct (IH (e_time e) v) as [H1 H2]. destruct (fill_rest animatable interp p (e_time e) v l) as [l'|] eqn:El.
      + destruct (crest (e_time e) v (map (view p) l)) as [vs|]; simpl in H1; [|discriminate]. simpl. split.
        * injection H1 as H1. unfold view at 1. rewrite Ep, H1. reflexivity.
        * intros l'' H; injection H as <-. constructor; [apply only_refl|auto].
      + destruct (crest (e_time e) v (map (view p) l)) as [vs|]; simpl in H1; [discriminate|]. simpl. split; [reflexivity|discriminate].
    - rewrite next_view. destruct (cnext (map (view p) l)) as [[tb vb]|]; [|split; [reflexivity|discriminate]].
      set (v := interpolate_value animatable interp ta va tb vb (e_time e)).
      destruct (IH (e_time e) v) as [H1 H2]. destruct (fill_rest animatable interp p (e_time e) v l) as [l'|] eqn:El.
      + destruct (crest (e_time e) v (map (view p) l)) as [vs|]; simpl in H1; [|discriminate]. simpl. split.
        * injection H1 as H1. unfold view at 1. simpl. unfold insert_prop. rewrite Nat.eqb_refl, H1. reflexivity.
        * intros l'' H; injection H as <-. constructor; [apply only_set|auto].
      + destruct (crest (e_time e) v (map (view p) l)) as [vs|]; simpl in H1; [discriminate|]. simpl. split; [reflexivity|discriminate].
  Qed.
  Lemma only_times p l l' : Forall2 (only p) l l' -> map e_time l = map e_time l'.
  Proof. intros H; induction H as [|x y a b Hx H IH]; simpl; auto. destruct Hx as (-> & _). rewrite IH. reflexivity. Qed.
  Lemma fill_view l p : option_map (map (view p)) (FILL l p) =
      option_map (fun vs => combine (map e_time l) (map Some vs)) (ccol (CUR p) (map (view p) l)) /\
    forall l', FILL l p = Some l' -> Forall2 (only p) l l'.
  Proof.
    unfold fill_property, ccol. rewrite <- fill_first_view, <- fill_last_view.
    assert (Ho : Forall2 (only p) l (fill_last pending computed p (fill_first pending computed p l))).
    { eapply Forall2_trans'; [apply only_trans|apply fill_first_only|apply fill_last_only]. }
    pose proof (only_times _ _ _ Ho) as Htm.
    destruct (fill_last pending computed p (fill_first pending computed p l)) as [|e r]; simpl; [split; [reflexivity|discriminate]|].
    destruct (e_props e p) as [v|] eqn:Ep; [|split; [reflexivity|discriminate]].
    destruct (fill_rest_view p r (e_time e) v) as [H1 H2]. rewrite Htm. simpl.
    destruct (fill_rest animatable interp p (e_time e) v r) as [l'|]; destruct (crest (e_time e) v (map (view p) r)) as [vs|]; simpl in H1 |- *; try discriminate.
    - injection H1 as H1. split; [unfold view at 1; rewrite Ep, H1; reflexivity|].
      intros l'' H; injection H as <-. eapply Forall2_trans'; [apply only_trans|exact Ho|]. constructor; [apply only_refl|auto].
    - split; [reflexivity|discriminate].
  Qed.

  (** Totality *)
  Fixpoint ends_defined (l : list (Q * option (cvalue V))) : Prop :=
    match l with [] => True | [x] => snd x <> None | _ :: r => ends_defined r end.
  Lemma clast_ends cur l : ends_defined (clast cur l).
  Proof. induction l as [|x [|y l] IH]; simpl in *; auto. - unfold cens. destruct (snd x) eqn:Ex; simpl; congruence. - destruct l; simpl in *; auto. Qed.
  Lemma cnext_some l : l <> [] -> ends_defined l -> cnext l <> None.
  Proof.
    induction l as [|[t [v|]] l IH]; simpl; intros Hn He; try congruence. destruct l; [simpl in He; congruence|]. apply IH; [discriminate|exact He].
  Qed.
  Lemma crest_some l : ends_defined l -> forall ta va, exists vs, crest ta va l = Some vs /\ length vs = length l.
  Proof.
    induction l as [|[t [v|]] l IH]; simpl; intros He ta va; [exists []; auto| |].
    - destruct (IH ltac:(destruct l; simpl; auto)  t v) as (vs & -> & Hl). exists (v :: vs). simpl; auto.
    - assert (Hn : l <> []) by (intros ->; simpl in He; congruence). assert (He' : ends_defined l) by (destruct l; [congruence|exact He]).
      pose proof (cnext_some l Hn He'). destruct (cnext l) as [[tb vb]|]; [|congruence].
      destruct (IH He' t (interpolate_value animatable interp ta va tb vb t)) as (vs & -> & Hl). eexists; split; [reflexivity|simpl; auto].
  Qed.
  Lemma ccol_some cur l : l <> [] -> exists vs, ccol cur l = Some vs /\ length vs = length l.
  Proof.
    intros Hn. unfold ccol. pose proof (clast_ends cur (cfirst cur l)) as He.
    assert (Hl : length (clast cur (cfirst cur l)) = length l).
    { assert (Hcl : forall c, length (clast cur c) = length c) by (intros c; induction c as [|x [|y c] IHc]; simpl in *; auto).
      rewrite Hcl. destruct l; reflexivity. }
    destruct l as [|x r]; [congruence|]. destruct (clast cur (cfirst cur (x :: r))) as [|[t o] r'] eqn:Ec; [discriminate|].
    assert (Ho : exists v, o = Some v).
    { simpl in Ec. destruct r as [|y r]; [|injection Ec as Ec _].
      - injection Ec as Ec _. unfold cens in Ec. destruct (snd x) eqn:Ex; simpl in Ec; rewrite ?Ex in Ec; [|injection Ec as _ <-; eauto]. rewrite Ec in Ex. simpl in Ex. eauto.
      - unfold cens in Ec. destruct (snd x) eqn:Ex; [rewrite Ec in Ex; simpl in Ex; eauto|injection Ec as _ <-; eauto]. }
    destruct Ho as (v & ->). assert (He' : ends_defined r') by (destruct r'; [exact I|exact He]).
    destruct (crest_some r' He' t v) as (vs & -> & Hvs). exists (v :: vs). simpl in *. split; auto. congruence.
  Qed.

  (** All properties *)
  Lemma only_view p q l l' : Forall2 (only p) l l' -> q <> p -> map (view q) l = map (view q) l'.
  Proof. intros H Hq; induction H as [|x y a b Hx H IH]; simpl; auto. destruct Hx as (Ht & _ & Hp). unfold view at 1 3. rewrite Ht, (Hp _ Hq), IH. reflexivity. Qed.
  Lemma only_easing p l l' : Forall2 (only p) l l' -> map e_easing l = map e_easing l'.
  Proof. intros H; induction H as [|x y a b Hx H IH]; simpl; auto. destruct Hx as (_ & -> & _). rewrite IH. reflexivity. Qed.
  Lemma view_times p l : map fst (map (view p) l) = map e_time l.
  Proof. rewrite map_map. reflexivity. Qed.
  Lemma fill_all_some order l : l <> [] -> NoDup order -> exists l', fill_all pending computed animatable interp order l = Some l' /\
    map e_time l' = map e_time l /\ map e_easing l' = map e_easing l /\
    (forall p, ~ In p order -> map (view p) l' = map (view p) l) /\
    (forall p, In p order -> exists vs, ccol (CUR p) (map (view p) l) = Some vs /\ length vs = length l /\ map (view p) l' = combine (map e_time l) (map Some vs)).
  Proof.
    revert l; induction order as [|p order IH]; intros l Hl Hnd; simpl.
    - exists l. repeat split; auto. intros p [].
    - inversion Hnd as [|? ? Hp Hnd']; subst. destruct (fill_view l p) as [H1 H2].
      destruct (ccol_some (CUR p) (map (view p) l)) as (vs & Hvs & Hlen); [destruct l; [congruence|discriminate]|].
      rewrite Hvs in H1. simpl in H1. destruct (FILL l p) as [l1|] eqn:E1; [|discriminate]. injection H1 as H1.
      specialize (H2 l1 eq_refl).
      destruct (IH l1) as (l' & Hl' & Ht & He & Hout & Hin); [intros ->; inversion H2; subst; congruence|assumption|].
      exists l'. split; [exact Hl'|]. rewrite Ht, He, <- (only_times _ _ _ H2), <- (only_easing _ _ _ H2). repeat split; auto.
      + intros q Hq. rewrite Hout by tauto. symmetry. apply (only_view p); [exact H2|]. intros ->; apply Hq; auto.
      + intros q [<-|Hq].
        * exists vs. split; [exact Hvs|]. rewrite map_length in Hlen. split; [exact Hlen|]. rewrite Hout by assumption. exact H1.
        * assert (Hqp : q <> p) by (intros ->; contradiction). destruct (Hin q Hq) as (ws & Hws & Hwl & Hwv). exists ws.
          rewrite (only_view p q l l1 H2 Hqp), (only_times _ _ _ H2). rewrite (Forall2_len _ _ _ H2). auto.
  Qed.

  (** Tracks *)
  Fixpoint ctrack (ts : list Q) (vs : list (cvalue V)) (es : list E) : list (pkeyframe V E) :=
    match ts, vs, es with t :: ts, CVal v :: vs, e :: es => mk_pk t v e :: ctrack ts vs es | _ :: ts, CNone :: vs, _ :: es => ctrack ts vs es | _, _, _ => [] end.
  Lemma track_view p (l : list entry) vs : length vs = length l -> map (view p) l = combine (map e_time l) (map Some vs) ->
    track_of p l = ctrack (map e_time l) vs (map e_easing l) /\ forallb (has_value p) l = forallb (fun v => match v with CVal _ => true | CNone => false end) vs.
  Proof.
    revert vs; induction l as [|e l IH]; intros [|v vs] Hl H; try discriminate; auto.
    injection Hl as Hl. cbn [map combine] in H. injection H as Hp H. destruct (IH vs Hl H) as [I1 I2].
    cbn [forallb]. rewrite I2. unfold has_value at 1. rewrite Hp.
    unfold track_of in *. cbn [flat_map map ctrack]. rewrite Hp, I1. destruct v; auto.
  Qed.
  Lemma insert_tracks (f : nat -> list (pkeyframe V E)) l m p :
    fold_left (fun m q => insert_prop m q (f q)) l m p = if existsb (Nat.eqb p) l then Some (f p) else m p.
  Proof.
    revert m; induction l as [|q l IH]; intros m; simpl; auto. rewrite IH. unfold insert_prop.
    destruct (Nat.eqb_spec p q) as [->|]; simpl; destruct (existsb _ l) eqn:Ex; auto.
  Qed.
  Definition all_values (vs : list (cvalue V)) : bool := forallb (fun v => match v with CVal _ => true | CNone => false end) vs.
  Lemma resolve_char order (ks : list keyframe) : ks <> [] -> NoDup order -> exists m,
    resolve dyn unset initial pending computed resolve_timing animatable interp default_easing order ks = Some m /\
    forall p, exists vs, ccol (CUR p) (map (fun k => (kf_time k, declared dyn unset initial k p)) ks) = Some vs /\ length vs = length ks /\
      m p = if existsb (Nat.eqb p) order && all_values vs
            then Some (ctrack (map kf_time ks) vs (map (fun k => resolve_easing resolve_timing default_easing (kf_timing k)) ks)) else None.
  Proof.
    intros Hk Hnd. unfold resolve.
    destruct (fill_all_some order (map ENTRY ks)) as (l & -> & Ht & He & Hout & Hin); [destruct ks; [congruence|discriminate]|exact Hnd|].
    simpl. eexists. split; [reflexivity|]. intros p.
    assert (Hview : map (view p) (map ENTRY ks) = map (fun k => (kf_time k, declared dyn unset initial k p)) ks).
    { rewrite map_map. apply map_ext. intros k. unfold view. rewrite entry_declared. reflexivity. }
    destruct (ccol_some (CUR p) (map (view p) (map ENTRY ks))) as (vs & Hvs & Hvl); [destruct ks; [congruence|discriminate]|].
    exists vs. rewrite Hview in Hvs, Hvl. rewrite map_length in Hvl. split; [exact Hvs|]. split; [exact Hvl|].
    rewrite (insert_tracks (fun p => track_of p l)).
    assert (Hex : existsb (Nat.eqb p) (filter (fun p => forallb (has_value p) l) order) = existsb (Nat.eqb p) order && forallb (has_value p) l).
    { clear. induction order as [|q order IH]; simpl; auto. destruct (forallb (has_value q) l) eqn:Eq; simpl; rewrite IH; destruct (Nat.eqb_spec p q) as [->|]; simpl; auto.
      rewrite Eq. destruct (existsb _ order); auto. }
    rewrite Hex. destruct (existsb (Nat.eqb p) order) eqn:Ep; simpl; [|reflexivity].
    apply existsb_exists in Ep. destruct Ep as (q & Hq & Hpq). apply Nat.eqb_eq in Hpq. subst q.
    destruct (Hin p Hq) as (ws & Hws & Hwl & Hwv). rewrite Hview, Hvs in Hws. injection Hws as <-.
    rewrite map_length in Hwl. rewrite <- Ht in Hwv.
    destruct (track_view p l vs) as [T1 T2]; [|exact Hwv|].
    { rewrite Hwl. rewrite <- (map_length e_time l), Ht, map_length, map_length. reflexivity. }
    rewrite T1, T2, Ht, He, !map_map. reflexivity.
  Qed.
End C.
