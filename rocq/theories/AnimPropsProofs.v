From Coq Require Import NArith Sorted.
From Verif Require Import Base Animation AnimProps AnimPropsSpec.

Section Resolve.
  Context {P E : Type} (pdec : forall a b : P, {a = b} + {a <> b}) (reset : list P).
  Hypothesis Hnd : NoDup reset.
  Hypothesis Hall : forall p, In p reset.

  Lemma insert_same (m : pmap P E) p o : insert pdec m p o p = o.
  Proof. unfold insert. destruct (pdec p p); congruence. Qed.
  Lemma insert_other (m : pmap P E) p o q : q <> p -> insert pdec m p o q = m q.
  Proof. unfold insert. destruct (pdec q p); congruence. Qed.
  Lemma remove_all_none (m : pmap P E) p : remove_all pdec reset m p = None.
  Proof.
    unfold remove_all. specialize (Hall p). clear Hnd. revert m. induction reset as [|q l IH]; intros m; [destruct Hall|]. cbn [fold_left].
    destruct (in_dec pdec p l) as [Hi|Hi].
    - apply IH, Hi.
    - destruct Hall as [->|H]; [|tauto]. clear IH Hall.
      assert (forall m : pmap P E, fold_left (fun m p => insert pdec m p None) l m p = m p) as ->; [|apply insert_same].
      induction l as [|q l IH]; intros m'; [reflexivity|]. cbn [fold_left]. rewrite IH by (intros H; apply Hi; right; exact H).
      apply insert_other. intros ->. apply Hi. left. reflexivity.
  Qed.
  Lemma push_defaults_at (m : pmap P E) p : push_defaults pdec reset m p = Some (entry m p ++ [VDefault]).
  Proof.
    unfold push_defaults. specialize (Hall p). revert m. induction reset as [|q l IH]; intros m; [destruct Hall|]. cbn [fold_left].
    inversion Hnd as [|q' l' Hn Hnd']; subst.
    assert (Hskip : forall l (m : pmap P E), ~ In p l -> fold_left (fun m p => insert pdec m p (Some (entry m p ++ [VDefault]))) l m p = m p).
    { clear. induction l as [|q l IH]; intros m Hi; [reflexivity|]. cbn [fold_left]. rewrite IH by (intros H; apply Hi; right; exact H).
      apply insert_other. intros ->. apply Hi. left. reflexivity. }
    destruct Hall as [->|H].
    - rewrite Hskip by exact Hn. apply insert_same.
    - rewrite (IH Hnd' H). unfold entry at 1. rewrite insert_other by (intros ->; tauto). reflexivity.
  Qed.
  Definition pick (a : list (P * avalue E)) (p : P) (x : avalue E) : avalue E :=
    fold_left (fun x qv => if pdec p (fst qv) then snd qv else x) a x.
  Lemma set_index_last {A} (l : list A) x v : set_index (l ++ [x]) (length l) v = Some (l ++ [v]).
  Proof. induction l as [|y l IH]; [reflexivity|]. cbn [app length set_index]. rewrite IH. reflexivity. Qed.
  Lemma assign_at index a : forall m : pmap P E, (forall p, exists l x, m p = Some (l ++ [x]) /\ length l = index) ->
    exists m', assign pdec index a m = Some m' /\ forall p l x, m p = Some (l ++ [x]) -> m' p = Some (l ++ [pick a p x]).
  Proof.
    induction a as [|[q v] a IH]; intros m Hm; cbn [assign].
    - exists m. split; [reflexivity|]. intros p l x H. exact H.
    - destruct (Hm q) as (l & x & Hq & Hl). unfold entry. rewrite Hq. subst index. rewrite set_index_last.
      destruct (IH (insert pdec m q (Some (l ++ [v])))) as (m' & E1 & E2).
      { intros p. destruct (pdec p q) as [->|Hp]; [exists l, v; rewrite insert_same; auto|]. rewrite insert_other by exact Hp. apply Hm. }
      exists m'. split; [exact E1|]. intros p l0 x0 Hp. cbn [pick fold_left fst snd]. destruct (pdec p q) as [->|Hne].
      + rewrite Hq in Hp. injection Hp as Hp. apply app_inj_tail in Hp. destruct Hp as [<- _]. apply E2. apply insert_same.
      + apply E2. rewrite insert_other by exact Hne. exact Hp.
  Qed.
  Lemma fill_at anims : forall index (m : pmap P E), (forall p, length (entry m p) = index) ->
    exists m', fill pdec reset index anims m = Some m' /\
    forall p, m' p = match anims with [] => m p | _ => Some (entry m p ++ map (fun a => pick a p VDefault) anims) end.
  Proof.
    induction anims as [|a anims IH]; intros index m Hm; cbn [fill]; [exists m; auto|].
    destruct (assign_at index a (push_defaults pdec reset m)) as (m1 & E1 & E2).
    { intros p. exists (entry m p), VDefault. rewrite push_defaults_at. auto. }
    rewrite E1.
    assert (Hm1 : forall p, m1 p = Some (entry m p ++ [pick a p VDefault])) by (intros p; apply E2, push_defaults_at).
    destruct (IH (S index) m1) as (m' & E3 & E4).
    { intros p. unfold entry at 1. rewrite Hm1, app_length, Hm. cbn. lia. }
    exists m'. split; [exact E3|]. intros p. rewrite E4. unfold entry at 1. rewrite Hm1. destruct anims as [|b anims]; [reflexivity|].
    cbn [map]. rewrite <- app_assoc. reflexivity.
  Qed.
  Lemma remove_fill (m : pmap P E) anims : exists m', fill pdec reset 0 anims (remove_all pdec reset m) = Some m' /\
    forall p, m' p = match anims with [] => None | _ => Some (map (fun a => pick a p VDefault) anims) end.
  Proof.
    destruct (fill_at anims 0 (remove_all pdec reset m)) as (m' & E1 & E2); [intros p; unfold entry; rewrite remove_all_none; reflexivity|].
    exists m'. split; [exact E1|]. intros p. rewrite E2. unfold entry. rewrite remove_all_none. reflexivity.
  Qed.
  (** What a declaration makes of property [p] *)
  Definition effect (p : P) (o : option (list (avalue E))) (d : declaration P E) : option (list (avalue E)) :=
    match d with
    | Shorthand None => None
    | Shorthand (Some []) => None
    | Shorthand (Some l) => Some (map (fun a => pick a p VDefault) l)
    | Single q None => o
    | Single q (Some l) => if pdec p q then Some l else o
    end.
  Lemma resolve_spec ds : forall m : pmap P E, exists m', resolve_to_output pdec reset ds m = Some m' /\ forall p, m' p = fold_left (effect p) ds (m p).
  Proof.
    induction ds as [|d ds IH]; intros m; [exists m; auto|]. destruct d as [[l|]|q [l|]]; cbn [resolve_to_output fold_left effect].
    - destruct (remove_fill m l) as (m1 & E1 & E2). rewrite E1. destruct (IH m1) as (m' & E3 & E4). exists m'. split; [exact E3|].
      intros p. rewrite E4, E2. destruct l; reflexivity.
    - destruct (IH (remove_all pdec reset m)) as (m' & E3 & E4). exists m'. split; [exact E3|]. intros p. rewrite E4, remove_all_none. reflexivity.
    - destruct (IH (insert pdec m q (Some l))) as (m' & E3 & E4). exists m'. split; [exact E3|]. intros p. rewrite E4. reflexivity.
    - destruct (IH m) as (m' & E3 & E4). exists m'. split; [exact E3|]. intros p. rewrite E4. reflexivity.
  Qed.
  Lemma resolve_rulesets_concat rs : forall m : pmap P E, resolve_rulesets pdec reset rs m = resolve_to_output pdec reset (concat rs) m.
  Proof.
    assert (Happ : forall ds ds' (m : pmap P E), resolve_to_output pdec reset (ds ++ ds') m =
      match resolve_to_output pdec reset ds m with Some m => resolve_to_output pdec reset ds' m | None => None end).
    { clear. induction ds as [|d ds IH]; intros ds' m; [reflexivity|]. destruct d as [[l|]|q o]; cbn [app resolve_to_output]; auto.
      destruct (fill pdec reset 0 l (remove_all pdec reset m)); auto. }
    induction rs as [|ds rs IH]; intros m; [reflexivity|]. cbn [resolve_rulesets concat]. rewrite Happ. destruct (resolve_to_output pdec reset ds m); auto.
  Qed.
  Lemma pick_gives a p : gives a p (pick a p VDefault).
  Proof.
    unfold pick. assert (H : forall a x, (exists a1 a2 v, a = a1 ++ (p, v) :: a2 /\ (forall v', ~ In (p, v') a2) /\ fold_left (fun x (qv : P * avalue E) => if pdec p (fst qv) then snd qv else x) a x = v) \/
      ((forall v', ~ In (p, v') a) /\ fold_left (fun x (qv : P * avalue E) => if pdec p (fst qv) then snd qv else x) a x = x)).
    { clear. induction a as [|[q v] a IH]; intros x; [right; split; [intros v' []|reflexivity]|]. cbn [fold_left fst snd].
      destruct (pdec p q) as [->|Hne].
      - destruct (IH v) as [(a1 & a2 & w & -> & H1 & H2)|[H1 H2]].
        + left. exists ((q, v) :: a1), a2, w. auto.
        + left. exists [], a, v. auto.
      - destruct (IH x) as [(a1 & a2 & w & -> & H1 & H2)|[H1 H2]].
        + left. exists ((q, v) :: a1), a2, w. auto.
        + right. split; [|exact H2]. intros v' [H|H]; [congruence|apply (H1 v' H)]. }
    destruct (H a VDefault) as [(a1 & a2 & v & E1 & E2 & E3)|[E1 E2]]; rewrite ?E3, ?E2; [left; eauto|right; auto].
  Qed.
  Lemma pick_in a p x : pick a p x = x \/ In (p, pick a p x) a.
  Proof.
    unfold pick. revert x. induction a as [|[q v] a IH]; intros x; [left; reflexivity|]. cbn [fold_left fst snd]. destruct (pdec p q) as [->|Hne].
    - destruct (IH v) as [H|H]; [right; left; rewrite H; reflexivity|right; right; exact H].
    - destruct (IH x) as [H|H]; [left; exact H|right; right; exact H].
  Qed.
  Lemma proper_resolve (kind : P -> avalue E -> Prop) name : (forall p, kind p VDefault) -> forall ds m m', Forall (proper kind name) ds -> proper_map kind name m ->
    resolve_to_output pdec reset ds m = Some m' -> proper_map kind name m'.
  Proof.
    intros Hdef ds m m' Hds Hm Hr. destruct (resolve_spec ds m) as (m1 & E1 & E2). rewrite Hr in E1. injection E1 as <-.
    intros p l. rewrite E2. specialize (Hm p). clear Hr E2. revert Hm. generalize (m p) as o. induction Hds as [|d ds Hd Hds IH]; intros o Ho; cbn [fold_left]; [apply Ho|].
    apply IH. intros l'. destruct d as [[[|a anims]|]|q [vs|]]; cbn [effect proper] in *; try discriminate; [| |apply Ho].
    - intros H. injection H as <-. split; [|intros _; discriminate]. intros v Hv. change (pick a p VDefault :: map (fun a => pick a p VDefault) anims) with (map (fun a => pick a p VDefault) (a :: anims)) in Hv.
      apply in_map_iff in Hv. destruct Hv as (b & <- & Hb). destruct (pick_in b p VDefault) as [->|H]; [apply Hdef|]. eapply Hd; eauto.
    - destruct (pdec p q) as [->|]; [|apply Ho]. intros H. injection H as <-. exact Hd.
  Qed.
End Resolve.

Lemma rev_last {A} (l : list A) : match rev l with [] => l = [] | v :: _ => exists l', l = l' ++ [v] end.
Proof.
  destruct (rev l) as [|v r] eqn:Er; [rewrite <- (rev_involutive l), Er; reflexivity|].
  exists (rev r). rewrite <- (rev_involutive l), Er. reflexivity.
Qed.
Lemma index_chosen {P E} (m : pmap P E) p i v : get_property_index m p i = Some v <-> chosen m p i v.
Proof.
  unfold get_property_index, chosen. split.
  - destruct (m p) as [l|]; [|discriminate]. intros H. exists l. split; [reflexivity|]. destruct (nth_error l i) as [w|] eqn:En; [left; congruence|right].
    apply nth_error_None in En. split; [exact En|]. pose proof (rev_last l) as Hl. destruct (rev l) as [|w r]; [discriminate|]. injection H as <-. exact Hl.
  - intros (l & -> & [H|[Hle (l' & ->)]]); [rewrite H; reflexivity|].
    assert (nth_error (l' ++ [v]) i = None) as -> by (apply nth_error_None; exact Hle). rewrite rev_app_distr. reflexivity.
Qed.
Lemma get_option {P E A} (m : pmap P E) p i (mk : A -> avalue E) (as_ : avalue E -> option A) dflt :
  (forall v x, as_ v = Some x <-> v = mk x) -> option_is m p i mk dflt (or_default (and_then (get_property_index m p i) as_) dflt).
Proof.
  intros Has. unfold option_is, and_then, or_default. destruct (get_property_index m p i) as [v|] eqn:Eg.
  - destruct (as_ v) as [x|] eqn:Ea.
    + left. apply Has in Ea. subst v. apply index_chosen, Eg.
    + right. split; [|reflexivity]. intros d' Hc. apply index_chosen in Hc. rewrite Eg in Hc. injection Hc as ->.
      assert (as_ (mk d') = Some d') by (apply Has; reflexivity). congruence.
  - right. split; [|reflexivity]. intros d' Hc. apply index_chosen in Hc. congruence.
Qed.
Lemma named_spec {E} (l : list (avalue E)) : forall k i n, In (i, n) (named k l) <-> exists j, i = k + j /\ nth_error l j = Some (VName n).
Proof.
  induction l as [|v l IH]; intros k i n; cbn [named].
  - split; [intros []|]. intros (j & _ & H). destruct j; discriminate.
  - assert (Hrest : In (i, n) (named (S k) l) <-> exists j, i = k + S j /\ nth_error l j = Some (VName n)).
    { rewrite IH. split; intros (j & -> & H); exists j; (split; [lia|exact H]). }
    split.
    + intros H. assert (Hcase : (v = VName n /\ i = k) \/ In (i, n) (named (S k) l)).
      { destruct v; cbn [as_name] in H; auto. destruct H as [H|H]; [|auto]. injection H as <- <-. left. split; reflexivity. }
      destruct Hcase as [[-> ->]|Hc]; [exists 0; split; [lia|reflexivity]|]. apply Hrest in Hc. destruct Hc as (j & -> & Hj). exists (S j). auto.
    + intros (j & -> & H). destruct j as [|j].
      * cbn in H. injection H as ->. cbn [as_name]. left. f_equal. lia.
      * cbn in H. assert (In (k + S j, n) (named (S k) l)) by (apply Hrest; exists j; auto). destruct (as_name v); [right|]; assumption.
Qed.
Lemma named_sorted {E} (l : list (avalue E)) : forall k, StronglySorted lt (map fst (named k l)) /\ forall i, In i (map fst (named k l)) -> k <= i.
Proof.
  induction l as [|v l IH]; intros k; cbn [named]; [split; [constructor|intros i []]|].
  destruct (IH (S k)) as [I1 I2].
  destruct (as_name v) as [n|].
  - cbn [map fst]. split; [constructor; [exact I1|]|].
    + apply Forall_forall. intros i Hi. apply I2 in Hi. lia.
    + intros i [<-|Hi]; [lia|]. apply I2 in Hi. lia.
  - split; [exact I1|]. intros i Hi. apply I2 in Hi. lia.
Qed.
