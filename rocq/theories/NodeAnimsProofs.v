From Coq Require Import NArith Permutation.
From Verif Require Import Base Inherit Animation Transition NodeProps NodePropsSpec NodePropsProofs NodePropsProofs2 NodeAnimsSpec.

Ltac dif := match goal with |- context [existsb ?f ?l] => destruct (existsb f l) end.
Ltac dif_as E := match goal with |- context [existsb ?f ?l] => destruct (existsb f l) eqn:E end.
Lemma omap_inv {A B} (f : A -> B) o b : option_map f o = Some b -> exists a, o = Some a /\ b = f a.
Proof. destruct o as [a|]; [|discriminate]. intros H. injection H as <-. eauto. Qed.
Section P.
  Context {K : Type}.
  Variables (animatable : nat -> bool) (fuel : nat).
  Notation anim_map := (anim_map (K := K)).
  Notation set_vec := (set_vec animatable fuel).
  Notation set_config := (set_config animatable fuel).
  Notation set_configs := (set_configs animatable fuel).
  Notation set_animations := (set_animations animatable fuel).

  Definition cancelled (pa : nat * (animation * K)) : nat * (animation * K) := (fst pa, (cancel (fst (snd pa)), snd (snd pa))).

  Lemma of_name_cons (name name' : nat) l (m : anim_map) : of_name ((name', l) :: m) name = (if Nat.eqb name' name then l else []) ++ of_name m name.
  Proof. unfold of_name. cbn. destruct (Nat.eqb name' name); reflexivity. Qed.

  Lemma of_name_absent (m : anim_map) name : ~ In name (map fst m) -> of_name m name = [].
  Proof.
    induction m as [|[k l] m IH]; intros H; [reflexivity|]. rewrite of_name_cons. destruct (Nat.eqb_spec k name); [|apply IH; firstorder].
    exfalso. apply H. left. exact e.
  Qed.

  Lemma cancel_missing_keys cs (m : anim_map) : map fst (cancel_missing cs m) = map fst m.
  Proof. unfold cancel_missing. rewrite map_map. apply map_ext. intros e. match goal with |- context [if ?b then _ else _] => destruct b end; reflexivity. Qed.

  Lemma map_cancel_of (B : nat -> bool) (m : anim_map) name :
    of_name (map (fun e => if B (fst e) then e else (fst e, map cancelled (snd e))) m) name = if B name then of_name m name else map cancelled (of_name m name).
  Proof.
    induction m as [|[k l] m IH]; [cbn; destruct (B name); reflexivity|].
    cbn [map fst snd]. replace (if B k then (k, l) else (k, map cancelled l)) with (k, if B k then l else map cancelled l) by (destruct (B k); reflexivity).
    rewrite !of_name_cons, IH. destruct (Nat.eqb_spec k name) as [->|].
    - destruct (B name); [reflexivity|]. rewrite map_app. reflexivity.
    - reflexivity.
  Qed.
  Lemma cancel_missing_of cs (m : anim_map) name :
    of_name (cancel_missing cs m) name = if existsb (fun c => Nat.eqb (fst c) name) cs then of_name m name else map cancelled (of_name m name).
  Proof. exact (map_cancel_of (fun n => existsb (fun c => Nat.eqb (fst c) n) cs) m name). Qed.

  Lemma set_config_keys resolve c (m : anim_map) : forall m', set_config resolve c m = Some m' -> is_map m -> is_map m' /\ (forall k, In k (map fst m') <-> k = fst c \/ In k (map fst m)).
  Proof.
    unfold is_map. induction m as [|[k l] m IH]; intros m' H N; cbn [NodeProps.set_config] in H.
    - apply omap_inv in H. destruct H as (l & El & ->). cbn. split; [repeat constructor; firstorder|]. intros k. split; intros [H|H]; auto.
    - inversion N; subst. destruct (Nat.eqb_spec (fst c) k) as [Ek|Ek].
      + apply omap_inv in H. destruct H as (l' & El & ->). cbn. split; [constructor; assumption|]. intros q. rewrite Ek. split; [intros [G|G]; auto|intros [G|[G|G]]; auto].
      + apply omap_inv in H. destruct H as (m1 & Em & ->). destruct (IH m1 Em H3) as [A B]. cbn. split.
        * constructor; [|exact A]. intros G. apply B in G. destruct G as [G|G]; [congruence|contradiction].
        * intros q. rewrite B. tauto.
  Qed.

  Lemma set_config_other resolve c (m : anim_map) name : fst c <> name -> forall m', set_config resolve c m = Some m' -> of_name m' name = of_name m name.
  Proof.
    intros Hn. induction m as [|[k l] m IH]; intros m' H; cbn [NodeProps.set_config] in H.
    - apply omap_inv in H. destruct H as (l & El & ->). rewrite of_name_cons. destruct (Nat.eqb_spec (fst c) name); [contradiction|]. reflexivity.
    - destruct (Nat.eqb_spec (fst c) k) as [Ek|Ek].
      + apply omap_inv in H. destruct H as (l' & El & ->). rewrite !of_name_cons. destruct (Nat.eqb_spec k name); [congruence|]. reflexivity.
      + apply omap_inv in H. destruct H as (m1 & Em & ->). rewrite !of_name_cons, (IH m1 Em). reflexivity.
  Qed.

  Lemma set_config_same resolve c (m : anim_map) : is_map m -> forall m', set_config resolve c m = Some m' ->
    exists l, set_vec resolve c (of_name m (fst c)) = Some l /\ of_name m' (fst c) = l.
  Proof.
    unfold is_map. induction m as [|[k l] m IH]; intros N m' H; cbn [NodeProps.set_config] in H.
    - apply omap_inv in H. destruct H as (l & El & ->). exists l. split; [exact El|]. rewrite of_name_cons, Nat.eqb_refl. cbn. apply app_nil_r.
    - inversion N; subst. destruct (Nat.eqb_spec (fst c) k) as [Ek|Ek].
      + apply omap_inv in H. destruct H as (l' & El & ->). rewrite !of_name_cons, Ek, Nat.eqb_refl, (of_name_absent m k H2), !app_nil_r. eauto.
      + apply omap_inv in H. destruct H as (m1 & Em & ->). rewrite !of_name_cons.
        destruct (Nat.eqb_spec k (fst c)); [congruence|]. exact (IH H3 m1 Em).
  Qed.

  Lemma set_configs_other resolve cs name : forall (m m' : anim_map), ~ In name (map fst cs) -> set_configs resolve cs m = Some m' -> of_name m' name = of_name m name.
  Proof.
    induction cs as [|c cs IH]; intros m m' N H; cbn in H; [injection H as <-; reflexivity|].
    destruct (set_config resolve c m) as [m1|] eqn:E1; [|discriminate]. rewrite (IH m1 m'); [|cbn in N; tauto|exact H].
    apply (set_config_other resolve c m name); [cbn in N; tauto|exact E1].
  Qed.

  Lemma set_configs_same resolve cs name o : forall (m m' : anim_map), is_map m -> NoDup (map fst cs) -> In (name, o) cs ->
    set_configs resolve cs m = Some m' -> exists l, set_vec resolve (name, o) (of_name m name) = Some l /\ of_name m' name = l.
  Proof.
    induction cs as [|c cs IH]; intros m m' Nm N Hi H; cbn in H; [destruct Hi|].
    destruct (set_config resolve c m) as [m1|] eqn:E1; [|discriminate]. inversion N; subst. destruct Hi as [->|Hi].
    - destruct (set_config_same resolve _ m Nm m1 E1) as (l & A & B). exists l. split; [exact A|]. rewrite <- B. cbn [fst] in *.
      apply (set_configs_other resolve cs name m1 m'); assumption.
    - destruct (set_config_keys resolve c m m1 E1 Nm) as [Nm1 _]. destruct (IH m1 m' Nm1 H3 Hi H) as (l & A & B).
      rewrite (set_config_other resolve c m name) with (m' := m1) in A; [eauto| |exact E1].
      intros G. apply H2. rewrite G. apply in_map_iff. exists (name, o). auto.
  Qed.

  Lemma set_configs_map resolve cs : forall (m m' : anim_map), is_map m -> set_configs resolve cs m = Some m' -> is_map m'.
  Proof.
    induction cs as [|c cs IH]; intros m m' Nm H; cbn in H; [injection H as <-; exact Nm|].
    destruct (set_config resolve c m) as [m1|] eqn:E1; [|discriminate]. apply (IH m1 m'); [|exact H]. apply (set_config_keys resolve c m m1 E1 Nm).
  Qed.

  Lemma existsb_name (cs : list config) name : existsb (fun c => Nat.eqb (fst c) name) cs = true <-> In name (map fst cs).
  Proof.
    rewrite existsb_exists, in_map_iff. split; intros (c & A & B); exists c.
    - apply Nat.eqb_eq in B. auto.
    - split; [exact B|]. apply Nat.eqb_eq. exact A.
  Qed.

  Lemma traverse_forall2 {A B} (f : A -> option B) l : forall r, traverse f l = Some r -> Forall2 (fun a b => f a = Some b) l r.
  Proof.
    induction l as [|a l IH]; intros r H; cbn in H; [injection H as <-; constructor|].
    destruct (f a) eqn:Ea; [|discriminate]. destruct (traverse f l); [|discriminate]. injection H as <-. constructor; auto.
  Qed.

  Lemma all_canceled_iff (l : list (nat * (animation * K))) : forallb (fun pa => is_canceled (fst (snd pa))) l = true <-> Forall (fun pa => state (fst (snd pa)) = Canceled) l.
  Proof.
    rewrite forallb_forall, Forall_forall. split; intros H pa Hp; specialize (H pa Hp); unfold is_canceled in *; destruct (state (fst (snd pa))); auto; discriminate.
  Qed.

  Lemma cancel_state a : state (cancel a) = Canceled.
  Proof. reflexivity. Qed.

  Lemma events_iff cs (m : anim_map) name p :
    In (AnCanceled, name, p) (cancel_events cs m) <-> ~ In name (map fst cs) /\ exists a, In (p, a) (of_name m name).
  Proof.
    unfold cancel_events. rewrite in_flat_map. unfold of_name. split.
    - intros ([k l] & He & Hi). cbn [fst snd] in Hi. destruct (existsb (fun c : nat * options => Nat.eqb (fst c) k) cs) eqn:E; [destruct Hi|].
      apply in_map_iff in Hi. destruct Hi as ([q a] & H & Hi). injection H as <- <-.
      split; [rewrite <- existsb_name; change config with (nat * options)%type in *; congruence|].
      exists a. apply in_flat_map. exists (k, l). split; [|exact Hi]. apply filter_In. split; [exact He|apply Nat.eqb_refl].
    - intros [A [a B]]. apply in_flat_map in B. destruct B as ([k l] & He & Hi). apply filter_In in He. destruct He as [He Hk]. cbn in Hk. apply Nat.eqb_eq in Hk. subst k.
      exists (name, l). split; [exact He|]. cbn [fst snd]. rewrite <- existsb_name in A.
      destruct (existsb (fun c : nat * options => Nat.eqb (fst c) name) cs) eqn:E; [contradiction|].
      apply in_map_iff. exists (p, a). auto.
  Qed.
End P.
