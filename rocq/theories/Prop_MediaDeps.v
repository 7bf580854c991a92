(** C82: the rules in @media blocks that are active on a node follow the theme of its window and its size. *)
From Coq Require Import NArith.
From Verif Require Import Base Media MediaDeps MediaDepsSpec MediaDepsProofs.

(** Missing to the full claim: a node that comes to see another colour scheme because its camera, the target of the camera or the
    primary window changes, or because the window is closed ([C82_moved_refuted]), without being looked at for another reason. *)
Theorem C82_media_partial : forall f32 feq fle fge h n, steady_history f32 feq fle fge h -> up_to_date f32 feq fle fge (updates f32 feq fle fge h) n.
Proof.
  intros f32 feq fle fge h n Hh. destruct (updates_good f32 feq fle fge h Hh) as [_ Hg]. intros rules Er. destruct (Hg n) as [_ G]. destruct (G rules Er) as (_ & -> & _). apply ask_rules_holds.
Qed.
Print Assumptions C82_media_partial.

(** The conditions hold in an application that sets up its cameras once. *)
Lemma plain_shown f32 ops s : (forall o, In o ops -> plain o) -> let s' := program f32 ops s in
  (forall n, shown_on f32 s' n = shown_on f32 s n) /\ (forall w, windows s w <> None -> windows s' w <> None) /\ (forall n, n_info (nodes s n) <> None -> n_info (nodes s' n) <> None).
Proof.
  intros Hp. cbn zeta. unfold program. revert s Hp. induction ops as [|o ops IH]; intros s Hp; [auto|]. cbn [fold_left].
  assert (Ho : plain o) by (apply Hp; left; reflexivity). destruct (IH (do f32 o s)) as (I1 & I2 & I3); [intros o' H; apply Hp; right; exact H|].
  assert (G : (forall n, shown_on f32 (do f32 o s) n = shown_on f32 s n) /\ (forall w, windows s w <> None -> windows (do f32 o s) w <> None) /\ (forall n, n_info (nodes s n) <> None -> n_info (nodes (do f32 o s) n) <> None)).
  { assert (Hset : forall (m : nat -> option window) k v w, m w <> None -> set m k (Some v) w <> None).
    { intros m k v w H. destruct (Nat.eq_dec w k) as [->|Hne]; [rewrite set_same; discriminate|rewrite set_other by exact Hne; exact H]. }
    destruct o as [k tm| |k tm|k tm| | | | |k oi|k ru|k ru re]; try contradiction; cbn [do]; unfold upd_windows, upd_nodes, shown_on; cbn [nodes cameras primary windows].
    - split; [reflexivity|]. split; [intros w; apply Hset|auto].
    - split; [reflexivity|]. split; [|auto]. intros w. destruct (windows s k); [apply Hset|intros H; exact H].
    - split; [reflexivity|]. split; [|auto]. intros w. destruct (windows s k); [|intros H; exact H]. destruct (opt_scheme_eqb _ _); [intros H; exact H|apply Hset].
    - destruct oi as [i|]; [|contradiction]. split; [|split; [auto|]].
      + intros n. destruct (Nat.eq_dec n k) as [->|Hne]; [rewrite set_same|rewrite set_other by exact Hne]; reflexivity.
      + intros n. destruct (Nat.eq_dec n k) as [->|Hne]; [rewrite set_same; discriminate|rewrite set_other by exact Hne; auto].
    - split; [|split; [auto|]]; intros n; (destruct (Nat.eq_dec n k) as [->|Hne]; [rewrite set_same|rewrite set_other by exact Hne]); cbn; auto.
    - split; [|split; [auto|]]; intros n; (destruct (Nat.eq_dec n k) as [->|Hne]; [rewrite set_same|rewrite set_other by exact Hne]); cbn; auto. }
  destruct G as (G1 & G2 & G3). split; [intros n; rewrite I1; apply G1|]. split; auto.
Qed.
Lemma no_camera f32 ops n : (forall c, ~ In (SetNodeCamera f32 n c) ops) -> forall s, n_camera (nodes s n) = None -> n_camera (nodes (program f32 ops s) n) = None.
Proof.
  unfold program. induction ops as [|o ops IH]; intros Hn s Hs; [exact Hs|]. cbn [fold_left]. apply IH; [intros c H; apply (Hn c); right; exact H|].
  destruct o as [| | | | | | |k c|k i|k r|k r b]; try exact Hs; cbn [do upd_nodes nodes]; (destruct (Nat.eq_dec n k) as [->|Hne]; [rewrite set_same|rewrite set_other by exact Hne; exact Hs]); cbn; [|exact Hs|exact Hs|exact Hs].
  exfalso. apply (Hn c). left. reflexivity.
Qed.
Theorem C82_set_up_once : forall f32 feq fle fge (h : list (list (op f32))) n, set_up_once h -> up_to_date f32 feq fle fge (updates f32 feq fle fge h) n.
Proof.
  intros f32 feq fle fge h n Hh. apply C82_media_partial. intros h1 ops h2 E n'. destruct h as [|first rest]; [destruct h1; discriminate|]. destruct Hh as [Hf Hr].
  destruct h1 as [|f h1]; cbn in E; injection E as E1 E2; subst.
  - assert (Hd : restyled f32 ops n' \/ (forall c, ~ In (SetNodeCamera f32 n' c) ops)).
    { destruct (existsb (fun o => match o with SetNodeCamera _ k _ => Nat.eqb k n' | _ => false end) ops) eqn:Eb.
      - apply existsb_exists in Eb as (o & Ho & Eo). destruct o; try discriminate. apply Nat.eqb_eq in Eo. subst. left. eapply Hf; eauto.
      - right. intros c H. assert (existsb (fun o => match o with SetNodeCamera _ k _ => Nat.eqb k n' | _ => false end) ops = true); [|congruence].
        apply existsb_exists. eexists. split; [exact H|apply Nat.eqb_refl]. }
    destruct Hd as [Hd|Hd]; [left; exact Hd|]. right. split; [|intros H; exfalso; apply H; reflexivity]. left. unfold scheme_of, shown_on. cbn [updates fold_left start nodes bare_node n_camera].
    rewrite no_camera; [reflexivity|exact Hd|reflexivity].
  - right. destruct (plain_shown f32 ops (updates f32 feq fle fge (f :: h1))) as (P1 & P2 & P3); [intros o; apply Hr, in_or_app; right; left; reflexivity|].
    split; [|apply P3]. right. split; [apply P1|]. intros w _. apply P2.
Qed.
Print Assumptions C82_set_up_once.

(** A text span has neither camera nor size: no rule in a @media block ever applies to it. *)
Theorem C82_text_span_never : forall f32 feq fle fge h n rules i q l b, let s := updates f32 feq fle fge h in
  steady_history f32 feq fle fge h -> n_camera (nodes s n) = None -> n_info (nodes s n) = None -> n_rules (nodes s n) = Some rules -> nth_error rules i = Some (q :: l) ->
  nth_error (n_active (nodes s n)) i = Some b -> b = false.
Proof.
  intros f32 feq fle fge h n rules i q l b s Hh Hc Hi Hr Hn Hb. pose proof (C82_media_partial f32 feq fle fge h n Hh rules Hr) as HF. fold s in HF.
  assert (G : b = true <-> Forall (holds f32 feq fle fge (scheme_of f32 s n) (n_info (nodes s n))) (q :: l)).
  { revert i Hn Hb. clear - HF. induction HF; intros [|i] Hn Hb; cbn in *; try discriminate; [injection Hn as ->; injection Hb as ->; assumption|eauto]. }
  destruct b; [|reflexivity]. exfalso. assert (Hq := proj1 G eq_refl). apply Forall_inv in Hq. rewrite Hi in Hq.
  assert (Hsc : scheme_of f32 s n = None) by (unfold scheme_of, shown_on; rewrite Hc; reflexivity). rewrite Hsc in Hq.
  destruct q; cbn in Hq; try discriminate; destruct Hq as (x & Hx & _); discriminate.
Qed.
Print Assumptions C82_text_span_never.

(** ** Concrete cases: numbers as floats *)
Notation upd := (updates N N.eqb N.leb ngeb).
Notation utd := (up_to_date N N.eqb N.leb ngeb).
Definition dark_rule : media_selectors N := [MColorScheme N Dark].
Definition wide_rule : media_selectors N := [MViewportWidth N (GreaterOrEqual 600%N); MColorScheme N Dark].
Definition size (w : N) : option (info N) := Some (mk_info N 1%N w 400%N 2%N).
(** two windows, a dark one (the primary one) and a light one; a camera on the primary window; a node *)
Definition set_up : list (op N) :=
  [OpenWindow N 0 (Some Dark); OpenWindow N 1 (Some Light); SetPrimary N (Some 0); SetCamera N 0 Primary; SetCamera N 1 (ToWindow 1);
   SetNodeCamera N 5 (Some 0); SetInfo N 5 (size 800); Restyle N 5 (Some [dark_rule; wide_rule; []]) false].
Example set_up_active : n_active (nodes (upd [set_up]) 5) = [true; true; true].
Proof. reflexivity. Qed.
(** the theme of the window changes, the size changes, and back *)
Definition sample : list (list (op N)) := [set_up; [ThemeMessage N 0 Light]; [SetInfo N 5 (size 500)]; [ThemeMessage N 0 Dark; SetTheme N 1 None]; []; [SetInfo N 5 (size 600)]].
Example sample_set_up_once : set_up_once sample.
Proof.
  split.
  - intros n c [H|[H|[H|[H|[H|[H|[H|[H|[]]]]]]]]]; try discriminate. injection H as <- <-. do 2 eexists. cbn. do 7 right. left. reflexivity.
  - intros ops o [<-|[<-|[<-|[<-|[<-|[]]]]]] Ho; cbn in Ho; repeat destruct Ho as [<-|Ho]; cbn; tauto.
Qed.
Example sample_active : map (fun k => n_active (nodes (upd (firstn k sample)) 5)) [1; 2; 3; 4; 5; 6] =
  [[true; true; true]; [false; false; true]; [false; false; true]; [true; false; true]; [true; false; true]; [true; true; true]].
Proof. vm_compute. reflexivity. Qed.

(** The node stays as it was on the dark window, although it is shown on a light one (or on none): the camera turns to another
    window; the node goes to another camera; the primary window becomes another one; the window is closed. *)
Lemma stale_no_up_to_date : forall h, n_rules (nodes (upd h) 5) = Some [dark_rule; wide_rule; []] -> n_active (nodes (upd h) 5) = [true; true; true] -> scheme_of N (upd h) 5 <> Some Dark -> ~ utd (upd h) 5.
Proof. intros h Hr Ha Hs H. specialize (H _ Hr). rewrite Ha in H. inversion H; subst. destruct H3 as [H3 _]. specialize (H3 eq_refl). apply Forall_inv in H3. cbn in H3. contradiction. Qed.
Theorem C82_moved_refuted : forall o, In o [SetCamera N 0 (ToWindow 1); SetNodeCamera N 5 (Some 1); SetPrimary N (Some 1); CloseWindow N 0] ->
  utd (upd [set_up]) 5 /\ ~ utd (upd [set_up; [o]]) 5 /\ ~ utd (upd [set_up; [o]; []]) 5.
Proof.
  intros o Ho. split; [apply C82_set_up_once; split; [apply (proj1 sample_set_up_once)|intros ? ? []]|].
  destruct Ho as [<-|[<-|[<-|[<-|[]]]]]; split; (apply stale_no_up_to_date; vm_compute; [reflexivity|reflexivity|discriminate]).
Qed.
Print Assumptions C82_moved_refuted.
(** ... until something else makes the node be looked at. *)
Example moved_restyled : n_active (nodes (upd [set_up; [SetCamera N 0 (ToWindow 1)]; [Restyle N 5 (Some [dark_rule; wide_rule; []]) false]]) 5) = [false; false; true].
Proof. reflexivity. Qed.
(** A style sheet that arrives later is applied. *)
Example loaded_later : n_active (nodes (upd [firstn 7 set_up ++ [Restyle N 5 None false]; []; [Load N 5 [dark_rule]]]) 5) = [true].
Proof. reflexivity. Qed.
