From Coq Require Import Ascii String NArith ZArith Lia.
From Verif Require Import Base Vars VarsSpec VarText VarTextSpec.
Open Scope nat_scope.

Ltac bytes c := destruct c as [[] [] [] [] [] [] [] []].
Definition stop (r : text) : Prop := match r with [] => True | c :: _ => name_byte c = false /\ c <> "\"%char end.
Definition space (r : text) : Prop := r = [] \/ exists r', r = " "%char :: r'.
Lemma space_stop r : space r -> stop r.
Proof. intros [->|[r' ->]]; simpl; [exact I|]. split; [reflexivity|discriminate]. Qed.
Definition clean (c : ascii) : Prop := name_byte c = true /\ is 0 c = false.

(** ** Names *)
Lemma name_f_clean v : Forall clean v -> forall n r, stop r -> length v + length r <= n -> name_f n (v ++ r) = (v, r).
Proof.
  induction 1 as [|c v [Hc H0] Hv IH]; intros n r Hr Hn.
  - simpl. destruct n; destruct r as [|c r]; try reflexivity. destruct Hr as [Hr1 Hr2]. cbn [name_f].
    assert (E0 : is 0 c = false). { destruct (is 0 c) eqn:E; [|reflexivity]. unfold name_byte in Hr1. rewrite E in Hr1. rewrite !Bool.orb_true_r in Hr1. discriminate. }
    assert (E1 : is 92 c = false). { destruct (is 92 c) eqn:E; [|reflexivity]. exfalso. apply Hr2. unfold is in E. apply N.eqb_eq in E. unfold code in E.
      rewrite <- (ascii_N_embedding c), E. reflexivity. }
    rewrite E0, Hr1, E1. reflexivity.
  - destruct n as [|n]; [simpl in Hn; lia|]. cbn [app name_f]. rewrite H0, Hc, IH by (auto; simpl in Hn; lia). reflexivity.
Qed.
Lemma name_clean v r : Forall clean v -> stop r -> name (v ++ r) = (v, r).
Proof. intros Hv Hr. apply name_f_clean; [exact Hv|exact Hr|]. rewrite app_length. lia. Qed.
Lemma is_code k c : is k c = true -> c = ascii_of_N k.
Proof. unfold is, code. intros H. apply N.eqb_eq in H. rewrite <- (ascii_N_embedding c), H. reflexivity. Qed.
Lemma not_backslash c : c <> "\"%char -> is 92 c = false.
Proof. intros H. destruct (is 92 c) eqn:E; [|reflexivity]. apply is_code in E. exfalso. apply H. exact E. Qed.
Lemma replacement_clean : Forall clean replacement.
Proof. repeat constructor. Qed.
Lemma replacement_head : exists c v, replacement = c :: v /\ is 45 c = false /\ name_start c = true /\ is_digit c = false.
Proof. do 2 eexists. repeat split. Qed.
Local Opaque replacement.
Definition nobs (s : text) : Prop := ~ In "\"%char s.
Lemma nobs_cons c s : nobs (c :: s) <-> is 92 c = false /\ nobs s.
Proof.
  unfold nobs. simpl. split.
  - intros H. split; [apply not_backslash; intros E; apply H; left; congruence|tauto].
  - intros [H1 H2] [H|H]; [subst c; discriminate H1|tauto].
Qed.
Lemma name_f_out n : forall s v r, nobs s -> name_f n s = (v, r) -> Forall clean v /\ nobs r /\ length r <= length s.
Proof.
  induction n as [|n IH]; intros s v r Hs H; cbn [name_f] in H; [injection H as <- <-; auto|].
  destruct s as [|c s]; [injection H as <- <-; auto|]. apply nobs_cons in Hs. destruct Hs as [Hc Hs].
  destruct (is 0 c) eqn:E0.
  - destruct (name_f n s) as [v' r'] eqn:E. injection H as <- <-. destruct (IH _ _ _ Hs E) as (A & B & C). split; [apply Forall_app; split; [exact replacement_clean|exact A]|]. split; [exact B|simpl; lia].
  - destruct (name_byte c) eqn:En.
    + destruct (name_f n s) as [v' r'] eqn:E. injection H as <- <-. destruct (IH _ _ _ Hs E) as (A & B & C). split; [constructor; [split; assumption|exact A]|]. split; [exact B|simpl; lia].
    + rewrite Hc in H. simpl in H. injection H as <- <-. split; [constructor|]. split; [apply nobs_cons; auto|lia].
Qed.
(** what a name starts with *)
Definition head_like (s v : text) : Prop :=
  match s, v with
  | c :: s', d :: v' => (is 45 c = is 45 d) /\ (name_start c = name_start d) /\ (is_digit c = is_digit d)
  | [], [] => True
  | c :: _, [] => name_byte c = false
  | _, _ => False
  end.
Lemma name_f_head n s v r : nobs s -> length s <= n -> name_f n s = (v, r) -> head_like s v.
Proof.
  intros Hs Hn H. destruct n as [|n]; destruct s as [|c s]; cbn [name_f] in H; try (simpl in Hn; lia); try (injection H as <- <-; exact I).
  apply nobs_cons in Hs. destruct Hs as [Hc Hs]. destruct (is 0 c) eqn:E0.
  - destruct (name_f n s) as [v' r'] eqn:E. injection H as <- <-. destruct replacement_head as (d & w & -> & A & B & C). simpl. apply is_code in E0. subst c. rewrite A, B, C. repeat split; reflexivity.
  - destruct (name_byte c) eqn:En; [destruct (name_f n s) as [v' r'] eqn:E; injection H as <- <-; simpl; auto|].
    rewrite Hc in H. simpl in H. injection H as <- <-. simpl. exact En.
Qed.
Lemma name_start_byte c : name_start c = true -> name_byte c = true.
Proof. bytes c; vm_compute; congruence. Qed.
Lemma name_f_start n s v r : nobs s -> length s <= n -> name_f n s = (v, r) -> ident_start s = true -> ident_start v = true.
Proof.
  intros Hs Hn H Hi. destruct s as [|c s]; [discriminate|]. destruct n as [|n]; [simpl in Hn; lia|].
  pose proof (name_f_head _ _ _ _ Hs Hn H) as Hh. unfold head_like in Hh. unfold ident_start in Hi.
  pose proof Hs as Hs'. apply nobs_cons in Hs'. destruct Hs' as [Hc Hs'].
  destruct (is 45 c) eqn:E45.
  - cbn [name_f] in H. pose proof (is_code _ _ E45) as ->. change (is 0 (ascii_of_N 45)) with false in H. change (name_byte (ascii_of_N 45)) with true in H. cbv iota in H.
    destruct (name_f n s) as [v' r'] eqn:E. injection H as <- <-. destruct s as [|d s]; [discriminate|].
    apply nobs_cons in Hs'. destruct Hs' as [Hd Hs']. rewrite Hd in Hi. simpl in Hi. rewrite Bool.orb_false_r in Hi.
    assert (Hh' : head_like (d :: s) v') by (eapply name_f_head; [| |exact E]; [apply nobs_cons; auto|simpl in *; lia]).
    destruct v' as [|e v'].
    + exfalso. simpl in Hh'. apply Bool.orb_prop in Hi. destruct Hi as [Hi|Hi]; [apply name_start_byte in Hi; congruence|]. apply is_code in Hi. subst d. discriminate Hh'.
    + destruct Hh' as (A & B & C). cbn [ident_start]. change (is 45 (ascii_of_N 45)) with true. cbv iota. rewrite <- A, <- B, Hi. reflexivity.
  - rewrite Hc in Hi. destruct v as [|d v].
    + apply name_start_byte in Hi. congruence.
    + destruct Hh as (A & B & C). unfold ident_start. rewrite <- A, <- B. destruct (is 92 d) eqn:E92; [apply is_code in E92; subst d; rewrite B in Hi; discriminate Hi|exact Hi].
Qed.
Lemma ident_start_app v r : ident_start v = true -> nobs v -> ident_start (v ++ r) = true.
Proof.
  intros H Hn. destruct v as [|c v]; [discriminate|]. cbn [app ident_start] in *. apply nobs_cons in Hn. destruct Hn as [Hc Hn]. rewrite Hc in *.
  destruct (is 45 c); [|exact H]. destruct v as [|d v]; [discriminate|]. cbn [app]. apply nobs_cons in Hn. destruct Hn as [Hd _]. rewrite Hd in *. exact H.
Qed.
Lemma clean_nobs v : Forall clean v -> nobs v.
Proof. intros H Hin. rewrite Forall_forall in H. apply H in Hin. destruct Hin as [Hin _]. discriminate Hin. Qed.
