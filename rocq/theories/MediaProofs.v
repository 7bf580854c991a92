From Coq Require Import NArith.
From Verif Require Import Base Media MediaSpec.
Local Open Scope N_scope.

Section Proofs.
  Variable f32 : Type.
  Variables feq fle fge : f32 -> f32 -> bool.
  Variable fdiv : N -> N -> f32.
  Notation matches := (media_matches f32 feq fle fge fdiv).
  Notation sel := (selector_matches f32 feq fle fge fdiv).
  Notation holds := (test_holds f32 feq fle fge fdiv).

  Lemma selector_spec m s : sel s m = Some true <-> holds m s.
  Proof.
    split.
    - destruct s as [c|[x|x|x]|[x|x|x]|[x|x|x]|[x|x|x]]; simpl; unfold get_aspect_ratio, ngeb; intros H;
      repeat match type of H with
        | context [match ?o with Some _ => _ | None => _ end] => destruct o eqn:?; simpl in H
        | context [option_map _ ?o] => destruct o eqn:?; simpl in H
        end; try discriminate; injection H as H.
      + constructor. destruct c, c0; simpl in H; congruence.
      + apply N.eqb_eq in H. subst. constructor; assumption.
      + apply N.leb_le in H. econstructor; eassumption.
      + apply N.leb_le in H. econstructor; eassumption.
      + apply N.eqb_eq in H. subst. constructor; assumption.
      + apply N.leb_le in H. econstructor; eassumption.
      + apply N.leb_le in H. econstructor; eassumption.
      + eapply th_aspect_exact; eassumption.
      + eapply th_aspect_max; eassumption.
      + eapply th_aspect_min; eassumption.
      + eapply th_res_exact; eassumption.
      + eapply th_res_max; eassumption.
      + eapply th_res_min; eassumption.
    - intros H; destruct H; simpl; unfold get_aspect_ratio, ngeb; repeat match goal with E : _ = Some _ |- _ => rewrite E; clear E end; simpl.
      + destruct c; reflexivity.
      + rewrite N.eqb_refl; reflexivity.
      + apply N.leb_le in H0; rewrite H0; reflexivity.
      + apply N.leb_le in H0; rewrite H0; reflexivity.
      + rewrite N.eqb_refl; reflexivity.
      + apply N.leb_le in H0; rewrite H0; reflexivity.
      + apply N.leb_le in H0; rewrite H0; reflexivity.
      + rewrite H1; reflexivity.
      + rewrite H1; reflexivity.
      + rewrite H1; reflexivity.
      + rewrite H0; reflexivity.
      + rewrite H0; reflexivity.
      + rewrite H0; reflexivity.
  Qed.

  Lemma matches_forallb l m :
    matches l m = forallb (fun s => match sel s m with Some b => b | None => false end) l.
  Proof. destruct l; reflexivity. Qed.

  Lemma matches_iff l m : matches l m = true <-> forall s, In s l -> holds m s.
  Proof.
    rewrite matches_forallb, forallb_forall. split; intros H s Hs; specialize (H s Hs).
    - apply selector_spec. destruct (sel s m); [congruence|discriminate].
    - apply selector_spec in H. rewrite H. reflexivity.
  Qed.

  Lemma missing_never m l s : In s l -> feature_missing f32 m s -> matches l m = false.
  Proof.
    intros Hs Hm. destruct (matches l m) eqn:E; [|reflexivity]. exfalso.
    apply (proj1 (matches_iff l m) E) in Hs. destruct Hs; simpl in Hm; try congruence; destruct Hm; congruence.
  Qed.

  Lemma merge_matches a b m : matches (merge_with f32 a b) m = matches a m && matches b m.
  Proof.
    rewrite !matches_forallb. destruct a as [|x a]; [reflexivity|].
    unfold merge_with. rewrite forallb_app. reflexivity.
  Qed.

  Lemma merge_app a b : merge_with f32 a b = (a ++ b)%list.
  Proof. destruct a; reflexivity. Qed.

  Lemma merge_assoc a b c : merge_with f32 (merge_with f32 a b) c = merge_with f32 a (merge_with f32 b c).
  Proof. rewrite !merge_app. symmetry. apply app_assoc. Qed.

  Lemma merge_unit a : merge_with f32 a (media_empty f32) = a /\ merge_with f32 (media_empty f32) a = a.
  Proof. rewrite !merge_app. split; [apply app_nil_r|reflexivity]. Qed.
End Proofs.
