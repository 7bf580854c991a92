(** Proofs for C112: the values from the builders of texts are those from the texts. *)
From Coq Require Import Ascii String NArith.
From Verif Require Import Base Tree TreeSpec Vars VarsSpec Media MediaSpec Cascade Matching MatchingSpec SpecificitySpec Nesting NestingSpec SheetText SelText SheetSel SheetCascadeSpec SheetCascadeProofs2 SheetCascadeProofs3 CascadeProofs CascadeProofs3 Whole WholeSpec SheetWhole SheetWholeSpec SheetWholeProofs2.
From Verif Require VarFlow VarFlowSpec Inherit InheritSpec.
Open Scope list_scope.

Section L.
  Context {CN TP AP KN KF FF V : Type}.
  Notation M := (media_selector fval).
  Notation dyn := ((list nat -> option (list (nat * nat))) * VarFlow.toks)%type.
  Notation D := (list (nat * VarFlow.toks) * list (builder_property CN nat dyn))%type.
  Notation rulesT := (list (Nesting.top pcomplex M D)).
  Notation situationT := (situation CN TP AP KN KF FF fval).
  Notation brs := (builder_ruleset nat VarFlow.toks CN nat dyn TP AP).
  Variables (resolve_name : CN -> option nat) (type_ok : nat -> nat -> bool) (path_ok : FF -> bool) (placeholder : nat -> nat).
  Variables (t : situationT) (texts : nat -> option rulesT) (nodes : list nat).
  Notation ld := (loaded resolve_name type_ok path_ok placeholder).
  Notation fge := (fun x y => fle y x).
  Hypothesis C : consistent nodes (s_world t).
  Hypothesis Sh : forall n, s_sheet t n = match texts n with Some rs => text_builder rs | None => None end.
  Hypothesis Tx : forall n rs, texts n = Some rs -> Forall top_ok rs /\ Forall blocks_inhabited rs /\
    (forall e q, In e (declarations_in rs) -> In q (snd (n_decl e)) -> fits resolve_name type_ok placeholder q) /\
    (forall e a x, In e (declarations_in rs) -> In a (n_alts e) -> counted_complex a x -> countable x) /\
    (forall e, In e (declarations_in rs) -> Forall parsed (n_alts e)).
  Notation casc rs n := (cascaded (s_world t) (s_media t n) (s_ratio t n) (layers_in rs) (declarations_in rs) n).
  Notation not_casc rs n := (not_cascaded (s_world t) (s_media t n) (s_ratio t n) (declarations_in rs) n).

  Lemma built_at n rs : texts n = Some rs -> exists b, s_sheet t n = Some b /\ ld b /\
    (forall A (G : _ -> A -> Prop) Y (inl : list Y) Gi,
      (forall v, WholeSpec.cascaded feq fle fge t b n vars G inl Gi v <-> casc rs n fst G inl Gi v) /\
      (WholeSpec.not_cascaded feq fle fge t b n vars G inl Gi <-> not_casc rs n fst G inl Gi)) /\
    (forall A (G : _ -> A -> Prop) Y (inl : list Y) Gi,
      (forall v, WholeSpec.cascaded feq fle fge t b n properties G inl Gi v <-> casc rs n snd G inl Gi v) /\
      (WholeSpec.not_cascaded feq fle fge t b n properties G inl Gi <-> not_casc rs n snd G inl Gi)).
  Proof.
    intros Et. destruct (Tx n rs Et) as (H1 & H2 & H3 & H4 & H5). destruct (text_cascade (TP := TP) (AP := AP) (KN := KN) (KF := KF) resolve_name type_ok path_ok placeholder rs H1 H2 H3 H4 H5) as (b & E & Hb & _ & Hc).
    exists b. split; [rewrite Sh, Et; exact E|]. split; [exact Hb|]. split; intros A G Y inl Gi; apply (Hc t nodes); try exact C.
    - intros ds. cbn. symmetry. apply flat_map_concat_map.
    - intros r Hr. apply is_empty_spec in Hr. apply Hr.
    - intros ds. cbn. symmetry. apply flat_map_concat_map.
    - intros r Hr. apply is_empty_spec in Hr. apply Hr.
  Qed.
  Lemma unbuilt n : texts n = None -> s_sheet t n = None.
  Proof. intros E. rewrite Sh, E. reflexivity. Qed.

  Lemma own_var_iff n k o : WholeSpec.own_var feq fle fge ld t n k o <-> own_var t texts n k o.
  Proof.
    unfold WholeSpec.own_var, own_var. destruct (texts n) as [rs|] eqn:Et.
    - destruct (built_at n rs Et) as (b & Eb & Hb & Hv & _). destruct (Hv _ (is_var k) _ (inline_vars t n) (is_var k)) as [Hc Hn]. split.
      + intros [(b' & E' & _ & H)|[H _]]; [|exfalso; exact (H b Eb Hb)]. rewrite Eb in E'. injection E' as <-. destruct o; [apply Hc|apply Hn]; exact H.
      + intros H. left. exists b. split; [exact Eb|]. split; [exact Hb|]. destruct o; [apply Hc|apply Hn]; exact H.
    - pose proof (unbuilt n Et) as Eb. split.
      + intros [(b & E' & _)|[_ H]]; [congruence|exact H].
      + intros H. right. split; [intros b E'; congruence|exact H].
  Qed.
  Lemma sees_iff n r : WholeSpec.sees feq fle fge ld t n r <-> sees t texts n r.
  Proof.
    unfold WholeSpec.sees, sees. split; intros (ow & H1 & H2); exists ow; (split; [|exact H2]); intros a k; apply own_var_iff; apply H1.
  Qed.
  Variables (initial : nat -> V) (decode : nat -> Inherit.pvalue V) (unset_code : nat -> nat).
  Lemma declared_iff p n d : WholeSpec.declared feq fle fge resolve_name placeholder decode unset_code ld t p n d <-> declared resolve_name placeholder t texts decode unset_code p n d.
  Proof.
    unfold WholeSpec.declared, declared. split.
    - intros (b' & r & v & E' & _ & Hs & Ed & H). destruct (texts n) as [rs|] eqn:Et; [|rewrite (unbuilt n Et) in E'; discriminate].
      destruct (built_at n rs Et) as (b & Eb & Hb & _ & Hp). rewrite Eb in E'. injection E' as <-. destruct (Hp _ (gives resolve_name placeholder r p) _ (inline_properties t n) (inline_gives r p)) as [Hc Hn].
      exists rs, r, v. split; [reflexivity|]. split; [apply sees_iff; exact Hs|]. split; [exact Ed|]. destruct H as [H|[H Hv]]; [left; apply Hc; exact H|right; split; [apply Hn; exact H|exact Hv]].
    - intros (rs & r & v & Et & Hs & Ed & H). destruct (built_at n rs Et) as (b & Eb & Hb & _ & Hp). destruct (Hp _ (gives resolve_name placeholder r p) _ (inline_properties t n) (inline_gives r p)) as [Hc Hn].
      exists b, r, v. split; [exact Eb|]. split; [exact Hb|]. split; [apply sees_iff; exact Hs|]. split; [exact Ed|]. destruct H as [H|[H Hv]]; [left; apply Hc; exact H|right; split; [apply Hn; exact H|exact Hv]].
  Qed.
  Lemma unloaded_iff n : (forall b, s_sheet t n = Some b -> ~ ld b) <-> texts n = None.
  Proof.
    split.
    - intros H. destruct (texts n) as [rs|] eqn:Et; [|reflexivity]. destruct (built_at n rs Et) as (b & Eb & Hb & _). destruct (H b Eb Hb).
    - intros Et b E. rewrite (unbuilt n Et) in E. discriminate.
  Qed.
  Lemma css_iff p n c : WholeSpec.css feq fle fge resolve_name placeholder initial decode unset_code ld t p n c <-> css resolve_name placeholder t texts initial decode unset_code p n c.
  Proof.
    split.
    - induction 1 as [n H|n d c Hp Hd Hm|n m d cm c Hp _ IH Hd Hm].
      + apply css_unstyled. apply unloaded_iff. exact H.
      + eapply css_root; [exact Hp|apply declared_iff; exact Hd|exact Hm].
      + eapply css_child; [exact Hp|exact IH|apply declared_iff; exact Hd|exact Hm].
    - induction 1 as [n H|n d c Hp Hd Hm|n m d cm c Hp _ IH Hd Hm].
      + apply WholeSpec.css_unstyled. apply unloaded_iff. exact H.
      + eapply WholeSpec.css_root; [exact Hp|apply declared_iff; exact Hd|exact Hm].
      + eapply WholeSpec.css_child; [exact Hp|exact IH|apply declared_iff; exact Hd|exact Hm].
  Qed.
End L.
