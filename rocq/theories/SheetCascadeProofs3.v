(** Proofs for C111: all declarations of a sheet are what the parser of declarations gives. *)
From Coq Require Import Ascii String NArith ZArith.
From Verif Require Import Base VarText LayersSpec LayersProofs Nesting NestingSpec Media SheetText SheetTextSpec SheetTextProofs2 SpecificitySpec SpecificityProofs Matching MatchingSpec SheetCascadeSpec.
Open Scope list_scope.

Section P.
  Context {Sl D : Type}.
  Variable P : D -> Prop.
  Notation M := (media_selector fval).
  Fixpoint body_decls (b : body Sl M D) : Prop :=
    match b with
    | BDecl d => P d
    | BError => True
    | BRule _ bs | BMedia _ bs | BLayer _ bs => fold_right (fun b Q => body_decls b /\ Q) True bs
    end.
  Fixpoint top_decls (t : Nesting.top Sl M D) : Prop :=
    match t with
    | TRule _ bs => fold_right (fun b Q => body_decls b /\ Q) True bs
    | TMedia _ ts | TLayer _ ts => fold_right (fun t Q => top_decls t /\ Q) True ts
    | TLayers _ | TError => True
    end.
  Variable selectors : bool -> list tree -> option (option (list Sl)).
  Variable declare : text -> list tree -> @decl_result D.
  Variable url_value : text -> option text.
  Hypothesis HP : forall nm l d, declare nm l = DVal d -> P d.
  Notation body_f := (body_f selectors declare). Notation inner_f := (inner_f selectors declare).
  Notation oks l := (fold_right (fun b Q => body_decls b /\ Q) True l).
  Lemma body_all_decls n : forall l, oks (body_f n l).
  Proof.
    induction n as [|n IH]; intros l; [exact I|]. destruct l as [|x l]; [exact I|]. rewrite body_step.
    assert (Q : oks (qual selectors declare n (x :: l))).
    { unfold qual. destruct (until semi_or_curly (x :: l)) as [p r']. destruct (delimiter r') as [b r'']. split; [|apply IH]. destruct b as [b|]; [|exact I].
      destruct (selectors true (drop_spaces p)) as [ss|] eqn:Es; [|exact I]. cbn. apply IH. }
    assert (T : forall nm, oks (at_body selectors declare n nm l)).
    { intros nm. unfold at_body. destruct (until semi_or_curly l) as [p r']. destruct (delimiter r') as [b r'']. split; [|apply IH].
      destruct (body_prelude nm (strip p)) as [[ms|ly]|]; [| |exact I]; (destruct b as [b|]; [|exact I]); cbn; apply IH. }
    assert (Dc : forall nm, oks (decl_body selectors declare n nm (x :: l) l)).
    { intros nm. unfold decl_body. destruct (until semi l) as [v r']. destruct (declaration declare nm (strip v)) eqn:Ed; [split; [|apply IH]|split; [exact I|apply IH]|exact Q].
      unfold declaration in Ed. destruct (strip v) as [|[[]| |] v']; try discriminate. cbn. eapply HP. exact Ed. }
    destruct x as [tk| |]; [|exact Q|exact Q]. destruct tk; auto.
  Qed.
  Lemma inner_decls f : forall x, top_decls (inner_f f x).
  Proof.
    assert (Q : forall p b, top_decls (qualified_rule selectors declare p b)).
    { intros p b. unfold qualified_rule. destruct b as [b|]; [|exact I]. destruct (selectors false p) as [ss|] eqn:Es; [|exact I]. cbn. apply body_all_decls. }
    assert (K : forall ts, Forall top_decls ts -> fold_right (fun t Q => top_decls t /\ Q) True ts) by (induction 1; cbn; auto).
    induction f as [|f IH]; intros x; destruct x as [nm p b|p b]; try apply Q; cbn [SheetText.inner_f].
    - destruct (same_name nm (tx "media")); [destruct (parse_media (strip p)), b; exact I|]. destruct (same_name nm (tx "layer")); [|exact I]. destruct (layer_names (strip p)) as [[|n0 [|]]|], b; exact I.
    - assert (G : forall q, fold_right (fun t Q => top_decls t /\ Q) True (map (inner_f f) (raws q))) by (intros q; apply K, Forall_map, Forall_forall; intros y _; apply IH).
      destruct (same_name nm (tx "media")); [destruct (parse_media (strip p)), b; try exact I; apply G|]. destruct (same_name nm (tx "layer")); [|exact I]. destruct (layer_names (strip p)) as [[|n0 [|]]|], b; try exact I; apply G.
  Qed.
  Lemma sheet_decls l : Forall top_decls (own (sheet_of selectors declare url_value l)).
  Proof.
    unfold own, sheet_of. generalize (size l) as N. intros N. induction (raws l) as [|x xs IH]; [constructor|]. cbn [map flat_map]. apply Forall_app. split; [|exact IH].
    pose proof (inner_decls N x) as Hi. destruct x as [nm p b|p b]; cbn [SheetText.sheet_rule]; [|constructor; [exact Hi|constructor]].
    destruct (same_name nm (tx "font-face")); [destruct (strip p); destruct b; repeat constructor|].
    destruct (same_name nm (tx "keyframes")); [destruct (strip p) as [|[tk| |] [|]]; try destruct tk; destruct b; repeat constructor|].
    destruct (same_name nm (tx "import")); [destruct (import_prelude url_value (strip p)) as [[u ly]|]; destruct b; repeat constructor|]. constructor; [exact Hi|constructor].
  Qed.
  Context {V : Type}.
  Variables (value : Sl -> list V -> V) (amp : Sl).
  Lemma bodies_decls : forall b L Md vs, body_decls b -> Forall (fun e => P (n_decl e)) (body_entries value amp L Md vs b).
  Proof.
    fix rec 1. intros b L Md vs.
    assert (K : forall L Md vs bs, (fix al (bs : list (body Sl M D)) := match bs with [] => True | b :: bs => (forall L Md vs, body_decls b -> Forall (fun e => P (n_decl e)) (body_entries value amp L Md vs b)) /\ al bs end) bs ->
      oks bs -> Forall (fun e => P (n_decl e)) (flat_map (body_entries value amp L Md vs) bs)).
    { clear. induction bs as [|x bs IH]; [constructor|]. intros [A1 A2] [O1 O2]. cbn [flat_map]. apply Forall_app. split; [apply A1; exact O1|apply IH; assumption]. }
    destruct b as [d| |ss bs|ms bs|n bs]; cbn [body_decls body_entries]; intros Hb.
    - constructor; [exact Hb|constructor].
    - constructor.
    - destruct ss as [ss|]; [|constructor]. apply K; [|exact Hb]. clear - rec. induction bs as [|x bs IH]; [exact I|]. split; [exact (rec x)|exact IH].
    - apply K; [|exact Hb]. clear - rec. induction bs as [|x bs IH]; [exact I|]. split; [exact (rec x)|exact IH].
    - apply K; [|exact Hb]. clear - rec. induction bs as [|x bs IH]; [exact I|]. split; [exact (rec x)|exact IH].
  Qed.
  Lemma tops_decls : forall t L Md, top_decls t -> Forall (fun e => P (n_decl e)) (top_entries value amp L Md t).
  Proof.
    fix rec 1. intros t L Md. destruct t as [ss bs|ms ts|n ts|ns|]; cbn [top_decls top_entries]; intros H; try constructor.
    - destruct ss as [ss|]; [|constructor]. induction bs as [|x bs IH]; [constructor|]. destruct H as [H1 H2]. cbn [flat_map]. apply Forall_app. split; [apply bodies_decls; assumption|apply IH; assumption].
    - induction ts as [|x ts IH]; [constructor|]. destruct H as [H1 H2]. cbn [flat_map]. apply Forall_app. split; [apply rec; assumption|apply IH; assumption].
    - induction ts as [|x ts IH]; [constructor|]. destruct H as [H1 H2]. cbn [flat_map]. apply Forall_app. split; [apply rec; assumption|apply IH; assumption].
  Qed.
  Lemma decls_ok l : Forall (fun e => P (n_decl e)) (flat_map (top_entries value amp [] []) (own (sheet_of selectors declare url_value l))).
  Proof. induction (sheet_decls l) as [|t ts Ht _ IH]; [constructor|]. cbn [flat_map]. apply Forall_app. split; [apply tops_decls; exact Ht|exact IH]. Qed.
End P.

(** ** One winner *)
Lemma below_asym x y : below x y -> ~ below y x.
Proof. destruct x as [[a b] c], y as [[a' b'] c']. cbn. lia. Qed.
Lemma below_irr x : ~ below x x.
Proof. intros H. exact (below_asym _ _ H H). Qed.
Section U.
  Context {V : Type}.
  Lemma no_stronger_antisym said l1 x1 k1 l2 x2 k2 : no_stronger said l1 x1 k1 l2 x2 k2 -> no_stronger said l2 x2 k2 l1 x1 k1 -> k1 = k2.
  Proof.
    intros [H|(-> & H)] [G|(E & G)].
    - destruct (lower_asym _ _ _ H G).
    - subst. destruct (lower_asym _ _ _ H H).
    - destruct (lower_asym _ _ _ G G).
    - destruct H as [H|(-> & H)], G as [G|(E' & G)]; try subst; try (exfalso; (eapply below_asym; eassumption) || (eapply below_irr; eassumption)). lia.
  Qed.
  Lemma sets_one (e : @entry complex (media_selector fval) (list (nat * V))) p v v' : sets e p v -> sets e p v' -> v = v'.
  Proof.
    intros (l1 & l2 & E & H) (l1' & l2' & E' & H'). rewrite E in E'. clear E. revert l1' E'. induction l1 as [|a l1 IH]; intros [|b l1'] E'; cbn in E'; injection E' as.
    - assumption.
    - subst. exfalso. apply (H v'). apply in_or_app. right. left. reflexivity.
    - subst. exfalso. apply (H' v). apply in_or_app. right. left. reflexivity.
    - eapply IH. eassumption.
  Qed.
  Lemma wins_one w m ratio said (es : list (@entry complex (media_selector fval) (list (nat * V)))) n p k v k' v' : wins w m ratio said es n p k v -> wins w m ratio said es n p k' v' -> k = k' /\ v = v'.
  Proof.
    intros (e & a & x & E & A & C & S & W) (e' & a' & x' & E' & A' & C' & S' & W').
    assert (k = k') by (eapply no_stronger_antisym; [exact (W' k e a x v E A C S)|exact (W k' e' a' x' v' E' A' C' S')]). subst. split; [reflexivity|]. rewrite E in E'. injection E' as <-. eapply sets_one; eassumption.
  Qed.
End U.
