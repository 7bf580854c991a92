(** Proofs for C110. *)
From Coq Require Import Ascii String NArith ZArith.
From Verif Require Import Base VarText LayersSpec Nesting NestingSpec Media SheetText SheetTextSpec SheetTextProofs2 Siblings Matching MatchingSpec SelText SelTextSpec SelTextProofs3 SheetSel.
Open Scope list_scope.

(** ** What is parsed is well formed *)
Section RS.
  Variable ps : list pcomplex.
  Fixpoint resolve_substitute (s : pcomplex) : resolve [] (substitute ps s) = resolve (map (resolve []) ps) s
  with resolve_substitute_simple (x : psimple) : resolve_simple [] (substitute_simple ps x) = resolve_simple (map (resolve []) ps) x.
  Proof.
    - destruct s as [c|c k r].
      + assert (E : map (resolve_simple []) (map (substitute_simple ps) c) = map (resolve_simple (map (resolve []) ps)) c) by (induction c as [|x c IH]; [reflexivity|exact (f_equal2 cons (resolve_substitute_simple x) IH)]).
        exact (f_equal One E).
      + assert (E : map (resolve_simple []) (map (substitute_simple ps) c) = map (resolve_simple (map (resolve []) ps)) c) by (induction c as [|x c IH]; [reflexivity|exact (f_equal2 cons (resolve_substitute_simple x) IH)]).
        exact (f_equal2 (fun c r => Then c k r) E (resolve_substitute r)).
    - assert (K : forall l, (fix al (l : list pcomplex) := match l with [] => True | s :: l => resolve [] (substitute ps s) = resolve (map (resolve []) ps) s /\ al l end) l -> map (resolve []) (map (substitute ps) l) = map (resolve (map (resolve []) ps)) l).
      { induction l as [|s l IH]; [reflexivity|]. intros [H1 H2]. exact (f_equal2 cons H1 (IH H2)). }
      destruct x; try reflexivity;
        (assert (E : map (resolve []) (map (substitute ps) l) = map (resolve (map (resolve []) ps)) l) by (apply K; induction l as [|s l IH]; [exact I|split; [exact (resolve_substitute s)|exact IH]])).
      + exact (f_equal (NthOf _ _ _) E).
      + exact (f_equal (Is _) E).
      + exact (f_equal Not E).
      + exact (f_equal Has E).
  Qed.
End RS.
Lemma all_of_map {A B} (P : B -> Prop) (f : A -> B) l : all_of P (map f l) <-> all_of (fun x => P (f x)) l.
Proof. induction l as [|x l IH]; cbn; [tauto|]. rewrite IH. tauto. Qed.
Lemma all_of_Forall {A} (P : A -> Prop) l : all_of P l <-> Forall P l.
Proof. induction l as [|x l IH]; cbn; [split; [intros _; constructor|intros _; exact I]|]. rewrite IH. split; [intros [H1 H2]; constructor; assumption|intros H; inversion H; split; assumption]. Qed.
(** a selector that is [parsed] below any [parsed] parents *)
Definition good (p : pcomplex) : Prop := forall parents, all_of parsed parents -> parsed (resolve parents p).
Lemma parsed_good nested nth l ps : reads_front nth -> parse_comma_separated nested nth l = Some ps -> Forall good ps.
Proof.
  intros Hn E. rewrite <- all_of_Forall.
  assert (H : forall parents, all_of parsed parents -> all_of parsed (map (resolve parents) ps)).
  { intros parents Hp. destruct (proj1 (reads_ok nested parents nth l _ Hn) (ex_intro _ ps (conj E eq_refl))) as (n & H). specialize (H n ltac:(lia)). apply reads_shape in H; [|exact Hp|discriminate].
    clear - H. induction ps as [|p ps IH]; [exact I|]. destruct H as [[H _] H2]. split; [exact H|apply IH; exact H2]. }
  assert (G : forall qs, (forall parents, all_of parsed parents -> all_of parsed (map (resolve parents) qs)) -> all_of good qs).
  { clear. induction qs as [|q qs IH]; intros H; [exact I|]. split; [intros parents Hp; apply (H parents Hp)|]. apply IH. intros parents Hp. apply (H parents Hp). }
  apply G. exact H.
Qed.
Lemma real_good nth stuck nested l ss : reads_front nth -> real_selectors nth stuck nested l = Some (Some ss) -> Forall good ss /\ ss <> [].
Proof.
  intros Hn. unfold real_selectors. destruct (parse_comma_separated nested nth l) as [ps|] eqn:E; [|destruct (stuck nested l); discriminate]. intros H. injection H as <-.
  split; [eapply parsed_good; eauto|]. unfold parse_comma_separated in E. cbn [parse_list] in E. unfold parse_members in E. destruct (split_commas l) as [a b]. cbn [map all_some] in E.
  destruct (parse_member _ _ _ _ _ _ a); [|discriminate]. destruct (all_some _); [|discriminate]. injection E as <-. discriminate.
Qed.

(** ** All selectors of a sheet are parsed ones *)
Section P.
  Context {Sl D : Type}.
  Variable P : Sl -> Prop.
  Notation M := (media_selector fval).
  Fixpoint body_sels (b : body Sl M D) : Prop :=
    match b with
    | BDecl _ | BError => True
    | BRule ss bs => (forall l, ss = Some l -> Forall P l) /\ fold_right (fun b Q => body_sels b /\ Q) True bs
    | BMedia _ bs | BLayer _ bs => fold_right (fun b Q => body_sels b /\ Q) True bs
    end.
  Fixpoint top_sels (t : Nesting.top Sl M D) : Prop :=
    match t with
    | TRule ss bs => (forall l, ss = Some l -> Forall P l) /\ fold_right (fun b Q => body_sels b /\ Q) True bs
    | TMedia _ ts | TLayer _ ts => fold_right (fun t Q => top_sels t /\ Q) True ts
    | TLayers _ | TError => True
    end.
  Variable selectors : bool -> list tree -> option (option (list Sl)).
  Variable declare : text -> list tree -> @decl_result D.
  Variable url_value : text -> option text.
  Hypothesis HP : forall b l ss, selectors b l = Some (Some ss) -> Forall P ss.
  Notation body_f := (body_f selectors declare). Notation inner_f := (inner_f selectors declare).
  Notation oks l := (fold_right (fun b Q => body_sels b /\ Q) True l).
  Lemma body_all_sels n : forall l, oks (body_f n l).
  Proof.
    induction n as [|n IH]; intros l; [exact I|]. destruct l as [|x l]; [exact I|]. rewrite body_step.
    assert (Q : oks (qual selectors declare n (x :: l))).
    { unfold qual. destruct (until semi_or_curly (x :: l)) as [p r']. destruct (delimiter r') as [b r'']. split; [|apply IH]. destruct b as [b|]; [|exact I].
      destruct (selectors true (drop_spaces p)) as [ss|] eqn:Es; [|exact I]. cbn. split; [intros m ->; eapply HP; exact Es|apply IH]. }
    assert (T : forall nm, oks (at_body selectors declare n nm l)).
    { intros nm. unfold at_body. destruct (until semi_or_curly l) as [p r']. destruct (delimiter r') as [b r'']. split; [|apply IH].
      destruct (body_prelude nm (strip p)) as [[ms|ly]|]; [| |exact I]; (destruct b as [b|]; [|exact I]); cbn; apply IH. }
    assert (Dc : forall nm, oks (decl_body selectors declare n nm (x :: l) l)).
    { intros nm. unfold decl_body. destruct (until semi l) as [v r']. destruct (declaration declare nm (strip v)); [split; [exact I|apply IH]|split; [exact I|apply IH]|exact Q]. }
    destruct x as [tk| |]; [|exact Q|exact Q]. destruct tk; auto.
  Qed.
  Lemma inner_sels f : forall x, top_sels (inner_f f x).
  Proof.
    assert (Q : forall p b, top_sels (qualified_rule selectors declare p b)).
    { intros p b. unfold qualified_rule. destruct b as [b|]; [|exact I]. destruct (selectors false p) as [ss|] eqn:Es; [|exact I]. cbn. split; [intros m ->; eapply HP; exact Es|apply body_all_sels]. }
    assert (K : forall ts, Forall top_sels ts -> fold_right (fun t Q => top_sels t /\ Q) True ts) by (induction 1; cbn; auto).
    induction f as [|f IH]; intros x; destruct x as [nm p b|p b]; try apply Q; cbn [SheetText.inner_f].
    - destruct (same_name nm (tx "media")); [destruct (parse_media (strip p)), b; exact I|]. destruct (same_name nm (tx "layer")); [|exact I]. destruct (layer_names (strip p)) as [[|n0 [|]]|], b; exact I.
    - assert (G : forall q, fold_right (fun t Q => top_sels t /\ Q) True (map (inner_f f) (raws q))) by (intros q; apply K, Forall_map, Forall_forall; intros y _; apply IH).
      destruct (same_name nm (tx "media")); [destruct (parse_media (strip p)), b; try exact I; apply G|]. destruct (same_name nm (tx "layer")); [|exact I]. destruct (layer_names (strip p)) as [[|n0 [|]]|], b; try exact I; apply G.
  Qed.
  Lemma sheet_sels l : Forall top_sels (own (sheet_of selectors declare url_value l)).
  Proof.
    unfold own, sheet_of. generalize (size l) as N. intros N. induction (raws l) as [|x xs IH]; [constructor|]. cbn [map flat_map]. apply Forall_app. split; [|exact IH].
    pose proof (inner_sels N x) as Hi. destruct x as [nm p b|p b]; cbn [SheetText.sheet_rule]; [|constructor; [exact Hi|constructor]].
    destruct (same_name nm (tx "font-face")); [destruct (strip p); destruct b; repeat constructor|].
    destruct (same_name nm (tx "keyframes")); [destruct (strip p) as [|[tk| |] [|]]; try destruct tk; destruct b; repeat constructor|].
    destruct (same_name nm (tx "import")); [destruct (import_prelude url_value (strip p)) as [[u ly]|]; destruct b; repeat constructor|]. constructor; [exact Hi|constructor].
  Qed.

  (** ** so are those of its declarations *)
  Context {V : Type}.
  Variables (value : Sl -> list V -> V) (amp : Sl) (Q : V -> Prop).
  Hypothesis Pamp : P amp.
  Hypothesis Hval : forall s vs, P s -> Forall Q vs -> Q (value s vs).
  Lemma alts_good ss vs : Forall P ss -> Forall Q vs -> Forall Q (alternatives value ss vs).
  Proof. intros Hs Hv. unfold alternatives. apply Forall_map. eapply Forall_impl; [|exact Hs]. intros s H. apply Hval; assumption. Qed.
  Lemma bodies_good : forall b L Md vs, body_sels b -> Forall Q vs -> Forall (fun e => Forall Q (n_alts e)) (body_entries value amp L Md vs b).
  Proof.
    fix rec 1. intros b L Md vs.
    destruct b as [d| |ss bs|ms bs|n bs]; cbn [body_sels body_entries]; intros Hb Hv.
    - constructor; [exact Hv|constructor].
    - constructor.
    - destruct ss as [ss|]; [|constructor]. destruct Hb as [Hs Hb]. pose proof (alts_good ss vs (Hs _ eq_refl) Hv) as Ha. induction bs as [|x bs IH]; [constructor|]. destruct Hb as [H1 H2]. cbn [flat_map]. apply Forall_app. split; [apply rec; assumption|apply IH; assumption].
    - assert (Ha : Forall Q (alternatives value [amp] vs)) by (apply alts_good; [constructor; [exact Pamp|constructor]|exact Hv]). induction bs as [|x bs IH]; [constructor|]. destruct Hb as [H1 H2]. cbn [flat_map]. apply Forall_app. split; [apply rec; assumption|apply IH; assumption].
    - assert (Ha : Forall Q (alternatives value [amp] vs)) by (apply alts_good; [constructor; [exact Pamp|constructor]|exact Hv]). induction bs as [|x bs IH]; [constructor|]. destruct Hb as [H1 H2]. cbn [flat_map]. apply Forall_app. split; [apply rec; assumption|apply IH; assumption].
  Qed.
  Lemma tops_good : forall t L Md, top_sels t -> Forall (fun e => Forall Q (n_alts e)) (top_entries value amp L Md t).
  Proof.
    fix rec 1. intros t L Md. destruct t as [ss bs|ms ts|n ts|ns|]; cbn [top_sels top_entries]; intros H; try constructor.
    - destruct ss as [ss|]; [|constructor]. destruct H as [Hs Hb]. pose proof (alts_good ss [] (Hs _ eq_refl) (Forall_nil _)) as Ha. induction bs as [|x bs IH]; [constructor|]. destruct Hb as [H1 H2]. cbn [flat_map]. apply Forall_app. split; [apply bodies_good; assumption|apply IH; assumption].
    - induction ts as [|x ts IH]; [constructor|]. destruct H as [H1 H2]. cbn [flat_map]. apply Forall_app. split; [apply rec; assumption|apply IH; assumption].
    - induction ts as [|x ts IH]; [constructor|]. destruct H as [H1 H2]. cbn [flat_map]. apply Forall_app. split; [apply rec; assumption|apply IH; assumption].
  Qed.
End P.
