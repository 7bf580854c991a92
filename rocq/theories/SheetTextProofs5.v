From Coq Require Import Ascii String NArith ZArith QArith Lia.
From Verif Require Import Base Vars VarsSpec VarText VarTextSpec VarTextProofs VarTextProofs2 VarTextProofs3 VarTextProofs4 Media LayersSpec Nesting NestingSpec SheetText SheetTextSpec SheetTextProofs SheetTextProofs2.
Open Scope nat_scope.

(** ** The identifiers of a text without backslashes *)
Fixpoint legal_tree (x : tree) : Prop :=
  match x with
  | Leaf (TIdent n) => legal_segment n
  | Leaf _ => True
  | Fun _ l | Blk _ l => fold_right (fun x P => legal_tree x /\ P) True l
  end.
Definition legal_trees (l : list tree) : Prop := fold_right (fun x P => legal_tree x /\ P) True l.
Lemma legal_trees_in l : legal_trees l <-> forall x, In x l -> legal_tree x.
Proof. induction l as [|y l IH]; cbn; [split; [intros _ x []|auto]|]. fold (legal_trees l). rewrite IH. split; [intros [H1 H2] x [<-|Hx]; auto|intros H; split; [apply H; auto|intros x Hx; apply H; auto]]. Qed.
Lemma legal_trees_app a b : legal_trees (a ++ b) <-> legal_trees a /\ legal_trees b.
Proof. rewrite !legal_trees_in. split; [intros H; split; intros x Hx; apply H, in_app_iff; auto|intros [H1 H2] x Hx; apply in_app_iff in Hx as [Hx|Hx]; auto]. Qed.
Definition legal_tok (x : tok) : Prop := match x with TIdent n => legal_segment n | _ => True end.
Lemma clean_legal s : Forall clean s -> ident_start s = true -> legal_segment s.
Proof. intros H Hi. split; [intros ->; discriminate|]. intros G. rewrite Forall_forall in H. destruct (H _ G) as [H1 _]. discriminate. Qed.
Lemma tokens_white_legal n : forall s, nobs s -> length s <= n -> Forall legal_tok (tokens_white_f n s).
Proof.
  induction n as [|n IH]; intros s Hs Hn; [constructor|]. destruct s as [|c s]; [constructor|]. cbn [tokens_white_f]. destruct (next_token c s) as [o r] eqn:E. destruct (next_token_out _ _ _ _ Hs E) as (A & B & G). simpl in Hn.
  assert (R : Forall legal_tok (tokens_white_f n r)) by (apply IH; [exact A|lia]). destruct o as [x|]; [|destruct (is_white c); [constructor; [exact I|exact R]|exact R]].
  constructor; [|exact R]. destruct x; try exact I. cbn in G. destruct (G I) as [[G1 G2] _]. apply clean_legal; assumption.
Qed.
Lemma node_legal o l : legal_trees l -> legal_trees [node o l].
Proof. intros H. destruct o; cbn; split; auto. Qed.
Lemma close_all_legal st : forall cur, Forall (fun p => legal_trees (snd p)) st -> legal_trees cur -> legal_trees (close_all st cur).
Proof. induction st as [|[o outer] st IH]; intros cur Hst Hc; [exact Hc|]. inversion Hst; subst. cbn [close_all]. apply IH; [assumption|]. apply legal_trees_app. split; [assumption|]. apply node_legal. exact Hc. Qed.
Lemma build_legal l : forall st cur, Forall legal_tok l -> Forall (fun p => legal_trees (snd p)) st -> legal_trees cur -> legal_trees (build l st cur).
Proof.
  induction l as [|x l IH]; intros st cur Hl Hst Hc; [apply close_all_legal; assumption|]. inversion Hl as [|? ? Hx Hl']; subst. cbn [build].
  destruct (opens x) as [o|] eqn:Eo; [apply IH; [exact Hl'| |exact I]; constructor; assumption|].
  assert (Hx' : legal_trees (cur ++ [Leaf x])) by (apply legal_trees_app; split; [exact Hc|]; destruct x; cbn in *; auto).
  destruct st as [|[o outer] st']; [apply IH; assumption|]. destruct (closes x o); [|apply IH; assumption]. inversion Hst; subst. apply IH; [exact Hl'|assumption|]. apply legal_trees_app. split; [assumption|apply node_legal; exact Hc].
Qed.
Lemma parsed_legal s : nobs s -> legal_trees (parsed_white s).
Proof. intros H. apply build_legal; [apply tokens_white_legal; [exact H|lia]|constructor|exact I]. Qed.
(** pieces *)
Lemma until_legal p l : legal_trees l -> legal_trees (fst (until p l)) /\ legal_trees (snd (until p l)).
Proof. intros H. rewrite (until_app p l) in H. apply legal_trees_app in H. exact H. Qed.
Lemma delimiter_legal l : legal_trees l -> legal_trees (snd (delimiter l)) /\ forall b, fst (delimiter l) = Some b -> legal_trees b.
Proof.
  destruct l as [|x l]; intros H; [split; [exact I|discriminate]|]. destruct H as [Hx Hl]. destruct x as [tk| |b q]; try (split; [exact Hl|discriminate]). destruct b; try (split; [exact Hl|discriminate]).
  split; [exact Hl|]. cbn. intros b H. injection H as <-. exact Hx.
Qed.
Lemma tl_legal (l : list tree) : legal_trees l -> legal_trees (tl l).
Proof. destruct l; cbn; [auto|tauto]. Qed.
Lemma strip_leaf x n : In (Leaf (TIdent n)) (strip_tree x) -> x = Leaf (TIdent n).
Proof. destruct x as [tk| |]; cbn; [destruct tk; cbn; intros H; repeat (destruct H as [H|H]; [congruence|]); destruct H|intros [H|[]]; discriminate|intros [H|[]]; discriminate]. Qed.
Lemma strip_ident l n : legal_trees l -> In (Leaf (TIdent n)) (strip l) -> legal_segment n.
Proof. intros H Hin. unfold strip in Hin. apply in_flat_map in Hin as (x & Hx & Hin). apply strip_leaf in Hin. subst x. rewrite legal_trees_in in H. exact (H _ Hx). Qed.
Lemma names_legal_f p : forall ns, layer_names p = Some ns -> (forall n, In (Leaf (TIdent n)) p -> legal_segment n) -> Forall legal_segment ns.
Proof.
  assert (G : forall k p, length p <= k -> forall ns, layer_names p = Some ns -> (forall n, In (Leaf (TIdent n)) p -> legal_segment n) -> Forall legal_segment ns).
  { induction k as [|k IH]; intros q Hk ns H Hp; [destruct q; [discriminate|simpl in Hk; lia]|]. destruct q as [|x q]; [discriminate|]. destruct x as [tk| |]; try discriminate. destruct tk as [n0| | | | | | | | | | | | | | | | | | | | | | |]; try (destruct q; discriminate).
    assert (Hn : legal_segment n0) by (apply Hp; left; reflexivity).
    destruct q as [|y q]; [injection H as <-; constructor; [exact Hn|constructor]|]. destruct y as [tk| |]; try discriminate. destruct tk; try discriminate.
    cbn [layer_names] in H. fold (layer_names q) in H. destruct (layer_names q) as [ms|] eqn:E; [|discriminate]. injection H as <-. constructor; [exact Hn|]. eapply IH; [|exact E|]; [simpl in Hk; lia|]. intros m Hm. apply Hp. right. right. exact Hm. }
  intros ns. exact (G _ p (le_n _) ns).
Qed.
Lemma raws_legal n : forall any l, legal_trees l -> Forall (fun x => match x with RAt _ p b => legal_trees p /\ (forall q, b = Some q -> legal_trees q) | RQual _ b => forall q, b = Some q -> legal_trees q end) (raws_f n any l).
Proof.
  induction n as [|n IH]; intros any l H; [constructor|]. destruct l as [|x l]; [constructor|]. pose proof H as [Hx Hl]. fold (legal_trees l) in Hl.
  assert (Q : Forall (fun x => match x with RAt _ p b => legal_trees p /\ (forall q, b = Some q -> legal_trees q) | RQual _ b => forall q, b = Some q -> legal_trees q end)
    (let (p, r') := until curly (x :: l) in let (b, r'') := delimiter r' in RQual p b :: raws_f n true r'')).
  { destruct (until_legal curly (x :: l) H) as [_ H2]. destruct (until curly (x :: l)) as [p r']. destruct (delimiter_legal r' H2) as [H3 H4]. destruct (delimiter r') as [b r'']. constructor; [exact H4|apply IH; exact H3]. }
  assert (T : forall nm, Forall (fun x => match x with RAt _ p b => legal_trees p /\ (forall q, b = Some q -> legal_trees q) | RQual _ b => forall q, b = Some q -> legal_trees q end)
    (let (p, r') := until semi_or_curly l in let (b, r'') := delimiter r' in if (negb any && same_name nm (tx "charset"))%bool then raws_f n true r'' else RAt nm p b :: raws_f n true r'')).
  { intros nm. destruct (until_legal semi_or_curly l Hl) as [H1 H2]. destruct (until semi_or_curly l) as [p r']. destruct (delimiter_legal r' H2) as [H3 H4]. destruct (delimiter r') as [b r'']. destruct (negb any && same_name nm (tx "charset"))%bool; [apply IH; exact H3|constructor; [split; [exact H1|exact H4]|apply IH; exact H3]]. }
  cbn [raws_f]. destruct x as [tk| |]; [|exact Q|exact Q]. destruct tk as [| |nm| | | | | | | | | | | | | | | | | | | | |]; try exact Q; [exact (T nm)|apply IH; exact Hl|apply IH; exact Hl].
Qed.

Section P.
  Context {Sl D : Type}.
  Variable selectors : bool -> list tree -> option (option (list Sl)).
  Variable declare : text -> list tree -> @decl_result D.
  Variable url_value : text -> option text.
  Hypothesis never_empty : forall b l, selectors b l <> Some (Some []).
  Notation body_f := (body_f selectors declare). Notation body_of := (body_of selectors declare).
  Notation inner_f := (inner_f selectors declare). Notation sheet_rule := (sheet_rule selectors declare url_value). Notation sheet_of := (sheet_of selectors declare url_value).
  Notation oks l := (fold_right (fun b P => body_ok b /\ P) True l).
  Lemma body_legal n : forall l, legal_trees l -> oks (body_f n l).
  Proof.
    induction n as [|n IH]; intros l H; [exact I|]. destruct l as [|x l]; [exact I|]. rewrite body_step. pose proof H as [Hx Hl]. fold (legal_trees l) in Hl.
    assert (Q : oks (qual selectors declare n (x :: l))).
    { unfold qual. destruct (until_legal semi_or_curly (x :: l) H) as [_ H2]. destruct (until semi_or_curly (x :: l)) as [p r']. destruct (delimiter_legal r' H2) as [H3 H4]. destruct (delimiter r') as [b r'']. cbn [fst snd] in *.
      split; [|apply IH; exact H3]. destruct b as [b|]; [|exact I]. destruct (selectors true (drop_spaces p)) as [ss|] eqn:Es; [|exact I]. cbn. split; [intros ->; exact (never_empty _ _ Es)|apply IH, H4; reflexivity]. }
    assert (T : forall nm, oks (at_body selectors declare n nm l)).
    { intros nm. unfold at_body. destruct (until_legal semi_or_curly l Hl) as [H1 H2]. destruct (until semi_or_curly l) as [p r']. destruct (delimiter_legal r' H2) as [H3 H4]. destruct (delimiter r') as [b r'']. cbn [fst snd] in *.
      split; [|apply IH; exact H3]. destruct (body_prelude nm (strip p)) as [[ms|ly]|] eqn:Ep; [| |exact I]; (destruct b as [b|]; [|exact I]); cbn; [apply IH, H4; reflexivity|]. split; [|apply IH, H4; reflexivity].
      unfold body_prelude in Ep. destruct (same_name nm (tx "media")); [destruct (parse_media (strip p)); discriminate|]. destruct (same_name nm (tx "layer")); [|discriminate].
      destruct (strip p) as [|y [|]] eqn:Es; try discriminate; destruct y as [tk| |]; try discriminate; destruct tk; try discriminate. injection Ep as <-. apply (strip_ident p _ H1). rewrite Es. left. reflexivity. }
    assert (Dc : forall nm, oks (decl_body selectors declare n nm (x :: l) l)).
    { intros nm. unfold decl_body. destruct (until_legal semi l Hl) as [H1 H2]. destruct (until semi l) as [v r']. cbn [fst snd] in *. destruct (declaration declare nm (strip v)); [split; [exact I|apply IH, tl_legal; exact H2]|split; [exact I|apply IH, tl_legal; exact H2]|exact Q]. }
    destruct x as [tk| |]; [|exact Q|exact Q]. destruct tk; auto.
  Qed.
  Lemma tops_ok l : Forall (@top_ok Sl (media_selector fval) D) l -> fold_right (fun t P => top_ok t /\ P) True l.
  Proof. induction 1; cbn; auto. Qed.
  Definition raw_legal (x : raw) : Prop := match x with RAt _ p b => legal_trees p /\ (forall q, b = Some q -> legal_trees q) | RQual _ b => forall q, b = Some q -> legal_trees q end.
  Lemma inner_legal f : forall x, raw_legal x -> top_ok (inner_f f x).
  Proof.
    assert (Q : forall p b, (forall q, b = Some q -> legal_trees q) -> top_ok (qualified_rule selectors declare p b)).
    { intros p b Hb. unfold qualified_rule. destruct b as [b|]; [|exact I]. destruct (selectors false p) as [ss|] eqn:Es; [|exact I]. cbn. split; [intros ->; exact (never_empty _ _ Es)|apply body_legal, Hb; reflexivity]. }
    assert (Bd : forall (G : list tree -> list (top Sl (media_selector fval) D)) nm p b, (forall q, b = Some q -> Forall top_ok (G q)) -> legal_trees p ->
       top_ok (if same_name nm (tx "media") then match parse_media (strip p), b with Some ms, Some b => TMedia ms (G b) | _, _ => TError end
               else if same_name nm (tx "layer") then match layer_names (strip p), b with Some [n], Some b => TLayer n (G b) | Some ns, None => TLayers ns | _, _ => TError end else TError)).
    { intros G nm p b HG Hp. destruct (same_name nm (tx "media")); [destruct (parse_media (strip p)); [|exact I]; destruct b as [b|]; [|exact I]; cbn; apply tops_ok, HG; reflexivity|].
      destruct (same_name nm (tx "layer")); [|exact I]. destruct (layer_names (strip p)) as [ns|] eqn:En; [|exact I].
      assert (Hns : Forall legal_segment ns) by (eapply names_legal_f; [exact En|]; intros m; apply strip_ident; exact Hp).
      destruct b as [b|]; [destruct ns as [|n0 [|]]; try exact I; inversion Hns; subst; cbn; split; [assumption|apply tops_ok, HG; reflexivity]|]. destruct ns as [|n0 [|]]; exact Hns. }
    induction f as [|f IH]; intros x Hx; destruct x as [nm p b|p b]; try (apply Q; exact Hx); destruct Hx as [Hp Hb]; cbn [SheetText.inner_f].
    - apply (Bd (fun _ => [])); [constructor|exact Hp].
    - apply (Bd (fun b => map (inner_f f) (raws b))); [|exact Hp]. intros q Hq. apply Forall_map. eapply Forall_impl; [|exact (raws_legal _ false q (Hb q Hq))]. exact IH.
  Qed.
  Lemma sheet_legal l : legal_trees l -> Forall (fun x => match x with STop t => top_ok t | _ => True end) (sheet_of l).
  Proof.
    intros H. unfold SheetText.sheet_of. apply Forall_map. eapply Forall_impl; [|exact (raws_legal _ false l H)]. intros x Hx. pose proof (inner_legal (size l) x Hx) as Hi.
    destruct x as [nm p b|p b]; cbn [SheetText.sheet_rule]; [|exact Hi]. destruct (same_name nm (tx "font-face")); [destruct (strip p); destruct b; exact I|].
    destruct (same_name nm (tx "keyframes")); [destruct (strip p) as [|[tk| |] [|]]; try destruct tk; destruct b; exact I|]. destruct (same_name nm (tx "import")); [destruct (import_prelude url_value (strip p)) as [[u ly]|]; destruct b; exact I|exact Hi].
  Qed.
End P.
