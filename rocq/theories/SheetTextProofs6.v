From Coq Require Import Ascii String NArith ZArith QArith Lia.
From Verif Require Import Base Vars VarText Media Nesting SheetText SheetTextSpec SheetTextProofs SheetTextProofs2 SheetTextProofs3 SheetTextProofs4.
Open Scope nat_scope.

Lemma until_all p v : Forall (fun x => p x = false) v -> until p v = (v, []).
Proof. induction 1 as [|x v Hx Hv IH]; [reflexivity|]. cbn [until]. rewrite Hx, IH. reflexivity. Qed.
Lemma until_more p v : Forall (fun x => p x = false) v -> forall l, exists a r, until p (v ++ l) = (v ++ a, r) /\ until p l = (a, r).
Proof.
  induction 1 as [|x v Hx Hv IH]; intros l; [cbn [app]; destruct (until p l) as [a r]; exists a, r; split; reflexivity|]. destruct (IH l) as (a & r & E1 & E2). exists a, r. split; [|exact E2]. cbn [app until]. rewrite Hx, E1. reflexivity.
Qed.
Lemma strip_app a b : strip (a ++ b) = strip a ++ strip b.
Proof. apply flat_map_app. Qed.
Lemma names_iff p ns : layer_names p = Some ns <-> names_text p ns.
Proof.
  split.
  - assert (G : forall k p, length p <= k -> forall ns, layer_names p = Some ns -> names_text p ns).
    { induction k as [|k IH]; intros q Hk ms H; [destruct q; [discriminate|simpl in Hk; lia]|]. destruct q as [|x q]; [discriminate|]. destruct x as [tk| |]; try discriminate. destruct tk as [n0| | | | | | | | | | | | | | | | | | | | | | |]; try (destruct q; discriminate).
      destruct q as [|y q]; [injection H as <-; constructor|]. destruct y as [tk| |]; try discriminate. destruct tk; try discriminate.
      cbn [layer_names] in H. fold (layer_names q) in H. destruct (layer_names q) as [ms'|] eqn:E; [|discriminate]. injection H as <-. constructor. apply IH; [simpl in Hk; lia|exact E]. }
    exact (G _ p (le_n _) ns).
  - induction 1 as [n|n l ns H IH]; [reflexivity|]. cbn [layer_names]. fold (layer_names l). rewrite IH. reflexivity.
Qed.
Lemma url_iff url_value x r u r' : url_or_string url_value (x :: r) = Some (u, r') <-> url_text url_value x u /\ r' = r.
Proof.
  split.
  - destruct x as [tk|f l|]; [destruct tk; try (intros H; discriminate H)|destruct l as [|[tk| |] [|]]; try (intros H; discriminate H); destruct tk; try (intros H; discriminate H)|intros H; discriminate H]; unfold url_or_string.
    + intros H. injection H as <- <-. split; [constructor|reflexivity].
    + destruct (url_value s) as [v|] eqn:E; [|intros H; discriminate H]. intros H. injection H as <- <-. split; [constructor; exact E|reflexivity].
    + destruct (same_name f (tx "url")) eqn:E; [|intros H; discriminate H]. intros H. injection H as <- <-. split; [constructor; exact E|reflexivity].
  - intros [H ->]. destruct H as [u|f u H|s u H]; unfold url_or_string; [reflexivity|rewrite H; reflexivity|rewrite H; reflexivity].
Qed.
Lemma import_iff url_value p u ly : import_prelude url_value p = Some (u, ly) <-> import_text url_value p u ly.
Proof.
  unfold import_prelude. split.
  - destruct (url_or_string url_value p) as [[v r]|] eqn:E; [|discriminate]. destruct p as [|x p]; [discriminate|]. apply url_iff in E as [E ->].
    destruct p as [|y p]; [intros H; injection H as <- <-; constructor; exact E|]. destruct y as [|f l|]; try discriminate. destruct l as [|[tk| |] [|]]; try discriminate; destruct tk; try discriminate.
    destruct p; [|discriminate]. destruct (same_name f (tx "layer")) eqn:Ef; [|discriminate]. intros H. injection H as <- <-. constructor; assumption.
  - intros H. destruct H as [x u H|x u f n H Hf].
    + assert (E : url_or_string url_value [x] = Some (u, [])) by (apply url_iff; auto). rewrite E. reflexivity.
    + assert (E : url_or_string url_value [x; Fun f [Leaf (TIdent n)]] = Some (u, [Fun f [Leaf (TIdent n)]])) by (apply url_iff; auto). rewrite E, Hf. reflexivity.
Qed.

Section P.
  Context {Sl D : Type}.
  Variable selectors : bool -> list tree -> option (option (list Sl)).
  Variable declare : text -> list tree -> @decl_result D.
  Variable url_value : text -> option text.
  Notation body_f := (body_f selectors declare). Notation body_of := (body_of selectors declare).
  Notation inner_f := (inner_f selectors declare). Notation sheet_rule := (sheet_rule selectors declare url_value). Notation sheet_of := (sheet_of selectors declare url_value).
  Lemma body_more n l : size l <= n -> body_f n l = body_of l.
  Proof. intros H. apply body_fuel; [exact H|apply le_n]. Qed.
  Lemma body_cons_of x l : body_of (x :: l) = body_f (S (pred (size (x :: l)))) (x :: l).
  Proof. unfold SheetText.body_of. f_equal. rewrite size_cons. pose proof (tree_pos x). lia. Qed.
  Lemma body_at_of nm p b l : one_piece p -> body_of (Leaf (TAt nm) :: p ++ Blk InCurly b :: l) =
    (match body_prelude nm (strip p) with Some (AMedia ms) => BMedia ms (body_of b) | Some (ALayer n) => BLayer n (body_of b) | None => BError end) :: body_of l.
  Proof.
    intros H. rewrite body_cons_of. rewrite body_step. set (F := pred _). assert (EF : F = size p + (S (size b) + size l)).
    { unfold F. rewrite size_cons, size_app, size_cons. reflexivity. }
    unfold at_body. rewrite (until_none semi_or_curly p (one_piece_semi p H) (Blk InCurly b) l eq_refl). cbn [delimiter]. rewrite !body_more by lia. destruct (body_prelude nm (strip p)) as [[|]|]; reflexivity.
  Qed.
  Lemma body_text_of l bs : body_text selectors declare l bs -> body_of l = bs.
  Proof.
    induction 1 as [|l bs H IH|l bs H IH|nm v w d Hv Hw Hd|nm v w d l bs Hv Hw Hd H IH|x p ss b bs l bs' Hx Hp Hs Hb IHb Hl IHl|nm p ms b bs l bs' Hn Hp Hm Hb IHb Hl IHl|nm p n b bs l bs' Hn Hp Hm Hb IHb Hl IHl].
    - reflexivity.
    - rewrite body_cons_of, body_step. rewrite body_more by (rewrite size_cons; simpl; lia). exact IH.
    - rewrite body_cons_of, body_step. rewrite body_more by (rewrite size_cons; simpl; lia). exact IH.
    - rewrite body_cons_of, body_step. unfold decl_body. rewrite (until_all semi v (one_piece_only_semi v Hv)). rewrite Hw. cbn [declaration]. rewrite Hd. cbn [tl]. rewrite body_nil. reflexivity.
    - rewrite body_cons_of, body_step. unfold decl_body. rewrite (until_none semi v (one_piece_only_semi v Hv) (Leaf TSemicolon) l eq_refl). rewrite Hw. cbn [declaration]. rewrite Hd. cbn [tl].
      rewrite body_more by (rewrite size_cons, size_app, size_cons; simpl; lia). rewrite IH. reflexivity.
    - rewrite body_cons_of, body_step. set (F := pred _).
      assert (Q : qual selectors declare F (x :: p ++ Blk InCurly b :: l) = BRule (Some ss) bs :: bs').
      { unfold qual. change (x :: p ++ Blk InCurly b :: l) with ((x :: p) ++ Blk InCurly b :: l). rewrite (until_none semi_or_curly (x :: p) (one_piece_semi _ Hp) (Blk InCurly b) l eq_refl). cbn [delimiter].
        assert (Ed : drop_spaces (x :: p) = x :: p) by (destruct x as [tk| |]; try reflexivity; destruct tk; try reflexivity; destruct Hx). rewrite Ed, Hs.
        assert (EF : size b + size l <= F) by (unfold F; rewrite size_cons, size_app, size_cons; change (tree_size (Blk InCurly b)) with (S (size b)); pose proof (tree_pos x); lia).
        rewrite !body_more by lia. rewrite IHb, IHl. reflexivity. }
      destruct x as [tk| |]; [|exact Q|exact Q]. destruct tk; try exact Q; try destruct Hx.
      unfold decl_body. destruct (until_more semi p (proj2 (proj1 (Forall_cons_iff _ _ _) (one_piece_only_semi _ Hp))) (Blk InCurly b :: l)) as (v & r' & E & E2). rewrite E.
      assert (Ed : declaration declare s (strip (p ++ v)) = DErr).
      { cbn in E2. destruct (until semi l) as [v1 r1]. injection E2 as <- <-. rewrite strip_app. cbn [starts_nested] in Hx. destruct (strip p) as [|y q]; [reflexivity|]. cbn. destruct y as [tk| |]; try reflexivity. destruct tk; try reflexivity. exfalso. exact (Hx q eq_refl). }
      rewrite Ed. exact Q.
    - rewrite body_at_of by exact Hp. unfold body_prelude. rewrite Hn, Hm. cbn. rewrite IHb, IHl. reflexivity.
    - rewrite body_at_of by exact Hp. unfold body_prelude. rewrite (same_name_two nm (tx "layer") (tx "media") Hn eq_refl), Hn, Hm. rewrite IHb, IHl. reflexivity.
  Qed.

  (** ** Rules of a sheet *)
  Lemma raws_more n any l : length l <= n -> raws_f n any l = raws_f (length l) any l.
  Proof. intros H. apply raws_fuel; [exact H|apply le_n]. Qed.
  Lemma raws_at n any nm p K r : one_piece p -> semi_or_curly K = true -> same_name nm (tx "charset") = false -> length (Leaf (TAt nm) :: p ++ K :: r) <= n ->
    raws_f n any (Leaf (TAt nm) :: p ++ K :: r) = RAt nm p (fst (delimiter [K])) :: raws_f (length r) true r.
  Proof.
    intros Hp HK Hc Hn. destruct n as [|n]; [simpl in Hn; lia|]. cbn [raws_f]. rewrite (until_none semi_or_curly p (one_piece_semi p Hp) K r HK).
    assert (Ed : delimiter (K :: r) = (fst (delimiter [K]), r)) by (destruct K as [| |k l]; try reflexivity; destruct k; reflexivity). rewrite Ed, Hc, Bool.andb_false_r.
    rewrite raws_more by (simpl in Hn; rewrite app_length in Hn; simpl in Hn; lia). reflexivity.
  Qed.
  Lemma raws_rule n any x p b r : starts_rule x -> no_curly (x :: p) -> length (x :: p ++ Blk InCurly b :: r) <= n ->
    raws_f n any (x :: p ++ Blk InCurly b :: r) = RQual (x :: p) (Some b) :: raws_f (length r) true r.
  Proof.
    intros Hx Hp Hn. destruct n as [|n]; [simpl in Hn; lia|].
    assert (Q : (let (p0, r') := until curly (x :: p ++ Blk InCurly b :: r) in let (b0, r'') := delimiter r' in RQual p0 b0 :: raws_f n true r'') = RQual (x :: p) (Some b) :: raws_f (length r) true r).
    { change (x :: p ++ Blk InCurly b :: r) with ((x :: p) ++ Blk InCurly b :: r). rewrite (until_none curly (x :: p) (no_curly_forall _ Hp) (Blk InCurly b) r eq_refl). cbn [delimiter].
      rewrite raws_more by (simpl in Hn; rewrite app_length in Hn; simpl in Hn; lia). reflexivity. }
    cbn [raws_f]. destruct x as [tk| |]; [|exact Q|exact Q]. destruct tk as [| |nm| | | | | | | | | | | | | | | | | | | | |]; try exact Q; try destruct Hx.
  Qed.
  Definition inner_raw (x : raw) : Prop := match x with RAt nm _ _ => same_name nm (tx "media") = true \/ same_name nm (tx "layer") = true | RQual _ _ => True end.
  Lemma inner_stop f x : inner_raw x -> sheet_rule f x = STop (inner_f f x).
  Proof.
    destruct x as [nm p b|p b]; [|reflexivity]. intros H. cbn [SheetText.sheet_rule]. destruct H as [H|H].
    - rewrite !(same_name_two nm (tx "media") _ H) by reflexivity. reflexivity.
    - rewrite !(same_name_two nm (tx "layer") _ H) by reflexivity. reflexivity.
  Qed.
  Lemma rules_text_of a ts : rules_text selectors declare a ts -> exists rs, Forall inner_raw rs /\ (forall f, size a <= f -> map (inner_f f) rs = ts) /\
    forall n any r, length (a ++ r) <= n -> exists any', raws_f n any (a ++ r) = rs ++ raws_f (length r) any' r.
  Proof.
    assert (Blocks : forall b rs ts f, Forall inner_raw rs -> (forall f, size b <= f -> map (inner_f f) rs = ts) -> (forall n any r, length (b ++ r) <= n -> exists any', raws_f n any (b ++ r) = rs ++ raws_f (length r) any' r) ->
      S (size b) <= f -> (match f with 0 => [] | S f => map (inner_f f) (raws b) end) = ts).
    { intros b rs ts0 f _ H1 H2 Hf. destruct f as [|f]; [lia|]. destruct (H2 (length b) false []) as (any' & E); [rewrite app_nil_r; lia|]. rewrite app_nil_r in E. unfold raws. rewrite E. rewrite raws_nil, app_nil_r. apply H1. lia. }
    induction 1 as [|l ts H (rs & I1 & I2 & I3)|x p ss b bs l ts Hx Hp Hs Hb Hl (rs & I1 & I2 & I3)|nm p ms b bs l ts Hn Hp Hm Hb (rb & B1 & B2 & B3) Hl (rs & I1 & I2 & I3)|nm p n b bs l ts Hn Hp Hm Hb (rb & B1 & B2 & B3) Hl (rs & I1 & I2 & I3)|nm p ns l ts Hn Hp Hm Hl (rs & I1 & I2 & I3)].
    - exists []. split; [constructor|]. split; [reflexivity|]. intros n any r Hr. exists any. apply raws_more. exact Hr.
    - exists rs. split; [exact I1|]. split; [intros f Hf; apply I2; rewrite size_cons in Hf; lia|]. intros n any r Hr. destruct n as [|n]; [simpl in Hr; lia|]. cbn [app raws_f]. apply I3. simpl in Hr. lia.
    - exists (RQual (x :: p) (Some b) :: rs). split; [constructor; [exact I|exact I1]|]. split.
      + intros f Hf. rewrite size_cons, size_app, size_cons in Hf. cbn [map]. rewrite I2 by lia. assert (Ei : inner_f f (RQual (x :: p) (Some b)) = qualified_rule selectors declare (x :: p) (Some b)) by (destruct f; reflexivity). rewrite Ei. unfold qualified_rule. rewrite Hs, (body_text_of b bs Hb). reflexivity.
      + intros n any r Hr. cbn [app] in *. rewrite <- app_assoc in *. cbn [app] in *. rewrite raws_rule by assumption. destruct (I3 (length (l ++ r)) true r (le_n _)) as (any' & E). rewrite E. exists any'. reflexivity.
    - exists (RAt nm p (Some b) :: rs). split; [constructor; [left; exact Hn|exact I1]|]. split.
      + intros f Hf. rewrite size_cons, size_app, size_cons in Hf. change (tree_size (Blk InCurly b)) with (S (size b)) in Hf. cbn [map]. rewrite I2 by lia. f_equal.
        pose proof (Blocks b rb bs f B1 B2 B3 ltac:(lia)) as Eb. destruct f; cbn [SheetText.inner_f]; rewrite Hn, Hm; f_equal; exact Eb.
      + intros n any r Hr. cbn [app] in *. rewrite <- app_assoc in *. cbn [app] in *. rewrite raws_at by (try assumption; try reflexivity; apply (same_name_two nm (tx "media") _ Hn); reflexivity). cbn [delimiter fst].
        destruct (I3 (length (l ++ r)) true r (le_n _)) as (any' & E). rewrite E. exists any'. reflexivity.
    - exists (RAt nm p (Some b) :: rs). split; [constructor; [right; exact Hn|exact I1]|]. split.
      + intros f Hf. rewrite size_cons, size_app, size_cons in Hf. change (tree_size (Blk InCurly b)) with (S (size b)) in Hf. cbn [map]. rewrite I2 by lia. f_equal.
        pose proof (Blocks b rb bs f B1 B2 B3 ltac:(lia)) as Eb. destruct f; cbn [SheetText.inner_f]; rewrite (same_name_two nm (tx "layer") _ Hn), Hn, Hm by reflexivity; cbn [layer_names]; f_equal; exact Eb.
      + intros m any r Hr. cbn [app] in *. rewrite <- app_assoc in *. cbn [app] in *. rewrite raws_at by (try assumption; try reflexivity; apply (same_name_two nm (tx "layer") _ Hn); reflexivity). cbn [delimiter fst].
        destruct (I3 (length (l ++ r)) true r (le_n _)) as (any' & E). rewrite E. exists any'. reflexivity.
    - exists (RAt nm p None :: rs). split; [constructor; [right; exact Hn|exact I1]|]. split.
      + intros f Hf. rewrite size_cons, size_app, size_cons in Hf. cbn [map]. rewrite I2 by lia. f_equal. apply names_iff in Hm.
        destruct f; cbn [SheetText.inner_f]; rewrite (same_name_two nm (tx "layer") _ Hn), Hn, Hm by reflexivity; destruct ns as [|n0 [|]]; reflexivity.
      + intros m any r Hr. cbn [app] in *. rewrite <- app_assoc in *. cbn [app] in *. rewrite raws_at by (try assumption; try reflexivity; apply (same_name_two nm (tx "layer") _ Hn); reflexivity). cbn [delimiter fst].
        destruct (I3 (length (l ++ r)) true r (le_n _)) as (any' & E). rewrite E. exists any'. reflexivity.
  Qed.
  Lemma sheet_text_of l xs : sheet_text selectors declare url_value l xs -> forall f n any, size l <= f -> length l <= n -> map (sheet_rule f) (raws_f n any l) = xs.
  Proof.
    induction 1 as [|a ts l xs Ha Hl IH|nm p u ly l xs Hn Hp Hm Hl IH|nm p b l xs Hn Hp Hm Hl IH|nm p n b l xs Hn Hp Hm Hl IH]; intros f m any Hf Hm'.
    - rewrite raws_nil. reflexivity.
    - destruct (rules_text_of a ts Ha) as (rs & I1 & I2 & I3). destruct (I3 m any l Hm') as (any' & E). rewrite E, map_app. rewrite size_app in Hf. rewrite IH by lia. f_equal. rewrite <- (I2 f) by lia. rewrite map_map. apply map_ext_in. intros x Hx. apply inner_stop. rewrite Forall_forall in I1. exact (I1 x Hx).
    - rewrite size_cons, size_app, size_cons in Hf. rewrite raws_at by (try assumption; try reflexivity; apply (same_name_two nm (tx "import") _ Hn); reflexivity). cbn [delimiter fst map]. rewrite IH by lia. f_equal.
      apply import_iff in Hm. cbn [SheetText.sheet_rule]. rewrite !(same_name_two nm (tx "import") _ Hn) by reflexivity. rewrite Hn, Hm. reflexivity.
    - rewrite size_cons, size_app, size_cons in Hf. rewrite raws_at by (try assumption; try reflexivity; apply (same_name_two nm (tx "font-face") _ Hn); reflexivity). cbn [delimiter fst map]. rewrite IH by lia. f_equal.
      cbn [SheetText.sheet_rule]. rewrite Hn, Hm. reflexivity.
    - rewrite size_cons, size_app, size_cons in Hf. rewrite raws_at by (try assumption; try reflexivity; apply (same_name_two nm (tx "keyframes") _ Hn); reflexivity). cbn [delimiter fst map]. rewrite IH by lia. f_equal.
      cbn [SheetText.sheet_rule]. rewrite !(same_name_two nm (tx "keyframes") _ Hn) by reflexivity. rewrite Hn, Hm. reflexivity.
  Qed.
End P.
