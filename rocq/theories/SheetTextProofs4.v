From Coq Require Import Ascii String NArith ZArith QArith Relations Lia.
From Verif Require Import Base Vars VarText Media Nesting SheetText SheetTextSpec SheetTextProofs SheetTextProofs2.
Open Scope nat_scope.

Lemma until_none p v : Forall (fun x => p x = false) v -> forall k b, p k = true -> until p (v ++ k :: b) = (v, k :: b).
Proof. induction 1 as [|x v Hx Hv IH]; intros k b Hk; cbn [app until]; [rewrite Hk; reflexivity|]. rewrite Hx, (IH k b Hk). reflexivity. Qed.
Lemma one_piece_semi v : one_piece v -> Forall (fun x => semi_or_curly x = false) v.
Proof.
  intros H. apply Forall_forall. intros x Hx. destruct (H x Hx) as [H1 H2]. destruct x as [tk| |b l]; try reflexivity; [destruct tk; try reflexivity; congruence|]. destruct b; try reflexivity. exfalso. exact (H2 l eq_refl).
Qed.
Lemma one_piece_only_semi v : one_piece v -> Forall (fun x => semi x = false) v.
Proof. intros H. eapply Forall_impl; [|exact (one_piece_semi v H)]. intros x Hx. unfold semi_or_curly in Hx. apply Bool.orb_false_iff in Hx. tauto. Qed.

Lemma no_curly_forall l : no_curly l -> Forall (fun y => curly y = false) l.
Proof. intros H. apply Forall_forall. intros x Hx. destruct x as [| |b q]; try reflexivity. destruct b; try reflexivity. exfalso. exact (H q Hx). Qed.
Section P.
  Context {Sl D : Type}.
  Variable selectors : bool -> list tree -> option (option (list Sl)).
  Variable declare : text -> list tree -> @decl_result D.
  Variable url_value : text -> option text.
  Notation body_f := (body_f selectors declare). Notation body_of := (body_of selectors declare).
  Notation inner_f := (inner_f selectors declare). Notation sheet_rule := (sheet_rule selectors declare url_value). Notation sheet_of := (sheet_of selectors declare url_value).
  Notation sheet := (sheet selectors declare url_value). Notation extract_imports := (extract_imports url_value).
  Notation load_file := (load_file selectors declare url_value).

  (** ** Declarations *)
  Lemma declaration_alone nm v : one_piece v ->
    body_of (Leaf (TIdent nm) :: v ++ [Leaf TSemicolon]) = [match declaration declare nm (strip v) with DVal d => BDecl d | _ => BError end].
  Proof.
    intros H. unfold SheetText.body_of. rewrite size_cons. change (tree_size (Leaf (TIdent nm))) with 1. cbn [Nat.add]. rewrite body_step. unfold decl_body.
    rewrite (until_none semi v (one_piece_only_semi v H) (Leaf TSemicolon) [] eq_refl). cbn [tl]. rewrite body_nil.
    destruct (declaration declare nm (strip v)); try reflexivity. unfold qual. cbn [until semi_or_curly semi curly orb].
    rewrite (until_none semi_or_curly v (one_piece_semi v H) (Leaf TSemicolon) [] eq_refl). cbn [delimiter]. rewrite body_nil. reflexivity.
  Qed.
  Lemma declaration_effect nm v b : one_piece v ->
    body_effective (body_of (Leaf (TIdent nm) :: v ++ Leaf TSemicolon :: b)) =
    match declaration declare nm (strip v) with DVal d => [BDecl d] | _ => [] end ++ body_effective (body_of b).
  Proof.
    intros H. change (Leaf (TIdent nm) :: v ++ Leaf TSemicolon :: b) with ((Leaf (TIdent nm) :: v) ++ Leaf TSemicolon :: b). rewrite body_of_split by reflexivity.
    change ((Leaf (TIdent nm) :: v) ++ [Leaf TSemicolon]) with (Leaf (TIdent nm) :: v ++ [Leaf TSemicolon]). rewrite (declaration_alone nm v H).
    destruct (declaration declare nm (strip v)); reflexivity.
  Qed.

  (** ** Rules *)
  Lemma at_rule_first nm p K b : one_piece p -> semi_or_curly K = true ->
    effective (sheet_of (Leaf (TAt nm) :: p ++ K :: b)) = effective [sheet_rule (size (p ++ [K])) (RAt nm p (fst (delimiter [K])))] ++ effective (sheet_of b).
  Proof.
    intros H HK. unfold SheetText.sheet_of, raws. set (F := size (Leaf (TAt nm) :: p ++ K :: b)). cbn [length raws_f].
    rewrite (until_none semi_or_curly p (one_piece_semi p H) K b HK).
    assert (Ed : delimiter (K :: b) = (fst (delimiter [K]), b)) by (destruct K as [| |k l]; try reflexivity; destruct k; reflexivity). rewrite Ed.
    assert (Fu : F = S (size p + (tree_size K + size b))) by (unfold F; rewrite size_cons, size_app, size_cons; reflexivity).
    assert (Rst : effective (map (sheet_rule F) (raws_f (length (p ++ K :: b)) true b)) = effective (map (sheet_rule (size b)) (raws_f (length b) false b))).
    { rewrite charset_later. rewrite (raws_fuel _ (length b)) by (rewrite ?app_length; simpl; lia). f_equal. apply sheet_fuel; lia. }
    assert (Hd : sheet_rule F (RAt nm p (fst (delimiter [K]))) = sheet_rule (size (p ++ [K])) (RAt nm p (fst (delimiter [K])))).
    { apply sheet_rule_fuel. intros bl Hb. pose proof (delimiter_size [K]) as [_ L]. specialize (L bl Hb). rewrite size_cons, size_nil in L. rewrite size_app, size_cons, size_nil. lia. }
    destruct (negb false && same_name nm (tx "charset"))%bool eqn:Ec; cbn [negb andb] in Ec.
    - rewrite charset_nothing by exact Ec. exact Rst.
    - cbn [map]. rewrite Hd, <- Rst. unfold effective. cbn [filter]. destruct (has_effect (sheet_rule (size (p ++ [K])) (RAt nm p (fst (delimiter [K]))))); reflexivity.
  Qed.
  Lemma unknown_nothing f nm p b : ~ known nm -> sheet_rule f (RAt nm p b) = STop TError.
  Proof.
    intros H. assert (E : forall s, In s ["font-face"; "keyframes"; "import"; "media"; "layer"]%string -> same_name nm (tx s) = false).
    { intros s Hs. destruct (same_name nm (tx s)) eqn:E; [|reflexivity]. exfalso. apply H. exists s. auto. }
    cbn [SheetText.sheet_rule]. rewrite !E by (simpl; tauto). destruct f; cbn [SheetText.inner_f]; rewrite !E by (simpl; tauto); reflexivity.
  Qed.
  Lemma rule_first x p l b : starts_rule x -> Forall (fun y => curly y = false) (x :: p) ->
    effective (sheet_of (x :: p ++ Blk InCurly l :: b)) =
    match selectors false (x :: p) with Some (Some ss) => [STop (TRule (Some ss) (body_of l))] | _ => [] end ++ effective (sheet_of b).
  Proof.
    intros Hx Hp. change (x :: p ++ Blk InCurly l :: b) with ((x :: p) ++ Blk InCurly l :: b). rewrite sheet_split by reflexivity. f_equal.
    unfold SheetText.sheet_of, raws. set (F := size ((x :: p) ++ [Blk InCurly l])).
    assert (Er : raws_f (length ((x :: p) ++ [Blk InCurly l])) false ((x :: p) ++ [Blk InCurly l]) = [RQual (x :: p) (Some l)]).
    { change (length ((x :: p) ++ [Blk InCurly l])) with (S (length (p ++ [Blk InCurly l]))). cbn [app].
      assert (Q : (let (p0, r') := until curly (x :: (p ++ [Blk InCurly l])) in let (b0, r'') := delimiter r' in RQual p0 b0 :: raws_f (length (p ++ [Blk InCurly l])) true r'') = [RQual (x :: p) (Some l)]).
      { change (x :: (p ++ [Blk InCurly l])) with ((x :: p) ++ Blk InCurly l :: []). rewrite (until_none curly (x :: p) Hp (Blk InCurly l) [] eq_refl). cbn [delimiter]. rewrite raws_nil. reflexivity. }
      cbn [raws_f]. destruct x as [tk| |]; [|exact Q|exact Q]. destruct tk as [| |nm| | | | | | | | | | | | | | | | | | | | |]; try exact Q; try destruct Hx. }
    rewrite Er. cbn [map SheetText.sheet_rule]. assert (Ei : inner_f F (RQual (x :: p) (Some l)) = qualified_rule selectors declare (x :: p) (Some l)) by (destruct F; reflexivity). rewrite Ei.
    unfold qualified_rule. destruct (selectors false (x :: p)) as [[ss|]|]; reflexivity.
  Qed.

  (** ** Imports *)
  Lemma needed_rule f x : (match sheet_rule f x with SImport u _ => [u] | _ => [] end) = import_url url_value x.
  Proof.
    destruct x as [nm p b|p b]; [|destruct f; reflexivity]. cbn [SheetText.sheet_rule import_url].
    destruct (same_name nm (tx "import")) eqn:Ei.
    - assert (E : forall s, same_name (tx "import") (tx s) = false -> same_name nm (tx s) = false) by (intros s; apply same_name_two; exact Ei). rewrite !E by reflexivity.
      destruct b; destruct (import_prelude url_value (strip p)) as [[u ly]|]; reflexivity.
    - destruct (same_name nm (tx "font-face")); [destruct (strip p); destruct b; reflexivity|]. destruct (same_name nm (tx "keyframes")).
      + destruct (strip p) as [|[tk| |] [|]]; try destruct tk; destruct b; reflexivity.
      + destruct b; reflexivity.
  Qed.
  Lemma needed_extract s : needed (sheet s) = extract_imports s.
  Proof.
    unfold SheetText.sheet, SheetText.sheet_of, needed, SheetText.extract_imports. rewrite flat_map_concat_map, map_map, <- flat_map_concat_map. apply flat_map_ext. intros x. apply needed_rule.
  Qed.
  Section Load.
    Variable files : text -> option text.
    Notation ld := (load_file files).
    Definition go (f : nat) (s : text) := (fix go us acc := match us with
                                | [] => Some (LSheet (sheet s) acc)
                                | u :: us => match ld f u with
                                             | None => None
                                             | Some LMissing => Some LMissing
                                             | Some x => go us (acc ++ [(u, x)])
                                             end
                                end).
    Lemma load_step f p : ld (S f) p = match files p with None => Some LMissing | Some s => go f s (extract_imports s) [] end.
    Proof. reflexivity. Qed.
    Lemma go_none f s u us acc : ld f u = None -> go f s (u :: us) acc = None.
    Proof. intros H. cbn. rewrite H. reflexivity. Qed.
    Lemma go_ext f g s us : (forall u x, In u us -> ld f u = Some x -> ld g u = Some x) -> forall acc y, go f s us acc = Some y -> go g s us acc = Some y.
    Proof.
      induction us as [|u us IH]; intros H acc y; [auto|]. cbn. destruct (ld f u) as [x|] eqn:E; [|discriminate]. rewrite (H u x (or_introl eq_refl) E). destruct x; [apply IH; intros; eapply H; [right|]; eassumption|auto].
    Qed.
    Lemma load_mono f : forall g p x, f <= g -> ld f p = Some x -> ld g p = Some x.
    Proof.
      induction f as [|f IH]; intros g p x L H; [discriminate|]. destruct g as [|g]; [lia|]. rewrite load_step in *. destruct (files p) as [s|]; [|exact H]. eapply go_ext; [|exact H]. intros u y _. apply IH. lia.
    Qed.
    Lemma go_all s us : (forall u, In u us -> exists f x, ld f u = Some x) -> exists f, forall acc, exists y, go f s us acc = Some y.
    Proof.
      induction us as [|u us IH]; intros H; [exists 0; intros acc; eexists; reflexivity|]. destruct IH as [f Hf]; [intros; apply H; right; assumption|]. destruct (H u (or_introl eq_refl)) as (g & x & Hg).
      exists (Nat.max f g). intros acc. cbn. rewrite (load_mono g (Nat.max f g) u x ltac:(lia) Hg). destruct x as [sh ims|]; [|eauto].
      destruct (Hf (acc ++ [(u, LSheet sh ims)])) as [y Hy]. exists y. eapply go_ext; [|exact Hy]. intros v z _ Hz. eapply load_mono; [|exact Hz]. lia.
    Qed.
    Lemma acc_loads p : Acc (imports url_value files) p -> exists f x, ld f p = Some x.
    Proof.
      induction 1 as [p _ IH]. destruct (files p) as [s|] eqn:E; [|exists 1, LMissing; rewrite load_step, E; reflexivity].
      destruct (go_all s (extract_imports s)) as [f Hf]; [intros u Hu; apply IH; exists s; auto|]. destruct (Hf []) as [y Hy]. exists (S f), y. rewrite load_step, E. exact Hy.
    Qed.
    Lemma go_out f s us : forall acc y, go f s us acc = Some y -> (exists u, In u us /\ ld f u = Some LMissing) \/
      exists ims, y = LSheet (sheet s) (acc ++ ims) /\ map fst ims = us /\ forall u x, In (u, x) ims -> ld f u = Some x /\ x <> LMissing.
    Proof.
      induction us as [|u us IH]; intros acc y H; [right; exists []; rewrite app_nil_r; injection H as <-; split; [reflexivity|]; split; [reflexivity|intros ? ? []]|].
      cbn in H. destruct (ld f u) as [x|] eqn:E; [|discriminate]. destruct x as [sh ims0|]; [|left; exists u; split; [left; reflexivity|exact E]].
      destruct (IH _ _ H) as [(v & Hv & Ev)|(ims & -> & Em & Hi)]; [left; exists v; split; [right; exact Hv|exact Ev]|]. right. exists ((u, LSheet sh ims0) :: ims). rewrite <- app_assoc. split; [reflexivity|].
      split; [cbn; rewrite Em; reflexivity|]. intros v x [Hin|Hin]; [injection Hin as <- <-; split; [exact E|discriminate]|apply Hi; exact Hin].
    Qed.
    Lemma load_missing f : forall p, ld f p = Some LMissing -> exists u, clos_refl_trans text (imports url_value files) u p /\ files u = None.
    Proof.
      induction f as [|f IH]; intros p H; [discriminate|]. rewrite load_step in H. destruct (files p) as [s|] eqn:E; [|exists p; split; [apply rt_refl|exact E]].
      destruct (go_out _ _ _ _ _ H) as [(u & Hu & Eu)|(ims & Hy & _)]; [|discriminate]. destruct (IH u Eu) as (v & Hv & Ev). exists v. split; [|exact Ev].
      eapply rt_trans; [exact Hv|]. apply rt_step. exists s. auto.
    Qed.
    Lemma load_acc f : forall p x, ld f p = Some x -> x <> LMissing -> Acc (imports url_value files) p.
    Proof.
      induction f as [|f IH]; intros p x H Hx; [discriminate|]. rewrite load_step in H. destruct (files p) as [s|] eqn:E; [|congruence].
      destruct (go_out _ _ _ _ _ H) as [(u & Hu & Eu)|(ims & -> & Em & Hi)].
      - exfalso. apply Hx. clear -H Hu Eu. revert H. generalize (@nil (text * @loaded Sl D)). induction (extract_imports s) as [|v us IH]; intros acc H; [destruct Hu|]. cbn in H. destruct (ld f v) as [z|] eqn:Ez; [|discriminate].
        destruct z as [sh ims|]; [|congruence]. destruct Hu as [->|Hu]; [rewrite Eu in Ez; discriminate|]. exact (IH Hu _ H).
      - constructor. intros u (s' & Es & Hu). rewrite E in Es. injection Es as <-. rewrite <- Em in Hu. apply in_map_iff in Hu as ((u' & y) & <- & Hin). destruct (Hi _ _ Hin) as [Hl Hm]. eapply IH; eassumption.
    Qed.
    Lemma load_result f p sh ims : ld (S f) p = Some (LSheet sh ims) -> exists s, files p = Some s /\ sh = sheet s /\ map fst ims = needed sh /\ forall u x, In (u, x) ims -> ld f u = Some x /\ x <> LMissing.
    Proof.
      rewrite load_step. destruct (files p) as [s|]; [|discriminate]. intros H. exists s. split; [reflexivity|]. destruct (go_out _ _ _ _ _ H) as [(u & Hu & Eu)|(ims' & Hy & Em & Hi)].
      - exfalso. revert H. generalize (@nil (text * @loaded Sl D)). induction (extract_imports s) as [|v us IH]; intros acc H; [destruct Hu|]. cbn in H. destruct (ld f v) as [z|] eqn:Ez; [|discriminate].
        destruct z as [sh' ims'|]; [|congruence]. destruct Hu as [->|Hu]; [rewrite Eu in Ez; discriminate|]. exact (IH Hu _ H).
      - injection Hy as -> ->. cbn [app]. rewrite needed_extract. auto.
    Qed.
  End Load.
End P.
