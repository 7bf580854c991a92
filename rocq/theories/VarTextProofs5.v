From Coq Require Import Ascii String NArith ZArith Lia.
From Verif Require Import Base Vars VarsSpec VarsProofs VarText VarTextSpec VarTextProofs VarTextProofs2 VarTextProofs3 VarTextProofs4.
Open Scope nat_scope.

(** ** Blocks of a plain text *)
Definition str_head (f : list tree) : Prop := exists a, (exists z, f = Leaf (TString z) :: a) \/ f = Leaf TBadString :: a.
Definition str_headt (l : list tok) : Prop := exists r, (exists z, l = TString z :: r) \/ l = TBadString :: r.
Definition is_url (s : text) : Prop := same_name s (tx "url") = true.
Inductive forest_ok : list tree -> Prop :=
| fo_nil : forest_ok []
| fo_leaf : forall x l, opens x = None -> tok_ok x -> forest_ok l -> forest_ok (Leaf x :: l)
| fo_fun : forall s a l, Forall clean s -> ident_start s = true -> (is_url s -> str_head a) -> forest_ok a -> forest_ok l -> forest_ok (Fun s a :: l)
| fo_blk : forall b a l, forest_ok a -> forest_ok l -> forest_ok (Blk b a :: l).
Lemma forest_ok_app a b : forest_ok a -> forest_ok b -> forest_ok (a ++ b).
Proof. intros Ha Hb. induction Ha; cbn [app]; [exact Hb|constructor; auto|constructor; auto|constructor; auto]. Qed.
Definition opener_ok (o : opener) : Prop := match o with OFun s => Forall clean s /\ ident_start s = true | OBlk _ => True end.
Definition opener_url (o : opener) : Prop := match o with OFun s => is_url s | OBlk _ => False end.
Fixpoint frames_strict (st : list (opener * list tree)) (cur : list tree) : Prop :=
  match st with
  | [] => True
  | (o, outer) :: st' => opener_ok o /\ (opener_url o -> str_head cur) /\ forest_ok outer /\ frames_strict st' outer
  end.
Definition frames (st : list (opener * list tree)) (cur : list tree) (l : list tok) : Prop :=
  match st with
  | [] => True
  | (o, outer) :: st' => opener_ok o /\ (opener_url o -> str_head cur \/ (cur = [] /\ str_headt l)) /\ forest_ok outer /\ frames_strict st' outer
  end.
Lemma str_head_app a b : str_head a -> str_head (a ++ b).
Proof. intros (x & [[z ->] | ->]); exists (x ++ b); [left; exists z|right]; reflexivity. Qed.
Lemma frames_weaken st cur l : frames_strict st cur -> frames st cur l.
Proof. destruct st as [|[o outer] st]; simpl; [auto|]. intuition. Qed.
Lemma frames_strict_of st cur : frames_strict st cur -> forall x, frames_strict st (cur ++ x).
Proof. destruct st as [|[o outer] st]; simpl; [auto|]. intros (A & B & C & D) x. repeat split; auto. intros H. apply str_head_app. auto. Qed.
Lemma node_ok o cur : opener_ok o -> (opener_url o -> str_head cur) -> forest_ok cur -> forest_ok [node o cur].
Proof. destruct o as [s|b]; simpl; intros Ho Hu Hc; [destruct Ho; constructor; auto; constructor|constructor; [exact Hc|constructor]]. Qed.
Lemma close_all_ok st : forall cur, forest_ok cur -> frames_strict st cur -> forest_ok (close_all st cur).
Proof.
  induction st as [|[o outer] st IH]; intros cur Hc Hf; [exact Hc|]. cbn [close_all]. destruct Hf as (A & B & C & D). apply IH.
  - apply forest_ok_app; [exact C|apply node_ok; assumption].
  - apply frames_strict_of. exact D.
Qed.
Lemma str_headt_cons x r : str_headt (x :: r) -> (exists z, x = TString z) \/ x = TBadString.
Proof. intros (r' & [[z H]|H]); injection H as -> _; eauto. Qed.
Lemma build_ok l : forall st cur, Forall tok_ok l -> url_toks l -> forest_ok cur -> frames st cur l -> forest_ok (build l st cur).
Proof.
  induction l as [|x l IH]; intros st cur Hl Hu Hc Hf.
  - cbn [build]. apply close_all_ok; [exact Hc|]. destruct st as [|[o outer] st]; [exact I|]. destruct Hf as (A & B & C & D). simpl. repeat split; auto.
    intros Ho. destruct (B Ho) as [H|[_ (r' & [[z H]|H])]]; [exact H|discriminate|discriminate].
  - inversion Hl as [|? ? Hx Hl']; subst. destruct Hu as [Hu Hu']. cbn [build]. destruct (opens x) as [o|] eqn:Eo.
    + apply IH; [exact Hl'|exact Hu'|constructor|]. cbn [frames].
      assert (Hstr : frames_strict st cur).
      { destruct st as [|[o' outer] st]; [exact I|]. destruct Hf as (A & B & C & D). simpl. repeat split; auto. intros H. destruct (B H) as [H'|[_ H']]; [exact H'|].
        apply str_headt_cons in H'. destruct H' as [[z ->] | ->]; discriminate Eo. }
      destruct x; try discriminate Eo; injection Eo as <-; (split; [|split; [|split; [exact Hc|exact Hstr]]]); simpl; auto; try tauto.
    + assert (Hleaf : forest_ok (cur ++ [Leaf x])) by (apply forest_ok_app; [exact Hc|constructor; [exact Eo|exact Hx|constructor]]).
      destruct st as [|[o outer] st]; [apply IH; auto|]. destruct Hf as (A & B & C & D).
      destruct (closes x o) eqn:Ec.
      * apply IH; [exact Hl'|exact Hu'| |].
        -- apply forest_ok_app; [exact C|]. apply node_ok; [exact A| |exact Hc]. intros H. destruct (B H) as [H'|[_ H']]; [exact H'|].
           apply str_headt_cons in H'. destruct H' as [[z ->] | ->]; discriminate Ec.
        -- apply frames_weaken. apply frames_strict_of. exact D.
      * apply IH; [exact Hl'|exact Hu'|exact Hleaf|]. cbn [frames]. repeat split; auto. intros H. left. destruct (B H) as [H'|[-> H']]; [apply str_head_app; exact H'|].
        apply str_headt_cons in H'. exists []. destruct H' as [[z ->] | ->]; [left; exists z|right]; reflexivity.
Qed.
Lemma parsed_ok s : plain s -> forest_ok (parsed s).
Proof. intros H. destruct (plain_tokens s H) as [A B]. apply build_ok; [exact A|exact B|constructor|exact I]. Qed.

(** ** Flat tokens and their blocks *)
Fixpoint flat_t (x : tree) : list tok :=
  match x with Leaf y => [y] | Fun s l => TFunction s :: flat_map flat_t l ++ [TClose] | Blk _ _ => [] end.
Definition flat (f : list tree) : list tok := flat_map flat_t f.
Lemma flat_app a b : flat (a ++ b) = flat a ++ flat b.
Proof. unfold flat. apply flat_map_app. Qed.
Inductive flat_ok : list tree -> Prop :=
| fl_nil : flat_ok []
| fl_leaf : forall x l, opens x = None -> (forall o, closes x o = false) -> flat_ok l -> flat_ok (Leaf x :: l)
| fl_fun : forall s a l, flat_ok a -> flat_ok l -> flat_ok (Fun s a :: l).
Lemma flat_ok_app a b : flat_ok a -> flat_ok b -> flat_ok (a ++ b).
Proof. intros Ha Hb. induction Ha; cbn [app]; [exact Hb|constructor; auto|constructor; auto]. Qed.
Lemma build_flat f : flat_ok f -> forall r st cur, build (flat f ++ r) st cur = build r st (cur ++ f).
Proof.
  induction 1 as [|x l Ho Hc Hl IH|s a l Ha IHa Hl IHl]; intros r st cur.
  - cbn. rewrite app_nil_r. reflexivity.
  - unfold flat. cbn [flat_map flat_t app build]. fold (flat l). rewrite Ho. destruct st as [|[o outer] st]; [|rewrite Hc]; rewrite IH, <- app_assoc; reflexivity.
  - unfold flat. cbn [flat_map flat_t app build opens]. fold (flat l) (flat a). rewrite <- !app_assoc. rewrite IHa. cbn [app build opens closes node]. rewrite IHl, <- app_assoc. reflexivity.
Qed.
Lemma build_flat_all f : flat_ok f -> build (flat f) [] [] = f.
Proof. intros H. rewrite <- (app_nil_r (flat f)). rewrite build_flat by exact H. reflexivity. Qed.

(** ** Substitution *)
Lemma var_tree_fun s l : var_tree (Fun s l) =
  if same_name s (tx "var") then option_map (fun v => [Var v]) (var_name l) else option_map (fun vs => Tok (VFunction s) :: vs ++ [Tok VEnd]) (var_trees l).
Proof. reflexivity. Qed.
Section E.
  Context {N T : Type}. Variable r : env N T.
  Lemma expands_app a : forall b out d, expands r (a ++ b) out d -> exists o1 o2 d1 d2, out = o1 ++ o2 /\ expands r a o1 d1 /\ expands r b o2 d2 /\ d1 <= d /\ d2 <= d.
  Proof.
    induction a as [|x a IH]; intros b out d H.
    - exists [], out, 0, d. repeat split; [constructor|exact H|lia|lia].
    - cbn [app] in H. inversion H as [|y ts out' d' Hx Ey Eo Ed|v def ts o1 o2 d1 d2 Hr H1 H2 Ey Eo Ed]; subst.
      + destruct (IH _ _ _ Hx) as (o1 & o2 & d1 & d2 & -> & A & B & C & D). exists (y :: o1), o2, d1, d2. repeat split; auto. constructor. exact A.
      + destruct (IH _ _ _ H2) as (p1 & p2 & e1 & e2 & -> & A & B & C & D). exists (o1 ++ p1), p2, (Nat.max (S d1) e1), e2. rewrite app_assoc. repeat split; [econstructor; eassumption|exact B|lia|lia].
  Qed.
  Lemma expands_tok x l out d : expands r (Tok x :: l) out d -> exists o, out = x :: o /\ expands r l o d.
  Proof. intros H. inversion H; subst. eauto. Qed.
  Lemma expands_one_var v out d : expands r [Var v] out d -> exists def d1, r v = Some def /\ expands r def out d1 /\ d1 < d.
  Proof.
    intros H. inversion H as [|? ? ? ? _ Ey|v' def ts o1 o2 d1 d2 Hr H1 H2 Ey Eo Ed]; subst. inversion H2; subst. rewrite app_nil_r. exists def, d1. repeat split; auto; lia.
  Qed.
End E.
Lemma url_ok_app a b : url_ok a -> url_ok b -> url_ok (a ++ b).
Proof.
  intros Ha Hb. induction a as [|x a IH]; [exact Hb|]. cbn [app url_ok] in *. destruct Ha as [Hx Ha]. split; [|auto].
  destruct x; auto. intros H. destruct (Hx H) as (z & r' & ->). exists z, (r' ++ b). reflexivity.
Qed.
Lemma var_leaf_ok x v : var_token x = Some v -> tok_ok x -> ok_v v /\ css v = x /\ opens x = None /\ (forall o, closes x o = false) /\ (forall s, v <> VFunction s).
Proof.
  intros Hv Hx. assert (A : ok_v v /\ css v = x) by (destruct x; cbn [var_token] in Hv; try discriminate; cbn [tok_ok var_token] in Hx; injection Hv as <-; exact Hx).
  destruct A as [A1 A2]. split; [exact A1|]. split; [exact A2|]. destruct x; cbn [var_token] in Hv; try discriminate; injection Hv as <-; repeat split; try discriminate; reflexivity.
Qed.
Lemma key defs : (forall v w, defs v = Some w -> plain w) -> forall n f vs out d, d <= n -> forest_ok f -> var_trees f = Some vs -> expands (env_of defs) vs out d ->
  exists f', substituted defs f f' /\ map css out = flat f' /\ flat_ok f' /\ Forall ok_v out /\ url_ok out /\ (forall z a, f = Leaf (TString z) :: a -> exists o, out = VString z :: o).
Proof.
  intros Hdefs. induction n as [n IHn] using (well_founded_induction Wf_nat.lt_wf). intros f vs out d Hd Hf. revert vs out d Hd.
  induction Hf as [|x l Ho Hx Hl IH|s a l Hs Hi Hu Ha IHa Hl IHl|b a l Ha IHa Hl IHl]; intros vs out d Hd Hv He.
  - cbn in Hv. injection Hv as <-. inversion He; subst. exists []. repeat split; try constructor. intros z a H. discriminate.
  - cbn [var_trees] in Hv. destruct (important (Leaf x :: l)); [discriminate|]. cbn [var_tree] in Hv. destruct (var_token x) as [v|] eqn:Ev; [|discriminate]. cbn [option_map] in Hv.
    destruct (var_trees l) as [vl|] eqn:El; [|discriminate]. injection Hv as <-. cbn [app] in He. destruct (expands_tok _ _ _ _ _ He) as (o & -> & He').
    destruct (IH vl o d Hd eq_refl He') as (f' & A & B & C & D & E & _). destruct (var_leaf_ok _ _ Ev Hx) as (G1 & G2 & G3 & G4 & G5).
    exists (Leaf x :: f'). split; [constructor; exact A|]. split; [cbn [map]; rewrite B, G2; reflexivity|]. split; [constructor; assumption|]. split; [constructor; assumption|].
    split; [cbn [url_ok]; split; [|exact E]; destruct v; auto; exfalso; eapply G5; reflexivity|]. intros z a Hz. injection Hz as -> _. cbn in Ev. injection Ev as <-. eauto.
  - cbn [var_trees] in Hv. change (important (Fun s a :: l)) with false in Hv. cbv iota in Hv. rewrite var_tree_fun in Hv.
    destruct (same_name s (tx "var")) eqn:Esn.
    + destruct (var_name a) as [v|] eqn:En; [|discriminate]. cbn [option_map] in Hv. destruct (var_trees l) as [vl|] eqn:El; [|discriminate]. injection Hv as <-.
      destruct (expands_app _ [Var v] vl _ _ He) as (o1 & o2 & d1 & d2 & -> & H1 & H2 & L1 & L2). destruct (expands_one_var _ _ _ _ H1) as (def & d0 & Hr & Hdef & Ld).
      unfold env_of in Hr. destruct (defs v) as [w|] eqn:Ed; [|discriminate]. unfold custom_property in Hr.
      destruct (IHn d0 ltac:(lia) (parsed w) def o1 d0 (le_n _) (parsed_ok w (Hdefs _ _ Ed)) Hr Hdef) as (fa & A & B & C & D & E & _).
      destruct (IHl vl o2 d2 ltac:(lia) eq_refl H2) as (fl & A' & B' & C' & D' & E' & _).
      exists (fa ++ fl). split.
      { assert (Ea : a = [Leaf (TIdent (tx "--" ++ v))]).
        { unfold var_name in En. repeat match type of En with match ?x with _ => _ end = _ => destruct x; try discriminate end. injection En as <-. reflexivity. }
        rewrite Ea. eapply sub_var; eassumption. }
      split; [rewrite map_app, B, B'; symmetry; apply flat_app|]. split; [apply flat_ok_app; assumption|]. split; [apply Forall_app; auto|]. split; [apply url_ok_app; assumption|]. discriminate.
    + destruct (var_trees a) as [va|] eqn:Ea; [|discriminate]. cbn [option_map] in Hv. destruct (var_trees l) as [vl|] eqn:El; [|discriminate]. injection Hv as <-.
      cbn [app] in He. destruct (expands_tok _ _ _ _ _ He) as (o & -> & He'). clear He. rewrite <- app_assoc in He'.
      destruct (expands_app _ va ([Tok VEnd] ++ vl) _ _ He') as (o1 & o2 & d1 & d2 & -> & H1 & H2 & L1 & L2). cbn [app] in H2. destruct (expands_tok _ _ _ _ _ H2) as (o3 & -> & H3).
      destruct (IHa va o1 d1 ltac:(lia) eq_refl H1) as (fa & A & B & C & D & E & F). destruct (IHl vl o3 d2 ltac:(lia) eq_refl H3) as (fl & A' & B' & C' & D' & E' & _).
      exists (Fun s fa :: fl). split; [constructor; assumption|].
      split; [unfold flat; cbn [map flat_map flat_t]; fold (flat fa) (flat fl); rewrite map_app; cbn [map css app]; rewrite B, B', <- app_assoc; reflexivity|].
      split; [constructor; assumption|]. split; [constructor; [split; assumption|apply Forall_app; split; [exact D|constructor; [exact I|exact D']]]|].
      split; [|discriminate]. cbn [url_ok]. split; [|apply url_ok_app; [exact E|cbn [url_ok]; auto]].
      intros Hus. destruct (Hu Hus) as (a' & [[z Hz]|Hz]).
      * destruct (F _ _ Hz) as [o ->]. exists z, (o ++ VEnd :: o3). reflexivity.
      * subst a. cbn [var_trees] in Ea. destruct (important (Leaf TBadString :: a')); discriminate.
  - cbn [var_trees] in Hv. discriminate.
Qed.
Lemma given_substituted defs s f : (forall v w, defs v = Some w -> plain w) -> plain s -> given defs s = Some f -> substituted defs (parsed s) f.
Proof.
  intros Hdefs Hs H. unfold given in H. destruct (custom_property s) as [vs|] eqn:Ec; [|discriminate]. destruct (resolve_recursively (env_of defs) vs) as [out|e] eqn:Er; [|discriminate].
  injection H as <-. apply resolve_iff in Er. destruct Er as (d & He & _).
  destruct (key defs Hdefs d (parsed s) vs out d (le_n _) (parsed_ok s Hs) Ec He) as (f' & A & B & C & D & E & _).
  assert (Hp : parsed (to_css out) = f') by (unfold parsed; rewrite tokens_print by assumption; rewrite B; apply build_flat_all; exact C). rewrite Hp. exact A.
Qed.
Lemma substituted_fun defs f f1 : substituted defs f f1 -> forall f2, substituted defs f f2 -> f1 = f2.
Proof.
  induction 1 as [|x l l' H IH|s a a' l l' Hs Ha IHa Hl IHl|b a a' l l' Ha IHa Hl IHl|s v w a l l' Hs Hv Ha IHa Hl IHl]; intros f2 H2; inversion H2; subst; try congruence.
  - f_equal. auto.
  - f_equal; [f_equal|]; auto.
  - f_equal; [f_equal|]; auto.
  - assert (Ew : w = w0) by congruence. subst w0. f_equal; auto.
Qed.
Lemma var_name_iff l v : var_name l = Some v <-> l = [Leaf (TIdent (tx "--" ++ v))] /\ v <> [].
Proof.
  split.
  - intros En. unfold var_name in En. repeat match type of En with match ?x with _ => _ end = _ => destruct x; try discriminate end. injection En as <-. split; [reflexivity|discriminate].
  - intros [-> Hv]. destruct v as [|c v]; [congruence|]. reflexivity.
Qed.
Fixpoint tree_size (x : tree) : nat := match x with Leaf _ => 1 | Fun _ l | Blk _ l => S (list_sum (map tree_size l)) end.
Lemma supported_iff n : forall f, list_sum (map tree_size f) <= n -> (var_trees f <> None <-> supported f).
Proof.
  induction n as [|n IH]; intros f Hn.
  - destruct f as [|x f]; [split; intros; [constructor|discriminate]|]. exfalso. destruct x; simpl in Hn; lia.
  - destruct f as [|x f]; [split; intros; [constructor|discriminate]|]. cbn [map list_sum fold_right] in Hn.
    assert (Hpos : 0 < tree_size x) by (destruct x; simpl; lia).
    assert (Hf : var_trees f <> None <-> supported f) by (apply IH; unfold list_sum; lia). cbn [var_trees].
    destruct x as [x|s a|b a].
    + split.
      * intros H. destruct (important (Leaf x :: f)) eqn:Ei; [congruence|]. cbn [var_tree] in H. destruct (var_token x) as [v|] eqn:Ev; [|cbn in H; congruence]. cbn [option_map] in H.
        destruct (var_trees f) as [vf|]; [|congruence]. apply sup_leaf; [| | | |exact Ei|apply Hf; discriminate].
        -- destruct x; try discriminate Ev; simpl; intuition discriminate.
        -- destruct x; try discriminate Ev; intros z; split; discriminate.
        -- destruct x; try discriminate Ev; intros z; discriminate.
        -- destruct x; try discriminate Ev; reflexivity.
      * intros H. inversion H as [|x' l' Hn1 Hn2 Hn3 Ho Hi Hl|s' a' l' Hn1 Ha' Hl|s' v' l' Hn1 Hv Hl]; subst. rewrite Hi. cbn [var_tree]. apply Hf in Hl. destruct (var_trees f) as [vf|]; [|congruence].
        destruct (var_token x) as [v|] eqn:Ev; [cbn [option_map]; discriminate|]. exfalso. destruct x; try discriminate Ev; try discriminate Ho; try (apply Hn1; simpl; tauto); try (exact (proj1 (Hn2 _) eq_refl)); try (exact (proj2 (Hn2 _) eq_refl)); exact (Hn3 _ eq_refl).
    + change (important (Fun s a :: f)) with false. cbv iota. rewrite var_tree_fun. destruct (same_name s (tx "var")) eqn:Es.
      * split.
        -- intros H. destruct (var_name a) as [v|] eqn:Ev; [|cbn in H; congruence]. apply var_name_iff in Ev. destruct Ev as [-> Hv]. constructor; [exact Es|exact Hv|]. apply Hf. cbn [option_map] in H. destruct (var_trees f); [discriminate|congruence].
        -- intros H. inversion H as [| |s' a' l' Hn1 Ha' Hl|s' v' l' Hn1 Hv Hl]; subst; [congruence|]. assert (En : var_name [Leaf (TIdent (tx "--" ++ v'))] = Some v') by (apply var_name_iff; auto). match goal with |- context [var_name ?z] => change (var_name z) with (var_name [Leaf (TIdent (tx "--" ++ v'))]) end. rewrite En. cbn [option_map].
           apply Hf in Hl. destruct (var_trees f); [discriminate|congruence].
      * assert (Hb : var_trees a <> None <-> supported a) by (apply IH; cbn [tree_size] in Hn; unfold list_sum in *; lia). split.
        -- intros H. constructor; [exact Es| |]; [apply Hb|apply Hf]; destruct (var_trees a); cbn [option_map] in H; destruct (var_trees f); congruence.
        -- intros H. inversion H as [| |s' a' l' Hn1 Ha' Hl|s' v' l' Hn1 Hv Hl]; subst; [|congruence]. apply Hf in Hl. apply Hb in Ha'. destruct (var_trees a); [|congruence]. cbn [option_map]. destruct (var_trees f); [discriminate|congruence].
    + cbn [var_tree]. split; [destruct (important (Blk b a :: f)); congruence|intros H; inversion H].
Qed.
(** without variables nothing fails and nothing changes *)
Lemma no_var_sub defs f : no_var f -> substituted defs f f.
Proof. induction 1; constructor; auto. Qed.
Lemma no_var_expands (r : env text vtok) n : forall f vs, list_sum (map tree_size f) <= n -> no_var f -> var_trees f = Some vs -> exists out, expands r vs out 0.
Proof.
  assert (Happ : forall a b o1 o2, expands r a o1 0 -> expands r b o2 0 -> expands r (a ++ b) (o1 ++ o2) 0).
  { induction a as [|x a IHa]; intros b o1 o2 H1 H2; inversion H1 as [|y ts out d Hx Ey Eo Ed|v def ts p1 p2 d1 d2 Hr Hd Ht Ey Eo Ed]; [exact H2| |exfalso; destruct d2; discriminate Ed]. cbn [app]. constructor. auto. }
  induction n as [|n IH]; intros f vs Hn Hf Hv.
  - destruct f as [|x f]; [cbn in Hv; injection Hv as <-; exists []; constructor|]. exfalso. destruct x; simpl in Hn; lia.
  - destruct Hf as [|x l Hl|s a l Hs Ha Hl|b a l Ha Hl]; cbn [var_trees] in Hv.
    + injection Hv as <-. exists []. constructor.
    + destruct (important (Leaf x :: l)); [discriminate|]. cbn [var_tree] in Hv. destruct (var_token x) as [v|]; [|discriminate]. cbn [option_map] in Hv. destruct (var_trees l) as [vl|] eqn:El; [|discriminate]. injection Hv as <-.
      destruct (IH l vl) as [o Ho]; auto; [cbn [map list_sum fold_right tree_size] in Hn; unfold list_sum; lia|]. exists (v :: o). constructor. exact Ho.
    + change (important (Fun s a :: l)) with false in Hv. cbv iota in Hv. rewrite var_tree_fun, Hs in Hv. destruct (var_trees a) as [va|] eqn:Ea; [|discriminate]. cbn [option_map] in Hv. destruct (var_trees l) as [vl|] eqn:El; [|discriminate]. injection Hv as <-.
      cbn [map list_sum fold_right tree_size] in Hn. unfold list_sum in IH.
      destruct (IH a va) as [oa Hoa]; auto; [unfold list_sum in Hn; lia|]. destruct (IH l vl) as [ol Hol]; auto; [unfold list_sum in Hn; lia|].
      exists ((VFunction s :: oa ++ [VEnd]) ++ ol). cbn [app]. constructor. apply Happ; [|exact Hol]. apply Happ; [exact Hoa|]. constructor. constructor.
    + discriminate.
Qed.

(** ** When there is a value *)
Lemma supported_some f : supported f <-> exists vs, var_trees f = Some vs.
Proof.
  rewrite <- (supported_iff _ f (le_n _)). destruct (var_trees f) as [vs|]; split; intros H; [eauto|discriminate|congruence|]. destruct H as [vs H]. discriminate.
Qed.
Lemma expands_join {N T} (r : env N T) a : forall b o1 o2 d1 d2, expands r a o1 d1 -> expands r b o2 d2 -> exists d, expands r (a ++ b) (o1 ++ o2) d /\ d <= Nat.max d1 d2.
Proof.
  induction a as [|x a IHa]; intros b o1 o2 d1 d2 H1 H2; inversion H1 as [|y ts out d Hx Ey Eo Ed|v def ts p1 p2 e1 e2 Hr Hd Ht Ey Eo Ed]; subst.
  - exists d2. split; [exact H2|lia].
  - destruct (IHa b out o2 d1 d2 Hx H2) as (d & A & B). exists d. split; [constructor; exact A|exact B].
  - destruct (IHa b p2 o2 e2 d2 Ht H2) as (d & A & B). exists (Nat.max (S e1) d). cbn [app]. rewrite <- app_assoc. split; [econstructor; eassumption|lia].
Qed.
Lemma var_trees_var s v l vs : same_name s (tx "var") = true -> v <> [] -> (var_trees (Fun s [Leaf (TIdent (tx "--" ++ v))] :: l) = Some vs <-> exists vl, var_trees l = Some vl /\ vs = Var v :: vl).
Proof.
  intros Hs Hv. cbn [var_trees]. change (important (Fun s [Leaf (TIdent (tx "--" ++ v))] :: l)) with false. cbv iota. rewrite var_tree_fun, Hs.
  assert (En : var_name [Leaf (TIdent (tx "--" ++ v))] = Some v) by (apply var_name_iff; auto). rewrite En. cbn [option_map]. destruct (var_trees l) as [vl|]; split.
  - intros H. injection H as <-. eauto.
  - intros (vl' & H & ->). injection H as <-. reflexivity.
  - discriminate.
  - intros (vl & H & _). discriminate.
Qed.
Lemma var_trees_fun s a l vs : same_name s (tx "var") = false -> (var_trees (Fun s a :: l) = Some vs <-> exists va vl, var_trees a = Some va /\ var_trees l = Some vl /\ vs = Tok (VFunction s) :: (va ++ [Tok VEnd]) ++ vl).
Proof.
  intros Hs. cbn [var_trees]. change (important (Fun s a :: l)) with false. cbv iota. rewrite var_tree_fun, Hs. destruct (var_trees a) as [va|]; cbn [option_map]; [destruct (var_trees l) as [vl|]|]; split.
  - intros H. injection H as <-. eauto.
  - intros (va' & vl' & H & H' & ->). injection H as <-. injection H' as <-. reflexivity.
  - discriminate.
  - intros (va' & vl' & H & H' & _). discriminate.
  - discriminate.
  - intros (va' & vl' & H & H' & _). discriminate.
Qed.
Lemma var_trees_leaf x l vs : var_trees (Leaf x :: l) = Some vs -> exists y vl, var_trees l = Some vl /\ vs = Tok y :: vl.
Proof.
  cbn [var_trees]. destruct (important (Leaf x :: l)); [discriminate|]. cbn [var_tree]. destruct (var_token x) as [y|]; [|discriminate]. cbn [option_map]. destruct (var_trees l) as [vl|]; [|discriminate].
  intros H. injection H as <-. eauto.
Qed.
Lemma expands_reaches defs : forall n f vs out d, d <= n -> supported f -> var_trees f = Some vs -> expands (env_of defs) vs out d -> reaches defs n f.
Proof.
  induction n as [n IHn] using (well_founded_induction Wf_nat.lt_wf). intros f vs out d Hd Hf. revert vs out d Hd.
  induction Hf as [|x l _ _ _ _ Hl IH|s a l Hs Ha IHa Hl IHl|s v l Hs Hne Hl IHl]; intros vs out d Hd Hv He.
  - constructor.
  - apply var_trees_leaf in Hv as (y & vl & Hv & ->). destruct (expands_tok _ _ _ _ _ He) as (o & _ & He'). constructor. eauto.
  - apply (var_trees_fun s a l vs Hs) in Hv as (va & vl & Hva & Hvl & ->). destruct (expands_tok _ _ _ _ _ He) as (o & _ & He'). rewrite <- app_assoc in He'.
    destruct (expands_app _ va ([Tok VEnd] ++ vl) _ _ He') as (o1 & o2 & d1 & d2 & -> & H1 & H2 & L1 & L2). cbn [app] in H2. destruct (expands_tok _ _ _ _ _ H2) as (o3 & -> & H3).
    constructor; [exact Hs|eapply IHa; [|exact Hva|exact H1]; lia|eapply IHl; [|exact Hvl|exact H3]; lia].
  - apply (var_trees_var s v l vs Hs Hne) in Hv as (vl & Hvl & ->).
    destruct (expands_app _ [Var v] vl _ _ He) as (o1 & o2 & d1 & d2 & -> & H1 & H2 & L1 & L2). destruct (expands_one_var _ _ _ _ H1) as (def & d0 & Hr & Hdef & Ld).
    unfold env_of in Hr. destruct (defs v) as [w|] eqn:Ed; [|discriminate]. unfold custom_property in Hr. assert (Hw : supported (parsed w)) by (apply supported_some; eauto).
    destruct n as [|n]; [lia|]. apply (re_var _ n s v w l); [exact Hs|exact Ed|exact Hw| |].
    + apply (IHn n (Nat.lt_succ_diag_r n) (parsed w) def o1 d0); auto. lia.
    + eapply IHl; [|exact Hvl|exact H2]. lia.
Qed.
Lemma reaches_expands defs n f : reaches defs n f -> supported f -> exists vs out d, var_trees f = Some vs /\ expands (env_of defs) vs out d /\ d <= n.
Proof.
  induction 1 as [n|n x l Hl IH|n s a l Hs Ha IHa Hl IHl|n s v w l Hs Hv Hw Hr IHw Hl IHl]; intros Hf.
  - exists [], [], 0. repeat split; [constructor|lia].
  - inversion Hf; subst. destruct (IH ltac:(assumption)) as (vl & out & d & A & B & C). apply supported_some in Hf as [vs Hvs]. pose proof Hvs as Hvs'. apply var_trees_leaf in Hvs as (y & vl' & Hl' & ->).
    assert (vl' = vl) by congruence. subst vl'. exists (Tok y :: vl), (y :: out), d. repeat split; [exact Hvs'|constructor; exact B|exact C].
  - inversion Hf as [| |s' a' l' Hn1 Ha' Hl'|s' v' l' Hn1 Hv' Hl']; subst; [|congruence]. destruct (IHa Ha') as (va & oa & da & A & B & C). destruct (IHl Hl') as (vl & ol & dl & A' & B' & C').
    destruct (expands_join _ _ [Tok VEnd] oa [VEnd] da 0 B ltac:(constructor; constructor)) as (d1 & B1 & C1). destruct (expands_join _ _ vl _ ol d1 dl B1 B') as (d2 & B2 & C2).
    exists (Tok (VFunction s) :: (va ++ [Tok VEnd]) ++ vl), (VFunction s :: (oa ++ [VEnd]) ++ ol), d2. split; [apply var_trees_fun; [exact Hs|]; eauto|]. split; [constructor; exact B2|lia].
  - inversion Hf as [| |s' a' l' Hn1 Ha' Hl'|s' v' l' Hn1 Hv' Hl']; subst; [congruence|].
    destruct (IHw Hw) as (vw & ow & dw & A & B & C). destruct (IHl Hl') as (vl & ol & dl & A' & B' & C').
    exists (Var v :: vl), (ow ++ ol), (Nat.max (S dw) dl). split; [apply var_trees_var; eauto|]. split; [|lia]. econstructor; [|exact B|exact B']. unfold env_of. rewrite Hv. exact A.
Qed.
Lemma given_some defs s : given defs s <> None <-> supported (parsed s) /\ reaches defs 7 (parsed s).
Proof.
  unfold given. split.
  - intros H. destruct (custom_property s) as [vs|] eqn:Ec; [|congruence]. destruct (resolve_recursively (env_of defs) vs) as [out|e] eqn:Er; [|congruence].
    apply resolve_iff in Er as (d & He & Hd). assert (Hs : supported (parsed s)) by (apply supported_some; eauto). split; [exact Hs|]. eapply expands_reaches; [|exact Hs|exact Ec|exact He]. lia.
  - intros [Hs Hr]. destruct (reaches_expands _ _ _ Hr Hs) as (vs & out & d & A & B & C). unfold custom_property. rewrite A.
    assert (Er : resolve_recursively (env_of defs) vs = Ok out) by (apply resolve_iff; exists d; split; [exact B|lia]). rewrite Er. discriminate.
Qed.
