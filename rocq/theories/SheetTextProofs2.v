From Coq Require Import Ascii String NArith ZArith QArith Lia.
From Verif Require Import Base Vars VarText Media Nesting SheetText SheetTextSpec SheetTextProofs.
Open Scope nat_scope.

Lemma size_cons x l : size (x :: l) = tree_size x + size l.
Proof. reflexivity. Qed.
Lemma size_nil : size [] = 0.
Proof. reflexivity. Qed.
Lemma size_app a b : size (a ++ b) = size a + size b.
Proof. unfold size. rewrite map_app, list_sum_app. reflexivity. Qed.
Lemma tree_pos x : 0 < tree_size x.
Proof. destruct x; simpl; lia. Qed.
Lemma size_len l : length l <= size l.
Proof. induction l as [|x l IH]; [simpl; lia|]. rewrite size_cons. pose proof (tree_pos x). simpl. lia. Qed.
Lemma until_app p l : l = fst (until p l) ++ snd (until p l).
Proof. induction l as [|x l IH]; [reflexivity|]. cbn [until]. destruct (p x); [reflexivity|]. destruct (until p l) as [a b]. simpl in *. congruence. Qed.
Lemma delimiter_size l : size (snd (delimiter l)) <= size l /\ forall b, fst (delimiter l) = Some b -> size b + size (snd (delimiter l)) < size l.
Proof.
  assert (Hc : forall x r, size r <= size (x :: r)) by (intros; rewrite size_cons; lia).
  destruct l as [|x l]; [split; [simpl; lia|discriminate]|]. destruct x as [t|s q|b q]; try (split; [apply Hc|discriminate]).
  destruct b; try (split; [apply Hc|discriminate]). split; [apply Hc|]. cbn. intros b H. injection H as <-. unfold size. simpl. lia.
Qed.
Lemma until_size p l : size (snd (until p l)) <= size l.
Proof. rewrite (until_app p l) at 2. rewrite size_app. lia. Qed.
Lemma delimiter_size' l : l <> [] -> size (snd (delimiter l)) < size l.
Proof.
  assert (Hc : forall x r, size r < size (x :: r)) by (intros x r; rewrite size_cons; pose proof (tree_pos x); lia).
  intros H. destruct l as [|x l]; [congruence|]. destruct x as [t|s q|b q]; try (apply Hc). destruct b; apply Hc.
Qed.
(** ** Rules *)
Definition block_of (x : raw) : option (list tree) := match x with RAt _ _ b | RQual _ b => b end.
Lemma raws_size n : forall any l x b, In x (raws_f n any l) -> block_of x = Some b -> size b < size l.
Proof.
  induction n as [|n IH]; intros any l x b; [intros []|]. destruct l as [|y l]; [intros []|].
  assert (Rec : forall any' r', size r' <= size (y :: l) -> In x (raws_f n any' r') -> block_of x = Some b -> size b < size (y :: l)) by (intros any' r' L Hin Hb; specialize (IH _ _ _ _ Hin Hb); lia).
  assert (Q : In x (let (p, r') := until curly (y :: l) in let (bl, r'') := delimiter r' in RQual p bl :: raws_f n true r'') -> block_of x = Some b -> size b < size (y :: l)).
  { pose proof (until_size curly (y :: l)) as L1. destruct (until curly (y :: l)) as [p r'] eqn:E. pose proof (delimiter_size r') as [L2 L3]. destruct (delimiter r') as [bl r'']. cbn [fst snd] in *.
    intros [<-|Hin] Hb; [cbn in Hb; specialize (L3 _ Hb); lia|]. eapply Rec; [|exact Hin|exact Hb]; lia. }
  assert (T : forall nm, In x (let (p, r') := until semi_or_curly l in let (bl, r'') := delimiter r' in if (negb any && same_name nm (tx "charset"))%bool then raws_f n true r'' else RAt nm p bl :: raws_f n true r'') -> block_of x = Some b -> size b < size (y :: l)).
  { intros nm. pose proof (until_size semi_or_curly l) as L1. destruct (until semi_or_curly l) as [p r'] eqn:E. pose proof (delimiter_size r') as [L2 L3]. destruct (delimiter r') as [bl r'']. cbn [fst snd] in *.
    assert (L4 : size l <= size (y :: l)) by (rewrite size_cons; lia). destruct (negb any && same_name nm (tx "charset"))%bool; [intros Hin Hb; eapply Rec; [|exact Hin|exact Hb]; lia|].
    intros [<-|Hin] Hb; [cbn in Hb; specialize (L3 _ Hb); lia|]. eapply Rec; [|exact Hin|exact Hb]; lia. }
  cbn [raws_f]. assert (L4 : size l <= size (y :: l)) by (rewrite size_cons; lia).
  destruct y as [tk| |]; [|exact Q|exact Q]. destruct tk as [| |nm| | | | | | | | | | | | | | | | | | | | |]; try exact Q; [exact (T nm)|apply Rec; exact L4|apply Rec; exact L4].
Qed.
Section P.
  Context {Sl D : Type}.
  Variable selectors : bool -> list tree -> option (option (list Sl)).
  Variable declare : text -> list tree -> @decl_result D.
  Variable url_value : text -> option text.
  Notation body_f := (body_f selectors declare). Notation body_of := (body_of selectors declare).
  Notation inner_f := (inner_f selectors declare). Notation sheet_rule := (sheet_rule selectors declare url_value). Notation sheet_of := (sheet_of selectors declare url_value).

  Lemma inner_fuel f : forall g x, (forall b, block_of x = Some b -> size b <= f /\ size b <= g) -> inner_f f x = inner_f g x.
  Proof.
    induction f as [|f IH]; intros g x H.
    - assert (Hb : forall b, block_of x = Some b -> b = []).
      { intros b Hb. destruct (H b Hb) as [L _]. pose proof (size_len b). destruct b; [reflexivity|simpl in *; lia]. }
      destruct x as [nm p bl|p bl]; [|destruct g; reflexivity]. destruct bl as [bl|]; [|destruct g; reflexivity]. cbn in Hb. rewrite (Hb bl eq_refl). destruct g; reflexivity.
    - destruct g as [|g].
      + assert (Hb : forall b, block_of x = Some b -> b = []).
        { intros b Hb. destruct (H b Hb) as [_ L]. pose proof (size_len b). destruct b; [reflexivity|simpl in *; lia]. }
        destruct x as [nm p bl|p bl]; [|reflexivity]. destruct bl as [bl|]; [|reflexivity]. cbn in Hb. rewrite (Hb bl eq_refl). reflexivity.
      + destruct x as [nm p bl|p bl]; [|reflexivity]. destruct bl as [bl|]; [|reflexivity]. destruct (H bl eq_refl) as [L1 L2].
        assert (E : map (inner_f f) (raws bl) = map (inner_f g) (raws bl)).
        { apply map_ext_in. intros x Hx. apply IH. intros b Hb. unfold raws in Hx. pose proof (raws_size _ _ _ _ _ Hx Hb). lia. }
        cbn [SheetText.inner_f]. rewrite E. reflexivity.
  Qed.
  Lemma sheet_rule_fuel f g x : (forall b, block_of x = Some b -> size b <= f /\ size b <= g) -> sheet_rule f x = sheet_rule g x.
  Proof. intros H. destruct x as [nm p bl|p bl]; cbn [SheetText.sheet_rule]; rewrite (inner_fuel f g _ H); reflexivity. Qed.
  Lemma sheet_fuel n any l f g : size l <= f -> size l <= g -> map (sheet_rule f) (raws_f n any l) = map (sheet_rule g) (raws_f n any l).
  Proof. intros Hf Hg. apply map_ext_in. intros x Hx. apply sheet_rule_fuel. intros b Hb. pose proof (raws_size _ _ _ _ _ Hx Hb). lia. Qed.
  Lemma same_name_two a b c : same_name a b = true -> same_name b c = false -> same_name a c = false.
  Proof.
    unfold same_name. intros H1 H2. destruct (list_eq_dec ascii_dec (map lower a) (map lower b)) as [E|]; [|discriminate].
    destruct (list_eq_dec ascii_dec (map lower a) (map lower c)); [|reflexivity]. destruct (list_eq_dec ascii_dec (map lower b) (map lower c)); congruence.
  Qed.
  Lemma charset_nothing f nm p b : same_name nm (tx "charset") = true -> sheet_rule f (RAt nm p b) = STop TError.
  Proof.
    intros H. cbn [SheetText.sheet_rule]. assert (E : forall s, same_name (tx "charset") (tx s) = false -> same_name nm (tx s) = false) by (intros s; apply same_name_two; exact H).
    rewrite !E by reflexivity. destruct f; cbn [SheetText.inner_f]; rewrite !E by reflexivity; reflexivity.
  Qed.
  Lemma charset_later n l f : effective (map (sheet_rule f) (raws_f n true l)) = effective (map (sheet_rule f) (raws_f n false l)).
  Proof.
    revert l. induction n as [|n IH]; intros l; [reflexivity|]. destruct l as [|x l]; [reflexivity|]. cbn [raws_f].
    destruct x as [tk| |]; try reflexivity. destruct tk as [| |nm| | | | | | | | | | | | | | | | | | | | |]; try reflexivity; [|apply IH|apply IH].
    destruct (until semi_or_curly l) as [p r']. destruct (delimiter r') as [b r'']. cbn [negb andb]. destruct (same_name nm (tx "charset")) eqn:E; [|reflexivity].
    cbn [map effective filter]. rewrite (charset_nothing f nm p b E). reflexivity.
  Qed.
  Lemma sheet_split K a b : curly K = true -> effective (sheet_of (a ++ K :: b)) = effective (sheet_of (a ++ [K])) ++ effective (sheet_of b).
  Proof.
    intros HK. unfold SheetText.sheet_of, raws. set (N := length (a ++ K :: b)). set (F := size (a ++ K :: b)).
    assert (La : length (a ++ [K]) <= N) by (unfold N; rewrite !app_length; simpl; lia).
    assert (Lb : length b <= N) by (unfold N; rewrite !app_length; simpl; lia).
    rewrite (raws_fuel (length (a ++ [K])) N) by lia. rewrite (raws_fuel (length b) N) by lia.
    rewrite (raws_split K HK N a false b (le_n _)). rewrite map_app. unfold effective. rewrite filter_app. f_equal.
    - f_equal. apply sheet_fuel; unfold F; rewrite ?size_app, ?size_cons, ?size_nil; lia.
    - fold (@effective Sl D (map (sheet_rule F) (raws_f N true b))). rewrite charset_later. unfold effective. f_equal. apply sheet_fuel; unfold F; rewrite ?size_app, ?size_cons; lia.
  Qed.

  (** ** Bodies *)
  Definition qual (f : nat) (l : list tree) : list (body Sl (media_selector fval) D) :=
    let (p, r') := until semi_or_curly l in
    let (b, r'') := delimiter r' in
    (match b with Some b => match selectors true (drop_spaces p) with Some ss => BRule ss (body_f f b) | None => BError end | None => BError end) :: body_f f r''.
  Definition at_body (f : nat) (nm : text) (r : list tree) : list (body Sl (media_selector fval) D) :=
    let (p, r') := until semi_or_curly r in
    let (b, r'') := delimiter r' in
    (match body_prelude nm (strip p), b with
     | Some (AMedia ms), Some b => BMedia ms (body_f f b)
     | Some (ALayer n), Some b => BLayer n (body_f f b)
     | _, _ => BError
     end) :: body_f f r''.
  Definition decl_body (f : nat) (nm : text) (l r : list tree) : list (body Sl (media_selector fval) D) :=
    let (v, r') := until semi r in
    match declaration declare nm (strip v) with
    | DVal d => BDecl d :: body_f f (tl r')
    | DFinal => BError :: body_f f (tl r')
    | DErr => qual f l
    end.
  Lemma body_step f x r : body_f (S f) (x :: r) =
    match x with
    | Leaf TCloseCurly | Leaf TWhite | Leaf TSemicolon => body_f f r
    | Leaf (TAt nm) => at_body f nm r
    | Leaf (TIdent nm) => decl_body f nm (x :: r) r
    | _ => qual f (x :: r)
    end.
  Proof. destruct x as [tk| |]; [destruct tk|..]; reflexivity. Qed.
  Lemma body_nil n : body_f n [] = [].
  Proof. destruct n; reflexivity. Qed.
  Lemma until_cons_ne p x l : snd (until p (x :: l)) = [] \/ size (snd (delimiter (snd (until p (x :: l))))) < size (x :: l).
  Proof. destruct (snd (until p (x :: l))) as [|y r] eqn:E; [left; reflexivity|]. right. rewrite <- E. assert (H : snd (until p (x :: l)) <> []) by congruence. pose proof (delimiter_size' _ H). pose proof (until_size p (x :: l)). lia. Qed.
  Lemma tl_size (l : list tree) : size (tl l) <= size l.
  Proof. destruct l; [simpl; lia|]. rewrite size_cons. simpl. lia. Qed.
  Lemma body_fuel n : forall m l, size l <= n -> size l <= m -> body_f n l = body_f m l.
  Proof.
    induction n as [|n IH]; intros m l Hn Hm.
    - assert (l = []) as -> by (destruct l as [|x l]; [reflexivity|]; rewrite size_cons in Hn; pose proof (tree_pos x); lia). rewrite !body_nil. reflexivity.
    - destruct m as [|m]; [assert (l = []) as -> by (destruct l as [|x l]; [reflexivity|]; rewrite size_cons in Hm; pose proof (tree_pos x); lia); apply body_nil|].
      destruct l as [|x l]; [reflexivity|]. rewrite !body_step. pose proof (tree_pos x) as Px. rewrite size_cons in Hn, Hm.
      assert (Q : qual n (x :: l) = qual m (x :: l)).
      { unfold qual. pose proof (until_cons_ne semi_or_curly x l) as L0. pose proof (until_size semi_or_curly (x :: l)) as L1. rewrite size_cons in L0, L1. destruct (until semi_or_curly (x :: l)) as [p r'].
        pose proof (delimiter_size r') as [L2 L3]. destruct (delimiter r') as [b r''] eqn:Ed. cbn [fst snd] in *. f_equal.
        - destruct b as [b|]; [|reflexivity]. specialize (L3 b eq_refl). destruct (selectors true (drop_spaces p)); [|reflexivity]. f_equal. apply IH; lia.
        - destruct L0 as [->|L0]; [cbn in Ed; injection Ed as _ <-; rewrite !body_nil; reflexivity|]. rewrite Ed in L0. cbn [snd] in L0. apply IH; lia. }
      assert (T : forall nm, at_body n nm l = at_body m nm l).
      { intros nm. unfold at_body. pose proof (until_size semi_or_curly l) as L1. destruct (until semi_or_curly l) as [p r']. pose proof (delimiter_size r') as [L2 L3]. destruct (delimiter r') as [b r'']. cbn [fst snd] in *. f_equal.
        - destruct b as [b|]; [|reflexivity]. specialize (L3 b eq_refl). destruct (body_prelude nm (strip p)) as [[ms|ly]|]; try reflexivity; f_equal; apply IH; lia.
        - apply IH; lia. }
      assert (Dc : forall nm, decl_body n nm (x :: l) l = decl_body m nm (x :: l) l).
      { intros nm. unfold decl_body. pose proof (until_size semi l) as L1. destruct (until semi l) as [v r']. cbn [snd] in L1. pose proof (tl_size r'). destruct (declaration declare nm (strip v)); [f_equal; apply IH; lia|f_equal; apply IH; lia|exact Q]. }
      destruct x as [tk| |]; [|exact Q|exact Q]. destruct tk; auto; apply IH; lia.
  Qed.
  Lemma body_split K : semi K = true -> forall n a b, size (a ++ K :: b) <= n -> body_f n (a ++ K :: b) = body_f n (a ++ [K]) ++ body_f n b.
  Proof.
    intros HK. assert (HK2 : semi_or_curly K = true) by (unfold semi_or_curly; rewrite HK; reflexivity).
    induction n as [|n IH]; intros a b Hn; [rewrite size_app, size_cons in Hn; pose proof (tree_pos K); lia|].
    rewrite size_app, size_cons in Hn. pose proof (tree_pos K) as PK.
    assert (Fb : forall k, size b <= k -> body_f k b = body_f (S n) b) by (intros k Hk; apply body_fuel; lia).
    assert (Rec : forall a', size a' < size a -> body_f n (a' ++ K :: b) = body_f n (a' ++ [K]) ++ body_f (S n) b).
    { intros a' L. rewrite IH by (rewrite size_app, size_cons; lia). rewrite (Fb n) by lia. reflexivity. }
    destruct a as [|x a].
    - cbn [app]. destruct K as [tk| |]; try discriminate HK. destruct tk; try discriminate HK. rewrite !body_step, body_nil. cbn [app]. apply Fb. lia.
    - cbn [app]. rewrite !body_step. rewrite size_cons in Hn. pose proof (tree_pos x) as Px.
      assert (St : forall P a1, P K = true -> exists pre o, (forall b, exists r', until P (a1 ++ K :: b) = (pre, r') /\ delimiter r' = (o, b)) \/
                (exists a', size a' < size a1 /\ forall b, exists r', until P (a1 ++ K :: b) = (pre, r') /\ delimiter r' = (o, a' ++ K :: b))).
      { intros P a1 HP. destruct (step_split K P a1 HP) as (pre & o & [H|(a' & L & H)]); exists pre, o; [left; exact H|right]. exists a'. split; [|exact H].
        destruct (H []) as (r' & E1 & E2). pose proof (until_size P (a1 ++ [K])) as L1. rewrite E1 in L1. cbn [snd] in L1. assert (Hne : r' <> []) by (intros ->; destruct a'; discriminate E2).
        pose proof (delimiter_size' r' Hne) as L2. rewrite E2 in L2. cbn [snd] in L2. rewrite !size_app in *. lia. }
      assert (Q : qual n ((x :: a) ++ K :: b) = qual n ((x :: a) ++ [K]) ++ body_f (S n) b).
      { unfold qual. destruct (St semi_or_curly (x :: a) HK2) as (pre & o & [H|(a' & L & H)]); destruct (H b) as (r1 & E1 & E2); destruct (H []) as (r2 & E3 & E4); rewrite E1, E2, E3, E4.
        - rewrite body_nil, (Fb n) by lia. reflexivity.
        - rewrite (Rec a') by exact L. reflexivity. }
      assert (T : forall nm, at_body n nm (a ++ K :: b) = at_body n nm (a ++ [K]) ++ body_f (S n) b).
      { intros nm. unfold at_body. destruct (St semi_or_curly a HK2) as (pre & o & [H|(a' & L & H)]); destruct (H b) as (r1 & E1 & E2); destruct (H []) as (r2 & E3 & E4); rewrite E1, E2, E3, E4.
        - rewrite body_nil, (Fb n) by lia. reflexivity.
        - rewrite (Rec a') by (rewrite size_cons; lia). reflexivity. }
      assert (Dc : forall nm, decl_body n nm ((x :: a) ++ K :: b) (a ++ K :: b) = decl_body n nm ((x :: a) ++ [K]) (a ++ [K]) ++ body_f (S n) b).
      { intros nm. unfold decl_body. destruct (until_split semi K HK a) as (pre & a' & L & H). rewrite (H b), (H []).
        assert (Ls : size a' <= size a) by (pose proof (until_size semi (a ++ [K])) as L1; rewrite (H []) in L1; cbn [snd] in L1; rewrite !size_app in L1; lia).
        assert (R : body_f n (tl (a' ++ K :: b)) = body_f n (tl (a' ++ [K])) ++ body_f (S n) b).
        { destruct a' as [|y a']; cbn [app tl]; [rewrite body_nil; apply Fb; lia|]. apply Rec. rewrite size_cons in *. pose proof (tree_pos y). lia. }
        destruct (declaration declare nm (strip pre)); [rewrite R; reflexivity|rewrite R; reflexivity|exact Q]. }
      destruct x as [tk| |]; [|exact Q|exact Q]. destruct tk; auto; apply Rec; rewrite size_cons; simpl; lia.
  Qed.
  Lemma body_of_split K a b : semi K = true -> body_of (a ++ K :: b) = body_of (a ++ [K]) ++ body_of b.
  Proof.
    intros HK. unfold SheetText.body_of. rewrite (body_split K HK _ a b (le_n _)). f_equal; apply body_fuel; rewrite ?size_app, ?size_cons, ?size_nil; lia.
  Qed.
End P.
