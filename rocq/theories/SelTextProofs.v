(** Proofs for C109, part 1: words, attributes, types, combinators. *)
From Coq Require Import Ascii String NArith ZArith Lia.
From Verif Require Import Base VarText SheetText Siblings Matching SelText SelTextSpec.
Open Scope string_scope.
Open Scope list_scope.
Open Scope nat_scope.

Lemma str_is s : str s = string_of s. Proof. reflexivity. Qed.
Lemma says_of s w w' : word s w -> says s w' = if list_eq_dec ascii_dec (list_ascii_of_string w) (map lower (list_ascii_of_string w')) then true else false.
Proof. unfold word, says, same_name. intros ->. reflexivity. Qed.
Lemma says_word s w : map lower (list_ascii_of_string w) = list_ascii_of_string w -> (says s w = true <-> word s w).
Proof. unfold word, says, same_name, tx. intros ->. destruct (list_eq_dec _ _ _); split; congruence. Qed.
Lemma says_is s w : says s w = true -> map lower (list_ascii_of_string w) = list_ascii_of_string w -> word s w.
Proof. intros H E. apply says_word; assumption. Qed.

Lemma is_char k c : is k c = true <-> c = ascii_of_N k /\ (k < 256)%N.
Proof.
  unfold is, code. split.
  - intros H. apply N.eqb_eq in H. subst. rewrite ascii_N_embedding. split; [reflexivity|]. apply N_ascii_bounded.
  - intros [-> H]. rewrite N_ascii_embedding by exact H. apply N.eqb_refl.
Qed.
Lemma is_delim k c : is k c = true -> Leaf (TDelim c) = delim (ascii_of_N k).
Proof. intros H. apply is_char in H as [-> _]. reflexivity. Qed.

(** white space *)
Lemma drop_blanks b l : blanks b -> drop_spaces (b ++ l) = drop_spaces l.
Proof. induction 1 as [|x b <- _ IH]; [reflexivity|exact IH]. Qed.
Lemma drop_split l : exists b, blanks b /\ l = b ++ drop_spaces l.
Proof.
  induction l as [|x l (b & Hb & IH)]; [exists []; split; [constructor|reflexivity]|].
  destruct x as [tk| |]; [destruct tk|..]; try (exists []; split; [constructor|reflexivity]).
  exists (Leaf TWhite :: b). split; [constructor; auto|]. cbn [drop_spaces app]. congruence.
Qed.
Definition no_white (l : list tree) : Prop := match l with Leaf TWhite :: _ => False | _ => True end.
Lemma drop_none l : no_white l -> drop_spaces l = l.
Proof. destruct l as [|[tk| |] l]; try reflexivity. destruct tk; try reflexivity. intros []. Qed.
Lemma drop_no_white l : no_white (drop_spaces l).
Proof. induction l as [|x l IH]; [exact I|]. destruct x as [tk| |]; [destruct tk|..]; try exact I. exact IH. Qed.
Lemma drop_all b : blanks b -> drop_spaces b = [].
Proof. intros H. rewrite <- (app_nil_r b). rewrite drop_blanks by exact H. reflexivity. Qed.
Lemma blank_iff l : blank l = true <-> blanks l.
Proof.
  unfold blank. split.
  - intros H. destruct (drop_split l) as (b & Hb & E). destruct (drop_spaces l); [|discriminate]. rewrite app_nil_r in E. subst. exact Hb.
  - intros H. rewrite drop_all by exact H. reflexivity.
Qed.
Lemma blanks_app a b : blanks a -> blanks b -> blanks (a ++ b).
Proof. intros Ha Hb. apply Forall_app. split; assumption. Qed.
Lemma blanks_app_inv a b : blanks (a ++ b) -> blanks a /\ blanks b.
Proof. intros H. apply Forall_app in H. exact H. Qed.
Lemma blanks_nil : blanks []. Proof. constructor. Qed.
#[export] Hint Resolve blanks_nil blanks_app : core.

(** ** Ampersands *)
Lemma mentions_app a b : mentions (a ++ b) = (mentions a || mentions b)%bool.
Proof. unfold mentions. apply existsb_app. Qed.
Lemma mentions_blanks b : blanks b -> mentions b = false.
Proof. induction 1 as [|x b <- _ IH]; [reflexivity|exact IH]. Qed.
Lemma has_amp_cons x l : has_amp (x :: l) <-> has_amp [x] \/ has_amp l.
Proof.
  split.
  - intros H. inversion H; subst; try (left; constructor; assumption). right. assumption.
  - intros [H|H]; [|apply amp_later; exact H]. inversion H; subst; try (constructor; assumption). match goal with H : has_amp [] |- _ => inversion H end.
Qed.
Fixpoint mentions_tree_iff (x : tree) : has_amp [x] <-> mentions_tree x = true.
Proof.
  assert (G : forall l, (has_amp l <-> existsb mentions_tree l = true) -> forall s, (has_amp [Fun s l] <-> existsb mentions_tree l = true)).
  { intros l H s. rewrite <- H. split; [|intros A; constructor; exact A]. intros A. inversion A; subst; [assumption|]. match goal with H : has_amp [] |- _ => inversion H end. }
  assert (G2 : forall l, (has_amp l <-> existsb mentions_tree l = true) -> forall s, (has_amp [Blk s l] <-> existsb mentions_tree l = true)).
  { intros l H s. rewrite <- H. split; [|intros A; constructor; exact A]. intros A. inversion A; subst; [assumption|]. match goal with H : has_amp [] |- _ => inversion H end. }
  destruct x as [tk|s l|k l].
  - split.
    + intros H. inversion H; subst; [reflexivity|]. match goal with H : has_amp [] |- _ => inversion H end.
    + destruct tk; try discriminate. cbn. intros H. change (has_amp [Leaf (TDelim c)]). rewrite (is_delim _ _ H). constructor.
  - apply G. induction l as [|y l IH]; [split; [intros H; inversion H|discriminate]|]. rewrite has_amp_cons. cbn [existsb]. rewrite (mentions_tree_iff y), IH, orb_true_iff. reflexivity.
  - apply G2. induction l as [|y l IH]; [split; [intros H; inversion H|discriminate]|]. rewrite has_amp_cons. cbn [existsb]. rewrite (mentions_tree_iff y), IH, orb_true_iff. reflexivity.
Qed.
Lemma mentions_iff l : has_amp l <-> mentions l = true.
Proof.
  induction l as [|y l IH]; [split; [intros H; inversion H|discriminate]|]. rewrite has_amp_cons. unfold mentions. cbn [existsb]. rewrite (mentions_tree_iff y), IH, orb_true_iff. reflexivity.
Qed.
Lemma mentions_false l : ~ has_amp l <-> mentions l = false.
Proof. rewrite mentions_iff. destruct (mentions l); split; congruence. Qed.

(** ** Depth *)
Lemma depth_app a b : depth (a ++ b) = Nat.max (depth a) (depth b).
Proof. unfold depth. induction a as [|x a IH]; [reflexivity|]. cbn. rewrite IH. lia. Qed.
Lemma depth_cons x l : depth (x :: l) = Nat.max (depth_tree x) (depth l). Proof. reflexivity. Qed.
Lemma depth_fun s l : depth_tree (Fun s l) = S (depth l). Proof. reflexivity. Qed.
Lemma depth_blk s l : depth_tree (Blk s l) = S (depth l). Proof. reflexivity. Qed.

(** ** Attributes *)
Lemma op_iff o op : op_of o = Some op <-> operator o op.
Proof.
  split.
  - destruct o as [tk| |]; try discriminate. destruct tk; try discriminate; cbn.
    + destruct (is 61 c) eqn:E; [|discriminate]. intros H. injection H as <-. apply is_char in E as [-> _]. constructor.
    + intros H. injection H as <-. constructor.
  - intros [|c]; reflexivity.
Qed.
Lemma value_iff y v : value_of y = Some v <-> attr_value y v.
Proof.
  split; [|intros []; reflexivity]. destruct y as [tk| |]; try discriminate. destruct tk; try discriminate; cbn; intros H; injection H as <-; constructor.
Qed.
Lemma flag_iff l ci : flag_of l = Some ci <-> attr_flag l ci.
Proof.
  unfold flag_of. split.
  - destruct (drop_split l) as (b & Hb & E). destruct (drop_spaces l) as [|x r]; [intros H; injection H as <-; rewrite app_nil_r in E; subst; constructor; exact Hb|].
    destruct x as [tk| |]; try discriminate. destruct tk; try discriminate. destruct (blank r) eqn:Er; [|discriminate]. apply blank_iff in Er.
    destruct (says s "i") eqn:Ei; [intros H; injection H as <-; subst; apply (flag_i b s r); auto; apply says_is; auto|].
    destruct (says s "s") eqn:Es; [intros H; injection H as <-; subst; apply (flag_s b s r); auto; apply says_is; auto|discriminate].
  - intros [b Hb|b s b' Hb Hb' Hw|b s b' Hb Hb' Hw].
    + rewrite drop_all by exact Hb. reflexivity.
    + rewrite drop_blanks by exact Hb. cbn [app ident drop_spaces]. apply blank_iff in Hb'. rewrite Hb', (says_of _ _ _ Hw). reflexivity.
    + rewrite drop_blanks by exact Hb. cbn [app ident drop_spaces]. apply blank_iff in Hb'. rewrite Hb', !(says_of _ _ _ Hw). reflexivity.
Qed.
Lemma name_sound l k r : attr_name l = Some (k, r) -> exists pre, attr_prefix pre /\ l = pre ++ ident k :: r.
Proof.
  unfold attr_name, attr_prefix. intros H. destruct l as [|[tk| |] l]; try discriminate. destruct tk; try discriminate.
  - exists []. split; [left; reflexivity|]. destruct l as [|[tk| |] l]; try (injection H as <- <-; reflexivity). destruct tk; try (injection H as <- <-; reflexivity).
    destruct (is 124 c); [discriminate|]. injection H as <- <-. reflexivity.
  - destruct l as [|[tk| |] l]; try discriminate. destruct tk; try discriminate.
    + destruct (is 124 c) eqn:E; [|discriminate]. injection H as <- <-. rewrite (is_delim _ _ E). exists [delim "|"]. split; [right; left; reflexivity|reflexivity].
    + destruct l as [|[tk| |] l]; try discriminate. destruct tk; try discriminate. destruct (is 42 c) eqn:E; [|discriminate]. destruct (is 124 c0) eqn:E0; [|discriminate]. cbn in H. injection H as <- <-.
      rewrite (is_delim _ _ E), (is_delim _ _ E0). exists [delim "*"; delim "|"]. split; [right; right; left; reflexivity|reflexivity].
Qed.
Definition no_bar_next (r : list tree) : Prop := bar r = None.
Lemma name_complete pre k r : attr_prefix pre -> no_bar_next r -> attr_name (pre ++ ident k :: r) = Some (k, r).
Proof.
  unfold attr_name, no_bar_next, bar. intros [<-|[<-|[<-|[]]]] Hr; [|reflexivity|reflexivity]. cbn [app ident]. destruct r as [|[tk| |] r]; try reflexivity. destruct tk; try reflexivity.
  destruct (is 124 c); [discriminate|reflexivity].
Qed.
Lemma prefix_no_white pre k r : attr_prefix pre -> no_white (pre ++ ident k :: r).
Proof. intros [<-|[<-|[<-|[]]]]; exact I. Qed.
Lemma op_no_bar o op r : operator o op -> no_bar_next (o :: r) /\ no_white (o :: r).
Proof. intros [|c]; split; try exact I; reflexivity. Qed.
Lemma blanks_no_bar b r : blanks b -> no_bar_next r -> no_bar_next (b ++ r).
Proof. intros Hb Hr. destruct Hb as [|x b <- Hb]; [exact Hr|reflexivity]. Qed.

Section A.
  Variable parents : list complex.
  Lemma attribute_sound l x : parse_attribute l = Some x -> reads_attr eval_str l (resolve_simple parents x) /\ has_parent_simple x = false /\ no_bar_simple x = true.
  Proof.
    unfold parse_attribute. intros H. destruct (drop_split l) as (b & Hb & El). destruct (attr_name (drop_spaces l)) as [[k r]|] eqn:En; [|discriminate]. apply name_sound in En as (pre & Hp & Ep).
    rewrite Ep in El. destruct (drop_split r) as (b1 & Hb1 & Er). destruct (drop_spaces r) as [|o r'].
    - injection H as <-. rewrite app_nil_r in Er. subst. split; [constructor; assumption|split; reflexivity].
    - destruct (op_of o) as [op|] eqn:Eo; [|discriminate]. apply op_iff in Eo. destruct (drop_split r') as (b2 & Hb2 & Er'). destruct (drop_spaces r') as [|y r'']; [discriminate|].
      destruct (value_of y) as [v|] eqn:Ey; [|discriminate]. destruct (flag_of r'') as [ci|] eqn:Ef; [|discriminate]. injection H as <-. apply value_iff in Ey. apply flag_iff in Ef. subst.
      split; [|split; reflexivity]. cbn [resolve_simple]. apply (attr_test _ b pre k b1 o op b2 y v r'' ci); assumption.
  Qed.
  Lemma attribute_complete l y : reads_attr eval_str l y -> exists x, parse_attribute l = Some x /\ resolve_simple parents x = y.
  Proof.
    unfold parse_attribute. intros [b pre k b' Hb Hp Hb'|b pre k b1 o op b2 y' v l' ci Hb Hp Hb1 Ho Hb2 Hv Hf].
    - rewrite drop_blanks by exact Hb. rewrite drop_none by (apply prefix_no_white; exact Hp). rewrite name_complete; [|exact Hp|rewrite <- (app_nil_r b'); apply blanks_no_bar; [exact Hb'|reflexivity]].
      rewrite drop_all by exact Hb'. eexists; split; reflexivity.
    - destruct (op_no_bar o op (b2 ++ y' :: l') Ho) as [N1 N2]. rewrite drop_blanks by exact Hb. rewrite drop_none by (apply prefix_no_white; exact Hp). rewrite name_complete; [|exact Hp|apply blanks_no_bar; assumption].
      rewrite drop_blanks by exact Hb1. rewrite drop_none by exact N2. apply op_iff in Ho. rewrite Ho. rewrite drop_blanks by exact Hb2. rewrite drop_none by (destruct Hv; exact I).
      apply value_iff in Hv. apply flag_iff in Hf. rewrite Hv, Hf. eexists; split; reflexivity.
  Qed.
End A.
Lemma attr_no_amp l x : reads_attr eval_str l x -> mentions l = false.
Proof.
  assert (P : forall pre, attr_prefix pre -> mentions pre = false) by (intros pre [<-|[<-|[<-|[]]]]; reflexivity).
  intros [b pre k b' Hb Hp Hb'|b pre k b1 o op b2 y' v l' ci Hb Hp Hb1 Ho Hb2 Hv Hf].
  - rewrite !mentions_app, (mentions_blanks _ Hb), (P _ Hp). cbn [mentions existsb ident mentions_tree orb]. apply mentions_blanks. exact Hb'.
  - rewrite !mentions_app, (mentions_blanks _ Hb), (P _ Hp). change (mentions (b1 ++ [o] ++ b2 ++ [y'] ++ l') = false). rewrite !mentions_app, (mentions_blanks _ Hb1), (mentions_blanks _ Hb2).
    assert (mentions [o] = false) as -> by (destruct Ho; reflexivity). assert (mentions [y'] = false) as -> by (destruct Hv; reflexivity). cbn.
    destruct Hf as [bb H|bb s bb' H H' _|bb s bb' H H' _]; [apply mentions_blanks; exact H| |]; rewrite !mentions_app, (mentions_blanks _ H), (mentions_blanks _ H'); reflexivity.
Qed.

(** ** Combinators *)
Lemma sign_iff c k : sign c = Some k <-> sign_of c k.
Proof.
  unfold sign. split.
  - destruct (is 62 c) eqn:E1; [intros H; injection H as <-; apply is_char in E1 as [-> _]; constructor|].
    destruct (is 43 c) eqn:E2; [intros H; injection H as <-; apply is_char in E2 as [-> _]; constructor|].
    destruct (is 126 c) eqn:E3; [intros H; injection H as <-; apply is_char in E3 as [-> _]; constructor|discriminate].
  - intros []; reflexivity.
Qed.
(** neither white space nor the sign of a combinator nor the end *)
Definition solid (l : list tree) : Prop := match l with [] => False | Leaf TWhite :: _ => False | Leaf (TDelim c) :: _ => sign c = None | _ => True end.
Lemma comb_at_sound w l k r : combinator_at w l = Some (k, r) -> exists b, blanks b /\
  ((k = Descendant /\ l = b ++ r /\ (w = true \/ b <> [])) \/ (exists c, sign_of c k /\ l = b ++ [delim c] ++ r)).
Proof.
  revert w. induction l as [|x l IH]; intros w H; [discriminate|].
  assert (D : forall (b : bool), (if b then Some (Descendant, x :: l) else None) = Some (k, r) -> b = true /\ k = Descendant /\ r = x :: l).
  { intros [] E; [injection E as <- <-; auto|discriminate]. }
  assert (D2 : (if w then Some (Descendant, x :: l) else None) = Some (k, r) -> exists b, blanks b /\ ((k = Descendant /\ x :: l = b ++ r /\ (w = true \/ b <> [])) \/ (exists c, sign_of c k /\ x :: l = b ++ [delim c] ++ r))).
  { intros E. apply D in E as (-> & -> & ->). exists []. split; [constructor|]. left. auto. }
  destruct x as [tk|s b|b0 b]; [|apply D2; exact H|apply D2; exact H]. destruct tk; try (apply D2; exact H).
  - cbn in H. destruct (sign c) as [k'|] eqn:Es; [|apply D2; exact H]. injection H as <- <-. apply sign_iff in Es. exists []. split; [constructor|]. right. exists c. split; [exact Es|reflexivity].
  - cbn in H. apply IH in H as (b & Hb & [(-> & -> & _)|(c & Hc & ->)]); exists (Leaf TWhite :: b); (split; [constructor; auto|]).
    + left. split; [reflexivity|]. split; [reflexivity|right; discriminate].
    + right. exists c. split; [exact Hc|reflexivity].
Qed.
Lemma comb_at_blanks w b : blanks b -> combinator_at w b = None.
Proof. intros H. revert w. induction H as [|x b <- _ IH]; intros w; [reflexivity|apply IH]. Qed.
Lemma comb_at_solid w l : solid l -> combinator_at w l = if w then Some (Descendant, l) else None.
Proof. destruct l as [|x l]; [intros []|]. destruct x as [tk| |]; try reflexivity. destruct tk; try reflexivity; cbn; [intros ->; reflexivity|intros []]. Qed.
Lemma comb_at_complete c k m : reads_combinator c k -> solid m -> exists b, blanks b /\ combinator_at false (c ++ m) = Some (k, b ++ m).
Proof.
  intros [b Hb Hn|b x k' b' Hb Hs Hb'] Hm.
  - exists []. split; [constructor|]. destruct Hb as [|x b <- Hb]; [congruence|]. clear Hn. cbn. induction Hb as [|x b <- Hb IH]; [apply comb_at_solid; exact Hm|exact IH].
  - exists b'. split; [exact Hb'|]. apply sign_iff in Hs. rewrite <- !app_assoc. generalize false. induction Hb as [|y b <- Hb IH]; intros w; [cbn; rewrite Hs; reflexivity|apply IH].
Qed.
Lemma sign_amp c k : sign_of c k -> mentions [delim c] = false.
Proof. intros []; reflexivity. Qed.

(** ** Types *)
Definition no_type (l : list tree) : Prop := match l with Leaf (TIdent _) :: _ => False | Leaf (TDelim c) :: _ => is 42 c = false /\ is 124 c = false | _ => True end.
Lemma no_type_bar r : no_type r -> bar r = None.
Proof. destruct r as [|[tk| |] r]; try reflexivity. destruct tk; try reflexivity. cbn. intros [_ ->]. reflexivity. Qed.
Lemma no_type_parse st r : no_type r -> parse_type st r = Some ([], r).
Proof. destruct r as [|[tk| |] r]; try reflexivity. destruct tk; try reflexivity; [intros []|]. cbn. intros [-> ->]. reflexivity. Qed.
Section T.
  Variable parents : list complex.
  Lemma qualified_sound pushed l xs r : qualified pushed l = Some (xs, r) -> exists s, (l = ident s :: r /\ xs = pushed ++ [PLocal (str s)]) \/ (l = delim "*" :: r /\ xs = pushed ++ [PUniversal]).
  Proof.
    unfold qualified. intros H. destruct l as [|[tk| |] l]; try discriminate. destruct tk; try discriminate.
    - injection H as <- <-. exists s. left. split; reflexivity.
    - destruct (is 42 c) eqn:E; [|discriminate]. injection H as <- <-. exists []. right. rewrite (is_delim _ _ E). split; reflexivity.
  Qed.
  Lemma bar_some l r : bar l = Some r -> l = delim "|" :: r.
  Proof. unfold bar. intros H. destruct l as [|[tk| |] l]; try discriminate. destruct tk; try discriminate. destruct (is 124 c) eqn:E; [|discriminate]. injection H as <-. rewrite (is_delim _ _ E). reflexivity. Qed.
  Lemma type_sound st l xs r : parse_type st l = Some (xs, r) -> exists u, l = u ++ r /\ reads_type u (map (resolve_simple parents) xs) /\ (after st = true -> u = []) /\
    existsb has_parent_simple xs = false /\ mentions u = false /\ (xs = [] -> u = []).
  Proof.
    intros H. assert (N : parse_type st l = Some ([], l) -> exists u, l = u ++ r /\ reads_type u (map (resolve_simple parents) xs) /\ (after st = true -> u = []) /\ existsb has_parent_simple xs = false /\ mentions u = false /\ (xs = [] -> u = [])).
    { intros E. rewrite E in H. injection H as <- <-. exists []. repeat split; auto; constructor. }
    unfold parse_type in H, N. destruct l as [|[tk| |] l]; try (apply N; reflexivity). destruct tk; try (apply N; reflexivity).
    - destruct (after st); [discriminate|]. destruct (bar l); [discriminate|]. injection H as <- <-. exists [ident s]. repeat split; try constructor; discriminate.
    - destruct (is 42 c) eqn:E.
      + destruct (after st); [discriminate|]. rewrite (is_delim _ _ E). destruct (bar l) as [r'|] eqn:Eb.
        * apply bar_some in Eb as ->. apply qualified_sound in H as (s & [(-> & ->)|(-> & ->)]).
          -- exists [delim "*"; delim "|"; ident s]. repeat split; try constructor; discriminate.
          -- exists [delim "*"; delim "|"; delim "*"]. repeat split; try constructor; discriminate.
        * injection H as <- <-. exists [delim "*"]. repeat split; try constructor; discriminate.
      + destruct (is 124 c) eqn:E2; [|apply N; reflexivity]. destruct (after st); [discriminate|]. rewrite (is_delim _ _ E2). apply qualified_sound in H as (s & [(-> & ->)|(-> & ->)]).
        * exists [delim "|"; ident s]. repeat split; try constructor; discriminate.
        * exists [delim "|"; delim "*"]. repeat split; try constructor; discriminate.
  Qed.
  Lemma type_complete st u ys r : reads_type u ys -> (after st = true -> u = []) -> no_type r -> exists xs, parse_type st (u ++ r) = Some (xs, r) /\ map (resolve_simple parents) xs = ys /\ (u <> [] -> xs <> []).
  Proof.
    intros H A N. pose proof (no_type_bar r N) as B.
    destruct H; try (destruct (after st) eqn:Ea; [specialize (A eq_refl); discriminate|]); cbn [app]; unfold parse_type, ident, delim; rewrite ?Ea; cbn [is]; cbn -[bar qualified no_type].
    - exists []. split; [apply (no_type_parse st r N)|split; [reflexivity|congruence]].
    - rewrite B. eexists; split; [reflexivity|]. split; [reflexivity|discriminate].
    - rewrite B. eexists; split; [reflexivity|]. split; [reflexivity|discriminate].
    - eexists; split; [reflexivity|]. split; [reflexivity|discriminate].
    - eexists; split; [reflexivity|]. split; [reflexivity|discriminate].
    - eexists; split; [reflexivity|]. split; [reflexivity|discriminate].
    - eexists; split; [reflexivity|]. split; [reflexivity|discriminate].
  Qed.
End T.
