(** Proofs for C109, part 3: lists, attribute tests, the shape of what is read, namespaces. *)
From Coq Require Import Ascii String NArith ZArith Lia.
From Verif Require Import Base VarText SheetText Siblings Matching MatchingSpec SelText SelTextSpec SelTextProofs SelTextProofs2.
Open Scope string_scope.
Open Scope list_scope.
Open Scope nat_scope.

(** ** The lists of rules *)
Lemma reads_ok nested parents nth l ss : reads_front nth ->
  (exists ps, parse_comma_separated nested nth l = Some ps /\ map (resolve parents) ps = ss) <-> stands_for nested parents nth eval_str l ss.
Proof.
  intros Hn. unfold parse_comma_separated, stands_for.
  assert (N : nesting_ok nested (if nested then RNesting else RNo)) by (unfold nesting_ok; destruct nested; [reflexivity|discriminate]).
  assert (K : (if nested then Nested else Alone) = kind_of (if nested then RNesting else RNo)) by (destruct nested; reflexivity). rewrite K.
  destruct (list_ok nested parents nth Hn (S (depth l)) start false (if nested then RNesting else RNo) l ltac:(lia)) as [H _]. specialize (H N).
  split.
  - intros E. exists (S (depth l)). intros n Hl. apply (H n ltac:(lia) ss). exact E.
  - intros (n0 & E). apply (H (Nat.max n0 (S (depth l))) ltac:(lia) ss). apply E. lia.
Qed.
Lemma single_all parents nth l s : reads_front nth -> stands_for_one false parents nth eval_str l s ->
  exists ps r, parse_selector false nth (parse_list false nth (S (depth l))) start RNo l = Some (ps, r) /\ blank r = true /\ resolve parents ps = s.
Proof.
  intros Hn (n0 & E). specialize (E (Nat.max n0 (S (depth l))) ltac:(lia)). set (m := Nat.max n0 (S (depth l))) in E.
  destruct (selector_complete false parents nth Hn (depth l) (parse_list false nth (S (depth l))) (reads false parents nth eval_str m)) with (st := start) (rel := RNo) (l := l) (s := s) as (ps & r & H1 & H2 & H3).
  - intros st fg rel l' Hr Hl ss. destruct (list_ok false parents nth Hn (S (depth l)) st fg rel l' ltac:(lia)) as [H _]. apply H; [unfold nesting_ok; congruence|lia].
  - discriminate.
  - unfold nesting_ok. congruence.
  - lia.
  - exact E.
  - exists ps, r. auto.
Qed.
Lemma single_ok parents nth l s : reads_front nth -> stands_for_one false parents nth eval_str l s -> exists ps, parse_single nth l = Some ps /\ resolve parents ps = s.
Proof. intros Hn H. destruct (single_all parents nth l s Hn H) as (ps & r & E & _ & <-). unfold parse_single. rewrite E. exists ps. split; reflexivity. Qed.

(** ** Attribute tests *)
Lemma eq_case_iff ci a b : eq_case ci a b = true <-> same_text ci a b.
Proof. unfold eq_case, same_text. destruct ci; destruct (list_eq_dec _ _ _); split; congruence. Qed.
Lemma same_length ci a b : same_text ci a b -> List.length a = List.length b.
Proof. unfold same_text. destruct ci; [|congruence]. intros H. rewrite <- (map_length lower a), <- (map_length lower b), H. reflexivity. Qed.
Lemma non_empty_iff v : non_empty v = true <-> v <> []. Proof. destruct v; cbn; split; congruence. Qed.
Lemma front_iff ci v x : eq_case ci (firstn (List.length v) x) v = true <-> exists p b, x = p ++ b /\ same_text ci p v.
Proof.
  rewrite eq_case_iff. split.
  - intros H. exists (firstn (List.length v) x), (skipn (List.length v) x). split; [symmetry; apply firstn_skipn|exact H].
  - intros (p & b & -> & H). rewrite <- (same_length _ _ _ H). rewrite firstn_app, firstn_all, Nat.sub_diag, app_nil_r. exact H.
Qed.
Lemma back_iff ci v x : eq_case ci (skipn (List.length x - List.length v) x) v = true <-> exists a p, x = a ++ p /\ same_text ci p v.
Proof.
  rewrite eq_case_iff. split.
  - intros H. exists (firstn (List.length x - List.length v) x), (skipn (List.length x - List.length v) x). split; [symmetry; apply firstn_skipn|exact H].
  - intros (a & p & -> & H). rewrite <- (same_length _ _ _ H), app_length. replace (List.length a + List.length p - List.length p) with (List.length a) by lia. rewrite skipn_app, skipn_all, Nat.sub_diag. exact H.
Qed.
Lemma contains_iff ci v x : contains ci v x = true <-> exists a p b, x = a ++ p ++ b /\ same_text ci p v.
Proof.
  induction x as [|c x IH]; cbn [contains]; rewrite orb_true_iff, front_iff; split.
  - intros [(p & b & E & H)|H]; [|discriminate]. exists [], p, b. auto.
  - intros (a & p & b & E & H). left. destruct a; [|discriminate]. exists p, b. auto.
  - intros [(p & b & E & H)|H]; [exists [], p, b; auto|]. apply IH in H as (a & p & b & -> & H). exists (c :: a), p, b. auto.
  - intros (a & p & b & E & H). destruct a as [|d a]; [left; exists p, b; auto|]. right. apply IH. injection E as <- ->. exists a, p, b. auto.
Qed.
Definition no_white_text (v : text) : Prop := Forall (fun c => is_white c = false) v.
Lemma split_white_iff w : forall cur x, no_white_text cur ->
  (In w (split_white cur x) <-> no_white_text w /\
     ((exists b, cur ++ x = w ++ b /\ (b = [] \/ exists c b', b = c :: b' /\ is_white c = true) /\ List.length cur <= List.length w) \/
      (exists a c b, x = a ++ c :: w ++ b /\ is_white c = true /\ (b = [] \/ exists c b', b = c :: b' /\ is_white c = true)))).
Proof.
  intros cur x. revert cur. induction x as [|d x IH]; intros cur Hc; cbn [split_white].
  - split.
    + intros [<-|[]]. split; [exact Hc|]. left. exists []. rewrite app_nil_r. auto.
    + intros (Hw & [(b & E & Hb & Hl)|(a & c & b & E & _)]); [|destruct a; discriminate]. left. rewrite app_nil_r in E. subst cur. rewrite app_length in Hl. destruct b; [apply app_nil_r|cbn in Hl; lia].
  - destruct (is_white d) eqn:Ed.
    + cbn [In]. rewrite (IH [] (Forall_nil _)). split.
      * intros [<-|(Hw & H)].
        -- split; [exact Hc|]. left. exists (d :: x). split; [reflexivity|]. split; [right; exists d, x; auto|lia].
        -- split; [exact Hw|]. right. destruct H as [(b & E & Hb & _)|(a & c & b & -> & H)].
           ++ exists [], d, b. cbn in E. subst x. auto.
           ++ exists (d :: a), c, b. auto.
      * intros (Hw & [(b & E & Hb & Hl)|(a & c & b & E & Hcw & Hb)]).
        -- destruct (Nat.eq_dec (List.length cur) (List.length w)) as [El|El].
           ++ left. apply (f_equal (firstn (List.length cur))) in E. rewrite firstn_app, firstn_all, Nat.sub_diag, app_nil_r in E. rewrite El, firstn_app, firstn_all, Nat.sub_diag, app_nil_r in E. exact E.
           ++ exfalso. assert (X : nth_error (cur ++ d :: x) (List.length cur) = Some d) by (rewrite nth_error_app2, Nat.sub_diag by lia; reflexivity).
              rewrite E, nth_error_app1 in X by lia. apply nth_error_In in X. unfold no_white_text in Hw. rewrite Forall_forall in Hw. specialize (Hw d X). congruence.
        -- right. split; [exact Hw|]. destruct a as [|e a]; injection E as -> ->; [left; exists b; split; [reflexivity|split; [exact Hb|cbn; lia]]|right; exists a, c, b; auto].
    + rewrite IH by (apply Forall_app; split; [exact Hc|repeat constructor; exact Ed]). rewrite <- app_assoc. cbn [app]. split.
      * intros (Hw & [(b & E & Hb & Hl)|(a & c & b & -> & H)]); (split; [exact Hw|]).
        -- left. exists b. split; [exact E|]. split; [exact Hb|]. rewrite app_length in Hl. lia.
        -- right. exists (d :: a), c, b. auto.
      * intros (Hw & [(b & E & Hb & Hl)|(a & c & b & E & Hcw & Hb)]); (split; [exact Hw|]).
        -- left. exists b. split; [exact E|]. split; [exact Hb|]. rewrite app_length. cbn. destruct (Nat.eq_dec (List.length cur) (List.length w)) as [El|El]; [|lia]. exfalso.
           apply (f_equal (skipn (List.length cur))) in E. rewrite skipn_app, skipn_all, Nat.sub_diag in E. rewrite El, skipn_app, skipn_all, Nat.sub_diag in E. cbn in E. subst b.
           destruct Hb as [Hb|(c & b' & Hb & Hcw)]; [discriminate|]. injection Hb as -> ->. congruence.
        -- right. destruct a as [|e a]; injection E as -> ->; [congruence|]. exists a, c, b. auto.
Qed.
Lemma lower_white c : is_white (lower c) = is_white c.
Proof. destruct c as [[] [] [] [] [] [] [] []]; reflexivity. Qed.
Lemma same_white ci p v : same_text ci p v -> (no_white_text p <-> no_white_text v).
Proof.
  unfold same_text, no_white_text. destruct ci; [|intros ->; reflexivity]. intros H.
  assert (M : forall l, Forall (fun c => is_white c = false) l <-> Forall (fun c => is_white c = false) (map lower l)).
  { intros l. rewrite !Forall_forall. split.
    - intros G c Hc. apply in_map_iff in Hc as (d & <- & Hd). rewrite lower_white. apply G. exact Hd.
    - intros G c Hc. rewrite <- lower_white. apply G. apply in_map. exact Hc. }
  rewrite M, H, <- M. reflexivity.
Qed.
Lemma eqb_is op k : (k < 256)%N -> is k op = Ascii.eqb op (ascii_of_N k).
Proof.
  intros Hk. destruct (is k op) eqn:E.
  - apply is_char in E as [-> _]. symmetry. apply Ascii.eqb_refl.
  - symmetry. apply Ascii.eqb_neq. intros ->. assert (is k (ascii_of_N k) = true) by (apply is_char; auto). congruence.
Qed.
Lemma eval_text_ok op ci v x : eval_text op ci v x = true <-> attr_means op ci v x.
Proof.
  unfold eval_text, attr_means. rewrite (eqb_is op 126), (eqb_is op 124), (eqb_is op 94), (eqb_is op 36), (eqb_is op 42) by reflexivity.
  change (ascii_of_N 126) with "~"%char. change (ascii_of_N 124) with "|"%char. change (ascii_of_N 94) with "^"%char. change (ascii_of_N 36) with "$"%char. change (ascii_of_N 42) with "*"%char.
  destruct (Ascii.eqb op "~").
  { rewrite andb_true_iff, non_empty_iff, existsb_exists. split.
    - intros (Hv & p & Hp & E). apply eq_case_iff in E. apply split_white_iff in Hp as (Hw & Hp); [|constructor]. split; [exact Hv|]. split; [apply (same_white _ _ _ E); exact Hw|].
      destruct Hp as [(b & E0 & Hb & _)|(a & c & b & -> & Hc & Hb)].
      + cbn [app] in E0. subst x. exists [], p, b. auto.
      + exists (a ++ [c]), p, b. rewrite <- app_assoc. split; [reflexivity|]. split; [exact E|]. split; [|exact Hb]. right. exists a, c. auto.
    - intros (Hv & Hw & a & p & b & -> & E & Ha & Hb). split; [exact Hv|]. exists p. split; [|apply eq_case_iff; exact E]. apply split_white_iff; [constructor|]. split; [apply (same_white _ _ _ E); exact Hw|].
      destruct Ha as [-> |(a' & c & -> & Hc)].
      + left. exists b. split; [reflexivity|]. split; [exact Hb|cbn; lia].
      + right. exists a', c, b. rewrite <- app_assoc. auto. }
  destruct (Ascii.eqb op "|").
  { rewrite orb_true_iff, andb_true_iff, eq_case_iff. split.
    - intros [H|[H1 H2]]; [left; exact H|]. right. apply eq_case_iff in H1. destruct (skipn (List.length v) x) as [|c r] eqn:E; [discriminate|]. apply is_char in H2 as [-> _].
      exists (firstn (List.length v) x), r. split; [|exact H1]. rewrite <- (firstn_skipn (List.length v) x) at 1. rewrite E. reflexivity.
    - intros [H|(p & b & -> & H)]; [left; exact H|]. right. rewrite <- (same_length _ _ _ H). rewrite firstn_app, firstn_all, skipn_app, skipn_all, Nat.sub_diag, app_nil_r. split; [apply eq_case_iff; exact H|reflexivity]. }
  destruct (Ascii.eqb op "^"); [rewrite andb_true_iff, non_empty_iff, front_iff; reflexivity|].
  destruct (Ascii.eqb op "$"); [rewrite andb_true_iff, non_empty_iff, back_iff; reflexivity|].
  destruct (Ascii.eqb op "*"); [rewrite andb_true_iff, non_empty_iff, contains_iff; reflexivity|]. apply eq_case_iff.
Qed.

(** ** The shape of what is read: MatchingSpec.parsed *)
Definition left_ok (k : kind) (left : option (combinator * complex)) : Prop :=
  match left with None => k <> Relative | Some (c, r) => parsed r /\ c <> PseudoOf /\ (k = Relative -> r = One [Anchor] \/ starts_relative r) end.
Lemma joined_relative left xs : left_ok Relative left -> starts_relative (joined left xs).
Proof.
  destruct left as [[c r]|]; cbn; [|congruence]. intros (_ & Hc & H). destruct (H eq_refl) as [-> |Hr]; [auto|]. destruct r as [c1|c1 k1 r1]; [destruct Hr|exact Hr].
Qed.
Lemma joined_parsed k left xs : left_ok k left -> all_of parsed_simple xs -> parsed (joined left xs).
Proof. destruct left as [[c r]|]; cbn; intros H Hx; [split; [exact Hx|apply H]|exact Hx]. Qed.
Lemma all_of_app {A} (P : A -> Prop) l m : all_of P l -> all_of P m -> all_of P (l ++ m).
Proof. induction l as [|x l IH]; [intros _ H; exact H|]. intros [H1 H2] Hm. split; [exact H1|]. apply IH; assumption. Qed.
Section S.
  Variables (nested : bool) (parents : list complex) (nth : list tree -> option (Z * Z * list tree)) (test : ascii -> bool -> string -> string -> bool).
  Hypothesis Hp : all_of parsed parents.
  Definition shape (k : kind) (s : complex) : Prop := parsed s /\ (k = Relative -> starts_relative s).
  Section Inner.
    Variable inner : place -> bool -> kind -> list tree -> list complex -> Prop.
    Hypothesis Hin : forall p fg k l ss, inner p fg k l ss -> (fg = true -> k <> Relative) -> all_of (fun s => parsed s /\ (k = Relative -> starts_relative s)) ss.
    Lemma alone_parsed ss : all_of (fun s => parsed s /\ (Alone = Relative -> starts_relative s)) ss -> all_of parsed ss.
    Proof. induction ss as [|s ss IH]; [trivial|]. intros [[H _] H2]. split; [exact H|apply IH; exact H2]. Qed.
    Lemma has_parsed ss : all_of (fun s => parsed s /\ (Relative = Relative -> starts_relative s)) ss -> all_of (fun s => starts_relative s /\ parsed s) ss.
    Proof. induction ss as [|s ss IH]; [trivial|]. intros [[H H1] H2]. split; [auto|apply IH; exact H2]. Qed.
    Lemma simple_parsed p l x : reads_simple nested parents nth test inner p l x -> parsed_simple x.
    Proof.
      intros H. destruct H as [s A|s A|A N|l x A Ha|s w x A Hpl Hw|s w e o l a b r0 A Hc Hw En Hb|s w e l a b b' z r0 ss A Hc Hw En Hb Hz Hi|s l ss Hw Hi|s l ss Hw Hi|s l ss Hw Hi|s l ss Hh Hw Hi]; try exact I.
      - exact Hp.
      - destruct Ha; exact I.
      - destruct Hpl; try exact I; cbn; auto 12.
      - apply alone_parsed. exact (Hin _ _ _ _ _ Hi ltac:(discriminate)).
      - apply alone_parsed. exact (Hin _ _ _ _ _ Hi ltac:(discriminate)).
      - apply alone_parsed. exact (Hin _ _ _ _ _ Hi ltac:(discriminate)).
      - apply alone_parsed. exact (Hin _ _ _ _ _ Hi ltac:(discriminate)).
      - apply has_parsed. exact (Hin _ _ _ _ _ Hi ltac:(discriminate)).
    Qed.
    Lemma simples_parsed p l xs : reads_simples nested parents nth test inner p l xs -> all_of parsed_simple xs.
    Proof. induction 1 as [|l x m xs Hx Hs IH]; [exact I|]. split; [eapply simple_parsed; exact Hx|exact IH]. Qed.
    Lemma compound_parsed p l xs : reads_compound nested parents nth test inner p l xs -> all_of parsed_simple xs.
    Proof. intros [l' ys m zs Ht _ Hs]. apply all_of_app; [|eapply simples_parsed; exact Hs]. destruct Ht; cbn; auto. Qed.
    Lemma comb_real c k : reads_combinator c k -> k <> PseudoOf.
    Proof. intros [b Hb Hn|b x k' b' Hb Hs Hb']; [discriminate|]. destruct Hs; discriminate. Qed.
    Lemma rest_shape kd p left l s : reads_rest nested parents nth test inner p left l s -> left_ok kd left -> shape kd s.
    Proof.
      induction 1 as [left l xs Hc Hl|left l xs c k m s Hc Hl A Hk Hr IH|left l xs q k m ys Hc A I Hq Hs]; intros Hleft; pose proof (compound_parsed _ _ _ Hc) as Px.
      - split; [eapply joined_parsed; eauto|]. intros ->. apply joined_relative. exact Hleft.
      - apply IH. split; [eapply joined_parsed; eauto|]. split; [apply (comb_real _ _ Hk)|]. intros ->. right. apply joined_relative. exact Hleft.
      - split.
        + split; [split; [exact Logic.I|eapply simples_parsed; exact Hs]|eapply joined_parsed; eauto].
        + intros ->. pose proof (joined_relative left xs Hleft) as Hj. destruct (joined left xs) as [c1|c1 k1 r1] eqn:E; [destruct Hj|]. exact Hj.
    Qed.
    Lemma begins_ok l k c left : begins parents l k c left -> left_ok k left.
    Proof.
      intros H. assert (P : parsed (One [Is false parents])) by (split; [exact Hp|exact I]). assert (A : parsed (One [Anchor])) by (split; exact I).
      destruct H as [| |x kk b Hs Hb|x kk b Hs Hb|H|H]; cbn [left_ok]; try discriminate; try (split; [assumption|split; [try discriminate|auto; try discriminate]]); destruct Hs; discriminate.
    Qed.
    Lemma selector_shape p k l s : reads_selector nested parents nth test inner p k l s -> shape k s.
    Proof. intros [b c left m b' s' Hb Hb' Hbeg Hr]. eapply rest_shape; [exact Hr|]. eapply begins_ok. exact Hbeg. Qed.
  End Inner.
  Lemma reads_shape n : forall p fg k l ss, reads nested parents nth test n p fg k l ss -> (fg = true -> k <> Relative) -> all_of (shape k) ss.
  Proof.
    induction n as [|n IH]; [intros ? ? ? ? ? []|]. cbn [reads]. intros p fg k l ss H Hk.
    assert (IH' : forall p fg k l ss, reads nested parents nth test n p fg k l ss -> (fg = true -> k <> Relative) -> all_of (fun s => parsed s /\ (k = Relative -> starts_relative s)) ss) by exact IH.
    assert (One' : forall l s, (reads_selector nested parents nth test (reads nested parents nth test n) p k l s \/
               fg = true /\ (forall s', ~ reads_selector nested parents nth test (reads nested parents nth test n) p k l s') /\ s = One [Is true []]) -> shape k s).
    { intros l0 s [Hs|(Hf & _ & ->)]; [eapply selector_shape; [exact IH'|exact Hs]|]. split; [cbn; auto|]. intros E. exfalso. exact (Hk Hf E). }
    induction H as [l s Hc Hs|l s m ss Hc Hs Hm IHm]; [split; [eapply One'; exact Hs|exact I]|split; [eapply One'; exact Hs|exact IHm]].
  Qed.
End S.

(** ** Without a bar nothing is without a namespace *)
Lemma bar_later' x l : ~ has_bar (x :: l) -> ~ has_bar l. Proof. intros H G. apply H. apply bar_later. exact G. Qed.
Lemma bar_suffix u r : ~ has_bar (u ++ r) -> ~ has_bar r. Proof. induction u as [|x u IH]; [trivial|]. intros H. apply IH. exact (bar_later' _ _ H). Qed.
Lemma bar_spaces l : ~ has_bar l -> ~ has_bar (drop_spaces l).
Proof. induction l as [|x l IH]; [trivial|]. intros H. cbn. destruct x as [[]| |]; try exact H. apply IH. exact (bar_later' _ _ H). Qed.
Lemma bar_char c l : ~ has_bar (Leaf (TDelim c) :: l) -> is 124 c = false.
Proof. intros H. destruct (is 124 c) eqn:E; [|reflexivity]. exfalso. apply is_char in E as [-> _]. apply H. apply bar_here. Qed.
Lemma bar_combinator w l k r : ~ has_bar l -> combinator_at w l = Some (k, r) -> ~ has_bar r.
Proof.
  revert w. induction l as [|x l IH]; [discriminate|]. intros w H. cbn.
  destruct x as [[]| |]; try (destruct w; [intros E; injection E as <- <-; exact H|discriminate]).
  - destruct (sign c); [intros E; injection E as <- <-; exact (bar_later' _ _ H)|]. destruct w; [intros E; injection E as <- <-; exact H|discriminate].
  - intros E. eapply IH; [exact (bar_later' _ _ H)|exact E].
Qed.
Lemma lookup_in {X} s (l : list (string * X)) x : lookup s l = Some x -> In x (map snd l).
Proof. induction l as [|[w y] l IH]; [discriminate|]. cbn. destruct (says s w); [intros E; injection E as <-; auto|auto]. Qed.
Section N.
  Variables (nested : bool) (nth : list tree -> option (Z * Z * list tree)).
  Hypothesis Hn : reads_front nth.
  Lemma bar_type st l xs r : ~ has_bar l -> parse_type st l = Some (xs, r) -> forallb no_bar_simple xs = true /\ ~ has_bar r.
  Proof.
    intros H. unfold parse_type. destruct l as [|[[]| |] l]; try (intros E; injection E as <- <-; auto).
    - destruct (after st); [discriminate|]. destruct (bar l); [discriminate|]. intros E. injection E as <- <-. split; [reflexivity|exact (bar_later' _ _ H)].
    - pose proof (bar_later' _ _ H) as H'. rewrite (bar_char _ _ H). destruct (is 42 c); [|intros E; injection E as <- <-; auto].
      destruct (after st); [discriminate|]. unfold bar. destruct l as [|[[]| |] l]; try (intros E; injection E as <- <-; auto).
      rewrite (bar_char _ _ H'). intros E. injection E as <- <-. auto.
  Qed.
  Section Inner.
    Variable inner : state -> bool -> relative -> list tree -> option (list pcomplex).
    Hypothesis Hin : forall st fg rel l ss, ~ has_bar l -> inner st fg rel l = Some ss -> forallb no_bar ss = true.
    Lemma bar_attribute l x : parse_attribute l = Some x -> no_bar_simple x = true.
    Proof.
      unfold parse_attribute. destruct (attr_name _) as [[k r]|]; [|discriminate]. destruct (drop_spaces r) as [|y r']; [intros E; injection E as <-; reflexivity|].
      destruct (op_of y); [|discriminate]. destruct (drop_spaces r') as [|z r'']; [discriminate|]. destruct (value_of z), (flag_of r''); try discriminate. intros E. injection E as <-. reflexivity.
    Qed.
    Lemma bar_inner st fg rel l (f : list pcomplex -> psimple) x : ~ has_bar l -> (forall ss, no_bar_simple (f ss) = forallb no_bar ss) ->
      option_map f (inner st fg rel l) = Some x -> no_bar_simple x = true.
    Proof. intros H Hf. destruct (inner st fg rel l) as [ss|] eqn:E; [|discriminate]. intros G. injection G as <-. rewrite Hf. exact (Hin _ _ _ _ _ H E). Qed.
    Lemma bar_nth st e o l x : ~ has_bar l -> parse_nth_pseudo nth inner st e o l = Some x -> no_bar_simple x = true.
    Proof.
      intros H. unfold parse_nth_pseudo. destruct (after st); [discriminate|]. destruct (nth l) as [[[a b] r]|] eqn:En; [|discriminate].
      destruct (Hn _ _ _ _ En) as (u & -> & _). apply bar_suffix in H. pose proof (bar_spaces _ H) as H'.
      destruct (drop_spaces r) as [|[[]| |] r']; try discriminate; [intros E; injection E as <-; reflexivity|].
      destruct (negb o && _)%bool; [|discriminate]. apply bar_inner; [exact (bar_later' _ _ H')|reflexivity].
    Qed.
    Lemma bar_functional st s l x : ~ has_bar l -> parse_functional nth inner st s l = Some x -> no_bar_simple x = true.
    Proof.
      intros H. unfold parse_functional. repeat (destruct (says _ _); [try apply (bar_nth _ _ _ _ _ H); try (apply bar_inner; [exact H|reflexivity])|]); try discriminate.
      destruct (in_has st); [discriminate|]. apply bar_inner; [exact H|reflexivity].
    Qed.
    Definition step_ok (s : step) : Prop := match s with Simple x r => no_bar_simple x = true /\ ~ has_bar r | Pseudo _ r => ~ has_bar r | _ => True end.
    Lemma step_simple o r : (forall x, o = Some x -> no_bar_simple x = true) -> ~ has_bar r -> step_ok (simple_step o r).
    Proof. intros H Hr. destruct o as [x|]; [split; [apply H; reflexivity|exact Hr]|exact I]. Qed.
    Lemma step_pseudo st s r : ~ has_bar r -> step_ok (pseudo_step st s r).
    Proof. intros Hr. unfold pseudo_step. destruct (_ || _)%bool; [exact I|]. destruct (lookup s pseudo_elements); [exact Hr|exact I]. Qed.
    Lemma bar_plain st s x : parse_simple_pseudo st s = Some x -> no_bar_simple x = true.
    Proof.
      unfold parse_simple_pseudo. destruct (after st); [discriminate|]. intros E. apply lookup_in in E. cbn [map snd simple_pseudos In] in E.
      repeat destruct E as [<- |E]; try reflexivity. destruct E.
    Qed.
    Lemma bar_one st l : ~ has_bar l -> step_ok (parse_one nested nth inner st l).
    Proof.
      intros H. unfold parse_one. destruct l as [|x l]; [exact I|]. pose proof (bar_later' _ _ H) as H1.
      destruct x as [x|s b|[] b]; [destruct x| | | |]; try exact I.
      all: try solve [destruct (after st); [exact I|]; split; [reflexivity|exact H1]].
      all: try solve [destruct (after st); [exact I|]; apply step_simple; [apply bar_attribute|exact H1]].
      all: try solve [destruct (is 46 c); [destruct (after st); [exact I|]; destruct l as [|[[]| |] l]; try exact I; split; [reflexivity|exact (bar_later' _ _ H1)]|];
        destruct (_ && _)%bool; [|exact I]; destruct (after st); [exact I|]; split; [reflexivity|exact H1]].
      destruct l as [|x l]; [exact I|]. pose proof (bar_later' _ _ H1) as H2. destruct x as [x|s b|k b]; [destruct x| |]; try exact I.
      all: try solve [destruct (css2 s); [apply step_pseudo; exact H2|]; apply step_simple; [apply bar_plain|exact H2]].
      all: try solve [destruct (css2 s); [exact I|]; apply step_simple; [|exact H2]; intros x; apply bar_functional; intros G; apply H1; apply bar_fun; exact G].
      destruct l as [|x l]; [exact I|]. pose proof (bar_later' _ _ H2) as H3. destruct x as [[]|s b|k b]; try exact I. apply step_pseudo; exact H3.
    Qed.
    Definition head_ok (h : head) : Prop := match h with None => True | Some (_, r) => no_bar r = true end.
    Lemma attach_ok h c : head_ok h -> forallb no_bar_simple c = true -> no_bar (attach h c) = true.
    Proof. destruct h as [[k r]|]; cbn; [|auto]. intros Hr Hc. rewrite Hr. change (forallb no_bar_simple c && true = true)%bool. rewrite Hc. reflexivity. Qed.
    Lemma bar_simples fuel : forall st h cur l st' h' cur' r, head_ok h -> forallb no_bar_simple cur = true -> ~ has_bar l ->
      parse_simples nested nth inner fuel st h cur l = Some (st', h', cur', r) -> head_ok h' /\ forallb no_bar_simple cur' = true /\ ~ has_bar r.
    Proof.
      induction fuel as [|f IH]; [discriminate|]. intros st h cur l st' h' cur' r Hh Hc Hl. cbn [parse_simples]. pose proof (bar_one st l Hl) as Ho.
      destruct (parse_one _ _ _ st l) as [| |x l1|k l1]; [intros E; injection E as <- <- <- <-; auto|discriminate| |]; cbn [step_ok] in Ho.
      - destruct Ho as [Hx Hr]. apply IH; auto. rewrite forallb_app, Hc. cbn. rewrite Hx. reflexivity.
      - apply IH; auto. cbn [head_ok]. apply attach_ok; assumption.
    Qed.
    Lemma bar_compound st h l st' h' cur r : head_ok h -> ~ has_bar l -> parse_compound nested nth inner st h l = Some (st', h', cur, r) ->
      head_ok h' /\ forallb no_bar_simple cur = true /\ ~ has_bar r.
    Proof.
      intros Hh Hl. unfold parse_compound. apply bar_spaces in Hl. destruct (parse_type st _) as [[xs r0]|] eqn:Et; [|discriminate].
      destruct (bar_type _ _ _ _ Hl Et) as [Hx Hr]. destruct (parse_simples _ _ _ _ _ _ _ _) as [[[[a b] c] d]|] eqn:E; [|discriminate].
      destruct (bar_simples _ _ _ _ _ _ _ _ _ Hh Hx Hr E) as (H1 & H2 & H3). destruct c; [discriminate|]. intros G. injection G as <- <- <- <-. auto.
    Qed.
    Lemma bar_rest fuel : forall st h l s r, head_ok h -> ~ has_bar l -> parse_rest nested nth inner fuel st h l = Some (s, r) -> no_bar s = true.
    Proof.
      induction fuel as [|f IH]; [discriminate|]. intros st h l s r Hh Hl. cbn [parse_rest]. destruct (parse_compound _ _ _ st h l) as [[[[st' h'] cur] r0]|] eqn:E; [|discriminate].
      destruct (bar_compound _ _ _ _ _ _ _ Hh Hl E) as (H1 & H2 & H3). pose proof (attach_ok _ _ H1 H2) as Ha.
      destruct (after st'); [intros G; injection G as <- <-; exact Ha|]. destruct (combinator_at false r0) as [[k r1]|] eqn:Ec; [|intros G; injection G as <- <-; exact Ha].
      apply IH; [exact Ha|]. exact (bar_combinator _ _ _ _ H3 Ec).
    Qed.
    Lemma bar_below s : no_bar s = true -> no_bar (below_parent s) = true.
    Proof. induction s as [c|c k r IH]; cbn [no_bar below_parent]; rewrite ?andb_true_iff; [intros H; split; [exact H|reflexivity]|]. intros [H1 H2]. auto. Qed.
    Lemma bar_selector st rel l s r : ~ has_bar l -> parse_selector nested nth inner st rel l = Some (s, r) -> no_bar s = true.
    Proof.
      intros Hl. apply bar_spaces in Hl. unfold parse_selector. destruct (parse_head rel (drop_spaces l)) as [h r0] eqn:Eh.
      assert (H : head_ok h /\ ~ has_bar r0).
      { unfold parse_head in Eh. destruct rel; [|destruct (combinator_at _ _) as [[k m]|] eqn:Ec|destruct (combinator_at _ _) as [[k m]|] eqn:Ec]; injection Eh as <- <-; split; try exact I; try reflexivity; try exact Hl; eapply bar_combinator; eauto. }
      destruct H as [Hh Hr]. destruct (parse_rest _ _ _ _ st h r0) as [[s0 r1]|] eqn:E; [|discriminate]. intros G. injection G as <- <-. cbn [fst]. pose proof (bar_rest _ _ _ _ _ _ Hh Hr E) as Hs.
      destruct rel; cbn [finish]; try exact Hs. destruct (has_parent s0); [exact Hs|apply bar_below; exact Hs].
    Qed.
    Lemma bar_member st fg rel l s : ~ has_bar l -> parse_member nested nth inner st fg rel l = Some s -> no_bar s = true.
    Proof.
      intros Hl. unfold parse_member. destruct (parse_selector _ _ _ st rel l) as [[s0 r]|] eqn:E.
      - destruct (blank r); [intros G; injection G as <-; exact (bar_selector _ _ _ _ _ Hl E)|]. destruct fg; [|discriminate]. intros G. injection G as <-. reflexivity.
      - destruct fg; [|discriminate]. intros G. injection G as <-. reflexivity.
    Qed.
    Lemma bar_split l : ~ has_bar l -> ~ has_bar (fst (split_commas l)) /\ Forall (fun m => ~ has_bar m) (snd (split_commas l)).
    Proof.
      induction l as [|x l IH]; [cbn; auto|]. intros H. specialize (IH (bar_later' _ _ H)). cbn [split_commas]. destruct (split_commas l) as [a b]. cbn [fst snd] in IH. destruct IH as [Ha Hb].
      assert (G : ~ has_bar (x :: a)).
      { intros G. inversion G as [l0 E|s b0 l0 G0|k b0 l0 G0|y l0 G0]; subst; [apply H, bar_here|apply H, bar_fun; exact G0|apply H, bar_blk; exact G0|auto]. }
      destruct x as [[]| |]; cbn [fst snd]; try (split; [exact G|exact Hb]). split; [intros G'; inversion G'|constructor; assumption].
    Qed.
    Lemma bar_members st fg rel l ss : ~ has_bar l -> parse_members nested nth inner st fg rel l = Some ss -> forallb no_bar ss = true.
    Proof.
      intros Hl. unfold parse_members. apply bar_split in Hl. destruct (split_commas l) as [a b]. cbn [fst snd] in Hl. destruct Hl as [Ha Hb]. assert (F : Forall (fun m => ~ has_bar m) (a :: b)) by (constructor; assumption).
      clear Ha Hb. revert ss. induction F as [|m ms Hm F IH]; cbn [map all_some]; intros ss; [intros E; injection E as <-; reflexivity|].
      destruct (parse_member _ _ _ _ _ _ m) as [s|] eqn:Es; [|discriminate]. destruct (all_some _) as [ss'|] eqn:E; [|discriminate]. intros G. injection G as <-. cbn.
      rewrite (bar_member _ _ _ _ _ Hm Es). apply IH. reflexivity.
    Qed.
  End Inner.
  Lemma bar_list d : forall st fg rel l ss, ~ has_bar l -> parse_list nested nth d st fg rel l = Some ss -> forallb no_bar ss = true.
  Proof. induction d as [|d IH]; [discriminate|]. intros st fg rel l ss. apply bar_members. exact IH. Qed.
End N.
