(** Proofs for C89, C90. *)
From Coq Require Import Ascii String NArith ZArith QArith Lqa Qround.
From Verif Require Import Base Vars VarText SheetText ValueParse ValueParseSpec ValueParseProofs MoreValues MoreValuesSpec.
From Verif Require Calc.
Open Scope nat_scope.

(** ** Keywords *)
Lemma without_iff s n : hyphens_added n s /\ no_hyphen n <-> n = without_hyphens s.
Proof.
  revert n. unfold without_hyphens, no_hyphen, hyphen. induction s as [|c s IH]; intros n; cbn [filter].
  - split; [intros [H _]; inversion H; reflexivity|intros ->; split; [constructor|intros []]].
  - destruct (Ascii.eqb c "-"%char) eqn:E; cbn [negb].
    + apply Ascii.eqb_eq in E. subst c. rewrite <- IH. split.
      * intros [H Hn]. inversion H; subst; [exfalso; apply Hn; left; reflexivity|auto].
      * intros [H Hn]. split; [apply ha_add, H|exact Hn].
    + assert (Hc : c <> "-"%char) by (intros ->; rewrite Ascii.eqb_refl in E; discriminate). split.
      * intros [H Hn]. inversion H as [|c' n' s' H'|s' n' H']; subst; [|contradiction]. f_equal. apply IH. split; [exact H'|]. intros Hi. apply Hn. right. exact Hi.
      * intros ->. destruct (proj2 (IH _) eq_refl) as [H Hn]. split; [apply ha_keep, H|]. intros [Hi|Hi]; [contradiction|]. apply Hn, Hi.
Qed.
Lemma added_without n s : hyphens_added n s -> without_hyphens n = without_hyphens s.
Proof. induction 1 as [|c s r H IH|s r H IH]; [reflexivity|..]; unfold without_hyphens in *; cbn [filter]; [|exact IH]. rewrite IH. reflexivity. Qed.
Lemma no_hyphen_without s : no_hyphen s -> without_hyphens s = s.
Proof.
  unfold no_hyphen, hyphen. induction s as [|c s IH]; intros H; [reflexivity|]. unfold without_hyphens in *. cbn [filter]. destruct (Ascii.eqb c "-"%char) eqn:E.
  - apply Ascii.eqb_eq in E. exfalso. apply H. left. exact E.
  - cbn [negb]. rewrite IH; [reflexivity|]. intros Hi. apply H. right. exact Hi.
Qed.
Lemma lower_hyphen c : lower c = hyphen <-> c = hyphen.
Proof. destruct c as [[] [] [] [] [] [] [] []]; vm_compute; split; intros H; first [reflexivity|discriminate H]. Qed.
Lemma same_no_hyphen a b : same_letters a b -> no_hyphen b -> no_hyphen a.
Proof.
  unfold same_letters, no_hyphen. intros E Hb Ha. apply Hb. assert (Hi : In hyphen (map lower a)) by (apply in_map_iff; exists hyphen; split; [reflexivity|exact Ha]).
  rewrite E in Hi. apply in_map_iff in Hi as (c & Hc & Hi). apply (proj1 (lower_hyphen c)) in Hc. subst c. exact Hi.
Qed.
Lemma same_name_iff a b : same_name a b = true <-> same_letters a b.
Proof. unfold same_name, same_letters. destruct (list_eq_dec _ _ _); split; congruence. Qed.
Lemma find_iff s vs v : NoDup (map (fun v => map lower (v_name v)) vs) -> find_variant s vs = Some v <-> In v vs /\ v_unit v = true /\ same_letters s (v_name v).
Proof.
  induction vs as [|w vs IH]; cbn [find_variant map]; intros Hd; [split; [discriminate|intros ([] & _)]|]. inversion Hd as [|? ? Hn Hd']; subst. destruct (same_name (v_name w) s) eqn:E.
  - apply same_name_iff in E. destruct (v_unit w) eqn:Eu; split.
    + intros H; injection H as <-. split; [left; reflexivity|split; [exact Eu|symmetry; exact E]].
    + intros ([->|Hi] & Hu & Hs); [reflexivity|]. exfalso. apply Hn. unfold same_letters in *. rewrite E, Hs. apply in_map_iff. exists v. auto.
    + discriminate.
    + intros ([->|Hi] & Hu & Hs); [congruence|]. exfalso. apply Hn. unfold same_letters in *. rewrite E, Hs. apply in_map_iff. exists v. auto.
  - rewrite IH by exact Hd'. split; [intros (Hi & Hu & Hs); split; [right; exact Hi|auto]|]. intros ([->|Hi] & Hu & Hs); [|auto]. assert (E' : same_name (v_name v) s = true) by (apply same_name_iff; symmetry; exact Hs). congruence.
Qed.
Lemma enum_iff vs x v : good_enum vs -> parse_enum vs x = Some v <-> names_variant vs x v.
Proof.
  intros (Hd & Hh & _). unfold names_variant. destruct x as [y|? ?|? ?]; [destruct y|..]; cbn [parse_enum]; try (split; [discriminate|intros (_ & _ & s' & n & E & _); discriminate E]).
  rewrite find_iff by exact Hd. split.
  - intros (Hi & Hu & Hs). split; [exact Hi|split; [exact Hu|]]. exists s, (without_hyphens s). split; [reflexivity|]. split; [apply without_iff; reflexivity|exact Hs].
  - intros (Hi & Hu & s' & n & E & Ha & Hs). injection E as <-. split; [exact Hi|split; [exact Hu|]]. assert (Hn : n = without_hyphens s) by (apply without_iff; split; [exact Ha|]; eapply same_no_hyphen; [exact Hs|apply Hh, Hi]). subst n. exact Hs.
Qed.
(** the suggested spelling *)
Lemma upper_iff c : is_upper c = true <-> capital c.
Proof. unfold is_upper, between, capital, code. rewrite Bool.andb_true_iff, !N.leb_le. tauto. Qed.
Lemma css_case_app i a b : css_case_from i (a ++ b) = css_case_from i a ++ css_case_from (i + length a) b.
Proof.
  unfold css_case_from. rewrite app_length, seq_app.
  assert (Hc : forall (s1 s2 : list nat) (a b : text), length s1 = length a -> combine (s1 ++ s2) (a ++ b) = combine s1 a ++ combine s2 b).
  { induction s1 as [|x s1 IH]; intros s2 [|y a'] b' H; cbn in *; try discriminate; [reflexivity|]. rewrite IH by lia. reflexivity. }
  rewrite Hc by apply seq_length. rewrite map_app, concat_app. reflexivity.
Qed.
Lemma css_case_small w : Forall (fun x => ~ capital x) w -> forall i, css_case_from i w = w.
Proof.
  intros H. induction H as [|c w Hc _ IH]; intros i; [reflexivity|]. unfold css_case_from in *. cbn [length seq combine map concat]. rewrite IH.
  destruct (is_upper c) eqn:E; [apply upper_iff in E; contradiction|reflexivity].
Qed.
Lemma small_lower c : ~ capital c -> lower c = c.
Proof. intros H. unfold lower. destruct (between 65 90 c) eqn:E; [|reflexivity]. exfalso. apply H. apply upper_iff. exact E. Qed.
Lemma small_lowers w : Forall (fun x => ~ capital x) w -> map lower w = w.
Proof. induction 1 as [|c w Hc _ IH]; [reflexivity|]. cbn [map]. rewrite IH, small_lower by exact Hc. reflexivity. Qed.
Lemma css_case_word w i : one_word w -> css_case_from i w = (if Nat.eqb i 0 then [] else match w with c :: _ => if is_upper c then [hyphen] else [] | [] => [] end) ++ map lower w.
Proof.
  intros (c & r & -> & Hr). replace (c :: r) with ([c] ++ r) by reflexivity. rewrite css_case_app, (css_case_small r Hr). cbn [app map length]. rewrite (small_lowers r Hr).
  unfold css_case_from. cbn [length seq combine map concat]. destruct (is_upper c) eqn:E.
  - rewrite app_nil_r. destruct (Nat.eqb i 0); reflexivity.
  - rewrite small_lower; [destruct (Nat.eqb i 0); reflexivity|]. intros H. apply upper_iff in H. congruence.
Qed.
Fixpoint rest_case (ws : list text) : text := match ws with [] => [] | w :: r => hyphen :: w ++ rest_case r end.
Lemma hyphenated_cons w ws : hyphenated (w :: ws) = w ++ rest_case ws.
Proof. revert w. induction ws as [|w' ws IH]; intros w; [cbn; rewrite app_nil_r; reflexivity|]. change (hyphenated (w :: w' :: ws)) with (w ++ hyphen :: hyphenated (w' :: ws)). rewrite IH. reflexivity. Qed.
Lemma css_case_rest ws : Forall one_word ws -> Forall starts_capital ws -> forall i, i <> 0 -> css_case_from i (concat ws) = map lower (rest_case ws).
Proof.
  induction ws as [|w ws IH]; intros H1 H2 i Hi; [reflexivity|]. inversion H1 as [|? ? Hw H1']; subst. inversion H2 as [|? ? Hc H2']; subst. cbn [concat rest_case map]. rewrite css_case_app, css_case_word by exact Hw.
  destruct Hc as (c & r & -> & Hc). apply upper_iff in Hc. rewrite Hc. destruct (Nat.eqb i 0) eqn:E; [apply Nat.eqb_eq in E; contradiction|]. rewrite IH by (try assumption; cbn; lia). rewrite map_app. reflexivity.
Qed.
Lemma css_case_words name ws : words_of name ws -> enum_variant_to_css_case name = map lower (hyphenated ws).
Proof.
  intros (-> & H1 & H2). destruct ws as [|w ws]; [reflexivity|]. inversion H1 as [|? ? Hw H1']; subst. cbn [skipn] in H2. unfold enum_variant_to_css_case. cbn [concat]. rewrite css_case_app, css_case_word by exact Hw. cbn [Nat.eqb app].
  rewrite hyphenated_cons, map_app. f_equal. apply css_case_rest; try assumption. destruct Hw as (c & r & -> & _). cbn. lia.
Qed.
Lemma hyphenated_added ws : hyphens_added (concat ws) (hyphenated ws).
Proof.
  assert (Hr : forall w n s, hyphens_added n s -> hyphens_added (w ++ n) (w ++ s)) by (induction w; intros; cbn [app]; [assumption|apply ha_keep; auto]).
  destruct ws as [|w ws]; [constructor|]. rewrite hyphenated_cons. cbn [concat]. apply Hr. clear w. induction ws as [|w ws IH]; cbn [concat rest_case]; [constructor|]. apply ha_add, Hr, IH.
Qed.
Lemma lower_add n t : hyphens_added n t -> forall s, same_letters s t -> exists m, hyphens_added m s /\ same_letters m n.
Proof.
  unfold same_letters. induction 1 as [|c n t H IH|n t H IH]; intros s E.
  - destruct s; [|discriminate]. exists []. split; [constructor|reflexivity].
  - destruct s as [|d s]; [discriminate|]. cbn in E. injection E as E1 E2. destruct (IH s E2) as (m & Hm & Em). exists (d :: m). split; [apply ha_keep, Hm|]. cbn. rewrite E1, Em. reflexivity.
  - destruct s as [|d s]; [discriminate|]. cbn [map] in E. injection E as E1 E2. change (lower hyphen) with hyphen in E1. apply (proj1 (lower_hyphen d)) in E1. subst d. destruct (IH s E2) as (m & Hm & Em). exists m. split; [apply ha_add, Hm|exact Em].
Qed.
Lemma css_names vs x v : css_keyword vs x v -> names_variant vs x v.
Proof.
  intros (Hi & Hu & s & ws & -> & (Hn & _) & Hs). split; [exact Hi|split; [exact Hu|]]. destruct (lower_add _ _ (hyphenated_added ws) s Hs) as (m & Hm & Em). exists s, m. split; [reflexivity|split; [exact Hm|]]. rewrite Hn. exact Em.
Qed.
Lemma lower_lower c : lower (lower c) = lower c.
Proof. destruct c as [[] [] [] [] [] [] [] []]; vm_compute; reflexivity. Qed.
Lemma lowers_lowers s : map lower (map lower s) = map lower s.
Proof. rewrite map_map. apply map_ext. intros; apply lower_lower. Qed.
Lemma variant_not_keyword {X} vs x v l : good_enum vs -> names_variant vs x v -> @global_keyword X (x :: l) = None.
Proof.
  intros Hg (Hi & Hu & s & n & -> & Ha & Hs). apply not_keyword. intros (s' & k & E & Hk & Hsp). injection E as <-. destruct Hg as (_ & Hh & Hkey). apply (Hkey v k Hi Hk). unfold spells, same_letters in *.
  assert (Hn : no_hyphen s).
  { intros Hin. assert (Hin' : In hyphen (map lower s)) by (apply in_map_iff; exists hyphen; split; [reflexivity|exact Hin]). rewrite Hsp in Hin'. cbn in Hk. repeat destruct Hk as [Hk|Hk]; try contradiction; subst k; vm_compute in Hin'; repeat destruct Hin' as [Hin'|Hin']; try discriminate Hin'; contradiction. }
  assert (En : n = without_hyphens s) by (apply without_iff; split; [exact Ha|]; eapply same_no_hyphen; [exact Hs|apply Hh, Hi]).
  rewrite no_hyphen_without in En by exact Hn. subst n. rewrite <- Hs. exact Hsp.
Qed.
Lemma keywords_correct vs l v : good_enum vs -> declared_value (one (parse_enum vs)) l = Some v <-> is_value (single (names_variant vs)) l v.
Proof.
  intros Hg. apply declared_iff.
  - apply one_iff. intros x w. apply enum_iff, Hg.
  - intros l0 w (x & -> & H). eapply variant_not_keyword; eassumption.
Qed.
Lemma suggestion_iff vs s : In s (suggestions vs) <-> exists v, In v vs /\ v_unit v = true /\ s = enum_variant_to_css_case (v_name v).
Proof.
  unfold suggestions, enum_variants. rewrite map_map, in_map_iff. split; [intros (v & <- & H); apply filter_In in H as [H1 H2]; eauto|intros (v & H1 & H2 & ->); exists v; split; [reflexivity|apply filter_In; auto]].
Qed.

Lemma words_exist name : exists ws, words_of name ws.
Proof.
  unfold words_of. induction name as [|c r (ws & -> & H1 & H2)]; [exists []; split; [reflexivity|split; constructor]|].
  destruct ws as [|w ws].
  - exists [[c]]. split; [reflexivity|]. split; [constructor; [exists c, []; split; [reflexivity|constructor]|constructor]|constructor].
  - inversion H1 as [|? ? Hw H1']; subst. destruct Hw as (d & q & -> & Hq). destruct (is_upper d) eqn:E.
    + exists ([c] :: (d :: q) :: ws). split; [reflexivity|]. split; [constructor; [exists c, []; split; [reflexivity|constructor]|exact H1]|]. cbn [skipn] in *. constructor; [|exact H2]. exists d, q. split; [reflexivity|apply upper_iff, E].
    + exists ((c :: d :: q) :: ws). split; [reflexivity|]. split; [constructor; [|exact H1']|exact H2]. exists c, (d :: q). split; [reflexivity|]. constructor; [|exact Hq]. intros H. apply upper_iff in H. congruence.
Qed.

(** ** Pieces *)
Lemma none_or_iff {X} (d : X) parse (is_it : list tree -> X -> Prop) (all : list tree -> X -> Prop) :
  (forall l v, parse l = Some (v, []) <-> is_it l v) -> (forall x r v, word x "none" -> ~ is_it (x :: r) v) ->
  (forall l v, all l v <-> (exists x, l = [x] /\ word x "none" /\ v = d) \/ is_it l v) ->
  forall l v, none_or d parse l = Some (v, []) <-> all l v.
Proof.
  intros Hp Hn Ha l v. rewrite Ha. unfold none_or. destruct (starts_none l) eqn:E.
  - apply none_iff in E as (x & r & -> & Hw). cbn [skipn]. split.
    + intros H. injection H as <- ->. left. exists x. auto.
    + intros [(y & H & _ & ->)|H]; [injection H as <- ->; reflexivity|]. exfalso. exact (Hn _ _ _ Hw H).
  - rewrite Hp. split; [auto|]. intros [(x & -> & Hw & _)|H]; [|exact H]. exfalso. assert (E' : starts_none [x] = true) by (apply none_iff; eauto). congruence.
Qed.
Lemma one_rest {X} (parse : tree -> option X) l v r : one parse l = Some (v, r) <-> exists x, l = x :: r /\ parse x = Some v.
Proof.
  unfold one. destruct l as [|x l]; [split; [discriminate|intros (x & E & _); discriminate]|]. split.
  - destruct (parse x) as [w|] eqn:E; [|discriminate]. intros H. injection H as -> ->. eauto.
  - intros (y & E & H). injection E as -> ->. rewrite H. reflexivity.
Qed.
Lemma opt_rest {X} (parse : tree -> option X) d l v : opt parse d l = (v, []) <-> (l = [] /\ v = d) \/ exists x, l = [x] /\ parse x = Some v.
Proof.
  unfold opt. destruct l as [|x l].
  - split; [intros E; injection E as <-; auto|]. intros [[_ ->]|(x & E & _)]; [reflexivity|discriminate].
  - destruct (parse x) as [w|] eqn:E; split.
    + intros H. injection H as -> ->. eauto.
    + intros [[H _]|(y & H & Hy)]; [discriminate|]. injection H as -> ->. congruence.
    + discriminate.
    + intros [[H _]|(y & H & Hy)]; [discriminate|]. injection H as -> ->. congruence.
Qed.
Definition no_word (x : tree) : Prop := match x with Leaf (TIdent _) => False | _ => True end.
Lemma pair_iff {X} (zero : X) (parse : tree -> option X) is_it : (forall x v, parse x = Some v <-> is_it x v) -> (forall x v, word x "none" -> ~ is_it x v) ->
  forall l v, none_or (zero, zero) (fun l => bind (one parse l) (fun p : X * list tree => let (x, r) := p in let (y, r') := opt parse x r in Some ((x, y), r'))) l = Some (v, []) <-> is_pair zero is_it l v.
Proof.
  intros Hp Hn. apply (none_or_iff _ _ (fun l v => (exists x a, l = [x] /\ is_it x a /\ v = (a, a)) \/ exists x y a b, l = [x; y] /\ is_it x a /\ is_it y b /\ v = (a, b))).
  - intros l v. split.
    + destruct (one parse l) as [[a r]|] eqn:E; cbn [bind]; [|discriminate]. apply one_rest in E as (x & -> & Hx). destruct (opt parse a r) as [b r'] eqn:E. intros H. injection H as <- ->.
      apply opt_rest in E as [[-> ->]|(y & -> & Hy)]; [left; exists x, a; rewrite <- Hp; auto|right; exists x, y, a, b; rewrite <- !Hp; auto].
    + intros [(x & a & -> & Hx & ->)|(x & y & a & b & -> & Hx & Hy & ->)]; cbn [one]; apply Hp in Hx; rewrite Hx; cbn [option_map bind opt]; [reflexivity|]. apply Hp in Hy. rewrite Hy. reflexivity.
  - intros x r v Hw [(y & a & E & Hy & _)|(y & z & a & b & E & Hy & _)]; injection E as <- ->; exact (Hn _ _ Hw Hy).
  - intros l v. split.
    + intros [x H|x a H|x y a b H1 H2]; [left; exists x; auto|right; left; exists x, a; auto|right; right; exists x, y, a, b; auto].
    + intros [(x & -> & H & ->)|[(x & a & -> & H & ->)|(x & y & a & b & -> & H1 & H2 & ->)]]; constructor; assumption.
Qed.
Lemma calc_not_none {X} (calc : list tree -> option X) (is_it : tree -> X -> Prop) x v : (is_it x v -> no_word x) -> word x "none" -> ~ with_calc calc is_it x v.
Proof. intros Hi (s & -> & _) [H|(l & (s' & E & _) & _)]; [exact (Hi H)|discriminate]. Qed.
Lemma f32_no_word x v : is_f32 x v -> no_word x.
Proof. intros [x' q (d & i & -> & _)|x' q (d & i & s & -> & _)]; exact I. Qed.
Lemma pair_not_keyword {X Y} (zero : X) (is_it : tree -> X -> Prop) l v : (forall x v l, is_it x v -> @global_keyword Y (x :: l) = None) -> is_pair zero is_it l v -> @global_keyword Y l = None.
Proof. intros H [x Hx|x a Hx|x y a b Hx _]; [apply none_not_keyword, Hx|eapply H, Hx|eapply H, Hx]. Qed.
Lemma f32c_not_keyword {X} calc x v l : with_calc calc is_f32 x v -> @global_keyword X (x :: l) = None.
Proof. intros H. eapply calc_not_keyword; [exact H|]. apply f32_not_keyword. Qed.
Lemma val_none x v : word x "none" -> ~ is_val x v.
Proof.
  intros (s & -> & Hs) H. inversion H; subst; try match goal with H : number _ _ |- _ => destruct H as (d & i & E & _); discriminate E | H : percentage _ _ |- _ => destruct H as (d & E & _); discriminate E | H : dimension _ _ _ |- _ => destruct H as (d & i & u' & E & _); discriminate E end.
  vm_compute in Hs. discriminate.
Qed.
Lemma vec2_correct calc l v : declared_value (parse_vec2 calc) l = Some v <-> is_value (is_pair 0%Q (with_calc calc is_f32)) l v.
Proof.
  apply declared_iff.
  - apply pair_iff; [intros; apply f32_calc_iff|]. intros x w. apply calc_not_none, f32_no_word.
  - intros l0 w. apply pair_not_keyword. intros. eapply f32c_not_keyword. eassumption.
Qed.
Lemma val2_correct calc l v : declared_value (parse_val2 calc) l = Some v <-> is_value (is_pair (VLen UPx 0) (with_calc calc is_val)) l v.
Proof.
  apply declared_iff.
  - apply pair_iff; [intros; apply parse_calc_iff; [apply parse_val_iff|reflexivity]|]. intros x w Hw [H|(l0 & (s & -> & _) & _)]; [exact (val_none _ _ Hw H)|]. destruct Hw as (s' & E & _). discriminate.
  - intros l0 w. apply pair_not_keyword. intros x u r H. eapply calc_not_keyword; [exact H|]. apply val_not_keyword.
Qed.

(** ** Rectangles *)
Lemma rect_iff calc l v : parse_rect calc l = Some (v, []) <-> is_rect (with_calc calc is_f32) l v.
Proof.
  unfold parse_rect. revert l v. eapply none_or_iff with (is_it := fun l v => exists w x y z a b c d, l = [w; x; y; z] /\ with_calc calc is_f32 w a /\ with_calc calc is_f32 x b /\ with_calc calc is_f32 y c /\ with_calc calc is_f32 z d /\ v = rect_new a b c d).
  - intros l v. split.
    + destruct (one _ l) as [[a r]|] eqn:E; cbn [bind]; [|discriminate]. apply one_rest in E as (w & -> & Hw). cbn [snd]. destruct (one _ r) as [[b r1]|] eqn:E; cbn [bind]; [|discriminate]. apply one_rest in E as (x & -> & Hx). cbn [snd].
      destruct (one _ r1) as [[c r2]|] eqn:E; cbn [bind]; [|discriminate]. apply one_rest in E as (y & -> & Hy). cbn [snd]. destruct (one _ r2) as [[d r3]|] eqn:E; cbn [bind]; [|discriminate]. apply one_rest in E as (z & -> & Hz). cbn [snd fst].
      intros H. injection H as <- ->. exists w, x, y, z, a, b, c, d. rewrite <- !f32_calc_iff. repeat (split; [first [reflexivity|assumption]|]). reflexivity.
    + intros (w & x & y & z & a & b & c & d & -> & Hw & Hx & Hy & Hz & ->). apply f32_calc_iff in Hw, Hx, Hy, Hz. cbn [one bind]. rewrite Hw. cbn [option_map bind snd fst one]. rewrite Hx. cbn [option_map bind snd fst one]. rewrite Hy. cbn [option_map bind snd fst one]. rewrite Hz. reflexivity.
  - intros x r v Hw (w & x' & y & z & a & b & c & d & E & H & _). injection E as <- ->. exact (calc_not_none calc is_f32 x a (f32_no_word x a) Hw H).
  - assert (Hmm : forall a c mn mx, (mn = qmin a c /\ mx = qmax a c <-> (a <= c /\ mn = a /\ mx = c \/ c < a /\ mn = c /\ mx = a)%Q)).
    { intros a c mn mx. unfold qmin, qmax. destruct (Qle_bool a c) eqn:E.
      - apply Qle_bool_iff in E. split; [intros [-> ->]; auto|]. intros [(_ & -> & ->)|(H & _)]; [auto|]. exfalso. lra.
      - assert (Hlt : (c < a)%Q) by (apply Qnot_le_lt; intros H; apply Qle_bool_iff in H; congruence). split; [intros [-> ->]; auto|]. intros [(H & _)|(_ & -> & ->)]; [exfalso; lra|auto]. }
    intros l v. split.
    + intros [x H|w x y z a b c d r Hw Hx Hy Hz H1 H2]; [left; exists x; auto|]. right. exists w, x, y, z, a, b, c, d. apply Hmm in H1 as [H1 H1'], H2 as [H2 H2']. destruct r; cbn in *; subst. auto 10.
    + intros [(x & -> & H & ->)|(w & x & y & z & a & b & c & d & -> & Hw & Hx & Hy & Hz & ->)]; [constructor; exact H|]. eapply irc_corners; try eassumption; apply Hmm; split; reflexivity.
Qed.
Lemma rect_correct calc l v : declared_value (parse_rect calc) l = Some v <-> is_value (is_rect (with_calc calc is_f32)) l v.
Proof. apply declared_iff; [apply rect_iff|]. intros l0 w [x H|w' x y z a b c d r H _]; [apply none_not_keyword, H|eapply f32c_not_keyword, H]. Qed.

(** ** Angles *)
Lemma wrap_iff a q : q = Calc.wrap a <-> (exists k : Z, q = a - inject_Z k)%Q /\ (- (1 # 2) < q <= 1 # 2)%Q.
Proof.
  unfold Calc.wrap. split.
  - intros ->. split; [eexists; reflexivity|]. pose proof (Qle_ceiling (a - (1 # 2))) as H1. pose proof (Qceiling_lt (a - (1 # 2))) as H2. unfold Z.sub in H2. rewrite inject_Z_plus in H2. change (inject_Z (- (1))) with (- (1))%Q in H2. split; lra.
  - intros ((k & ->) & H1 & H2). f_equal. f_equal. f_equal. pose proof (Qle_ceiling (a - (1 # 2))) as H3. pose proof (Qceiling_lt (a - (1 # 2))) as H4. unfold Z.sub in H4. rewrite inject_Z_plus in H4. change (inject_Z (- (1))) with (- (1))%Q in H4.
    set (c := Qceiling (a - (1 # 2))) in *. assert (A : (inject_Z k < inject_Z (c + 1))%Q) by (rewrite inject_Z_plus; change (inject_Z 1) with 1%Q; lra). assert (B : (inject_Z c < inject_Z (k + 1))%Q) by (rewrite inject_Z_plus; change (inject_Z 1) with 1%Q; lra).
    rewrite <- Zlt_Qlt in A, B. lia.
Qed.
Lemma turns_iff rho d i u q : turns_of rho (Leaf (TDim d i u)) q <-> option_map (fun k => turns rho k (dec_Q d)) (lookup u angle_units) = Some q.
Proof.
  unfold turns_of, dimension. destruct (lookup u angle_units) as [k|] eqn:E; cbn [option_map].
  - apply lookup_iff in E as (n & Hi & Hs); [|names]. split.
    + assert (Hu : forall n', spells u n' -> forall k', In (n', k') angle_units -> k' = k).
      { intros n' Hs' k' Hi'. pose proof (spells_det _ _ _ Hs Hs') as Hd. cbn in Hi, Hi'. repeat destruct Hi as [Hi|Hi]; try contradiction; injection Hi as <- <-; repeat destruct Hi' as [Hi'|Hi']; try contradiction; injection Hi' as <- <-; try reflexivity; vm_compute in Hd; discriminate. }
      intros [(a & (d' & i' & u' & E & Hs' & ->) & ->)|[(a & (d' & i' & u' & E & Hs' & ->) & ->)|[(a & (d' & i' & u' & E & Hs' & ->) & ->)|(d' & i' & u' & E & Hs' & ->)]]]; injection E as <- <- <-.
      * rewrite <- (Hu _ Hs' ADeg) by (cbn; tauto). reflexivity.
      * rewrite <- (Hu _ Hs' AGrad) by (cbn; tauto). reflexivity.
      * rewrite <- (Hu _ Hs' ARad) by (cbn; tauto). reflexivity.
      * rewrite <- (Hu _ Hs' ATurn) by (cbn; tauto). reflexivity.
    + intros H. injection H as <-. cbn in Hi. repeat destruct Hi as [Hi|Hi]; try contradiction; injection Hi as <- <-; cbn [turns].
      * left. exists (dec_Q d). split; [exists d, i, u; auto|reflexivity].
      * right; left. exists (dec_Q d). split; [exists d, i, u; auto|reflexivity].
      * right; right; left. exists (dec_Q d). split; [exists d, i, u; auto|reflexivity].
      * right; right; right. exists d, i, u; auto.
  - split; [|discriminate]. assert (Hu : forall n' k', In (n', k') angle_units -> ~ spells u n').
    { intros n' k' Hi' Hs'. assert (E' : lookup u angle_units = Some k') by (apply lookup_iff; [names|eauto]). congruence. }
    intros H. exfalso. destruct H as [(a & (d' & i' & u' & E' & Hs' & ->) & ->)|[(a & (d' & i' & u' & E' & Hs' & ->) & ->)|[(a & (d' & i' & u' & E' & Hs' & ->) & ->)|(d' & i' & u' & E' & Hs' & ->)]]]; injection E' as <- <- <-; (eapply Hu; [|exact Hs']; cbn; eauto 6).
Qed.
Lemma turns_dim rho x q : turns_of rho x q -> exists d i u, x = Leaf (TDim d i u).
Proof. intros [(a & (d & i & u & -> & _) & _)|[(a & (d & i & u & -> & _) & _)|[(a & (d & i & u & -> & _) & _)|(d & i & u & -> & _)]]]; eauto. Qed.
Lemma angle_iff rho x q : parse_angle rho x = Some q <-> is_angle rho x q.
Proof.
  split.
  - unfold parse_angle. destruct (starts_none [x]) eqn:E.
    + apply none_iff in E as (y & r & E & Hw). injection E as <- _. intros H. injection H as <-. constructor. exact Hw.
    + destruct x as [y|? ?|? ?]; [destruct y|..]; try discriminate.
      * destruct (Qeq_bool (dec_Q d) 0) eqn:Eq; [|discriminate]. intros H. injection H as <-. apply ia_zero with (dec_Q d); [exists d, int; auto|apply Qeq_bool_iff, Eq].
      * destruct (lookup unit angle_units) as [k|] eqn:El; [|discriminate]. intros H. injection H as H. symmetry in H. apply wrap_iff in H as [H1 H2]. apply ia_angle with (turns rho k (dec_Q d)); try assumption. apply turns_iff. rewrite El. reflexivity.
  - intros [y Hw|y a (d & i & -> & ->) Hz|y a q' Ht Hk Hq]; unfold parse_angle.
    + assert (E : starts_none [y] = true) by (apply none_iff; eauto). rewrite E. reflexivity.
    + cbn [starts_none]. apply Qeq_bool_iff in Hz. rewrite Hz. reflexivity.
    + destruct (turns_dim _ _ _ Ht) as (d & i & u & ->). apply turns_iff in Ht. cbn [starts_none]. destruct (lookup u angle_units) as [k|]; [|discriminate]. injection Ht as <-. cbn [option_map]. f_equal. symmetry. apply wrap_iff. auto.
Qed.
Lemma rotation_correct rho calc l v : declared_value (one (parse_rotation calc rho)) l = Some v <-> is_value (single (with_calc calc (is_angle rho))) l v.
Proof.
  apply declared_iff.
  - apply one_iff. intros x w. unfold parse_rotation. apply parse_calc_iff; [apply angle_iff|reflexivity].
  - intros l0 w (x & -> & H). eapply calc_not_keyword; [exact H|]. intros [y Hw|y a (d & i & -> & _) _|y a q Ht _ _]; [apply none_not_keyword, Hw|reflexivity|]. destruct (turns_dim _ _ _ Ht) as (d & i & u & ->). reflexivity.
Qed.

(** ** overflow-clip-margin *)
Lemma variant_no_f32 vs calc x v q : names_variant vs x v -> ~ with_calc calc is_f32 x q.
Proof. intros (_ & _ & s & n & -> & _) H. exact (f32_not_word _ _ _ H). Qed.
Lemma clip_iff calc boxes db l v : good_enum boxes -> parse_overflow_clip_margin calc boxes db l = Some (v, []) <-> is_clip_margin (with_calc calc is_f32) boxes db l v.
Proof.
  intros Hg. unfold parse_overflow_clip_margin. split.
  - destruct (one _ l) as [[m r]|] eqn:E.
    + apply one_rest in E as (x & -> & Hx). intros H. injection H as <- ->. constructor. apply f32_calc_iff, Hx.
    + clear E. destruct (one (parse_enum boxes) l) as [[b r]|] eqn:E; [|discriminate]. apply one_rest in E as (w & -> & Hw). cbn [bind snd fst]. destruct (one _ r) as [[m r']|] eqn:E; [|discriminate]. apply one_rest in E as (x & -> & Hx).
      cbn [bind snd fst]. intros H. injection H as <- ->. constructor; [apply enum_iff; assumption|apply f32_calc_iff, Hx].
  - intros [x a Hx|w x b a Hw Hx]; cbn [one].
    + apply f32_calc_iff in Hx. rewrite Hx. reflexivity.
    + destruct (parse_calc calc parse_f32 w) as [q|] eqn:E; [apply f32_calc_iff in E; exfalso; eapply variant_no_f32; eassumption|]. cbn [option_map]. apply enum_iff in Hw; [|exact Hg]. rewrite Hw. cbn [option_map bind snd one]. apply f32_calc_iff in Hx. rewrite Hx. reflexivity.
Qed.
Lemma clip_correct calc boxes db l v : good_enum boxes -> declared_value (parse_overflow_clip_margin calc boxes db) l = Some v <-> is_value (is_clip_margin (with_calc calc is_f32) boxes db) l v.
Proof.
  intros Hg. apply declared_iff; [intros; apply clip_iff, Hg|]. intros l0 w [x a H|x y b a H _]; [eapply f32c_not_keyword, H|eapply variant_not_keyword; eassumption].
Qed.

(** ** z-index, line-height, strings *)
Lemma z_correct l v : declared_value (one parse_z_index) l = Some v <-> is_value (single integer) l v.
Proof. apply declared_iff; [apply one_iff, int_iff|]. intros l0 w (x & -> & (d & -> & _)). reflexivity. Qed.
Lemma line_height_iff x v : parse_line_height x = Some v <-> is_line_height x v.
Proof.
  split.
  - unfold parse_line_height. destruct x as [y|? ?|? ?]; [destruct y|..]; try discriminate.
    + destruct (list_eq_dec _ _ _) as [->|]; [|discriminate]. intros H. injection H as <-. constructor.
    + intros H. injection H as <-. constructor. exists d, int. auto.
    + intros H. injection H as <-. apply ilh_percent.
    + destruct (lookup unit _) as [b|] eqn:E; [|discriminate]. apply lookup_iff in E as (k & Hi & Hs); [|names]. intros H. injection H as <-. cbn in Hi. repeat destruct Hi as [Hi|Hi]; try contradiction; injection Hi as <- <-; [apply ilh_px|apply ilh_em]; exists d, int, unit; auto.
  - intros [|y q (d & i & -> & ->)|d|y q (d & i & u & -> & Hs & ->)|y q (d & i & u & -> & Hs & ->)]; cbn [parse_line_height]; try reflexivity.
    + assert (E : lookup u [("px", true); ("em", false)]%string = Some false) by (apply lookup_iff; [names|]; exists "em"%string; cbn; auto). rewrite E. reflexivity.
    + assert (E : lookup u [("px", true); ("em", false)]%string = Some true) by (apply lookup_iff; [names|]; exists "px"%string; cbn; auto). rewrite E. reflexivity.
Qed.
Lemma line_height_correct l v : declared_value (one parse_line_height) l = Some v <-> is_value (single is_line_height) l v.
Proof.
  apply declared_iff; [apply one_iff, line_height_iff|]. intros l0 w (x & -> & H). destruct H as [|y q (d & i & -> & _)|d|y q (d & i & u & -> & _)|y q (d & i & u & -> & _)]; reflexivity.
Qed.
Lemma string_correct l v : declared_value (one parse_string) l = Some v <-> is_value (single is_string) l v.
Proof.
  apply declared_iff; [apply one_iff|intros l0 w (x & -> & [s]); reflexivity]. intros x w. split; [|intros [s]; reflexivity]. destruct x as [y|? ?|? ?]; [destruct y|..]; try discriminate. intros H. injection H as <-. constructor.
Qed.
Lemma path_correct url_of l v : declared_value (one (parse_asset_path url_of)) l = Some v <-> is_value (single (is_path url_of)) l v.
Proof.
  apply declared_iff; [apply one_iff|intros l0 w (x & -> & [s|s p Hp|y s (f & -> & _)]); reflexivity]. intros x w. split.
  - destruct x as [y|f l0|? ?]; [destruct y|..]; try discriminate; cbn [parse_asset_path].
    + intros H. injection H as <-. constructor.
    + intros H. constructor. exact H.
    + destruct (same_name f (tx "url")) eqn:E; [|discriminate]. apply same_spells in E. destruct l0 as [|z [|? ?]]; try discriminate; destruct z as [y|? ?|? ?]; try discriminate; destruct y; try discriminate. intros H. injection H as <-. constructor. exists f. auto.
  - intros [s|s p Hp|y s (f & -> & Hs)]; [reflexivity|exact Hp|]. apply same_spells in Hs. cbn [parse_asset_path]. rewrite Hs. reflexivity.
Qed.
Lemma font_iff x w : parse_font x = Some w <-> is_font x w.
Proof. split; [|intros [s|s]; reflexivity]. destruct x as [y|? ?|? ?]; [destruct y|..]; try discriminate; intros H; injection H as <-; constructor. Qed.
Lemma font_correct l v : declared_value (one parse_font) l = Some v <-> is_value (single (fun x w => is_font x w /\ forall k, In k ["unset"; "inherit"; "initial"]%string -> ~ word x k)) l v.
Proof.
  unfold declared_value, parse_property_value. destruct (@global_keyword text l) as [[w r]|] eqn:E.
  - split.
    + destruct r; [|discriminate]. intros H; injection H as <-. apply keyword_iff in E as (x & -> & [[H ->]|[[H ->]|[H ->]]]); constructor; exact H.
    + intros H. destruct H as [x H|x H|x H|l v (x & -> & Hf & Hk)].
      1-3: match goal with |- context [Some ?u] => assert (E' : @global_keyword text [x] = Some (u, [])) by (apply keyword_iff; exists x; auto) end; rewrite E' in E; injection E as <- <-; reflexivity.
      exfalso. rewrite not_keyword in E; [discriminate|]. intros (s & k & -> & Hi & Hs). apply (Hk k Hi). exists s. auto.
  - split.
    + destruct (one parse_font l) as [[w r]|] eqn:Ep; [|discriminate]. cbn. destruct r; [|discriminate]. intros H; injection H as <-. constructor. apply one_rest in Ep as (x & -> & Hx). exists x. split; [reflexivity|]. split; [apply font_iff, Hx|].
      intros k Hi Hw. assert (E' : exists u, @global_keyword text [x] = Some (u, [])) by (cbn in Hi; repeat destruct Hi as [Hi|Hi]; try contradiction; subst k; eexists; apply keyword_iff; exists x; eauto 8). destruct E' as [u E']. rewrite E' in E. discriminate.
    + intros H. destruct H as [x H|x H|x H|l v (x & -> & Hf & Hk)].
      1-3: exfalso; assert (E' : exists u, @global_keyword text [x] = Some (u, [])) by (eexists; apply keyword_iff; exists x; eauto 8); destruct E' as [u E']; rewrite E' in E; discriminate.
      apply font_iff in Hf. cbn [one]. rewrite Hf. reflexivity.
Qed.

(** ** Text shadows *)
Section TextShadow.
  Context {color : Type} (color_of : tree -> option color) (calc : list tree -> option Q) (transparent dc : color).
  Notation is_q := (with_calc calc is_f32).
  Hypothesis Hdisj : forall x v, is_q x v -> color_of x = None.
  Hypothesis Hkey : forall s k, In k ["none"; "unset"; "inherit"; "initial"]%string -> spells s k -> color_of (Leaf (TIdent s)) = None.
  Lemma offsets_iff l p r : offsets calc l = Some (p, r) <-> exists x y, l = x :: y :: r /\ is_q x (fst p) /\ is_q y (snd p).
  Proof.
    unfold offsets. split.
    - destruct (one _ l) as [[a r1]|] eqn:E; [|discriminate]. apply one_rest in E as (x & -> & Hx). cbn [bind snd fst]. destruct (one _ r1) as [[b r2]|] eqn:E; [|discriminate]. apply one_rest in E as (y & -> & Hy). cbn [bind snd fst].
      intros H. injection H as <- <-. exists x, y. rewrite <- !f32_calc_iff. auto.
    - intros (x & y & -> & Hx & Hy). apply f32_calc_iff in Hx, Hy. cbn [one]. rewrite Hx. cbn [option_map bind snd fst one]. rewrite Hy. cbn. destruct p; reflexivity.
  Qed.
  Lemma one_none {X} (parse : tree -> option X) x r : parse x = None -> one parse (x :: r) = None. Proof. cbn. intros ->. reflexivity. Qed.
  Lemma text_shadow_iff l v : parse_text_shadow calc color_of transparent dc l = Some (v, []) <-> is_text_shadow is_q color_of transparent dc l v.
  Proof.
    unfold parse_text_shadow. revert l v. eapply none_or_iff with (is_it := fun l v => exists x y a b, is_q x a /\ is_q y b /\
      ((l = [x; y] /\ v = ((a, b), dc)) \/ exists w c, color_of w = Some c /\ (l = [w; x; y] \/ l = [x; y; w]) /\ v = ((a, b), c))).
    - intros l v. destruct (one color_of l) as [[c r]|] eqn:Ec.
      + apply one_rest in Ec as (w & -> & Hw). split.
        * destruct (offsets calc r) as [[p r']|] eqn:E; [|discriminate]. cbn [bind fst snd]. intros H. injection H as <- ->. apply offsets_iff in E as (x & y & -> & Hx & Hy). exists x, y, (fst p), (snd p). split; [exact Hx|split; [exact Hy|]]. right. exists w, c. rewrite <- surjective_pairing. auto.
        * intros (x & y & a & b & Hx & Hy & [[E ->]|(z & c' & Hz & [E|E] & ->)]); injection E as -> ->.
          -- rewrite (Hdisj _ _ Hx) in Hw. discriminate.
          -- assert (E : offsets calc [x; y] = Some ((a, b), [])) by (apply offsets_iff; exists x, y; auto). rewrite E. cbn [bind fst snd]. congruence.
          -- rewrite (Hdisj _ _ Hx) in Hw. discriminate.
      + split.
        * destruct (offsets calc l) as [[p r']|] eqn:E; [|discriminate]. cbn [bind fst snd]. apply offsets_iff in E as (x & y & -> & Hx & Hy). destruct (opt color_of dc r') as [c r] eqn:Eo. intros H. injection H as <- ->. exists x, y, (fst p), (snd p). split; [exact Hx|split; [exact Hy|]]. rewrite <- surjective_pairing.
          apply opt_rest in Eo as [[-> ->]|(w & -> & Hw)]; [left; auto|right; exists w, c; auto].
        * intros (x & y & a & b & Hx & Hy & H).
          assert (Ho : forall r, offsets calc (x :: y :: r) = Some ((a, b), r)) by (intros r; apply offsets_iff; exists x, y; auto).
          destruct H as [[-> ->]|(z & c' & Hz & [-> | ->] & ->)].
          -- rewrite Ho. reflexivity.
          -- cbn [one] in Ec. rewrite Hz in Ec. discriminate.
          -- rewrite Ho. cbn [bind fst snd opt]. rewrite Hz. reflexivity.
    - intros x r v Hw (x' & y & a & b & Hx & Hy & H). assert (Hn : forall a', ~ is_q x a') by (intros a'; apply calc_not_none; [apply f32_no_word|exact Hw]).
      destruct H as [[E _]|(z & c & Hz & [E|E] & _)]; injection E as -> ->; try exact (Hn _ Hx). destruct Hw as (s & -> & Hs). rewrite (Hkey s "none"%string) in Hz by (try exact Hs; cbn; tauto). discriminate.
    - intros l v. split.
      + intros [x H|x y a b Hx Hy|w x y a b c Hc Hx Hy|x y w a b c Hc Hx Hy]; [left; exists x; auto|right; exists x, y, a, b..]; (split; [exact Hx|split; [exact Hy|]]); [left; auto|right; exists w, c; auto|right; exists w, c; auto].
      + intros [(x & -> & H & ->)|(x & y & a & b & Hx & Hy & [[-> ->]|(w & c & Hc & [-> | ->] & ->)])]; constructor; assumption.
  Qed.
  Lemma text_shadow_correct l v : declared_value (parse_text_shadow calc color_of transparent dc) l = Some v <-> is_value (is_text_shadow is_q color_of transparent dc) l v.
  Proof.
    apply declared_iff; [apply text_shadow_iff|]. intros l0 w [x H|x y a b Hx Hy|z x y a b c Hc Hx Hy|x y z a b c Hc Hx Hy]; [apply none_not_keyword, H|eapply f32c_not_keyword, Hx| |eapply f32c_not_keyword, Hx].
    apply not_keyword. intros (s & k & -> & Hi & Hs). rewrite (Hkey s k) in Hc by (try exact Hs; cbn in *; tauto). discriminate.
  Qed.
End TextShadow.

(** ** Image modes *)
Lemma tile_words : tx "tile_x" <> tx "tile_y". Proof. discriminate. Qed.
Lemma not_number_ident s q : ~ number (Leaf (TIdent s)) q. Proof. intros (d & i & E & _). discriminate. Qed.
Lemma last_cons_other x l q : (forall p, ~ number x p) -> last_number l q -> last_number (x :: l) q.
Proof.
  intros Hx [l' H|l' y p r Hy Hr]; [apply ln_none; intros z p [->|Hi]; [apply Hx|apply H, Hi]|]. change (x :: l' ++ y :: r) with ((x :: l') ++ y :: r). apply ln_last; assumption.
Qed.
(** the parameters from [acc] on *)
Definition tiled_from (acc : tiled) (l : list tree) (s : tiled) : Prop :=
  (forall x, In x l -> x = Leaf (TIdent (tx "tile_x")) \/ x = Leaf (TIdent (tx "tile_y")) \/ exists q, number x q) /\
  (tile_x s = true <-> tile_x acc = true \/ In (Leaf (TIdent (tx "tile_x"))) l) /\ (tile_y s = true <-> tile_y acc = true \/ In (Leaf (TIdent (tx "tile_y"))) l) /\
  ((forall x q, In x l -> ~ number x q) /\ stretch_value s = stretch_value acc \/ exists l1 x q l2, l = l1 ++ x :: l2 /\ number x q /\ (forall y p, In y l2 -> ~ number y p) /\ stretch_value s = q).
Lemma last_split (l : list tree) : (forall x q, In x l -> ~ number x q) \/ exists l1 x q l2, l = l1 ++ x :: l2 /\ number x q /\ (forall y p, In y l2 -> ~ number y p).
Proof.
  induction l as [|x l [H|(l1 & y & q & l2 & -> & Hy & H)]].
  - left. intros x q [].
  - destruct x as [y|? ?|? ?]; [destruct y|..].
    10: { right. exists [], (Leaf (TNumber d int)), (dec_Q d), l. split; [reflexivity|]. split; [exists d, int; auto|exact H]. }
    all: left; intros z q [<-|Hi]; [intros (d' & i' & E & _); discriminate E|apply H, Hi].
  - right. exists (x :: l1), y, q, l2. auto.
Qed.
Lemma tiled_iff l : forall acc s, tiled_params acc l = Some s <-> tiled_from acc l s.
Proof.
  assert (Hb : forall a b c : bool, (a = true <-> b = true \/ c = true) -> a = (b || c)%bool) by (intros [] [] []; cbn; intros H; try reflexivity; exfalso; destruct H as [H1 H2]; try (assert (false = true) by tauto; discriminate); try (destruct (H1 eq_refl); discriminate)).
  induction l as [|x l IH]; intros acc s.
  - cbn [tiled_params]. unfold tiled_from. cbn [In]. split.
    + intros H. injection H as <-. split; [intros x []|]. split; [tauto|]. split; [tauto|]. left. split; [intros x q []|reflexivity].
    + intros (_ & Hx & Hy & [[_ Hs]|(l1 & y & q & l2 & E & _)]); [|destruct l1; discriminate]. destruct s as [sx sy sv], acc as [ax ay av]. cbn in *. subst sv. destruct sx, sy, ax, ay; try reflexivity; exfalso; try (assert (false = true) by tauto; discriminate).
  - assert (Step : forall acc', (x = Leaf (TIdent (tx "tile_x")) /\ acc' = mk_tiled true (tile_y acc) (stretch_value acc) \/ x = Leaf (TIdent (tx "tile_y")) /\ acc' = mk_tiled (tile_x acc) true (stretch_value acc) \/ exists q, number x q /\ acc' = mk_tiled (tile_x acc) (tile_y acc) q) ->
        (tiled_from acc' l s <-> tiled_from acc (x :: l) s)).
    { intros acc' Hc. unfold tiled_from. assert (Hx : x = Leaf (TIdent (tx "tile_x")) \/ x = Leaf (TIdent (tx "tile_y")) \/ exists q, number x q) by (destruct Hc as [[H _]|[[H _]|(q & H & _)]]; eauto).
      assert (H1 : (forall y, In y l -> y = Leaf (TIdent (tx "tile_x")) \/ y = Leaf (TIdent (tx "tile_y")) \/ exists q, number y q) <-> (forall y, In y (x :: l) -> y = Leaf (TIdent (tx "tile_x")) \/ y = Leaf (TIdent (tx "tile_y")) \/ exists q, number y q)).
      { split; [intros H y [<-|Hi]; [exact Hx|apply H, Hi]|intros H y Hi; apply H; right; exact Hi]. }
      assert (H2 : tile_x acc' = true \/ In (Leaf (TIdent (tx "tile_x"))) l <-> tile_x acc = true \/ In (Leaf (TIdent (tx "tile_x"))) (x :: l)).
      { cbn [In]. destruct Hc as [[-> ->]|[[-> ->]|(q & (d & i & -> & _) & ->)]]; cbn [tile_x]; [tauto|..]; (split; [tauto|]); (intros [H|[H|H]]; [tauto|discriminate H|tauto]). }
      assert (H3 : tile_y acc' = true \/ In (Leaf (TIdent (tx "tile_y"))) l <-> tile_y acc = true \/ In (Leaf (TIdent (tx "tile_y"))) (x :: l)).
      { cbn [In]. destruct Hc as [[-> ->]|[[-> ->]|(q & (d & i & -> & _) & ->)]]; cbn [tile_y]; [|tauto|]; (split; [tauto|]); (intros [H|[H|H]]; [tauto|discriminate H|tauto]). }
      rewrite H1, H2, H3. assert (H4 : ((forall y q, In y l -> ~ number y q) /\ stretch_value s = stretch_value acc' \/ exists l1 y q l2, l = l1 ++ y :: l2 /\ number y q /\ (forall z p, In z l2 -> ~ number z p) /\ stretch_value s = q) <->
        ((forall y q, In y (x :: l) -> ~ number y q) /\ stretch_value s = stretch_value acc \/ exists l1 y q l2, x :: l = l1 ++ y :: l2 /\ number y q /\ (forall z p, In z l2 -> ~ number z p) /\ stretch_value s = q)).
      { split.
        - intros [[H E]|(l1 & y & q & l2 & -> & Hy & H & E)]; [|right; exists (x :: l1), y, q, l2; auto]. destruct Hc as [[-> ->]|[[-> ->]|(q & Hq & ->)]]; cbn [stretch_value] in E.
          + left. split; [|exact E]. intros y q [<-|Hi]; [apply not_number_ident|apply H, Hi].
          + left. split; [|exact E]. intros y q [<-|Hi]; [apply not_number_ident|apply H, Hi].
          + right. exists [], x, q, l. auto.
        - intros [[H E]|(l1 & y & q & l2 & E1 & Hy & H & E)].
          + left. split; [intros y q Hi; apply H; right; exact Hi|]. destruct Hc as [[-> ->]|[[-> ->]|(q & Hq & ->)]]; [exact E..|]. exfalso. apply (H x q); [left; reflexivity|exact Hq].
          + destruct l1 as [|z l1]; injection E1 as -> ->.
            * left. split; [exact H|]. destruct Hy as (d & i & -> & ->). destruct Hc as [[E2 _]|[[E2 _]|(p & (d' & i' & E2 & ->) & ->)]]; [discriminate E2..|]. injection E2 as <- <-. exact E.
            * right. exists l1, y, q, l2. auto. }
      rewrite H4. reflexivity. }
    assert (Bad : ~ (x = Leaf (TIdent (tx "tile_x")) \/ x = Leaf (TIdent (tx "tile_y")) \/ exists q, number x q) -> (None = Some s <-> tiled_from acc (x :: l) s)).
    { intros H. split; [discriminate|]. intros (H1 & _). exfalso. apply H. apply H1. left. reflexivity. }
    destruct x as [y|f l0|b l0]; [destruct y|..]; cbn [tiled_params]; try (apply Bad; intros [E|[E|(q & d' & i' & E & _)]]; discriminate E).
    + destruct (list_eq_dec ascii_dec s0 (tx "tile_x")) as [->|N1]; [rewrite IH; apply Step; left; auto|]. destruct (list_eq_dec ascii_dec s0 (tx "tile_y")) as [->|N2]; [rewrite IH; apply Step; right; left; auto|].
      apply Bad. intros [E|[E|(q & d' & i' & E & _)]]; [injection E as E; contradiction|injection E as E; contradiction|discriminate].
    + rewrite IH. apply Step. right; right. exists (dec_Q d). split; [exists d, int; auto|reflexivity].
Qed.
Lemma tiled_params_iff l s : parse_tiled_params l = Some s <-> is_tiled l s.
Proof.
  unfold parse_tiled_params. rewrite tiled_iff. unfold tiled_from. cbn [tile_x tile_y stretch_value]. split.
  - intros (H1 & H2 & H3 & H4). constructor; [exact H1|rewrite H2; split; [intros [H|H]; [discriminate|exact H]|auto]|rewrite H3; split; [intros [H|H]; [discriminate|exact H]|auto]|].
    destruct H4 as [[H E]|(l1 & x & q & l2 & -> & Hx & H & E)]; rewrite E; [apply ln_none, H|apply ln_last; assumption].
  - intros [l' s' H1 H2 H3 H4]. split; [exact H1|]. split; [rewrite H2; split; [auto|intros [H|H]; [discriminate|exact H]]|]. split; [rewrite H3; split; [auto|intros [H|H]; [discriminate|exact H]]|].
    inversion H4 as [l0 H E1 E2|l1 x q l2 Hx H E1 E2]; subst; [left; auto|]. right. exists l1, x, (stretch_value s'), l2. auto.
Qed.
Lemma scale_iff calc x m : parse_scale_mode calc x = Some m <-> is_scale_mode (with_calc calc is_f32) x m.
Proof.
  split.
  - destruct x as [y|f l|? ?]; [destruct y|..]; try discriminate; cbn [parse_scale_mode].
    + destruct (list_eq_dec _ _ _) as [->|]; [intros H; injection H as <-; constructor|]. destruct (list_eq_dec _ _ _) as [->|]; [intros H; injection H as <-; constructor|discriminate].
    + destruct (same_name f (tx "tile")) eqn:E; [|discriminate]. apply same_spells in E. destruct (one _ l) as [[q r]|] eqn:Eo; [|discriminate]. apply one_rest in Eo as (a & -> & Ha). destruct r; [|discriminate]. intros H. injection H as <-.
      eapply ism_tile; [exists f; auto|]. apply f32_calc_iff, Ha.
  - intros [| |y a q (f & -> & Hs) Ha]; [reflexivity|reflexivity|]. cbn [parse_scale_mode]. apply same_spells in Hs. rewrite Hs. apply f32_calc_iff in Ha. cbn [one]. rewrite Ha. reflexivity.
Qed.
Lemma upto_sound {X} (parse : tree -> option X) is_it : (forall x v, parse x = Some v <-> is_it x v) -> forall n l vs rest, upto parse n l = (vs, rest) ->
  exists xs, l = xs ++ rest /\ Forall2 is_it xs vs /\ length vs <= n /\ (length vs < n -> match rest with [] => True | x :: _ => parse x = None end).
Proof.
  intros Hp. induction n as [|n IH]; intros l vs rest; cbn [upto].
  - intros E. injection E as <- <-. exists []. cbn. split; [reflexivity|split; [constructor|split; [lia|lia]]].
  - destruct l as [|x r]; [intros E; injection E as <- <-; exists []; cbn; split; [reflexivity|split; [constructor|split; [lia|auto]]]|]. destruct (parse x) as [v|] eqn:Ev.
    + destruct (upto parse n r) as [ws rest'] eqn:Er. intros E. injection E as <- <-. destruct (IH _ _ _ Er) as (xs & -> & Hf & Hl & Hm). exists (x :: xs). cbn. split; [reflexivity|split; [|split; [lia|]]]; [constructor; [apply Hp, Ev|exact Hf]|]. intros H. apply Hm. lia.
    + intros E. injection E as <- <-. exists []. cbn. split; [reflexivity|split; [constructor|split; [lia|auto]]].
Qed.
Lemma upto_complete {X} (parse : tree -> option X) is_it : (forall x v, parse x = Some v <-> is_it x v) -> forall xs vs, Forall2 is_it xs vs -> forall n rest, length vs <= n -> (length vs < n -> match rest with [] => True | x :: _ => parse x = None end) -> upto parse n (xs ++ rest) = (vs, rest).
Proof.
  intros Hp xs vs Hf. induction Hf as [|x v xs vs Hx Hf IH]; intros n rest Hn Hr; cbn [app].
  - destruct n as [|n]; [reflexivity|]. cbn [upto]. destruct rest as [|y r]; [reflexivity|]. cbn in Hr. rewrite Hr by lia. reflexivity.
  - cbn in Hn, Hr. destruct n as [|n]; [lia|]. cbn [upto]. apply Hp in Hx. rewrite Hx, IH by (try lia; intros; apply Hr; lia). reflexivity.
Qed.
Lemma four_sides a vs p : four (a :: vs) = Some p <-> length vs <= 3 /\ p = (side (a :: vs) 0, side (a :: vs) 1, side (a :: vs) 2, side (a :: vs) 3).
Proof.
  destruct vs as [|b [|c [|d [|e vs]]]]; cbn; (split; [intros H|intros [H ->]]); try discriminate; try lia; try reflexivity; injection H as <-; (split; [lia|reflexivity]).
Qed.
Section Sliced.
  Context (calc : list tree -> option Q).
  Notation is_q := (with_calc calc is_f32).
  Notation pq := (parse_calc calc parse_f32).
  Hypothesis Hsep : forall x m v, is_scale_mode is_q x m -> ~ is_q x v.
  Lemma mode_no_f32 x m : parse_scale_mode calc x = Some m -> pq x = None.
  Proof. intros H. apply scale_iff in H. destruct (pq x) as [v|] eqn:E; [|reflexivity]. apply f32_calc_iff in E. exfalso. eapply Hsep; eassumption. Qed.
  Lemma f32_no_mode x v : pq x = Some v -> parse_scale_mode calc x = None.
  Proof. intros H. destruct (parse_scale_mode calc x) as [m|] eqn:E; [|reflexivity]. apply mode_no_f32 in E. congruence. Qed.
  Lemma opt_cases {X} (parse : tree -> option X) d l v r : opt parse d l = (v, r) -> (l = r /\ v = d /\ match l with [] => True | x :: _ => parse x = None end) \/ exists x, l = x :: r /\ parse x = Some v.
  Proof.
    unfold opt. destruct l as [|x l]; [intros E; injection E as <- <-; auto|]. destruct (parse x) as [w|] eqn:E; intros H; injection H as <- <-; [right; eauto|left; auto].
  Qed.
  Lemma sliced_iff l s : parse_sliced_params calc l = Some (s, []) <-> is_sliced is_q l s.
  Proof.
    assert (Hq : forall x v, pq x = Some v <-> is_q x v) by (intros; apply f32_calc_iff). split.
    - unfold parse_sliced_params, parse_four_values. destruct (one pq l) as [[a r0]|] eqn:E; [|discriminate]. apply one_rest in E as (x & -> & Hx). cbn [bind fst snd]. destruct (upto pq 3 r0) as [vs rest] eqn:Eu.
      apply (upto_sound _ _ Hq) in Eu as (xs & -> & Hf & Hl & Hm). destruct (four (a :: vs)) as [p|] eqn:Ef; [|discriminate]. apply four_sides in Ef as (_ & ->). cbn [option_map bind fst snd].
      destruct (opt (parse_scale_mode calc) Stretch rest) as [center r1] eqn:E1. destruct (opt (parse_scale_mode calc) Stretch r1) as [sides r2] eqn:E2. destruct (opt pq 1%Q r2) as [m r3] eqn:E3. intros H. injection H as <- ->.
      apply opt_rest in E3.
      assert (Hsc : exists ss scales, r2 = ss /\ Forall2 is_q ss scales /\ length scales <= 1 /\ m = nth 0 scales 1%Q).
      { destruct E3 as [[-> ->]|(z & -> & Hz)]; [exists [], []|exists [z], [m]]; (split; [reflexivity|]); [split; [constructor|]|split; [constructor; [apply Hq, Hz|constructor]|]]; (split; [cbn; lia|reflexivity]). }
      destruct Hsc as (ss & scales & -> & Hss & Hls & Em).
      assert (Hms : exists ms modes, rest = ms ++ ss /\ Forall2 (is_scale_mode is_q) ms modes /\ length modes <= 2 /\ center = nth 0 modes Stretch /\ sides = nth 1 modes Stretch).
      { apply opt_cases in E1 as [(-> & -> & H1)|(y & -> & Hy)]; apply opt_cases in E2 as [(-> & -> & H2)|(z & -> & Hz)].
        - exists [], []. split; [reflexivity|split; [constructor|split; [cbn; lia|split; reflexivity]]].
        - congruence.
        - exists [y], [center]. split; [reflexivity|]. split; [constructor; [apply scale_iff, Hy|constructor]|]. split; [cbn; lia|split; reflexivity].
        - exists [y; z], [center; sides]. split; [reflexivity|]. split; [constructor; [apply scale_iff, Hy|constructor; [apply scale_iff, Hz|constructor]]|]. split; [cbn; lia|split; reflexivity]. }
      destruct Hms as (ms & modes & -> & Hfm & Hlm & Ec & Es).
      change (x :: xs ++ ms ++ ss) with ((x :: xs) ++ ms ++ ss). eapply isl with (vs := a :: vs) (modes := modes) (scales := scales); try assumption; try reflexivity.
      + constructor; [apply Hq, Hx|exact Hf].
      + cbn. lia.
      + destruct Hfm as [|y mo ms modes Hy Hfm]; [|right; left; discriminate]. destruct Hss as [|y q ss scales Hy Hss]; [left; reflexivity|]. right; right. cbn. destruct (Nat.eq_dec (length vs) 3) as [->|N]; [reflexivity|]. exfalso. cbn in Hm. apply Hq in Hy. rewrite Hm in Hy by lia. discriminate.
    - intros [xs vs ms modes ss scales s' Hf Hl Hfm Hlm Hss Hls Hamb E1 E2 E3 E4 E5]. unfold parse_sliced_params, parse_four_values. destruct Hf as [|x a xs vs Hx Hf]; [cbn in Hl; lia|]. apply Hq in Hx. cbn [app one]. rewrite Hx. cbn [option_map bind fst snd].
      rewrite (upto_complete _ _ Hq xs vs Hf 3 (ms ++ ss)).
      + assert (E : four (a :: vs) = Some (side (a :: vs) 0, side (a :: vs) 1, side (a :: vs) 2, side (a :: vs) 3)) by (apply four_sides; cbn in Hl; split; [lia|reflexivity]). rewrite E. cbn [option_map bind fst snd].
        assert (Hsn : opt (parse_scale_mode calc) Stretch ss = (Stretch, ss)) by (destruct Hss as [|y q ss scales Hy Hss]; [reflexivity|]; cbn [opt]; apply Hq in Hy; rewrite (f32_no_mode _ _ Hy); reflexivity).
        assert (Hsc : opt pq 1%Q ss = (nth 0 scales 1%Q, [])) by (destruct Hss as [|y q ss scales Hy Hss]; [reflexivity|]; destruct Hss; [|cbn in Hls; lia]; cbn [opt nth]; apply Hq in Hy; rewrite Hy; reflexivity).
        destruct s' as [mi ma ce si co]. cbn in E1, E2, E3, E4, E5. subst.
        destruct Hfm as [|y m1 ms modes Hy Hfm]; cbn [app nth].
        * rewrite Hsn, Hsn, Hsc. reflexivity.
        * apply scale_iff in Hy. cbn [opt]. rewrite Hy. destruct Hfm as [|z m2 ms modes Hz Hfm]; cbn [app nth].
          -- rewrite Hsn, Hsc. reflexivity.
          -- destruct Hfm; [|cbn in Hlm; lia]. apply scale_iff in Hz. cbn [opt]. rewrite Hz. cbn [app nth]. rewrite Hsc. reflexivity.
      + cbn in Hl. lia.
      + intros Hlt. destruct Hfm as [|y mo ms modes Hy Hfm]; cbn [app]; [|apply scale_iff in Hy; eapply mode_no_f32, Hy]. destruct Hss as [|y q ss scales Hy Hss]; [exact I|]. exfalso. destruct Hamb as [H|[H|H]]; [discriminate|contradiction|]. cbn in H. lia.
  Qed.
  Lemma image_mode_iff x m : parse_image_mode calc x = Some m <-> is_image_mode is_q x m.
  Proof.
    split.
    - destruct x as [y|f l|? ?]; [destruct y|..]; try discriminate; cbn [parse_image_mode].
      + destruct (list_eq_dec _ _ _) as [->|]; [intros H; injection H as <-; constructor|]. destruct (list_eq_dec _ _ _) as [->|]; [intros H; injection H as <-; constructor|discriminate].
      + destruct (same_name f (tx "tiled")) eqn:E.
        * apply same_spells in E. destruct (parse_tiled_params l) as [s|] eqn:Et; [|discriminate]. intros H. injection H as <-. eapply iim_tiled; [exists f; auto|]. apply tiled_params_iff, Et.
        * destruct (same_name f (tx "sliced")) eqn:E'; [|discriminate]. apply same_spells in E'. destruct (parse_sliced_params calc l) as [[s r]|] eqn:Et; [|discriminate]. destruct r; [|discriminate]. intros H. injection H as <-. eapply iim_sliced; [exists f; auto|]. apply sliced_iff, Et.
    - intros [| |y l s (f & -> & Hs) H|y l s (f & -> & Hs) H]; [reflexivity|reflexivity|..]; cbn [parse_image_mode].
      + apply same_spells in Hs. rewrite Hs. apply tiled_params_iff in H. rewrite H. reflexivity.
      + assert (E : same_name f (tx "tiled") = false) by (apply same_spells_f; intros Hs'; pose proof (spells_det _ _ _ Hs Hs') as Hd; vm_compute in Hd; discriminate). rewrite E. apply same_spells in Hs. rewrite Hs. apply sliced_iff in H. rewrite H. reflexivity.
  Qed.
  Lemma image_mode_correct l v : declared_value (one (parse_image_mode calc)) l = Some v <-> is_value (single (is_image_mode is_q)) l v.
  Proof.
    apply declared_iff; [apply one_iff, image_mode_iff|]. intros l0 w (x & -> & H). destruct H as [| |y r s (f & -> & _) H|y r s (f & -> & _) H]; reflexivity.
  Qed.
End Sliced.
Lemma modes_apart calc x m v : is_scale_mode (with_calc calc is_f32) x m -> ~ with_calc calc is_f32 x v.
Proof.
  intros [| |y a q (f & -> & Hs) _] H; try exact (f32_not_word _ _ _ H). destruct H as [H|(l & (f' & E & Hs') & _)]; [apply f32_no_word in H as Hn; inversion H as [? ? (d & i & E & _)|? ? (d & i & s & E & _)]; discriminate E|].
  injection E as <- <-. pose proof (spells_det _ _ _ Hs Hs') as Hd. vm_compute in Hd. discriminate.
Qed.
