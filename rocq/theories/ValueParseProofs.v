(** Proofs for C85, C86. *)
From Coq Require Import Ascii String NArith ZArith QArith.
From Verif Require Import Base Vars VarText SheetText ValueParse ValueParseSpec.
Open Scope nat_scope.

Lemma same_spells s k : same_name s (tx k) = true <-> spells s k.
Proof. unfold same_name, spells. destruct (list_eq_dec _ _ _); split; congruence. Qed.
Lemma same_spells_f s k : same_name s (tx k) = false <-> ~ spells s k.
Proof. rewrite <- same_spells. destruct (same_name s (tx k)); split; congruence. Qed.
Lemma spells_det s k k' : spells s k -> spells s k' -> map lower (tx k) = map lower (tx k'). Proof. unfold spells. congruence. Qed.
Definition lnames {X} (l : list (string * X)) : list text := map (fun p => map lower (tx (fst p))) l.
Lemma lookup_iff {X} s (l : list (string * X)) v : NoDup (lnames l) -> lookup s l = Some v <-> exists k, In (k, v) l /\ spells s k.
Proof.
  induction l as [|[k x] l IH]; cbn [lookup lnames map fst In]; intros Hd; [split; [discriminate|intros (k & [] & _)]|]. inversion Hd as [|? ? Hn Hd']; subst. destruct (same_name s (tx k)) eqn:E.
  - apply same_spells in E. split; [intros H; injection H as <-; eauto|]. intros (k' & [H|H] & Hs); [congruence|]. exfalso. apply Hn. rewrite (spells_det s k k' E Hs). apply in_map_iff. exists (k', v). auto.
  - apply same_spells_f in E. rewrite IH by exact Hd'. split; [intros (k' & H & Hs); eauto|]. intros (k' & [H|H] & Hs); [injection H as -> ->; contradiction|eauto].
Qed.
Ltac nodup := repeat (constructor; [let Hn := fresh in cbn; intros Hn; repeat destruct Hn as [Hn|Hn]; try discriminate Hn; try contradiction|]); try constructor.
Lemma word_ident s k : word (Leaf (TIdent s)) k <-> spells s k.
Proof. split; [intros (s' & E & H); injection E as <-; exact H|intros H; exists s; auto]. Qed.
Ltac names := vm_compute; nodup.

(** ** Lengths *)
Lemma parse_val_iff x v : parse_val x = Some v <-> is_val x v.
Proof.
  split.
  - unfold parse_val. destruct x as [[]|s l|b l]; try discriminate.
    + destruct (list_eq_dec _ _ _) as [->|]; [|discriminate]. intros E; injection E as <-. constructor.
    + destruct (Qeq_bool (dec_Q d) 0) eqn:Eq; intros E; injection E as <-.
      * apply iv_zero with (dec_Q d); [exists d, int; auto|]. apply Qeq_bool_iff, Eq.
      * apply iv_number; [exists d, int; auto|]. intros H. apply Qeq_bool_iff in H. congruence.
    + intros E; injection E as <-. constructor. exists d. auto.
    + destruct (lookup unit length_units) as [k|] eqn:El; [|discriminate]. intros E; injection E as <-. apply lookup_iff in El as (n & Hi & Hs); [|names]. apply iv_len with n; [exact Hi|]. exists d, int, unit. auto.
  - intros [| |x' q H Hz| |]; cbn [parse_val].
    + reflexivity.
    + destruct H as (d & i & -> & ->). destruct (Qeq_bool (dec_Q d) 0) eqn:Eq; [apply Qeq_bool_iff in Eq; contradiction|unfold parse_val; rewrite Eq; reflexivity].
    + destruct H as (d & i & -> & ->). apply Qeq_bool_iff in Hz. unfold parse_val. rewrite Hz. reflexivity.
    + destruct H as (d & -> & ->). reflexivity.
    + destruct H0 as (d & i & s & -> & Hs & ->). cbn [parse_val]. assert (E : lookup s length_units = Some u) by (apply lookup_iff; [names|eauto]). rewrite E. reflexivity.
Qed.
Lemma parse_f32_iff x q : parse_f32 x = Some q <-> is_f32 x q.
Proof.
  split.
  - unfold parse_f32. destruct x as [[]|s l|b l]; try discriminate.
    + intros E; injection E as <-. constructor. exists d, int. auto.
    + destruct (same_name unit (tx "px")) eqn:El; [|discriminate]. intros E; injection E as <-. apply same_spells in El. apply if_px. exists d, int, unit. auto.
  - intros [x' q' (d & i & -> & ->)|x' q' (d & i & u & -> & Hs & ->)]; cbn [parse_f32]; [reflexivity|]. apply same_spells in Hs. rewrite Hs. reflexivity.
Qed.
Lemma parse_calc_iff {X} (calc : list tree -> option X) parse (is_it : tree -> X -> Prop) : (forall x v, parse x = Some v <-> is_it x v) -> (forall s l, parse (Fun s l) = None) ->
  forall x v, parse_calc calc parse x = Some v <-> with_calc calc is_it x v.
Proof.
  intros Hp Hf x v. unfold parse_calc, with_calc, call. destruct x as [y|s l|b l].
  1,3: rewrite Hp; split; [tauto|intros [H|(l0 & (s & E & _) & _)]; [exact H|discriminate]].
  destruct (same_name s (tx "calc")) eqn:E.
  - apply same_spells in E. split; [intros H; right; exists l; eauto|]. intros [H|(l0 & (s0 & E0 & _) & H)]; [apply Hp in H; rewrite Hf in H; discriminate|]. injection E0 as -> ->. exact H.
  - apply same_spells_f in E. rewrite Hp. split; [tauto|]. intros [H|(l0 & (s0 & E0 & Hs) & H)]; [exact H|]. injection E0 as -> ->. contradiction.
Qed.

(** ** Whole values *)
Lemma keyword_iff {X} l (v : prop_value X) : global_keyword l = Some (v, []) <-> exists x, l = [x] /\ ((word x "unset" /\ v = Unset) \/ (word x "inherit" /\ v = Inherit) \/ (word x "initial" /\ v = Initial)).
Proof.
  assert (Hd : NoDup (lnames [("unset", @Unset X); ("inherit", Inherit); ("initial", Initial)]%string)) by names.
  split.
  - unfold global_keyword. destruct l as [|[y|s0 l0|b l0] r]; try discriminate. destruct y; try discriminate. destruct (lookup s _) as [v'|] eqn:E; [|discriminate]. intros H; injection H as -> ->. apply lookup_iff in E as (k & Hi & Hs); [|exact Hd].
    exists (Leaf (TIdent s)). split; [reflexivity|]. rewrite !word_ident. cbn in Hi. repeat destruct Hi as [Hi|Hi]; try contradiction; injection Hi as <- <-; auto.
  - intros (x & -> & H). cbn [global_keyword]. assert (Hx : exists k s, x = Leaf (TIdent s) /\ spells s k /\ In (k, v) [("unset", @Unset X); ("inherit", Inherit); ("initial", Initial)]%string).
    { destruct H as [[(s & -> & Hs) ->]|[[(s & -> & Hs) ->]|[(s & -> & Hs) ->]]]; [exists "unset"%string|exists "inherit"%string|exists "initial"%string]; exists s; split; [reflexivity|split; [exact Hs|cbn; tauto]|reflexivity|split; [exact Hs|cbn; tauto]|reflexivity|split; [exact Hs|cbn; tauto]]. }
    destruct Hx as (k & s & -> & Hs & Hi). assert (E : lookup s [("unset", @Unset X); ("inherit", Inherit); ("initial", Initial)]%string = Some v) by (apply lookup_iff; eauto). rewrite E. reflexivity.
Qed.
Lemma declared_iff {X} (parse : list tree -> option (X * list tree)) (is_it : list tree -> X -> Prop) : (forall l v, parse l = Some (v, []) <-> is_it l v) -> (forall l v, is_it l v -> @global_keyword X l = None) ->
  forall l v, declared_value parse l = Some v <-> is_value is_it l v.
Proof.
  intros Hp Hk l v. unfold declared_value, parse_property_value. destruct (@global_keyword X l) as [[w r]|] eqn:E.
  - split.
    + destruct r; [|discriminate]. intros H; injection H as <-. apply keyword_iff in E as (x & -> & [[H ->]|[[H ->]|[H ->]]]); constructor; exact H.
    + intros H. destruct H as [x H|x H|x H|l v H]; [..|rewrite (Hk l v H) in E; discriminate].
      all: match goal with |- context [Some ?u] => assert (E' : @global_keyword X [x] = Some (u, [])) by (apply keyword_iff; exists x; auto) end; rewrite E' in E; injection E as <- <-; reflexivity.
  - split.
    + destruct (parse l) as [[w r]|] eqn:Ep; [|discriminate]. cbn. destruct r; [|discriminate]. intros H; injection H as <-. constructor. apply Hp, Ep.
    + intros H. destruct H as [x H|x H|x H|l v H].
      1-3: exfalso; match type of H with word _ ?k => assert (E' : exists u, @global_keyword X [x] = Some (u, [])) by (eexists; apply keyword_iff; exists x; eauto 8) end; destruct E' as [u E']; rewrite E' in E; discriminate.
      apply Hp in H. rewrite H. reflexivity.
Qed.
Lemma not_keyword {X} x l : ~ (exists s k, x = Leaf (TIdent s) /\ In k ["unset"; "inherit"; "initial"]%string /\ spells s k) -> @global_keyword X (x :: l) = None.
Proof.
  intros H. cbn [global_keyword]. destruct x as [[]|s l0|b l0]; try reflexivity. destruct (lookup s _) as [v|] eqn:E; [|reflexivity]. exfalso. apply H. apply lookup_iff in E as (k & Hi & Hs); [|names].
  exists s, k. split; [reflexivity|]. split; [|exact Hs]. cbn in *. repeat destruct Hi as [Hi|Hi]; try contradiction; injection Hi as <- <-; auto.
Qed.
Ltac other_word := let k := fresh in intros (s' & k & E & Hi & Hs'); cbn in Hi; repeat destruct Hi as [Hi|Hi]; try contradiction; subst k;
  repeat match goal with H : Leaf _ = Leaf _ |- _ => injection H; intros; subst end;
  try match goal with H : spells ?s ?a, H' : spells ?s ?b |- _ => pose proof (spells_det s a b H H') as Hbad; vm_compute in Hbad; discriminate end.

Lemma one_iff {X} (parse : tree -> option X) is_it : (forall x v, parse x = Some v <-> is_it x v) -> forall l v, one parse l = Some (v, []) <-> exists x, l = [x] /\ is_it x v.
Proof.
  intros H l v. unfold one. destruct l as [|x r]; [split; [discriminate|intros (x & E & _); discriminate]|]. split.
  - destruct (parse x) as [w|] eqn:E; [|discriminate]. intros E'. injection E' as -> ->. exists x. split; [reflexivity|apply H, E].
  - intros (y & E & Hy). injection E as -> ->. apply H in Hy. rewrite Hy. reflexivity.
Qed.
Lemma calc_not_keyword {X Y} (calc : list tree -> option Y) is_it x v l : with_calc calc is_it x v -> (is_it x v -> @global_keyword X (x :: l) = None) -> @global_keyword X (x :: l) = None.
Proof. intros [H|(l0 & (s & -> & _) & _)] Hi; [auto|reflexivity]. Qed.
Lemma val_not_keyword {X} x v l : is_val x v -> @global_keyword X (x :: l) = None.
Proof.
  intros H. inversion H; subst; try reflexivity.
  all: match goal with H : number _ _ |- _ => destruct H as (d & i & -> & _) | H : percentage _ _ |- _ => destruct H as (d & -> & _) | H : dimension _ _ _ |- _ => destruct H as (d & i & s & -> & _) end; reflexivity.
Qed.
Lemma f32_not_keyword {X} x v l : is_f32 x v -> @global_keyword X (x :: l) = None.
Proof. intros [x' q (d & i & -> & _)|x' q (d & i & s & -> & _)]; reflexivity. Qed.

Lemma val_correct calc l v : declared_value (one (parse_calc calc parse_val)) l = Some v <-> is_value (fun l w => exists x, l = [x] /\ with_calc calc is_val x w) l v.
Proof.
  apply declared_iff.
  - apply one_iff. apply parse_calc_iff; [apply parse_val_iff|reflexivity].
  - intros l0 w (x & -> & H). eapply calc_not_keyword; [exact H|]. apply val_not_keyword.
Qed.

(** ** Aspect ratio *)
Lemma f32_calc_iff calc x q : parse_calc calc parse_f32 x = Some q <-> with_calc calc is_f32 x q.
Proof. apply parse_calc_iff; [apply parse_f32_iff|reflexivity]. Qed.
Lemma f32_not_word calc x q : with_calc calc is_f32 x q -> match x with Leaf (TIdent _) => False | _ => True end.
Proof. intros [[x' q' (d & i & -> & _)|x' q' (d & i & s & -> & _)]|(l0 & (s & -> & _) & _)]; exact I. Qed.
Lemma ratio_iff calc l v : parse_aspect_ratio calc l = Some (v, []) <-> is_ratio calc l v.
Proof.
  split.
  - unfold parse_aspect_ratio. destruct l as [|x r]; [discriminate|]. destruct (match x with Leaf (TIdent s) => _ | _ => _ end) eqn:Ea.
    + intros E; injection E as <- ->. destruct x as [[]|s l0|b l0]; try discriminate. apply same_spells in Ea. constructor. exists s. auto.
    + destruct (parse_calc calc parse_f32 x) as [a|] eqn:E; cbn [bind]; [|discriminate]. apply f32_calc_iff in E.
      assert (Hone : forall r0, Some (Some (a, 1%Q), r0) = Some (v, []) -> r = r0 -> is_ratio calc (x :: r) v) by (intros r0 E0 ->; injection E0 as <- ->; constructor; exact E).
      destruct r as [|y1 r1]; [intros E0; apply (Hone []); auto|]. destruct y1 as [[]|? ?|? ?]; try (intros E0; injection E0 as _ E0; discriminate).
      destruct r1 as [|y r2]; [intros E0; injection E0 as _ E0; discriminate|]. destruct (Ascii.eqb c "/") eqn:Ec; [|intros E0; injection E0 as _ E0; discriminate].
      apply Ascii.eqb_eq in Ec. subst. destruct (parse_calc calc parse_f32 y) as [b|] eqn:Ey; [|intros E0; injection E0 as _ E0; discriminate]. intros E0; injection E0 as <- ->. apply f32_calc_iff in Ey. apply (ir_two calc x y a b E Ey).
  - intros [x (s & -> & Hs)|x a H|x y a b H H']; cbn [parse_aspect_ratio].
    + apply same_spells in Hs. rewrite Hs. reflexivity.
    + pose proof (f32_not_word calc x a H) as Hw. apply f32_calc_iff in H. rewrite H. destruct x as [[]|? ?|? ?]; try reflexivity; contradiction.
    + pose proof (f32_not_word calc x a H) as Hw. apply f32_calc_iff in H, H'. rewrite H. unfold slash. cbn [bind Ascii.eqb Bool.eqb]. rewrite H'. destruct x as [[]|? ?|? ?]; try reflexivity; contradiction.
Qed.
Lemma ratio_correct calc l v : declared_value (parse_aspect_ratio calc) l = Some v <-> is_value (is_ratio calc) l v.
Proof.
  apply declared_iff; [apply ratio_iff|]. intros l0 w [x (s & -> & Hs)|x a H|x y a b H H'].
  - apply not_keyword. other_word.
  - eapply calc_not_keyword; [exact H|]. apply f32_not_keyword.
  - eapply calc_not_keyword; [exact H|]. apply f32_not_keyword.
Qed.

(** ** Grids *)
Lemma size_iff fr x v : parse_size fr x = Some v <-> is_size fr x v.
Proof.
  split.
  - unfold parse_size. destruct x as [[]|s l|b l]; try discriminate.
    + intros E. apply lookup_iff in E as (k & Hi & Hs); [|names]. apply is_word with k; [exact Hi|exists s; auto].
    + intros E; injection E as <-. constructor. exists d. auto.
    + destruct (lookup unit grid_units) as [k|] eqn:El; [|discriminate]. cbn [bind]. apply lookup_iff in El as (n & Hi & Hs); [|names].
      assert (Hd : dimension (Leaf (TDim d int unit)) n (dec_Q d)) by (exists d, int, unit; auto).
      cbn in Hi. repeat destruct Hi as [Hi|Hi]; try contradiction; injection Hi as <- <-; try (destruct fr; [|discriminate]); intros E; injection E as <-; first [apply is_fr; [reflexivity|exact Hd]|apply is_len with (2 := Hd); cbn; tauto].
  - intros [x' k v' Hi (s & -> & Hs)|x' q (d & -> & ->)|x' k u q Hi (d & i & s & -> & Hs & ->)|x' q -> (d & i & s & -> & Hs & ->)]; cbn [parse_size].
    + apply lookup_iff; [names|eauto].
    + reflexivity.
    + assert (E : lookup s grid_units = Some u) by (apply lookup_iff; [names|]; exists k; split; [|exact Hs]; cbn in *; tauto). rewrite E. cbn in *. repeat destruct Hi as [Hi|Hi]; try contradiction; injection Hi as <- <-; reflexivity.
    + assert (E : lookup s grid_units = Some GFr) by (apply lookup_iff; [names|]; exists "fr"%string; split; [|exact Hs]; cbn in *; tauto). rewrite E. reflexivity.
Qed.
Lemma size_not_fun fr s l v : ~ is_size fr (Fun s l) v.
Proof. intros H. apply size_iff in H. discriminate. Qed.
Lemma fit_minmax s : spells s "fit-content" -> spells s "minmax" -> False.
Proof. intros H H'. pose proof (spells_det _ _ _ H H') as E. vm_compute in E. discriminate. Qed.
Lemma track_iff x v : parse_track x = Some v <-> is_track x v.
Proof.
  split.
  - destruct x as [y|s l|b l]; cbn [parse_track].
    1,3: match goal with |- context [parse_size true ?t] => destruct (parse_size true t) as [z|] eqn:E end; [|discriminate]; intros H; injection H as <-; constructor; apply size_iff, E.
    destruct (same_name s (tx "fit-content")) eqn:Ef; [|destruct (same_name s (tx "minmax")) eqn:Em; [|discriminate]].
    + apply same_spells in Ef. unfold parse_fit. destruct l as [|[[]|? ?|? ?] [|? ?]]; try discriminate.
      * intros E; injection E as <-. eapply it_fit_px; [exists s; auto|]. constructor. exists d, int. auto.
      * intros E; injection E as <-. eapply it_fit_percent; [exists s; auto|]. exists d. auto.
      * destruct (same_name unit (tx "px")) eqn:Eu; [|discriminate]. intros E; injection E as <-. eapply it_fit_px; [exists s; auto|]. apply if_px. exists d, int, unit. split; [reflexivity|]. split; [apply same_spells, Eu|reflexivity].
    + apply same_spells in Em. unfold parse_minmax. destruct l as [|a [|[[]|? ?|? ?] [|b [|? ?]]]]; try discriminate. destruct (parse_size false a) as [z|] eqn:Ea; cbn [bind]; [|discriminate]. destruct (parse_size true b) as [w|] eqn:Eb; [|discriminate].
      cbn. intros E; injection E as <-. apply it_minmax with a b; [exists s; auto|apply size_iff, Ea|apply size_iff, Eb].
  - intros [x' v' H|x' a q (s & -> & Hs) H|x' a q (s & -> & Hs) H|x' a b v' w (s & -> & Hs) H H'].
    + destruct x' as [y|s l|b l]; [|exfalso; eapply size_not_fun; exact H|]; cbn [parse_track]; apply size_iff in H; rewrite H; reflexivity.
    + cbn [parse_track]. apply same_spells in Hs. rewrite Hs. destruct H as (d & -> & ->). reflexivity.
    + cbn [parse_track]. apply same_spells in Hs. rewrite Hs. destruct H as [x' q' (d & i & -> & ->)|x' q' (d & i & u & -> & Hu & ->)]; cbn [parse_fit]; [reflexivity|]. apply same_spells in Hu. rewrite Hu. reflexivity.
    + cbn [parse_track]. assert (Hn : same_name s (tx "fit-content") = false) by (apply same_spells_f; intros Hf; exact (fit_minmax s Hf Hs)). apply same_spells in Hs. rewrite Hn, Hs. unfold comma. cbn [parse_minmax].
      apply size_iff in H, H'. rewrite H, H'. reflexivity.
Qed.
Lemma while_ok_iff {X} (parse : tree -> option X) is_it : (forall x v, parse x = Some v <-> is_it x v) -> forall l vs, while_ok parse l = (vs, []) <-> Forall2 is_it l vs.
Proof.
  intros H. induction l as [|x l IH]; intros vs; cbn [while_ok].
  - split; [intros E; injection E as <-; constructor|intros E; inversion E; reflexivity].
  - destruct (parse x) as [v|] eqn:E.
    + destruct (while_ok parse l) as [ws rest]. split.
      * intros E'; injection E' as <- ->. constructor; [apply H, E|apply IH; reflexivity].
      * intros Hf. inversion Hf as [|? w ? ws' Hx Hl]; subst. apply H in Hx. apply IH in Hl. congruence.
    + split; [discriminate|]. intros Hf. inversion Hf as [|? w ? ws' Hx Hl]; subst. apply H in Hx. congruence.
Qed.
Lemma many_iff {X} (parse : tree -> option X) is_it : (forall x v, parse x = Some v <-> is_it x v) -> forall l vs, parse_many parse l = Some (vs, []) <-> vs <> [] /\ Forall2 is_it l vs.
Proof.
  intros H l vs. unfold parse_many. destruct l as [|x l]; [split; [discriminate|intros [Hn Hf]; inversion Hf; subst; contradiction]|].
  pose proof (while_ok_iff parse is_it H (x :: l) vs) as Hw. cbn [while_ok] in Hw. destruct (parse x) as [v|] eqn:E.
  - cbn. destruct (while_ok parse l) as [ws rest]. split.
    + intros E'. assert (E2 : (v :: ws, rest) = (vs, [])) by congruence. split; [injection E2 as <- _; discriminate|apply Hw, E2].
    + intros [_ Hf]. apply Hw in Hf. congruence.
  - cbn. split; [discriminate|]. intros [_ Hf]. inversion Hf as [|? w ? ws' Hx Hl]; subst. apply H in Hx. congruence.
Qed.
Lemma none_iff l : starts_none l = true <-> exists x r, l = x :: r /\ word x "none".
Proof.
  split.
  - unfold starts_none. destruct l as [|[[]|? ?|? ?] r]; try discriminate. intros H. apply same_spells in H. eexists _, r. split; [reflexivity|]. exists s. auto.
  - intros (x & r & -> & (s & -> & Hs)). apply same_spells, Hs.
Qed.
Lemma or_none_iff {X} (parse : list tree -> option (list X * list tree)) (is_it : tree -> X -> Prop) : (forall l vs, parse l = Some (vs, []) <-> vs <> [] /\ Forall2 is_it l vs) -> (forall x v, word x "none" -> ~ is_it x v) ->
  forall l vs, or_none parse l = Some (vs, []) <-> (exists x, word x "none" /\ l = [x] /\ vs = []) \/ (vs <> [] /\ Forall2 is_it l vs).
Proof.
  intros Hp Hn l vs. unfold or_none. destruct (starts_none l) eqn:E.
  - apply none_iff in E as (x & r & -> & Hw). cbn [skipn]. split.
    + intros E; injection E as <- ->. left. eauto.
    + intros [(y & Hy & E & ->)|[Hv Hf]]; [injection E as -> ->; reflexivity|]. exfalso. inversion Hf; subst. eapply Hn; eauto.
  - rewrite Hp. split; [tauto|]. intros [(x & Hw & -> & ->)|H]; [|exact H]. assert (starts_none [x] = true) by (apply none_iff; eauto). congruence.
Qed.
Lemma size_not_word fr x v k : is_size fr x v -> word x k -> In (map lower (tx k)) (map (fun k => map lower (tx k)) ["auto"; "min-content"; "max-content"]%string).
Proof.
  intros [x' k' v' Hi (s & -> & Hs)|x' q (d & -> & ->)|x' k' u q Hi (d & i & s & -> & Hs & ->)|x' q -> (d & i & s & -> & Hs & ->)] (s' & E & Hs'); try discriminate. injection E as <-.
  rewrite (spells_det s k k' Hs' Hs). cbn in Hi. repeat destruct Hi as [Hi|Hi]; try contradiction; injection Hi as <- <-; cbn; tauto.
Qed.
Lemma track_not_word x v k : is_track x v -> word x k -> In (map lower (tx k)) (map (fun k => map lower (tx k)) ["auto"; "min-content"; "max-content"]%string).
Proof.
  intros [x' v' H|x' a q (s & -> & Hs) H|x' a q (s & -> & Hs) H|x' a b v' w (s & -> & Hs) H H'] Hw; [eapply size_not_word; eauto|..]; destruct Hw as (s' & E & _); discriminate.
Qed.
Ltac bad_word H := vm_compute in H; repeat destruct H as [H|H]; try discriminate; contradiction.
Lemma track_not_keyword {X} x v l : is_track x v -> @global_keyword X (x :: l) = None.
Proof.
  intros H. apply not_keyword. intros (s & k & -> & Hi & Hs). cbn in Hi. repeat destruct Hi as [Hi|Hi]; try contradiction; subst k;
    match type of Hs with spells _ ?k => pose proof (track_not_word _ _ k H (proj2 (word_ident s k) Hs)) as Hb; bad_word Hb end.
Qed.
Lemma tracks_iff l vs : parse_grid_track_vec l = Some (vs, []) <-> is_track_list l vs.
Proof.
  unfold parse_grid_track_vec. rewrite (or_none_iff _ is_track).
  - split; [intros [(x & Hw & -> & ->)|[H H']]; constructor; assumption|]. intros [x Hw|l' ts H H']; eauto.
  - apply many_iff, track_iff.
  - intros x v Hw Ht. pose proof (track_not_word _ _ _ Ht Hw) as Hb. bad_word Hb.
Qed.
Lemma none_not_keyword {X} x l : word x "none" -> @global_keyword X (x :: l) = None.
Proof. intros (s & -> & Hs). apply not_keyword. other_word. Qed.
Lemma tracks_correct l v : declared_value parse_grid_track_vec l = Some v <-> is_value is_track_list l v.
Proof.
  apply declared_iff; [apply tracks_iff|]. intros l0 w [x Hw|l' ts Hne Hf]; [apply none_not_keyword, Hw|]. destruct Hf as [|x v' l1 l2 H Hf]; [contradiction|]. eapply track_not_keyword; exact H.
Qed.
Lemma int_iff x z : int_of x = Some z <-> integer x z.
Proof.
  unfold int_of, integer. split.
  - destruct x as [[]|? ?|? ?]; try discriminate. destruct int; [|discriminate]. intros E; injection E as <-. eauto.
  - intros (d & -> & ->). reflexivity.
Qed.
Lemma low_bits_iff z n : n = as_u16 z <-> low_bits z n.
Proof.
  unfold as_u16, low_bits. split.
  - intros ->. split; [apply Z.mod_pos_bound; lia|]. exists (z / 65536)%Z. pose proof (Z.div_mod z 65536 ltac:(lia)). lia.
  - intros [H [k ->]]. rewrite (Z.mul_comm 65536 k), Z_mod_plus_full. symmetry. apply Z.mod_small, H.
Qed.
Definition is_repetition (x : tree) (r : repetition) : Prop :=
  (exists z n, integer x z /\ low_bits z n /\ r = RCount n) \/ (word x "auto-fill" /\ r = AutoFill) \/ (word x "auto-fit" /\ r = AutoFit).
Lemma repetition_iff x r : parse_repetition x = Some r <-> is_repetition x r.
Proof.
  split.
  - unfold parse_repetition. destruct x as [y|? ?|? ?]; try discriminate. destruct y; try discriminate.
    + intros E. apply lookup_iff in E as (k & Hi & Hs); [|names]. cbn in Hi. repeat destruct Hi as [Hi|Hi]; try contradiction; injection Hi as <- <-; right; [left|right]; split; try reflexivity; exists s; auto.
    + destruct (int_of _) as [z|] eqn:E; [|discriminate]. intros E'; injection E' as <-. left. exists z, (as_u16 z). split; [apply int_iff, E|]. split; [apply low_bits_iff; reflexivity|reflexivity].
  - intros [(z & n & Hz & Hn & ->)|[[(s & -> & Hs) ->]|[(s & -> & Hs) ->]]].
    + pose proof Hz as (d & -> & _). cbn [parse_repetition]. apply int_iff in Hz. apply low_bits_iff in Hn. rewrite Hz, Hn. reflexivity.
    + cbn [parse_repetition]. apply lookup_iff; [names|]. exists "auto-fill"%string. cbn. auto.
    + cbn [parse_repetition]. apply lookup_iff; [names|]. exists "auto-fit"%string. cbn. auto.
Qed.
Lemma repeated_iff x v : parse_repeated x = Some v <-> is_repeated low_bits x v.
Proof.
  assert (Hone : forall x, match x with Fun s _ => ~ spells s "repeat" | _ => True end -> forall v, option_map (fun k => (Once, [k])) (parse_track x) = Some v <-> is_repeated low_bits x v).
  { clear. intros x Hx v. split.
    - destruct (parse_track x) as [k|] eqn:E; [|discriminate]. intros E'; injection E' as <-. constructor. apply track_iff, E.
    - intros H0. revert Hx. destruct H0 as [x' v' H|x' a l z n ts (s & -> & Hs)|x' a l ts (s & -> & Hs)|x' a l ts (s & -> & Hs)]; intros Hx; try contradiction. apply track_iff in H. rewrite H. reflexivity. }
  destruct x as [y|s l|b l]; [apply Hone; exact I| |apply Hone; exact I]. cbn [parse_repeated]. destruct (same_name s (tx "repeat")) eqn:E; [|apply same_spells_f in E; apply Hone; exact E]. apply same_spells in E.
  assert (Hno : forall v', ~ is_track (Fun s l) v').
  { intros v' H. inversion H; subst; [eapply size_not_fun; eassumption|..]; match goal with H : call _ ?k _ |- _ => destruct H as (s0 & E0 & H0); assert (s0 = s) by congruence; subst s0; pose proof (spells_det _ _ _ E H0) as Eb; vm_compute in Eb; discriminate end. }
  split.
  - unfold parse_repeat_args. destruct l as [|a [|[[]|? ?|? ?] r]]; try discriminate. destruct (parse_repetition a) as [n|] eqn:En; cbn [bind]; [|discriminate]. destruct (parse_many parse_track r) as [[ts []]|] eqn:Em; [|discriminate|discriminate].
    intros E'; injection E' as <-. apply repetition_iff in En. apply (many_iff parse_track is_track track_iff) in Em as [Hne Hf].
    destruct En as [(z & k & Hz & Hk & ->)|[[Hw ->]|[Hw ->]]]; econstructor; eauto; exists s; auto.
  - intros H. assert (Hx : exists a r n ts, l = a :: comma :: r /\ is_repetition a n /\ ts <> [] /\ Forall2 is_track r ts /\ v = (n, ts)).
    { inversion H as [x' v' Ht|x' a r z n ts (s0 & E0 & Hs) Hz Hk Hne Hf|x' a r ts (s0 & E0 & Hs) Hw Hne Hf|x' a r ts (s0 & E0 & Hs) Hw Hne Hf]; subst; [exfalso; eapply Hno; exact Ht|..]; injection E0 as <- ->; eexists a, r, _, ts; split; try reflexivity; unfold is_repetition; eauto 10. }
    destruct Hx as (a & r & n & ts & -> & Hn & Hne & Hf & ->). unfold comma. cbn [parse_repeat_args]. apply repetition_iff in Hn. rewrite Hn. cbn [bind].
    assert (Em : parse_many parse_track r = Some (ts, [])) by (apply (many_iff parse_track is_track track_iff); auto). rewrite Em. reflexivity.
Qed.
Lemma repeated_not_word counts x v k : is_repeated counts x v -> word x k -> In (map lower (tx k)) (map (fun k => map lower (tx k)) ["auto"; "min-content"; "max-content"]%string).
Proof. intros [x' v' H|x' a l z n ts (s & -> & Hs)|x' a l ts (s & -> & Hs)|x' a l ts (s & -> & Hs)] Hw; [eapply track_not_word; eauto|..]; destruct Hw as (s' & E & _); discriminate. Qed.
Lemma template_iff l vs : parse_repeated_grid_track_vec l = Some (vs, []) <-> is_template low_bits l vs.
Proof.
  unfold parse_repeated_grid_track_vec. rewrite (or_none_iff _ (is_repeated low_bits)).
  - split; [intros [(x & Hw & -> & ->)|[H H']]; constructor; assumption|]. intros [x Hw|l' ts H H']; eauto.
  - apply many_iff, repeated_iff.
  - intros x v Hw Ht. pose proof (repeated_not_word _ _ _ _ Ht Hw) as Hb. bad_word Hb.
Qed.
Lemma template_correct l v : declared_value parse_repeated_grid_track_vec l = Some v <-> is_value (is_template low_bits) l v.
Proof.
  apply declared_iff; [apply template_iff|]. intros l0 w [x Hw|l' ts Hne Hf]; [apply none_not_keyword, Hw|]. destruct Hf as [|x v' l1 l2 H Hf]; [contradiction|].
  apply not_keyword. intros (s & k & -> & Hi & Hs). cbn in Hi. repeat destruct Hi as [Hi|Hi]; try contradiction; subst k;
    match type of Hs with spells _ ?k => pose proof (repeated_not_word _ _ _ k H (proj2 (word_ident s k) Hs)) as Hb; bad_word Hb end.
Qed.

Lemma non_zero_iff lo hi z w : non_zero lo hi z = Some w <-> w = z /\ (lo <= z <= hi)%Z /\ z <> 0%Z.
Proof.
  unfold non_zero. destruct (Z.eqb_spec z 0), (Z.ltb_spec z lo), (Z.ltb_spec hi z); cbn; split; try discriminate; try lia; try (intros E; injection E as <-; repeat split; lia). intros (-> & _). reflexivity.
Qed.
Lemma line_iff x a : line x = Some a <-> integer x a /\ (-32768 <= a <= 32767)%Z /\ a <> 0%Z.
Proof.
  unfold line. split.
  - destruct (int_of x) as [z|] eqn:E; [|discriminate]. cbn. intros H. apply non_zero_iff in H as (-> & H & H'). apply int_iff in E. auto.
  - intros (H & H1 & H2). apply int_iff in H. rewrite H. apply non_zero_iff. auto.
Qed.
Lemma span_iff x a : span x = Some a <-> integer x a /\ (1 <= a <= 65535)%Z.
Proof.
  unfold span. split.
  - destruct (int_of x) as [z|] eqn:E; [|discriminate]. cbn. intros H. apply non_zero_iff in H as (-> & H & H'). apply int_iff in E. split; [exact E|lia].
  - intros (H & H1). apply int_iff in H. rewrite H. apply non_zero_iff. repeat split; lia.
Qed.
Lemma placement_iff l v : parse_grid_placement l = Some (v, []) <-> is_placement l v.
Proof.
  split.
  - unfold parse_grid_placement. destruct l as [|x r]; [discriminate|]. destruct (line x) as [a|] eqn:Ea; cbn [bind]; [|discriminate]. apply line_iff in Ea as (Ha & H1 & H2).
    assert (Hbad : forall y r0, Some (Start a, y :: r0) = Some (v, []) -> is_placement (x :: y :: r0) v) by (intros y r0 E; injection E as _ E; discriminate).
    destruct r as [|[[]|? ?|? ?] r1]; try apply Hbad; [intros E; injection E as <-; constructor; assumption|].
    destruct (Ascii.eqb c "/") eqn:Ec; [|apply Hbad]. apply Ascii.eqb_eq in Ec. subst c.
    assert (Hend : forall y r2, match line y with Some b => Some (StartEnd a b, r2) | None => Some (Start a, Leaf (TDelim "/"%char) :: y :: r2) end = Some (v, []) -> is_placement (x :: Leaf (TDelim "/"%char) :: y :: r2) v).
    { intros y r2. destruct (line y) as [b|] eqn:Eb; [|apply Hbad]. intros E; injection E as <- ->. apply line_iff in Eb as (Hb & H3 & H4). apply ipl_end; assumption. }
    destruct r1 as [|[[]|? ?|? ?] r2]; try apply Hbad; try apply Hend. destruct r2 as [|y r3]; [apply Hend|]. destruct (same_name s (tx "span")) eqn:Es; [|apply Hbad]. apply same_spells in Es.
    destruct (span y) as [n|] eqn:En; [|apply Hbad]. intros E; injection E as <- ->. apply span_iff in En as (Hn & H3). apply ipl_span; try assumption. exists s. auto.
  - intros [x a Ha H1 H2|x y a b Ha Hb H1 H2 H3 H4|x w y a n Ha (s & -> & Hs) Hn H1 H2 H3]; cbn [parse_grid_placement].
    + assert (E : line x = Some a) by (apply line_iff; auto). rewrite E. reflexivity.
    + assert (E : line x = Some a) by (apply line_iff; auto). assert (E' : line y = Some b) by (apply line_iff; auto). rewrite E. unfold slash. cbn [bind Ascii.eqb Bool.eqb]. destruct Hb as (d & -> & _). rewrite E'. reflexivity.
    + assert (E : line x = Some a) by (apply line_iff; auto). assert (E' : span y = Some n) by (apply span_iff; auto). apply same_spells in Hs. rewrite E. unfold slash. cbn [bind Ascii.eqb Bool.eqb]. rewrite Hs, E'. reflexivity.
Qed.
Lemma placement_correct l v : declared_value parse_grid_placement l = Some v <-> is_value is_placement l v.
Proof. apply declared_iff; [apply placement_iff|]. intros l0 w [x a (d & -> & _)|x y a b (d & -> & _)|x w0 y a n (d & -> & _)]; reflexivity. Qed.

(** ** Box shadows *)
Section Shadows.
  Context {color : Type} (color_of : tree -> option color) (calc : list tree -> option val) (dc : color) (dv : val).
  Hypothesis Hdisj : forall x v, with_calc calc is_val x v -> color_of x = None.
  Hypothesis Hcomma : color_of comma = None.
  Notation pv := (parse_calc calc parse_val).
  Lemma val_calc_iff x v : pv x = Some v <-> with_calc calc is_val x v.
  Proof. apply parse_calc_iff; [apply parse_val_iff|reflexivity]. Qed.
  Lemma color_not_val x : color_of x <> None -> pv x = None.
  Proof. intros H. destruct (pv x) as [v|] eqn:E; [|reflexivity]. apply val_calc_iff in E. apply Hdisj in E. contradiction. Qed.
  Lemma vals_upto_sound : forall n l vs rest, vals_upto calc n l = (vs, rest) -> exists xs, l = xs ++ rest /\ Forall2 (with_calc calc is_val) xs vs /\ length vs <= n.
  Proof.
    induction n as [|n IH]; intros l vs rest; cbn [vals_upto].
    - intros E. injection E as <- <-. exists []. cbn. split; [reflexivity|split; [constructor|lia]].
    - destruct l as [|x r].
      + intros E. injection E as <- <-. exists []. cbn. split; [reflexivity|split; [constructor|lia]].
      + destruct (pv x) as [v|] eqn:Ev.
        * destruct (vals_upto calc n r) as [ws rest'] eqn:Er. intros E. injection E as <- <-. destruct (IH _ _ _ Er) as (xs & -> & Hf & Hl). exists (x :: xs). cbn. split; [reflexivity|split; [|lia]].
          constructor; [apply val_calc_iff, Ev|exact Hf].
        * intros E. injection E as <- <-. exists []. cbn. split; [reflexivity|split; [constructor|lia]].
  Qed.
  Definition no_val (l : list tree) : Prop := match l with [] => True | x :: _ => pv x = None end.
  Lemma vals_upto_complete xs vs rest : Forall2 (with_calc calc is_val) xs vs -> no_val rest -> forall n, length vs <= n -> vals_upto calc n (xs ++ rest) = (vs, rest).
  Proof.
    intros Hf Hr. induction Hf as [|x v xs vs Hx Hf IH]; intros n Hn; cbn [app].
    - destruct n as [|n]; [reflexivity|]. cbn [vals_upto]. destruct rest as [|y r]; [reflexivity|]. cbn in Hr. rewrite Hr. reflexivity.
    - cbn in Hn. destruct n as [|n]; [lia|]. cbn [vals_upto]. apply val_calc_iff in Hx. rewrite Hx, IH by lia. reflexivity.
  Qed.
  Lemma opt_color_sound l c rest : opt_color color_of l = (c, rest) -> exists pre, l = pre ++ rest /\ match c with Some c => exists x, pre = [x] /\ color_of x = Some c | None => pre = [] end.
  Proof.
    unfold opt_color. destruct l as [|x r]; [intros E; injection E as <- <-; exists []; auto|]. destruct (color_of x) as [c'|] eqn:Ec; intros E; injection E as <- <-; [exists [x]; split; [reflexivity|]; eauto|exists []; auto].
  Qed.
  Lemma shadow_sound l s rest : parse_shadow color_of calc dc dv l = Some (s, rest) -> exists l0, l = l0 ++ rest /\ is_shadow color_of calc dc dv true l0 s.
  Proof.
    unfold parse_shadow. destruct (opt_color color_of l) as [c1 l1] eqn:E1. apply opt_color_sound in E1 as (pre & -> & Hpre). destruct l1 as [|a [|b l2]]; try discriminate.
    destruct (pv a) as [x|] eqn:Ea; cbn [bind]; [|discriminate]. destruct (pv b) as [y|] eqn:Eb; cbn [bind]; [|discriminate].
    destruct (vals_upto calc 2 l2) as [more l3] eqn:Em. apply vals_upto_sound in Em as (xs & -> & Hf & Hl). destruct (opt_color color_of l3) as [c2 l4] eqn:E2. apply opt_color_sound in E2 as (post & -> & Hpost).
    apply val_calc_iff in Ea, Eb. intros E.
    assert (Hr : rest = l4) by (destruct more as [|m1 [|m2 [|m3 mm]]]; try discriminate; injection E as _ <-; reflexivity). subst rest.
    exists (pre ++ (a :: b :: xs) ++ post). split; [rewrite <- !app_assoc; cbn; rewrite <- ?app_assoc; reflexivity|].
    apply (ish color_of calc dc dv true pre (x :: y :: more) post (match c2 with Some c => c | None => match c1 with Some c => c | None => dc end end)).
    - destruct c1; [destruct Hpre as (? & -> & _)|subst pre]; cbn; lia.
    - destruct c2; [destruct Hpost as (? & -> & _)|subst post]; cbn; lia.
    - discriminate.
    - constructor; [exact Ea|constructor; [exact Eb|exact Hf]].
    - destruct c2; [destruct Hpost as (z & -> & Hz); exact Hz|subst post]. destruct c1; [destruct Hpre as (z & -> & Hz); exact Hz|subst pre; reflexivity].
    - destruct c1; [destruct Hpre as (z & -> & Hz)|subst pre]; [constructor; [congruence|constructor]|constructor].
    - destruct more as [|m1 [|m2 [|m3 mm]]]; try discriminate; injection E as <-; reflexivity.
  Qed.
  Definition stops (l : list tree) : Prop := match l with [] => True | x :: _ => x = comma end.
  Lemma stops_no_val l : stops l -> no_val l. Proof. destruct l; cbn; [auto|intros ->; reflexivity]. Qed.
  Lemma shadow_complete l s rest : is_shadow color_of calc dc dv true l s -> stops rest -> parse_shadow color_of calc dc dv (l ++ rest) = Some (s, rest).
  Proof.
    intros [pre vs post c xs Hpre Hpost _ Hf Hc Hpc s' Hs] Hst. unfold parse_shadow.
    assert (Ht : opt_color color_of (post ++ rest) = (match post with [_] => Some c | _ => None end, rest) /\ no_val (post ++ rest)).
    { destruct post as [|p [|? ?]]; cbn in Hpost; try lia; cbn [app].
      - split; [|apply stops_no_val, Hst]. destruct rest as [|y r]; [reflexivity|]. cbn in Hst. subst y. cbn [opt_color]. rewrite Hcomma. reflexivity.
      - cbn [opt_color]. rewrite Hc. split; [reflexivity|]. cbn. apply color_not_val. congruence. }
    destruct Ht as [Ht Hnv].
    assert (Hvs : exists a b xs' x y more, xs = a :: b :: xs' /\ vs = x :: y :: more /\ with_calc calc is_val a x /\ with_calc calc is_val b y /\ Forall2 (with_calc calc is_val) xs' more /\ length more <= 2).
    { destruct Hf as [|a x xs vs Ha Hf]; [contradiction|]. destruct Hf as [|b y xs vs Hb Hf]; [contradiction|]. exists a, b, xs, x, y, vs. repeat split; try assumption. destruct vs as [|? [|? [|? ?]]]; cbn; try lia; contradiction. }
    destruct Hvs as (a & b & xs' & x & y & more & -> & -> & Ha & Hb & Hm & Hlen).
    assert (Hh : opt_color color_of ((pre ++ (a :: b :: xs') ++ post) ++ rest) = (match pre with [p] => color_of p | _ => None end, a :: b :: xs' ++ post ++ rest)).
    { destruct pre as [|p [|? ?]]; cbn in Hpre; try lia; cbn [app]; cbn [opt_color].
      - rewrite (Hdisj a x Ha). rewrite <- !app_assoc. reflexivity.
      - inversion Hpc as [|? ? Hp _]; subst. destruct (color_of p) as [cp|]; [|contradiction]. rewrite <- !app_assoc. reflexivity. }
    rewrite Hh. apply val_calc_iff in Ha, Hb. rewrite Ha, Hb. cbn [bind]. rewrite (vals_upto_complete xs' more (post ++ rest) Hm Hnv 2 Hlen), Ht.
    assert (Hcol : match match post with [_] => Some c | _ => None end with Some c => c | None => match match pre with [p] => color_of p | _ => None end with Some c => c | None => dc end end = c).
    { destruct post as [|p [|? ?]]; cbn in Hpost; try lia; [|reflexivity]. destruct pre as [|q [|? ?]]; cbn in Hpre; try lia; [congruence|]. rewrite Hc. reflexivity. }
    rewrite Hcol. destruct more as [|m1 [|m2 [|m3 mm]]]; subst; try reflexivity; contradiction.
  Qed.
  Lemma shadow_len l s : is_shadow color_of calc dc dv true l s -> 1 <= length l.
  Proof. intros [pre vs post c xs Hpre Hpost _ Hf Hc Hpc s' Hs]. destruct Hf; [contradiction|]. rewrite !app_length. cbn. lia. Qed.
  Lemma more_sound : forall fuel l ss, more_shadows color_of calc dc dv fuel l = (ss, []) -> l = [] /\ ss = [] \/ exists r, l = comma :: r /\ is_shadows color_of calc dc dv true r ss.
  Proof.
    induction fuel as [|fuel IH]; intros l ss; cbn [more_shadows]; [intros E; injection E as <- ->; auto|].
    destruct l as [|z r]; [intros E; injection E as <-; auto|]. destruct z as [y|? ?|? ?]; [|intros E; injection E as <- E; discriminate..]. destruct y; try (intros E; injection E as <- E; discriminate).
    destruct (parse_shadow color_of calc dc dv r) as [[s rest]|] eqn:Es; [|intros E; injection E as _ E; discriminate].
    destruct (more_shadows color_of calc dc dv fuel rest) as [ss' rest'] eqn:Em. intros E. injection E as <- ->. right. exists r. split; [reflexivity|]. apply shadow_sound in Es as (l0 & -> & Hs).
    destruct (IH _ _ Em) as [[-> ->]|(r & -> & Hr)]; [rewrite app_nil_r; constructor; exact Hs|constructor; assumption].
  Qed.
  Lemma more_complete l ss : is_shadows color_of calc dc dv true l ss -> forall fuel, length l < fuel -> more_shadows color_of calc dc dv fuel (comma :: l) = (ss, []).
  Proof.
    induction 1 as [l s H|l s r ss H Hr IH]; intros fuel Hfu; (destruct fuel as [|fuel]; [lia|]); unfold comma at 1; cbn [more_shadows].
    - pose proof (shadow_complete l s [] H I) as E. rewrite app_nil_r in E. rewrite E. destruct fuel; reflexivity.
    - rewrite (shadow_complete l s (comma :: r) H eq_refl). rewrite app_length in Hfu. cbn in Hfu. pose proof (shadow_len l s H). rewrite IH by lia. reflexivity.
  Qed.
  Lemma box_shadow_iff l ss : parse_box_shadow color_of calc dc dv l = Some (ss, []) <-> is_shadows color_of calc dc dv true l ss.
  Proof.
    unfold parse_box_shadow. split.
    - destruct (parse_shadow color_of calc dc dv l) as [[s rest]|] eqn:Es; [|discriminate]. cbn [option_map fst snd]. destruct (more_shadows _ _ _ _ _ _) as [ss' rest'] eqn:Em. intros E. injection E as <- ->.
      apply shadow_sound in Es as (l0 & -> & Hs). destruct (more_sound _ _ _ Em) as [[-> ->]|(r & -> & Hr)]; [rewrite app_nil_r; constructor; exact Hs|constructor; assumption].
    - intros [l' s H|l' s r ss' H Hr].
      + pose proof (shadow_complete l' s [] H I) as E. rewrite app_nil_r in E. rewrite E. cbn [option_map fst snd]. destruct (length l'); reflexivity.
      + rewrite (shadow_complete l' s (comma :: r) H eq_refl). cbn [option_map fst snd]. rewrite (more_complete r ss' Hr); [reflexivity|]. rewrite app_length. cbn. pose proof (shadow_len l' s H). lia.
  Qed.
  Hypothesis Hkey : forall s k, In k ["unset"; "inherit"; "initial"]%string -> spells s k -> color_of (Leaf (TIdent s)) = None.
  Lemma shadow_not_keyword {X} l s r : is_shadow color_of calc dc dv true l s -> @global_keyword X (l ++ r) = None.
  Proof.
    intros [pre vs post c xs Hpre Hpost _ Hf Hc Hpc s' Hs]. destruct pre as [|p pre].
    - destruct Hf as [|a x xs vs Ha Hf]; [contradiction|]. cbn [app]. eapply calc_not_keyword; [exact Ha|]. apply val_not_keyword.
    - cbn [app]. apply not_keyword. intros (s0 & k & -> & Hi & Hk). inversion Hpc as [|? ? Hp _]; subst. apply Hp. eapply Hkey; eassumption.
  Qed.
  Lemma box_shadow_correct l v : declared_value (parse_box_shadow color_of calc dc dv) l = Some v <-> is_value (is_shadows color_of calc dc dv true) l v.
  Proof.
    apply declared_iff; [apply box_shadow_iff|]. intros l0 w [l' s H|l' s r ss H _]; [rewrite <- (app_nil_r l')|]; eapply shadow_not_keyword; exact H.
  Qed.
End Shadows.
