(** C60: calc() of lengths; C61: calc() of numbers and of angles; C62: calc() never crashes the parser. *)
From Coq Require Import QArith Qround Lqa.
From Verif Require Import Base Calc CalcSpec CalcProofs.

Lemma grammar_ext (P Q : leaf -> Prop) : (forall x, P x <-> Q x) ->
  (forall ts e, is_item P ts e -> is_item Q ts e) /\ (forall ts e, is_product P ts e -> is_product Q ts e) /\ (forall ts e, is_sum P ts e -> is_sum Q ts e).
Proof. intros H. apply grammar_ind; intros; try (constructor; assumption). constructor. apply H. assumption. Qed.
Lemma is_length_value x : is_length x <-> exists t, parse_val x = Some t.
Proof.
  unfold is_length. destruct x as [q|q|q []| | |]; cbn; split; intros H; eauto; try (destruct H as [H|[? H]]; discriminate); try (destruct H; discriminate).
Qed.
Lemma is_number_value x : is_number x <-> exists t, parse_f32 x = Some t.
Proof. unfold is_number. destruct x as [q|q|q []| | |]; cbn; split; intros H; eauto; try (destruct H as [? [H|H]]; discriminate); try (destruct H; discriminate). Qed.
Lemma is_angle_value rho x : is_angle x <-> exists t, parse_angle rho x = Some t.
Proof.
  unfold is_angle. split.
  - intros [->|[(q & -> & Hq)|(q & u & -> & Hu)]]; [cbn; eauto| |].
    + cbn. apply Qeq_bool_iff in Hq. rewrite Hq. eauto.
    + destruct Hu as [->|[->|[->| ->]]]; cbn; eauto.
  - intros [t H]. destruct x as [q|q|q u| | |]; try discriminate; auto.
    + cbn in H. destruct (Qeq_bool q 0) eqn:E; [|discriminate]. apply Qeq_bool_iff in E. eauto.
    + right. right. exists q, u. split; [reflexivity|]. destruct u; cbn in H; try discriminate; auto.
Qed.

Definition val_means (v : val) (d : lunit -> Q) : Prop := v <> VAuto /\ forall u, val_worth v u == d u.
Lemma zero_worth a : is_zero a = true -> a <> VAuto /\ forall u, val_worth a u == 0.
Proof. intros H. destruct a; try discriminate; (split; [discriminate|]); apply Qeq_bool_iff in H; intros []; cbn; try reflexivity; exact H. Qed.
Lemma val_means_add a b c x y : val_add a b = Some c -> val_means a x -> val_means b y -> val_means c (fun u => x u + y u).
Proof.
  intros H [Na Ha] [Nb Hb]. unfold val_add in H. destruct (is_zero a) eqn:Za; [|destruct (is_zero b) eqn:Zb].
  - injection H as <-. destruct (zero_worth a Za) as [_ Z]. split; [exact Nb|]. intros u. rewrite <- Ha, Z, <- Hb. ring.
  - injection H as <-. destruct (zero_worth b Zb) as [_ Z]. split; [exact Na|]. intros u. rewrite <- Hb, Z, <- Ha. ring.
  - destruct a, b; try discriminate; injection H as <-; (split; [discriminate|]); intros u; rewrite <- Ha, <- Hb; destruct u; cbn; ring.
Qed.
Lemma val_map_worth f v u : v <> VAuto -> f 0 == 0 -> val_worth (val_map f v) u == f (val_worth v u).
Proof. intros N Z. destruct v; try contradiction; destruct u; cbn; try reflexivity; symmetry; exact Z. Qed.
Lemma val_map_auto f v : v <> VAuto -> val_map f v <> VAuto.
Proof. destruct v; cbn; intros H; try discriminate. exact H. Qed.
Lemma val_means_map f v d (g : Q -> Q) : (forall q, f q == g q) -> (forall a b, a == b -> g a == g b) -> f 0 == 0 -> val_means v d -> val_means (val_map f v) (fun u => g (d u)).
Proof.
  intros E P Z [N H]. split; [apply val_map_auto; exact N|]. intros u. rewrite (val_map_worth f v u N Z). rewrite E. apply P, H.
Qed.
Lemma val_means_sub a b c x y : val_sub a b = Some c -> val_means a x -> val_means b y -> val_means c (fun u => x u - y u).
Proof.
  intros H Ha Hb. unfold val_sub in H. apply (val_means_add _ _ _ x (fun u => - y u)) in H; [|exact Ha|].
  - destruct H as [N H]. split; [exact N|]. intros u. rewrite H. ring.
  - apply (val_means_map Qopp b y Qopp); [reflexivity|intros p q E; rewrite E; reflexivity|reflexivity|exact Hb].
Qed.
Lemma val_means_leaf x t : x <> LAuto -> parse_val x = Some t -> val_means t (length_worth x).
Proof.
  intros N H. destruct x as [q|q|q []| | |]; cbn in H; try discriminate; try contradiction; injection H as <-; (split; [discriminate|]); intros []; reflexivity.
Qed.
Lemma val_sound a e v : arep parse_val a e -> divides e -> (forall x, In x (leaves e) -> x <> LAuto) -> calc_value (VPx 0) val_add val_sub val_mul a = Some v ->
  forall u, val_worth v u == eval length_worth e u.
Proof.
  intros Ha D L H. eapply (proj1 (rep_sound parse_val (VPx 0) val_add val_sub val_mul length_worth val_means true true _ _ _ _ _)); eauto.
  - split; auto.
  - intros x t Hx. apply val_means_leaf, L, Hx.
  Unshelve.
  + intros w d d' E [N G]. split; [exact N|]. intros u. rewrite G. apply E.
  + split; [discriminate|]. intros []; reflexivity.
  + exact val_means_add.
  + intros _. exact val_means_sub.
  + intros b q d _ G. apply (val_means_map (fun p => p * q) b d (fun p => p * q)); [reflexivity|intros p p' E; rewrite E; reflexivity|ring|exact G].
Qed.

(** C60. What is accepted is a calc expression of lengths, and the length returned is worth, in every unit, what the expression is. *)
Theorem C60_worth : forall l rest v rest',
  parse_calc_val (CalcFn l :: rest) = Ok (v, rest') ->
  rest' = rest /\ exists e, is_sum is_length l e /\
    (divides e -> (forall x, In x (leaves e) -> x <> LAuto) -> forall u, val_worth v u == eval length_worth e u).
Proof.
  intros l rest v rest' H. unfold parse_calc_val, parse_calc_value, parse_calc_or_value in H.
  destruct (parse_sum parse_val (enough l) l) as [a| | |] eqn:E; try discriminate. cbn [bind] in H.
  destruct (calc_value (VPx 0) val_add val_sub val_mul a) as [w|] eqn:Ew; [|discriminate]. injection H as <- <-. split; [reflexivity|].
  destruct (proj1 (proj2 (proj2 (parser_sound parse_val (enough l)))) l a E) as (e & He & Ha). exists e. split.
  - apply (grammar_ext _ is_length (fun x => iff_sym (is_length_value x))). exact He.
  - intros D L. apply (val_sound a e w Ha D L Ew).
Qed.

Definition of_unit (v : val) : option lunit :=
  match v with VAuto => None | VPx _ => Some Px | VPercent _ => Some Percent | VVw _ => Some Vw | VVh _ => Some Vh | VVmin _ => Some Vmin | VVmax _ => Some Vmax end.
Definition val_good (u : lunit) (v : val) : Prop := is_zero v = true \/ of_unit v = Some u.
Lemma val_good_map u f v : (forall q, q == 0 -> f q == 0) -> val_good u v -> val_good u (val_map f v).
Proof.
  intros Z [H|H]; destruct v; try discriminate; unfold val_good; cbn in *; auto; left; apply Qeq_bool_iff; apply Z; apply Qeq_bool_iff; exact H.
Qed.
Lemma val_good_add u a b : val_good u a -> val_good u b -> exists c, val_add a b = Some c /\ val_good u c.
Proof.
  intros Ha Hb. unfold val_add. destruct (is_zero a) eqn:Za; [eauto|]. destruct (is_zero b) eqn:Zb; [eauto|].
  destruct Ha as [Ha|Ha]; [congruence|]. destruct Hb as [Hb|Hb]; [congruence|].
  destruct a, b; cbn in Ha, Hb; try discriminate; try congruence; (eexists; split; [reflexivity|]); right; cbn; congruence.
Qed.
(** C60. Every calc expression of lengths of one unit (zeros aside) is accepted and evaluated. *)
Theorem C60_accepts : forall l e u rest,
  is_sum is_length l e -> divides e ->
  (forall x, In x (leaves e) -> exists q u', length_of x = Some (q, u') /\ (u' = u \/ q == 0)) ->
  exists v, parse_calc_val (CalcFn l :: rest) = Ok (v, rest) /\ forall u', val_worth v u' == eval length_worth e u'.
Proof.
  intros l e u rest H D L. apply (grammar_ext _ _ is_length_value) in H. destruct (sum_accepted parse_val l e H) as (a & Ha & E).
  assert (G : exists v, calc_value (VPx 0) val_add val_sub val_mul a = Some v /\ val_good u v).
  { apply (proj1 (rep_total parse_val (VPx 0) val_add val_sub val_mul (val_good u) ltac:(left; reflexivity) (val_good_add u)
      ltac:(intros x y Hx Hy; apply val_good_add; [exact Hx|apply val_good_map; [intros q Eq; rewrite Eq; reflexivity|exact Hy]])
      ltac:(intros x q Hx; apply val_good_map; [intros p Ep; rewrite Ep; ring|exact Hx])) a e Ha).
    intros x t Hx Ht. destruct (L x Hx) as (q & u' & El & Hu). destruct x as [p|p|p []| | |]; cbn in El, Ht; try discriminate; injection El as <- <-; injection Ht as <-;
      (destruct Hu as [<-|Hu]; [right; reflexivity|left; cbn; apply Qeq_bool_iff; exact Hu]). }
  destruct G as (v & Ev & _). exists v. split.
  - unfold parse_calc_val, parse_calc_value, parse_calc_or_value. rewrite E. cbn [bind]. rewrite Ev. reflexivity.
  - apply (val_sound a e v Ha D); [|exact Ev]. intros x Hx ->. destruct (L _ Hx) as (q & u' & El & _). discriminate.
Qed.

(** C61: numbers. Without subtraction the result is right ... *)
Theorem C61_number_partial : forall l e rest, is_sum is_number l e -> divides e -> no_sub e ->
  exists v, parse_calc_f32 (CalcFn l :: rest) = Ok (v, rest) /\ v == eval number_worth e tt.
Proof.
  intros l e rest H D S. apply (grammar_ext _ _ is_number_value) in H. destruct (sum_accepted parse_f32 l e H) as (a & Ha & E).
  destruct (proj1 (rep_total parse_f32 0 f32_add f32_sub Qmult (fun _ => True) I ltac:(intros; eexists; split; [reflexivity|exact I])
    ltac:(intros; eexists; split; [reflexivity|exact I]) ltac:(auto)) a e Ha ltac:(intros; exact I)) as (v & Ev & _).
  exists v. split; [unfold parse_calc_f32, parse_calc_value, parse_calc_or_value; rewrite E; cbn [bind]; rewrite Ev; reflexivity|].
  refine (proj1 (rep_sound parse_f32 0 f32_add f32_sub Qmult number_worth (fun v d => v == d tt) false true _ _ _ _ _) a e Ha D _ _ v Ev).
  - intros w d d' G Hw. rewrite Hw. apply G.
  - reflexivity.
  - intros x y z dx dy G Hx Hy. injection G as <-. rewrite Hx, Hy. reflexivity.
  - discriminate.
  - intros x q d _ Hx. rewrite Hx. reflexivity.
  - split; auto.
  - intros x t _ Hx. destruct x as [q|q|q []| | |]; cbn in Hx; try discriminate; injection Hx as <-; reflexivity.
Qed.
(** ... with it the result is wrong: `calc(5 - 3)` is 8 *)
Theorem C61_number_sub_refuted :
  is_sum is_number [Leaf (LNumber 5); Minus; Leaf (LNumber 3)] (ESub (ELeaf (LNumber 5)) (ELeaf (LNumber 3))) /\
  eval number_worth (ESub (ELeaf (LNumber 5)) (ELeaf (LNumber 3))) tt == 2 /\
  exists v, parse_calc_f32 [CalcFn [Leaf (LNumber 5); Minus; Leaf (LNumber 3)]] = Ok (v, []) /\ v == 8.
Proof.
  split; [|split].
  - apply (sum_sub is_number [Leaf (LNumber 5)] [Leaf (LNumber 3)]); repeat constructor; eexists; eauto.
  - reflexivity.
  - eexists. split; [vm_compute; reflexivity|reflexivity].
Qed.

Lemma wrap_same q : same_rotation (wrap q) q.
Proof. exists (- Qceiling (q - (1 # 2)))%Z. unfold wrap. rewrite inject_Z_opp. ring. Qed.
Lemma same_refl q : same_rotation q q.
Proof. exists 0%Z. change (inject_Z 0) with 0. ring. Qed.
Lemma same_trans a b c : same_rotation a b -> same_rotation b c -> same_rotation a c.
Proof. intros [k H] [j G]. exists (j + k)%Z. rewrite inject_Z_plus, H, G. ring. Qed.
Lemma same_eq a b c : same_rotation a b -> b == c -> same_rotation a c.
Proof. intros [k H] E. exists k. rewrite H, E. reflexivity. Qed.
Lemma same_add a b x y : same_rotation a x -> same_rotation b y -> same_rotation (a + b) (x + y).
Proof. intros [k H] [j G]. exists (k + j)%Z. rewrite inject_Z_plus, H, G. ring. Qed.
Lemma same_sub a b x y : same_rotation a x -> same_rotation b y -> same_rotation (a - b) (x - y).
Proof. intros [k H] [j G]. exists (k - j)%Z. unfold Z.sub. rewrite inject_Z_plus, inject_Z_opp, H, G. ring. Qed.
(** C61: angles. Sums and differences are the right rotation, whatever the units ... *)
Theorem C61_angle_partial : forall rho l e rest, is_sum is_angle l e -> no_scaling e -> divides e ->
  exists v, parse_calc_angle rho (CalcFn l :: rest) = Ok (v, rest) /\ same_rotation v (eval (angle_worth rho) e tt).
Proof.
  intros rho l e rest H S D. apply (grammar_ext _ _ (is_angle_value rho)) in H. destruct (sum_accepted (parse_angle rho) l e H) as (a & Ha & E).
  destruct (proj1 (rep_total (parse_angle rho) 0 rot_add rot_sub rot_mul (fun _ => True) I ltac:(intros; eexists; split; [reflexivity|exact I])
    ltac:(intros; eexists; split; [reflexivity|exact I]) ltac:(auto)) a e Ha ltac:(intros; exact I)) as (v & Ev & _).
  exists v. split; [unfold parse_calc_angle, parse_calc_value, parse_calc_or_value; rewrite E; cbn [bind]; rewrite Ev; reflexivity|].
  refine (proj1 (rep_sound (parse_angle rho) 0 rot_add rot_sub rot_mul (angle_worth rho) (fun v d => same_rotation v (d tt)) true false _ _ _ _ _) a e Ha D _ _ v Ev).
  - intros w d d' G Hw. exact (same_eq _ _ _ Hw (G tt)).
  - apply same_refl.
  - intros x y z dx dy G Hx Hy. injection G as <-. eapply same_trans; [apply wrap_same|]. apply same_add; assumption.
  - intros _ x y z dx dy G Hx Hy. injection G as <-. eapply same_trans; [apply wrap_same|]. apply same_sub; assumption.
  - intros x q d [G|Hq] Hx; [discriminate|]. eapply same_trans; [apply wrap_same|]. destruct Hx as [k Hx]. exists k. rewrite Hx, Hq. ring.
  - split; auto.
  - intros x t _ Hx. destruct x as [q|q|q []| | |]; cbn in Hx; try discriminate; try (injection Hx as <-; try apply wrap_same; apply same_refl).
    destruct (Qeq_bool q 0); [|discriminate]. injection Hx as <-. apply same_refl.
Qed.
(** ... but scaling works on the rotation, not on the angle: `calc(360deg / 4)` is no rotation at all, and `calc(270deg / 3)` is -30 degrees *)
Theorem C61_angle_scaling_refuted :
  is_sum is_angle [Leaf (LDim 360 Udeg); Slash; Leaf (LNumber 4)] (EDiv (ELeaf (LDim 360 Udeg)) 4) /\
  eval (angle_worth (1 # 6)) (EDiv (ELeaf (LDim 360 Udeg)) 4) tt == 1 # 4 /\
  (exists v, parse_calc_angle (1 # 6) [CalcFn [Leaf (LDim 360 Udeg); Slash; Leaf (LNumber 4)]] = Ok (v, []) /\ v == 0) /\ ~ same_rotation 0 (1 # 4) /\
  (exists v, parse_calc_angle (1 # 6) [CalcFn [Leaf (LDim 270 Udeg); Slash; Leaf (LNumber 3)]] = Ok (v, []) /\ v == - (30 # 360)) /\ ~ same_rotation (- (30 # 360)) (1 # 4).
Proof.
  repeat split.
  - constructor. apply (product_div is_angle [Leaf (LDim 360 Udeg)]). constructor. constructor. right. right. eauto.
  - eexists. split; [vm_compute; reflexivity|reflexivity].
  - intros [k H]. unfold Qeq, Qplus, inject_Z in H; cbn [Qnum Qden] in H; lia.
  - eexists. split; [vm_compute; reflexivity|reflexivity].
  - intros [k H]. unfold Qeq, Qplus, Qopp, inject_Z in H; cbn [Qnum Qden] in H; lia.
Qed.

(** C62. The parser always terminates, and it crashes on no calc expression, whatever the type of value ... *)
Theorem C62_no_panic_partial :
  forall (T : Type) (value : leaf -> option T) (zero : T) (add sub : T -> T -> option T) (mul : T -> Q -> T) (ts : list tok),
  parse_calc_value value zero add sub mul ts <> OutOfFuel /\
  forall l rest, ts = CalcFn l :: rest -> (exists e, is_sum (fun x => exists t, value x = Some t) l e) -> parse_calc_value value zero add sub mul ts <> Panic.
Proof.
  intros T value zero add sub mul ts. unfold parse_calc_value, parse_calc_or_value. split.
  - destruct ts as [|[x| | | | |l|l] ts]; try discriminate.
    + destruct (value x); discriminate.
    + pose proof (proj1 (proj2 (proj2 (parser_fuel value (enough l)))) l) as F. unfold enough in F at 1. specialize (F ltac:(lia)).
      destruct (parse_sum value (enough l) l) as [a| | |]; try discriminate; [|contradiction]. cbn. destruct (calc_value zero add sub mul a); discriminate.
  - intros l rest -> [e He]. destruct (sum_accepted value l e He) as (a & _ & E). rewrite E. cbn [bind]. destruct (calc_value zero add sub mul a); discriminate.
Qed.
(** ... but it crashes on text that is none: `calc(10px, 20px)` hits a todo!() *)
Theorem C62_panic_refuted :
  parse_calc_val [CalcFn [Leaf (LDim 10 Upx); Leaf LOther; Leaf (LDim 20 Upx)]] = Panic /\
  parse_calc_val [CalcFn [Leaf (LDim 10 Upx); Leaf (LDim 20 Upx); Leaf (LDim 30 Upx)]] = Panic.
Proof. split; vm_compute; reflexivity. Qed.

Lemma leaf_sum (P : leaf -> Prop) x : P x -> is_sum P [Leaf x] (ELeaf x) /\ is_product P [Leaf x] (ELeaf x).
Proof. intros H. split; [apply sum_product|]; apply product_item, item_leaf, H. Qed.
(** Non-vacuity: `calc((10px + 2px) * 3 / 2 - calc(1px))` *)
Definition ex_tokens : list tok :=
  [Paren [Leaf (LDim 10 Upx); Plus; Leaf (LDim 2 Upx)]; Star; Leaf (LNumber 3); Slash; Leaf (LNumber 2); Minus; CalcFn [Leaf (LDim 1 Upx)]].
Definition ex_expr : expr := ESub (EDiv (EMul (EAdd (ELeaf (LDim 10 Upx)) (ELeaf (LDim 2 Upx))) 3) 2) (ELeaf (LDim 1 Upx)).
Example C60_witness : is_sum is_length ex_tokens ex_expr /\ divides ex_expr /\
  (forall x, In x (leaves ex_expr) -> exists q u', length_of x = Some (q, u') /\ (u' = Px \/ q == 0)) /\
  eval length_worth ex_expr Px == 17 /\ exists v, parse_calc_val [CalcFn ex_tokens] = Ok (VPx v, []) /\ v == 17.
Proof.
  assert (L : forall q, is_length (LDim q Upx)) by (intros q; right; eexists; reflexivity).
  split; [|split; [|split; [|split]]].
  - apply (sum_sub is_length [Paren [Leaf (LDim 10 Upx); Plus; Leaf (LDim 2 Upx)]; Star; Leaf (LNumber 3); Slash; Leaf (LNumber 2)] [CalcFn [Leaf (LDim 1 Upx)]]).
    + constructor. apply (product_div is_length [_; _; _]). apply (product_mul is_length [_]). constructor. constructor.
      apply (sum_add is_length [_] [_]); apply leaf_sum, L.
    + apply product_item, item_calc, leaf_sum, L.
  - cbn. repeat split; discriminate.
  - cbn. intros x [<-|[<-|[<-|[]]]]; eexists _, _; cbn; eauto.
  - reflexivity.
  - eexists. split; [vm_compute; reflexivity|reflexivity].
Qed.
Example C61_witness : exists e, is_sum is_number [Leaf (LNumber 5); Plus; Leaf (LNumber 3); Slash; Leaf (LNumber 2)] e /\ no_sub e /\ divides e.
Proof.
  exists (EAdd (ELeaf (LNumber 5)) (EDiv (ELeaf (LNumber 3)) 2)). split; [|cbn; repeat split; discriminate].
  apply (sum_add is_number [_] [_; _; _]); [apply leaf_sum; eexists; eauto|]. apply (product_div is_number [_]), leaf_sum. eexists; eauto.
Qed.

Print Assumptions C60_worth. Print Assumptions C60_accepts. Print Assumptions C61_number_partial. Print Assumptions C61_number_sub_refuted.
Print Assumptions C61_angle_partial. Print Assumptions C61_angle_scaling_refuted. Print Assumptions C62_no_panic_partial. Print Assumptions C62_panic_refuted.
