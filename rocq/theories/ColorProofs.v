(** Proofs about the parser of colors. *)
From Coq Require Import Ascii String NArith ZArith QArith Qround Lqa.
From Verif Require Import Base Vars VarText SheetText ValueParse ValueParseSpec ValueParseProofs Color ColorSpec.
Open Scope nat_scope.

(** ** Numbers *)
Lemma clamp_clamped lo hi q : (lo <= hi)%Q -> clamped lo hi q (clamp lo hi q).
Proof.
  intros H. unfold clamp. destruct (Qle_bool q lo) eqn:E; [apply Qle_bool_iff in E|]; [|assert (Hn : (lo < q)%Q) by (apply Qnot_le_lt; intros Hn; apply Qle_bool_iff in Hn; congruence)].
  - destruct (Qlt_le_dec q lo) as [Hl|Hl]; [right; left; split; [exact Hl|reflexivity]|left; split; [lra|lra]].
  - destruct (Qle_bool hi q) eqn:E'; [apply Qle_bool_iff in E'; destruct (Qlt_le_dec hi q); [right; right; split; [assumption|reflexivity]|left; split; lra]|].
    assert (Hn' : (q < hi)%Q) by (apply Qnot_le_lt; intros Hc; apply Qle_bool_iff in Hc; congruence). left. split; [lra|reflexivity].
Qed.
Lemma clamped_det lo hi q v w : (lo <= hi)%Q -> clamped lo hi q v -> clamped lo hi q w -> (v == w)%Q.
Proof. unfold clamped. intros Hl [(A & B)|[(A & B)|(A & B)]] [(C & D)|[(C & D)|(C & D)]]; lra. Qed.
Lemma clamped_eq lo hi q q' v : (q == q')%Q -> clamped lo hi q v -> clamped lo hi q' v.
Proof. unfold clamped. intros E [(A & B)|[(A & B)|(A & B)]]; [left|right; left|right; right]; split; lra. Qed.
Lemma round_near q : (0 <= q)%Q -> (inject_Z (round q) - (1 # 2) <= q < inject_Z (round q) + (1 # 2))%Q.
Proof.
  intros H. unfold round. apply Qle_bool_iff in H. rewrite H. pose proof (Qfloor_le (q + (1 # 2))) as A. pose proof (Qlt_floor (q + (1 # 2))) as B. rewrite inject_Z_plus in B. change (inject_Z 1) with 1%Q in B. split; lra.
Qed.
Lemma round_neg q : (q < 0)%Q -> (round q <= 0)%Z.
Proof.
  intros H. unfold round. destruct (Qle_bool 0 q) eqn:E; [apply Qle_bool_iff in E; lra|]. assert (A : (Qfloor 0 <= Qfloor (- q + (1 # 2)))%Z) by (apply Qfloor_resp_le; lra). change (Qfloor 0) with 0%Z in A. lia.
Qed.
Lemma inject_le a b : (a <= b)%Z <-> (inject_Z a <= inject_Z b)%Q. Proof. rewrite Zle_Qle. tauto. Qed.
Lemma channel_near q : exists c, clamped 0 255 q c /\ (inject_Z (channel q) - (1 # 2) <= c < inject_Z (channel q) + (1 # 2))%Q.
Proof.
  exists (clamp 0 255 q). split; [apply clamp_clamped; lra|]. pose proof (clamp_clamped 0 255 q ltac:(lra)) as [(A & B)|[(A & B)|(A & B)]].
  - pose proof (round_near q ltac:(lra)) as (C & D).
    assert (E : (0 <= round q)%Z). { apply Z.lt_succ_r. rewrite Zlt_Qlt. unfold Z.succ. rewrite inject_Z_plus. change (inject_Z 0) with 0%Q. change (inject_Z 1) with 1%Q. lra. }
    assert (F : (round q <= 255)%Z). { apply Z.lt_succ_r. rewrite Zlt_Qlt. unfold Z.succ. rewrite inject_Z_plus. change (inject_Z 255) with 255%Q. change (inject_Z 1) with 1%Q. lra. }
    assert (G : channel q = round q) by (unfold channel; lia). rewrite G. lra.
  - pose proof (round_neg q A). assert (G : channel q = 0%Z) by (unfold channel; lia). rewrite G. change (inject_Z 0) with 0%Q. lra.
  - pose proof (round_near q ltac:(lra)) as (C & D). assert (F : (255 <= round q)%Z). { apply Z.lt_succ_r. rewrite Zlt_Qlt. unfold Z.succ. rewrite inject_Z_plus. change (inject_Z 255) with 255%Q. change (inject_Z 1) with 1%Q. lra. }
    assert (G : channel q = 255%Z) by (unfold channel; lia). rewrite G. change (inject_Z 255) with 255%Q. lra.
Qed.
Lemma hue_direction h h' : (h == h')%Q -> direction (Some h') (normalize_hue h).
Proof.
  intros E. unfold direction, normalize_hue. pose proof (Qfloor_le (h / 360)) as A. pose proof (Qlt_floor (h / 360)) as B. rewrite inject_Z_plus in B. change (inject_Z 1) with 1%Q in B.
  assert (C : (h == h / 360 * 360)%Q) by field. set (k := Qfloor (h / 360)) in *. clearbody k. set (u := (h / 360)%Q) in *. clearbody u. split; [lra|]. exists k. lra.
Qed.

(** ** Components *)
Definition gof (o : option number_or_percentage) : given := match o with None => Missing | Some (NNumber q) => Number q | Some (NPercentage u) => Percent (u * 100) end.
Definition pof (o : option Q) : given := match o with None => Missing | Some u => Percent (u * 100) end.
Lemma gof_amount range o : (amount range (gof o) == unwrap_component (option_map (np_value range) o))%Q.
Proof. destruct o as [[q|u]|]; cbn; try reflexivity. field. Qed.
Lemma gof_unit o : (amount 1 (gof o) == unwrap_component (option_map np_unit o))%Q.
Proof. destruct o as [[q|u]|]; cbn; try reflexivity. field. Qed.
Lemma starts_none_iff l : starts_none l = true <-> exists x r, l = x :: r /\ word x "none".
Proof.
  split.
  - intros H. destruct l as [|[y|? ?|? ?] r]; try discriminate. destruct y; try discriminate. cbn [starts_none] in H. apply same_spells in H. exists (Leaf (TIdent s)), r. split; [reflexivity|]. exists s. auto.
  - intros (x & r & -> & s & -> & Hs). cbn [starts_none]. apply same_spells, Hs.
Qed.
Lemma none_or_sound {X} (f : tree -> option X) (P : tree -> option X -> Prop) l o r :
  (forall x, word x "none" -> P x None) -> (forall x v, f x = Some v -> P x (Some v)) -> none_or f l = Some (o, r) -> exists x, l = x :: r /\ P x o.
Proof.
  intros Hn Hs. unfold none_or. destruct (starts_none l) eqn:E.
  - apply starts_none_iff in E as (x & r' & -> & Hw). cbn. intros [= <- <-]. eauto.
  - destruct l as [|x r']; [discriminate|]. cbn. destruct (f x) as [v|] eqn:Ef; [|discriminate]. cbn. intros [= <- <-]. eauto.
Qed.
Lemma none_or_none {X} (f : tree -> option X) x r : word x "none" -> none_or f (x :: r) = Some (None, r).
Proof. intros H. unfold none_or. assert (E : starts_none (x :: r) = true) by (apply starts_none_iff; eauto). rewrite E. reflexivity. Qed.
Lemma none_or_some {X} (f : tree -> option X) x r v : ~ word x "none" -> f x = Some v -> none_or f (x :: r) = Some (Some v, r).
Proof.
  intros H Hf. unfold none_or. assert (E : starts_none (x :: r) = false). { destruct (starts_none (x :: r)) eqn:E; [|reflexivity]. apply starts_none_iff in E as (y & r' & [= -> ->] & Hw). contradiction. }
  rewrite E. cbn. rewrite Hf. reflexivity.
Qed.
Lemma np_sound l o r : none_or parse_np l = Some (o, r) -> exists x, l = x :: r /\ is_given x (gof o).
Proof.
  apply (none_or_sound _ (fun x o => is_given x (gof o))); [intros x H; apply ig_none, H|]. intros x v. destruct x as [y|? ?|? ?]; try discriminate. destruct y; try discriminate; cbn; intros [= <-]; cbn; constructor; [exists d, int; auto|exists d; auto].
Qed.
Lemma np_complete x g r : is_given x g -> exists o, gof o = g /\ none_or parse_np (x :: r) = Some (o, r).
Proof.
  intros [x' H|x' q (d & i & -> & ->)|x' q (d & -> & ->)].
  - exists None. split; [reflexivity|apply none_or_none, H].
  - exists (Some (NNumber (dec_Q d))). split; [reflexivity|]. apply none_or_some; [intros (s & E & _); discriminate|reflexivity].
  - exists (Some (NPercentage (dec_Q d))). split; [reflexivity|]. apply none_or_some; [intros (s & E & _); discriminate|reflexivity].
Qed.
Lemma pc_sound l o r : none_or parse_percentage l = Some (o, r) -> exists x, l = x :: r /\ is_given x (pof o).
Proof.
  apply (none_or_sound _ (fun x o => is_given x (pof o))); [intros x H; apply ig_none, H|]. intros x v. destruct x as [y|? ?|? ?]; try discriminate. destruct y; try discriminate; cbn; intros [= <-]; cbn; constructor. exists d; auto.
Qed.
Lemma pc_complete x g r : is_given x g -> share false g -> exists o, pof o = g /\ none_or parse_percentage (x :: r) = Some (o, r).
Proof.
  intros [x' H|x' q (d & i & -> & ->)|x' q (d & -> & ->)] Hs.
  - exists None. split; [reflexivity|apply none_or_none, H].
  - discriminate Hs.
  - exists (Some (dec_Q d)). split; [reflexivity|]. apply none_or_some; [intros (s & E & _); discriminate|reflexivity].
Qed.
Lemma pof_share o : share false (pof o). Proof. destruct o; exact I. Qed.
Lemma pof_clamp o : clamped 0 1 (percents (pof o)) (unwrap_component (option_map (clamp 0 1) o)).
Proof. destruct o as [u|]; cbn. - apply clamped_eq with u; [field|apply clamp_clamped; lra]. - left. split; lra. Qed.
Definition hue_rel (o o' : option Q) : Prop := match o, o' with None, None => True | Some a, Some b => (a == b)%Q | _, _ => False end.
Lemma hue_rel_direction o o' : hue_rel o o' -> direction o' (unwrap_component (option_map normalize_hue o)).
Proof. destruct o as [a|], o' as [b|]; cbn; try contradiction; [apply hue_direction|reflexivity]. Qed.
Lemma units_nodup rho : NoDup (lnames (angle_units rho)). Proof. vm_compute. nodup. Qed.
Lemma hue_one rho x q : parse_hue rho x = Some q -> exists q', (q == q')%Q /\ is_hue rho x (Some q').
Proof.
  destruct x as [y|? ?|? ?]; try discriminate. destruct y; try discriminate; cbn [parse_hue].
  - intros [= <-]. eexists. split; [reflexivity|]. apply ih_number. exists d, int. auto.
  - destruct (lookup unit (angle_units rho)) as [k|] eqn:E; [|discriminate]. intros [= <-]. apply lookup_iff in E as (n & Hi & Hs); [|apply units_nodup].
    assert (Hd : dimension (Leaf (TDim d int unit)) n (dec_Q d)) by (exists d, int, unit; auto).
    cbn in Hi. repeat destruct Hi as [Hi|Hi]; try contradiction; injection Hi as <- <-; eexists; (split; [|first [apply ih_deg, Hd|apply ih_grad, Hd|apply ih_rad, Hd|apply ih_turn, Hd]]); field.
Qed.
Lemma hue_sound rho l o r : none_or (parse_hue rho) l = Some (o, r) -> exists x o', l = x :: r /\ is_hue rho x o' /\ hue_rel o o'.
Proof.
  intros H. apply (none_or_sound _ (fun x o => exists o', is_hue rho x o' /\ hue_rel o o')) in H as (x & -> & o' & A & B); [eauto 6|intros x H'; exists None; split; [apply ih_none, H'|exact I]|].
  intros x v H'. apply hue_one in H' as (q' & E & Hh). exists (Some q'). auto.
Qed.
Lemma hue_one_complete rho x q : is_hue rho x (Some q) -> ~ word x "none" /\ exists q', parse_hue rho x = Some q' /\ (q' == q)%Q.
Proof.
  intros H. inversion H as [|x' q' (d & i & -> & E1) E2 E3|x' q' (d & i & u & -> & Hs & E1) E2 E3|x' q' (d & i & u & -> & Hs & E1) E2 E3|x' q' (d & i & u & -> & Hs & E1) E2 E3|x' q' (d & i & u & -> & Hs & E1) E2 E3]; subst;
    (split; [intros (s & E & _); discriminate|]); cbn [parse_hue]; [eexists; split; [reflexivity|reflexivity]|..].
  - assert (E : lookup u (angle_units rho) = Some 1%Q) by (apply lookup_iff; [apply units_nodup|exists "deg"%string; split; [left; reflexivity|exact Hs]]). rewrite E. eexists. split; [reflexivity|]. field.
  - assert (E : lookup u (angle_units rho) = Some (360 / 400)%Q) by (apply lookup_iff; [apply units_nodup|exists "grad"%string; split; [right; left; reflexivity|exact Hs]]). rewrite E. eexists. split; [reflexivity|]. field.
  - assert (E : lookup u (angle_units rho) = Some (360 * rho)%Q) by (apply lookup_iff; [apply units_nodup|exists "rad"%string; split; [right; right; left; reflexivity|exact Hs]]). rewrite E. eexists. split; [reflexivity|]. ring.
  - assert (E : lookup u (angle_units rho) = Some 360%Q) by (apply lookup_iff; [apply units_nodup|exists "turn"%string; split; [right; right; right; left; reflexivity|exact Hs]]). rewrite E. eexists. split; [reflexivity|]. ring.
Qed.
Lemma hue_complete rho x o' r : is_hue rho x o' -> exists o, none_or (parse_hue rho) (x :: r) = Some (o, r) /\ hue_rel o o'.
Proof.
  intros H. destruct o' as [q|].
  - apply hue_one_complete in H as (Hn & q' & Hp & E). exists (Some q'). split; [apply none_or_some; assumption|exact E].
  - exists None. split; [|exact I]. apply none_or_none. inversion H; assumption.
Qed.

(** ** Ends *)
Lemma eat_comma_some l r : eat_comma l = Some r -> l = comma :: r.
Proof. destruct l as [|[y|? ?|? ?] r']; try discriminate. destruct y; try discriminate. cbn. intros [= ->]. reflexivity. Qed.
Lemma eat_slash_some l r : eat_slash l = Some r -> l = slash :: r.
Proof. destruct l as [|[y|? ?|? ?] r']; try discriminate. destruct y; try discriminate. cbn. destruct (Ascii.eqb c "/"%char) eqn:E; [|discriminate]. intros [= ->]. apply Ascii.eqb_eq in E. subst. reflexivity. Qed.
Definition alpha_or (m : Q) (o : option Q) : Q := match o with Some q => q | None => m end.
Lemma gof_alpha m o : alpha_is m (gof o) (alpha_or m (option_map (fun n => clamp 0 1 (np_unit n)) o)).
Proof. destruct o as [[q|u]|]; cbn; [apply clamp_clamped; lra|apply clamped_eq with u; [field|apply clamp_clamped; lra]|reflexivity]. Qed.
Lemma one_alpha m : alpha_is m (Number 1) 1%Q. Proof. left. cbn. lra. Qed.
Lemma modern_sound l o : modern_alpha l = Some (o, []) -> exists g, modern_end l g /\ forall m, alpha_is m g (alpha_or m o).
Proof.
  destruct l as [|x l]; [intros [= <-]; exists (Number 1); split; [constructor|intros m; apply one_alpha]|].
  unfold modern_alpha. destruct (eat_slash (x :: l)) as [r|] eqn:E; [|discriminate]. apply eat_slash_some in E. rewrite E. cbn [bind]. destruct (none_or parse_np r) as [[n r']|] eqn:En; [|discriminate]. cbn. intros [= <- ->].
  apply np_sound in En as (y & -> & Hg). exists (gof n). split; [constructor; exact Hg|intros m; apply gof_alpha].
Qed.
Lemma modern_complete l g : modern_end l g -> exists o, modern_alpha l = Some (o, []) /\ forall m, alpha_is m g (alpha_or m o).
Proof.
  intros [|x a H]; [exists (Some 1%Q); split; [reflexivity|intros m; apply one_alpha]|]. apply (np_complete x a []) in H as (n & <- & E). unfold modern_alpha. cbn [eat_slash slash Ascii.eqb bind Bool.eqb]. rewrite E. cbn.
  eexists. split; [reflexivity|intros m; apply gof_alpha].
Qed.
Lemma np_one_sound x n : parse_np x = Some n -> is_given x (gof (Some n)).
Proof. destruct x as [y|? ?|? ?]; try discriminate. destruct y; try discriminate; cbn; intros [= <-]; cbn; constructor; [exists d, int; auto|exists d; auto]. Qed.
Lemma np_one_complete x g : is_given x g -> g <> Missing -> exists n, parse_np x = Some n /\ gof (Some n) = g.
Proof. intros [x' H|x' q (d & i & -> & ->)|x' q (d & -> & ->)] Hn; [congruence|eexists; split; reflexivity..]. Qed.
Lemma legacy_sound l q : legacy_alpha l = Some (q, []) -> exists g, legacy_end l g /\ forall m, alpha_is m g q.
Proof.
  destruct l as [|x l]; [intros [= <-]; exists (Number 1); split; [constructor|intros m; apply one_alpha]|].
  unfold legacy_alpha. destruct (eat_comma (x :: l)) as [r|] eqn:E; [|discriminate]. apply eat_comma_some in E. rewrite E. cbn [bind]. destruct r as [|y r]; [discriminate|]. cbn. destruct (parse_np y) as [n|] eqn:En; [|discriminate]. cbn. intros [= <- ->].
  apply np_one_sound in En. exists (gof (Some n)). split; [constructor; [exact En|destruct n; discriminate]|intros m; apply (gof_alpha m (Some n))].
Qed.
Lemma legacy_complete l g : legacy_end l g -> exists q, legacy_alpha l = Some (q, []) /\ forall m, alpha_is m g q.
Proof.
  intros [|x a H Hn]; [exists 1%Q; split; [reflexivity|intros m; apply one_alpha]|]. apply np_one_complete in H as (n & E & <-); [|exact Hn]. cbn. rewrite E. cbn. eexists. split; [reflexivity|intros m; apply (gof_alpha m (Some n))].
Qed.
Lemma components_sound {A B C} (f : tree -> option A) (g : tree -> option B) (h : tree -> option C) l a b c al :
  components f g h l = Some (a, b, c, al, []) -> exists l1 l2 l3, none_or f l = Some (a, l1) /\ none_or g l1 = Some (b, l2) /\ none_or h l2 = Some (c, l3) /\ modern_alpha l3 = Some (al, []).
Proof.
  unfold components. destruct (none_or f l) as [(a' & l1)|] eqn:E1; [|discriminate]. cbn. destruct (none_or g l1) as [(b' & l2)|] eqn:E2; [|discriminate]. cbn. destruct (none_or h l2) as [(c' & l3)|] eqn:E3; [|discriminate]. cbn.
  destruct (modern_alpha l3) as [(al' & r)|] eqn:E4; [|discriminate]. cbn. intros [= <- <- <- <- ->]. eauto 10.
Qed.
Lemma components_complete {A B C} (f : tree -> option A) (g : tree -> option B) (h : tree -> option C) l l1 l2 l3 a b c al :
  none_or f l = Some (a, l1) -> none_or g l1 = Some (b, l2) -> none_or h l2 = Some (c, l3) -> modern_alpha l3 = Some (al, []) -> components f g h l = Some (a, b, c, al, []).
Proof. intros E1 E2 E3 E4. unfold components. rewrite E1. cbn. rewrite E2. cbn. rewrite E3. cbn. rewrite E4. reflexivity. Qed.
Lemma legacy_rest_sound {A} (f : tree -> option A) l b c q : legacy_rest f l = Some (b, c, q, []) -> exists x y e, l = x :: comma :: y :: e /\ f x = Some b /\ f y = Some c /\ legacy_alpha e = Some (q, []).
Proof.
  unfold legacy_rest. destruct l as [|x l]; [discriminate|]. cbn [one]. destruct (f x) as [b'|] eqn:Eb; [|discriminate]. cbn. destruct (eat_comma l) as [r|] eqn:Er; [|discriminate]. cbn. destruct r as [|y e]; [discriminate|]. cbn. destruct (f y) as [c'|] eqn:Ec; [|discriminate]. cbn.
  destruct (legacy_alpha e) as [(q' & r)|] eqn:E4; [|discriminate]. cbn. intros [= <- <- <- ->]. apply eat_comma_some in Er as ->. eauto 10.
Qed.
Lemma legacy_rest_complete {A} (f : tree -> option A) x y e b c q : f x = Some b -> f y = Some c -> legacy_alpha e = Some (q, []) -> legacy_rest f (x :: comma :: y :: e) = Some (b, c, q, []).
Proof. intros Eb Ec Ea. unfold legacy_rest. cbn. rewrite Eb. cbn. rewrite Ec. cbn. rewrite Ea. reflexivity. Qed.

(** ** Functions *)
Lemma gof_byte o : byte (gof o) (inject_Z (component_value o) / 255).
Proof.
  destruct o as [[q|u]|]; cbn [gof component_value].
  - destruct (channel_near q) as (c & A & B). exists (channel q), c. split; [exact A|split; [exact B|reflexivity]].
  - destruct (channel_near (u * 255)) as (c & A & B). exists (channel_of_unit u), c. split; [apply clamped_eq with (u * 255)%Q; [cbn; field|exact A]|split; [exact B|reflexivity]].
  - exists 0%Z, 0%Q. split; [left; cbn; lra|]. split; [change (inject_Z 0) with 0%Q; lra|reflexivity].
Qed.
Lemma exhausted_some {X} (p : option (X * list tree)) v : exhausted p = Some v <-> p = Some (v, []).
Proof. destruct p as [(v' & [|? ?])|]; cbn; split; intros H; try discriminate; congruence. Qed.
Lemma parse_number_sound x q : parse_number x = Some q -> parse_np x = Some (NNumber q).
Proof. destruct x as [y|? ?|? ?]; try discriminate. destruct y; try discriminate. cbn. intros [= ->]. reflexivity. Qed.
Lemma parse_percentage_sound x q : parse_percentage x = Some q -> parse_np x = Some (NPercentage q).
Proof. destruct x as [y|? ?|? ?]; try discriminate. destruct y; try discriminate. cbn. intros [= ->]. reflexivity. Qed.
Lemma np_number x q : is_given x (Number q) -> parse_number x = Some q.
Proof. intros H. inversion H as [|x' q' (d & i & -> & ->)|]. reflexivity. Qed.
Lemma np_percent x q : is_given x (Percent q) -> exists u, parse_percentage x = Some u /\ Percent (u * 100) = Percent q.
Proof. intros H. inversion H as [| |x' q' (d & -> & ->)]. eexists. split; reflexivity. Qed.
Lemma given_not_comma g : ~ is_given comma g.
Proof. intros H. inversion H as [x (s & E & _)|x q (d & i & E & _)|x q (d & E & _)]; discriminate. Qed.
Lemma is_rgba r g b a c : c = from_rgba (component_value r) (component_value g) (component_value b) a -> forall al, alpha_is 0 al a -> stands_for code (Rgb (gof r) (gof g) (gof b) al) c.
Proof. intros -> al Ha. repeat split; try apply gof_byte. exact Ha. Qed.
Lemma rgb_sound rho x l c : called x ["rgb"; "rgba"]%string l -> exhausted (parse_rgb l) = Some c -> exists w, written false rho x w /\ stands_for code w c.
Proof.
  intros Hx H. apply exhausted_some in H. unfold parse_rgb in H. destruct (none_or parse_np l) as [(red & l1)|] eqn:E1; [|discriminate]. cbn [bind fst snd] in H. apply np_sound in E1 as (xr & -> & Hr).
  assert (Hm : bind (none_or parse_np l1) (fun g => bind (none_or parse_np (snd g)) (fun b => bind (modern_alpha (snd b)) (fun a =>
        Some (from_rgba (component_value red) (component_value (fst g)) (component_value (fst b)) (match fst a with Some q => q | None => 0%Q end), snd a)))) = Some (c, []) -> exists w, written false rho x w /\ stands_for code w c).
  { clear H. intros H. destruct (none_or parse_np l1) as [(g & l2)|] eqn:E2; [|discriminate]. cbn [bind fst snd] in H. apply np_sound in E2 as (xg & -> & Hg).
    destruct (none_or parse_np l2) as [(b & l3)|] eqn:E3; [|discriminate]. cbn [bind fst snd] in H. apply np_sound in E3 as (xb & -> & Hb).
    destruct (modern_alpha l3) as [(a & r)|] eqn:E4; [|discriminate]. cbn [bind fst snd] in H. injection H as <- ->. apply modern_sound in E4 as (al & He & Ha). eexists. split; [eapply wr_rgb; eassumption|]. eapply is_rgba; [reflexivity|apply (Ha 0%Q)]. }
  destruct red as [[q|u]|]; destruct (eat_comma l1) as [r|] eqn:Ec; try (apply Hm, H); apply eat_comma_some in Ec as ->.
  - destruct (legacy_rest parse_number r) as [(((g & b) & a) & rest)|] eqn:El; [|discriminate]. cbn in H. injection H as <- ->. apply legacy_rest_sound in El as (xg & xb & e & -> & Eg & Eb & Ea).
    apply parse_number_sound, np_one_sound in Eg, Eb. apply legacy_sound in Ea as (al & He & Ha). eexists. split; [eapply wr_rgb_commas; try eassumption; left; repeat split; eexists; reflexivity|].
    apply (is_rgba (Some (NNumber q)) (Some (NNumber g)) (Some (NNumber b)) a); [reflexivity|apply Ha].
  - destruct (legacy_rest parse_percentage r) as [(((g & b) & a) & rest)|] eqn:El; [|discriminate]. cbn in H. injection H as <- ->. apply legacy_rest_sound in El as (xg & xb & e & -> & Eg & Eb & Ea).
    apply parse_percentage_sound, np_one_sound in Eg, Eb. apply legacy_sound in Ea as (al & He & Ha). eexists. split; [eapply wr_rgb_commas; try eassumption; right; repeat split; eexists; reflexivity|].
    apply (is_rgba (Some (NPercentage u)) (Some (NPercentage g)) (Some (NPercentage b)) a); [reflexivity|apply Ha].
Qed.
Lemma rgb_modern_complete r g b e r' g' b' a : is_given r r' -> is_given g g' -> is_given b b' -> modern_end e a -> exists c, exhausted (parse_rgb (r :: g :: b :: e)) = Some c /\ stands_for code (Rgb r' g' b' a) c.
Proof.
  intros Hr Hg Hb He. apply (np_complete r r' (g :: b :: e)) in Hr as (or & <- & Er). assert (Hgc : eat_comma (g :: b :: e) = None). { destruct (eat_comma (g :: b :: e)) eqn:E; [|reflexivity]. apply eat_comma_some in E as [= ->]. apply given_not_comma in Hg. contradiction. }
  apply (np_complete g g' (b :: e)) in Hg as (og & <- & Eg). apply (np_complete b b' e) in Hb as (ob & <- & Eb). apply modern_complete in He as (oa & Ea & Ha).
  unfold parse_rgb. rewrite Er. cbn [bind fst snd]. rewrite Hgc, Eg. cbn [bind fst snd]. rewrite Eb. cbn [bind fst snd]. rewrite Ea. cbn [bind fst snd].
  destruct or as [[q|u]|]; cbn [exhausted]; (eexists; split; [reflexivity|]); eapply is_rgba; try reflexivity; apply (Ha 0%Q).
Qed.
Lemma rgb_legacy_complete r g b e r' g' b' a : is_given r r' -> is_given g g' -> is_given b b' -> legacy_end e a -> (is_number r' /\ is_number g' /\ is_number b') \/ (is_percent r' /\ is_percent g' /\ is_percent b') ->
  exists c, exhausted (parse_rgb (r :: comma :: g :: comma :: b :: e)) = Some c /\ stands_for code (Rgb r' g' b' a) c.
Proof.
  intros Hr Hg Hb He Hk. apply (np_complete r r' (comma :: g :: comma :: b :: e)) in Hr as (or & Eo & Er). apply legacy_complete in He as (qa & Ea & Ha). unfold parse_rgb. rewrite Er. cbn [bind fst snd eat_comma comma].
  destruct Hk as [((q1 & ->) & (q2 & ->) & (q3 & ->))|((q1 & ->) & (q2 & ->) & (q3 & ->))].
  - destruct or as [[q|u]|]; try discriminate. injection Eo as ->. apply np_number in Hg, Hb. rewrite (legacy_rest_complete parse_number g b e q2 q3 qa Hg Hb Ea). cbn. eexists. split; [reflexivity|].
    apply (is_rgba (Some (NNumber q1)) (Some (NNumber q2)) (Some (NNumber q3)) qa); [reflexivity|apply Ha].
  - destruct or as [[q|u]|]; try discriminate. rewrite <- Eo. apply np_percent in Hg as (u2 & Eg & <-). apply np_percent in Hb as (u3 & Eb & <-). rewrite (legacy_rest_complete parse_percentage g b e u2 u3 qa Eg Eb Ea). cbn. eexists. split; [reflexivity|].
    apply (is_rgba (Some (NPercentage u)) (Some (NPercentage u2)) (Some (NPercentage u3)) qa); [reflexivity|apply Ha].
Qed.
Lemma alpha_unwrap a oa : (forall m, alpha_is m a (alpha_or m oa)) -> alpha_is 1 a (unwrap_alpha oa).
Proof. intros H. exact (H 1%Q). Qed.
Lemma is_hsla h h' s l a al : hue_rel h h' -> alpha_is 1 al (unwrap_alpha a) ->
  stands_for code (Hsl h' (pof s) (pof l) al) (from_hsl (option_map normalize_hue h) (option_map (clamp 0 1) s) (option_map (clamp 0 1) l) a).
Proof. intros Hh Ha. repeat split; [apply hue_rel_direction, Hh|apply pof_clamp|apply pof_clamp|exact Ha]. Qed.
Lemma is_hwba h h' s l a al : hue_rel h h' -> alpha_is 1 al (unwrap_alpha a) ->
  stands_for code (Hwb h' (pof s) (pof l) al) (from_hwb (option_map normalize_hue h) (option_map (clamp 0 1) s) (option_map (clamp 0 1) l) a).
Proof. intros Hh Ha. repeat split; [apply hue_rel_direction, Hh|apply pof_clamp|apply pof_clamp|exact Ha]. Qed.
Lemma hsl_sound rho x l c : called x ["hsl"; "hsla"]%string l -> exhausted (parse_hsl rho l) = Some c -> exists w, written false rho x w /\ stands_for code w c.
Proof.
  intros Hx H. apply exhausted_some in H. unfold parse_hsl in H. destruct (none_or (parse_hue rho) l) as [(hue & l1)|] eqn:E1; [|discriminate]. cbn [bind fst snd] in H. apply hue_sound in E1 as (xh & h' & -> & Hh & Hr).
  assert (Hm : bind (none_or parse_percentage l1) (fun s => bind (none_or parse_percentage (snd s)) (fun l => bind (modern_alpha (snd l)) (fun a =>
        Some (from_hsl (option_map normalize_hue hue) (option_map (clamp 0 1) (fst s)) (option_map (clamp 0 1) (fst l)) (fst a), snd a)))) = Some (c, []) -> exists w, written false rho x w /\ stands_for code w c).
  { clear H. intros H. destruct (none_or parse_percentage l1) as [(s & l2)|] eqn:E2; [|discriminate]. cbn [bind fst snd] in H. apply pc_sound in E2 as (xs & -> & Hs).
    destruct (none_or parse_percentage l2) as [(li & l3)|] eqn:E3; [|discriminate]. cbn [bind fst snd] in H. apply pc_sound in E3 as (xl & -> & Hl).
    destruct (modern_alpha l3) as [(a & r)|] eqn:E4; [|discriminate]. cbn [bind fst snd] in H. injection H as <- ->. apply modern_sound in E4 as (al & He & Ha).
    eexists. split; [eapply wr_hsl; try eassumption; apply pof_share|]. apply is_hsla; [exact Hr|apply alpha_unwrap, Ha]. }
  destruct hue as [h|]; destruct (eat_comma l1) as [r|] eqn:Ec; try (apply Hm, H). clear Hm. apply eat_comma_some in Ec as ->.
  destruct (legacy_rest parse_percentage r) as [(((s & li) & a) & rest)|] eqn:El; [|discriminate]. cbn in H. injection H as <- ->. apply legacy_rest_sound in El as (xs & xl & e & -> & Es & Eb & Ea).
  apply parse_percentage_sound, np_one_sound in Es, Eb. apply legacy_sound in Ea as (al & He & Ha). destruct h' as [h'|]; [|contradiction]. eexists. split; [eapply wr_hsl_commas; try eassumption; eexists; reflexivity|].
  apply (is_hsla (Some h) (Some h') (Some s) (Some li) (Some a)); [exact Hr|apply Ha].
Qed.
Lemma hsl_modern_complete rho h s l e h' s' l' a : is_hue rho h h' -> is_given s s' -> is_given l l' -> share false s' -> share false l' -> modern_end e a -> exists c, exhausted (parse_hsl rho (h :: s :: l :: e)) = Some c /\ stands_for code (Hsl h' s' l' a) c.
Proof.
  intros Hh Hs Hl Ss Sl He. apply (hue_complete rho h h' (s :: l :: e)) in Hh as (oh & Eh & Hr). assert (Hgc : eat_comma (s :: l :: e) = None). { destruct (eat_comma (s :: l :: e)) eqn:E; [|reflexivity]. apply eat_comma_some in E as [= ->]. apply given_not_comma in Hs. contradiction. }
  apply (pc_complete s s' (l :: e)) in Hs as (os & <- & Es); [|exact Ss]. apply (pc_complete l l' e) in Hl as (ol & <- & El); [|exact Sl]. apply modern_complete in He as (oa & Ea & Ha).
  unfold parse_hsl. rewrite Eh. cbn [bind fst snd]. rewrite Hgc, Es. cbn [bind fst snd]. rewrite El. cbn [bind fst snd]. rewrite Ea. cbn [bind fst snd].
  destruct oh as [q|]; cbn [exhausted]; (eexists; split; [reflexivity|]); (apply is_hsla; [exact Hr|apply alpha_unwrap, Ha]).
Qed.
Lemma hsl_legacy_complete rho h s l e h' s' l' a : is_hue rho h (Some h') -> is_given s s' -> is_given l l' -> is_percent s' -> is_percent l' -> legacy_end e a ->
  exists c, exhausted (parse_hsl rho (h :: comma :: s :: comma :: l :: e)) = Some c /\ stands_for code (Hsl (Some h') s' l' a) c.
Proof.
  intros Hh Hs Hl (q2 & ->) (q3 & ->) He. apply (hue_complete rho h (Some h') (comma :: s :: comma :: l :: e)) in Hh as (oh & Eh & Hr). apply legacy_complete in He as (qa & Ea & Ha). unfold parse_hsl. rewrite Eh. cbn [bind fst snd eat_comma comma].
  destruct oh as [h0|]; [|contradiction]. apply np_percent in Hs as (u2 & Es & <-). apply np_percent in Hl as (u3 & El & <-). rewrite (legacy_rest_complete parse_percentage s l e u2 u3 qa Es El Ea). cbn. eexists. split; [reflexivity|].
  apply (is_hsla (Some h0) (Some h') (Some u2) (Some u3) (Some qa)); [exact Hr|apply Ha].
Qed.
Lemma hwb_sound rho x l c : called x ["hwb"]%string l -> exhausted (parse_hwb rho l) = Some c -> exists w, written false rho x w /\ stands_for code w c.
Proof.
  intros Hx H. apply exhausted_some in H. unfold parse_hwb in H. destruct (components _ _ _ l) as [((((h & w) & b) & a) & rest)|] eqn:E; [|discriminate]. cbn in H. injection H as <- ->.
  apply components_sound in E as (l1 & l2 & l3 & E1 & E2 & E3 & E4). apply hue_sound in E1 as (xh & h' & -> & Hh & Hr). apply pc_sound in E2 as (xw & -> & Hw). apply pc_sound in E3 as (xb & -> & Hb). apply modern_sound in E4 as (al & He & Ha).
  eexists. split; [eapply wr_hwb; try eassumption; apply pof_share|]. apply is_hwba; [exact Hr|apply alpha_unwrap, Ha].
Qed.
Lemma hwb_complete rho h s l e h' s' l' a : is_hue rho h h' -> is_given s s' -> is_given l l' -> share false s' -> share false l' -> modern_end e a -> exists c, exhausted (parse_hwb rho (h :: s :: l :: e)) = Some c /\ stands_for code (Hwb h' s' l' a) c.
Proof.
  intros Hh Hs Hl Ss Sl He. apply (hue_complete rho h h' (s :: l :: e)) in Hh as (oh & Eh & Hr). apply (pc_complete s s' (l :: e)) in Hs as (os & <- & Es); [|exact Ss]. apply (pc_complete l l' e) in Hl as (ol & <- & El); [|exact Sl]. apply modern_complete in He as (oa & Ea & Ha).
  unfold parse_hwb. rewrite (components_complete _ _ _ _ _ _ _ _ _ _ _ Eh Es El Ea). cbn [option_map exhausted]. eexists. split; [reflexivity|]. apply is_hwba; [exact Hr|apply alpha_unwrap, Ha].
Qed.
(** lab and oklab, lch and oklch *)
Lemma lab_sound range range' into l c : exhausted (parse_lab_like range range' into l) = Some c ->
  exists p q r e op oq or a al, l = p :: q :: r :: e /\ is_given p (gof op) /\ is_given q (gof oq) /\ is_given r (gof or) /\ modern_end e al /\ alpha_is 1 al (unwrap_alpha a) /\
    c = into (option_map (np_value range) op) (option_map (np_value range') oq) (option_map (np_value range') or) a.
Proof.
  intros H. apply exhausted_some in H. unfold parse_lab_like in H. destruct (components _ _ _ l) as [((((u & v) & w) & a) & rest)|] eqn:E; [|discriminate]. cbn in H. injection H as <- ->.
  apply components_sound in E as (l1 & l2 & l3 & E1 & E2 & E3 & E4). apply np_sound in E1 as (x1 & -> & H1). apply np_sound in E2 as (x2 & -> & H2). apply np_sound in E3 as (x3 & -> & H3). apply modern_sound in E4 as (al & He & Ha).
  exists x1, x2, x3, l3, u, v, w, a, al. repeat split; try assumption. apply alpha_unwrap, Ha.
Qed.
Lemma lab_complete range range' into p q r e gp gq gr al : is_given p gp -> is_given q gq -> is_given r gr -> modern_end e al ->
  exists op oq or a, gof op = gp /\ gof oq = gq /\ gof or = gr /\ alpha_is 1 al (unwrap_alpha a) /\
    exhausted (parse_lab_like range range' into (p :: q :: r :: e)) = Some (into (option_map (np_value range) op) (option_map (np_value range') oq) (option_map (np_value range') or) a).
Proof.
  intros Hp Hq Hr He. apply (np_complete p gp (q :: r :: e)) in Hp as (op & <- & Ep). apply (np_complete q gq (r :: e)) in Hq as (oq & <- & Eq). apply (np_complete r gr e) in Hr as (or & <- & Er). apply modern_complete in He as (a & Ea & Ha).
  exists op, oq, or, a. repeat split; [apply alpha_unwrap, Ha|]. unfold parse_lab_like. rewrite (components_complete _ _ _ _ _ _ _ _ _ _ _ Ep Eq Er Ea). reflexivity.
Qed.
Lemma lch_sound rho range range' into l c : exhausted (parse_lch_like rho range range' into l) = Some c ->
  exists p q r e op oq h h' a al, l = p :: q :: r :: e /\ is_given p (gof op) /\ is_given q (gof oq) /\ is_hue rho r h' /\ hue_rel h h' /\ modern_end e al /\ alpha_is 1 al (unwrap_alpha a) /\
    c = into (option_map (np_value range) op) (option_map (np_value range') oq) (option_map normalize_hue h) a.
Proof.
  intros H. apply exhausted_some in H. unfold parse_lch_like in H. destruct (components _ _ _ l) as [((((u & v) & w) & a) & rest)|] eqn:E; [|discriminate]. cbn in H. injection H as <- ->.
  apply components_sound in E as (l1 & l2 & l3 & E1 & E2 & E3 & E4). apply np_sound in E1 as (x1 & -> & H1). apply np_sound in E2 as (x2 & -> & H2). apply hue_sound in E3 as (x3 & h' & -> & H3 & Hr). apply modern_sound in E4 as (al & He & Ha).
  exists x1, x2, x3, l3, u, v, w, h', a, al. repeat split; try assumption. apply alpha_unwrap, Ha.
Qed.
Lemma lch_complete rho range range' into p q r e gp gq h' al : is_given p gp -> is_given q gq -> is_hue rho r h' -> modern_end e al ->
  exists op oq h a, gof op = gp /\ gof oq = gq /\ hue_rel h h' /\ alpha_is 1 al (unwrap_alpha a) /\
    exhausted (parse_lch_like rho range range' into (p :: q :: r :: e)) = Some (into (option_map (np_value range) op) (option_map (np_value range') oq) (option_map normalize_hue h) a).
Proof.
  intros Hp Hq Hr He. apply (np_complete p gp (q :: r :: e)) in Hp as (op & <- & Ep). apply (np_complete q gq (r :: e)) in Hq as (oq & <- & Eq). apply (hue_complete rho r h' e) in Hr as (h & Er & Hh). apply modern_complete in He as (a & Ea & Ha).
  exists op, oq, h, a. repeat split; [exact Hh|apply alpha_unwrap, Ha|]. unfold parse_lch_like. rewrite (components_complete _ _ _ _ _ _ _ _ _ _ _ Ep Eq Er Ea). reflexivity.
Qed.
Lemma remap_eq v i o : ~ (i == 0)%Q -> (remap v i o == v * (o / i))%Q.
Proof. intros H. unfold remap. field. intros E. apply H. lra. Qed.
Lemma is_laba p q r a al : alpha_is 1 al (unwrap_alpha a) -> stands_for code (Lab (gof p) (gof q) (gof r) al) (from_lab (option_map (np_value 100) p) (option_map (np_value 125) q) (option_map (np_value 125) r) a).
Proof.
  intros Ha. repeat split; cbn [from_lab model c1 c2 c3 alpha stands_for is_color lab_l lab_ab code no_alpha]; try exact Ha; rewrite remap_eq by discriminate; rewrite gof_amount; set (z := unwrap_component _); clearbody z; field.
Qed.
Lemma is_lcha p q h h' a al : hue_rel h h' -> alpha_is 1 al (unwrap_alpha a) -> stands_for code (Lch (gof p) (gof q) h' al) (from_lch (option_map (np_value 100) p) (option_map (np_value 150) q) (option_map normalize_hue h) a).
Proof.
  intros Hh Ha. repeat split; cbn [from_lch model c1 c2 c3 alpha stands_for is_color lch_l lch_c code no_alpha]; try exact Ha; try (apply hue_rel_direction, Hh); rewrite remap_eq by discriminate; rewrite gof_amount; set (z := unwrap_component _); clearbody z; field.
Qed.
Lemma is_oklaba p q r a al : alpha_is 1 al (unwrap_alpha a) -> stands_for code (Oklab (gof p) (gof q) (gof r) al) (from_oklab (option_map (np_value 1) p) (option_map (np_value (4 # 10)) q) (option_map (np_value (4 # 10)) r) a).
Proof. intros Ha. repeat split; cbn [from_oklab model c1 c2 c3 alpha]; try apply gof_amount; exact Ha. Qed.
Lemma is_oklcha p q h h' a al : hue_rel h h' -> alpha_is 1 al (unwrap_alpha a) -> stands_for code (Oklch (gof p) (gof q) h' al) (from_oklch (option_map (np_value 1) p) (option_map (np_value (4 # 10)) q) (option_map normalize_hue h) a).
Proof. intros Hh Ha. repeat split; cbn [from_oklch model c1 c2 c3 alpha]; try apply gof_amount; [apply hue_rel_direction, Hh|exact Ha]. Qed.
(** color() *)
Definition name_of (s : space) : space_name := match s with SpSrgb => InSrgb | SpSrgbLinear => InLinearSrgb | SpXyzD65 => InXyz | _ => InOther end.
Lemma spaces_nodup : NoDup (lnames spaces). Proof. names. Qed.
Lemma space_in k s : In (k, s) spaces -> In (k, name_of s) space_names.
Proof. cbn. intros H. repeat destruct H as [H|H]; try contradiction; injection H as <- <-; cbn; tauto. Qed.
Lemma space_of k n : In (k, n) space_names -> exists s, In (k, s) spaces /\ name_of s = n.
Proof. cbn. intros H. repeat destruct H as [H|H]; try contradiction; injection H as <- <-; (eexists; split; [cbn; eauto 20|reflexivity]). Qed.
Lemma is_in_space s p q r a al : alpha_is 1 al (unwrap_alpha a) ->
  match from_color_function s (option_map np_unit p) (option_map np_unit q) (option_map np_unit r) a with
  | Some c => stands_for code (InSpace (name_of s) (gof p) (gof q) (gof r) al) c
  | None => name_of s = InOther
  end.
Proof. intros Ha. destruct s; cbn [from_color_function name_of]; try reflexivity; (eexists; split; [reflexivity|]); repeat split; cbn [c1 c2 c3 alpha]; try apply gof_unit; exact Ha. Qed.
Lemma color_fn_sound rho x l c : called x ["color"]%string l -> bind (exhausted (parse_color_space l)) (fun o => o) = Some c -> exists w, written false rho x w /\ stands_for code w c.
Proof.
  intros Hx H. destruct (exhausted (parse_color_space l)) as [o|] eqn:E; [|discriminate]. cbn in H. subst o. apply exhausted_some in E. destruct l as [|[y|? ?|? ?] l]; try discriminate. destruct y; try discriminate. unfold parse_color_space in E.
  destruct (lookup s spaces) as [sp|] eqn:El; [|discriminate]. cbn [bind] in E. destruct (components _ _ _ l) as [((((u & v) & w) & a) & rest)|] eqn:Ec; [|discriminate]. cbn [option_map] in E. injection E as E ->.
  apply components_sound in Ec as (l1 & l2 & l3 & E1 & E2 & E3 & E4). apply np_sound in E1 as (x1 & -> & H1). apply np_sound in E2 as (x2 & -> & H2). apply np_sound in E3 as (x3 & -> & H3). apply modern_sound in E4 as (al & He & Ha).
  apply lookup_iff in El as (k & Hi & Hs); [|apply spaces_nodup]. eexists. split; [eapply wr_space; try eassumption; [apply space_in, Hi|exists s; auto]|].
  pose proof (is_in_space sp u v w a al (alpha_unwrap _ _ Ha)) as Hc. rewrite E in Hc. exact Hc.
Qed.
Lemma color_fn_complete s k n a b c e a' b' c' al : In (k, n) space_names -> word s k -> is_given a a' -> is_given b b' -> is_given c c' -> modern_end e al ->
  match bind (exhausted (parse_color_space (s :: a :: b :: c :: e))) (fun o => o) with Some col => stands_for code (InSpace n a' b' c' al) col | None => n = InOther end.
Proof.
  intros Hi (t & -> & Hs) Hp Hq Hr He. apply space_of in Hi as (sp & Hi & <-). apply (np_complete a a' (b :: c :: e)) in Hp as (op & <- & Ep). apply (np_complete b b' (c :: e)) in Hq as (oq & <- & Eq). apply (np_complete c c' e) in Hr as (or & <- & Er). apply modern_complete in He as (oa & Ea & Ha).
  unfold parse_color_space. assert (El : lookup t spaces = Some sp) by (apply lookup_iff; [apply spaces_nodup|eauto]). rewrite El. cbn [bind]. rewrite (components_complete _ _ _ _ _ _ _ _ _ _ _ Ep Eq Er Ea). cbn [option_map exhausted bind].
  apply (is_in_space sp op oq or oa al (alpha_unwrap _ _ Ha)).
Qed.

(** ** Hexadecimal digits and names *)
Lemma digit_iff c v : hex_digit c = Some v <-> digit_is c v.
Proof.
  split.
  - unfold hex_digit. destruct (is_hex c) eqn:E; [|discriminate]. intros [= <-]. exists (N.to_nat (hex_value c)). split; [|rewrite N_nat_Z; reflexivity].
    destruct c as [[] [] [] [] [] [] [] []]; vm_compute in E; try discriminate E; reflexivity.
  - intros (n & Hn & ->). assert (Hl : n < 16). { apply (proj1 (nth_error_Some (tx "0123456789abcdef") n)). congruence. }
    destruct c as [[] [] [] [] [] [] [] []]; do 16 (destruct n as [|n]; [vm_compute in Hn; try discriminate Hn; vm_compute; reflexivity|]); lia.
Qed.
Lemma hex_all_cons c s v : hex_all (c :: s) = Some v <-> exists d r, v = d :: r /\ digit_is c d /\ hex_all s = Some r.
Proof.
  cbn [hex_all]. split.
  - destruct (hex_digit c) as [d|] eqn:E; [|discriminate]. cbn. destruct (hex_all s) as [r|]; [|discriminate]. cbn. intros [= <-]. exists d, r. split; [reflexivity|]. split; [apply digit_iff, E|reflexivity].
  - intros (d & r & -> & Hd & Hr). apply digit_iff in Hd. rewrite Hd, Hr. reflexivity.
Qed.
Lemma hex_all_length s v : hex_all s = Some v -> length v = length s.
Proof. revert v. induction s as [|c s IH]; intros v H; [injection H as <-; reflexivity|]. apply hex_all_cons in H as (d & r & -> & _ & H). cbn. rewrite (IH r H). reflexivity. Qed.
Fixpoint distinct (l : list text) : bool := match l with [] => true | x :: r => (negb (existsb (fun y => if list_eq_dec ascii_dec x y then true else false) r) && distinct r)%bool end.
Lemma distinct_nodup l : distinct l = true -> NoDup l.
Proof.
  induction l as [|x l IH]; cbn; [constructor|]. intros H. apply andb_prop in H as (A & B). constructor; [|apply IH, B]. intros Hi. apply negb_true_iff in A. rewrite <- not_true_iff_false in A. apply A. apply existsb_exists. exists x. split; [exact Hi|].
  destruct (list_eq_dec ascii_dec x x); congruence.
Qed.
Lemma names_nodup : NoDup (lnames named_colors). Proof. apply distinct_nodup. vm_compute. reflexivity. Qed.
(** no named color is spelled like one of the words *)
Definition apart_from (ks : list string) : bool := forallb (fun k => negb (existsb (fun n => if list_eq_dec ascii_dec (map lower (tx k)) n then true else false) (lnames named_colors))) ks.
Lemma apart ks s k r : apart_from ks = true -> In k ks -> spells s k -> lookup s named_colors = Some r -> False.
Proof.
  intros Ha Hk Hs Hl. apply lookup_iff in Hl as (n & Hi & Hn); [|apply names_nodup]. unfold apart_from in Ha. rewrite forallb_forall in Ha. specialize (Ha k Hk). apply negb_true_iff in Ha. rewrite <- not_true_iff_false in Ha. apply Ha.
  apply existsb_exists. exists (map lower (tx n)). split; [apply in_map_iff; exists (n, r); auto|]. destruct (list_eq_dec ascii_dec _ _) as [|Hne]; [reflexivity|]. exfalso. apply Hne. apply (spells_det s); assumption.
Qed.
Lemma from_rgba_bytes k r g b a c : c = from_rgba r g b a -> stands_for k (Bytes r g b a) c.
Proof. intros ->. repeat split; reflexivity. Qed.
Lemma hex_all_forall s v : hex_all s = Some v -> Forall2 digit_is s v.
Proof. revert v. induction s as [|c s IH]; intros v H; [injection H as <-; constructor|]. apply hex_all_cons in H as (d & r & -> & Hd & H). constructor; auto. Qed.
Lemma hash_sound rho x s c : hash x s -> parse_hash_color s = Some c -> exists w, written false rho x w /\ stands_for code w c.
Proof.
  intros Hx. unfold parse_hash_color. destruct (hex_all s) as [v|] eqn:E; [|discriminate]. pose proof (hex_all_length _ _ E) as Hl. intros H.
  assert (R : forall r, (r * 17 = r * 16 + r)%Z) by (intros; lia).
  destruct v as [|v1 [|v2 [|v3 [|v4 [|v5 [|v6 [|v7 [|v8 [|v9 v]]]]]]]]]; try discriminate H;
    destruct s as [|s1 [|s2 [|s3 [|s4 [|s5 [|s6 [|s7 [|s8 [|s9 s]]]]]]]]]; try discriminate Hl; rewrite ?R in H; injection H as <-;
    apply hex_all_forall in E; repeat match goal with E : Forall2 _ (_ :: _) _ |- _ => inversion E; subst; clear E end; (eexists; split; [|apply from_rgba_bytes; reflexivity]).
  - eapply wr_hex3; eassumption.
  - eapply wr_hex4; eassumption.
  - eapply wr_hex6; eassumption.
  - eapply wr_hex8; eassumption.
Qed.
Lemma hex_all_digits s v : Forall2 digit_is s v -> hex_all s = Some v.
Proof. induction 1; [reflexivity|]. apply hex_all_cons. eauto. Qed.
Lemma hash_color_of rho x s : hash x s -> color_of rho x = parse_hash_color s. Proof. intros [-> | ->]; reflexivity. Qed.
Lemma call_color_of rho x ks f l : called x ks l -> (forall k, In k ks -> In (k, f) color_functions) -> color_of rho x = parse_color_function rho f l.
Proof.
  intros (k & Hk & s & -> & Hs) Hf. cbn [color_of]. assert (E : lookup s color_functions = Some f) by (apply lookup_iff; [names|eauto]). rewrite E. reflexivity.
Qed.
Lemma color_sound rho x c : color_of rho x = Some c -> exists w, written false rho x w /\ stands_for code w c.
Proof.
  intros H. destruct x as [y|s l|? ?]; [destruct y; try discriminate H|..|discriminate H]; cbn [color_of] in H.
  - unfold parse_color_keyword in H. destruct (same_name s (tx "transparent")) eqn:Et; [injection H as <-; eexists; split; [apply wr_transparent; exists s; split; [reflexivity|apply same_spells, Et]|apply from_rgba_bytes; reflexivity]|].
    destruct (same_name s (tx "currentcolor")); [discriminate|]. destruct (lookup s named_colors) as [((r & g) & b)|] eqn:El; [|discriminate]. cbn in H. injection H as <-. apply lookup_iff in El as (k & Hi & Hs); [|apply names_nodup].
    eexists. split; [eapply wr_name; [exact Hi|exists s; auto]|apply from_rgba_bytes; reflexivity].
  - eapply hash_sound; [left; reflexivity|exact H].
  - eapply hash_sound; [right; reflexivity|exact H].
  - destruct (lookup s color_functions) as [f|] eqn:El; [|discriminate]. cbn [bind] in H. apply lookup_iff in El as (k & Hi & Hs); [|names].
    assert (Hc : forall ks, In k ks -> called (Fun s l) ks l) by (intros ks Hk; exists k; split; [exact Hk|exists s; auto]).
    cbn in Hi. repeat destruct Hi as [Hi|Hi]; try contradiction; injection Hi as <- <-; cbn [parse_color_function] in H;
      [eapply rgb_sound|eapply rgb_sound|eapply hsl_sound|eapply hsl_sound|eapply hwb_sound|..|eapply color_fn_sound]; try (exact H); try (apply Hc; cbn; tauto).
    + apply lab_sound in H as (p & q & r & e & op & oq & or & a & al & -> & H1 & H2 & H3 & He & Ha & ->). eexists. split; [eapply wr_lab; [apply Hc; cbn; tauto|eassumption..]|apply is_laba, Ha].
    + apply lch_sound in H as (p & q & r & e & op & oq & h & h' & a & al & -> & H1 & H2 & H3 & Hh & He & Ha & ->). eexists. split; [eapply wr_lch; [apply Hc; cbn; tauto|eassumption..]|apply is_lcha; assumption].
    + apply lab_sound in H as (p & q & r & e & op & oq & or & a & al & -> & H1 & H2 & H3 & He & Ha & ->). eexists. split; [eapply wr_oklab; [apply Hc; cbn; tauto|eassumption..]|apply is_oklaba, Ha].
    + apply lch_sound in H as (p & q & r & e & op & oq & h & h' & a & al & -> & H1 & H2 & H3 & Hh & He & Ha & ->). eexists. split; [eapply wr_oklch; [apply Hc; cbn; tauto|eassumption..]|apply is_oklcha; assumption].
Qed.
Ltac fns := let k := fresh in let Hk := fresh in intros k Hk; cbn in Hk |- *; repeat destruct Hk as [<-|Hk]; try contradiction; tauto.
(** whatever the reading, the color is what it stands for *)
Lemma color_complete rho x w : written false rho x w -> match color_of rho x with Some c => stands_for code w c | None => ~ supported w end.
Proof.
  assert (R : forall r, (r * 17 = r * 16 + r)%Z) by (intros; lia).
  assert (K : forall w o c, o = Some c -> stands_for code w c -> match o with Some c => stands_for code w c | None => ~ supported w end) by (intros w0 o c -> H; exact H).
  intros H. destruct H.
  - rewrite (hash_color_of rho x _ H). unfold parse_hash_color. rewrite (hex_all_digits [a; b; c] [r; g; u]) by (repeat constructor; assumption). rewrite !R. apply from_rgba_bytes. reflexivity.
  - rewrite (hash_color_of rho x _ H). unfold parse_hash_color. rewrite (hex_all_digits [a; b; c; d] [r; g; u; v]) by (repeat constructor; assumption). rewrite !R. apply from_rgba_bytes. reflexivity.
  - rewrite (hash_color_of rho x _ H). unfold parse_hash_color. rewrite (hex_all_digits [a; a'; b; b'; c; c'] [r; r'; g; g'; u; u']) by (repeat constructor; assumption). apply from_rgba_bytes. reflexivity.
  - rewrite (hash_color_of rho x _ H). unfold parse_hash_color. rewrite (hex_all_digits [a; a'; b; b'; c; c'; d; d'] [r; r'; g; g'; u; u'; v; v']) by (repeat constructor; assumption). apply from_rgba_bytes. reflexivity.
  - destruct H0 as (s & -> & Hs). cbn [color_of]. unfold parse_color_keyword. assert (El : lookup s named_colors = Some (r, g, b)) by (apply lookup_iff; [apply names_nodup|eauto]).
    assert (Hn : forall k, In k ["transparent"; "currentcolor"]%string -> same_name s (tx k) = false). { intros k' Hk. apply same_spells_f. intros Hc. eapply (apart ["transparent"; "currentcolor"]%string); [vm_compute; reflexivity|exact Hk|exact Hc|exact El]. }
    rewrite !Hn by (cbn; tauto). rewrite El. cbn [option_map]. apply from_rgba_bytes. reflexivity.
  - destruct H as (s & -> & Hs). cbn [color_of]. unfold parse_color_keyword. apply same_spells in Hs. rewrite Hs. apply from_rgba_bytes. reflexivity.
  - destruct H as (s & -> & Hs). cbn [color_of]. unfold parse_color_keyword. assert (Et : same_name s (tx "transparent") = false). { apply same_spells_f. intros Hc. pose proof (spells_det _ _ _ Hs Hc) as E. vm_compute in E. discriminate. }
    rewrite Et. apply same_spells in Hs. rewrite Hs. cbn. tauto.
  - rewrite (call_color_of rho x _ FRgb _ H) by fns. cbn [parse_color_function]. edestruct (rgb_modern_complete r g b e) as (c & E & Hc); [eassumption..|]. eapply K; eassumption.
  - rewrite (call_color_of rho x _ FRgb _ H) by fns. cbn [parse_color_function]. edestruct (rgb_legacy_complete r g b e) as (c & E & Hc); [eassumption..|]. eapply K; eassumption.
  - rewrite (call_color_of rho x _ FHsl _ H) by fns. cbn [parse_color_function]. edestruct (hsl_modern_complete rho h s l e) as (c & E & Hc); [eassumption..|]. eapply K; eassumption.
  - rewrite (call_color_of rho x _ FHsl _ H) by fns. cbn [parse_color_function]. edestruct (hsl_legacy_complete rho h s l e) as (c & E & Hc); [eassumption..|]. eapply K; eassumption.
  - rewrite (call_color_of rho x _ FHwb _ H) by fns. cbn [parse_color_function]. edestruct (hwb_complete rho h w b e) as (c & E & Hc); [eassumption..|]. eapply K; eassumption.
  - rewrite (call_color_of rho x _ FLab _ H) by fns. cbn [parse_color_function]. edestruct (lab_complete 100 125 from_lab l a b e) as (op & oq & or & oa & <- & <- & <- & Ha & E); [eassumption..|]. eapply K; [exact E|apply is_laba, Ha].
  - rewrite (call_color_of rho x _ FLch _ H) by fns. cbn [parse_color_function]. edestruct (lch_complete rho 100 150 from_lch l c h e) as (op & oq & oh & oa & <- & <- & Hh & Ha & E); [eassumption..|]. eapply K; [exact E|apply is_lcha; assumption].
  - rewrite (call_color_of rho x _ FOklab _ H) by fns. cbn [parse_color_function]. edestruct (lab_complete 1 (4 # 10) from_oklab l a b e) as (op & oq & or & oa & <- & <- & <- & Ha & E); [eassumption..|]. eapply K; [exact E|apply is_oklaba, Ha].
  - rewrite (call_color_of rho x _ FOklch _ H) by fns. cbn [parse_color_function]. edestruct (lch_complete rho 1 (4 # 10) from_oklch l c h e) as (op & oq & oh & oa & <- & <- & Hh & Ha & E); [eassumption..|]. eapply K; [exact E|apply is_oklcha; assumption].
  - rewrite (call_color_of rho x _ FColor _ H) by fns. cbn [parse_color_function]. match goal with A : In _ space_names, B : word _ _ , C : is_given a _, D : is_given b _, E : is_given c _, F : modern_end e _ |- _ => pose proof (color_fn_complete _ _ _ _ _ _ _ _ _ _ _ A B C D E F) as G end.
    destruct (bind _ _) as [col|]; [exact G|]. subst. cbn. tauto.
Qed.
Lemma stands_supported k w c : stands_for k w c -> supported w.
Proof. destruct w as [| | | | | | | | |[]]; cbn; try tauto. intros (m & [] & _). Qed.
Lemma alpha_is_det m g v w : alpha_is m g v -> alpha_is m g w -> (v == w)%Q.
Proof. destruct g; cbn [alpha_is]; [lra|apply clamped_det; lra..]. Qed.
Lemma byte_det g v w : byte g v -> byte g w -> (v == w)%Q.
Proof.
  intros (z & c & A & B & E) (z' & c' & A' & B' & E'). assert (Ec : (c == c')%Q) by (apply (clamped_det 0 255 (amount 255 g)); [lra|assumption|assumption]).
  assert (z = z'). { assert (H1 : (z < z' + 1)%Z). { rewrite Zlt_Qlt, inject_Z_plus. change (inject_Z 1) with 1%Q. lra. } assert (H2 : (z' < z + 1)%Z). { rewrite Zlt_Qlt, inject_Z_plus. change (inject_Z 1) with 1%Q. lra. } lia. }
  subst. rewrite E, E'. reflexivity.
Qed.
Lemma direction_det h v w : direction h v -> direction h w -> (v == w)%Q.
Proof.
  destruct h as [q|]; cbn [direction]; [|lra]. intros (A & k & E) (A' & k' & E'). assert (k = k').
  { assert (H1 : (k < k' + 1)%Z). { rewrite Zlt_Qlt, inject_Z_plus. change (inject_Z 1) with 1%Q. lra. } assert (H2 : (k' < k + 1)%Z). { rewrite Zlt_Qlt, inject_Z_plus. change (inject_Z 1) with 1%Q. lra. } lia. }
  subst. lra.
Qed.
Lemma stands_det k w c d : stands_for k w c -> stands_for k w d -> same_color c d.
Proof.
  assert (D : forall m (p q r a : Q -> Prop), (forall v w, p v -> p w -> v == w)%Q -> (forall v w, q v -> q w -> v == w)%Q -> (forall v w, r v -> r w -> v == w)%Q -> (forall v w, a v -> a w -> v == w)%Q ->
    is_color c m p q r a -> is_color d m p q r a -> same_color c d).
  { intros m p q r a Hp Hq Hr Ha (A & B & C & E & F) (A' & B' & C' & E' & F'). repeat split; [congruence|auto..]. }
  assert (Q0 : forall x v w, (x == v -> x == w -> v == w)%Q) by (intros; lra).
  destruct w; cbn [stands_for]; try (apply D; first [apply byte_det|apply alpha_is_det|apply direction_det|intros ? ?; apply clamped_det; lra|apply Q0]).
  { intros []. }
  intros (m & Hm & H) (m' & Hm' & H'). assert (m = m') by (destruct s; congruence || contradiction). subst m'. revert H H'. apply D; first [apply alpha_is_det|apply Q0].
Qed.
