From Coq Require Import QArith Qround Lqa Lia.
From Verif Require Import Base Calc CalcSpec CalcProofs Interp InterpSpec.

Lemma on_line_app t a b r a' b' r' : on_line t a b r -> on_line t a' b' r' -> on_line t (a ++ a') (b ++ b') (r ++ r').
Proof. intros H; induction H; simpl; intros; [assumption|constructor; auto]. Qed.
Lemma on_num t p q : atom_on_line t (Num p) (Num q) (Num (lerp p q t)).
Proof. simpl. unfold lerp. lra. Qed.
Lemma on_tag t n : atom_on_line t (Tag n) (Tag n) (Tag n).
Proof. simpl; auto. Qed.

Lemma Forall2_app_len {X Y} (R : X -> Y -> Prop) a b r r' :
  length a = length b -> Forall2 R (a ++ r) (b ++ r') -> Forall2 R a b /\ Forall2 R r r'.
Proof.
  revert b; induction a as [|x a IH]; intros [|y b] Hl H; simpl in *; try discriminate; [auto|].
  inversion H; subst. destruct (IH b) as [? ?]; auto.
Qed.

Lemma is_zero_worth v : is_zero v = true <-> zero_length v.
Proof.
  unfold zero_length. destruct v; simpl.
  { split; [discriminate|]. intros [H _]; congruence. }
  all: rewrite Qeq_bool_iff; split;
    [ intros H; split; [discriminate|]; intros []; simpl; auto; reflexivity
    | intros [_ H]; first [exact (H Px)|exact (H Percent)|exact (H Vw)|exact (H Vh)|exact (H Vmin)|exact (H Vmax)] ].
Qed.

(** Lengths *)
Definition unit_of (v : val) : option lunit :=
  match v with VAuto => None | VPx _ => Some Px | VPercent _ => Some Percent | VVw _ => Some Vw | VVh _ => Some Vh | VVmin _ => Some Vmin | VVmax _ => Some Vmax end.
Definition val_units_agree (a b : val) : Prop :=
  unit_of a = unit_of b \/ (a <> VAuto /\ b <> VAuto /\ (zero_length a \/ zero_length b)).
Definition amount (v : val) : Q := match v with VAuto => 0 | VPx q | VPercent q | VVw q | VVh q | VVmin q | VVmax q => q end.
Lemma worth_unit v u : unit_of v = Some u -> val_worth v u = amount v.
Proof. destruct v; simpl; intros H; inversion H; reflexivity. Qed.
Lemma worth_amount v u : unit_of v = Some u -> val_worth v u == 0 -> zero_length v.
Proof. intros H. destruct v; simpl in H; inversion H; subst; simpl; intros Hz; split; try discriminate; intros []; simpl; auto; reflexivity. Qed.
Lemma compat_agree a b : compat (Len (is_auto a) (val_worth a)) (Len (is_auto b) (val_worth b)) -> val_units_agree a b.
Proof.
  intros [Hab [u Hu]].
  assert (Hd : forall x y : lunit, {x = y} + {x <> y}) by (intros; decide equality).
  destruct (unit_of a) as [ua|] eqn:Ea, (unit_of b) as [ub|] eqn:Eb.
  - destruct (Hd ua ub) as [->|Hne]; [left; congruence|]. right. split; [intros ->; discriminate|]. split; [intros ->; discriminate|].
    destruct (Hd ua u) as [->|H1].
    + right. apply (worth_amount b ub Eb), Hu. congruence.
    + left. apply (worth_amount a ua Ea), Hu, H1.
  - destruct b; try discriminate. destruct a; discriminate.
  - destruct a; try discriminate. destruct b; discriminate.
  - left; congruence.
Qed.
Ltac qz := repeat match goal with H : Qeq_bool _ _ = true |- _ => apply Qeq_bool_iff in H end.
Ltac line1 := unfold flat_val; constructor; [|constructor]; split; [reflexivity|]; split; [reflexivity|];
  intros []; unfold lerp, val_mul; simpl; try lra.
Lemma val_line t a b : val_units_agree a b -> on_line t (flat_val a) (flat_val b) (flat_val (interpolate_val a b t)).
Proof.
  intros [H|(Ha & Hb & H)].
  - destruct a, b; simpl in H; try discriminate; unfold interpolate_val; simpl; line1.
  - rewrite <- !is_zero_worth in H.
    destruct a, b; try congruence; unfold interpolate_val, interpolate_val_res; cbn [interpolate_val_fuel andb is_zero] in *;
      try (line1; fail);
      match goal with |- context [if Qeq_bool ?x 0 then _ else _] => destruct (Qeq_bool x 0) eqn:E1 end;
      try match goal with |- context [if Qeq_bool ?x 0 then _ else _] => destruct (Qeq_bool x 0) eqn:E2 end;
      try (destruct H; congruence); qz; cbn [val_mul val_map]; line1;
      repeat match goal with E : ?q == 0 |- _ => is_var q; rewrite E; clear E end; lra.
Qed.

(** Flattening is a prefix code for every relation of atoms that respects tags *)
Section PC.
  Variable K : atom -> atom -> Prop.
  Hypothesis K_tag : forall m n, K (Tag m) (Tag n) -> m = n.
  Definition pc {X} (f : X -> list atom) : Prop :=
    forall x y r r', Forall2 K (f x ++ r) (f y ++ r') -> Forall2 K (f x) (f y) /\ Forall2 K r r'.
  Lemma pc_fixed {X} (f : X -> list atom) n : (forall x, length (f x) = n) -> pc f.
  Proof. intros H x y r r' Hs. apply Forall2_app_len; [rewrite !H; reflexivity|exact Hs]. Qed.
  Lemma pc_app2 {X} (f g : X -> list atom) : pc f -> pc g -> pc (fun x => f x ++ g x).
  Proof.
    intros Hf Hg x y r r' H. rewrite <- !app_assoc in H. destruct (Hf _ _ _ _ H) as [H1 H2]. destruct (Hg _ _ _ _ H2) as [H3 H4].
    split; [apply Forall2_app; assumption|assumption].
  Qed.
  Lemma pc_flat_map {X} (f : X -> list atom) : pc f -> forall a b r r', length a = length b ->
    Forall2 K (flat_map f a ++ r) (flat_map f b ++ r') -> Forall2 (fun x y => Forall2 K (f x) (f y)) a b /\ Forall2 K r r'.
  Proof.
    intros Hf a; induction a as [|x a IH]; intros [|y b] r r' Hl H; simpl in *; try discriminate; [auto|].
    rewrite <- !app_assoc in H. destruct (Hf _ _ _ _ H) as [H1 H2]. injection Hl as Hl. destruct (IH _ _ _ Hl H2); auto.
  Qed.
  Lemma K_cons x y a b : Forall2 K (x :: a) (y :: b) -> K x y /\ Forall2 K a b.
  Proof. intros H; inversion H; auto. Qed.
  Lemma K_tag_cons m n a b : Forall2 K (Tag m :: a) (Tag n :: b) -> m = n /\ K (Tag m) (Tag n) /\ Forall2 K a b.
  Proof. intros H; inversion H; auto. Qed.
  Lemma flat_list_shape {X} (f : X -> list atom) : pc f -> forall a b r r',
    Forall2 K (flat_list f a ++ r) (flat_list f b ++ r') ->
    K (Tag (length a)) (Tag (length b)) /\ length a = length b /\ Forall2 (fun x y => Forall2 K (f x) (f y)) a b /\ Forall2 K r r'.
  Proof.
    intros Hf a b r r' H. unfold flat_list in H; rewrite <- !app_comm_cons in H. apply K_tag_cons in H. destruct H as (Ht & HK & Hr).
    destruct (pc_flat_map f Hf _ _ _ _ Ht Hr). auto.
  Qed.
  Lemma Forall2_flat_map {X} (f : X -> list atom) a b :
    Forall2 (fun x y => Forall2 K (f x) (f y)) a b -> Forall2 K (flat_map f a) (flat_map f b).
  Proof. intros H; induction H; simpl; [constructor|apply Forall2_app; assumption]. Qed.
  Lemma pc_list {X} (f : X -> list atom) : pc f -> pc (flat_list f).
  Proof.
    intros Hf x y r r' H. destruct (flat_list_shape f Hf _ _ _ _ H) as (HK & Hl & H1 & H2). split; [|exact H2].
    constructor; [exact HK|]. apply Forall2_flat_map, H1.
  Qed.

  Lemma pc_stop : pc flat_stop. Proof. apply (pc_fixed _ 6). reflexivity. Qed.
  Lemma pc_shadow : pc flat_shadow. Proof. apply (pc_fixed _ 8). reflexivity. Qed.
  Lemma pc_option : pc flat_option.
  Proof.
    intros [x|] [y|] r r' H; simpl in *; apply K_tag_cons in H; destruct H as (Ht & HK & Hr); try discriminate.
    - apply K_cons in Hr. destruct Hr. split; [repeat constructor; assumption|assumption].
    - split; [repeat constructor; assumption|assumption].
  Qed.
  Lemma pc_astop : pc flat_astop.
  Proof.
    unfold flat_astop. apply (pc_app2 (fun s => flat_color (as_color s)) (fun s => flat_option (as_angle s) ++ [Num (as_hint s)])).
    - apply (pc_fixed _ 4). reflexivity.
    - apply (pc_app2 (fun s => flat_option (as_angle s)) (fun s => [Num (as_hint s)])).
      + intros x y. apply pc_option.
      + apply (pc_fixed _ 1). reflexivity.
  Qed.
  Lemma pc_gradient : pc flat_gradient.
  Proof.
    intros x y r r' H. destruct x as [x|x|x], y as [y|y|y]; cbn [flat_gradient] in H; rewrite <- ?app_comm_cons in H;
      apply K_tag_cons in H; destruct H as (Ht & HK & H); try discriminate;
      apply K_cons in H; destruct H as (HK1 & H); apply K_cons in H; destruct H as (HK2 & Hr).
    - destruct (pc_list flat_stop pc_stop _ _ _ _ Hr) as [H1 H2]. split; [|exact H2]. do 3 (constructor; [assumption|]). exact H1.
    - rewrite <- !app_assoc in Hr. apply Forall2_app_len in Hr; [|reflexivity]. destruct Hr as [H0 Hr].
      destruct (pc_list flat_stop pc_stop _ _ _ _ Hr) as [H1 H2]. split; [|exact H2].
      do 3 (constructor; [assumption|]). apply Forall2_app; assumption.
    - rewrite <- !app_assoc in Hr. apply Forall2_app_len in Hr; [|reflexivity]. destruct Hr as [H0 Hr].
      destruct (pc_list flat_astop pc_astop _ _ _ _ Hr) as [H1 H2]. split; [|exact H2].
      do 3 (constructor; [assumption|]). apply Forall2_app; assumption.
  Qed.
  Lemma flat_list_shape0 {X} (f : X -> list atom) a b : pc f ->
    Forall2 K (flat_list f a) (flat_list f b) -> Forall2 (fun x y => Forall2 K (f x) (f y)) a b.
  Proof.
    intros Hf H. rewrite <- (app_nil_r (flat_list f a)), <- (app_nil_r (flat_list f b)) in H.
    destruct (flat_list_shape f Hf _ _ _ _ H) as (_ & _ & H1 & _). exact H1.
  Qed.
End PC.

Lemma Forall2_len {X Y} (R : X -> Y -> Prop) a b : Forall2 R a b -> length a = length b.
Proof. intros H; induction H; simpl; auto. Qed.

(** Whatever holds of numbers and of lengths holds of all values *)
Section R.
  Variable K : atom -> atom -> Prop.
  Hypothesis K_tag : forall m n, K (Tag m) (Tag n) -> m = n.
  Variable Rel : list atom -> list atom -> list atom -> Prop.
  Variable t : Q.
  Hypothesis R_nil : Rel [] [] [].
  Hypothesis R_app : forall a b r a' b' r', Rel a b r -> Rel a' b' r' -> Rel (a ++ a') (b ++ b') (r ++ r').
  Hypothesis R_num : forall p q, Rel [Num p] [Num q] [Num (lerp p q t)].
  Hypothesis R_tag : forall n, Rel [Tag n] [Tag n] [Tag n].
  Hypothesis R_val : forall a b, Forall2 K (flat_val a) (flat_val b) -> Rel (flat_val a) (flat_val b) (flat_val (interpolate_val a b t)).

  Lemma R_tag_cons n a b r : Rel a b r -> Rel (Tag n :: a) (Tag n :: b) (Tag n :: r).
  Proof. intros H. apply (R_app _ _ _ _ _ _ (R_tag n) H). Qed.
  Lemma R_num_cons p q a b r : Rel a b r -> Rel (Num p :: a) (Num q :: b) (Num (lerp p q t) :: r).
  Proof. intros H. apply (R_app _ _ _ _ _ _ (R_num p q) H). Qed.

  Lemma list_rel {X} (f : X -> list atom) (g : X -> X -> Q -> X) :
    (forall x y, Forall2 K (f x) (f y) -> Rel (f x) (f y) (f (g x y t))) ->
    forall a b, Forall2 (fun x y => Forall2 K (f x) (f y)) a b ->
    Rel (flat_list f a) (flat_list f b) (flat_list f (interpolate_list_with a b t g)).
  Proof.
    intros Hg a b Ha. unfold interpolate_list_with, flat_list.
    assert (Hl : length a = length b) by (eapply Forall2_len; exact Ha).
    rewrite Hl, Nat.eqb_refl. simpl.
    assert (Hz : length (zip_with (fun x y => g x y t) a b) = length b).
    { clear - Ha. induction Ha; simpl; auto. }
    rewrite Hz. apply R_tag_cons. clear Hl Hz.
    induction Ha; simpl; [exact R_nil|]. apply R_app; auto.
  Qed.

  Lemma pos_rel a b : Forall2 K (flat_pos a) (flat_pos b) -> Rel (flat_pos a) (flat_pos b) (flat_pos (interpolate_ui_position a b t)).
  Proof.
    intros Hs. unfold flat_pos in *. apply Forall2_app_len in Hs; [|reflexivity]. destruct Hs as [_ Hs].
    apply Forall2_app_len in Hs; [|reflexivity]. destruct Hs as [H1 H2].
    apply R_app; [|apply R_app; apply R_val; assumption]. do 2 apply R_num_cons. exact R_nil.
  Qed.
  Lemma color_rel a b : Rel (flat_color a) (flat_color b) (flat_color (interpolate_color a b t)).
  Proof. do 4 apply R_num_cons. exact R_nil. Qed.
  Lemma stop_rel a b : Forall2 K (flat_stop a) (flat_stop b) -> Rel (flat_stop a) (flat_stop b) (flat_stop (interpolate_color_stop a b t)).
  Proof.
    intros Hs. unfold flat_stop in *. apply Forall2_app_len in Hs; [|reflexivity]. destruct Hs as [_ Hs].
    apply Forall2_app_len in Hs; [|reflexivity]. destruct Hs as [H1 _].
    apply R_app; [apply color_rel|]. apply R_app; [apply R_val; assumption|]. apply R_num_cons, R_nil.
  Qed.
  Lemma astop_rel a b : Forall2 K (flat_astop a) (flat_astop b) -> Rel (flat_astop a) (flat_astop b) (flat_astop (interpolate_angular_color_stop a b t)).
  Proof.
    intros H. unfold flat_astop in *. apply Forall2_app_len in H; [|reflexivity]. destruct H as [_ H].
    apply R_app; [apply color_rel|]. apply R_app; [|apply R_num_cons, R_nil].
    cbn [as_angle interpolate_angular_color_stop].
    destruct (as_angle a), (as_angle b); simpl in *; apply (K_tag_cons K K_tag) in H; destruct H as (Ht & _); try discriminate; simpl.
    - apply R_tag_cons, R_num_cons, R_nil.
    - apply R_tag_cons, R_nil.
  Qed.
  Lemma gradient_rel a b : Forall2 K (flat_gradient a) (flat_gradient b) ->
    Rel (flat_gradient a) (flat_gradient b) (flat_gradient (interpolate_gradient a b t)).
  Proof.
    intros H. destruct a as [a|a|a], b as [b|b|b]; cbn [flat_gradient] in H;
      apply (K_tag_cons K K_tag) in H; destruct H as (Ht & _ & H); try discriminate;
      apply (K_tag_cons K K_tag) in H; destruct H as (Ht0 & _ & H).
    - apply K_cons in H. destruct H as (_ & Hr). unfold interpolate_gradient, interpolate_linear_gradient. rewrite Ht0, Nat.eqb_refl. cbn [negb flat_gradient l_space l_angle l_stops]. rewrite Ht0.
      do 2 apply R_tag_cons. apply R_num_cons.
      apply (list_rel flat_stop interpolate_color_stop stop_rel). apply (flat_list_shape0 K K_tag); [apply pc_stop|exact Hr].
    - apply (K_tag_cons K K_tag) in H. destruct H as (Ht1 & _ & Hr). unfold interpolate_gradient, interpolate_radial_gradient. rewrite Ht0, Ht1, !Nat.eqb_refl. cbn [negb flat_gradient r_space r_shape r_pos r_stops]. rewrite Ht0, Ht1.
      do 3 apply R_tag_cons.
      apply Forall2_app_len in Hr; [|reflexivity]. destruct Hr as [Hrp Hr]. apply R_app; [apply pos_rel; assumption|].
      apply (list_rel flat_stop interpolate_color_stop stop_rel). apply (flat_list_shape0 K K_tag); [apply pc_stop|exact Hr].
    - apply K_cons in H. destruct H as (_ & Hr). unfold interpolate_gradient, interpolate_conic_gradient. rewrite Ht0, Nat.eqb_refl. cbn [negb flat_gradient k_space k_start k_pos k_stops]. rewrite Ht0.
      do 2 apply R_tag_cons. apply R_num_cons.
      apply Forall2_app_len in Hr; [|reflexivity]. destruct Hr as [Hrp Hr]. apply R_app; [apply pos_rel; assumption|].
      apply (list_rel flat_astop interpolate_angular_color_stop astop_rel). apply (flat_list_shape0 K K_tag); [apply pc_astop, K_tag|exact Hr].
  Qed.
  Lemma shadow_rel a b : Forall2 K (flat_shadow a) (flat_shadow b) -> Rel (flat_shadow a) (flat_shadow b) (flat_shadow (interpolate_shadow_style a b t)).
  Proof.
    intros Hs. unfold flat_shadow in *. repeat (apply Forall2_app_len in Hs; [|reflexivity]; destruct Hs as [? Hs]).
    apply R_app; [apply color_rel|]. repeat apply R_app; apply R_val; assumption.
  Qed.

  Lemma value_rel a b : ~ is_rotation a -> Forall2 K (flat a) (flat b) -> Rel (flat a) (flat b) (flat (interpolate a b t)).
  Proof.
    intros Hn Hs. destruct a, b; cbn [flat] in Hs; apply (K_tag_cons K K_tag) in Hs; destruct Hs as (Ht & _ & Hr); try discriminate; try (elim Hn; exact I);
      cbn [flat interpolate]; apply R_tag_cons.
    - apply R_num_cons, R_nil.
    - apply R_num_cons, R_num_cons, R_nil.
    - apply color_rel.
    - apply R_val; assumption.
    - apply Forall2_app_len in Hr; [|reflexivity]. destruct Hr. apply R_app; apply R_val; assumption.
    - apply (list_rel flat_gradient interpolate_gradient gradient_rel). apply (flat_list_shape0 K K_tag); [apply pc_gradient, K_tag|exact Hr].
    - apply (list_rel flat_shadow interpolate_shadow_style shadow_rel). apply (flat_list_shape0 K K_tag); [apply pc_shadow|exact Hr].
    - apply R_app; [|apply color_rel]. apply R_num_cons, R_num_cons, R_nil.
  Qed.
End R.

Lemma value_line a b t : ~ is_rotation a -> compatible (flat a) (flat b) ->
  on_line t (flat a) (flat b) (flat (interpolate a b t)).
Proof.
  apply (value_rel compat (fun m n H => H)).
  - constructor.
  - intros; apply on_line_app; assumption.
  - intros; constructor; [apply on_num|constructor].
  - intros; constructor; [apply on_tag|constructor].
  - intros x y H. apply K_cons in H. destruct H as [H _]. apply val_line, compat_agree, H.
Qed.

Lemma atom_eq_refl x : atom_eq x x. Proof. destruct x; simpl; try split; reflexivity. Qed.
Lemma same_refl a : same a a. Proof. induction a; constructor; auto using atom_eq_refl. Qed.
(** Lines *)
Lemma on_line_0 a b r : on_line 0 a b r -> same r a.
Proof.
  intros H; induction H as [|x y z a b r Hx Hr IH]; constructor; auto.
  destruct x, y, z; simpl in *; try contradiction; [lra|destruct Hx; congruence|]. destruct Hx as (? & ? & H). split; [congruence|]. intros u; rewrite H; lra.
Qed.
Lemma on_line_1 a b r : on_line 1 a b r -> same r b.
Proof.
  intros H; induction H as [|x y z a b r Hx Hr IH]; constructor; auto.
  destruct x, y, z; simpl in *; try contradiction; [lra|destruct Hx; congruence|]. destruct Hx as (? & ? & H). split; [congruence|]. intros u; rewrite H; lra.
Qed.

Lemma val_mixed a b t : is_zero a = false -> is_zero b = false -> unit_of a <> unit_of b ->
  forall debug, interpolate_val_res debug a b t = Ok (if Qle_bool 1 t then b else a).
Proof.
  intros Ha Hb Hu debug. unfold interpolate_val_res.
  destruct a, b; simpl in Hu; try congruence; cbn [interpolate_val_fuel]; rewrite Ha, Hb; reflexivity.
Qed.
Lemma unit_dec (x y : option lunit) : {x = y} + {x <> y}. Proof. decide equality. decide equality. Qed.
Lemma val_cases a b : val_units_agree a b \/ (is_zero a = false /\ is_zero b = false /\ unit_of a <> unit_of b) \/
  (a = VAuto /\ zero_length b) \/ (zero_length a /\ b = VAuto).
Proof.
  destruct (unit_dec (unit_of a) (unit_of b)) as [H|H]; [left; left; exact H|].
  destruct (is_zero a) eqn:Ea.
  - apply is_zero_worth in Ea. destruct b; try (left; right; repeat split; [apply Ea|discriminate|left; apply Ea]); auto 6.
  - destruct (is_zero b) eqn:Eb; [|auto].
    apply is_zero_worth in Eb. destruct a; try (left; right; repeat split; [discriminate|apply Eb|right; apply Eb]); auto 6.
Qed.
Lemma val_end0 a b : ~ (a = VAuto /\ zero_length b) -> ~ (zero_length a /\ b = VAuto) ->
  same (flat_val (interpolate_val a b 0)) (flat_val a).
Proof.
  intros H1 H2. destruct (val_cases a b) as [H|[(Ha & Hb & Hu)|[H|H]]]; try tauto.
  - eapply on_line_0, val_line, H.
  - unfold interpolate_val. rewrite val_mixed; auto. apply same_refl.
Qed.
Lemma val_end1 a b : ~ (a = VAuto /\ zero_length b) -> ~ (zero_length a /\ b = VAuto) ->
  same (flat_val (interpolate_val a b 1)) (flat_val b).
Proof.
  intros H1 H2. destruct (val_cases a b) as [H|[(Ha & Hb & Hu)|[H|H]]]; try tauto.
  - eapply on_line_1, val_line, H.
  - unfold interpolate_val. rewrite val_mixed; auto. apply same_refl.
Qed.
Lemma shape_no_auto a b : same_shape (flat_val a) (flat_val b) -> ~ (a = VAuto /\ zero_length b) /\ ~ (zero_length a /\ b = VAuto).
Proof.
  intros H. apply K_cons in H. destruct H as [H _]. simpl in H. split; intros [H1 H2].
  - subst a. destruct H2 as [H2 _]. destruct b; try discriminate. congruence.
  - subst b. destruct H1 as [H1 _]. destruct a; try discriminate. congruence.
Qed.
Lemma same_app a b a' b' : same a b -> same a' b' -> same (a ++ a') (b ++ b').
Proof. apply Forall2_app. Qed.
Lemma value_ends a b : ~ is_rotation a -> same_shape (flat a) (flat b) ->
  same (flat (interpolate a b 0)) (flat a) /\ same (flat (interpolate a b 1)) (flat b).
Proof.
  intros Hn Hs. split.
  - apply (value_rel same_kind (fun m n H => H) (fun x y r => same r x) 0); try (intros; apply same_app; assumption); try (intros; apply same_refl); try assumption.
    + intros; constructor; [|constructor]. simpl. unfold lerp; lra.
    + intros x y H. destruct (shape_no_auto _ _ H). apply val_end0; assumption.
  - apply (value_rel same_kind (fun m n H => H) (fun x y r => same r y) 1); try (intros; apply same_app; assumption); try (intros; apply same_refl); try assumption.
    + intros; constructor; [|constructor]. simpl. unfold lerp; lra.
    + intros x y H. destruct (shape_no_auto _ _ H). apply val_end1; assumption.
Qed.

Lemma val_res_ok debug a b t : ~ (a = VAuto /\ zero_length b) -> ~ (zero_length a /\ b = VAuto) ->
  exists v, interpolate_val_res debug a b t = Ok v /\ interpolate_val a b t = v.
Proof.
  intros H1 H2. destruct (val_cases a b) as [H|[(Ha & Hb & Hu)|[H|H]]]; try tauto.
  - unfold interpolate_val, interpolate_val_res. rewrite <- !is_zero_worth in *.
    destruct H as [H|(Ha & Hb & H)].
    + destruct a, b; try discriminate; eexists; split; reflexivity.
    + rewrite <- !is_zero_worth in H. destruct (is_zero a) eqn:Ea.
      * destruct a, b; try congruence; cbn [interpolate_val_fuel]; rewrite ?Ea; unfold val_mul, val_map;
          try (eexists; split; reflexivity);
          (assert (E : forall q : Q, Qeq_bool (q * 0) 0 = true) by (intros; apply Qeq_bool_iff; lra); cbn [is_zero]; rewrite E, andb_false_r; eexists; split; reflexivity).
      * destruct H as [H|Eb]; [discriminate|].
        destruct a, b; try congruence; cbn [interpolate_val_fuel]; rewrite ?Ea, ?Eb; unfold val_mul, val_map;
          try (eexists; split; reflexivity);
          (assert (E : forall q : Q, Qeq_bool (q * 0) 0 = true) by (intros; apply Qeq_bool_iff; lra); cbn [is_zero]; rewrite E, andb_false_r; eexists; split; reflexivity).
  - rewrite val_mixed by assumption. eexists; split; [reflexivity|]. unfold interpolate_val. rewrite val_mixed by assumption. reflexivity.
Qed.

Lemma val_terminates debug n a b t : interpolate_val_fuel debug (S (S n)) a b t = interpolate_val_res debug a b t /\ interpolate_val_res debug a b t <> OutOfFuel.
Proof.
  unfold interpolate_val_res.
  destruct a, b; cbn [interpolate_val_fuel val_mul val_map]; repeat (match goal with |- context [if ?c then _ else _] => destruct c end); split; try reflexivity; discriminate.
Qed.

Lemma wrap_range q : - (1 # 2) < wrap q <= 1 # 2.
Proof.
  unfold wrap. pose proof (Qle_ceiling (q - (1 # 2))). pose proof (Qceiling_lt (q - (1 # 2))) as H0.
  unfold Z.sub in H0. rewrite inject_Z_plus in H0. change (inject_Z (-(1))) with (-(1)) in H0. lra.
Qed.
Lemma wrap_same q : same_rotation (wrap q) q.
Proof. exists (- Qceiling (q - (1 # 2)))%Z. unfold wrap. rewrite inject_Z_opp. lra. Qed.

(** Lines compose *)
Lemma on_line_ext s s' a b r : s == s' -> on_line s a b r -> on_line s' a b r.
Proof.
  intros Hs H; induction H as [|x y z a b r Hx Hr IH]; constructor; auto.
  destruct x, y, z; simpl in *; try contradiction; auto.
  - rewrite <- Hs; exact Hx.
  - destruct Hx as (? & ? & Hx). repeat split; auto. intros u. rewrite <- Hs. apply Hx.
Qed.
Lemma on_line_between s s' u a b w w' z : on_line s a b w -> on_line s' a b w' -> on_line u w w' z -> on_line (s + (s' - s) * u) a b z.
Proof.
  intros H; revert w' z; induction H as [|x y c a b w Hx H IH]; intros w' z H' Hz.
  - inversion H'; subst. inversion Hz; subst. constructor.
  - inversion H' as [|? ? c' ? ? w'' Hx' H'']; subst. inversion Hz as [|? ? c'' ? ? z' Hc Hz']; subst. constructor; [|apply (IH w''); assumption].
    destruct x, y, c, c', c''; simpl in *; try contradiction.
    + rewrite Hc, Hx, Hx'. ring.
    + intuition congruence.
    + destruct Hx as (? & ? & Hx), Hx' as (? & ? & Hx'), Hc as (? & ? & Hc). repeat split; try congruence. intros l. rewrite Hc, Hx, Hx'. ring.
Qed.
Lemma compat_on_line s s' a b w w' : compatible a b -> on_line s a b w -> on_line s' a b w' -> compatible w w'.
Proof.
  intros Hc H; revert w' Hc; induction H as [|x y c a b w Hx H IH]; intros w' Hc H'.
  - inversion H'; subst. constructor.
  - inversion H' as [|? ? c' ? ? w'' Hx' H'']; subst. inversion Hc as [|? ? ? ? Hxy Hab]; subst. constructor; [|apply IH; assumption].
    destruct x, y, c, c'; simpl in *; try contradiction; auto.
    + intuition congruence.
    + destruct Hxy as (Ha & v & Hv), Hx as (? & ? & Hx), Hx' as (? & ? & Hx'). split; [congruence|]. exists v. intros u Hu. destruct (Hv u Hu) as [E1 E2].
      rewrite Hx, Hx', E1, E2. split; ring.
Qed.
Lemma on_line_start a b : compatible a b -> on_line 0 a b a.
Proof.
  intros H; induction H as [|x y a b Hx H IH]; constructor; auto. destruct x, y; simpl in *; try contradiction; auto; [ring|].
  destruct Hx as [-> _]. repeat split; auto. intros; ring.
Qed.
Lemma on_line_end a b : compatible a b -> on_line 1 a b b.
Proof.
  intros H; induction H as [|x y a b Hx H IH]; constructor; auto. destruct x, y; simpl in *; try contradiction; auto; [ring|].
  destruct Hx as [-> _]. repeat split; auto. intros; ring.
Qed.
Lemma flat_head v : exists r, flat v = Tag (match v with AF32 _ => 0 | AVec2 _ => 1 | ARot2 _ => 2 | AColor _ => 3 | AVal _ => 4 | AVal2 _ => 5 | AGradients _ => 6 | ABoxShadow _ => 7 | ATextShadow _ => 8 end)%nat :: r.
Proof. destruct v; simpl; eexists; reflexivity. Qed.
Lemma rotation_on_line s a b w : on_line s (flat a) (flat b) (flat w) -> ~ is_rotation a -> ~ is_rotation w.
Proof.
  intros H Ha Hw. destruct w; try contradiction. destruct (flat_head a) as [tl Hr]. rewrite Hr in H. inversion H as [|? y ? ? ? ? Hx _]; subst.
  destruct y; simpl in Hx; try contradiction. destruct Hx as [_ Hx]. destruct a; try discriminate. apply Ha; exact I.
Qed.
Lemma same_trans a b c : same a b -> same b c -> same a c.
Proof.
  intros H; revert c; induction H as [|x y a b Hx H IH]; intros c Hc; inversion Hc as [|? z ? c' Hy Hc']; subst; constructor; [|apply IH; assumption].
  destruct x, y, z; simpl in *; try contradiction; try congruence; [lra|]. destruct Hx as [-> Hx], Hy as [-> Hy]. split; auto. intros u. rewrite Hx. apply Hy.
Qed.
