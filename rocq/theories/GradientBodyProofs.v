From Coq Require Import Ascii String NArith ZArith QArith Lqa Lia.
From Verif Require Import Base Vars VarText SheetText ValueParse ValueParseSpec ValueParseProofs MoreValues MoreValuesSpec MoreValuesProofs Gradient GradientSpec GradientProofs.
From Verif Require Calc.
Open Scope nat_scope.

Section Body.
  Context {color : Type} (color_of : tree -> option color) (calc_val : list tree -> option val) (calc_angle : list tree -> option Q) (rho : Q) (opposite : Q -> Q -> Q).
  Context (Hapart : colors_apart color_of calc_val calc_angle rho).
  Notation pval := (parse_calc calc_val parse_val).
  Notation pangle := (parse_rotation calc_angle rho).
  Notation a_val := (a_val calc_val).
  Notation an_angle := (an_angle calc_angle rho).

  (** ** Headers *)
  Definition other (ks : list string) (x : tree) : Prop := x = comma \/ (exists k, In k ks /\ word x k) \/ exists c, color_of x = Some c.
  Definition absent_ok {X} (f : list tree -> maybe X) (ks : list string) : Prop := forall x r, other ks x -> f (x :: r) = Some (None, x :: r).
  Lemma other_pval ks x r : incl ks ["at"; "in"]%string -> other ks x -> one pval (x :: r) = None.
  Proof.
    intros Hk H. apply one_none. destruct (pval x) as [v|] eqn:E; [|reflexivity]. apply pval_iff in E. exfalso. destruct H as [->|[(k & Hi & Hw)|(c & Hc)]].
    - apply (proj2 (pval_iff calc_val comma v)) in E. discriminate.
    - pose proof (val_word _ _ _ _ E Hw) as Hb. apply Hk in Hi. cbn in Hi. repeat destruct Hi as [Hi|Hi]; try contradiction; subst k; vm_compute in Hb; discriminate.
    - destruct (Hapart x c Hc) as (_ & Hv & _). exact (Hv v E).
  Qed.
  Lemma other_pangle ks x r : incl ks ["at"; "in"]%string -> other ks x -> one pangle (x :: r) = None.
  Proof.
    intros Hk H. apply one_none. destruct (pangle x) as [v|] eqn:E; [|reflexivity]. apply pangle_iff in E. exfalso. destruct H as [->|[(k & Hi & Hw)|(c & Hc)]].
    - apply (proj2 (pangle_iff calc_angle rho comma v)) in E. discriminate.
    - pose proof (angle_word _ _ _ _ _ E Hw) as Hb. apply Hk in Hi. cbn in Hi. repeat destruct Hi as [Hi|Hi]; try contradiction; subst k; vm_compute in Hb; discriminate.
    - destruct (Hapart x c Hc) as (_ & _ & Hv & _). exact (Hv v E).
  Qed.
  Definition used : list string := ["to"; "in"; "from"; "at"; "circle"; "ellipse"; "closest-side"; "farthest-side"; "closest-corner"; "farthest-corner"]%string.
  Lemma other_word ks x k : other ks x -> In k used -> (forall k', In k' ks -> map lower (tx k') <> map lower (tx k)) -> ~ word x k.
  Proof.
    intros [->|[(k' & Hi & Hw)|(c & Hc)]] Hu Hn Hw'; [exact (comma_no_word _ Hw')|exact (Hn _ Hi (word_det _ _ _ Hw Hw'))|].
    destruct (Hapart x c Hc) as (_ & _ & _ & H). exact (H k Hu Hw').
  Qed.
  Ltac no_word H := apply (other_word _ _ _ H); [cbn; tauto|let Hi := fresh in intros ? Hi; cbn in Hi; repeat destruct Hi as [Hi|Hi]; try contradiction; subst; vm_compute; discriminate].
  Lemma shape_absent : absent_ok (parse_shape calc_val) ["at"; "in"]%string.
  Proof.
    intros x r H. unfold parse_shape, circle_or_ellipse. rewrite (other_pval _ x r (incl_refl _) H). cbn [bind orelse].
    rewrite (eat_one_none [("circle", tt); ("ellipse", tt)]%string x r ltac:(names)) by (intros k v Hi; cbn in Hi; repeat destruct Hi as [Hi|Hi]; try contradiction; injection Hi; intros; subst; no_word H).
    rewrite (eat_one_none shape_keywords x r ltac:(names)) by (intros k v Hi; cbn in Hi; repeat destruct Hi as [Hi|Hi]; try contradiction; injection Hi; intros; subst; no_word H). reflexivity.
  Qed.
  Lemma at_absent : absent_ok (parse_position calc_val) ["in"]%string.
  Proof. intros x r H. unfold parse_position. rewrite eat_none; [reflexivity|no_word H]. Qed.
  Lemma space_absent : absent_ok parse_color_space [].
  Proof. intros x r H. unfold parse_color_space. rewrite eat_none; [reflexivity|no_word H]. Qed.
  Lemma direction_absent : absent_ok (parse_linear_angle calc_angle rho opposite) ["in"]%string.
  Proof. intros x r H. unfold parse_linear_angle. rewrite (other_pangle ["in"]%string x r) by (exact H || (intros k; cbn; tauto)). rewrite eat_none; [reflexivity|no_word H]. Qed.
  Lemma from_absent : absent_ok (parse_conic_angle calc_angle rho) ["at"; "in"]%string.
  Proof. intros x r H. unfold parse_conic_angle. rewrite eat_none; [reflexivity|no_word H]. Qed.

  Definition hdr_ok {H} (f : list tree -> maybe H) (is_h : list tree -> H -> Prop) : Prop :=
    (forall l o r, f l = Some (o, r) -> match o with None => r = l | Some v => exists h, h <> [] /\ l = h ++ r /\ is_h h v end) /\
    (forall h v r, h <> [] -> is_h h v -> f (h ++ comma :: r) = Some (Some v, comma :: r)) /\
    (forall x c r, color_of x = Some c -> f (x :: r) = Some (None, x :: r)).
  (** the piece, read in front of what begins with one of the words, or with a comma *)
  Definition before (ks : list string) (r : list tree) : Prop := exists x q, r = x :: q /\ (x = comma \/ exists k, In k ks /\ word x k).
  Lemma piece_reads {X} (f : list tree -> maybe X) (is_it : list tree -> X -> Prop) ks : piece_ok f is_it -> absent_ok f ks -> incl ks ["at"; "in"]%string -> forall xs o r, piece is_it xs o -> before ks r -> f (xs ++ r) = Some (o, r).
  Proof.
    intros (_ & Hc & _) Ha Hk xs o r Hp (x & q & -> & Hx). destruct o as [v|]; cbn [piece] in Hp.
    - apply Hc; [exact Hp|]. cbn. destruct Hx as [->|(k & Hi & Hw)]; [auto|]. apply Hk in Hi. cbn in Hi. destruct Hi as [<-|[<-|[]]]; auto.
    - subst xs. cbn [app]. apply Ha. unfold other. destruct Hx as [->|Hx]; auto.
  Qed.
  Lemma piece_sound {X} (f : list tree -> maybe X) (is_it : list tree -> X -> Prop) : piece_ok f is_it -> forall l o r, f l = Some (o, r) -> exists xs, l = xs ++ r /\ piece is_it xs o /\ (o = None \/ xs <> []).
  Proof.
    intros (Hs & _ & Hn) l o r H. apply Hs in H. destruct o as [v|].
    - destruct H as (xs & -> & H). exists xs. split; [reflexivity|]. split; [exact H|]. right. eapply Hn; exact H.
    - subst r. exists []. cbn. auto.
  Qed.
  Lemma space_before xs (o : option color_space) r ks : In "in"%string ks -> piece is_space xs o -> before ks (xs ++ comma :: r).
  Proof.
    intros Hi H. destruct o as [s|]; cbn [piece] in H; [|subst xs; exists comma, r; auto].
    destruct H as [w x s Hw _|w x h u s Hw _ _ _|w x h u s Hw _ _ _]; eexists w, _; (split; [reflexivity|]); right; exists "in"%string; auto.
  Qed.
  Lemma at_before xs o ys (s : option color_space) r : piece (is_at calc_val) xs o -> piece is_space ys s -> before ["at"; "in"]%string (xs ++ ys ++ comma :: r).
  Proof.
    intros H H'. destruct o as [p|]; cbn [piece] in H; [|subst xs; cbn [app]; eapply space_before; [|exact H']; cbn; auto].
    destruct H as [x l p Hw _]. eexists x, _. split; [reflexivity|]. right. exists "at"%string. cbn. auto.
  Qed.
  Lemma app_nonempty {X} (a b : list X) : a <> [] \/ b <> [] -> a ++ b <> []. Proof. destruct a, b; cbn; intros [H|H]; congruence. Qed.
  Lemma linear_hdr : hdr_ok (combine2 (parse_linear_angle calc_angle rho opposite) parse_color_space) (linear_header calc_angle rho opposite).
  Proof.
    pose proof (direction_ok calc_angle rho opposite) as Hd. split; [|split].
    - intros l o r. unfold combine2. destruct (parse_linear_angle _ _ _ l) as [[a r1]|] eqn:E; [|discriminate]. cbn [bind fst snd]. destruct (parse_color_space r1) as [[s r2]|] eqn:E'; [|discriminate]. cbn [bind fst snd].
      apply (piece_sound _ _ Hd) in E as (xs & -> & H & Hn). apply (piece_sound _ _ space_ok) in E' as (ys & -> & H' & Hn').
      assert (Hh : linear_header calc_angle rho opposite (xs ++ ys) (a, s)) by (exists xs, ys; auto).
      assert (Ho : a = None /\ s = None \/ xs ++ ys <> []) by (destruct Hn, Hn'; auto; right; apply app_nonempty; auto).
      destruct a as [a|]; [|destruct s as [s|]]; intros E; injection E as <- <-.
      + exists (xs ++ ys). rewrite app_assoc. split; [destruct Ho as [[? ?]|Ho]; [discriminate|exact Ho]|auto].
      + exists (xs ++ ys). rewrite app_assoc. split; [destruct Ho as [[? ?]|Ho]; [discriminate|exact Ho]|auto].
      + cbn in H, H'. subst. reflexivity.
    - intros h [a s] r Hn (xs & ys & -> & H & H'). cbn [fst snd] in H, H'. unfold combine2. rewrite <- app_assoc. rewrite (piece_reads _ _ _ Hd direction_absent) with (o := a) by (first [exact H|eapply space_before; [|exact H']; cbn; auto|intros k; cbn; tauto]).
      cbn [bind fst snd]. rewrite (piece_reads _ _ _ space_ok space_absent) with (o := s) by (first [exact H'|intros k; cbn; tauto|exists comma, r; auto]). cbn [bind fst snd].
      destruct a as [a|]; [reflexivity|]. destruct s as [s|]; [reflexivity|]. cbn in H, H'. subst. contradiction.
    - intros x c r Hc. unfold combine2. rewrite direction_absent by (right; right; eauto). cbn [bind fst snd]. rewrite space_absent by (right; right; eauto). reflexivity.
  Qed.
  Lemma three_hdr {X} (f : list tree -> maybe X) (is_it : list tree -> X -> Prop) : piece_ok f is_it -> absent_ok f ["at"; "in"]%string ->
    hdr_ok (combine3 f (parse_position calc_val) parse_color_space) (fun l v => exists a p s, l = a ++ p ++ s /\ piece is_it a (fst (fst v)) /\ piece (is_at calc_val) p (snd (fst v)) /\ piece is_space s (snd v)).
  Proof.
    intros Hf Ha. pose proof (at_ok calc_val) as Hp. split; [|split].
    - intros l o r. unfold combine3. destruct (f l) as [[a r1]|] eqn:E; [|discriminate]. cbn [bind fst snd]. destruct (parse_position _ r1) as [[p r2]|] eqn:E'; [|discriminate]. cbn [bind fst snd]. destruct (parse_color_space r2) as [[s r3]|] eqn:E''; [|discriminate]. cbn [bind fst snd].
      apply (piece_sound _ _ Hf) in E as (xs & -> & H & Hn). apply (piece_sound _ _ Hp) in E' as (ys & -> & H' & Hn'). apply (piece_sound _ _ space_ok) in E'' as (zs & -> & H'' & Hn'').
      assert (Ho : (a = None /\ p = None /\ s = None) \/ xs ++ ys ++ zs <> []).
      { destruct Hn as [->|Hn]; [|right; apply app_nonempty; auto]. destruct Hn' as [->|Hn']; [|right; apply app_nonempty; right; apply app_nonempty; auto]. destruct Hn'' as [->|Hn'']; [auto|right; apply app_nonempty; right; apply app_nonempty; auto]. }
      assert (Hh : exists a0 p0 s0, xs ++ ys ++ zs = a0 ++ p0 ++ s0 /\ piece is_it a0 (fst (fst (a, p, s))) /\ piece (is_at calc_val) p0 (snd (fst (a, p, s))) /\ piece is_space s0 (snd (a, p, s))) by (exists xs, ys, zs; auto).
      assert (El : xs ++ ys ++ zs ++ r3 = (xs ++ ys ++ zs) ++ r3) by (rewrite <- !app_assoc; reflexivity).
      destruct a as [a|]; [|destruct p as [p|]; [|destruct s as [s|]]]; intros E; injection E as <- <-.
      1-3: exists (xs ++ ys ++ zs); (split; [destruct Ho as [(? & ? & ?)|Ho]; [discriminate|exact Ho]|auto]).
      cbn in H, H', H''. subst. reflexivity.
    - intros h [[a p] s] r Hn (xs & ys & zs & -> & H & H' & H''). cbn [fst snd] in H, H', H''. unfold combine3. rewrite <- !app_assoc. rewrite (piece_reads _ _ _ Hf Ha) with (o := a) by (first [exact H|exact (at_before _ _ _ _ _ H' H'')|apply incl_refl]).
      cbn [bind fst snd]. rewrite (piece_reads _ _ _ Hp at_absent) with (o := p) by (first [exact H'|eapply space_before; [|exact H'']; cbn; auto|intros k; cbn; tauto]).
      cbn [bind fst snd]. rewrite (piece_reads _ _ _ space_ok space_absent) with (o := s) by (first [exact H''|intros k; cbn; tauto|exists comma, r; auto]). cbn [bind fst snd].
      destruct a as [a|]; [reflexivity|]. destruct p as [p|]; [reflexivity|]. destruct s as [s|]; [reflexivity|]. cbn in H, H', H''. subst. contradiction.
    - intros x c r Hc. unfold combine3. rewrite Ha by (right; right; eauto). cbn [bind fst snd]. rewrite at_absent by (right; right; eauto). cbn [bind fst snd]. rewrite space_absent by (right; right; eauto). reflexivity.
  Qed.

  (** ** Stops *)
  Definition closes (r : list tree) : Prop := r = [] \/ exists q, r = comma :: q.
  Definition stops_ok {P} (stops : list tree -> option (list (@stop color P) * list tree)) (place : tree -> option P -> Prop) : Prop :=
    (forall l ss r, stops l = Some (ss, r) -> exists xs, l = xs ++ r /\ is_stops color_of false place xs ss) /\
    (forall xs ss r, is_stops color_of false place xs ss -> closes r -> stops (xs ++ r) = Some (ss, r)).
  Lemma closes_none {X} (parse : tree -> option X) r : parse comma = None -> closes r -> match r with [] => True | x :: _ => parse x = None end.
  Proof. intros H [->|(q & ->)]; [exact I|exact H]. Qed.
  Lemma linear_stops : stops_ok (parse_linear_stops color_of calc_val) (length_place calc_val).
  Proof.
    assert (Hpl : forall x (o : option val), linear_place calc_val x = Some o <-> length_place calc_val x o).
    { intros x o. unfold linear_place, length_place, as_place. split.
      - destruct (pval x) as [v|] eqn:E; [|discriminate]. cbn [option_map]. intros H. injection H as <-. apply pval_iff in E. destruct v; [left; auto|right; eexists; split; [exact E|split; [discriminate|reflexivity]]..].
      - intros [[H ->]|(v & H & Hn & ->)]; apply pval_iff in H; rewrite H; [reflexivity|]. destruct v; [contradiction|reflexivity..]. }
    assert (Hm : forall (c : color) (ps : list (option val)), map (fun s : stop (option val) => mk_stop (st_color s) (match st_at s with Some o => o | None => None end) (st_hint s)) (map (fun p => mk_stop c (Some p) (1 # 2)%Q) ps) = map (fun p => mk_stop c p (1 # 2)%Q) ps).
    { intros c ps. rewrite map_map. reflexivity. }
    split.
    - intros l ss r. unfold parse_linear_stops, parse_stops. destruct (one color_of l) as [[c r1]|] eqn:E; [|discriminate]. apply one_rest in E as (x & -> & Hx). cbn [bind fst snd]. destruct (while_ok _ r1) as [ps r2] eqn:E. cbn [option_map fst snd]. intros H. injection H as <- <-.
      apply (while_sound _ _ Hpl) in E as (xs & -> & Hf). exists (x :: xs). split; [reflexivity|]. destruct ps as [|p ps].
      + inversion Hf; subst. cbn. constructor. exact Hx.
      + rewrite Hm. apply iso_at; [exact Hx|discriminate|exact Hf|discriminate].
    - intros xs ss r H Hr. assert (Hn : match r with [] => True | x :: _ => linear_place calc_val x = None end) by (apply closes_none; [reflexivity|exact Hr]). destruct H as [x c Hx|x c xs ps Hx Hne Hf _]; unfold parse_linear_stops, parse_stops; cbn [app].
      + rewrite (proj2 (one_rest color_of (x :: r) c r)) by eauto. cbn [bind fst snd]. rewrite (while_complete _ _ Hpl [] [] r (Forall2_nil _) Hn : while_ok (linear_place calc_val) r = _). reflexivity.
      + rewrite (proj2 (one_rest color_of (x :: xs ++ r) c (xs ++ r))) by eauto. cbn [bind fst snd]. rewrite (while_complete _ _ Hpl xs ps r Hf Hn). cbn [option_map fst snd]. destruct ps as [|p ps]; [contradiction|]. rewrite Hm. reflexivity.
  Qed.
  Lemma angular_stops : stops_ok (parse_angular_stops color_of calc_angle rho) (angle_place calc_angle rho).
  Proof.
    assert (Hpl : forall x q, pangle x = Some q <-> an_angle x q) by (intros; apply pangle_iff).
    assert (Ha : forall xs ps, Forall2 an_angle xs ps -> Forall2 (angle_place calc_angle rho) xs (map Some ps)) by (induction 1; cbn; constructor; [eexists; eauto|assumption]).
    assert (Hb : forall xs os, Forall2 (angle_place calc_angle rho) xs os -> exists ps, os = map Some ps /\ Forall2 an_angle xs ps).
    { induction 1 as [|x o xs os (q & Hq & ->) _ (ps & -> & Hf)]; [exists []; split; [reflexivity|constructor]|]. exists (q :: ps). split; [reflexivity|constructor; assumption]. }
    split.
    - intros l ss r. unfold parse_angular_stops, parse_stops. destruct (one color_of l) as [[c r1]|] eqn:E; [|discriminate]. apply one_rest in E as (x & -> & Hx). cbn [bind fst snd]. destruct (while_ok _ r1) as [ps r2] eqn:E. cbn [option_map fst snd]. intros H. injection H as <- <-.
      apply (while_sound _ _ Hpl) in E as (xs & -> & Hf). exists (x :: xs). split; [reflexivity|]. destruct ps as [|p ps].
      + inversion Hf; subst. cbn. constructor. exact Hx.
      + replace (map (fun p => mk_stop c (Some p) (1 # 2)%Q) (p :: ps)) with (map (fun o => mk_stop c o (1 # 2)%Q) (map Some (p :: ps))) by (rewrite map_map; reflexivity). apply iso_at; [exact Hx|discriminate|apply Ha, Hf|discriminate].
    - intros xs ss r H Hr. assert (Hn : match r with [] => True | x :: _ => pangle x = None end) by (apply closes_none; [reflexivity|exact Hr]). destruct H as [x c Hx|x c xs os Hx Hne Hf _]; unfold parse_angular_stops, parse_stops; cbn [app].
      + rewrite (proj2 (one_rest color_of (x :: r) c r)) by eauto. cbn [bind fst snd]. rewrite (while_complete _ _ Hpl [] [] r (Forall2_nil _) Hn : while_ok pangle r = _). reflexivity.
      + destruct (Hb xs os Hf) as (ps & -> & Hf'). rewrite (proj2 (one_rest color_of (x :: xs ++ r) c (xs ++ r))) by eauto. cbn [bind fst snd]. rewrite (while_complete _ _ Hpl xs ps r Hf' Hn). cbn [option_map fst snd]. destruct ps as [|p ps]; [contradiction|]. rewrite map_map. reflexivity.
  Qed.

  (** ** Items *)
  Lemma set_hint_last {P} h (ss : list (@stop color P)) s : set_hint h (ss ++ [s]) = ss ++ [mk_stop (st_color s) (st_at s) h].
  Proof. induction ss as [|a ss IH]; [reflexivity|]. cbn [app]. destruct (ss ++ [s]) as [|b q] eqn:E; [destruct ss; discriminate|]. cbn [set_hint]. rewrite <- E in *. rewrite <- IH. rewrite E. reflexivity. Qed.
  Lemma stops_nonempty {P} st (place : tree -> option P -> Prop) l ss : is_stops color_of st place l ss -> ss <> [] /\ exists x c r, l = x :: r /\ color_of x = Some c.
  Proof. intros [x c H|x c xs ps H Hn _ _]; (split; [|eauto]); [discriminate|]. destruct ps; [contradiction|discriminate]. Qed.
  Lemma color_not_percent d : color_of (Leaf (TPercent d)) = None.
  Proof. destruct (color_of _) as [c|] eqn:E; [|reflexivity]. exfalso. destruct (Hapart _ _ E) as (_ & H & _). apply (H (VPercentage (dec_Q d * 100))). apply pval_iff. reflexivity. Qed.
  Lemma items_nonempty {P} st (place : tree -> option P -> Prop) l ss b : items color_of st place l ss b -> ss <> [].
  Proof. induction 1 as [l ss H|l ss b r ss' H IH H'|l ss s b d H IH Hb]; [apply (stops_nonempty _ _ _ _ H)|destruct ss; [contradiction|discriminate]|destruct ss; discriminate]. Qed.
  Lemma items_first {P} st (place : tree -> option P -> Prop) l ss b : items color_of st place l ss b -> exists x c r, l = x :: r /\ color_of x = Some c.
  Proof. induction 1 as [l ss H|l ss b r ss' H IH H'|l ss s b d H IH Hb]; [apply (stops_nonempty _ _ _ _ H)|..]; destruct IH as (x & c & q & -> & Hc); cbn; eauto. Qed.
  Lemma items_length {P} st (place : tree -> option P -> Prop) l ss b : items color_of st place l ss b -> 1 <= length l.
  Proof. intros H. apply items_first in H as (x & c & r & -> & _). cbn. lia. Qed.

  Section Items.
    Context {P : Type} (stops : list tree -> option (list (@stop color P) * list tree)) (place : tree -> option P -> Prop) (Hs : stops_ok stops place).
    Lemma item_first l : parse_item stops [] l = stops l.
    Proof. unfold parse_item. destruct (stops l) as [[ss r]|]; reflexivity. Qed.
    Lemma item_sound ss l ss' r : ss <> [] -> parse_item stops ss l = Some (ss', r) ->
      (exists xs ss1, l = xs ++ r /\ is_stops color_of false place xs ss1 /\ ss' = ss ++ ss1) \/ (exists d ss0 s, l = Leaf (TPercent d) :: r /\ ss = ss0 ++ [s] /\ ss' = ss0 ++ [mk_stop (st_color s) (st_at s) (dec_Q d)]).
    Proof.
      intros Hn. assert (Hst : option_map (fun p : list (stop P) * list tree => (ss ++ fst p, snd p)) (stops l) = Some (ss', r) -> exists xs ss1, l = xs ++ r /\ is_stops color_of false place xs ss1 /\ ss' = ss ++ ss1).
      { destruct (stops l) as [[ss1 r1]|] eqn:E; [|discriminate]. cbn [option_map fst snd]. intros H. injection H as <- <-. apply Hs in E as (xs & -> & H). eauto. }
      unfold parse_item. destruct ss as [|s0 ss0]; [contradiction|]. destruct l as [|x l]; [intros H; left; exact (Hst H)|]. destruct x as [y|? ?|? ?]; [|intros H; left; exact (Hst H)..]. destruct y; try (intros H; left; exact (Hst H)).
      intros H. assert (E1 : ss' = set_hint (dec_Q d) (s0 :: ss0) /\ r = l) by (injection H; auto). destruct E1 as [-> ->]. right. destruct (exists_last Hn) as (q & s & E). rewrite E. exists d, q, s. rewrite set_hint_last. auto.
    Qed.
    Lemma more_sound fuel : forall l0 ss b l ss' r, items color_of false place l0 ss b -> more_items stops fuel ss l = Some (ss', r) -> exists xs b', l = xs ++ r /\ items color_of false place (l0 ++ xs) ss' b'.
    Proof.
      induction fuel as [|fuel IH]; intros l0 ss b l ss' r Hi; cbn [more_items].
      - intros H. injection H as <- <-. exists [], b. rewrite app_nil_r. auto.
      - assert (Hd : Some (ss, l) = Some (ss', r) -> exists xs b', l = xs ++ r /\ items color_of false place (l0 ++ xs) ss' b') by (intros H; injection H as <- <-; exists [], b; rewrite app_nil_r; auto).
        destruct l as [|x l]; [exact Hd|]. destruct x as [y|? ?|? ?]; [|exact Hd..]. destruct y; try exact Hd.
        destruct (parse_item stops ss l) as [[ss1 r1]|] eqn:E; [|discriminate]. cbn [bind fst snd]. intros H. apply item_sound in E; [|eapply items_nonempty; exact Hi]. destruct E as [(xs & sn & -> & Hx & ->)|(d & ss0 & s & -> & -> & ->)].
        + eapply IH in H; [|eapply im_more; [exact Hi|exact Hx]]. destruct H as (ys & b' & -> & H). exists (comma :: xs ++ ys), b'. split; [unfold comma; cbn; rewrite <- app_assoc; reflexivity|]. rewrite <- app_assoc in H. exact H.
        + eapply IH in H; [|eapply im_hint; [exact Hi|discriminate]]. destruct H as (ys & b' & -> & H). exists (comma :: Leaf (TPercent d) :: ys), b'. split; [reflexivity|]. rewrite <- app_assoc in H. exact H.
    Qed.
    Lemma more_complete l ss b : items color_of false place l ss b -> forall r, closes r -> exists k, k < length l /\ forall n, bind (parse_item stops [] (l ++ r)) (fun i => more_items stops (n + k) (fst i) (snd i)) = more_items stops n ss r.
    Proof.
      induction 1 as [l ss H|l ss b r1 ss' H IH H'|l ss s b d H IH Hb]; intros r Hr.
      - exists 0. split; [destruct (stops_nonempty _ _ _ _ H) as (_ & x & c & q & -> & _); cbn; lia|]. intros n. rewrite item_first, (proj2 Hs l ss r H Hr). cbn [bind fst snd]. rewrite Nat.add_0_r. reflexivity.
      - destruct (IH (comma :: r1 ++ r)) as (k & Hk & E); [right; eauto|]. exists (S k). split; [rewrite app_length; cbn; lia|]. intros n. rewrite <- app_assoc. cbn [app]. replace (n + S k) with (S n + k) by lia. rewrite E. cbn [more_items comma].
        assert (Ei : parse_item stops ss (r1 ++ r) = Some (ss ++ ss', r)).
        { unfold parse_item. destruct (stops_nonempty _ _ _ _ H') as (_ & x & c & q & -> & Hc). cbn [app]. assert (Et : option_map (fun p : list (stop P) * list tree => (ss ++ fst p, snd p)) (stops (x :: q ++ r)) = Some (ss ++ ss', r)) by (rewrite (proj2 Hs (x :: q) ss' r H' Hr : stops (x :: q ++ r) = _); reflexivity).
          destruct ss as [|s0 ss]; [exact Et|]. destruct x as [y|? ?|? ?]; try exact Et. destruct y; try exact Et. rewrite color_not_percent in Hc. discriminate. }
        rewrite Ei. reflexivity.
      - destruct (IH (comma :: Leaf (TPercent d) :: r)) as (k & Hk & E); [right; eauto|]. exists (S k). split; [rewrite app_length; cbn; lia|]. intros n. rewrite <- app_assoc. cbn [app]. replace (n + S k) with (S n + k) by lia. rewrite E. cbn [more_items comma].
        assert (Ei : parse_item stops (ss ++ [s]) (Leaf (TPercent d) :: r) = Some (ss ++ [mk_stop (st_color s) (st_at s) (dec_Q d)], r)).
        { unfold parse_item. rewrite <- set_hint_last. destruct (ss ++ [s]) as [|a q] eqn:Ea; [destruct ss; discriminate|]. reflexivity. }
        rewrite Ei. reflexivity.
    Qed.
    Lemma more_nil n ss : more_items stops n ss [] = Some (ss, []). Proof. destruct n; reflexivity. Qed.
    Lemma all_complete l ss b n : items color_of false place l ss b -> length l <= S n -> bind (parse_item stops [] l) (fun i => more_items stops n (fst i) (snd i)) = Some (ss, []).
    Proof.
      intros H Hn. destruct (more_complete l ss b H []) as (k & Hk & E); [left; reflexivity|]. specialize (E (n - k)). rewrite app_nil_r in E. replace (n - k + k) with n in E by lia. rewrite E. apply more_nil.
    Qed.

    Context {H : Type} (f : list tree -> maybe H) (is_h : list tree -> H -> Prop) (Hh : hdr_ok f is_h) (absent : H).
    Lemma body_iff l v ss : (exists o, parse_body f stops l = Some (o, ss, []) /\ or_default o absent = v) <-> body color_of false is_h absent place l v ss.
    Proof.
      destruct Hh as (H1 & H2 & H3). split.
      - intros (o & E & <-). unfold parse_body in E. destruct (f l) as [[[h|] r]|] eqn:Ef; [..|discriminate]; cbn [bind fst snd] in E.
        + destruct (more_items _ _ _ r) as [[ss' r']|] eqn:Em; [|discriminate]. cbn [bind fst snd] in E. destruct ss' as [|s0 sq]; [discriminate|]. injection E as <- <- ->. cbn [or_default].
          apply H1 in Ef as (hs & Hn & -> & Hi). destruct (length (hs ++ r)) as [|n]; [discriminate Em|]. cbn [more_items] in Em.
          destruct r as [|x r]; [discriminate|]. destruct x as [y|? ?|? ?]; [|discriminate..]. destruct y; try discriminate. rewrite item_first in Em. destruct (stops r) as [[ss1 r1]|] eqn:Es; [|discriminate]. cbn [bind fst snd] in Em. apply Hs in Es as (xs & -> & Hx).
          eapply more_sound in Em as (ys & b & -> & Hm); [|constructor; exact Hx]. rewrite app_nil_r. apply (bo_header _ _ _ _ _ hs h (xs ++ ys)); [exact Hn|exact Hi|]. exists b. split; [exact Hm|discriminate].
        + rewrite item_first in E. apply H1 in Ef. subst r. destruct (stops l) as [[ss1 r1]|] eqn:Es; [|discriminate]. cbn [bind fst snd] in E. destruct (more_items _ _ _ r1) as [[ss' r']|] eqn:Em; [|discriminate]. cbn [bind fst snd] in E. destruct ss' as [|s0 sq]; [discriminate|]. injection E as <- <- ->.
          apply Hs in Es as (xs & -> & Hx). eapply more_sound in Em as (ys & b & -> & Hm); [|constructor; exact Hx]. rewrite app_nil_r. apply bo_plain. exists b. split; [exact Hm|discriminate].
      - intros [l' ss' (b & Hi & _)|h w l' ss' Hn Hv (b & Hi & _)].
        + exists None. split; [|reflexivity]. unfold parse_body. assert (Ef : f l' = Some (None, l')) by (destruct (items_first _ _ _ _ _ Hi) as (x & c & r & -> & Hc); exact (H3 _ _ _ Hc)). rewrite Ef. cbn [bind fst snd].
          pose proof (all_complete l' ss' b (length l') Hi ltac:(lia)) as E. destruct (parse_item stops [] l') as [[i r]|]; [|discriminate]. cbn [bind fst snd] in *. rewrite E. cbn [bind fst snd]. pose proof (items_nonempty _ _ _ _ _ Hi). destruct ss'; [contradiction|reflexivity].
        + exists (Some w). split; [|reflexivity]. unfold parse_body. rewrite (H2 h w l' Hn Hv). cbn [bind fst snd].
          assert (Em : more_items stops (length (h ++ comma :: l')) [] (comma :: l') = Some (ss', [])).
          { rewrite app_length. cbn [length]. replace (length h + S (length l')) with (S (length h + length l')) by lia. cbn [more_items comma]. apply (all_complete l' ss' b); [exact Hi|lia]. }
          rewrite Em. cbn [bind fst snd]. pose proof (items_nonempty _ _ _ _ _ Hi). destruct ss'; [contradiction|reflexivity].
    Qed.
  End Items.

  (** ** Gradients *)
  Lemma zero_iff v : is_zero_val v = true <-> zero_length v.
  Proof.
    unfold is_zero_val, zero_length. destruct v as [|u q|q]; [split; [discriminate|intros (? & E & _); discriminate]| |split; [discriminate|intros (? & E & _); discriminate]].
    destruct u; try (split; [discriminate|intros (? & E & _); discriminate]). rewrite Qeq_bool_iff. split; [eauto|intros (p & E & H); injection E as ->; exact H].
  Qed.
  Lemma from_zero_iff {P} (is_zero : P -> bool) (zp : P -> Prop) (zero : P) (ss ss' : list (@stop color P)) : (forall p, is_zero p = true <-> zp p) -> ss <> [] -> insert_zero is_zero zero ss = ss' <-> from_zero zero zp ss ss'.
  Proof.
    intros Hz Hn. unfold insert_zero. destruct ss as [|s ss]; [contradiction|]. destruct (st_at s) as [p|] eqn:Ea.
    - destruct (is_zero p) eqn:Ez.
      + split; [intros <-; eapply fz_zero; [exact Ea|apply Hz, Ez]|]. intros H. inversion H as [? ? E|? ? ? E H'|? ? ? E H']; subst; try reflexivity. exfalso. rewrite Ea in E. injection E as <-. apply H', Hz, Ez.
      + split; [intros <-; eapply fz_put; [exact Ea|]; intros H; apply Hz in H; congruence|]. intros H. inversion H as [? ? E|? ? ? E H'|? ? ? E H']; subst; try reflexivity; rewrite Ea in E; [discriminate|]. injection E as <-. apply Hz in H'. congruence.
    - split; [intros <-; constructor; exact Ea|]. intros H. inversion H as [? ? E|? ? ? E H'|? ? ? E H']; subst; [reflexivity|rewrite Ea in E; discriminate..].
  Qed.
  Lemma given_iff {X} (o : option X) d v : or_default o d = v <-> given o d v.
  Proof. unfold or_default, given. destruct o as [x|]; split; [intros <-; auto|intros [H|[H _]]; [congruence|discriminate]|intros <-; auto|intros [H|[_ ->]]; [discriminate|reflexivity]]. Qed.
  Lemma body_nonempty {P H} st (hd : list tree -> H -> Prop) ab (place : tree -> option P -> Prop) l v ss : body color_of st hd ab place l v ss -> ss <> [].
  Proof. intros [l' ss' (b & Hi & _)|h w l' ss' Hn Hv (b & Hi & _)]; eapply items_nonempty; exact Hi. Qed.
  Notation is_gradient := (is_gradient color_of calc_val calc_angle rho opposite).
  Lemma entirely_iff {X} (o : option (X * list tree)) v : entirely o = Some v <-> o = Some (v, []).
  Proof. destruct o as [[w [|y r]]|]; cbn; split; intros H; try discriminate H; congruence. Qed.
  Lemma linear_iff l g : entirely (parse_linear color_of calc_val calc_angle rho opposite l) = Some g <-> forall s, spells s "linear-gradient" -> is_gradient false (angle_place calc_angle rho) (Fun s l) g.
  Proof.
    rewrite entirely_iff. unfold parse_linear. pose proof (body_iff _ _ linear_stops _ _ linear_hdr (None, None)) as Hb. split.
    - intros E s Hsp. destruct (parse_body _ _ l) as [[[h ss] r]|] eqn:Ep; [|discriminate]. cbn [option_map] in E. destruct (or_default h (None, None)) as [a sp] eqn:Eh. injection E as <- ->.
      assert (Hbo := proj1 (Hb l (a, sp) ss) (ex_intro _ h (conj Ep Eh))).
      eapply ig_linear; [exists s; auto|exact Hbo|apply given_iff; reflexivity|apply given_iff; reflexivity|]. apply (from_zero_iff _ _ _ _ _ zero_iff); [eapply body_nonempty; exact Hbo|reflexivity].
    - intros H. specialize (H (tx "linear-gradient") eq_refl). inversion H as [x l' o s a sp ss ss' (f & E & Hf) Hbo Ha Hsp Hz|x l' o p s sh po sp ss ss' (f & E & Hf)|x l' o p s a po sp ss ss' (f & E & Hf)]; subst; injection E as <- <-; try (vm_compute in Hf; discriminate Hf).
      apply Hb in Hbo as Hbo'. destruct Hbo' as (h & Ep & Eh). rewrite Ep. cbn [option_map]. rewrite Eh. apply given_iff in Ha, Hsp. apply (from_zero_iff _ _ _ _ _ zero_iff) in Hz; [|eapply body_nonempty; exact Hbo]. subst. reflexivity.
  Qed.
  Lemma radial_iff l g : entirely (parse_radial color_of calc_val l) = Some g <-> forall s, spells s "radial-gradient" -> is_gradient false (angle_place calc_angle rho) (Fun s l) g.
  Proof.
    rewrite entirely_iff. unfold parse_radial. pose proof (body_iff _ _ linear_stops _ _ (three_hdr _ _ (shape_ok calc_val) shape_absent) (None, None, None)) as Hb. split.
    - intros E s Hsp. destruct (parse_body _ _ l) as [[[h ss] r]|] eqn:Ep; [|discriminate]. cbn [option_map] in E. destruct (or_default h (None, None, None)) as [[a p] sp] eqn:Eh. injection E as <- ->.
      assert (Hbo := proj1 (Hb l (a, p, sp) ss) (ex_intro _ h (conj Ep Eh))).
      eapply ig_radial; [exists s; auto|exact Hbo|apply given_iff; reflexivity|apply given_iff; reflexivity|apply given_iff; reflexivity|]. apply (from_zero_iff _ _ _ _ _ zero_iff); [eapply body_nonempty; exact Hbo|reflexivity].
    - intros H. specialize (H (tx "radial-gradient") eq_refl). inversion H as [x l' o s a sp ss ss' (f & E & Hf)|x l' o p s sh po sp ss ss' (f & E & Hf) Hbo Ha Hp Hsp Hz|x l' o p s a po sp ss ss' (f & E & Hf)]; subst; injection E as <- <-; try (vm_compute in Hf; discriminate Hf).
      apply Hb in Hbo as Hbo'. destruct Hbo' as (h & Ep & Eh). rewrite Ep. cbn [option_map]. rewrite Eh. apply given_iff in Ha, Hp, Hsp. apply (from_zero_iff _ _ _ _ _ zero_iff) in Hz; [|eapply body_nonempty; exact Hbo]. subst. reflexivity.
  Qed.
  Lemma conic_iff l g : entirely (parse_conic color_of calc_val calc_angle rho l) = Some g <-> forall s, spells s "conic-gradient" -> is_gradient false (angle_place calc_angle rho) (Fun s l) g.
  Proof.
    rewrite entirely_iff. unfold parse_conic. pose proof (body_iff _ _ angular_stops _ _ (three_hdr _ _ (from_ok calc_angle rho) from_absent) (None, None, None)) as Hb. split.
    - intros E s Hsp. destruct (parse_body _ _ l) as [[[h ss] r]|] eqn:Ep; [|discriminate]. cbn [option_map] in E. destruct (or_default h (None, None, None)) as [[a p] sp] eqn:Eh. injection E as <- ->.
      assert (Hbo := proj1 (Hb l (a, p, sp) ss) (ex_intro _ h (conj Ep Eh))).
      eapply ig_conic; [exists s; auto|exact Hbo|apply given_iff; reflexivity|apply given_iff; reflexivity|apply given_iff; reflexivity|]. apply (from_zero_iff (fun q => Qeq_bool q 0)); [intros; apply Qeq_bool_iff|eapply body_nonempty; exact Hbo|reflexivity].
    - intros H. specialize (H (tx "conic-gradient") eq_refl). inversion H as [x l' o s a sp ss ss' (f & E & Hf)|x l' o p s sh po sp ss ss' (f & E & Hf)|x l' o p s a po sp ss ss' (f & E & Hf) Hbo Ha Hp Hsp Hz]; subst; injection E as <- <-; try (vm_compute in Hf; discriminate Hf).
      apply Hb in Hbo as Hbo'. destruct Hbo' as (h & Ep & Eh). rewrite Ep. cbn [option_map]. rewrite Eh. apply given_iff in Ha, Hp, Hsp. apply (from_zero_iff (fun q => Qeq_bool q 0) (fun q => q == 0)%Q) in Hz; [|intros; apply Qeq_bool_iff|eapply body_nonempty; exact Hbo]. subst. reflexivity.
  Qed.
  Lemma name_irrelevant st ap s s' l g : map lower s = map lower s' -> is_gradient st ap (Fun s l) g -> is_gradient st ap (Fun s' l) g.
  Proof.
    intros Hn H. inversion H as [x l' o sp a sp' ss ss' (f & E & Hf)|x l' o p sp sh po sp' ss ss' (f & E & Hf)|x l' o p sp a po sp' ss ss' (f & E & Hf)]; subst; injection E as <- <-;
      [eapply ig_linear|eapply ig_radial|eapply ig_conic]; try eassumption; exists s'; (split; [reflexivity|]); unfold spells in *; congruence.
  Qed.
  Lemma gradient_iff x g : parse_gradient color_of calc_val calc_angle rho opposite x = Some g <-> is_gradient false (angle_place calc_angle rho) x g.
  Proof.
    assert (Hfun : is_gradient false (angle_place calc_angle rho) x g -> exists s l k, x = Fun s l /\ In k ["linear-gradient"; "radial-gradient"; "conic-gradient"]%string /\ spells s k).
    { intros [? ? ? ? ? ? ? ? (f & -> & Hf)|? ? ? ? ? ? ? ? ? ? (f & -> & Hf)|? ? ? ? ? ? ? ? ? ? (f & -> & Hf)]; eexists _, _, _; (split; [reflexivity|]); (split; [|exact Hf]); cbn; auto. }
    destruct x as [y|s l|b l]; cbn [parse_gradient]; [split; [discriminate|intros H; destruct (Hfun H) as (? & ? & ? & E & _); discriminate]| |split; [discriminate|intros H; destruct (Hfun H) as (? & ? & ? & E & _); discriminate]].
    destruct (same_name s (tx "linear-gradient")) eqn:E1; [|destruct (same_name s (tx "radial-gradient")) eqn:E2; [|destruct (same_name s (tx "conic-gradient")) eqn:E3]].
    - apply same_spells in E1. rewrite linear_iff. split; [auto|]. intros H s' Hs. eapply name_irrelevant; [|exact H]. unfold spells in *. congruence.
    - apply same_spells in E2. rewrite radial_iff. split; [auto|]. intros H s' Hs. eapply name_irrelevant; [|exact H]. unfold spells in *. congruence.
    - apply same_spells in E3. rewrite conic_iff. split; [auto|]. intros H s' Hs. eapply name_irrelevant; [|exact H]. unfold spells in *. congruence.
    - split; [discriminate|]. intros H. exfalso. destruct (Hfun H) as (s' & l' & k & E & Hk & Hs). injection E as <- <-. apply same_spells_f in E1, E2, E3. cbn in Hk. destruct Hk as [<-|[<-|[<-|[]]]]; contradiction.
  Qed.
  Lemma more_gradients_iff fuel : forall l gs r, length l <= fuel -> more_gradients color_of calc_val calc_angle rho opposite fuel l = Some (gs, r) /\ r = [] <-> (l = [] /\ gs = [] /\ r = []) \/ (r = [] /\ exists q, l = comma :: q /\ is_gradients color_of calc_val calc_angle rho opposite false (angle_place calc_angle rho) q gs).
  Proof.
    assert (Hnil : forall gs, ~ is_gradients color_of calc_val calc_angle rho opposite false (angle_place calc_angle rho) [] gs) by (intros gs H; inversion H).
    induction fuel as [|fuel IH]; intros l gs r Hl.
    - destruct l; [|cbn in Hl; lia]. cbn [more_gradients]. split; [intros [E ->]; injection E as <-; auto|]. intros [(_ & -> & ->)|(-> & q & E & _)]; [auto|discriminate].
    - destruct l as [|x l]; [cbn [more_gradients]; split; [intros [E ->]; injection E as <-; auto|]; intros [(_ & -> & ->)|(-> & q & E & _)]; [auto|discriminate]|]. cbn [length] in Hl.
      assert (Hc : x = comma \/ x <> comma) by (destruct x as [y|? ?|? ?]; [destruct y|..]; try (right; discriminate); left; reflexivity).
      destruct Hc as [->|Hc].
      + cbn [more_gradients comma]. split.
        * intros [E ->]. right. split; [reflexivity|]. exists l. split; [reflexivity|]. destruct (one _ l) as [[g r1]|] eqn:Eg; [|discriminate]. cbn [bind fst snd] in E. apply one_rest in Eg as (y & -> & Hy). apply gradient_iff in Hy. cbn [length] in Hl.
          destruct (more_gradients _ _ _ _ _ fuel r1) as [[gs1 r2]|] eqn:Em; [|discriminate]. cbn [option_map fst snd] in E. injection E as <- ->. apply (proj1 (IH r1 gs1 [] ltac:(lia))) in Em as [(-> & -> & _)|(_ & q & -> & Hq)] || (destruct (proj1 (IH r1 gs1 [] ltac:(lia)) (conj Em eq_refl)) as [(-> & -> & _)|(_ & q & -> & Hq)]); [apply igs_one, Hy|apply igs_more; assumption].
        * intros [(E & _)|(-> & q & E & H)]; [discriminate|]. injection E as <-. split; [|reflexivity]. inversion H as [y g Hy|y g q gs' Hy Hq]; subst; apply gradient_iff in Hy.
          -- rewrite (proj2 (one_rest _ [y] g [])) by eauto. cbn [bind fst snd]. destruct fuel; reflexivity.
          -- rewrite (proj2 (one_rest _ (y :: comma :: q) g (comma :: q))) by eauto. cbn [bind fst snd]. cbn [length] in Hl. rewrite (proj1 (proj2 (IH (comma :: q) gs' [] ltac:(cbn; lia)) (or_intror (conj eq_refl (ex_intro _ q (conj eq_refl Hq)))))). reflexivity.
      + assert (E : more_gradients color_of calc_val calc_angle rho opposite (S fuel) (x :: l) = Some ([], x :: l)) by (cbn [more_gradients]; destruct x as [y|? ?|? ?]; [destruct y|..]; try reflexivity; exfalso; apply Hc; reflexivity).
        rewrite E. split; [intros [E' ->]; discriminate|]. intros [(E' & _)|(_ & q & E' & _)]; [discriminate|]. injection E' as -> _. contradiction.
  Qed.
  Lemma gradients_iff l gs : parse_gradients color_of calc_val calc_angle rho opposite l = Some (gs, []) <-> is_gradients color_of calc_val calc_angle rho opposite false (angle_place calc_angle rho) l gs.
  Proof.
    unfold parse_gradients. split.
    - destruct (one _ l) as [[g r1]|] eqn:Eg; [|discriminate]. apply one_rest in Eg as (y & -> & Hy). apply gradient_iff in Hy. cbn [bind fst snd]. destruct (more_gradients _ _ _ _ _ _ r1) as [[gs1 r2]|] eqn:Em; [|discriminate]. cbn [option_map fst snd]. intros E. injection E as <- ->.
      destruct (proj1 (more_gradients_iff (length (y :: r1)) r1 gs1 [] ltac:(cbn; lia)) (conj Em eq_refl)) as [(-> & -> & _)|(_ & q & -> & Hq)]; [apply igs_one, Hy|apply igs_more; assumption].
    - intros H. inversion H as [y g Hy|y g q gs' Hy Hq]; subst; apply gradient_iff in Hy.
      + rewrite (proj2 (one_rest _ [y] g [])) by eauto. reflexivity.
      + rewrite (proj2 (one_rest _ (y :: comma :: q) g (comma :: q))) by eauto. cbn [bind fst snd].
        rewrite (proj1 (proj2 (more_gradients_iff (length (y :: comma :: q)) (comma :: q) gs' [] ltac:(cbn; lia)) (or_intror (conj eq_refl (ex_intro _ q (conj eq_refl Hq)))))). reflexivity.
  Qed.
  Lemma gradients_correct l v : declared_value (parse_gradients color_of calc_val calc_angle rho opposite) l = Some v <-> is_value (is_gradients color_of calc_val calc_angle rho opposite false (angle_place calc_angle rho)) l v.
  Proof.
    apply declared_iff; [apply gradients_iff|]. intros l0 gs H. assert (Hf : exists s q r, l0 = Fun s q :: r) by (inversion H as [y g Hy|y g q gs' Hy Hq]; subst; inversion Hy as [? ? ? ? ? ? ? ? (f & -> & Hf)|? ? ? ? ? ? ? ? ? ? (f & -> & Hf)|? ? ? ? ? ? ? ? ? ? (f & -> & Hf)]; eauto).
    destruct Hf as (s & q & r & ->). reflexivity.
  Qed.
  (** what CSS writes is also of the grammar of the code *)
  Lemma stops_lenient {P} (place : tree -> option P -> Prop) l ss : is_stops color_of true place l ss -> is_stops color_of false place l ss.
  Proof. intros [x c H|x c xs ps H Hn Hf _]; [constructor; exact H|]. apply iso_at; try assumption. discriminate. Qed.
  Lemma items_lenient {P} (place : tree -> option P -> Prop) l ss b : items color_of true place l ss b -> items color_of false place l ss b.
  Proof.
    induction 1 as [l ss H|l ss b r ss' H IH H'|l ss s b d H IH Hb]; [constructor; apply stops_lenient, H|eapply im_more; [exact IH|apply stops_lenient, H']|eapply im_hint; [exact IH|discriminate]].
  Qed.
  Lemma body_lenient {P H} (hd : list tree -> H -> Prop) ab (place : tree -> option P -> Prop) l v ss : body color_of true hd ab place l v ss -> body color_of false hd ab place l v ss.
  Proof. intros [l' ss' (b & Hi & _)|h w l' ss' Hn Hv (b & Hi & _)]; [apply bo_plain|apply bo_header; [exact Hn|exact Hv|]]; exists b; (split; [apply items_lenient, Hi|discriminate]). Qed.
  Lemma gradient_lenient ap x g : is_gradient true ap x g -> is_gradient false ap x g.
  Proof.
    intros [x' l o s a sp ss ss' Hc Hb|x' l o p s sh po sp ss ss' Hc Hb|x' l o p s a po sp ss ss' Hc Hb]; intros; [eapply ig_linear|eapply ig_radial|eapply ig_conic]; try eassumption; apply body_lenient, Hb.
  Qed.
  Lemma gradients_lenient ap l gs : is_gradients color_of calc_val calc_angle rho opposite true ap l gs -> is_gradients color_of calc_val calc_angle rho opposite false ap l gs.
  Proof. induction 1 as [x g H|x g l gs H Hs IH]; [apply igs_one, gradient_lenient, H|apply igs_more; [apply gradient_lenient, H|exact IH]]. Qed.
End Body.
