(** Proofs for C109, part 2: the parser reads exactly what the grammar says. *)
From Coq Require Import Ascii String NArith ZArith Lia.
From Verif Require Import Base VarText SheetText Siblings Matching SelText SelTextSpec SelTextProofs.
Open Scope string_scope.
Open Scope list_scope.
Open Scope nat_scope.

Definition place_of (st : state) : place := {| p_behind := after st; p_inside := inside st; p_has := in_has st |}.
Definition kind_of (rel : relative) : kind := match rel with RNo => Alone | RHas => Relative | RNesting => Nested end.

Lemma lookup_some {X} s (tbl : list (string * X)) x : (forall w y, In (w, y) tbl -> map lower (list_ascii_of_string w) = list_ascii_of_string w) ->
  lookup s tbl = Some x -> exists w, In (w, x) tbl /\ word s w.
Proof.
  induction tbl as [|[w y] tbl IH]; intros L H; [discriminate|]. cbn in H. destruct (says s w) eqn:E.
  - injection H as <-. exists w. split; [left; reflexivity|]. apply says_is; [exact E|]. apply (L w y). left. reflexivity.
  - destruct IH as (w' & Hw & Hs); [intros; eapply L; right; eassumption|exact H|]. exists w'. split; [right; exact Hw|exact Hs].
Qed.

Section P.
  Variables (nested : bool) (parents : list complex) (nth : list tree -> option (Z * Z * list tree)).
  Hypothesis Hnth : reads_front nth.
  Notation RS := (resolve_simple parents).
  Notation R := (resolve parents).

  Section Inner.
    Variables (D : nat) (inner : state -> bool -> relative -> list tree -> option (list pcomplex)) (Rin : place -> bool -> kind -> list tree -> list complex -> Prop).
    Hypothesis Hin : forall st fg rel l, rel <> RNesting -> depth l < D -> forall ss, (exists ps, inner st fg rel l = Some ps /\ map R ps = ss) <-> Rin (place_of st) fg (kind_of rel) l ss.
    Hypothesis Hamp : nested = true -> forall st fg rel l ps, rel <> RNesting -> depth l < D -> inner st fg rel l = Some ps -> existsb has_parent ps = mentions l.

    Notation rsimple := (reads_simple nested parents nth eval_str Rin).
    Notation rsimples := (reads_simples nested parents nth eval_str Rin).

    Lemma in_sound st fg rel l ps : rel <> RNesting -> depth l < D -> inner st fg rel l = Some ps -> Rin (place_of st) fg (kind_of rel) l (map R ps).
    Proof. intros Hr Hd H. apply (Hin st fg rel l Hr Hd). exists ps. split; [exact H|reflexivity]. Qed.
    Lemma in_complete st fg rel l ss : rel <> RNesting -> depth l < D -> Rin (place_of st) fg (kind_of rel) l ss -> exists ps, inner st fg rel l = Some ps /\ map R ps = ss.
    Proof. intros Hr Hd H. apply (Hin st fg rel l Hr Hd). exact H. Qed.

    (** ** One simple selector *)
    Lemma nth_sound st w s e o l x : S (depth l) <= D -> nth_class w e o -> word s w -> parse_nth_pseudo nth inner st e o l = Some x ->
      rsimple (place_of st) [Leaf TColon; Fun s l] (RS x) /\ (nested = true -> has_parent_simple x = mentions l).
    Proof.
      unfold parse_nth_pseudo. intros Hd Hc Hw H. destruct (after st) eqn:Ea; [discriminate|]. destruct (nth l) as [[[a b] r]|] eqn:En; [|discriminate].
      destruct (Hnth _ _ _ _ En) as (u & El & Hu). apply mentions_false in Hu. destruct (drop_split r) as (bb & Hb & Er). destruct (drop_spaces r) as [|x0 r'].
      - injection H as <-. rewrite app_nil_r in Er. subst. split; [eapply s_nth; eauto|]. intros _. rewrite mentions_app, Hu, (mentions_blanks _ Hb). reflexivity.
      - destruct x0 as [tk| |]; try discriminate. destruct tk; try discriminate. destruct o; [discriminate|]. destruct (says s0 "of") eqn:Es; [|discriminate]. cbn in H.
        apply says_is in Es; [|reflexivity]. destruct (inner (enter st) false RNo r') as [ps|] eqn:Ei; [|discriminate]. injection H as <-.
        assert (depth r' < D). { rewrite El, Er in Hd. rewrite !depth_app, depth_cons in Hd. lia. }
        split.
        + rewrite Er in En. eapply s_nth_of; eauto. apply (in_sound (enter st) false RNo); [discriminate|assumption|assumption].
        + intros E. cbn [has_parent_simple]. rewrite (Hamp E _ _ RNo _ _ ltac:(discriminate) H Ei). rewrite El, Er. rewrite !mentions_app, Hu, (mentions_blanks _ Hb). reflexivity.
    Qed.
    Lemma functional_sound st s l x : S (depth l) <= D -> parse_functional nth inner st s l = Some x ->
      rsimple (place_of st) [Leaf TColon; Fun s l] (RS x) /\ (nested = true -> has_parent_simple x = mentions l).
    Proof.
      unfold parse_functional. intros Hd H. assert (Hd' : depth l < D) by lia.
      destruct (says s "nth-child") eqn:E1; [apply says_is in E1; [|reflexivity]; eapply nth_sound; eauto; constructor|].
      destruct (says s "nth-of-type") eqn:E2; [apply says_is in E2; [|reflexivity]; eapply nth_sound; eauto; constructor|].
      destruct (says s "nth-last-child") eqn:E3; [apply says_is in E3; [|reflexivity]; eapply nth_sound; eauto; constructor|].
      destruct (says s "nth-last-of-type") eqn:E4; [apply says_is in E4; [|reflexivity]; eapply nth_sound; eauto; constructor|].
      destruct (says s "is") eqn:E5.
      { apply says_is in E5; [|reflexivity]. destruct (inner (enter st) true RNo l) as [ps|] eqn:Ei; [|discriminate]. injection H as <-. split.
        - apply s_is; [exact E5|]. refine (in_sound _ _ _ _ _ _ Hd' Ei); discriminate.
        - intros E. refine (Hamp E _ _ _ _ _ _ Hd' Ei); discriminate. }
      destruct (says s "where") eqn:E6.
      { apply says_is in E6; [|reflexivity]. destruct (inner (enter st) true RNo l) as [ps|] eqn:Ei; [|discriminate]. injection H as <-. split.
        - apply s_where; [exact E6|]. refine (in_sound _ _ _ _ _ _ Hd' Ei); discriminate.
        - intros E. refine (Hamp E _ _ _ _ _ _ Hd' Ei); discriminate. }
      destruct (says s "has") eqn:E7.
      { apply says_is in E7; [|reflexivity]. destruct (in_has st) eqn:Eh; [discriminate|]. destruct (inner (enter_has st) false RHas l) as [ps|] eqn:Ei; [|discriminate]. injection H as <-. split.
        - apply s_has; [exact Eh|exact E7|]. refine (in_sound _ _ _ _ _ _ Hd' Ei); discriminate.
        - intros E. refine (Hamp E _ _ _ _ _ _ Hd' Ei); discriminate. }
      destruct (says s "not") eqn:E8; [|discriminate].
      { apply says_is in E8; [|reflexivity]. destruct (inner (enter st) false RNo l) as [ps|] eqn:Ei; [|discriminate]. injection H as <-. split.
        - apply s_not; [exact E8|]. refine (in_sound _ _ _ _ _ _ Hd' Ei); discriminate.
        - intros E. refine (Hamp E _ _ _ _ _ _ Hd' Ei); discriminate. }
    Qed.
    Lemma simple_pseudo_sound st s x : parse_simple_pseudo st s = Some x -> rsimple (place_of st) [Leaf TColon; ident s] (RS x) /\ has_parent_simple x = false.
    Proof.
      unfold parse_simple_pseudo. destruct (after st) eqn:Ea; [discriminate|]. intros H. apply lookup_some in H.
      - destruct H as (w & Hw & Hs). cbn in Hw. repeat (destruct Hw as [Hw|Hw]; [injection Hw as <- <-; split; [eapply s_plain; [exact Ea| |exact Hs]; constructor|reflexivity]|]). destruct Hw.
      - intros w y Hw. cbn in Hw. repeat (destruct Hw as [Hw|Hw]; [injection Hw as <- <-; reflexivity|]). destruct Hw.
    Qed.
    Lemma pseudo_step_cases st s r : pseudo_step st s r = Fail \/ exists k w, pseudo_step st s r = Pseudo k r /\ after st = false /\ inside st = false /\ In (w, k) pseudo_elements /\ word s w.
    Proof.
      unfold pseudo_step. destruct (after st); [left; reflexivity|]. destruct (inside st); [left; reflexivity|]. cbn [orb]. destruct (lookup s pseudo_elements) as [k|] eqn:E; [|left; reflexivity]. right.
      apply lookup_some in E; [|intros w y [Hw|[Hw|[]]]; injection Hw as <- <-; reflexivity]. destruct E as (w & Hw & Hs). exists k, w. auto.
    Qed.
    Definition good_simple (st : state) (l : list tree) (x : psimple) (r : list tree) : Prop :=
      exists u, l = u ++ r /\ u <> [] /\ rsimple (place_of st) u (RS x) /\ (nested = true -> has_parent_simple x = mentions u).
    Definition good_pseudo (st : state) (l : list tree) (k : pseudo) (r : list tree) : Prop :=
      exists q, l = q ++ r /\ pseudo_element q k /\ after st = false /\ inside st = false /\ mentions q = false.
    Lemma one_sound st l : depth l <= D -> match parse_one nested nth inner st l with Simple x r => good_simple st l x r | Pseudo k r => good_pseudo st l k r | _ => True end.
    Proof.
      intros Hd. unfold parse_one. destruct l as [|[tk|s b|bk b] r]; [exact I| |exact I|].
      - destruct tk; try exact I.
        + destruct (after st) eqn:Ea; [exact I|]. exists [Leaf (TIdHash s)]. split; [reflexivity|]. split; [discriminate|]. split; [apply s_id; exact Ea|reflexivity].
        + destruct (is 46 c) eqn:E.
          * destruct (after st) eqn:Ea; [exact I|]. destruct r as [|[tk| |] r]; try exact I. destruct tk; try exact I. rewrite (is_delim _ _ E).
            exists [delim "."; ident s]. split; [reflexivity|]. split; [discriminate|]. split; [apply s_class; exact Ea|reflexivity].
          * destruct (is 38 c) eqn:E2; [|exact I]. destruct nested eqn:En; [|exact I]. cbn [andb]. destruct (after st) eqn:Ea; [exact I|]. rewrite (is_delim _ _ E2).
            exists [delim "&"]. split; [reflexivity|]. split; [discriminate|]. split; [apply s_amp; [exact Ea|first [exact En|reflexivity]]|reflexivity].
        + assert (G : forall s r', match pseudo_step st s r' with Simple x r0 => good_simple st (Leaf TColon :: Leaf TColon :: Leaf (TIdent s) :: r') x r0
                        | Pseudo k r0 => good_pseudo st (Leaf TColon :: Leaf TColon :: Leaf (TIdent s) :: r') k r0 | _ => True end).
          { intros s r'. destruct (pseudo_step_cases st s r') as [-> |(k & w & -> & Ea & Ei & Hw & Hs)]; [exact I|]. exists [Leaf TColon; Leaf TColon; ident s]. split; [reflexivity|].
            split; [eapply pe_two; eauto|auto]. }
          destruct r as [|[tk|s b|bk b] r]; try exact I.
          * destruct tk; try exact I.
            -- destruct (css2 s) eqn:Ec.
               ++ destruct (pseudo_step_cases st s r) as [-> |(k & w & -> & Ea & Ei & Hw & Hs)]; [exact I|]. exists [Leaf TColon; ident s]. split; [reflexivity|]. split; [eapply pe_one; eauto|auto].
               ++ unfold simple_step. destruct (parse_simple_pseudo st s) as [x|] eqn:Ep; [|exact I]. apply simple_pseudo_sound in Ep as [Ep1 Ep2].
                  exists [Leaf TColon; ident s]. split; [reflexivity|]. split; [discriminate|]. split; [exact Ep1|]. intros _. rewrite Ep2. reflexivity.
            -- destruct r as [|[tk| |] r]; try exact I. destruct tk; try exact I. apply G.
          * destruct (css2 s) eqn:Ec; [exact I|]. unfold simple_step. destruct (parse_functional nth inner st s b) as [x|] eqn:Ep; [|exact I]. apply functional_sound in Ep as [Ep1 Ep2].
            -- exists [Leaf TColon; Fun s b]. split; [reflexivity|]. split; [discriminate|]. split; [exact Ep1|]. intros E. rewrite (Ep2 E). cbn. rewrite orb_false_r. reflexivity.
            -- rewrite !depth_cons, depth_fun in Hd. lia.
      - destruct bk; try exact I. destruct (after st) eqn:Ea; [exact I|]. unfold simple_step. destruct (parse_attribute b) as [x|] eqn:Ep; [|exact I]. apply (attribute_sound parents) in Ep as (Ep1 & Ep2 & _).
        exists [Blk InSquare b]. split; [reflexivity|]. split; [discriminate|]. split; [apply s_attr; assumption|]. intros _. rewrite Ep2. cbn. change (existsb mentions_tree b) with (mentions b). rewrite (attr_no_amp _ _ Ep1). reflexivity.
    Qed.
    Lemma plain_table w x : plain_class w x -> exists y, RS y = x /\ forall s, word s w -> lookup s simple_pseudos = Some y /\ css2 s = false.
    Proof.
      intros H. destruct H; eexists; (split; [|intros s Hs; unfold lookup, simple_pseudos, css2; cbn [existsb]; rewrite ?(says_of _ _ _ Hs); split; reflexivity]); reflexivity.
    Qed.
    Lemma functional_words s w : word s w -> In w ["nth-child"; "nth-last-child"; "nth-of-type"; "nth-last-of-type"; "is"; "where"; "has"; "not"] -> css2 s = false.
    Proof. intros Hs Hw. unfold css2. cbn [existsb]. rewrite !(says_of _ _ _ Hs). cbn in Hw. repeat (destruct Hw as [<-|Hw]; [reflexivity|]). destruct Hw. Qed.
    Lemma nth_words w e o : nth_class w e o -> In w ["nth-child"; "nth-last-child"; "nth-of-type"; "nth-last-of-type"; "is"; "where"; "has"; "not"].
    Proof. intros H. inversion H; subst; cbn; auto 12. Qed.
    Lemma nth_functional st s w e o l : nth_class w e o -> word s w -> parse_functional nth inner st s l = parse_nth_pseudo nth inner st e o l.
    Proof. intros H Hw. unfold parse_functional. inversion H; subst; rewrite ?(says_of _ _ _ Hw); reflexivity. Qed.
    Lemma one_complete st u y r : depth u <= D -> rsimple (place_of st) u y -> exists x, parse_one nested nth inner st (u ++ r) = Simple x r /\ RS x = y.
    Proof.
      intros Hd H. destruct H as [s A|s A|A N|l x A Ha|s w x A Hp Hw|s w e o l a b r0 A Hc Hw En Hb|s w e l a b b' z r0 ss A Hc Hw En Hb Hz Hi|s l ss Hw Hi|s l ss Hw Hi|s l ss Hw Hi|s l ss Hh Hw Hi]; cbn in A || idtac.
      - cbn. rewrite A. eexists; split; reflexivity.
      - cbn. rewrite A. eexists; split; reflexivity.
      - cbn. rewrite N, A. eexists; split; reflexivity.
      - cbn. rewrite A. apply (attribute_complete parents) in Ha as (x0 & E & E2). rewrite E. exists x0. split; [reflexivity|exact E2].
      - apply plain_table in Hp as (y & E & Hp). destruct (Hp s Hw) as [Hl Hc]. cbn -[css2 parse_simple_pseudo]. rewrite Hc. unfold parse_simple_pseudo. rewrite A, Hl. exists y. split; [reflexivity|exact E].
      - cbn -[css2 parse_functional]. rewrite (functional_words s w Hw) by (apply (nth_words _ _ _ Hc)). exists (PNth e o a b). split; [|reflexivity].
        rewrite (nth_functional st s w e o l Hc Hw).
        unfold parse_nth_pseudo. rewrite A, En, (drop_all _ Hb). reflexivity.
      - cbn -[css2 parse_functional]. rewrite (functional_words s w Hw) by (apply (nth_words _ _ _ Hc)).
        rewrite (nth_functional st s w e false l Hc Hw).
        unfold parse_nth_pseudo. rewrite A, En, (drop_blanks _ _ Hb). cbn [ident drop_spaces]. rewrite (says_of _ _ _ Hz). cbn.
        apply (in_complete (enter st) false RNo) in Hi as (ps & Ei & E).
        + rewrite Ei. eexists; split; [reflexivity|]. change (NthOf e a b (map R ps) = NthOf e a b ss). rewrite E. reflexivity.
        + discriminate.
        + destruct (Hnth _ _ _ _ En) as (u & -> & _). rewrite !depth_cons, depth_fun, !depth_app, depth_cons in Hd. lia.
      - cbn -[css2 parse_functional]. rewrite (functional_words s _ Hw) by (cbn; auto 12). unfold parse_functional. rewrite !(says_of _ _ _ Hw). cbn. rewrite !depth_cons, depth_fun in Hd.
        apply (in_complete (enter st) true RNo) in Hi as (ps & -> & <-); [|discriminate|lia]. eexists; split; reflexivity.
      - cbn -[css2 parse_functional]. rewrite (functional_words s _ Hw) by (cbn; auto 12). unfold parse_functional. rewrite !(says_of _ _ _ Hw). cbn. rewrite !depth_cons, depth_fun in Hd.
        apply (in_complete (enter st) true RNo) in Hi as (ps & -> & <-); [|discriminate|lia]. eexists; split; reflexivity.
      - cbn -[css2 parse_functional]. rewrite (functional_words s _ Hw) by (cbn; auto 12). unfold parse_functional. rewrite !(says_of _ _ _ Hw). cbn. rewrite !depth_cons, depth_fun in Hd.
        apply (in_complete (enter st) false RNo) in Hi as (ps & -> & <-); [|discriminate|lia]. eexists; split; reflexivity.
      - cbn -[css2 parse_functional]. rewrite (functional_words s _ Hw) by (cbn; auto 12). unfold parse_functional. rewrite !(says_of _ _ _ Hw). cbn. cbn in Hh. rewrite Hh. rewrite !depth_cons, depth_fun in Hd.
        apply (in_complete (enter_has st) false RHas) in Hi as (ps & -> & <-); [|discriminate|lia]. eexists; split; reflexivity.
    Qed.
    Lemma pseudo_complete st q k r : pseudo_element q k -> after st = false -> inside st = false -> parse_one nested nth inner st (q ++ r) = Pseudo k r.
    Proof.
      intros H A I. destruct H as [s w k Hw Hs|s w k Hw Hs]; cbn -[css2 parse_functional].
      - unfold pseudo_step. rewrite A, I. destruct Hw as [E|[E|[]]]; injection E as <- <-; cbn; rewrite !(says_of _ _ _ Hs); reflexivity.
      - assert (css2 s = true) as ->. { unfold css2. cbn [existsb]. rewrite !(says_of _ _ _ Hs). destruct Hw as [E|[E|[]]]; injection E as <- <-; reflexivity. }
        unfold pseudo_step. rewrite A, I. destruct Hw as [E|[E|[]]]; injection E as <- <-; cbn; rewrite !(says_of _ _ _ Hs); reflexivity.
    Qed.
    (** what may follow a compound: the end, white space, the sign of a combinator *)
    Definition ends (l : list tree) : Prop := match l with [] => True | Leaf TWhite :: _ => True | Leaf (TDelim c) :: _ => sign c <> None | _ => False end.
    Lemma ends_stop st l : ends l -> parse_one nested nth inner st l = Stop.
    Proof.
      destruct l as [|[tk| |] l]; try (intros []; fail); [reflexivity|]. destruct tk; try (intros []; fail); [|reflexivity]. cbn. intros H. destruct (sign c) as [k|] eqn:E; [|congruence]. apply sign_iff in E. destruct E; destruct nested; reflexivity.
    Qed.
    Lemma ends_no_type l : ends l -> no_type l.
    Proof. destruct l as [|[tk| |] l]; try (intros []; fail); [intros; exact I|]. destruct tk; try (intros []; fail); [|intros; exact I]. cbn. intros H. destruct (sign c) as [k|] eqn:E; [|congruence]. apply sign_iff in E. destruct E; split; reflexivity. Qed.
    Lemma simple_no_type p u y r : rsimple p u y -> no_type (u ++ r) /\ solid (u ++ r).
    Proof. intros H. destruct H; cbn; repeat split; reflexivity. Qed.
    Lemma pseudo_no_type q k r : pseudo_element q k -> no_type (q ++ r) /\ solid (q ++ r).
    Proof. intros H. destruct H; cbn; repeat split; reflexivity. Qed.

    (** ** Compounds *)
    Definition rhead (h : head) : option (combinator * complex) := option_map (fun x => (fst x, R (snd x))) h.
    Lemma R_attach h c : R (attach h c) = joined (rhead h) (map RS c).
    Proof. destruct h as [[k r]|]; reflexivity. Qed.
    Definition hp (h : head) : bool := match h with Some (_, r) => has_parent r | None => false end.
    Lemma hp_attach h c : has_parent (attach h c) = (existsb has_parent_simple c || hp h)%bool.
    Proof. destruct h as [[k r]|]; cbn; [reflexivity|rewrite orb_false_r; reflexivity]. Qed.
    Lemma resolve_map c : R (POne c) = One (map RS c). Proof. reflexivity. Qed.

    (** no pseudo-element was read, or one *)
    Definition simples_result (st : state) (h : head) (cur : list psimple) (l : list tree) (st' : state) (h' : head) (cur' : list psimple) (r : list tree) : Prop :=
      (exists u xs, l = u ++ r /\ st' = st /\ h' = h /\ cur' = cur ++ xs /\ rsimples (place_of st) u (map RS xs) /\ (xs = [] -> u = []) /\ (nested = true -> existsb has_parent_simple xs = mentions u)) \/
      (exists u xs q k m ys, l = u ++ q ++ m ++ r /\ st' = behind st /\ after st = false /\ inside st = false /\ h' = Some (PseudoOf, attach h (cur ++ xs)) /\ cur' = PPseudo k :: ys /\
         rsimples (place_of st) u (map RS xs) /\ pseudo_element q k /\ rsimples (past_pseudo (place_of st)) m (map RS ys) /\
         (nested = true -> existsb has_parent_simple xs = mentions u /\ existsb has_parent_simple ys = mentions m) /\ mentions q = false).
    Lemma simples_sound f : forall st h cur l st' h' cur' r, depth l <= D -> parse_simples nested nth inner f st h cur l = Some (st', h', cur', r) -> simples_result st h cur l st' h' cur' r.
    Proof.
      induction f as [|f IH]; intros st h cur l st' h' cur' r Hd H; [discriminate|]. cbn in H. pose proof (one_sound st l Hd) as G.
      destruct (parse_one nested nth inner st l) as [| |x r0|k r0]; [|discriminate| |].
      - injection H as <- <- <- <-. left. exists [], []. rewrite app_nil_r. repeat split; auto; constructor.
      - destruct G as (u0 & -> & Hne & Hu & Ha). rewrite depth_app in Hd. apply IH in H; [|lia]. destruct H as [(u & xs & -> & -> & -> & -> & Hs & _ & Hm)|(u & xs & q & k & m & ys & -> & -> & A & I & -> & -> & Hs & Hq & Hs2 & Hm & Hmq)].
        + left. exists (u0 ++ u), (x :: xs). rewrite <- !app_assoc. repeat split; auto; [constructor; assumption|discriminate|].
          intros E. cbn [existsb]. rewrite (Ha E), (Hm E), mentions_app. reflexivity.
        + right. exists (u0 ++ u), (x :: xs), q, k, m, ys. rewrite <- !app_assoc. repeat split; auto; [constructor; assumption| |].
          * intros. cbn [existsb]. rewrite Ha by assumption. destruct (Hm H) as [-> _]. rewrite mentions_app. reflexivity.
          * apply Hm. assumption.
      - destruct G as (q & -> & Hq & A & I & Hmq). rewrite depth_app in Hd. apply IH in H; [|lia]. destruct H as [(u & xs & -> & -> & -> & -> & Hs & _ & Hm)|(u & xs & q' & k' & m & ys & _ & _ & A' & _)]; [|discriminate].
        right. exists [], [], q, k, u, xs. rewrite app_nil_r. repeat split; auto; constructor.
    Qed.
    Lemma simple_nonempty p u y : rsimple p u y -> u <> [].
    Proof. intros H. destruct H; discriminate. Qed.
    Lemma simples_complete st u ys : rsimples (place_of st) u ys -> forall f h cur r, depth u <= D -> List.length (u ++ r) < f ->
      exists xs f', map RS xs = ys /\ List.length r < f' /\ parse_simples nested nth inner f st h cur (u ++ r) = parse_simples nested nth inner f' st h (cur ++ xs) r.
    Proof.
      induction 1 as [|l x m xs Hx Hs IH]; intros f h cur r Hd Hf.
      - exists [], f. rewrite app_nil_r. auto.
      - rewrite depth_app in Hd. rewrite <- app_assoc in Hf |- *. destruct (one_complete st l x (m ++ r) ltac:(lia) Hx) as (y & Ey & <-). pose proof (simple_nonempty _ _ _ Hx) as Hl.
        destruct f as [|f]; [lia|]. cbn [parse_simples]. rewrite Ey. destruct (IH f h (cur ++ [y]) r ltac:(lia)) as (xs' & f' & <- & Hf' & E).
        { rewrite (app_length l) in Hf. destruct l; [congruence|cbn in Hf; lia]. }
        exists (y :: xs'), f'. rewrite E, <- app_assoc. auto.
    Qed.
    Lemma simples_no_type p m ys r : rsimples p m ys -> no_type r -> no_type (m ++ r).
    Proof. intros H Hr. destruct H as [|l x m xs Hx Hs]; [exact Hr|]. rewrite <- app_assoc. apply (simple_no_type _ _ _ (m ++ r) Hx). Qed.
    Lemma simples_stop f st h cur r : 0 < f -> ends r -> parse_simples nested nth inner f st h cur r = Some (st, h, cur, r).
    Proof. intros Hf He. destruct f; [lia|]. cbn. rewrite (ends_stop st r He). reflexivity. Qed.

    Notation rcompound := (reads_compound nested parents nth eval_str Rin).
    (** [compound_result]: as above, for a whole compound *)
    Definition compound_result (st : state) (h : head) (l : list tree) (st' : state) (h' : head) (cur' : list psimple) (r : list tree) : Prop :=
      exists b, blanks b /\
      ((exists u, l = b ++ u ++ r /\ u <> [] /\ st' = st /\ h' = h /\ rcompound (place_of st) u (map RS cur') /\ (nested = true -> existsb has_parent_simple cur' = mentions u)) \/
       (exists u xs q k m ys, l = b ++ (u ++ q ++ m) ++ r /\ st' = behind st /\ after st = false /\ inside st = false /\ h' = Some (PseudoOf, attach h xs) /\ cur' = PPseudo k :: ys /\
         rcompound (place_of st) u (map RS xs) /\ pseudo_element q k /\ rsimples (past_pseudo (place_of st)) m (map RS ys) /\
         (nested = true -> (existsb has_parent_simple xs || existsb has_parent_simple ys)%bool = mentions (u ++ q ++ m)))).
    Lemma compound_sound st h l st' h' cur' r : depth l <= D -> parse_compound nested nth inner st h l = Some (st', h', cur', r) -> compound_result st h l st' h' cur' r.
    Proof.
      unfold parse_compound. intros Hd H. destruct (drop_split l) as (b & Hb & El). exists b. split; [exact Hb|].
      destruct (parse_type st (drop_spaces l)) as [[cur r0]|] eqn:Et; [|discriminate]. apply (type_sound parents) in Et as (t0 & Et & Ht & Hta & Hth & Htm & Hte).
      destruct (parse_simples nested nth inner (S (List.length r0)) st h cur r0) as [[[[st1 h1] c1] r1]|] eqn:Es; [|discriminate].
      assert (Hd0 : depth r0 <= D) by (rewrite El, Et, !depth_app in Hd; lia). apply simples_sound in Es; [|exact Hd0].
      assert (Hc1 : c1 <> [] /\ (st1, h1, c1, r1) = (st', h', cur', r)) by (destruct c1; [discriminate|]; split; [discriminate|congruence]). destruct Hc1 as [Hc1 E]. injection E as -> -> -> ->. clear H.
      destruct Es as [(u & xs & -> & -> & -> & -> & Hs & Hxu & Hm)|(u & xs & q & k & m & ys & -> & -> & A & I & -> & -> & Hs & Hq & Hs2 & Hm & Hmq)].
      - left. exists (t0 ++ u). split; [rewrite El, Et, <- app_assoc; reflexivity|]. split; [|split; [reflexivity|split; [reflexivity|]]].
        + intros E. apply app_eq_nil in E as [-> ->]. apply Hc1. inversion Ht; subst. destruct cur; [|discriminate]. destruct xs as [|x xs]; [reflexivity|]. cbn in Hs. inversion Hs as [|l1 x1 m1 xs1 Hx Hs' E1]. apply app_eq_nil in E1 as [-> _]. inversion Hx.
        + split; [rewrite map_app; constructor; assumption|]. intros E. rewrite existsb_app, Hth, (Hm E), mentions_app, Htm. reflexivity.
      - right. exists (t0 ++ u), (cur ++ xs), q, k, m, ys. split; [rewrite El, Et, <- !app_assoc; reflexivity|]. repeat (split; [first [reflexivity|assumption]|]).
        split; [rewrite map_app; constructor; assumption|]. repeat (split; [assumption|]). intros E. destruct (Hm E) as [Hm1 Hm2]. rewrite existsb_app, Hth, Hm1, Hm2, !mentions_app, Htm, Hmq. reflexivity.
    Qed.
    Lemma compound_starts p u xs r : rcompound p u xs -> u <> [] -> no_white (u ++ r) /\ solid (u ++ r).
    Proof.
      intros [l ys m zs Ht _ Hs] Hu. destruct Ht; try (cbn; repeat split; reflexivity).
      destruct Hs as [|l' x m' xs' Hx Hs]; [exfalso; apply Hu; reflexivity|]. cbn [app]. rewrite <- app_assoc. destruct (simple_no_type _ _ _ (m' ++ r) Hx) as [_ H]. split; [|exact H].
      destruct (l' ++ m' ++ r) as [|[tk| |] z]; try exact I. destruct tk; try exact I. destruct H.
    Qed.
    Lemma compound_complete st h b u ys r : blanks b -> rcompound (place_of st) u ys -> u <> [] -> ends r -> depth u <= D ->
      exists xs, map RS xs = ys /\ parse_compound nested nth inner st h (b ++ u ++ r) = Some (st, h, xs, r).
    Proof.
      intros Hb H Hu He Hd. unfold parse_compound. rewrite drop_blanks by exact Hb. rewrite drop_none by (apply (compound_starts _ _ _ r H Hu)).
      destruct H as [l zs m ws Ht Hn Hs]. rewrite depth_app in Hd. rewrite <- app_assoc.
      destruct (type_complete parents st l zs (m ++ r) Ht Hn) as (xs & E & <- & Hne); [eapply simples_no_type; [exact Hs|apply ends_no_type; exact He]|]. rewrite E.
      destruct (simples_complete st m ws Hs (S (List.length (m ++ r))) h xs r ltac:(lia) ltac:(lia)) as (xs2 & f' & <- & Hf & E2). rewrite E2, simples_stop by (assumption || lia).
      exists (xs ++ xs2). split; [apply map_app|]. destruct (xs ++ xs2) eqn:E3; [|reflexivity]. exfalso. apply app_eq_nil in E3 as [-> ->]. apply Hu.
      assert (l = []) as -> by (destruct l; [reflexivity|exfalso; apply Hne; [discriminate|reflexivity]]). inversion Hs as [|l1 x1 m1 xs1 Hx Hs' E1]. reflexivity.
    Qed.
    Lemma compound_pseudo_complete st h b u ys q k m zs r : blanks b -> rcompound (place_of st) u ys -> after st = false -> inside st = false -> pseudo_element q k ->
      rsimples (past_pseudo (place_of st)) m zs -> ends r -> depth u <= D -> depth m <= D ->
      exists xs xs2, map RS xs = ys /\ map RS xs2 = zs /\ parse_compound nested nth inner st h (b ++ (u ++ q ++ m) ++ r) = Some (behind st, Some (PseudoOf, attach h xs), PPseudo k :: xs2, r).
    Proof.
      intros Hb H A I Hq Hm He Hd Hd2. unfold parse_compound. rewrite drop_blanks by exact Hb.
      assert (N : no_white ((u ++ q ++ m) ++ r)).
      { destruct u as [|x u]; [|rewrite <- app_assoc; apply (compound_starts _ _ _ ((q ++ m) ++ r) H); discriminate]. destruct Hq; exact Logic.I. }
      rewrite drop_none by exact N. destruct H as [l ws m0 vs Ht Hn Hs]. rewrite depth_app in Hd. rewrite <- !app_assoc.
      destruct (type_complete parents st l ws (m0 ++ q ++ m ++ r) Ht Hn) as (xs & E & <- & Hne); [eapply simples_no_type; [exact Hs|apply (pseudo_no_type q k (m ++ r) Hq)]|]. rewrite E.
      destruct (simples_complete st m0 vs Hs (S (List.length (m0 ++ q ++ m ++ r))) h xs (q ++ m ++ r) ltac:(lia) ltac:(lia)) as (xs2 & f' & <- & Hf & E2). rewrite E2.
      destruct f' as [|f']; [lia|]. cbn [parse_simples]. rewrite (pseudo_complete st q k (m ++ r) Hq A I).
      assert (Hf' : List.length (m ++ r) < f'). { rewrite app_length in Hf. destruct Hq; cbn in Hf; lia. }
      destruct (simples_complete (behind st) m zs Hm f' (Some (PseudoOf, attach h (xs ++ xs2))) [PPseudo k] r Hd2 Hf') as (xs3 & f2 & <- & Hf2 & E3). rewrite E3, simples_stop by (assumption || lia).
      exists (xs ++ xs2), xs3. split; [apply map_app|]. split; reflexivity.
    Qed.

    (** ** The selector *)
    Notation rrest := (reads_rest nested parents nth eval_str Rin).
    Lemma rest_sound f : forall st h l ps r, depth l <= D -> parse_rest nested nth inner f st h l = Some (ps, r) ->
      exists b u, blanks b /\ l = b ++ u ++ r /\ rrest (place_of st) (rhead h) u (R ps) /\ (nested = true -> has_parent ps = (hp h || mentions u)%bool).
    Proof.
      induction f as [|f IH]; intros st h l ps r Hd H; [discriminate|]. cbn [parse_rest] in H. destruct (parse_compound nested nth inner st h l) as [[[[st' h'] cur'] r0]|] eqn:E; [|discriminate].
      apply compound_sound in E; [|exact Hd]. destruct E as (b & Hb & [(u & -> & Hu & -> & -> & Hc & Hm)|(u & xs & q & k & m & ys & -> & -> & A & I & -> & -> & Hc & Hq & Hs & Hm)]).
      - assert (L : Some (attach h cur', r0) = Some (ps, r) -> exists b0 u0, blanks b0 /\ b ++ u ++ r0 = b0 ++ u0 ++ r /\ rrest (place_of st) (rhead h) u0 (R ps) /\ (nested = true -> has_parent ps = (hp h || mentions u0)%bool)).
        { intros E. injection E as <- <-. exists b, u. split; [exact Hb|]. split; [reflexivity|]. rewrite R_attach. split; [apply rest_last; assumption|]. intros En. rewrite hp_attach, (Hm En), orb_comm. reflexivity. }
        destruct (after st) eqn:Ea; [exact (L H)|]. destruct (combinator_at false r0) as [[k r']|] eqn:Ek; [|exact (L H)]. rewrite !depth_app in Hd.
        pose proof (comb_at_sound _ _ _ _ Ek) as (b1 & Hb1 & Hk). assert (Hr' : depth r' <= D). { destruct Hk as [(_ & -> & _)|(c & _ & ->)]; rewrite !depth_app in Hd; lia. }
        apply IH in H as (b2 & u2 & Hb2 & -> & Hr & Hh); [|exact Hr'].
        assert (Hcomb : exists c, r0 = c ++ u2 ++ r /\ reads_combinator c k /\ mentions c = false).
        { destruct Hk as [(-> & -> & [Hw|Hw])|(c & Hc' & ->)]; [discriminate| |].
          - exists (b1 ++ b2). rewrite <- app_assoc. split; [reflexivity|]. split; [constructor; auto; intros E; apply app_eq_nil in E as [-> _]; congruence|]. apply mentions_blanks; auto.
          - exists (b1 ++ [delim c] ++ b2). rewrite <- !app_assoc. split; [reflexivity|]. split; [constructor; auto|]. rewrite !mentions_app, (mentions_blanks _ Hb1), (mentions_blanks _ Hb2), (sign_amp _ _ Hc'). reflexivity. }
        destruct Hcomb as (c & -> & Hcc & Hcm). exists b, (u ++ c ++ u2). split; [exact Hb|]. split; [rewrite <- !app_assoc; reflexivity|]. split.
        + eapply rest_more; eauto. cbn [rhead option_map fst snd] in Hr. rewrite R_attach in Hr. exact Hr.
        + intros En. rewrite (Hh En). cbn [hp]. rewrite hp_attach, (Hm En), !mentions_app, Hcm. cbn. destruct (mentions u), (hp h), (mentions u2); reflexivity.
      - cbn [after behind] in H. injection H as <- <-. exists b, (u ++ q ++ m). split; [exact Hb|]. split; [reflexivity|]. split.
        + cbn [attach resolve map resolve_simple]. rewrite R_attach. apply rest_pseudo; assumption.
        + intros En. rewrite <- (Hm En). cbn [attach has_parent existsb has_parent_simple orb]. rewrite hp_attach. destruct (existsb has_parent_simple xs), (hp h), (existsb has_parent_simple ys); reflexivity.
    Qed.
    Lemma rest_starts p left u s r : rrest p left u s -> solid (u ++ r) /\ no_white (u ++ r).
    Proof.
      intros H. destruct H as [left l xs Hc Hl|left l xs c k m s Hc Hl _ _ _|left l xs q k m ys Hc _ _ Hq _].
      - split; apply (compound_starts _ _ _ r Hc Hl).
      - rewrite <- app_assoc. split; apply (compound_starts _ _ _ _ Hc Hl).
      - rewrite <- !app_assoc. destruct l as [|x l]; [|split; apply (compound_starts _ _ _ _ Hc); discriminate]. split; [apply (pseudo_no_type q k _ Hq)|destruct Hq; exact I].
    Qed.
    Lemma blanks_ends b : blanks b -> ends b.
    Proof. intros [|x b' <- _]; exact I. Qed.
    Lemma comb_ends c k m : reads_combinator c k -> ends (c ++ m).
    Proof.
      intros [b Hb Hn|b x k' b' Hb Hs Hb'].
      - destruct Hb as [|y b <- Hb]; [congruence|exact I].
      - destruct Hb as [|y b <- Hb]; [|exact I]. cbn. destruct Hs; discriminate.
    Qed.
    Lemma rest_complete p left u s : rrest p left u s -> forall st h f b b', p = place_of st -> left = rhead h -> blanks b -> blanks b' -> depth u <= D -> List.length (b ++ u ++ b') < f ->
      exists ps r, parse_rest nested nth inner f st h (b ++ u ++ b') = Some (ps, r) /\ blank r = true /\ R ps = s.
    Proof.
      induction 1 as [left l xs Hc Hl|left l xs c k m s Hc Hl A Hk Hr IH|left l xs q k m ys Hc A I Hq Hs]; intros st h f b b' -> -> Hb Hb' Hd Hf; (destruct f as [|f]; [lia|]); cbn [parse_rest].
      - destruct (compound_complete st h b l xs b' Hb Hc Hl (blanks_ends _ Hb') Hd) as (zs & <- & ->). destruct (after st).
        + eexists _, _. split; [reflexivity|]. split; [apply blank_iff; exact Hb'|apply R_attach].
        + rewrite (comb_at_blanks false b' Hb'). eexists _, _. split; [reflexivity|]. split; [apply blank_iff; exact Hb'|apply R_attach].
      - rewrite !depth_app in Hd. destruct (compound_complete st h b l xs (c ++ m ++ b') Hb Hc Hl (comb_ends _ _ _ Hk) ltac:(lia)) as (zs & <- & E). rewrite <- !app_assoc, E. cbn in A. rewrite A.
        destruct (comb_at_complete c k (m ++ b') Hk ltac:(apply (rest_starts _ _ _ _ b' Hr))) as (b2 & Hb2 & Ek). rewrite Ek.
        destruct (comb_at_sound _ _ _ _ Ek) as (b3 & _ & Ec).
        apply (IH st (Some (k, attach h zs)) f b2 b'); auto; [cbn; rewrite R_attach; reflexivity|lia|].
        assert (List.length (b2 ++ m ++ b') <= List.length (c ++ m ++ b')) by (destruct Ec as [(_ & -> & _)|(c' & _ & ->)]; rewrite ?app_length; cbn; rewrite ?app_length; lia).
        rewrite <- !app_assoc in Hf. rewrite (app_length b), (app_length l) in Hf. destruct l; [congruence|cbn in Hf]. lia.
      - rewrite !depth_app in Hd. destruct (compound_pseudo_complete st h b l xs q k m ys b' Hb Hc A I Hq Hs (blanks_ends _ Hb') ltac:(lia) ltac:(lia)) as (zs & ws & <- & <- & ->). cbn [after behind].
        eexists _, _. split; [reflexivity|]. split; [apply blank_iff; exact Hb'|]. cbn [attach resolve map resolve_simple]. rewrite R_attach. reflexivity.
    Qed.

    (** the `&` of nested selectors that have none *)
    Definition amp_head : option (combinator * complex) := Some (Descendant, One [Is false parents]).
    Fixpoint prepend (s : complex) : complex := match s with One c => Then c Descendant (One [Is false parents]) | Then c k r => Then c k (prepend r) end.
    Definition prep (left : option (combinator * complex)) : option (combinator * complex) := match left with None => amp_head | Some (k, r) => Some (k, prepend r) end.
    Lemma prep_joined left xs : joined (prep left) xs = prepend (joined left xs).
    Proof. destruct left as [[k r]|]; reflexivity. Qed.
    Lemma R_below ps : R (below_parent ps) = prepend (R ps).
    Proof. induction ps as [c|c k r IH]; [reflexivity|]. cbn. rewrite IH. reflexivity. Qed.
    Lemma rest_prep p left u s : rrest p left u s -> rrest p (prep left) u (prepend s).
    Proof.
      induction 1 as [left l xs Hc Hl|left l xs c k m s Hc Hl A Hk Hr IH|left l xs q k m ys Hc A I Hq Hs].
      - rewrite <- prep_joined. apply rest_last; assumption.
      - eapply rest_more; eauto. rewrite prep_joined. exact IH.
      - cbn. rewrite <- prep_joined. apply rest_pseudo; assumption.
    Qed.
    Lemma rest_prep_inv p left' u s : rrest p left' u s -> forall left, left' = prep left -> exists s0, s = prepend s0 /\ rrest p left u s0.
    Proof.
      induction 1 as [left' l xs Hc Hl|left' l xs c k m s Hc Hl A Hk Hr IH|left' l xs q k m ys Hc A I Hq Hs]; intros left ->.
      - exists (joined left xs). split; [apply prep_joined|]. apply rest_last; assumption.
      - destruct (IH (Some (k, joined left xs))) as (s0 & -> & H0); [cbn; rewrite prep_joined; reflexivity|]. exists s0. split; [reflexivity|]. eapply rest_more; eauto.
      - exists (Then (PseudoEl k :: ys) PseudoOf (joined left xs)). split; [cbn; rewrite prep_joined; reflexivity|]. apply rest_pseudo; assumption.
    Qed.

    Notation rselector := (reads_selector nested parents nth eval_str Rin).
    Definition nesting_ok (rel : relative) : Prop := rel = RNesting -> nested = true.
    Lemma comb_at_drop l k r : combinator_at false (drop_spaces l) = Some (k, r) -> exists c, sign_of c k /\ drop_spaces l = delim c :: r.
    Proof.
      intros H. pose proof (drop_no_white l) as N. apply comb_at_sound in H as (b & Hb & H). destruct Hb as [|x b <- Hb].
      - destruct H as [(_ & _ & [H|H])|(c & Hc & ->)]; [discriminate|congruence|]. exists c. split; [exact Hc|reflexivity].
      - destruct H as [(_ & H & _)|(c & Hc & H)]; rewrite H in N; destruct N.
    Qed.
    Lemma selector_sound st rel l ps r : nesting_ok rel -> depth l <= D -> parse_selector nested nth inner st rel l = Some (ps, r) -> blank r = true ->
      rselector (place_of st) (kind_of rel) l (R ps) /\ (nested = true -> rel <> RNesting -> has_parent ps = mentions l).
    Proof.
      unfold parse_selector, parse_head. intros Hn Hd H Hbr. apply blank_iff in Hbr. destruct (drop_split l) as (b & Hb & El).
      assert (Hd2 : depth (drop_spaces l) <= D) by (rewrite El, depth_app in Hd; lia).
      assert (S : forall c h left m, drop_spaces l = c ++ m -> blanks (match c with [] => [] | _ :: c' => c' end) -> mentions c = false -> left = rhead h ->
        (forall b1 u, blanks b1 -> c <> [] \/ b1 = [] -> m = b1 ++ u ++ r -> begins parents l (kind_of rel) (c ++ b1) left) -> rel <> RNesting \/ c <> [] -> hp h = false \/ rel = RNesting ->
        option_map (fun x => (finish rel (fst x), snd x)) (parse_rest nested nth inner (S (List.length m)) st h m) = Some (ps, r) ->
        (rel = RNesting -> hp h = true) ->
        rselector (place_of st) (kind_of rel) l (R ps) /\ (nested = true -> rel <> RNesting -> has_parent ps = mentions l)).
      { intros c h left m Em Hc Hmc -> Hbeg Hrc Hhp H0 Hhp2. destruct (parse_rest nested nth inner (S (List.length m)) st h m) as [[ps0 r0]|] eqn:E; [|discriminate]. cbn [option_map fst snd] in H0. injection H0 as E1 ->.
        assert (Hdm : depth m <= D) by (rewrite Em, depth_app in Hd2; lia). apply rest_sound in E as (b1 & u & Hb1 & Eu & Hr & Hm); [|exact Hdm].
        assert (ps0 = ps) as <-. { unfold finish in E1. destruct rel; try exact E1. rewrite (Hm (Hn eq_refl)), (Hhp2 eq_refl) in E1. exact E1. }
        assert (Hb1' : c <> [] \/ b1 = []). { destruct c; [|left; discriminate]. right. destruct Hb1 as [|x b1 <- _]; [reflexivity|]. pose proof (drop_no_white l) as N. rewrite Em, Eu in N. destruct N. }
        split.
        - assert (l = b ++ (c ++ b1) ++ u ++ r) as El2. { rewrite El, Em, Eu, <- app_assoc. reflexivity. } specialize (Hbeg b1 u Hb1 Hb1' Eu). rewrite El2 in Hbeg |- *. econstructor; eauto.
        - intros En Hr0. rewrite (Hm En). destruct Hhp as [Hhp|Hhp]; [|congruence]. rewrite Hhp, El, Em, Eu, !mentions_app, Hmc, (mentions_blanks _ Hb), (mentions_blanks _ Hb1), (mentions_blanks _ Hbr), orb_false_r. reflexivity. }
      destruct rel.
      - apply (S [] None None (drop_spaces l)); auto; try discriminate; try (left; discriminate). intros b1 u Hb1 [X|X] _; [congruence|]. rewrite X. constructor.
      - destruct (combinator_at false (drop_spaces l)) as [[k r']|] eqn:Ek.
        + apply comb_at_drop in Ek as (c & Hc & E). apply (S [delim c] (Some (k, POne [PAnchor])) (Some (k, One [Anchor])) r'); auto; try discriminate; try (left; discriminate).
          * apply (sign_amp _ _ Hc).
          * intros b1 u Hb1 _ _. apply b_has_sign; assumption.
        + apply (S [] (Some (Descendant, POne [PAnchor])) (Some (Descendant, One [Anchor])) (drop_spaces l)); auto; try discriminate; try (left; discriminate).
          intros b1 u Hb1 [X|X] _; [congruence|]. rewrite X. constructor.
      - split; [|congruence]. destruct (combinator_at false (drop_spaces l)) as [[k r']|] eqn:Ek.
        + apply comb_at_drop in Ek as (c & Hc & E). refine (proj1 (S [delim c] (Some (k, POne [PParent])) (Some (k, One [Is false parents])) r' E _ (sign_amp _ _ Hc) eq_refl _ _ _ H _)); auto.
          * intros b1 u Hb1 _ _. apply b_nested_sign; assumption.
          * right; discriminate.
        + destruct (parse_rest nested nth inner (Datatypes.S (List.length (drop_spaces l))) st None (drop_spaces l)) as [[ps0 r0]|] eqn:E; [|discriminate]. cbn [option_map fst snd] in H. injection H as E1 ->.
          apply rest_sound in E as (b1 & u & Hb1 & Eu & Hr & Hm); [|exact Hd2]. specialize (Hm (Hn eq_refl)). cbn [hp orb] in Hm.
          assert (b1 = []) as ->. { destruct Hb1 as [|x b1 <- _]; [reflexivity|]. pose proof (drop_no_white l) as N. rewrite Eu in N. destruct N. }
          assert (El2 : l = b ++ [] ++ u ++ r) by (rewrite El, Eu; reflexivity). assert (Hml : mentions l = mentions u). { rewrite El2, !mentions_app, (mentions_blanks _ Hb), (mentions_blanks _ Hbr), orb_false_r. reflexivity. }
          unfold finish in E1. rewrite Hm in E1. destruct (mentions u) eqn:Emu.
          * subst ps0. rewrite El2. apply selector with (left := None); auto. apply b_nested_amp. apply mentions_iff. rewrite <- El2. exact Hml.
          * subst ps. rewrite R_below, El2. apply selector with (left := amp_head); auto; [|apply (rest_prep _ None _ _ Hr)]. apply b_nested. apply mentions_false. rewrite <- El2. exact Hml.
    Qed.
    Lemma selector_complete st rel l s : nesting_ok rel -> depth l <= D -> rselector (place_of st) (kind_of rel) l s ->
      exists ps r, parse_selector nested nth inner st rel l = Some (ps, r) /\ blank r = true /\ R ps = s.
    Proof.
      unfold parse_selector, parse_head. intros Hn Hd H. remember (kind_of rel) as kd eqn:Ekd. destruct H as [b c left m b' s Hb Hb' Hbeg Hr].
      assert (Hdm : depth m <= D) by (rewrite !depth_app in Hd; lia). rewrite drop_blanks by exact Hb. destruct (rest_starts _ _ _ _ b' Hr) as [So Nw].
      assert (E0 : drop_spaces (c ++ m ++ b') = c ++ m ++ b'). { apply drop_none. destruct Hbeg; cbn; auto. } rewrite E0.
      assert (Cn : c = [] -> combinator_at false (c ++ m ++ b') = None) by (intros ->; apply (comb_at_solid false _ So)).
      assert (Cs : forall x k bb, c = delim x :: bb -> sign_of x k -> combinator_at false (c ++ m ++ b') = Some (k, bb ++ m ++ b')).
      { intros x k bb -> Hs. apply sign_iff in Hs. cbn. rewrite Hs. reflexivity. }
      remember (b ++ c ++ m ++ b') as l0 eqn:El0 in Hbeg. destruct Hbeg as [| |x k bb Hs Hbb|x k bb Hs Hbb|Ha|Ha]; rewrite ?El0 in *; clear El0; destruct rel; try discriminate Ekd.
      - cbn [app]. destruct (rest_complete _ _ _ _ Hr st None (S (List.length (m ++ b'))) [] b' eq_refl eq_refl (Forall_nil _) Hb' Hdm ltac:(cbn; lia)) as (ps & r & E & Hbr & Er). cbn [app] in E. rewrite E.
        exists ps, r. split; [reflexivity|]. auto.
      - rewrite (Cn eq_refl). cbn [app]. destruct (rest_complete _ _ _ _ Hr st (Some (Descendant, POne [PAnchor])) (S (List.length (m ++ b'))) [] b' eq_refl eq_refl (Forall_nil _) Hb' Hdm ltac:(cbn; lia)) as (ps & r & E & Hbr & Er). cbn [app] in E. rewrite E.
        exists ps, r. split; [reflexivity|]. auto.
      - rewrite (Cs x k bb eq_refl Hs). destruct (rest_complete _ _ _ _ Hr st (Some (k, POne [PAnchor])) (S (List.length (bb ++ m ++ b'))) bb b' eq_refl eq_refl Hbb Hb' Hdm ltac:(lia)) as (ps & r & E & Hbr & Er). rewrite E.
        exists ps, r. split; [reflexivity|]. auto.
      - rewrite (Cs x k bb eq_refl Hs). destruct (rest_complete _ _ _ _ Hr st (Some (k, POne [PParent])) (S (List.length (bb ++ m ++ b'))) bb b' eq_refl eq_refl Hbb Hb' Hdm ltac:(lia)) as (ps & r & E & Hbr & Er). rewrite E.
        exists ps, r. split; [|auto]. cbn [option_map fst snd finish]. apply rest_sound in E as (b1 & u & _ & _ & _ & Hm); [|change (delim x :: bb) with ([delim x] ++ bb) in Hd; rewrite <- ?app_assoc in Hd; rewrite !depth_app in Hd |- *; rewrite ?depth_app in Hd; lia]. rewrite (Hm (Hn eq_refl)). reflexivity.
      - rewrite (Cn eq_refl). cbn [app]. destruct (rest_complete _ _ _ _ Hr st None (S (List.length (m ++ b'))) [] b' eq_refl eq_refl (Forall_nil _) Hb' Hdm ltac:(cbn; lia)) as (ps & r & E & Hbr & Er). cbn [app] in E. rewrite E.
        exists ps, r. split; [|auto]. cbn [option_map fst snd finish]. apply rest_sound in E as (b1 & u & Hb1 & Eu & _ & Hm); [|cbn [app] in Hd; rewrite !depth_app in Hd; rewrite !depth_app; lia]. rewrite (Hm (Hn eq_refl)). cbn [hp orb].
        assert (mentions u = true) as ->; [|reflexivity]. apply mentions_iff in Ha. cbn [app] in Ha. rewrite Eu, !mentions_app, (mentions_blanks _ Hb), (mentions_blanks _ Hb1) in Ha. apply blank_iff in Hbr. rewrite (mentions_blanks _ Hbr), orb_false_r in Ha. exact Ha.
      - rewrite (Cn eq_refl). cbn [app]. destruct (rest_prep_inv _ _ _ _ Hr None eq_refl) as (s0 & -> & Hr0).
        destruct (rest_complete _ _ _ _ Hr0 st None (S (List.length (m ++ b'))) [] b' eq_refl eq_refl (Forall_nil _) Hb' Hdm ltac:(cbn; lia)) as (ps & r & E & Hbr & Er). cbn [app] in E. rewrite E.
        exists (below_parent ps), r. split; [|split; [exact Hbr|rewrite R_below, Er; reflexivity]]. cbn [option_map fst snd finish]. apply rest_sound in E as (b1 & u & Hb1 & Eu & _ & Hm); [|cbn [app] in Hd; rewrite !depth_app in Hd; rewrite !depth_app; lia]. rewrite (Hm (Hn eq_refl)). cbn [hp orb].
        assert (mentions u = false) as ->; [|reflexivity]. apply mentions_false in Ha. cbn [app] in Ha. rewrite Eu, !mentions_app in Ha. apply orb_false_iff in Ha as [_ Ha]. apply orb_false_iff in Ha as [_ Ha]. apply orb_false_iff in Ha as [Ha _]. exact Ha.
    Qed.

    (** ** Lists *)
    Definition rmember (p : place) (fg : bool) (k : kind) (l : list tree) (s : complex) : Prop :=
      rselector p k l s \/ fg = true /\ (forall s', ~ rselector p k l s') /\ s = One [Is true []].
    Lemma member_iff st fg rel l s : nesting_ok rel -> depth l <= D -> (exists ps, parse_member nested nth inner st fg rel l = Some ps /\ R ps = s) <-> rmember (place_of st) fg (kind_of rel) l s.
    Proof.
      intros Hn Hd. unfold parse_member, rmember. destruct (parse_selector nested nth inner st rel l) as [[ps r]|] eqn:E.
      - destruct (blank r) eqn:Eb.
        + destruct (selector_sound st rel l ps r Hn Hd E Eb) as [Hs _]. split.
          * intros (ps' & H & <-). injection H as <-. left. exact Hs.
          * intros [H|(_ & H & _)]; [|exfalso; exact (H _ Hs)]. apply (selector_complete st rel l s Hn Hd) in H as (ps' & r' & E' & _ & <-). rewrite E in E'. injection E' as <- <-. eauto.
        + assert (No : forall s', ~ rselector (place_of st) (kind_of rel) l s'). { intros s' H. apply (selector_complete st rel l s' Hn Hd) in H as (ps' & r' & E' & Eb' & _). rewrite E in E'. injection E' as <- <-. congruence. }
          split.
          * intros (ps' & H & <-). destruct fg; [|discriminate]. injection H as <-. right. auto.
          * intros [H|(-> & _ & ->)]; [exfalso; exact (No _ H)|]. eexists; split; reflexivity.
      - assert (No : forall s', ~ rselector (place_of st) (kind_of rel) l s'). { intros s' H. apply (selector_complete st rel l s' Hn Hd) in H as (ps' & r' & E' & Eb' & _). rewrite E in E'. discriminate. }
        split.
        + intros (ps' & H & <-). destruct fg; [|discriminate]. injection H as <-. right. auto.
        + intros [H|(-> & _ & ->)]; [exfalso; exact (No _ H)|]. eexists; split; reflexivity.
    Qed.
    Lemma member_amp st fg rel l ps : nested = true -> rel <> RNesting -> depth l <= D -> parse_member nested nth inner st fg rel l = Some ps -> has_parent ps = mentions l.
    Proof.
      unfold parse_member. intros En Hr Hd H. destruct (parse_selector nested nth inner st rel l) as [[ps' r]|] eqn:E.
      - destruct (blank r) eqn:Eb.
        + injection H as <-. apply (selector_sound st rel l ps' r); auto. intros X. congruence.
        + destruct fg; [|discriminate]. injection H as <-. cbn. rewrite orb_false_r. reflexivity.
      - destruct fg; [|discriminate]. injection H as <-. cbn. rewrite orb_false_r. reflexivity.
    Qed.
    Lemma split_depth l : depth (fst (split_commas l)) <= depth l /\ Forall (fun m => depth m <= depth l) (snd (split_commas l)).
    Proof.
      induction l as [|x l IH]; [split; [apply le_n|constructor]|]. cbn [split_commas]. destruct (split_commas l) as [a b]. destruct IH as [IH1 IH2]. rewrite depth_cons. cbn [fst snd] in *.
      assert (Q : depth (x :: a) <= Nat.max (depth_tree x) (depth l) /\ Forall (fun m => depth m <= Nat.max (depth_tree x) (depth l)) b).
      { rewrite depth_cons. split; [lia|]. eapply Forall_impl; [|exact IH2]. intros z Hz; cbv beta in *; lia. }
      destruct x as [tk| |]; try exact Q. destruct tk; try exact Q. cbn [fst snd]. split; [cbn -[Nat.max]; lia|]. constructor; [lia|]. eapply Forall_impl; [|exact IH2]. intros z Hz; cbv beta in *; lia.
    Qed.
    Lemma members_split (P : list tree -> complex -> Prop) l ss : reads_members P l ss <-> Forall2 P (fst (split_commas l) :: snd (split_commas l)) ss.
    Proof.
      assert (N : forall m, ~ In (Leaf TComma) m -> forall r, split_commas (m ++ r) = (m ++ fst (split_commas r), snd (split_commas r))).
      { induction m as [|x m IHm]; intros Hc r; [cbn; destruct (split_commas r); reflexivity|]. cbn [app split_commas]. rewrite IHm by (intros X; apply Hc; right; exact X).
        destruct x as [tk| |]; try reflexivity. destruct tk; try reflexivity. exfalso. apply Hc. left. reflexivity. }
      split.
      - induction 1 as [l s Hc Hs|l s m ss Hc Hs Hm IH].
        + rewrite <- (app_nil_r l), N by exact Hc. cbn. rewrite app_nil_r. repeat constructor. exact Hs.
        + rewrite N by exact Hc. cbn [split_commas]. destruct (split_commas m) as [a b]. cbn [fst snd] in *. rewrite app_nil_r. constructor; assumption.
      - assert (C : forall l, l = fst (split_commas l) ++ flat_map (fun m => Leaf TComma :: m) (snd (split_commas l)) /\ Forall (fun m => ~ In (Leaf TComma) m) (fst (split_commas l) :: snd (split_commas l))).
        { clear. induction l as [|x l [IH1 IH2]]; [split; [reflexivity|constructor; [intros []|constructor]]|]. cbn [split_commas]. destruct (split_commas l) as [a b]. cbn [fst snd] in *.
          assert (Q : x <> Leaf TComma -> x :: l = (x :: a) ++ flat_map (fun m => Leaf TComma :: m) b /\ Forall (fun m => ~ In (Leaf TComma) m) ((x :: a) :: b)).
          { intros Hx. split; [rewrite IH1; reflexivity|]. inversion IH2 as [|? ? Ha Hb]; subst. constructor; [intros [X|X]; [exact (Hx X)|exact (Ha X)]|exact Hb]. }
          destruct x as [tk| |]; try (apply Q; discriminate). destruct tk; try (apply Q; discriminate). cbn [fst snd flat_map app]. split; [rewrite IH1; reflexivity|]. constructor; [intros []|exact IH2]. }
        assert (G : forall b a ss, Forall (fun m => ~ In (Leaf TComma) m) (a :: b) -> Forall2 P (a :: b) ss -> reads_members P (a ++ flat_map (fun m => Leaf TComma :: m) b) ss).
        { clear. induction b as [|b0 b IH]; intros a ss Hc H.
          - cbn. rewrite app_nil_r. inversion H as [|? s ? ss' Hs Hn]; subst. inversion Hn; subst. inversion Hc; subst. constructor; assumption.
          - inversion H as [|? s ? ss' Hs Hn]; subst. inversion Hc; subst. cbn [flat_map app]. constructor; [assumption|assumption|]. apply IH; assumption. }
        intros H. destruct (C l) as [El Hc]. rewrite El. apply G; assumption.
    Qed.
    Lemma all_some_iff {X Y} (f : X -> option Y) l ys : all_some (map f l) = Some ys <-> Forall2 (fun x y => f x = Some y) l ys.
    Proof.
      revert ys. induction l as [|x l IH]; intros ys.
      - cbn. split; [intros H; injection H as <-; constructor|intros H; inversion H; reflexivity].
      - cbn. destruct (f x) as [y|] eqn:E.
        + split.
          * intros H. destruct (all_some (map f l)) as [ys'|] eqn:E2; [|discriminate]. injection H as <-. constructor; [exact E|]. apply IH. reflexivity.
          * intros H. inversion H as [|? y' ? ys' Hy Hl]; subst. apply IH in Hl. rewrite Hl. cbn. congruence.
        + split; [discriminate|]. intros H. inversion H; subst. congruence.
    Qed.
    Lemma members_iff st fg rel l ss : nesting_ok rel -> depth l <= D -> (exists ps, parse_members nested nth inner st fg rel l = Some ps /\ map R ps = ss) <-> reads_members (rmember (place_of st) fg (kind_of rel)) l ss.
    Proof.
      intros Hn Hd. rewrite members_split. unfold parse_members. destruct (split_depth l) as [D1 D2]. destruct (split_commas l) as [a b]. cbn [fst snd] in *.
      assert (Hall : Forall (fun m => depth m <= D) (a :: b)) by (constructor; [lia|]; eapply Forall_impl; [|exact D2]; intros z Hz; cbv beta in *; lia). clear D1 D2 Hd. revert ss. generalize dependent (a :: b). clear a b.
      induction l0 as [|m ms IH]; intros Ha ss.
      - cbn. split; [intros (ps & H & <-); injection H as <-; constructor|intros H; inversion H; subst; exists []; split; reflexivity].
      - inversion Ha as [|? ? Hm Hms]; subst. specialize (IH Hms). pose proof (member_iff st fg rel m) as M. cbn [map all_some]. split.
        + intros (ps & H & <-). destruct (parse_member nested nth inner st fg rel m) as [p|] eqn:E; [|discriminate]. destruct (all_some (map (parse_member nested nth inner st fg rel) ms)) as [ps'|] eqn:E2; [|discriminate]. injection H as <-.
          cbn [map]. constructor; [apply M; auto; eauto|]. apply IH. eauto.
        + intros H. inversion H as [|? s ? ss' Hs Hr]; subst. apply M in Hs as (p & -> & <-); auto. apply IH in Hr as (ps & -> & <-). eexists; split; reflexivity.
    Qed.
    Lemma members_amp st fg rel l ps : nested = true -> rel <> RNesting -> depth l <= D -> parse_members nested nth inner st fg rel l = Some ps -> existsb has_parent ps = mentions l.
    Proof.
      intros En Hr Hd H. unfold parse_members in H.
      assert (M : mentions l = existsb mentions (fst (split_commas l) :: snd (split_commas l))).
      { clear. induction l as [|x l IH]; [reflexivity|]. cbn [split_commas]. destruct (split_commas l) as [a b]. cbn [fst snd existsb] in *. 
        assert (Q : mentions (x :: l) = (mentions (x :: a) || existsb mentions b)%bool). { change (mentions ([x] ++ l) = (mentions ([x] ++ a) || existsb mentions b)%bool). rewrite !mentions_app, IH, orb_assoc. reflexivity. }
        destruct x as [tk| |]; try exact Q. destruct tk; try exact Q. }
      rewrite M. destruct (split_depth l) as [D1 D2]. destruct (split_commas l) as [a b]. cbn [fst snd] in *.
      assert (Hall : Forall (fun m => depth m <= D) (a :: b)) by (constructor; [lia|]; eapply Forall_impl; [|exact D2]; intros z Hz; cbv beta in *; lia). clear D1 D2 Hd M. revert ps H. generalize dependent (a :: b). clear a b.
      induction l0 as [|m ms IH]; intros Ha ps H; [injection H as <-; reflexivity|]. pose proof (Forall_inv Ha) as Hm; pose proof (Forall_inv_tail Ha) as Hms. cbn [map all_some] in H.
      destruct (parse_member nested nth inner st fg rel m) as [p|] eqn:E; [|discriminate]. destruct (all_some (map (parse_member nested nth inner st fg rel) ms)) as [ps'|] eqn:E2; [|discriminate]. injection H as <-.
      cbn [existsb]. rewrite (member_amp _ _ _ _ _ En Hr Hm E), (IH Hms ps' eq_refl). reflexivity.
    Qed.
  End Inner.

  (** ** All depths *)
  Lemma list_ok : forall n st fg rel l, depth l < n ->
    (nesting_ok rel -> forall m, depth l < m -> forall ss, (exists ps, parse_list nested nth n st fg rel l = Some ps /\ map R ps = ss) <-> reads nested parents nth eval_str m (place_of st) fg (kind_of rel) l ss) /\
    (nested = true -> rel <> RNesting -> forall ps, parse_list nested nth n st fg rel l = Some ps -> existsb has_parent ps = mentions l).
  Proof.
    induction n as [|n IH]; intros st fg rel l Hl; [lia|].
    assert (No : forall rel', rel' <> RNesting -> nesting_ok rel') by (unfold nesting_ok; congruence).
    split.
    - intros Hn m Hm ss. destruct m as [|m]; [lia|]. cbn [parse_list reads].
      apply (members_iff (depth l) (parse_list nested nth n) (reads nested parents nth eval_str m)); auto.
      + intros st' fg' rel' l' Hr Hl' ss'. apply IH; [lia|auto|lia].
      + intros En st' fg' rel' l' ps Hr Hl' E. apply (IH st' fg' rel' l'); auto. lia.
    - intros En Hr ps. cbn [parse_list]. apply (members_amp (depth l) (parse_list nested nth n) (reads nested parents nth eval_str (S (depth l)))); auto.
      + intros st' fg' rel' l' Hr' Hl' ss'. apply IH; [lia|auto|lia].
      + intros _ st' fg' rel' l' ps' Hr' Hl' E. apply (IH st' fg' rel' l'); auto. lia.
  Qed.
End P.
