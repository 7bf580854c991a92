(** Proofs for C104. *)
From Coq Require Import String.
From Verif Require Import Base Tree TreeSpec TreeProofs Siblings SiblingsSpec Invalidation InvalidationSpec InvalidationProofs Matching MatchingSpec MatchingProofs Follow FollowSpec.
Open Scope list_scope.

(** ** The answer of a program, without the flags *)
Fixpoint result {R} (w : world) (n : nat) (p : eprog R) : R :=
  match p with
  | Done r => r
  | Go d q k => result w n (k (found (reach w n (d :: q))))
  | Read q k => result w n (k (data_at w (reach w n q)))
  | Childless q k => result w n (k (childless w (reach w n q)))
  | Mark q k => result w n k
  | Same a b k => result w n (k (same (reach w n a) (reach w n b)))
  end.
Lemma exec_result {R} w n (p : eprog R) : forall fl, fst (exec w n p fl) = result w n p.
Proof. induction p as [r|d q k IH|q k IH|q k IH|q k IH|a b k IH]; intros fl; [reflexivity| | | | |]; cbn [exec result]; apply IH. Qed.
Lemma result_bind {A B} w n (p : eprog A) (f : A -> eprog B) : result w n (bind p f) = result w n (f (result w n p)).
Proof. induction p as [r|d q k IH|q k IH|q k IH|q k IH|a b k IH]; [reflexivity| | | | |]; cbn [bind result]; apply IH. Qed.

(** ** The program is the matching of Matching.v *)
Section Refine.
  Context (w : world) (n fuel : nat).
  Notation res := (result w n).
  Lemma res_pany {A} (P : A -> eprog bool) (f : A -> bool) l : (forall x, In x l -> res (P x) = f x) -> res (pany P l) = existsb f l.
  Proof.
    induction l as [|x l IH]; intros H; [reflexivity|]. cbn [pany existsb]. rewrite result_bind, (H x) by (left; reflexivity). destruct (f x); [reflexivity|]. cbn [orb]. apply IH. intros y Hy. apply H. right. exact Hy.
  Qed.
  Lemma res_pall {A} (P : A -> eprog bool) (f : A -> bool) l : (forall x, In x l -> res (P x) = f x) -> res (pall P l) = forallb f l.
  Proof.
    induction l as [|x l IH]; intros H; [reflexivity|]. cbn [pall forallb]. rewrite result_bind, (H x) by (left; reflexivity). destruct (f x); [|reflexivity]. cbn [andb]. apply IH. intros y Hy. apply H. right. exact Hy.
  Qed.
  Lemma step_move k : step_for w k = move w (dir_for k).
  Proof. destruct k; reflexivity. Qed.
  Lemma reach_step path e d : reach w n path = Some e -> reach w n (d :: path) = move w d e.
  Proof. intros H. cbn [reach]. rewrite H. reflexivity. Qed.
  Lemma res_ptry k (run : list dir -> eprog outcome) (f : nat -> outcome) :
    (forall path e, reach w n path = Some e -> res (run path) = f e) ->
    forall fu path e, reach w n path = Some e -> res (ptry k run fu path) = try_all k f (chain (step_for w k) fu e).
  Proof.
    intros H. rewrite step_move. induction fu as [|fu IH]; intros path e He; [destruct k; reflexivity|].
    cbn [ptry result chain]. rewrite (reach_step _ _ _ He). destruct (move w (dir_for k) e) as [m|] eqn:Em; [|destruct k; reflexivity].
    assert (Hm : reach w n (dir_for k :: path) = Some m) by (rewrite (reach_step _ _ _ He); exact Em).
    cbn [found]. rewrite result_bind, (H _ _ Hm). cbn [try_all]. destruct (f m); destruct k; try reflexivity; apply (IH _ _ Hm).
  Qed.
  Lemma res_pcount d (counts : list dir -> eprog bool) (f : nat -> bool) :
    (forall path e, reach w n path = Some e -> res (counts path) = f e) ->
    forall fu path e, reach w n path = Some e -> res (pcount d counts fu path) = List.length (filter f (chain (move w d) fu e)).
  Proof.
    intros H. induction fu as [|fu IH]; intros path e He; [reflexivity|]. cbn [pcount result chain]. rewrite (reach_step _ _ _ He).
    destruct (move w d e) as [m|] eqn:Em; [|reflexivity]. assert (Hm : reach w n (d :: path) = Some m) by (rewrite (reach_step _ _ _ He); exact Em).
    cbn [found]. rewrite !result_bind, (H _ _ Hm), (IH _ _ Hm). cbn [filter result]. destruct (f m); reflexivity.
  Qed.
  Lemma res_pnth from_end edge a b counts f path e : (forall path e, reach w n path = Some e -> res (counts path) = f e) -> reach w n path = Some e ->
    res (pnth fuel from_end edge a b counts path) = nth_matches w fuel from_end edge a b f e.
  Proof.
    intros H He. unfold pnth, nth_matches, siblings_to. destruct (edge && (a =? 0)%Z && (b =? 1)%Z)%bool.
    - cbn [result]. rewrite (reach_step _ _ _ He). destruct from_end; cbn [move]; [destruct (next_sibling_element w e)|destruct (prev_sibling_element w e)]; reflexivity.
    - rewrite result_bind. cbn [result]. rewrite (res_pcount _ _ _ H _ _ _ He). destruct from_end; reflexivity.
  Qed.
  Lemma res_pnexts P (f : nat -> bool) : (forall path e, reach w n path = Some e -> res (P path) = f e) ->
    forall fu path e, reach w n path = Some e -> res (pnexts P fu path) = existsb f (chain (next_sibling_element w) fu e).
  Proof.
    intros H. induction fu as [|fu IH]; intros path e He; [reflexivity|]. cbn [pnexts result chain]. rewrite (reach_step _ _ _ He). cbn [move].
    destruct (next_sibling_element w e) as [m|] eqn:Em; [|reflexivity]. assert (Hm : reach w n (Next :: path) = Some m) by (rewrite (reach_step _ _ _ He); exact Em).
    cbn [found existsb]. rewrite result_bind, (H _ _ Hm). destruct (f m); [reflexivity|]. apply (IH _ _ Hm).
  Qed.
  Lemma res_pchildren P (f : nat -> bool) : (forall path e, reach w n path = Some e -> res (P path) = f e) ->
    forall path e, reach w n path = Some e -> res (pchildren P fuel path) = existsb f (first_and_next w fuel e).
  Proof.
    intros H path e He. unfold pchildren, first_and_next. cbn [result]. rewrite (reach_step _ _ _ He). cbn [move].
    destruct (first_element_child w e) as [m|] eqn:Em; [|reflexivity]. assert (Hm : reach w n (FirstChild :: path) = Some m) by (rewrite (reach_step _ _ _ He); exact Em).
    cbn [found existsb]. rewrite result_bind, (H _ _ Hm). destruct (f m); [reflexivity|]. apply (res_pnexts _ _ H _ _ _ Hm).
  Qed.
  Lemma existsb_flat {A B} (g : A -> list B) (f : B -> bool) l : existsb f (flat_map g l) = existsb (fun x => existsb f (g x)) l.
  Proof. induction l as [|x l IH]; [reflexivity|]. cbn [flat_map existsb]. rewrite existsb_app, IH. reflexivity. Qed.
  Lemma res_psubtree P (f : nat -> bool) : (forall path e, reach w n path = Some e -> res (P path) = f e) ->
    forall deep path e, reach w n path = Some e -> res (psubtree P fuel deep path) = existsb f (subtree w fuel deep e).
  Proof.
    intros H. induction deep as [|deep IH]; intros path e He; [reflexivity|]. cbn [psubtree subtree]. rewrite existsb_flat.
    apply (res_pchildren _ (fun c => existsb f (c :: subtree w fuel deep c))); [|exact He].
    intros q m Hm. rewrite result_bind, (H _ _ Hm). cbn [existsb]. destruct (f m); [reflexivity|]. apply (IH _ _ Hm).
  Qed.
  Lemma res_pcandidates P (f : nat -> bool) s path e : (forall path e, reach w n path = Some e -> res (P path) = f e) -> reach w n path = Some e ->
    res (pcandidates P fuel s path) = existsb f (has_candidates w fuel s e).
  Proof.
    intros H He. unfold pcandidates, has_candidates. pose proof (res_psubtree P f H fuel) as Hs.
    destruct (leftmost s) as [[]|]; try reflexivity.
    - destruct (existsb vertical (others s)); [apply Hs; exact He|apply res_pchildren; assumption].
    - apply Hs. exact He.
    - destruct (existsb vertical (others s)); destruct (existsb (fun k => negb (vertical k)) (others s)); rewrite ?existsb_flat.
      + apply res_pnexts; assumption.
      + rewrite (res_pnexts _ _ Hs 1 _ _ He). cbn [chain]. destruct (next_sibling_element w e); reflexivity.
      + apply res_pnexts; assumption.
      + rewrite (res_pnexts _ _ H 1 _ _ He). cbn [chain]. destruct (next_sibling_element w e); reflexivity.
    - destruct (existsb vertical (others s)); rewrite ?existsb_flat; apply res_pnexts; assumption.
  Qed.
  Lemma res_read path e f : reach w n path = Some e -> res (read path f) = ask w e f.
  Proof. intros He. cbn [read result]. rewrite He. reflexivity. Qed.
  Lemma existsb_ext {A} (f g : A -> bool) l : (forall x, f x = g x) -> existsb f l = existsb g l.
  Proof. intros H. induction l as [|x l IH]; [reflexivity|]. cbn. rewrite H, IH. reflexivity. Qed.
  Lemma nth_matches_ext from_end edge a b f g e : (forall x, f x = g x) -> nth_matches w fuel from_end edge a b f e = nth_matches w fuel from_end edge a b g e.
  Proof. intros H. unfold nth_matches. rewrite (filter_ext _ _ H). reflexivity. Qed.
  Definition anchors (ap : option (list dir)) (ae : option nat) : Prop :=
    match ap, ae with Some q, Some a => reach w n q = Some a | None, None => True | _, _ => False end.
  Lemma refine : forall s ap ae, anchors ap ae -> forall path e, reach w n path = Some e -> res (prun fuel s ap path) = run w fuel s ae e.
  Proof.
    apply (complex_all (fun s => forall ap ae, anchors ap ae -> forall path e, reach w n path = Some e -> res (prun fuel s ap path) = run w fuel s ae e)
      (fun x => forall ap ae, anchors ap ae -> forall path e, reach w n path = Some e -> res (ptest fuel x ap path) = test w fuel x ae e)).
    - intros c F ap ae Ha path e He. cbn [prun run]. rewrite result_bind, (res_pall _ (fun x => test w fuel x ae e)); [reflexivity|].
      intros x Hx. rewrite Forall_forall in F. apply (F x Hx); assumption.
    - intros c k r F IH ap ae Ha path e He. cbn [prun run]. rewrite result_bind, (res_pall _ (fun x => test w fuel x ae e)).
      2:{ intros x Hx. rewrite Forall_forall in F. apply (F x Hx); assumption. }
      destruct (forallb (fun x => test w fuel x ae e) c); destruct (sideways k); try reflexivity; cbn [result]; (apply res_ptry; [|exact He]; intros q m Hm; apply IH; assumption).
    - intros from_end a b l F ap ae Ha path e He. cbn [ptest test]. rewrite Forall_forall in F.
      assert (H : forall q m, reach w n q = Some m -> res (pany (fun s => matched (prun fuel s ap q)) l) = existsb (fun s => is_matched (run w fuel s ae m)) l).
      { intros q m Hm. apply res_pany. intros s Hs. unfold matched. rewrite result_bind. cbn [result]. rewrite (F s Hs ap ae Ha _ _ Hm). reflexivity. }
      rewrite result_bind, (H _ _ He). destruct (existsb _ l); [|reflexivity]. cbn [andb]. apply res_pnth; assumption.
    - intros b l F ap ae Ha path e He. cbn [ptest test]. rewrite Forall_forall in F. apply res_pany. intros s Hs. unfold matched. rewrite result_bind. cbn [result]. rewrite (F s Hs ap ae Ha _ _ He). reflexivity.
    - intros l F ap ae Ha path e He. cbn [ptest test]. rewrite Forall_forall in F. rewrite result_bind. cbn [result]. f_equal. apply res_pany. intros s Hs. unfold matched. rewrite result_bind. cbn [result]. rewrite (F s Hs ap ae Ha _ _ He). reflexivity.
    - intros l F ap ae Ha path e He. cbn [ptest test]. rewrite Forall_forall in F. apply res_pany. intros s Hs. apply res_pcandidates; [|exact He].
      intros q m Hm. unfold matched. rewrite result_bind. cbn [result]. rewrite (F s Hs (Some path) (Some e) He _ _ Hm). reflexivity.
    - intros x; destruct x; try exact I; intros ap ae Ha path e He; cbn [ptest test]; try (apply res_read; exact He); try reflexivity.
      + cbn [result]. rewrite He. reflexivity.
      + destruct ap as [q|], ae as [a|]; cbn [anchors] in Ha; try contradiction; [|reflexivity]. cbn [result]. rewrite Ha, He. reflexivity.
      + cbn [result]. apply res_pnth; [|exact He]. intros q m Hm. destruct of_type; [|reflexivity]. cbn [of_same_type result negb orb]. rewrite He, Hm. unfold is_same_type, ask. cbn [data_at].
        destruct (w_data w e); [|reflexivity]. destruct (w_data w m); reflexivity.
  Qed.
  Lemma sheet_result rules : res (sheet_prog fuel rules) = map snd (filter (fun r => matches_selector w fuel (fst (fst r)) n && snd (fst r))%bool rules).
  Proof.
    induction rules as [|[[s m] i] rules IH]; [reflexivity|]. cbn [sheet_prog filter fst snd]. unfold matched. rewrite !result_bind. cbn [result]. rewrite (refine s None None I [] n eq_refl), IH.
    unfold matches_selector. destruct (is_matched (run w fuel s None n)); destruct m; reflexivity.
  Qed.
End Refine.

(** ** What a program looks at *)
Definition sib (d : dir) : Prop := d = Prev \/ d = Next.
Definition near (q : list dir) : Prop := exists ups sibs, q = ups ++ sibs /\ Forall (eq Up) ups /\ Forall sib sibs.
Definition beside (q : list dir) : Prop := exists sides base, q = sides ++ base /\ Forall sib sides /\ near base.
Fixpoint proper {R} (sw : Prop) (seen : list (list dir)) (p : eprog R) : Prop :=
  match p with
  | Done _ => True
  | Go d q k => In q seen /\ (d = Up /\ near q \/ sib d /\ sw /\ beside q) /\ proper sw ((d :: q) :: seen) (k true) /\ proper sw seen (k false)
  | Read q k => In q seen /\ near q /\ forall o, proper sw seen (k o)
  | Childless q k => In q seen /\ near q /\ forall b, proper sw seen (k b)
  | Mark q k => In q seen /\ proper sw seen k
  | Same _ _ _ => False
  end.
Lemma proper_mono {R} sw (p : eprog R) : forall seen seen', incl seen seen' -> proper sw seen p -> proper sw seen' p.
Proof.
  induction p as [r|d q k IH|q k IH|q k IH|q k IH|a b k IH]; intros seen seen' I; cbn [proper]; auto.
  - intros (H1 & H2 & H3 & H4). repeat split; auto; [|eapply IH; eauto]. eapply IH; [|exact H3]. intros x [<-|Hx]; [left; reflexivity|right; auto].
  - intros (H1 & H2 & H3). repeat split; auto. intros o. eapply IH; eauto.
  - intros (H1 & H2 & H3). repeat split; auto. intros o. eapply IH; eauto.
  - intros (H1 & H2). split; auto. eapply IH; eauto.
Qed.
Lemma proper_bind {A B} sw (p : eprog A) (f : A -> eprog B) : forall seen,
  proper sw seen p -> (forall a seen', incl seen seen' -> proper sw seen' (f a)) -> proper sw seen (bind p f).
Proof.
  induction p as [r|d q k IH|q k IH|q k IH|q k IH|a b k IH]; intros seen H K; cbn [proper bind] in *.
  - apply K. apply incl_refl.
  - destruct H as (H1 & H2 & H3 & H4). repeat split; auto. apply IH; [exact H3|]. intros a seen' I. apply K. intros x Hx. apply I. right. exact Hx.
  - destruct H as (H1 & H2 & H3). repeat split; auto.
  - destruct H as (H1 & H2 & H3). repeat split; auto.
  - destruct H as (H1 & H2). split; auto.
  - destruct H.
Qed.
Lemma proper_pany {A} sw (P : A -> eprog bool) l : forall seen, (forall x seen', In x l -> incl seen seen' -> proper sw seen' (P x)) -> proper sw seen (pany P l).
Proof.
  induction l as [|x l IH]; intros seen H; [exact I|]. cbn [pany]. apply proper_bind; [apply H; [left; reflexivity|apply incl_refl]|].
  intros a seen' I'. destruct a; [exact I|]. apply IH. intros y s Hy Hs. apply H; [right; exact Hy|]. eapply incl_tran; eauto.
Qed.
Lemma proper_pall {A} sw (P : A -> eprog bool) l : forall seen, (forall x seen', In x l -> incl seen seen' -> proper sw seen' (P x)) -> proper sw seen (pall P l).
Proof.
  induction l as [|x l IH]; intros seen H; [exact I|]. cbn [pall]. apply proper_bind; [apply H; [left; reflexivity|apply incl_refl]|].
  intros a seen' I'. destruct a; [|exact I]. apply IH. intros y s Hy Hs. apply H; [right; exact Hy|]. eapply incl_tran; eauto.
Qed.

(** positions: on the node or a sibling ([up = false]), or on an ancestor *)
Definition at_level (up : bool) (q : list dir) : Prop := if up then near q else Forall sib q.
Lemma level_near up q : at_level up q -> near q.
Proof. destruct up; [auto|]. intros H. exists [], q. auto. Qed.
Lemma near_up q : near q -> near (Up :: q).
Proof. intros (u & s & -> & Hu & Hs). exists (Up :: u), s. auto. Qed.
Lemma near_beside q : near q -> beside q.
Proof. intros H. exists [], q. auto. Qed.
Lemma beside_sib d q : sib d -> beside q -> beside (d :: q).
Proof. intros Hd (s & b & -> & Hs & Hb). exists (d :: s), b. auto. Qed.

Lemma proper_ptry sw k run fuel : forall seen path up' (G : list dir -> Prop),
  (forall q, G q -> (dir_for k = Up /\ near q \/ sib (dir_for k) /\ sw /\ beside q) /\ G (dir_for k :: q) /\ at_level up' (dir_for k :: q)) ->
  (forall q seen', at_level up' q -> incl seen seen' -> In q seen' -> proper sw seen' (run q)) ->
  G path -> In path seen -> proper sw seen (ptry k run fuel path).
Proof.
  induction fuel as [|fuel IH]; intros seen path up' G HG Hrun Hp Hin; [exact I|]. cbn [ptry proper]. destruct (HG _ Hp) as (H1 & H2 & H3).
  split; [exact Hin|]. split; [exact H1|]. split; [|exact I].
  apply proper_bind.
  - apply Hrun; [exact H3|intros x Hx; right; exact Hx|left; reflexivity].
  - intros r seen' Hi. assert (K : proper sw seen' (ptry k run fuel (dir_for k :: path))).
    { apply (IH seen' _ up' G); auto. - intros q s Hq Hs Hqs. apply Hrun; auto. intros x Hx. apply Hs, Hi. right. exact Hx. - apply Hi. left. reflexivity. }
    destruct r; destruct k; exact I || exact K.
Qed.
Lemma proper_pcount (sw : Prop) d counts fuel : forall seen path (G : list dir -> Prop),
  sib d -> sw -> (forall q, G q -> beside q /\ G (d :: q)) ->
  (forall q seen', G (d :: q) -> incl seen seen' -> In (d :: q) seen' -> proper sw seen' (counts (d :: q))) ->
  G path -> In path seen -> proper sw seen (pcount d counts fuel path).
Proof.
  induction fuel as [|fuel IH]; intros seen path G Hd Hsw HG Hc Hp Hin; [exact I|]. cbn [pcount proper]. destruct (HG _ Hp) as (H1 & H2).
  split; [exact Hin|]. split; [right; auto|]. split; [|exact I]. apply proper_bind; [apply Hc; [exact H2|intros x Hx; right; exact Hx|left; reflexivity]|].
  intros c seen' Hi. apply proper_bind; [|intros; exact I]. apply (IH seen' _ G); auto; [|apply Hi; left; reflexivity].
  intros q s Hq Hs Hin'. apply Hc; auto. intros x Hx. apply Hs, Hi. right. exact Hx.
Qed.
Lemma proper_pnth (sw : Prop) from_end edge a b counts fuel seen path (G : list dir -> Prop) :
  sw -> (forall d q, sib d -> G q -> beside q /\ G (d :: q)) ->
  (forall q seen', G q -> incl seen seen' -> In q seen' -> proper sw seen' (counts q)) ->
  G path -> In path seen -> proper sw seen (pnth fuel from_end edge a b counts path).
Proof.
  intros Hsw HG Hc Hp Hin. assert (Hd : sib (if from_end then Next else Prev)) by (destruct from_end; [right|left]; reflexivity).
  unfold pnth. destruct (edge && (a =? 0)%Z && (b =? 1)%Z)%bool.
  - cbn [proper]. split; [exact Hin|]. split; [right; split; [exact Hd|]; split; [exact Hsw|]; apply (HG _ _ Hd Hp)|]. split; exact I.
  - apply proper_bind; [|intros; exact I]. apply (proper_pcount sw _ counts fuel seen path G); auto.
Qed.
Lemma any_of_in {A} (P : A -> Prop) l x : In x l -> P x -> any_of P l.
Proof. induction l as [|y l IH]; cbn; [tauto|]. intros [<-|H] Hp; auto. Qed.

Lemma proper_prun (sw : Prop) fuel : forall s up, followed up s -> (looks_sideways s -> sw) -> forall path seen, at_level up path -> In path seen -> proper sw seen (prun fuel s None path).
Proof.
  apply (complex_all (fun s => forall up, followed up s -> (looks_sideways s -> sw) -> forall path seen, at_level up path -> In path seen -> proper sw seen (prun fuel s None path))
    (fun x => forall up, followed_simple up x -> (sideways_simple x -> sw) -> forall path seen, at_level up path -> In path seen -> proper sw seen (ptest fuel x None path))).
  - intros c F up Hf Hs path seen Hl Hin. cbn [prun]. apply proper_bind; [|intros; exact I]. apply proper_pall. rewrite Forall_forall in F. intros x seen' Hx Hi. apply (F x Hx up); auto; [eapply all_of_in in Hx; eauto|].
    intros Hx'. apply Hs. cbn. eapply any_of_in; eauto.
  - intros c k r F IH up [Hf Hk] Hs path seen Hl Hin. cbn [prun]. apply proper_bind.
    + apply proper_pall. rewrite Forall_forall in F. intros x seen' Hx Hi. apply (F x Hx up); auto; [eapply all_of_in in Hx; eauto|]. intros Hx'. apply Hs. cbn. left. eapply any_of_in; eauto.
    + intros b seen' Hi. assert (proper sw seen' (ptry k (prun fuel r None) fuel path)) as K.
      { assert (Hr : looks_sideways r -> sw) by (intros; apply Hs; cbn; tauto).
        destruct k.
        - apply (proper_ptry sw _ _ _ seen' path true near); [intros q Hq; cbn [dir_for]|..|eapply level_near; eauto|auto]; [split; [auto|]; split; apply near_up; exact Hq|]. intros q s Hq Hs' Hin'. apply (IH true); auto.
        - apply (proper_ptry sw _ _ _ seen' path true near); [intros q Hq; cbn [dir_for]|..|eapply level_near; eauto|auto]; [split; [auto|]; split; apply near_up; exact Hq|]. intros q s Hq Hs' Hin'. apply (IH true); auto.
        - destruct Hk as [-> Hk]. apply (proper_ptry sw _ _ _ seen' path false (Forall sib)); [intros q Hq; cbn [dir_for]|..|exact Hl|auto].
          + split; [right; split; [left; reflexivity|]; split; [apply Hs; cbn; auto|apply near_beside; apply (level_near false); exact Hq]|]. split; constructor; auto; left; reflexivity.
          + intros q s Hq Hs' Hin'. apply (IH false); auto.
        - destruct Hk as [-> Hk]. apply (proper_ptry sw _ _ _ seen' path false (Forall sib)); [intros q Hq; cbn [dir_for]|..|exact Hl|auto].
          + split; [right; split; [left; reflexivity|]; split; [apply Hs; cbn; auto|apply near_beside; apply (level_near false); exact Hq]|]. split; constructor; auto; left; reflexivity.
          + intros q s Hq Hs' Hin'. apply (IH false); auto.
        - apply (proper_ptry sw _ _ _ seen' path true near); [intros q Hq; cbn [dir_for]|..|eapply level_near; eauto|auto]; [split; [auto|]; split; apply near_up; exact Hq|]. intros q s Hq Hs' Hin'. apply (IH true); auto. }
      destruct (sideways k), b; cbn [proper]; auto.
  - intros from_end a b l F up [-> Hf] Hs path seen Hl Hin. cbn [ptest]. assert (Hsw : sw) by (apply Hs; exact I). rewrite Forall_forall in F.
    assert (K : forall q seen', Forall sib q -> In q seen' -> proper sw seen' (pany (fun s => matched (prun fuel s None q)) l)).
    { intros q seen' Hq Hi. apply proper_pany. intros s seen2 Hx Hi2. apply proper_bind; [|intros; exact I]. apply (F s Hx false); auto. eapply all_of_in in Hx; eauto. }
    apply proper_bind; [apply K; auto|]. intros m seen' Hi. destruct m; [|exact I].
    apply (proper_pnth sw _ _ _ _ _ _ seen' path (Forall sib)); auto. intros d q Hd Hq. split; [apply near_beside, (level_near false); exact Hq|constructor; auto].
  - intros b l F up Hf Hs path seen Hl Hin. cbn [ptest]. rewrite Forall_forall in F. apply proper_pany. intros s seen' Hx Hi. apply proper_bind; [|intros; exact I]. apply (F s Hx up); auto.
    + eapply all_of_in in Hx; eauto. + intros Hx'. apply Hs. cbn. eapply any_of_in; eauto.
  - intros l F up Hf Hs path seen Hl Hin. cbn [ptest]. apply proper_bind; [|intros; exact I]. rewrite Forall_forall in F. apply proper_pany. intros s seen' Hx Hi. apply proper_bind; [|intros; exact I]. apply (F s Hx up); auto.
    + eapply all_of_in in Hx; eauto. + intros Hx'. apply Hs. cbn. eapply any_of_in; eauto.
  - intros l F up [].
  - intros x; destruct x; try exact I; intros up Hf Hs path seen Hl Hin; pose proof (level_near _ _ Hl) as Hn; cbn [ptest read proper]; try (split; [exact Hin|]; split; [exact Hn|]; intros; exact I); try exact I.
    split; [exact Hin|]. assert (Hsw : sw) by (apply Hs; exact I). destruct of_type.
    + cbn in Hf. specialize (Hf eq_refl). subst up. apply (proper_pnth sw _ _ _ _ _ _ seen path (Forall sib)); auto.
      * intros d q Hd Hq. split; [apply near_beside, (level_near false); exact Hq|constructor; auto].
      * intros q seen' Hq Hi Hin'. cbn [of_same_type proper]. split; [apply Hi, Hin|]. split; [exact Hn|]. intros o. split; [exact Hin'|]. split; [apply (level_near false); exact Hq|]. intros; exact I.
    + apply (proper_pnth sw _ _ _ _ _ _ seen path beside); auto.
      * intros d q Hd Hq. split; [exact Hq|apply beside_sib; assumption].
      * intros; exact I.
      * apply near_beside. exact Hn.
Qed.
Lemma proper_sheet (sw : Prop) fuel rules : (forall s m i, In (s, m, i) rules -> followed false s /\ (looks_sideways s -> sw)) -> forall seen, In [] seen -> proper sw seen (sheet_prog fuel rules).
Proof.
  induction rules as [|[[s m] i] rules IH]; intros H seen Hin; [exact I|]. cbn [sheet_prog]. destruct (H s m i (or_introl eq_refl)) as [Hf Hs]. apply proper_bind.
  - apply proper_bind; [|intros; exact I]. apply (proper_prun sw fuel s false); auto. constructor.
  - intros b seen' Hi. apply proper_bind; [|intros; exact I]. apply IH; [|apply Hi, Hin]. intros s' m' i' Hx. eapply H. right. exact Hx.
Qed.

(** ** Programs that flag every node they run on *)
Fixpoint always_marks {R} (p : eprog R) : Prop :=
  match p with
  | Done _ => False
  | Go _ _ k | Childless _ k | Same _ _ k => forall b, always_marks (k b)
  | Read _ k => forall o, always_marks (k o)
  | Mark q k => q = [] \/ always_marks k
  end.
Lemma always_bind_l {A B} (p : eprog A) (f : A -> eprog B) : always_marks p -> always_marks (bind p f).
Proof. induction p as [r|d q k IH|q k IH|q k IH|q k IH|a b k IH]; cbn; try tauto; intros H; intros b'; apply IH, H. Qed.
Lemma always_bind_r {A B} (p : eprog A) (f : A -> eprog B) : (forall a, always_marks (f a)) -> always_marks (bind p f).
Proof. intros H. induction p as [r|d q k IH|q k IH|q k IH|q k IH|a b k IH]; cbn; auto. Qed.
Lemma asks_marks fuel s : asks_first s -> always_marks (prun fuel s None []).
Proof.
  intros [(c & r & [-> | ->])|(e & ty & a & b & c & [-> | (k & r & ->)])]; cbn [prun sideways pall ptest bind always_marks].
  - apply always_bind_r. intros x. left. reflexivity.
  - apply always_bind_r. intros x. left. reflexivity.
  - left. reflexivity.
  - left. reflexivity.
Qed.
Lemma sheet_marks fuel rules s m i : In (s, m, i) rules -> asks_first s -> always_marks (sheet_prog fuel rules).
Proof.
  induction rules as [|[[s' m'] i'] rules IH]; intros Hin Ha; [destruct Hin|]. cbn [sheet_prog]. destruct Hin as [E|Hin].
  - injection E as -> -> ->. apply always_bind_l, always_bind_l, asks_marks, Ha.
  - apply always_bind_r. intros b. apply always_bind_l, IH; assumption.
Qed.

(** ** Flags *)
Definition le_e (a b : eflags) : Prop := or_eflags b a = b.
Lemma le_e_spec a b : le_e a b <-> le_flags (e_rec a) (e_rec b) /\ (e_pos a = true -> e_pos b = true) /\ (e_emp a = true -> e_emp b = true).
Proof.
  destruct a as [r p e], b as [r' p' e']. unfold le_e, le_flags, or_eflags. cbn. split.
  - intros H. injection H as H1 H2 H3. split; [exact H1|]. destruct p, p', e, e'; cbn in *; auto.
  - intros (H1 & H2 & H3). rewrite H1. f_equal; [destruct p, p'|destruct e, e']; cbn; auto; symmetry; auto.
Qed.
Lemma le_e_refl a : le_e a a.
Proof. apply le_e_spec. split; [apply le_flags_refl|auto]. Qed.
Lemma le_e_trans a b c : le_e a b -> le_e b c -> le_e a c.
Proof. rewrite !le_e_spec. intros (H1 & H2 & H3) (H4 & H5 & H6). split; [eapply le_flags_trans; eauto|auto]. Qed.
Definition le_es (f g : nat -> eflags) : Prop := forall n, le_e (f n) (g n).
Lemma le_es_trans f g h : le_es f g -> le_es g h -> le_es f h.
Proof. intros H H' n. eapply le_e_trans; eauto. Qed.
Lemma or_e_l a b : le_e a (or_eflags a b).
Proof. apply le_e_spec. cbn. split; [apply le_or_l|]. split; intros ->; reflexivity. Qed.
Lemma or_e_r a b : le_e b (or_eflags a b).
Proof. apply le_e_spec. cbn. split; [apply le_or_r|]. split; intros ->; apply orb_true_r. Qed.
Lemma put_le fl o f : le_es fl (put_at fl o f).
Proof. destruct o as [n|]; intros a; [|apply le_e_refl]. cbn [put_at]. unfold put. destruct (Nat.eqb a n); [apply or_e_l|apply le_e_refl]. Qed.
Lemma put_has fl n f : le_e f (put_at fl (Some n) f n).
Proof. cbn [put_at]. unfold put. rewrite Nat.eqb_refl. apply or_e_r. Qed.
Lemma exec_mono {R} w n (p : eprog R) : forall fl, le_es fl (snd (exec w n p fl)).
Proof.
  induction p as [r|d q k IH|q k IH|q k IH|q k IH|a b k IH]; intros fl; cbn [exec]; try apply IH; [intros a; apply le_e_refl|..]; (eapply le_es_trans; [apply put_le|apply IH]).
Qed.
(** the flags a run leaves behind *)
Definition has_flag (fl : nat -> eflags) (o : option nat) (f : eflags) : Prop := forall m, o = Some m -> le_e f (fl m).
Fixpoint erecorded {R} (w : world) (n : nat) (p : eprog R) (fl : nat -> eflags) : Prop :=
  match p with
  | Done _ => True
  | Go d q k => has_flag fl (reach w n (d :: q)) (mk_eflags (flag_of d) false false) /\ erecorded w n (k (found (reach w n (d :: q)))) fl
  | Read q k => erecorded w n (k (data_at w (reach w n q))) fl
  | Childless q k => has_flag fl (reach w n q) (mk_eflags no_flags false true) /\ erecorded w n (k (childless w (reach w n q))) fl
  | Mark q k => has_flag fl (reach w n q) (mk_eflags no_flags true false) /\ erecorded w n k fl
  | Same a b k => erecorded w n (k (same (reach w n a) (reach w n b))) fl
  end.
Lemma has_flag_mono fl fl' o f : le_es fl fl' -> has_flag fl o f -> has_flag fl' o f.
Proof. intros H K m Hm. eapply le_e_trans; [apply K, Hm|apply H]. Qed.
Lemma erecorded_mono {R} w n (p : eprog R) : forall fl fl', le_es fl fl' -> erecorded w n p fl -> erecorded w n p fl'.
Proof.
  induction p as [r|d q k IH|q k IH|q k IH|q k IH|a b k IH]; intros fl fl' L; cbn [erecorded]; auto; try (intros H; eapply IH; eauto; fail).
  all: intros [H1 H2]; split; [eapply has_flag_mono; eauto|eapply IH; eauto].
Qed.
Lemma put_has_flag fl o f : has_flag (put_at fl o f) o f.
Proof. intros m ->. apply put_has. Qed.
Lemma exec_recorded {R} w n (p : eprog R) : forall fl, erecorded w n p (snd (exec w n p fl)).
Proof.
  induction p as [r|d q k IH|q k IH|q k IH|q k IH|a b k IH]; intros fl; cbn [exec erecorded]; auto.
  all: split; [|apply IH]; eapply has_flag_mono; [apply exec_mono|apply put_has_flag].
Qed.
Lemma recorded_marks {R} w n (p : eprog R) fl : always_marks p -> erecorded w n p fl -> e_pos (fl n) = true.
Proof.
  induction p as [r|d q k IH|q k IH|q k IH|q k IH|a b k IH]; cbn [always_marks erecorded]; intros H Hr; try (destruct H; fail).
  - eapply IH; [apply H|apply Hr].
  - eapply IH; [apply H|apply Hr].
  - eapply IH; [apply H|apply Hr].
  - destruct Hr as [H1 H2]. destruct H as [-> |H]; [|auto]. specialize (H1 n eq_refl). apply le_e_spec in H1. apply H1. reflexivity.
  - eapply IH; [apply H|apply Hr].
Qed.
Lemma recorded_same {R} w n (p : eprog R) fl fl' : (forall q m, reach w n q = Some m -> fl' m = fl m) -> erecorded w n p fl -> erecorded w n p fl'.
Proof.
  intros E. induction p as [r|d q k IH|q k IH|q k IH|q k IH|a b k IH]; cbn [erecorded]; auto.
  all: intros [H1 H2]; (split; [|auto]); intros m Hm; rewrite (E _ _ Hm); apply H1, Hm.
Qed.

(** ** Moving around *)
Section Moves.
  Context (nodes : list nat) (w : world) (C : consistent nodes w).
  Lemma related_id o : (forall m, o = Some m -> w_data w m <> None) -> related_new w o = o.
  Proof. destruct o as [m|]; [|reflexivity]. intros H. cbn. specialize (H m eq_refl). destruct (w_data w m); [reflexivity|contradiction]. Qed.
  Lemma up_is n : parent_element w n = parent (w_tree w) n.
  Proof. apply related_id. intros m Hm. apply (c_nodes _ _ C n m Hm). Qed.
  Lemma in_children_parent p n : In n (children (w_tree w) p) -> parent (w_tree w) n = Some p.
  Proof. apply (wf_agree _ (c_forest _ _ C)). Qed.
  (** the neighbour in the list of children *)
  Lemma beside_is d n p : sib d -> parent (w_tree w) n = Some p ->
    exists l1 l2, children (w_tree w) p = l1 ++ n :: l2 /\ move w d n = match d with Next => hd_error l2 | _ => last (map Some l1) None end.
  Proof.
    intros Hd Hp. destruct (c_links _ _ C n p Hp) as (s & Hs & l1 & l2 & E & E1 & E2). exists l1, l2. split; [exact E|].
    assert (D : forall m, In m (children (w_tree w) p) -> w_data w m <> None) by (intros m Hm; apply (c_nodes _ _ C m p), in_children_parent, Hm).
    destruct Hd as [-> | ->]; cbn [move].
    - unfold prev_sibling_element. rewrite Hs, E1. apply related_id. intros m Hm. apply D. rewrite E. destruct l1 as [|x l1 _] using rev_ind; [discriminate|].
      rewrite map_app in Hm. cbn [map] in Hm. rewrite last_last in Hm. injection Hm as ->. apply in_or_app. left. apply in_or_app. right. left. reflexivity.
    - unfold next_sibling_element. rewrite Hs, E2. apply related_id. intros m Hm. apply D. rewrite E. destruct l2; [discriminate|]. injection Hm as ->. apply in_or_app. right. right. left. reflexivity.
  Qed.
  Lemma beside_alone d n : sib d -> parent (w_tree w) n = None -> move w d n = None.
  Proof.
    intros Hd Hp. destruct Hd as [-> | ->]; cbn [move]; unfold prev_sibling_element, next_sibling_element; destruct (w_links w n) as [s|] eqn:Es; try reflexivity; rewrite (c_alone _ _ C n s Hp Es); reflexivity.
  Qed.
  Lemma beside_parent d n m : sib d -> move w d n = Some m -> exists p, parent (w_tree w) n = Some p /\ parent (w_tree w) m = Some p.
  Proof.
    intros Hd Hm. destruct (parent (w_tree w) n) as [p|] eqn:Hp; [|rewrite (beside_alone d n Hd Hp) in Hm; discriminate]. exists p. split; [reflexivity|].
    destruct (beside_is d n p Hd Hp) as (l1 & l2 & E & K). rewrite K in Hm. apply in_children_parent. rewrite E. destruct Hd as [-> | ->].
    - destruct l1 as [|x l1 _] using rev_ind; [discriminate|]. rewrite map_app in Hm. cbn [map] in Hm. rewrite last_last in Hm. injection Hm as ->. apply in_or_app. left. apply in_or_app. right. left. reflexivity.
    - destruct l2; [discriminate|]. injection Hm as ->. apply in_or_app. right. right. left. reflexivity.
  Qed.
  Lemma reach_split n sides base m : reach w n (sides ++ base) = Some m -> Forall sib sides -> exists m0, reach w n base = Some m0 /\ (m = m0 \/ exists p, parent (w_tree w) m0 = Some p /\ parent (w_tree w) m = Some p) /\ (sides = [] -> m = m0).
  Proof.
    intros H F. revert m H. induction F as [|d sides Hd F IH]; intros m H; [exists m; auto|]. cbn [app reach] in H. destruct (reach w n (sides ++ base)) as [x|] eqn:Ex; [|discriminate].
    destruct (IH x eq_refl) as (m0 & H0 & H1 & _). exists m0. split; [exact H0|]. split; [|discriminate]. right. destruct (beside_parent d x m Hd H) as (p & Hx & Hm). exists p. split; [|exact Hm].
    destruct H1 as [-> |(p' & Hp & Hp')]; [exact Hx|congruence].
  Qed.
  Lemma reach_sibs n q m : Forall sib q -> reach w n q = Some m -> m = n \/ exists p, parent (w_tree w) n = Some p /\ parent (w_tree w) m = Some p.
  Proof. intros F H. rewrite <- (app_nil_r q) in H. destruct (reach_split n q [] m H F) as (m0 & H0 & H1 & _). injection H0 as <-. destruct H1 as [H1|H1]; auto. Qed.
  Lemma reach_ups n ups sibs m : Forall (eq Up) ups -> Forall sib sibs -> ups <> [] -> reach w n (ups ++ sibs) = Some m -> descendant (w_tree w) m n.
  Proof.
    intros Hu Hs. revert m. induction Hu as [|d ups <- Hu IH]; intros m NE H; [contradiction|]. cbn [app reach] in H. destruct (reach w n (ups ++ sibs)) as [x|] eqn:Ex; [|discriminate]. cbn [move] in H. rewrite up_is in H.
    destruct ups as [|u ups].
    - cbn [app] in Ex. destruct (reach_sibs n sibs x Hs Ex) as [-> |(p & Hp & Hp')]; apply desc_child; congruence.
    - eapply descendant_trans; [apply desc_child; exact H|]. apply IH; congruence.
  Qed.
  Lemma move_connected d n m : move w d n = Some m -> connected (w_tree w) n m.
  Proof.
    intros H. assert (S : sib d -> connected (w_tree w) n m).
    { intros Hd. destruct (beside_parent d n m Hd H) as (p & Hp & Hp'). eapply conn_down; [|exact Hp']. eapply conn_up; [apply conn_refl|exact Hp]. }
    destruct d; [|apply S; left; reflexivity|apply S; right; reflexivity|].
    - cbn [move] in H. rewrite up_is in H. eapply conn_up; [apply conn_refl|exact H].
    - eapply conn_down; [apply conn_refl|]. apply in_children_parent. cbn [move] in H. unfold first_element_child, related_new in H. destruct (children (w_tree w) n) as [|c l]; [discriminate|]. cbn [hd_error] in H. destruct (w_data w c); [|discriminate]. injection H as ->. left. reflexivity.
  Qed.
  Lemma reach_connected n q m : reach w n q = Some m -> connected (w_tree w) n m.
  Proof.
    revert m. induction q as [|d q IH]; intros m H; [injection H as ->; apply conn_refl|]. cbn [reach] in H. destruct (reach w n q) as [x|]; [|discriminate]. eapply connected_trans; [apply IH; reflexivity|]. eapply move_connected; eauto.
  Qed.
  Lemma reach_data n q m : w_data w n <> None -> reach w n q = Some m -> w_data w m <> None.
  Proof.
    intros Hn H. destruct q as [|d q]; [injection H as ->; exact Hn|]. cbn [reach] in H. destruct (reach w n q) as [x|]; [|discriminate].
    assert (K : forall o, related_new w o = Some m -> w_data w m <> None). { intros [y|]; [|discriminate]. cbn. destruct (w_data w y) eqn:E; [|discriminate]. intros Hy. injection Hy as ->. congruence. }
    destruct d; cbn [move] in H; [eapply K; exact H| | |eapply K; exact H]; unfold prev_sibling_element, next_sibling_element in H; (destruct (w_links w x); [|discriminate]); eapply K; exact H.
  Qed.
  (** below the parent of an element near it *)
  Lemma near_below n q m p : near q -> reach w n q = Some m -> parent (w_tree w) m = Some p -> descendant (w_tree w) p n.
  Proof.
    intros (ups & sibs & -> & Hu & Hs) H Hp. destruct ups as [|u ups].
    - cbn [app] in H. destruct (reach_sibs n sibs m Hs H) as [-> |(p' & H1 & H2)]; apply desc_child; congruence.
    - eapply descendant_trans; [apply desc_child; exact Hp|]. eapply reach_ups; eauto. discriminate.
  Qed.
End Moves.
Lemma same_neighbour nodes nodes' w w' d n p : consistent nodes w -> consistent nodes' w' -> sib d ->
  parent (w_tree w) n = Some p -> parent (w_tree w') n = Some p -> children (w_tree w') p = children (w_tree w) p -> move w' d n = move w d n.
Proof.
  intros C C' Hd Hp Hp' E. destruct (beside_is _ _ C d n p Hd Hp) as (l1 & l2 & E1 & K1). destruct (beside_is _ _ C' d n p Hd Hp') as (m1 & m2 & E2 & K2).
  rewrite E, E1 in E2. assert (N : NoDup (l1 ++ n :: l2)) by (rewrite <- E1; apply wf_nodup, (c_forest _ _ C)). destruct (split_unique _ _ _ _ _ N E2) as [-> ->]. rewrite K1, K2. reflexivity.
Qed.

(** ** Nothing a program looked at has changed *)
Section Stable.
  Context (nodes nodes' : list nat) (w w' : world) (C : consistent nodes w) (C' : consistent nodes' w') (n : nat) (fl : nat -> eflags) (sw : Prop).
  Definition still (q : list dir) (m : nat) : Prop :=
    reach w n q = Some m /\ reach w' n q = Some m /\ forall d, hd_error q = Some d -> le_flags (flag_of d) (e_rec (fl m)).
  Hypothesis F1 : forall q m, near q -> still q m -> w_data w' m = w_data w m /\ parent (w_tree w') m = parent (w_tree w) m /\ (e_emp (fl m) = true -> children (w_tree w') m = children (w_tree w) m).
  Hypothesis F2 : sw -> forall q m p, near q -> still q m -> parent (w_tree w) m = Some p -> children (w_tree w') p = children (w_tree w) p.
  Definition closed (seen : list (list dir)) : Prop := forall d q, In (d :: q) seen -> In q seen.
  Lemma closed_app seen s q : closed seen -> In (s ++ q) seen -> In q seen.
  Proof. intros H. induction s as [|d s IH]; [auto|]. intros Hi. apply IH. eapply H, Hi. Qed.
  Lemma same_move seen d q m : closed seen -> (forall q, In q seen -> exists m, still q m) -> In q seen -> still q m ->
    (d = Up /\ near q \/ sib d /\ sw /\ beside q) -> move w' d m = move w d m.
  Proof.
    intros Hc Hs Hin Hst [[-> Hn]|(Hd & Hsw & sides & base & -> & Hsd & Hb)].
    - cbn [move]. rewrite (up_is _ _ C), (up_is _ _ C'). apply (F1 _ _ Hn Hst).
    - destruct (Hs base (closed_app _ _ _ Hc Hin)) as (m0 & H0). destruct (F1 _ _ Hb H0) as (_ & Ep & _).
      destruct Hst as (R1 & R2 & _). destruct (reach_split _ _ C n sides base m R1 Hsd) as (x & Hx & K & _). destruct (reach_split _ _ C' n sides base m R2 Hsd) as (y & Hy & K' & _).
      destruct H0 as (Hx0 & Hy0 & Hf0). assert (x = m0) as -> by congruence. assert (y = m0) as -> by congruence.
      destruct (parent (w_tree w) m0) as [p|] eqn:Ep0.
      + assert (parent (w_tree w) m = Some p) as P1 by (destruct K as [-> |(p' & A & B)]; [exact Ep0|congruence]).
        assert (parent (w_tree w') m = Some p) as P2 by (destruct K' as [-> |(p' & A & B)]; [exact Ep|congruence]).
        eapply same_neighbour; eauto. eapply (F2 Hsw base m0); eauto. repeat split; assumption.
      + destruct K as [-> |(p' & A & B)]; [|congruence]. rewrite (beside_alone _ _ C d m0 Hd Ep0), (beside_alone _ _ C' d m0 Hd Ep). reflexivity.
  Qed.
  Lemma stable {R} (p : eprog R) : forall seen, proper sw seen p -> closed seen -> (forall q, In q seen -> exists m, still q m) -> erecorded w n p fl ->
    result w' n p = result w n p /\ erecorded w' n p fl.
  Proof.
    induction p as [r|d q k IH|q k IH|q k IH|q k IH|a b k IH]; intros seen Hp Hc Hs Hr; cbn [proper erecorded result] in *.
    - auto.
    - destruct Hp as (Hin & Hk & Ht & Hf). destruct Hr as [Hr1 Hr2]. destruct (Hs _ Hin) as (m & Hm). pose proof (same_move seen d q m Hc Hs Hin Hm Hk) as E.
      assert (E2 : reach w' n (d :: q) = reach w n (d :: q)). { destruct Hm as (A & B & _). cbn [reach]. rewrite A, B. exact E. }
      rewrite E2. destruct (reach w n (d :: q)) as [m'|] eqn:Em; cbn [found] in *.
      + assert (K : forall x, In x ((d :: q) :: seen) -> exists m, still x m).
        { intros x [<-|Hx]; [|auto]. exists m'. split; [exact Em|]. split; [rewrite E2; reflexivity|]. intros d' Hd'. injection Hd' as <-. specialize (Hr1 m' eq_refl). apply le_e_spec in Hr1. apply Hr1. }
        destruct (IH true ((d :: q) :: seen) Ht) as [A B]; auto. intros d' q' [Eq|Hi]; [injection Eq as -> ->; right; exact Hin|right; eapply Hc; exact Hi].
      + destruct (IH false seen Hf Hc Hs Hr2) as [A B]. auto.
    - destruct Hp as (Hin & Hn & Hk). destruct (Hs _ Hin) as (m & Hm). destruct (F1 _ _ Hn Hm) as (E & _ & _). destruct Hm as (A & B & _). rewrite A in *. rewrite B. cbn [data_at] in *. rewrite E. apply (IH _ seen); auto.
    - destruct Hp as (Hin & Hn & Hk). destruct Hr as [Hr1 Hr2]. destruct (Hs _ Hin) as (m & Hm). destruct (F1 _ _ Hn Hm) as (_ & _ & E). destruct Hm as (A & B & _). rewrite A in *. rewrite B. cbn [childless] in *.
      assert (is_empty w' m = is_empty w m) as Ee. { unfold is_empty. rewrite E; [reflexivity|]. specialize (Hr1 m eq_refl). apply le_e_spec in Hr1. apply Hr1. reflexivity. }
      rewrite Ee. destruct (IH _ seen (Hk _) Hc Hs Hr2) as [X Y]. auto.
    - destruct Hp as (Hin & Hk). destruct Hr as [Hr1 Hr2]. destruct (Hs _ Hin) as (m & (A & B & _)). rewrite A in *. rewrite B. destruct (IH seen Hk Hc Hs Hr2) as [X Y]. auto.
    - destruct Hp.
  Qed.
End Stable.

(** ** Marking *)
Lemma mem_In n l : mem n l = true <-> In n l.
Proof. apply existsb_In. Qed.
Lemma related_in f fuel fl nodes : forall l p, related_marks f fuel fl nodes = Some l -> In p nodes -> g_children f p = true ->
  (e_emp (fl p) = true -> In p l) /\ (e_pos (fl p) = true -> exists d, iter_ui_descendants_with_parent (w_tree (g_world f)) fuel p = Some d /\ incl (map snd d) l).
Proof.
  induction nodes as [|x nodes IH]; intros l p Hl Hp Hc; [destruct Hp|]. cbn [related_marks] in Hl. destruct (related_marks f fuel fl nodes) as [rest|] eqn:Er; [|discriminate].
  destruct Hp as [-> |Hp].
  - rewrite Hc in Hl. destruct (e_pos (fl p)).
    + destruct (iter_ui_descendants_with_parent (w_tree (g_world f)) fuel p) as [d|]; [|discriminate]. cbn [option_map] in Hl. injection Hl as <-. split.
      * intros ->. left. reflexivity.
      * intros _. exists d. split; [reflexivity|]. intros y Hy. apply in_or_app. right. apply in_or_app. left. exact Hy.
    + injection Hl as <-. split; [intros ->; left; reflexivity|discriminate].
  - destruct (IH rest p eq_refl Hp Hc) as [A B]. destruct (g_children f x).
    + destruct (if e_pos (fl x) then _ else _) as [d|]; [|discriminate]. injection Hl as <-. split.
      * intros H. apply in_or_app. right. apply in_or_app. right. auto.
      * intros H. destruct (B H) as (d' & E & I'). exists d'. split; [exact E|]. intros y Hy. apply in_or_app. right. apply in_or_app. right. auto.
    + injection Hl as <-. auto.
Qed.
(** a node that changed or was noticed itself marks the nodes that looked at it *)
Lemma near_marked nodes f fuel touched needs fl l n q m :
  consistent nodes (g_world f) -> changed_marks f fuel touched needs fl nodes = Some l -> In m nodes ->
  g_changed f m = true \/ (touched m = true /\ needs m = true /\ q <> []) ->
  near q -> reach (g_world f) n q = Some m -> (forall d, hd_error q = Some d -> le_flags (flag_of d) (e_rec (fl m))) -> In n l.
Proof.
  intros C Hl Hm Hch Hq Hr Hf. unfold changed_marks in Hl. destruct (to_be_marked_In _ _ _ _ _ _ _ _ Hl Hm) as (a & Ha & Hi). apply Hi. clear Hi Hl Hm.
  unfold marks_of in Ha. cbn [f_data_changed f_marker_changed f_inline_changed] in Ha.
  assert (E1 : negb (g_changed f m || touched m || g_inline f m) = false) by (destruct Hch as [-> |(-> & _)]; [|rewrite orb_true_r]; reflexivity). rewrite E1 in Ha.
  assert (E2 : negb (g_changed f m) && negb (needs m) && negb (g_inline f m) = false) by (destruct Hch as [-> |(_ & -> & _)]; cbn; rewrite ?andb_false_r; reflexivity). rewrite E2 in Ha.
  destruct (if rec_descendants (e_rec (fl m)) then option_map (map snd) (iter_ui_descendants_with_parent (w_tree (g_world f)) fuel m) else Some []) as [ds|] eqn:Ed; [|discriminate].
  destruct (if rec_ascendants (e_rec (fl m)) then iter_ui_ancestors (w_tree (g_world f)) fuel m else Some []) as [asc|] eqn:Es; [|discriminate].
  injection Ha as <-. rewrite !in_app_iff. destruct q as [|d q].
  - injection Hr as ->. left. destruct Hch as [-> |(_ & _ & NE)]; [left; reflexivity|contradiction].
  - specialize (Hf d eq_refl). apply le_flag_of in Hf. destruct Hq as (ups & sibs & E & Hu & Hs). destruct ups as [|u ups].
    + cbn [app] in E. right. left. subst sibs. inversion Hs as [|? ? Hd Hs']; subst. assert (rec_siblings (e_rec (fl m)) = true) as -> by (destruct Hd as [-> | ->]; exact Hf).
      unfold iter_ui_siblings. cbn [reach] in Hr. destruct (reach (g_world f) n q) as [x|] eqn:Ex; [|discriminate]. destruct (beside_parent _ _ C d x m Hd Hr) as (p & Hx & Hp). rewrite Hp.
      apply (wf_agree _ (c_forest _ _ C)). destruct (reach_sibs _ _ C n q x Hs' Ex) as [-> |(p' & A & B)]; congruence.
    + right. right. left. inversion Hu; subst u. cbn [app] in E. injection E as -> ->. rewrite Hf in Ed.
      destruct (iter_ui_descendants_with_parent (w_tree (g_world f)) fuel m) as [l'|] eqn:El; [|discriminate]. cbn [option_map] in Ed. injection Ed as <-.
      eapply desc_fuel; [apply (c_forest _ _ C)|exact El|]. apply (reach_ups _ _ C n (Up :: ups) sibs); auto. discriminate.
Qed.

(** ** Calculation *)
Lemma ecalculate_mono {R} w progs needs nodes : forall fl (active : nat -> option R), le_es fl (fst (ecalculate w progs needs nodes fl active)).
Proof.
  induction nodes as [|e nodes IH]; intros fl active; [intros a; apply le_e_refl|]. cbn [ecalculate]. destruct (needs e); [|apply IH]. destruct (progs e) as [p|]; [|apply IH].
  pose proof (exec_mono w e p fl) as H. destruct (exec w e p fl) as [r fl']. eapply le_es_trans; [exact H|apply IH].
Qed.
Lemma ecalculate_other {R} w progs needs nodes n : forall fl (active : nat -> option R), ~ In n nodes \/ needs n = false \/ progs n = None -> snd (ecalculate w progs needs nodes fl active) n = active n.
Proof.
  induction nodes as [|e nodes IH]; intros fl active Hn; [reflexivity|]. cbn [ecalculate].
  assert (Hn' : ~ In n nodes \/ needs n = false \/ progs n = None) by (cbn [In] in Hn; tauto).
  destruct (needs e) eqn:Ee; [|apply IH; exact Hn']. destruct (progs e) as [p|] eqn:Ep; [|apply IH; exact Hn'].
  destruct (exec w e p fl) as [r fl']. rewrite IH by exact Hn'. destruct (Nat.eqb_spec n e) as [->|]; [|reflexivity]. cbn [In] in Hn. destruct Hn as [Hn|[Hn|Hn]]; [tauto|congruence|congruence].
Qed.
Lemma ecalculate_done {R} w progs needs nodes n (p : eprog R) : forall fl active, In n nodes -> needs n = true -> progs n = Some p ->
  snd (ecalculate w progs needs nodes fl active) n = Some (result w n p) /\ erecorded w n p (fst (ecalculate w progs needs nodes fl active)).
Proof.
  induction nodes as [|e nodes IH]; intros fl active Hi Hn Hp; [destruct Hi|]. cbn [ecalculate]. destruct (Nat.eq_dec e n) as [->|Hne].
  - rewrite Hn, Hp. pose proof (exec_result w n p fl) as Ha. pose proof (exec_recorded w n p fl) as Hr. destruct (exec w n p fl) as [r fl']. cbn [fst snd] in Ha, Hr. subst r.
    destruct (in_dec Nat.eq_dec n nodes) as [Hi'|Hi']; [apply IH; assumption|]. split.
    + rewrite ecalculate_other by (left; exact Hi'). rewrite Nat.eqb_refl. reflexivity.
    + eapply erecorded_mono; [apply ecalculate_mono|exact Hr].
  - destruct Hi as [Hi|Hi]; [congruence|]. destruct (needs e); [|apply IH; assumption]. destruct (progs e) as [p'|]; [|apply IH; assumption]. destruct (exec w e p' fl) as [r fl']. apply IH; assumption.
Qed.

(** ** Frames *)
Lemma connected_data nodes w : consistent nodes w -> forall n m, connected (w_tree w) n m -> w_data w n <> None -> w_data w m <> None.
Proof.
  intros C n m H D. induction H as [|a b c H IH Hp|a b c H IH Hp]; [exact D|apply (c_nodes _ _ C _ _ Hp)|apply (c_nodes _ _ C _ _ Hp)].
Qed.
Section Frames.
  Context {R : Type} (nodes : list nat) (progs : eframe -> nat -> option (eprog R)).
  Definition good_progs (f : eframe) : Prop :=
    consistent nodes (g_world f) /\ (forall n, w_data (g_world f) n <> None -> In n nodes) /\
    (forall n p, progs f n = Some p -> w_data (g_world f) n <> None /\ proper True [[]] p) /\
    ((forall n p, progs f n = Some p -> proper False [[]] p) \/ (forall n p, parent (w_tree (g_world f)) n = Some p -> exists q, progs f p = Some q /\ always_marks q)).
  Definition settled (f : eframe) (s : estate R) : Prop :=
    forall n, In n nodes -> (a_needs s n = true /\ progs f n = None) \/
      exists p, progs f n = Some p /\ a_active s n = Some (result (g_world f) n p) /\ erecorded (g_world f) n p (a_flags s).
  Definition reports (f0 f : eframe) : Prop :=
    let w0 := g_world f0 in let w := g_world f in
    (forall n, w_data w n <> None -> g_changed f n = false -> w_data w n = w_data w0 n /\ parent (w_tree w) n = parent (w_tree w0) n) /\
    (forall p, w_data w p <> None -> g_children f p = false -> children (w_tree w) p = children (w_tree w0) p) /\
    (forall n, w_data w n <> None -> progs f0 n <> None -> g_marked f n = false -> g_late f n = false -> progs f n = progs f0 n) /\
    (forall m n, g_reset f m = true -> connected (w_tree w) m n -> g_marked f n = true \/ g_late f n = true).
  Lemma unnoticed f0 f s fuel needs n : good_progs f0 -> good_progs f -> reports f0 f -> settled f0 s -> noticed_now f nodes fuel s = Some needs -> In n nodes -> needs n = false ->
    exists p, progs f0 n = Some p /\ progs f n = Some p /\ a_active s n = Some (result (g_world f) n p) /\ result (g_world f) n p = result (g_world f0) n p /\ erecorded (g_world f) n p (after_reset f s).
  Proof.
    intros (C0 & In0 & Ok0 & Sw0) (C & In1 & Ok & Sw) (Rd & Rc & Rp & Rr) Hs Hn Hin Hno. set (fl := after_reset f s). unfold noticed_now in Hn. fold fl in Hn.
    destruct (related_marks f fuel fl nodes) as [l1|] eqn:E1; [|discriminate].
    destruct (changed_marks f fuel _ _ fl nodes) as [l2|] eqn:E2; [|discriminate]. injection Hn as <-.
    rewrite !orb_false_iff in Hno. destruct Hno as (((((Hneeds & Hmarked) & Hl1) & Hl2) & Hlate) & Hgone). assert (Dn : w_data (g_world f) n <> None) by (unfold gone in Hgone; destruct (w_data (g_world f) n); discriminate).
    assert (N1 : ~ In n l1) by (rewrite <- mem_In; congruence). assert (N2 : ~ In n l2) by (rewrite <- mem_In; congruence).
    destruct (Hs n Hin) as [[H _]|(p & Hp & Ha & Hr)]; [congruence|]. exists p. split; [exact Hp|].
    assert (Hp' : progs f n = Some p) by (rewrite Rp; [exact Hp|exact Dn|congruence|assumption|assumption]). split; [exact Hp'|].
    (* flags of the tree of n are not reset *)
    assert (Hfl : forall m, connected (w_tree (g_world f)) n m -> fl m = a_flags s m).
    { intros m Hm. assert (Dm : w_data (g_world f) m <> None) by (exact (connected_data _ _ C n m Hm Dn)). unfold fl, after_reset, gone. destruct (w_data (g_world f) m); [|contradiction]. rewrite orb_false_r. destruct (g_reset f m) eqn:Er; [|reflexivity]. destruct (Rr m n Er (connected_sym _ _ _ Hm)); congruence. }
    assert (Near : forall q m, near q -> still (g_world f0) (g_world f) n (a_flags s) q m -> g_changed f m = false /\ (g_children f m = true -> e_emp (a_flags s m) = false)).
    { intros q m Hq (S1 & S2 & S3). assert (Dm : w_data (g_world f) m <> None) by (eapply reach_data; eauto).
      pose proof (Hfl m (reach_connected _ _ C n q m S2)) as Em. split.
      - destruct (g_changed f m) eqn:Ec; [|reflexivity]. exfalso. apply N2. eapply (near_marked nodes f fuel _ _ fl l2 n q m); eauto. intros d Hd. rewrite Em. auto.
      - intros Hc. destruct (e_emp (a_flags s m)) eqn:Ee; [|reflexivity]. exfalso.
        destruct (related_in f fuel fl nodes l1 m E1 (In1 _ Dm) Hc) as [A _]. rewrite Em in A. specialize (A Ee).
        destruct q as [|d q]; [injection S2 as ->; contradiction|]. apply N2. eapply (near_marked nodes f fuel _ _ fl l2 n (d :: q) m); eauto.
        + right. apply mem_In in A. rewrite A, !orb_true_r. repeat split; auto. discriminate.
        + intros d' Hd'. rewrite Em. auto. }
    assert (F1 : forall q m, near q -> still (g_world f0) (g_world f) n (a_flags s) q m -> w_data (g_world f) m = w_data (g_world f0) m /\ parent (w_tree (g_world f)) m = parent (w_tree (g_world f0)) m /\ (e_emp (a_flags s m) = true -> children (w_tree (g_world f)) m = children (w_tree (g_world f0)) m)).
    { intros q m Hq Hst. destruct (Near q m Hq Hst) as [Hc He]. assert (Dm : w_data (g_world f) m <> None) by (destruct Hst as (_ & S2 & _); eapply reach_data; eauto).
      destruct (Rd m Dm Hc) as [Ed Ep]. split; [exact Ed|]. split; [exact Ep|]. intros Hem. apply (Rc m Dm). destruct (g_children f m); [rewrite He in Hem by reflexivity; discriminate|reflexivity]. }
    assert (K : forall sw : Prop, proper sw [[]] p -> (sw -> forall q m p, near q -> still (g_world f0) (g_world f) n (a_flags s) q m -> parent (w_tree (g_world f0)) m = Some p -> children (w_tree (g_world f)) p = children (w_tree (g_world f0)) p) ->
      result (g_world f) n p = result (g_world f0) n p /\ erecorded (g_world f) n p (a_flags s)).
    { intros sw Hsw F2. apply (stable nodes nodes (g_world f0) (g_world f) C0 C n (a_flags s) sw F1 F2 p [[]] Hsw); [| |exact Hr].
      - intros d q [E|[]]. discriminate.
      - intros q [<-|[]]. exists n. split; [reflexivity|]. split; [reflexivity|]. discriminate. }
    assert (KK : result (g_world f) n p = result (g_world f0) n p /\ erecorded (g_world f) n p (a_flags s)).
    { destruct Sw0 as [Sw0|Sw0]; [apply (K False); [eapply Sw0; eauto|intros []]|].
      apply (K True); [eapply Ok0; eauto|]. intros _ q m r Hq Hst Hpar. destruct (F1 q m Hq Hst) as (_ & Ep & _). assert (Hpar' : parent (w_tree (g_world f)) m = Some r) by congruence.
      assert (Dr : w_data (g_world f) r <> None) by (apply (c_nodes _ _ C m r Hpar')).
      apply (Rc r Dr). destruct (g_children f r) eqn:Ec; [|reflexivity]. exfalso. apply N1.
      assert (e_pos (fl r) = true) as Hpos.
      { rewrite Hfl. 2:{ destruct Hst as (_ & S2 & _). eapply conn_up; [eapply reach_connected; eauto|exact Hpar']. }
        destruct (Sw0 m r Hpar) as (pr & Hpr & Hm). destruct (Hs r (In1 _ Dr)) as [[_ H]|(p' & Hp2 & _ & Hrec)]; [congruence|]. assert (p' = pr) as -> by congruence. eapply recorded_marks; eauto. }
      destruct (related_in f fuel fl nodes l1 r E1 (In1 _ Dr) Ec) as [_ A]. destruct (A Hpos) as (d & Ed & Hi). apply Hi. eapply desc_fuel; [apply (c_forest _ _ C)|exact Ed|].
      destruct Hst as (_ & S2 & _). eapply near_below; eauto. }
    destruct KK as [K1 K2]. split; [rewrite K1; exact Ha|]. split; [exact K1|].
    eapply recorded_same; [|exact K2]. intros q m Hm. apply Hfl. eapply reach_connected; eauto.
  Qed.
  Lemma step_settled f0 f s s' fuel : good_progs f0 -> good_progs f -> reports f0 f -> settled f0 s -> estep progs nodes fuel f s = Some s' -> settled f s'.
  Proof.
    intros G0 G Hr Hs Hstep. unfold estep in Hstep. destruct (noticed_now f nodes fuel s) as [needs|] eqn:En; [|discriminate].
    pose proof (ecalculate_mono (g_world f) (progs f) needs nodes (after_reset f s) (a_active s)) as Hmono.
    destruct (ecalculate (g_world f) (progs f) needs nodes (after_reset f s) (a_active s)) as [fl' act'] eqn:Ec. injection Hstep as <-. intros n Hin. cbn [a_needs a_active a_flags]. cbn [fst] in Hmono.
    destruct (needs n) eqn:Enn.
    - destruct (progs f n) as [p|] eqn:Ep; [|left; auto]. right. exists p. split; [reflexivity|].
      destruct (ecalculate_done (g_world f) (progs f) needs nodes n p (after_reset f s) (a_active s) Hin Enn Ep) as [A B]. rewrite Ec in A, B. auto.
    - right. destruct (unnoticed f0 f s fuel needs n G0 G Hr Hs En Hin Enn) as (p & _ & Hp & Ha & _ & Hrec). exists p. split; [exact Hp|]. split; [|eapply erecorded_mono; eauto].
      assert (E : snd (ecalculate (g_world f) (progs f) needs nodes (after_reset f s) (a_active s)) n = a_active s n) by (apply ecalculate_other; auto). rewrite Ec in E. cbn [snd] in E. rewrite E. exact Ha.
  Qed.
  Fixpoint ghistory (f0 : eframe) (fs : list eframe) : Prop := match fs with [] => True | f :: fs => good_progs f /\ reports f0 f /\ ghistory f fs end.
  Lemma steps_settled fuel fs : forall f0 s s', good_progs f0 -> ghistory f0 fs -> settled f0 s -> esteps progs nodes fuel fs s = Some s' -> settled (last fs f0) s'.
  Proof.
    induction fs as [|f fs IH]; intros f0 s s' G H Hs E; [injection E as <-; exact Hs|]. cbn [esteps ghistory] in *. destruct H as (G1 & R1 & H). destruct (estep progs nodes fuel f s) as [s1|] eqn:E1; [|discriminate].
    assert (S1 : settled f s1) by (exact (step_settled f0 f s s1 fuel G G1 R1 Hs E1)). specialize (IH f s1 s' G1 H S1 E).
    assert (last (f :: fs) f0 = last fs f) as -> by (clear; destruct fs as [|g fs]; [reflexivity|]; revert g; induction fs as [|h fs IH]; intros g; [reflexivity|]; apply (IH h)). exact IH.
  Qed.
  Lemma noticed_enough f fuel : (forall e, In e nodes -> (exists l, iter_ui_descendants_with_parent (w_tree (g_world f)) fuel e = Some l) /\ (exists l, iter_ui_ancestors (w_tree (g_world f)) fuel e = Some l)) ->
    forall s : estate R, exists needs, noticed_now f nodes fuel s = Some needs.
  Proof.
    intros H0 s. unfold noticed_now.
    assert (K : forall fl, exists l, related_marks f fuel fl nodes = Some l).
    { intros fl. revert H0. clear. induction nodes as [|p l IH]; intros H0; [exists []; reflexivity|]. cbn [related_marks]. destruct IH as [rest ->]; [intros e He; apply H0; right; exact He|].
      destruct (H0 p (or_introl eq_refl)) as [(d & Ed) _]. rewrite Ed. destruct (g_children f p); [|eauto]. destruct (e_pos (fl p)); cbn [option_map]; eauto. }
    destruct (K (after_reset f s)) as [l1 ->]. unfold changed_marks.
    match goal with |- context [to_be_marked ?a ?b ?c ?d ?e ?g] => destruct (to_be_marked_total a b g H0 c d e) as [l2 ->] end. eauto.
  Qed.
  Lemma noticed_total f : wf_forest (w_tree (g_world f)) -> exists n0, forall fuel, n0 <= fuel -> forall s : estate R, exists needs, noticed_now f nodes fuel s = Some needs.
  Proof. intros W. destruct (marks_total (w_tree (g_world f)) nodes W) as [n0 H0]. exists n0. intros fuel Hf s. apply noticed_enough. exact (H0 fuel Hf). Qed.
  Lemma steps_total fs : Forall (fun f => wf_forest (w_tree (g_world f))) fs -> exists n0, forall fuel, n0 <= fuel -> forall s, exists s', esteps progs nodes fuel fs s = Some s'.
  Proof.
    induction 1 as [|f fs W _ [n1 IH]]; [exists 0; intros fuel _ s; exists s; reflexivity|]. destruct (noticed_total f W) as [n0 H0]. exists (n0 + n1). intros fuel Hf s. cbn [esteps]. unfold estep.
    destruct (H0 fuel ltac:(lia) s) as [needs ->]. destruct (ecalculate _ _ _ _ _ _) as [fl act]. apply IH. lia.
  Qed.
End Frames.

(** ** Selectors *)
Lemma proper_weaken {R} (sw sw' : Prop) (p : eprog R) : (sw -> sw') -> forall seen, proper sw seen p -> proper sw' seen p.
Proof.
  intros H. induction p as [r|d q k IH|q k IH|q k IH|q k IH|a b k IH]; intros seen; cbn [proper]; auto.
  - intros (H1 & H2 & H3 & H4). repeat split; auto. destruct H2 as [H2|(H2 & H5 & H6)]; auto.
  - intros (H1 & H2 & H3). auto.
  - intros (H1 & H2 & H3). auto.
  - intros (H1 & H2). auto.
Qed.
Lemma good_frame_progs nodes mf f : good_frame nodes f -> good_progs nodes (rule_progs mf) f.
Proof.
  intros (C & Hin & Hd & Hs & Hsw). split; [exact C|]. split; [exact Hin|]. unfold rule_progs.
  assert (P : forall sw : Prop, (forall n s, selectors_at f n s -> looks_sideways s -> sw) -> forall n p, option_map (sheet_prog mf) (g_rules f n) = Some p -> proper sw [[]] p).
  { intros sw H n p Hp. destruct (g_rules f n) as [rules|] eqn:Er; [|discriminate]. injection Hp as <-. apply proper_sheet; [|left; reflexivity]. intros s m i Hi.
    assert (S : selectors_at f n s) by (exists rules, m, i; auto). split; [apply (Hs n s S)|]. apply (H n s S). }
  split.
  - intros n p Hp. split; [|apply (P True (fun _ _ _ _ => I) n p Hp)]. apply Hd. destruct (g_rules f n); [discriminate|discriminate Hp].
  - destruct Hsw as [H|H]; [left; apply (P False); auto; intros n s S K; exact (H n s S K)|right].
    intros n p Hp. destruct (H n p Hp) as (s & (rules & m & i & Er & Hi) & Ha). exists (sheet_prog mf rules). rewrite Er. split; [reflexivity|]. eapply sheet_marks; eauto.
Qed.
Lemma followed_ghistory nodes mf fs : forall f0, followed_history nodes f0 fs -> ghistory nodes (rule_progs mf) f0 fs.
Proof.
  induction fs as [|f fs IH]; intros f0; [auto|]. intros (G & (R1 & R2 & R3 & R4) & H). cbn [ghistory]. split; [apply good_frame_progs; exact G|]. split; [|apply IH; exact H].
  split; [exact R1|]. split; [exact R2|]. split; [|exact R4]. intros n Hd H0 Hm Hl. unfold rule_progs in *. rewrite (R3 n); [reflexivity|exact Hd| |exact Hm|exact Hl]. intros K. apply H0. rewrite K. reflexivity.
Qed.
Lemma nothing_good nodes mf : good_progs nodes (rule_progs mf) nothing_yet /\ settled nodes (rule_progs mf) nothing_yet new_nodes.
Proof.
  split; [|intros n Hn; left; split; reflexivity].
  split; [|split; [intros n H; exfalso; apply H; reflexivity|split; [intros n p H; discriminate H|left; intros n p H; discriminate H]]].
  constructor; cbn.
  - constructor; cbn; [intros; split; [intros []|discriminate]|intros; constructor|]. exists (fun _ => 0), 0. split; [discriminate|auto].
  - discriminate. - discriminate. - discriminate. - discriminate. - discriminate.
Qed.
Lemma sheet_active w n mf rules : (forall s m i, In (s, m, i) rules -> (matches_selector w mf s n = true <-> sat w s None n)) -> active_rules w n rules (result w n (sheet_prog mf rules)).
Proof.
  intros H. rewrite sheet_result. induction rules as [|[[s m] i] rules IH]; [constructor|]. cbn [filter fst snd]. assert (IH' := IH (fun s' m' i' Hi => H s' m' i' (or_intror Hi))). specialize (H s m i (or_introl eq_refl)).
  destruct (matches_selector w mf s n) eqn:E; cbn [andb].
  - destruct m; cbn [map snd].
    + apply ar_yes; [apply H; reflexivity|exact IH'].
    + apply ar_no; [intros [_ K]; discriminate|exact IH'].
  - apply ar_no; [intros [K _]; apply H in K; discriminate|exact IH'].
Qed.
Lemma history_last nodes fs : forall f0 f, followed_history nodes f0 (fs ++ [f]) -> good_frame nodes f.
Proof. induction fs as [|g fs IH]; intros f0 f H; [apply H|]. destruct H as (_ & _ & H). eapply IH; eauto. Qed.
Lemma history_wf nodes fs : forall f0, followed_history nodes f0 fs -> Forall (fun f => wf_forest (w_tree (g_world f))) fs.
Proof. induction fs as [|g fs IH]; intros f0 H; [constructor|]. destruct H as (G & _ & H). constructor; [apply (c_forest _ _ (proj1 G))|eapply IH; eauto]. Qed.
