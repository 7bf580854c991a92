From Coq Require Import Ascii String.
From Verif Require Import Base Layers LayersSpec.
Local Open Scope list_scope.

(** ** Paths and their written form *)

Definition path_dec : forall a b : path, {a = b} + {a <> b} :=
  list_eq_dec (list_eq_dec ascii_dec).

Lemma dotted_cons s r : r <> [] -> dotted (s :: r) = s ++ "."%char :: dotted r.
Proof. destruct r; [congruence|reflexivity]. Qed.

Lemma dotted_snoc p x : p <> [] -> dotted (p ++ [x]) = dotted p ++ "."%char :: x.
Proof.
  induction p as [|s r IH]; [congruence|]. intros _.
  destruct r as [|s' r]; [reflexivity|].
  change ((s :: s' :: r) ++ [x]) with (s :: ((s' :: r) ++ [x])).
  rewrite dotted_cons by (destruct r; discriminate).
  rewrite IH by discriminate. rewrite (dotted_cons s (s' :: r)) by discriminate.
  rewrite <- app_assoc. reflexivity.
Qed.

Lemma prefixes_snoc p x : prefixes (p ++ [x]) = prefixes p ++ [p ++ [x]].
Proof. induction p as [|s r IH]; [reflexivity|]. simpl. rewrite IH, map_app. reflexivity. Qed.

Lemma prefixes_nonnil p q : In q (prefixes p) -> q <> [].
Proof.
  destruct p as [|s r]; simpl; [tauto|]. intros [<-|H]; [discriminate|].
  apply in_map_iff in H as (t & <- & _). discriminate.
Qed.

Lemma prefixes_spec p q : In q (prefixes p) <-> q <> [] /\ exists t, p = q ++ t.
Proof.
  revert q; induction p as [|s r IH]; intros q; simpl.
  - split; [tauto|]. intros (H & t & Ht). destruct q; [congruence|discriminate].
  - split.
    + intros [<-|H].
      * split; [discriminate|]. exists r; reflexivity.
      * apply in_map_iff in H as (u & <- & Hu). apply IH in Hu as (_ & t & ->).
        split; [discriminate|]. exists t; reflexivity.
    + intros (Hq & t & Ht). destruct q as [|s' q]; [congruence|].
      simpl in Ht. injection Ht as <- ->.
      destruct q as [|z q]; [left; reflexivity|right].
      apply in_map. apply IH. split; [discriminate|exists t; reflexivity].
Qed.

Lemma prefixes_self p : p <> [] -> In p (prefixes p).
Proof. intros H. apply prefixes_spec. split; [exact H|]. exists []. symmetry; apply app_nil_r. Qed.

Lemma legal_prefix p q : legal p -> In q (prefixes p) -> legal q.
Proof.
  intros [_ H] Hq. apply prefixes_spec in Hq as (Hn & t & ->). split; [exact Hn|].
  apply Forall_app in H. apply H.
Qed.

Lemma name_eqb_spec a b : name_eqb a b = true <-> a = b.
Proof. unfold name_eqb. destruct (list_eq_dec ascii_dec a b); split; congruence. Qed.

Lemma app_dot_inj (a b c d : list ascii) :
  ~ In "."%char a -> ~ In "."%char b -> a ++ "."%char :: c = b ++ "."%char :: d -> a = b /\ c = d.
Proof.
  revert b; induction a as [|x a IH]; intros [|y b] Ha Hb H; simpl in *.
  - injection H as <-; auto.
  - injection H as <- _. tauto.
  - injection H as -> _. tauto.
  - injection H as <- H. destruct (IH b) as [E1 E2]; try tauto. subst; auto.
Qed.

Lemma dotted_legal_segments p : Forall legal_segment p -> dotted p = [] -> p = [].
Proof.
  destruct p as [|s [|s' r]]; intros H E; [reflexivity| |].
  - simpl in E. inversion H; subst. destruct H2 as [H2 _]. congruence.
  - rewrite dotted_cons in E by discriminate. destruct s; discriminate.
Qed.

Lemma dotted_inj p q : Forall legal_segment p -> Forall legal_segment q -> dotted p = dotted q -> p = q.
Proof.
  revert q; induction p as [|s r IH]; intros q Hp Hq E.
  - symmetry. apply dotted_legal_segments; auto.
  - destruct q as [|s' r'].
    + apply dotted_legal_segments; auto.
    + inversion Hp as [|? ? [Hs Hsd] Hr]; inversion Hq as [|? ? [Hs' Hsd'] Hr']; subst.
      destruct r as [|x r]; destruct r' as [|y r'].
      * simpl in E. congruence.
      * rewrite (dotted_cons s') in E by discriminate. simpl in E.
        exfalso. apply Hsd. rewrite E. apply in_elt.
      * rewrite (dotted_cons s) in E by discriminate. simpl in E.
        exfalso. apply Hsd'. rewrite <- E. apply in_elt.
      * rewrite (dotted_cons s), (dotted_cons s') in E by discriminate.
        apply app_dot_inj in E as [E1 E]; auto.
        apply IH in E; auto. rewrite E1, E. reflexivity.
Qed.

Lemma legal_dotted_nonempty p : legal p -> dotted p <> [].
Proof. intros [H H'] E. apply H, dotted_legal_segments; auto. Qed.

(** ** ParsedLayer::parse on legal names *)

Lemma parse_from_seg pre cur s :
  ~ In "."%char s -> parse_from pre cur s = {| parents := []; pl_name := rev cur ++ s |}.
Proof.
  revert pre cur; induction s as [|c s IH]; intros pre cur H; simpl.
  - rewrite app_nil_r; reflexivity.
  - destruct (ascii_dec c dot) as [->|Hc]; [exfalso; apply H; left; reflexivity|].
    rewrite IH by (intro; apply H; right; assumption). simpl. rewrite <- app_assoc. reflexivity.
Qed.

Lemma parse_from_seg_dot pre cur s r :
  ~ In "."%char s ->
  parse_from pre cur (s ++ "."%char :: r) =
  (let p := parse_from ("."%char :: rev s ++ pre) [] r in
   {| parents := (rev pre ++ s) :: parents p; pl_name := pl_name p |}).
Proof.
  revert pre cur; induction s as [|c s IH]; intros pre cur H; simpl.
  - unfold dot. destruct (ascii_dec "."%char "."%char) as [_|N]; [|congruence].
    rewrite app_nil_r. reflexivity.
  - destruct (ascii_dec c dot) as [->|Hc]; [exfalso; apply H; left; reflexivity|].
    rewrite IH by (intro; apply H; right; assumption). simpl. rewrite <- !app_assoc. simpl.
    reflexivity.
Qed.

Lemma parse_from_legal pre p :
  p <> [] -> Forall legal_segment p ->
  parse_from pre [] (dotted p) =
  {| parents := map (fun q => rev pre ++ dotted q) (removelast (prefixes p));
     pl_name := last p [] |}.
Proof.
  revert pre; induction p as [|s r IH]; intros pre Hn H; [congruence|].
  inversion H as [|? ? [Hs Hd] Hr]; subst.
  destruct r as [|s' r].
  - simpl. rewrite parse_from_seg by exact Hd. reflexivity.
  - rewrite dotted_cons by discriminate.
    rewrite parse_from_seg_dot by exact Hd. rewrite IH by (discriminate || assumption).
    cbv zeta. cbn [parents pl_name].
    f_equal.
    change (prefixes (s :: s' :: r)) with ([s] :: map (cons s) (prefixes (s' :: r))).
    assert (Hne : prefixes (s' :: r) <> []) by discriminate.
    revert Hne. generalize (prefixes_nonnil (s' :: r)). generalize (prefixes (s' :: r)) as ps.
    intros ps Hps Hne.
    assert (E : removelast (map (cons s) ps) = map (cons s) (removelast ps)).
    { clear. induction ps as [|a ps IHp]; [reflexivity|]. destruct ps; [reflexivity|].
      cbn [map removelast] in *. rewrite IHp. reflexivity. }
    destruct ps as [|a ps]; [congruence|].
    change (removelast ([s] :: map (cons s) (a :: ps)))
      with ([s] :: removelast (map (cons s) (a :: ps))).
    rewrite E. cbn [map]. f_equal.
    rewrite map_map. apply map_ext_in. intros q Hq.
    assert (Hqn : q <> []).
    { apply Hps. clear -Hq. revert Hq. generalize (a :: ps). intros l.
      induction l as [|b l IHl]; simpl; [tauto|].
      destruct l; simpl in *; [tauto|]. intros [->|H]; [left; reflexivity|right; apply IHl, H]. }
    rewrite dotted_cons by exact Hqn. cbn [rev]. rewrite rev_app_distr, rev_involutive.
    rewrite <- !app_assoc. reflexivity.
Qed.

Lemma parse_legal p x :
  Forall legal_segment (p ++ [x]) ->
  parse (dotted (p ++ [x])) = {| parents := map dotted (prefixes p); pl_name := x |}.
Proof.
  intros H. unfold parse. rewrite parse_from_legal; [|destruct p; discriminate|exact H].
  rewrite last_last, prefixes_snoc, removelast_last. reflexivity.
Qed.

(** ** Path level description of define_layer *)

Definition insert_before (par p : path) (l : list path) : list path :=
  match position (fun a => if path_dec a par then true else false) l with
  | Some i => insert_at i p l
  | None => l
  end.

Definition add1 (l : list path) (p : path) : list path :=
  if in_dec path_dec p l then l
  else match removelast p with
       | [] => l ++ [p]
       | par => insert_before par p l
       end.

Definition adds (l : list path) (p : path) : list path := fold_left add1 (prefixes p) l.

Definition closed (l : list path) : Prop := forall p q, In p l -> In q (prefixes p) -> In q l.

Lemma insert_before_split par p l :
  In par l -> exists l1 l2, l = l1 ++ par :: l2 /\ ~ In par l1 /\
                            insert_before par p l = l1 ++ p :: par :: l2.
Proof.
  intros Hin. unfold insert_before.
  destruct (position _ l) as [i|] eqn:Hp.
  - apply position_Some in Hp as (l1 & x & l2 & -> & <- & Hx & Hf).
    destruct (path_dec x par) as [->|]; [|discriminate].
    exists l1, l2. repeat split.
    + intro H. rewrite Forall_forall in Hf. specialize (Hf _ H). destruct (path_dec par par); congruence.
    + apply insert_at_app.
  - apply position_None in Hp. rewrite Forall_forall in Hp. specialize (Hp _ Hin).
    destruct (path_dec par par); congruence.
Qed.

Lemma add1_in l p : In p l -> add1 l p = l.
Proof. intros H. unfold add1. destruct (in_dec path_dec p l); [reflexivity|tauto]. Qed.

Lemma add1_cases l p x :
  ~ In (p ++ [x]) l -> (p = [] \/ In p l) ->
  (p = [] /\ add1 l (p ++ [x]) = l ++ [[x]]) \/
  (exists l1 l2, p <> [] /\ l = l1 ++ p :: l2 /\ ~ In p l1 /\ add1 l (p ++ [x]) = l1 ++ (p ++ [x]) :: p :: l2).
Proof.
  intros Hni Hp. unfold add1. destruct (in_dec path_dec (p ++ [x]) l); [tauto|].
  rewrite removelast_last. destruct p as [|s r].
  - left. split; reflexivity.
  - destruct Hp as [Hp|Hp]; [discriminate|]. right.
    destruct (insert_before_split (s :: r) ((s :: r) ++ [x]) l Hp) as (l1 & l2 & -> & Hn & E).
    exists l1, l2. repeat split; auto. discriminate.
Qed.

Lemma add1_In l p x q :
  (p = [] \/ In p l) -> (In q (add1 l (p ++ [x])) <-> q = p ++ [x] \/ In q l).
Proof.
  intros Hp. destruct (in_dec path_dec (p ++ [x]) l) as [H|H].
  - rewrite add1_in by exact H. split; [tauto|]. intros [->|]; assumption.
  - destruct (add1_cases l p x H Hp) as [[-> ->]|(l1 & l2 & Hn & -> & _ & ->)].
    + rewrite in_app_iff. simpl. split; intuition.
    + rewrite !in_app_iff. simpl. split; intuition.
Qed.

Lemma fold_add1_in ps l : (forall q, In q ps -> In q l) -> fold_left add1 ps l = l.
Proof.
  revert l; induction ps as [|p ps IH]; intros l H; simpl; [reflexivity|].
  rewrite add1_in by (apply H; left; reflexivity). apply IH. intros; apply H; right; assumption.
Qed.

Lemma adds_snoc l p x : adds l (p ++ [x]) = add1 (adds l p) (p ++ [x]).
Proof. unfold adds. rewrite prefixes_snoc, fold_left_app. reflexivity. Qed.

Lemma adds_contains l p q : In q (adds l p) <-> In q l \/ In q (prefixes p).
Proof.
  revert q; induction p as [|x p IH] using rev_ind; intros q.
  - simpl. tauto.
  - rewrite adds_snoc, prefixes_snoc, add1_In.
    + rewrite IH, in_app_iff. simpl. split; intuition.
    + destruct (path_dec p []) as [->|Hn]; [left; reflexivity|right].
      apply IH. right. apply prefixes_self, Hn.
Qed.

Lemma adds_in l p : closed l -> In p l -> adds l p = l.
Proof. intros Hc H. apply fold_add1_in. intros q Hq. eapply Hc; eauto. Qed.

Lemma adds_closed l p : closed l -> closed (adds l p).
Proof.
  intros Hc a b Ha Hb. apply adds_contains in Ha. apply adds_contains.
  destruct Ha as [Ha|Ha]; [left; eapply Hc; eauto|right].
  apply prefixes_spec in Ha as (Hn & t & ->). apply prefixes_spec in Hb as (Hbn & u & ->).
  apply prefixes_spec. split; [exact Hbn|]. exists (u ++ t). symmetry. apply app_assoc.
Qed.

Lemma for_each_prefixes (f : list name -> name -> option (list name)) p l :
  (forall q l', In q (prefixes p) -> Forall legal l' -> closed l' ->
     f (map dotted l') (dotted q) = Some (map dotted (adds l' q))) ->
  legal p \/ p = [] -> Forall legal l -> closed l ->
  for_each_opt f (map dotted (prefixes p)) (map dotted l) = Some (map dotted (adds l p)).
Proof.
  intros Hf Hleg Hl Hc.
  induction p as [|x p IH] using rev_ind; [reflexivity|].
  rewrite prefixes_snoc, map_app.
  assert (Hlp : legal p \/ p = []).
  { destruct (path_dec p []) as [->|Hn]; [right; reflexivity|left].
    destruct Hleg as [[_ H]|H]; [|destruct p; discriminate].
    apply Forall_app in H. split; [exact Hn|apply H]. }
  assert (for_each_app : forall a b s, for_each_opt f (a ++ b) s =
             match for_each_opt f a s with Some s' => for_each_opt f b s' | None => None end).
  { clear. induction a as [|y a IHa]; intros b s; simpl; [reflexivity|].
    destruct (f s y); [apply IHa|reflexivity]. }
  rewrite for_each_app, IH; clear IH.
  - cbn [map for_each_opt].
    assert (Hq : In (p ++ [x]) (prefixes (p ++ [x]))).
    { apply prefixes_self. destruct p; discriminate. }
    rewrite Hf; [|exact Hq| |apply adds_closed, Hc].
    + rewrite adds_snoc. f_equal. f_equal.
      rewrite adds_snoc. f_equal.
      unfold adds at 1. apply fold_add1_in. intros q Hq'. apply adds_contains. right; exact Hq'.
    + apply Forall_forall. intros q Hq'. apply adds_contains in Hq' as [H|H].
      * rewrite Forall_forall in Hl. apply Hl, H.
      * destruct Hlp as [Hlp|E]; [eapply legal_prefix; eauto|subst p; destruct H].
  - intros q l' Hq. apply Hf. rewrite prefixes_snoc, in_app_iff. left; exact Hq.
  - exact Hlp.
Qed.

Lemma existsb_dotted l p : Forall legal l -> legal p ->
  is_layer_defined (map dotted l) (dotted p) = true <-> In p l.
Proof.
  intros Hl Hp. unfold is_layer_defined. rewrite existsb_exists. split.
  - intros (n & Hn & E). apply name_eqb_spec in E. apply in_map_iff in Hn as (q & <- & Hq).
    apply dotted_inj in E; [subst; exact Hq| |apply Hp].
    rewrite Forall_forall in Hl. apply (Hl _ Hq).
  - intros H. exists (dotted p). split; [apply in_map, H|]. apply name_eqb_spec; reflexivity.
Qed.

Lemma position_dotted l p : Forall legal l -> Forall legal_segment p ->
  position (fun a => name_eqb a (dotted p)) (map dotted l) =
  position (fun a => if path_dec a p then true else false) l.
Proof.
  intros Hl Hp. induction Hl as [|q l Hq Hl IH]; [reflexivity|]. simpl.
  rewrite IH. unfold name_eqb.
  destruct (list_eq_dec ascii_dec (dotted q) (dotted p)) as [E|E]; destruct (path_dec q p) as [E'|E'];
    try reflexivity; exfalso.
  - apply E', dotted_inj; auto. apply Hq.
  - subst; congruence.
Qed.

Lemma map_insert_at {A B} (f : A -> B) i x l : map f (insert_at i x l) = insert_at i (f x) (map f l).
Proof. revert l; induction i as [|i IH]; intros [|y l]; simpl; try reflexivity. f_equal. apply IH. Qed.

Lemma last_map_prefixes p s r : p = s :: r -> last (map dotted (prefixes p)) [] = dotted p.
Proof.
  intros ->. destruct (exists_last (l := s :: r)) as (q & x & E); [discriminate|].
  rewrite E, prefixes_snoc, map_app. simpl. apply last_last.
Qed.

Lemma legal_dec_nil_or p x : legal (p ++ [x]) -> legal p \/ p = [].
Proof.
  intros [_ H]. destruct p as [|s r]; [right; reflexivity|left].
  apply Forall_app in H. split; [discriminate|apply H].
Qed.

Lemma define_layer_fuel_path fuel l p :
  length p < fuel -> legal p -> Forall legal l -> closed l ->
  define_layer_fuel fuel (map dotted l) (dotted p) = Some (map dotted (adds l p)).
Proof.
  revert l p; induction fuel as [|fuel IH]; intros l p Hlen Hp Hl Hc; [lia|].
  cbn [define_layer_fuel].
  destruct (dotted p) as [|c0 rest] eqn:Ed; [exfalso; apply (legal_dotted_nonempty p Hp Ed)|].
  rewrite <- Ed. clear Ed c0 rest.
  destruct (is_layer_defined (map dotted l) (dotted p)) eqn:Hdef.
  - apply existsb_dotted in Hdef; auto. rewrite adds_in; auto.
  - assert (Hni : ~ In p l) by (intro H; apply existsb_dotted in H; auto; congruence).
    destruct (exists_last (l := p)) as (par & x & Ep); [apply Hp|]. subst p.
    rewrite parse_legal by apply Hp. cbn [parents pl_name].
    assert (Hx : legal_segment x).
    { destruct Hp as [_ Hp]. apply Forall_app in Hp as [_ Hp]. inversion Hp; assumption. }
    destruct x as [|c x]; [destruct Hx; congruence|]. set (seg := c :: x) in *.
    unfold has_parents. cbn [parents].
    destruct par as [|s r].
    + cbn [prefixes map]. rewrite adds_snoc. unfold adds; cbn [prefixes fold_left].
      destruct (add1_cases l [] seg Hni (or_introl eq_refl)) as [[_ ->]|(l1 & l2 & H & _)]; [|congruence].
      rewrite map_app. reflexivity.
    + set (par := s :: r) in *.
      assert (Hpar : legal par) by (destruct (legal_dec_nil_or _ _ Hp); [assumption|discriminate]).
      replace (match map dotted (prefixes par) with [] => false | _ :: _ => true end) with true by reflexivity.
      rewrite (for_each_prefixes (define_layer_fuel fuel) par l); auto.
      2:{ intros q l' Hq Hl' Hc'. apply IH; auto.
          - apply prefixes_spec in Hq as (_ & t & E). rewrite E, !app_length in Hlen. simpl in Hlen. lia.
          - eapply legal_prefix; eauto. }
      unfold find_insert_position. cbn [parents].
      rewrite (last_map_prefixes par s r) by reflexivity.
      assert (Hl' : Forall legal (adds l par)).
      { apply Forall_forall. intros q Hq. apply adds_contains in Hq as [H|H].
        - rewrite Forall_forall in Hl; auto.
        - eapply legal_prefix; eauto. }
      rewrite position_dotted; [|exact Hl'|apply Hpar].
      assert (Hpin : In par (adds l par)).
      { apply adds_contains. right. apply prefixes_self. discriminate. }
      rewrite adds_snoc.
      assert (Eadd : add1 (adds l par) (par ++ [seg]) = insert_before par (par ++ [seg]) (adds l par)).
      { unfold add1. destruct (in_dec path_dec (par ++ [seg]) (adds l par)) as [Hin|_].
        - exfalso. apply adds_contains in Hin as [Hin|Hin]; [tauto|].
          apply prefixes_spec in Hin as (_ & t & E). apply (f_equal (@length _)) in E.
          rewrite !app_length in E. simpl in E. lia.
        - rewrite removelast_last. reflexivity. }
      rewrite Eadd.
      unfold insert_before.
      destruct (position _ (adds l par)) as [i|] eqn:Hpos.
      * rewrite map_insert_at. reflexivity.
      * exfalso. apply position_None in Hpos. rewrite Forall_forall in Hpos.
        specialize (Hpos _ Hpin). destruct (path_dec par par); congruence.
Qed.

Lemma length_dotted p : Forall legal_segment p -> length p <= length (dotted p).
Proof.
  induction 1 as [|s r [Hs _] Hr IH]; [simpl; lia|].
  destruct r as [|s' r].
  - simpl. destruct s; [congruence|simpl; lia].
  - rewrite dotted_cons by discriminate. rewrite app_length. simpl in *. lia.
Qed.

Lemma define_layer_path l p :
  legal p -> Forall legal l -> closed l ->
  define_layer (map dotted l) (dotted p) = Some (map dotted (adds l p)).
Proof.
  intros Hp Hl Hc. apply define_layer_fuel_path; auto.
  pose proof (length_dotted p (proj2 Hp)). lia.
Qed.

Lemma define_layer_fuel_irrelevant fuel l p :
  length (dotted p) < fuel -> legal p -> Forall legal l -> closed l ->
  define_layer_fuel fuel (map dotted l) (dotted p) = define_layer (map dotted l) (dotted p).
Proof.
  intros Hf Hp Hl Hc. rewrite define_layer_path by assumption. apply define_layer_fuel_path; auto.
  pose proof (length_dotted p (proj2 Hp)). lia.
Qed.

(** ** Invariant *)

Definition Inv (ms l : list path) : Prop :=
  NoDup l /\ closed l /\ (forall p, In p l <-> In p ms) /\
  forall l1 p l2 q l3, l = l1 ++ p :: l2 ++ q :: l3 -> lower ms p q.

Lemma mentioned_before_app ms ms' a b : mentioned_before ms a b -> mentioned_before (ms ++ ms') a b.
Proof.
  intros [H (l1 & l2 & -> & Hb)]. split; [exact H|]. exists l1, (l2 ++ ms').
  split; [rewrite <- app_assoc; reflexivity|exact Hb].
Qed.

Lemma lower_app ms ms' p q : lower ms p q -> lower (ms ++ ms') p q.
Proof. intros H; inversion H; subst; constructor. apply mentioned_before_app; assumption. Qed.

Lemma mentioned_new ms a b : In a ms -> ~ In b ms -> mentioned_before ms a b.
Proof.
  intros Ha Hb. split; [intros ->; tauto|].
  apply in_split in Ha as (l1 & l2 & ->). exists l1, l2. split; [reflexivity|].
  intro H; apply Hb, in_app_iff; left; exact H.
Qed.

Lemma app_eq_cases {A} (l1 l2 m1 m2 : list A) : l1 ++ l2 = m1 ++ m2 ->
  (exists t, m1 = l1 ++ t /\ l2 = t ++ m2) \/ (exists t, l1 = m1 ++ t /\ m2 = t ++ l2).
Proof.
  revert m1; induction l1 as [|x l1 IH]; intros m1 H; simpl in *.
  - left. exists m1. auto.
  - destruct m1 as [|y m1]; simpl in *.
    + right. exists (x :: l1). auto.
    + injection H as <- H. destruct (IH m1 H) as [(t & -> & ->)|(t & -> & ->)].
      * left; exists t; auto.
      * right; exists t; auto.
Qed.

Ltac lsolve := repeat (progress (simpl; rewrite <- ?app_assoc)); try reflexivity.

(** Any pair in a sequence with one element inserted. *)
Lemma pair_insert (R : path -> path -> Prop) a b n :
  (forall l1 p l2 q l3, a ++ b = l1 ++ p :: l2 ++ q :: l3 -> R p q) ->
  (forall q, In q a -> R q n) -> (forall q, In q b -> R n q) ->
  forall l1 p l2 q l3, a ++ n :: b = l1 ++ p :: l2 ++ q :: l3 -> R p q.
Proof.
  intros HR Ha Hb l1 p l2 q l3 E.
  apply app_eq_cases in E as [(t & E1 & E2)|(t & E1 & E2)].
  - (* l1 = a ++ t *) destruct t as [|y t]; simpl in E2.
    + injection E2 as <- ->. apply Hb. apply in_elt.
    + injection E2 as <- E2. apply (HR (a ++ t) p l2 q l3). rewrite E2, <- app_assoc. reflexivity.
  - (* a = l1 ++ t *) destruct t as [|y t]; simpl in E2.
    + injection E2 as -> E2. subst b. apply Hb, in_elt.
    + injection E2 as <- E2. symmetry in E2.
      change (t ++ n :: b = l2 ++ q :: l3) in E2.
      apply app_eq_cases in E2 as [(u & E3 & E4)|(u & E3 & E4)].
      * destruct u as [|z u]; simpl in E4.
        -- injection E4 as <- ->. apply Ha. rewrite E1. apply in_elt.
        -- injection E4 as <- ->. apply (HR l1 p (t ++ u) q l3). rewrite E1. lsolve.
      * destruct u as [|z u]; simpl in E4.
        -- injection E4 as -> _. apply Ha. rewrite E1. apply in_elt.
        -- injection E4 as <- ->. apply (HR l1 p l2 q (u ++ b)). rewrite E1, E3. lsolve.
Qed.

Lemma closed_prefix l p q : closed l -> In (p ++ q) l -> p <> [] -> In p l.
Proof. intros H Hin Hp. eapply H; [exact Hin|]. apply prefixes_spec. split; [exact Hp|]. exists q; reflexivity. Qed.

(** Comparing a new child [par ++ [x]] with an element compared with [par]. *)
Lemma lower_new_left ms l par x q :
  closed l -> (forall p, In p l <-> In p ms) -> ~ In (par ++ [x]) l ->
  In q l -> lower ms q par -> lower (ms ++ [par ++ [x]]) q (par ++ [x]).
Proof.
  intros Hc Hms Hni Hq H. remember par as par0 eqn:Epar. destruct H as [p y s|c y z s t Hm].
  - subst. constructor 2 with (t := []) (s := s).
    apply mentioned_before_app, mentioned_new.
    + apply Hms. replace (par ++ y :: s) with ((par ++ [y]) ++ s) in Hq by (rewrite <- app_assoc; reflexivity).
      eapply closed_prefix; eauto. destruct par; discriminate.
    + rewrite <- Hms. exact Hni.
  - rewrite <- (app_assoc c (z :: t) [x]). simpl. constructor. apply mentioned_before_app, Hm.
Qed.

Lemma lower_new_right ms par x q :
  lower ms par q -> lower (ms ++ [par ++ [x]]) (par ++ [x]) q.
Proof.
  intros H. destruct H as [p y s|c y z s t Hm].
  - rewrite <- app_assoc. simpl. constructor.
  - rewrite <- app_assoc. simpl. constructor. apply mentioned_before_app, Hm.
Qed.

Lemma lower_top ms l x q :
  closed l -> (forall p, In p l <-> In p ms) -> ~ In [x] l ->
  In q l -> q <> [] -> lower (ms ++ [[x]]) q [x].
Proof.
  intros Hc Hms Hni Hq Hqn. destruct q as [|y s]; [congruence|].
  apply (lower_sibling _ [] y x s []). simpl.
  apply mentioned_before_app, mentioned_new.
  - apply Hms. apply (closed_prefix l [y] s); auto. discriminate.
  - rewrite <- Hms; exact Hni.
Qed.

Lemma mentioned_before_dup ms a b n : In n ms -> mentioned_before (ms ++ [n]) a b -> mentioned_before ms a b.
Proof.
  intros Hn [Hab (l1 & l2 & E & Hb)]. split; [exact Hab|].
  destruct (exists_last (l := a :: l2)) as (l2' & z & E2); [discriminate|].
  rewrite E2 in E. rewrite app_assoc in E. apply app_inj_tail in E as [E ->].
  destruct l2' as [|y l2'].
  - simpl in E2. injection E2 as -> ->. rewrite app_nil_r in E. subst ms.
    apply in_split in Hn as (k1 & k2 & ->).
    exists k1, k2. split; [reflexivity|]. intro; apply Hb, in_app_iff; left; assumption.
  - injection E2 as -> E2. exists l1, l2'. rewrite E. auto.
Qed.

Lemma Inv_add1 ms l par x :
  Inv ms l -> (par = [] \/ In par l) -> Forall (fun q => q <> []) l ->
  Inv (ms ++ [par ++ [x]]) (add1 l (par ++ [x])).
Proof.
  intros (Hnd & Hc & Hms & Hlow) Hpar Hnn.
  assert (Hc' : closed (add1 l (par ++ [x]))).
  { intros p q Hp Hq. apply add1_In in Hp; auto. apply add1_In; auto.
    destruct Hp as [->|Hp]; [|right; eapply Hc; eauto].
    rewrite prefixes_snoc, in_app_iff in Hq. destruct Hq as [Hq|[<-|[]]]; [right|left; reflexivity].
    destruct Hpar as [->|Hpar]; [destruct Hq|eapply Hc; eauto]. }
  assert (Hms' : forall p, In p (add1 l (par ++ [x])) <-> In p (ms ++ [par ++ [x]])).
  { intros p. rewrite add1_In, in_app_iff, Hms by exact Hpar. simpl. intuition. }
  destruct (in_dec path_dec (par ++ [x]) l) as [Hin|Hni].
  { split; [rewrite add1_in; auto|]. split; [exact Hc'|]. split; [exact Hms'|].
    rewrite add1_in by exact Hin. intros. apply lower_app. eapply Hlow; eauto. }
  destruct (add1_cases l par x Hni Hpar) as [[-> E]|(l1 & l2 & Hn & El & Hn1 & E)].
  - split; [|split; [exact Hc'|split; [exact Hms'|]]]; rewrite E.
    + apply (NoDup_Add (a := [x]) (l := l)); [|split; assumption].
      rewrite <- (app_nil_r l) at 1. apply (Add_app [x] l []).
    + simpl. apply pair_insert.
      * rewrite app_nil_r. intros k1 p k2 q k3 Ek. apply lower_app. exact (Hlow _ _ _ _ _ Ek).
      * intros q Hq. rewrite Forall_forall in Hnn. apply (lower_top ms l); auto.
      * intros q [].
  - split; [|split; [exact Hc'|split; [exact Hms'|]]]; rewrite E.
    + rewrite El in Hnd, Hni. apply (NoDup_Add (a := par ++ [x]) (l := l1 ++ par :: l2)); [apply Add_app|split; assumption].
    + apply pair_insert.
      * intros. apply lower_app. eapply Hlow. rewrite El; eassumption.
      * intros q Hq. apply (lower_new_left ms l); auto.
        -- rewrite El. apply in_app_iff; auto.
        -- apply in_split in Hq as (a & b & ->). apply (Hlow a q b par l2). rewrite El, <- app_assoc. reflexivity.
      * intros q [<-|Hq].
        -- constructor.
        -- apply lower_new_right. apply in_split in Hq as (a & b & ->). apply (Hlow l1 par a q b). rewrite El. reflexivity.
Qed.

Lemma Inv_adds ms l p :
  Inv ms l -> Forall (fun q => q <> []) l -> Inv (ms ++ prefixes p) (adds l p).
Proof.
  intros HI Hnn. induction p as [|x p IH] using rev_ind.
  - simpl. rewrite app_nil_r. exact HI.
  - rewrite adds_snoc, prefixes_snoc, app_assoc. apply Inv_add1; [exact IH| |].
    + destruct (path_dec p []) as [->|Hn]; [left; reflexivity|right].
      apply adds_contains. right. apply prefixes_self, Hn.
    + apply Forall_forall. intros q Hq. apply adds_contains in Hq as [Hq|Hq].
      * rewrite Forall_forall in Hnn; auto.
      * eapply prefixes_nonnil; eauto.
Qed.

Lemma mentions_legal ds p : Forall legal ds -> In p (mentions ds) -> legal p.
Proof.
  intros H Hp. unfold mentions in Hp. apply in_concat in Hp as (ps & Hps & Hp).
  apply in_map_iff in Hps as (d & <- & Hd). rewrite Forall_forall in H. eapply legal_prefix; eauto.
Qed.

Lemma mentions_app a b : mentions (a ++ b) = mentions a ++ mentions b.
Proof. unfold mentions. rewrite map_app, concat_app. reflexivity. Qed.

Lemma for_each_app {A S} (f : S -> A -> option S) a b s : for_each_opt f (a ++ b) s =
  match for_each_opt f a s with Some s' => for_each_opt f b s' | None => None end.
Proof.
  revert s; induction a as [|y a IHa]; intros s; simpl; [reflexivity|].
  destruct (f s y); [apply IHa|reflexivity].
Qed.

(** Main refinement: declarations never panic, and the list satisfies the invariant. *)
Lemma define_layers_inv ds :
  Forall legal ds ->
  exists l, define_layers (map dotted ds) [] = Some (map dotted l) /\
            Forall legal l /\ Inv (mentions ds) l.
Proof.
  induction ds as [|d ds IH] using rev_ind; intros Hleg.
  - exists []. split; [reflexivity|]. split; [constructor|].
    split; [constructor|]. split; [intros p q []|]. split; [simpl; tauto|].
    intros l1 p l2 q l3 E. destruct l1; discriminate.
  - apply Forall_app in Hleg as [Hds Hd]. inversion Hd as [|? ? Hd' _]; subst.
    destruct (IH Hds) as (l & E & Hl & HI).
    exists (adds l d). unfold define_layers in *. rewrite map_app, for_each_app, E. cbn [map for_each_opt].
    rewrite define_layer_path; [|exact Hd'|exact Hl|apply HI].
    split; [reflexivity|]. split.
    + apply Forall_forall. intros q Hq. apply adds_contains in Hq as [Hq|Hq].
      * rewrite Forall_forall in Hl; auto.
      * eapply legal_prefix; eauto.
    + rewrite mentions_app. unfold mentions at 2. cbn [map concat]. rewrite app_nil_r.
      apply Inv_adds; [exact HI|]. eapply Forall_impl; [|exact Hl]. intros q Hq; apply Hq.
Qed.

(** ** The order is asymmetric, hence the list is exactly the sorted one *)

Lemma mentioned_before_asym ms a b : mentioned_before ms a b -> ~ mentioned_before ms b a.
Proof.
  intros [Hab (l1 & l2 & E1 & Hb)] [_ (k1 & k2 & E2 & Ha)].
  rewrite E1 in E2. apply app_eq_cases in E2 as [(t & E3 & E4)|(t & E3 & E4)].
  - destruct t as [|y t]; simpl in E4; injection E4 as -> E4; [congruence|].
    apply Ha. rewrite E3. apply in_elt.
  - destruct t as [|y t]; simpl in E4; injection E4 as -> E4; [congruence|].
    apply Hb. rewrite E3. apply in_elt.
Qed.

Lemma lower_asym ms p q : lower ms p q -> ~ lower ms q p.
Proof.
  intros H. destruct H as [p y s|c y z s t Hm]; intros H.
  - remember (p ++ y :: s) as p' eqn:Ep. destruct H as [q x u|c x z u t Hm].
    + apply (f_equal (@length _)) in Ep. rewrite !app_length in Ep. simpl in Ep. lia.
    + rewrite <- app_assoc in Ep. apply app_inv_head in Ep. simpl in Ep. injection Ep as -> _.
      destruct Hm; congruence.
  - remember (c ++ z :: t) as p' eqn:Ep. remember (c ++ y :: s) as q' eqn:Eq.
    destruct H as [q x u|c' x' z' u t' Hm'].
    + subst q. rewrite <- app_assoc in Ep. apply app_inv_head in Ep. simpl in Ep. injection Ep as -> _.
      destruct Hm; congruence.
    + apply app_eq_cases in Eq as [(v & E1 & E2)|(v & E1 & E2)].
      * subst c. rewrite <- app_assoc in Ep. apply app_inv_head in Ep.
        destruct v as [|w v].
        -- simpl in *. injection E2 as -> ->. injection Ep as -> ->. rewrite app_nil_r in Hm.
           eapply mentioned_before_asym; eauto.
        -- simpl in *. injection E2 as -> E2. injection Ep as -> Ep. destruct Hm'; congruence.
      * subst c'. rewrite <- app_assoc in Ep. apply app_inv_head in Ep.
        destruct v as [|w v].
        -- simpl in *. injection E2 as -> ->. injection Ep as -> ->. rewrite app_nil_r in Hm'.
           eapply mentioned_before_asym; eauto.
        -- simpl in *. injection E2 as -> E2. injection Ep as -> Ep. destruct Hm; congruence.
Qed.

Lemma priority_dotted l p : Forall legal l -> legal p ->
  get_layer_priority (map dotted l) (dotted p) = position (fun a => if path_dec a p then true else false) l.
Proof.
  intros Hl Hp. rewrite <- position_dotted by (auto; apply Hp). unfold get_layer_priority.
  pose proof (legal_dotted_nonempty p Hp). destruct (dotted p); [congruence|reflexivity].
Qed.

Lemma priority_In l p : In p l ->
  exists l1 l2, l = l1 ++ p :: l2 /\ position (fun a => if path_dec a p then true else false) l = Some (length l1).
Proof.
  intros H. destruct (position _ l) as [i|] eqn:E.
  - apply position_Some in E as (l1 & x & l2 & -> & <- & Hx & _).
    destruct (path_dec x p) as [->|]; [|discriminate]. exists l1, l2. auto.
  - apply position_None in E. rewrite Forall_forall in E. specialize (E _ H). destruct (path_dec p p); congruence.
Qed.

Lemma layer_order_complete ds p q h :
  Forall legal ds -> define_layers (map dotted ds) [] = Some h ->
  In p (mentions ds) -> In q (mentions ds) ->
  exists i j, get_layer_priority h (dotted p) = Some i /\ get_layer_priority h (dotted q) = Some j /\
              (i < j <-> lower (mentions ds) p q) /\ (i = j <-> p = q).
Proof.
  intros Hleg E Hp Hq. destruct (define_layers_inv ds Hleg) as (l & E' & Hl & Hnd & Hc & Hms & Hlow).
  rewrite E' in E. injection E as <-.
  pose proof (mentions_legal ds p Hleg Hp) as Hpl. pose proof (mentions_legal ds q Hleg Hq) as Hql.
  rewrite (priority_dotted l p), (priority_dotted l q) by assumption.
  destruct (priority_In l p) as (a & b & El & ->); [apply Hms, Hp|].
  destruct (priority_In l q) as (c & d & El' & ->); [apply Hms, Hq|].
  exists (length a), (length c). split; [reflexivity|]. split; [reflexivity|].
  assert (Hpq : forall p q a b c d, l = a ++ p :: b -> l = c ++ q :: d -> length a < length c -> lower (mentions ds) p q).
  { clear -Hlow. intros p q a b c d El El' Hlt. rewrite El in El'.
    apply app_eq_cases in El' as [(t & E1 & E2)|(t & E1 & E2)].
    - destruct t as [|y t]; [rewrite app_nil_r in E1; subst; lia|]. simpl in E2. injection E2 as -> E2.
      apply (Hlow a y t q d). rewrite El, E2. reflexivity.
    - subst a. rewrite app_length in Hlt. lia. }
  assert (Heq : length a = length c -> p = q).
  { intros Hlen. rewrite El in El'. clear -El' Hlen.
    revert c El' Hlen; induction a as [|x a IH]; intros [|y c] E Hlen; simpl in *; try lia.
    - congruence.
    - injection E as _ E. apply (IH c); auto. }
  split; split.
  - intros Hlt. eapply Hpq; eauto.
  - intros Hl1. destruct (lt_eq_lt_dec (length a) (length c)) as [[?|Hx]|Hx]; [assumption| |].
    + exfalso. rewrite (Heq Hx) in Hl1. eapply lower_asym; eauto.
    + exfalso. eapply lower_asym; [exact Hl1|]. eapply Hpq; eauto.
  - exact Heq.
  - intros ->. rewrite El in El'. clear - El' El Hnd.
    rewrite El in Hnd. apply app_eq_cases in El' as [(t & E1 & E2)|(t & E1 & E2)].
    + destruct t as [|y t]; [rewrite app_nil_r in E1; subst; reflexivity|].
      injection E2 as <- E2. subst. exfalso. apply NoDup_remove_2 in Hnd. apply Hnd, in_app_iff. right. apply in_elt.
    + destruct t as [|y t]; [rewrite app_nil_r in E1; subst; reflexivity|].
      injection E2 as <- E2. subst. exfalso. apply NoDup_remove_2 in Hnd. apply Hnd.
      rewrite in_app_iff. left. apply in_elt.
Qed.

Lemma layers_well_formed ds :
  Forall legal ds ->
  exists h, define_layers (map dotted ds) [] = Some h /\
    NoDup h /\
    (forall n, In n h <-> exists p, In p (mentions ds) /\ n = dotted p) /\
    (forall p i, In p (mentions ds) -> get_layer_priority h (dotted p) = Some i ->
       exists u, get_layer_priority h [] = Some u /\ i < u).
Proof.
  intros Hleg. destruct (define_layers_inv ds Hleg) as (l & E & Hl & Hnd & Hc & Hms & Hlow).
  exists (map dotted l). split; [exact E|]. split; [|split].
  - clear -Hnd Hl. induction Hnd as [|p l Hp Hnd IH]; simpl; [constructor|].
    inversion Hl as [|? ? Hpl Hll]; subst. constructor; [|auto].
    intros H. apply in_map_iff in H as (q & Eq & Hq).
    apply dotted_inj in Eq; [congruence| |apply Hpl].
    rewrite Forall_forall in Hll. apply (Hll q Hq).
  - intros n. rewrite in_map_iff. split.
    + intros (p & <- & Hp). exists p. split; [apply Hms, Hp|reflexivity].
    + intros (p & Hp & ->). exists p. split; [reflexivity|apply Hms, Hp].
  - intros p i Hp. rewrite (priority_dotted l p Hl (mentions_legal ds p Hleg Hp)).
    destruct (priority_In l p) as (a & b & El & ->); [apply Hms, Hp|].
    intros H; injection H as <-. exists (length (map dotted l)). split; [reflexivity|].
    rewrite El, map_app, app_length, map_length. simpl. lia.
Qed.

(** C03 *)
Lemma add1_subseq l p x : (p = [] \/ In p l) -> subseq l (add1 l (p ++ [x])).
Proof.
  intros Hp. destruct (in_dec path_dec (p ++ [x]) l) as [H|H].
  - rewrite add1_in by exact H. apply subseq_refl.
  - destruct (add1_cases l p x H Hp) as [[-> ->]|(l1 & l2 & Hn & -> & _ & ->)].
    + rewrite <- (app_nil_r l) at 1. apply subseq_app; [apply subseq_refl|apply subseq_nil_l].
    + apply subseq_app; [apply subseq_refl|]. constructor. apply subseq_refl.
Qed.

Lemma adds_subseq l p : subseq l (adds l p).
Proof.
  induction p as [|x p IH] using rev_ind; [apply subseq_refl|].
  rewrite adds_snoc. eapply subseq_trans; [exact IH|]. apply add1_subseq.
  destruct (path_dec p []) as [->|Hn]; [left; reflexivity|right].
  apply adds_contains. right. apply prefixes_self, Hn.
Qed.

Lemma subseq_map {A B} (f : A -> B) l1 l2 : subseq l1 l2 -> subseq (map f l1) (map f l2).
Proof. induction 1; simpl; constructor; assumption. Qed.

Lemma declare_keeps_order ds p h :
  Forall legal ds -> legal p -> define_layers (map dotted ds) [] = Some h ->
  exists h', define_layer h (dotted p) = Some h' /\ subseq h h' /\
             (In p (mentions ds) -> h' = h) /\ define_layer h' (dotted p) = Some h'.
Proof.
  intros Hleg Hp E. destruct (define_layers_inv ds Hleg) as (l & E' & Hl & HI).
  rewrite E' in E. injection E as <-.
  destruct HI as (Hnd & Hc & Hms & Hlow).
  exists (map dotted (adds l p)). split; [apply define_layer_path; auto|].
  split; [apply subseq_map, adds_subseq|]. split.
  - intros H. rewrite adds_in; auto. apply Hms, H.
  - assert (Hc' := adds_closed l p Hc).
    rewrite define_layer_path; [|exact Hp| |exact Hc'].
    + rewrite (adds_in (adds l p) p); auto. apply adds_contains. right. apply prefixes_self, Hp.
    + apply Forall_forall. intros q Hq. apply adds_contains in Hq as [Hq|Hq].
      * rewrite Forall_forall in Hl; auto.
      * eapply legal_prefix; eauto.
Qed.
