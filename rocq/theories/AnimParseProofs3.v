(** Lists of values, and the order of the words: C80. *)
From Coq Require Import Ascii String NArith ZArith QArith Permutation.
From Verif Require Import Base Vars VarText Media SheetText Easing Animation AnimProps AnimParse AnimParseSpec AnimParseProofs1 AnimParseProofs2.
Open Scope nat_scope.

Lemma bang_important b : bang b <-> match b with [] => true | [_; _] => important b | _ => false end = true.
Proof.
  split.
  - intros [-> | (c & s & -> & -> & Hs)]; [reflexivity|]. cbn [important]. rewrite Hs. reflexivity.
  - destruct b as [|x [|y [|]]]; try discriminate; [left; reflexivity|]. intros H. right. destruct x as [[]| |]; try discriminate. destruct y as [[]| |]; try discriminate.
    cbn [important] in H. apply andb_prop in H as [H1 H2]. exists c, s. split; [reflexivity|]. split; [|exact H2].
    unfold is in H1. apply N.eqb_eq in H1. unfold code in H1. rewrite <- (ascii_N_embedding c), H1. reflexivity.
Qed.
Section Values.
  Context {X : Type} (parse_one : list tree -> eresult (X * list tree)) (ok : tree -> Prop) (one : list tree -> X -> Prop).
  Definition sep (l : list tree) : Prop := l = [] \/ exists x r, l = x :: r /\ (x = Leaf TComma \/ exists c, x = Leaf (TDelim c)).
  Context (A : forall l v rest, Forall ok l -> parse_one l = EOk (v, rest) -> exists used, l = used ++ rest /\ one used v)
          (B : forall used v rest, Forall ok used -> one used v -> sep rest -> parse_one (used ++ rest) = EOk (v, rest)).
  Lemma bang_sep b : bang b -> sep b.
  Proof. intros [-> | (c & s & -> & _)]; [left; reflexivity|]. right. eauto 6. Qed.
  Lemma comma_separated_sound fuel l vs rest : Forall ok l -> comma_separated_f parse_one fuel l = EOk (vs, rest) ->
    exists parts, parts <> [] /\ l = join parts ++ rest /\ Forall2 one parts vs.
  Proof.
    revert l vs; induction fuel as [|fuel IH]; intros l vs Hl; cbn [comma_separated_f]; [discriminate|].
    destruct (parse_one l) as [[v r]| |] eqn:E; try discriminate. apply A in E as (used & -> & Hu); [|exact Hl].
    assert (Hlast : EOk ([v], r) = EOk (vs, rest) -> exists parts, parts <> [] /\ used ++ r = join parts ++ rest /\ Forall2 one parts vs).
    { intros H; inversion H; subst. exists [used]. split; [discriminate|]. split; [reflexivity|]. constructor; [exact Hu|constructor]. }
    destruct r as [|x r]; [exact Hlast|]. destruct x as [x| |]; [|exact Hlast|exact Hlast]. destruct x; try exact Hlast.
    destruct (comma_separated_f parse_one fuel r) as [[vs' r']| |] eqn:E; try discriminate. intros H; inversion H; subst.
    apply IH in E as (parts & Hn & -> & Hp).
    - exists (used :: parts). split; [discriminate|]. split; [|constructor; assumption]. destruct parts; [congruence|]. cbn. rewrite <- app_assoc. reflexivity.
    - apply Forall_app in Hl as [_ Hl]. inversion Hl; assumption.
  Qed.
  Lemma comma_separated_complete parts vs b fuel : bang b -> Forall2 one parts vs -> parts <> [] -> Forall ok (join parts) -> length parts <= fuel ->
    comma_separated_f parse_one fuel (join parts ++ b) = EOk (vs, b).
  Proof.
    intros Hb H. revert fuel. induction H as [|p v parts vs Hv H IH]; intros fuel Hn Hok Hf; [congruence|].
    destruct fuel as [|fuel]; [cbn in Hf; lia|]. cbn [comma_separated_f]. destruct parts as [|p' parts].
    - inversion H; subst. cbn [join] in *. rewrite (B p v b Hok Hv (bang_sep _ Hb)).
      destruct Hb as [-> | (c & s & -> & _)]; reflexivity.
    - change (join (p :: p' :: parts)) with (p ++ Leaf TComma :: join (p' :: parts)) in *. rewrite <- app_assoc. cbn [app].
      apply Forall_app in Hok as [Hp Hok]. inversion Hok as [|? ? _ Hok']; subst.
      rewrite (B p v); [|exact Hp|exact Hv|right; eauto 6]. cbn [comma_separated_f]. rewrite IH; [reflexivity|discriminate|exact Hok'|cbn in *; lia].
  Qed.
  Lemma join_length parts : length parts <= S (length (join parts)).
  Proof.
    induction parts as [|p [|p' parts] IH]; [cbn; lia|cbn; lia|]. change (join (p :: p' :: parts)) with (p ++ Leaf TComma :: join (p' :: parts)).
    rewrite app_length. cbn [length] in *. lia.
  Qed.
  Lemma values_iff l vs : Forall ok l -> animation_values parse_one l = EOk vs <-> exists parts, comma_list parts l /\ Forall2 one parts vs.
  Proof.
    intros Hok. unfold animation_values. split.
    - destruct (comma_separated_f _ _ _) as [[vs' rest]| |] eqn:E; try discriminate. apply comma_separated_sound in E as (parts & Hn & -> & Hp); [|exact Hok].
      intros H. assert (vs' = vs /\ bang rest) as [-> Hb].
      { destruct rest as [|x [|y [|]]]; try discriminate; [inversion H; split; [reflexivity|left; reflexivity]|].
        destruct (important [x; y]) eqn:Ei; [|discriminate]. inversion H. split; [reflexivity|]. apply bang_important. exact Ei. }
      exists parts. split; [exists rest; auto|exact Hp].
    - intros (parts & (b & Hb & Hn & ->) & Hp). apply Forall_app in Hok as [Hok _].
      rewrite (comma_separated_complete parts vs b); auto.
      + apply bang_important in Hb. destruct b as [|x [|y [|]]]; try discriminate; [reflexivity|]. rewrite Hb. reflexivity.
      + rewrite app_length. pose proof (join_length parts). lia.
  Qed.
End Values.

Section LoopValues.
  Context {P : Type} (acc : P -> tree -> pvalue -> Prop) (duration delay name : P) (pick : list (P * pvalue) -> tree -> eresult (P * pvalue)).
  Context (Hpick : forall r x p v, calm x -> pick r x = EOk (p, v) <-> goes acc duration delay name r x p v) (Hcalm : forall r x, calm x -> pick r x <> EPanic).
  Context (Hcomma : forall r, pick r (Leaf TComma) = EErr) (Hdelim : forall r c, pick r (Leaf (TDelim c)) = EErr).
  Lemma loop_values_iff l rs : Forall calm l -> animation_values (loop pick []) l = EOk rs <-> exists parts, comma_list parts l /\ Forall2 (means acc duration delay name) parts rs.
  Proof.
    apply values_iff.
    - intros l' r rest Hl H. apply loop_rest in H as (used & -> & Hu). exists used. split; [reflexivity|]. apply Forall_app in Hl as [Hl _].
      specialize (Hu [] (or_introl eq_refl)). rewrite app_nil_r in Hu. eapply loop_iff in Hu; eauto.
    - intros used r rest Hu Hm Hr. eapply loop_iff in Hm; eauto. destruct Hr as [->|(x & t0 & -> & [->|[c ->]])]; [rewrite app_nil_r; exact Hm| |].
      + rewrite loop_app, Hm by exact Hcomma. reflexivity.
      + rewrite loop_app, Hm by (intros; apply Hdelim). reflexivity.
  Qed.
End LoopValues.
Lemma animation_comma r : animation_pick r (Leaf TComma) = EErr.
Proof. rewrite animation_pick_eq. unfold attempt_times, attempt. repeat match goal with |- context [if ?b then _ else _] => destruct b end; reflexivity. Qed.
Lemma animation_delim r c : animation_pick r (Leaf (TDelim c)) = EErr.
Proof. rewrite animation_pick_eq. unfold attempt_times, attempt. repeat match goal with |- context [if ?b then _ else _] => destruct b end; reflexivity. Qed.
Lemma transition_comma r : transition_pick r (Leaf TComma) = EErr.
Proof. unfold transition_pick, attempt_times, attempt. repeat match goal with |- context [if ?b then _ else _] => destruct b end; reflexivity. Qed.
Lemma transition_delim r c : transition_pick r (Leaf (TDelim c)) = EErr.
Proof. unfold transition_pick, attempt_times, attempt. repeat match goal with |- context [if ?b then _ else _] => destruct b end; reflexivity. Qed.

Lemma comma_separated_ext {X} (f g : list tree -> eresult (X * list tree)) (Q : list tree -> Prop) :
  (forall l, Q l -> f l = g l) -> (forall l v r, Q l -> f l = EOk (v, Leaf TComma :: r) -> Q r) ->
  forall fuel l, Q l -> comma_separated_f f fuel l = comma_separated_f g fuel l.
Proof.
  intros H1 H2. induction fuel as [|fuel IH]; intros l Hl; [reflexivity|]. cbn [comma_separated_f]. rewrite <- (H1 l Hl).
  destruct (f l) as [[v r]| |] eqn:E; try reflexivity. destruct r as [|x r]; [reflexivity|]. destruct x as [x| |]; try reflexivity. destruct x; try reflexivity.
  rewrite (IH r); [reflexivity|]. eapply H2; eauto.
Qed.
Lemma well_ordered_suffix a b : well_ordered (a ++ b) -> well_ordered b.
Proof. intros H l1 x y l2 s p v -> Hx Hy. apply (H (a ++ l1) x y l2 s p v); auto. rewrite <- app_assoc. reflexivity. Qed.
Lemma animation_values_loop l : Forall calm l -> well_ordered l -> animation_values (animation_shorthand []) l = animation_values (loop animation_pick []) l.
Proof.
  intros Hc Hw. unfold animation_values.
  rewrite (comma_separated_ext (animation_shorthand []) (loop animation_pick []) (fun l => Forall calm l /\ well_ordered l)); [reflexivity| | |auto].
  - intros l' [H1 H2]. apply animation_loop; assumption.
  - intros l' v r [H1 H2] H. rewrite animation_loop in H by assumption. apply loop_rest in H as (used & -> & _). apply Forall_app in H1 as [_ H1]. split.
    + inversion H1; assumption.
    + apply well_ordered_suffix in H2. change (Leaf TComma :: r) with ([Leaf TComma] ++ r) in H2. eapply well_ordered_suffix; exact H2.
Qed.
Lemma single_values_iff (parse : tree -> eresult pvalue) (acc : tree -> pvalue -> Prop) : (forall x v, calm x -> parse x = EOk v <-> acc x v) ->
  forall l vs, Forall calm l -> animation_values (single parse) l = EOk vs <-> exists parts, comma_list parts l /\ Forall2 (one_value acc) parts vs.
Proof.
  intros H l vs. apply values_iff.
  - intros l' v rest Hl. destruct l' as [|x l']; cbn [single]; [discriminate|]. destruct (parse x) as [u| |] eqn:E; try discriminate. intros H'; inversion H'; subst.
    exists [x]. split; [reflexivity|]. exists x. split; [reflexivity|]. inversion Hl; subst. apply H; assumption.
  - intros used v rest Hu (x & -> & Hx) _. cbn [app single]. inversion Hu; subst. apply H in Hx; [|assumption]. rewrite Hx. reflexivity.
Qed.

(** ** Order *)
Lemma NoDup_app_snoc {A} (l : list A) x : NoDup l -> ~ In x l -> NoDup (l ++ [x]).
Proof. intros H Hx. apply (Permutation_NoDup (Permutation_cons_append l x)). constructor; assumption. Qed.
Section Order.
  Context {P : Type} (acc : P -> tree -> pvalue -> Prop) (duration delay name : P).
  Context (T1 : forall p x v, acc p x v -> has_unit x = true -> p = duration \/ p = delay)
          (T2 : forall p x v, acc p x v -> p = duration \/ p = delay -> has_unit x = true)
          (N1 : name <> duration) (N2 : name <> delay) (N3 : duration <> delay) (pdec : forall a b : P, {a = b} + {a <> b}).
  Notation means := (means acc duration delay name).
  Inductive labels : list P -> list tree -> list (P * pvalue) -> list P -> Prop :=
  | labels_nil : forall ts, labels ts [] [] ts
  | labels_unit : forall p ts x l v r ts', has_unit x = true -> acc p x v -> labels ts l r ts' -> labels (p :: ts) (x :: l) ((p, v) :: r) ts'
  | labels_other : forall ts x l p v r ts', has_unit x = false -> acc p x v -> (p = name -> forall p' v', acc p' x v' -> p' = name) -> labels ts l r ts' ->
      labels ts (x :: l) ((p, v) :: r) ts'.
  Lemma labels_app ts l r ts1 l' r' ts2 : labels ts l r ts1 -> labels ts1 l' r' ts2 -> labels ts (l ++ l') (r ++ r') ts2.
  Proof. induction 1; intros H'; cbn; [exact H'| |]; constructor; auto. Qed.
  Lemma labels_cons ts x l r ts' : labels ts (x :: l) r ts' -> exists p v r0 ts0, r = (p, v) :: r0 /\ labels ts0 l r0 ts' /\ acc p x v /\
    ((has_unit x = true /\ ts = p :: ts0) \/ (has_unit x = false /\ ts = ts0 /\ (p = name -> forall p' v', acc p' x v' -> p' = name))).
  Proof. intros H; inversion H; subst; do 4 eexists; (split; [reflexivity|]); (split; [eassumption|]); (split; [assumption|]); auto. Qed.
  Lemma labels_app_inv l l' : forall ts r ts2, labels ts (l ++ l') r ts2 -> exists r1 r2 ts1, r = r1 ++ r2 /\ labels ts l r1 ts1 /\ labels ts1 l' r2 ts2.
  Proof.
    induction l as [|x l IH]; cbn; intros ts r ts2 H; [exists [], r, ts; repeat split; [constructor|exact H]|].
    apply labels_cons in H as (p & v & r0 & ts0 & -> & Hl & Ha & Hc). destruct (IH _ _ _ Hl) as (r1 & r2 & ts1 & -> & Hl1 & Hl2).
    exists ((p, v) :: r1), r2, ts1. split; [reflexivity|]. split; [|exact Hl2]. destruct Hc as [(Hu & ->)|(Hu & -> & Hn)]; constructor; auto.
  Qed.
  Lemma labels_move ts a x b r ts' : labels ts (a ++ x :: b) r ts' -> has_unit x = false \/ Forall (fun y => has_unit y = false) a ->
    exists c ra rb, r = ra ++ c :: rb /\ labels ts (x :: a ++ b) (c :: ra ++ rb) ts'.
  Proof.
    revert ts r; induction a as [|y a IH]; intros ts r H Hu.
    - cbn in *. pose proof H as H'. apply labels_cons in H' as (p & v & r0 & ts0 & -> & _). exists (p, v), [], r0. split; auto.
    - cbn in H. apply labels_cons in H as (p & v & r0 & ts0 & -> & Hl & Ha & Hc).
      assert (Hu' : has_unit x = false \/ Forall (fun y => has_unit y = false) a) by (destruct Hu as [Hu|Hu]; [auto|inversion Hu; auto]).
      destruct (IH _ _ Hl Hu') as (c & ra & rb & -> & Hl').
      exists c, ((p, v) :: ra), rb. split; [reflexivity|]. cbn. apply labels_cons in Hl' as (p' & v' & r1 & ts1 & E & Hl' & Ha' & Hc'). inversion E; subst; clear E.
      destruct Hc as [(Hy & ->)|(Hy & -> & Hn)]; destruct Hc' as [(Hx & ->)|(Hx & -> & Hn')].
      + destruct Hu as [Hu|Hu]; [congruence|inversion Hu; congruence].
      + constructor; auto. constructor; auto.
      + constructor; auto. constructor; auto.
      + constructor; auto. constructor; auto.
  Qed.
  Lemma filter_nil {A} (f : A -> bool) l : filter f l = [] -> Forall (fun y => f y = false) l.
  Proof. induction l as [|x l IH]; cbn; [constructor|]. destruct (f x) eqn:E; [discriminate|]. constructor; auto. Qed.
  Lemma filter_cons_inv {A} (f : A -> bool) l x t0 : filter f l = x :: t0 -> exists a b, l = a ++ x :: b /\ Forall (fun y => f y = false) a /\ filter f b = t0.
  Proof.
    induction l as [|y l IH]; cbn; [discriminate|]. destruct (f y) eqn:E.
    - intros H; inversion H; subst. exists [], l. repeat split; auto.
    - intros H. destruct (IH H) as (a & b & -> & Ha & Hb). exists (y :: a), b. repeat split; auto.
  Qed.
  Lemma filter_none {A} (f : A -> bool) l : Forall (fun y => f y = false) l -> filter f l = [].
  Proof. induction 1 as [|x l Hx Hl IH]; cbn; [reflexivity|]. rewrite Hx. exact IH. Qed.
  Lemma labels_reorder l' : forall ts l r ts', labels ts l r ts' -> reordered l l' -> exists r', labels ts l' r' ts' /\ Permutation r r'.
  Proof.
    induction l' as [|x l' IH]; intros ts l r ts' H [Hp Hf].
    - apply Permutation_sym, Permutation_nil in Hp. subst. exists r. split; [exact H|reflexivity].
    - assert (exists a b, l = a ++ x :: b /\ (has_unit x = false \/ Forall (fun y => has_unit y = false) a) /\ filter has_unit (a ++ b) = filter has_unit l') as (a & b & -> & Hu & Hf').
      { cbn in Hf. destruct (has_unit x) eqn:E.
        - destruct (filter_cons_inv _ _ _ _ Hf) as (a & b & -> & Ha & Hb). exists a, b. repeat split; auto. rewrite filter_app, Hb, (filter_none _ _ Ha). reflexivity.
        - assert (In x l) as Hin by (apply Permutation_in with (x :: l'); [symmetry; exact Hp|left; reflexivity]).
          apply in_split in Hin as (a & b & ->). exists a, b. repeat split; auto. rewrite filter_app in *. cbn in Hf. rewrite E in Hf. exact Hf. }
      destruct (labels_move _ _ _ _ _ _ H Hu) as (c & ra & rb & -> & Hl).
      assert (Hr : reordered (a ++ b) l'). { split; [|exact Hf']. apply Permutation_cons_inv with x. rewrite <- Hp. apply Permutation_middle. }
      assert (Hex : exists ts1, labels ts1 (a ++ b) (ra ++ rb) ts' /\ forall r', labels ts1 l' r' ts' -> labels ts (x :: l') (c :: r') ts').
      { inversion Hl; subst; eexists; (split; [eassumption|]); intros r' Hr'; constructor; auto. }
      destruct Hex as (ts1 & Hl1 & Hback). destruct (IH _ _ _ _ Hl1 Hr) as (r' & Hr' & Hperm). exists (c :: r'). split; [apply Hback, Hr'|].
      rewrite <- Permutation_middle. constructor. exact Hperm.
  Qed.

  Lemma means_in l r p : means l r -> In p (map fst r) -> exists l1 y l2 v, l = l1 ++ y :: l2 /\ acc p y v.
  Proof.
    intros H; induction H as [|l r x p' v Hm IH Ha Hn Hd Hname]; [intros []|]. rewrite map_app, in_app_iff. intros [Hi|[<-|[]]].
    - destruct (IH Hi) as (l1 & y & l2 & u & -> & Hy). exists l1, y, (l2 ++ [x]), u. split; [|exact Hy]. rewrite <- app_assoc. reflexivity.
    - exists l, x, [], v. auto.
  Qed.
  Definition remains (r : list (P * pvalue)) (ts : list P) : Prop :=
    (ts = [duration; delay] /\ ~ In duration (map fst r) /\ ~ In delay (map fst r)) \/
    (ts = [delay] /\ In duration (map fst r) /\ ~ In delay (map fst r)) \/
    (ts = [] /\ In duration (map fst r) /\ In delay (map fst r)).
  Lemma means_labels l r : means l r -> no_repeats acc [duration; delay; name] l -> exists ts, labels [duration; delay] l r ts /\ remains r ts.
  Proof.
    intros H; induction H as [|l r x p v Hm IH Ha Hn Hd Hname]; intros Hr; [exists [duration; delay]; split; [constructor|left; cbn; auto]|].
    destruct IH as (ts & Hl & Hrem).
    { intros l1 a l2 b l3 q u u' -> Ha1 Hb1. apply (Hr l1 a l2 b (l3 ++ [x]) q u u'); auto. rewrite <- !app_assoc. cbn. rewrite <- app_assoc. reflexivity. }
    unfold remains in *. rewrite map_app. setoid_rewrite in_app_iff. cbn [map fst In].
    destruct (has_unit x) eqn:E.
    - destruct (T1 _ _ _ Ha E) as [-> | ->].
      + destruct Hrem as [(-> & H1 & H2)|[(-> & H1 & H2)|(-> & H1 & H2)]]; try contradiction. exists [delay]. split.
        * eapply labels_app; [exact Hl|]. constructor; [exact E|exact Ha|constructor].
        * right; left. split; [reflexivity|]. split; [auto|]. intros [H'|[H'|[]]]; auto.
      + specialize (Hd eq_refl). destruct Hrem as [(-> & H1 & H2)|[(-> & H1 & H2)|(-> & H1 & H2)]]; try contradiction. exists []. split.
        * eapply labels_app; [exact Hl|]. constructor; [exact E|exact Ha|constructor].
        * right; right. auto.
    - assert (Hne : p <> duration /\ p <> delay). { split; intros ->; rewrite (T2 _ _ _ Ha) in E; try discriminate; auto. }
      destruct Hne as [H1 H2]. exists ts. split.
      + eapply labels_app; [exact Hl|]. constructor; [exact E|exact Ha| |constructor].
        intros -> p' v' Ha'. destruct (pdec p' name) as [->|np]; [reflexivity|]. exfalso.
        destruct (means_in _ _ p' Hm (Hname eq_refl _ _ np Ha')) as (l1 & y & l2 & u & -> & Hy).
        assert (Hi : In p' [duration; delay; name]).
        { apply (Hr l1 y l2 x [] p' u v'); [rewrite <- app_assoc; reflexivity|exact Hy|exact Ha']. }
        cbn in Hi. assert (has_unit x = true); [|congruence]. apply (T2 _ _ _ Ha'). destruct Hi as [Hi|[Hi|[Hi|[]]]]; [auto|auto|congruence].
      + destruct Hrem as [(-> & H3 & H4)|[(-> & H3 & H4)|(-> & H3 & H4)]]; [left|right; left|right; right]; (split; [reflexivity|]); tauto.
  Qed.
  Lemma labels_remains l r ts : labels [duration; delay] l r ts -> NoDup (map fst r) -> remains r ts /\ means l r.
  Proof.
    revert r ts; induction l as [|x l IH] using rev_ind; intros r ts H Hn.
    - inversion H; subst. split; [left; cbn; auto|constructor].
    - apply labels_app_inv in H as (r1 & r2 & ts1 & -> & H1 & H2). apply labels_cons in H2 as (p & v & r0 & ts0 & -> & H2 & Ha & Hc).
      inversion H2; subst; clear H2. rewrite map_app in Hn. cbn in Hn.
      assert (Hp : ~ In p (map fst r1)) by (apply NoDup_remove_2 in Hn; rewrite app_nil_r in Hn; exact Hn).
      apply NoDup_remove_1 in Hn. rewrite app_nil_r in Hn. destruct (IH _ _ H1 Hn) as [Hrem Hm].
      unfold remains in *. rewrite map_app. setoid_rewrite in_app_iff. cbn [map fst In].
      destruct Hc as [(Hx & ->)|(Hx & -> & Hname)].
      + destruct Hrem as [(E & H3 & H4)|[(E & H3 & H4)|(E & H3 & H4)]]; inversion E; subst.
        * split; [right; left; split; [reflexivity|]; split; [auto|]; intros [H'|[H'|[]]]; auto|]. apply means_snoc; auto; intros; congruence.
        * split; [right; right; auto|]. apply means_snoc; auto; intros; congruence.
      + assert (Hne : p <> duration /\ p <> delay). { split; intros ->; rewrite (T2 _ _ _ Ha) in Hx; try discriminate; auto. }
        destruct Hne as [H3 H4]. split; [destruct Hrem as [(-> & H5 & H6)|[(-> & H5 & H6)|(-> & H5 & H6)]]; [left|right; left|right; right]; (split; [reflexivity|]); tauto|].
        apply means_snoc; auto; [congruence|]. intros -> p' v' Hp' Ha'. elim Hp'. eapply Hname; eauto.
  Qed.
  Lemma means_nodup l r : means l r -> NoDup (map fst r).
  Proof.
    induction 1 as [|l r x p v Hm IH Ha Hn Hd Hname]; [constructor|]. rewrite map_app. cbn. apply NoDup_app_snoc; assumption.
  Qed.
  Lemma means_reorder l l' r : means l r -> no_repeats acc [duration; delay; name] l -> reordered l l' -> exists r', means l' r' /\ Permutation r r'.
  Proof.
    intros Hm Hr Ho. destruct (means_labels _ _ Hm Hr) as (ts & Hl & _). destruct (labels_reorder _ _ _ _ _ Hl Ho) as (r' & Hl' & Hp).
    exists r'. split; [|exact Hp]. eapply labels_remains; [exact Hl'|]. eapply Permutation_NoDup; [apply Permutation_map, Hp|]. apply (means_nodup _ _ Hm).
  Qed.
End Order.
