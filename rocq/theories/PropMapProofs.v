From Verif Require Import Base PropMap PropMapSpec.

Definition cnt (l : nat) (ms : list (option nat)) : nat :=
  length (filter (fun o => match o with Some x => Nat.eqb x l | None => false end) ms).

Lemma cnt_app l a b : cnt l (a ++ b) = cnt l a + cnt l b.
Proof. unfold cnt. rewrite filter_app, app_length. reflexivity. Qed.

Lemma set_nth_length {A} n (v : A) l : length (set_nth n v l) = length l.
Proof. revert n; induction l; intros [|n]; simpl; auto. Qed.
Lemma set_nth_nth {A} n (v : A) l k : nth_error (set_nth n v l) k = if Nat.eqb k n then (if Nat.ltb n (length l) then Some v else None) else nth_error l k.
Proof.
  revert n k; induction l as [|x l IH]; intros n k; simpl.
  - destruct n, k; simpl; try reflexivity; destruct (Nat.eqb k n); reflexivity.
  - destruct n, k; simpl; try reflexivity. rewrite IH. reflexivity.
Qed.
Lemma set_nth_map {A B} (f : A -> B) n v l : map f (set_nth n v l) = set_nth n (f v) (map f l).
Proof. revert n; induction l; intros [|n]; simpl; congruence. Qed.

Lemma cnt_set l m old new ms : nth_error ms m = Some old ->
  cnt l (set_nth m new ms) + (match old with Some x => if Nat.eqb x l then 1 else 0 | None => 0 end) =
  cnt l ms + (match new with Some x => if Nat.eqb x l then 1 else 0 | None => 0 end).
Proof.
  revert m; induction ms as [|x ms IH]; intros [|m] H; simpl in *; try discriminate.
  - injection H as ->. unfold cnt. simpl. destruct new as [n|], old as [o|]; simpl;
      repeat match goal with |- context [Nat.eqb ?a ?b] => destruct (Nat.eqb a b) end; simpl; lia.
  - specialize (IH m H). unfold cnt in *. simpl. destruct x as [x|]; simpl; [destruct (Nat.eqb x l); simpl|]; lia.
Qed.

Lemma cnt_zero l ms m : cnt l ms = 0 -> nth_error ms m <> Some (Some l).
Proof.
  revert m; induction ms as [|x ms IH]; intros m H E; [destruct m; discriminate|].
  destruct m; simpl in E.
  - injection E as ->. unfold cnt in H. simpl in H. rewrite Nat.eqb_refl in H. discriminate.
  - apply (IH m); [|exact E]. unfold cnt in *. simpl in H. destruct x as [x|]; [destruct (Nat.eqb x l); [discriminate|]|]; exact H.
Qed.

Lemma cnt_one l ms m m' : cnt l ms = 1 -> nth_error ms m = Some (Some l) -> nth_error ms m' = Some (Some l) -> m = m'.
Proof.
  revert m m'; induction ms as [|x ms IH]; intros m m' H E E'; [destruct m; discriminate|].
  destruct m, m'; simpl in *; [reflexivity| | |].
  - injection E as ->. exfalso. unfold cnt in H. simpl in H. rewrite Nat.eqb_refl in H. simpl in H.
    apply (cnt_zero l ms m'); [|exact E']. unfold cnt. lia.
  - injection E' as ->. exfalso. unfold cnt in H. simpl in H. rewrite Nat.eqb_refl in H. simpl in H.
    apply (cnt_zero l ms m); [|exact E]. unfold cnt. lia.
  - f_equal. apply IH; auto. unfold cnt in *. simpl in H. destruct x as [x|]; [|exact H].
    destruct (Nat.eqb x l) eqn:Ex; [|exact H]. exfalso. simpl in H.
    apply (cnt_zero l ms m); [|exact E]. unfold cnt. lia.
Qed.

Lemma unique_cnt l ms m : nth_error ms m = Some (Some l) -> (forall k, nth_error ms k = Some (Some l) -> k = m) -> cnt l ms = 1.
Proof.
  revert m; induction ms as [|x ms IH]; intros m E U; [destruct m; discriminate|].
  destruct m; simpl in E.
  - injection E as ->. unfold cnt. simpl. rewrite Nat.eqb_refl. simpl. f_equal. fold (cnt l ms).
    destruct (cnt l ms) eqn:C; [reflexivity|]. exfalso. unfold cnt in C.
    destruct (filter _ ms) as [|o r] eqn:F; [discriminate|].
    assert (Ho : In o (filter (fun o => match o with Some x => Nat.eqb x l | None => false end) ms)) by (rewrite F; left; reflexivity).
    apply filter_In in Ho. destruct Ho as [Ho Ho2]. destruct o as [y|]; [|discriminate]. apply Nat.eqb_eq in Ho2. subst y.
    apply In_nth_error in Ho. destruct Ho as [k Hk]. specialize (U (S k) Hk). discriminate.
  - assert (H : cnt l ms = 1).
    { apply (IH m E). intros k Hk. specialize (U (S k) Hk). congruence. }
    unfold cnt in *. simpl. destruct x as [y|]; [|exact H]. destruct (Nat.eqb_spec y l) as [->|]; [|exact H].
    specialize (U 0 eq_refl). discriminate.
Qed.

Section P.
  Context {T : Type} (teq : forall a b : T, {a = b} + {a <> b}) (tdefault : T).

  Definition inv (s : state T) : Prop :=
    (forall m l, nth_error (maps s) m = Some (Some l) -> l < next s) /\ (forall l, refs s l = cnt l (maps s)).

  Lemma loc_of_iff (s : state T) m l : loc_of s m = Some l <-> nth_error (maps s) m = Some (Some l).
  Proof. unfold loc_of. destruct (nth_error (maps s) m) as [[x|]|]; split; congruence. Qed.

  Lemma value_of_contents (s : state T) m : value_of (contents s) m = option_map (heap s) (loc_of s m).
  Proof.
    unfold value_of, contents, loc_of. rewrite nth_error_map. destruct (nth_error (maps s) m) as [[x|]|]; reflexivity.
  Qed.

  Lemma map_ext_nth {A B} (f g : A -> B) l : (forall i x, nth_error l i = Some x -> f x = g x) -> map f l = map g l.
  Proof.
    induction l as [|x l IH]; intros H; simpl; [reflexivity|]. f_equal; [apply (H 0); reflexivity|].
    apply IH. intros i y Hy. apply (H (S i)); exact Hy.
  Qed.

  Lemma inv_empty : inv empty_state.
  Proof. split; simpl; [intros [|m] l H; discriminate|reflexivity]. Qed.

  Lemma new_ok (s : state T) vs : inv s -> inv (new_map s vs) /\ contents (new_map s vs) = contents s ++ [Some vs].
  Proof.
    intros [H1 H2]. split; [split|].
    - simpl. intros m l H. destruct (Nat.lt_ge_cases m (length (maps s))) as [L|L].
      + rewrite nth_error_app1 in H by exact L. specialize (H1 _ _ H). lia.
      + rewrite nth_error_app2 in H by exact L. destruct (m - length (maps s)) as [|k]; simpl in H; [injection H as <-; lia|destruct k; discriminate].
    - simpl. intros l. rewrite cnt_app. unfold upd. destruct (Nat.eqb_spec l (next s)) as [->|N].
      + assert (cnt (next s) (maps s) = 0) as ->.
        { destruct (cnt (next s) (maps s)) eqn:E; [reflexivity|]. exfalso. unfold cnt in E.
          destruct (filter _ (maps s)) as [|o r] eqn:F; [discriminate|].
          assert (Ho : In o (filter (fun o => match o with Some x => Nat.eqb x (next s) | None => false end) (maps s))) by (rewrite F; left; reflexivity).
          apply filter_In in Ho. destruct Ho as [Ho Ho2]. destruct o as [x|]; [|discriminate]. apply Nat.eqb_eq in Ho2. subst x.
          apply In_nth_error in Ho. destruct Ho as [k Hk]. specialize (H1 _ _ Hk). lia. }
        unfold cnt. simpl. rewrite Nat.eqb_refl. reflexivity.
      + rewrite H2. unfold cnt at 3. simpl. destruct (Nat.eqb_spec (next s) l); [congruence|]. simpl. lia.
    - unfold contents. simpl. rewrite map_app. simpl. unfold upd at 2. rewrite Nat.eqb_refl. f_equal.
      apply map_ext_nth. intros i [x|] Hx; simpl; [|reflexivity]. f_equal. unfold upd.
      destruct (Nat.eqb_spec x (next s)); [|reflexivity]. specialize (H1 _ _ Hx). lia.
  Qed.

  Lemma clone_ok (s : state T) m l : inv s -> loc_of s m = Some l ->
    exists s', clone_map s m = Some s' /\ inv s' /\ contents s' = contents s ++ [Some (heap s l)].
  Proof.
    intros [H1 H2] Hl. unfold clone_map. rewrite Hl. eexists. split; [reflexivity|]. apply loc_of_iff in Hl.
    split; [split|]; simpl.
    - intros k x H. destruct (Nat.lt_ge_cases k (length (maps s))) as [L|L].
      + rewrite nth_error_app1 in H by exact L. eauto.
      + rewrite nth_error_app2 in H by exact L. destruct (k - length (maps s)) as [|j]; simpl in H; [injection H as <-; eauto|destruct j; discriminate].
    - intros x. rewrite cnt_app. unfold upd. unfold cnt at 2. simpl. rewrite (Nat.eqb_sym x l).
      destruct (Nat.eqb_spec l x) as [->|]; simpl; rewrite H2; lia.
    - unfold contents. simpl. rewrite map_app. reflexivity.
  Qed.

  Lemma drop_ok (s : state T) m l : inv s -> loc_of s m = Some l ->
    exists s', drop_map s m = Some s' /\ inv s' /\ contents s' = set_nth m None (contents s).
  Proof.
    intros [H1 H2] Hl. unfold drop_map. rewrite Hl. eexists. split; [reflexivity|]. apply loc_of_iff in Hl.
    split; [split|]; simpl.
    - intros k x H. rewrite set_nth_nth in H. destruct (Nat.eqb k m); [destruct (Nat.ltb _ _); discriminate|]. eauto.
    - intros x. pose proof (cnt_set x m _ None _ Hl) as Hc. simpl in Hc. unfold upd.
      destruct (Nat.eqb_spec x l) as [->|]; rewrite H2; [rewrite Nat.eqb_refl in Hc; lia|].
      destruct (Nat.eqb_spec l x); [congruence|lia].
    - unfold contents. simpl. rewrite set_nth_map. reflexivity.
  Qed.

  Lemma make_mut_ok (s : state T) m l s' l' : inv s -> loc_of s m = Some l -> make_mut s m l = (s', l') ->
    inv s' /\ contents s' = contents s /\ loc_of s' m = Some l' /\ refs s' l' = 1 /\ heap s' l' = heap s l /\
    (forall k, k <> m -> loc_of s' k = loc_of s k).
  Proof.
    intros [H1 H2] Hl H. unfold make_mut in H. pose proof Hl as Hl'. apply loc_of_iff in Hl'.
    destruct (Nat.eqb_spec (refs s l) 1) as [E|E]; injection H as <- <-; [repeat split; auto|].
    assert (Hm : m < length (maps s)) by (apply nth_error_Some; congruence).
    assert (Hn : l <> next s) by (specialize (H1 _ _ Hl'); lia).
    split; [split|]; [| |split; [|split; [|split; [|split]]]]; simpl.
    - intros k x H. rewrite set_nth_nth in H. destruct (Nat.eqb k m).
      + destruct (Nat.ltb _ _); [injection H as <-; lia|discriminate].
      + specialize (H1 _ _ H). lia.
    - intros x. pose proof (cnt_set x m _ (Some (next s)) _ Hl') as Hc. simpl in Hc. unfold upd.
      assert (Hz : cnt (next s) (maps s) = 0).
      { destruct (cnt (next s) (maps s)) eqn:C; [reflexivity|]. exfalso. unfold cnt in C.
        destruct (filter _ (maps s)) as [|o r] eqn:Fl; [discriminate|].
        assert (Ho : In o (filter (fun o => match o with Some x => Nat.eqb x (next s) | None => false end) (maps s))) by (rewrite Fl; left; reflexivity).
        apply filter_In in Ho. destruct Ho as [Ho Ho2]. destruct o as [y|]; [|discriminate]. apply Nat.eqb_eq in Ho2. subst y.
        apply In_nth_error in Ho. destruct Ho as [k Hk]. specialize (H1 _ _ Hk). lia. }
      destruct (Nat.eqb_spec x (next s)) as [->|Nx].
      + rewrite Hz, Nat.eqb_refl in Hc. destruct (Nat.eqb_spec l (next s)); [contradiction|]. lia.
      + destruct (Nat.eqb_spec (next s) x); [congruence|]. destruct (Nat.eqb_spec x l) as [->|Nl].
        * rewrite Nat.eqb_refl in Hc. rewrite H2. lia.
        * destruct (Nat.eqb_spec l x); [congruence|]. rewrite H2. lia.
    - unfold contents. simpl. rewrite set_nth_map. simpl. unfold upd at 1. rewrite Nat.eqb_refl.
      assert (G : map (option_map (upd (heap s) (next s) (heap s l))) (maps s) = map (option_map (heap s)) (maps s)).
      { apply map_ext_nth. intros i [x|] Hx; simpl; [|reflexivity]. f_equal. unfold upd.
        destruct (Nat.eqb_spec x (next s)); [|reflexivity]. specialize (H1 _ _ Hx). lia. }
      rewrite G. clear -Hl'. revert m Hl'. induction (maps s) as [|y ms IH]; intros [|m] Hl'; simpl in *; try discriminate.
      + injection Hl' as ->. reflexivity.
      + f_equal. apply IH. exact Hl'.
    - apply loc_of_iff. simpl. rewrite set_nth_nth, Nat.eqb_refl. apply Nat.ltb_lt in Hm. rewrite Hm. reflexivity.
    - unfold upd. rewrite Nat.eqb_refl. reflexivity.
    - unfold upd. rewrite Nat.eqb_refl. reflexivity.
    - intros k Hk. unfold loc_of. simpl. rewrite set_nth_nth. apply Nat.eqb_neq in Hk. rewrite Hk. reflexivity.
  Qed.

  Lemma set_ok (s : state T) m i v : inv s ->
    match set_map s m i v with
    | None => write (contents s) m i v = None
    | Some s' => inv s' /\ write (contents s) m i v = Some (contents s') /\ (forall k, k <> m -> loc_of s' k = loc_of s k)
    end.
  Proof.
    intros Hi. unfold set_map, write. rewrite value_of_contents. destruct (loc_of s m) as [l|] eqn:Hl; simpl; [|reflexivity].
    destruct (make_mut s m l) as [s' l'] eqn:Hm. destruct (make_mut_ok s m l s' l' Hi Hl Hm) as ((I1 & I2) & C & Lm & R & Hh & Ho).
    rewrite Hh. destruct (Nat.ltb i (length (heap s l))); [|reflexivity].
    split; [split; simpl; assumption|]. split; [|exact Ho]. f_equal. rewrite <- C. unfold contents. simpl.
    apply loc_of_iff in Lm. rewrite I2 in R.
    assert (G : forall k x, nth_error (maps s') k = Some (Some x) -> x = l' -> k = m).
    { intros k x Hk ->. eapply cnt_one; eauto. }
    clear -G Lm. revert m Lm G. induction (maps s') as [|y ms IH]; intros [|m] Lm G; simpl in *; try discriminate.
    - injection Lm as ->. f_equal; [simpl; unfold upd; rewrite Nat.eqb_refl; reflexivity|].
      apply map_ext_nth. intros k [x|] Hx; simpl; [|reflexivity]. f_equal. unfold upd.
      destruct (Nat.eqb_spec x l') as [E|E]; [|reflexivity]. specialize (G (S k) x Hx E). discriminate.
    - f_equal.
      + destruct y as [x|]; simpl; [|reflexivity]. f_equal. unfold upd. destruct (Nat.eqb_spec x l') as [E|E]; [|reflexivity].
        specialize (G 0 x eq_refl E). discriminate.
      + apply IH; [exact Lm|]. intros k x Hk Ex. specialize (G (S k) x Hk Ex). congruence.
  Qed.

  Lemma get_ok (s : state T) m i : get_map s m i = read (contents s) m i.
  Proof. unfold get_map, read. rewrite value_of_contents. destruct (loc_of s m); reflexivity. Qed.

  Lemma step_ok (s : state T) o : inv s ->
    option_map (fun r => (contents (fst r), snd r)) (step teq tdefault s o) = spec_step teq tdefault (contents s) o /\
    (forall s' x, step teq tdefault s o = Some (s', x) -> inv s').
  Proof.
    intros Hi. destruct o as [vs|m|m|m i v|m i v|m i|m kvs|m i]; simpl.
    - destruct (new_ok s vs Hi) as [A B]. rewrite B. split; [reflexivity|]. intros s' x H. injection H as <- _. exact A.
    - rewrite value_of_contents. destruct (loc_of s m) as [l|] eqn:Hl.
      + destruct (clone_ok s m l Hi Hl) as (s' & E & A & B). rewrite E. simpl. rewrite B. split; [reflexivity|].
        intros ? ? H. injection H as <- _. exact A.
      + unfold clone_map. rewrite Hl. simpl. split; [reflexivity|discriminate].
    - rewrite value_of_contents. destruct (loc_of s m) as [l|] eqn:Hl.
      + destruct (drop_ok s m l Hi Hl) as (s' & E & A & B). rewrite E. simpl. rewrite B. split; [reflexivity|].
        intros ? ? H. injection H as <- _. exact A.
      + unfold drop_map. rewrite Hl. simpl. split; [reflexivity|discriminate].
    - pose proof (set_ok s m i v Hi) as H. destruct (set_map s m i v) as [s'|]; simpl.
      + destruct H as (A & B & _). rewrite B. split; [reflexivity|]. intros ? ? H. injection H as <- _. exact A.
      + rewrite H. split; [reflexivity|discriminate].
    - unfold set_if_neq_map. rewrite get_ok. destruct (read (contents s) m i) as [old|]; simpl; [|split; [reflexivity|discriminate]].
      destruct (teq old v); simpl; [split; [reflexivity|]; intros ? ? H; injection H as <- _; exact Hi|].
      pose proof (set_ok s m i v Hi) as H. destruct (set_map s m i v) as [s'|]; simpl.
      + destruct H as (A & B & _). rewrite B. split; [reflexivity|]. intros ? ? H. injection H as <- _. exact A.
      + rewrite H. split; [reflexivity|discriminate].
    - unfold take_map. rewrite get_ok. destruct (read (contents s) m i) as [old|]; simpl; [|split; [reflexivity|discriminate]].
      pose proof (set_ok s m i tdefault Hi) as H. destruct (set_map s m i tdefault) as [s'|]; simpl.
      + destruct H as (A & B & _). rewrite B. split; [reflexivity|]. intros ? ? H. injection H as <- _. exact A.
      + rewrite H. split; [reflexivity|discriminate].
    - assert (G : forall s, inv s -> option_map contents (extend_map s m kvs) = writes (contents s) m kvs /\
                   (forall s', extend_map s m kvs = Some s' -> inv s')).
      { clear s Hi. induction kvs as [|[i v] kvs IH]; intros s Hi; simpl; [split; [reflexivity|intros s' H; injection H as <-; exact Hi]|].
        pose proof (set_ok s m i v Hi) as H. destruct (set_map s m i v) as [s'|].
        - destruct H as (A & B & _). rewrite B. apply IH. exact A.
        - rewrite H. split; [reflexivity|discriminate]. }
      destruct (G s Hi) as [A B]. rewrite <- A. split.
      + destruct (extend_map s m kvs); reflexivity.
      + intros s' x H. destruct (extend_map s m kvs) as [s1|] eqn:E; simpl in H; [|discriminate]. injection H as <- _. auto.
    - rewrite get_ok. split; [destruct (read (contents s) m i); reflexivity|].
      intros s' x H. destruct (read (contents s) m i); simpl in H; [|discriminate]. injection H as <- _. exact Hi.
  Qed.

  Lemma run_ok os : forall s : state T, inv s ->
    option_map (fun r => (contents (fst r), snd r)) (run teq tdefault s os) = spec_run teq tdefault (contents s) os /\
    (forall s' x, run teq tdefault s os = Some (s', x) -> inv s').
  Proof.
    induction os as [|o os IH]; intros s Hi; simpl; [split; [reflexivity|intros s' x H; injection H as <- _; exact Hi]|].
    destruct (step_ok s o Hi) as [A B]. rewrite <- A. destruct (step teq tdefault s o) as [[s1 x]|]; simpl; [|split; [reflexivity|discriminate]].
    destruct (IH s1 (B _ _ eq_refl)) as [C D]. rewrite <- C. split.
    - destruct (run teq tdefault s1 os) as [[s2 xs]|]; reflexivity.
    - intros s' y H. destruct (run teq tdefault s1 os) as [[s2 xs]|] eqn:E; simpl in H; [|discriminate]. injection H as <- _. eauto.
  Qed.

  (** ** sharing *)
  Lemma set_splits (s s' : state T) m i v k : inv s -> set_map s m i v = Some s' -> k <> m -> loc_of s k <> None ->
    ptr_eq s' m k = Some false.
  Proof.
    intros Hi H Hk Hn. unfold set_map in H. destruct (loc_of s m) as [l|] eqn:Hl; [|discriminate].
    destruct (make_mut s m l) as [s1 l1] eqn:Hm. destruct (make_mut_ok s m l s1 l1 Hi Hl Hm) as ((I1 & I2) & _ & Lm & R & _ & Ho).
    destruct (Nat.ltb _ _); [|discriminate]. injection H as <-. unfold ptr_eq, loc_of. simpl.
    pose proof (Ho k Hk) as Hko. apply loc_of_iff in Lm. rewrite Lm. unfold loc_of in Hko, Hn.
    destruct (nth_error (maps s1) k) as [[x|]|] eqn:Ek; try (exfalso; apply Hn; symmetry; exact Hko).
    f_equal. destruct (Nat.eqb_spec l1 x) as [<-|]; [|reflexivity]. exfalso. apply Hk.
    rewrite I2 in R. symmetry. exact (cnt_one l1 (maps s1) m k R Lm Ek).
  Qed.

  Lemma ptr_eq_contents (s : state T) a b : ptr_eq s a b = Some true -> value_of (contents s) a = value_of (contents s) b.
  Proof.
    unfold ptr_eq. rewrite !value_of_contents. destruct (loc_of s a), (loc_of s b); try discriminate. simpl.
    intros H. injection H as H. apply Nat.eqb_eq in H. congruence.
  Qed.

  (** ** references *)
  Lemma live_pos (s : state T) m l : inv s -> loc_of s m = Some l -> refs s l > 0.
  Proof.
    intros [_ I] H. rewrite I. apply loc_of_iff in H. destruct (cnt l (maps s)) eqn:E; [|lia].
    exfalso. exact (cnt_zero l (maps s) m E H).
  Qed.

  Lemma loc_new (s : state T) vs k : k < length (maps s) -> loc_of (new_map s vs) k = loc_of s k.
  Proof. intros H. unfold loc_of. simpl. rewrite nth_error_app1 by exact H. reflexivity. Qed.
  Lemma loc_lt (s : state T) k l : loc_of s k = Some l -> k < length (maps s).
  Proof. intros H. apply loc_of_iff in H. apply nth_error_Some. congruence. Qed.

  Lemma loc_step_other (s s' : state T) o x k l : inv s -> loc_of s k = Some l ->
    (match o with ONew _ => True | OClone m | OGet m _ => True | ODrop m | OSet m _ _ | OTake m _ | OExtend m _ | OSetIfNeq m _ _ => m <> k end) ->
    step teq tdefault s o = Some (s', x) -> loc_of s' k = Some l.
  Proof.
    intros Hi Hl Hk H. pose proof (loc_lt _ _ _ Hl) as Hlt.
    assert (G : forall s1 s2 m i v, inv s1 -> m <> k -> loc_of s1 k = Some l -> set_map s1 m i v = Some s2 -> inv s2 /\ loc_of s2 k = Some l).
    { intros s1 s2 m i v I N L E. pose proof (set_ok s1 m i v I) as K. rewrite E in K. destruct K as (A & _ & B).
      split; [exact A|]. rewrite B by auto. exact L. }
    destruct o as [vs|m|m|m i v|m i v|m i|m kvs|m i]; simpl in H.
    - injection H as <- _. rewrite loc_new by exact Hlt. exact Hl.
    - unfold clone_map in H. destruct (loc_of s m); simpl in H; [|discriminate]. injection H as <- _.
      unfold loc_of. simpl. rewrite nth_error_app1 by exact Hlt. exact Hl.
    - unfold drop_map in H. destruct (loc_of s m); simpl in H; [|discriminate]. injection H as <- _.
      unfold loc_of. simpl. rewrite set_nth_nth. destruct (Nat.eqb_spec k m); [congruence|]. exact Hl.
    - destruct (set_map s m i v) as [s1|] eqn:E; simpl in H; [|discriminate]. injection H as <- _. exact (proj2 (G _ _ _ _ _ Hi Hk Hl E)).
    - unfold set_if_neq_map in H. destruct (get_map s m i); simpl in H; [|discriminate]. destruct (teq t v); simpl in H.
      + injection H as <- _. exact Hl.
      + destruct (set_map s m i v) as [s1|] eqn:E; simpl in H; [|discriminate]. injection H as <- _. exact (proj2 (G _ _ _ _ _ Hi Hk Hl E)).
    - unfold take_map in H. destruct (get_map s m i); simpl in H; [|discriminate].
      destruct (set_map s m i tdefault) as [s1|] eqn:E; simpl in H; [|discriminate]. injection H as <- _. exact (proj2 (G _ _ _ _ _ Hi Hk Hl E)).
    - destruct (extend_map s m kvs) as [s1|] eqn:E; simpl in H; [|discriminate]. injection H as <- _.
      clear Hlt. revert s Hi Hl E. induction kvs as [|[i v] kvs IH]; intros s Hi Hl E; simpl in E; [injection E as <-; exact Hl|].
      destruct (set_map s m i v) as [s2|] eqn:E2; [|discriminate]. destruct (G _ _ _ _ _ Hi Hk Hl E2) as [A B]. eauto.
    - destruct (get_map s m i); simpl in H; [|discriminate]. injection H as <- _. exact Hl.
  Qed.

  (** only map [k] holds cell [l] *)
  Definition sole (s : state T) (k l : nat) : Prop := inv s /\ loc_of s k = Some l /\ refs s l = 1.

  Lemma sole_unique s k l j : sole s k l -> loc_of s j = Some l -> j = k.
  Proof.
    intros (I & L & R) H. destruct I as [_ I]. rewrite I in R. apply loc_of_iff in L. apply loc_of_iff in H.
    exact (cnt_one l (maps s) j k R H L).
  Qed.

  Lemma set_sole_refs (s s' : state T) m i v k l : sole s k l -> m <> k -> set_map s m i v = Some s' -> sole s' k l.
  Proof.
    intros S N E. pose proof S as (I & L & R). pose proof (set_ok s m i v I) as K. rewrite E in K. destruct K as (A & _ & B).
    split; [exact A|]. split; [rewrite B by auto; exact L|].
    unfold set_map in E. destruct (loc_of s m) as [lm|] eqn:Lm; [|discriminate].
    assert (lm <> l) by (intros ->; apply N; eapply sole_unique; eauto).
    assert (l <> next s). { destruct I as [I1 _]. apply loc_of_iff in L. specialize (I1 _ _ L). lia. }
    unfold make_mut in E. destruct (Nat.eqb (refs s lm) 1); simpl in E;
      (destruct (Nat.ltb _ _); [|discriminate]); injection E as <-; simpl; [exact R|].
    unfold upd. destruct (Nat.eqb_spec l (next s)); [congruence|]. destruct (Nat.eqb_spec l lm); [congruence|exact R].
  Qed.

  Lemma set_sole_self (s s' : state T) i v k l : sole s k l -> set_map s k i v = Some s' -> sole s' k l.
  Proof.
    intros S E. pose proof S as (I & L & R). pose proof (set_ok s k i v I) as K. rewrite E in K. destruct K as (A & _ & _).
    split; [exact A|]. unfold set_map in E. rewrite L in E. unfold make_mut in E. rewrite R, Nat.eqb_refl in E.
    destruct (Nat.ltb _ _); [|discriminate]. injection E as <-. split; [exact L|exact R].
  Qed.

  Lemma step_sole (s s' : state T) o x r : sole s (r_map r) (r_loc r) -> allowed_while r o = true ->
    step teq tdefault s o = Some (s', x) -> sole s' (r_map r) (r_loc r).
  Proof.
    set (k := r_map r). set (l := r_loc r). intros S Ha H. pose proof S as (I & L & R).
    pose proof (proj2 (step_ok s o I) _ _ H) as I'.
    assert (NN : l <> next s). { destruct I as [I1 _]. apply loc_of_iff in L. specialize (I1 _ _ L). lia. }
    pose proof (loc_lt _ _ _ L) as Hlt.
    destruct o as [vs|m|m|m i v|m i v|m i|m kvs|m i]; simpl in Ha; fold k in Ha;
      try (apply negb_true_iff, Nat.eqb_neq in Ha); simpl in H.
    - injection H as <- _. split; [exact I'|]. split; [rewrite loc_new by exact Hlt; exact L|].
      simpl. unfold upd. destruct (Nat.eqb_spec l (next s)); [congruence|exact R].
    - unfold clone_map in H. destruct (loc_of s m) as [lm|] eqn:Lm; simpl in H; [|discriminate]. injection H as <- _.
      split; [exact I'|]. split; [unfold loc_of; simpl; rewrite nth_error_app1 by exact Hlt; exact L|].
      simpl. unfold upd. destruct (Nat.eqb_spec l lm) as [<-|]; [|exact R]. exfalso. apply Ha. exact (sole_unique _ _ _ _ S Lm).
    - unfold drop_map in H. destruct (loc_of s m) as [lm|] eqn:Lm; simpl in H; [|discriminate]. injection H as <- _.
      split; [exact I'|]. split; [unfold loc_of; simpl; rewrite set_nth_nth; destruct (Nat.eqb_spec k m); [congruence|exact L]|].
      simpl. unfold upd. destruct (Nat.eqb_spec l lm) as [<-|]; [|exact R]. exfalso. apply Ha. exact (sole_unique _ _ _ _ S Lm).
    - destruct (set_map s m i v) as [s1|] eqn:E; simpl in H; [|discriminate]. injection H as <- _. exact (set_sole_refs _ _ _ _ _ _ _ S Ha E).
    - unfold set_if_neq_map in H. destruct (get_map s m i); simpl in H; [|discriminate]. destruct (teq t v); simpl in H; [injection H as <- _; exact S|].
      destruct (set_map s m i v) as [s1|] eqn:E; simpl in H; [|discriminate]. injection H as <- _.
      destruct (Nat.eq_dec m k) as [->|N]; [exact (set_sole_self _ _ _ _ _ _ S E)|exact (set_sole_refs _ _ _ _ _ _ _ S N E)].
    - unfold take_map in H. destruct (get_map s m i); simpl in H; [|discriminate].
      destruct (set_map s m i tdefault) as [s1|] eqn:E; simpl in H; [|discriminate]. injection H as <- _. exact (set_sole_refs _ _ _ _ _ _ _ S Ha E).
    - destruct (extend_map s m kvs) as [s1|] eqn:E; simpl in H; [|discriminate]. injection H as <- _.
      clear I' Hlt I L R NN. revert s S E. induction kvs as [|[i v] kvs IH]; intros s S E; simpl in E; [injection E as <-; exact S|].
      destruct (set_map s m i v) as [s2|] eqn:E2; [|discriminate]. eapply IH; [exact (set_sole_refs _ _ _ _ _ _ _ S Ha E2)|exact E].
    - destruct (get_map s m i); simpl in H; [|discriminate]. injection H as <- _. exact S.
  Qed.

  Lemma run_sole os r : forall (s s' : state T) outs, sole s (r_map r) (r_loc r) -> forallb (allowed_while r) os = true ->
    run teq tdefault s os = Some (s', outs) -> sole s' (r_map r) (r_loc r).
  Proof.
    induction os as [|o os IH]; intros s s' outs S Ha H; simpl in *; [injection H as <- _; exact S|].
    apply andb_true_iff in Ha. destruct Ha as [Ha1 Ha2]. destruct (step teq tdefault s o) as [[s1 x]|] eqn:E; [|discriminate].
    destruct (run teq tdefault s1 os) as [[s2 xs]|] eqn:E2; simpl in H; [|discriminate]. injection H as <- _.
    eapply IH; [exact (step_sole _ _ _ _ _ S Ha1 E)|exact Ha2|exact E2].
  Qed.

  Definition untouched (k : nat) (o : op T) : Prop :=
    match o with ONew _ => True | OClone m | OGet m _ | ODrop m | OSet m _ _ | OTake m _ | OExtend m _ | OSetIfNeq m _ _ => m <> k end.
  Lemma run_untouched os k l : forall (s s' : state T) outs, inv s -> loc_of s k = Some l -> Forall (untouched k) os ->
    run teq tdefault s os = Some (s', outs) -> inv s' /\ loc_of s' k = Some l.
  Proof.
    induction os as [|o os IH]; intros s s' outs I L Hf H; simpl in *; [injection H as <- _; auto|].
    inversion Hf as [|? ? H1 H2]; subst. destruct (step teq tdefault s o) as [[s1 x]|] eqn:E; [|discriminate].
    destruct (run teq tdefault s1 os) as [[s2 xs]|] eqn:E2; simpl in H; [|discriminate]. injection H as <- _.
    refine (IH s1 s2 xs (proj2 (step_ok s o I) _ _ E) _ H2 E2).
    refine (loc_step_other s s1 o x k l I L _ E). destruct o; simpl in *; auto.
  Qed.
End P.
