From Verif Require Import Base Inherit Registry RegistrySpec.

Lemma lookup_app {A} k (a b : list (name * A)) : lookup k (a ++ b) = match lookup k a with Some v => Some v | None => lookup k b end.
Proof. unfold lookup. induction a as [|x a IH]; simpl; [reflexivity|]. destruct (Nat.eqb (fst x) k); simpl; [reflexivity|exact IH]. Qed.
Lemma lookup_None {A} k (l : list (name * A)) : lookup k l = None <-> ~ In k (map fst l).
Proof.
  unfold lookup. induction l as [|x l IH]; simpl; [tauto|]. destruct (Nat.eqb_spec (fst x) k); simpl; [split; [discriminate|tauto]|].
  rewrite IH. tauto.
Qed.
Lemma lookup_In {A} k (v : A) l : NoDup (map fst l) -> (lookup k l = Some v <-> In (k, v) l).
Proof.
  unfold lookup. induction l as [|[x y] l IH]; simpl; intros H; [split; [discriminate|tauto]|]. inversion H; subst.
  destruct (Nat.eqb_spec x k) as [->|N]; simpl.
  - split; [intros E; injection E as ->; left; reflexivity|]. intros [E|E]; [injection E as ->; reflexivity|].
    exfalso. apply H2. apply (in_map fst) in E. exact E.
  - rewrite IH by assumption. split; [tauto|]. intros [E|E]; [congruence|exact E].
Qed.

Section P.
  Context {V : Type}.

  Definition names_of (ps : list (name * V)) : list (name * nat) := combine (map fst ps) (seq 0 (length ps)).
  (** the registry's maps are determined by the list of properties *)
  Definition ok (r : registry V) : Prop :=
    canonical_names r = names_of (properties r) /\ NoDup (map fst (properties r)) /\ length (unset_values r) = length (properties r).

  Lemma names_of_snoc ps (p : name * V) : names_of (ps ++ [p]) = names_of ps ++ [(fst p, length ps)].
  Proof.
    unfold names_of. rewrite map_app, app_length. simpl. rewrite seq_app. simpl.
    assert (G : forall (a b : list nat) x y, length a = length b -> combine (a ++ [x]) (b ++ [y]) = combine a b ++ [(x, y)]).
    { induction a as [|a0 a IH]; intros [|b0 b] x y H; simpl in *; try discriminate; [reflexivity|]. f_equal. apply IH. lia. }
    apply G. rewrite map_length, seq_length. reflexivity.
  Qed.
  Lemma names_of_fst ps : map fst (names_of ps) = map fst ps.
  Proof.
    unfold names_of. assert (G : forall (a : list nat) k, map fst (combine a (seq k (length a))) = a).
    { induction a as [|x a IH]; intros k; simpl; [reflexivity|]. f_equal. apply IH. }
    rewrite <- (map_length fst ps). apply G.
  Qed.
  Lemma names_of_In ps k i : In (k, i) (names_of ps) <-> nth_error (map fst ps) i = Some k.
  Proof.
    unfold names_of. rewrite <- (map_length fst ps).
    assert (G : forall (a : list nat) j, In (k, i) (combine a (seq j (length a))) <-> j <= i /\ nth_error a (i - j) = Some k).
    { induction a as [|x a IH]; intros j; simpl; [split; [tauto|]; intros [_ H]; destruct (i - j); discriminate|].
      rewrite IH. split.
      - intros [H|[H1 H2]].
        + injection H as -> ->. split; [lia|]. rewrite Nat.sub_diag. reflexivity.
        + split; [lia|]. replace (i - j) with (S (i - S j)) by lia. exact H2.
      - intros [H1 H2]. destruct (i - j) as [|d] eqn:E.
        + left. simpl in H2. injection H2 as ->. f_equal. lia.
        + right. split; [lia|]. replace (i - S j) with d by lia. exact H2. }
    rewrite G. rewrite Nat.sub_0_r. intuition lia.
  Qed.

  Lemma ok_resolve r k i : ok r -> (resolve r (RefName k) = Some i <-> nth_error (map fst (properties r)) i = Some k).
  Proof.
    intros (E & N & _). simpl. rewrite E. rewrite lookup_In; [apply names_of_In|]. rewrite names_of_fst. exact N.
  Qed.
  Lemma ok_lookup_None r k : ok r -> (lookup k (canonical_names r) = None <-> ~ In k (map fst (properties r))).
  Proof. intros (E & _). rewrite lookup_None, E, names_of_fst. reflexivity. Qed.

  Lemma register_all_spec ps : forall r, ok r ->
    match register_all r ps with
    | Some r' => ok r' /\ properties r' = properties r ++ ps /\ registrations r' = registrations r /\
                 (exists u, unset_values r' = unset_values r ++ u)
    | None => ~ NoDup (map fst (properties r ++ ps))
    end.
  Proof.
    induction ps as [|p ps IH]; intros r Hr; simpl.
    - rewrite app_nil_r. split; [exact Hr|]. split; [reflexivity|]. split; [reflexivity|]. exists []. rewrite app_nil_r. reflexivity.
    - unfold register_one. destruct (lookup (fst p) (canonical_names r)) eqn:E.
      + rewrite map_app. simpl. intros N. apply NoDup_remove_2 in N. apply N. apply in_or_app. left.
        destruct (in_dec Nat.eq_dec (fst p) (map fst (properties r))) as [H|H]; [exact H|].
        apply (ok_lookup_None r) in H; [congruence|exact Hr].
      + pose proof Hr as (H1 & H2 & H3). apply (ok_lookup_None r) in E; [|exact Hr].
        set (r1 := mk_registry _ _ _ _).
        assert (Hr1 : ok r1).
        { split; [simpl; rewrite names_of_snoc, H1; reflexivity|]. split; [|simpl; rewrite !app_length, H3; reflexivity].
          simpl. rewrite map_app. simpl. apply (NoDup_Add (a := fst p) (l := map fst (properties r))); [|split; assumption].
          rewrite <- (app_nil_r (map fst (properties r))) at 1. apply Add_app. }
        specialize (IH r1 Hr1). destruct (register_all r1 ps) as [r'|].
        * destruct IH as (A & B & C & u & D). split; [exact A|]. simpl in B. rewrite <- app_assoc in B. split; [exact B|].
          split; [exact C|]. exists (PNone :: u). simpl in D. rewrite <- app_assoc in D. exact D.
        * simpl in IH. rewrite <- app_assoc in IH. exact IH.
  Qed.

  Lemma replace_length {A} i (v : A) l : length (replace_nth i v l) = length l.
  Proof. revert i; induction l; intros [|i]; simpl; auto. Qed.
  Lemma replace_nth_nth {A} i (v : A) l k : nth_error (replace_nth i v l) k = if Nat.eqb k i then (if Nat.ltb i (length l) then Some v else None) else nth_error l k.
  Proof.
    revert i k; induction l as [|x l IH]; intros i k; simpl.
    - destruct i, k; simpl; try reflexivity; destruct (Nat.eqb k i); reflexivity.
    - destruct i, k; simpl; try reflexivity. rewrite IH. reflexivity.
  Qed.

  Lemma step_spec r o r' : ok r -> reg_step r o = Some r' -> ok r' /\ properties r' = properties r ++ registered_by o.
  Proof.
    intros Hr H. destruct o as [ps|ty ps|p v]; simpl in *.
    - unfold register_properties in H. pose proof (register_all_spec ps r Hr) as S. destruct (register_all r ps) as [r1|]; [|discriminate].
      simpl in H. injection H as <-. tauto.
    - unfold register_component, register_properties in H. pose proof (register_all_spec ps r Hr) as S. destruct (register_all r ps) as [r1|]; [|discriminate].
      destruct (existsb _ _); [discriminate|]. injection H as <-. destruct S as ((A1 & A2 & A3) & B & _). split; [split; [exact A1|split; assumption]|exact B].
    - unfold set_unset_value in H. destruct (resolve r p); [|discriminate]. destruct (Nat.ltb _ _); [|discriminate]. injection H as <-.
      destruct Hr as (A & B & C). rewrite app_nil_r. split; [|reflexivity]. split; [exact A|]. split; [exact B|]. simpl. rewrite replace_length. exact C.
  Qed.

  Lemma run_spec os : forall r r', ok r -> reg_run r os = Some r' -> ok r' /\ properties r' = properties r ++ registered os.
  Proof.
    induction os as [|o os IH]; intros r r' Hr H; simpl in H.
    - injection H as <-. unfold registered. simpl. rewrite app_nil_r. auto.
    - destruct (reg_step r o) as [r1|] eqn:E; [|discriminate]. destruct (step_spec r o r1 Hr E) as [A B].
      destruct (IH r1 r' A H) as [C D]. split; [exact C|]. unfold registered in *. simpl. rewrite D, B, app_assoc. reflexivity.
  Qed.

  Lemma ok_empty : ok (@empty_registry V).
  Proof. split; [reflexivity|]. split; [constructor|reflexivity]. Qed.

  Lemma run_app a b : forall r : registry V, reg_run r (a ++ b) = match reg_run r a with Some r' => reg_run r' b | None => None end.
  Proof. induction a as [|o a IH]; intros r; simpl; [reflexivity|]. destruct (reg_step r o); [apply IH|reflexivity]. Qed.

  (** ** unset values *)
  Lemma register_all_unset ps : forall r r' : registry V, register_all r ps = Some r' -> unset_values r' = unset_values r ++ repeat PNone (length ps).
  Proof.
    induction ps as [|p ps IH]; intros r r' H; simpl in *; [injection H as <-; rewrite app_nil_r; reflexivity|].
    unfold register_one in H. destruct (lookup _ _); [discriminate|]. rewrite (IH _ _ H). simpl. rewrite <- app_assoc. reflexivity.
  Qed.

  Lemma last_unset_snoc (all os : list (reg_op V)) o i : last_unset all (os ++ [o]) i =
    match o with SetUnset p v => if refers all p i then v else last_unset all os i | _ => last_unset all os i end.
  Proof. unfold last_unset. rewrite fold_left_app. reflexivity. Qed.

  Lemma run_unset (os : list (reg_op V)) : forall all r, (exists tl, all = os ++ tl) -> NoDup (map fst (registered all)) ->
    reg_run empty_registry os = Some r ->
    forall i, i < length (registered os) -> nth_error (unset_values r) i = Some (last_unset all os i).
  Proof.
    revert os. assert (OUT : forall (os all : list (reg_op V)) r, (exists tl, all = os ++ tl) -> NoDup (map fst (registered all)) ->
      reg_run empty_registry os = Some r -> forall i, length (registered os) <= i -> last_unset all os i = @PNone V).
    { intros os. induction os as [|o os IH] using rev_ind; intros all r [tl Hall] Hnd H i Hi; [reflexivity|].
      rewrite run_app in H. destruct (reg_run empty_registry os) as [r0|] eqn:E0; [|discriminate]. simpl in H.
      destruct (reg_step r0 o) as [r1|] eqn:E1; [|discriminate].
      destruct (run_spec os empty_registry r0 ok_empty E0) as [Hr0 P]. simpl in P.
      rewrite last_unset_snoc. unfold registered in Hi. rewrite flat_map_app, app_length in Hi. fold (registered os) in Hi.
      assert (IHo : last_unset all os i = PNone).
      { apply (IH all r0); [exists (o :: tl); rewrite Hall, <- app_assoc; reflexivity|exact Hnd|reflexivity|lia]. }
      destruct o as [ps|ty ps|p v]; [exact IHo|exact IHo|]. destruct (refers all p i) eqn:R; [|exact IHo]. exfalso.
      simpl in E1. unfold set_unset_value in E1. destruct (resolve r0 p) as [k|] eqn:Ek; [|discriminate]. destruct (Nat.ltb_spec k (length (unset_values r0))) as [Lk|]; [|discriminate].
      destruct Hr0 as (Hr1 & Hr2 & Hr3). rewrite Hr3, P in Lk. simpl in Hi.
      destruct p as [j|n]; simpl in R, Ek.
      - injection Ek as ->. apply Nat.eqb_eq in R. lia.
      - assert (Ek' : resolve r0 (RefName n) = Some k) by exact Ek. apply ok_resolve in Ek'; [|repeat split; assumption].
        destruct (nth_error (map fst (registered all)) i) as [m|] eqn:Em; [|discriminate]. apply Nat.eqb_eq in R. subst m.
        assert (Ek2 : nth_error (map fst (registered all)) k = Some n).
        { rewrite P in Ek'. unfold registered in Ek'. rewrite Hall. unfold registered. rewrite !flat_map_app, !map_app, <- app_assoc. rewrite nth_error_app1; [exact Ek'|]. apply nth_error_Some. congruence. }
        rewrite NoDup_nth_error in Hnd. assert (i = k) by (apply Hnd; [apply nth_error_Some; congruence|congruence]). lia. }
    intros os. induction os as [|o os IH] using rev_ind; intros all r [tl Hall] Hnd H i Hi; [simpl in Hi; lia|].
    rewrite run_app in H. destruct (reg_run empty_registry os) as [r0|] eqn:E0; [|discriminate]. simpl in H.
    destruct (reg_step r0 o) as [r1|] eqn:E1; [|discriminate]. injection H as <-.
    destruct (run_spec os empty_registry r0 ok_empty E0) as [Hr0 P]. simpl in P.
    rewrite last_unset_snoc. unfold registered in Hi. rewrite flat_map_app, app_length in Hi. fold (registered os) in Hi.
    assert (Hall' : exists tl, all = os ++ tl) by (exists (o :: tl); rewrite Hall, <- app_assoc; reflexivity).
    specialize (IH all r0 Hall' Hnd eq_refl).
    pose proof (OUT os all r0 Hall' Hnd E0) as OUT0.
    pose proof Hr0 as (Hr1 & Hr2 & Hr3).
    assert (APP : forall ps, registered_by o = ps -> unset_values r1 = unset_values r0 ++ repeat PNone (length ps) ->
       (match o with SetUnset _ _ => False | _ => True end) -> nth_error (unset_values r1) i = Some (last_unset all os i)).
    { intros ps Eo Eu _. rewrite Eu. destruct (Nat.lt_ge_cases i (length (registered os))) as [L|L].
      - rewrite nth_error_app1; [apply IH; exact L|]. rewrite Hr3, P. exact L.
      - rewrite nth_error_app2 by (rewrite Hr3, P; exact L). rewrite OUT0 by exact L. rewrite Hr3, P. apply nth_error_repeat.
        simpl in Hi. rewrite app_nil_r, Eo in Hi. lia. }
    destruct o as [ps|ty ps|p v].
    - apply (APP ps eq_refl); [|exact I]. simpl in E1. unfold register_properties in E1. destruct (register_all r0 ps) as [r2|] eqn:E2; [|discriminate]. injection E1 as <-. apply register_all_unset. exact E2.
    - apply (APP ps eq_refl); [|exact I]. simpl in E1. unfold register_component, register_properties in E1. destruct (register_all r0 ps) as [r2|] eqn:E2; [|discriminate].
      destruct (existsb _ _); [discriminate|]. injection E1 as <-. exact (register_all_unset ps r0 r2 E2).
    - clear APP. simpl in E1. unfold set_unset_value in E1. destruct (resolve r0 p) as [k|] eqn:Ek; [|discriminate]. destruct (Nat.ltb_spec k (length (unset_values r0))) as [Lk|]; [|discriminate].
      injection E1 as <-. simpl. simpl in Hi. rewrite Nat.add_0_r in Hi. rewrite replace_nth_nth.
      assert (R : refers all p i = Nat.eqb i k).
      { destruct p as [j|n]; simpl in Ek |- *; [injection Ek as ->; reflexivity|].
        assert (Ek' : resolve r0 (RefName n) = Some k) by exact Ek. apply ok_resolve in Ek'; [|exact Hr0].
        assert (Ek2 : nth_error (map fst (registered all)) k = Some n).
        { rewrite P in Ek'. unfold registered in Ek'. rewrite Hall. unfold registered. rewrite !flat_map_app, !map_app, <- app_assoc. rewrite nth_error_app1; [exact Ek'|]. apply nth_error_Some. congruence. }
        destruct (Nat.eqb_spec i k) as [->|N]; [rewrite Ek2; apply Nat.eqb_refl|].
        destruct (nth_error (map fst (registered all)) i) as [m|] eqn:Em; [|reflexivity]. apply Nat.eqb_neq. intros ->. apply N.
        rewrite NoDup_nth_error in Hnd. apply Hnd; [apply nth_error_Some; congruence|congruence]. }
      rewrite R. destruct (Nat.eqb i k); [apply Nat.ltb_lt in Lk; rewrite Lk; reflexivity|]. apply IH. exact Hi.
  Qed.

  (** ** components *)
  Definition covered (r : registry V) (os : list (reg_op V)) : Prop :=
    (forall c, In c (registrations r) -> fst (snd c) <= snd (snd c) <= length (properties r)) /\
    ForallOrdPairs (fun c c' => snd (snd c) <= fst (snd c')) (registrations r) /\
    (only_components os -> forall i, i < length (properties r) -> exists c, In c (registrations r) /\ in_range i c = true).

  Lemma fop_snoc {A} (R : A -> A -> Prop) l x : ForallOrdPairs R l -> (forall y, In y l -> R y x) -> ForallOrdPairs R (l ++ [x]).
  Proof.
    induction 1 as [|a l H1 H2 IH]; intros H; simpl; [repeat constructor|]. constructor.
    - apply Forall_app. split; [exact H1|]. repeat constructor. apply H. left; reflexivity.
    - apply IH. intros y Hy. apply H. right; exact Hy.
  Qed.

  Lemma run_covered os : forall r, reg_run empty_registry os = Some r -> covered r os.
  Proof.
    induction os as [|o os IH] using rev_ind; intros r H.
    - injection H as <-. split; [intros c []|]. split; [constructor|]. intros _ i Hi. simpl in Hi. lia.
    - rewrite run_app in H. destruct (reg_run empty_registry os) as [r0|] eqn:E0; [|discriminate]. simpl in H.
      destruct (reg_step r0 o) as [r1|] eqn:E1; [|discriminate]. injection H as <-.
      destruct (run_spec os empty_registry r0 ok_empty E0) as [Hr0 _].
      destruct (IH r0 eq_refl) as (A & B & C).
      assert (OC : only_components (os ++ [o]) -> only_components os /\ match o with RegProps _ => False | _ => True end).
      { intros H. unfold only_components in *. apply Forall_app in H. destruct H as [H1 H2]. split; [exact H1|]. inversion H2; assumption. }
      destruct o as [ps|ty ps|p v]; simpl in E1.
      + unfold register_properties in E1. pose proof (register_all_spec ps r0 Hr0) as S. destruct (register_all r0 ps) as [r2|]; [|discriminate].
        injection E1 as <-. destruct S as (_ & P & R & _). split; [|split].
        * rewrite R. intros c Hc. specialize (A c Hc). rewrite P, app_length. lia.
        * rewrite R. exact B.
        * intros H. destruct (OC H) as [_ []].
      + unfold register_component, register_properties in E1. pose proof (register_all_spec ps r0 Hr0) as S. destruct (register_all r0 ps) as [r2|]; [|discriminate].
        destruct S as (_ & P & R & _). destruct (existsb _ _); [discriminate|]. injection E1 as <-. split; [|split]; simpl.
        * rewrite R. intros c Hc. apply in_app_or in Hc. destruct Hc as [Hc|[<-|[]]]; [specialize (A c Hc)|simpl]; rewrite P, app_length; lia.
        * rewrite R. apply fop_snoc; [exact B|]. intros c Hc. simpl. apply A. exact Hc.
        * intros H i Hi. rewrite R. destruct (Nat.lt_ge_cases i (length (properties r0))) as [L|L].
          -- destruct (C (proj1 (OC H)) i L) as (c & Hc & Hin). exists c. split; [apply in_or_app; left; exact Hc|exact Hin].
          -- exists (ty, (length (properties r0), length (properties r2))). split; [apply in_or_app; right; left; reflexivity|].
             unfold in_range. simpl. apply andb_true_iff. split; [apply Nat.leb_le; exact L|apply Nat.ltb_lt; exact Hi].
      + unfold set_unset_value in E1. destruct (resolve r0 p); [|discriminate]. destruct (Nat.ltb _ _); [|discriminate]. injection E1 as <-.
        split; [exact A|]. split; [exact B|]. intros H. apply C. apply OC. exact H.
  Qed.

  (** *** the initial values *)
  Lemma fill_length (r : registry V) is : forall m, length (fold_left (fun m i => match nth_error (properties r) i with Some p => replace_nth i (Some (snd p)) m | None => m end) is m) = length m.
  Proof. induction is as [|i is IH]; intros m; simpl; [reflexivity|]. rewrite IH. destruct (nth_error _ _); [apply replace_length|reflexivity]. Qed.

  Definition filled (r : registry V) (S : nat -> Prop) (m : list (option V)) : Prop :=
    length m = length (properties r) /\
    forall i p, nth_error (properties r) i = Some p -> (S i -> nth_error m i = Some (Some (snd p))) /\ (nth_error m i = Some (Some (snd p)) \/ nth_error m i = Some None).

  Lemma fill_seq (r : registry V) is : forall S m, filled r S m ->
    filled r (fun i => S i \/ In i is) (fold_left (fun m i => match nth_error (properties r) i with Some p => replace_nth i (Some (snd p)) m | None => m end) is m).
  Proof.
    induction is as [|j is IH]; intros S m H; simpl.
    - destruct H as [H1 H2]. split; [exact H1|]. intros i p Hp. destruct (H2 i p Hp) as [A B]. split; [intros [H|[]]; auto|exact B].
    - assert (G : filled r (fun i => S i \/ i = j) (match nth_error (properties r) j with Some p => replace_nth j (Some (snd p)) m | None => m end)).
      { destruct H as [H1 H2]. destruct (nth_error (properties r) j) as [q|] eqn:Ej.
        - split; [rewrite replace_length; exact H1|]. intros i p Hp. destruct (H2 i p Hp) as [A B]. rewrite replace_nth_nth.
          assert (Lj : Nat.ltb j (length m) = true) by (apply Nat.ltb_lt; rewrite H1; apply nth_error_Some; congruence).
          destruct (Nat.eqb_spec i j) as [->|N].
          + rewrite Ej in Hp. injection Hp as ->. rewrite Lj. split; auto.
          + split; [intros [H|H]; [auto|contradiction]|exact B].
        - split; [exact H1|]. intros i p Hp. destruct (H2 i p Hp) as [A B]. split; [intros [H| ->]; [auto|congruence]|exact B]. }
      specialize (IH _ _ G). destruct IH as [I1 I2]. split; [exact I1|]. intros i p Hp. destruct (I2 i p Hp) as [A B]. split; [|exact B].
      intros [H'|[H'|H']]; apply A; [left; left; exact H'|left; right; auto|right; exact H'].
  Qed.

  Lemma fill_all (r : registry V) cs : forall S m, filled r S m ->
    filled r (fun i => S i \/ exists c, In c cs /\ in_range i c = true) (fold_left (fill_component r) cs m).
  Proof.
    induction cs as [|c cs IH]; intros S m H; simpl.
    - destruct H as [H1 H2]. split; [exact H1|]. intros i p Hp. destruct (H2 i p Hp) as [A B]. split; [intros [H|(c & H & _)]; [auto|destruct H]|exact B].
    - pose proof (fill_seq r (seq (fst (snd c)) (snd (snd c) - fst (snd c))) S m H) as G.
      specialize (IH _ _ G). destruct IH as [I1 I2]. split; [exact I1|]. intros i p Hp. destruct (I2 i p Hp) as [A B]. split; [|exact B].
      intros [H'|(c' & [<-|H'] & Hr)]; apply A.
      + left; left; exact H'.
      + left; right. unfold in_range in Hr. apply andb_true_iff in Hr. destruct Hr as [R1 R2]. apply Nat.leb_le in R1. apply Nat.ltb_lt in R2.
        apply in_seq. lia.
      + right. exists c'. auto.
  Qed.

  Lemma all_some_spec {A} (l : list (option A)) vs : l = map Some vs -> all_some l = Some vs.
  Proof. intros ->. induction vs as [|v vs IH]; simpl; [reflexivity|]. rewrite IH. reflexivity. Qed.

  Lemma initial_values os (r : registry V) : reg_run empty_registry os = Some r -> only_components os ->
    create_initial_values_map r = Some (map snd (registered os)).
  Proof.
    intros H Ho. destruct (run_spec os empty_registry r ok_empty H) as [_ P]. simpl in P. rewrite <- P.
    destruct (run_covered os r H) as (_ & _ & C). specialize (C Ho).
    unfold create_initial_values_map.
    assert (all_have_component r = true) as ->.
    { unfold all_have_component. apply forallb_forall. intros i Hi. apply in_seq in Hi. destruct (C i ltac:(lia)) as (c & Hc & Hr).
      apply existsb_exists. exists c. auto. }
    apply all_some_spec.
    assert (F0 : filled r (fun _ => False) (repeat None (length (properties r)))).
    { split; [apply repeat_length|]. intros i p Hp. split; [intros []|]. right. apply nth_error_repeat. apply nth_error_Some. congruence. }
    pose proof (fill_all r (registrations r) _ _ F0) as [L G].
    set (m := fold_left (fill_component r) (registrations r) (repeat None (length (properties r)))) in *.
    assert (X : forall (a b : list (option V)), length a = length b -> (forall i, i < length a -> nth_error a i = nth_error b i) -> a = b).
    { induction a as [|x a IHa]; intros [|y b] Hl Hn; simpl in *; try discriminate; [reflexivity|].
      f_equal; [specialize (Hn 0 ltac:(lia)); simpl in Hn; congruence|]. apply IHa; [lia|]. intros i Hi. apply (Hn (S i)). lia. }
    apply X; [rewrite L, !map_length; reflexivity|]. intros i Hi. rewrite L in Hi.
    destruct (nth_error (properties r) i) as [p|] eqn:E; [|apply nth_error_None in E; lia].
    destruct (G i p E) as [A _]. rewrite A; [|right; apply C; exact Hi]. rewrite !nth_error_map, E. reflexivity.
  Qed.
End P.

(** ** css names *)
Definition css_unique (c : css_registry) : Prop := NoDup (map fst (css_properties c)) /\ NoDup (map fst (css_shorthands c)).

Lemma css_run_app a b : forall c, css_run c (a ++ b) = match css_run c a with Some c' => css_run c' b | None => None end.
Proof. induction a as [|o a IH]; intros c; simpl; [reflexivity|]. destruct (css_step c o); [apply IH|reflexivity]. Qed.

Lemma css_step_grows c o c' : css_step c o = Some c' ->
  (forall n p, get_property c n = Some p -> get_property c' n = Some p) /\
  (forall n ps, get_shorthand c n = Some ps -> get_shorthand c' n = Some ps) /\
  match o with
  | RegProperty n p => get_property c n = None /\ get_property c' n = Some p /\ css_shorthands c' = css_shorthands c /\
                       (forall m, m <> n -> get_property c' m = get_property c m)
  | RegShorthand n ps => get_shorthand c n = None /\ get_property c n = None /\ get_shorthand c' n = Some ps /\ css_properties c' = css_properties c /\
                       (forall m, m <> n -> get_shorthand c' m = get_shorthand c m)
  end.
Proof.
  destruct o as [n p|n ps]; simpl.
  - unfold register_property. destruct (lookup n (css_properties c)) eqn:E; [discriminate|]. intros H. injection H as <-.
    unfold get_property, get_shorthand. simpl. split; [|split; [auto|]].
    + intros m q Hq. rewrite lookup_app, Hq. reflexivity.
    + split; [exact E|]. split; [rewrite lookup_app, E; unfold lookup; simpl; rewrite Nat.eqb_refl; reflexivity|]. split; [reflexivity|].
      intros m Hm. rewrite lookup_app. destruct (lookup m (css_properties c)); [reflexivity|]. unfold lookup. simpl.
      destruct (Nat.eqb_spec n m); [congruence|reflexivity].
  - unfold register_shorthand. destruct (lookup n (css_shorthands c)) eqn:E; [discriminate|]. destruct (lookup n (css_properties c)) eqn:E2; [discriminate|].
    intros H. injection H as <-. unfold get_property, get_shorthand. simpl. split; [auto|]. split.
    + intros m q Hq. rewrite lookup_app, Hq. reflexivity.
    + split; [exact E|]. split; [exact E2|]. split; [rewrite lookup_app, E; unfold lookup; simpl; rewrite Nat.eqb_refl; reflexivity|]. split; [reflexivity|].
      intros m Hm. rewrite lookup_app. destruct (lookup m (css_shorthands c)); [reflexivity|]. unfold lookup. simpl.
      destruct (Nat.eqb_spec n m); [congruence|reflexivity].
Qed.

Lemma css_run_grows os : forall c c', css_run c os = Some c' ->
  (forall n p, get_property c n = Some p -> get_property c' n = Some p) /\
  (forall n ps, get_shorthand c n = Some ps -> get_shorthand c' n = Some ps).
Proof.
  induction os as [|o os IH]; intros c c' H; simpl in H; [injection H as <-; auto|].
  destruct (css_step c o) as [c1|] eqn:E; [|discriminate]. destruct (css_step_grows c o c1 E) as (A & B & _). destruct (IH c1 c' H) as [C D].
  split; intros; eauto.
Qed.

Lemma css_shorthand_origin os : forall c, css_run empty_css os = Some c -> forall n ps, get_shorthand c n = Some ps -> In (RegShorthand n ps) os.
Proof.
  induction os as [|o os IH] using rev_ind; intros c H n ps Hs; [injection H as <-; discriminate|].
  rewrite css_run_app in H. destruct (css_run empty_css os) as [c0|] eqn:E; [|discriminate]. simpl in H.
  destruct (css_step c0 o) as [c1|] eqn:E1; [|discriminate]. injection H as <-. apply in_or_app.
  destruct (css_step_grows c0 o c1 E1) as (_ & _ & G). destruct o as [m p|m qs].
  - destruct G as (_ & _ & G & _). left. apply (IH c0 eq_refl). unfold get_shorthand in *. rewrite <- G. exact Hs.
  - destruct G as (_ & _ & G1 & _ & G2). destruct (Nat.eq_dec n m) as [->|N].
    + right. left. congruence.
    + left. apply (IH c0 eq_refl). rewrite <- (G2 n N). exact Hs.
Qed.

Lemma css_exclusive os : forall c, css_run empty_css os = Some c -> no_reuse os ->
  forall n, get_property c n = None \/ get_shorthand c n = None.
Proof.
  induction os as [|o os IH] using rev_ind; intros c H Hn n; [injection H as <-; left; reflexivity|].
  rewrite css_run_app in H. destruct (css_run empty_css os) as [c0|] eqn:E; [|discriminate]. simpl in H.
  destruct (css_step c0 o) as [c1|] eqn:E1; [|discriminate]. injection H as <-.
  assert (Hn0 : no_reuse os). { intros l1 m p l2 E2. apply (Hn l1 m p (l2 ++ [o])). rewrite E2, <- app_assoc. reflexivity. }
  specialize (IH c0 eq_refl Hn0). destruct (css_step_grows c0 o c1 E1) as (_ & _ & G). destruct o as [m p|m qs].
  - destruct G as (G1 & G2 & G3 & G4). destruct (Nat.eq_dec n m) as [->|N].
    + right. unfold get_shorthand. rewrite G3. fold (get_shorthand c0 m). destruct (get_shorthand c0 m) as [ps|] eqn:Es; [|reflexivity].
      exfalso. apply (Hn os m p [] eq_refl ps). apply (css_shorthand_origin os c0 E). exact Es.
    + rewrite (G4 n N). unfold get_shorthand. rewrite G3. apply IH.
  - destruct G as (G1 & G2 & G3 & G4 & G5). destruct (Nat.eq_dec n m) as [->|N].
    + left. unfold get_property. rewrite G4. exact G2.
    + rewrite (G5 n N). unfold get_property. rewrite G4. apply IH.
Qed.
