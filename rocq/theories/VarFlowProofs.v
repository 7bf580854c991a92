(** Proofs for C84. *)
From Verif Require Import Base Tree TreeSpec TreeProofs Vars VarsSpec VarsProofs VarFlow VarFlowSpec.

Lemma mem_in n l : mem n l = true <-> In n l.
Proof. unfold mem. rewrite existsb_exists. split; [intros (x & Hx & E); apply Nat.eqb_eq in E; subst; exact Hx|intros H; exists n; split; [exact H|apply Nat.eqb_refl]]. Qed.

(** ** Maps *)
Lemma get_none {A} (l : list (nat * A)) k : get l k = None <-> ~ In k (map fst l).
Proof.
  induction l as [|[a v] l IH]; cbn; [tauto|]. destruct (get l k) eqn:E.
  - split; [discriminate|]. intros H. exfalso. apply H. right. destruct (in_dec Nat.eq_dec k (map fst l)); [assumption|]. apply IH in n. discriminate.
  - destruct (Nat.eqb_spec a k) as [->|Hne]; split; [discriminate|intros H; exfalso; apply H; auto|intros _ [H|H]; [congruence|]; exact (proj1 IH eq_refl H)|reflexivity].
Qed.
Lemma get_last {A} (l : list (nat * A)) k : last_entry l k (get l k).
Proof.
  destruct (get l k) as [v|] eqn:E; cbn [last_entry]; [|apply get_none; exact E]. revert E. induction l as [|[a x] l IH]; cbn; [discriminate|].
  destruct (get l k) eqn:Eg; intros E.
  - destruct (IH E) as (l1 & l2 & -> & H). exists ((a, x) :: l1), l2. auto.
  - destruct (Nat.eqb_spec a k) as [->|Hne]; [|discriminate]. injection E as <-. exists [], l. split; [reflexivity|apply get_none; exact Eg].
Qed.
Lemma get_app {A} (a b : list (nat * A)) k : get (a ++ b) k = match get b k with Some v => Some v | None => get a k end.
Proof. induction a as [|[x v] a IH]; cbn; [destruct (get b k); reflexivity|]. rewrite IH. destruct (get b k); reflexivity. Qed.
Lemma last_entry_get {A} (l : list (nat * A)) k v : last_entry l k (Some v) <-> get l k = Some v.
Proof.
  split; [|intros E; rewrite <- E; apply get_last]. intros (l1 & l2 & -> & H). rewrite get_app. cbn. apply get_none in H. rewrite H, Nat.eqb_refl. reflexivity.
Qed.
Lemma same_vars_get a b : same_vars a b = true -> forall k, get a k = get b k.
Proof.
  unfold same_vars. rewrite forallb_forall. intros H k. destruct (in_dec Nat.eq_dec k (map fst a ++ map fst b)) as [Hi|Hi].
  - specialize (H k Hi). destruct (tok_dec _ _); [assumption|discriminate].
  - rewrite in_app_iff in Hi. transitivity (@None toks); [|symmetry]; apply get_none; tauto.
Qed.
Lemma get_vars_declared f c n : f_sheet f n = Some c -> get_vars c (f_rules f n) (f_inline f n) = declared f n.
Proof.
  intros E. unfold get_vars, declared, resolve_rulesets. rewrite E, flat_map_app. cbn. rewrite app_nil_r. f_equal.
  induction (f_rules f n) as [|i l IH]; cbn; [reflexivity|]. rewrite IH. reflexivity.
Qed.

(** ** Values *)
Lemma set_fold l : forall o p, fold_left (fun o pv => set o (fst pv) (snd pv)) l o p = match get l p with Some v => v | None => o p end.
Proof. induction l as [|[a v] l IH]; intros o p; cbn; [reflexivity|]. rewrite IH. destruct (get l p); [reflexivity|]. unfold set. rewrite Nat.eqb_sym. destruct (Nat.eqb a p); reflexivity. Qed.
Lemma values_flat c rules inl r o : get_property_values c rules inl r o = fold_left (fun o d => fold_left (fun o pv => set o (fst pv) (snd pv)) (resolve_decl r d) o) (flat_map (fun i => r_props (c i)) rules ++ r_props inl) o.
Proof.
  unfold get_property_values, resolve_rulesets. rewrite !fold_left_app. cbn [fold_left]. f_equal. revert o. induction rules as [|i l IH]; intros o; cbn; [reflexivity|]. rewrite fold_left_app. apply IH.
Qed.
Lemma gives_get r d p v : gives r d p v <-> get (resolve_decl r d) p = Some v.
Proof.
  destruct d as [q x|parser ts]; cbn [gives resolve_decl get].
  - destruct (Nat.eqb_spec q p) as [->|Hne]; split; [intros [_ ->]; reflexivity|intros E; injection E as E; split; congruence|intros [H _]; contradiction|discriminate].
  - split.
    + intros (out & k & l & He & Hk & Hp & Hl). assert (E : resolve_recursively r ts = Ok out) by (apply resolve_iff; eauto). rewrite E, Hp. apply last_entry_get, Hl.
    + destruct (resolve_recursively r ts) as [out|e] eqn:E; [|discriminate]. destruct (parser out) as [l|] eqn:Ep; [|discriminate]. intros Hg. apply resolve_iff in E as (k & He & Hk).
      exists out, k, l. rewrite last_entry_get. auto.
Qed.
Lemma fold_value r ds : forall o p, value_of r ds (o p) p (fold_left (fun o d => fold_left (fun o pv => set o (fst pv) (snd pv)) (resolve_decl r d) o) ds o p).
Proof.
  induction ds as [|d ds IH]; intros o p; cbn [fold_left]; [right; split; [intros d []|reflexivity]|].
  specialize (IH (fold_left (fun o pv => set o (fst pv) (snd pv)) (resolve_decl r d) o) p). destruct IH as [(l1 & d' & l2 & E & H1 & H2)|[H1 H2]].
  - left. exists (d :: l1), d', l2. split; [cbn; f_equal; exact E|auto].
  - rewrite H2, set_fold. destruct (get (resolve_decl r d) p) as [v|] eqn:Eg.
    + left. exists [], d, ds. split; [reflexivity|]. split; [apply gives_get; exact Eg|exact H1].
    + right. split; [|reflexivity]. intros d' [<-|Hd]; [intros v' Hv; apply gives_get in Hv; congruence|apply H1, Hd].
Qed.

(** ** Walks *)
Definition enough (w : forest) (nodes : list nat) (fuel : nat) : Prop := forall n, In n nodes ->
  (exists l, iter_ui_descendants_with_parent w fuel n = Some l /\ forall d, In d (map snd l) <-> descendant w n d) /\
  (forall (vars : nat -> env nat nat) v, nearest w vars v n (resolver_at w vars fuel n v)).
Lemma enough_exists w nodes : wf_forest w -> exists n0, forall fuel, n0 <= fuel -> enough w nodes fuel.
Proof.
  intros Hw. induction nodes as [|n nodes [n0 IH]]; [exists 0; intros fuel _ n []|].
  destruct (ancestors_correct w n Hw) as (n1 & l1 & Hl & Hc). destruct (descendants_correct w n Hw) as (n2 & l2 & Hd & _ & Hd2 & _).
  exists (n0 + n1 + n2). intros fuel Hf m [<-|Hm]; [|apply IH; [lia|exact Hm]]. split.
  - exists l2. split; [apply Hd; lia|]. intros d. rewrite in_map_iff. split; [intros ([p e] & <- & H); apply Hd2 in H; apply H|].
    intros H. assert (Hp : exists p, parent w d = Some p) by (inversion H; eauto). destruct Hp as [p Hp]. exists (p, d). split; [reflexivity|]. apply Hd2. auto.
  - intros vars v. unfold resolver_at, get_var_tokens, iter_self_and_ancestors. rewrite Hc by lia. cbn [option_map]. apply nearest_chain, Hl.
Qed.
Lemma all_descendants_spec w nodes fuel : enough w nodes fuel -> forall l, (forall n, In n l -> In n nodes) -> exists r, all_descendants w fuel l = Some r /\ forall d, In d r <-> exists n, In n l /\ descendant w n d.
Proof.
  intros He. induction l as [|n l IH]; intros Hl; [exists []; split; [reflexivity|]; intros d; split; [intros []|intros (n & [] & _)]|].
  destruct IH as (r & Er & Hr); [intros m Hm; apply Hl; right; exact Hm|]. destruct (He n (Hl n (or_introl eq_refl))) as [(dl & Ed & Hd) _].
  exists (map snd dl ++ r). cbn [all_descendants]. rewrite Ed, Er. split; [reflexivity|]. intros d. rewrite in_app_iff, Hd, Hr. split.
  - intros [H|(m & Hm & H)]; [exists n; cbn; auto|exists m; cbn; auto].
  - intros (m & [<-|Hm] & H); [auto|right; eauto].
Qed.
Lemma nearest_transfer w w' (vars vars' : nat -> env nat nat) v e o : nearest w vars v e o ->
  (forall a, a = e \/ descendant w' a e -> parent w' a = parent w a /\ vars' a v = vars a v) -> nearest w' vars' v e o.
Proof.
  induction 1 as [e ts He|e p o He Hp Hn IH|e He Hp]; intros Heq; destruct (Heq e (or_introl eq_refl)) as [Ep Ev].
  - constructor. congruence.
  - apply near_up with p; [congruence|congruence|]. apply IH. intros a [->|Ha]; apply Heq; right; [constructor; congruence|econstructor 2; [exact Ha|congruence]].
  - apply near_root; congruence.
Qed.
Lemma ancestor_in nodes w a d : in_nodes nodes w -> descendant w a d -> In a nodes.
Proof. intros Hin H. induction H as [e He|p e H IH He]; [apply (Hin e a He)|exact IH]. Qed.

(** ** One frame *)
Definition own (f : frame) : nat -> env nat nat := fun a => get (declared f a).
Definition good (unset : nat -> nat) (f : frame) (s : state) (n : nat) : Prop :=
  match f_sheet f n with
  | None => v_needs s n = true /\ v_vars s n = []
  | Some c => v_needs s n = false /\ v_rules s n = f_rules f n /\ (forall k, get (v_vars s n) k = own f n k) /\
              exists r, (forall v, nearest (f_forest f) (own f) v n (r v)) /\ forall p, v_values s n p = get_property_values c (f_rules f n) (f_inline f n) r unset p
  end.
Lemma noticed_dec f n : noticed f n \/ ~ noticed f n.
Proof. unfold noticed. destruct (f_modified f n), (f_changed f n), (f_marked f n); intuition discriminate. Qed.
Lemma opt_dec (a b : option nat) : {a = b} + {a <> b}. Proof. repeat decide equality. Qed.

Definition fine (f0 f : frame) : Prop := moves_leaves f0 f /\ keeps_sheets f0 f /\ modifies_below f.
Lemma step_good unset nodes fuel f0 f s : wf_forest (f_forest f) -> in_nodes nodes (f_forest f) -> nothing_gone f -> enough (f_forest f) nodes fuel ->
  (forall n, f_sheet f0 n = None) \/ reported f0 f /\ fine f0 f ->
  (forall n, In n nodes -> good unset f0 s n) ->
  exists s', step unset nodes fuel s f = Some s' /\ forall n, In n nodes -> good unset f s' n.
Proof.
  intros Hw Hin [Hg1 Hg2] Hen Hrep Hpre. unfold step. set (s1 := mark f (on_modified f s)).
  set (tm := filter (fun n => match new_vars f s1 n with Some _ => true | None => false end) nodes).
  destruct (all_descendants_spec (f_forest f) nodes fuel Hen tm) as (l & El & Hl); [intros n Hn; apply filter_In in Hn; apply Hn|].
  unfold calculate_style_and_set_vars. fold tm. rewrite El. cbn [option_map]. eexists. split; [reflexivity|].
  set (s2 := mk_state _ _ _ _).
  (* not needed in s1 *)
  assert (N1 : forall a, In a nodes -> v_needs s1 a = false -> exists c, f_sheet f a = Some c /\ f_sheet f0 a = Some c /\ f_rules f a = f_rules f0 a /\ f_inline f a = f_inline f0 a /\
                parent (f_forest f) a = parent (f_forest f0) a /\ f_modified f a = false /\ ~ noticed f a /\ f_gone f a = false).
  { intros a Ha E. unfold s1, mark, on_modified in E. cbn in E. apply orb_false_iff in E as [E E3]. apply orb_false_iff in E as [E E2]. apply orb_false_iff in E as [E E4]. apply orb_false_iff in E as [E0 E1].
    assert (Hnn : ~ noticed f a) by (unfold noticed; intuition congruence). specialize (Hpre a Ha). unfold good in Hpre. destruct (f_sheet f0 a) as [c|] eqn:Es; [|destruct Hpre; congruence].
    destruct Hrep as [Hrep|[Hrep _]]; [rewrite Hrep in Es; discriminate|]. destruct (Hrep a E4) as [R1 R2]. destruct (R1 E2) as [P1 P2]. destruct R2 as [R3 R4]; [exact Hnn|congruence|].
    exists c. rewrite R3. auto 12. }
  assert (A : forall a, In a nodes -> forall k, get (v_vars s2 a) k = own f a k).
  { intros a Ha k. unfold s2, own. cbn [v_vars]. assert (Hm : mem a nodes = true) by (apply mem_in; exact Ha). rewrite Hm. unfold new_vars. destruct (v_needs s1 a) eqn:En.
    - destruct (f_sheet f a) as [c|] eqn:Es.
      + rewrite <- (get_vars_declared f c a Es). destruct (same_vars _ _) eqn:Ev; [|reflexivity]. symmetry. apply same_vars_get, Ev.
      + unfold declared. rewrite Es. unfold s1. cbn. specialize (Hpre a Ha). unfold good in Hpre. destruct (f_modified f a); [reflexivity|]. cbn [orb]. destruct (f_gone f a) eqn:Eg; [reflexivity|].
        destruct (f_sheet f0 a) as [c0|] eqn:Es0; [|destruct Hpre as [_ ->]; reflexivity]. exfalso. destruct Hrep as [Hrep|(_ & _ & Hk & _)]; [rewrite Hrep in Es0; discriminate|]. apply (Hk a); [assumption|congruence|congruence].
    - destruct (N1 a Ha En) as (c & E1 & E2 & E3 & E4 & E5 & E6 & _ & E8). unfold s1. cbn. rewrite E6, E8. cbn [orb]. specialize (Hpre a Ha). unfold good in Hpre. rewrite E2 in Hpre. destruct Hpre as (_ & _ & Hv & _). rewrite Hv. unfold own, declared. rewrite E1, E2, E3, E4. reflexivity. }
  intros n Hn. unfold good, set_property_values. cbn [v_needs v_rules v_vars v_values]. assert (Hm : mem n nodes = true) by (apply mem_in; exact Hn).
  destruct (f_sheet f n) as [c|] eqn:Es.
  2: { unfold calculated. rewrite Es, andb_false_r, andb_true_r. unfold s2. cbn. rewrite Hm. unfold new_vars. rewrite Es.
       destruct (f_gone f n) eqn:Eg; [unfold s1; cbn; rewrite Eg, !orb_true_r; split; reflexivity|].
       specialize (Hpre n Hn). unfold good in Hpre. destruct (f_sheet f0 n) as [c0|] eqn:Es0.
       { exfalso. destruct Hrep as [Hrep|(_ & _ & Hk & _)]; [rewrite Hrep in Es0; discriminate|]. apply (Hk n); [assumption|congruence|congruence]. }
       destruct Hpre as [E1 E2]. unfold s1. cbn. rewrite E1, E2. cbn. split; [reflexivity|]. destruct (f_modified f n); reflexivity. }
  unfold calculated at 1. rewrite Es, Hm, !andb_true_r. split; [destruct (v_needs s2 n); reflexivity|].
  assert (Hru : v_rules s2 n = f_rules f n).
  { unfold s2. cbn [v_rules]. unfold calculated. rewrite Es, Hm, !andb_true_r. destruct (v_needs s1 n) eqn:En; [reflexivity|]. destruct (N1 n Hn En) as (c' & E1 & E2 & E3 & _). unfold s1. cbn.
    specialize (Hpre n Hn). unfold good in Hpre. rewrite E2 in Hpre. destruct Hpre as (_ & -> & _). symmetry. exact E3. }
  split; [exact Hru|]. split; [intros k; apply A, Hn|].
  destruct (v_needs s2 n) eqn:En2.
  - exists (resolver_at (f_forest f) (fun a => get (v_vars s2 a)) fuel n). split; [|intros p; rewrite Hru; reflexivity].
    intros v. eapply nearest_transfer; [apply (Hen n Hn)|]. intros a Ha. split; [reflexivity|]. symmetry. apply A. destruct Ha as [->|Ha]; [exact Hn|eapply ancestor_in; eauto].
  - unfold s2 in En2. cbn [v_needs] in En2. rewrite Hm, andb_true_r in En2. apply orb_false_iff in En2 as [En El2]. destruct (N1 n Hn En) as (c' & E1 & E2 & E3 & E4 & E5 & E6 & E7 & _).
    assert (c' = c) by congruence. subst c'. pose proof (Hpre n Hn) as Hg. unfold good in Hg. rewrite E2 in Hg. destruct Hg as (_ & _ & _ & r & Hr & Hv).
    exists r. split; [|intros p; rewrite E3, E4; apply Hv].
    destruct Hrep as [Hrep|[Hrep (Hmv & Hks & Hmd)]]; [rewrite Hrep in E2; discriminate|].
    intros v. eapply nearest_transfer; [apply Hr|]. intros a Ha. destruct Ha as [->|Ha]; [split; [exact E5|unfold own, declared; rewrite E1, E2, E3, E4; reflexivity]|].
    assert (Han : In a nodes) by (eapply ancestor_in; eauto). split.
    + destruct (opt_dec (parent (f_forest f) a) (parent (f_forest f0) a)) as [E|E]; [exact E|]. exfalso. apply E7. apply (Hmv a n E Ha).
    + rewrite <- (A a Han v). unfold s2. cbn [v_vars]. assert (Hma : mem a nodes = true) by (apply mem_in; exact Han). rewrite Hma.
      destruct (new_vars f s1 a) as [nv|] eqn:Env.
      * exfalso. assert (In n l) by (apply Hl; exists a; split; [apply filter_In; rewrite Env; auto|exact Ha]). apply mem_in in H. congruence.
      * unfold s1. cbn [v_vars mark on_modified]. assert (f_gone f a = false) as -> by (clear - Ha Hg1; induction Ha as [e He|p e H IH He]; [apply (Hg1 e a He)|exact IH]). rewrite orb_false_r. destruct (f_modified f a) eqn:Em; [exfalso; apply E7; apply (Hmd a n Em Ha)|].
        specialize (Hpre a Han). unfold good in Hpre. destruct (f_sheet f0 a) as [ca|] eqn:Esa; [destruct Hpre as (_ & _ & Hva & _); apply Hva|]. destruct Hpre as [_ ->]. unfold own, declared. rewrite Esa. reflexivity.
Qed.
Lemma last_cons {A} (l : list A) : forall a d, last (a :: l) d = last l a.
Proof. induction l as [|b l IH]; intros a d; [reflexivity|]. change (last (b :: l) d = last (b :: l) a). rewrite !IH. reflexivity. Qed.
Lemma frames_good unset nodes fuel : forall fs f0 s, history nodes fine f0 fs -> Forall (fun f => enough (f_forest f) nodes fuel) fs -> (forall n, In n nodes -> good unset f0 s n) ->
  exists s', frames unset nodes fuel fs s = Some s' /\ forall n, In n nodes -> good unset (last fs f0) s' n.
Proof.
  induction fs as [|f fs IH]; intros f0 s Hh He Hg; [exists s; split; [reflexivity|exact Hg]|]. cbn in Hh. destruct Hh as (Hw & Hin & Hgo & Hrep & Hal & Hh). inversion He as [|? ? He1 He2]; subst.
  destruct (step_good unset nodes fuel f0 f s Hw Hin Hgo He1 (or_intror (conj Hrep Hal)) Hg) as (s1 & Es & G1). destruct (IH f s1 Hh He2 G1) as (s' & Ef & G). exists s'. cbn [frames]. rewrite Es. split; [exact Ef|].
  rewrite last_cons. exact G.
Qed.
Lemma good_up_to_date unset f s n : good unset f s n -> up_to_date unset f s n.
Proof.
  intros Hg c Ec. unfold good in Hg. rewrite Ec in Hg. destruct Hg as (_ & _ & _ & r & Hr & Hv). exists r. split.
  - exists (own f). split; [intros a k; apply get_last|exact Hr].
  - intros p. rewrite Hv, values_flat. apply fold_value.
Qed.
Lemma all_enough nodes : forall fs f0 also, history nodes also f0 fs -> exists n0, forall fuel, n0 <= fuel -> Forall (fun f => enough (f_forest f) nodes fuel) fs.
Proof.
  induction fs as [|f fs IH]; intros f0 also Hh; [exists 0; constructor|]. cbn in Hh. destruct Hh as (Hw & _ & _ & _ & _ & Hh). destruct (IH f also Hh) as [n1 H1]. destruct (enough_exists (f_forest f) nodes Hw) as [n2 H2].
  exists (n1 + n2). intros fuel Hf. constructor; [apply H2; lia|apply H1; lia].
Qed.
Lemma start_good unset nodes fs : from_start nodes fine fs -> exists n0, forall fuel, n0 <= fuel -> exists s, frames unset nodes fuel fs fresh_nodes = Some s /\
  forall f, last (map Some fs) None = Some f -> forall n, In n nodes -> up_to_date unset f s n.
Proof.
  destruct fs as [|f fs]; cbn [from_start]; [intros _; exists 0; intros fuel _; exists fresh_nodes; split; [reflexivity|]; discriminate|]. intros (Hw & Hin & Hgo & Hh).
  destruct (enough_exists (f_forest f) nodes Hw) as [n1 H1]. destruct (all_enough nodes fs f fine Hh) as [n2 H2]. exists (n1 + n2). intros fuel Hf.
  set (f0 := mk_frame (f_forest f) (fun _ => None) (f_rules f) (f_inline f) (f_modified f) (f_changed f) (f_marked f) (f_gone f)).
  destruct (step_good unset nodes fuel f0 f fresh_nodes Hw Hin Hgo (H1 fuel ltac:(lia))) as (s1 & Es & G1); [left; reflexivity|intros n Hn; split; reflexivity|].
  destruct (frames_good unset nodes fuel fs f s1 Hh (H2 fuel ltac:(lia)) G1) as (s & Ef & G). exists s. cbn [frames]. rewrite Es. split; [exact Ef|].
  intros f' El n Hn. assert (E : last (map Some (f :: fs)) None = Some (last fs f)).
  { clear. revert f. induction fs as [|g fs IH]; intros f; [reflexivity|]. change (last (map Some (g :: fs)) None = Some (last (g :: fs) f)). rewrite IH, last_cons. reflexivity. }
  rewrite E in El. injection El as <-. apply good_up_to_date, G, Hn.
Qed.

(** ** Values are determined *)
Lemma value_det r ds u p v : value_of r ds u p v -> forall v', value_of r ds u p v' -> v = v'.
Proof.
  assert (Hdec : forall d v v', gives r d p v -> gives r d p v' -> v = v') by (intros d x y Hx Hy; apply gives_get in Hx, Hy; congruence).
  intros [(l1 & d & l2 & E & H1 & H2)|[H1 H2]] v' [(l1' & d' & l2' & E' & H1' & H2')|[H1' H2']].
  - rewrite E in E'. clear E. revert l1' E'. induction l1 as [|a l1 IH]; intros [|b l1'] E'; cbn in E'; injection E' as Ea El; subst.
    + eauto.
    + exfalso. apply (H2 d') with v'; [apply in_or_app; right; left; reflexivity|exact H1'].
    + exfalso. apply (H2' d) with v; [apply in_or_app; right; left; reflexivity|exact H1].
    + eapply IH; eauto.
  - exfalso. apply (H1' d) with v; [rewrite E; apply in_or_app; right; left; reflexivity|exact H1].
  - exfalso. apply (H1 d') with v'; [rewrite E'; apply in_or_app; right; left; reflexivity|exact H1'].
  - congruence.
Qed.
Lemma resolve_decl_ext r r' d : (forall v, r v = r' v) -> resolve_decl r d = resolve_decl r' d.
Proof. intros H. destruct d as [p v|parser ts]; [reflexivity|]. cbn [resolve_decl]. unfold resolve_recursively. rewrite (inner_ext r r' H). reflexivity. Qed.
Lemma gives_ext r r' d p v : (forall v, r v = r' v) -> gives r d p v -> gives r' d p v.
Proof. intros H Hg. apply gives_get. apply gives_get in Hg. rewrite <- (resolve_decl_ext r r' d H). exact Hg. Qed.
Lemma value_ext r r' ds u p v : (forall v, r v = r' v) -> value_of r ds u p v -> value_of r' ds u p v.
Proof.
  intros H [(l1 & d & l2 & E & H1 & H2)|[H1 H2]].
  - left. exists l1, d, l2. split; [exact E|]. split; [eapply gives_ext; eauto|]. intros d' Hd v' Hv. eapply (H2 d' Hd v'), gives_ext; [|exact Hv]. congruence.
  - right. split; [|exact H2]. intros d Hd v' Hv. eapply (H1 d Hd v'), gives_ext; [|exact Hv]. congruence.
Qed.
Lemma up_to_date_values unset f s n c r0 : up_to_date unset f s n -> f_sheet f n = Some c -> (forall v, nearest (f_forest f) (own f) v n (r0 v)) ->
  forall p, v_values s n p = get_property_values c (f_rules f n) (f_inline f n) r0 unset p.
Proof.
  intros Hu Ec Hr0 p. destruct (Hu c Ec) as (r & (o & Ho & Hr) & Hv).
  assert (Eo : forall a k, o a k = own f a k).
  { intros a k. specialize (Ho a k). unfold own. destruct (o a k) as [ts|]; [symmetry; apply last_entry_get, Ho|]. symmetry. apply get_none, Ho. }
  assert (Er : forall v, r v = r0 v). { intros v. eapply nearest_det; [apply Hr|]. eapply nearest_transfer; [apply Hr0|]. intros a _. split; [reflexivity|apply Eo]. }
  rewrite values_flat. eapply value_det; [apply Hv|]. eapply value_ext; [intros v; symmetry; apply Er|]. apply (fold_value r0 (declarations f c n) unset p).
Qed.
