From Coq Require Import Ascii String NArith.
From Verif Require Import Base Report ReportSpec ReportProofs LoadErrors LoadErrorsSpec LoadErrorsProofs.
Open Scope nat_scope.

Section Text.
Variable c : text.

Definition placed (e : err) : Prop := into_range (e_place e) c <> None.
Definition located (e : err) : list rep := match into_range (e_place e) c with Some r => [RError (e_code e) r] | None => [] end.
(** [x] does not panic exactly when [S] holds, and then reports exactly [ms] *)
Definition ok (x : option out) (S : Prop) (ms : list err) : Prop :=
  match x with Some o => S /\ filter is_error (snd o) = flat_map located ms | None => ~ S end.

Lemma ok_iff x S S' ms : (S <-> S') -> ok x S ms -> ok x S' ms.
Proof. intros E. unfold ok. destruct x; tauto. Qed.
Lemma ok_error e : ok (add_error c e) (placed e) [e].
Proof.
  unfold add_error, placed, located, ok. cbn [flat_map]. destruct (into_range (e_place e) c) eqn:E; cbn [option_map].
  - split; [discriminate|]. unfold located. rewrite E. reflexivity.
  - intros H. apply H. reflexivity.
Qed.
Lemma ok_quiet o : filter is_error (snd o) = [] -> ok (Some o) True [].
Proof. intros H. split; [exact I | exact H]. Qed.
Lemma ok_join x y S1 S2 m1 m2 : ok x S1 m1 -> ok y S2 m2 -> ok (match x with None => None | Some a => option_map (join a) y end) (S1 /\ S2) (m1 ++ m2).
Proof.
  unfold ok. destruct x as [a|]; [|tauto]. destruct y as [b|]; [|cbn; tauto]. cbn [option_map join snd]. intros (H1 & E1) (H2 & E2). split; [auto|].
  rewrite filter_app, flat_map_app, E1, E2. reflexivity.
Qed.
Lemma seq_cons x l : seq (x :: l) = match x with None => None | Some a => option_map (join a) (seq l) end.
Proof. destruct x; reflexivity. Qed.
Lemma ok_cons x l S1 S2 m1 m2 : ok x S1 m1 -> ok (seq l) S2 m2 -> ok (seq (x :: l)) (S1 /\ S2) (m1 ++ m2).
Proof. rewrite seq_cons. apply ok_join. Qed.
Lemma ok_nil : ok (seq []) True [].
Proof. apply ok_quiet. reflexivity. Qed.
Lemma ok_map {A} (f : A -> option out) (S : A -> Prop) (M : A -> list err) l : (forall a, In a l -> ok (f a) (S a) (M a)) -> ok (seq (map f l)) (forall a, In a l -> S a) (flat_map M l).
Proof.
  induction l as [|a l IH]; intros H; [apply (ok_iff _ True); [cbn; tauto | apply ok_nil]|]. cbn [map flat_map].
  apply (ok_iff _ (S a /\ forall b, In b l -> S b)); [|apply ok_cons; [apply H; left; reflexivity | apply IH; intros b Hb; apply H; right; exact Hb]].
  cbn [In]. split; [intros (H1 & H2) b [<-|Hb]; auto | intros H1; split; [|intros b Hb]; apply H1; auto].
Qed.
Lemma ok_end l o S ms : filter is_error (snd o) = [] -> ok (seq l) S ms -> ok (seq (l ++ [Some o])) S ms.
Proof.
  intros Ho. revert S ms. induction l as [|x l IH]; intros S ms H.
  - unfold ok in *. cbn in *. rewrite app_nil_r. destruct H as (H & E). split; [exact H|]. rewrite Ho. exact E.
  - cbn [app]. rewrite seq_cons in *. destruct x as [a|]; [|exact H]. unfold ok in H. unfold ok.
    destruct (seq l) as [b|] eqn:E; cbn [option_map] in H.
    + destruct H as (HS & Em). specialize (IH True (ms)). assert (exists b', seq (l ++ [Some o]) = Some b' /\ filter is_error (snd b') = filter is_error (snd b)) as (b' & -> & Eb).
      { clear IH Em HS. revert b E. induction l as [|y l IHl]; intros b E.
        - injection E as <-. cbn. eexists. split; [reflexivity|]. cbn. rewrite app_nil_r. exact Ho.
        - cbn [app]. rewrite seq_cons in *. destruct y as [y|]; [|discriminate]. destruct (seq l) as [b0|]; [|discriminate]. cbn [option_map] in E. injection E as <-.
          destruct (IHl _ eq_refl) as (b' & -> & E). cbn [option_map]. eexists. split; [reflexivity|]. cbn [join snd]. rewrite !filter_app, E. reflexivity. }
      cbn [option_map]. split; [exact HS|]. cbn [join snd] in *. rewrite filter_app in *. rewrite Eb. exact Em.
    + assert (seq (l ++ [Some o]) = None) as ->; [|exact H]. clear IH H. revert E. induction l as [|y l IHl]; intros E; [discriminate|]. cbn [app]. rewrite seq_cons in *.
      destruct y as [y|]; [|reflexivity]. destruct (seq l); [discriminate|]. rewrite (IHl eq_refl). reflexivity.
Qed.

Definition bind {A B} (x : option A) (f : A -> option B) : option B := match x with Some a => f a | None => None end.
Lemma bind_all {A B} (parse : A -> option B) (g : B -> option out) l : bind (all (map parse l)) (fun ps => seq (map g ps)) = seq (map (fun a => bind (parse a) g) l).
Proof.
  induction l as [|a l IH]; [reflexivity|]. cbn [map all]. rewrite seq_cons. destruct (parse a) as [p|]; cbn [bind]; [|reflexivity].
  rewrite <- IH. destruct (all (map parse l)) as [ps|]; cbn [bind option_map]; [|destruct (g p); reflexivity]. cbn [map]. apply seq_cons.
Qed.

(** ** One declaration of a rule *)
Definition simple_g (g : prop -> option out) : Prop :=
  (forall e, g (PError e) = add_error c e) /\
  (forall p, match p with PProp _ _ | PAnim _ _ | PTrans _ | PVar _ => exists o, g p = Some o /\ filter is_error (snd o) = [] | _ => True end).
Definition fine_d (d : ditem) : Prop := sound_rule_decl d /\ forall m, In m (mistakes_d true d) -> placed m.

Lemma improved_located e sub : e_place e <> Unlocated -> improved e sub = e.
Proof. intros H. unfold improved. destruct e as [k p]. cbn in *. destruct p; try reflexivity. contradiction. Qed.
Lemma unlocated_not_placed e : e_place e = Unlocated -> add_error c e = None.
Proof. intros H. unfold add_error. rewrite H. reflexivity. Qed.
Lemma lost_dec e : e_place e = Unlocated \/ e_place e <> Unlocated.
Proof. destruct (e_place e); [right|left|right|right]; try discriminate; reflexivity. Qed.

(** the value of a declaration whose errors keep their place *)
Lemma ok_kept g p v sub : simple_g g -> match p with PProp _ _ | PAnim _ _ | PTrans _ | PVar _ => True | _ => False end ->
  ok (g (match v with VGood _ => p | VBad e => PError e end)) (~ lost v /\ forall m, In m (match v with VGood _ => [] | VBad e => [improved e sub] end) -> placed m) (match v with VGood _ => [] | VBad e => [improved e sub] end).
Proof.
  intros (Ge & Gp) Hp. destruct v as [i|e].
  - specialize (Gp p). assert (exists o, g p = Some o /\ filter is_error (snd o) = []) as (o & -> & Ho) by (destruct p; tauto).
    apply (ok_iff _ True); [|apply ok_quiet; exact Ho]. cbn. tauto.
  - rewrite Ge. cbn [lost In]. destruct (lost_dec e) as [Hl|Hl].
    + rewrite (unlocated_not_placed _ Hl). unfold ok. tauto.
    + rewrite (improved_located _ _ Hl). apply (ok_iff _ (placed e)); [|apply ok_error]. split; [intros H; split; [exact Hl|]; intros m [<-|[]]; exact H | intros (_ & H); apply H; auto].
Qed.
Lemma ok_ditem g d : simple_g g -> ok (bind (parse_ditem true d) g) (fine_d d) (mistakes_d true d).
Proof.
  intros G. destruct d as [id name v sub|e sub].
  2:{ cbn [parse_ditem bind mistakes_d]. rewrite (proj1 G). apply (ok_iff _ (placed (improved e sub))); [|apply ok_error].
      unfold fine_d. cbn. split; [intros H; split; [exact I|]; intros m [<-|[]]; exact H | intros (_ & H); apply H; auto]. }
  unfold fine_d, sound_rule_decl, mistakes_d. cbn [parse_ditem andb].
  destruct (parse_value true id name v) as [[p|e]|] eqn:Ev; cbn [bind].
  - assert (~ (custom name = false /\ split_char name)) as Hns by (intros H; apply (parse_value_none id name v) in H; congruence).
    unfold parse_value in Ev. rewrite custom_spec in Ev. destruct (custom name) eqn:Ec.
    + injection Ev as <-. assert (unsupported name = false) as -> by (unfold unsupported; rewrite Ec; reflexivity).
      eapply ok_iff; [|apply (ok_kept g (PVar id) v sub G I)]. split; [intros (H1 & H2) | intros ((_ & _ & H1) & H2)].
      * split; [split; [discriminate|]; split; [reflexivity|]; intros _; exact H1|]. destruct v; exact H2.
      * split; [apply H1; left; reflexivity | destruct v; exact H2].
    + assert (forall known code q, p = motion known code v q -> match q with PAnim _ _ | PTrans _ => True | _ => False end -> known = supported name -> unsupported name = negb (supported name) ->
         ok (g p) (((false = false -> ~ split_char name) /\ unsupported name = false /\ (false = true \/ supported name = true -> ~ lost v)) /\
            (forall m, In m (if unsupported name then [mkerr (if transitions name then code_unknown_transition else code_unknown_animation) (SubStr (fst sub) (snd sub))] else match v with VGood _ => [] | VBad e => [improved e sub] end) -> placed m))
            (if unsupported name then [mkerr (if transitions name then code_unknown_transition else code_unknown_animation) (SubStr (fst sub) (snd sub))] else match v with VGood _ => [] | VBad e => [improved e sub] end)) as Hm.
      { intros known code q -> Hq -> Hu. unfold motion. rewrite Hu. destruct (supported name) eqn:Es; cbn [negb].
        - eapply ok_iff; [|apply (ok_kept g q v sub G)]; [|destruct q; tauto]. split; [intros (H1 & H2) | intros ((_ & _ & H1) & H2)].
          + split; [split; [intros _ H; apply Hns; auto|]; split; [reflexivity|]; intros _; exact H1 | destruct v; exact H2].
          + split; [apply H1; right; reflexivity | destruct v; exact H2].
        - rewrite (proj1 G), unlocated_not_placed by reflexivity. cbn. intros ((_ & H & _) & _). discriminate. }
      destruct (prefix_ci name (tx "transition")) as [[]|] eqn:Et; [| |discriminate].
      * injection Ev as <-. pose proof (prefix_some _ _ _ low_transition Et) as Ht.
        apply (Hm (one_of name transition_names) code_unknown_transition (PTrans id)); [reflexivity|exact I|apply supported_transition; exact Ht|]. unfold unsupported, transitions. rewrite Ec, Ht. reflexivity.
      * destruct (prefix_ci name (tx "animation")) as [[]|] eqn:Ea; [| |discriminate].
        -- injection Ev as <-. pose proof (prefix_some _ _ _ low_animation Ea) as Ha.
           apply (Hm (one_of name animation_names) code_unknown_animation (PAnim id (eq_ci name (tx "animation-timing-function")))); [reflexivity|exact I|apply supported_animation; exact Ha|].
           unfold unsupported, animations. rewrite Ec, Ha, orb_true_r. reflexivity.
        -- unfold ordinary in Ev. destruct v as [i|]; [|discriminate]. injection Ev as <-.
           assert (unsupported name = false) as Hu.
           { unfold unsupported, transitions, animations. rewrite (prefix_some _ _ _ low_transition Et), (prefix_some _ _ _ low_animation Ea). cbn. rewrite andb_false_r. reflexivity. }
           rewrite Hu. destruct (proj2 G (PProp id i)) as (o & -> & Ho). apply (ok_iff _ True); [|apply ok_quiet; exact Ho]. cbn. intuition.
  - assert (~ (custom name = false /\ split_char name)) as Hns by (intros H; apply (parse_value_none id name v) in H; congruence).
    unfold parse_value in Ev. rewrite custom_spec in Ev. destruct (custom name) eqn:Ec; [discriminate|].
    destruct (prefix_ci name (tx "transition")) as [[]|] eqn:Et; [discriminate| |discriminate]. destruct (prefix_ci name (tx "animation")) as [[]|] eqn:Ea; [discriminate| |discriminate].
    unfold ordinary in Ev. destruct v as [|e0]; [discriminate|]. injection Ev as <-.
    assert (transitions name = false /\ animations name = false) as (Ht & Ha) by (split; [apply (prefix_some _ _ _ low_transition Et) | apply (prefix_some _ _ _ low_animation Ea)]).
    assert (unsupported name = false) as Hu by (unfold unsupported; rewrite Ht, Ha; cbn; rewrite andb_false_r; reflexivity).
    assert (supported name = false) as Hsu. { destruct (supported name) eqn:E; [|reflexivity]. apply supported_moves in E as (_ & [E|E]); congruence. }
    rewrite Hu, (proj1 G). apply (ok_iff _ (placed (improved e0 sub))); [|apply ok_error]. rewrite Hsu. split.
    + intros H. split; [split; [intros _ Hs; apply Hns; auto|]; split; [reflexivity|]; intros [?|?]; discriminate|]. intros m [<-|[]]. exact H.
    + intros (_ & H). apply H. left. reflexivity.
  - apply parse_value_none in Ev as (Ec & Hs). cbn. rewrite Ec. intros ((H & _) & _). exact (H eq_refl Hs).
Qed.

(** ** Rules *)
Section Induction.
Variable P : bitem -> Prop.
Hypothesis HD : forall d, P (D d).
Hypothesis HN : forall sel l, (forall b, In b l -> P b) -> P (N sel l).
Fixpoint bitem_ind' (b : bitem) : P b :=
  match b with
  | D d => HD d
  | N sel l => HN sel l ((fix go (l : list bitem) : forall b, In b l -> P b :=
      match l with [] => fun b H => match H with end | x :: r => fun b H => match H with or_introl E => match E in _ = y return P y with eq_refl => bitem_ind' x end | or_intror H' => go r b H' end end) l)
  end.
End Induction.

Definition fine_b (b : bitem) : Prop := (forall d, In d (decls_b b) -> sound_rule_decl d) /\ (forall m, In m (mistakes_b b) -> placed m).
Lemma simple_report : simple_g (report_errors c).
Proof. split; [reflexivity|]. intros []; try exact I; eexists; split; reflexivity. Qed.
Lemma simple_process path : simple_g (process_prop c path).
Proof. split; [reflexivity|]. intros []; try exact I; eexists; (split; [reflexivity|]); try reflexivity. destruct important; reflexivity. Qed.

Lemma fine_list l : (forall b, In b l -> fine_b b) <-> (forall d, In d (flat_map decls_b l) -> sound_rule_decl d) /\ (forall m, In m (flat_map mistakes_b l) -> placed m).
Proof.
  unfold fine_b. split.
  - intros H. split; intros x Hx; apply in_flat_map in Hx as (b & Hb & Hx); destruct (H b Hb); auto.
  - intros (H1 & H2) b Hb. split; intros x Hx; [apply H1 | apply H2]; apply in_flat_map; eauto.
Qed.
Lemma ok_sel_list sel l f : (forall b, In b l -> ok (f b) (fine_b b) (mistakes_b b)) ->
  ok (seq (match sel with inr e => add_error c e | inl _ => Some ([], []) end :: map f l)) (fine_b (N sel l)) (mistakes_b (N sel l)).
Proof.
  intros H. cbn [mistakes_b]. eapply ok_iff; [|apply ok_cons; [|apply (ok_map f fine_b mistakes_b l H)]].
  2:{ instantiate (1 := forall m, In m (mistakes_sel sel) -> placed m). destruct sel as [s|e]; cbn [mistakes_sel In].
      - apply (ok_iff _ True); [tauto|]. apply ok_quiet. reflexivity.
      - apply (ok_iff _ (placed e)); [|apply ok_error]. split; [intros H' m [<-|[]]; exact H' | intros H'; apply H'; auto]. }
  rewrite fine_list. unfold fine_b. cbn [decls_b mistakes_b]. split.
  - intros (H1 & H2 & H3). split; [exact H2|]. intros m Hm. apply in_app_or in Hm as [Hm|Hm]; auto.
  - intros (H1 & H2). split; [|split]; [|exact H1|]; intros m Hm; apply H2; apply in_or_app; auto.
Qed.
Lemma ok_report b : ok (bind (parse_bitem b) (report_errors c)) (fine_b b) (mistakes_b b).
Proof.
  induction b as [d|sel l IH] using bitem_ind'.
  - eapply ok_iff; [|apply (ok_ditem (report_errors c) d simple_report)]. unfold fine_d, fine_b. cbn [decls_b In mistakes_b]. intuition (subst; auto).
  - pose proof (ok_sel_list sel l _ IH) as H. rewrite seq_cons, <- bind_all in H. cbn [parse_bitem]. destruct (all (map parse_bitem l)) as [ps|]; cbn [bind option_map] in *.
    + cbn [report_errors]. rewrite seq_cons. exact H.
    + destruct sel as [s|e]; [exact H|]. destruct (add_error c e); exact H.
Qed.
Lemma ok_process b : forall path, ok (bind (parse_bitem b) (process_prop c path)) (fine_b b) (mistakes_b b).
Proof.
  induction b as [d|sel l IH] using bitem_ind'; intros path.
  - eapply ok_iff; [|apply (ok_ditem (process_prop c path) d (simple_process path))]. unfold fine_d, fine_b. cbn [decls_b In mistakes_b]. intuition (subst; auto).
  - cbn [parse_bitem]. destruct sel as [s|e].
    + pose proof (ok_sel_list (inl s) l _ (fun b Hb => IH b Hb (path ++ [s]))) as H. rewrite seq_cons, <- bind_all in H. cbn [process_prop].
      destruct (all (map parse_bitem l)) as [ps|]; cbn [bind option_map process_prop] in *; [|exact H].
      rewrite seq_cons. pose proof (ok_end (map (process_prop c (path ++ [s])) ps) ([CRuleset path], []) (fine_b (N (inl s) l)) (mistakes_b (N (inl s) l)) eq_refl) as He.
      unfold ok in *. destruct (seq (map _ ps)) as [o|]; cbn [option_map join fst snd app] in *.
      * specialize (He H). destruct (seq (_ ++ _)) as [o'|]; cbn [option_map join fst snd app]; exact He.
      * specialize (He H). destruct (seq (_ ++ _)) as [o'|]; cbn [option_map join fst snd app]; exact He.
    + pose proof (ok_sel_list (inr e) l _ (fun b _ => ok_report b)) as H. rewrite seq_cons, <- bind_all in H.
      destruct (all (map parse_bitem l)) as [ps|]; cbn [bind option_map process_prop] in *; [|destruct (add_error c e); exact H].
      rewrite seq_cons. change (add_error c e :: map (report_errors c) ps ++ [Some ([CRuleset path], [])]) with ((add_error c e :: map (report_errors c) ps) ++ [Some ([CRuleset path], [])]).
      rewrite <- seq_cons. apply (ok_end (add_error c e :: map (report_errors c) ps)); [reflexivity|]. rewrite seq_cons. exact H.
Qed.
Lemma ok_rule sel l : ok (bind (parse_body l) (process_rule c sel)) (fine_b (N sel l)) (mistakes_b (N sel l)).
Proof.
  unfold parse_body. destruct sel as [s|e].
  - pose proof (ok_sel_list (inl s) l _ (fun b _ => ok_process b [s])) as H. rewrite seq_cons, <- bind_all in H.
    destruct (all (map parse_bitem l)) as [ps|]; cbn [bind process_rule] in *; [|exact H]. rewrite seq_cons.
    unfold ok in *. destruct (seq (map _ ps)) as [o|]; cbn [option_map join fst snd app] in *; exact H.
  - pose proof (ok_sel_list (inr e) l _ (fun b _ => ok_report b)) as H. rewrite seq_cons, <- bind_all in H.
    destruct (all (map parse_bitem l)) as [ps|]; cbn [bind process_rule] in *; [rewrite seq_cons; exact H | destruct (add_error c e); exact H].
Qed.

(** ** Blocks *)
Section InnerInduction.
Variable P : inner -> Prop.
Hypothesis HR : forall sel l, P (IRule sel l).
Hypothesis HB : forall l, (forall i, In i l -> P i) -> P (IBlock l).
Hypothesis HO : forall id, P (IOther id).
Hypothesis HJ : forall e sub, P (IJunk e sub).
Fixpoint inner_ind' (i : inner) : P i :=
  match i with
  | IRule sel l => HR sel l
  | IBlock l => HB l ((fix go (l : list inner) : forall b, In b l -> P b :=
      match l with [] => fun b H => match H with end | x :: r => fun b H => match H with or_introl E => match E in _ = y return P y with eq_refl => inner_ind' x end | or_intror H' => go r b H' end end) l)
  | IOther id => HO id
  | IJunk e sub => HJ e sub
  end.
End InnerInduction.
Definition fine_i (i : inner) : Prop := (forall d, In d (decls_i i) -> sound_rule_decl d) /\ (forall m, In m (mistakes_i i) -> placed m).
Lemma ok_inner i : ok (bind (parse_inner i) (process c)) (fine_i i) (mistakes_i i).
Proof.
  induction i as [sel l|l IH|id|e sub] using inner_ind'.
  - pose proof (ok_rule sel l) as H. cbn [parse_inner]. destruct (parse_body l); exact H.
  - cbn [parse_inner]. pose proof (ok_map (fun i => bind (parse_inner i) (process c)) fine_i mistakes_i l IH) as H. rewrite <- bind_all in H.
    apply (ok_iff _ _ (fine_i (IBlock l))) in H.
    + destruct (all (map parse_inner l)); exact H.
    + unfold fine_i. cbn [decls_i mistakes_i]. split.
      * intros H'. split; intros x Hx; apply in_flat_map in Hx as (b & Hb & Hx); destruct (H' b Hb); auto.
      * intros (H1 & H2) b Hb. split; intros x Hx; [apply H1 | apply H2]; apply in_flat_map; eauto.
  - apply (ok_iff _ True); [|apply ok_quiet; reflexivity]. unfold fine_i. cbn. tauto.
  - cbn [parse_inner bind process mistakes_i]. apply (ok_iff _ (placed (improved e sub))); [|apply ok_error]. unfold fine_i. cbn [decls_i mistakes_i In].
    split; [intros H; split; [tauto|]; intros m [<-|[]]; exact H | intros (_ & H); apply H; auto].
Qed.

(** ** Font faces *)
Lemma font_loop_spec l : forall f s es, font_loop f s es (map parse_fitem l) =
  (match fst (fst (font_loop None None [] (map parse_fitem l))) with Some n => Some n | None => f end,
   match snd (fst (font_loop None None [] (map parse_fitem l))) with Some n => Some n | None => s end, es ++ flat_map mistakes_f l).
Proof.
  induction l as [|x l IH]; intros f s es; [cbn; rewrite app_nil_r; reflexivity|].
  cbn [map flat_map]. destruct (parse_fitem x) as [n|n|e] eqn:E; cbn [font_loop].
  - assert (mistakes_f x = []) as ->.
    { destruct x as [name [v|v] sub|]; cbn [parse_fitem mistakes_f] in *; try discriminate; destruct (eq_ci name (tx "font-family")) eqn:E1; try discriminate; try reflexivity; destruct (eq_ci name (tx "src")); discriminate. }
    rewrite (IH (Some n) s es), (IH (Some n) None []). cbn [fst snd app]. destruct (fst (fst _)), (snd (fst _)); reflexivity.
  - assert (mistakes_f x = []) as ->.
    { destruct x as [name [v|v] sub|]; cbn [parse_fitem mistakes_f] in *; try discriminate; destruct (eq_ci name (tx "font-family")) eqn:E1; try discriminate; destruct (eq_ci name (tx "src")); try discriminate; reflexivity. }
    rewrite (IH f (Some n) es), (IH None (Some n) []). cbn [fst snd app]. destruct (fst (fst _)), (snd (fst _)); reflexivity.
  - assert (mistakes_f x = [e]) as ->.
    { destruct x as [name [v|v] sub|]; cbn [parse_fitem mistakes_f] in *; [| |congruence]; destruct (eq_ci name (tx "font-family")) eqn:E1; try discriminate; try (injection E as <-; reflexivity);
        destruct (eq_ci name (tx "src")); try discriminate; injection E as <-; reflexivity. }
    rewrite (IH f s (es ++ [e])), (IH None None ([] ++ [e])). cbn [fst snd]. rewrite <- app_assoc. destruct (fst (fst _)), (snd (fst _)); reflexivity.
Qed.
Lemma font_family l : fst (fst (font_loop None None [] (map parse_fitem l))) <> None <-> has_family l.
Proof.
  induction l as [|x l IH]; [cbn; split; [congruence | intros (? & ? & ? & [] & _)]|]. cbn [map].
  assert (has_family (x :: l) <-> (exists n, parse_fitem x = FFamily n) \/ has_family l) as ->.
  { unfold has_family. cbn [In]. split.
    - intros (name & n & sub & [-> | H] & E); [left; exists n; cbn [parse_fitem]; rewrite E; reflexivity | right; eauto 6].
    - intros [(n & E)|(name & n & sub & H & E)]; [|eauto 8]. destruct x as [name [v|v] sub|]; cbn [parse_fitem] in E; try discriminate.
      + destruct (eq_ci name (tx "font-family")) eqn:E1; [|destruct (eq_ci name (tx "src")); discriminate]. exists name, v, sub. auto.
      + destruct (eq_ci name (tx "font-family")); [discriminate|]. destruct (eq_ci name (tx "src")); discriminate. }
  destruct (parse_fitem x) as [n|n|e]; cbn [font_loop].
  - rewrite (font_loop_spec l (Some n) None []). cbn [fst]. split; [intros _; left; eauto | intros _; destruct (fst (fst _)); discriminate].
  - rewrite (font_loop_spec l None (Some n) []). cbn [fst]. rewrite <- IH. destruct (fst (fst _)); split; try congruence; try tauto; intros [(? & ?)|?]; congruence.
  - rewrite (font_loop_spec l None None ([] ++ [e])). cbn [fst]. rewrite <- IH. destruct (fst (fst _)); split; try congruence; try tauto; intros [(? & ?)|?]; congruence.
Qed.
Lemma font_source l : snd (fst (font_loop None None [] (map parse_fitem l))) <> None <-> has_source l.
Proof.
  induction l as [|x l IH]; [cbn; split; [congruence | intros (? & ? & ? & [] & _)]|]. cbn [map].
  assert (has_source (x :: l) <-> (exists n, parse_fitem x = FSource n) \/ has_source l) as ->.
  { unfold has_source. cbn [In]. split.
    - intros (name & n & sub & [-> | H] & E); [left; exists n; cbn [parse_fitem] | right; eauto 6]. destruct (eq_ci name (tx "font-family")) eqn:E1; [|rewrite E; reflexivity].
      exfalso. apply eq_ci_spec in E, E1. rewrite E in E1. discriminate.
    - intros [(n & E)|(name & n & sub & H & E)]; [|eauto 8]. destruct x as [name [v|v] sub|]; cbn [parse_fitem] in E; try discriminate.
      + destruct (eq_ci name (tx "font-family")) eqn:E1; [discriminate|]. destruct (eq_ci name (tx "src")) eqn:E2; [|discriminate]. exists name, v, sub. auto.
      + destruct (eq_ci name (tx "font-family")); [discriminate|]. destruct (eq_ci name (tx "src")); discriminate. }
  destruct (parse_fitem x) as [n|n|e]; cbn [font_loop].
  - rewrite (font_loop_spec l (Some n) None []). cbn [fst snd]. rewrite <- IH. destruct (snd (fst _)); split; try congruence; try tauto; intros [(? & ?)|?]; congruence.
  - rewrite (font_loop_spec l None (Some n) []). cbn [fst snd]. split; [intros _; left; eauto | intros _; destruct (snd (fst _)); discriminate].
  - rewrite (font_loop_spec l None None ([] ++ [e])). cbn [fst snd]. rewrite <- IH. destruct (snd (fst _)); split; try congruence; try tauto; intros [(? & ?)|?]; congruence.
Qed.
Definition fine_f (l : list fitem) : Prop := (has_family l /\ has_source l) /\ forall m, In m (flat_map mistakes_f l) -> placed m.
Lemma ok_font l : ok (process c (parse_font l)) (fine_f l) (flat_map mistakes_f l).
Proof.
  unfold parse_font. pose proof (font_family l) as Hf. pose proof (font_source l) as Hs. rewrite (font_loop_spec l None None []). cbn [app].
  apply (ok_iff _ ((fst (fst (font_loop None None [] (map parse_fitem l))) <> None /\ snd (fst (font_loop None None [] (map parse_fitem l))) <> None) /\ forall m, In m (flat_map mistakes_f l) -> placed m));
    [unfold fine_f; tauto|]. clear Hf Hs.
  destruct (fst (fst _)) as [f|]; [destruct (snd (fst _)) as [s|]|].
  - cbn [process]. apply ok_end; [reflexivity|].
    assert (forall L, flat_map (fun x : err => [x]) L = L) as Hid by (induction L as [|x L IHL]; [reflexivity | cbn; rewrite IHL; reflexivity]).
    pose proof (ok_map (add_error c) placed (fun x => [x]) (flat_map mistakes_f l) (fun e _ => ok_error e)) as H. rewrite Hid in H.
    eapply ok_iff; [|exact H]. split; [intros H'; split; [split; discriminate | exact H'] | intros (_ & H'); exact H'].
  - cbn. tauto.
  - cbn. tauto.
Qed.

(** ** Keyframes *)
Definition lift (x : option (list nat * list rep)) : option out := option_map (fun o => ([], snd o)) x.
Lemma lift_seq l : lift (seq_k l) = seq (map lift l).
Proof.
  induction l as [|[a|] l IH]; [reflexivity| |reflexivity]. cbn [seq_k map]. change (lift (Some a)) with (Some (([], snd a) : out)). rewrite seq_cons, <- IH. destruct (seq_k l); reflexivity.
Qed.
Definition fine_kd (d : ditem) : Prop := sound_keyframe_decl d /\ forall m, In m (mistakes_d false d) -> placed m.
Lemma ok_kditem d : ok (bind (parse_ditem false d) (fun p => lift (process_kprop c p))) (fine_kd d) (mistakes_d false d).
Proof.
  assert (forall e, lift (process_kprop c (PError e)) = add_error c e) as He.
  { intros e. unfold lift, process_kprop, add_error. destruct (into_range _ _); reflexivity. }
  destruct d as [id name v sub|e sub]; unfold fine_kd, sound_keyframe_decl, mistakes_d; cbn [parse_ditem andb].
  2:{ cbn [bind]. rewrite He. apply (ok_iff _ (placed (improved e sub))); [|apply ok_error]. cbn. split; [intros H; split; [exact I|]; intros m [<-|[]]; exact H | intros (_ & H); apply H; auto]. }
  unfold parse_value. destruct (eq_ci name (tx "animation-timing-function")) eqn:Et.
  - cbn [bind]. unfold motion. assert (one_of name animation_names = true) as ->.
    { apply one_of_says; [apply low_tables|]. exists "animation-timing-function"%string. split; [cbn; tauto|]. apply eq_ci_spec in Et. exact Et. }
    destruct v as [i|e]; cbn [lost].
    + apply (ok_iff _ True); [|apply ok_quiet; reflexivity]. cbn. tauto.
    + rewrite He. destruct (lost_dec e) as [Hl|Hl].
      * rewrite (unlocated_not_placed _ Hl). unfold ok. intros (H & _). exact (H eq_refl Hl).
      * rewrite (improved_located _ _ Hl). apply (ok_iff _ (placed e)); [|apply ok_error]. split; [intros H; split; [auto|]; intros m [<-|[]]; exact H | intros (_ & H); apply H; cbn; auto].
  - destruct v as [i|e]; cbn [ordinary bind].
    + apply (ok_iff _ True); [|apply ok_quiet; reflexivity]. cbn. intuition discriminate.
    + rewrite He. apply (ok_iff _ (placed (improved e sub))); [|apply ok_error]. split; [intros H; split; [discriminate|]; intros m [<-|[]]; exact H | intros (_ & H); apply H; cbn; auto].
Qed.
Definition decls_k (k : kitem) : list ditem := match k with KFrame b => b | _ => [] end.
Definition fine_k (k : kitem) : Prop := (forall d, In d (decls_k k) -> sound_keyframe_decl d) /\ forall m, In m (mistakes_k k) -> placed m.
Lemma ok_kitem k : ok (bind (parse_kitem k) (fun f => lift (process_kframe c f))) (fine_k k) (mistakes_k k).
Proof.
  destruct k as [body|e sub]; cbn [parse_kitem].
  - pose proof (ok_map (fun d => bind (parse_ditem false d) (fun p => lift (process_kprop c p))) fine_kd (mistakes_d false) body (fun d _ => ok_kditem d)) as H.
    rewrite <- bind_all in H. apply (ok_iff _ _ (fine_k (KFrame body))) in H.
    + destruct (all (map (parse_ditem false) body)) as [ps|]; cbn [bind option_map process_kframe] in *; [|exact H]. rewrite lift_seq, map_map. exact H.
    + unfold fine_k, fine_kd. cbn [decls_k mistakes_k]. split.
      * intros H'. split; [intros d Hd; apply (H' d Hd)|]. intros m Hm. apply in_flat_map in Hm as (d & Hd & Hm). apply (H' d Hd), Hm.
      * intros (H1 & H2) d Hd. split; [auto|]. intros m Hm. apply H2, in_flat_map. eauto.
  - cbn [bind]. assert (lift (process_kframe c (KError (improved e sub))) = add_error c (improved e sub)) as ->.
    { unfold lift, process_kframe, add_error. destruct (into_range _ _); reflexivity. }
    apply (ok_iff _ (placed (improved e sub))); [|apply ok_error]. unfold fine_k. cbn. split; [intros H; split; [tauto|]; intros m [<-|[]]; exact H | intros (_ & H); apply H; auto].
Qed.
Definition fine_ks (l : list kitem) : Prop := (forall d, In d (flat_map decls_k l) -> sound_keyframe_decl d) /\ forall m, In m (flat_map mistakes_k l) -> placed m.
Lemma ok_keyframes name l : ok (bind (all (map parse_kitem l)) (fun ks => process c (ItKeyframes name ks))) (fine_ks l) (flat_map mistakes_k l).
Proof.
  pose proof (ok_map (fun k => bind (parse_kitem k) (fun f => lift (process_kframe c f))) fine_k mistakes_k l (fun k _ => ok_kitem k)) as H.
  rewrite <- bind_all in H. apply (ok_iff _ _ (fine_ks l)) in H.
  - destruct (all (map parse_kitem l)) as [ks|]; cbn [bind process] in *; [|exact H]. rewrite <- (map_map (process_kframe c) lift), <- lift_seq in H.
    destruct (seq_k (map (process_kframe c) ks)); exact H.
  - unfold fine_k, fine_ks. split.
    + intros H'. split; intros x Hx; apply in_flat_map in Hx as (b & Hb & Hx); destruct (H' b Hb); auto.
    + intros (H1 & H2) b Hb. split; intros x Hx; [apply H1 | apply H2]; apply in_flat_map; eauto.
Qed.

(** ** Sheets *)
Definition fine_t (t : top) : Prop := match t with TInner i => fine_i i | TFont l => fine_f l | TKeyframes _ l => fine_ks l end.
Fixpoint fresh (seen : list nat) (l : list top) : Prop :=
  match l with
  | [] => True
  | TKeyframes n _ :: r => ~ In n seen /\ fresh (n :: seen) r
  | _ :: r => fresh seen r
  end.
Lemma ok_tops l : forall seen, ok (bind (parse_tops seen l) (fun its => seq (map (process c) its))) ((forall t, In t l -> fine_t t) /\ fresh seen l) (mistakes l).
Proof.
  induction l as [|t l IH]; intros seen.
  - apply (ok_iff _ True); [cbn; tauto | apply ok_nil].
  - assert (forall x its S ms, ok x S ms -> ok (bind its (fun i => seq (map (process c) i))) ((forall t, In t l -> fine_t t) /\ fresh seen l) (mistakes l) ->
      (S <-> fine_t t) -> ms = mistakes_t t -> fresh seen (t :: l) = fresh seen l ->
      ok (match x with None => None | Some a => option_map (join a) (bind its (fun i => seq (map (process c) i))) end) ((forall t', In t' (t :: l) -> fine_t t') /\ fresh seen (t :: l)) (mistakes (t :: l))) as Hstep.
    { intros x its S ms Hx Hi HS -> Ef. unfold mistakes. cbn [flat_map]. rewrite Ef. eapply ok_iff; [|apply ok_join; [exact Hx | exact Hi]]. rewrite HS. cbn [In]. split.
      - intros (H1 & H2 & H3). split; [|exact H3]. intros t' [<-|H']; auto.
      - intros (H1 & H2). split; [apply H1; left; reflexivity|]. split; [|exact H2]. intros t' H'. apply H1. right. exact H'. }
    destruct t as [i|f|n k].
    + pose proof (Hstep _ (parse_tops seen l) _ _ (ok_inner i) (IH seen) (iff_refl _) eq_refl eq_refl) as H. cbn [parse_tops].
      destruct (parse_inner i) as [x|]; cbn [bind] in H; [|exact H]. destruct (parse_tops seen l) as [its|]; cbn [bind option_map map] in *; [rewrite seq_cons; exact H|].
      destruct (process c x); exact H.
    + pose proof (Hstep _ (parse_tops seen l) _ _ (ok_font f) (IH seen) (iff_refl _) eq_refl eq_refl) as H. cbn [parse_tops].
      destruct (parse_tops seen l) as [its|]; cbn [bind option_map map] in *; [rewrite seq_cons; exact H|]. destruct (process c (parse_font f)); exact H.
    + clear Hstep. cbn [parse_tops]. unfold parse_keyframes. pose proof (ok_keyframes n k) as Hk.
      destruct (all (map parse_kitem k)) as [ks|]; cbn [bind] in Hk.
      2:{ cbn. intros (H & _). apply Hk. apply (H (TKeyframes n k)). left. reflexivity. }
      destruct (existsb (Nat.eqb n) seen) eqn:Ex.
      * apply existsb_exists in Ex as (y & Hy & E). apply Nat.eqb_eq in E. subst y.
        assert (~ ((forall t, In t (TKeyframes n k :: l) -> fine_t t) /\ fresh seen (TKeyframes n k :: l))) as Hno by (intros (_ & (H & _)); exact (H Hy)).
        destruct (parse_tops seen l) as [its|]; exact Hno.
      * assert (~ In n seen) as Hn by (intros H; assert (existsb (Nat.eqb n) seen = true) by (apply existsb_exists; exists n; split; [exact H | apply Nat.eqb_refl]); congruence).
        pose proof (ok_join _ _ _ _ _ _ Hk (IH (n :: seen))) as H.
        apply (ok_iff _ _ ((forall t, In t (TKeyframes n k :: l) -> fine_t t) /\ fresh seen (TKeyframes n k :: l))) in H.
        -- destruct (parse_tops (n :: seen) l) as [its|]; cbn [bind option_map map] in *; [rewrite seq_cons; exact H|].
           destruct (process c (ItKeyframes n ks)); exact H.
        -- cbn [In fresh]. split.
           ++ intros (H1 & H2 & H3). split; [|auto]. intros t' [<-|H']; auto.
           ++ intros (H1 & _ & H2). split; [apply (H1 (TKeyframes n k)); left; reflexivity|]. split; [|exact H2]. intros t' H'. apply H1. right. exact H'.
Qed.
Lemma fresh_spec l : forall seen, fresh seen l <-> NoDup (keyframe_names l) /\ forall n, In n seen -> ~ In n (keyframe_names l).
Proof.
  induction l as [|t l IH]; intros seen; [cbn; split; [intros _; split; [constructor | auto] | auto]|].
  destruct t as [i|f|n k]; [apply IH | apply IH|]. unfold keyframe_names. cbn [fresh flat_map app]. fold (keyframe_names l). rewrite IH. split.
  - intros (H1 & H2 & H3). split; [constructor; [apply H3; left; reflexivity | exact H2]|]. intros m Hm [<-|H]; [contradiction|]. apply (H3 m); [right; exact Hm | exact H].
  - intros (H1 & H2). inversion H1; subst. split; [intros H; apply (H2 _ H); left; reflexivity|]. split; [assumption|]. intros m [<-|Hm]; [assumption|]. intros H. apply (H2 _ Hm). right. exact H.
Qed.
Lemma safe_spec l : safe c l <-> (forall t, In t l -> fine_t t) /\ fresh [] l.
Proof.
  unfold safe, rule_decls, keyframe_decls, mistakes. rewrite fresh_spec. split.
  - intros (H1 & H2 & H3 & H4 & H5). split; [|split; [exact H3 | intros n []]]. intros t Ht. destruct t as [i|f|n k]; cbn [fine_t].
    + split; intros x Hx; [apply H1 | apply H5]; apply in_flat_map; eauto.
    + split; [apply H4; exact Ht|]. intros x Hx. apply H5, in_flat_map. exists (TFont f). auto.
    + split; intros x Hx; [apply H2 | apply H5]; apply in_flat_map; exists (TKeyframes n k); auto.
  - intros (H & H3 & _). split; [|split; [|split; [exact H3|split]]].
    + intros d Hd. apply in_flat_map in Hd as ([i|f|n k] & Ht & Hd); try destruct Hd. apply (proj1 (H _ Ht) d Hd).
    + intros d Hd. apply in_flat_map in Hd as ([i|f|n k] & Ht & Hd); try destruct Hd. apply (proj1 (H _ Ht) d Hd).
    + intros f Hf. apply (proj1 (H _ Hf)).
    + intros m Hm. apply in_flat_map in Hm as ([i|f|n k] & Ht & Hm); apply (proj2 (H _ Ht) m Hm).
Qed.
End Text.

Lemma load_ok c l : ok c (bind (parse_tops [] l) (fun its => seq (map (process c) its))) (safe c l) (mistakes l).
Proof. eapply ok_iff; [apply iff_sym, safe_spec|]. apply ok_tops. Qed.
Lemma load_bind m c l : load m c l = option_map (finish m) (bind (parse_tops [] l) (fun its => seq (map (process c) its))).
Proof. unfold load, bind. destruct (parse_tops [] l); reflexivity. Qed.
Lemma located_forall c ms : (forall e, In e ms -> placed c e) -> Forall2 (reported_at c) ms (flat_map (located c) ms).
Proof.
  induction ms as [|e ms IH]; intros H; [constructor|]. cbn [flat_map]. specialize (IH (fun x Hx => H x (or_intror Hx))). pose proof (H e (or_introl eq_refl)) as He. unfold placed in He.
  unfold located. destruct (into_range (e_place e) c) as [r|] eqn:E; [|congruence]. cbn [app]. constructor; [|exact IH]. exists r. auto.
Qed.
