From Coq Require Import Ascii String NArith.
From Verif Require Import Base Report ReportSpec ReportProofs LoadErrors LoadErrorsSpec LoadErrorsProofs LoadErrorsProofs2 LoadKeptSpec.
Open Scope nat_scope.

Lemma effects_app a : forall open b, effects open (a ++ b) = effects open a ++ effects (fold_left (fun o x => match x with CRuleset p => p | _ => o end) a open) b.
Proof. induction a as [|x a IH]; intros open b; [reflexivity|]. destruct x; cbn [app effects fold_left]; rewrite IH; reflexivity. Qed.
Definition opened (open : list nat) (l : list call) : list nat := fold_left (fun o x => match x with CRuleset p => p | _ => o end) l open.

(** from [open] to [open'], with these effects *)
Definition does (open open' : list nat) (x : option out) (es : list effect) : Prop := forall o, x = Some o -> effects open (fst o) = es /\ opened open (fst o) = open'.
Lemma does_error c e open : does open open (add_error c e) [].
Proof. intros o H. unfold add_error in H. destruct (into_range _ c); [|solve [discriminate | intros ? ?; discriminate]]. injection H as <-. split; reflexivity. Qed.
Lemma does_nil open : does open open (seq []) [].
Proof. intros o H. injection H as <-. split; reflexivity. Qed.
Lemma does_cons a b c x l es es' : does a b x es -> does b c (seq l) es' -> does a c (seq (x :: l)) (es ++ es').
Proof.
  intros Hx Hl o H. rewrite seq_cons in H. destruct x as [o1|]; [|solve [discriminate | intros ? ?; discriminate]]. destruct (seq l) as [o2|]; [|solve [discriminate | intros ? ?; discriminate]]. injection H as <-.
  destruct (Hx _ eq_refl) as (E1 & E2), (Hl _ eq_refl) as (E3 & E4). cbn [join fst]. unfold opened in *. rewrite effects_app, fold_left_app, E1, E2, E3. auto.
Qed.
Lemma does_map {A} (f : A -> option out) (M : A -> list effect) open l : (forall a, In a l -> does open open (f a) (M a)) -> does open open (seq (map f l)) (flat_map M l).
Proof.
  induction l as [|x l IH]; intros H; [apply does_nil|]. cbn [map flat_map]. apply (does_cons open open open); [apply H; left; reflexivity|]. apply IH. intros a Ha. apply H. right. exact Ha.
Qed.
Lemma does_end a b c l o es : does a b (seq l) es -> (effects b (fst o) = [] /\ opened b (fst o) = c) -> does a c (seq (l ++ [Some o])) es.
Proof.
  revert a es. induction l as [|x l IH]; intros a es H (E1 & E2).
  - intros o' Ho'. cbn [app seq option_map] in Ho'. injection Ho' as <-. destruct (H _ eq_refl) as (<- & <-). cbn [join fst effects opened fold_left] in *. rewrite app_nil_r. auto.
  - intros o' Ho'. cbn [app] in Ho'. rewrite seq_cons in Ho'. destruct x as [o1|]; [|solve [discriminate | intros ? ?; discriminate]]. destruct (seq (l ++ [Some o])) as [o2|] eqn:E; [|solve [discriminate | intros ? ?; discriminate]]. injection Ho' as <-.
    unfold does in H. rewrite seq_cons in H. destruct (seq l) as [o3|] eqn:E3.
    + destruct (H _ eq_refl) as (F1 & F2). cbn [join fst] in *. unfold opened in F2. rewrite effects_app in F1. rewrite fold_left_app in F2.
      assert (does (opened a (fst o1)) b (Some o3) (effects (opened a (fst o1)) (fst o3))) as D3 by (intros o' Ho'; injection Ho' as <-; split; [reflexivity|exact F2]).
      destruct (IH _ _ D3 (conj E1 E2) _ eq_refl) as (G1 & G2). unfold opened in *. rewrite effects_app, fold_left_app. rewrite G1, G2. auto.
    + exfalso. clear - E E3. revert o2 E E3. induction l as [|y l IHl]; [discriminate|]. intros o2 E E3. cbn [app] in E. rewrite seq_cons in E, E3. destruct y; [|solve [discriminate | intros ? ?; discriminate]].
      destruct (seq l); [discriminate|]. destruct (seq (l ++ [Some o])); [|solve [discriminate | intros ? ?; discriminate]]. eapply IHl; reflexivity.
Qed.

Definition sound (d : ditem) : Prop := match d with Decl _ name _ _ => unsupported name = false | _ => True end.
Lemma does_ditem g open d : (forall e, does open open (g (PError e)) []) ->
  (forall p id, match p with PProp i _ | PAnim i _ | PTrans i | PVar i => i = id | _ => False end -> does open open (g p) [EDecl open id]) ->
  sound d -> does open open (bind (parse_ditem true d) g) (map (EDecl open) (good_d d)).
Proof.
  intros He Hp Hs. destruct d as [id name v sub|e sub]; cbn [parse_ditem bind good_d map]; [|apply He]. cbn [sound] in Hs.
  unfold parse_value. rewrite custom_spec. destruct (custom name) eqn:Ec.
  { destruct v as [iv|ev]; cbn [ordinary bind map]; [apply Hp; reflexivity | apply He]. }
  destruct (prefix_ci name (tx "transition")) as [[]|] eqn:Et; [| |solve [discriminate | intros ? ?; discriminate]].
  { pose proof (prefix_some _ _ _ low_transition Et) as Ht. unfold motion. rewrite (supported_transition _ Ht).
    assert (supported name = true) as ->. { unfold unsupported, transitions in Hs. rewrite Ec, Ht in Hs. cbn [negb andb orb] in Hs. destruct (supported name); [reflexivity | discriminate Hs]. }
    destruct v as [iv|ev]; cbn [ordinary bind map]; [apply Hp; reflexivity | apply He]. }
  destruct (prefix_ci name (tx "animation")) as [[]|] eqn:Ea; [| |solve [discriminate | intros ? ?; discriminate]].
  { pose proof (prefix_some _ _ _ low_animation Ea) as Ha. unfold motion. rewrite (supported_animation _ Ha).
    assert (supported name = true) as ->. { unfold unsupported, animations in Hs. rewrite Ec, Ha, orb_true_r in Hs. cbn [negb andb orb] in Hs. destruct (supported name); [reflexivity | discriminate Hs]. }
    destruct v as [iv|ev]; cbn [ordinary bind map]; [apply Hp; reflexivity | apply He]. }
  destruct v as [iv|ev]; cbn [ordinary bind map]; [apply Hp; reflexivity | apply He].
Qed.

Section Load.
Variable c : text.
Definition sound_b (b : bitem) : Prop := forall d, In d (decls_b b) -> sound d.
Lemma quiet_report p open : does open open (report_errors c p) [].
Proof.
  revert p. fix IH 1. intros p. destruct p; cbn [report_errors]; try (intros o H; injection H as <-; split; reflexivity); [|apply does_error].
  apply (does_cons open open open _ _ [] []); [destruct sel; [intros o H; injection H as <-; split; reflexivity | apply does_error]|].
  induction l as [|x l IHl]; [apply does_nil|]. cbn [map]. apply (does_cons open open open _ _ [] []); [apply IH | exact IHl].
Qed.
Lemma quiet_list l open : does open open (seq (map (report_errors c) l)) [].
Proof. induction l as [|x l IHl]; [apply does_nil|]. cbn [map]. apply (does_cons open open open _ _ [] []); [apply quiet_report | exact IHl]. Qed.

Lemma does_process b : forall path, sound_b b -> does path path (bind (parse_bitem b) (process_prop c path)) (good_b path b).
Proof.
  induction b as [d|sel l IH] using bitem_ind'; intros path Hs.
  - cbn [parse_bitem good_b]. apply does_ditem; [intros e; apply does_error| |apply Hs; left; reflexivity].
    intros [id' i|id' i|id'|id'|sel l|e] id H; try destruct H; intros o Ho; injection Ho as <-; split; reflexivity.
  - cbn [parse_bitem]. destruct sel as [s|e].
    + cbn [good_b]. assert (forall b, In b l -> does (path ++ [s]) (path ++ [s]) (bind (parse_bitem b) (process_prop c (path ++ [s]))) (good_b (path ++ [s]) b)) as Hl.
      { intros b Hb. apply IH; [exact Hb|]. intros d Hd. apply Hs. cbn [decls_b]. apply in_flat_map. eauto. }
      pose proof (does_map _ _ _ _ Hl) as H. rewrite <- bind_all in H. destruct (all (map parse_bitem l)) as [ps|]; [|solve [discriminate | intros ? ?; discriminate]]. cbn [option_map bind process_prop] in *.
      apply (does_cons path (path ++ [s]) path _ _ [] _); [intros o Ho; injection Ho as <-; split; reflexivity|]. apply (does_end _ _ _ _ _ _ H). split; reflexivity.
    + cbn [good_b]. destruct (all (map parse_bitem l)) as [ps|]; [|solve [discriminate | intros ? ?; discriminate]]. cbn [option_map bind process_prop].
      apply (does_cons path path path _ _ [] []); [apply does_error|]. apply (does_end _ path); [apply quiet_list | split; reflexivity].
Qed.

(** a part of the sheet: whatever is open *)
Definition done (x : option out) (es : list effect) : Prop := forall o, x = Some o -> forall open, effects open (fst o) = es.
Lemma done_seq_nil : done (seq []) [].
Proof. intros o H. injection H as <-. reflexivity. Qed.
Lemma done_cons x l es es' : done x es -> done (seq l) es' -> done (seq (x :: l)) (es ++ es').
Proof.
  intros Hx Hl o H open. rewrite seq_cons in H. destruct x as [o1|]; [|solve [discriminate | intros ? ?; discriminate]]. destruct (seq l) as [o2|]; [|solve [discriminate | intros ? ?; discriminate]]. injection H as <-. cbn [join fst]. rewrite effects_app, (Hx _ eq_refl), (Hl _ eq_refl). reflexivity.
Qed.
Lemma done_map {A} (f : A -> option out) (M : A -> list effect) l : (forall a, In a l -> done (f a) (M a)) -> done (seq (map f l)) (flat_map M l).
Proof. induction l as [|x l IH]; intros H; [apply done_seq_nil|]. cbn [map flat_map]. apply done_cons; [apply H; left; reflexivity|]. apply IH. intros a Ha. apply H. right. exact Ha. Qed.
Lemma done_error e : done (add_error c e) [].
Proof. intros o H open. apply (does_error c e open o H). Qed.
Lemma done_does x es : (forall open, exists open', does open open' x es) -> done x es.
Proof. intros H o Ho open. destruct (H open) as (open' & D). apply (D o Ho). Qed.

Definition sound_i (i : inner) : Prop := forall d, In d (decls_i i) -> sound d.
Lemma done_inner i : sound_i i -> done (bind (parse_inner i) (process c)) (good_i i).
Proof.
  induction i as [sel l|l IH|id|e sub] using inner_ind'; intros Hs; cbn [parse_inner].
  - unfold parse_body. destruct sel as [s|e]; cbn [good_i].
    + assert (forall b, In b l -> does [s] [s] (bind (parse_bitem b) (process_prop c [s])) (good_b [s] b)) as Hl.
      { intros b Hb. apply does_process. intros d Hd. apply Hs. cbn [decls_i]. apply in_flat_map. eauto. }
      pose proof (does_map _ _ _ _ Hl) as H. rewrite <- bind_all in H. destruct (all (map parse_bitem l)) as [ps|]; [|solve [discriminate | intros ? ?; discriminate]]. cbn [option_map bind process process_rule] in *.
      apply done_does. intros open. exists [s]. apply (does_cons open [s] [s] _ _ [] _); [intros o Ho; injection Ho as <-; split; reflexivity | exact H].
    + destruct (all (map parse_bitem l)) as [ps|]; [|solve [discriminate | intros ? ?; discriminate]]. cbn [option_map bind process process_rule].
      apply done_does. intros open. exists open. apply (does_cons open open open _ _ [] []); [apply does_error | apply quiet_list].
  - pose proof (done_map (fun i => bind (parse_inner i) (process c)) good_i l) as H. rewrite <- bind_all in H. destruct (all (map parse_inner l)); [|solve [discriminate | intros ? ?; discriminate]]. apply H.
    intros a Ha. apply IH; [exact Ha|]. intros d Hd. apply Hs. cbn [decls_i]. apply in_flat_map. eauto.
  - intros o H open. injection H as <-. reflexivity.
  - apply done_error.
Qed.

(** ** Font faces *)
Lemma last_cons_default {A} (x : A) l d : last (x :: l) d = last l x.
Proof. revert x d. induction l as [|y l IH]; intros x d; [reflexivity|]. rewrite (IH y x). change (last (x :: y :: l) d) with (last (y :: l) d). apply IH. Qed.
Definition pick (d : option nat) (l : list nat) : option nat := match l with [] => d | _ => Some (last l 0) end.
Lemma pick_cons d x l : pick d (x :: l) = pick (Some x) l.
Proof. unfold pick. destruct l as [|y l]; [reflexivity|]. f_equal. Qed.
Lemma apart name : eq_ci name (tx "font-family") = true -> eq_ci name (tx "src") = false.
Proof. intros H. destruct (eq_ci name (tx "src")) eqn:E; [|reflexivity]. apply eq_ci_spec in H, E. rewrite H in E. discriminate. Qed.
Lemma font_values l : forall f s es, fst (font_loop f s es (map parse_fitem l)) = (pick f (good_f "font-family" l), pick s (good_f "src" l)).
Proof.
  induction l as [|x l IH]; intros f s es; [reflexivity|]. cbn [map].
  assert (forall y, good_f y (x :: l) = match x with FDecl n (inl v) _ => if eq_ci n (tx y) then [v] else [] | _ => [] end ++ good_f y l) as G by reflexivity.
  rewrite !G. clear G. destruct x as [name [v|e] sub|e sub].
  - unfold parse_fitem. destruct (eq_ci name (tx "font-family")) eqn:E.
    + rewrite (apart _ E). cbn [font_loop app]. rewrite IH, pick_cons. reflexivity.
    + destruct (eq_ci name (tx "src")) eqn:E2; cbn [font_loop app]; rewrite IH, ?pick_cons; reflexivity.
  - unfold parse_fitem. destruct (eq_ci name (tx "font-family")), (eq_ci name (tx "src")); cbn [font_loop app]; apply IH.
  - cbn [parse_fitem font_loop app]. apply IH.
Qed.
Lemma done_font l : done (process c (parse_font l)) (good_t (TFont l)).
Proof.
  unfold parse_font. pose proof (font_values l None None []) as H. destruct (font_loop None None [] (map parse_fitem l)) as [[f s] es]. cbn [fst] in H. injection H as -> ->.
  destruct (pick None (good_f "font-family" l)) as [f|] eqn:Ef; [destruct (pick None (good_f "src" l)) as [s|] eqn:Es|]; try (intros o Ho; discriminate).
  assert (forall o l, pick None l = Some o -> last l 0 = o) as P by (intros o [|x l'] Hp; [discriminate | injection Hp as <-; reflexivity]). apply P in Ef, Es. cbn [process good_t]. rewrite Ef, Es.
  apply done_does. intros open. exists open. intros o Ho. rewrite <- (app_nil_l [EFont f s]).
  revert o Ho. change (does open open (seq (map (add_error c) es ++ [Some ([CFont f s], [])])) ([] ++ [EFont f s])).
  induction es as [|e es IH]; [intros o Ho; injection Ho as <-; split; reflexivity|]. cbn [map app]. apply (does_cons open open open _ _ [] _); [apply does_error | exact IH].
Qed.

(** ** Keyframes *)
Definition kept (x : option (list nat * list rep)) (ids : list nat) : Prop := forall o, x = Some o -> fst o = ids.
Lemma kept_map {A} (f : A -> option (list nat * list rep)) (M : A -> list nat) l : (forall a, kept (f a) (M a)) -> kept (seq_k (map f l)) (flat_map M l).
Proof.
  intros H. induction l as [|x l IH]; [intros o Ho; injection Ho as <-; reflexivity|]. cbn [map flat_map]. intros o Ho. cbn [seq_k] in Ho. pose proof (H x) as Hx. destruct (f x) as [a|]; [|solve [discriminate | intros ? ?; discriminate]].
  destruct (seq_k (map f l)) as [b|]; [|solve [discriminate | intros ? ?; discriminate]]. injection Ho as <-. cbn [fst]. rewrite (Hx _ eq_refl), (IH _ eq_refl). reflexivity.
Qed.
Lemma bind_all_k {A B} (parse : A -> option B) (g : B -> option (list nat * list rep)) l : bind (all (map parse l)) (fun ps => seq_k (map g ps)) = seq_k (map (fun a => bind (parse a) g) l).
Proof.
  induction l as [|x l IH]; [reflexivity|]. cbn [map]. destruct (parse x) as [y|]; [|reflexivity]. cbn [all seq_k bind] in *. rewrite <- IH.
  destruct (all (map parse l)) as [ys|]; cbn [option_map bind map seq_k]; [reflexivity|]. destruct (g y); reflexivity.
Qed.
Lemma kept_error e : kept (option_map (fun o : out => ([], snd o)) (add_error c e)) [].
Proof. intros o H. destruct (add_error c e); [|solve [discriminate | intros ? ?; discriminate]]. injection H as <-. reflexivity. Qed.
Lemma kept_ditem d : kept (bind (parse_ditem false d) (process_kprop c)) (good_d d).
Proof.
  destruct d as [id name v sub|e sub]; cbn [parse_ditem good_d bind]; [|apply kept_error]. unfold parse_value. destruct (eq_ci name (tx "animation-timing-function")) eqn:E.
  - unfold motion. assert (one_of name animation_names = true) as ->. { unfold one_of, animation_names. cbn [existsb]. rewrite E. rewrite !orb_true_r. reflexivity. }
    destruct v; cbn [bind process_kprop]; [intros o Ho; injection Ho as <-; reflexivity | apply kept_error].
  - destruct v; cbn [ordinary bind process_kprop]; [intros o Ho; injection Ho as <-; reflexivity | apply kept_error].
Qed.
Lemma kept_kitem k : kept (bind (parse_kitem k) (process_kframe c)) (good_k k).
Proof.
  destruct k as [l|e sub]; cbn [parse_kitem good_k]; [|apply kept_error]. pose proof (kept_map _ _ l kept_ditem) as H. rewrite <- bind_all_k in H. destruct (all (map (parse_ditem false) l)); exact H.
Qed.

Definition sound_t (x : top) : Prop := match x with TInner i => sound_i i | _ => True end.
Lemma done_tops l : forall seen, (forall x, In x l -> sound_t x) -> fresh seen l -> done (bind (parse_tops seen l) (fun its => seq (map (process c) its))) (good l).
Proof.
  induction l as [|x l IH]; intros seen Hs Hf; [apply done_seq_nil|]. change (good (x :: l)) with (good_t x ++ good l).
  assert (forall y, In y l -> sound_t y) as Hs' by (intros; apply Hs; right; assumption).
  destruct x as [i|f|n k]; cbn [parse_tops].
  - cbn [fresh] in Hf. specialize (IH seen Hs' Hf). pose proof (done_inner i (Hs _ (or_introl eq_refl))) as Hi. destruct (parse_inner i); [|solve [discriminate | intros ? ?; discriminate]]. destruct (parse_tops seen l); [|solve [discriminate | intros ? ?; discriminate]]. cbn [option_map bind map] in *.
    apply done_cons; assumption.
  - cbn [fresh] in Hf. specialize (IH seen Hs' Hf). destruct (parse_tops seen l); [|solve [discriminate | intros ? ?; discriminate]]. cbn [option_map bind map] in *. apply done_cons; [apply done_font | exact IH].
  - unfold parse_keyframes. pose proof (kept_map _ _ k kept_kitem) as H. rewrite <- bind_all_k in H. destruct (all (map parse_kitem k)) as [ks|]; [|solve [discriminate | intros ? ?; discriminate]]. cbn [bind] in H.
    cbn [fresh] in Hf. destruct Hf as (Hn & Hf). destruct (existsb (Nat.eqb n) seen) eqn:E.
    { exfalso. apply existsb_exists in E as (y & Hy & Ey). apply Nat.eqb_eq in Ey. subst y. contradiction. }
    specialize (IH _ Hs' Hf). destruct (parse_tops (n :: seen) l); [|solve [discriminate | intros ? ?; discriminate]]. cbn [option_map bind map] in *. apply done_cons; [|exact IH].
    cbn [process good_t]. intros o Ho open. destruct (seq_k (map (process_kframe c) ks)) as [o'|]; [|solve [discriminate | intros ? ?; discriminate]]. injection Ho as <-. cbn [effects fst]. rewrite (H _ eq_refl). reflexivity.
Qed.
End Load.

Lemma load_good m c l calls printed : load m c l = Some (Loaded calls printed) -> effects [] calls = good l.
Proof.
  intros H. rewrite load_bind in H. pose proof (load_ok c l) as Hok. unfold ok in Hok.
  destruct (bind (parse_tops [] l) (fun its => seq (map (process c) its))) as [o|] eqn:E; [|solve [discriminate | intros ? ?; discriminate]]. cbn [option_map] in H. injection H as H. destruct Hok as (Hs & _).
  assert (fst o = calls) as <-. { unfold finish in H. destruct (existsb is_error (snd o)); [destruct m; try discriminate|]; injection H as <- _; reflexivity. }
  pose proof (proj1 (safe_spec c l) Hs) as (Hf & Hfr). refine (done_tops c l [] _ Hfr o E []).
  intros x Hx. destruct x as [i|f|n k]; cbn; auto. intros d Hd. destruct (Hf _ Hx) as (Hd' & _). specialize (Hd' d Hd). destruct d; cbn in *; [apply Hd'|exact I].
Qed.
