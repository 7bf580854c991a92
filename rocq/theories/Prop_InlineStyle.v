(** C55: an InlineStyle is the ordered map of its last writes; C56: inline styles are applied entity by entity. *)
From Verif Require Import Base InlineStyle InlineStyleSpec.

Lemma teqb_spec a b : Bool.reflect (a = b) (teqb a b).
Proof. unfold teqb. destruct (text_eq_dec a b); constructor; assumption. Qed.

(* ------------------------------------------------------------------ C55: map *)
Lemma remove_app k a b : map_remove k (a ++ b) = map_remove k a ++ map_remove k b.
Proof. unfold map_remove. apply filter_app. Qed.
Definition kill (ops : list style_op) (m : list (list ascii * list ascii)) :=
  filter (fun e => negb (existsb (fun o => match o with Set_ n _ | Remove_ n => teqb (fst e) n end) ops)) m.
Lemma fold_ops ops : forall m, fold_left apply_style_op ops m = kill ops m ++ fold_left apply_style_op ops [].
Proof.
  induction ops as [|o ops IH]; intros m.
  - cbn [fold_left]. unfold kill. cbn [existsb negb]. rewrite app_nil_r. induction m; cbn; congruence.
  - cbn [fold_left]. rewrite (IH (apply_style_op m o)), (IH (apply_style_op [] o)). rewrite app_assoc. f_equal.
    assert (K : forall n, kill ops (map_remove n m) = filter (fun e => negb (teqb (fst e) n || existsb (fun o => match o with Set_ n _ | Remove_ n => teqb (fst e) n end) ops)) m).
    { intros n. unfold kill, map_remove. induction m as [|e m IHm]; [reflexivity|]. cbn [filter]. destruct (teqb (fst e) n); cbn [negb orb filter]; rewrite ?IHm; reflexivity. }
    destruct o as [n v|n]; cbn [apply_style_op]; unfold set, remove, map_insert.
    + unfold kill at 1 3. cbn [filter map_remove]. rewrite filter_app. fold (kill ops (map_remove n m)). rewrite K. unfold kill. cbn [existsb fst app]. reflexivity.
    + rewrite K. unfold kill. cbn [filter map_remove existsb]. rewrite app_nil_r. reflexivity.
Qed.
Lemma fold_survives ops : survives ops (fold_left apply_style_op ops []).
Proof.
  induction ops as [|o ops IH]; [constructor|]. cbn [fold_left]. rewrite fold_ops. destruct o as [n v|n]; cbn [apply_style_op].
  - change (set n v []) with [(n, v)]. unfold kill. cbn [filter fst]. destruct (existsb _ ops) eqn:E; cbn [negb app].
    + apply existsb_exists in E. destruct E as (o & Ho & En). apply (sv_overridden n v ops _ o Ho); [|exact IH].
      destruct o as [k u|k]; cbn; destruct (teqb_spec n k); congruence.
    + apply sv_kept; [|exact IH]. intros o Ho Hn. assert (existsb (fun o => match o with Set_ k _ | Remove_ k => teqb n k end) ops = true); [|congruence].
      apply existsb_exists. exists o. split; [exact Ho|]. destruct o as [k u|k]; cbn in Hn; subst k; destruct (teqb_spec n n); congruence.
  - change (remove n []) with (@nil (list ascii * list ascii)). cbn [kill filter app]. constructor. exact IH.
Qed.
Lemma survives_unique ops s s' : survives ops s -> survives ops s' -> s = s'.
Proof.
  intros H. revert s'. induction H as [|n v r s Hn H IH|n v r s o Ho Hn H IH|n r s H IH]; intros s' H'; inversion H'; subst; auto.
  - f_equal. auto.
  - exfalso. eapply Hn; eassumption.
  - exfalso. match goal with G : forall _, In _ r -> ~ _ |- _ => eapply G; eassumption end.
Qed.
Lemma from_iter_ops l : from_iter l = fold_left apply_style_op (map (fun e => Set_ (fst e) (snd e)) l) [].
Proof. unfold from_iter. generalize (@nil (list ascii * list ascii)). induction l as [|e l IH]; intros m; [reflexivity|]. cbn. apply IH. Qed.

(** C55 (map part). *)
Theorem C55_last_write_wins l ops s :
  survives (map (fun e => Set_ (fst e) (snd e)) l ++ ops) s -> fold_left apply_style_op ops (build (FromPairs l)) = s.
Proof.
  intros H. cbn [build]. rewrite from_iter_ops, <- fold_left_app. exact (survives_unique _ _ _ (fold_survives _) H).
Qed.

Lemma survives_lookup ops s : survives ops s -> forall n,
  (forall v pre post, ops = pre ++ Set_ n v :: post -> (forall o, In o post -> ~ names n o) -> lookup n s = Some v) /\
  (forall pre post, ops = pre ++ Remove_ n :: post -> (forall o, In o post -> ~ names n o) -> lookup n s = None) /\
  ((forall o, In o ops -> ~ names n o) -> lookup n s = None).
Proof.
  induction 1 as [|k u r s Hn H IH|k u r s o Ho Hn H IH|k r s H IH]; intros n.
  - split; [|split]; [intros v [|] post E; discriminate|intros [|] post E; discriminate|reflexivity].
  - cbn [lookup]. destruct (IH n) as (I1 & I2 & I3). destruct (text_eq_dec k n) as [Ek|N].
    + subst k. split; [|split].
      * intros v [|x pre] post E Hp; cbn in E; injection E; intros; subst; [reflexivity|]. exfalso. refine (Hn (Set_ n v) _ eq_refl). apply in_or_app. cbn. auto.
      * intros [|x pre] post E Hp; cbn in E; [discriminate|]. injection E; intros; subst. exfalso. refine (Hn (Remove_ n) _ eq_refl). apply in_or_app. cbn. auto.
      * intros Hno. exfalso. apply (Hno (Set_ n u)); cbn; auto.
    + split; [|split].
      * intros v [|x pre] post E Hp; cbn in E; injection E; intros; subst; [congruence|]. eapply I1; eauto.
      * intros [|x pre] post E Hp; cbn in E; [discriminate|]. injection E; intros; subst. eapply I2; eauto.
      * intros Hno. apply I3. intros o Ho. apply Hno. right. exact Ho.
  - destruct (IH n) as (I1 & I2 & I3). split; [|split].
    + intros v [|x pre] post E Hp; cbn in E; injection E; intros; subst; [exfalso; exact (Hp o Ho Hn)|]. eapply I1; eauto.
    + intros [|x pre] post E Hp; cbn in E; [discriminate|]. injection E; intros; subst. eapply I2; eauto.
    + intros Hno. apply I3. intros o' Ho'. apply Hno. right. exact Ho'.
  - destruct (IH n) as (I1 & I2 & I3). split; [|split].
    + intros v [|x pre] post E Hp; cbn in E; [discriminate|]. injection E; intros; subst. eapply I1; eauto.
    + intros [|x pre] post E Hp; cbn in E; injection E; intros; subst; [apply I3; exact Hp|]. eapply I2; eauto.
    + intros Hno. apply I3. intros o' Ho'. apply Hno. right. exact Ho'.
Qed.
(** C55 (reads): [get] returns what the last operation on that name left. *)
Theorem C55_get n l pre post o :
  map (fun e => Set_ (fst e) (snd e)) l ++ post = pre ++ o ->
  (forall o', In o' (tl o) -> ~ names n o') ->
  match o with
  | Set_ n' v :: _ => n' = n -> get n (fold_left apply_style_op post (build (FromPairs l))) = Some v
  | Remove_ n' :: _ => n' = n -> get n (fold_left apply_style_op post (build (FromPairs l))) = None
  | [] => pre = [] -> get n (fold_left apply_style_op post (build (FromPairs l))) = None
  end.
Proof.
  intros E Hn. cbn [build]. rewrite from_iter_ops, <- fold_left_app, E. pose proof (survives_lookup _ _ (fold_survives (pre ++ o)) n) as (I1 & I2 & I3).
  destruct o as [|[n' v|n'] o]; cbn [tl] in Hn; unfold get.
  - intros ->. apply I3. intros o [].
  - intros ->. eapply I1; [reflexivity|exact Hn].
  - intros ->. eapply I2; [reflexivity|exact Hn].
Qed.

(* ------------------------------------------------------------------ C55: text *)
Lemma split_no d s : ~ In d s -> split d s = [s].
Proof.
  induction s as [|c s IH]; intros H; [reflexivity|]. cbn [split]. rewrite IH by (intros G; apply H; right; exact G).
  destruct (Ascii.eqb_spec c d) as [->|]; [exfalso; apply H; left; reflexivity|reflexivity].
Qed.
Lemma split_app d s t : ~ In d s -> split d (s ++ d :: t) = s :: split d t.
Proof.
  induction s as [|c s IH]; intros H.
  - cbn [app split]. rewrite Ascii.eqb_refl. destruct (split d t) eqn:E; [|reflexivity]. destruct t; cbn in E; [discriminate|]. destruct (split d t); [|destruct (Ascii.eqb _ _)]; discriminate.
  - cbn [app split]. rewrite IH by (intros G; apply H; right; exact G). destruct (Ascii.eqb_spec c d) as [->|]; [exfalso; apply H; left; reflexivity|reflexivity].
Qed.
Lemma split_once_app d s t : ~ In d s -> split_once d (s ++ d :: t) = Some (s, t).
Proof.
  induction s as [|c s IH]; intros H; cbn [app split_once].
  - rewrite Ascii.eqb_refl. reflexivity.
  - destruct (Ascii.eqb_spec c d) as [->|]; [exfalso; apply H; left; reflexivity|]. rewrite IH by (intros G; apply H; right; exact G). reflexivity.
Qed.
Lemma trim_start_white w s : white w -> trim_start (w ++ s) = trim_start s.
Proof.
  induction w as [|c w IH]; intros H; [reflexivity|]. cbn [app trim_start]. rewrite (H c (or_introl eq_refl)). apply IH. intros x Hx. apply H. right. exact Hx.
Qed.
Lemma trim_start_id c s : is_ws c = false -> trim_start (c :: s) = c :: s.
Proof. intros H. cbn. rewrite H. reflexivity. Qed.
Lemma white_rev w : white w -> white (rev w).
Proof. intros H c Hc. apply H. apply in_rev. exact Hc. Qed.
Lemma white_app a b : white a -> white b -> white (a ++ b).
Proof. intros H H' c Hc. apply in_app_or in Hc. destruct Hc; auto. Qed.
Lemma trim_white w : white w -> trim w = [].
Proof. intros H. unfold trim. rewrite <- (app_nil_r w), trim_start_white by exact H. reflexivity. Qed.
(** Trimming text that starts and ends with a visible character *)
Lemma trim_around w1 s w2 : white w1 -> white w2 -> s <> [] ->
  (forall c r, s = c :: r -> is_ws c = false) -> (forall c r, s = r ++ [c] -> is_ws c = false) -> trim (w1 ++ s ++ w2) = s.
Proof.
  intros H1 H2 Ne Hf Hl. unfold trim. rewrite trim_start_white by exact H1. destruct s as [|c s]; [congruence|]. cbn [app]. rewrite trim_start_id by (eapply Hf; reflexivity).
  change (c :: s ++ w2) with ((c :: s) ++ w2). rewrite rev_app_distr, trim_start_white by (apply white_rev, H2).
  destruct (rev (c :: s)) as [|x r] eqn:E; [apply (f_equal (@rev _)) in E; rewrite rev_involutive in E; discriminate|].
  assert (Es : c :: s = rev r ++ [x]) by (rewrite <- (rev_involutive (c :: s)), E; reflexivity).
  rewrite trim_start_id by (eapply Hl; exact Es). rewrite <- E. apply rev_involutive.
Qed.
Lemma trim_tidy w1 s w2 : white w1 -> white w2 -> tidy s -> trim (w1 ++ s ++ w2) = s.
Proof.
  intros H1 H2 [Hf Hl]. destruct s as [|c s]; [|apply trim_around; auto; discriminate]. cbn [app]. apply trim_white, white_app; assumption.
Qed.
Lemma ends_visible (n v w3 w4 : list ascii) : white w3 -> white w4 -> tidy v ->
  exists u, white u /\ exists s, ":"%char :: w3 ++ v ++ w4 = s ++ u /\ s <> [] /\ (forall c r, s = r ++ [c] -> is_ws c = false) /\ (exists s', s = ":"%char :: s') /\ (v = [] -> s = [":"%char]) /\ (v <> [] -> s = ":"%char :: w3 ++ v /\ u = w4).
Proof.
  intros H3 H4 [Hf Hl]. destruct v as [|c v].
  - exists (w3 ++ w4). split; [apply white_app; assumption|]. exists [":"%char]. cbn. repeat split; try congruence; [|exists []; reflexivity].
    intros c r E; destruct r as [|x r]; cbn in E; [injection E as <-; reflexivity|destruct r; discriminate].
  - exists w4. split; [exact H4|]. exists (":"%char :: w3 ++ c :: v). split; [cbn [app]; rewrite <- app_assoc; reflexivity|].
    split; [discriminate|]. split; [|split; [eexists; reflexivity|split; [discriminate|auto]]].
    intros d r E. destruct (exists_last (l := c :: v)) as (l & y & Ey); [discriminate|]. rewrite Ey in E.
    rewrite app_comm_cons, app_assoc in E. apply app_inj_tail in E. destruct E as [_ <-]. eapply Hl. exact Ey.
Qed.
Lemma piece_no_semi s d : piece s d -> ~ In ";"%char s.
Proof.
  assert (W : forall w, white w -> ~ In ";"%char w) by (intros w H G; specialize (H _ G); vm_compute in H; discriminate).
  intros [w Hw|w1 n w2 w3 v w4 H1 H2 H3 H4 Tn Tv N1 N2 N3]; [apply W, Hw|].
  rewrite !in_app_iff. intros [G|[G|[G|[G|G]]]]; [apply (W _ H1 G)|contradiction|apply (W _ H2 G)|discriminate|].
  rewrite !in_app_iff in G. destruct G as [G|[G|G]]; [apply (W _ H3 G)|contradiction|apply (W _ H4 G)].
Qed.
Lemma piece_line m s d : piece s d -> from_str_line m s = fold_left (fun m e => map_insert (fst e) (snd e) m) d m.
Proof.
  intros [w Hw|w1 n w2 w3 v w4 H1 H2 H3 H4 Tn Tv N1 N2 N3]; unfold from_str_line.
  - rewrite trim_white by exact Hw. reflexivity.
  - (* the trimmed line is name, white space, ':', and the rest without its final white space *)
    destruct (ends_visible n v w3 w4 H3 H4 Tv) as (u & Hu & z & Es & Hs & Hl & (s' & Es') & Ev0 & Ev1).
    assert (Tr : trim (w1 ++ n ++ w2 ++ ":"%char :: w3 ++ v ++ w4) = (if n then [] else n ++ w2) ++ z).
    { rewrite Es. destruct n as [|c n].
      - cbn [app]. rewrite (app_assoc w1 w2). apply trim_around; [apply white_app; assumption|exact Hu|exact Hs| |exact Hl].
        intros x r E. rewrite Es' in E. injection E as <- <-. reflexivity.
      - replace (w1 ++ (c :: n) ++ w2 ++ z ++ u) with (w1 ++ (((c :: n) ++ w2) ++ z) ++ u) by (rewrite !app_assoc; reflexivity).
        apply trim_around; [exact H1|exact Hu|discriminate| |].
        + intros x r E. cbn in E. injection E as <- _. destruct Tn as [Tn _]. eapply Tn. reflexivity.
        + intros x r E. destruct (exists_last Hs) as (l & y & Ey). rewrite Ey in E. rewrite app_assoc in E. apply app_inj_tail in E. destruct E as [_ <-]. eapply Hl. exact Ey. }
    rewrite Tr. set (pre := if n then [] else n ++ w2).
    assert (Np : ~ In ":"%char pre).
    { subst pre. destruct n; [intros []|]. rewrite in_app_iff. intros [G|G]; [contradiction|]. specialize (H2 _ G). vm_compute in H2. discriminate. }
    assert (So : split_once ":"%char (pre ++ z) = Some (pre, s')) by (rewrite Es'; apply split_once_app; exact Np).
    destruct (pre ++ z) as [|c0 l0] eqn:El; [apply app_eq_nil in El; destruct El; contradiction|].
    rewrite So. cbn [fold_left fst snd]. f_equal.
    + subst pre. destruct n as [|c n]; [reflexivity|]. apply (trim_tidy [] (c :: n) w2); [intros ? []|exact H2|exact Tn].
    + destruct v as [|c v].
      * assert (s' = []) as -> by (specialize (Ev0 eq_refl); congruence). reflexivity.
      * destruct (Ev1 ltac:(discriminate)) as [Ev _]. rewrite Es' in Ev. injection Ev as ->. pose proof (trim_tidy w3 (c :: v) [] H3 (fun _ (H : In _ []) => match H with end) Tv) as T. rewrite app_nil_r in T. exact T.
Qed.
Lemma written_lines s d : written s d -> forall m, fold_left from_str_line (split ";"%char s) m = fold_left (fun m e => map_insert (fst e) (snd e) m) d m.
Proof.
  induction 1 as [s d P|s d s' d' P W IH]; intros m.
  - rewrite split_no by (eapply piece_no_semi; exact P). cbn [fold_left]. apply piece_line, P.
  - rewrite split_app by (eapply piece_no_semi; exact P). cbn [fold_left]. rewrite IH, (piece_line _ _ _ P), fold_left_app. reflexivity.
Qed.
(** C57 (text without separators inside values): [InlineStyle::new] of a `;`-separated list of declarations is the map of those declarations. *)
Theorem C57_new_partial s d : written s d -> build (FromText s) = build (FromPairs d).
Proof. intros W. cbn [build]. unfold from_str, from_iter. apply written_lines, W. Qed.

(** C56: the text handed to the CSS parser is a declaration list of exactly the entries, in their order. *)
Theorem C56_text_is_declarations m :
  (forall n v, In (n, v) m -> tidy n /\ tidy v /\ ~ In ":"%char n /\ ~ In ";"%char n /\ ~ In ";"%char v) -> written (to_text m) m.
Proof.
  assert (G : forall m w, (forall n v, In (n, v) m -> tidy n /\ tidy v /\ ~ In ":"%char n /\ ~ In ";"%char n /\ ~ In ";"%char v) -> white w -> written (w ++ to_text m) m).
  { clear m. intros m. induction m as [|[n v] m IH]; intros w H Hw.
    - cbn. rewrite app_nil_r. apply w_last, p_blank, Hw.
    - destruct (H n v (or_introl eq_refl)) as (T1 & T2 & N1 & N2 & N3).
      replace (w ++ to_text ((n, v) :: m)) with ((w ++ n ++ [] ++ ":"%char :: [" "%char] ++ v ++ []) ++ ";"%char :: (["010"%char] ++ to_text m)).
      + apply (w_more _ [(n, v)]); [|apply IH; [intros n' v' Hi; apply H; right; exact Hi|intros c [<-|[]]; reflexivity]].
        apply p_decl; auto; try (intros c []; fail). intros c [<-|[]]; reflexivity.
      + cbn [to_text flat_map fst snd]. rewrite app_nil_r. cbn [app]. rewrite <- !app_assoc. cbn [app]. rewrite <- !app_assoc. reflexivity. }
  intros H. apply (G m []); [exact H|intros c []].
Qed.

Notation tx s := (list_ascii_of_string s%string) (only parsing).
Local Coercion list_ascii_of_string : string >-> list.
(** Not so when a value contains the separator, as quoted strings may: the declaration is cut in two. *)
Theorem C57_quoted_semicolon_refuted :
  exists s, s = tx "background-image: url('a;b.png'); width: 1px" /\
    get (tx "background-image") (build (FromText s)) <> Some (tx "url('a;b.png')") /\
    get (tx "b.png')") (build (FromText s)) <> None.
Proof. eexists. split; [reflexivity|]. split; vm_compute; discriminate. Qed.

(* ------------------------------------------------------------------ C56 *)
Section P.
  Context {D : Type} (parse : list ascii -> list (item D)).
  Notation run := (run parse). Notation loop := (loop parse).
  Lemma all_declare_report (its : list (item D)) ds : all_declare its ds -> report_empty its = true /\ declared its = ds.
  Proof. induction 1 as [|d its ds H [I1 I2]]; [auto|]. cbn. split; [exact I1|f_equal; exact I2]. Qed.
  Lemma report_all_declare (its : list (item D)) : report_empty its = true -> all_declare its (declared its).
  Proof. induction its as [|[d|d|] its IH]; cbn; intros H; try discriminate; constructor. apply IH, H. Qed.

  Lemma loop_style es : forall w e, e_style (loop es w e) = e_style (w e) /\ e_changed (loop es w e) = e_changed (w e).
  Proof.
    induction es as [|x es IH]; intros w e; [auto|]. cbn [InlineStyle.loop]. destruct (e_style (w x)) as [m|] eqn:S; [|apply IH].
    destruct (e_changed (w x)) eqn:C; [|apply IH]. destruct (report_empty _); [|auto].
    destruct (IH (put w x {| e_style := Some m; e_changed := true; e_raw := Some (declared (parse (to_text m))) |}) e) as [I1 I2].
    rewrite I1, I2. unfold put. destruct (Nat.eqb_spec e x) as [Ee|]; [subst; cbn; auto|auto].
  Qed.
  (** One entity the loop reaches *)
  Lemma loop_raw_same es : forall w e, ~ In e es -> e_raw (loop es w e) = e_raw (w e).
  Proof.
    induction es as [|x es IH]; intros w e N; [auto|]. cbn [InlineStyle.loop]. assert (Nx : e <> x) by (intros ->; apply N; left; reflexivity).
    assert (Ne : ~ In e es) by (intros G; apply N; right; exact G).
    destruct (e_style (w x)) as [m|]; [|apply IH, Ne]. destruct (e_changed (w x)); [|apply IH, Ne]. destruct (report_empty _); [|auto].
    rewrite IH by exact Ne. unfold put. destruct (Nat.eqb_spec e x); [contradiction|reflexivity].
  Qed.
  Definition passes (w : nat -> ent D) (e : nat) : Prop := forall m, e_style (w e) = Some m -> e_changed (w e) = true -> clean parse m.
  Lemma loop_raw es : forall w e pre post, es = pre ++ e :: post -> (forall x, In x pre -> passes w x) ->
    e_raw (loop es w e) =
      match e_style (w e) with
      | Some m => if e_changed (w e) then if report_empty (parse (to_text m)) then Some (declared (parse (to_text m))) else e_raw (w e) else e_raw (w e)
      | None => e_raw (w e) end.
  Proof.
    assert (Idle : forall es w e, match e_style (w e) with
      | Some m => if e_changed (w e) then if report_empty (parse (to_text m)) then e_raw (w e) = Some (declared (parse (to_text m))) else True else True
      | None => True end -> e_raw (loop es w e) = e_raw (w e)).
    { clear es. intros es. induction es as [|x es IH]; intros w e H; [reflexivity|]. cbn [InlineStyle.loop]. destruct (e_style (w x)) as [m|] eqn:S; [|apply IH, H].
      destruct (e_changed (w x)) eqn:C; [|apply IH, H]. destruct (report_empty (parse (to_text m))) eqn:R; [|reflexivity]. rewrite IH.
      - unfold put. destruct (Nat.eqb_spec e x) as [Ee|]; [subst x|reflexivity]. cbn. rewrite S, C, R in H. symmetry. exact H.
      - unfold put. destruct (Nat.eqb_spec e x) as [Ee|]; [subst x|exact H]. cbn. rewrite R. reflexivity. }
    induction es as [|x es IH]; intros w e pre post E Hp; [destruct pre; discriminate|].
    destruct pre as [|y pre]; cbn in E; injection E as -> Ees.
    - subst es. cbn [InlineStyle.loop]. destruct (e_style (w e)) as [m|] eqn:S; [|rewrite Idle; [reflexivity|rewrite S; exact I]].
      destruct (e_changed (w e)) eqn:C; [|apply Idle; rewrite S, C; exact I]. destruct (report_empty (parse (to_text m))) eqn:R; [|reflexivity].
      rewrite Idle; unfold put; rewrite Nat.eqb_refl; cbn; [reflexivity|]. rewrite R. reflexivity.
    - cbn [InlineStyle.loop]. pose proof (Hp y (or_introl eq_refl)) as Py. assert (Hp' : forall x, In x pre -> passes w x) by (intros z Hz; apply Hp; right; exact Hz).
      destruct (e_style (w y)) as [m|] eqn:S; [|eapply IH; eassumption]. destruct (e_changed (w y)) eqn:C; [|eapply IH; eassumption].
      destruct (Py m S C) as (ds & Hd). destruct (all_declare_report _ _ Hd) as [R Dd]. rewrite R. rewrite (IH _ e pre post Ees).
      + unfold put. destruct (Nat.eqb_spec e y) as [Ee|]; [subst y; cbn; rewrite S, C, R; reflexivity|reflexivity].
      + intros z Hz m' S' C'. unfold put in S', C'. destruct (Nat.eqb_spec z y) as [Ez|]; [subst z; cbn in S', C'; injection S' as <-; exists ds; exact Hd|]. exact (Hp' z Hz m' S' C').
  Qed.

  (** C56, one run: an entity's style is applied unless a faulty one is met first; a faulty one leaves its own entity as it was. *)
  Theorem C56_run_applies_partial pre e post w m :
    e_style (w e) = Some m -> e_changed (w e) = true ->
    (forall x m', In x pre -> e_style (w x) = Some m' -> e_changed (w x) = true -> clean parse m') ->
    (forall ds, all_declare (parse (to_text m)) ds -> e_raw (parse_inline_style parse (pre ++ e :: post) w e) = Some ds) /\
    (~ clean parse m -> e_raw (parse_inline_style parse (pre ++ e :: post) w e) = e_raw (w e)).
  Proof.
    intros S C Hp. unfold parse_inline_style, clear_changed. cbn [e_raw].
    rewrite (loop_raw (pre ++ e :: post) w e pre post eq_refl) by (intros x Hx m' S' C'; eauto). rewrite S, C. split.
    - intros ds Hd. destruct (all_declare_report _ _ Hd) as [-> ->]. reflexivity.
    - intros N. destruct (report_empty (parse (to_text m))) eqn:R; [|reflexivity]. exfalso. apply N. eexists. apply report_all_declare, R.
  Qed.

  Definition synced (w : nat -> ent D) : Prop :=
    forall e m, e_style (w e) = Some m -> e_changed (w e) = true \/ exists ds, all_declare (parse (to_text m)) ds /\ e_raw (w e) = Some ds.
  Lemma run_snoc vs v : run (vs ++ [v]) = step parse (run vs) v.
  Proof. unfold InlineStyle.run. rewrite fold_left_app. reflexivity. Qed.
  Lemma orderly_app a b : orderly parse (a ++ b) -> orderly parse a.
  Proof. intros H vs1 o vs2 ->. apply (H vs1 o (vs2 ++ b)). rewrite <- app_assoc. reflexivity. Qed.
  Lemma run_synced vs : orderly parse vs -> synced (run vs).
  Proof.
    induction vs as [|v vs IH] using rev_ind; intros O; [intros e m H; discriminate|].
    specialize (IH (orderly_app _ _ O)). rewrite run_snoc. intros e m S. destruct v as [x s|x o|x|order]; cbn [step] in *.
    - unfold put in *. destruct (e =? x); [left; reflexivity|apply IH, S].
    - destruct (e_style (run vs x)) as [mx|]; [|apply IH, S]. unfold put in *. destruct (e =? x); [left; reflexivity|apply IH, S].
    - unfold put in *. destruct (e =? x); [discriminate|apply IH, S].
    - right. pose proof (O vs order [] eq_refl) as Ho. unfold parse_inline_style, clear_changed in *. cbn [e_style e_raw] in *.
      destruct (loop_style order (run vs) e) as [Es _]. rewrite Es in S. clear Es. destruct (Ho e m S) as [Hin Hc].
      apply in_split in Hin. destruct Hin as (pre & post & Eo).
      rewrite (loop_raw order (run vs) e pre post Eo), S.
      + destruct (e_changed (run vs e)) eqn:C.
        * destruct (Hc eq_refl) as (ds & Hd). destruct (all_declare_report _ _ Hd) as [-> ->]. exists ds. auto.
        * destruct (IH e m S) as [G|G]; [congruence|]. exact G.
      + intros y Hy m' S' C'. exact (proj2 (Ho y m' S') C').
  Qed.
  (** C56 over all histories: after any frame the applied style of every entity is what its current style declares. *)
  Theorem C56_applied_partial vs order : orderly parse (vs ++ [Frame order]) ->
    forall e m, e_style (run (vs ++ [Frame order]) e) = Some m ->
    exists ds, all_declare (parse (to_text m)) ds /\ e_raw (run (vs ++ [Frame order]) e) = Some ds.
  Proof.
    intros O e m S. destruct (run_synced _ O e m S) as [C|H]; [|exact H]. rewrite run_snoc in C. discriminate.
  Qed.
  (** Entities nobody writes keep what they have *)
  Theorem C56_untouched vs order e : e_changed (run vs e) = false -> e_raw (run (vs ++ [Frame order]) e) = e_raw (run vs e).
  Proof.
    intros C. rewrite run_snoc. cbn [step]. unfold parse_inline_style, clear_changed. cbn [e_raw].
    generalize (run vs) C. clear C. induction order as [|x es IH]; intros w C; [reflexivity|]. cbn [InlineStyle.loop].
    destruct (e_style (w x)) as [m|]; [|apply IH, C]. destruct (e_changed (w x)) eqn:Cx; [|apply IH, C]. destruct (report_empty _); [|reflexivity].
    assert (N : (e =? x) = false) by (destruct (Nat.eqb_spec e x); [congruence|reflexivity]).
    rewrite IH; unfold put; rewrite N; [reflexivity|exact C].
  Qed.
End P.

(** A parser for the examples: it declares the text itself, rejects text containing '?' and advises on text containing '!' *)
Definition demo_parse (t : list ascii) : list (item (list ascii)) :=
  if existsb (Ascii.eqb "?"%char) t then [Bad] else if existsb (Ascii.eqb "!"%char) t then [Advised t] else [Plain t].

(** Refuted in general: one faulty inline style keeps the others of that frame from being applied, for good *)
Theorem C56_faulty_neighbour_refuted :
  exists (D : Type) (parse : list ascii -> list (item D)) vs e m ds,
    (forall order, In (Frame order) vs -> forall x, In x [0; 1] -> In x order) /\
    e_style (run parse vs e) = Some m /\ all_declare (parse (to_text m)) ds /\
    forall n, e_raw (run parse (vs ++ repeat (Frame [0; 1]) n) e) <> Some ds.
Proof.
  exists (list ascii), demo_parse, [Insert 0 (FromText (tx "width: ?")); Insert 1 (FromText (tx "width: 1px")); Frame [0; 1]], 1.
  exists (build (FromText (tx "width: 1px"))), [to_text (build (FromText (tx "width: 1px")))].
  split; [|split; [|split]].
  - intros order [H|[H|[H|[]]]]; try discriminate. injection H as <-. auto.
  - vm_compute. reflexivity.
  - vm_compute. repeat constructor.
  - intros n. assert (H : forall n w, e_changed (w 0) = false -> e_changed (w 1) = false -> e_raw (w 1) = None ->
      let w' := fold_left (step demo_parse) (repeat (Frame [0; 1]) n) w in e_changed (w' 0) = false /\ e_changed (w' 1) = false /\ e_raw (w' 1) = None).
    { clear n. induction n as [|n IH]; intros w H0 H1 H2; [auto|]. cbn [repeat fold_left]. apply IH; [reflexivity|reflexivity|].
      cbn [step]. unfold parse_inline_style, clear_changed. cbn [e_raw loop]. rewrite H0, H1. destruct (e_style (w 0)), (e_style (w 1)); exact H2. }
    unfold run. rewrite fold_left_app. destruct (H n (fold_left (step demo_parse) [Insert 0 (FromText (tx "width: ?")); Insert 1 (FromText (tx "width: 1px")); Frame [0; 1]] start)) as (_ & _ & ->).
    + reflexivity. + reflexivity. + vm_compute. reflexivity. + discriminate.
Qed.
(** Nor does `!important`, documented to be merely ignored, leave a style applicable *)
Theorem C56_important_refuted :
  exists (D : Type) (parse : list ascii -> list (item D)) vs e m d,
    e_style (run parse vs e) = Some m /\ parse (to_text m) = [Advised d] /\ e_raw (run parse vs e) = None /\ vs = [Insert e (FromPairs m); Frame [e]].
Proof.
  exists (list ascii), demo_parse, [Insert 0 (FromPairs [(tx "width", tx "1px !important")]); Frame [0]], 0, [(tx "width", tx "1px !important")].
  eexists. vm_compute. repeat split.
Qed.
(** Removing the component does not withdraw its declarations *)
Theorem C56_removed_stays_refuted :
  exists (D : Type) (parse : list ascii -> list (item D)) vs e, orderly parse vs /\
    e_style (run parse vs e) = None /\ exists d, e_raw (run parse vs e) = Some [d].
Proof.
  exists (list ascii), demo_parse, [Insert 0 (FromText (tx "width: 1px")); Frame [0]; RemoveComponent 0; Frame [0]], 0. split; [|vm_compute; split; [reflexivity|eexists; reflexivity]].
  intros vs1 order vs2 E e m S.
  destruct vs1 as [|a [|b [|c [|d vs1]]]]; cbn [app] in E; try discriminate; injection E; intros; subst.
  - destruct e; [|discriminate]. split; [cbn; auto|]. intros _. vm_compute in S. injection S as <-. eexists. vm_compute. repeat constructor.
  - destruct e; discriminate.
  - destruct vs1; discriminate.
Qed.

(** Non-vacuity *)
Example C55_witness : written (tx " width: 30px;; height:  5px ; ") [(tx "width", tx "30px"); (tx "height", tx "5px")] /\
  survives [Set_ (tx "padding") (tx "1px"); Set_ (tx "padding-left") (tx "2px"); Set_ (tx "padding") (tx "3px")] [(tx "padding-left", tx "2px"); (tx "padding", tx "3px")].
Proof.
  assert (T : forall s, is_ws (hd "a"%char s) = false -> is_ws (hd "a"%char (rev s)) = false -> tidy s).
  { intros s H H'. split; intros c r E; subst s; [exact H|]. rewrite rev_app_distr in H'. exact H'. }
  split.
  - change (tx " width: 30px;; height:  5px ; ") with (tx " width: 30px" ++ ";"%char :: (tx "" ++ ";"%char :: (tx " height:  5px " ++ ";"%char :: tx " "))).
    change [(tx "width", tx "30px"); (tx "height", tx "5px")] with ([(tx "width", tx "30px")] ++ ([] ++ ([(tx "height", tx "5px")] ++ []))).
    assert (W : forall w, (forallb is_ws w = true) -> white w) by (intros w H c Hc; rewrite forallb_forall in H; auto).
    assert (Nin : forall c s, existsb (Ascii.eqb c) s = false -> ~ In c s).
    { intros c s H G. assert (existsb (Ascii.eqb c) s = true); [|congruence]. apply existsb_exists. exists c. split; [exact G|apply Ascii.eqb_refl]. }
    repeat apply w_more; [| | |apply w_last].
    + apply (p_decl (tx " ") (tx "width") [] (tx " ") (tx "30px") []); try (apply W; reflexivity); try (apply Nin; reflexivity); apply T; reflexivity.
    + apply p_blank. intros c [].
    + apply (p_decl (tx " ") (tx "height") [] (tx "  ") (tx "5px") (tx " ")); try (apply W; reflexivity); try (apply Nin; reflexivity); apply T; reflexivity.
    + apply p_blank. apply W. reflexivity.
  - eapply sv_overridden with (o := Set_ (tx "padding") (tx "3px")); [right; left; reflexivity|reflexivity|].
    apply sv_kept; [intros o [<-|[]]; vm_compute; discriminate|]. apply sv_kept; [intros o []|constructor].
Qed.
Example C56_witness : orderly demo_parse [Insert 0 (FromText (tx "width: 1px")); Insert 1 (FromText (tx "top: 2px")); Frame [1; 0]; Mutate 1 (Set_ (tx "top") (tx "3px")); Frame [0; 1]] /\
  e_raw (run demo_parse [Insert 0 (FromText (tx "width: 1px")); Insert 1 (FromText (tx "top: 2px")); Frame [1; 0]; Mutate 1 (Set_ (tx "top") (tx "3px")); Frame [0; 1]] 1) = Some [to_text [(tx "top", tx "3px")]].
Proof.
  split; [|vm_compute; reflexivity]. intros vs1 order vs2 E e m S.
  destruct vs1 as [|a [|b [|c [|d [|x vs1]]]]]; cbn [app] in E; try discriminate; injection E; intros; subst.
  - destruct e as [|[|e]]; try discriminate; (split; [cbn; auto|]); intros _; vm_compute in S; injection S as <-; eexists; vm_compute; repeat constructor.
  - destruct e as [|[|e]]; try discriminate; (split; [cbn; auto|]); intros _; vm_compute in S; injection S as <-; eexists; vm_compute; repeat constructor.
  - destruct vs1; discriminate.
Qed.

Print Assumptions C55_last_write_wins. Print Assumptions C55_get. Print Assumptions C57_new_partial. Print Assumptions C57_quoted_semicolon_refuted.
Print Assumptions C56_text_is_declarations. Print Assumptions C56_run_applies_partial. Print Assumptions C56_applied_partial. Print Assumptions C56_untouched.
Print Assumptions C56_faulty_neighbour_refuted. Print Assumptions C56_important_refuted. Print Assumptions C56_removed_stays_refuted.
