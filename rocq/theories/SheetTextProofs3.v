From Coq Require Import Ascii String NArith ZArith QArith Qabs Qround Lqa Lia.
From Verif Require Import Base Vars VarText Media Nesting SheetText SheetTextSpec.
Open Scope nat_scope.

(** ** Names *)
Lemma same_map a b : same_name a b = true <-> map lower a = map lower b.
Proof. unfold same_name. destruct (list_eq_dec ascii_dec (map lower a) (map lower b)); split; congruence. Qed.
Lemma same_same a b c : same_name a b = true -> same_name a c = same_name b c.
Proof.
  intros H. apply same_map in H. unfold same_name. rewrite H. reflexivity.
Qed.
Lemma same_firstn k a b c : same_name a b = true -> same_name (firstn k a) c = same_name (firstn k b) c.
Proof. intros H. apply same_same. apply same_map in H. apply same_map. rewrite <- !firstn_map, H. reflexivity. Qed.

(** ** One condition *)
Definition rng {T} (k : comparison) (x : T) : range_selector T := match k with Equals => Exact x | AtLeast => GreaterOrEqual x | AtMost => LessOrEqual x end.
Definition clamp (n : N) : N := N.min n 2147483647.
Inductive test_of : condition -> media_selector fval -> Prop :=
| to_scheme : forall c, test_of (CScheme c) (MColorScheme fval c)
| to_width : forall k n, test_of (CWidth k n) (MViewportWidth fval (rng k (clamp n)))
| to_height : forall k n, test_of (CHeight k n) (MViewportHeight fval (rng k (clamp n)))
| to_ratio1 : forall k a, test_of (CRatio k a 1) (MAspectRatio fval (rng k (Fin a)))
| to_ratio2 : forall k a b, test_of (CRatio k a b) (MAspectRatio fval (rng k (fdiv a b)))
| to_resolution : forall k q, test_of (CResolution k q) (MResolution fval (rng k (Fin q))).
Lemma size_of_iff d n : size_of d = Some n <-> exists m, d = mkdec (Z.of_N m) 0 /\ n = clamp m.
Proof.
  unfold size_of, clamp. destruct d as [m k]. cbn [mant scale]. split.
  - destruct (Z.ltb m 0) eqn:E1; [discriminate|]. destruct (Nat.eqb k 0) eqn:E2; [|discriminate]. cbn. intros H. injection H as <-. apply Nat.eqb_eq in E2. subst k. apply Z.ltb_ge in E1.
    exists (Z.to_N m). rewrite Z2N.id by exact E1. auto.
  - intros (m' & H & ->). injection H as -> ->. assert (E : Z.ltb (Z.of_N m') 0 = false) by (apply Z.ltb_ge; lia). rewrite E. cbn. rewrite N2Z.id. reflexivity.
Qed.
Lemma size_iff v n : whole (parse_size v) = Some n <-> exists m, size_text v m /\ n = clamp m.
Proof.
  split.
  - unfold parse_size. destruct v as [|x v]; [discriminate|]. destruct x as [tk| |]; try discriminate. destruct tk; try discriminate.
    + destruct int; [|discriminate]. destruct (size_of d) as [k|] eqn:E; [|discriminate]. cbn. destruct v; [|discriminate]. intros H. injection H as <-.
      apply size_of_iff in E as (m & -> & ->). exists m. split; [constructor|reflexivity].
    + destruct int; [|discriminate]. destruct (same_name unit (tx "px")) eqn:Eu; [|discriminate]. destruct (size_of d) as [k|] eqn:E; [|discriminate]. cbn. destruct v; [|discriminate]. intros H. injection H as <-.
      apply size_of_iff in E as (m & -> & ->). exists m. split; [constructor; exact Eu|reflexivity].
  - intros (m & H & ->). assert (E : size_of (mkdec (Z.of_N m) 0) = Some (clamp m)) by (apply size_of_iff; eauto).
    destruct H as [n|n u Hu]; cbn [parse_size]; [|rewrite Hu]; rewrite E; reflexivity.
Qed.
Lemma resolution_iff v x : whole (parse_resolution v) = Some x <-> exists q, resolution_text v q /\ x = Fin q.
Proof.
  split.
  - unfold parse_resolution. destruct v as [|y v]; [discriminate|]. destruct y as [tk| |]; try discriminate. destruct tk; try discriminate.
    destruct (same_name unit (tx "dppx") || same_name unit (tx "x"))%bool eqn:E; [|discriminate]. cbn. destruct v; [|discriminate]. intros H. injection H as <-. exists (dec_Q d). split; [|reflexivity].
    constructor. apply Bool.orb_prop in E. tauto.
  - intros (q & H & ->). destruct H as [a i u Hu]. cbn [parse_resolution]. assert (E : (same_name u (tx "dppx") || same_name u (tx "x"))%bool = true) by (destruct Hu as [-> | ->]; [apply Bool.orb_true_r|reflexivity]). rewrite E. reflexivity.
Qed.
Definition ratio_value (a b : Q) (x : fval) : Prop := x = fdiv a b \/ (b = 1%Q /\ x = Fin a).
Lemma ratio_text_value v x : whole (parse_ratio v) = Some x -> exists a b, ratio_text v a b /\ ratio_value a b x.
Proof.
  unfold parse_ratio. destruct v as [|y v]; [discriminate|]. destruct y as [tk| |]; try discriminate. destruct tk; try discriminate.
  assert (One : whole (Some (Fin (dec_Q d), v)) = Some x -> exists a b, ratio_text (Leaf (TNumber d int) :: v) a b /\ ratio_value a b x).
  { cbn. destruct v; [|discriminate]. intros H. injection H as <-. exists (dec_Q d), 1%Q. split; [constructor|right; auto]. }
  destruct v as [|y v]; [exact One|]. destruct y as [tk| |]; try exact One. destruct tk; try exact One. destruct v as [|y v]; [exact One|]. destruct y as [tk| |]; try exact One. destruct tk; try exact One.
  destruct (is 47 c) eqn:Ec; [|exact One]. cbn. destruct v; [|discriminate]. intros H. injection H as <-. exists (dec_Q d), (dec_Q d0). split; [|left; reflexivity].
  assert (c = "/"%char) as ->; [|constructor]. unfold is, code in Ec. apply N.eqb_eq in Ec. apply (f_equal ascii_of_N) in Ec. rewrite ascii_N_embedding in Ec. exact Ec.
Qed.
Lemma ratio_parse v a b : ratio_text v a b -> exists x, whole (parse_ratio v) = Some x /\ (v = [] \/ (x = fdiv a b \/ (b = 1%Q /\ x = Fin a))).
Proof. intros H. destruct H as [a i|a i b j]; [exists (Fin (dec_Q a))|exists (fdiv (dec_Q a) (dec_Q b))]; (split; [reflexivity|right; auto]). Qed.
Lemma range_whole {T} k (P : list tree -> option (T * list tree)) nm l : parse_range nm P l = option_map (fun x => (rng k (fst x), snd x)) (P l) -> whole (parse_range nm P l) = option_map (rng k) (whole (P l)).
Proof. intros ->. destruct (P l) as [[x r]|]; [|reflexivity]. cbn. destruct r; reflexivity. Qed.
Definition feature_of (s : string) (r : list tree) (k : comparison) : option (media_selector fval) :=
  if String.eqb s "width" then option_map (MViewportWidth fval) (option_map (rng k) (whole (parse_size r)))
  else if String.eqb s "height" then option_map (MViewportHeight fval) (option_map (rng k) (whole (parse_size r)))
  else if String.eqb s "aspect-ratio" then option_map (MAspectRatio fval) (option_map (rng k) (whole (parse_ratio r)))
  else option_map (MResolution fval) (option_map (rng k) (whole (parse_resolution r))).
Lemma atom_range nm k s r : In s ["width"; "height"; "aspect-ratio"; "resolution"]%string -> prefixed (Leaf (TIdent nm)) k s -> parse_media_atom (Leaf (TIdent nm) :: Leaf TColon :: r) = feature_of s r k.
Proof.
  intros Hs Hp. assert (Hn : exists full, same_name nm (tx full) = true /\ full = (match k with Equals => s | AtLeast => "min-" ++ s | AtMost => "max-" ++ s end)%string).
  { destruct k; destruct Hp as (n & H & H'); injection H as <-; eauto. }
  destruct Hn as (full & Hf & ->). unfold parse_media_atom, one_of.
  assert (Rw : forall {T} (P : list tree -> option (T * list tree)), whole (parse_range nm P r) = option_map (rng k) (whole (P r))).
  { intros T P. apply range_whole. unfold parse_range. rewrite !(same_firstn 3 _ _ _ Hf). destruct k; simpl in Hs; repeat (destruct Hs as [<-|Hs]; [reflexivity|]); contradiction. }
  rewrite !Rw. cbn [existsb]. rewrite !(same_same _ _ _ Hf). destruct k; simpl in Hs; repeat (destruct Hs as [<-|Hs]; [reflexivity|]); contradiction.
Qed.
Lemma atom_scheme nm r : same_name nm (tx "prefers-color-scheme") = true -> parse_media_atom (Leaf (TIdent nm) :: Leaf TColon :: r) = option_map (MColorScheme fval) (whole (parse_color_scheme r)).
Proof. intros H. unfold parse_media_atom. rewrite H. reflexivity. Qed.
Lemma atom_names l m : parse_media_atom l = Some m -> exists nm r, l = Leaf (TIdent nm) :: Leaf TColon :: r /\
  (same_name nm (tx "prefers-color-scheme") = true \/ exists s k, In s ["width"; "height"; "aspect-ratio"; "resolution"]%string /\ prefixed (Leaf (TIdent nm)) k s).
Proof.
  unfold parse_media_atom. intros H. destruct l as [|x l]; [discriminate|]. destruct x as [tk| |]; try discriminate. destruct tk as [nm| | | | | | | | | | | | | | | | | | | | | | |]; try discriminate.
  destruct l as [|x l]; [discriminate|]. destruct x as [tk| |]; try discriminate. destruct tk; try discriminate. exists nm, l. split; [reflexivity|].
  destruct (same_name nm (tx "prefers-color-scheme")) eqn:E0; [left; reflexivity|right].
  assert (One : forall s, one_of nm [s; ("min-" ++ s)%string; ("max-" ++ s)%string] = true -> exists k, prefixed (Leaf (TIdent nm)) k s).
  { intros s Ho. unfold one_of in Ho. cbn [existsb] in Ho. apply Bool.orb_prop in Ho as [Ho|Ho]; [exists Equals; exists nm; auto|]. apply Bool.orb_prop in Ho as [Ho|Ho]; [exists AtLeast; exists nm; auto|].
    apply Bool.orb_prop in Ho as [Ho|Ho]; [exists AtMost; exists nm; auto|discriminate]. }
  destruct (one_of nm ["width"; "min-width"; "max-width"]%string) eqn:E1; [destruct (One "width"%string E1) as [k Hk]; exists "width"%string, k; split; [simpl; tauto|exact Hk]|].
  destruct (one_of nm ["height"; "min-height"; "max-height"]%string) eqn:E2; [destruct (One "height"%string E2) as [k Hk]; exists "height"%string, k; split; [simpl; tauto|exact Hk]|].
  destruct (one_of nm ["aspect-ratio"; "min-aspect-ratio"; "max-aspect-ratio"]%string) eqn:E3; [destruct (One "aspect-ratio"%string E3) as [k Hk]; exists "aspect-ratio"%string, k; split; [simpl; tauto|exact Hk]|].
  destruct (one_of nm ["resolution"; "min-resolution"; "max-resolution"]%string) eqn:E4; [destruct (One "resolution"%string E4) as [k Hk]; exists "resolution"%string, k; split; [simpl; tauto|exact Hk]|discriminate].
Qed.
Lemma atom_sound l m : parse_media_atom l = Some m -> exists c, condition_text l c /\ test_of c m.
Proof.
  intros H. destruct (atom_names l m H) as (nm & r & -> & [Hs|(s & k & Hin & Hp)]).
  - rewrite (atom_scheme nm r Hs) in H. unfold parse_color_scheme in H. destruct r as [|x r]; [discriminate|]. destruct x as [tk| |]; try discriminate. destruct tk as [v| | | | | | | | | | | | | | | | | | | | | | |]; try discriminate.
    assert (Np : named (Leaf (TIdent nm)) "prefers-color-scheme") by (exists nm; auto).
    destruct (same_name v (tx "light")) eqn:E1; [destruct r; [|discriminate]; injection H as <-; exists (CScheme Light); split; [apply ct_light; [exact Np|exists v; auto]|constructor]|].
    destruct (same_name v (tx "dark")) eqn:E2; [destruct r; [|discriminate]; injection H as <-; exists (CScheme Dark); split; [apply ct_dark; [exact Np|exists v; auto]|constructor]|discriminate].
  - rewrite (atom_range nm k s r Hin Hp) in H. simpl in Hin. destruct Hin as [<-|[<-|[<-|[<-|[]]]]]; cbn in H.
    + destruct (whole (parse_size r)) as [n|] eqn:E; [|discriminate]. injection H as <-. apply size_iff in E as (m & Ht & ->). exists (CWidth k m). split; constructor; assumption.
    + destruct (whole (parse_size r)) as [n|] eqn:E; [|discriminate]. injection H as <-. apply size_iff in E as (m & Ht & ->). exists (CHeight k m). split; constructor; assumption.
    + destruct (whole (parse_ratio r)) as [x|] eqn:E; [|discriminate]. injection H as <-. apply ratio_text_value in E as (a & b & Ht & Hv). exists (CRatio k a b). split; [constructor; assumption|]. destruct Hv as [-> | [-> ->]]; constructor.
    + destruct (whole (parse_resolution r)) as [x|] eqn:E; [|discriminate]. injection H as <-. apply resolution_iff in E as (q & Ht & ->). exists (CResolution k q). split; constructor; assumption.
Qed.
Lemma prefixed_ident p k s : prefixed p k s -> exists nm, p = Leaf (TIdent nm).
Proof. destruct k; intros (n & -> & _); eauto. Qed.
Lemma atom_complete l c : condition_text l c -> exists m, parse_media_atom l = Some m /\ test_of c m.
Proof.
  intros H. destruct H as [p v (nm & -> & Hn) (w & -> & Hw)|p v (nm & -> & Hn) (w & -> & Hw)|p k v n Hp Hv|p k v n Hp Hv|p k v a b Hp Hv|p k v q Hp Hv].
  - rewrite (atom_scheme nm _ Hn). unfold parse_color_scheme. rewrite Hw. exists (MColorScheme fval Light). split; [reflexivity|constructor].
  - rewrite (atom_scheme nm _ Hn). unfold parse_color_scheme. rewrite (same_same _ _ _ Hw), Hw. exists (MColorScheme fval Dark). split; [reflexivity|constructor].
  - destruct (prefixed_ident _ _ _ Hp) as [nm ->]. rewrite (atom_range nm k "width" v ltac:(simpl; tauto) Hp). cbn. assert (E : whole (parse_size v) = Some (clamp n)) by (apply size_iff; eauto). rewrite E. eexists. split; [reflexivity|constructor].
  - destruct (prefixed_ident _ _ _ Hp) as [nm ->]. rewrite (atom_range nm k "height" v ltac:(simpl; tauto) Hp). cbn. assert (E : whole (parse_size v) = Some (clamp n)) by (apply size_iff; eauto). rewrite E. eexists. split; [reflexivity|constructor].
  - destruct (prefixed_ident _ _ _ Hp) as [nm ->]. rewrite (atom_range nm k "aspect-ratio" v ltac:(simpl; tauto) Hp). cbn. destruct Hv as [a i|a i b j]; cbn; eexists; (split; [reflexivity|constructor]).
  - destruct (prefixed_ident _ _ _ Hp) as [nm ->]. rewrite (atom_range nm k "resolution" v ltac:(simpl; tauto) Hp). cbn. assert (E : whole (parse_resolution v) = Some (Fin q)) by (apply resolution_iff; eauto). rewrite E. eexists. split; [reflexivity|constructor].
Qed.

(** ** Queries *)
Lemma ands_sound n : forall l ms, length l <= n -> parse_ands l = Some ms -> ms = [] /\ l = [] \/ exists a r cs, l = a :: r /\ named a "and" /\ query_text r cs /\ Forall2 test_of cs ms.
Proof.
  induction n as [|n IH]; intros l ms Hn H; [destruct l; [injection H as <-; auto|simpl in Hn; lia]|].
  destruct l as [|x l]; [injection H as <-; auto|]. right. destruct x as [tk| |]; try discriminate. destruct tk as [s| | | | | | | | | | | | | | | | | | | | | | |]; try discriminate.
  destruct l as [|y l]; [discriminate|]. destruct y as [| |bk b]; try discriminate. destruct bk; try discriminate. cbn [parse_ands] in H. destruct (same_name s (tx "and")) eqn:Es; [|discriminate].
  destruct (parse_media_atom b) as [m|] eqn:Em; [|discriminate]. destruct (parse_ands l) as [ms'|] eqn:El; [|discriminate]. injection H as <-.
  destruct (atom_sound b m Em) as (c & Hc & Ht). exists (Leaf (TIdent s)), (Blk InParen b :: l).
  destruct (IH l ms' ltac:(simpl in Hn; lia) El) as [[-> ->]|(a & r & cs & -> & Ha & Hq & Hf)].
  - exists [c]. split; [reflexivity|]. split; [exists s; auto|]. split; [constructor; exact Hc|constructor; [exact Ht|constructor]].
  - exists (c :: cs). split; [reflexivity|]. split; [exists s; auto|]. split; [constructor; assumption|constructor; assumption].
Qed.
Lemma media_sound l ms : parse_media l = Some ms -> exists cs, query_text l cs /\ Forall2 test_of cs ms.
Proof.
  unfold parse_media. intros H. destruct l as [|x l]; [discriminate|]. destruct x as [| |bk b]; try discriminate. destruct bk; try discriminate.
  destruct (parse_media_atom b) as [m|] eqn:Em; [|discriminate]. destruct (parse_ands l) as [ms'|] eqn:El; [|discriminate]. injection H as <-. destruct (atom_sound b m Em) as (c & Hc & Ht).
  destruct (ands_sound _ l ms' (le_n _) El) as [[-> ->]|(a & r & cs & -> & Ha & Hq & Hf)].
  - exists [c]. split; [constructor; exact Hc|constructor; [exact Ht|constructor]].
  - exists (c :: cs). split; constructor; assumption.
Qed.
Lemma media_complete l cs : query_text l cs -> exists ms, parse_media l = Some ms /\ Forall2 test_of cs ms.
Proof.
  induction 1 as [b c Hc|b c a l cs Hc Ha Hq IH].
  - destruct (atom_complete b c Hc) as (m & E & Ht). exists [m]. cbn. rewrite E. split; [reflexivity|constructor; [exact Ht|constructor]].
  - destruct (atom_complete b c Hc) as (m & E & Ht). destruct IH as (ms & El & Hf). exists (m :: ms). split; [|constructor; assumption].
    destruct Ha as (s & -> & Hs). unfold parse_media in *. rewrite E. destruct l as [|x l]; [discriminate|]. destruct x as [| |bk b']; try discriminate. destruct bk; try discriminate.
    cbn [parse_ands]. rewrite Hs. destruct (parse_media_atom b') as [m'|]; [|discriminate]. destruct (parse_ands l) as [ms'|]; [|discriminate]. injection El as <-. reflexivity.
Qed.

(** ** What they mean *)
Lemma Qneg_spec a : Qneg a = true <-> (a < 0)%Q.
Proof. unfold Qneg. destruct (Qle_bool 0 a) eqn:E; cbn; split; intros H; try discriminate; try reflexivity. - apply Qle_bool_iff in E. lra. - destruct (Qlt_le_dec a 0) as [L|L]; [exact L|]. apply Qle_bool_iff in L. congruence. Qed.
Definition holds_f (k : comparison) (x y : fval) : bool := match k with Equals => feq x y | AtLeast => fle y x | AtMost => fle x y end.
Lemma fin_compares k a b : holds_f k (Fin a) (Fin b) = true <-> compares k a b.
Proof.
  destruct k; unfold holds_f, feq; cbn [fle compares]; [|apply Qle_bool_iff|apply Qle_bool_iff]. rewrite Bool.andb_true_iff, !Qle_bool_iff. split; [intros [H1 H2]; apply Qle_antisym; assumption|intros E; rewrite E; split; apply Qle_refl].
Qed.
Lemma compares_mult k a b c : (0 < c)%Q -> (compares k a b <-> compares k (a * c) (b * c)).
Proof.
  intros H. destruct k; cbn; [|symmetry; apply Qmult_le_r; exact H|symmetry; apply Qmult_le_r; exact H]. split; [intros E; rewrite E; reflexivity|]. intros E. apply Qmult_inj_r in E; [exact E|lra].
Qed.
Lemma compares_ext k a b a' b' : (a == a')%Q -> (b == b')%Q -> compares k a b <-> compares k a' b'.
Proof. intros E1 E2. destruct k; cbn; rewrite E1, E2; reflexivity. Qed.
Lemma ratio_meaning k (w h a b : Q) : (0 < h)%Q -> ~ (a == 0 /\ b == 0)%Q ->
  holds_f k (fdiv w h) (fdiv a b) = true <-> compares k (w * Qabs b) (h * (if Qneg b then - a else a)).
Proof.
  intros Hh Hab. unfold fdiv at 1. assert (Eh : Qeq_bool h 0 = false) by (destruct (Qeq_bool h 0) eqn:E; [|reflexivity]; apply Qeq_bool_iff in E; lra). rewrite Eh. unfold fdiv.
  destruct (Qeq_bool b 0) eqn:Eb.
  - apply Qeq_bool_iff in Eb. destruct (Qeq_bool a 0) eqn:Ea; [apply Qeq_bool_iff in Ea; exfalso; apply Hab; split; assumption|].
    assert (Na : ~ (a == 0)%Q) by (intros H; apply Qeq_bool_iff in H; congruence).
    assert (Hn : Qneg b = false) by (destruct (Qneg b) eqn:E; [apply Qneg_spec in E; lra|reflexivity]). rewrite Hn.
    assert (E0 : (w * Qabs b == 0)%Q) by (rewrite Eb; cbn; ring). rewrite (compares_ext k _ _ 0 (h * a) E0 (Qeq_refl _)).
    destruct (Qneg a) eqn:Es.
    + apply Qneg_spec in Es. assert (L : (h * a < 0)%Q) by nra. destruct k; cbn; split; intros H; try discriminate; try reflexivity; lra.
    + assert (L : (0 < h * a)%Q). { assert (0 < a)%Q. { destruct (Qlt_le_dec 0 a) as [|L]; [assumption|]. destruct (Qlt_le_dec a 0) as [L'|L']; [apply Qneg_spec in L'; congruence|]. exfalso. apply Na. apply Qle_antisym; assumption. } nra. }
      destruct k; cbn; split; intros H; try discriminate; try reflexivity; lra.
  - assert (Nb : ~ (b == 0)%Q) by (intros H; apply Qeq_bool_iff in H; congruence). rewrite fin_compares.
    assert (Pb : (0 < Qabs b)%Q). { destruct (Qlt_le_dec 0 (Qabs b)) as [|L]; [assumption|]. exfalso. apply Nb. pose proof (Qabs_nonneg b) as P. revert L P. apply (Qabs_case b (fun x => (x <= 0)%Q -> (0 <= x)%Q -> (b == 0)%Q)); intros; lra. }
    rewrite (compares_mult k _ _ (h * Qabs b)) by nra. apply compares_ext; [field; lra|].
    destruct (Qneg b) eqn:Es; [apply Qneg_spec in Es; rewrite (Qabs_neg b) by lra; field; exact Nb|].
    assert (0 <= b)%Q by (destruct (Qlt_le_dec b 0) as [L|L]; [apply Qneg_spec in L; congruence|exact L]). rewrite (Qabs_pos b) by assumption. field. exact Nb.
Qed.
Lemma size_meaning k (x : Q) (m n : N) : (x == inject_Z (Z.of_N m))%Q -> (n < 2 ^ 31)%N ->
  range_matches N.eqb N.leb ngeb (rng k (clamp n)) (Z.to_N (Qfloor x)) = true <-> compares k x (inject_Z (Z.of_N n)).
Proof.
  intros Hx Hn. assert (Ec : clamp n = n) by (unfold clamp; apply N.min_l; change (2 ^ 31)%N with 2147483648%N in Hn; lia). rewrite Ec.
  assert (Ef : Z.to_N (Qfloor x) = m) by (rewrite (Qfloor_comp _ _ Hx), Qfloor_Z; apply N2Z.id). rewrite Ef. rewrite (compares_ext k x _ _ _ Hx (Qeq_refl _)).
  unfold ngeb. destruct k; cbn [rng range_matches compares]; [rewrite N.eqb_eq; unfold Qeq, inject_Z; cbn|rewrite N.leb_le; rewrite <- Zle_Qle|rewrite N.leb_le; rewrite <- Zle_Qle]; lia.
Qed.
Lemma test_meaning w c m : whole_size w -> fits c -> test_of c m ->
  (match selector_matches fval feq fle (fun a b => fle b a) (fun _ _ => fdiv (w_width w) (w_height w)) m (features w) with Some b => b | None => false end = true <-> holds w c).
Proof.
  intros (nw & nh & Ew & Eh & Ph) Hf Ht.
  assert (Rf : forall k (x y : fval), range_matches feq fle (fun a b => fle b a) (rng k y) x = holds_f k x y) by (intros k x y; destruct k; reflexivity).
  destruct Ht as [c|k n|k n|k a|k a b|k q]; cbn [selector_matches features p_color_scheme p_width p_height p_resolution option_map get_aspect_ratio holds fits] in *.
  - destruct c, (w_scheme w); cbn; split; congruence.
  - apply size_meaning with (m := nw); assumption.
  - apply size_meaning with (m := nh); assumption.
  - rewrite Rf. assert (E : holds_f k (fdiv (w_width w) (w_height w)) (Fin a) = true <-> holds_f k (fdiv (w_width w) (w_height w)) (fdiv a 1) = true).
    { unfold fdiv. change (Qeq_bool 1 0) with false. cbv iota. assert (Eh' : Qeq_bool (w_height w) 0 = false) by (destruct (Qeq_bool (w_height w) 0) eqn:E; [|reflexivity]; apply Qeq_bool_iff in E; lra). rewrite Eh'.
      rewrite !fin_compares. apply compares_ext; [reflexivity|field]. }
    rewrite E. apply ratio_meaning; assumption.
  - rewrite Rf. apply ratio_meaning; assumption.
  - rewrite Rf. apply fin_compares.
Qed.
Lemma applies_iff w cs ms : whole_size w -> Forall fits cs -> Forall2 test_of cs ms -> (applies ms w = true <-> Forall (holds w) cs).
Proof.
  intros Hw Hf H. unfold applies, media_matches.
  assert (E : forallb (fun s => match selector_matches fval feq fle (fun a b => fle b a) (fun _ _ => fdiv (w_width w) (w_height w)) s (features w) with Some b => b | None => false end) ms = true <-> Forall (holds w) cs).
  { induction H as [|c m cs ms Ht H IH]; [split; [constructor|reflexivity]|]. inversion Hf; subst. cbn [forallb]. rewrite Bool.andb_true_iff, IH by assumption.
    rewrite (test_meaning w c m Hw) by assumption. split; [intros [A B]; constructor; assumption|intros A; inversion A; auto]. }
  destruct ms; [inversion H; subst; split; [constructor|reflexivity]|exact E].
Qed.
