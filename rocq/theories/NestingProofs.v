(** Proofs for C58 and C59. *)
From Coq Require Import Ascii.
From Verif Require Import Base LayersSpec Nesting NestingSpec.

(* ------------------------------------------------------------------ order of first mention *)
Notation pth := (list (list ascii)) (only parsing).
Definition path_dec : forall a b : pth, {a = b} + {a <> b} := list_eq_dec (list_eq_dec ascii_dec).
Fixpoint nub (seen l : list pth) : list pth :=
  match l with [] => [] | x :: l => if in_dec path_dec x seen then nub seen l else x :: nub (x :: seen) l end.
Lemma nub_ext l : forall s s', (forall x, In x s <-> In x s') -> nub s l = nub s' l.
Proof.
  induction l as [|x l IH]; intros s s' H; [reflexivity|]. cbn [nub].
  destruct (in_dec path_dec x s) as [I|I], (in_dec path_dec x s') as [I'|I']; [apply IH, H|exfalso; apply I', H, I|exfalso; apply I, H, I'|].
  f_equal. apply IH. intros y. cbn. rewrite H. tauto.
Qed.
Lemma nub_app a : forall s b, nub s (a ++ b) = nub s a ++ nub (a ++ s) b.
Proof.
  induction a as [|x a IH]; intros s b; [reflexivity|]. cbn [app nub]. destruct (in_dec path_dec x s) as [I|I].
  - rewrite IH. f_equal. apply nub_ext. intros y. cbn. rewrite in_app_iff. split; [tauto|]. intros [<-|H]; [right; exact I|exact H].
  - cbn [app]. rewrite IH. do 2 f_equal. apply nub_ext. intros y. cbn. rewrite !in_app_iff. cbn. tauto.
Qed.
Lemma nub_incl l : forall s, incl l s -> nub s l = [].
Proof.
  induction l as [|x l IH]; intros s H; [reflexivity|]. cbn. destruct (in_dec path_dec x s) as [|N]; [apply IH; intros y Hy; apply H; right; exact Hy|].
  exfalso. apply N, H. left. reflexivity.
Qed.
Lemma nub_in l : forall s x, In x (nub s l ++ s) <-> In x (l ++ s).
Proof.
  induction l as [|y l IH]; intros s x; [tauto|]. cbn [nub app]. destruct (in_dec path_dec y s) as [I|I].
  - rewrite IH. cbn. rewrite in_app_iff. split; [tauto|]. intros [<-|H]; [right; exact I|exact H].
  - cbn. specialize (IH (y :: s) x). rewrite in_app_iff in IH |- *. rewrite in_app_iff in *. cbn in IH. tauto.
Qed.
Lemma nub_first l : forall s a b, ~ In a s -> ~ In b s -> ((exists l1 l2, l = l1 ++ a :: l2 /\ ~ In b l1) <-> (exists l1 l2, nub s l = l1 ++ a :: l2 /\ ~ In b l1)).
Proof.
  induction l as [|x l IH]; intros s a b Na Nb.
  - split; intros (l1 & l2 & H & _); destruct l1; discriminate.
  - cbn [nub]. destruct (in_dec path_dec x s) as [I|I].
    + rewrite <- (IH s a b Na Nb). split.
      * intros (l1 & l2 & E & N). destruct l1 as [|y l1]; cbn in E; injection E as -> ->; [contradiction|]. exists l1, l2. split; [reflexivity|]. intros G. apply N. right. exact G.
      * intros (l1 & l2 & -> & N). exists (x :: l1), l2. split; [reflexivity|]. intros [->|G]; [contradiction|exact (N G)].
    + destruct (path_dec x a) as [->|Nxa].
      * split; intros _; [exists [], (nub (a :: s) l)|exists [], l]; split; auto.
      * destruct (path_dec x b) as [->|Nxb].
        -- split; intros (l1 & l2 & E & N); destruct l1 as [|y l1]; cbn in E; injection E as -> E; try contradiction; exfalso; apply N; left; reflexivity.
        -- specialize (IH (x :: s) a b).
           assert (IH' : (exists l1 l2, l = l1 ++ a :: l2 /\ ~ In b l1) <-> (exists l1 l2, nub (x :: s) l = l1 ++ a :: l2 /\ ~ In b l1)).
           { apply IH; intros [G|G]; contradiction. }
           split.
           ++ intros (l1 & l2 & E & N). destruct l1 as [|y l1]; cbn in E; injection E as -> E; [contradiction|]. destruct (proj1 IH') as (k1 & k2 & E' & N').
              { exists l1, l2. split; [exact E|]. intros G. apply N. right. exact G. }
              exists (y :: k1), k2. split; [cbn; rewrite E'; reflexivity|]. intros [G|G]; contradiction.
           ++ intros (l1 & l2 & E & N). destruct l1 as [|y l1]; cbn in E; injection E as -> E; [contradiction|]. destruct (proj2 IH') as (k1 & k2 & E' & N').
              { exists l1, l2. split; [exact E|]. intros G. apply N. right. exact G. }
              exists (y :: k1), k2. split; [cbn; rewrite E'; reflexivity|]. intros [G|G]; contradiction.
Qed.
Lemma nub_before l l' a b : nub [] l = nub [] l' -> (mentioned_before l a b <-> mentioned_before l' a b).
Proof.
  intros E. unfold mentioned_before. rewrite (nub_first l [] a b), (nub_first l' [] a b), E by (intros []). tauto.
Qed.
Lemma nub_members l l' x : nub [] l = nub [] l' -> (In x l <-> In x l').
Proof. intros E. pose proof (nub_in l [] x) as H. pose proof (nub_in l' [] x) as H'. rewrite !app_nil_r in *. rewrite E in H. tauto. Qed.

Definition same_first (L : pth) (a b : list pth) : Prop := forall seen, incl (prefixes L) seen -> nub seen (mentions a) = nub seen (mentions b).
Lemma mentions_app a b : mentions (a ++ b) = mentions a ++ mentions b.
Proof. unfold mentions. rewrite map_app, concat_app. reflexivity. Qed.
Lemma sf_refl L a : same_first L a a. Proof. intros s _. reflexivity. Qed.
Lemma sf_app L a a' b b' : same_first L a a' -> same_first L b b' -> same_first L (a ++ b) (a' ++ b').
Proof.
  intros H H' s Hs. rewrite !mentions_app, !nub_app. rewrite (H s Hs). f_equal. rewrite (H' (mentions a ++ s)).
  - apply nub_ext. intros x. pose proof (nub_in (mentions a) s x) as Q. pose proof (nub_in (mentions a') s x) as Q'. rewrite (H s Hs) in Q. tauto.
  - intros x Hx. apply in_or_app. right. apply Hs, Hx.
Qed.
Lemma sf_absorb L r : Forall (eq L) r -> same_first L r [].
Proof.
  intros H s Hs. cbn [mentions map concat nub]. apply nub_incl. intros x Hx. unfold mentions in Hx. apply in_concat in Hx. destruct Hx as (y & Hy & Hxy).
  apply in_map_iff in Hy. destruct Hy as (p & <- & Hp). rewrite Forall_forall in H. rewrite <- (H p Hp) in Hxy. apply Hs, Hxy.
Qed.
Lemma mentions_cons p l : mentions (p :: l) = prefixes p ++ mentions l. Proof. reflexivity. Qed.
Lemma sf_layer L p a a' : same_first p a a' -> same_first L (p :: a) (p :: a').
Proof. intros H s Hs. rewrite !mentions_cons, !nub_app. f_equal. apply H. intros x Hx. apply in_or_app. left. exact Hx. Qed.
Lemma prefixes_app p q : exists r, prefixes (p ++ q) = prefixes p ++ r.
Proof.
  induction p as [|s p IH]; [eexists; reflexivity|]. destruct IH as (r & E). exists (map (cons s) r). cbn. rewrite E, map_app. reflexivity.
Qed.
(** A block whose first mention lies inside it need not be mentioned on entry *)
Lemma sf_first L p q a a' : same_first p ((p ++ q) :: a) a' -> same_first L ((p ++ q) :: a) (p :: a').
Proof.
  intros H s Hs. rewrite (mentions_cons p a'), nub_app. rewrite <- (H (prefixes p ++ s)) by (intros x Hx; apply in_or_app; left; exact Hx).
  rewrite <- nub_app, mentions_cons. destruct (prefixes_app p q) as (r & ->). rewrite <- !app_assoc. rewrite (nub_app (prefixes p) s (prefixes p ++ _)). rewrite (nub_app (prefixes p) s (r ++ _)). f_equal.
  rewrite (nub_app (prefixes p) (prefixes p ++ s)). rewrite (nub_incl (prefixes p)) by (intros x Hx; apply in_or_app; left; exact Hx). cbn [app].
  apply nub_ext. intros x. rewrite !in_app_iff. tauto.
Qed.

(* ------------------------------------------------------------------ selectors *)
Section L.
  Context {A C El : Type} (simple : A -> El -> Prop) (related : C -> El -> El -> Prop) (weight : A -> nat).
  Notation matches := (matches simple related). Notation specificity := (specificity (C:=C) weight).
  Notation alternative := ((El -> Prop) * nat)%type.
  Lemma matches_ext s P Q : (forall e, P e <-> Q e) -> forall e, matches s P e <-> matches s Q e.
  Proof.
    intros H. induction s; intros e; cbn [NestingSpec.matches]; try tauto; [apply H|rewrite IHs1, IHs2; tauto|rewrite IHs1, IHs2; tauto|].
    rewrite IHs2. split; intros (G & e' & R & G'); (split; [exact G|]); exists e'; (split; [exact R|]); apply IHs1, G'.
  Qed.
  Lemma matches_replace p s P : forall e, matches (replace_amp p s) P e <-> matches s (matches p P) e.
  Proof.
    induction s; intros e; cbn [replace_amp NestingSpec.matches]; try tauto; [rewrite IHs1, IHs2; tauto|rewrite IHs1, IHs2; tauto|].
    rewrite IHs2. split; intros (G & e' & R & G'); (split; [exact G|]); exists e'; (split; [exact R|]); apply IHs1, G'.
  Qed.
  Lemma specificity_replace p s k : specificity (replace_amp p s) k = specificity s (specificity p k).
  Proof. induction s; cbn [replace_amp NestingSpec.specificity]; congruence. Qed.
  Lemma matches_any l P e : matches (is_any l) P e <-> exists s, In s l /\ matches s P e.
  Proof.
    induction l as [|s l IH]; cbn [is_any fold_right NestingSpec.matches]; [split; [tauto|intros (s & [] & _)]|]. change (fold_right Or Never l) with (is_any l). rewrite IH. split.
    - intros [H|(t & Ht & H)]; [exists s; cbn; auto|exists t; cbn; auto].
    - intros (t & [->|Ht] & H); [left; exact H|right; exists t; auto].
  Qed.
  Lemma specificity_any l k : specificity (is_any l) k = list_max (map (fun s => specificity s k) l).
  Proof. induction l as [|s l IH]; [reflexivity|]. cbn [is_any fold_right NestingSpec.specificity map]. change (fold_right Or Never l) with (is_any l). rewrite IH. reflexivity. Qed.

  Lemma means_any ss (alts : list alternative) : Forall2 (means simple related weight) ss alts ->
    (forall e, matches (is_any ss) (fun _ => False) e <-> any_of alts e) /\ specificity (is_any ss) 0 = strongest alts.
  Proof.
    intros H. split.
    - intros e. rewrite matches_any. unfold any_of. induction H as [|s a ss alts (H3 & H4) H IH]; [split; [intros (s & [] & _)|intros (a & [] & _)]|]. split.
      + intros (t & [<-|Ht] & G); [exists a; split; [left; reflexivity|apply H3, G]|]. destruct (proj1 IH) as (b & Hb & G'); [exists t; auto|]. exists b. cbn. auto.
      + intros (b & [<-|Hb] & G); [exists s; split; [left; reflexivity|apply H3, G]|]. destruct (proj2 IH) as (t & Ht & G'); [exists b; auto|]. exists t. cbn. auto.
    - rewrite specificity_any. unfold strongest. induction H as [|s a ss alts (H3 & H4) H IH]; [reflexivity|]. cbn [map]. unfold list_max in *. cbn [fold_right]. rewrite H4, IH. reflexivity.
  Qed.
  Lemma means_top s : means simple related weight s (meaning simple related weight s []).
  Proof. split; [|reflexivity]. apply matches_ext. intros e. split; [intros []|intros (a & [] & _)]. Qed.
  Lemma means_replace ss alts n : Forall2 (means simple related weight) ss alts -> means simple related weight (replace_by ss n) (meaning simple related weight n alts).
  Proof.
    intros H. destruct (means_any _ _ H) as [G1 G2]. split; cbn [meaning fst snd]; unfold replace_by.
    - intros e. rewrite matches_replace. apply matches_ext. exact G1.
    - rewrite specificity_replace. f_equal. exact G2.
  Qed.
End L.

Section P.
  Context {Sl V M D : Type} (value : Sl -> list V -> V) (stands : Sl -> V -> Prop) (amp : Sl) (replace : list Sl -> Sl -> Sl).
  Hypothesis Htop : forall s, stands s (value s []).
  Hypothesis Hrep : forall ss vs n, Forall2 stands ss vs -> stands (replace ss n) (value n vs).
  Notation alternatives := (alternatives value).
  Notation csel := (csel Sl M). Notation builder := (builder Sl M D). Notation body := (body Sl M D). Notation top := (top Sl M D).
  Definition agrees (L : pth) (Md : list M) (s : csel) (v : V) : Prop := c_layer s = dotted L /\ c_media s = Md /\ stands (c_sel s) v.
  Lemma agrees_stands L Md ss alts : Forall2 (agrees L Md) ss alts -> Forall2 stands (map c_sel ss) alts.
  Proof. induction 1 as [|s v ss vs (_ & _ & H) _ IH]; constructor; assumption. Qed.

  Lemma dotted_snoc L n : L <> [] -> dotted (L ++ [n]) = dotted L ++ "."%char :: n.
  Proof.
    intros H. induction L as [|s L IH]; [congruence|]. destruct L as [|t L]; [reflexivity|]. cbn [app]. cbn [app] in IH. change (dotted (s :: t :: L ++ [n])) with (s ++ "."%char :: dotted (t :: L ++ [n])).
    rewrite IH by discriminate. change (dotted (s :: t :: L)) with (s ++ "."%char :: dotted (t :: L)). rewrite <- app_assoc. reflexivity.
  Qed.
  Lemma dotted_nil L : Forall legal_segment L -> dotted L = [] -> L = [].
  Proof. intros H E. destruct L as [|s [|t L]]; [reflexivity| |]; inversion H as [|? ? [N _] _]; subst; cbn in E; [contradiction|]. destruct s; [contradiction|discriminate]. Qed.
  (** joining the layer of the parent and a name *)
  Definition join (own : option (list ascii)) (L : pth) : pth := match own with Some n => L ++ [n] | None => L end.
  Definition own_text (own : option (list ascii)) : list ascii := match own with Some n => n | None => [] end.
  Definition own_ok (own : option (list ascii)) : Prop := match own with Some n => legal_segment n | None => True end.
  Lemma join_text L own : Forall legal_segment L -> own_ok own ->
    match dotted L, own_text own with [], l => l | pl, [] => pl | pl, l => pl ++ "."%char :: l end = dotted (join own L).
  Proof.
    intros HL Ho. destruct own as [n|]; cbn [own_text join].
    - destruct Ho as [Nn _]. destruct n as [|c n]; [contradiction|]. destruct (dotted L) as [|x l] eqn:E.
      + rewrite (dotted_nil L HL E). reflexivity.
      + rewrite dotted_snoc; [rewrite E; reflexivity|]. intros ->. discriminate.
    - destruct (dotted L); reflexivity.
  Qed.
  Lemma push_layer_text L n : Forall legal_segment L -> legal_segment n -> push_layer (dotted L) n = dotted (L ++ [n]).
  Proof.
    intros HL Hn. unfold push_layer. destruct (dotted L) as [|x l] eqn:E; [rewrite (dotted_nil L HL E); reflexivity|].
    rewrite dotted_snoc; [rewrite E; reflexivity|]. intros ->. discriminate.
  Qed.
  Lemma merge_app (a b : list M) : merge_with a b = a ++ b. Proof. destruct a; reflexivity. Qed.
  Lemma join_legal own L : Forall legal_segment L -> own_ok own -> Forall legal_segment (join own L).
  Proof. intros H Ho. destruct own; [|exact H]. apply Forall_app. split; [exact H|]. constructor; [exact Ho|constructor]. Qed.

  Lemma replace_all L Md ss alts own ms (ns : list csel) :
    ss <> [] -> Forall2 (agrees L Md) ss alts -> Forall legal_segment L -> own_ok own ->
    Forall (fun n => c_layer n = own_text own /\ c_media n = ms) ns ->
    exists ns', sequence (map (fun n => (replace_parent_selector replace) n ss) ns) = Some ns' /\
      Forall2 (agrees (join own L) (Md ++ ms)) ns' (alternatives (map c_sel ns) alts) /\ length ns' = length ns.
  Proof.
    intros Hs H HL Ho Hn. pose proof (agrees_stands _ _ _ _ H) as G. destruct ss as [|s0 ss]; [congruence|].
    assert (E0 : c_layer s0 = dotted L /\ c_media s0 = Md) by (inversion H as [|? ? ? ? (E1 & E2 & _) _]; subst; auto). destruct E0 as [E0l E0m].
    induction Hn as [|n ns (N1 & N2) Hn IH]; [exists []; cbn; repeat constructor|]. destruct IH as (ns' & E & F & Len).
    cbn [map replace_parent_selector sequence]. cbn [map replace_parent_selector] in E. rewrite E. eexists. split; [reflexivity|]. split; [|cbn; rewrite Len; reflexivity].
    constructor; [|exact F]. unfold agrees. cbn [c_layer c_media c_sel fst snd]. rewrite E0l, E0m, N1, N2. split; [apply join_text; assumption|]. split; [apply merge_app|]. apply Hrep. exact G.
  Qed.

  (* ---------------------------------------------------------------- the builder *)
  Definition decls (rs : list (list csel * list D)) := flat_map (fun r => map (fun d => (fst r, d)) (snd r)) rs.
  Lemma decls_app a b : decls (a ++ b) = decls a ++ decls b. Proof. apply flat_map_app. Qed.
  Lemma update_last {X} (f : X -> X) l x : update f (length l) (l ++ [x]) = l ++ [f x].
  Proof. induction l as [|y l IH]; cbn; [reflexivity|]. rewrite IH. reflexivity. Qed.
  Lemma open_ruleset_eq (b : builder) ss :
    open_ruleset b ss = ({| rulesets := rulesets b ++ [(ss, [])]; defined := defined b ++ map c_layer ss |}, length (rulesets b)).
  Proof.
    unfold open_ruleset, new_ruleset. f_equal.
    assert (G : forall ss acc (rs : list (list csel * list D)) df, fold_left (fun b s => add_css_selector b (length rs) s) ss {| rulesets := rs ++ [(acc, [])]; defined := df |} =
              {| rulesets := rs ++ [(acc ++ ss, [])]; defined := df ++ map c_layer ss |}).
    { clear. induction ss as [|s ss IH]; intros acc rs df; cbn [fold_left map]; [rewrite !app_nil_r; reflexivity|].
      unfold add_css_selector at 2. cbn [rulesets defined]. rewrite update_last. cbn [fst snd]. rewrite IH. rewrite <- !app_assoc. reflexivity. }
    exact (G ss [] (rulesets b) (defined b)).
  Qed.
  Lemma process_prop_nested (ss ns : list csel) (ps : list (prop Sl M D)) (b : builder) i ns' : sequence (map (fun n => (replace_parent_selector replace) n ss) ns) = Some ns' ->
    (process_prop replace) ss (b, i) (PNested (Some ns) ps) = match (process_props replace) ns' (open_ruleset b ns') ps with Some (b', _) => Some (open_ruleset b' ss) | None => None end.
  Proof.
    intros E. cbn [process_prop]. rewrite E. generalize (open_ruleset b ns'). intros st.
    assert (G : forall st, (fix go (st : builder * nat) (ps : list (prop Sl M D)) : option (builder * nat) :=
        match ps with [] => Some st | p :: ps => match (process_prop replace) ns' st p with Some st => go st ps | None => None end end) st ps = (process_props replace) ns' st ps).
    { clear. induction ps as [|p ps IH]; intros st; [reflexivity|]. cbn [process_props]. destruct ((process_prop replace) ns' st p); [apply IH|reflexivity]. }
    rewrite G. reflexivity.
  Qed.
  Lemma process_item_inner (b : builder) is : (process_item replace) b (IInner is) = (process_items replace) b is.
  Proof.
    cbn [process_item]. revert b. induction is as [|i is IH]; intros b; [reflexivity|]. cbn [process_items]. destruct ((process_item replace) b i); [apply IH|reflexivity].
  Qed.

  Definition legal_paths (em : list pth) : Prop := Forall (Forall legal_segment) em.
  Definition within (L p : pth) : Prop := exists q, p = L ++ q.
  Definition body_step (L : pth) (Md : list M) (ss : list csel) (run : builder * nat -> option (builder * nat)) (es : list (entry (M:=M) (D:=D) (V:=V))) (ls : list pth) : Prop :=
    forall b i rs ds, rulesets b = rs ++ [(ss, ds)] -> i = length rs ->
    exists b' rs' ds' new em, run (b, i) = Some (b', length rs') /\ rulesets b' = rs' ++ [(ss, ds')] /\
      decls (rulesets b') = decls (rulesets b) ++ new /\ Forall2 (says stands) new es /\
      defined b' = defined b ++ map dotted em /\ same_first L em ls /\ legal_paths em /\ Forall (within L) em.

  Fixpoint body_ind' (P : body -> Prop) (Hd : forall d, P (BDecl d)) (He : P BError)
    (Hr : forall ss bs, Forall P bs -> P (BRule ss bs)) (Hm : forall ms bs, Forall P bs -> P (BMedia ms bs)) (Hl : forall n bs, Forall P bs -> P (BLayer n bs)) (b : body) : P b :=
    let all := fix all (bs : list body) : Forall P bs := match bs with [] => Forall_nil _ | b :: bs => Forall_cons _ (body_ind' P Hd He Hr Hm Hl b) (all bs) end in
    match b with BDecl d => Hd d | BError => He | BRule ss bs => Hr ss bs (all bs) | BMedia ms bs => Hm ms bs (all bs) | BLayer n bs => Hl n bs (all bs) end.

  Lemma says_intro L Md ss alts (d : D) : Forall2 (agrees L Md) ss alts -> says stands (ss, d) {| n_layer := L; n_media := Md; n_alts := alts; n_decl := d |}.
  Proof. intros H. split; [reflexivity|exact H]. Qed.

  Definition body_good (x : body) : Prop := body_ok x -> forall L Md ss alts, Forall legal_segment L -> ss <> [] -> Forall2 (agrees L Md) ss alts ->
    body_step L Md ss (fun st => (process_prop replace) ss st ((parse_body amp) x)) (body_entries value amp L Md alts x) (body_layers L x).
  Lemma bodies_step bs : Forall body_good bs -> fold_right (fun b P => body_ok b /\ P) True bs -> forall L Md ss alts, Forall legal_segment L -> ss <> [] -> Forall2 (agrees L Md) ss alts ->
    body_step L Md ss (fun st => (process_props replace) ss st (map (parse_body amp) bs)) (flat_map (body_entries value amp L Md alts) bs) (flat_map (body_layers L) bs).
  Proof.
    induction 1 as [|x bs Hx Hbs IH]; intros Hok L Md ss alts HL Hs Ha b i rs ds Er Ei.
    - exists b, rs, ds, [], []. cbn. subst i. rewrite !app_nil_r. split; [reflexivity|]. split; [exact Er|]. repeat split; try constructor.
    - cbn [fold_right] in Hok. destruct Hok as [Ox Obs]. destruct (Hx Ox L Md ss alts HL Hs Ha b i rs ds Er Ei) as (b1 & rs1 & ds1 & new1 & em1 & E1 & Er1 & D1 & F1 & Df1 & S1 & P1 & I1).
      destruct (IH Obs L Md ss alts HL Hs Ha b1 _ rs1 ds1 Er1 eq_refl) as (b2 & rs2 & ds2 & new2 & em2 & E2 & Er2 & D2 & F2 & Df2 & S2 & P2 & I2).
      exists b2, rs2, ds2, (new1 ++ new2), (em1 ++ em2). cbn [map process_props]. rewrite E1, E2. split; [reflexivity|]. split; [exact Er2|].
      split; [rewrite D2, D1, app_assoc; reflexivity|]. cbn [flat_map]. split; [apply Forall2_app; assumption|]. split; [rewrite Df2, Df1, map_app, app_assoc; reflexivity|].
      split; [apply sf_app; assumption|]. split; apply Forall_app; auto.
  Qed.
  Lemma map_layer_repeat L Md ss alts : Forall2 (agrees L Md) ss alts -> map c_layer ss = map dotted (map (fun _ => L) ss).
  Proof. induction 1 as [|s a ss alts (E & _) H IH]; [reflexivity|]. cbn. rewrite E, IH. reflexivity. Qed.
  Lemma all_L {X} (L : pth) (l : list X) : Forall (eq L) (map (fun _ => L) l).
  Proof. induction l; constructor; auto. Qed.
  Lemma legal_map {X} (L : pth) (l : list X) : Forall legal_segment L -> legal_paths (map (fun _ => L) l).
  Proof. intros H. induction l; constructor; auto. Qed.

  Lemma within_map {X} (L L' : pth) (l : list X) : within L L' -> Forall (within L) (map (fun _ => L') l).
  Proof. intros H. induction l; constructor; auto. Qed.
  Lemma within_refl L : within L L. Proof. exists []. rewrite app_nil_r. reflexivity. Qed.
  Lemma within_join own L : within L (join own L). Proof. destruct own as [n|]; [exists [n]; reflexivity|apply within_refl]. Qed.
  Lemma within_trans L L' l : within L L' -> Forall (within L') l -> Forall (within L) l.
  Proof. intros (q & ->) H. eapply Forall_impl; [|exact H]. intros p (r & ->). exists (q ++ r). rewrite <- app_assoc. reflexivity. Qed.
  (** a nested block with its own layer name and media conditions *)
  Lemma nested_step own ms (ns : list csel) bs : Forall body_good bs -> fold_right (fun b P => body_ok b /\ P) True bs -> own_ok own -> ns <> [] ->
    Forall (fun n => c_layer n = own_text own /\ c_media n = ms) ns -> (own <> None -> exists n, ns = [n]) ->
    forall L Md ss alts, Forall legal_segment L -> ss <> [] -> Forall2 (agrees L Md) ss alts ->
    body_step L Md ss (fun st => (process_prop replace) ss st (PNested (Some ns) (map (parse_body amp) bs)))
      (flat_map (body_entries value amp (join own L) (Md ++ ms) (alternatives (map c_sel ns) alts)) bs)
      (match own with Some n => (L ++ [n]) :: flat_map (body_layers (L ++ [n])) bs | None => flat_map (body_layers L) bs end).
  Proof.
    intros Hbs Ok Ho Hns Hn One L Md ss alts HL Hs Ha b i rs ds Er Ei.
    destruct (replace_all L Md ss alts own ms ns Hs Ha HL Ho Hn) as (ns' & En & Fn & Len).
    rewrite (process_prop_nested ss ns _ b i ns' En). rewrite open_ruleset_eq.
    assert (Hns' : ns' <> []) by (intros ->; destruct ns; [congruence|discriminate]).
    destruct (bodies_step bs Hbs Ok (join own L) (Md ++ ms) ns' _ (join_legal own L HL Ho) Hns' Fn
                {| rulesets := rulesets b ++ [(ns', [])]; defined := defined b ++ map c_layer ns' |} _ (rulesets b) [] eq_refl eq_refl)
      as (b1 & rs1 & ds1 & new & em & E1 & Er1 & D1 & F1 & Df1 & S1 & P1 & I1).
    rewrite E1. exists (fst (open_ruleset b1 ss)), (rulesets b1), [], new.
    exists (map (fun _ => join own L) ns' ++ em ++ map (fun _ => L) ss). rewrite open_ruleset_eq. cbn [fst rulesets defined].
    split; [reflexivity|]. split; [reflexivity|]. split.
    { rewrite decls_app, D1. cbn [rulesets]. rewrite decls_app. cbn. rewrite !app_nil_r. reflexivity. }
    split; [exact F1|]. split.
    { rewrite Df1. cbn [defined]. rewrite (map_layer_repeat _ _ _ _ Fn), (map_layer_repeat _ _ _ _ Ha). rewrite !map_app, <- !app_assoc. reflexivity. }
    split.
    { destruct own as [n|]; cbn [join] in *.
      - destruct (One ltac:(discriminate)) as (n0 & ->). destruct ns' as [|n' [|]]; try discriminate. cbn [map app].
        rewrite <- (app_nil_r (flat_map _ bs)). change ((L ++ [n]) :: em ++ map (fun _ => L) ss) with (((L ++ [n]) :: em) ++ map (fun _ => L) ss).
        change ((L ++ [n]) :: flat_map (body_layers (L ++ [n])) bs ++ []) with (((L ++ [n]) :: flat_map (body_layers (L ++ [n])) bs) ++ []).
        apply sf_app; [apply sf_layer; exact S1|apply sf_absorb, all_L].
      - apply (sf_app L (map (fun _ => L) ns') [] (em ++ map (fun _ => L) ss) (flat_map (body_layers L) bs)); [apply sf_absorb, all_L|]. rewrite <- (app_nil_r (flat_map _ bs)). apply sf_app; [exact S1|apply sf_absorb, all_L]. }
    split; [apply Forall_app; split; [apply legal_map, join_legal; assumption|]; apply Forall_app; split; [exact P1|apply legal_map, HL]|].
    apply Forall_app. split; [apply within_map, within_join|]. apply Forall_app. split; [eapply within_trans; [apply within_join|exact I1]|apply within_map, within_refl].
  Qed.

  Lemma body_all x : body_good x.
  Proof.
    induction x as [d| |ss bs Hbs|ms bs Hbs|n bs Hbs] using body_ind'; intros Ok L Md ss0 alts HL Hs Ha.
    - intros b i rs ds Er Ei. subst i. exists (add_property b (length rs) d), rs, (ds ++ [d]), [(ss0, d)], []. cbn [parse_body process_prop add_property rulesets defined].
      split; [reflexivity|]. rewrite Er, update_last. cbn [fst snd]. split; [reflexivity|]. split; [rewrite !decls_app; cbn; rewrite !app_nil_r, map_app, app_assoc; reflexivity|].
      split; [constructor; [apply says_intro, Ha|constructor]|]. split; [rewrite app_nil_r; reflexivity|]. split; [apply sf_refl|]. split; constructor.
    - intros b i rs ds Er Ei. subst i. exists b, rs, ds, [], []. cbn. rewrite !app_nil_r. repeat split; auto; constructor.
    - cbn [body_ok] in Ok. destruct Ok as [O1 O2]. destruct ss as [ss|].
      + cbn [parse_body option_map]. cbn [body_entries body_layers].
        assert (Es : map c_sel (map (plain (M:=M)) ss) = ss) by (rewrite map_map; apply map_id).
        pose proof (nested_step None [] (map (plain (M:=M)) ss) bs Hbs O2 I) as Q. rewrite Es in Q. cbn [join] in Q.
        assert (Q1 : map (plain (M:=M)) ss <> []) by (intros E; apply map_eq_nil in E; congruence).
        assert (Q2 : Forall (fun n : csel => c_layer n = own_text None /\ c_media n = []) (map (plain (M:=M)) ss)) by (apply Forall_forall; intros n Hn; apply in_map_iff in Hn; destruct Hn as (s & <- & _); auto).
        assert (Q3 : (@None (list ascii)) <> None -> exists n, map (plain (M:=M)) ss = [n]) by congruence.
        specialize (Q Q1 Q2 Q3 L Md ss0 alts HL Hs Ha). rewrite app_nil_r in Q. exact Q.
      + intros b i rs ds Er Ei. cbn [parse_body option_map process_prop]. rewrite open_ruleset_eq.
        exists (fst (open_ruleset b ss0)), (rulesets b), [], [], (map (fun _ => L) ss0). rewrite open_ruleset_eq. cbn [fst rulesets defined]. split; [reflexivity|]. split; [reflexivity|].
        split; [rewrite decls_app; reflexivity|]. split; [constructor|]. split; [rewrite (map_layer_repeat _ _ _ _ Ha); reflexivity|]. split; [apply sf_absorb, all_L|]. split; [apply legal_map, HL|apply within_map, within_refl].
    - cbn [body_ok] in Ok. cbn [parse_body body_entries body_layers].
      apply (nested_step None ms [with_media ms (plain amp)] bs Hbs Ok I); auto; try discriminate; try (repeat constructor; fail); congruence.
    - cbn [body_ok] in Ok. destruct Ok as [O1 O2]. cbn [parse_body body_entries body_layers].
      pose proof (nested_step (Some n) [] [with_layer n (plain amp)] bs Hbs O2 O1) as Q. cbn [join] in Q.
      specialize (Q ltac:(discriminate) ltac:(repeat constructor) ltac:(intros _; eexists; reflexivity) L Md ss0 alts HL Hs Ha). rewrite app_nil_r in Q. exact Q.
  Qed.

  (* ---------------------------------------------------------------- sheets *)
  Fixpoint top_ind' (P : top -> Prop) (Hr : forall ss bs, P (TRule ss bs)) (Hm : forall ms ts, Forall P ts -> P (TMedia ms ts)) (Hl : forall n ts, Forall P ts -> P (TLayer n ts))
    (Hs : forall ns, P (TLayers ns)) (He : P TError) (t : top) : P t :=
    let all := fix all (ts : list top) : Forall P ts := match ts with [] => Forall_nil _ | t :: ts => Forall_cons _ (top_ind' P Hr Hm Hl Hs He t) (all ts) end in
    match t with TRule ss bs => Hr ss bs | TMedia ms ts => Hm ms ts (all ts) | TLayer n ts => Hl n ts (all ts) | TLayers ns => Hs ns | TError => He end.

  (** the mentions a sheet item produces: the same as in the source if its layer blocks are inhabited, and starting inside [L] if it is *)
  Definition top_step (L : pth) (run : builder -> option builder) (es : list (entry (M:=M) (D:=D) (V:=V))) (ls : list pth) (filled inh : Prop) : Prop :=
    forall b, exists b' new em, run b = Some b' /\ decls (rulesets b') = decls (rulesets b) ++ new /\ Forall2 (says stands) new es /\
      defined b' = defined b ++ map dotted em /\ legal_paths em /\ Forall (within L) em /\ (filled -> same_first L em ls) /\ (inh -> em <> []).
  Definition top_good (t : top) : Prop := top_ok t -> forall L Md, Forall legal_segment L ->
    top_step L (fun b => (process_item replace) b ((parse_top amp) Md (dotted L) t)) (top_entries value amp L Md t) (top_layers L t) (blocks_inhabited t) (inhabited t).
  Lemma tops_step ts : Forall top_good ts -> fold_right (fun t P => top_ok t /\ P) True ts -> forall L Md, Forall legal_segment L ->
    top_step L (fun b => (process_items replace) b (map ((parse_top amp) Md (dotted L)) ts)) (flat_map (top_entries value amp L Md) ts) (flat_map (top_layers L) ts)
      (fold_right (fun t P => blocks_inhabited t /\ P) True ts) (fold_right (fun t P => inhabited t \/ P) False ts).
  Proof.
    induction 1 as [|t ts Ht Hts IH]; intros Ok L Md HL b.
    - exists b, [], []. cbn. rewrite !app_nil_r. repeat split; auto; try constructor.
    - cbn [fold_right] in Ok. destruct Ok as [O1 O2]. destruct (Ht O1 L Md HL b) as (b1 & n1 & em1 & E1 & D1 & F1 & Df1 & P1 & I1 & S1 & N1).
      destruct (IH O2 L Md HL b1) as (b2 & n2 & em2 & E2 & D2 & F2 & Df2 & P2 & I2 & S2 & N2).
      exists b2, (n1 ++ n2), (em1 ++ em2). cbn [map process_items]. rewrite E1, E2. split; [reflexivity|]. split; [rewrite D2, D1, app_assoc; reflexivity|].
      cbn [flat_map fold_right]. split; [apply Forall2_app; assumption|]. split; [rewrite Df2, Df1, map_app, app_assoc; reflexivity|]. split; [apply Forall_app; auto|].
      split; [apply Forall_app; auto|]. split; [intros [G1 G2]; apply sf_app; auto|]. intros [G|G] E; apply app_eq_nil in E; destruct E; [apply N1|apply N2]; auto.
  Qed.
  Lemma top_all t : top_good t.
  Proof.
    induction t as [ss bs|ms ts Hts|n ts Hts|ns|] using top_ind'; intros Ok L Md HL; cbn [top_ok parse_top top_entries top_layers blocks_inhabited inhabited] in *.
    - destruct Ok as [O1 O2]. destruct ss as [ss|]; cbn [option_map].
      + set (cs := map (fun s => with_layer (dotted L) (with_media Md (plain s))) ss).
        assert (Hcs : cs <> []) by (subst cs; intros E; apply map_eq_nil in E; congruence).
        assert (Hag : Forall2 (agrees L Md) cs (alternatives ss [])).
        { subst cs. clear - Htop. unfold NestingSpec.alternatives. induction ss as [|s ss IH]; [constructor|]. cbn [map]. constructor; [|exact IH]. unfold agrees. cbn. split; [reflexivity|]. split; [reflexivity|]. apply Htop. }
        assert (Hb : Forall body_good bs) by (apply Forall_forall; intros x _; apply body_all).
        intros b. cbn [process_item]. rewrite open_ruleset_eq.
        destruct (bodies_step bs Hb O2 L Md cs _ HL Hcs Hag {| rulesets := rulesets b ++ [(cs, [])]; defined := defined b ++ map c_layer cs |} _ (rulesets b) [] eq_refl eq_refl)
          as (b1 & rs1 & ds1 & new & em & E1 & Er1 & D1 & F1 & Df1 & S1 & P1 & I1).
        rewrite E1. cbn [option_map fst]. exists b1, new, (map (fun _ => L) cs ++ em). split; [reflexivity|].
        split; [rewrite D1; cbn [rulesets]; rewrite decls_app; cbn; rewrite !app_nil_r; reflexivity|]. split; [exact F1|].
        split; [rewrite Df1; cbn [defined]; rewrite (map_layer_repeat _ _ _ _ Hag), map_app, <- app_assoc; reflexivity|].
        split; [apply Forall_app; split; [apply legal_map, HL|exact P1]|]. split; [|split].
        * apply Forall_app. split; [apply within_map, within_refl|exact I1].
        * intros _. apply (sf_app L (map (fun _ => L) cs) [] em (flat_map (body_layers L) bs)); [apply sf_absorb, all_L|exact S1].
        * intros _ E. apply app_eq_nil in E. destruct E as [E _]. apply map_eq_nil in E. contradiction.
      + intros b. exists b, [], []. cbn. rewrite !app_nil_r. repeat split; auto; try constructor.
    - rewrite merge_app. intros b. destruct (tops_step ts Hts Ok L (Md ++ ms) HL b) as (b' & new & em & H). exists b', new, em. rewrite process_item_inner. exact H.
    - destruct Ok as [O1 O2]. intros b. rewrite push_layer_text by assumption.
      assert (HL' : Forall legal_segment (L ++ [n])) by (apply Forall_app; split; [exact HL|constructor; [exact O1|constructor]]).
      destruct (tops_step ts Hts O2 (L ++ [n]) Md HL' b) as (b' & new & em & E1 & D1 & F1 & Df1 & P1 & I1 & S1 & N1). exists b', new, em. rewrite process_item_inner.
      split; [exact E1|]. split; [exact D1|]. split; [exact F1|]. split; [exact Df1|]. split; [exact P1|]. split; [eapply within_trans; [exists [n]; reflexivity|exact I1]|]. split; [|exact N1].
      intros [G1 G2]. specialize (N1 G1). specialize (S1 G2). destruct em as [|p em]; [congruence|]. inversion I1 as [|? ? (q & Eq) _]; subst p. apply sf_first. exact S1.
    - intros b. exists (define_layers b (map (push_layer (dotted L)) ns)), [], (map (fun n => L ++ [n]) ns). cbn [process_item define_layers rulesets defined].
      split; [reflexivity|]. split; [rewrite app_nil_r; reflexivity|]. split; [constructor|]. split.
      { f_equal. rewrite map_map. apply map_ext_in. intros n Hn. apply push_layer_text; [exact HL|]. rewrite Forall_forall in Ok. auto. }
      split; [|split; [|split; [intros _; apply sf_refl|intros G E; apply map_eq_nil in E; contradiction]]].
      + unfold legal_paths. rewrite Forall_map. eapply Forall_impl; [|exact Ok]. intros n Hn. apply Forall_app. split; [exact HL|constructor; [exact Hn|constructor]].
      + rewrite Forall_map. apply Forall_forall. intros n _. exists [n]. reflexivity.
    - intros b. exists b, [], []. cbn. rewrite !app_nil_r. repeat split; auto; try constructor.
  Qed.

  Lemma load_good (sheet : list top) : Forall top_ok sheet ->
    exists b em, (load amp replace) sheet = Some b /\ Forall2 (says stands) (declarations b) (flat_map (top_entries value amp [] []) sheet) /\
      defined b = map dotted em /\ legal_paths em /\ (Forall blocks_inhabited sheet -> nub [] (mentions em) = nub [] (mentions (flat_map (top_layers []) sheet))).
  Proof.
    intros Ok. assert (Ok' : fold_right (fun t P => top_ok t /\ P) True sheet) by (induction Ok; cbn; auto).
    destruct (tops_step sheet ltac:(apply Forall_forall; intros t _; apply top_all) Ok' [] [] (Forall_nil _) {| rulesets := []; defined := [] |}) as (b & new & em & E & D1 & F & Df & P1 & I1 & S1 & _).
    exists b, em. split; [exact E|]. split; [|split; [exact Df|split; [exact P1|]]].
    - change (declarations b) with (decls (rulesets b)). rewrite D1. exact F.
    - intros G. apply S1; [|intros x []]. clear - G. induction G; cbn; auto.
  Qed.
End P.
