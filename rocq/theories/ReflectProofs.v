From Coq Require Import Ascii String.
From Coq Require Import NArith.
From Verif Require Import Base Reflect ReflectSpec.
Open Scope nat_scope.
Open Scope list_scope.

Scheme typed_mut := Minimality for typed Sort Prop
  with typed_fields_mut := Minimality for typed_fields Sort Prop
  with typed_elements_mut := Minimality for typed_elements Sort Prop.
Combined Scheme typed_all from typed_mut, typed_fields_mut, typed_elements_mut.
Scheme set_over_mut := Minimality for set_over Sort Prop
  with fields_over_mut := Minimality for fields_over Sort Prop
  with elements_over_mut := Minimality for elements_over Sort Prop.
Combined Scheme set_over_all from set_over_mut, fields_over_mut, elements_over_mut.

(** induction over types *)
Section TyInd.
  Context (P : ty -> Prop) (HO : forall n, P (TOpaque n)) (HF : forall k fts, Forall (fun p => P (snd p)) fts -> P (TFields k fts))
          (HL : forall e, P e -> P (TList e)) (HE : forall vs, Forall (fun v => Forall (fun p => P (snd p)) (snd v)) vs -> P (TEnum vs)).
  Fixpoint ty_ind' (t : ty) : P t :=
    match t with
    | TOpaque n => HO n
    | TFields k fts => HF k fts ((fix go (l : list (string * ty)) : Forall (fun p => P (snd p)) l :=
        match l with [] => Forall_nil _ | p :: l => Forall_cons _ (ty_ind' (snd p)) (go l) end) fts)
    | TList e => HL e (ty_ind' e)
    | TEnum vs => HE vs ((fix gov (l : list (string * list (string * ty))) : Forall (fun v => Forall (fun p => P (snd p)) (snd v)) l :=
        match l with [] => Forall_nil _ | v :: l => Forall_cons _ ((fix go (l : list (string * ty)) : Forall (fun p => P (snd p)) l :=
        match l with [] => Forall_nil _ | p :: l => Forall_cons _ (ty_ind' (snd p)) (go l) end) (snd v)) (gov l) end) vs)
    end.
End TyInd.

Lemma lookup_in {A} x (l : list (string * A)) a : lookup x l = Some a -> In (x, a) l.
Proof. induction l as [|(y & b) l IH]; cbn; [discriminate|]. destruct (String.eqb_spec x y) as [->|]; [intros [= ->]; left; reflexivity | right; apply IH; assumption]. Qed.
Lemma lookup_none {A} x (l : list (string * A)) : lookup x l = None <-> ~ In x (map fst l).
Proof.
  induction l as [|(y & b) l IH]; cbn; [tauto|]. destruct (String.eqb_spec x y) as [->|H]; [intuition discriminate|].
  rewrite IH. intuition congruence.
Qed.
Lemma lookup_skip {A} x (l r : list (string * A)) : ~ In x (map fst l) -> lookup x (l ++ r) = lookup x r.
Proof. induction l as [|(y & b) l IH]; cbn; [reflexivity|]. intros H. destruct (String.eqb_spec x y) as [->|]; [intuition|]. apply IH. intuition. Qed.
Lemma replace_skip {A} x (a : A) l r : ~ In x (map fst l) -> replace x a (l ++ r) = l ++ replace x a r.
Proof. induction l as [|(y & b) l IH]; cbn; [reflexivity|]. intros H. destruct (String.eqb_spec x y) as [->|]; [intuition|]. rewrite IH; intuition. Qed.
Lemma lookup_here {A} x (a : A) r : lookup x ((x, a) :: r) = Some a.
Proof. cbn. rewrite String.eqb_refl. reflexivity. Qed.
Lemma replace_here {A} x (a b : A) r : replace x a ((x, b) :: r) = (x, a) :: r.
Proof. cbn. rewrite String.eqb_refl. reflexivity. Qed.
Lemma lookup_replace {A} x (a : A) l : lookup x l <> None -> lookup x (replace x a l) = Some a.
Proof. induction l as [|(y & b) l IH]; cbn; [congruence|]. destruct (String.eqb x y) eqn:E; cbn; rewrite E; [reflexivity | apply IH]. Qed.
Lemma lookup_replace_other {A} x y (a : A) l : x <> y -> lookup y (replace x a l) = lookup y l.
Proof.
  intros H. induction l as [|(z & b) l IH]; cbn; [reflexivity|]. destruct (String.eqb_spec x z) as [->|]; cbn.
  - destruct (String.eqb_spec y z); congruence.
  - destruct (String.eqb y z); [reflexivity | apply IH].
Qed.
Lemma replace_same {A} x (a : A) l : lookup x l = Some a -> replace x a l = l.
Proof. induction l as [|(y & b) l IH]; cbn; [discriminate|]. destruct (String.eqb x y); [intros [= ->]; reflexivity | intros H; rewrite IH; auto]. Qed.

Lemma typed_names fts fs : typed_fields fts fs -> map fst fs = map fst fts.
Proof. induction 1; cbn; congruence. Qed.
Lemma typed_lookup x fts fs t : typed_fields fts fs -> lookup x fts = Some t -> exists v, lookup x fs = Some v /\ typed t v.
Proof. induction 1; cbn; [discriminate|]. destruct (String.eqb x x0); [intros [= ->]; eauto | assumption]. Qed.
Lemma typed_replace x w fts fs t : typed_fields fts fs -> lookup x fts = Some t -> typed t w -> typed_fields fts (replace x w fs).
Proof. induction 1; cbn; [constructor|]. destruct (String.eqb_spec x x0) as [->|]; [intros [= ->] ?; constructor; auto | intros; constructor; auto]. Qed.

(** ** from_reflect gives back values of the type *)
Lemma rebuild_typed pre fts fs : typed_fields fts fs -> NoDup (map fst (pre ++ fts)) -> forall prefs, map fst prefs = map fst pre ->
  Forall (fun p => forall v, typed (snd p) v -> from_reflect (snd p) v = Some v) fts -> rebuild from_reflect (prefs ++ fs) fts = Some fs.
Proof.
  intros H. revert pre. induction H as [|x t v fts fs Hv _ IH]; intros pre Hn prefs Ep Hf; [reflexivity|].
  cbn [rebuild]. inversion Hf; subst.
  assert (~ In x (map fst prefs)) as Hx. { rewrite Ep. rewrite map_app in Hn. cbn in Hn. apply NoDup_remove_2 in Hn. intros Hi. apply Hn, in_or_app. left. exact Hi. }
  rewrite lookup_skip, lookup_here by exact Hx. cbn [snd] in *. rewrite (H1 _ Hv).
  replace (prefs ++ (x, v) :: fs) with ((prefs ++ [(x, v)]) ++ fs) by (rewrite <- app_assoc; reflexivity).
  rewrite (IH (pre ++ [(x, t)])); [reflexivity | rewrite <- app_assoc; exact Hn | rewrite !map_app, Ep; reflexivity | assumption].
Qed.
Lemma from_reflect_typed t : proper t -> forall v, typed t v -> from_reflect t v = Some v.
Proof.
  induction t as [n | k fts IH | e IH | vs IH] using ty_ind'; intros Hp v Hv; inversion Hp; subst; inversion Hv; subst; cbn [from_reflect].
  - rewrite N.eqb_refl. reflexivity.
  - rewrite Bool.eqb_reflx. change fs with ([] ++ fs) at 1. rewrite (rebuild_typed [] fts fs); [reflexivity | assumption | assumption | reflexivity |].
    rewrite Forall_forall in *. intros p Hi w Hw. apply IH; auto.
  - assert (rebuild_list (from_reflect e) l = Some l) as ->; [|reflexivity].
    match goal with H : typed_elements e l |- _ => rename H into Ht end. match goal with H : proper e |- _ => rename H into Hpe end.
    clear - Ht IH Hpe. revert IH Hpe. induction Ht as [|e v l Hv _ IHl]; intros IH Hp; [reflexivity|]. cbn. rewrite (IH Hp v Hv), IHl by assumption. reflexivity.
  - match goal with H : lookup x vs = _ |- _ => rename H into Hl end. match goal with H : typed_fields fts fs |- _ => rename H into Hf end. match goal with H : Forall _ vs |- _ => rename H into H1 end. clear Hp Hv.
    assert (forall ws, (forall v, In v ws -> In v vs) -> lookup x ws = Some fts ->
      (fix variants (vs : list (string * list (string * ty))) : option rv :=
         match vs with [] => None | (y, fts) :: vs => if String.eqb x y then option_map (Variant x) (rebuild from_reflect fs fts) else variants vs end) ws = Some (Variant x fs)) as Hws.
    { induction ws as [|(y & f) ws IHw]; cbn; [discriminate|]. intros Hin. destruct (String.eqb_spec x y) as [->|]; [|intros; apply IHw; auto].
      intros [= ->]. specialize (Hin (y, fts) (or_introl eq_refl)). rewrite Forall_forall in H1, IH. destruct (H1 _ Hin) as (Hd & Hpr). specialize (IH _ Hin). cbn [snd] in *.
      change fs with ([] ++ fs) at 1. rewrite (rebuild_typed [] fts fs); [reflexivity | assumption | assumption | reflexivity |]. rewrite Forall_forall in *. intros p Hi w Hw. apply IH; auto. }
    apply Hws; auto.
Qed.

(** ** try_apply is set_over *)
Lemma height_pos t : 0 < height t. Proof. destruct t; cbn; lia. Qed.
Lemma height_field (fts : list (string * ty)) p : In p fts -> height (snd p) <= fold_right (fun p m => Nat.max (height (snd p)) m) 0 fts.
Proof. induction fts as [|q fts IH]; cbn; [easy|]. intros [-> | H]; [lia | specialize (IH H); lia]. Qed.
Lemma height_variant (vs : list (string * list (string * ty))) v : In v vs ->
  fold_right (fun p m => Nat.max (height (snd p)) m) 0 (snd v) <= fold_right (fun v m => Nat.max (fold_right (fun p m => Nat.max (height (snd p)) m) 0 (snd v)) m) 0 vs.
Proof. induction vs as [|q vs IH]; cbn; [easy|]. intros [-> | H]; [lia | specialize (IH H); lia]. Qed.

Definition applies (n : nat) (t : ty) : Prop := forall a b, typed t a -> typed t b -> exists c, try_apply_fuel n t a b = Some c /\ set_over a b c /\ typed t c.
Lemma apply_fields_typed n : forall fts afs bfs, typed_fields fts afs -> typed_fields fts bfs -> Forall (fun p => applies n (snd p)) fts ->
  forall pre prefs, map fst prefs = map fst pre -> NoDup (map fst (pre ++ fts)) ->
  exists cfs, apply_fields (try_apply_fuel n) (pre ++ fts) (prefs ++ afs) bfs = Some (prefs ++ cfs) /\ fields_over afs bfs cfs /\ typed_fields fts cfs.
Proof.
  induction fts as [|(x & t) fts IH]; intros afs bfs Ha Hb Hf pre prefs Ep Hn.
  - inversion Ha; inversion Hb; subst. exists []. cbn. split; [reflexivity | split; constructor].
  - inversion Ha as [|? ? va ? afs' Hva Hafs]; inversion Hb as [|? ? vb ? bfs' Hvb Hbfs]; subst. inversion Hf as [|? ? Hx Hf']; subst. cbn [apply_fields].
    assert (~ In x (map fst pre)) as Hx1. { rewrite map_app in Hn. cbn in Hn. apply NoDup_remove_2 in Hn. intros Hi. apply Hn, in_or_app. left. exact Hi. }
    assert (~ In x (map fst prefs)) as Hx2 by (rewrite Ep; exact Hx1).
    rewrite (lookup_skip x pre), (lookup_skip x prefs), !lookup_here by assumption.
    destruct (Hx va vb Hva Hvb) as (w & E & Hw & Htw). cbn [snd] in E. rewrite E, replace_skip, replace_here by exact Hx2.
    destruct (IH afs' bfs' Hafs Hbfs Hf' (pre ++ [(x, t)]) (prefs ++ [(x, w)])) as (cfs & Ec & Hc & Htc).
    + rewrite !map_app, Ep. reflexivity.
    + rewrite <- app_assoc. exact Hn.
    + rewrite <- !app_assoc in Ec. cbn [app] in Ec. exists ((x, w) :: cfs). split; [exact Ec|]. split; constructor; assumption.
Qed.
Lemma apply_list_typed n e : proper e -> applies n e -> forall bl, typed_elements e bl -> forall al, typed_elements e al ->
  exists cl, apply_list (try_apply_fuel n) e al bl = Some cl /\ elements_over al bl cl /\ typed_elements e cl.
Proof.
  intros Hp Hn. induction bl as [|vb bl IH]; intros Hb al Ha; cbn [apply_list].
  - exists al. split; [reflexivity|]. split; [constructor | exact Ha].
  - inversion Hb; subst. destruct al as [|va al].
    + destruct (IH H3 [] (typed_no_elements e)) as (cl & E & Ho & Ht). rewrite (from_reflect_typed e Hp vb) by assumption. rewrite E.
      assert (cl = bl) as -> by (inversion Ho; reflexivity). exists (vb :: bl). split; [reflexivity|]. split; [constructor | exact Hb].
    + inversion Ha; subst. destruct (Hn va vb H4 H2) as (w & E & Hw & Htw). destruct (IH H3 al H5) as (cl & Ec & Ho & Ht).
      rewrite E, Ec. exists (w :: cl). split; [reflexivity|]. split; constructor; assumption.
Qed.
Lemma try_apply_fuel_typed t : proper t -> forall n, height t <= n -> applies n t.
Proof.
  induction t as [m | k fts IH | e IH | vs IH] using ty_ind'; intros Hp [|n] Hh a b Ha Hb; try (cbn in Hh; lia); inversion Hp; subst.
  - inversion Ha; inversion Hb; subst. cbn. rewrite N.eqb_refl. eexists. split; [reflexivity|]. split; constructor.
  - rename H1 into Hnd, H2 into Hpf. inversion Ha as [|? ? fs Hfs| |]; inversion Hb as [|? ? fs0 Hfs0| |]; subst. cbn [try_apply_fuel]. rewrite Bool.eqb_reflx.
    destruct (apply_fields_typed n fts fs fs0 Hfs Hfs0) with (pre := @nil (string * ty)) (prefs := @nil (string * rv)) as (cfs & E & Ho & Ht); [|reflexivity|assumption|].
    + rewrite Forall_forall in *. intros p Hi. apply IH; auto. cbn in Hh. pose proof (height_field fts p Hi). lia.
    + cbn [app] in E. rewrite E. eexists. split; [reflexivity|]. split; constructor; assumption.
  - inversion Ha as [| |? l Hl|]; inversion Hb as [| |? l0 Hl0|]; subst. cbn [try_apply_fuel]. destruct (apply_list_typed n e) with (bl := l0) (al := l) as (cl & E & Ho & Ht); try assumption.
    + apply IH; [assumption | cbn in Hh; lia].
    + rewrite E. eexists. split; [reflexivity|]. split; constructor; assumption.
  - rename H0 into Hnv. inversion Ha as [| | |? x fa afs Hla Hfa]; inversion Hb as [| | |? y fb bfs Hlb Hfb]; subst. cbn [try_apply_fuel]. destruct (String.eqb_spec x y) as [->|Hne].
    + rewrite Hla in Hlb. injection Hlb as <-. rewrite Hla. pose proof (lookup_in _ _ _ Hla) as Hin.
      assert (Forall (fun p => applies n (snd p)) fa) as Hf.
      { rewrite Forall_forall in IH, H1. specialize (IH _ Hin). destruct (H1 _ Hin) as (_ & Hpr). cbn [snd] in *. rewrite Forall_forall in *. intros p Hi. apply IH; auto.
        pose proof (height_field fa p Hi). pose proof (height_variant vs _ Hin) as Hv. cbn [snd] in Hv. cbn in Hh. lia. }
      assert (NoDup (map fst fa)) as Hnd by (rewrite Forall_forall in H1; destruct (H1 _ Hin) as (Hx & _); exact Hx).
      destruct (apply_fields_typed n fa afs bfs Hfa Hfb Hf [] [] eq_refl Hnd) as (cfs & E & Ho & Ht). cbn [app] in E. rewrite E.
      eexists. split; [reflexivity|]. split; [constructor; exact Ho | econstructor; eauto].
    + exists (Variant y bfs). split; [apply from_reflect_typed; assumption|]. split; [constructor; congruence | exact Hb].
Qed.
Theorem try_apply_typed t a b : proper t -> typed t a -> typed t b -> exists c, try_apply t a b = Some c /\ set_over a b c /\ typed t c.
Proof. intros Hp. apply try_apply_fuel_typed; auto. Qed.

(** ** when the value shows *)
Lemma shows_iff_fits_all :
  (forall a b c, set_over a b c -> c = b <-> fits a b) /\ (forall a b c, fields_over a b c -> c = b <-> fields_fit a b) /\ (forall a b c, elements_over a b c -> c = b <-> elements_fit a b).
Proof.
  apply set_over_all; intros; split; intros He; try reflexivity; try (constructor; fail).
  - constructor. apply H0. congruence. - inversion He; subst. f_equal. apply H0. assumption.
  - constructor. apply H0. congruence. - inversion He; subst. f_equal. apply H0. assumption.
  - constructor. apply H0. congruence. - inversion He; subst; [f_equal; apply H0; assumption | congruence].
  - constructor. assumption.
  - injection He as -> ->. constructor; [apply H0; reflexivity | apply H2; reflexivity].
  - inversion He; subst. f_equal; [f_equal; apply H0; assumption | apply H2; assumption].
  - subst. constructor. - inversion He. reflexivity.
  - injection He as -> ->. constructor; [apply H0; reflexivity | apply H2; reflexivity].
  - inversion He; subst. f_equal; [apply H0; assumption | apply H2; assumption].
Qed.
Lemma shows_iff_fits a b c : set_over a b c -> c = b <-> fits a b.
Proof. apply shows_iff_fits_all. Qed.
Lemma without_lists_fits t : without_lists t -> forall a b, typed t a -> typed t b -> fits a b.
Proof.
  assert (forall fts, Forall (fun p => without_lists (snd p) -> forall a b, typed (snd p) a -> typed (snd p) b -> fits a b) fts -> Forall (fun p => without_lists (snd p)) fts ->
    forall afs bfs, typed_fields fts afs -> typed_fields fts bfs -> fields_fit afs bfs) as Hfs.
  { induction fts as [|(x & t') fts IHf]; intros H1 H2 afs bfs Ha Hb; inversion Ha; inversion Hb; subst; [constructor|].
    inversion H1; inversion H2; subst. constructor; [eauto | apply IHf; assumption]. }
  induction t as [m | k fts IH | e IH | vs IH] using ty_ind'; intros Hw a b Ha Hb; inversion Hw as [|? ? Hwf|? Hwv]; subst;
    inversion Ha as [|? ? fs Hfs1| |? x fa afs Hla Hfa]; subst; inversion Hb as [|? ? fs0 Hfs0| |? y fb bfs Hlb Hfb]; subst.
  - constructor.
  - constructor. eapply Hfs; eauto.
  - destruct (String.eqb_spec x y) as [->|Hn]; [|constructor; exact Hn]. constructor. rewrite Hla in Hlb. injection Hlb as <-. pose proof (lookup_in _ _ _ Hla) as Hin.
    rewrite Forall_forall in IH, Hwv. exact (Hfs _ (IH _ Hin) (Hwv _ Hin) _ _ Hfa Hfb).
Qed.
Lemma set_over_exists t a b : proper t -> typed t a -> typed t b -> exists c, set_over a b c.
Proof. intros. destruct (try_apply_typed t a b) as (c & _ & Hc & _); eauto. Qed.

(** ** paths *)
Fixpoint type_at (p : path) (t : ty) : option ty :=
  match p with [] => Some t | x :: p => match t with TFields _ fts => match lookup x fts with Some u => type_at p u | None => None end | _ => None end end.
Lemma element_typed p : forall t u c, type_at p t = Some u -> typed t c -> exists v, element p c = Some v /\ typed u v.
Proof.
  induction p as [|x p IH]; cbn; intros t u c E Hc; [injection E as ->; eauto|]. destruct t; try discriminate. destruct (lookup x fs) eqn:El; [|discriminate].
  inversion Hc as [|? ? vfs H3| |]; subst. destruct (typed_lookup _ _ _ _ H3 El) as (v & Ev & Hv). rewrite Ev. eauto.
Qed.
Lemma write_typed p : forall t u c w, type_at p t = Some u -> typed t c -> typed u w -> exists c', write p w c = Some c' /\ typed t c'.
Proof.
  induction p as [|x p IH]; cbn; intros t u c w E Hc Hw; [injection E as ->; eauto|]. destruct t; try discriminate. destruct (lookup x fs) eqn:El; [|discriminate].
  inversion Hc as [|? ? vfs H3| |]; subst. destruct (typed_lookup _ _ _ _ H3 El) as (v & Ev & Hv). rewrite Ev. destruct (IH _ _ _ _ E Hv Hw) as (v' & -> & Hv'). cbn.
  eexists. split; [reflexivity|]. constructor. eapply typed_replace; eauto.
Qed.
Lemma apart_sym p q : apart p q -> apart q p. Proof. unfold apart. tauto. Qed.
Lemma apart_nil p : ~ apart [] p. Proof. intros (H & _). apply H. eexists. reflexivity. Qed.
Lemma apart_cons x p q : apart (x :: p) (x :: q) -> apart p q.
Proof. intros (H1 & H2). split; intros (r & ->); [apply H1 | apply H2]; exists r; reflexivity. Qed.
Lemma apart_cons_intro x p q : apart p q -> apart (x :: p) (x :: q).
Proof. intros (H1 & H2). split; intros (r & E); cbn in E; injection E as E; [apply H1 | apply H2]; eauto. Qed.
Lemma apart_names x y p q : x <> y -> apart (x :: p) (y :: q).
Proof. intros H. split; intros (r & E); cbn in E; congruence. Qed.
Lemma write_element p : forall c w c', write p w c = Some c' -> element p c' = Some w /\ (forall q, apart p q -> element q c' = element q c).
Proof.
  induction p as [|x p IH]; cbn; intros c w c' E.
  - injection E as ->. split; [reflexivity|]. intros q Hq. destruct (apart_nil _ Hq).
  - assert (forall fs u u', lookup x fs = Some u -> write p w u = Some u' ->
      match lookup x (replace x u' fs) with Some v => element p v | None => None end = Some w /\
      (forall q, apart (x :: p) q -> q <> [] /\ forall y q', q = y :: q' -> match lookup y (replace x u' fs) with Some v => element q' v | None => None end = match lookup y fs with Some v => element q' v | None => None end)) as H.
    { intros fs u u' El Ew. destruct (IH _ _ _ Ew) as (H1 & H2). rewrite lookup_replace by congruence. split; [exact H1|]. intros q Hq. split.
      - intros ->. apply apart_sym in Hq. destruct (apart_nil _ Hq).
      - intros y q' ->. destruct (string_dec x y) as [<-|Hn]; [|rewrite lookup_replace_other by exact Hn; reflexivity].
        rewrite lookup_replace, El by congruence. apply H2, (apart_cons x). exact Hq. }
    destruct c; try discriminate; destruct (lookup x fs) as [u|] eqn:El; try discriminate; destruct (write p w u) as [u'|] eqn:Ew; try discriminate; injection E as <-;
      destruct (H _ _ _ El Ew) as (H1 & H2); (split; [exact H1|]); intros q Hq; destruct (H2 q Hq) as (Hn & H3); destruct q as [|y q']; try congruence; apply (H3 y q' eq_refl).
Qed.

(** ** the properties of a declaration *)
Definition sound (t : ty) (ps : list property) : Prop :=
  (forall p, In p ps -> type_at (p_path p) t = Some (p_type p)) /\ (forall i j p q, i <> j -> nth_error ps i = Some p -> nth_error ps j = Some q -> apart (p_path p) (p_path q)).
Section DescInd.
  Context (P : desc -> Prop) (HL : forall x t, P (Leaf x t)) (HN : forall x ds, Forall P ds -> P (Nested x ds)).
  Fixpoint desc_ind' (d : desc) : P d :=
    match d with Leaf x t => HL x t | Nested x ds => HN x ds ((fix go (l : list desc) : Forall P l := match l with [] => Forall_nil _ | d :: l => Forall_cons _ (desc_ind' d) (go l) end) ds) end.
End DescInd.
Lemma extract_nested parent x ds : extract parent (Nested x ds) = flat_map (extract (parent ++ [x])) ds.
Proof. cbn. induction ds as [|d ds IH]; cbn; [reflexivity|]. rewrite <- IH. reflexivity. Qed.
Definition under (x : path) (p : property) : property := mkproperty (x ++ p_path p) (p_type p).
Lemma extract_parent d : forall parent, extract parent d = map (under parent) (extract [] d).
Proof.
  induction d as [x t | x ds IH] using desc_ind'; intros parent; [reflexivity|]. rewrite !extract_nested. rewrite !flat_map_concat_map, concat_map, map_map. f_equal.
  apply map_ext_in. intros d Hd. rewrite Forall_forall in IH. rewrite (IH d Hd), (IH d Hd ([] ++ [x])), map_map. apply map_ext. intros p. unfold under. cbn. rewrite <- app_assoc. reflexivity.
Qed.
Lemma in_extract d : forall p, In p (extract [] d) -> exists q, p_path p = desc_name d :: q.
Proof.
  destruct d as [x t|x ds]; intros p Hp; [destruct Hp as [<- | []]; exists []; reflexivity|]. rewrite extract_nested in Hp. apply in_flat_map in Hp as (d & _ & Hp). rewrite extract_parent in Hp.
  apply in_map_iff in Hp as (q & <- & _). exists (p_path q). reflexivity.
Qed.
Lemma sound_app t ps qs : sound t ps -> sound t qs -> (forall p q, In p ps -> In q qs -> apart (p_path p) (p_path q)) -> sound t (ps ++ qs).
Proof.
  intros (H1 & H2) (G1 & G2) Ha. split; [intros p Hp; apply in_app_or in Hp as [|]; auto|].
  assert (forall i r, nth_error (ps ++ qs) i = Some r -> (i < length ps /\ nth_error ps i = Some r) \/ (length ps <= i /\ nth_error qs (i - length ps) = Some r)) as Hi.
  { intros i r E. destruct (Nat.ltb_spec i (length ps)); [left | right]; (split; [assumption|]); [rewrite nth_error_app1 in E by assumption | rewrite nth_error_app2 in E by assumption]; exact E. }
  intros i j p q Hne Ep Eq. destruct (Hi _ _ Ep) as [(Li & Ep')|(Li & Ep')], (Hi _ _ Eq) as [(Lj & Eq')|(Lj & Eq')].
  - eapply H2; eauto.
  - apply Ha; eapply nth_error_In; eauto.
  - apply apart_sym, Ha; eapply nth_error_In; eauto.
  - eapply (G2 (i - length ps) (j - length ps)); eauto. lia.
Qed.
Lemma sound_listed k fts ds : NoDup (map desc_name ds) -> Forall (fun d => sound (TFields k fts) (extract [] d)) ds -> sound (TFields k fts) (flat_map (extract []) ds).
Proof.
  induction ds as [|d ds IH]; intros Hn Hf; [split; [easy | intros [|?] ? ? ? ? E; discriminate E]|]. inversion Hn; inversion Hf; subst. cbn [flat_map]. apply sound_app; auto.
  intros p q Hp Hq. apply in_flat_map in Hq as (d' & Hd' & Hq). apply in_extract in Hp as (p' & ->). apply in_extract in Hq as (q' & ->). apply apart_names. intros E. apply H1. rewrite E. apply in_map. exact Hd'.
Qed.
Lemma describes_sound d : forall k fts, describes fts d -> sound (TFields k fts) (extract [] d).
Proof.
  induction d as [x t | x ds IH] using desc_ind'; intros k fts Hd; inversion Hd as [? ? ? H2|? ? k0 sub ? H2 H3 H4]; subst.
  - split; [intros p [<- | []]; cbn; rewrite H2; reflexivity | intros [|[|?]] [|[|?]] p q Hne E1 E2; cbn in *; try discriminate; congruence].
  - rewrite extract_nested. assert (flat_map (extract ([] ++ [x])) ds = map (under [x]) (flat_map (extract []) ds)) as ->.
    { rewrite !flat_map_concat_map, concat_map, map_map. f_equal. apply map_ext. intros d. apply extract_parent. }
    assert (sound (TFields k0 sub) (flat_map (extract []) ds)) as (S1 & S2). { apply sound_listed; [assumption|]. rewrite Forall_forall in *. auto. }
    split.
    + intros p Hp. apply in_map_iff in Hp as (q & <- & Hq). cbn. rewrite H2. apply S1. exact Hq.
    + intros i j p q Hne Ep Eq. rewrite nth_error_map in Ep, Eq. destruct (nth_error (flat_map _ ds) i) eqn:Ei; [|discriminate]. destruct (nth_error (flat_map _ ds) j) eqn:Ej; [|discriminate].
      cbn in Ep, Eq. injection Ep as <-. injection Eq as <-. cbn. apply apart_cons_intro. eapply S2; eauto.
Qed.
Lemma declares_sound t d : declares t d -> sound t (properties_of d).
Proof.
  intros [k fts ds Hn Hf|u]; cbn.
  - apply sound_listed; [exact Hn|]. rewrite Forall_forall in *. intros d0 Hd. apply describes_sound. auto.
  - split; [intros p [<- | []]; reflexivity | intros [|[|?]] [|[|?]] p q Hne E1 E2; cbn in *; try discriminate; congruence].
Qed.

(** ** applying values *)
Lemma type_at_proper p : forall t u, proper t -> type_at p t = Some u -> proper u.
Proof.
  induction p as [|x p IH]; cbn; intros t u Hp E; [congruence|]. destruct t; try discriminate. destruct (lookup x fs) eqn:El; [|discriminate].
  inversion Hp as [|? ? _ H2| |]; subst. apply lookup_in in El. rewrite Forall_forall in H2. apply (IH _ _ (H2 _ El) E).
Qed.
Lemma apply_value_typed t p c v : proper t -> type_at (p_path p) t = Some (p_type p) -> typed t c -> typed (p_type p) v ->
  exists o n c', apply_value p c v = Some c' /\ typed t c' /\ element (p_path p) c = Some o /\ set_over o v n /\ element (p_path p) c' = Some n /\ (forall q, apart (p_path p) q -> element q c' = element q c).
Proof.
  intros Ht Hp Hc Hv. destruct (element_typed _ _ _ _ Hp Hc) as (o & Eo & Ho).
  destruct (try_apply_typed _ o v (type_at_proper _ _ _ Ht Hp) Ho Hv) as (n & En & Hn & Htn). destruct (write_typed _ _ _ _ _ Hp Hc Htn) as (c' & Ec & Hc').
  exists o, n, c'. unfold apply_value. rewrite Eo, En. destruct (write_element _ _ _ _ Ec). auto 10.
Qed.
Definition some_set (vals : list (option rv)) : bool := existsb (fun o => match o with Some _ => true | None => false end) vals.
Theorem internal_apply_typed t : proper t -> forall ps vals, sound t ps -> Forall2 value_for ps vals -> forall c any, typed t c ->
  exists c', internal_apply ps c vals any = (c', map (fun _ => None) vals, Some (any || some_set vals)) /\ typed t c' /\ set_properties ps vals c c'.
Proof.
  intros Ht. induction ps as [|p ps IH]; intros vals (S1 & S2) Hv c any Hc; inversion Hv; subst; cbn [internal_apply map].
  - exists c. rewrite orb_false_r. split; [reflexivity|]. split; [exact Hc|]. split; [|reflexivity]. intros p v ([|i] & E & _); discriminate E.
  - assert (sound t ps) as Hs. { split; [intros; apply S1; right; assumption|]. intros i j p1 p2 Hne. apply (S2 (S i) (S j)). congruence. }
    destruct y as [v|].
    + destruct (apply_value_typed t p c v Ht (S1 p (or_introl eq_refl)) Hc H1) as (o & n & c1 & E & Hc1 & Eo & Hov & En & Hoth). rewrite E.
      destruct (IH l' Hs H3 c1 true Hc1) as (c' & Ei & Hc' & I1 & I2). rewrite Ei. exists c'. split; [cbn; rewrite orb_true_r; reflexivity|]. split; [exact Hc'|].
      assert (forall q w, given ps l' q w -> apart (p_path p) (p_path q)) as Hap. { intros q w (i & Eq & _). apply (S2 0 (S i)); [discriminate | reflexivity | exact Eq]. }
      split.
      * intros q w ([|i] & Eq & Ew); cbn in Eq, Ew.
        -- injection Eq as <-. injection Ew as <-. exists o, n. split; [exact Eo|]. split; [exact Hov|]. rewrite I2; [exact En|]. intros q w Hq. apply apart_sym. eapply Hap; eauto.
        -- assert (given ps l' q w) as Hg by (exists i; auto). destruct (I1 q w Hg) as (o' & n' & Eo' & H'). exists o', n'. split; [|exact H']. rewrite <- Hoth by (eapply Hap; eauto). exact Eo'.
      * intros q Hq. rewrite I2, Hoth; [reflexivity | apply (Hq p v); exists 0; auto |]. intros q' w (i & Eq & Ew). apply (Hq q' w). exists (S i). auto.
    + destruct (IH l' Hs H3 c any Hc) as (c' & Ei & Hc' & I1 & I2). rewrite Ei. exists c'. split; [reflexivity|]. split; [exact Hc'|]. split.
      * intros q w ([|i] & Eq & Ew); cbn in Eq, Ew; [discriminate|]. apply I1. exists i. auto.
      * intros q Hq. apply I2. intros q' w (i & Eq & Ew). apply (Hq q' w). exists (S i). auto.
Qed.
