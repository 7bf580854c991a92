From Coq Require Import Ascii String NArith ZArith SpecFloat.
From Verif Require Import Base ReflectValue ReflectValueSpec.
Open Scope string_scope.
Open Scope list_scope.
Section Proofs.
  Context {C W : Type} (ceq : C -> C -> bool) (weq : W -> W -> bool).
  Variables (decl : nat -> list (string * rtype)) (opaque_eq : nat -> option (nat -> nat -> bool)) (struct_eq : nat -> option (list (string * rvalue C W) -> list (string * rvalue C W) -> bool)).
  Variable can_clone : nat -> bool.
  Notation rvalue := (rvalue C W).
  Notation typed := (@typed C W decl).
  Notation typed_fields := (@typed_fields C W decl).
  Notation from_reflect := (@from_reflect C W decl).
  Notation partial_eq := (partial_eq ceq weq opaque_eq struct_eq).
  Notation equal := (equal ceq weq opaque_eq struct_eq).
  Notation equal_fields := (equal_fields ceq weq opaque_eq struct_eq).
  Scheme typed_mut := Minimality for ReflectValue.typed Sort Prop
  with typed_fields_mut := Minimality for ReflectValue.typed_fields Sort Prop.
  Combined Scheme typed_both from typed_mut, typed_fields_mut.

  Lemma typed_type (v : rvalue) t : typed v t -> type_of v = t.
  Proof. intros H. destruct H; reflexivity. Qed.
  Lemma new_is_box (v : rvalue) t : typed v t -> t <> TF64 -> new t v = new_from_box v.
  Proof. intros H N. destruct H; try reflexivity. contradiction. Qed.
  Lemma value_of_box (v : rvalue) : value_of (new_from_box v) = v.
  Proof. destruct v; reflexivity. Qed.
  Lemma info_of_box (v : rvalue) : value_type_info (new_from_box v) = type_of v.
  Proof. destruct v; reflexivity. Qed.
  Lemma ref_of_box (v : rvalue) t : downcast_value_ref t (new_from_box v) = if rtype_dec (type_of v) t then Some v else None.
  Proof. destruct v; reflexivity. Qed.
  Lemma clone_of_box (v : rvalue) : reflect_clone can_clone (new_from_box v) = clone_value can_clone v.
  Proof. destruct v; reflexivity. Qed.

  (** from_reflect *)
  Fixpoint find_f (x : string) (u : rtype) (fs : list (string * rvalue)) : option rvalue :=
    match fs with [] => None | (y, w) :: fs => if String.eqb x y then from_reflect w u else find_f x u fs end.
  Fixpoint build_f (fs : list (string * rvalue)) (ts : list (string * rtype)) : option (list (string * rvalue)) :=
    match ts with [] => Some [] | (x, u) :: ts => match find_f x u fs with Some w => option_map (cons (x, w)) (build_f fs ts) | None => None end end.
  Lemma from_struct j fs i : from_reflect (VStruct j fs) (TStruct i) = option_map (VStruct i) (build_f fs (decl i)).
  Proof.
    cbn. f_equal. induction (decl i) as [|[x u] ts IH]; [reflexivity|]. cbn [build_f]. rewrite <- IH.
    match goal with |- match ?a with _ => _ end = match ?b with _ => _ end => assert (E : a = b); [|rewrite E; reflexivity] end.
    clear IH. induction fs as [|[y w] fs IH]; [reflexivity|]. cbn [find_f]. destruct (String.eqb x y); [reflexivity|exact IH].
  Qed.
  Lemma find_after x u v (l1 l2 : list (string * rvalue)) : ~ In x (map fst l1) -> find_f x u (l1 ++ (x, v) :: l2) = from_reflect v u.
  Proof.
    induction l1 as [|[y w] l1 IH]; cbn; intros H; [rewrite String.eqb_refl; reflexivity|].
    destruct (String.eqb_spec x y) as [->|]; [exfalso; apply H; left; reflexivity|]. apply IH. intros K. apply H. right. exact K.
  Qed.
  Lemma typed_names fs ts : typed_fields fs ts -> map fst fs = map fst ts.
  Proof. induction 1 as [|x v t fs ts _ _ IH]; cbn; [reflexivity|]. rewrite IH. reflexivity. Qed.
  Hypothesis decl_ok : forall i, NoDup (map fst (decl i)).
  Lemma from_typed_both :
    (forall (v : rvalue) t, typed v t -> from_reflect v t = Some v) /\
    (forall fs ts, typed_fields fs ts -> forall l, NoDup (map fst l ++ map fst ts) -> build_f (l ++ fs) ts = Some fs).
  Proof.
    apply typed_both; try reflexivity.
    - intros i v. cbn. destruct (Nat.eq_dec i i); [reflexivity|contradiction].
    - intros i fs _ IH. rewrite from_struct. specialize (IH [] (decl_ok i)). cbn in IH. rewrite IH. reflexivity.
    - intros x v t fs ts _ IHv _ IHf l N. cbn [build_f]. pose proof N as N0. cbn in N0. rewrite find_after.
      + rewrite IHv. replace (l ++ (x, v) :: fs) with ((l ++ [(x, v)]) ++ fs) by (rewrite <- app_assoc; reflexivity). rewrite IHf; [reflexivity|].
        rewrite map_app, <- app_assoc. exact N.
      + apply NoDup_remove_2 in N0. intros K. apply N0. apply in_or_app. left. exact K.
  Qed.
  Lemma from_typed (v : rvalue) t : typed v t -> from_reflect v t = Some v.
  Proof. apply from_typed_both. Qed.
  Lemma from_type (v w : rvalue) t : from_reflect v t = Some w -> type_of w = t.
  Proof.
    destruct v as [x|x|n|c|u|i u|i fs]; [..|destruct t; try discriminate; rewrite from_struct; destruct (build_f _ _); cbn; intros H; [injection H as <-; reflexivity|discriminate]];
      cbn; intros H; match type of H with (if ?c then _ else _) = _ => destruct c as [E|]; [|discriminate] end; injection H as <-; exact E.
  Qed.

  (** partial_eq *)
  Fixpoint loop_f (fs gs : list (string * rvalue)) : option bool :=
    match gs with
    | [] => Some true
    | (x, w) :: gs => match field x fs with Some v => match partial_eq w v with Some true => loop_f fs gs | r => r end | None => Some false end
    end.
  Lemma eq_structs i j fs gs : struct_eq i = None -> partial_eq (VStruct j gs) (VStruct i fs) = if Nat.eqb (List.length fs) (List.length gs) then loop_f fs gs else Some false.
  Proof.
    intros E. cbn. rewrite E. destruct (Nat.eqb _ _); [|reflexivity]. induction gs as [|[x w] gs IH]; [reflexivity|]. cbn [loop_f].
    destruct (field x fs) as [v|]; [|reflexivity]. destruct (partial_eq w v) as [[|]|]; try reflexivity. exact IH.
  Qed.
  Lemma field_after x v (l1 l2 : list (string * rvalue)) : ~ In x (map fst l1) -> field x (l1 ++ (x, v) :: l2) = Some v.
  Proof.
    induction l1 as [|[y w] l1 IH]; cbn; intros H; [rewrite String.eqb_refl; reflexivity|].
    destruct (String.eqb_spec x y) as [->|]; [exfalso; apply H; left; reflexivity|]. apply IH. intros K. apply H. right. exact K.
  Qed.
  Lemma eq_both :
    (forall (v : rvalue) t, typed v t -> forall w, typed w t -> (partial_eq w v = Some true <-> equal v w)) /\
    (forall fs ts, typed_fields fs ts -> forall gs l, typed_fields gs ts -> NoDup (map fst l ++ map fst ts) -> (loop_f (l ++ fs) gs = Some true <-> equal_fields fs gs)).
  Proof.
    apply typed_both.
    - intros x w H. inversion H; subst. cbn. split; [intros K; injection K as K; constructor; exact K|intros K; inversion K; subst; f_equal; assumption].
    - intros x w H. inversion H; subst. cbn. split; [intros K; injection K as K; constructor; exact K|intros K; inversion K; subst; f_equal; assumption].
    - intros x w H. inversion H as [| |n| | | |]; subst. cbn. split; [intros K; injection K as K; apply N.eqb_eq in K as ->; constructor|intros K; inversion K; subst; rewrite N.eqb_refl; reflexivity].
    - intros x w H. inversion H; subst. cbn. split; [intros K; injection K as K; constructor; exact K|intros K; inversion K; subst; f_equal; assumption].
    - intros x w H. inversion H; subst. cbn. split; [intros K; injection K as K; constructor; exact K|intros K; inversion K; subst; f_equal; assumption].
    - intros i x w H. inversion H; subst. cbn. rewrite Nat.eqb_refl. destruct (opaque_eq i) as [e|] eqn:E.
      + split; [intros K; injection K as K; econstructor; eauto|intros K; inversion K; subst]. congruence.
      + split; [discriminate|intros K; inversion K; subst; congruence].
    - intros i fs Hf IH w H. inversion H as [| | | | | |i' gs Hg]; subst. destruct (struct_eq i) as [e|] eqn:E.
      + cbn. rewrite E, Nat.eqb_refl. split; [intros K; injection K as K; econstructor; eauto|intros K; inversion K; subst; congruence].
      + rewrite (eq_structs i i fs gs E). rewrite <- (map_length fst fs), <- (map_length fst gs), (typed_names _ _ Hf), (typed_names _ _ Hg), Nat.eqb_refl.
        rewrite (IH gs [] Hg (decl_ok i)). split; [intros K; apply eq_fields; assumption|intros K; inversion K; subst; [congruence|assumption]].
    - intros gs l H _. inversion H; subst. cbn. split; [constructor|reflexivity].
    - intros x v t fs ts _ IHv _ IHf gs l H N. inversion H as [|x' w t' gs' ts' Hw Hg]; subst. cbn [loop_f]. pose proof N as N0. cbn in N0.
      rewrite field_after by (apply NoDup_remove_2 in N0; intros K; apply N0; apply in_or_app; left; exact K).
      replace (l ++ (x, v) :: fs) with ((l ++ [(x, v)]) ++ fs) by (rewrite <- app_assoc; reflexivity).
      assert (I : loop_f ((l ++ [(x, v)]) ++ fs) gs' = Some true <-> equal_fields fs gs') by (apply IHf; [exact Hg|rewrite map_app, <- app_assoc; exact N]).
      split.
      + destruct (partial_eq w v) as [[|]|] eqn:E; intros K; try discriminate. constructor; [apply (IHv w Hw), E|apply I, K].
      + intros K. inversion K as [|x0 v0 w0 fs0 gs0 K1 K2]; subst. apply (IHv w Hw) in K1. rewrite K1. apply I, K2.
  Qed.
  Lemma equal_types v w : equal v w -> type_of v = type_of w.
  Proof. intros H; destruct H; reflexivity. Qed.
  Lemma box_eq (v w : rvalue) t u : typed v t -> typed w u -> (rv_eq ceq weq opaque_eq struct_eq (new_from_box v) (new_from_box w) = true <-> t = u /\ equal v w).
  Proof.
    intros Hv Hw. pose proof (typed_type _ _ Hv) as Ev. pose proof (typed_type _ _ Hw) as Ew.
    assert (G : (if rtype_dec (type_of v) (type_of w) then match partial_eq w v with Some r => r | None => false end else false) = true <-> t = u /\ equal v w).
    { rewrite Ev, Ew. destruct (rtype_dec t u) as [->|Ne]; [|split; [discriminate|intros [E _]; contradiction]].
      rewrite <- (proj1 eq_both v u Hv w Hw). destruct (partial_eq w v) as [[|]|]; (split; [intros K; try discriminate; auto|intros [_ K]; try discriminate; reflexivity]). }
    rewrite <- G. destruct v, w; cbn -[partial_eq rtype_dec];
      try (split; [discriminate|destruct (rtype_dec _ _) as [E|E]; [discriminate E|discriminate]]); reflexivity.
  Qed.
  (** clones *)
  Lemma clone_same (v w : rvalue) t : typed v t -> clone_value can_clone v = Some w -> w = v.
  Proof.
    intros H. revert w. revert v t H. enough (K : (forall (v : rvalue) t, typed v t -> forall w, clone_value can_clone v = Some w -> w = v) /\
      (forall fs ts, typed_fields fs ts -> forall gs, (fix go (fs : list (string * rvalue)) : option (list (string * rvalue)) :=
              match fs with [] => Some [] | (x, w) :: fs => match clone_value can_clone w, go fs with Some w', Some fs' => Some ((x, w') :: fs') | _, _ => None end end) fs = Some gs -> gs = fs)) by apply K.
    apply typed_both; cbn; try (intros; congruence).
    - intros i v w H. destruct (can_clone i); congruence.
    - intros i fs _ IH w H. match type of H with option_map _ ?c = _ => destruct c as [gs|] eqn:E; [|discriminate] end. injection H as <-. f_equal. apply IH. reflexivity.
    - intros x v t fs ts _ IHv _ IHf gs H. destruct (clone_value can_clone v) as [w|]; [|discriminate].
      match type of H with match ?c with _ => _ end = _ => destruct c as [gs'|] eqn:E; [|discriminate] end. injection H as <-. rewrite (IHv w eq_refl), (IHf gs' eq_refl). reflexivity.
  Qed.
End Proofs.
