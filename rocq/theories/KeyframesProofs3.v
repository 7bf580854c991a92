From Coq Require Import QArith Sorted Lqa Lia.
From Verif Require Import Base Inherit Keyframes Interp InterpSpec InterpProofs KeyframesSpec KeyframesProofs KeyframesProofs2.
Open Scope nat_scope.

Definition somes {X} (l : list (Q * option X)) : list (Q * X) :=
  flat_map (fun x => match snd x with Some v => [(fst x, v)] | None => [] end) l.
Definition is_val {X} (v : cvalue X) : Prop := match v with CVal _ => True | CNone => False end.

(** Which columns are full, for any type of values *)
Section G.
  Context {V : Type}.
  Variable animatable : V -> bool.
  Variable interp : V -> V -> Q -> V.
  Notation CREST := (crest animatable interp).
  Hypothesis Han : forall v, animatable v = true.

  Lemma cnext_somes (l : list (Q * option (cvalue V))) : cnext l = match somes l with [] => None | x :: _ => Some x end.
  Proof. induction l as [|[t [v|]] l IH]; simpl; auto. Qed.
  Lemma cnext_in (l : list (Q * option (cvalue V))) t v : cnext l = Some (t, v) -> In t (map fst l) /\ In (t, v) (somes l).
  Proof. induction l as [|[t' [v'|]] l IH]; simpl; intros H; [discriminate|injection H as <- <-; auto|]. destruct (IH H). auto. Qed.

  Lemma frac_range (a x b : Q) : (a <= x <= b)%Q -> (a < b)%Q -> (0 <= (x - a) / (b - a) <= 1)%Q.
  Proof.
    intros [H1 H2] H. assert (Hp : (0 < b - a)%Q) by lra.
    split; [apply Qle_shift_div_l; [exact Hp|lra]|apply Qle_shift_div_r; [exact Hp|lra]].
  Qed.
  Lemma interpolate_value_val ta va tb vb x : (ta <= x <= tb)%Q -> (ta < tb)%Q -> is_val va -> is_val vb ->
    exists a b, va = CVal a /\ vb = CVal b /\ interpolate_value animatable interp ta va tb vb x = CVal (interp a b ((x - ta) / (tb - ta))%Q).
  Proof.
    intros Hx Hab Ha Hb. destruct va as [|a]; [contradiction|]. destruct vb as [|b]; [contradiction|]. exists a, b. repeat split.
    unfold interpolate_value. rewrite Han. destruct (frac_range _ _ _ Hx Hab) as [H1 H2].
    apply Qle_bool_iff in H1, H2. rewrite H1, H2. reflexivity.
  Qed.
  Lemma crest_all l : forall ta va vs, StronglySorted Qlt (ta :: map fst l) -> is_val va -> CREST ta va l = Some vs ->
    (Forall is_val vs <-> Forall (fun x => is_val (snd x)) (somes l)).
  Proof.
    induction l as [|[t [v|]] l IH]; intros ta va vs Hs Hva H; simpl in H.
    - injection H as <-. simpl. split; constructor.
    - destruct (CREST t v l) as [ws|] eqn:Ew; [|discriminate]. injection H as <-. simpl.
      inversion Hs as [|? ? Hs' _]; subst.
      split; intros Hf; apply Forall_cons_iff in Hf; destruct Hf as [Hv Hf]; simpl in Hv; constructor; simpl; auto;
        apply (IH t v ws Hs' Hv Ew); assumption.
    - destruct (cnext l) as [[tb vb]|] eqn:En; [|discriminate].
      set (w := interpolate_value animatable interp ta va tb vb t) in *.
      destruct (CREST t w l) as [ws|] eqn:Ew; [|discriminate]. injection H as <-. simpl somes.
      inversion Hs as [|? ? Hs' Hf']; subst. apply Forall_cons_iff in Hf'. destruct Hf' as [Hta _]. simpl in Hta.
      destruct (cnext_in _ _ _ En) as [Hin1 Hin2].
      assert (Htb : (t < tb)%Q). { inversion Hs' as [|? ? _ Hf2]; subst. rewrite Forall_forall in Hf2. apply Hf2. exact Hin1. }
      destruct vb as [|b]; cycle 1.
      + destruct (interpolate_value_val ta va tb (CVal b) t) as (a & b' & Ha & Hb & Hw); [lra|lra|exact Hva|exact I|].
        assert (Hwv : is_val w) by (unfold w; rewrite Hw; exact I).
        rewrite Forall_cons_iff. rewrite (IH t w ws Hs' Hwv Ew). tauto.
      + split; intros Hf.
        * apply Forall_cons_iff in Hf. destruct Hf as [Hf _]. unfold w, interpolate_value in Hf. destruct va; contradiction.
        * rewrite Forall_forall in Hf. exfalso. apply (Hf _ Hin2).
  Qed.
  Lemma all_values_iff (vs : list (cvalue V)) : all_values vs = true <-> Forall is_val vs.
  Proof. unfold all_values. rewrite forallb_forall, Forall_forall. split; intros H x Hx; specialize (H x Hx); destruct x; simpl in *; auto; discriminate. Qed.

  Lemma crest_declared l : forall ta va vs, CREST ta va l = Some vs ->
    Forall2 (fun x w => forall v, snd x = Some v -> w = v) l vs.
  Proof.
    induction l as [|[t [v|]] l IH]; intros ta va vs H; simpl in H.
    - injection H as <-. constructor.
    - destruct (CREST t v l) as [ws|] eqn:Ew; [|discriminate]. injection H as <-. constructor; [simpl; congruence|eauto].
    - destruct (cnext l) as [[tb vb]|]; [|discriminate].
      destruct (CREST t _ l) as [ws|] eqn:Ew; [|discriminate]. injection H as <-. constructor; [simpl; congruence|eauto].
  Qed.
End G.

(** The columns of values of the animated types lie on broken lines *)
Section P.
  Notation CREST := (crest (fun _ : value => true) interpolate).
  Definition pts_of (l : list (Q * value)) : list (Q * list atom) := map (fun x => (fst x, flat (snd x))) l.
  Definition cvs (l : list (Q * value)) : list (Q * cvalue value) := map (fun x => (fst x, CVal (snd x))) l.

  Lemma poly_of_line tA a tB b l x w : (tA <= x <= tB)%Q -> (tA < tB)%Q -> on_line ((x - tA) / (tB - tA)) a b w -> on_poly ((tA, a) :: (tB, b) :: l) x w.
  Proof.
    intros [H1 H2] Hab Hl. assert (Hd : ~ (tB - tA == 0)%Q) by lra.
    destruct (Qeq_dec x tA) as [He|He]; [|destruct (Qeq_dec x tB) as [He'|He']].
    - apply at_point; [exact He|]. apply on_line_0 with (b := b). eapply on_line_ext; [|exact Hl]. rewrite He. field. exact Hd.
    - apply further, at_point; [exact He'|]. apply on_line_1 with (a := a). eapply on_line_ext; [|exact Hl]. rewrite He'. field. exact Hd.
    - apply in_segment; [|exact Hl]. split; apply Qnot_le_lt; intros H; [apply He|apply He']; apply Qle_antisym; assumption.
  Qed.
  Lemma line_of_two tA a tB b ta va tc vc x z : (tA < tB)%Q -> (ta < tc)%Q ->
    on_line ((ta - tA) / (tB - tA)) a b va -> on_line ((tc - tA) / (tB - tA)) a b vc -> on_line ((x - ta) / (tc - ta)) va vc z ->
    on_line ((x - tA) / (tB - tA)) a b z.
  Proof.
    intros H1 H2 Ha Hc Hz. eapply on_line_ext; [|exact (on_line_between _ _ _ _ _ _ _ _ Ha Hc Hz)]. field; repeat split; intros HH; lra.
  Qed.

  Section S.
    Context {E : Type}.
    Variable ease : E -> Q -> Q.
    Notation FROM := (sample_from interpolate ease).
    Definition is_linear (e : E) : Prop := forall s, (0 <= s <= 1)%Q -> (ease e s == s)%Q.
    Lemma sample_from_eq (k : pkeyframe value E) l x : FROM k l x =
      if Qeq_bool x (pk_time k) then pk_value k
      else match l with
         | [] => pk_value k
         | k' :: r =>
             if Qle_bool (pk_time k') x then FROM k' r x
             else interpolate (pk_value k) (pk_value k') (ease (pk_easing k) ((x - pk_time k) / (pk_time k' - pk_time k))%Q)
         end.
    Proof. destruct l; reflexivity. Qed.
    (** one segment of a track, between two points of one line *)
    Lemma segment_line tA a tB b ta va tc vc e : (tA <= ta)%Q -> (ta < tc)%Q -> (tc <= tB)%Q ->
      compatible (flat a) (flat b) -> ~ is_rotation a ->
      on_line ((ta - tA) / (tB - tA)) (flat a) (flat b) (flat va) ->
      on_line ((tc - tA) / (tB - tA)) (flat a) (flat b) (flat vc) ->
      is_linear e -> forall x, (ta <= x <= tc)%Q ->
      on_line ((x - tA) / (tB - tA)) (flat a) (flat b) (flat (interpolate va vc (ease e ((x - ta) / (tc - ta))))).
    Proof.
      intros H1 H2 H3 Hc Hr Ha Hv He x Hx.
      apply (line_of_two tA (flat a) tB (flat b) ta (flat va) tc (flat vc)); try assumption; [lra|].
      eapply on_line_ext; [apply He; apply frac_range; assumption|].
      apply value_line; [eapply rotation_on_line; eassumption|eapply compat_on_line; eassumption].
    Qed.

    Definition past (t0 : Q) (a0 va : value) (ta : Q) (l : list (Q * option (cvalue value))) : Prop :=
      (t0 <= ta)%Q /\
      match cnext l with
      | None => (ta == t0)%Q /\ va = a0
      | Some (tB, CVal b) => on_line ((ta - t0) / (tB - t0)) (flat a0) (flat b) (flat va)
      | Some (_, CNone) => False
      end.
    Lemma crest_poly l : forall tA a ta va pts, StronglySorted Qlt (ta :: map fst l) -> ends_defined l -> somes l = cvs pts ->
      past tA a va ta l -> can_follow ((tA, a) :: pts) ->
      exists ws, CREST ta (CVal va) l = Some (map CVal ws) /\
        Forall2 (fun x w => on_poly ((tA, flat a) :: pts_of pts) (fst x) (flat w)) l ws /\
        forall e es x, length es = length l -> Forall is_linear (e :: es) -> (ta <= x)%Q -> (exists t, In t (ta :: map fst l) /\ (x <= t)%Q) ->
          on_poly ((tA, flat a) :: pts_of pts) x (flat (FROM (mk_pk ta va e) (ctrack (map fst l) (map CVal ws) es) x)).
    Proof.
      induction l as [|[t o] l IH]; intros tA a ta va pts Hs Hends Hsome [HtA Hpast] Hfol.
      { exists []. split; [reflexivity|]. split; [constructor|]. intros e es x _ _ Hx (t & [<-|[]] & Ht). simpl in *.
        destruct Hpast as [Hp ->]. rewrite Tauto.if_same. apply at_point; [|apply same_refl]. lra. }
      inversion Hs as [|? ? Hs' Hf]; subst. assert (Ht : (ta < t)%Q) by (apply Forall_cons_iff in Hf; apply Hf).
      assert (Hends' : ends_defined l) by (destruct l; [exact I|exact Hends]).
      assert (Hl_t : forall t', In t' (map fst l) -> (t < t')%Q).
      { intros t' Hin. inversion Hs' as [|? ? _ Hf2]; subst. rewrite Forall_forall in Hf2. apply Hf2. exact Hin. }
      rewrite cnext_somes in Hpast. rewrite Hsome in Hpast.
      assert (Hpts : exists tB b pts', pts = (tB, b) :: pts').
      { destruct pts as [|[tB b] pts']; eauto. exfalso. assert (Hc : cnext ((t, o) :: l) <> None) by (apply cnext_some; [discriminate|exact Hends]).
        rewrite cnext_somes, Hsome in Hc. apply Hc. reflexivity. }
      destruct Hpts as (tB & b & pts' & ->). simpl in Hpast.
      destruct Hfol as (Hcomp & Hrot & Hfol'). 
      (* the value at t *)
      assert (Hstep : exists w, (match o with Some v => v = CVal w /\ t = tB /\ b = w /\ somes l = cvs pts' | None => somes l = cvs ((tB, b) :: pts') /\
                         interpolate_value (fun _ => true) interpolate ta (CVal va) tB (CVal b) t = CVal w end) /\
                      (t <= tB)%Q /\ on_line ((t - tA) / (tB - tA)) (flat a) (flat b) (flat w)).
      { destruct o as [v|].
        - injection Hsome as Et Ev Er. exists b. subst t v. split; [repeat split; auto|]. split; [lra|].
          eapply on_line_ext; [|apply on_line_end; exact Hcomp]. field; intros HH; lra.
        - simpl in Hsome. assert (HtB : (t < tB)%Q).
          { apply Hl_t. assert (Hn : cnext l = Some (tB, CVal b)) by (rewrite cnext_somes, Hsome; reflexivity). apply cnext_in in Hn. apply Hn. }
          destruct (interpolate_value_val (fun _ => true) interpolate (fun _ => eq_refl) ta (CVal va) tB (CVal b) t) as (a' & b' & Ha' & Hb' & Hw); [lra|lra|exact I|exact I|].
          injection Ha' as <-. injection Hb' as <-. eexists. split; [split; [exact Hsome|exact Hw]|]. split; [lra|].
          apply (line_of_two tA (flat a) tB (flat b) ta (flat va) tB (flat b)); try lra.
          + exact Hpast.
          + eapply on_line_ext; [|apply on_line_end; exact Hcomp]. field; intros HH; lra.
          + apply value_line; [eapply rotation_on_line; eassumption|eapply compat_on_line; [exact Hcomp|exact Hpast|apply on_line_end; exact Hcomp]]. }
      destruct Hstep as (w & Ho & HtB & Hw).
      (* a sample before t *)
      assert (Hbefore : forall e es ws x, is_linear e -> (ta <= x)%Q -> (x < t)%Q ->
        on_poly ((tA, flat a) :: pts_of ((tB, b) :: pts')) x (flat (FROM (mk_pk ta va e) (ctrack (t :: map fst l) (CVal w :: ws) es) x)) \/ es = []).
      { intros e [|e' es] ws x He Hx1 Hx2; [auto|]. left. simpl ctrack. rewrite sample_from_eq. simpl pk_time. simpl pk_value. simpl pk_easing. cbn [pts_of map fst snd].
        destruct (Qeq_bool x ta) eqn:Ex.
        - apply Qeq_bool_eq in Ex. apply poly_of_line; [lra|lra|]. eapply on_line_ext; [|exact Hpast]. rewrite Ex. reflexivity.
        - destruct (Qle_bool t x) eqn:El; [apply Qle_bool_iff in El; lra|].
          apply poly_of_line; [lra|lra|]. apply segment_line; try assumption; lra. }
      destruct o as [v|].
      - destruct Ho as (-> & -> & -> & Hsome').
        destruct (IH tB w tB w pts' Hs' Hends' Hsome') as (ws & Hws & Hpoly & Hsample).
        { split; [lra|]. rewrite cnext_somes, Hsome'. destruct pts' as [|[tC c] pts'']; simpl; [split; reflexivity|].
          destruct Hfol' as (Hc2 & _ & _). eapply on_line_ext; [|apply on_line_start; exact Hc2].
          assert (tB < tC)%Q. { apply Hl_t. assert (Hn : cnext l = Some (tC, CVal c)) by (rewrite cnext_somes, Hsome'; reflexivity). apply cnext_in in Hn. apply Hn. }
          field; intros HH; lra. }
        { exact Hfol'. }
        exists (w :: ws). split; [simpl; rewrite Hws; reflexivity|]. split.
        + constructor; [simpl; apply further, at_point; [reflexivity|apply same_refl]|].
          clear - Hpoly. induction Hpoly; constructor; auto. apply further. assumption.
        + intros e es x Hel Hlin Hx Hlast. destruct es as [|e' es]; [discriminate|]. simpl in Hel. injection Hel as Hel.
          apply Forall_cons_iff in Hlin. destruct Hlin as [He Hlin].
          destruct (Qlt_le_dec x tB) as [Hlt|Hge]; [destruct (Hbefore e (e' :: es) (map CVal ws) x He Hx Hlt); [assumption|discriminate]|].
          simpl. destruct (Qeq_bool x ta) eqn:Ex; [apply Qeq_bool_eq in Ex; lra|].
          apply Qle_bool_iff in Hge. rewrite Hge. apply Qle_bool_iff in Hge. apply further. apply Hsample; auto.
          destruct Hlast as (t' & [<-|Hin] & Hle); [lra|]. exists t'. split; assumption.
      - destruct Ho as (Hsome' & Hiv).
        destruct (IH tA a t w ((tB, b) :: pts') Hs' Hends' Hsome') as (ws & Hws & Hpoly & Hsample).
        { split; [lra|]. rewrite cnext_somes, Hsome'. exact Hw. }
        { simpl. auto. }
        exists (w :: ws). split.
        { cbn [crest]. rewrite cnext_somes, Hsome'. cbn [cvs map fst snd]. rewrite Hiv, Hws. reflexivity. }
        split; [constructor; [cbn [pts_of map fst snd]; apply poly_of_line; [lra|lra|exact Hw]|exact Hpoly]|].
        intros e es x Hel Hlin Hx Hlast. destruct es as [|e' es]; [discriminate|]. simpl in Hel. injection Hel as Hel.
        apply Forall_cons_iff in Hlin. destruct Hlin as [He Hlin].
        destruct (Qlt_le_dec x t) as [Hlt|Hge]; [destruct (Hbefore e (e' :: es) (map CVal ws) x He Hx Hlt); [assumption|discriminate]|].
        simpl ctrack. rewrite sample_from_eq. simpl pk_time. destruct (Qeq_bool x ta) eqn:Ex; [apply Qeq_bool_eq in Ex; lra|].
        apply Qle_bool_iff in Hge. rewrite Hge. apply Qle_bool_iff in Hge. apply Hsample; auto.
        destruct Hlast as (t' & [<-|Hin] & Hle); [lra|]. exists t'. split; assumption.
    Qed.
  End S.
End P.
