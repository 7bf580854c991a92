From Coq Require Import Ascii String NArith ZArith QArith Lqa Lia.
From Verif Require Import Base VarText ValueParse Gradient GradientSpec.
Open Scope nat_scope.

Section Line.
  Context {color : Type} (mix : color -> color -> Q -> color) (bend : Q -> Q -> Q) (Hmix : forall c q, mix c c q = c).
  Lemma max_le m q : (m <= max_of m q)%Q /\ ((m <= q)%Q -> max_of m q = q).
  Proof. unfold max_of. destruct (Qle_bool m q) eqn:E; [apply Qle_bool_iff in E; auto|]. split; [lra|]. intros H. apply Qle_bool_iff in H. congruence. Qed.
  Lemma le_false a b : (b < a)%Q -> Qle_bool a b = false.
  Proof. intros H. destruct (Qle_bool a b) eqn:E; [|reflexivity]. apply Qle_bool_iff in E. lra. Qed.
  Definition above (m : Q) (p : point color) : Prop := match pt_at p with Some q => (m <= q)%Q | None => True end.
  Lemma ascending_above (ps : list (point color)) : forall m k, (m <= k)%Q -> Forall (above m) (ascending (Some k) ps).
  Proof.
    induction ps as [|p ps IH]; intros m k Hk; cbn [ascending]; [constructor|]. destruct (pt_at p) as [q|].
    - destruct (max_le k q) as [H _]. constructor; [unfold above; cbn; lra|]. apply IH. lra.
    - constructor; [exact I|]. apply IH, Hk.
  Qed.
  Lemma next_above m (ps : list (point color)) n q : Forall (above m) ps -> next_place ps = Some (n, q) -> (m <= q)%Q /\ 1 <= n.
  Proof.
    intros H. revert n q. induction H as [|p ps Hp H IH]; intros n q; cbn [next_place]; [discriminate|]. unfold above in Hp. destruct (pt_at p) as [a|]; [intros E; injection E as <- <-; auto|].
    destruct (next_place ps) as [[k b]|]; [|discriminate]. intros E. injection E as <- <-. destruct (IH _ _ eq_refl). split; [assumption|lia].
  Qed.
  Lemma spread_above m ps c b h r : Forall (above m) ps -> spread m ps = (c, b, h) :: r -> (m <= b)%Q.
  Proof.
    intros H. destruct ps as [|p ps]; [discriminate|]. cbn [spread]. intros E. assert (Eb : b = match pt_at p with Some q => q | None => match next_place (p :: ps) with Some (n, q) => (m + (q - m) / inject_Z (Z.of_nat n))%Q | None => m end end) by (injection E; auto). rewrite Eb. clear E Eb. inversion H as [|? ? Hp H']; subst. unfold above in Hp. destruct (pt_at p) as [q|] eqn:Ep; [exact Hp|].
    destruct (next_place (p :: ps)) as [[n q]|] eqn:En; [|lra]. apply (next_above m) in En as [Hq Hn]; [|exact H]. assert (Hi : (0 < inject_Z (Z.of_nat n))%Q) by (change 0%Q with (inject_Z 0); rewrite <- Zlt_Qlt; lia).
    assert (Hd : (0 <= (q - m) / inject_Z (Z.of_nat n))%Q) by (apply Qle_shift_div_l; [exact Hi|]; lra). lra.
  Qed.
  Lemma last_cons len (p : point color) q r : last_at len (p :: q :: r) = p :: last_at len (q :: r). Proof. reflexivity. Qed.
  Lemma last_head len (p : point color) ps : pt_at p <> None -> exists r, last_at len (p :: ps) = p :: r.
  Proof. intros H. destruct ps as [|q ps]; [|eexists; reflexivity]. exists []. cbn. destruct p as [c [a|] h]; [reflexivity|contradiction]. Qed.
  (** a stop of the same color before the first one changes nothing, if the first one is not before it *)
  Lemma zero_invisible len x c q h (ps : list (point color)) zero : (zero <= q)%Q -> (0 <= q)%Q ->
    color_at mix bend len (mk_point c (Some zero) h :: mk_point c (Some q) h :: ps) x = color_at mix bend len (mk_point c (Some q) h :: ps) x.
  Proof.
    intros Hz Hq. unfold color_at, placed. cbn [first_at pt_color pt_at pt_hint]. rewrite last_cons. destruct (last_head len (mk_point c (Some q) h) ps) as (r & E); [discriminate|]. rewrite E.
    cbn [ascending pt_color pt_at pt_hint]. rewrite (proj2 (max_le zero q) Hz). cbn [spread pt_color pt_at pt_hint]. destruct (spread q (ascending (Some q) r)) as [|[[c' b] h'] r'] eqn:Es; cbn [color_from].
    - destruct (Qle_bool q x); [reflexivity|]. rewrite Hmix. destruct (Qle_bool zero x); reflexivity.
    - destruct (Qle_bool q x) eqn:Eq; [reflexivity|]. assert (Hb : (q <= b)%Q) by (eapply spread_above; [|exact Es]; apply ascending_above; lra).
      assert (Hx : (x < q)%Q) by (apply Qnot_le_lt; intros H; apply Qle_bool_iff in H; congruence). rewrite (le_false b x) by lra. rewrite Hmix. destruct (Qle_bool zero x); reflexivity.
  Qed.
  Lemma from_zero_same {P} (to_px : P -> Q) (zero : P) (zp : P -> Prop) (ss ss' : list (@stop color P)) len x : (to_px zero == 0)%Q -> from_zero zero zp ss ss' ->
    (forall s r p, ss = s :: r -> st_at s = Some p -> (0 <= to_px p)%Q) ->
    color_at mix bend len (map (point_of to_px) ss') x = color_at mix bend len (map (point_of to_px) ss) x.
  Proof.
    intros Hz H Hf. destruct H as [s r Ha|s r p Ha Hp|s r p Ha Hp]; [reflexivity|reflexivity|]. pose proof (Hf s r p eq_refl Ha) as Hq. cbn [map]. unfold point_of at 1 2 4. cbn [st_color st_at st_hint option_map]. rewrite Ha. cbn [option_map]. apply zero_invisible; lra.
  Qed.
End Line.
