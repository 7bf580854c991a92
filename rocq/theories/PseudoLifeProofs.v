(** Proofs for C113. *)
From Verif Require Import Base Siblings SiblingsProofs Prop_Siblings PseudoLife PseudoLifeSpec.

Definition shape (s : state) (e : nat) : Prop :=
  exists b others a, kids s e = b :: others ++ [a] /\ kind s b = Some Before /\ kind s a = Some After /\ forall o, In o others -> kind s o = None.
Definition data_fits (x : ent) : Prop := match e_data x with Some (n, k) => n = e_type x /\ k = e_pseudo x | None => e_type x = None /\ e_pseudo x = None end.
Definition has_one (s : state) (e : nat) (x : ent) : Prop :=
  forall k, exists c, In c (kids s e) /\ made s x k c /\ forall c', In c' (kids s e) -> kind s c' = Some k -> c' = c.
Record Inv (s : state) : Prop := mk_inv {
  i_next : forall e, ents s e <> None -> e < next s;
  i_kids : forall p c, In c (kids s p) -> ents s c <> None /\ ents s p <> None;
  i_nodup : forall p, NoDup (kids s p);
  i_one : forall p q c, In c (kids s p) -> In c (kids s q) -> p = q;
  i_data : forall e x, ents s e = Some x -> data_fits x;
  i_sup : forall e x, ents s e = Some x -> e_support x = true -> has_one s e x;
  i_none : forall e x, ents s e = Some x -> e_support x = false -> forall c, In c (kids s e) -> kind s c = None;
  i_sorted : forall e x, ents s e = Some x -> e_support x = true -> changed s e = false -> shape s e }.

Lemma made_kind s x k c : made s x k c -> kind s c = Some k.
Proof. intros (y & E & H & _). unfold kind. rewrite E. exact H. Qed.
Lemma made_same s s' x x' k c : ents s' c = ents s c -> textual x' = textual x -> made s x k c -> made s' x' k c.
Proof. intros E T (y & H1 & H2). exists y. rewrite E, T. auto. Qed.
Lemma no_kids s p : Inv s -> ents s p = None -> kids s p = [].
Proof. intros I E. destruct (kids s p) as [|c l] eqn:K; [reflexivity|]. destruct (i_kids s I p c) as [_ H]; [rewrite K; left; reflexivity|]. congruence. Qed.
Lemma upd_at {A} (f : nat -> A) k v : upd f k v k = v.
Proof. unfold upd. rewrite Nat.eqb_refl. reflexivity. Qed.
Lemma upd_off {A} (f : nat -> A) k v a : a <> k -> upd f k v a = f a.
Proof. intros H. unfold upd. destruct (Nat.eqb_spec a k); [contradiction|reflexivity]. Qed.
Lemma NoDup_app_intro (l l' : list nat) : NoDup l -> NoDup l' -> (forall a, In a l -> ~ In a l') -> NoDup (l ++ l').
Proof.
  induction 1 as [|x l Hx Hl IH]; intros N D; [exact N|]. cbn. constructor; [|apply IH; [exact N|intros a Ha; apply D; right; exact Ha]].
  rewrite in_app_iff. intros [H|H]; [exact (Hx H)|]. exact (D x (or_introl eq_refl) H).
Qed.
Lemma mem_In n l : mem n l = true <-> In n l.
Proof. unfold mem. rewrite existsb_exists. split; [intros (x & H & E); apply Nat.eqb_eq in E; subst; exact H|intros H; exists n; split; [exact H|apply Nat.eqb_refl]]. Qed.
Lemma mem_out n l : mem n l = false <-> ~ In n l.
Proof. rewrite <- mem_In. destruct (mem n l); split; congruence. Qed.

(** an entity changes, its children do not *)
Lemma inv_put s e x x' : Inv s -> ents s e = Some x -> e_pseudo x = None -> e_pseudo x' = None -> e_support x' = e_support x -> (e_support x = true -> textual x' = textual x) -> data_fits x' ->
  Inv (mk_state (next s) (upd (ents s) e (Some x')) (kids s) (changed s)).
Proof.
  intros I E Hp Hp' Hs Ht Hd. set (s' := mk_state _ _ _ _).
  assert (Al : forall a, ents s' a <> None <-> ents s a <> None). { intros a. cbn. unfold upd. destruct (Nat.eqb_spec a e) as [->|]; [rewrite E; split; discriminate|reflexivity]. }
  assert (Kd : forall a, kind s' a = kind s a). { intros a. unfold kind. cbn. unfold upd. destruct (Nat.eqb_spec a e) as [->|]; [rewrite E; congruence|reflexivity]. }
  assert (En : forall a y, ents s' a = Some y -> exists y0, ents s a = Some y0 /\ e_support y = e_support y0 /\ (e_support y0 = true -> textual y = textual y0)).
  { intros a y H. cbn in H. unfold upd in H. destruct (Nat.eqb_spec a e) as [->|]; [injection H as <-; exists x; auto|exists y; auto]. }
  constructor.
  - intros a H. apply (i_next s I). apply Al. exact H.
  - intros p c H. destruct (i_kids s I p c H). split; apply Al; assumption.
  - apply (i_nodup s I).
  - apply (i_one s I).
  - intros a y H. cbn in H. unfold upd in H. destruct (Nat.eqb_spec a e) as [->|]; [injection H as <-; exact Hd|eapply (i_data s I); exact H].
  - intros a y H Hy k. destruct (En a y H) as (y0 & H0 & Hs0 & Ht0). rewrite Hs0 in Hy. destruct (i_sup s I a y0 H0 Hy k) as (c & Hc & Hm & Hu). exists c. split; [exact Hc|]. split.
    + eapply made_same; [|exact (Ht0 Hy)|exact Hm]. cbn. apply upd_off. intros ->. apply made_kind in Hm. unfold kind in Hm. rewrite E in Hm. congruence.
    + intros c' Hc' Hk. apply Hu; [exact Hc'|]. rewrite <- Kd. exact Hk.
  - intros a y H Hy c Hc. destruct (En a y H) as (y0 & H0 & Hs0 & _). rewrite Kd. apply (i_none s I a y0 H0); [congruence|exact Hc].
  - intros a y H Hy Hc. destruct (En a y H) as (y0 & H0 & Hs0 & _). destruct (i_sorted s I a y0 H0 ltac:(congruence) Hc) as (b & o & z & H1 & H2 & H3 & H4). exists b, o, z. rewrite !Kd. split; [exact H1|]. split; [exact H2|]. split; [exact H3|]. intros q Hq. rewrite Kd. auto.
Qed.

(** a child comes to [p] *)
Lemma kind_in s s' : (forall a, ents s a <> None -> ents s' a = ents s a) -> forall p c, Inv s -> In c (kids s p) -> kind s' c = kind s c.
Proof. intros H p c I Hc. unfold kind. rewrite H; [reflexivity|]. apply (i_kids s I p c Hc). Qed.
Lemma inv_attach s c p : Inv s -> kind s c = None -> ents s c <> None -> ents s p <> None -> (forall q, ~ In c (kids s q)) -> Inv (attach s p c).
Proof.
  intros I Hk Hc Hp Hn.
  assert (K : forall q a, In a (kids (attach s p c) q) <-> In a (kids s q) \/ (q = p /\ a = c)).
  { intros q a. cbn. unfold upd. destruct (Nat.eqb_spec q p) as [->|Hq]; [rewrite in_app_iff; cbn; intuition|]. intuition. }
  constructor.
  - apply (i_next s I).
  - intros q a H. apply K in H as [H|[-> ->]]; [apply (i_kids s I q a H)|auto].
  - intros q. cbn. unfold upd. destruct (Nat.eqb_spec q p) as [->|Hq]; [|apply (i_nodup s I)]. apply NoDup_app_intro; [apply (i_nodup s I)|repeat constructor; intros []|]. intros a Ha [<-|[]]. exact (Hn p Ha).
  - intros q r a H1 H2. apply K in H1, H2. destruct H1 as [H1|[-> ->]], H2 as [H2|[-> E]]; [eapply (i_one s I); eauto| | |reflexivity]; [subst a|]; exfalso; eapply Hn; eauto.
  - apply (i_data s I).
  - intros e x E Hs k. destruct (i_sup s I e x E Hs k) as (d & Hd & Hm & Hu). exists d. split; [apply K; left; exact Hd|]. split; [eapply made_same; [reflexivity|reflexivity|exact Hm]|].
    intros d' Hd' Hk'. apply K in Hd' as [Hd'|[-> ->]]; [apply Hu; assumption|]. change (kind s c = Some k) in Hk'. congruence.
  - intros e x E Hs d Hd. apply K in Hd as [Hd|[-> ->]]; [eapply (i_none s I); eauto|exact Hk].
  - intros e x E Hs Hc'. cbn in Hc'. unfold upd in Hc'. destruct (Nat.eqb_spec e p) as [->|Hq]; [discriminate|]. destruct (i_sorted s I e x E Hs Hc') as (b & o & a & H1 & H2). exists b, o, a. split; [cbn; rewrite upd_off by exact Hq; exact H1|exact H2].
Qed.
Lemma inv_fresh s : Inv s -> Inv (mk_state (S (next s)) (upd (ents s) (next s) (Some bare)) (kids s) (changed s)) /\ ents s (next s) = None.
Proof.
  intros I. assert (N : ents s (next s) = None). { destruct (ents s (next s)) eqn:E; [|reflexivity]. assert (next s < next s) by (apply (i_next s I); congruence). lia. }
  split; [|exact N]. set (s' := mk_state _ _ _ _).
  assert (Ag : forall a, ents s a <> None -> ents s' a = ents s a) by (intros a H; cbn; apply upd_off; intros ->; contradiction).
  assert (En : forall a y, ents s' a = Some y -> (a = next s /\ y = bare) \/ ents s a = Some y). { intros a y H. cbn in H. unfold upd in H. destruct (Nat.eqb_spec a (next s)); [injection H as <-; auto|auto]. }
  constructor.
  - intros e H. destruct (ents s' e) as [y|] eqn:E; [|contradiction]. cbn. destruct (En e y E) as [[-> _]|E']; [lia|]. assert (e < next s) by (apply (i_next s I); congruence). lia.
  - intros p c H. destruct (i_kids s I p c H) as [H1 H2]. rewrite !Ag; auto.
  - apply (i_nodup s I).
  - apply (i_one s I).
  - intros e y H. destruct (En e y H) as [[-> ->]|E]; [split; reflexivity|eapply (i_data s I); exact E].
  - intros e y H Hs k. destruct (En e y H) as [[-> ->]|E]; [discriminate|]. destruct (i_sup s I e y E Hs k) as (c & Hc & Hm & Hu). exists c. split; [exact Hc|]. split; [eapply made_same; [apply Ag; apply (i_kids s I e c Hc)|reflexivity|exact Hm]|].
    intros c' Hc' Hk. apply Hu; [exact Hc'|]. rewrite <- (kind_in s s' Ag e c' I Hc'). exact Hk.
  - intros e y H Hs c Hc. cbn in Hc. rewrite (kind_in s s' Ag e c I Hc). destruct (En e y H) as [[-> ->]|E]; [rewrite (no_kids s _ I N) in Hc; destruct Hc|eapply (i_none s I); eauto].
  - intros e y H Hs Hc. destruct (En e y H) as [[-> ->]|E]; [discriminate|]. destruct (i_sorted s I e y E Hs Hc) as (b & o & a & H1 & H2 & H3 & H4).
    assert (Kk : forall c, In c (kids s e) -> kind s' c = kind s c) by (intros c; apply (kind_in s s' Ag e c I)). rewrite H1 in Kk.
    exists b, o, a. split; [exact H1|]. split; [rewrite Kk; [exact H2|left; reflexivity]|]. split; [rewrite Kk; [exact H3|right; apply in_or_app; right; left; reflexivity]|]. intros q Hq. rewrite Kk; [auto|right; apply in_or_app; left; exact Hq].
Qed.
(** support comes, with both pseudo-elements *)
Lemma inv_support s s' e x x' yb ya : Inv s -> ents s e = Some x -> e_pseudo x = None -> e_support x = false -> e_pseudo x' = None -> e_support x' = true -> data_fits x' ->
  let n := next s in
  next s' = S (S n) -> ents s' e = Some x' -> ents s' n = Some yb -> ents s' (S n) = Some ya -> (forall a, a <> e -> a <> n -> a <> S n -> ents s' a = ents s a) ->
  kids s' e = kids s e ++ [n; S n] -> (forall a, a <> e -> kids s' a = kids s a) -> changed s' e = true -> (forall a, a <> e -> changed s' a = changed s a) ->
  made s' x' Before n -> made s' x' After (S n) -> e_support yb = false -> e_support ya = false -> data_fits yb -> data_fits ya -> Inv s'.
Proof.
  intros I E Hp Hs Hp' Hs' Hd n Hn He Hb Ha Hr Hke Hka Hce Hca Mb Ma Sb Sa Db Da.
  assert (Hlt : forall a, ents s a <> None -> a < n) by apply (i_next s I). assert (Hen : e < n) by (apply Hlt; congruence).
  assert (Old : forall p c, In c (kids s p) -> c < n /\ p < n) by (intros p c H; destruct (i_kids s I p c H); auto).
  assert (Kd : forall a, a < n -> kind s' a = kind s a). { intros a H. unfold kind. destruct (Nat.eq_dec a e) as [->|]; [rewrite He, E; congruence|rewrite Hr by lia; reflexivity]. }
  assert (Kb : kind s' n = Some Before) by (eapply made_kind; exact Mb). assert (Ka : kind s' (S n) = Some After) by (eapply made_kind; exact Ma).
  assert (Kn : forall a, n <= a -> kids s a = []). { intros a H. apply no_kids; [exact I|]. destruct (ents s a) eqn:Q; [|reflexivity]. assert (a < n) by (apply Hlt; congruence). lia. }
  assert (K : forall q a, In a (kids s' q) <-> In a (kids s q) \/ (q = e /\ (a = n \/ a = S n))).
  { intros q a. destruct (Nat.eq_dec q e) as [->|Hq]; [rewrite Hke, in_app_iff; cbn; intuition|rewrite Hka by exact Hq; intuition]. }
  assert (En : forall a y, ents s' a = Some y -> a <> e -> (a < n /\ ents s a = Some y) \/ (n <= a /\ e_support y = false /\ data_fits y)).
  { intros a y H Hae. destruct (Nat.eq_dec a n) as [->|H1]; [rewrite Hb in H; injection H as <-; right; split; [lia|auto]|]. destruct (Nat.eq_dec a (S n)) as [->|H2]; [rewrite Ha in H; injection H as <-; right; split; [lia|auto]|].
    rewrite Hr in H by assumption. left. split; [apply Hlt; congruence|exact H]. }
  constructor.
  - intros a H. rewrite Hn. destruct (Nat.eq_dec a e) as [->|H0]; [lia|]. destruct (Nat.eq_dec a n) as [->|H1]; [lia|]. destruct (Nat.eq_dec a (S n)) as [->|H2]; [lia|]. rewrite Hr in H by assumption. apply Hlt in H. lia.
  - intros p c H. apply K in H as [H|[-> [-> | ->]]]; [|split; congruence|split; congruence]. destruct (i_kids s I p c H) as [H1 H2]. split.
    + destruct (Nat.eq_dec c e) as [->|]; [congruence|]. apply Hlt in H1 as H3. rewrite Hr by lia. exact H1.
    + destruct (Nat.eq_dec p e) as [->|]; [congruence|]. apply Hlt in H2 as H3. rewrite Hr by lia. exact H2.
  - intros p. destruct (Nat.eq_dec p e) as [->|Hq]; [|rewrite Hka by exact Hq; apply (i_nodup s I)]. rewrite Hke. apply NoDup_app_intro; [apply (i_nodup s I)|repeat constructor; cbn; lia|]. intros a H [<-|[<-|[]]]; apply Old in H; lia.
  - intros p q c H1 H2. apply K in H1, H2. destruct H1 as [H1|[-> H1]], H2 as [H2|[-> H2]]; [eapply (i_one s I); eauto| | |reflexivity]; [apply Old in H1|apply Old in H2]; lia.
  - intros a y H. destruct (Nat.eq_dec a e) as [->|Hae]; [rewrite He in H; injection H as <-; exact Hd|]. destruct (En a y H Hae) as [[_ H']|(_ & _ & H')]; [eapply (i_data s I); exact H'|exact H'].
  - intros a y H Hy k. destruct (Nat.eq_dec a e) as [->|Hae].
    + rewrite He in H. injection H as <-. destruct k; [exists n|exists (S n)]; (split; [apply K; auto|]; split; [assumption|]); intros c' Hc' Hk; apply K in Hc' as [Hc'|[_ [-> | ->]]]; try congruence.
      * rewrite Kd in Hk by (apply Old in Hc'; lia). rewrite (i_none s I e x E Hs c' Hc') in Hk. discriminate.
      * rewrite Kd in Hk by (apply Old in Hc'; lia). rewrite (i_none s I e x E Hs c' Hc') in Hk. discriminate.
    + destruct (En a y H Hae) as [[Hl H']|(_ & H' & _)]; [|congruence]. destruct (i_sup s I a y H' Hy k) as (c & Hc & Hm & Hu). exists c. split; [apply K; auto|]. split.
      * eapply made_same; [|reflexivity|exact Hm]. apply Old in Hc. apply Hr; [intros ->|lia|lia]. apply made_kind in Hm. unfold kind in Hm. rewrite E in Hm. congruence.
      * intros c' Hc' Hk. apply K in Hc' as [Hc'|[-> _]]; [|contradiction]. apply Hu; [exact Hc'|]. rewrite <- Kd by (apply Old in Hc'; lia). exact Hk.
  - intros a y H Hy c Hc. destruct (Nat.eq_dec a e) as [->|Hae]; [congruence|]. apply K in Hc as [Hc|[-> _]]; [|contradiction]. rewrite Kd by (apply Old in Hc; lia).
    destruct (En a y H Hae) as [[Hl H']|(H' & _)]; [eapply (i_none s I); eauto|]. apply Old in Hc. lia.
  - intros a y H Hy Hc. destruct (Nat.eq_dec a e) as [->|Hae]; [congruence|]. destruct (En a y H Hae) as [[Hl H']|(_ & H' & _)]; [|congruence]. rewrite Hca in Hc by exact Hae.
    destruct (i_sorted s I a y H' Hy Hc) as (b & o & z & H1 & H2 & H3 & H4). assert (Kk : forall c, In c (kids s a) -> kind s' c = kind s c) by (intros c Q; apply Kd; apply Old in Q; lia). rewrite H1 in Kk.
    exists b, o, z. split; [rewrite Hka by exact Hae; exact H1|]. split; [rewrite Kk; [exact H2|left; reflexivity]|]. split; [rewrite Kk; [exact H3|right; apply in_or_app; right; left; reflexivity]|]. intros q Hq. rewrite Kk; [auto|right; apply in_or_app; left; exact Hq].
Qed.

(** ** The operations *)
Lemma put_allowed x b : data_fits x -> allowed x b -> exists x', put x b = Some x' /\ e_pseudo x' = None /\ e_support x' = (e_support x || b_support b)%bool /\
  textual x' = (textual x || (b_text b || b_span b))%bool /\ data_fits x' /\ (e_node x = true \/ textual x = true \/ styled b = true -> (e_text x' || e_span x' || e_node x')%bool = true).
Proof.
  intros D (Hp & Hb & _ & _ & Ht & Hs). unfold put, new_type, data_before_hooks, data_fits, styled, textual in *.
  assert (G : forall d, (match e_data x with Some d => Some d | None => if b_node b || b_text b || b_span b then Some (None, None) else None end) = d ->
    match d with Some (n, k) => n = e_type x /\ k = None | None => e_type x = None /\ b_type b = None /\ b_named b = None end).
  { intros d <-. destruct (e_data x) as [[n k]|]; [destruct D; split; congruence|]. destruct D as [D1 D2]. destruct (b_node b || b_text b || b_span b)%bool eqn:E; [split; congruence|]. split; [exact D1|].
    destruct (b_type b), (b_named b); try (split; reflexivity); exfalso; (destruct Hs as [Hs|Hs]; [first [left; discriminate|right; discriminate]|congruence|discriminate]). }
  specialize (G _ eq_refl). set (d := match e_data x with Some d => Some d | None => _ end) in *. clearbody d.
  assert (Nd : e_node x = true \/ (e_text x || e_span x)%bool = true \/ (b_node b || b_text b || b_span b)%bool = true -> ((e_text x || b_text b) || (e_span x || b_span b) || (e_node x || b_node b || b_text b))%bool = true).
  { destruct (e_node x), (e_text x), (e_span x), (b_node b), (b_text b), (b_span b); cbn; intuition discriminate. }
  assert (Tx : forall a1 a2 b1 b2, ((a1 || b1) || (a2 || b2) = (a1 || a2) || (b1 || b2))%bool) by (intros [] [] [] []; reflexivity).
  destruct (b_type b) as [nm|] eqn:Eb.
  - specialize (Ht ltac:(discriminate)). rewrite Ht in G. destruct d as [[n k]|]; [|destruct G as (_ & G & _); discriminate]. destruct G as [-> ->]. cbn. rewrite Hb. cbn. eexists. split; [reflexivity|]. cbn. rewrite Hp. repeat split; auto; rewrite ?Tx; reflexivity.
  - destruct (e_type x) as [tn|] eqn:Et.
    + destruct d as [[n k]|]; [|destruct G as (G & _); discriminate]. destruct G as [-> ->]. cbn. rewrite Hb. cbn. eexists. split; [reflexivity|]. cbn. rewrite Hp. repeat split; auto; rewrite ?Tx; reflexivity.
    + destruct (b_named b) as [nm|] eqn:En.
      * destruct d as [[n k]|]; [|destruct G as (_ & _ & G); discriminate]. destruct G as [-> ->]. cbn. rewrite Hb. cbn. eexists. split; [reflexivity|]. cbn. rewrite Hp. repeat split; auto; rewrite ?Tx; reflexivity.
      * destruct d as [[n k]|]; cbn; rewrite Hb; [destruct G as [-> ->]|]; (eexists; split; [reflexivity|]); cbn; rewrite Hp; repeat split; auto; rewrite Tx; reflexivity.
Qed.
Definition pseudo_ent (text : bool) (k : pseudo) : ent :=
  if text then mk_ent false false false true (Some span_name) (Some (Some span_name, Some k)) false (Some k) else mk_ent true true false false None (Some (None, Some k)) false (Some k).
Lemma put_pseudo text k : put bare (pseudo_bundle text k) = Some (pseudo_ent text k).
Proof. destruct text; reflexivity. Qed.
Lemma inv_insert s e x b : Inv s -> ents s e = Some x -> allowed x b -> exists s', insert s e b = Some s' /\ Inv s'.
Proof.
  intros I E A. destruct (put_allowed x b (i_data s I e x E) A) as (x' & Ep & Hp' & Hs' & Ht' & Hd' & Hn'). unfold insert. rewrite E, Ep. destruct A as (Hp & Hb & Hsup & Htx & _).
  destruct (b_support b) eqn:Eb.
  - destruct (Hsup eq_refl) as [Hs Hn]. rewrite Hs in Hs'. cbn in Hs'. unfold support_hook. rewrite (Hn' Hn). cbv zeta. fold (textual x').
    unfold spawn_plain. rewrite !put_pseudo. cbn -[upd]. eexists. split; [reflexivity|].
    assert (N : e < next s) by (apply (i_next s I); congruence).
    eapply (inv_support s _ e x x' (pseudo_ent (textual x') Before) (pseudo_ent (textual x') After) I E Hp Hs Hp' Hs' Hd'); cbn -[upd].
    + reflexivity.
    + rewrite !upd_off by lia. apply upd_at.
    + rewrite upd_off by lia. apply upd_at.
    + apply upd_at.
    + intros a H1 H2 H3. rewrite !upd_off by assumption. reflexivity.
    + rewrite upd_at, upd_at, <- app_assoc. reflexivity.
    + intros a Ha. rewrite !upd_off by exact Ha. reflexivity.
    + apply upd_at.
    + intros a Ha. rewrite !upd_off by exact Ha. reflexivity.
    + exists (pseudo_ent (textual x') Before). cbn -[upd]. split; [rewrite upd_off by lia; apply upd_at|]. destruct (textual x'); cbn; repeat split.
    + exists (pseudo_ent (textual x') After). cbn -[upd]. split; [apply upd_at|]. destruct (textual x'); cbn; repeat split.
    + destruct (textual x'); reflexivity.
    + destruct (textual x'); reflexivity.
    + destruct (textual x'); split; reflexivity.
    + destruct (textual x'); split; reflexivity.
  - rewrite orb_false_r in Hs'. eexists. split; [reflexivity|]. apply (inv_put s e x x'); auto. intros H. rewrite Ht'. destruct (b_text b || b_span b)%bool eqn:Q; [rewrite (Htx H eq_refl); reflexivity|apply orb_false_r].
Qed.
Lemma inv_spawn s par b : Inv s -> match par with Some p => ents s p <> None | None => True end -> allowed bare b -> exists s', spawn s par b = Some s' /\ Inv s'.
Proof.
  intros I Hp A. destruct (inv_fresh s I) as [I1 N]. unfold spawn. set (s1 := mk_state _ _ _ _) in *. destruct par as [p|].
  - apply (inv_insert _ _ bare); [|cbn; apply upd_at|exact A]. apply inv_attach; [exact I1|unfold kind; cbn; rewrite upd_at; reflexivity|cbn; rewrite upd_at; discriminate| |].
    + cbn. unfold upd. destruct (Nat.eqb p (next s)); [discriminate|exact Hp].
    + intros q H. cbn in H. apply (i_kids s I) in H. destruct H. contradiction.
  - apply (inv_insert _ _ bare); [exact I1|cbn; apply upd_at|exact A].
Qed.
(** children go, none of them a pseudo-element of an entity that stays *)
Lemma inv_less s s' (gone : nat -> bool) : Inv s -> next s' = next s -> (forall a, ents s' a = None \/ ents s' a = ents s a) ->
  (forall p, ents s' p = None -> kids s' p = []) -> (forall p, ents s' p <> None -> kids s' p = filter (fun a => negb (gone a)) (kids s p)) ->
  (forall p c, ents s' p <> None -> In c (kids s p) -> gone c = false -> ents s' c <> None) ->
  (forall p c, ents s' p <> None -> In c (kids s p) -> kind s c <> None -> gone c = false) ->
  (forall p, changed s' p = false -> changed s p = false /\ forall c, In c (kids s p) -> gone c = false) -> Inv s'.
Proof.
  intros I Hn He Hd Hk Hl Hps Hc.
  assert (Ent : forall a y, ents s' a = Some y -> ents s a = Some y) by (intros a y H; destruct (He a); congruence).
  assert (Kd : forall p c, In c (kids s' p) -> ents s' p <> None /\ In c (kids s p) /\ gone c = false /\ ents s' c <> None /\ kind s' c = kind s c).
  { intros p c H. assert (Ha : ents s' p <> None) by (intros Q; rewrite (Hd p Q) in H; destruct H). rewrite (Hk p Ha) in H. apply filter_In in H as [H Hg]. apply negb_true_iff in Hg. pose proof (Hl p c Ha H Hg) as Hal. repeat split; auto. unfold kind. destruct (He c) as [Q|Q]; [contradiction|rewrite Q; reflexivity]. }
  constructor.
  - intros a H. rewrite Hn. apply (i_next s I). destruct (He a); congruence.
  - intros p c H. destruct (Kd p c H) as (H1 & _ & _ & H2 & _). auto.
  - intros p. destruct (ents s' p) eqn:E; [|rewrite (Hd p E); constructor]. rewrite Hk by congruence. apply NoDup_filter. apply (i_nodup s I).
  - intros p q c H1 H2. apply Kd in H1, H2. apply (i_one s I p q c); tauto.
  - intros a y H. eapply (i_data s I). apply Ent. exact H.
  - intros a y H Hy k. destruct (i_sup s I a y (Ent a y H) Hy k) as (c & Hc1 & Hm & Hu). assert (Ha : ents s' a <> None) by congruence. assert (Hg : gone c = false) by (apply (Hps a c Ha Hc1); rewrite (made_kind _ _ _ _ Hm); discriminate).
    assert (Hi : In c (kids s' a)) by (rewrite (Hk a Ha); apply filter_In; rewrite Hg; auto). exists c. split; [exact Hi|]. split.
    + destruct (Kd a c Hi) as (_ & _ & _ & Q & _). eapply made_same; [|reflexivity|exact Hm]. destruct (He c); [contradiction|assumption].
    + intros c' Hc' Hk'. destruct (Kd a c' Hc') as (_ & H1 & _ & _ & H2). apply Hu; congruence.
  - intros a y H Hy c Hin. destruct (Kd a c Hin) as (_ & H1 & _ & _ & H2). rewrite H2. eapply (i_none s I); eauto.
  - intros a y H Hy Hch. destruct (Hc a Hch) as [Hch' Hg]. destruct (i_sorted s I a y (Ent a y H) Hy Hch') as (b & o & z & H1 & H2 & H3 & H4). assert (Ha : ents s' a <> None) by congruence.
    assert (Ek : kids s' a = kids s a). { rewrite (Hk a Ha). clear - Hg. revert Hg. induction (kids s a) as [|c l IH]; intros Hg; [reflexivity|]. cbn. rewrite (Hg c (or_introl eq_refl)). cbn. f_equal. apply IH. intros d Hd. apply Hg. right. exact Hd. }
    assert (Kk : forall c, In c (kids s a) -> kind s' c = kind s c) by (intros c Q; rewrite <- Ek in Q; apply (Kd a c Q)). rewrite H1 in Kk, Ek.
    exists b, o, z. split; [exact Ek|]. split; [rewrite Kk; [exact H2|left; reflexivity]|]. split; [rewrite Kk; [exact H3|right; apply in_or_app; right; left; reflexivity]|]. intros q Hq. rewrite Kk; [auto|right; apply in_or_app; left; exact Hq].
Qed.
Lemma below_from f s e c : In c (below f s e) -> c = e \/ exists p, In p (below f s e) /\ In c (kids s p).
Proof.
  revert e c. induction f as [|f IH]; intros e c H; cbn in H; [destruct H as [<-|[]]; auto|]. destruct H as [<-|H]; [auto|]. right. apply in_flat_map in H as (q & Hq & H). destruct (IH q c H) as [->|(p & Hp & Hc)].
  - exists e. split; [left; reflexivity|exact Hq].
  - exists p. split; [right; apply in_flat_map; exists q; auto|exact Hc].
Qed.
Lemma inv_despawn s e : Inv s -> ordinary s e -> Inv (despawn s e).
Proof.
  intros I (x & E & Hp). set (gone := below (next s) s e).
  apply (inv_less s (despawn s e) (fun a => mem a gone) I); cbn; fold gone.
  - reflexivity.
  - intros a. destruct (mem a gone); auto.
  - intros p H. destruct (mem p gone); [reflexivity|]. apply no_kids; [exact I|exact H] || (rewrite (no_kids s p I H); reflexivity).
  - intros p H. destruct (mem p gone); [congruence|reflexivity].
  - intros p c H Hc Hg. rewrite Hg. apply (i_kids s I p c Hc).
  - intros p c H Hc Hk. apply mem_out. intros Hin. destruct (below_from _ _ _ _ Hin) as [->|(q & Hq & Hcq)].
    + apply Hk. unfold kind. rewrite E. exact Hp.
    + rewrite (i_one s I p q c Hc Hcq) in H. apply mem_In in Hq. fold gone in Hq. rewrite Hq in H. congruence.
  - intros p H. apply orb_false_iff in H as [H1 H2]. split; [exact H1|]. intros c Hc. destruct (mem c gone) eqn:Q; [|reflexivity]. assert (existsb (fun a => mem a gone) (kids s p) = true) by (apply existsb_exists; eauto). congruence.
Qed.
Lemma inv_move s e p : Inv s -> ordinary s e -> ents s p <> None -> Inv (attach (detach s e) p e).
Proof.
  intros I (x & E & Hp) Hpa. apply inv_attach.
  - apply (inv_less s (detach s e) (fun a => Nat.eqb a e) I); cbn.
    + reflexivity.
    + auto.
    + intros q H. rewrite (no_kids s q I H). reflexivity.
    + reflexivity.
    + intros q c H Hc _. apply (i_kids s I q c Hc).
    + intros q c _ _ Hk. apply Nat.eqb_neq. intros ->. apply Hk. unfold kind. rewrite E. exact Hp.
    + intros q H. apply orb_false_iff in H as [H1 H2]. split; [exact H1|]. intros c Hc. apply Nat.eqb_neq. intros ->. apply mem_out in H2. contradiction.
  - unfold kind. cbn. rewrite E. exact Hp.
  - cbn. congruence.
  - exact Hpa.
  - intros q H. cbn in H. apply filter_In in H as [_ H]. rewrite Nat.eqb_refl in H. discriminate.
Qed.
Lemma filter_only (f : nat -> bool) l c : NoDup l -> In c l -> f c = true -> (forall d, In d l -> f d = true -> d = c) -> filter f l = [c].
Proof.
  induction l as [|a l IH]; intros N Hc Hf Hu; [destruct Hc|]. inversion N as [|? ? Ha Nl]; subst. cbn. destruct (f a) eqn:E.
  - assert (a = c) as -> by (apply Hu; [left; reflexivity|exact E]). f_equal. destruct (filter f l) as [|d r] eqn:Q; [reflexivity|]. exfalso. assert (Hd : In d (filter f l)) by (rewrite Q; left; reflexivity). apply filter_In in Hd as [Hd Hfd]. rewrite (Hu d (or_intror Hd) Hfd) in Hd. contradiction.
  - destruct Hc as [->|Hc]; [congruence|]. apply IH; auto. intros d Hd. apply Hu. right. exact Hd.
Qed.
Lemma sorted_shape s e x : Inv s -> ents s e = Some x -> e_support x = true -> exists b a others, kind s b = Some Before /\ kind s a = Some After /\ (forall o, In o others -> kind s o = None) /\
  sort_pseudo_elements (kind s) (kids s e) = b :: others ++ [a] /\ forall c, In c (b :: others ++ [a]) <-> In c (kids s e).
Proof.
  intros I E Hs. destruct (i_sup s I e x E Hs Before) as (b & Hb & Mb & Ub), (i_sup s I e x E Hs After) as (a & Ha & Ma & Ua). apply made_kind in Mb, Ma.
  exists b, a, (filter (fun c => match kind s c with None => true | _ => false end) (kids s e)). split; [exact Mb|]. split; [exact Ma|]. split; [intros o H; apply filter_In in H as [_ H]; destruct (kind s o); [discriminate|reflexivity]|].
  assert (Q : sort_pseudo_elements (kind s) (kids s e) = b :: filter (fun c => match kind s c with None => true | _ => false end) (kids s e) ++ [a]).
  { rewrite C33_pseudo_elements_first_and_last; [|apply (i_nodup s I)|].
    - rewrite (filter_only _ (kids s e) b (i_nodup s I e) Hb); [|rewrite Mb; reflexivity|intros d Hd Q; apply Ub; [exact Hd|destruct (kind s d) as [[]|]; congruence]].
      rewrite (filter_only (fun c => match kind s c with Some After => true | _ => false end) (kids s e) a (i_nodup s I e) Ha); [reflexivity|rewrite Ma; reflexivity|intros d Hd Q; apply Ua; [exact Hd|destruct (kind s d) as [[]|]; congruence]].
    - intros c d Hc Hd Hk Hq. destruct (kind s c) as [[]|] eqn:Kc; [| |contradiction]; [rewrite (Ub c Hc Kc), (Ub d Hd (eq_sym Hq))|rewrite (Ua c Hc Kc), (Ua d Hd (eq_sym Hq))]; reflexivity. }
  split; [exact Q|]. intros c. cbn. rewrite in_app_iff, filter_In. cbn. split.
  - intros [<-|[[H _]|[<-|[]]]]; assumption.
  - intros H. destruct (kind s c) as [[]|] eqn:Kc; [left; symmetry; auto|right; right; left; symmetry; auto|right; left; auto].
Qed.
Lemma frame_shape s e x : Inv s -> ents s e = Some x -> e_support x = true -> shape (frame s) e /\ (forall c, In c (kids (frame s) e) <-> In c (kids s e)) /\ NoDup (kids (frame s) e).
Proof.
  intros I E Hs. unfold shape. cbn. rewrite E, Hs. cbn. destruct (changed s e) eqn:C.
  - destruct (sorted_shape s e x I E Hs) as (b & a & o & H1 & H2 & H3 & H4 & H5). rewrite H4. split; [exists b, o, a; auto|]. split; [exact H5|].
    assert (P : NoDup (sort_pseudo_elements (kind s) (kids s e))).
    { destruct (C33_comparator_is_an_order (kind s) (kids s e) (i_nodup s I e)) as (_ & _ & H6). unfold sort_pseudo_elements. destruct (find (is_kind Before (kind s)) (kids s e)) eqn:F1, (find (is_kind After (kind s)) (kids s e)) eqn:F2; try apply (i_nodup s I e);
        (eapply Permutation.Permutation_NoDup; [|apply (i_nodup s I e)]; exact (proj1 (proj2 (H6 _) eq_refl))). }
    rewrite H4 in P. exact P.
  - split; [|split; [reflexivity|apply (i_nodup s I)]]. exact (i_sorted s I e x E Hs C).
Qed.
Lemma inv_frame s : Inv s -> Inv (frame s).
Proof.
  intros I.
  assert (K : forall p, (forall c, In c (kids (frame s) p) <-> In c (kids s p)) /\ NoDup (kids (frame s) p)).
  { intros p. destruct (ents s p) as [x|] eqn:E.
    - destruct (e_support x) eqn:Hs; [apply (frame_shape s p x I E Hs)|]. cbn. rewrite E, Hs. cbn. split; [reflexivity|apply (i_nodup s I)].
    - cbn. rewrite E. split; [reflexivity|apply (i_nodup s I)]. }
  constructor.
  - apply (i_next s I).
  - intros p c H. apply K in H. exact (i_kids s I p c H).
  - intros p. apply K.
  - intros p q c H1 H2. apply K in H1, H2. exact (i_one s I p q c H1 H2).
  - apply (i_data s I).
  - intros e x E Hs k. destruct (i_sup s I e x E Hs k) as (c & Hc & Hm & Hu). exists c. split; [apply K; exact Hc|]. split; [eapply made_same; [reflexivity|reflexivity|exact Hm]|]. intros c' Hc'. apply K in Hc'. apply Hu. exact Hc'.
  - intros e x E Hs c Hc. apply K in Hc. eapply (i_none s I); eauto.
  - intros e x E Hs _. apply (frame_shape s e x I E Hs).
Qed.
Lemma inv_run s o : Inv s -> allowed_op s o -> exists s', run s o = Some s' /\ Inv s'.
Proof.
  intros I A. destruct o as [par b|e b|e p|e|e|e|]; cbn in A |- *.
  - destruct A. apply inv_spawn; assumption.
  - destruct A as (x & E & A). eapply inv_insert; eauto.
  - destruct A. eexists. split; [reflexivity|]. apply inv_move; assumption.
  - eexists. split; [reflexivity|]. apply inv_despawn; assumption.
  - destruct A.
  - destruct A.
  - eexists. split; [reflexivity|]. apply inv_frame; exact I.
Qed.
Lemma inv_nobody : Inv nobody.
Proof. constructor; cbn; try discriminate; try contradiction; intros; try constructor; congruence. Qed.
Lemma inv_all l : forall s, Inv s -> allowed_all s l -> exists s', run_all s l = Some s' /\ Inv s'.
Proof.
  induction l as [|o l IH]; intros s I A; [exists s; auto|]. destruct A as [A1 A2]. destruct (inv_run s o I A1) as (s1 & E & I1). cbn. rewrite E. apply IH; [exact I1|]. apply A2. exact E.
Qed.
