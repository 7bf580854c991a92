From Coq Require Import Ascii String NArith ZArith Lia.
From Verif Require Import Base Vars VarsSpec VarText VarTextSpec VarTextProofs VarTextProofs2 VarTextProofs3.
Open Scope nat_scope.
Local Opaque replacement.

(** ** What the tokens of a text without backslashes are like *)
Definition no_special (c : ascii) : Prop := is 92 c = false /\ is_newline c = false /\ is 0 c = false.
Lemma replacement_no_special : Forall no_special replacement.
Proof. Local Transparent replacement. repeat constructor. Qed.
Local Opaque replacement.
Lemma quoted_f_out n q : forall s o r, nobs s -> quoted_f n q s = (o, r) -> nobs r /\ length r <= length s /\ match o with Some v => Forall no_special v | None => True end.
Proof.
  induction n as [|n IH]; intros s o r Hs H; cbn [quoted_f] in H; [injection H as <- <-; auto|].
  destruct s as [|c s]; [injection H as <- <-; auto|]. pose proof Hs as Hs'. apply nobs_cons in Hs'. destruct Hs' as [Hc Hs'].
  destruct (Ascii.eqb c q); [injection H as <- <-; simpl; auto|]. destruct (is_newline c) eqn:En; [injection H as <- <-; auto|]. rewrite Hc in H.
  destruct (is 0 c) eqn:E0; destruct (quoted_f n q s) as [v' r'] eqn:E; injection H as <- <-; destruct (IH _ _ _ Hs' E) as (A & B & C); (split; [exact A|]); (split; [simpl; lia|]); destruct v' as [v'|]; simpl; auto.
  - apply Forall_app. split; [exact replacement_no_special|exact C].
  - constructor; [repeat split; assumption|exact C].
Qed.
Definition url_next (r : text) : Prop := exists q w, drop_white r = q :: w /\ (is 34 q || is 39 q)%bool = true.
Definition good_tok (x : tok) (r : text) : Prop :=
  match x with
  | TFunction s => Forall clean s /\ ident_start s = true /\ (same_name s (tx "url") = true -> url_next r)
  | _ => plain_token x -> match var_token x with Some v => ok_v v /\ css v = x | None => True end
  end.
Lemma quoted_out q s x r : nobs s -> quoted q s = (x, r) -> nobs r /\ length r <= length s /\ good_tok x r.
Proof.
  intros Hs H. unfold quoted in H. destruct (quoted_f (length s) q s) as [o r'] eqn:E. destruct (quoted_f_out _ _ _ _ _ Hs E) as (A & B & C).
  destruct o as [v|]; injection H as <- <-; (split; [exact A|]); (split; [exact B|]); cbn [good_tok var_token plain_token]; auto.
  intros Hp. split; [|reflexivity]. cbn [ok_v]. rewrite Forall_forall in *. intros c Hin. destruct (C c Hin) as (C1 & C2 & C3). unfold string_byte. rewrite C1, C2, C3.
  destruct (is 34 c) eqn:E34; [|reflexivity]. apply is_code in E34. subst c. exfalso. apply Hp. exact Hin.
Qed.
Lemma skip_url_len s : nobs s -> nobs (skip_url s) /\ length (skip_url s) <= length s.
Proof.
  induction s as [|c s IH]; intros H; [split; [exact H|simpl; lia]|]. apply nobs_cons in H. destruct H as [Hc H]. cbn [skip_url]. rewrite Hc.
  destruct (is 41 c); [simpl; auto|]. destruct (IH H). simpl. split; [assumption|lia].
Qed.
Lemma drop_white_nobs s : nobs s -> nobs (drop_white s).
Proof. induction s as [|c s IH]; intros H; [exact H|]. cbn [drop_white]. destruct (is_white c); [|exact H]. apply IH. apply nobs_cons in H. tauto. Qed.
Lemma name_len_strict s v r : nobs s -> ident_start s = true -> name s = (v, r) -> length r < length s.
Proof.
  intros Hs Hi H. unfold name in H. destruct s as [|c s]; [discriminate|]. cbn [length name_f] in H. pose proof Hs as Hs'. apply nobs_cons in Hs'. destruct Hs' as [Hc Hs'].
  assert (Hn : name_byte c = true). { cbn [ident_start] in Hi. rewrite Hc in Hi. destruct (is 45 c) eqn:E; [apply is_code in E; subst c; reflexivity|apply name_start_byte; exact Hi]. }
  destruct (is 0 c); [|rewrite Hn in H]; destruct (name_f (length s) s) as [v' r'] eqn:E; injection H as <- <-; destruct (name_f_out _ _ _ _ Hs' E) as (_ & _ & L); simpl; lia.
Qed.
Lemma ident_like_out s x r : nobs s -> ident_start s = true -> ident_like s = (x, r) -> nobs r /\ length r < length s /\ good_tok x r.
Proof.
  intros Hs Hi H. unfold ident_like in H. destruct (name s) as [v r1] eqn:E. pose proof (name_len_strict _ _ _ Hs Hi E) as Hl.
  assert (Hv : ident_start v = true) by (eapply name_f_start; [exact Hs| |exact E|exact Hi]; lia).
  destruct (name_f_out _ _ _ _ Hs E) as (A & B & _).
  assert (Hid : (x, r) = (TIdent v, r1) -> nobs r /\ length r < length s /\ good_tok x r).
  { intros H'. injection H' as -> ->. split; [exact B|]. split; [exact Hl|]. cbn. auto. }
  destruct r1 as [|c r1]; [apply Hid; congruence|]. destruct (is 40 c); [|apply Hid; congruence]. clear Hid. apply nobs_cons in B. destruct B as [_ B]. simpl in Hl.
  destruct (same_name v (tx "url")) eqn:Eu; [unfold unquoted_url in H; destruct (drop_white r1) as [|q w] eqn:Ed|].
  - injection H as <- <-. split; [intros []|]. split; [simpl; lia|]. cbn. auto.
  - destruct (is 34 q || is 39 q)%bool eqn:Eq.
    + injection H as <- <-. split; [exact B|]. split; [lia|]. cbn [good_tok]. split; [exact A|]. split; [exact Hv|]. intros _. exists q, w. auto.
    + pose proof (drop_white_nobs _ B) as Bd. pose proof (drop_white_len r1) as Bl. rewrite Ed in Bd, Bl. destruct (skip_url_len _ Bd) as [C D]. remember (skip_url (q :: w)) as zz eqn:Ezz. clear Ezz. injection H as <- <-. split; [exact C|]. split; [cbn [length] in *; lia|]. cbn. auto.
  - injection H as <- <-. split; [exact B|]. split; [lia|]. cbn [good_tok]. split; [exact A|]. split; [exact Hv|]. intros Hf. congruence.
Qed.
Lemma nobs_app a b : nobs (a ++ b) <-> nobs a /\ nobs b.
Proof. unfold nobs. rewrite in_app_iff. tauto. Qed.
Lemma span_digits_eq s : forall a b, span_digits s = (a, b) -> s = a ++ b /\ (digit_next s = true -> a <> []).
Proof.
  induction s as [|c s IH]; intros a b H; cbn [span_digits] in H; [injection H as <- <-; split; [reflexivity|discriminate]|].
  destruct (is_digit c) eqn:E.
  - destruct (span_digits s) as [a' b'] eqn:Es. injection H as <- <-. destruct (IH _ _ eq_refl) as [-> _]. split; [reflexivity|discriminate].
  - injection H as <- <-. split; [reflexivity|]. cbn. congruence.
Qed.
Lemma exponent_out s e r : exponent s = Some (e, r) -> exists p, s = p ++ r.
Proof.
  unfold exponent. destruct s as [|c s]; [discriminate|]. destruct (is 101 c || is 69 c)%bool; [|discriminate]. destruct (digit_next s).
  - destruct (span_digits s) as [a b] eqn:E. intros H; injection H as _ <-. destruct (span_digits_eq _ _ _ E) as [-> _]. exists (c :: a). reflexivity.
  - destruct s as [|g s]; [discriminate|]. destruct ((is 43 g || is 45 g) && digit_next s)%bool; [|discriminate].
    destruct (span_digits s) as [a b] eqn:E. intros H; injection H as _ <-. destruct (span_digits_eq _ _ _ E) as [-> _]. exists (c :: g :: a). reflexivity.
Qed.
Lemma shift_canonical m k e : canonical (shift m k e).
Proof. unfold shift. destruct (Z.leb _ _); [left; reflexivity|apply norm_canonical]. Qed.
Lemma numeric_out c s x r : nobs (c :: s) -> (is_digit c = true \/ ((is 45 c || is 43 c)%bool = true) \/ (is 46 c = true /\ digit_next s = true)) ->
  numeric (c :: s) = (x, r) -> nobs r /\ length r <= length s /\ good_tok x r.
Proof.
  intros Hs Hc H. unfold numeric in H.
  destruct (split_sign (c :: s)) as [neg s1] eqn:E1. destruct (span_digits s1) as [ds1 s2] eqn:E2.
  destruct (match s2 with [] => ([], s2, false) | c0 :: r0 => if (is 46 c0 && digit_next r0)%bool then let (d, r') := span_digits r0 in (d, r', true) else ([], s2, false) end) as [[ds2 s3] frac] eqn:E3.
  cbv zeta in H.
  destruct (match exponent s3 with Some (e, r0) => (shift (if neg then (- digits_value (ds1 ++ ds2))%Z else digits_value (ds1 ++ ds2)) (length ds2) e, r0, false) | None => (norm (if neg then (- digits_value (ds1 ++ ds2))%Z else digits_value (ds1 ++ ds2)) (length ds2), s3, negb frac) end) as [[d s4] int] eqn:E4.
  destruct (span_digits_eq _ _ _ E2) as [F2 G2].
  assert (F3 : exists p, s2 = p ++ s3 /\ (forall c0 r0, s2 = c0 :: r0 -> is 46 c0 = true -> digit_next r0 = true -> p <> [])).
  { destruct s2 as [|c0 r0]; [injection E3 as <- <- <-; exists []; split; [reflexivity|discriminate]|].
    destruct (is 46 c0 && digit_next r0)%bool eqn:Eb.
    - destruct (span_digits r0) as [a b] eqn:Es. injection E3 as <- <- <-. destruct (span_digits_eq _ _ _ Es) as [-> _]. exists (c0 :: a). split; [reflexivity|discriminate].
    - injection E3 as <- <- <-. exists []. split; [reflexivity|]. intros c1 r1 Heq A B. injection Heq as <- <-. rewrite A, B in Eb. discriminate. }
  destruct F3 as (p3 & F3 & G3).
  assert (F4 : exists p, s3 = p ++ s4). { destruct (exponent s3) as [[e r0]|] eqn:Ee; injection E4 as <- <- <-; [eapply exponent_out; exact Ee|exists []; reflexivity]. }
  destruct F4 as (p4 & F4).
  assert (Hd : canonical d). { destruct (exponent s3) as [[e r0]|]; injection E4 as <- <- <-; [apply shift_canonical|apply norm_canonical]. }
  assert (Hs4 : nobs s4 /\ length s4 <= length s).
  { unfold split_sign in E1. pose proof Hs as Hs'. apply nobs_cons in Hs'. destruct Hs' as [_ Hs'].
    assert (Hsfx : s1 = s \/ (s1 = c :: s /\ is 45 c = false /\ is 43 c = false)) by (destruct (is 45 c); [left; congruence|]; destruct (is 43 c); [left; congruence|right; split; [congruence|auto]]).
    assert (Hn1 : nobs s1) by (destruct Hsfx as [->|[-> _]]; assumption). subst s1. rewrite F3, F4 in *. rewrite !nobs_app in Hn1. split; [tauto|].
    destruct Hsfx as [E|(E & A & B)]; [rewrite <- E; rewrite !app_length; lia|].
    assert (Hlt : length (ds1 ++ p3 ++ p4 ++ s4) = S (length s)) by (rewrite E; reflexivity). rewrite !app_length in Hlt.
    rewrite A, B in Hc. destruct Hc as [Hc|[Hc|[Hc Hc']]]; [|discriminate|].
    - assert (ds1 <> []) by (apply G2; rewrite E; exact Hc). destruct ds1; [congruence|]. simpl in Hlt. lia.
    - destruct ds1 as [|x1 ds1]; [|simpl in Hlt; lia]. assert (p3 <> []) by (eapply G3; [cbn [app] in E; exact E|exact Hc|exact Hc']). destruct p3; [congruence|]. simpl in Hlt. lia. }
  destruct Hs4 as [Hn4 Hl4]. clear E4 E3 E2 E1.
  assert (Hnum : (x, r) = (TNumber d int, s4) -> nobs r /\ length r <= length s /\ good_tok x r).
  { intros H'. injection H' as -> ->. split; [exact Hn4|]. split; [exact Hl4|]. cbn. intros ->. auto. }
  destruct s4 as [|c4 s4]; [apply Hnum; congruence|]. destruct (is 37 c4) eqn:E37.
  - injection H as <- <-. apply nobs_cons in Hn4. split; [tauto|]. split; [simpl in Hl4; lia|]. cbn. intros _. split; [exists d; auto|reflexivity].
  - destruct (ident_start (c4 :: s4)) eqn:Ei; [|apply Hnum; congruence]. destruct (name (c4 :: s4)) as [u r'] eqn:En. injection H as <- <-.
    destruct (name_f_out _ _ _ _ Hn4 En) as (A & B & C). split; [exact B|]. split; [lia|]. cbn [good_tok plain_token var_token]. intros [-> He]. split; [|reflexivity]. cbn [ok_v].
    split; [exact Hd|]. split; [exact A|]. split; [eapply name_f_start; [exact Hn4| |exact En|exact Ei]; lia|exact He].
Qed.
Lemma delim_good c r : delim_byte c = true -> (is 58 c || is 59 c || is 44 c)%bool = false -> good_tok (TDelim c) r.
Proof.
  intros H Hc. cbn [good_tok plain_token var_token ok_v css]. intros _. split; [exact H|]. unfold css_delim. apply Bool.orb_false_iff in Hc. destruct Hc as [Hc ->]. apply Bool.orb_false_iff in Hc. destruct Hc as [-> ->]. reflexivity.
Qed.
Lemma skip_comment_len s : nobs s -> nobs (skip_comment s) /\ length (skip_comment s) <= length s.
Proof.
  induction s as [|c s IH]; intros H; [split; [exact H|simpl; lia]|]. apply nobs_cons in H. destruct H as [_ H]. cbn [skip_comment]. destruct s as [|d s]; [split; [intros []|simpl; lia]|].
  destruct (is 42 c && is 47 d)%bool; [apply nobs_cons in H; split; [tauto|simpl; lia]|]. destruct (IH H). split; [assumption|simpl in *; lia].
Qed.
Lemma skipn_nobs n s : nobs s -> nobs (skipn n s).
Proof. intros H. rewrite <- (firstn_skipn n s) in H. apply nobs_app in H. tauto. Qed.
Lemma two_out r c o r' : nobs r -> two r c = (o, r') -> delim_byte c = true -> (is 58 c || is 59 c || is 44 c)%bool = false ->
  nobs r' /\ length r' <= length r /\ match o with Some x => good_tok x r' | None => True end.
Proof.
  intros Hr H Hd Hc. unfold two in H. destruct r as [|d r]; [injection H as <- <-; split; [exact Hr|]; split; [lia|apply delim_good; assumption]|].
  destruct (is 61 d); injection H as <- <-; [apply nobs_cons in Hr; split; [tauto|]; split; [simpl; lia|cbn; auto]|]. split; [exact Hr|]. split; [lia|apply delim_good; assumption].
Qed.
Lemma number_next_sign c r : number_next r = true -> (is 45 c || is 43 c)%bool = true -> is_digit c = true \/ (is 45 c || is 43 c)%bool = true \/ (is 46 c = true /\ digit_next r = true).
Proof. auto. Qed.
Ltac inj H := let A := fresh in let B := fresh in pose proof (f_equal fst H) as A; pose proof (f_equal snd H) as B; unfold some in A, B; cbn [fst snd] in A, B; subst; clear H.
Lemma next_token_out c r o r' : nobs (c :: r) -> next_token c r = (o, r') ->
  nobs r' /\ length r' <= length r /\ match o with Some x => good_tok x r' | None => True end.
Proof.
  intros Hs H. pose proof Hs as Hs'. apply nobs_cons in Hs'. destruct Hs' as [Hc Hr]. unfold next_token in H.
  assert (Hdel : forall k, c = ascii_of_N k -> delim_byte (ascii_of_N k) = true -> (is 58 (ascii_of_N k) || is 59 (ascii_of_N k) || is 44 (ascii_of_N k))%bool = false ->
    (o, r') = (Some (TDelim c), r) -> nobs r' /\ length r' <= length r /\ match o with Some x => good_tok x r' | None => True end).
  { intros k -> A B E. injection E as -> ->. split; [exact Hr|]. split; [lia|]. apply delim_good; assumption. }
  assert (Hplain : forall x, (o, r') = (Some x, r) -> good_tok x r -> nobs r' /\ length r' <= length r /\ match o with Some x => good_tok x r' | None => True end).
  { intros x E G. injection E as -> ->. auto. }
  destruct (is_white c) eqn:Ew; [inj H; split; [apply drop_white_nobs; exact Hr|]; split; [apply drop_white_len|exact I]|].
  destruct (is 34 c) eqn:E34; [destruct (quoted c r) as [x r0] eqn:E; inj H; destruct (quoted_out _ _ _ _ Hr E) as (A & B & C); auto|].
  destruct (is 35 c) eqn:E35.
  { apply is_code in E35. destruct (ident_start r) eqn:Ei; [destruct (name r) as [v r0] eqn:E; inj H; destruct (name_f_out _ _ _ _ Hr E) as (A & B & C); split; [exact B|]; split; [exact C|]|].
    - cbn. intros _. assert (Hv : ident_start v = true) by (eapply name_f_start; [exact Hr| |exact E|exact Ei]; lia). rewrite Hv. auto.
    - destruct (match r with [] => false | d :: _ => (is_digit d || is 45 d)%bool end) eqn:Ed; [|eapply Hdel; [exact E35|reflexivity|reflexivity|exact (eq_sym H)]].
      destruct (name r) as [v r0] eqn:E; inj H; destruct (name_f_out _ _ _ _ Hr E) as (A & B & C); split; [exact B|]; split; [exact C|].
      cbn. intros _. assert (Hh : head_like r v) by (eapply name_f_head; [exact Hr| |exact E]; lia). destruct r as [|d r]; [discriminate|].
      assert (Hvf : ident_start v = false /\ match v with [] => false | c0 :: _ => (is_digit c0 || is 45 c0)%bool end = true).
      { destruct v as [|d' v]; [exfalso; simpl in Hh; revert Ed Hh; clear; bytes d; vm_compute; congruence|]. destruct Hh as (H1 & H2 & H3). split; [|rewrite <- H1, <- H3; exact Ed].
        pose proof Hr as Hr'. apply nobs_cons in Hr'. destruct Hr' as [Hd Hr']. pose proof (clean_nobs _ A) as An. apply nobs_cons in An. destruct An as [Ad An].
        cbn [ident_start] in Ei |- *. rewrite Ad. rewrite <- H1. rewrite Hd in Ei. destruct (is 45 d) eqn:E45; [|rewrite <- H2; exact Ei].
        unfold name in E. cbn [length name_f] in E. apply is_code in E45. subst d. change (is 0 (ascii_of_N 45)) with false in E. change (name_byte (ascii_of_N 45)) with true in E. cbv iota in E.
        destruct (name_f (length r) r) as [v2 r2] eqn:E2. injection E as <- <- <-. assert (Hh2 : head_like r v2) by (eapply name_f_head; [exact Hr'| |exact E2]; lia).
        destruct v2 as [|y v2]; [reflexivity|]. destruct r as [|y' r]; [destruct Hh2|]. destruct Hh2 as (K1 & K2 & K3). apply nobs_cons in Hr'. destruct Hr' as [Hy _]. apply nobs_cons in An. destruct An as [Hy' _].
        rewrite Hy in Ei. rewrite Hy', <- K1, <- K2. exact Ei. }
      destruct Hvf as [Hvf Hvd]. rewrite Hvf. auto. }
  destruct (is 36 c) eqn:E36; [apply is_code in E36; subst c; eapply two_out; [exact Hr|exact H|reflexivity|reflexivity]|].
  destruct (is 39 c) eqn:E39; [destruct (quoted c r) as [x r0] eqn:E; inj H; destruct (quoted_out _ _ _ _ Hr E) as (A & B & C); auto|].
  destruct (is 40 c) eqn:E40; [apply (Hplain TParen); [exact (eq_sym H)|cbn; auto]|].
  destruct (is 41 c) eqn:E41; [apply (Hplain TClose); [exact (eq_sym H)|cbn; auto]|].
  destruct (is 42 c) eqn:E42; [apply is_code in E42; subst c; eapply two_out; [exact Hr|exact H|reflexivity|reflexivity]|].
  assert (Hnum : (is_digit c = true \/ ((is 45 c || is 43 c)%bool = true) \/ (is 46 c = true /\ digit_next r = true)) -> (o, r') = some (numeric (c :: r)) ->
    nobs r' /\ length r' <= length r /\ match o with Some x => good_tok x r' | None => True end).
  { intros Hcc E. destruct (numeric (c :: r)) as [x r0] eqn:En. cbn in E. injection E as -> ->. apply (numeric_out _ _ _ _ Hs Hcc En). }
  assert (Hid : ident_start (c :: r) = true -> (o, r') = some (ident_like (c :: r)) -> nobs r' /\ length r' <= length r /\ match o with Some x => good_tok x r' | None => True end).
  { intros Hi E. destruct (ident_like (c :: r)) as [x r0] eqn:En. cbn in E. injection E as -> ->. destruct (ident_like_out _ _ _ Hs Hi En) as (A & B & C). simpl in B. split; [exact A|]. split; [lia|exact C]. }
  destruct (is 43 c) eqn:E43; [destruct (number_next r) eqn:En; [apply Hnum; [right; left; apply Bool.orb_true_r|exact (eq_sym H)]|apply is_code in E43; eapply Hdel; [exact E43|reflexivity|reflexivity|exact (eq_sym H)]]|].
  destruct (is 44 c) eqn:E44; [apply (Hplain TComma); [exact (eq_sym H)|cbn; auto]|].
  destruct (is 45 c) eqn:E45.
  { destruct (number_next r) eqn:En; [apply Hnum; [right; left; reflexivity|exact (eq_sym H)]|]. destruct (starts "->" r).
    - inj H. split; [apply skipn_nobs; exact Hr|]. split; [rewrite skipn_length; lia|cbn; auto].
    - destruct (ident_start (c :: r)) eqn:Ei; [apply Hid; [reflexivity|exact (eq_sym H)]|]. apply is_code in E45. eapply Hdel; [exact E45|reflexivity|reflexivity|exact (eq_sym H)]. }
  destruct (is 46 c) eqn:E46; [destruct (digit_next r) eqn:En; [apply Hnum; [right; right; auto|exact (eq_sym H)]|apply is_code in E46; eapply Hdel; [exact E46|reflexivity|reflexivity|exact (eq_sym H)]]|].
  destruct (is 47 c) eqn:E47.
  { destruct (starts "*" r); [inj H; pose proof (skipn_nobs 1 r Hr) as Hsk; destruct (skip_comment_len _ Hsk) as [A B]; rewrite skipn_length in B; split; [exact A|]; split; [lia|exact I]|].
    apply is_code in E47. eapply Hdel; [exact E47|reflexivity|reflexivity|exact (eq_sym H)]. }
  destruct (is_digit c) eqn:Edg; [apply Hnum; [left; reflexivity|exact (eq_sym H)]|].
  destruct (is 58 c) eqn:E58; [apply (Hplain TColon); [exact (eq_sym H)|cbn; auto]|].
  destruct (is 59 c) eqn:E59; [apply (Hplain TSemicolon); [exact (eq_sym H)|cbn; auto]|].
  destruct (is 60 c) eqn:E60.
  { destruct (starts "!--" r); [inj H; split; [apply skipn_nobs; exact Hr|]; split; [rewrite skipn_length; lia|cbn; auto]|]. apply is_code in E60. eapply Hdel; [exact E60|reflexivity|reflexivity|exact (eq_sym H)]. }
  destruct (is 64 c) eqn:E64.
  { destruct (ident_start r); [destruct (name r) as [v r0] eqn:E; inj H; destruct (name_f_out _ _ _ _ Hr E) as (A & B & C); split; [exact B|]; split; [exact C|cbn; auto]|].
    apply is_code in E64. eapply Hdel; [exact E64|reflexivity|reflexivity|exact (eq_sym H)]. }
  destruct (is 91 c) eqn:E91; [apply (Hplain TSquare); [exact (eq_sym H)|cbn; auto]|]. rewrite Hc in H.
  destruct (is 93 c) eqn:E93; [apply (Hplain TCloseSquare); [exact (eq_sym H)|cbn; auto]|].
  destruct (is 94 c) eqn:E94; [apply is_code in E94; subst c; eapply two_out; [exact Hr|exact H|reflexivity|reflexivity]|].
  destruct (is 123 c) eqn:E123; [apply (Hplain TCurly); [exact (eq_sym H)|cbn; auto]|].
  destruct (is 124 c) eqn:E124; [apply is_code in E124; subst c; eapply two_out; [exact Hr|exact H|reflexivity|reflexivity]|].
  destruct (is 125 c) eqn:E125; [apply (Hplain TCloseCurly); [exact (eq_sym H)|cbn; auto]|].
  destruct (is 126 c) eqn:E126; [apply is_code in E126; subst c; eapply two_out; [exact Hr|exact H|reflexivity|reflexivity]|].
  destruct (name_start c) eqn:Ens; [apply Hid; [cbn [ident_start]; rewrite E45, Hc; exact Ens|exact (eq_sym H)]|].
  apply (Hplain (TDelim c)); [exact (eq_sym H)|]. apply delim_good; [|rewrite E58, E59, E44; reflexivity].
  unfold delim_byte. rewrite Ew, E34, E39, Edg, Ens, Hc, E40, E41, E91, E93, E123, E125. reflexivity.
Qed.

(** ** The tokens of a plain text *)
Definition tok_ok (x : tok) : Prop :=
  match x with
  | TFunction s => Forall clean s /\ ident_start s = true
  | _ => match var_token x with Some v => ok_v v /\ css v = x | None => True end
  end.
Fixpoint url_toks (l : list tok) : Prop :=
  match l with
  | [] => True
  | x :: r => match x with TFunction s => same_name s (tx "url") = true -> exists r', (exists z, r = TString z :: r') \/ r = TBadString :: r' | _ => True end /\ url_toks r
  end.
Lemma white_split c : is_white c = true \/ is_white c = false.
Proof. destruct (is_white c); auto. Qed.
Lemma url_tokens n : forall r, url_next r -> length r <= n -> exists l, (exists z, tokens_f n r = TString z :: l) \/ tokens_f n r = TBadString :: l.
Proof.
  assert (Hq : forall n q w, (is 34 q || is 39 q)%bool = true -> exists l, (exists z, tokens_f (S n) (q :: w) = TString z :: l) \/ tokens_f (S n) (q :: w) = TBadString :: l).
  { intros n0 q w H. assert (E : next_token q w = some (quoted q w)) by (apply Bool.orb_prop in H; destruct H as [H|H]; apply is_code in H; subst q; reflexivity).
    cbn [tokens_f]. rewrite E. unfold quoted. destruct (quoted_f (length w) q w) as [[z|] r0]; cbn [some fst snd]; eexists; [left; eexists|right]; reflexivity. }
  intros r (q & w & Hd & Hqq) Hn. destruct n as [|n]; [destruct r; [discriminate|simpl in Hn; lia]|].
  destruct r as [|c r]; [discriminate|]. cbn [drop_white] in Hd. destruct (is_white c) eqn:Ew.
  - cbn [tokens_f]. unfold next_token. rewrite Ew. rewrite Hd. pose proof (drop_white_len r) as Hl. rewrite Hd in Hl. destruct n as [|n]; [simpl in *; lia|]. apply Hq. exact Hqq.
  - injection Hd as -> ->. apply Hq. exact Hqq.
Qed.
Lemma tokens_f_ok n : forall s, nobs s -> length s <= n -> Forall plain_token (tokens_f n s) -> Forall tok_ok (tokens_f n s) /\ url_toks (tokens_f n s).
Proof.
  induction n as [|n IH]; intros s Hs Hn Hp; [split; [constructor|exact I]|]. destruct s as [|c s]; [split; [constructor|exact I]|].
  cbn [tokens_f] in *. destruct (next_token c s) as [o r] eqn:E. destruct (next_token_out _ _ _ _ Hs E) as (A & B & C). simpl in Hn.
  destruct o as [x|]; [|apply IH; [exact A|lia|exact Hp]]. inversion Hp as [|? ? Hx Hp']; subst. destruct (IH r A) as [D F]; [lia|exact Hp'|].
  split; [constructor; [|exact D]|cbn [url_toks]; split; [|exact F]].
  - destruct x; cbn [good_tok tok_ok] in *; try exact (C Hx). tauto.
  - destruct x as [ |s0| | | | | | | | | | | | | | | | | | | | | |]; auto. destruct C as (_ & _ & C). intros Eu. apply url_tokens; [auto|lia].
Qed.
Lemma plain_tokens s : plain s -> Forall tok_ok (tokens s) /\ url_toks (tokens s).
Proof. intros [H1 H2]. apply tokens_f_ok; [exact H1|lia|exact H2]. Qed.
