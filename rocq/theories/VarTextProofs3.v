From Coq Require Import Ascii String NArith ZArith Lia.
From Verif Require Import Base Vars VarsSpec VarText VarTextSpec VarTextProofs VarTextProofs2.
Open Scope nat_scope.

(** ** Printed tokens are read back *)
Definition delim_byte (c : ascii) : bool :=
  negb (is_white c || is 34 c || is 39 c || is_digit c || name_start c || is 92 c || is 40 c || is 41 c || is 91 c || is 93 c || is 123 c || is 125 c).
Definition string_byte (c : ascii) : bool := negb (is 34 c || is 92 c || is_newline c || is 0 c).
Definition ok_v (v : vtok) : Prop :=
  match v with
  | VIdent s | VFunction s => Forall clean s /\ ident_start s = true
  | VHash s => Forall clean s /\ (ident_start s = true \/ match s with c :: _ => is_digit c || is 45 c | [] => false end = true)%bool
  | VString s => Forall (fun c => string_byte c = true) s
  | VDelim c => delim_byte c = true
  | VNumber d => canonical d
  | VPercent d => exists d0, canonical d0 /\ d = div100 d0
  | VDim d u => canonical d /\ Forall clean u /\ ident_start u = true /\ exponent_like u = false
  | VEnd => True
  end.
Definition css_delim (c : ascii) : tok := if is 58 c then TColon else if is 59 c then TSemicolon else if is 44 c then TComma else TDelim c.
Definition css (v : vtok) : tok :=
  match v with
  | VIdent s => TIdent s | VFunction s => TFunction s | VHash s => if ident_start s then TIdHash s else THash s
  | VString s => TString s | VDelim c => css_delim c | VNumber d => TNumber d (Nat.eqb (scale d) 0) | VPercent d => TPercent d
  | VDim d u => TDim d (Nat.eqb (scale d) 0) u | VEnd => TClose
  end.
(** what has to follow a token: a space or the end, and a string behind url( *)
Definition follows (v : vtok) (r : text) : Prop :=
  space r /\ match v with VFunction s => same_name s (tx "url") = true -> exists r', r = " "%char :: """"%char :: r' | _ => True end.

Lemma quoted_f_ok q s r : Forall (fun c => string_byte c = true) s -> q = """"%char -> forall n, length s < n -> quoted_f n q (s ++ q :: r) = (Some s, r).
Proof.
  intros H ->. induction H as [|c s Hc Hs IH]; intros n Hn; (destruct n as [|n]; [simpl in Hn; lia|]).
  - cbn [app quoted_f]. rewrite Ascii.eqb_refl. reflexivity.
  - cbn [app quoted_f]. rewrite IH by (simpl in Hn; lia). unfold string_byte in Hc. apply Bool.negb_true_iff in Hc.
    apply Bool.orb_false_iff in Hc. destruct Hc as [Hc H0]. apply Bool.orb_false_iff in Hc. destruct Hc as [Hc Hnl]. apply Bool.orb_false_iff in Hc. destruct Hc as [H34 H92].
    rewrite Hnl, H92, H0. destruct (Ascii.eqb_spec c """") as [->|]; [discriminate H34|]. reflexivity.
Qed.
Lemma quoted_ok s r : Forall (fun c => string_byte c = true) s -> quoted """"%char (s ++ """"%char :: r) = (TString s, r).
Proof. intros H. unfold quoted. rewrite quoted_f_ok; [reflexivity|exact H|reflexivity|]. rewrite app_length. simpl. lia. Qed.
Ltac chain c tac :=
  repeat match goal with
  | |- context [if is ?k c then _ else _] =>
      let E := fresh "E" in destruct (is k c) eqn:E; [solve [apply is_code in E; subst c; tac] |]
  end.
Lemma delim_facts c : delim_byte c = true -> is_white c = false /\ is_digit c = false /\ name_start c = false.
Proof. bytes c; vm_compute; intros; (discriminate || (repeat split)). Qed.
Lemma delim_next c r : delim_byte c = true -> space r -> next_token c r = (Some (css_delim c), r).
Proof.
  intros H Hr. destruct (delim_facts c H) as (A & B & C). unfold next_token. rewrite A, B, C. unfold css_delim.
  chain c ltac:(first [discriminate H | destruct Hr as [-> | [r' ->]]; reflexivity]). reflexivity.
Qed.
Lemma starts_space r : space r -> starts "->" r = false.
Proof. intros [->|[r' ->]]; [reflexivity|]. unfold starts. simpl. destruct r'; reflexivity. Qed.
(** names at the front: the dispatch of the first byte *)
Lemma next_ident s r : Forall clean s -> ident_start s = true -> stop r -> (match r with c :: _ => is 62 c = false | [] => True end) -> forall c w, s = c :: w -> next_token c (w ++ r) = some (ident_like (s ++ r)).
Proof.
  intros Hs Hi Hr Hgt c w ->. assert (Hn : nobs (c :: w)) by (apply clean_nobs; exact Hs). apply nobs_cons in Hn. destruct Hn as [Hc Hn].
  cbn [ident_start] in Hi. rewrite Hc in Hi. destruct (is 45 c) eqn:E45.
  - apply is_code in E45. subst c. destruct w as [|d w]; [discriminate|]. apply nobs_cons in Hn. destruct Hn as [Hd Hn]. rewrite Hd in Hi. simpl in Hi. rewrite Bool.orb_false_r in Hi.
    assert (E1 : number_next ((d :: w) ++ r) = false).
    { unfold number_next. cbn [app digit_next]. assert (Hdd : is_digit d = false /\ is 46 d = false) by (revert Hi; clear; bytes d; vm_compute; intros; (discriminate || (split; reflexivity))).
      destruct Hdd as [-> ->]. reflexivity. }
    assert (E2 : starts "->" ((d :: w) ++ r) = false).
    { unfold starts. cbn [String.length app firstn]. destruct (list_eq_dec ascii_dec _ _) as [E|]; [|reflexivity]. exfalso. cbn [tx list_ascii_of_string] in E. injection E as Ed Ew.
      destruct w as [|x w]; [destruct r as [|x r]; [discriminate|]; simpl in Ew; injection Ew as ->; discriminate Hgt|]. simpl in Ew. injection Ew as ->.
      inversion Hs as [|? ? _ Hs']; subst. inversion Hs' as [|? ? _ Hs'']; subst. inversion Hs'' as [|? ? [Hx _] _]; subst. discriminate Hx. }
    assert (E3 : ident_start (ascii_of_N 45 :: (d :: w) ++ r) = true) by (cbn [app ident_start]; change (is 45 (ascii_of_N 45)) with true; rewrite Hd, Hi; reflexivity).
    unfold next_token. rewrite E1, E2, E3. reflexivity.
  - cbn [app]. generalize (w ++ r). intros z. assert (A : is_white c = false /\ is_digit c = false) by (revert Hi; clear; bytes c; vm_compute; intros; (discriminate || (split; reflexivity))).
    destruct A as [A B]. unfold next_token. rewrite A, B, Hi. chain c ltac:(discriminate Hi). reflexivity.
Qed.
Lemma stop_space r : space r -> stop r /\ match r with c :: _ => is 62 c = false | [] => True end.
Proof. intros H. split; [apply space_stop; exact H|]. destruct H as [->|[r' ->]]; [exact I|reflexivity]. Qed.
Lemma dig_next c r : dig c -> next_token c r = some (numeric (c :: r)).
Proof.
  unfold dig. intros H. assert (A : is_white c = false) by (revert H; clear; bytes c; vm_compute; congruence). unfold next_token. rewrite A, H.
  chain c ltac:(discriminate H). reflexivity.
Qed.
Lemma show_dec_next d r : exists c w, show_dec d = c :: w /\ next_token c (w ++ r) = some (numeric (show_dec d ++ r)).
Proof.
  destruct (show_dec_spec d) as (ds1 & ds2 & -> & A & B & C & D & E). destruct ds1 as [|x ds1]; [congruence|]. apply Forall_inv in A.
  destruct (Z.ltb (mant d) 0).
  - cbn [tx list_ascii_of_string app]. do 2 eexists. split; [reflexivity|]. cbn [app]. unfold next_token at 1.
    assert (Hn : number_next (x :: (ds1 ++ (if Nat.eqb (scale d) 0 then [] else "."%char :: ds2)) ++ r) = true) by (unfold number_next; cbn [digit_next]; rewrite A; reflexivity).
    rewrite Hn. reflexivity.
  - cbn [app]. do 2 eexists. split; [reflexivity|]. apply dig_next. exact A.
Qed.
Lemma finish_space d i r : space r -> finish d i r = (TNumber d i, r).
Proof. intros [->|[r' ->]]; reflexivity. Qed.
Lemma show_next v r : ok_v v -> follows v r -> exists c w, show v = c :: w /\ next_token c (w ++ r) = (Some (css v), r).
Proof.
  intros Hv [Hr Hu]. destruct (stop_space r Hr) as [Hst Hgt]. destruct v as [s|s|s|c|d|d|d u|s|]; cbn [ok_v show css] in *.
  - destruct Hv as [Hv Hi]. destruct s as [|c w]; [discriminate|]. exists c, w. split; [reflexivity|]. rewrite (next_ident (c :: w) r) with (c := c) (w := w) by auto.
    unfold ident_like. rewrite name_clean by assumption. destruct Hr as [->|[r' ->]]; reflexivity.
  - destruct Hv as [Hv Hi]. exists "#"%char, s. split; [reflexivity|]. unfold next_token.
    change (is_white "#") with false. change (is 34 "#") with false. change (is 35 "#") with true. cbv iota. rewrite name_clean by assumption.
    destruct (ident_start s) eqn:Es.
    + rewrite ident_start_app by (auto using clean_nobs). reflexivity.
    + destruct Hi as [Hi|Hi]; [discriminate|]. destruct s as [|c s]; [discriminate|]. cbn [app].
      assert (E : ident_start (c :: s ++ r) = false).
      { cbn [ident_start] in Es |- *. inversion Hv as [|? ? [Hc _] Hv']; subst. destruct (is 45 c) eqn:E45; [|destruct (is 92 c) eqn:E92; [apply is_code in E92; subst c; discriminate Hc|exact Es]].
        destruct s as [|x s]; [cbn [app]; destruct Hr as [->|[r' ->]]; reflexivity|]. inversion Hv' as [|? ? [Hx _] _]; subst. cbn [app].
        destruct (is 92 x) eqn:E92; [apply is_code in E92; subst x; discriminate Hx|]. exact Es. }
      rewrite E, Hi. reflexivity.
  - exists """"%char, (s ++ tx """"). split; [reflexivity|]. unfold next_token. change (is_white """") with false. change (is 34 """") with true. cbv iota.
    rewrite <- app_assoc. cbn [tx list_ascii_of_string app]. rewrite quoted_ok by exact Hv. reflexivity.
  - exists c, []. split; [reflexivity|]. apply delim_next; assumption.
  - destruct (show_dec_next d r) as (c & w & E & Hn). exists c, w. split; [exact E|]. rewrite Hn, numeric_show by (auto using space_after). rewrite finish_space by exact Hr. reflexivity.
  - destruct Hv as (d0 & Hd & ->). rewrite percent_trip by exact Hd. destruct (show_dec_next d0 (tx "%" ++ r)) as (c & w & E & Hn). exists c, (w ++ tx "%"). rewrite E. split; [reflexivity|].
    rewrite <- app_assoc, Hn, numeric_show by (assumption || apply percent_after). reflexivity.
  - destruct Hv as (Hd & Hcl & Hi & He). destruct (show_dec_next d (u ++ r)) as (c & w & E & Hn). exists c, (w ++ u). rewrite E. split; [reflexivity|].
    rewrite <- app_assoc, Hn, numeric_show by (assumption || (apply unit_after; assumption)). unfold finish. assert (Hia : ident_start (u ++ r) = true) by (apply ident_start_app; auto using clean_nobs).
    rewrite name_clean by assumption. rewrite Hia. destruct u as [|x u]; [discriminate|]. cbn [app].
    assert (E37 : is 37 x = false). { destruct (is 37 x) eqn:E37; [|reflexivity]. apply is_code in E37. subst x. inversion Hcl as [|? ? [Hx _] _]; subst. discriminate Hx. }
    rewrite E37. reflexivity.
  - destruct Hv as [Hv Hi]. destruct s as [|c w]; [discriminate|]. exists c, (w ++ tx "("). split; [reflexivity|]. rewrite <- app_assoc.
    rewrite (next_ident (c :: w) (tx "(" ++ r)) with (c := c) (w := w); try assumption; try reflexivity; try (split; [reflexivity|discriminate]).
    unfold ident_like. rewrite name_clean by (assumption || (split; [reflexivity|discriminate])). cbn [tx list_ascii_of_string app]. change (is 40 "(") with true. cbv iota.
    destruct (same_name (c :: w) (tx "url")) eqn:Eu.
    + cbn [tx list_ascii_of_string] in Eu. rewrite Eu. destruct (Hu eq_refl) as [r' ->]. reflexivity.
    + cbn [tx list_ascii_of_string] in Eu. rewrite Eu. reflexivity.
  - exists ")"%char, []. split; reflexivity.
Qed.

(** ** Fuel *)
Lemma drop_white_len s : length (drop_white s) <= length s.
Proof. induction s as [|c s IH]; simpl; [lia|]. destruct (is_white c); simpl; lia. Qed.
Lemma tokens_f_white n s : length (" "%char :: s) <= n -> tokens_f n (" "%char :: s) = tokens_f (pred n) (drop_white s).
Proof. intros H. destruct n as [|n]; [simpl in H; lia|]. reflexivity. Qed.
Fixpoint url_ok (l : list vtok) : Prop :=
  match l with
  | [] => True
  | v :: r => match v with VFunction s => same_name s (tx "url") = true -> exists z r', r = VString z :: r' | _ => True end /\ url_ok r
  end.
Lemma show_no_white v r : ok_v v -> exists c w, show v = c :: w /\ is_white c = false /\ drop_white (show v ++ r) = show v ++ r.
Proof.
  intros Hv. assert (H : exists c w, show v = c :: w /\ is_white c = false).
  { assert (Hst : forall c w, ident_start (c :: w) = true -> Forall clean (c :: w) -> is_white c = false).
    { intros c w _ H. apply Forall_inv in H. destruct H as [H _]. revert H. clear. bytes c; vm_compute; congruence. }
    destruct v as [s|s|s|c|d|d|d u|s|]; cbn [ok_v show] in *.
    - destruct Hv as [Hv Hi]. destruct s as [|c w]; [discriminate|]. eauto.
    - do 2 eexists. split; reflexivity.
    - do 2 eexists. split; reflexivity.
    - exists c, []. split; [reflexivity|]. revert Hv. clear. bytes c; vm_compute; congruence.
    - destruct (show_dec_spec d) as (ds1 & ds2 & -> & A & _ & C & _). destruct ds1 as [|x ds1]; [congruence|]. apply Forall_inv in A. destruct (digit_props x A) as (_ & _ & _ & _ & W).
      destruct (Z.ltb (mant d) 0); cbn [tx list_ascii_of_string app]; do 2 eexists; (split; [reflexivity|]); [reflexivity|exact W].
    - destruct (show_dec_spec (mul100 d)) as (ds1 & ds2 & -> & A & _ & C & _). destruct ds1 as [|x ds1]; [congruence|]. apply Forall_inv in A. destruct (digit_props x A) as (_ & _ & _ & _ & W).
      destruct (Z.ltb (mant (mul100 d)) 0); cbn [tx list_ascii_of_string app]; do 2 eexists; (split; [reflexivity|]); [reflexivity|exact W].
    - destruct (show_dec_spec d) as (ds1 & ds2 & -> & A & _ & C & _). destruct ds1 as [|x ds1]; [congruence|]. apply Forall_inv in A. destruct (digit_props x A) as (_ & _ & _ & _ & W).
      destruct (Z.ltb (mant d) 0); cbn [tx list_ascii_of_string app]; do 2 eexists; (split; [reflexivity|]); [reflexivity|exact W].
    - destruct Hv as [Hv Hi]. destruct s as [|c w]; [discriminate|]. cbn [app]. eauto.
    - do 2 eexists. split; reflexivity. }
  destruct H as (c & w & E & W). exists c, w. split; [exact E|]. split; [exact W|]. rewrite E. cbn [app drop_white]. rewrite W. reflexivity.
Qed.
Lemma tokens_print_f l : Forall ok_v l -> url_ok l -> forall n, length (to_css l) <= n -> tokens_f n (to_css l) = map css l.
Proof.
  induction l as [|v l IH]; intros Hl Hu n Hn; [destruct n; reflexivity|]. inversion Hl as [|? ? Hv Hl']; subst. destruct Hu as [Hu Hu'].
  destruct l as [|v' l].
  - cbn [to_css map] in *. destruct (show_next v []) as (c & w & E & Hx); [exact Hv| |].
    { split; [left; reflexivity|]. destruct v; auto. intros Es. destruct (Hu Es) as (z & r' & Hz). discriminate. }
    rewrite E in *. destruct n as [|n]; [simpl in Hn; lia|]. rewrite app_nil_r in Hx. cbn [tokens_f]. rewrite Hx. destruct n; reflexivity.
  - change (to_css (v :: v' :: l)) with (show v ++ " "%char :: to_css (v' :: l)) in *. change (map css (v :: v' :: l)) with (css v :: map css (v' :: l)).
    assert (Hd : drop_white (to_css (v' :: l)) = to_css (v' :: l)).
    { inversion Hl' as [|? ? Hv' _]; subst. destruct l as [|v2 l]; [destruct (show_no_white v' [] Hv') as (_ & _ & _ & _ & Hd); rewrite app_nil_r in Hd; exact Hd|].
      destruct (show_no_white v' (" "%char :: to_css (v2 :: l)) Hv') as (_ & _ & _ & _ & Hd). exact Hd. }
    destruct (show_next v (" "%char :: to_css (v' :: l))) as (c & w & E & Hx); [exact Hv| |].
    { split; [right; eexists; reflexivity|]. destruct v; auto. intros Es. destruct (Hu Es) as (z & r' & Hz). injection Hz as -> ->. destruct r'; cbn [to_css show app]; eexists; reflexivity. }
    rewrite E in *. destruct n as [|n]; [simpl in Hn; lia|]. cbn [app tokens_f]. rewrite Hx. f_equal. cbn [app length] in Hn. rewrite app_length in Hn. cbn [length] in Hn.
    rewrite tokens_f_white by (cbn [length]; lia). rewrite Hd. apply IH; [exact Hl'|exact Hu'|lia].
Qed.
Lemma tokens_print l : Forall ok_v l -> url_ok l -> tokens (to_css l) = map css l.
Proof. intros Hl Hu. apply tokens_print_f; auto. Qed.
