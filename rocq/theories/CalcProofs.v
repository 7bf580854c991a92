(** Proofs about `calc()` for any value type. *)
From Coq Require Import QArith Qround Lqa.
From Verif Require Import Base Calc CalcSpec.

Scheme item_ind' := Induction for is_item Sort Prop with product_ind' := Induction for is_product Sort Prop with sum_ind' := Induction for is_sum Sort Prop.
Combined Scheme grammar_ind from item_ind', product_ind', sum_ind'.

Lemma sizes_app (a b : list tok) : sizes (a ++ b) = (sizes a + sizes b)%nat.
Proof. induction a as [|t a IH]; [reflexivity|]. cbn. fold (sizes (a ++ b)). fold (sizes a). rewrite IH. lia. Qed.
Lemma sizes_cons t a : sizes (t :: a) = (size t + sizes a)%nat.
Proof. reflexivity. Qed.
Lemma size_pos t : (1 <= size t)%nat.
Proof. destruct t; cbn; lia. Qed.
Lemma size_block l : size (Paren l) = S (sizes l) /\ size (CalcFn l) = S (sizes l).
Proof. split; reflexivity. Qed.

(** [fac e q e']: e' is e followed by multiplications and divisions whose product is q *)
Inductive fac (e : expr) : Q -> expr -> Prop :=
| fac_one : fac e 1 e
| fac_mul q e' k : fac e q e' -> fac e (q * k) (EMul e' k)
| fac_div q e' k : fac e q e' -> fac e (q / k) (EDiv e' k).

Section P.
  Context {T : Type}.
  Variable value : leaf -> option T.
  Notation ast := (ast T).
  Notation parse_item := (parse_item value). Notation parse_product := (parse_product value).
  Notation parse_sum := (parse_sum value). Notation sum_loop := (sum_loop value).
  Let is_value (x : leaf) := exists t, value x = Some t.

  Lemma item_eq f ts : parse_item (S f) ts = match ts with
        | Paren l :: r | CalcFn l :: r => bind (parse_sum f l) (fun a => Ok (a, r))
        | Leaf x :: r => match value x with Some t => Ok (Value t, r) | None => Err end
        | _ => Err
        end.
  Proof. reflexivity. Qed.
  Lemma product_eq f ts : parse_product (S f) ts = bind (parse_item f ts) (fun '(lhs, r) =>
          match r with
          | [] => Ok (lhs, [])
          | _ => bind (factors 1 r) (fun '(q, r) => Ok (Mul lhs q, r))
          end).
  Proof. reflexivity. Qed.
  Lemma sum_eq f ts : parse_sum (S f) ts = bind (parse_product f ts) (fun '(a, r) => sum_loop f [(true, a)] r).
  Proof. reflexivity. Qed.
  Lemma loop_eq f operands ts : sum_loop (S f) operands ts = match ts with
        | [] => Ok (Sum operands)
        | t :: r => bind (parse_product f r) (fun '(a, r) =>
            match t with
            | Plus => sum_loop f (operands ++ [(true, a)]) r
            | Minus => sum_loop f (operands ++ [(false, a)]) r
            | _ => Panic
            end)
        end.
  Proof. reflexivity. Qed.

  (** which syntax tree stands for which expression *)
  Inductive arep : ast -> expr -> Prop :=
  | arep_value x t : value x = Some t -> arep (Value t) (ELeaf x)
  | arep_mul a e q e' : arep a e -> fac e q e' -> arep (Mul a q) e'
  | arep_sum l e : srep l e -> arep (Sum l) e
  with srep : list (bool * ast) -> expr -> Prop :=
  | srep_first a e : arep a e -> srep [(true, a)] e
  | srep_plus l e a e' : srep l e -> arep a e' -> srep (l ++ [(true, a)]) (EAdd e e')
  | srep_minus l e a e' : srep l e -> arep a e' -> srep (l ++ [(false, a)]) (ESub e e').

  (** *** The parser accepts every expression *)
  Definition no_factor (r : list tok) : Prop := match r with Star :: _ | Slash :: _ => False | _ => True end.
  Definition item_done (ts : list tok) (e : expr) : Prop :=
    ts <> [] /\ exists a, arep a e /\ forall r f, (4 * sizes ts + 1 <= f)%nat -> parse_item f (ts ++ r) = Ok (a, r).
  Definition product_done (ts : list tok) (e : expr) : Prop :=
    exists ts0 fs e0 q, ts = ts0 ++ fs /\ item_done ts0 e0 /\ fac e0 q e /\ (forall r, factors 1 (fs ++ r) = factors q r) /\ (fs = [] -> q = 1 /\ e = e0).
  Definition sum_done (ts : list tok) (e : expr) : Prop :=
    forall r, match r with [] | Plus :: _ | Minus :: _ => True | _ => False end ->
    exists ops, srep ops e /\ forall f, (4 * sizes (ts ++ r) + 3 <= f)%nat ->
      exists f', (4 * sizes r + 3 <= f')%nat /\ parse_sum f (ts ++ r) = sum_loop f' ops r.

  Lemma product_parses ts e : product_done ts e -> forall r, no_factor r ->
    exists a, arep a e /\ forall f, (4 * sizes (ts ++ r) + 2 <= f)%nat -> parse_product f (ts ++ r) = Ok (a, r).
  Proof.
    intros (ts0 & fs & e0 & q & -> & (_ & a & Ha & Hp) & Hf & Hq & Hn) r Hr.
    destruct (fs ++ r) as [|t rest] eqn:E.
    - destruct fs; [|discriminate]. cbn in E. subst r. destruct (Hn eq_refl) as [-> ->]. exists a. split; [exact Ha|].
      intros [|f] L; [lia|]. rewrite product_eq. rewrite !sizes_app in L. rewrite <- app_assoc. cbn [app]. rewrite Hp by lia. reflexivity.
    - exists (Mul a q). split; [econstructor; eassumption|]. intros [|f] L; [lia|]. rewrite product_eq. rewrite !sizes_app in L. rewrite <- app_assoc.
      rewrite Hp by lia. cbn [bind]. rewrite E, <- E, Hq. assert (G : factors q r = Ok (q, r)) by (destruct r as [|[] r]; cbn in *; tauto). rewrite G. reflexivity.
  Qed.

  Lemma grammar_done : (forall ts e, is_item is_value ts e -> item_done ts e) /\ (forall ts e, is_product is_value ts e -> product_done ts e) /\
    (forall ts e, is_sum is_value ts e -> sum_done ts e).
  Proof.
    apply grammar_ind.
    - intros x [t Ht]. split; [discriminate|]. exists (Value t). split; [constructor; exact Ht|]. intros r [|f] L; [lia|]. cbn. rewrite Ht. reflexivity.
    - intros l e _ IH. split; [discriminate|]. destruct (IH [] I) as (ops & Ho & Hp). exists (Sum ops). split; [constructor; exact Ho|].
      intros r [|f] L; [lia|]. cbn [app]. rewrite item_eq. rewrite app_nil_r in Hp. rewrite sizes_cons, (proj1 (size_block l)) in L. cbn [sizes fold_right] in L.
      destruct (Hp f) as (f' & L' & ->); [lia|]. destruct f'; [lia|]. reflexivity.
    - intros l e _ IH. split; [discriminate|]. destruct (IH [] I) as (ops & Ho & Hp). exists (Sum ops). split; [constructor; exact Ho|].
      intros r [|f] L; [lia|]. cbn [app]. rewrite item_eq. rewrite app_nil_r in Hp. rewrite sizes_cons, (proj2 (size_block l)) in L. cbn [sizes fold_right] in L.
      destruct (Hp f) as (f' & L' & ->); [lia|]. destruct f'; [lia|]. reflexivity.
    - intros ts e _ IH. exists ts, [], e, 1. rewrite app_nil_r. repeat split; auto; try apply IH. constructor.
    - intros ts e k _ (ts0 & fs & e0 & q & -> & Hi & Hf & Hq & _). exists ts0, (fs ++ [Star; Leaf (LNumber k)]), e0, (q * k).
      split; [rewrite app_assoc; reflexivity|]. split; [exact Hi|]. split; [constructor; exact Hf|]. split; [intros r; rewrite <- app_assoc, Hq; reflexivity|]. intros G. destruct fs; discriminate.
    - intros ts e k _ (ts0 & fs & e0 & q & -> & Hi & Hf & Hq & _). exists ts0, (fs ++ [Slash; Leaf (LNumber k)]), e0, (q / k).
      split; [rewrite app_assoc; reflexivity|]. split; [exact Hi|]. split; [constructor; exact Hf|]. split; [intros r; rewrite <- app_assoc, Hq; reflexivity|]. intros G. destruct fs; discriminate.
    - intros ts e _ IH r Hr. destruct (product_parses ts e IH r) as (a & Ha & Hp); [destruct r as [|[] r]; cbn; tauto|].
      exists [(true, a)]. split; [constructor; exact Ha|]. intros [|f] L; [lia|]. rewrite sum_eq. rewrite Hp by lia. cbn [bind]. exists f. split; [|reflexivity].
      rewrite sizes_app in L. destruct IH as (ts0 & fs & e0 & q & -> & (N & _) & _). destruct ts0 as [|t ts0]; [contradiction|]. rewrite sizes_app, sizes_cons in L. pose proof (size_pos t). lia.
    - intros ts us a b _ IHs _ IHp r Hr. destruct (product_parses us b IHp r) as (x & Hx & Hp); [destruct r as [|[] r]; cbn; tauto|].
      destruct (IHs (Plus :: us ++ r) I) as (ops & Ho & Hs). exists (ops ++ [(true, x)]). split; [constructor; assumption|]. intros f L.
      rewrite <- app_assoc in L |- *. cbn [app] in L |- *. destruct (Hs f L) as (f' & L' & ->). destruct f' as [|f']; [lia|]. rewrite loop_eq.
      rewrite sizes_cons in L'. cbn [size] in L'. rewrite Hp by lia. cbn [bind]. exists f'. split; [|reflexivity]. rewrite sizes_app in L'. lia.
    - intros ts us a b _ IHs _ IHp r Hr. destruct (product_parses us b IHp r) as (x & Hx & Hp); [destruct r as [|[] r]; cbn; tauto|].
      destruct (IHs (Minus :: us ++ r) I) as (ops & Ho & Hs). exists (ops ++ [(false, x)]). split; [constructor; assumption|]. intros f L.
      rewrite <- app_assoc in L |- *. cbn [app] in L |- *. destruct (Hs f L) as (f' & L' & ->). destruct f' as [|f']; [lia|]. rewrite loop_eq.
      rewrite sizes_cons in L'. cbn [size] in L'. rewrite Hp by lia. cbn [bind]. exists f'. split; [|reflexivity]. rewrite sizes_app in L'. lia.
  Qed.
  Lemma sum_accepted l e : is_sum is_value l e -> exists a, arep a e /\ parse_sum (enough l) l = Ok a.
  Proof.
    intros H. destruct (proj2 (proj2 grammar_done) l e H [] I) as (ops & Ho & Hp). exists (Sum ops). split; [constructor; exact Ho|].
    rewrite app_nil_r in Hp. destruct (Hp (enough l)) as (f' & L & ->); [unfold enough; lia|]. destruct f'; [lia|reflexivity].
  Qed.

  (** *** and nothing else *)
  Lemma factors_sound ts : forall e0 q pre e r q', is_product is_value pre e -> fac e0 q e -> factors q ts = Ok (q', r) ->
    exists fs e', ts = fs ++ r /\ is_product is_value (pre ++ fs) e' /\ fac e0 q' e'.
  Proof.
    assert (G : forall n ts, (length ts <= n)%nat -> forall e0 q pre e r q', is_product is_value pre e -> fac e0 q e -> factors q ts = Ok (q', r) ->
      exists fs e', ts = fs ++ r /\ is_product is_value (pre ++ fs) e' /\ fac e0 q' e').
    { clear ts. induction n as [|n IH]; intros ts L e0 q pre e r q' Hp Hf H.
      - destruct ts; [|cbn in L; lia]. injection H as <- <-. exists [], e. rewrite (app_nil_r pre). auto.
      - assert (D : factors q ts = Ok (q, ts) -> exists fs e', ts = fs ++ r /\ is_product is_value (pre ++ fs) e' /\ fac e0 q' e').
        { intros D. rewrite D in H. injection H as <- <-. exists [], e. rewrite (app_nil_r pre). auto. }
        destruct ts as [|t ts]; [apply D; reflexivity|]. cbn in L. destruct t; try (apply D; reflexivity).
        + cbn [factors] in H. destruct ts as [|[x| | | | | |] ts]; try discriminate. destruct x; try discriminate. cbn [number] in H.
          destruct (IH ts) with (e0 := e0) (q := q * q0) (pre := pre ++ [Star; Leaf (LNumber q0)]) (e := EMul e q0) (r := r) (q' := q') as (fs & e' & -> & Hp' & Hf'); auto;
            [cbn in L; lia|constructor; exact Hp|constructor; exact Hf|].
          exists ([Star; Leaf (LNumber q0)] ++ fs), e'. split; [reflexivity|]. rewrite app_assoc. auto.
        + cbn [factors] in H. destruct ts as [|[x| | | | | |] ts]; try discriminate. destruct x; try discriminate. cbn [number] in H.
          destruct (IH ts) with (e0 := e0) (q := q / q0) (pre := pre ++ [Slash; Leaf (LNumber q0)]) (e := EDiv e q0) (r := r) (q' := q') as (fs & e' & -> & Hp' & Hf'); auto;
            [cbn in L; lia|constructor; exact Hp|constructor; exact Hf|].
          exists ([Slash; Leaf (LNumber q0)] ++ fs), e'. split; [reflexivity|]. rewrite app_assoc. auto. }
    apply (G (length ts)). lia.
  Qed.
  Lemma bind_ok {X Y} (x : res X) (f : X -> res Y) y : bind x f = Ok y -> exists x', x = Ok x' /\ f x' = Ok y.
  Proof. destruct x; try discriminate. intros H. eauto. Qed.

  Lemma parser_sound f :
    (forall ts a r, parse_item f ts = Ok (a, r) -> exists pre e, ts = pre ++ r /\ is_item is_value pre e /\ arep a e) /\
    (forall ts a r, parse_product f ts = Ok (a, r) -> exists pre e, ts = pre ++ r /\ is_product is_value pre e /\ arep a e) /\
    (forall ts a, parse_sum f ts = Ok a -> exists e, is_sum is_value ts e /\ arep a e) /\
    (forall ts ops a, sum_loop f ops ts = Ok a -> forall pre e, srep ops e -> is_sum is_value pre e -> exists e', is_sum is_value (pre ++ ts) e' /\ arep a e').
  Proof.
    induction f as [|f (IHi & IHp & IHs & IHl)]; [repeat split; discriminate|]. split; [|split; [|split]].
    - intros [|[x| | | | |l|l] ts] a r H; try discriminate; rewrite item_eq in H.
      + destruct (value x) as [t|] eqn:Ex; [|discriminate]. injection H as <- <-. exists [Leaf x], (ELeaf x). split; [reflexivity|]. split; [constructor; exists t; exact Ex|constructor; exact Ex].
      + apply bind_ok in H. destruct H as (y & Hy & H). injection H as <- <-. destruct (IHs l y Hy) as (e & He & Ha). exists [Paren l], e. split; [reflexivity|]. split; [constructor; exact He|exact Ha].
      + apply bind_ok in H. destruct H as (y & Hy & H). injection H as <- <-. destruct (IHs l y Hy) as (e & He & Ha). exists [CalcFn l], e. split; [reflexivity|]. split; [constructor; exact He|exact Ha].
    - intros ts a r H. rewrite product_eq in H. apply bind_ok in H. destruct H as ([y r1] & Hy & H). destruct (IHi ts y r1 Hy) as (pre & e & -> & He & Ha).
      destruct r1 as [|t r1].
      + injection H as <- <-. exists pre, e. split; [reflexivity|]. split; [constructor; exact He|exact Ha].
      + apply bind_ok in H. destruct H as ([q r2] & Hq & H). injection H as <- <-.
        destruct (factors_sound (t :: r1) e 1 pre e r2 q) as (fs & e' & E & Hp' & Hf'); [constructor; exact He|constructor|exact Hq|].
        rewrite E, app_assoc. exists (pre ++ fs), e'. split; [reflexivity|]. split; [exact Hp'|econstructor; eassumption].
    - intros ts a H. rewrite sum_eq in H. apply bind_ok in H. destruct H as ([y r1] & Hy & H). destruct (IHp ts y r1 Hy) as (pre & e & -> & He & Ha).
      apply (IHl r1 _ a H pre e); [constructor; exact Ha|constructor; exact He].
    - intros ts ops a H pre e Ho Hs. rewrite loop_eq in H. destruct ts as [|t ts].
      + injection H as <-. exists e. rewrite app_nil_r. split; [exact Hs|constructor; exact Ho].
      + apply bind_ok in H. destruct H as ([y r1] & Hy & H). destruct (IHp ts y r1 Hy) as (us & b & -> & Hb & Hya).
        destruct t; try discriminate.
        * destruct (IHl r1 _ a H (pre ++ Plus :: us) (EAdd e b)) as (e' & He' & Ha); [constructor; assumption|constructor; assumption|]. exists e'. rewrite <- app_assoc in He'. auto.
        * destruct (IHl r1 _ a H (pre ++ Minus :: us) (ESub e b)) as (e' & He' & Ha); [constructor; assumption|constructor; assumption|]. exists e'. rewrite <- app_assoc in He'. auto.
  Qed.

  (** *** The fuel suffices *)
  Lemma factors_len ts : forall q q' r, factors q ts = Ok (q', r) -> (sizes r <= sizes ts)%nat.
  Proof.
    assert (G : forall n ts, (length ts <= n)%nat -> forall q q' r, factors q ts = Ok (q', r) -> (sizes r <= sizes ts)%nat).
    { clear ts. induction n as [|n IH]; intros ts L q q' r H.
      - destruct ts; [|cbn in L; lia]. injection H as <- <-. lia.
      - destruct ts as [|[x| | | | |l|l] ts]; cbn in L; try (injection H as <- <-; lia); cbn [factors] in H;
          (destruct ts as [|[x| | | | | |] ts]; try discriminate; destruct x; try discriminate; cbn [number] in H; apply IH in H; [|cbn in L; lia]; rewrite !sizes_cons; cbn [size]; lia). }
    apply (G (length ts)). lia.
  Qed.
  Lemma factors_fuel ts : forall q, factors q ts <> OutOfFuel.
  Proof.
    assert (G : forall n ts, (length ts <= n)%nat -> forall q, factors q ts <> OutOfFuel).
    { clear ts. induction n as [|n IH]; intros ts L q.
      - destruct ts; [discriminate|cbn in L; lia].
      - destruct ts as [|[x| | | | |l|l] ts]; cbn in L; try discriminate; cbn [factors];
          (destruct ts as [|[x| | | | | |] ts]; try discriminate; destruct x; try discriminate; cbn [number]; apply IH; cbn in L; lia). }
    apply (G (length ts)). lia.
  Qed.
  Lemma parser_fuel f :
    (forall ts, (4 * sizes ts + 1 <= f)%nat -> parse_item f ts <> OutOfFuel /\ forall a r, parse_item f ts = Ok (a, r) -> (sizes r < sizes ts)%nat) /\
    (forall ts, (4 * sizes ts + 2 <= f)%nat -> parse_product f ts <> OutOfFuel /\ forall a r, parse_product f ts = Ok (a, r) -> (sizes r < sizes ts)%nat) /\
    (forall ts, (4 * sizes ts + 3 <= f)%nat -> parse_sum f ts <> OutOfFuel) /\
    (forall ts ops, (4 * sizes ts + 3 <= f)%nat -> sum_loop f ops ts <> OutOfFuel).
  Proof.
    induction f as [|f (IHi & IHp & IHs & IHl)]; [repeat split; intros; lia|]. split; [|split; [|split]].
    - intros [|[x| | | | |l|l] ts] L; rewrite item_eq; try (split; [discriminate|intros; discriminate]); rewrite sizes_cons in *.
      + cbn [size]. destruct (value x); (split; [discriminate|]); intros a r H; inversion H. lia.
      + rewrite (proj1 (size_block l)) in *. split.
        * pose proof (IHs l). destruct (parse_sum f l); try discriminate. intros _. apply H; [lia|reflexivity].
        * intros a r H. apply bind_ok in H. destruct H as (y & _ & H). injection H as <- <-. lia.
      + rewrite (proj2 (size_block l)) in *. split.
        * pose proof (IHs l). destruct (parse_sum f l); try discriminate. intros _. apply H; [lia|reflexivity].
        * intros a r H. apply bind_ok in H. destruct H as (y & _ & H). injection H as <- <-. lia.
    - intros ts L. rewrite product_eq. destruct (IHi ts) as [N B]; [lia|]. destruct (parse_item f ts) as [[y r1]| | |]; try (split; [discriminate|intros; discriminate]).
      + specialize (B y r1 eq_refl). cbn [bind]. destruct r1 as [|t r1]; [split; [discriminate|]; intros a r H; injection H as <- <-; exact B|].
        pose proof (factors_fuel (t :: r1) 1) as N'. pose proof (factors_len (t :: r1) 1) as B'. destruct (factors 1 (t :: r1)) as [[q r2]| | |]; try (split; [discriminate|intros; discriminate]).
        * split; [discriminate|]. intros a r H. injection H as <- <-. specialize (B' q r2 eq_refl). lia.
        * contradiction.
      + contradiction.
    - intros ts L. rewrite sum_eq. destruct (IHp ts) as [N B]; [lia|]. destruct (parse_product f ts) as [[y r1]| | |]; try discriminate; [|contradiction].
      specialize (B y r1 eq_refl). cbn [bind]. apply IHl. lia.
    - intros [|t ts] ops L; [discriminate|]. rewrite loop_eq. rewrite sizes_cons in L. pose proof (size_pos t). destruct (IHp ts) as [N B]; [lia|].
      destruct (parse_product f ts) as [[y r1]| | |]; try discriminate; [|contradiction]. specialize (B y r1 eq_refl). cbn [bind]. destruct t; try discriminate; apply IHl; lia.
  Qed.

  (** *** The value of what was parsed *)
  Variable zero : T.
  Variables try_add try_sub : T -> T -> option T.
  Variable try_mul : T -> Q -> T.
  Notation calc_value := (calc_value zero try_add try_sub try_mul).
  Notation fold_sum := (fix fold (acc : T) (l : list (bool * ast)) : option T :=
           match l with
           | [] => Some acc
           | (plus, b) :: l =>
               match calc_value b with
               | None => None
               | Some v => match (if plus then try_add acc v else try_sub acc v) with Some acc => fold acc l | None => None end
               end
           end).
  Lemma fold_sum_app l : forall acc plus a, fold_sum acc (l ++ [(plus, a)]) =
    match fold_sum acc l with Some acc => match calc_value a with Some v => if plus then try_add acc v else try_sub acc v | None => None end | None => None end.
  Proof.
    induction l as [|[p b] l IH]; intros acc plus a.
    - cbn [app]. destruct (calc_value a); [|reflexivity]. destruct plus; [destruct (try_add acc t)|destruct (try_sub acc t)]; reflexivity.
    - cbn [app]. destruct (calc_value b); [|reflexivity]. destruct p; [destruct (try_add acc t)|destruct (try_sub acc t)]; try reflexivity; apply IH.
  Qed.
  Lemma calc_sum_app l plus a : calc_value (Sum (l ++ [(plus, a)])) =
    match calc_value (Sum l) with Some acc => match calc_value a with Some v => if plus then try_add acc v else try_sub acc v | None => None end | None => None end.
  Proof. exact (fold_sum_app l zero plus a). Qed.
  Lemma calc_sum_one a : calc_value (Sum [(true, a)]) = match calc_value a with Some v => try_add zero v | None => None end.
  Proof. cbn. destruct (calc_value a); [|reflexivity]. destruct (try_add zero t); reflexivity. Qed.

  Context {U : Type}.
  Variable worth : leaf -> U -> Q.
  Lemma fac_worth e q e' : fac e q e' -> divides e' -> divides e /\ (forall u, eval worth e' u == eval worth e u * q) /\ leaves e' = leaves e /\
    (no_scaling e' -> q == 1 /\ no_scaling e) /\ (no_sub e' -> no_sub e).
  Proof.
    induction 1 as [|q e' k H IH|q e' k H IH]; intros D.
    - repeat split; auto; try reflexivity. intros u. ring.
    - cbn in D. destruct (IH D) as (D' & E & L & N & S). split; [exact D'|]. split; [intros u; cbn [eval]; rewrite E; ring|]. cbn. split; [exact L|]. split; [tauto|exact S].
    - cbn in D. destruct D as [D K]. destruct (IH D) as (D' & E & L & N & S). split; [exact D'|]. split; [intros u; cbn [eval]; rewrite E; field; exact K|]. cbn. split; [exact L|]. split; [tauto|exact S].
  Qed.

  Section Sound.
    Variable means : T -> (U -> Q) -> Prop.
    (** whether subtraction and scaling by other factors than 1 are covered *)
    Variables sub_ok mul_ok : bool.
    Hypothesis means_ext : forall v d d', (forall u, d u == d' u) -> means v d -> means v d'.
    Hypothesis means_zero : means zero (fun _ => 0).
    Hypothesis means_add : forall a b c x y, try_add a b = Some c -> means a x -> means b y -> means c (fun u => x u + y u).
    Hypothesis means_sub : sub_ok = true -> forall a b c x y, try_sub a b = Some c -> means a x -> means b y -> means c (fun u => x u - y u).
    Hypothesis means_mul : forall a q x, mul_ok = true \/ q == 1 -> means a x -> means (try_mul a q) (fun u => x u * q).
    Definition covered (e : expr) : Prop := (sub_ok = true \/ no_sub e) /\ (mul_ok = true \/ no_scaling e).
    Scheme arep_ind' := Induction for arep Sort Prop with srep_ind' := Induction for srep Sort Prop.
    Combined Scheme rep_ind from arep_ind', srep_ind'.
    Lemma rep_sound :
      (forall a e, arep a e -> divides e -> covered e -> (forall x t, In x (leaves e) -> value x = Some t -> means t (worth x)) ->
         forall v, calc_value a = Some v -> means v (eval worth e)) /\
      (forall l e, srep l e -> divides e -> covered e -> (forall x t, In x (leaves e) -> value x = Some t -> means t (worth x)) ->
         forall v, calc_value (Sum l) = Some v -> means v (eval worth e)).
    Proof.
      apply rep_ind.
      - intros x t E _ _ L v H. injection H as <-. apply L; [left; reflexivity|exact E].
      - intros a e q e' _ IH F D C L v H. destruct (fac_worth e q e' F D) as (D' & E & Lv & N & S). cbn in H. destruct (calc_value a) as [w|] eqn:Ea; [|discriminate]. injection H as <-.
        apply (means_ext _ (fun u => eval worth e u * q)); [intros u; rewrite E; reflexivity|]. apply means_mul.
        + destruct C as [_ [C|C]]; [left; exact C|right; apply N; exact C].
        + apply IH; [exact D'| |rewrite <- Lv; exact L|reflexivity]. destruct C as [C1 C2]. split; [destruct C1; auto|destruct C2 as [C2|C2]; [auto|right; apply N; exact C2]].
      - intros l e _ IH D C L v H. apply IH; assumption.
      - intros a e _ IH D C L v H. rewrite calc_sum_one in H. destruct (calc_value a) as [w|]; [|discriminate]. specialize (IH D C L w eq_refl).
        apply (means_ext _ (fun u => 0 + eval worth e u)); [intros u; ring|]. eapply means_add; eauto.
      - intros l e a e' _ IHl _ IHa [D1 D2] C L v H. rewrite calc_sum_app in H. destruct (calc_value (Sum l)) as [w|]; [|discriminate]. destruct (calc_value a) as [w'|]; [|discriminate].
        assert (covered e /\ covered e') as [C1 C2] by (destruct C as [[C1|[C1 C1']] [C2|[C2 C2']]]; split; split; auto).
        apply means_add with (a := w) (b := w'); [exact H| |]; [apply IHl|apply IHa]; auto; intros x t Hx; apply L; apply in_or_app; auto.
      - intros l e a e' _ IHl _ IHa [D1 D2] C L v H. rewrite calc_sum_app in H. destruct (calc_value (Sum l)) as [w|]; [|discriminate]. destruct (calc_value a) as [w'|]; [|discriminate].
        destruct C as [[C1|[]] C2]. assert (covered e /\ covered e') as [C3 C4] by (destruct C2 as [C2|[C2 C2']]; split; split; auto).
        apply means_sub with (a := w) (b := w'); [exact C1|exact H| |]; [apply IHl|apply IHa]; auto; intros x t Hx; apply L; apply in_or_app; auto.
    Qed.
  End Sound.

  Section Total.
    Variable good : T -> Prop.
    Hypothesis good_zero : good zero.
    Hypothesis good_add : forall a b, good a -> good b -> exists c, try_add a b = Some c /\ good c.
    Hypothesis good_sub : forall a b, good a -> good b -> exists c, try_sub a b = Some c /\ good c.
    Hypothesis good_mul : forall a q, good a -> good (try_mul a q).
    Lemma fac_leaves e q e' : fac e q e' -> leaves e' = leaves e.
    Proof. induction 1; auto. Qed.
    Lemma rep_total :
      (forall a e, arep a e -> (forall x t, In x (leaves e) -> value x = Some t -> good t) -> exists v, calc_value a = Some v /\ good v) /\
      (forall l e, srep l e -> (forall x t, In x (leaves e) -> value x = Some t -> good t) -> exists v, calc_value (Sum l) = Some v /\ good v).
    Proof.
      apply rep_ind.
      - intros x t E L. exists t. split; [reflexivity|]. apply (L x t); [left; reflexivity|exact E].
      - intros a e q e' _ IH F L. rewrite (fac_leaves e q e' F) in L. destruct (IH L) as (v & Ev & G). exists (try_mul v q). cbn. rewrite Ev. auto.
      - intros l e _ IH L. apply IH, L.
      - intros a e _ IH L. destruct (IH L) as (v & Ev & G). rewrite calc_sum_one, Ev. apply good_add; assumption.
      - intros l e a e' _ IHl _ IHa L. destruct IHl as (v & Ev & G); [intros x t Hx; apply L, in_or_app; auto|]. destruct IHa as (v' & Ev' & G'); [intros x t Hx; apply L, in_or_app; auto|].
        rewrite calc_sum_app, Ev, Ev'. apply good_add; assumption.
      - intros l e a e' _ IHl _ IHa L. destruct IHl as (v & Ev & G); [intros x t Hx; apply L, in_or_app; auto|]. destruct IHa as (v' & Ev' & G'); [intros x t Hx; apply L, in_or_app; auto|].
        rewrite calc_sum_app, Ev, Ev'. apply good_sub; assumption.
    Qed.
  End Total.
End P.
