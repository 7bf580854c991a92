From Coq Require Import Ascii String NArith ZArith QArith Lia.
From Verif Require Import Base Vars VarText Media Nesting SheetText.
Open Scope nat_scope.

(** ** Splitting at a delimiter *)
Lemma until_split (p : tree -> bool) k : p k = true -> forall a, exists pre a', length a' <= length a /\ forall b, until p (a ++ k :: b) = (pre, a' ++ k :: b).
Proof.
  intros Hk. induction a as [|x a IH].
  - exists [], []. split; [lia|]. intros b. cbn [app until]. rewrite Hk. reflexivity.
  - destruct (p x) eqn:Ex.
    + exists [], (x :: a). split; [lia|]. intros b. cbn [app until]. rewrite Ex. reflexivity.
    + destruct IH as (pre & a' & L & H). exists (x :: pre), a'. split; [simpl; lia|]. intros b. cbn [app until]. rewrite Ex, H. reflexivity.
Qed.
Lemma until_len p l : length (snd (until p l)) <= length l.
Proof. induction l as [|x l IH]; [simpl; lia|]. cbn [until]. destruct (p x); [simpl; lia|]. destruct (until p l) as [a b]. simpl in *. lia. Qed.
Lemma delimiter_len l : length (snd (delimiter l)) <= length l.
Proof. destruct l as [|x l]; [simpl; lia|]. destruct x as [t|s q|b q]; try (simpl; lia). destruct b; simpl; lia. Qed.
Lemma delimiter_len' l : length (snd (delimiter l)) = length l - 1.
Proof. destruct l as [|x l]; [reflexivity|]. destruct x as [t|s q|b q]; try (simpl; lia). destruct b; simpl; lia. Qed.
(** either the delimiter is [k] itself, or what follows still ends in it *)
Lemma delimiter_split k a : (forall b, exists o, (delimiter (a ++ k :: b) = (o, b) /\ delimiter (a ++ [k]) = (o, []) /\ a = [])) \/
  (exists x a', a = x :: a' /\ exists o, forall b, delimiter (a ++ k :: b) = (o, a' ++ k :: b)).
Proof.
  destruct a as [|x a].
  - left. intros b. destruct k as [t|s q|bl q]; try (eexists; repeat split; reflexivity). destruct bl; eexists; repeat split; reflexivity.
  - right. exists x, a. split; [reflexivity|]. destruct x as [t|s q|bl q]; try (eexists; reflexivity). destruct bl; eexists; reflexivity.
Qed.
Definition step_cases (k : tree) (P : tree -> bool) (a : list tree) : Prop :=
  exists pre o, (forall b, exists r', until P (a ++ k :: b) = (pre, r') /\ delimiter r' = (o, b)) \/
                (exists a', length a' < length a /\ forall b, exists r', until P (a ++ k :: b) = (pre, r') /\ delimiter r' = (o, a' ++ k :: b)).
Lemma step_split k P a : P k = true -> step_cases k P a.
Proof.
  intros Hk. destruct (until_split P k Hk a) as (pre & a' & L & H). destruct (delimiter_split k a') as [Hd|(x & a2 & -> & o & Hd)].
  - destruct (Hd []) as (o & H1 & H2 & ->). exists pre, o. left. intros b. exists (k :: b). split; [apply H|]. destruct (Hd b) as (o' & E1 & E2 & _). cbn [app] in *. rewrite E1. congruence.
  - exists pre, o. right. exists a2. split; [simpl in L; lia|]. intros b. exists ((x :: a2) ++ k :: b). split; [apply H|apply Hd].
Qed.

(** ** Rules of a sheet *)
Lemma raws_nil n any : raws_f n any [] = [].
Proof. destruct n; reflexivity. Qed.
Lemma raws_fuel n : forall m any l, length l <= n -> length l <= m -> raws_f n any l = raws_f m any l.
Proof.
  induction n as [|n IH]; intros m any l Hn Hm.
  - destruct l; [|simpl in Hn; lia]. destruct m; reflexivity.
  - destruct m as [|m]; [destruct l; [reflexivity|simpl in Hm; lia]|]. destruct l as [|x l]; [reflexivity|]. simpl in Hn, Hm.
    assert (Q : (let (p, r') := until curly (x :: l) in let (b, r'') := delimiter r' in RQual p b :: raws_f n true r'') = (let (p, r') := until curly (x :: l) in let (b, r'') := delimiter r' in RQual p b :: raws_f m true r'')).
    { pose proof (until_len curly (x :: l)) as L1. destruct (until curly (x :: l)) as [p r'] eqn:E. pose proof (delimiter_len' r') as L2. destruct (delimiter r') as [b r''].
      simpl in L1, L2. f_equal. apply IH; lia. }
    assert (T : forall nm, (let (p, r') := until semi_or_curly l in let (b, r'') := delimiter r' in if (negb any && same_name nm (tx "charset"))%bool then raws_f n true r'' else RAt nm p b :: raws_f n true r'') =
                          (let (p, r') := until semi_or_curly l in let (b, r'') := delimiter r' in if (negb any && same_name nm (tx "charset"))%bool then raws_f m true r'' else RAt nm p b :: raws_f m true r'')).
    { intros nm. pose proof (until_len semi_or_curly l) as L1. destruct (until semi_or_curly l) as [p r'] eqn:E. pose proof (delimiter_len r') as L2. destruct (delimiter r') as [b r''].
      simpl in L1, L2. assert (E2 : raws_f n true r'' = raws_f m true r'') by (apply IH; lia). rewrite E2. reflexivity. }
    cbn [raws_f]. destruct x as [tk| |]; [|exact Q|exact Q]. destruct tk as [| |nm| | | | | | | | | | | | | | | | | | | | |]; try exact Q; [exact (T nm)|apply IH; lia|apply IH; lia].
Qed.
Lemma raws_split K : curly K = true -> forall n a any b, length (a ++ K :: b) <= n -> raws_f n any (a ++ K :: b) = raws_f n any (a ++ [K]) ++ raws_f n true b.
Proof.
  intros HK. assert (HK2 : semi_or_curly K = true) by (unfold semi_or_curly; rewrite HK; apply Bool.orb_true_r).
  induction n as [|n IH]; intros a any b Hn; [rewrite app_length in Hn; simpl in Hn; lia|].
  assert (Fb : forall k, length b <= k -> raws_f k true b = raws_f (S n) true b) by (intros k Hk; apply raws_fuel; [exact Hk|rewrite app_length in Hn; simpl in Hn; lia]).
  assert (Hlen : length a + length b <= n) by (rewrite app_length in Hn; simpl in Hn; lia).
  assert (Q : forall a1, length a1 <= length a -> (let (p, r') := until curly (a1 ++ K :: b) in let (bl, r'') := delimiter r' in RQual p bl :: raws_f n true r'') =
              (let (p, r') := until curly (a1 ++ [K]) in let (bl, r'') := delimiter r' in RQual p bl :: raws_f n true r'') ++ raws_f (S n) true b).
  { intros a1 La. destruct (step_split K curly a1 HK) as (pre & o & [H|(a' & L & H)]).
    - destruct (H b) as (r1 & E1 & E2). destruct (H []) as (r2 & E3 & E4). rewrite E1, E2, E3, E4, raws_nil, (Fb n) by lia. reflexivity.
    - destruct (H b) as (r1 & E1 & E2). destruct (H []) as (r2 & E3 & E4). rewrite E1, E2, E3, E4. cbn [app]. rewrite (IH a' true b) by (rewrite app_length; simpl; lia). rewrite (Fb n ltac:(lia)). reflexivity. }
  destruct a as [|x a].
  - cbn [app]. pose proof (Q [] ltac:(simpl; lia)) as Q0. cbn [app] in Q0. destruct K as [tk| |bk q]; try discriminate HK. destruct bk; try discriminate HK. exact Q0.
  - pose proof (Q (x :: a) (le_n _)) as Q1. cbn [app] in Q1. cbn [app raws_f].
    assert (IHw : forall any', raws_f n any' (a ++ K :: b) = raws_f n any' (a ++ [K]) ++ raws_f (S n) true b).
    { intros any'. rewrite (IH a any' b) by (rewrite app_length; simpl in *; lia). rewrite (Fb n) by lia. reflexivity. }
    assert (T : forall nm, (let (p, r') := until semi_or_curly (a ++ K :: b) in let (bl, r'') := delimiter r' in if (negb any && same_name nm (tx "charset"))%bool then raws_f n true r'' else RAt nm p bl :: raws_f n true r'') =
                          (let (p, r') := until semi_or_curly (a ++ [K]) in let (bl, r'') := delimiter r' in if (negb any && same_name nm (tx "charset"))%bool then raws_f n true r'' else RAt nm p bl :: raws_f n true r'') ++ raws_f (S n) true b).
    { intros nm. destruct (step_split K semi_or_curly a HK2) as (pre & o & [H|(a' & L & H)]).
      - destruct (H b) as (r1 & E1 & E2). destruct (H []) as (r2 & E3 & E4). rewrite E1, E2, E3, E4. rewrite raws_nil, (Fb n) by lia. destruct (negb any && same_name nm (tx "charset"))%bool; reflexivity.
      - destruct (H b) as (r1 & E1 & E2). destruct (H []) as (r2 & E3 & E4). rewrite E1, E2, E3, E4. rewrite (IH a' true b) by (rewrite app_length; simpl in *; lia). rewrite (Fb n) by lia.
        destruct (negb any && same_name nm (tx "charset"))%bool; reflexivity. }
    destruct x as [tk| |]; [|exact Q1|exact Q1]. destruct tk as [| |nm| | | | | | | | | | | | | | | | | | | | |]; try exact Q1; [exact (T nm)|apply IHw|apply IHw].
Qed.
