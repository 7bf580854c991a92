(** C75: values through custom properties mean what they would mean written out. *)
From Coq Require Import Ascii String NArith ZArith Lia.
From Verif Require Import Base Vars VarsSpec VarsProofs VarText VarTextSpec VarTextProofs VarTextProofs2 VarTextProofs3 VarTextProofs4 VarTextProofs5.
Open Scope nat_scope.

(** A value with variables reaches the parser of its property as the tokens of its text, with every var() replaced by the tokens of the text
    the variable is declared with, blocks included. Whether it reaches the parser at all is settled by [C75_accepted]. Missing: texts that are not [plain];
    they do change, see the [_refuted] theorems. *)
Theorem C75_substituted_partial : forall defs s, (forall v w, defs v = Some w -> plain w) -> plain s ->
  forall f, given defs s = Some f <-> supported (parsed s) /\ reaches defs 7 (parsed s) /\ substituted defs (parsed s) f.
Proof.
  intros defs s Hd Hs f. split.
  - intros H. assert (Hn : given defs s <> None) by congruence. apply given_some in Hn as [A B]. split; [exact A|]. split; [exact B|]. apply given_substituted; assumption.
  - intros (A & B & C). assert (Hn : given defs s <> None) by (apply given_some; auto). destruct (given defs s) as [f'|] eqn:E; [|congruence].
    f_equal. eapply substituted_fun; [|exact C]. apply given_substituted; assumption.
Qed.
(** There is at most one such value *)
Theorem C75_one_value : forall defs f f1 f2, substituted defs f f1 -> substituted defs f f2 -> f1 = f2.
Proof. intros defs f f1 f2 H1 H2. eapply substituted_fun; eassumption. Qed.
(** A value reaches the parser of its property exactly if it and the variables it needs have supported values, nested at most seven deep (any texts) *)
Theorem C75_accepted : forall defs s, given defs s <> None <-> supported (parsed s) /\ reaches defs 7 (parsed s).
Proof. exact given_some. Qed.
(** A custom property is accepted exactly if its value is a supported one (any text) *)
Theorem C75_declared : forall s, custom_property s <> None <-> supported (parsed s).
Proof. intros s. apply (supported_iff _ (parsed s) (le_n _)). Qed.
(** `var(--v)` alone is as good as the text of v *)
Theorem C75_written_out_partial : forall defs s v w, parsed s = [Fun (tx "var") [Leaf (TIdent (tx "--" ++ v))]] -> v <> [] -> plain s ->
  (forall v w, defs v = Some w -> plain w) -> defs v = Some w -> supported (parsed w) -> no_var (parsed w) -> given defs s = Some (parsed w).
Proof.
  intros defs s v w Hs Hne Hps Hd Hv Hw Hn. apply C75_substituted_partial; [exact Hd|exact Hps|]. rewrite Hs.
  assert (R : forall n f, no_var f -> supported f -> reaches defs n f).
  { intros n f H. induction H as [|x l Hl IH|z a l Hz Ha IHa Hl IHl|b a l Ha IHa Hl IHl]; intros Hsup; inversion Hsup; subst; constructor; auto; congruence. }
  split; [apply sup_var; [reflexivity|exact Hne|constructor]|]. split; [apply (re_var _ 6 _ v w); auto; constructor|].
  rewrite <- (app_nil_r (parsed w)). eapply sub_var; [reflexivity|exact Hv|apply no_var_sub; exact Hn|constructor].
Qed.

(** ** What is not kept *)
Definition one (w : string) : text -> option text := fun v => if list_eq_dec ascii_dec v (tx "x") then Some (tx w) else None.
Definition via (w : string) : option (list tree) := given (one w) (tx "var(--x)").
(** A string with a double quote in it ends early: a, double quote, b in single quotes *)
Theorem C75_quote_refuted : exists w, supported (parsed (tx w)) /\ via w <> Some (parsed (tx w)).
Proof. exists "'a""b'"%string. split; [apply C75_declared; vm_compute; discriminate|vm_compute; discriminate]. Qed.
(** An escaped name becomes two. `--x: a\ b` *)
Theorem C75_escape_refuted : exists w, parsed (tx w) = [Leaf (TIdent (tx "a b"))] /\ via w = Some [Leaf (TIdent (tx "a")); Leaf (TIdent (tx "b"))].
Proof. exists "a\ b"%string. split; vm_compute; reflexivity. Qed.
(** `2.0` becomes an integer: a property that takes only integers rejects it written out, and accepts it through a variable *)
Theorem C75_integer_refuted : parsed (tx "2.0") = [Leaf (TNumber (mkdec 2 0) false)] /\ via "2.0" = Some [Leaf (TNumber (mkdec 2 0) true)].
Proof. split; vm_compute; reflexivity. Qed.
(** a unit that looks like an exponent is taken for one: 1e3 with the unit e3 *)
Theorem C75_exponent_refuted : parsed (tx "1e3e3") = [Leaf (TDim (mkdec 1000 0) false (tx "e3"))] /\ via "1e3e3" = Some [Leaf (TNumber (mkdec 1000000 0) false)].
Proof. split; vm_compute; reflexivity. Qed.
(** CSS allows these in custom properties; here they are errors: blocks, unquoted URLs, fallbacks, values with `!important` in them *)
Theorem C75_grammar_refuted : forall w, In w ["(1px)"; "[a]"; "{a}"; "url(x)"; "var(--y, 2px)"; "@a"; "a <!-- b"]%string -> custom_property (tx w) = None.
Proof. intros w H. simpl in H. repeat (destruct H as [<-|H]; [vm_compute; reflexivity|]). contradiction. Qed.

(** ** Examples *)
(** the hypotheses of the theorems above *)
Lemma plain_by (s : text) : existsb (Ascii.eqb "\"%char) s = false ->
  forallb (fun x => match x with TString z => negb (existsb (Ascii.eqb """"%char) z) | TNumber d int => Bool.eqb int (Nat.eqb (scale d) 0) | TDim d int u => Bool.eqb int (Nat.eqb (scale d) 0) && negb (exponent_like u) | _ => true end)%bool (tokens s) = true -> plain s.
Proof.
  assert (E : forall c z, existsb (Ascii.eqb c) z = false -> ~ In c z).
  { intros c z H Hin. assert (existsb (Ascii.eqb c) z = true) by (apply existsb_exists; exists c; split; [exact Hin|apply Ascii.eqb_refl]). congruence. }
  intros H1 H2. split; [apply E; exact H1|]. apply Forall_forall. intros x Hx. rewrite forallb_forall in H2. specialize (H2 x Hx). destruct x; simpl; try exact I.
  - apply E. apply Bool.negb_true_iff. exact H2.
  - apply Bool.eqb_prop. exact H2.
  - apply andb_prop in H2 as [A B]. split; [apply Bool.eqb_prop; exact A|apply Bool.negb_true_iff; exact B].
Qed.
Example C75_example_plain : plain (tx "var(--x)") /\ plain (tx "-12.5% rgb(1, 2.25, 3) 'a b' #0f0 bold 1.5px url('x.png')") /\ plain (tx "calc(1px + var(--x) * 2)").
Proof. repeat split; try (apply plain_by; vm_compute; reflexivity). Qed.
Example C75_example_var : parsed (tx "var(--x)") = [Fun (tx "var") [Leaf (TIdent (tx "--" ++ tx "x"))]].
Proof. vm_compute. reflexivity. Qed.
Example C75_example_calc : given (one "2.5%") (tx "calc(1px + var(--x) * 2)") = Some (parsed (tx "calc(1px + 2.5% * 2)")).
Proof. vm_compute. reflexivity. Qed.
(** a variable is put in as it is, brackets are not added: calc(2 * 1px + 2px) *)
Example C75_example_no_brackets : given (one "1px + 2px") (tx "calc(2 * var(--x))") = Some (parsed (tx "calc(2 * 1px + 2px)")).
Proof. vm_compute. reflexivity. Qed.
(** nor are tokens glued: var(--x)px with 1 is not 1px *)
Example C75_example_not_glued : given (one "1") (tx "var(--x)px") = Some (parsed (tx "1 px")).
Proof. vm_compute. reflexivity. Qed.
Example C75_example_written_out : via "-12.5% rgb(1, 2.25, 3) 'a b' #0f0 bold 1.5px url('x.png')" = Some (parsed (tx "-12.5% rgb(1, 2.25, 3) 'a b' #0f0 bold 1.5px url('x.png')")).
Proof. vm_compute. reflexivity. Qed.
(** nested declarations *)
Definition chain_defs : text -> option text := fun v => if list_eq_dec ascii_dec v (tx "a") then Some (tx "var(--b) var(--b)") else if list_eq_dec ascii_dec v (tx "b") then Some (tx "1px") else None.
Example C75_example_nested : given chain_defs (tx "var(--a) 2px") = Some (parsed (tx "1px 1px 2px")).
Proof. vm_compute. reflexivity. Qed.
Example C75_example_undeclared : given chain_defs (tx "var(--c)") = None.
Proof. vm_compute. reflexivity. Qed.

Print Assumptions C75_substituted_partial.
Print Assumptions C75_one_value.
Print Assumptions C75_accepted.
Print Assumptions C75_declared.
Print Assumptions C75_written_out_partial.
