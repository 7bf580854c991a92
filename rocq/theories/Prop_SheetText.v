(** C76: imports; C77: what is wrong in one place of a sheet does not change the rest; C78: media queries; C79: from text to rules. *)
From Coq Require Import Ascii String NArith ZArith QArith Qabs Relations Lia.
From Verif Require Import Base Vars VarText VarTextProofs Media LayersSpec Nesting NestingSpec SheetText SheetTextSpec SheetTextProofs SheetTextProofs2 SheetTextProofs3 SheetTextProofs4 SheetTextProofs5 SheetTextProofs6.
From Verif Require Prop_Nesting.
Open Scope nat_scope.

(** ** C76: the imports that are loaded before a sheet is parsed are those the parser asks for: it never panics *)
Theorem C76_no_panic :
  forall (Sl D : Type) (selectors : bool -> list tree -> option (option (list Sl))) (declare : text -> list tree -> @decl_result D) (url_value : text -> option text) (s : text),
  needed (sheet selectors declare url_value s) = extract_imports url_value s.
Proof. intros. apply needed_extract. Qed.
(** Loading a file of which no import is missing ends exactly if there is no infinite chain of imports. *)
Theorem C76_loads_iff_no_cycle :
  forall (Sl D : Type) (selectors : bool -> list tree -> option (option (list Sl))) (declare : text -> list tree -> @decl_result D) (url_value : text -> option text) (files : text -> option text) (path : text),
  (forall u, clos_refl_trans text (imports url_value files) u path -> files u <> None) ->
  ((exists fuel x, load_file selectors declare url_value files fuel path = Some x) <-> Acc (imports url_value files) path).
Proof.
  intros Sl D selectors declare url_value files path H. split; [|apply acc_loads]. intros (f & x & E). eapply load_acc; [exact E|].
  intros ->. destruct (load_missing _ _ _ _ _ _ E) as (u & Hu & Eu). exact (H u Hu Eu).
Qed.
(** A loaded file is its own text, with exactly the imports its rules name, each of them loaded the same way. *)
Theorem C76_loaded :
  forall (Sl D : Type) (selectors : bool -> list tree -> option (option (list Sl))) (declare : text -> list tree -> @decl_result D) (url_value : text -> option text) (files : text -> option text) fuel path sh ims,
  load_file selectors declare url_value files fuel path = Some (LSheet sh ims) ->
  exists s, files path = Some s /\ sh = sheet selectors declare url_value s /\ map fst ims = needed sh /\
    forall u x, In (u, x) ims -> x <> LMissing /\ exists fuel', load_file selectors declare url_value files fuel' u = Some x.
Proof.
  intros Sl D selectors declare url_value files fuel path sh ims H. destruct fuel as [|f]; [discriminate|]. destruct (load_result _ _ _ _ _ _ _ _ H) as (s & E & Hs & Hm & Hi). exists s.
  split; [exact E|]. split; [exact Hs|]. split; [exact Hm|]. intros u x Hx. destruct (Hi u x Hx). eauto.
Qed.
(** A sheet given inline is refused exactly if one of its rules is an import. *)
Theorem C76_inline :
  forall (Sl D : Type) (selectors : bool -> list tree -> option (option (list Sl))) (declare : text -> list tree -> @decl_result D) (url_value : text -> option text) (s : text),
  extract_imports url_value s = [] <-> forall u layer, ~ In (SImport u layer) (sheet selectors declare url_value s).
Proof.
  intros. rewrite <- (C76_no_panic Sl D selectors declare). unfold needed. split.
  - intros H u ly Hin. assert (Hu : In u []) by (rewrite <- H; apply in_flat_map; exists (SImport u ly); split; [exact Hin|left; reflexivity]). destruct Hu.
  - intros H. induction (sheet selectors declare url_value s) as [|x l IH]; [reflexivity|]. cbn. rewrite IH by (intros u ly Hin; apply (H u ly); right; exact Hin).
    destruct x; try reflexivity. exfalso. eapply H. left. reflexivity.
Qed.

(** An @import is one exactly if it has the documented form. *)
Theorem C76_import_text :
  forall (Sl D : Type) (selectors : bool -> list tree -> option (option (list Sl))) (declare : text -> list tree -> @decl_result D) (url_value : text -> option text) nm p u layer,
  same_name nm (tx "import") = true -> one_piece p ->
  (sheet_of selectors declare url_value (Leaf (TAt nm) :: p ++ [Leaf TSemicolon]) = [SImport u layer] <-> import_text url_value (strip p) u layer).
Proof.
  intros Sl D selectors declare url_value nm p u layer Hn Hp. unfold sheet_of, raws. rewrite raws_at by (try assumption; try reflexivity; apply (same_name_two nm (tx "import") _ Hn); reflexivity).
  cbn [delimiter fst map]. cbn [length raws_f map]. 
  rewrite <- import_iff. cbn [sheet_rule].
 rewrite !(same_name_two nm (tx "import") _ Hn) by reflexivity.
 rewrite Hn.
  destruct (import_prelude url_value (strip p)) as [[v ly]|]; split; intros H; try discriminate; injection H as -> ->; reflexivity.
Qed.

(** ** C77 *)
(** The text of a rule body behind a semicolon means what it would mean alone, whatever is before it (outside of brackets), and the other way round. *)
Theorem C77_after_semicolon :
  forall (Sl D : Type) (selectors : bool -> list tree -> option (option (list Sl))) (declare : text -> list tree -> @decl_result D) (a b : list tree),
  body_of selectors declare (a ++ Leaf TSemicolon :: b) = body_of selectors declare (a ++ [Leaf TSemicolon]) ++ body_of selectors declare b.
Proof. intros. apply body_of_split. reflexivity. Qed.
(** The same for a sheet behind a block in curly brackets. *)
Theorem C77_after_block :
  forall (Sl D : Type) (selectors : bool -> list tree -> option (option (list Sl))) (declare : text -> list tree -> @decl_result D) (url_value : text -> option text) (a l b : list tree),
  effective (sheet_of selectors declare url_value (a ++ Blk InCurly l :: b)) = effective (sheet_of selectors declare url_value (a ++ [Blk InCurly l])) ++ effective (sheet_of selectors declare url_value b).
Proof. intros. apply sheet_split. reflexivity. Qed.
(** A declaration is what its parser makes of exactly its own tokens; if that is an error, it is as if it was not there. *)
Theorem C77_declaration :
  forall (Sl D : Type) (selectors : bool -> list tree -> option (option (list Sl))) (declare : text -> list tree -> @decl_result D) (nm : text) (v b : list tree), one_piece v ->
  body_effective (body_of selectors declare (Leaf (TIdent nm) :: v ++ Leaf TSemicolon :: b)) =
  match declaration declare nm (strip v) with DVal d => [BDecl d] | _ => [] end ++ body_effective (body_of selectors declare b).
Proof. intros. apply declaration_effect. assumption. Qed.
Theorem C77_invalid_declaration :
  forall (Sl D : Type) (selectors : bool -> list tree -> option (option (list Sl))) (declare : text -> list tree -> @decl_result D) (nm : text) (a v b : list tree), one_piece v ->
  (forall d, declaration declare nm (strip v) <> DVal d) ->
  body_effective (body_of selectors declare (a ++ Leaf TSemicolon :: Leaf (TIdent nm) :: v ++ Leaf TSemicolon :: b)) = body_effective (body_of selectors declare (a ++ Leaf TSemicolon :: b)).
Proof.
  intros Sl D selectors declare nm a v b Hv Hd. rewrite (C77_after_semicolon _ _ _ _ a (Leaf (TIdent nm) :: v ++ Leaf TSemicolon :: b)), (C77_after_semicolon _ _ _ _ a b). unfold body_effective. rewrite !filter_app. f_equal.
  fold (@body_effective Sl D (body_of selectors declare (Leaf (TIdent nm) :: v ++ Leaf TSemicolon :: b))). rewrite C77_declaration by exact Hv. destruct (declaration declare nm (strip v)) as [d| |]; [exfalso; exact (Hd d eq_refl)|reflexivity|reflexivity].
Qed.
(** A rule is what its selectors and its body say; if its selectors are invalid, it is as if it was not there. *)
Theorem C77_rule :
  forall (Sl D : Type) (selectors : bool -> list tree -> option (option (list Sl))) (declare : text -> list tree -> @decl_result D) (url_value : text -> option text) (x : tree) (p l b : list tree),
  starts_rule x -> no_curly (x :: p) ->
  effective (sheet_of selectors declare url_value (x :: p ++ Blk InCurly l :: b)) =
  match selectors false (x :: p) with Some (Some ss) => [STop (TRule (Some ss) (body_of selectors declare l))] | _ => [] end ++ effective (sheet_of selectors declare url_value b).
Proof. intros. apply rule_first; [assumption|apply no_curly_forall; assumption]. Qed.
(** An at-rule nobody knows is as if it was not there, be it a block or a statement. *)
Theorem C77_unknown_at_rule :
  forall (Sl D : Type) (selectors : bool -> list tree -> option (option (list Sl))) (declare : text -> list tree -> @decl_result D) (url_value : text -> option text) (nm : text) (p b : list tree) (k : tree),
  ~ known nm -> one_piece p -> (k = Leaf TSemicolon \/ exists l, k = Blk InCurly l) ->
  effective (sheet_of selectors declare url_value (Leaf (TAt nm) :: p ++ k :: b)) = effective (sheet_of selectors declare url_value b).
Proof.
  intros Sl D selectors declare url_value nm p b k Hk Hp Hend. rewrite at_rule_first; [rewrite unknown_nothing by exact Hk; reflexivity|exact Hp|].
  destruct Hend as [-> | [l ->]]; reflexivity.
Qed.

(** ** C78 *)
(** Exactly the queries of the documented form are accepted. *)
Theorem C78_accepted : forall l, parse_media l <> None <-> exists cs, query_text l cs.
Proof.
  intros l. split.
  - destruct (parse_media l) as [ms|] eqn:E; [intros _|congruence]. destruct (media_sound l ms E) as (cs & H & _). eauto.
  - intros (cs & H). destruct (media_complete l cs H) as (ms & E & _). congruence.
Qed.
(** A query applies to a window exactly if all its conditions hold, for windows of whole pixels. *)
Theorem C78_meaning_partial : forall l cs ms w, query_text l cs -> parse_media l = Some ms -> Forall fits cs -> whole_size w ->
  (applies ms w = true <-> Forall (holds w) cs).
Proof.
  intros l cs ms w Hq Hp Hf Hw. destruct (media_complete l cs Hq) as (ms' & E & Ht). rewrite Hp in E. injection E as <-. apply applies_iff; assumption.
Qed.
(** `(max-width: 1000px)` applies to a window that is 1000.5 pixels wide *)
Definition px (n : N) : tree := Leaf (TDim (mkdec (Z.of_N n) 0) true (tx "px")).
Definition max_width : list tree := [Blk InParen [Leaf (TIdent (tx "max-width")); Leaf TColon; px 1000]].
Theorem C78_fraction_refuted : exists cs ms w, query_text max_width cs /\ parse_media max_width = Some ms /\ Forall fits cs /\ applies ms w = true /\ ~ Forall (holds w) cs.
Proof.
  exists [CWidth AtMost 1000]. eexists. exists {| w_scheme := Light; w_width := 2001 # 2; w_height := 500; w_resolution := 1 |}.
  split; [apply qt_one; apply (ct_width _ AtMost); [exists (tx "max-width"); split; reflexivity|apply st_px; reflexivity]|]. split; [vm_compute; reflexivity|]. split; [repeat constructor|]. split; [vm_compute; reflexivity|].
  intros H. inversion H as [|? ? Hc _]; subst. apply Hc. reflexivity.
Qed.
(** valid CSS that is not accepted *)
Theorem C78_grammar_refuted : Forall (fun s => parse_media (strip (parsed_white (tx s))) = None)
  ["screen"; "screen and (min-width: 300px)"; "not (min-width: 300px)"; "(min-width: 300px), (max-width: 100px)"; "(min-width: 300px) or (max-width: 100px)"; "(width >= 300px)"; "(min-width: 300.5px)"; "(min-width: 20em)"; "(orientation: portrait)"; "(min-resolution: 96dpi)"; "(width)"]%string.
Proof. repeat constructor; vm_compute; reflexivity. Qed.

(** ** C79: a sheet written according to the grammar is parsed as what is written *)
Theorem C79_written :
  forall (Sl D : Type) (selectors : bool -> list tree -> option (option (list Sl))) (declare : text -> list tree -> @decl_result D) (url_value : text -> option text) (l : list tree) xs,
  sheet_text selectors declare url_value l xs -> sheet_of selectors declare url_value l = xs.
Proof. intros Sl D selectors declare url_value l xs H. unfold sheet_of, raws. apply (sheet_text_of selectors declare url_value l xs H); apply le_n. Qed.
(** and nothing else is accepted as an at-rule *)
Theorem C79_at_rules_only :
  forall (Sl D : Type) (selectors : bool -> list tree -> option (option (list Sl))) (declare : text -> list tree -> @decl_result D) (url_value : text -> option text) nm p k x,
  one_piece p -> (k = Leaf TSemicolon \/ exists b, k = Blk InCurly b) -> In x (sheet_of selectors declare url_value (Leaf (TAt nm) :: p ++ [k])) ->
  match x with
  | SKeyframes n b => same_name nm (tx "keyframes") = true /\ strip p = [Leaf (TIdent n)] /\ k = Blk InCurly b
  | SFont b => same_name nm (tx "font-face") = true /\ strip p = [] /\ k = Blk InCurly b
  | SImport u layer => same_name nm (tx "import") = true /\ import_text url_value (strip p) u layer /\ k = Leaf TSemicolon
  | STop (TMedia ms _) => same_name nm (tx "media") = true /\ parse_media (strip p) = Some ms /\ k <> Leaf TSemicolon
  | STop (TLayer n _) => same_name nm (tx "layer") = true /\ strip p = [Leaf (TIdent n)] /\ k <> Leaf TSemicolon
  | STop (TLayers ns) => same_name nm (tx "layer") = true /\ names_text (strip p) ns /\ k = Leaf TSemicolon
  | STop TError => True
  | STop (TRule _ _) => False
  end.
Proof.
  intros Sl D selectors declare url_value nm p k x Hp Hk Hin. assert (HK : semi_or_curly k = true) by (destruct Hk as [-> | [b ->]]; reflexivity).
  unfold sheet_of, raws in Hin. set (F := size (Leaf (TAt nm) :: p ++ [k])) in Hin. clearbody F.
  assert (E : sheet_rule selectors declare url_value F (RAt nm p (fst (delimiter [k]))) = x).
  { cbn [length raws_f] in Hin. rewrite (until_none semi_or_curly p (one_piece_semi p Hp) k [] HK) in Hin. assert (Ed : delimiter [k] = (fst (delimiter [k]), [])) by (destruct Hk as [-> | [b ->]]; reflexivity). rewrite Ed in Hin. rewrite raws_nil in Hin.
    destruct (negb false && same_name nm (tx "charset"))%bool; [destruct Hin|]. destruct Hin as [Hin|[]]; exact Hin. }
  clear Hin. cbn [sheet_rule] in E. destruct (same_name nm (tx "font-face")) eqn:E1.
  { destruct (strip p) as [|y q]; destruct Hk as [-> | [b ->]]; cbn in E; subst x; auto. }
  destruct (same_name nm (tx "keyframes")) eqn:E2.
  { destruct (strip p) as [|[tk| |] [|]]; try (subst x; exact I); destruct tk; try (subst x; exact I). destruct Hk as [-> | [b ->]]; cbn in E; subst x; auto. }
  destruct (same_name nm (tx "import")) eqn:E3.
  { destruct (import_prelude url_value (strip p)) as [[u ly]|] eqn:Ei; [|subst x; exact I]. destruct Hk as [-> | [b ->]]; cbn in E; subst x; [|exact I]. split; [exact eq_refl|]. split; [apply import_iff; exact Ei|reflexivity]. }
  subst x.
  assert (Ex : exists ts, inner_f selectors declare F (RAt nm p (fst (delimiter [k]))) =
    if same_name nm (tx "media") then match parse_media (strip p), fst (delimiter [k]) with Some ms, Some _ => TMedia ms ts | _, _ => TError end
    else if same_name nm (tx "layer") then match layer_names (strip p), fst (delimiter [k]) with Some [n], Some _ => TLayer n ts | Some ns, None => TLayers ns | _, _ => TError end else TError).
  { destruct (fst (delimiter [k])) as [b|]; [exists (match F with 0 => [] | S f => map (inner_f selectors declare f) (raws b) end)|exists []]; destruct F; reflexivity. }
  destruct Ex as [ts ->]. destruct (same_name nm (tx "media")) eqn:E4.
  { destruct (parse_media (strip p)) as [ms|]; [|exact I]. destruct Hk as [-> | [b ->]]; cbn; [exact I|]. split; [reflexivity|]. split; [reflexivity|discriminate]. }
  destruct (same_name nm (tx "layer")) eqn:E5; [|exact I]. destruct (layer_names (strip p)) as [ns|] eqn:En; [|exact I]. apply names_iff in En. destruct Hk as [-> | [b ->]]; cbn.
  - destruct ns as [|n [|]]; auto.
  - destruct ns as [|n [|]]; try exact I. split; [reflexivity|]. split; [|discriminate]. inversion En as [n0 Hq|n0 l ns0 Hl Hq Hq2]; subst; [reflexivity|inversion Hl].
Qed.
(** of a text without backslashes, what is loaded is what nested CSS means *)
Theorem C79_text_to_rules :
  forall (A C D El : Type) (selectors : bool -> list tree -> option (option (list (sel A C)))) (declare : text -> list tree -> @decl_result D) (url_value : text -> option text)
    (simple : A -> El -> Prop) (related : C -> El -> El -> Prop) (weight : A -> nat) (s : text),
  (forall nested l, selectors nested l <> Some (Some [])) -> ~ In "\"%char s ->
  let rules := own (sheet selectors declare url_value s) in
  exists b, load Amp replace_by rules = Some b /\ Forall2 (says (means simple related weight)) (declarations b) (flat_map (top_entries (meaning simple related weight) Amp [] []) rules).
Proof.
  intros A C D El selectors declare url_value simple related weight s Hne Hs. apply Prop_Nesting.C58_nesting. pose proof (sheet_legal selectors declare url_value Hne _ (parsed_legal s Hs)) as H. unfold own, sheet.
  induction H as [|x l Hx Hl IH]; [constructor|]. cbn. destruct x; cbn; try exact IH. constructor; assumption.
Qed.

(** ** Examples: a parser of selectors `.name` and `&`, and of declarations `name: token` with known names *)
Definition ex_selectors (nested : bool) (l : list tree) : option (option (list (sel text nat))) :=
  match strip l with
  | [Leaf (TDelim c); Leaf (TIdent n)] => if Ascii.eqb c "."%char then Some (Some [Atom n]) else Some None
  | _ => Some None
  end.
Definition ex_declare (nm : text) (l : list tree) : @decl_result text :=
  if (same_name nm (tx "color") || same_name nm (tx "width"))%bool then match l with [Leaf (TIdent v)] => DVal (nm ++ ":"%char :: v) | _ => DFinal end else DErr.
(** an unquoted URL up to its closing bracket *)
Definition ex_url (s : text) : option text := Some (filter (fun c => negb (Ascii.eqb c ")"%char)) s).
Notation ex_sheet_of := (sheet ex_selectors ex_declare ex_url).
(** the file imports itself: it is never loaded *)
Theorem C76_cycle_refuted : exists files path s, files path = Some s /\ forall (Sl D : Type) selectors declare, forall fuel, load_file (Sl:=Sl) (D:=D) selectors declare ex_url files fuel path = None.
Proof.
  exists (fun p => if list_eq_dec ascii_dec p (tx "a.css") then Some (tx "@import 'a.css';") else None), (tx "a.css"), (tx "@import 'a.css';"). split; [reflexivity|].
  intros Sl D selectors declare fuel. induction fuel as [|f IH]; [reflexivity|]. rewrite load_step. change (if list_eq_dec ascii_dec (tx "a.css") (tx "a.css") then Some (tx "@import 'a.css';") else None) with (Some (tx "@import 'a.css';")).
  change (extract_imports ex_url (tx "@import 'a.css';")) with [tx "a.css"]. apply go_none. exact IH.
Qed.
(** `@import` behind a rule is obeyed, though CSS ignores it *)
Theorem C76_late_import_refuted : extract_imports ex_url (tx ".a { color: red } @import 'b.css';") = [tx "b.css"] /\ own (ex_sheet_of (tx ".a { color: red } @import 'b.css';")) <> [].
Proof. split; [vm_compute; reflexivity|]. vm_compute. discriminate. Qed.
(** a layer whose name has an escaped dot is the layer inside another one *)
Theorem C79_escape_refuted : exists s1 s2 b1 b2,
  load Amp replace_by (own (ex_sheet_of s1)) = Some b1 /\ load Amp replace_by (own (ex_sheet_of s2)) = Some b2 /\ rulesets b1 = rulesets b2 /\
  map n_layer (flat_map (top_entries (V:=unit) (fun _ _ => tt) Amp [] []) (own (ex_sheet_of s1))) = [[tx "a.b"]] /\
  map n_layer (flat_map (top_entries (V:=unit) (fun _ _ => tt) Amp [] []) (own (ex_sheet_of s2))) = [[tx "a"; tx "b"]].
Proof.
  exists (tx "@layer a\.b { .x { color: red } }"), (tx "@layer a { @layer b { .x { color: red } } }"). eexists _, _. split; [vm_compute; reflexivity|]. split; [vm_compute; reflexivity|]. split; [reflexivity|]. split; vm_compute; reflexivity.
Qed.

(** Non-vacuity *)
Example C76_witness :
  let files := fun p => if list_eq_dec ascii_dec p (tx "a.css") then Some (tx "@import 'b.css'; @import url(c.css) layer(l); .a { color: red }")
                        else if list_eq_dec ascii_dec p (tx "b.css") then Some (tx "@import url('c.css');") else if list_eq_dec ascii_dec p (tx "c.css") then Some (tx ".c { width: auto; }") else None in
  exists sh x y, load_file ex_selectors ex_declare ex_url files 5 (tx "a.css") = Some (LSheet sh [(tx "b.css", x); (tx "c.css", y)]) /\
    In (SImport (tx "c.css") (Some (tx "l"))) sh /\ y = LSheet [STop (TRule (Some [Atom (tx "c")]) [BDecl (tx "width:auto")])] [].
Proof. intros files. eexists _, _, _. split; [vm_compute; reflexivity|]. split; [right; left; reflexivity|reflexivity]. Qed.
Example C77_witness :
  own (ex_sheet_of (tx ".a { color: red; foo: [1;2] bar; width: 3; width: auto } ?? { color: red } @foo x { } .b { color: blue }")) =
  [ TRule (Some [Atom (tx "a")]) [BDecl (tx "color:red"); BError; BError; BDecl (tx "width:auto")]; TRule None [BDecl (tx "color:red")]; TError; TRule (Some [Atom (tx "b")]) [BDecl (tx "color:blue")] ] /\
  one_piece (parsed_white (tx ": [1;2] bar")) /\ ~ known (tx "foo").
Proof.
  split; [vm_compute; reflexivity|]. split.
  - intros x Hx. vm_compute in Hx. repeat (destruct Hx as [<-|Hx]; [split; [discriminate|intros b; discriminate]|]). destruct Hx.
  - intros (s & Hs & E). simpl in Hs. repeat (destruct Hs as [<-|Hs]; [vm_compute in E; discriminate|]). destruct Hs.
Qed.
Example C78_witness : exists cs ms, query_text (strip (parsed_white (tx "(MIN-width: 300px) and (max-aspect-ratio: 16/9) and (prefers-color-scheme: dark)"))) cs /\
  parse_media (strip (parsed_white (tx "(MIN-width: 300px) and (max-aspect-ratio: 16/9) and (prefers-color-scheme: dark)"))) = Some ms /\ Forall fits cs /\
  whole_size {| w_scheme := Dark; w_width := 800; w_height := 600; w_resolution := 2 |} /\ applies ms {| w_scheme := Dark; w_width := 800; w_height := 600; w_resolution := 2 |} = true /\
  applies ms {| w_scheme := Dark; w_width := 800; w_height := 400; w_resolution := 2 |} = false.
Proof.
  exists [CWidth AtLeast 300; CRatio AtMost (dec_Q (mkdec 16 0)) (dec_Q (mkdec 9 0)); CScheme Dark]. eexists. split; [|split; [vm_compute; reflexivity|]].
  - vm_compute strip. apply qt_and; [apply (ct_width _ AtLeast); [eexists; split; [reflexivity|vm_compute; reflexivity]|apply (st_px 300); vm_compute; reflexivity]|eexists; split; [reflexivity|vm_compute; reflexivity]|].
    apply qt_and; [apply (ct_ratio _ AtMost); [eexists; split; [reflexivity|vm_compute; reflexivity]|apply rt_two]|eexists; split; [reflexivity|vm_compute; reflexivity]|].
    apply qt_one. apply ct_dark; eexists; (split; [reflexivity|vm_compute; reflexivity]).
  - split; [repeat constructor; cbn; intros [H _]; discriminate|]. split; [exists 800%N, 600%N; repeat split|]. split; vm_compute; reflexivity.
Qed.
Example C79_witness : (forall nested l, ex_selectors nested l <> Some (Some [])) /\
  exists b, load Amp replace_by (own (ex_sheet_of (tx "@layer l { .a { color: red; .b { width: auto } @media (width: 5px) { color: blue } } }"))) = Some b /\
    map (fun d => (map (fun s => (c_layer s, c_media s)) (fst d), snd d)) (declarations b) =
      [([(tx "l", [])], tx "color:red"); ([(tx "l", [])], tx "width:auto"); ([(tx "l", [MViewportWidth fval (Exact 5%N)])], tx "color:blue")].
Proof.
  split; [intros nested l; unfold ex_selectors; destruct (strip l) as [|[tk| |] [|[tk2| |] [|]]]; try destruct tk; try destruct tk2; try discriminate; destruct (Ascii.eqb _ _); discriminate|].
  eexists. split; vm_compute; reflexivity.
Qed.

(** the grammar covers nested rules, @media, @layer, imports and keyframes *)
Definition ex_text : text := tx "@import 'b.css' layer(l); @layer base, theme; @keyframes k { } .a { color: red; .b { width: auto } @media (width: 5px) { color: blue } } @layer base { .c {} }".
Example C79_written_witness : exists xs, sheet_text ex_selectors ex_declare ex_url (parsed_white ex_text) xs /\
  map (fun x => match x with SImport u _ => u | SKeyframes n _ => n | STop (TLayers _) => tx "layers" | STop (TRule _ _) => tx "rule" | STop (TLayer n _) => n | _ => [] end) xs = [tx "b.css"; tx "layers"; tx "k"; tx "rule"; tx "base"].
Proof.
  Ltac one := intros ? ?HH; simpl in HH; repeat (destruct HH as [<-|HH]; [split; [discriminate|intros; discriminate]|]); destruct HH.
  Ltac nocurly := intros ? ?HH; simpl in HH; repeat (destruct HH as [HH|HH]; [discriminate HH|]); destruct HH.
  set (l := parsed_white ex_text). vm_compute in l. eexists. split; [subst l|].
  - eapply (xt_import _ _ _ _ [_; _; _; _]); [reflexivity|one|apply it_layer; [apply ut_string|reflexivity]|].
    eapply (xt_rules _ _ _ [_; _; _; _; _; _; _; _; _]); [eapply rt_white, (rt_layers _ _ _ [_; _; _; _; _]); [reflexivity|one|apply nt_more, nt_one|apply rt_white, rt_nil]|].
    eapply (xt_keyframes _ _ _ _ [_; _; _]); [reflexivity|one|reflexivity|].
    match goal with |- sheet_text _ _ _ ?z _ => rewrite <- (app_nil_r z) end. eapply xt_rules; [|apply xt_nil]. apply rt_white. eapply (rt_rule _ _ _ [_; _]); [exact I|nocurly|reflexivity| |].
    + apply bt_white. eapply (bt_declaration _ _ _ [_; _; _]); [one|reflexivity|reflexivity|]. apply bt_white. eapply (bt_rule _ _ _ [_; _]); [exact I|one|reflexivity| |].
      * apply bt_white. eapply bt_last; [one|reflexivity|reflexivity].
      * apply bt_white. eapply (bt_media _ _ _ [_; _; _]); [reflexivity|one|reflexivity| |apply bt_white, bt_nil]. apply bt_white. eapply bt_last; [one|reflexivity|reflexivity].
    + apply rt_white. eapply (rt_layer _ _ _ [_; _; _]); [reflexivity|one|reflexivity| |apply rt_nil]. apply rt_white. eapply (rt_rule _ _ _ [_; _]); [exact I|nocurly|reflexivity|apply bt_nil|apply rt_white, rt_nil].
  - vm_compute. reflexivity.
Qed.

Print Assumptions C76_import_text. Print Assumptions C79_written. Print Assumptions C79_at_rules_only.
Print Assumptions C76_no_panic. Print Assumptions C76_loads_iff_no_cycle. Print Assumptions C76_loaded. Print Assumptions C76_inline. Print Assumptions C76_cycle_refuted. Print Assumptions C76_late_import_refuted.
Print Assumptions C77_after_semicolon. Print Assumptions C77_after_block. Print Assumptions C77_declaration. Print Assumptions C77_invalid_declaration. Print Assumptions C77_rule. Print Assumptions C77_unknown_at_rule.
Print Assumptions C78_accepted. Print Assumptions C78_meaning_partial. Print Assumptions C78_fraction_refuted. Print Assumptions C78_grammar_refuted.
Print Assumptions C79_text_to_rules. Print Assumptions C79_escape_refuted.
