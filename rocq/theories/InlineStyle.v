(** Model of crates/bevy_flair_css_parser/src/inline_styles.rs.
    Text is a list of ASCII characters (the code has UTF-8; nothing here depends on other characters except
    that [trim] only removes the ASCII white space). The LinkedHashMap is the list of its entries in link
    order. The CSS parser behind [parse_inline_properties] is an arbitrary function of the text handed to it. *)
From Coq Require Export Ascii String.
From Verif Require Import Base.
Open Scope list_scope.

Notation text := (list ascii) (only parsing).
Definition text_eq_dec : forall a b : text, {a = b} + {a <> b} := list_eq_dec ascii_dec.
Definition teqb (a b : text) : bool := if text_eq_dec a b then true else false.

(** str::trim; char::is_whitespace restricted to ASCII: U+0009..U+000D and U+0020 *)
Definition is_ws (c : ascii) : bool := let n := nat_of_ascii c in ((9 <=? n) && (n <=? 13)) || (n =? 32).
Fixpoint trim_start (s : text) : text := match s with c :: r => if is_ws c then trim_start r else s | [] => [] end.
Definition trim (s : text) : text := rev (trim_start (rev (trim_start s))).
(** str::split(";"): always at least one piece *)
Fixpoint split (d : ascii) (s : text) : list text :=
  match s with
  | [] => [[]]
  | c :: r => match split d r with
              | p :: ps => if Ascii.eqb c d then [] :: p :: ps else (c :: p) :: ps
              | [] => [[]] end
  end.
(** str::split_once(":") *)
Fixpoint split_once (d : ascii) (s : text) : option (text * text) :=
  match s with
  | [] => None
  | c :: r => if Ascii.eqb c d then Some ([], r) else match split_once d r with Some (a, b) => Some (c :: a, b) | None => None end
  end.

(** linked_hash_map::LinkedHashMap get / remove / insert: inserting an existing key replaces its value and moves the entry to the back *)
Notation decls := (list (list ascii * list ascii)) (only parsing).
Fixpoint lookup (k : text) (m : decls) : option text :=
  match m with [] => None | (k', v) :: m => if text_eq_dec k' k then Some v else lookup k m end.
Definition map_remove (k : text) (m : decls) : decls := filter (fun e => negb (teqb (fst e) k)) m.
Definition map_insert (k v : text) (m : decls) : decls := map_remove k m ++ [(k, v)].

(** 96-116 FromStr::from_str, also InlineStyle::new (34-36) *)
Definition from_str_line (m : decls) (line : text) : decls :=
  let line := trim line in
  match line with
  | [] => m
  | _ => match split_once ":"%char line with
         | None => map_insert line [] m
         | Some (n, v) => map_insert (trim n) (trim v) m
         end
  end.
Definition from_str (s : text) : decls := fold_left from_str_line (split ";"%char s) [].
(** 81-94 FromIterator *)
Definition from_iter (l : decls) : decls := fold_left (fun m e => map_insert (fst e) (snd e) m) l [].
(** 46-48 get, 62-64 set, 76-78 remove *)
Definition get (n : text) (m : decls) : option text := lookup n m.
Definition set (n v : text) (m : decls) : decls := map_insert n v m.
Definition remove (n : text) (m : decls) : decls := map_remove n m.

(** API operations on one InlineStyle value *)
Inductive style_op := Set_ (n v : text) | Remove_ (n : text).
Definition apply_style_op (m : decls) (o : style_op) : decls := match o with Set_ n v => set n v m | Remove_ n => remove n m end.
Inductive style_src := FromText (s : text) | FromPairs (l : decls).
Definition build (s : style_src) : decls := match s with FromText t => from_str t | FromPairs l => from_iter l end.

(** 137-141 the text handed to the CSS parser: "{css_name}: {value};" and a line end per entry *)
Definition to_text (m : decls) : text :=
  flat_map (fun e => fst e ++ ":"%char :: " "%char :: snd e ++ [";"%char; "010"%char]) m.

(** What the parser reports per declaration: a declaration, one that also carries the `!important` advice, or an error *)
Inductive item (D : Type) := Plain (d : D) | Advised (d : D) | Bad.
Arguments Plain {D} d. Arguments Advised {D} d. Arguments Bad {D}.

Section System.
  Context {D : Type} (parse : text -> list (item D)).
  (** One entity: its InlineStyle and RawInlineStyle components, and whether [Changed<InlineStyle>] will match *)
  Record ent := { e_style : option decls; e_changed : bool; e_raw : option (list D) }.
  Notation world := (nat -> ent).
  Definition put (w : world) (e : nat) (x : ent) : world := fun e' => if e' =? e then x else w e'.

  (** 148-150 process_ruleset_property (internal_loader.rs:43-85): the declarations that reach the builder *)
  Definition declared (its : list (item D)) : list D :=
    flat_map (fun i => match i with Plain d | Advised d => [d] | Bad => [] end) its.
  (** 152 ErrorReportGenerator::is_empty (error.rs:449-451): neither error nor advice was added *)
  Definition report_empty (its : list (item D)) : bool := forallb (fun i => match i with Plain _ => true | _ => false end) its.

  (** 134-167 the loop of [parse_inline_style] over the matching entities in query order; the commands are applied at
      once here (the loop never reads RawInlineStyle). 156 [return] abandons the remaining entities. *)
  Fixpoint loop (es : list nat) (w : world) : world :=
    match es with
    | [] => w
    | e :: es =>
        match e_style (w e) with
        | Some m => if e_changed (w e) then
                      let its := parse (to_text m) in
                      if report_empty its
                      then loop es (put w e {| e_style := Some m; e_changed := e_changed (w e); e_raw := Some (declared its) |})
                      else w
                    else loop es w
        | None => loop es w
        end
    end.
  (** After the system has run its change window moves on: nothing written before counts as changed any more *)
  Definition clear_changed (w : world) : world := fun e => {| e_style := e_style (w e); e_changed := false; e_raw := e_raw (w e) |}.
  Definition parse_inline_style (order : list nat) (w : world) : world := clear_changed (loop order w).

  (** What the application does between runs: insert or overwrite the component, mutate it, remove it *)
  Inductive event := Insert (e : nat) (s : style_src) | Mutate (e : nat) (o : style_op) | RemoveComponent (e : nat) | Frame (order : list nat).
  Definition step (w : world) (v : event) : world :=
    match v with
    | Insert e s => put w e {| e_style := Some (build s); e_changed := true; e_raw := e_raw (w e) |}
    | Mutate e o => match e_style (w e) with
                    | Some m => put w e {| e_style := Some (apply_style_op m o); e_changed := true; e_raw := e_raw (w e) |}
                    | None => w end
    | RemoveComponent e => put w e {| e_style := None; e_changed := false; e_raw := e_raw (w e) |}
    | Frame order => parse_inline_style order w
    end.
  Definition start : world := fun _ => {| e_style := None; e_changed := false; e_raw := None |}.
  Definition run (vs : list event) : world := fold_left step vs start.
End System.
Arguments ent : clear implicits.
