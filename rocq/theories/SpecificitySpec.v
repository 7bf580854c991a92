(** Specificity, after CSS Selectors 4, section 17: C102. *)
From Coq Require Import String NArith.
From Verif Require Import Base Matching.
Open Scope list_scope.

(** A: ID selectors, B: class selectors, attribute selectors and pseudo-classes, C: type selectors and pseudo-elements.  Compared
    A first, then B, then C. *)
Definition abc := (nat * nat * nat)%type.
Definition below (x y : abc) : Prop :=
  match x, y with (a, b, c), (a', b', c') => a < a' \/ a = a' /\ (b < b' \/ b = b' /\ c < c') end.
Definition add (x y : abc) : abc := match x, y with (a, b, c), (a', b', c') => (a + a', b + b', c + c') end.
(** [:is], [:not] and [:has] count as the most specific selector of their list, [:nth-child(_ of _)] as that and a pseudo-class,
    [:where] does not count, nor does [*] *)
Inductive counted_complex : complex -> abc -> Prop :=
| cc_one c x : counted_compound c x -> counted_complex (One c) x
| cc_then c k r x y : counted_compound c x -> counted_complex r y -> counted_complex (Then c k r) (add x y)
with counted_compound : list simple -> abc -> Prop :=
| cp_nil : counted_compound [] (0, 0, 0)
| cp_cons s c x y : counted_simple s x -> counted_compound c y -> counted_compound (s :: c) (add x y)
with counted_simple : simple -> abc -> Prop :=
| cs_universal : counted_simple Universal (0, 0, 0)
| cs_anchor : counted_simple Anchor (0, 0, 0)
| cs_type s : counted_simple (LocalName s) (0, 0, 1)
| cs_pseudo_element k : counted_simple (PseudoEl k) (0, 0, 1)
| cs_id s : counted_simple (Id s) (1, 0, 0)
| cs_class s : counted_simple (Class s) (0, 1, 0)
| cs_attr_exists k : counted_simple (AttrExists k) (0, 1, 0)
| cs_attr k op : counted_simple (Attr k op) (0, 1, 0)
| cs_state p : counted_simple (State p) (0, 1, 0)
| cs_root : counted_simple Root (0, 1, 0)
| cs_empty : counted_simple Empty (0, 1, 0)
| cs_nth e o a b : counted_simple (Nth e o a b) (0, 1, 0)
| cs_nth_of e a b l x : most_specific l x -> counted_simple (NthOf e a b l) (add x (0, 1, 0))
| cs_where l : counted_simple (Is true l) (0, 0, 0)
| cs_is l x : most_specific l x -> counted_simple (Is false l) x
| cs_not l x : most_specific l x -> counted_simple (Not l) x
| cs_has l x : most_specific l x -> counted_simple (Has l) x
with most_specific : list complex -> abc -> Prop :=
| ms_nil : most_specific [] (0, 0, 0)
| ms_new s l x y : counted_complex s x -> most_specific l y -> ~ below x y -> most_specific (s :: l) x
| ms_old s l x y : counted_complex s x -> most_specific l y -> below x y -> most_specific (s :: l) y.

(** fewer than 1024 of each kind *)
Definition countable (x : abc) : Prop := match x with (a, b, c) => a < 1024 /\ b < 1024 /\ c < 1024 end.
