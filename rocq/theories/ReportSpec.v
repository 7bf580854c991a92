(** Where CSS says a position of a text is: lines end with LF, CR LF, CR or FF (CSS Syntax 3, section 3.3); columns count UTF-16 code units from 1.
    This is what cssparser (not in /repo) gives as the place of an error: the comment at error.rs:108-109 says so of the columns. *)
From Coq Require Import NArith.
From Verif Require Import Base Report.
Open Scope nat_scope.

Fixpoint css_place (line col : nat) (s : text) : nat * nat :=
  match s with
  | [] => (line, col)
  | c :: r =>
      if ((c =? LF) || (c =? FF))%N then css_place (S line) 1 r
      else if (c =? CR)%N then match r with d :: _ => if (d =? LF)%N then css_place line col r else css_place (S line) 1 r | [] => css_place (S line) 1 r end
      else css_place line (col + len16 c) r
  end.
(** the error about the [n] bytes behind [pre], as cssparser gives it *)
Definition error_behind (pre : text) (n : nat) : place := let (l, c) := css_place 0 1 pre in At l c n.

(** texts whose lines end with LF or CR LF only *)
Fixpoint plain (s : text) : bool :=
  match s with
  | [] => true
  | c :: r => negb (c =? FF)%N && (if (c =? CR)%N then match r with d :: _ => (d =? LF)%N | [] => false end else true) && plain r
  end.
Definition newline (c : char) : bool := ((c =? LF) || (c =? CR) || (c =? FF))%N.
Definition one_line (s : text) : Prop := forallb (fun c => negb (newline c)) s = true.
(** nothing, or a text that ends with the end of a line *)
Definition whole_lines (s : text) : Prop := s = [] \/ exists s', s = s' ++ [LF].
(** the end of the text, or the end of a line follows *)
Definition line_ends (s : text) : Prop := s = [] \/ exists r, s = LF :: r \/ s = CR :: LF :: r.
Definition last_is_ascii (s : text) : bool := match rev s with c :: _ => (c <? 128)%N | [] => false end.
