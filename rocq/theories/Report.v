(** Model of how the place of an error becomes a range of bytes of the text:
    crates/bevy_flair_css_parser/src/error.rs:23-130 (CssErrorLocation, into_range), 332-339 (improve_location_with_sub_str).
    A text is its sequence of Unicode scalar values. [None] is a panic.
    A pointer into the text (SubStr) is its offset. Range is not checked by the code; what ariadne does with a range is not modelled. *)
From Coq Require Import NArith.
From Verif Require Import Base.
Open Scope nat_scope.

Definition char := N.
Definition text := list char.
(** char::len_utf8, char::len_utf16 *)
Definition len8 (c : char) : nat := if (c <? 128)%N then 1 else if (c <? 2048)%N then 2 else if (c <? 65536)%N then 3 else 4.
Definition len16 (c : char) : nat := if (c <? 65536)%N then 1 else 2.
(** str::len *)
Definition bytes (s : text) : nat := list_sum (map len8 s).
Definition LF : char := 10%N.
Definition FF : char := 12%N.
Definition CR : char := 13%N.

(** str::lines, with the offset of each line. [acc]: the characters of the line so far, in reverse *)
Definition strip_cr (acc : text) : text := match acc with c :: r => if (c =? CR)%N then r else acc | [] => [] end.
Fixpoint lines_acc (start pos : nat) (acc : text) (s : text) : list (nat * text) :=
  match s with
  | [] => match acc with [] => [] | _ => [(start, rev acc)] end
  | c :: r => if (c =? LF)%N then (start, rev (strip_cr acc)) :: lines_acc (pos + 1) (pos + 1) [] r else lines_acc start (pos + len8 c) (c :: acc) r
  end.
Definition lines (s : text) : list (nat * text) := lines_acc 0 0 [] s.

(** error.rs:108-116: the bytes of the characters that make up [n] UTF-16 code units. A subtraction below zero is a panic;
    where it wraps instead, the loop runs out of characters, which is one too. *)
Fixpoint skip_units (n : nat) (s : text) : option nat :=
  match n with
  | 0 => Some 0
  | _ => match s with [] => None | c :: r => if len16 c <=? n then option_map (Nat.add (len8 c)) (skip_units (n - len16 c) r) else None end
  end.
(** str::is_char_boundary *)
Fixpoint boundary (n : nat) (s : text) : bool :=
  match n with 0 => true | _ => match s with [] => false | c :: r => (len8 c <=? n) && boundary (n - len8 c) r end end.

(** error.rs:23-35 *)
Inductive place :=
| InRange (from to : nat)
| Unlocated
| SubStr (from len : nat)
| At (line col len : nat).

(** error.rs:78-130 *)
Definition into_range (p : place) (contents : text) : option (nat * nat) :=
  match p with
  | Unlocated => None
  | InRange a b => Some (a, b)
  | SubStr a n => if (a <=? bytes contents) && (a + n <=? bytes contents) then Some (a, a + n) else None
  | At line col n =>
      match nth_error (lines contents) line with
      | None => None
      | Some (start, l) =>
          match skip_units (col - 1) l with
          | None => None
          | Some off =>
              if bytes l <=? off then
                match bytes l with
                | 0 => None
                | S k => if boundary k l then Some (start + k, start + S k) else None
                end
              else if boundary (off + n) l then Some (start + off, start + (off + n)) else None
          end
      end
  end.

(** error.rs:332-339 *)
Definition improve (p : place) (from len : nat) : place := match p with Unlocated => SubStr from len | _ => p end.
