(** Specification of var() substitution: a big-step relation, with the nesting depth of references. *)
From Verif Require Import Base Tree TreeSpec Vars.
From Coq Require Import Relations.

Section Spec.
  Context {name token : Type}.
  Variable r : env name token.

  (** [expands ts out d]: replacing every var() in [ts] by the (expanded) tokens of the variable
      gives [out]; the longest chain of nested references followed has length [d]. *)
  Inductive expands : list (var_or_token name token) -> list token -> nat -> Prop :=
  | exp_nil : expands [] [] 0
  | exp_tok : forall t ts out d, expands ts out d -> expands (Tok t :: ts) (t :: out) d
  | exp_var : forall v def ts out1 out2 d1 d2,
      r v = Some def -> expands def out1 d1 -> expands ts out2 d2 ->
      expands (Var v :: ts) (out1 ++ out2) (Nat.max (S d1) d2).

  (** variable [a]'s definition mentions variable [b] *)
  Definition mentions_var (a b : name) : Prop := exists def, r a = Some def /\ In (Var b) def.
  Definition leads_to := clos_refl_trans name mentions_var.
  Definition cyclic (a : name) := clos_trans name mentions_var a a.

  (** A chain of [n] nested references starting in [ts]. *)
  Inductive ref_chain : list (var_or_token name token) -> nat -> Prop :=
  | rc_0 : forall ts, ref_chain ts 0
  | rc_S : forall ts v def n, In (Var v) ts -> r v = Some def -> ref_chain def n -> ref_chain ts (S n).
End Spec.

Section Nearest.
  Context {name token : Type}.
  Variables (w : forest) (vars : nat -> env name token).

  (** The definition of [v] visible at [e]: its own, else the nearest ancestor's. *)
  Inductive nearest (v : name) : nat -> option (list (var_or_token name token)) -> Prop :=
  | near_here : forall e ts, vars e v = Some ts -> nearest v e (Some ts)
  | near_up : forall e p o, vars e v = None -> parent w e = Some p -> nearest v p o -> nearest v e o
  | near_root : forall e, vars e v = None -> parent w e = None -> nearest v e None.
End Nearest.
