(** Model of crates/bevy_flair_style/src/vars.rs and of the variable lookup of systems.rs:614-662.

    Variable names and concrete tokens are abstract types ([name], [token]): the code only compares
    names through the resolver and clones tokens. *)
From Verif Require Import Base Tree.

Section Vars.
  Context {name token : Type}.

  (** vars.rs:80-86  enum VarOrToken *)
  Inductive var_or_token := Var (n : name) | Tok (t : token).

  (** vars.rs:138-146  enum ResolveTokensError *)
  Inductive resolve_error := UnknownVarName (n : name) | MaxRecursionReached.

  Inductive result (A : Type) := Ok (a : A) | Err (e : resolve_error).
  Arguments Ok {A}. Arguments Err {A}.

  (** vars.rs:160 *)
  Definition MAX_DEFAULT_RECURSION : nat := 8.

  Definition env := name -> option (list var_or_token).

  (** vars.rs:177-203 resolve_recursively_inner.  [output] is the accumulator [&mut Vec]; on an
      error the partially filled vector is dropped by the caller (vars.rs:171-173), so it is not
      returned. *)
  Fixpoint resolve_recursively_inner (r : env) (max_recursion : nat)
           (self : list var_or_token) (output : list token) : result (list token) :=
    match max_recursion with
    | 0 => Err MaxRecursionReached
    | S max_recursion' =>
        (fix for_loop (l : list var_or_token) (output : list token) : result (list token) :=
           match l with
           | [] => Ok output
           | Var v :: l' =>
               match r v with
               | None => Err (UnknownVarName v)
               | Some inner =>
                   match resolve_recursively_inner r max_recursion' inner output with
                   | Err e => Err e
                   | Ok output' => for_loop l' output'
                   end
               end
           | Tok t :: l' => for_loop l' (output ++ [t])
           end) self output
    end.

  (** vars.rs:167-174 *)
  Definition resolve_recursively (r : env) (self : list var_or_token) : result (list token) :=
    resolve_recursively_inner r MAX_DEFAULT_RECURSION self [].

  (** systems.rs:636-639 get_var_tokens: [find_map] over self and ancestors; [vars e] is the
      [NodeVars] component of [e] ([None] for a missing component reads as no variable).
      [fuel] bounds the ancestor walk. [None] at the outer level = walk not finished. *)
  Fixpoint find_map {A B} (f : A -> option B) (l : list A) : option B :=
    match l with
    | [] => None
    | x :: r => match f x with Some b => Some b | None => find_map f r end
    end.

  Definition get_var_tokens (w : forest) (vars : nat -> env) (fuel e : nat) (v : name)
    : option (option (list var_or_token)) :=
    option_map (find_map (fun e' => vars e' v)) (iter_self_and_ancestors w fuel e).

  (** The resolver used at entity [e] (systems.rs:648-662), total once the walk has finished *)
  Definition resolver_at (w : forest) (vars : nat -> env) (fuel e : nat) : env :=
    fun v => match get_var_tokens w vars fuel e v with Some r => r | None => None end.
End Vars.
Arguments var_or_token : clear implicits.
Arguments resolve_error : clear implicits.
Arguments result : clear implicits.
Arguments env : clear implicits.
Arguments Ok {name A}. Arguments Err {name A}.
