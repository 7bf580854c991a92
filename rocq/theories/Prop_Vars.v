(** C08, C09, C10: var() resolution. *)
From Verif Require Import Base Tree TreeSpec Vars VarsSpec VarsProofs.
From Coq Require Import Relations.

(** C08.  A successful resolution is exactly the full substitution (relation [expands]), which is
    unique; conversely any expansion of nesting depth below 8 is found. The output type contains
    concrete tokens only. *)
Theorem C08_resolution_is_substitution :
  forall (name token : Type) (r : env name token) ts out,
  resolve_recursively r ts = Ok out ->
  (exists d, expands r ts out d) /\ (forall out' d', expands r ts out' d' -> out' = out).
Proof.
  exact (fun name token r ts out H =>
    match proj1 (resolve_iff r ts out) H with
    | ex_intro _ d (conj He _) =>
        conj (ex_intro _ d He) (fun out' d' He' => eq_sym (proj1 (expands_det r ts out d He out' d' He')))
    end).
Qed.
Print Assumptions C08_resolution_is_substitution.

(** C09.  Resolution (a total function) succeeds exactly when a full expansion of nesting depth
    below 8 exists; every reachable cycle is an error; errors are truthful: an unknown-variable
    error names an undefined reachable variable, a recursion error witnesses 8 nested references. *)
Theorem C09_success_iff_shallow :
  forall (name token : Type) (r : env name token) ts out,
  resolve_recursively r ts = Ok out <-> exists d, expands r ts out d /\ d < 8.
Proof. exact (fun name token r => resolve_iff r). Qed.
Print Assumptions C09_success_iff_shallow.

Theorem C09_cycles_are_errors :
  forall (name token : Type) (r : env name token) ts v c,
  In (Var v) ts -> leads_to r v c -> cyclic r c ->
  exists e, resolve_recursively r ts = Err e.
Proof. exact (fun name token r => resolve_cyclic r). Qed.
Print Assumptions C09_cycles_are_errors.

Theorem C09_errors_are_truthful :
  forall (name token : Type) (r : env name token) ts e,
  resolve_recursively r ts = Err e ->
  match e with
  | MaxRecursionReached => ref_chain r ts 8
  | UnknownVarName u => r u = None /\ exists v, In (Var v) ts /\ leads_to r v u
  end.
Proof. exact (fun name token r => resolve_errors r). Qed.
Print Assumptions C09_errors_are_truthful.

(** C10.  At an entity of a well formed hierarchy the variables seen are those of the nearest
    self-or-ancestor defining them, and resolution does not depend on any other node. *)
Theorem C10_nearest_definition :
  forall (name token : Type) (w : forest) (vars : nat -> env name token) e, wf_forest w ->
  exists n0, forall n, n0 <= n ->
    (forall v, nearest w vars v e (resolver_at w vars n e v)) /\
    (forall vars' : nat -> env name token,
       (forall a v, a = e \/ descendant w a e -> vars' a v = vars a v) ->
       forall ts, resolve_recursively (resolver_at w vars' n e) ts = resolve_recursively (resolver_at w vars n e) ts).
Proof. exact (fun name token => @resolve_at_entity name token). Qed.
Print Assumptions C10_nearest_definition.

(** Non-vacuity *)
Definition ex_env : env nat nat := fun v =>
  match v with 0 => Some [Tok 10; Var 1; Tok 11] | 1 => Some [Tok 20] | 2 => Some [Var 3] | 3 => Some [Var 2] | _ => None end.
Example ex_resolve : resolve_recursively ex_env [Var 0; Tok 5; Var 1] = Ok [10; 20; 11; 5; 20].
Proof. vm_compute. reflexivity. Qed.
Example ex_cycle : leads_to ex_env 2 3 /\ cyclic ex_env 3.
Proof.
  assert (H23 : mentions_var ex_env 2 3) by (exists [Var 3]; simpl; auto).
  assert (H32 : mentions_var ex_env 3 2) by (exists [Var 2]; simpl; auto).
  split; [apply rt_step; exact H23|]. eapply t_trans; apply t_step; eassumption.
Qed.
Example ex_cycle_err : resolve_recursively ex_env [Var 2] = Err MaxRecursionReached.
Proof. vm_compute. reflexivity. Qed.
(** a chain of exactly 7 nested references resolves, 8 do not *)
Definition chain_env : env nat nat := fun v => match v with 0 => Some [Tok 1] | S v => Some [Var v] end.
Example ex_chain_7 : resolve_recursively chain_env [Var 6] = Ok [1] /\ resolve_recursively chain_env [Var 7] = Err MaxRecursionReached.
Proof. vm_compute. auto. Qed.

Definition ex_forest : forest :=
  {| children := fun p => match p with 0 => [1; 2] | 1 => [3] | _ => [] end;
     parent := fun c => match c with 1 | 2 => Some 0 | 3 => Some 1 | _ => None end |}.
Example ex_forest_wf : wf_forest ex_forest.
Proof.
  split.
  - intros p c. destruct p as [|[|p]]; destruct c as [|[|[|[|c]]]]; simpl; split; intros H; try discriminate; intuition discriminate.
  - intros p. destruct p as [|[|p]]; simpl; repeat constructor; simpl; intuition discriminate.
  - exists (fun c => match c with 1 | 2 => 1 | 3 => 2 | _ => 0 end), 2. split.
    + intros c p. destruct c as [|[|[|[|c]]]]; simpl; intros H; inversion H; reflexivity.
    + intros n. destruct n as [|[|[|[|n]]]]; simpl; lia.
Qed.
