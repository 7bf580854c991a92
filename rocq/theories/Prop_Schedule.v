(** C95: an update does not depend on the order in which the scheduler runs the systems. *)
From Coq Require Import NArith Permutation.
From Verif Require Import Base Schedule ScheduleSpec ScheduleProofs.
Open Scope nat_scope.

(** Whatever the systems compute from what they read, all the orders that the scheduler may choose give the same world. *)
Theorem C95_any_order_partial : forall (k : kinds) (b : behaviour k) (w : world k) (o o' : list system),
  allowed o -> allowed o' -> single_source b (w_ext w) -> same (run_all b o w) (run_all b o' w).
Proof. intros. apply any_order; assumption. Qed.

(** The same over any number of updates, each in its own order, with anything happening between them. *)
Fixpoint updates {k} (b : behaviour k) (l : list ((world k -> world k) * list system)) (w : world k) : world k :=
  match l with [] => w | (f, o) :: r => updates b r (run_all b o (f (put_active false w))) end.
Theorem C95_any_orders_partial : forall (k : kinds) (b : behaviour k) (l l' : list ((world k -> world k) * list system)) (w : world k),
  map fst l = map fst l' -> Forall allowed (map snd l) -> Forall allowed (map snd l') -> (forall f v, In f (map fst l) -> single_source b (w_ext (f v))) ->
  same (updates b l w) (updates b l' w).
Proof.
  intros k b l l' w E.
  revert l' w E. induction l as [|(f & o) l IH]; intros [|(f' & o') l'] w E A A' H; try discriminate; [reflexivity|]. cbn in E. injection E as <- E.
  cbn [map snd] in A, A'. inversion A; inversion A'; subst. cbn [updates].
  assert (same (run_all b o (f (put_active false w))) (run_all b o' (f (put_active false w)))) as S1 by (apply any_order; auto; apply H; left; reflexivity).
  assert (forall v v', same v v' -> updates b l' v = updates b l' v' \/ l' = []) as Hs.
  { intros v v' Hv. destruct l' as [|(g & p) l']; [right; reflexivity|]. left. cbn [updates]. unfold same in Hv. rewrite Hv. reflexivity. }
  assert (same (updates b l (run_all b o (f (put_active false w)))) (updates b l' (run_all b o (f (put_active false w))))) as S2 by (apply IH; auto; intros g v Hg; apply H; right; exact Hg).
  unfold same in *. rewrite S2. destruct (Hs _ _ S1) as [-> | ->]; [reflexivity|]. exact S1.
Qed.

(** Two orders that are allowed: the one of the source, and one with ticking first, events last, and every set the other way round. *)
Definition other_order : list system := [WindowTheme; ClearGlobal; SheetChanged; Tick; ResetProps; SortPseudo; SyncSiblings; WindowFeatures; Effective;
  SyncFocus; Names; SyncInteraction; SyncHovered; SyncChecked; SyncDisabled; SyncPressed; Attributes; Classes; IsRoot; MarkRelated; MarkChanged; MarkWindow; MarkTarget;
  Calculate; SetValues; Compute; ResolveAnims; SetAnimValues; EmitEvents; Placeholders; Apply; AutoRemove; Redraw].
Definition perm_of (l : list system) : bool := forallb (fun s => existsb (system_eqb s) l) systems && (length l =? length systems).
Lemma perm_of_spec l : NoDup l -> perm_of l = true -> Permutation systems l.
Proof.
  intros Hn H. apply andb_prop in H as (H1 & H2). apply Nat.eqb_eq in H2. apply NoDup_Permutation_bis; [apply systems_nodup | rewrite H2; constructor |].
  intros s Hs. rewrite forallb_forall in H1. apply H1, existsb_exists in Hs as (y & Hy & E). unfold system_eqb in E. destruct (_ : {s = y} + {s <> y}) in E; [subst; exact Hy | discriminate].
Qed.
Example C95_orders : allowed systems /\ allowed other_order /\ systems <> other_order.
Proof.
  split; [|split; [|discriminate]].
  - split; [reflexivity | apply ordered_respects; vm_compute; reflexivity].
  - split; [|apply ordered_respects; vm_compute; reflexivity]. apply perm_of_spec; [repeat constructor; cbn; intuition discriminate | vm_compute; reflexivity].
Qed.

(** a world of one node, with nothing going on but the pointer *)
Definition ex_kinds : kinds := mkkinds unit unit unit (N * N) unit unit unit unit unit unit unit unit unit unit unit unit unit unit unit unit.
Definition nobody {A} : A -> N := fun _ => 0%N.
(** the first component: nodes whose Interaction became Pressed; the second: nodes whose Hovered became true *)
Definition ex_behaviour : behaviour ex_kinds :=
  mkbehaviour ex_kinds (fun _ _ _ => 0%N) (fun _ _ _ c => c) (fun _ f => f) (fun _ v => v) (fun _ w => w) (fun _ _ e => e) (fun _ _ _ => 0%N) (fun _ _ _ => 0%N) (fun _ f => f) (fun _ _ f => f)
    (fun _ o => o) (fun _ _ _ s => s) nobody tt (fun _ _ r => r) (fun _ _ => 0%N) (fun _ c => c) nobody (fun _ a => a) nobody (fun _ n => n) nobody (fun _ f => f) (fun _ _ => 0%N)
    nobody nobody nobody nobody nobody nobody snd snd fst fst nobody (fun _ _ _ _ => 0%N) (fun _ _ _ _ _ _ _ => 0%N) (fun _ _ => 0%N) (fun _ _ _ => 0%N) (fun _ m => (m, [])) (fun _ => true) (fun _ => true)
    w_rul w_vrs w_flg (fun _ => 0%N) (fun w => w) (fun w => w) (fun w => w) (fun w => w) (fun _ _ _ _ r => r) (fun _ _ a _ r => (a, r)) w_cmp w_cmp w_app (fun _ _ a => a).
Definition ex_world (e : N * N) : world ex_kinds := mkworld ex_kinds tt tt tt e tt tt 0 0 tt tt tt tt tt tt tt 0 0 0 0 0 tt tt tt [mkprops (k := ex_kinds) tt [] tt []] 0 false false [] false.
Example C95_source_ex : single_source ex_behaviour (1, 0)%N /\ w_prs (run_all ex_behaviour systems (ex_world (1, 0)%N)) = 1%N.
Proof. split; vm_compute; reflexivity. Qed.
(** A node that is pressed and hovered in the same frame, by its Interaction and by its Hovered component: the order decides whether it is `:hover`. *)
Theorem C95_two_sources_refuted : exists (k : kinds) (b : behaviour k) (w : world k) o o', allowed o /\ allowed o' /\ w_hov (run_all b o w) <> w_hov (run_all b o' w).
Proof. exists ex_kinds, ex_behaviour, (ex_world (1, 1)%N), systems, other_order. split; [apply C95_orders|]. split; [apply C95_orders|]. vm_compute. discriminate. Qed.

Print Assumptions C95_any_order_partial. Print Assumptions C95_any_orders_partial. Print Assumptions C95_two_sources_refuted.
