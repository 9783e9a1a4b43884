(** Concrete instances for the properties of the generated task graph. *)
From Coq Require Import List Arith Lia Bool ZArith Permutation Relation_Operators.
From Verif Require Import Base LockProto Sched Api Races TaskGraph TaskGraphFacts TaskDeps Footprint GraphApi GraphHist GraphRun Determinism SlotFree SlotFinal.
Import ListNotations.

(** 1 composition, 2 sizes, 1 wavelength, 2 shapes, orders 1..3, extinction and
    scattering requested, [N] T-matrix slots for 4 blocks. *)
Definition ex_cfg (N : nat) : cfg := mkCfg 1 2 1 2 1 3 N (fun k => match k with Abs => false | _ => true end).

Lemma ex_cfg_ok : forall N, 0 < N -> 0 < n_slot (ex_cfg N) /\ 0 < n_quad (ex_cfg N) /\ 0 < o_max (ex_cfg N).
Proof. intros N H. split; [exact H|split; [cbn; lia|cbn; lia]]. Qed.
Lemma ex_count : ntasks (generated (ex_cfg 1) []) = 69.
Proof. vm_compute. reflexivity. Qed.

Lemma ex_graph_run : forall N nq nt, 0 < N -> 0 < nq -> exists e, running nq (generated (ex_cfg N) []) nt e /\ all_exited e.
Proof.
  intros N nq nt HN Hq. destruct (ex_cfg_ok N HN) as (A & B & _).
  assert (P: reservations []) by (intros x []).
  apply run_exists; auto.
  - apply generated_valid; auto.
  - apply generated_acyclic; auto.
  - apply generated_lockable; auto.
Qed.

(** A toy computation with the same reads and writes: a task adds one to
    everything it writes, resets write 0, and the result for one shape is computed
    from the aligned T-matrix.  Each task takes two steps. *)
Definition ex_new (c : cfg) (t : task) (s : cell -> nat) (x : cell) : nat :=
  match t with
  | TR1 _ | TR2 _ | TR3 _ => 0
  | TC _ b => s (DTm (2 * (b mod n_slot c) + 1)) + 7
  | _ => s x + 1
  end.
Definition ex_code (c : cfg) (t : task) (l : nat) (s : cell -> nat) : option (nat * (cell -> nat)) :=
  match l with
  | 0 => Some (1, s)
  | 1 => Some (2, fun x => if writes_dec c t x then ex_new c t s x else s x)
  | _ => None
  end.
Definition ex_start (t : task) : nat := 0.

Lemma ex_respects : forall c, respects_footprint c nat nat (ex_code c).
Proof.
  intros c. split.
  - intros t l s l' s' _ E x Hx. destruct l as [|[|l]]; cbn in E; [| |discriminate]; injection E as <- <-; auto.
    destruct (writes_dec c t x); [contradiction|auto].
  - intros t l s1 s2 _ H. destruct l as [|[|l]]; cbn; [split; auto|split; [auto|]|auto].
    intros x Hx. destruct (writes_dec c t x) as [w|w]; auto. destruct t; cbn [ex_new]; auto.
    rewrite H; auto. right. cbn. tauto.
Qed.
Lemma ex_steps : forall c t s, psteps cell nat nat (fun _ => ex_code c t) 0 (ex_start t) s 2
  (fun x => if writes_dec c t x then ex_new c t s x else s x).
Proof. intros c t s. eapply ps_step; [eapply ps_step; [constructor|reflexivity]|reflexivity]. Qed.
Lemma ex_completes : forall c t s s', completes nat nat (ex_code c) ex_start t s s' ->
  s' = fun x => if writes_dec c t x then ex_new c t s x else s x.
Proof.
  intros c t s s' H. eapply (completes_det nat nat (ex_code c) ex_start); [exact H|]. exists 2. split; [apply ex_steps|reflexivity].
Qed.
Definition ex_s0 : cell -> nat := fun _ => 0.
Lemma ex_uniform : uniform nat ex_s0.
Proof. repeat split. Qed.
Lemma ex_resets : forall c, resets c nat nat (ex_code (unshared c)) ex_start ex_s0.
Proof.
  intros c b s s' Hb. unfold ex_s0.
  assert (E: b mod S (n_block c) = b) by (apply Nat.mod_small; lia).
  repeat split; intros; match goal with H : completes _ _ _ _ _ _ _ |- _ => apply ex_completes in H; subst s' end;
    match goal with |- (if ?q then _ else _) = _ => destruct q as [w|w] end; try reflexivity;
    exfalso; apply w; cbn [writes unshared with_slots n_slot]; rewrite E; eauto.
Qed.

Lemma ex_slotted_term : forall c N, 0 < N -> terminating (with_slots c N) nat nat (slotted c nat nat (ex_code (unshared c)) N) ex_start.
Proof.
  intros c N HN t s Ht. eexists 2, _. split.
  - eapply ps_step; [eapply ps_step; [constructor|unfold ex_start, slotted; cbn [ex_code]; reflexivity]|unfold slotted; cbn [ex_code]; reflexivity].
  - reflexivity.
Qed.

(** One slot and two slots, different numbers of threads and queues. *)
Lemma ex_slots : exists e1 e2 s1 s2,
  running 1 (generated (ex_cfg 1) []) 1 e1 /\ all_exited e1 /\ running 2 (generated (ex_cfg 2) []) 3 e2 /\ all_exited e2 /\
  executed (ex_cfg 1) nat nat (slotted (ex_cfg 1) nat nat (ex_code (unshared (ex_cfg 1))) 1) ex_start ex_s0 (log (gl e1)) s1 /\
  executed (ex_cfg 2) nat nat (slotted (ex_cfg 1) nat nat (ex_code (unshared (ex_cfg 1))) 2) ex_start ex_s0 (log (gl e2)) s2.
Proof.
  destruct (ex_graph_run 1 1 1 ltac:(lia) ltac:(lia)) as (e1 & R1 & X1).
  destruct (ex_graph_run 2 2 3 ltac:(lia) ltac:(lia)) as (e2 & R2 & X2).
  assert (P: reservations []) by (intros x []).
  destruct (ex_cfg_ok 1 ltac:(lia)) as (A1 & A2 & A3). destruct (ex_cfg_ok 2 ltac:(lia)) as (B1 & B2 & B3).
  destruct (executed_exists (ex_cfg 1) nat nat (slotted (ex_cfg 1) nat nat (ex_code (unshared (ex_cfg 1))) 1) ex_start A1 A2 A3 [] P)
    with (nq := 1) (nt := 1) (e := e1) (s0 := ex_s0) as (s1 & E1); auto.
  { apply (slotted_footprint (ex_cfg 1) nat nat _ A2 A3 (ex_respects _) 1). }
  { apply (ex_slotted_term (ex_cfg 1) 1). lia. }
  destruct (executed_exists (ex_cfg 2) nat nat (slotted (ex_cfg 1) nat nat (ex_code (unshared (ex_cfg 1))) 2) ex_start B1 B2 B3 [] P)
    with (nq := 2) (nt := 3) (e := e2) (s0 := ex_s0) as (s2 & E2); auto; try lia.
  { apply (slotted_footprint (ex_cfg 1) nat nat _ A2 A3 (ex_respects _) 2). }
  { apply (ex_slotted_term (ex_cfg 1) 2). lia. }
  exists e1, e2, s1, s2. auto 10.
Qed.
