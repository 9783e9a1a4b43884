(** C77: what a complete run of the task graph leaves in the result objects.

    Specification: the definitions [sp_*] and [chosen] of Whole.v, which compose the
    numerical kernels without reference to tasks, memory or scheduling:
    for point p and kind k the shape average over the blocks p * n_shape + is of the
    coefficients of the orientation averaged T-matrix of order [ord b], the first order at
    which both efficiency factors changed by at most the tolerance (or the last one).

    The hypotheses on [vcode] say that execute() of every task touches only its own objects
    and computes [effect] (the control flow of the execute() functions, in Whole.v), in any
    number of steps, possibly interleaved with the steps of other tasks; [slotted] makes the
    blocks b and b + N share storage. *)
From Coq Require Import List Arith Lia Bool ZArith Floats.SpecFloat.
From Verif Require Import Base LockProto Sched Api TaskGraph TaskGraphFacts TaskDeps Footprint GraphApi GraphHist GraphRun
  Determinism SlotFree SlotFinal Converge Whole.
Import ListNotations.

Theorem C77_results : forall (c : cfg) (D : Type) (K : kernels D) (prec emax : Z) (tol : spec_float),
  o_min c < o_max c -> (Z.of_nat (o_max c) < 2 ^ 64)%Z ->
  (forall i j u v old, j <= i -> k_store K i u (k_store K j v old) = k_store K i u old) ->
  forall (L : Type) (vcode : task -> L -> (cell -> val D) -> option (L * (cell -> val D))) (start : task -> L),
  respects_footprint (unshared c) (val D) L vcode ->
  (forall t s s', task_in c t -> completes (val D) L vcode start t s s' -> forall x, s' x = effect c D K prec emax tol t s x) ->
  forall ord, (forall b, b < n_block c -> chosen c D K prec emax tol b (ord b)) ->
  forall N pre nq nt e s, 0 < N -> reservations pre -> 0 < nt ->
  running nq (generated (with_slots c N) pre) nt e -> all_exited e ->
  executed (with_slots c N) (val D) L (slotted c (val D) L vcode N) start (initial D K) (log (gl e)) s ->
  forall k p, flag c k = true -> p < n_point c -> s (DRes k p) = Data D (sp_result c D K k ord p).
Proof.
  intros c D K prec emax tol Ho H64 Hov L vcode start HV HE ord Hord.
  exact (whole c D K prec emax tol Ho H64 Hov L vcode start HV HE ord Hord).
Qed.
Print Assumptions C77_results.

(** The order of every block exists and is unique. *)
Theorem C77_order_exists : forall c D (K : kernels D) prec emax tol, o_min c < o_max c -> (Z.of_nat (o_max c) < 2 ^ 64)%Z ->
  exists ord, forall b, b < n_block c -> chosen c D K prec emax tol b (ord b).
Proof. intros. eapply orders_exist; eauto. Qed.
Print Assumptions C77_order_exists.
Theorem C77_order_unique : forall c D (K : kernels D) prec emax tol b i j,
  chosen c D K prec emax tol b i -> chosen c D K prec emax tol b j -> i = j.
Proof.
  intros c D K prec emax tol b i j (A1 & A2 & A3) (B1 & B2 & B3).
  destruct (lt_eq_lt_dec i j) as [[H|H]|H]; auto; exfalso.
  - destruct A3 as [A3|A3]; [exact (B2 i H A3)|lia].
  - destruct B3 as [B3|B3]; [exact (A2 j H B3)|lia].
Qed.
Print Assumptions C77_order_unique.

(** Every complete run has an outcome: the hypotheses on the code are met by the program that
    performs the whole of execute() as one step. *)
Theorem C77_outcome_exists : forall c D (K : kernels D) prec emax tol N pre nq nt e,
  o_min c < o_max c -> (Z.of_nat (o_max c) < 2 ^ 64)%Z -> 0 < N -> reservations pre -> 0 < nt ->
  running nq (generated (with_slots c N) pre) nt e -> all_exited e ->
  let code := one_code c D K prec emax tol in
  respects_footprint (unshared c) (val D) bool code /\
  (forall t s s', task_in c t -> completes (val D) bool code one_start t s s' -> forall x, s' x = effect c D K prec emax tol t s x) /\
  exists s, executed (with_slots c N) (val D) bool (slotted c (val D) bool code N) one_start (initial D K) (log (gl e)) s.
Proof.
  intros c D K prec emax tol N pre nq nt e Ho H64 HN HP Hn Hr Hx code.
  split; [apply one_respects|]. split; [apply one_effect|].
  eapply one_outcome; eauto; [apply (G_pos c Ho H64)|apply (M_pos c Ho)].
Qed.
Print Assumptions C77_outcome_exists.

(* ------------------------------------------------------ a concrete case *)
(** One composition, size and wavelength, two shapes, orders 1, 2 and 3, one slot for the two
    blocks; contents are lists of numbers that record how they were computed.  The scattering
    efficiency is 1, 9/8, 1 for the three orders and the tolerance 1/4, so the second order is used. *)
Definition w_cfg : cfg := mkCfg 1 1 1 2 1 4 1 (fun k => match k with Ext => true | _ => false end).
Definition w_Q (i : nat) : spec_float := match i with 1 => S754_finite false 9 (-3) | _ => S754_finite false 1 0 end.
Definition w_K : kernels (list nat) := mkKernels (list nat) [] [0] (fun _ => []) (fun p => [100 + p]) [200] (fun i => [300 + i]) (fun _ => [400])
  (fun _ g => 500 :: g) (fun i g => 600 + i :: g) (fun is i g => 700 + 10 * is + i :: g) (fun i v g => 800 + i :: v ++ g)
  (fun i _ _ _ g _ _ => (900 + i :: g, w_Q i, w_Q i)) (fun i u _ => u)
  (fun m i _ _ _ g _ _ _ => 1000 + 10 * m + i :: g) (fun b n l m _ => 2000 + 10 * b + m :: n :: concat l)
  (fun _ _ n l _ _ _ _ => 3000 + n :: concat l) (fun _ l _ => 4000 :: concat l).
Lemma w_chosen : forall b, chosen w_cfg (list nat) w_K 24 128 (S754_finite false 1 (-2)) b 1.
Proof.
  intros b. split; [vm_compute; lia|]. split.
  - intros j Hj (A & _). lia.
  - left. split; [lia|]. repeat split; vm_compute; reflexivity.
Qed.
Example C77_example : exists e s, running 2 (generated (with_slots w_cfg 1) []) 3 e /\ all_exited e /\
  executed (with_slots w_cfg 1) (val (list nat)) bool (slotted w_cfg (val (list nat)) bool (one_code w_cfg (list nat) w_K 24 128 (S754_finite false 1 (-2))) 1) one_start
    (initial (list nat) w_K) (log (gl e)) s /\
  s (DRes Ext 0) = Data (list nat) (sp_result w_cfg (list nat) w_K Ext (fun _ => 1) 0) /\
  firstn 7 (sp_result w_cfg (list nat) w_K Ext (fun _ => 1) 0) = [4000; 3002; 2000; 2; 901; 701; 301].
Proof.
  assert (P: reservations []) by (intros x []).
  assert (A: 0 < n_slot (with_slots w_cfg 1)) by (cbn; lia). assert (B: 0 < n_quad (with_slots w_cfg 1)) by (vm_compute; lia).
  assert (C: 0 < o_max (with_slots w_cfg 1)) by (cbn; lia).
  destruct (run_exists 2 (generated (with_slots w_cfg 1) []) 3) as (e & R & X); [apply generated_valid; auto|lia|apply generated_acyclic; auto|apply generated_lockable; auto|].
  assert (O: o_min w_cfg < o_max w_cfg) by (cbn; lia). assert (H64: (Z.of_nat (o_max w_cfg) < 2 ^ 64)%Z) by reflexivity.
  destruct (C77_outcome_exists w_cfg (list nat) w_K 24 128 (S754_finite false 1 (-2)) 1 [] 2 3 e O H64 ltac:(lia) P ltac:(lia) R X) as (HV & HE & s & E).
  exists e, s. repeat split; auto.
  eapply (C77_results w_cfg (list nat) w_K 24 128 (S754_finite false 1 (-2)) O H64 ltac:(reflexivity) bool _ one_start HV HE (fun _ => 1) (fun b _ => w_chosen b) 1 [] 2 3 e s); auto; cbn; lia.
Qed.
