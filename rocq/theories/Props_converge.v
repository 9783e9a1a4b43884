(** Properties C21 (choice of the expansion order) and C45 (progress reports). *)
From Coq Require Import List Arith Lia Bool ZArith QArith Floats.SpecFloat.
From Verif Require Import Base LockProto Sched Api Races TaskGraph TaskGraphFacts TaskDeps Footprint GraphApi GraphHist GraphRun GraphEx Converge Progress.
Import ListNotations.
Local Open Scope nat_scope.

(** C21: the order tasks of one T-matrix run strictly one after the other, and all
    before the m > 0 tasks, under every schedule *)
Theorem C21_order_tasks_in_sequence : forall c pre nq nt e, 0 < n_slot c -> 0 < n_quad c -> reservations pre ->
  running nq (generated c pre) nt e ->
  forall b i m, b < n_block c -> i < n_quad c -> 1 <= m <= o_max c -> forall l1 l2,
  (log (gl e) = l1 ++ Start (tid (generate c) (TM0 b i)) :: l2 -> In (End (tid (generate c) (TI b i))) l2) /\
  (S i < n_quad c -> log (gl e) = l1 ++ Start (tid (generate c) (TI b (S i))) :: l2 -> In (End (tid (generate c) (TM0 b i))) l2) /\
  (log (gl e) = l1 ++ Start (tid (generate c) (TMA b m)) :: l2 -> In (End (tid (generate c) (TM0 b (n_quad c - 1)))) l2).
Proof.
  intros c pre nq nt e HN HG HP HR b i m Hb Hi Hm l1 l2.
  pose proof (generated_valid c HN HG pre HP) as HV.
  assert (K: forall t u, dep c t u -> In (tid (generate c) t, tid (generate c) u) (dependencies (generated c pre))).
  { intros t u D. apply (generated_deps c HN pre HP). exists t, u. auto. }
  repeat split; intros; eapply api_order; eauto; apply K.
  - apply d_int; auto.
  - apply d_prev; auto.
  - apply d_m0_ma; auto.
Qed.
Print Assumptions C21_order_tasks_in_sequence.

(** the first accepted order is the one all parts of the T-matrix are computed
    with; tasks for later orders change nothing *)
Theorem C21_first_accepted_order_is_used : forall prec emax nmax Qs Qe tol n i, i < n ->
  accepted prec emax Qs Qe tol i -> (forall j, j < i -> ~ accepted prec emax Qs Qe tol j) ->
  let s := search prec emax nmax Qs Qe tol n in
  s = search prec emax nmax Qs Qe tol (S i) /\
  c_done (s_conv s) = true /\ c_nmax (s_conv s) = nmax i /\ t_nmax (s_T s) = nmax i /\ t_part (s_T s) 0 = Some i /\
  (forall m, m <= nmax i -> mall_task m s = Some (Some i, Some i)) /\
  (forall m, nmax i < m -> mall_task m s = None).
Proof.
  intros prec emax nmax Qs Qe tol n i Hi HA HF s.
  destruct (search_found prec emax nmax Qs Qe tol n i Hi HF HA) as ((A1 & A2 & A3 & A4 & A5 & A6 & _) & D).
  assert (E: s = search prec emax nmax Qs Qe tol (S i)).
  { destruct (search_found prec emax nmax Qs Qe tol (S i) i (le_n _) HF HA) as (_ & D').
    assert (G: forall k, search prec emax nmax Qs Qe tol (S i + k) = search prec emax nmax Qs Qe tol (S i)).
    { induction k; [f_equal; lia|]. rewrite Nat.add_succ_r, search_S, IHk. apply done_stays. auto. }
    unfold s. replace n with (S i + (n - S i)) by lia. apply G. }
  fold s in A1, A2, A4, A5, A6, D. split; [exact E|]. repeat (split; [assumption|]). unfold mall_task. rewrite A2, A1, A6. split.
  - intros m Hm. destruct (Nat.ltb_spec (nmax i) m); [lia|auto].
  - intros m Hm. destruct (Nat.ltb_spec (nmax i) m); [auto|lia].
Qed.
Print Assumptions C21_first_accepted_order_is_used.

(** without an accepted order the last one is used and flagged as not converged;
    whether that stops the program depends on the build option for assertions *)
Theorem C21_last_order_if_none : forall prec emax nmax Qs Qe tol n, 0 < n ->
  (forall i, i < n -> ~ accepted prec emax Qs Qe tol i) ->
  let s := search prec emax nmax Qs Qe tol n in
  c_done (s_conv s) = false /\ mall_asserts s = false /\ c_nmax (s_conv s) = nmax (n - 1) /\ t_nmax (s_T s) = nmax (n - 1) /\
  t_part (s_T s) 0 = Some (n - 1) /\
  (forall m, m <= nmax (n - 1) -> mall_task m s = Some (Some (n - 1), Some (n - 1))).
Proof.
  intros prec emax nmax Qs Qe tol n Hn HF s.
  destruct (search_not_found prec emax nmax Qs Qe tol n Hn HF) as ((A1 & A2 & A3 & A4 & A5 & A6 & _) & D).
  fold s in A1, A2, A4, A5, A6, D. unfold mall_asserts. repeat (split; [assumption|]). unfold mall_task. rewrite A2, A1, A6.
  intros m Hm. destruct (Nat.ltb_spec (nmax (n - 1)) m); [lia|auto].
Qed.
Print Assumptions C21_last_order_if_none.

(** one of the two cases always applies *)
Theorem C21_cases_exhaustive : forall prec emax Qs Qe tol n,
  (exists i, i < n /\ accepted prec emax Qs Qe tol i /\ forall j, j < i -> ~ accepted prec emax Qs Qe tol j) \/
  (forall i, i < n -> ~ accepted prec emax Qs Qe tol i).
Proof. exact first_accepted. Qed.
Print Assumptions C21_cases_exhaustive.

(** A change of exactly zero is within any tolerance but is not accepted: when the
    efficiency factors do not change at all from order to order, the search is
    reported as not converged. *)
Theorem C21_unchanged_factors_refuted : forall prec emax nmax q Qe tol n, 0 < n ->
  c_done (s_conv (search prec emax nmax (fun _ => q) Qe tol n)) = false.
Proof.
  intros. apply search_not_found; auto. intros i _ A. rewrite accepted_same in A. destruct A as (_ & _ & _ & K). rewrite no_change_positive in K. discriminate.
Qed.
Print Assumptions C21_unchanged_factors_refuted.

(** doubles 1, 2, 2 + 2^-51, 3 and tolerance 2^-10 *)
Definition ex_Q (i : nat) : spec_float :=
  match i with
  | 0 => S754_finite false (2 ^ 52)%positive (-52)
  | 1 => S754_finite false (2 ^ 52)%positive (-51)
  | 2 => S754_finite false (2 ^ 52 + 1)%positive (-51)
  | _ => S754_finite false (3 * 2 ^ 51)%positive (-51)
  end.
Definition ex_tol : spec_float := S754_finite false (2 ^ 52)%positive (-62).
Example C21_nonvacuous :
  accepted 53 1024 ex_Q ex_Q ex_tol 2 /\ (forall j, j < 2 -> ~ accepted 53 1024 ex_Q ex_Q ex_tol j) /\
  below (rel_change 53 1024 (ex_Q 1) (ex_Q 1)) ex_tol = true /\
  (forall i, i < 2 -> ~ accepted 53 1024 ex_Q ex_Q ex_tol i) /\
  (0 < n_slot (ex_cfg 1) /\ 0 < n_quad (ex_cfg 1) /\ 0 < n_block (ex_cfg 1)).
Proof.
  split; [vm_compute; auto 10|]. split.
  { intros j Hj (A & B & _). destruct j as [|[|j]]; [lia| |lia]. vm_compute in B. discriminate. }
  split; [vm_compute; auto|]. split; [|cbn; lia].
  intros j Hj (A & B & _). destruct j as [|[|j]]; [lia| |lia]. vm_compute in B. discriminate.
Qed.

(** C45: every number reported is a multiple of the interval and at most the
    number of tasks done, and with at least 50 tasks nothing undefined happens *)
Theorem C45_reports_sound_partial : forall rd total l s, rounding rd -> (0 <= rd 0)%Q -> 50 <= total ->
  finished (interval rd total) total l s ->
  ~ In Undefined (k_out s) /\
  forall z, In (Report z) (k_out s) -> (0 <= z <= Z.of_nat total)%Z /\ (z mod interval rd total = 0)%Z.
Proof.
  intros rd total l s HR H0 Ht (A & B & _). destruct (acts_out _ _ _ _ A) as (_ & _ & K). split.
  - intros U. destruct (K _ U) as [[]|[(_ & E)|(n & E & _)]]; [|discriminate].
    apply (interval_zero_iff rd total HR H0) in E. lia.
  - intros z Hz. destruct (K _ Hz) as [[]|[(E & _)|(n & E & C & D & _)]]; [discriminate|].
    injection E as ->. cbn [k_done counter0] in C. split; [lia|auto].
Qed.
Print Assumptions C45_reports_sound_partial.

(** with fewer than 50 tasks every task ends in a division by zero *)
Theorem C45_few_tasks_refuted : forall rd total l s, rounding rd -> (0 <= rd 0)%Q -> 0 < total < 50 ->
  finished (interval rd total) total l s -> In Undefined (k_out s).
Proof.
  intros rd total l s HR H0 Ht HF. pose proof (finished_loads _ _ _ _ HF ltac:(lia)) as L. destruct HF as (A & _).
  rewrite (proj2 (interval_zero_iff rd total HR H0)) in A by lia. eapply acts_undefined; eauto.
Qed.
Print Assumptions C45_few_tasks_refuted.

(** when tasks finish one at a time, exactly the multiples are reported, once each, in order *)
Theorem C45_sequential_reports : forall i n, (0 < i)%Z -> exists s, finished i n (one_by_one n) s /\
  k_out s = map Report (filter (fun k => k mod i =? 0)%Z (map Z.of_nat (seq 1 n))).
Proof. exact sequential_reports. Qed.
Print Assumptions C45_sequential_reports.

(** concurrently, a multiple can be reported twice and another one not at all *)
Theorem C45_exactly_once_refuted : exists l s, finished 1 2 l s /\ k_out s = [Report 2; Report 2].
Proof. exists [AInc; AInc; ALoad; ALoad]. eexists. split; [repeat split|]; reflexivity. Qed.
Print Assumptions C45_exactly_once_refuted.

Example C45_nonvacuous : rounding (fun x => x) /\ interval (fun x => x) 49 = 0%Z /\ interval (fun x => x) 50 = 1%Z /\
  (exists s, finished (interval (fun x => x) 49) 49 (one_by_one 49) s) /\ (exists s, finished (interval (fun x => x) 250) 250 (one_by_one 250) s).
Proof.
  split; [repeat split; auto with qarith|]. split; [reflexivity|]. split; [reflexivity|].
  split; eexists; (split; [vm_compute; reflexivity|split; reflexivity]).
Qed.
