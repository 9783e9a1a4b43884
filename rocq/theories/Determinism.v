(** Data races, schedule independence and slot independence of the generated
    task graph when run by the scheduler. *)
From Coq Require Import List Arith Lia Bool ZArith Permutation Relation_Operators Operators_Properties.
From Verif Require Import Base LockProto Sched Api Races TaskGraph TaskGraphFacts TaskDeps Footprint GraphApi GraphHist GraphRun.
Import ListNotations.

(* ------------------------------------------------ the scheduler's log *)

Lemma sreach_log : forall parent n nq locks unlocks, edges_in_range n unlocks -> forall s, sreach parent n nq locks unlocks s ->
  forall l1 l2 t, log (gl s) = l1 ++ l2 -> nend t l2 <= nstart t l2.
Proof.
  intros parent n nq locks unlocks HU s H. induction H as [s H|s s' H IH ST]; intros l1 l2 t E.
  - destruct H as (_ & _ & _ & _ & _ & _ & G & _). rewrite G in E. symmetry in E. apply app_eq_nil in E. destruct E as (_ & ->). cbn. lia.
  - destruct l1 as [|x l1].
    + cbn in E. subst l2. eapply at_most_once; eauto. eapply sr_step; eauto.
    + assert (C: log (gl s') = log (gl s) \/ exists y, log (gl s') = y :: log (gl s)).
      { destruct ST as [g a1 y a2 g' y' LS]. inversion LS; subst; cbn; eauto. }
      destruct C as [C|(y & C)]; rewrite C in E.
      * eapply (IH (x :: l1)); eauto.
      * injection E as _ E. eapply IH; eauto.
Qed.

Lemma running_log : forall nq h nt e, valid h -> running nq h nt e ->
  forall l1 l2 t, log (gl e) = l1 ++ l2 -> nend t l2 <= nstart t l2.
Proof.
  intros nq h nt e HV HR. destruct (running_inv _ _ _ _ HV HR) as (s & r & _ & _ & PF & _ & SR & _).
  eapply sreach_log; [|exact SR]. eapply run_edges; eauto.
Qed.

Lemma running_obeys : forall nq h nt e, valid h -> running nq h nt e ->
  obeys (clos_trans nat (fun a b => In (a, b) (dependencies h))) (log (gl e)).
Proof.
  intros nq h nt e HV HR a b l1 l2 HP. revert l1 l2. apply clos_trans_tn1 in HP.
  induction HP as [b H|b d H HP IH]; intros l1 l2 E.
  - eapply api_order; eauto.
  - assert (K: In (End b) l2) by (eapply api_order; eauto).
    apply nend_In' in K. pose proof (running_log _ _ _ _ HV HR (l1 ++ [Start d]) l2 b) as M.
    rewrite <- app_assoc in M. specialize (M E). assert (KS: In (Start b) l2) by (apply nstart_In; lia).
    apply in_split in KS. destruct KS as (q1 & q2 & ->). specialize (IH (l1 ++ Start d :: q1) q2).
    rewrite <- app_assoc in IH. specialize (IH E). apply in_app_iff. right. right. auto.
Qed.

Lemma tsum_le : forall f g l, (forall x, f x <= g x) -> tsum f l <= tsum g l.
Proof. intros f g l H. induction l as [|x l IH]; cbn; auto. specialize (H x). unfold tsum in IH. lia. Qed.

Lemma executing_open : forall nq h nt e, valid h -> running nq h nt e -> forall i t, executing e i t ->
  nstart t (log (gl e)) = 1 /\ nend t (log (gl e)) = 0 /\ t < ntasks h /\
  forall j u, i <> j -> executing e j u -> t <> u.
Proof.
  intros nq h nt e HV HR i t (th & Hi). destruct (running_inv _ _ _ _ HV HR) as (s & r & _ & _ & PF & _ & SR & _).
  destruct (sinv_reach _ _ _ _ _ (run_edges h s r HV PF) e SR) as (_ & _ & _ & I4 & _ & _ & I7 & I8 & _).
  destruct (nth_error_split _ _ Hi) as (l1 & l2 & E & Ln).
  assert (EH: forall x, ended t x <= holding t x) by (intros (y, p); destruct p; cbn; lia).
  specialize (I4 t). rewrite E in *.
  assert (HM: holding t (th, SRun t) = 1) by (cbn; rewrite Nat.eqb_refl; auto).
  assert (EM: ended t (th, SRun t) = 0) by reflexivity.
  rewrite tsum_mid in I4. rewrite HM in I4. assert (B1: b2n (t <? ntasks h) <= 1) by (destruct (t <? ntasks h); cbn; lia).
  pose proof (tsum_le (ended t) (holding t) l1 EH). pose proof (tsum_le (ended t) (holding t) l2 EH).
  split; [rewrite I7, tsum_mid, HM; lia|]. split; [rewrite I8, tsum_mid, EM; lia|]. split.
  - destruct (Nat.ltb_spec t (ntasks h)); auto. cbn in I4. lia.
  - intros j u Hij (th' & Hj) <-.
    assert (Z1: tsum (holding t) l1 = 0) by lia. assert (Z2: tsum (holding t) l2 = 0) by lia.
    rewrite E in Hj.
    assert (K: In (th', SRun t) (l1 ++ l2)).
    { destruct (lt_dec j i) as [Hlt|Hge].
      - rewrite nth_error_app1 in Hj by lia. apply in_app_iff. left. eapply nth_error_In; eauto.
      - rewrite nth_error_app2 in Hj by lia. destruct (j - length l1) as [|k] eqn:EK; [lia|]. cbn in Hj.
        apply in_app_iff. right. eapply nth_error_In; eauto. }
    assert (K2: holding t (th', SRun t) = 1) by (cbn; rewrite Nat.eqb_refl; auto).
    apply in_app_iff in K. destruct K as [K|K]; [pose proof (proj1 (tsum_zero (fun _ => None) 0 (fun _ => []) (fun _ => []) _ _) Z1 _ K)|pose proof (proj1 (tsum_zero (fun _ => None) 0 (fun _ => []) (fun _ => []) _ _) Z2 _ K)]; lia.
Qed.

(* ------------------------------------------------ generated graph *)

Lemma no_overlap : forall nq h nt e, valid h -> running nq h nt e -> forall i j t u, i <> j ->
  executing e i t -> executing e j u -> ~ clos_trans nat (fun a b => In (a, b) (dependencies h)) t u.
Proof.
  intros nq h nt e HV HR i j t u Hij Ht Hu HP.
  destruct (executing_open _ _ _ _ HV HR i t Ht) as (_ & NE & _). destruct (executing_open _ _ _ _ HV HR j u Hu) as (NS & _).
  assert (K: In (Start u) (log (gl e))) by (apply nstart_In; lia). apply in_split in K. destruct K as (l1 & l2 & E).
  pose proof (running_obeys _ _ _ _ HV HR t u l1 l2 HP E) as KE. assert (In (End t) (log (gl e))).
  { rewrite E. apply in_app_iff. right. right. auto. }
  apply nend_In' in H. lia.
Qed.

Theorem no_data_race : forall c pre nq nt e, 0 < n_slot c -> 0 < n_quad c -> 0 < o_max c -> reservations pre ->
  running nq (generated c pre) nt e -> forall i j t u, i <> j -> task_in c t -> task_in c u ->
  executing e i (tid (generate c) t) -> executing e j (tid (generate c) u) -> ~ conflicting c t u.
Proof.
  intros c pre nq nt e HN HG HM HP HR i j t u Hij Ht Hu Et Eu HC.
  pose proof (generated_valid c HN HG pre HP) as HV.
  assert (Hne: t <> u).
  { intros ->. destruct (executing_open _ _ _ _ HV HR _ _ Et) as (_ & _ & _ & K). apply (K j _ Hij Eu). auto. }
  destruct (race_free c HN HG HM t u Ht Hu Hne HC) as [K|K].
  - apply (path_generated c HN pre HP) in K. eapply (no_overlap _ _ _ _ HV HR i j); eauto.
  - apply (path_generated c HN pre HP) in K. eapply (no_overlap _ _ _ _ HV HR j i); eauto.
Qed.


Lemma writes_dec : forall c t x, {writes c t x} + {~ writes c t x}.
Proof.
  assert (C: forall a b : cell, {a = b} + {a <> b}).
  { intros a b. decide equality; try apply Nat.eq_dec; try apply kind_eq_dec; apply task_eq_dec. }
  assert (B: forall x j, {exists m, x = DTb j m} + {~ exists m, x = DTb j m}).
  { intros x j. destruct x as [| | |j' m| | | |]; try (right; intros (? & H); discriminate).
    destruct (Nat.eq_dec j' j) as [->|H]; [left; eauto|right; intros (? & K); congruence]. }
  assert (O: forall P Q : Prop, {P} + {~ P} -> {Q} + {~ Q} -> {P \/ Q} + {~ (P \/ Q)}) by (intros P Q [|] [|]; tauto).
  intros c t x. destruct t; cbn; repeat apply O; try apply C; try apply B.
Qed.

Section Code.
Variable c : cfg.
Variables (V L : Type).
(** One step of the execute() function of every task. *)
Variable code : task -> L -> (cell -> V) -> option (L * (cell -> V)).
Variable start : task -> L.

(** execute() only writes what [writes] lists and only depends on what
    [writes] and [reads] list. *)
Definition respects_footprint : Prop :=
  (forall t l s l' s', task_in c t -> code t l s = Some (l', s') -> forall x, ~ writes c t x -> s' x = s x) /\
  (forall t l s1 s2, task_in c t -> (forall x, writes c t x \/ reads c t x -> s1 x = s2 x) ->
     match code t l s1, code t l s2 with
     | None, None => True
     | Some (l1, s1'), Some (l2, s2') => l1 = l2 /\ forall x, writes c t x \/ reads c t x -> s1' x = s2' x
     | _, _ => False
     end).

(** The same by scheduler id. *)
Definition name (i : nat) : option task := nth_error (tasks_of (generate c)) i.
Definition code_id (i : nat) : L -> (cell -> V) -> option (L * (cell -> V)) :=
  match name i with Some t => code t | None => fun _ _ => None end.
Definition start_id (i : nat) : L := match name i with Some t => start t | None => start TN end.
Definition wr (i : nat) (x : cell) : Prop := match name i with Some t => writes c t x | None => False end.
Definition rd (i : nat) (x : cell) : Prop := match name i with Some t => reads c t x | None => False end.

(** The tasks are executed, interleaved in any way, with the starts and ends
    given by [lg], taking memory from [s0] to [s]. *)
Definition executed (s0 : cell -> V) (lg : list Sched.ev) (s : cell -> V) : Prop := exec cell V L code_id start_id s0 lg s [].

Hypothesis HN : 0 < n_slot c.
Hypothesis HG : 0 < n_quad c.
Hypothesis HM : 0 < o_max c.

Lemma name_in : forall i t, name i = Some t -> task_in c t.
Proof. intros i t H. apply (in_tasks c HN). eapply nth_error_In; eauto. Qed.
Lemma name_tid : forall i t, name i = Some t -> tid (generate c) t = i.
Proof. intros i t H. apply nth_index; auto. apply NoDup_tasks; auto. Qed.

Lemma id_framed : respects_footprint -> framed cell V L code_id wr.
Proof.
  intros (HF & _) i l s l' s' E x Hx. unfold code_id, wr in *. destruct (name i) as [t|] eqn:En; [|discriminate].
  eapply HF; eauto. eapply name_in; eauto.
Qed.
Lemma id_local : respects_footprint -> local cell V L code_id wr rd.
Proof.
  intros (_ & HL) i l s1 s2 H. unfold code_id, same_on, fp, wr, rd in *. destruct (name i) as [t|] eqn:En; [|exact I].
  apply HL; auto. eapply name_in; eauto.
Qed.
Lemma id_dec : decidable_writes cell wr.
Proof. intros i x. unfold wr. destruct (name i) as [t|]; [|tauto]. destruct (writes_dec c t x); tauto. Qed.

Variable pre : list call.
Hypothesis HP : reservations pre.
Notation h := (generated c pre).
Notation R := (clos_trans nat (fun a b => In (a, b) (dependencies h))).

Lemma id_race_free : forall a b, a < ntasks h -> b < ntasks h -> a <> b -> clash cell wr rd a b -> R a b \/ R b a.
Proof.
  intros a b Ha Hb Hne (x & K).
  destruct (tid_onto c HN HG pre HP a Ha) as (t & Ht & <-). destruct (tid_onto c HN HG pre HP b Hb) as (u & Hu & <-).
  assert (Nt: forall t, task_in c t -> name (tid (generate c) t) = Some t).
  { intros v Hv. unfold name, tid. apply index_nth. apply (in_tasks c HN). auto. }
  unfold wr, rd in K. rewrite !Nt in K by auto.
  destruct (race_free c HN HG HM t u Ht Hu) as [Q|Q]; try (apply (path_generated c HN pre HP) in Q; auto).
  - congruence.
  - exists x. auto.
Qed.

Lemma run_log : forall nq nt e, 0 < nt -> running nq h nt e -> all_exited e ->
  (forall t, nstart t (log (gl e)) = if t <? ntasks h then 1 else 0) /\ obeys R (log (gl e)).
Proof.
  intros nq nt e Hn HR HE. pose proof (generated_valid c HN HG pre HP) as HV. split.
  - intros t. apply (api_exactly_once nq h nt e HV Hn HR HE t).
  - eapply running_obeys; eauto.
Qed.

(** If every task terminates, every complete run of the scheduler has an execution. *)
Definition terminating : Prop := forall t s, task_in c t -> exists l s',
  psteps cell V L (fun _ => code t) 0 (start t) s l s' /\ code t l s' = None.

Lemma executed_exists : respects_footprint -> terminating -> forall nq nt e s0, 0 < nt -> running nq h nt e -> all_exited e ->
  exists s, executed s0 (log (gl e)) s.
Proof.
  intros HF HT nq nt e s0 Hn HR HE. pose proof (generated_valid c HN HG pre HP) as HV.
  destruct (exec_exists cell V L code_id start_id) with (s0 := s0) (lg := log (gl e)) as (s & act & E & _).
  - intros i s. unfold runs, code_id, start_id. destruct (name i) as [t|] eqn:En.
    + destruct (HT t s (name_in _ _ En)) as (l & s' & P & K). exists s', l. split.
      * clear -P En. induction P as [|l s l1 s1 l2 s2 P IH E]; [constructor|]. econstructor; [exact IH|]. rewrite En. auto.
      * auto.
    + exists s, (start TN). split; [constructor|auto].
  - intros l1 l2 t. eapply running_log; eauto.
  - exists s. unfold executed. destruct act as [|(t, l) act]; [exact E|]. exfalso.
    destruct (exec_logs _ _ _ _ _ _ _ _ _ E) as (_ & _ & L3). specialize (L3 t). cbn [map fst] in L3.
    destruct (api_exactly_once nq h nt e HV Hn HR HE t) as (A1 & A2). rewrite A1, A2 in L3.
    unfold cnt in L3. cbn [count_occ] in L3. destruct (Nat.eq_dec t t); [lia|congruence].
Qed.

End Code.

Theorem schedule_independent : forall c V L code start, 0 < n_slot c -> 0 < n_quad c -> 0 < o_max c ->
  respects_footprint c V L code -> forall pre nq1 nt1 e1 nq2 nt2 e2 s0 s1 s2, reservations pre ->
  0 < nt1 -> 0 < nt2 ->
  running nq1 (generated c pre) nt1 e1 -> all_exited e1 -> running nq2 (generated c pre) nt2 e2 -> all_exited e2 ->
  executed c V L code start s0 (log (gl e1)) s1 -> executed c V L code start s0 (log (gl e2)) s2 -> forall x, s1 x = s2 x.
Proof.
  intros c V L code start HN HG HM HF pre nq1 nt1 e1 nq2 nt2 e2 s0 s1 s2 HP T1 T2 R1 X1 R2 X2 E1 E2.
  destruct (run_log c HN HG pre HP nq1 nt1 e1 T1 R1 X1) as (N1 & O1).
  destruct (run_log c HN HG pre HP nq2 nt2 e2 T2 R2 X2) as (N2 & O2).
  assert (F1 := id_framed c V L code HN HF). assert (F2 := id_local c V L code HN HF).
  assert (F3 := id_race_free c HN HG HM pre HP).
  eapply (interleavings_agree cell V L (code_id c V L code) (start_id c L start) (wr c) (rd c) F1 F2 (id_dec c V L code start)
    _ _ s0 (log (gl e1)) s1 (log (gl e2)) s2 F3); eauto.
Qed.
