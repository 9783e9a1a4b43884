(** Independence of the number of T-matrix slots, continued: every complete run
    is equivalent to the block-by-block order. *)
From Coq Require Import List Arith Lia Bool ZArith Permutation Relation_Operators Operators_Properties Sorted.
From Verif Require Import Base LockProto Sched Api Races TaskGraph TaskGraphFacts TaskDeps Footprint GraphApi GraphHist GraphRun Determinism SlotFree.
Import ListNotations.

(* ------------------------------------------------ lists *)

Lemma perm_flat_app : forall A C (f g : A -> list C) l, Permutation (flat_map (fun x => f x ++ g x) l) (flat_map f l ++ flat_map g l).
Proof.
  intros A C f g l. induction l as [|x l IH]; cbn; [constructor|].
  rewrite <- !app_assoc. apply Permutation_app_head. rewrite IH. rewrite app_assoc, (Permutation_app_comm (g x)), <- app_assoc.
  auto.
Qed.
Lemma perm_flat : forall A C (f g : A -> list C) l, (forall x, Permutation (f x) (g x)) -> Permutation (flat_map f l) (flat_map g l).
Proof. intros A C f g l H. induction l; cbn; [constructor|]. apply Permutation_app; auto. Qed.
Lemma flat_grid : forall C (f : nat -> list C) S_ P,
  flat_map (fun p => flat_map (fun is => f (p * S_ + is)) (seq 0 S_)) (seq 0 P) = flat_map f (seq 0 (P * S_)).
Proof.
  intros C f S_ P. induction P as [|P IH]; auto. rewrite seq_S. cbn [plus]. rewrite flat_map_app, IH.
  replace (S P * S_) with (P * S_ + S_) by (cbn; lia). rewrite seq_app, flat_map_app. f_equal. cbn [flat_map plus].
  rewrite app_nil_r. generalize (P * S_). intros a. clear.
  assert (G: forall n k, flat_map (fun is => f (a + is)) (seq k n) = flat_map f (seq (a + k) n)).
  { induction n as [|n IH]; intros k; cbn; auto. rewrite IH. do 3 f_equal. lia. }
  rewrite G. do 2 f_equal. lia.
Qed.
Lemma ss_app : forall A (R : A -> A -> Prop) a b, StronglySorted R a -> StronglySorted R b ->
  (forall x y, In x a -> In y b -> R x y) -> StronglySorted R (a ++ b).
Proof.
  intros A R a b Ha Hb H. induction Ha as [|x a Ha IH F]; cbn; auto. constructor.
  - apply IH. intros; apply H; cbn; auto.
  - rewrite Forall_forall in *. intros y Hy. apply in_app_or in Hy. destruct Hy; auto. apply H; cbn; auto.
Qed.
Lemma ss_const : forall A (R : A -> A -> Prop) l, (forall x y, In x l -> In y l -> R x y) -> StronglySorted R l.
Proof.
  intros A R l H. induction l as [|x l IH]; constructor.
  - apply IH. intros; apply H; cbn; auto.
  - rewrite Forall_forall. intros y Hy. apply H; cbn; auto.
Qed.
Lemma ss_flat : forall A (R : A -> A -> Prop) (f : nat -> list A) n k, (forall i, k <= i < k + n -> StronglySorted R (f i)) ->
  (forall i j x y, i < j -> In x (f i) -> In y (f j) -> R x y) -> StronglySorted R (flat_map f (seq k n)).
Proof.
  intros A R f n. induction n as [|n IH]; intros k H1 H2; cbn; [constructor|]. apply ss_app.
  - apply H1. lia.
  - apply IH; auto. intros; apply H1; lia.
  - intros x y Hx Hy. apply in_flat_map in Hy. destruct Hy as (j & Hj & Hy). apply in_seq in Hj. eapply (H2 k j); eauto; lia.
Qed.
Lemma ss_split : forall A (R : A -> A -> Prop) l1 a l2 b, StronglySorted R (l1 ++ a :: l2) -> In b l1 -> R b a.
Proof.
  intros A R l1. induction l1 as [|x l1 IH]; intros a l2 b H Hb; [destruct Hb|]. cbn in H. inversion H as [|? ? H1 H2]; subst.
  destruct Hb as [->|Hb]; [|eapply IH; eauto]. rewrite Forall_forall in H2. apply H2. apply in_app_iff. right. cbn. auto.
Qed.

Ltac sst := repeat first [apply SSorted_nil | apply SSorted_cons | apply Forall_cons | apply Forall_nil]; cbn [rank]; lia.

Section S.
Variable c : cfg.
Notation B := (n_block c).
Notation by_rank := (fun x y => rank c x <= rank c y).

Ltac mm H :=
  repeat match type of H with
  | In _ (_ ++ _) => apply in_app_or in H; destruct H as [H|H]
  | In _ (map _ _) => let i := fresh "i" in let K := fresh "K" in apply in_map_iff in H; destruct H as (i & <- & K)
  | In _ (flat_map _ _) => let i := fresh "i" in let K := fresh "K" in apply in_flat_map in H; destruct H as (i & K & H)
  | In _ (_ :: _) => destruct H as [<-|H]
  | In _ [] => destruct H
  end.

Lemma canon_perm : forall N, 0 < N -> Permutation (tasks_of (generate (with_slots c N))) (canon c).
Proof.
  intros N HN. rewrite tasks_generate by auto. unfold canon. apply Permutation_app_head.
  change (flat_map (point_tasks (with_slots c N)) (seq 0 (n_point (with_slots c N)))) with (flat_map (point_tasks c) (seq 0 (n_point c))).
  unfold point_tasks. rewrite perm_flat_app. rewrite Permutation_app_comm. apply Permutation_app; [|apply Permutation_refl].
  rewrite (flat_grid _ (block_tasks c) (n_shape c) (n_point c)). apply perm_flat. intros b. unfold block_tasks, canon_block.
  apply Permutation_app_head. rewrite (Permutation_app_comm (map (fun i => TMA b (i + 1)) _)). rewrite <- !app_assoc.
  reflexivity.
Qed.

Lemma block_rank : forall b t, In t (canon_block c b) ->
  2 + b * (2 * n_quad c + 10) <= rank c t /\ rank c t < 2 + S b * (2 * n_quad c + 10).
Proof.
  intros b t H. unfold canon_block in H. mm H; cbn [rank]; try (apply in_seq in K); try lia.
Qed.
Lemma block_sorted : forall b, StronglySorted by_rank (canon_block c b).
Proof.
  intros b. unfold canon_block.
  apply ss_app; [| |intros x y Hx Hy; mm Hx; mm Hy; cbn [rank]; try (apply in_seq in K); lia].
  - apply ss_flat.
    + intros i _. sst.
    + intros i j x y Hij Hx Hy. mm Hx; mm Hy; cbn [rank]; lia.
  - apply ss_app; [| |intros x y Hx Hy; mm Hx; mm Hy; cbn [rank]; lia].
    { apply ss_const. intros x y Hx Hy. mm Hx. mm Hy. cbn [rank]. lia. }
    apply ss_app; [| |intros x y Hx Hy; mm Hx; mm Hy; cbn [rank]; lia].
    { apply ss_const. intros x y Hx Hy. mm Hx. mm Hy. cbn [rank]. lia. }
    apply ss_app; [| |intros x y Hx Hy; mm Hx; mm Hy; cbn [rank]; lia].
    { apply ss_const. intros x y Hx Hy. mm Hx. mm Hy. cbn [rank]. lia. }
    sst.
Qed.
Lemma shared_rank : forall t, In t (shared_tasks c) -> rank c t <= 1.
Proof. intros t H. unfold shared_tasks in H. mm H; cbn [rank]; lia. Qed.

Lemma canon_sorted : StronglySorted by_rank (canon c).
Proof.
  unfold canon. apply ss_app.
  - unfold shared_tasks. repeat apply ss_app; try (apply ss_const); intros x y Hx Hy; mm Hx; mm Hy; cbn [rank]; lia.
  - apply ss_app.
    + apply ss_flat; [intros; apply block_sorted|]. intros i j x y Hij Hx Hy. apply block_rank in Hx, Hy. nia.
    + apply ss_const. intros x y Hx Hy. unfold canon_av in *. mm Hx. mm Hy. cbn [rank]. lia.
    + intros x y Hx Hy. apply in_flat_map in Hx. destruct Hx as (b & Hb & Hx). apply in_seq in Hb. apply block_rank in Hx.
      unfold canon_av in Hy. mm Hy. cbn [rank]. nia.
  - intros x y Hx Hy. apply shared_rank in Hx. apply in_app_or in Hy. destruct Hy as [Hy|Hy].
    + apply in_flat_map in Hy. destruct Hy as (b & _ & Hy). apply block_rank in Hy. lia.
    + unfold canon_av in Hy. mm Hy. cbn [rank]. lia.
Qed.

Variables (V L : Type).
Variable vcode : task -> L -> (cell -> V) -> option (L * (cell -> V)).
Variable start : task -> L.
Hypothesis HG : 0 < n_quad c.
Hypothesis HM : 0 < o_max c.
Hypothesis HV : respects_footprint (unshared c) V L vcode.
Variable s0 : cell -> V.
Hypothesis HU : uniform V s0.
Hypothesis HR : resets c V L vcode start s0.

Lemma completes_det : forall t s a b, completes V L vcode start t s a -> completes V L vcode start t s b -> a = b.
Proof.
  intros t s a b (l1 & P1 & E1) (l2 & P2 & E2).
  assert (K: psteps cell V L (fun _ => vcode t) 0 l2 b l1 a).
  { clear E2. revert P1 E1 P2. generalize (start t). intros l0 P1 E1 P2.
    induction P2 as [l0 s|l0 s l2 s2 l3 s3 P2 IH E]; auto. specialize (IH P1).
    apply ps_inv in IH. destruct IH as [(-> & ->)|(l4 & s4 & E4 & K)]; [congruence|].
    rewrite E in E4. injection E4 as <- <-. auto. }
  apply ps_inv in K. destruct K as [(_ & K)|(l4 & s4 & E4 & _)]; [auto|congruence].
Qed.
Lemma vseq_det : forall l s a b, vseq V L vcode start l s a -> vseq V L vcode start l s b -> a = b.
Proof.
  induction l as [|t l IH]; intros s a b H1 H2; inversion H1 as [|? ? ? s1 ? A1 A2]; subst; inversion H2 as [|? ? ? s2 ? A3 A4]; subst; auto.
  rewrite (completes_det _ _ _ _ A1 A3) in A2. eauto.
Qed.

Lemma to_canon : forall N pre nq nt e s, 0 < N -> reservations pre -> 0 < nt ->
  running nq (generated (with_slots c N) pre) nt e -> all_exited e ->
  executed (with_slots c N) V L (slotted c V L vcode N) start s0 (log (gl e)) s ->
  exists z, nseq c V L vcode start N (canon c) s0 z /\ forall x, s x = z x.
Proof.
  intros N pre nq nt e s HN HP Hn Hr Hx HE.
  set (cN := with_slots c N) in *. assert (HN' : 0 < n_slot cN) by auto.
  destruct (run_log cN HN' HG pre HP nq nt e Hn Hr Hx) as (N1 & O1).
  assert (HF := slotted_footprint c V L vcode HG HM HV N). fold cN in HF.
  assert (F1 := id_framed cN V L _ HN' HF). assert (F2 := id_local cN V L _ HN' HF).
  assert (F3 := id_race_free cN HN' HG HM pre HP).
  assert (F4 := id_dec cN V L (slotted c V L vcode N) start).
  destruct (exec_order _ _ _ _ _ _ _ F1 F2 F4 _ _ s0 _ s F3 N1 O1 HE) as (z & S1 & P1 & D1 & R1 & M1).
  assert (IN: forall t, In t (canon c) -> In t (tasks_of (generate cN))).
  { intros t Ht. eapply Permutation_in; [apply Permutation_sym, canon_perm; auto|auto]. }
  set (ids := map (tid (generate cN)) (canon c)).
  assert (PI: Permutation ids (seq 0 (ntasks (generated cN pre)))).
  { unfold ids. rewrite (Permutation_map _ (Permutation_sym (canon_perm N HN))).
    rewrite (generated_ntasks cN pre HP). unfold tid. rewrite (index_seq cN HN' HG); [reflexivity|apply NoDup_tasks; auto]. }
  destruct (linear_transfer _ _ _ _ (start_id cN L start) _ _ F1 F2 F4 (clos_trans nat (fun a b => In (a, b) (dependencies (generated cN pre))))
    ids (ends (log (gl e))) s0 z) as (z2 & S2 & P2); auto.
  - apply NoDup_Permutation; auto.
    + eapply Permutation_NoDup; [apply Permutation_sym; exact PI|apply seq_NoDup].
    + intros t. rewrite M1. split; intros Ht.
      * eapply Permutation_in; [apply Permutation_sym; exact PI|]. apply in_seq. lia.
      * eapply Permutation_in in Ht; [|exact PI]. apply in_seq in Ht. lia.
  - intros l1 a l2 b E Hb HRab. unfold ids in E. apply map_eq_app in E. destruct E as (c1 & c2 & E & <- & E2).
    destruct c2 as [|a' c2]; [discriminate|]. injection E2 as <- <-. apply in_map_iff in Hb. destruct Hb as (b' & <- & Hb).
    assert (K: rank c b' <= rank c a') by (eapply (ss_split _ by_rank); [rewrite <- E; apply canon_sorted|auto]).
    destruct (generated_path cN HN' pre HP _ _ HRab) as (a1 & b1 & PT & Ea & Eb).
    destruct (path_tasks cN HN' _ _ PT) as (I1 & I2).
    assert (a1 = a'). { apply (tid_inj cN HN'); auto. apply (in_tasks cN HN'). apply IN. rewrite E. apply in_app_iff. cbn. auto. }
    assert (b1 = b'). { apply (tid_inj cN HN'); auto. apply (in_tasks cN HN'). apply IN. rewrite E. apply in_app_iff. auto. }
    subst. apply (path_rank cN HN') in PT. change (rank cN a') with (rank c a') in PT. change (rank cN b') with (rank c b') in PT. lia.
  - intros a b Ha Hb. apply F3; apply M1; auto.
  - exists z2. split; [|intros x; rewrite P1; auto]. unfold ids in S2. clear -S2 IN HN'.
    assert (G: forall l s, (forall t, In t l -> In t (tasks_of (generate cN))) ->
      sequential cell V L (code_id cN V L (slotted c V L vcode N)) (start_id cN L start) (map (tid (generate cN)) l) s z2 ->
      nseq c V L vcode start N l s z2).
    { induction l as [|t l IH]; intros s Hl H; cbn [map] in H; inversion H as [|? ? ? s1 ? (k & P & E) S3]; subst; [constructor|].
      assert (En: name cN (tid (generate cN) t) = Some t) by (unfold name, tid; apply index_nth; apply Hl; cbn; auto).
      unfold start_id in P. unfold code_id in E. rewrite En in P, E. apply (ns_cons c V L vcode start N t l s s1 z2 k).
      - clear -P En. induction P as [|l0 s l1 s1 l2 s2 P IH E]; [constructor|]. econstructor; [exact IH|]. unfold code_id in E. rewrite En in E. auto.
      - auto.
      - apply IH; auto. intros; apply Hl; cbn; auto. }
    apply G; auto.
Qed.
End S.

(** Any two numbers of slots, thread and queue counts and schedules give the same
    memory outside the slots; in particular the same results. *)
Theorem slots_irrelevant : forall c V L vcode start s0,
  0 < n_quad c -> 0 < o_max c -> respects_footprint (unshared c) V L vcode -> uniform V s0 -> resets c V L vcode start s0 ->
  forall N1 N2 pre1 pre2 nq1 nt1 e1 nq2 nt2 e2 s1 s2, 0 < N1 -> 0 < N2 -> reservations pre1 -> reservations pre2 ->
  0 < nt1 -> 0 < nt2 ->
  running nq1 (generated (with_slots c N1) pre1) nt1 e1 -> all_exited e1 ->
  running nq2 (generated (with_slots c N2) pre2) nt2 e2 -> all_exited e2 ->
  executed (with_slots c N1) V L (slotted c V L vcode N1) start s0 (log (gl e1)) s1 ->
  executed (with_slots c N2) V L (slotted c V L vcode N2) start s0 (log (gl e2)) s2 ->
  forall x, vblock x = None -> s1 x = s2 x.
Proof.
  intros c V L vcode start s0 HG HM HV HU HR N1 N2 pre1 pre2 nq1 nt1 e1 nq2 nt2 e2 s1 s2 H1 H2 P1 P2 T1 T2 R1 X1 R2 X2 E1 E2 x Hx.
  destruct (to_canon c V L vcode start HG HM HV s0 N1 pre1 nq1 nt1 e1 s1 H1 P1 T1 R1 X1 E1) as (z1 & Q1 & A1).
  destruct (to_canon c V L vcode start HG HM HV s0 N2 pre2 nq2 nt2 e2 s2 H2 P2 T2 R2 X2 E2) as (z2 & Q2 & A2).
  destruct (canon_sim c V L vcode start HG HM HV N1 H1 s0 HU HR z1 Q1) as (y1 & V1 & B1).
  destruct (canon_sim c V L vcode start HG HM HV N2 H2 s0 HU HR z2 Q2) as (y2 & V2 & B2).
  rewrite A1, A2, B1, B2 by auto. rewrite (vseq_det V L vcode start _ _ _ _ V1 V2). auto.
Qed.
