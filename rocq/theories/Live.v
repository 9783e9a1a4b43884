(** Fair termination at the level of the library calls (QuickSchedWrapper.hpp
    348-479, qsched.c), existence of fair runs, and a schedule that never ends
    when lock lists are not consistently ordered. *)
From Coq Require Import List Arith Lia Bool ZArith Permutation Sorted Classical FunctionalExtensionality.
From Verif Require Import Base CSort Prepare LockProto Sched LockSeq Api Fair.
Import ListNotations.

(** A fair execution of the registered tasks by [nt] threads (qsched.c:314-345,
    after any number of earlier complete runs, see [life] in Api.v): [r k] is the
    state at tick [k], [sch k] the thread that moved. *)
Definition fair_run (nq : nat) (h : list call) (nt : nat) (r : nat -> st) (sch : nat -> option nat) : Prop :=
  exists s q, life nq h s /\ prepare_sched s = Some (Ready q) /\ starts nq q nt (r 0) /\
    (forall k, match sch k with
      | None => r (S k) = r k
      | Some i => step_at (par_of (a_s q)) nq (fun t => nth t (a_locks q) []) (fun t => nth t (a_unlocks q) []) i (r k) (r (S k))
      end) /\
    fair nq r sch.

(** Some ranking of the resources increases from child to parent and along the
    write links of every task, in the order of registration: a resource is
    ranked above the resources linked before it, and their ancestors. *)
Definition ordered_writes (h : list call) (rank : nat -> nat) : Prop :=
  (forall x p, parent_of h x = Some p -> rank x < rank p) /\
  (forall t i j a b, i < j -> nth_error (targets (writelinks h) t) i = Some a ->
     nth_error (targets (writelinks h) t) j = Some b ->
     forall a', anc_or_eq (parent_of h) a' a -> rank a' < rank b).

(* ------------------------------------------------------------------ proofs *)

Lemma anc_rank : forall par rank, forest par -> (forall x p, par x = Some p -> rank x < rank p) ->
  forall x, StronglySorted (fun a b => rank a < rank b) (x :: ancestors par x).
Proof.
  intros par rank HF HP x. induction x as [x IH] using lt_wf_ind.
  rewrite (ancestors_unfold par HF x). destruct (par x) as [p|] eqn:E; cbn [chain_from].
  - pose proof (IH p (HF _ _ E)) as S1. constructor; auto. constructor; [auto|].
    inversion S1; subst. eapply Forall_impl; [|eassumption]. intros a Ha. cbn in Ha. specialize (HP _ _ E). lia.
  - repeat constructor.
Qed.

Lemma sorted_app : forall (R : nat -> nat -> Prop) a b, StronglySorted R a -> StronglySorted R b ->
  (forall x y, In x a -> In y b -> R x y) -> StronglySorted R (a ++ b).
Proof.
  induction a as [|x a IH]; intros b Ha Hb H; auto. inversion Ha; subst. cbn [app]. constructor.
  - apply IH; auto. intros; apply H; simpl; auto.
  - apply Forall_app. split; auto. apply Forall_forall. intros y Hy. apply H; simpl; auto.
Qed.

Lemma touch_sorted : forall par rank, forest par -> (forall x p, par x = Some p -> rank x < rank p) ->
  forall l, (forall i j a b, i < j -> nth_error l i = Some a -> nth_error l j = Some b ->
     forall a', anc_or_eq par a' a -> rank a' < rank b) ->
  StronglySorted (fun a b => rank a < rank b) (touch par l).
Proof.
  intros par rank HF HP. induction l as [|x l IH]; intros H; [constructor|]. cbn [touch flat_map]. fold (touch par l).
  apply sorted_app.
  - apply (anc_rank par rank HF HP).
  - apply IH. intros i j a b Hij Ha Hb. apply (H (S i) (S j)); auto; lia.
  - intros a' y Ha' Hy. apply in_flat_map in Hy. destruct Hy as (b & Hb & Hy).
    apply In_nth_error in Hb. destruct Hb as (j & Hb).
    assert (rank a' < rank b).
    { apply (H 0 (S j) x b); auto; [lia|]. destruct Ha' as [<-|Ha']; [constructor|apply ancestors_anc; auto]. }
    destruct Hy as [<-|Hy]; auto. pose proof (anc_rank par rank HF HP b) as S1. inversion S1; subst.
    rewrite Forall_forall in *. specialize (H4 y Hy). lia.
Qed.

Lemma sr_start : forall nq h s q nt e, valid h -> life nq h s -> prepare_sched s = Some (Ready q) -> starts nq q nt e ->
  prep_facts h s q /\ ~ circular h /\
  sreach (par_of (a_s q)) (ntasks h) nq (fun t => nth t (a_locks q) []) (fun t => nth t (a_unlocks q) []) e.
Proof.
  intros nq h s q nt e HV HL HP HS. pose proof (life_rep _ _ _ HL HV) as RP.
  destruct (prepare_sched_ok h s HV RP) as [(E & _)|(r' & E & HC & PF)]; [congruence|].
  assert (r' = q) by congruence. subst r'. split; [auto|]. split; [auto|].
  eapply (run_reach nq h s q PF); [exact HS|constructor].
Qed.

Lemma run_ranked : forall h s q, valid h -> prep_facts h s q -> ~ circular h -> ranked (ntasks h) (fun t => nth t (a_unlocks q) []).
Proof.
  intros h s q HV PF HC. apply (acyclic_ranked _ _ (fun _ => 0%Z)). apply (run_edges h s q HV PF). intros HY. apply HC. revert HY.
  apply cyclic_circular; auto. apply (pf_unlocks _ _ _ PF).
Qed.

Lemma ordered_sorted : forall h s q rank, valid h -> prep_facts h s q -> ordered_writes h rank ->
  forall t, StronglySorted (fun a b => rank a < rank b) (touch (par_of (a_s q)) (nth t (a_locks q) [])).
Proof.
  intros h s q rank HV PF (O1 & O2) t. apply touch_sorted.
  - apply (run_forest h s q HV PF).
  - intros x p Hx. apply O1. rewrite <- Hx. symmetry. apply par_of_ok, (pf_rep _ _ _ PF).
  - intros i j a b Hij Ha Hb a' Ha'. rewrite (pf_locks _ _ _ PF) in Ha, Hb.
    apply (O2 t i j a b Hij Ha Hb). eapply anc_ext; [|exact Ha']. apply par_of_ok, (pf_rep _ _ _ PF).
Qed.

Lemma api_fair_ends : forall nq h nt r sch rank, valid h -> ordered_writes h rank ->
  fair_run nq h nt r sch -> exists M, forall k, M <= k -> all_exited (r k).
Proof.
  intros nq h nt r sch rank HV HO (s & q & LF & HP & HS & HR & HFa).
  destruct (sr_start _ _ _ _ _ _ HV LF HP HS) as (PF & HC & SR).
  eapply (fair_ends (par_of (a_s q)) (ntasks h) nq (fun t => nth t (a_locks q) []) (fun t => nth t (a_unlocks q) [])
     (run_forest h s q HV PF) (run_edges h s q HV PF) r sch (conj SR HR) HFa rank).
  - intros t _. apply (ordered_sorted h s q rank HV PF HO).
  - apply (run_ranked h s q HV PF HC).
Qed.

(** States of a fair run are states of a run. *)
Lemma fair_run_running : forall nq h nt r sch, fair_run nq h nt r sch -> forall k, running nq h nt (r k).
Proof.
  intros nq h nt r sch (s & q & LF & HP & HS & HR & _) k. exists s, q, (r 0). repeat (split; auto).
  induction k; [constructor|]. specialize (HR k). destruct (sch k) as [i|].
  - eapply steps_trans; [exact IHk|]. eapply ss_step; [eapply step_at_step; exact HR|constructor].
  - rewrite HR. exact IHk.
Qed.

(* ------------------------------------------------------- fair runs exist *)

Section Exist.
Variable parent : nat -> option nat.
Variable n nq : nat.
Variable locks unlocks : nat -> list nat.

Notation stepat := (step_at parent nq locks unlocks).

(** A finite execution as a function of time. *)
Inductive path : st -> list nat -> st -> Prop :=
| p_nil : forall s, path s [] s
| p_cons : forall s i s1 l s2, stepat i s s1 -> path s1 l s2 -> path s (i :: l) s2.

Lemma steps_path : forall s s', steps parent nq locks unlocks s s' -> exists l, path s l s'.
Proof.
  intros s s' H. induction H as [s|s s1 s2 H1 _ (l & IH)]; [exists []; constructor|].
  inversion H1 as [g l1 x l2 g' x' HL]; subst. exists (length l1 :: l). econstructor; [|exact IH].
  exists l1, x, l2, g', x'. cbn. auto.
Qed.

Lemma path_fun : forall s l s', path s l s' -> exists f, f 0 = s /\ f (length l) = s' /\
  forall k i, nth_error l k = Some i -> stepat i (f k) (f (S k)).
Proof.
  intros s l s' H. induction H as [s|s i s1 l s2 H1 _ (f & A & B & C)].
  - exists (fun _ => s). repeat split; auto. intros [|k] i H; discriminate.
  - exists (fun k => match k with 0 => s | S k => f k end). repeat split; auto.
    intros [|k] j H; cbn in H.
    + injection H as <-. rewrite A. auto.
    + apply C. auto.
Qed.

(** Follow a finite execution, then stand still. *)
Lemma path_run : forall s l s', path s l s' -> exists r sch, r 0 = s /\
  (forall k, match sch k with None => r (S k) = r k | Some i => stepat i (r k) (r (S k)) end) /\
  forall k, length l <= k -> r k = s'.
Proof.
  intros s l s' H. destruct (path_fun s l s' H) as (f & A & B & C).
  exists (fun k => f (min k (length l))), (fun k => nth_error l k). split; [|split].
  - cbn. auto.
  - intros k. destruct (nth_error l k) as [i|] eqn:E.
    + assert (k < length l) by (apply nth_error_Some; congruence). rewrite !Nat.min_l by lia. apply C. auto.
    + apply nth_error_None in E. rewrite !Nat.min_r by lia. auto.
  - intros k Hk. rewrite Nat.min_r by lia. auto.
Qed.

Lemma exited_fair : forall r sch K, (forall k, K <= k -> all_exited (r k)) -> fair nq r sch.
Proof.
  intros r sch K H i N HO. exfalso.
  assert (X: forall p, at_pc (r (N + K)) i p -> p SExit).
  { intros p (th & q & Hq & Hp). pose proof (H (N + K) ltac:(lia) _ (nth_error_In _ _ Hq)) as E. cbn in E. subst q. exact Hp. }
  destruct HO as [HO|HO|q t _ HO|HO _].
  - exact (X _ (HO (N + K) ltac:(lia))).
  - destruct (HO (N + K) ltac:(lia)) as (A & _). specialize (X _ A). discriminate.
  - destruct (HO (N + K) ltac:(lia)) as (A & _). specialize (X _ A). discriminate.
  - exact (X _ (HO (N + K) ltac:(lia))).
Qed.

(** Repeat a closed execution in which both of two threads take part. *)
Lemma path_cycle : forall s l, path s l s -> l <> [] -> exists r sch, r 0 = s /\
  (forall k, exists i, sch k = Some i /\ stepat i (r k) (r (S k))) /\
  (forall k, r (k * length l) = s) /\
  (forall i, In i l -> forall N, exists k, N <= k /\ sch k = Some i).
Proof.
  intros s l H Hl. destruct (path_fun s l s H) as (f & A & B & C).
  set (L := length l). assert (HL: L <> 0) by (destruct l; [congruence|discriminate]).
  exists (fun k => f (k mod L)), (fun k => nth_error l (k mod L)). split; [|split; [|split]].
  - rewrite Nat.mod_small by lia. auto.
  - intros k. pose proof (Nat.mod_upper_bound k L HL) as HB. fold L in B.
    destruct (nth_error l (k mod L)) as [i|] eqn:E; [|apply nth_error_None in E; unfold L in *; lia].
    exists i. split; auto. specialize (C _ _ E).
    replace (f (S k mod L)) with (f (S (k mod L))); auto.
    destruct (Nat.eq_dec (S (k mod L)) L) as [EL|EL].
    + rewrite EL, B. assert (S k mod L = 0); [|congruence].
      replace (S k) with (k + 1) by lia. rewrite <- Nat.add_mod_idemp_l by auto. replace (k mod L + 1) with L by lia.
      apply Nat.mod_same; auto.
    + f_equal. replace (S k) with (k + 1) by lia. rewrite <- Nat.add_mod_idemp_l by auto.
      rewrite (Nat.mod_small (k mod L + 1)); lia.
  - intros k. rewrite Nat.mod_mul by auto. auto.
  - intros i Hi N. apply In_nth_error in Hi. destruct Hi as (j & Hj).
    assert (j < L) by (apply nth_error_Some; congruence).
    exists (j + N * L). split; [nia|]. rewrite Nat.mod_add by auto. rewrite Nat.mod_small by lia. auto.
Qed.

Hypothesis HF : forest parent.
Hypothesis HU : edges_in_range n unlocks.

(** A thread in code that does not wait for a queue can always move: what
    [fair] grants to it can be granted. *)
Lemma code_can_move : forall s i, sreach parent n nq locks unlocks s ->
  at_pc s i (fun q => match q with SIdle | SEnq _ _ _ | SExit => False | _ => True end) ->
  exists s', stepat i s s'.
Proof.
  intros [g l] i HR (th & q & Hi & Hq). cbn [tl_] in Hi. apply nth_error_split in Hi. destruct Hi as (l1 & l2 & -> & <-).
  pose proof (sinv_reach _ _ _ _ _ HU _ HR) as HI.
  pose proof HI as (I1 & I2 & I3 & I4 & I5 & I6 & _). cbn [gl tl_] in *.
  assert (T: tok nq locks unlocks g (th, q)) by (apply I2; apply in_app_iff; simpl; auto).
  assert (GO: forall g' x', lstep parent nq locks unlocks (l1 ++ l2) g (th, q) g' x' ->
    exists s', stepat (length l1) (mkS g (l1 ++ (th, q) :: l2)) s').
  { intros g' x' HL. eexists. exists l1, (th, q), l2, g', x'. cbn [tl_ gl]. repeat split; auto. }
  assert (IN: at_ th <> Idle -> exists m' th', tstep parent (gm g) th m' th').
  { intros Hne. destruct (finish_call parent n nq locks unlocks HF HU _ _ _ _ _ HR) as (m' & o' & HX).
    inversion HX; subst; [cbn in Hne; congruence|eauto]. }
  destruct q; try contradiction; cbn [tok] in T.
  - destruct T as (Hk & Ht & _ & _ & [T|(r0 & todo' & -> & T)]).
    + destruct todo as [|r0 todo].
      * apply in_split in Ht. destruct Ht as (q1 & q2 & E). eapply GO. apply l_got; eauto.
      * eapply GO. apply l_call; auto.
    + destruct IN as (m' & th' & HT). { intros E. rewrite E in T. exact T. }
      destruct (in_lock_step _ _ _ _ _ _ HT T) as [(E1 & E2)|(E1 & [E2|E2])].
      * eapply GO. apply l_inner with (th' := th') (m' := m'); auto; intros E; rewrite E in *; cbn in *; contradiction.
      * destruct th' as [p o]. cbn in *. subst. eapply GO. eapply l_lock_fail; eauto. intros E; rewrite E in *; cbn in *; contradiction.
      * destruct th' as [p o]. cbn in *. subst. eapply GO. eapply l_lock_ok; eauto. intros E; rewrite E in *; cbn in *; contradiction.
  - destruct T as (_ & P & [T|T]).
    + destruct th as [p o]. cbn [at_ owned] in *. subst p. destruct got as [|r0 got].
      * eapply GO. apply l_roll_done. auto.
      * assert (In r0 o) as Ho by (eapply Permutation_in; [apply Permutation_sym; exact P|simpl; auto]).
        apply in_split in Ho. destruct Ho as (o1 & o2 & ->). eapply GO. apply l_roll_call.
    + assert (Hne: at_ th <> Idle) by (intros E; rewrite E in T; exact T).
      destruct (IN Hne) as (m' & th' & HT). destruct (in_unlock_step _ _ _ _ _ HT T) as ([E1|E1] & E2).
      * eapply GO. apply l_inner with (th' := th') (m' := m'); auto. intros E; rewrite E in *; cbn in *; contradiction.
      * destruct th' as [p o]. cbn in *. subst. eapply GO. eapply l_roll_ret; eauto.
  - eapply GO. apply l_finish.
  - destruct T as (P & [T|T]).
    + destruct th as [p o]. cbn [at_ owned] in *. subst p. destruct todo as [|r0 todo].
      * eapply GO. apply l_un_done. auto.
      * assert (In r0 o) as Ho by (eapply Permutation_in; [apply Permutation_sym; exact P|simpl; auto]).
        apply in_split in Ho. destruct Ho as (o1 & o2 & ->). eapply GO. apply l_un_call.
    + assert (Hne: at_ th <> Idle) by (intros E; rewrite E in T; exact T).
      destruct (IN Hne) as (m' & th' & HT). destruct (in_unlock_step _ _ _ _ _ HT T) as ([E1|E1] & E2).
      * eapply GO. apply l_inner with (th' := th') (m' := m'); auto. intros E; rewrite E in *; cbn in *; contradiction.
      * destruct th' as [p o]. cbn in *. subst. eapply GO. eapply l_un_ret; eauto.
  - destruct todo as [|u us].
    + eapply GO. apply l_done.
      specialize (I4 t). rewrite tsum_mid in I4. unfold holding at 2 in I4. cbn [snd] in I4. rewrite Nat.eqb_refl in I4. cbn [b2n] in I4.
      assert (Hnd: NoDup (t :: fin g)).
      { apply (NoDup_count_occ Nat.eq_dec). intros x. fold (cnt x (t :: fin g)). rewrite cnt_cons.
        destruct (Nat.eqb_spec x t) as [->|].
        - pose proof (b2n_le (t <? n)). lia.
        - destruct HI as (_ & _ & _ & J & _). specialize (J x). cbn [gl] in J. pose proof (b2n_le (x <? n)). lia. }
      assert (Hincl: incl (t :: fin g) (seq 0 n)).
      { intros x Hx. apply in_seq. destruct HI as (_ & _ & _ & J & _). specialize (J x). cbn [gl tl_] in J.
        rewrite tsum_mid in J. unfold holding at 2 in J. cbn [snd] in J.
        destruct (Nat.ltb_spec x n); [lia|]. cbn [b2n] in J.
        destruct Hx as [<-|Hx]; [rewrite Nat.eqb_refl in J; cbn [b2n] in J; lia|]. apply cnt_In in Hx. lia. }
      pose proof (NoDup_incl_length Hnd Hincl) as HLn. rewrite seq_length in HLn. cbn [length] in HLn. lia.
    + assert (0 < gw g u).
      { apply (wait_pos _ _ _ _ _ HU _ HI). cbn [tl_]. apply in_flat_map. exists (th, SDeps t (u :: us)). split; [apply in_app_iff; simpl; auto|]. cbn. auto. }
      destruct (gw g u) as [|[|w]] eqn:E; [lia| |].
      * eapply GO. apply l_dec_last; auto.
      * eapply GO. apply l_dec_more; eauto.
Qed.
End Exist.

Lemma fair_run_exists : forall nq h nt, valid h -> 0 < nq -> ~ circular h ->
  (forall t, t < ntasks h -> lockable (parent_of h) (targets (writelinks h) t)) ->
  exists r sch, fair_run nq h nt r sch.
Proof.
  intros nq h nt HV Hq HC HL. destruct (run_exists nq h nt HV Hq HC HL) as (e & (s & q & e0 & A & B & C & D) & HE).
  destruct (steps_path _ _ _ _ _ _ D) as (l & Hp). destruct (path_run _ _ _ _ _ _ _ Hp) as (r & sch & R0 & R1 & R2).
  exists r, sch, s, q. split; [auto|]. split; [auto|]. split; [rewrite R0; auto|]. split; [auto|].
  apply (exited_fair nq r sch (length l)). intros k Hk. rewrite R2; auto.
Qed.
