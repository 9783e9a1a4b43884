(** A fair run that never ends: two tasks whose write links name two resources
    in opposite orders, two threads, two queues. *)
From Coq Require Import List Arith Lia Bool ZArith Permutation FunctionalExtensionality.
From Verif Require Import Base CSort Prepare LockProto Sched LockSeq Api Fair Live.
Import ListNotations.

Definition opposite : list call := rev
  [RegRes None; RegRes None; RegTask 0; RegTask 1;
   LinkRes 0 0 true; LinkRes 0 1 true; LinkRes 1 1 true; LinkRes 1 0 true].

Lemma opp_valid : valid opposite.
Proof. cbn. lia. Qed.

Lemma opp_not_circular : ~ circular opposite.
Proof. intros (a & H). induction H as [x y H|x y z _ IH _ _]; auto. Qed.

Lemma opp_lockable : forall t, t < ntasks opposite -> lockable (parent_of opposite) (targets (writelinks opposite) t).
Proof.
  assert (NA: forall r x, anc_or_eq (parent_of opposite) r x -> r = x).
  { intros r x H. inversion H as [|? ? ? E]; subst; auto. destruct x as [|[|[|x]]]; discriminate E. }
  intros t Ht. change (ntasks opposite) with 2 in Ht.
  assert (t = 0 \/ t = 1) as [-> | ->] by lia;
    (split; [cbn; repeat constructor; cbn; lia|intros r x _ _ Hne HA; apply NA in HA; contradiction]).
Qed.

Section Cycle.
Variable parent : nat -> option nat.
Variable locks unlocks : nat -> list nat.
Hypothesis P0 : parent 0 = None.
Hypothesis P1 : parent 1 = None.
Hypothesis L0 : locks 0 = [0; 1].
Hypothesis L1 : locks 1 = [1; 0].

Notation path := (path parent 2 locks unlocks).
Notation lstep := (lstep parent 2 locks unlocks).

Lemma s0 : forall g a b g' a' l s, lstep [b] g a g' a' -> path (mkS g' [a'; b]) l s -> path (mkS g [a; b]) (0 :: l) s.
Proof. intros. econstructor; [|eassumption]. exists [], a, [b], g', a'. cbn. auto. Qed.
Lemma s1 : forall g a b g' b' l s, lstep [a] g b g' b' -> path (mkS g' [a; b']) l s -> path (mkS g [a; b]) (1 :: l) s.
Proof. intros. econstructor; [|eassumption]. exists [a], b, [], g', b'. cbn. auto. Qed.

Lemma setm_eq : forall m w q wt f lg m', setm (mkG m w q wt f lg) m' = mkG m' w q wt f lg.
Proof. reflexivity. Qed.

Definition idle2 := [(mkThr Idle [], SIdle); (mkThr Idle [], SIdle)].

Lemma round : forall m w wt f lg,
  lk m 0 = false -> lk m 1 = false -> hd m 0 = 0%Z -> hd m 1 = 0%Z -> 0 < wt ->
  exists l, In 0 l /\ In 1 l /\
   path (mkS (mkG m w (fun q => match q with 0 => [0] | 1 => [1] | _ => [] end) wt f lg) idle2) l
        (mkS (mkG m w (fun q => match q with 0 => [0] | 1 => [1] | _ => [] end) wt f lg) idle2).
Proof.
  intros m w wt f lg K0 K1 H0 H1 HW. unfold idle2.
  set (Q := fun q => match q with 0 => [0] | 1 => [1] | _ => [] end).
  eexists. split; [|split].
  3:{ (* thread 0 takes resource 0 *)
  eapply s0. { apply l_pick with (k := 0) (t := 0); cbn; auto. intros x [<-|[]]. cbn. discriminate. }
  rewrite L0.
  eapply s0. { apply l_call. reflexivity. } cbn [owned].
  eapply s0. { eapply l_inner; [discriminate| |apply t_hold_ok; auto]. discriminate. } rewrite ?setm_eq; cbn [gm].
  eapply s0. { eapply l_inner; [discriminate| |apply t_read_ok; auto]. discriminate. } rewrite ?setm_eq; cbn [gm].
  eapply s0. { eapply l_inner; [discriminate| |apply t_cas_ok; auto]. discriminate. } rewrite ?setm_eq; cbn [gm].
  eapply s0. { eapply l_inner; [discriminate| |apply t_recheck_ok; auto]. discriminate. } rewrite ?setm_eq; cbn [gm].
  rewrite P0.
  eapply s0. { eapply l_lock_ok; [discriminate|]. apply t_up_done. } rewrite ?setm_eq; cbn [gm]. cbn [owned].
  (* thread 1 takes resource 1 *)
  eapply s1. { apply l_pick with (k := 1) (t := 1); cbn; auto. intros x [<-|[]]. cbn. discriminate. }
  rewrite L1.
  eapply s1. { apply l_call. reflexivity. } cbn [owned].
  eapply s1. { eapply l_inner; [discriminate| |apply t_hold_ok; auto]. discriminate. } rewrite ?setm_eq; cbn [gm].
  eapply s1. { eapply l_inner; [discriminate| |apply t_read_ok; auto]. discriminate. } rewrite ?setm_eq; cbn [gm].
  eapply s1. { eapply l_inner; [discriminate| |apply t_cas_ok; auto]. discriminate. } rewrite ?setm_eq; cbn [gm].
  eapply s1. { eapply l_inner; [discriminate| |apply t_recheck_ok; auto]. discriminate. } rewrite ?setm_eq; cbn [gm].
  rewrite P1.
  eapply s1. { eapply l_lock_ok; [discriminate|]. apply t_up_done. } rewrite ?setm_eq; cbn [gm]. cbn [owned].
  (* both find the other one's resource locked *)
  eapply s0. { apply l_call. reflexivity. } cbn [owned].
  eapply s0. { eapply l_inner; [discriminate| |apply t_hold_ok; auto]. discriminate. } rewrite ?setm_eq; cbn [gm].
  eapply s0. { eapply l_lock_fail; [discriminate|]. apply t_read_fail. cbn. auto. } rewrite ?setm_eq; cbn [gm]. cbn [owned].
  eapply s1. { apply l_call. reflexivity. } cbn [owned].
  eapply s1. { eapply l_inner; [discriminate| |apply t_hold_ok; auto]. discriminate. } rewrite ?setm_eq; cbn [gm].
  eapply s1. { eapply l_lock_fail; [discriminate|]. apply t_read_fail. cbn. auto. } rewrite ?setm_eq; cbn [gm]. cbn [owned].
  (* and give up their own *)
  eapply s0. { apply (l_roll_call parent 2 locks unlocks) with (o1 := []) (o2 := []). } cbn [app].
  eapply s0. { eapply l_inner; [discriminate| |apply t_un_unlock]. discriminate. } rewrite ?setm_eq; cbn [gm].
  rewrite P0.
  eapply s0. { eapply l_roll_ret; [discriminate|]. apply t_un_done. } rewrite ?setm_eq; cbn [gm].
  eapply s0. { apply l_roll_done. reflexivity. }
  eapply s1. { apply (l_roll_call parent 2 locks unlocks) with (o1 := []) (o2 := []). } cbn [app].
  eapply s1. { eapply l_inner; [discriminate| |apply t_un_unlock]. discriminate. } rewrite ?setm_eq; cbn [gm].
  rewrite P1.
  eapply s1. { eapply l_roll_ret; [discriminate|]. apply t_un_done. } rewrite ?setm_eq; cbn [gm].
  eapply s1. { apply l_roll_done. reflexivity. }
  match goal with |- Live.path _ _ _ _ (mkS (mkG ?m' _ _ _ _ _) _) _ _ => assert (E: m' = m) end.
  { destruct m as [kk hh]. unfold setlk. cbn [lk hd] in *. f_equal. apply functional_extensionality. intros x.
    destruct (Nat.eqb_spec x 1) as [->|]; [auto|]. destruct (Nat.eqb_spec x 0) as [->|]; auto. }
  rewrite E. apply p_nil. }
  - simpl. auto.
  - simpl. tauto.
Qed.
End Cycle.

Lemma start_opposite : exists s q e, life 2 opposite s /\ prepare_sched s = Some (Ready q) /\ starts 2 q 2 e /\
  exists m w wt f lg, e = mkS (mkG m w (fun q => match q with 0 => [0] | 1 => [1] | _ => [] end) wt f lg) idle2 /\
    (forall x, lk m x = false) /\ (forall x, hd m x = 0%Z) /\ 0 < wt /\ lg = [].
Proof.
  destruct (life_exists 2 opposite opp_valid) as (s & HS).
  pose proof (life_rep _ _ _ HS opp_valid) as HR.
  destruct (prepare_sched_ok opposite s opp_valid HR) as [(E & HC)|(q & E & _ & PF)]; [destruct (opp_not_circular HC)|].
  exists s, q.
  set (e := mkS (mkG (mkMem (fun x => match res_at (a_s q) x with Some c => r_lock c | None => false end)
                            (fun x => match res_at (a_s q) x with Some c => r_hold c | None => 0%Z end))
                     (fun t => Z.to_nat (p_wait (a_prep q) t))
                     (fun q => match q with 0 => [0] | 1 => [1] | _ => [] end)
                     (used (q_tasks (a_s q))) [] []) idle2).
  assert (ST: starts 2 q 2 e).
  { unfold starts. cbn [gl gm gw gq gwaiting fin log tl_ lk hd e]. repeat split; auto.
    rewrite (pf_enq _ _ _ PF). cbn [queued seq flat_map app].
    assert (P: forall t, preds (ntasks opposite) (fun t => nth t (a_unlocks q) []) t = 0).
    { intros t. unfold preds, preds_count. change (ntasks opposite) with 2. cbn [seq flat_map].
      pose proof (pf_unlocks _ _ _ PF 0) as U0. pose proof (pf_unlocks _ _ _ PF 1) as U1. cbv beta. rewrite U0, U1. reflexivity. }
    change (ntasks opposite) with 2 in *. cbn [seq filter]. rewrite !P. cbn. apply Permutation_refl. }
  exists e. split; [auto|]. split; [auto|]. split; [auto|].
  pose proof (run_initial 2 opposite s q PF 2 e ST) as (A & B & _). cbn [gl gm e lk hd] in A, B.
  eexists _, _, _, _, _. split; [reflexivity|]. split; [exact A|]. split; [exact B|]. split; [|reflexivity].
  rewrite (pf_count _ _ _ PF). cbn. lia.
Qed.

(** No task is ever started. *)
Lemma opposite_livelock : exists r sch, fair_run 2 opposite 2 r sch /\ (forall k, sch k <> None) /\
  (forall i N, i < 2 -> exists k, N <= k /\ sch k = Some i) /\
  forall k, log (gl (r k)) = [] /\ ~ all_exited (r k).
Proof.
  destruct start_opposite as (s & q & e & LF & HP & ST & m & w & wt & f & lg & -> & K & H & HW & ->).
  destruct (sr_start _ _ _ _ _ _ opp_valid LF HP ST) as (PF & _ & _).
  set (par := par_of (a_s q)). set (lo := fun t => nth t (a_locks q) []). set (un := fun t => nth t (a_unlocks q) []).
  assert (P: forall x, par x = parent_of opposite x) by (apply par_of_ok, (pf_rep _ _ _ PF)).
  destruct (round par lo un) with (m := m) (w := w) (wt := wt) (f := f) (lg := @nil ev) as (l & I0 & I1 & HPt); auto.
  { rewrite P. reflexivity. } { rewrite P. reflexivity. }
  { unfold lo. rewrite (pf_locks _ _ _ PF). reflexivity. } { unfold lo. rewrite (pf_locks _ _ _ PF). reflexivity. }
  destruct (path_cycle _ _ _ _ _ _ HPt) as (r & sch & R0 & R1 & R2 & R3). { intros E. rewrite E in I0. exact I0. }
  assert (TWO: forall i N, i < 2 -> exists k, N <= k /\ sch k = Some i).
  { intros i N Hi. destruct i as [|[|i]]; [apply R3; auto|apply R3; auto|lia]. }
  assert (LEN: forall k, length (tl_ (r k)) = 2).
  { induction k; [rewrite R0; reflexivity|]. destruct (R1 k) as (i & _ & (l1 & x & l2 & g' & x' & A & _ & _ & D)).
    rewrite <- IHk, D, A. cbn [tl_]. rewrite !app_length. reflexivity. }
  exists r, sch. split; [|split; [|split; [exact TWO|]]].
  - exists s, q. split; [auto|]. split; [auto|]. split; [rewrite R0; auto|]. split.
    + intros k. destruct (R1 k) as (i & E & HS). rewrite E. exact HS.
    + intros i N HO. apply TWO.
      assert (X: exists p, at_pc (r N) i p).
      { destruct HO as [HO|HO|? ? _ HO|HO _]; [exists (fun q => match q with SIdle | SEnq _ _ _ | SExit => False | _ => True end)|exists (eq SIdle)|exists (eq SIdle)|exists (fun q => match q with SEnq _ _ _ => True | _ => False end)]; apply HO; auto. }
      destruct X as (p & th & x & Hx & _). rewrite <- (LEN N). apply nth_error_Some. congruence.
  - intros k E. destruct (R1 k) as (i & E2 & _). congruence.
  - assert (MONO: forall k, exists new, log (gl (r (S k))) = new ++ log (gl (r k))).
    { intros k. destruct (R1 k) as (i & _ & (l1 & x & l2 & g' & x' & A & _ & HL & D)). rewrite D. cbn [gl].
      inversion HL; subst; cbn [log setm setw setq addlog done1]; try (exists []; reflexivity); eexists [_]; reflexivity. }
    assert (MONO2: forall k d, exists new, log (gl (r (d + k))) = new ++ log (gl (r k))).
    { induction d as [|d (n1 & IH)]; [exists []; reflexivity|]. destruct (MONO (d + k)) as (n2 & E). exists (n2 ++ n1).
      cbn [Nat.add]. rewrite E, IH, app_assoc. reflexivity. }
    assert (EMPTY: forall k, log (gl (r k)) = []).
    { intros k. destruct (MONO2 k (k * length l - k)) as (nw & E).
      assert (1 <= length l) by (destruct l; [destruct I0|cbn; lia]).
      replace (k * length l - k + k) with (k * length l) in E by nia. rewrite R2 in E. cbn [gl log] in E.
      symmetry in E. apply app_eq_nil in E. apply E. }
    intros k. split; [auto|]. intros HE.
    assert (RK: running 2 opposite 2 (r k)).
    { apply fair_run_running with (sch := sch). exists s, q. split; [auto|]. split; [auto|]. split; [rewrite R0; auto|]. split.
      + intros k'. destruct (R1 k') as (i & E & HS). rewrite E. exact HS.
      + apply (exited_fair 2 r sch k). intros k' Hk'. intros x Hx.
        assert (G: forall j d, k <= d -> forall y, nth_error (tl_ (r d)) j = Some y -> snd y = SExit).
        { intros j d Hd. induction Hd as [|d Hd IH]; intros y Hy; [apply HE; eapply nth_error_In; eauto|].
          destruct (R1 d) as (i & _ & HS). destruct (Nat.eq_dec j i) as [->|Hne].
          - destruct (step_self _ _ _ _ _ _ _ HS) as (oth & z & z' & A & B & C & _). rewrite Hy in B. injection B as <-.
            specialize (IH z A). destruct z as [th0 p0]. cbn in IH. subst p0. inversion C; subst; auto.
          - rewrite (step_others _ _ _ _ _ _ _ j HS Hne) in Hy. auto. }
        apply In_nth_error in Hx. destruct Hx as (j & Hj). eapply G; eauto. }
    destruct (api_exactly_once 2 opposite 2 (r k) opp_valid ltac:(lia) RK HE 0) as (A & _).
    rewrite EMPTY in A. discriminate A.
Qed.
