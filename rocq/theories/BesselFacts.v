(** Facts about the power series of BesselSpec.v: convergence, recurrence relations, derivatives, and the
    functions of order zero. *)
From Coq Require Import List Arith Lia Bool Reals Lra ZArith.
From Coquelicot Require Import Hierarchy Rcomplements Series PSeries ElemFct Complex.
From Verif Require Import BesselSpec Bessel.
Import ListNotations.
Open Scope R_scope.

(* ------------------------------------------------ complex series *)
Definition csum_inf (a : nat -> C) : C := (Series (fun k => Re (a k)), Series (fun k => Im (a k))).

Lemma re_le : forall z, Rabs (Re z) <= Cmod z.
Proof. intros [a b]. apply Rle_trans with (Rmax (Rabs a) (Rabs b)); [apply Rmax_l | exact (Rmax_Cmod (a, b))]. Qed.
Lemma im_le : forall z, Rabs (Im z) <= Cmod z.
Proof. intros [a b]. apply Rle_trans with (Rmax (Rabs a) (Rabs b)); [apply Rmax_r | exact (Rmax_Cmod (a, b))]. Qed.

Lemma is_csum_unique : forall a l l', is_csum a l -> is_csum a l' -> l = l'.
Proof.
  intros a l l' (A & B) (A' & B'). apply is_series_unique in A. apply is_series_unique in B.
  apply is_series_unique in A'. apply is_series_unique in B'. destruct l, l'. cbn [Re Im fst snd] in *. congruence.
Qed.
Lemma is_csum_ext : forall a b l, (forall k, a k = b k) -> is_csum a l -> is_csum b l.
Proof. intros a b l H (A & B). split; eapply is_series_ext; eauto; intros n; cbv beta; rewrite H; auto. Qed.
Lemma is_csum_plus : forall a b l l', is_csum a l -> is_csum b l' -> is_csum (fun k => a k + b k)%C (l + l')%C.
Proof. intros a b l l' (A & B) (A' & B'). split; [exact (is_series_plus _ _ _ _ A A') | exact (is_series_plus _ _ _ _ B B')]. Qed.
Lemma is_csum_scal : forall c a l, is_csum a l -> is_csum (fun k => c * a k)%C (c * l)%C.
Proof.
  intros [c d] a l (A & B). split; cbn [Re Im fst snd Cmult].
  - exact (is_series_minus _ _ _ _ (is_series_scal c _ _ A) (is_series_scal d _ _ B)).
  - exact (is_series_plus _ _ _ _ (is_series_scal c _ _ B) (is_series_scal d _ _ A)).
Qed.
Lemma is_csum_minus : forall a b l l', is_csum a l -> is_csum b l' -> is_csum (fun k => a k - b k)%C (l - l')%C.
Proof. intros a b l l' (A & B) (A' & B'). split; [exact (is_series_minus _ _ _ _ A A') | exact (is_series_minus _ _ _ _ B B')]. Qed.
(** dropping the first term *)
Lemma is_csum_tail : forall a l, is_csum (fun k => a (Datatypes.S k)) l -> is_csum a (l + a O)%C.
Proof.
  intros a l (A & B). split; apply is_series_decr_1.
  - match goal with |- is_series _ ?x => replace x with (Re l); [exact A|] end. unfold plus, opp. cbn -[Rplus Ropp]. destruct l, (a 0%nat). cbn -[Rplus Ropp]. ring.
  - match goal with |- is_series _ ?x => replace x with (Im l); [exact B|] end. unfold plus, opp. cbn -[Rplus Ropp]. destruct l, (a 0%nat). cbn -[Rplus Ropp]. ring.
Qed.
Lemma is_csum_dom : forall a b, (forall k, Cmod (a k) <= b k) -> ex_series b -> is_csum a (csum_inf a).
Proof.
  intros a b H E. split; cbn [csum_inf Re Im fst snd]; apply Series_correct.
  - apply (ex_series_le (K := R_AbsRing) (V := R_CompleteNormedModule)) with b; auto. intros n. apply Rle_trans with (Cmod (a n)); auto. apply re_le.
  - apply (ex_series_le (K := R_AbsRing) (V := R_CompleteNormedModule)) with b; auto. intros n. apply Rle_trans with (Cmod (a n)); auto. apply im_le.
Qed.
Lemma is_csum_norm : forall a b l B, (forall k, Cmod (a k) <= b k) -> is_series b B -> is_csum a l -> Cmod l <= B.
Proof.
  intros a b l B H E A.
  destruct (Req_dec (Cmod l) 0) as [Z0 | NZ].
  { rewrite Z0. rewrite <- (is_series_unique _ _ E).
    apply Rle_trans with (Series (fun _ => 0)).
    - right. symmetry. rewrite (Series_ext _ (fun _ => 0 * 1)) by (intros; ring). rewrite Series_scal_l. ring.
    - apply Series_le; [|exists B; auto]. intros n. split; [lra|]. apply Rle_trans with (Cmod (a n)); auto. apply Cmod_ge_0. }
  set (u := (Cconj l / RtoC (Cmod l))%C).
  assert (LN: l <> RtoC 0) by (intro; subst l; apply NZ, Cmod_0).
  assert (CN: RtoC (Cmod l) <> RtoC 0) by (intro X; apply RtoC_inj in X; auto).
  assert (U: Cmod u = 1).
  { unfold u. rewrite Cmod_div by auto. rewrite Cmod_R, (Rabs_right (Cmod l)) by (apply Rle_ge, Cmod_ge_0).
    replace (Cmod (Cconj l)) with (Cmod l); [field; auto|]. unfold Cmod, Cconj. cbn. f_equal. ring. }
  assert (UL: (u * l)%C = RtoC (Cmod l)).
  { unfold u. replace (Cconj l / RtoC (Cmod l) * l)%C with ((Cconj l * l) / RtoC (Cmod l))%C by (field; auto).
    replace (Cconj l * l)%C with (RtoC (Cmod l) * RtoC (Cmod l))%C; [field; auto|].
    unfold Cconj, Cmult, RtoC, Cmod. destruct l as [x y]. cbn [fst snd]. apply injective_projections; cbn [fst snd]; [|ring].
    rewrite Rmult_0_l, Rminus_0_r. rewrite sqrt_sqrt; [ring|nra]. }
  pose proof (is_csum_scal u _ _ A) as (P & _). rewrite UL in P. cbn [Re RtoC fst] in P.
  rewrite <- (is_series_unique _ _ P), <- (is_series_unique _ _ E).
  apply Rle_trans with (Rabs (Series (fun k => Re (u * a k)%C))); [apply RRle_abs|].
  assert (BD: forall n, Rabs (Re (u * a n)%C) <= b n).
  { intros n. apply Rle_trans with (Cmod (u * a n)%C); [apply re_le|]. rewrite Cmod_mult, U. rewrite Rmult_1_l. auto. }
  apply Rle_trans with (Series (fun k => Rabs (Re (u * a k)%C))).
  - apply Series_Rabs. apply (ex_series_le (K := R_AbsRing) (V := R_CompleteNormedModule)) with b; [|exists B; auto].
    intros n. change (Rabs (Rabs (Re (u * a n)%C)) <= b n). rewrite Rabs_Rabsolu. auto.
  - apply Series_le; [|exists B; auto]. intros n. split; [apply Rabs_pos | auto].
Qed.

(* ------------------------------------------------ powers *)
Lemma cpow_mod : forall z n, Cmod (cpow z n) = Cmod z ^ n.
Proof. intros z n. induction n; cbn [cpow pow]; [apply Cmod_1|]. rewrite Cmod_mult, IHn. auto. Qed.
Lemma cpow_nz : forall z n, z <> RtoC 0 -> cpow z n <> RtoC 0.
Proof. intros z n H. induction n; cbn [cpow]; [intro E; apply RtoC_inj in E; lra | apply Cmult_neq_0; auto]. Qed.
Lemma cpow_add : forall z n m, cpow z (n + m) = (cpow z n * cpow z m)%C.
Proof. intros z n m. induction n; cbn [cpow Nat.add]; [ring | rewrite IHn; ring]. Qed.
(** second order remainder of a power *)
Lemma cpow_taylor : forall w h k, Cmod (cpow (w + h) k - cpow w k - RtoC (INR k) * h * cpow w (k - 1))%C <= INR k * INR (k - 1) * (Cmod h * Cmod h) * (Cmod w + Cmod h) ^ (k - 2)
  /\ Cmod (cpow (w + h) k - cpow w k)%C <= INR k * Cmod h * (Cmod w + Cmod h) ^ (k - 1).
Proof.
  intros w h k. pose proof (Cmod_ge_0 w) as Pw. pose proof (Cmod_ge_0 h) as Ph.
  set (M := Cmod w + Cmod h). assert (PM: 0 <= M) by (unfold M; lra).
  assert (Hw: forall n, Cmod (cpow w n) <= M ^ n) by (intros n; rewrite cpow_mod; apply pow_incr; unfold M; lra).
  assert (Hwh: forall n, Cmod (cpow (w + h)%C n) <= M ^ n).
  { intros n; rewrite cpow_mod; apply pow_incr; split; [apply Cmod_ge_0 | unfold M; apply Cmod_triangle]. }
  assert (F1: forall k, Cmod (cpow (w + h) k - cpow w k)%C <= INR k * Cmod h * M ^ (k - 1)).
  { clear k. induction k as [|k IH]; [cbn; replace (1 - 1)%C with (RtoC 0) by ring; rewrite Cmod_0; lra|].
    cbn [cpow]. replace ((w + h) * cpow (w + h) k - w * cpow w k)%C with ((w + h) * (cpow (w + h) k - cpow w k) + h * cpow w k)%C by ring.
    eapply Rle_trans; [apply Cmod_triangle|]. rewrite !Cmod_mult. replace (Datatypes.S k - 1)%nat with k by lia. rewrite S_INR.
    assert (T: Cmod (w + h)%C <= M) by (unfold M; apply Cmod_triangle).
    replace ((INR k + 1) * Cmod h * M ^ k) with (INR k * Cmod h * M ^ k + Cmod h * M ^ k) by ring.
    apply Rplus_le_compat; [|apply Rmult_le_compat_l; auto].
    destruct k as [|k]; [cbn [INR cpow]; replace (RtoC 1 - RtoC 1)%C with (RtoC 0) by ring; rewrite Cmod_0; rewrite Rmult_0_r, !Rmult_0_l; lra|].
    eapply Rle_trans; [apply Rmult_le_compat; [apply Cmod_ge_0 | apply Cmod_ge_0 | exact T | exact IH]|].
    replace (Datatypes.S k - 1)%nat with k by lia. cbn [pow]. right. ring. }
  split; [|apply F1]. fold M.
  induction k as [|k IH]; [cbn; replace (1 - 1 - _ * h * 1)%C with (RtoC 0) by ring; rewrite Cmod_0; lra|].
  cbn [cpow]. replace (Datatypes.S k - 1)%nat with k by lia. replace (Datatypes.S k - 2)%nat with (k - 1)%nat by lia.
  replace ((w + h) * cpow (w + h) k - w * cpow w k - RtoC (INR (Datatypes.S k)) * h * cpow w k)%C
    with (w * (cpow (w + h) k - cpow w k - RtoC (INR k) * h * cpow w (k - 1)) + h * (cpow (w + h) k - cpow w k)
          + RtoC (INR k) * h * (w * cpow w (k - 1) - cpow w k))%C by (rewrite S_INR, RtoC_plus; ring).
  assert (Z0: (RtoC (INR k) * h * (w * cpow w (k - 1) - cpow w k))%C = RtoC 0).
  { destruct k; [cbn [INR]; ring|]. replace (Datatypes.S k - 1)%nat with k by lia. cbn [cpow]. ring. }
  rewrite Z0, Cplus_0_r. eapply Rle_trans; [apply Cmod_triangle|]. rewrite !Cmod_mult.
  eapply Rle_trans; [apply Rplus_le_compat; [apply Rmult_le_compat_l; [auto|exact IH] | apply Rmult_le_compat_l; [auto | exact (F1 k)]]|].
  destruct k as [|k]; [cbn [INR Nat.sub pow]; lra|].
  replace (Datatypes.S k - 1)%nat with k by lia. replace (Datatypes.S k - 2)%nat with (k - 1)%nat by lia.
  rewrite !S_INR.
  destruct k as [|k]; [cbn [INR Nat.sub pow]; nra|].
  replace (Datatypes.S k - 1)%nat with k by lia. rewrite S_INR. cbn [pow].
  assert (0 <= M ^ k) by (apply pow_le; auto). pose proof (pos_INR k).
  set (x := INR k) in *. set (A := M ^ k) in *. set (hh := Cmod h) in *.
  assert (X: Cmod w * ((x + 1 + 1) * (x + 1) * (hh * hh) * A) <= M * ((x + 1 + 1) * (x + 1) * (hh * hh) * A)).
  { apply Rmult_le_compat_r; [|unfold M; lra]. apply Rmult_le_pos; auto. apply Rmult_le_pos; [nra|nra]. }
  eapply Rle_trans; [apply Rplus_le_compat_r; exact X|].
  assert (0 <= (x + 1 + 1) * (hh * hh) * (M * A)); [|nra].
  apply Rmult_le_pos; [|apply Rmult_le_pos; auto]. apply Rmult_le_pos; nra.
Qed.

(* ------------------------------------------------ the series of BesselSpec *)
Definition oddz (c : R) : Prop := exists m : Z, c = IZR (2 * m + 1).
Lemma odd_abs : forall c, oddz c -> 1 <= Rabs c.
Proof.
  intros c (m & ->). rewrite <- abs_IZR. apply (IZR_le 1). lia.
Qed.
Lemma odd_nz : forall c, oddz c -> c <> 0.
Proof. intros c H E. apply odd_abs in H. rewrite E, Rabs_R0 in H. lra. Qed.
Lemma odd_add : forall c (k : nat), oddz c -> oddz (c + 2 * INR k).
Proof. intros c k (m & ->). exists (m + Z.of_nat k)%Z. rewrite INR_IZR_INZ, <- mult_IZR, <- plus_IZR. f_equal. ring. Qed.
Lemma odd_add2 : forall c, oddz c -> oddz (c + 2).
Proof. intros c H. replace (c + 2) with (c + 2 * INR 1) by (cbn; ring). apply odd_add; auto. Qed.
Lemma odd_sub2 : forall c, oddz c -> oddz (c - 2).
Proof. intros c (m & ->). exists (m - 1)%Z. rewrite <- minus_IZR. f_equal. ring. Qed.
Lemma steps_abs : forall c k, oddz c -> 1 <= Rabs (steps c k).
Proof.
  intros c k H. induction k; [cbn [steps]; rewrite Rabs_R1; lra|].
  change (1 <= Rabs (steps c k * (c + 2 * INR (Datatypes.S k)))). rewrite Rabs_mult. pose proof (odd_abs _ (odd_add c (Datatypes.S k) H)). nra.
Qed.
Lemma steps_nz : forall c k, oddz c -> steps c k <> 0.
Proof. intros c k H E. pose proof (steps_abs c k H). rewrite E, Rabs_R0 in H0. lra. Qed.
Lemma steps_S : forall c k, steps c (Datatypes.S k) = steps c k * (c + 2 * INR (Datatypes.S k)).
Proof. reflexivity. Qed.
Lemma steps_first : forall c k, steps c (Datatypes.S k) = (c + 2) * steps (c + 2) k.
Proof.
  intros c k. induction k; [cbn; ring|]. rewrite steps_S, IHk, steps_S, !S_INR. ring.
Qed.
Lemma steps_down : forall c k, steps (c - 2) (Datatypes.S k) = c * steps c k.
Proof. intros c k. rewrite steps_first. replace (c - 2 + 2) with c by ring. auto. Qed.

Definition ak (c : R) (k : nat) : R := / (INR (fact k) * steps c k).
Lemma ak_abs : forall c k, oddz c -> Rabs (ak c k) <= / INR (fact k).
Proof.
  intros c k H. unfold ak. pose proof (steps_abs c k H) as S1. pose proof (INR_fact_lt_0 k) as F.
  rewrite Rabs_inv, Rabs_mult, (Rabs_right (INR (fact k))) by lra.
  apply Rinv_le_contravar; auto. nra.
Qed.
Lemma exp_series : forall x, is_series (fun k => / INR (fact k) * x ^ k) (exp x).
Proof. intros x. apply (is_pseries_R (fun n => / INR (fact n))). apply is_exp_Reals. Qed.
Definition G (c : R) (w : C) : C := csum_inf (fun k => cpow w k * RtoC (ak c k))%C.
Lemma G_term : forall c w k, oddz c -> Cmod (cpow w k * RtoC (ak c k))%C <= / INR (fact k) * Cmod w ^ k.
Proof.
  intros c w k H. rewrite Cmod_mult, cpow_mod, Cmod_R, Rmult_comm. apply Rmult_le_compat_r; [apply pow_le, Cmod_ge_0 | apply ak_abs; auto].
Qed.
Lemma G_sum : forall c w, oddz c -> is_csum (fun k => cpow w k * RtoC (ak c k))%C (G c w).
Proof.
  intros c w H. apply is_csum_dom with (fun k => / INR (fact k) * Cmod w ^ k); [intros k; apply G_term; auto|].
  eexists. apply exp_series.
Qed.
Lemma G_norm : forall c w, oddz c -> Cmod (G c w) <= exp (Cmod w).
Proof.
  intros c w H. apply (is_csum_norm (fun k => cpow w k * RtoC (ak c k))%C (fun k => / INR (fact k) * Cmod w ^ k));
    [intros k; apply G_term; auto | apply exp_series | apply G_sum; auto].
Qed.

Lemma RtoC_nz : forall x, x <> 0 -> RtoC x <> RtoC 0.
Proof. intros x H E. apply RtoC_inj in E. auto. Qed.
Lemma G_contiguous : forall c w, oddz c -> (G (c - 2) w - G c w = RtoC (2 / (c * (c + 2))) * w * G (c + 2) w)%C.
Proof.
  intros c w H. pose proof (odd_nz c H) as N. pose proof (odd_nz _ (odd_add2 c H)) as N2.
  eapply is_csum_unique; [exact (is_csum_minus _ _ _ _ (G_sum _ w (odd_sub2 c H)) (G_sum _ w H))|].
  replace (RtoC (2 / (c * (c + 2))) * w * G (c + 2) w)%C
    with (RtoC (2 / (c * (c + 2))) * w * G (c + 2) w + (cpow w 0 * RtoC (ak (c - 2) 0) - cpow w 0 * RtoC (ak c 0)))%C
    by (unfold ak; cbn [fact steps cpow INR]; ring).
  apply (is_csum_tail (fun k => cpow w k * RtoC (ak (c - 2) k) - cpow w k * RtoC (ak c k))%C).
  eapply is_csum_ext; [|exact (is_csum_scal _ _ _ (G_sum _ w (odd_add2 c H)))].
  intros k. cbv beta. cbn [cpow].
  replace (RtoC (2 / (c * (c + 2))) * w * (cpow w k * RtoC (ak (c + 2) k)))%C with (w * cpow w k * (RtoC (2 / (c * (c + 2))) * RtoC (ak (c + 2) k)))%C by ring.
  replace (w * cpow w k * RtoC (ak (c - 2) (Datatypes.S k)) - w * cpow w k * RtoC (ak c (Datatypes.S k)))%C
    with (w * cpow w k * (RtoC (ak (c - 2) (Datatypes.S k)) - RtoC (ak c (Datatypes.S k))))%C by ring.
  f_equal. rewrite <- RtoC_mult, <- RtoC_minus. f_equal. unfold ak. rewrite steps_down.
  replace (steps (c + 2) k) with (steps c (Datatypes.S k) / (c + 2)) by (rewrite steps_first; field; auto).
  rewrite steps_S. rewrite fact_simpl, mult_INR.
  pose proof (steps_nz c k H) as A1. pose proof (odd_nz _ (odd_add c (Datatypes.S k) H)) as A2. rewrite S_INR in *.
  pose proof (INR_fact_neq_0 k). pose proof (pos_INR k). field. repeat split; auto; lra.
Qed.

Lemma G_deriv : forall c w h, oddz c ->
  Cmod (G c (w + h) - G c w - h * (RtoC (/ (c + 2)) * G (c + 2) w))%C <= Cmod h * Cmod h * exp (Cmod w + Cmod h).
Proof.
  intros c w h H. set (M := Cmod w + Cmod h).
  pose proof (odd_nz _ (odd_add2 c H)) as N2.
  assert (PM: 0 <= M) by (unfold M; pose proof (Cmod_ge_0 w); pose proof (Cmod_ge_0 h); lra).
  assert (D: is_csum (fun k => RtoC (INR k) * cpow w (k - 1) * RtoC (ak c k))%C (RtoC (/ (c + 2)) * G (c + 2) w)%C).
  { replace (RtoC (/ (c + 2)) * G (c + 2) w)%C with (RtoC (/ (c + 2)) * G (c + 2) w + RtoC (INR 0) * cpow w (0 - 1) * RtoC (ak c 0))%C by (cbn [INR]; ring).
    apply (is_csum_tail (fun k => RtoC (INR k) * cpow w (k - 1) * RtoC (ak c k))%C).
    eapply is_csum_ext; [|exact (is_csum_scal _ _ _ (G_sum _ w (odd_add2 c H)))].
    intros k. cbv beta. replace (Datatypes.S k - 1)%nat with k by lia.
    replace (RtoC (/ (c + 2)) * (cpow w k * RtoC (ak (c + 2) k)))%C with (cpow w k * (RtoC (/ (c + 2)) * RtoC (ak (c + 2) k)))%C by ring.
    replace (RtoC (INR (Datatypes.S k)) * cpow w k * RtoC (ak c (Datatypes.S k)))%C with (cpow w k * (RtoC (INR (Datatypes.S k)) * RtoC (ak c (Datatypes.S k))))%C by ring.
    f_equal. rewrite <- !RtoC_mult. f_equal. unfold ak. rewrite steps_first, fact_simpl, mult_INR.
    pose proof (steps_nz _ k (odd_add2 c H)). pose proof (INR_fact_neq_0 k). rewrite S_INR. pose proof (pos_INR k). field. repeat split; auto; lra. }
  set (b := fun k => match k with Datatypes.S (Datatypes.S j) => Cmod h * Cmod h * (/ INR (fact j) * M ^ j) | _ => 0 end).
  apply (is_csum_norm (fun k => cpow (w + h) k * RtoC (ak c k) - cpow w k * RtoC (ak c k) - h * (RtoC (INR k) * cpow w (k - 1) * RtoC (ak c k)))%C b).
  - intros k.
    replace (cpow (w + h) k * RtoC (ak c k) - cpow w k * RtoC (ak c k) - h * (RtoC (INR k) * cpow w (k - 1) * RtoC (ak c k)))%C
      with (RtoC (ak c k) * (cpow (w + h) k - cpow w k - RtoC (INR k) * h * cpow w (k - 1)))%C by ring.
    rewrite Cmod_mult, Cmod_R. destruct (cpow_taylor w h k) as (T & _). fold M in T.
    pose proof (ak_abs c k H) as Ak.
    destruct k as [|[|k]].
    { cbn [b]. cbn [INR] in T. rewrite !Rmult_0_l in T. pose proof (Cmod_ge_0 (cpow (w + h) 0 - cpow w 0 - RtoC 0 * h * cpow w (0 - 1))%C).
      cbn [INR]. replace (Cmod (cpow (w + h) 0 - cpow w 0 - RtoC 0 * h * cpow w (0 - 1))%C) with 0 by lra. lra. }
    { cbn [b]. replace (INR 1 * INR (1 - 1)) with 0 in T by (cbn; ring). rewrite !Rmult_0_l in T.
      pose proof (Cmod_ge_0 (cpow (w + h) 1 - cpow w 1 - RtoC (INR 1) * h * cpow w (1 - 1))%C).
      replace (Cmod (cpow (w + h) 1 - cpow w 1 - RtoC (INR 1) * h * cpow w (1 - 1))%C) with 0 by lra. lra. }
    eapply Rle_trans; [apply Rmult_le_compat; [apply Rabs_pos | apply Cmod_ge_0 | exact Ak | exact T]|].
    cbn [b]. replace (Datatypes.S (Datatypes.S k) - 1)%nat with (Datatypes.S k) by lia. replace (Datatypes.S (Datatypes.S k) - 2)%nat with k by lia.
    rewrite (fact_simpl (Datatypes.S k)), (fact_simpl k), !mult_INR, !S_INR. pose proof (INR_fact_neq_0 k). pose proof (pos_INR k).
    right. field. repeat split; auto; lra.
  - apply is_series_decr_1. apply is_series_decr_1. cbn [b].
    match goal with |- is_series _ ?x => replace x with (scal (Cmod h * Cmod h) (exp M)) end.
    + exact (is_series_scal (Cmod h * Cmod h) _ _ (exp_series M)).
    + unfold plus, opp, scal. cbn -[Rplus Ropp Rmult]. unfold mult. cbn -[Rplus Ropp Rmult]. ring.
  - apply is_csum_minus; [apply is_csum_minus; apply G_sum; auto|]. apply is_csum_scal. exact D.
Qed.

(* ------------------------------------------------ derivatives *)
Definition smooth (f : C -> C) (z l : C) : Prop :=
  exists K d, 0 < d /\ 0 <= K /\ forall h, Cmod h <= d -> Cmod (f (z + h)%C - f z - l * h)%C <= K * (Cmod h * Cmod h).
Lemma smooth_deriv : forall f z l, smooth f z l -> is_cderiv f z l.
Proof.
  intros f z l (K & d & Pd & PK & H) eps He. exists (Rmin d (eps / (K + 1))). split.
  { apply Rmin_glb_lt; auto. apply Rdiv_lt_0_compat; lra. }
  intros h Nh Hh. assert (P: 0 < Cmod h) by (apply Cmod_gt_0; auto).
  assert (H1: Cmod h < d) by (eapply Rlt_le_trans; [exact Hh | apply Rmin_l]).
  assert (H2: Cmod h < eps / (K + 1)) by (eapply Rlt_le_trans; [exact Hh | apply Rmin_r]).
  replace ((f (z + h)%C - f z) / h - l)%C with ((f (z + h)%C - f z - l * h) / h)%C by (field; auto).
  rewrite Cmod_div by auto. specialize (H h ltac:(lra)).
  apply Rle_lt_trans with (K * Cmod h).
  - apply (Rmult_le_reg_r (Cmod h)); auto. unfold Rdiv. rewrite Rmult_assoc, Rinv_l by lra. lra.
  - assert (Cmod h * (K + 1) < eps) by (apply (Rmult_lt_reg_r (/ (K + 1))); [apply Rinv_0_lt_compat; lra | rewrite Rmult_assoc, Rinv_r by lra; unfold Rdiv in H2; lra]).
    nra.
Qed.
Lemma smooth_ext : forall f g z l, (forall x, f x = g x) -> smooth f z l -> smooth g z l.
Proof. intros f g z l E (K & d & Pd & PK & H). exists K, d. repeat split; auto. intros h Hh. rewrite <- !E. auto. Qed.
Lemma smooth_const : forall c z, smooth (fun _ => c) z (RtoC 0).
Proof. intros c z. exists 0, 1. repeat split; try lra. intros h _. replace (c - c - RtoC 0 * h)%C with (RtoC 0) by ring. rewrite Cmod_0. lra. Qed.
Lemma smooth_id : forall z, smooth (fun z => z) z (RtoC 1).
Proof. intros z. exists 0, 1. repeat split; try lra. intros h _. replace (z + h - z - RtoC 1 * h)%C with (RtoC 0) by ring. rewrite Cmod_0. lra. Qed.
Lemma smooth_step : forall f z l K d h, 0 <= K -> Cmod h <= d -> Cmod (f (z + h)%C - f z - l * h)%C <= K * (Cmod h * Cmod h) ->
  Cmod (f (z + h) - f z)%C <= (Cmod l + K * d) * Cmod h.
Proof.
  intros f z l K d h PK Hd H. replace (f (z + h)%C - f z)%C with (l * h + (f (z + h)%C - f z - l * h))%C by ring.
  eapply Rle_trans; [apply Cmod_triangle|]. rewrite Cmod_mult. pose proof (Cmod_ge_0 h).
  assert (K * (Cmod h * Cmod h) <= K * d * Cmod h) by (rewrite Rmult_assoc; apply Rmult_le_compat_l; auto; apply Rmult_le_compat_r; auto).
  lra.
Qed.
Lemma smooth_mult : forall f g z l m, smooth f z l -> smooth g z m -> smooth (fun x => f x * g x)%C z (l * g z + f z * m)%C.
Proof.
  intros f g z l m (K & d & Pd & PK & H) (K' & d' & Pd' & PK' & H').
  exists (K * Cmod (g z) + Cmod (f z) * K' + (Cmod l + K * d) * (Cmod m + K' * d')), (Rmin d d').
  pose proof (Cmod_ge_0 (g z)). pose proof (Cmod_ge_0 (f z)). pose proof (Cmod_ge_0 l). pose proof (Cmod_ge_0 m).
  assert (0 <= K * d) by nra. assert (0 <= K' * d') by nra.
  repeat split; [apply Rmin_glb_lt; auto | |].
  { assert (0 <= K * Cmod (g z)) by nra. assert (0 <= Cmod (f z) * K') by nra. assert (0 <= (Cmod l + K * d) * (Cmod m + K' * d')) by (apply Rmult_le_pos; lra). lra. }
  intros h Hh. assert (D: Cmod h <= d) by (eapply Rle_trans; [exact Hh | apply Rmin_l]). assert (D': Cmod h <= d') by (eapply Rle_trans; [exact Hh | apply Rmin_r]).
  specialize (H h D). specialize (H' h D').
  pose proof (smooth_step f z l K d h PK D H) as A. pose proof (smooth_step g z m K' d' h PK' D' H') as B.
  replace (f (z + h)%C * g (z + h)%C - f z * g z - (l * g z + f z * m) * h)%C
    with ((f (z + h)%C - f z - l * h) * g z + f z * (g (z + h)%C - g z - m * h) + (f (z + h)%C - f z) * (g (z + h)%C - g z))%C by ring.
  eapply Rle_trans; [apply Cmod_triangle|]. rewrite Cmod_mult.
  eapply Rle_trans; [apply Rplus_le_compat_r, Cmod_triangle|]. rewrite !Cmod_mult.
  pose proof (Cmod_ge_0 (f (z + h) - f z)%C). pose proof (Cmod_ge_0 (g (z + h) - g z)%C). pose proof (Cmod_ge_0 h).
  assert (Cmod (f (z + h) - f z)%C * Cmod (g (z + h) - g z)%C <= ((Cmod l + K * d) * Cmod h) * ((Cmod m + K' * d') * Cmod h)) by (apply Rmult_le_compat; auto).
  assert (Cmod (f (z + h)%C - f z - l * h)%C * Cmod (g z) <= K * (Cmod h * Cmod h) * Cmod (g z)) by (apply Rmult_le_compat_r; auto).
  assert (Cmod (f z) * Cmod (g (z + h)%C - g z - m * h)%C <= Cmod (f z) * (K' * (Cmod h * Cmod h))) by (apply Rmult_le_compat_l; auto).
  lra.
Qed.
Lemma smooth_comp : forall f g z l m, smooth f z l -> smooth g (f z) m -> smooth (fun x => g (f x)) z (m * l)%C.
Proof.
  intros f g z l m (K & d & Pd & PK & H) (K' & d' & Pd' & PK' & H').
  pose proof (Cmod_ge_0 l) as Pl. pose proof (Cmod_ge_0 m) as Pm. assert (0 <= K * d) by nra.
  set (L := Cmod l + K * d + 1). assert (PL: 0 < L) by (unfold L; lra).
  exists (Cmod m * K + K' * (L * L)), (Rmin d (d' / L)). repeat split.
  { apply Rmin_glb_lt; auto. apply Rdiv_lt_0_compat; auto. }
  { assert (0 <= Cmod m * K) by nra. assert (0 <= K' * (L * L)) by (apply Rmult_le_pos; nra). lra. }
  intros h Hh. assert (D: Cmod h <= d) by (eapply Rle_trans; [exact Hh | apply Rmin_l]). assert (D': Cmod h <= d' / L) by (eapply Rle_trans; [exact Hh | apply Rmin_r]).
  specialize (H h D). pose proof (smooth_step f z l K d h PK D H) as A.
  pose proof (Cmod_ge_0 h) as Ph. pose proof (Cmod_ge_0 (f (z + h) - f z)%C) as Pa.
  assert (A': Cmod (f (z + h) - f z)%C <= L * Cmod h) by (unfold L; lra).
  assert (A2: L * Cmod h <= d'). { apply Rle_trans with (L * (d' / L)); [apply Rmult_le_compat_l; lra|]. right. field. lra. }
  specialize (H' (f (z + h) - f z)%C ltac:(lra)). replace (f z + (f (z + h) - f z))%C with (f (z + h)%C) in H' by ring.
  replace (g (f (z + h)%C) - g (f z) - m * l * h)%C with ((g (f (z + h)%C) - g (f z) - m * (f (z + h)%C - f z)) + m * (f (z + h)%C - f z - l * h))%C by ring.
  eapply Rle_trans; [apply Cmod_triangle|]. rewrite Cmod_mult.
  assert (Cmod m * Cmod (f (z + h)%C - f z - l * h)%C <= Cmod m * (K * (Cmod h * Cmod h))) by (apply Rmult_le_compat_l; auto).
  assert (Cmod (f (z + h) - f z)%C * Cmod (f (z + h) - f z)%C <= (L * Cmod h) * (L * Cmod h)) by (apply Rmult_le_compat; auto).
  assert (K' * (Cmod (f (z + h) - f z)%C * Cmod (f (z + h) - f z)%C) <= K' * ((L * Cmod h) * (L * Cmod h))) by (apply Rmult_le_compat_l; auto).
  lra.
Qed.
Lemma smooth_inv : forall z, z <> RtoC 0 -> smooth Cinv z (- (/ z * / z))%C.
Proof.
  intros z N. pose proof (proj1 (Cmod_gt_0 z) N) as P. set (r := Cmod z) in *.
  exists (2 / (r * r * r)), (r / 2). repeat split; [lra | left; apply Rdiv_lt_0_compat; [lra|repeat apply Rmult_lt_0_compat; auto] |].
  intros h Hh.
  assert (B: r / 2 <= Cmod (z + h)%C).
  { assert (Cmod z <= Cmod (z + h)%C + Cmod h); [|unfold r in *; lra].
    replace z with ((z + h) + - h)%C at 1 by ring. eapply Rle_trans; [apply Cmod_triangle|]. rewrite Cmod_opp. lra. }
  assert (N': (z + h)%C <> RtoC 0) by (intro E; rewrite E, Cmod_0 in B; lra).
  replace (/ (z + h) - / z - - (/ z * / z) * h)%C with (h * h * (/ z * / z * / (z + h)))%C by (field; split; auto).
  rewrite !Cmod_mult, !Cmod_inv by auto. fold r. rewrite Rmult_comm. apply Rmult_le_compat_r; [pose proof (Cmod_ge_0 h); nra|].
  replace (2 / (r * r * r)) with (/ r * / r * / (r / 2)) by (field; lra).
  apply Rmult_le_compat_l; [|apply Rinv_le_contravar; lra]. left. apply Rmult_lt_0_compat; apply Rinv_0_lt_compat; auto.
Qed.
Lemma smooth_cpow : forall n z, smooth (fun z => cpow z n) z (RtoC (INR n) * cpow z (n - 1))%C.
Proof.
  intros n z. induction n as [|n IH]; [cbn [cpow INR]; replace (RtoC 0 * cpow z (0 - 1))%C with (RtoC 0) by ring; apply smooth_const|].
  cbn [cpow]. pose proof (smooth_mult _ _ _ _ _ (smooth_id z) IH) as X. cbv beta in X.
  replace (RtoC (INR (Datatypes.S n)) * cpow z (Datatypes.S n - 1))%C with (RtoC 1 * cpow z n + z * (RtoC (INR n) * cpow z (n - 1)))%C; [exact X|].
  replace (Datatypes.S n - 1)%nat with n by lia. rewrite S_INR, RtoC_plus. destruct n; [cbn [INR cpow]; ring|].
  replace (Datatypes.S n - 1)%nat with n by lia. cbn [cpow]. ring.
Qed.
Lemma smooth_G : forall c w, oddz c -> smooth (G c) w (RtoC (/ (c + 2)) * G (c + 2) w)%C.
Proof.
  intros c w H. exists (exp (Cmod w + 1)), 1. repeat split; [lra | left; apply exp_pos |].
  intros h Hh. pose proof (G_deriv c w h H) as D. rewrite (Cmult_comm (RtoC (/ (c + 2)) * G (c + 2) w)%C). eapply Rle_trans; [exact D|].
  rewrite Rmult_comm. pose proof (Cmod_ge_0 h). apply Rmult_le_compat_r; [nra|].
  destruct (Req_dec (Cmod h) 1) as [-> | ?]; [lra|]. left. apply exp_increasing. lra.
Qed.
(** w = - z^2 / 2 *)
Definition arg (z : C) : C := (RtoC (- / 2) * (z * z))%C.
Lemma arg_mul : forall z, (RtoC 2 * arg z)%C = (- (z * z))%C.
Proof. intros z. unfold arg. rewrite Cmult_assoc, <- RtoC_mult. replace (2 * - / 2) with (Ropp 1) by field. rewrite RtoC_opp. ring. Qed.
Lemma smooth_F : forall c z, oddz c -> smooth (fun z => G c (arg z)) z (- (z * (RtoC (/ (c + 2)) * G (c + 2) (arg z))))%C.
Proof.
  intros c z H.
  assert (A: smooth arg z (- z)%C).
  { pose proof (smooth_mult _ _ _ _ _ (smooth_const (RtoC (- / 2)) z) (smooth_mult _ _ _ _ _ (smooth_id z) (smooth_id z))) as X. cbv beta in X.
    replace (- z)%C with (RtoC 0 * (z * z) + RtoC (- / 2) * (RtoC 1 * z + z * RtoC 1))%C; [exact X|].
    replace (RtoC 1 * z + z * RtoC 1)%C with (RtoC 2 * z)%C by (replace (RtoC 2) with (RtoC 1 + RtoC 1)%C by (rewrite <- RtoC_plus; f_equal; ring); ring).
    rewrite (Cmult_assoc (RtoC (- / 2))), <- RtoC_mult. replace (- / 2 * 2) with (Ropp 1) by field. rewrite RtoC_opp. ring. }
  pose proof (smooth_comp _ _ _ _ _ A (smooth_G c (arg z) H)) as X.
  replace (- (z * (RtoC (/ (c + 2)) * G (c + 2) (arg z))))%C with (RtoC (/ (c + 2)) * G (c + 2) (arg z) * - z)%C by ring. exact X.
Qed.

(* ------------------------------------------------ the Bessel functions *)
Definition J (n : nat) (z : C) : C := (cpow z n * RtoC (/ oddfact (n + 1)) * G (2 * INR n + 1) (arg z))%C.
Definition Y (n : nat) (z : C) : C := (- (RtoC (oddfact n) / cpow z (n + 1)) * G (- 2 * INR n - 1) (arg z))%C.
Lemma odd_j : forall n, oddz (2 * INR n + 1).
Proof. intros n. exists (Z.of_nat n). rewrite INR_IZR_INZ, plus_IZR, mult_IZR. auto. Qed.
Lemma odd_y : forall n, oddz (- 2 * INR n - 1).
Proof. intros n. exists (- Z.of_nat n - 1)%Z. rewrite INR_IZR_INZ, plus_IZR, mult_IZR, minus_IZR, opp_IZR. ring. Qed.
Lemma J_is : forall n z, is_sph_j n z (J n z).
Proof. intros n z. apply is_csum_scal. exact (G_sum _ (arg z) (odd_j n)). Qed.
Lemma Y_is : forall n z, is_sph_y n z (Y n z).
Proof. intros n z. apply is_csum_scal. exact (G_sum _ (arg z) (odd_y n)). Qed.
Lemma oddfact_pos : forall n, 0 < oddfact n.
Proof. induction n; cbn [oddfact]; [lra|]. pose proof (pos_INR n). apply Rmult_lt_0_compat; lra. Qed.
Lemma oddfact_S : forall n, oddfact (Datatypes.S n) = (2 * INR n + 1) * oddfact n.
Proof. reflexivity. Qed.

(** n >= 1 is written S n *)
Lemma J_rec : forall n z, z <> RtoC 0 -> (J n z + J (n + 2) z = RtoC (2 * INR n + 3) * / z * J (n + 1) z)%C.
Proof.
  intros n z Nz. pose proof (G_contiguous (2 * INR (n + 1) + 1) (arg z) (odd_j _)) as E.
  pose proof (pos_INR n) as Pn. pose proof (oddfact_pos (n + 1)) as Po.
  replace (2 * INR (n + 1) + 1 - 2) with (2 * INR n + 1) in E by (rewrite plus_INR; cbn; ring).
  replace (2 * INR (n + 1) + 1 + 2) with (2 * INR (n + 2) + 1) in E by (rewrite !plus_INR; cbn; ring).
  unfold J. set (A := G (2 * INR n + 1) (arg z)) in *. set (B := G (2 * INR (n + 1) + 1) (arg z)) in *. set (D := G (2 * INR (n + 2) + 1) (arg z)) in *.
  replace (A) with (B + RtoC (2 / ((2 * INR (n + 1) + 1) * (2 * INR (n + 2) + 1))) * arg z * D)%C by (rewrite <- E; ring).
  replace (n + 2 + 1)%nat with (Datatypes.S (Datatypes.S (n + 1))) by lia. replace (n + 1 + 1)%nat with (Datatypes.S (n + 1)) by lia.
  rewrite (oddfact_S (Datatypes.S (n + 1))), (oddfact_S (n + 1)).
  replace (2 * INR (Datatypes.S (n + 1)) + 1) with (2 * INR n + 5) by (rewrite S_INR, plus_INR; cbn; ring).
  replace (2 * INR (n + 1) + 1) with (2 * INR n + 3) by (rewrite plus_INR; cbn; ring).
  replace (2 * INR (n + 2) + 1) with (2 * INR n + 5) by (rewrite plus_INR; cbn; ring).
  set (x := INR n) in *. set (o := oddfact (n + 1)) in *.
  rewrite !cpow_add. cbn [cpow]. unfold arg.
  rewrite !RtoC_inv by (apply Rgt_not_eq; repeat apply Rmult_lt_0_compat; lra). rewrite !RtoC_mult.
  replace (RtoC (2 / ((2 * x + 3) * (2 * x + 5)))) with (RtoC 2 * / (RtoC (2 * x + 3) * RtoC (2 * x + 5)))%C
    by (unfold Rdiv; rewrite RtoC_mult, RtoC_inv, RtoC_mult by nra; auto).
  assert (H2: (RtoC (- / 2) * RtoC 2)%C = (- RtoC 1)%C) by (rewrite <- RtoC_mult, <- RtoC_opp; f_equal; field).
  assert (N3: RtoC (2 * x + 3) <> RtoC 0) by (apply RtoC_nz; lra). assert (N5: RtoC (2 * x + 5) <> RtoC 0) by (apply RtoC_nz; lra). assert (No: RtoC o <> RtoC 0) by (apply RtoC_nz; lra).
  set (h := RtoC (- / 2)) in *. set (t := RtoC 2) in *. set (a := RtoC (2 * x + 3)) in *. set (b := RtoC (2 * x + 5)) in *. set (q := RtoC o) in *.
  transitivity (cpow z n * / q * B + (h * t) * (cpow z n * (z * z) * / q * (/ (a * b)) * D) + cpow z n * (z * z) * (/ (b * (a * q))) * D)%C; [ring|].
  rewrite H2. field. repeat split; auto.
Qed.
Lemma Y_rec : forall n z, z <> RtoC 0 -> (Y n z + Y (n + 2) z = RtoC (2 * INR n + 3) * / z * Y (n + 1) z)%C.
Proof.
  intros n z Nz. pose proof (G_contiguous (- 2 * INR (n + 1) - 1) (arg z) (odd_y _)) as E.
  pose proof (pos_INR n) as Pn. pose proof (oddfact_pos n) as Po.
  replace (- 2 * INR (n + 1) - 1 - 2) with (- 2 * INR (n + 2) - 1) in E by (rewrite !plus_INR; cbn; ring).
  replace (- 2 * INR (n + 1) - 1 + 2) with (- 2 * INR n - 1) in E by (rewrite !plus_INR; cbn; ring).
  unfold Y. set (A := G (- 2 * INR n - 1) (arg z)) in *. set (B := G (- 2 * INR (n + 1) - 1) (arg z)) in *. set (D := G (- 2 * INR (n + 2) - 1) (arg z)) in *.
  replace D with (B + RtoC (2 / ((- 2 * INR (n + 1) - 1) * (- 2 * INR n - 1))) * arg z * A)%C by (rewrite <- E; ring).
  replace (n + 2)%nat with (Datatypes.S (Datatypes.S n)) by lia. replace (n + 1)%nat with (Datatypes.S n) by lia.
  rewrite (oddfact_S (Datatypes.S n)), (oddfact_S n). rewrite !S_INR.
  replace (2 * (INR n + 1) + 1) with (2 * INR n + 3) by ring.
  set (x := INR n) in *. set (o := oddfact n) in *.
  rewrite !cpow_add. cbn [cpow]. unfold arg. rewrite !RtoC_mult.
  replace (RtoC (2 / ((- 2 * (x + 1) - 1) * (- 2 * x - 1)))) with (RtoC 2 * / (RtoC (2 * x + 3) * RtoC (2 * x + 1)))%C
    by (unfold Rdiv; rewrite <- RtoC_mult, <- RtoC_inv, <- RtoC_mult by nra; f_equal; f_equal; f_equal; ring).
  assert (H2: (RtoC (- / 2) * RtoC 2)%C = (- RtoC 1)%C) by (rewrite <- RtoC_mult, <- RtoC_opp; f_equal; field).
  assert (N3: RtoC (2 * x + 3) <> RtoC 0) by (apply RtoC_nz; lra). assert (N5: RtoC (2 * x + 1) <> RtoC 0) by (apply RtoC_nz; lra). assert (No: RtoC o <> RtoC 0) by (apply RtoC_nz; lra).
  set (h := RtoC (- / 2)) in *. set (t := RtoC 2) in *. set (a := RtoC (2 * x + 3)) in *. set (b := RtoC (2 * x + 1)) in *. set (q := RtoC o) in *.
  pose proof (cpow_nz z n Nz) as Zn. set (p := cpow z n) in *.
  transitivity (- (q / (p * z)) * A - (a * b * q) / (p * z * z * z) * B - (h * t) * ((a * b * q) / (p * z * z * z) * (/ (a * b)) * (z * z) * A))%C; [field; repeat split; auto|].
  rewrite H2. field. repeat split; auto.
Qed.
(** (z j_n)' = z j_{n-1} - n j_n *)
Lemma zJ_deriv : forall n z, z <> RtoC 0 -> smooth (fun z => z * J (n + 1) z)%C z (z * J n z - RtoC (INR n + 1) * J (n + 1) z)%C.
Proof.
  intros n z Nz. pose proof (G_contiguous (2 * INR (n + 1) + 1) (arg z) (odd_j _)) as E.
  pose proof (pos_INR n) as Pn. pose proof (oddfact_pos (n + 1)) as Po.
  pose proof (smooth_mult _ _ _ _ _ (smooth_mult _ _ _ _ _ (smooth_cpow (n + 2) z) (smooth_const (RtoC (/ oddfact (n + 1 + 1))) z)) (smooth_F _ z (odd_j (n + 1)))) as X.
  cbv beta in X. eapply smooth_ext in X; cycle 1.
  { intros x. instantiate (1 := (fun z => z * J (n + 1) z)%C). unfold J. replace (n + 2)%nat with (Datatypes.S (n + 1)) by lia. cbn [cpow]. ring. }
  match type of X with smooth _ _ ?e => replace (z * J n z - RtoC (INR n + 1) * J (n + 1) z)%C with e; [exact X|] end. clear X.
  replace (2 * INR (n + 1) + 1 - 2) with (2 * INR n + 1) in E by (rewrite plus_INR; cbn; ring).
  unfold J. set (A := G (2 * INR n + 1) (arg z)) in *. set (B := G (2 * INR (n + 1) + 1) (arg z)) in *. set (D := G (2 * INR (n + 1) + 1 + 2) (arg z)) in *.
  replace A with (B + RtoC (2 / ((2 * INR (n + 1) + 1) * (2 * INR (n + 1) + 1 + 2))) * arg z * D)%C by (rewrite <- E; ring).
  replace (n + 1 + 1)%nat with (Datatypes.S (n + 1)) by lia. rewrite (oddfact_S (n + 1)).
  replace (n + 2 - 1)%nat with (n + 1)%nat by lia. replace (INR (n + 2)) with (INR n + 2) by (rewrite plus_INR; cbn; ring).
  replace (2 * INR (n + 1) + 1) with (2 * INR n + 3) by (rewrite plus_INR; cbn; ring).
  replace (2 * INR n + 3 + 2) with (2 * INR n + 5) by ring.
  set (x := INR n) in *. set (o := oddfact (n + 1)) in *.
  rewrite !cpow_add. cbn [cpow]. unfold arg.
  rewrite !RtoC_inv by (apply Rgt_not_eq; repeat apply Rmult_lt_0_compat; lra). rewrite !RtoC_mult.
  replace (RtoC (2 / ((2 * x + 3) * (2 * x + 5)))) with (RtoC 2 * / (RtoC (2 * x + 3) * RtoC (2 * x + 5)))%C
    by (unfold Rdiv; rewrite RtoC_mult, RtoC_inv, RtoC_mult by nra; auto).
  assert (H2: (RtoC (- / 2) * RtoC 2)%C = (- RtoC 1)%C) by (rewrite <- RtoC_mult, <- RtoC_opp; f_equal; field).
  assert (N3: RtoC (2 * x + 3) <> RtoC 0) by (apply RtoC_nz; lra). assert (N5: RtoC (2 * x + 5) <> RtoC 0) by (apply RtoC_nz; lra). assert (No: RtoC o <> RtoC 0) by (apply RtoC_nz; lra).
  assert (E1: RtoC (x + 2) = (RtoC (2 * x + 3) - RtoC (x + 1))%C) by (rewrite <- RtoC_minus; f_equal; ring). rewrite E1.
  set (h := RtoC (- / 2)) in *. set (t := RtoC 2) in *. set (a := RtoC (2 * x + 3)) in *. set (b := RtoC (2 * x + 5)) in *. set (q := RtoC o) in *. set (y := RtoC (x + 1)) in *.
  symmetry.
  transitivity (z * cpow z n * / q * B + (h * t) * (z * cpow z n * (z * z) * / q * (/ (a * b)) * D) - y * (cpow z n * z * / (a * q) * B))%C; [ring|].
  rewrite H2. field. repeat split; auto.
Qed.
Lemma zY_deriv : forall n z, z <> RtoC 0 -> smooth (fun z => z * Y (n + 1) z)%C z (z * Y n z - RtoC (INR n + 1) * Y (n + 1) z)%C.
Proof.
  intros n z Nz. pose proof (pos_INR n) as Pn. pose proof (oddfact_pos n) as Po.
  pose proof (smooth_comp _ _ _ _ _ (smooth_cpow (n + 1) z) (smooth_inv _ (cpow_nz z (n + 1) Nz))) as Iv.
  pose proof (smooth_mult _ _ _ _ _ (smooth_mult _ _ _ _ _ (smooth_const (- RtoC (oddfact (n + 1)))%C z) Iv) (smooth_F _ z (odd_y (n + 1)))) as X.
  cbv beta in X.
  match type of X with smooth _ _ ?e => assert (EQ: e = (z * Y n z - RtoC (INR n + 1) * Y (n + 1) z)%C) end.
  { unfold Y. replace (- 2 * INR (n + 1) - 1 + 2) with (- 2 * INR n - 1) by (rewrite plus_INR; cbn; ring).
    set (A := G (- 2 * INR n - 1) (arg z)). set (B := G (- 2 * INR (n + 1) - 1) (arg z)).
    replace (n + 1 - 1)%nat with n by lia. replace (n + 1)%nat with (Datatypes.S n) by lia. rewrite (oddfact_S n), S_INR.
    replace (Datatypes.S n + 1)%nat with (Datatypes.S (Datatypes.S n)) by lia. cbn [cpow].
    pose proof (cpow_nz z n Nz) as Zn. set (p := cpow z n) in *. set (x := INR n) in *. set (o := oddfact n) in *.
    replace (RtoC (/ (- 2 * x - 1))) with (- / RtoC (2 * x + 1))%C by (rewrite <- RtoC_inv, <- RtoC_opp by lra; f_equal; field; lra).
    rewrite !RtoC_mult.
    assert (N5: RtoC (2 * x + 1) <> RtoC 0) by (apply RtoC_nz; lra). assert (No: RtoC o <> RtoC 0) by (apply RtoC_nz; lra).
    field. repeat split; auto. }
  rewrite EQ in X. clear EQ Iv. destruct X as (K & d & Pd & PK & H).
  pose proof (proj1 (Cmod_gt_0 z) Nz) as P.
  exists K, (Rmin d (Cmod z / 2)). repeat split; auto; [apply Rmin_glb_lt; lra|].
  intros h Hh. assert (D: Cmod h <= d) by (eapply Rle_trans; [exact Hh | apply Rmin_l]). assert (D': Cmod h <= Cmod z / 2) by (eapply Rle_trans; [exact Hh | apply Rmin_r]).
  specialize (H h D).
  assert (ZE: forall z, z <> RtoC 0 -> (- RtoC (oddfact (n + 1)) * / cpow z (n + 1) * G (- 2 * INR (n + 1) - 1) (arg z))%C = (z * Y (n + 1) z)%C).
  { intros x Nx. unfold Y. replace (n + 1 + 1)%nat with (Datatypes.S (n + 1)) by lia. cbn [cpow]. field. split; auto. apply cpow_nz; auto. }
  rewrite !ZE in H; auto.
  intro E0. assert (Cmod z = Cmod h). { assert (EZ: z = (- h)%C) by (transitivity (z + h - h)%C; [ring | rewrite E0; ring]). rewrite EZ. apply Cmod_opp. } lra.
Qed.

(* ------------------------------------------------ order zero: sine and cosine *)

Definition Ss (z : C) : C := (z * G 1 (arg z))%C.
Definition Cs (z : C) : C := G (-1) (arg z).
Lemma odd1 : oddz 1. Proof. exists 0%Z. auto. Qed.
Lemma oddm1 : oddz (-1). Proof. exists (-1)%Z. auto. Qed.
Lemma Ss_deriv : forall z, smooth Ss z (Cs z).
Proof.
  intros z. pose proof (smooth_mult _ _ _ _ _ (smooth_id z) (smooth_F 1 z odd1)) as X. cbv beta in X.
  match type of X with smooth _ _ ?e => replace (Cs z) with e; [exact X|] end.
  unfold Cs. pose proof (G_contiguous 1 (arg z) odd1) as E. replace (1 - 2) with (-1) in E by ring. replace (1 + 2) with 3 in * by ring.
  replace (G (-1) (arg z)) with (G 1 (arg z) + RtoC (2 / (1 * 3)) * arg z * G 3 (arg z))%C by (rewrite <- E; ring).
  replace (RtoC (2 / (1 * 3))) with (RtoC (/ 3) * RtoC 2)%C by (rewrite <- RtoC_mult; f_equal; field).
  rewrite <- (Cmult_assoc (RtoC (/ 3))), arg_mul. ring.
Qed.
Lemma Cs_deriv : forall z, smooth Cs z (- Ss z)%C.
Proof.
  intros z. pose proof (smooth_F (-1) z oddm1) as X. unfold Ss.
  replace (-1 + 2) with 1 in X by ring. rewrite Rinv_1, Cmult_1_l in X. exact X.
Qed.
Lemma path_deriv : forall f z u t l, smooth f (z + RtoC t * u)%C l ->
  derivable_pt_lim (fun t => Re (f (z + RtoC t * u)%C)) t (Re (l * u)%C) /\ derivable_pt_lim (fun t => Im (f (z + RtoC t * u)%C)) t (Im (l * u)%C).
Proof.
  intros f z u t l (K & d & Pd & PK & H).
  assert (Q: forall P : C -> R, (forall z, Rabs (P z) <= Cmod z) -> (forall a b, P (a - b)%C = P a - P b) -> (forall r a, P (RtoC r * a)%C = r * P a) ->
    derivable_pt_lim (fun t => P (f (z + RtoC t * u)%C)) t (P (l * u)%C)).
  { intros P P1 P2 P3 eps He. pose proof (Cmod_ge_0 u) as Pu.
    assert (D: 0 < Rmin (d / (Cmod u + 1)) (eps / (K * (Cmod u * Cmod u) + 1))).
    { assert (0 <= K * (Cmod u * Cmod u)) by (apply Rmult_le_pos; nra). apply Rmin_glb_lt; apply Rdiv_lt_0_compat; lra. }
    exists (mkposreal _ D). cbn [pos]. intros h Nh Hh.
    assert (H1: Rabs h < d / (Cmod u + 1)) by (eapply Rlt_le_trans; [exact Hh | apply Rmin_l]).
    assert (H2: Rabs h < eps / (K * (Cmod u * Cmod u) + 1)) by (eapply Rlt_le_trans; [exact Hh | apply Rmin_r]).
    pose proof (Rabs_pos_lt h Nh) as Ph.
    assert (H3: Cmod (RtoC h * u)%C <= d).
    { rewrite Cmod_mult, Cmod_R. apply Rlt_div_r in H1; [|lra]. nra. }
    specialize (H _ H3).
    replace (z + RtoC (t + h) * u)%C with (z + RtoC t * u + RtoC h * u)%C by (rewrite RtoC_plus; ring).
    replace ((P (f (z + RtoC t * u + RtoC h * u)%C) - P (f (z + RtoC t * u)%C)) / h - P (l * u)%C)
      with (P (f (z + RtoC t * u + RtoC h * u)%C - f (z + RtoC t * u)%C - l * (RtoC h * u))%C / h).
    2:{ replace (l * (RtoC h * u))%C with (RtoC h * (l * u))%C by ring. rewrite !P2, P3. field. auto. }
    rewrite Rabs_div by auto. eapply Rle_lt_trans; [apply Rmult_le_compat_r; [left; apply Rinv_0_lt_compat; auto | eapply Rle_trans; [apply P1 | exact H]]|].
    rewrite Cmod_mult, Cmod_R.
    replace (K * (Rabs h * Cmod u * (Rabs h * Cmod u)) * / Rabs h) with (Rabs h * (K * (Cmod u * Cmod u))) by (field; lra).
    assert (0 <= K * (Cmod u * Cmod u)) by (apply Rmult_le_pos; nra).
    apply Rlt_div_r in H2; [|lra]. nra. }
  split; apply Q.
  - apply re_le.
  - intros [a a'] [b b']. cbn. ring.
  - intros r [a a']. cbn. ring.
  - apply im_le.
  - intros [a a'] [b b']. cbn. ring.
  - intros r [a a']. cbn. ring.
Qed.
Lemma constant : forall f : R -> R, (forall t, derivable_pt_lim f t 0) -> forall t, f t = f 0.
Proof.
  intros f H t. set (D := fun x => exist _ 0 (H x) : derivable_pt f x).
  exact (null_derivative_1 f D (fun x => derive_pt_eq_0 f x 0 (D x) (H x)) t 0).
Qed.
Lemma G0 : forall c, oddz c -> G c (RtoC 0) = RtoC 1.
Proof.
  intros c H. eapply is_csum_unique; [apply G_sum; auto|].
  replace (RtoC 1) with (RtoC 0 + cpow (RtoC 0) 0 * RtoC (ak c 0))%C
    by (cbn [cpow]; unfold ak; cbn [fact steps INR]; replace (/ (1 * 1)) with 1 by field; ring).
  apply (is_csum_tail (fun k => cpow (RtoC 0) k * RtoC (ak c k))%C).
  eapply is_csum_ext with (a := fun k => (RtoC 0 * (cpow (RtoC 0) k * RtoC (ak c k)))%C); [intros k; cbn [cpow]; ring|].
  pose proof (is_csum_scal (RtoC 0) _ _ (G_sum c (RtoC 0) H)) as X. replace (RtoC 0 * G c (RtoC 0))%C with (RtoC 0) in X by ring. exact X.
Qed.
Lemma sincos_real : forall x, Ss (RtoC x) = RtoC (sin x) /\ Cs (RtoC x) = RtoC (cos x).
Proof.
  intros x.
  assert (PD: forall f l, (forall z, smooth f z (l z)) -> forall t, derivable_pt_lim (fun t => Re (f (RtoC t))) t (Re (l (RtoC t))) /\ derivable_pt_lim (fun t => Im (f (RtoC t))) t (Im (l (RtoC t)))).
  { intros f l H t. destruct (path_deriv f (RtoC 0) (RtoC 1) t _ (H (RtoC 0 + RtoC t * RtoC 1)%C)) as (A & B).
    replace (RtoC 0 + RtoC t * RtoC 1)%C with (RtoC t) in A, B by ring. rewrite Cmult_1_r in A, B. split.
    - intros eps He. destruct (A eps He) as (d & Hd). exists d. intros h Nh Hh. specialize (Hd h Nh Hh). rewrite !Cplus_0_l, !Cmult_1_r in Hd. exact Hd.
    - intros eps He. destruct (B eps He) as (d & Hd). exists d. intros h Nh Hh. specialize (Hd h Nh Hh). rewrite !Cplus_0_l, !Cmult_1_r in Hd. exact Hd. }
  pose proof (PD Ss Cs Ss_deriv) as DS. pose proof (PD Cs (fun z => - Ss z)%C Cs_deriv) as DC. clear PD.
  assert (S0: Ss (RtoC 0) = RtoC 0) by (unfold Ss; ring).
  assert (C0: Cs (RtoC 0) = RtoC 1).
  { unfold Cs. replace (arg (RtoC 0)) with (RtoC 0) by (unfold arg; ring). apply G0. exact oddm1. }
  assert (K: forall s c : R -> R, (forall t, derivable_pt_lim s t (c t)) -> (forall t, derivable_pt_lim c t (- s t)) -> s 0 = 0 -> s x = c 0 * sin x /\ c x = c 0 * cos x).
  { intros s c Hs Hc E0.
    assert (A: s x * cos x - c x * sin x = 0).
    { rewrite (constant (fun t => s t * cos t - c t * sin t)); [rewrite E0, sin_0; ring|]. intros t.
      pose proof (derivable_pt_lim_minus _ _ _ _ _ (derivable_pt_lim_mult _ _ _ _ _ (Hs t) (derivable_pt_lim_cos t)) (derivable_pt_lim_mult _ _ _ _ _ (Hc t) (derivable_pt_lim_sin t))) as D.
      match type of D with derivable_pt_lim _ _ ?e => replace e with 0 in D by ring end. exact D. }
    assert (B: s x * sin x + c x * cos x = c 0).
    { rewrite (constant (fun t => s t * sin t + c t * cos t)); [rewrite E0, cos_0; ring|]. intros t.
      pose proof (derivable_pt_lim_plus _ _ _ _ _ (derivable_pt_lim_mult _ _ _ _ _ (Hs t) (derivable_pt_lim_sin t)) (derivable_pt_lim_mult _ _ _ _ _ (Hc t) (derivable_pt_lim_cos t))) as D.
      match type of D with derivable_pt_lim _ _ ?e => replace e with 0 in D by ring end. exact D. }
    pose proof (sin2_cos2 x) as T. unfold Rsqr in T. rewrite <- B. split.
    - transitivity (s x * (sin x * sin x + cos x * cos x)); [rewrite T; ring|]. transitivity (s x * sin x * sin x + c x * cos x * sin x + cos x * (s x * cos x - c x * sin x)); [ring|]. rewrite A. ring.
    - transitivity (c x * (sin x * sin x + cos x * cos x)); [rewrite T; ring|]. transitivity (s x * sin x * cos x + c x * cos x * cos x - sin x * (s x * cos x - c x * sin x)); [ring|]. rewrite A. ring. }
  destruct (K (fun t => Re (Ss (RtoC t))) (fun t => Re (Cs (RtoC t)))) as (A1 & A2);
    [intros t; exact (proj1 (DS t)) | intros t; exact (proj1 (DC t)) | cbv beta; rewrite S0; auto|].
  destruct (K (fun t => Im (Ss (RtoC t))) (fun t => Im (Cs (RtoC t)))) as (B1 & B2);
    [intros t; exact (proj2 (DS t)) | intros t; exact (proj2 (DC t)) | cbv beta; rewrite S0; auto|].
  cbv beta in *. rewrite C0 in *. cbn [Re Im RtoC fst snd] in *.
  split; apply injective_projections; unfold Re, Im in *; cbn [fst snd RtoC]; lra.
Qed.
Lemma sincos : forall z, Ss z = csin z /\ Cs z = ccos z.
Proof.
  intros [x y]. destruct (sincos_real x) as (S0 & C0).
  assert (PD: forall f l, (forall z, smooth f z (l z)) -> forall t, derivable_pt_lim (fun t => Re (f (x, t))) t (- Im (l (x, t))) /\ derivable_pt_lim (fun t => Im (f (x, t))) t (Re (l (x, t)))).
  { intros f l H t. destruct (path_deriv f (RtoC x) Ci t _ (H (RtoC x + RtoC t * Ci)%C)) as (A & B).
    assert (E: forall t, (RtoC x + RtoC t * Ci)%C = (x, t)) by (intros; unfold RtoC, Ci, Cmult, Cplus; cbn [fst snd]; f_equal; ring).
    rewrite E in A, B. split.
    - intros eps He. destruct (A eps He) as (d & Hd). exists d. intros h Nh Hh. specialize (Hd h Nh Hh). rewrite !E in Hd.
      replace (Re (l (x, t) * Ci)%C) with (- Im (l (x, t))) in Hd by (unfold Re, Im, Cmult, Ci; cbn [fst snd]; ring). exact Hd.
    - intros eps He. destruct (B eps He) as (d & Hd). exists d. intros h Nh Hh. specialize (Hd h Nh Hh). rewrite !E in Hd.
      replace (Im (l (x, t) * Ci)%C) with (Re (l (x, t))) in Hd by (unfold Re, Im, Cmult, Ci; cbn [fst snd]; ring). exact Hd. }
  pose proof (PD Ss Cs Ss_deriv) as DS. pose proof (PD Cs (fun z => - Ss z)%C Cs_deriv) as DC. clear PD. cbv beta in DC.
  (* p' = q, q' = p  gives  p = p0 cosh + q0 sinh *)
  assert (K: forall p q : R -> R, (forall t, derivable_pt_lim p t (q t)) -> (forall t, derivable_pt_lim q t (p t)) ->
    p y = p 0 * cosh y + q 0 * sinh y /\ q y = q 0 * cosh y + p 0 * sinh y).
  { intros p q Hp Hq.
    assert (A: (p y + q y) * exp (- y) = p 0 + q 0).
    { rewrite (constant (fun t => (p t + q t) * exp (- t))); [rewrite Ropp_0, exp_0; ring|]. intros t.
      assert (DE: derivable_pt_lim (fun t => exp (- t)) t (exp (- t) * -1)).
      { apply (derivable_pt_lim_comp (fun t => - t) exp); [|apply derivable_pt_lim_exp].
        pose proof (derivable_pt_lim_opp _ _ _ (derivable_pt_lim_id t)) as D. replace (- (1)) with (-1) in D by ring. exact D. }
      pose proof (derivable_pt_lim_mult _ _ _ _ _ (derivable_pt_lim_plus _ _ _ _ _ (Hp t) (Hq t)) DE) as D.
      cbv beta in D. match type of D with derivable_pt_lim _ _ ?e => assert (ZE: e = 0) by (unfold plus_fct; ring); rewrite ZE in D end. exact D. }
    assert (B: (p y - q y) * exp y = p 0 - q 0).
    { rewrite (constant (fun t => (p t - q t) * exp t)); [rewrite exp_0; ring|]. intros t.
      pose proof (derivable_pt_lim_mult _ _ _ _ _ (derivable_pt_lim_minus _ _ _ _ _ (Hp t) (Hq t)) (derivable_pt_lim_exp t)) as D.
      cbv beta in D. match type of D with derivable_pt_lim _ _ ?e => assert (ZE: e = 0) by (unfold minus_fct; ring); rewrite ZE in D end. exact D. }
    assert (E1: exp y * exp (- y) = 1) by (rewrite <- exp_plus, Rplus_opp_r, exp_0; auto).
    assert (A': p y + q y = (p 0 + q 0) * exp y) by (rewrite <- A; transitivity ((p y + q y) * (exp y * exp (- y))); [rewrite E1; ring | ring]).
    assert (B': p y - q y = (p 0 - q 0) * exp (- y)) by (rewrite <- B; transitivity ((p y - q y) * (exp y * exp (- y))); [rewrite E1; ring | ring]).
    unfold cosh, sinh. split; lra. }
  destruct (K (fun t => Re (Ss (x, t))) (fun t => - Im (Cs (x, t)))) as (A1 & A2).
  { intros t. exact (proj1 (DS t)). }
  { intros t. pose proof (derivable_pt_lim_opp _ _ _ (proj2 (DC t))) as D. replace (- Re (- Ss (x, t))%C) with (Re (Ss (x, t))) in D by (unfold Re, Copp; cbn [fst]; ring). exact D. }
  destruct (K (fun t => Im (Ss (x, t))) (fun t => Re (Cs (x, t)))) as (B1 & B2).
  { intros t. exact (proj2 (DS t)). }
  { intros t. pose proof (proj1 (DC t)) as D. replace (- Im (- Ss (x, t))%C) with (Im (Ss (x, t))) in D by (unfold Im, Copp; cbn [snd]; ring). exact D. }
  cbv beta in *. change (x, 0) with (RtoC x) in *. rewrite S0, C0 in *. unfold csin, ccos. cbn [Re Im RtoC fst snd] in *.
  split; apply injective_projections; unfold Re, Im in *; cbn [fst snd]; lra.
Qed.
Lemma J0_sin : forall z, z <> RtoC 0 -> J 0 z = (csin z / z)%C.
Proof.
  intros z N. rewrite <- (proj1 (sincos z)). unfold J, Ss. cbn [cpow Nat.add oddfact INR].
  replace (2 * 0 + 1) with 1 by ring. rewrite Rmult_1_r, Rinv_1. field. auto.
Qed.
Lemma Y0_cos : forall z, z <> RtoC 0 -> Y 0 z = (- ccos z / z)%C.
Proof.
  intros z N. rewrite <- (proj2 (sincos z)). unfold Y, Cs. cbn [cpow Nat.add oddfact INR].
  replace (- 2 * 0 - 1) with (-1) by ring. field. auto.
Qed.
Lemma Y1_sincos : forall z, z <> RtoC 0 -> Y 1 z = (- ccos z / (z * z) - csin z / z)%C.
Proof.
  intros z N. destruct (sincos z) as (E1 & E2). rewrite <- E1, <- E2. unfold Y, Ss, Cs. cbn [cpow Nat.add oddfact INR].
  pose proof (G_contiguous (-1) (arg z) oddm1) as E. replace (-1 + 2) with 1 in E by ring. replace (-1 - 2) with (-3) in E by ring.
  replace (- 2 * 1 - 1) with (-3) by ring.
  replace (G (-3) (arg z)) with (G (-1) (arg z) + RtoC (2 / (-1 * 1)) * arg z * G 1 (arg z))%C by (rewrite <- E; ring).
  replace (RtoC (2 / (-1 * 1))) with (- RtoC 2)%C by (rewrite <- RtoC_opp; f_equal; field).
  replace (- RtoC 2 * arg z)%C with (z * z)%C by (transitivity (- (RtoC 2 * arg z))%C; [rewrite arg_mul; ring | ring]).
  replace ((2 * 0 + 1) * 1) with 1 by ring. field. auto.
Qed.
