(** Wigner d functions (/repo/src/SpecialFunctions.hpp l.302-371 and l.397-495) and
    the table of /repo/src/WignerDResources.hpp l.147-172, in exact real arithmetic. *)
From Coq Require Import List Arith Lia Bool Reals Lra Psatz.
From Verif Require Import Legendre.
Import ListNotations.
Local Open Scope R_scope.

(* ---------------------------------------------- model *)

(** l.321-335: [k] iterations of the m = 0 loop, starting with counter [n]; the pairs
    (y[n], dy[n]) in the order in which they are stored *)
Fixpoint w0_loop (k n : nat) (cosx sinxinv d1 d2 : R) : list (R * R) :=
  match k with
  | 0%nat => []
  | S k' => let np1 := INR n + 1 in let np2 := INR n + 2 in let np12p1 := 2 * np1 + 1 in
            let dnp1 := (np12p1 * cosx * d2 - np1 * d1) / np2 in
            let ddn := sinxinv * np1 * np2 * (dnp1 - d1) / np12p1 in
            (d2, ddn) :: w0_loop k' (S n) cosx sinxinv d2 dnp1
  end.
(** l.342-345: the factor A_m sin^m(x) *)
Fixpoint am_loop (k i : nat) (sinx d2 : R) : R :=
  match k with
  | 0%nat => d2
  | S k' => let i2 := 2 * (INR i + 1) in am_loop k' (S i) sinx (d2 * (sqrt ((i2 - 1) / i2) * sinx))
  end.
(** l.352-369 *)
Fixpoint wm_loop (k n : nat) (m : nat) (cosx sinxinv d1 d2 : R) : list (R * R) :=
  match k with
  | 0%nat => []
  | S k' => let np1 := INR n + 1 in let np2 := INR n + 2 in let np12p1 := 2 * np1 + 1 in
            let m2 := INR m * INR m in
            let s1 := sqrt (np1 * np1 - m2) in let s2 := sqrt (np2 * np2 - m2) in
            let dnp1 := (np12p1 * cosx * d2 - s1 * d1) / s2 in
            let ddn := sinxinv * (np1 * s2 * dnp1 - np2 * s1 * d1) / np12p1 in
            (d2, ddn) :: wm_loop k' (S n) m cosx sinxinv d2 dnp1
  end.
(** l.317-370 / l.436-493, common to both functions; element n-1 of the list is
    (d^n_{0m}, its derivative) *)
Definition wigner_core (cosx sinx sinxinv : R) (nmax m : nat) : list (R * R) :=
  match m with
  | 0%nat => w0_loop nmax 0 cosx sinxinv 1 cosx
  | S _ => repeat (0, 0) (m - 1) ++ wm_loop (nmax - (m - 1)) (m - 1) m cosx sinxinv 0 (am_loop m 0 sinx 1)
  end.
(** wigner_dn_0m, l.302-371 *)
Definition wigner_dn_0m (cosx : R) (nmax m : nat) : list (R * R) :=
  let sinx := sqrt ((1 - cosx) * (1 + cosx)) in
  let sinxinv := 1 / sinx in
  wigner_core cosx sinx sinxinv nmax m.
(** l.412-426; [sign] = (-1)^(n-1) *)
Fixpoint pole_loop (k n : nat) (neg : bool) (sign : R) : list (R * R) :=
  match k with
  | 0%nat => []
  | S k' => let dn := / 2 * sqrt (INR n * (INR n + 1)) in
            let y := if neg then dn * sign else dn in
            (y, if neg then - y else y) :: pole_loop k' (S n) neg (- sign)
  end.
(** wigner_dn_0m_sinx, l.397-495; elements with m >= 1 are divided in l.450 and l.486 *)
Definition wigner_dn_0m_sinx (cosx sinx sinx_inv : R) (nmax m : nat) : list (R * R) :=
  if Rle_dec (Rabs (1 - Rabs cosx)) (/ 10000000000) then
    (if Nat.eqb m 1 then pole_loop nmax 1 (if Rlt_dec cosx 0 then true else false) 1 else repeat (0, 0) nmax)
  else map (fun p => (fst p * sinx_inv, snd p)) (wigner_core cosx sinx sinx_inv nmax m).

(* ---------------------------------------------- specification *)

(** normalisation sqrt((n-m)!/(n+m)!) *)
Definition cnm (n m : nat) : R := sqrt (INR (fact (n - m)) / INR (fact (n + m))).
(** d^n_{0m}(theta) (up to the usual sign convention (-1)^m) *)
Definition dspec (n m : nat) (t : R) : R := cnm n m * sin t ^ m * P n m (cos t).

(* ---------------------------------------------- derivative of the specification *)

Definition dspec' (n m : nat) (t : R) : R :=
  cnm n m * (INR m * sin t ^ pred m * cos t * P n m (cos t) - sin t ^ m * sin t * P n (S m) (cos t)).
Lemma dspec_derivative : forall n m t, derivable_pt_lim (dspec n m) t (dspec' n m t).
Proof.
  intros n m t. unfold dspec'.
  apply derivable_ext with (fun t => cnm n m * ((fun t => sin t ^ m) t * (fun t => P n m (cos t)) t)); [intros; unfold dspec; ring|].
  replace (INR m * sin t ^ pred m * cos t * P n m (cos t) - sin t ^ m * sin t * P n (S m) (cos t))
    with ((INR m * sin t ^ pred m * cos t) * P n m (cos t) + sin t ^ m * (P n (S m) (cos t) * - sin t)) by ring.
  apply (derivable_pt_lim_scal (fun t => (fun t => sin t ^ m) t * (fun t => P n m (cos t)) t)).
  apply (derivable_pt_lim_mult (fun t => sin t ^ m) (fun t => P n m (cos t))).
  - apply (derivable_pt_lim_comp sin (fun y => y ^ m)); [apply derivable_pt_lim_sin | apply derivable_pt_lim_pow].
  - apply (derivable_pt_lim_comp cos (P n m)); [apply derivable_pt_lim_cos | apply P_derivative].
Qed.

(* ---------------------------------------------- normalisation *)

Lemma cnm_pos : forall n m, 0 < cnm n m.
Proof.
  intros. apply sqrt_lt_R0. apply Rmult_lt_0_compat; [|apply Rinv_0_lt_compat]; apply lt_0_INR, lt_O_fact.
Qed.
Lemma cnm_up : forall n m, (m <= n)%nat ->
  sqrt ((INR n + 1) * (INR n + 1) - INR m * INR m) * cnm (S n) m = (INR n + 1 - INR m) * cnm n m.
Proof.
  intros n m H. pose proof (le_INR _ _ H) as H'. pose proof (pos_INR m). unfold cnm.
  replace (S n - m)%nat with (S (n - m)) by lia. replace (S n + m)%nat with (S (n + m)) by lia.
  rewrite !fact_S_INR, !S_INR, plus_INR, minus_INR by auto.
  set (a := INR n) in *. set (b := INR m) in *. set (f := INR (fact (n - m))). set (g := INR (fact (n + m))).
  assert (F: 0 < f) by apply lt_0_INR, lt_O_fact. assert (G: 0 < g) by apply lt_0_INR, lt_O_fact.
  rewrite <- sqrt_mult_alt by nra.
  replace (((a + 1) * (a + 1) - b * b) * ((a - b + 1) * f / ((a + b + 1) * g))) with (((a + 1 - b) * (a + 1 - b)) * (f / g)) by (field; lra).
  rewrite sqrt_mult_alt by nra. rewrite sqrt_square by lra. reflexivity.
Qed.
Lemma cnm_down : forall n m, (m <= n)%nat ->
  sqrt ((INR n + 1) * (INR n + 1) - INR m * INR m) * cnm n m = (INR n + 1 + INR m) * cnm (S n) m.
Proof.
  intros n m H. pose proof (cnm_up n m H) as U. pose proof (le_INR _ _ H) as H'. pose proof (pos_INR m).
  set (s := sqrt _) in *. apply Rmult_eq_reg_l with (INR n + 1 - INR m); [|lra].
  transitivity (s * ((INR n + 1 - INR m) * cnm n m)); [ring|]. rewrite <- U.
  transitivity ((s * s) * cnm (S n) m); [ring|]. unfold s. rewrite sqrt_sqrt by nra. ring.
Qed.
(** the lower neighbour in the recursion; also for n+1 = m, where both sides vanish *)
Lemma low_term : forall n m x, (m <= S n)%nat ->
  sqrt ((INR n + 1) * (INR n + 1) - INR m * INR m) * (cnm n m * P n m x) = (INR n + 1 + INR m) * cnm (S n) m * P n m x.
Proof.
  intros n m x H. destruct (Nat.eq_dec m (S n)) as [->|N].
  - rewrite (P_high n (S n)) by lia. ring.
  - rewrite <- (cnm_down n m) by lia. ring.
Qed.
Lemma s2_pos : forall n m, (m <= S n)%nat -> 0 < sqrt ((INR n + 2) * (INR n + 2) - INR m * INR m).
Proof.
  intros n m H. apply sqrt_lt_R0. apply le_INR in H. rewrite S_INR in H. pose proof (pos_INR m). nra.
Qed.

(** the recursion of the code, in terms of the specification *)
Lemma dspec_rec : forall n m t, (m <= S n)%nat ->
  ((2 * (INR n + 1) + 1) * cos t * dspec (S n) m t - sqrt ((INR n + 1) * (INR n + 1) - INR m * INR m) * dspec n m t)
    / sqrt ((INR n + 2) * (INR n + 2) - INR m * INR m) = dspec (S (S n)) m t.
Proof.
  intros n m t H. pose proof (s2_pos n m H) as S2. pose proof (low_term n m (cos t) H) as L.
  pose proof (cnm_up (S n) m H) as U. rewrite S_INR in U. replace (INR n + 1 + 1) with (INR n + 2) in U by ring.
  pose proof (P_recursion n m (cos t)) as R. unfold dspec.
  set (s2 := sqrt ((INR n + 2) * (INR n + 2) - INR m * INR m)) in *. set (s1 := sqrt ((INR n + 1) * (INR n + 1) - INR m * INR m)) in *.
  apply Rmult_eq_reg_l with s2; [|lra]. unfold Rdiv. rewrite (Rmult_comm _ (/ s2)), <- Rmult_assoc, Rinv_r, Rmult_1_l by lra.
  transitivity (sin t ^ m * ((2 * (INR n + 1) + 1) * cos t * cnm (S n) m * P (S n) m (cos t) - s1 * (cnm n m * P n m (cos t)))); [ring|].
  rewrite L. transitivity (sin t ^ m * ((s2 * cnm (S (S n)) m) * P (S (S n)) m (cos t))); [|ring]. rewrite U.
  transitivity (sin t ^ m * cnm (S n) m * ((2 * INR n + 3) * cos t * P (S n) m (cos t) - (INR n + 1 + INR m) * P n m (cos t))); [ring|].
  rewrite <- R. ring.
Qed.
(** the derivative formula of the code *)
Lemma dspec_drec : forall n m t, (m <= S n)%nat -> sin t <> 0 ->
  1 / sin t * ((INR n + 1) * sqrt ((INR n + 2) * (INR n + 2) - INR m * INR m) * dspec (S (S n)) m t
     - (INR n + 2) * sqrt ((INR n + 1) * (INR n + 1) - INR m * INR m) * dspec n m t) / (2 * (INR n + 1) + 1) = dspec' (S n) m t.
Proof.
  intros n m t H Hs. pose proof (low_term n m (cos t) H) as L.
  pose proof (cnm_up (S n) m H) as U. rewrite S_INR in U. replace (INR n + 1 + 1) with (INR n + 2) in U by ring.
  pose proof (P_recursion n m (cos t)) as R. pose proof (P_diff n m (cos t)) as D. pose proof (pos_INR n) as Pn.
  unfold dspec, dspec'.
  set (s2 := sqrt ((INR n + 2) * (INR n + 2) - INR m * INR m)) in *. set (s1 := sqrt ((INR n + 1) * (INR n + 1) - INR m * INR m)) in *.
  set (x := cos t) in *.
  transitivity (1 / sin t * (sin t ^ m * ((INR n + 1) * ((s2 * cnm (S (S n)) m) * P (S (S n)) m x) - (INR n + 2) * (s1 * (cnm n m * P n m x)))) / (2 * (INR n + 1) + 1)).
  { f_equal. f_equal. ring. }
  rewrite L, U.
  transitivity (1 / sin t * (sin t ^ m * cnm (S n) m * ((INR n + 1) * ((INR n + 2 - INR m) * P (S (S n)) m x) - (INR n + 2) * (INR n + 1 + INR m) * P n m x)) / (2 * (INR n + 1) + 1)).
  { f_equal. f_equal. ring. }
  rewrite R.
  transitivity (1 / sin t * (sin t ^ m * cnm (S n) m) * ((INR n + 1) * x * P (S n) m x - (INR n + 1 + INR m) * P n m x)).
  { field. split; lra. }
  assert (X: x * x - 1 = - (sin t * sin t)).
  { pose proof (sin2_cos2 t) as E. unfold Rsqr in E. unfold x. lra. }
  transitivity (1 / sin t * (sin t ^ m * cnm (S n) m) * (INR m * x * P (S n) m x + (x * x - 1) * P (S n) (S m) x)).
  { f_equal. rewrite D. ring. }
  rewrite X. destruct m as [|m].
  - cbn [INR pow pred]. field. auto.
  - cbn [pred pow]. field. auto.
Qed.
(** the start value *)
Lemma dspec_diag_step : forall m t, dspec (S m) (S m) t = dspec m m t * (sqrt ((2 * (INR m + 1) - 1) / (2 * (INR m + 1))) * sin t).
Proof.
  intros m t. unfold dspec, cnm. rewrite !Nat.sub_diag. cbn [fact].
  pose proof (pos_INR m) as Hm.
  assert (E: forall k x, sqrt (INR 1 / INR (fact (k + k))) * P k k x = sqrt (INR (fact (k + k))) / (2 ^ k * INR (fact k))).
  { intros k x. pose proof (P_diag k x) as D. pose proof (P_scale_pos k) as S. replace (k + k)%nat with (2 * k)%nat by lia.
    assert (F: 0 < INR (fact (2 * k))) by apply lt_0_INR, lt_O_fact.
    apply Rmult_eq_reg_l with (2 ^ k * INR (fact k)); [|lra].
    transitivity (sqrt (INR 1 / INR (fact (2 * k))) * (2 ^ k * INR (fact k) * P k k x)); [ring|]. rewrite D.
    transitivity (sqrt (INR (fact (2 * k)))).
    2:{ field. split; intros C; rewrite C in S; lra. }
    rewrite <- (sqrt_sqrt (INR (fact (2 * k)))) at 2 by lra.
    rewrite <- Rmult_assoc, <- sqrt_mult_alt. 2:{ cbn [INR]. apply Rlt_le. apply Rmult_lt_0_compat; [lra|]. apply Rinv_0_lt_compat; auto. }
    replace (INR 1 / INR (fact (2 * k)) * INR (fact (2 * k))) with 1 by (cbn [INR]; field; lra). rewrite sqrt_1. ring. }
  transitivity (sin t ^ S m * (sqrt (INR 1 / INR (fact (S m + S m))) * P (S m) (S m) (cos t))); [cbn [INR]; ring|].
  transitivity (sin t ^ S m * (sqrt (INR 1 / INR (fact (m + m))) * P m m (cos t) * sqrt ((2 * (INR m + 1) - 1) / (2 * (INR m + 1))))).
  2:{ cbn [pow INR]; ring. }
  rewrite !E. f_equal. replace (S m + S m)%nat with (S (S (m + m))) by lia. rewrite !fact_S_INR.
  assert (F: 0 < INR (fact (m + m))) by apply lt_0_INR, lt_O_fact. assert (G: 0 < INR (fact m)) by apply lt_0_INR, lt_O_fact.
  assert (T: 0 < 2 ^ m) by (apply pow_lt; lra).
  rewrite !S_INR, plus_INR. cbn [pow].
  set (a := INR m) in *. set (f := INR (fact (m + m))) in *. set (g := INR (fact m)) in *.
  replace (sqrt f / (2 ^ m * g) * sqrt ((2 * (a + 1) - 1) / (2 * (a + 1)))) with (sqrt f * sqrt ((2 * (a + 1) - 1) / (2 * (a + 1))) / (2 ^ m * g)) by (field; lra).
  rewrite <- sqrt_mult_alt by lra.
  replace ((a + a + 1 + 1) * ((a + a + 1) * f)) with ((2 * (a + 1)) * (2 * (a + 1)) * (f * ((2 * (a + 1) - 1) / (2 * (a + 1))))) by (field; lra).
  rewrite sqrt_mult_alt by nra. rewrite sqrt_square by lra. field. lra.
Qed.
Lemma am_loop_spec : forall k i t, am_loop k i (sin t) (dspec i i t) = dspec (k + i) (k + i) t.
Proof.
  induction k; intros i t; cbn [am_loop]; [reflexivity|]. rewrite <- dspec_diag_step, IHk. f_equal; lia.
Qed.
Lemma dspec_0_0 : forall t, dspec 0 0 t = 1.
Proof. intros. unfold dspec, cnm. cbn [Nat.sub Nat.add fact INR pow]. rewrite P_0_0. replace (1 / 1) with 1 by field. rewrite sqrt_1. ring. Qed.
Lemma dspec_1_0 : forall t, dspec 1 0 t = cos t.
Proof. intros. unfold dspec, cnm. cbn [Nat.sub Nat.add fact Nat.mul INR pow]. rewrite P_1_0. replace (1 / 1) with 1 by field. rewrite sqrt_1. ring. Qed.
Lemma dspec_low : forall n m t, (n < m)%nat -> dspec n m t = 0.
Proof. intros. unfold dspec. rewrite P_high by auto. ring. Qed.
Lemma dspec'_low : forall n m t, (n < m)%nat -> dspec' n m t = 0.
Proof. intros. unfold dspec'. rewrite !P_high by lia. ring. Qed.

Lemma w0_is_wm : forall k n cosx sinxinv d1 d2, w0_loop k n cosx sinxinv d1 d2 = wm_loop k n 0 cosx sinxinv d1 d2.
Proof.
  induction k; intros; cbn [w0_loop wm_loop]; [reflexivity|]. pose proof (pos_INR n).
  cbn [INR]. replace ((INR n + 1) * (INR n + 1) - 0 * 0) with ((INR n + 1) * (INR n + 1)) by ring.
  replace ((INR n + 2) * (INR n + 2) - 0 * 0) with ((INR n + 2) * (INR n + 2)) by ring.
  rewrite !sqrt_square by lra. rewrite IHk. f_equal. f_equal. field. lra.
Qed.
Lemma wm_loop_spec : forall k n m t, (m <= S n)%nat -> sin t <> 0 ->
  wm_loop k n m (cos t) (1 / sin t) (dspec n m t) (dspec (S n) m t) = map (fun j => (dspec j m t, dspec' j m t)) (seq (S n) k).
Proof.
  induction k; intros n m t H Hs; cbn [wm_loop seq map]; [reflexivity|].
  rewrite dspec_rec by auto. rewrite dspec_drec by auto. f_equal. apply IHk; auto.
Qed.

Theorem wigner_core_spec : forall t nmax m, sin t <> 0 -> (m <= nmax)%nat ->
  wigner_core (cos t) (sin t) (1 / sin t) nmax m = map (fun j => (dspec j m t, dspec' j m t)) (seq 1 nmax).
Proof.
  intros t nmax m Hs H. unfold wigner_core. destruct m as [|m].
  - rewrite w0_is_wm. pose proof (wm_loop_spec nmax 0 0 t ltac:(lia) Hs) as E. rewrite dspec_0_0, dspec_1_0 in E. exact E.
  - replace (S m - 1)%nat with m by lia. replace (nmax - m)%nat with (nmax - m)%nat by lia.
    pose proof (am_loop_spec (S m) 0 t) as A. rewrite dspec_0_0 in A. rewrite A. replace (S m + 0)%nat with (S m) by lia.
    pose proof (wm_loop_spec (nmax - m) m (S m) t ltac:(lia) Hs) as E. rewrite (dspec_low m (S m) t) in E by lia. rewrite E.
    replace nmax with (m + (nmax - m))%nat at 2 by lia. rewrite seq_app, map_app. f_equal.
    symmetry. assert (G: forall k a, (a + k <= S m)%nat -> map (fun j => (dspec j (S m) t, dspec' j (S m) t)) (seq a k) = repeat (0, 0) k).
    { induction k; intros a Ha; cbn [seq map repeat]; [reflexivity|]. rewrite dspec_low, dspec'_low, IHk by lia. reflexivity. }
    apply G. lia.
Qed.

Lemma sinx_is_sin : forall t, 0 <= t <= PI -> sqrt ((1 - cos t) * (1 + cos t)) = sin t.
Proof.
  intros t H. replace ((1 - cos t) * (1 + cos t)) with (sin t * sin t).
  - apply sqrt_square, sin_ge_0; lra.
  - pose proof (sin2_cos2 t) as E. unfold Rsqr in E. lra.
Qed.
Theorem wigner_dn_0m_spec : forall t nmax m, 0 < t < PI -> (m <= nmax)%nat ->
  wigner_dn_0m (cos t) nmax m = map (fun j => (dspec j m t, dspec' j m t)) (seq 1 nmax).
Proof.
  intros t nmax m H Hm. unfold wigner_dn_0m. rewrite sinx_is_sin by lra. apply wigner_core_spec; auto.
  pose proof (sin_gt_0 t). lra.
Qed.

(* ---------------------------------------------- version divided by sin *)

Definition near_pole (x : R) : Prop := Rabs (1 - Rabs x) <= / 10000000000.
Theorem sinx_regular : forall t nmax m, ~ near_pole (cos t) -> sin t <> 0 -> (m <= nmax)%nat ->
  wigner_dn_0m_sinx (cos t) (sin t) (1 / sin t) nmax m = map (fun j => (dspec j m t / sin t, dspec' j m t)) (seq 1 nmax).
Proof.
  intros t nmax m H Hs Hm. unfold wigner_dn_0m_sinx, near_pole in *. destruct (Rle_dec _ _); [contradiction|].
  rewrite wigner_core_spec by auto. rewrite map_map. apply map_ext. intros j. cbn [fst snd]. f_equal. field. auto.
Qed.

(** d^n_{0m} / sin, extended continuously (m >= 1) *)
Definition qspec (n m : nat) (t : R) : R := cnm n m * sin t ^ (m - 1) * P n m (cos t).
Lemma qspec_div : forall n m t, (1 <= m)%nat -> dspec n m t = qspec n m t * sin t.
Proof. intros n m t H. unfold dspec, qspec. destruct m; [lia|]. replace (S m - 1)%nat with m by lia. cbn [pow]. ring. Qed.
Lemma qspec_continuous : forall n m t, continuity_pt (qspec n m) t.
Proof.
  intros n m t. apply derivable_continuous_pt.
  assert (X: { l | derivable_pt_lim (fun t => cnm n m * ((fun t => sin t ^ (m - 1)) t * (fun t => P n m (cos t)) t)) t l }).
  { eexists. apply (derivable_pt_lim_scal (fun t => (fun t => sin t ^ (m - 1)) t * (fun t => P n m (cos t)) t)).
    apply (derivable_pt_lim_mult (fun t => sin t ^ (m - 1)) (fun t => P n m (cos t))).
    - apply (derivable_pt_lim_comp sin (fun y => y ^ (m - 1))); [apply derivable_pt_lim_sin | apply derivable_pt_lim_pow].
    - apply (derivable_pt_lim_comp cos (P n m)); [apply derivable_pt_lim_cos | apply P_derivative]. }
  destruct X as (l & Hl). exists l. apply derivable_ext with (2 := Hl). intros. unfold qspec. ring.
Qed.
(** so its value is the limit of the quotient *)
Lemma qspec_limit : forall n m t, (1 <= m)%nat ->
  limit1_in (fun u => dspec n m u / sin u) (fun u => sin u <> 0) (qspec n m t) t.
Proof.
  intros n m t H eps He. destruct (qspec_continuous n m t eps He) as (d & Hd & L). exists d. split; auto.
  intros u (Hu & Du). cbn in *. rewrite (qspec_div n m u H).
  replace (qspec n m u * sin u / sin u) with (qspec n m u) by (field; auto).
  destruct (Req_dec t u) as [->|N].
  - unfold R_dist. rewrite Rminus_diag_eq by reflexivity. rewrite Rabs_R0. auto.
  - apply L. split; auto. unfold D_x, no_cond. auto.
Qed.

Lemma pole_loop_spec : forall k n (neg : bool) sign, (1 <= n)%nat -> sign = (-1) ^ (n + 1) ->
  pole_loop k n neg sign = map (fun j => let y := (if neg then (-1) ^ (j + 1) else 1) * (/ 2 * sqrt (INR j * (INR j + 1))) in (y, if neg then - y else y)) (seq n k).
Proof.
  induction k; intros n neg sign H E; cbn [pole_loop seq map]; [reflexivity|].
  rewrite (IHk (S n)); [|lia|rewrite E; cbn [Nat.add pow]; ring].
  f_equal. destruct neg; cbv zeta; rewrite ?E, ?Rmult_1_l; [|reflexivity]. rewrite (Rmult_comm (/ 2 * _)). reflexivity.
Qed.
Lemma cnm_1 : forall n, (1 <= n)%nat -> cnm n 1 * (INR n * (INR n + 1)) = sqrt (INR n * (INR n + 1)).
Proof.
  intros n H. unfold cnm. destruct n as [|n]; [lia|]. replace (S n - 1)%nat with n by lia. replace (S n + 1)%nat with (S (S n)) by lia.
  rewrite !fact_S_INR, (S_INR (S n)). set (k := INR (S n)). assert (K: 0 < k) by (apply lt_0_INR; lia).
  set (f := INR (fact n)). assert (F: 0 < f) by apply lt_0_INR, lt_O_fact.
  replace (f / ((k + 1) * (k * f))) with (1 / (k * (k + 1))) by (field; lra).
  rewrite <- (sqrt_sqrt (k * (k + 1))) at 2 by nra. rewrite <- Rmult_assoc, <- sqrt_mult_alt.
  2:{ apply Rlt_le. apply Rmult_lt_0_compat; [lra|]. apply Rinv_0_lt_compat. nra. }
  replace (1 / (k * (k + 1)) * (k * (k + 1))) with 1 by (field; lra). rewrite sqrt_1. ring.
Qed.

(** exactly at the poles (t = 0 or t = PI), the values are those of the continuous
    extension: y = lim d/sin for m >= 1, dy = the derivative for every m *)
Lemma P_pole : forall n m x, x = 1 \/ x = -1 -> P n m x = (if Rlt_dec x 0 then (-1) ^ (n + m) else 1) * P n m 1.
Proof.
  intros n m x [ -> | -> ].
  - destruct (Rlt_dec 1 0); [lra|]. ring.
  - destruct (Rlt_dec (-1) 0); [|lra]. apply P_parity.
Qed.
Theorem sinx_pole : forall t nmax m sinx sinx_inv, sin t = 0 -> (cos t = 1 \/ cos t = -1) ->
  wigner_dn_0m_sinx (cos t) sinx sinx_inv nmax m =
  map (fun j => (if Nat.eqb m 0 then 0 else qspec j m t, dspec' j m t)) (seq 1 nmax).
Proof.
  intros t nmax m sinx sinx_inv Hs Hc. unfold wigner_dn_0m_sinx. destruct (Rle_dec _ _) as [_|K].
  2:{ exfalso. apply K. assert (E: Rabs (cos t) = 1).
      { destruct Hc as [ -> | -> ]; [apply Rabs_R1 | replace (-1) with (- (1)) by ring; rewrite Rabs_Ropp; apply Rabs_R1]. }
      rewrite E. replace (1 - 1) with 0 by ring. rewrite Rabs_R0. lra. }
  destruct (Nat.eqb_spec m 1) as [->|M1].
  - rewrite pole_loop_spec by (try lia; cbn; ring). apply map_ext_in. intros j Hj. apply in_seq in Hj. cbv zeta. cbn [Nat.eqb].
    unfold qspec, dspec'. rewrite Hs. cbn [Nat.sub pow pred INR]. rewrite !(P_pole j 1 (cos t) Hc).
    pose proof (P1_at_1 j) as E. pose proof (cnm_1 j ltac:(lia)) as C.
    assert (V: cnm j 1 * P j 1 1 = / 2 * sqrt (INR j * (INR j + 1))).
    { rewrite <- C. replace (P j 1 1) with (/ 2 * (INR j * (INR j + 1))) by lra. ring. }
    destruct Hc as [Hc|Hc]; rewrite Hc; [destruct (Rlt_dec 1 0); [lra|] | destruct (Rlt_dec (-1) 0); [|lra]]; f_equal; rewrite <- V; ring.
  - assert (G: forall k a, map (fun j => (if Nat.eqb m 0 then 0 else qspec j m t, dspec' j m t)) (seq a k) = repeat (0, 0) k).
    { induction k; intros a; cbn [seq map repeat]; [reflexivity|]. rewrite IHk. f_equal.
      destruct m as [|[|m]]; [|lia|]; cbn [Nat.eqb]; unfold qspec, dspec'; rewrite Hs; cbn [pred pow INR Nat.sub].
      - f_equal. ring.
      - f_equal; ring. }
    symmetry. apply G.
Qed.

(* ---------------------------------------------- mirrored table *)

Notation table := (nat -> nat -> R * R).
Definition put_row (T : table) (r : nat) (l : list (R * R)) : table := fun r' n => if Nat.eqb r' r then nth n l (0, 0) else T r' n.
Definition put_cell (T : table) (r n : nat) (v : R * R) : table := fun r' n' => if Nat.eqb r' r && Nat.eqb n' n then v else T r' n'.
(** l.159-169: inner loop; [sign] is the value before the iteration *)
Fixpoint mirror_loop (k n : nat) (sign : R) (r1 r2 : nat) (T : table) : table :=
  match k with
  | 0%nat => T
  | S k' => let s := - sign in
            mirror_loop k' (S n) s r1 r2 (put_cell T r2 n (s * fst (T r1 n), - s * snd (T r1 n)))
  end.
(** l.152-170 for one value of m; [x] are the cosines of the quadrature points *)
Definition wigner_table (ngauss nmax m : nat) (x : nat -> R) (T : table) : table :=
  fold_left (fun T ig => let i1 := (ngauss + ig)%nat in let i2 := (ngauss - ig + 1)%nat in
               mirror_loop nmax 0 1 (i1 - 1) (i2 - 1) (put_row T (i1 - 1) (wigner_dn_0m (x (i1 - 1)%nat) nmax m)))
            (seq 1 ngauss) T.

Lemma mirror_loop_at : forall k n sign r1 r2 T r j, r1 <> r2 ->
  mirror_loop k n sign r1 r2 T r j =
  if Nat.eqb r r2 && Nat.leb n j && Nat.ltb j (n + k)
  then (sign * (-1) ^ (j - n + 1) * fst (T r1 j), - (sign * (-1) ^ (j - n + 1)) * snd (T r1 j)) else T r j.
Proof.
  induction k; intros n sign r1 r2 T r j H; cbn [mirror_loop].
  - replace (n + 0)%nat with n by lia. destruct (Nat.eqb r r2), (Nat.leb_spec n j), (Nat.ltb_spec j n); auto; lia.
  - rewrite IHk by auto.
    assert (R1: put_cell T r2 n (- sign * fst (T r1 n), - - sign * snd (T r1 n)) r1 j = T r1 j).
    { unfold put_cell. destruct (Nat.eqb_spec r1 r2); [contradiction|]. reflexivity. }
    rewrite R1. unfold put_cell. destruct (Nat.eqb_spec r r2) as [->|N]; cbn [andb]; [|reflexivity].
    destruct (Nat.eqb_spec j n) as [->|J].
    + destruct (Nat.leb_spec (S n) n); [lia|]. destruct (Nat.leb_spec n n); [|lia]. destruct (Nat.ltb_spec n (n + S k)); [|lia]. cbn [andb].
      rewrite Nat.sub_diag. cbn [Nat.add pow]. f_equal; ring.
    + destruct (Nat.leb_spec (S n) j), (Nat.leb_spec n j); try lia; cbn [andb]; auto.
      replace (S n + k)%nat with (n + S k)%nat by lia. destruct (Nat.ltb_spec j (n + S k)); auto.
      replace (j - n + 1)%nat with (S (j - S n + 1)) by lia. cbn [pow]. f_equal; ring.
Qed.

Definition cell_direct (ngauss nmax m : nat) (x : nat -> R) (r n : nat) : R * R := nth n (wigner_dn_0m (x r) nmax m) (0, 0).
Theorem wigner_table_at : forall ngauss nmax m x T r n, (r < 2 * ngauss)%nat -> (n < nmax)%nat ->
  wigner_table ngauss nmax m x T r n =
  if Nat.leb ngauss r then cell_direct ngauss nmax m x r n
  else let c := cell_direct ngauss nmax m x (2 * ngauss - 1 - r) n in ((-1) ^ (n + 1) * fst c, - (-1) ^ (n + 1) * snd c).
Proof.
  intros ngauss nmax m x T r n Hr Hn. unfold wigner_table.
  assert (G: forall k a T, (1 <= a)%nat -> (a + k <= S ngauss)%nat ->
     fold_left (fun T ig => let i1 := (ngauss + ig)%nat in let i2 := (ngauss - ig + 1)%nat in
               mirror_loop nmax 0 1 (i1 - 1) (i2 - 1) (put_row T (i1 - 1) (wigner_dn_0m (x (i1 - 1)%nat) nmax m))) (seq a k) T r n =
     if Nat.leb (ngauss + a - 1) r && Nat.ltb r (ngauss + a + k - 1) then cell_direct ngauss nmax m x r n
     else if Nat.leb r (ngauss - a) && Nat.ltb (ngauss - a) (r + k) then let c := cell_direct ngauss nmax m x (2 * ngauss - 1 - r) n in ((-1) ^ (n + 1) * fst c, - (-1) ^ (n + 1) * snd c)
     else T r n).
  { clear T. induction k; intros a T Ha Hk; cbn [seq fold_left].
    - destruct (Nat.leb_spec (ngauss + a - 1) r), (Nat.ltb_spec r (ngauss + a + 0 - 1)); try lia; cbn [andb]; try lia;
      destruct (Nat.leb_spec r (ngauss - a)), (Nat.ltb_spec (ngauss - a) (r + 0)); try lia; reflexivity.
    - rewrite IHk by lia. cbv zeta. rewrite mirror_loop_at by lia.
      replace (n - 0 + 1)%nat with (n + 1)%nat by lia. cbn [Nat.leb].
      assert (E: put_row T (ngauss + a - 1) (wigner_dn_0m (x (ngauss + a - 1)%nat) nmax m) (ngauss + a - 1) n = cell_direct ngauss nmax m x (ngauss + a - 1) n).
      { unfold put_row. rewrite Nat.eqb_refl. reflexivity. }
      rewrite E. unfold put_row.
      destruct (Nat.leb_spec (ngauss + S a - 1) r), (Nat.ltb_spec r (ngauss + S a + k - 1)),
               (Nat.leb_spec (ngauss + a - 1) r), (Nat.ltb_spec r (ngauss + a + S k - 1)); try lia; cbn [andb]; auto;
      destruct (Nat.leb_spec r (ngauss - S a)), (Nat.ltb_spec (ngauss - S a) (r + k)),
               (Nat.leb_spec r (ngauss - a)), (Nat.ltb_spec (ngauss - a) (r + S k)); try lia; cbn [andb]; auto;
      destruct (Nat.eqb_spec r (ngauss - a + 1 - 1)), (Nat.eqb_spec r (ngauss + a - 1)); try lia; cbn [andb]; auto;
      destruct (Nat.ltb_spec n (0 + nmax)); try lia; cbv zeta; try (subst r; reflexivity).
      all: replace (2 * ngauss - 1 - r)%nat with (ngauss + a - 1)%nat by lia; f_equal; ring. }
  rewrite G by lia. replace (ngauss + 1 - 1)%nat with ngauss by lia. replace (ngauss + 1 + ngauss - 1)%nat with (2 * ngauss)%nat by lia.
  destruct (Nat.leb_spec ngauss r), (Nat.ltb_spec r (2 * ngauss)); try lia; cbn [andb]; auto.
  destruct (Nat.leb_spec r (ngauss - 1)), (Nat.ltb_spec (ngauss - 1) (r + ngauss)); try lia; reflexivity.
Qed.

Lemma dspec_mirror : forall n m t, dspec n m (PI - t) = (-1) ^ (n + m) * dspec n m t.
Proof.
  intros. unfold dspec. replace (sin (PI - t)) with (sin t).
  - replace (cos (PI - t)) with (- cos t). rewrite P_parity. ring.
    rewrite cos_minus, cos_PI, sin_PI. ring.
  - rewrite sin_minus, cos_PI, sin_PI. ring.
Qed.
Lemma dspec'_mirror : forall n m t, dspec' n m (PI - t) = - (-1) ^ (n + m) * dspec' n m t.
Proof.
  intros. unfold dspec'. replace (sin (PI - t)) with (sin t).
  - replace (cos (PI - t)) with (- cos t). rewrite !P_parity. rewrite Nat.add_succ_r. cbn [pow]. ring.
    rewrite cos_minus, cos_PI, sin_PI. ring.
  - rewrite sin_minus, cos_PI, sin_PI. ring.
Qed.
