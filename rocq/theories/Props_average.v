(** C76: averages over all directions. The average of the extinction cross section over the directions of the light is - 2 pi / k^2 times
    get_extinction_coefficient, that of the scattering cross section 2 pi / k^2 times get_scattering_coefficient, and what
    get_average_absorption_cross_section returns is what remains. *)
From Coq Require Import List Arith Lia Bool ZArith Reals Lra Psatz.
From Coquelicot Require Import Coquelicot Complex.
From Verif Require Import Legendre Quadrature GaussExact Props_quad GaussRoots GaussBounds Azimuth Wigner Ortho Matrix Optics Props_optics TClass Frames FramesFacts Props_frames Props_outputs AverageFacts.
Import ListNotations.
Local Open Scope R_scope.

Lemma csum_RtoC : forall {X} (l : list X) f, csum l (fun x => RtoC (f x)) = RtoC (rsum l f).
Proof. induction l; intros; [reflexivity|]. rewrite csum_cons, rsum_cons, IHl, RtoC_plus. reflexivity. Qed.
Lemma csum_pick_in : forall (l : list nat) x g, NoDup l -> In x l -> csum l (fun y => if Nat.eqb y x then g y else RtoC 0) = g x.
Proof.
  induction l as [|a l IH]; intros x g ND I; [destruct I|]. inversion ND as [|? ? N1 N2]; subst. rewrite csum_cons. destruct I as [ -> | I].
  - rewrite Nat.eqb_refl. rewrite csum_zero; [ring|]. intros y Hy. destruct (Nat.eqb_spec y x) as [ -> | ]; auto. contradiction.
  - destruct (Nat.eqb_spec a x) as [ -> | N]; [contradiction|]. rewrite IH; auto. ring.
Qed.
Lemma Ci_nonzero : Ci <> RtoC 0.
Proof. unfold Ci, RtoC. intros E. injection E. lra. Qed.
Lemma prefactor_diag : forall n, (1 <= n)%nat -> (prefactor n n * RtoC (gram_norm n))%C = (- (Ci * RtoC 2))%C.
Proof.
  intros n Hn. unfold prefactor, gram_norm. assert (0 < INR n) by (apply lt_0_INR; lia).
  replace ((2 * INR n + 1) * (2 * INR n + 1) / (INR n * (INR n + 1) * (INR n * (INR n + 1)))) with ((2 * INR n + 1) / (INR n * (INR n + 1)) * ((2 * INR n + 1) / (INR n * (INR n + 1)))) by (field; lra).
  rewrite sqrt_square; [|apply Rmult_le_pos; [lra|left; apply Rinv_0_lt_compat; nra]].
  replace (ipow (n + 1)) with (ipow n * Ci)%C by (replace (n + 1)%nat with (S n) by lia; reflexivity).
  rewrite <- Cmult_assoc, <- RtoC_mult. replace ((2 * INR n + 1) / (INR n * (INR n + 1)) * (2 * (INR n * (INR n + 1)) / (2 * INR n + 1))) with 2 by (field; lra).
  pose proof (ipow_nonzero n) as NZ. pose proof Ci_nonzero as CZ. assert (I2: (/ Ci = - Ci)%C). { unfold Ci, Cinv, Copp. cbn [fst snd]. f_equal; field. }
  replace (ipow n / (ipow n * Ci))%C with (/ Ci)%C by (field; auto). rewrite I2. ring.
Qed.
Section Average.
Variables (nmax ngauss : nat) (k : R) (T : tmats) (x w : nat -> R).
Hypothesis Hg : (nmax < ngauss)%nat.
Hypothesis EX : exact_rule ngauss x w.
Hypothesis US : usable ngauss x.
Lemma trace_average : csum (seq 0 ngauss) (fun i => RtoC (w i) * (let W := fixed_axis nmax k T (acos (x i)) 0 (acos (x i)) 0 in s0 W + s3 W))%C = (RtoC (1 / k) * (- (Ci * RtoC 2)) * trace nmax T)%C.
Proof.
  transitivity (csum (seq 0 ngauss) (fun i => RtoC (1 / k) * csum (orders nmax) (fun m => csum (degrees nmax m) (fun n' => csum (degrees nmax m) (fun n =>
     prefactor n' n * ((full_T nmax T 0 0 m n n' + full_T nmax T 1 1 m n n') * RtoC (w i * (wpi m n (acos (x i)) * wpi m n' (acos (x i)) + wtau m n (acos (x i)) * wtau m n' (acos (x i))))
                     + (full_T nmax T 1 0 m n n' + full_T nmax T 0 1 m n n') * RtoC (w i * (wpi m n (acos (x i)) * wtau m n' (acos (x i)) + wtau m n (acos (x i)) * wpi m n' (acos (x i)))))))))%C).
  { apply csum_ext. intros i Hi. apply in_seq in Hi. destruct (US i ltac:(lia)) as (_ & Rs). cbv zeta. rewrite (C74_series nmax k T (acos (x i)) 0 (acos (x i)) 0 Rs Rs).
    unfold full_amplitude. cbn [s0 s3]. unfold full_sum. rewrite <- Cmult_plus_distr_l, <- csum_add. rewrite Cmult_assoc, (Cmult_comm (RtoC (w i))), <- Cmult_assoc. f_equal. rewrite <- csum_mul. apply csum_ext. intros m _.
    rewrite <- csum_add, <- csum_mul. apply csum_ext. intros n' _. rewrite <- csum_add, <- csum_mul. apply csum_ext. intros n _.
    replace (expi m (0 - 0)) with (RtoC 1) by (unfold expi; replace (IZR m * (0 - 0)) with 0 by ring; rewrite cos_0, sin_0; reflexivity).
    unfold pin, pout, tin, tout. fold (wpi m n (acos (x i))) (wpi m n' (acos (x i))) (wtau m n (acos (x i))) (wtau m n' (acos (x i))). rewrite !RtoC_mult, !RtoC_plus, !RtoC_mult. ring. }
  rewrite csum_mul, <- Cmult_assoc. f_equal. unfold trace. rewrite csum_swap, <- csum_mul. apply csum_ext. intros m _. rewrite csum_swap, <- csum_mul. apply csum_ext. intros n' Hn'. rewrite csum_swap.
  transitivity (csum (degrees nmax m) (fun n => if Nat.eqb n n' then (- (Ci * RtoC 2) * (full_T nmax T 0 0 m n n + full_T nmax T 1 1 m n n))%C else RtoC 0)).
  - apply csum_ext. intros n Hn. rewrite csum_mul, csum_add, !csum_mul, !csum_RtoC, (even_rule nmax ngauss x w Hg EX US m n n'), (odd_rule nmax ngauss x w Hg EX US m n n') by auto.
    destruct (Nat.eqb_spec n n') as [ <- | N]; [|rewrite RtoC_0 || idtac; ring]. apply (in_degrees nmax ngauss Hg) in Hn || apply (in_degrees nmax) in Hn. rewrite <- (prefactor_diag n) by lia. ring.
  - rewrite (csum_pick_in _ n'); auto; [|apply seq_NoDup]. rewrite !csum_cons, csum_nil. ring.
Qed.
End Average.
Theorem C76_average_extinction : forall nmax ngauss k T x w, (nmax < ngauss)%nat -> exact_rule ngauss x w -> usable ngauss x -> k <> 0 -> plane_symmetric nmax T ->
  / 2 * rsum (seq 0 ngauss) (fun i => w i * get_extinction_matrix nmax k T 0 0 (acos (x i)) 0 0 0) = - (2 * PI / (k * k)) * get_extinction_coefficient nmax T.
Proof.
  intros nmax ngauss k T x w Hg EX US Hk PS. rewrite C75_extinction_coefficient by auto.
  pose proof (trace_average nmax ngauss k T x w Hg EX US) as A.
  assert (E: rsum (seq 0 ngauss) (fun i => w i * get_extinction_matrix nmax k T 0 0 (acos (x i)) 0 0 0) = 2 * PI / k * Im (csum (seq 0 ngauss) (fun i => RtoC (w i) * (let W := fixed_axis nmax k T (acos (x i)) 0 (acos (x i)) 0 in s0 W + s3 W))%C)).
  { assert (I: forall l (f : nat -> C), Im (csum l f) = rsum l (fun x => Im (f x))) by (induction l; intros; [reflexivity|rewrite csum_cons, rsum_cons, <- IHl; reflexivity]).
    rewrite I, <- rsum_scal. apply rsum_ext. intros i Hi. unfold get_extinction_matrix. rewrite C74_axis_along_z by apply acos_bound. unfold extinction. cbv zeta. set (z := (s0 _ + s3 _)%C). destruct z as (a, b). unfold Cmult, RtoC, Im. cbn [fst snd]. unfold Rdiv. ring. }
  rewrite E, A. destruct (trace nmax T) as (a, b). unfold Cmult, Copp, Ci, RtoC, Re, Im. cbn [fst snd]. field. auto.
Qed.
Print Assumptions C76_average_extinction.

(* ---------------------------------------------- scattering *)
Lemma norm_factor : forall n n', (1 <= n)%nat -> (1 <= n')%nat -> gram_norm n * gram_norm n' * norm2 (prefactor n' n) = 4.
Proof.
  intros n n' H H'. unfold prefactor, gram_norm. assert (0 < INR n) by (apply lt_0_INR; lia). assert (0 < INR n') by (apply lt_0_INR; lia).
  assert (NI: forall j, norm2 (ipow j) = 1) by (induction j; cbn [ipow]; [unfold norm2, RtoC, Re, Im; cbn [fst snd]; ring|]; rewrite norm2_mult, IHj; unfold norm2, Ci, Re, Im; cbn [fst snd]; ring).
  assert (ND: norm2 (ipow n' / ipow (n + 1))%C = 1).
  { assert (Q: norm2 (ipow n' / ipow (n + 1))%C * norm2 (ipow (n + 1)) = norm2 (ipow n')) by (rewrite <- norm2_mult; f_equal; field; apply ipow_nonzero). rewrite !NI in Q. lra. }
  rewrite norm2_mult, ND. unfold norm2, RtoC, Re, Im. cbn [fst snd]. rewrite sqrt_sqrt; [field; lra|]. apply Rmult_le_pos; [nra|]. left. apply Rinv_0_lt_compat. apply Rmult_lt_0_compat; nra.
Qed.
Section Scattering.
Variables (nmax ngauss : nat) (k : R) (T : tmats) (x w : nat -> R).
Hypothesis Hg : (nmax < ngauss)%nat.
Hypothesis EX : exact_rule ngauss x w.
Hypothesis US : usable ngauss x.
Definition M (m : Z) (q q' : nat * nat) : C := (prefactor (fst q') (fst q) * full_T nmax T (snd q) (snd q') m (fst q) (fst q'))%C.
Definition A (m : Z) (y z : nat * nat) : C := csum (waves nmax m) (fun q => csum (waves nmax m) (fun q' => M m q q' * RtoC (basis x m q y) * RtoC (basis x m q' z)))%C.
Definition comp (W : amp) (p q : nat) : C := match p, q with 0%nat, 0%nat => s0 W | 0%nat, _ => s1 W | _, 0%nat => s2 W | _, _ => s3 W end.
Lemma A_form : forall m p q i a, A m (p, i) (q, a) =
  csum (degrees nmax m) (fun n' => csum (degrees nmax m) (fun n => csum [0; 1]%nat (fun u => csum [0; 1]%nat (fun v => M m (n, u) (n', v) * RtoC (basis x m (n, u) (p, i)) * RtoC (basis x m (n', v) (q, a))))))%C.
Proof.
  intros. unfold A, waves. rewrite csum_prod. rewrite (csum_swap (degrees nmax m) (degrees nmax m)). apply csum_ext. intros n _.
  transitivity (csum [0; 1]%nat (fun u => csum (degrees nmax m) (fun n' => csum [0; 1]%nat (fun v => M m (n, u) (n', v) * RtoC (basis x m (n, u) (p, i)) * RtoC (basis x m (n', v) (q, a))))))%C.
  - apply csum_ext. intros u _. rewrite csum_prod. reflexivity.
  - apply csum_swap.
Qed.
Lemma component : forall i a phi p q, (i < ngauss)%nat -> (a < ngauss)%nat -> In p [0; 1]%nat -> In q [0; 1]%nat ->
  norm2 (comp (fixed_axis nmax k T (acos (x a)) phi (acos (x i)) 0) p q) = (1 / k) * (1 / k) * norm2 (csum (orders nmax) (fun m => expi m (0 - phi) * A m (p, i) (q, a))%C).
Proof.
  intros i a phi p q Hi Ha Hp Hq. destruct (US i Hi) as (_ & Ri). destruct (US a Ha) as (_ & Ra). rewrite (C74_series nmax k T (acos (x a)) phi (acos (x i)) 0 Ra Ri).
  assert (K: norm2 (RtoC (1 / k)) = 1 / k * (1 / k)) by (unfold norm2, RtoC, Re, Im; cbn [fst snd]; ring).
  assert (I2: (/ Ci = - Ci)%C) by (unfold Ci, Cinv, Copp; cbn [fst snd]; f_equal; field).
  assert (N1: norm2 Ci = 1) by (unfold norm2, Ci, Re, Im; cbn [fst snd]; ring).
  set (F := fun u => (csum (orders nmax) (fun m => csum (degrees nmax m) (fun n' => csum (degrees nmax m) (fun n => prefactor n' n * expi m (0 - phi) * u m n' n))))%C).
  assert (FM: forall u c, F (fun m n' n => u m n' n * c)%C = (F u * c)%C).
  { intros u c. unfold F. rewrite <- csum_mul_r. apply csum_ext. intros m _. rewrite <- csum_mul_r. apply csum_ext. intros n' _. rewrite <- csum_mul_r. apply csum_ext. intros n _. ring. }
  assert (FA: forall u, (forall m n' n, u m n' n = csum [0; 1]%nat (fun s => csum [0; 1]%nat (fun v => full_T nmax T s v m n n' * RtoC (basis x m (n, s) (p, i)) * RtoC (basis x m (n', v) (q, a))))%C) ->
     F u = csum (orders nmax) (fun m => expi m (0 - phi) * A m (p, i) (q, a))%C).
  { intros u Hu. unfold F. apply csum_ext. intros m _. rewrite A_form, <- csum_mul. apply csum_ext. intros n' _. rewrite <- csum_mul. apply csum_ext. intros n _. rewrite Hu.
    unfold M. cbn [fst snd]. rewrite !csum_cons, !csum_nil. ring. }
  assert (PQ: forall r, In r [0; 1]%nat -> r = 0%nat \/ r = 1%nat) by (cbn; intros; lia). apply PQ in Hp. apply PQ in Hq. rewrite <- K.
  destruct Hp as [ -> | -> ], Hq as [ -> | -> ]; unfold full_amplitude; cbn [comp s0 s1 s2 s3]; rewrite norm2_mult; f_equal; unfold full_sum.
  - f_equal. apply (FA (fun m n' n => full_T nmax T 0 0 m n n' * pout (d_over_sin (acos (x i))) m n * pin (d_over_sin (acos (x a))) m n' + full_T nmax T 1 0 m n n' * tout (d_prime (acos (x i))) m n * pin (d_over_sin (acos (x a))) m n' + full_T nmax T 0 1 m n n' * pout (d_over_sin (acos (x i))) m n * tin (d_prime (acos (x a))) m n' + full_T nmax T 1 1 m n n' * tout (d_prime (acos (x i))) m n * tin (d_prime (acos (x a))) m n')%C). intros m n' n. cbv beta. rewrite !csum_cons, !csum_nil. unfold basis. cbn [fst snd Nat.eqb]. unfold pin, pout, tin, tout, wpi, wtau. ring.
  - unfold Cdiv. fold (F (fun m n' n => (full_T nmax T 0 0 m n n' * pout (d_over_sin (acos (x i))) m n * tin (d_prime (acos (x a))) m n' + full_T nmax T 1 0 m n n' * tout (d_prime (acos (x i))) m n * tin (d_prime (acos (x a))) m n' + full_T nmax T 0 1 m n n' * pout (d_over_sin (acos (x i))) m n * pin (d_over_sin (acos (x a))) m n' + full_T nmax T 1 1 m n n' * tout (d_prime (acos (x i))) m n * pin (d_over_sin (acos (x a))) m n') * / Ci)%C).
    rewrite FM, norm2_mult. rewrite I2. replace (norm2 (- Ci)%C) with 1 by (unfold norm2, Ci, Copp, Re, Im; cbn [fst snd]; ring). rewrite Rmult_1_r. f_equal.
    apply FA. intros m n' n. cbv beta. rewrite !csum_cons, !csum_nil. unfold basis. cbn [fst snd Nat.eqb]. unfold pin, pout, tin, tout, wpi, wtau. ring.
  - fold (F (fun m n' n => (full_T nmax T 0 0 m n n' * tout (d_prime (acos (x i))) m n * pin (d_over_sin (acos (x a))) m n' + full_T nmax T 1 0 m n n' * pout (d_over_sin (acos (x i))) m n * pin (d_over_sin (acos (x a))) m n' + full_T nmax T 0 1 m n n' * tout (d_prime (acos (x i))) m n * tin (d_prime (acos (x a))) m n' + full_T nmax T 1 1 m n n' * pout (d_over_sin (acos (x i))) m n * tin (d_prime (acos (x a))) m n') * Ci)%C).
    rewrite FM, norm2_mult, N1, Rmult_1_r. f_equal.
    apply FA. intros m n' n. cbv beta. rewrite !csum_cons, !csum_nil. unfold basis. cbn [fst snd Nat.eqb]. unfold pin, pout, tin, tout, wpi, wtau. ring.
  - f_equal. apply (FA (fun m n' n => full_T nmax T 0 0 m n n' * tout (d_prime (acos (x i))) m n * tin (d_prime (acos (x a))) m n' + full_T nmax T 1 0 m n n' * pout (d_over_sin (acos (x i))) m n * tin (d_prime (acos (x a))) m n' + full_T nmax T 0 1 m n n' * tout (d_prime (acos (x i))) m n * pin (d_over_sin (acos (x a))) m n' + full_T nmax T 1 1 m n n' * pout (d_over_sin (acos (x i))) m n * pin (d_over_sin (acos (x a))) m n')%C). intros m n' n. cbv beta. rewrite !csum_cons, !csum_nil. unfold basis. cbn [fst snd Nat.eqb]. unfold pin, pout, tin, tout, wpi, wtau. ring.
Qed.
Lemma Z00_components : forall W, scattering W 0 0 = / 2 * rsum [0; 1]%nat (fun p => rsum [0; 1]%nat (fun q => norm2 (comp W p q))).
Proof.
  intros W. rewrite !rsum_cons, !rsum_nil. cbn [comp]. unfold scattering. cbv zeta. destruct (s0 W), (s1 W), (s2 W), (s3 W). unfold norm2, Re, Im, Cmult, Cplus, Cconj, RtoC. cbn [fst snd]. ring.
Qed.
(** sum over the sphere rule twice *)
Lemma parseval_sphere : forall m,
  rsum (points ngauss) (fun y => rsum (points ngauss) (fun z => w (snd y) * w (snd z) * norm2 (A m y z))) =
  4 * rsum (degrees nmax m) (fun n => rsum (degrees nmax m) (fun n' => rsum [0; 1]%nat (fun i => rsum [0; 1]%nat (fun j => norm2 (full_T nmax T i j m n n'))))).
Proof.
  intros m. unfold A. rewrite (parseval2 pair_dec (waves nmax m) (points ngauss) (fun y => w (snd y)) (basis x m) (fun q => gram_norm (fst q)) (waves_nodup nmax m) (basis_gram nmax ngauss x w Hg EX US m) (M m)).
  unfold waves. rewrite rsum_prod, <- rsum_scal. apply rsum_ext. intros n Hn. rewrite <- rsum_scal.
  transitivity (rsum [0; 1]%nat (fun i => rsum (degrees nmax m) (fun n' => rsum [0; 1]%nat (fun j => 4 * norm2 (full_T nmax T i j m n n'))))).
  - apply rsum_ext. intros i _. rewrite rsum_prod. apply rsum_ext. intros n' Hn'. apply rsum_ext. intros j _. unfold M. cbn [fst snd]. rewrite norm2_mult.
    assert (D: forall q, In q (degrees nmax m) -> (1 <= q)%nat) by (intros q Hq; unfold degrees in Hq; apply in_seq in Hq; lia).
    transitivity (gram_norm n * gram_norm n' * norm2 (prefactor n' n) * norm2 (full_T nmax T i j m n n')); [ring|]. rewrite norm_factor by auto. reflexivity.
  - rewrite rsum_swap. apply rsum_ext. intros n' _. rewrite <- rsum_scal. apply rsum_ext. intros i _. rewrite rsum_scal. reflexivity.
Qed.
End Scattering.
(** the average over both directions of the light scattered: with azimuth points that integrate e^{i j phi} to within eps *)
Theorem C76_average_scattering : forall nmax ngauss k T x w p v eps, (nmax < ngauss)%nat -> exact_rule ngauss x w -> usable ngauss x -> (forall i, (i < ngauss)%nat -> 0 <= w i) ->
  azimuth_rule nmax ngauss p v eps -> k <> 0 -> plane_symmetric nmax T ->
  Rabs (/ 2 * rsum (seq 0 ngauss) (fun i => w i * scattered_out nmax k T (acos (x i)) ngauss x w p v 0) - 2 * PI / (k * k) * get_scattering_coefficient nmax T)
  <= eps * INR (2 * nmax + 1) / (k * k) * get_scattering_coefficient nmax T.
Proof.
  intros nmax ngauss k T x w p v eps Hg EX US W0 AZ Hk PS. rewrite C75_scattering_coefficient by auto.
  set (Phi := fun y z => rsum (seq 0 ngauss) (fun b => v b * norm2 (csum (orders nmax) (fun m => expi m (0 - p b) * A nmax T x m y z)%C))).
  set (G := fun y z => rsum (orders nmax) (fun m => norm2 (A nmax T x m y z))).
  assert (E1: rsum (seq 0 ngauss) (fun i => w i * scattered_out nmax k T (acos (x i)) ngauss x w p v 0) =
     / (2 * (k * k)) * rsum (points ngauss) (fun y => rsum (points ngauss) (fun z => w (snd y) * w (snd z) * Phi y z))).
  { transitivity (/ (2 * (k * k)) * rsum (seq 0 ngauss) (fun i => rsum (seq 0 ngauss) (fun a => rsum [0; 1]%nat (fun s => rsum [0; 1]%nat (fun q => w i * w a * Phi (s, i) (q, a)))))).
    - rewrite <- rsum_scal. apply rsum_ext. intros i Hi. apply in_seq in Hi. unfold scattered_out. rewrite <- !rsum_scal. apply rsum_ext. intros a Ha. apply in_seq in Ha.
      rewrite <- !rsum_scal.
      transitivity (rsum (seq 0 ngauss) (fun b => rsum [0; 1]%nat (fun s => rsum [0; 1]%nat (fun q => / (2 * (k * k)) * (w i * w a) * (v b * norm2 (csum (orders nmax) (fun m => expi m (0 - p b) * A nmax T x m (s, i) (q, a))%C)))))).
      + apply rsum_ext. intros b _. unfold get_scattering_matrix. rewrite C74_axis_along_z by apply acos_bound. rewrite Z00_components.
        transitivity (rsum [0; 1]%nat (fun s => rsum [0; 1]%nat (fun q => w i * (w a * v b) * / 2 * norm2 (comp (fixed_axis nmax k T (acos (x a)) (p b) (acos (x i)) 0) s q)))).
        * rewrite !rsum_cons, !rsum_nil. ring.
        * apply rsum_ext. intros s Hs. apply rsum_ext. intros q Hq. rewrite (component nmax ngauss k T x Hg US i a (p b) s q) by (auto; lia). field. auto.
      + rewrite rsum_swap. apply rsum_ext. intros s _. rewrite rsum_swap, <- rsum_scal. apply rsum_ext. intros q _. rewrite rsum_scal. unfold Phi. ring.
    - f_equal. unfold points. rewrite rsum_prod.
      transitivity (rsum (seq 0 ngauss) (fun i => rsum [0; 1]%nat (fun s => rsum (seq 0 ngauss) (fun a => rsum [0; 1]%nat (fun q => w i * w a * Phi (s, i) (q, a)))))).
      + apply rsum_ext. intros i _. apply rsum_swap.
      + rewrite rsum_swap. apply rsum_ext. intros s _. apply rsum_ext. intros i _. rewrite rsum_prod. cbn [snd]. apply rsum_swap. }
  assert (E2: rsum (points ngauss) (fun y => rsum (points ngauss) (fun z => w (snd y) * w (snd z) * G y z)) = 4 * all_norms nmax T).
  { transitivity (rsum (orders nmax) (fun m => rsum (points ngauss) (fun y => rsum (points ngauss) (fun z => w (snd y) * w (snd z) * norm2 (A nmax T x m y z))))).
    - symmetry. rewrite rsum_swap. apply rsum_ext. intros y _. rewrite rsum_swap. apply rsum_ext. intros z _. unfold G. rewrite rsum_scal. reflexivity.
    - unfold all_norms. rewrite <- rsum_scal. apply rsum_ext. intros m _. apply parseval_sphere; auto. }
  assert (B: forall y z, Rabs (Phi y z - 2 * PI * G y z) <= eps * INR (2 * nmax + 1) * G y z) by (intros; apply azimuth_bound; auto).
  rewrite E1. clear E1.
  set (X := rsum (points ngauss) (fun y => rsum (points ngauss) (fun z => w (snd y) * w (snd z) * Phi y z))).
  assert (D: Rabs (X - 2 * PI * (4 * all_norms nmax T)) <= eps * INR (2 * nmax + 1) * (4 * all_norms nmax T)).
  { rewrite <- E2. unfold X.
    replace (rsum (points ngauss) (fun y => rsum (points ngauss) (fun z => w (snd y) * w (snd z) * Phi y z)) - 2 * PI * rsum (points ngauss) (fun y => rsum (points ngauss) (fun z => w (snd y) * w (snd z) * G y z)))
      with (rsum (points ngauss) (fun y => rsum (points ngauss) (fun z => w (snd y) * w (snd z) * (Phi y z - 2 * PI * G y z)))).
    2:{ transitivity (rsum (points ngauss) (fun y => rsum (points ngauss) (fun z => w (snd y) * w (snd z) * Phi y z)) + - (2 * PI) * rsum (points ngauss) (fun y => rsum (points ngauss) (fun z => w (snd y) * w (snd z) * G y z))); [|ring].
        rewrite <- rsum_scal, <- rsum_add. apply rsum_ext. intros y _. rewrite <- rsum_scal, <- rsum_add. apply rsum_ext. intros z _. ring. }
    eapply Rle_trans; [apply rsum_Rabs|]. rewrite <- rsum_scal. apply rsum_le. intros y Hy. eapply Rle_trans; [apply rsum_Rabs|]. rewrite <- rsum_scal. apply rsum_le. intros z Hz.
    assert (PW: forall y, In y (points ngauss) -> 0 <= w (snd y)). { intros (s, i) H. apply in_prod_iff in H. destruct H as (_ & H). apply in_seq in H. cbn [snd]. apply W0. lia. }
    pose proof (PW y Hy). pose proof (PW z Hz). assert (0 <= w (snd y) * w (snd z)) by (apply Rmult_le_pos; auto).
    rewrite Rabs_mult, (Rabs_pos_eq (w (snd y) * w (snd z))) by auto. specialize (B y z). eapply Rle_trans; [apply Rmult_le_compat_l; [auto|exact B]|]. right. ring. }
  replace (/ 2 * (/ (2 * (k * k)) * X) - 2 * PI / (k * k) * all_norms nmax T) with (/ (4 * (k * k)) * (X - 2 * PI * (4 * all_norms nmax T))) by (field; auto).
  assert (K2: 0 < k * k) by nra. rewrite Rabs_mult, Rabs_pos_eq by (left; apply Rinv_0_lt_compat; lra).
  replace (eps * INR (2 * nmax + 1) / (k * k) * all_norms nmax T) with (/ (4 * (k * k)) * (eps * INR (2 * nmax + 1) * (4 * all_norms nmax T))) by (field; auto).
  apply Rmult_le_compat_l; auto. left. apply Rinv_0_lt_compat. lra.
Qed.
Print Assumptions C76_average_scattering.
(** what get_average_absorption_cross_section returns: - 2 pi / k^2 (Re tr T + sum |T|^2), up to the error of the azimuth rule *)
Theorem C76_average_absorption : forall nmax ngauss k T x w p v eps, (nmax < ngauss)%nat -> exact_rule ngauss x w -> usable ngauss x -> (forall i, (i < ngauss)%nat -> 0 <= w i) ->
  azimuth_rule nmax ngauss p v eps -> k <> 0 -> plane_symmetric nmax T ->
  Rabs (get_average_absorption_cross_section nmax k T ngauss x w p v - - (2 * PI / (k * k)) * (get_extinction_coefficient nmax T + get_scattering_coefficient nmax T))
  <= eps * INR (2 * nmax + 1) / (k * k) * get_scattering_coefficient nmax T.
Proof.
  intros nmax ngauss k T x w p v eps Hg EX US W0 AZ Hk PS. rewrite C75_average_absorption.
  pose proof (C76_average_extinction nmax ngauss k T x w Hg EX US Hk PS) as E. pose proof (C76_average_scattering nmax ngauss k T x w p v eps Hg EX US W0 AZ Hk PS) as B.
  rewrite <- Rabs_Ropp. eapply Rle_trans; [|exact B]. right. f_equal.
  rewrite (rsum_ext (seq 0 ngauss) _ (fun i => w i * get_extinction_matrix nmax k T 0 0 (acos (x i)) 0 0 0 + -1 * (w i * scattered_out nmax k T (acos (x i)) ngauss x w p v 0))) by (intros; unfold absorbed; ring).
  rewrite rsum_add, rsum_scal. set (S := rsum (seq 0 ngauss) (fun i => w i * scattered_out _ _ _ _ _ _ _ _ _ _)) in *. set (E0 := rsum _ _) in *. clearbody S E0. 
  replace (- (/ 2 * (E0 + -1 * S) - - (2 * PI / (k * k)) * (get_extinction_coefficient nmax T + get_scattering_coefficient nmax T))) with (- (/ 2 * E0) + / 2 * S - 2 * PI / (k * k) * (get_extinction_coefficient nmax T + get_scattering_coefficient nmax T)) by ring.
  rewrite E. ring.
Qed.
Print Assumptions C76_average_absorption.

(* ---------------------------------------------- with the Gauss rules the code asks for *)
Lemma quad_rsum : forall n x w f, quad n x w f = rsum (seq 0 n) (fun i => w i * f (x i)).
Proof. induction n; intros; [reflexivity|]. rewrite seq_S. cbn [quad Nat.add]. rewrite rsum_app, IHn, rsum_cons, rsum_nil. ring. Qed.
Lemma gauss_usable : forall N x w, (1 <= N)%nat -> INR N <= 100000 -> gauss_rule N (-1) 1 x w -> usable N x.
Proof.
  intros N x w H1 HN G i Hi. destruct (gauss_rule_facts N (-1) 1 x w H1 ltac:(lra) G) as (_ & B). destruct (B i Hi) as (Bx & _). split; auto.
  destruct G as (r & HR & _). destruct (HR i Hi) as (Z & Ex & _). assert (E: x i = r i) by (rewrite Ex; field). rewrite <- E in Z.
  split; [apply acos_bound|]. right; right. rewrite cos_acos by auto.
  assert (N0: 1 <= INR N) by (change 1 with (INR 1); apply le_INR; auto).
  assert (I: -1 < x i < 1). { destruct (legendre_roots N) as (l & _ & _ & I & A). apply I. apply A; auto. }
  pose proof (root_distance N (x i) I Z) as D. eapply Rlt_le_trans; [|exact D].
  apply Rmult_lt_reg_r with (INR N * (INR N + 1)); [nra|]. replace (2 / (INR N * (INR N + 1)) * (INR N * (INR N + 1))) with 2 by (field; lra). nra.
Qed.
(** the statement for a caller: nmax < ngauss, both rules exact Gauss-Legendre rules, on [-1, 1] and [0, 2 pi]. The error left is that of
    the Gauss rule in the azimuth, below azimuth_error: 8 pi (2 pi nmax)^(2 ngauss) / (2 ngauss)! *)
Theorem C76_averages : forall nmax ngauss k T x w p v, (nmax < ngauss)%nat -> INR ngauss <= 100000 -> gauss_rule ngauss (-1) 1 x w -> gauss_rule ngauss 0 (2 * PI) p v ->
  k <> 0 -> plane_symmetric nmax T ->
  let error := 8 * PI * ((2 * PI * INR nmax) ^ (2 * ngauss) / INR (fact (2 * ngauss))) * INR (2 * nmax + 1) / (k * k) * get_scattering_coefficient nmax T in
  / 2 * rsum (seq 0 ngauss) (fun i => w i * get_extinction_matrix nmax k T 0 0 (acos (x i)) 0 0 0) = - (2 * PI / (k * k)) * get_extinction_coefficient nmax T /\
  Rabs (/ 2 * rsum (seq 0 ngauss) (fun i => w i * scattered_out nmax k T (acos (x i)) ngauss x w p v 0) - 2 * PI / (k * k) * get_scattering_coefficient nmax T) <= error /\
  Rabs (get_average_absorption_cross_section nmax k T ngauss x w p v - - (2 * PI / (k * k)) * (get_extinction_coefficient nmax T + get_scattering_coefficient nmax T)) <= error.
Proof.
  intros nmax N k T x w p v Hn HN Gx Gp Hk PS error. pose proof PI_RGT_0 as PP.
  assert (US: usable N x) by (apply (gauss_usable N x w); auto; lia).
  destruct (gauss_rule_facts N (-1) 1 x w ltac:(lia) ltac:(lra) Gx) as (Ex & Bx). destruct (gauss_rule_facts N 0 (2 * PI) p v ltac:(lia) ltac:(lra) Gp) as (Ep & Bp).
  assert (EX: exact_rule N x w). { intros q L. rewrite <- quad_rsum. apply Ex. auto. }
  assert (EP: exact_on 0 (2 * PI) N p v). { intros q L. rewrite <- quad_rsum. apply Ep. auto. }
  pose proof (gauss_azimuth N p v ltac:(lia) EP (fun i Hi => proj1 (Bp i Hi)) (fun i Hi => proj2 (Bp i Hi)) nmax) as AZ.
  split; [apply C76_average_extinction; auto|]. split.
  - apply (C76_average_scattering nmax N k T x w p v _ Hn EX US (fun i Hi => proj2 (Bx i Hi)) AZ Hk PS).
  - apply (C76_average_absorption nmax N k T x w p v _ Hn EX US (fun i Hi => proj2 (Bx i Hi)) AZ Hk PS).
Qed.
Print Assumptions C76_averages.
(** the arrays that get_gauss_legendre_points_and_weights_ab fills, when Newton's method stops at roots and the points differ, are such a rule (C49) *)
Theorem C76_rule_of_the_code : forall order root A x w, (1 <= order)%nat ->
  fill (order / 2 + order mod 2) 0 order root A = Some (x, w) ->
  (forall i r, (i < order)%nat -> root i = Some r -> P order 0 (fst r) = 0 /\ exists x' pb, newton_step order (fst r) = (x', snd r, pb)) ->
  (forall i j, (i < j < order)%nat -> x i <> x j) ->
  forall a b, let A' := scale order 0 (1 / 2 * (b - a)) (1 / 2 * (a + b)) (x, w) in gauss_rule order a b (fst A') (snd A').
Proof.
  intros order root A x w Ho E HR HD a b A'. destruct (half_eq order) as (H1 & H2).
  apply fill_spec in E; [|lia]. destruct E as (_ & E). cbn [fst snd] in E. destruct order as [|n]; [lia|].
  assert (N: forall y, P (S n) 0 y = 0 -> (1 - y * y) * P (S n) 1 y <> 0).
  { intros y Z C. pose proof (K_at_root n y Z) as Q. pose proof (K_diag_pos n y) as KP.
    assert ((1 - y * y) * (P (S n) 1 y * P (S n) 1 y) = 0) by (rewrite <- Rmult_assoc, C; ring). lra. }
  assert (G: forall j, (j < S n)%nat -> P (S n) 0 (x j) = 0 /\ w j = gauss_weight (S n) (x j)).
  { assert (G1: forall j, (j < S n / 2 + S n mod 2)%nat -> let k := (S n - 1 - j)%nat in (P (S n) 0 (x k) = 0 /\ w k = gauss_weight (S n) (x k)) /\ (P (S n) 0 (x j) = 0 /\ w j = gauss_weight (S n) (x j))).
    { intros j Hj k. destruct (E j ltac:(lia)) as (r & R1 & R2 & R3 & R4). destruct (HR j r ltac:(lia) R1) as (Z & x' & pb & NS).
      rewrite newton_step_spec in NS by (auto; lia). injection NS as _ Epa _.
      assert (W: 2 * snd r * snd r * (1 - fst r * fst r) = gauss_weight (S n) (fst r)).
      { rewrite <- Epa. apply (weight_formula (S n) (fst r)). auto. }
      fold k in R2, R3. split.
      - rewrite R2, R3. auto.
      - destruct (Nat.eq_dec j k) as [Q|Q]; [rewrite Q, R2, R3; auto|]. destruct (R4 Q) as (-> & ->). rewrite parity_weight. split; auto. apply parity_root; auto. }
    intros j Hj. destruct (Nat.lt_ge_cases j (S n / 2 + S n mod 2)) as [B|B]; [apply G1; auto|].
    destruct (G1 (S n - 1 - j)%nat ltac:(lia)) as (X & _). replace (S n - 1 - (S n - 1 - j))%nat with j in X by lia. exact X. }
  exists x. split; auto. intros i Hi. destruct (G i Hi) as (Z & W). destruct (scale_spec (S n) 0 (1 / 2 * (b - a)) (1 / 2 * (a + b)) (x, w) i) as (S1 & S2). fold A' in S1, S2. cbn [fst snd Nat.leb andb Nat.add] in S1, S2.
  destruct (Nat.ltb_spec i (S n)); [|lia]. rewrite S1, S2, W. unfold gauss_weight. repeat split; [auto|field|]. pose proof (N _ Z) as NZ. field. split; intros C; apply NZ; rewrite C; ring.
Qed.
Print Assumptions C76_rule_of_the_code.
(** non-vacuity: the rules exist for every order, and a symmetric dipole meets the hypothesis on T, with a scattering coefficient that is not 0 *)
Example C76_example : exists x w p v, gauss_rule 20 (-1) 1 x w /\ gauss_rule 20 0 (2 * PI) p v /\ plane_symmetric 1 x_dipole /\ (1 < 20)%nat /\ INR 20 <= 100000 /\
  get_scattering_coefficient 1 x_dipole <> 0.
Proof.
  destruct (gauss_rule_exists 20 (-1) 1) as (x & w & G). destruct (gauss_rule_exists 20 0 (2 * PI)) as (p & v & G'). exists x, w, p, v. split; [exact G|]. split; [exact G'|].
  assert (PS: plane_symmetric 1 x_dipole).
  { split.
    - intros n n' Hn Hn'. assert (n = 1%nat) by lia. assert (n' = 1%nat) by lia. subst. split; reflexivity.
    - intros m n Hm Hn. assert (n = 1%nat) by lia. subst. assert (m = 0 \/ m = 1)%nat as [ -> | -> ] by lia; split; reflexivity. }
  split; [exact PS|]. split; [lia|]. split; [rewrite INR_IZR_INZ; apply IZR_le; cbn; lia|].
  unfold get_scattering_coefficient, for_C, norm2. lazy -[Rplus Rmult Rminus Ropp IZR]. lra.
Qed.
