(** The hypotheses of C83 hold: a run of the constructor of the Python object that ends with an object, for a small absorbing sphere, the Bessel functions of
    BesselSpec.v, an exact Gauss-Legendre rule and efficiency factors rounded so coarsely that the convergence loops stop at once. *)
From Coq Require Import List ZArith Arith Lia Bool Reals Lra Floats.SpecFloat.
From Coquelicot Require Import Complex Coquelicot.
From Verif Require Import Matrix Quadrature Adaptive Orientation Density Shape QMatrix Ebcm TClass Frames PyTMatrix Props_adaptive Props_tmatrix Props_tclass GaussBounds Props_mie Props_energy.
From Verif Require Props_pytmatrix.
Import ListNotations.
Open Scope R_scope.

Definition coarse (_ : R) : spec_float := binary_normalize 53 1024 1 0 false.
Definition loose : spec_float := binary_normalize 53 1024 1 (-3) false.
Lemma coarse_loops : forall f g : nat -> nat -> R, calculate_TMatrix 53 1024 (fun n k => coarse (f n k)) (fun n k => coarse (g n k)) loose 4 20 2 100 = TMatrixOf 5 11.
Proof. intros f g. unfold coarse. vm_compute. reflexivity. Qed.
Lemma coarse_usable : usable 53 1024 loose.
Proof. vm_compute. split; reflexivity. Qed.
Definition far : R := 2 * PI * 1000.
Lemma far_guess : guess 1 far = 4%nat.
Proof.
  pose proof PI_RGT_0. unfold guess, far. replace (2 * PI * 1 / (2 * PI * 1000)) with (/ 10 ^ 3) by (field; lra).
  assert (E: Rpower (/ 10 ^ 3) (/ 3) = / 10).
  { replace (/ 10 ^ 3) with (Rpower (/ 10) 3). 2: { replace 3 with (INR 3) by (cbn; ring). rewrite Rpower_pow by lra. field. }
    rewrite Rpower_mult. replace (3 * / 3) with 1 by field. apply Rpower_1. lra. }
  rewrite E. rewrite Rmax_left by lra. replace 4 with (IZR 4) by reflexivity. replace (Int_part (IZR 4)) with 4%Z; [reflexivity|].
  unfold Int_part. rewrite <- (up_tech (IZR 4) 4); [reflexivity | lra | apply IZR_lt; lia].
Qed.
(** equally spaced points *)
Definition even_rule (n : nat) : (nat -> R) * (nat -> R) := (fun i => (2 * INR i + 1) / INR (2 * n) - 1, fun _ => / INR n).
Lemma even_symmetric : forall n, symmetric_rule n (fst (even_rule n)) (snd (even_rule n)).
Proof.
  intros n i Hi. cbn [even_rule fst snd]. assert (Pn: 0 < INR (2 * n)) by (apply lt_0_INR; lia). assert (0 <= INR i) by apply pos_INR.
  assert (INR i + 1 <= INR (2 * n)) by (rewrite <- S_INR; apply le_INR; lia). split; [|split; [|reflexivity]].
  - split.
    + assert (0 < (2 * INR i + 1) / INR (2 * n)) by (apply Rdiv_lt_0_compat; lra). lra.
    + assert ((2 * INR i + 1) / INR (2 * n) < 2); [|lra]. apply (Rmult_lt_reg_r (INR (2 * n))); auto. unfold Rdiv. rewrite Rmult_assoc, Rinv_l by lra. lra.
  - rewrite !minus_INR by lia. change (INR 1) with 1. field. lra.
Qed.
Example C83_object_example : exists rule, (forall n, symmetric_rule n (fst (rule n)) (snd (rule n))) /\
  exists o, init 53 1024 coarse (fun _ => exact_radial) rule (fun _ => None) 1 1 far (3 / 2, / 10) (1 / 2) loose 20 2 100 true = Done o /\ py_nmax o = 5%nat.
Proof.
  destruct (symmetric_gauss_exists 11 ltac:(lia)) as (x & w & SY & GA).
  set (rule := fun n => if (n =? 11)%nat then (x, w) else even_rule n). exists rule.
  assert (RS: forall n, symmetric_rule n (fst (rule n)) (snd (rule n))) by (intros n; unfold rule; destruct (Nat.eqb_spec n 11) as [->|]; [exact SY | apply even_symmetric]). split; [exact RS|].
  set (p := particle_of (fun _ => exact_radial) rule (mkGrain 1 1 far (3 / 2, / 10)) 5 11).
  assert (Pf: 0 < far) by (unfold far; pose proof PI_RGT_0; lra).
  assert (S: is_sphere p).
  { unfold p, particle_of. cbn [g_axis_ratio g_size g_wavelength g_mr]. split; [|split; [reflexivity | split; [cbn [p_ngauss p_x p_w]; change (rule 11%nat) with (x, w); apply gauss_is_exact; auto; cbn; lia | cbn; lia]]].
    split; [exact SY|]. split; [cbn; lra|]. split; [cbn; lra|]. split; [exact Pf|]. split; [|cbn; lia]. cbn. intro E. apply (f_equal Re) in E. cbn in E. lra. }
  assert (Pa: passive (p_mr p)) by (unfold passive, p, particle_of; cbn [p_mr g_mr]; unfold Cmult, Im; cbn [fst snd]; lra).
  destruct (C86_exists p S exact_radial_ok Pa) as (T & T' & E & E').
  assert (CA: calculate 53 1024 coarse (fun _ => exact_radial) rule 1 1 1 far 20 loose 2 (3 / 2, / 10) 100 = Done (p, T')).
  { unfold calculate. cbv zeta. destruct (Rlt_dec 1e-8 (Rabs (1 - 1))) as [L|L]; [exfalso; revert L; replace (1 - 1) with 0 by ring; rewrite Rabs_R0; lra|]. rewrite Rmult_1_l, far_guess, coarse_loops. fold p. rewrite E, E'. reflexivity. }
  unfold init. cbv zeta. rewrite CA. destruct (Rle_dec 0 (1 / 2)) as [L|L]; [|lra].
  destruct (mishchenko_spec (2 * p_nmax p) (1 / 2) ltac:(lra)) as (A & _). destruct (A ltac:(cbn; lia)) as (d & M & SZ & _ & _).
  assert (O: orientation (fun _ => None) (1 / 2) 1 (2 * p_nmax p) = Done d).
  { unfold orientation. destruct (Req_EM_T (1 / 2) 0); [lra|]. destruct (Req_EM_T (1 / 2) 1); [lra|]. destruct (Req_EM_T (1 / 2) (1 / 3)); [lra|]. rewrite M. reflexivity. }
  rewrite O.
  destruct (Props_pytmatrix.apply_ok (map (coef d) (seq 0 (size d))) (p_nmax p) T') as (T'' & A' & Q);
    [rewrite map_length, seq_length, SZ; lia | pose proof S as (Hp & _); exact (Props_outputs.C75_objects_are_plane_symmetric p T T' Hp E E')|].
  rewrite A'. eexists. split; [reflexivity|]. reflexivity.
Qed.
Example C83_order_example : exists rule p T, let R_V := (if Rlt_dec 1e-8 (Rabs (1 - 1)) then sphere_ratio 1 else 1) * 1 in
  calculate 53 1024 coarse (fun _ => exact_radial) rule 1 1 1 far 20 loose 2 (3 / 2, / 10) 100 = Done (p, T) /\ usable 53 1024 loose /\ (guess R_V far < 20)%nat /\ (2 * p_nmax p < 100)%nat.
Proof.
  destruct C83_object_example as (rule & RS & o & I & N). unfold init in I. cbv zeta in I.
  destruct (calculate _ _ _ _ _ _ _ _ _ _ _ _ _ _) as [(p, T)|] eqn:CA; [|discriminate]. exists rule, p, T. intros R_V. split; [exact CA|]. split; [exact coarse_usable|].
  assert (RV: R_V = 1) by (unfold R_V; destruct (Rlt_dec 1e-8 (Rabs (1 - 1))) as [L|L]; [exfalso; revert L; replace (1 - 1) with 0 by ring; rewrite Rabs_R0; lra | ring]).
  rewrite RV, far_guess. split; [lia|]. unfold calculate in CA. cbv zeta in CA. fold R_V in CA. rewrite RV, far_guess, coarse_loops in CA.
  destruct (construct _) as [T0|]; [|discriminate]. destruct (compute_additional_elements _ _) as [T1|]; [|discriminate]. injection CA as <- _. cbn. lia.
Qed.
