(** Properties C33, C46, C47, C48: Wigner d functions. *)
From Coq Require Import List Arith Lia Bool Reals Lra.
From Verif Require Import Legendre Wigner.
Import ListNotations.
Local Open Scope R_scope.

(** Specification vocabulary (Legendre.v, Wigner.v): [P n m] is the m-th derivative of
    the Legendre polynomial given by Rodrigues' formula, and
    [dspec n m t] = sqrt((n-m)!/(n+m)!) sin(t)^m P_n^(m)(cos t). *)
Theorem rodrigues : forall n m x,
  P n m x = eval (Nat.iter (n + m) deriv (U n)) x / (2 ^ n * INR (fact n)) /\
  (forall y, eval (U n) y = (y * y - 1) ^ n) /\
  (forall p y, derivable_pt_lim (eval p) y (eval (deriv p) y)).
Proof. intros. split; [reflexivity|]. split; [apply U_eval | apply eval_deriv]. Qed.

Lemma entry : forall {A} (f : nat -> A) nmax n d, (1 <= n <= nmax)%nat -> nth (n - 1) (map f (seq 1 nmax)) d = f n.
Proof.
  intros A f nmax n d H. rewrite (nth_indep _ d (f 0%nat)) by (rewrite map_length, seq_length; lia).
  rewrite map_nth, seq_nth by lia. f_equal. lia.
Qed.

(** C33: m = 0 *)
Theorem C33_legendre_values : forall t nmax n, 0 < t < PI -> (1 <= n <= nmax)%nat ->
  let (y, dy) := nth (n - 1) (wigner_dn_0m (cos t) nmax 0) (0, 0) in
  y = P n 0 (cos t) /\ derivable_pt_lim (fun t => P n 0 (cos t)) t dy.
Proof.
  intros t nmax n Ht Hn. rewrite wigner_dn_0m_spec by (auto; lia). rewrite entry by auto.
  assert (E: forall u, dspec n 0 u = P n 0 (cos u)).
  { intros u. unfold dspec, cnm. rewrite Nat.sub_0_r, Nat.add_0_r. unfold Rdiv. rewrite Rinv_r by apply INR_fact. rewrite sqrt_1. cbn [pow]. ring. }
  split; [apply E|]. apply derivable_ext with (dspec n 0); [exact E|]. apply dspec_derivative.
Qed.
Print Assumptions C33_legendre_values.

(** C46: all m *)
Theorem C46_values_and_derivatives : forall t nmax m n, 0 < t < PI -> (m <= nmax)%nat -> (1 <= n <= nmax)%nat ->
  let (y, dy) := nth (n - 1) (wigner_dn_0m (cos t) nmax m) (0, 0) in
  y = sqrt (INR (fact (n - m)) / INR (fact (n + m))) * sin t ^ m * P n m (cos t) /\
  derivable_pt_lim (fun t => sqrt (INR (fact (n - m)) / INR (fact (n + m))) * sin t ^ m * P n m (cos t)) t dy.
Proof.
  intros t nmax m n Ht Hm Hn. rewrite wigner_dn_0m_spec by auto. rewrite entry by auto. split; [reflexivity|]. apply dspec_derivative.
Qed.
Print Assumptions C46_values_and_derivatives.
Theorem C46_number_of_entries : forall t nmax m, 0 < t < PI -> (m <= nmax)%nat -> length (wigner_dn_0m (cos t) nmax m) = nmax.
Proof. intros. rewrite wigner_dn_0m_spec by auto. rewrite map_length, seq_length. reflexivity. Qed.
Print Assumptions C46_number_of_entries.
(** orders below m are zero *)
Theorem C46_low_orders : forall t nmax m n, 0 < t < PI -> (m <= nmax)%nat -> (1 <= n < m)%nat ->
  nth (n - 1) (wigner_dn_0m (cos t) nmax m) (0, 0) = (0, 0).
Proof.
  intros. rewrite wigner_dn_0m_spec by auto. rewrite entry by lia. rewrite dspec_low, dspec'_low by lia. reflexivity.
Qed.
Print Assumptions C46_low_orders.

Example C46_example : fst (nth 1 (wigner_dn_0m (cos (PI / 2)) 3 2) (0, 0)) = sqrt 6 / 4.
Proof.
  pose proof PI_RGT_0 as HP. pose proof (C46_values_and_derivatives (PI / 2) 3 2 2 ltac:(lra) ltac:(lia) ltac:(lia)) as H.
  cbn [Nat.sub] in H. destruct (nth 1 _ _) as (y, dy). destruct H as (H & _). cbn [fst]. rewrite H, sin_PI2, cos_PI2.
  unfold P. cbn. replace (1 / (1 + 1 + 1 + 1 + 1 + 1 + 1 + 1 + 1 + 1 + 1 + 1 + 1 + 1 + 1 + 1 + 1 + 1 + 1 + 1 + 1 + 1 + 1 + 1)) with (/ (4 * 6)) by field.
  assert (S: sqrt (/ (4 * 6)) = sqrt 6 / 12).
  { rewrite sqrt_inv, sqrt_mult by lra. replace 4 with (2 * 2) by ring. rewrite sqrt_square by lra.
    pose proof (sqrt_lt_R0 6 ltac:(lra)). pose proof (sqrt_sqrt 6 ltac:(lra)).
    apply Rmult_eq_reg_l with (sqrt 6); [|lra]. transitivity (/ 2); [field; lra|]. transitivity (sqrt 6 * sqrt 6 / 12); [lra|field]. }
  rewrite S. field.
Qed.

(** C47: version divided by sin; away from the poles it is the quotient, at the poles
    (theta = 0 or PI) it is the limit of the quotient (m >= 1) and the derivative *)
Theorem C47_regular : forall t nmax m n, / 10000000000 < Rabs (1 - Rabs (cos t)) -> sin t <> 0 -> (m <= nmax)%nat -> (1 <= n <= nmax)%nat ->
  let (y, dy) := nth (n - 1) (wigner_dn_0m_sinx (cos t) (sin t) (1 / sin t) nmax m) (0, 0) in
  y = dspec n m t / sin t /\ derivable_pt_lim (dspec n m) t dy.
Proof.
  intros t nmax m n H Hs Hm Hn. rewrite sinx_regular by (unfold near_pole; try lra; auto). rewrite entry by auto.
  split; [reflexivity | apply dspec_derivative].
Qed.
Print Assumptions C47_regular.
Theorem C47_poles : forall t nmax m n sinx sinx_inv, t = 0 \/ t = PI -> (1 <= m)%nat -> (1 <= n <= nmax)%nat ->
  let (y, dy) := nth (n - 1) (wigner_dn_0m_sinx (cos t) sinx sinx_inv nmax m) (0, 0) in
  limit1_in (fun u => dspec n m u / sin u) (fun u => sin u <> 0) y t /\ derivable_pt_lim (dspec n m) t dy.
Proof.
  intros t nmax m n sinx sinx_inv H Hm Hn.
  assert (S: sin t = 0 /\ (cos t = 1 \/ cos t = -1)).
  { destruct H as [ -> | -> ]; [rewrite sin_0, cos_0; auto | rewrite sin_PI, cos_PI; split; auto]. }
  destruct S as (S & C). rewrite sinx_pole by auto. rewrite entry by auto. destruct (Nat.eqb_spec m 0); [lia|].
  split; [apply qspec_limit; lia | apply dspec_derivative].
Qed.
Print Assumptions C47_poles.
(** m = 0 at the poles: the derivative is right; the quotient diverges and 0 is stored
    (it is only used multiplied by m) *)
Theorem C47_poles_m0 : forall t nmax n sinx sinx_inv, t = 0 \/ t = PI -> (1 <= n <= nmax)%nat ->
  let (y, dy) := nth (n - 1) (wigner_dn_0m_sinx (cos t) sinx sinx_inv nmax 0) (0, 0) in
  y = 0 /\ derivable_pt_lim (dspec n 0) t dy.
Proof.
  intros t nmax n sinx sinx_inv H Hn.
  assert (S: sin t = 0 /\ (cos t = 1 \/ cos t = -1)).
  { destruct H as [ -> | -> ]; [rewrite sin_0, cos_0; auto | rewrite sin_PI, cos_PI; split; auto]. }
  destruct S as (S & C). rewrite sinx_pole by auto. rewrite entry by auto. split; [reflexivity | apply dspec_derivative].
Qed.
Print Assumptions C47_poles_m0.
Example C47_example : nth 1 (wigner_dn_0m_sinx (cos PI) 0 0 2 1) (0, 0) = (-1 * (/ 2 * sqrt (2 * 3)), - (-1 * (/ 2 * sqrt (2 * 3)))).
Proof.
  rewrite cos_PI. unfold wigner_dn_0m_sinx. destruct (Rle_dec _ _) as [_|K].
  - cbn [Nat.eqb pole_loop nth INR]. destruct (Rlt_dec (-1) 0); [|lra].
    replace ((1 + 1) * (1 + 1 + 1)) with (2 * 3) by ring. f_equal; ring.
  - exfalso. apply K. replace (-1) with (- (1)) by ring. rewrite Rabs_Ropp, Rabs_R1. replace (1 - 1) with 0 by ring. rewrite Rabs_R0. lra.
Qed.

(** C48 (and the second half of C33): rows of the stored table for a symmetric set of
    angles theta_r, theta_(2N-1-r) = PI - theta_r.  Entries for m even are exact; for m
    odd the mirrored rows have the opposite sign in all entries, so that products of two
    entries of a row - the only way they are used - are exact for every m. *)
Definition row_sign (ngauss m r : nat) : R := if Nat.leb ngauss r then 1 else (-1) ^ m.
Lemma row_sign_even : forall ngauss m, Nat.even m = true -> forall r, row_sign ngauss m r = 1.
Proof.
  intros ngauss m E r. unfold row_sign. destruct (Nat.leb _ _); auto. apply Nat.even_spec in E. destruct E as (k & ->).
  rewrite pow_mult. replace ((-1) ^ 2) with 1 by (cbn; ring). apply pow1.
Qed.
Lemma row_sign_sq : forall ngauss m r, row_sign ngauss m r * row_sign ngauss m r = 1.
Proof.
  intros ngauss m r. unfold row_sign. destruct (Nat.leb _ _); [ring|]. rewrite <- pow_add. replace (m + m)%nat with (2 * m)%nat by lia.
  rewrite pow_mult. replace ((-1) ^ 2) with 1 by (cbn; ring). apply pow1.
Qed.
Section Mirror.
Variables (ngauss nmax m : nat) (x : nat -> R) (t : nat -> R) (T : nat -> nat -> R * R).
Hypothesis Hm : (m <= nmax)%nat.
Hypothesis Hx : forall r, (r < 2 * ngauss)%nat -> x r = cos (t r) /\ 0 < t r < PI /\ t (2 * ngauss - 1 - r)%nat = PI - t r.
Lemma stored : forall r n, (r < 2 * ngauss)%nat -> (1 <= n <= nmax)%nat ->
  wigner_table ngauss nmax m x T r (n - 1) = (row_sign ngauss m r * dspec n m (t r), row_sign ngauss m r * dspec' n m (t r)).
Proof.
  intros r n Hr Hn. rewrite wigner_table_at by lia. unfold row_sign, cell_direct.
  destruct (Nat.leb_spec ngauss r) as [L|L].
  - destruct (Hx r Hr) as (-> & B & _). rewrite wigner_dn_0m_spec by auto. rewrite entry by auto. f_equal; ring.
  - set (r' := (2 * ngauss - 1 - r)%nat). assert (Hr': (r' < 2 * ngauss)%nat) by lia.
    destruct (Hx r' Hr') as (-> & B & _). destruct (Hx r Hr) as (_ & _ & E). fold r' in E.
    rewrite wigner_dn_0m_spec by auto. rewrite entry by auto. cbn [fst snd]. rewrite E, dspec_mirror, dspec'_mirror.
    replace (n - 1 + 1)%nat with n by lia. rewrite pow_add.
    assert (Q: (-1) ^ n * (-1) ^ n = 1) by (rewrite <- pow_add; replace (n + n)%nat with (2 * n)%nat by lia; rewrite pow_mult; replace ((-1) ^ 2) with 1 by (cbn; ring); apply pow1).
    f_equal.
    + transitivity ((-1) ^ m * (((-1) ^ n * (-1) ^ n) * dspec n m (t r))); [ring|]. rewrite Q. ring.
    + transitivity ((-1) ^ m * (((-1) ^ n * (-1) ^ n) * dspec' n m (t r))); [ring|]. rewrite Q. ring.
Qed.
End Mirror.

Theorem C48_even_m_exact : forall ngauss nmax m x t T, (m <= nmax)%nat -> Nat.even m = true ->
  (forall r, (r < 2 * ngauss)%nat -> x r = cos (t r) /\ 0 < t r < PI /\ t (2 * ngauss - 1 - r)%nat = PI - t r) ->
  forall r n, (r < 2 * ngauss)%nat -> (1 <= n <= nmax)%nat ->
    fst (wigner_table ngauss nmax m x T r (n - 1)) = dspec n m (t r) /\
    derivable_pt_lim (dspec n m) (t r) (snd (wigner_table ngauss nmax m x T r (n - 1))).
Proof.
  intros. rewrite (stored ngauss nmax m x t) by auto. rewrite (row_sign_even ngauss m) by auto. cbn [fst snd]. rewrite !Rmult_1_l.
  split; [reflexivity | apply dspec_derivative].
Qed.
Print Assumptions C48_even_m_exact.
Theorem C33_mirrored_rows : forall ngauss nmax x t T,
  (forall r, (r < 2 * ngauss)%nat -> x r = cos (t r) /\ 0 < t r < PI /\ t (2 * ngauss - 1 - r)%nat = PI - t r) ->
  forall r n, (r < ngauss)%nat -> (1 <= n <= nmax)%nat ->
    fst (wigner_table ngauss nmax 0 x T r (n - 1)) = dspec n 0 (t r) /\
    derivable_pt_lim (dspec n 0) (t r) (snd (wigner_table ngauss nmax 0 x T r (n - 1))).
Proof. intros. apply C48_even_m_exact; auto; lia. Qed.
Print Assumptions C33_mirrored_rows.

Theorem C48_products_exact : forall ngauss nmax m x t T, (m <= nmax)%nat ->
  (forall r, (r < 2 * ngauss)%nat -> x r = cos (t r) /\ 0 < t r < PI /\ t (2 * ngauss - 1 - r)%nat = PI - t r) ->
  forall r n n', (r < 2 * ngauss)%nat -> (1 <= n <= nmax)%nat -> (1 <= n' <= nmax)%nat ->
    let (y, dy) := wigner_table ngauss nmax m x T r (n - 1) in
    let (y', dy') := wigner_table ngauss nmax m x T r (n' - 1) in
    exists d d', derivable_pt_lim (dspec n m) (t r) d /\ derivable_pt_lim (dspec n' m) (t r) d' /\
      y * y' = dspec n m (t r) * dspec n' m (t r) /\ y * dy' = dspec n m (t r) * d' /\
      dy * y' = d * dspec n' m (t r) /\ dy * dy' = d * d'.
Proof.
  intros. rewrite !(stored ngauss nmax m x t) by auto. exists (dspec' n m (t r)), (dspec' n' m (t r)).
  split; [apply dspec_derivative|]. split; [apply dspec_derivative|].
  pose proof (row_sign_sq ngauss m r) as Q. set (s := row_sign ngauss m r) in *.
  assert (E: forall a b, s * a * (s * b) = a * b).
  { intros a b. transitivity (s * s * (a * b)); [ring|]. rewrite Q. ring. }
  rewrite !E. auto.
Qed.
Print Assumptions C48_products_exact.

(** the literal claim (single entries exact for every m) is false of the code *)
Theorem C48_odd_m_sign_refuted : forall ngauss nmax m x t T, (m <= nmax)%nat -> Nat.even m = false ->
  (forall r, (r < 2 * ngauss)%nat -> x r = cos (t r) /\ 0 < t r < PI /\ t (2 * ngauss - 1 - r)%nat = PI - t r) ->
  forall r n, (r < ngauss)%nat -> (1 <= n <= nmax)%nat ->
    fst (wigner_table ngauss nmax m x T r (n - 1)) = - dspec n m (t r).
Proof.
  intros. rewrite (stored ngauss nmax m x t) by (auto; lia). cbn [fst]. unfold row_sign. destruct (Nat.leb_spec ngauss r); [lia|].
  assert (O: Nat.odd m = true) by (rewrite <- Nat.negb_even; match goal with E : Nat.even m = false |- _ => rewrite E end; reflexivity).
  apply Nat.odd_spec in O. destruct O as (k & ->). rewrite pow_add, pow_mult. replace ((-1) ^ 2) with 1 by (cbn; ring). rewrite pow1. cbn [pow]. ring.
Qed.
Print Assumptions C48_odd_m_sign_refuted.
Example C48_example : fst (wigner_table 1 1 1 (fun r => if Nat.eqb r 0 then cos (PI - PI / 3) else cos (PI / 3)) (fun _ _ => (0, 0)) 0 0) = - (sqrt (1 / 2) * sin (PI / 3)).
Proof.
  pose proof PI_RGT_0.
  pose proof (C48_odd_m_sign_refuted 1 1 1 (fun r => if Nat.eqb r 0 then cos (PI - PI / 3) else cos (PI / 3)) (fun r => if Nat.eqb r 0 then PI - PI / 3 else PI / 3) (fun _ _ => (0, 0)) ltac:(lia) eq_refl) as E.
  specialize (E ltac:(intros r Hr; destruct r as [|[|]]; [| |lia]; cbn; split; try reflexivity; split; lra) 0%nat 1%nat ltac:(lia) ltac:(lia)).
  cbn [Nat.sub] in E. rewrite E. cbn [Nat.eqb]. unfold dspec, cnm. cbn [Nat.sub Nat.add fact Nat.mul INR pow].
  rewrite P_up, P_0_0, P_0_S. cbn [Nat.add INR]. replace (sin (PI - PI / 3)) with (sin (PI / 3)) by (rewrite sin_minus, cos_PI, sin_PI; ring).
  replace (1 / (1 + 1)) with (1 / 2) by field. ring.
Qed.
