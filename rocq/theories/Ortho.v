(** Orthogonality of the Wigner functions d^n_{0m} and of the pairs (m d / sin, d') over the sphere, as integrals of polynomials in
    cos theta. Specification side only. *)
From Coq Require Import List Arith Lia Bool Reals Lra Psatz.
From Coquelicot Require Import Coquelicot.
From Verif Require Import Legendre Quadrature GaussExact Wigner.
Import ListNotations.
Local Open Scope R_scope.

(* ---------------------------------------------- polynomials *)
Fixpoint pmul (p q : poly) : poly := match p with [] => [] | a :: p' => padd (pscale a q) (0 :: pmul p' q) end.
Lemma eval_pmul : forall p q x, eval (pmul p q) x = eval p x * eval q x.
Proof. induction p; intros; cbn [pmul eval]; [ring|]. rewrite eval_padd, eval_pscale. cbn [eval]. rewrite IHp. ring. Qed.
Lemma length_pmul : forall p q a b, (length p <= S a)%nat -> (length q <= S b)%nat -> (length (pmul p q) <= S (a + b))%nat.
Proof.
  induction p as [|c p IH]; intros q a b Hp Hq; cbn [pmul length] in *; [lia|].
  apply length_padd.
  - unfold pscale. rewrite map_length. lia.
  - cbn [length]. destruct p as [|d p]; [cbn; lia|]. destruct a as [|a]; [cbn [length] in Hp; lia|]. specialize (IH q a b ltac:(lia) Hq). lia.
Qed.
Lemma polyf_mult : forall a b f g, polyf (S a) f -> polyf (S b) g -> polyf (S (a + b)) (fun x => f x * g x).
Proof. intros a b f g (p & Lp & Ep) (q & Lq & Eq). exists (pmul p q). split; [apply length_pmul; auto|]. intros. rewrite eval_pmul, Ep, Eq. reflexivity. Qed.
Lemma polyf_le : forall a b f, polyf a f -> (a <= b)%nat -> polyf b f.
Proof. intros a b f (p & L & E) H. exists p. split; auto. lia. Qed.
Lemma polyf_ext : forall n f g, polyf n f -> (forall x, f x = g x) -> polyf n g.
Proof. intros n f g (p & L & E) H. exists p. split; auto. intros. rewrite <- H. auto. Qed.
(** the derivative without the zero that Legendre.deriv leaves at the end *)
Fixpoint deriv0 (p : poly) : poly := match p with [] => [] | a :: q => match q with [] => [] | _ => padd q (0 :: deriv0 q) end end.
Lemma deriv0_eval : forall p x, eval (deriv0 p) x = eval (deriv p) x.
Proof. induction p as [|a [|b q] IH]; intros x; [reflexivity|cbn; ring|]. change (deriv0 (a :: b :: q)) with (padd (b :: q) (0 :: deriv0 (b :: q))). change (deriv (a :: b :: q)) with (padd (b :: q) (0 :: deriv (b :: q))). rewrite !eval_padd. change (eval (0 :: deriv0 (b :: q)) x) with (0 + x * eval (deriv0 (b :: q)) x). rewrite IH. reflexivity. Qed.
Lemma length_deriv0 : forall p, length (deriv0 p) = (length p - 1)%nat.
Proof. induction p as [|a [|b q] IH]; auto. change (deriv0 (a :: b :: q)) with (padd (b :: q) (0 :: deriv0 (b :: q))). rewrite length_padd_max. cbn [length] in *. change (length (0 :: deriv0 (b :: q))) with (S (length (deriv0 (b :: q)))). rewrite IH. lia. Qed.
Lemma polyf_derivative : forall n f f', polyf (S (S n)) f -> (forall x, derivable_pt_lim f x (f' x)) -> polyf (S n) f'.
Proof.
  intros n f f' (p & L & E) D. exists (deriv0 p). split; [rewrite length_deriv0; lia|]. intros x. rewrite deriv0_eval. apply (uniqueness_limite f x); auto.
  apply derivable_ext with (eval p); [intros; symmetry; auto|]. apply eval_deriv.
Qed.
Lemma polyf_Pm : forall n m, polyf (S n - m) (P n m).
Proof.
  intros n m. induction m as [|m IH]; [replace (S n - 0)%nat with (S n) by lia; apply polyf_P|].
  destruct (le_lt_dec n m) as [H|H]; [exists []; split; [cbn; lia|]; intros; rewrite P_high by lia; reflexivity|].
  replace (S n - S m)%nat with (S (n - m - 1)) by lia. apply (polyf_derivative _ (P n m)); [|intros; apply P_derivative]. replace (S (S (n - m - 1))) with (S n - m)%nat by lia. auto.
Qed.
Lemma polyf_Pk : forall n m k, (n <= k + m)%nat -> polyf (S k) (P n m).
Proof. intros n m k H. apply polyf_le with (S n - m)%nat; [apply polyf_Pm|lia]. Qed.
Lemma polyf_x : polyf 2 (fun x => x).
Proof. exists [0; 1]. split; auto. intros. cbn. ring. Qed.
Lemma polyf_u : polyf 3 (fun x => 1 - x * x).
Proof. exists [1; 0; -1]. split; auto. intros. cbn. ring. Qed.
Lemma polyf_upow : forall m, polyf (S (2 * m)) (fun x => (1 - x * x) ^ m).
Proof.
  induction m; [exists [1]; split; auto; intros; cbn; ring|]. cbn [pow]. replace (S (2 * S m)) with (S (2 + 2 * m)) by lia. apply polyf_mult; auto using polyf_u.
Qed.
Lemma polyf_scal : forall n c f, polyf n f -> polyf n (fun x => c * f x).
Proof. intros n c f H. apply polyf_ext with (fun x => c * f x + 0 * f x); [apply polyf_lin; auto|]. intros; ring. Qed.
Lemma polyf_sub : forall n f g, polyf n f -> polyf n g -> polyf n (fun x => f x - g x).
Proof. intros n f g H K. apply polyf_ext with (fun x => 1 * f x + -1 * g x); [apply polyf_lin; auto|]. intros; ring. Qed.
Lemma polyf_add : forall n f g, polyf n f -> polyf n g -> polyf n (fun x => f x + g x).
Proof. intros n f g H K. apply polyf_ext with (fun x => 1 * f x + 1 * g x); [apply polyf_lin; auto|]. intros; ring. Qed.

(* ---------------------------------------------- Legendre's associated equation *)
Lemma associated : forall n m x, (1 - x * x) * P n (S (S m)) x - 2 * (INR m + 1) * x * P n (S m) x + (INR n * (INR n + 1) - INR m * (INR m + 1)) * P n m x = 0.
Proof.
  intros n m. induction m as [|m IH]; intros x.
  - assert (D: derivable_pt_lim (fun x => (1 - x * x) * P n 1 x) x ((0 - (1 * x + x * 1)) * P n 1 x + (1 - x * x) * P n 2 x)).
    { apply (deriv_mult (fun x => 1 - x * x)); [|apply P_derivative]. apply (deriv_minus (fun _ => 1) (fun x => x * x)); [apply derivable_pt_lim_const|].
      apply (deriv_mult (fun x => x) (fun x => x)); apply derivable_pt_lim_id. }
    pose proof (uniqueness_limite _ _ _ _ D (legendre_equation n x)) as E. cbn [INR]. lra.
  - rewrite S_INR.
    set (F := fun x => (1 - x * x) * P n (S (S m)) x - 2 * (INR m + 1) * x * P n (S m) x + (INR n * (INR n + 1) - INR m * (INR m + 1)) * P n m x) in *.
    assert (D: derivable_pt_lim F x ((0 - (1 * x + x * 1)) * P n (S (S m)) x + (1 - x * x) * P n (S (S (S m))) x - ((2 * (INR m + 1)) * 1 * P n (S m) x + 2 * (INR m + 1) * x * P n (S (S m)) x) + (INR n * (INR n + 1) - INR m * (INR m + 1)) * P n (S m) x)).
    { unfold F. apply (derivable_pt_lim_plus (fun x => (1 - x * x) * P n (S (S m)) x - 2 * (INR m + 1) * x * P n (S m) x) (fun x => (INR n * (INR n + 1) - INR m * (INR m + 1)) * P n m x)).
      - apply (deriv_minus (fun x => (1 - x * x) * P n (S (S m)) x)).
        + apply (deriv_mult (fun x => 1 - x * x)); [|apply P_derivative]. apply (deriv_minus (fun _ => 1) (fun x => x * x)); [apply derivable_pt_lim_const|].
          apply (deriv_mult (fun x => x) (fun x => x)); apply derivable_pt_lim_id.
        + apply (deriv_mult (fun x => 2 * (INR m + 1) * x)); [|apply P_derivative]. apply (derivable_pt_lim_scal (fun x => x)). apply derivable_pt_lim_id.
      - apply (derivable_pt_lim_scal (P n m)). apply P_derivative. }
    assert (D0: derivable_pt_lim F x 0). { apply derivable_ext with (fun _ => 0); [intros; symmetry; apply IH|]. apply derivable_pt_lim_const. }
    pose proof (uniqueness_limite _ _ _ _ D D0) as E. lra.
Qed.

(* ---------------------------------------------- integrals from antiderivatives of polynomials *)
Lemma polyf_deriv_exists : forall n f, polyf n f -> exists f', forall x, derivable_pt_lim f x (f' x).
Proof. intros n f (p & L & E). exists (eval (deriv p)). intros x. apply derivable_ext with (eval p); [intros; symmetry; auto|]. apply eval_deriv. Qed.
Lemma integral_poly : forall n (F f : R -> R), polyf n f -> (forall x, derivable_pt_lim F x (f x)) -> is_RInt f (-1) 1 (F 1 - F (-1)).
Proof. intros n F f Pf D. destruct (polyf_deriv_exists n f Pf) as (f' & D'). apply (integral_of F f f'); auto. Qed.
Lemma upow_derivative : forall m x, derivable_pt_lim (fun x => (1 - x * x) ^ S m) x (- (2 * (INR m + 1) * x) * (1 - x * x) ^ m).
Proof.
  intros m x. eapply deriv_eq.
  - apply (derivable_pt_lim_comp (fun x => 1 - x * x) (fun y => y ^ S m)); [|apply derivable_pt_lim_pow].
    apply (deriv_minus (fun _ => 1) (fun x => x * x)); [apply derivable_pt_lim_const|]. apply (deriv_mult (fun x => x) (fun x => x)); apply derivable_pt_lim_id.
  - rewrite S_INR. cbn [pred]. unfold id. ring.
Qed.
(** u^m P_n^{(m)} P_n'^{(m)} *)
Definition Iprod (n n' m : nat) (x : R) : R := (1 - x * x) ^ m * (P n m x * P n' m x).
Lemma Iprod_poly : forall n n' m, exists N, polyf N (Iprod n n' m).
Proof.
  intros n n' m. exists (S (2 * m + (n + n'))). unfold Iprod. apply polyf_mult; [apply polyf_upow|].
  apply polyf_mult; apply polyf_Pk; lia.
Qed.
Lemma Iprod_step_derivative : forall n n' m x,
  derivable_pt_lim (fun x => (1 - x * x) ^ S m * (P n (S m) x * P n' m x)) x (Iprod n n' (S m) x - (INR n * (INR n + 1) - INR m * (INR m + 1)) * Iprod n n' m x).
Proof.
  intros n n' m x. eapply deriv_eq.
  - apply (deriv_mult (fun x => (1 - x * x) ^ S m)); [apply upow_derivative|]. apply (deriv_mult (P n (S m)) (P n' m)); apply P_derivative.
  - unfold Iprod. cbn [pow]. pose proof (associated n m x) as A. set (u := (1 - x * x) ^ m). set (d := 1 - x * x) in *.
    transitivity (u * (d * (P n (S m) x * P n' (S m) x)) + u * P n' m x * (d * P n (S (S m)) x - 2 * (INR m + 1) * x * P n (S m) x)); [ring|].
    replace (d * P n (S (S m)) x - 2 * (INR m + 1) * x * P n (S m) x) with (- ((INR n * (INR n + 1) - INR m * (INR m + 1)) * P n m x)) by lra. ring.
Qed.
Lemma Iprod_integral : forall n n' m, (m <= n)%nat -> (m <= n')%nat ->
  is_RInt (Iprod n n' m) (-1) 1 (if Nat.eqb n n' then INR (fact (n + m)) / INR (fact (n - m)) * (2 / (2 * INR n + 1)) else 0).
Proof.
  intros n n' m. induction m as [|m IH]; intros H H'.
  - unfold Iprod. cbn [pow]. destruct (Nat.eqb_spec n n') as [ <- | N].
    + eapply is_RInt_by; [apply (norm_squared n)| |].
      * intros. cbv beta. ring.
      * rewrite Nat.add_0_r, Nat.sub_0_r. pose proof (pos_INR n). field. split; [lra|apply INR_fact].
    + eapply is_RInt_by; [apply (orthogonal n n' N)| |]; [intros; cbv beta; ring|reflexivity].
  - specialize (IH ltac:(lia) ltac:(lia)). set (c := INR n * (INR n + 1) - INR m * (INR m + 1)).
    destruct (Iprod_poly n n' (S m)) as (N1 & P1). destruct (Iprod_poly n n' m) as (N0 & P0).
    assert (I: is_RInt (fun x => Iprod n n' (S m) x - c * Iprod n n' m x) (-1) 1 0).
    { eapply is_RInt_val.
      - apply (integral_poly (Nat.max N1 N0) (fun x => (1 - x * x) ^ S m * (P n (S m) x * P n' m x))); [|apply Iprod_step_derivative].
        apply polyf_sub; [apply polyf_le with N1; auto; lia|]. apply polyf_scal. apply polyf_le with N0; auto; lia.
      - cbn [pow]. ring. }
    pose proof (is_RInt_lin _ _ _ _ _ _ 1 c I IH) as J.
    eapply is_RInt_by; [exact J| |].
    + intros x. cbv beta. ring.
    + destruct (Nat.eqb_spec n n') as [ <- | N]; [|ring].
      replace (n + S m)%nat with (S (n + m)) by lia. replace (n - m)%nat with (S (n - S m)) by lia. rewrite !fact_S_INR.
      replace (INR (S (n - S m))) with (INR n - INR m) by (rewrite <- minus_INR by lia; f_equal; lia). rewrite S_INR, plus_INR. pose proof (pos_INR n). unfold c.
      assert (INR n - INR m <> 0) by (assert (INR m < INR n) by (apply lt_INR; lia); lra). pose proof (INR_fact (n - S m)). field. repeat split; auto; lra.
Qed.

(* ---------------------------------------------- the pairs (m d / sin, d') *)
(** m d^n_{0m} / sin and d^n_{0m}' as sine powers times polynomials *)
Definition tq (n m : nat) (x : R) : R := INR m * x * P n m x - (1 - x * x) * P n (S m) x.
Lemma tau_form : forall n m t, sin t * dspec' n m t = cnm n m * sin t ^ m * tq n m (cos t).
Proof.
  intros n m t. unfold dspec', tq. pose proof (sin2_cos2 t) as E. unfold Rsqr in E. replace (1 - cos t * cos t) with (sin t * sin t) by lra.
  destruct m as [|m]; [cbn [INR pow]; ring|]. cbn [pred pow]. ring.
Qed.
(** pi pi' + tau tau' and pi tau' + tau pi' are polynomials in cos theta *)
Definition gram_even (n n' m : nat) (t : R) : R := INR m * qspec n m t * (INR m * qspec n' m t) + dspec' n m t * dspec' n' m t.
Definition gram_odd (n n' m : nat) (t : R) : R := INR m * qspec n m t * dspec' n' m t + dspec' n m t * (INR m * qspec n' m t).
Lemma tq_poly : forall n m, (m <= n)%nat -> polyf (S (n + 1 - m)) (tq n m).
Proof.
  intros n m H. unfold tq. apply polyf_sub.
  - apply polyf_ext with (fun x => INR m * (x * P n m x)); [|intros; ring]. apply polyf_scal. replace (S (n + 1 - m)) with (S (1 + (n - m))) by lia. apply polyf_mult; [apply polyf_x|].
    replace (S (n - m)) with (S n - m)%nat by lia. apply polyf_Pm.
  - destruct (Nat.eq_dec n m) as [ -> | N].
    + exists []. split; [cbn; lia|]. intros. rewrite (P_high m (S m)) by lia. cbn [eval]. ring.
    + replace (S (n + 1 - m)) with (S (2 + (n - m - 1))) by lia. apply polyf_mult; [apply polyf_u|]. replace (S (n - m - 1)) with (S n - S m)%nat by lia. apply polyf_Pm.
Qed.
Lemma sin_pow2 : forall t m, sin t ^ m * sin t ^ m = (1 - cos t * cos t) ^ m.
Proof. intros. rewrite <- Rpow_mult_distr. f_equal. pose proof (sin2_cos2 t) as E. unfold Rsqr in E. lra. Qed.
(** for m >= 1 everything has a factor u^(m-1) *)
Definition evenS (n n' m : nat) (x : R) : R := (1 - x * x) ^ m * (INR (S m) * P n (S m) x * (INR (S m) * P n' (S m) x) + tq n (S m) x * tq n' (S m) x).
Definition oddS (n n' m : nat) (x : R) : R := (1 - x * x) ^ m * (INR (S m) * P n (S m) x * tq n' (S m) x + tq n (S m) x * (INR (S m) * P n' (S m) x)).
Definition even0 (n n' : nat) (x : R) : R := (1 - x * x) * (P n 1 x * P n' 1 x).
Lemma dspec'_S : forall n m t, dspec' n (S m) t = cnm n (S m) * sin t ^ m * tq n (S m) (cos t).
Proof.
  intros n m t. unfold dspec', tq. pose proof (sin2_cos2 t) as E. unfold Rsqr in E. replace (1 - cos t * cos t) with (sin t * sin t) by lra. cbn [pred pow]. ring.
Qed.
Lemma gram_even_S : forall n n' m t, gram_even n n' (S m) t = cnm n (S m) * cnm n' (S m) * evenS n n' m (cos t).
Proof.
  intros. unfold gram_even, evenS, qspec. rewrite !dspec'_S. replace (S m - 1)%nat with m by lia. rewrite <- sin_pow2. ring.
Qed.
Lemma gram_odd_S : forall n n' m t, gram_odd n n' (S m) t = cnm n (S m) * cnm n' (S m) * oddS n n' m (cos t).
Proof.
  intros. unfold gram_odd, oddS, qspec. rewrite !dspec'_S. replace (S m - 1)%nat with m by lia. rewrite <- sin_pow2. ring.
Qed.
Lemma gram_even_0 : forall n n' t, gram_even n n' 0 t = cnm n 0 * cnm n' 0 * even0 n n' (cos t).
Proof.
  intros. unfold gram_even, even0, dspec'. cbn [INR pow]. pose proof (sin2_cos2 t) as E. unfold Rsqr in E. replace (1 - cos t * cos t) with (sin t * sin t) by lra. ring.
Qed.
Lemma gram_odd_0 : forall n n' t, gram_odd n n' 0 t = 0.
Proof. intros. unfold gram_odd. cbn [INR]. ring. Qed.
Lemma evenS_poly : forall n n' m, (S m <= n)%nat -> (S m <= n')%nat -> polyf (S (n + n')) (evenS n n' m).
Proof.
  intros n n' m H H'. unfold evenS. replace (S (n + n')) with (S (2 * m + (n - m + (n' - m)))) by lia. apply polyf_mult; [apply polyf_upow|].
  pose proof (tq_poly n (S m) H) as T1. pose proof (tq_poly n' (S m) H') as T2. replace (n + 1 - S m)%nat with (n - m)%nat in T1 by lia. replace (n' + 1 - S m)%nat with (n' - m)%nat in T2 by lia.
  apply polyf_add; apply polyf_mult; auto; apply polyf_scal; apply polyf_Pk; lia.
Qed.
Lemma oddS_poly : forall n n' m, (S m <= n)%nat -> (S m <= n')%nat -> polyf (S (n + n')) (oddS n n' m).
Proof.
  intros n n' m H H'. unfold oddS. replace (S (n + n')) with (S (2 * m + (n - m + (n' - m)))) by lia. apply polyf_mult; [apply polyf_upow|].
  pose proof (tq_poly n (S m) H) as T1. pose proof (tq_poly n' (S m) H') as T2. replace (n + 1 - S m)%nat with (n - m)%nat in T1 by lia. replace (n' + 1 - S m)%nat with (n' - m)%nat in T2 by lia.
  apply polyf_add; apply polyf_mult; auto; apply polyf_scal; apply polyf_Pk; lia.
Qed.
Lemma even0_poly : forall n n', (1 <= n)%nat -> (1 <= n')%nat -> polyf (S (n + n')) (even0 n n').
Proof.
  intros n n' H H'. unfold even0. replace (S (n + n')) with (S (2 + (n - 1 + (n' - 1)))) by lia. apply polyf_mult; [apply polyf_u|].
  apply polyf_mult; apply polyf_Pk; lia.
Qed.
(** u^m tq P' has derivative n (n+1) u^m P P' - even *)
Lemma tq_derivative : forall n m x, derivable_pt_lim (tq n m) x (INR m * P n m x + INR m * x * P n (S m) x + 2 * x * P n (S m) x - (1 - x * x) * P n (S (S m)) x).
Proof.
  intros n m x. unfold tq. eapply deriv_eq.
  - apply (deriv_minus (fun x => INR m * x * P n m x) (fun x => (1 - x * x) * P n (S m) x)).
    + apply (deriv_mult (fun x => INR m * x)); [|apply P_derivative]. apply (derivable_pt_lim_scal (fun x => x)). apply derivable_pt_lim_id.
    + apply (deriv_mult (fun x => 1 - x * x)); [|apply P_derivative]. apply (deriv_minus (fun _ => 1) (fun x => x * x)); [apply derivable_pt_lim_const|].
      apply (deriv_mult (fun x => x) (fun x => x)); apply derivable_pt_lim_id.
  - ring.
Qed.
Lemma evenS_derivative : forall n n' m x,
  derivable_pt_lim (fun x => (1 - x * x) ^ S m * (tq n (S m) x * P n' (S m) x)) x (INR n * (INR n + 1) * Iprod n n' (S m) x - evenS n n' m x).
Proof.
  intros n n' m x. eapply deriv_eq.
  - apply (deriv_mult (fun x => (1 - x * x) ^ S m)); [apply upow_derivative|]. apply (deriv_mult (tq n (S m)) (P n' (S m))); [apply tq_derivative|apply P_derivative].
  - pose proof (associated n (S m) x) as A. unfold Iprod, evenS, tq. rewrite S_INR in *. cbn [pow]. set (u := (1 - x * x) ^ m). set (k := INR m) in *. set (N := INR n) in *.
    set (p0 := P n (S m) x) in *. set (p1 := P n (S (S m)) x) in *. set (p2 := P n (S (S (S m))) x) in *. set (q0 := P n' (S m) x). set (q1 := P n' (S (S m)) x).
    assert (E: (1 - x * x) * p2 = 2 * (k + 1 + 1) * x * p1 - (N * (N + 1) - (k + 1) * (k + 1 + 1)) * p0) by lra.
    transitivity (- (2 * (k + 1) * x) * u * (((k + 1) * x * p0 - (1 - x * x) * p1) * q0) + (1 - x * x) * u * (((k + 1) * p0 + (k + 1) * x * p1 + 2 * x * p1 - (1 - x * x) * p2) * q0 + ((k + 1) * x * p0 - (1 - x * x) * p1) * q1)); [ring|].
    rewrite E. ring.
Qed.
Lemma even0_derivative : forall n n' x, derivable_pt_lim (fun x => (1 - x * x) ^ 1 * (P n 1 x * P n' 0 x)) x (even0 n n' x - INR n * (INR n + 1) * Iprod n n' 0 x).
Proof.
  intros n n' x. eapply deriv_eq; [apply (Iprod_step_derivative n n' 0)|]. unfold Iprod, even0. cbn [pow INR]. ring.
Qed.
Lemma oddS_derivative : forall n n' m x,
  derivable_pt_lim (fun x => - INR (S m) * ((1 - x * x) ^ S m * (P n (S m) x * P n' (S m) x))) x (oddS n n' m x).
Proof.
  intros n n' m x. eapply deriv_eq.
  - apply (derivable_pt_lim_scal (fun x => (1 - x * x) ^ S m * (P n (S m) x * P n' (S m) x))). apply (deriv_mult (fun x => (1 - x * x) ^ S m)); [apply upow_derivative|]. apply (deriv_mult (P n (S m)) (P n' (S m))); apply P_derivative.
  - unfold oddS, tq. rewrite S_INR. cbn [pow]. ring.
Qed.
Definition gram_norm (n : nat) : R := 2 * (INR n * (INR n + 1)) / (2 * INR n + 1).
Lemma cnm_sq : forall n m, cnm n m * cnm n m = INR (fact (n - m)) / INR (fact (n + m)).
Proof.
  intros. unfold cnm. rewrite sqrt_sqrt; auto. apply Rmult_le_pos; [apply pos_INR|]. left. apply Rinv_0_lt_compat. apply lt_0_INR. apply lt_O_fact.
Qed.
(** the integrals over cos theta, with the degree needed by a quadrature rule *)
Theorem gram_even_integral : forall n n' m, (Nat.max 1 m <= n)%nat -> (Nat.max 1 m <= n')%nat ->
  exists p, (length p <= S (n + n'))%nat /\ (forall t, gram_even n n' m t = eval p (cos t)) /\ is_RInt (eval p) (-1) 1 (if Nat.eqb n n' then gram_norm n else 0).
Proof.
  intros n n' m H H'.
  assert (V: cnm n m * cnm n' m * (INR n * (INR n + 1) * (if Nat.eqb n n' then INR (fact (n + m)) / INR (fact (n - m)) * (2 / (2 * INR n + 1)) else 0)) = if Nat.eqb n n' then gram_norm n else 0).
  { destruct (Nat.eqb_spec n n') as [ <- | N]; [|ring]. rewrite cnm_sq. unfold gram_norm. pose proof (pos_INR n). pose proof (INR_fact (n - m)). pose proof (INR_fact (n + m)). field. repeat split; auto; lra. }
  pose proof (Iprod_integral n n' m ltac:(lia) ltac:(lia)) as I. destruct (Iprod_poly n n' m) as (N0 & P0).
  destruct m as [|m].
  - destruct (even0_poly n n' ltac:(lia) ltac:(lia)) as (p & L & E).
    exists (pscale (cnm n 0 * cnm n' 0) p). split; [unfold pscale; rewrite map_length; auto|]. split; [intros; rewrite gram_even_0, E, eval_pscale; reflexivity|].
    assert (J: is_RInt (fun x => even0 n n' x - INR n * (INR n + 1) * Iprod n n' 0 x) (-1) 1 0).
    { eapply is_RInt_val.
      - apply (integral_poly (Nat.max (S (n + n')) N0) (fun x => (1 - x * x) ^ 1 * (P n 1 x * P n' 0 x))); [|apply even0_derivative].
        apply polyf_sub; [apply polyf_le with (S (n + n')); [exists p; auto|lia]|]. apply polyf_scal. apply polyf_le with N0; auto; lia.
      - cbn [pow]. ring. }
    eapply is_RInt_val; [|exact V]. eapply is_RInt_by; [exact (is_RInt_lin _ _ _ _ _ _ (cnm n 0 * cnm n' 0) (cnm n 0 * cnm n' 0 * (INR n * (INR n + 1))) J I)| |].
    + intros x. cbv beta. rewrite eval_pscale, <- E. ring.
    + destruct (n =? n')%nat; cbv iota; match goal with |- ?a = ?b => change (@eq R a b) end; ring.
  - destruct (evenS_poly n n' m ltac:(lia) ltac:(lia)) as (p & L & E).
    exists (pscale (cnm n (S m) * cnm n' (S m)) p). split; [unfold pscale; rewrite map_length; auto|]. split; [intros; rewrite gram_even_S, E, eval_pscale; reflexivity|].
    assert (J: is_RInt (fun x => INR n * (INR n + 1) * Iprod n n' (S m) x - evenS n n' m x) (-1) 1 0).
    { eapply is_RInt_val.
      - apply (integral_poly (Nat.max (S (n + n')) N0) (fun x => (1 - x * x) ^ S m * (tq n (S m) x * P n' (S m) x))); [|apply evenS_derivative].
        apply polyf_sub; [|apply polyf_le with (S (n + n')); [exists p; auto|lia]]. apply polyf_scal. apply polyf_le with N0; auto; lia.
      - cbn [pow]. ring. }
    eapply is_RInt_val; [|exact V]. eapply is_RInt_by; [exact (is_RInt_lin _ _ _ _ _ _ (- (cnm n (S m) * cnm n' (S m))) (cnm n (S m) * cnm n' (S m) * (INR n * (INR n + 1))) J I)| |].
    + intros x. cbv beta. rewrite eval_pscale, <- E. ring.
    + destruct (n =? n')%nat; cbv iota; match goal with |- ?a = ?b => change (@eq R a b) end; ring.
Qed.
Theorem gram_odd_integral : forall n n' m, (Nat.max 1 m <= n)%nat -> (Nat.max 1 m <= n')%nat ->
  exists p, (length p <= S (n + n'))%nat /\ (forall t, gram_odd n n' m t = eval p (cos t)) /\ is_RInt (eval p) (-1) 1 0.
Proof.
  intros n n' m H H'. destruct m as [|m].
  - exists []. split; [cbn; lia|]. split; [intros; apply gram_odd_0|]. apply (is_RInt_ext (fun _ => 0)); [reflexivity|]. apply is_RInt_zero.
  - destruct (oddS_poly n n' m ltac:(lia) ltac:(lia)) as (p & L & E).
    exists (pscale (cnm n (S m) * cnm n' (S m)) p). split; [unfold pscale; rewrite map_length; auto|]. split; [intros; rewrite gram_odd_S, E, eval_pscale; reflexivity|].
    assert (J: is_RInt (oddS n n' m) (-1) 1 0).
    { eapply is_RInt_val.
      - apply (integral_poly (S (n + n')) (fun x => - INR (S m) * ((1 - x * x) ^ S m * (P n (S m) x * P n' (S m) x)))); [exists p; auto|apply oddS_derivative].
      - cbn [pow]. ring. }
    eapply is_RInt_by; [apply (is_RInt_scalR _ _ _ (cnm n (S m) * cnm n' (S m)) _ J)| |].
    + intros x. cbv beta. rewrite eval_pscale, <- E. ring.
    + ring.
Qed.
