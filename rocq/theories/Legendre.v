(** Legendre polynomials, specification side: P_n^{(m)} is the m-th derivative of
    Rodrigues' polynomial 1/(2^n n!) d^n/dx^n (x^2-1)^n.  Nothing in this file is
    taken from the code. *)
From Coq Require Import List Arith Lia Bool Reals Lra Psatz.
Import ListNotations.
Local Open Scope R_scope.

(* ---------------------------------------------- polynomials as coefficient lists *)

Notation poly := (list R).
(** a_0 + a_1 x + a_2 x^2 + ... *)
Fixpoint eval (p : poly) (x : R) : R := match p with [] => 0 | a :: q => a + x * eval q x end.
Fixpoint padd (p q : poly) : poly :=
  match p, q with [], _ => q | _, [] => p | a :: p', b :: q' => (a + b) :: padd p' q' end.
Definition pscale (k : R) (p : poly) : poly := map (Rmult k) p.
(** formal derivative: (a + x q)' = q + x q' *)
Fixpoint deriv (p : poly) : poly := match p with [] => [] | a :: q => padd q (0 :: deriv q) end.

Lemma eval_padd : forall p q x, eval (padd p q) x = eval p x + eval q x.
Proof.
  induction p as [|a p IH]; intros q x; cbn [padd eval]; [lra|]. destruct q as [|b q]; cbn [eval]; [lra|].
  rewrite IH. ring.
Qed.
Lemma eval_pscale : forall k p x, eval (pscale k p) x = k * eval p x.
Proof. induction p as [|a p IH]; intros x; cbn [pscale map eval]; [lra|]. change (map (Rmult k) p) with (pscale k p). rewrite IH. ring. Qed.

(** the formal derivative is the derivative *)
Theorem eval_deriv : forall p x, derivable_pt_lim (eval p) x (eval (deriv p) x).
Proof.
  induction p as [|a p IH]; intros x; cbn [deriv].
  - cbn [eval]. apply derivable_pt_lim_const.
  - rewrite eval_padd. cbn [eval].
    replace (eval p x + (0 + x * eval (deriv p) x)) with (0 + (1 * eval p x + x * eval (deriv p) x)) by ring.
    apply (derivable_pt_lim_plus (fun _ => a) (fun x => x * eval p x)).
    + apply derivable_pt_lim_const.
    + apply (derivable_pt_lim_mult id (eval p)); auto. apply derivable_pt_lim_id.
Qed.

Definition peq (p q : poly) : Prop := forall x, eval p x = eval q x.
Lemma derivable_ext : forall f g x l, (forall x, f x = g x) -> derivable_pt_lim f x l -> derivable_pt_lim g x l.
Proof.
  intros f g x l E H eps He. destruct (H eps He) as (d & D). exists d. intros h Hh Hd. rewrite <- !E. auto.
Qed.
Lemma deriv_peq : forall p q, peq p q -> peq (deriv p) (deriv q).
Proof.
  intros p q H x. apply (uniqueness_limite (eval p) x); [apply eval_deriv|].
  apply derivable_ext with (eval q); [intros; symmetry; apply H | apply eval_deriv].
Qed.
Lemma deriv_padd : forall p q, peq (deriv (padd p q)) (padd (deriv p) (deriv q)).
Proof.
  intros p q x. rewrite eval_padd. apply (uniqueness_limite (eval (padd p q)) x); [apply eval_deriv|].
  apply derivable_ext with (fun x => eval p x + eval q x); [intros; symmetry; apply eval_padd|].
  apply (derivable_pt_lim_plus (eval p) (eval q)); apply eval_deriv.
Qed.
Lemma deriv_pscale : forall k p, peq (deriv (pscale k p)) (pscale k (deriv p)).
Proof.
  intros k p x. rewrite eval_pscale. apply (uniqueness_limite (eval (pscale k p)) x); [apply eval_deriv|].
  apply derivable_ext with (fun x => k * eval p x); [intros; symmetry; apply eval_pscale|].
  apply (derivable_pt_lim_scal (eval p)); apply eval_deriv.
Qed.

Notation D k p := (Nat.iter k deriv p).
Lemma D_S : forall k p, D (S k) p = deriv (D k p). Proof. reflexivity. Qed.
Lemma D_S' : forall k p, D (S k) p = D k (deriv p).
Proof. induction k; intros p; [reflexivity|]. rewrite D_S, IHk. reflexivity. Qed.
Lemma D_add : forall j k p, D (j + k)%nat p = D j (D k p).
Proof. induction j; intros; [reflexivity|]. cbn [Nat.add]. rewrite D_S, IHj. reflexivity. Qed.
Lemma D_peq : forall k p q, peq p q -> peq (D k p) (D k q).
Proof. induction k; intros p q H; [exact H|]. rewrite !D_S. apply deriv_peq. auto. Qed.
Lemma D_padd : forall k p q, peq (D k (padd p q)) (padd (D k p) (D k q)).
Proof.
  induction k; intros p q x; [reflexivity|]. rewrite !D_S. rewrite (deriv_peq _ _ (IHk p q) x). apply deriv_padd.
Qed.
Lemma D_pscale : forall k c p, peq (D k (pscale c p)) (pscale c (D k p)).
Proof.
  induction k; intros c p x; [reflexivity|]. rewrite !D_S. rewrite (deriv_peq _ _ (IHk c p) x). apply deriv_pscale.
Qed.
(** Leibniz' rule for x * p; the polynomial x * p is (0 :: p) *)
Lemma D_mulx : forall k p x, eval (D (S k) (0 :: p)) x = x * eval (D (S k) p) x + INR (S k) * eval (D k p) x.
Proof.
  induction k; intros p x.
  - cbn [Nat.iter nat_rect deriv]. rewrite eval_padd. cbn [eval INR]. ring.
  - rewrite D_S.
    assert (E: peq (D (S k) (0 :: p)) (padd (0 :: D (S k) p) (pscale (INR (S k)) (D k p)))).
    { intros y. rewrite IHk, eval_padd, eval_pscale. cbn [eval]. ring. }
    rewrite (deriv_peq _ _ E x), (deriv_padd _ _ x), eval_padd, (deriv_pscale _ _ x), eval_pscale.
    cbn [deriv]. rewrite eval_padd. cbn [eval]. rewrite <- !D_S, (S_INR (S k)). ring.
Qed.

(* ---------------------------------------------- Rodrigues' formula *)

(** (x^2 - 1)^n *)
Fixpoint U (n : nat) : poly := match n with 0%nat => [1] | S k => padd (0 :: 0 :: U k) (pscale (-1) (U k)) end.
Lemma U_eval : forall n x, eval (U n) x = (x * x - 1) ^ n.
Proof.
  induction n; intros x; [cbn [U eval]; cbn [pow]; ring|]. cbn [U]. rewrite eval_padd, eval_pscale. cbn [eval pow]. rewrite IHn. ring.
Qed.
(** P_n^{(m)}(x) *)
Definition P (n m : nat) (x : R) : R := eval (Nat.iter (n + m) deriv (U n)) x / (2 ^ n * INR (fact n)).

Lemma P_scale_pos : forall n, 0 < 2 ^ n * INR (fact n).
Proof. intros. apply Rmult_lt_0_compat; [apply pow_lt; lra | apply lt_0_INR, lt_O_fact]. Qed.
Lemma P_eval : forall n m x, eval (D (n + m)%nat (U n)) x = 2 ^ n * INR (fact n) * P n m x.
Proof. intros. unfold P. field. pose proof (P_scale_pos n) as H. split; intros C; rewrite C in H; lra. Qed.

(** P n (m+1) is the derivative of P n m *)
Theorem P_derivative : forall n m x, derivable_pt_lim (P n m) x (P n (S m) x).
Proof.
  intros n m x. unfold P at 2. rewrite Nat.add_succ_r. unfold Rdiv. rewrite Rmult_comm.
  apply derivable_ext with (fun x => / (2 ^ n * INR (fact n)) * eval (D (n + m)%nat (U n)) x); [intros; unfold P, Rdiv; ring|].
  apply (derivable_pt_lim_scal (eval (D (n + m)%nat (U n)))). apply eval_deriv.
Qed.

Lemma U_deriv : forall n, peq (deriv (U (S n))) (pscale (2 * INR (S n)) (0 :: U n)).
Proof.
  intros n x. rewrite eval_pscale. cbn [eval]. rewrite U_eval.
  apply (uniqueness_limite (eval (U (S n))) x); [apply eval_deriv|].
  apply derivable_ext with (fun x => (fun y => y ^ S n) (x * x - 1)); [intros; rewrite U_eval; reflexivity|].
  replace (2 * INR (S n) * (0 + x * (x * x - 1) ^ n)) with (INR (S n) * (x * x - 1) ^ pred (S n) * (1 * x + x * 1 - 0)) by (cbn [pred]; ring).
  apply (derivable_pt_lim_comp (fun x => x * x - 1) (fun y => y ^ S n)).
  - apply (derivable_pt_lim_minus (fun x => x * x) (fun _ => 1)); [|apply derivable_pt_lim_const].
    apply (derivable_pt_lim_mult id id); apply derivable_pt_lim_id.
  - apply derivable_pt_lim_pow.
Qed.
Lemma U_deriv2 : forall n, peq (deriv (deriv (U (S (S n))))) (padd (pscale (2 * INR (S (S n)) * (2 * INR (S n) + 1)) (U (S n))) (pscale (4 * INR (S n) * INR (S (S n))) (U n))).
Proof.
  intros n x. rewrite (deriv_peq _ _ (U_deriv (S n)) x), (deriv_pscale _ _ x), eval_padd, !eval_pscale.
  cbn [deriv]. rewrite eval_padd. cbn [eval]. rewrite (U_deriv n x), eval_pscale. cbn [eval]. rewrite !U_eval. cbn [pow]. ring.
Qed.

Lemma fact_S_INR : forall n, INR (fact (S n)) = INR (S n) * INR (fact n).
Proof. intros. rewrite <- mult_INR. f_equal. Qed.
Lemma INR_S_neq : forall n, INR (S n) <> 0. Proof. intros. apply not_0_INR. lia. Qed.
Lemma INR_fact : forall n, INR (fact n) <> 0. Proof. intros. apply not_0_INR, fact_neq_0. Qed.
Lemma pow2_neq : forall n, 2 ^ n <> 0. Proof. intros. apply pow_nonzero. lra. Qed.

(** P'_{n+1} = x P'_n + (n+1) P_n and its derivatives *)
Theorem P_up : forall n m x, P (S n) (S m) x = x * P n (S m) x + INR (n + m + 1) * P n m x.
Proof.
  intros n m x. pose proof (INR_S_neq n) as H1. pose proof (INR_fact n) as H2. pose proof (pow2_neq n) as H3.
  assert (E: eval (D (S n + S m)%nat (U (S n))) x = 2 * INR (S n) * (x * eval (D (n + S m)%nat (U n)) x + INR (n + m + 1) * eval (D (n + m)%nat (U n)) x)).
  { replace (S n + S m)%nat with (S (S (n + m))) by lia. rewrite D_S'. rewrite (D_peq _ _ _ (U_deriv n) x), (D_pscale _ _ _ x), eval_pscale, D_mulx.
    replace (n + S m)%nat with (S (n + m)) by lia. replace (n + m + 1)%nat with (S (n + m)) by lia. reflexivity. }
  rewrite !P_eval in E. rewrite fact_S_INR in E. cbn [pow] in E.
  apply Rmult_eq_reg_l with (2 * 2 ^ n * (INR (S n) * INR (fact n))); [|repeat apply Rmult_integral_contrapositive_currified; auto; lra].
  rewrite E. ring.
Qed.
(** P'_{n+1} = (2n+1) P_n + P'_{n-1} and its derivatives *)
Theorem P_step : forall n m x, P (S (S n)) (S m) x = (2 * INR (S n) + 1) * P (S n) m x + P n (S m) x.
Proof.
  intros n m x. pose proof (INR_S_neq n) as H1. pose proof (INR_S_neq (S n)) as H4. pose proof (INR_fact n) as H2. pose proof (pow2_neq n) as H3.
  assert (E: eval (D (S (S n) + S m)%nat (U (S (S n)))) x =
     2 * INR (S (S n)) * (2 * INR (S n) + 1) * eval (D (S n + m)%nat (U (S n))) x + 4 * INR (S n) * INR (S (S n)) * eval (D (n + S m)%nat (U n)) x).
  { replace (S (S n) + S m)%nat with (S (S (S n + m))) by lia. rewrite !D_S'. rewrite (D_peq _ _ _ (U_deriv2 n) x), (D_padd _ _ _ x), eval_padd, (D_pscale _ _ _ x), (D_pscale _ _ (U n) x), !eval_pscale.
    replace (n + S m)%nat with (S n + m)%nat by lia. reflexivity. }
  rewrite !P_eval, !fact_S_INR in E. cbn [pow] in E.
  apply Rmult_eq_reg_l with (2 * (2 * 2 ^ n) * (INR (S (S n)) * (INR (S n) * INR (fact n)))); [|repeat apply Rmult_integral_contrapositive_currified; auto; lra].
  rewrite E. ring.
Qed.

Lemma P_0_0 : forall x, P 0 0 x = 1.
Proof. intros. unfold P. cbn. field. Qed.
Lemma P_0_S : forall m x, P 0 (S m) x = 0.
Proof.
  intros. unfold P. cbn [Nat.add]. rewrite D_S'. cbn [U deriv padd].
  assert (E: forall k x, eval (Nat.iter k deriv [0]) x = 0).
  { induction k; intros y; [cbn; ring|]. rewrite D_S'. cbn [deriv padd]. apply IHk. }
  rewrite E. unfold Rdiv. ring.
Qed.
Lemma P_1_0 : forall x, P 1 0 x = x.
Proof. intros. unfold P. cbn. field. Qed.

(** Bonnet's recursion *)
Theorem P_bonnet : forall n x, INR (n + 2) * P (S (S n)) 0 x = (2 * INR (S n) + 1) * x * P (S n) 0 x - INR (S n) * P n 0 x.
Proof.
  intros n x. pose proof (INR_S_neq n) as H1. pose proof (INR_S_neq (S n)) as H4. pose proof (INR_fact n) as H2. pose proof (pow2_neq n) as H3.
  assert (E1: eval (D (S (S n) + 0)%nat (U (S (S n)))) x = 2 * INR (S (S n)) * (x * eval (D (S n + 0)%nat (U (S n))) x + INR (S n) * eval (D n (U (S n))) x)).
  { rewrite !Nat.add_0_r. rewrite (D_S' (S n)). rewrite (D_peq _ _ _ (U_deriv (S n)) x), (D_pscale _ _ _ x), eval_pscale, D_mulx. reflexivity. }
  assert (E2: eval (D (S (S n) + 0)%nat (U (S (S n)))) x = 2 * INR (S (S n)) * (2 * INR (S n) + 1) * eval (D n (U (S n))) x + 4 * INR (S n) * INR (S (S n)) * eval (D (n + 0)%nat (U n)) x).
  { rewrite !Nat.add_0_r. rewrite !D_S'. rewrite (D_peq _ _ _ (U_deriv2 n) x), (D_padd _ _ _ x), eval_padd, (D_pscale _ _ _ x), (D_pscale _ _ (U n) x), !eval_pscale. reflexivity. }
  rewrite !P_eval, !fact_S_INR in E1, E2. cbn [pow] in E1, E2. set (w := eval (D n (U (S n))) x) in *.
  replace (INR (n + 2)) with (INR (S (S n))) by (f_equal; lia).
  rewrite S_INR in *. set (k := INR (S n)) in *. set (A := P (S (S n)) 0 x) in *. set (B := P (S n) 0 x) in *. set (C := P n 0 x) in *. set (t := 2 ^ n) in *. set (f := INR (fact n)) in *.
  assert (K0: 0 < k) by (apply lt_0_INR; lia).
  assert (F1: 2 * t * k * f * A = x * (2 * t * k * f) * B + k * w).
  { apply Rmult_eq_reg_l with (2 * (k + 1)); [|lra]. transitivity (2 * (2 * t) * ((k + 1) * (k * f)) * A); [ring|]. rewrite E1. ring. }
  assert (F2: 2 * t * k * f * A = (2 * k + 1) * w + 2 * k * (t * f) * C).
  { apply Rmult_eq_reg_l with (2 * (k + 1)); [|lra]. transitivity (2 * (2 * t) * ((k + 1) * (k * f)) * A); [ring|]. rewrite E2. ring. }
  apply Rmult_eq_reg_l with (2 * t * k * f). 2:{ repeat apply Rmult_integral_contrapositive_currified; auto; lra. }
  assert (G: (2 * k + 1) * (2 * t * k * f * A) = (2 * k + 1) * (x * (2 * t * k * f) * B) + k * (2 * t * k * f * A - 2 * k * (t * f) * C)) by (rewrite F2 at 2; rewrite F1; ring).
  lra.
Qed.

(** (n+1-m) P_{n+1}^{(m)} = (2n+1) x P_n^{(m)} - (n+m) P_{n-1}^{(m)} *)
Theorem P_recursion : forall n m x,
  (INR n + 2 - INR m) * P (S (S n)) m x = (2 * INR n + 3) * x * P (S n) m x - (INR n + 1 + INR m) * P n m x.
Proof.
  intros n m x. destruct m as [|m].
  - pose proof (P_bonnet n x) as H. rewrite plus_INR, (S_INR n) in H. cbn [INR] in *. lra.
  - pose proof (P_up (S n) m x) as A. pose proof (P_step n m x) as B.
    rewrite !plus_INR, (S_INR n) in A. rewrite (S_INR n) in B. rewrite (S_INR m). cbn [INR] in *.
    set (a := P (S (S n)) (S m) x) in *. set (b := P (S n) (S m) x) in *. set (c := P n (S m) x) in *. set (q := P (S n) m x) in *. set (k := INR n) in *. set (j := INR m) in *.
    assert (G: (2 * (k + 1) + 1) * a = (2 * (k + 1) + 1) * (x * b) + (k + 1 + j + 1) * (a - c)) by (rewrite B at 2; rewrite A; ring).
    lra.
Qed.
(** (x^2-1) P_n^{(m+1)} = (n-m) x P_n^{(m)} - (n+m) P_{n-1}^{(m)} *)
Theorem P_diff : forall n m x,
  (x * x - 1) * P (S n) (S m) x = (INR n + 1 - INR m) * x * P (S n) m x - (INR n + 1 + INR m) * P n m x.
Proof.
  intros n m x. pose proof (P_up (S n) m x) as A1. pose proof (P_up n m x) as A0. pose proof (P_step n m x) as B.
  rewrite !plus_INR, (S_INR n) in A1. rewrite !plus_INR in A0. rewrite (S_INR n) in B. cbn [INR] in *.
  set (a := P (S (S n)) (S m) x) in *. set (b := P (S n) (S m) x) in *. set (c := P n (S m) x) in *. set (q := P (S n) m x) in *. set (r := P n m x) in *. set (k := INR n) in *. set (j := INR m) in *.
  assert (C: (k + 1 - j) * q = x * b - c) by lra.
  replace ((k + 1 - j) * x * q) with (x * ((k + 1 - j) * q)) by ring. rewrite C. rewrite A0. ring.
Qed.

(** degree *)
Theorem P_high : forall n m x, (n < m)%nat -> P n m x = 0.
Proof.
  induction n; intros m x H; destruct m; try lia; [apply P_0_S|]. rewrite P_up, !IHn by lia. ring.
Qed.
Theorem P_diag : forall n x, 2 ^ n * INR (fact n) * P n n x = INR (fact (2 * n)).
Proof.
  induction n; intros x; [rewrite P_0_0; cbn; ring|].
  rewrite P_up, (P_high n (S n)), fact_S_INR by lia. replace (2 * S n)%nat with (S (S (2 * n))) by lia.
  rewrite !fact_S_INR, <- (IHn x). cbn [pow]. replace (n + n + 1)%nat with (S (2 * n)) by lia. rewrite (S_INR (S (2 * n))), !S_INR, mult_INR. cbn [INR]. ring.
Qed.
(** parity *)
Theorem P_parity : forall n m x, P n m (- x) = (-1) ^ (n + m) * P n m x.
Proof.
  assert (G: forall n m x, P n m (- x) = (-1) ^ (n + m) * P n m x /\ P (S n) m (- x) = (-1) ^ (S n + m) * P (S n) m x).
  { induction n; intros m x.
    - split.
      + destruct m; [rewrite !P_0_0; cbn; ring | rewrite !P_0_S; ring].
      + destruct m as [|[|m]].
        * rewrite !P_1_0. cbn. ring.
        * rewrite !P_up, !P_0_0, !P_0_S. cbn [Nat.add INR pow]. ring.
        * rewrite !(P_high 1) by lia. ring.
    - destruct (IHn m x) as (_ & A). split; auto. destruct m as [|m].
      + destruct (IHn 0%nat x) as (A0 & A1). pose proof (P_bonnet n x) as E. pose proof (P_bonnet n (- x)) as E'.
        rewrite A0, A1 in E'. apply Rmult_eq_reg_l with (INR (n + 2)). 2:{ apply not_0_INR. lia. }
        rewrite E'. transitivity ((-1) ^ (S (S n) + 0) * (INR (n + 2) * P (S (S n)) 0 x)); [|ring]. rewrite E, !Nat.add_0_r. cbn [pow]. ring.
      + destruct (IHn m x) as (_ & A1). destruct (IHn (S m) x) as (A0 & _). rewrite !P_step, A1, A0.
        replace (S (S n) + S m)%nat with (S (S (S n + m))) by lia. replace (n + S m)%nat with (S n + m)%nat by lia. cbn [pow]. ring. }
  intros. apply G.
Qed.
Theorem P_at_1 : forall n, P n 0 1 = 1.
Proof.
  assert (G: forall n, P n 0 1 = 1 /\ P (S n) 0 1 = 1).
  { induction n as [|n (A & B)]; [rewrite P_0_0, P_1_0; auto|]. split; auto. pose proof (P_bonnet n 1) as E. rewrite A, B in E.
    rewrite plus_INR, (S_INR n) in E. cbn [INR] in E. pose proof (pos_INR n).
    apply Rmult_eq_reg_l with (INR n + (1 + 1)); lra. }
  intros. apply G.
Qed.
Theorem P1_at_1 : forall n, 2 * P n 1 1 = INR n * (INR n + 1).
Proof.
  induction n; [rewrite P_0_S; cbn; ring|].
  rewrite P_up, P_at_1, Nat.add_0_r, plus_INR, (S_INR n). cbn [INR]. lra.
Qed.
Theorem P_odd_at_0 : forall n, P (2 * n + 1) 0 0 = 0.
Proof.
  intros n. pose proof (P_parity (2 * n + 1) 0 0) as H. rewrite Ropp_0, Nat.add_0_r, pow_add, pow_mult in H.
  replace ((-1) ^ 2) with 1 in H by (cbn; ring). rewrite pow1 in H. cbn [pow] in H. lra.
Qed.
Theorem P_even_at_0 : forall n, P (2 * (n + 1)) 0 0 = - (2 * INR n + 1) / (2 * INR n + 2) * P (2 * n) 0 0.
Proof.
  intros n. pose proof (P_bonnet (2 * n) 0) as E. replace (2 * (n + 1))%nat with (S (S (2 * n))) by lia.
  rewrite plus_INR, (S_INR (2 * n)), mult_INR in E. cbn [INR] in E. pose proof (pos_INR n).
  apply Rmult_eq_reg_l with ((1 + 1) * INR n + (1 + 1)); [|lra]. rewrite E. field. lra.
Qed.
