(** The Legendre polynomial of degree n has n different roots in (-1,1), so that exact Gauss rules exist for every order.
    Specification side: nothing here is taken from the code. *)
From Coq Require Import List Arith Lia Bool Reals Lra.
From Coquelicot Require Import Coquelicot.
From Verif Require Import Legendre GaussExact Props_quad.
Import ListNotations.
Local Open Scope R_scope.

Fixpoint chain (a : R) (l : list R) : Prop := match l with [] => True | b :: t => a < b /\ chain b t end.
Lemma chain_lt : forall l a x, chain a l -> In x l -> a < x.
Proof. induction l as [|b l IH]; intros a x C I; [destruct I|]. destruct C as (C1 & C2). destruct I as [<- | I]; auto. pose proof (IH b x C2 I). lra. Qed.
Lemma chain_NoDup : forall l a, chain a l -> NoDup l.
Proof. induction l as [|b l IH]; intros a C; constructor; destruct C as (C1 & C2); [|eapply IH; eauto]. intros I. pose proof (chain_lt _ _ _ C2 I). lra. Qed.
Lemma chain_weaken : forall l a b, a <= b -> chain b l -> chain a l.
Proof. intros [|c l] a b H C; cbn in *; auto. destruct C. split; auto. lra. Qed.
Lemma rolle : forall p a b, a < b -> eval p a = 0 -> eval p b = 0 -> exists c, a < c < b /\ eval (deriv p) c = 0.
Proof.
  intros p a b H A B. destruct (MVT_cor2 (eval p) (eval (deriv p)) a b H) as (c & E & C); [intros; apply eval_deriv|]. exists c. split; auto.
  rewrite A, B in E. destruct (Rmult_integral (eval (deriv p) c) (b - a)); auto; lra.
Qed.
Lemma rolle_chain : forall p l a, chain a l -> eval p a = 0 -> List.Forall (fun x => eval p x = 0) l ->
  exists l', length l' = length l /\ chain a l' /\ List.Forall (fun x => eval (deriv p) x = 0) l' /\ List.Forall (fun x => x < last l a) l'.
Proof.
  intros p. induction l as [|b l IH]; intros a C A F; [exists []; auto|]. destruct C as (C1 & C2). inversion F as [|? ? B F']; subst.
  destruct (rolle p a b C1 A B) as (c & Hc & Ec). destruct (IH b C2 B F') as (l' & L1 & L2 & L3 & L4). exists (c :: l'). cbn [length]. split; [auto|]. split; [|split].
  - split; [lra|]. apply chain_weaken with b; auto. lra.
  - constructor; auto.
  - assert (La: last (b :: l) a = last l b). { clear. revert b. induction l as [|d l IH]; intros b; [auto|]. change (last (b :: d :: l) a) with (last (d :: l) a). rewrite IH. clear. destruct l; auto. cbn. revert r. induction l; intros; cbn; auto. }
    rewrite La. constructor; auto.
    assert (b <= last l b). { clear - C2. revert b C2. induction l as [|d l IH]; intros b C; [cbn; lra|]. destruct C as (C & D). specialize (IH d D). assert (last (d :: l) b = last l d). { clear. revert b d. induction l as [|e l IH]; intros b d; [auto|]. change (last (d :: e :: l) b) with (last (e :: l) b). rewrite !(IH _ e). auto. } lra. }
    lra.
Qed.
(** the derivatives of (x^2-1)^n of order below n vanish at -1 and 1 *)
Lemma vanish : forall n k x, (k < n)%nat -> x * x = 1 -> eval (D k (U n)) x = 0.
Proof.
  induction n as [|n IH]; intros k x H X; [lia|]. destruct k as [|k].
  - change (D 0 (U (S n))) with (U (S n)). rewrite U_eval, X. cbn [pow]. ring.
  - rewrite D_S', (D_peq _ _ _ (U_deriv n) x), (D_pscale _ _ _ x), eval_pscale. destruct k as [|k].
    + change (D 0 (0 :: U n)) with (0 :: U n). cbn [eval]. rewrite U_eval, X. destruct n as [|n]; [lia|]. cbn [pow]. ring.
    + rewrite D_mulx, !IH by (auto; lia). ring.
Qed.
Lemma chain_app : forall l a, chain a l -> a < 1 -> List.Forall (fun x => x < 1) l -> chain a (l ++ [1]).
Proof. induction l as [|b l IH]; intros a C A F; cbn; [auto|]. destruct C. inversion F; subst. split; auto. Qed.
Lemma derivative_roots : forall n k, (k <= n)%nat -> exists l, length l = k /\ chain (-1) l /\ List.Forall (fun x => x < 1) l /\ List.Forall (fun x => eval (D k (U n)) x = 0) l.
Proof.
  intros n. induction k as [|k IH]; intros H; [exists []; cbn; auto|]. destruct (IH ltac:(lia)) as (l & L1 & L2 & L3 & L4).
  destruct (rolle_chain (D k (U n)) (l ++ [1]) (-1)) as (l' & M1 & M2 & M3 & M4).
  - apply chain_app; auto; lra.
  - apply vanish; [lia | lra].
  - apply Forall_app. split; auto. constructor; auto. apply vanish; [lia | lra].
  - exists l'. rewrite M1, app_length, L1. cbn [length]. split; [lia|]. split; auto. rewrite last_last in M4. split; auto.
Qed.
(** all n roots *)
Theorem legendre_roots : forall n, exists l, length l = n /\ NoDup l /\ (forall x, In x l -> -1 < x < 1 /\ P n 0 x = 0) /\
  ((1 <= n)%nat -> forall x, P n 0 x = 0 -> In x l).
Proof.
  intros n. destruct (derivative_roots n n (Nat.le_refl n)) as (l & L1 & L2 & L3 & L4). assert (ND: NoDup l) by (eapply chain_NoDup; eauto). exists l. split; auto. split; auto. rewrite Forall_forall in L3, L4.
  assert (R: forall x, In x l -> -1 < x < 1 /\ P n 0 x = 0).
  { intros x I. split; [split; [eapply chain_lt; eauto | auto]|]. unfold P. rewrite Nat.add_0_r, (L4 x I). unfold Rdiv. ring. }
  split; auto. intros Hn x X. destruct (in_dec Req_EM_T x l) as [I | I]; auto. exfalso.
  destruct (polyf_P n) as (p & Hp & E). assert (Z: forall y, eval p y = 0). { apply (too_many_roots (x :: l)); [constructor; auto | | cbn [length]; lia]. intros r [<- | Ir]; rewrite <- E; auto. apply R; auto. }
  pose proof (P_at_1 n) as One. rewrite E, Z in One. lra.
Qed.
(** a rule with the points x i and weights w i on [a,b] is exact for all polynomials with at most 2n coefficients *)
Definition exact (n : nat) (x w : nat -> R) (a b : R) : Prop := forall p, (length p <= 2 * n)%nat -> is_RInt (eval p) a b (quad n x w (eval p)).
Theorem exact_rule_exists : forall n a b, (1 <= n)%nat -> exists x w, exact n x w a b /\
  (forall i, (i < n)%nat -> exists r, P n 0 r = 0 /\ x i = (b - a) / 2 * r + (a + b) / 2 /\ w i = (b - a) / 2 * gauss_weight n r).
Proof.
  intros [|n] a b H; [lia|]. destruct (legendre_roots (S n)) as (l & L1 & L2 & L3 & _).
  exists (fun i => (b - a) / 2 * nth i l 0 + (a + b) / 2), (fun i => (b - a) / 2 * gauss_weight (S n) (nth i l 0)). split.
  - unfold exact. apply (C32_exactness_carries_over (S n) (fun i => nth i l 0) (fun i => gauss_weight (S n) (nth i l 0)) (2 * S n) a b); [|auto].
    intros p Hp. rewrite (quad_lsum (S n) (fun i => nth i l 0) _ (eval p) (gauss_weight (S n))) by auto.
    assert (M: map (fun i => nth i l 0) (seq 0 (S n)) = l). { rewrite <- L1. clear. induction l as [|r l IH]; [auto|]. cbn [length seq map nth]. f_equal. rewrite <- seq_shift, map_map. exact IH. }
    rewrite M. apply gauss_exact; auto. intros y Iy. apply L3; auto.
  - intros i Hi. exists (nth i l 0). split; [|auto]. apply L3. apply nth_In. lia.
Qed.
