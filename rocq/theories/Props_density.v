(** C80, C81: orientation distributions given by a density. *)
From Coq Require Import List Arith Lia Bool Reals Lra.
From Coquelicot Require Import Coquelicot.
From Verif Require Import Legendre Quadrature GaussExact Props_quad GaussRoots GaussBounds Wigner Orientation Ortho Adaptive Props_adaptive Density Interp Bands.
Import ListNotations.
Local Open Scope R_scope.

(* ================================================================ Legendre values *)
Lemma w0_values : forall k n j c si, (j < k)%nat -> fst (nth j (w0_loop k n c si (P n 0 c) (P (S n) 0 c)) (0, 0)) = P (S n + j) 0 c.
Proof.
  induction k; intros n j c si H; [lia|]. cbn [w0_loop]. destruct j as [|j]; [cbn [nth fst]; rewrite Nat.add_0_r; reflexivity|]. cbn [nth].
  replace (((2 * (INR n + 1) + 1) * c * P (S n) 0 c - (INR n + 1) * P n 0 c) / (INR n + 2)) with (P (S (S n)) 0 c).
  - rewrite IHk by lia. f_equal. lia.
  - pose proof (P_bonnet n c) as B. rewrite plus_INR in B. change (INR 2) with (1 + 1) in B. rewrite S_INR in B. pose proof (pos_INR n).
    apply Rmult_eq_reg_l with (INR n + 2); [|lra]. transitivity ((2 * (INR n + 1) + 1) * c * P (S n) 0 c - (INR n + 1) * P n 0 c); [rewrite <- B; ring | field; lra].
Qed.
Lemma wigner_values : forall k nmax c, (k < nmax)%nat -> fst (nth k (wigner_dn_0m c nmax 0) (0, 0)) = P (S k) 0 c.
Proof.
  intros k nmax c H. unfold wigner_dn_0m. cbn [wigner_core]. pose proof (w0_values nmax 0 k c (1 / sqrt ((1 - c) * (1 + c))) H) as W.
  rewrite P_0_0, P_1_0 in W. exact W.
Qed.
Lemma wigner_d_n_P : forall n c, wigner_d_n n c = P n 0 c.
Proof. intros [|k] c; cbn [wigner_d_n]; [rewrite P_0_0; auto|]. apply wigner_values. lia. Qed.

(* ================================================================ C80 *)
(** The value of the rule of the first order n with start <= n < maximum which agrees with the order before it (the first order: with 0) to within
    da or dr, or of the last of these orders if there is none (C71) *)
Definition first_settled rule (f : R -> R) da dr start maximum (v : R) : Prop :=
  exists n, (start <= n < maximum)%nat /\ value rule f n v /\ (forall k, (start <= k < n)%nat -> ~ settled rule f da dr start k) /\
    (settled rule f da dr start n \/ n = maximum - 1)%nat.
Lemma glq_settled : forall rule f start maximum da dr v warned, 0 <= da -> 0 <= dr -> (start < maximum)%nat ->
  gauss_legendre_quadrature rule f start maximum da dr = Some (v, warned) -> first_settled rule f da dr start maximum v.
Proof. intros rule f start maximum da dr v warned Ha Hr L E. destruct (C71_result _ _ _ _ _ _ _ _ Ha Hr L E) as (n & A & B & C & D & _). exists n. auto. Qed.

Lemma value_ext : forall rule f g n q, (forall b, f b = g b) -> value rule f n q -> value rule g n q.
Proof. intros rule f g n q H (x & w & A & B). exists x, w. split; auto. rewrite B. clear B A. induction n; cbn [quad]; auto. rewrite IHn, H. auto. Qed.
Lemma settled_ext : forall rule f g da dr s n, (forall b, f b = g b) -> settled rule f da dr s n -> settled rule g da dr s n.
Proof.
  intros rule f g da dr s n H (p & q & A & B & C). exists p, q. split; [|split; auto; eapply value_ext; eauto].
  destruct A as [A | (A & A')]; [left; auto | right; split; auto; eapply value_ext; eauto].
Qed.
Lemma first_settled_ext : forall rule f g da dr s m v, (forall b, f b = g b) -> first_settled rule f da dr s m v -> first_settled rule g da dr s m v.
Proof.
  intros rule f g da dr s m v H (n & A & B & C & D). exists n. split; auto. split; [eapply value_ext; eauto|]. split; [|destruct D; [left; eapply settled_ext; eauto | right; auto]].
  intros k Hk X. apply (C k Hk). eapply settled_ext; [|exact X]. auto.
Qed.

Lemma coef_loop_spec : forall k i rule f da dr nf d d', 0 <= da -> 0 <= dr -> coef_loop k i rule f da dr nf d = Some d' ->
  size d' = size d /\ align d' = align d /\ (forall n, (n < i)%nat -> coef d' n = coef d n) /\
  (forall n, (i <= n < i + k)%nat -> exists w, gauss_legendre_quadrature rule (integrand f nf n) (2 * (n + 1)) (100 * (n + 1)) da dr = Some (coef d' n, w)).
Proof.
  induction k; intros i rule f da dr nf d d' Ha Hr E; cbn [coef_loop] in E; [injection E as <-; repeat split; auto; intros; lia|].
  destruct (gauss_legendre_quadrature _ _ _ _ _ _) as [(v & w) |] eqn:Q; [|discriminate].
  destruct (IHk _ _ _ _ _ _ _ _ Ha Hr E) as (A & B & C & D). split; [rewrite A; reflexivity|]. split; [rewrite B; reflexivity|]. split.
  - intros n Hn. rewrite C by lia. unfold setc, aset. cbn [coef]. destruct (Nat.eqb_spec n i); auto; lia.
  - intros n Hn. destruct (Nat.eq_dec n i) as [-> | N]; [|apply D; lia]. exists w. rewrite C by lia. unfold setc, aset. cbn [coef]. rewrite Nat.eqb_refl. exact Q.
Qed.
Lemma initialise_made : forall rule f da dr nmax o, 0 <= da -> 0 <= dr -> initialise rule f da dr nmax = Made o ->
  exists norm w, norm <> 0 /\ factor o = / norm /\ gauss_legendre_quadrature rule (normalisation_integrand f) 100 1000 da dr = Some (norm, w) /\
    size (dist o) = (nmax + 1)%nat /\ align (dist o) = true /\ coef (dist o) 0 = 1 /\
    forall n, (1 <= n <= nmax)%nat -> exists w, gauss_legendre_quadrature rule (integrand f (factor o) n) (2 * (n + 1)) (100 * (n + 1)) da dr = Some (coef (dist o) n, w).
Proof.
  intros rule f da dr nmax o Ha Hr E. unfold initialise in E. destruct (gauss_legendre_quadrature rule (normalisation_integrand f) 100 1000 da dr) as [(norm & w) |] eqn:Q; [|discriminate].
  destruct (Req_EM_T norm 0) as [|N]; [discriminate|]. cbv zeta in E. destruct (coef_loop _ _ _ _ _ _ _ _) as [d |] eqn:L; [|discriminate]. injection E as <-.
  destruct (coef_loop_spec _ _ _ _ _ _ _ _ _ Ha Hr L) as (A & B & C & D). exists norm, w. cbn [factor dist]. split; auto. split; [unfold Rdiv; ring|]. split; auto.
  split; [rewrite A; reflexivity|]. split; [rewrite B; reflexivity|]. split; [rewrite C by lia; reflexivity|]. intros n Hn. apply D. cbn [size setc zeros]. lia.
Qed.

(** The density of the object, without the normalisation, times the area element *)
Definition weighted (f : pdf) (b : R) : R := sin b * f b (cos b) (sin b).

(** What initialise leaves: the first coefficient is 1, coefficient n is the quadrature of sin(beta) p(beta) P_n(cos beta), where p is the density
    normalised by the quadrature of sin(beta) p(beta), each with the first order which agrees with the order before it. *)
Theorem C80_coefficients : forall rule f da dr nmax o, 0 <= da -> 0 <= dr -> initialise rule f da dr nmax = Made o ->
  size (dist o) = (nmax + 1)%nat /\ align (dist o) = true /\ coef (dist o) 0 = 1 /\
  (exists norm, norm <> 0 /\ first_settled rule (weighted f) da dr 100 1000 norm /\ forall b, density f o b = f b (cos b) (sin b) / norm) /\
  forall n, (1 <= n <= nmax)%nat -> first_settled rule (fun b => sin b * density f o b * P n 0 (cos b)) da dr (2 * (n + 1)) (100 * (n + 1)) (coef (dist o) n).
Proof.
  intros rule f da dr nmax o Ha Hr E. destruct (initialise_made _ _ _ _ _ _ Ha Hr E) as (norm & w & N & F & Q & A & B & C & D). split; auto. split; auto. split; auto. split.
  - exists norm. split; auto. split; [apply (glq_settled _ _ _ _ _ _ _ w) in Q; auto; lia|]. intros b. unfold density. rewrite F. field. auto.
  - intros n Hn. destruct (D n Hn) as (w' & G). apply (glq_settled _ _ _ _ _ _ _ w') in G; auto; [|lia]. eapply first_settled_ext; [|exact G].
    intros b. unfold integrand, density. cbv zeta. rewrite wigner_d_n_P. ring.
Qed.

(* ---------------------------------------------- accuracy *)
(** the rules of the given orders are the exact Gauss rules on [0, pi] *)
Definition gauss_on (rule : nat -> option arrays) (lo hi : nat) : Prop := forall n, (lo <= n < hi)%nat -> exists x w, rule n = Some (x, w) /\ gauss_rule n 0 PI x w.
Lemma settled_accuracy : forall rule g da dr start maximum v e I, (1 <= start)%nat -> gauss_on rule start maximum -> first_settled rule g da dr start maximum v ->
  near_polynomial 0 PI (2 * start) e g -> is_RInt g 0 PI I -> Rabs (v - I) <= 2 * PI * e.
Proof.
  intros rule g da dr start maximum v e I Hs G (n & N & (x & w & R & ->) & _) NP HI. destruct (G n N) as (x' & w' & R' & GR). rewrite R in R'. injection R' as <- <-.
  pose proof PI_RGT_0. replace (2 * PI * e) with (2 * (PI - 0) * e) by ring. apply (rule_accuracy n x w 0 PI g e I); auto; [lia | lra|]. eapply near_mono; [|exact NP]. lia.
Qed.

(** Accuracy with exact Gauss rules, whatever orders are accepted: the normalisation differs from the integral of sin(beta) p(beta) by at most 2 pi e
    if that function is within e of a polynomial of degree below 200; coefficient n differs from the n-th Legendre moment of the normalised density by
    at most 2 pi e if the integrand is within e of a polynomial of degree below 4 (n + 1). *)
Theorem C80_accuracy : forall rule f da dr nmax o, 0 <= da -> 0 <= dr -> initialise rule f da dr nmax = Made o -> gauss_on rule 1 (100 * (nmax + 10)) ->
  (forall e total, near_polynomial 0 PI 200 e (weighted f) -> is_RInt (weighted f) 0 PI total ->
     exists norm, norm <> 0 /\ (forall b, density f o b = f b (cos b) (sin b) / norm) /\ Rabs (norm - total) <= 2 * PI * e) /\
  (forall n e moment, (1 <= n <= nmax)%nat -> near_polynomial 0 PI (4 * (n + 1)) e (fun b => sin b * density f o b * P n 0 (cos b)) ->
     is_RInt (fun b => sin b * density f o b * P n 0 (cos b)) 0 PI moment -> Rabs (coef (dist o) n - moment) <= 2 * PI * e).
Proof.
  intros rule f da dr nmax o Ha Hr E G. destruct (C80_coefficients _ _ _ _ _ _ Ha Hr E) as (_ & _ & _ & (norm & N & FS & DE) & CO). split.
  - intros e total NP HI. exists norm. split; auto. split; auto. eapply (settled_accuracy _ _ _ _ 100 1000); eauto; [lia|]. intros n Hn. apply G. lia.
  - intros n e moment Hn NP HI. eapply (settled_accuracy _ _ _ _ (2 * (n + 1)) (100 * (n + 1))); [lia| | apply CO; auto | | exact HI].
    + intros k Hk. apply G. lia.
    + eapply near_mono; [|exact NP]. lia.
Qed.

(** It returns whenever the rules are available, unless the quadrature of the density is zero; with exact Gauss rules this cannot happen for a density
    with integral above 2 pi e. *)
Lemma coef_loop_returns : forall k i rule f da dr nf d, (forall n, (2 * (i + 1) <= n < 100 * (i + k))%nat -> rule n <> None) -> exists d', coef_loop k i rule f da dr nf d = Some d'.
Proof.
  induction k; intros i rule f da dr nf d H; cbn [coef_loop]; [eauto|].
  destruct (C71_terminates rule (integrand f nf i) (2 * (i + 1)) (100 * (i + 1)) da dr ltac:(intros; apply H; lia)) as ((v & w) & ->). apply IHk. intros. apply H. lia.
Qed.
Theorem C80_returns : forall rule f da dr nmax, (forall n, (4 <= n < 100 * (nmax + 10))%nat -> rule n <> None) -> 0 <= da -> 0 <= dr ->
  (exists o, initialise rule f da dr nmax = Made o) \/ (initialise rule f da dr nmax = DividesByZero /\ first_settled rule (weighted f) da dr 100 1000 0).
Proof.
  intros rule f da dr nmax H Ha Hr. unfold initialise. destruct (C71_terminates rule (normalisation_integrand f) 100 1000 da dr ltac:(intros; apply H; lia)) as ((v & w) & E). rewrite E.
  destruct (Req_EM_T v 0) as [-> | N].
  - right. split; auto. apply (glq_settled _ _ _ _ _ _ _ w) in E; auto; lia.
  - cbv zeta. destruct (coef_loop_returns (size (setc (zeros nmax) 0 1) - 1) 1 rule f da dr (1 / v) (setc (zeros nmax) 0 1)) as (d & ->); [|eauto].
    intros n Hn. apply H. cbn [size setc zeros] in Hn. lia.
Qed.
Theorem C80_returns_density : forall rule f da dr nmax e total, gauss_on rule 1 (100 * (nmax + 10)) -> 0 <= da -> 0 <= dr ->
  near_polynomial 0 PI 200 e (weighted f) -> is_RInt (weighted f) 0 PI total -> 2 * PI * e < total -> exists o, initialise rule f da dr nmax = Made o.
Proof.
  intros rule f da dr nmax e total G Ha Hr NP HI L. destruct (C80_returns rule f da dr nmax) as [A | (_ & Z)]; auto.
  - intros n Hn. destruct (G n ltac:(lia)) as (x & w & -> & _). discriminate.
  - exfalso. assert (B: Rabs (0 - total) <= 2 * PI * e) by (eapply (settled_accuracy rule _ da dr 100 1000); eauto; [lia|]; intros n Hn; apply G; lia).
    apply Rabs_le_between in B. lra.
Qed.

(* ---------------------------------------------- mirrored densities *)
Lemma quad_left : forall k x w f, quad (S k) x w f = w 0%nat * f (x 0%nat) + quad k (fun j => x (S j)) (fun j => w (S j)) f.
Proof. induction k; intros; [cbn; ring|]. change (quad (S (S k)) x w f) with (quad (S k) x w f + w (S k) * f (x (S k))). rewrite IHk. cbn [quad]. ring. Qed.
Lemma quad_reverse : forall n x w f, quad n x w f = quad n (fun i => x (n - 1 - i)%nat) (fun i => w (n - 1 - i)%nat) f.
Proof.
  induction n; intros x w f; [reflexivity|]. rewrite quad_left. cbn [quad]. rewrite (IHn (fun j => x (S j))). replace (S n - 1 - n)%nat with 0%nat by lia.
  rewrite Rplus_comm. f_equal. apply quad_ext. intros i Hi. replace (S n - 1 - i)%nat with (S (n - 1 - i)) by lia. auto.
Qed.
Lemma code_rule_mirror : forall fuel a b n x w, code_rule fuel a b n = Some (x, w) -> forall i, (i < n)%nat -> x (n - 1 - i)%nat = a + b - x i /\ w (n - 1 - i)%nat = w i.
Proof.
  intros fuel a b n x w E i Hi. destruct (C32_affine_image _ _ _ _ _ _ _ E) as (x0 & w0 & E0 & A). destruct (C32_symmetric _ _ _ _ _ E0 i Hi) as (S1 & S2).
  destruct (A i Hi) as (A1 & A2). destruct (A (n - 1 - i)%nat ltac:(lia)) as (B1 & B2). rewrite A1, A2, B1, B2, S1, S2. split; lra.
Qed.
Lemma odd_quad : forall n x w g, (forall i, (i < n)%nat -> x (n - 1 - i)%nat = PI - x i /\ w (n - 1 - i)%nat = w i) -> (forall b, g (PI - b) = - g b) -> quad n x w g = 0.
Proof.
  intros n x w g H O. assert (E: quad n x w g = - quad n x w g); [|lra]. rewrite quad_reverse at 1.
  rewrite (quad_ext n _ _ (fun i => PI - x i) w) by exact H. clear H. induction n; cbn [quad]; [ring|]. rewrite IHn, O. ring.
Qed.
(** A density which does not distinguish the two ends of the axis gets odd coefficients which are exactly zero, with the quadrature rules as the code
    computes them. *)
Theorem C80_mirror : forall fuel f da dr nmax o n, 0 <= da -> 0 <= dr -> initialise (code_rule fuel 0 PI) f da dr nmax = Made o ->
  (forall b, f (PI - b) (cos (PI - b)) (sin (PI - b)) = f b (cos b) (sin b)) -> (n <= nmax)%nat -> Nat.odd n = true -> coef (dist o) n = 0.
Proof.
  intros fuel f da dr nmax o n Ha Hr E M Hn On. destruct (C80_coefficients _ _ _ _ _ _ Ha Hr E) as (_ & _ & _ & _ & CO).
  assert (1 <= n)%nat by (destruct n; [discriminate | lia]). destruct (CO n ltac:(lia)) as (k & K & (x & w & R & ->) & _).
  apply odd_quad; [intros i Hi; pose proof (code_rule_mirror _ _ _ _ _ _ R i Hi) as C; rewrite Rplus_0_l in C; exact C|].
  intros b. unfold density. rewrite M. rewrite sin_PI_x. replace (cos (PI - b)) with (- cos b) by (rewrite <- Rtrigo_facts.cos_pi_minus; auto).
  rewrite P_parity, Nat.add_0_r. apply Nat.odd_spec in On. destruct On as (q & ->). rewrite pow_add, pow_mult. replace ((-1) ^ 2) with 1 by ring. rewrite pow1. ring.
Qed.
(** A copy has the same coefficients, but always aligns and has density zero everywhere. *)
Theorem C80_copy : forall o n, size (dist (copied o)) = size (dist o) /\ coef (dist (copied o)) n = coef (dist o) n.
Proof. auto. Qed.
Theorem C80_copy_density_refuted : forall f o b, density f (copied o) b = 0.
Proof. intros. unfold density, copied. cbn [factor]. ring. Qed.

(* ---------------------------------------------- the uniform density *)
Lemma polyf_pow : forall k, polyf (S k) (fun x => x ^ k).
Proof.
  induction k as [|k (p & L & E)]; [exists [1]; split; [cbn; lia | intros; cbn [eval pow]; ring]|].
  exists (0 :: p). split; [cbn [length]; lia|]. intros x. cbn [eval pow]. rewrite E. ring.
Qed.
Lemma polyf_sin_approx : forall n, polyf (2 * n + 2) (fun x => sin_approx x n).
Proof.
  induction n as [|n IH].
  - apply polyf_ext with (fun x => 1 * x ^ 1); [apply polyf_le with 2%nat; [apply polyf_scal, (polyf_pow 1) | lia]|]. intros x. unfold sin_approx, sin_term. cbn. field.
  - apply polyf_ext with (fun x => sin_approx x n + ((-1) ^ S n / INR (fact (2 * S n + 1))) * x ^ (2 * S n + 1)).
    + apply polyf_add; [apply polyf_le with (2 * n + 2)%nat; [auto | lia]|]. apply polyf_scal. apply polyf_le with (S (2 * S n + 1)); [apply polyf_pow | lia].
    + intros x. unfold sin_approx. rewrite tech5. f_equal. unfold sin_term, Rdiv. ring.
Qed.
Lemma power_factorial : forall j, 4 ^ (7 + j) / INR (fact (7 + j)) <= 4 / 2 ^ j.
Proof.
  induction j as [|j IH].
  - replace (INR (fact (7 + 0))) with 5040 by (cbn; lra). cbn [pow Nat.add]. lra.
  - replace (7 + S j)%nat with (S (7 + j)) by lia. rewrite fact_simpl, mult_INR, <- !tech_pow_Rmult. pose proof (INR_fact_lt_0 (7 + j)). pose proof (pow_lt 2 j ltac:(lra)).
    assert (8 <= INR (S (7 + j))) by (replace 8 with (INR 8) by (cbn; lra); apply le_INR; lia).
    replace (4 * 4 ^ (7 + j) / (INR (S (7 + j)) * INR (fact (7 + j)))) with (4 / INR (S (7 + j)) * (4 ^ (7 + j) / INR (fact (7 + j)))) by (field; split; lra).
    replace (4 / (2 * 2 ^ j)) with (1 / 2 * (4 / 2 ^ j)) by (field; lra).
    assert (0 <= 4 ^ (7 + j) / INR (fact (7 + j))) by (left; apply Rdiv_lt_0_compat; auto; apply pow_lt; lra).
    apply Rmult_le_compat; auto; [apply Rdiv_le_0_compat; lra|].
    apply Rmult_le_reg_r with (INR (S (7 + j))); [lra|]. unfold Rdiv. rewrite Rmult_assoc, Rinv_l by lra. lra.
Qed.
Lemma sin_near_polynomial : near_polynomial 0 PI 200 (4 / 2 ^ 194) sin.
Proof.
  destruct (polyf_sin_approx 99) as (p & L & E). exists p. split; [lia|]. intros b Hb. rewrite <- E.
  destruct (sin_bound b 49 ltac:(lra) ltac:(lra)) as (A & B). replace (2 * 49 + 1)%nat with 99%nat in A by lia. replace (2 * (49 + 1))%nat with 100%nat in B by lia.
  assert (T: sin_approx b 100 = sin_approx b 99 + b ^ 201 / INR (fact 201)).
  { unfold sin_approx. rewrite (tech5 _ 99). f_equal. unfold sin_term. replace (2 * 100 + 1)%nat with 201%nat by lia. replace ((-1) ^ 100) with 1; [apply Rmult_1_l|]. replace 100%nat with (2 * 50)%nat by lia. rewrite pow_mult. replace ((-1) ^ 2) with 1 by ring. rewrite pow1. auto. }
  assert (Q: b ^ 201 / INR (fact 201) <= 4 / 2 ^ 194).
  { pose proof (power_factorial 194) as PF. replace (7 + 194)%nat with 201%nat in PF by lia. eapply Rle_trans; [|exact PF]. unfold Rdiv. apply Rmult_le_compat_r; [left; apply Rinv_0_lt_compat, INR_fact_lt_0|]. apply pow_incr. pose proof PI_4. lra. }
  assert (0 <= b ^ 201 / INR (fact 201)) by (apply Rdiv_le_0_compat; [apply pow_le; lra | apply INR_fact_lt_0]).
  rewrite Rabs_pos_eq by (apply Rge_le, Rge_minus, Rle_ge; exact A). rewrite T in B.
  apply Rle_trans with (b ^ 201 / INR (fact 201)); [|exact Q]. set (u := sin_approx b 99) in *. set (v := b ^ 201 / INR (fact 201)) in *. clearbody u v. lra.
Qed.
Lemma PI_upper : PI <= 16 / 5.
Proof.
  destruct (Rle_lt_dec PI (16 / 5)) as [H | H]; auto. exfalso. pose proof (sin_ge_0 (16 / 5) ltac:(lra) ltac:(lra)) as A. destruct (sin_bound (16 / 5) 1 ltac:(lra) ltac:(lra)) as (_ & B).
  assert (F3: INR (fact 3) = 6) by (cbn; lra). assert (F5: INR (fact 5) = 120) by (rewrite (fact_simpl 4), (fact_simpl 3), !mult_INR, F3; cbn; lra).
  assert (F7: INR (fact 7) = 5040) by (rewrite (fact_simpl 6), (fact_simpl 5), !mult_INR, F5; cbn; lra). assert (F9: INR (fact 9) = 362880) by (rewrite (fact_simpl 8), (fact_simpl 7), !mult_INR, F7; cbn; lra).
  change (2 * (1 + 1))%nat with 4%nat in B. unfold sin_approx, sin_term in B. cbn [sum_f_R0] in B. change (2 * 0 + 1)%nat with 1%nat in B. change (2 * 1 + 1)%nat with 3%nat in B. change (2 * 2 + 1)%nat with 5%nat in B. change (2 * 3 + 1)%nat with 7%nat in B. change (2 * 4 + 1)%nat with 9%nat in B.
  rewrite F3, F5, F7, F9 in B. replace (INR (fact 1)) with 1 in B by (cbn; lra). cbn [pow] in B. lra.
Qed.
(** the bound for the Legendre moments of sin(b), with 4 k coefficients *)
Definition tail (k : nat) : R := (INR k * PI) ^ (4 * k) * INR (fact (4 * k)) / INR (fact (8 * k)).
Lemma tail_step : forall k, (2 <= k)%nat -> tail (S k) <= / 2 * tail k.
Proof.
  intros k Hk. set (x := INR k). assert (X: 2 <= x) by (unfold x; replace 2 with (INR 2) by (cbn; lra); apply le_INR; auto). pose proof PI_RGT_0 as P0. pose proof PI_upper as P1.
  assert (E3: (INR (S k) * PI) ^ (4 * k) <= 81 * (x * PI) ^ (4 * k)).
  { replace (INR (S k) * PI) with ((1 + / x) * (x * PI)) by (rewrite S_INR; fold x; field; lra). rewrite Rpow_mult_distr. apply Rmult_le_compat_r; [apply pow_le; nra|].
    assert (E: (1 + / x) ^ k <= 3). { apply Rle_trans with (exp (/ x) ^ k); [apply pow_incr; split; [pose proof (Rinv_0_lt_compat x ltac:(lra)); lra | apply exp_ineq1_le]|].
      rewrite <- Rpower_pow by apply exp_pos. unfold Rpower. rewrite ln_exp. fold x. rewrite Rinv_r by lra. apply exp_le_3. }
    rewrite Nat.mul_comm, pow_mult. replace 81 with (3 ^ 4) by ring. apply pow_incr. split; auto. apply pow_le. pose proof (Rinv_0_lt_compat x ltac:(lra)); lra. }
  unfold tail. replace (4 * S k)%nat with (S (S (S (S (4 * k))))) by lia. replace (8 * S k)%nat with (S (S (S (S (S (S (S (S (8 * k))))))))) by lia.
  rewrite !fact_simpl, !mult_INR, !S_INR, !mult_INR. fold x. replace (INR 4) with 4 by (cbn; lra). replace (INR 8) with 8 by (cbn; lra).
  rewrite S_INR in E3. fold x in E3. set (y := x + 1) in *.
  replace ((y * PI) ^ S (S (S (S (4 * k))))) with ((y * PI) ^ 4 * (y * PI) ^ (4 * k)) by (cbn [pow]; ring).
  set (F := INR (fact (4 * k))). set (G := INR (fact (8 * k))). assert (F0: 0 < F) by apply INR_fact_lt_0. assert (G0: 0 < G) by apply INR_fact_lt_0.
  set (U := (y * PI) ^ (4 * k)) in *. set (V := (x * PI) ^ (4 * k)) in *. assert (V0: 0 < V) by (apply pow_lt; nra).
  assert (Y: y = x + 1) by reflexivity. clearbody y.
  assert (U0: 0 <= U) by (apply pow_le; rewrite Y; nra).
  set (a := (8 * x + 1) * (8 * x + 7)). set (c := (8 * x + 3) * (8 * x + 5)).
  assert (Q: (y * PI) ^ 4 * 81 * 2 <= 16 * (a * c)).
  { assert (Q1: (y * PI) ^ 4 <= (y * (16 / 5)) ^ 4). { apply pow_incr. split; [rewrite Y; nra|]. apply Rmult_le_compat_l; [rewrite Y; lra | auto]. }
    assert (Q2: 326 / 10 * (y * y) <= a) by (unfold a; rewrite Y; nra). assert (Q3: a <= c) by (unfold a, c; nra).
    assert (Q4: 326 / 10 * (y * y) * (326 / 10 * (y * y)) <= a * c) by (apply Rmult_le_compat; try lra; nra).
    replace ((y * (16 / 5)) ^ 4) with ((256 / 25) * (256 / 25) * ((y * y) * (y * y))) in Q1 by field. set (z := y * y * (y * y)) in *.
    replace (326 / 10 * (y * y) * (326 / 10 * (y * y))) with (326 / 10 * (326 / 10) * z) in Q4 by (unfold z; ring). assert (0 <= z) by (unfold z; nra). lra. }
  replace ((8 * x + 1 + 1 + 1 + 1 + 1 + 1 + 1 + 1) * ((8 * x + 1 + 1 + 1 + 1 + 1 + 1 + 1) * ((8 * x + 1 + 1 + 1 + 1 + 1 + 1) * ((8 * x + 1 + 1 + 1 + 1 + 1) * ((8 * x + 1 + 1 + 1 + 1) * ((8 * x + 1 + 1 + 1) * ((8 * x + 1 + 1) * ((8 * x + 1) * G))))))))
    with (16 * (a * c) * (((4 * x + 1) * (4 * x + 2) * (4 * x + 3) * (4 * x + 4)) * G)) by (unfold a, c; ring).
  set (w := (4 * x + 1) * (4 * x + 2) * (4 * x + 3) * (4 * x + 4)). assert (W0: 0 < w) by (unfold w; repeat apply Rmult_lt_0_compat; lra).
  replace ((y * PI) ^ 4 * U * ((4 * x + 1 + 1 + 1 + 1) * ((4 * x + 1 + 1 + 1) * ((4 * x + 1 + 1) * ((4 * x + 1) * F))))) with ((y * PI) ^ 4 * U * (w * F)) by (unfold w; ring).
  assert (AC: 0 < a * c) by (unfold a, c; repeat apply Rmult_lt_0_compat; lra). set (ac := a * c) in *. set (q := (y * PI) ^ 4) in *. assert (Q0: 0 <= q) by (apply pow_le; rewrite Y; nra).
  apply Rmult_le_reg_r with (16 * ac * (w * G)); [repeat apply Rmult_lt_0_compat; lra|].
  replace (q * U * (w * F) / (16 * ac * (w * G)) * (16 * ac * (w * G))) with (q * U * (w * F)) by (field; repeat split; lra).
  replace (/ 2 * (V * F / G) * (16 * ac * (w * G))) with (/ 2 * V * (16 * ac) * (w * F)) by (field; lra).
  apply Rmult_le_compat_r; [nra|]. apply Rle_trans with (q * (81 * V)); [apply Rmult_le_compat_l; auto|].
  replace (q * (81 * V)) with (/ 2 * V * (q * 81 * 2)) by field. apply Rmult_le_compat_l; [lra | auto].
Qed.
Lemma tail_two : tail 2 <= 1 / 180.
Proof.
  unfold tail. pose proof PI_RGT_0. pose proof PI_upper. change (4 * 2)%nat with 8%nat. change (8 * 2)%nat with 16%nat. replace (INR 2) with 2 by (cbn; lra).
  assert (A: (2 * PI) ^ 8 <= (2 * (16 / 5)) ^ 8) by (apply pow_incr; lra).
  assert (F: INR (fact 16) = 518918400 * INR (fact 8)). { rewrite (fact_simpl 15), (fact_simpl 14), (fact_simpl 13), (fact_simpl 12), (fact_simpl 11), (fact_simpl 10), (fact_simpl 9), (fact_simpl 8). rewrite !mult_INR. replace (INR 16) with 16 by (cbn; lra). replace (INR 15) with 15 by (cbn; lra). replace (INR 14) with 14 by (cbn; lra). replace (INR 13) with 13 by (cbn; lra). replace (INR 12) with 12 by (cbn; lra). replace (INR 11) with 11 by (cbn; lra). replace (INR 10) with 10 by (cbn; lra). replace (INR 9) with 9 by (cbn; lra). ring. }
  rewrite F. pose proof (INR_fact_lt_0 8) as F8. replace ((2 * PI) ^ 8 * INR (fact 8) / (518918400 * INR (fact 8))) with ((2 * PI) ^ 8 / 518918400) by (field; lra).
  apply Rmult_le_reg_r with 518918400; [lra|]. unfold Rdiv at 1. rewrite Rmult_assoc, Rinv_l by lra. lra.
Qed.
Lemma tail_bound : forall n, (1 <= n)%nat -> tail (n + 1) <= / 90 / 2 ^ n.
Proof.
  intros n H. induction H as [|n H IH]; [change (1 + 1)%nat with 2%nat; pose proof tail_two; lra|].
  replace (S n + 1)%nat with (S (n + 1)) by lia. pose proof (tail_step (n + 1) ltac:(lia)) as T. cbn [pow]. pose proof (pow_lt 2 n ltac:(lra)).
  replace (/ 90 / (2 * 2 ^ n)) with (/ 2 * (/ 90 / 2 ^ n)) by (field; lra). lra.
Qed.
Lemma band_near : forall M K A f, 0 <= A -> band K A f -> near_polynomial 0 PI M (A * (K * PI) ^ M * INR (fact M) / INR (fact (2 * M))) f.
Proof.
  intros M K A f HA (D & H1 & H2 & H3). pose proof PI_RGT_0 as P0. destruct (smooth_near D M 0 PI (A * K ^ M) H1 P0) as (p & L & E); [intros; apply H3|].
  exists p. split; auto. intros x Hx. rewrite <- H2. eapply Rle_trans; [apply E; auto|]. rewrite Rminus_0_r, Rpow_mult_distr. right. unfold Rdiv. ring.
Qed.
Lemma legendre_integral : forall n, (1 <= n)%nat -> is_RInt (fun b => sin b * P n 0 (cos b)) 0 PI 0.
Proof.
  intros n H. destruct (polyf_P n) as (p & _ & E). apply (is_RInt_by (fun b => sin b * eval p (cos b)) _ _ _ 0); [|intros; rewrite E; auto | auto].
  apply angle_integral. apply (is_RInt_by _ _ _ _ _ _ (orthogonal n 0 ltac:(lia))); auto. intros x. rewrite P_0_0, E. ring.
Qed.
Lemma sin_integral : is_RInt sin 0 PI 2.
Proof.
  apply (is_RInt_by (fun b => sin b * eval [1] (cos b)) _ _ _ 2); [|intros; cbn [eval]; ring | auto]. apply angle_integral.
  apply (is_RInt_by (fun x => P 0 0 x * P 0 0 x) _ _ _ _ _ (norm_squared 0)); [intros; rewrite P_0_0; cbn [eval]; ring | cbn [INR]; field].
Qed.
(** The distribution of the base class, used for particles without alignment: initialise returns an object whose density is 1/2 to within 2^-188 and
    whose coefficients beyond the first vanish to within 1 / (25 2^n), for every number of coefficients and all tolerances, with exact Gauss rules. *)
Theorem C80_uniform : forall rule da dr nmax, gauss_on rule 1 (100 * (nmax + 10)) -> 0 <= da -> 0 <= dr ->
  exists o, initialise rule uniform da dr nmax = Made o /\ coef (dist o) 0 = 1 /\ (forall b, Rabs (density uniform o b - 1 / 2) <= 1 / 2 ^ 188) /\
    forall n, (1 <= n <= nmax)%nat -> Rabs (coef (dist o) n) <= 1 / (25 * 2 ^ n).
Proof.
  intros rule da dr nmax G Ha Hr. pose proof PI_RGT_0 as P0. pose proof PI_upper as P1. set (t := / 2 ^ 194). assert (T0: 0 < t) by (apply Rinv_0_lt_compat, pow_lt; lra).
  assert (T1: t <= / 1024). { unfold t. replace 194%nat with (10 + 184)%nat by lia. rewrite pow_add. apply Rinv_le_contravar; [lra|]. pose proof (pow_R1_Rle 2 184 ltac:(lra)). replace (2 ^ 10) with 1024 by ring. nra. }
  assert (NP: near_polynomial 0 PI 200 (2 * t) (weighted uniform)).
  { destruct sin_near_polynomial as (p & L & E). exists (pscale (/ 2) p). split; [unfold pscale; rewrite map_length; auto|]. intros x Hx. specialize (E x Hx). rewrite eval_pscale. unfold weighted, uniform.
    replace (sin x * (5 / 10) - / 2 * eval p x) with (/ 2 * (sin x - eval p x)) by field. rewrite Rabs_mult, (Rabs_pos_eq (/ 2)) by lra. unfold Rdiv in E. fold t in E. lra. }
  assert (HI: is_RInt (weighted uniform) 0 PI 1).
  { pose proof (is_RInt_scal sin 0 PI (/ 2) 2 sin_integral) as I. unfold scal in I; cbn in I. unfold mult in I; cbn in I. apply (is_RInt_by _ _ _ _ _ _ I); [|field]. intros x. unfold weighted, uniform. field. }
  destruct (C80_returns_density rule uniform da dr nmax (2 * t) 1 G Ha Hr NP HI) as (o & E); [nra|]. exists o. split; auto.
  destruct (C80_coefficients _ _ _ _ _ _ Ha Hr E) as (_ & _ & C0 & _). split; auto.
  destruct (C80_accuracy _ _ _ _ _ _ Ha Hr E G) as (A1 & A2). destruct (A1 _ _ NP HI) as (norm & N0 & DE & NB). apply Rabs_le_between in NB.
  assert (NR: 1 - 13 * t <= norm <= 1 + 13 * t) by nra. set (d := 5 / 10 / norm). assert (DD: forall b, density uniform o b = d) by (intros; rewrite DE; reflexivity).
  assert (DN: d * norm = 1 / 2) by (unfold d; field; auto). assert (D0: 0 < d <= 51 / 100).
  { split; [apply Rmult_lt_reg_r with norm; nra|]. apply Rmult_le_reg_r with norm; [lra|]. rewrite DN. nra. }
  split.
  - intros b. rewrite DD. replace (1 / 2 ^ 188) with (64 * t). 2:{ unfold t. replace 194%nat with (6 + 188)%nat by lia. rewrite pow_add. set (v := 2 ^ 188). assert (0 < v) by (apply pow_lt; lra). clearbody v. replace (2 ^ 6) with 64 by ring. field. lra. }
    apply Rabs_le. replace (d - 1 / 2) with (d * (1 - norm)) by lra. split; nra.
  - intros n Hn. pose proof (band_near (4 * (n + 1)) (INR n + 1) 1 _ ltac:(lra) (band_legendre n)) as BN.
    assert (BN': near_polynomial 0 PI (4 * (n + 1)) (d * tail (n + 1)) (fun b => sin b * density uniform o b * P n 0 (cos b))).
    { destruct BN as (p & L & Ep). exists (pscale d p). split; [unfold pscale; rewrite map_length; auto|]. intros x Hx. specialize (Ep x Hx). rewrite eval_pscale, DD.
      replace (sin x * d * P n 0 (cos x) - d * eval p x) with (d * (sin x * P n 0 (cos x) - eval p x)) by ring. rewrite Rabs_mult, (Rabs_pos_eq d) by lra. apply Rmult_le_compat_l; [lra|].
      eapply Rle_trans; [exact Ep|]. right. unfold tail. replace (2 * (4 * (n + 1)))%nat with (8 * (n + 1))%nat by lia. rewrite plus_INR. change (INR 1) with 1. rewrite Rmult_1_l. auto. }
    assert (M0: is_RInt (fun b => sin b * density uniform o b * P n 0 (cos b)) 0 PI 0).
    { pose proof (is_RInt_scal (fun b => sin b * P n 0 (cos b)) 0 PI d 0 (legendre_integral n ltac:(lia))) as I. unfold scal in I; cbn in I. unfold mult in I; cbn in I. apply (is_RInt_by _ _ _ _ _ _ I); [|ring]. intros x. rewrite DD. ring. }
    pose proof (A2 n _ 0 Hn BN' M0) as B. rewrite Rminus_0_r in B. eapply Rle_trans; [exact B|]. pose proof (tail_bound n ltac:(lia)) as TB. pose proof (pow_lt 2 n ltac:(lra)) as Pn.
    replace (1 / (25 * 2 ^ n)) with (/ 25 * / 2 ^ n) by (field; lra). unfold Rdiv in TB. set (z := / 2 ^ n) in *. assert (0 < z) by (apply Rinv_0_lt_compat; auto).
    assert (TP: 0 <= tail (n + 1)). { unfold tail. apply Rdiv_le_0_compat; [|apply INR_fact_lt_0]. apply Rmult_le_pos; [apply pow_le; pose proof (pos_INR (n + 1)); nra | left; apply INR_fact_lt_0]. }
    set (v := tail (n + 1)) in *. assert (d * v <= 51 / 100 * (/ 90 * z)) by (apply Rmult_le_compat; lra). nra.
Qed.
(** its hypothesis is met *)
Example C80_example : exists rule o, gauss_on rule 1 1300 /\ initialise rule uniform (1 / 10 ^ 10) (1 / 10 ^ 5) 3 = Made o /\ Rabs (coef (dist o) 2) <= 1 / 100 /\ size (dist o) = 4%nat.
Proof.
  assert (EX: forall hi, exists rule, gauss_on rule 1 hi).
  { intros hi. induction hi as [|hi (rule & IH)]; [exists (fun _ => None); intros n Hn; lia|]. destruct (gauss_rule_exists hi 0 PI) as (x & w & GR).
    exists (fun n => if Nat.eqb n hi then Some (x, w) else rule n). intros n Hn. destruct (Nat.eqb_spec n hi) as [-> | N]; [exists x, w; auto | apply IH; lia]. }
  destruct (EX 1300%nat) as (rule & G). pose proof (pow_lt 10 10 ltac:(lra)). pose proof (pow_lt 10 5 ltac:(lra)).
  assert (A: 0 <= 1 / 10 ^ 10) by (apply Rdiv_le_0_compat; lra). assert (B: 0 <= 1 / 10 ^ 5) by (apply Rdiv_le_0_compat; lra).
  destruct (C80_uniform rule (1 / 10 ^ 10) (1 / 10 ^ 5) 3 G A B) as (o & E & _ & _ & C). exists rule, o. split; auto. split; auto.
  split; [|destruct (C80_coefficients _ _ _ _ _ _ A B E) as (S & _); exact S]. pose proof (C 2%nat ltac:(lia)) as C2. eapply Rle_trans; [exact C2|]. cbn [pow]. lra.
Qed.
Print Assumptions C80_coefficients.
Print Assumptions C80_accuracy.
Print Assumptions C80_returns.
Print Assumptions C80_returns_density.
Print Assumptions C80_mirror.
Print Assumptions C80_copy.
Print Assumptions C80_copy_density_refuted.
Print Assumptions C80_uniform.

(* ================================================================ C71 *)
(** Adaptive quadrature of a smooth function, with exact Gauss rules: whatever order is accepted, the error is at most that of the first order. *)
Theorem C71_smooth : forall rule a b start maximum da dr D B I, a < b -> (1 <= start < maximum)%nat -> 0 <= da -> 0 <= dr ->
  (forall n, (start <= n < maximum)%nat -> exists x w, rule n = Some (x, w) /\ gauss_rule n a b x w) ->
  derivatives D -> (forall x, a <= x <= b -> Rabs (D (2 * start)%nat x) <= B) -> is_RInt (D 0%nat) a b I ->
  exists v warned, gauss_legendre_quadrature rule (D 0%nat) start maximum da dr = Some (v, warned) /\
    Rabs (v - I) <= 2 * B * (b - a) ^ (2 * start + 1) * INR (fact (2 * start)) / INR (fact (4 * start)).
Proof.
  intros rule a b start maximum da dr D B I AB L Ha Hr G HD HB HI. destruct (C71_terminates rule (D 0%nat) start maximum da dr) as ((v & warned) & E). { intros n Hn. destruct (G n Hn) as (x & w & -> & _). discriminate. }
  exists v, warned. split; auto. destruct (C71_result _ _ start maximum _ _ _ _ Ha Hr ltac:(lia) E) as (n & Hn & (x & w & R & ->) & _). destruct (G n Hn) as (x' & w' & R' & GR). rewrite R in R'. injection R' as <- <-.
  pose proof (smooth_near D (2 * start) a b B HD AB HB) as NP. pose proof (near_mono a b (2 * start) (2 * n) _ _ ltac:(lia) NP) as NP'.
  eapply Rle_trans; [apply (rule_accuracy n x w a b (D 0%nat) _ I ltac:(lia) ltac:(lra) GR NP' HI)|]. right. replace (2 * (2 * start))%nat with (4 * start)%nat by lia.
  rewrite pow_add, pow_1. pose proof (INR_fact_lt_0 (4 * start)). field. lra.
Qed.
Print Assumptions C71_smooth.
(** non-trivial case: the exponential function *)
Example C71_smooth_example : exists rule v w, (forall n, (5 <= n < 50)%nat -> exists x w, rule n = Some (x, w) /\ gauss_rule n 0 1 x w) /\
  gauss_legendre_quadrature rule exp 5 50 0 0 = Some (v, w) /\ Rabs (v - (exp 1 - 1)) <= 1 / 10 ^ 9.
Proof.
  assert (EX: forall hi, exists rule, forall n, (5 <= n < hi)%nat -> exists x w, rule n = Some (x, w) /\ gauss_rule n 0 1 x w).
  { intros hi. induction hi as [|hi (rule & IH)]; [exists (fun _ => None); intros n Hn; lia|]. destruct (gauss_rule_exists hi 0 1) as (x & w & GR).
    exists (fun n => if Nat.eqb n hi then Some (x, w) else rule n). intros n Hn. destruct (Nat.eqb_spec n hi) as [-> | N]; [exists x, w; auto | apply IH; lia]. }
  destruct (EX 50%nat) as (rule & G).
  assert (DX: derivatives (fun _ => exp)) by (intros k x; apply derivable_pt_lim_exp).
  assert (HI: is_RInt exp 0 1 (exp 1 - 1)). { apply (is_RInt_by exp _ _ _ (minus (exp 1) (exp 0))); [|auto | rewrite exp_0; reflexivity]. apply (is_RInt_derive exp exp); intros x _; [apply is_derive_Reals, derivable_pt_lim_exp | apply (ex_derive_continuous exp); eexists; apply is_derive_Reals, derivable_pt_lim_exp]. }
  destruct (C71_smooth rule 0 1 5 50 0 0 (fun _ => exp) 3 (exp 1 - 1) ltac:(lra) ltac:(lia) (Rle_refl 0) (Rle_refl 0) G DX) as (v & w & E & B); auto.
  { intros x Hx. rewrite Rabs_pos_eq by (left; apply exp_pos). apply Rle_trans with (exp 1); [|apply exp_le_3]. destruct (Rle_lt_or_eq_dec x 1 ltac:(lra)) as [H | ->]; [left; apply exp_increasing; auto | lra]. }
  exists rule, v, w. split; auto. split; auto. eapply Rle_trans; [exact B|]. change (2 * 5)%nat with 10%nat. change (4 * 5)%nat with 20%nat. change (10 + 1)%nat with 11%nat.
  assert (F: INR (fact 20) = 670442572800 * INR (fact 10)). { rewrite (fact_simpl 19), (fact_simpl 18), (fact_simpl 17), (fact_simpl 16), (fact_simpl 15), (fact_simpl 14), (fact_simpl 13), (fact_simpl 12), (fact_simpl 11), (fact_simpl 10). rewrite !mult_INR, !S_INR. cbn [INR]. ring. }
  rewrite F. pose proof (INR_fact_lt_0 10). replace (1 - 0) with 1 by ring. rewrite pow1. replace (2 * 3 * 1 * INR (fact 10) / (670442572800 * INR (fact 10))) with (6 / 670442572800) by (field; lra). cbn [pow]. lra.
Qed.

(* ================================================================ C81 *)
(** the truncated Legendre series with N terms *)
Definition legendre_series (N : nat) (d : distribution) (x : R) : R := match N with 0%nat => 0 | S k => sum_f_R0 (fun n => (2 * INR n + 1) / 2 * coef d n * P n 0 x) k end.
Lemma wigner_row_P : forall N c n, (n < N)%nat -> wigner_row N c n = P n 0 c.
Proof. intros N c [|k] H; cbn [wigner_row]; [rewrite P_0_0; auto|]. apply wigner_values. lia. Qed.
Lemma series_sum : forall k n d w v, series k n d w v = v + match k with 0%nat => 0 | S j => sum_f_R0 (fun i => (2 * INR (n + i) + 1) / 2 * coef d (n + i) * w (n + i)%nat) j end.
Proof.
  induction k; intros n d w v; cbn [series]; [ring|]. rewrite IHk. destruct k as [|k]; [cbn [sum_f_R0]; rewrite Nat.add_0_r; field|].
  rewrite (decomp_sum _ (S k)) by lia. cbn [pred]. rewrite Nat.add_0_r. rewrite (sum_eq (fun i => (2 * INR (S n + i) + 1) / 2 * coef d (S n + i) * w (S n + i)%nat) (fun i => (2 * INR (n + S i) + 1) / 2 * coef d (n + S i) * w (n + S i)%nat)); [field|].
  intros i _. replace (S n + i)%nat with (n + S i)%nat by lia. reflexivity.
Qed.
(** evaluate is the Legendre series with the coefficients below the last one *)
Theorem C81_series : forall d theta, (2 <= size d)%nat -> evaluate d theta = Some (legendre_series (size d - 1) d (cos theta)).
Proof.
  intros d theta H. unfold evaluate. destruct (Nat.eqb_spec (size d - 1) 0); [lia|]. f_equal. rewrite series_sum, Rplus_0_l. unfold legendre_series. destruct (size d - 1)%nat as [|k] eqn:E; [lia|].
  apply sum_eq. intros i Hi. cbn [Nat.add]. rewrite wigner_row_P by lia. reflexivity.
Qed.
Lemma series_moment_sum : forall d n k, is_RInt (fun x => sum_f_R0 (fun i => (2 * INR i + 1) / 2 * coef d i * P i 0 x) k * P n 0 x) (-1) 1 (if Nat.leb n k then coef d n else 0).
Proof.
  intros d n k. assert (T: forall i, is_RInt (fun x => (2 * INR i + 1) / 2 * coef d i * P i 0 x * P n 0 x) (-1) 1 (if Nat.eqb n i then coef d n else 0)).
  { intros i. destruct (Nat.eqb_spec n i) as [-> | N].
    - pose proof (is_RInt_scalR _ _ _ ((2 * INR i + 1) / 2 * coef d i) _ (norm_squared i)) as S. pose proof (pos_INR i). apply (is_RInt_by _ _ _ _ _ _ S); [intros; ring | field; lra].
    - pose proof (is_RInt_scalR _ _ _ ((2 * INR i + 1) / 2 * coef d i) _ (orthogonal i n ltac:(auto))) as S. apply (is_RInt_by _ _ _ _ _ _ S); [intros; ring | ring]. }
  induction k as [|k IH].
  - cbn [sum_f_R0]. apply (is_RInt_by _ _ _ _ _ _ (T 0%nat)); auto. destruct n; auto.
  - pose proof (is_RInt_lin _ _ _ _ _ _ 1 1 IH (T (S k))) as L. apply (is_RInt_by _ _ _ _ _ _ L); [intros; cbn [sum_f_R0]; ring|].
    destruct (Nat.leb_spec n k), (Nat.eqb_spec n (S k)), (Nat.leb_spec n (S k)); try lia; ring.
Qed.
Lemma series_span : forall d N, span N (legendre_series N d).
Proof.
  intros d [|k]; [constructor; auto|]. unfold legendre_series. induction k as [|k IH].
  - apply span_S with (c := (2 * INR 0 + 1) / 2 * coef d 0) (g := fun _ => 0); [apply span_zero|]. intros. cbn [sum_f_R0]. ring.
  - apply span_S with (c := (2 * INR (S k) + 1) / 2 * coef d (S k)) (g := fun x => sum_f_R0 (fun n => (2 * INR n + 1) / 2 * coef d n * P n 0 x) k); [exact IH|]. intros. cbn [sum_f_R0]. ring.
Qed.
Lemma angle_moment : forall N f n v, span N f -> is_RInt (fun x => f x * P n 0 x) (-1) 1 v -> is_RInt (fun b => sin b * (f (cos b) * P n 0 (cos b))) 0 PI v.
Proof.
  intros N f n v HS HI. destruct (span_polyf N f HS) as (p & _ & Ep). destruct (polyf_P n) as (q & _ & Eq).
  assert (M: forall x, eval (pmul p q) x = f x * P n 0 x) by (intros; rewrite eval_pmul, <- Ep, <- Eq; auto).
  apply (is_RInt_by (fun b => sin b * eval (pmul p q) (cos b)) _ _ _ v); [|intros; rewrite M; auto | auto]. apply angle_integral. apply (is_RInt_by _ _ _ _ _ _ HI); auto.
Qed.
(** The Legendre moments of the function which evaluate returns are the coefficients of the distribution, for all orders below the last coefficient;
    the moments of the last and of all higher orders are zero. *)
Theorem C81_moments : forall d n, (2 <= size d)%nat -> exists v, (forall theta, evaluate d theta = Some (v theta)) /\
  is_RInt (fun b => sin b * (v b * P n 0 (cos b))) 0 PI (if Nat.ltb (n + 1) (size d) then coef d n else 0).
Proof.
  intros d n H. exists (fun t => legendre_series (size d - 1) d (cos t)). split; [intros; apply C81_series; auto|].
  apply (angle_moment (size d - 1) (legendre_series (size d - 1) d)); [apply series_span|]. destruct (size d - 1)%nat as [|k] eqn:E; [lia|]. unfold legendre_series.
  apply (is_RInt_by _ _ _ _ _ _ (series_moment_sum d n k)); auto. destruct (Nat.leb_spec n k), (Nat.ltb_spec (n + 1) (size d)); auto; lia.
Qed.
Lemma span_no_moments : forall N f, span N f -> (forall n, (n < N)%nat -> is_RInt (fun x => f x * P n 0 x) (-1) 1 0) -> forall x, f x = 0.
Proof.
  intros N f H. induction H as [f E | n c f g Hg IH E]; intros M x; [auto|].
  assert (C: c = 0).
  { pose proof (is_RInt_lin _ _ _ _ _ _ 1 c (span_orthogonal n g Hg n ltac:(lia)) (norm_squared n)) as L. pose proof (pos_INR n).
    assert (Q: is_RInt (fun x => f x * P n 0 x) (-1) 1 (1 * 0 + c * (2 / (2 * INR n + 1)))) by (apply (is_RInt_by _ _ _ _ _ _ L); auto; intros; rewrite E; ring).
    pose proof (int_unique _ _ _ _ _ Q (M n ltac:(lia))) as U. apply Rmult_eq_reg_r with (2 / (2 * INR n + 1)); [lra|]. apply Rgt_not_eq, Rdiv_lt_0_compat; lra. }
  rewrite E, C, Rmult_0_l, Rplus_0_r. apply IH. intros k Hk. apply (is_RInt_by _ _ _ _ _ _ (M k ltac:(lia))); auto. intros y. rewrite E, C. ring.
Qed.
(** A density which is a polynomial in cos(theta) of degree below the maximum order is reproduced from its moments at every angle. *)
Theorem C81_polynomial_density : forall d q, (2 <= size d)%nat -> (length q <= size d - 1)%nat ->
  (forall n, (n < size d - 1)%nat -> is_RInt (fun b => sin b * (eval q (cos b) * P n 0 (cos b))) 0 PI (coef d n)) ->
  forall theta, evaluate d theta = Some (eval q (cos theta)).
Proof.
  intros d q H L M theta. rewrite C81_series by auto. f_equal. set (N := (size d - 1)%nat) in *. apply Rminus_diag_uniq.
  pose proof (span_lin _ _ _ 1 (-1) (series_span d N) (span_eval q N L)) as S. pose proof (span_no_moments N _ S) as Z. cbv beta in Z.
  assert (MZ: forall n, (n < N)%nat -> is_RInt (fun x => (1 * legendre_series N d x + -1 * eval q x) * P n 0 x) (-1) 1 0).
  { intros n Hn. destruct (polyf_P n) as (r & _ & Er).
  assert (IQ: exists v, is_RInt (fun x => eval q x * P n 0 x) (-1) 1 v).
  { destruct (span_integrable _ (eval (pmul q r)) (span_eval (pmul q r) _ (Nat.le_refl _))) as (v & V). exists v. apply (is_RInt_by _ _ _ _ _ _ V); auto. intros. rewrite eval_pmul, Er. auto. }
  destruct IQ as (v & V). pose proof (angle_moment N (eval q) n v (span_eval q N L) V) as A. pose proof (int_unique _ _ _ _ _ A (M n Hn)) as U. subst v.
  assert (SM: is_RInt (fun x => legendre_series N d x * P n 0 x) (-1) 1 (coef d n)).
  { destruct N as [|k]; [lia|]. unfold legendre_series. apply (is_RInt_by _ _ _ _ _ _ (series_moment_sum d n k)); auto. destruct (Nat.leb_spec n k); auto; lia. }
  pose proof (is_RInt_lin _ _ _ _ _ _ 1 (-1) SM V) as Q. apply (is_RInt_by _ _ _ _ _ _ Q); [intros; ring | ring]. }
  pose proof (Z MZ (cos theta)); lra.
Qed.
(** Imperfect alignment (C50): evaluate returns the density the coefficients were made for, if the order is at least 3. *)
Theorem C81_mishchenko : forall nmax c d theta, (3 <= nmax)%nat -> 1 / 5 <= c <= 3 / 5 -> mishchenko nmax c = Ok d -> evaluate d theta = Some (mishchenko_pdf c (cos theta)).
Proof.
  intros nmax c d theta N Hc E. destruct (C50_coefficients_are_moments nmax c Hc ltac:(lia)) as (d' & E' & S & M). rewrite E in E'. injection E' as <-.
  set (q := [1 / 2 - 5 / 4 * p2 c; 0; 15 / 4 * p2 c]). assert (Q: forall x, eval q x = mishchenko_pdf c x) by (intros; unfold q, mishchenko_pdf; cbn [eval]; field).
  rewrite <- Q. apply C81_polynomial_density; [lia | cbn [length q]; lia|]. intros n _. apply (is_RInt_by _ _ _ _ _ _ (M n)); auto. intros. rewrite Q. auto.
Qed.
(** The last coefficient is never used: with order 2 the degree of alignment does not matter. *)
Theorem C81_last_coefficient_refuted : forall c d theta, 1 / 5 <= c <= 3 / 5 -> mishchenko 2 c = Ok d -> evaluate d theta = Some (1 / 2).
Proof.
  intros c d theta Hc E. destruct (mishchenko_spec 2 c Hc) as (A & _). destruct (A ltac:(lia)) as (d' & E' & S & _ & C). rewrite E in E'. injection E' as <-.
  rewrite C81_series by lia. rewrite S. cbn [Nat.add Nat.sub legendre_series sum_f_R0]. rewrite !C. cbn [Nat.eqb]. rewrite P_0_0. cbn [INR]. f_equal. field.
Qed.
(** With order 0 the function writes outside its arrays. *)
Theorem C81_order_zero_refuted : forall d theta, size d = 1%nat -> evaluate d theta = None.
Proof. intros d theta H. unfold evaluate. rewrite H. reflexivity. Qed.
Example C81_example : exists d, mishchenko 3 (1 / 2) = Ok d /\ evaluate d (PI / 2) = Some (3 / 16).
Proof.
  destruct (mishchenko_spec 3 (1 / 2) ltac:(lra)) as (A & _). destruct (A ltac:(lia)) as (d & E & _). exists d. split; auto. rewrite (C81_mishchenko 3 (1 / 2) d (PI / 2) ltac:(lia) ltac:(lra) E).
  unfold mishchenko_pdf, p2. rewrite cos_PI2. f_equal. field.
Qed.
Print Assumptions C81_series.
Print Assumptions C81_moments.
Print Assumptions C81_polynomial_density.
Print Assumptions C81_mishchenko.
Print Assumptions C81_last_coefficient_refuted.
Print Assumptions C81_order_zero_refuted.
