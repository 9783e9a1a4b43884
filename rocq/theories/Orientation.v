(** Orientation distributions (/repo/src/OrientationDistribution.hpp l.192-210, l.251-270,
    DavisGreensteinOrientationDistribution.hpp l.76-102,
    MishchenkoOrientationDistribution.hpp l.87-119,
    DisabledAlignmentOrientationDistribution.hpp,
    SizeBasedAlignmentDistribution.hpp l.66-146), in exact real arithmetic. *)
From Coq Require Import List Arith Lia Bool Reals Lra Psatz.
From Coquelicot Require Import Coquelicot.
From Verif Require Import Legendre Quadrature GaussExact.
Import ListNotations.
Local Open Scope R_scope.

(** the coefficient vector: [size] and contents; [align] is compute_alignment() *)
Record distribution := mkDist { size : nat; coef : nat -> R; align : bool }.

(* ---------------------------------------------- Davis-Greenstein *)

(** OrientationDistribution(nmax), l.192-193 *)
Definition zeros (nmax : nat) : distribution := mkDist (nmax + 1) (fun _ => 0) true.
Definition setc (d : distribution) (i : nat) (v : R) : distribution := mkDist (size d) (aset (coef d) i v) (align d).
(** l.83-85: i = 1, 3, 5, ...; [fuel] bounds the number of iterations *)
Fixpoint odd_loop (fuel i : nat) (d : distribution) : distribution :=
  match fuel with
  | 0%nat => d
  | S f => if Nat.ltb i (size d) then odd_loop f (i + 2) (setc d i 0) else d
  end.
(** l.90-95 *)
Fixpoint even_loop (fuel i : nat) (nominator denominator : R) (d : distribution) : distribution :=
  match fuel with
  | 0%nat => d
  | S f => if Nat.ltb (2 * i) (size d) then
             let sign := if Nat.eqb (i mod 2) 0 then 1 else -1 in
             even_loop f (S i) (nominator * (2 * INR i + 1)) (denominator * (2 * (INR i + 1)))
               (setc d (2 * i) (sign * nominator / denominator))
           else d
  end.
(** l.98-100 *)
Fixpoint one_loop (k i : nat) (d : distribution) : distribution :=
  match k with 0%nat => d | S k' => one_loop k' (S i) (setc d i 1) end.
(** l.76-102 *)
Definition davis_greenstein (nmax : nat) (axis_ratio : R) : distribution :=
  let d := zeros nmax in
  if Rlt_dec axis_ratio 1 then
    let d := odd_loop (nmax + 1) 1 d in
    let d := setc d 0 1 in
    even_loop (nmax + 1) 1 1 2 d
  else one_loop (nmax + 1) 0 d.

Lemma odd_loop_spec : forall fuel i d, (forall j, coef d j = 0) -> (forall j, coef (odd_loop fuel i d) j = 0) /\ size (odd_loop fuel i d) = size d /\ align (odd_loop fuel i d) = align d.
Proof.
  induction fuel; intros i d H; cbn [odd_loop]; auto. destruct (Nat.ltb _ _); auto.
  destruct (IHfuel (i + 2)%nat (setc d i 0)) as (A & B & C); [|auto]. intros j. unfold setc, aset. cbn [coef]. destruct (Nat.eqb j i); auto.
Qed.
Lemma one_loop_spec : forall k i d, size (one_loop k i d) = size d /\ align (one_loop k i d) = align d /\
  forall j, coef (one_loop k i d) j = if Nat.leb i j && Nat.ltb j (i + k) then 1 else coef d j.
Proof.
  induction k; intros i d; cbn [one_loop].
  - split; auto. split; auto. intros j. rewrite Nat.add_0_r. destruct (Nat.leb_spec i j), (Nat.ltb_spec j i); auto; lia.
  - destruct (IHk (S i) (setc d i 1)) as (A & B & C). split; auto. split; auto. intros j. rewrite C. unfold setc, aset. cbn [coef].
    destruct (Nat.eqb_spec j i), (Nat.leb_spec (S i) j), (Nat.ltb_spec j (S i + k)), (Nat.leb_spec i j), (Nat.ltb_spec j (i + S k)); auto; lia.
Qed.
Lemma sign_step : forall i, (if Nat.eqb (S i mod 2) 0 then 1 else -1) = - (if Nat.eqb (i mod 2) 0 then 1 else -1).
Proof.
  intros i. destruct (half_eq i) as (E1 & B1). destruct (half_eq (S i)) as (E2 & B2).
  destruct (Nat.eqb_spec (S i mod 2) 0), (Nat.eqb_spec (i mod 2) 0); try lra; lia.
Qed.
Lemma even_loop_spec : forall fuel i nom den d, (size d <= 2 * i + 2 * fuel)%nat -> (1 <= i)%nat -> 0 < den ->
  (if Nat.eqb (i mod 2) 0 then 1 else -1) * nom / den = P (2 * i) 0 0 ->
  size (even_loop fuel i nom den d) = size d /\ align (even_loop fuel i nom den d) = align d /\
  forall j, coef (even_loop fuel i nom den d) j = if Nat.even j && Nat.leb (2 * i) j && Nat.ltb j (size d) then P j 0 0 else coef d j.
Proof.
  induction fuel; intros i nom den d H Hi Hd E; cbn [even_loop].
  - split; auto. split; auto. intros j. destruct (Nat.leb_spec (2 * i) j), (Nat.ltb_spec j (size d)); rewrite ?andb_false_r; auto; lia.
  - destruct (Nat.ltb_spec (2 * i) (size d)) as [L|L].
    + pose proof (pos_INR i) as Pi.
      destruct (IHfuel (S i) (nom * (2 * INR i + 1)) (den * (2 * (INR i + 1))) (setc d (2 * i) ((if Nat.eqb (i mod 2) 0 then 1 else -1) * nom / den))) as (A & B & C).
      * unfold setc. cbn [size]. lia.
      * lia.
      * nra.
      * rewrite sign_step. replace (2 * S i)%nat with (2 * (i + 1))%nat by lia. rewrite P_even_at_0, <- E. field. lra.
      * cbv zeta. rewrite A, B. split; auto. split; auto. intros j. rewrite C. unfold setc, aset. cbn [coef size].
        rewrite E. destruct (Nat.eqb_spec j (2 * i)) as [->|N].
        { destruct (Nat.leb_spec (2 * S i) (2 * i)); [lia|]. destruct (Nat.leb_spec (2 * i) (2 * i)); [|lia].
          destruct (Nat.ltb_spec (2 * i) (size d)); [|lia]. rewrite !andb_false_r. cbn [andb].
          replace (Nat.even (2 * i)) with true; [reflexivity|]. symmetry. apply Nat.even_spec. exists i. lia. }
        destruct (Nat.even j) eqn:Ev; cbn [andb]; auto. apply Nat.even_spec in Ev. destruct Ev as (q & ->).
        destruct (Nat.leb_spec (2 * S i) (2 * q)), (Nat.leb_spec (2 * i) (2 * q)); auto; lia.
    + split; auto. split; auto. intros j. destruct (Nat.leb_spec (2 * i) j), (Nat.ltb_spec j (size d)); rewrite ?andb_false_r; auto; lia.
Qed.
Theorem davis_greenstein_spec : forall nmax axis_ratio n, (n <= nmax)%nat ->
  coef (davis_greenstein nmax axis_ratio) n = P n 0 (if Rlt_dec axis_ratio 1 then 0 else 1) /\
  size (davis_greenstein nmax axis_ratio) = (nmax + 1)%nat /\ align (davis_greenstein nmax axis_ratio) = true.
Proof.
  intros nmax q n H. unfold davis_greenstein. destruct (Rlt_dec q 1) as [L|L].
  - destruct (odd_loop_spec (nmax + 1) 1 (zeros nmax)) as (A & B & C); [reflexivity|].
    destruct (even_loop_spec (nmax + 1) 1 1 2 (setc (odd_loop (nmax + 1) 1 (zeros nmax)) 0 1)) as (D & E & F).
    + unfold setc. cbn [size]. rewrite B. unfold zeros. cbn [size]. lia.
    + lia.
    + lra.
    + pose proof (P_even_at_0 0) as X. cbn [Nat.add Nat.mul INR] in X. cbn [Nat.modulo]. cbn. rewrite X, P_0_0. field.
    + cbv zeta. rewrite D, E, F. unfold setc. cbn [size align coef]. rewrite B, C. unfold zeros. cbn [size align]. split; auto.
      unfold aset. rewrite A. destruct (Nat.ltb_spec n (nmax + 1)); [|lia]. rewrite andb_true_r.
      destruct (Nat.even n) eqn:Ev; cbn [andb].
      * destruct (Nat.leb_spec (2 * 1) n); auto. apply Nat.even_spec in Ev. destruct Ev as (k & ->). assert (k = 0)%nat by lia. subst k. cbn. symmetry. apply P_0_0.
      * destruct (Nat.eqb_spec n 0) as [->|]; [discriminate|]. assert (O: Nat.odd n = true) by (rewrite <- Nat.negb_even, Ev; reflexivity).
        apply Nat.odd_spec in O. destruct O as (k & ->). symmetry. apply P_odd_at_0.
  - destruct (one_loop_spec (nmax + 1) 0 (zeros nmax)) as (A & B & C). rewrite A, B, C. split; [|auto].
    destruct (Nat.leb_spec 0 n), (Nat.ltb_spec n (0 + (nmax + 1))); try lia. cbn [andb]. symmetry. apply P_at_1.
Qed.

(* ---------------------------------------------- Mishchenko *)

(** l.104-106: p_2 from <cos^2 beta> *)
Definition p2 (cos2beta : R) : R := 3 / 2 * cos2beta - 1 / 2.
(** l.87-91: operator()(beta, cosbeta, sinbeta) *)
Definition mishchenko_pdf (cos2beta cosbeta : R) : R := 1 / 2 + 5 / 4 * p2 cos2beta * (3 * cosbeta * cosbeta - 1).
Inductive outcome {A} := Ok (a : A) | OutOfBounds | Fails.
Arguments outcome : clear implicits.
Fixpoint zero_loop (k i : nat) (d : distribution) : distribution :=
  match k with 0%nat => d | S k' => zero_loop k' (S i) (setc d i 0) end.
(** l.104-119 (the assertions of l.108-109 as a failure) *)
Definition mishchenko (nmax : nat) (cos2beta : R) : outcome distribution :=
  if Rlt_dec cos2beta (1 / 5) then Fails else if Rlt_dec (3 / 5) cos2beta then Fails else
  let d := zero_loop (nmax + 1) 0 (zeros nmax) in
  let d := setc d 0 1 in
  if Nat.ltb 2 (size d) then Ok (setc d 2 (p2 cos2beta)) else OutOfBounds.

Lemma zero_loop_spec : forall k i d, (forall j, coef d j = 0) -> (forall j, coef (zero_loop k i d) j = 0) /\ size (zero_loop k i d) = size d /\ align (zero_loop k i d) = align d.
Proof.
  induction k; intros i d H; cbn [zero_loop]; auto.
  destruct (IHk (S i) (setc d i 0)) as (A & B & C); [|auto]. intros j. unfold setc, aset. cbn [coef]. destruct (Nat.eqb j i); auto.
Qed.
Theorem mishchenko_spec : forall nmax c, 1 / 5 <= c <= 3 / 5 ->
  ((2 <= nmax)%nat -> exists d, mishchenko nmax c = Ok d /\ size d = (nmax + 1)%nat /\ align d = true /\
     forall n, coef d n = if Nat.eqb n 0 then 1 else if Nat.eqb n 2 then p2 c else 0) /\
  ((nmax < 2)%nat -> mishchenko nmax c = OutOfBounds).
Proof.
  intros nmax c H. unfold mishchenko. destruct (Rlt_dec c (1 / 5)) as [Q1|Q1]; [lra|]. destruct (Rlt_dec (3 / 5) c) as [Q2|Q2]; [lra|].
  destruct (zero_loop_spec (nmax + 1) 0 (zeros nmax)) as (A & B & C); [reflexivity|]. cbn [setc size]. rewrite B. unfold zeros at 1 3. cbn [size].
  split; intros N; destruct (Nat.ltb_spec 2 (nmax + 1)); try lia; auto.
  eexists. split; [reflexivity|]. unfold setc. cbn [size align coef]. rewrite B, C. split; auto. split; auto.
  intros n. unfold aset. rewrite A. destruct (Nat.eqb_spec n 2) as [->|]; cbn [Nat.eqb]; auto.
Qed.

Lemma P_2_0 : forall x, P 2 0 x = (3 * x * x - 1) / 2.
Proof. intros x. pose proof (P_bonnet 0 x) as B. cbn [Nat.add INR] in B. rewrite P_1_0, P_0_0 in B. lra. Qed.
Lemma pdf_expansion : forall c x, mishchenko_pdf c x = 1 / 2 * P 0 0 x + 5 / 2 * p2 c * P 2 0 x.
Proof. intros. unfold mishchenko_pdf. rewrite P_0_0, P_2_0. field. Qed.
(** moments, with x = cos(beta) *)
Theorem pdf_moment : forall c n, is_RInt (fun x => mishchenko_pdf c x * P n 0 x) (-1) 1 (if Nat.eqb n 0 then 1 else if Nat.eqb n 2 then p2 c else 0).
Proof.
  intros c n.
  assert (I: forall m, is_RInt (fun x => P m 0 x * P n 0 x) (-1) 1 (if Nat.eqb n m then 2 / (2 * INR n + 1) else 0)).
  { intros m. destruct (Nat.eqb_spec n m) as [->|N]; [apply norm_squared | apply orthogonal; auto]. }
  pose proof (is_RInt_lin _ _ _ _ _ _ (1 / 2) (5 / 2 * p2 c) (I 0%nat) (I 2%nat)) as L.
  apply (is_RInt_by _ _ _ _ _ _ L).
  - intros x. rewrite pdf_expansion. ring.
  - destruct n as [|[|[|n]]]; cbn [Nat.eqb]; [cbn [INR]; field | ring | cbn [INR]; field | ring].
Qed.
(** substitution x = cos(beta) *)
Lemma cos_substitution : forall (f F f' : R -> R), (forall x, derivable_pt_lim F x (f x)) -> (forall x, derivable_pt_lim f x (f' x)) ->
  is_RInt (fun b => sin b * f (cos b)) 0 PI (F 1 - F (-1)).
Proof.
  intros f F f' HF Hf. pose proof (integral_of (fun b => - F (cos b)) (fun b => sin b * f (cos b)) (fun b => cos b * f (cos b) + sin b * (f' (cos b) * - sin b)) 0 PI) as I.
  cbv beta in I. rewrite cos_PI, cos_0 in I. apply (is_RInt_by _ _ _ _ _ _ (I ltac:(
    intros x; eapply deriv_eq; [apply (derivable_pt_lim_opp (fun b => F (cos b))); apply (derivable_pt_lim_comp cos F); [apply derivable_pt_lim_cos | apply HF] | ring])
    ltac:(intros x; apply (deriv_mult sin (fun b => f (cos b))); [apply derivable_pt_lim_sin | apply (derivable_pt_lim_comp cos f); [apply derivable_pt_lim_cos | apply Hf]]))); [reflexivity|ring].
Qed.
Fixpoint antider (k : nat) (p : list R) : list R := match p with [] => [] | a :: q => a / (INR k + 1) :: antider (S k) q end.
Lemma antider_spec : forall p k x, derivable_pt_lim (fun x => x ^ S k * eval (antider k p) x) x (x ^ k * eval p x).
Proof.
  induction p as [|a p IH]; intros k x; cbn [antider eval].
  - apply derivable_ext with (fun _ => 0); [intros; ring|]. eapply deriv_eq; [apply derivable_pt_lim_const|ring].
  - apply derivable_ext with (fun x => a / (INR k + 1) * x ^ S k + x ^ S (S k) * eval (antider (S k) p) x); [intros; cbn [pow]; ring|].
    eapply deriv_eq.
    + apply (derivable_pt_lim_plus (fun x => a / (INR k + 1) * x ^ S k) (fun x => x ^ S (S k) * eval (antider (S k) p) x)); [|apply IH].
      apply (derivable_pt_lim_scal (fun x => x ^ S k)). apply derivable_pt_lim_pow.
    + cbn [pred]. rewrite S_INR. pose proof (pos_INR k). cbn [pow]. field. lra.
Qed.
Theorem angle_integral : forall p v, is_RInt (eval p) (-1) 1 v -> is_RInt (fun b => sin b * eval p (cos b)) 0 PI v.
Proof.
  intros p v H.
  set (F := fun x => x ^ 1 * eval (antider 0 p) x).
  assert (HF: forall x, derivable_pt_lim F x (eval p x)).
  { intros x. unfold F. eapply deriv_eq; [apply antider_spec|]. cbn [pow]. ring. }
  pose proof (cos_substitution (eval p) F (fun x => eval (deriv p) x) HF (eval_deriv p)) as I.
  pose proof (integral_of F (eval p) (fun x => eval (deriv p) x) (-1) 1 HF (eval_deriv p)) as J.
  pose proof (is_RInt_unique _ _ _ _ H) as U1. pose proof (is_RInt_unique _ _ _ _ J) as U2.
  apply (is_RInt_by _ _ _ _ _ _ I); [reflexivity|]. etransitivity; [symmetry; exact U2|exact U1].
Qed.
Fixpoint pmul (p q : list R) : list R := match p with [] => [] | a :: p' => padd (pscale a q) (0 :: pmul p' q) end.
Lemma eval_pmul : forall p q x, eval (pmul p q) x = eval p x * eval q x.
Proof. induction p as [|a p IH]; intros q x; cbn [pmul eval]; [ring|]. rewrite eval_padd, eval_pscale. cbn [eval]. rewrite IH. ring. Qed.
(** the stored coefficients are the Legendre moments of the distribution *)
Theorem mishchenko_moments : forall c n,
  is_RInt (fun b => sin b * (mishchenko_pdf c (cos b) * P n 0 (cos b))) 0 PI (if Nat.eqb n 0 then 1 else if Nat.eqb n 2 then p2 c else 0).
Proof.
  intros c n. destruct (polyf_P n) as (q & _ & Eq). set (p := [1 / 2 - 5 / 4 * p2 c; 0; 15 / 4 * p2 c]).
  assert (E: forall x, eval (pmul p q) x = mishchenko_pdf c x * P n 0 x).
  { intros x. rewrite eval_pmul, Eq. f_equal. unfold p, mishchenko_pdf. cbn [eval]. field. }
  assert (A: is_RInt (eval (pmul p q)) (-1) 1 (if Nat.eqb n 0 then 1 else if Nat.eqb n 2 then p2 c else 0)).
  { apply (is_RInt_by _ _ _ _ _ _ (pdf_moment c n)); [intros; symmetry; apply E | reflexivity]. }
  apply (is_RInt_by _ _ _ _ _ _ (angle_integral _ _ A)); [|reflexivity]. intros b. rewrite E. reflexivity.
Qed.
Theorem mishchenko_mean_cos2 : forall c, is_RInt (fun b => sin b * (mishchenko_pdf c (cos b) * (cos b * cos b))) 0 PI c.
Proof.
  intros c. pose proof (is_RInt_lin _ _ _ _ _ _ (1 / 3) (2 / 3) (mishchenko_moments c 0) (mishchenko_moments c 2)) as L. cbn [Nat.eqb] in L.
  apply (is_RInt_by _ _ _ _ _ _ L); [|unfold p2; field]. intros x. cbn beta. rewrite P_0_0, P_2_0. field.
Qed.
Theorem mishchenko_nonnegative : forall c, (forall b, 0 <= mishchenko_pdf c (cos b)) <-> 1 / 5 <= c <= 3 / 5.
Proof.
  intros c. split.
  - intros H. pose proof (H 0) as H0. pose proof (H (PI / 2)) as H1. rewrite cos_0 in H0. rewrite cos_PI2 in H1. unfold mishchenko_pdf, p2 in *. lra.
  - intros H b. unfold mishchenko_pdf. pose proof (COS_bound b). pose proof (Rle_0_sqr (cos b)) as Q. unfold Rsqr in Q.
    assert (S: cos b * cos b <= 1) by nra. assert (A: 0 <= 1 / 2 - 5 / 4 * p2 c) by (unfold p2; lra). assert (B: 0 <= 1 / 2 + 5 / 2 * p2 c) by (unfold p2; lra).
    set (s := cos b * cos b) in *. replace (3 * cos b * cos b) with (3 * s) by (unfold s; ring).
    replace (1 / 2 + 5 / 4 * p2 c * (3 * s - 1)) with ((1 - s) * (1 / 2 - 5 / 4 * p2 c) + s * (1 / 2 + 5 / 2 * p2 c)) by field.
    apply Rplus_le_le_0_compat; apply Rmult_le_pos; lra.
Qed.

(* ---------------------------------------------- choice by size *)

(** DisabledAlignmentOrientationDistribution *)
Definition disabled : distribution := mkDist 1 (fun _ => 0) false.
(** OrientationDistribution(const OrientationDistribution &), l.203-210: the copy is of
    the base class, so its compute_alignment() is that of l.270 *)
Definition copy (d : distribution) : distribution := mkDist (size d) (coef d) true.
Record size_based := mkSB { minimum_size : R; non_aligned : distribution; oblate : distribution; prolate : distribution }.
(** constructor, l.66-112; [base] is the initialised uniform distribution of l.81-83 (its
    coefficients come from numerical integration, see C49), [ob], [pr] the custom
    distributions *)
Definition make_size_based (minimum_size : R) (nmax type : nat) (base ob pr : distribution) : outcome size_based :=
  match type with
  | 0%nat => Ok (mkSB minimum_size base (davis_greenstein (2 * nmax) 2) (davis_greenstein (2 * nmax) (1 / 2)))
  | 1%nat => match mishchenko (2 * nmax) (3 / 5), mishchenko (2 * nmax) (1 / 5) with
             | Ok o, Ok p => Ok (mkSB minimum_size base o p)
             | OutOfBounds, _ | _, OutOfBounds => OutOfBounds
             | _, _ => Fails
             end
  | 2%nat => Ok (mkSB minimum_size base disabled disabled)
  | 3%nat => Ok (mkSB minimum_size base (copy ob) (copy pr))
  | _ => Fails
  end.
(** l.133-146 *)
Definition get_distribution (s : size_based) (equal_volume_radius axis_ratio : R) : distribution :=
  if Rlt_dec (minimum_size s) equal_volume_radius then
    if Rlt_dec 1 axis_ratio then oblate s else prolate s
  else non_aligned s.
