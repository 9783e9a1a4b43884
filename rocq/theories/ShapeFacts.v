(** Facts about Shape.v. *)
From Coq Require Import Reals Lra Ratan Lia.
From Coquelicot Require Import Coquelicot.
From Verif Require Import QMatrix EbcmFacts Shape.
Open Scope R_scope.

Lemma deriv_asin : forall x, -1 < x < 1 -> derivable_pt_lim asin x (/ sqrt (1 - x * x)).
Proof. intros x H. destruct (derivable_pt_asin x H) as (l & Hl) eqn:E. pose proof (derive_pt_asin x H) as D. rewrite E in D. cbn in D. unfold Rsqr in D. replace (/ sqrt (1 - x * x)) with l by (rewrite D; unfold Rdiv; ring). exact Hl. Qed.
Lemma is_derive_asin : forall x, -1 < x < 1 -> is_derive asin x (/ sqrt (1 - x * x)).
Proof. intros x H. apply is_derive_Reals. apply deriv_asin; auto. Qed.

(** comparison of two functions on [0,b) through their derivatives *)
Lemma compare : forall (f g f' g' : R -> R) b,
  (forall x, 0 <= x < b -> is_derive f x (f' x)) -> (forall x, 0 <= x < b -> is_derive g x (g' x)) -> f 0 <= g 0 ->
  (forall x, 0 < x < b -> f' x <= g' x) -> forall x, 0 <= x < b -> f x <= g x.
Proof.
  intros f g f' g' b Hf Hg H0 H x Hx. destruct (Req_EM_T x 0) as [-> | N]; auto.
  destruct (MVT_cor2 (fun x => g x - f x) (fun x => g' x - f' x) 0 x) as (c & E & Hc); [lra | |].
  - intros c Hc. apply (derivable_pt_lim_minus g f); apply is_derive_Reals; [apply Hg | apply Hf]; lra.
  - specialize (H c ltac:(lra)). nra.
Qed.
Lemma compare_lt : forall (f g f' g' : R -> R) b,
  (forall x, 0 <= x < b -> is_derive f x (f' x)) -> (forall x, 0 <= x < b -> is_derive g x (g' x)) -> f 0 <= g 0 ->
  (forall x, 0 < x < b -> f' x < g' x) -> forall x, 0 < x < b -> f x < g x.
Proof.
  intros f g f' g' b Hf Hg H0 H x Hx.
  destruct (MVT_cor2 (fun x => g x - f x) (fun x => g' x - f' x) 0 x) as (c & E & Hc); [lra | |].
  - intros c Hc. apply (derivable_pt_lim_minus g f); apply is_derive_Reals; [apply Hg | apply Hf]; lra.
  - specialize (H c ltac:(lra)). nra.
Qed.
Definition lnq (e : R) : R := ln ((1 + e) / (1 - e)).
Lemma lnq_0 : lnq 0 = 0.
Proof. unfold lnq. replace ((1 + 0) / (1 - 0)) with 1 by field. apply ln_1. Qed.
Lemma quot_pos : forall e, -1 < e < 1 -> 0 < (1 + e) / (1 - e).
Proof. intros. apply Rdiv_lt_0_compat; lra. Qed.
Lemma is_derive_lnq : forall e, -1 < e < 1 -> is_derive lnq e (2 / (1 - e * e)).
Proof. intros e H. unfold lnq. auto_derive; [split; [lra|]; split; [apply quot_pos; auto | auto] | field; repeat split; nra]. Qed.
Lemma sqrt1_pos : forall e, 0 <= e < 1 -> 0 < sqrt (1 - e * e).
Proof. intros. apply sqrt_lt_R0. nra. Qed.
Lemma sqrt1_sqr : forall e, 0 <= e < 1 -> sqrt (1 - e * e) * sqrt (1 - e * e) = 1 - e * e.
Proof. intros. apply sqrt_sqrt. nra. Qed.

(* ------------------------------------------------ surface of a spheroid *)
Lemma RInt_back : forall (F f : R -> R) a b, (forall x, derivable_pt_lim F x (f x)) -> (forall x, continuous f x) -> is_RInt f a b (F b - F a).
Proof. intros F f a b H K. apply (is_RInt_derive F f); intros x _; [apply is_derive_Reals, H | apply K]. Qed.
Definition area_density (a b t : R) : R := 2 * PI * (a * sin t) * sqrt ((a * cos t) * (a * cos t) + (- b * sin t) * (- b * sin t)).
Lemma under_pos : forall a b t, 0 < a -> 0 < b -> 0 < (a * cos t) * (a * cos t) + (- b * sin t) * (- b * sin t).
Proof.
  intros a b t A B. pose proof (sin2_cos2 t) as E. unfold Rsqr in E. destruct (Req_EM_T (cos t) 0) as [C | C].
  - rewrite C in *. assert (S1: sin t * sin t = 1) by lra. replace (a * 0 * (a * 0) + - b * sin t * (- b * sin t)) with (b * b * (sin t * sin t)) by ring. rewrite S1. nra.
  - assert (0 < cos t * cos t) by (destruct (Rdichotomy _ _ C); nra). assert (0 <= sin t * sin t) by nra. assert (0 < a * a) by nra. assert (0 < b * b) by nra. nra.
Qed.
Lemma area_continuous : forall a b t, 0 < a -> 0 < b -> continuous (area_density a b) t.
Proof.
  intros a b t A B. apply (ex_derive_continuous (area_density a b)). unfold area_density. auto_derive. pose proof (under_pos a b t A B). auto.
Qed.
Section Oblate.
Variables (a b : R).
Hypothesis B : 0 < b.
Hypothesis AB : b < a.
Let c := sqrt (a * a - b * b).
Lemma c_pos : 0 < c. Proof. apply sqrt_lt_R0. nra. Qed.
Lemma c_sqr : c * c = a * a - b * b. Proof. apply sqrt_sqrt. nra. Qed.
Lemma c_lt : c < a.
Proof. pose proof c_sqr. pose proof c_pos. nra. Qed.
Let Hf (u : R) := u * sqrt (b * b + c * c * (u * u)) / 2 + b * b / (2 * c) * ln (c * u + sqrt (b * b + c * c * (u * u))).
Lemma H_deriv : forall u, is_derive Hf u (sqrt (b * b + c * c * (u * u))).
Proof.
  intros u. pose proof c_pos as P. unfold Hf.
  assert (U: 0 < b * b + c * c * (u * u)) by nra.
  pose proof (sqrt_lt_R0 _ U) as Q. pose proof (sqrt_sqrt _ (Rlt_le _ _ U)) as Q2.
  assert (W: 0 < c * u + sqrt (b * b + c * c * (u * u))).
  { destruct (Rle_dec 0 (c * u)); [lra|]. assert (Rabs (c * u) < sqrt (b * b + c * c * (u * u))); [|rewrite Rabs_left in *; lra].
    rewrite <- (sqrt_Rsqr_abs (c * u)). apply sqrt_lt_1; unfold Rsqr; nra. }
  auto_derive; [repeat split; auto|]. set (s := sqrt (b * b + c * c * (u * u))) in *.
  match goal with |- ?l = _ => replace l with ((s * s + c * c * (u * u) + b * b) / (2 * s)) by (field; repeat split; lra) end.
  apply Rmult_eq_reg_r with (2 * s); [|lra]. transitivity (2 * (s * s)); [rewrite Q2; field; lra | ring].
Qed.
Lemma area_oblate : is_RInt (area_density a b) 0 PI (2 * PI * (a * a) + PI * (b * b) * (a / c) * ln ((1 + c / a) / (1 - c / a))).
Proof.
  pose proof c_pos as P. pose proof c_sqr as C2. pose proof c_lt as CA.
  assert (E: is_RInt (area_density a b) 0 PI (- (2 * PI * a) * Hf (cos PI) - - (2 * PI * a) * Hf (cos 0))).
  { apply (RInt_back (fun t => - (2 * PI * a) * Hf (cos t))); [|intros; apply area_continuous; lra].
    intros t. apply is_derive_Reals. evar_last; [apply (is_derive_scal (fun t => Hf (cos t))); apply (is_derive_comp Hf cos); [apply H_deriv | apply is_derive_cos]|].
    unfold area_density. replace (a * cos t * (a * cos t) + - b * sin t * (- b * sin t)) with (b * b + c * c * (cos t * cos t)).
    - unfold scal. cbn. unfold mult. cbn. ring.
    - rewrite C2. pose proof (sin2_cos2 t) as S. unfold Rsqr in S. replace (- b * sin t * (- b * sin t)) with (b * b * (sin t * sin t)) by ring. replace (sin t * sin t) with (1 - cos t * cos t) by lra. ring. }
  match type of E with is_RInt _ _ _ ?v => match goal with |- is_RInt _ _ _ ?w => replace w with v; [exact E|] end end.
  rewrite cos_PI, cos_0. unfold Hf. replace (b * b + c * c * (-1 * -1)) with (a * a) by (rewrite C2; ring). replace (b * b + c * c * (1 * 1)) with (a * a) by (rewrite C2; ring).
  rewrite sqrt_square by lra. replace ((1 + c / a) / (1 - c / a)) with ((a + c) / (a - c)) by (field; lra). assert (LD: ln ((a + c) / (a - c)) = ln (a + c) - ln (a - c)) by (unfold Rdiv; rewrite ln_mult by (try apply Rinv_0_lt_compat; lra); rewrite ln_Rinv by lra; ring). rewrite LD.
  replace (c * -1 + a) with (a - c) by ring. replace (c * 1 + a) with (a + c) by ring. field. lra.
Qed.
End Oblate.

Section Prolate.
Variables (a b : R).
Hypothesis A : 0 < a.
Hypothesis AB : a < b.
Let c := sqrt (b * b - a * a).
Lemma pc_pos : 0 < c. Proof. apply sqrt_lt_R0. nra. Qed.
Lemma pc_sqr : c * c = b * b - a * a. Proof. apply sqrt_sqrt. nra. Qed.
Lemma pc_lt : c < b.
Proof. pose proof pc_sqr. pose proof pc_pos. nra. Qed.
Let Hf (u : R) := u * sqrt (b * b - c * c * (u * u)) / 2 + b * b / (2 * c) * asin (c / b * u).
Lemma pH_deriv : forall u, -1 <= u <= 1 -> is_derive Hf u (sqrt (b * b - c * c * (u * u))).
Proof.
  intros u Hu. pose proof pc_pos as P. pose proof pc_sqr as C2. pose proof pc_lt as L. unfold Hf.
  assert (U: 0 < b * b - c * c * (u * u)) by (rewrite C2; assert (u * u <= 1) by nra; nra).
  pose proof (sqrt_lt_R0 _ U) as Q. pose proof (sqrt_sqrt _ (Rlt_le _ _ U)) as Q2.
  assert (R1: 0 < c / b < 1) by (split; [apply Rdiv_lt_0_compat; lra | apply Rmult_lt_reg_r with b; [lra|]; replace (c / b * b) with c by (field; lra); lra]).
  assert (D1: is_derive (fun u => u * sqrt (b * b - c * c * (u * u)) / 2) u (sqrt (b * b - c * c * (u * u)) / 2 - c * c * (u * u) / (2 * sqrt (b * b - c * c * (u * u))))).
  { auto_derive; [lra|]. change (b * b + - (c * c * (u * u))) with (b * b - c * c * (u * u)). field. lra. }
  assert (D2: is_derive (fun u => b * b / (2 * c) * asin (c / b * u)) u (b * b / (2 * c) * (c / b * / sqrt (1 - (c / b * u) * (c / b * u))))).
  { apply (is_derive_scal (fun u => asin (c / b * u))). apply (is_derive_comp asin (fun u => c / b * u)); [apply is_derive_asin; nra|]. auto_derive; auto. ring. }
  evar_last; [apply (is_derive_plus _ _ _ _ _ D1 D2)|]. unfold plus. cbn -[Rplus Rmult Rdiv].
  replace (1 - c / b * u * (c / b * u)) with ((b * b - c * c * (u * u)) / (b * b)) by (field; lra).
  rewrite sqrt_div_alt by nra. rewrite sqrt_square by lra. set (s := sqrt (b * b - c * c * (u * u))) in *.
  apply Rmult_eq_reg_r with (2 * s); [|lra]. transitivity (2 * (s * s)); [rewrite Q2; field_simplify_eq; [|repeat split; lra] | ring].
  replace (s ^ 2) with (s * s) by ring. rewrite Q2. ring.
Qed.
Lemma area_prolate : is_RInt (area_density a b) 0 PI (2 * PI * (a * a) + 2 * PI * (a * b) * (b / c) * asin (c / b)).
Proof.
  pose proof pc_pos as P. pose proof pc_sqr as C2. pose proof pc_lt as CA.
  assert (E: is_RInt (area_density a b) 0 PI (- (2 * PI * a) * Hf (cos PI) - - (2 * PI * a) * Hf (cos 0))).
  { apply (RInt_back (fun t => - (2 * PI * a) * Hf (cos t))); [|intros; apply area_continuous; lra].
    intros t. apply is_derive_Reals. evar_last; [apply (is_derive_scal (fun t => Hf (cos t))); apply (is_derive_comp Hf cos); [apply pH_deriv; apply COS_bound | apply is_derive_cos]|].
    unfold area_density. replace (a * cos t * (a * cos t) + - b * sin t * (- b * sin t)) with (b * b - c * c * (cos t * cos t)).
    - unfold scal. cbn. unfold mult. cbn. ring.
    - rewrite C2. pose proof (sin2_cos2 t) as S. unfold Rsqr in S. replace (- b * sin t * (- b * sin t)) with (b * b * (sin t * sin t)) by ring. replace (sin t * sin t) with (1 - cos t * cos t) by lra. ring. }
  match type of E with is_RInt _ _ _ ?v => match goal with |- is_RInt _ _ _ ?w => replace w with v; [exact E|] end end.
  rewrite cos_PI, cos_0. unfold Hf. replace (b * b - c * c * (-1 * -1)) with (a * a) by (rewrite C2; ring). replace (b * b - c * c * (1 * 1)) with (a * a) by (rewrite C2; ring).
  rewrite sqrt_square by lra. replace (c / b * -1) with (- (c / b)) by ring. rewrite asin_opp, Rmult_1_r. field. lra.
Qed.
End Prolate.
Lemma area_sphere : forall a, 0 < a -> is_RInt (area_density a a) 0 PI (4 * PI * (a * a)).
Proof.
  intros a A. apply (is_RInt_ext (fun t => 2 * PI * (a * a) * sin t)).
  - intros t _. unfold area_density. replace (a * cos t * (a * cos t) + - a * sin t * (- a * sin t)) with (a * a).
    + rewrite sqrt_square by lra. match goal with |- ?l = ?r => change (@eq R l r) end. ring.
    + pose proof (sin2_cos2 t) as S. unfold Rsqr in S. replace (cos t) with (cos t) by auto. replace (a * cos t * (a * cos t) + - a * sin t * (- a * sin t)) with (a * a * (sin t * sin t + cos t * cos t)) by ring. rewrite S. ring.
  - replace (4 * PI * (a * a)) with (- (2 * PI * (a * a)) * cos PI - - (2 * PI * (a * a)) * cos 0) by (rewrite cos_PI, cos_0; ring).
    apply (RInt_back (fun t => - (2 * PI * (a * a)) * cos t)).
    + intros t. apply is_derive_Reals. evar_last; [apply (is_derive_scal cos); apply is_derive_cos|]. unfold scal. cbn. unfold mult. cbn. ring.
    + intros t. apply (ex_derive_continuous (fun t => 2 * PI * (a * a) * sin t)). auto_derive. auto.
Qed.

(* ------------------------------------------------ the shape factor as a function of the eccentricity *)
Definition Lp (e : R) : R := (1 - e * e) * (lnq e / (2 * e) - 1) / (e * e).
Definition Lo (e : R) : R := (1 - sqrt (1 - e * e) * asin e / e) / (e * e).
Definition Kp (e : R) : R := (3 - e * e) * lnq e - 6 * e.
Definition Ko (e : R) : R := (3 - 2 * (e * e)) * asin e - 3 * e * sqrt (1 - e * e).

Lemma Lp_deriv : forall e, 0 < e < 1 -> is_derive Lp e (- (Kp e / (2 * (e * e * (e * e))))).
Proof.
  intros e H. pose proof (is_derive_lnq e ltac:(lra)) as D. unfold Lp, Kp.
  assert (E: ex_derive lnq e) by (eexists; exact D). pose proof (is_derive_unique _ _ _ D) as U.
  auto_derive; [repeat split; auto; nra|]. change (Derive (fun x => lnq x) e) with (Derive lnq e). rewrite U. field. repeat split; nra.
Qed.
Lemma Lo_deriv : forall e, 0 < e < 1 -> is_derive Lo e (Ko e / (sqrt (1 - e * e) * (e * e * (e * e)))).
Proof.
  intros e H. pose proof (is_derive_asin e ltac:(lra)) as D. unfold Lo, Ko.
  assert (E: ex_derive asin e) by (eexists; exact D). pose proof (is_derive_unique _ _ _ D) as U.
  pose proof (sqrt1_pos e ltac:(lra)) as Q. pose proof (sqrt1_sqr e ltac:(lra)) as Q2.
  auto_derive; [repeat split; auto; nra|]. change (Derive (fun x => asin x) e) with (Derive asin e). rewrite U.
  change (1 + - (e * e)) with (1 - e * e). set (s := sqrt (1 - e * e)) in *. set (t := asin e).
  apply Rmult_eq_reg_r with (s * (e * e * (e * e))); [|assert (0 < e * e) by nra; assert (0 < e * e * (e * e)) by nra; nra].
  field_simplify_eq; [|repeat split; nra]. replace (s ^ 2) with (1 - e * e) by (rewrite <- Q2; ring). ring.
Qed.
Ltac deriv := apply is_derive_Reals.
Lemma lnq_lower : forall e, 0 < e < 1 -> 6 * e / (3 - e * e) < lnq e.
Proof.
  intros e H. apply (compare_lt (fun e => 6 * e / (3 - e * e)) lnq (fun e => 6 * (3 + e * e) / ((3 - e * e) * (3 - e * e))) (fun e => 2 / (1 - e * e)) 1); auto.
  - intros x Hx. auto_derive; [nra|]. field. nra.
  - intros x Hx. apply is_derive_lnq. lra.
  - rewrite lnq_0. unfold Rdiv. lra.
  - intros x Hx. assert (0 < 1 - x * x) by nra. assert (0 < 3 - x * x) by nra. assert (0 < x * x * (x * x)) by (assert (0 < x * x) by nra; nra).
    apply Rmult_lt_reg_r with ((3 - x * x) * (3 - x * x) * (1 - x * x)); [repeat apply Rmult_lt_0_compat; auto|].
    replace (6 * (3 + x * x) / ((3 - x * x) * (3 - x * x)) * ((3 - x * x) * (3 - x * x) * (1 - x * x))) with (6 * (3 + x * x) * (1 - x * x)) by (field; lra).
    replace (2 / (1 - x * x) * ((3 - x * x) * (3 - x * x) * (1 - x * x))) with (2 * (3 - x * x) * (3 - x * x)) by (field; lra). nra.
Qed.
Lemma lnq_upper : forall e, 0 < e < 1 -> lnq e < 2 * e + 2 * (e * e * e) / (3 * (1 - e * e)).
Proof.
  intros e H. apply (compare_lt lnq (fun e => 2 * e + 2 * (e * e * e) / (3 * (1 - e * e))) (fun e => 2 / (1 - e * e)) (fun e => 2 + 2 * (3 * (e * e) - e * e * (e * e)) / (3 * ((1 - e * e) * (1 - e * e)))) 1); auto.
  - intros x Hx. apply is_derive_lnq. lra.
  - intros x Hx. auto_derive; [nra|]. field. nra.
  - rewrite lnq_0. unfold Rdiv. lra.
  - intros x Hx. assert (0 < 1 - x * x) by nra. assert (0 < x * x * (x * x)) by (assert (0 < x * x) by nra; nra).
    apply Rmult_lt_reg_r with (3 * ((1 - x * x) * (1 - x * x))); [repeat apply Rmult_lt_0_compat; auto; lra|].
    replace (2 / (1 - x * x) * (3 * ((1 - x * x) * (1 - x * x)))) with (6 * (1 - x * x)) by (field; lra).
    match goal with |- _ < ?r => replace r with (6 * ((1 - x * x) * (1 - x * x)) + 2 * (3 * (x * x) - x * x * (x * x))) by (field; lra) end. nra.
Qed.
Lemma asin_lower : forall e, 0 < e < 1 -> 3 * e * sqrt (1 - e * e) / (3 - 2 * (e * e)) < asin e.
Proof.
  intros e H. apply (compare_lt (fun e => 3 * e * sqrt (1 - e * e) / (3 - 2 * (e * e))) asin (fun e => 3 * (3 - 4 * (e * e)) / (sqrt (1 - e * e) * ((3 - 2 * (e * e)) * (3 - 2 * (e * e))))) (fun e => / sqrt (1 - e * e)) 1); auto.
  - intros x Hx. pose proof (sqrt1_pos x Hx) as Q. pose proof (sqrt1_sqr x Hx) as Q2.
    auto_derive; [split; [nra|]; split; auto; nra|]. change (1 + - (x * x)) with (1 - x * x). set (s := sqrt (1 - x * x)) in *. field_simplify_eq; [|repeat split; nra].
    replace (s ^ 2) with (1 - x * x) by (rewrite <- Q2; ring). ring.
  - intros x Hx. apply is_derive_asin. lra.
  - rewrite asin_0. unfold Rdiv. lra.
  - intros x Hx. pose proof (sqrt1_pos x ltac:(lra)) as Q. assert (0 < 3 - 2 * (x * x)) by nra. assert (0 < x * x * (x * x)) by (assert (0 < x * x) by nra; nra). set (s := sqrt (1 - x * x)) in *.
    apply Rmult_lt_reg_r with (s * ((3 - 2 * (x * x)) * (3 - 2 * (x * x)))); [repeat apply Rmult_lt_0_compat; auto; lra|].
    replace (/ s * (s * ((3 - 2 * (x * x)) * (3 - 2 * (x * x))))) with ((3 - 2 * (x * x)) * (3 - 2 * (x * x))) by (field; lra).
    match goal with |- ?r < _ => replace r with (3 * (3 - 4 * (x * x))) by (field; lra) end. nra.
Qed.
Lemma Kp_pos : forall e, 0 < e < 1 -> 0 < Kp e.
Proof. intros e H. unfold Kp. pose proof (lnq_lower e H) as L. assert (0 < 3 - e * e) by nra. apply (Rmult_lt_compat_l (3 - e * e)) in L; auto. replace ((3 - e * e) * (6 * e / (3 - e * e))) with (6 * e) in L by (field; lra). lra. Qed.
Lemma Ko_pos : forall e, 0 < e < 1 -> 0 < Ko e.
Proof. intros e H. unfold Ko. pose proof (asin_lower e H) as L. assert (0 < 3 - 2 * (e * e)) by nra. apply (Rmult_lt_compat_l (3 - 2 * (e * e))) in L; auto. replace ((3 - 2 * (e * e)) * (3 * e * sqrt (1 - e * e) / (3 - 2 * (e * e)))) with (3 * e * sqrt (1 - e * e)) in L by (field; lra). lra. Qed.

(* ------------------------------------------------ polynomial bounds *)
Lemma lnq_poly : forall e, 0 < e < 1 ->
  2 * e + 2 * e ^ 3 / 3 + 2 * e ^ 5 / 5 + 2 * e ^ 7 / 7 + 2 * e ^ 9 / 9 <= lnq e <=
  2 * e + 2 * e ^ 3 / 3 + 2 * e ^ 5 / 5 + 2 * e ^ 7 / 7 + 2 * e ^ 9 / 9 + 2 * e ^ 11 / (11 * (1 - e * e)).
Proof.
  intros e H. set (p := fun e => 2 * e + 2 * e ^ 3 / 3 + 2 * e ^ 5 / 5 + 2 * e ^ 7 / 7 + 2 * e ^ 9 / 9).
  set (p' := fun e => 2 * (1 + e ^ 2 + e ^ 4 + e ^ 6 + e ^ 8)).
  assert (D: forall x, is_derive p x (p' x)) by (intros x; unfold p, p'; auto_derive; auto; field).
  assert (ID: forall x, 0 < x < 1 -> 2 / (1 - x * x) = p' x + 2 * x ^ 10 / (1 - x * x)) by (intros x Hx; unfold p'; field; nra).
  split.
  - apply (compare p lnq p' (fun e => 2 / (1 - e * e)) 1); auto; try lra.
    + intros x Hx. apply is_derive_lnq. lra.
    + rewrite lnq_0. unfold p. cbn [pow]. lra.
    + intros x Hx. rewrite ID by auto. assert (0 < 2 * x ^ 10 / (1 - x * x)); [|lra]. apply Rdiv_lt_0_compat; [|nra]. assert (0 < x ^ 10) by (apply pow_lt; lra). lra.
  - apply (compare lnq (fun e => p e + 2 * e ^ 11 / (11 * (1 - e * e))) (fun e => 2 / (1 - e * e)) (fun e => p' e + (2 * e ^ 10 / (1 - e * e) + 4 * e ^ 12 / (11 * ((1 - e * e) * (1 - e * e))))) 1); try lra.
    + intros x Hx. apply is_derive_lnq. lra.
    + intros x Hx. apply (is_derive_plus p (fun e => 2 * e ^ 11 / (11 * (1 - e * e)))); auto. auto_derive; [nra|]. field. nra.
    + rewrite lnq_0. unfold p. cbn [pow]. lra.
    + intros x Hx. rewrite ID by auto. assert (0 < 4 * x ^ 12 / (11 * ((1 - x * x) * (1 - x * x)))); [|lra].
      assert (0 < x ^ 12) by (apply pow_lt; lra). assert (0 < 1 - x * x) by nra. apply Rdiv_lt_0_compat; [lra|]. assert (0 < (1 - x * x) * (1 - x * x)) by nra. lra.
Qed.
Definition yo (e : R) := e - e ^ 3 / 3 - 2 * e ^ 5 / 15 - 8 * e ^ 7 / 105 - 16 * e ^ 9 / 315.
Lemma asin_poly : forall e, 0 < e < 1 -> yo e - e ^ 11 / 2 <= sqrt (1 - e * e) * asin e <= yo e.
Proof.
  intros e H.
  assert (DY: forall x, is_derive yo x (1 - x ^ 2 - 2 * x ^ 4 / 3 - 8 * x ^ 6 / 15 - 16 * x ^ 8 / 35)) by (intros x; unfold yo; auto_derive; auto; field).
  assert (DQ: forall (f : R -> R) f' x, is_derive f x f' -> 0 <= x < 1 -> is_derive (fun e => f e / sqrt (1 - e * e)) x ((f' * (1 - x * x) + x * f x) / (sqrt (1 - x * x) * (1 - x * x)))).
  { intros f f' x D Hx. pose proof (sqrt1_pos x Hx) as Q. pose proof (sqrt1_sqr x Hx) as Q2. assert (E: ex_derive f x) by (eexists; exact D). pose proof (is_derive_unique _ _ _ D) as U.
    auto_derive; [repeat split; auto; first [apply Rgt_not_eq; exact Q | nra]|]. change (Derive (fun x0 => f x0) x) with (Derive f x). rewrite U. change (1 + - (x * x)) with (1 - x * x).
    set (s := sqrt (1 - x * x)) in *. rewrite <- Q2. field. lra. }
  pose proof (sqrt1_pos e ltac:(lra)) as Qe.
  assert (IV: forall x, 0 < x < 1 -> / sqrt (1 - x * x) = (1 - x * x) / (sqrt (1 - x * x) * (1 - x * x))) by (intros x Hx; pose proof (sqrt1_pos x ltac:(lra)); field; nra).
  assert (P: forall x u v, 0 < x < 1 -> u <= v -> u / (sqrt (1 - x * x) * (1 - x * x)) <= v / (sqrt (1 - x * x) * (1 - x * x))).
  { intros x u v Hx Huv. apply Rmult_le_compat_r; auto. left. apply Rinv_0_lt_compat. apply Rmult_lt_0_compat; [apply sqrt1_pos; lra | nra]. }
  split.
  - assert (X: (yo e - e ^ 11 / 2) / sqrt (1 - e * e) <= asin e).
    { refine (compare (fun e => (yo e - e ^ 11 / 2) / sqrt (1 - e * e)) asin _ (fun e => / sqrt (1 - e * e)) 1 _ _ _ _ e _); [| | | |lra].
      - intros x Hx. apply (DQ (fun e => yo e - e ^ 11 / 2)); auto. apply (is_derive_minus yo (fun e => e ^ 11 / 2)); [apply DY|]. evar_last; [auto_derive; auto|reflexivity].
      - intros x Hx. apply is_derive_asin. lra.
      - rewrite asin_0. unfold yo, Rdiv. cbn [pow]. lra.
      - intros x Hx. cbv beta. rewrite (IV x Hx). apply P; auto. unfold minus, plus, opp. cbn -[Rplus Rmult Ropp Rminus pow Rinv Rdiv]. unfold yo. cbn [pow Nat.pred INR].
        assert (X10: 0 < x ^ 10) by (apply pow_lt; lra). assert (X2: 0 <= 1 - x * x) by nra.
        match goal with |- ?l <= _ => replace l with (1 - x * x + x ^ 10 * (128 / 315 - 11 / 2 + 5 * (x * x))) by (cbn [pow]; field) end. nra. }
    apply (Rmult_le_compat_r (sqrt (1 - e * e))) in X; [|lra]. replace ((yo e - e ^ 11 / 2) / sqrt (1 - e * e) * sqrt (1 - e * e)) with (yo e - e ^ 11 / 2) in X by (field; lra). lra.
  - assert (X: asin e <= yo e / sqrt (1 - e * e)).
    { refine (compare asin (fun e => yo e / sqrt (1 - e * e)) (fun e => / sqrt (1 - e * e)) _ 1 _ _ _ _ e _); [| | | |lra].
      - intros x Hx. apply is_derive_asin. lra.
      - intros x Hx. apply DQ; auto.
      - rewrite asin_0. unfold yo, Rdiv. cbn [pow]. lra.
      - intros x Hx. cbv beta. rewrite (IV x Hx). apply P; auto. unfold yo.
        assert (X10: 0 < x ^ 10) by (apply pow_lt; lra).
        match goal with |- _ <= ?l => replace l with (1 - x * x + 128 / 315 * x ^ 10) by (cbn [pow]; field) end. lra. }
    apply (Rmult_le_compat_r (sqrt (1 - e * e))) in X; [|lra]. replace (yo e / sqrt (1 - e * e) * sqrt (1 - e * e)) with (yo e) in X by (field; lra). lra.
Qed.

Lemma Lp_near : forall e, 0 < e < 1 -> Rabs (Lp e - 1 / 3 + 2 * (e * e) / 15) <= (e * e) * (e * e).
Proof.
  intros e H. destruct (lnq_poly e H) as (A & B). set (x := e * e). assert (X: 0 < x < 1) by (unfold x; nra).
  assert (L1: 1 / 3 + x / 5 + x * x / 7 + x * x * x / 9 <= (lnq e / (2 * e) - 1) / x <= 1 / 3 + x / 5 + x * x / 7 + x * x * x / 9 + x * x * x * x / (11 * (1 - x))).
  { split; apply Rmult_le_reg_r with (2 * e * x); try nra; replace ((lnq e / (2 * e) - 1) / x * (2 * e * x)) with (lnq e - 2 * e) by (field; split; lra).
    - eapply Rle_trans; [|apply Rplus_le_compat_r; exact A]. right. unfold x. field.
    - eapply Rle_trans; [apply Rplus_le_compat_r; exact B|]. right. unfold x. field. nra. }
  assert (E: Lp e = (1 - x) * ((lnq e / (2 * e) - 1) / x)) by (unfold Lp, x; field; lra). rewrite E. destruct L1 as (L1 & L2).
  set (l := (lnq e / (2 * e) - 1) / x) in *. assert (X1: 0 < 1 - x) by lra.
  assert (U: (1 - x) * l <= (1 - x) * (1 / 3 + x / 5 + x * x / 7 + x * x * x / 9) + x * x * x * x / 11).
  { eapply Rle_trans; [apply Rmult_le_compat_l; [lra | exact L2]|]. right. field. lra. }
  assert (V: (1 - x) * (1 / 3 + x / 5 + x * x / 7 + x * x * x / 9) <= (1 - x) * l) by (apply Rmult_le_compat_l; lra).
  assert (0 < x * x) by nra. assert (x * x * x <= x * x) by nra. assert (x * x * x * x <= x * x * x) by nra.
  apply Rabs_le. replace (e * e) with x by auto. nra.
Qed.
Lemma Lo_near : forall e, 0 < e < 1 -> 1 / 3 + 2 * (e * e) / 15 < Lo e <= 1 / 3 + 2 * (e * e) / 15 + (e * e) * (e * e).
Proof.
  intros e H. destruct (asin_poly e H) as (A & B). set (x := e * e). assert (X: 0 < x < 1) by (unfold x; nra).
  set (y := sqrt (1 - e * e) * asin e) in *.
  assert (E: Lo e * (e * x) = e - y) by (unfold Lo, y, x; field; lra).
  assert (P: 0 < e * x) by nra. assert (0 < x * x) by nra. assert (0 < x * x * x <= x * x) by nra. assert (0 < x * x * x * x <= x * x * x) by nra.
  split; [apply Rmult_lt_reg_r with (e * x) | apply Rmult_le_reg_r with (e * x)]; auto; rewrite E; unfold yo in *.
  - apply Rlt_le_trans with (e - (e - e ^ 3 / 3 - 2 * e ^ 5 / 15 - 8 * e ^ 7 / 105 - 16 * e ^ 9 / 315)); [|lra].
    replace (e - (e - e ^ 3 / 3 - 2 * e ^ 5 / 15 - 8 * e ^ 7 / 105 - 16 * e ^ 9 / 315)) with ((1 / 3 + 2 * x / 15 + 8 * (x * x) / 105 + 16 * (x * x * x) / 315) * (e * x)) by (unfold x; field). apply Rmult_lt_compat_r; lra.
  - apply Rle_trans with (e - (e - e ^ 3 / 3 - 2 * e ^ 5 / 15 - 8 * e ^ 7 / 105 - 16 * e ^ 9 / 315 - e ^ 11 / 2)); [lra|].
    replace (e - (e - e ^ 3 / 3 - 2 * e ^ 5 / 15 - 8 * e ^ 7 / 105 - 16 * e ^ 9 / 315 - e ^ 11 / 2)) with ((1 / 3 + 2 * x / 15 + 8 * (x * x) / 105 + 16 * (x * x * x) / 315 + x * x * x * x / 2) * (e * x)) by (unfold x; field). apply Rmult_le_compat_r; lra.
Qed.
Lemma Lp_range : forall e, 0 < e < 1 -> 0 < Lp e < 1 / 3.
Proof.
  intros e H. set (x := e * e). assert (X: 0 < x < 1) by (unfold x; nra). pose proof (lnq_lower e H) as A. pose proof (lnq_upper e H) as B. fold x in A, B. assert (EX: 0 < e * x) by nra.
  assert (E: Lp e * (2 * e * x) = (1 - x) * (lnq e - 2 * e)) by (unfold Lp, x; field; lra).
  assert (P: 0 < 2 * e * x) by nra. split; apply Rmult_lt_reg_r with (2 * e * x); auto; rewrite E.
  - rewrite Rmult_0_l. apply Rmult_lt_0_compat; [lra|]. assert (2 * e < 6 * e / (3 - x)); [|lra]. apply Rmult_lt_reg_r with (3 - x); [lra|]. replace (6 * e / (3 - x) * (3 - x)) with (6 * e) by (field; lra). nra.
  - apply Rlt_le_trans with ((1 - x) * (2 * (x * e) / (3 * (1 - x)))); [apply Rmult_lt_compat_l; lra|]. right. unfold x. field. nra.
Qed.
Lemma Lo_range : forall e, 0 < e < 1 -> 1 / 3 < Lo e < 1.
Proof.
  intros e H. split; [pose proof (Lo_near e H); assert (0 < e * e) by nra; lra|]. pose proof (asin_lower e H) as A. pose proof (sqrt1_pos e ltac:(lra)) as Q. pose proof (sqrt1_sqr e ltac:(lra)) as Q2.
  set (s := sqrt (1 - e * e)) in *. assert (X: 0 < e * e < 1) by nra.
  assert (B: e * s < asin e).
  { eapply Rle_lt_trans; [|exact A]. apply Rmult_le_reg_r with (3 - 2 * (e * e)); [lra|]. replace (3 * e * s / (3 - 2 * (e * e)) * (3 - 2 * (e * e))) with (3 * e * s) by (field; lra). assert (0 < e * s) by nra. nra. }
  unfold Lo. fold s. apply Rmult_lt_reg_r with (e * e); [lra|]. replace ((1 - s * asin e / e) / (e * e) * (e * e)) with (1 - s * asin e / e) by (field; lra).
  assert (s * s < s * asin e / e); [|lra]. apply Rmult_lt_reg_r with e; [lra|]. replace (s * asin e / e * e) with (s * asin e) by (field; lra). nra.
Qed.
(** near the sphere *)
Lemma sqrt_near : forall s x, 0 < x <= / 100000 -> 0 < s -> s * s = 1 - x -> 1 - x / 2 - x * x / 8 - x * x * x / 8 <= s <= 1 - x / 2 - x * x / 8.
Proof.
  intros s x X P E. assert (0 < x * x < x) by nra. assert (0 < x * x * x < x * x) by nra. assert (0 < x * x * (x * x) < x * x * x) by nra. assert (x * x * x * (x * x) > 0) by nra.
  split.
  - apply Rnot_lt_le. intro C. assert (s * s < (1 - x / 2 - x * x / 8 - x * x * x / 8) * (1 - x / 2 - x * x / 8 - x * x * x / 8)) by nra. rewrite E in *.
    replace ((1 - x / 2 - x * x / 8 - x * x * x / 8) * (1 - x / 2 - x * x / 8 - x * x * x / 8)) with (1 - x - x * x * x / 8 + 9 * (x * x * (x * x)) / 64 + x * x * x * (x * x) / 32 + x * x * x * (x * x * x) / 64) in * by field.
    assert (x * x * (x * x) <= / 100000 * (x * x * x)) by nra. assert (x * x * x * (x * x) <= / 100000 * (x * x * x)) by nra. assert (x * x * x * (x * x * x) <= / 100000 * (x * x * x)) by nra. lra.
  - apply Rnot_lt_le. intro C. assert (0 < 1 - x / 2 - x * x / 8) by lra. assert ((1 - x / 2 - x * x / 8) * (1 - x / 2 - x * x / 8) < s * s) by nra. rewrite E in *.
    replace ((1 - x / 2 - x * x / 8) * (1 - x / 2 - x * x / 8)) with (1 - x + x * x * x / 8 + x * x * (x * x) / 64) in * by field. lra.
Qed.
Lemma jac_p_near : forall e, 0 < e < 1 -> e * e <= / 100000 ->
  Rabs (sqrt (1 - e * e) * Kp e / (2 * (e * e * (e * e) * e)) - (4 / 15 + 2 * (e * e) / 21 + 3 * (e * e) * (e * e) / 70)) <= (e * e) * (e * e) * (e * e).
Proof.
  intros e H W. destruct (lnq_poly e H) as (A & B). pose proof (sqrt1_pos e ltac:(lra)) as Q. pose proof (sqrt1_sqr e ltac:(lra)) as Q2.
  set (s := sqrt (1 - e * e)) in *. set (x := e * e) in *. assert (X: 0 < x <= / 100000) by (split; [unfold x; nra | auto]).
  destruct (sqrt_near s x X Q Q2) as (S1 & S2).
  set (k := Kp e / (2 * (x * x * e))). replace (s * Kp e / (2 * (x * x * e))) with (s * k) by (unfold k; field; split; lra).
  assert (P: 0 < 2 * (x * x * e)) by (assert (0 < x * x) by nra; nra).
  assert (K1: 4 / 15 + 8 * x / 35 + 4 * (x * x) / 21 - x * x * x / 9 <= k).
  { apply Rmult_le_reg_r with (2 * (x * x * e)); auto. replace (k * (2 * (x * x * e))) with (Kp e) by (unfold k; field; split; lra). unfold Kp. fold x.
    apply (Rmult_le_compat_l (3 - x)) in A; [|lra]. eapply Rle_trans; [|apply Rplus_le_compat_r; exact A]. right. unfold x. field. }
  assert (K2: k <= 4 / 15 + 8 * x / 35 + 4 * (x * x) / 21 + x * x * x / 2).
  { apply Rmult_le_reg_r with (2 * (x * x * e)); auto. replace (k * (2 * (x * x * e))) with (Kp e) by (unfold k; field; split; lra). unfold Kp. fold x.
    apply (Rmult_le_compat_l (3 - x)) in B; [|lra]. eapply Rle_trans; [apply Rplus_le_compat_r; exact B|].
    apply Rle_trans with ((4 / 15 + 8 * x / 35 + 4 * (x * x) / 21 - x * x * x / 9 + (3 - x) * (x * x * x) / (11 * (1 - x))) * (2 * (x * x * e))).
    - right. unfold x. field. unfold x in X. nra.
    - apply Rmult_le_compat_r; [lra|]. assert (X3: 0 < x * x * x) by (assert (0 < x * x) by nra; nra). assert ((3 - x) * (x * x * x) / (11 * (1 - x)) <= 3 / 10 * (x * x * x)); [|lra].
      apply Rmult_le_reg_r with (11 * (1 - x)); [lra|]. replace ((3 - x) * (x * x * x) / (11 * (1 - x)) * (11 * (1 - x))) with ((3 - x) * (x * x * x)) by (field; lra). nra. }
  clearbody k s x. clear A B Q2 Q P. assert (Y: 0 < x * x <= / 100000 * x) by nra. assert (Z: 0 < x * x * x <= / 100000 * (x * x)) by nra. assert (Z4: 0 < x * x * x * x <= / 100000 * (x * x * x)) by nra.
  set (y := x * x) in *. set (z := y * x) in *. assert (Z5: 0 < z * x) by nra.
  set (P := 1 - x / 2 - y / 8) in *. set (Qk := 4 / 15 + 8 * x / 35 + 4 * y / 21) in *.
  assert (PQ: P * Qk = 4 / 15 + 2 * x / 21 + 3 * x * x / 70 - 13 / 105 * z - z * x / 42) by (unfold P, Qk, z, y; field).
  assert (s * k - P * Qk = (s - P) * k + P * (k - Qk)) by ring. assert (BK: 0 <= k <= 1) by (unfold Qk in *; lra). assert (BP: 0 <= P <= 1) by (unfold P; lra).
  assert (U1: - (z / 8) <= (s - P) * k <= 0) by nra. assert (U2: - (z / 9) <= P * (k - Qk) <= z / 2) by nra.
  apply Rabs_le. replace (y * x) with z by auto. split; lra.
Qed.
Lemma jac_o_near : forall e, 0 < e < 1 -> e * e <= / 100000 ->
  Rabs ((1 - e * e) * Ko e / (e * e * (e * e) * e) - (4 / 15 - 2 * (e * e) / 21 - 11 * (e * e) * (e * e) / 210)) <= 2 * ((e * e) * (e * e) * (e * e)).
Proof.
  intros e H W. destruct (asin_poly e H) as (A & B). pose proof (sqrt1_pos e ltac:(lra)) as Q. pose proof (sqrt1_sqr e ltac:(lra)) as Q2.
  unfold Ko. set (s := sqrt (1 - e * e)) in *. set (t := asin e) in *. set (x := e * e) in *. assert (X: 0 < x <= / 100000) by (split; [unfold x; nra | auto]).
  destruct (sqrt_near s x X Q Q2) as (S1 & S2).
  set (k := ((3 - 2 * x) * (s * t) - 3 * e * (1 - x)) / (x * x * e)).
  replace ((1 - x) * ((3 - 2 * x) * t - 3 * e * s) / (x * x * e)) with (s * k) by (unfold k; rewrite <- Q2; field; split; lra).
  assert (P: 0 < x * x * e) by (assert (0 < x * x) by nra; nra).
  assert (K1: 4 / 15 + 4 * x / 105 - 3 / 2 * (x * x * x) <= k).
  { apply Rmult_le_reg_r with (x * x * e); auto. replace (k * (x * x * e)) with ((3 - 2 * x) * (s * t) - 3 * e * (1 - x)) by (unfold k; field; split; lra).
    apply (Rmult_le_compat_l (3 - 2 * x)) in A; [|lra]. eapply Rle_trans; [|apply Rplus_le_compat_r; exact A]. unfold yo.
    apply Rle_trans with ((4 / 15 + 4 * x / 105 + 32 / 315 * (x * x * x) - (3 - 2 * x) / 2 * (x * x * x)) * (x * x * e)); [|right; unfold x; field].
    apply Rmult_le_compat_r; [lra|]. assert (0 < x * x * x) by (assert (0 < x * x) by nra; nra). nra. }
  assert (K2: k <= 4 / 15 + 4 * x / 105 + 32 / 315 * (x * x * x)).
  { apply Rmult_le_reg_r with (x * x * e); auto. replace (k * (x * x * e)) with ((3 - 2 * x) * (s * t) - 3 * e * (1 - x)) by (unfold k; field; split; lra).
    apply (Rmult_le_compat_l (3 - 2 * x)) in B; [|lra]. eapply Rle_trans; [apply Rplus_le_compat_r; exact B|]. right. unfold yo, x. field. }
  clearbody k s x. clear A B Q2 Q P. assert (Y: 0 < x * x <= / 100000 * x) by nra. assert (Z: 0 < x * x * x <= / 100000 * (x * x)) by nra. assert (Z4: 0 < x * x * x * x <= / 100000 * (x * x * x)) by nra.
  set (y := x * x) in *. set (z := y * x) in *. assert (Z5: 0 < z * x) by nra.
  set (P := 1 - x / 2 - y / 8) in *. set (Qk := 4 / 15 + 4 * x / 105) in *.
  assert (PQ: P * Qk = 4 / 15 - 2 * x / 21 - 11 * x * x / 210 - 1 / 210 * z) by (unfold P, Qk, z, y; field).
  assert (s * k - P * Qk = (s - P) * k + P * (k - Qk)) by ring. assert (BK: 0 <= k <= 1) by (unfold Qk in *; lra). assert (BP: 0 <= P <= 1) by (unfold P; lra).
  assert (U1: - (z / 8) <= (s - P) * k <= 0) by nra. assert (U2: - (3 / 2 * z) <= P * (k - Qk) <= 32 / 315 * z) by nra.
  apply Rabs_le. replace (y * x) with z by auto. split; lra.
Qed.

(* ------------------------------------------------ as functions of the axis ratio *)
Definition el (d : R) : R := sqrt (1 - d * d).
Definition eo (d : R) : R := sqrt (1 - 1 / (d * d)).
Lemma el_ok : forall d, 0 < d < 1 -> 0 < el d < 1 /\ el d * el d = 1 - d * d /\ sqrt (1 - el d * el d) = d.
Proof.
  intros d H. assert (P: 0 < 1 - d * d) by nra. unfold el. rewrite (sqrt_sqrt (1 - d * d)) by lra. split; [|split; auto].
  - split; [apply sqrt_lt_R0; auto|]. apply Rlt_le_trans with (sqrt 1); [apply sqrt_lt_1; nra | rewrite sqrt_1; lra].
  - replace (1 - (1 - d * d)) with (d * d) by ring. apply sqrt_square. lra.
Qed.
Lemma inv_sq : forall d, 1 < d -> 0 < 1 / (d * d) < 1.
Proof.
  intros d H. assert (1 < d * d) by nra. split; [apply Rdiv_lt_0_compat; lra|]. apply Rmult_lt_reg_r with (d * d); [lra|]. replace (1 / (d * d) * (d * d)) with 1 by (field; lra). lra.
Qed.
Lemma eo_ok : forall d, 1 < d -> 0 < eo d < 1 /\ eo d * eo d = 1 - 1 / (d * d) /\ sqrt (1 - eo d * eo d) = / d.
Proof.
  intros d H. destruct (inv_sq d H) as (A & B). unfold eo. rewrite (sqrt_sqrt (1 - 1 / (d * d))) by lra. split; [|split; auto].
  - split; [apply sqrt_lt_R0; lra|]. apply Rlt_le_trans with (sqrt 1); [apply sqrt_lt_1; lra | rewrite sqrt_1; lra].
  - replace (1 - (1 - 1 / (d * d))) with (/ d * / d) by (field; lra). apply sqrt_square. left. apply Rinv_0_lt_compat. lra.
Qed.
Lemma shape_prolate : forall d, 0 < d < 1 -> get_shape_factor d = Lp (el d).
Proof.
  intros d H. destruct (el_ok d H) as ((E0 & E1) & E2 & E3). unfold get_shape_factor. destruct (Rlt_dec d 1) as [_ | C]; [|lra]. cbv zeta. fold (el d). unfold Lp, lnq. rewrite E2. replace 0.5 with (/ 2) by lra. field. repeat split; nra.
Qed.
Lemma shape_oblate : forall d, 1 < d -> get_shape_factor d = Lo (eo d).
Proof.
  intros d H. unfold get_shape_factor. destruct (Rlt_dec d 1) as [C | _]; [lra|]. destruct (Rlt_dec 1 d) as [_ | C]; [|lra]. cbv zeta. fold (eo d). destruct (eo_ok d H) as ((E0 & E1) & E2 & E3).
  unfold Lo. rewrite E2. reflexivity.
Qed.
Lemma shape_sphere : get_shape_factor 1 = 1 / 3.
Proof. unfold get_shape_factor. destruct (Rlt_dec 1 1); [lra | auto]. Qed.
(** the exact derivative *)
Definition slope (d : R) : R :=
  if Rlt_dec d 1 then d * Kp (el d) / (2 * (el d * el d * (el d * el d) * el d))
  else if Rlt_dec 1 d then (1 - eo d * eo d) * Ko (eo d) / (eo d * eo d * (eo d * eo d) * eo d)
  else 4 / 15.
Lemma el_deriv : forall d, 0 < d < 1 -> is_derive el d (- d / el d).
Proof.
  intros d H. destruct (el_ok d H) as ((E0 & E1) & _). unfold el in *. auto_derive; [nra|]. change (1 + - (d * d)) with (1 - d * d). field. lra.
Qed.
Lemma eo_deriv : forall d, 1 < d -> is_derive eo d (/ (d * d * d * eo d)).
Proof.
  intros d H. destruct (eo_ok d H) as ((E0 & E1) & _). destruct (inv_sq d H). unfold eo in *. assert (0 < d * d) by nra. auto_derive.
  - split; [lra|]. split; auto. lra.
  - change (1 + - (1 * / (d * d))) with (1 - 1 / (d * d)). field. split; lra.
Qed.
Lemma loc : forall d a b (f g : R -> R), a < d < b -> (forall x, a < x < b -> f x = g x) -> locally d (fun t => f t = g t).
Proof.
  intros d a b f g H E. assert (P: 0 < Rmin (d - a) (b - d)) by (apply Rmin_pos; lra). exists (mkposreal _ P). intros t Ht. apply E.
  assert (T: Rabs (t - d) < Rmin (d - a) (b - d)) by exact Ht. pose proof (Rmin_l (d - a) (b - d)). pose proof (Rmin_r (d - a) (b - d)). apply Rabs_def2 in T. lra.
Qed.
Lemma deriv_prolate : forall d, 0 < d < 1 -> is_derive get_shape_factor d (slope d).
Proof.
  intros d H. destruct (el_ok d H) as ((E0 & E1) & E2 & E3).
  apply (is_derive_ext_loc (fun d => Lp (el d))); [apply (loc d 0 1); auto; intros x Hx; symmetry; apply shape_prolate; auto|].
  evar_last; [apply (is_derive_comp Lp el); [apply Lp_deriv; lra | apply el_deriv; auto]|].
  unfold scal. cbn. unfold mult. cbn. unfold slope. destruct (Rlt_dec d 1) as [_ | C]; [|lra]. field. lra.
Qed.
Lemma deriv_oblate : forall d, 1 < d -> is_derive get_shape_factor d (slope d).
Proof.
  intros d H. destruct (eo_ok d H) as ((E0 & E1) & E2 & E3).
  apply (is_derive_ext_loc (fun d => Lo (eo d))); [apply (loc d 1 (d + 1)); [lra|]; intros x Hx; symmetry; apply shape_oblate; lra|].
  evar_last; [apply (is_derive_comp Lo eo); [apply Lo_deriv; lra | apply eo_deriv; auto]|].
  unfold scal. cbn. unfold mult. cbn. unfold slope. destruct (Rlt_dec d 1) as [C | _]; [lra|]. destruct (Rlt_dec 1 d) as [_ | C]; [|lra]. rewrite E3.
  replace (1 - eo d * eo d) with (/ d * / d) by (rewrite E2; field; lra). field. repeat split; lra.
Qed.
Lemma near_sphere : forall h, - / 2 < h < / 2 -> Rabs (get_shape_factor (1 + h) - 1 / 3 - 4 / 15 * h) <= 10 * (h * h).
Proof.
  intros h Hh. destruct (Rtotal_order h 0) as [L | [E | G]].
  - destruct (el_ok (1 + h) ltac:(lra)) as ((E0 & E1) & E2 & _). rewrite shape_prolate by lra. pose proof (Lp_near (el (1 + h)) ltac:(lra)) as N. rewrite E2 in N.
    set (v := Lp (el (1 + h))) in *. apply Rabs_le_between in N. apply Rabs_le.
    assert (X: 0 <= 1 - (1 + h) * (1 + h) <= 3 * - h) by nra. assert (X2: (1 - (1 + h) * (1 + h)) * (1 - (1 + h) * (1 + h)) <= 9 * (h * h)) by nra. nra.
  - subst h. rewrite Rplus_0_r, shape_sphere. rewrite Rabs_right; lra.
  - destruct (eo_ok (1 + h) ltac:(lra)) as ((E0 & E1) & E2 & _). rewrite shape_oblate by lra. pose proof (Lo_near (eo (1 + h)) ltac:(lra)) as N. rewrite E2 in N.
    set (v := Lo (eo (1 + h))) in *. set (x := 1 - 1 / ((1 + h) * (1 + h))) in *. assert (X: x * ((1 + h) * (1 + h)) = h * (2 + h)) by (unfold x; field; lra).
    assert (X1: 0 <= x <= 2 * h). { split; [apply Rnot_lt_le; intro C; nra|]. apply Rnot_lt_le; intro C. assert (h * (2 + h) < x * ((1 + h) * (1 + h))); [|lra]. apply Rlt_trans with (2 * h * ((1 + h) * (1 + h))); [nra|]. apply Rmult_lt_compat_r; nra. }
    assert (X3: x - 2 * h >= - (4 * (h * h))). { apply Rle_ge, Rnot_lt_le. intro C. assert (x * ((1 + h) * (1 + h)) < (2 * h - 4 * (h * h)) * ((1 + h) * (1 + h))) by (apply Rmult_lt_compat_r; nra). nra. }
    assert (x * x <= 4 * (h * h)) by nra. apply Rabs_le. lra.
Qed.
Lemma deriv_sphere : is_derive get_shape_factor 1 (4 / 15).
Proof.
  apply is_derive_Reals. intros eps He. assert (P: 0 < Rmin (/ 2) (eps / 20)) by (apply Rmin_pos; lra). exists (mkposreal _ P). intros h Nh Hh. cbn [pos] in Hh.
  pose proof (Rmin_l (/ 2) (eps / 20)). pose proof (Rmin_r (/ 2) (eps / 20)). rewrite shape_sphere.
  assert (N: Rabs (get_shape_factor (1 + h) - 1 / 3 - 4 / 15 * h) <= 10 * (h * h)) by (apply near_sphere; assert (Rabs h < / 2) by lra; apply Rabs_def2 in H1; lra).
  assert (PA: 0 < Rabs h) by (apply Rabs_pos_lt; auto).
  replace ((get_shape_factor (1 + h) - 1 / 3) / h - 4 / 15) with ((get_shape_factor (1 + h) - 1 / 3 - 4 / 15 * h) / h) by (field; auto).
  rewrite Rabs_div by auto. apply Rle_lt_trans with (10 * Rabs h); [|lra]. apply Rmult_le_reg_r with (Rabs h); auto. unfold Rdiv. rewrite Rmult_assoc, Rinv_l, Rmult_1_r by lra.
  replace (h * h) with (Rabs h * Rabs h) in N by (rewrite <- Rabs_mult; apply Rabs_right; nra). lra.
Qed.
Lemma shape_deriv : forall d, 0 < d -> is_derive get_shape_factor d (slope d).
Proof.
  intros d H. destruct (Rtotal_order d 1) as [L | [-> | G]]; [apply deriv_prolate; lra | | apply deriv_oblate; auto].
  unfold slope. destruct (Rlt_dec 1 1); [lra|]. exact deriv_sphere.
Qed.
Lemma slope_pos : forall d, 0 < d -> 0 < slope d.
Proof.
  intros d H. unfold slope. destruct (Rlt_dec d 1) as [L | L].
  - destruct (el_ok d ltac:(lra)) as ((E0 & E1) & _). pose proof (Kp_pos (el d) ltac:(lra)). apply Rdiv_lt_0_compat; [nra|]. assert (0 < el d * el d) by nra. assert (0 < el d * el d * (el d * el d)) by nra. nra.
  - destruct (Rlt_dec 1 d) as [G | G]; [|lra]. destruct (eo_ok d ltac:(lra)) as ((E0 & E1) & _). pose proof (Ko_pos (eo d) ltac:(lra)). assert (0 < eo d * eo d) by nra. assert (0 < eo d * eo d * (eo d * eo d)) by nra.
    apply Rdiv_lt_0_compat; [apply Rmult_lt_0_compat; nra | nra].
Qed.
Lemma shape_range : forall d, 0 < d -> 0 < get_shape_factor d < 1.
Proof.
  intros d H. destruct (Rtotal_order d 1) as [L | [-> | G]].
  - rewrite shape_prolate by lra. destruct (el_ok d ltac:(lra)) as ((E0 & E1) & _). pose proof (Lp_range (el d) ltac:(lra)). lra.
  - rewrite shape_sphere. lra.
  - rewrite shape_oblate by auto. destruct (eo_ok d G) as ((E0 & E1) & _). pose proof (Lo_range (eo d) ltac:(lra)). lra.
Qed.
Lemma shape_increasing : forall a b, 0 < a -> a < b -> get_shape_factor a < get_shape_factor b.
Proof.
  intros a b A B. destruct (MVT_cor2 get_shape_factor slope a b B) as (c & E & Hc).
  - intros c Hc. apply is_derive_Reals, shape_deriv. lra.
  - pose proof (slope_pos c ltac:(lra)). nra.
Qed.
(** the coded Jacobian *)
Definition near_window (d : R) : Prop := (d < 1 /\ 1 - d * d < / 100000) \/ (1 < d /\ 1 - 1 / (d * d) < / 100000).
Lemma jacobian_exact : forall d, 0 < d -> ~ near_window d -> get_jacobian d = slope d.
Proof.
  intros d H N. unfold get_jacobian, slope. destruct (Rlt_dec d 1) as [L | L]; cbv zeta.
  - destruct (Rlt_dec (1 - d * d) (/ 100000)) as [C | _]; [exfalso; apply N; left; auto|]. fold (el d). destruct (el_ok d ltac:(lra)) as ((E0 & E1) & E2 & E3). rewrite <- E2, E3. unfold Kp, lnq. replace 0.5 with (/ 2) by lra. field. lra.
  - destruct (Rlt_dec 1 d) as [G | G]; auto. destruct (Rlt_dec (1 - 1 / (d * d)) (/ 100000)) as [C | _]; [exfalso; apply N; right; auto|]. fold (eo d). destruct (eo_ok d G) as ((E0 & E1) & E2 & E3). rewrite <- E2. reflexivity.
Qed.
Lemma jacobian_near : forall d, 0 < d -> Rabs (get_jacobian d - slope d) <= 2 * / 10 ^ 15.
Proof.
  intros d H. destruct (Rlt_dec d 1) as [L | L].
  - destruct (Rlt_dec (1 - d * d) (/ 100000)) as [C | C].
    2:{ rewrite jacobian_exact; [rewrite Rminus_eq_0, Rabs_R0; assert (0 < / 10 ^ 15) by (apply Rinv_0_lt_compat, pow_lt; lra); lra | auto |]. intros [(_ & N) | (N & _)]; lra. }
    destruct (el_ok d ltac:(lra)) as ((E0 & E1) & E2 & E3). pose proof (jac_p_near (el d) ltac:(lra) ltac:(lra)) as J. rewrite E3 in J. rewrite Rabs_minus_sym.
    unfold get_jacobian, slope. destruct (Rlt_dec d 1); [|lra]. cbv zeta. destruct (Rlt_dec (1 - d * d) (/ 100000)); [|lra]. rewrite <- E2. eapply Rle_trans; [exact J|].
    assert (X: 0 <= el d * el d <= / 100000) by (split; [nra | lra]). set (x := el d * el d) in *. clearbody x. replace (2 * / 10 ^ 15) with (2 * (/ 100000 * / 100000 * / 100000)) by field. nra.
  - destruct (Rlt_dec 1 d) as [G | G].
    2:{ unfold get_jacobian, slope. destruct (Rlt_dec d 1); [lra|]. destruct (Rlt_dec 1 d); [lra|]. rewrite Rminus_eq_0, Rabs_R0. assert (0 < / 10 ^ 15) by (apply Rinv_0_lt_compat, pow_lt; lra). lra. }
    destruct (Rlt_dec (1 - 1 / (d * d)) (/ 100000)) as [C | C].
    2:{ rewrite jacobian_exact; [rewrite Rminus_eq_0, Rabs_R0; assert (0 < / 10 ^ 15) by (apply Rinv_0_lt_compat, pow_lt; lra); lra | auto |]. intros [(N & _) | (_ & N)]; lra. }
    destruct (eo_ok d G) as ((E0 & E1) & E2 & E3). pose proof (jac_o_near (eo d) ltac:(lra) ltac:(lra)) as J. rewrite Rabs_minus_sym.
    unfold get_jacobian, slope. destruct (Rlt_dec d 1); [lra|]. destruct (Rlt_dec 1 d); [|lra]. cbv zeta. destruct (Rlt_dec (1 - 1 / (d * d)) (/ 100000)); [|lra]. rewrite <- E2. eapply Rle_trans; [exact J|].
    assert (X: 0 <= eo d * eo d <= / 100000) by (split; [nra | lra]). set (x := eo d * eo d) in *. clearbody x. replace (2 * / 10 ^ 15) with (2 * (/ 100000 * / 100000 * / 100000)) by field. nra.
Qed.

(* ------------------------------------------------ equal volume and equal surface spheres *)
Lemma is_RInt_uniq : forall (f : R -> R) a b x y, is_RInt f a b x -> is_RInt f a b y -> x = y.
Proof. intros f a b x y H J. rewrite <- (is_RInt_unique _ _ _ _ H). exact (is_RInt_unique _ _ _ _ J). Qed.
Lemma cube_inj : forall x y, 0 < x -> 0 < y -> x * x * x = y * y * y -> x = y.
Proof.
  intros x y X Y E. destruct (Rtotal_order x y) as [L | [-> | L]]; auto; exfalso.
  - assert (x * x < y * y) by nra. assert (x * x * x < y * y * y) by nra. lra.
  - assert (y * y < x * x) by nra. assert (y * y * y < x * x * x) by nra. lra.
Qed.
Lemma sqr_sqrt : forall x y, 0 <= y -> x = y * y -> sqrt x = y.
Proof. intros x y H ->. apply sqrt_square. auto. Qed.
Lemma ratio_oblate : forall a b RV RS S, 0 < b -> b < a -> 0 < RV -> 0 < RS -> is_RInt (area_density a b) 0 PI S -> 4 * PI * (RS * RS) = S -> RV * RV * RV = a * a * b ->
  sphere_ratio (a / b) = RV / RS.
Proof.
  intros a b RV RS S B A V Q I E3 E. pose proof PI_RGT_0 as P. pose proof (c_pos a b B A) as C0. pose proof (c_sqr a b B A) as C2. pose proof (area_oblate a b B A) as I2.
  assert (ES: S = _) by (apply (is_RInt_uniq _ _ _ _ _ I I2)). clear I I2. unfold sphere_ratio. assert (D: 1 < a / b) by (apply Rmult_lt_reg_r with b; auto; unfold Rdiv; rewrite Rmult_assoc, Rinv_l by lra; lra).
  destruct (Rlt_dec 1 (a / b)) as [_ | N]; [|lra]. cbv zeta. set (c := sqrt (a * a - b * b)) in *.
  assert (EE: sqrt (1 - 1 / (a / b * (a / b))) = c / a). { apply sqr_sqrt; [left; apply Rdiv_lt_0_compat; lra|]. replace (c / a * (c / a)) with (c * c / (a * a)) by (field; lra). rewrite C2. field. lra. }
  rewrite EE. set (l := ln ((1 + c / a) / (1 - c / a))) in *. set (k := cbrt (a / b * (a / b))).
  assert (K0: 0 < k) by apply cbrt_pos. assert (K3: k * k * k = a / b * (a / b)) by (apply cbrt_cube; nra).
  assert (K: k * (RV * RV) = a * a).
  { apply cube_inj; [repeat apply Rmult_lt_0_compat; auto | apply Rmult_lt_0_compat; lra |]. transitivity (k * k * k * ((RV * RV * RV) * (RV * RV * RV))); [ring|]. rewrite K3, E. field. lra. }
  assert (KB: k * k * (b * b) = RV * RV).
  { assert (N0: 0 < RV * RV * RV * RV) by (assert (0 < RV * RV) by nra; assert (0 < RV * RV * RV) by nra; nra). apply Rmult_eq_reg_r with (RV * RV * RV * RV); [|lra].
    transitivity ((k * (RV * RV)) * (k * (RV * RV)) * (b * b)); [ring|]. rewrite K. transitivity ((RV * RV * RV) * (RV * RV * RV)); [rewrite E; ring | ring]. }
  assert (M: 0.25 * (2 * k + l / (c / a * k * k)) = RS / RV * (RS / RV)).
  { assert (R2: RS * RS = a * a / 2 + b * b * (a / c) * l / 4) by (apply Rmult_eq_reg_l with (4 * PI); [|lra]; rewrite E3, ES; field; lra).
    replace (RS / RV * (RS / RV)) with (RS * RS / (RV * RV)) by (field; lra). rewrite R2. replace (a * a / 2) with (k * (RV * RV) / 2) by (rewrite K; auto).
    replace (b * b) with (RV * RV / (k * k)) by (rewrite <- KB; field; lra). replace 0.25 with (/ 4) by lra. field. repeat split; lra. }
  rewrite M, sqrt_square by (left; apply Rdiv_lt_0_compat; lra). field. lra.
Qed.
Lemma ratio_prolate : forall a b RV RS S, 0 < a -> a < b -> 0 < RV -> 0 < RS -> is_RInt (area_density a b) 0 PI S -> 4 * PI * (RS * RS) = S -> RV * RV * RV = a * a * b ->
  sphere_ratio (a / b) = RV / RS.
Proof.
  intros a b RV RS S B A V Q I E3 E. pose proof PI_RGT_0 as P. pose proof (pc_pos a b B A) as C0. pose proof (pc_sqr a b B A) as C2. pose proof (area_prolate a b B A) as I2.
  assert (ES: S = _) by (apply (is_RInt_uniq _ _ _ _ _ I I2)). clear I I2. unfold sphere_ratio. assert (D: a / b < 1) by (apply Rmult_lt_reg_r with b; [lra|]; unfold Rdiv; rewrite Rmult_assoc, Rinv_l by lra; lra).
  destruct (Rlt_dec 1 (a / b)) as [N | _]; [lra|]. destruct (Rlt_dec (a / b) 1) as [_ | N]; [|lra]. cbv zeta. set (c := sqrt (b * b - a * a)) in *.
  assert (EE: sqrt (1 - a / b * (a / b)) = c / b). { apply sqr_sqrt; [left; apply Rdiv_lt_0_compat; lra|]. replace (c / b * (c / b)) with (c * c / (b * b)) by (field; lra). rewrite C2. field. lra. }
  rewrite EE. set (l := asin (c / b)) in *. set (k := cbrt (a / b)). assert (D0: 0 < a / b) by (apply Rdiv_lt_0_compat; lra).
  assert (K0: 0 < k) by apply cbrt_pos. assert (K3: k * k * k = a / b) by (apply cbrt_cube; auto).
  assert (K: k * RV = a). { apply cube_inj; [nra | nra |]. transitivity (k * k * k * (RV * RV * RV)); [ring|]. rewrite K3, E. field. lra. }
  assert (KB: k * k * b = RV).
  { apply Rmult_eq_reg_r with (RV * RV); [|nra]. transitivity (k * RV * (k * RV) * b); [ring|]. rewrite K. transitivity (RV * RV * RV); [rewrite E; ring | ring]. }
  assert (M: 0.5 * (k * k + l / (c / b * k)) = RS / RV * (RS / RV)).
  { assert (R2: RS * RS = a * a / 2 + a * b * (b / c) * l / 2) by (apply Rmult_eq_reg_l with (4 * PI); [|lra]; rewrite E3, ES; field; lra).
    replace (RS / RV * (RS / RV)) with (RS * RS / (RV * RV)) by (field; lra). rewrite R2. replace 0.5 with (/ 2) by lra.
    rewrite <- K, <- KB. field. repeat split; lra. }
  rewrite M, sqrt_square by (left; apply Rdiv_lt_0_compat; lra). field. lra.
Qed.
