(** C71, C72: orders raised until two successive results agree. *)
From Coq Require Import List Arith Lia Bool ZArith Reals Lra Floats.SpecFloat.
From Coquelicot Require Import Coquelicot.
From Verif Require Import Legendre Quadrature GaussExact Props_quad GaussRoots Adaptive.
Import ListNotations.

(* ================================================================ C71 *)
Section Quad.
Local Open Scope R_scope.

Lemma weighted_sum_quad : forall k i A f acc, weighted_sum k i A f acc = acc + quad k (fun j => fst A (i + j)%nat) (fun j => snd A (i + j)%nat) f.
Proof.
  assert (Q: forall k x w f, quad (S k) x w f = w 0%nat * f (x 0%nat) + quad k (fun j => x (S j)) (fun j => w (S j)) f).
  { induction k; intros; [cbn; ring|]. change (quad (S (S k)) x w f) with (quad (S k) x w f + w (S k) * f (x (S k))). rewrite IHk. cbn [quad]. ring. }
  induction k; intros; cbn [weighted_sum]; [cbn; ring|]. rewrite IHk, Q. rewrite Nat.add_0_r.
  replace (quad k (fun j => fst A (S i + j)%nat) (fun j => snd A (S i + j)%nat) f) with (quad k (fun j => fst A (i + S j)%nat) (fun j => snd A (i + S j)%nat) f); [ring|].
  clear. induction k; cbn [quad]; [reflexivity|]. rewrite IHk. rewrite <- !Nat.add_succ_comm. reflexivity.
Qed.
Lemma quad_ext : forall k x w x' w' f, (forall i, (i < k)%nat -> x i = x' i /\ w i = w' i) -> quad k x w f = quad k x' w' f.
Proof. induction k; intros x w x' w' f H; cbn [quad]; [auto|]. rewrite (IHk x w x' w') by (intros; apply H; lia). destruct (H k ltac:(lia)) as (-> & ->). auto. Qed.

(** the value of the rule of order n for f *)
Definition value (rule : nat -> option ((nat -> R) * (nat -> R))) (f : R -> R) (n : nat) (q : R) : Prop :=
  exists x w, rule n = Some (x, w) /\ q = quad n x w f.
(** q agrees with the previous value p to within one of the two tolerances *)
Definition agree (da dr p q : R) : Prop := Rabs (q - p) <= da \/ Rabs (q - p) <= dr * Rabs (q + p).
(** the previous value: that of the order before, and 0 at the first order *)
Definition previous rule f (start n : nat) (p : R) : Prop := (n = start /\ p = 0) \/ ((start < n)%nat /\ value rule f (n - 1) p).
Definition settled rule f da dr start n : Prop := exists p q, previous rule f start n p /\ value rule f n q /\ agree da dr p q.

Lemma exceeds_agree : forall da dr p q, 0 <= da -> 0 <= dr ->
  exceeds (Number (Rabs (q - p))) da && exceeds (divide (Rabs (q - p)) (Rabs (q + p))) dr = false <-> agree da dr p q.
Proof.
  intros da dr p q Ha Hr. unfold exceeds, divide, agree. pose proof (Rabs_pos (q - p)) as A0. pose proof (Rabs_pos (q + p)) as S0.
  destruct (Rlt_dec da (Rabs (q - p))) as [A | A]; cbn [andb]; [|split; [intros _; left; lra | auto]].
  destruct (Req_EM_T (Rabs (q + p)) 0) as [E | E].
  - destruct (Req_EM_T (Rabs (q - p)) 0); [lra|]. split; [discriminate|]. intros [H | H]; [lra|]. rewrite E in H. lra.
  - assert (P: 0 < Rabs (q + p)) by lra. destruct (Rlt_dec dr (Rabs (q - p) / Rabs (q + p))) as [D | D].
    + split; [discriminate|]. intros [H | H]; [lra|]. apply Rmult_lt_compat_r with (r := Rabs (q + p)) in D; auto. unfold Rdiv in D. rewrite Rmult_assoc, Rinv_l in D by lra. lra.
    + split; auto. intros _. right. apply Rnot_lt_le in D. apply Rmult_le_compat_r with (r := Rabs (q + p)) in D; [|lra]. unfold Rdiv in D. rewrite Rmult_assoc, Rinv_l in D by lra. lra.
Qed.

Lemma value_fun : forall rule f n p q, value rule f n p -> value rule f n q -> p = q.
Proof. intros rule f n p q (x & w & A & B) (x' & w' & A' & B'). rewrite A in A'. injection A' as <- <-. congruence. Qed.
Lemma previous_fun : forall rule f s n p q, previous rule f s n p -> previous rule f s n q -> p = q.
Proof. intros rule f s n p q [(A & B) | (A & B)] [(C & D) | (C & D)]; try lia; [congruence|]. eapply value_fun; eauto. Qed.

Lemma loop_S : forall todo rule f da dr order old a r, quadrature_loop (S todo) rule f da dr order old a r =
  if exceeds a da && exceeds r dr then
    match rule order with
    | None => None
    | Some A => let q := weighted_sum order 0 A f 0 in quadrature_loop todo rule f da dr (S order) q (Number (Rabs (q - old))) (divide (Rabs (q - old)) (Rabs (q + old)))
    end
  else Some (order, old).
Proof. reflexivity. Qed.
Lemma loop_spec : forall todo rule f da dr start order old a r v n, 0 <= da -> 0 <= dr -> (start <= order)%nat ->
  previous rule f start order old -> quadrature_loop (S todo) rule f da dr order old a r = Some (n, v) ->
  exceeds a da && exceeds r dr = true ->
  exists k, n = S k /\ (order <= k < order + S todo)%nat /\ value rule f k v /\ (forall j, (order <= j < k)%nat -> ~ settled rule f da dr start j) /\ (settled rule f da dr start k \/ (k = order + todo)%nat).
Proof.
  induction todo; intros rule f da dr start order old a r v n Ha Hr Hs Hp E X; rewrite loop_S, X in E; destruct (rule order) as [A |] eqn:ER; try discriminate; cbv zeta in E;
    set (q := weighted_sum order 0 A f 0) in *; assert (V: value rule f order q) by (exists (fst A), (snd A); split; [rewrite ER; destruct A; auto|]; unfold q; rewrite weighted_sum_quad, Rplus_0_l; apply quad_ext; auto).
  - injection E as <- <-. exists order. repeat split; auto; try lia.
  - destruct (exceeds (Number (Rabs (q - old))) da && exceeds (divide (Rabs (q - old)) (Rabs (q + old))) dr) eqn:D.
    + assert (NS: ~ settled rule f da dr start order). { intros (p' & q' & P' & Q' & AG). rewrite <- (previous_fun _ _ _ _ _ _ Hp P'), <- (value_fun _ _ _ _ _ V Q') in AG. apply exceeds_agree in AG; auto. congruence. }
      apply (IHtodo rule f da dr start (S order)) in E; auto; [|right; split; [lia|]; replace (S order - 1)%nat with order by lia; auto].
      destruct E as (k & -> & K1 & K2 & K3 & K4). exists k. split; auto. split; [lia|]. split; auto. split; [|destruct K4; [auto | right; lia]].
      intros j J. destruct (Nat.eq_dec j order) as [-> |]; auto. apply K3. lia.
    + rewrite loop_S, D in E. injection E as <- <-. exists order. split; auto. split; [lia|]. split; auto. split; [intros; lia|]. left. exists old, q. split; auto. split; auto. apply exceeds_agree; auto.
Qed.
Lemma initial : forall d, exceeds (Number (d + 1)) d = true.
Proof. intros d. cbn. destruct (Rlt_dec d (d + 1)); auto; lra. Qed.

(** The value returned is that of the first order n which agrees with the order before (the first order: with 0), or of the last order
    below the maximum if there is none; the warning is printed exactly when that last order was reached. *)
Theorem C71_result : forall rule f start maximum da dr v warned, 0 <= da -> 0 <= dr -> (start < maximum)%nat ->
  gauss_legendre_quadrature rule f start maximum da dr = Some (v, warned) ->
  exists n, (start <= n < maximum)%nat /\ value rule f n v /\
    (forall k, (start <= k < n)%nat -> ~ settled rule f da dr start k) /\
    (settled rule f da dr start n \/ n = maximum - 1)%nat /\
    (warned = true <-> n = maximum - 1)%nat.
Proof.
  intros rule f start maximum da dr v warned Ha Hr L E. unfold gauss_legendre_quadrature in E. destruct (quadrature_loop _ _ _ _ _ _ _ _ _) as [(n & v') |] eqn:Q; [|discriminate]. injection E as <- <-.
  replace (maximum - start)%nat with (S (maximum - start - 1)) in Q by lia.
  apply (loop_spec _ _ _ _ _ start) in Q; auto; [|left; auto | rewrite !initial; auto]. destruct Q as (k & -> & K1 & K2 & K3 & K4). exists k. split; [lia|]. split; auto. split; auto. split; [destruct K4; [auto | right; lia]|]. rewrite Nat.eqb_eq. lia.
Qed.
(** It returns whenever the rules are available (C32 for the accuracy of the rules of the code). *)
Theorem C71_terminates : forall rule f start maximum da dr, (forall n, (start <= n < maximum)%nat -> rule n <> None) ->
  exists r, gauss_legendre_quadrature rule f start maximum da dr = Some r.
Proof.
  intros rule f start maximum da dr H. unfold gauss_legendre_quadrature.
  assert (G: forall todo order old a r, (start <= order)%nat -> (order + todo <= maximum \/ todo = 0)%nat -> exists x, quadrature_loop todo rule f da dr order old a r = Some x).
  { induction todo; intros order old a r L M; cbn [quadrature_loop]; [eauto|]. destruct (_ && _); [|eauto]. destruct (rule order) eqn:E; [|exfalso; apply (H order); auto; lia]. apply IHtodo; lia. }
  destruct (G (maximum - start)%nat start 0 (Number (da + 1)) (Number (dr + 1))) as ((n & q) & ->); [lia|lia|]. eauto.
Qed.
(** the rules of the orders between lo and hi are Gauss rules on [a,b]: exact for polynomials of degree below 2 n (C49) *)
Definition gauss_rules (rule : nat -> option ((nat -> R) * (nat -> R))) (a b : R) (lo hi : nat) : Prop :=
  forall n, (lo <= n < hi)%nat -> exists x w, rule n = Some (x, w) /\ exact n x w a b.
(** such rules exist *)
Lemma gauss_rules_exist : forall a b lo hi, (1 <= lo)%nat -> exists rule, gauss_rules rule a b lo hi.
Proof.
  intros a b lo hi H. induction hi as [|hi (rule & IH)]; [exists (fun _ => None); intros n Hn; lia|].
  destruct (le_lt_dec lo hi) as [L | L]; [|exists rule; intros n Hn; lia]. destruct (exact_rule_exists hi a b ltac:(lia)) as (x & w & E & _).
  exists (fun n => if Nat.eqb n hi then Some (x, w) else rule n). intros n Hn. destruct (Nat.eqb_spec n hi) as [-> | N]; [exists x, w; auto|]. apply IH. lia.
Qed.
Lemma int_unique : forall (f : R -> R) a b (u v : R), is_RInt f a b u -> is_RInt f a b v -> u = v.
Proof. intros f a b u v A B. rewrite <- (is_RInt_unique _ _ _ _ A). exact (is_RInt_unique _ _ _ _ B). Qed.
(** A polynomial whose degree is below twice the starting order is integrated exactly, and without a warning if there are at least three orders. *)
Theorem C71_polynomials_exact : forall rule a b start maximum da dr p, gauss_rules rule a b start maximum -> (1 <= start < maximum)%nat -> 0 <= da -> 0 <= dr -> (length p <= 2 * start)%nat ->
  exists v warned, gauss_legendre_quadrature rule (eval p) start maximum da dr = Some (v, warned) /\ is_RInt (eval p) a b v /\ ((start + 2 < maximum)%nat -> warned = false).
Proof.
  intros rule a b start maximum da dr p G L Ha Hr D.
  destruct (C71_terminates rule (eval p) start maximum da dr) as ((v & warned) & E). { intros n Hn. destruct (G n ltac:(lia)) as (x & w & -> & _). discriminate. }
  exists v, warned. split; auto. destruct (C71_result rule (eval p) start maximum da dr v warned Ha Hr ltac:(lia) E) as (n & N1 & (x & w & N2 & N3) & N4 & N5 & N6).
  assert (V: forall k, (start <= k < maximum)%nat -> exists q, value rule (eval p) k q /\ is_RInt (eval p) a b q).
  { intros k Hk. destruct (G k ltac:(lia)) as (x' & w' & R' & I'). exists (quad k x' w' (eval p)). split; [exists x', w'; auto|]. apply I'. lia. }
  split.
  - destruct (G n ltac:(lia)) as (x' & w' & R' & I'). rewrite N2 in R'. injection R' as <- <-. rewrite N3. apply I'. lia.
  - intros M. destruct warned; auto. exfalso. destruct N6 as (N6 & _). specialize (N6 eq_refl). apply (N4 (S start)); [lia|].
    destruct (V start ltac:(lia)) as (q & Q1 & Q2). destruct (V (S start) ltac:(lia)) as (q' & Q1' & Q2'). rewrite <- (int_unique _ _ _ _ _ Q2 Q2') in Q1'.
    exists q, q. split; [right; split; [lia|]; replace (S start - 1)%nat with start by lia; auto|]. split; auto. left. rewrite Rminus_diag_eq, Rabs_R0; auto.
Qed.
(** values that are all zero end the search after the first order, whatever the tolerances (also negative ones): 0/0 does not count as a change *)
Theorem C71_zero_function : forall rule start maximum da dr A, (start < maximum)%nat -> rule start = Some A ->
  gauss_legendre_quadrature rule (fun _ => 0) start maximum da dr = Some (0, Nat.eqb (S start) maximum).
Proof.
  intros rule s M da dr A L E. unfold gauss_legendre_quadrature. destruct (M - s)%nat as [|todo] eqn:T; [lia|]. cbn [quadrature_loop].
  assert (X: forall d, exceeds (Number (d + 1)) d = true) by (intros d; cbn [exceeds]; destruct (Rlt_dec d (d + 1)); auto; lra).
  rewrite !X, E. cbn [andb]. cbv zeta.
  assert (Z0: forall k i B, weighted_sum k i B (fun _ => 0) 0 = 0) by (induction k; intros; cbn [weighted_sum]; auto; rewrite Rmult_0_r, Rplus_0_r; auto).
  rewrite Z0, Rminus_0_r, Rplus_0_r, Rabs_R0. unfold divide. destruct (Req_EM_T 0 0) as [_|N]; [|lra].
  destruct todo as [|todo]; cbn [quadrature_loop]; [reflexivity|]. cbn [exceeds]. rewrite andb_false_r. reflexivity.
Qed.
Print Assumptions C71_zero_function.
(** Without an order below the maximum the result is 0 whatever the function, with a warning only if the limits are equal. *)
Theorem C71_no_order_refuted : forall rule f start maximum da dr, (maximum <= start)%nat ->
  gauss_legendre_quadrature rule f start maximum da dr = Some (0, Nat.eqb start maximum).
Proof. intros. unfold gauss_legendre_quadrature. replace (maximum - start)%nat with 0%nat by lia. reflexivity. Qed.
(** The first order is compared with 0: a small value is accepted without any second order. For every starting order there is a polynomial
    (the square of the Legendre polynomial, which vanishes at all points of the rule) for which 0 is returned, without warning. *)
Lemma quad_zero : forall n x w f, (forall i, (i < n)%nat -> f (x i) = 0) -> quad n x w f = 0.
Proof. induction n; intros x w f H; cbn [quad]; [auto|]. rewrite IHn by (intros; apply H; lia). rewrite H by lia. ring. Qed.
Theorem C71_first_order_refuted : forall rule start maximum da dr x w, (start + 1 < maximum)%nat -> 0 <= da -> 0 <= dr ->
  rule start = Some (x, w) -> (forall i, (i < start)%nat -> P start 0 (x i) = 0) ->
  gauss_legendre_quadrature rule (fun y => P start 0 y * P start 0 y) start maximum da dr = Some (0, false) /\
  is_RInt (fun y => P start 0 y * P start 0 y) (-1) 1 (2 / (2 * INR start + 1)) /\ 0 < 2 / (2 * INR start + 1).
Proof.
  intros rule start maximum da dr x w L Ha Hr R Z. split; [|split].
  - unfold gauss_legendre_quadrature. replace (maximum - start)%nat with (S (S (maximum - start - 2))) by lia. cbn [quadrature_loop]. rewrite !initial. cbn [andb]. rewrite R. cbv zeta.
    rewrite weighted_sum_quad. rewrite quad_zero; [|intros i Hi; cbn [Nat.add fst]; rewrite Z by auto; ring].
    replace (exceeds (Number (Rabs (0 + 0 - 0))) da) with false. { cbn [andb]. destruct (Nat.eqb_spec (S start) maximum); [lia|]. rewrite Rplus_0_l. auto. }
    cbn. replace (0 + 0 - 0) with 0 by ring. rewrite Rabs_R0. destruct (Rlt_dec da 0); auto; lra.
  - pose proof (norm_squared start) as N. exact N.
  - pose proof (pos_INR start). apply Rdiv_lt_0_compat; lra.
Qed.
(** Agreement at the last order below the maximum still gives the warning. *)
Theorem C71_warning_although_settled_refuted : exists rule f, forall da dr, 0 <= da -> 0 <= dr < 1 -> da < 1 ->
  settled rule f da dr 1 2 /\ gauss_legendre_quadrature rule f 1 3 da dr = Some (1, true).
Proof.
  exists (fun _ => Some (fun _ => 0, fun i => if Nat.eqb i 0 then 1 else 0)), (fun _ => 1). intros da dr Ha Hr H1. split.
  - exists 1, 1. split; [right; split; [lia|]; eexists; eexists; split; [reflexivity|]; cbn; ring|]. split; [eexists; eexists; split; [reflexivity|]; cbn; ring|]. left. rewrite Rminus_diag_eq, Rabs_R0; auto.
  - unfold gauss_legendre_quadrature. cbn [Nat.sub quadrature_loop]. rewrite !initial. cbn [andb weighted_sum fst snd Nat.eqb]. replace (0 + 1 * 1) with 1 by ring. replace (1 - 0) with 1 by ring. replace (1 + 0) with 1 by ring. rewrite Rabs_R1.
    unfold exceeds, divide at 1. destruct (Rlt_dec da 1); [|lra]. destruct (Req_EM_T 1 0); [lra|]. replace (1 / 1) with 1 by field. destruct (Rlt_dec dr 1); [|lra]. cbn [andb]. replace (1 + 0 * 1) with 1 by ring. reflexivity.
Qed.
(** the hypothesis of the polynomial theorem is met *)
Example C71_polynomial_example : exists rule v, gauss_rules rule 0 2 3 9 /\ gauss_legendre_quadrature rule (eval [1; 0; 3]) 3 9 (1 / 10) (1 / 10) = Some (v, false) /\ v = 10.
Proof.
  destruct (gauss_rules_exist 0 2 3 9 ltac:(lia)) as (rule & G). exists rule. destruct (C71_polynomials_exact rule 0 2 3 9 (1 / 10) (1 / 10) [1; 0; 3] G ltac:(lia) ltac:(lra) ltac:(lra) ltac:(cbn; lia)) as (v & warned & E & I & W).
  exists v. split; auto. rewrite W in E by lia. split; auto.
  apply (int_unique _ _ _ _ _ I). apply (is_RInt_val _ _ _ ((fun x => x + x ^ 3) 2 - (fun x => x + x ^ 3) 0)); [|cbn; ring].
  apply (is_RInt_derive (fun x => x + x ^ 3) (eval [1; 0; 3])).
  - intros x _. auto_derive; [auto|]. cbn. ring.
  - intros x _. apply (ex_derive_continuous (eval [1; 0; 3])). eexists. apply is_derive_Reals. apply eval_deriv.
Qed.
(** the code's rule with one point *)
Example C71_example : exists v, gauss_legendre_quadrature (code_rule 1 0 2) (fun _ => 3) 1 2 (1 / 10) (1 / 10) = Some (v, true) /\ v = 6.
Proof.
  exists 6. split; auto. unfold gauss_legendre_quadrature. cbn [Nat.sub quadrature_loop]. rewrite !initial. cbn [andb].
  unfold code_rule, gauss_legendre_ab, gauss_legendre. change (1 / 2 + 1 mod 2)%nat with 1%nat. cbn [fill].
  pose proof (middle_guess 1 eq_refl) as M. change (1 / 2 + 1 mod 2 - 1)%nat with 0%nat in M. rewrite M. cbn [newton]. unfold newton_step. cbn [Nat.sub leg_loop].
  replace (0 - 1 / ((1 - 0 * 0) * INR 1) * 0 * (1 - 0 * 0)) with 0 by ring.
  replace (1 / ((1 - 0 * 0) * INR 1) * 0 * (1 - 0 * 0)) with 0 by ring. rewrite Rabs_R0. change (Nat.ltb 100 1) with false. cbn iota.
  destruct (Rlt_dec _ _) as [C|C]; [rewrite Rmult_0_r in C; lra|].
  cbn [scale]. unfold store. cbn. unfold aset. cbn. do 2 f_equal. field.
Qed.
End Quad.
Print Assumptions C71_result.
Print Assumptions C71_terminates.
Print Assumptions C71_polynomials_exact.
Print Assumptions C71_no_order_refuted.
Print Assumptions C71_first_order_refuted.
Print Assumptions C71_warning_although_settled_refuted.

(* ================================================================ C72 *)
Section Calc.
Local Open Scope nat_scope.
Variables prec emax : Z.
Variables qsca qext : nat -> nat -> spec_float.
Variable tolerance : spec_float.
Notation zero := (S754_zero false).
(** |(old - new) / new| is not above the tolerance (true also of not-a-number) *)
Definition within (old new : spec_float) : Prop := SFltb tolerance (SFabs (SFdiv prec emax (SFsub prec emax old new) new)) = false.
(** the order n, with ndgs points per order, changes both factors of the order before (0 before the first order) within tolerance *)
Definition stable_order (ndgs first n : nat) : Prop :=
  let before q := if n =? first then zero else q (n - 1) (ndgs * (n - 1)) in
  within (before qsca) (qsca n (ndgs * n)) /\ within (before qext) (qext n (ndgs * n)).
(** g points change the factors of the same order with one point less within tolerance *)
Definition stable_points (n g : nat) : Prop := within (qsca n (g - 1)) (qsca n g) /\ within (qext n (g - 1)) (qext n g).
(** tolerance < 1 and tolerance < tolerance + 1, so that both loops are entered *)
Definition usable : Prop := SFltb tolerance (SFone prec emax) = true /\ SFltb tolerance (SFadd prec emax tolerance (SFone prec emax)) = true.

Notation climb := (climb prec emax qsca qext tolerance).
Notation calc := (calculate_TMatrix prec emax qsca qext tolerance).
Lemma climb_spec : forall todo make start dext dsca w, above tolerance dext || above tolerance dsca = true -> 0 < todo -> w_size w = start ->
  let before k (q : nat -> nat -> spec_float) (old : spec_float) := if k =? start then old else q (fst (make (k - 1))) (snd (make (k - 1))) in
  let ok k := within (before k qsca (w_qsca w)) (qsca (fst (make k)) (snd (make k))) /\ within (before k qext (w_qext w)) (qext (fst (make k)) (snd (make k))) in
  exists n, start <= n < start + todo /\ (forall k, start <= k < n -> ~ ok k) /\ (ok n \/ S n = start + todo) /\
    climb todo make dext dsca w = mkWalk (S n) (qsca (fst (make n)) (snd (make n))) (qext (fst (make n)) (snd (make n))) (Some (make n)).
Proof.
  induction todo; intros make start dext dsca w A T E; [lia|]. cbn [Adaptive.climb]. rewrite A. cbv zeta. subst start.
  set (s := qsca (fst (make (w_size w))) (snd (make (w_size w)))). set (e := qext (fst (make (w_size w))) (snd (make (w_size w)))).
  destruct todo as [| todo].
  - exists (w_size w). split; [lia|]. split; [intros; lia|]. split; [right; lia | reflexivity].
  - destruct (above tolerance (change prec emax (w_qext w) e) || above tolerance (change prec emax (w_qsca w) s)) eqn:D.
    + destruct (IHtodo make (S (w_size w)) _ _ (mkWalk (S (w_size w)) s e (Some (make (w_size w)))) D ltac:(lia) eq_refl) as (n & N1 & N2 & N3 & N4).
      assert (B: forall k q old, S (w_size w) <= k -> (if k =? w_size w then old else q (fst (make (k - 1))) (snd (make (k - 1)))) = (if k =? S (w_size w) then q (fst (make (w_size w))) (snd (make (w_size w))) else q (fst (make (k - 1))) (snd (make (k - 1)))) :> spec_float).
      { intros k q old Hk. destruct (Nat.eqb_spec k (w_size w)); [lia|]. destruct (Nat.eqb_spec k (S (w_size w))) as [-> |]; auto. replace (S (w_size w) - 1) with (w_size w) by lia. auto. }
      exists n. split; [lia|]. split; [|split; [|exact N4]].
      * intros k Hk. destruct (Nat.eq_dec k (w_size w)) as [-> | NE].
        -- rewrite Nat.eqb_refl. intros (W1 & W2). fold s in W1. fold e in W2. unfold above, change in D. rewrite W1, W2 in D. discriminate.
        -- intros (W1 & W2). apply (N2 k); [lia|]. cbn [w_size w_qsca w_qext]. rewrite B in W1, W2 by lia. split; [exact W1 | exact W2].
      * destruct N3 as [(W1 & W2) | N3]; [|right; lia]. left. cbn [w_size w_qsca w_qext] in W1, W2. rewrite !B by lia. split; [exact W1 | exact W2].
    + exists (w_size w). split; [lia|]. split; [intros; lia|]. apply orb_false_iff in D. destruct D as (D1 & D2). split; [left; rewrite Nat.eqb_refl; split; [exact D2 | exact D1]|].
      change (Adaptive.climb prec emax qsca qext tolerance (S todo) make (change prec emax (w_qext w) e) (change prec emax (w_qsca w) s) (mkWalk (S (w_size w)) s e (Some (make (w_size w)))))
        with (if above tolerance (change prec emax (w_qext w) e) || above tolerance (change prec emax (w_qsca w) s)
              then let T := make (S (w_size w)) in Adaptive.climb prec emax qsca qext tolerance todo make (change prec emax e (qext (fst T) (snd T))) (change prec emax s (qsca (fst T) (snd T))) (mkWalk (S (S (w_size w))) (qsca (fst T) (snd T)) (qext (fst T) (snd T)) (Some T))
              else mkWalk (S (w_size w)) s e (Some (make (w_size w)))). rewrite D1, D2. reflexivity.
Qed.
Lemma stable_order_dec : forall ndgs first n, {stable_order ndgs first n} + {~ stable_order ndgs first n}.
Proof. intros. unfold stable_order, within. cbv zeta. destruct (SFltb _ _); [right; intros (A & B); discriminate|]. destruct (SFltb _ _); [right; intros (A & B); discriminate|]. left; auto. Qed.

(** what both loops do, for a first order below the maximum *)
Lemma calc_spec : forall guess maximum_order ndgs maximum_ngauss, usable -> guess < maximum_order ->
  (calc guess maximum_order ndgs maximum_ngauss = Unable /\ forall n, guess <= n -> S n < maximum_order -> ~ stable_order ndgs guess n) \/
  (exists n, guess <= n /\ S n < maximum_order /\ stable_order ndgs guess n /\ (forall k, guess <= k < n -> ~ stable_order ndgs guess k) /\
     ((maximum_ngauss < ndgs * n + 1 /\ calc guess maximum_order ndgs maximum_ngauss = TMatrixOf n (ndgs * n)) \/
      (ndgs * n + 1 <= maximum_ngauss /\ calc guess maximum_order ndgs maximum_ngauss = Unable /\ forall g, ndgs * n < g -> S g < maximum_ngauss -> ~ stable_points n g) \/
      (exists g, ndgs * n < g /\ S g < maximum_ngauss /\ stable_points n g /\ (forall k, ndgs * n < k < g -> ~ stable_points n k) /\ calc guess maximum_order ndgs maximum_ngauss = TMatrixOf n g))).
Proof.
  intros guess maximum_order ndgs maximum_ngauss (U1 & U2) L. unfold calculate_TMatrix.
  destruct (climb_spec (maximum_order - guess) (fun nmax => (nmax, ndgs * nmax)) guess (SFone prec emax) (SFone prec emax) (mkWalk guess zero zero None)) as (n & N1 & N2 & N3 & ->); auto; [unfold above; rewrite U1; auto | lia |].
  cbn [fst snd w_size w_qsca w_qext active] in *. replace (guess + (maximum_order - guess)) with maximum_order in * by lia.
  destruct (Nat.eqb_spec (S n) maximum_order) as [EN | NN].
  - left. split; auto. intros k K1 K2. apply (N2 k). lia.
  - right. exists n. split; [lia|]. split; [lia|]. split; [destruct N3 as [N3 | N3]; [exact N3 | lia]|]. split; [exact N2|]. rewrite Nat.sub_succ, Nat.sub_0_r, (Nat.mul_comm n ndgs).
    destruct (le_lt_dec maximum_ngauss (ndgs * n + 1)) as [M | M].
    + replace (maximum_ngauss - (ndgs * n + 1)) with 0 by lia. cbn [Adaptive.climb w_size active]. destruct (Nat.eqb_spec (ndgs * n + 1) maximum_ngauss).
      * right. left. split; [lia|]. split; auto. intros; lia.
      * left. split; [lia | auto].
    + right. destruct (climb_spec (maximum_ngauss - (ndgs * n + 1)) (fun g => (n, g)) (ndgs * n + 1) (SFadd prec emax tolerance (SFone prec emax)) (SFadd prec emax tolerance (SFone prec emax)) (mkWalk (ndgs * n + 1) (qsca n (ndgs * n)) (qext n (ndgs * n)) (Some (n, ndgs * n)))) as (g & G1 & G2 & G3 & ->); auto; [unfold above; rewrite U2; auto | lia |].
      cbn [fst snd w_size w_qsca w_qext active] in *.
      assert (B: forall k (q : nat -> nat -> spec_float), ndgs * n + 1 <= k -> (if k =? ndgs * n + 1 then q n (ndgs * n) else q n (k - 1)) = q n (k - 1)).
      { intros k q Hk. destruct (Nat.eqb_spec k (ndgs * n + 1)) as [-> |]; auto. f_equal. lia. }
      assert (G2': forall k, ndgs * n < k < g -> ~ stable_points n k). { intros k Hk (W1 & W2). apply (G2 k); [lia|]. rewrite !B by lia. auto. }
      destruct (Nat.eqb_spec (S g) maximum_ngauss).
      * left. split; [lia|]. split; auto. intros k K1 K2. apply G2'. lia.
      * right. exists g. split; [lia|]. split; [lia|]. split; [|auto]. destruct G3 as [(W1 & W2) | G3]; [|lia]. rewrite B in W1, W2 by lia. split; auto.
Qed.
(** If a T-matrix is returned, its order is the first stable one, and its number of points the first stable one for that order. *)
Theorem C72_converged : forall guess maximum_order ndgs maximum_ngauss n g, usable -> guess < maximum_order -> ndgs * n < maximum_ngauss ->
  calc guess maximum_order ndgs maximum_ngauss = TMatrixOf n g ->
  guess <= n < maximum_order /\ stable_order ndgs guess n /\ (forall k, guess <= k < n -> ~ stable_order ndgs guess k) /\
  ndgs * n < g < maximum_ngauss /\ stable_points n g /\ (forall k, ndgs * n < k < g -> ~ stable_points n k).
Proof.
  intros guess maximum_order ndgs maximum_ngauss n g U L M E. destruct (calc_spec guess maximum_order ndgs maximum_ngauss U L) as [(C & _) | (k & K1 & K2 & K3 & K4 & K)]; [congruence|].
  destruct K as [(M' & C) | [(_ & C & _) | (j & J1 & J2 & J3 & J4 & C)]]; rewrite E in C; try discriminate; injection C as -> ->; [lia|]. repeat split; auto; try lia; apply K3 || apply J3.
Qed.
(** The error is reported exactly if no order two below the maximum is stable, or the points never are for the first stable order. *)
Theorem C72_unable : forall guess maximum_order ndgs maximum_ngauss, usable -> guess < maximum_order ->
  (calc guess maximum_order ndgs maximum_ngauss = Unable <->
   (forall n, guess <= n -> n + 1 < maximum_order -> ~ stable_order ndgs guess n) \/
   (exists n, guess <= n /\ n + 1 < maximum_order /\ stable_order ndgs guess n /\ (forall k, guess <= k < n -> ~ stable_order ndgs guess k) /\
      ndgs * n + 1 <= maximum_ngauss /\ forall g, ndgs * n < g -> g + 1 < maximum_ngauss -> ~ stable_points n g)).
Proof.
  intros guess maximum_order ndgs maximum_ngauss U L. assert (FU: forall n n', n < n' /\ stable_order ndgs guess n /\ guess <= n -> (forall k, guess <= k < n' -> ~ stable_order ndgs guess k) -> False) by (intros n n' (A & B & C) D; apply (D n); auto).
  destruct (calc_spec guess maximum_order ndgs maximum_ngauss U L) as [(C & D) | (n & K1 & K2 & K3 & K4 & K)].
  - split; auto. intros _. left. intros n A B. apply D; auto. lia.
  - assert (NL: ~ (forall n, guess <= n -> n + 1 < maximum_order -> ~ stable_order ndgs guess n)) by (intro H; apply (H n); auto; lia).
    assert (UN: forall n', guess <= n' -> stable_order ndgs guess n' -> (forall k, guess <= k < n' -> ~ stable_order ndgs guess k) -> n' = n).
    { intros n' A B C. destruct (lt_eq_lt_dec n n') as [[H | H] | H]; [exfalso; apply (C n); auto | auto | exfalso; apply (K4 n'); auto]. }
    destruct K as [(M & C) | [(M & C & D) | (g & J1 & J2 & J3 & J4 & C)]].
    + rewrite C. split; [discriminate|]. intros [H | (n' & A1 & A2 & A3 & A4 & A5 & A6)]; [tauto|]. rewrite (UN n' A1 A3 A4) in A5. lia.
    + split; [|auto]. intros _. right. exists n. repeat split; auto; try lia; try apply K3. intros g A B. apply D; auto. lia.
    + rewrite C. split; [discriminate|]. intros [H | (n' & A1 & A2 & A3 & A4 & A5 & A6)]; [tauto|]. rewrite (UN n' A1 A3 A4) in A6. exfalso. apply (A6 g); auto. lia.
Qed.
Theorem C72_no_null_pointer : forall guess maximum_order ndgs maximum_ngauss, usable -> guess < maximum_order -> calc guess maximum_order ndgs maximum_ngauss <> NullPointer.
Proof. intros guess maximum_order ndgs maximum_ngauss U L. destruct (calc_spec guess maximum_order ndgs maximum_ngauss U L) as [(-> & _) | (n & _ & _ & _ & _ & [(_ & ->) | [(_ & -> & _) | (g & _ & _ & _ & _ & ->)]])]; discriminate. Qed.
(** Limits that are not respected. A first order above the maximum is not refused: if a T-matrix is returned its order is not below the maximum. *)
Theorem C72_maximum_order_refuted : forall guess maximum_order ndgs maximum_ngauss, usable -> maximum_order < guess ->
  calc guess maximum_order ndgs maximum_ngauss = Unable \/ calc guess maximum_order ndgs maximum_ngauss = NullPointer \/
  exists g, calc guess maximum_order ndgs maximum_ngauss = TMatrixOf (guess - 1) g /\ maximum_order <= guess - 1.
Proof.
  intros guess maximum_order ndgs maximum_ngauss (U1 & U2) L. unfold calculate_TMatrix. replace (maximum_order - guess) with 0 by lia. cbn [Adaptive.climb w_size w_qsca w_qext active].
  destruct (Nat.eqb_spec guess maximum_order); [lia|]. set (ng := (guess - 1) * ndgs + 1). destruct (le_lt_dec maximum_ngauss ng) as [M | M].
  - replace (maximum_ngauss - ng) with 0 by lia. cbn [Adaptive.climb w_size active]. destruct (_ =? _); auto.
  - destruct (climb_spec (maximum_ngauss - ng) (fun g => (guess - 1, g)) ng (SFadd prec emax tolerance (SFone prec emax)) (SFadd prec emax tolerance (SFone prec emax)) (mkWalk ng zero zero None)) as (g & G1 & G2 & G3 & ->); auto; [unfold above; rewrite U2; auto | lia |].
    cbn [w_size active]. destruct (S g =? maximum_ngauss); auto. right. right. exists g. split; [reflexivity|]. lia.
Qed.
(** With too few points allowed for that order, nothing is returned: a null pointer is dereferenced. *)
Theorem C72_null_pointer_refuted : forall guess maximum_order ndgs maximum_ngauss, maximum_order < guess -> maximum_ngauss < (guess - 1) * ndgs + 1 ->
  calc guess maximum_order ndgs maximum_ngauss = NullPointer.
Proof.
  intros guess maximum_order ndgs maximum_ngauss L M. unfold calculate_TMatrix. replace (maximum_order - guess) with 0 by lia. cbn [Adaptive.climb w_size w_qsca w_qext active].
  destruct (Nat.eqb_spec guess maximum_order); [lia|]. replace (maximum_ngauss - ((guess - 1) * ndgs + 1)) with 0 by lia. cbn [Adaptive.climb w_size active]. destruct (Nat.eqb_spec ((guess - 1) * ndgs + 1) maximum_ngauss); [lia|]. auto.
Qed.
(** If the first stable order already uses more points than allowed, its T-matrix is returned, and the points were never checked. *)
Theorem C72_maximum_ngauss_refuted : forall guess maximum_order ndgs maximum_ngauss n, usable -> guess < maximum_order -> guess <= n -> n + 1 < maximum_order ->
  stable_order ndgs guess n -> (forall k, guess <= k < n -> ~ stable_order ndgs guess k) -> maximum_ngauss < ndgs * n + 1 ->
  calc guess maximum_order ndgs maximum_ngauss = TMatrixOf n (ndgs * n) /\ maximum_ngauss <= ndgs * n.
Proof.
  intros guess maximum_order ndgs maximum_ngauss n U L N1 N2 N3 N4 M. split; [|lia]. destruct (calc_spec guess maximum_order ndgs maximum_ngauss U L) as [(C & D) | (k & K1 & K2 & K3 & K4 & K)]; [exfalso; apply (D n); auto; lia|].
  assert (k = n). { destruct (lt_eq_lt_dec n k) as [[H | H] | H]; [exfalso; apply (K4 n); auto | auto | exfalso; apply (N4 k); auto]. } subst k.
  destruct K as [(_ & C) | [(M' & C & _) | (g & J1 & J2 & _)]]; [auto | lia | lia].
Qed.
(** Factors which are not a number count as converged. *)
Theorem C72_not_a_number_refuted : forall ndgs first n, qsca n (ndgs * n) = S754_nan -> qext n (ndgs * n) = S754_nan -> stable_order ndgs first n.
Proof. intros ndgs first n A B. unfold stable_order. cbv zeta. rewrite A, B. assert (W: forall old, within old S754_nan) by (intros old; unfold within; destruct old; cbn; destruct tolerance as [[]|[]| |[] ? ?]; reflexivity). auto. Qed.
End Calc.
(** double precision: factors 8, 9, 9, ... and tolerance 1/8 *)
Example C72_example :
  let q (n g : nat) := if n =? 4 then binary_normalize 53 1024 8 0 false else binary_normalize 53 1024 9 0 false in
  let tol := binary_normalize 53 1024 1 (-3) false in
  usable 53 1024 tol /\ calculate_TMatrix 53 1024 q q tol 4 20 2 100 = TMatrixOf 5 11 /\ stable_order 53 1024 q q tol 2 4 5 /\ ~ stable_order 53 1024 q q tol 2 4 4 /\ calculate_TMatrix 53 1024 q q tol 30 20 2 100 = TMatrixOf 29 60 /\ calculate_TMatrix 53 1024 q q tol 4 6 2 100 = Unable.
Proof. vm_compute. repeat split. intros (A & _). discriminate. Qed.
Print Assumptions C72_converged.
Print Assumptions C72_unable.
Print Assumptions C72_no_null_pointer.
Print Assumptions C72_maximum_order_refuted.
Print Assumptions C72_null_pointer_refuted.
Print Assumptions C72_maximum_ngauss_refuted.
Print Assumptions C72_not_a_number_refuted.
