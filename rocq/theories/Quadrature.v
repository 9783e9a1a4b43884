(** Gauss-Legendre rules (/repo/src/SpecialFunctions.hpp l.646-751), in exact real
    arithmetic. *)
From Coq Require Import List Arith Lia Bool Reals Lra Psatz.
From Verif Require Import Legendre.
Import ListNotations.
Local Open Scope R_scope.

(* ---------------------------------------------- model *)

(** l.687-694: recursion for the Legendre polynomials; (pb, pc) after [k] iterations *)
Fixpoint leg_loop (k j : nat) (x pb pc : R) : R * R :=
  match k with
  | 0%nat => (pb, pc)
  | S k' => let pa := pb in let pb := pc in let pc := x * pb + (x * pb - pa) * INR j / (INR j + 1) in
            leg_loop k' (S j) x pb pc
  end.
(** l.686-700: one Newton step; (new x_i, pa, pb) *)
Definition newton_step (order : nat) (x : R) : R * R * R :=
  let '(pb, pc) := leg_loop (order - 1) 1 x 1 x in
  let pa := 1 / ((pb - x * pc) * INR order) in
  let pb := pa * pc * (1 - x * x) in
  (x - pb, pa, pb).
(** l.680-707: do ... while; None: not finished after [fuel] iterations *)
Fixpoint newton (fuel niter : nat) (check : R) (order : nat) (x : R) : option (R * R) :=
  match fuel with
  | 0%nat => None
  | S f => let niter := S niter in
           let check := if Nat.ltb 100 niter then check * 10 else check in
           let '(x', pa, pb) := newton_step order x in
           if Rlt_dec (check * Rabs x') (Rabs pb) then newton f niter check order x' else Some (x', pa)
  end.
(** l.660-668: initial guess *)
Definition guess (order i : nat) : R :=
  let theta := PI * (INR i + 3 / 4) / (INR order + 1 / 2) in
  let orderinv := 1 / INR order in
  let orderinv2 := orderinv * orderinv in
  (1 - 1 / 8 * orderinv2 + 5 / 38 * orderinv * orderinv2 - 2 / 25 * orderinv2 * orderinv2 * (1 - 14 / 39 / (theta * theta))) * cos theta.

Notation arrays := ((nat -> R) * (nat -> R))%type.        (* points, weights *)
Definition aset (a : nat -> R) (i : nat) (v : R) : nat -> R := fun j => if Nat.eqb j i then v else a j.
(** l.655-720: [todo] remaining values of i, starting with [i]; [root] is the result of
    the Newton iteration for that i *)
Definition store (order : nat) (i : nat) (r : R * R) (A : arrays) : arrays :=
  let ind := (order mod 2)%nat in let k := (order / 2 + ind)%nat in
  let m := (order - i - 1)%nat in
  let points := aset (fst A) m (fst r) in
  let weights := aset (snd A) m (2 * snd r * snd r * (1 - fst r * fst r)) in
  if negb (Nat.eqb i (k - 1)) || negb (Nat.eqb ind 1)
  then (aset points i (- points m), aset weights i (weights m))
  else (points, weights).
Fixpoint fill (todo i : nat) (order : nat) (root : nat -> option (R * R)) (A : arrays) : option arrays :=
  match todo with
  | 0%nat => Some A
  | S t => match root i with None => None | Some r => fill t (S i) order root (store order i r A) end
  end.
Definition gauss_legendre (fuel order : nat) (A : arrays) : option arrays :=
  fill (order / 2 + order mod 2) 0 order (fun i => newton fuel 0 (1 / 10 ^ 16) order (guess order i)) A.

(** l.733-750: general interval; [scale] is the loop of l.746-749 *)
Fixpoint scale (k i : nat) (wfac xterm : R) (A : arrays) : arrays :=
  match k with
  | 0%nat => A
  | S k' => scale k' (S i) wfac xterm (aset (fst A) i (wfac * fst A i + xterm), aset (snd A) i (snd A i * wfac))
  end.
Definition gauss_legendre_ab (fuel order : nat) (a b : R) (A : arrays) : option arrays :=
  match gauss_legendre fuel order A with
  | None => None
  | Some A => Some (scale order 0 (1 / 2 * (b - a)) (1 / 2 * (a + b)) A)
  end.

(* ---------------------------------------------- the recursion computes P_n *)

Lemma leg_loop_spec : forall k j x, (1 <= j)%nat -> leg_loop k j x (P (j - 1) 0 x) (P j 0 x) = (P (j + k - 1) 0 x, P (j + k) 0 x).
Proof.
  induction k; intros j x H; cbn [leg_loop].
  - rewrite Nat.add_0_r. reflexivity.
  - assert (E: x * P j 0 x + (x * P j 0 x - P (j - 1) 0 x) * INR j / (INR j + 1) = P (S j) 0 x).
    { destruct j as [|j]; [lia|]. replace (S j - 1)%nat with j by lia. pose proof (P_bonnet j x) as B.
      rewrite plus_INR in B. rewrite (S_INR j) in *. cbn [INR] in B. pose proof (pos_INR j).
      apply Rmult_eq_reg_l with (INR j + (1 + 1)); [|lra]. rewrite B. field. lra. }
    rewrite E. replace (P j 0 x) with (P (S j - 1) 0 x) by (f_equal; lia). rewrite IHk by lia. f_equal; f_equal; lia.
Qed.
Lemma leg_loop_legendre : forall order x, (1 <= order)%nat -> leg_loop (order - 1) 1 x 1 x = (P (order - 1) 0 x, P order 0 x).
Proof.
  intros order x H. pose proof (leg_loop_spec (order - 1) 1 x ltac:(lia)) as E. cbn [Nat.sub] in E. rewrite P_0_0, P_1_0 in E.
  rewrite E. f_equal; f_equal; lia.
Qed.
(** n (P_{n-1} - x P_n) = (1 - x^2) P_n' *)
Lemma P_deriv_formula : forall n x, (1 <= n)%nat -> (P (n - 1) 0 x - x * P n 0 x) * INR n = (1 - x * x) * P n 1 x.
Proof.
  intros n x H. destruct n as [|n]; [lia|]. replace (S n - 1)%nat with n by lia. pose proof (P_diff n 0 x) as D. cbn [INR] in D. rewrite S_INR. lra.
Qed.
(** one step is Newton's method for P_n, and pa = 1 / ((1-x^2) P_n'(x)) *)
Theorem newton_step_spec : forall order x, (1 <= order)%nat -> (1 - x * x) * P order 1 x <> 0 ->
  newton_step order x = (x - P order 0 x / P order 1 x, 1 / ((1 - x * x) * P order 1 x), P order 0 x / P order 1 x).
Proof.
  intros order x H N. unfold newton_step. rewrite leg_loop_legendre by auto. rewrite P_deriv_formula by auto.
  assert (A: 1 - x * x <> 0) by (intros C; apply N; rewrite C; ring). assert (B: P order 1 x <> 0) by (intros C; apply N; rewrite C; ring).
  assert (E: 1 / ((1 - x * x) * P order 1 x) * P order 0 x * (1 - x * x) = P order 0 x / P order 1 x) by (field; auto).
  rewrite E. reflexivity.
Qed.

(* ---------------------------------------------- symmetry *)

Lemma half_eq : forall order, (order = 2 * (order / 2) + order mod 2 /\ order mod 2 < 2)%nat.
Proof. intros. split; [apply Nat.div_mod_eq | apply Nat.mod_upper_bound; lia]. Qed.

Lemma fill_spec : forall todo i order root A A', fill todo i order root A = Some A' ->
  (i + todo = order / 2 + order mod 2)%nat ->
  (forall j, (j < i)%nat -> fst A' j = fst A j /\ snd A' j = snd A j /\ fst A' (order - 1 - j)%nat = fst A (order - 1 - j)%nat /\ snd A' (order - 1 - j)%nat = snd A (order - 1 - j)%nat) /\
  (forall j, (i <= j < i + todo)%nat -> exists r, root j = Some r /\
     fst A' (order - 1 - j)%nat = fst r /\ snd A' (order - 1 - j)%nat = 2 * snd r * snd r * (1 - fst r * fst r) /\
     (j <> (order - 1 - j)%nat -> fst A' j = - fst r /\ snd A' j = 2 * snd r * snd r * (1 - fst r * fst r))).
Proof.
  induction todo; intros i order root A A' E HI; cbn [fill] in E.
  - injection E as <-. split; [auto|]. intros j Hj. lia.
  - destruct (root i) as [r|] eqn:Er; [|discriminate]. destruct (half_eq order) as (H1 & H2).
    apply IHtodo in E; [|lia]. destruct E as (E1 & E2). clear IHtodo.
    assert (SA: forall j, (j < i)%nat -> fst (store order i r A) j = fst A j /\ snd (store order i r A) j = snd A j /\
        fst (store order i r A) (order - 1 - j)%nat = fst A (order - 1 - j)%nat /\ snd (store order i r A) (order - 1 - j)%nat = snd A (order - 1 - j)%nat).
    { intros j Hj. unfold store. destruct (_ || _); cbn [fst snd]; unfold aset;
      repeat match goal with |- context [Nat.eqb ?a ?b] => destruct (Nat.eqb_spec a b); try lia end; auto. }
    split.
    + intros j Hj. destruct (E1 j ltac:(lia)) as (-> & -> & -> & ->). apply SA. auto.
    + intros j Hj. destruct (Nat.eq_dec j i) as [->|N]; [|apply E2; lia].
      exists r. split; auto. destruct (E1 i ltac:(lia)) as (-> & -> & -> & ->). unfold store.
      replace (order - i - 1)%nat with (order - 1 - i)%nat by lia.
      destruct (Nat.eqb_spec i (order / 2 + order mod 2 - 1)), (Nat.eqb_spec (order mod 2) 1); cbn [negb orb fst snd]; unfold aset;
      repeat match goal with |- context [Nat.eqb ?a ?b] => destruct (Nat.eqb_spec a b); try lia end; auto; split; auto; split; auto; intros; try lia; auto.
Qed.

(** the middle root of an odd rule is exactly zero *)
Lemma middle_guess : forall order, (order mod 2 = 1)%nat -> guess order (order / 2 + order mod 2 - 1) = 0.
Proof.
  intros order H. destruct (half_eq order) as (E & _). rewrite H in *. unfold guess.
  assert (T: PI * (INR (order / 2 + 1 - 1) + 3 / 4) / (INR order + 1 / 2) = PI / 2).
  { replace (order / 2 + 1 - 1)%nat with (order / 2)%nat by lia. rewrite E at 2. rewrite plus_INR, mult_INR. cbn [INR].
    pose proof (pos_INR (order / 2)). field. lra. }
  rewrite T, cos_PI2. ring.
Qed.
Lemma newton_at_zero : forall f niter check order, (order mod 2 = 1)%nat ->
  exists pa, newton (S f) niter check order 0 = Some (0, pa).
Proof.
  intros f niter check order H. cbn [newton]. destruct (half_eq order) as (E & _). rewrite H in E.
  assert (P0: P order 0 0 = 0) by (rewrite E; apply P_odd_at_0).
  unfold newton_step. rewrite leg_loop_legendre by lia. rewrite P0.
  set (pa := 1 / ((P (order - 1) 0 0 - 0 * 0) * INR order)). replace (pa * 0 * (1 - 0 * 0)) with 0 by ring. replace (0 - 0) with 0 by ring.
  exists pa. rewrite Rabs_R0. destruct (Rlt_dec _ _) as [C|C]; [|reflexivity]. rewrite Rmult_0_r in C. lra.
Qed.

Theorem rule_symmetric : forall fuel order A x w, gauss_legendre fuel order A = Some (x, w) ->
  forall i, (i < order)%nat -> x (order - 1 - i)%nat = - x i /\ w (order - 1 - i)%nat = w i.
Proof.
  intros fuel order A x w E i Hi. unfold gauss_legendre in E. destruct (half_eq order) as (H1 & H2).
  apply fill_spec in E; [|lia]. destruct E as (_ & E). cbn [fst snd] in E.
  set (k := (order / 2 + order mod 2)%nat) in *.
  assert (G: forall j, (j < k)%nat -> x (order - 1 - j)%nat = - x j /\ w (order - 1 - j)%nat = w j).
  { intros j Hj. destruct (E j ltac:(lia)) as (r & R1 & R2 & R3 & R4). destruct (Nat.eq_dec j (order - 1 - j)) as [Q|Q].
    - assert (M: (order mod 2 = 1)%nat) by lia. assert (J: j = (k - 1)%nat) by lia.
      rewrite J in R1. unfold k in R1. rewrite (middle_guess order M) in R1.
      destruct fuel; [discriminate|]. destruct (newton_at_zero fuel 0 (1 / 10 ^ 16) order M) as (pa & N). rewrite N in R1. injection R1 as <-.
      cbn [fst] in R2. rewrite <- Q in *. split; lra.
    - destruct (R4 Q) as (-> & ->). rewrite R2, R3. split; ring. }
  destruct (Nat.lt_ge_cases i k) as [L|L]; [apply G; auto|].
  destruct (G (order - 1 - i)%nat ltac:(lia)) as (A1 & A2). replace (order - 1 - (order - 1 - i))%nat with i in * by lia. rewrite A1, A2. split; ring.
Qed.

(* ---------------------------------------------- affine image *)

Lemma scale_spec : forall k i wfac xterm A j, fst (scale k i wfac xterm A) j = (if Nat.leb i j && Nat.ltb j (i + k) then wfac * fst A j + xterm else fst A j) /\
  snd (scale k i wfac xterm A) j = (if Nat.leb i j && Nat.ltb j (i + k) then snd A j * wfac else snd A j).
Proof.
  induction k; intros i wfac xterm A j; cbn [scale].
  - rewrite Nat.add_0_r. destruct (Nat.leb_spec i j), (Nat.ltb_spec j i); try lia; auto.
  - destruct (IHk (S i) wfac xterm (aset (fst A) i (wfac * fst A i + xterm), aset (snd A) i (snd A i * wfac)) j) as (-> & ->).
    cbn [fst snd]. unfold aset. replace (S i + k)%nat with (i + S k)%nat by lia.
    destruct (Nat.eqb_spec j i) as [->|N].
    + destruct (Nat.leb_spec (S i) i); [lia|]. destruct (Nat.leb_spec i i); [|lia]. destruct (Nat.ltb_spec i (i + S k)); [|lia]. auto.
    + destruct (Nat.leb_spec (S i) j), (Nat.leb_spec i j); try lia; auto.
Qed.
Theorem rule_affine : forall fuel order a b A x w, gauss_legendre_ab fuel order a b A = Some (x, w) ->
  exists x0 w0, gauss_legendre fuel order A = Some (x0, w0) /\
    forall i, (i < order)%nat -> x i = (b - a) / 2 * x0 i + (a + b) / 2 /\ w i = (b - a) / 2 * w0 i.
Proof.
  intros fuel order a b A x w E. unfold gauss_legendre_ab in E. destruct (gauss_legendre fuel order A) as [(x0, w0)|]; [|discriminate].
  exists x0, w0. split; auto. injection E as E. intros i Hi.
  destruct (scale_spec order 0 (1 / 2 * (b - a)) (1 / 2 * (a + b)) (x0, w0) i) as (E1 & E2). rewrite E in E1, E2. cbn [fst snd Nat.leb andb Nat.add] in E1, E2.
  destruct (Nat.ltb_spec i order); [|lia]. rewrite E1, E2. split; field.
Qed.

(* ---------------------------------------------- nodes and weights at exact roots *)

(** if the last Newton step started at a root, node and weight are the exact ones *)
Theorem newton_exact : forall order x, (1 <= order)%nat -> P order 0 x = 0 -> (1 - x * x) * P order 1 x <> 0 ->
  forall f niter check, newton (S f) niter check order x = Some (x, 1 / ((1 - x * x) * P order 1 x)) \/ check * Rabs x < 0.
Proof.
  intros order x H Z N f niter check. cbn [newton]. rewrite newton_step_spec by auto. rewrite Z.
  assert (B: P order 1 x <> 0) by (intros C; apply N; rewrite C; ring).
  replace (0 / P order 1 x) with 0 by (field; auto). rewrite Rabs_R0. replace (x - 0) with x by ring.
  destruct (Rlt_dec _ _) as [C|C]; [|left; reflexivity]. right. destruct (Nat.ltb 100 (S niter)); lra.
Qed.
Lemma weight_formula : forall order x, (1 - x * x) * P order 1 x <> 0 ->
  let pa := 1 / ((1 - x * x) * P order 1 x) in 2 * pa * pa * (1 - x * x) = 2 / ((1 - x * x) * (P order 1 x * P order 1 x)).
Proof.
  intros order x N pa. assert (A: 1 - x * x <> 0) by (intros C; apply N; rewrite C; ring). assert (B: P order 1 x <> 0) by (intros C; apply N; rewrite C; ring).
  unfold pa. field. auto.
Qed.
(** every Newton update that ended the iteration was smaller than the final tolerance *)
Theorem newton_accuracy : forall fuel niter check order x x' pa, newton fuel niter check order x = Some (x', pa) ->
  exists x0 c, newton_step order x0 = (x', pa, x0 - x') /\ Rabs (x0 - x') <= c * Rabs x' /\ (exists e, c = check * 10 ^ e /\ (e <= Nat.min fuel (niter + fuel - 100))%nat).
Proof.
  induction fuel; intros niter check order x x' pa E; cbn [newton] in E; [discriminate|].
  destruct (newton_step order x) as ((y, p), d) eqn:S. assert (D: d = x - y).
  { unfold newton_step in S. destruct (leg_loop _ _ _ _ _). injection S as <- <- <-. ring. }
  destruct (Rlt_dec _ _) as [C|C] in E.
  - apply IHfuel in E. destruct E as (x0 & c & E1 & E2 & e & E3 & E4). exists x0, c. split; auto. split; auto.
    destruct (Nat.ltb_spec 100 (Datatypes.S niter)).
    + exists (Datatypes.S e). split; [rewrite E3; cbn [pow]; ring|lia].
    + exists e. split; auto. lia.
  - injection E as <- <-. subst d. exists x. eexists. split; [exact S|]. split; [apply Rnot_lt_le; exact C|].
    destruct (Nat.ltb_spec 100 (Datatypes.S niter)).
    + exists 1%nat. split; [cbn [pow]; ring|lia].
    + exists 0%nat. split; [cbn [pow]; ring|lia].
Qed.
