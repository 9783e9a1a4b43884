(** C85: for a sphere the program gives the result of Mie's theory.

    Specification: the Mie coefficients a_n and b_n and the cross sections of Bohren & Huffman (1983), eqs. 4.53, 4.61 and 4.62, for a sphere with
    size parameter x and relative refractive index m. The radial functions are those of the record [radial] of QMatrix.v: j_n and y_n with, as second
    component, (rho z_n(rho))' / rho. *)
From Coq Require Import List ZArith Arith Lia Bool Reals Lra.
From Coquelicot Require Import Complex Coquelicot.
From Verif Require Import Matrix Props_matrix Quadrature Wigner Align AlignFacts Props_align QMatrix QFacts Ebcm EbcmFacts Legendre Props_tmatrix TClass TClassFacts Props_tclass Mie.
From Verif Require Import GaussExact GaussRoots GaussBounds.
From Verif Require Import Racah Clebsch.
From Verif Require Props_outputs AverageFacts Frames Props_quad.
Import ListNotations.
Open Scope R_scope.

(* ------------------------------------------------------------ specification *)
Section Coefficients.
Variables (b : radial) (m : C) (x : R).
Let j n : C := !(jay b n x).
Let h n : C := (jay b n x, why b n x).
(** derivatives of x j_n(x) and x h_n(x) *)
Let xj' n : C := (!x * !(djay b n x))%C.
Let xh' n : C := (!x * (djay b n x, dwhy b n x))%C.
(** j_n(mx) and the derivative of rho j_n(rho) at mx *)
Let jm n : C := jayc b n (m * !x)%C.
Let mxj' n : C := (m * !x * djayc b n (m * !x))%C.
Definition a_denominator (n : nat) : C := (m * m * jm n * xh' n - h n * mxj' n)%C.
Definition b_denominator (n : nat) : C := (jm n * xh' n - h n * mxj' n)%C.
Definition mie_a (n : nat) : C := ((m * m * jm n * xj' n - j n * mxj' n) / a_denominator n)%C.
Definition mie_b (n : nat) : C := ((jm n * xj' n - j n * mxj' n) / b_denominator n)%C.
End Coefficients.
(** a sphere given to the constructor, with a quadrature rule that is exact for all products of two angular functions *)
Definition is_sphere (p : particle) : Prop :=
  sensible p /\ p_axis_ratio p = 1 /\ AverageFacts.exact_rule (2 * p_ngauss p) (p_x p) (p_w p) /\ (p_nmax p < 2 * p_ngauss p)%nat.
Definition size_of (p : particle) : R := size_parameter (p_size p) (p_wavelength p).
Definition a_ (p : particle) : nat -> C := mie_a (p_radial p) (p_mr p) (size_of p).
Definition b_ (p : particle) : nat -> C := mie_b (p_radial p) (p_mr p) (size_of p).
(** no resonance: none of the denominators is zero *)
Definition regular_sphere (p : particle) : Prop := forall n, (1 <= n <= p_nmax p)%nat -> a_denominator (p_radial p) (p_mr p) (size_of p) n <> RtoC 0 /\ b_denominator (p_radial p) (p_mr p) (size_of p) n <> RtoC 0.

(* ------------------------------------------------------------ proof *)
Lemma C1_neq : !1 <> !0.
Proof. intro E. apply RtoC_inj in E. lra. Qed.
(** the first half of [is_T_matrix]: X Q = - RgQ *)
Definition is_T_first (p : particle) (m : nat) (X : nat -> nat -> C) : Prop := let size := (2 * orders m (p_nmax p))%nat in
  forall i j, (i < size)%nat -> (j < size)%nat -> cdot size (fun k => X i k * Q_of p false m k j)%C = (- Q_of p true m i j)%C.
Section One.
Variable p : particle.
Hypothesis S : is_sphere p.
Let xx := size_of p.
Lemma S_x : 0 < xx.
Proof. destruct S as ((_ & _ & HR & Hl & _) & _). apply x_pos; auto. Qed.
Lemma S_mr : p_mr p <> !0.
Proof. destruct S as ((_ & _ & _ & _ & H & _) & _). exact H. Qed.
Lemma S_points : forall i, (i < 2 * p_ngauss p)%nat -> -1 < p_x p i < 1.
Proof. intros i Hi. destruct S as ((Hs & _) & _). destruct (Hs i Hi) as (H & _). exact H. Qed.
Let dg := diagonal (p_size p) (p_wavelength p) (p_mr p) (p_radial p).
Let num_a n := ((p_mr p * p_mr p * jayc (p_radial p) n (p_mr p * !xx) * (!xx * !(djay (p_radial p) n xx)) - !(jay (p_radial p) n xx) * (p_mr p * !xx * djayc (p_radial p) n (p_mr p * !xx))))%C.
Let num_b n := ((jayc (p_radial p) n (p_mr p * !xx) * (!xx * !(djay (p_radial p) n xx)) - !(jay (p_radial p) n xx) * (p_mr p * !xx * djayc (p_radial p) n (p_mr p * !xx))))%C.
Lemma diagonal_b : forall n, b_denominator (p_radial p) (p_mr p) xx n = (- !xx * dg false WM n)%C /\ num_b n = (- !xx * dg true WM n)%C.
Proof. intros n. unfold b_denominator, num_b, dg, diagonal, j_, dj_, h_, dh_. fold xx. unfold size_of in xx. fold xx. split; ring. Qed.
Lemma diagonal_a : forall n, a_denominator (p_radial p) (p_mr p) xx n = (- (!xx * p_mr p) * dg false WN n)%C /\ num_a n = (- (!xx * p_mr p) * dg true WN n)%C.
Proof. intros n. unfold a_denominator, num_a, dg, diagonal, j_, dj_, h_, dh_. unfold size_of in xx. fold xx. split; ring. Qed.
Lemma xx_nonzero : !xx <> !0.
Proof. intro E. apply RtoC_inj in E. pose proof S_x. lra. Qed.
Lemma Copp_nonzero : forall z : C, z <> !0 -> (- z)%C <> !0.
Proof. intros z H E. apply H. replace z with (- - z)%C by ring. rewrite E. ring. Qed.
Lemma Cfactor : forall a b : C, (a * b)%C <> !0 -> b <> !0.
Proof. intros a b H E. apply H. rewrite E. ring. Qed.
Lemma regular_diagonal : regular_sphere p <-> forall q n, (1 <= n <= p_nmax p)%nat -> dg false q n <> !0.
Proof.
  split.
  - intros H q n Hn. destruct (H n Hn) as (A & B). destruct q.
    + destruct (diagonal_b n) as (E & _). unfold xx in *. rewrite E in B. apply Cfactor in B. exact B.
    + destruct (diagonal_a n) as (E & _). unfold xx in *. rewrite E in A. apply Cfactor in A. exact A.
  - intros H n Hn. pose proof xx_nonzero as X0. pose proof S_mr as M0. destruct (diagonal_a n) as (E & _). destruct (diagonal_b n) as (E' & _). fold xx. rewrite E, E'. split.
    + apply Cmult_neq_0; [apply Copp_nonzero; apply Cmult_neq_0; auto | apply H; auto].
    + apply Cmult_neq_0; [apply Copp_nonzero; auto | apply H; auto].
Qed.
Definition mie (q : kind) (n : nat) : C := match q with WM => b_ p n | WN => a_ p n end.
Lemma mie_quotient : forall q n, dg false q n <> !0 -> mie q n = (dg true q n / dg false q n)%C.
Proof.
  intros q n H. pose proof xx_nonzero as X0. pose proof S_mr as M0. destruct q; cbn [mie].
  - unfold b_, mie_b. destruct (diagonal_b n) as (E & E'). unfold num_b in E'. fold xx. rewrite E, E'. field. split; [exact H | apply Copp_nonzero; exact X0].
  - unfold a_, mie_a. destruct (diagonal_a n) as (E & E'). unfold num_a in E'. fold xx. rewrite E, E'. field. split; [exact H | apply Copp_nonzero, Cmult_neq_0; auto].
Qed.
Lemma Q_diagonal : forall rg m i j, (m <= p_nmax p)%nat -> (i < 2 * orders m (p_nmax p))%nat -> (j < 2 * orders m (p_nmax p))%nat ->
  Q_of p rg m i j = if (i =? j)%nat then (!(sphere_factor (p_size p) (p_wavelength p) m (order_of m (p_nmax p) i)) * dg rg (kind_of m (p_nmax p) i) (order_of m (p_nmax p) i))%C else !0.
Proof.
  intros rg m i j Hm Hi Hj. destruct S as (Hp & A & EX & G). destruct Hp as (Hs & _ & HR & Hl & Hr & Hn). unfold Q_of. rewrite A.
  apply sphere_Q; auto. exact S_points.
Qed.
Lemma cdot_pick : forall n (f : nat -> C) j, (j < n)%nat -> (forall k, (k < n)%nat -> k <> j -> f k = !0) -> cdot n f = f j.
Proof.
  intros n f j Hj H. transitivity (cdot n (fun k => f k * delta C (RtoC 0) (RtoC 1) k j)%C).
  - apply cdot_ext'. intros k Hk. unfold delta. destruct (Nat.eqb_spec k j) as [->|N]; [ring|]. rewrite H by auto. ring.
  - rewrite cdot_sum. apply (sum_delta_r _ _ _ _ _ _ _ _ _ C_field_theory n j f). auto.
Qed.
Lemma not_singular : forall m, (m <= p_nmax p)%nat -> regular_sphere p -> ~ singular_Q p m.
Proof.
  intros m Hm R (v & j & Hj & Nz & Z0). destruct S as ((Hs & _ & HR & Hl & Hr & Hn) & _). specialize (Z0 j Hj).
  rewrite (cdot_pick _ _ j) in Z0; [|exact Hj | intros k Hk N; rewrite Q_diagonal by auto; destruct (Nat.eqb_spec j k); [congruence|]; ring].
  rewrite Q_diagonal, Nat.eqb_refl in Z0 by auto. pose proof (order_range (p_nmax p) m j Hm Hn Hj) as OR.
  revert Z0. apply Cmult_neq_0; auto. apply Cmult_neq_0.
  - intro E. apply RtoC_inj in E. revert E. apply sphere_factor_nonzero; auto. lia.
  - apply regular_diagonal; auto. lia.
Qed.
Lemma singular_one : ~ regular_sphere p -> singular_Q p 0.
Proof.
  intros NR. destruct S as ((Hs & _ & HR & Hl & Hr & Hn) & _).
  assert (EXI: exists q n, (1 <= n <= p_nmax p)%nat /\ dg false q n = !0).
  { apply Classical_Prop.NNPP. intro H. apply NR. apply regular_diagonal. intros q n Hn' E. apply H. exists q, n. auto. }
  destruct EXI as (q & n & Hn' & E). set (j := (match q with WM => n - 1 | WN => p_nmax p + (n - 1) end)%nat).
  assert (O: orders 0 (p_nmax p) = p_nmax p) by (unfold orders, lowest; lia).
  assert (Hj: (j < 2 * orders 0 (p_nmax p))%nat) by (rewrite O; unfold j; destruct q; lia).
  assert (KJ: kind_of 0 (p_nmax p) j = q /\ order_of 0 (p_nmax p) j = n).
  { unfold kind_of, order_of. rewrite O. unfold j. destruct q; [destruct (Nat.ltb_spec (n - 1) (p_nmax p)); [|lia] | destruct (Nat.ltb_spec (p_nmax p + (n - 1)) (p_nmax p)); [lia|]]; split; auto; unfold lowest; lia. }
  exists (fun k => delta C (RtoC 0) (RtoC 1) k j), j. split; [exact Hj|]. split; [unfold delta; rewrite Nat.eqb_refl; exact C1_neq|].
  intros i Hi. rewrite (cdot_pick _ _ j); [|exact Hj | intros k Hk N; unfold delta; destruct (Nat.eqb_spec k j); [congruence|]; ring].
  unfold delta. rewrite Nat.eqb_refl. rewrite Q_diagonal by (auto; lia). destruct (Nat.eqb_spec i j) as [->|N]; [|ring]. destruct KJ as (-> & ->). rewrite E. ring.
Qed.
Lemma T_diagonal_first : forall m X, (m <= p_nmax p)%nat -> (exists q, ~ singular_Q p q /\ q = 0%nat) -> is_T_first p m X -> forall i j, (i < 2 * orders m (p_nmax p))%nat -> (j < 2 * orders m (p_nmax p))%nat ->
  X i j = if (i =? j)%nat then (- mie (kind_of m (p_nmax p) i) (order_of m (p_nmax p) i))%C else !0.
Proof.
  intros m X Hm (q & NS & ->) H1 i j Hi Hj. destruct S as ((Hs & _ & HR & Hl & Hr & Hn) & _).
  assert (R: regular_sphere p) by (apply Classical_Prop.NNPP; intro N; apply NS; apply singular_one; auto).
  pose proof (order_range (p_nmax p) m i Hm Hn Hi) as ORi. pose proof (order_range (p_nmax p) m j Hm Hn Hj) as ORj.
  pose proof (proj1 regular_diagonal R (kind_of m (p_nmax p) j) (order_of m (p_nmax p) j) ltac:(lia)) as DJ.
  assert (FJ: !(sphere_factor (p_size p) (p_wavelength p) m (order_of m (p_nmax p) j)) <> !0).
  { intro E. apply RtoC_inj in E. revert E. apply sphere_factor_nonzero; auto. lia. }
  specialize (H1 i j Hi Hj). rewrite (cdot_pick _ _ j) in H1; [|exact Hj | intros k Hk N; rewrite Q_diagonal by auto; destruct (Nat.eqb_spec k j); [congruence|]; ring].
  rewrite !Q_diagonal, Nat.eqb_refl in H1 by auto.
  set (F := !(sphere_factor (p_size p) (p_wavelength p) m (order_of m (p_nmax p) j))) in *. set (D := dg false (kind_of m (p_nmax p) j) (order_of m (p_nmax p) j)) in *.
  destruct (Nat.eqb_spec i j) as [->|N].
  - rewrite mie_quotient by exact DJ. fold D. fold F in H1. set (N' := dg true _ _) in *.
    transitivity ((X j j * (F * D)) / (F * D))%C; [field; split; auto|]. rewrite H1. field. split; auto.
  - transitivity ((X i j * (F * D)) / (F * D))%C; [field; split; auto|]. rewrite H1. field. split; auto.
Qed.
Lemma T_diagonal : forall m X, (m <= p_nmax p)%nat -> (exists q, ~ singular_Q p q /\ q = 0%nat) -> is_T_matrix p m X -> forall i j, (i < 2 * orders m (p_nmax p))%nat -> (j < 2 * orders m (p_nmax p))%nat ->
  X i j = if (i =? j)%nat then (- mie (kind_of m (p_nmax p) i) (order_of m (p_nmax p) i))%C else !0.
Proof. intros m X Hm Q (H1 & _). apply (T_diagonal_first m X Hm Q H1). Qed.
End One.

(** The constructor and compute_additional_elements succeed exactly when no denominator vanishes... *)
Theorem C85_exists : forall p, is_sphere p -> (exists T T', construct p = Some T /\ compute_additional_elements p T = Some T') <-> regular_sphere p.
Proof.
  intros p S. pose proof S as (Hp & _). destruct (C73_fails_exactly_when_singular p Hp) as (F0 & F1). split.
  - intros (T & T' & E & _). apply Classical_Prop.NNPP. intro N. assert (construct p = None) by (apply F0; apply singular_one; auto). congruence.
  - intros R. destruct (construct p) as [T|] eqn:E; [|exfalso; apply (not_singular p S 0 ltac:(lia) R); apply F0; auto].
    exists T. destruct (compute_additional_elements p T) as [T'|] eqn:E'; [exists T'; auto|]. exfalso. apply F1 in E'. destruct E' as (m & Hm & SI). apply (not_singular p S m ltac:(lia) R SI).
Qed.
Print Assumptions C85_exists.
(** ... and the object then holds the Mie coefficients, for every azimuthal order *)
Theorem C85_sphere : forall p T T', is_sphere p -> construct p = Some T -> compute_additional_elements p T = Some T' ->
  forall n n' m, (m <= n <= p_nmax p)%nat -> (m <= n' <= p_nmax p)%nat -> (1 <= n)%nat -> (1 <= n')%nat ->
  element (p_nmax p) T' 0 n m 0 n' m = (if (n =? n')%nat then - b_ p n else !0)%C /\
  element (p_nmax p) T' 1 n m 1 n' m = (if (n =? n')%nat then - a_ p n else !0)%C /\
  element (p_nmax p) T' 0 n m 1 n' m = !0 /\ element (p_nmax p) T' 1 n m 0 n' m = !0.
Proof.
  intros p T T' S E E' n n' m Hn Hn' H1 H1'. pose proof S as (Hp & _). pose proof (C73_T_matrix p T T' Hp E E' m ltac:(lia)) as TM.
  assert (NS: exists q, ~ singular_Q p q /\ q = 0%nat). { exists 0%nat. split; auto. intro SI. apply C73_fails_exactly_when_singular in SI; auto. congruence. }
  pose proof (T_diagonal p S m _ ltac:(lia) NS TM) as D. unfold read in D.
  set (row := fun (t n : nat) => ((if (t =? 0)%nat then 0 else orders m (p_nmax p)) + (n - lowest m))%nat).
  assert (RW: forall t n, (m <= n <= p_nmax p)%nat -> (1 <= n)%nat -> (t < 2)%nat ->
    (row t n < 2 * orders m (p_nmax p))%nat /\ block m (p_nmax p) (row t n) = t /\ order_of m (p_nmax p) (row t n) = n /\ kind_of m (p_nmax p) (row t n) = if (t =? 0)%nat then WM else WN).
  { intros t k Hk H Ht. unfold row, block, order_of, kind_of, orders, lowest. destruct (Nat.eqb_spec t 0).
    - destruct (Nat.ltb_spec (0 + (k - Nat.max 1 m)) (p_nmax p + 1 - Nat.max 1 m)); [|lia]. repeat split; auto; lia.
    - destruct (Nat.ltb_spec (p_nmax p + 1 - Nat.max 1 m + (k - Nat.max 1 m)) (p_nmax p + 1 - Nat.max 1 m)); [lia|]. repeat split; auto; lia. }
  assert (G: forall t t', (t < 2)%nat -> (t' < 2)%nat -> element (p_nmax p) T' t n m t' n' m = if (row t n =? row t' n')%nat then (- mie p (if (t =? 0)%nat then WM else WN) n)%C else !0).
  { intros t t' Ht Ht'. destruct (RW t n ltac:(lia) H1 Ht) as (A1 & A2 & A3 & A4). destruct (RW t' n' ltac:(lia) H1' Ht') as (B1 & B2 & B3 & B4).
    specialize (D _ _ A1 B1). rewrite A2, A3, A4, B2, B3 in D. exact D. }
  rewrite !G by lia. cbn [Nat.eqb mie]. unfold row. cbn [Nat.eqb]. unfold orders, lowest. split; [|split; [|split]].
  - destruct (Nat.eqb_spec n n'), (Nat.eqb_spec (0 + (n - Nat.max 1 m)) (0 + (n' - Nat.max 1 m))); auto; lia.
  - destruct (Nat.eqb_spec n n'), (Nat.eqb_spec (p_nmax p + 1 - Nat.max 1 m + (n - Nat.max 1 m)) (p_nmax p + 1 - Nat.max 1 m + (n' - Nat.max 1 m))); auto; lia.
  - destruct (Nat.eqb_spec (0 + (n - Nat.max 1 m)) (p_nmax p + 1 - Nat.max 1 m + (n' - Nat.max 1 m))); auto; lia.
  - destruct (Nat.eqb_spec (p_nmax p + 1 - Nat.max 1 m + (n - Nat.max 1 m)) (0 + (n' - Nat.max 1 m))); auto; lia.
Qed.
Print Assumptions C85_sphere.

(** Such particles exist, and the rule of the code makes them: the Gauss-Legendre rule with an even number of points *)
Lemma symmetric_gauss_exists : forall g, (1 <= g)%nat -> exists x w, symmetric_rule g x w /\ gauss_rule (2 * g) (-1) 1 x w.
Proof.
  intros g Hg. destruct (legendre_roots (2 * g)) as (l & L & ND & I & ALL). specialize (ALL ltac:(lia)).
  set (pos := filter (fun x => if Rlt_dec 0 x then true else false) l). set (neg := filter (fun x => negb (if Rlt_dec 0 x then true else false)) l).
  assert (LL: (length pos + length neg = 2 * g)%nat). { rewrite <- L. unfold pos, neg. clear. induction l as [|a l IH]; [reflexivity|]. cbn [filter]. destruct (Rlt_dec 0 a); cbn [negb length]; lia. }
  assert (Z0: ~ In 0 l).
  { intro H. destruct (I 0 H) as (_ & Z). destruct g as [|g]; [lia|]. replace (2 * S g)%nat with (S (2 * g + 1)) in Z by lia.
    pose proof (K_at_root _ _ Z) as Q. pose proof (K_diag_pos (2 * g + 1) 0) as KP.
    pose proof (P_parity (S (2 * g + 1)) 1 0) as PP. rewrite Ropp_0 in PP. replace (S (2 * g + 1) + 1)%nat with (2 * (g + 1) + 1)%nat in PP by lia.
    rewrite pow_add, pow_mult in PP. replace ((-1) ^ 2) with 1 in PP by ring. rewrite pow1 in PP. assert (P (S (2 * g + 1)) 1 0 = 0) by lra. rewrite H0 in Q. lra. }
  assert (OP: forall x, In x l -> In (- x) l) by (intros x H; apply ALL; apply Props_quad.parity_root; apply I; auto).
  assert (INP: forall x, In x pos <-> In x l /\ 0 < x). { intros x. unfold pos. rewrite filter_In. destruct (Rlt_dec 0 x); intuition congruence. }
  assert (INN: forall x, In x neg <-> In x l /\ x <= 0). { intros x. unfold neg. rewrite filter_In. destruct (Rlt_dec 0 x); cbn [negb]; intuition (try congruence; try lra). }
  assert (NDP: NoDup pos) by (apply NoDup_filter; auto). assert (NDN: NoDup neg) by (apply NoDup_filter; auto).
  assert (NDM: forall k, NoDup k -> NoDup (map Ropp k)) by (intros k Hk; apply FinFun.Injective_map_NoDup; auto; intros a b' E; lra).
  assert (L1: (length pos <= length neg)%nat).
  { rewrite <- (map_length Ropp pos). apply NoDup_incl_length; auto. intros x Hx. apply in_map_iff in Hx. destruct Hx as (y & <- & Hy). apply INP in Hy. apply INN. split; [apply OP; tauto | lra]. }
  assert (L2: (length neg <= length pos)%nat).
  { rewrite <- (map_length Ropp neg). apply NoDup_incl_length; auto. intros x Hx. apply in_map_iff in Hx. destruct Hx as (y & <- & Hy). apply INN in Hy. apply INP. split; [apply OP; tauto|].
    destruct Hy as (Hy & [Q|Q]); [lra|]. subst y. contradiction. }
  assert (LP: length pos = g) by lia.
  set (x := fun i => if (i <? g)%nat then - nth i pos 0 else nth (2 * g - 1 - i) pos 0).
  assert (XP: forall i, (i < g)%nat -> 0 < nth i pos 0 /\ In (nth i pos 0) l) by (intros i Hi; assert (In (nth i pos 0) pos) by (apply nth_In; lia); apply INP in H; tauto).
  assert (XL: forall i, (i < 2 * g)%nat -> In (x i) l).
  { intros i Hi. unfold x. destruct (Nat.ltb_spec i g); [apply OP; apply XP; auto | apply XP; lia]. }
  assert (XM: forall i, (i < 2 * g)%nat -> x (2 * g - 1 - i)%nat = - x i).
  { intros i Hi. unfold x. destruct (Nat.ltb_spec (2 * g - 1 - i) g), (Nat.ltb_spec i g); try lia; [reflexivity|]. rewrite Ropp_involutive. f_equal. lia. }
  assert (XD: forall i j, (i < j < 2 * g)%nat -> x i <> x j).
  { intros i j H E. unfold x in E. destruct (Nat.ltb_spec i g), (Nat.ltb_spec j g); try lia.
    - assert (nth i pos 0 = nth j pos 0) as E' by lra. apply (NoDup_nth pos 0) in E'; auto; lia.
    - destruct (XP i H0), (XP (2 * g - 1 - j)%nat ltac:(lia)). lra.
    - apply (NoDup_nth pos 0) in E; auto; lia. }
  set (w := fun i => 2 / ((1 - x i * x i) * (P (2 * g) 1 (x i) * P (2 * g) 1 (x i)))).
  exists x, w. split.
  - intros i Hi. split; [apply I; auto|]. split; [apply XM; auto|]. unfold w. rewrite XM by auto. rewrite P_parity.
    assert (S1: (-1) ^ (2 * g + 1) * (-1) ^ (2 * g + 1) = 1) by (rewrite <- Rpow_mult_distr; replace (-1 * -1) with 1 by ring; apply pow1).
    replace ((1 - - x i * - x i) * ((-1) ^ (2 * g + 1) * P (2 * g) 1 (x i) * ((-1) ^ (2 * g + 1) * P (2 * g) 1 (x i)))) with ((1 - x i * x i) * (P (2 * g) 1 (x i) * P (2 * g) 1 (x i))); [reflexivity|].
    change (@eq R ((1 - x i * x i) * (P (2 * g) 1 (x i) * P (2 * g) 1 (x i))) ((1 - - x i * - x i) * ((-1) ^ (2 * g + 1) * P (2 * g) 1 (x i) * ((-1) ^ (2 * g + 1) * P (2 * g) 1 (x i))))).
    transitivity ((1 - x i * x i) * (((-1) ^ (2 * g + 1) * (-1) ^ (2 * g + 1)) * (P (2 * g) 1 (x i) * P (2 * g) 1 (x i)))); [rewrite S1; ring | ring].
  - exists x. split; auto. intros i Hi. split; [apply I; auto|]. unfold w. split; field. 
    assert (K: 0 < (1 - x i * x i) * (P (2 * g) 1 (x i) * P (2 * g) 1 (x i))).
    { destruct (I _ (XL i Hi)) as (_ & Z). destruct g as [|g']; [lia|]. replace (2 * S g')%nat with (S (2 * g' + 1)) in * by lia. rewrite <- (K_at_root _ _ Z). pose proof (K_diag_pos (2 * g' + 1) (x i)). lra. }
    split; intro Q; rewrite Q in K; lra.
Qed.
Lemma gauss_is_exact : forall g x w, (1 <= g)%nat -> gauss_rule g (-1) 1 x w -> AverageFacts.exact_rule g x w.
Proof.
  intros g x w Hg G p L. destruct (gauss_rule_facts g (-1) 1 x w Hg ltac:(lra) G) as (E & _). specialize (E p L).
  replace (Props_outputs.rsum (seq 0 g) (fun i => w i * eval p (x i))) with (Props_quad.quad g x w (eval p)); [exact E|].
  clear. induction g as [|g IH]; [reflexivity|]. rewrite seq_S, Props_outputs.rsum_app, <- IH. cbn [Props_quad.quad]. rewrite Props_outputs.rsum_cons, Props_outputs.rsum_nil. cbn [Nat.add]. ring.
Qed.

(* ------------------------------------------------------------ cross sections *)
Import Props_outputs (rsum, rsum_ext, rsum_app, rsum_cons, rsum_nil, rsum_add, rsum_scal, rsum_swap, rsum_pick, rsum_zero, for_R).
Import Frames (norm2, get_scattering_coefficient, get_extinction_coefficient).
Lemma rsum_weights : forall n c, rsum (seq 0 (n + 1)) (fun m => (if (0 <? m)%nat then 2 else 1) * c) = INR (2 * n + 1) * c.
Proof.
  intros n c. induction n as [|n IH]; [cbn; ring|]. replace (S n + 1)%nat with (S (n + 1)) by lia. rewrite seq_S, rsum_app, IH, rsum_cons, rsum_nil. cbn [Nat.add].
  destruct (Nat.ltb_spec 0 (n + 1)); [|lia]. replace (2 * S n + 1)%nat with (2 * n + 1 + 2)%nat by lia. rewrite (plus_INR (2 * n + 1) 2). replace (INR 2) with 2 by (cbn; ring). ring.
Qed.
Lemma norm2_opp' : forall z : C, norm2 (- z)%C = norm2 z.
Proof. intros (a, b). unfold norm2. cbn. ring. Qed.
Lemma norm2_0 : norm2 !0 = 0.
Proof. unfold norm2. cbn. ring. Qed.
(** The two sums of the object are those of the efficiencies of Bohren & Huffman, eqs. 4.61 and 4.62 (the sign of the first is that of the T-matrix) *)
Theorem C85_cross_sections : forall p T T', is_sphere p -> construct p = Some T -> compute_additional_elements p T = Some T' ->
  get_extinction_coefficient (p_nmax p) T' = - rsum (seq 1 (p_nmax p)) (fun n => INR (2 * n + 1) * Re (a_ p n + b_ p n)%C) /\
  get_scattering_coefficient (p_nmax p) T' = rsum (seq 1 (p_nmax p)) (fun n => INR (2 * n + 1) * (norm2 (a_ p n) + norm2 (b_ p n))).
Proof.
  intros p T T' S E E'. pose proof (C85_sphere p T T' S E E') as D. split.
  - transitivity (rsum (seq 1 (p_nmax p)) (fun n => rsum (seq 0 (n + 1)) (fun m => (if (0 <? m)%nat then 2 else 1) * (- Re (a_ p n + b_ p n)%C)))).
    + unfold get_extinction_coefficient. replace (seq 1 (p_nmax p)) with (seq 1 (p_nmax p + 1 - 1)) by (f_equal; lia). rewrite <- (Rplus_0_l (rsum _ _)). apply for_R. intros n a Hn.
      replace (n + 1)%nat with (n + 1 - 0)%nat at 2 by lia. apply for_R. intros m c Hm. destruct (D n n m ltac:(lia) ltac:(lia) ltac:(lia) ltac:(lia)) as (-> & -> & -> & ->). rewrite Nat.eqb_refl.
      cbn [Re Cplus Copp RtoC fst]. ring.
    + rewrite (rsum_ext _ _ (fun n => -1 * (INR (2 * n + 1) * Re (a_ p n + b_ p n)%C))); [rewrite rsum_scal; ring|]. intros n _. rewrite rsum_weights. ring.
  - transitivity (rsum (seq 1 (p_nmax p)) (fun n => rsum (seq 1 (p_nmax p)) (fun n' => if (n =? n')%nat then rsum (seq 0 (n + 1)) (fun m => (if (0 <? m)%nat then 2 else 1) * (norm2 (a_ p n) + norm2 (b_ p n))) else 0))).
    + unfold get_scattering_coefficient. replace (seq 1 (p_nmax p)) with (seq 1 (p_nmax p + 1 - 1)) by (f_equal; lia). rewrite <- (Rplus_0_l (rsum _ _)). apply for_R. intros n a Hn. apply for_R. intros n' b' Hn'.
      transitivity (b' + rsum (seq 0 (n + 1)) (fun m => if (n =? n')%nat then (if (0 <? m)%nat then 2 else 1) * (norm2 (a_ p n) + norm2 (b_ p n)) else 0)).
      * replace (n + 1)%nat with (n + 1 - 0)%nat at 2 by lia. apply for_R. intros m c Hm.
        replace (if (n =? n')%nat then (if (0 <? m)%nat then 2 else 1) * (norm2 (a_ p n) + norm2 (b_ p n)) else 0) with (rsum (seq 0 (n' + 1)) (fun x => if (m =? x)%nat then if (n =? n')%nat then (if (0 <? m)%nat then 2 else 1) * (norm2 (a_ p n) + norm2 (b_ p n)) else 0 else 0)).
        2: { rewrite rsum_pick. destruct (Nat.eqb_spec n n') as [->|]; [destruct (Nat.ltb_spec m (n' + 1)); [reflexivity|lia] | destruct (m <? n' + 1)%nat; reflexivity]. }
        replace (n' + 1)%nat with (n' + 1 - 0)%nat at 2 by lia. apply for_R. intros m' d Hm'. destruct (Nat.eqb_spec m m') as [<-|N]; [|ring].
        destruct (D n n' m ltac:(lia) ltac:(lia) ltac:(lia) ltac:(lia)) as (-> & -> & -> & ->). destruct (n =? n')%nat; rewrite ?norm2_opp', ?norm2_0; ring.
      * f_equal. destruct (n =? n')%nat; [reflexivity|]. apply rsum_zero. auto.
    + apply rsum_ext. intros n Hn. apply in_seq in Hn. rewrite rsum_weights.
      transitivity (rsum (seq 1 (p_nmax p)) (fun n' => if (n =? n')%nat then INR (2 * n + 1) * (norm2 (a_ p n) + norm2 (b_ p n)) else 0)); [reflexivity|].
      set (c := INR (2 * n + 1) * (norm2 (a_ p n) + norm2 (b_ p n))). pose proof (rsum_pick (p_nmax p + 1)%nat n c) as Q. replace (p_nmax p + 1)%nat with (1 + p_nmax p)%nat in Q by lia; change (seq 0 (1 + p_nmax p)) with (0 :: seq 1 (p_nmax p))%nat in Q. rewrite rsum_cons in Q.
      destruct (Nat.eqb_spec n 0); [lia|]. revert Q. destruct (Nat.ltb_spec n (1 + p_nmax p)); [|lia]. intros Q. lra.
Qed.
Print Assumptions C85_cross_sections.

(** The tasks compute the same matrices, with any scratch contents *)
Theorem C85_tasks : forall p m stored junk table pivot work X0, is_sphere p -> regular_sphere p -> (m <= p_nmax p)%nat ->
  exists X, task p m stored junk table pivot work X0 = Some X /\
  forall i j, (i < 2 * orders m (p_nmax p))%nat -> (j < 2 * orders m (p_nmax p))%nat ->
  X i j = (if (i =? j)%nat then match kind_of m (p_nmax p) i with WM => - b_ p (order_of m (p_nmax p) i) | WN => - a_ p (order_of m (p_nmax p) i) end else !0)%C.
Proof.
  intros p m stored junk table pivot work X0 S R Hm. pose proof S as (Hp & _).
  destruct (task p m stored junk table pivot work X0) as [X|] eqn:E; [|exfalso; apply task_fails in E; auto; apply (not_singular p S m Hm R E)].
  exists X. split; [reflexivity|]. intros i j Hi Hj.
  assert (TM: is_T_matrix p m X). { destruct Hp as (Hs & Ha & HR & Hl & Hr & Hn). exact (C63_T_matrix (p_radial p) stored m (p_nmax p) (p_ngauss p) (p_x p) (p_w p) (p_axis_ratio p) (p_size p) (p_wavelength p) (p_mr p) junk table pivot work X0 X Hs Ha HR Hl Hr Hm Hn E). }
  rewrite (T_diagonal p S m X Hm (ex_intro _ 0%nat (conj (not_singular p S 0 ltac:(lia) R) eq_refl)) TM i j Hi Hj). destruct (i =? j)%nat; [|reflexivity].
  unfold mie. destruct (kind_of m (p_nmax p) i); reflexivity.
Qed.
Print Assumptions C85_tasks.

(* ------------------------------------------------------------ orientation averages *)
(** a T-matrix that does not depend on m and couples no two different waves: that of a sphere *)
Definition spherical (nmax : Z) (T : tmat) (t : bool -> Z -> C) : Prop :=
  forall i j m n1 n2, Props_align.in_range nmax m n1 n2 -> T i j m n1 n2 = if (Bool.eqb i j && (n1 =? n2)%Z)%bool then t i n1 else !0.
Lemma spherical_mirrored : forall nmax T t i j m n1 n2, spherical nmax T t -> (1 <= n1 <= nmax)%Z -> (1 <= n2 <= nmax)%Z -> (- Z.min n1 n2 <= m <= Z.min n1 n2)%Z ->
  mirrored T i j m n1 n2 = if (Bool.eqb i j && (n1 =? n2)%Z)%bool then t i n1 else !0.
Proof.
  intros nmax T t i j m n1 n2 H H1 H2 Hm. unfold mirrored. destruct (Z.ltb_spec m 0).
  - rewrite (H i j (- m)%Z n1 n2) by (unfold Props_align.in_range; lia). destruct i, j; cbn [Bool.eqb andb xorb]; try ring; destruct (n1 =? n2)%Z; ring.
  - apply H. unfold Props_align.in_range. lia.
Qed.
Lemma zsum_ext : forall a b f g, (forall m, (a <= m <= b)%Z -> f m = g m) -> zsum a b f = zsum a b g.
Proof. intros a b f g H. unfold zsum. apply csum_ext. intros k Hk. apply H. lia. Qed.
Lemma zsum_0 : forall a b f, (forall m, (a <= m <= b)%Z -> f m = !0) -> zsum a b f = !0.
Proof. intros a b f H. unfold zsum. apply csum_0. intros k Hk. apply H. lia. Qed.
Lemma spherical_average : forall nmax p T t, spherical nmax T t -> p 0%Z = 1 -> forall i j m n1 n2, Props_align.in_range nmax m n1 n2 -> mishchenko p T i j m n1 n2 = T i j m n1 n2.
Proof.
  intros nmax p T t H P0 i j m n1 n2 R. pose proof R as (R1 & R2 & R3). rewrite (H i j m n1 n2 R).
  destruct (Bool.eqb i j && (n1 =? n2)%Z)%bool eqn:E.
  - apply andb_true_iff in E. destruct E as (E1 & E2). apply eqb_prop in E1. apply Z.eqb_eq in E2. subst j n2.
    rewrite mish_diag by lia. rewrite P0. rewrite csum_0.
    + unfold trace. rewrite (H i i 0%Z n1 n1) by (unfold Props_align.in_range; lia). rewrite (csum_ext _ (fun _ => t i n1)).
      2: { intros k Hk. rewrite (H i i (Z.of_nat (Datatypes.S k)) n1 n1) by (unfold Props_align.in_range; lia). rewrite Bool.eqb_reflx, Z.eqb_refl. reflexivity. }
      rewrite Bool.eqb_reflx, Z.eqb_refl. cbn [andb].
      assert (K: forall (c : C) k, csum (fun _ => c) k = (RtoC (INR k) * c)%C).
      { intros c. induction k as [|k IH]; [cbn; ring|]. cbn [csum]. rewrite IH. rewrite S_INR, RtoC_plus. ring. }
      rewrite K, INR_IZR_INZ, Z2Nat.id by lia. assert (PP: 0 < IZR (2 * n1 + 1)) by (apply IZR_lt; lia).
      transitivity (!(1 / IZR (2 * n1 + 1) * (1 + 2 * IZR n1)) * t i n1)%C; [rewrite RtoC_mult, RtoC_plus, RtoC_mult; ring|].
      replace (1 / IZR (2 * n1 + 1) * (1 + 2 * IZR n1)) with 1; [ring|]. rewrite plus_IZR, mult_IZR in *. field. lra.
    + intros k Hk. unfold mish_term. rewrite Z.min_id.
      rewrite (zsum_ext _ _ _ (fun m1 => (t i n1 * !(sgn m1 * clebsch_gordan n1 m1 n1 (- m1) (Z.of_nat (Datatypes.S k)) 0))%C)).
      2: { intros m1 Hm1. rewrite (spherical_mirrored nmax T t) by (auto; lia). rewrite Bool.eqb_reflx, Z.eqb_refl. cbn [andb]. ring. }
      unfold zsum. rewrite csum_scal. pose proof (alternating n1 (Z.of_nat (Datatypes.S k)) ltac:(lia) ltac:(lia)) as A. unfold zsum in A. rewrite A. ring.
  - unfold mishchenko. apply zsum_0. intros N HN. rewrite (zsum_0 _ _ (fun m1 => _)); [ring|]. intros m1 Hm1. rewrite (spherical_mirrored nmax T t) by (auto; lia). rewrite E. ring.
Qed.
(** The average over any orientation distribution, by the task and by the class, leaves the T-matrix of a sphere as it is *)
Theorem C85_any_orientation : forall coef nmax T t cg old, (0 <= nmax)%Z -> (2 * nmax < Z.of_nat (length coef))%Z -> (Z.of_nat (length cg) >= (2 * nmax + 1) * (2 * nmax + 1))%Z ->
  coefficient coef 0 = 1 -> spherical nmax T t ->
  (exists cg' out, execute true coef nmax T cg old = Some (cg', out) /\ forall i j m n1 n2, Props_align.in_range nmax m n1 n2 -> out i j m n1 n2 = T i j m n1 n2) /\
  ((forall i j n1 n2, i <> j -> T i j 0%Z n1 n2 = !0) ->
   exists out, apply_orientation_distribution coef nmax T = Some out /\ forall i j m n1 n2, Props_align.in_range nmax m n1 n2 -> out i j m n1 n2 = T i j m n1 n2).
Proof.
  intros coef nmax T t cg old Hn HC HL P0 H. split.
  - destruct (C58_average coef nmax T cg old Hn HC HL) as (cg' & out & E & D).
    { intros i j n1 n2 H1 H2 N. rewrite (H i j 0%Z n1 n2) by (unfold Props_align.in_range; lia). destruct i, j; try congruence; reflexivity. }
    exists cg', out. split; auto. intros i j m n1 n2 R. rewrite D by auto. eapply spherical_average; eauto.
  - intros HT. destruct (C58_calculator coef nmax T Hn HC HT) as (out & E & D). exists out. split; auto. intros i j m n1 n2 R. rewrite D by auto. eapply spherical_average; eauto.
Qed.
Print Assumptions C85_any_orientation.
(** the T-matrix of a sphere has this form *)
Definition object_tmat (p : particle) (T : tmats) : tmat := fun i j m n1 n2 =>
  TClass.element (p_nmax p) T (if i then 1 else 0)%nat (Z.to_nat n1) (Z.to_nat m) (if j then 1 else 0)%nat (Z.to_nat n2) (Z.to_nat m).
Theorem C85_object_is_spherical : forall p T T', is_sphere p -> construct p = Some T -> compute_additional_elements p T = Some T' ->
  spherical (Z.of_nat (p_nmax p)) (object_tmat p T') (fun i n => if i then - a_ p (Z.to_nat n) else - b_ p (Z.to_nat n))%C.
Proof.
  intros p T T' S E E' i j m n1 n2 (H1 & H2 & H3). unfold object_tmat.
  destruct (C85_sphere p T T' S E E' (Z.to_nat n1) (Z.to_nat n2) (Z.to_nat m) ltac:(lia) ltac:(lia) ltac:(lia) ltac:(lia)) as (A1 & A2 & A3 & A4).
  assert (Q: (Z.to_nat n1 =? Z.to_nat n2)%nat = (n1 =? n2)%Z) by (destruct (Nat.eqb_spec (Z.to_nat n1) (Z.to_nat n2)), (Z.eqb_spec n1 n2); auto; lia).
  rewrite Q in *. destruct i, j; cbn [Bool.eqb andb]; auto.
Qed.
Print Assumptions C85_object_is_spherical.
Example C85_any_orientation_example : let T : tmat := fun i j m n1 n2 => if (Bool.eqb i j && (n1 =? n2)%Z)%bool then (if i then RtoC 1 else RtoC 2) else !0 in
  spherical 1 T (fun i _ => if i then RtoC 1 else RtoC 2) /\ coefficient [1; 0; / 10] 0 = 1 /\ (2 * 1 < Z.of_nat (length [1; 0; / 10]%R))%Z.
Proof. intros T. split; [intros i j m n1 n2 _; reflexivity|]. split; [reflexivity | cbn; lia]. Qed.
