(** C25 (matrix inversion), C53 (the T-matrix solves its defining linear system) *)
From Coq Require Import Reals Lra Lia List Arith Bool Field.
From Coquelicot Require Import Complex.
From Verif Require Import Matrix.

(** ---- the two element types: real and complex numbers with the usual modulus ---- *)
Definition r_gtb (x y : R) : bool := if Rlt_dec y x then true else false.
Definition r_iszero (x : R) : bool := if Req_EM_T x 0 then true else false.
Definition c_iszero (z : C) : bool := r_iszero (Cmod z).
Definition r_plu_inverse := plu_inverse R 0%R 1%R Rmult Rminus Rdiv R Rabs r_gtb r_iszero.
Definition c_plu_inverse := plu_inverse C (RtoC 0) (RtoC 1) Cmult Cminus Cdiv R Cmod r_gtb c_iszero.
Definition c_t_matrix := t_matrix C (RtoC 0) (RtoC 1) Cmult Cminus Cdiv R Cmod r_gtb c_iszero.

(** ---- specification: products of square blocks and singularity ---- *)
Definition rdot (n : nat) (f : nat -> R) : R := fold_right (fun k s => (f k + s)%R) 0%R (seq 0 n).
Definition cdot (n : nat) (f : nat -> C) : C := fold_right (fun k s => (f k + s)%C) (RtoC 0) (seq 0 n).
Definition r_inverse (n : nat) (A B : nat -> nat -> R) : Prop := forall i j, i < n -> j < n ->
  rdot n (fun k => A i k * B k j)%R = (if Nat.eqb i j then 1 else 0)%R /\ rdot n (fun k => B i k * A k j)%R = (if Nat.eqb i j then 1 else 0)%R.
Definition c_inverse (n : nat) (A B : nat -> nat -> C) : Prop := forall i j, i < n -> j < n ->
  cdot n (fun k => A i k * B k j)%C = (if Nat.eqb i j then RtoC 1 else RtoC 0) /\ cdot n (fun k => B i k * A k j)%C = (if Nat.eqb i j then RtoC 1 else RtoC 0).

Lemma rdot_sum : forall n f, rdot n f = sum R 0%R Rplus n f.
Proof.
  unfold rdot. induction n; intros f; auto. rewrite seq_S, fold_right_app. cbn [fold_right sum]. rewrite <- IHn. rewrite Rplus_0_r.
  assert (G: forall l a, fold_right (fun k s => (f k + s)%R) a l = (fold_right (fun k s => (f k + s)%R) 0%R l + a)%R).
  { induction l; intros; cbn [fold_right]; [ring|]. rewrite IHl. ring. }
  rewrite G. reflexivity.
Qed.
Lemma cdot_sum : forall n f, cdot n f = sum C (RtoC 0) Cplus n f.
Proof.
  unfold cdot. induction n; intros f; auto. rewrite seq_S, fold_right_app. cbn [fold_right sum]. rewrite <- IHn. rewrite Cplus_0_r.
  assert (G: forall l a, fold_right (fun k s => (f k + s)%C) a l = (fold_right (fun k s => (f k + s)%C) (RtoC 0) l + a)%C).
  { induction l; intros; cbn [fold_right]; [rewrite Cplus_0_l; reflexivity|]. rewrite IHl. apply Cplus_assoc. }
  rewrite G. reflexivity.
Qed.
Lemma r_iszero_spec : forall x, r_iszero x = true <-> x = 0%R.
Proof. intros. unfold r_iszero. destruct (Req_EM_T x 0); split; auto; discriminate. Qed.
Lemma c_iszero_spec : forall x, c_iszero x = true <-> x = RtoC 0.
Proof. intros. unfold c_iszero. rewrite r_iszero_spec. split; [apply Cmod_eq_0 | intros ->; apply Cmod_0]. Qed.
Lemma r_gtb_nonzero : forall x y, r_gtb (Rabs x) (Rabs y) = true -> x <> 0%R.
Proof. intros x y. unfold r_gtb. destruct (Rlt_dec (Rabs y) (Rabs x)); [|discriminate]. intros _ ->. rewrite Rabs_R0 in r. pose proof (Rabs_pos y). lra. Qed.
Lemma r_gtb_zero : forall x, x <> 0%R -> r_gtb (Rabs x) (Rabs 0) = true.
Proof. intros x H. unfold r_gtb. rewrite Rabs_R0. destruct (Rlt_dec 0 (Rabs x)); auto. destruct n. apply Rabs_pos_lt; auto. Qed.
Lemma c_gtb_nonzero : forall x y, r_gtb (Cmod x) (Cmod y) = true -> x <> RtoC 0.
Proof. intros x y. unfold r_gtb. destruct (Rlt_dec (Cmod y) (Cmod x)); [|discriminate]. intros _ ->. rewrite Cmod_0 in r. pose proof (Cmod_ge_0 y). lra. Qed.
Lemma c_gtb_zero : forall x, x <> RtoC 0 -> r_gtb (Cmod x) (Cmod (RtoC 0)) = true.
Proof. intros x H. unfold r_gtb. rewrite Cmod_0. destruct (Rlt_dec 0 (Cmod x)); auto. destruct n. apply Cmod_gt_0; auto. Qed.

(** over any field, for any comparison of magnitudes that separates zero from non-zero *)
Theorem C25_any_field : forall (F : Type) f0 f1 fadd fmul fsub fopp fdiv finv,
  field_theory f0 f1 fadd fmul fsub fopp fdiv finv eq ->
  forall (K : Type) (fabs : F -> K) gtb iszero,
  (forall x, iszero x = true <-> x = f0) -> (forall x y, gtb (fabs x) (fabs y) = true -> x <> f0) -> (forall x, x <> f0 -> gtb (fabs x) (fabs f0) = true) ->
  forall n pivot work A,
  match plu_inverse F f0 f1 fmul fsub fdiv K fabs gtb iszero n pivot work A with
  | Some B => inverse_of F f0 f1 fadd fmul n A B /\ (forall r c, n <= r \/ n <= c -> B r c = A r c)
  | None => singular F f0 fadd fmul n A
  end.
Proof. intros. eapply plu_inverse_spec; eauto. Qed.
Print Assumptions C25_any_field.
(** complex matrices: the result is the two-sided inverse of the leading block, the rest is untouched *)
Theorem C25_complex_inverse : forall n pivot work A B, c_plu_inverse n pivot work A = Some B ->
  c_inverse n A B /\ (forall r c, n <= r \/ n <= c -> B r c = A r c).
Proof.
  intros n p w A B E. pose proof (plu_inverse_spec _ _ _ _ _ _ _ _ _ C_field_theory R Cmod r_gtb c_iszero c_iszero_spec c_gtb_nonzero c_gtb_zero n p w A) as S.
  unfold c_plu_inverse in E. rewrite E in S. destruct S as (S1 & S2). split; auto. intros i j Hi Hj. rewrite !cdot_sum. apply S1; auto.
Qed.
Print Assumptions C25_complex_inverse.
(** a zero pivot is met exactly for singular blocks *)
Theorem C25_complex_zero_pivot : forall n pivot work A,
  c_plu_inverse n pivot work A = None <-> exists v j, j < n /\ v j <> RtoC 0 /\ forall i, i < n -> cdot n (fun k => A i k * v k)%C = RtoC 0.
Proof.
  intros n p w A. pose proof (plu_inverse_spec _ _ _ _ _ _ _ _ _ C_field_theory R Cmod r_gtb c_iszero c_iszero_spec c_gtb_nonzero c_gtb_zero n p w A) as S.
  unfold c_plu_inverse. destruct (plu_inverse _ _ _ _ _ _ _ _ _ _ _ _ _ _) as [B|]; split; try discriminate.
  - intros (v & j & Hj & Hv & Z). destruct Hv. destruct S as (S1 & _).
    assert (Q: sum C (RtoC 0) Cplus n (fun i => B j i * sum C (RtoC 0) Cplus n (fun k => A i k * v k))%C = v j).
    { rewrite (sum_assoc _ _ _ _ _ _ _ _ _ C_field_theory).
      rewrite (sum_ext _ _ _ n _ (fun k => delta C (RtoC 0) (RtoC 1) j k * v k)%C) by (intros; f_equal; apply S1; auto).
      apply (sum_delta_l _ _ _ _ _ _ _ _ _ C_field_theory); auto. }
    rewrite <- Q. apply (sum_zero _ _ _ _ _ _ _ _ _ C_field_theory). intros i Hi. rewrite <- cdot_sum, Z by auto. ring.
  - intros _. destruct S as (v & j & Hj & Hv & Z). exists v, j. split; auto. split; auto. intros. rewrite cdot_sum. apply Z; auto.
  - auto.
Qed.
Print Assumptions C25_complex_zero_pivot.
Theorem C25_real_inverse : forall n pivot work A,
  match r_plu_inverse n pivot work A with
  | Some B => r_inverse n A B /\ (forall r c, n <= r \/ n <= c -> B r c = A r c)
  | None => exists v j, j < n /\ v j <> 0%R /\ forall i, i < n -> rdot n (fun k => A i k * v k)%R = 0%R
  end.
Proof.
  intros n p w A. pose proof (plu_inverse_spec _ _ _ _ _ _ _ _ _ Rfield R Rabs r_gtb r_iszero r_iszero_spec r_gtb_nonzero r_gtb_zero n p w A) as S.
  unfold r_plu_inverse. destruct (plu_inverse _ _ _ _ _ _ _ _ _ _ _ _ _ _) as [B|].
  - destruct S as (S1 & S2). split; auto. intros i j Hi Hj. rewrite !rdot_sum. apply S1; auto.
  - destruct S as (v & j & Hj & Hv & Z). exists v, j. split; auto. split; auto. intros. rewrite rdot_sum. apply Z; auto.
Qed.
Print Assumptions C25_real_inverse.
(** the scratch arrays do not matter *)
Theorem C25_scratch_irrelevant : forall n p w p' w' A B B', c_plu_inverse n p w A = Some B -> c_plu_inverse n p' w' A = Some B' ->
  forall r c, r < n -> c < n -> B r c = B' r c.
Proof.
  intros n p w p' w' A B B' E E' r c Hr Hc. apply C25_complex_inverse in E, E'. destruct E as (E & _), E' as (E' & _).
  assert (X: cdot n (fun k => B r k * cdot n (fun l => A k l * B' l c))%C = B r c).
  { rewrite cdot_sum. rewrite (sum_ext _ _ _ n _ (fun k => B r k * delta C (RtoC 0) (RtoC 1) k c)%C) by (intros k Hk; f_equal; apply E'; auto).
    apply (sum_delta_r _ _ _ _ _ _ _ _ _ C_field_theory _ _ (fun k => B r k)); auto. }
  rewrite <- X. rewrite cdot_sum. rewrite (sum_ext _ _ _ n _ (fun k => B r k * sum C (RtoC 0) Cplus n (fun l => A k l * B' l c))%C) by (intros; rewrite <- cdot_sum; auto).
  rewrite (sum_assoc _ _ _ _ _ _ _ _ _ C_field_theory). rewrite (sum_ext _ _ _ n _ (fun l => delta C (RtoC 0) (RtoC 1) r l * B' l c)%C).
  - apply (sum_delta_l _ _ _ _ _ _ _ _ _ C_field_theory _ _ (fun l => B' l c)); auto.
  - intros k Hk. f_equal. rewrite <- cdot_sum. apply E; auto.
Qed.
Print Assumptions C25_scratch_irrelevant.

(** C53: T Q = - RgQ for the 2 nm x 2 nm blocks; T is determined by this; nothing else is written *)
Theorem C53_defining_system : forall nm pivot work Q RgQ T T', c_t_matrix nm pivot work Q RgQ T = Some T' ->
  (forall i j, i < 2 * nm -> j < 2 * nm -> cdot (2 * nm) (fun k => T' i k * Q k j)%C = (- RgQ i j)%C) /\
  (forall X, (forall i j, i < 2 * nm -> j < 2 * nm -> cdot (2 * nm) (fun k => X i k * Q k j)%C = (- RgQ i j)%C) -> forall i j, i < 2 * nm -> j < 2 * nm -> X i j = T' i j) /\
  (forall r c, 2 * nm <= r \/ 2 * nm <= c -> T' r c = T r c).
Proof.
  intros nm p w Q RgQ T T' E. unfold c_t_matrix, t_matrix in E.
  destruct (plu_inverse _ _ _ _ _ _ _ _ _ _ _ _ _ _) as [B|] eqn:EB; [|discriminate]. injection E as <-.
  destruct (C25_complex_inverse _ _ _ _ _ EB) as (I & _).
  pose proof (t_product_spec _ _ _ _ _ _ _ _ _ C_field_theory nm B RgQ T) as SP. set (T' := t_product _ _ _ _ _ _ _ _) in *. clearbody T'.
  set (n := 2 * nm) in *. clearbody n.
  assert (A: forall i j, i < n -> j < n -> T' i j = (- sum C (RtoC 0) Cplus n (fun k => RgQ i k * B k j))%C).
  { intros i j Hi Hj. rewrite SP. destruct (Nat.ltb_spec i n), (Nat.ltb_spec j n); try lia. reflexivity. }
  split; [|split].
  - intros i j Hi Hj. rewrite cdot_sum.
    rewrite (sum_ext _ _ _ n _ (fun k => (sum C (RtoC 0) Cplus n (fun l => (- RgQ i l) * B l k)) * Q k j)%C).
    2:{ intros k Hk. f_equal. rewrite A by auto. replace (- sum C (RtoC 0) Cplus n (fun l => RgQ i l * B l k))%C with ((- RtoC 1) * sum C (RtoC 0) Cplus n (fun l => RgQ i l * B l k))%C by ring.
        rewrite <- (sum_mul_l _ _ _ _ _ _ _ _ _ C_field_theory). apply sum_ext. intros. ring. }
    rewrite <- (sum_assoc _ _ _ _ _ _ _ _ _ C_field_theory n (fun l => (- RgQ i l)%C) B (fun k => Q k j)).
    rewrite (sum_ext _ _ _ n _ (fun l => (- RgQ i l) * delta C (RtoC 0) (RtoC 1) l j)%C) by (intros l Hl; f_equal; rewrite <- cdot_sum; apply I; auto).
    apply (sum_delta_r _ _ _ _ _ _ _ _ _ C_field_theory _ _ (fun l => (- RgQ i l)%C)); auto.
  - intros X HX i j Hi Hj. rewrite A by auto.
    assert (D: X i j = sum C (RtoC 0) Cplus n (fun k => X i k * sum C (RtoC 0) Cplus n (fun l => Q k l * B l j))%C).
    { rewrite (sum_ext _ _ _ n _ (fun k => X i k * delta C (RtoC 0) (RtoC 1) k j)%C) by (intros k Hk; f_equal; rewrite <- cdot_sum; apply I; auto).
      symmetry. apply (sum_delta_r _ _ _ _ _ _ _ _ _ C_field_theory _ _ (fun k => X i k)); auto. }
    rewrite D. rewrite (sum_assoc _ _ _ _ _ _ _ _ _ C_field_theory).
    rewrite (sum_ext _ _ _ n _ (fun l => (- RtoC 1) * (RgQ i l * B l j))%C).
    2:{ intros l Hl. rewrite <- cdot_sum, HX by auto. ring. }
    rewrite (sum_mul_l _ _ _ _ _ _ _ _ _ C_field_theory). ring.
  - intros r c H. rewrite SP. destruct (Nat.ltb_spec r n), (Nat.ltb_spec c n); cbn [andb]; auto; lia.
Qed.
Print Assumptions C53_defining_system.
Theorem C53_fails_exactly_for_singular_Q : forall nm pivot work Q RgQ T,
  c_t_matrix nm pivot work Q RgQ T = None <-> exists v j, j < 2 * nm /\ v j <> RtoC 0 /\ forall i, i < 2 * nm -> cdot (2 * nm) (fun k => Q i k * v k)%C = RtoC 0.
Proof.
  intros nm p w Q RgQ T. rewrite <- (C25_complex_zero_pivot (2 * nm) p w Q). unfold c_t_matrix, t_matrix, c_plu_inverse.
  destruct (plu_inverse _ _ _ _ _ _ _ _ _ _ _ _ _ _); split; auto; discriminate.
Qed.
Print Assumptions C53_fails_exactly_for_singular_Q.

(** a permuted 2x2 case (row exchange needed) and a singular one *)
Definition ex_m (a b c d : R) : nat -> nat -> C := fun i j => RtoC (match i, j with 0, 0 => a | 0, 1 => b | 1, 0 => c | 1, 1 => d | _, _ => 7 end).
Example C25_example : (exists B, c_plu_inverse 2 (fun _ => 0) (fun _ => RtoC 0) (ex_m 0 2 1 3) = Some B /\ B 0 0 = RtoC (- 3 / 2)) /\
  c_plu_inverse 2 (fun _ => 0) (fun _ => RtoC 0) (ex_m 1 2 2 4) = None.
Proof.
  split.
  - destruct (c_plu_inverse 2 (fun _ => 0) (fun _ => RtoC 0) (ex_m 0 2 1 3)) as [B|] eqn:E.
    + exists B. split; auto. apply C25_complex_inverse in E. destruct E as (E & _).
      destruct (E 0 0) as (E1 & _); try lia. destruct (E 1 0) as (E2 & _); try lia. unfold cdot, ex_m in *. cbn in E1, E2.
      destruct (B 0 0) as (x, y), (B 1 0) as (z, t). unfold Cmult, Cplus, RtoC in *. cbn [fst snd] in *. injection E1 as E1 E3. injection E2 as E2 E4. f_equal; lra.
    + exfalso. apply C25_complex_zero_pivot in E. destruct E as (v & j & Hj & Hv & Z). pose proof (Z 0 ltac:(lia)) as Z0. pose proof (Z 1 ltac:(lia)) as Z1.
      unfold cdot, ex_m in *. cbn in Z0, Z1. apply Hv. destruct (v 0) as (x, y) eqn:V0, (v 1) as (z, t) eqn:V1. unfold Cmult, Cplus, RtoC in *. cbn [fst snd] in *.
      injection Z0 as A1 A2. injection Z1 as A3 A4. destruct j as [|[|j]]; [rewrite V0 | rewrite V1 | lia]; f_equal; lra.
  - apply C25_complex_zero_pivot. exists (fun i => if Nat.eqb i 0 then RtoC 2 else RtoC (-1)), 0. split; [lia|]. split.
    + cbn. unfold RtoC. intros E. injection E. lra.
    + intros i Hi. unfold cdot, ex_m. destruct i as [|[|i]]; [| |lia]; cbn; unfold Cmult, Cplus, RtoC; cbn [fst snd]; f_equal; lra.
Qed.
Example C53_example : exists T', c_t_matrix 1 (fun _ => 0) (fun _ => RtoC 0) (ex_m 0 2 1 3) (ex_m 1 0 0 1) (ex_m 9 9 9 9) = Some T'.
Proof.
  destruct (c_t_matrix 1 (fun _ => 0) (fun _ => RtoC 0) (ex_m 0 2 1 3) (ex_m 1 0 0 1) (ex_m 9 9 9 9)) as [T'|] eqn:E; eauto.
  exfalso. apply C53_fails_exactly_for_singular_Q in E. change (2 * 1) with 2 in E. apply (C25_complex_zero_pivot 2 (fun _ => 0) (fun _ => RtoC 0)) in E.
  destruct C25_example as ((B & EB & _) & _). rewrite EB in E. discriminate.
Qed.
