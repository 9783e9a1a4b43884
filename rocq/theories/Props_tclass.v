(** C73: the class TMatrix computes the T-matrix of the extended boundary condition method, the same one as the T-matrix
    tasks (C62-C64), provided compute_additional_elements is called exactly once; element access.

    Specification: Ebcm.v (as for C63). [block i] and [order_of m nmax i] are the type (0 for TE, 1 for TM waves) and the order of
    row or column i of the matrices for azimuthal order m. *)
From Coq Require Import List Arith Lia Bool Reals Lra.
From Coquelicot Require Import Complex Coquelicot.
From Verif Require Import Matrix Props_matrix Quadrature Wigner Align AlignFacts QMatrix QFacts Ebcm EbcmFacts Props_tmatrix TClass TClassFacts.
Import ListNotations.
Open Scope R_scope.

(** arguments of the constructor for which the method makes sense *)
Definition sensible (p : particle) : Prop :=
  symmetric_rule (p_ngauss p) (p_x p) (p_w p) /\ 0 < p_axis_ratio p /\ 0 < p_size p /\ 0 < p_wavelength p /\ p_mr p <> RtoC 0 /\ (1 <= p_nmax p)%nat.
Definition block (m nmax i : nat) : nat := if (i <? orders m nmax)%nat then 0%nat else 1%nat.
(** the element of the object for row i and column j *)
Definition read (p : particle) (T : tmats) (m i j : nat) : C :=
  element (p_nmax p) T (block m (p_nmax p) i) (order_of m (p_nmax p) i) m (block m (p_nmax p) j) (order_of m (p_nmax p) j) m.
(** the matrices of the method *)
Definition Q_of (p : particle) (rg : bool) (m : nat) : nat -> nat -> C :=
  Q_spec (p_axis_ratio p) (p_size p) (p_wavelength p) (p_mr p) (p_radial p) (2 * p_ngauss p) (angles (p_x p)) (p_w p) rg m (p_nmax p).
(** X is the T-matrix for azimuthal order m: X Q = - RgQ, and nothing else is *)
Definition is_T_matrix (p : particle) (m : nat) (X : nat -> nat -> C) : Prop :=
  let size := (2 * orders m (p_nmax p))%nat in
  (forall i j, (i < size)%nat -> (j < size)%nat -> cdot size (fun k => X i k * Q_of p false m k j)%C = (- Q_of p true m i j)%C) /\
  (forall Y, (forall i j, (i < size)%nat -> (j < size)%nat -> cdot size (fun k => Y i k * Q_of p false m k j)%C = (- Q_of p true m i j)%C) ->
     forall i j, (i < size)%nat -> (j < size)%nat -> Y i j = X i j).
Definition singular_Q (p : particle) (m : nat) : Prop :=
  let size := (2 * orders m (p_nmax p))%nat in
  exists v j, (j < size)%nat /\ v j <> RtoC 0 /\ forall i, (i < size)%nat -> cdot size (fun k => Q_of p false m i k * v k)%C = RtoC 0.
(** the T-matrix task for the same particle, with any scratch arrays, stored tables and initial contents *)
Definition task (p : particle) (m : nat) (stored : bool) junk table pivot work T : option cmat :=
  task_execute (make_env (p_radial p) stored m (p_nmax p) (p_ngauss p) (p_x p) (p_w p) (p_axis_ratio p) (p_size p) (p_wavelength p) (p_mr p) junk table)
    m (p_nmax p) (p_ngauss p) pivot work T.

Lemma cdot_ext' : forall n f g, (forall k, (k < n)%nat -> f k = g k) -> cdot n f = cdot n g.
Proof. intros. rewrite !cdot_sum. apply sum_ext. auto. Qed.
Lemma read_at : forall p T m i j, (m <= p_nmax p)%nat -> (1 <= p_nmax p)%nat -> (i < 2 * orders m (p_nmax p))%nat -> (j < 2 * orders m (p_nmax p))%nat -> read p T m i j = T m i j.
Proof.
  intros p T m i j Hm Hn Hi Hj. unfold read, element, element_at, block, order_of, orders, lowest in *.
  destruct (Nat.ltb_spec 0 m); cbn [fst snd]; destruct (Nat.ltb_spec i (p_nmax p + 1 - Nat.max 1 m)), (Nat.ltb_spec j (p_nmax p + 1 - Nat.max 1 m)); f_equal; lia.
Qed.
(** a block of the class against the task with scratch arrays of zeros: same failures, T accumulated *)
Definition task0 (p : particle) (m : nat) : option cmat := task p m true zeros (fun _ _ => (0, 0)) (fun _ => 0%nat) (fun _ => RtoC 0) (fun _ _ => RtoC 0).
Definition class_block (p : particle) (m : nat) (T : cmat) : option cmat :=
  add_block (orders m (p_nmax p)) (class_matrices (env_of p m) m (p_nmax p) (p_ngauss p)) T.
Lemma factor_nonzero : forall p, sensible p -> (Ci * !(p_size p * p_size p))%C <> RtoC 0.
Proof.
  intros p (_ & _ & HR & _). apply Cmult_neq_0.
  - intro E. unfold Ci, RtoC in E. injection E. lra.
  - intro E. apply RtoC_inj in E. nra.
Qed.
Lemma class_block_ok : forall p m T, sensible p -> (m <= p_nmax p)%nat ->
  match task0 p m with
  | None => class_block p m T = None
  | Some D => exists T', class_block p m T = Some T' /\
      (forall i j, (i < 2 * orders m (p_nmax p))%nat -> (j < 2 * orders m (p_nmax p))%nat -> T' i j = (T i j + D i j)%C) /\
      (forall i j, (2 * orders m (p_nmax p) <= i)%nat \/ (2 * orders m (p_nmax p) <= j)%nat -> T' i j = T i j)
  end.
Proof.
  intros p m T Hp Hm. pose proof (factor_nonzero p Hp) as FN. destruct Hp as (Hs & Ha & HR & Hl & Hr & Hn).
  set (size := (2 * orders m (p_nmax p))%nat).
  pose proof (class_matrices_at (p_radial p) m (p_nmax p) (p_ngauss p) (p_x p) (p_w p) (p_axis_ratio p) (p_size p) (p_wavelength p) (p_mr p) Hs Ha HR Hl Hr Hm Hn) as CM.
  cbv zeta in CM. unfold task0, task.
  set (et := make_env _ _ _ _ _ _ _ _ _ _ _ _ _) in *. fold size in CM.
  set (z := (Ci * !(p_size p * p_size p))%C) in *. clearbody z.
  assert (EQ: task_execute et m (p_nmax p) (p_ngauss p) (fun _ => 0%nat) (fun _ => RtoC 0) (fun _ _ => RtoC 0) =
    c_t_matrix (orders m (p_nmax p)) (fun _ => 0%nat) (fun _ => RtoC 0) (fst (task_matrices et m (p_nmax p) (p_ngauss p))) (snd (task_matrices et m (p_nmax p) (p_ngauss p))) (fun _ _ => RtoC 0)).
  { unfold task_execute, task_matrices, m0_execute, mall_execute, orders, lowest. destruct (Nat.eqb_spec m 0) as [E | N].
    - replace (p_nmax p + 1 - Nat.max 1 m)%nat with (p_nmax p) by lia. reflexivity.
    - destruct (Nat.ltb_spec (p_nmax p) m); [lia|]. replace (Nat.max 1 m) with m by lia. reflexivity. }
  rewrite EQ. set (Q := fst (task_matrices et m (p_nmax p) (p_ngauss p))) in *. set (RgQ := snd (task_matrices et m (p_nmax p) (p_ngauss p))) in *.
  unfold class_block. fold (env_of p m) in CM.
  set (Qc := class_matrices (env_of p m) m (p_nmax p) (p_ngauss p)) in *. unfold add_block. fold size.
  destruct (c_plu_inverse size (fun _ => 0%nat) (fun _ => RtoC 0) (fst Qc)) as [B|] eqn:EB.
  - destruct (C25_complex_inverse _ _ _ _ _ EB) as (I & _).
    assert (NS: c_t_matrix (orders m (p_nmax p)) (fun _ => 0%nat) (fun _ => RtoC 0) Q RgQ (fun _ _ => RtoC 0) <> None).
    { intro E. apply C53_fails_exactly_for_singular_Q in E. fold size in E. destruct E as (v & j & Hj & Nz & Z0).
      assert (EN: c_plu_inverse size (fun _ => 0%nat) (fun _ => RtoC 0) (fst Qc) = None).
      { apply C25_complex_zero_pivot. exists v, j. split; auto. split; auto. intros i Hi. rewrite (cdot_ext' _ _ (fun k => z * (Q i k * v k))%C).
        - rewrite cdot_scal, Z0 by auto. ring.
        - intros k Hk. destruct (CM i k Hi Hk) as (-> & _). ring. }
      congruence. }
    destruct (c_t_matrix (orders m (p_nmax p)) (fun _ => 0%nat) (fun _ => RtoC 0) Q RgQ (fun _ _ => RtoC 0)) as [D|] eqn:ED; [|congruence].
    exists (accumulate (orders m (p_nmax p)) B (snd Qc) T). split; auto. split.
    + intros i j Hi Hj. rewrite accumulate_spec. fold size. destruct (Nat.ltb_spec i size), (Nat.ltb_spec j size); try lia. cbn [andb].
      destruct (C53_defining_system _ _ _ _ _ _ _ ED) as (_ & S2 & _). fold size in S2.
      rewrite <- (S2 (fun i j => - cdot size (fun k => snd Qc i k * B k j))%C); auto.
      clear i j Hi Hj H H0. intros i j Hi Hj.
      (* (- RgQc B) Q = - RgQ *)
      rewrite (cdot_ext' _ _ (fun k => (- RtoC 1) * (cdot size (fun l => RgQ i l * (z * B l k)) * Q k j))%C).
      2:{ intros k Hk. rewrite (cdot_ext' size (fun k0 => snd Qc i k0 * B k0 k)%C (fun l => RgQ i l * (z * B l k))%C); [ring|].
          intros l Hl'. destruct (CM i l Hi Hl') as (_ & ->). ring. }
      rewrite cdot_scal. rewrite (cdot_ext' size _ (fun k => sum C (RtoC 0) Cplus size (fun l => RgQ i l * (z * B l k)) * Q k j)%C) by (intros; rewrite cdot_sum; reflexivity).
      rewrite cdot_sum. rewrite <- (sum_assoc _ _ _ _ _ _ _ _ _ C_field_theory size (fun l => RgQ i l) (fun l k => z * B l k)%C (fun k => Q k j)).
      rewrite (sum_ext _ _ _ size _ (fun l => RgQ i l * delta C (RtoC 0) (RtoC 1) l j)%C).
      2:{ intros l Hl'. f_equal. destruct (I l j Hl' Hj) as (_ & I2). unfold delta. rewrite <- I2. rewrite cdot_sum. apply sum_ext. intros k Hk.
          destruct (CM k j Hk Hj) as (-> & _). ring. }
      rewrite (sum_delta_r _ _ _ _ _ _ _ _ _ C_field_theory _ _ (fun l => RgQ i l)) by auto. ring.
    + intros i j H. rewrite accumulate_spec. fold size. destruct (Nat.ltb_spec i size), (Nat.ltb_spec j size); cbn [andb]; auto; lia.
  - apply C25_complex_zero_pivot in EB. destruct EB as (v & j & Hj & Nz & Z0).
    assert (EN: c_t_matrix (orders m (p_nmax p)) (fun _ => 0%nat) (fun _ => RtoC 0) Q RgQ (fun _ _ => RtoC 0) = None).
    { apply C53_fails_exactly_for_singular_Q. fold size. exists v, j. split; auto. split; auto. intros i Hi. specialize (Z0 i Hi).
      rewrite (cdot_ext' _ _ (fun k => z * (Q i k * v k))%C) in Z0 by (intros k Hk; destruct (CM i k Hi Hk) as (-> & _); ring).
      rewrite cdot_scal in Z0. set (c := cdot _ _) in *.
      replace c with (/ z * (z * c))%C by (rewrite Cmult_assoc, Cinv_l by auto; ring). rewrite Z0. ring. }
    rewrite EN. reflexivity.
Qed.

(** the loop over m *)
Lemma orders_0 : forall n, orders 0 n = n.
Proof. intros. unfold orders, lowest. lia. Qed.
Lemma orders_m : forall m n, (1 <= m)%nat -> orders m n = (n + 1 - m)%nat.
Proof. intros. unfold orders, lowest. lia. Qed.
Lemma construct_ok : forall p, sensible p ->
  match task0 p 0 with
  | None => construct p = None
  | Some D => exists T, construct p = Some T /\ (forall i j, (i < 2 * orders 0 (p_nmax p))%nat -> (j < 2 * orders 0 (p_nmax p))%nat -> T 0%nat i j = D i j) /\
              (forall m i j, (1 <= m)%nat -> T m i j = RtoC 0)
  end.
Proof.
  intros p Hp. pose proof (class_block_ok p 0 zero_mat Hp ltac:(lia)) as B. unfold construct.
  assert (E: add_block (p_nmax p) (c0_matrices (env_of p 0) (p_nmax p) (p_ngauss p)) ((fun _ : nat => zero_mat) 0%nat) = class_block p 0 zero_mat).
  { unfold class_block, class_matrices. rewrite orders_0. reflexivity. }
  cbv beta zeta in *. rewrite E. destruct (task0 p 0) as [D|].
  - destruct B as (T' & -> & B1 & _). eexists. split; [reflexivity|]. split.
    + intros i j Hi Hj. unfold vupd. cbn [Nat.eqb]. rewrite B1 by auto. unfold zero_mat. ring.
    + intros m i j Hm. unfold vupd. destruct (Nat.eqb_spec m 0); [lia|]. reflexivity.
  - rewrite B. reflexivity.
Qed.
Lemma additional_ok : forall p T, sensible p ->
  match compute_additional_elements p T with
  | Some T' => (forall m, (1 <= m <= p_nmax p)%nat -> exists D, task0 p m = Some D /\
                  forall i j, (i < 2 * orders m (p_nmax p))%nat -> (j < 2 * orders m (p_nmax p))%nat -> T' m i j = (T m i j + D i j)%C) /\
               (forall i j, T' 0%nat i j = T 0%nat i j)
  | None => exists m, (1 <= m <= p_nmax p)%nat /\ task0 p m = None
  end.
Proof.
  intros p T Hp. unfold compute_additional_elements.
  set (I := fun (q : nat) (s : option tmats) => match s with
    | Some T' => (forall m, (1 <= m < q)%nat -> exists D, task0 p m = Some D /\
                  forall i j, (i < 2 * orders m (p_nmax p))%nat -> (j < 2 * orders m (p_nmax p))%nat -> T' m i j = (T m i j + D i j)%C) /\
               (forall m i j, m = 0%nat \/ (q <= m)%nat -> T' m i j = T m i j)
    | None => exists m, (1 <= m <= p_nmax p)%nat /\ task0 p m = None end).
  match goal with |- match for_ ?lo ?hi ?body ?s with _ => _ end => assert (G: I hi (for_ lo hi body s)); [apply (for_ind I)|] end.
  - lia.
  - unfold I. split; auto. intros. lia.
  - intros m [T1|] Hm HI; unfold I in *; auto. destruct HI as (H1 & H2).
    pose proof (class_block_ok p m (T1 m) Hp ltac:(lia)) as B. unfold class_block, class_matrices in B. rewrite orders_m in B by lia.
    destruct (Nat.eqb_spec m 0); [lia|]. destruct (task0 p m) as [D|] eqn:ED.
    + destruct B as (T' & -> & B1 & B2). split.
      * intros m' Hm'. unfold vupd. destruct (Nat.eqb_spec m' m) as [->|N].
        -- exists D. split; auto. intros i j Hi Hj. rewrite orders_m in Hi, Hj by lia. rewrite B1 by auto. rewrite H2 by lia. reflexivity.
        -- apply H1. lia.
      * intros m' i j H. unfold vupd. destruct (Nat.eqb_spec m' m); [lia|]. apply H2. lia.
    + rewrite B. exists m. split; [lia|auto].
  - destruct (for_ _ _ _ _) as [T'|]; unfold I in G; auto. destruct G as (G1 & G2). split.
    + intros m Hm. apply G1. lia.
    + intros i j. apply G2. auto.
Qed.

Lemma task0_T_matrix : forall p m D, sensible p -> (m <= p_nmax p)%nat -> task0 p m = Some D -> is_T_matrix p m D.
Proof.
  intros p m D (Hs & Ha & HR & Hl & Hr & Hn) Hm E. unfold is_T_matrix, Q_of.
  exact (C63_T_matrix (p_radial p) true m (p_nmax p) (p_ngauss p) (p_x p) (p_w p) (p_axis_ratio p) (p_size p) (p_wavelength p) (p_mr p) zeros (fun _ _ => (0, 0))
    (fun _ => 0%nat) (fun _ => RtoC 0) (fun _ _ => RtoC 0) D Hs Ha HR Hl Hr Hm Hn E).
Qed.
Lemma task_fails : forall p m stored junk table pivot work T, sensible p -> (m <= p_nmax p)%nat -> task p m stored junk table pivot work T = None <-> singular_Q p m.
Proof.
  intros p m stored junk table pivot work T (Hs & Ha & HR & Hl & Hr & Hn) Hm. unfold task, singular_Q, Q_of.
  exact (C63_fails_exactly_when_singular (p_radial p) stored m (p_nmax p) (p_ngauss p) (p_x p) (p_w p) (p_axis_ratio p) (p_size p) (p_wavelength p) (p_mr p) junk table
    pivot work T Hs Ha HR Hl Hr Hm Hn).
Qed.
Lemma T_matrix_ext : forall p m X Y, (forall i j, (i < 2 * orders m (p_nmax p))%nat -> (j < 2 * orders m (p_nmax p))%nat -> X i j = Y i j) -> is_T_matrix p m X -> is_T_matrix p m Y.
Proof.
  intros p m X Y E (H1 & H2). split.
  - intros i j Hi Hj. rewrite <- (H1 i j Hi Hj). apply cdot_ext'. intros k Hk. rewrite E by auto. reflexivity.
  - intros W HW i j Hi Hj. rewrite (H2 W HW i j Hi Hj). apply E; auto.
Qed.

(** after the constructor and one call of compute_additional_elements, the elements read through the public operator are the
    T-matrix, for every m; both succeed exactly when no Q is singular *)
Theorem C73_T_matrix : forall p T T', sensible p -> construct p = Some T -> compute_additional_elements p T = Some T' ->
  forall m, (m <= p_nmax p)%nat -> is_T_matrix p m (read p T' m).
Proof.
  intros p T T' Hp E1 E2 m Hm. pose proof Hp as (_ & _ & _ & _ & _ & Hn).
  pose proof (construct_ok p Hp) as K. pose proof (additional_ok p T Hp) as A. rewrite E2 in A. destruct A as (A1 & A2).
  destruct (task0 p 0) as [D0|] eqn:E0; [|congruence]. destruct K as (T0 & K0 & K1 & K2). rewrite E1 in K0. injection K0 as <-.
  destruct (Nat.eq_dec m 0) as [->|N].
  - apply (T_matrix_ext p 0 D0); [|apply task0_T_matrix; auto]. intros i j Hi Hj. rewrite read_at by auto. rewrite A2. symmetry. apply K1; auto.
  - destruct (A1 m ltac:(lia)) as (D & ED & A). apply (T_matrix_ext p m D); [|apply task0_T_matrix; auto].
    intros i j Hi Hj. rewrite read_at by auto. rewrite A by auto. rewrite K2 by lia. ring.
Qed.
Print Assumptions C73_T_matrix.
Theorem C73_fails_exactly_when_singular : forall p, sensible p ->
  (construct p = None <-> singular_Q p 0) /\
  (forall T, compute_additional_elements p T = None <-> exists m, (1 <= m <= p_nmax p)%nat /\ singular_Q p m).
Proof.
  intros p Hp. split.
  - unfold task0 in *. pose proof (construct_ok p Hp) as K. rewrite <- (task_fails p 0 true zeros (fun _ _ => (0, 0)) (fun _ => 0%nat) (fun _ => RtoC 0) (fun _ _ => RtoC 0) Hp ltac:(lia)).
    fold (task0 p 0) in *. destruct (task0 p 0) as [D|].
    + destruct K as (T & K & _). split; congruence.
    + split; auto.
  - intros T. pose proof (additional_ok p T Hp) as A. destruct (compute_additional_elements p T) as [T'|].
    + split; [discriminate|]. intros (m & Hm & S). destruct A as (A & _). destruct (A m Hm) as (D & ED & _).
      apply (task_fails p m true zeros (fun _ _ => (0, 0)) (fun _ => 0%nat) (fun _ => RtoC 0) (fun _ _ => RtoC 0) Hp ltac:(lia)) in S. unfold task0 in ED. congruence.
    + split; auto. intros _. destruct A as (m & Hm & E). exists m. split; auto.
      apply (task_fails p m true zeros (fun _ _ => (0, 0)) (fun _ => 0%nat) (fun _ => RtoC 0) (fun _ _ => RtoC 0) Hp ltac:(lia)). exact E.
Qed.
Print Assumptions C73_fails_exactly_when_singular.
(** the class and the task graph agree, whatever options and scratch contents the tasks have *)
Theorem C73_same_as_tasks : forall p T T' m stored junk table pivot work X0 X, sensible p -> construct p = Some T -> compute_additional_elements p T = Some T' ->
  (m <= p_nmax p)%nat -> task p m stored junk table pivot work X0 = Some X ->
  forall i j, (i < 2 * orders m (p_nmax p))%nat -> (j < 2 * orders m (p_nmax p))%nat -> read p T' m i j = X i j.
Proof.
  intros p T T' m stored junk table pivot work X0 X Hp E1 E2 Hm EX i j Hi Hj.
  pose proof (C73_T_matrix p T T' Hp E1 E2 m Hm) as (H1 & _). destruct Hp as (Hs & Ha & HR & Hl & Hr & Hn).
  destruct (C63_T_matrix (p_radial p) stored m (p_nmax p) (p_ngauss p) (p_x p) (p_w p) (p_axis_ratio p) (p_size p) (p_wavelength p) (p_mr p) junk table
    pivot work X0 X Hs Ha HR Hl Hr Hm Hn EX) as (_ & U). apply U; auto.
Qed.
Print Assumptions C73_same_as_tasks.
(** histories: after the constructor alone the elements with m > 0 are zero; every further call of compute_additional_elements adds
    the T-matrix again, so that k calls give k times the T-matrix: exactly one call is needed *)
Fixpoint calls (k : nat) (p : particle) (T : tmats) : option tmats :=
  match k with 0%nat => Some T | S k' => match compute_additional_elements p T with Some T' => calls k' p T' | None => None end end.
Theorem C73_repeated_calls : forall k p T T', sensible p -> construct p = Some T -> calls k p T = Some T' ->
  is_T_matrix p 0 (read p T' 0) /\
  (forall m, (1 <= m <= p_nmax p)%nat -> k = 0%nat -> forall i j, (i < 2 * orders m (p_nmax p))%nat -> (j < 2 * orders m (p_nmax p))%nat -> read p T' m i j = RtoC 0) /\
  (forall m, (1 <= m <= p_nmax p)%nat -> k <> 0%nat -> exists X, is_T_matrix p m X /\
     forall i j, (i < 2 * orders m (p_nmax p))%nat -> (j < 2 * orders m (p_nmax p))%nat -> read p T' m i j = (!(INR k) * X i j)%C).
Proof.
  intros k p T T' Hp E1 E2. pose proof Hp as (_ & _ & _ & _ & _ & Hn). pose proof (construct_ok p Hp) as K.
  destruct (task0 p 0) as [D0|] eqn:E0; [|congruence]. destruct K as (T0 & K0 & K1 & K2). rewrite E1 in K0. injection K0 as <-.
  assert (G: forall k T U, calls k p T = Some U -> (forall i j, U 0%nat i j = T 0%nat i j) /\
    forall m, (1 <= m <= p_nmax p)%nat -> k <> 0%nat -> exists D, task0 p m = Some D /\
      forall i j, (i < 2 * orders m (p_nmax p))%nat -> (j < 2 * orders m (p_nmax p))%nat -> U m i j = (T m i j + !(INR k) * D i j)%C).
  { clear - Hp. induction k as [|k IH]; intros T U E; cbn [calls] in E.
    - injection E as <-. split; auto. intros. congruence.
    - destruct (compute_additional_elements p T) as [V|] eqn:EV; [|discriminate]. destruct (IH V U E) as (I1 & I2).
      pose proof (additional_ok p T Hp) as A. rewrite EV in A. destruct A as (A1 & A2). split.
      + intros i j. rewrite I1. apply A2.
      + intros m Hm _. destruct (A1 m Hm) as (D & ED & A). exists D. split; auto. intros i j Hi Hj. rewrite S_INR, RtoC_plus. destruct (Nat.eq_dec k 0) as [->|N].
        * cbn [calls] in E. injection E as <-. rewrite A by auto. cbn [INR]. ring.
        * destruct (I2 m Hm N) as (D' & ED' & B). rewrite ED in ED'. injection ED' as <-. rewrite B, A by auto. ring. }
  destruct (G k T T' E2) as (G1 & G2). split; [|split].
  - apply (T_matrix_ext p 0 D0); [|apply task0_T_matrix; auto; lia]. intros i j Hi Hj. rewrite read_at by (auto; lia). rewrite G1. symmetry. apply K1; auto.
  - intros m Hm -> i j Hi Hj. cbn [calls] in E2. injection E2 as <-. rewrite read_at by (auto; lia). apply K2. lia.
  - intros m Hm N. destruct (G2 m Hm N) as (D & ED & A). exists D. split; [apply task0_T_matrix; auto; lia|]. intros i j Hi Hj.
    rewrite read_at by (auto; lia). rewrite A by auto. rewrite K2 by lia. ring.
Qed.
Print Assumptions C73_repeated_calls.
(** element access: what is set is read back, every other element keeps its value (the conditions are the asserts of the class) *)
Definition in_range (nmax i1 n1 i2 n2 m : nat) : Prop :=
  (i1 < 2)%nat /\ (i2 < 2)%nat /\ (m <= nmax)%nat /\ (Nat.max 1 m <= n1 <= nmax)%nat /\ (Nat.max 1 m <= n2 <= nmax)%nat.
Theorem C73_set_element : forall nmax T i1 n1 i2 n2 m v a1 b1 a2 b2 m', in_range nmax i1 n1 i2 n2 m -> in_range nmax a1 b1 a2 b2 m' ->
  element nmax (set_element nmax T i1 n1 m i2 n2 m v) a1 b1 m' a2 b2 m' =
  if ((a1 =? i1) && (b1 =? n1) && (a2 =? i2) && (b2 =? n2) && (m' =? m))%nat then v else element nmax T a1 b1 m' a2 b2 m'.
Proof.
  intros nmax T i1 n1 i2 n2 m v a1 b1 a2 b2 m' (Q1 & Q2 & Q3 & Q4 & Q5) (P1 & P2 & P3 & P4 & P5).
  unfold element, set_element, element_at, vupd, upd.
  assert (i1 = 0 \/ i1 = 1)%nat as I1 by lia. assert (i2 = 0 \/ i2 = 1)%nat as I2 by lia. assert (a1 = 0 \/ a1 = 1)%nat as A1 by lia. assert (a2 = 0 \/ a2 = 1)%nat as A2 by lia.
  destruct (Nat.ltb_spec 0 m), (Nat.ltb_spec 0 m'); cbn [fst snd].
  all: destruct I1 as [-> | ->], I2 as [-> | ->], A1 as [-> | ->], A2 as [-> | ->]; rewrite ?Nat.mul_1_l, ?Nat.mul_0_l, ?Nat.add_0_l;
    destruct (Nat.eqb_spec m' m) as [->|]; rewrite ?andb_false_r; try reflexivity; try lia; rewrite ?andb_true_r; cbn [Nat.eqb andb].
  all: repeat match goal with |- context [Nat.eqb ?a ?b] => destruct (Nat.eqb_spec a b); cbn [andb]; try reflexivity; try lia end.
Qed.
Print Assumptions C73_set_element.
(** the memory of the elements: row and column fit in the 2 (nmax + 1 - m) square matrix allocated for m (l.549-553) *)
Theorem C73_in_bounds : forall nmax i1 n1 i2 n2 m, in_range nmax i1 n1 i2 n2 m ->
  let a := element_at nmax i1 n1 m i2 n2 m in
  (fst (fst a) < nmax + 1)%nat /\ (snd (fst a) < 2 * (nmax + 1 - m))%nat /\ (snd a < 2 * (nmax + 1 - m))%nat.
Proof.
  intros nmax i1 n1 i2 n2 m (Q1 & Q2 & Q3 & Q4 & Q5). unfold element_at.
  assert (i1 = 0 \/ i1 = 1)%nat as I1 by lia. assert (i2 = 0 \/ i2 = 1)%nat as I2 by lia.
  destruct (Nat.ltb_spec 0 m); cbn [fst snd]; destruct I1 as [-> | ->], I2 as [-> | ->]; lia.
Qed.
Print Assumptions C73_in_bounds.

(** a sphere with the order-one waves only, two quadrature points and the interior functions of C63_example *)
Definition sample : particle :=
  {| p_radial := toy; p_nmax := 1; p_ngauss := 1; p_x := two; p_w := fun _ => 1; p_axis_ratio := 1; p_size := 1; p_wavelength := 1; p_mr := RtoC 2 |}.
Lemma sample_task : forall m, (m <= 1)%nat -> task0 sample m <> None.
Proof.
  intros m Hm. destruct C63_example as (SR & _). unfold task0, task. cbn [p_radial p_nmax p_ngauss p_x p_w p_axis_ratio p_size p_wavelength p_mr sample].
  set (e := make_env _ _ _ _ _ _ _ _ _ _ _ _ _).
  assert (HxS: symmetric_points 1 two (angles two)) by (apply (angles_ok 1 two (fun _ => 1)); auto).
  destruct (HxS 0%nat ltac:(lia)) as (_ & B & _). pose proof (sin_gt_0 _ (proj1 B) (proj2 B)) as SP.
  destruct (e_wigner toy true m 1 1 two (fun _ => 1) (angles two) 1 1 1 (RtoC 2) zeros (fun _ _ => (0, 0)) HxS ltac:(lia) 0%nat ltac:(lia)) as (s & Ss & Ws).
  specialize (Ws 1%nat ltac:(lia)). fold e in Ws. cbn [Nat.sub] in Ws. set (t := angles two 0%nat) in *.
  assert (R2: r2 e 0%nat = radius 1 t * radius 1 t) by (apply (e_r2 toy true m 1 1 two (fun _ => 1) (angles two)); auto; lra || lia).
  assert (S2: 0 < sintheta2inv e 0%nat).
  { unfold e, make_env. cbn [sintheta2inv]. destruct (gauss_inverses_at 1 two (angles two) zeros HxS 0%nat ltac:(lia)) as (_ & ->). fold t.
    unfold Rdiv. rewrite Rmult_1_l. apply Rinv_0_lt_compat. nra. }
  set (d := s * dspec 1 m t) in *. set (dd := s * dspec' 1 m t) in *.
  assert (G0: 0 < d * d * (sintheta2inv e 0%nat * (INR m * INR m)) + dd * dd).
  { assert (m = 0 \/ m = 1)%nat as [-> | ->] by lia.
    - cbn [INR]. assert (D1: dspec' 1 0 t <> 0).
      { pose proof (dspec_derivative 1 0 t) as D. intro E. rewrite E in D.
        assert (D2: derivable_pt_lim cos t 0) by (apply (Legendre.derivable_ext (dspec 1 0)); [intros; apply dspec_1_0|auto]).
        pose proof (uniqueness_limite _ _ _ _ D2 (derivable_pt_lim_cos t)). lra. }
      replace (dd * dd) with (s * s * (dspec' 1 0 t * dspec' 1 0 t)) by (unfold dd; ring). rewrite Ss. nra.
    - cbn [INR]. assert (D1: dspec 1 1 t <> 0).
      { rewrite dspec_diag_step, dspec_0_0. cbn [INR]. assert (0 < sqrt ((2 * (0 + 1) - 1) / (2 * (0 + 1)))) by (apply sqrt_lt_R0; lra). nra. }
      assert (0 < dspec 1 1 t * dspec 1 1 t) by nra.
      replace (d * d) with (dspec 1 1 t * dspec 1 1 t) by (unfold d; replace (s * dspec 1 1 t * (s * dspec 1 1 t)) with (s * s * (dspec 1 1 t * dspec 1 1 t)) by ring; rewrite Ss; ring).
      pose proof (Rle_0_sqr dd) as P. unfold Rsqr in P. assert (0 < dspec 1 1 t * dspec 1 1 t * sintheta2inv e 0%nat) by (apply Rmult_lt_0_compat; auto). lra. }
  set (g := ann e 1 1 * (weight e 0%nat * r2 e 0%nat * (d * d * (sintheta2inv e 0%nat * (INR m * INR m)) + dd * dd))).
  assert (G: g <> 0).
  { unfold g. rewrite R2. pose proof (radius_pos 1 t ltac:(lra)) as RP.
    assert (A0: 0 < ann e 1 1). { unfold e, make_env, ann, ann_element. cbn [Nat.sub INR]. apply Rmult_lt_0_compat; apply sqrt_lt_R0; lra. }
    change (weight e 0%nat) with 1. set (D := _ + dd * dd) in *. set (r := radius 1 _) in *. assert (0 < r * r) by nra.
    assert (0 < ann e 1 1 * (1 * (r * r) * D)) by (apply Rmult_lt_0_compat; auto; nra). lra. }
  assert (GC: RtoC g <> RtoC 0) by (intro E; apply G, RtoC_inj; auto).
  pose proof PI_RGT_0 as PP. set (k := k2 e). assert (K: k = 2 * PI / 1 * (2 * PI / 1)) by reflexivity. assert (KP: 0 < k) by (rewrite K; apply Rmult_lt_0_compat; lra).
  assert (KC: RtoC k <> RtoC 0) by (intro E; apply RtoC_inj in E; lra).
  assert (KM: k2mr e = (RtoC 2 * RtoC k)%C) by reflexivity.
  assert (TWO: RtoC 2 <> RtoC 0) by (intro E; apply RtoC_inj in E; lra).
  assert (OR: orders m 1 = 1%nat) by (unfold orders, lowest; lia).
  assert (EL: forall i j, (i < 2)%nat -> (j < 2)%nat -> exists z,
    fst (task_matrices e m 1 1) i j = (if Nat.eqb i j then (if Nat.eqb i 0 then RtoC 2 else RtoC 1) * RtoC k * RtoC g else if Nat.ltb i j then RtoC 0 else z)%C).
  { intros i j Hi Hj. destruct (task_matrices_at e m 1 1 ltac:(lia) ltac:(lia) i j ltac:(rewrite OR; lia) ltac:(rewrite OR; lia)) as (E1 & _). rewrite E1. clear E1.
    assert (H1: hQ e 0 1 = RtoC 1) by reflexivity. assert (H2: dhQ e 0 1 = RtoC 1) by reflexivity.
    assert (J0: jkrmr e 0 1 = RtoC 0) by reflexivity. assert (J1: djkrmr e 0 1 = RtoC 1) by reflexivity.
    assert (K0: kind_of m 1 0 = WM) by (unfold kind_of; rewrite OR; reflexivity). assert (K1: kind_of m 1 1 = WN) by (unfold kind_of; rewrite OR; reflexivity).
    assert (O0: order_of m 1 0 = 1%nat /\ order_of m 1 1 = 1%nat) by (clear - Hm; assert (m = 0 \/ m = 1)%nat as [-> | ->] by lia; split; reflexivity). destruct O0 as (O0 & O1).
    exists (RtoC 0). cbn [csum]. assert (i = 0 \/ i = 1)%nat as [-> | ->] by lia; assert (j = 0 \/ j = 1)%nat as [-> | ->] by lia;
      rewrite ?K0, ?K1, ?O0, ?O1;
      cbn [kb]; unfold kept; cbn [Nat.add Nat.even Bool.eqb Nat.eqb Nat.ltb Nat.leb]; rewrite ?H1, ?H2; try ring;
      unfold contribution; cbv zeta; cbn [Nat.sub]; rewrite Ws, J0, J1, KM; cbn [fst snd]; fold k;
      unfold g; rewrite !(RtoC_mult (ann e 1 1)); ring. }
  assert (TE: task_execute e m 1 1 (fun _ => 0%nat) (fun _ => RtoC 0) (fun _ _ => RtoC 0) =
    c_t_matrix 1 (fun _ => 0%nat) (fun _ => RtoC 0) (fst (task_matrices e m 1 1)) (snd (task_matrices e m 1 1)) (fun _ _ => RtoC 0)).
  { unfold task_execute, task_matrices, m0_execute, mall_execute. assert (m = 0 \/ m = 1)%nat as [-> | ->] by lia; reflexivity. }
  rewrite TE. clear TE. intro ET.
  destruct (EL 0%nat 0%nat ltac:(lia) ltac:(lia)) as (? & L00). destruct (EL 0%nat 1%nat ltac:(lia) ltac:(lia)) as (? & L01).
  destruct (EL 1%nat 0%nat ltac:(lia) ltac:(lia)) as (z & L10). destruct (EL 1%nat 1%nat ltac:(lia) ltac:(lia)) as (? & L11). cbn [Nat.eqb Nat.ltb Nat.leb] in L00, L01, L10, L11.
  apply C53_fails_exactly_for_singular_Q in ET. destruct ET as (v & j & Hj & Nz & Z0). clearbody g k.
  assert (V0: v 0%nat = RtoC 0).
  { specialize (Z0 0%nat ltac:(lia)). unfold cdot in Z0. cbn [Nat.mul Nat.add seq fold_right] in Z0. rewrite L00, L01 in Z0.
    assert (Y: (RtoC 2 * RtoC k * RtoC g)%C <> RtoC 0) by (apply Cmult_neq_0; auto; apply Cmult_neq_0; auto). set (y := (RtoC 2 * RtoC k * RtoC g)%C) in *.
    replace (v 0%nat) with (/ y * (y * v 0%nat))%C by (rewrite Cmult_assoc, Cinv_l by auto; ring). replace (y * v 0%nat)%C with (RtoC 0) by (rewrite <- Z0; ring). ring. }
  assert (V1: v 1%nat = RtoC 0).
  { specialize (Z0 1%nat ltac:(lia)). unfold cdot in Z0. cbn [Nat.mul Nat.add seq fold_right] in Z0. rewrite L10, L11, V0 in Z0.
    assert (Y: (RtoC 1 * RtoC k * RtoC g)%C <> RtoC 0) by (apply Cmult_neq_0; auto; apply Cmult_neq_0; auto; intro E; apply RtoC_inj in E; lra). set (y := (RtoC 1 * RtoC k * RtoC g)%C) in *.
    replace (v 1%nat) with (/ y * (y * v 1%nat))%C by (rewrite Cmult_assoc, Cinv_l by auto; ring). replace (y * v 1%nat)%C with (RtoC 0) by (rewrite <- Z0; ring). ring. }
  assert (j = 0 \/ j = 1)%nat as [-> | ->] by (cbn in Hj; lia); auto.
Qed.
Example C73_example : sensible sample /\ exists T T', construct sample = Some T /\ compute_additional_elements sample T = Some T' /\ calls 2 sample T <> None /\ in_range 1 0 1 1 1 1.
Proof.
  destruct C63_example as (SR & _). assert (Hp: sensible sample).
  { unfold sensible, sample. cbn. repeat split; try lra; try lia; try apply SR; auto. intro E. apply RtoC_inj in E. lra. }
  split; auto. pose proof (construct_ok sample Hp) as K. destruct (task0 sample 0) as [D|] eqn:E0; [|destruct (sample_task 0 ltac:(lia) E0)].
  destruct K as (T & K & _). exists T.
  assert (A: forall T, exists T', compute_additional_elements sample T = Some T').
  { intros U. pose proof (additional_ok sample U Hp) as A. destruct (compute_additional_elements sample U) as [T'|]; [eauto|].
    destruct A as (m & Hm & E). cbn in Hm. destruct (sample_task m ltac:(lia) E). }
  destruct (A T) as (T' & E). exists T'. split; auto. split; auto. split; [|unfold in_range; lia].
  cbn [calls]. rewrite E. destruct (A T') as (T'' & E'). rewrite E'. discriminate.
Qed.
