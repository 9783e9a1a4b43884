(** C94: the radial functions of the T-matrix calculation *)
From Coq Require Import List Arith Lia Bool Reals Lra.
From Coquelicot Require Import Complex.
From Verif Require Import Matrix BesselSpec Bessel BesselFacts BesselRun Props_bessel QMatrix TClass Interaction.
Import ListNotations.
Local Open Scope R_scope.

(* ------------------------------------------------------------ specification *)
(** the recursion for the functions of the first kind runs through at z: no ratio of neighbouring functions is infinite *)
Definition runs_at (z : C) : Prop := exists j dj, spherical_j_jdj_array C complexes (fun _ => RtoC 0) 1 1 z (fun _ => RtoC 0) (fun _ => RtoC 0) = Done (j, dj).
(** the radial functions: what the routines return when they are called for order n alone, with an array of their own *)
Definition last_of {K} (zero : K) (r : out ((nat -> K) * (nat -> K))) (n : nat) : K * K := match r with Done (a, b) => (a (n - 1)%nat, b (n - 1)%nat) | _ => (zero, zero) end.
Definition first_kind (n : nat) (x : R) : R * R := last_of 0 (spherical_j_jdj_array R reals (fun _ => 0) n n x (fun _ => 0) (fun _ => 0)) n.
Definition second_kind (n : nat) (x : R) : R * R := last_of 0 (spherical_y_ydy_array R reals (Nat.max 2 n) n x (fun _ => 0) (fun _ => 0)) n.
Definition first_kind_c (n : nat) (z : C) : C * C := last_of (RtoC 0) (spherical_j_jdj_array C complexes (fun _ => RtoC 0) n n z (fun _ => RtoC 0) (fun _ => RtoC 0)) n.
Definition coded : radial := {| jay := fun n x => fst (first_kind n x); djay := fun n x => snd (first_kind n x); why := fun n x => fst (second_kind n x); dwhy := fun n x => snd (second_kind n x);
  jayc := fun n z => fst (first_kind_c n z); djayc := fun n z => snd (first_kind_c n z) |}.

(* ------------------------------------------------------------ the routines do not depend on what is around them *)
Definition ratio_ok (z : C) : Prop := forall m, (m + 2 <= 800)%nat -> q z 800 m <> RtoC 0.
Definition jv (z : C) (i : nat) : C := (J 0 z * q z 800 (i + 1) / q z 800 0)%C.
Definition djv (z : C) (i : nat) : C := (J 0 z * q z 800 i / q z 800 0 - RtoC (INR i + 1) * / z * (J 0 z * q z 800 (i + 1) / q z 800 0))%C.
Definition yv (z : C) (i : nat) : C := Y (i + 1) z.
Definition dyv (z : C) (i : nat) : C := (Y i z - RtoC (INR i + 1) * / z * Y (i + 1) z)%C.
Section Lemmas.
Lemma one_800 : (1 <= 800)%nat. Proof. lia. Qed.
Lemma runs_ratio : forall z, z <> RtoC 0 -> runs_at z <-> exists rho, ratios C complexes 800 z (fun _ => RtoC 0) = Done rho.
Proof.
  intros z Nz. unfold runs_at, spherical_j_jdj_array, spherical_j_of. rewrite (proj2 (iszero_cf z) Nz). split.
  - intros (j & dj & E). destruct (ratios C complexes 800 z _) as [rho| |]; try discriminate. eauto.
  - intros (rho & ->). cbn [Nat.ltb Nat.leb]. eexists; eexists. reflexivity.
Qed.
(** the outcome of the ratios does not depend on the junk *)
Lemma ratios_junk : forall z junk junk', match ratios C complexes 800 z junk, ratios C complexes 800 z junk' with Done a, Done b => forall m, (m < 800)%nat -> a m = b m | DivZero, DivZero => True | OutOfBounds, OutOfBounds => True | _, _ => False end.
Proof.
  intros z junk junk'. unfold ratios. generalize one_800. generalize 800%nat as N. intros N HN.
  pose (I := fun k (p : out (nat -> C) * out (nat -> C)) => match fst p, snd p with Done a, Done b => forall m, (N - k <= m < N)%nat -> a m = b m | DivZero, DivZero => True | OutOfBounds, OutOfBounds => True | _, _ => False end).
  set (i1 := Done (vupd junk (N - 1) _)). set (i2 := Done (vupd junk' (N - 1) _)).
  assert (G: forall k, (1 <= k <= N)%nat -> I k (for_ 1 k (rho_step C complexes N (div complexes (num complexes 1) z)) i1, for_ 1 k (rho_step C complexes N (div complexes (num complexes 1) z)) i2)).
  { intros k Hk. induction k as [|k IH]; [lia|]. destruct (Nat.eq_dec k 0) as [->|Nk].
    - cbn. unfold I, i1, i2. cbn [fst snd]. intros m Hm. assert (m = (N - 1)%nat) by lia. subst m. rewrite !vupd_same. reflexivity.
    - specialize (IH ltac:(lia)). replace (S k) with (k + 1)%nat by lia.
      assert (SP: forall s, for_ 1 (k + 1) (rho_step C complexes N (div complexes (num complexes 1) z)) s = rho_step C complexes N (div complexes (num complexes 1) z) k (for_ 1 k (rho_step C complexes N (div complexes (num complexes 1) z)) s)).
      { intros s. unfold for_. replace (k + 1 - 1)%nat with ((k - 1) + 1)%nat by lia. rewrite seq_app, fold_left_app. replace (1 + (k - 1))%nat with k by lia. reflexivity. }
      rewrite !SP. revert IH. unfold I. cbn [fst snd]. set (a := for_ 1 k _ i1). set (b := for_ 1 k _ i2). destruct a as [a| |], b as [b| |]; try contradiction; try (intros; exact Logic.I). intros IH.
      cbn [rho_step]. rewrite (IH (N - k)%nat) by lia. destruct (iszero complexes _); [exact Logic.I|]. intros m Hm. destruct (Nat.eq_dec m (N - k - 1)) as [->|Ne]; [rewrite !vupd_same; reflexivity|]. rewrite !vupd_other by lia. apply IH. lia. }
  specialize (G N ltac:(lia)). unfold I in G. cbn [fst snd] in G. destruct (for_ 1 N _ i1), (for_ 1 N _ i2); auto. intros m Hm. apply G. lia.
Qed.
Lemma j_call : forall z, z <> RtoC 0 -> runs_at z -> forall junk cap nmax j dj, (1 <= nmax)%nat -> (nmax <= cap)%nat -> (nmax <= 800)%nat ->
  exists j' dj', spherical_j_jdj_array C complexes junk cap nmax z j dj = Done (j', dj') /\
    (forall i, (i < nmax)%nat -> j' i = jv z i /\ dj' i = djv z i) /\ (forall i, (nmax <= i)%nat -> j' i = j i /\ dj' i = dj i).
Proof.
  intros z Nz Rz junk cap nmax j dj H1 H2 H3. apply (runs_ratio z Nz) in Rz. destruct Rz as (rho & E). pose proof (ratios_junk z junk (fun _ => RtoC 0)) as RJ. rewrite E in RJ.
  destruct (j_run z Nz 800 junk cap nmax j dj one_800 ltac:(lia) H2 H3) as [(j' & dj' & D & Q0 & A & B)|(D & _)].
  - exists j', dj'. split; [exact D|]. split; [intros i Hi; apply A; lia|intros i Hi; apply B; lia].
  - exfalso. unfold spherical_j_of in D. rewrite (proj2 (iszero_cf z) Nz) in D. destruct (ratios C complexes 800 z junk) as [r| |]; try contradiction. destruct (cap <? 1)%nat eqn:C; [discriminate|].
    match type of D with for_ 1 nmax ?f ?s = DivZero => enough (X: (fun r => r <> DivZero) (for_ 1 nmax f s)) by (apply X; exact D); apply (for_ind (fun _ r => r <> DivZero)); [exact H1|discriminate|] end.
    intros k s _ Hs. unfold j_step. destruct s as [[? ?] | |]; [|exact Hs|exact Hs]. destruct (_ && _)%bool; discriminate.
Qed.
Lemma y_call : forall z, z <> RtoC 0 -> forall cap nmax y dy, (2 <= cap)%nat -> (nmax <= cap)%nat ->
  exists y' dy', spherical_y_ydy_array C complexes cap nmax z y dy = Done (y', dy') /\ (forall i, (i < nmax)%nat -> y' i = yv z i /\ dy' i = dyv z i).
Proof. intros z Nz cap nmax y dy H1 H2. destruct (y_run z Nz cap nmax y dy H1 H2) as (y' & dy' & E & A & _). exists y', dy'. split; [exact E|]. intros i Hi. apply A. lia. Qed.
(** the same for real arguments *)
Lemma j_call_real : forall x, x <> 0 -> runs_at (RtoC x) -> forall junk cap nmax j dj, (1 <= nmax)%nat -> (nmax <= cap)%nat -> (nmax <= 800)%nat ->
  exists j' dj', spherical_j_jdj_array R reals junk cap nmax x j dj = Done (j', dj') /\
    (forall i, (i < nmax)%nat -> RtoC (j' i) = jv (RtoC x) i /\ RtoC (dj' i) = djv (RtoC x) i) /\ (forall i, (nmax <= i)%nat -> j' i = j i /\ dj' i = dj i).
Proof.
  intros x Nx Rx junk cap nmax j dj H1 H2 H3. assert (Nz: RtoC x <> RtoC 0) by (apply RtoC_nz; exact Nx).
  destruct (j_call (RtoC x) Nz Rx (fun i => RtoC (junk i)) cap nmax (fun i => RtoC (j i)) (fun i => RtoC (dj i)) H1 H2 H3) as (a & b & E & A & B).
  pose proof (proj2 (C65_real_and_complex_agree x) junk cap nmax j dj) as S. rewrite E in S. destruct (spherical_j_jdj_array R reals junk cap nmax x j dj) as [(j', dj')| |]; try contradiction. cbn [same] in S.
  exists j', dj'. split; [reflexivity|]. split; intros i Hi.
  - destruct (S i) as (<- & <-). apply A. exact Hi.
  - destruct (S i) as (S1 & S2). destruct (B i Hi) as (B1 & B2). rewrite B1 in S1. rewrite B2 in S2. split; apply RtoC_inj; congruence.
Qed.
Lemma y_call_real : forall x, x <> 0 -> forall cap nmax y dy, (2 <= cap)%nat -> (nmax <= cap)%nat ->
  exists y' dy', spherical_y_ydy_array R reals cap nmax x y dy = Done (y', dy') /\ (forall i, (i < nmax)%nat -> RtoC (y' i) = yv (RtoC x) i /\ RtoC (dy' i) = dyv (RtoC x) i).
Proof.
  intros x Nx cap nmax y dy H1 H2. assert (Nz: RtoC x <> RtoC 0) by (apply RtoC_nz; exact Nx).
  destruct (y_call (RtoC x) Nz cap nmax (fun i => RtoC (y i)) (fun i => RtoC (dy i)) H1 H2) as (a & b & E & A).
  pose proof (proj1 (C65_real_and_complex_agree x) cap nmax y dy) as S. rewrite E in S. destruct (spherical_y_ydy_array R reals cap nmax x y dy) as [(y', dy')| |]; try contradiction. cbn [same] in S.
  exists y', dy'. split; [reflexivity|]. intros i Hi. destruct (S i) as (<- & <-). apply A. exact Hi.
Qed.
(** the radial functions of the specification have these values *)
Lemma first_value : forall x n, x <> 0 -> runs_at (RtoC x) -> (1 <= n <= 800)%nat -> RtoC (fst (first_kind n x)) = jv (RtoC x) (n - 1) /\ RtoC (snd (first_kind n x)) = djv (RtoC x) (n - 1).
Proof. intros x n Nx Rx Hn. unfold first_kind. destruct (j_call_real x Nx Rx (fun _ => 0) n n (fun _ => 0) (fun _ => 0)) as (j & dj & E & A & _); [lia..|]. rewrite E. cbn [last_of fst snd]. apply A. lia. Qed.
Lemma second_value : forall x n, x <> 0 -> (1 <= n)%nat -> RtoC (fst (second_kind n x)) = yv (RtoC x) (n - 1) /\ RtoC (snd (second_kind n x)) = dyv (RtoC x) (n - 1).
Proof. intros x n Nx Hn. unfold second_kind. destruct (y_call_real x Nx (Nat.max 2 n) n (fun _ => 0) (fun _ => 0)) as (y & dy & E & A); [lia..|]. rewrite E. cbn [last_of fst snd]. apply A. lia. Qed.
Lemma first_value_c : forall z n, z <> RtoC 0 -> runs_at z -> (1 <= n <= 800)%nat -> fst (first_kind_c n z) = jv z (n - 1) /\ snd (first_kind_c n z) = djv z (n - 1).
Proof. intros z n Nz Rz Hn. unfold first_kind_c. destruct (j_call z Nz Rz (fun _ => RtoC 0) n n (fun _ => RtoC 0) (fun _ => RtoC 0)) as (j & dj & E & A & _); [lia..|]. rewrite E. cbn [last_of fst snd]. apply A. lia. Qed.
End Lemmas.

(* ------------------------------------------------------------ rows *)
Lemma on_row_done : forall {K} (f : (nat -> K) -> (nat -> K) -> out ((nat -> K) * (nat -> K))) off A B a b, f (row A off) (row B off) = Done (a, b) ->
  exists A' B', on_row f off A B = Done (A', B') /\ (forall i, (i < off)%nat -> A' i = A i /\ B' i = B i) /\ (forall i, A' (off + i)%nat = a i /\ B' (off + i)%nat = b i).
Proof.
  intros K f off A B a b E. unfold on_row. rewrite E. exists (put_row A off a), (put_row B off b). split; [reflexivity|]. unfold put_row. split; intros i.
  - intros H. replace (i <? off)%nat with true by (symmetry; apply Nat.ltb_lt; exact H). auto.
  - replace (off + i <? off)%nat with false by (symmetry; apply Nat.ltb_ge; lia). replace (off + i - off)%nat with i by lia. auto.
Qed.

Section Task.
Variables rows columns nmax : nat.
Hypothesis order_small : (1 <= nmax <= 800)%nat.
Hypothesis order_fits : (nmax <= columns)%nat.
Variable junk : nat -> nat -> R.
Variable junkc : nat -> nat -> C.
(** what the resource holds for point ig *)
Definition point_done (s : store) (ig : nat) (x : R) (z : C) : Prop :=
  forall n, (1 <= n <= nmax)%nat ->
    get_jkr columns s ig n = jay coded n x /\ get_djkr columns s ig n = djay coded n x /\ get_ykr columns s ig n = why coded n x /\ get_dykr columns s ig n = dwhy coded n x /\
    get_jkrmr columns s ig n = jayc coded n z /\ get_djkrmr columns s ig n = djayc coded n z.
Definition same_factors (s t : store) : Prop := s_kr t = s_kr s /\ s_krinv t = s_krinv s /\ s_krmr t = s_krmr s /\ s_krmrinv t = s_krmrinv s.
Lemma radial_step_ok : forall s ig, (ig < rows)%nat -> (2 <= columns)%nat \/ (ig + 1 < rows)%nat -> s_kr s ig <> 0 -> s_krmr s ig <> RtoC 0 -> runs_at (RtoC (s_kr s ig)) -> runs_at (s_krmr s ig) ->
  exists t, radial_step rows columns junk junkc nmax ig s = Done t /\ same_factors s t /\ point_done t ig (s_kr s ig) (s_krmr s ig) /\
    (forall ig' x z, (ig' < ig)%nat -> point_done s ig' x z -> point_done t ig' x z).
Proof.
  intros s ig Hig Hc Nx Nz Rx Rz. unfold radial_step. set (off := (ig * columns)%nat). set (cap := (rows * columns - off)%nat).
  assert (CN: (nmax <= cap)%nat) by (unfold cap, off; nia). assert (C2: (2 <= cap)%nat) by (unfold cap, off; nia).
  destruct (j_call_real _ Nx Rx (junk ig) cap nmax (row (s_jkr s) off) (row (s_djkr s) off)) as (j & dj & EJ & VJ & _); [lia..|].
  destruct (y_call_real _ Nx cap nmax (row (s_ykr s) off) (row (s_dykr s) off)) as (y & dy & EY & VY); [lia..|].
  destruct (j_call _ Nz Rz (junkc ig) cap nmax (row (s_jkrmr s) off) (row (s_djkrmr s) off)) as (jc & djc & EC & VC & _); [lia..|].
  destruct (on_row_done _ off _ _ _ _ EJ) as (J' & DJ' & E1 & F1 & G1). destruct (on_row_done _ off _ _ _ _ EY) as (Y' & DY' & E2 & F2 & G2). destruct (on_row_done _ off _ _ _ _ EC) as (C' & DC' & E3 & F3 & G3).
  rewrite E1. cbn [andthen]. rewrite E2. cbn [andthen]. rewrite E3. cbn [andthen]. eexists. split; [reflexivity|]. split; [repeat split|]. split.
  - intros n Hn. unfold get_jkr, get_djkr, get_ykr, get_dykr, get_jkrmr, get_djkrmr, element. cbn [s_jkr s_djkr s_ykr s_dykr s_jkrmr s_djkrmr jay djay why dwhy jayc djayc coded]. fold off.
    destruct (G1 (n - 1)%nat) as (-> & ->). destruct (G2 (n - 1)%nat) as (-> & ->). destruct (G3 (n - 1)%nat) as (-> & ->).
    destruct (VJ (n - 1)%nat ltac:(lia)) as (A1 & A2). destruct (VY (n - 1)%nat ltac:(lia)) as (A3 & A4). destruct (VC (n - 1)%nat ltac:(lia)) as (A5 & A6).
    destruct (first_value _ n Nx Rx ltac:(lia)) as (B1 & B2). destruct (second_value _ n Nx ltac:(lia)) as (B3 & B4). destruct (first_value_c _ n Nz Rz ltac:(lia)) as (B5 & B6).
    repeat split; try (apply RtoC_inj); congruence.
  - intros ig' x z Hi P n Hn. specialize (P n Hn). unfold get_jkr, get_djkr, get_ykr, get_dykr, get_jkrmr, get_djkrmr, element in *. cbn [s_jkr s_djkr s_ykr s_dykr s_jkrmr s_djkrmr].
    assert (L: (ig' * columns + (n - 1) < off)%nat) by (unfold off; nia). destruct (F1 _ L) as (-> & ->). destruct (F2 _ L) as (-> & ->). destruct (F3 _ L) as (-> & ->). exact P.
Qed.
Lemma radial_loop_ok : forall points s, (points <= rows)%nat -> (2 <= columns)%nat \/ (points < rows)%nat ->
  (forall ig, (ig < points)%nat -> s_kr s ig <> 0 /\ s_krmr s ig <> RtoC 0 /\ runs_at (RtoC (s_kr s ig)) /\ runs_at (s_krmr s ig)) ->
  exists t, radial_loop rows columns junk junkc nmax points (Done s) = Done t /\ same_factors s t /\ forall ig, (ig < points)%nat -> point_done t ig (s_kr s ig) (s_krmr s ig).
Proof.
  intros points s HP HC H. unfold radial_loop.
  pose (I := fun k (r : out store) => exists t, r = Done t /\ same_factors s t /\ forall ig, (ig < k)%nat -> point_done t ig (s_kr s ig) (s_krmr s ig)).
  apply (for_ind I); [lia|exists s; split; [reflexivity|]; split; [repeat split|intros ig L; lia]|].
  intros k r Hk (t & -> & (F1 & F2 & F3 & F4) & P). cbn [andthen]. destruct (H k ltac:(lia)) as (N1 & N2 & R1 & R2). rewrite <- F1 in N1, R1. rewrite <- F3 in N2, R2.
  destruct (radial_step_ok t k ltac:(lia) ltac:(lia) N1 N2 R1 R2) as (u & E & (G1 & G2 & G3 & G4) & D & K). exists u. split; [exact E|]. split; [repeat split; congruence|].
  intros ig L. destruct (Nat.eq_dec ig k) as [->|Ne]; [rewrite F1, F3 in D; exact D|]. apply K; [lia|]. apply P. lia.
Qed.
(** *** InteractionTask *)
Theorem C94_task : forall ngauss wavelength R_V mr r s, (2 * ngauss <= rows)%nat -> (2 <= columns)%nat \/ (2 * ngauss < rows)%nat -> 0 < wavelength -> 0 < R_V -> mr <> RtoC 0 ->
  let k := 2 * PI / wavelength in let x ig := k * r ig * R_V in let z ig := (mr * RtoC k * RtoC (r ig) * RtoC R_V)%C in
  (forall ig, (ig < 2 * ngauss)%nat -> 0 < r ig /\ runs_at (RtoC (x ig)) /\ runs_at (z ig)) ->
  exists t, interaction_task rows columns junk junkc false nmax ngauss k (mr * RtoC k)%C R_V r s = Done t /\
    forall ig, (ig < 2 * ngauss)%nat -> s_kr t ig = x ig /\ s_krinv t ig = / x ig /\ s_krmr t ig = z ig /\ s_krmrinv t ig = (/ z ig)%C /\ point_done t ig (x ig) (z ig).
Proof.
  intros ngauss wavelength R_V mr r s HR HC HW HV HM k x z H. unfold interaction_task.
  assert (K0: 0 < k) by (unfold k; pose proof PI_RGT_0; apply Rdiv_lt_0_compat; lra).
  assert (NX: forall ig, (ig < 2 * ngauss)%nat -> x ig <> 0). { intros ig L. destruct (H ig L) as (R0 & _). unfold x. pose proof (Rmult_lt_0_compat _ _ (Rmult_lt_0_compat _ _ K0 R0) HV). lra. }
  assert (NZ: forall ig, (ig < 2 * ngauss)%nat -> z ig <> RtoC 0). { intros ig L. destruct (H ig L) as (R0 & _). unfold z. repeat apply Cmult_neq_0; auto; apply RtoC_nz; lra. }
  pose (I := fun n (o : out store) => exists t, o = Done t /\ forall ig, (ig < n)%nat -> s_kr t ig = x ig /\ s_krinv t ig = / x ig /\ s_krmr t ig = z ig /\ s_krmrinv t ig = (/ z ig)%C).
  assert (F: I (2 * ngauss)%nat (for_ 0 (2 * ngauss) (fun ig s => andthen s (factor_step rows k (mr * RtoC k)%C R_V r ig)) (Done s))).
  { apply (for_ind I); [lia|exists s; split; [reflexivity|intros ig L; lia]|]. intros n o Hn (t & -> & P). cbn [andthen]. unfold factor_step. replace (n <? rows)%nat with true by (symmetry; apply Nat.ltb_lt; lia).
    fold (x n) (z n). cbn [iszero reals]. destruct (Req_EM_T (x n) 0) as [E|_]; [exfalso; apply (NX n ltac:(lia)); exact E|]. rewrite (proj2 (iszero_cf (z n)) (NZ n ltac:(lia))).
    eexists. split; [reflexivity|]. intros ig L. cbn [s_kr s_krinv s_krmr s_krmrinv]. destruct (Nat.eq_dec ig n) as [->|Ne].
    - rewrite !vupd_same. split; [reflexivity|]. split; [unfold Rdiv; ring|]. split; [reflexivity|]. unfold Cdiv. ring.
    - rewrite !vupd_other by lia. apply P. lia. }
  destruct F as (t & E & P). rewrite E. destruct (radial_loop_ok (2 * ngauss) t HR HC) as (u & E' & (F1 & F2 & F3 & F4) & D).
  - intros ig L. destruct (P ig L) as (-> & _ & -> & _). destruct (H ig L) as (_ & A & B). split; [apply NX; exact L|]. split; [apply NZ; exact L|]. split; assumption.
  - exists u. split; [exact E'|]. intros ig L. destruct (P ig L) as (P1 & P2 & P3 & P4). rewrite F1, F2, F3, F4. specialize (D ig L). rewrite P1, P3 in D. repeat (split; [assumption|]). exact D.
Qed.
End Task.
Print Assumptions C94_task.
(** *** once the T-matrix of a particle has converged, the tasks of the higher orders (any number, with any orders, points and surfaces) leave its radial functions alone *)
Theorem C94_converged : forall rows columns later t,
  fold_left (fun s '(junk, junkc, nmax, ngauss, k, kmr, R_V, r) => andthen s (interaction_task rows columns junk junkc true nmax ngauss k kmr R_V r)) later (Done t) = Done t.
Proof. intros rows columns. induction later as [|[[[[[[[a b] c] d] e] f] g] h] l IH]; intros t; [reflexivity|]. cbn [fold_left andthen]. apply IH. Qed.
Print Assumptions C94_converged.

(* ------------------------------------------------------------ what the T-matrix tasks read *)
(** the tables that the T-matrix tasks read (make_env, QMatrix.v) are the contents of the resource after the InteractionTask, with the radial functions of the
    specification, which are the same for all orders, numbers of points, sizes of the resource and earlier contents *)
Theorem C94_environment : forall rows columns nmax junk junkc ngauss wavelength R_V mr stored m x w axis_ratio arrays table s, (1 <= nmax <= 800)%nat -> (nmax <= columns)%nat ->
  (2 * ngauss <= rows)%nat -> (2 <= columns)%nat \/ (2 * ngauss < rows)%nat -> 0 < wavelength -> 0 < R_V -> mr <> RtoC 0 ->
  let e := make_env coded stored m nmax ngauss x w axis_ratio R_V wavelength mr arrays table in let k := 2 * PI / wavelength in
  (forall ig, (ig < 2 * ngauss)%nat -> 0 < r2 e ig /\ runs_at (RtoC (k * sqrt (r2 e ig) * R_V)) /\ runs_at (mr * RtoC k * RtoC (sqrt (r2 e ig)) * RtoC R_V)%C) ->
  exists t, interaction_task rows columns junk junkc false nmax ngauss k (mr * RtoC k)%C R_V (fun ig => sqrt (r2 e ig)) s = Done t /\
    forall ig, (ig < 2 * ngauss)%nat -> krinv e ig = s_krinv t ig /\ krmrinv e ig = s_krmrinv t ig /\
      forall n, (1 <= n <= nmax)%nat -> jkr e ig n = get_jkr columns t ig n /\ djkr e ig n = get_djkr columns t ig n /\ ykr e ig n = get_ykr columns t ig n /\ dykr e ig n = get_dykr columns t ig n /\
        jkrmr e ig n = get_jkrmr columns t ig n /\ djkrmr e ig n = get_djkrmr columns t ig n.
Proof.
  intros rows columns nmax junk junkc ngauss wavelength R_V mr stored m x w axis_ratio arrays table s H1 H2 H3 H4 H5 H6 H7 e k H.
  destruct (C94_task rows columns nmax H1 H2 junk junkc ngauss wavelength R_V mr (fun ig => sqrt (r2 e ig)) s H3 H4 H5 H6 H7) as (t & E & P).
  { intros ig L. destruct (H ig L) as (A & B & C). split; [apply sqrt_lt_R0; exact A|]. split; assumption. }
  exists t. split; [exact E|]. intros ig L. destruct (P ig L) as (P1 & P2 & P3 & P4 & P5). rewrite P2, P4. split; [|split].
  - unfold e, make_env. cbn [krinv r2]. unfold kr_of, Rdiv. rewrite Rmult_1_l. reflexivity.
  - unfold e, make_env. cbn [krmrinv r2]. unfold krmr_of, Cdiv. rewrite Cmult_1_l. reflexivity.
  - intros n Hn. destruct (P5 n Hn) as (Q1 & Q2 & Q3 & Q4 & Q5 & Q6). rewrite Q1, Q2, Q3, Q4, Q5, Q6. repeat split.
Qed.
Print Assumptions C94_environment.
(** the constructor of TMatrix: arrays of exactly 2 ngauss rows and nmax columns *)
Theorem C94_class : forall nmax junk junkc ngauss wavelength R_V mr m x w axis_ratio s, (2 <= nmax <= 800)%nat -> 0 < wavelength -> 0 < R_V -> mr <> RtoC 0 ->
  let e := class_env coded m nmax ngauss x w axis_ratio R_V wavelength mr in let k := 2 * PI / wavelength in
  (forall ig, (ig < 2 * ngauss)%nat -> 0 < r2 e ig /\ s_kr s ig = k * sqrt (r2 e ig) /\ s_krmr s ig = (mr * RtoC (k * sqrt (r2 e ig)))%C /\ runs_at (RtoC (s_kr s ig)) /\ runs_at (s_krmr s ig)) ->
  exists t, radial_loop (2 * ngauss) nmax junk junkc nmax (2 * ngauss) (Done s) = Done t /\
    forall ig n, (ig < 2 * ngauss)%nat -> (1 <= n <= nmax)%nat -> jkr e ig n = get_jkr nmax t ig n /\ djkr e ig n = get_djkr nmax t ig n /\ ykr e ig n = get_ykr nmax t ig n /\ dykr e ig n = get_dykr nmax t ig n /\
        jkrmr e ig n = get_jkrmr nmax t ig n /\ djkrmr e ig n = get_djkrmr nmax t ig n.
Proof.
  intros nmax junk junkc ngauss wavelength R_V mr m x w axis_ratio s H1 H2 H3 H4 e k H. assert (K0: 0 < k) by (unfold k; pose proof PI_RGT_0; apply Rdiv_lt_0_compat; lra).
  destruct (radial_loop_ok (2 * ngauss) nmax nmax ltac:(lia) ltac:(lia) junk junkc (2 * ngauss) s ltac:(lia) ltac:(lia)) as (t & E & _ & P).
  { intros ig L. destruct (H ig L) as (A & B & C & D & F). assert (0 < k * sqrt (r2 e ig)) by (apply Rmult_lt_0_compat; [exact K0|apply sqrt_lt_R0; exact A]).
    split; [rewrite B; lra|]. split; [rewrite C; apply Cmult_neq_0; [exact H4|apply RtoC_nz; lra]|]. split; assumption. }
  exists t. split; [exact E|]. intros ig n L Hn. destruct (P ig L n Hn) as (Q1 & Q2 & Q3 & Q4 & Q5 & Q6). rewrite Q1, Q2, Q3, Q4, Q5, Q6. destruct (H ig L) as (_ & -> & -> & _). repeat split.
Qed.
Print Assumptions C94_class.

(* ------------------------------------------------------------ the functions *)
(** the recursion runs through for all arguments that are not real, and for all arguments up to 1 *)
Theorem C94_runs : forall z, z <> RtoC 0 -> Im z <> 0 \/ Cmod z <= 1 -> runs_at z.
Proof. intros z Nz H. apply (C66_no_division_by_zero z (fun _ => RtoC 0) 1 1 (fun _ => RtoC 0) (fun _ => RtoC 0) Nz H); lia. Qed.
Print Assumptions C94_runs.
(** the functions of the second kind are the spherical Bessel functions y_n, with the derivative of x y_n(x) divided by x *)
Theorem C94_second_kind : forall n x, (1 <= n)%nat -> x <> 0 -> is_sph_y n (RtoC x) (RtoC (why coded n x)) /\ derivable_pt_lim (fun t => t * why coded n t) x (x * dwhy coded n x).
Proof.
  intros n x Hn Nx. assert (V: forall t, t <> 0 -> is_sph_y n (RtoC t) (RtoC (why coded n t))).
  { intros t Nt. cbn [why coded]. rewrite (proj1 (second_value t n Nt Hn)). unfold yv. replace (n - 1 + 1)%nat with n by lia. apply Y_is. }
  split; [apply V; exact Nx|]. destruct (C65_y_real x (Nat.max 2 n) n (fun _ => 0) (fun _ => 0) Nx ltac:(lia) ltac:(lia)) as (y & dy & E & A). destruct (A (n - 1)%nat ltac:(lia)) as (_ & f & d & F & D & DV). replace (n - 1 + 1)%nat with n in F by lia.
  assert (DW: dwhy coded n x = d / x) by (cbn [dwhy coded]; unfold second_kind; rewrite E; cbn [last_of snd]; exact DV). rewrite DW. replace (x * (d / x)) with d by (field; exact Nx).
  assert (EQ: forall t, t <> 0 -> why coded n t = f t). { intros t Nt. apply RtoC_inj. eapply is_csum_unique; [apply V; exact Nt|apply F; exact Nt]. }
  intros eps He. destruct (D eps He) as (dl & Hd). assert (PD: 0 < Rmin dl (Rabs x)) by (apply Rmin_pos; [apply cond_pos|apply Rabs_pos_lt; exact Nx]). exists (mkposreal _ PD). intros h Nh Hh. cbn [pos] in Hh.
  assert (h1: Rabs h < dl) by (eapply Rlt_le_trans; [exact Hh|apply Rmin_l]). assert (h2: Rabs h < Rabs x) by (eapply Rlt_le_trans; [exact Hh|apply Rmin_r]).
  assert (Nxh: x + h <> 0). { intros Z0. replace h with (- x) in h2 by lra. rewrite Rabs_Ropp in h2. lra. }
  rewrite (EQ x Nx), (EQ (x + h) Nxh). apply Hd; auto.
Qed.
Print Assumptions C94_second_kind.
(** the functions of the first kind for real arguments are those for complex ones, and those are the spherical Bessel functions j_n with derivative up to 10^-1000, for all
    arguments up to 20 at which j_0 does not (almost) vanish, up to order 400 *)
Theorem C94_first_kind : forall n, (1 <= n <= 400)%nat ->
  (forall x, x <> 0 -> runs_at (RtoC x) -> jayc coded n (RtoC x) = RtoC (jay coded n x) /\ djayc coded n (RtoC x) = RtoC (djay coded n x)) /\
  forall z v0 v, z <> RtoC 0 -> runs_at z -> Cmod z <= 20 -> is_sph_j 0 z v0 -> / 10 ^ 100 <= Cmod v0 -> is_sph_j n z v ->
    Cmod (jayc coded n z - v)%C <= / 10 ^ 1000 /\
    exists f d, (forall t, is_sph_j n t (f t)) /\ is_cderiv (fun t => t * f t)%C z d /\ Cmod (djayc coded n z - d / z)%C <= (1 + INR n / Cmod z) * / 10 ^ 1000.
Proof.
  intros n Hn. split.
  - intros x Nx Rx. destruct (first_value x n Nx Rx ltac:(lia)) as (A & B). destruct (first_value_c (RtoC x) n (RtoC_nz x Nx) Rx ltac:(lia)) as (C & D). cbn [jay djay jayc djayc coded]. split; congruence.
  - intros z v0 v Nz Rz Bz J0 S0 Jn. destruct (j_call z Nz Rz (fun _ => RtoC 0) n n (fun _ => RtoC 0) (fun _ => RtoC 0)) as (j & dj & E & A & _); [lia..|].
    replace n with (n - 1 + 1)%nat in Jn by lia. destruct (C66_accuracy z _ n n _ _ j dj Nz Bz (ex_intro _ v0 (conj J0 S0)) ltac:(lia) E (n - 1) v ltac:(lia) Jn) as (P & f & d & F & D & Q).
    cbn [jayc djayc coded]. unfold first_kind_c. rewrite E. cbn [last_of fst snd]. split; [exact P|]. exists f, d. replace (n - 1 + 1)%nat with n in F by lia. split; [exact F|]. split; [exact D|].
    replace (INR (n - 1) + 1) with (INR n) in Q; [exact Q|]. rewrite <- S_INR. f_equal. lia.
Qed.
Print Assumptions C94_first_kind.

(* ------------------------------------------------------------ accesses outside of the arrays *)
Lemma for_last : forall {S} lo hi (body : nat -> S -> S) s, (lo <= hi)%nat -> for_ lo (hi + 1) body s = body hi (for_ lo hi body s).
Proof. intros S lo hi body s H. unfold for_. replace (hi + 1 - lo)%nat with ((hi - lo) + 1)%nat by lia. rewrite seq_app, fold_left_app. replace (lo + (hi - lo))%nat with hi by lia. reflexivity. Qed.
(** *** a resource for a maximum order of 1: the routine for y_n writes two elements, and does so behind the end of the array for the last point *)
Theorem C94_order_one_refuted : forall junk junkc ngauss s, (0 < ngauss)%nat ->
  (forall ig, (ig < 2 * ngauss)%nat -> s_kr s ig <> 0 /\ s_krmr s ig <> RtoC 0 /\ runs_at (RtoC (s_kr s ig)) /\ runs_at (s_krmr s ig)) ->
  radial_loop (2 * ngauss) 1 junk junkc 1 (2 * ngauss) (Done s) = OutOfBounds.
Proof.
  intros junk junkc ngauss s HG H. set (p := (2 * ngauss - 1)%nat). replace (2 * ngauss)%nat with (p + 1)%nat in * by (unfold p; lia).
  destruct (radial_loop_ok (p + 1) 1 1 ltac:(lia) ltac:(lia) junk junkc p s ltac:(lia) ltac:(lia)) as (t & E & (F1 & _) & _); [intros ig L; apply H; lia|].
  unfold radial_loop in *. rewrite for_last by lia. rewrite E. cbn [andthen]. unfold radial_step. rewrite F1. destruct (H p ltac:(lia)) as (Nx & _ & Rx & _).
  set (off := (p * 1)%nat). replace ((p + 1) * 1 - off)%nat with 1%nat by (unfold off; lia).
  destruct (j_call_real _ Nx Rx (junk p) 1 1 (row (s_jkr t) off) (row (s_djkr t) off)) as (j & dj & EJ & _); [lia..|]. destruct (on_row_done _ off _ _ _ _ EJ) as (J' & DJ' & E1 & _). rewrite E1. cbn [andthen].
  unfold on_row at 1, spherical_y_ydy_array. cbn [iszero reals]. destruct (Req_EM_T (s_kr s p) 0); [contradiction|]. reflexivity.
Qed.
Print Assumptions C94_order_one_refuted.
(** *** more than 800 orders: the local array of ratios has 800 elements *)
Theorem C94_order_801_refuted : forall rows columns junk junkc nmax points s, (800 < nmax)%nat -> (0 < points)%nat -> s_kr s 0%nat <> 0 -> runs_at (RtoC (s_kr s 0%nat)) ->
  radial_loop rows columns junk junkc nmax points (Done s) = OutOfBounds.
Proof.
  intros rows columns junk junkc nmax points s HN HP Nx Rx. assert (Nz: RtoC (s_kr s 0%nat) <> RtoC 0) by (apply RtoC_nz; exact Nx).
  assert (S0: radial_step rows columns junk junkc nmax 0 s = OutOfBounds).
  { unfold radial_step, on_row at 1. set (cap := (_ - _)%nat). set (j := row _ _). set (dj := row _ _).
    pose proof (proj2 (C65_real_and_complex_agree (s_kr s 0%nat)) (junk 0%nat) cap nmax j dj) as S. unfold spherical_j_jdj_array in *.
    assert (C: spherical_j_of C complexes 800 (fun i => RtoC (junk 0%nat i)) cap nmax (RtoC (s_kr s 0%nat)) (fun i => RtoC (j i)) (fun i => RtoC (dj i)) = OutOfBounds).
    { destruct (j_short _ Nz 800 (fun i => RtoC (junk 0%nat i)) cap nmax (fun i => RtoC (j i)) (fun i => RtoC (dj i)) one_800 (or_intror (or_intror HN))) as [D|D]; [exact D|]. exfalso.
      apply (runs_ratio _ Nz) in Rx. destruct Rx as (rho & E). pose proof (ratios_junk (RtoC (s_kr s 0%nat)) (fun i => RtoC (junk 0%nat i)) (fun _ => RtoC 0)) as RJ. rewrite E in RJ.
      unfold spherical_j_of in D. rewrite (proj2 (iszero_cf _) Nz) in D. destruct (ratios C complexes 800 (RtoC (s_kr s 0%nat)) (fun i => RtoC (junk 0%nat i))) as [r| |]; try contradiction. destruct (cap <? 1)%nat; [discriminate|].
      match type of D with for_ 1 nmax ?f ?x = DivZero => enough (X: (fun r => r <> DivZero) (for_ 1 nmax f x)) by (apply X; exact D); apply (for_ind (fun _ r => r <> DivZero)); [lia|discriminate|] end.
      intros k x _ Hx. unfold j_step. destruct x as [[? ?] | |]; [|exact Hx|exact Hx]. destruct (_ && _)%bool; discriminate. }
    rewrite C in S. destruct (spherical_j_of R reals 800 (junk 0%nat) cap nmax (s_kr s 0%nat) j dj) as [(a, b)| |]; try contradiction. reflexivity. }
  unfold radial_loop. assert (G: forall n, (1 <= n)%nat -> for_ 0 n (fun ig s => andthen s (radial_step rows columns junk junkc nmax ig)) (Done s) = OutOfBounds).
  { induction n as [|n IH]; [lia|]. intros _. replace (Datatypes.S n) with (n + 1)%nat by lia. rewrite for_last by lia. destruct (Nat.eq_dec n 0) as [->|Nn]; [cbn; exact S0|]. rewrite IH by lia. reflexivity. }
  apply G. lia.
Qed.
Print Assumptions C94_order_801_refuted.

(** *** the reset task clears everything *)
Lemma zero_row_spec : forall {K} (zero : K) columns ig (A : nat -> K) i, zero_row columns zero ig A i = if ((ig * columns <=? i) && (i <? ig * columns + columns))%nat then zero else A i.
Proof.
  intros K zero columns ig A i. unfold zero_row.
  pose (I := fun n (B : nat -> K) => B i = if ((ig * columns <=? i) && (i <? ig * columns + n))%nat then zero else A i).
  enough (E: I columns (for_ 0 columns (fun i0 A0 => vupd A0 (ig * columns + i0)%nat zero) A)) by exact E. apply (for_ind I); unfold I; clear I.
  - lia.
  - destruct (Nat.leb_spec (ig * columns) i), (Nat.ltb_spec i (ig * columns + 0)); cbn [andb]; try reflexivity; lia.
  - intros k B Hk E. unfold vupd. destruct (Nat.eqb_spec i (ig * columns + k)) as [->|Ne].
    + replace (ig * columns <=? ig * columns + k)%nat with true by (symmetry; apply Nat.leb_le; lia). replace (ig * columns + k <? ig * columns + (k + 1))%nat with true by (symmetry; apply Nat.ltb_lt; lia). reflexivity.
    + rewrite E. destruct (Nat.leb_spec (ig * columns) i), (Nat.ltb_spec i (ig * columns + k)), (Nat.ltb_spec i (ig * columns + (k + 1))); cbn [andb]; try reflexivity; lia.
Qed.
Theorem C94_reset : forall rows columns s, let t := reset_task rows columns s in
  (forall ig, (ig < rows)%nat -> s_kr t ig = 0 /\ s_krinv t ig = 0 /\ s_krmr t ig = RtoC 0 /\ s_krmrinv t ig = RtoC 0) /\
  (forall i, (i < rows * columns)%nat -> s_jkr t i = 0 /\ s_djkr t i = 0 /\ s_ykr t i = 0 /\ s_dykr t i = 0 /\ s_jkrmr t i = RtoC 0 /\ s_djkrmr t i = RtoC 0).
Proof.
  intros rows columns s. cbv zeta. unfold reset_task. set (body := fun ig s => _).
  pose (I := fun n (t : store) => (forall ig, (ig < n)%nat -> s_kr t ig = 0 /\ s_krinv t ig = 0 /\ s_krmr t ig = RtoC 0 /\ s_krmrinv t ig = RtoC 0) /\
    (forall i, (i < n * columns)%nat -> s_jkr t i = 0 /\ s_djkr t i = 0 /\ s_ykr t i = 0 /\ s_dykr t i = 0 /\ s_jkrmr t i = RtoC 0 /\ s_djkrmr t i = RtoC 0)).
  change (I rows (for_ 0 rows body s)). apply (for_ind I); unfold I; clear I; [lia|split; intros; lia|].
  intros k t Hk (A & B). unfold body. cbn [s_kr s_krinv s_krmr s_krmrinv s_jkr s_djkr s_ykr s_dykr s_jkrmr s_djkrmr]. split.
  - intros ig L. destruct (Nat.eq_dec ig k) as [->|Ne]; [rewrite !vupd_same; auto|]. rewrite !vupd_other by lia. apply A. lia.
  - intros i L. rewrite !zero_row_spec. destruct (Nat.leb_spec (k * columns) i) as [G|G]; cbn [andb].
    + replace (i <? k * columns + columns)%nat with true by (symmetry; apply Nat.ltb_lt; lia). repeat split.
    + apply B. exact G.
Qed.
Print Assumptions C94_reset.

(** the hypotheses are met: a small absorbing sphere, four points, order 2 *)
Example C94_example : forall junk junkc s, let mr := (3 / 2, / 10)%R in let k := 2 * PI / (20 * PI) in
  exists t, interaction_task 4 2 junk junkc false 2 2 k (mr * RtoC k)%C 2 (fun _ => 1) s = Done t /\ s_kr t 3%nat = / 5 /\ get_ykr 2 t 3 2 = why coded 2 (/ 5).
Proof.
  intros junk junkc s mr k. pose proof PI_RGT_0 as P. assert (K: k = / 10) by (unfold k; field; lra). assert (X: k * 1 * 2 = / 5) by (rewrite K; lra).
  destruct (C94_task 4 2 2 ltac:(lia) ltac:(lia) junk junkc 2 (20 * PI) 2 mr (fun _ => 1) s ltac:(lia) ltac:(lia) ltac:(lra) ltac:(lra)) as (t & E & A).
  - intros E. apply (f_equal Im) in E. cbn in E. lra.
  - intros ig _. fold k. split; [lra|]. split.
    + rewrite X. apply C94_runs; [apply RtoC_nz; lra|right]. rewrite Cmod_R, Rabs_pos_eq; lra.
    + rewrite K. apply C94_runs; [|left; cbn; lra]. intros E. apply (f_equal Im) in E. cbn in E. lra.
  - exists t. split; [exact E|]. destruct (A 3%nat ltac:(lia)) as (A1 & _ & _ & _ & D). fold k in A1, D. rewrite X in *. split; [exact A1|]. apply (D 2%nat). lia.
Qed.
