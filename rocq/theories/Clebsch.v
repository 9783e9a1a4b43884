(** Model of the Clebsch-Gordan routines of src/SpecialFunctions.hpp (972-1108 and 1131-1244).
    Simplifications: doubles are exact reals, int_fast32_t is unbounded.  An array is a list;
    an access outside of it, a division by zero or the square root of a negative number is the
    outcome [None].  The ctm_assert checks (off in release builds) are hypotheses of the theorems. *)
From Coq Require Import List ZArith Reals Lra Lia Arith Bool.
From Verif Require Import Base Racah.
Import ListNotations.
Open Scope R_scope.

Definition obind {A B} (x : option A) (f : A -> option B) : option B := match x with Some a => f a | None => None end.

(** C[i] *)
Definition rd (C : list R) (i : Z) : option R := if (0 <=? i)%Z then nth_error C (Z.to_nat i) else None.
(** C[i] = v *)
Definition wr (C : list R) (i : Z) (v : R) : option (list R) :=
  if (0 <=? i)%Z && (i <? Z.of_nat (length C))%Z then Some (upd (Z.to_nat i) v C) else None.
(** sqrt and / *)
Definition rsqrt (x : R) : option R := if Rlt_dec x 0 then None else Some (sqrt x).
Definition rdiv (x y : R) : option R := if Req_EM_T y 0 then None else Some (x / y).

(** for (i = hi; ...; --i), [cnt] iterations *)
Fixpoint zdown {S} (cnt : nat) (i : Z) (f : Z -> S -> option S) (s : S) : option S :=
  match cnt with O => Some s | Datatypes.S c => obind (f i s) (zdown c (i - 1)%Z f) end.
(** for (i = lo; ...; ++i), [cnt] iterations *)
Fixpoint zup {S} (cnt : nat) (i : Z) (f : Z -> S -> option S) (s : S) : option S :=
  match cnt with O => Some s | Datatypes.S c => obind (f i s) (zup c (i + 1)%Z f) end.

(** SpecialFunctions.hpp:1018-1032 (1165-1179): one step of the recursion for the row M = N *)
Definition top_body (n1 n2 N : Z) (m : Z) (st : list R * R) : option (list R * R) :=
  let nsize := (2 * n1 + 1)%Z in let '(C, norm) := st in
  obind (rsqrt (IZR (n2 - N + m + 1) * IZR (n2 + N - m))) (fun cplus2 =>
  obind (rsqrt (IZR (n1 - m) * IZR (n1 + m + 1))) (fun cplus1 =>
  obind (rd C (N * nsize + m + 1 + n1)) (fun c =>
  obind (rdiv (- cplus2 * c) cplus1) (fun cnext =>
  obind (wr C (N * nsize + m + n1) cnext) (fun C' => Some (C', norm + cnext * cnext)))))).

(** 1039 (1186): normalisation of one coefficient *)
Definition norm_body (n1 N : Z) (inverse_norm : R) (m : Z) (C : list R) : option (list R) :=
  let i := (N * (2 * n1 + 1) + m + n1)%Z in obind (rd C i) (fun c => wr C i (c * inverse_norm)).

(** 1063-1085 (1210-1232): one coefficient of the row M *)
Definition low_body (n1 n2 M : Z) (cmin_inverse : R) (m : Z) (C : list R) : option (list R) :=
  let nsize := (2 * n1 + 1)%Z in let m2 := (M - m)%Z in
  obind (if (m + 1 <=? n1)%Z
         then obind (rsqrt (IZR (n1 + m + 1) * IZR (n1 - m))) (fun c => obind (rd C ((M + 1) * nsize + m + 1 + n1)) (fun x => Some (c * x)))
         else Some 0) (fun term1 =>
  obind (if (m2 + 1 <=? n2)%Z
         then obind (rsqrt (IZR (n2 + m2 + 1) * IZR (n2 - m2))) (fun c => obind (rd C ((M + 1) * nsize + m + n1)) (fun x => Some (c * x)))
         else Some 0) (fun term2 =>
  wr C (M * nsize + m + n1) (cmin_inverse * (term1 + term2)))).

(** 1048-1087 (1195-1234): the row M from the row M+1 *)
Definition row_body (n1 n2 N M : Z) (C : list R) : option (list R) :=
  obind (rsqrt (IZR (N + M + 1) * IZR (N - M))) (fun c =>
  obind (rdiv 1 c) (fun cmin_inverse =>
  let lo := Z.max (- n1) (M - n2) in let hi := Z.min n1 (M + n2) in
  zup (Z.to_nat (hi - lo + 1)) lo (low_body n1 n2 M cmin_inverse) C)).

(** 1010-1087 (1157-1234): all coefficients with M >= 0 *)
Definition fill (n1 n2 N : Z) (C : list R) : option (list R) :=
  let lo := Z.max (- n1) (N - n2 - 1) in
  obind (wr C (N * (2 * n1 + 1) + n1 + n1) 1) (fun C1 =>
  obind (zdown (Z.to_nat (n1 - 1 - lo + 1)) (n1 - 1) (top_body n1 n2 N) (C1, 1)) (fun '(C2, norm) =>
  obind (rsqrt norm) (fun s =>
  obind (rdiv 1 s) (fun inverse_norm =>
  obind (zdown (Z.to_nat (n1 - lo + 1)) n1 (norm_body n1 N inverse_norm) C2) (fun C3 =>
  zdown (Z.to_nat N) (N - 1) (row_body n1 n2 N) C3))))).

(** 972-1108: get_clebsch_gordan_coefficient *)
Definition get_clebsch_gordan_coefficient (n1 m1 n2 m2 N M : Z) : option R :=
  if negb (m1 + m2 =? M)%Z then Some 0 else
  let nsize := (2 * n1 + 1)%Z in
  obind (fill n1 n2 N (repeat 0 (Z.to_nat ((N + 1) * nsize)))) (fun C =>
  if (0 <=? M)%Z then rd C (M * nsize + m1 + n1)
  else let sign := if (Z.rem (N - n1 - n2) 2 =? 0)%Z then 1 else -1 in
       obind (rd C (- M * nsize + n1 - m1)) (fun c => Some (sign * c))).

(** 1131-1244: get_clebsch_gordan_coefficients; the work array afterwards and the returned number *)
Definition get_clebsch_gordan_coefficients (n1 n2 N : Z) (C : list R) : option (list R * Z) :=
  let nmin := Z.min n1 n2 in
  obind (fill n1 n2 N C) (fun C1 =>
  obind (zup (Z.to_nat (2 * nmin + 1)) 0 (fun i C => obind (rd C (i - nmin + n1)) (fun c => wr C i c)) C1) (fun C2 =>
  Some (C2, 2 * nmin + 1)%Z)).

(* ------------------------------------------------------------------ proofs *)

Lemma zdown_ind : forall S (P : Z -> S -> Prop) f cnt i s, P i s ->
  (forall j s, (i - Z.of_nat cnt < j <= i)%Z -> P j s -> exists s', f j s = Some s' /\ P (j - 1)%Z s') ->
  exists s', zdown cnt i f s = Some s' /\ P (i - Z.of_nat cnt)%Z s'.
Proof.
  intros S P f. induction cnt as [|c IH]; intros i s H0 HS.
  - exists s. split; auto. cbn. rewrite Z.sub_0_r. auto.
  - cbn [zdown]. destruct (HS i s ltac:(lia) H0) as (s1 & E1 & H1). rewrite E1. cbn [obind].
    destruct (IH (i - 1)%Z s1 H1) as (s2 & E2 & H2).
    + intros j s' Hj. apply HS. lia.
    + exists s2. split; auto. replace (i - Z.of_nat (Datatypes.S c))%Z with (i - 1 - Z.of_nat c)%Z by lia. auto.
Qed.

Lemma zup_ind : forall S (P : Z -> S -> Prop) f cnt i s, P i s ->
  (forall j s, (i <= j < i + Z.of_nat cnt)%Z -> P j s -> exists s', f j s = Some s' /\ P (j + 1)%Z s') ->
  exists s', zup cnt i f s = Some s' /\ P (i + Z.of_nat cnt)%Z s'.
Proof.
  intros S P f. induction cnt as [|c IH]; intros i s H0 HS.
  - exists s. split; auto. cbn. rewrite Z.add_0_r. auto.
  - cbn [zup]. destruct (HS i s ltac:(lia) H0) as (s1 & E1 & H1). rewrite E1. cbn [obind].
    destruct (IH (i + 1)%Z s1 H1) as (s2 & E2 & H2).
    + intros j s' Hj. apply HS. lia.
    + exists s2. split; auto. replace (i + Z.of_nat (Datatypes.S c))%Z with (i + 1 + Z.of_nat c)%Z by lia. auto.
Qed.

Lemma wr_ok : forall C i v, (0 <= i < Z.of_nat (length C))%Z -> exists C', wr C i v = Some C' /\ length C' = length C /\
  rd C' i = Some v /\ forall j, j <> i -> rd C' j = rd C j.
Proof.
  intros C i v H. unfold wr. rewrite (proj2 (Z.leb_le _ _)), (proj2 (Z.ltb_lt _ _)) by lia. cbn [andb].
  exists (upd (Z.to_nat i) v C). split; auto. split; [apply upd_length|]. split.
  - unfold rd. rewrite (proj2 (Z.leb_le _ _)) by lia. rewrite (nth_error_nth' _ 0) by (rewrite upd_length; lia).
    rewrite nth_upd_same by lia. auto.
  - intros j Hj. unfold rd. destruct (Z.leb_spec 0 j); auto.
    destruct (lt_dec (Z.to_nat j) (length C)).
    + rewrite !(nth_error_nth' _ 0) by (try rewrite upd_length; lia). rewrite nth_upd_other by lia. auto.
    + rewrite !(proj2 (nth_error_None _ _)); auto; try rewrite upd_length; lia.
Qed.

Lemma wr_out : forall C i v, (Z.of_nat (length C) <= i)%Z -> wr C i v = None.
Proof. intros C i v H. unfold wr. rewrite (proj2 (Z.ltb_ge i _)) by lia. rewrite andb_false_r. auto. Qed.

Lemma rsqrt_ok : forall x, 0 <= x -> rsqrt x = Some (sqrt x).
Proof. intros x H. unfold rsqrt. destruct (Rlt_dec x 0); [lra|auto]. Qed.
Lemma rdiv_ok : forall x y, y <> 0 -> rdiv x y = Some (x / y).
Proof. intros x y H. unfold rdiv. destruct (Req_EM_T y 0); [contradiction|auto]. Qed.

Section Fill.
Variables n1 n2 N : Z.
Hypothesis H1 : (0 <= n1)%Z.
Hypothesis H2 : (0 <= n2)%Z.
Hypothesis H0 : (0 <= N)%Z.
Hypothesis HN : (Z.abs (n1 - n2) <= N <= n1 + n2)%Z.
Notation nsize := (2 * n1 + 1)%Z.
Notation CG m M := (clebsch_gordan n1 m n2 (M - m) N M).

Definition at_ (C : list R) (M m : Z) : option R := rd C (M * nsize + m + n1).

Lemma idx_inj : forall M m M' m', (- n1 <= m <= n1)%Z -> (- n1 <= m' <= n1)%Z ->
  (M * nsize + m + n1 = M' * nsize + m' + n1)%Z -> M = M' /\ m = m'.
Proof. intros M m M' m' A B E. assert (M = M') by nia. subst. lia. Qed.

Lemma idx_range : forall (C : list R) M m, (Z.of_nat (length C) >= (N + 1) * nsize)%Z -> (0 <= M <= N)%Z -> (- n1 <= m <= n1)%Z ->
  (0 <= M * nsize + m + n1 < Z.of_nat (length C))%Z.
Proof. intros. nia. Qed.

Lemma at_wr : forall C M m v, (Z.of_nat (length C) >= (N + 1) * nsize)%Z -> (0 <= M <= N)%Z -> (- n1 <= m <= n1)%Z ->
  exists C', wr C (M * nsize + m + n1) v = Some C' /\ length C' = length C /\ at_ C' M m = Some v /\
  forall M' m', (- n1 <= m' <= n1)%Z -> M' <> M \/ m' <> m -> at_ C' M' m' = at_ C M' m'.
Proof.
  intros C M m v HL HM Hm. destruct (wr_ok C _ v (idx_range C M m HL HM Hm)) as (C' & E & L & A & B).
  exists C'. repeat split; auto. intros M' m' Hm' Hne. apply B. intros E'. apply idx_inj in E'; auto. lia.
Qed.

Lemma cg_top_below : CG (N - n2 - 1)%Z N = 0.
Proof. rewrite cg_eq by lia. rewrite rsum_m2_out by lia. ring. Qed.

Lemma IZR_prod_nn : forall a b, (0 <= a)%Z -> (0 <= b)%Z -> 0 <= IZR a * IZR b.
Proof. intros. apply Rmult_le_pos; apply IZR_le; auto. Qed.
Lemma IZR_prod_pos : forall a b, (0 < a)%Z -> (0 < b)%Z -> 0 < IZR a * IZR b.
Proof. intros. apply Rmult_lt_0_compat; apply IZR_lt; auto. Qed.

Lemma top_loop : forall C, (Z.of_nat (length C) >= (N + 1) * nsize)%Z -> at_ C N n1 = Some 1 ->
  let lo := Z.max (- n1) (N - n2 - 1) in
  exists C' norm, zdown (Z.to_nat (n1 - 1 - lo + 1)) (n1 - 1) (top_body n1 n2 N) (C, 1) = Some (C', norm) /\
    length C' = length C /\ (forall m, (lo <= m <= n1)%Z -> at_ C' N m = Some (CG m N / CG n1 N)) /\
    norm = / Rsqr (CG n1 N).
Proof.
  intros C HL HT lo. pose proof (cg_top_pos n1 n2 N H0 HN) as HP.
  set (P := fun (j : Z) (st : list R * R) => length (fst st) = length C /\
     (forall m, (j < m <= n1)%Z -> at_ (fst st) N m = Some (CG m N / CG n1 N)) /\
     snd st = sum_f_R0 (fun p => Rsqr (CG (n1 - Z.of_nat p)%Z N)) (Z.to_nat (n1 - 1 - j)) / Rsqr (CG n1 N)).
  destruct (zdown_ind _ P (top_body n1 n2 N) (Z.to_nat (n1 - 1 - lo + 1)) (n1 - 1) (C, 1)) as ((C' & norm) & E & L & A & B).
  - split; [auto|]. split.
    + intros m Hm. assert (m = n1) as -> by lia. cbn [fst]. rewrite HT. f_equal. field. lra.
    + cbn [snd]. replace (Z.to_nat (n1 - 1 - (n1 - 1))) with 0%nat by lia. cbn [sum_f_R0]. replace (n1 - Z.of_nat 0)%Z with n1 by lia.
      unfold Rsqr. field. lra.
  - intros j [Cj nj] Hj (L & A & B). cbn [fst snd] in *.
    assert (Hj2: (lo <= j <= n1 - 1)%Z) by lia.
    unfold top_body. rewrite rsqrt_ok by (apply IZR_prod_nn; lia). cbn [obind].
    rewrite rsqrt_ok by (apply IZR_prod_nn; lia). cbn [obind].
    replace (N * nsize + j + 1 + n1)%Z with (N * nsize + (j + 1) + n1)%Z by lia. fold (at_ Cj N (j + 1)).
    rewrite (A (j + 1)%Z) by lia. cbn [obind].
    assert (Q: 0 < sqrt (IZR (n1 - j) * IZR (n1 + j + 1))) by (apply sqrt_lt_R0, IZR_prod_pos; lia).
    rewrite rdiv_ok by lra. cbn [obind].
    assert (EV: - sqrt (IZR (n2 - N + j + 1) * IZR (n2 + N - j)) * (CG (j + 1)%Z N / CG n1 N) / sqrt (IZR (n1 - j) * IZR (n1 + j + 1)) = CG j N / CG n1 N).
    { apply Rmult_eq_reg_l with (sqrt (IZR (n1 - j) * IZR (n1 + j + 1)) * CG n1 N); [|nra].
      transitivity (- (sqrt (IZR (n2 - N + j + 1) * IZR (n2 + N - j)) * CG (j + 1)%Z N)); [field; split; lra|].
      transitivity (sqrt (IZR (n1 - j) * IZR (n1 + j + 1)) * CG j N); [|field; lra].
      destruct (Z.eq_dec j (N - n2 - 1)) as [ -> | Hne ].
      - rewrite cg_top_below. replace (n2 - N + (N - n2 - 1) + 1)%Z with 0%Z by lia. rewrite Rmult_0_l, sqrt_0. ring.
      - symmetry. apply cg_top_step; auto; lia. }
    rewrite EV. destruct (at_wr Cj N j (CG j N / CG n1 N) ltac:(lia) ltac:(lia) ltac:(lia)) as (C2 & E2 & L2 & S2 & O2).
    rewrite E2. cbn [obind]. eexists. split; [reflexivity|]. split; [cbn [fst]; congruence|]. split; cbn [fst snd].
    + intros m Hm. destruct (Z.eq_dec m j) as [ -> | Hne ]; [exact S2|]. rewrite O2 by lia. apply A. lia.
    + replace (Z.to_nat (n1 - 1 - (j - 1))) with (S (Z.to_nat (n1 - 1 - j))) by lia. cbn [sum_f_R0]. rewrite B.
      replace (n1 - Z.of_nat (S (Z.to_nat (n1 - 1 - j))))%Z with j by lia. unfold Rsqr. field. lra.
  - cbn [fst snd] in *. exists C', norm. split; [exact E|]. split; [exact L|]. split; [intros m Hm; apply A; lia|].
    rewrite B. pose proof (cg_top_norm n1 n2 N H0 HN) as NN.
    replace (Z.to_nat (n1 - 1 - (n1 - 1 - Z.of_nat (Z.to_nat (n1 - 1 - lo + 1))))) with (Z.to_nat (n1 - lo)) by lia.
    assert (EN: sum_f_R0 (fun p => Rsqr (CG (n1 - Z.of_nat p)%Z N)) (Z.to_nat (n1 - lo)) = 1).
    { destruct (Z.eq_dec (N - n2) (- n1)).
      - replace (Z.to_nat (n1 - lo)) with (Z.to_nat (n1 + n2 - N)) by lia. exact NN.
      - replace (Z.to_nat (n1 - lo)) with (S (Z.to_nat (n1 + n2 - N))) by lia. cbn [sum_f_R0]. rewrite NN.
        replace (n1 - Z.of_nat (S (Z.to_nat (n1 + n2 - N))))%Z with (N - n2 - 1)%Z by lia. rewrite cg_top_below. unfold Rsqr. ring. }
    rewrite EN. unfold Rsqr. field. lra.
Qed.

Lemma norm_loop : forall C, (Z.of_nat (length C) >= (N + 1) * nsize)%Z ->
  let lo := Z.max (- n1) (N - n2 - 1) in
  (forall m, (lo <= m <= n1)%Z -> at_ C N m = Some (CG m N / CG n1 N)) ->
  exists C', zdown (Z.to_nat (n1 - lo + 1)) n1 (norm_body n1 N (CG n1 N)) C = Some C' /\
    length C' = length C /\ (forall m, (lo <= m <= n1)%Z -> at_ C' N m = Some (CG m N)).
Proof.
  intros C HL lo HA. pose proof (cg_top_pos n1 n2 N H0 HN) as HP.
  set (P := fun (j : Z) (c : list R) => length c = length C /\
     (forall m, (lo <= m <= n1)%Z -> at_ c N m = Some (if (j <? m)%Z then CG m N else CG m N / CG n1 N))).
  destruct (zdown_ind _ P (norm_body n1 N (CG n1 N)) (Z.to_nat (n1 - lo + 1)) n1 C) as (C' & E & L & A).
  - split; auto. intros m Hm. rewrite (proj2 (Z.ltb_ge n1 m)) by lia. auto.
  - intros j c Hj (L & A). unfold norm_body. fold (at_ c N j). rewrite A by lia. cbn [obind]. rewrite Z.ltb_irrefl.
    destruct (at_wr c N j (CG j N / CG n1 N * CG n1 N) ltac:(lia) ltac:(lia) ltac:(lia)) as (C2 & E2 & L2 & S2 & O2).
    exists C2. split; auto. split; [congruence|]. intros m Hm. destruct (Z.eq_dec m j) as [ -> | Hne ].
    + rewrite (proj2 (Z.ltb_lt (j - 1) j)) by lia. rewrite S2. f_equal. field. lra.
    + rewrite O2 by lia. rewrite A by lia. destruct (Z.ltb_spec j m), (Z.ltb_spec (j - 1) m); auto; lia.
  - exists C'. split; auto. split; auto. intros m Hm. rewrite A by lia.
    rewrite (proj2 (Z.ltb_lt _ m)) by lia. auto.
Qed.

Definition valid_m (M m : Z) : Prop := (Z.max (- n1) (M - n2) <= m <= Z.min n1 (M + n2))%Z.

Lemma row_ok : forall C M, (Z.of_nat (length C) >= (N + 1) * nsize)%Z -> (0 <= M < N)%Z ->
  (forall m, valid_m (M + 1) m -> at_ C (M + 1) m = Some (CG m (M + 1)%Z)) ->
  exists C', row_body n1 n2 N M C = Some C' /\ length C' = length C /\
    (forall m, valid_m M m -> at_ C' M m = Some (CG m M)) /\
    (forall M' m, (- n1 <= m <= n1)%Z -> M' <> M -> at_ C' M' m = at_ C M' m).
Proof.
  intros C M HL HM HA. unfold row_body.
  assert (Q: 0 < sqrt (IZR (N + M + 1) * IZR (N - M))) by (apply sqrt_lt_R0, IZR_prod_pos; lia).
  rewrite rsqrt_ok by (apply IZR_prod_nn; lia). cbn [obind]. rewrite rdiv_ok by lra. cbn [obind].
  set (inv := 1 / sqrt (IZR (N + M + 1) * IZR (N - M))).
  set (lo := Z.max (- n1) (M - n2)). set (hi := Z.min n1 (M + n2)).
  set (P := fun (j : Z) (c : list R) => length c = length C /\ (forall m, (lo <= m < j)%Z -> at_ c M m = Some (CG m M)) /\
     (forall M' m, (- n1 <= m <= n1)%Z -> M' <> M -> at_ c M' m = at_ C M' m)).
  destruct (zup_ind _ P (low_body n1 n2 M inv) (Z.to_nat (hi - lo + 1)) lo C) as (C' & E & L & A & B).
  - split; auto. split; auto. intros; lia.
  - intros j c Hj (L & A & B). unfold low_body.
    pose proof (cg_ladder n1 j n2 (M - j) N M ltac:(lia) ltac:(lia) ltac:(lia) ltac:(lia) ltac:(lia)) as LD.
    assert (E1: (if (j + 1 <=? n1)%Z
       then obind (rsqrt (IZR (n1 + j + 1) * IZR (n1 - j))) (fun k => obind (rd c ((M + 1) * nsize + j + 1 + n1)) (fun x => Some (k * x)))
       else Some 0) = Some (if (j + 1 <=? n1)%Z then sqrt (IZR (n1 + j + 1) * IZR (n1 - j)) * clebsch_gordan n1 (j + 1) n2 (M - j) N (M + 1) else 0)).
    { destruct (Z.leb_spec (j + 1) n1); auto. rewrite rsqrt_ok by (apply IZR_prod_nn; lia). cbn [obind].
      replace ((M + 1) * nsize + j + 1 + n1)%Z with ((M + 1) * nsize + (j + 1) + n1)%Z by lia. fold (at_ c (M + 1) (j + 1)).
      rewrite B by lia. rewrite HA by (unfold valid_m; lia). cbn [obind]. replace (M + 1 - (j + 1))%Z with (M - j)%Z by lia. auto. }
    assert (E2: (if (M - j + 1 <=? n2)%Z
       then obind (rsqrt (IZR (n2 + (M - j) + 1) * IZR (n2 - (M - j)))) (fun k => obind (rd c ((M + 1) * nsize + j + n1)) (fun x => Some (k * x)))
       else Some 0) = Some (if (M - j + 1 <=? n2)%Z then sqrt (IZR (n2 + (M - j) + 1) * IZR (n2 - (M - j))) * clebsch_gordan n1 j n2 (M - j + 1) N (M + 1) else 0)).
    { destruct (Z.leb_spec (M - j + 1) n2); auto. rewrite rsqrt_ok by (apply IZR_prod_nn; lia). cbn [obind].
      fold (at_ c (M + 1) j). rewrite B by lia. rewrite HA by (unfold valid_m; lia). cbn [obind]. replace (M + 1 - j)%Z with (M - j + 1)%Z by lia. auto. }
    rewrite E1, E2. cbn [obind].
    match goal with |- context [wr c _ ?v] => set (w := v) end.
    assert (Ew: w = CG j M).
    { unfold w. rewrite <- LD. unfold inv. field. lra. }
    destruct (at_wr c M j w ltac:(lia) ltac:(lia) ltac:(lia)) as (C2 & E3 & L3 & S3 & O3).
    exists C2. split; auto. split; [congruence|]. split.
    + intros m Hm. destruct (Z.eq_dec m j) as [ -> | Hne ]; [congruence|]. rewrite O3 by lia. apply A. lia.
    + intros M' m Hm Hne. rewrite O3 by auto. auto.
  - exists C'. split; auto. split; auto. split; auto. intros m Hm. apply A. unfold valid_m in Hm. lia.
Qed.

Lemma fill_ok : forall C, (Z.of_nat (length C) >= (N + 1) * nsize)%Z ->
  exists C', fill n1 n2 N C = Some C' /\ length C' = length C /\
    (forall M m, (0 <= M <= N)%Z -> valid_m M m -> at_ C' M m = Some (CG m M)).
Proof.
  intros C HL. unfold fill. set (lo := Z.max (- n1) (N - n2 - 1)).
  destruct (at_wr C N n1 1 HL ltac:(lia) ltac:(lia)) as (C1 & E1 & L1 & S1 & _). rewrite E1. cbn [obind].
  destruct (top_loop C1 ltac:(lia) S1) as (C2 & norm & E2 & L2 & A2 & B2). fold lo in E2, A2. rewrite E2. cbn [obind].
  pose proof (cg_top_pos n1 n2 N H0 HN) as HP.
  assert (Q: 0 < / Rsqr (CG n1 N)) by (apply Rinv_0_lt_compat, Rmult_lt_0_compat; lra).
  rewrite rsqrt_ok by lra. cbn [obind].
  assert (EI: sqrt norm = / CG n1 N).
  { rewrite B2. rewrite sqrt_inv, sqrt_Rsqr by lra. auto. }
  assert (Q2: 0 < / CG n1 N) by (apply Rinv_0_lt_compat; lra).
  rewrite rdiv_ok by lra. cbn [obind]. rewrite EI. replace (1 / / CG n1 N) with (CG n1 N) by (field; lra).
  destruct (norm_loop C2 ltac:(lia) A2) as (C3 & E3 & L3 & A3). fold lo in E3. rewrite E3. cbn [obind].
  set (P := fun (j : Z) (c : list R) => length c = length C /\ forall M m, (j < M <= N)%Z -> valid_m M m -> at_ c M m = Some (CG m M)).
  destruct (zdown_ind _ P (row_body n1 n2 N) (Z.to_nat N) (N - 1) C3) as (C4 & E4 & L4 & A4).
  - split; [lia|]. intros M m HM Hm. assert (M = N) as -> by lia. apply A3. unfold valid_m in Hm. lia.
  - intros j c Hj (L & A). destruct (row_ok c j ltac:(lia) ltac:(lia)) as (c' & E & L' & B & D).
    + intros m Hm. apply A; auto. lia.
    + exists c'. split; auto. split; [congruence|]. intros M m HM Hm. destruct (Z.eq_dec M j) as [ -> | Hne ]; auto.
      rewrite D; auto; [apply A; auto; lia|]. unfold valid_m in Hm. lia.
  - exists C4. split; auto. split; auto. intros M m HM Hm. apply A4; auto. lia.
Qed.

Lemma fill_too_small : forall C, (Z.of_nat (length C) < (N + 1) * nsize)%Z -> fill n1 n2 N C = None.
Proof. intros C HL. unfold fill. rewrite wr_out by lia. reflexivity. Qed.
End Fill.
