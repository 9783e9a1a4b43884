(** Shape distribution averages (/repo/src/ShapeAveragingTask.hpp l.127-166,
    l.258-301 and l.395-441), in exact real arithmetic. *)
From Coq Require Import List Arith Lia Bool Reals Lra.
Import ListNotations.
Local Open Scope R_scope.

(** An output object: [ncol] quantities (2 absorption coefficients, 3 extinction
    coefficients, 16 matrix elements) for every angle or direction. *)
Notation coeffs := (nat -> nat -> R).
Definition put (o : coeffs) (q t : nat) (v : R) : coeffs :=
  fun q' t' => if Nat.eqb q' q && Nat.eqb t' t then v else o q' t'.
(** the statement for one quantity and angle, applied in the double loop *)
Definition for_each (ncol n : nat) (f : nat -> nat -> R -> R) (o : coeffs) : coeffs :=
  fold_left (fun o t => fold_left (fun o q => put o q t (f q t (o q t))) (seq 0 ncol) o) (seq 0 n) o.

Notation shape := (R * (nat -> nat -> R))%type.      (* weight, input coefficients *)

(** l.137-157 *)
Definition accumulate (ncol n : nat) (st : R * coeffs) (s : shape) : R * coeffs :=
  (fst st + fst s, for_each ncol n (fun q t v => v + fst s * snd s q t) (snd st)).
(** execute(): l.133-136 set to zero, l.140-157 accumulate, l.160-164 normalise *)
Definition shape_average (ncol n : nat) (shapes : list shape) (old : coeffs) : coeffs :=
  let zeroed := for_each ncol n (fun _ _ _ => 0) old in
  let '(norm, sum) := fold_left (accumulate ncol n) shapes (0, zeroed) in
  let norm_inv := 1 / norm in
  for_each ncol n (fun _ _ v => v * norm_inv) sum.

Lemma put_same : forall o q t v, put o q t v q t = v.
Proof. intros. unfold put. rewrite !Nat.eqb_refl. reflexivity. Qed.
Lemma put_other : forall o q t v q' t', (q' <> q \/ t' <> t) -> put o q t v q' t' = o q' t'.
Proof. intros. unfold put. destruct (Nat.eqb_spec q' q), (Nat.eqb_spec t' t); auto. subst. tauto. Qed.

Lemma inner : forall f ncol t o q' t', 
  fold_left (fun o q => put o q t (f q t (o q t))) (seq 0 ncol) o q' t' = if Nat.ltb q' ncol && Nat.eqb t' t then f q' t (o q' t) else o q' t'.
Proof.
  intros f ncol t o. induction ncol as [|n IH]; intros q' t'; [reflexivity|].
  rewrite seq_S, fold_left_app. cbn [fold_left plus]. set (o1 := fold_left _ (seq 0 n) o) in *.
  destruct (Nat.eq_dec q' n) as [->|Nq].
  - destruct (Nat.eqb_spec t' t) as [->|Nt].
    + rewrite put_same, IH, Nat.ltb_irrefl, Nat.eqb_refl, !andb_true_r. destruct (Nat.ltb_spec n (S n)); [reflexivity|lia].
    + rewrite put_other by auto. rewrite IH. destruct (Nat.eqb_spec t' t); [tauto|]. rewrite !andb_false_r. reflexivity.
  - rewrite put_other by auto. rewrite IH. destruct (Nat.ltb_spec q' n), (Nat.ltb_spec q' (S n)); try reflexivity; lia.
Qed.
Lemma for_each_at : forall ncol n f o q t, for_each ncol n f o q t = if Nat.ltb q ncol && Nat.ltb t n then f q t (o q t) else o q t.
Proof.
  intros ncol n f o. unfold for_each. induction n as [|n IH]; intros q t; [rewrite andb_false_r; reflexivity|].
  rewrite seq_S, fold_left_app. cbn [fold_left plus]. rewrite inner.
  destruct (Nat.ltb_spec q ncol); cbn [andb].
  - destruct (Nat.eqb_spec t n) as [->|N].
    + rewrite IH. destruct (Nat.ltb_spec q ncol); [|lia]. rewrite Nat.ltb_irrefl. cbn [andb]. destruct (Nat.ltb_spec n (S n)); [reflexivity|lia].
    + rewrite IH. destruct (Nat.ltb_spec q ncol); [|lia]. cbn [andb]. destruct (Nat.ltb_spec t n), (Nat.ltb_spec t (S n)); try reflexivity; lia.
  - rewrite IH. destruct (Nat.ltb_spec q ncol); [lia|]. reflexivity.
Qed.

(* ---------------------------------------------- specification *)
Fixpoint rsum {A} (f : A -> R) (l : list A) : R := match l with [] => 0 | x :: l => f x + rsum f l end.
Definition weights (l : list shape) : R := rsum fst l.
(** sum_i w_i Q_i / sum_i w_i *)
Definition weighted_mean (q t : nat) (l : list shape) : R := rsum (fun s => fst s * snd s q t) l / weights l.

Lemma rsum_app : forall A (f : A -> R) a b, rsum f (a ++ b) = rsum f a + rsum f b.
Proof. induction a as [|x a IH]; intros b; cbn [rsum app]; [lra|]. rewrite IH. lra. Qed.
Lemma accumulate_all : forall ncol n l st q t, (q < ncol)%nat -> (t < n)%nat ->
  fst (fold_left (accumulate ncol n) l st) = fst st + rsum fst l /\
  snd (fold_left (accumulate ncol n) l st) q t = snd st q t + rsum (fun s => fst s * snd s q t) l.
Proof.
  intros ncol n l. induction l as [|s l IH]; intros st q t Hq Ht; cbn [fold_left rsum]; [split; lra|].
  destruct (IH (accumulate ncol n st s) q t Hq Ht) as (A & B). rewrite A, B. unfold accumulate. cbn [fst snd]. rewrite for_each_at.
  destruct (Nat.ltb_spec q ncol), (Nat.ltb_spec t n); try lia. cbn [andb]; cbn beta iota. split; [lra|]. rewrite Rplus_assoc. reflexivity.
Qed.
Theorem average_is_mean : forall ncol n l old q t, (q < ncol)%nat -> (t < n)%nat -> weights l <> 0 ->
  shape_average ncol n l old q t = weighted_mean q t l.
Proof.
  intros ncol n l old q t Hq Ht HW. unfold shape_average.
  destruct (accumulate_all ncol n l (0, for_each ncol n (fun _ _ _ => 0) old) q t Hq Ht) as (A & B). cbn [fst snd] in A, B.
  destruct (fold_left (accumulate ncol n) l _) as (norm, sum) eqn:E. cbn [fst snd] in A, B.
  rewrite for_each_at, B, A, for_each_at. destruct (Nat.ltb_spec q ncol), (Nat.ltb_spec t n); try lia. cbn [andb].
  unfold weighted_mean, weights in *. field. auto.
Qed.
Lemma mean_bounds : forall q t l lo hi, (forall s, In s l -> 0 <= fst s /\ lo <= snd s q t <= hi) -> 0 < weights l ->
  lo <= weighted_mean q t l <= hi.
Proof.
  intros q t l lo hi H HW.
  assert (K: lo * weights l <= rsum (fun s => fst s * snd s q t) l <= hi * weights l).
  { clear HW. unfold weights. induction l as [|s l IH]; cbn [rsum]; [lra|].
    destruct (H s (or_introl eq_refl)) as (A & B). specialize (IH (fun s Hs => H s (or_intror Hs))). nra. }
  unfold weighted_mean. split.
  - apply Rmult_le_reg_r with (weights l); auto. unfold Rdiv. rewrite Rmult_assoc, Rinv_l by lra. lra.
  - apply Rmult_le_reg_r with (weights l); auto. unfold Rdiv. rewrite Rmult_assoc, Rinv_l by lra. lra.
Qed.
Lemma mean_scale : forall q t l k, k <> 0 -> weights l <> 0 ->
  weighted_mean q t (map (fun s => (k * fst s, snd s)) l) = weighted_mean q t l.
Proof.
  intros q t l k Hk HW. unfold weighted_mean, weights in *.
  assert (A: rsum fst (map (fun s : shape => (k * fst s, snd s)) l) = k * rsum fst l).
  { clear. induction l as [|s l IH]; cbn [map rsum fst]; [lra|]. rewrite IH. lra. }
  assert (B: rsum (fun s => fst s * snd s q t) (map (fun s : shape => (k * fst s, snd s)) l) = k * rsum (fun s => fst s * snd s q t) l).
  { clear. induction l as [|s l IH]; cbn [map rsum fst snd]; [lra|]. rewrite IH. lra. }
  rewrite A, B. field. auto.
Qed.
Lemma mean_const : forall q t l v, (forall s, In s l -> snd s q t = v) -> weights l <> 0 -> weighted_mean q t l = v.
Proof.
  intros q t l v H HW. unfold weighted_mean.
  assert (A: rsum (fun s => fst s * snd s q t) l = v * weights l).
  { clear HW. unfold weights. induction l as [|s l IH]; cbn [rsum]; [lra|]. rewrite IH by (intros; apply H; right; auto).
    rewrite (H s (or_introl eq_refl)). lra. }
  rewrite A. field. auto.
Qed.
