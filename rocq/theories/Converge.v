(** The search for the expansion order of one T-matrix
    (/repo/src/TMatrixResource.hpp l.122-131, l.579-776, l.894-1130,
     /repo/src/InteractionResource.hpp l.478-496,
     /repo/src/ConvergedSizeResources.hpp l.37-83). *)
From Coq Require Import List Arith Lia Bool ZArith Floats.SpecFloat.
Import ListNotations.

(** Floating point numbers with IEEE semantics (float_type is double, or a
    quadruple precision type: [prec] and [emax] are parameters). *)
Section Search.
Variables prec emax : Z.
Notation fl := spec_float.
Definition fsub := SFsub prec emax.
Definition fdiv := SFdiv prec emax.
(** x > 0., x <= y: false for NaN operands (IEEE 754 comparison) *)
Definition positive (x : fl) : bool := SFltb (S754_zero false) x.
Definition below (x y : fl) : bool := SFleb x y.
Definition f_one : fl := SFone prec emax.

(** State of one ConvergedSizeResources (ConvergedSizeResources.hpp l.41-67; its
    three pointers are set together and to the objects of the same order, hence
    represented by [c_order], the index of that order) *)
Record conv := mkConv { c_iter : nat; c_nmax : nat; c_order : option nat; c_done : bool; c_dQs : option fl; c_dQe : option fl }.
(** l.73-77; None stands for the initial value -1. *)
Definition conv0 : conv := mkConv 0 0 None false None None.

(** State of one TMatrixResource: order, efficiency factors, relative changes and,
    for every m, the index of the order whose elements are stored (None: zeros).
    [Fresh] and [First] stand for the sentinel values -2. and -1. of both changes. *)
Inductive change := Fresh | First | Change (s e : fl).
Record tmat := mkT { t_nmax : nat; t_Qs : fl; t_Qe : fl; t_change : change; t_part : nat -> option nat }.
(** constructor, TMatrixResource.hpp l.122-131, and ResetTMatrixResourceTask, l.1271-1282 *)
Definition tmat0 : tmat := mkT 0 (S754_zero false) (S754_zero false) Fresh (fun _ => None).

(** All state of one block, and the order for which the InteractionResource was
    filled last (InteractionResource.hpp) *)
Record st := mkSt { s_conv : conv; s_T : tmat; s_int : option nat }.
Definition st0 : st := mkSt conv0 tmat0 None.

(** Inputs: order [nmax i] and efficiency factors [Qs i], [Qe i] of the i-th order
    task (l.738-752, a function of the m=0 elements of that order, which do not
    depend on what was stored before: the auxiliary matrices are reset and every
    element of the block is assigned, l.590 and l.709-723), tolerance [tol]. *)
Variable nmax : nat -> nat.
Variables Qs Qe : nat -> fl.
Variable tol : fl.

(** fabs((old - new) / new), l.757-761 *)
Definition rel_change (old new : fl) : fl := SFabs (fdiv (fsub old new) new).

(** InteractionTask::execute, InteractionResource.hpp l.478-500: skipped once converged *)
Definition interaction (i : nat) (s : st) : st :=
  if c_done (s_conv s) then s else mkSt (s_conv s) (s_T s) (Some i).

(** TMatrixM0Task::execute, l.579-776 *)
Definition m0_task (i : nat) (s : st) : st :=
  if c_done (s_conv s) then s                                           (* l.585-588 *)
  else
    let T := s_T s in
    let ch := match t_change T with
              | Fresh => First                                          (* l.753-755 *)
              | _ => Change (rel_change (t_Qs T) (Qs i)) (rel_change (t_Qe T) (Qe i))   (* l.757-761 *)
              end in
    let T' := mkT (nmax i) (Qs i) (Qe i) ch
                  (fun m => if m =? 0 then Some i else t_part T m) in   (* l.709-727, l.738-752 *)
    let cv := s_conv s in
    let cv1 := mkConv (S (c_iter cv)) (nmax i) (Some i) (c_done cv) (c_dQs cv) (c_dQe cv) in   (* l.729-734 *)
    let cv' := match ch with
               | Change a b =>
                   if positive a then                                   (* l.764 *)
                     mkConv (c_iter cv1) (c_nmax cv1) (c_order cv1)
                            (c_done cv1 || (below a tol && below b tol)) (Some a) (Some b)   (* l.765-771 *)
                   else cv1
               | _ => cv1                                               (* -1. > 0. is false *)
               end in
    mkSt cv' T' (s_int s).

(** the order tasks of one block run in sequence I_0 M_0 I_1 M_1 ... (C14) *)
Definition order_step (s : st) (i : nat) : st := m0_task i (interaction i s).
Definition search (n : nat) : st := fold_left order_step (seq 0 n) st0.

(** TMatrixMAllTask::execute for m, l.894-1130, without assertions: returns when
    m exceeds the order found; otherwise computes the elements from the objects the
    ConvergedSizeResources points at and the InteractionResource.  The result
    records the two orders used. *)
Definition mall_task (m : nat) (s : st) : option (option nat * option nat) :=
  if c_nmax (s_conv s) <? m then None else Some (c_order (s_conv s), s_int s).
(** with assertions (l.897): stops the program unless converged *)
Definition mall_asserts (s : st) : bool := c_done (s_conv s).

(* --------------------------------------------- specification *)
(** order i (not the first) is accepted: both relative changes of the efficiency
    factors with respect to the previous order are within tolerance, and the
    scattering factor did change *)
Definition accepted (i : nat) : Prop :=
  let relative_change (old new : fl) := SFabs (SFdiv prec emax (SFsub prec emax old new) new) in
  1 <= i /\ SFleb (relative_change (Qs (i - 1)) (Qs i)) tol = true /\
  SFleb (relative_change (Qe (i - 1)) (Qe i)) tol = true /\
  SFltb (S754_zero false) (relative_change (Qs (i - 1)) (Qs i)) = true.

(* --------------------------------------------- proofs *)
Lemma accepted_same : forall i, accepted i = (1 <= i /\ below (rel_change (Qs (i - 1)) (Qs i)) tol = true /\
  below (rel_change (Qe (i - 1)) (Qe i)) tol = true /\ positive (rel_change (Qs (i - 1)) (Qs i)) = true).
Proof. reflexivity. Qed.
Lemma search_S : forall n, search (S n) = order_step (search n) n.
Proof. intros n. unfold search. rewrite seq_S, fold_left_app. reflexivity. Qed.

Definition at_order (s : st) (i : nat) : Prop :=
  c_order (s_conv s) = Some i /\ c_nmax (s_conv s) = nmax i /\ c_iter (s_conv s) = S i /\ t_nmax (s_T s) = nmax i /\
  t_part (s_T s) 0 = Some i /\ s_int s = Some i /\ t_Qs (s_T s) = Qs i /\ t_Qe (s_T s) = Qe i /\ t_change (s_T s) <> Fresh /\
  (forall m, 0 < m -> t_part (s_T s) m = None).

Lemma search_before : forall n, (forall i, i <= n -> ~ accepted i) ->
  at_order (search (S n)) n /\ c_done (s_conv (search (S n))) = false.
Proof.
  induction n as [|n IH]; intros H.
  - split; [|reflexivity]. repeat split; cbn; try discriminate. intros m Hm. destruct m; [lia|reflexivity].
  - destruct IH as ((A1 & A2 & A3 & A4 & A5 & A6 & A7 & A8 & A9 & A10) & B); [intros; apply H; lia|].
    rewrite search_S. set (s := search (S n)) in *. unfold order_step, interaction, m0_task. rewrite B. cbn [s_conv s_T]. rewrite B.
    assert (E: (match t_change (s_T s) with Fresh => First | _ => Change (rel_change (t_Qs (s_T s)) (Qs (S n))) (rel_change (t_Qe (s_T s)) (Qe (S n))) end)
               = Change (rel_change (Qs n) (Qs (S n))) (rel_change (Qe n) (Qe (S n)))).
    { rewrite A7, A8. destruct (t_change (s_T s)); congruence. }
    rewrite E. pose proof (H (S n) (le_n _)) as K. rewrite accepted_same in K. rewrite Nat.sub_succ, Nat.sub_0_r in K.
    destruct (positive (rel_change (Qs n) (Qs (S n)))) eqn:P; cbn [s_conv s_T s_int c_done c_order c_nmax c_iter t_nmax t_part t_Qs t_Qe t_change].
    + split; [repeat split; cbn; auto; try discriminate; intros m Hm; destruct m; [lia|cbn; apply A10; lia]|].
      apply not_true_is_false. intros X. apply K. split; [lia|]. cbn [orb] in X. apply andb_true_iff in X. tauto.
    + split; [repeat split; cbn; auto; try discriminate; intros m Hm; destruct m; [lia|cbn; apply A10; lia]|auto].
Qed.
Lemma done_stays : forall s i, c_done (s_conv s) = true -> order_step s i = s.
Proof. intros s i H. unfold order_step, interaction. rewrite H. unfold m0_task. rewrite H. reflexivity. Qed.
Lemma search_at : forall i, (forall j, j < i -> ~ accepted j) -> accepted i ->
  at_order (search (S i)) i /\ c_done (s_conv (search (S i))) = true.
Proof.
  intros i H K. rewrite accepted_same in K. destruct K as (K1 & K2 & K3 & K4). destruct i as [|n]; [lia|]. rewrite Nat.sub_succ, Nat.sub_0_r in *.
  destruct (search_before n) as ((A1 & A2 & A3 & A4 & A5 & A6 & A7 & A8 & A9 & A10) & B); [intros; apply H; lia|].
  rewrite search_S. set (s := search (S n)) in *. unfold order_step, interaction, m0_task. rewrite B. cbn [s_conv s_T]. rewrite B.
  assert (E: (match t_change (s_T s) with Fresh => First | _ => Change (rel_change (t_Qs (s_T s)) (Qs (S n))) (rel_change (t_Qe (s_T s)) (Qe (S n))) end)
             = Change (rel_change (Qs n) (Qs (S n))) (rel_change (Qe n) (Qe (S n)))).
  { rewrite A7, A8. destruct (t_change (s_T s)); congruence. }
  rewrite E, K4, K2, K3. split; [repeat split; cbn; auto; try discriminate; intros m Hm; destruct m; [lia|cbn; apply A10; lia]|].
  reflexivity.
Qed.
Theorem search_found : forall n i, i < n -> (forall j, j < i -> ~ accepted j) -> accepted i ->
  at_order (search n) i /\ c_done (s_conv (search n)) = true.
Proof.
  intros n i Hi H K. destruct (search_at i H K) as (A & B).
  assert (E: forall k, search (S i + k) = search (S i)).
  { induction k; [f_equal; lia|]. rewrite Nat.add_succ_r, search_S, IHk. apply done_stays. auto. }
  replace n with (S i + (n - S i)) by lia. rewrite E. auto.
Qed.
Theorem search_not_found : forall n, 0 < n -> (forall i, i < n -> ~ accepted i) ->
  at_order (search n) (n - 1) /\ c_done (s_conv (search n)) = false.
Proof.
  intros n Hn H. destruct n as [|n]; [lia|]. rewrite Nat.sub_succ, Nat.sub_0_r. apply search_before. intros. apply H. lia.
Qed.
Lemma accepted_dec : forall i, {accepted i} + {~ accepted i}.
Proof.
  intros i. rewrite accepted_same. destruct (le_dec 1 i), (below (rel_change (Qs (i - 1)) (Qs i)) tol), (below (rel_change (Qe (i - 1)) (Qe i)) tol),
    (positive (rel_change (Qs (i - 1)) (Qs i))); (left; repeat split; auto; fail) || (right; intros (? & ? & ? & ?); auto; congruence).
Qed.
Lemma first_accepted : forall n, (exists i, i < n /\ accepted i /\ forall j, j < i -> ~ accepted j) \/ (forall i, i < n -> ~ accepted i).
Proof.
  induction n as [|n [(i & A & B & C)|IH]].
  - right. intros. lia.
  - left. exists i. auto.
  - destruct (accepted_dec n) as [A|A].
    + left. exists n. split; [lia|auto].
    + right. intros i Hi. destruct (Nat.eq_dec i n) as [->|]; auto. apply IH. lia.
Qed.
(** no change at all is never accepted *)
Theorem no_change_positive : forall q, positive (rel_change q q) = false.
Proof.
  intros q. unfold rel_change, fdiv, fsub, positive. destruct q as [s|s| |s m e]; try reflexivity; try (destruct s; reflexivity).
  assert (E: SFsub prec emax (S754_finite s m e) (S754_finite s m e) = S754_zero false).
  { unfold SFsub. cbn zeta. rewrite Z.sub_diag. reflexivity. }
  rewrite E. destruct s; reflexivity.
Qed.
End Search.
