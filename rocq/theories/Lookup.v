(** Utilities::locate (/repo/src/Utilities.hpp l.510-526) and
    LinearInterpolatedTable::get_row (/repo/src/Table.hpp l.200-260), in exact
    arithmetic. *)
From Coq Require Import List Arith Lia Bool Reals Lra.
Import ListNotations.
Local Open Scope R_scope.

Definition gtb (x y : R) : bool := if Rlt_dec y x then true else false.       (* x > y *)
Definition leb (x y : R) : bool := if Rle_dec x y then true else false.       (* x <= y *)
Lemma gtb_spec : forall x y, reflect (y < x) (gtb x y).
Proof. intros. unfold gtb. destruct (Rlt_dec y x); constructor; auto. Qed.
Lemma leb_spec : forall x y, reflect (x <= y) (leb x y).
Proof. intros. unfold leb. destruct (Rle_dec x y); constructor; auto. Qed.

(** the loop of locate, l.514-521 ([fuel] bounds the number of iterations; None: not finished) *)
Fixpoint locate_loop (fuel : nat) (x : R) (a : nat -> R) (jl ju : nat) : option nat :=
  if (1 <? ju - jl)%nat then
    match fuel with
    | 0%nat => None
    | S k => let jm := ((ju + jl) / 2)%nat in
             if gtb x (a jm) then locate_loop k x a jm ju else locate_loop k x a jl jm
    end
  else Some jl.
(** l.510-526 *)
Definition locate (x : R) (a : nat -> R) (len : nat) : option nat :=
  match locate_loop len x a 0 len with
  | Some jl => Some (if (jl =? len - 1)%nat then (jl - 1)%nat else jl)
  | None => None
  end.

Lemma half : forall jl ju, (1 < ju - jl)%nat -> (jl < (ju + jl) / 2 < ju)%nat.
Proof.
  intros jl ju H. assert (E: (ju + jl = 2 * ((ju + jl) / 2) + (ju + jl) mod 2)%nat) by (apply Nat.div_mod; lia).
  pose proof (Nat.mod_upper_bound (ju + jl) 2 ltac:(lia)). lia.
Qed.
Lemma locate_loop_spec : forall fuel x a len jl ju, (jl < ju <= len)%nat -> (ju - jl <= S fuel)%nat ->
  (jl = 0%nat \/ a jl < x) -> (ju = len \/ x <= a ju) ->
  exists j, locate_loop fuel x a jl ju = Some j /\ (j < len)%nat /\ (j = 0%nat \/ a j < x) /\ (S j = len \/ x <= a (S j)).
Proof.
  induction fuel as [|k IH]; intros x a len jl ju HR HF HL HU; cbn [locate_loop]; destruct (Nat.ltb_spec 1 (ju - jl)) as [L|L].
  - lia.
  - exists jl. replace (S jl) with ju by lia. split; [auto|]. split; [lia|auto].
  - pose proof (half jl ju L) as HH. destruct (gtb_spec x (a ((ju + jl) / 2)%nat)).
    + apply IH; auto; lia.
    + apply IH; auto; try lia. right. lra.
  - exists jl. replace (S jl) with ju by lia. split; [auto|]. split; [lia|auto].
Qed.
Definition sorted (a : nat -> R) (len : nat) : Prop := forall i j, (i <= j < len)%nat -> a i <= a j.

Theorem locate_sorted : forall x a len, (2 <= len)%nat -> sorted a len ->
  exists i, locate x a len = Some i /\ (i <= len - 2)%nat /\
    (a 0%nat < x <= a (len - 1)%nat -> a i < x <= a (S i)) /\
    (x <= a 0%nat -> i = 0%nat) /\ (a (len - 1)%nat < x -> i = (len - 2)%nat).
Proof.
  intros x a len H HS. destruct (locate_loop_spec len x a len 0 len) as (j & E & A & B & C); try lia; auto.
  unfold locate. rewrite E. destruct (Nat.eqb_spec j (len - 1)) as [->|N].
  - exists (len - 1 - 1)%nat. split; auto. split; [lia|]. destruct B as [B|B]; [lia|].
    pose proof (HS 0 (len - 1) ltac:(lia))%nat. split; [lra|]. split; [lra|]. intros. lia.
  - exists j. split; auto. split; [lia|]. destruct C as [C|C]; [lia|].
    pose proof (HS (S j) (len - 1) ltac:(lia))%nat. split.
    + intros (K1 & K2). split; auto. destruct B as [->|]; lra.
    + split.
      * intros K. destruct B as [B|B]; auto. pose proof (HS 0 j ltac:(lia))%nat. lra.
      * intros K. lra.
Qed.

(* ---------------------------------------------- table rows *)

(** the loop of l.211-223 (ascending) and l.230-242 (descending, [asc] false) *)
Fixpoint row_loop (fuel : nat) (asc : bool) (key : nat -> R) (x : R) (lo hi : nat) : option (nat * nat) :=
  if (lo + 1 =? hi)%nat then Some (lo, hi)
  else match fuel with
       | 0%nat => None
       | S k => let m := ((lo + hi) / 2)%nat in
                if (if asc then leb (key m) x else leb x (key m)) then row_loop k asc key x m hi else row_loop k asc key x lo m
       end.
Inductive row_result := Row (f : nat -> R) | EndpointsEqual | Unfinished.
(** get_row: [rows i c] is column [c] of row [i], [n] the number of rows, [kc] the
    interpolating column *)
Definition get_row (rows : nat -> nat -> R) (n kc : nat) (x : R) : row_result :=
  let key i := rows i kc in
  let lo := 0%nat in let hi := (n - 1)%nat in
  let finish r := match r with
                  | Some (l, h) =>
                      let xfac := (x - key l) / (key h - key l) in                    (* l.252 *)
                      Row (fun c => (1 - xfac) * rows l c + xfac * rows h c)           (* l.254-258 *)
                  | None => Unfinished
                  end in
  if Rlt_dec (key lo) (key hi) then finish (row_loop n true key x lo hi)               (* l.210 *)
  else if Rlt_dec (key hi) (key lo) then finish (row_loop n false key x lo hi)         (* l.229 *)
  else EndpointsEqual.                                                                 (* l.249 *)

Lemma half2 : forall lo hi, (lo + 1 < hi)%nat -> (lo < (lo + hi) / 2 < hi)%nat.
Proof. intros lo hi H. rewrite Nat.add_comm. apply half. lia. Qed.
(** where the loop stops *)
Lemma row_loop_spec : forall fuel (asc : bool) key x n lo hi, (lo < hi < n)%nat -> (hi - lo <= S fuel)%nat ->
  (lo = 0%nat \/ (if asc then key lo <= x else x <= key lo)) ->
  (hi = (n - 1)%nat \/ (if asc then x < key hi else key hi < x)) ->
  exists l, row_loop fuel asc key x lo hi = Some (l, S l) /\ (S l < n)%nat /\
    (l = 0%nat \/ (if asc then key l <= x else x <= key l)) /\
    (S l = (n - 1)%nat \/ (if asc then x < key (S l) else key (S l) < x)).
Proof.
  induction fuel as [|k IH]; intros asc key x n lo hi HR HF HL HU; cbn [row_loop]; destruct (Nat.eqb_spec (lo + 1) hi) as [E|E].
  - exists lo. replace (S lo) with hi by lia. split; [auto|]. split; [lia|auto].
  - lia.
  - exists lo. replace (S lo) with hi by lia. split; [auto|]. split; [lia|auto].
  - pose proof (half2 lo hi ltac:(lia)) as HH. destruct asc.
    + destruct (leb_spec (key ((lo + hi) / 2)%nat) x).
      * apply (IH true); auto; lia.
      * apply (IH true); auto; try lia. right. lra.
    + destruct (leb_spec x (key ((lo + hi) / 2)%nat)).
      * apply (IH false); auto; lia.
      * apply (IH false); auto; try lia. right. lra.
Qed.

(** strictly monotone key column *)
Definition ascending (key : nat -> R) (n : nat) : Prop := forall i j, (i < j < n)%nat -> key i < key j.
Definition descending (key : nat -> R) (n : nat) : Prop := forall i j, (i < j < n)%nat -> key j < key i.
(** straight line through two points *)
Definition line (x0 y0 x1 y1 x : R) : R := y0 + (y1 - y0) * ((x - x0) / (x1 - x0)).

Section Rows.
Variable rows : nat -> nat -> R.
Variables n kc : nat.
Notation key := (fun i => rows i kc).
Hypothesis Hn : (2 <= n)%nat.

(** in both cases: the row returned is on the line through the rows of some cell l,
    which is the one that contains x, or the nearest one *)
Theorem get_row_cell : forall x, ascending key n \/ descending key n ->
  exists l f, get_row rows n kc x = Row f /\ (S l < n)%nat /\
    (forall c, f c = line (key l) (rows l c) (key (S l)) (rows (S l) c) x) /\
    (forall i, (S i < n)%nat -> Rmin (key i) (key (S i)) < x < Rmax (key i) (key (S i)) -> i = l).
Proof.
  intros x [A|D].
  - destruct (row_loop_spec n true key x n 0 (n - 1)) as (l & E & L & B & C); try lia; auto.
    exists l. eexists. split; [|split; [exact L|split]].
    + unfold get_row. destruct (Rlt_dec (rows 0%nat kc) (rows (n - 1)%nat kc)) as [K|K].
      * rewrite E. reflexivity.
      * exfalso. apply K. apply (A 0 (n - 1))%nat. lia.
    + intros c. cbn beta. unfold line. pose proof (A l (S l) ltac:(lia)). field. lra.
    + intros i Hi K. pose proof (A i (S i) ltac:(lia)) as Ki. cbn beta in *. rewrite Rmin_left, Rmax_right in K by lra.
      destruct (lt_eq_lt_dec i l) as [[H|H]|H]; auto; exfalso.
      * destruct B as [B|B]; [lia|]. assert (rows (S i) kc <= rows l kc).
        { destruct (Nat.eq_dec (S i) l) as [->|]; [lra|]. apply Rlt_le, (A (S i) l). lia. } lra.
      * destruct C as [C|C]; [lia|]. assert (rows (S l) kc <= rows i kc).
        { destruct (Nat.eq_dec (S l) i) as [<-|]; [lra|]. apply Rlt_le, (A (S l) i). lia. } lra.
  - destruct (row_loop_spec n false key x n 0 (n - 1)) as (l & E & L & B & C); try lia; auto.
    exists l. eexists. split; [|split; [exact L|split]].
    + unfold get_row. pose proof (D 0 (n - 1) ltac:(lia))%nat as K0. cbn beta in K0.
      destruct (Rlt_dec (rows 0%nat kc) (rows (n - 1)%nat kc)) as [K|K]; [lra|].
      destruct (Rlt_dec (rows (n - 1)%nat kc) (rows 0%nat kc)) as [K'|K']; [|lra].
      rewrite E. reflexivity.
    + intros c. cbn beta. unfold line. pose proof (D l (S l) ltac:(lia)). field. lra.
    + intros i Hi K. pose proof (D i (S i) ltac:(lia)) as Ki. cbn beta in *. rewrite Rmin_right, Rmax_left in K by lra.
      destruct (lt_eq_lt_dec i l) as [[H|H]|H]; auto; exfalso.
      * destruct B as [B|B]; [lia|]. assert (rows l kc <= rows (S i) kc).
        { destruct (Nat.eq_dec (S i) l) as [->|]; [lra|]. apply Rlt_le, (D (S i) l). lia. } lra.
      * destruct C as [C|C]; [lia|]. assert (rows i kc <= rows (S l) kc).
        { destruct (Nat.eq_dec (S l) i) as [<-|]; [lra|]. apply Rlt_le, (D (S l) i). lia. } lra.
Qed.
Theorem get_row_grid : forall i, (i < n)%nat -> ascending key n \/ descending key n ->
  exists f, get_row rows n kc (rows i kc) = Row f /\ forall c, f c = rows i c.
Proof.
  intros i Hi AD. set (x := rows i kc).
  assert (KEY: forall asc : bool, (if asc then ascending key n else descending key n) ->
    forall l, (S l < n)%nat -> (l = 0%nat \/ (if asc then key l <= x else x <= key l)) ->
    (S l = (n - 1)%nat \/ (if asc then x < key (S l) else key (S l) < x)) -> i = l \/ i = S l).
  { intros asc M l L B C. destruct (lt_eq_lt_dec i l) as [[H|H]|H]; auto.
    - exfalso. destruct B as [B|B]; [lia|]. destruct asc; pose proof (M i l ltac:(lia)); cbn beta in *; unfold x in *; lra.
    - destruct (lt_eq_lt_dec i (S l)) as [[H'|H']|H']; auto; [lia|]. exfalso.
      destruct C as [C|C]; [lia|]. destruct asc; pose proof (M (S l) i ltac:(lia)); cbn beta in *; unfold x in *; lra. }
  destruct AD as [A|D].
  - destruct (row_loop_spec n true key x n 0 (n - 1)) as (l & E & L & B & C); try lia; auto.
    specialize (KEY true A l L B C). eexists. split.
    + unfold get_row. destruct (Rlt_dec (rows 0%nat kc) (rows (n - 1)%nat kc)) as [K|K].
      * rewrite E. reflexivity.
      * exfalso. apply K. apply (A 0 (n - 1))%nat. lia.
    + intros c. cbn beta. pose proof (A l (S l) ltac:(lia)) as K. cbn beta in K. unfold x. destruct KEY as [->| ->]; field; lra.
  - destruct (row_loop_spec n false key x n 0 (n - 1)) as (l & E & L & B & C); try lia; auto.
    specialize (KEY false D l L B C). eexists. split.
    + unfold get_row. pose proof (D 0 (n - 1) ltac:(lia))%nat as K0. cbn beta in K0.
      destruct (Rlt_dec (rows 0%nat kc) (rows (n - 1)%nat kc)) as [K|K]; [lra|].
      destruct (Rlt_dec (rows (n - 1)%nat kc) (rows 0%nat kc)) as [K'|K']; [|lra].
      rewrite E. reflexivity.
    + intros c. cbn beta. pose proof (D l (S l) ltac:(lia)) as K. cbn beta in K. unfold x. destruct KEY as [->| ->]; field; lra.
Qed.
(** between two neighbouring grid points *)
Theorem get_row_between : forall x i, (S i < n)%nat -> ascending key n \/ descending key n ->
  Rmin (key i) (key (S i)) < x < Rmax (key i) (key (S i)) ->
  exists f, get_row rows n kc x = Row f /\
    forall c, f c = line (key i) (rows i c) (key (S i)) (rows (S i) c) x /\
              Rmin (rows i c) (rows (S i) c) <= f c <= Rmax (rows i c) (rows (S i) c).
Proof.
  intros x i Hi AD K. destruct (get_row_cell x AD) as (l & f & E & L & F & U). assert (i = l) by auto. subst i. cbn beta in K.
  exists f. split; auto. intros c. split; [apply F|]. rewrite F. unfold line.
  assert (0 <= (x - rows l kc) / (rows (S l) kc - rows l kc) <= 1).
  { unfold Rdiv. destruct (Rle_dec (rows l kc) (rows (S l) kc)) as [Q|Q].
    - rewrite Rmin_left, Rmax_right in K by lra. split.
      + apply Rmult_le_pos; [lra|]. left. apply Rinv_0_lt_compat. lra.
      + apply Rmult_le_reg_r with (rows (S l) kc - rows l kc); [lra|]. rewrite Rmult_assoc, Rinv_l; lra.
    - rewrite Rmin_right, Rmax_left in K by lra.
      replace ((x - rows l kc) * / (rows (S l) kc - rows l kc)) with ((rows l kc - x) * / (rows l kc - rows (S l) kc)) by (field; lra).
      split.
      + apply Rmult_le_pos; [lra|]. left. apply Rinv_0_lt_compat. lra.
      + apply Rmult_le_reg_r with (rows l kc - rows (S l) kc); [lra|]. rewrite Rmult_assoc, Rinv_l; lra. }
  set (u := (x - rows l kc) / (rows (S l) kc - rows l kc)) in *.
  unfold Rmin, Rmax. destruct (Rle_dec (rows l c) (rows (S l) c)); nra.
Qed.
End Rows.
Theorem get_row_equal_endpoints : forall rows n kc x, rows 0%nat kc = rows (n - 1)%nat kc -> get_row rows n kc x = EndpointsEqual.
Proof. intros rows n kc x E. unfold get_row. rewrite E. destruct (Rlt_dec _ _) as [K|K]; [lra|]. reflexivity. Qed.
