(** Progress reports: TaskCounter (/repo/src/QuickSchedWrapper.hpp l.106-149),
    as used by QuickSched::execute_tasks (l.375-386) and WrappedTask::execute. *)
From Coq Require Import List Arith Lia Bool ZArith QArith Qround Lqa.
Import ListNotations.

(** std::round of a non-negative number: half away from zero *)
Definition round_half_up (x : Q) : Z := Qfloor (x + (1 # 2)).

(** set_output_fraction(0.01), l.131-134: the double 0.01 is
    5764607523034235 / 2^59; the product is rounded to a double by [rd]. *)
Definition d001 : Q := 5764607523034235 # (2 ^ 59).
Definition interval (rd : Q -> Q) (total : nat) : Z := round_half_up (rd (d001 * inject_Z (Z.of_nat total))).

(** what is used of rounding to the nearest double *)
Definition rounding (rd : Q -> Q) : Prop :=
  (forall x y, x <= y -> rd x <= rd y)%Q /\ (rd (1 # 2) == 1 # 2)%Q /\ (rd (511 # 1024) == 511 # 1024)%Q.

Lemma floor_ge : forall x n, (inject_Z n <= x)%Q -> (n <= Qfloor x)%Z.
Proof. intros x n H. rewrite <- (Qfloor_Z n). apply Qfloor_resp_le. auto. Qed.
Lemma floor_lt : forall x n, (x < inject_Z n)%Q -> (Qfloor x < n)%Z.
Proof. intros x n H. assert (K: (inject_Z (Qfloor x) < inject_Z n)%Q) by (eapply Qle_lt_trans; [apply Qfloor_le|auto]). rewrite <- Zlt_Qlt in K. auto. Qed.

Lemma prod_ge : forall n, (50 <= n)%nat -> (1 # 2 <= d001 * inject_Z (Z.of_nat n))%Q.
Proof. intros n H. unfold d001, Qle, Qmult, inject_Z. cbn [Qnum Qden]. lia. Qed.
Lemma prod_lt : forall n, (n < 50)%nat -> (d001 * inject_Z (Z.of_nat n) <= 511 # 1024)%Q.
Proof. intros n H. unfold d001, Qle, Qmult, inject_Z. cbn [Qnum Qden]. lia. Qed.
Lemma prod_pos : forall n, (0 <= d001 * inject_Z (Z.of_nat n))%Q.
Proof. intros n. unfold d001, Qle, Qmult, inject_Z. cbn [Qnum Qden]. lia. Qed.

Theorem interval_zero_iff : forall rd total, rounding rd -> (0 <= rd 0)%Q -> (interval rd total = 0%Z <-> (total < 50)%nat).
Proof.
  intros rd n (M & H1 & H2) H0. unfold interval, round_half_up. split.
  - intros E. destruct (le_lt_dec 50 n) as [K|K]; auto. exfalso.
    assert (1 # 2 <= rd (d001 * inject_Z (Z.of_nat n)))%Q by (rewrite <- H1 at 1; apply M, prod_ge; auto).
    assert (1 <= Qfloor (rd (d001 * inject_Z (Z.of_nat n)) + (1 # 2))%Q)%Z by (apply floor_ge; change (inject_Z 1) with 1%Q; lra). lia.
  - intros K.
    assert (A: (rd (d001 * inject_Z (Z.of_nat n)) <= 511 # 1024)%Q) by (rewrite <- H2; apply M, prod_lt; auto).
    assert (B: (0 <= rd (d001 * inject_Z (Z.of_nat n)))%Q) by (eapply Qle_trans; [exact H0|]; apply M, prod_pos).
    assert (0 <= Qfloor (rd (d001 * inject_Z (Z.of_nat n)) + (1 # 2))%Q)%Z by (apply floor_ge; change (inject_Z 0) with 0%Q; lra).
    assert (Qfloor (rd (d001 * inject_Z (Z.of_nat n)) + (1 # 2))%Q < 1)%Z by (apply floor_lt; change (inject_Z 1) with 1%Q; lra). lia.
Qed.

(** task_done, l.140-148, by concurrent threads: every finished task increments the
    counter, then reads it, then reports when the value read is a multiple of the
    interval.  [AInc] and [ALoad] are the two atomic accesses; the state is the
    counter, the number of calls between the two accesses, and the reports so far.
    [%] with a zero divisor is undefined. *)
Inductive action := AInc | ALoad.
Inductive report := Report (done : Z) | Undefined.
Record counter := mkCounter { k_done : nat; k_mid : nat; k_out : list report }.
Definition counter0 : counter := mkCounter 0 0 [].
Definition act (interval : Z) (s : counter) (a : action) : option counter :=
  match a with
  | AInc => Some (mkCounter (S (k_done s)) (S (k_mid s)) (k_out s))                       (* l.141 *)
  | ALoad =>
      match k_mid s with
      | 0%nat => None
      | S k => Some (mkCounter (k_done s) k
                 (k_out s ++ (if (interval =? 0)%Z then [Undefined]                        (* l.143 *)
                              else if (Z.of_nat (k_done s) mod interval =? 0)%Z then [Report (Z.of_nat (k_done s))] else [])))
      end
  end.
Fixpoint acts (interval : Z) (s : counter) (l : list action) : option counter :=
  match l with
  | [] => Some s
  | a :: l => match act interval s a with Some s' => acts interval s' l | None => None end
  end.
(** a complete execution of [total] tasks *)
Definition finished (interval : Z) (total : nat) (l : list action) (s : counter) : Prop :=
  acts interval counter0 l = Some s /\ k_done s = total /\ k_mid s = 0%nat.

Lemma acts_out : forall i l s s', acts i s l = Some s' -> (k_done s <= k_done s')%nat /\ (k_done s' + k_mid s <= k_done s + k_mid s' + length l)%nat /\
  forall r, In r (k_out s') -> In r (k_out s) \/ (r = Undefined /\ i = 0%Z) \/
     (exists n, r = Report (Z.of_nat n) /\ (k_done s <= n <= k_done s')%nat /\ (Z.of_nat n mod i = 0)%Z /\ i <> 0%Z).
Proof.
  induction l as [|a l IH]; intros s s' H; cbn [acts length] in *.
  - injection H as <-. split; [lia|]. split; [lia|]. auto.
  - destruct (act i s a) as [s1|] eqn:E; [|discriminate]. destruct (IH _ _ H) as (A & B & C). destruct a; cbn [act] in E.
    + injection E as <-. cbn [k_done k_mid k_out] in *. split; [lia|]. split; [lia|]. intros r Hr.
      destruct (C r Hr) as [D|[D|(n & D1 & D2 & D3)]]; auto. right. right. exists n. split; auto. split; [lia|auto].
    + destruct (k_mid s) as [|k] eqn:EK; [discriminate|]. injection E as <-. cbn [k_done k_mid k_out] in *. split; [lia|]. split; [lia|].
      intros r Hr. destruct (C r Hr) as [D|[D|(n & D1 & D2 & D3)]]; auto.
      * apply in_app_or in D. destruct D as [D|D]; auto. destruct (Z.eqb_spec i 0) as [->|NE].
        -- destruct D as [<-|[]]. auto.
        -- destruct (Z.eqb_spec (Z.of_nat (k_done s) mod i) 0) as [Z0|]; [|destruct D].
           destruct D as [<-|[]]. right. right. exists (k_done s). auto 6.
      * right. right. exists n. auto.
Qed.
Lemma acts_undefined : forall l s s', acts 0 s l = Some s' -> In ALoad l -> In Undefined (k_out s').
Proof.
  assert (K: forall i l s s' r, acts i s l = Some s' -> In r (k_out s) -> In r (k_out s')).
  { induction l as [|a l IH]; intros s s' r H Hr; cbn [acts] in H; [injection H as <-; auto|].
    destruct (act i s a) as [s1|] eqn:E; [|discriminate]. eapply IH; [exact H|]. destruct a; cbn [act] in E.
    - injection E as <-. auto.
    - destruct (k_mid s); [discriminate|]. injection E as <-. cbn. apply in_or_app. auto. }
  induction l as [|a l IH]; intros s s' H Hin; [destruct Hin|]. cbn [acts] in H.
  destruct (act 0 s a) as [s1|] eqn:E; [|discriminate]. destruct Hin as [->|Hin]; [|eauto].
  cbn [act] in E. destruct (k_mid s); [discriminate|]. injection E as <-. eapply K; [exact H|]. cbn. apply in_or_app. right. left. auto.
Qed.
Lemma finished_loads : forall i n l s, finished i n l s -> (0 < n)%nat -> In ALoad l.
Proof.
  intros i n l s (H & H1 & H2) Hn.
  assert (G: forall l s s', acts i s l = Some s' -> ~ In ALoad l -> (k_mid s' = k_mid s + length l /\ k_done s' = k_done s + length l)%nat).
  { clear. induction l as [|a l IH]; intros s s' H N; cbn [acts length] in *; [injection H as <-; lia|].
    destruct (act i s a) as [s1|] eqn:E; [|discriminate]. destruct a; [|exfalso; apply N; left; auto].
    cbn [act] in E. injection E as <-. destruct (IH _ _ H) as (A & B). { intros X. apply N. right. auto. } cbn [k_mid k_done] in *. lia. }
  destruct (in_dec (fun a b : action => ltac:(decide equality) : {a = b} + {a <> b}) ALoad l) as [|N]; auto.
  destruct (G _ _ _ H N) as (A & B). cbn [k_mid k_done counter0] in *. lia.
Qed.
(** tasks finishing one at a time *)
Fixpoint one_by_one (n : nat) : list action := match n with 0%nat => [] | S n => one_by_one n ++ [AInc; ALoad] end.
Lemma acts_app : forall i a b s, acts i s (a ++ b) = match acts i s a with Some s' => acts i s' b | None => None end.
Proof. induction a as [|x a IH]; intros b s; auto. cbn [acts app]. destruct (act i s x); auto. Qed.
Theorem sequential_reports : forall i n, (0 < i)%Z -> exists s, finished i n (one_by_one n) s /\
  k_out s = map Report (filter (fun k => k mod i =? 0)%Z (map Z.of_nat (seq 1 n))).
Proof.
  intros i n Hi. induction n as [|n (s & (A & B & C) & D)].
  - exists counter0. repeat split.
  - cbn [one_by_one]. unfold finished. rewrite acts_app, A. cbn [acts act k_mid k_done k_out]. eexists. split; [split; [reflexivity|]|].
    + cbn. lia.
    + cbn [k_out]. rewrite seq_S, map_app, filter_app, map_app, D. f_equal. rewrite B. cbn [map filter plus].
      destruct (Z.eqb_spec i 0); [lia|]. destruct (Z.of_nat (S n) mod i =? 0)%Z; auto.
Qed.
