(** qsched_sort (quicksched/qsched.c:906-952) and the slicing of the sorted
    tables in qsched_prepare (1059-1089).

    The parallel arrays [ind] (key = task) and [data] are one list of pairs.
    [min] is 0 in every call (1067-1075) and [max] is [count-1], so there are
    [nb = count] buckets.  Every array access is checked: [None] is an access
    out of bounds. *)
From Coq Require Import List Arith Lia Bool.
From Verif Require Import Base.
Import ListNotations.

Definition rd {A} (l : list A) (i : nat) : option A := nth_error l i.
Definition wr {A} (l : list A) (i : nat) (v : A) : option (list A) :=
  if i <? length l then Some (upd i v l) else None.

(** 930-932: bucket_inds[ind[i] - min]++ *)
Fixpoint count_pass (b : list nat) (l : list (nat * nat)) : option (list nat) :=
  match l with
  | [] => Some b
  | (z, _) :: l' => match rd b z with
                    | Some c => match wr b z (c + 1) with Some b' => count_pass b' l' | None => None end
                    | None => None end
  end.

(** 933-935: for i = 1 .. num_buckets-1: b[i] = b[i] + b[i-1]; [m] iterations
    are left, the next index is [i]. *)
Fixpoint prefix_pass (m i : nat) (b : list nat) : option (list nat) :=
  match m with
  | 0 => Some b
  | S m' => match rd b i, rd b (i - 1) with
            | Some x, Some y => match wr b i (x + y) with Some b' => prefix_pass m' (i + 1) b' | None => None end
            | _, _ => None end
  end.

(** 937-939: for i = num_buckets-1 downto 1: b[i] = b[i-1] *)
Fixpoint shift_pass (i : nat) (b : list nat) : option (list nat) :=
  match i with
  | 0 => Some b
  | S i' => match rd b i' with
            | Some y => match wr b i y with Some b' => shift_pass i' b' | None => None end
            | None => None end
  end.

(** 942-946 *)
Fixpoint place_pass (b : list nat) (out : list (nat * nat)) (l : list (nat * nat)) : option (list (nat * nat)) :=
  match l with
  | [] => Some out
  | (z, d) :: l' =>
      match rd b z with
      | Some p => match wr out p (z, d), wr b z (p + 1) with
                  | Some out', Some b' => place_pass b' out' l'
                  | _, _ => None end
      | None => None end
  end.

(** 906-952. The freshly allocated output array holds arbitrary values; (0,0) here. *)
Definition qsort (nb : nat) (l : list (nat * nat)) : option (list (nat * nat)) :=
  match l with
  | [] => Some []                                          (* 911: N <= 0 *)
  | _ =>
    match count_pass (repeat 0 nb) l with
    | Some b1 => match prefix_pass (nb - 1) 1 b1 with
      | Some b2 => match shift_pass (nb - 1) b2 with
        | Some b3 => match wr b3 0 0 with                  (* 940 *)
          | Some b4 => place_pass b4 (repeat (0, 0) (length l)) l
          | None => None end
        | None => None end
      | None => None end
    | None => None end
  end.

(** 1078-1085: unlocks/locks/uses of task k start where those of task k-1 end;
    nr_unlocks etc. is the number of registrations of that task (1254, 1308, 1364). *)
Fixpoint offset (cnt : nat -> nat) (k : nat) : nat :=
  match k with 0 => 0 | S k' => offset cnt k' + cnt k' end.
Definition slice (table : list (nat * nat)) (off len : nat) : list nat :=
  map snd (firstn len (skipn off table)).

(** Number of registrations for task k. *)
Definition nr (l : list (nat * nat)) (k : nat) : nat := length (filter (fun e => fst e =? k) l).

(** The entries of task k, in registration order (specification). *)
Definition entries (l : list (nat * nat)) (k : nat) : list (nat * nat) := filter (fun e => fst e =? k) l.

(* ------------------------------------------------------------------ proofs *)

Lemma rd_nth : forall A (l : list A) i d, i < length l -> rd l i = Some (nth i l d).
Proof. intros. unfold rd. apply nth_error_nth'. auto. Qed.
Lemma wr_ok : forall A (l : list A) i v, i < length l -> wr l i v = Some (upd i v l).
Proof. intros. unfold wr. destruct (Nat.ltb_spec i (length l)); [auto|lia]. Qed.

Definition keys_ok (nb : nat) (l : list (nat * nat)) : Prop := forall e, In e l -> fst e < nb.

Lemma nr_cons : forall e l k, nr (e :: l) k = (if fst e =? k then 1 else 0) + nr l k.
Proof. intros. unfold nr. simpl. destruct (fst e =? k); auto. Qed.
Lemma nr_app : forall l1 l2 k, nr (l1 ++ l2) k = nr l1 k + nr l2 k.
Proof. intros. unfold nr. rewrite filter_app, app_length. auto. Qed.

Lemma nr_one : forall z d k, nr [(z, d)] k = if z =? k then 1 else 0.
Proof. intros. unfold nr. simpl. destruct (z =? k); auto. Qed.

Lemma count_pass_ok : forall l b, keys_ok (length b) l ->
  exists b', count_pass b l = Some b' /\ length b' = length b /\
    forall k, k < length b -> nth k b' 0 = nth k b 0 + nr l k.
Proof.
  induction l as [|[z d] l IH]; intros b HK; cbn [count_pass].
  - exists b. repeat split; auto; intros; unfold nr; simpl; lia.
  - assert (Hz: z < length b) by (apply (HK (z, d)); simpl; auto).
    rewrite (rd_nth _ b z 0), wr_ok by auto.
    destruct (IH (upd z (nth z b 0 + 1) b)) as (b' & A & B & C).
    { rewrite upd_length. intros e He. apply HK. simpl; auto. }
    rewrite upd_length in *. exists b'. repeat split; auto.
    intros k Hk. rewrite C, nth_upd, nr_cons by auto. cbn [fst].
    destruct (Nat.eqb_spec z k), (Nat.eqb_spec k z); subst; try lia.
Qed.

Lemma prefix_pass_ok : forall c m i b, (forall k, k < i -> nth k b 0 = offset c (S k)) ->
  (forall k, i <= k < length b -> nth k b 0 = c k) -> 1 <= i -> i + m = length b ->
  exists b', prefix_pass m i b = Some b' /\ length b' = length b /\
    forall k, k < length b -> nth k b' 0 = offset c (S k).
Proof.
  intros c. induction m as [|m IH]; intros i b H1 H2 Hi Hm; cbn [prefix_pass].
  - exists b. split; [auto|split; [auto|]]. intros. apply H1. lia.
  - rewrite (rd_nth _ b i 0), (rd_nth _ b (i-1) 0), wr_ok by lia.
    destruct (IH (i + 1) (upd i (nth i b 0 + nth (i - 1) b 0) b)) as (b' & A & B & C); rewrite ?upd_length; try lia.
    + intros k Hk. rewrite nth_upd by lia. destruct (Nat.eqb_spec k i) as [->|].
      * rewrite H2 by lia. rewrite (H1 (i-1)) by lia. replace (S (i - 1)) with i by lia. cbn [offset]. lia.
      * apply H1. lia.
    + intros k Hk. rewrite nth_upd by lia. destruct (Nat.eqb_spec k i); [lia|]. apply H2. lia.
    + rewrite upd_length in *. exists b'. auto.
Qed.

Lemma shift_pass_ok : forall c i b, i < length b -> (forall k, k <= i -> nth k b 0 = offset c (S k)) ->
  (forall k, i < k < length b -> nth k b 0 = offset c k) ->
  exists b', shift_pass i b = Some b' /\ length b' = length b /\
    forall k, 0 < k < length b -> nth k b' 0 = offset c k.
Proof.
  intros c. induction i as [|i IH]; intros b Hi H1 H2; cbn [shift_pass].
  - exists b. split; [auto|split; [auto|]]. intros. apply H2. lia.
  - rewrite (rd_nth _ b i 0), wr_ok by lia.
    destruct (IH (upd (S i) (nth i b 0) b)) as (b' & A & B & C); rewrite ?upd_length; try lia.
    + intros k Hk. rewrite nth_upd by lia. destruct (Nat.eqb_spec k (S i)); [lia|]. apply H1. lia.
    + intros k Hk. rewrite nth_upd by lia. destruct (Nat.eqb_spec k (S i)) as [->|].
      * apply H1. lia.
      * apply H2. lia.
    + rewrite upd_length in *. exists b'. auto.
Qed.

Lemma offset_mono : forall c i j, i <= j -> offset c i <= offset c j.
Proof. intros c i j H. induction H; auto. cbn [offset]. lia. Qed.

Lemma offset_disjoint : forall c z1 z2 j1 j2, j1 < c z1 -> j2 < c z2 ->
  offset c z1 + j1 = offset c z2 + j2 -> z1 = z2 /\ j1 = j2.
Proof.
  intros c z1 z2 j1 j2 H1 H2 H.
  destruct (Nat.lt_trichotomy z1 z2) as [L|[->|L]].
  - pose proof (offset_mono c (S z1) z2 L). cbn [offset] in *. lia.
  - lia.
  - pose proof (offset_mono c (S z2) z1 L). cbn [offset] in *. lia.
Qed.

Lemma place_pass_ok : forall nb l pre b out c,
  c = nr (pre ++ l) -> length b = nb -> length out = offset c nb -> keys_ok nb l ->
  (forall z, z < nb -> nth z b 0 = offset c z + nr pre z) ->
  (forall z j, z < nb -> j < nr pre z -> nth (offset c z + j) out (0,0) = nth j (entries pre z) (0,0)) ->
  exists out', place_pass b out l = Some out' /\ length out' = length out /\
   (forall z j, z < nb -> j < c z -> nth (offset c z + j) out' (0,0) = nth j (entries (pre ++ l) z) (0,0)).
Proof.
  intros nb l. induction l as [|[z d] l IH]; intros pre b out c Hc Hb Ho HK HB HO; cbn [place_pass].
  - exists out. rewrite app_nil_r in *. repeat split; auto. intros. apply HO; auto. subst c. auto.
  - assert (Hz: z < nb) by (apply (HK (z, d)); simpl; auto).
    assert (Hcz: nr pre z < c z).
    { subst c. rewrite nr_app, nr_cons. cbn [fst]. rewrite Nat.eqb_refl. lia. }
    assert (Hp: offset c z + nr pre z < length out).
    { rewrite Ho. pose proof (offset_mono c (S z) nb ltac:(lia)). cbn [offset] in *. lia. }
    rewrite (rd_nth _ b z 0) by lia. rewrite (HB z Hz). rewrite !wr_ok by lia.
    destruct (IH (pre ++ [(z,d)]) (upd z (offset c z + nr pre z + 1) b) (upd (offset c z + nr pre z) (z, d) out) c)
      as (out' & A & B & C); rewrite ?upd_length; auto.
    + rewrite <- app_assoc. auto.
    + intros e He. apply HK. simpl; auto.
    + intros y Hy. rewrite nth_upd by lia. rewrite nr_app, nr_one.
      destruct (Nat.eqb_spec y z), (Nat.eqb_spec z y); subst; try lia. rewrite HB by auto. lia.
    + intros y j Hy Hj. unfold entries. rewrite filter_app. cbn [filter fst].
      rewrite nr_app, nr_one in Hj.
      rewrite nth_upd by lia.
      destruct (Nat.eqb_spec z y) as [->|Hne].
      * destruct (Nat.eq_dec j (nr pre y)) as [->|Hj2].
        -- rewrite Nat.eqb_refl. rewrite app_nth2 by (unfold nr; lia). unfold nr. rewrite Nat.sub_diag. auto.
        -- destruct (Nat.eqb_spec (offset c y + j) (offset c y + nr pre y)); [lia|].
           rewrite app_nth1 by (unfold nr in *; lia). apply HO; auto; lia.
      * rewrite app_nil_r. destruct (Nat.eqb_spec (offset c y + j) (offset c z + nr pre z)) as [E|].
        -- exfalso. apply (offset_disjoint c) in E; try lia.
           subst c. rewrite nr_app. lia.
        -- apply HO; auto; lia.
    + rewrite upd_length in *. rewrite <- app_assoc in C. exists out'. auto.
Qed.

Lemma offset_total : forall l nb, keys_ok nb l -> offset (nr l) nb = length l.
Proof.
  intros l nb. induction l as [|e l IH]; intros HK.
  - clear. induction nb; simpl; auto. rewrite IHnb. auto.
  - assert (He: fst e < nb) by (apply HK; simpl; auto).
    assert (E: forall m, offset (nr (e :: l)) m = offset (nr l) m + (if fst e <? m then 1 else 0)).
    { clear. induction m as [|m IHm]; cbn [offset]; [auto|]. rewrite IHm, nr_cons.
      destruct (Nat.ltb_spec (fst e) m), (Nat.ltb_spec (fst e) (S m)), (Nat.eqb_spec (fst e) m); lia. }
    rewrite E, IH by (intros x Hx; apply HK; simpl; auto). destruct (Nat.ltb_spec (fst e) nb); [|lia]. simpl. lia.
Qed.

Lemma offset_find : forall c nb p, p < offset c nb -> exists z j, z < nb /\ j < c z /\ p = offset c z + j.
Proof.
  intros c. induction nb as [|nb IH]; intros p Hp; cbn [offset] in Hp; [lia|].
  destruct (Nat.lt_ge_cases p (offset c nb)) as [H|H].
  - destruct (IH p H) as (z & j & A & B & C). exists z, j. auto.
  - exists nb, (p - offset c nb). repeat split; lia.
Qed.

(** The specification of the sorted table. *)
Definition grouped (nb : nat) (l : list (nat * nat)) : list (nat * nat) := flat_map (entries l) (seq 0 nb).

Lemma grouped_nth : forall l nb z j, z < nb -> j < nr l z ->
  nth (offset (nr l) z + j) (grouped nb l) (0,0) = nth j (entries l z) (0,0).
Proof.
  intros l nb z j Hz Hj. unfold grouped.
  assert (G: forall m a, a <= z < a + m -> nth (offset (nr l) z - offset (nr l) a + j) (flat_map (entries l) (seq a m)) (0,0) = nth j (entries l z) (0,0)).
  { induction m as [|m IH]; intros a Ha; [lia|]. cbn [seq flat_map].
    destruct (Nat.eq_dec a z) as [->|Hne].
    - rewrite Nat.sub_diag. cbn [plus]. apply app_nth1. exact Hj.
    - pose proof (offset_mono (nr l) (S a) z ltac:(lia)) as HM. cbn [offset] in HM.
      rewrite app_nth2; [|unfold entries; fold (nr l a); lia].
      specialize (IH (S a) ltac:(lia)). cbn [offset] in IH. rewrite <- IH. f_equal.
      change (length (entries l a)) with (nr l a). lia. }
  specialize (G nb 0 ltac:(lia)). cbn [offset] in G. rewrite Nat.sub_0_r in G. exact G.
Qed.

Lemma grouped_length : forall l nb, length (grouped nb l) = offset (nr l) nb.
Proof.
  intros. unfold grouped.
  assert (E: forall m a, length (flat_map (entries l) (seq a m)) + offset (nr l) a = offset (nr l) (a + m)).
  { induction m as [|m IH]; intros a; cbn [seq flat_map].
    - rewrite Nat.add_0_r. auto.
    - rewrite app_length. replace (a + S m) with (S a + m) by lia. rewrite <- IH. cbn [offset].
      change (length (entries l a)) with (nr l a). lia. }
  specialize (E nb 0). cbn in E. lia.
Qed.

Lemma qsort_ok : forall nb l, keys_ok nb l -> qsort nb l = Some (grouped nb l).
Proof.
  intros nb l HK. destruct l as [|e l0] eqn:El.
  - simpl. f_equal. symmetry. unfold grouped. clear. generalize 0. induction nb; simpl; auto.
  - assert (Hnb: 0 < nb) by (specialize (HK e ltac:(simpl; auto)); lia).
    rewrite <- El in *. unfold qsort. 
    assert (QE: forall (X : option (list (nat*nat))), (match l with [] => Some [] | _ => X end) = X) by (intros; rewrite El; auto).
    rewrite QE. clear QE.
    destruct (count_pass_ok l (repeat 0 nb)) as (b1 & A1 & A2 & A3).
    { rewrite repeat_length. auto. }
    rewrite A1. rewrite repeat_length in *.
    assert (A3': forall k, k < nb -> nth k b1 0 = nr l k).
    { intros k Hk. rewrite A3 by auto. rewrite nth_repeat. auto. }
    destruct (prefix_pass_ok (nr l) (nb - 1) 1 b1) as (b2 & B1 & B2 & B3); try lia.
    { intros k Hk. replace k with 0 by lia. rewrite A3' by lia. simpl. lia. }
    { intros k Hk. apply A3'. lia. }
    rewrite B1.
    destruct (shift_pass_ok (nr l) (nb - 1) b2) as (b3 & C1 & C2 & C3); try lia.
    { intros k Hk. apply B3. lia. }
    rewrite C1, wr_ok by lia.
    destruct (place_pass_ok nb l [] (upd 0 0 b3) (repeat (0,0) (length l)) (nr l)) as (out & D1 & D2 & D3); auto.
    { rewrite upd_length. lia. }
    { rewrite repeat_length. symmetry. apply offset_total. auto. }
    { intros z Hz. rewrite nth_upd by lia. destruct (Nat.eqb_spec z 0) as [->|]; [reflexivity|].
      rewrite C3 by lia. change (nr [] z) with 0. lia. }
    { intros z j Hz Hj. unfold nr in Hj. simpl in Hj. lia. }
    rewrite D1. f_equal. rewrite repeat_length in D2.
    apply (list_ext _ (0,0)).
    + rewrite grouped_length, offset_total; auto.
    + intros p Hp. rewrite D2, <- (offset_total l nb HK) in Hp.
      destruct (offset_find _ _ _ Hp) as (z & j & E1 & E2 & ->).
      rewrite D3, grouped_nth by auto. auto.
Qed.

Lemma slice_ok : forall nb l k, k < nb -> slice (grouped nb l) (offset (nr l) k) (nr l k) = map snd (entries l k).
Proof.
  intros nb l k Hk. unfold slice. f_equal.
  apply (list_ext _ (0,0)).
  - rewrite firstn_length, skipn_length, grouped_length.
    pose proof (offset_mono (nr l) (S k) nb ltac:(lia)) as HM. cbn [offset] in HM.
    change (length (entries l k)) with (nr l k). lia.
  - intros i Hi. assert (Hi2: i < nr l k) by (rewrite firstn_length in Hi; lia).
    rewrite nth_firstn by auto. rewrite nth_skipn'. apply grouped_nth; auto.
Qed.
