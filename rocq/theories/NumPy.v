(** NumPy arrays as the Python module sees them: arguments (PyHelperFunctions.hpp, PyTMatrix.hpp) and results.

    An array is a start address, its dimensions and its strides in bytes; memory is a partial function from byte addresses to bytes, so
    that a read outside of the buffer of the array has no value. The element with indices i1, i2, ... lies at
    data + i1 strides1 + i2 strides2 + ... (definition of a NumPy array; PyArray_GETPTR1, PyArray_GETPTR4 and PyArray_GetPtr compute it).
    Slices such as a[::2] or a[::-1] are arrays with other strides on the same buffer. Numbers are little-endian. *)
From Coq Require Import List Arith ZArith Lia Bool.
From Verif Require Import Clebsch Matrix.
Import ListNotations.
Local Open Scope Z_scope.

Definition memory := Z -> option Z.
(** k bytes from address a *)
Fixpoint load (m : memory) (k : nat) (a : Z) : option Z :=
  match k with O => Some 0 | S k' => obind (m a) (fun b => obind (load m k' (a + 1)) (fun r => Some (b + 256 * r))) end.
Record ndarray := mkArray { data : Z; dims : list Z; strides : list Z }.

(** PyArray_GETPTR1 *)
Definition getptr1 (a : ndarray) (i : Z) : Z := data a + i * nth 0 (strides a) 0.
(** PyArray_Newshape of an array without dimensions to the shape (1): a view on the same element (PyHelperFunctions.hpp l.68-75, PyTMatrix.hpp l.315-323) *)
Definition reshaped (a : ndarray) : ndarray := mkArray (data a) [1] [8].

Section Read.
Variable V : Type.
(** the value of a number of the type the caller reads: DATA_TYPE of the word read as INPUT_TYPE *)
Variable decode : Z -> V.
(** PyHelperFunctions.hpp l.77-81, PyTMatrix.hpp l.332-336: n reads; [address i] is where element i is expected, [size] the size of INPUT_TYPE.
    None: a read outside of the buffer *)
Fixpoint read_loop (m : memory) (size : nat) (address : Z -> Z) (i : Z) (n : nat) : option (list V) :=
  match n with
  | O => Some []
  | S n' => obind (load m size (address i)) (fun w => obind (read_loop m size address (i + 1) n') (fun l => Some (decode w :: l)))
  end.
(** l.58-75: number of elements and the array to read; None: more than one dimension *)
Definition as_vector (a : ndarray) : option (Z * ndarray) :=
  match dims a with
  | [] => Some (1, reshaped a)
  | [n] => Some (n, a)
  | _ => None
  end.
(** unpack_numpy_array, PyHelperFunctions.hpp l.54-84: an empty vector (after a warning) for more than one dimension *)
Definition unpack (m : memory) (size : nat) (a : ndarray) : option (list V) :=
  match as_vector a with
  | None => Some []
  | Some (n, a') => read_loop m size (getptr1 a') 0 (Z.to_nat n)
  end.
(** PyTMatrix.hpp l.332-336, 429-433: elements of PyArray_DATA, as if they were adjacent *)
Definition unpack_adjacent (m : memory) (n : Z) (a : ndarray) : option (list V) := read_loop m 8 (fun i => data a + 8 * i) 0 (Z.to_nat n).
End Read.
Arguments unpack {V}. Arguments unpack_adjacent {V}. Arguments read_loop {V}.

(** Specification: the array holds the values [l] of a type of [size] bytes (0 dimensions: one value) *)
Definition element_word (m : memory) (size : nat) (a : ndarray) (index : list Z) : option Z :=
  load m size (data a + fold_right Z.add 0 (map (fun p => fst p * snd p) (combine index (strides a)))).
Definition holds {V} (decode : Z -> V) (m : memory) (size : nat) (a : ndarray) (l : list V) : Prop :=
  (dims a = [] /\ exists w v, l = [v] /\ element_word m size a [] = Some w /\ decode w = v) \/
  (exists s, dims a = [Z.of_nat (length l)] /\ strides a = [s] /\
     forall i v, nth_error l i = Some v -> exists w, element_word m size a [Z.of_nat i] = Some w /\ decode w = v).

(** a buffer with the words [l] of [size] bytes each, from address [base] on; nothing else can be read *)
Definition buffer (base : Z) (size : nat) (l : list Z) : memory := fun a =>
  let s := Z.of_nat size in
  if (a <? base) || (base + s * Z.of_nat (length l) <=? a) then None
  else Some (nth (Z.to_nat ((a - base) / s)) l 0 / 256 ^ ((a - base) mod s) mod 256).
(** a word of 8 bytes as a finite double (IEEE 754 binary64): -1^sign times mantissa times 2^exponent; None: not finite *)
Definition double (w : Z) : option (Z * Z) :=
  let e := w / 2 ^ 52 mod 2048 in let f := w mod 2 ^ 52 in let s := if w / 2 ^ 63 =? 0 then 1 else -1 in
  if e =? 2047 then None else Some (if e =? 0 then (s * f, -1074) else (s * (2 ^ 52 + f), e - 1075)).

(* ------------------------------------------------------------ results *)
Local Open Scope nat_scope.
(** an array made by PyArray_SimpleNew: adjacent elements in C order, not initialised *)
Record result (V : Type) := mkResult { shape : list nat; content : nat -> option V }.
Arguments mkResult {V}. Arguments shape {V}. Arguments content {V}.
(** position of the element with the given indices (PyArray_GetPtr, PyArray_GETPTR4), in elements *)
Fixpoint offset (sh index : list nat) : nat :=
  match sh, index with _ :: ds, i :: is => i * fold_right Nat.mul 1 ds + offset ds is | _, _ => 0 end.
Definition entry {V} (r : result V) (index : list nat) : option V := content r (offset (shape r) index).
Definition new_array {V} (sh : list nat) : result V := mkResult sh (fun _ => None).
Definition put {V} (index : list nat) (v : V) (r : result V) : result V := mkResult (shape r) (vupd (content r) (offset (shape r) index) (Some v)).
(** PyArray_Squeeze: drop all dimensions of length 1 *)
Definition squeeze {V} (r : result V) : result V := mkResult (filter (fun d => negb (d =? 1)) (shape r)) (content r).
(** nested loops, one per dimension, outermost first *)
Fixpoint loops {S} (ds : list nat) (body : list nat -> S -> S) (s : S) : S :=
  match ds with [] => body [] s | d :: ds => for_ 0 d (fun i s => loops ds (fun index => body (i :: index)) s) s end.
(** indices within the dimensions; the indices which remain after squeezing *)
Definition within (sh index : list nat) : Prop := Forall2 lt index sh.
Fixpoint squeezed (sh index : list nat) : list nat :=
  match sh, index with d :: ds, i :: is => if d =? 1 then squeezed ds is else i :: squeezed ds is | _, _ => [] end.

(* ------------------------------------------------------------ facts *)
Lemma read_loop_all : forall V (decode : Z -> V) m size address n i l, length l = n ->
  (forall k v, nth_error l k = Some v -> exists w, load m size (address (i + Z.of_nat k)%Z) = Some w /\ decode w = v) -> read_loop decode m size address i n = Some l.
Proof.
  intros V decode m size address. induction n as [|n IH]; intros i [|v l] L H; try discriminate; [reflexivity|]. cbn [read_loop].
  destruct (H 0 v eq_refl) as (w & E & <-). rewrite Z.add_0_r in E. rewrite E. cbn [obind].
  rewrite (IH (i + 1)%Z l); [reflexivity | injection L; auto|]. intros k v Hk. destruct (H (S k) v Hk) as (w' & E' & D).
  exists w'. split; auto. replace (i + 1 + Z.of_nat k)%Z with (i + Z.of_nat (S k))%Z by lia. auto.
Qed.
Lemma read_loop_fails : forall V (decode : Z -> V) m size address n i k, k < n -> load m size (address (i + Z.of_nat k)%Z) = None -> read_loop decode m size address i n = None.
Proof.
  intros V decode m size address. induction n as [|n IH]; intros i k Hk E; [lia|]. cbn [read_loop]. destruct k as [|k].
  - rewrite Z.add_0_r in E. rewrite E. reflexivity.
  - rewrite (IH (i + 1)%Z k); [destruct (load m size (address i)); reflexivity | lia|].
    replace (i + 1 + Z.of_nat k)%Z with (i + Z.of_nat (S k))%Z by lia. auto.
Qed.
Lemma unpack_holds : forall V (decode : Z -> V) m size a l, holds decode m size a l -> unpack decode m size a = Some l.
Proof.
  intros V decode m size a l [(D & w & v & -> & E & <-) | (s & D & S_ & H)]; unfold unpack, as_vector; rewrite D.
  - change (Z.to_nat 1) with 1%nat. cbn [read_loop]. unfold getptr1, reshaped. cbn [data strides nth].
    unfold element_word in E. cbn [combine map fold_right] in E. rewrite Z.mul_0_l. rewrite E. reflexivity.
  - rewrite Nat2Z.id. apply read_loop_all; auto. intros k v Hk. destruct (H k v Hk) as (w & E & F). exists w. split; auto.
    unfold element_word in E. rewrite S_ in E. cbn [combine map fold_right fst snd] in E. unfold getptr1. rewrite S_. cbn [nth]. rewrite Z.add_0_l.
    rewrite Z.add_0_r in E. auto.
Qed.

Lemma offset_lt : forall sh index, within sh index -> offset sh index < fold_right Nat.mul 1 sh.
Proof.
  induction 1 as [|i d is ds L W IH]; cbn [offset fold_right]; [lia|].
  apply Nat.lt_le_trans with (i * fold_right Nat.mul 1 ds + fold_right Nat.mul 1 ds); [lia|]. nia.
Qed.
Lemma offset_inj : forall sh a b, within sh a -> within sh b -> offset sh a = offset sh b -> a = b.
Proof.
  induction sh as [|d ds IH]; intros a b Ha Hb E; inversion Ha as [|i d1 is ds1 L1 W1]; inversion Hb as [|j d2 js ds2 L2 W2]; subst; auto.
  cbn [offset] in E. pose proof (offset_lt _ _ W1) as B1. pose proof (offset_lt _ _ W2) as B2. set (p := fold_right Nat.mul 1 ds) in *.
  assert (i = j) by nia. subst. f_equal. apply IH; auto. lia.
Qed.
Lemma squeezed_within : forall sh index, within sh index -> within (filter (fun d => negb (d =? 1)) sh) (squeezed sh index).
Proof.
  induction 1 as [|i d is ds L W IH]; cbn [squeezed filter]; [constructor|]. destruct (Nat.eqb_spec d 1); cbn [negb]; auto. constructor; auto.
Qed.
Lemma squeezed_offset : forall sh index, within sh index -> offset (filter (fun d => negb (d =? 1)) sh) (squeezed sh index) = offset sh index.
Proof.
  induction 1 as [|i d is ds L W IH]; cbn [squeezed filter offset]; auto.
  assert (F: fold_right Nat.mul 1 (filter (fun d => negb (d =? 1)) ds) = fold_right Nat.mul 1 ds).
  { clear. induction ds as [|d ds IH]; auto. cbn [filter fold_right]. destruct (Nat.eqb_spec d 1); cbn [negb fold_right]; lia. }
  destruct (Nat.eqb_spec d 1); cbn [negb offset]; [|lia]. replace i with 0 by lia. lia.
Qed.
Lemma squeeze_entry : forall V (r : result V) index, within (shape r) index -> entry (squeeze r) (squeezed (shape r) index) = entry r index.
Proof. intros V r index W. unfold entry, squeeze. cbn [shape content]. rewrite squeezed_offset; auto. Qed.

(** a loop nest which stores one value for each index stores them all *)
Fixpoint indices (ds : list nat) : list (list nat) :=
  match ds with [] => [[]] | d :: ds => flat_map (fun i => map (cons i) (indices ds)) (seq 0 d) end.
Lemma fold_flat : forall A B S (g : S -> B -> S) (h : A -> list B) l s, fold_left g (flat_map h l) s = fold_left (fun s a => fold_left g (h a) s) l s.
Proof. intros A B S g h. induction l as [|a l IH]; intros s; cbn [flat_map fold_left]; auto. rewrite fold_left_app. auto. Qed.
Lemma fold_map : forall A B S (g : S -> B -> S) (h : A -> B) l s, fold_left g (map h l) s = fold_left (fun s a => g s (h a)) l s.
Proof. intros A B S g h. induction l as [|a l IH]; intros s; cbn [map fold_left]; auto. Qed.
Lemma fold_ext : forall A S (g h : S -> A -> S) l s, (forall s a, g s a = h s a) -> fold_left g l s = fold_left h l s.
Proof. intros A S g h l. induction l as [|a l IH]; intros s H; cbn [fold_left]; auto. rewrite H. auto. Qed.
Lemma loops_fold : forall S ds (body : list nat -> S -> S) s, loops ds body s = fold_left (fun s index => body index s) (indices ds) s.
Proof.
  intros S. induction ds as [|d ds IH]; intros body s; cbn [loops indices]; [reflexivity|].
  unfold for_. rewrite Nat.sub_0_r, fold_flat. apply fold_ext. intros s' a. rewrite IH, fold_map. reflexivity.
Qed.
Lemma indices_within : forall ds index, In index (indices ds) <-> within ds index.
Proof.
  induction ds as [|d ds IH]; intros index; cbn [indices].
  - split; [intros [<- | []]; constructor|]. intros H. inversion H. left. auto.
  - split.
    + intros H. apply in_flat_map in H. destruct H as (i & Hi & H). apply in_map_iff in H. destruct H as (is & <- & H). apply in_seq in Hi. constructor; [lia|]. apply IH. auto.
    + intros H. inversion H as [|i d' is ds' L W]; subst. apply in_flat_map. exists i. split; [apply in_seq; lia|]. apply in_map_iff. exists is. split; auto. apply IH. auto.
Qed.
Lemma puts_shape : forall V (f : list nat -> V) l r, shape (fold_left (fun r index => put index (f index) r) l r) = shape r.
Proof. intros V f. induction l as [|a l IH]; intros r; cbn [fold_left]; auto. rewrite IH. reflexivity. Qed.
Lemma puts_entry : forall V (f : list nat -> V) l r index, (forall x, In x l -> within (shape r) x) -> within (shape r) index ->
  entry (fold_left (fun r index => put index (f index) r) l r) index = if in_dec (list_eq_dec Nat.eq_dec) index l then Some (f index) else entry r index.
Proof.
  intros V f. induction l as [|a l IH]; intros r index Hl Hi; cbn [fold_left]; [destruct (in_dec _ index []) as [[]|]; auto|].
  rewrite IH; [|intros x Hx; apply (Hl x); right; auto | exact Hi].
  destruct (in_dec (list_eq_dec Nat.eq_dec) index l) as [Y|N]; destruct (in_dec (list_eq_dec Nat.eq_dec) index (a :: l)) as [Y'|N']; auto.
  - exfalso. apply N'. right. auto.
  - destruct Y' as [-> | Y']; [|contradiction]. unfold entry, put. cbn [shape content]. unfold vupd. rewrite Nat.eqb_refl. auto.
  - unfold entry, put. cbn [shape content]. unfold vupd. destruct (Nat.eqb_spec (offset (shape r) index) (offset (shape r) a)) as [E|]; auto.
    exfalso. apply N'. left. symmetry. apply (offset_inj (shape r)); auto. apply Hl. left. auto.
Qed.
Lemma loops_put : forall V ds (f : list nat -> V) index, within ds index ->
  let r := loops ds (fun index r => put index (f index) r) (new_array ds) in shape r = ds /\ entry r index = Some (f index).
Proof.
  intros V ds f index W r. unfold r. rewrite loops_fold. split; [apply puts_shape|].
  rewrite puts_entry; [|intros x Hx; apply indices_within; auto | auto]. destruct (in_dec _ index (indices ds)) as [|N]; auto. exfalso. apply N. apply indices_within. auto.
Qed.
