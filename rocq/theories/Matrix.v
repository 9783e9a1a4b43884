(** Model of src/Matrix.hpp: the in-place inversion of a square block of a matrix
    (PLU decomposition with partial pivoting, inversion of U, substitution of L, column
    exchange), over an arbitrary field.

    Simplifications: elements are exact field elements; a matrix is a function of the row and
    column (operator() l.110-133 addresses a row-major array, distinct for distinct in-range
    pairs); a division by zero, which the code does not test for, is the outcome None. *)
From Coq Require Import List Arith Lia Bool Ring Field.
Import ListNotations.

(** ascending and descending loops *)
Definition for_ {S} (lo hi : nat) (body : nat -> S -> S) (s : S) : S := fold_left (fun s k => body k s) (seq lo (hi - lo)) s.
Fixpoint down {S} (n : nat) (body : nat -> S -> S) (s : S) : S := match n with 0 => s | Datatypes.S j => down j body (body j s) end.

Lemma for_ind : forall {S} (I : nat -> S -> Prop) lo hi body s, lo <= hi -> I lo s ->
  (forall k s, lo <= k < hi -> I k s -> I (k + 1) (body k s)) -> I hi (for_ lo hi body s).
Proof.
  intros S I lo hi body s H H0 Hs. unfold for_. remember (hi - lo) as d eqn:E. revert lo s H H0 Hs E.
  induction d; intros lo s H H0 Hs E; cbn [seq fold_left].
  - replace hi with lo by lia. auto.
  - apply IHd; try lia; [replace (Datatypes.S lo) with (lo + 1) by lia; apply Hs; auto; lia|]. intros k s' Hk. apply Hs. lia.
Qed.
Ltac loop := match goal with |- ?I ?hi _ => apply (for_ind I); unfold I; clear I end.
Lemma down_ind : forall {S} (I : nat -> S -> Prop) n body s, I n s ->
  (forall j s, j < n -> I (j + 1) s -> I j (body j s)) -> I 0 (down n body s).
Proof.
  intros S I n. induction n; intros body s H Hs; cbn [down]; auto. apply IHn.
  - apply Hs; [lia|]. replace (n + 1) with (Datatypes.S n) by lia. auto.
  - intros. apply Hs; auto; lia.
Qed.

Section Field.
Variables (F : Type) (f0 f1 : F) (fadd fmul fsub : F -> F -> F) (fopp : F -> F) (fdiv : F -> F -> F) (finv : F -> F).
Hypothesis Fth : field_theory f0 f1 fadd fmul fsub fopp fdiv finv eq.
Variables (K : Type) (fabs : F -> K) (gtb : K -> K -> bool) (iszero : F -> bool).
Hypothesis iszero_spec : forall x, iszero x = true <-> x = f0.
Hypothesis gtb_nonzero : forall x y, gtb (fabs x) (fabs y) = true -> x <> f0.
Hypothesis gtb_zero : forall x, x <> f0 -> gtb (fabs x) (fabs f0) = true.
Add Field fld : Fth.
Declare Scope fld_scope.
Notation "0" := f0 : fld_scope. Notation "1" := f1 : fld_scope.
Infix "+" := fadd : fld_scope. Infix "*" := fmul : fld_scope. Infix "-" := fsub : fld_scope.
Notation "- x" := (fopp x) : fld_scope. Infix "/" := fdiv : fld_scope.
Local Open Scope fld_scope.

Definition mat := nat -> nat -> F.
Definition upd (A : mat) r c v : mat := fun r' c' => if (r' =? r) && (c' =? c) then v else A r' c'.
Definition vupd {X} (w : nat -> X) i v := fun i' => if i' =? i then v else w i'.

(** Matrix.hpp 281-293: search of the next pivot *)
Definition find_pivot (A : mat) (i n : nat) : nat :=
  fst (for_ (i + 1) n (fun j '(imax, Smax) => let s := fabs (A j i) in if gtb s Smax then (j, s) else (imax, Smax)) (i, fabs (A i i))).
(** 297-304: exchange of the rows i and imax *)
Definition swap_rows (A : mat) (i imax n : nat) : mat :=
  if i =? imax then A else for_ 0 n (fun j A => let temp := A i j in upd (upd A i j (A imax j)) imax j temp) A.
(** 306-319: elimination of column i *)
Definition eliminate (A : mat) (i n : nat) : mat :=
  let Aii_inv := 1 / A i i in
  let A := for_ (i + 1) n (fun j A => upd A j i (A j i * Aii_inv)) A in
  for_ (i + 1) n (fun j A => for_ (i + 1) n (fun k A => upd A j k (A j k - A j i * A i k)) A) A.
(** 280-320 *)
Definition step1 (i n : nat) (s : option (mat * (nat -> nat))) : option (mat * (nat -> nat)) :=
  match s with
  | None => None
  | Some (A, pivot) =>
    let imax := find_pivot A i n in
    let pivot := vupd pivot i imax in
    let A := swap_rows A i imax n in
    if iszero (A i i) then None else Some (eliminate A i n, pivot)
  end.
Definition plu (A : mat) (pivot : nat -> nat) (n : nat) := for_ 0 n (fun i s => step1 i n s) (Some (A, pivot)).
(** 323-337: inversion of U *)
Definition step2 (i n : nat) (A : mat) : mat :=
  let A := upd A i i (1 / A i i) in
  for_ (i + 1) n (fun j A => let Aij := for_ i j (fun k a => a - A i k * A k j) 0 in upd A i j (Aij / A j j)) A.
Definition invert_U (A : mat) (n : nat) : mat := for_ 0 n (fun i A => step2 i n A) A.
(** 342-365: solution of inv(A) L = inv(U), column j = jp1 - 1 *)
Definition step3 (j n : nat) (s : mat * (nat -> F)) : mat * (nat -> F) :=
  let '(A, work) := s in
  let work := for_ 0 (j + 1) (fun i w => vupd w i (A i j)) work in
  let work := for_ (j + 1) n (fun i w => vupd w i 0) work in
  let work := for_ (j + 1) n (fun k w => for_ 0 n (fun i w => vupd w i (w i - A i k * A k j)) w) work in
  (for_ 0 n (fun i A => upd A i j (work i)) A, work).
Definition solve_L (A : mat) (work : nat -> F) (n : nat) : mat * (nat -> F) := down n (fun j s => step3 j n s) (A, work).
(** 371-383: exchange of columns *)
Definition step4 (pivot : nat -> nat) (j n : nat) (A : mat) : mat :=
  let jp := pivot j in
  if jp =? j then A else for_ 0 n (fun i A => let temp := A i j in upd (upd A i j (A i jp)) i jp temp) A.
Definition exchange (pivot : nat -> nat) (A : mat) (n : nat) : mat := down n (fun j A => step4 pivot j n A) A.
(** 261-384; pivot and work are the caller's scratch arrays *)
Definition plu_inverse (n : nat) (pivot : nat -> nat) (work : nat -> F) (A : mat) : option mat :=
  match plu A pivot n with
  | None => None
  | Some (A, pivot) => let A := invert_U A n in let A := fst (solve_L A work n) in Some (exchange pivot A n)
  end.

(** ---- specification vocabulary ---- *)
Fixpoint sum (n : nat) (f : nat -> F) : F := match n with O => 0 | S m => sum m f + f m end.
Definition delta (i j : nat) : F := if i =? j then 1 else 0.

Lemma sum_ext : forall n f g, (forall k, (k < n)%nat -> f k = g k) -> sum n f = sum n g.
Proof. induction n; intros f g H; cbn [sum]; auto. rewrite (IHn f g), (H n); auto. Qed.
Lemma sum_zero : forall n f, (forall k, (k < n)%nat -> f k = 0) -> sum n f = 0.
Proof. intros n f H. induction n; cbn [sum]; auto. rewrite IHn, (H n); auto. ring. Qed.
Lemma sum_add : forall n f g, sum n (fun k => f k + g k) = sum n f + sum n g.
Proof. induction n; intros; cbn [sum]; [ring|]. rewrite IHn. ring. Qed.
Lemma sum_mul_l : forall n a f, sum n (fun k => a * f k) = a * sum n f.
Proof. induction n; intros; cbn [sum]; [ring|]. rewrite IHn. ring. Qed.
Lemma sum_mul_r : forall n a f, sum n (fun k => f k * a) = sum n f * a.
Proof. induction n; intros; cbn [sum]; [ring|]. rewrite IHn. ring. Qed.
Lemma sum_swap : forall n m f, sum n (fun i => sum m (fun j => f i j)) = sum m (fun j => sum n (fun i => f i j)).
Proof. induction n; intros; cbn [sum]; [symmetry; apply sum_zero; auto|]. rewrite IHn, <- sum_add. reflexivity. Qed.
Lemma sum_single : forall n f i, (i < n)%nat -> (forall k, (k < n)%nat -> k <> i -> f k = 0) -> sum n f = f i.
Proof.
  induction n; intros f i H Z; [lia|]. cbn [sum]. destruct (Nat.eq_dec i n) as [->|N].
  - rewrite sum_zero by (intros; apply Z; lia). ring.
  - rewrite (IHn f i), (Z n); try lia; [ring|]. intros. apply Z; lia.
Qed.
Lemma sum_delta_l : forall n i f, (i < n)%nat -> sum n (fun k => delta i k * f k) = f i.
Proof.
  intros n i f H. rewrite (sum_single n _ i); [|assumption|].
  2:{ intros k _ N. unfold delta. destruct (Nat.eqb_spec i k); [lia | ring]. }
  unfold delta. rewrite Nat.eqb_refl. ring.
Qed.
Lemma sum_delta_r : forall n i f, (i < n)%nat -> sum n (fun k => f k * delta k i) = f i.
Proof.
  intros n i f H. rewrite (sum_single n _ i); [|assumption|].
  2:{ intros k _ N. unfold delta. destruct (Nat.eqb_spec k i); [lia | ring]. }
  unfold delta. rewrite Nat.eqb_refl. ring.
Qed.
Lemma sum_split : forall n m f, (m <= n)%nat -> (forall k, (m <= k < n)%nat -> f k = 0) -> sum n f = sum m f.
Proof.
  intros n m f H Z. induction n; [replace m with 0%nat by lia; auto|]. destruct (Nat.eq_dec m (S n)) as [->|N]; auto.
  cbn [sum]. rewrite IHn, (Z n); try lia; [ring|]. intros. apply Z. lia.
Qed.
(** associativity of the matrix product with a vector *)
Lemma sum_assoc : forall n (a : nat -> F) (B : mat) (v : nat -> F),
  sum n (fun k => a k * sum n (fun l => B k l * v l)) = sum n (fun l => sum n (fun k => a k * B k l) * v l).
Proof.
  intros. rewrite (sum_ext n _ (fun k => sum n (fun l => a k * B k l * v l))) by (intros; rewrite <- sum_mul_l; apply sum_ext; intros; ring).
  rewrite sum_swap. apply sum_ext. intros. rewrite <- sum_mul_r. reflexivity.
Qed.
Lemma sum_rev : forall n f, sum n (fun k => f (n - 1 - k)%nat) = sum n f.
Proof.
  assert (A: forall n f, sum (S n) f = f 0%nat + sum n (fun k => f (S k))).
  { induction n; intros; cbn [sum]; [ring|]. cbn [sum] in IHn. rewrite IHn. ring. }
  induction n; intros; auto. rewrite A. cbn [sum]. rewrite <- (IHn f). replace (S n - 1 - 0)%nat with n by lia.
  rewrite (sum_ext n (fun k => f (S n - 1 - S k)%nat) (fun k => f (n - 1 - k)%nat)) by (intros; f_equal; lia). ring.
Qed.

(** triangular systems with a non-zero diagonal can be solved *)
Lemma solve_lower : forall n (T : mat) (b : nat -> F), (forall r, (r < n)%nat -> T r r <> 0) ->
  exists v, forall r, (r < n)%nat -> sum (S r) (fun c => T r c * v c) = b r.
Proof.
  induction n; intros T b D; [exists b; lia|]. destruct (IHn T b) as (v & V); auto.
  exists (vupd v n ((b n - sum n (fun c => T n c * v c)) / T n n)). intros r H. cbn [sum].
  assert (Q: forall m r', (m <= n)%nat -> sum m (fun c => T r' c * vupd v n ((b n - sum n (fun c => T n c * v c)) / T n n) c) = sum m (fun c => T r' c * v c)).
  { intros m r' Hm. apply sum_ext. intros k Hk. unfold vupd. destruct (Nat.eqb_spec k n); [lia | auto]. }
  rewrite Q by lia. unfold vupd. destruct (Nat.eqb_spec r n) as [->|N].
  - field. apply D. lia.
  - rewrite <- (V r) by lia. cbn [sum]. reflexivity.
Qed.
Lemma solve_upper : forall n (T : mat) (b : nat -> F), (forall r, (r < n)%nat -> T r r <> 0) -> (forall r c, (c < r)%nat -> (r < n)%nat -> T r c = 0) ->
  exists v, forall r, (r < n)%nat -> sum n (fun c => T r c * v c) = b r.
Proof.
  intros n T b D Z. destruct (solve_lower n (fun r c => T (n - 1 - r) (n - 1 - c))%nat (fun r => b (n - 1 - r)%nat)) as (v & V); [intros; apply D; lia|].
  exists (fun c => v (n - 1 - c)%nat). intros r H. specialize (V (n - 1 - r)%nat ltac:(lia)). cbn beta in V.
  replace (n - 1 - (n - 1 - r))%nat with r in V by lia. rewrite <- V. rewrite <- sum_rev.
  rewrite (sum_split n (S (n - 1 - r))) by (try lia; intros k Hk; rewrite Z by lia; ring).
  apply sum_ext. intros k Hk. replace (n - 1 - (n - 1 - k))%nat with k by lia. reflexivity.
Qed.

(** ---- the loops as closed forms ---- *)
Lemma find_pivot_spec : forall A i n, (i < n)%nat ->
  (i <= find_pivot A i n < n)%nat /\ (A (find_pivot A i n) i = 0 -> forall r, (i <= r < n)%nat -> A r i = 0).
Proof.
  intros A i n H. unfold find_pivot.
  set (I := fun j (s : nat * K) => (i <= fst s < j)%nat /\ snd s = fabs (A (fst s) i) /\ (A (fst s) i = 0 -> forall r, (i <= r < j)%nat -> A r i = 0)).
  assert (G: I n (for_ (i + 1) n (fun j '(imax, Smax) => let s := fabs (A j i) in if gtb s Smax then (j, s) else (imax, Smax)) (i, fabs (A i i)))).
  { apply for_ind with (I := I); [lia| |].
    - unfold I. cbn [fst snd]. split; [lia|]. split; auto. intros Z r Hr. replace r with i by lia. auto.
    - intros k (m, S) Hk (I1 & I2 & I3). cbn [fst snd] in *. cbv zeta. destruct (gtb (fabs (A k i)) S) eqn:G; unfold I; cbn [fst snd].
      + split; [lia|]. split; auto. intros Z. exfalso. subst S. apply gtb_nonzero in G. auto.
      + split; [lia|]. split; auto. intros Z r Hr. destruct (Nat.eq_dec r k) as [->|N]; [|apply I3; auto; lia].
        destruct (iszero (A k i)) eqn:E; [apply iszero_spec; auto|].
        assert (A k i <> 0) by (intros C; apply iszero_spec in C; congruence). subst S. rewrite Z, gtb_zero in G; auto. discriminate. }
  destruct G as (G1 & _ & G2). auto.
Qed.

Ltac bdec := repeat (match goal with
  | |- context [?a =? ?b] => destruct (Nat.eqb_spec a b); try subst; try lia
  | |- context [?a <? ?b] => destruct (Nat.ltb_spec a b); try lia
  | |- context [?a <=? ?b] => destruct (Nat.leb_spec a b); try lia end; cbn [andb orb]).
Definition tr (i j k : nat) : nat := if k =? i then j else if k =? j then i else k.
Lemma tr_invol : forall i j k, tr i j (tr i j k) = k.
Proof. intros. unfold tr. destruct (Nat.eqb_spec k i); [bdec; auto|]. destruct (Nat.eqb_spec k j); bdec; auto. Qed.
Lemma tr_lt : forall i j k n, (i < n -> j < n -> k < n -> tr i j k < n)%nat.
Proof. intros. unfold tr. bdec; auto. Qed.
Lemma swap_rows_spec : forall A i m n r c, swap_rows A i m n r c = if c <? n then A (tr i m r) c else A r c.
Proof.
  intros A i m n r c. unfold swap_rows. destruct (Nat.eqb_spec i m) as [->|N].
  { unfold tr. bdec; auto. }
  pose (I1 := (fun k (B : mat) => forall r c, B r c = if c <? k then A (tr i m r) c else A r c)); enough (Q: I1 n (for_ 0 n (fun j A => let temp := A i j in upd (upd A i j (A m j)) m j temp) A)) by apply Q.
  loop; [lia | intros; bdec; auto |]. intros k B Hk IH r' c'. cbv zeta. unfold upd. rewrite !IH. unfold tr. bdec; auto.
Qed.
Lemma eliminate_spec : forall A i n r c, (i < n)%nat -> eliminate A i n r c =
  if (i <? r) && (r <? n) then
    if c =? i then A r i * (1 / A i i) else if (i <? c) && (c <? n) then A r c - A r i * (1 / A i i) * A i c else A r c
  else A r c.
Proof.
  intros A i n r c H. unfold eliminate. set (v := 1 / A i i).
  set (B := for_ (i + 1) n (fun j A => upd A j i (A j i * v)) A).
  assert (HB: forall r c, B r c = if (i <? r) && (r <? n) && (c =? i) then A r i * v else A r c).
  { pose (I2 := (fun k (B : mat) => forall r c, B r c = if (i <? r) && (r <? k) && (c =? i) then A r i * v else A r c)); enough (Q: I2 n B) by apply Q.
    loop; [lia | intros; bdec; auto |]. intros k D Hk IH r' c'. unfold upd. rewrite !IH. bdec; auto. }
  clearbody B.
  pose (I3 := (fun j (D : mat) => forall r c, D r c = if (i <? r) && (r <? j) && (i <? c) && (c <? n) then B r c - B r i * B i c else B r c)); enough (Q: I3 n (for_ (i + 1) n (fun j A => for_ (i + 1) n (fun k A => upd A j k (A j k - A j i * A i k)) A) B)).
  { cbv zeta. rewrite Q, !HB. bdec; auto. }
  loop; [lia | intros; bdec; auto |]. intros j D Hj IH.
  pose (I4 := (fun k (E : mat) => forall r c, E r c = if (r =? j) && (i <? c) && (c <? k) then D r c - D r i * D i c else D r c)); enough (Q: I4 n (for_ (i + 1) n (fun k A => upd A j k (A j k - A j i * A i k)) D)).
  { intros r' c'. rewrite Q, !IH. bdec; auto. }
  loop; [lia | intros; bdec; auto |]. intros k E Hk IHE r' c'. unfold upd. rewrite !IHE. bdec; auto.
Qed.

(** ---- step 1: the decomposition ---- *)
Definition Lm (A : mat) (r k : nat) : F := if k <? r then A r k else if k =? r then 1 else 0.
Definition Um (A : mat) (k c : nat) : F := if k <=? c then A k c else 0.
Fixpoint sig (p : nat -> nat) (i r : nat) : nat := match i with O => r | S k => sig p k (tr k (p k) r) end.
Lemma sig_ext : forall p q i r, (forall k, (k < i)%nat -> p k = q k) -> sig p i r = sig q i r.
Proof. induction i; intros r H; cbn [sig]; auto. rewrite H by lia. apply IHi. auto. Qed.
Lemma sig_lt : forall p n i r, (i <= n)%nat -> (forall k, (k < i)%nat -> (k <= p k < n)%nat) -> (r < n)%nat -> (sig p i r < n)%nat.
Proof. induction i; intros r H Hp Hr; cbn [sig]; auto. apply IHi; auto; try lia. specialize (Hp i ltac:(lia)). apply tr_lt; lia. Qed.
Lemma sig_onto : forall p n i s, (i <= n)%nat -> (forall k, (k < i)%nat -> (k <= p k < n)%nat) -> (s < n)%nat -> exists r, (r < n)%nat /\ sig p i r = s.
Proof.
  induction i; intros s H Hp Hs; [exists s; auto|]. destruct (IHi s) as (r & R1 & R2); auto; try lia.
  specialize (Hp i ltac:(lia)). exists (tr i (p i) r). split; [apply tr_lt; lia|]. cbn [sig]. rewrite tr_invol. auto.
Qed.

Definition decomposed (n : nat) (A0 : mat) (i : nat) (A : mat) (p : nat -> nat) : Prop :=
  (forall k, (k < i)%nat -> (k <= p k < n)%nat) /\ (forall k, (k < i)%nat -> A k k <> 0) /\
  (forall r c, (r < n)%nat -> (c < n)%nat -> A0 (sig p i r) c = sum i (fun k => Lm A r k * Um A k c) + (if (i <=? r) && (i <=? c) then A r c else 0)) /\
  (forall r c, (n <= r)%nat \/ (n <= c)%nat -> A r c = A0 r c).
Definition singular (n : nat) (A : mat) : Prop :=
  exists v j, (j < n)%nat /\ v j <> 0 /\ forall r, (r < n)%nat -> sum n (fun c => A r c * v c) = 0.

Lemma step1_ok : forall n A0 i A p A' p', (i < n)%nat -> decomposed n A0 i A p -> step1 i n (Some (A, p)) = Some (A', p') -> decomposed n A0 (i + 1) A' p'.
Proof.
  intros n A0 i A p A' p' Hi (D1 & D2 & D3 & D4) E. cbn [step1] in E. destruct (find_pivot_spec A i n Hi) as (M & _).
  set (m := find_pivot A i n) in *. clearbody m. destruct (iszero (swap_rows A i m n i i)) eqn:Z; [discriminate|]. injection E as <- <-.
  assert (NZ: swap_rows A i m n i i <> 0) by (intros C; apply iszero_spec in C; congruence). clear Z.
  set (B := swap_rows A i m n) in *.
  assert (HB: forall r c, B r c = if c <? n then A (tr i m r) c else A r c) by (intros; apply swap_rows_spec).
  clearbody B. assert (low: forall k, (k < i)%nat -> tr i m k = k) by (intros; unfold tr; bdec; auto).
  assert (HE: forall r c, eliminate B i n r c = if (i <? r) && (r <? n) then
    if c =? i then B r i * (1 / B i i) else if (i <? c) && (c <? n) then B r c - B r i * (1 / B i i) * B i c else B r c
    else B r c) by (intros; apply eliminate_spec; auto).
  set (A' := eliminate B i n) in *. clearbody A'. replace (i + 1)%nat with (S i) by lia. repeat split.
  - destruct (Nat.eq_dec k i) as [->|N]; unfold vupd; bdec; apply D1; lia.
  - unfold vupd; bdec. apply D1; lia.
  - intros k Hk. rewrite HE. destruct (Nat.eq_dec k i) as [->|N]; [bdec; auto|]. bdec. rewrite HB. bdec. rewrite low by lia. apply D2. lia.
  - intros r c Hr Hc. cbn [sig]. rewrite (sig_ext _ p) by (intros; unfold vupd; bdec; auto).
    replace (vupd p i m i) with m by (unfold vupd; bdec; auto). rewrite D3 by (auto; apply tr_lt; lia).
    cbn [sum]. rewrite (sum_ext i (fun k => Lm A' r k * Um A' k c) (fun k => Lm A (tr i m r) k * Um A k c)).
    2:{ intros k Hk. f_equal.
        - unfold Lm. destruct (Nat.lt_ge_cases r i) as [Q|Q].
          + rewrite (low r) by auto. rewrite HE, !HB. bdec; rewrite ?low by lia; auto.
          + assert (i <= tr i m r)%nat by (unfold tr; bdec). bdec. rewrite HE, !HB. bdec; auto.
        - unfold Um. bdec; auto. rewrite HE, !HB. bdec; rewrite ?(low k) by lia; auto. }
    generalize (sum i (fun k => Lm A (tr i m r) k * Um A k c)). intros S0. unfold Lm, Um. assert (T: (i <= tr i m r)%nat <-> (i <= r)%nat) by (unfold tr; bdec).
    destruct (Nat.lt_ge_cases r i) as [Q|Q].
    { bdec; try ring; exfalso; lia. }
    destruct (Nat.leb_spec i (tr i m r)); [|lia]. rewrite !HE, !HB. destruct (Nat.eq_dec r i) as [->|N].
    { bdec; try ring. }
    rewrite HB in NZ. replace (i <? n) with true in NZ by (symmetry; apply Nat.ltb_lt; lia).
    bdec; try ring; field; auto.
  - intros r c H. rewrite HE, !HB. assert (G: forall r, (n <= r)%nat -> tr i m r = r) by (intros; unfold tr; bdec; auto).
    assert (X: (if c <? n then A (tr i m r) c else A r c) = A0 r c).
    { bdec; [rewrite G by lia|]; apply D4; lia. }
    rewrite X. bdec; auto.
Qed.
Lemma step1_fails : forall n A0 i A p, (i < n)%nat -> decomposed n A0 i A p -> step1 i n (Some (A, p)) = None -> singular n A0.
Proof.
  intros n A0 i A p Hi (D1 & D2 & D3 & D4) E. cbn [step1] in E. destruct (find_pivot_spec A i n Hi) as (M & M2).
  set (m := find_pivot A i n) in *. clearbody m. destruct (iszero (swap_rows A i m n i i)) eqn:Z; [|discriminate]. clear E.
  apply iszero_spec in Z. rewrite swap_rows_spec in Z. replace (tr i m i) with m in Z by (unfold tr; bdec; auto).
  replace (i <? n) with true in Z by (symmetry; apply Nat.ltb_lt; lia). specialize (M2 Z).
  destruct (solve_upper i (Um A) (fun k => - A k i)) as (v & V).
  { intros r Hr. unfold Um. bdec. auto. }
  { intros r c H1 H2. unfold Um. bdec. auto. }
  set (u := fun c => if c <? i then v c else if c =? i then 1 else 0).
  exists u, i. split; auto. split.
  { unfold u. bdec. apply (F_1_neq_0 Fth). }
  intros s Hs. destruct (sig_onto p n i s) as (r & R1 & <-); auto; try lia.
  assert (UV: forall k, (k < i)%nat -> sum n (fun c => Um A k c * u c) = 0).
  { intros k Hk. rewrite (sum_split n (S i)) by (try lia; intros; unfold u; bdec; ring). cbn [sum].
    rewrite (sum_ext i _ (fun c => Um A k c * v c)) by (intros; unfold u; bdec; auto). rewrite V by auto. unfold Um, u. bdec. ring. }
  rewrite (sum_ext n _ (fun c => sum i (fun k => Lm A r k * (Um A k c * u c)) + (if (i <=? r) && (i <=? c) then A r c else 0) * u c)).
  2:{ intros c Hc. rewrite D3 by auto. rewrite (sum_ext i (fun k => Lm A r k * (Um A k c * u c)) (fun k => (Lm A r k * Um A k c) * u c)) by (intros; ring).
      rewrite sum_mul_r. ring. }
  rewrite sum_add. rewrite sum_swap. rewrite sum_zero.
  2:{ intros k Hk. rewrite sum_mul_l. rewrite UV by auto. ring. }
  rewrite sum_zero; [ring|]. intros c Hc. unfold u. bdec; try ring. rewrite M2 by lia. ring.
Qed.
Lemma plu_spec : forall n A0 p0, match plu A0 p0 n with Some (A, p) => decomposed n A0 n A p | None => singular n A0 end.
Proof.
  intros n A0 p0. unfold plu.
  apply (for_ind (fun i s => match s with Some (A, p) => decomposed n A0 i A p | None => singular n A0 end)); [lia| |].
  - repeat split; try lia; auto. intros r c Hr Hc. cbn [sig sum Nat.leb andb]. ring.
  - intros i [(A, p)|] H D; auto. destruct (step1 i n (Some (A, p))) as [(A', p')|] eqn:E.
    + eapply step1_ok; eauto; lia.
    + eapply step1_fails; eauto; lia.
Qed.

(** ---- step 2: the inverse of U ---- *)
Lemma sub_loop : forall f i j a, (i <= j)%nat -> for_ i j (fun k a => a - f k) a = a - sum j (fun k => if k <? i then 0 else f k).
Proof.
  intros f i j a H. apply (for_ind (fun j b => b = a - sum j (fun k => if k <? i then 0 else f k))); auto.
  - rewrite sum_zero by (intros; bdec; auto). ring.
  - intros k s Hk ->. replace (k + 1)%nat with (S k) by lia. cbn [sum]. bdec. ring.
Qed.
Lemma step2_spec : forall n A i, (i < n)%nat -> (forall k, (i <= k < n)%nat -> A k k <> 0) ->
  (forall r c, r <> i \/ (c < i)%nat \/ (n <= c)%nat -> step2 i n A r c = A r c) /\
  (forall c, (i <= c < n)%nat -> sum (S c) (fun k => if k <? i then 0 else step2 i n A i k * A k c) = delta i c).
Proof.
  intros n A i Hi HD. unfold step2.
  pose (I := fun j (B : mat) => (forall r c, r <> i \/ (c < i)%nat \/ (j <= c)%nat -> B r c = A r c) /\
    (forall c, (i <= c < j)%nat -> sum (S c) (fun k => if k <? i then 0 else B i k * A k c) = delta i c)).
  match goal with |- context [for_ ?a ?b ?c ?d] => assert (G: I n (for_ a b c d)) end.
  { apply (for_ind I); [lia| |].
    - split.
      + intros r c H. unfold upd. bdec; auto.
      + intros c H. replace c with i by lia. cbn [sum]. rewrite sum_zero by (intros; bdec; auto). unfold upd, delta. bdec. field. apply HD. lia.
    - intros j B Hj (I1 & I2). cbv zeta. rewrite sub_loop by lia. split.
      + intros r c H. unfold upd. bdec; apply I1; lia.
      + intros c H. set (Aij := _ / _). destruct (Nat.eq_dec c j) as [->|N].
        * cbn [sum]. bdec. replace (upd B i j Aij i j) with Aij by (unfold upd; bdec; auto). unfold Aij.
          rewrite (I1 j j) by lia. rewrite (sum_ext j (fun k => if k <? i then 0 else upd B i j _ i k * A k j) (fun k => if k <? i then 0 else B i k * B k j)).
          2:{ intros k Hk. unfold upd. bdec; auto. rewrite (I1 k j) by lia. reflexivity. }
          unfold delta. bdec. field. apply HD. lia.
        * rewrite <- (I2 c) by lia. apply sum_ext. intros k Hk. unfold upd. bdec; auto. }
  destruct G as (G1 & G2). cbv zeta. auto.
Qed.
Lemma invert_U_spec : forall n A, (forall k, (k < n)%nat -> A k k <> 0) -> let V := invert_U A n in
  (forall r c, (c < r)%nat \/ (n <= r)%nat \/ (n <= c)%nat -> V r c = A r c) /\
  (forall r c, (r < n)%nat -> (c < n)%nat -> sum n (fun k => Um V r k * Um A k c) = delta r c).
Proof.
  intros n A HD. unfold invert_U. cbv zeta.
  pose (I := fun i (V : mat) => (forall r c, (c < r)%nat \/ (i <= r)%nat \/ (n <= c)%nat -> V r c = A r c) /\
    (forall r c, (r < i)%nat -> (c < n)%nat -> sum n (fun k => Um V r k * Um A k c) = delta r c)).
  apply (for_ind I); [lia | split; intros; auto; lia |]. intros i V Hi (I1 & I2).
  destruct (step2_spec n V i) as (S1 & S2); [lia | intros k Hk; rewrite I1 by lia; apply HD; lia |]. split.
  - intros r c H. rewrite S1 by lia. apply I1. lia.
  - intros r c Hr Hc. destruct (Nat.eq_dec r i) as [->|N].
    + destruct (Nat.lt_ge_cases c i) as [Q|Q].
      { rewrite sum_zero; [unfold delta; bdec; auto|]. intros k Hk. unfold Um. bdec; ring. }
      rewrite (sum_split n (S c)) by (try lia; intros k Hk; unfold Um; bdec; ring). rewrite <- (S2 c) by lia. apply sum_ext. intros k Hk.
      unfold Um. bdec; try ring. rewrite (I1 k c) by lia. reflexivity.
    + rewrite <- I2 by lia. apply sum_ext. intros k Hk. unfold Um. bdec; auto; rewrite S1 by lia; reflexivity.
Qed.

(** ---- step 3 ---- *)
Lemma step3_spec : forall n A w j r c, (j < n)%nat -> fst (step3 j n (A, w)) r c =
  if (r <? n) && (c =? j) then (if r <=? j then A r j else 0) - sum n (fun k => if k <=? j then 0 else A r k * A k j) else A r c.
Proof.
  intros n A w j r c Hj. cbn [step3].
  match goal with |- context [for_ 0 (j + 1) ?b w] => set (w1 := for_ 0 (j + 1) b w) end.
  assert (W1: forall i, (i <= j)%nat -> w1 i = A i j).
  { assert (G: (forall i, (i < j + 1)%nat -> w1 i = A i j)).
    { apply (for_ind (fun m (u : nat -> F) => forall i, (i < m)%nat -> u i = A i j)); [lia|lia|]. intros k s Hk IH i Hi. unfold vupd. bdec; auto. apply IH. lia. }
    intros i Hi. apply G. lia. }
  clearbody w1.
  match goal with |- context [for_ (j + 1) n ?b w1] => set (w2 := for_ (j + 1) n b w1) end.
  assert (W2: forall i, (i < n)%nat -> w2 i = if i <=? j then A i j else 0).
  { apply (for_ind (fun m (u : nat -> F) => forall i, (i < m)%nat -> u i = if i <=? j then A i j else 0)); [lia | |].
    - intros i Hi. bdec. apply W1. lia.
    - intros k s Hk IH i Hi. unfold vupd. bdec; auto; rewrite IH by lia; bdec; auto. }
  clearbody w2.
  match goal with |- context [for_ (j + 1) n ?b w2] => set (w3 := for_ (j + 1) n b w2) end.
  assert (W3: forall i, (i < n)%nat -> w3 i = w2 i - sum n (fun k => if k <=? j then 0 else A i k * A k j)).
  { apply (for_ind (fun m (u : nat -> F) => forall i, (i < n)%nat -> u i = w2 i - sum m (fun k => if k <=? j then 0 else A i k * A k j))); [lia | |].
    - intros i Hi. rewrite sum_zero by (intros; bdec; auto). ring.
    - intros k s Hk IH i Hi. replace (k + 1)%nat with (S k) by lia. cbn [sum]. bdec.
      assert (Q: forall i, (i < n)%nat -> for_ 0 n (fun i0 w0 => vupd w0 i0 (w0 i0 - A i0 k * A k j)) s i = s i - A i k * A k j).
      { pose (I := fun m (u : nat -> F) => forall i, u i = if i <? m then s i - A i k * A k j else s i).
        enough (G: I n (for_ 0 n (fun i0 w0 => vupd w0 i0 (w0 i0 - A i0 k * A k j)) s)) by (intros i' Hi'; rewrite G; bdec; auto).
        apply (for_ind I); unfold I; [lia | intros; bdec; auto |]. intros l u Hl IHu i'. unfold vupd. rewrite !IHu. bdec; auto. }
      rewrite Q, IH by auto. ring. }
  clearbody w3. cbn [fst].
  pose (I := fun m (u : mat) => forall r c, u r c = if (r <? m) && (c =? j) then w3 r else A r c).
  enough (G: I n (for_ 0 n (fun i A0 => upd A0 i j (w3 i)) A)).
  { rewrite G. destruct (Nat.ltb_spec r n); cbn [andb]; auto. rewrite W3, W2 by auto. reflexivity. }
  apply (for_ind I); unfold I; [lia | intros; bdec; auto |]. intros l u Hl IHu r' c'. unfold upd. rewrite !IHu. bdec; auto.
Qed.
Lemma solve_L_spec : forall n V w, let X := fst (solve_L V w n) in
  (forall r c, (n <= r)%nat \/ (n <= c)%nat -> X r c = V r c) /\
  (forall r c, (r < n)%nat -> (c < n)%nat -> sum n (fun k => X r k * Lm V k c) = Um V r c).
Proof.
  intros n V w. unfold solve_L. cbv zeta.
  pose (I := fun j (s : mat * (nat -> F)) => let X := fst s in
    (forall r c, (n <= r)%nat \/ (n <= c)%nat \/ (c < j)%nat -> X r c = V r c) /\
    (forall r c, (r < n)%nat -> (j <= c < n)%nat -> sum n (fun k => X r k * Lm V k c) = Um V r c)).
  match goal with |- context [down n ?b ?s] => assert (G: I 0%nat (down n b s)) end.
  { apply (down_ind I); [split; intros; auto; lia |]. intros j (X, u) Hj (I1 & I2). cbn [fst] in *. split.
    - intros r c H. rewrite step3_spec by auto. bdec; apply I1; lia.
    - intros r c Hr Hc. destruct (Nat.eq_dec c j) as [->|N].
      + rewrite (sum_ext n _ (fun k => (if k <=? j then 0 else X r k * X k j) + (if k =? j then fst (step3 j n (X, u)) r j else 0))).
        2:{ intros k Hk. unfold Lm. destruct (Nat.eqb_spec k j) as [->|N]; [bdec; ring|]. rewrite (step3_spec n X u j r k) by auto. bdec; try ring; rewrite (I1 k j) by lia; ring. }
        rewrite sum_add. rewrite (sum_single n (fun k => if k =? j then _ else 0) j) by (auto; intros; bdec; auto). rewrite Nat.eqb_refl.
        rewrite step3_spec by auto. unfold Um. bdec; rewrite ?(I1 r j) by lia; ring.
      + rewrite <- I2 by lia. apply sum_ext. intros k Hk. unfold Lm. bdec; try ring; rewrite step3_spec by auto; bdec; auto. }
  destruct G as (G1 & G2). split; [intros; apply G1; lia | intros; apply G2; lia].
Qed.

(** ---- step 4 ---- *)
Fixpoint tail (p : nat -> nat) (j d c : nat) : nat := match d with O => c | S d' => tr j (p j) (tail p (S j) d' c) end.
Lemma sig_tail : forall p d j c, sig p (j + d) c = sig p j (tail p j d c).
Proof. induction d; intros j c; cbn [tail]; [rewrite Nat.add_0_r; auto|]. replace (j + S d)%nat with (S j + d)%nat by lia. rewrite IHd. cbn [sig]. reflexivity. Qed.
Lemma step4_spec : forall p j n A r c, step4 p j n A r c = if r <? n then A r (tr j (p j) c) else A r c.
Proof.
  intros. unfold step4. destruct (Nat.eqb_spec (p j) j) as [->|N]; [unfold tr; bdec; auto|]. generalize dependent (p j). intros m N.
  pose (I := fun k (B : mat) => forall r c, B r c = if r <? k then A r (tr j m c) else A r c).
  match goal with |- for_ ?a ?b ?d ?e _ _ = _ => enough (G: I n (for_ a b d e)) by apply G end.
  apply (for_ind I); unfold I; [lia | intros; bdec; auto |]. intros k B Hk IH r' c'. cbv zeta. unfold upd. rewrite !IH. unfold tr. bdec; auto.
Qed.
Lemma exchange_spec : forall p n A, (forall k, (k < n)%nat -> (k <= p k < n)%nat) ->
  (forall r c, (n <= r)%nat \/ (n <= c)%nat -> exchange p A n r c = A r c) /\
  (forall r c, (r < n)%nat -> exchange p A n r (sig p n c) = A r c).
Proof.
  intros p n A Hp. unfold exchange.
  pose (I := fun j (B : mat) => (forall r c, (n <= r)%nat \/ (n <= c)%nat -> B r c = A r c) /\ (forall r c, (r < n)%nat -> (j <= n)%nat -> B r (tail p j (n - j) c) = A r c)).
  match goal with |- context [down n ?b ?s] => assert (G: I 0%nat (down n b s)) end.
  { apply (down_ind I).
    - split; auto. intros. rewrite Nat.sub_diag. reflexivity.
    - intros j B Hj (I1 & I2). split.
      + intros r c H. rewrite step4_spec. specialize (Hp j Hj). bdec; [|apply I1; auto]. replace (tr j (p j) c) with c by (unfold tr; bdec; auto). apply I1. auto.
      + intros r c Hr Hn. rewrite step4_spec. replace (n - j)%nat with (S (n - (j + 1))) by lia. cbn [tail]. rewrite tr_invol. bdec.
        replace (S j) with (j + 1)%nat by lia. apply I2; lia. }
  destruct G as (G1 & G2). split; auto. intros r c Hr. specialize (G2 r c Hr ltac:(lia)). rewrite Nat.sub_0_r in G2.
  rewrite <- G2. f_equal. rewrite <- (Nat.add_0_l n) at 1. rewrite sig_tail. reflexivity.
Qed.

(** ---- the whole function ---- *)
Definition inverse_of (n : nat) (A B : mat) : Prop := forall i j, (i < n)%nat -> (j < n)%nat ->
  sum n (fun k => A i k * B k j) = delta i j /\ sum n (fun k => B i k * A k j) = delta i j.

Lemma plu_inverse_spec : forall n p w A, match plu_inverse n p w A with
  | Some B => inverse_of n A B /\ (forall r c, (n <= r)%nat \/ (n <= c)%nat -> B r c = A r c)
  | None => singular n A end.
Proof.
  intros n p0 w A0. unfold plu_inverse. pose proof (plu_spec n A0 p0) as D. destruct (plu A0 p0 n) as [(A, p)|]; auto.
  destruct D as (D1 & D2 & D3 & D4). destruct (invert_U_spec n A D2) as (U1 & U2). set (V := invert_U A n) in *. clearbody V.
  destruct (solve_L_spec n V w) as (X1 & X2). set (X := fst (solve_L V w n)) in *. clearbody X.
  destruct (exchange_spec p n X D1) as (E1 & E2). set (B := exchange p X n) in *. clearbody B.
  assert (LU: forall r c, (r < n)%nat -> (c < n)%nat -> A0 (sig p n r) c = sum n (fun k => Lm A r k * Um A k c)).
  { intros r c Hr Hc. rewrite D3 by auto. bdec. ring. }
  assert (XLU: forall r v, (r < n)%nat -> sum n (fun s => X r s * sum n (fun c => A0 (sig p n s) c * v c)) = v r).
  { intros r v Hr.
    rewrite (sum_ext n _ (fun s => X r s * sum n (fun k => Lm A s k * sum n (fun c => Um A k c * v c)))).
    2:{ intros s Hs. f_equal. rewrite sum_assoc. apply sum_ext. intros c Hc. rewrite LU by auto. reflexivity. }
    rewrite sum_assoc.
    rewrite (sum_ext n _ (fun k => Um V r k * sum n (fun c => Um A k c * v c))).
    2:{ intros k Hk. f_equal. rewrite <- X2 by auto. apply sum_ext. intros s Hs. unfold Lm. bdec; auto. rewrite U1 by lia. reflexivity. }
    rewrite sum_assoc. rewrite (sum_ext n _ (fun c => delta r c * v c)) by (intros; rewrite U2; auto). apply sum_delta_l. auto. }
  assert (PS: forall f : nat -> F, sum n (fun s => f (sig p n s)) = sum n f).
  { assert (PT: forall i m (f : nat -> F), (i < n)%nat -> (m < n)%nat -> sum n (fun s => f (tr i m s)) = sum n f).
    { intros i m f Hi Hm. destruct (Nat.eq_dec i m) as [->|N]; [apply sum_ext; intros; unfold tr; bdec; auto|].
      assert (Q: forall g, sum n g = sum n (fun k => if (k =? i) || (k =? m) then 0 else g k) + g i + g m).
      { intros g. rewrite (sum_ext n g (fun k => (if (k =? i) || (k =? m) then 0 else g k) + (if k =? i then g i else 0) + (if k =? m then g m else 0))) by (intros; bdec; ring).
        rewrite !sum_add. rewrite (sum_single n (fun k => if k =? i then g i else 0) i), (sum_single n (fun k => if k =? m then g m else 0) m) by (auto; intros; bdec; auto).
        rewrite !Nat.eqb_refl. ring. }
      rewrite (Q (fun s => f (tr i m s))), (Q f). rewrite (sum_ext n _ (fun k => if (k =? i) || (k =? m) then 0 else f k)) by (intros; unfold tr; bdec; auto).
      unfold tr. bdec. ring. }
    assert (G: forall i (f : nat -> F), (i <= n)%nat -> sum n (fun s => f (sig p i s)) = sum n f).
    { induction i; intros f Hi; auto. cbn [sig]. specialize (D1 i ltac:(lia)). rewrite (PT i (p i) (fun s => f (sig p i s))) by lia. apply IHi. lia. }
    intros f. apply G. lia. }
  assert (BA: forall r v, (r < n)%nat -> sum n (fun s => B r s * sum n (fun c => A0 s c * v c)) = v r).
  { intros r v Hr. rewrite <- (XLU r v) by auto. rewrite <- PS. apply sum_ext. intros s Hs. rewrite E2 by auto. reflexivity. }
  assert (SJ: forall b, exists v, forall s, (s < n)%nat -> sum n (fun c => A0 s c * v c) = b s).
  { intros b. destruct (solve_lower n (Lm A) (fun r => b (sig p n r))) as (y & Y).
    { intros r Hr. unfold Lm. bdec. apply (F_1_neq_0 Fth). }
    destruct (solve_upper n (Um A) y) as (v & Hv).
    { intros r Hr. unfold Um. bdec. auto. }
    { intros. unfold Um. bdec. auto. }
    exists v. intros s Hs. destruct (sig_onto p n n s) as (r & Hr & <-); auto. rewrite <- (Y r) by auto.
    rewrite (sum_ext n _ (fun c => sum n (fun k => Lm A r k * Um A k c) * v c)) by (intros; rewrite LU; auto).
    rewrite <- sum_assoc. rewrite (sum_ext n _ (fun c => Lm A r c * y c)) by (intros; rewrite Hv; auto).
    apply sum_split; [lia|]. intros k Hk. unfold Lm. bdec. ring. }
  split.
  - intros i j Hi Hj. split.
    + destruct (SJ (fun s => delta s j)) as (v & Hv). rewrite <- (Hv i) by auto. apply sum_ext. intros k Hk. f_equal. rewrite <- (BA k v) by auto.
      rewrite (sum_ext n _ (fun s => B k s * delta s j)) by (intros; rewrite Hv; auto). rewrite sum_delta_r; auto.
    + rewrite <- (BA i (fun c => delta c j)) by auto. apply sum_ext. intros s Hs. rewrite sum_delta_r; auto.
  - intros r c H. rewrite E1, X1, U1 by lia. auto.
Qed.

(** src/TMatrixResource.hpp 712-731 (m = 0, nm = nmax) and 1102-1120 (m > 0): inversion of Q and the
    product T = - RgQ inv(Q), block by block *)
Definition t_product (nm : nat) (Q RgQ T : mat) : mat :=
  for_ 0 nm (fun i T => for_ 0 nm (fun j T =>
    let T := upd T i j 0 in let T := upd T (nm + i) j 0 in let T := upd T i (nm + j) 0 in let T := upd T (nm + i) (nm + j) 0 in
    for_ 0 (2 * nm) (fun k T =>
      let T := upd T i j (T i j - RgQ i k * Q k j) in
      let T := upd T (nm + i)%nat j (T (nm + i)%nat j - RgQ (nm + i)%nat k * Q k j) in
      let T := upd T i (nm + j)%nat (T i (nm + j)%nat - RgQ i k * Q k (nm + j)%nat) in
      upd T (nm + i)%nat (nm + j)%nat (T (nm + i)%nat (nm + j)%nat - RgQ (nm + i)%nat k * Q k (nm + j)%nat)) T) T) T.
Definition t_matrix (nm : nat) (pivot : nat -> nat) (work : nat -> F) (Q RgQ T : mat) : option mat :=
  match plu_inverse (2 * nm) pivot work Q with Some Qinv => Some (t_product nm Qinv RgQ T) | None => None end.

Lemma t_product_spec : forall nm Q RgQ T r c, t_product nm Q RgQ T r c =
  if (r <? 2 * nm) && (c <? 2 * nm) then - sum (2 * nm) (fun k => RgQ r k * Q k c) else T r c.
Proof.
  intros nm Q RgQ T r c. unfold t_product.
  set (V := fun r c => - sum (2 * nm) (fun k => RgQ r k * Q k c)).
  pose (row := fun i r => (r <? i) || ((nm <=? r) && (r <? nm + i))). pose (col := fun (j c : nat) => (c <? j) || ((nm <=? c) && (c <? nm + j))).
  pose (I := fun i (X : mat) => forall r c, X r c = if row i r && (c <? 2 * nm) then V r c else T r c).
  match goal with |- for_ ?a ?b ?d ?e _ _ = _ => assert (G: I nm (for_ a b d e)) end.
  { apply (for_ind I); unfold I.
    - lia.
    - intros r' c'. unfold row. bdec; auto.
    - intros i X Hi IX. clear I.
      pose (J := fun j (Y : mat) => forall r c, Y r c = if ((r =? i) || (r =? nm + i)) && col j c then V r c else X r c).
      match goal with |- forall r c, for_ ?a ?b ?d ?e _ _ = _ => assert (GJ: J nm (for_ a b d e)) end.
      { apply (for_ind J); unfold J.
        - lia.
        - intros r' c'. unfold col. bdec; auto.
        - intros j Y Hj IY. clear J. cbv zeta.
          pose (KK := fun k (Z : mat) => forall r c, Z r c = if ((r =? i) || (r =? nm + i)) && ((c =? j) || (c =? nm + j)) then - sum k (fun k => RgQ r k * Q k c) else Y r c).
          match goal with |- forall r c, for_ ?a ?b ?d ?e _ _ = _ => assert (GK: KK (2 * nm)%nat (for_ a b d e)) end.
          { apply (for_ind KK); unfold KK.
            - lia.
            - intros r' c'. unfold upd. cbn [sum]. bdec; auto; ring.
            - intros k Z Hk IZ r' c'. replace (k + 1)%nat with (S k) by lia. cbn [sum]. unfold upd. rewrite !IZ. bdec; auto; ring. }
          intros r' c'. rewrite GK, IY. unfold col, V. bdec; auto. }
      intros r' c'. rewrite GJ, IX. unfold col, row. bdec; auto. }
  rewrite G. unfold row. bdec; auto.
Qed.
End Field.
