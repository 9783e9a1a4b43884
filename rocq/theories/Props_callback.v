(** C96: Python functions are called with the documented arguments, once for every combination, and what they return is used. *)
From Verif Require Import ResultTable.
From Coq Require Import List Arith ZArith Lia Bool Reals Lra Permutation Sorted.
From Coquelicot Require Import Complex.
From Verif Require Import Clebsch Matrix NumPy Footprint TaskGraph Whole Physics GetTable Callback Props_gettable.
Import ListNotations.
Local Open Scope R_scope.

(** A result that is the number z: a Python complex, or a NumPy array without dimensions of two doubles that hold the parts of z. *)
Definition denotes (m : memory) (r : returned) (z : C) : Prop :=
  r = Complex z \/ exists a u v, r = Scalar Complex128 a /\ load m 8 a = Some u /\ load m 8 (a + 8)%Z = Some v /\ real_of_word u = Re z /\ real_of_word v = Im z.
Definition denotes_real (m : memory) (r : returned) (x : R) : Prop :=
  r = Float x \/ exists a u, r = Scalar Double a /\ load m 8 a = Some u /\ real_of_word u = x.

(** Such results are taken as they are; a number is also taken from complex arrays of other precisions (wrongly, see below); nothing else gives a number. *)
Theorem C96_results : forall m r z,
  (denotes m r z -> as_index m r = Value z) /\
  (as_index m r = Value z -> denotes m r z \/ exists a, r = Scalar Complex64 a \/ r = Scalar ComplexLong a) /\
  (as_index m r = NullPointer <-> r = Raises).
Proof.
  intros m r z. split; [|split].
  - intros [->|(a & u & v & -> & Hu & Hv & Eu & Ev)]; [reflexivity|]. cbn [as_index is_complex]. rewrite Hu, Hv, Eu, Ev. destruct z. reflexivity.
  - intros H. destruct r as [|z'|z'|x|t a| |]; cbn [as_index is_complex] in H; try discriminate; [left; left; congruence|].
    destruct t; cbn [as_index is_complex] in H; try discriminate; [right; exists a; auto | | right; exists a; auto].
    left. right. destruct (load m 8 a) as [u|] eqn:E1; [|discriminate]. destruct (load m 8 (a + 8)%Z) as [v|] eqn:E2; [|discriminate]. injection H as <-. exists a, u, v. repeat split; auto.
  - destruct r as [|z'|z'|x|t a| |]; cbn [as_index is_complex]; split; intros H; try discriminate; try reflexivity.
    destruct (is_complex t); [destruct (load m 8 a); [destruct (load m 8 (a + 8)%Z)|]|]; discriminate.
Qed.
Theorem C96_densities : forall m r x,
  (denotes_real m r x -> as_density m r = Value x) /\
  (as_density m r = Value x -> denotes_real m r x \/ exists a, r = Scalar Half a \/ r = Scalar Single a \/ r = Scalar LongDouble a) /\
  (as_density m r = NullPointer <-> r = Raises).
Proof.
  intros m r x. split; [|split].
  - intros [->|(a & u & -> & Hu & Eu)]; [reflexivity|]. cbn [as_density is_float]. rewrite Hu, Eu. reflexivity.
  - intros H. destruct r as [|z'|z'|y|t a| |]; cbn [as_density] in H; try discriminate; [left; left; congruence|].
    destruct (is_float t) eqn:F; [|discriminate]. destruct (load m 8 a) as [u|] eqn:E; [|discriminate]. injection H as <-.
    destruct t; try discriminate F; [right; exists a; auto | right; exists a; auto | left; right; exists a, u; auto | right; exists a; auto].
  - destruct r as [|z'|z'|y|t a| |]; cbn [as_density]; split; intros H; try discriminate; try reflexivity. destruct (is_float t); [destruct (load m 8 a)|]; discriminate.
Qed.

(** The program is aborted by a function that returns a numpy.complex128, as functions of NumPy do for scalars (or a real number, or an array with dimensions). *)
Theorem C96_numpy_scalar_refuted : forall m z x, as_index m (ComplexKind z) = Aborts /\ as_index m (Float x) = Aborts /\ as_index m Array = Aborts.
Proof. intros. repeat split. Qed.
(** An array of one complex64 has eight bytes: the second number is read behind its end. The same for the densities and float32. *)
Theorem C96_single_precision_refuted : forall base re im, (0 <= re < 2 ^ 32)%Z -> (0 <= im < 2 ^ 32)%Z ->
  as_index (buffer base 4 [re; im]) (Scalar Complex64 base) = OutOfBounds /\ as_density (buffer base 4 [re]) (Scalar Single base) = OutOfBounds.
Proof.
  intros base re im Hr Hi.
  assert (L : forall w a, (base + Z.of_nat (4 * length w) <= a)%Z -> load (buffer base 4 w) 8 a = None).
  { intros w a H. cbn [load]. assert (E : buffer base 4 w a = None); [|rewrite E; reflexivity]. unfold buffer.
    destruct (Z.leb_spec (base + Z.of_nat 4 * Z.of_nat (length w)) a); [rewrite orb_true_r; reflexivity | lia]. }
  split.
  - cbn [as_index is_complex]. rewrite (L [re; im] (base + 8)%Z) by (cbn [length]; lia). destruct (load (buffer base 4 [re; im]) 8 base); reflexivity.
  - cbn [as_density is_float]. replace (load (buffer base 4 [re]) 8 base) with (@None Z); [reflexivity|]. symmetry.
    assert (X : forall k n a, (base + 4 <= a + Z.of_nat n)%Z -> (n < k)%nat -> load (buffer base 4 [re]) k a = None).
    { induction k as [|k IH]; intros n a H1 H2; [lia|]. cbn [load]. destruct n as [|n].
      - assert (E : buffer base 4 [re] a = None); [|rewrite E; reflexivity]. unfold buffer. destruct (Z.leb_spec (base + Z.of_nat 4 * Z.of_nat (length [re])) a) as [B|B]; [rewrite orb_true_r; reflexivity | cbn [length] in B; lia].
      - destruct (buffer base 4 [re] a); [|reflexivity]. cbn [obind]. rewrite (IH n (a + 1)%Z); [reflexivity | lia | lia]. }
    apply (X 8%nat 4%nat); lia.
Qed.

(* ---------------------------------------------------------------- the calls of get_table *)
Section Calls.
Variable O : Type.
Variable f : list (call O) -> call O -> returned.
Variable extra : option O.
Variable m : memory.
Definition call_of (q : R * R * Z) : call O := mkCall (fst (fst q)) (snd (fst q)) (int32 (snd q)) extra.
(** the calls before the i-th one, last first *)
Definition history (l : list (R * R * Z)) (i : nat) : list (call O) := rev (map call_of (firstn i l)).

Lemma asked : forall l before,
  let '(calls, r) := ask_all f extra m before l in
  match r with
  | Value zs => calls = rev (map call_of l) ++ before /\ length zs = length l /\
      (forall i q, nth_error l i = Some q -> exists z, nth_error zs i = Some z /\ as_index m (f (history l i ++ before) (call_of q)) = Value z)
  | e => exists i q, nth_error l i = Some q /\ calls = rev (map call_of (firstn (S i) l)) ++ before /\ (forall z, as_index m (f (history l i ++ before) (call_of q)) <> Value z) /\
      match as_index m (f (history l i ++ before) (call_of q)), e with NullPointer, NullPointer | Aborts, Aborts | OutOfBounds, OutOfBounds => True | _, _ => False end
  end.
Proof.
  induction l as [|[[w s] g] l IH]; intros before; cbn [ask_all].
  - split; [reflexivity|]. split; [reflexivity|]. intros [|i] q H; discriminate.
  - unfold get_refractive_index. cbv zeta. change (mkCall w s (int32 g) extra) with (call_of (w, s, g)). destruct (as_index m (f before (call_of (w, s, g)))) as [z| | |] eqn:E.
    2,3,4: exists 0%nat, (w, s, g); split; [reflexivity|]; split; [reflexivity|]; cbn [history firstn map rev app]; unfold history; cbn [firstn map rev app]; rewrite E; split; [discriminate|exact I].
    specialize (IH (call_of (w, s, g) :: before)). destruct (ask_all f extra m (call_of (w, s, g) :: before) l) as [calls r]. 
    assert (HH : forall i, history ((w, s, g) :: l) (S i) ++ before = history l i ++ call_of (w, s, g) :: before) by (intros i; unfold history; cbn [firstn map rev]; rewrite <- app_assoc; reflexivity).
    destruct r as [zs| | |].
    + destruct IH as (A & B & D). split; [rewrite A; cbn [map rev]; rewrite <- app_assoc; reflexivity|]. split; [cbn [length]; lia|].
      intros [|i] q Hq; [injection Hq as <-; exists z; split; [reflexivity | exact E] |]. destruct (D i q Hq) as (z' & Z1 & Z2). exists z'. split; [exact Z1 | rewrite HH; exact Z2].
    + destruct IH as (i & q & A & B & D & F). exists (S i), q. rewrite HH. split; [exact A|]. split; [rewrite B; cbn [firstn map rev]; rewrite <- app_assoc; reflexivity|]. split; assumption.
    + destruct IH as (i & q & A & B & D & F). exists (S i), q. rewrite HH. split; [exact A|]. split; [rewrite B; cbn [firstn map rev]; rewrite <- app_assoc; reflexivity|]. split; assumption.
    + destruct IH as (i & q & A & B & D & F). exists (S i), q. rewrite HH. split; [exact A|]. split; [rewrite B; cbn [firstn map rev]; rewrite <- app_assoc; reflexivity|]. split; assumption.
Qed.

Lemma nth_flat : forall {A B} (g : A -> list B) n l i j a b, (forall x, In x l -> length (g x) = n) -> nth_error l i = Some a -> nth_error (g a) j = Some b -> nth_error (flat_map g l) (i * n + j) = Some b.
Proof.
  intros A B g n. induction l as [|x l IH]; intros [|i] j a b L H1 H2; cbn in H1; try discriminate.
  - injection H1 as ->. cbn [flat_map]. rewrite nth_error_app1; [exact H2 | apply nth_error_Some; cbn; congruence].
  - cbn [flat_map]. rewrite nth_error_app2; rewrite L by (left; reflexivity); [|cbn; lia]. replace (S i * n + j - n)%nat with (i * n + j)%nat by (cbn; lia). apply (IH i j a b); auto. intros y Hy. apply L. right. exact Hy.
Qed.
Lemma len_flat : forall {A B} (g : A -> list B) n l, (forall x, In x l -> length (g x) = n) -> length (flat_map g l) = (length l * n)%nat.
Proof. intros A B g n. induction l as [|x l IH]; intros L; [reflexivity|]. cbn [flat_map length]. rewrite app_length, L by (left; reflexivity). rewrite IH; [lia|]. intros y Hy. apply L. right. exact Hy. Qed.
Lemma inner_length : forall g sizes wavelengths, length (flat_map (fun s => map (fun l => (l, s, g) : R * R * Z) (sort wavelengths)) (sort sizes)) = (length sizes * length wavelengths)%nat.
Proof. intros g sizes wavelengths. rewrite (len_flat _ (length wavelengths)); [rewrite sort_length; reflexivity|]. intros s _. rewrite map_length, sort_length. reflexivity. Qed.

(** get_table calls the function once for every type, size and wavelength of its arguments: the type in the outer loop, in the order given; then the sizes and, innermost, the
    wavelengths, in increasing order. The call for the i-th type, j-th smallest size and k-th smallest wavelength is the one at the parameter point (i, j, k), its arguments are
    wavelength, size, type and the additional arguments (if given). *)
Theorem C96_order : forall types sizes wavelengths i j k g r l, nth_error types i = Some g ->
  (forall s, Permutation sizes s -> Sorted Rle s -> nth_error s j = Some r) -> (forall s, Permutation wavelengths s -> Sorted Rle s -> nth_error s k = Some l) ->
  length (queries types sizes wavelengths) = (length types * (length sizes * length wavelengths))%nat /\
  nth_error (queries types sizes wavelengths) (point_of sizes wavelengths i j k) = Some (l, r, g) /\
  call_of (l, r, g) = mkCall l r (int32 g) extra.
Proof.
  intros types sizes wavelengths i j k g r l Hg Hr Hl. destruct (sort_ok sizes) as (P1 & S1). destruct (sort_ok wavelengths) as (P2 & S2). specialize (Hr _ P1 S1). specialize (Hl _ P2 S2).
  split; [apply len_flat; intros x _; apply inner_length|]. split; [|reflexivity].
  unfold queries, point_of. replace ((i * length sizes + j) * length wavelengths + k)%nat with (i * (length sizes * length wavelengths) + (j * length wavelengths + k))%nat by ring.
  apply (nth_flat _ _ _ i (j * length wavelengths + k) g); [intros x _; apply inner_length | exact Hg |].
  apply (nth_flat _ _ _ j k r); [intros x _; rewrite map_length, sort_length; reflexivity | exact Hr |]. rewrite nth_error_map, Hl. reflexivity.
Qed.
(** If every call returns a number, these are all the calls, in this order, and the refractive index of each point is what the call for this point returned (the function may
    depend on the calls before). Otherwise the calls end with the first one that does not return a number, and the program stops as C96_results says. *)
Theorem C96_calls : forall types sizes wavelengths calls r, generate_indices f extra m types sizes wavelengths = (calls, r) ->
  let l := queries types sizes wavelengths in
  match r with
  | Value zs => calls = rev (map call_of l) /\ length zs = length l /\
      (forall p q, nth_error l p = Some q -> exists z, nth_error zs p = Some z /\ as_index m (f (history l p) (call_of q)) = Value z)
  | e => exists p q, nth_error l p = Some q /\ calls = rev (map call_of (firstn (S p) l)) /\ (forall z, ~ denotes m (f (history l p) (call_of q)) z) /\
      (e = NullPointer -> f (history l p) (call_of q) = Raises)
  end.
Proof.
  intros types sizes wavelengths calls r H l. unfold generate_indices in H. fold l in H. pose proof (asked l []) as A. rewrite H in A. destruct r as [zs| | |].
  - destruct A as (A & B & D). rewrite app_nil_r in A. split; [exact A|]. split; [exact B|]. intros p q Hq. destruct (D p q Hq) as (z & Z1 & Z2). rewrite app_nil_r in Z2. exists z. auto.
  - destruct A as (p & q & A & B & D & F). rewrite app_nil_r in B, D, F. exists p, q. split; [exact A|]. split; [exact B|]. split; [intros z Hz; apply (D z), C96_results, Hz|].
    intros _. destruct (as_index m (f (history l p) (call_of q))) eqn:E; try contradiction. apply (C96_results m _ (RtoC 0)). exact E.
  - destruct A as (p & q & A & B & D & F). rewrite app_nil_r in B, D, F. exists p, q. split; [exact A|]. split; [exact B|]. split; [intros z Hz; apply (D z), C96_results, Hz | discriminate].
  - destruct A as (p & q & A & B & D & F). rewrite app_nil_r in B, D, F. exists p, q. split; [exact A|]. split; [exact B|]. split; [intros z Hz; apply (D z), C96_results, Hz | discriminate].
Qed.
End Calls.

(** The whole of get_table (C88): with a function of its arguments alone, the refractive index at the parameter point of type i, size j and wavelength k is the number which the
    function returns for this wavelength, size and type. *)
Theorem C96_table : forall O (h : call O -> returned) extra m a types sizes wavelengths thetas i j k g r l z, (- 2 ^ 31 <= g < 2 ^ 31)%Z -> nth_error types i = Some g ->
  (forall s, Permutation sizes s -> Sorted Rle s -> nth_error s j = Some r) -> (forall s, Permutation wavelengths s -> Sorted Rle s -> nth_error s k = Some l) ->
  denotes m (h (mkCall l r g extra)) z ->
  let b := with_function h extra m a in
  let c := config b types sizes wavelengths 1 in let I := the_inputs b types sizes wavelengths thetas in let p := point_of sizes wavelengths i j k in
  (p < n_point c)%nat /\ point_size c I p = r /\ point_wavelength c I p = l /\ point_mr c I p = z.
Proof.
  intros O h extra m a types sizes wavelengths thetas i j k g r l z B Hg Hr Hl D b c I p.
  destruct (C88_points b types sizes wavelengths thetas i j k g r l Hg Hr Hl) as (A1 & A2 & A3 & A4). split; [exact A1|]. split; [exact A2|]. split; [exact A3|].
  change (point_mr c I p = ar_index b l r g) in A4. rewrite A4. cbn [b with_function ar_index get_refractive_index snd].
  assert (E : int32 g = g).
  { unfold int32. destruct (Z_lt_le_dec g 0) as [N|N].
    - rewrite <- (Z.mod_unique g (2 ^ 32) (-1) (g + 2 ^ 32)) by lia. destruct (Z.ltb_spec (g + 2 ^ 32) (2 ^ 31)); lia.
    - rewrite Z.mod_small by lia. destruct (Z.ltb_spec g (2 ^ 31)); lia. }
  rewrite E, (proj1 (C96_results m _ z) D). reflexivity.
Qed.
(** The method of the Python object takes type, size and wavelength, the function gets wavelength, size and type; types of more than 32 bits are cut. *)
Theorem C96_method : forall O (f : list (call O) -> call O -> returned) extra m before type size wavelength, (- 2 ^ 31 <= type < 2 ^ 31)%Z ->
  method f extra m before type size wavelength = (mkCall wavelength size type extra :: before, as_index m (f before (mkCall wavelength size type extra))).
Proof.
  intros O f extra m before type size wavelength B. unfold method, get_refractive_index.
  assert (E : int32 type = type).
  { unfold int32. destruct (Z_lt_le_dec type 0) as [N|N].
    - rewrite <- (Z.mod_unique type (2 ^ 32) (-1) (type + 2 ^ 32)) by lia. destruct (Z.ltb_spec (type + 2 ^ 32) (2 ^ 31)); lia.
    - rewrite Z.mod_small by lia. destruct (Z.ltb_spec type (2 ^ 31)); lia. }
  rewrite E. reflexivity.
Qed.
Print Assumptions C96_results. Print Assumptions C96_densities. Print Assumptions C96_numpy_scalar_refuted. Print Assumptions C96_single_precision_refuted.
Print Assumptions C96_order. Print Assumptions C96_calls. Print Assumptions C96_table. Print Assumptions C96_method.

(* ---------------------------------------------------------------- examples *)
(** A function that returns 1.5 + 0.02i for the first call and the index of its wavelength afterwards; four calls. *)
Definition example_function (before : list (call unit)) (c : call unit) : returned := match before with [] => Complex (1.5, 0.02) | _ => Complex (c_wavelength c, c_size c) end.
Example C96_four_calls : exists calls, generate_indices example_function None (fun _ => None) [2%Z] [3; 1] [7; 5] = (calls, Value [(1.5, 0.02); (7, 1); (5, 3); (7, 3)]) /\
  rev calls = [mkCall 5 1 2%Z None; mkCall 7 1 2%Z None; mkCall 5 3 2%Z None; mkCall 7 3 2%Z None].
Proof.
  assert (S1: sort [3; 1] = [1; 3]) by (unfold sort; cbn [fold_right insert]; destruct (Rle_dec 3 1); [lra|reflexivity]).
  assert (S2: sort [7; 5] = [5; 7]) by (unfold sort; cbn [fold_right insert]; destruct (Rle_dec 7 5); [lra|reflexivity]).
  unfold generate_indices, queries. rewrite S1, S2. eexists. split; reflexivity.
Qed.
(** An exception in the second call *)
Example C96_exception : let h (before : list (call unit)) (c : call unit) := match before with [] => Complex (1.5, 0.02) | _ => Raises end in
  snd (generate_indices h None (fun _ => None) [2%Z] [3; 1] [5]) = NullPointer /\ length (fst (generate_indices h None (fun _ => None) [2%Z] [3; 1] [5])) = 2%nat.
Proof.
  assert (S1: sort [3; 1] = [1; 3]) by (unfold sort; cbn [fold_right insert]; destruct (Rle_dec 3 1); [lra|reflexivity]).
  cbv zeta. unfold generate_indices, queries. rewrite S1. split; reflexivity.
Qed.
(** An array without dimensions that holds 1.5 - 2i *)
Example C96_array : denotes (buffer 4096 8 [4609434218613702656; 13835058055282163712]%Z) (Scalar Complex128 4096%Z) (1.5, -2).
Proof.
  right. exists 4096%Z, 4609434218613702656%Z, 13835058055282163712%Z. split; [reflexivity|]. split; [reflexivity|]. split; [reflexivity|].
  assert (D1: double 4609434218613702656 = Some (6755399441055744, -52)%Z) by reflexivity. assert (D2: double 13835058055282163712 = Some (-4503599627370496, -51)%Z) by reflexivity.
  unfold real_of_word. rewrite D1, D2. cbn [Re Im fst snd]. unfold powerRZ. change (Pos.to_nat 52) with 52%nat. change (Pos.to_nat 51) with 51%nat.
  assert (P: forall n, 2 ^ n = IZR (2 ^ Z.of_nat n)) by (intros n; rewrite pow_IZR; reflexivity). rewrite !P. change (2 ^ Z.of_nat 52)%Z with 4503599627370496%Z. change (2 ^ Z.of_nat 51)%Z with 2251799813685248%Z. split; lra.
Qed.
