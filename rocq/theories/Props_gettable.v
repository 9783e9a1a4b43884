(** C88: what get_table returns for what it is given.  Specification: first part, together with [holds], [squeezed] (NumPy.v) and the physics of Props_physics.v. *)
From Verif Require Import ResultTable.
From Coq Require Import List ZArith Arith Lia Bool Reals Lra Floats.SpecFloat Permutation Sorted.
From Coquelicot Require Import Complex.
From Verif Require Import Base Clebsch Matrix Align AlignFacts Props_align Average QMatrix Ebcm Props_tmatrix Optics TClass Frames 
  LockProto Sched Api TaskGraph TaskGraphFacts TaskDeps Footprint GraphApi GraphHist GraphRun Determinism SlotFree SlotFinal DryRun MemLimit Converge Whole Props_whole Physics Props_physics Props_spheretable NumPy GetTable.
Import ListNotations.
Open Scope R_scope.

(* ------------------------------------------------------------ specification *)
Section Spec.
Variable a : arguments.
Variables (types : list Z) (sizes wavelengths thetas : list R).
(** [P k p q t x]: x is a right value of quantity q of kind k for parameter point p and angle or direction t *)
Variable P : TaskGraph.kind -> nat -> nat -> nat -> R -> Prop.
Notation dims1 := (first_dims a types sizes wavelengths thetas).
Notation dims2 := (second_dims types sizes wavelengths thetas).
(** dimensions of length 1 are dropped from a shape *)
Definition reduced (dims : list nat) : list nat := filter (fun d => negb (d =? 1)%nat) dims.
(** parameter point with type i, size j and wavelength k *)
Definition point_of (i j k : nat) : nat := ((i * length sizes + j) * length wavelengths + k)%nat.
(** [r] has the element x at the given position of the array with all dimensions *)
Definition has (r : result R) (dims index : list nat) (Px : R -> Prop) : Prop := exists x, entry r (squeezed dims index) = Some x /\ Px x.
(** the array of coefficients: type, size, wavelength, angle, and the columns Qabs, Qabspol, Qext, Qextpol, Qextcpol, without those not asked for *)
Definition coefficients (r : result R) : Prop := shape r = reduced dims1 /\
  forall i j k t, (i < length types)%nat -> (j < length sizes)%nat -> (k < length wavelengths)%nat -> (t < length thetas)%nat ->
  (ar_abs a = true -> forall q, (q < 2)%nat -> has r dims1 [i; j; k; t; q] (P Abs (point_of i j k) q t)) /\
  (ar_ext a = true -> forall q, (q < 3)%nat -> has r dims1 [i; j; k; t; ((if ar_abs a then 2 else 0) + q)%nat] (P Ext (point_of i j k) q t)).
(** the array of scattering matrices: type, size, wavelength, zenith, azimuth, row, column *)
Definition matrices (r : result R) : Prop := shape r = reduced dims2 /\
  forall i j k t ph row col, (i < length types)%nat -> (j < length sizes)%nat -> (k < length wavelengths)%nat -> (t < length thetas)%nat -> (ph < 2 * length thetas)%nat -> (row < 4)%nat -> (col < 4)%nat ->
  has r dims2 [i; j; k; t; ph; row; col] (P Sca (point_of i j k) (row * 4 + col) (t * (2 * length thetas) + ph)).
Definition right_answer (ans : answer) : Prop :=
  match ans with
  | Null => ar_abs a = false /\ ar_ext a = false /\ ar_sca a = false
  | One r => if ar_abs a || ar_ext a then ar_sca a = false /\ coefficients r else ar_sca a = true /\ matrices r
  | Two r1 r2 => ar_abs a || ar_ext a = true /\ ar_sca a = true /\ coefficients r1 /\ matrices r2
  end.
End Spec.

(* ------------------------------------------------------------ proof *)
Lemma insert_perm : forall x l, Permutation (x :: l) (insert x l).
Proof. intros x. induction l as [|y l IH]; cbn [insert]; auto. destruct (Rle_dec x y); auto. rewrite perm_swap. auto. Qed.
Lemma insert_sorted : forall x l, Sorted Rle l -> Sorted Rle (insert x l).
Proof.
  intros x. induction l as [|y l IH]; intros H; cbn [insert]; [auto|]. destruct (Rle_dec x y); [constructor; auto|]. inversion H as [|y' l' H1 H2]; subst. constructor; auto.
  destruct l as [|z l]; cbn [insert]; [constructor; lra|]. inversion H2; subst. destruct (Rle_dec x z); constructor; lra.
Qed.
Lemma sort_ok : forall l, Permutation l (sort l) /\ Sorted Rle (sort l).
Proof. induction l as [|x l (IH1 & IH2)]; cbn; [auto|]. split; [rewrite <- insert_perm; auto | apply insert_sorted; auto]. Qed.
Lemma sort_length : forall l, length (sort l) = length l.
Proof. intros l. symmetry. apply Permutation_length, sort_ok. Qed.

Lemma fill_ok : forall s l r, (forall index v, In (index, v) l -> within (shape r) index /\ exists v' x, v = Some v' /\ get s v' = Some x) ->
  exists r', fill s l r = Some r' /\ shape r' = shape r /\
  forall index, within (shape r) index -> match lookup index l with Some (Some v) => entry r' index = get s v | Some None => False | None => entry r' index = entry r index end.
Proof.
  intros s. induction l as [|(index, v) l IH]; intros r H; [exists r; cbn; auto|]. cbn [fill lookup].
  destruct (H index v ltac:(left; auto)) as (W & v' & x & -> & E). cbn [obind]. rewrite E. cbn [obind].
  destruct (IH (put index x r)) as (r' & F & Sh & A); [intros i u Hu; apply (H i u); right; auto|].
  exists r'. split; [exact F|]. split; [exact Sh|]. intros i Wi. specialize (A i Wi). destruct (lookup i l) as [[u|]|]; auto.
  rewrite A. unfold entry, put. cbn [shape content]. unfold vupd. destruct (list_eq_dec Nat.eq_dec index i) as [ -> | N]; [rewrite Nat.eqb_refl; auto|].
  destruct (Nat.eqb_spec (offset (shape r) i) (offset (shape r) index)) as [E'|]; auto. exfalso. apply N. symmetry. apply (offset_inj (shape r)); auto.
Qed.

Section Proof.
Variable a : arguments.
Variables (types : list Z) (sizes wavelengths thetas : list R).
Variable N : nat.
Notation c := (config a types sizes wavelengths N).
Notation I := (the_inputs a types sizes wavelengths thetas).
Notation results := (stored_results (generate c)).
Variable P : TaskGraph.kind -> nat -> nat -> nat -> R -> Prop.
Variable s : cell -> val object.
Hypothesis HN : (0 < N)%nat.
Hypothesis HQ : (0 < n_quad c)%nat.
Hypothesis RES : forall k p, flag c k = true -> (p < n_point c)%nat -> exists Q, s (DRes k p) = @Data object (OCoef Q) /\
  forall q t, (q < Physics.n_col k)%nat -> (t < n_dir I k)%nat -> P k p q t (Q q t).
Notation C_ := (length types).
Notation S_ := (length sizes).
Notation W_ := (length wavelengths).
Notation T_ := (length thetas).
Lemma point_lt : forall i j k, (i < C_)%nat -> (j < S_)%nat -> (k < W_)%nat -> (point_of sizes wavelengths i j k < n_point c)%nat.
Proof. intros i j k Hi Hj Hk. unfold n_point, point_of. cbn [n_comp n_size n_wav config]. apply pair_lt; auto. apply pair_lt; auto. Qed.
Lemma first_in : forall y, In y (first_stores C_ S_ W_ T_ results (ar_ext a) (ar_abs a) (ar_sca a)) ->
  exists i j k t q col, (i < C_)%nat /\ (j < S_)%nat /\ (k < W_)%nat /\ (t < T_)%nat /\ nth_error (columns (ar_ext a) (ar_abs a)) q = Some col /\ y = ([i; j; k; t; q], Some (Coef col (point_of sizes wavelengths i j k) t)).
Proof.
  intros y H. unfold first_stores in H. apply in_loop4 in H. destruct H as (i & j & k & t & Hi & Hj & Hk & Ht & H).
  exists i, j, k, t. apply in_app_iff in H. destruct H as [H|H].
  - destruct (ar_abs a) eqn:EA; [|destruct H]. unfold abs_stores, coef in H. pose proof (fetch_abs c HN HQ i j k Hi Hj Hk EA) as F. cbn [n_size n_wav config flag] in F. rewrite EA in F. rewrite F in H. cbn [option_map] in H.
    destruct H as [<-|[<-|[]]]; [exists 0%nat, Qabs|exists 1%nat, Qabspol]; repeat (split; [assumption|]); unfold columns; split; reflexivity.
  - destruct (ar_ext a) eqn:EE; [|destruct H]. unfold ext_stores, coef in H. pose proof (fetch_ext c HN HQ i j k Hi Hj Hk EE) as F. cbn [n_size n_wav config flag] in F. rewrite EE in F. rewrite F in H. cbn [option_map] in H.
    destruct H as [<-|[<-|[<-|[]]]]; destruct (ar_abs a); unfold columns; 
      [exists 2%nat, Qext|exists 0%nat, Qext|exists 3%nat, Qextpol|exists 1%nat, Qextpol|exists 4%nat, Qextcpol|exists 2%nat, Qextcpol]; repeat (split; [assumption|]); split; reflexivity.
Qed.
Lemma second_in : ar_sca a = true -> forall y, In y (second_stores C_ S_ W_ T_ results (ar_ext a) (ar_abs a) (ar_sca a)) ->
  exists i j k t ph row col, (i < C_)%nat /\ (j < S_)%nat /\ (k < W_)%nat /\ (t < T_)%nat /\ (ph < 2 * T_)%nat /\ (row < 4)%nat /\ (col < 4)%nat /\
    y = ([i; j; k; t; ph; row; col], Some (Zel (point_of sizes wavelengths i j k) (t * (2 * T_) + ph) row col)).
Proof.
  intros ES y H. unfold second_stores in H. apply in_loop4 in H. destruct H as (i & j & k & t & Hi & Hj & Hk & Ht & H).
  pose proof (fetch_sca c HN HQ i j k Hi Hj Hk ES) as F. cbn [n_size n_wav config flag] in F. rewrite F in H. cbn [option_map] in H.
  apply in_flat_map in H. destruct H as (ph & Hp & H). apply in_flat_map in H. destruct H as (row & Hr & H). apply in_map_iff in H. destruct H as (col & <- & Hc). apply in_seq in Hp, Hr, Hc.
  exists i, j, k, t, ph, row, col. repeat (split; [first [assumption | lia]|]). do 4 f_equal. nia.
Qed.
Lemma get_coef : forall q col i j k t, (i < C_)%nat -> (j < S_)%nat -> (k < W_)%nat -> (t < T_)%nat -> nth_error (columns (ar_ext a) (ar_abs a)) q = Some col ->
  exists x, get s (Coef col (point_of sizes wavelengths i j k) t) = Some x /\
  match col with Qabs => P Abs (point_of sizes wavelengths i j k) 0 t x | Qabspol => P Abs (point_of sizes wavelengths i j k) 1 t x
  | Qext => P Ext (point_of sizes wavelengths i j k) 0 t x | Qextpol => P Ext (point_of sizes wavelengths i j k) 1 t x | Qextcpol => P Ext (point_of sizes wavelengths i j k) 2 t x end.
Proof.
  intros q col i j k t Hi Hj Hk Ht Hq. pose proof (point_lt i j k Hi Hj Hk) as L. apply nth_error_In in Hq. unfold columns in Hq. apply in_app_iff in Hq.
  destruct Hq as [Hq|Hq].
  - destruct (ar_abs a) eqn:EA; [|destruct Hq]. destruct (RES Abs _ EA L) as (Q & E & HP). unfold get. rewrite E.
    destruct Hq as [<-|[<-|[]]]; cbn [option_map]; eexists; (split; [reflexivity|]); apply HP; cbn; auto.
  - destruct (ar_ext a) eqn:EE; [|destruct Hq]. destruct (RES Ext _ EE L) as (Q & E & HP). unfold get. rewrite E.
    destruct Hq as [<-|[<-|[<-|[]]]]; cbn [option_map]; eexists; (split; [reflexivity|]); apply HP; cbn; auto.
Qed.
Lemma has_of : forall r dims index v (Px : R -> Prop), shape r = dims -> within dims index -> entry r index = get s v -> (exists x, get s v = Some x /\ Px x) -> has (squeeze r) dims index Px.
Proof. intros r dims index v Px E W H (x & G & HP). exists x. split; auto. rewrite <- E. rewrite squeeze_entry by (rewrite E; auto). congruence. Qed.
Lemma columns_length : length (columns (ar_ext a) (ar_abs a)) = ResultTable.n_col (ar_ext a) (ar_abs a).
Proof. unfold columns, ResultTable.n_col. destruct (ar_ext a), (ar_abs a); reflexivity. Qed.
Lemma give_first : exists r, fill s (first_stores C_ S_ W_ T_ results (ar_ext a) (ar_abs a) (ar_sca a)) (new_array (first_dims a types sizes wavelengths thetas)) = Some r /\ coefficients a types sizes wavelengths thetas P (squeeze r).
Proof.
  destruct (fill_ok s (first_stores C_ S_ W_ T_ results (ar_ext a) (ar_abs a) (ar_sca a)) (new_array (first_dims a types sizes wavelengths thetas))) as (r & F & Sh & A).
  { intros index v H. apply first_in in H. destruct H as (i & j & k & t & q & col & Hi & Hj & Hk & Ht & Hq & E). injection E as -> ->. split.
    - assert (q < length (columns (ar_ext a) (ar_abs a)))%nat as L by (apply nth_error_Some; congruence). rewrite columns_length in L. cbn [shape new_array]. repeat constructor; auto.
    - destruct (get_coef q col i j k t Hi Hj Hk Ht Hq) as (x & G & _). eauto. }
  exists r. split; [exact F|]. cbn [shape new_array] in *. split; [unfold squeeze; cbn [shape]; rewrite Sh; reflexivity|].
  assert (G: forall q col i j k t (Px : R -> Prop), (i < C_)%nat -> (j < S_)%nat -> (k < W_)%nat -> (t < T_)%nat -> nth_error (columns (ar_ext a) (ar_abs a)) q = Some col ->
    (exists x, get s (Coef col (point_of sizes wavelengths i j k) t) = Some x /\ Px x) -> has (squeeze r) (first_dims a types sizes wavelengths thetas) [i; j; k; t; q] Px).
  { intros q col i j k t Px Hi Hj Hk Ht Hq Hx. assert (q < length (columns (ar_ext a) (ar_abs a)))%nat as L by (apply nth_error_Some; congruence). rewrite columns_length in L.
    assert (W: within (first_dims a types sizes wavelengths thetas) [i; j; k; t; q]) by (repeat constructor; auto).
    apply (has_of r _ _ (Coef col (point_of sizes wavelengths i j k) t) Px Sh W); auto. specialize (A _ W).
    pose proof (first_entry c HN HQ T_ i j k t q col Hi Hj Hk Ht Hq) as FE. cbn [n_comp n_size n_wav flag config] in FE. rewrite FE in A. exact A. }
  intros i j k t Hi Hj Hk Ht. split.
  - intros EA q Hq. assert (K: exists col, nth_error (columns (ar_ext a) (ar_abs a)) q = Some col /\ col = (if (q =? 0)%nat then Qabs else Qabspol)).
    { unfold columns. rewrite EA. destruct q as [|[|]]; try lia; eexists; split; reflexivity. }
    destruct K as (col & K & Ec). apply (G q col); auto. destruct (get_coef q col i j k t Hi Hj Hk Ht K) as (x & E & HP). exists x. split; auto. subst col. destruct q as [|[|]]; try lia; exact HP.
  - intros EE q Hq. set (q' := ((if ar_abs a then 2 else 0) + q)%nat).
    assert (K: exists col, nth_error (columns (ar_ext a) (ar_abs a)) q' = Some col /\ col = match q with 0%nat => Qext | 1%nat => Qextpol | _ => Qextcpol end).
    { unfold columns, q'. rewrite EE. destruct (ar_abs a), q as [|[|[|]]]; try lia; eexists; split; reflexivity. }
    destruct K as (col & K & Ec). apply (G q' col); auto. destruct (get_coef q' col i j k t Hi Hj Hk Ht K) as (x & E & HP). exists x. split; auto. subst col. destruct q as [|[|[|]]]; try lia; exact HP.
Qed.
Lemma give_second : ar_sca a = true -> exists r, fill s (second_stores C_ S_ W_ T_ results (ar_ext a) (ar_abs a) (ar_sca a)) (new_array (second_dims types sizes wavelengths thetas)) = Some r /\ matrices types sizes wavelengths thetas P (squeeze r).
Proof.
  intros ES.
  assert (G: forall i j k t ph row col, (i < C_)%nat -> (j < S_)%nat -> (k < W_)%nat -> (t < T_)%nat -> (ph < 2 * T_)%nat -> (row < 4)%nat -> (col < 4)%nat ->
    exists x, get s (Zel (point_of sizes wavelengths i j k) (t * (2 * T_) + ph) row col) = Some x /\ P Sca (point_of sizes wavelengths i j k) (row * 4 + col) (t * (2 * T_) + ph) x).
  { intros i j k t ph row col Hi Hj Hk Ht Hp Hr Hc. destruct (RES Sca _ ES (point_lt i j k Hi Hj Hk)) as (Q & E & HP). unfold get. rewrite E. cbn [option_map]. eexists. split; [reflexivity|]. apply HP; cbn [Physics.n_col n_dir in_ntheta the_inputs]; nia. }
  destruct (fill_ok s (second_stores C_ S_ W_ T_ results (ar_ext a) (ar_abs a) (ar_sca a)) (new_array (second_dims types sizes wavelengths thetas))) as (r & F & Sh & A).
  { intros index v H. apply (second_in ES) in H. destruct H as (i & j & k & t & ph & row & col & Hi & Hj & Hk & Ht & Hp & Hr & Hc & E). injection E as -> ->. split.
    - cbn [shape new_array]. unfold second_dims. repeat (apply Forall2_cons; [assumption|]); constructor.
    - destruct (G i j k t ph row col Hi Hj Hk Ht Hp Hr Hc) as (x & E & _). eexists. eexists. split; [reflexivity|exact E]. }
  exists r. split; [exact F|]. cbn [shape new_array] in *. split; [unfold squeeze; cbn [shape]; rewrite Sh; reflexivity|].
  intros i j k t ph row col Hi Hj Hk Ht Hp Hr Hc. assert (W: within (second_dims types sizes wavelengths thetas) [i; j; k; t; ph; row; col]) by (unfold second_dims; repeat (apply Forall2_cons; [assumption|]); constructor).
  apply (has_of r _ _ (Zel (point_of sizes wavelengths i j k) (t * (2 * T_) + ph) row col) _ Sh W); auto. specialize (A _ W).
  pose proof (second_entry c HN HQ T_ i j k t ph row col Hi Hj Hk Ht Hp Hr Hc ES) as FE. cbn [n_comp n_size n_wav flag config] in FE. rewrite FE in A. exact A.
Qed.
Lemma give_ok : exists ans, give a types sizes wavelengths thetas results s = Some ans /\ right_answer a types sizes wavelengths thetas P ans.
Proof.
  unfold give. destruct give_first as (r1 & F1 & H1). destruct (ar_sca a) eqn:ES.
  - destruct (give_second ES) as (r2 & F2 & H2). rewrite ES in *. destruct (ar_abs a || ar_ext a) eqn:EA.
    + rewrite F1. cbn [obind]. rewrite F2. cbn [obind]. eexists. split; [reflexivity|]. cbn [right_answer]. auto.
    + rewrite F2. cbn [obind]. eexists. split; [reflexivity|]. cbn [right_answer]. rewrite EA. auto.
  - destruct (ar_abs a || ar_ext a) eqn:EA.
    + rewrite F1. cbn [obind]. eexists. split; [reflexivity|]. cbn [right_answer]. rewrite EA. auto.
    + exists Null. split; [reflexivity|]. cbn [right_answer]. apply orb_false_iff in EA. tauto.
Qed.
End Proof.

(* ------------------------------------------------------------ C88 *)
(** The arrays are read as Python sees them, whatever their strides; sizes and wavelengths are sorted. *)
Theorem C88_arguments : forall m a types sizes wavelengths thetas, holds int_of_word m 8 (ar_types a) types -> holds real_of_word m 8 (ar_sizes a) sizes ->
  holds real_of_word m 8 (ar_wavelengths a) wavelengths -> holds real_of_word m 8 (ar_thetas a) thetas -> parse m a = Some (types, sizes, wavelengths, thetas).
Proof. intros m a types sizes wavelengths thetas H1 H2 H3 H4. unfold parse. rewrite !(unpack_holds _ _ _ _ _ _ H1), !(unpack_holds _ _ _ _ _ _ H2), !(unpack_holds _ _ _ _ _ _ H3), !(unpack_holds _ _ _ _ _ _ H4). reflexivity. Qed.
Print Assumptions C88_arguments.
(** The parameter point of type i, size j and wavelength k: the i-th type, the j-th smallest size, the k-th smallest wavelength, and the refractive index of the dust properties
    for exactly these *)
Theorem C88_points : forall a types sizes wavelengths thetas i j k g r l, nth_error types i = Some g ->
  (forall s, Permutation sizes s -> Sorted Rle s -> nth_error s j = Some r) -> (forall s, Permutation wavelengths s -> Sorted Rle s -> nth_error s k = Some l) ->
  let c := config a types sizes wavelengths 1 in let I := the_inputs a types sizes wavelengths thetas in let p := point_of sizes wavelengths i j k in
  (p < n_point c)%nat /\ point_size c I p = r /\ point_wavelength c I p = l /\ point_mr c I p = ar_index a l r g.
Proof.
  intros a types sizes wavelengths thetas i j k g r l Hg Hr Hl c I p. destruct (sort_ok sizes) as (P1 & S1). destruct (sort_ok wavelengths) as (P2 & S2).
  specialize (Hr _ P1 S1). specialize (Hl _ P2 S2).
  assert (L1: (i < n_comp c)%nat) by (apply nth_error_Some; congruence).
  assert (L2: (j < n_size c)%nat) by (cbn [c n_size config]; rewrite <- sort_length; apply nth_error_Some; congruence).
  assert (L3: (k < n_wav c)%nat) by (cbn [c n_wav config]; rewrite <- sort_length; apply nth_error_Some; congruence).
  destruct (C79_points c I i j k L1 L2 L3) as (A & _ & B & C & D). change (((i * n_size c + j) * n_wav c + k)%nat) with p in *.
  assert (E1: in_size I j = r) by (cbn [in_size I the_inputs]; apply nth_error_nth; auto). assert (E2: in_wavelength I k = l) by (cbn [in_wavelength I the_inputs]; apply nth_error_nth; auto).
  split; [exact A|]. split; [congruence|]. split; [congruence|]. rewrite D, E1, E2. cbn [in_index I the_inputs]. f_equal. apply nth_error_nth. auto.
Qed.
Print Assumptions C88_points.
(** For every complete run of the scheduler, with any number of threads, queues and slots: the arrays that are returned have the values of C79 at the positions the documentation
    promises; nothing is read that was not computed. *)
Theorem C88_get_table : forall a types sizes wavelengths thetas prec emax tol,
  let c := config a types sizes wavelengths 1 in let I := the_inputs a types sizes wavelengths thetas in
  physical c I -> (ar_min a < ar_max a)%nat -> (Z.of_nat (ar_max a) < 2 ^ 64)%Z ->
  forall (L : Type) (vcode : task -> L -> (cell -> val object) -> option (L * (cell -> val object))) (start : task -> L),
  respects_footprint (unshared c) (val object) L vcode ->
  (forall t s s', task_in c t -> completes (val object) L vcode start t s s' -> forall x, s' x = effect c object (code c I) prec emax tol t s x) ->
  forall ord, (forall b, (b < n_block c)%nat -> chosen c object (code c I) prec emax tol b (ord b)) ->
  let n p is := (ar_min a + ord (p * ar_shapes a + is)%nat)%nat in
  (forall p is, (p < n_point c)%nat -> (is < ar_shapes a)%nat -> regular c I p is (n p is) /\ alignable c I p is (n p is)) ->
  forall N pre nq nt e s, (0 < N)%nat -> reservations pre -> (0 < nt)%nat ->
  running nq (generated (with_slots c N) pre) nt e -> all_exited e ->
  executed (with_slots c N) (val object) L (slotted c (val object) L vcode N) start (initial object (code c I)) (log (gl e)) s ->
  exists T Tav : nat -> nat -> tmats,
  (forall p is, (p < n_point c)%nat -> (is < ar_shapes a)%nat -> solves c I p is (n p is) (T p is) /\ averaged c I p is (n p is) (T p is) (Tav p is)) /\
  exists ans, give a types sizes wavelengths thetas (stored_results (generate (with_slots c N))) s = Some ans /\
    right_answer a types sizes wavelengths thetas (fun k p q t x =>
      x = weighted_mean q t (map (fun is => (ar_weight a is, observable c I k p (n p is) (Tav p is))) (seq 0 (ar_shapes a)))) ans.
Proof.
  intros a types sizes wavelengths thetas prec emax tol c I PH Ho H64 L vcode start HV HE ord Hord n HR N pre nq nt e s HN HP Hn Hrun Hx Hex.
  destruct (C79_physics c I prec emax tol PH Ho H64 L vcode start HV HE ord Hord HR N pre nq nt e s HN HP Hn Hrun Hx Hex) as (T & Tav & H1 & H2).
  exists T, Tav. split; [exact H1|]. apply (give_ok a types sizes wavelengths thetas N); auto.
  change (n_quad (config a types sizes wavelengths N)) with (n_quad c). rewrite (G_eq c Ho H64). cbn [c o_min o_max config]. lia.
Qed.
Print Assumptions C88_get_table.
(** ... for spheres, the Mie efficiencies and intensities of C87 *)
Theorem C88_spheres : forall a types sizes wavelengths thetas prec emax tol,
  let c := config a types sizes wavelengths 1 in let I := the_inputs a types sizes wavelengths thetas in
  physical c I -> spheres c I -> (ar_min a < ar_max a)%nat -> (Z.of_nat (ar_max a) < 2 ^ 64)%Z ->
  forall (L : Type) (vcode : task -> L -> (cell -> val object) -> option (L * (cell -> val object))) (start : task -> L),
  respects_footprint (unshared c) (val object) L vcode ->
  (forall t s s', task_in c t -> completes (val object) L vcode start t s s' -> forall x, s' x = effect c object (code c I) prec emax tol t s x) ->
  forall ord, (forall b, (b < n_block c)%nat -> chosen c object (code c I) prec emax tol b (ord b)) ->
  let n p is := (ar_min a + ord (p * ar_shapes a + is)%nat)%nat in
  (forall p is, (p < n_point c)%nat -> (is < ar_shapes a)%nat -> alignable c I p is (n p is)) ->
  forall N pre nq nt e s, (0 < N)%nat -> reservations pre -> (0 < nt)%nat ->
  running nq (generated (with_slots c N) pre) nt e -> all_exited e ->
  executed (with_slots c N) (val object) L (slotted c (val object) L vcode N) start (initial object (code c I)) (log (gl e)) s ->
  exists ans, give a types sizes wavelengths thetas (stored_results (generate (with_slots c N))) s = Some ans /\
    right_answer a types sizes wavelengths thetas (fun k p q t x => covered I k q ->
      x = weighted_mean q t (map (fun is => (ar_weight a is, sphere_value c I k p (n p is))) (seq 0 (ar_shapes a)))) ans.
Proof.
  intros a types sizes wavelengths thetas prec emax tol c I PH SP Ho H64 L vcode start HV HE ord Hord n HR N pre nq nt e s HN HP Hn Hrun Hx Hex.
  pose proof (C87_results c I prec emax tol PH SP Ho H64 L vcode start HV HE ord Hord HR N pre nq nt e s HN HP Hn Hrun Hx Hex) as H2.
  apply (give_ok a types sizes wavelengths thetas N); auto.
  change (n_quad (config a types sizes wavelengths N)) with (n_quad c). rewrite (G_eq c Ho H64). cbn [c o_min o_max config]. lia.
Qed.
Print Assumptions C88_spheres.

(* ------------------------------------------------------------ a concrete call *)
(** One type, the sizes 2 and 1 as a reversed view of a buffer, one wavelength and one angle given as plain numbers, two shapes; a complete run of three threads with one slot *)
Definition w1 : Z := 0x3FF0000000000000.
Definition w2 : Z := 0x4000000000000000.
Lemma w_is : real_of_word w1 = 1 /\ real_of_word w2 = 2.
Proof.
  assert (H: forall n, powerRZ 2 (- Z.of_nat n) = / IZR (2 ^ Z.of_nat n)). { intros n. rewrite powerRZ_neg', <- pow_powerRZ, <- pow_IZR. reflexivity. }
  unfold real_of_word. change (double w1) with (Some (2 ^ 52, -52)%Z). change (double w2) with (Some (2 ^ 52, -51)%Z). cbv beta iota. change (-52)%Z with (- Z.of_nat 52)%Z. change (-51)%Z with (- Z.of_nat 51)%Z.
  rewrite !H. change (2 ^ Z.of_nat 52)%Z with (2 ^ 52)%Z. change (2 ^ Z.of_nat 51)%Z with (2251799813685248)%Z. change (2 ^ 52)%Z with (2 * 2251799813685248)%Z. rewrite mult_IZR. split; field.
Qed.
Definition the_memory : memory := buffer 1000 8 [7; w1; w2]%Z.
Definition the_args (x w : nat -> R) : arguments :=
  mkArgs (mkArray 1000 [1] [8])%Z (mkArray 1016 [2] [-8])%Z (mkArray 1008 [] [])%Z (mkArray 1008 [] [])%Z 2 (fun _ => 1) (fun is => INR is + 1) (fun _ _ => true) (fun _ _ => 1 :: repeat 0 9)
    (fun _ _ _ => (3 / 2, / 10)) 4 5 1 1 true true true false (fun N => if (N =? 8)%nat then (x, w) else mid N) mid (fun _ => Props_energy.exact_radial) (fun _ => S754_zero false)
    (fun _ => 0%nat) (fun _ => RtoC 0) (repeat 0 81) (fun _ => 0, fun _ => 0).
Lemma the_args_hold : forall x w, let a := the_args x w in holds int_of_word the_memory 8 (ar_types a) [7]%Z /\ holds real_of_word the_memory 8 (ar_sizes a) [2; 1] /\
  holds real_of_word the_memory 8 (ar_wavelengths a) [1] /\ holds real_of_word the_memory 8 (ar_thetas a) [1].
Proof.
  intros x w a. destruct w_is as (E1 & E2). split; [|split; [|split]].
  - right. exists 8%Z. split; [reflexivity|]. split; [reflexivity|]. intros i v Hi. destruct i as [|[|]]; try discriminate. injection Hi as <-. exists 7%Z. split; reflexivity.
  - right. exists (-8)%Z. split; [reflexivity|]. split; [reflexivity|]. intros i v Hi. destruct i as [|[|[|]]]; try discriminate; injection Hi as <-; [exists w2|exists w1]; (split; [reflexivity|assumption]).
  - left. split; [reflexivity|]. exists w1, 1. split; [reflexivity|]. split; [reflexivity|assumption].
  - left. split; [reflexivity|]. exists w1, 1. split; [reflexivity|]. split; [reflexivity|assumption].
Qed.
Lemma sorted_12 : sort [2; 1] = [1; 2].
Proof. cbn. destruct (Rle_dec 2 1); [lra|]. reflexivity. Qed.
Lemma the_call_ok : exists x w, let a := the_args x w in physical (config a [7]%Z [2; 1] [1] 1) (the_inputs a [7]%Z [2; 1] [1] [1]) /\ spheres (config a [7]%Z [2; 1] [1] 1) (the_inputs a [7]%Z [2; 1] [1] [1]).
Proof.
  destruct (Props_mie.symmetric_gauss_exists 4 ltac:(lia)) as (x & w & SY & GA). exists x, w. pose proof PI_RGT_0. intros a. split.
  - split; cbn [in_size in_wavelength in_axis in_rule in_theta in_ntheta the_inputs o_min config a the_args ar_axis ar_rule ar_min]; intros; try lra; try lia.
    + rewrite sorted_12. destruct i as [|[|[|]]]; cbn; lra.
    + destruct i as [|[|]]; cbn; lra.
    + unfold point_mr. cbn. intro E. apply (f_equal Re) in E. cbn in E. lra.
    + cbn. unfold weights. cbn. lra.
    + destruct (Nat.eqb_spec (2 * n) 8); [|apply mid_sym]. replace n with 4%nat by lia. exact SY.
    + destruct (Nat.eqb_spec n 8) as [ -> | ]; [|apply mid_in; auto]. cbn [fst]. destruct (SY i ltac:(lia)) as (B & _). lra.
    + cbn [length] in *. destruct i; [|lia]. cbn. pose proof PI2_3_2. lra.
  - split; cbn [in_axis in_factor in_rule in_radial in_aligned in_coef the_inputs o_min o_max config a the_args ar_axis ar_rule ar_min ar_max ar_factor ar_radial ar_aligned ar_coef]; intros; try lra; try lia.
    + assert (n = 4)%nat as -> by lia. cbn [Nat.mul Nat.add Nat.eqb fst snd]. apply Props_mie.gauss_is_exact; [lia|]. exact GA.
    + apply Props_energy.exact_radial_ok.
    + unfold point_mr, Props_energy.passive. cbn. unfold Cmult, Im. cbn [fst snd]. lra.
    + reflexivity.
Qed.
Example C88_example : exists x w e s r1 r2, let a := the_args x w in let c := config a [7]%Z [2; 1] [1] 1 in let I := the_inputs a [7]%Z [2; 1] [1] [1] in
  parse the_memory a = Some ([7]%Z, [2; 1], [1], [1]) /\ running 2 (generated (with_slots c 1) []) 3 e /\ all_exited e /\
  executed (with_slots c 1) (val object) bool (slotted c (val object) bool (one_code c object (code c I) 24 128 (S754_finite false 1 (-2))) 1) one_start
    (initial object (code c I)) (log (gl e)) s /\
  give a [7]%Z [2; 1] [1] [1] (stored_results (generate (with_slots c 1))) s = Some (Two r1 r2) /\ shape r1 = [2; 5]%nat /\ shape r2 = [2; 2; 4; 4]%nat /\
  entry r1 [1; 2]%nat = Some (mie_Qext 4 (4 * PI) (Props_mie.mie_a Props_energy.exact_radial (3 / 2, / 10) (4 * PI)) (Props_mie.mie_b Props_energy.exact_radial (3 / 2, / 10) (4 * PI))).
Proof.
  destruct the_call_ok as (x & w & PH & SP). exists x, w. set (a := the_args x w) in *. set (c := config a [7]%Z [2; 1] [1] 1) in *. set (I := the_inputs a [7]%Z [2; 1] [1] [1]) in *.
  assert (P: reservations []) by (intros y []).
  assert (A: (0 < n_slot (with_slots c 1))%nat) by (cbn; lia). assert (B: (0 < n_quad (with_slots c 1))%nat) by (vm_compute; lia).
  assert (C: (0 < o_max (with_slots c 1))%nat) by (cbn; lia).
  destruct (run_exists 2 (generated (with_slots c 1) []) 3) as (e & R & X); [apply generated_valid; auto|lia|apply generated_acyclic; auto|apply generated_lockable; auto|].
  assert (O: (o_min c < o_max c)%nat) by (cbn; lia). assert (H64: (Z.of_nat (o_max c) < 2 ^ 64)%Z) by reflexivity.
  destruct (C77_outcome_exists c object (code c I) 24 128 (S754_finite false 1 (-2)) 1 [] 2 3 e O H64 ltac:(lia) P ltac:(lia) R X) as (HV & HE & s & E).
  assert (CH: forall b, chosen c object (code c I) 24 128 (S754_finite false 1 (-2)) b 0) by (intros b; split; [vm_compute; lia|split; [intros j Hj; lia|right; reflexivity]]).
  assert (AL: forall p is, alignable c I p is 4) by (intros p is _; cbn; lia).
  destruct (C88_spheres a [7]%Z [2; 1] [1] [1] 24 128 (S754_finite false 1 (-2)) PH SP O H64 bool _ one_start HV HE (fun _ => 0%nat) (fun b _ => CH b) (fun p is _ _ => AL p is) 1 [] 2 3 e s ltac:(lia) P ltac:(lia) R X E) as (ans & G & RA).
  destruct ans as [|r|r1 r2]; [destruct RA as (Z & _); discriminate Z|destruct RA as (Z & _); discriminate Z|]. destruct RA as (_ & _ & (Sh1 & R1) & (Sh2 & _)).
  exists e, s, r1, r2. destruct (the_args_hold x w) as (H1 & H2 & H3 & H4). split; [apply C88_arguments; auto|]. split; [exact R|]. split; [exact X|]. split; [exact E|]. split; [exact G|]. split; [exact Sh1|]. split; [exact Sh2|].
  destruct (R1 0%nat 1%nat 0%nat 0%nat ltac:(cbn; lia) ltac:(cbn; lia) ltac:(cbn; lia) ltac:(cbn; lia)) as (_ & RE). destruct (RE eq_refl 0%nat ltac:(lia)) as (v & EV & HV').
  change (squeezed (first_dims a [7]%Z [2; 1] [1] [1]) [0; 1; 0; 0; (if ar_abs a then 2 else 0) + 0]%nat) with [1; 2]%nat in EV. rewrite EV. f_equal.
  rewrite (HV' Logic.I). rewrite (C87_one_value c I). 2:{ cbn. lra. }
  change (point_of [2; 1] [1] 0 1 0) with 1%nat.
  assert (XO: x_of c I 1 = 4 * PI). { unfold x_of, point_size, point_wavelength. cbn [c n_wav n_size config length]. change ((1 / 1 mod 2)%nat) with 1%nat. change ((1 mod 1)%nat) with 0%nat. cbn [in_size in_wavelength I the_inputs]. rewrite sorted_12. cbn. field. }
  unfold sphere_value. cbn [Nat.eqb]. unfold a_of, b_of. rewrite XO. reflexivity.
Qed.
