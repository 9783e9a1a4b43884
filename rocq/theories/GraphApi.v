(** The event list of generate_tasks as a history of scheduler calls (Api.v). *)
From Coq Require Import List Arith Lia Bool ZArith Permutation Relation_Operators Operators_Properties.
From Verif Require Import Base LockProto Sched Api TaskGraph TaskGraphFacts TaskDeps.
Import ListNotations.

(* ------------------------------------------------ names to ids *)

Definition tasks_of (es : list ev) : list task := flat_map (fun e => match e with ETask t => [t] | _ => [] end) es.
Definition ress_of (es : list ev) : list res := flat_map (fun e => match e with ERes r _ => [r] | _ => [] end) es.

Section Index.
Context {A : Type} (dec : forall a b : A, {a = b} + {a <> b}).
Fixpoint index (x : A) (l : list A) : nat :=
  match l with [] => 0 | y :: l' => if dec x y then 0 else S (index x l') end.
Lemma index_nth : forall l x, In x l -> nth_error l (index x l) = Some x.
Proof.
  induction l as [|y l IH]; intros x H; [contradiction|]. cbn. destruct (dec x y) as [->|Hn]; auto.
  destruct H as [H|H]; [congruence|]. cbn. auto.
Qed.
Lemma index_lt : forall l x, In x l -> index x l < length l.
Proof. intros l x H. apply nth_error_Some. rewrite index_nth; auto. discriminate. Qed.
Lemma index_app : forall l1 l2 x, In x l1 -> index x (l1 ++ l2) = index x l1.
Proof.
  induction l1 as [|y l IH]; intros l2 x H; [contradiction|]. cbn. destruct (dec x y); auto. destruct H as [H|H]; [congruence|].
  f_equal. auto.
Qed.
Lemma index_inj : forall l x y, In x l -> In y l -> index x l = index y l -> x = y.
Proof. intros l x y Hx Hy E. apply index_nth in Hx, Hy. rewrite E in Hx. congruence. Qed.
Lemma nth_index : forall l, NoDup l -> forall i x, nth_error l i = Some x -> index x l = i.
Proof.
  intros l HD i x H. apply (proj1 (NoDup_nth_error l) HD); [apply index_lt; eapply nth_error_In; eauto|].
  rewrite H. apply index_nth. eapply nth_error_In; eauto.
Qed.
End Index.

Section Hist.
Variable all : list ev.
(** Ids are handed out in order of registration (qsched_addtask, qsched_addres). *)
Definition tid (t : task) : nat := index task_eq_dec t (tasks_of all).
Definition rid (r : res) : nat := index res_eq_dec r (ress_of all).

Definition to_call (e : ev) : list call :=
  match e with
  | ERes r par => [RegRes (option_map rid par)]
  | ETask t => [RegTask (tid t)]
  | ELink t r w => [LinkRes (tid t) (rid r) w]
  | EDep a b => [LinkTasks (tid a) (tid b)]
  | _ => []
  end.
Definition calls (es : list ev) : list call := rev (flat_map to_call es).
End Hist.

(** Calls made by generate_tasks; [pre]: the reservations made before (l.716-747),
    latest first. *)
Definition generated (c : cfg) (pre : list call) : list call := calls (generate c) (generate c) ++ pre.
Definition reservations (l : list call) : Prop := forall x, In x l -> exists a b d e f, x = Reserve a b d e f.

(* ------------------------------------------------ everything is registered before use *)

Definition known (es : list ev) (t : task) : Prop := In (ETask t) es.
Definition knownr (es : list ev) (r : res) : Prop := exists q, In (ERes r q) es.
Definition wfe (pre : list ev) (e : ev) : Prop :=
  match e with
  | ERes _ (Some q) => knownr pre q
  | ELink t r _ => known pre t /\ knownr pre r
  | EDep a b => known pre a /\ known pre b
  | _ => True
  end.
Fixpoint wfs (pre es : list ev) : Prop :=
  match es with [] => True | e :: es' => wfe pre e /\ wfs (pre ++ [e]) es' end.

Lemma wfe_mono : forall pre pre' e, incl pre pre' -> wfe pre e -> wfe pre' e.
Proof.
  intros pre pre' e H. destruct e as [r [q|]|t|t r w|a b|t|r|r|]; cbn; unfold known, knownr; auto.
  - intros (x & Hx). eauto.
  - intros (H1 & x & Hx). eauto.
  - intros (H1 & H2). auto.
Qed.
Lemma wfs_mono : forall es pre pre', incl pre pre' -> wfs pre es -> wfs pre' es.
Proof.
  induction es as [|e es IH]; intros pre pre' H; cbn; auto. intros (H1 & H2). split; [eapply wfe_mono; eauto|].
  eapply IH; [|exact H2]. intros x Hx. apply in_app_iff in Hx. apply in_app_iff. destruct Hx; auto.
Qed.
Lemma wfs_app : forall a pre b, wfs pre (a ++ b) <-> wfs pre a /\ wfs (pre ++ a) b.
Proof.
  induction a as [|e a IH]; intros pre b; cbn.
  - rewrite app_nil_r. tauto.
  - rewrite IH, <- app_assoc. cbn. tauto.
Qed.
Lemma wfs_flat_map : forall A (f : A -> list ev) l pre, (forall x, In x l -> wfs pre (f x)) -> wfs pre (flat_map f l).
Proof.
  induction l as [|x l IH]; intros pre H; cbn; auto. apply wfs_app. split; [apply H; cbn; auto|].
  apply IH. intros y Hy. eapply wfs_mono; [|apply H; cbn; auto]. intros z Hz. apply in_app_iff. auto.
Qed.
Lemma wfs_kinds : forall c f pre, (forall k, flag c k = true -> wfs pre (f k)) -> wfs pre (for_kinds c f).
Proof.
  intros c f pre H. unfold for_kinds. apply wfs_flat_map. intros k _. destruct (flag c k) eqn:E; cbn; auto.
Qed.
Lemma wfs_seq : forall (f : nat -> list ev) n a pre,
  (forall i, a <= i < a + n -> wfs (pre ++ flat_map f (seq a (i - a))) (f i)) -> wfs pre (flat_map f (seq a n)).
Proof.
  intros f n. induction n as [|n IH]; intros a pre H; cbn; auto. apply wfs_app. split.
  - specialize (H a ltac:(lia)). rewrite Nat.sub_diag in H. cbn in H. rewrite app_nil_r in H. auto.
  - apply IH. intros i Hi. specialize (H i ltac:(lia)). replace (i - a) with (S (i - S a)) in H by lia.
    cbn [seq flat_map] in H. rewrite <- app_assoc. auto.
Qed.
Lemma wfs_split : forall es pre es1 e es2, wfs pre es -> es = es1 ++ e :: es2 -> wfe (pre ++ es1) e.
Proof. intros es pre es1 e es2 H ->. apply wfs_app in H. cbn in H. tauto. Qed.

Lemma known_app_l : forall a b t, known a t -> known (a ++ b) t.
Proof. unfold known. intros. apply in_app_iff. auto. Qed.
Lemma known_app_r : forall a b t, known b t -> known (a ++ b) t.
Proof. unfold known. intros. apply in_app_iff. auto. Qed.
Lemma knownr_app_l : forall a b t, knownr a t -> knownr (a ++ b) t.
Proof. unfold knownr. intros a b t (q & H). exists q. apply in_app_iff. auto. Qed.
Lemma knownr_app_r : forall a b t, knownr b t -> knownr (a ++ b) t.
Proof. unfold knownr. intros a b t (q & H). exists q. apply in_app_iff. auto. Qed.
Lemma known_here : forall a t, known (a ++ [ETask t]) t.
Proof. intros. apply known_app_r. left. auto. Qed.
Lemma knownr_here : forall a r q, knownr (a ++ [ERes r q]) r.
Proof. intros. apply knownr_app_r. exists q. left. auto. Qed.

(** searches the prefix from the right *)
Ltac kn := first [ assumption
  | apply known_here | apply knownr_here
  | apply known_app_l; kn | apply knownr_app_l; kn ].
Ltac wf := unfold computable; cbn [wfs wfe app dep_if dep_ptr map]; repeat split; try exact I; try kn.

Section Wf.
Variable c : cfg.
Notation G := (n_quad c).
Notation N := (n_slot c).
Notation S_ := (n_shape c).
Notation P := (n_point c).
Notation B := (n_block c).

(** What the blocks find registered. *)
Definition shared_ok (pre : list ev) : Prop :=
  known pre TN /\ knownr pre (RT TN) /\
  (forall i, i < G -> known pre (TG i) /\ knownr pre (RT (TG i)) /\ known pre (TWD i) /\ knownr pre (RT (TWD i))) /\
  (forall k, flag c k = true -> known pre (TGrid k) /\ knownr pre (RT (TGrid k)) /\ known pre (TSW k) /\ knownr pre (RT (TSW k))) /\
  (forall is i, is < S_ -> i < G -> known pre (TPG is i) /\ knownr pre (RT (TPG is i))) /\
  (forall r, r < N -> knownr pre (RInter r)) /\
  (forall j, j < 2 * N -> knownr pre (RTm j)) /\
  (forall j m, j < 2 * N -> m <= o_max c -> knownr pre (RTmM j m)).

Lemma shared_mono : forall pre post, shared_ok pre -> shared_ok (pre ++ post).
Proof.
  intros pre post (H1 & H2 & H3 & H4 & H5 & H6 & H7 & H8).
  repeat split; intros; try (apply known_app_l); try (apply knownr_app_l); auto; try (apply H3; auto); try (apply H4; auto); apply H5; auto.
Qed.

Lemma shared_known : shared_ok (gen_shared c ++ gen_slots c).
Proof.
  assert (K: forall t, task_in c t -> In (ETask t) (gen_shared c) /\ In (ERes (RT t) None) (gen_shared c) \/
     match t with TAv _ _ | TI _ _ | TM0 _ _ | TAL _ | TC _ _ | TR1 _ | TR2 _ | TR3 _ | TMA _ _ => True | _ => False end).
  { intros t H. destruct t; cbn in H; auto; left; split; unfold gen_shared; rewrite !in_app_iff.
    1-2: left; cbn; tauto.
    1-2: right; left; apply in_flat_map; exists ig; split; [apply in_seq; lia|cbn; auto].
    1-2: do 2 right; left; apply in_for_kinds; exists k; cbn; auto.
    1-2: do 3 right; left; apply in_for_kinds; exists k; cbn; auto.
    1-2: do 4 right; left; apply in_flat_map; exists ig; split; [apply in_seq; lia|cbn; auto].
    1-2: do 5 right; apply in_flat_map; exists is; split; [apply in_seq; lia|]; apply in_flat_map; exists ig; split; [apply in_seq; lia|cbn; auto]. }
  assert (K1: forall t, task_in c t -> match t with TAv _ _ | TI _ _ | TM0 _ _ | TAL _ | TC _ _ | TR1 _ | TR2 _ | TR3 _ | TMA _ _ => False | _ => True end ->
     known (gen_shared c ++ gen_slots c) t /\ knownr (gen_shared c ++ gen_slots c) (RT t)).
  { intros t H H0. destruct (K t H) as [(A1 & A2)|A]; [|destruct t; contradiction].
    split; [apply known_app_l; auto|apply knownr_app_l; exists None; auto]. }
  split; [apply (K1 TN); cbn; auto|]. split; [apply (K1 TN); cbn; auto|].
  split. { intros i Hi. destruct (K1 (TG i) Hi I), (K1 (TWD i) Hi I). auto. }
  split. { intros k Hk. destruct (K1 (TGrid k) Hk I), (K1 (TSW k) Hk I). auto. }
  split. { intros is i Hs Hi. apply (K1 (TPG is i)); cbn; auto. }
  split. { intros r Hr. apply knownr_app_r. exists None. unfold gen_slots. apply in_app_iff. left.
           apply in_flat_map. exists r. split; [apply in_seq; lia|cbn; auto]. }
  split. { intros j Hj. apply knownr_app_r. exists None. unfold gen_slots. apply in_app_iff. right.
           apply in_flat_map. exists j. split; [apply in_seq; lia|cbn; auto]. }
  intros j m Hj Hm. apply knownr_app_r. exists (Some (RTm j)). unfold gen_slots. apply in_app_iff. right.
  apply in_flat_map. exists j. split; [apply in_seq; lia|]. right. right. apply in_map_iff. exists m. split; auto. apply in_seq. lia.
Qed.

Lemma wf_shared : forall pre0, wfs pre0 (gen_shared c).
Proof.
  intros pre0. unfold gen_shared. rewrite !wfs_app.
  split; [wf|].
  split; [apply wfs_flat_map; intros i _; wf|].
  split; [apply wfs_kinds; intros k _; wf|].
  split.
  { apply wfs_kinds. intros k Hk. set (pre := _ ++ _) at 1.
    assert (K1: known pre (TGrid k)).
    { apply known_app_r. unfold known. apply in_for_kinds. exists k. cbn. auto. }
    assert (K2: knownr pre (RT (TGrid k))).
    { apply knownr_app_r. exists None. apply in_for_kinds. exists k. cbn. auto. }
    clearbody pre. wf. }
  split.
  { apply wfs_flat_map. intros i Hi. set (pre := _ ++ _) at 1.
    assert (K1: known pre (TG i)).
    { do 2 apply known_app_l. apply known_app_r. unfold known. apply in_flat_map. exists i. cbn. auto. }
    assert (K2: knownr pre (RT (TG i))).
    { do 2 apply knownr_app_l. apply knownr_app_r. exists None. apply in_flat_map. exists i. cbn. auto. }
    clearbody pre. wf. }
  apply wfs_flat_map. intros is His. apply wfs_flat_map. intros i Hi. set (pre := _ ++ _) at 1.
  assert (K1: known pre (TG i)).
  { do 3 apply known_app_l. apply known_app_r. unfold known. apply in_flat_map. exists i. cbn. auto. }
  assert (K2: knownr pre (RT (TG i))).
  { do 3 apply knownr_app_l. apply knownr_app_r. exists None. apply in_flat_map. exists i. cbn. auto. }
  clearbody pre. wf.
Qed.

Lemma wf_slots : forall pre, wfs pre (gen_slots c).
Proof.
  intros pre. unfold gen_slots. apply wfs_app. split.
  - apply wfs_flat_map. intros i _. wf.
  - apply wfs_flat_map. intros j _. cbn [wfs wfe]. split; auto. split; auto.
    set (q := (_ ++ _) ++ _). assert (K: knownr q (RTm j)) by (apply knownr_here). clearbody q.
    revert q K. generalize (seq 0 (o_max c + 1)). induction l as [|m l IH]; intros q K; cbn; auto. split; auto. apply IH. kn.
Qed.

Lemma wf_point : forall pre p, wfs pre (gen_point c p).
Proof. intros pre p. unfold gen_point. apply wfs_app. split; [wf|]. apply wfs_kinds. intros k _. wf. Qed.

Lemma known_point : forall pre p, knownr (pre ++ gen_point c p) (RIV p) /\
  forall k, flag c k = true -> known (pre ++ gen_point c p) (TAv k p).
Proof.
  intros pre p. split.
  - apply knownr_app_r. exists None. cbn. auto.
  - intros k Hk. apply known_app_r. unfold known, gen_point. apply in_app_iff. right. apply in_for_kinds. exists k. cbn. auto.
Qed.

Lemma wf_block : 0 < N -> 0 < G -> forall pre p is, is < S_ -> let b := p * S_ + is in
  shared_ok pre -> knownr pre (RIV p) -> (forall k, flag c k = true -> known pre (TAv k p)) ->
  (N <= b -> known pre (TR3 (b - N))) -> wfs pre (nth_block c p is).
Proof.
  intros HN HG pre p is His b HS HV HA HR. unfold nth_block. fold b. set (r := b mod N).
  assert (Hr: r < N) by (apply Nat.mod_upper_bound; lia). clearbody r.
  unfold block_events. 
  (* step by step, keeping the facts about the prefix *)
  apply wfs_app. split; [apply wfs_kinds; intros k _; wf|]. apply wfs_app. split; [wf|].
  set (q1 := (pre ++ _) ++ _).
  assert (S1: shared_ok q1) by (apply shared_mono, shared_mono; auto).
  assert (V1: knownr q1 (RIV p)) by (do 2 apply knownr_app_l; auto).
  assert (A1: forall k, flag c k = true -> known q1 (TAv k p)) by (intros; do 2 apply known_app_l; auto).
  assert (R1: N <= b -> known q1 (TR3 (b - N))) by (intros; do 2 apply known_app_l; auto).
  assert (C1: knownr q1 (RConv b)) by (apply knownr_app_r; exists None; cbn; auto).
  assert (U1: forall k, flag c k = true -> knownr q1 (RUn k b)).
  { intros k Hk. apply knownr_app_l, knownr_app_r. exists None. apply in_for_kinds. exists k. cbn. auto. }
  clearbody q1. apply wfs_app. split.
  { apply wfs_seq. intros i Hi. set (q := q1 ++ _).
    assert (Sq: shared_ok q) by (apply shared_mono; auto).
    assert (Vq: knownr q (RIV p)) by (apply knownr_app_l; auto).
    assert (Cq: knownr q (RConv b)) by (apply knownr_app_l; auto).
    assert (Rq: N <= b -> known q (TR3 (b - N))) by (intros; apply known_app_l; auto).
    assert (Pq: 0 < i -> known q (TM0 b (i - 1))).
    { intros Hi0. apply known_app_r. unfold known. apply in_flat_map. exists (i - 1). split; [apply in_seq; lia|].
      rewrite order_events_eq, !in_app_iff. do 2 right. left. cbn. auto. }
    clearbody q. destruct Sq as (T1 & T2 & T3 & T4 & T5 & T6 & T7 & T8).
    destruct (T3 i ltac:(lia)) as (X1 & X2 & X3 & X4). destruct (T5 is i His ltac:(lia)) as (X5 & X6).
    pose proof (T6 r Hr) as X7. pose proof (T8 (2 * r) 0 ltac:(lia) ltac:(lia)) as X8.
    rewrite order_events_eq. unfold unlocker. destruct (Nat.ltb_spec b N) as [Hb|Hb]; [|pose proof (Rq Hb)].
    - destruct (Nat.eqb_spec i 0) as [->|Hi0]; [|pose proof (Pq ltac:(lia))]; wf.
    - destruct (Nat.eqb_spec i 0) as [->|Hi0]; [|pose proof (Pq ltac:(lia))]; wf. }
  set (q2 := q1 ++ _).
  assert (S2: shared_ok q2) by (apply shared_mono; auto).
  assert (V2: knownr q2 (RIV p)) by (apply knownr_app_l; auto).
  assert (A2: forall k, flag c k = true -> known q2 (TAv k p)) by (intros; apply known_app_l; auto).
  assert (C2: knownr q2 (RConv b)) by (apply knownr_app_l; auto).
  assert (U2: forall k, flag c k = true -> knownr q2 (RUn k b)) by (intros; apply knownr_app_l; auto).
  assert (M2: known q2 (TM0 b (G - 1))).
  { apply known_app_r. unfold known. apply in_flat_map. exists (G - 1). split; [apply in_seq; lia|].
    rewrite order_events_eq, !in_app_iff. do 2 right. left. cbn. auto. }
  clearbody q2. clear q1 S1 V1 A1 R1 C1 U1 HS HV HA HR pre.
  pose proof S2 as (T1 & T2 & T3 & T4 & T5 & T6 & T7 & T8).
  pose proof (T7 (2 * r) ltac:(lia)) as X1. pose proof (T7 (2 * r + 1) ltac:(lia)) as X2. pose proof (T6 r Hr) as X3.
  apply wfs_app. split; [wf|]. set (q3 := q2 ++ _).
  assert (L3: known q3 (TAL b)) by (apply known_app_r; cbn; unfold known; cbn; auto).
  assert (M3: known q3 (TM0 b (G - 1))) by (apply known_app_l; auto).
  assert (E3: forall t, known q2 t -> known q3 t) by (intros; apply known_app_l; auto).
  assert (F3: forall t, knownr q2 t -> knownr q3 t) by (intros; apply knownr_app_l; auto).
  clearbody q3. apply wfs_app. split.
  { apply wfs_kinds. intros k Hk. destruct (T4 k Hk) as (Y1 & Y2 & Y3 & Y4).
    apply E3 in T1, Y1, Y3. apply F3 in T2, Y2, Y4, V2, X2. pose proof (E3 _ (A2 k Hk)). pose proof (F3 _ (U2 k Hk)). wf. }
  set (q4 := q3 ++ _).
  assert (C4: forall k, flag c k = true -> known q4 (TC k b)).
  { intros k Hk. apply known_app_r. unfold known. apply in_for_kinds. exists k. cbn. auto. }
  assert (L4: known q4 (TAL b)) by (apply known_app_l; auto).
  assert (M4: known q4 (TM0 b (G - 1))) by (apply known_app_l; auto).
  assert (E4: forall t, known q3 t -> known q4 t) by (intros; apply known_app_l; auto).
  assert (F4: forall t, knownr q3 t -> knownr q4 t) by (intros; apply knownr_app_l; auto).
  clearbody q4. apply F3, F4 in X1, X2, X3, T2, V2, C2. apply E3, E4 in T1.
  assert (T8': forall m, m <= o_max c -> knownr q4 (RTmM (2 * r) m)) by (intros m Hm; apply F4, F3, T8; lia).
  clear T3 T4 T5 T6 T7 T8 S2 E3 F3 E4 F4 A2 U2 M3 M2 L3 q3 q2.
  apply wfs_app. split; [wf|]. set (q5 := q4 ++ _).
  assert (R5: known q5 (TR2 b)) by (apply known_app_r; unfold known; cbn; tauto).
  assert (E5: forall t, known q4 t -> known q5 t) by (intros; apply known_app_l; auto).
  assert (F5: forall t, knownr q4 t -> knownr q5 t) by (intros; apply knownr_app_l; auto).
  clearbody q5. apply wfs_app. split.
  { apply wfs_kinds. intros k Hk. pose proof (E5 _ (C4 k Hk)). wf. }
  apply wfs_app. split. { apply known_app_l with (b := for_kinds c (fun k => [EDep (TC k b) (TR2 b)])) in R5.
     apply F5 in X3. apply knownr_app_l with (b := for_kinds c (fun k => [EDep (TC k b) (TR2 b)])) in X3. wf. }
  match goal with |- wfs ?q _ => set (q6 := q) end.
  assert (E6: forall t, known q4 t -> known q6 t) by (intros; do 2 apply known_app_l; auto).
  assert (F6: forall t, knownr q4 t -> knownr q6 t) by (intros; do 2 apply knownr_app_l; auto).
  clearbody q6. apply wfs_flat_map. intros i Hi. apply in_seq in Hi. pose proof (F6 _ (T8' (i + 1) ltac:(lia))).
  apply E6 in T1, L4, M4. apply F6 in T2, V2, C2, X3. unfold last_m0.
  destruct (Nat.eqb_spec G 0); [lia|]. cbn zeta. wf.
Qed.

Theorem wf_generate : 0 < N -> 0 < G -> wfs [] (generate c).
Proof.
  intros HN HG. rewrite generate_closed by auto. apply wfs_app. split; [apply wf_shared|]. apply wfs_app. split; [apply wf_slots|].
  pose proof shared_known as HS. cbn [app]. set (pre := gen_shared c ++ gen_slots c) in *. clearbody pre.
  apply wfs_seq. intros p Hp. rewrite Nat.sub_0_r. set (q := pre ++ _).
  assert (Sq: shared_ok q) by (apply shared_mono; auto).
  assert (Kq: forall p' is', p' < p -> is' < S_ -> known q (TR3 (p' * S_ + is'))).
  { intros p' is' H1 H2. apply known_app_r. unfold known. apply in_flat_map. exists p'. split; [apply in_seq; lia|].
    apply in_app_iff. right. apply in_flat_map. exists is'. split; [apply in_seq; lia|]. unfold nth_block, block_events.
    rewrite !in_app_iff. do 7 right. left. cbn. auto. }
  clearbody q. apply wfs_app. split; [apply wf_point|]. destruct (known_point q p) as (V1 & A1).
  apply wfs_seq. intros is His. rewrite Nat.sub_0_r. apply wf_block; auto; try lia.
  - apply shared_mono, shared_mono. auto.
  - apply knownr_app_l. auto.
  - intros k Hk. apply known_app_l. auto.
  - intros Hb. set (b' := p * S_ + is - N). assert (S_ <> 0) by lia.
    pose proof (Nat.mod_upper_bound b' S_ H) as M1. pose proof (Nat.div_mod b' S_ H) as M2.
    destruct (lt_dec (b' / S_) p) as [Hlt|Hge].
    + replace b' with (b' / S_ * S_ + b' mod S_) by lia. do 2 apply known_app_l. apply Kq; auto.
    + assert (b' / S_ = p). { assert (b' < (p + 1) * S_) by (unfold b'; lia).
        assert (b' / S_ < p + 1) by (apply Nat.div_lt_upper_bound; lia). lia. }
      assert (HI: b' mod S_ < is) by (unfold b' in *; nia).
      apply known_app_r. unfold known. apply in_flat_map. exists (b' mod S_). split; [apply in_seq; lia|].
      unfold nth_block, block_events. replace (p * S_ + b' mod S_) with b' by nia.
      rewrite !in_app_iff. do 7 right. left. cbn. auto.
Qed.

End Wf.
