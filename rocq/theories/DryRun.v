(** Model of the dry run of TaskManager::generate_tasks and of its MemoryManager
    (/repo/src/TaskManager.hpp l.101-348 and l.505-749). *)
From Coq Require Import List Arith Lia Bool ZArith.
From Verif Require Import Base TaskGraph TaskGraphFacts TaskDeps GraphApi GraphHist.
Import ListNotations.

(** Calls of the MemoryManager.  Objects get the names of TaskGraph.v; the second
    argument is number_of_dependent_tasks. *)
Inductive acct :=
| AComp (t : task) (deps : nat)   (* account_for_computable, l.202-217 *)
| ATask (t : task) (deps : nat)   (* account_for_task, l.232-245 *)
| ARes (r : res)                  (* account_for_resource, l.258-265 *)
| AResult (r : res).              (* account_for_result, l.278-285 *)

(** number_of_readwrite_resources() of each class: NBasedResources.hpp 101,
    GaussBasedResources.hpp 118, AbsorptionCoefficientTask.hpp 226/389/590,
    ExtinctionCoefficientTask.hpp 201/322/496, ScatteringMatrixTask.hpp 208/369/564,
    WignerDResources.hpp 133, ParticleGeometryResource.hpp 121,
    InteractionResource.hpp 464/575, TMatrixResource.hpp 565/879/1257,
    AlignmentAverageTask.hpp 101, ShapeAveragingTask.hpp 98/230/366 *)
Definition readwrite (t : task) : nat := match t with TM0 _ _ => 2 | _ => 1 end.
(** number_of_readonly_resources(), the functions next to those *)
Definition readonly (t : task) : nat :=
  match t with
  | TN | TG _ | TGrid _ | TAv _ _ | TR1 _ | TR2 _ | TR3 _ => 0
  | TSW _ | TWD _ | TPG _ _ | TAL _ => 1
  | TI _ _ => 3
  | TM0 _ _ => 6
  | TMA _ _ => 4
  | TC _ _ => 5
  end.

(** The counters of l.113-138. *)
Definition a_tasks (a : acct) : nat := match a with AComp _ _ | ATask _ _ => 1 | _ => 0 end.
Definition a_resources (a : acct) : nat := match a with ATask _ _ => 0 | _ => 1 end.
Definition a_deps (a : acct) : nat := match a with AComp _ d | ATask _ d => d | _ => 0 end.
Definition a_write (a : acct) : nat := match a with AComp t _ | ATask t _ => readwrite t | _ => 0 end.
Definition a_read (a : acct) : nat := match a with AComp t _ | ATask t _ => readonly t | _ => 0 end.
Definition a_taskptr (a : acct) : nat := match a with AComp _ _ | ATask _ _ => 1 | _ => 0 end.
Definition a_resptr (a : acct) : nat := match a with ARes _ => 1 | _ => 0 end.
Definition a_resultptr (a : acct) : nat := match a with AResult _ => 1 | _ => 0 end.

Definition total {A} (w : A -> nat) (l : list A) : nat := list_sum (map w l).

Section Dry.
Variable c : cfg.
Definition for_k (f : kind -> list acct) : list acct := flat_map (fun k => if flag c k then f k else []) kinds.
Notation n_flags := (length (ks c)).

(** l.513-582 *)
Definition dry_shared : list acct :=
  [AComp TN 0] ++ flat_map (fun i => [AComp (TG i) 0]) (seq 0 (n_quad c)) ++
  for_k (fun k => [AComp (TGrid k) 0]) ++ for_k (fun k => [AComp (TSW k) 1]) ++
  flat_map (fun i => [AComp (TWD i) 1]) (seq 0 (n_quad c)) ++
  flat_map (fun is => flat_map (fun ig => [AComp (TPG is ig) 1]) (seq 0 (n_quad c))) (seq 0 (n_shape c)).

(** l.596-621 *)
Definition dry_point (p : nat) : list acct :=
  ARes (RIV p) :: for_k (fun k => [AResult (RRes k p); ATask (TAv k p) 0]).

(** l.626-692 *)
Definition dry_block (b : nat) : list acct :=
  for_k (fun k => [ARes (RUn k b)]) ++ [ARes (RConv b)] ++
  flat_map (fun ig => [ATask (TI b ig) 2; ATask (TM0 b ig) (4 + (if 0 <? ig then 1 else 0))]) (seq 0 (n_quad c)) ++
  [ATask (TAL b) 0] ++ for_k (fun k => [ATask (TC k b) 3]) ++
  [ATask (TR1 b) 1; ATask (TR2 b) (1 + n_flags); ATask (TR3 b) 1] ++
  flat_map (fun i => [ATask (TMA b (i + 1)) 2]) (seq 0 (o_max c)).

(** l.513-696; the loops over compositions, sizes and wavelengths in the same
    order as in the creation phase *)
Definition dry_base : list acct :=
  dry_shared ++
  flat_map (fun ic => flat_map (fun iz => flat_map (fun il =>
    let p := point_index c (ic, iz, il) in
    dry_point p ++ flat_map (fun is => dry_block (p * n_shape c + is)) (seq 0 (n_shape c)))
    (seq 0 (n_wav c))) (seq 0 (n_size c))) (seq 0 (n_comp c)).

(** l.721-726 and l.739-744 *)
Definition dry_slot (i : nat) : list acct := [ARes (RTm (2 * i)); ARes (RTm (2 * i + 1)); ARes (RInter i)].

(** the complete dry run with n_slot c = 1 + number_of_extra_tmatrices *)
Definition dry : list acct := dry_base ++ flat_map dry_slot (seq 0 (n_slot c)).
End Dry.

(* ------------------------------------------------ sums *)

Lemma total_app : forall A (w : A -> nat) a b, total w (a ++ b) = total w a + total w b.
Proof. intros. unfold total. rewrite map_app, list_sum_app. auto. Qed.
Lemma total_cons : forall A (w : A -> nat) x l, total w (x :: l) = w x + total w l.
Proof. reflexivity. Qed.
Lemma total_nil : forall A (w : A -> nat), total w [] = 0.
Proof. reflexivity. Qed.
Lemma total_flat : forall A B (w : B -> nat) (f : A -> list B) l, total w (flat_map f l) = total (fun x => total w (f x)) l.
Proof. intros. induction l as [|x l IH]; cbn [flat_map]; auto. rewrite total_app, IH. reflexivity. Qed.
Lemma total_map : forall A B (w : B -> nat) (f : A -> B) l, total w (map f l) = total (fun x => w (f x)) l.
Proof. intros. unfold total. rewrite map_map. auto. Qed.
Lemma total_ext : forall A (w v : A -> nat) l, (forall x, In x l -> w x = v x) -> total w l = total v l.
Proof. intros. unfold total. f_equal. apply map_ext_in. auto. Qed.
Lemma total_le : forall A (w v : A -> nat) l, (forall x, In x l -> w x <= v x) -> total w l <= total v l.
Proof.
  intros A w v l H. induction l as [|x l IH]; [auto|]. rewrite !total_cons. pose proof (H x ltac:(cbn; auto)).
  specialize (IH ltac:(intros; apply H; cbn; auto)). lia.
Qed.
Lemma total_const : forall A (w : A -> nat) k l, (forall x, In x l -> w x = k) -> total w l = length l * k.
Proof.
  intros A w k l H. induction l as [|x l IH]; [auto|]. rewrite total_cons, IH by (intros; apply H; cbn; auto).
  rewrite H by (cbn; auto). cbn [length]. lia.
Qed.

Section Sums.
Variable c : cfg.
Notation G := (n_quad c).
Notation N := (n_slot c).
Notation S_ := (n_shape c).
Notation P := (n_point c).
Notation B := (n_block c).
Notation F := (length (ks c)).
Notation M := (o_max c).
Hypothesis HN : 0 < N.

Lemma total_kinds : forall w f, total w (for_kinds c f) = total (fun k => total w (f k)) (ks c).
Proof.
  intros w f. unfold for_kinds, ks. rewrite total_flat. generalize kinds. intros l.
  induction l as [|k l IH]; auto. cbn [filter]. rewrite total_cons, IH. destruct (flag c k); [rewrite total_cons|]; auto.
Qed.
Lemma total_k : forall w f, total w (for_k c f) = total (fun k => total w (f k)) (ks c).
Proof.
  intros w f. unfold for_k, ks. rewrite total_flat. generalize kinds. intros l.
  induction l as [|k l IH]; auto. cbn [filter]. rewrite total_cons, IH. destruct (flag c k); [rewrite total_cons|]; auto.
Qed.

(** Sums over the generated events. *)
Lemma gen_total : forall w, total w (generate c) = total w (gen_shared c) + total w (gen_slots c) +
  total (fun p => total w (gen_point c p)) (seq 0 P) + total (fun b => total w (blk c b)) (seq 0 B).
Proof.
  intros w. rewrite generate_closed by auto. rewrite !total_app, total_flat.
  assert (E: total (fun p => total w (gen_point c p ++ flat_map (nth_block c p) (seq 0 S_))) (seq 0 P) =
             total (fun p => total w (gen_point c p)) (seq 0 P) + total (fun b => total w (blk c b)) (seq 0 B)); [|lia].
  unfold n_block. generalize P. intros n. induction n as [|n IH]; [reflexivity|].
  rewrite seq_S, !total_app, IH. cbn [plus]. rewrite !total_cons, !total_nil, total_app.
  replace (S n * S_) with (n * S_ + S_) by lia. rewrite seq_app, total_app. cbn [plus].
  assert (E: total w (flat_map (nth_block c n) (seq 0 S_)) = total (fun b => total w (blk c b)) (seq (n * S_) S_)); [|lia].
  rewrite total_flat, <- (seq_offset _ (n * S_)), total_map. apply total_ext. intros is Hi. apply in_seq in Hi.
  assert (E1: (n * S_ + is) / S_ = n) by (rewrite Nat.div_add_l, Nat.div_small by lia; lia).
  assert (E2: (n * S_ + is) mod S_ = is) by (rewrite Nat.add_comm, Nat.mod_add, Nat.mod_small by lia; auto).
  unfold nth_block, blk. rewrite E1, E2. reflexivity.
Qed.

Lemma dry_points : forall w, total w (dry_base c) = total w (dry_shared c) +
  total (fun p => total w (dry_point c p)) (seq 0 P) + total (fun b => total w (dry_block c b)) (seq 0 B).
Proof.
  intros w. unfold dry_base. rewrite total_app, <- Nat.add_assoc. f_equal.
  assert (E: flat_map (fun ic => flat_map (fun iz => flat_map (fun il =>
      dry_point c (point_index c (ic, iz, il)) ++ flat_map (fun is => dry_block c (point_index c (ic, iz, il) * S_ + is)) (seq 0 S_))
      (seq 0 (n_wav c))) (seq 0 (n_size c))) (seq 0 (n_comp c)) =
    flat_map (fun p => dry_point c p ++ flat_map (fun is => dry_block c (p * S_ + is)) (seq 0 S_)) (seq 0 P)).
  { rewrite <- (points_order c). unfold points. rewrite (flat_map_concat_map _ (map _ _)), map_map, <- flat_map_concat_map.
    rewrite flat_flat. apply flat_map_ext. intros ic. rewrite flat_flat. apply flat_map_ext. intros iz.
    rewrite (flat_map_concat_map _ (map _ _)), map_map, <- flat_map_concat_map. reflexivity. }
  etransitivity; [apply (f_equal (total w) E)|]. rewrite total_flat. clear E. unfold n_block. generalize P. intros n. induction n as [|n IH]; [reflexivity|].
  rewrite seq_S, !total_app, IH. cbn [plus]. rewrite !total_cons, !total_nil, total_app.
  replace (S n * S_) with (n * S_ + S_) by lia. rewrite seq_app, total_app. cbn [plus].
  rewrite total_flat. rewrite <- (seq_offset _ (n * S_)), total_map. lia.
Qed.
Lemma dry_total : forall w, total w (dry c) = total w (dry_base c) + total (fun i => total w (dry_slot i)) (seq 0 N).
Proof. intros w. unfold dry. rewrite total_app, total_flat. auto. Qed.
End Sums.

(** What the creation phase really registers and stores. *)
Definition e_task (e : ev) : nat := match e with ETask _ => 1 | _ => 0 end.
Definition e_res (e : ev) : nat := match e with ERes _ _ => 1 | _ => 0 end.
Definition e_dep (e : ev) : nat := match e with EDep _ _ => 1 | _ => 0 end.
Definition e_write (e : ev) : nat := match e with ELink _ _ true => 1 | _ => 0 end.
Definition e_read (e : ev) : nat := match e with ELink _ _ false => 1 | _ => 0 end.
Definition e_puttask (e : ev) : nat := match e with EPutTask _ => 1 | _ => 0 end.
Definition e_putres (e : ev) : nat := match e with EPutRes _ => 1 | _ => 0 end.
Definition e_putresult (e : ev) : nat := match e with EPutResult _ => 1 | _ => 0 end.

Lemma total_lin : forall A (w : A -> nat) a b l, (forall x, In x l -> w x = a + b) -> total w l = length l * a + length l * b.
Proof. intros A w a b l H. rewrite (total_const _ _ (a + b)) by auto. lia. Qed.

Section Counts.
Variable c : cfg.
Notation G := (n_quad c).
Notation N := (n_slot c).
Notation S_ := (n_shape c).
Notation P := (n_point c).
Notation B := (n_block c).
Notation F := (length (ks c)).
Notation M := (o_max c).
Hypothesis HN : 0 < N.
Hypothesis HG : 0 < G.

Ltac push := repeat (rewrite ?total_app, ?total_flat, ?total_kinds, ?total_k, ?total_cons, ?total_nil, ?total_map; cbn [app]).
Ltac consts := repeat match goal with
  | |- context [total (fun _ : ?A => ?k) ?l] => rewrite (total_const A (fun _ => k) k l) by auto
  end.
Ltac lens := rewrite ?seq_length, ?map_length.

Lemma comp_total : forall w t l, total w (computable t l) = w (ERes (RT t) None) + w (ETask t) + w (ELink t (RT t) true) +
  total (fun r => w (ELink t r false)) l.
Proof. intros. unfold computable. cbn [app]. rewrite !total_cons, total_map. lia. Qed.

(** shared part *)
Lemma shared_eq : forall (w : ev -> nat) (v : acct -> nat),
  (forall t l d k, In (t, l, d) [(TN, 0, 0)] \/ (exists i, In (t, l, d) [(TG i, 0, 0); (TWD i, 1, 1)]) \/
     (exists q, In (t, l, d) [(TGrid q, 0, 0); (TSW q, 1, 1)]) \/ (exists is ig, In (t, l, d) [(TPG is ig, 1, 1)]) ->
     w (ERes (RT t) None) + w (ETask t) + w (ELink t (RT t) true) + l * w (ELink t (RT k) false) + w (EPutTask t) + d * w (EDep k t) =
     v (AComp t d)) ->
  total w (gen_shared c) = total v (dry_shared c).
Proof.
  intros w v H. unfold gen_shared, dry_shared. push.
  assert (E1: w (EPutTask TN) + total w (computable TN []) = v (AComp TN 0)).
  { rewrite comp_total. rewrite <- (H TN 0 0 TN) by (left; cbn; auto). rewrite total_nil. lia. }
  assert (E2: total (fun x => total w (computable (TG x) [] ++ [EPutTask (TG x)])) (seq 0 G) = total (fun x => total v [AComp (TG x) 0]) (seq 0 G)).
  { apply total_ext. intros i _. rewrite total_app, comp_total, !total_cons, !total_nil.
    rewrite <- (H (TG i) 0 0 TN) by (right; left; exists i; cbn; auto). lia. }
  assert (E3: total (fun k => total w (computable (TGrid k) [] ++ [EPutTask (TGrid k)])) (ks c) = total (fun k => total v [AComp (TGrid k) 0]) (ks c)).
  { apply total_ext. intros i _. rewrite total_app, comp_total, !total_cons, !total_nil.
    rewrite <- (H (TGrid i) 0 0 TN) by (right; right; left; exists i; cbn; auto). lia. }
  assert (E4: total (fun k => total w (computable (TSW k) [RT (TGrid k)] ++ [EDep (TGrid k) (TSW k); EPutTask (TSW k)])) (ks c) = total (fun k => total v [AComp (TSW k) 1]) (ks c)).
  { apply total_ext. intros i _. rewrite total_app, comp_total, !total_cons, !total_nil.
    rewrite <- (H (TSW i) 1 1 (TGrid i)) by (right; right; left; exists i; cbn; auto). lia. }
  assert (E5: total (fun i => total w (computable (TWD i) [RT (TG i)] ++ [EDep (TG i) (TWD i); EPutTask (TWD i)])) (seq 0 G) = total (fun i => total v [AComp (TWD i) 1]) (seq 0 G)).
  { apply total_ext. intros i _. rewrite total_app, comp_total, !total_cons, !total_nil.
    rewrite <- (H (TWD i) 1 1 (TG i)) by (right; left; exists i; cbn; auto). lia. }
  assert (E6: total (fun is => total w (flat_map (fun ig => computable (TPG is ig) [RT (TG ig)] ++ [EDep (TG ig) (TPG is ig); EPutTask (TPG is ig)]) (seq 0 G))) (seq 0 S_) =
    total (fun is => total v (flat_map (fun ig => [AComp (TPG is ig) 1]) (seq 0 G))) (seq 0 S_)).
  { apply total_ext. intros is _. rewrite !total_flat. apply total_ext. intros ig _. rewrite total_app, comp_total, !total_cons, !total_nil.
    rewrite <- (H (TPG is ig) 1 1 (TG ig)) by (right; right; right; exists is, ig; cbn; auto). lia. }
  rewrite E2, E3, E4, E5, E6. lia.
Qed.
Ltac shared := apply shared_eq; intros t l d k H;
  repeat match goal with
  | H : _ \/ _ |- _ => destruct H as [H|H]
  | H : exists _, _ |- _ => destruct H as (? & H)
  | H : In _ (_ :: _) |- _ => destruct H as [H|H]
  | H : In _ [] |- _ => destruct H
  end; injection H as <- <- <-; reflexivity.

(** slots: registered resources and stored pointers *)
Lemma slots_total : forall (w : ev -> nat) a d, (forall r, w (ERes r None) = a) -> (forall r q, w (ERes r (Some q)) = a) ->
  (forall r, w (EPutRes r) = d) -> total w (gen_slots c) = N * (3 * (a + d) + 2 * (M + 1) * a).
Proof.
  intros w a d H1 H2 H3. unfold gen_slots. push.
  rewrite (total_const _ _ (a + d)) by (intros; rewrite !total_cons, total_nil, H1, H3; lia).
  rewrite (total_const _ _ (a + d + (M + 1) * a)).
  - lens. lia.
  - intros j _. rewrite !total_cons, total_map, H1, H3, (total_const _ _ a) by auto. lens. lia.
Qed.
Lemma dry_slots_total : forall v a, (forall r, v (ARes r) = a) -> total (fun i => total v (dry_slot i)) (seq 0 N) = N * (3 * a).
Proof.
  intros v a H. rewrite (total_const _ _ (3 * a)); [lens; auto|]. intros i _. unfold dry_slot. rewrite !total_cons, total_nil, !H. lia.
Qed.

(** points *)
Lemma point_total : forall w p a, (forall k, w (ERes (RRes k p) None) + w (EPutResult (RRes k p)) + w (ETask (TAv k p)) +
    w (ELink (TAv k p) (RRes k p) true) + w (EPutTask (TAv k p)) = a) ->
  total w (gen_point c p) = w (ERes (RIV p) None) + w (EPutRes (RIV p)) + F * a.
Proof.
  intros w p a H. unfold gen_point. rewrite total_app, total_kinds, !total_cons, total_nil.
  rewrite (total_const _ _ a); [lia|]. intros k _. rewrite !total_cons, total_nil. specialize (H k). lia.
Qed.
Lemma dry_point_total : forall v p a, (forall k, v (AResult (RRes k p)) + v (ATask (TAv k p) 0) = a) ->
  total v (dry_point c p) = v (ARes (RIV p)) + F * a.
Proof.
  intros v p a H. unfold dry_point. rewrite total_cons, total_k. f_equal.
  rewrite (total_const _ _ a); [lia|]. intros k _. rewrite !total_cons, total_nil. specialize (H k). lia.
Qed.

(** one order of a block, without and with the dependencies on reused storage *)
Lemma orders_total : forall w r un p b is ig, (forall a t, w (EDep a t) = 0) ->
  total w (order_events r un p b is ig) =
  w (ETask (TI b ig)) + w (ELink (TI b ig) (RInter r) true) + w (ELink (TI b ig) (RT (TPG is ig)) false) +
  w (ELink (TI b ig) (RConv b) false) + w (ELink (TI b ig) (RIV p) false) + w (EPutTask (TI b ig)) + w (ETask (TM0 b ig)) +
  w (ELink (TM0 b ig) (RTmM (2 * r) 0) true) + w (ELink (TM0 b ig) (RConv b) true) + w (ELink (TM0 b ig) (RT TN) false) +
  w (ELink (TM0 b ig) (RT (TG ig)) false) + w (ELink (TM0 b ig) (RT (TPG is ig)) false) + w (ELink (TM0 b ig) (RIV p) false) +
  w (ELink (TM0 b ig) (RInter r) false) + w (ELink (TM0 b ig) (RT (TWD ig)) false) + w (EPutTask (TM0 b ig)).
Proof.
  intros w r un p b is ig H. rewrite order_events_eq. destruct un as [u|], ig as [|ig]; cbn [dep_if Nat.eqb];
    repeat (rewrite ?total_app, ?total_cons, ?total_nil; cbn [app]); rewrite ?H; lia.
Qed.
Lemma orders_deps : forall r un p b is ig, total e_dep (order_events r un p b is ig) <= 6 + (if 0 <? ig then 1 else 0).
Proof.
  intros r un p b is ig. rewrite order_events_eq. destruct un as [u|], ig as [|ig]; cbn; lia.
Qed.

Lemma last_some : forall b, last_m0 c b = Some (TM0 b (G - 1)).
Proof. intros b. unfold last_m0. destruct (Nat.eqb_spec G 0); [lia|auto]. Qed.

Ltac num := repeat match goal with
  | |- context [@total ?A ?f (ks c)] => erewrite (total_const A f _ (ks c)); [|intros ? _; cbn; reflexivity]
  | |- context [@total ?A ?f (seq 0 M)] => erewrite (total_const A f _ (seq 0 M)); [|intros ? _; cbn; reflexivity]
  | |- context [@total ?A ?f (seq 0 G)] => erewrite (total_const A f _ (seq 0 G)); [|intros ? _; cbn; reflexivity]
  end; rewrite ?seq_length; cbn [e_task e_res e_dep e_write e_read e_puttask e_putres e_putresult
    a_tasks a_resources a_deps a_write a_read a_taskptr a_resptr a_resultptr readwrite readonly].
Ltac block q := intros b; unfold blk, block_events, dry_block; rewrite ?last_some; cbn [dep_ptr app];
  repeat (rewrite ?total_app, ?total_flat, ?total_kinds, ?total_k, ?total_cons, ?total_nil, ?total_map; cbn [app]);
  try rewrite (total_ext _ (fun x => total _ (order_events _ _ _ _ _ x)) (fun _ => q) (seq 0 G))
    by (intros; rewrite orders_total by auto; reflexivity);
  num; lia.

Lemma puttask_block : forall b, total e_puttask (blk c b) = G * 2 + 4 + F + M.
Proof. block 2. Qed.
Lemma taskptr_block : forall b, total a_taskptr (dry_block c b) = G * 2 + 4 + F + M.
Proof. block 0. Qed.
Lemma putres_block : forall b, total e_putres (blk c b) = F + 1.
Proof. block 0. Qed.
Lemma resptr_block : forall b, total a_resptr (dry_block c b) = F + 1.
Proof. block 0. Qed.
Lemma putresult_block : forall b, total e_putresult (blk c b) = 0.
Proof. block 0. Qed.
Lemma resultptr_block : forall b, total a_resultptr (dry_block c b) = 0.
Proof. block 0. Qed.
Lemma task_block : forall b, total e_task (blk c b) = G * 2 + 4 + F + M.
Proof. block 2. Qed.
Lemma tasks_block : forall b, total a_tasks (dry_block c b) = G * 2 + 4 + F + M.
Proof. block 0. Qed.
Lemma res_block : forall b, total e_res (blk c b) = F + 1.
Proof. block 0. Qed.
Lemma resources_block : forall b, total a_resources (dry_block c b) = F + 1.
Proof. block 0. Qed.
Lemma write_block : forall b, total e_write (blk c b) = G * 3 + 4 + F + M.
Proof. block 3. Qed.
Lemma writes_block : forall b, total a_write (dry_block c b) = G * 3 + 4 + F + M.
Proof. block 0. Qed.
Lemma read_block : forall b, total e_read (blk c b) = G * 9 + 1 + 6 * F + 4 * M.
Proof. block 9. Qed.
Lemma reads_block : forall b, total a_read (dry_block c b) = G * 9 + 1 + 5 * F + 4 * M.
Proof. block 0. Qed.
Lemma dep_block : forall b, total e_dep (blk c b) <= total a_deps (dry_block c b).
Proof.
  intros b. unfold blk, block_events, dry_block. rewrite last_some. cbn [dep_ptr app].
  repeat (rewrite ?total_app, ?total_flat, ?total_kinds, ?total_k, ?total_cons, ?total_nil; cbn [app]).
  assert (E: total (fun x => total e_dep (order_events (b mod N) (unlocker c b) (b / S_) b (b mod S_) x)) (seq 0 G) <=
             total (fun x => total a_deps [ATask (TI b x) 2; ATask (TM0 b x) (4 + (if 0 <? x then 1 else 0))]) (seq 0 G)).
  { apply total_le. intros x _. pose proof (orders_deps (b mod N) (unlocker c b) (b / S_) b (b mod S_) x).
    rewrite !total_cons, total_nil. cbn [a_deps]. lia. }
  revert E. generalize (total (fun x => total e_dep (order_events (b mod N) (unlocker c b) (b / S_) b (b mod S_) x)) (seq 0 G)).
  generalize (total (fun x => total a_deps [ATask (TI b x) 2; ATask (TM0 b x) (4 + (if 0 <? x then 1 else 0))]) (seq 0 G)).
  intros u v E. num. lia.
Qed.

Ltac parts := rewrite gen_total, dry_total, dry_points by auto.
Theorem task_pointers : total e_puttask (generate c) = total a_taskptr (dry c).
Proof.
  parts. rewrite (slots_total e_puttask 0 0), (dry_slots_total a_taskptr 0) by auto.
  assert (E1: total e_puttask (gen_shared c) = total a_taskptr (dry_shared c)) by shared.
  rewrite (total_ext _ _ (fun p => total a_taskptr (dry_point c p)) (seq 0 P))
    by (intros p _; rewrite (point_total _ p 1), (dry_point_total _ p 1) by auto; reflexivity).
  rewrite (total_ext _ _ (fun b => total a_taskptr (dry_block c b)) (seq 0 B)) by (intros; rewrite puttask_block, taskptr_block; auto).
  lia.
Qed.
Theorem resource_pointers : total e_putres (generate c) = total a_resptr (dry c).
Proof.
  parts. rewrite (slots_total e_putres 0 1), (dry_slots_total a_resptr 1) by auto.
  assert (E1: total e_putres (gen_shared c) = total a_resptr (dry_shared c)) by shared.
  rewrite (total_ext _ _ (fun p => total a_resptr (dry_point c p)) (seq 0 P))
    by (intros p _; rewrite (point_total _ p 0), (dry_point_total _ p 0) by auto; reflexivity).
  rewrite (total_ext _ _ (fun b => total a_resptr (dry_block c b)) (seq 0 B)) by (intros; rewrite putres_block, resptr_block; auto).
  lia.
Qed.
Theorem result_pointers : total e_putresult (generate c) = total a_resultptr (dry c).
Proof.
  parts. rewrite (slots_total e_putresult 0 0), (dry_slots_total a_resultptr 0) by auto.
  assert (E1: total e_putresult (gen_shared c) = total a_resultptr (dry_shared c)) by shared.
  rewrite (total_ext _ _ (fun p => total a_resultptr (dry_point c p)) (seq 0 P))
    by (intros p _; rewrite (point_total _ p 1), (dry_point_total _ p 1) by auto; reflexivity).
  rewrite (total_ext _ _ (fun b => total a_resultptr (dry_block c b)) (seq 0 B)) by (intros; rewrite putresult_block, resultptr_block; auto).
  lia.
Qed.
Theorem reserved_tasks : total e_task (generate c) = total a_tasks (dry c).
Proof.
  parts. rewrite (slots_total e_task 0 0), (dry_slots_total a_tasks 0) by auto.
  assert (E1: total e_task (gen_shared c) = total a_tasks (dry_shared c)) by shared.
  rewrite (total_ext _ _ (fun p => total a_tasks (dry_point c p)) (seq 0 P))
    by (intros p _; rewrite (point_total _ p 1), (dry_point_total _ p 1) by auto; reflexivity).
  rewrite (total_ext _ _ (fun b => total a_tasks (dry_block c b)) (seq 0 B)) by (intros; rewrite task_block, tasks_block; auto).
  lia.
Qed.
Theorem reserved_writes : total e_write (generate c) = total a_write (dry c).
Proof.
  parts. rewrite (slots_total e_write 0 0), (dry_slots_total a_write 0) by auto.
  assert (E1: total e_write (gen_shared c) = total a_write (dry_shared c)) by shared.
  rewrite (total_ext _ _ (fun p => total a_write (dry_point c p)) (seq 0 P))
    by (intros p _; rewrite (point_total _ p 1), (dry_point_total _ p 1) by auto; reflexivity).
  rewrite (total_ext _ _ (fun b => total a_write (dry_block c b)) (seq 0 B)) by (intros; rewrite write_block, writes_block; auto).
  lia.
Qed.
Theorem reserved_deps : total e_dep (generate c) <= total a_deps (dry c).
Proof.
  parts. rewrite (slots_total e_dep 0 0), (dry_slots_total a_deps 0) by auto.
  assert (E1: total e_dep (gen_shared c) = total a_deps (dry_shared c)) by shared.
  rewrite (total_ext _ _ (fun p => total a_deps (dry_point c p)) (seq 0 P))
    by (intros p _; rewrite (point_total _ p 0), (dry_point_total _ p 0) by auto; reflexivity).
  pose proof (total_le _ _ (fun b => total a_deps (dry_block c b)) (seq 0 B) ltac:(intros; apply dep_block)).
  lia.
Qed.
(** one read link per result type and T-matrix more than reserved *)
Theorem reserved_reads : total e_read (generate c) = total a_read (dry c) + B * F.
Proof.
  parts. rewrite (slots_total e_read 0 0), (dry_slots_total a_read 0) by auto.
  assert (E1: total e_read (gen_shared c) = total a_read (dry_shared c)) by shared.
  rewrite (total_ext _ _ (fun p => total a_read (dry_point c p)) (seq 0 P))
    by (intros p _; rewrite (point_total _ p 0), (dry_point_total _ p 0) by auto; reflexivity).
  rewrite (total_const _ _ _ (seq 0 B) (fun b _ => read_block b)), (total_const _ _ _ (seq 0 B) (fun b _ => reads_block b)), !seq_length.
  lia.
Qed.
(** the per-m resources of the T-matrices are not reserved *)
Theorem reserved_resources : total e_res (generate c) = total a_resources (dry c) + 2 * N * (M + 1).
Proof.
  parts. rewrite (slots_total e_res 1 0), (dry_slots_total a_resources 1) by auto.
  assert (E1: total e_res (gen_shared c) = total a_resources (dry_shared c)) by shared.
  rewrite (total_ext _ _ (fun p => total a_resources (dry_point c p)) (seq 0 P))
    by (intros p _; rewrite (point_total _ p 1), (dry_point_total _ p 1) by auto; reflexivity).
  rewrite (total_ext _ _ (fun b => total a_resources (dry_block c b)) (seq 0 B)) by (intros; rewrite res_block, resources_block; auto).
  lia.
Qed.
End Counts.
