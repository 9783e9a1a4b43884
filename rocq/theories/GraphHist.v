(** The calls made by generate_tasks as a scheduler history: the ids are the
    creation order, every call is valid, and the dependencies, links and parents
    recorded in the history are those of TaskDeps.v. *)
From Coq Require Import List Arith Lia Bool ZArith Permutation Relation_Operators Operators_Properties.
From Verif Require Import Base LockProto Sched Api TaskGraph TaskGraphFacts TaskDeps GraphApi.
Import ListNotations.

(* ------------------------------------------------ created tasks and resources, in order *)

Lemma tasks_app : forall a b, tasks_of (a ++ b) = tasks_of a ++ tasks_of b.
Proof. intros. apply flat_map_app. Qed.
Lemma ress_app : forall a b, ress_of (a ++ b) = ress_of a ++ ress_of b.
Proof. intros. apply flat_map_app. Qed.
Lemma flat_flat : forall A B C (f : A -> list B) (g : B -> list C) l,
  flat_map g (flat_map f l) = flat_map (fun x => flat_map g (f x)) l.
Proof. induction l as [|a l IH]; cbn; auto. rewrite flat_map_app, IH. auto. Qed.
Lemma tasks_flat : forall A (f : A -> list ev) l, tasks_of (flat_map f l) = flat_map (fun x => tasks_of (f x)) l.
Proof. intros. apply flat_flat. Qed.
Lemma ress_flat : forall A (f : A -> list ev) l, ress_of (flat_map f l) = flat_map (fun x => ress_of (f x)) l.
Proof. intros. apply flat_flat. Qed.
Lemma flat_single : forall A B (f : A -> B) l, flat_map (fun x => [f x]) l = map f l.
Proof. induction l as [|a l IH]; cbn; auto. Qed.
Lemma flat_ext : forall A B (f g : A -> list B) l, (forall x, In x l -> f x = g x) -> flat_map f l = flat_map g l.
Proof. induction l as [|a l IH]; intros H; cbn; auto. rewrite H by (cbn; auto). f_equal. apply IH. intros; apply H; cbn; auto. Qed.
Lemma flat_nil : forall A B (l : list A), flat_map (fun _ => @nil B) l = [].
Proof. induction l; cbn; auto. Qed.

Section H.
Variable c : cfg.
Notation G := (n_quad c).
Notation N := (n_slot c).
Notation S_ := (n_shape c).
Notation P := (n_point c).
Notation B := (n_block c).

(** The requested results. *)
Definition ks : list kind := filter (flag c) kinds.
Lemma in_ks : forall k, In k ks <-> flag c k = true.
Proof. intros k. unfold ks. rewrite filter_In. split; [tauto|]. intros. split; auto. apply in_kinds. Qed.
Lemma kinds_tasks : forall f, tasks_of (for_kinds c f) = flat_map (fun k => tasks_of (f k)) ks.
Proof.
  intros f. unfold for_kinds, ks. rewrite tasks_flat. induction kinds as [|k l IH]; cbn; auto.
  rewrite IH. destruct (flag c k); auto.
Qed.
Lemma kinds_ress : forall f, ress_of (for_kinds c f) = flat_map (fun k => ress_of (f k)) ks.
Proof.
  intros f. unfold for_kinds, ks. rewrite ress_flat. induction kinds as [|k l IH]; cbn; auto.
  rewrite IH. destruct (flag c k); auto.
Qed.

Lemma comp_tasks : forall t l, tasks_of (computable t l) = [t].
Proof. intros t l. unfold computable. cbn. f_equal. induction l; cbn; auto. Qed.
Lemma comp_ress : forall t l, ress_of (computable t l) = [RT t].
Proof. intros t l. unfold computable. cbn. f_equal. induction l; cbn; auto. Qed.

Definition shared_tasks : list task :=
  [TN] ++ map TG (seq 0 G) ++ map TGrid ks ++ map TSW ks ++ map TWD (seq 0 G) ++
  flat_map (fun is => map (TPG is) (seq 0 G)) (seq 0 S_).
Definition block_tasks (b : nat) : list task :=
  flat_map (fun i => [TI b i; TM0 b i]) (seq 0 G) ++ [TAL b] ++ map (fun k => TC k b) ks ++
  [TR1 b; TR2 b; TR3 b] ++ map (fun i => TMA b (i + 1)) (seq 0 (o_max c)).

Lemma tasks_shared : tasks_of (gen_shared c) = shared_tasks.
Proof.
  unfold gen_shared, shared_tasks. rewrite !tasks_app, !tasks_flat, !kinds_tasks. f_equal.
  repeat apply (f_equal2 (@app task)); rewrite <- ?flat_single; try (apply flat_ext; intros; rewrite tasks_app, comp_tasks; reflexivity).
  apply flat_ext. intros is _. rewrite tasks_flat, <- flat_single. apply flat_ext. intros i _.
  rewrite tasks_app, comp_tasks. reflexivity.
Qed.
Lemma ress_shared : ress_of (gen_shared c) = map RT shared_tasks.
Proof.
  unfold gen_shared, shared_tasks. rewrite !ress_app, !ress_flat, !kinds_ress, !map_app, !map_map. f_equal.
  repeat apply (f_equal2 (@app res)); rewrite <- ?flat_single; try (apply flat_ext; intros; rewrite ress_app, comp_ress; reflexivity).
  rewrite flat_flat. apply flat_ext. intros is _. rewrite flat_single, map_map, ress_flat, <- flat_single. apply flat_ext. intros i _.
  rewrite ress_app, comp_ress. reflexivity.
Qed.
Lemma tasks_slots : tasks_of (gen_slots c) = [].
Proof.
  unfold gen_slots. rewrite tasks_app, !tasks_flat.
  rewrite (flat_ext _ _ _ (fun _ => []) (seq 0 N)), (flat_ext _ _ _ (fun _ => []) (seq 0 (2 * N))), !flat_nil; auto.
  intros j _. cbn. induction (seq 0 (o_max c + 1)); cbn; auto.
Qed.
Definition slot_ress : list res :=
  map RInter (seq 0 N) ++ flat_map (fun j => RTm j :: map (RTmM j) (seq 0 (o_max c + 1))) (seq 0 (2 * N)).
Lemma ress_slots : ress_of (gen_slots c) = slot_ress.
Proof.
  unfold gen_slots, slot_ress. rewrite ress_app, !ress_flat. f_equal.
  apply flat_ext. intros j _. cbn. f_equal. induction (seq 0 (o_max c + 1)); cbn; auto. f_equal. auto.
Qed.
Lemma tasks_point : forall p, tasks_of (gen_point c p) = map (fun k => TAv k p) ks.
Proof. intros p. unfold gen_point. rewrite tasks_app, kinds_tasks. cbn. try apply flat_single; reflexivity. Qed.
Lemma ress_point : forall p, ress_of (gen_point c p) = RIV p :: map (fun k => RRes k p) ks.
Proof. intros p. unfold gen_point. rewrite ress_app, kinds_ress. reflexivity. Qed.

Lemma tasks_dep_if : forall a t, tasks_of (dep_if a t) = [].
Proof. destruct a; reflexivity. Qed.
Lemma ress_dep_if : forall a t, ress_of (dep_if a t) = [].
Proof. destruct a; reflexivity. Qed.
Lemma tasks_dep_ptr : forall a t, tasks_of (dep_ptr a t) = [].
Proof. destruct a; reflexivity. Qed.
Lemma ress_dep_ptr : forall a t, ress_of (dep_ptr a t) = [].
Proof. destruct a; reflexivity. Qed.

Lemma tasks_block : forall r un p b is, tasks_of (block_events c r un p b is) = block_tasks b.
Proof.
  intros r un p b is. unfold block_events, block_tasks. rewrite !tasks_app, !tasks_flat, !kinds_tasks.
  assert (E0: forall f : kind -> list ev, (forall k, tasks_of (f k) = []) -> flat_map (fun k => tasks_of (f k)) (ks) = []).
  { intros f H. rewrite (flat_ext _ _ _ (fun _ => [])) by auto. apply flat_nil. }
  rewrite (E0 (fun k => [ERes (RUn k b) None; EPutRes (RUn k b)])), (E0 (fun k => [EDep (TC k b) (TR2 b)])) by reflexivity.
  rewrite (flat_ext _ _ (fun x => tasks_of (order_events r un p b is x)) (fun i => [TI b i; TM0 b i])).
  2:{ intros i _. rewrite order_events_eq, !tasks_app, tasks_dep_if. destruct (i =? 0); [rewrite tasks_dep_if|]; reflexivity. }
  rewrite (flat_ext _ _ _ (fun i => [TMA b (i + 1)]) (seq 0 (o_max c))).
  2:{ intros i _. cbn zeta. rewrite !tasks_app, tasks_dep_ptr. reflexivity. }
  reflexivity.
Qed.
Lemma ress_block : forall r un p b is, ress_of (block_events c r un p b is) = map (fun k => RUn k b) ks ++ [RConv b].
Proof.
  intros r un p b is. unfold block_events. rewrite !ress_app, !ress_flat, !kinds_ress.
  rewrite (flat_ext _ _ (fun x => ress_of (order_events r un p b is x)) (fun _ => [])), flat_nil.
  2:{ intros i _. rewrite order_events_eq, !ress_app, ress_dep_if. destruct (i =? 0); [rewrite ress_dep_if|]; reflexivity. }
  rewrite (flat_ext _ _ _ (fun _ => []) (seq 0 (o_max c))), flat_nil.
  2:{ intros i _. cbn zeta. rewrite !ress_app, ress_dep_ptr. reflexivity. }
  cbn [ress_of flat_map app]. f_equal. rewrite !flat_nil. reflexivity.
Qed.

Definition point_tasks (p : nat) : list task :=
  map (fun k => TAv k p) ks ++ flat_map (fun is => block_tasks (p * S_ + is)) (seq 0 S_).
Definition point_ress (p : nat) : list res :=
  (RIV p :: map (fun k => RRes k p) ks) ++
  flat_map (fun is => map (fun k => RUn k (p * S_ + is)) ks ++ [RConv (p * S_ + is)]) (seq 0 S_).

Hypothesis HN : 0 < N.

Lemma tasks_generate : tasks_of (generate c) = shared_tasks ++ flat_map point_tasks (seq 0 P).
Proof.
  rewrite generate_closed by auto. rewrite !tasks_app, tasks_shared, tasks_slots, tasks_flat. cbn [app]. f_equal.
  apply flat_ext. intros p _. rewrite tasks_app, tasks_point, tasks_flat. unfold point_tasks. f_equal.
  apply flat_ext. intros is _. apply tasks_block.
Qed.
Lemma ress_generate : ress_of (generate c) = map RT shared_tasks ++ slot_ress ++ flat_map point_ress (seq 0 P).
Proof.
  rewrite generate_closed by auto. rewrite !ress_app, ress_shared, ress_slots, ress_flat. do 2 f_equal.
  apply flat_ext. intros p _. rewrite ress_app, ress_point, ress_flat. unfold point_ress. f_equal.
  apply flat_ext. intros is _. apply ress_block.
Qed.

(* ------------------------------------------------ no duplicates *)

Lemma NoDup_app' : forall A (a b : list A), NoDup a -> NoDup b -> (forall x, In x a -> ~ In x b) -> NoDup (a ++ b).
Proof.
  induction a as [|x a IH]; intros b Ha Hb H; cbn; auto. inversion Ha; subst. constructor.
  - rewrite in_app_iff. intros [K|K]; [auto|]. apply (H x); cbn; auto.
  - apply IH; auto. intros y Hy. apply H. cbn. auto.
Qed.
Lemma NoDup_flat : forall A C (f : A -> list C) l, NoDup l -> (forall x, In x l -> NoDup (f x)) ->
  (forall x y z, In x l -> In y l -> In z (f x) -> In z (f y) -> x = y) -> NoDup (flat_map f l).
Proof.
  induction l as [|x l IH]; intros Hl H1 H2; cbn; [constructor|]. inversion Hl; subst. apply NoDup_app'.
  - apply H1. cbn. auto.
  - apply IH; auto; intros; [apply H1|eapply H2]; cbn; eauto.
  - intros z Hz K. apply in_flat_map in K. destruct K as (y & Hy & K).
    assert (x = y) by (eapply H2; cbn; eauto). subst. auto.
Qed.
Lemma NoDup_map' : forall A C (f : A -> C) l, (forall x y, f x = f y -> x = y) -> NoDup l -> NoDup (map f l).
Proof. intros. apply FinFun.Injective_map_NoDup; auto. Qed.
Lemma NoDup_ks : NoDup ks.
Proof. apply NoDup_filter. unfold kinds. repeat constructor; cbn; intuition discriminate. Qed.

(** Membership in the concrete lists. *)
Ltac mem := repeat match goal with
  | H : In _ (_ ++ _) |- _ => apply in_app_or in H; destruct H as [H|H]
  | H : In _ (map _ _) |- _ => apply in_map_iff in H; destruct H as (? & ? & H)
  | H : In _ (flat_map _ _) |- _ => apply in_flat_map in H; destruct H as (? & ? & H)
  | H : In _ (_ :: _) |- _ => destruct H as [H|H]
  | H : In _ [] |- _ => destruct H
  | H : In _ (seq _ _) |- _ => apply in_seq in H
  end; subst; try discriminate.
Ltac inj := repeat match goal with
  | H : ?a = ?b |- _ => first [ is_var a; fail 1 | injection H; clear H; intros; subst ] end.
Ltac nd := repeat first [ apply NoDup_app' | apply NoDup_map'; [intros ? ? E; injection E; intros; subst; auto; lia|] | apply seq_NoDup | apply NoDup_ks
  | constructor ].

Lemma NoDup_block : forall b, NoDup (block_tasks b).
Proof.
  intros b. unfold block_tasks. apply NoDup_app'.
  - apply NoDup_flat; [apply seq_NoDup| |].
    + intros i _. repeat constructor; cbn; intuition discriminate.
    + intros x y z _ _ H1 H2. mem; congruence.
  - apply NoDup_app'; [repeat constructor; cbn; tauto| |].
    + apply NoDup_app'; [apply NoDup_map'; [congruence|apply NoDup_ks]| |].
      * apply NoDup_app'; [repeat constructor; cbn; intuition discriminate| |].
        -- apply NoDup_map'; [intros x y E; injection E; lia|apply seq_NoDup].
        -- intros t H1 H2. mem.
      * intros t H1 H2. mem.
    + intros t H1 H2. mem.
  - intros t H1 H2. mem.
Qed.

Definition point_of (t : task) : option nat :=
  match t with
  | TAv _ p => Some p
  | TI b _ | TM0 b _ | TAL b | TC _ b | TR1 b | TR2 b | TR3 b | TMA b _ => Some (b / S_)
  | _ => None
  end.
Definition block_of' (t : task) : option nat :=
  match t with
  | TI b _ | TM0 b _ | TAL b | TC _ b | TR1 b | TR2 b | TR3 b | TMA b _ => Some b
  | _ => None
  end.
Lemma block_tasks_of : forall b t, In t (block_tasks b) -> block_of' t = Some b.
Proof. intros b t H. unfold block_tasks in H. mem; reflexivity. Qed.
Lemma block_point : forall p is, is < S_ -> (p * S_ + is) / S_ = p.
Proof. intros p is H. rewrite Nat.div_add_l by lia. rewrite Nat.div_small; lia. Qed.
Lemma point_tasks_of : forall p t, In t (point_tasks p) -> point_of t = Some p.
Proof.
  intros p t H. unfold point_tasks in H. apply in_app_or in H. destruct H as [H|H]; [mem; reflexivity|].
  apply in_flat_map in H. destruct H as (is & Hi & H). apply in_seq in Hi. apply block_tasks_of in H.
  destruct t; cbn in *; try discriminate; injection H as ->; rewrite block_point; auto; lia.
Qed.
Lemma NoDup_shared : NoDup shared_tasks.
Proof.
  unfold shared_tasks.
  apply NoDup_app'; [repeat constructor; cbn; tauto| |intros t H1 H2; mem].
  apply NoDup_app'; [apply NoDup_map'; [congruence|apply seq_NoDup]| |intros t H1 H2; mem].
  apply NoDup_app'; [apply NoDup_map'; [congruence|apply NoDup_ks]| |intros t H1 H2; mem].
  apply NoDup_app'; [apply NoDup_map'; [congruence|apply NoDup_ks]| |intros t H1 H2; mem].
  apply NoDup_app'; [apply NoDup_map'; [congruence|apply seq_NoDup]| |intros t H1 H2; mem].
  apply NoDup_flat; [apply seq_NoDup| |].
  - intros is _. apply NoDup_map'; [congruence|apply seq_NoDup].
  - intros x y z _ _ H1 H2. mem. congruence.
Qed.
Lemma NoDup_point : forall p, NoDup (point_tasks p).
Proof.
  intros p. unfold point_tasks. apply NoDup_app'.
  - apply NoDup_map'; [congruence|apply NoDup_ks].
  - apply NoDup_flat; [apply seq_NoDup| |].
    + intros is _. apply NoDup_block.
    + intros x y z _ _ H1 H2. apply block_tasks_of in H1, H2. rewrite H1 in H2. injection H2. lia.
  - intros t H1 H2. apply in_flat_map in H2. destruct H2 as (is & _ & H2). apply block_tasks_of in H2. mem.
Qed.

Theorem NoDup_tasks : NoDup (tasks_of (generate c)).
Proof.
  rewrite tasks_generate. apply NoDup_app'; [apply NoDup_shared| |].
  - apply NoDup_flat; [apply seq_NoDup| |].
    + intros p _. apply NoDup_point.
    + intros x y z _ _ H1 H2. apply point_tasks_of in H1, H2. congruence.
  - intros t H1 H2. apply in_flat_map in H2. destruct H2 as (p & _ & H2). apply point_tasks_of in H2.
    unfold shared_tasks in H1. mem.
Qed.

Definition rpoint (r : res) : option nat :=
  match r with RIV p | RRes _ p => Some p | RUn _ b | RConv b => Some (b / S_) | _ => None end.
Lemma point_ress_of : forall p r, In r (point_ress p) -> rpoint r = Some p.
Proof.
  intros p r H. unfold point_ress in H. apply in_app_or in H. destruct H as [H|H]; [mem; reflexivity|].
  apply in_flat_map in H. destruct H as (is & Hi & H). apply in_seq in Hi.
  mem; cbn; rewrite block_point; auto; lia.
Qed.
Lemma NoDup_pointr : forall p, NoDup (point_ress p).
Proof.
  intros p. unfold point_ress. apply NoDup_app'.
  - constructor; [intros H; mem|]. apply NoDup_map'; [congruence|apply NoDup_ks].
  - apply NoDup_flat; [apply seq_NoDup| |].
    + intros is _. apply NoDup_app'; [apply NoDup_map'; [congruence|apply NoDup_ks]|repeat constructor; cbn; tauto|].
      intros t H1 H2. mem.
    + intros x y z _ _ H1 H2. mem; match goal with E : _ = _ |- _ => injection E; lia end.
  - intros t H1 H2. mem.
Qed.

Theorem NoDup_ress : NoDup (ress_of (generate c)).
Proof.
  rewrite ress_generate. apply NoDup_app'; [apply NoDup_map'; [congruence|apply NoDup_shared]| |].
  - unfold slot_ress. apply NoDup_app'.
    + apply NoDup_app'; [apply NoDup_map'; [congruence|apply seq_NoDup]| |intros t H1 H2; mem].
      apply NoDup_flat; [apply seq_NoDup| |].
      * intros j _. constructor; [intros H; mem|]. apply NoDup_map'; [congruence|apply seq_NoDup].
      * intros x y z _ _ H1 H2. mem; congruence.
    + apply NoDup_flat; [apply seq_NoDup| |].
      * intros p _. apply NoDup_pointr.
      * intros x y z _ _ H1 H2. apply point_ress_of in H1, H2. congruence.
    + intros t H1 H2. apply in_flat_map in H2. destruct H2 as (p & _ & H2). apply point_ress_of in H2. mem.
  - intros t H1 H2. apply in_app_or in H2. unfold slot_ress in H2. destruct H2 as [H2|H2]; [mem|].
    apply in_flat_map in H2. destruct H2 as (p & _ & H2). apply point_ress_of in H2. mem.
Qed.

End H.
