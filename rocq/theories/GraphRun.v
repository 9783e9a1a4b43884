(** The history of generate_tasks is accepted by the scheduler: valid, acyclic,
    and every task can be locked. *)
From Coq Require Import List Arith Lia Bool ZArith Permutation Relation_Operators Operators_Properties.
From Verif Require Import Base LockProto Sched Api TaskGraph TaskGraphFacts TaskDeps GraphApi GraphHist.
Import ListNotations.

Section Calls.
Variable all : list ev.
Variable pre : list call.
Hypothesis HPre : reservations pre.
Notation tid := (tid all).
Notation rid := (rid all).
Notation hist es := (calls all es ++ pre).

Lemma calls_snoc : forall es e, calls all (es ++ [e]) = rev (to_call all e) ++ calls all es.
Proof. intros. unfold calls. rewrite flat_map_app, rev_app_distr. cbn. rewrite app_nil_r. auto. Qed.

Lemma pre_spec : ntasks pre = 0 /\ identities pre = [] /\ parents pre = [] /\ dependencies pre = [] /\ writelinks pre = [] /\ readlinks pre = [] /\ valid pre.
Proof.
  revert HPre. induction pre as [|x l IH]; intros H; [cbn; auto 7|].
  destruct (H x) as (a & b & d & e & f & ->); [cbn; auto|]. destruct IH as (H1 & H2 & H3 & H4 & H5 & H6 & H7). { intros y Hy. apply H. cbn. auto. }
  cbn. repeat split; auto.
Qed.

Definition parents_of (es : list ev) := flat_map (fun e => match e with ERes _ p => [option_map rid p] | _ => [] end) es.
Definition deps_of (es : list ev) := flat_map (fun e => match e with EDep a b => [(tid a, tid b)] | _ => [] end) es.
Definition wlinks_of (es : list ev) := flat_map (fun e => match e with ELink t r true => [(tid t, rid r)] | _ => [] end) es.
Definition rlinks_of (es : list ev) := flat_map (fun e => match e with ELink t r false => [(tid t, rid r)] | _ => [] end) es.

Lemma hist_spec : forall es,
  ntasks (hist es) = length (tasks_of es) /\ identities (hist es) = map tid (tasks_of es) /\
  parents (hist es) = parents_of es /\ dependencies (hist es) = deps_of es /\
  writelinks (hist es) = wlinks_of es /\ readlinks (hist es) = rlinks_of es.
Proof.
  destruct pre_spec as (P1 & P2 & P3 & P4 & P5 & P6 & _).
  induction es as [|e es (H1 & H2 & H3 & H4 & H5 & H6)] using rev_ind; [cbn; auto 7|]. rewrite calls_snoc.
  unfold tasks_of, parents_of, deps_of, wlinks_of, rlinks_of in *. rewrite !flat_map_app. cbn [flat_map]. rewrite !app_nil_r.
  destruct e as [r q|t|t r [|]|a b|t|r|r|]; cbn [to_call rev app ntasks identities parents dependencies writelinks readlinks];
    rewrite ?H1, ?H2, ?H3, ?H4, ?H5, ?H6, ?app_nil_r, ?app_length, ?map_app; cbn [length map]; repeat split; auto; lia.
Qed.

Lemma parents_length : forall es, length (parents_of es) = length (ress_of es).
Proof.
  induction es as [|e es IH]; auto. unfold parents_of, ress_of in *. cbn [flat_map]. rewrite !app_length, IH. destruct e; auto.
Qed.

Lemma hist_valid : NoDup (tasks_of all) -> NoDup (ress_of all) -> forall es rest, all = es ++ rest -> wfs [] es -> valid (hist es).
Proof.
  intros ND1 ND2. destruct pre_spec as (_ & _ & _ & _ & _ & _ & PV).
  induction es as [|e es IH] using rev_ind; intros rest E HW; [exact PV|].
  apply wfs_app in HW. cbn in HW. destruct HW as (W1 & W2 & _).
  specialize (IH ([e] ++ rest)). rewrite app_assoc in IH. specialize (IH E W1). rewrite calls_snoc.
  destruct (hist_spec es) as (S1 & _ & S3 & _). rewrite <- app_assoc in E.
  assert (T: forall t, known es t -> tid t < ntasks (hist es)).
  { intros t Ht. rewrite S1. unfold GraphApi.tid. rewrite E, tasks_app.
    assert (In t (tasks_of es)) by (apply in_flat_map; exists (ETask t); cbn; auto).
    rewrite index_app by auto. apply index_lt. auto. }
  assert (R: forall r, knownr es r -> rid r < length (parents (hist es))).
  { intros r (q & Hr). rewrite S3, parents_length. unfold GraphApi.rid. rewrite E, ress_app.
    assert (In r (ress_of es)) by (apply in_flat_map; exists (ERes r q); cbn; auto).
    rewrite index_app by auto. apply index_lt. auto. }
  destruct e as [r [q|]|t|t r w|a b|t|r|r|]; cbn [to_call rev app valid option_map]; auto; cbn in W2; split; auto; try (destruct W2; split; auto).
Qed.

End Calls.

Section Run.
Variable c : cfg.
Notation G := (n_quad c).
Notation N := (n_slot c).
Notation S_ := (n_shape c).
Notation P := (n_point c).
Notation B := (n_block c).
Hypothesis HN : 0 < N.
Hypothesis HG : 0 < G.
Variable pre : list call.
Hypothesis HPre : reservations pre.
Notation all := (generate c).
Notation h := (generated c pre).
Notation tid := (tid all).
Notation rid := (rid all).

Lemma in_tasks : forall t, In t (tasks_of all) <-> task_in c t.
Proof.
  intros t. rewrite <- task_iff by auto. unfold tasks_of. rewrite in_flat_map. split.
  - intros (e & He & Ht). destruct e; cbn in Ht; try tauto. destruct Ht as [ -> | []]. auto.
  - intros H. exists (ETask t). cbn. auto.
Qed.

Theorem generated_valid : valid h.
Proof.
  unfold generated. eapply hist_valid; eauto; [apply NoDup_tasks; auto|apply NoDup_ress; auto|symmetry; apply app_nil_r|].
  apply wf_generate; auto.
Qed.

Theorem generated_ntasks : ntasks h = length (tasks_of all).
Proof. apply (hist_spec all pre HPre all). Qed.

(** Task ids: the scheduler id of a task is the number it stores as identity. *)
Lemma index_seq : forall A dec (l : list A), NoDup l -> map (fun x => index dec x l) l = seq 0 (length l).
Proof.
  intros A dec l HD. apply nth_ext with (d := 0) (d' := 0); [rewrite map_length, seq_length; auto|].
  intros i Hi. rewrite map_length in Hi. rewrite seq_nth by auto. cbn.
  destruct (nth_error l i) as [x|] eqn:E; [|apply nth_error_None in E; lia].
  apply nth_error_nth. rewrite nth_error_map, E. cbn. f_equal. apply nth_index; auto.
Qed.
Theorem generated_identities : identities h = seq 0 (ntasks h).
Proof.
  rewrite generated_ntasks. unfold generated. destruct (hist_spec all pre HPre all) as (_ & -> & _). apply index_seq, NoDup_tasks. auto.
Qed.

Lemma tid_lt : forall t, task_in c t -> tid t < ntasks h.
Proof. intros t H. rewrite generated_ntasks. apply index_lt, in_tasks. auto. Qed.
Lemma tid_inj : forall t u, task_in c t -> task_in c u -> tid t = tid u -> t = u.
Proof. intros t u Ht Hu E. eapply index_inj; [| |exact E]; apply in_tasks; auto. Qed.
Lemma tid_onto : forall i, i < ntasks h -> exists t, task_in c t /\ tid t = i.
Proof.
  intros i Hi. rewrite generated_ntasks in Hi. destruct (nth_error (tasks_of all) i) as [t|] eqn:E.
  - exists t. split; [apply in_tasks; eapply nth_error_In; eauto|]. apply nth_index; auto. apply NoDup_tasks; auto.
  - apply nth_error_None in E. lia.
Qed.

Theorem generated_deps : forall i j, In (i, j) (dependencies h) <-> exists a b, dep c a b /\ tid a = i /\ tid b = j.
Proof.
  intros i j. unfold generated. destruct (hist_spec all pre HPre all) as (_ & _ & _ & -> & _). unfold deps_of. rewrite in_flat_map. split.
  - intros (e & He & H). destruct e; cbn in H; try tauto. destruct H as [H|[]]. injection H as <- <-. apply dep_iff in He; eauto.
  - intros (a & b & H & <- & <-). apply dep_iff in H; auto. exists (EDep a b). cbn. auto.
Qed.

Lemma generated_path : forall i j, clos_trans nat (fun a b => In (a, b) (dependencies h)) i j ->
  exists a b, clos_trans task (dep c) a b /\ tid a = i /\ tid b = j.
Proof.
  intros i j H. induction H as [i j H|i k j _ (a & b & H1 & A1 & A2) _ (a' & b' & H2 & B1 & B2)].
  - apply generated_deps in H. destruct H as (a & b & H & <- & <-). exists a, b. repeat split; auto. apply t_step. auto.
  - assert (b = a').
    { apply tid_inj; [| |congruence].
      - clear -H1 HN. induction H1; auto. apply (dep_tasks c HN _ _ H).
      - clear -H2 HN. induction H2; auto. apply (dep_tasks c HN _ _ H). }
    subst. exists a, b'. repeat split; auto. eapply t_trans; eauto.
Qed.
Lemma path_generated : forall a b, clos_trans task (dep c) a b ->
  clos_trans nat (fun a b => In (a, b) (dependencies h)) (tid a) (tid b).
Proof.
  intros a b H. induction H as [a b H|a b d _ H1 _ H2]; [|eapply t_trans; eauto].
  apply t_step. apply generated_deps. eauto.
Qed.

Lemma path_tasks : forall a b, clos_trans task (dep c) a b -> task_in c a /\ task_in c b.
Proof. intros a b H. induction H; [eapply dep_tasks; eauto|tauto]. Qed.

Theorem generated_acyclic : ~ circular h.
Proof.
  intros (i & H). apply generated_path in H. destruct H as (a & b & H & <- & E).
  destruct (path_tasks _ _ H) as (Ha & Hb). apply tid_inj in E; auto. subst. eapply dep_acyclic; eauto.
Qed.

(* ------------------------------------------------ locks *)

Definition wlink (t : task) (r : res) : Prop := In (ELink t r true) all.

(** write links: own object, or slot / result of the block *)
Definition wres (t : task) : list res :=
  match t with
  | TN | TG _ | TGrid _ | TSW _ | TWD _ | TPG _ _ => [RT t]
  | TAv k p => [RRes k p]
  | TI b _ => [RInter (b mod N)]
  | TM0 b _ => [RTmM (2 * (b mod N)) 0; RConv b]
  | TAL b => [RTm (2 * (b mod N))]
  | TC k b => [RUn k b]
  | TR1 b => [RTm (2 * (b mod N))]
  | TR2 b => [RTm (2 * (b mod N) + 1)]
  | TR3 b => [RInter (b mod N)]
  | TMA b m => [RTmM (2 * (b mod N)) m]
  end.

Definition wl (es : list ev) : list (task * res) := flat_map (fun e => match e with ELink t r true => [(t, r)] | _ => [] end) es.
Lemma wl_app : forall a b, wl (a ++ b) = wl a ++ wl b.
Proof. intros. apply flat_map_app. Qed.
Lemma wl_flat : forall A (f : A -> list ev) l, wl (flat_map f l) = flat_map (fun x => wl (f x)) l.
Proof. intros. apply flat_flat. Qed.
Lemma wl_kinds : forall f, wl (for_kinds c f) = flat_map (fun k => wl (f k)) (ks c).
Proof.
  intros f. unfold for_kinds, ks. rewrite wl_flat. induction kinds as [|k l IH]; cbn; auto.
  rewrite IH. destruct (flag c k); auto.
Qed.
Definition links (t : task) : list (task * res) := map (fun r => (t, r)) (wres t).
Lemma wl_comp : forall t l, wl (computable t l) = [(t, RT t)].
Proof. intros t l. unfold computable. cbn. f_equal. induction l; cbn; auto. Qed.

Lemma links_flat : forall A (f : A -> list task) l, flat_map links (flat_map f l) = flat_map (fun x => flat_map links (f x)) l.
Proof. intros. apply flat_flat. Qed.
Lemma links_map : forall A (f : A -> task) l, flat_map links (map f l) = flat_map (fun x => links (f x)) l.
Proof. intros A f l. rewrite <- flat_single, flat_flat. apply flat_ext. intros. cbn. apply app_nil_r. Qed.

Lemma wl_shared : wl (gen_shared c) = flat_map links (shared_tasks c).
Proof.
  unfold gen_shared, shared_tasks. rewrite !wl_app, !wl_flat, !wl_kinds, !flat_map_app, !links_map, links_flat.
  change (wl (EPutTask TN :: computable TN [])) with (flat_map links [TN]).
  apply (f_equal2 (@app (task * res))); [reflexivity|].
  repeat apply (f_equal2 (@app (task * res))); apply flat_ext; intros; rewrite ?wl_app, ?wl_comp; try reflexivity.
  rewrite wl_flat, links_map. apply flat_ext. intros. rewrite wl_app, wl_comp. reflexivity.
Qed.
Lemma wl_slots : wl (gen_slots c) = [].
Proof.
  unfold gen_slots. rewrite wl_app, !wl_flat.
  rewrite (flat_ext _ _ _ (fun _ => []) (seq 0 N)), (flat_ext _ _ _ (fun _ => []) (seq 0 (2 * N))), !flat_nil; auto.
  intros j _. cbn. induction (seq 0 (o_max c + 1)); cbn; auto.
Qed.
Lemma wl_dep_if : forall a t, wl (dep_if a t) = [].
Proof. destruct a; reflexivity. Qed.
Lemma wl_dep_ptr : forall a t, wl (dep_ptr a t) = [].
Proof. destruct a; reflexivity. Qed.
Lemma wl_block : forall un p b is, wl (block_events c (b mod N) un p b is) = flat_map links (block_tasks c b).
Proof.
  intros un p b is. unfold block_events, block_tasks. rewrite !wl_app, !wl_flat, !wl_kinds, !flat_map_app, !links_map, links_flat.
  assert (E0: forall f : kind -> list ev, (forall k, wl (f k) = []) -> flat_map (fun k => wl (f k)) (ks c) = []).
  { intros f H. rewrite (flat_ext _ _ _ (fun _ => [])) by auto. apply flat_nil. }
  rewrite (E0 (fun k => [ERes (RUn k b) None; EPutRes (RUn k b)])), (E0 (fun k => [EDep (TC k b) (TR2 b)])) by reflexivity.
  rewrite (flat_ext _ _ (fun x => wl (order_events (b mod N) un p b is x)) (fun i => flat_map links [TI b i; TM0 b i])).
  2:{ intros i _. rewrite order_events_eq, !wl_app, wl_dep_if. destruct (i =? 0); [rewrite wl_dep_if|]; reflexivity. }
  rewrite (flat_ext _ _ _ (fun i => links (TMA b (i + 1))) (seq 0 (o_max c))).
  2:{ intros i _. cbn zeta. rewrite !wl_app, wl_dep_ptr. reflexivity. }
  reflexivity.
Qed.

Lemma wl_generate : wl all = flat_map links (tasks_of all).
Proof.
  rewrite tasks_generate by auto. rewrite generate_closed by auto.
  rewrite !wl_app, wl_shared, wl_slots, wl_flat, flat_map_app, links_flat. cbn [app]. f_equal.
  apply flat_ext. intros p _. unfold point_tasks. rewrite wl_app, flat_map_app, links_map, links_flat, wl_flat. f_equal.
  - unfold gen_point. rewrite wl_app, wl_kinds. reflexivity.
  - apply flat_ext. intros is _. apply wl_block.
Qed.

Lemma flat_map_map' : forall A B C (f : B -> list C) (g : A -> B) l, flat_map f (map g l) = flat_map (fun x => f (g x)) l.
Proof. induction l as [|a l IH]; cbn; auto. rewrite IH. auto. Qed.
Lemma wlinks_wl : forall es, wlinks_of all es = map (fun x => (tid (fst x), rid (snd x))) (wl es).
Proof.
  induction es as [|e es IH]; auto. unfold wlinks_of, wl in *. cbn [flat_map]. rewrite map_app, IH.
  destruct e as [| |? ? [|]| | | | |]; auto.
Qed.

Lemma filter_links : forall l t, NoDup l -> (forall u, In u l -> task_in c u) -> In t l ->
  filter (fun e => fst e =? tid t) (map (fun x => (tid (fst x), rid (snd x))) (flat_map links l)) =
  map (fun r => (tid t, rid r)) (wres t).
Proof.
  induction l as [|u l IH]; intros t HD HT Hin; [contradiction|]. inversion HD; subst. cbn [flat_map]. rewrite map_app, filter_app.
  unfold links at 1. rewrite map_map. cbn [fst snd].
  assert (K: forall v, task_in c v -> v <> t -> forall rs, filter (fun e => fst e =? tid t) (map (fun r => (tid v, rid r)) rs) = []).
  { intros v Hv Hne rs. induction rs as [|r rs IHr]; auto. cbn [map filter fst].
    destruct (Nat.eqb_spec (tid v) (tid t)) as [E|]; auto. apply tid_inj in E; [congruence|auto|apply HT; auto]. }
  assert (K2: forall rs, filter (fun e => fst e =? tid t) (map (fun r => (tid t, rid r)) rs) = map (fun r => (tid t, rid r)) rs).
  { induction rs as [|r rs IHr]; auto. cbn [map filter fst]. rewrite Nat.eqb_refl. f_equal. auto. }
  destruct Hin as [->|Hin].
  - rewrite K2.
    assert (Z: forall m, (forall v, In v m -> task_in c v /\ v <> t) ->
      filter (fun e => fst e =? tid t) (map (fun x => (tid (fst x), rid (snd x))) (flat_map links m)) = []).
    { induction m as [|v m IHm]; intros Hm; auto. cbn [flat_map]. rewrite map_app, filter_app. unfold links at 1. rewrite map_map. cbn [fst snd].
      destruct (Hm v) as (A1 & A2); [cbn; auto|]. rewrite K by auto. cbn [app]. apply IHm. intros w Hw. apply Hm. cbn. auto. }
    rewrite Z, app_nil_r; auto. intros v Hv. split; [apply HT; cbn; auto|]. intros ->. contradiction.
  - rewrite K; [|apply HT; cbn; auto|intros ->; contradiction]. cbn [app]. apply IH; auto. intros v Hv. apply HT. cbn. auto.
Qed.

(** The write links of a task in the history. *)
Theorem generated_locks : forall t, task_in c t -> targets (writelinks h) (tid t) = map rid (wres t).
Proof.
  intros t Ht. unfold generated. destruct (hist_spec all pre HPre all) as (_ & _ & _ & _ & -> & _).
  unfold targets. rewrite wlinks_wl, wl_generate, filter_links; auto.
  - rewrite map_map. reflexivity.
  - apply NoDup_tasks; auto.
  - intros u Hu. apply in_tasks. auto.
  - apply in_tasks. auto.
Qed.

(* ------------------------------------------------ parents *)

Definition rparent (r : res) : option res := match r with RTmM j _ => Some (RTm j) | _ => None end.

Ltac inn H := repeat match type of H with
  | In _ (_ ++ _) => apply in_app_or in H; destruct H as [H|H]
  | In _ (for_kinds _ _) => apply in_for_kinds in H; let k := fresh "k" in let Hk := fresh "Hk" in destruct H as (k & Hk & H)
  | In _ (flat_map _ _) => apply in_flat_map in H; let i := fresh "i" in let Hi := fresh "Hi" in
       destruct H as (i & Hi & H); apply in_seq in Hi
  | In _ (map _ _) => apply in_map_iff in H; let i := fresh "i" in let Hi := fresh "Hi" in
       destruct H as (i & H & Hi); try discriminate H
  | In _ (_ :: _) => destruct H as [H|H]; [try discriminate H|]
  | In _ [] => destruct H
  end.

Lemma ress_parent : forall r q, In (ERes r q) all -> q = rparent r.
Proof.
  intros r q H. apply in_generate in H; auto. destruct H as [H|[H|[(p & Hp & H)|(b & Hb & H)]]].
  - unfold gen_shared in H. inn H; try (injection H as <- <-; reflexivity); try (destruct H as [H|[]]; discriminate);
    apply in_computable in H; destruct H as [H|[H|[H|(x & _ & H)]]]; try discriminate; injection H as -> ->; reflexivity.
  - unfold gen_slots in H. inn H; try (injection H as <- <-; reflexivity).
  - unfold gen_point in H. inn H; injection H as <- <-; reflexivity.
  - unfold blk, block_events in H. inn H; try (injection H as <- <-; reflexivity).
    + rewrite order_events_eq in H. unfold dep_if in H. destruct (unlocker c b), (i =? 0); cbn in H; intuition discriminate.
    + unfold dep_ptr in H. destruct (last_m0 c b); cbn in H; intuition discriminate.
Qed.

Theorem generated_parent : forall r, In r (ress_of all) -> parent_of h (rid r) = option_map rid (rparent r).
Proof.
  intros r Hr. unfold parent_of, generated. destruct (hist_spec all pre HPre all) as (_ & _ & -> & _).
  assert (E: parents_of all all = map (fun x => option_map rid (rparent x)) (ress_of all)).
  { assert (K: forall es, (forall r q, In (ERes r q) es -> q = rparent r) ->
      parents_of all es = map (fun x => option_map rid (rparent x)) (ress_of es)).
    { induction es as [|e es IH]; intros HP; auto.
      assert (HP': forall r q, In (ERes r q) es -> q = rparent r) by (intros; apply HP; cbn; auto).
      specialize (IH HP'). unfold parents_of, ress_of in *. cbn [flat_map]. rewrite map_app, <- IH. f_equal.
      destruct e as [x q| | | | | | |]; cbn; auto. rewrite (HP x q); cbn; auto. }
    apply K, ress_parent. }
  rewrite E. apply nth_error_nth. rewrite nth_error_map. unfold GraphApi.rid. rewrite index_nth; auto.
Qed.

Lemma in_ress : forall r, (exists q, In (ERes r q) all) -> In r (ress_of all).
Proof. intros r (q & H). apply in_flat_map. exists (ERes r q). cbn. auto. Qed.

Lemma wres_known : forall t r, task_in c t -> In r (wres t) -> In r (ress_of all).
Proof.
  intros t r Ht Hr.
  assert (HL: In (ELink t r true) all).
  { assert (HI: In (t, r) (wl all)).
    { rewrite wl_generate. apply in_flat_map. exists t. split; [apply in_tasks; auto|]. apply in_map. auto. }
    apply in_flat_map in HI. destruct HI as (e & He & H). destruct e as [| |t' r' [|]| | | | |]; cbn in H; try tauto.
    destruct H as [H|[]]. injection H as -> ->. auto. }
  apply in_split in HL. destruct HL as (e1 & e2 & E). pose proof (wf_generate c HN HG) as HW.
  eapply wfs_split in HW; [|exact E]. cbn in HW. destruct HW as (_ & q & HQ). apply in_ress. exists q. rewrite E.
  apply in_app_iff. auto.
Qed.

Theorem generated_lockable : forall i, i < ntasks h -> lockable (parent_of h) (targets (writelinks h) i).
Proof.
  intros i Hi. destruct (tid_onto i Hi) as (t & Ht & <-). rewrite generated_locks by auto.
  assert (S1: forall x, lockable (parent_of h) [x]).
  { intros x. split; [repeat constructor; cbn; tauto|]. cbn. intros r y [<-|[]] [<-|[]]; congruence. }
  assert (S2: forall t, task_in c t -> (exists b i, t = TM0 b i) -> lockable (parent_of h) (map rid (wres t))).
  { intros u Hu (b & j & ->). cbn [wres map].
    assert (K1: In (RTmM (2 * (b mod N)) 0) (ress_of all)) by (apply (wres_known (TM0 b j)); cbn; auto).
    assert (K2: In (RConv b) (ress_of all)) by (apply (wres_known (TM0 b j)); cbn; auto).
    assert (K3: In (RTm (2 * (b mod N))) (ress_of all)).
    { apply (wres_known (TAL b)); cbn; auto. cbn in Hu. tauto. }
    assert (E1: rid (RTmM (2 * (b mod N)) 0) <> rid (RConv b)) by (intros E; apply index_inj in E; auto; discriminate).
    assert (E2: rid (RTm (2 * (b mod N))) <> rid (RConv b)) by (intros E; apply index_inj in E; auto; discriminate).
    pose proof (generated_parent _ K1) as P1. pose proof (generated_parent _ K2) as P2. pose proof (generated_parent _ K3) as P3.
    cbn [rparent option_map] in P1, P2, P3. generalize dependent (2 * (b mod N)). clear K2. intros jj K1 K3 E1 E2 P1 P3. split.
    - constructor; [intros [E|[]]; apply E1; symmetry; exact E|repeat constructor; cbn; tauto].
    - assert (A: forall y, anc_or_eq (parent_of h) y (rid (RConv b)) -> y = rid (RConv b)).
      { intros y H. inversion H as [|? ? ? H1 H2]; subst; auto. rewrite P2 in H1. discriminate H1. }
      assert (A': forall y, anc_or_eq (parent_of h) y (rid (RTmM jj 0)) -> y = rid (RTmM jj 0) \/ y = rid (RTm jj)).
      { intros y H. inversion H as [|? ? ? H1 H2]; subst; auto. rewrite P1 in H1. injection H1 as H1. rewrite <- H1 in H2.
        inversion H2 as [|? ? ? H3 H4]; auto. rewrite P3 in H3. discriminate H3. }
      intros r x [<-|[<-|[]]] [<-|[<-|[]]] Hne HA; try (exfalso; apply Hne; reflexivity).
      + apply A in HA. apply E1. exact HA.
      + apply A' in HA. destruct HA as [HA|HA]; [apply E1|apply E2]; symmetry; exact HA. }
  destruct t; cbn [wres map]; try apply S1. apply (S2 (TM0 b ig)); eauto.
Qed.

End Run.
