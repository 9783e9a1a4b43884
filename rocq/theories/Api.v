(** The registration interface of the scheduler and repeated preparation:
    qsched_init (qsched.c:1568-1649), qsched_ensure (102-212), qsched_addres
    (1167-1210), qsched_addlock / adduse / addunlock (1220-1374),
    qsched_addtask (1387-1468), the table part of qsched_prepare (1056-1089,
    1146) and the calls QuickSchedWrapper.hpp:348-486 makes to them.

    A buffer is a list of cells of the allocated size; a cell that was never
    written holds [None] (malloc).  Reading such a cell, or any access outside
    the buffer, makes the whole operation [None] (undefined behaviour).
    Simplifications: allocation always succeeds; ints are unbounded; the
    parallel arrays deps/deps_key (locks/locks_key, uses/uses_key) are one buffer
    of pairs (key, value); the data buffer is measured in units of 16 bytes,
    which is both sizeof(WrappedTask) and qsched_data_round (qsched.h:45). *)
From Coq Require Import List Arith Lia Bool ZArith Permutation.
From Verif Require Import Base CSort Prepare LockProto Sched.
Import ListNotations.

Record buf (A : Type) := mkBuf { cells : list (option A); used : nat }.
Arguments mkBuf {A}. Arguments cells {A}. Arguments used {A}.

Definition size {A} (b : buf A) : nat := length (cells b).

(** malloc + memcpy of the used part: e.g. 111-118, 1229-1248. *)
Definition realloc {A} (b : buf A) (n : nat) : buf A :=
  mkBuf (firstn (used b) (cells b) ++ repeat None (n - used b)) (used b).

(** 109-119 and the like: only ever grow. *)
Definition ensure {A} (b : buf A) (n : nat) : buf A := if size b <? n then realloc b n else b.

(** 1228-1257 and the like: double when full (qsched_stretch = 2), store at
    [used], advance. *)
Definition push {A} (b : buf A) (x : A) : option (buf A) :=
  let b1 := if used b =? size b then realloc b (2 * size b) else b in
  if used b1 <? size b1 then Some (mkBuf (upd (used b1) (Some x) (cells b1)) (S (used b1))) else None.

(** Read / modify cell [i]. *)
Definition get {A} (b : buf A) (i : nat) : option A :=
  match nth_error (cells b) i with Some (Some x) => Some x | _ => None end.
Definition modify {A} (b : buf A) (i : nat) (f : A -> A) : option (buf A) :=
  match get b i with Some x => Some (mkBuf (upd i (Some (f x)) (cells b)) (used b)) | None => None end.

(** struct task (task.h): the fields used by the scheduler logic.  [t_u], [t_l],
    [t_s] are the pointers into the dependency / lock / use tables, as offsets;
    [None] while uninitialised. *)
Record tsk := mkTsk {
  t_cost : Z; t_wait : Z; t_weight : Z; t_data : nat;
  t_nu : nat; t_nl : nat; t_ns : nat;
  t_u : option nat; t_l : option nat; t_s : option nat }.

(** struct res (res.h); the owner hint is left out. *)
Record rsc := mkRsc { r_parent : option nat; r_lock : bool; r_hold : Z }.

Record qs := mkQs {
  q_tasks : buf tsk; q_res : buf rsc;
  q_deps : buf (nat * nat); q_locks : buf (nat * nat); q_uses : buf (nat * nat);
  q_data : buf nat;        (* one WrappedTask per cell; its value is the identity of the wrapped Task *)
  q_dirty : bool }.

Definition empty {A} (n : nat) : buf A := mkBuf (repeat None n) 0.

(** 1568-1618; qsched.h:38-43. 8 * 1000 bytes of data are 500 cells. *)
Definition init : qs :=
  mkQs (empty 1000) (empty 2000) (empty 2000) (empty 2000) (empty 2000) (empty 500) false.

(** The calls of QuickSchedWrapper.hpp:348-486.  Tasks and resources are named by
    the id the earlier register call returned. *)
Inductive call :=
| Reserve (tasks res deps wlinks rlinks : nat)
| RegRes (parent : option nat)
| RegTask (identity : nat)
| LinkRes (t r : nat) (write : bool)
| LinkTasks (a b : nat).

Definition option_bind {A B} (o : option A) (f : A -> option B) : option B :=
  match o with Some x => f x | None => None end.
Notation "'let?' x := o 'in' e" := (option_bind o (fun x => e)) (at level 200, x pattern, e at level 200).

Definition bump_u (t : tsk) := mkTsk (t_cost t) (t_wait t) (t_weight t) (t_data t) (t_nu t + 1) (t_nl t) (t_ns t) (t_u t) (t_l t) (t_s t).
Definition bump_l (t : tsk) := mkTsk (t_cost t) (t_wait t) (t_weight t) (t_data t) (t_nu t) (t_nl t + 1) (t_ns t) (t_u t) (t_l t) (t_s t).
Definition bump_s (t : tsk) := mkTsk (t_cost t) (t_wait t) (t_weight t) (t_data t) (t_nu t) (t_nl t) (t_ns t + 1) (t_u t) (t_l t) (t_s t).

(** Result: new state and the returned id (0 for the void calls). *)
Definition apply (c : call) (s : qs) : option (qs * nat) :=
  match c with
  | Reserve nt nres nd nl nu =>                                   (* 102-212, wrapper 355-358 *)
      let dirty := (size (q_tasks s) <? nt) || (size (q_res s) <? nres) || (size (q_deps s) <? nd)
                   || (size (q_locks s) <? nl) || (size (q_uses s) <? nu) || (size (q_data s) <? nt) in
      Some (mkQs (ensure (q_tasks s) nt) (ensure (q_res s) nres) (ensure (q_deps s) nd)
                 (ensure (q_locks s) nl) (ensure (q_uses s) nu) (ensure (q_data s) nt)
                 (q_dirty s || dirty), 0)
  | RegRes p =>                                                   (* 1167-1210 *)
      let? r := push (q_res s) (mkRsc p false 0) in
      Some (mkQs (q_tasks s) r (q_deps s) (q_locks s) (q_uses s) (q_data s) (q_dirty s), used (q_res s))
  | RegTask x =>                                                  (* 1387-1468; cost 1: wrapper 437 *)
      let? d := push (q_data s) x in
      let? t := push (q_tasks s) (mkTsk 1 0 0 (used (q_data s)) 0 0 0 None None None) in
      Some (mkQs t (q_res s) (q_deps s) (q_locks s) (q_uses s) d (q_dirty s), used (q_tasks s))
  | LinkRes t r true =>                                           (* 1220-1264 *)
      let? l := push (q_locks s) (t, r) in
      let? ts := modify (q_tasks s) t bump_l in
      Some (mkQs ts (q_res s) (q_deps s) l (q_uses s) (q_data s) true, 0)
  | LinkRes t r false =>                                          (* 1274-1318 *)
      let? u := push (q_uses s) (t, r) in
      let? ts := modify (q_tasks s) t bump_s in
      Some (mkQs ts (q_res s) (q_deps s) (q_locks s) u (q_data s) true, 0)
  | LinkTasks a b =>                                              (* 1330-1374 *)
      let? d := push (q_deps s) (a, b) in
      let? ts := modify (q_tasks s) a bump_u in
      Some (mkQs ts (q_res s) d (q_locks s) (q_uses s) (q_data s) true, 0)
  end.

(* ---------------------------------------------------------- preparation *)

(** All used cells, if all of them are initialised. *)
Fixpoint all_some {A} (l : list (option A)) : option (list A) :=
  match l with
  | [] => Some []
  | Some x :: l' => match all_some l' with Some r => Some (x :: r) | None => None end
  | None :: _ => None
  end.
Definition live {A} (b : buf A) : option (list A) :=
  if used b <=? size b then all_some (firstn (used b) (cells b)) else None.

(** memcpy of the sorted entries back to the table (949-950). *)
Definition store {A} (b : buf A) (l : list A) : buf A :=
  mkBuf (map Some l ++ skipn (length l) (cells b)) (used b).

Definition sort_table (n : nat) (b : buf (nat * nat)) : option (buf (nat * nat)) :=
  let? l := live b in
  let? l' := qsort n l in
  Some (store b l').

(** 1078-1085: pointers of task [k] follow those of task [k-1]. *)
Fixpoint link_tables (ts : list tsk) (u l s : nat) : list tsk :=
  match ts with
  | [] => []
  | t :: ts' =>
      mkTsk (t_cost t) (t_wait t) (t_weight t) (t_data t) (t_nu t) (t_nl t) (t_ns t) (Some u) (Some l) (Some s)
      :: link_tables ts' (u + t_nu t) (l + t_nl t) (s + t_ns t)
  end.

(** 1056-1089 *)
Definition tables (s : qs) : option qs :=
  if q_dirty s then
    let n := used (q_tasks s) in
    let? d := sort_table n (q_deps s) in
    let? l := sort_table n (q_locks s) in
    let? u := sort_table n (q_uses s) in
    let? ts := live (q_tasks s) in
    Some (mkQs (store (q_tasks s) (link_tables ts 0 0 0)) (q_res s) d l u (q_data s) false)
  else Some s.

(** t->unlocks[0 .. nr-1]: reads the table through the stored pointer. *)
Definition read_slice (b : buf (nat * nat)) (p : option nat) (nr : nat) : option (list nat) :=
  match nr with
  | 0 => Some []
  | _ => let? o := p in
         if o + nr <=? size b then
           let? l := all_some (firstn nr (skipn o (cells b))) in Some (map snd l)
         else None
  end.

Record ready := mkReady {
  a_s : qs;                                 (* tables sorted *)
  a_unlocks : list (list nat); a_locks : list (list nat); a_uses : list (list nat);   (* slice of every task *)
  a_prep : prepared }.
Inductive outcome := Circular | Ready (r : ready).

Fixpoint read_slices (b : buf (nat * nat)) (f : tsk -> option nat) (g : tsk -> nat) (ts : list tsk) : option (list (list nat)) :=
  match ts with
  | [] => Some []
  | t :: ts' => let? l := read_slice b (f t) (g t) in
                let? r := read_slices b f g ts' in Some (l :: r)
  end.

(** 1045-1155; [None] is undefined behaviour.  The use lists are read by
    qsched_enqueue (588-590). *)
Definition prepare_sched (s : qs) : option outcome :=
  let? s1 := tables s in
  let? ts := live (q_tasks s1) in
  let? us := read_slices (q_deps s1) t_u t_nu ts in
  let? ls := read_slices (q_locks s1) t_l t_nl ts in
  let? ss := read_slices (q_uses s1) t_s t_ns ts in
  let nt := length ts in
  let d := mkTsk 0 0 0 0 0 0 0 None None None in
  match prepare nt (fun t => nth t us []) (fun t => t_cost (nth t ts d))
                (fun t => t_wait (nth t ts d)) (fun t => t_weight (nth t ts d)) with
  | None => Some Circular
  | Some p => Some (Ready (mkReady s1 us ls ss p))
  end.

(** A registered resource; the lock functions only ever touch registered ones. *)
Definition res_at (s : qs) (r : nat) : option rsc :=
  if r <? used (q_res s) then get (q_res s) r else None.
(** The parent of a resource as the lock functions read it (681-682). *)
Definition par_of (s : qs) (r : nat) : option nat :=
  match res_at s r with Some x => r_parent x | None => None end.

(** The state in which the threads of qsched_run_openmp (314-345) start: lock
    words and hold counters are those stored in the resources, wait counters
    those computed by prepare, the enqueued tasks are distributed over the [nq]
    queues in some way (1136-1140), waiting = count (1146). *)
Definition starts (nq : nat) (r : ready) (nthreads : nat) (e : st) : Prop :=
  let s := a_s r in
  (forall x, lk (gm (gl e)) x = match res_at s x with Some c => r_lock c | None => false end) /\
  (forall x, hd (gm (gl e)) x = match res_at s x with Some c => r_hold c | None => 0%Z end) /\
  (forall t, gw (gl e) t = Z.to_nat (p_wait (a_prep r) t)) /\
  Permutation (queued nq (gl e)) (p_enqueue (a_prep r)) /\
  gwaiting (gl e) = used (q_tasks s) /\ fin (gl e) = [] /\ log (gl e) = [] /\
  tl_ e = repeat (mkThr Idle [], SIdle) nthreads.

(** What a run leaves behind in the task and resource records: wait counters
    (635), locks and holds, weights (1132) and new costs (622, any value). *)
Definition after_task (r : ready) (e : st) (cost : nat -> Z) (k : nat) (t : tsk) : tsk :=
  mkTsk (cost k) (Z.of_nat (gw (gl e) k)) (p_weight (a_prep r) k) (t_data t) (t_nu t) (t_nl t) (t_ns t) (t_u t) (t_l t) (t_s t).
Definition after_res (e : st) (k : nat) (x : rsc) : rsc := mkRsc (r_parent x) (lk (gm (gl e)) k) (hd (gm (gl e)) k).
Fixpoint mapi {A} (f : nat -> A -> A) (k : nat) (l : list (option A)) : list (option A) :=
  match l with [] => [] | x :: l' => option_map (f k) x :: mapi f (S k) l' end.
Definition after (r : ready) (e : st) (cost : nat -> Z) : qs :=
  let s := a_s r in
  mkQs (mkBuf (mapi (after_task r e cost) 0 (cells (q_tasks s))) (used (q_tasks s)))
       (mkBuf (mapi (after_res e) 0 (cells (q_res s))) (used (q_res s)))
       (q_deps s) (q_locks s) (q_uses s) (q_data s) (q_dirty s).

(** The life of a scheduler with [nq] queues: calls and complete runs
    (QuickSchedWrapper.hpp:375-389) in any order.  [h] lists the calls, latest
    first. *)
Inductive life (nq : nat) : list call -> qs -> Prop :=
| life_init : life nq [] init
| life_call : forall h s c s' id, life nq h s -> apply c s = Some (s', id) -> life nq (c :: h) s'
| life_run : forall h s r nth e0 e cost, life nq h s -> prepare_sched s = Some (Ready r) ->
    0 < nth -> starts nq r nth e0 ->
    steps (par_of (a_s r)) nq (fun t => List.nth t (a_locks r) []) (fun t => List.nth t (a_unlocks r) []) e0 e ->
    all_exited e -> life nq h (after r e cost).

(* ---------------------------------------------------------- specification *)

(** What has been registered, from the list of calls alone (latest first). *)
Fixpoint ntasks (h : list call) : nat :=
  match h with [] => 0 | RegTask _ :: h' => S (ntasks h') | _ :: h' => ntasks h' end.
Fixpoint identities (h : list call) : list nat :=     (* in order of registration *)
  match h with [] => [] | RegTask x :: h' => identities h' ++ [x] | _ :: h' => identities h' end.
Fixpoint parents (h : list call) : list (option nat) :=
  match h with [] => [] | RegRes p :: h' => parents h' ++ [p] | _ :: h' => parents h' end.
Fixpoint dependencies (h : list call) : list (nat * nat) :=
  match h with [] => [] | LinkTasks a b :: h' => dependencies h' ++ [(a, b)] | _ :: h' => dependencies h' end.
Fixpoint writelinks (h : list call) : list (nat * nat) :=
  match h with [] => [] | LinkRes t r true :: h' => writelinks h' ++ [(t, r)] | _ :: h' => writelinks h' end.
Fixpoint readlinks (h : list call) : list (nat * nat) :=
  match h with [] => [] | LinkRes t r false :: h' => readlinks h' ++ [(t, r)] | _ :: h' => readlinks h' end.

(** Targets registered for task [t], in order. *)
Definition targets (l : list (nat * nat)) (t : nat) : list nat :=
  map snd (filter (fun e => fst e =? t) l).

(** Calls only mention ids that were returned before. *)
Fixpoint valid (h : list call) : Prop :=
  match h with
  | [] => True
  | c :: h' => valid h' /\
      match c with
      | Reserve _ _ _ _ _ | RegTask _ => True
      | RegRes (Some p) => p < length (parents h')
      | RegRes None => True
      | LinkRes t r _ => t < ntasks h' /\ r < length (parents h')
      | LinkTasks a b => a < ntasks h' /\ b < ntasks h'
      end
  end.

Definition parent_of (h : list call) (r : nat) : option nat := nth r (parents h) None.

(* ---------------------------------------------------------- proofs *)

Definition isbuf {A} (b : buf A) (l : list A) : Prop :=
  (exists g, cells b = map Some l ++ g) /\ used b = length l.

Lemma all_some_map : forall A (l : list A), all_some (map Some l) = Some l.
Proof. induction l as [|a l IH]; cbn; auto. rewrite IH. auto. Qed.
Lemma all_some_inv : forall A (c : list (option A)) l, all_some c = Some l -> c = map Some l.
Proof.
  induction c as [|[x|] c IH]; intros l H; cbn in H; try discriminate.
  - injection H as <-. auto.
  - destruct (all_some c) eqn:E; [|discriminate]. injection H as <-. cbn. f_equal. auto.
Qed.

Lemma live_iff : forall A (b : buf A) l, live b = Some l <-> isbuf b l.
Proof.
  intros A [c u] l. unfold live, isbuf, size. cbn [cells used]. split.
  - destruct (Nat.leb_spec u (length c)); [|discriminate]. intros E. apply all_some_inv in E. split.
    + exists (skipn u c). rewrite <- E. symmetry. apply firstn_skipn.
    + rewrite <- (map_length Some), <- E, firstn_length. lia.
  - intros ((g & ->) & ->). rewrite app_length, map_length. destruct (Nat.leb_spec (length l) (length l + length g)); [|lia].
    rewrite firstn_app, map_length, Nat.sub_diag. cbn [firstn]. rewrite app_nil_r, firstn_all2 by (rewrite map_length; auto).
    apply all_some_map.
Qed.

Lemma isbuf_fun : forall A (b : buf A) l l', isbuf b l -> isbuf b l' -> l = l'.
Proof. intros A b l l' H H'. apply live_iff in H, H'. congruence. Qed.

Lemma isbuf_size : forall A (b : buf A) l, isbuf b l -> length l <= size b.
Proof. intros A b l ((g & E) & _). unfold size. rewrite E, app_length, map_length. lia. Qed.

Lemma isbuf_realloc : forall A (b : buf A) l n, isbuf b l -> isbuf (realloc b n) l.
Proof.
  intros A [c u] l n ((g & E) & U). cbn [cells used] in *. subst. unfold realloc, isbuf. cbn [cells used]. split; auto.
  exists (repeat None (n - length l)). f_equal.
  rewrite firstn_app, map_length, Nat.sub_diag. cbn [firstn]. rewrite app_nil_r. apply firstn_all2. rewrite map_length. auto.
Qed.
Lemma size_realloc : forall A (b : buf A) l n, isbuf b l -> length l <= n -> size (realloc b n) = n.
Proof.
  intros A b l n H Hn. pose proof (isbuf_size _ _ _ H). destruct H as (_ & U). unfold realloc, size in *. cbn [cells].
  rewrite app_length, firstn_length, repeat_length. lia.
Qed.
Lemma isbuf_ensure : forall A (b : buf A) l n, isbuf b l -> isbuf (ensure b n) l /\ size b <= size (ensure b n).
Proof.
  intros A b l n H. unfold ensure. destruct (Nat.ltb_spec (size b) n); auto.
  split; [apply isbuf_realloc; auto|]. rewrite (size_realloc _ b l); auto; [lia|]. pose proof (isbuf_size _ _ _ H). lia.
Qed.

Lemma isbuf_get : forall A (b : buf A) l i, isbuf b l -> i < length l -> get b i = nth_error l i.
Proof.
  intros A b l i ((g & E) & _) Hi. unfold get. rewrite E, nth_error_app1 by (rewrite map_length; auto).
  rewrite nth_error_map. destruct (nth_error l i) eqn:En; auto.
Qed.

Lemma upd_app1 : forall A (l1 l2 : list A) i v, i < length l1 -> upd i v (l1 ++ l2) = upd i v l1 ++ l2.
Proof.
  induction l1 as [|a l1 IH]; intros l2 i v Hi; cbn in Hi; [lia|]. destruct i; cbn; auto. f_equal. apply IH. lia.
Qed.
Lemma upd_app2 : forall A (l1 l2 : list A) x v, upd (length l1) v (l1 ++ x :: l2) = l1 ++ v :: l2.
Proof. induction l1 as [|a l1 IH]; intros; cbn; auto. f_equal. apply IH. Qed.
Lemma upd_map : forall A B (f : A -> B) l i v, upd i (f v) (map f l) = map f (upd i v l).
Proof. induction l as [|a l IH]; intros [|i] v; cbn; auto. f_equal. auto. Qed.

Lemma push_ok : forall A (b : buf A) l x, isbuf b l -> 0 < size b ->
  exists b', push b x = Some b' /\ isbuf b' (l ++ [x]) /\ size b <= size b'.
Proof.
  intros A b l x H Hs. unfold push.
  set (b1 := if used b =? size b then realloc b (2 * size b) else b).
  assert (H1: isbuf b1 l /\ length l < size b1 /\ size b <= size b1).
  { unfold b1. pose proof (isbuf_size _ _ _ H) as HL. assert (U: used b = length l) by apply H.
    destruct (Nat.eqb_spec (used b) (size b)) as [E|E].
    - split; [apply isbuf_realloc; auto|]. rewrite (size_realloc _ b l) by (auto; lia). lia.
    - split; [auto|]. lia. }
  clearbody b1. destruct H1 as (((g & E) & U) & HL & HS). unfold size in *. rewrite U.
  destruct (Nat.ltb_spec (length l) (length (cells b1))); [|lia].
  eexists. split; [reflexivity|]. cbn [cells used]. rewrite upd_length. split; [|auto].
  rewrite E in HL. rewrite app_length, map_length in HL.
  destruct g as [|y g]; [cbn in HL; lia|].
  split.
  - exists g. cbn [cells]. rewrite E. rewrite <- (map_length Some l). rewrite upd_app2. rewrite map_app. cbn. rewrite <- app_assoc. auto.
  - cbn [used]. rewrite app_length. cbn. lia.
Qed.

Lemma modify_ok : forall A (b : buf A) l i f x, isbuf b l -> nth_error l i = Some x ->
  exists b', modify b i f = Some b' /\ isbuf b' (upd i (f x) l) /\ size b' = size b.
Proof.
  intros A b l i f x H Hx. assert (Hi: i < length l) by (apply nth_error_Some; congruence).
  unfold modify. rewrite (isbuf_get _ _ _ _ H Hi), Hx. eexists. split; [reflexivity|].
  destruct H as ((g & E) & U). unfold isbuf, size. cbn [cells used]. rewrite !upd_length. split; [|auto]. split; [|auto].
  exists g. rewrite E, upd_app1 by (rewrite map_length; auto). rewrite upd_map. auto.
Qed.

Lemma isbuf_store : forall A (b : buf A) l l', isbuf b l -> length l' = length l ->
  isbuf (store b l') l' /\ size (store b l') = size b.
Proof.
  intros A b l l' H HL. pose proof (isbuf_size _ _ _ H). destruct H as (_ & U). unfold store, isbuf, size in *. cbn [cells used].
  split; [split; [|lia]; eauto|]. rewrite app_length, map_length, skipn_length. lia.
Qed.

(** One link table [b] (with the pointers [off] and counters [cn] of the tasks
    [ts]) represents the registered links [L]. *)
Definition tab_ok (b : buf (nat * nat)) (L : list (nat * nat)) (ts : list tsk)
    (off : tsk -> option nat) (cn : tsk -> nat) (dirty : bool) : Prop :=
  0 < size b /\
  (forall k t, nth_error ts k = Some t -> cn t = nr L k) /\
  exists D, isbuf b D /\ length D = length L /\ (forall k, entries D k = entries L k) /\
    (dirty = false -> forall k t, nth_error ts k = Some t -> 0 < cn t ->
       exists o, off t = Some o /\ firstn (cn t) (skipn o D) = entries D k).

Definition rep (h : list call) (s : qs) : Prop :=
  exists ts rs, isbuf (q_tasks s) ts /\ isbuf (q_res s) rs /\ isbuf (q_data s) (identities h) /\
    0 < size (q_tasks s) /\ 0 < size (q_res s) /\ 0 < size (q_data s) /\
    length ts = ntasks h /\
    (forall k t, nth_error ts k = Some t -> t_wait t = 0%Z /\ t_data t = k) /\
    map r_parent rs = parents h /\
    (forall x, In x rs -> r_lock x = false /\ r_hold x = 0%Z) /\
    tab_ok (q_deps s) (dependencies h) ts t_u t_nu (q_dirty s) /\
    tab_ok (q_locks s) (writelinks h) ts t_l t_nl (q_dirty s) /\
    tab_ok (q_uses s) (readlinks h) ts t_s t_ns (q_dirty s).

Lemma identities_length : forall h, length (identities h) = ntasks h.
Proof. induction h as [|c h IH]; cbn; auto. destruct c; auto. rewrite app_length, IH. cbn. lia. Qed.

Lemma isbuf_empty : forall A n, @isbuf A (empty n) [].
Proof. intros. split; [|reflexivity]. exists (repeat None n). reflexivity. Qed.
Lemma size_empty : forall A n, size (@empty A n) = n.
Proof. intros. unfold size, empty. cbn [cells]. apply repeat_length. Qed.

Lemma tab_empty : forall n off cn d, 0 < n -> tab_ok (empty n) [] [] off cn d.
Proof.
  intros n off cn d Hn. split; [rewrite size_empty; auto|]. split.
  - intros k t H. destruct k; discriminate.
  - exists []. split; [apply isbuf_empty|]. split; auto. split; auto. intros _ k t H. destruct k; discriminate.
Qed.

Lemma rep_init : rep [] init.
Proof.
  exists [], []. unfold init. cbn [q_tasks q_res q_deps q_locks q_uses q_data q_dirty].
  split; [apply isbuf_empty|]. split; [apply isbuf_empty|]. split; [apply isbuf_empty|].
  rewrite !size_empty.
  split; [lia|]. split; [lia|]. split; [lia|]. split; [reflexivity|].
  split. { intros [|k] t H; discriminate. }
  split; [reflexivity|]. split. { intros x []. }
  split; [|split]; apply tab_empty; lia.
Qed.

Lemma entries_app : forall l1 l2 k, entries (l1 ++ l2) k = entries l1 k ++ entries l2 k.
Proof. intros. unfold entries. apply filter_app. Qed.

(** The table itself untouched, other fields of the tasks may change. *)
Lemma tab_same_tasks : forall b L ts ts' off cn d,
  tab_ok b L ts off cn d -> length ts' = length ts ->
  (forall k t', nth_error ts' k = Some t' -> exists t, nth_error ts k = Some t /\ cn t' = cn t /\ off t' = off t) ->
  tab_ok b L ts' off cn d.
Proof.
  intros b L ts ts' off cn d (A & B & D & C1 & C2 & C3 & C4) HL HT. split; auto. split.
  - intros k t' Ht. destruct (HT k t' Ht) as (t & E1 & E2 & _). rewrite E2. auto.
  - exists D. split; auto. split; auto. split; auto. intros Hd k t' Ht Hc.
    destruct (HT k t' Ht) as (t & E1 & E2 & E3). rewrite E2 in Hc |- *. rewrite E3. apply C4; auto.
Qed.

Lemma tab_dirty : forall b L ts off cn d, tab_ok b L ts off cn d -> tab_ok b L ts off cn true.
Proof.
  intros b L ts off cn d (A & B & D & C1 & C2 & C3 & _). split; auto. split; auto. exists D. split; auto. split; auto. split; auto. discriminate.
Qed.

Lemma tab_ensure : forall b L ts off cn d n, tab_ok b L ts off cn d -> tab_ok (ensure b n) L ts off cn d.
Proof.
  intros b L ts off cn d n (A & B & D & C1 & C2). destruct (isbuf_ensure _ _ _ n C1) as (E1 & E2).
  split; [lia|]. split; auto. exists D. split; auto.
Qed.

(** A new task without links. *)
Lemma tab_new_task : forall b L ts off cn d t, tab_ok b L ts off cn d -> cn t = 0 ->
  (forall e, In e L -> fst e < length ts) -> tab_ok b L (ts ++ [t]) off cn d.
Proof.
  intros b L ts off cn d t (A & B & D & C1 & C2 & C3 & C4) Hc HK. split; auto. 
  assert (NX: forall k u, nth_error (ts ++ [t]) k = Some u -> nth_error ts k = Some u \/ (k = length ts /\ u = t)).
  { intros k u H. destruct (Nat.lt_ge_cases k (length ts)) as [Hk|Hk].
    - rewrite nth_error_app1 in H by auto. auto.
    - rewrite nth_error_app2 in H by auto. destruct (k - length ts) as [|j] eqn:E.
      + cbn in H. injection H as <-. right. split; auto. lia.
      + cbn in H. destruct j; discriminate. }
  split.
  - intros k u Hu. destruct (NX k u Hu) as [H|(-> & ->)]; auto. rewrite Hc. unfold nr.
    assert (E: filter (fun e => fst e =? length ts) L = []).
    { apply Base.filter_none. intros e He. specialize (HK e He). apply Nat.eqb_neq. lia. }
    rewrite E. auto.
  - exists D. split; auto. split; auto. split; auto. intros Hd k u Hu Hp. destruct (NX k u Hu) as [H|(-> & ->)]; [auto|lia].
Qed.

(** A new link of task [i]. *)
Lemma tab_push : forall b L ts ts' off cn d i x, tab_ok b L ts off cn d ->
  (forall k t', nth_error ts' k = Some t' -> exists t, nth_error ts k = Some t /\ cn t' = cn t + (if k =? i then 1 else 0)) ->
  exists b', push b (i, x) = Some b' /\ tab_ok b' (L ++ [(i, x)]) ts' off cn true.
Proof.
  intros b L ts ts' off cn d i x (A & B & D & C1 & C2 & C3 & C4) HT.
  destruct (push_ok _ _ _ (i, x) C1 A) as (b' & P & I & S). exists b'. split; auto.
  split; [lia|]. split.
  - intros k t' Ht. destruct (HT k t' Ht) as (t & E1 & E2). rewrite E2, (B k t E1), nr_app, nr_one. rewrite Nat.eqb_sym. auto.
  - exists (D ++ [(i, x)]). split; auto. split; [rewrite !app_length; lia|]. split; [|discriminate].
    intros k. rewrite !entries_app, C3. auto.
Qed.

Lemma nth_error_upd : forall A (l : list A) i v k, i < length l ->
  nth_error (upd i v l) k = if k =? i then Some v else nth_error l k.
Proof.
  induction l as [|a l IH]; intros i v k Hi; cbn in Hi; [lia|]. destruct i, k; cbn; auto. apply IH. lia.
Qed.

Lemma link_keys : forall h, valid h ->
  (forall e, In e (dependencies h) -> fst e < ntasks h /\ snd e < ntasks h) /\
  (forall e, In e (writelinks h) -> fst e < ntasks h /\ snd e < length (parents h)) /\
  (forall e, In e (readlinks h) -> fst e < ntasks h /\ snd e < length (parents h)).
Proof.
  induction h as [|c h IH]; intros HV.
  - split; [|split]; intros e [].
  - destruct HV as (HV & Hc). destruct (IH HV) as (A & B & C). 
    destruct c as [| p | | t r [|] | a b]; cbn [dependencies writelinks readlinks ntasks parents];
      (split; [|split]); intros e He; try rewrite app_length; try (apply in_app_iff in He; destruct He as [He|[<-|[]]]); cbn [fst snd length];
      try (specialize (A e He)); try (specialize (B e He)); try (specialize (C e He)); try lia; destruct Hc; lia.
Qed.

Lemma rep_apply : forall h s c, valid (c :: h) -> rep h s ->
  exists s' id, apply c s = Some (s', id) /\ rep (c :: h) s' /\
    match c with
    | RegTask _ => id = ntasks h
    | RegRes _ => id = length (parents h)
    | _ => True
    end.
Proof.
  intros h s c (HV & Hc) (ts & rs & T1 & R1 & D1 & T2 & R2 & D2 & TL & TW & RP & RL & U1 & U2 & U3).
  destruct (link_keys h HV) as (K1 & K2 & K3).
  destruct c as [nt nres nd nl nu | p | x | t r w | a b]; cbn [apply].
  - (* reserve *)
    eexists _, _. split; [reflexivity|]. split; [|auto].
    exists ts, rs. cbn [q_tasks q_res q_deps q_locks q_uses q_data q_dirty identities ntasks parents dependencies writelinks readlinks].
    destruct (isbuf_ensure _ _ _ nt T1), (isbuf_ensure _ _ _ nres R1), (isbuf_ensure _ _ _ nt D1).
    split; [auto|]. split; [auto|]. split; [auto|]. split; [lia|]. split; [lia|]. split; [lia|]. split; [auto|]. split; [auto|].
    split; [auto|]. split; [auto|].
    set (dd := _ || _ || _ || _ || _ || _).
    assert (TD: forall b L off cn, tab_ok b L ts off cn (q_dirty s) -> tab_ok b L ts off cn (q_dirty s || dd)).
    { intros b L off cn H'. destruct (q_dirty s); [auto|]. destruct dd; [apply tab_dirty in H'|]; auto. }
    split; [|split]; apply TD, tab_ensure; auto.
  - (* resource *)
    destruct (push_ok _ _ _ (mkRsc p false 0) R1 R2) as (r' & P & I & S). rewrite P. cbn [option_bind].
    eexists _, _. split; [reflexivity|]. split.
    + exists ts, (rs ++ [mkRsc p false 0]).
      cbn [q_tasks q_res q_deps q_locks q_uses q_data q_dirty identities ntasks parents dependencies writelinks readlinks].
      split; [auto|]. split; [auto|]. split; [auto|]. split; [lia|]. split; [lia|]. split; [lia|]. split; [auto|]. split; [auto|].
      split. { rewrite map_app, RP. auto. }
      split. { intros y Hy. apply in_app_iff in Hy. destruct Hy as [Hy|[<-|[]]]; auto. }
      auto.
    + destruct R1 as (_ & ->). rewrite <- RP, map_length. auto.
  - (* task *)
    destruct (push_ok _ _ _ x D1 D2) as (d' & P & I & S). rewrite P. cbn [option_bind].
    assert (UD: used (q_data s) = ntasks h) by (destruct D1 as (_ & ->); apply identities_length). rewrite UD.
    set (nt := mkTsk 1 0 0 (ntasks h) 0 0 0 None None None).
    destruct (push_ok _ _ _ nt T1 T2) as (t' & P' & I' & S'). rewrite P'. cbn [option_bind].
    eexists _, _. split; [reflexivity|]. split.
    + exists (ts ++ [nt]), rs.
      cbn [q_tasks q_res q_deps q_locks q_uses q_data q_dirty identities ntasks parents dependencies writelinks readlinks].
      split; [auto|]. split; [auto|]. split; [auto|]. split; [lia|]. split; [lia|]. split; [lia|].
      split. { rewrite app_length. cbn. lia. }
      split. { intros k t H. destruct (Nat.lt_ge_cases k (length ts)) as [Hk|Hk].
        - rewrite nth_error_app1 in H by auto. auto.
        - rewrite nth_error_app2 in H by auto. destruct (k - length ts) as [|j] eqn:E; [|destruct j; discriminate].
          cbn in H. injection H as <-. cbn. split; auto. lia. }
      split; [auto|]. split; [auto|].
      split; [|split]; apply tab_new_task; auto; intros e He; rewrite TL; [apply K1|apply K2|apply K3]; auto.
    + destruct T1 as (_ & ->). auto.
  - (* resource link *)
    destruct Hc as (Ht & Hr).
    destruct (nth_error ts t) as [v|] eqn:Ev; [|apply nth_error_None in Ev; lia].
    destruct w.
    + destruct (modify_ok _ _ _ t bump_l v T1 Ev) as (t' & P' & I' & S').
      assert (NE: forall k u, nth_error (upd t (bump_l v) ts) k = Some u ->
        exists u0, nth_error ts k = Some u0 /\ t_nl u = t_nl u0 + (if k =? t then 1 else 0) /\
          t_nu u = t_nu u0 /\ t_ns u = t_ns u0 /\ t_u u = t_u u0 /\ t_s u = t_s u0 /\ t_wait u = t_wait u0 /\ t_data u = t_data u0).
      { intros k u H. rewrite nth_error_upd in H by lia. destruct (Nat.eqb_spec k t) as [e|e].
        - exists v. injection H as <-. subst k. cbn. repeat split; auto.
        - exists u. repeat split; auto. }
      destruct (tab_push _ _ _ (upd t (bump_l v) ts) _ _ _ t r U2) as (b' & P & TB).
      { intros k u H. destruct (NE k u H) as (u0 & Q1 & Q2 & _). eauto. }
      rewrite P. cbn [option_bind]. rewrite P'. cbn [option_bind]. eexists _, _. split; [reflexivity|]. split; [|auto].
      exists (upd t (bump_l v) ts), rs.
      cbn [q_tasks q_res q_deps q_locks q_uses q_data q_dirty identities ntasks parents dependencies writelinks readlinks].
      split; [auto|]. split; [auto|]. split; [auto|]. split; [lia|]. split; [lia|]. split; [lia|].
      split. { rewrite upd_length. auto. }
      split. { intros k u H. destruct (NE k u H) as (u0 & Q1 & _ & _ & _ & _ & _ & Q2 & Q3). rewrite Q2, Q3. auto. }
      split; [auto|]. split; [auto|]. split; [|split]; [| |].
      * eapply tab_same_tasks; [apply (tab_dirty _ _ _ _ _ _ U1)|rewrite upd_length; auto|].
        intros k u H. destruct (NE k u H) as (u0 & Q). exists u0. tauto.
      * exact TB.
      * eapply tab_same_tasks; [apply (tab_dirty _ _ _ _ _ _ U3)|rewrite upd_length; auto|].
        intros k u H. destruct (NE k u H) as (u0 & Q). exists u0. tauto.
    + destruct (modify_ok _ _ _ t bump_s v T1 Ev) as (t' & P' & I' & S').
      assert (NE: forall k u, nth_error (upd t (bump_s v) ts) k = Some u ->
        exists u0, nth_error ts k = Some u0 /\ t_ns u = t_ns u0 + (if k =? t then 1 else 0) /\
          t_nu u = t_nu u0 /\ t_nl u = t_nl u0 /\ t_u u = t_u u0 /\ t_l u = t_l u0 /\ t_wait u = t_wait u0 /\ t_data u = t_data u0).
      { intros k u H. rewrite nth_error_upd in H by lia. destruct (Nat.eqb_spec k t) as [e|e].
        - exists v. injection H as <-. subst k. cbn. repeat split; auto.
        - exists u. repeat split; auto. }
      destruct (tab_push _ _ _ (upd t (bump_s v) ts) _ _ _ t r U3) as (b' & P & TB).
      { intros k u H. destruct (NE k u H) as (u0 & Q1 & Q2 & _). eauto. }
      rewrite P. cbn [option_bind]. rewrite P'. cbn [option_bind]. eexists _, _. split; [reflexivity|]. split; [|auto].
      exists (upd t (bump_s v) ts), rs.
      cbn [q_tasks q_res q_deps q_locks q_uses q_data q_dirty identities ntasks parents dependencies writelinks readlinks].
      split; [auto|]. split; [auto|]. split; [auto|]. split; [lia|]. split; [lia|]. split; [lia|].
      split. { rewrite upd_length. auto. }
      split. { intros k u H. destruct (NE k u H) as (u0 & Q1 & _ & _ & _ & _ & _ & Q2 & Q3). rewrite Q2, Q3. auto. }
      split; [auto|]. split; [auto|]. split; [|split]; [| |].
      * eapply tab_same_tasks; [apply (tab_dirty _ _ _ _ _ _ U1)|rewrite upd_length; auto|].
        intros k u H. destruct (NE k u H) as (u0 & Q). exists u0. tauto.
      * eapply tab_same_tasks; [apply (tab_dirty _ _ _ _ _ _ U2)|rewrite upd_length; auto|].
        intros k u H. destruct (NE k u H) as (u0 & Q). exists u0. tauto.
      * exact TB.
  - (* dependency *)
    destruct Hc as (Ht & Hr).
    destruct (nth_error ts a) as [v|] eqn:Ev; [|apply nth_error_None in Ev; lia].
    destruct (modify_ok _ _ _ a bump_u v T1 Ev) as (t' & P' & I' & S').
    assert (NE: forall k u, nth_error (upd a (bump_u v) ts) k = Some u ->
      exists u0, nth_error ts k = Some u0 /\ t_nu u = t_nu u0 + (if k =? a then 1 else 0) /\
        t_nl u = t_nl u0 /\ t_ns u = t_ns u0 /\ t_l u = t_l u0 /\ t_s u = t_s u0 /\ t_wait u = t_wait u0 /\ t_data u = t_data u0).
    { intros k u H. rewrite nth_error_upd in H by lia. destruct (Nat.eqb_spec k a) as [e|e].
      - exists v. injection H as <-. subst k. cbn. repeat split; auto.
      - exists u. repeat split; auto. }
    destruct (tab_push _ _ _ (upd a (bump_u v) ts) _ _ _ a b U1) as (b' & P & TB).
    { intros k u H. destruct (NE k u H) as (u0 & Q1 & Q2 & _). eauto. }
    rewrite P. cbn [option_bind]. rewrite P'. cbn [option_bind]. eexists _, _. split; [reflexivity|]. split; [|auto].
    exists (upd a (bump_u v) ts), rs.
    cbn [q_tasks q_res q_deps q_locks q_uses q_data q_dirty identities ntasks parents dependencies writelinks readlinks].
    split; [auto|]. split; [auto|]. split; [auto|]. split; [lia|]. split; [lia|]. split; [lia|].
    split. { rewrite upd_length. auto. }
    split. { intros k u H. destruct (NE k u H) as (u0 & Q1 & _ & _ & _ & _ & _ & Q2 & Q3). rewrite Q2, Q3. auto. }
    split; [auto|]. split; [auto|]. split; [|split]; [| |].
    + exact TB.
    + eapply tab_same_tasks; [apply (tab_dirty _ _ _ _ _ _ U2)|rewrite upd_length; auto|].
      intros k u H. destruct (NE k u H) as (u0 & Q). exists u0. tauto.
    + eapply tab_same_tasks; [apply (tab_dirty _ _ _ _ _ _ U3)|rewrite upd_length; auto|].
      intros k u H. destruct (NE k u H) as (u0 & Q). exists u0. tauto.
Qed.

(* ---------------------------------------------------------- preparation *)

Lemma entries_flat : forall l k m a, entries (flat_map (entries l) (seq a m)) k = if (a <=? k) && (k <? a + m) then entries l k else [].
Proof.
  intros l k. assert (EE: forall j, entries (entries l j) k = if j =? k then entries l k else []).
  { intros j. unfold entries. destruct (Nat.eqb_spec j k) as [->|Hn].
    - induction l as [|e l IH]; cbn; auto. destruct (fst e =? k) eqn:E; cbn; rewrite ?E, ?IH; auto.
    - apply filter_none. intros e He. apply filter_In in He. destruct He as (_ & He). apply Nat.eqb_eq in He. apply Nat.eqb_neq. lia. }
  induction m as [|m IH]; intros a; cbn [seq flat_map].
  - change (entries [] k) with (@nil (nat * nat)). destruct (Nat.leb_spec a k), (Nat.ltb_spec k (a + 0)); cbn [andb]; auto; lia.
  - rewrite entries_app, EE, IH. destruct (Nat.eqb_spec a k) as [->|Hn].
    + destruct (Nat.leb_spec (S k) k), (Nat.leb_spec k k), (Nat.ltb_spec k (k + S m)); cbn [andb]; try lia. apply app_nil_r.
    + cbn [app]. destruct (Nat.leb_spec (S a) k), (Nat.leb_spec a k), (Nat.ltb_spec k (S a + m)), (Nat.ltb_spec k (a + S m)); cbn [andb]; auto; lia.
Qed.

Lemma entries_grouped : forall n l k, keys_ok n l -> entries (grouped n l) k = entries l k.
Proof.
  intros n l k HK. unfold grouped. rewrite entries_flat. cbn [Nat.leb andb plus].
  destruct (Nat.ltb_spec k n); auto. symmetry. apply filter_none. intros e He. specialize (HK e He). apply Nat.eqb_neq. lia.
Qed.

Lemma grouped_len : forall n l, keys_ok n l -> length (grouped n l) = length l.
Proof.
  intros n l HK. rewrite grouped_length. induction l as [|e l IH].
  - clear. induction n as [|n IH]; cbn; auto. rewrite IH. auto.
  - assert (Hl: keys_ok n l) by (intros x Hx; apply HK; cbn; auto). cbn [length]. rewrite <- IH by auto.
    assert (G: forall m, offset (nr (e :: l)) m = offset (nr l) m + (if fst e <? m then 1 else 0)).
    { induction m as [|m IHm]; cbn [offset]; auto. rewrite IHm, nr_cons.
      destruct (Nat.eqb_spec (fst e) m), (Nat.ltb_spec (fst e) m), (Nat.ltb_spec (fst e) (S m)); lia. }
    rewrite G. specialize (HK e ltac:(cbn; auto)). destruct (Nat.ltb_spec (fst e) n); lia.
Qed.

Lemma grouped_slice : forall n l k, k < n -> firstn (nr l k) (skipn (offset (nr l) k) (grouped n l)) = entries l k.
Proof.
  intros n l k Hk. unfold grouped. 
  assert (G: forall m a, a <= k < a + m ->
     firstn (nr l k) (skipn (offset (nr l) k - offset (nr l) a) (flat_map (entries l) (seq a m))) = entries l k).
  { induction m as [|m IH]; intros a Ha; [lia|]. cbn [seq flat_map]. destruct (Nat.eq_dec a k) as [->|Hn].
    - rewrite Nat.sub_diag. cbn [skipn]. rewrite firstn_app. change (length (entries l k)) with (nr l k).
      rewrite Nat.sub_diag. cbn [firstn]. rewrite app_nil_r. apply firstn_all.
    - assert (M: forall j, S a <= j -> offset (nr l) (S a) <= offset (nr l) j).
      { clear. intros j Hj. induction Hj; cbn [offset] in *; auto. lia. }
      specialize (M k ltac:(lia)). cbn [offset] in M.
      rewrite skipn_app. change (length (entries l a)) with (nr l a).
      rewrite skipn_all2 by (change (length (entries l a)) with (nr l a); lia). cbn [app].
      replace (offset (nr l) k - offset (nr l) a - nr l a) with (offset (nr l) k - offset (nr l) (S a)) by (cbn [offset]; lia).
      apply IH. lia. }
  specialize (G n 0 ltac:(lia)). cbn [offset] in G. rewrite Nat.sub_0_r in G. exact G.
Qed.

Definition sumf (f : tsk -> nat) (l : list tsk) : nat := fold_right (fun t a => f t + a) 0 l.

Lemma link_tables_nth : forall ts u l s k t', nth_error (link_tables ts u l s) k = Some t' ->
  exists t, nth_error ts k = Some t /\
    t' = mkTsk (t_cost t) (t_wait t) (t_weight t) (t_data t) (t_nu t) (t_nl t) (t_ns t)
               (Some (u + sumf t_nu (firstn k ts))) (Some (l + sumf t_nl (firstn k ts))) (Some (s + sumf t_ns (firstn k ts))).
Proof.
  induction ts as [|a ts IH]; intros u l s k t' H; cbn [link_tables] in H; [destruct k; discriminate|].
  destruct k as [|k]; cbn [nth_error firstn sumf fold_right] in *.
  - injection H as <-. exists a. split; auto. rewrite !Nat.add_0_r. auto.
  - apply IH in H. destruct H as (t & E1 & E2). exists t. split; auto. rewrite E2. fold (sumf t_nu (firstn k ts)).
    fold (sumf t_nl (firstn k ts)). fold (sumf t_ns (firstn k ts)). f_equal; f_equal; lia.
Qed.
Lemma link_tables_len : forall ts u l s, length (link_tables ts u l s) = length ts.
Proof. induction ts as [|a ts IH]; intros; cbn; auto. Qed.

Lemma sumf_offset : forall f (L : list (nat * nat)) ts, (forall k t, nth_error ts k = Some t -> f t = nr L k) ->
  forall k, k <= length ts -> sumf f (firstn k ts) = offset (nr L) k.
Proof.
  intros f L ts H k. induction k as [|k IH]; intros Hk; auto.
  destruct (nth_error ts k) as [t|] eqn:E; [|apply nth_error_None in E; lia].
  assert (EF: firstn (S k) ts = firstn k ts ++ [t]).
  { clear -E. revert k E. induction ts as [|a ts IH]; intros [|k] E; cbn in *; try discriminate.
    - injection E as <-. auto.
    - f_equal. apply IH. auto. }
  assert (SA: forall l1 l2, sumf f (l1 ++ l2) = sumf f l1 + sumf f l2).
  { clear. induction l1 as [|a l1 IH]; intros; cbn; auto. unfold sumf in *. rewrite IH. lia. }
  rewrite EF, SA, IH by lia. cbn [sumf fold_right offset]. rewrite (H k t E). lia.
Qed.

Lemma tab_keys : forall b L ts off cn d D n, tab_ok b L ts off cn d -> isbuf b D ->
  (forall e, In e L -> fst e < n) -> keys_ok n D /\ (forall e, In e D <-> In e L).
Proof.
  intros b L ts off cn d D n (_ & _ & D' & C1 & C2 & C3 & _) HD HK.
  assert (D' = D) by (eapply isbuf_fun; eauto). subst D'.
  assert (G: forall e, In e D <-> In e L).
  { intros e. assert (Q: forall l, In e l <-> In e (entries l (fst e))).
    { intros l. unfold entries. rewrite filter_In, Nat.eqb_refl. tauto. }
    rewrite (Q D), (Q L), C3. tauto. }
  split; auto. intros e He. apply HK, G, He.
Qed.

Lemma tab_sort : forall b L ts ts' off cn d n,
  tab_ok b L ts off cn d -> (forall e, In e L -> fst e < n) -> length ts = n ->
  (forall k t', nth_error ts' k = Some t' -> exists t, nth_error ts k = Some t /\ cn t' = cn t /\ off t' = Some (sumf cn (firstn k ts))) ->
  exists b', sort_table n b = Some b' /\ tab_ok b' L ts' off cn false.
Proof.
  intros b L ts ts' off cn d n H HK HN HT. pose proof H as (A & B & D & C1 & C2 & C3 & _).
  destruct (tab_keys _ _ _ _ _ _ D n H C1 HK) as (KD & _).
  assert (HL := grouped_len n D KD).
  unfold sort_table. pose proof C1 as C1'. apply live_iff in C1'. rewrite C1'. cbn [option_bind].
  rewrite (qsort_ok n D KD). cbn [option_bind]. eexists. split; [reflexivity|].
  destruct (isbuf_store _ b D (grouped n D) C1 HL) as (S1 & S2).
  assert (NR: forall k, nr D k = nr L k) by (intros k; unfold nr; fold (entries D k); fold (entries L k); rewrite C3; auto).
  split; [lia|]. split.
  { intros k t' Ht. destruct (HT k t' Ht) as (t & E1 & E2 & _). rewrite E2. auto. }
  exists (grouped n D). split; auto. split; [lia|]. split. { intros k. rewrite entries_grouped; auto. }
  intros _ k t' Ht Hp. destruct (HT k t' Ht) as (t & E1 & E2 & E3).
  assert (Hk: k < n) by (rewrite <- HN; apply nth_error_Some; congruence).
  eexists. split; [exact E3|]. rewrite E2, (B k t E1), entries_grouped by auto.
  rewrite (sumf_offset cn L ts B k) by lia.
  assert (EO: forall m, offset (nr L) m = offset (nr D) m) by (induction m as [|m IH]; cbn [offset]; auto; rewrite IH, NR; auto).
  rewrite EO, <- NR. apply grouped_slice. auto.
Qed.

Lemma rep_tables : forall h s, valid h -> rep h s -> exists s1, tables s = Some s1 /\ rep h s1 /\ q_dirty s1 = false /\ q_res s1 = q_res s.
Proof.
  intros h s HV HR. unfold tables. destruct (q_dirty s) eqn:Ed; [|exists s; auto].
  destruct HR as (ts & rs & T1 & R1 & D1 & T2 & R2 & D2 & TL & TW & RP & RL & U1 & U2 & U3).
  destruct (link_keys h HV) as (K1 & K2 & K3).
  assert (UT: used (q_tasks s) = length ts) by apply T1. rewrite UT.
  set (ts' := link_tables ts 0 0 0).
  assert (HT: forall k t', nth_error ts' k = Some t' -> exists t, nth_error ts k = Some t /\ 
     t_cost t' = t_cost t /\ t_wait t' = t_wait t /\ t_data t' = t_data t /\
     t_nu t' = t_nu t /\ t_nl t' = t_nl t /\ t_ns t' = t_ns t /\
     t_u t' = Some (sumf t_nu (firstn k ts)) /\ t_l t' = Some (sumf t_nl (firstn k ts)) /\ t_s t' = Some (sumf t_ns (firstn k ts))).
  { intros k t' H. apply link_tables_nth in H. destruct H as (t & E1 & ->). exists t. cbn. tauto. }
  destruct (tab_sort _ _ _ ts' _ _ _ (length ts) U1) as (d' & P1 & Q1).
  { intros e He. rewrite TL. apply K1; auto. } { auto. } { intros k t' H. destruct (HT k t' H) as (t & E). exists t. tauto. }
  destruct (tab_sort _ _ _ ts' _ _ _ (length ts) U2) as (l' & P2 & Q2).
  { intros e He. rewrite TL. apply K2; auto. } { auto. } { intros k t' H. destruct (HT k t' H) as (t & E). exists t. tauto. }
  destruct (tab_sort _ _ _ ts' _ _ _ (length ts) U3) as (s' & P3 & Q3).
  { intros e He. rewrite TL. apply K3; auto. } { auto. } { intros k t' H. destruct (HT k t' H) as (t & E). exists t. tauto. }
  rewrite P1, P2, P3. cbn [option_bind]. pose proof T1 as T1'. apply live_iff in T1'. rewrite T1'. cbn [option_bind].
  eexists. split; [reflexivity|]. split; [|split; auto].
  destruct (isbuf_store _ (q_tasks s) ts ts' T1 (link_tables_len _ _ _ _)) as (S1 & S2).
  exists ts', rs. cbn [q_tasks q_res q_deps q_locks q_uses q_data q_dirty]. fold ts'.
  split; [auto|]. split; [auto|]. split; [auto|]. split; [lia|]. split; [lia|]. split; [lia|].
  split. { unfold ts'. rewrite link_tables_len. auto. }
  split. { intros k t' H. destruct (HT k t' H) as (t & E1 & _ & E2 & E3 & _). rewrite E2, E3. auto. }
  auto.
Qed.

Lemma read_slices_ok : forall b L off cn ts0, tab_ok b L ts0 off cn false ->
  exists r, read_slices b off cn ts0 = Some r /\ length r = length ts0 /\ forall k, k < length ts0 -> nth k r [] = targets L k.
Proof.
  intros b L off cn ts0 (A & B & D & C1 & C2 & C3 & C4). specialize (C4 eq_refl).
  assert (G: forall ts a, (forall k t, nth_error ts k = Some t -> nth_error ts0 (a + k) = Some t) ->
     exists r, read_slices b off cn ts = Some r /\ length r = length ts /\ forall k, k < length ts -> nth k r [] = targets L (a + k)).
  { induction ts as [|t ts IH]; intros a H; cbn [read_slices].
    - exists []. split; auto. split; auto. intros k Hk. cbn in Hk. lia.
    - destruct (IH (S a)) as (r & E1 & E2 & E3). { intros k u Hu. specialize (H (S k) u Hu). rewrite Nat.add_succ_r in H. exact H. }
      assert (Ht: nth_error ts0 a = Some t) by (specialize (H 0 t eq_refl); rewrite Nat.add_0_r in H; auto).
      assert (HS: read_slice b (off t) (cn t) = Some (targets L a)).
      { assert (TA: targets L a = map snd (entries D a)) by (rewrite C3; auto).
        assert (NA: cn t = length (entries D a)) by (rewrite C3; apply (B a t Ht)).
        unfold read_slice. destruct (cn t) as [|c] eqn:Ec.
        - rewrite TA. destruct (entries D a); [auto|discriminate].
        - destruct (C4 a t Ht ltac:(lia)) as (o & O1 & O2). rewrite O1, Ec in *. cbn [option_bind].
          assert (LF: length (firstn (S c) (skipn o D)) = S c) by (rewrite O2; auto).
          rewrite firstn_length, skipn_length in LF. pose proof (isbuf_size _ _ _ C1).
          destruct (Nat.leb_spec (o + S c) (size b)); [|lia].
          assert (EC: firstn (S c) (skipn o (cells b)) = map Some (firstn (S c) (skipn o D))).
          { destruct C1 as ((g & ->) & _). rewrite skipn_app, map_length.
            replace (o - length D) with 0 by lia. cbn [skipn]. rewrite firstn_app, skipn_length, map_length.
            replace (S c - (length D - o)) with 0 by lia. rewrite firstn_O, app_nil_r, skipn_map, firstn_map. auto. }
          rewrite EC, O2, all_some_map. cbn [option_bind]. rewrite TA. auto. }
      rewrite HS, E1. cbn [option_bind]. eexists. split; [reflexivity|]. split; [cbn; lia|].
      intros [|k] Hk; cbn [nth].
      + rewrite Nat.add_0_r. auto.
      + rewrite E3 by (cbn in Hk; lia). f_equal. lia. }
  destruct (G ts0 0) as (r & E1 & E2 & E3); auto. exists r. auto.
Qed.

Lemma targets_In : forall L a b, In b (targets L a) <-> In (a, b) L.
Proof.
  intros L a b. unfold targets. rewrite in_map_iff. split.
  - intros ((x, y) & E & H). apply filter_In in H. destruct H as (H & K). cbn in *. apply Nat.eqb_eq in K. subst. auto.
  - intros H. exists (a, b). split; auto. apply filter_In. split; auto. cbn. apply Nat.eqb_refl.
Qed.

Definition circular (h : list call) : Prop :=
  exists a, Relation_Operators.clos_trans nat (fun a b => In (a, b) (dependencies h)) a a.

Lemma clos_mono : forall A (R S : A -> A -> Prop), (forall a b, R a b -> S a b) ->
  forall a b, Relation_Operators.clos_trans A R a b -> Relation_Operators.clos_trans A S a b.
Proof. intros A R S H a b C. induction C; [apply Relation_Operators.t_step; auto|eapply Relation_Operators.t_trans; eauto]. Qed.

Lemma cyclic_circular : forall h u, valid h -> (forall t, u t = targets (dependencies h) t) ->
  (cyclic (ntasks h) u <-> circular h).
Proof.
  intros h u HV HU. destruct (link_keys h HV) as (K1 & _ & _). unfold cyclic, circular.
  split; intros (a & H); exists a; revert H; apply clos_mono; unfold edge; intros x y H.
  - destruct H as (_ & H). rewrite HU in H. apply targets_In. auto.
  - split. { apply (K1 _ H). } rewrite HU. apply targets_In. auto.
Qed.

Record prep_facts (h : list call) (s : qs) (r : ready) : Prop := {
  pf_rep : rep h (a_s r);
  pf_clean : q_dirty (a_s r) = false;
  pf_count : used (q_tasks (a_s r)) = ntasks h;
  pf_unlocks : forall t, nth t (a_unlocks r) [] = targets (dependencies h) t;
  pf_locks : forall t, nth t (a_locks r) [] = targets (writelinks h) t;
  pf_uses : forall t, nth t (a_uses r) [] = targets (readlinks h) t;
  pf_wait : forall t, p_wait (a_prep r) t = Z.of_nat (preds (ntasks h) (fun t => nth t (a_unlocks r) []) t);
  pf_perm : Permutation (p_tid (a_prep r)) (seq 0 (ntasks h));
  pf_order : torder (ntasks h) (fun t => nth t (a_unlocks r) []) (p_tid (a_prep r));
  pf_weight : exists ts, live (q_tasks (a_s r)) = Some ts /\ forall t, t < ntasks h ->
      is_critical (fun t => nth t (a_unlocks r) []) (fun t => t_cost (nth t ts (mkTsk 0 0 0 0 0 0 0 None None None))) t (p_weight (a_prep r) t);
  pf_enq : Permutation (p_enqueue (a_prep r))
             (filter (fun t => Nat.eqb (preds (ntasks h) (fun t => nth t (a_unlocks r) []) t) 0) (seq 0 (ntasks h))) }.

Lemma targets_out : forall L n t, (forall e, In e L -> fst e < n) -> n <= t -> targets L t = [].
Proof. intros L n t HK Ht. unfold targets. rewrite filter_none; auto. intros e He. specialize (HK e He). apply Nat.eqb_neq. lia. Qed.

Lemma prepare_sched_ok : forall h s, valid h -> rep h s ->
  (prepare_sched s = Some Circular /\ circular h) \/
  (exists r, prepare_sched s = Some (Ready r) /\ ~ circular h /\ prep_facts h s r).
Proof.
  intros h s HV HR. destruct (link_keys h HV) as (K1 & K2 & K3).
  destruct (rep_tables h s HV HR) as (s1 & E1 & R1 & D1 & _).
  unfold prepare_sched. rewrite E1. cbn [option_bind].
  pose proof R1 as (ts & rs & T1 & _ & _ & _ & _ & _ & TL & TW & _ & _ & U1 & U2 & U3). rewrite D1 in U1, U2, U3.
  destruct (read_slices_ok _ _ _ _ _ U1) as (us & A1 & A2 & A3).
  destruct (read_slices_ok _ _ _ _ _ U2) as (ls & B1 & B2 & B3).
  destruct (read_slices_ok _ _ _ _ _ U3) as (ss & C1 & C2 & C3).
  pose proof T1 as T1'. apply live_iff in T1'. rewrite T1'. cbn [option_bind]. rewrite A1, B1, C1. cbn [option_bind].
  assert (FX: forall L x, (forall e, In e L -> fst e < ntasks h) -> length x = length ts ->
     (forall k, k < length ts -> nth k x [] = targets L k) -> forall k, nth k x [] = targets L k).
  { intros L x HK HL H k. destruct (Nat.lt_ge_cases k (length ts)); auto.
    rewrite nth_overflow by lia. rewrite (targets_out L (ntasks h)); auto. lia. }
  assert (A: forall k, nth k us [] = targets (dependencies h) k) by (apply FX; auto; intros e He; apply K1; auto).
  assert (B: forall k, nth k ls [] = targets (writelinks h) k) by (apply FX; auto; intros e He; apply K2; auto).
  assert (C: forall k, nth k ss [] = targets (readlinks h) k) by (apply FX; auto; intros e He; apply K3; auto).
  set (d := mkTsk 0 0 0 0 0 0 0 None None None).
  assert (HE: edges_in_range (length ts) (fun t => nth t us [])).
  { intros a u Ha Hu. rewrite A in Hu. apply targets_In in Hu. rewrite TL. apply (K1 _ Hu). }
  assert (W0: forall t, t_wait (nth t ts d) = 0%Z).
  { intros t. destruct (nth_error ts t) as [v|] eqn:Ev.
    - rewrite (nth_error_nth _ _ d Ev). apply (TW t v Ev).
    - rewrite nth_overflow by (apply nth_error_None; auto). auto. }
  pose proof (prepare_fails_iff (length ts) (fun t => nth t us []) (fun t => t_cost (nth t ts d)) HE
     (fun t => t_wait (nth t ts d)) (fun t => t_weight (nth t ts d)) W0) as PF.
  destruct (prepare _ _ _ _ _) as [p|] eqn:EP.
  - right. eexists. split; [reflexivity|]. rewrite TL in PF. split.
    { rewrite <- (cyclic_circular h (fun t => nth t us []) HV A). rewrite <- PF. discriminate. }
    destruct (prepare_ok (length ts) (fun t => nth t us []) (fun t => t_cost (nth t ts d)) HE
     (fun t => t_wait (nth t ts d)) (fun t => t_weight (nth t ts d)) p W0 EP) as (P1 & P2 & P3 & P4 & P5).
    rewrite TL in *.
    constructor; cbn [a_s a_unlocks a_locks a_uses a_prep]; auto.
    + destruct T1 as (_ & ->). auto.
    + exists ts. split; auto.
  - left. split; auto. rewrite TL in PF. apply (cyclic_circular h (fun t => nth t us []) HV A). apply PF. auto.
Qed.

Lemma par_of_ok : forall h s, rep h s -> forall x, par_of s x = parent_of h x.
Proof.
  intros h s (ts & rs & _ & R1 & _ & _ & _ & _ & _ & _ & RP & _) x. unfold par_of, res_at, parent_of. rewrite <- RP.
  assert (U: used (q_res s) = length rs) by apply R1. rewrite U.
  destruct (Nat.ltb_spec x (length rs)) as [Hx|Hx].
  - rewrite (isbuf_get _ _ _ _ R1 Hx). destruct (nth_error rs x) as [c|] eqn:E; [|apply nth_error_None in E; lia].
    symmetry. apply nth_error_nth. rewrite nth_error_map, E. auto.
  - symmetry. apply nth_overflow. rewrite map_length. auto.
Qed.

Lemma valid_forest : forall h, valid h -> forest (parent_of h).
Proof.
  intros h HV r p. unfold parent_of. revert r p. induction h as [|c h IH]; intros r p H.
  - destruct r; discriminate.
  - destruct HV as (HV & Hc). specialize (IH HV). destruct c as [|q| | |]; cbn [parents] in H; auto.
    destruct (Nat.lt_ge_cases r (length (parents h))) as [Hr|Hr].
    + rewrite app_nth1 in H by auto. apply IH. auto.
    + rewrite app_nth2 in H by auto. destruct (r - length (parents h)) as [|j] eqn:E; cbn in H; [|destruct j; discriminate].
      subst q. lia.
Qed.

Lemma forest_ext : forall p q, (forall x, p x = q x) -> forest q -> forest p.
Proof. intros p q H F r x Hr. rewrite H in Hr. auto. Qed.

Section Run.
Variables (nq : nat) (h : list call) (s : qs) (r : ready).
Hypothesis HV : valid h.
Hypothesis HP : prep_facts h s r.

Notation par := (par_of (a_s r)).
Notation lks := (fun t => nth t (a_locks r) []).
Notation uns := (fun t => nth t (a_unlocks r) []).
Notation n := (ntasks h).

Lemma run_edges : edges_in_range n uns.
Proof.
  destruct (link_keys h HV) as (K1 & _ & _). intros a u Ha Hu. rewrite (pf_unlocks _ _ _ HP) in Hu. apply targets_In in Hu. apply (K1 _ Hu).
Qed.
Lemma run_forest : forest par.
Proof. apply (forest_ext _ (parent_of h)). apply par_of_ok, (pf_rep _ _ _ HP). apply valid_forest; auto. Qed.

Lemma run_initial : forall nth e, starts nq r nth e -> initial_sched n nq uns e.
Proof.
  intros nt e (A & B & C & D & E & F & G & H). pose proof HP as [R0 CL CN UN LK US WT PM OR WE EQ].
  destruct R0 as (ts & rs & T1 & R1 & _ & _ & _ & _ & TL & _ & _ & RL & _).
  assert (RR: forall x c, res_at (a_s r) x = Some c -> r_lock c = false /\ r_hold c = 0%Z).
  { intros x c Hc. unfold res_at in Hc. assert (U: used (q_res (a_s r)) = length rs) by apply R1. rewrite U in Hc.
    destruct (Nat.ltb_spec x (length rs)) as [Hx|]; [|discriminate]. rewrite (isbuf_get _ _ _ _ R1 Hx) in Hc.
    apply RL. eapply nth_error_In; eauto. }
  split. { intros x. rewrite A. destruct (res_at (a_s r) x) eqn:Er; auto. apply (RR x _ Er). }
  split. { intros x. rewrite B. destruct (res_at (a_s r) x) eqn:Er; auto. apply (RR x _ Er). }
  split. { intros t. rewrite C, WT, Nat2Z.id. reflexivity. }
  split. { rewrite D. exact EQ. }
  split. { rewrite E. auto. }
  split; [auto|]. split; [auto|].
  intros x Hx. rewrite H in Hx. apply repeat_spec in Hx. auto.
Qed.

Lemma run_reach : forall nth e0 e, starts nq r nth e0 -> steps par nq lks uns e0 e -> sreach par n nq lks uns e.
Proof.
  intros nt e0 e HS HT. eapply steps_reach; [exact HT|]. apply sr_init. eapply run_initial; eauto.
Qed.

Lemma steps_threads : forall e0 e, steps par nq lks uns e0 e -> length (tl_ e) = length (tl_ e0).
Proof.
  intros e0 e HT. induction HT as [|a b c H1 _ IH]; auto. rewrite IH. inversion H1; subst. cbn [tl_]. rewrite !app_length. auto.
Qed.

Lemma rep_after : forall nth e0 e cost, 0 < nth -> starts nq r nth e0 -> steps par nq lks uns e0 e -> all_exited e ->
  rep h (after r e cost).
Proof.
  intros nt e0 e cost Hn HS HT HE. pose proof (run_reach _ _ _ HS HT) as HR.
  destruct (final_unlocked par n nq lks uns run_forest run_edges e HR HE) as (L1 & L2 & L3 & _).
  assert (W0: forall t, gw (gl e) t = 0).
  { intros t. destruct (L3 t) as [|H0]; auto. pose proof (steps_threads _ _ HT) as HL. rewrite H0 in HL. cbn in HL.
    destruct HS as (_ & _ & _ & _ & _ & _ & _ & HN). rewrite HN, repeat_length in HL. lia. }
  destruct (pf_rep _ _ _ HP) as (ts & rs & T1 & R1 & D1 & T2 & R2 & D2 & TL & TW & RP & RL & U1 & U2 & U3).
  assert (MI: forall A (f : nat -> A -> A) l k g, exists g', mapi f k (map Some l ++ g) = map Some (map (fun p => f (fst p) (snd p)) (combine (seq k (length l)) l)) ++ g').
  { clear. intros A f. induction l as [|a l IH]; intros k g; cbn [map app mapi length seq combine].
    - eexists. reflexivity.
    - destruct (IH (S k) g) as (g' & E). exists g'. rewrite E. reflexivity. }
  assert (ML: forall A (f : nat -> A -> A) l k, length (mapi f k l) = length l) by (clear; intros A f l; induction l; intros; cbn; auto).
  set (ft := after_task r e cost). set (fr := after_res e).
  set (ts' := map (fun p => ft (fst p) (snd p)) (combine (seq 0 (length ts)) ts)).
  set (rs' := map (fun p => fr (fst p) (snd p)) (combine (seq 0 (length rs)) rs)).
  assert (NE: forall A (f : nat -> A -> A) l a k x, nth_error (map (fun p => f (fst p) (snd p)) (combine (seq a (length l)) l)) k = Some x ->
     exists y, nth_error l k = Some y /\ x = f (a + k) y).
  { clear. intros A f. induction l as [|y l IH]; intros a k x H; cbn [length seq combine map] in H; [destruct k; discriminate|].
    destruct k as [|k]; cbn [nth_error] in *.
    - injection H as <-. exists y. rewrite Nat.add_0_r. auto.
    - destruct (IH (S a) k x H) as (z & E1 & E2). exists z. split; auto. rewrite E2. f_equal. lia. }
  assert (LC: forall A (f : nat -> A -> A) (l : list A) a, length (map (fun p => f (fst p) (snd p)) (combine (seq a (length l)) l)) = length l).
  { clear. intros. rewrite map_length, combine_length, seq_length. lia. }
  assert (HT': forall k t', nth_error ts' k = Some t' -> exists t, nth_error ts k = Some t /\ t' = ft k t) by (intros k t' H; apply NE in H; auto).
  exists ts', rs'. unfold after. cbn [q_tasks q_res q_deps q_locks q_uses q_data q_dirty].
  split. { destruct T1 as ((g & E) & U). destruct (MI _ ft ts 0 g) as (g' & E'). unfold isbuf. cbn [cells used].
    rewrite E. split; [exists g'; exact E'|]. rewrite U. unfold ts'. rewrite LC. auto. }
  split. { destruct R1 as ((g & E) & U). destruct (MI _ fr rs 0 g) as (g' & E'). unfold isbuf. cbn [cells used].
    rewrite E. split; [exists g'; exact E'|]. rewrite U. unfold rs'. rewrite LC. auto. }
  split; [auto|]. unfold size in *. cbn [cells]. rewrite !ML.
  split; [auto|]. split; [auto|]. split; [auto|].
  split. { unfold ts'. rewrite LC. auto. }
  split. { intros k t' H. destruct (HT' k t' H) as (t & E1 & ->). cbn. split; [rewrite W0; auto|]. apply (TW k t E1). }
  split. { rewrite <- RP. unfold rs'. clear. generalize 0. induction rs as [|a l IH]; intros k; cbn [length seq combine map]; auto. f_equal. auto. }
  split. { intros x Hx. apply In_nth_error in Hx. destruct Hx as (k & Hk). apply NE in Hk. destruct Hk as (y & _ & ->). cbn. auto. }
  assert (TS: forall b L off cn, (forall k t, off (ft k t) = off t) -> (forall k t, cn (ft k t) = cn t) ->
    tab_ok b L ts off cn (q_dirty (a_s r)) -> tab_ok b L ts' off cn (q_dirty (a_s r))).
  { intros b L off cn Ho Hc HB. eapply tab_same_tasks; [exact HB|unfold ts'; apply LC|].
    intros k t' H. destruct (HT' k t' H) as (t & E1 & ->). exists t. rewrite Ho, Hc. auto. }
  split; [|split]; apply TS; auto.
Qed.
End Run.

Lemma life_rep : forall nq h s, life nq h s -> valid h -> rep h s.
Proof.
  intros nq h s H. induction H as [|h s c s' id H IH A|h s r nt e0 e cost H IH P Hn HS HT HE]; intros HV.
  - apply rep_init.
  - assert (HV': valid h) by apply HV. destruct (rep_apply h s c HV (IH HV')) as (s2 & id2 & E & R & _). congruence.
  - destruct (prepare_sched_ok h s HV (IH HV)) as [(E & _)|(r' & E & _ & PF)]; [congruence|].
    assert (r' = r) by congruence. subst r'. eapply rep_after; eauto.
Qed.

(* ---------------------------------------------------------- results *)

(** [running nq h nt e]: after the calls [h] (and any number of earlier complete
    runs), execute_tasks was called with [nt] threads and is in state [e]. *)
Definition running (nq : nat) (h : list call) (nt : nat) (e : st) : Prop :=
  exists s r e0, life nq h s /\ prepare_sched s = Some (Ready r) /\ starts nq r nt e0 /\
    steps (par_of (a_s r)) nq (fun t => nth t (a_locks r) []) (fun t => nth t (a_unlocks r) []) e0 e.

(** One more step of some thread. *)
Definition runs_to (nq : nat) (h : list call) (e e' : st) : Prop :=
  exists s r, life nq h s /\ prepare_sched s = Some (Ready r) /\
    steps (par_of (a_s r)) nq (fun t => nth t (a_locks r) []) (fun t => nth t (a_unlocks r) []) e e'.

Lemma running_inv : forall nq h nt e, valid h -> running nq h nt e ->
  exists s r, life nq h s /\ prepare_sched s = Some (Ready r) /\ prep_facts h s r /\ ~ circular h /\
    sreach (par_of (a_s r)) (ntasks h) nq (fun t => nth t (a_locks r) []) (fun t => nth t (a_unlocks r) []) e /\
    length (tl_ e) = nt.
Proof.
  intros nq h nt e HV (s & r & e0 & HL & HP & HS & HT). exists s, r.
  pose proof (life_rep _ _ _ HL HV) as HR.
  destruct (prepare_sched_ok h s HV HR) as [(E & _)|(r' & E & HC & PF)]; [congruence|].
  assert (r' = r) by congruence. subst r'. split; [auto|]. split; [auto|]. split; [auto|]. split; [auto|]. split.
  - eapply run_reach; eauto.
  - rewrite (steps_threads nq r e0 e HT). destruct HS as (_ & _ & _ & _ & _ & _ & _ & ->). apply repeat_length.
Qed.

(** C01 *)
Lemma api_exactly_once : forall nq h nt e, valid h -> 0 < nt -> running nq h nt e -> all_exited e ->
  forall t, nstart t (log (gl e)) = (if t <? ntasks h then 1 else 0) /\
            nend t (log (gl e)) = (if t <? ntasks h then 1 else 0).
Proof.
  intros nq h nt e HV Hn HR HE t. destruct (running_inv _ _ _ _ HV HR) as (s & r & _ & _ & PF & _ & SR & LN).
  pose proof (run_edges h s r HV PF) as HU.
  destruct (Nat.ltb_spec t (ntasks h)) as [Ht|Ht].
  - refine (exactly_once _ _ _ _ _ e HU SR _ HE t Ht). intros Q. rewrite Q in LN. cbn in LN. lia.
  - destruct (at_most_once _ _ _ _ _ e HU SR t) as (A & B). destruct (Nat.ltb_spec t (ntasks h)); lia.
Qed.

Lemma api_at_most_once : forall nq h nt e, valid h -> running nq h nt e ->
  forall t, nstart t (log (gl e)) <= (if t <? ntasks h then 1 else 0) /\ nend t (log (gl e)) <= nstart t (log (gl e)).
Proof.
  intros nq h nt e HV HR t. destruct (running_inv _ _ _ _ HV HR) as (s & r & _ & _ & PF & _ & SR & LN).
  apply (at_most_once _ _ _ _ _ e (run_edges h s r HV PF) SR t).
Qed.

(** C02 *)
Lemma ordered_split : forall n u l1 b l2, ordered n u (l1 ++ Start b :: l2) ->
  forall a, a < n -> In b (u a) -> In (End a) l2.
Proof.
  induction l1 as [|e l1 IH]; intros b l2 H a Ha Hb; cbn [app ordered] in H.
  - apply H; auto.
  - destruct e; [destruct H as (_ & H)|]; eapply IH; eauto.
Qed.

Lemma api_order : forall nq h nt e, valid h -> running nq h nt e ->
  forall a b l1 l2, In (a, b) (dependencies h) -> log (gl e) = l1 ++ Start b :: l2 -> In (End a) l2.
Proof.
  intros nq h nt e HV HR a b l1 l2 HD HL. destruct (running_inv _ _ _ _ HV HR) as (s & r & _ & _ & PF & _ & SR & _).
  destruct (sinv_reach _ _ _ _ _ (run_edges h s r HV PF) e SR) as (_ & _ & _ & _ & _ & _ & _ & _ & HO).
  rewrite HL in HO. eapply ordered_split; [exact HO| |].
  - destruct (link_keys h HV) as (K1 & _ & _). apply (K1 _ HD).
  - cbn beta. rewrite (pf_unlocks _ _ _ PF). apply targets_In. auto.
Qed.

(** C03 *)
Lemma anc_ext : forall p q r x, (forall y, p y = q y) -> anc_or_eq p r x -> anc_or_eq q r x.
Proof. intros p q r x E H. induction H; [constructor|econstructor; [|eassumption]]. rewrite <- E. auto. Qed.

Lemma api_no_conflict : forall nq h nt e, valid h -> running nq h nt e ->
  forall i j t u r x, i <> j -> executing e i t -> executing e j u ->
  In (t, r) (writelinks h) -> In (u, x) (writelinks h) -> ~ anc_or_eq (parent_of h) r x.
Proof.
  intros nq h nt e HV HR i j t u rr x Hij Hi Hj Hr Hx HA.
  destruct (running_inv _ _ _ _ HV HR) as (s & r & _ & _ & PF & _ & SR & _).
  refine (no_conflict _ _ _ _ _ (run_forest h s r HV PF) (run_edges h s r HV PF) e SR i j t u rr x Hij Hi Hj _ _ _).
  - cbn beta. rewrite (pf_locks _ _ _ PF). apply targets_In. auto.
  - cbn beta. rewrite (pf_locks _ _ _ PF). apply targets_In. auto.
  - eapply anc_ext; [|exact HA]. intros y. symmetry. apply par_of_ok, (pf_rep _ _ _ PF).
Qed.

(** C06 *)
Definition self_conflicting (h : list call) (t : nat) : Prop :=
  ~ lockable (parent_of h) (targets (writelinks h) t).

Lemma lockable_ext : forall p q l, (forall y, p y = q y) -> lockable p l -> lockable q l.
Proof.
  intros p q l E (A & B). split; auto. intros r x Hr Hx Hn HA. apply (B r x Hr Hx Hn). eapply anc_ext; [|exact HA]. auto.
Qed.

Lemma api_progress : forall nq h nt e, valid h -> 0 < nq -> running nq h nt e ->
  (forall t, t < ntasks h -> lockable (parent_of h) (targets (writelinks h) t)) ->
  exists e', runs_to nq h e e' /\ running nq h nt e' /\ all_exited e'.
Proof.
  intros nq h nt e HV Hq HR HL.
  destruct (running_inv _ _ _ _ HV HR) as (s0 & r0 & _).
  destruct HR as (s & r & e0 & LF & HP & HS & HT).
  pose proof (life_rep _ _ _ LF HV) as RP.
  destruct (prepare_sched_ok h s HV RP) as [(E & _)|(r' & E & HC & PF)]; [congruence|].
  assert (r' = r) by congruence. subst r'.
  pose proof (run_reach nq h s r PF _ _ _ HS HT) as SR.
  assert (RK: ranked (ntasks h) (fun t => nth t (a_unlocks r) [])).
  { apply (acyclic_ranked _ _ (fun _ => 0%Z)). apply (run_edges h s r HV PF). intros HY. apply HC. revert HY.
    apply cyclic_circular; auto. apply (pf_unlocks _ _ _ PF). }
  assert (LK: forall t, t < ntasks h -> lockable (par_of (a_s r)) (nth t (a_locks r) [])).
  { intros t Ht. rewrite (pf_locks _ _ _ PF). eapply lockable_ext; [|apply HL; auto].
    intros y. symmetry. apply par_of_ok, (pf_rep _ _ _ PF). }
  destruct (can_complete _ (ntasks h) nq _ _ (run_forest h s r HV PF) (run_edges h s r HV PF) RK Hq LK e SR) as (e' & S1 & S2 & S3).
  exists e'. split; [|split; auto].
  - exists s, r. auto.
  - exists s, r, e0. split; auto. split; auto. split; auto. eapply steps_trans; eauto.
Qed.

Lemma api_self_conflict_never_runs : forall nq h nt e, valid h -> running nq h nt e ->
  forall t, self_conflicting h t -> nstart t (log (gl e)) = 0.
Proof.
  intros nq h nt e HV (s & r & e0 & LF & HP & HS & HT) t HC.
  pose proof (life_rep _ _ _ LF HV) as RP.
  destruct (prepare_sched_ok h s HV RP) as [(E & _)|(r' & E & _ & PF)]; [congruence|].
  assert (r' = r) by congruence. subst r'.
  assert (G: forall a b, steps (par_of (a_s r)) nq (fun t => nth t (a_locks r) []) (fun t => nth t (a_unlocks r) []) a b ->
    sreach (par_of (a_s r)) (ntasks h) nq (fun t => nth t (a_locks r) []) (fun t => nth t (a_unlocks r) []) a ->
    nstart t (log (gl a)) = 0 -> nstart t (log (gl b)) = 0).
  { intros a b HAB. induction HAB as [|a b c H1 H2 IH]; auto. intros SR HN. apply IH.
    - eapply sr_step; eauto.
    - assert (SR': sreach (par_of (a_s r)) (ntasks h) nq (fun t => nth t (a_locks r) []) (fun t => nth t (a_unlocks r) []) b) by (eapply sr_step; eauto).
      inversion H1 as [g l1 x l2 g' x' HX]; subst. cbn [gl] in *.
      inversion HX; subst; cbn [log setm setw setq addlog done1] in *; auto.
      + unfold nstart in *. cbn [filter]. destruct (Nat.eqb_spec t0 t) as [e1|]; [|auto]. exfalso. subst t0. apply HC.
        assert (EX: executing (mkS (addlog (setq g k (q1 ++ q2)) (Start t)) (l1 ++ (th, SRun t) :: l2)) (length l1) t).
        { exists th. cbn [tl_]. rewrite nth_error_app2, Nat.sub_diag by auto. auto. }
        pose proof (running_lockable _ _ _ _ _ (run_forest h s r HV PF) (run_edges h s r HV PF) _ SR' _ _ EX) as LL.
        cbn beta in LL. rewrite (pf_locks _ _ _ PF) in LL. eapply lockable_ext; [|exact LL]. apply par_of_ok, (pf_rep _ _ _ PF). }
  apply (G e0 e); auto.
  - apply sr_init. eapply run_initial; eauto.
  - destruct HS as (_ & _ & _ & _ & _ & _ & -> & _). auto.
Qed.

(** C07 *)
Lemma api_prepare : forall nq h s, valid h -> life nq h s ->
  (circular h -> prepare_sched s = Some Circular) /\
  (~ circular h -> exists r, prepare_sched s = Some (Ready r) /\
     Permutation (p_tid (a_prep r)) (seq 0 (ntasks h)) /\
     forall l1 b l2, p_tid (a_prep r) = l1 ++ b :: l2 -> forall a, In (a, b) (dependencies h) -> In a l1).
Proof.
  intros nq h s HV HL. pose proof (life_rep _ _ _ HL HV) as HR.
  destruct (prepare_sched_ok h s HV HR) as [(E & HC)|(r & E & HC & PF)]; split; intros H; try tauto.
  exists r. split; auto. split; [apply (pf_perm _ _ _ PF)|].
  intros l1 b l2 EQ a HD. eapply (pf_order _ _ _ PF); [exact EQ| |].
  - destruct (link_keys h HV) as (K1 & _ & _). apply (K1 _ HD).
  - cbn beta. rewrite (pf_unlocks _ _ _ PF). apply targets_In. auto.
Qed.

(** C10 *)
Lemma api_tables : forall nq h s r, valid h -> life nq h s -> prepare_sched s = Some (Ready r) ->
  forall t, nth t (a_unlocks r) [] = targets (dependencies h) t /\
            nth t (a_locks r) [] = targets (writelinks h) t /\
            nth t (a_uses r) [] = targets (readlinks h) t.
Proof.
  intros nq h s r HV HL HP t. pose proof (life_rep _ _ _ HL HV) as HR.
  destruct (prepare_sched_ok h s HV HR) as [(E & HC)|(r' & E & HC & PF)]; [congruence|].
  assert (r' = r) by congruence. subst r'. split; [apply (pf_unlocks _ _ _ PF)|]. split; [apply (pf_locks _ _ _ PF)|apply (pf_uses _ _ _ PF)].
Qed.

(** C11: a call never fails (no access outside a buffer), returns the next free
    id, and everything registered earlier can still be read back. *)
Lemma api_registered : forall nq h s, valid h -> life nq h s ->
  (forall c, valid (c :: h) -> exists s' id, apply c s = Some (s', id) /\
     match c with RegTask _ => id = ntasks h | RegRes _ => id = length (parents h) | _ => True end) /\
  (forall t x, nth_error (identities h) t = Some x ->
     exists c, get (q_tasks s) t = Some c /\ get (q_data s) (t_data c) = Some x) /\
  (forall r p, nth_error (parents h) r = Some p -> exists c, get (q_res s) r = Some c /\ r_parent c = p) /\
  (exists D L U, live (q_deps s) = Some D /\ Permutation D (dependencies h) /\
                 live (q_locks s) = Some L /\ Permutation L (writelinks h) /\
                 live (q_uses s) = Some U /\ Permutation U (readlinks h)).
Proof.
  intros nq h s HV HL. pose proof (life_rep _ _ _ HL HV) as HR. split; [|split; [|split]].
  - intros c Hc. destruct (rep_apply h s c Hc HR) as (s' & id & A & _ & B). exists s', id. auto.
  - intros t x Hx. destruct HR as (ts & rs & T1 & R1 & D1 & T2 & R2 & D2 & TL & TW & _).
    assert (Ht: t < length (identities h)) by (apply nth_error_Some; congruence). rewrite identities_length in Ht.
    destruct (nth_error ts t) as [c|] eqn:Ec; [|apply nth_error_None in Ec; lia].
    exists c. rewrite (isbuf_get _ _ _ _ T1) by lia. split; auto. destruct (TW t c Ec) as (_ & ->).
    rewrite (isbuf_get _ _ _ _ D1); auto. rewrite identities_length. auto.
  - intros r p Hp. destruct HR as (ts & rs & T1 & R1 & D1 & T2 & R2 & D2 & TL & TW & RP & _).
    rewrite <- RP in Hp. rewrite nth_error_map in Hp. destruct (nth_error rs r) as [c|] eqn:Ec; [|discriminate].
    injection Hp as <-. exists c. rewrite (isbuf_get _ _ _ _ R1); auto. apply nth_error_Some. congruence.
  - destruct HR as (ts & rs & T1 & R1 & D1 & T2 & R2 & D2 & TL & TW & RP & RL & U1 & U2 & U3).
    assert (G: forall b L off cn d, tab_ok b L ts off cn d -> exists D, live b = Some D /\ Permutation D L).
    { intros b L off cn d (_ & _ & D & C1 & _ & C3 & _). exists D. split; [apply live_iff; auto|].
      assert (DEC: forall x y : nat * nat, {x = y} + {x <> y}) by (decide equality; apply Nat.eq_dec).
      apply (Permutation_count_occ DEC). intros e.
      assert (Q: forall l, count_occ DEC l e = count_occ DEC (entries l (fst e)) e).
      { intros l. unfold entries. induction l as [|y l IH]; cbn; auto.
        destruct (DEC y e) as [->|Hn].
        - rewrite Nat.eqb_refl. cbn. destruct (DEC e e); [|contradiction]. auto.
        - destruct (fst y =? fst e); cbn; auto. destruct (DEC y e); [contradiction|]. auto. }
      rewrite (Q D), (Q L), C3. auto. }
    destruct (G _ _ _ _ _ U1) as (D & A1 & A2). destruct (G _ _ _ _ _ U2) as (L & B1 & B2). destruct (G _ _ _ _ _ U3) as (U & C1 & C2).
    exists D, L, U. tauto.
Qed.

(** C12 *)
Lemma api_rerun : forall nq h s r nt e0 e cost, valid h -> life nq h s -> prepare_sched s = Some (Ready r) ->
  0 < nt -> starts nq r nt e0 ->
  steps (par_of (a_s r)) nq (fun t => nth t (a_locks r) []) (fun t => nth t (a_unlocks r) []) e0 e ->
  all_exited e ->
  (forall x, lk (gm (gl e)) x = false /\ hd (gm (gl e)) x = 0%Z) /\
  life nq h (after r e cost) /\ exists r', prepare_sched (after r e cost) = Some (Ready r').
Proof.
  intros nq h s r nt e0 e cost HV HL HP Hn HS HT HE.
  assert (HA: life nq h (after r e cost)) by (eapply life_run; eauto).
  pose proof (life_rep _ _ _ HL HV) as HR.
  destruct (prepare_sched_ok h s HV HR) as [(E & HC)|(r' & E & HC & PF)]; [congruence|].
  assert (r' = r) by congruence. subst r'.
  pose proof (run_reach nq h s r PF _ _ _ HS HT) as SR.
  destruct (final_unlocked _ _ _ _ _ (run_forest h s r HV PF) (run_edges h s r HV PF) e SR HE) as (L1 & L2 & _).
  split; [auto|]. split; [auto|].
  destruct (prepare_sched_ok h _ HV (life_rep _ _ _ HA HV)) as [(E' & HC')|(r' & E' & _)]; [tauto|]. eauto.
Qed.

(** Every valid list of calls can be made; a prepared scheduler can be started
    with any number of threads. *)
Lemma life_exists : forall nq h, valid h -> exists s, life nq h s.
Proof.
  intros nq h. induction h as [|c h IH]; intros HV; [exists init; constructor|].
  destruct (IH (proj1 HV)) as (s & HS). pose proof (life_rep _ _ _ HS (proj1 HV)) as HR.
  destruct (rep_apply h s c HV HR) as (s' & id & A & _). exists s'. econstructor; eauto.
Qed.

Lemma start_exists : forall nq r nt, 0 < nq -> exists e, starts nq r nt e.
Proof.
  intros nq r nt Hq.
  exists (mkS (mkG (mkMem (fun x => match res_at (a_s r) x with Some c => r_lock c | None => false end)
                          (fun x => match res_at (a_s r) x with Some c => r_hold c | None => 0%Z end))
                   (fun t => Z.to_nat (p_wait (a_prep r) t))
                   (fun k => if k =? 0 then p_enqueue (a_prep r) else [])
                   (used (q_tasks (a_s r))) [] [])
              (repeat (mkThr Idle [], SIdle) nt)).
  unfold starts. cbn [gl gm gw gq gwaiting fin log tl_ lk hd].
  split; [auto|]. split; [auto|]. split; [auto|]. split; [|auto].
  destruct nq as [|q]; [lia|]. unfold queued. cbn [seq flat_map gq]. rewrite Nat.eqb_refl.
  assert (E: flat_map (fun k => if k =? 0 then p_enqueue (a_prep r) else []) (seq 1 q) = []).
  { assert (G: forall m a, 0 < a -> flat_map (fun k => if k =? 0 then p_enqueue (a_prep r) else []) (seq a m) = []).
    { induction m as [|m IH]; intros a Ha; cbn [seq flat_map]; auto. destruct (Nat.eqb_spec a 0); [lia|]. cbn. apply IH. lia. }
    apply G. lia. }
  rewrite E, app_nil_r. auto.
Qed.

Lemma run_exists : forall nq h nt, valid h -> 0 < nq -> ~ circular h ->
  (forall t, t < ntasks h -> lockable (parent_of h) (targets (writelinks h) t)) ->
  exists e, running nq h nt e /\ all_exited e.
Proof.
  intros nq h nt HV Hq HC HL. destruct (life_exists nq h HV) as (s & HS).
  pose proof (life_rep _ _ _ HS HV) as HR.
  destruct (prepare_sched_ok h s HV HR) as [(E & HC')|(r & E & _ & PF)]; [tauto|].
  destruct (start_exists nq r nt Hq) as (e0 & H0).
  assert (R0: running nq h nt e0) by (exists s, r, e0; split; [auto|split; [auto|split; [auto|constructor]]]).
  destruct (api_progress nq h nt e0 HV Hq R0 HL) as (e' & _ & A & B). eauto.
Qed.
