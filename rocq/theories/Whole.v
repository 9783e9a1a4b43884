(** What one run of the task graph computes: the contents of every result as a
    function of the inputs, for every schedule.  The control flow of the tasks
    (which task computes what from which objects, skipping, the order search,
    resets) is modelled here; the numerical kernels are parameters. *)
From Coq Require Import List Arith Lia Bool ZArith Permutation Floats.SpecFloat.
From Verif Require Import Base LockProto Sched Api Races TaskGraph TaskGraphFacts TaskDeps Footprint GraphApi GraphHist GraphRun
  Determinism SlotFree SlotFinal Converge.
Import ListNotations.

(** The numerical kernels.  [D] is the type of the contents of one object. *)
Record kernels (D : Type) := mkKernels {
  k_unset : D;                                   (* InteractionResource after construction or reset (InteractionResource.hpp 194-200, 589-606) *)
  k_zero : D;                                    (* one block T[m] after construction or reset (TMatrixResource.hpp 122-131, 1271-1282) *)
  k_blank : kind -> D;                           (* a result object after construction *)
  k_iv : nat -> D;                               (* InteractionVariables of a point (TaskManager.hpp 985-1010) *)
  k_nb : D;                                      (* NBasedResources::execute *)
  k_gauss : nat -> D;                            (* GaussBasedResources::execute, i-th quadrature order *)
  k_grid : kind -> D;                            (* *Grid::execute *)
  k_sw : kind -> D -> D;                         (* *SpecialWignerDResources::execute from the grid *)
  k_wd : nat -> D -> D;                          (* WignerDResources::execute from the quadrature points *)
  k_pg : nat -> nat -> D -> D;                   (* ParticleGeometryResource::execute: shape, order, quadrature points *)
  k_inter : nat -> D -> D -> D;                  (* InteractionTask::execute: order, variables, geometry *)
  k_m0 : nat -> D -> D -> D -> D -> D -> D -> D * spec_float * spec_float;
      (* TMatrixM0Task::execute: order, variables, n-factors, quadrature, geometry, interaction, Wigner: m=0 elements and both efficiency factors *)
  k_store : nat -> D -> D -> D;                  (* writing the m=0 elements of one order over a stored block (TMatrixResource.hpp 709-723) *)
  k_mall : nat -> nat -> D -> D -> D -> D -> D -> D -> D -> D;
      (* TMatrixMAllTask::execute: m, order, variables, n-factors, quadrature, geometry, interaction, Wigner, stored block *)
  k_align : nat -> nat -> list D -> nat -> D -> D;
      (* AlignmentAverageTask::execute: block (its size and shape select the distribution, TaskManager.hpp 1113-1118), nmax, blocks 0..nmax, m, stored block *)
  k_coef : kind -> D -> nat -> list D -> D -> D -> D -> D -> D;
      (* *CoefficientTask/ScatteringMatrixTask::execute: variables, nmax, blocks 0..nmax, n-factors, grid, Wigner, stored result *)
  k_avg : kind -> list D -> D -> D               (* *ShapeAveragingTask::execute: results of all shapes, stored result *)
}.
Arguments k_unset {D}. Arguments k_zero {D}. Arguments k_blank {D}. Arguments k_iv {D}. Arguments k_nb {D}. Arguments k_gauss {D}.
Arguments k_grid {D}. Arguments k_sw {D}. Arguments k_wd {D}. Arguments k_pg {D}. Arguments k_inter {D}. Arguments k_m0 {D}.
Arguments k_store {D}. Arguments k_mall {D}. Arguments k_align {D}. Arguments k_coef {D}. Arguments k_avg {D}.

Lemma nodup_suffix : forall A (a b : list A), NoDup (a ++ b) -> NoDup b.
Proof. induction a as [|x a IH]; intros b H; auto. inversion H; subst. auto. Qed.
Lemma hf0 : forall a, 2 * a / 2 = a.
Proof. intros a. rewrite Nat.mul_comm. apply Nat.div_mul. lia. Qed.
Lemma hf1 : forall a, (2 * a + 1) / 2 = a.
Proof. intros a. symmetry. apply (Nat.div_unique _ 2 a 1); lia. Qed.

Section Whole.
Variable c : cfg.
Variable D : Type.
Variable K : kernels D.
Variables prec emax : Z.
Variable tol : spec_float.

Notation S_ := (n_shape c).
Notation G := (n_quad c).
Notation B := (n_block c).
Notation P := (n_point c).
Notation cv := (unshared c).

(** Contents of a cell: plain data, the scalar members of a TMatrixResource, or a
    ConvergedSizeResources. *)
Inductive val :=
| Data (d : D)
| Tm (nmax : nat) (Qs Qe : spec_float) (ch : change)
| Cnv (v : conv).

Definition dat (v : val) : D := match v with Data d => d | _ => k_unset K end.
Definition tm_nmax (v : val) : nat := match v with Tm n _ _ _ => n | _ => 0 end.
Definition cnv (v : val) : conv := match v with Cnv x => x | _ => conv0 end.

(** order of the i-th order task: TaskManager.hpp l.1148 *)
Definition nmax_of (i : nat) : nat := o_min c + i.

(** Newly constructed objects *)
Definition fresh_tm : val := Tm 0 (S754_zero false) (S754_zero false) Fresh.
Definition initial (x : cell) : val :=
  match x with
  | DOwn _ => Data (k_unset K)
  | DInter _ => Data (k_unset K)
  | DTm _ => fresh_tm
  | DTb _ _ => Data (k_zero K)
  | DIV p => Data (k_iv K p)
  | DConv _ => Cnv conv0
  | DUn k _ | DRes k _ => Data (k_blank K k)
  end.

(** m=0 elements and efficiency factors computed by TMatrixM0Task for block b and the i-th order from the current memory *)
Definition m0_of (s : cell -> val) (b i : nat) : D * spec_float * spec_float :=
  k_m0 K i (dat (s (DIV (b / S_)))) (dat (s (DOwn TN))) (dat (s (DOwn (TG i)))) (dat (s (DOwn (TPG (b mod S_) i))))
    (dat (s (DInter b))) (dat (s (DOwn (TWD i)))).

(** Value of a cell written by execute() of a task (every block with its own
    storage; [slotted] of SlotFree.v puts block b into slot b mod N). *)
Definition new (t : task) (s : cell -> val) (x : cell) : val :=
  match t with
  | TN => Data (k_nb K)
  | TG i => Data (k_gauss K i)
  | TGrid k => Data (k_grid K k)
  | TSW k => Data (k_sw K k (dat (s (DOwn (TGrid k)))))
  | TWD i => Data (k_wd K i (dat (s (DOwn (TG i)))))
  | TPG is i => Data (k_pg K is i (dat (s (DOwn (TG i)))))
  | TI b i =>                                              (* InteractionResource.hpp l.478-527 *)
      if c_done (cnv (s (DConv b))) then s x
      else Data (k_inter K i (dat (s (DIV (b / S_)))) (dat (s (DOwn (TPG (b mod S_) i)))))
  | TM0 b i =>                                             (* TMatrixResource.hpp l.579-776 *)
      let cn := cnv (s (DConv b)) in
      if c_done cn then s x
      else
        let '(T0, Qs, Qe) := m0_of s b i in
        let ch := match s (DTm (2 * b)) with
                  | Tm _ Qs' Qe' First | Tm _ Qs' Qe' (Change _ _) =>
                      Change (rel_change prec emax Qs' Qs) (rel_change prec emax Qe' Qe)     (* l.757-761 *)
                  | _ => First                                                               (* l.753-755 *)
                  end in
        match x with
        | DTm _ => Tm (nmax_of i) Qs Qe ch
        | DTb _ _ => Data (k_store K i T0 (dat (s x)))
        | DConv _ =>
            Cnv (match ch with
                 | Change u v =>
                     if positive u then mkConv (S (c_iter cn)) (nmax_of i) (Some i) (c_done cn || (below u tol && below v tol)) (Some u) (Some v)
                     else mkConv (S (c_iter cn)) (nmax_of i) (Some i) (c_done cn) (c_dQs cn) (c_dQe cn)
                 | _ => mkConv (S (c_iter cn)) (nmax_of i) (Some i) (c_done cn) (c_dQs cn) (c_dQe cn)
                 end)                                                                        (* l.729-734, 764-771 *)
        | _ => s x
        end
  | TMA b m =>                                             (* TMatrixResource.hpp l.894-1130 *)
      let cn := cnv (s (DConv b)) in
      if c_nmax cn <? m then s x                           (* l.908 *)
      else match c_order cn with
           | Some i =>
               if i <? G
               then Data (k_mall K m i (dat (s (DIV (b / S_)))) (dat (s (DOwn TN))) (dat (s (DOwn (TG i))))
                           (dat (s (DOwn (TPG (b mod S_) i)))) (dat (s (DInter b))) (dat (s (DOwn (TWD i)))) (dat (s x)))
               else s x                                    (* there are no objects of other orders *)
           | None => s x                                   (* null pointer; does not occur, see below *)
           end
  | TAL b =>                                               (* AlignmentAverageTask.hpp l.115-216 *)
      let n := tm_nmax (s (DTm (2 * b))) in
      match x with
      | DTm _ => match s x with Tm _ Qs Qe ch => Tm n Qs Qe ch | _ => Tm n (S754_zero false) (S754_zero false) Fresh end
      | DTb _ m => if m <=? n then Data (k_align K b n (map (fun m' => dat (s (DTb (2 * b) m'))) (seq 0 (n + 1))) m (dat (s x))) else s x
      | _ => s x
      end
  | TC k b =>
      let n := tm_nmax (s (DTm (2 * b + 1))) in
      Data (k_coef K k (dat (s (DIV (b / S_)))) n (map (fun m => dat (s (DTb (2 * b + 1) m))) (seq 0 (n + 1)))
              (dat (s (DOwn TN))) (dat (s (DOwn (TGrid k)))) (dat (s (DOwn (TSW k)))) (dat (s x)))
  | TR1 _ | TR2 _ | TR3 _ => initial x                     (* TMatrixResource.hpp l.1271-1282, InteractionResource.hpp l.589-606 *)
  | TAv k p => Data (k_avg K k (map (fun is => dat (s (DUn k (p * S_ + is)))) (seq 0 S_)) (dat (s x)))
  end.
Definition effect (t : task) (s : cell -> val) (x : cell) : val := if writes_dec cv t x then new t s x else s x.

(* ------------------------------------------------------ specification *)
(** shared objects *)
Definition sp_geometry (b i : nat) : D := k_pg K (b mod S_) i (k_gauss K i).
Definition sp_wigner (i : nat) : D := k_wd K i (k_gauss K i).
Definition sp_inter (b i : nat) : D := k_inter K i (k_iv K (b / S_)) (sp_geometry b i).
(** m=0 elements and efficiency factors of the i-th order *)
Definition sp_m0 (b i : nat) : D * spec_float * spec_float :=
  k_m0 K i (k_iv K (b / S_)) (k_nb K) (k_gauss K i) (sp_geometry b i) (sp_inter b i) (sp_wigner i).
Definition sp_Qs (b i : nat) : spec_float := snd (fst (sp_m0 b i)).
Definition sp_Qe (b i : nat) : spec_float := snd (sp_m0 b i).
(** the order used for a block: the first accepted one, or the last *)
Definition chosen (b i : nat) : Prop :=
  i < G /\ (forall j, j < i -> ~ accepted prec emax (sp_Qs b) (sp_Qe b) tol j) /\
  (accepted prec emax (sp_Qs b) (sp_Qe b) tol i \/ i = G - 1).
(** blocks of the T-matrix of that order *)
Definition sp_T (b i m : nat) : D :=
  if m =? 0 then k_store K i (fst (fst (sp_m0 b i))) (k_zero K)
  else k_mall K m i (k_iv K (b / S_)) (k_nb K) (k_gauss K i) (sp_geometry b i) (sp_inter b i) (sp_wigner i) (k_zero K).
(** the same averaged over orientations *)
Definition sp_ensemble (b i m : nat) : D :=
  k_align K b (nmax_of i) (map (sp_T b i) (seq 0 (nmax_of i + 1))) m (k_zero K).
(** the result for one shape, and averaged over the shapes *)
Definition sp_single (k : kind) (b i : nat) : D :=
  k_coef K k (k_iv K (b / S_)) (nmax_of i) (map (sp_ensemble b i) (seq 0 (nmax_of i + 1)))
    (k_nb K) (k_grid K k) (k_sw K k (k_grid K k)) (k_blank K k).
Definition sp_result (k : kind) (ord : nat -> nat) (p : nat) : D :=
  k_avg K k (map (fun is => sp_single k (p * S_ + is) (ord (p * S_ + is))) (seq 0 S_)) (k_blank K k).

(* ------------------------------------------------------ proof *)
Hypothesis Horder : o_min c < o_max c.
Hypothesis H64 : (Z.of_nat (o_max c) < 2 ^ 64)%Z.
(** a later order overwrites what an earlier one stored *)
Hypothesis Hover : forall i j u v old, j <= i -> k_store K i u (k_store K j v old) = k_store K i u old.

Lemma G_eq : G = o_max c - o_min c.
Proof. unfold n_quad. rewrite Z.mod_small by lia. lia. Qed.
Lemma G_pos : 0 < G.
Proof. rewrite G_eq. lia. Qed.
Lemma M_pos : 0 < o_max c.
Proof. lia. Qed.

Variable L : Type.
Variable vcode : task -> L -> (cell -> val) -> option (L * (cell -> val)).
Variable start : task -> L.
Hypothesis HV : respects_footprint cv val L vcode.
(** execute() of every task computes [effect] *)
Hypothesis HE : forall t s s', task_in c t -> completes val L vcode start t s s' -> forall x, s' x = effect t s x.

Notation vseq := (vseq val L vcode start).
Notation completes := (completes val L vcode start).

Lemma wr_own : forall t x, task_in c t -> block_of t = None -> (forall k p, t <> TAv k p) -> (writes cv t x <-> x = DOwn t).
Proof. intros t x Ht Hb Hk. destruct t; cbn in Hb; try discriminate; cbn; try tauto. exfalso. apply (Hk k p). auto. Qed.

Lemma eff_in : forall t s s' x, task_in c t -> completes t s s' -> writes cv t x -> s' x = new t s x.
Proof. intros t s s' x Ht H W. rewrite (HE t s s' Ht H). unfold effect. destruct (writes_dec cv t x); [auto|contradiction]. Qed.
Lemma eff_out : forall t s s' x, task_in c t -> completes t s s' -> ~ writes cv t x -> s' x = s x.
Proof. intros t s s' x Ht H W. rewrite (HE t s s' Ht H). unfold effect. destruct (writes_dec cv t x); [contradiction|auto]. Qed.
Lemma seq_out : forall l s s' x, (forall t, In t l -> task_in c t /\ ~ writes cv t x) -> vseq l s s' -> s' x = s x.
Proof.
  induction l as [|t l IH]; intros s s' x H V; inversion V as [|? ? ? s1 ? C1 C2]; subst; auto.
  rewrite (IH s1 s' x) by (auto; intros; apply H; cbn; auto). destruct (H t ltac:(cbn; auto)). eapply eff_out; eauto.
Qed.

(** the reset tasks restore newly constructed storage *)
Lemma sm : forall b, b < B -> b mod S B = b.
Proof. intros. apply Nat.mod_small. lia. Qed.
Lemma init_uniform : uniform val initial.
Proof. repeat split. Qed.
Lemma init_resets : resets c val L vcode start initial.
Proof.
  intros b s s' Hb. split; [|split]; intros HC; [split; [|intros m]|split; [|intros m]|];
    rewrite (fun Ht => eff_in _ _ _ _ Ht HC); cbn [new initial]; auto; cbn [writes unshared with_slots n_slot]; rewrite sm by auto; eauto.
Qed.

(* shared objects *)
Definition want (t : task) : D :=
  match t with
  | TN => k_nb K
  | TG i => k_gauss K i
  | TGrid k => k_grid K k
  | TSW k => k_sw K k (k_grid K k)
  | TWD i => k_wd K i (k_gauss K i)
  | TPG is i => k_pg K is i (k_gauss K i)
  | _ => k_unset K
  end.
Definition needs (t : task) : list task :=
  match t with TSW k => [TGrid k] | TWD i | TPG _ i => [TG i] | _ => [] end.
Definition shared (t : task) : Prop := match t with TN | TG _ | TGrid _ | TSW _ | TWD _ | TPG _ _ => True | _ => False end.
Definition made (done : list task) (s : cell -> val) : Prop := forall t, In t done -> s (DOwn t) = Data (want t).

Lemma seg : forall l done s s', (forall t, In t l -> task_in c t /\ shared t /\ incl (needs t) done) -> made done s -> vseq l s s' ->
  made (l ++ done) s'.
Proof.
  induction l as [|t l IH]; intros done s s' H M V; inversion V as [|? ? ? s1 ? C1 C2]; subst; [exact M|].
  destruct (H t ltac:(cbn; auto)) as (Ht & Hs & Hn).
  assert (W: forall x, writes cv t x <-> x = DOwn t) by (intros x; destruct t; cbn in Hs; try contradiction; cbn; tauto).
  assert (M1: made (t :: done) s1).
  { assert (E: s1 (DOwn t) = Data (want t)).
    { rewrite (eff_in t s s1 _ Ht C1) by (apply W; auto).
      destruct t; cbn in Hs; try contradiction; cbn [new want]; auto; rewrite (M _ (Hn _ ltac:(cbn; auto))); reflexivity. }
    intros u [<-|Hu]; auto. destruct (task_eq_dec u t) as [->|Hne]; auto.
    rewrite (eff_out t s s1 _ Ht C1) by (rewrite W; congruence). auto. }
  specialize (IH (t :: done) s1 s'). intros u Hu. apply IH; auto.
  - intros v Hv. destruct (H v ltac:(cbn; auto)) as (A1 & A2 & A3). repeat split; auto. intros y Hy. cbn. auto.
  - apply in_app_iff in Hu. apply in_app_iff. cbn in *. tauto.
Qed.

Definition shared_ok (s : cell -> val) : Prop :=
  s (DOwn TN) = Data (k_nb K) /\
  (forall i, i < G -> s (DOwn (TG i)) = Data (k_gauss K i) /\ s (DOwn (TWD i)) = Data (sp_wigner i) /\
     forall is, is < S_ -> s (DOwn (TPG is i)) = Data (k_pg K is i (k_gauss K i))) /\
  (forall k, flag c k = true -> s (DOwn (TGrid k)) = Data (k_grid K k) /\ s (DOwn (TSW k)) = Data (k_sw K k (k_grid K k))) /\
  (forall p, s (DIV p) = Data (k_iv K p)).

Lemma shared_phase : forall s', vseq (shared_tasks c) initial s' -> shared_ok s' /\
  forall x, (forall t, x <> DOwn t) -> s' x = initial x.
Proof.
  intros s' V.
  assert (F: forall x, (forall t, x <> DOwn t) -> s' x = initial x).
  { intros x Hx. eapply seq_out; [|exact V]. intros t Ht. destruct (shared_good c G_pos M_pos 1 Nat.lt_0_1 0 t Ht) as (Hi & _). split; auto.
    unfold shared_tasks in Ht. intros W.
    repeat (apply in_app_or in Ht; destruct Ht as [Ht|Ht]); try (apply in_map_iff in Ht; destruct Ht as (i & <- & _)); try (cbn in W; eapply Hx; eauto; fail).
    - destruct Ht as [<-|[]]. cbn in W. eapply Hx; eauto.
    - apply in_flat_map in Ht. destruct Ht as (is & _ & Ht). apply in_map_iff in Ht. destruct Ht as (i & <- & _). cbn in W. eapply Hx; eauto. }
  split; auto. unfold shared_tasks in V.
  apply vs_app in V. destruct V as (s1 & V1 & V). apply vs_app in V. destruct V as (s2 & V2 & V). apply vs_app in V. destruct V as (s3 & V3 & V).
  apply vs_app in V. destruct V as (s4 & V4 & V). apply vs_app in V. destruct V as (s5 & V5 & V6).
  assert (M0: made [] initial) by (intros t []).
  assert (Gt: forall i, In i (seq 0 G) -> i < G) by (intros i Hi; apply in_seq in Hi; lia).
  assert (M1: made ([TN] ++ []) s1).
  { eapply seg; [|exact M0|exact V1]. intros t [<-|[]]. cbn. repeat split. intros ? []. }
  assert (M2: made (map TG (seq 0 G) ++ [TN] ++ []) s2).
  { eapply seg; [|exact M1|exact V2]. intros t Ht. apply in_map_iff in Ht. destruct Ht as (i & <- & Hi). cbn. repeat split; auto. intros ? []. }
  assert (M3: made (map TGrid (ks c) ++ map TG (seq 0 G) ++ [TN] ++ []) s3).
  { eapply seg; [|exact M2|exact V3]. intros t Ht. apply in_map_iff in Ht. destruct Ht as (i & <- & Hi). apply in_ks in Hi. cbn. repeat split; auto. intros ? []. }
  assert (M4: made (map TSW (ks c) ++ map TGrid (ks c) ++ map TG (seq 0 G) ++ [TN] ++ []) s4).
  { eapply seg; [|exact M3|exact V4]. intros t Ht. apply in_map_iff in Ht. destruct Ht as (i & <- & Hi). split; [apply in_ks; auto|]. split; [exact I|].
    intros ? [<-|[]]. apply in_app_iff. left. apply in_map. auto. }
  assert (M5: made (map TWD (seq 0 G) ++ map TSW (ks c) ++ map TGrid (ks c) ++ map TG (seq 0 G) ++ [TN] ++ []) s5).
  { eapply seg; [|exact M4|exact V5]. intros t Ht. apply in_map_iff in Ht. destruct Ht as (i & <- & Hi). split; [apply Gt; auto|]. split; [exact I|].
    intros ? [<-|[]]. rewrite !in_app_iff. right. right. left. apply in_map. auto. }
  assert (M6: made (flat_map (fun is => map (TPG is) (seq 0 G)) (seq 0 S_) ++ map TWD (seq 0 G) ++ map TSW (ks c) ++ map TGrid (ks c) ++ map TG (seq 0 G) ++ [TN] ++ []) s').
  { eapply seg; [|exact M5|exact V6]. intros t Ht. apply in_flat_map in Ht. destruct Ht as (is & His & Ht). apply in_map_iff in Ht. destruct Ht as (i & <- & Hi).
    apply in_seq in His. cbn [task_in shared needs]. repeat split; auto; try lia.
    intros ? [<-|[]]. rewrite !in_app_iff. right. right. right. left. apply in_map. auto. }
  clear - M6 F.
  assert (Q: forall i, i < G -> In i (seq 0 G)) by (intros; apply in_seq; lia).
  split; [apply (M6 TN); rewrite !in_app_iff; cbn; tauto|]. split; [|split].
  - intros i Hi. split; [|split].
    + apply (M6 (TG i)). rewrite !in_app_iff. do 4 right. left. apply in_map. auto.
    + apply (M6 (TWD i)). rewrite !in_app_iff. right. left. apply in_map. auto.
    + intros is His. apply (M6 (TPG is i)). rewrite !in_app_iff. left. apply in_flat_map. exists is. split; [apply in_seq; lia|]. apply in_map. auto.
  - intros k Hk. apply in_ks in Hk. split.
    + apply (M6 (TGrid k)). rewrite !in_app_iff. do 3 right. left. apply in_map. auto.
    + apply (M6 (TSW k)). rewrite !in_app_iff. do 2 right. left. apply in_map. auto.
  - intros p. rewrite F by discriminate. reflexivity.
Qed.

(* one block *)
Section Block.
Variable b : nat.
Hypothesis Hb : b < B.
Notation Qs := (sp_Qs b).
Notation Qe := (sp_Qe b).
Notation srch := (search prec emax nmax_of Qs Qe tol).
Notation step := (order_step prec emax nmax_of Qs Qe tol).

Lemma S_pos : b mod S_ < S_.
Proof. apply Nat.mod_upper_bound. intros E. unfold n_block in Hb. rewrite E in Hb. lia. Qed.

(** memory during the search and the abstract state of Converge.v *)
Definition follows (s : cell -> val) (a : st) : Prop :=
  shared_ok s /\
  s (DConv b) = Cnv (s_conv a) /\
  s (DTm (2 * b)) = Tm (t_nmax (s_T a)) (t_Qs (s_T a)) (t_Qe (s_T a)) (t_change (s_T a)) /\
  s (DTb (2 * b) 0) = Data (match t_part (s_T a) 0 with None => k_zero K | Some i => k_store K i (fst (fst (sp_m0 b i))) (k_zero K) end) /\
  s (DInter b) = Data (match s_int a with None => k_unset K | Some i => sp_inter b i end).

Ltac wr := cbn [writes unshared with_slots n_slot]; rewrite ?sm by auto.

Lemma ti_shared : forall t s s', task_in c t -> block_of t = Some b -> completes t s s' -> shared_ok s -> shared_ok s'.
Proof.
  intros t s s' Ht Hbl C HSh.
  assert (F1: forall u, s' (DOwn u) = s (DOwn u)).
  { intros u. eapply eff_out; eauto. destruct t; cbn in Hbl; try discriminate; cbn; intros W; repeat (destruct W as [W|W] || destruct W as (? & W)); discriminate. }
  assert (F2: forall p, s' (DIV p) = s (DIV p)).
  { intros p. eapply eff_out; eauto. destruct t; cbn in Hbl; try discriminate; cbn; intros W; repeat (destruct W as [W|W] || destruct W as (? & W)); discriminate. }
  unfold shared_ok in *. setoid_rewrite F1. setoid_rewrite F2. exact HSh.
Qed.

Lemma step_follows : forall i s s1 s2 a, i < G -> (forall j, t_part (s_T a) 0 = Some j -> j <= i) ->
  follows s a -> completes (TI b i) s s1 -> completes (TM0 b i) s1 s2 -> follows s2 (step a i).
Proof.
  intros i s s1 s2 a Hi Hj (F0 & F1 & F2 & F3 & F4) C1 C2.
  assert (T1: task_in c (TI b i)) by (split; auto). assert (T2: task_in c (TM0 b i)) by (split; auto).
  pose proof (ti_shared _ _ _ T1 eq_refl C1 F0) as G0. pose proof (ti_shared _ _ _ T2 eq_refl C2 G0) as H0.
  destruct (F0) as (_ & N2 & _ & N4). destruct (N2 i Hi) as (_ & _ & N2c). pose proof (N2c _ S_pos) as N2c'.
  assert (O1: forall x, x <> DInter b -> s1 x = s x).
  { intros x Hx. eapply eff_out; [exact T1|exact C1|]. wr. auto. }
  assert (E1: s1 (DInter b) = if c_done (s_conv a) then s (DInter b) else Data (sp_inter b i)).
  { rewrite (eff_in _ _ _ _ T1 C1) by (wr; auto). cbn [new]. rewrite F1. cbn [cnv]. destruct (c_done (s_conv a)); auto.
    rewrite N4. rewrite N2c'. reflexivity. }
  assert (O2: forall x, x <> DTm (2 * b) -> x <> DTb (2 * b) 0 -> x <> DConv b -> s2 x = s1 x).
  { intros x X1 X2 X3. eapply eff_out; [exact T2|exact C2|]. wr. tauto. }
  assert (W1 := eff_in _ _ _ (DTm (2 * b)) T2 C2 ltac:(wr; auto)).
  assert (W2 := eff_in _ _ _ (DTb (2 * b) 0) T2 C2 ltac:(wr; auto)).
  assert (W3 := eff_in _ _ _ (DConv b) T2 C2 ltac:(wr; auto)).
  assert (W4: s2 (DInter b) = s1 (DInter b)) by (apply O2; discriminate).
  unfold order_step, interaction, m0_task.
  cbn [new] in W1, W2, W3.
  assert (X1: s1 (DConv b) = Cnv (s_conv a)) by (rewrite O1 by discriminate; auto).
  assert (X2: s1 (DTm (2 * b)) = Tm (t_nmax (s_T a)) (t_Qs (s_T a)) (t_Qe (s_T a)) (t_change (s_T a))) by (rewrite O1 by discriminate; auto).
  assert (X3: s1 (DTb (2 * b) 0) = Data (match t_part (s_T a) 0 with None => k_zero K | Some i => k_store K i (fst (fst (sp_m0 b i))) (k_zero K) end)) by (rewrite O1 by discriminate; auto).
  rewrite X1 in W1, W2, W3. cbn [cnv] in W1, W2, W3. destruct (c_done (s_conv a)) eqn:ED.
  - cbn [s_conv s_T s_int]. rewrite ED. repeat split; try (apply H0); auto; try congruence.
  - cbn [s_conv s_T s_int]. rewrite ED.
    assert (EM: m0_of s1 b i = sp_m0 b i).
    { unfold m0_of, sp_m0. destruct G0 as (Q1 & Q2 & _ & Q4). destruct (Q2 i Hi) as (R1 & R2 & R3).
      rewrite Q1, Q4, R1, R2, (R3 _ S_pos), E1. reflexivity. }
    rewrite EM in W1, W2, W3.
    assert (EV: sp_m0 b i = (fst (fst (sp_m0 b i)), Qs i, Qe i)) by (unfold sp_Qs, sp_Qe; destruct (sp_m0 b i) as ((? & ?) & ?); reflexivity).
    rewrite EV in W1, W2, W3. rewrite X2 in W1, W3. rewrite X3 in W2. cbn [dat] in W2.
    assert (EC: forall A (u v : A), (match t_change (s_T a) with Fresh => u | First | Change _ _ => v end) = match t_change (s_T a) with Fresh => u | First => v | Change _ _ => v end) by reflexivity.
    split; [exact H0|]. split; [|split; [|split]].
    + rewrite W3. destruct (t_change (s_T a)) as [| |u v]; cbn [s_conv c_iter c_nmax c_order c_done c_dQs c_dQe]; rewrite ?ED; auto;
        destruct (positive _); reflexivity.
    + rewrite W1. cbn [s_T t_nmax t_Qs t_Qe t_change]. destruct (t_change (s_T a)); reflexivity.
    + rewrite W2. cbn [s_T t_part Nat.eqb]. apply f_equal.
      destruct (t_part (s_T a) 0) as [j|]; auto.
    + rewrite W4, E1. reflexivity.
Qed.

Lemma part_bound : forall i j, t_part (s_T (srch i)) 0 = Some j -> j < i.
Proof.
  induction i as [|i IH]; intros j E; [discriminate|]. rewrite search_S in E. unfold order_step, interaction, m0_task in E.
  destruct (c_done (s_conv (srch i))) eqn:ED; [rewrite ED in E; specialize (IH j E); lia|].
  cbn [s_conv s_T] in E. rewrite ED in E. cbn [s_T t_part Nat.eqb] in E. injection E as <-. lia.
Qed.

Lemma orders_follow : forall n s s', n <= G -> follows s st0 -> vseq (flat_map (fun i => [TI b i; TM0 b i]) (seq 0 n)) s s' -> follows s' (srch n).
Proof.
  induction n as [|n IH]; intros s s' Hn F V.
  - inversion V; subst. exact F.
  - rewrite seq_S, flat_map_app in V. apply vs_app in V. destruct V as (m & V1 & V2). specialize (IH s m ltac:(lia) F V1).
    cbn [flat_map app plus] in V2. inversion V2 as [|? ? ? m1 ? C1 V3]; subst. inversion V3 as [|? ? ? m2 ? C2 V4]; subst. inversion V4; subst.
    rewrite search_S. eapply step_follows; eauto; try lia. intros j E. apply part_bound in E. lia.
Qed.

Lemma chosen_exists : exists i, chosen b i.
Proof.
  destruct (first_accepted prec emax Qs Qe tol G) as [(i & A1 & A2 & A3)|A].
  - exists i. split; auto.
  - exists (G - 1). pose proof G_pos. split; [lia|]. split; auto. intros j Hj. apply A. lia.
Qed.
Lemma chosen_at : forall i, chosen b i -> at_order nmax_of Qs Qe (srch G) i.
Proof.
  intros i (A1 & A2 & A3).
  destruct (accepted_dec prec emax Qs Qe tol i) as [A|A].
  - destruct (search_found prec emax nmax_of Qs Qe tol G i A1 A2 A) as (Q & _). exact Q.
  - destruct A3 as [A3|A3]; [contradiction|]. subst i.
    destruct (search_not_found prec emax nmax_of Qs Qe tol G G_pos) as (Q & _); auto.
    intros j Hj. destruct (Nat.eq_dec j (G - 1)) as [->|]; auto. apply A2. lia.
Qed.

Lemma ks_in : forall k, In k (ks c) <-> flag c k = true.
Proof. apply in_ks. Qed.

(** the remaining tasks of the block *)
Lemma block_phase : forall i s s', chosen b i -> shared_ok s ->
  (forall x, vblock x = Some b -> s x = initial x) -> s (DConv b) = Cnv conv0 -> (forall k, s (DUn k b) = Data (k_blank K k)) ->
  vseq (canon_block c b) s s' ->
  shared_ok s' /\ (forall k, flag c k = true -> s' (DUn k b) = Data (sp_single k b i)) /\
  (forall x, vblock x <> Some b -> x <> DConv b -> (forall k, x <> DUn k b) -> s' x = s x).
Proof.
  intros i s s' HC HS HF HCv HUn V.
  assert (FR: forall x, vblock x <> Some b -> x <> DConv b -> (forall k, x <> DUn k b) -> s' x = s x).
  { intros x X1 X2 X3. eapply seq_out; [|exact V]. intros t Ht. destruct (canon_block_good c G_pos M_pos 1 Nat.lt_0_1 b t Hb Ht) as (Hi & Hbl).
    split; auto. intros W.
    assert (Hbl': block_of t = Some b).
    { clear -Ht. unfold canon_block in Ht. repeat (apply in_app_or in Ht; destruct Ht as [Ht|Ht]).
      - apply in_flat_map in Ht. destruct Ht as (i & _ & [<-|[<-|[]]]); reflexivity.
      - apply in_map_iff in Ht. destruct Ht as (i & <- & _). reflexivity.
      - destruct Ht as [<-|[]]. reflexivity.
      - apply in_map_iff in Ht. destruct Ht as (i & <- & _). reflexivity.
      - destruct Ht as [<-|[<-|[<-|[]]]]; reflexivity. }
    pose proof (sm b Hb) as Esm. clear - W X1 X2 X3 Hbl' Hb Esm.
    destruct t; cbn in Hbl'; try discriminate; injection Hbl' as ->; cbn [writes unshared with_slots n_slot] in W; try rewrite Esm in W;
      repeat (destruct W as [W|W] || destruct W as (? & W)); subst x; try (cbn in X1; apply X1; auto; fail); try (eapply X2; reflexivity);
      try (eapply X3; reflexivity); apply X1; cbn [vblock]; rewrite ?hf0, ?hf1; reflexivity. }
  assert (HSH: shared_ok s').
  { clear - HS FR. unfold shared_ok in *.
    assert (A: forall t, s' (DOwn t) = s (DOwn t)) by (intros; apply FR; discriminate).
    assert (A': forall p, s' (DIV p) = s (DIV p)) by (intros; apply FR; discriminate).
    setoid_rewrite A. setoid_rewrite A'. exact HS. }
  split; [exact HSH|]. split; [|exact FR].
  intros k Hk.
  unfold canon_block in V. apply vs_app in V. destruct V as (s1 & V1 & V). apply vs_app in V. destruct V as (s2 & V2 & V).
  apply vs_app in V. destruct V as (s3 & V3 & V). apply vs_app in V. destruct V as (s4 & V4 & V5).
  assert (F0: follows s st0).
  { split; [exact HS|]. repeat split; auto; rewrite HF; auto; cbn [vblock]; rewrite hf0; auto. }
  pose proof (orders_follow G s s1 (le_n _) F0 V1) as (S1 & S2 & S3 & S4 & S5).
  destruct (chosen_at i HC) as (A1 & A2 & A3 & A4 & A5 & A6 & A7 & A8 & A9 & A10).
  rewrite A4 in S3. rewrite A5 in S4. rewrite A6 in S5.
  assert (Hi: i < G) by apply HC.
  assert (Hn: nmax_of i <= o_max c) by (unfold nmax_of; pose proof G_eq; lia).
  (* untouched blocks of both matrices *)
  assert (Z1: forall m, 0 < m -> s1 (DTb (2 * b) m) = Data (k_zero K)).
  { intros m Hm. rewrite (fun Hq => seq_out _ s s1 (DTb (2 * b) m) Hq V1); auto.
    - rewrite HF; auto. cbn [vblock]. rewrite hf0. auto.
    - intros t Ht. apply in_flat_map in Ht. destruct Ht as (j & Hj & Ht). apply in_seq in Hj.
      destruct Ht as [<-|[<-|[]]]; (split; [split; auto; lia|wr]); [discriminate|]. intros [W|[W|W]]; try discriminate. injection W. lia. }
  assert (Z2: forall x, vblock x = Some b -> x <> DInter b -> x <> DTm (2 * b) -> (forall m, x <> DTb (2 * b) m) -> s1 x = initial x).
  { intros x X0 X1 X2 X3. rewrite (fun Hq => seq_out _ s s1 x Hq V1); auto. intros t Ht. apply in_flat_map in Ht. destruct Ht as (j & Hj & Ht). apply in_seq in Hj.
    destruct Ht as [<-|[<-|[]]]; (split; [split; auto; lia|wr]); auto. intros [W|[W|W]]; auto. eapply X3; eauto. subst x. discriminate. }
  assert (Z3: forall k', s1 (DUn k' b) = Data (k_blank K k')).
  { intros k'. rewrite (fun Hq => seq_out _ s s1 (DUn k' b) Hq V1); auto. intros t Ht. apply in_flat_map in Ht. destruct Ht as (j & Hj & Ht). apply in_seq in Hj.
    destruct Ht as [<-|[<-|[]]]; (split; [split; auto; lia|wr]); [discriminate|]. intros [W|[W|W]]; discriminate. }
  (* m > 0 *)
  assert (MA: forall n s' s'', n <= o_max c -> vseq (map (fun i => TMA b (i + 1)) (seq 0 n)) s' s'' -> s' = s1 ->
    (forall x, (forall m, 1 <= m <= n -> x <> DTb (2 * b) m) -> s'' x = s1 x) /\
    (forall m, 1 <= m <= n -> s'' (DTb (2 * b) m) = Data (if m <=? nmax_of i then sp_T b i m else k_zero K))).
  { induction n as [|n IH]; intros sa sb Hm Vs Es.
    - inversion Vs; subst. split; auto. intros; lia.
    - rewrite seq_S, map_app in Vs. apply vs_app in Vs. destruct Vs as (sm' & Va & Vb). destruct (IH sa sm' ltac:(lia) Va Es) as (I1 & I2).
      cbn [map plus] in Vb. inversion Vb as [|? ? ? sx ? C1 C2]; subst. inversion C2; subst.
      assert (Tt: task_in c (TMA b (n + 1))) by (cbn; lia).
      assert (O: forall x, x <> DTb (2 * b) (n + 1) -> sb x = sm' x) by (intros x Hx; eapply eff_out; [exact Tt|exact C1|]; wr; auto).
      split.
      + intros x Hx. rewrite O by (apply Hx; lia). apply I1. intros m Hm'. apply Hx. lia.
      + intros m Hm'. destruct (Nat.eq_dec m (n + 1)) as [->|Hne].
        * rewrite (eff_in _ _ _ _ Tt C1) by (wr; auto). cbn [new].
          assert (Y: forall x, (forall m, x <> DTb (2 * b) m) -> sm' x = s1 x) by (intros x Hx; apply I1; auto).
          rewrite (Y (DConv b)) by discriminate. rewrite S2. cbn [cnv]. rewrite A2.
          assert (Yt: sm' (DTb (2 * b) (n + 1)) = Data (k_zero K)).
          { rewrite I1; [apply Z1; lia|]. intros m' Hm'' E. injection E. lia. }
          destruct (Nat.ltb_spec (nmax_of i) (n + 1)) as [Hl|Hl].
          -- destruct (Nat.leb_spec (n + 1) (nmax_of i)); [lia|]. auto.
          -- destruct (Nat.leb_spec (n + 1) (nmax_of i)); [|lia]. rewrite A1. rewrite (proj2 (Nat.ltb_lt i G) Hi), Yt.
             rewrite (Y (DIV (b / S_))), (Y (DOwn TN)), (Y (DOwn (TG i))), (Y (DOwn (TPG (b mod S_) i))), (Y (DInter b)), (Y (DOwn (TWD i))) by discriminate.
             destruct S1 as (Q1 & Q2 & _ & Q4). destruct (Q2 i Hi) as (R1 & R2 & R3). rewrite Q1, Q4, R1, R2, (R3 _ S_pos), S5.
             unfold sp_T. destruct (Nat.eqb_spec (n + 1) 0); [lia|]. reflexivity.
        * rewrite O by (intros E; injection E; lia). apply I2. lia. }
  destruct (MA (o_max c) s1 s2 (le_n _) V2 eq_refl) as (M1 & M2).
  assert (T2: forall m, m <= nmax_of i -> s2 (DTb (2 * b) m) = Data (sp_T b i m)).
  { intros m Hm. destruct m as [|m].
    - rewrite M1 by (intros m' Hm' E; injection E; lia). rewrite S4. reflexivity.
    - rewrite M2 by lia. destruct (Nat.leb_spec (S m) (nmax_of i)); [auto|lia]. }
  (* orientation average *)
  inversion V3 as [|? ? ? sx ? C3 C3']; subst. inversion C3'; subst. clear C3' V3.
  assert (Tal: task_in c (TAL b)) by exact Hb.
  assert (N2: s2 (DTm (2 * b)) = Tm (nmax_of i) (t_Qs (s_T (srch G))) (t_Qe (s_T (srch G))) (t_change (s_T (srch G)))) by (rewrite M1 by discriminate; exact S3).
  assert (X2: forall x, vblock x = Some b -> x <> DInter b -> x <> DTm (2 * b) -> (forall m, x <> DTb (2 * b) m) -> s2 x = initial x).
  { intros x X0 X1 X2 X3. rewrite M1 by auto. apply Z2; auto. }
  assert (N3: tm_nmax (s3 (DTm (2 * b + 1))) = nmax_of i).
  { rewrite (eff_in _ _ _ _ Tal C3) by (wr; auto). cbn [new]. rewrite N2. cbn [tm_nmax]. destruct (s2 (DTm (2 * b + 1))); reflexivity. }
  assert (T3: forall m, m <= nmax_of i -> s3 (DTb (2 * b + 1) m) = Data (sp_ensemble b i m)).
  { intros m Hm. rewrite (eff_in _ _ _ _ Tal C3) by (wr; eauto). cbn [new]. rewrite N2. cbn [tm_nmax].
    destruct (Nat.leb_spec m (nmax_of i)); [|lia]. unfold sp_ensemble. f_equal. f_equal.
    - apply map_ext_in. intros m' Hm'. apply in_seq in Hm'. rewrite T2 by lia. reflexivity.
    - rewrite X2; try discriminate; auto.
      + cbn [vblock]. rewrite hf1. auto.
      + intros m' E. injection E. lia. }
  assert (O3: forall x, vblock x = None -> s3 x = s2 x).
  { intros x Hx. eapply eff_out; [exact Tal|exact C3|]. wr. intros [W|(m & W)]; subst x; discriminate. }
  assert (O2: forall x, vblock x = None -> s2 x = s1 x) by (intros x Hx; apply M1; intros m _ ->; discriminate).
  (* coefficients *)
  assert (CO: forall l sa sb, (forall k', In k' l -> flag c k' = true) -> NoDup l -> vseq (map (fun k' => TC k' b) l) sa sb ->
    (forall x, (forall k', x <> DUn k' b) -> sa x = s3 x) ->
    (forall k', In k' l -> sa (DUn k' b) = Data (k_blank K k')) ->
    forall k', In k' l -> sb (DUn k' b) = Data (sp_single k' b i)).
  { induction l as [|a l IH]; intros sa sb Hl ND Vs Eq Eb k' Hk'; [destruct Hk'|].
    cbn [map] in Vs. inversion Vs as [|? ? ? sy ? Cc Vc]; subst. inversion ND as [|? ? ND1 ND2]; subst.
    assert (Ta: task_in c (TC a b)) by (split; [apply Hl; cbn; auto|auto]).
    assert (Oa: forall x, x <> DUn a b -> sy x = sa x) by (intros x Hx; eapply eff_out; [exact Ta|exact Cc|]; wr; auto).
    assert (Ya: sy (DUn a b) = Data (sp_single a b i)).
    { rewrite (eff_in _ _ _ _ Ta Cc) by (wr; auto). cbn [new]. rewrite (Eb a) by (cbn; auto).
      rewrite !Eq by discriminate. rewrite N3. unfold sp_single.
      destruct S1 as (Q1 & _ & Q3 & Q4). destruct (Q3 a ltac:(apply Hl; cbn; auto)) as (R1 & R2).
      rewrite (O3 (DIV _)), (O2 (DIV _)), (O3 (DOwn TN)), (O2 (DOwn TN)), (O3 (DOwn (TGrid a))), (O2 (DOwn (TGrid a))), (O3 (DOwn (TSW a))), (O2 (DOwn (TSW a))) by reflexivity.
      rewrite Q1, Q4, R1, R2. cbn [dat]. f_equal. f_equal. apply map_ext_in. intros m Hm. apply in_seq in Hm.
      rewrite Eq by discriminate. rewrite T3 by lia. reflexivity. }
    destruct Hk' as [<-|Hk'].
    - rewrite (fun Hq => seq_out _ sy sb (DUn a b) Hq Vc); auto. intros t Ht. apply in_map_iff in Ht. destruct Ht as (k2 & <- & Hk2).
      split; [split; [apply Hl; cbn; auto|auto]|]. wr. intros E. injection E as ->. contradiction.
    - apply (IH sy sb); auto.
      + intros k2 H2. apply Hl. cbn. auto.
      + intros x Hx. rewrite Oa by auto. auto.
      + intros k2 H2. rewrite Oa; [apply Eb; cbn; auto|]. intros E. injection E as ->. contradiction. }
  assert (U4: s4 (DUn k b) = Data (sp_single k b i)).
  { apply (CO (ks c) s3 s4); auto.
    - intros k' Hk'. apply in_ks. auto.
    - apply NoDup_filter. unfold kinds. repeat constructor; cbn; intuition discriminate.
    - intros k' _. rewrite O3, O2 by reflexivity. apply Z3.
    - apply in_ks. auto. }
  rewrite (fun Hq => seq_out _ s4 s' (DUn k b) Hq V5); auto. intros t [<-|[<-|[<-|[]]]]; (split; [exact Hb|wr]); intros W;
    repeat (destruct W as [W|W] || destruct W as (? & W)); discriminate.
Qed.
End Block.

Lemma orders_exist : exists ord, forall b, b < B -> chosen b (ord b).
Proof.
  assert (H: forall n, n <= B -> exists ord, forall b, b < n -> chosen b (ord b)).
  { induction n as [|n IH]; intros Hn; [exists (fun _ => 0); intros; lia|].
    destruct (IH ltac:(lia)) as (ord & Ho). destruct (chosen_exists n ltac:(lia)) as (i & Hi).
    exists (fun b => if b =? n then i else ord b). intros b Hb. destruct (Nat.eqb_spec b n) as [->|]; auto. apply Ho. lia. }
  apply H. auto.
Qed.

(** all blocks *)
Lemma blocks_phase : forall ord, (forall b, b < B -> chosen b (ord b)) -> forall n s s', n <= B -> shared_ok s ->
  (forall x, (forall t, x <> DOwn t) -> s x = initial x) ->
  vseq (flat_map (canon_block c) (seq 0 n)) s s' ->
  shared_ok s' /\ (forall k b, flag c k = true -> b < n -> s' (DUn k b) = Data (sp_single k b (ord b))) /\
  (forall x b, n <= b -> vblock x = Some b -> s' x = initial x) /\
  (forall b, n <= b -> s' (DConv b) = Cnv conv0 /\ forall k, s' (DUn k b) = Data (k_blank K k)) /\
  (forall k p, s' (DRes k p) = Data (k_blank K k)).
Proof.
  intros ord Ho. induction n as [|n IH]; intros s s' Hn HS HF V.
  - inversion V; subst. split; [auto|]. split; [intros; lia|]. split; [intros x b _ Hx; apply HF; intros t ->; discriminate|].
    split; [intros b _; split; [|intros k]; apply HF; discriminate|]. intros; apply HF; discriminate.
  - rewrite seq_S, flat_map_app in V. apply vs_app in V. destruct V as (m & V1 & V2).
    destruct (IH s m ltac:(lia) HS HF V1) as (I1 & I2 & I3 & I4 & I5).
    cbn [flat_map plus] in V2. rewrite app_nil_r in V2.
    destruct (I4 n (le_n _)) as (I4a & I4b).
    destruct (block_phase n ltac:(lia) (ord n) m s' (Ho n ltac:(lia)) I1 (fun x Hx => I3 x n (le_n _) Hx) I4a I4b V2) as (J1 & J2 & J3).
    split; [auto|]. split; [|split; [|split]].
    + intros k b Hk Hb. destruct (Nat.eq_dec b n) as [->|Hne]; [auto|]. rewrite J3; [apply I2; auto; lia|discriminate|discriminate|].
      intros k' E. injection E. lia.
    + intros x b Hb Hx. rewrite J3; [apply (I3 x b); [lia|auto]|rewrite Hx; intros E; injection E; lia| |]; intros; intros ->; discriminate.
    + intros b Hb. split; [|intros k]; (rewrite J3; [apply I4; lia|discriminate|intros E; try discriminate; injection E; lia|intros k' E; try discriminate; injection E; lia]).
    + intros k p. rewrite J3; [auto|discriminate|discriminate|discriminate].
Qed.

(** averages over the shapes *)
Lemma averages_phase : forall ord s s', (forall k b, flag c k = true -> b < B -> s (DUn k b) = Data (sp_single k b (ord b))) ->
  (forall k p, s (DRes k p) = Data (k_blank K k)) -> vseq (canon_av c) s s' ->
  forall k p, flag c k = true -> p < P -> s' (DRes k p) = Data (sp_result k ord p).
Proof.
  intros ord s s' HU HR V.
  assert (G1: forall l s s', NoDup l -> (forall t, In t l -> exists k p, t = TAv k p /\ flag c k = true /\ p < P) ->
    (forall k b, flag c k = true -> b < B -> s (DUn k b) = Data (sp_single k b (ord b))) ->
    (forall k p, In (TAv k p) l -> s (DRes k p) = Data (k_blank K k)) -> vseq l s s' ->
    forall k p, In (TAv k p) l -> s' (DRes k p) = Data (sp_result k ord p)).
  { clear - HE. induction l as [|t l IH]; intros s s' ND HL HU HR V k p Hin; [destruct Hin|].
    inversion V as [|? ? ? s1 ? C1 C2]; subst. inversion ND as [|? ? ND1 ND2]; subst.
    destruct (HL t ltac:(cbn; auto)) as (k1 & p1 & -> & Hk1 & Hp1).
    assert (Tt: task_in c (TAv k1 p1)) by (split; auto).
    assert (O: forall x, x <> DRes k1 p1 -> s1 x = s x) by (intros x Hx; eapply eff_out; [exact Tt|exact C1|]; cbn; auto).
    destruct Hin as [E|Hin].
    - injection E as -> ->. rewrite (fun Hq => seq_out l s1 s' (DRes k p) Hq C2); auto.
      + rewrite (eff_in _ _ _ _ Tt C1) by (cbn; auto). cbn [new]. rewrite HR by (cbn; auto). unfold sp_result. cbn [dat]. f_equal. f_equal.
        apply map_ext_in. intros is His. apply in_seq in His. rewrite HU; auto. apply block_split; auto. lia.
      + intros t Ht. destruct (HL t ltac:(cbn; auto)) as (k2 & p2 & -> & A1 & A2). split; [split; auto|]. cbn. intros E. injection E as -> ->. contradiction.
    - apply (IH s1 s'); auto.
      + intros t Ht. apply HL. cbn. auto.
      + intros k2 b2 A1 A2. rewrite O by discriminate. auto.
      + intros k2 p2 A. rewrite O; [apply HR; cbn; auto|]. intros E. injection E as -> ->. contradiction. }
  assert (M: forall k p, In (TAv k p) (canon_av c) <-> flag c k = true /\ p < P).
  { intros k p. unfold canon_av. rewrite in_flat_map. split.
    - intros (q & Hq & H). apply in_map_iff in H. destruct H as (k' & E & Hk'). injection E as -> ->. apply in_seq in Hq. apply in_ks in Hk'. split; auto. lia.
    - intros (Hk & Hp). exists p. split; [apply in_seq; lia|]. apply in_map_iff. exists k. split; auto. apply in_ks. auto. }
  intros k p Hk Hp. apply (G1 (canon_av c) s s'); auto.
  - assert (ND: NoDup (canon c)).
    { eapply Permutation_NoDup; [apply (canon_perm c 1); lia|]. apply NoDup_tasks; cbn; lia. }
    unfold canon in ND. apply nodup_suffix in ND. apply nodup_suffix in ND. exact ND.
  - intros t Ht. pose proof Ht as Ht'. unfold canon_av in Ht. apply in_flat_map in Ht. destruct Ht as (q & Hq & Ht). apply in_map_iff in Ht.
    destruct Ht as (k' & <- & Hk'). exists k', q. split; auto. apply M. auto.
  - apply M. auto.
Qed.

(** Every complete run, with any number of slots, threads and queues. *)
Theorem whole : forall ord, (forall b, b < B -> chosen b (ord b)) -> forall N pre nq nt e s, 0 < N -> reservations pre -> 0 < nt ->
  running nq (generated (with_slots c N) pre) nt e -> all_exited e ->
  executed (with_slots c N) val L (slotted c val L vcode N) start initial (log (gl e)) s ->
  forall k p, flag c k = true -> p < P -> s (DRes k p) = Data (sp_result k ord p).
Proof.
  intros ord Ho N pre nq nt e s HN HP Hn Hr Hx HEx k p Hk Hp.
  destruct (to_canon c val L vcode start G_pos M_pos HV initial N pre nq nt e s HN HP Hn Hr Hx HEx) as (z & Q & A).
  destruct (canon_sim c val L vcode start G_pos M_pos HV N HN initial init_uniform init_resets z Q) as (y & Vy & By).
  rewrite A, By by reflexivity. unfold canon in Vy. apply vs_app in Vy. destruct Vy as (y1 & V1 & Vy). apply vs_app in Vy. destruct Vy as (y2 & V2 & V3).
  destruct (shared_phase y1 V1) as (S1 & S2).
  destruct (blocks_phase ord Ho B y1 y2 (le_n _) S1 S2 V2) as (_ & I2 & _ & _ & I5).
  eapply averages_phase; eauto.
Qed.
End Whole.

(* ------------------------------------------------------ every run has an outcome *)
(** The whole of execute() as one step. *)
Section OneStep.
Variable c : cfg.
Variable D : Type.
Variable K : kernels D.
Variables prec emax : Z.
Variable tol : spec_float.
Notation S_ := (n_shape c).
Notation B := (n_block c).
Definition one_code (t : task) (l : bool) (s : cell -> val D) : option (bool * (cell -> val D)) :=
  if l then None else Some (true, effect c D K prec emax tol t s).
Definition one_start (t : task) : bool := false.

Lemma new_local : forall t s1 s2, task_in c t -> (forall x, writes (unshared c) t x \/ reads (unshared c) t x -> s1 x = s2 x) ->
  forall x, writes (unshared c) t x -> new c D K prec emax tol t s1 x = new c D K prec emax tol t s2 x.
Proof.
  intros t s1 s2 Ht H x W.
  assert (Hx: s1 x = s2 x) by (apply H; auto).
  assert (E: forall b, b < B -> b mod S B = b) by (intros; apply Nat.mod_small; lia).
  assert (M: forall l f g, (forall m : nat, In m l -> f m = g m) -> map (fun m => dat D K (f m)) l = map (fun m => dat D K (g m)) l).
  { intros l f g Hl. apply map_ext_in. intros m Hm. rewrite Hl; auto. }
  destruct t as [ |i|k|k|i|is i|k p|b i|b i|b|k b|b|b|b|b m]; cbn [new]; cbn [writes reads unshared with_slots n_slot task_in n_shape] in *; auto.
  - rewrite (H (DOwn (TGrid k))) by auto. reflexivity.
  - rewrite (H (DOwn (TG i))) by auto. reflexivity.
  - rewrite (H (DOwn (TG i))) by auto. reflexivity.
  - rewrite (M _ (fun is => s1 (DUn k (p * S_ + is))) (fun is => s2 (DUn k (p * S_ + is)))).
    + rewrite Hx. reflexivity.
    + intros is His. apply in_seq in His. apply H. right. exists (p * S_ + is). destruct Ht as (_ & Hp).
      destruct (block_split c p is Hp ltac:(lia)) as (Q1 & Q2 & _). split; [exact Q1|]. split; auto.
  - destruct Ht as (Hb & Hi). rewrite (H (DConv b)), (H (DIV (b / S_))), (H (DOwn (TPG (b mod S_) i))) by auto. rewrite Hx. reflexivity.
  - destruct Ht as (Hb & Hi). rewrite E in H by auto. unfold m0_of.
    rewrite (H (DConv b)), (H (DTm (2 * b))), (H (DOwn TN)), (H (DOwn (TG i))), (H (DOwn (TPG (b mod S_) i))), (H (DIV (b / S_))), (H (DInter b)), (H (DOwn (TWD i))) by tauto.
    rewrite Hx. reflexivity.
  - rewrite E in * by auto. rewrite (H (DTm (2 * b))) by auto.
    rewrite (M _ (fun m => s1 (DTb (2 * b) m)) (fun m => s2 (DTb (2 * b) m))) by (intros m _; apply H; eauto). rewrite Hx. reflexivity.
  - destruct Ht as (Hb & Hi). rewrite E in * by auto. rewrite (H (DTm (2 * b + 1))) by auto.
    rewrite (M _ (fun m => s1 (DTb (2 * b + 1) m)) (fun m => s2 (DTb (2 * b + 1) m))) by (intros m _; apply H; eauto 6).
    rewrite (H (DIV (b / S_))), (H (DOwn TN)), (H (DOwn (TGrid k))), (H (DOwn (TSW k))) by tauto. rewrite Hx. reflexivity.
  - destruct Ht as (Hb & Hm). rewrite E in * by auto. rewrite (H (DConv b)) by tauto. rewrite Hx.
    destruct (c_nmax (cnv D (s2 (DConv b))) <? m); auto. destruct (c_order (cnv D (s2 (DConv b)))) as [i|]; auto.
    destruct (Nat.ltb_spec i (n_quad c)) as [Hl|]; auto.
    rewrite (H (DIV (b / S_))), (H (DOwn TN)), (H (DInter b)) by tauto.
    rewrite (H (DOwn (TG i))), (H (DOwn (TPG (b mod S_) i))), (H (DOwn (TWD i))) by (right; do 4 right; exists i; tauto). reflexivity.
Qed.

Lemma one_respects : respects_footprint (unshared c) (val D) bool one_code.
Proof.
  split.
  - intros t [|] s l' s' _ E x Hx; cbn in E; [discriminate|]. injection E as <- <-. unfold effect. destruct (writes_dec (unshared c) t x); [contradiction|auto].
  - intros t [|] s1 s2 Ht H; cbn; auto. split; auto. intros x Hx. unfold effect. destruct (writes_dec (unshared c) t x) as [w|w]; auto.
    apply new_local; auto.
Qed.
Lemma one_steps : forall t s, psteps cell (val D) bool (fun _ => one_code t) 0 (one_start t) s true (effect c D K prec emax tol t s).
Proof. intros. eapply ps_step; [constructor|reflexivity]. Qed.
Lemma one_effect : forall t s s', task_in c t -> completes (val D) bool one_code one_start t s s' -> forall x, s' x = effect c D K prec emax tol t s x.
Proof.
  intros t s s' _ H x. assert (E: s' = effect c D K prec emax tol t s); [|rewrite E; reflexivity].
  eapply (completes_det (val D) bool one_code one_start); [exact H|]. exists true. split; [apply one_steps|reflexivity].
Qed.
Lemma one_terminating : forall N, terminating (with_slots c N) (val D) bool (slotted c (val D) bool one_code N) one_start.
Proof. intros N t s Ht. eexists true, _. split; [eapply ps_step; [constructor|reflexivity]|reflexivity]. Qed.
Lemma one_outcome : forall N pre nq nt e, 0 < N -> 0 < n_quad c -> 0 < o_max c -> reservations pre -> 0 < nt ->
  running nq (generated (with_slots c N) pre) nt e -> all_exited e ->
  exists s, executed (with_slots c N) (val D) bool (slotted c (val D) bool one_code N) one_start (initial D K) (log (gl e)) s.
Proof.
  intros N pre nq nt e HN HG HM HP Hn Hr Hx.
  apply (executed_exists (with_slots c N) (val D) bool _ one_start HN HG HM pre HP
    (slotted_footprint c (val D) bool one_code HG HM one_respects N) (one_terminating N) nq nt e (initial D K) Hn Hr Hx).
Qed.
End OneStep.
