(** The results do not depend on the number of T-matrix slots: storage reused
    for a later block has been reset, so every block sees fresh storage. *)
From Coq Require Import List Arith Lia Bool ZArith Permutation Relation_Operators Operators_Properties Sorted.
From Verif Require Import Base LockProto Sched Api Races TaskGraph TaskGraphFacts TaskDeps Footprint GraphApi GraphHist GraphRun Determinism.
Import ListNotations.

Definition with_slots (c : cfg) (N : nat) : cfg :=
  mkCfg (n_comp c) (n_size c) (n_wav c) (n_shape c) (o_min c) (o_max c) N (flag c).
(** Enough slots for every block to have its own. *)
Definition unshared (c : cfg) : cfg := with_slots c (S (n_block c)).

(** Storage of block b (with its own slot) when there are only N slots. *)
Definition place (N : nat) (x : cell) : cell :=
  match x with
  | DInter b => DInter (b mod N)
  | DTm j => DTm (2 * ((j / 2) mod N) + j mod 2)
  | DTb j m => DTb (2 * ((j / 2) mod N) + j mod 2) m
  | _ => x
  end.
(** The reverse, for a task of block b. *)
Definition back (t : task) (y : cell) : cell :=
  match block_of t, y with
  | Some b, DInter _ => DInter b
  | Some b, DTm j => DTm (2 * b + j mod 2)
  | Some b, DTb j m => DTb (2 * b + j mod 2) m
  | _, _ => y
  end.

(** block (or slot) a storage cell belongs to *)
Definition vblock (x : cell) : option nat :=
  match x with DInter b => Some b | DTm j | DTb j _ => Some (j / 2) | _ => None end.

Lemma Some_inj : forall (A : Type) (a b : A), Some a = Some b -> a = b.
Proof. congruence. Qed.

Section Slots.
Variable c : cfg.
Variables (V L : Type).
(** execute() of every task, written for unshared storage. *)
Variable vcode : task -> L -> (cell -> V) -> option (L * (cell -> V)).
Variable start : task -> L.

(** The same code working on slot (b mod N) instead of b. *)
Definition slotted (N : nat) (t : task) (l : L) (s : cell -> V) : option (L * (cell -> V)) :=
  match vcode t l (fun x => s (place N x)) with
  | None => None
  | Some (l', v) => Some (l', fun y => if writes_dec (with_slots c N) t y then v (back t y) else s y)
  end.

(** The reset tasks restore the state of newly constructed storage
    (TMatrixResource.hpp 122-131 and 1271-1282, InteractionResource.hpp 194-200
    and 589-606), which is the same for all slots. *)
Definition completes (t : task) (s s' : cell -> V) : Prop :=
  exists l, psteps cell V L (fun _ => vcode t) 0 (start t) s l s' /\ vcode t l s' = None.
Definition uniform (s0 : cell -> V) : Prop :=
  (forall r, s0 (DInter r) = s0 (DInter 0)) /\ (forall j, s0 (DTm j) = s0 (DTm 0)) /\ (forall j m, s0 (DTb j m) = s0 (DTb 0 m)).
Definition resets (s0 : cell -> V) : Prop := forall b s s', b < n_block c ->
  (completes (TR1 b) s s' -> s' (DTm (2 * b)) = s0 (DTm 0) /\ forall m, s' (DTb (2 * b) m) = s0 (DTb 0 m)) /\
  (completes (TR2 b) s s' -> s' (DTm (2 * b + 1)) = s0 (DTm 0) /\ forall m, s' (DTb (2 * b + 1) m) = s0 (DTb 0 m)) /\
  (completes (TR3 b) s s' -> s' (DInter b) = s0 (DInter 0)).

Hypothesis HG : 0 < n_quad c.
Hypothesis HM : 0 < o_max c.
Hypothesis HV : respects_footprint (unshared c) V L vcode.
Notation cv := (unshared c).
Notation vw := (writes cv).
Notation vr := (reads cv).
Notation vfp t x := (vw t x \/ vr t x).
Notation B := (n_block c).

Lemma small_mod : forall b, b < B -> b mod S B = b.
Proof. intros. apply Nat.mod_small. lia. Qed.
Lemma half2 : forall a i, i < 2 -> (2 * a + i) / 2 = a.
Proof. intros a i H. replace (2 * a + i) with (a * 2 + i) by lia. rewrite Nat.div_add_l by lia. rewrite Nat.div_small; lia. Qed.
Lemma par2 : forall a i, i < 2 -> (2 * a + i) mod 2 = i.
Proof. intros a i H. replace (2 * a + i) with (i + a * 2) by lia. rewrite Nat.mod_add by lia. apply Nat.mod_small. auto. Qed.
Lemma j2 : forall j, 2 * (j / 2) + j mod 2 = j.
Proof. intros. symmetry. apply Nat.div_mod. lia. Qed.
Lemma mod2_lt : forall j, j mod 2 < 2.
Proof. intros. apply Nat.mod_upper_bound. lia. Qed.
Lemma half0 : forall a, 2 * a / 2 = a.
Proof. intros a. rewrite <- (Nat.add_0_r (2 * a)). apply half2. lia. Qed.
Lemma par0 : forall a, (2 * a) mod 2 = 0.
Proof. intros a. rewrite <- (Nat.add_0_r (2 * a)). apply par2. lia. Qed.
Lemma half1 : forall a, (2 * a + 1) / 2 = a.
Proof. intros. apply half2. lia. Qed.
Lemma par1 : forall a, (2 * a + 1) mod 2 = 1.
Proof. intros. apply par2. lia. Qed.

Section OneN.
Variable N : nat.
Hypothesis HN : 0 < N.
Notation cN := (with_slots c N).

Ltac norm := cbn [unshared with_slots n_slot n_shape n_comp n_size n_wav] in *.

(** Footprints correspond. *)
Lemma fp_place : forall t x, task_in c t -> (vw t x -> writes cN t (place N x)) /\ (vr t x -> reads cN t (place N x)) /\
  (vfp t x -> back t (place N x) = x).
Proof.
  intros t x Ht. destruct t; cbn in Ht; unfold back; cbn [writes reads block_of unshared with_slots n_slot n_shape];
    rewrite ?small_mod by tauto; (split; [|split]).
  all: try (intros ->; cbn [place]; repeat rewrite ?half0, ?par0, ?half1, ?par1, ?Nat.add_0_r; reflexivity).
  all: intros H; repeat match goal with
    | H : _ \/ _ |- _ => destruct H as [H|H]
    | H : exists _, _ |- _ => destruct H as (? & H)
    | H : _ /\ _ |- _ => destruct H
    | H : False |- _ => destruct H
    end; subst; cbn [place]; repeat rewrite ?half0, ?par0, ?half1, ?par1, ?Nat.add_0_r; try reflexivity; eauto 12.
Qed.

Lemma fp_back : forall t y, task_in c t -> writes cN t y -> vw t (back t y) /\ place N (back t y) = y.
Proof.
  intros t y Ht. destruct t; cbn in Ht; unfold back; cbn [writes block_of unshared with_slots n_slot n_shape];
    rewrite ?small_mod by tauto; intros H; repeat match goal with
    | H : _ \/ _ |- _ => destruct H as [H|H]
    | H : exists _, _ |- _ => destruct H as (? & H)
    end; subst; cbn [place]; repeat rewrite ?half0, ?par0, ?half1, ?par1, ?Nat.add_0_r; split; eauto.
Qed.

Lemma slotted_footprint : respects_footprint cN V L (slotted N).
Proof.
  destruct HV as (F & Lc). split.
  - intros t l s l' s' Ht E x Hx. unfold slotted in E. destruct (vcode t l (fun x => s (place N x))) as [(l1, v)|]; [|discriminate].
    injection E as <- <-. destruct (writes_dec cN t x); [contradiction|auto].
  - intros t l s1 s2 Ht H. unfold slotted.
    assert (K: forall x, vfp t x -> s1 (place N x) = s2 (place N x)).
    { intros x Hx. apply H. destruct (fp_place t x Ht) as (A1 & A2 & _). destruct Hx; auto. }
    specialize (Lc t l (fun x => s1 (place N x)) (fun x => s2 (place N x)) Ht K).
    destruct (vcode t l (fun x => s1 (place N x))) as [(l1, v1)|], (vcode t l (fun x => s2 (place N x))) as [(l2, v2)|]; auto.
    destruct Lc as (El & Lc). split; auto. intros y Hy. destruct (writes_dec cN t y) as [w|w].
    + apply Lc. left. apply fp_back; auto.
    + apply H. auto.
Qed.

(** One task, on shared and on unshared storage. *)
Definition sees (t : task) (s s' : cell -> V) : Prop := forall x, vfp t x -> s (place N x) = s' x.

Lemma step_sim : forall t l s l1 s1 s', task_in c t -> sees t s s' -> slotted N t l s = Some (l1, s1) ->
  exists s1', vcode t l s' = Some (l1, s1') /\ sees t s1 s1'.
Proof.
  intros t l s l1 s1 s' Ht H E. unfold slotted in E. destruct HV as (F & Lc).
  specialize (Lc t l (fun x => s (place N x)) s' Ht H).
  destruct (vcode t l (fun x => s (place N x))) as [(l2, v)|] eqn:E1; [|discriminate]. injection E as <- <-.
  destruct (vcode t l s') as [(l3, v')|]; [|contradiction]. destruct Lc as (<- & Lc). exists v'. split; auto.
  intros x Hx. destruct (fp_place t x Ht) as (A1 & A2 & A3). destruct (writes_dec cN t (place N x)) as [w|w].
  - rewrite A3 by auto. auto.
  - rewrite <- (Lc x Hx). symmetry. eapply (F t l (fun x => s (place N x))); eauto.
Qed.
Lemma stop_sim : forall t l s s', task_in c t -> sees t s s' -> slotted N t l s = None -> vcode t l s' = None.
Proof.
  intros t l s s' Ht H E. unfold slotted in E. destruct HV as (F & Lc). specialize (Lc t l (fun x => s (place N x)) s' Ht H).
  destruct (vcode t l (fun x => s (place N x))) as [(l2, v)|]; [discriminate|]. destruct (vcode t l s'); [contradiction|auto].
Qed.

(** Storage during the work on block [b]: [s] shared, [s'] unshared. *)
Variable s0 : cell -> V.
Hypothesis HU : uniform s0.
Definition rel (b : nat) (s s' : cell -> V) : Prop :=
  (forall x, vblock x = None -> s x = s' x) /\
  (forall x, vblock x = Some b -> s (place N x) = s' x) /\
  (forall y r, vblock y = Some r -> r <> b mod N -> s y = s0 y) /\
  (forall x b', vblock x = Some b' -> b < b' -> s' x = s0 x).

Lemma s0_place : forall x, s0 (place N x) = s0 x.
Proof.
  destruct HU as (U1 & U2 & U3). intros x. destruct x; cbn [place]; auto.
  - rewrite U1, (U1 r). auto.
  - rewrite U2, (U2 j). auto.
  - rewrite U3, (U3 j). auto.
Qed.
Lemma rel_init : rel 0 s0 s0.
Proof.
  repeat split; auto. intros x _. apply s0_place.
Qed.

Lemma place_none : forall x, vblock x = None -> place N x = x.
Proof. destruct x; cbn; intros; congruence. Qed.
Lemma fp_block : forall t x, task_in c t -> vfp t x -> vblock x = None \/ vblock x = block_of t.
Proof.
  intros t x Ht. destruct t; cbn in Ht; cbn [writes reads block_of unshared with_slots n_slot n_shape];
    rewrite ?small_mod by tauto; intros H; repeat match goal with
    | H : _ \/ _ |- _ => destruct H as [H|H]
    | H : exists _, _ |- _ => destruct H as (? & H)
    | H : _ /\ _ |- _ => destruct H
    | H : False |- _ => destruct H
    end; subst; cbn [vblock]; rewrite ?half0, ?half1; auto.
Qed.
Lemma writes_block : forall t y, task_in c t -> writes cN t y -> vblock y = None \/ exists b, block_of t = Some b /\ vblock y = Some (b mod N).
Proof.
  intros t y Ht. destruct t; cbn in Ht; cbn [writes block_of unshared with_slots n_slot n_shape];
    intros H; repeat match goal with
    | H : _ \/ _ |- _ => destruct H as [H|H]
    | H : exists _, _ |- _ => destruct H as (? & H)
    end; subst; cbn [vblock]; rewrite ?half0, ?half1; eauto.
Qed.
Lemma back_none : forall t y, vblock y = None -> back t y = y.
Proof. intros t y H. unfold back. destruct (block_of t); auto. destruct y; cbn in H; auto; discriminate. Qed.
Lemma back_place : forall t b x, block_of t = Some b -> vblock x = Some b -> back t (place N x) = x.
Proof.
  intros t b x Hb Hx. unfold back. rewrite Hb. destruct x; cbn [place vblock] in *; try discriminate; apply Some_inj in Hx.
  - congruence.
  - rewrite par2 by apply mod2_lt. subst b. rewrite j2. auto.
  - rewrite par2 by apply mod2_lt. subst b. rewrite j2. auto.
Qed.
Lemma vblock_place : forall x b, vblock x = Some b -> vblock (place N x) = Some (b mod N).
Proof.
  intros x b H. destruct x; cbn [place vblock] in *; try discriminate; apply Some_inj in H; subst b; auto; rewrite half2 by apply mod2_lt; auto.
Qed.

Definition good (b : nat) (t : task) : Prop := task_in c t /\ (block_of t = None \/ block_of t = Some b).

Lemma rel_sees : forall b t s s', good b t -> rel b s s' -> sees t s s'.
Proof.
  intros b t s s' (Ht & Hb) (R1 & R2 & _) x Hx. destruct (fp_block t x Ht Hx) as [E|E].
  - rewrite place_none; auto.
  - destruct (vblock x) as [b'|] eqn:Ev; [|rewrite place_none; auto]. destruct Hb as [Hb|Hb]; rewrite Hb in E; [discriminate|].
    injection E as ->. auto.
Qed.

Lemma rel_step : forall b t l s l1 s1 s', good b t -> rel b s s' -> slotted N t l s = Some (l1, s1) ->
  exists s1', vcode t l s' = Some (l1, s1') /\ rel b s1 s1'.
Proof.
  intros b t l s l1 s1 s' Hg HR E. pose proof (rel_sees b t s s' Hg HR) as HS. destruct Hg as (Ht & Hb).
  destruct (step_sim t l s l1 s1 s' Ht HS E) as (s1' & E' & HS'). exists s1'. split; auto.
  destruct HR as (R1 & R2 & R3 & R4). destruct HV as (F & _). destruct slotted_footprint as (FN & _).
  pose proof (fun x => FN t l s l1 s1 Ht E x) as F1. pose proof (fun x => F t l s' l1 s1' Ht E' x) as F2.
  assert (G: forall x, (vblock x = None \/ vblock x = Some b) -> s (place N x) = s' x -> s1 (place N x) = s1' x).
  { intros x Hx Es. destruct (writes_dec cv t x) as [w|w]; [apply HS'; auto|].
    rewrite F2, F1; auto. intros w'. apply w. destruct (fp_back t _ Ht w') as (K1 & K2).
    destruct Hx as [Hx|Hx].
    - rewrite (place_none x Hx), back_none in K1; auto.
    - destruct Hb as [Hb|Hb].
      + destruct (writes_block t _ Ht w') as [K|(b1 & K & _)]; [rewrite (vblock_place x b Hx) in K; discriminate|congruence].
      + rewrite (back_place t b x Hb Hx) in K1. auto. }
  repeat split.
  - intros x Hx. rewrite <- (place_none x Hx) at 1. apply G; auto. rewrite place_none; auto.
  - intros x Hx. apply G; auto.
  - intros y r Hy Hr. rewrite F1; [eapply R3; eauto|]. intros w. destruct (writes_block t y Ht w) as [K|(b1 & K1 & K2)]; [congruence|].
    destruct Hb as [Hb|Hb]; congruence.
  - intros x b' Hx Hlt. rewrite F2; [eapply R4; eauto|]. intros w. destruct (fp_block t x Ht (or_introl w)) as [K|K]; [congruence|].
    rewrite Hx in K. destruct Hb as [Hb|Hb]; rewrite Hb in K; [discriminate|]. injection K as ->. lia.
Qed.

Lemma rel_runs : forall b t s s1 s', good b t -> rel b s s' ->
  forall l, psteps cell V L (fun _ => slotted N t) 0 (start t) s l s1 -> slotted N t l s1 = None ->
  exists s1', completes t s' s1' /\ rel b s1 s1'.
Proof.
  intros b t s s1 s' Hg HR l P E.
  assert (K: exists s1', psteps cell V L (fun _ => vcode t) 0 (start t) s' l s1' /\ rel b s1 s1').
  { clear E. generalize dependent (start t). intros l0 P. induction P as [l0 s|l0 s l1 s1 l2 s2 P IH E2].
    - exists s'. split; [constructor|auto].
    - destruct (IH HR) as (z & Pz & Rz). destruct (rel_step b t l1 s1 l2 s2 z Hg Rz E2) as (z2 & E3 & R3).
      exists z2. split; auto. econstructor; eauto. }
  destruct K as (s1' & P' & R'). exists s1'. split; auto. exists l. split; auto.
  destruct Hg as (Ht & Hb). eapply stop_sim; eauto. eapply rel_sees; eauto. split; auto.
Qed.

(** Sequences of tasks, by name. *)
Inductive vseq : list task -> (cell -> V) -> (cell -> V) -> Prop :=
| vs_nil : forall s, vseq [] s s
| vs_cons : forall t l s s1 s2, completes t s s1 -> vseq l s1 s2 -> vseq (t :: l) s s2.
Inductive nseq : list task -> (cell -> V) -> (cell -> V) -> Prop :=
| ns_nil : forall s, nseq [] s s
| ns_cons : forall t l s s1 s2 k, psteps cell V L (fun _ => slotted N t) 0 (start t) s k s1 -> slotted N t k s1 = None ->
    nseq l s1 s2 -> nseq (t :: l) s s2.

Lemma vs_app : forall a b s s', vseq (a ++ b) s s' <-> exists m, vseq a s m /\ vseq b m s'.
Proof.
  induction a as [|t a IH]; intros b s s'; cbn [app]; split.
  - intros H. exists s. split; [constructor|auto].
  - intros (m & H1 & H2). inversion H1; subst. auto.
  - intros H. inversion H as [|? ? ? s1 ? C1 C2]; subst. apply IH in C2. destruct C2 as (m & A & K). exists m. split; auto. econstructor; eauto.
  - intros (m & H1 & H2). inversion H1 as [|? ? ? s1 ? C1 C2]; subst. econstructor; eauto. apply IH. eauto.
Qed.
Lemma ns_app : forall a b s s', nseq (a ++ b) s s' -> exists m, nseq a s m /\ nseq b m s'.
Proof.
  induction a as [|t a IH]; intros b s s' H; cbn [app] in H.
  - exists s. split; [constructor|auto].
  - inversion H as [|? ? ? s1 ? k C1 C2 C3]; subst. apply IH in C3. destruct C3 as (m & A & K). exists m. split; auto. econstructor; eauto.
Qed.

Lemma rel_seq : forall b l s s1 s', (forall t, In t l -> good b t) -> rel b s s' -> nseq l s s1 ->
  exists s1', vseq l s' s1' /\ rel b s1 s1'.
Proof.
  intros b l. induction l as [|t l IH]; intros s s1 s' Hg HR H; inversion H as [|? ? ? s2 ? k P E C]; subst.
  - exists s'. split; [constructor|auto].
  - destruct (rel_runs b t s s2 s' ltac:(apply Hg; cbn; auto) HR k P E) as (z & Cz & Rz).
    destruct (IH s2 s1 z) as (z1 & V1 & R1); auto. { intros; apply Hg; cbn; auto. }
    exists z1. split; auto. econstructor; eauto.
Qed.

Definition canon_block (b : nat) : list task :=
  flat_map (fun i => [TI b i; TM0 b i]) (seq 0 (n_quad c)) ++ map (fun i => TMA b (i + 1)) (seq 0 (o_max c)) ++ [TAL b] ++
  map (fun k => TC k b) (ks c) ++ [TR1 b; TR2 b; TR3 b].

Lemma canon_block_good : forall b t, b < B -> In t (canon_block b) -> good b t.
Proof.
  intros b t Hb H. unfold canon_block in H. repeat (apply in_app_or in H; destruct H as [H|H]).
  - apply in_flat_map in H. destruct H as (i & Hi & H). apply in_seq in Hi.
    destruct H as [<-|[<-|[]]]; split; cbn; auto; split; auto; lia.
  - apply in_map_iff in H. destruct H as (i & <- & Hi). apply in_seq in Hi. split; cbn; auto. split; auto. lia.
  - destruct H as [<-|[]]. split; cbn; auto.
  - apply in_map_iff in H. destruct H as (k & <- & Hk). apply in_ks in Hk. split; cbn; auto.
  - destruct H as [<-|[<-|[<-|[]]]]; split; cbn; auto.
Qed.

Hypothesis HR : resets s0.

Lemma completes_frame : forall t s s' x, task_in c t -> completes t s s' -> ~ vw t x -> s' x = s x.
Proof.
  intros t s s' x Ht (l & P & _) Hx. destruct HV as (F & _). revert P. generalize (start t). intros l0 P.
  induction P as [|l0 s l1 s1 l2 s2 P IH E]; auto. rewrite <- IH. eapply F; eauto.
Qed.

Lemma block_end : forall b s s', b < B -> vseq [TR1 b; TR2 b; TR3 b] s s' -> forall x, vblock x = Some b -> s' x = s0 x.
Proof.
  intros b s s' Hb H x Hx. inversion H as [|? ? ? s1 ? C1 H1]; subst. inversion H1 as [|? ? ? s2 ? C2 H2]; subst.
  inversion H2 as [|? ? ? s3 ? C3 H3]; subst. inversion H3; subst.
  destruct (HR b s s1 Hb) as (A1 & _ & _). destruct (HR b s1 s2 Hb) as (_ & A2 & _). destruct (HR b s2 s' Hb) as (_ & _ & A3).
  specialize (A1 C1). specialize (A2 C2). specialize (A3 C3). destruct HU as (U1 & U2 & U3).
  assert (N2: forall y, ~ vw (TR2 b) y -> s2 y = s1 y) by (intros y; apply completes_frame; cbn; auto).
  assert (N3: forall y, ~ vw (TR3 b) y -> s' y = s2 y) by (intros y; apply completes_frame; cbn; auto).
  cbn [writes unshared with_slots n_slot] in N2, N3. rewrite small_mod in N2, N3 by auto.
  assert (J: forall j, j / 2 = b -> j = 2 * b \/ j = 2 * b + 1).
  { intros j <-. pose proof (j2 j). pose proof (mod2_lt j). lia. }
  destruct x; cbn [vblock] in Hx; try discriminate; apply Some_inj in Hx.
  - subst r. rewrite A3. symmetry. apply U1.
  - rewrite N3 by discriminate. destruct (J j Hx) as [->| ->].
    + rewrite N2; [rewrite (proj1 A1); symmetry; apply U2|]. intros [E|(m & E)]; [injection E; lia|discriminate].
    + rewrite (proj1 A2). symmetry. apply U2.
  - rewrite N3 by discriminate. destruct (J j Hx) as [->| ->].
    + rewrite N2; [rewrite (proj2 A1); symmetry; apply U3|]. intros [E|(m' & E)]; [discriminate|injection E; lia].
    + rewrite (proj2 A2). symmetry. apply U3.
Qed.

Lemma rel_next : forall b s s', rel b s s' -> (forall x, vblock x = Some b -> s' x = s0 x) -> rel (S b) s s'.
Proof.
  intros b s s' (R1 & R2 & R3 & R4) HI.
  assert (CL: forall y r, vblock y = Some r -> s y = s0 y).
  { intros y r Hy. destruct (Nat.eq_dec r (b mod N)) as [->|Hne]; [|eapply R3; eauto].
    assert (K: exists x, vblock x = Some b /\ place N x = y).
    { destruct y; cbn [vblock] in Hy; try discriminate; apply Some_inj in Hy.
      - exists (DInter b). subst. auto.
      - exists (DTm (2 * b + j mod 2)). cbn [vblock place]. rewrite half2, par2 by apply mod2_lt. rewrite <- Hy. rewrite j2. auto.
      - exists (DTb (2 * b + j mod 2) m). cbn [vblock place]. rewrite half2, par2 by apply mod2_lt. rewrite <- Hy. rewrite j2. auto. }
    destruct K as (x & Hx & <-). rewrite R2 by auto. rewrite HI by auto. symmetry. apply s0_place. }
  repeat split.
  - auto.
  - intros x Hx. rewrite (R4 x (S b)) by (auto; lia). rewrite (CL _ (S b mod N)) by (apply vblock_place; auto). apply s0_place.
  - intros y r Hy _. eauto.
  - intros x b' Hx Hlt. apply (R4 x b'); auto; lia.
Qed.

Lemma rel_block : forall b s s1 s', b < B -> rel b s s' -> nseq (canon_block b) s s1 ->
  exists s1', vseq (canon_block b) s' s1' /\ rel (S b) s1 s1'.
Proof.
  intros b s s1 s' Hb HRl H.
  destruct (rel_seq b (canon_block b) s s1 s') as (z & Vz & Rz); auto. { intros; apply canon_block_good; auto. }
  exists z. split; auto. apply rel_next; auto. unfold canon_block in Vz. rewrite !app_assoc in Vz.
  apply vs_app in Vz. destruct Vz as (m & _ & Vz). eapply block_end; eauto.
Qed.

Lemma rel_blocks : forall k a s s1 s', a + k <= B -> rel a s s' -> nseq (flat_map canon_block (seq a k)) s s1 ->
  exists s1', vseq (flat_map canon_block (seq a k)) s' s1' /\ rel (a + k) s1 s1'.
Proof.
  induction k as [|k IH]; intros a s s1 s' Hk HRl H; cbn [seq flat_map] in *.
  - inversion H; subst. exists s'. rewrite Nat.add_0_r. split; [constructor|auto].
  - apply ns_app in H. destruct H as (m & H1 & H2). destruct (rel_block a s m s' ltac:(lia) HRl H1) as (z & Vz & Rz).
    destruct (IH (S a) m s1 z ltac:(lia) Rz H2) as (z1 & Vz1 & Rz1). exists z1. split; [apply vs_app; eauto|].
    replace (a + S k) with (S a + k) by lia. auto.
Qed.

Definition canon_av : list task := flat_map (fun p => map (fun k => TAv k p) (ks c)) (seq 0 (n_point c)).
Definition canon : list task := shared_tasks c ++ flat_map canon_block (seq 0 B) ++ canon_av.

Lemma shared_good : forall b t, In t (shared_tasks c) -> good b t.
Proof.
  intros b t H. unfold shared_tasks in H.
  repeat (apply in_app_or in H; destruct H as [H|H]);
    try (apply in_map_iff in H; destruct H as (i & <- & H)); try apply in_ks in H; try apply in_seq in H.
  - destruct H as [<-|[]]. split; cbn; auto.
  - split; cbn; auto; lia.
  - split; cbn; auto; lia.
  - split; cbn; auto; lia.
  - split; cbn; auto; lia.
  - apply in_flat_map in H. destruct H as (is & Hs & H). apply in_map_iff in H. destruct H as (i & <- & H). apply in_seq in H, Hs.
    split; cbn; auto. lia.
Qed.
Lemma av_good : forall b t, In t canon_av -> good b t.
Proof.
  intros b t H. unfold canon_av in H. apply in_flat_map in H. destruct H as (p & Hp & H). apply in_map_iff in H.
  destruct H as (k & <- & H). apply in_ks in H. apply in_seq in Hp. split; cbn; auto. split; auto. lia.
Qed.

(** The whole computation, on shared and on unshared storage. *)
Lemma canon_sim : forall s1, nseq canon s0 s1 -> exists s1', vseq canon s0 s1' /\ forall x, vblock x = None -> s1 x = s1' x.
Proof.
  intros s1 H. unfold canon in *. apply ns_app in H. destruct H as (m1 & H1 & H). apply ns_app in H. destruct H as (m2 & H2 & H3).
  destruct (rel_seq 0 _ s0 m1 s0 (shared_good 0) rel_init H1) as (z1 & V1 & R1).
  destruct (rel_blocks B 0 m1 m2 z1 ltac:(lia) R1 H2) as (z2 & V2 & R2).
  destruct (rel_seq (0 + B) _ m2 s1 z2 (av_good _) R2 H3) as (z3 & V3 & (R3 & _)).
  exists z3. split; auto. apply vs_app. exists z1. split; auto. apply vs_app. eauto.
Qed.

End OneN.
End Slots.
