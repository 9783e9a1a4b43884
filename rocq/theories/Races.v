(** Deterministic parallelism: tasks that only conflict when they are ordered
    produce the same memory in every interleaving.

    A task is a small deterministic machine: local state (registers, stack,
    per-thread scratch space), and steps that read and write a shared store. *)
From Coq Require Import List Arith Lia Bool Permutation.
From Verif Require Import Base LockProto Sched.
Import ListNotations.

Lemma nstart_In : forall t l, In (Start t) l <-> 0 < nstart t l.
Proof.
  intros t l. unfold nstart. induction l as [|e l IH]; cbn [filter In length]; [split; [tauto|lia]|].
  destruct e as [u|u]; [destruct (Nat.eqb_spec u t)|]; cbn [length].
  - subst. split; intros; [lia|auto].
  - rewrite <- IH. split; [intros [E|E]; [congruence|auto]|auto].
  - rewrite <- IH. split; [intros [E|E]; [congruence|auto]|auto].
Qed.
Lemma nend_In' : forall t l, In (End t) l <-> 0 < nend t l.
Proof.
  intros t l. unfold nend. induction l as [|e l IH]; cbn [filter In length]; [split; [tauto|lia]|].
  destruct e as [u|u]; [|destruct (Nat.eqb_spec u t)]; cbn [length].
  - rewrite <- IH. split; [intros [E|E]; [congruence|auto]|auto].
  - subst. split; intros; [lia|auto].
  - rewrite <- IH. split; [intros [E|E]; [congruence|auto]|auto].
Qed.

Lemma cnt_in : forall t l, In t l -> 0 < cnt t l.
Proof. intros. unfold cnt. apply count_occ_In. auto. Qed.

Section Races.
Variables (X V L : Type).
Definition store := X -> V.
Variable code : nat -> L -> store -> option (L * store).   (* one step of task t; None: execute() returned *)
Variable start : nat -> L.
Variables (wr rd : nat -> X -> Prop).
Definition fp (t : nat) (x : X) : Prop := wr t x \/ rd t x.

(** A step writes only inside the write set, and depends only on the footprint. *)
Definition framed : Prop := forall t l s l' s', code t l s = Some (l', s') -> forall x, ~ wr t x -> s' x = s x.
Definition same_on (t : nat) (s1 s2 : store) : Prop := forall x, fp t x -> s1 x = s2 x.
Definition local : Prop := forall t l s1 s2, same_on t s1 s2 ->
  match code t l s1, code t l s2 with
  | None, None => True
  | Some (l1, s1'), Some (l2, s2') => l1 = l2 /\ same_on t s1' s2'
  | _, _ => False
  end.
Definition decidable_writes : Prop := forall t x, wr t x \/ ~ wr t x.

(** Interleaved execution. [log]: starts and ends, latest first, as recorded by
    the scheduler; [act]: the tasks being executed with their local states. *)
Inductive exec (s0 : store) : list ev -> store -> list (nat * L) -> Prop :=
| x_init : exec s0 [] s0 []
| x_start : forall lg s act t, exec s0 lg s act -> exec s0 (Start t :: lg) s ((t, start t) :: act)
| x_step : forall lg s a1 t l a2 l' s', exec s0 lg s (a1 ++ (t, l) :: a2) -> code t l s = Some (l', s') ->
    exec s0 lg s' (a1 ++ (t, l') :: a2)
| x_end : forall lg s a1 t l a2, exec s0 lg s (a1 ++ (t, l) :: a2) -> code t l s = None ->
    exec s0 (End t :: lg) s (a1 ++ a2).

Hypothesis HF : framed.
Hypothesis HL : local.
Hypothesis HD : decidable_writes.

(* ------------------------------------------------ single tasks *)

Inductive psteps (t : nat) : L -> store -> L -> store -> Prop :=
| ps_refl : forall l s, psteps t l s l s
| ps_step : forall l s l1 s1 l2 s2, psteps t l s l1 s1 -> code t l1 s1 = Some (l2, s2) -> psteps t l s l2 s2.

Definition runs (t : nat) (s s' : store) : Prop := exists l, psteps t (start t) s l s' /\ code t l s' = None.

Lemma ps_frame : forall t l s l' s', psteps t l s l' s' -> forall x, ~ wr t x -> s' x = s x.
Proof. intros t l s l' s' H. induction H as [|l s l1 s1 l2 s2 H IH E]; intros x Hx; auto. rewrite (HF _ _ _ _ _ E x Hx). auto. Qed.

Lemma ps_local : forall t l s l' s', psteps t l s l' s' -> forall u, same_on t s u ->
  exists u', psteps t l u l' u' /\ same_on t s' u'.
Proof.
  intros t l s l' s' H. induction H as [l s|l s l1 s1 l2 s2 H IH E]; intros u Hu.
  - exists u. split; [constructor|auto].
  - destruct (IH u Hu) as (u1 & P & Hs). pose proof (HL t l1 s1 u1 Hs) as K. rewrite E in K.
    destruct (code t l1 u1) as [(l3, u2)|] eqn:Eu; [|contradiction]. destruct K as (<- & K).
    exists u2. split; auto. econstructor; eauto.
Qed.

(** reverse formulation *)
Lemma ps_head : forall t l s l1 s1 l' s', code t l s = Some (l1, s1) -> psteps t l1 s1 l' s' -> psteps t l s l' s'.
Proof.
  intros t l s l1 s1 l' s' E H. induction H as [l1 s1|l1 s1 l2 s2 l3 s3 H IH E3].
  - econstructor; [constructor|auto].
  - econstructor; [apply IH; auto|auto].
Qed.
Lemma ps_inv : forall t l s l' s', psteps t l s l' s' -> (l = l' /\ s = s') \/ exists l1 s1, code t l s = Some (l1, s1) /\ psteps t l1 s1 l' s'.
Proof.
  intros t l s l' s' H. induction H as [|l s l1 s1 l2 s2 H IH E]; auto. right.
  destruct IH as [(-> & ->)|(l3 & s3 & E3 & H3)].
  - exists l2, s2. split; auto. constructor.
  - exists l3, s3. split; auto. econstructor; eauto.
Qed.
Lemma runs_det' : forall t l s l1 s1, psteps t l s l1 s1 -> code t l1 s1 = None ->
  forall u l2 u2, same_on t s u -> psteps t l u l2 u2 -> code t l2 u2 = None -> l1 = l2 /\ same_on t s1 u2.
Proof.
  intros t l s l1 s1 H E1 u l2 u2 Hs H2 E2. apply (ps_local _ _ _ _ _ H) in Hs. destruct Hs as (u1 & P & Hs).
  pose proof (HL t l1 s1 u1 Hs) as K. rewrite E1 in K. destruct (code t l1 u1) eqn:Eu; [contradiction|]. clear K.
  assert (l1 = l2 /\ u1 = u2) as (-> & ->); [|auto].
  clear H E1 Hs. revert l2 u2 H2 E2. clear s s1.
  assert (G: forall l u l1 u1, psteps t l u l1 u1 -> code t l1 u1 = None -> forall l2 u2, psteps t l u l2 u2 -> code t l2 u2 = None -> l1 = l2 /\ u1 = u2).
  { intros l0 u0 la ua Ha. intros Ea.
    induction Ha as [l0 u0|l0 u0 l3 u3 l4 u4 Ha IH E4].
    - intros lb ub Hb Eb. apply ps_inv in Hb. destruct Hb as [(-> & ->)|(lc & uc & Ec & _)]; [auto|congruence].
    - (* any terminating run passes through (l3,u3) *)
      assert (M: forall l u l' u', psteps t l u l' u' -> forall lb ub, psteps t l u lb ub -> code t lb ub = None -> psteps t l' u' lb ub).
      { clear. intros l u l' u' H. induction H as [|l u l1 u1 l2 u2 H IH E]; intros lb ub Hb Eb; auto.
        specialize (IH lb ub Hb Eb). apply ps_inv in IH. destruct IH as [(-> & ->)|(lc & uc & Ec & Hc)]; [congruence|].
        rewrite E in Ec. injection Ec as <- <-. auto. }
      intros lb ub Hb Eb. pose proof (M _ _ _ _ (ps_step _ _ _ _ _ _ _ Ha E4) lb ub Hb Eb) as Hc.
      apply ps_inv in Hc. destruct Hc as [(-> & ->)|(lc & uc & Ec & _)]; [auto|congruence]. }
  intros l2 u2 H2 E2. eapply G; eauto.
Qed.

(** A complete execution depends only on the footprint and leaves the rest alone. *)
Lemma runs_local : forall t s s' u u', runs t s s' -> runs t u u' -> same_on t s u -> same_on t s' u'.
Proof. intros t s s' u u' (l1 & P1 & E1) (l2 & P2 & E2) H. eapply runs_det'; eauto. Qed.
Lemma runs_frame : forall t s s', runs t s s' -> forall x, ~ wr t x -> s' x = s x.
Proof. intros t s s' (l & P & _). eapply ps_frame; eauto. Qed.
Lemma runs_ext : forall t s s' u, runs t s s' -> same_on t s u -> exists u', runs t u u'.
Proof.
  intros t s s' u (l & P & E) H. apply (ps_local _ _ _ _ _ P) in H. destruct H as (u' & P' & H).
  exists u', l. split; auto. pose proof (HL t l s' u' H) as K. rewrite E in K. destruct (code t l u'); [contradiction|auto].
Qed.
Lemma runs_pt : forall t s s' u u', runs t s s' -> runs t u u' -> (forall x, s x = u x) -> forall x, s' x = u' x.
Proof.
  intros t s s' u u' H1 H2 H x. destruct (HD t x) as [Hw|Hw].
  - eapply runs_local; eauto; [intros y _; apply H|left; auto].
  - rewrite (runs_frame _ _ _ H1 x Hw), (runs_frame _ _ _ H2 x Hw). apply H.
Qed.

(* ------------------------------------------------ sequential execution *)

Inductive sequential : list nat -> store -> store -> Prop :=
| sq_nil : forall s, sequential [] s s
| sq_cons : forall t l s s1 s2, runs t s s1 -> sequential l s1 s2 -> sequential (t :: l) s s2.

Lemma sq_app : forall a b s s', sequential (a ++ b) s s' <-> exists m, sequential a s m /\ sequential b m s'.
Proof.
  induction a as [|t a IH]; intros b s s'; cbn [app]; split.
  - intros H. exists s. split; [constructor|auto].
  - intros (m & H1 & H2). inversion H1; subst. auto.
  - intros H. inversion H; subst. apply IH in H5. destruct H5 as (m & A & B). exists m. split; auto. econstructor; eauto.
  - intros (m & H1 & H2). inversion H1; subst. econstructor; eauto. apply IH. eauto.
Qed.
Lemma sq_pt : forall l s s' u u', sequential l s s' -> sequential l u u' -> (forall x, s x = u x) -> forall x, s' x = u' x.
Proof.
  induction l as [|t l IH]; intros s s' u u' H1 H2 H; inversion H1; subst; inversion H2; subst; auto.
  eapply IH; eauto. eapply runs_pt; eauto.
Qed.
Lemma sq_ext : forall l s s' u, sequential l s s' -> (forall x, s x = u x) -> exists u', sequential l u u'.
Proof.
  induction l as [|t l IH]; intros s s' u H E; inversion H as [|? ? ? s1 ? Ht Hl]; subst; [eexists; constructor|].
  destruct (runs_ext _ _ _ u Ht ltac:(intros y _; auto)) as (u1 & R1).
  destruct (IH _ _ u1 Hl (runs_pt _ _ _ _ _ Ht R1 E)) as (u' & S'). exists u'. econstructor; eauto.
Qed.

Definition clash (t u : nat) : Prop := exists x, (wr t x /\ (wr u x \/ rd u x)) \/ (wr u x /\ rd t x).

Lemma no_clash : forall t u, ~ clash t u -> (forall x, fp t x -> ~ wr u x) /\ (forall x, fp u x -> ~ wr t x).
Proof.
  intros t u H. split; intros x Hx Hw; apply H; exists x; unfold fp in Hx; tauto.
Qed.

Lemma swap : forall t u s m s', ~ clash t u -> runs t s m -> runs u m s' ->
  exists m' s'', runs u s m' /\ runs t m' s'' /\ forall x, s'' x = s' x.
Proof.
  intros t u s m s' HC Ht Hu. destruct (no_clash _ _ HC) as (C1 & C2).
  assert (S1: same_on u m s) by (intros x Hx; apply (runs_frame _ _ _ Ht); apply C2; auto).
  destruct (runs_ext _ _ _ s Hu S1) as (m' & Hu').
  assert (S2: same_on t s m') by (intros x Hx; symmetry; apply (runs_frame _ _ _ Hu'); apply C1; auto).
  destruct (runs_ext _ _ _ m' Ht S2) as (s'' & Ht'). exists m', s''. repeat split; auto.
  intros x. destruct (HD t x) as [Hw|Hw].
  - rewrite (runs_frame _ _ _ Hu x) by (apply C1; left; auto). symmetry. eapply (runs_local t s m m' s''); eauto. left. auto.
  - rewrite (runs_frame _ _ _ Ht' x) by auto. symmetry. destruct (HD u x) as [Hv|Hv].
    + eapply (runs_local u m s' s m'); eauto. left. auto.
    + rewrite (runs_frame _ _ _ Hu x), (runs_frame _ _ _ Hu' x), (runs_frame _ _ _ Ht x); auto.
Qed.

Lemma move_front : forall p a s s', (forall t, In t p -> ~ clash t a) -> sequential (p ++ [a]) s s' ->
  exists s'', sequential (a :: p) s s'' /\ forall x, s'' x = s' x.
Proof.
  induction p as [|t p IH]; intros a s s' HC H; cbn [app] in H.
  - exists s'. auto.
  - inversion H as [|? ? ? m ? Ht Hr]; subst. apply IH in Hr; [|intros; apply HC; cbn; auto].
    destruct Hr as (s2 & Hr & E). inversion Hr as [|? ? ? m2 ? Ha Hp]; subst.
    destruct (swap t a s m m2 ltac:(apply HC; cbn; auto) Ht Ha) as (m' & m2' & Ra & Rt & E2).
    destruct (sq_ext _ _ _ m2' Hp ltac:(intros; symmetry; auto)) as (s3 & Hp').
    exists s3. split; [repeat (econstructor; eauto)|]. intros x. rewrite <- E.
    eapply (sq_pt p m2' s3 m2 s2); eauto.
Qed.

(** [l] respects the order relation [R]. *)
Definition respects (R : nat -> nat -> Prop) (l : list nat) : Prop :=
  forall l1 a l2 b, l = l1 ++ a :: l2 -> In b l1 -> ~ R a b.

Lemma linear_extensions : forall (R : nat -> nat -> Prop) l1 l2 s s1 s2,
  Permutation l1 l2 -> NoDup l1 -> respects R l1 -> respects R l2 ->
  (forall a b, In a l1 -> In b l1 -> a <> b -> clash a b -> R a b \/ R b a) ->
  sequential l1 s s1 -> sequential l2 s s2 -> forall x, s1 x = s2 x.
Proof.
  intros R l1. induction l1 as [|a l1 IH]; intros l2 s s1 s2 HP ND R1 R2 HR H1 H2.
  - apply Permutation_nil in HP. subst. inversion H1; subst. inversion H2; subst. auto.
  - assert (Ha: In a l2) by (eapply Permutation_in; [exact HP|cbn; auto]).
    apply in_split in Ha. destruct Ha as (p & q & ->).
    assert (HP': Permutation l1 (p ++ q)) by (eapply Permutation_cons_inv; rewrite HP; symmetry; apply Permutation_middle).
    inversion ND as [|? ? NA ND']; subst.
    assert (NC: forall t, In t p -> ~ clash t a).
    { intros t Ht HC. assert (Hl: In t l1) by (eapply Permutation_in; [symmetry; exact HP'|apply in_app_iff; auto]).
      assert (t <> a) by (intros ->; auto).
      destruct (HR t a ltac:(cbn; auto) ltac:(cbn; auto) H HC) as [K|K].
      - apply in_split in Hl. destruct Hl as (q1 & q2 & ->). apply (R1 (a :: q1) t q2 a); auto. cbn. auto.
      - apply (R2 p a q t); auto. }
    replace (p ++ a :: q) with ((p ++ [a]) ++ q) in H2 by (rewrite <- app_assoc; auto).
    apply sq_app in H2. destruct H2 as (m & A & Bq). apply move_front in A; auto. destruct A as (m' & A & E).
    destruct (sq_ext _ _ _ m' Bq ltac:(intros; symmetry; auto)) as (s2' & Bq').
    assert (E2: forall x, s2' x = s2 x) by (eapply sq_pt; eauto).
    inversion A as [|? ? ? s3 ? Ra Sp]; subst. inversion H1 as [|? ? ? s4 ? Ra' Sl]; subst.
    assert (E3: forall x, s4 x = s3 x) by (eapply runs_pt; eauto).
    assert (Sl2: sequential (p ++ q) s3 s2') by (apply sq_app; eauto).
    destruct (sq_ext _ _ _ s4 Sl2 ltac:(intros; symmetry; auto)) as (s5 & Sl3).
    intros x. rewrite <- E2. rewrite <- (sq_pt _ _ _ _ _ Sl3 Sl2 E3 x). eapply IH; eauto.
    + intros q1 b q2 d EE Hd. apply (R1 (a :: q1) b q2 d); cbn; [rewrite EE; auto|auto].
    + intros q1 b q2 d EE Hd. clear -R2 EE Hd.
      apply app_eq_app in EE. destruct EE as (z & [(-> & E)|(-> & E)]).
      * destruct z as [|y z]; cbn in E.
        -- rewrite app_nil_r in *. subst q. intros K. apply (R2 (q1 ++ [a]) b q2 d); [rewrite <- app_assoc; auto|apply in_app_iff; auto|auto].
        -- injection E as -> ->. apply (R2 q1 y (z ++ a :: q) d); auto. rewrite <- app_assoc. auto.
      * intros K. apply (R2 (p ++ a :: z) b q2 d); [rewrite <- app_assoc; cbn; rewrite E; auto| |auto].
        apply in_app_iff. apply in_app_iff in Hd. cbn. tauto.
    + intros b d Hb Hd. apply HR; cbn; auto.
Qed.

(** A sequential run can be reordered into any other order that respects [R]. *)
Lemma linear_transfer : forall (R : nat -> nat -> Prop) l2 l1 s s1,
  Permutation l1 l2 -> NoDup l1 -> respects R l1 -> respects R l2 ->
  (forall a b, In a l1 -> In b l1 -> a <> b -> clash a b -> R a b \/ R b a) ->
  sequential l1 s s1 -> exists s2, sequential l2 s s2 /\ forall x, s1 x = s2 x.
Proof.
  intros R l2. induction l2 as [|a l2 IH]; intros l1 s s1 HP ND R1 R2 HR H1.
  - apply Permutation_sym, Permutation_nil in HP. subst. exists s1. split; auto.
  - assert (Ha: In a l1) by (eapply Permutation_in; [apply Permutation_sym; exact HP|cbn; auto]).
    apply in_split in Ha. destruct Ha as (p & q & ->).
    assert (HP': Permutation (p ++ q) l2) by (eapply Permutation_cons_inv; rewrite <- HP; apply Permutation_middle).
    pose proof (NoDup_remove_1 _ _ _ ND) as ND'. pose proof (NoDup_remove_2 _ _ _ ND) as NA.
    assert (NC: forall t, In t p -> ~ clash t a).
    { intros t Ht HC. assert (Hl: In t l2) by (eapply Permutation_in; [exact HP'|apply in_app_iff; auto]).
      assert (t <> a) by (intros ->; apply NA; apply in_app_iff; auto).
      assert (It: In t (p ++ a :: q)) by (apply in_app_iff; auto). assert (Ia: In a (p ++ a :: q)) by (apply in_app_iff; cbn; auto).
      destruct (HR t a It Ia H HC) as [K|K].
      - apply in_split in Hl. destruct Hl as (q1 & q2 & ->). apply (R2 (a :: q1) t q2 a); auto. cbn. auto.
      - apply (R1 p a q t); auto. }
    replace (p ++ a :: q) with ((p ++ [a]) ++ q) in H1 by (rewrite <- app_assoc; auto).
    apply sq_app in H1. destruct H1 as (m & A & Bq). apply move_front in A; auto. destruct A as (m' & A & E).
    destruct (sq_ext _ _ _ m' Bq ltac:(intros; symmetry; auto)) as (s1' & Bq').
    assert (E2: forall x, s1' x = s1 x) by (eapply sq_pt; eauto).
    inversion A as [|? ? ? s3 ? Ra Sp]; subst.
    assert (Sl2: sequential (p ++ q) s3 s1') by (apply sq_app; eauto).
    destruct (IH (p ++ q) s3 s1' HP' ND') as (s2 & S2 & E3); auto.
    + intros q1 b q2 d EE Hd. clear -R1 EE Hd.
      apply app_eq_app in EE. destruct EE as (z & [(-> & E)|(-> & E)]).
      * destruct z as [|y z]; cbn in E.
        -- rewrite app_nil_r in *. subst q. intros K. apply (R1 (q1 ++ [a]) b q2 d); [rewrite <- app_assoc; auto|apply in_app_iff; auto|auto].
        -- injection E as -> ->. apply (R1 q1 y (z ++ a :: q) d); auto. rewrite <- app_assoc. auto.
      * intros K. apply (R1 (p ++ a :: z) b q2 d); [rewrite <- app_assoc; cbn; rewrite E; auto| |auto].
        apply in_app_iff. apply in_app_iff in Hd. cbn. tauto.
    + intros q1 b q2 d EE Hd. apply (R2 (a :: q1) b q2 d); cbn; [rewrite EE; auto|auto].
    + intros b d Hb Hd. apply HR; apply in_app_iff; cbn; apply in_app_iff in Hb, Hd; tauto.
    + exists s2. split; [econstructor; eauto|]. intros x. rewrite <- E2. auto.
Qed.

(* ------------------------------------------------ interleaved execution *)

(** Tasks in the order in which they ended. *)
Fixpoint ends (lg : list ev) : list nat :=
  match lg with [] => [] | End t :: lg' => ends lg' ++ [t] | _ :: lg' => ends lg' end.

(** Tasks that are executing at the same time, at some moment of the log, do not clash. *)
Definition calm (lg : list ev) : Prop :=
  forall l1 t l2 u, lg = l1 ++ Start t :: l2 -> In (Start u) l2 -> ~ In (End u) l2 -> ~ clash t u.

Lemma exec_logs : forall s0 lg s act, exec s0 lg s act ->
  (forall t, In t (map fst act) -> In (Start t) lg) /\
  (forall t, In (End t) lg -> In (Start t) lg) /\
  (forall t, nstart t lg = nend t lg + cnt t (map fst act)).
Proof.
  intros s0 lg s act H. induction H as [|lg s act t H (I1 & I2 & I3)|lg s a1 t l a2 l' s' H (I1 & I2 & I3) E|lg s a1 t l a2 H (I1 & I2 & I3) E].
  - cbn. repeat split; intros; tauto || auto.
  - repeat split.
    + intros u [Hu|Hu]; cbn in *; [subst; auto|right; auto].
    + intros u [Hu|Hu]; [discriminate|right; auto].
    + intros u. specialize (I3 u). unfold nstart, nend, cnt in *. cbn [filter map fst count_occ].
      destruct (Nat.eqb_spec t u), (Nat.eq_dec t u); try congruence; cbn [length]; lia.
  - rewrite map_app in *. cbn [map fst] in *. auto.
  - rewrite map_app in *. cbn [map fst] in *. repeat split.
    + intros u Hu. right. apply I1. apply in_app_iff. apply in_app_iff in Hu. cbn. tauto.
    + intros u [Hu|Hu]; [injection Hu as ->; right; apply I1; apply in_app_iff; cbn; auto|right; auto].
    + intros u. specialize (I3 u). unfold nstart, nend in *. cbn [filter]. rewrite cnt_app in *.
      assert (C: cnt u (t :: map fst a2) = (if t =? u then 1 else 0) + cnt u (map fst a2)).
      { unfold cnt. cbn [count_occ]. destruct (Nat.eqb_spec t u), (Nat.eq_dec t u); try congruence; lia. }
      rewrite C in I3. destruct (Nat.eqb_spec t u); cbn [length]; lia.
Qed.

Lemma calm_tail : forall e lg, calm (e :: lg) -> calm lg.
Proof. intros e lg H l1 t l2 u E. apply (H (e :: l1) t l2 u). rewrite E. auto. Qed.

(** The store of an interleaved execution: finished tasks executed one after
    the other in the order in which they ended, plus the partial work of the
    running ones. *)
Definition explains (s0 s : store) (act : list (nat * L)) (done : list nat) (z : store) : Prop :=
  sequential done s0 z /\
  (forall x, (forall t l, In (t, l) act -> ~ wr t x) -> s x = z x) /\
  (forall t l, In (t, l) act -> exists zt, psteps t (start t) z l zt /\ same_on t s zt) /\
  (forall t l u m, In (t, l) act -> In (u, m) act -> t <> u -> ~ clash t u) /\
  NoDup (map fst act).

Lemma exec_explained : forall s0 lg s act, exec s0 lg s act -> calm lg -> (forall t, nstart t lg <= 1) ->
  exists z, explains s0 s act (ends lg) z.
Proof.
  intros s0 lg s act H. induction H as [|lg s act t H IH|lg s a1 t l a2 l' s' H IH E|lg s a1 t l a2 H IH E]; intros HC HO.
  - exists s0. repeat split; try (cbn; tauto); constructor.
  - assert (HO': forall u, nstart u lg <= 1).
    { intros u. specialize (HO u). unfold nstart in *. cbn [filter] in HO. destruct (t =? u); cbn [length] in HO; lia. }
    destruct (IH (calm_tail _ _ HC) HO') as (z & Z1 & Z2 & Z3 & Z4 & Z5). destruct (exec_logs _ _ _ _ H) as (L1 & L2 & L3).
    assert (NT: nstart t lg = 0).
    { specialize (HO t). unfold nstart in *. cbn [filter] in HO. rewrite Nat.eqb_refl in HO. cbn [length] in HO. lia. }
    assert (NI: ~ In t (map fst act)).
    { intros K. apply L1 in K. apply nstart_In in K. lia. }
    assert (CL: forall u m, In (u, m) act -> ~ clash t u).
    { intros u m Hu. assert (Hf: In u (map fst act)) by (apply in_map_iff; exists (u, m); auto).
      apply (HC [] t lg u); auto. intros K. apply nend_In' in K. pose proof (HO' u). pose proof (L3 u). apply cnt_in in Hf. lia. }
    exists z. split; [exact Z1|]. split; [|split; [|split]].
    + intros x Hx. apply Z2. intros u m Hu. eapply Hx. right. eauto.
    + intros u m [Hu|Hu]; [|auto]. injection Hu as <- <-. exists z. split; [constructor|].
      intros x Hx. apply Z2. intros u m Hu Hw. apply (CL u m Hu). exists x. unfold fp in Hx. tauto.
    + assert (SY: forall a b, clash a b -> clash b a) by (intros a b (x & K); exists x; tauto).
      intros a la b lb [Ha|Ha] [Hb|Hb] Hne.
      * injection Ha as <- <-. injection Hb as <- <-. congruence.
      * injection Ha as <- <-. eapply CL; eauto.
      * injection Hb as <- <-. intros K. apply SY in K. eapply CL; eauto.
      * eapply Z4; eauto.
    + cbn [map fst]. constructor; auto.
  - destruct (IH HC HO) as (z & Z1 & Z2 & Z3 & Z4 & Z5). exists z.
    assert (Hin: forall b m, In (b, m) (a1 ++ (t, l') :: a2) -> b <> t -> In (b, m) (a1 ++ (t, l) :: a2)).
    { intros b m Hb Hne. apply in_app_iff in Hb. apply in_app_iff. destruct Hb as [Hb|[Hb|Hb]]; auto; [congruence|right; right; auto]. }
    assert (Ht: In (t, l) (a1 ++ (t, l) :: a2)) by (apply in_app_iff; cbn; auto).
    assert (Ht': In (t, l') (a1 ++ (t, l') :: a2)) by (apply in_app_iff; cbn; auto).
    assert (ND: forall m, In (t, m) (a1 ++ (t, l') :: a2) -> m = l').
    { intros m Hm. rewrite map_app in Z5. cbn [map fst] in Z5. apply NoDup_remove_2 in Z5. apply in_app_iff in Hm.
      destruct Hm as [Hm|[Hm|Hm]]; [|congruence|]; exfalso; apply Z5; apply in_app_iff; [left|right]; apply in_map_iff; exists (t, m); auto. }
    split; [auto|]. split; [|split; [|split]].
    + intros x Hx. rewrite (HF _ _ _ _ _ E x) by (eapply Hx; eauto). apply Z2. intros u m Hu Hw.
      destruct (Nat.eq_dec u t) as [->|Hne]; [exact (Hx t l' Ht' Hw)|].
      apply in_app_iff in Hu. refine (Hx u m _ Hw). apply in_app_iff. destruct Hu as [Hu|[Hu|Hu]]; auto; [congruence|right; right; auto].
    + intros u m Hu. destruct (Nat.eq_dec u t) as [->|Hne].
      * rewrite (ND m Hu). destruct (Z3 t l Ht) as (zt & P & Sm). pose proof (HL t l s zt Sm) as K. rewrite E in K.
        destruct (code t l zt) as [(l2, z2)|] eqn:Ez; [|contradiction]. destruct K as (<- & K). exists z2. split; auto. econstructor; eauto.
      * destruct (Z3 u m (Hin u m Hu Hne)) as (zu & P & Sm). exists zu. split; auto.
        intros x Hx. rewrite <- (Sm x Hx). apply (HF _ _ _ _ _ E). intros Hw.
        apply (Z4 t l u m Ht (Hin u m Hu Hne) ltac:(auto)). exists x. unfold fp in Hx. tauto.
    + intros a la b lb Ha Hb Hne.
      assert (GA: exists m, In (a, m) (a1 ++ (t, l) :: a2)) by (destruct (Nat.eq_dec a t) as [->|]; eauto).
      assert (GB: exists m, In (b, m) (a1 ++ (t, l) :: a2)) by (destruct (Nat.eq_dec b t) as [->|]; eauto).
      destruct GA as (ma & GA), GB as (mb & GB). eapply Z4; eauto.
    + rewrite map_app in *. exact Z5.
  - assert (HO': forall u, nstart u lg <= 1) by (intros u; exact (HO u)).
    destruct (IH (calm_tail _ _ HC) HO') as (z & Z1 & Z2 & Z3 & Z4 & Z5).
    assert (Ht: In (t, l) (a1 ++ (t, l) :: a2)) by (apply in_app_iff; cbn; auto).
    destruct (Z3 t l Ht) as (zt & P & Sm).
    assert (R: runs t z zt).
    { exists l. split; auto. pose proof (HL t l s zt Sm) as K. rewrite E in K. destruct (code t l zt); [contradiction|auto]. }
    assert (Hin: forall b m, In (b, m) (a1 ++ a2) -> In (b, m) (a1 ++ (t, l) :: a2)).
    { intros b m Hb. apply in_app_iff in Hb. apply in_app_iff. cbn. tauto. }
    assert (ND: forall b m, In (b, m) (a1 ++ a2) -> b <> t).
    { intros b m Hb ->. rewrite map_app in Z5. cbn [map fst] in Z5. apply NoDup_remove_2 in Z5. apply Z5.
      rewrite <- map_app. apply in_map_iff. exists (t, m). auto. }
    exists zt. cbn [ends]. split; [apply sq_app; exists z; split; auto; repeat (econstructor; eauto)|]. split; [|split; [|split]].
    + intros x Hx. destruct (HD t x) as [Hw|Hw]; [apply Sm; left; auto|].
      rewrite (runs_frame _ _ _ R x Hw). apply Z2. intros u m Hu. apply in_app_iff in Hu.
      destruct Hu as [Hu|[Hu|Hu]]; [|injection Hu as <- <-; auto|]; apply (Hx u m); apply in_app_iff; auto.
    + intros u m Hu. destruct (Z3 u m (Hin u m Hu)) as (zu & Pu & Su).
      assert (NC: ~ clash t u) by (eapply Z4; eauto; intros EE; symmetry in EE; revert EE; eapply ND; eauto).
      destruct (no_clash _ _ NC) as (C1 & C2).
      assert (SO: same_on u z zt) by (intros x Hx; symmetry; apply (runs_frame _ _ _ R); apply C2; auto).
      destruct (ps_local _ _ _ _ _ Pu zt SO) as (zu' & Pu' & Su'). exists zu'. split; auto.
      intros x Hx. rewrite (Su x Hx). auto.
    + intros a la b lb Ha Hb. eapply Z4; eauto.
    + rewrite map_app in *. cbn [map fst] in Z5. apply NoDup_remove_1 in Z5. auto.
Qed.

(** A finished execution is equivalent to the sequential one in end order. *)
Theorem exec_sequential : forall s0 lg s, exec s0 lg s [] -> calm lg -> (forall t, nstart t lg <= 1) ->
  exists z, sequential (ends lg) s0 z /\ forall x, s x = z x.
Proof.
  intros s0 lg s H HC HO. destruct (exec_explained _ _ _ _ H HC HO) as (z & Z1 & Z2 & _).
  exists z. split; auto.
Qed.

Lemma in_ends : forall t lg, In t (ends lg) <-> In (End t) lg.
Proof.
  induction lg as [|[u|u] lg IH]; cbn [ends In]; [tauto| |].
  - rewrite IH. split; [auto|intros [E|E]; [discriminate|auto]].
  - rewrite in_app_iff, IH. cbn. split.
    + intros [H|[->|[]]]; auto.
    + intros [E|E]; [injection E as ->; auto|auto].
Qed.
Lemma cnt_ends : forall t lg, cnt t (ends lg) = nend t lg.
Proof.
  intros t. induction lg as [|[u|u] lg IH]; cbn [ends]; auto. rewrite cnt_app, IH. unfold nend, cnt. cbn [filter count_occ].
  destruct (Nat.eqb_spec u t), (Nat.eq_dec u t); try congruence; cbn [length]; lia.
Qed.

(** Any two finished executions of the same tasks, both respecting the order
    [R] (a task starts only after the tasks before it have ended) produce the
    same memory, if clashing tasks are ordered by [R]. *)
Definition obeys (R : nat -> nat -> Prop) (lg : list ev) : Prop :=
  forall a b l1 l2, R a b -> lg = l1 ++ Start b :: l2 -> In (End a) l2.

Lemma exec_facts : forall (R : nat -> nat -> Prop) (n : nat) s0 lg s,
  (forall a b, a < n -> b < n -> a <> b -> clash a b -> R a b \/ R b a) ->
  (forall t, nstart t lg = if t <? n then 1 else 0) -> obeys R lg -> exec s0 lg s [] ->
  calm lg /\ (forall t, nstart t lg <= 1) /\ (forall t, nend t lg = if t <? n then 1 else 0) /\ respects R (ends lg).
Proof.
  intros R n s0 lg s HR N O E. destruct (exec_logs _ _ _ _ E) as (_ & L2 & L3).
    assert (NE: forall t, nend t lg = if t <? n then 1 else 0).
    { intros t. rewrite <- N, L3. cbn. lia. }
    assert (SL: forall t, In (Start t) lg -> t < n).
    { intros t Ht. apply nstart_In in Ht. rewrite N in Ht. destruct (Nat.ltb_spec t n); [auto|lia]. }
    split; [|split; [|split]]; auto.
    - intros l1 t l2 u EQ Hu NU HC. subst lg.
      assert (t < n) by (apply SL; apply in_app_iff; cbn; auto).
      assert (u < n) by (apply SL; apply in_app_iff; cbn; auto).
      assert (t <> u).
      { intros ->. specialize (N u). unfold nstart in N. rewrite filter_app in N. cbn [filter] in N. rewrite Nat.eqb_refl in N.
        rewrite app_length in N. cbn [length] in N. apply nstart_In in Hu. unfold nstart in Hu.
        destruct (u <? n); lia. }
      destruct (HR t u) as [K|K]; auto.
      + apply in_split in Hu. destruct Hu as (q1 & q2 & ->).
        assert (HE: In (End t) q2) by (apply (O t u (l1 ++ Start t :: q1) q2); auto; rewrite <- app_assoc; auto).
        (* t would have ended before it started *)
        assert (HS: In (Start t) q2).
        { assert (E3: exists s' act, exec s0 q2 s' act).
          { clear -E. remember (l1 ++ Start t :: q1 ++ Start u :: q2) as lg eqn:EQ.
            replace (l1 ++ Start t :: q1 ++ Start u :: q2) with ((l1 ++ Start t :: q1 ++ [Start u]) ++ q2) in EQ by (rewrite <- app_assoc; cbn; rewrite <- app_assoc; auto).
            revert EQ. generalize (l1 ++ Start t :: q1 ++ [Start u]). generalize dependent (@nil (nat * L)). intros act E.
            induction E as [|lg s act t' E IH|lg s a1 t' l a2 l' s' E IH Ec|lg s a1 t' l a2 E IH Ec]; intros p EQ.
            - destruct p; cbn in EQ; [subst; eexists _, _; constructor|discriminate].
            - destruct p as [|x p]; cbn in EQ; [subst; eexists _, _; constructor; eauto|]. injection EQ as _ EQ. eapply IH; eauto.
            - eapply IH; eauto.
            - destruct p as [|x p]; cbn in EQ; [subst; eexists _, _; eapply x_end; eauto|]. injection EQ as _ EQ. eapply IH; eauto. }
          destruct E3 as (s' & act & E3). apply (exec_logs _ _ _ _ E3). auto. }
        specialize (N t). unfold nstart in N. rewrite !filter_app in N. cbn [filter] in N. rewrite Nat.eqb_refl, filter_app, app_length in N.
        cbn [length] in N. rewrite app_length in N. cbn [filter] in N. apply nstart_In in HS. unfold nstart in HS.
        assert (K2: length (filter (fun e => match e with Start u0 => u0 =? t | End _ => false end) q2) <=
                    length (filter (fun e => match e with Start u0 => u0 =? t | End _ => false end) (Start u :: q2))).
        { cbn [filter]. destruct (u =? t); cbn [length]; lia. }
        cbn [filter] in K2. destruct (t <? n); lia.
      + apply NU. apply (O u t l1 l2); auto.
    - intros t. rewrite N. destruct (t <? n); lia.
    - (* end order respects R *)
      assert (M: forall lg s act, exec s0 lg s act -> obeys R lg -> (forall t, nstart t lg <= 1) -> respects R (ends lg)).
      { clear -HR. intros lg s act E. induction E as [|lg s act t' E IH|lg s a1 t' l a2 l' s' E IH Ec|lg s a1 t' l a2 E IH Ec]; intros O N.
        - intros l1 a l2 b EQ. destruct l1; discriminate EQ.
        - cbn [ends]. apply IH.
          + intros a b l1 l2 HAB EQ. apply (O a b (Start t' :: l1) l2 HAB). rewrite EQ. auto.
          + intros t. specialize (N t). unfold nstart in *. cbn [filter] in N. destruct (t' =? t); cbn [length] in N; lia.
        - apply IH; auto.
        - assert (O': obeys R lg) by (intros a b l1 l2 HAB EQ; apply (O a b (End t' :: l1) l2 HAB); rewrite EQ; auto).
          assert (N': forall t, nstart t lg <= 1) by (intros t; exact (N t)).
          specialize (IH O' N'). destruct (exec_logs _ _ _ _ E) as (L1 & L2 & L3). cbn [ends].
          intros l1 a l2 b EQ Hb HAB. apply app_eq_app in EQ. destruct EQ as (z & [(E1 & E2)|(E1 & E2)]).
          + destruct z as [|y z]; cbn in E2.
            * injection E2 as -> ->. rewrite app_nil_r in E1. subst l1.
              (* R t' b with b ended before t': but b can only start after t' ended *)
              apply in_ends, L2 in Hb. apply in_split in Hb. destruct Hb as (q1 & q2 & ->).
              assert (HE: In (End t') (q1 ++ Start b :: q2)) by (apply in_app_iff; right; right; apply (O' t' b q1 q2); auto).
              apply nend_In' in HE. pose proof (N' t'). pose proof (L3 t') as L3a. rewrite map_app in L3a. cbn [map fst] in L3a.
              rewrite cnt_app in L3a. unfold cnt in L3a at 2. cbn [count_occ] in L3a. destruct (Nat.eq_dec t' t'); [lia|congruence].
            * injection E2 as -> ->. eapply IH; eauto.
          + destruct z as [|y z]; cbn in E2; [|injection E2 as <- E2; destruct z; discriminate].
            injection E2 as E2 _. subst a. rewrite app_nil_r in E1. subst l1.
            apply in_ends, L2 in Hb. apply in_split in Hb. destruct Hb as (q1 & q2 & ->).
            assert (HE: In (End t') (q1 ++ Start b :: q2)) by (apply in_app_iff; right; right; apply (O' t' b q1 q2); auto).
            apply nend_In' in HE. pose proof (N' t'). pose proof (L3 t') as L3a. rewrite map_app in L3a. cbn [map fst] in L3a.
            rewrite cnt_app in L3a. unfold cnt in L3a at 2. cbn [count_occ] in L3a. destruct (Nat.eq_dec t' t'); [lia|congruence]. }
      eapply M; eauto. intros t. rewrite N. destruct (t <? n); lia.
Qed.

Lemma exec_order : forall (R : nat -> nat -> Prop) (n : nat) s0 lg s,
  (forall a b, a < n -> b < n -> a <> b -> clash a b -> R a b \/ R b a) ->
  (forall t, nstart t lg = if t <? n then 1 else 0) -> obeys R lg -> exec s0 lg s [] ->
  exists z, sequential (ends lg) s0 z /\ (forall x, s x = z x) /\ NoDup (ends lg) /\ respects R (ends lg) /\
            (forall t, In t (ends lg) <-> t < n).
Proof.
  intros R n s0 lg s HR N O E. destruct (exec_facts R n s0 lg s HR N O E) as (C & U & D & RS).
  destruct (exec_sequential _ _ _ E C U) as (z & S1 & P1). exists z. repeat split; auto.
  - apply (NoDup_count_occ Nat.eq_dec). intros t. pose proof (cnt_ends t lg) as K. unfold cnt in K. rewrite K, D. destruct (t <? n); lia.
  - intros Ht. apply cnt_in in Ht. rewrite cnt_ends, D in Ht. destruct (Nat.ltb_spec t n); [auto|lia].
  - intros Ht. apply (count_occ_In Nat.eq_dec). pose proof (cnt_ends t lg) as K. unfold cnt in K. rewrite K, D.
    destruct (Nat.ltb_spec t n); lia.
Qed.

Theorem interleavings_agree : forall (R : nat -> nat -> Prop) (n : nat) s0 lg1 s1 lg2 s2,
  (forall a b, a < n -> b < n -> a <> b -> clash a b -> R a b \/ R b a) ->
  (forall t, nstart t lg1 = if t <? n then 1 else 0) -> (forall t, nstart t lg2 = if t <? n then 1 else 0) ->
  obeys R lg1 -> obeys R lg2 -> exec s0 lg1 s1 [] -> exec s0 lg2 s2 [] -> forall x, s1 x = s2 x.
Proof.
  intros R n s0 lg1 s1 lg2 s2 HR N1 N2 O1 O2 E1 E2.
  destruct (exec_order R n s0 lg1 s1 HR N1 O1 E1) as (z1 & S1 & P1 & D1 & R1 & M1).
  destruct (exec_order R n s0 lg2 s2 HR N2 O2 E2) as (z2 & S2 & P2 & D2 & R2 & M2).
  intros x. rewrite P1, P2. eapply (linear_extensions R (ends lg1) (ends lg2)); eauto.
  - apply NoDup_Permutation; auto. intros t. rewrite M1, M2. tauto.
  - intros a b Ha Hb. apply HR; [apply M1|apply M1]; auto.
Qed.

(** Every complete log can be executed, if every task terminates on every store. *)
Theorem exec_exists : (forall t s, exists s', runs t s s') -> forall s0 lg,
  (forall l1 l2 t, lg = l1 ++ l2 -> nend t l2 <= nstart t l2) -> exists s act, exec s0 lg s act /\ forall t l, In (t, l) act -> l = start t.
Proof.
  intros HT s0 lg. induction lg as [|[t|t] lg IH]; intros HB.
  - exists s0, []. split; [constructor|intros t l []].
  - destruct IH as (s & act & E & HA). { intros l1 l2 u EQ. eapply (HB (Start t :: l1)). rewrite EQ. auto. }
    exists s, ((t, start t) :: act). split; [constructor; auto|]. intros u l [Hu|Hu]; [congruence|eauto].
  - destruct IH as (s & act & E & HA). { intros l1 l2 u EQ. eapply (HB (End t :: l1)). rewrite EQ. auto. }
    destruct (exec_logs _ _ _ _ E) as (_ & _ & L3). pose proof (HB [] (End t :: lg) t eq_refl) as K.
    unfold nend, nstart in K. cbn [filter] in K. rewrite Nat.eqb_refl in K. cbn [length] in K. specialize (L3 t). unfold nend, nstart in L3.
    assert (Hin: In t (map fst act)) by (apply (count_occ_In Nat.eq_dec); unfold cnt in L3; lia).
    apply in_map_iff in Hin. destruct Hin as ((u, l) & Eu & Hin). cbn in Eu. subst u. pose proof (HA t l Hin); subst l.
    apply in_split in Hin. destruct Hin as (a1 & a2 & ->). destruct (HT t s) as (s' & l' & P & EN).
    exists s', (a1 ++ a2). split.
    + apply x_end with (l := l'); auto. clear -P E. generalize dependent (start t). intros l0 E P.
      induction P; auto. eapply x_step; [apply IHP; auto|eauto].
    + intros u m Hu. eapply HA. apply in_app_iff. apply in_app_iff in Hu. cbn. destruct Hu; eauto.
Qed.

End Races.
