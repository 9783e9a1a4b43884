(** C101: shape distributions made in Python. *)
From Coq Require Import ZArith Reals Lra List Arith Lia String.
From Verif Require Import Parse Yaml YamlFacts Shape ShapeFacts Props_shape PyShape.
Import ListNotations.
Local Open Scope string_scope.
Local Open Scope R_scope.

(* ------------------------------------------------ specification *)
(** the argument that the caller gave for the parameter [key], the [i]th in the documented order: by position or by name *)
Definition given (args : list pyvalue) (kwargs : list (text * pyvalue)) (i : nat) (key : text) (v : pyvalue) : Prop :=
  nth_error args i = Some v \/ ((List.length args <= i)%nat /\ In (key, v) kwargs).
(** a call that Python accepts: not too many positional arguments, each keyword is a documented parameter that was not given by position as well *)
Definition well_formed (parameters : list text) (args : list pyvalue) (kwargs : list (text * pyvalue)) : Prop :=
  (List.length args <= List.length parameters)%nat /\ forall key v, In (key, v) kwargs -> exists i, (List.length args <= i)%nat /\ nth_error parameters i = Some key.
(** Python numbers as real numbers *)
Definition means (v : pyvalue) (x : R) : Prop := v = PyFloat x \/ exists n, v = PyInt n /\ x = IZR n.

(** DraineHensleyShapeDistribution(npoints = 20, cutoff = 0.15, fraction = -1): the values of the parameters in a call *)
Definition draine_hensley_call (args : list pyvalue) (kwargs : list (text * pyvalue)) (npoints : Z) (cutoff fraction : R) : Prop :=
  well_formed [T "npoints"; T "cutoff"; T "fraction"] args kwargs /\
  ((exists n, given args kwargs 0 (T "npoints") (PyInt n) /\ npoints = (n mod 2 ^ 32)%Z) \/ ((forall v, ~ given args kwargs 0 (T "npoints") v) /\ npoints = 20%Z)) /\
  ((exists v, given args kwargs 1 (T "cutoff") v /\ means v cutoff) \/ ((forall v, ~ given args kwargs 1 (T "cutoff") v) /\ cutoff = 15 / 100)) /\
  ((exists v, given args kwargs 2 (T "fraction") v /\ means v fraction) \/ ((forall v, ~ given args kwargs 2 (T "fraction") v) /\ fraction = -1)).

(* ------------------------------------------------ proofs *)
Lemma means_d : forall v x, format_d v = Some (Real x) <-> means v x.
Proof.
  intros v x. unfold means. destruct v; cbn; split; intros H.
  - injection H as <-. right. eauto.
  - destruct H as [|(m & A & B)]; [discriminate|]. congruence.
  - injection H as <-. auto.
  - destruct H as [A|(m & A & B)]; congruence.
  - discriminate.
  - destruct H as [A|(m & A & B)]; congruence.
Qed.
Lemma find_given : forall key (kw : list (text * pyvalue)), NoDup (map fst kw) -> forall v, In (key, v) kw -> List.find (fun p => text_eqb (fst p) key) kw = Some (key, v).
Proof.
  induction kw as [|(k, w) kw IH]; cbn; intros N v H; [tauto|]. inversion N; subst. destruct (text_eqb_spec k key) as [-> | D].
  - destruct H as [H | H]; [congruence|]. exfalso. apply H2. change key with (fst (key, v)). apply in_map. exact H.
  - destruct H as [H | H]; [congruence|]. auto.
Qed.
Lemma find_none : forall key (kw : list (text * pyvalue)), List.find (fun p => text_eqb (fst p) key) kw = None -> forall v, ~ In (key, v) kw.
Proof. intros key kw H v I. pose proof (List.find_none _ _ H _ I) as E. cbn in E. destruct (text_eqb_spec key key); congruence. Qed.
Lemma find_some_given : forall key (kw : list (text * pyvalue)) p, List.find (fun p => text_eqb (fst p) key) kw = Some p -> p = (key, snd p) /\ In (key, snd p) kw.
Proof. intros key kw (k, w) H. apply find_some in H. cbn in *. destruct H as (A & B). destruct (text_eqb_spec k key) as [-> |]; [auto | discriminate]. Qed.
Lemma filter_nodup : forall (g : text * pyvalue -> bool) kw, NoDup (map fst kw) -> NoDup (map fst (filter g kw)).
Proof.
  induction kw as [|p kw IH]; cbn; intros N; [auto|]. inversion N; subst. destruct (g p); cbn; auto. constructor; auto.
  intros I. apply H1. apply in_map_iff in I. destruct I as (q & E & J). rewrite <- E. apply in_map. apply filter_In in J. tauto.
Qed.
Lemma in_rest : forall key (kw : list (text * pyvalue)) k v, In (k, v) (filter (fun q => negb (text_eqb (fst q) key)) kw) <-> In (k, v) kw /\ k <> key.
Proof.
  intros. rewrite filter_In. cbn. destruct (text_eqb_spec k key); cbn; split; intros (A & B); split; auto; congruence.
Qed.

(** the value of a parameter *)
Definition chosen (args : list pyvalue) (kw : list (text * pyvalue)) (i : nat) (s : slot) (x : number) : Prop :=
  (exists v, given args kw i (name s) v /\ format s v = Some x) \/ ((forall v, ~ given args kw i (name s) v) /\ initial s = Some x).

Lemma parse_spec : forall slots args kw l, NoDup (map name slots) -> NoDup (map fst kw) ->
  (parse_arguments slots args kw = Some l <->
   well_formed (map name slots) args kw /\ List.length l = List.length slots /\ forall i s x, nth_error slots i = Some s -> nth_error l i = Some x -> chosen args kw i s x).
Proof.
  induction slots as [|s rest IH]; intros args kw l N K; cbn [parse_arguments].
  - split.
    + destruct args; [|discriminate]. destruct kw; [|discriminate]. intros [= <-]. split; [|split; auto].
      * split; cbn; auto. intros ? ? [].
      * intros [|i] s x H; discriminate.
    + intros ((W1 & W2) & L & _). destruct args; cbn in W1; [|lia]. destruct kw as [|(k, v) kw].
      * destruct l; [auto | discriminate].
      * destruct (W2 k v (or_introl eq_refl)) as (i & _ & E). destruct i; discriminate.
  - cbn [map] in N. inversion N as [|? ? N1 N2]; subst. destruct args as [|a args].
    + destruct (List.find _ kw) as [p|] eqn:F.
      * destruct (find_some_given _ _ _ F) as (P1 & P2). pose proof (filter_nodup (fun q => negb (text_eqb (fst q) (name s))) kw K) as K'.
        assert (G : forall v, In (name s, v) kw -> v = snd p). { intros v I. rewrite (find_given _ _ K _ I) in F. injection F as <-. reflexivity. }
        split.
        { destruct (format s (snd p)) as [x|] eqn:X; [|discriminate]. destruct (parse_arguments rest [] _) as [l'|] eqn:E; [|discriminate]. intros [= <-].
          apply IH in E; auto. destruct E as ((W1 & W2) & L & C). split; [|split].
          - split; [cbn; lia|]. intros k v I. destruct (text_eqb_spec k (name s)) as [-> | D].
            + exists 0%nat. auto.
            + destruct (W2 k v) as (i & _ & Ei). { apply in_rest. auto. } exists (S i). split; [cbn; lia | exact Ei].
          - cbn. congruence.
          - intros [|i] t y S1 S2; cbn in S1, S2.
            + injection S1 as <-. injection S2 as <-. left. exists (snd p). split; auto. right. split; [cbn; lia | auto].
            + assert (t_in : In (name t) (map name rest)) by (apply in_map; eapply nth_error_In; eauto).
              destruct (C i t y S1 S2) as [(v & Gv & Fv) | (Gv & Fv)].
              * left. exists v. split; auto. destruct Gv as [Gv | (_ & Gv)]; [destruct i; discriminate|]. right. split; [cbn; lia|]. apply in_rest in Gv. tauto.
              * right. split; auto. intros v [Gw | (_ & Gw)]; [discriminate|]. apply (Gv v). right. split; [cbn; lia|]. apply in_rest. split; auto. congruence. }
        { intros ((W1 & W2) & L & C). destruct l as [|x l]; [discriminate|].
          assert (X : format s (snd p) = Some x).
          { destruct (C 0%nat s x eq_refl eq_refl) as [(v & Gv & Fv) | (Gv & Fv)].
            - destruct Gv as [Gv | (_ & Gv)]; [discriminate|]. rewrite <- (G v Gv). exact Fv.
            - exfalso. apply (Gv (snd p)). right. split; [cbn; lia | auto]. }
          rewrite X. assert (E : parse_arguments rest [] (filter (fun q => negb (text_eqb (fst q) (name s))) kw) = Some l); [|rewrite E; reflexivity].
          apply IH; auto. split; [|split].
          - split; [cbn; lia|]. intros k v I. apply in_rest in I. destruct I as (I & D). destruct (W2 k v I) as (i & _ & Ei). destruct i; cbn in Ei; [congruence|]. exists i. split; [cbn; lia | exact Ei].
          - cbn in L. congruence.
          - intros i t y S1 S2. destruct (C (S i) t y S1 S2) as [(v & Gv & Fv) | (Gv & Fv)].
            + left. exists v. split; auto. destruct Gv as [Gv | (_ & Gv)]; [discriminate|]. right. split; [cbn; lia|]. apply in_rest. split; auto.
              assert (t_in : In (name t) (map name rest)) by (apply in_map; eapply nth_error_In; eauto). congruence.
            + right. split; auto. intros v [Gw | (_ & Gw)]; [destruct i; discriminate|]. apply in_rest in Gw. apply (Gv v). right. split; [cbn; lia | tauto]. }
      * pose proof (find_none _ _ F) as G. split.
        { destruct (initial s) as [x|] eqn:X; [|discriminate]. destruct (parse_arguments rest [] kw) as [l'|] eqn:E; [|discriminate]. intros [= <-].
          apply IH in E; auto. destruct E as ((W1 & W2) & L & C). split; [|split].
          - split; [cbn; lia|]. intros k v I. destruct (W2 k v I) as (i & _ & Ei). exists (S i). split; [cbn; lia | exact Ei].
          - cbn. congruence.
          - intros [|i] t y S1 S2; cbn in S1, S2.
            + injection S1 as <-. injection S2 as <-. right. split; auto. intros v [Gw | (_ & Gw)]; [discriminate|]. exact (G v Gw).
            + destruct (C i t y S1 S2) as [(v & Gv & Fv) | (Gv & Fv)].
              * left. exists v. split; auto. destruct Gv as [Gv | (_ & Gv)]; [destruct i; discriminate|]. right. split; [cbn; lia | auto].
              * right. split; auto. intros v [Gw | (_ & Gw)]; [discriminate|]. apply (Gv v). right. split; [cbn; lia | auto]. }
        { intros ((W1 & W2) & L & C). destruct l as [|x l]; [discriminate|].
          assert (X : initial s = Some x).
          { destruct (C 0%nat s x eq_refl eq_refl) as [(v & Gv & Fv) | (Gv & Fv)]; auto. destruct Gv as [Gv | (_ & Gv)]; [discriminate|]. exfalso. exact (G v Gv). }
          rewrite X. assert (E : parse_arguments rest [] kw = Some l); [|rewrite E; reflexivity].
          apply IH; auto. split; [|split].
          - split; [cbn; lia|]. intros k v I. destruct (W2 k v I) as (i & _ & Ei). destruct i; cbn in Ei.
            + injection Ei as <-. exfalso. exact (G v I).
            + exists i. split; [cbn; lia | exact Ei].
          - cbn in L. congruence.
          - intros i t y S1 S2. destruct (C (S i) t y S1 S2) as [(v & Gv & Fv) | (Gv & Fv)].
            + left. exists v. split; auto. destruct Gv as [Gv | (_ & Gv)]; [discriminate|]. right. split; [cbn; lia | auto].
            + right. split; auto. intros v [Gw | (_ & Gw)]; [destruct i; discriminate|]. apply (Gv v). right. split; [cbn; lia | tauto]. }
    + split.
      * destruct (format s a) as [x|] eqn:X; [|discriminate]. destruct (parse_arguments rest args kw) as [l'|] eqn:E; [|discriminate]. intros [= <-].
        apply IH in E; auto. destruct E as ((W1 & W2) & L & C). split; [|split].
        { split; [cbn; lia|]. intros k v I. destruct (W2 k v I) as (i & Li & Ei). exists (S i). split; [cbn; lia | exact Ei]. }
        { cbn. congruence. }
        { intros [|i] t y S1 S2; cbn in S1, S2.
          - injection S1 as <-. injection S2 as <-. left. exists a. split; auto. left. reflexivity.
          - destruct (C i t y S1 S2) as [(v & Gv & Fv) | (Gv & Fv)].
            + left. exists v. split; auto. destruct Gv as [Gv | (Li & Gv)]; [left; exact Gv|]. right. split; [cbn; lia | auto].
            + right. split; auto. intros v [Gw | (Li & Gw)]; apply (Gv v); [left; exact Gw|]. right. split; [cbn in Li; lia | auto]. }
      * intros ((W1 & W2) & L & C). destruct l as [|x l]; [discriminate|].
        assert (X : format s a = Some x).
        { destruct (C 0%nat s x eq_refl eq_refl) as [(v & Gv & Fv) | (Gv & Fv)].
          - destruct Gv as [Gv | (Li & Gv)]; [|cbn in Li; lia]. cbn in Gv. injection Gv as <-. exact Fv.
          - exfalso. apply (Gv a). left. reflexivity. }
        rewrite X. assert (E : parse_arguments rest args kw = Some l); [|rewrite E; reflexivity].
        apply IH; auto. split; [|split].
        { split; [cbn in W1; lia|]. intros k v I. destruct (W2 k v I) as (i & Li & Ei). destruct i; cbn in Li, Ei; [lia|]. exists i. split; [lia | exact Ei]. }
        { cbn in L. congruence. }
        { intros i t y S1 S2. destruct (C (S i) t y S1 S2) as [(v & Gv & Fv) | (Gv & Fv)].
          - left. exists v. split; auto. destruct Gv as [Gv | (Li & Gv)]; [left; exact Gv|]. right. split; [cbn in Li; lia | auto].
          - right. split; auto. intros v [Gw | (Li & Gw)]; apply (Gv v); [left; exact Gw|]. right. split; [cbn; lia | auto]. }
Qed.

Definition draine_hensley_slots := [mkSlot (T "npoints") format_I (Some (Unsigned 20)); mkSlot (T "cutoff") format_d (Some (Real 0.15)); mkSlot (T "fraction") format_d (Some (Real (-1)))].
Lemma slots_differ : NoDup (map name draine_hensley_slots).
Proof. cbn. repeat constructor; cbn; intuition discriminate. Qed.
Lemma lit15 : 0.15 = 15 / 100.
Proof. lra. Qed.
Lemma call_spec : forall args kw n c f, NoDup (map fst kw) ->
  (parse_arguments draine_hensley_slots args kw = Some [Unsigned n; Real c; Real f] <-> draine_hensley_call args kw n c f).
Proof.
  intros args kw n c f K. rewrite (parse_spec _ args kw _ slots_differ K). unfold draine_hensley_call. cbn [map name draine_hensley_slots]. split.
  - intros (W & _ & C). pose proof (C 0%nat _ _ eq_refl eq_refl) as C0. pose proof (C 1%nat _ _ eq_refl eq_refl) as C1. pose proof (C 2%nat _ _ eq_refl eq_refl) as C2. unfold chosen in C0, C1, C2. cbn [name format initial] in C0, C1, C2.
    split; [exact W|]. split; [|split].
    + destruct C0 as [(v & G & F) | (G & F)]; [left | right; split; [exact G | congruence]]. destruct v; cbn in F; try discriminate. injection F as F. exists n0. auto.
    + destruct C1 as [(v & G & F) | (G & F)]; [left; exists v; split; [exact G | apply means_d; exact F] | right; split; [exact G | rewrite <- lit15; congruence]].
    + destruct C2 as [(v & G & F) | (G & F)]; [left; exists v; split; [exact G | apply means_d; exact F] | right; split; [exact G | congruence]].
  - intros (W & C0 & C1 & C2). split; [exact W|]. split; [reflexivity|]. intros i s x Hs Hx.
    destruct i as [|[|[|i]]]; cbn in Hs, Hx; [| | |destruct i; discriminate]; injection Hs as <-; injection Hx as <-; unfold chosen; cbn [name format initial].
    + destruct C0 as [(m & G & ->) | (G & ->)]; [left; exists (PyInt m); auto | right; auto].
    + destruct C1 as [(v & G & F) | (G & ->)]; [left; exists v; split; [auto | apply means_d; auto] | right; rewrite lit15; auto].
    + destruct C2 as [(v & G & F) | (G & ->)]; [left; exists v; split; [auto | apply means_d; auto] | right; auto].
Qed.
Lemma parsed_shape : forall args kw l, NoDup (map fst kw) -> parse_arguments draine_hensley_slots args kw = Some l -> exists n c f, l = [Unsigned n; Real c; Real f].
Proof.
  intros args kw l K H. apply (parse_spec _ args kw _ slots_differ K) in H. destruct H as (_ & L & C). destruct l as [|x [|y [|z [|]]]]; try discriminate.
  pose proof (C 0%nat _ _ eq_refl eq_refl) as C0. pose proof (C 1%nat _ _ eq_refl eq_refl) as C1. pose proof (C 2%nat _ _ eq_refl eq_refl) as C2. unfold chosen in C0, C1, C2. cbn [name format initial] in C0, C1, C2.
  assert (X : exists n, x = Unsigned n). { destruct C0 as [(v & _ & F) | (_ & F)]; [destruct v; cbn in F; try discriminate|]; injection F as <-; eauto. }
  assert (D : forall v w, format_d v = Some w -> exists r, w = Real r). { intros v w F. destruct v; cbn in F; try discriminate; injection F as <-; eauto. }
  assert (Y : exists r, y = Real r). { destruct C1 as [(v & _ & F) | (_ & F)]; [eauto | injection F as <-; eauto]. }
  assert (W : exists r, z = Real r). { destruct C2 as [(v & _ & F) | (_ & F)]; [eauto | injection F as <-; eauto]. }
  destruct X as (n & ->), Y as (c & ->), W as (f & ->). eauto.
Qed.

(** Any other call is refused: too many arguments, a name that is unknown or was given by position as well, or a value that is not a number (not an integer for npoints). *)
Theorem C101_wrong_arguments : forall asserts fuel quad args kwargs, NoDup (map fst kwargs) ->
  (init_draine_hensley asserts fuel quad args kwargs = WrongArguments <-> forall npoints cutoff fraction, ~ draine_hensley_call args kwargs npoints cutoff fraction).
Proof.
  intros asserts fuel quad args kw K. unfold init_draine_hensley. fold draine_hensley_slots. split.
  - intros H n c f Q. apply (call_spec args kw n c f K) in Q. rewrite Q in H. destruct (draine_hensley_range asserts fuel quad c f) as [[]|]; discriminate.
  - intros H. destruct (parse_arguments draine_hensley_slots args kw) as [l|] eqn:E; [|reflexivity]. destruct (parsed_shape _ _ _ K E) as (n & c & f & ->).
    exfalso. apply (H n c f). apply call_spec; auto.
Qed.
(** Without a positive fraction, the object has the requested number of points, and limits at which the distribution of shapes falls below the cutoff, found within half a percent. *)
Theorem C101_limits_by_cutoff : forall args kwargs npoints cutoff fraction, NoDup (map fst kwargs) -> draine_hensley_call args kwargs npoints cutoff fraction ->
  fraction <= 0 -> 0 < cutoff < 64 / 135 -> exists fuel0 minimum maximum,
  (forall fuel quad, (fuel0 <= fuel)%nat -> exists o, init_draine_hensley false fuel quad args kwargs = Created o /\ get_limits (Some o) = Some (minimum, maximum) /\ number_of_points o = npoints) /\
  0 < minimum < 1 /\ 1 < maximum /\
  (exists u, minimum < u <= 1 /\ u - minimum <= 0.005 * (minimum + u) /\ evaluate_cde2 minimum <= cutoff <= evaluate_cde2 u) /\
  (exists l, 1 <= l < maximum /\ maximum - l <= 0.005 * (maximum + l) /\ evaluate_cde2 maximum <= cutoff <= evaluate_cde2 l).
Proof.
  intros args kw n c f K Q F C. destruct (C69_cutoff_range c C) as (fuel0 & m & x & A & B). exists fuel0, m, x. split; [|exact B]. intros fuel quad L. exists (DraineHensley n m x).
  unfold init_draine_hensley. fold draine_hensley_slots. rewrite (proj2 (call_spec args kw n c f K) Q). unfold draine_hensley_range. destruct (Rlt_dec 0 f); [lra|]. rewrite (A fuel L). auto.
Qed.
(** With a fraction between 0 and 1 the cutoff does not matter, and the shapes between the limits are the requested fraction of the prolate and of the oblate shapes. *)
Theorem C101_limits_by_fraction : forall asserts args kwargs npoints cutoff fraction quad eps, NoDup (map fst kwargs) -> draine_hensley_call args kwargs npoints cutoff fraction ->
  0 < fraction < 1 -> eps <= fraction / 1000000 -> eps <= (1 - fraction) / 1000000 ->
  (forall a b p, 0 < a < b -> ellipsoid_probability (get_shape_factor a) (get_shape_factor b) p -> Rabs (quad a b - p) <= eps) ->
  (forall b p, 0 < b -> ellipsoid_probability 0 (get_shape_factor b) p -> Rabs (quad 0 b - p) <= eps) ->
  exists fuel0 minimum maximum p q, 
    (forall fuel, (fuel0 <= fuel)%nat -> exists o, init_draine_hensley asserts fuel quad args kwargs = Created o /\ get_limits (Some o) = Some (minimum, maximum) /\ number_of_points o = npoints) /\
    0 < minimum < 1 /\ 1 < maximum /\
    ellipsoid_probability (get_shape_factor minimum) (1 / 3) p /\ Rabs (p - fraction * prolate_share) <= 0.0101 * (fraction * prolate_share) /\
    ellipsoid_probability (1 / 3) (get_shape_factor maximum) q /\ Rabs (q - fraction * (1 - prolate_share)) <= 0.00003 * (fraction * (1 - prolate_share)).
Proof.
  intros asserts args kw n c f quad eps K Q F E1 E2 Q1 Q2. destruct (C69_fraction_range quad eps f F E1 E2 Q1 Q2) as (fuel0 & m & x & p & q & A & B). exists fuel0, m, x, p, q. split; [|exact B].
  intros fuel L. exists (DraineHensley n m x).
  unfold init_draine_hensley. fold draine_hensley_slots. rewrite (proj2 (call_spec args kw n c f K) Q). unfold draine_hensley_range, check. destruct (Rlt_dec 0 f); [|lra]. rewrite (A fuel L).
  destruct asserts; [destruct (Rlt_dec f 1); [|lra]|]; auto.
Qed.
(** A fraction of 1 or more is refused by an assertion (when assertions are active), whatever the cutoff. *)
Theorem C101_fraction_too_large : forall fuel quad args kwargs npoints cutoff fraction, NoDup (map fst kwargs) -> draine_hensley_call args kwargs npoints cutoff fraction -> 1 <= fraction ->
  init_draine_hensley true fuel quad args kwargs = Aborted.
Proof.
  intros fuel quad args kw n c f K Q F. unfold init_draine_hensley. fold draine_hensley_slots. rewrite (proj2 (call_spec args kw n c f K) Q). unfold draine_hensley_range, check.
  destruct (Rlt_dec 0 f); [|lra]. destruct (Rlt_dec f 1); [lra | reflexivity].
Qed.
(** The call without arguments: 20 points, a cutoff of 0.15. *)
Example C101_default_call : draine_hensley_call [] [] 20 (15 / 100) (-1).
Proof.
  split; [split; [cbn; lia | intros ? ? []]|]. split; [|split]; right; (split; [|auto]); intros v [H | (_ & [])]; discriminate.
Qed.
(** a mixed call: DraineHensleyShapeDistribution(100, fraction = 0.9) *)
Example C101_mixed_call : draine_hensley_call [PyInt 100] [(T "fraction", PyFloat (9 / 10))] 100 (15 / 100) (9 / 10).
Proof.
  split; [split; [cbn; lia|] |].
  - intros k v [H | []]. injection H as <- <-. exists 2%nat. split; [cbn; lia | reflexivity].
  - split; [|split].
    + left. exists 100%Z. split; [left; reflexivity | reflexivity].
    + right. split; [|auto]. intros v [H | (_ & [H | []])]; discriminate.
    + left. exists (PyFloat (9 / 10)). split; [right; split; [cbn; lia | left; reflexivity] | left; reflexivity].
Qed.
Example C101_default_exists : exists fuel0 o, forall fuel quad, (fuel0 <= fuel)%nat -> init_draine_hensley false fuel quad [] [] = Created o.
Proof.
  destruct (C69_cutoff_range (15 / 100) ltac:(lra)) as (fuel0 & m & x & A & _). exists fuel0, (DraineHensley 20 m x). intros fuel quad L.
  unfold init_draine_hensley. fold draine_hensley_slots. rewrite (proj2 (call_spec [] [] 20 (15 / 100) (-1) (NoDup_nil _)) C101_default_call). unfold draine_hensley_range. destruct (Rlt_dec 0 (-1)); [lra|]. rewrite (A fuel L). reflexivity.
Qed.
(** A negative number of points is not refused, it wraps around: -1 asks for 4294967295 points (the natural claim, a negative number is a wrong argument, is false of the code). *)
Theorem C101_negative_number_of_points_refuted : exists fuel0, forall fuel quad, (fuel0 <= fuel)%nat -> exists o,
  init_draine_hensley false fuel quad [PyInt (-1)] [] = Created o /\ number_of_points o = 4294967295%Z.
Proof.
  destruct (C101_limits_by_cutoff [PyInt (-1)] [] 4294967295 (15 / 100) (-1) (NoDup_nil _)) as (fuel0 & m & x & A & _); [|lra|lra|].
  - split; [split; [cbn; lia | intros ? ? []]|]. split; [left; exists (-1)%Z; split; [left; reflexivity | reflexivity] |].
    split; right; (split; [|auto]); intros v [H | (_ & [])]; discriminate.
  - exists fuel0. intros fuel quad L. destruct (A fuel quad L) as (o & B & _ & D). eauto.
Qed.

(** SingleShapeShapeDistribution(axis_ratio): one shape, and both limits are this shape *)
Theorem C101_single_shape : forall args kwargs a, NoDup (map fst kwargs) ->
  (init_single args kwargs = Created (Single a) <-> well_formed [T "axis_ratio"] args kwargs /\ exists v, given args kwargs 0 (T "axis_ratio") v /\ means v a) /\
  (forall o, init_single args kwargs = Created o -> exists b, o = Single b) /\
  get_limits (Some (Single a)) = Some (a, a) /\ number_of_points (Single a) = 1%Z.
Proof.
  intros args kw a K. set (slots := [mkSlot (T "axis_ratio") format_d None]). assert (N : NoDup (map name slots)) by (cbn; repeat constructor; auto).
  assert (P : parse_arguments slots args kw = Some [Real a] <-> well_formed [T "axis_ratio"] args kw /\ exists v, given args kw 0 (T "axis_ratio") v /\ means v a).
  { rewrite (parse_spec slots args kw _ N K). cbn [map name slots]. split.
    - intros (W & _ & C). split; [exact W|]. destruct (C 0%nat _ _ eq_refl eq_refl) as [(v & G & F) | (_ & F)]; [|discriminate]. exists v. split; [exact G | apply means_d; exact F].
    - intros (W & v & G & F). split; [exact W|]. split; [reflexivity|]. intros i s x Hs Hx. destruct i as [|i]; cbn in Hs, Hx; [|destruct i; discriminate]. injection Hs as <-. injection Hx as <-.
      left. exists v. split; [exact G | apply means_d; exact F]. }
  split; [|split; [|split; reflexivity]].
  - rewrite <- P. unfold init_single. fold slots. destruct (parse_arguments slots args kw) as [[|[z|x] [|]]|]; split; intros H; try discriminate; congruence.
  - intros o. unfold init_single. fold slots. destruct (parse_arguments slots args kw) as [[|[z|x] [|]]|]; try discriminate. intros [= <-]. eauto.
Qed.
Example C101_single_case : init_single [] [(T "axis_ratio", PyInt 2)] = Created (Single 2).
Proof. reflexivity. Qed.

(** Between calls of __init__, get_limits gives the limits of the last distribution that was made; without any (a subclass that does not call __init__), it follows a null pointer. *)
Theorem C101_last_one : forall inits, 
  match List.find (fun e => match e with Created _ => true | _ => false end) (rev inits) with
  | Some (Created (Single a)) => get_limits (fold_left after_init inits new_object) = Some (a, a)
  | Some (Created (DraineHensley n minimum maximum)) => get_limits (fold_left after_init inits new_object) = Some (minimum, maximum)
  | _ => get_limits (fold_left after_init inits new_object) = None
  end.
Proof.
  intros inits. remember (rev inits) as l eqn:El. assert (inits = rev l) as -> by (subst l; symmetry; apply rev_involutive). clear El. induction l as [|e l IH]; cbn [List.find rev fold_left]; [reflexivity|].
  rewrite fold_left_app. cbn [fold_left]. destruct e as [[a | n m x] | | |]; cbn [after_init]; try reflexivity; exact IH.
Qed.
Example C101_last_case : get_limits (fold_left after_init [Created (Single 2); WrongArguments] new_object) = Some (2, 2).
Proof. reflexivity. Qed.

Print Assumptions C101_wrong_arguments.
Print Assumptions C101_limits_by_cutoff.
Print Assumptions C101_limits_by_fraction.
Print Assumptions C101_fraction_too_large.
Print Assumptions C101_negative_number_of_points_refuted.
Print Assumptions C101_single_shape.
Print Assumptions C101_last_one.
