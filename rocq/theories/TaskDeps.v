(** The dependency graph, tasks, resources and links of generate_tasks in closed form. *)
From Coq Require Import List Arith Lia Bool ZArith Permutation Relation_Operators Operators_Properties.
From Verif Require Import Base TaskGraph TaskGraphFacts.
Import ListNotations.

Section Deps.
Variable c : cfg.
Notation G := (n_quad c).
Notation N := (n_slot c).
Notation S_ := (n_shape c).
Notation P := (n_point c).
Notation B := (n_block c).

(** The tasks that exist. *)
Definition task_in (t : task) : Prop :=
  match t with
  | TN => True
  | TG i | TWD i => i < G
  | TGrid k | TSW k => flag c k = true
  | TPG is i => is < S_ /\ i < G
  | TAv k p => flag c k = true /\ p < P
  | TI b i | TM0 b i => b < B /\ i < G
  | TC k b => flag c k = true /\ b < B
  | TAL b | TR1 b | TR2 b | TR3 b => b < B
  | TMA b m => b < B /\ 1 <= m <= o_max c
  end.

(** link_tasks(a, b) calls. *)
Inductive dep : task -> task -> Prop :=
| d_grid : forall k, flag c k = true -> dep (TGrid k) (TSW k)
| d_wd : forall i, i < G -> dep (TG i) (TWD i)
| d_pg : forall is i, is < S_ -> i < G -> dep (TG i) (TPG is i)
| d_geom : forall b i, b < B -> i < G -> dep (TPG (b mod S_) i) (TI b i)
| d_reuse_i : forall b i, b < B -> i < G -> N <= b -> dep (TR3 (b - N)) (TI b i)
| d_nb : forall b i, b < B -> i < G -> dep TN (TM0 b i)
| d_wig : forall b i, b < B -> i < G -> dep (TWD i) (TM0 b i)
| d_int : forall b i, b < B -> i < G -> dep (TI b i) (TM0 b i)
| d_prev : forall b i, b < B -> S i < G -> dep (TM0 b i) (TI b (S i))
| d_reuse_m : forall b, b < B -> 0 < G -> N <= b -> dep (TR3 (b - N)) (TM0 b 0)
| d_al_c : forall k b, flag c k = true -> b < B -> dep (TAL b) (TC k b)
| d_sw_c : forall k b, flag c k = true -> b < B -> dep (TSW k) (TC k b)
| d_c_av : forall k b, flag c k = true -> b < B -> dep (TC k b) (TAv k (b / S_))
| d_al_r1 : forall b, b < B -> dep (TAL b) (TR1 b)
| d_r1_r2 : forall b, b < B -> dep (TR1 b) (TR2 b)
| d_c_r2 : forall k b, flag c k = true -> b < B -> dep (TC k b) (TR2 b)
| d_r2_r3 : forall b, b < B -> dep (TR2 b) (TR3 b)
| d_m0_ma : forall b m, b < B -> 0 < G -> 1 <= m <= o_max c -> dep (TM0 b (G - 1)) (TMA b m)
| d_ma_al : forall b m, b < B -> 1 <= m <= o_max c -> dep (TMA b m) (TAL b).

Definition blk (b : nat) : list ev := block_events c (b mod N) (unlocker c b) (b / S_) b (b mod S_).

Lemma block_split : forall p is, p < P -> is < S_ ->
  p * S_ + is < B /\ (p * S_ + is) / S_ = p /\ (p * S_ + is) mod S_ = is.
Proof.
  intros p is Hp Hi. unfold n_block. split; [nia|]. split.
  - rewrite Nat.div_add_l by lia. rewrite Nat.div_small by lia. lia.
  - rewrite Nat.add_comm, Nat.mod_add by lia. apply Nat.mod_small. auto.
Qed.
Lemma block_join : forall b, b < B -> b / S_ < P /\ b mod S_ < S_ /\ (b / S_) * S_ + b mod S_ = b.
Proof.
  intros b Hb. unfold n_block in Hb. assert (S_ <> 0) by (intros E; rewrite E in Hb; lia).
  pose proof (Nat.mod_upper_bound b S_ H). pose proof (Nat.div_mod b S_ H). split; [nia|]. split; [auto|lia].
Qed.

Lemma in_generate : 0 < N -> forall e, In e (generate c) <->
  In e (gen_shared c) \/ In e (gen_slots c) \/ (exists p, p < P /\ In e (gen_point c p)) \/ (exists b, b < B /\ In e (blk b)).
Proof.
  intros HN e. rewrite generate_closed by auto. rewrite !in_app_iff, in_flat_map. split.
  - intros [H|[H|(p & Hp & H)]]; auto. apply in_seq in Hp. apply in_app_iff in H. destruct H as [H|H].
    + right. right. left. exists p. split; auto. lia.
    + apply in_flat_map in H. destruct H as (is & Hi & H). apply in_seq in Hi.
      destruct (block_split p is ltac:(lia) ltac:(lia)) as (A1 & A2 & A3).
      right. right. right. exists (p * S_ + is). split; auto. unfold blk. rewrite A2, A3. exact H.
  - intros [H|[H|[(p & Hp & H)|(b & Hb & H)]]]; auto.
    + right. right. exists p. split; [apply in_seq; lia|apply in_app_iff; auto].
    + destruct (block_join b Hb) as (A1 & A2 & A3). right. right. exists (b / S_). split; [apply in_seq; lia|].
      apply in_app_iff. right. apply in_flat_map. exists (b mod S_). split; [apply in_seq; lia|].
      unfold nth_block. rewrite A3. exact H.
Qed.

Ltac inn H := repeat match type of H with
  | In _ (_ ++ _) => apply in_app_or in H; destruct H as [H|H]
  | In _ (for_kinds _ _) => apply in_for_kinds in H; let k := fresh "k" in let Hk := fresh "Hk" in destruct H as (k & Hk & H)
  | In _ (flat_map _ _) => apply in_flat_map in H; let i := fresh "i" in let Hi := fresh "Hi" in
       destruct H as (i & Hi & H); apply in_seq in Hi
  | In _ (map _ _) => apply in_map_iff in H; let i := fresh "i" in let Hi := fresh "Hi" in
       destruct H as (i & H & Hi); try discriminate H
  | In _ (_ :: _) => destruct H as [H|H]; [try discriminate H|]
  | In _ [] => destruct H
  end.

(** A list of events of one computable. *)
Lemma in_computable : forall e t l, In e (computable t l) <->
  e = ERes (RT t) None \/ e = ETask t \/ e = ELink t (RT t) true \/ exists r, In r l /\ e = ELink t r false.
Proof.
  intros e t l. unfold computable. rewrite in_app_iff, in_map_iff. cbn [In]. split.
  - intros [[H|[H|[H|[]]]]|(r & H & Hr)]; subst; eauto 7.
  - intros [H|[H|[H|(r & Hr & H)]]]; subst; eauto 8.
Qed.

Lemma order_events_eq : forall r un p b is ig, order_events r un p b is ig =
        [ETask (TI b ig);
         ELink (TI b ig) (RInter r) true; ELink (TI b ig) (RT (TPG is ig)) false;
         ELink (TI b ig) (RConv b) false; ELink (TI b ig) (RIV p) false;
         EDep (TPG is ig) (TI b ig)] ++
        dep_if un (TI b ig) ++
        [EPutTask (TI b ig);
         ETask (TM0 b ig);
         ELink (TM0 b ig) (RTmM (2 * r) 0) true; ELink (TM0 b ig) (RConv b) true;
         ELink (TM0 b ig) (RT TN) false; ELink (TM0 b ig) (RT (TG ig)) false;
         ELink (TM0 b ig) (RT (TPG is ig)) false; ELink (TM0 b ig) (RIV p) false;
         ELink (TM0 b ig) (RInter r) false; ELink (TM0 b ig) (RT (TWD ig)) false;
         EDep TN (TM0 b ig); EDep (TWD ig) (TM0 b ig); EDep (TI b ig) (TM0 b ig)] ++
        (if ig =? 0 then dep_if un (TM0 b ig) else [EDep (TM0 b (ig - 1)) (TI b ig)]) ++
        [EPutTask (TM0 b ig)].
Proof.
  intros. unfold order_events. cbn [gen_orders fst]. rewrite app_nil_r.
  destruct (ig =? 0); reflexivity.
Qed.

Lemma shared_deps : forall a b, In (EDep a b) (gen_shared c) -> dep a b.
Proof.
  intros a b H. unfold gen_shared in H. cbn [computable app map] in H. inn H; injection H as <- <-; constructor; auto; lia.
Qed.

Lemma block_deps : forall a t b, b < B -> In (EDep a t) (blk b) -> dep a t.
Proof.
  intros a t b Hb H. unfold blk, block_events in H. inn H; try (injection H as <- <-; constructor; auto; fail).
  - rewrite order_events_eq in H. inn H; try (injection H as <- <-; constructor; auto; lia).
    + unfold unlocker in H. destruct (Nat.ltb_spec b N); cbn [dep_if] in H; inn H. injection H as <- <-. constructor; auto; lia.
    + destruct (Nat.eqb_spec i 0) as [e|e].
      * subst i. unfold unlocker in H. destruct (Nat.ltb_spec b N); cbn [dep_if] in H; inn H. injection H as <- <-.
        constructor; auto; lia.
      * inn H. injection H as <- <-. destruct i as [|i]; [lia|]. replace (S i - 1) with i by lia. constructor; auto; lia.
  - unfold last_m0 in H. destruct (Nat.eqb_spec G 0); cbn [dep_ptr] in H; inn H. injection H as <- <-. constructor; auto; lia.
  - injection H as <- <-. constructor; auto; lia.
Qed.

Ltac memb := cbn [In app dep_if dep_ptr]; repeat (first [left; reflexivity | right]); fail.
Ltac kk k := apply in_for_kinds; exists k; split; [auto|].
Ltac ee i := apply in_flat_map; exists i; split; [apply in_seq; lia|].

Theorem dep_iff : 0 < N -> forall a b, In (EDep a b) (generate c) <-> dep a b.
Proof.
  intros HN a t. rewrite in_generate by auto. split.
  - intros [H|[H|[(p & Hp & H)|(b & Hb & H)]]].
    + apply shared_deps; auto.
    + unfold gen_slots in H. inn H.
    + unfold gen_point in H. inn H.
    + eapply block_deps; eauto.
  - intros H. destruct H; try (left; unfold gen_shared; rewrite !in_app_iff;
      first [ do 3 right; left; apply in_for_kinds; exists k; split; [auto|apply in_app_iff; right; cbn; auto]; fail
            | do 4 right; left; apply in_flat_map; exists i; split; [apply in_seq; lia|apply in_app_iff; right; cbn; auto]; fail
            | do 5 right; apply in_flat_map; exists is; split; [apply in_seq; lia|]; apply in_flat_map; exists i; split; [apply in_seq; lia|];
              apply in_app_iff; right; cbn; auto; fail]).
    all: right; right; right; exists b; split; [assumption|]; unfold blk, block_events; rewrite !in_app_iff.
    all: try (do 2 right; left; ee i; rewrite order_events_eq, !in_app_iff;
              first [left; memb | do 2 right; left; memb |
              right; left; unfold unlocker; destruct (Nat.ltb_spec b N); [lia|memb]]).
    + do 2 right. left. ee (S i). rewrite order_events_eq, !in_app_iff. do 3 right. left. cbn [Nat.eqb].
      replace (S i - 1) with i by lia. cbn. auto.
    + do 2 right. left. ee 0. rewrite order_events_eq, !in_app_iff. do 3 right. left. cbn [Nat.eqb].
      unfold unlocker. destruct (Nat.ltb_spec b N); [lia|memb].
    + do 4 right. left. kk k. memb.
    + do 4 right. left. kk k. memb.
    + do 4 right. left. kk k. memb.
    + do 5 right. left. memb.
    + do 5 right. left. memb.
    + do 6 right. left. kk k. memb.
    + do 7 right. left. memb.
    + do 8 right. ee (m - 1). replace (m - 1 + 1) with m by lia. cbn zeta. rewrite !in_app_iff. right. left.
      unfold last_m0. destruct (Nat.eqb_spec G 0); [lia|memb].
    + do 8 right. ee (m - 1). replace (m - 1 + 1) with m by lia. cbn zeta. rewrite !in_app_iff. right. right. cbn. auto.
Qed.

(** Null pointers are dereferenced exactly when no order is tried although m>0 tasks exist. *)
Theorem null_iff : 0 < N -> (In ENull (generate c) <-> G = 0 /\ 0 < B /\ 0 < o_max c).
Proof.
  intros HN. rewrite in_generate by auto. split.
  - intros [H|[H|[(p & Hp & H)|(b & Hb & H)]]].
    + unfold gen_shared in H. cbn [computable app map] in H. inn H.
    + unfold gen_slots in H. inn H.
    + unfold gen_point in H. inn H.
    + unfold blk, block_events in H. inn H.
      * rewrite order_events_eq in H. inn H.
        -- unfold unlocker in H. destruct (Nat.ltb_spec b N); cbn [dep_if] in H; inn H.
        -- unfold unlocker in H. destruct (i =? 0), (Nat.ltb_spec b N); cbn [dep_if] in H; inn H.
      * unfold last_m0 in H. destruct (Nat.eqb_spec G 0); cbn [dep_ptr] in H; inn H. split; [auto|]. lia.
  - intros (HG & HB & HM). right. right. right. exists 0. split; [auto|]. unfold blk, block_events. rewrite !in_app_iff.
    do 8 right. ee 0. cbn zeta. rewrite !in_app_iff. right. left. unfold last_m0. rewrite HG. cbn. auto.
Qed.

Theorem task_iff : 0 < N -> forall t, In (ETask t) (generate c) <-> task_in t.
Proof.
  intros HN t. rewrite in_generate by auto. split.
  - intros [H|[H|[(p & Hp & H)|(b & Hb & H)]]].
    + unfold gen_shared in H. cbn [computable app map] in H. inn H; injection H as <-; cbn; auto; lia.
    + unfold gen_slots in H. inn H.
    + unfold gen_point in H. inn H. injection H as <-. cbn. auto.
    + unfold blk, block_events in H. inn H; try (injection H as <-; cbn; auto; lia).
      * rewrite order_events_eq in H. inn H; try (injection H as <-; cbn; auto; lia).
        -- unfold unlocker in H. destruct (Nat.ltb_spec b N); cbn [dep_if] in H; inn H.
        -- unfold unlocker in H. destruct (i =? 0), (Nat.ltb_spec b N); cbn [dep_if] in H; inn H.
      * unfold last_m0 in H. destruct (Nat.eqb_spec G 0); cbn [dep_ptr] in H; inn H.
  - intros H. destruct t as [|i|k|k|i|is i|k p|b i|b i|b|k b|b|b|b|b m]; cbn in H.
    + left. unfold gen_shared. cbn. auto.
    + left. unfold gen_shared. rewrite !in_app_iff. right. left. ee i. cbn. auto.
    + left. unfold gen_shared. rewrite !in_app_iff. do 2 right. left. kk k. cbn. auto.
    + left. unfold gen_shared. rewrite !in_app_iff. do 3 right. left. kk k. cbn. auto.
    + left. unfold gen_shared. rewrite !in_app_iff. do 4 right. left. ee i. cbn. auto.
    + left. unfold gen_shared. rewrite !in_app_iff. do 5 right. ee is. ee i. cbn. auto.
    + right. right. left. exists p. split; [tauto|]. unfold gen_point. apply in_app_iff. right. destruct H. kk k. cbn. auto.
    + right. right. right. exists b. split; [tauto|]. unfold blk, block_events. rewrite !in_app_iff. do 2 right. left. ee i.
      rewrite order_events_eq, !in_app_iff. left. cbn. auto.
    + right. right. right. exists b. split; [tauto|]. unfold blk, block_events. rewrite !in_app_iff. do 2 right. left. ee i.
      rewrite order_events_eq, !in_app_iff. do 2 right. left. cbn. auto.
    + right. right. right. exists b. split; [tauto|]. unfold blk, block_events. rewrite !in_app_iff. do 3 right. left. cbn. auto.
    + right. right. right. exists b. split; [tauto|]. unfold blk, block_events. rewrite !in_app_iff. do 4 right. left. destruct H. kk k. cbn. auto.
    + right. right. right. exists b. split; [tauto|]. unfold blk, block_events. rewrite !in_app_iff. do 5 right. left. cbn. auto.
    + right. right. right. exists b. split; [tauto|]. unfold blk, block_events. rewrite !in_app_iff. do 5 right. left. memb.
    + right. right. right. exists b. split; [tauto|]. unfold blk, block_events. rewrite !in_app_iff. do 7 right. left. memb.
    + right. right. right. exists b. split; [tauto|]. unfold blk, block_events. rewrite !in_app_iff. do 8 right. ee (m - 1).
      replace (m - 1 + 1) with m by lia. cbn. auto.
Qed.

Lemma dep_tasks : 0 < N -> forall a b, dep a b -> task_in a /\ task_in b.
Proof.
  intros HN a b H. destruct H; cbn; try (split; auto; lia).
  - destruct (block_join b H) as (A1 & A2 & A3). auto.
  - destruct (block_join b H0) as (A1 & A2 & A3). auto.
Qed.

(* ------------------------------------------------ acyclicity *)

(** A number that grows along every dependency. *)
Definition rank (t : task) : nat :=
  let base b := 2 + b * (2 * G + 10) in
  match t with
  | TN | TG _ | TGrid _ => 0
  | TSW _ | TWD _ | TPG _ _ => 1
  | TI b i => base b + 2 * i
  | TM0 b i => base b + 2 * i + 1
  | TMA b _ => base b + 2 * G
  | TAL b => base b + 2 * G + 1
  | TC _ b | TR1 b => base b + 2 * G + 2
  | TR2 b => base b + 2 * G + 3
  | TR3 b => base b + 2 * G + 4
  | TAv _ _ => 2 + B * (2 * G + 10)
  end.

Lemma dep_rank : 0 < N -> forall a b, dep a b -> rank a < rank b.
Proof.
  intros HN a b H. destruct H; cbn; try nia.
Qed.

Lemma path_rank : 0 < N -> forall a b, clos_trans task dep a b -> rank a < rank b.
Proof. intros HN a b H. induction H; [apply dep_rank; auto|lia]. Qed.

Lemma dep_acyclic : 0 < N -> forall a, ~ clos_trans task dep a a.
Proof. intros HN a H. apply path_rank in H; auto. lia. Qed.

End Deps.
