(** C95: Python functions and arguments given to custom objects live exactly as long as they are needed. *)
From Coq Require Import List Arith Lia Bool.
From Verif Require Import PyLife.
Import ListNotations.

(* ---------------------------------------------------------------- bookkeeping of references *)

Definition occ (o : nat) (l : list nat) : nat := count_occ Nat.eq_dec l o.
Definition brefs (bs : nat -> option block) (n o : nat) : nat :=
  list_sum (map (fun b => match bs b with None => 0 | Some k => occ o (fn k :: olist (extra k)) end) (seq 0 n)).
Definition live (bs : nat -> option block) (n : nat) : nat := list_sum (map (fun b => match bs b with None => 0 | Some _ => 1 end) (seq 0 n)).

Lemma occ_cons : forall o a l, occ o (a :: l) = (if a =? o then 1 else 0) + occ o l.
Proof. intros o a l. unfold occ. cbn. destruct (Nat.eq_dec a o); destruct (Nat.eqb_spec a o); lia. Qed.
Lemma occ_app : forall o l m, occ o (l ++ m) = occ o l + occ o m.
Proof. induction l as [|a l IH]; intros m; [reflexivity|]. cbn [app]. rewrite !occ_cons, IH. lia. Qed.
Lemma occ_in : forall o l, 0 < occ o l <-> In o l.
Proof. intros o l. unfold occ. split; intros H; [apply (count_occ_In Nat.eq_dec) | apply (count_occ_In Nat.eq_dec) in H]; lia. Qed.
Lemma sum_ext : forall (f g : nat -> nat) l, (forall x, In x l -> f x = g x) -> list_sum (map f l) = list_sum (map g l).
Proof. intros f g l H. f_equal. apply map_ext_in, H. Qed.
Lemma sum_change : forall (f g : nat -> nat) n b, b < n -> (forall x, x <> b -> f x = g x) -> list_sum (map f (seq 0 n)) + g b = list_sum (map g (seq 0 n)) + f b.
Proof.
  intros f g n b. induction n as [|n IH]; intros H E; [lia|]. rewrite seq_S, !map_app, !list_sum_app. cbn [map list_sum fold_right plus].
  destruct (Nat.eq_dec b n) as [->|N]; [rewrite (sum_ext f g (seq 0 n)); [cbn; lia | intros x Hx; apply in_seq in Hx; apply E; lia] |].
  specialize (IH ltac:(lia) E). rewrite (E n) by lia. cbn. lia.
Qed.
Lemma upd_same : forall {A} (f : nat -> A) i a, upd f i a i = a.
Proof. intros. unfold upd. rewrite Nat.eqb_refl. reflexivity. Qed.
Lemma upd_other : forall {A} (f : nat -> A) i a j, j <> i -> upd f i a j = f j.
Proof. intros. unfold upd. destruct (Nat.eqb_spec j i); [contradiction | reflexivity]. Qed.
Lemma brefs_delete : forall bs n b k o, b < n -> bs b = Some k -> brefs (upd bs b None) n o + occ o (fn k :: olist (extra k)) = brefs bs n o.
Proof.
  intros bs n b k o H E. unfold brefs.
  pose proof (sum_change (fun b0 => match upd bs b None b0 with None => 0 | Some k => occ o (fn k :: olist (extra k)) end) (fun b0 => match bs b0 with None => 0 | Some k => occ o (fn k :: olist (extra k)) end) n b H) as P.
  cbv beta in P. rewrite upd_same, E in P. rewrite P; [lia|]. intros x Hx. rewrite upd_other by exact Hx. reflexivity.
Qed.
Lemma live_delete : forall bs n b k, b < n -> bs b = Some k -> live (upd bs b None) n + 1 = live bs n.
Proof.
  intros bs n b k H E. unfold live.
  pose proof (sum_change (fun b0 => match upd bs b None b0 with None => 0 | Some _ => 1 end) (fun b0 => match bs b0 with None => 0 | Some _ => 1 end) n b H) as P.
  cbv beta in P. rewrite upd_same, E in P. rewrite P; [lia|]. intros x Hx. rewrite upd_other by exact Hx. reflexivity.
Qed.
Lemma live_le : forall bs n, live bs n <= n.
Proof. intros bs n. unfold live. induction n as [|n IH]; [cbn; lia|]. rewrite seq_S, map_app, list_sum_app. cbn. destruct (bs n); lia. Qed.
Lemma brefs_new : forall bs n k o, brefs (upd bs n (Some k)) (S n) o = brefs bs n o + occ o (fn k :: olist (extra k)).
Proof.
  intros bs n k o. unfold brefs. rewrite seq_S, map_app, list_sum_app. cbn [map list_sum fold_right plus]. rewrite upd_same.
  erewrite sum_ext; [rewrite Nat.add_0_r; reflexivity|]. intros x Hx. apply in_seq in Hx. cbv beta. rewrite upd_other by lia. reflexivity.
Qed.
Lemma brefs_in : forall bs n o, 0 < brefs bs n o <-> exists b k, b < n /\ bs b = Some k /\ (fn k = o \/ extra k = Some o).
Proof.
  intros bs n o. unfold brefs. split.
  - induction n as [|n IH]; [cbn; lia|]. rewrite seq_S, map_app, list_sum_app. cbn [map list_sum fold_right plus]. rewrite Nat.add_0_r. intros H.
    destruct (bs n) as [k|] eqn:E.
    + destruct (Nat.eq_dec (occ o (fn k :: olist (extra k))) 0) as [Z0|Z0].
      * destruct IH as (b & k' & B1 & B2); [lia | exists b, k'; repeat split; try lia; apply B2].
      * exists n, k. repeat split; [lia | exact E |]. assert (I : In o (fn k :: olist (extra k))) by (apply occ_in; lia).
        destruct I as [I|I]; [left; exact I | right]. destruct (extra k); [destruct I as [I|[]]; congruence | destruct I].
    + destruct IH as (b & k' & B1 & B2); [lia | exists b, k'; repeat split; try lia; apply B2].
  - intros (b & k & B1 & B2 & B3). pose proof (sum_change (fun b0 => if b0 =? b then 0 else match bs b0 with None => 0 | Some k => occ o (fn k :: olist (extra k)) end) (fun b0 => match bs b0 with None => 0 | Some k => occ o (fn k :: olist (extra k)) end) n b B1) as P.
    cbv beta in P. rewrite Nat.eqb_refl, B2 in P. assert (0 < occ o (fn k :: olist (extra k))); [|rewrite <- Nat.add_0_r, <- P; [lia|]; intros x Hx; destruct (Nat.eqb_spec x b); [contradiction|reflexivity]].
    apply occ_in. destruct B3 as [->|E]; [left; reflexivity | right; rewrite E; left; reflexivity].
Qed.
Lemma increfs_count : forall l c o, increfs l c o = c o + occ o l.
Proof.
  induction l as [|a l IH]; intros c o; [cbn; lia|]. unfold increfs in *. cbn [fold_left]. rewrite IH, occ_cons. unfold add1, upd. destruct (Nat.eqb_spec o a); destruct (Nat.eqb_spec a o); subst; try lia; congruence.
Qed.
Lemma drop_occ : forall {A} (f : A -> list nat) l i a o, nth_error l i = Some a -> occ o (flat_map f (drop_nth i l)) + occ o (f a) = occ o (flat_map f l).
Proof.
  intros A f l. induction l as [|b l IH]; intros [|i] a o H; cbn in H; try discriminate.
  - injection H as ->. cbn [drop_nth flat_map]. rewrite occ_app. lia.
  - cbn [drop_nth flat_map]. rewrite !occ_app. rewrite <- (IH i a o H). lia.
Qed.
Lemma drop_in : forall {A} (l : list A) i a, In a (drop_nth i l) -> In a l.
Proof. intros A l. induction l as [|b l IH]; intros [|i] a; cbn; auto. intros [E|H]; [left; exact E | right; eapply IH; exact H]. Qed.

Record Inv (owner : nat -> nat) (data : nat -> block) (s : state) (pend : list nat) : Prop := {
  i_count : forall o, count s o = user s o + brefs (blocks s) (nblocks s) o + occ o (flat_map (fun r => [fst r]) (runs s)) + occ o (flat_map olist (calls s)) + occ o pend;
  i_live : forall o, o < made s -> freed s o = false -> count s o <> 0;
  i_dead : forall o, freed s o = true \/ made s <= o -> count s o = 0;
  i_fresh : forall o, made s <= o -> freed s o = false;
  i_ptr : forall w b, pointer s w = Some b -> w < made s /\ b < nblocks s /\ owner b = w /\ wrapper s w = true;
  i_ptrdead : forall w b, pointer s w = Some b -> freed s w = true -> blocks s b = None;
  i_block : forall b, b < nblocks s -> blocks s b = None -> freed s (owner b) = true;
  i_data : forall b k, blocks s b = Some k -> b < nblocks s /\ data b = k;
  i_runs : forall w b, In (w, b) (runs s) -> b < nblocks s /\ owner b = w }.

Definition same (s s' : state) : Prop :=
  made s' = made s /\ wrapper s' = wrapper s /\ pointer s' = pointer s /\ nblocks s' = nblocks s /\ user s' = user s /\ runs s' = runs s /\ calls s' = calls s /\ (forall o, freed s o = true -> freed s' o = true) /\
  (forall b, (forall w, pointer s w <> Some b) -> blocks s' b = blocks s b).
Lemma same_refl : forall s, same s s. Proof. intros s. repeat split; auto. Qed.
Lemma same_trans : forall a b c, same a b -> same b c -> same a c.
Proof.
  intros a b c (A1&A2&A3&A4&A5&A6&A7&A8&A9) (B1&B2&B3&B4&B5&B6&B7&B8&B9). repeat split; try congruence; [intros o H; apply B8, A8, H|].
  intros k H. rewrite B9, A9; auto. rewrite A3. exact H.
Qed.

Lemma released : forall owner data fuel l s, Inv owner data s l -> 3 * live (blocks s) (nblocks s) + length l <= fuel ->
  exists s', release fuel l s = Runs s' /\ Inv owner data s' [] /\ same s s'.
Proof.
  intros owner data. induction fuel as [|fuel IH]; intros [|o l] s I F.
  1,3: exists s; split; [reflexivity | split; [exact I | apply same_refl]].
  { cbn [length] in F. lia. }
  assert (P : 0 < count s o) by (rewrite (i_count _ _ _ _ I), occ_cons, Nat.eqb_refl; lia).
  assert (D : freed s o = false) by (destruct (freed s o) eqn:E; [rewrite (i_dead _ _ _ _ I) in P; [lia | left; exact E] | reflexivity]).
  assert (M : o < made s) by (destruct (le_lt_dec (made s) o) as [L|L]; [rewrite (i_dead _ _ _ _ I) in P; [lia | right; exact L] | exact L]).
  cbn [release]. rewrite D. cbn [orb]. destruct (Nat.eqb_spec (count s o) 0) as [E|_]; [lia|].
  cbn [set_count count]. unfold sub1 at 1. rewrite upd_same.
  assert (C : forall q, sub1 (count s) o q = user s q + brefs (blocks s) (nblocks s) q + occ q (flat_map (fun r => [fst r]) (runs s)) + occ q (flat_map olist (calls s)) + occ q l).
  { intros q. unfold sub1, upd. pose proof (i_count _ _ _ _ I q) as Q. rewrite occ_cons in Q. destruct (Nat.eqb_spec q o) as [->|N]; [rewrite Nat.eqb_refl in Q; lia|]. destruct (Nat.eqb_spec o q); [congruence | lia]. }
  destruct (Nat.eqb_spec (count s o - 1) 0) as [Z0|NZ].
  - assert (C0 : sub1 (count s) o o = 0) by (unfold sub1; rewrite upd_same; exact Z0).
    assert (J : pointer s o = None \/ wrapper s o = true) by (destruct (pointer s o) as [b|] eqn:E; [right; apply (i_ptr _ _ _ _ I _ _ E) | left; reflexivity]).
    set (s1 := set_freed o (set_count (sub1 (count s) o) s)).
    assert (S1 : same s s1). { unfold s1, set_freed, set_count, same. cbn. repeat split. intros q H. unfold upd. destruct (q =? o); auto. }
    change (wrapper s1 o) with (wrapper s o). change (pointer s1 o) with (pointer s o).
    assert (K : pointer s o = None -> Inv owner data s1 l).
    { intros E. split.
      - exact C.
      - intros q Hq Fq. cbn in Hq, Fq |- *. unfold upd in Fq. unfold sub1, upd. destruct (Nat.eqb_spec q o); [discriminate|]. apply (i_live _ _ _ _ I); auto.
      - intros q Hq. cbn in Hq |- *. unfold upd in Hq. unfold sub1, upd. destruct (Nat.eqb_spec q o); [subst; lia|]. apply (i_dead _ _ _ _ I); auto.
      - intros q Hq. cbn in Hq |- *. unfold upd. destruct (Nat.eqb_spec q o); [subst; lia|]. apply (i_fresh _ _ _ _ I); auto.
      - exact (i_ptr _ _ _ _ I).
      - intros w b Hw Fw. cbn in Hw, Fw |- *. unfold upd in Fw. destruct (Nat.eqb_spec w o); [subst; congruence|]. eapply (i_ptrdead _ _ _ _ I); eassumption.
      - intros b Hb Eb. cbn in Hb, Eb |- *. unfold upd. destruct (owner b =? o); [reflexivity|]. apply (i_block _ _ _ _ I); assumption.
      - exact (i_data _ _ _ _ I).
      - exact (i_runs _ _ _ _ I). }
    destruct (wrapper s o) eqn:W.
    + destruct (pointer s o) as [b|] eqn:E.
      * destruct (i_ptr _ _ _ _ I _ _ E) as (_ & Hb & Ho & _). change (blocks s1 b) with (blocks s b).
        destruct (blocks s b) as [k|] eqn:Eb; [|pose proof (i_block _ _ _ _ I b Hb Eb) as Q; rewrite Ho in Q; congruence].
        destruct (IH (fn k :: olist (extra k) ++ l) (set_deleted b s1)) as (s' & R & I' & S').
        -- split.
           ++ intros q. cbn. change (sub1 (count s) o q = user s q + brefs (upd (blocks s) b None) (nblocks s) q + occ q (flat_map (fun r => [fst r]) (runs s)) + occ q (flat_map olist (calls s)) + occ q (fn k :: olist (extra k) ++ l)).
              rewrite C, <- (brefs_delete (blocks s) (nblocks s) b k q Hb Eb), app_comm_cons, occ_app. lia.
           ++ intros q Hq Fq. cbn in Hq, Fq |- *. unfold upd in Fq. unfold sub1, upd. destruct (Nat.eqb_spec q o); [discriminate|]. apply (i_live _ _ _ _ I); auto.
           ++ intros q Hq. cbn in Hq |- *. unfold upd in Hq. unfold sub1, upd. destruct (Nat.eqb_spec q o); [subst; lia|]. apply (i_dead _ _ _ _ I); auto.
           ++ intros q Hq. cbn in Hq |- *. unfold upd. destruct (Nat.eqb_spec q o); [subst; lia|]. apply (i_fresh _ _ _ _ I); auto.
           ++ exact (i_ptr _ _ _ _ I).
           ++ intros w c Hw Fw. cbn in Hw, Fw |- *. unfold upd in *. destruct (Nat.eqb_spec c b); [reflexivity|]. destruct (Nat.eqb_spec w o); [subst; congruence|]. eapply (i_ptrdead _ _ _ _ I); eassumption.
           ++ intros c Hc Ec. cbn in Hc, Ec |- *. unfold upd in *. destruct (Nat.eqb_spec c b) as [->|N]; [rewrite Ho, Nat.eqb_refl; reflexivity|]. destruct (owner c =? o); [reflexivity|]. apply (i_block _ _ _ _ I); assumption.
           ++ intros c k' Ec. cbn in Ec |- *. unfold upd in Ec. destruct (Nat.eqb_spec c b); [discriminate|]. apply (i_data _ _ _ _ I _ _ Ec).
           ++ exact (i_runs _ _ _ _ I).
        -- cbn [set_deleted blocks nblocks]. change (blocks s1) with (blocks s). change (nblocks s1) with (nblocks s). pose proof (live_delete (blocks s) (nblocks s) b k Hb Eb). cbn [length] in F |- *. rewrite app_length.
           assert (length (olist (extra k)) <= 1) by (destruct (extra k); cbn; lia). lia.
        -- exists s'. split; [exact R | split; [exact I' | eapply same_trans; [exact S1|]]]. eapply same_trans; [|exact S']. repeat split; auto. intros c Hc. cbn. apply upd_other. intros ->. apply (Hc o). exact E.
      * destruct (IH l s1 (K eq_refl)) as (s' & R & I' & S'); [cbn [length] in F; change (blocks s1) with (blocks s); change (nblocks s1) with (nblocks s); lia|].
        exists s'. split; [exact R | split; [exact I' | eapply same_trans; eassumption]].
    + destruct J as [J|J]; [|congruence]. destruct (IH l s1 (K J)) as (s' & R & I' & S'); [cbn [length] in F; change (blocks s1) with (blocks s); change (nblocks s1) with (nblocks s); lia|].
      exists s'. split; [exact R | split; [exact I' | eapply same_trans; eassumption]].
  - destruct (IH l (set_count (sub1 (count s) o) s)) as (s' & R & I' & S').
    + split.
      * exact C.
      * intros q Hq Fq. cbn in Hq, Fq |- *. unfold sub1, upd. destruct (Nat.eqb_spec q o); [subst; lia|]. apply (i_live _ _ _ _ I); auto.
      * intros q Hq. cbn in Hq |- *. unfold sub1, upd. destruct (Nat.eqb_spec q o); [subst; destruct Hq; [congruence | lia]|]. apply (i_dead _ _ _ _ I); auto.
      * exact (i_fresh _ _ _ _ I).
      * exact (i_ptr _ _ _ _ I).
      * exact (i_ptrdead _ _ _ _ I).
      * exact (i_block _ _ _ _ I).
      * exact (i_data _ _ _ _ I).
      * exact (i_runs _ _ _ _ I).
    + cbn [length] in F. cbn [set_count blocks nblocks]. lia.
    + exists s'. split; [exact R | split; [exact I' | eapply same_trans; [|exact S']]]. repeat split; auto.
Qed.

(** the wrapper objects that were initialised, with what, in order *)
Definition inits (h : list op) : list (nat * block) := flat_map (fun a => match a with Init w f x => [(w, mkB f x)] | _ => [] end) h.
Lemma inits_in : forall h w f x, In (w, mkB f x) (inits h) <-> In (Init w f x) h.
Proof.
  intros h w f x. unfold inits. rewrite in_flat_map. split.
  - intros (a & H & I). destruct a; cbn in I; try contradiction. destruct I as [E|[]]. injection E as -> -> ->. exact H.
  - intros H. exists (Init w f x). split; [exact H | left; reflexivity].
Qed.
Lemma inits_app : forall h k, inits (h ++ k) = inits h ++ inits k.
Proof. intros. unfold inits. apply flat_map_app. Qed.

Record Full (h : list op) (owner : nat -> nat) (data : nat -> block) (s : state) : Prop := {
  f_inv : Inv owner data s [];
  f_inits : map (fun b => (owner b, data b)) (seq 0 (nblocks s)) = inits h;
  f_made : forall b, b < nblocks s -> owner b < made s;
  f_ptr : forall b, b < nblocks s -> pointer s (owner b) <> None }.

Lemma start_full : Full [] (fun _ => 0) (fun _ => mkB 0 None) start.
Proof. split; [split|..]; cbn; intros; try discriminate; try reflexivity; try lia; try contradiction. Qed.

Lemma held_count : forall owner data s o, Inv owner data s [] -> held s o = true -> count s o <> 0 /\ o < made s /\ freed s o = false.
Proof.
  intros owner data s o I H. unfold held in H. apply Nat.ltb_lt in H. pose proof (i_count _ _ _ _ I o) as C. assert (P : count s o <> 0) by lia. split; [exact P|]. split.
  - destruct (le_lt_dec (made s) o) as [L|L]; [exfalso; apply P, (i_dead _ _ _ _ I); right; exact L | exact L].
  - destruct (freed s o) eqn:E; [exfalso; apply P, (i_dead _ _ _ _ I); left; exact E | reflexivity].
Qed.
Lemma referred : forall owner data s pend b k, Inv owner data s pend -> blocks s b = Some k -> freed s (fn k) = false /\ (forall y, extra k = Some y -> freed s y = false).
Proof.
  intros owner data s pend b k I E. destruct (i_data _ _ _ _ I _ _ E) as (Hb & _).
  assert (G : forall q, fn k = q \/ extra k = Some q -> freed s q = false).
  { intros q Hq. assert (0 < brefs (blocks s) (nblocks s) q) by (apply brefs_in; exists b, k; auto).
    destruct (freed s q) eqn:F; [|reflexivity]. pose proof (i_count _ _ _ _ I q) as C. rewrite (i_dead _ _ _ _ I q (or_introl F)) in C. lia. }
  split; [apply G; left; reflexivity | intros y Hy; apply G; right; exact Hy].
Qed.
Lemma run_alive : forall owner data s i w b, Inv owner data s [] -> nth_error (runs s) i = Some (w, b) -> freed s w = false /\ b < nblocks s /\ owner b = w /\ blocks s b <> None.
Proof.
  intros owner data s i w b I E. apply nth_error_In in E. destruct (i_runs _ _ _ _ I _ _ E) as (Hb & Ho).
  assert (F : freed s w = false).
  { destruct (freed s w) eqn:F; [|reflexivity]. exfalso. pose proof (i_count _ _ _ _ I w) as C. rewrite (i_dead _ _ _ _ I w (or_introl F)) in C.
    assert (0 < occ w (flat_map (fun r => [fst r]) (runs s))) by (apply occ_in, in_flat_map; exists (w, b); split; [exact E | left; reflexivity]). lia. }
  repeat split; auto. intros Z0. apply (i_block _ _ _ _ I) in Z0; [rewrite Ho in Z0; congruence | exact Hb].
Qed.
Lemma decref_full : forall h owner data l s, Inv owner data s l -> map (fun b => (owner b, data b)) (seq 0 (nblocks s)) = inits h ->
  (forall b, b < nblocks s -> owner b < made s) -> (forall b, b < nblocks s -> pointer s (owner b) <> None) ->
  exists s', decref l s = Runs s' /\ Full h owner data s' /\ same s s'.
Proof.
  intros h owner data l s I H1 H2 H3. destruct (released owner data (3 * nblocks s + length l) l s I) as (s' & R & I' & S).
  { pose proof (live_le (blocks s) (nblocks s)). lia. }
  exists s'. split; [exact R|]. split; [|exact S]. destruct S as (S1&S2&S3&S4&S5&S6&S7&S8&S9). split; [exact I' | rewrite S4; exact H1 | rewrite S1, S4; exact H2 | rewrite S3, S4; exact H3].
Qed.

(** what a step keeps: an object that no wrapper points to any more is not deleted *)
Definition kept (a : op) (s s' : state) : Prop :=
  nblocks s <= nblocks s' /\ (forall b, b < nblocks s -> (forall w, pointer s w <> Some b) -> blocks s' b = blocks s b /\ (forall w, pointer s' w <> Some b)).
Lemma same_kept : forall a s s', same s s' -> kept a s s'.
Proof. intros a s s' (S1&S2&S3&S4&S5&S6&S7&S8&S9). split; [lia|]. intros b Hb Hp. rewrite S3. split; [apply S9; exact Hp | exact Hp]. Qed.
Lemma inits_same : forall h a, (match a with Init _ _ _ => False | _ => True end) -> inits (h ++ [a]) = inits h.
Proof. intros h a H. rewrite inits_app. destruct a; try contradiction; cbn; apply app_nil_r. Qed.

Lemma step_full : forall a h owner data s, Full h owner data s ->
  match step a s with
  | Runs s' => kept a s s' /\ exists owner' data', Full (h ++ [a]) owner' data' s'
  | UseAfterFree | Stuck => False
  | _ => True
  end.
Proof.
  intros a h owner data s [I F1 F2 F3].
  assert (FF : Inv owner data s []) by exact I.
  destruct a as [| |w f x|w|o|o|o|i|j|i|o].
  1,2: cbn [step]; split; [split; [cbn; lia | intros b Hb Hp; cbn; split; [reflexivity | intros w; unfold upd; destruct (w =? made s); [discriminate | apply Hp]]] |];
    exists owner, data; split; [|rewrite inits_same by exact Logic.I; exact F1 | intros b Hb; cbn; specialize (F2 b Hb); lia | intros b Hb; cbn; specialize (F2 b Hb); rewrite upd_other by lia; apply F3; exact Hb ];
    (split; cbn [new_object made wrapper count freed pointer nblocks blocks user runs calls];
     [ intros q; unfold upd; pose proof (i_count _ _ _ _ I q) as C; destruct (Nat.eqb_spec q (made s)) as [->|N]; [rewrite (i_dead _ _ _ _ I (made s)) in C by (right; lia); change (occ (made s) []) with 0 in *; lia | exact C]
     | intros q Hq Fq; unfold upd; destruct (Nat.eqb_spec q (made s)); [lia | apply (i_live _ _ _ _ I); [lia | exact Fq]]
     | intros q Hq; unfold upd; destruct (Nat.eqb_spec q (made s)) as [->|N]; [destruct Hq as [Hq|Hq]; [rewrite (i_fresh _ _ _ _ I) in Hq by lia; discriminate | lia] | apply (i_dead _ _ _ _ I); destruct Hq; [left; assumption | right; lia]]
     | intros q Hq; apply (i_fresh _ _ _ _ I); lia
     | intros w b Hw; unfold upd in *; destruct (Nat.eqb_spec w (made s)); [discriminate|]; destruct (i_ptr _ _ _ _ I _ _ Hw) as (A & B & C & D); repeat split; auto
     | intros w b Hw; unfold upd in *; destruct (Nat.eqb_spec w (made s)); [discriminate|]; apply (i_ptrdead _ _ _ _ I _ _ Hw)
     | exact (i_block _ _ _ _ I) | exact (i_data _ _ _ _ I) | exact (i_runs _ _ _ _ I)]).
  - (* Init *) cbn [step]. destruct (held s w && wrapper s w && held s f && forallb (held s) (olist x)) eqn:G; [|exact Logic.I].
    apply andb_prop in G as [G Gx]. apply andb_prop in G as [G Gf]. apply andb_prop in G as [Gw Gt].
    destruct (held_count _ _ _ _ I Gw) as (_ & Mw & Fw). rewrite forallb_forall in Gx.
    assert (A : forall q, In q (f :: olist x) -> q < made s /\ freed s q = false).
    { intros q [<-|Hq]; [destruct (held_count _ _ _ _ I Gf) as (_ & A & B); auto | destruct (held_count _ _ _ _ I (Gx q Hq)) as (_ & A & B); auto]. }
    split; [split; [cbn; lia|]; intros b Hb Hp; cbn; split; [apply upd_other; lia | intros v; unfold upd; destruct (v =? w); [intros E; injection E; lia | apply Hp]]|].
    exists (upd owner (nblocks s) w), (upd data (nblocks s) (mkB f x)). split.
    + split; cbn [made wrapper count freed pointer nblocks blocks user runs calls].
      * intros q. rewrite increfs_count, brefs_new, (i_count _ _ _ _ I q). cbn [fn extra]. lia.
      * intros q Hq Fq. rewrite increfs_count. pose proof (i_live _ _ _ _ I q Hq Fq). lia.
      * intros q Hq. rewrite increfs_count, (i_dead _ _ _ _ I q Hq). cbn [plus]. destruct (Nat.eq_dec (occ q (f :: olist x)) 0) as [Z0|Z0]; [exact Z0|].
        assert (In q (f :: olist x)) as Q by (apply occ_in; lia). apply A in Q. destruct Hq; [destruct Q; congruence | lia].
      * exact (i_fresh _ _ _ _ I).
      * intros v b Hv. unfold upd in Hv |- *. destruct (Nat.eqb_spec v w) as [->|N].
        -- injection Hv as <-. rewrite Nat.eqb_refl. repeat split; auto.
        -- destruct (i_ptr _ _ _ _ I _ _ Hv) as (B1 & B2 & B3 & B4). destruct (Nat.eqb_spec b (nblocks s)); [lia|]. repeat split; auto.
      * intros v b Hv Fv. unfold upd in Hv |- *. destruct (Nat.eqb_spec v w) as [->|N]; [congruence|].
        destruct (i_ptr _ _ _ _ I _ _ Hv) as (B1 & B2 & B3 & B4). destruct (Nat.eqb_spec b (nblocks s)); [lia|]. apply (i_ptrdead _ _ _ _ I _ _ Hv Fv).
      * intros b Hb Eb. unfold upd in Eb |- *. destruct (Nat.eqb_spec b (nblocks s)); [discriminate|]. apply (i_block _ _ _ _ I); [lia | exact Eb].
      * intros b k Eb. unfold upd in Eb |- *. destruct (Nat.eqb_spec b (nblocks s)); [injection Eb as <-; split; [lia | reflexivity]|]. destruct (i_data _ _ _ _ I _ _ Eb). split; [lia | assumption].
      * intros v b Hv. destruct (i_runs _ _ _ _ I _ _ Hv). unfold upd. destruct (Nat.eqb_spec b (nblocks s)); [lia|]. split; [lia | assumption].
    + cbn [nblocks]. rewrite inits_app, <- F1, seq_S, map_app. cbn [map inits flat_map app]. rewrite Nat.add_0_l, !upd_same. f_equal. apply map_ext_in. intros b Hb. apply in_seq in Hb. rewrite !upd_other by lia. reflexivity.
    + intros b Hb. cbn [nblocks made] in *. unfold upd. destruct (Nat.eqb_spec b (nblocks s)); [exact Mw | apply F2; lia].
    + intros b Hb. cbn [nblocks pointer] in *. unfold upd. destruct (Nat.eqb_spec b (nblocks s)); [rewrite Nat.eqb_refl; discriminate|]. destruct (owner b =? w); [discriminate | apply F3; lia].
  - (* InitFails *) cbn [step]. destruct (held s w && wrapper s w); [|exact Logic.I]. split; [apply same_kept, same_refl|]. exists owner, data. split; auto. rewrite inits_same by exact Logic.I. exact F1.
  - (* Dup *) cbn [step]. destruct (held s o) eqn:G; [|exact Logic.I]. destruct (held_count _ _ _ _ I G) as (P & M & D). split; [split; [cbn; lia | intros b Hb Hp; split; [reflexivity | exact Hp]]|].
    exists owner, data. split; [|rewrite inits_same by exact Logic.I; exact F1 | exact F2 | exact F3].
    split; cbn [set_user set_count made wrapper count freed pointer nblocks blocks user runs calls]; [| | |exact (i_fresh _ _ _ _ I)|exact (i_ptr _ _ _ _ I)|exact (i_ptrdead _ _ _ _ I)|exact (i_block _ _ _ _ I)|exact (i_data _ _ _ _ I)|exact (i_runs _ _ _ _ I)].
    + intros q. pose proof (i_count _ _ _ _ I q) as C. unfold add1, upd. destruct (Nat.eqb_spec q o); [subst|]; lia.
    + intros q Hq Fq. pose proof (i_live _ _ _ _ I q Hq Fq). unfold add1, upd. destruct (Nat.eqb_spec q o); [subst|]; lia.
    + intros q Hq. unfold add1, upd. destruct (Nat.eqb_spec q o); [subst; destruct Hq; [congruence|lia] | apply (i_dead _ _ _ _ I); exact Hq].
  - (* Drop *) cbn [step]. destruct (held s o) eqn:G; [|exact Logic.I]. unfold held in G. apply Nat.ltb_lt in G.
    destruct (decref_full h owner data [o] (set_user (sub1 (user s) o) s)) as (s' & R & FS & S); try assumption.
    + split; cbn [set_user set_count made wrapper count freed pointer nblocks blocks user runs calls]; [|exact (i_live _ _ _ _ I)|exact (i_dead _ _ _ _ I)|exact (i_fresh _ _ _ _ I)|exact (i_ptr _ _ _ _ I)|exact (i_ptrdead _ _ _ _ I)|exact (i_block _ _ _ _ I)|exact (i_data _ _ _ _ I)|exact (i_runs _ _ _ _ I)].
      intros q. pose proof (i_count _ _ _ _ I q) as C. rewrite occ_cons. unfold sub1, upd. destruct (Nat.eqb_spec q o) as [->|N]; [rewrite Nat.eqb_refl|destruct (Nat.eqb_spec o q); [congruence|]]; lia.
    + rewrite R. split; [apply (same_kept (Drop o)) in S; exact S|]. exists owner, data. destruct FS as [FS1 FS2 FS3 FS4]. split; auto. rewrite inits_same by exact Logic.I. exact FS2.
  - (* Start *) cbn [step]. unfold target. destruct (held s o) eqn:G; [|exact Logic.I]. destruct (wrapper s o) eqn:W; [|exact Logic.I]. destruct (pointer s o) as [b|] eqn:P; [|exact Logic.I].
    destruct (i_ptr _ _ _ _ I _ _ P) as (B1 & B2 & B3 & _). destruct (held_count _ _ _ _ I G) as (_ & M & D).
    destruct (blocks s b) as [k|] eqn:E; [|pose proof (i_block _ _ _ _ I b B2 E) as Q; rewrite B3 in Q; congruence].
    split; [split; [cbn; lia | intros c Hc Hp; split; [reflexivity | exact Hp]]|].
    exists owner, data. split; [|rewrite inits_same by exact Logic.I; exact F1 | exact F2 | exact F3].
    split; cbn [set_runs set_count made wrapper count freed pointer nblocks blocks user runs calls]; [| | |exact (i_fresh _ _ _ _ I)|exact (i_ptr _ _ _ _ I)|exact (i_ptrdead _ _ _ _ I)|exact (i_block _ _ _ _ I)|exact (i_data _ _ _ _ I)|].
    + intros q. pose proof (i_count _ _ _ _ I q) as C. cbn [flat_map fst app]. rewrite occ_cons. unfold add1, upd. destruct (Nat.eqb_spec q o) as [->|N]; [rewrite Nat.eqb_refl|destruct (Nat.eqb_spec o q); [congruence|]]; lia.
    + intros q Hq Fq. pose proof (i_live _ _ _ _ I q Hq Fq). unfold add1, upd. destruct (Nat.eqb_spec q o); [subst|]; lia.
    + intros q Hq. unfold add1, upd. destruct (Nat.eqb_spec q o); [subst; destruct Hq; [congruence|lia] | apply (i_dead _ _ _ _ I); exact Hq].
    + intros v c [Hv|Hv]; [injection Hv as <- <-; auto | apply (i_runs _ _ _ _ I _ _ Hv)].
  - (* BeginCall *) cbn [step]. destruct (nth_error (runs s) i) as [[w b]|] eqn:E; [|exact Logic.I]. destruct (run_alive _ _ _ _ _ _ I E) as (A1 & A2 & A3 & A4).
    destruct (blocks s b) as [k|] eqn:Eb; [|congruence]. destruct (referred _ _ _ _ _ _ I Eb) as (R1 & R2). rewrite R1. cbn [orb].
    assert (X : existsb (freed s) (olist (extra k)) = false) by (destruct (extra k) as [y|]; [cbn; rewrite (R2 y eq_refl); reflexivity | reflexivity]). rewrite X.
    split; [split; [cbn; lia | intros c Hc Hp; split; [reflexivity | exact Hp]]|].
    exists owner, data. split; [|rewrite inits_same by exact Logic.I; exact F1 | exact F2 | exact F3].
    split; cbn [set_calls set_count made wrapper count freed pointer nblocks blocks user runs calls]; [| | |exact (i_fresh _ _ _ _ I)|exact (i_ptr _ _ _ _ I)|exact (i_ptrdead _ _ _ _ I)|exact (i_block _ _ _ _ I)|exact (i_data _ _ _ _ I)|exact (i_runs _ _ _ _ I)].
    + intros q. rewrite increfs_count, (i_count _ _ _ _ I q). cbn [flat_map]. rewrite occ_app. lia.
    + intros q Hq Fq. rewrite increfs_count. pose proof (i_live _ _ _ _ I q Hq Fq). lia.
    + intros q Hq. rewrite increfs_count, (i_dead _ _ _ _ I q Hq). cbn [plus]. destruct (Nat.eq_dec (occ q (olist (extra k))) 0) as [Z0|Z0]; [exact Z0|].
      assert (In q (olist (extra k))) as Q by (apply occ_in; lia). destruct (extra k) as [y|] eqn:Ey; [|destruct Q]. destruct Q as [->|[]].
      assert (0 < brefs (blocks s) (nblocks s) q) by (apply brefs_in; exists b, k; auto). pose proof (i_count _ _ _ _ I q) as C. rewrite (i_dead _ _ _ _ I q Hq) in C. lia.
  - (* EndCall *) cbn [step]. destruct (nth_error (calls s) j) as [x|] eqn:E; [|exact Logic.I].
    destruct (decref_full h owner data (olist x) (set_calls (drop_nth j (calls s)) s)) as (s' & R & FS & S); try assumption.
    + split; cbn [set_calls made wrapper count freed pointer nblocks blocks user runs calls]; [|exact (i_live _ _ _ _ I)|exact (i_dead _ _ _ _ I)|exact (i_fresh _ _ _ _ I)|exact (i_ptr _ _ _ _ I)|exact (i_ptrdead _ _ _ _ I)|exact (i_block _ _ _ _ I)|exact (i_data _ _ _ _ I)|exact (i_runs _ _ _ _ I)].
      intros q. rewrite (i_count _ _ _ _ I q), <- (drop_occ olist (calls s) j x q E). cbn. lia.
    + rewrite R. split; [apply (same_kept (EndCall j)) in S; exact S|]. exists owner, data. destruct FS as [FS1 FS2 FS3 FS4]. split; auto. rewrite inits_same by exact Logic.I. exact FS2.
  - (* Finish *) cbn [step]. destruct (nth_error (runs s) i) as [[o b]|] eqn:E; [|exact Logic.I].
    destruct (decref_full h owner data [o] (set_runs (drop_nth i (runs s)) s)) as (s' & R & FS & S); try assumption.
    + split; cbn [set_runs made wrapper count freed pointer nblocks blocks user runs calls]; [|exact (i_live _ _ _ _ I)|exact (i_dead _ _ _ _ I)|exact (i_fresh _ _ _ _ I)|exact (i_ptr _ _ _ _ I)|exact (i_ptrdead _ _ _ _ I)|exact (i_block _ _ _ _ I)|exact (i_data _ _ _ _ I)|].
      * intros q. rewrite (i_count _ _ _ _ I q), <- (drop_occ (fun r => [fst r]) (runs s) i (o, b) q E). cbn [fst]. change (occ q []) with 0. lia.
      * intros v c Hv. apply drop_in in Hv. apply (i_runs _ _ _ _ I _ _ Hv).
    + rewrite R. split; [apply (same_kept (Finish i)) in S; exact S|]. exists owner, data. destruct FS as [FS1 FS2 FS3 FS4]. split; auto. rewrite inits_same by exact Logic.I. exact FS2.
  - (* Copy *) cbn [step]. unfold target. destruct (held s o) eqn:G; [|exact Logic.I]. destruct (wrapper s o) eqn:W; [|exact Logic.I]. destruct (pointer s o) as [b|] eqn:P; [|exact Logic.I].
    destruct (i_ptr _ _ _ _ I _ _ P) as (B1 & B2 & B3 & _). destruct (held_count _ _ _ _ I G) as (_ & M & D).
    destruct (blocks s b) as [k|] eqn:E; [|pose proof (i_block _ _ _ _ I b B2 E) as Q; rewrite B3 in Q; congruence].
    split; [apply same_kept, same_refl|]. exists owner, data. split; auto. rewrite inits_same by exact Logic.I. exact F1.
Qed.

Lemma run_app : forall h k s, run (h ++ k) s = match run h s with Runs s' => run k s' | e => e end.
Proof. induction h as [|a h IH]; intros k s; [reflexivity|]. cbn [app run]. destruct (step a s); auto. Qed.
Definition kept_by (s s' : state) : Prop :=
  nblocks s <= nblocks s' /\ (forall b, b < nblocks s -> (forall w, pointer s w <> Some b) -> blocks s' b = blocks s b /\ (forall w, pointer s' w <> Some b)).
Lemma run_full : forall h h0 owner data s, Full h0 owner data s ->
  match run h s with
  | Runs s' => kept_by s s' /\ exists owner' data', Full (h0 ++ h) owner' data' s'
  | UseAfterFree | Stuck => False
  | _ => True
  end.
Proof.
  induction h as [|a h IH]; intros h0 owner data s F.
  - cbn. split; [split; [lia | auto] |]. rewrite app_nil_r. exists owner, data. exact F.
  - cbn [run]. pose proof (step_full a h0 owner data s F) as S. destruct (step a s) as [s1| | | | |]; auto. destruct S as ((K1 & K2) & ow & da & F1).
    specialize (IH _ _ _ _ F1). destruct (run h s1) as [s2| | | | |]; auto. destruct IH as ((L1 & L2) & ow2 & da2 & F2). split.
    + split; [lia|]. intros b Hb Hp. destruct (K2 b Hb Hp) as (E & Hp'). destruct (L2 b ltac:(lia) Hp') as (E' & Hp2). split; [congruence | exact Hp2].
    + exists ow2, da2. rewrite <- app_assoc in F2. exact F2.
Qed.
Lemma reached : forall h s, run h start = Runs s -> exists owner data, Full h owner data s.
Proof. intros h s H. pose proof (run_full h [] _ _ _ start_full) as R. rewrite H in R. apply R. Qed.

(* ---------------------------------------------------------------- statements *)

(** No history of Python operations, by any number of threads, makes the module use or free an object that has been freed. *)
Theorem C95_safe : forall h, run h start <> UseAfterFree /\ run h start <> Stuck.
Proof. intros h. pose proof (run_full h [] _ _ _ start_full) as R. destruct (run h start); split; try discriminate; contradiction. Qed.

(** What the program holds exists, and so do the function and the arguments that were given to an object, as long as the object exists. *)
Theorem C95_alive : forall h s, run h start = Runs s ->
  (forall o, 0 < user s o -> freed s o = false) /\
  (forall w f x, In (Init w f x) h -> freed s w = false -> freed s f = false /\ (forall y, x = Some y -> freed s y = false)).
Proof.
  intros h s H. destruct (reached h s H) as (ow & da & [I F1 F2 F3]). split.
  - intros o Ho. apply (held_count ow da s o I). unfold held. apply Nat.ltb_lt. exact Ho.
  - intros w f x Hw Fw. apply inits_in in Hw. rewrite <- F1 in Hw. apply in_map_iff in Hw as (b & E & Hb). injection E as E1 E2. apply in_seq in Hb.
    destruct (blocks s b) as [k|] eqn:Eb; [|pose proof (i_block _ _ _ _ I b ltac:(lia) Eb); congruence].
    destruct (i_data _ _ _ _ I _ _ Eb) as (_ & Dk). destruct (referred _ _ _ _ _ _ I Eb) as (R1 & R2). rewrite <- Dk, E2 in R1, R2. split; [exact R1 | exact R2].
Qed.

(** A calculation that is running keeps the object, its function and its arguments: whenever it calls the function, all of them exist. *)
Theorem C95_callback : forall h s i w b, run h start = Runs s -> nth_error (runs s) i = Some (w, b) ->
  freed s w = false /\ exists s', run (h ++ [BeginCall i]) start = Runs s'.
Proof.
  intros h s i w b H E. destruct (reached h s H) as (ow & da & F). destruct (run_alive _ _ _ _ _ _ (f_inv _ _ _ _ F) E) as (A & _). split; [exact A|].
  rewrite run_app, H. cbn [run]. pose proof (step_full (BeginCall i) h ow da s F) as S. destruct (step (BeginCall i) s) as [s'| | | | |] eqn:G; try contradiction; [exists s'; reflexivity|..];
    exfalso; cbn [step] in G; rewrite E in G; destruct (blocks s b) as [k|]; try discriminate; destruct (freed s (fn k) || existsb (freed s) (olist (extra k))); discriminate.
Qed.

(** Using an object: it must be an object of the right kind and its initialisation must have succeeded; then it can be used, however often it was initialised and
    whatever else has been dropped since. *)
Theorem C95_use : forall h s o, run h start = Runs s -> 0 < user s o ->
  (wrapper s o = false -> run (h ++ [Start o]) start = TypeConfusion /\ run (h ++ [Copy o]) start = TypeConfusion) /\
  (wrapper s o = true -> ~ (exists f x, In (Init o f x) h) -> run (h ++ [Start o]) start = NullPointer /\ run (h ++ [Copy o]) start = NullPointer) /\
  (wrapper s o = true -> (exists f x, In (Init o f x) h) -> (exists s', run (h ++ [Start o]) start = Runs s') /\ run (h ++ [Copy o]) start = Runs s).
Proof.
  intros h s o H Ho. assert (G : held s o = true) by (apply Nat.ltb_lt; exact Ho). destruct (reached h s H) as (ow & da & F). pose proof F as [I F1 F2 F3].
  rewrite !run_app, H. cbn [run step]. unfold target. rewrite G. split; [intros ->; split; reflexivity|].
  assert (P : forall b, pointer s o = Some b -> exists f x, In (Init o f x) h).
  { intros b E. destruct (i_ptr _ _ _ _ I _ _ E) as (_ & Hb & Hw & _). destruct (da b) as [f x] eqn:D. exists f, x. apply inits_in. rewrite <- F1. apply in_map_iff. exists b. rewrite Hw, D. split; [reflexivity | apply in_seq; lia]. }
  split; intros -> N.
  - destruct (pointer s o) as [b|] eqn:E; [exfalso; apply N; eapply P; reflexivity | split; reflexivity].
  - destruct N as (f & x & N). apply inits_in in N. rewrite <- F1 in N. apply in_map_iff in N as (b & E & Hb). injection E as E1 E2. apply in_seq in Hb.
    destruct (pointer s o) as [c|] eqn:Ec; [|exfalso; apply (F3 b); [lia | rewrite E1; exact Ec]].
    destruct (i_ptr _ _ _ _ I _ _ Ec) as (_ & Hc & Hw & _). destruct (held_count _ _ _ _ I G) as (_ & _ & D).
    destruct (blocks s c) as [k|] eqn:Eb; [|pose proof (i_block _ _ _ _ I c Hc Eb); congruence]. split; [eexists; reflexivity | reflexivity].
Qed.

(** If no object is initialised twice (and none of the module's objects is given as a function or argument to another), then an object that nobody holds any more
    has been freed: nothing is left when the program has dropped everything and no calculation is running. *)
Theorem C95_no_leak : forall h s, run h start = Runs s -> NoDup (map fst (inits h)) ->
  (forall w f x, In (Init w f x) h -> wrapper s f = false /\ (forall y, x = Some y -> wrapper s y = false)) ->
  (forall o, user s o = 0) -> runs s = [] -> calls s = [] -> forall o, o < made s -> freed s o = true.
Proof.
  intros h s H N Pl U R C. destruct (reached h s H) as (ow & da & [I F1 F2 F3]).
  assert (inj : forall b c, b < nblocks s -> c < nblocks s -> ow b = ow c -> b = c).
  { intros b c Hb Hc E. rewrite <- F1, map_map in N. cbn [fst] in N.
    apply (NoDup_nth (map ow (seq 0 (nblocks s))) 0) with (i := b) (j := c) in N; [exact N | rewrite map_length, seq_length; lia | rewrite map_length, seq_length; lia |].
    rewrite !(nth_indep _ 0 (ow 0)) by (rewrite map_length, seq_length; lia). rewrite !map_nth, !seq_nth by lia. exact E. }
  assert (Cn : forall o, count s o = brefs (blocks s) (nblocks s) o).
  { intros o. rewrite (i_count _ _ _ _ I o), U, R, C. cbn. lia. }
  assert (W : forall w, w < made s -> wrapper s w = true -> freed s w = true).
  { intros w Hw Tw. destruct (freed s w) eqn:E; [reflexivity|]. exfalso. pose proof (i_live _ _ _ _ I w Hw E) as L. rewrite Cn in L.
    destruct (proj1 (brefs_in (blocks s) (nblocks s) w) ltac:(lia)) as (b & k & Hb & Eb & Hk). destruct (i_data _ _ _ _ I _ _ Eb) as (_ & D).
    destruct k as [f x]. assert (In (Init (ow b) f x) h) as J by (apply inits_in; rewrite <- F1; apply in_map_iff; exists b; rewrite D; split; [reflexivity | apply in_seq; lia]).
    destruct (Pl _ _ _ J) as (J1 & J2). cbn [fn extra] in Hk. destruct Hk as [<-|Hk]; [congruence | rewrite (J2 w Hk) in Tw; discriminate]. }
  assert (B : forall b, b < nblocks s -> blocks s b = None).
  { intros b Hb. destruct (pointer s (ow b)) as [c|] eqn:E; [|exfalso; exact (F3 b Hb E)]. destruct (i_ptr _ _ _ _ I _ _ E) as (Hw & Hc & Ho & Tw).
    assert (c = b) as -> by (apply inj; auto). apply (i_ptrdead _ _ _ _ I _ _ E). apply W; assumption. }
  intros o Ho. destruct (freed s o) eqn:E; [reflexivity|]. exfalso. pose proof (i_live _ _ _ _ I o Ho E) as L. rewrite Cn in L.
  destruct (proj1 (brefs_in (blocks s) (nblocks s) o) ltac:(lia)) as (b & k & Hb & Eb & _). rewrite (B b Hb) in Eb. discriminate.
Qed.

(** Without that condition it is false: when an object is initialised again, what it was first initialised with is never freed, whatever happens afterwards. *)
Theorem C95_reinitialised_refuted : forall h1 h2 h3 w f x g y s,
  run (h1 ++ Init w f x :: h2 ++ Init w g y :: h3) start = Runs s -> freed s f = false /\ (forall z, x = Some z -> freed s z = false).
Proof.
  intros h1 h2 h3 w f x g y s H. replace (h1 ++ Init w f x :: h2 ++ Init w g y :: h3) with ((h1 ++ Init w f x :: h2) ++ Init w g y :: h3) in H by (rewrite <- app_assoc; reflexivity).
  rewrite run_app in H. destruct (run (h1 ++ Init w f x :: h2) start) as [s1| | | | |] eqn:E1; try discriminate. destruct (reached _ _ E1) as (ow & da & F). pose proof F as [I F1 F2 F3].
  cbn [run] in H. pose proof (step_full (Init w g y) _ _ _ _ F) as S. destruct (step (Init w g y) s1) as [s2| | | | |] eqn:E2; try discriminate. destruct S as (_ & ow2 & da2 & Fb).
  cbn [step] in E2. destruct (held s1 w && wrapper s1 w && held s1 g && forallb (held s1) (olist y)) eqn:G; [|discriminate].
  apply andb_prop in G as [G _]. apply andb_prop in G as [G _]. apply andb_prop in G as [Gw _]. destruct (held_count _ _ _ _ I Gw) as (_ & _ & Dw).
  assert (In (w, mkB f x) (inits (h1 ++ Init w f x :: h2))) as J by (apply inits_in, in_or_app; right; left; reflexivity).
  rewrite <- F1 in J. apply in_map_iff in J as (b & E & Hb). injection E as Eo Ed. apply in_seq in Hb.
  destruct (blocks s1 b) as [k|] eqn:Eb; [|pose proof (i_block _ _ _ _ I b ltac:(lia) Eb); congruence]. destruct (i_data _ _ _ _ I _ _ Eb) as (_ & Dk). rewrite Ed in Dk. subst k.
  injection E2 as <-. match type of H with run h3 ?s = _ => set (s2 := s) in * end.
  pose proof (run_full h3 _ _ _ _ Fb) as R. rewrite H in R. destruct R as ((_ & K) & ow3 & da3 & F4).
  destruct (K b) as (E & _); [cbn; lia | intros v; cbn; unfold upd; destruct (Nat.eqb_spec v w) as [->|Nv]; [intros Q; injection Q; lia | intros Q; destruct (i_ptr _ _ _ _ I _ _ Q) as (_ & _ & Q3 & _); congruence] |].
  assert (E' : blocks s b = Some (mkB f x)) by (rewrite E; cbn; rewrite upd_other by lia; exact Eb).
  exact (referred _ _ _ _ _ _ (f_inv _ _ _ _ F4) E').
Qed.
Print Assumptions C95_safe. Print Assumptions C95_alive. Print Assumptions C95_callback. Print Assumptions C95_use. Print Assumptions C95_no_leak. Print Assumptions C95_reinitialised_refuted.

(** Not vacuous. A function and its arguments are given to an object, the program drops both, a calculation starts, calls the function twice (nested), the program drops
    the object while the calculation runs, the calculation ends: then everything has been freed, and nothing before. *)
Definition session : list op :=
  [MakePlain; MakePlain; MakeWrapper; Init 2 0 (Some 1); Drop 0; Drop 1; Start 2; BeginCall 0; BeginCall 0; Drop 2; EndCall 1; EndCall 0].
Definition frees (h : list op) : list bool := match run h start with Runs s => map (freed s) (seq 0 (made s)) | _ => [] end.
Example C95_session : frees session = [false; false; false] /\ frees (session ++ [Finish 0]) = [true; true; true] /\
  NoDup (map fst (inits (session ++ [Finish 0]))) /\ (exists s, run (session ++ [Finish 0]) start = Runs s /\ runs s = [] /\ calls s = [] /\ user s 0 = 0 /\ user s 1 = 0 /\ user s 2 = 0).
Proof.
  split; [reflexivity|]. split; [reflexivity|]. split; [cbn; constructor; [intros []|constructor]|].
  eexists. split; [vm_compute; reflexivity|]. repeat split.
Qed.
(** Initialised twice: the first function is left over. *)
Example C95_leak : frees [MakePlain; MakePlain; MakeWrapper; Init 2 0 None; Init 2 1 None; Drop 0; Drop 1; Drop 2] = [false; true; true].
Proof. reflexivity. Qed.
Example C95_wrong_object : run [MakePlain; Start 0] start = TypeConfusion /\ run [MakeWrapper; InitFails 0; Start 0] start = NullPointer.
Proof. split; reflexivity. Qed.
