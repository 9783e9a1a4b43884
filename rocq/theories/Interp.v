(** Smooth functions are close to polynomials: interpolation at the points of a Gauss rule. With C49 this bounds the error of the
    quadrature rules. Specification side: nothing here is taken from the code. *)
From Coq Require Import List Arith Lia Bool Reals Lra FinFun.
From Coquelicot Require Import Coquelicot.
From Verif Require Import Legendre GaussExact Props_quad GaussRoots GaussBounds.
Import ListNotations.
Local Open Scope R_scope.

Definition derivatives (D : nat -> R -> R) : Prop := forall k x, derivable_pt_lim (D k) x (D (S k) x).

(* ---------------------------------------------- zeros of higher derivatives *)
Fixpoint insert (x : R) (l : list R) : list R := match l with [] => [x] | y :: t => if Rlt_dec x y then x :: l else y :: insert x t end.
Lemma insert_length : forall x l, length (insert x l) = S (length l).
Proof. induction l as [|y l IH]; cbn; auto. destruct (Rlt_dec x y); cbn; auto. Qed.
Lemma insert_in : forall x l z, In z (insert x l) -> z = x \/ In z l.
Proof. induction l as [|y l IH]; cbn; intros z H; [intuition|]. destruct (Rlt_dec x y); cbn in H; [intuition|]. destruct H as [H | H]; auto. destruct (IH z H); auto. Qed.
Lemma insert_chain : forall l a x, chain a l -> a < x -> ~ In x l -> chain a (insert x l).
Proof.
  induction l as [|y l IH]; intros a x C A N; cbn; [auto|]. destruct C as (C1 & C2). destruct (Rlt_dec x y) as [L | L]; cbn; [auto|]. split; auto. apply IH; auto; [|intros I; apply N; right; auto].
  assert (x <> y) by (intros ->; apply N; left; auto). lra.
Qed.
Lemma sort_exists : forall l a, NoDup l -> (forall x, In x l -> a < x) -> exists l', length l' = length l /\ chain a l' /\ forall x, In x l' -> In x l.
Proof.
  induction l as [|y l IH]; intros a ND H; [exists []; cbn; auto|]. inversion ND as [|? ? N ND']; subst. destruct (IH a ND') as (l' & L1 & L2 & L3); [intros; apply H; right; auto|].
  exists (insert y l'). rewrite insert_length, L1. split; auto. split; [apply insert_chain; auto; apply H; left; auto|]. intros x I. apply insert_in in I. destruct I as [-> | I]; [left; auto | right; auto].
Qed.
Lemma rolle_step : forall (f g : R -> R) l a, (forall x, derivable_pt_lim f x (g x)) -> chain a l -> f a = 0 -> (forall x, In x l -> f x = 0) ->
  exists l', length l' = length l /\ chain a l' /\ (forall x, In x l' -> g x = 0) /\ forall b, a <= b -> (forall x, In x l -> x <= b) -> forall x, In x l' -> x <= b.
Proof.
  intros f g l. induction l as [|b l IH]; intros a HD C A F; [exists []; cbn; intuition|]. destruct C as (C1 & C2).
  assert (B: f b = 0) by (apply F; left; auto). destruct (IH b HD C2 B ltac:(intros; apply F; right; auto)) as (l' & L1 & L2 & L3 & L4).
  destruct (MVT_cor2 f g a b C1) as (c & E & Hc); [intros; apply HD|]. exists (c :: l'). cbn [length]. split; [auto|]. split; [split; [lra|]; apply chain_weaken with b; auto; lra|]. split.
  - intros x [<- | I]; auto. rewrite A, B in E. destruct (Rmult_integral (g c) (b - a)); auto; lra.
  - intros t Ht Hl x [<- | I]; [specialize (Hl b (or_introl eq_refl)); lra|]. apply (L4 t); auto; [apply Hl; left; auto|]. intros. apply Hl. right. auto.
Qed.
Lemma rolle_iterated : forall m (G : nat -> R -> R) l a b, derivatives G -> length l = m -> chain a l -> G 0%nat a = 0 -> (forall x, In x l -> G 0%nat x = 0 /\ x <= b) -> a <= b ->
  exists c, a <= c <= b /\ G m c = 0.
Proof.
  induction m; intros G l a b HD L C A F AB; [exists a; split; [lra | auto]|].
  destruct (rolle_step (G 0%nat) (G 1%nat) l a (HD 0%nat) C A) as (l' & L1 & L2 & L3 & L4); [intros; apply F; auto|].
  destruct l' as [|a' l']; [cbn in L1; lia|]. destruct L2 as (L2 & L2'). cbn [length] in L1.
  assert (B: forall x, In x (a' :: l') -> x <= b) by (apply L4; auto; intros; apply F; auto).
  destruct (IHm (fun k => G (S k)) l' a' b) as (c & Hc & E); [intros k x; apply HD | lia | auto | apply L3; left; auto | intros x I; split; [apply L3; right; auto | apply B; right; auto] | apply B; left; auto|].
  exists c. split; [lra | auto].
Qed.
Lemma zero_of_derivative : forall m (G : nat -> R -> R) l a b, derivatives G -> NoDup l -> length l = S m -> (forall x, In x l -> G 0%nat x = 0 /\ a <= x <= b) ->
  exists c, a <= c <= b /\ G m c = 0.
Proof.
  intros m G l a b HD ND L F. destruct (sort_exists l (a - 1) ND) as (l' & L1 & L2 & L3); [intros x I; pose proof (F x I); lra|].
  destruct l' as [|c l']; [cbn in L1; lia|]. destruct L2 as (L2 & L2'). cbn [length] in L1. destruct (F c (L3 c (or_introl eq_refl))) as (Z & B).
  destruct (rolle_iterated m G l' c b HD ltac:(lia) L2' Z) as (d & Hd & E); [intros x I; destruct (F x (L3 x (or_intror I))); split; auto; lra | lra|]. exists d. split; [lra | auto].
Qed.

(* ---------------------------------------------- interpolation *)
Lemma interpolation : forall (f : R -> R) l, NoDup l -> exists p, (length p <= length l)%nat /\ forall x, In x l -> eval p x = f x.
Proof.
  intros f l. induction l as [|y l IH]; intros ND; [exists []; split; [auto | intros x []]|]. inversion ND as [|? ? N ND']; subst. destruct (IH ND') as (p & L & E).
  assert (W: exists w, (length w <= S (length l))%nat /\ (forall x, In x l -> eval w x = 0) /\ eval w y <> 0).
  { clear - N. induction l as [|z l IHl]; [exists [1]; split; [cbn; lia|]; split; [intros x []|]; cbn; lra|]. destruct IHl as (w & L & Z & NZ); [intros I; apply N; right; auto|].
    exists (padd (0 :: w) (pscale (- z) w)). split; [|split].
    - apply length_padd; [cbn [length]; lia|]. unfold pscale. rewrite map_length. cbn [length]. lia.
    - intros x [<- | I]; rewrite eval_padd, eval_pscale; cbn [eval]; [ring|]. rewrite Z by auto. ring.
    - rewrite eval_padd, eval_pscale. cbn [eval]. replace (0 + y * eval w y + - z * eval w y) with ((y - z) * eval w y) by ring. apply Rmult_integral_contrapositive. split; auto.
      intros Q. apply N. left. lra. }
  destruct W as (w & Lw & Zw & NZ). exists (padd p (pscale ((f y - eval p y) / eval w y) w)). split; [apply length_padd; [cbn [length]; lia | unfold pscale; rewrite map_length; cbn [length]; lia]|].
  intros x [<- | I]; rewrite eval_padd, eval_pscale; [field; auto|]. rewrite (Zw x), (E x) by auto. ring.
Qed.
Lemma iter_deriv_short : forall m p, (length p <= m)%nat -> forall x, eval (Nat.iter m deriv p) x = 0.
Proof.
  assert (L: forall p x, (length p <= 1)%nat -> eval (deriv p) x = 0). { intros [|a [|b p]] x H; cbn; try lra. cbn in H. lia. }
  assert (LD: forall p n, (length p <= S n)%nat -> exists q, (length q <= n)%nat /\ forall x, eval (deriv p) x = eval q x).
  { induction p as [|a p IH]; intros n H; [exists []; split; [cbn; lia | auto]|]. cbn [length] in H. destruct n as [|n]; [exists []; split; [cbn; lia|]; intros x; apply L; cbn [length]; lia|].
    destruct (IH n ltac:(lia)) as (q & Lq & Eq). exists (padd p (0 :: q)). split; [apply length_padd; cbn [length]; lia|]. intros x. cbn [deriv]. rewrite !eval_padd. cbn [eval]. rewrite Eq. auto. }
  assert (PE: forall p q, peq p q -> peq (deriv p) (deriv q)). { intros p q H x. apply (uniqueness_limite (eval p) x); [apply eval_deriv|]. intros e He. destruct (eval_deriv q x e He) as (d & Hd). exists d. intros. rewrite !H. apply Hd; auto. }
  induction m; intros p H x; [destruct p; [auto | cbn in H; lia]|].
  assert (IT: forall k r, Nat.iter (S k) deriv r = Nat.iter k deriv (deriv r)). { induction k; intros r; [auto|]. change (deriv (Nat.iter (S k) deriv r) = deriv (Nat.iter k deriv (deriv r))). rewrite IHk. auto. }
  rewrite IT. destruct (LD p m ltac:(lia)) as (q & Lq & Eq). assert (IP: forall k r s, peq r s -> peq (Nat.iter k deriv r) (Nat.iter k deriv s)). { induction k; intros r s HH; [auto|]. cbn. apply PE, IHk, HH. }
  rewrite (IP m (deriv p) q Eq x). apply IHm. auto.
Qed.

(** A function with M derivatives, of which the last is bounded by B on [a,b], is within B (b-a)^M M! / (2M)! of a polynomial of degree below M. *)
Theorem smooth_near : forall (D : nat -> R -> R) M a b B, derivatives D -> a < b -> (forall x, a <= x <= b -> Rabs (D M x) <= B) ->
  exists p, (length p <= M)%nat /\ forall x, a <= x <= b -> Rabs (D 0%nat x - eval p x) <= B * (b - a) ^ M * INR (fact M) / INR (fact (2 * M)).
Proof.
  intros D M a b B HD AB HB. destruct M as [|M].
  { exists []. split; [auto|]. intros x Hx. cbn. rewrite Rminus_0_r. specialize (HB x Hx). lra. }
  set (m := S M) in *. assert (Hm: (1 <= m)%nat) by (unfold m; lia). clearbody m. clear M.
  destruct (legendre_roots m) as (r & R1 & R2 & R3 & R4). set (s := 2 / (b - a)). assert (S0: 0 < s) by (apply Rdiv_lt_0_compat; lra).
  set (u := fun x => s * x + - s * (a + b) / 2). set (node := fun y => (b - a) / 2 * y + (a + b) / 2).
  assert (UN: forall y, u (node y) = y) by (intros; unfold u, node, s; field; lra). assert (NU: forall x, node (u x) = x) by (intros; unfold u, node, s; field; lra).
  assert (UB: forall x, a <= x <= b -> -1 <= u x <= 1).
  { intros x Hx. split; apply Rmult_le_reg_r with ((b - a) / 2); try lra; unfold u, s; [replace ((2 / (b - a) * x + - (2 / (b - a)) * (a + b) / 2) * ((b - a) / 2)) with (x - (a + b) / 2) by (field; lra); lra|].
    replace ((2 / (b - a) * x + - (2 / (b - a)) * (a + b) / 2) * ((b - a) / 2)) with (x - (a + b) / 2) by (field; lra); lra. }
  destruct (interpolation (D 0%nat) (map node r)) as (p & Lp & Ep). { apply FinFun.Injective_map_NoDup; auto. intros y z H. rewrite <- (UN y), <- (UN z), H. auto. }
  rewrite map_length, R1 in Lp. exists p. split; auto. intros x Hx.
  assert (B0: 0 <= B) by (eapply Rle_trans; [apply Rabs_pos | apply (HB x Hx)]).
  pose proof (INR_fact_lt_0 m) as F1. pose proof (INR_fact_lt_0 (2 * m)) as F2. pose proof (pow_lt (b - a) m ltac:(lra)) as F3.
  destruct (Req_dec (P m 0 (u x)) 0) as [Z | Z].
  { rewrite (Ep x), Rminus_diag_eq, Rabs_R0; auto; [|rewrite <- (NU x); apply in_map; auto]. unfold Rdiv. repeat apply Rmult_le_pos; auto; try lra. left. apply Rinv_0_lt_compat. auto. }
  set (c := (D 0%nat x - eval p x) / P m 0 (u x)).
  set (G := fun k t => D k t - eval (Nat.iter k deriv p) t - c * (s ^ k * P m k (u t))).
  assert (DG: derivatives G).
  { intros k t. unfold G. apply (derivable_pt_lim_minus (fun t => D k t - eval (Nat.iter k deriv p) t) (fun t => c * (s ^ k * P m k (u t)))).
    - apply (derivable_pt_lim_minus (D k) (eval (Nat.iter k deriv p))); [apply HD | apply eval_deriv].
    - replace (s ^ S k * P m (S k) (u t)) with (s ^ k * (P m (S k) (u t) * s)) by (cbn [pow]; ring).
      apply (derivable_pt_lim_scal (fun t => s ^ k * P m k (u t))). apply (derivable_pt_lim_scal (fun t => P m k (u t))).
      apply (derivable_pt_lim_comp u (P m k)); [|apply P_derivative]. unfold u. apply is_derive_Reals. auto_derive; auto. ring. }
  assert (NI: ~ In x (map node r)). { intros I. apply in_map_iff in I. destruct I as (y & <- & I). apply Z. rewrite UN. apply R3. auto. }
  destruct (zero_of_derivative m G (x :: map node r) a b DG) as (xi & Hxi & E).
  - constructor; auto. apply FinFun.Injective_map_NoDup; auto. intros y z H. rewrite <- (UN y), <- (UN z), H. auto.
  - cbn [length]. rewrite map_length, R1. auto.
  - intros t [<- | I]; unfold G; cbn [pow Nat.iter nat_rect].
    + split; auto. unfold c. field. auto.
    + rewrite (Ep t I). apply in_map_iff in I. destruct I as (y & <- & I). destruct (R3 y I) as (Hy & Zy). rewrite UN, Zy. split; [ring|]. unfold node. split; nra.
  - unfold G in E. rewrite (iter_deriv_short m p Lp) in E. pose proof (P_diag m (u xi)) as PD. pose proof (HB xi Hxi) as Hxi'.
    assert (C: c = D m xi * ((b - a) ^ m * INR (fact m) / INR (fact (2 * m)))).
    { assert (P2: P m m (u xi) = INR (fact (2 * m)) / (2 ^ m * INR (fact m))). { rewrite <- PD. field. split; [lra | apply pow_nonzero; lra]. }
      rewrite P2 in E. assert (SS: s ^ m = 2 ^ m / (b - a) ^ m). { unfold s, Rdiv. rewrite Rpow_mult_distr, pow_inv. auto. } rewrite SS in E.
      assert (Q: D m xi = c * (INR (fact (2 * m)) / ((b - a) ^ m * INR (fact m)))).
      { apply Rminus_diag_uniq. rewrite <- E. field. repeat split; try lra. apply pow_nonzero. lra. }
      rewrite Q. field. repeat split; lra. }
    replace (D 0%nat x - eval p x) with (c * P m 0 (u x)) by (unfold c; field; auto). rewrite C, !Rabs_mult.
    assert (K0: 0 <= (b - a) ^ m * INR (fact m) / INR (fact (2 * m))). { unfold Rdiv. repeat apply Rmult_le_pos; try lra. left. apply Rinv_0_lt_compat. auto. }
    rewrite (Rabs_pos_eq ((b - a) ^ m * INR (fact m) / INR (fact (2 * m)))) by auto. pose proof (P_bound m (u x) (UB x Hx)) as PB.
    replace (B * (b - a) ^ m * INR (fact m) / INR (fact (2 * m))) with (B * ((b - a) ^ m * INR (fact m) / INR (fact (2 * m))) * 1) by (field; lra).
    apply Rmult_le_compat; auto; [|apply Rabs_pos|].
    + apply Rmult_le_pos; [apply Rabs_pos | auto].
    + apply Rmult_le_compat_r; auto.
Qed.

(* ---------------------------------------------- quadrature rules *)
(** the function differs from a polynomial with k coefficients by at most e on [a,b] *)
Definition near_polynomial (a b : R) (k : nat) (e : R) (g : R -> R) : Prop := exists p : list R, (length p <= k)%nat /\ forall x, a <= x <= b -> Rabs (g x - eval p x) <= e.
Lemma near_mono : forall a b k k' e g, (k <= k')%nat -> near_polynomial a b k e g -> near_polynomial a b k' e g.
Proof. intros a b k k' e g H (p & L & E). exists p. split; auto. lia. Qed.
Lemma quad_const : forall n x w c, quad n x w (fun _ => c) = c * quad n x w (fun _ => 1).
Proof. induction n; intros; cbn [quad]; [ring|]. rewrite IHn. ring. Qed.
Lemma quad_close : forall n x w f g e, (forall i, (i < n)%nat -> 0 <= w i /\ Rabs (f (x i) - g (x i)) <= e) -> Rabs (quad n x w f - quad n x w g) <= e * quad n x w (fun _ => 1).
Proof.
  induction n; intros x w f g e H; cbn [quad]; [rewrite Rminus_0_r, Rabs_R0, Rmult_0_r; lra|].
  destruct (H n ltac:(lia)) as (W & D). pose proof (IHn x w f g e ltac:(intros; apply H; lia)) as I.
  replace (quad n x w f + w n * f (x n) - (quad n x w g + w n * g (x n))) with ((quad n x w f - quad n x w g) + w n * (f (x n) - g (x n))) by ring.
  eapply Rle_trans; [apply Rabs_triang|]. rewrite Rabs_mult, (Rabs_pos_eq (w n)) by auto. rewrite Rmult_plus_distr_l. apply Rplus_le_compat; auto.
  rewrite Rmult_1_r, (Rmult_comm e). apply Rmult_le_compat_l; auto.
Qed.
Lemma integral_close : forall (f g : R -> R) a b u v e, a <= b -> is_RInt f a b u -> is_RInt g a b v -> (forall x, a <= x <= b -> Rabs (f x - g x) <= e) -> Rabs (u - v) <= e * (b - a).
Proof.
  intros f g a b u v e L F G H. pose proof (is_RInt_minus f g a b u v F G) as D.
  pose proof (norm_RInt_le_const (V := R_NormedModule) (fun x => minus (f x) (g x)) a b (minus u v) e L) as B. specialize (B H D).
  unfold norm, minus, plus, opp in B; cbn in B. unfold abs in B; cbn in B. unfold Rminus. rewrite (Rmult_comm e). exact B.
Qed.
Lemma int_unique : forall (f : R -> R) a b (u v : R), is_RInt f a b u -> is_RInt f a b v -> u = v.
Proof. intros f a b u v A B. rewrite <- (is_RInt_unique _ _ _ _ A). exact (is_RInt_unique _ _ _ _ B). Qed.
(** A Gauss rule with n points, for a function within e of a polynomial of degree below 2 n *)
Lemma rule_accuracy : forall n x w a b (g : R -> R) e I, (1 <= n)%nat -> a <= b -> gauss_rule n a b x w -> near_polynomial a b (2 * n) e g -> is_RInt g a b I -> Rabs (quad n x w g - I) <= 2 * (b - a) * e.
Proof.
  intros n x w a b g e I Hn AB G (p & Lp & Hp) HI. destruct (gauss_rule_facts n a b x w Hn AB G) as (EX & PT).
  pose proof (EX p Lp) as Ep. pose proof (EX [1] ltac:(cbn [length]; lia)) as E1.
  assert (S1: quad n x w (fun _ => 1) = b - a).
  { assert (Q: is_RInt (eval [1]) a b (b - a)). { apply (is_RInt_by (fun _ => 1) _ _ _ ((b - a) * 1)); [|intros; cbn [eval]; ring | ring]. pose proof (is_RInt_const (V := R_NormedModule) a b 1) as C. unfold scal in C; cbn in C. unfold mult in C; cbn in C. exact C. }
    pose proof (int_unique _ _ _ _ _ E1 Q) as U. rewrite <- U. clear. induction n; cbn [quad]; auto. rewrite IHn. cbn [eval]. f_equal. ring. }
  pose proof (quad_close n x w g (eval p) e ltac:(intros i Hi; destruct (PT i Hi); split; auto)) as A. rewrite S1 in A.
  pose proof (integral_close g (eval p) a b I _ e AB HI Ep Hp) as B.
  replace (quad n x w g - I) with ((quad n x w g - quad n x w (eval p)) - (I - quad n x w (eval p))) by ring.
  eapply Rle_trans; [apply Rabs_triang|]. rewrite Rabs_Ropp. lra.
Qed.
(** and for a smooth function *)
Theorem gauss_error : forall n x w a b D I B, (1 <= n)%nat -> a < b -> gauss_rule n a b x w -> derivatives D -> (forall x, a <= x <= b -> Rabs (D (2 * n)%nat x) <= B) -> is_RInt (D 0%nat) a b I ->
  Rabs (quad n x w (D 0%nat) - I) <= 2 * B * (b - a) ^ (2 * n + 1) * INR (fact (2 * n)) / INR (fact (4 * n)).
Proof.
  intros n x w a b D I B Hn AB G HD HB HI. pose proof (smooth_near D (2 * n) a b B HD AB HB) as NP.
  pose proof (rule_accuracy n x w a b (D 0%nat) _ I Hn ltac:(lra) G NP HI) as A. replace (2 * (2 * n))%nat with (4 * n)%nat in A by lia.
  eapply Rle_trans; [exact A|]. right. rewrite pow_add, pow_1. pose proof (INR_fact_lt_0 (4 * n)). field. lra.
Qed.
