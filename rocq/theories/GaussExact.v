(** Orthogonality of the Legendre polynomials and exactness of Gauss-Legendre rules.
    Specification side only; integrals are Coquelicot's Riemann integrals. *)
From Coq Require Import List Arith Lia Bool Reals Lra Psatz.
From Coquelicot Require Import Coquelicot.
From Verif Require Import Legendre Quadrature.
Import ListNotations.
Local Open Scope R_scope.

(* ---------------------------------------------- integrals from antiderivatives *)

Lemma integral_of : forall (F f f' : R -> R) a b,
  (forall x, derivable_pt_lim F x (f x)) -> (forall x, derivable_pt_lim f x (f' x)) -> is_RInt f a b (F b - F a).
Proof.
  intros F f f' a b HF Hf. apply (is_RInt_derive F f).
  - intros x _. apply is_derive_Reals. apply HF.
  - intros x _. apply (ex_derive_continuous f). exists (f' x). apply is_derive_Reals. apply Hf.
Qed.
Lemma deriv_mult : forall f g f' g' x, derivable_pt_lim f x f' -> derivable_pt_lim g x g' -> derivable_pt_lim (fun x => f x * g x) x (f' * g x + f x * g').
Proof. intros f g f' g' x Hf Hg. apply (derivable_pt_lim_mult f g); auto. Qed.
Lemma deriv_minus : forall f g f' g' x, derivable_pt_lim f x f' -> derivable_pt_lim g x g' -> derivable_pt_lim (fun x => f x - g x) x (f' - g').
Proof. intros f g f' g' x Hf Hg. apply (derivable_pt_lim_minus f g); auto. Qed.
Lemma deriv_eq : forall f x l l', derivable_pt_lim f x l -> l = l' -> derivable_pt_lim f x l'.
Proof. intros; subst; auto. Qed.

(** Legendre's equation: ((1-x^2) P_n')' = - n(n+1) P_n *)
Lemma P_B : forall n x, x * P (S n) 1 x - P n 1 x = (INR n + 1) * P (S n) 0 x.
Proof.
  intros n x. pose proof (P_up (S n) 0 x) as A. pose proof (P_step n 0 x) as B. rewrite Nat.add_0_r, plus_INR, (S_INR n) in A. rewrite (S_INR n) in B. cbn [INR] in *. lra.
Qed.
Lemma legendre_equation : forall n x, derivable_pt_lim (fun x => (1 - x * x) * P n 1 x) x (- (INR n * (INR n + 1)) * P n 0 x).
Proof.
  intros n x. destruct n as [|n].
  - apply derivable_ext with (fun _ => 0); [intros; rewrite P_0_S; ring|]. cbn [INR]. eapply deriv_eq; [apply derivable_pt_lim_const|ring].
  - rewrite S_INR.
    apply derivable_ext with (fun x => (INR n + 1) * (P n 0 x - x * P (S n) 0 x)).
    { intros y. pose proof (P_deriv_formula (S n) y ltac:(lia)) as E. replace (S n - 1)%nat with n in E by lia. rewrite S_INR in E. lra. }
    eapply deriv_eq.
    + apply (derivable_pt_lim_scal (fun x => P n 0 x - x * P (S n) 0 x)). apply deriv_minus; [apply P_derivative|].
      apply (deriv_mult id); [apply derivable_pt_lim_id | apply P_derivative].
    + unfold id. cbn beta. pose proof (P_B n x) as B.
      transitivity ((INR n + 1) * (- P (S n) 0 x - (x * P (S n) 1 x - P n 1 x))); [ring|]. rewrite B. ring.
Qed.

Lemma prod_derivative : forall n m x, derivable_pt_lim (fun x => P n 0 x * P m 0 x) x (P n 1 x * P m 0 x + P n 0 x * P m 1 x).
Proof. intros. apply deriv_mult; apply P_derivative. Qed.

Lemma is_RInt_val : forall (f : R -> R) a b (v v' : R), is_RInt f a b v -> v = v' -> is_RInt f a b v'.
Proof. intros; subst; auto. Qed.
Lemma is_RInt_by : forall (f g : R -> R) a b (v v' : R), is_RInt f a b v -> (forall x, f x = g x) -> v = v' -> is_RInt g a b v'.
Proof. intros f g a b v v' H E ->. eapply is_RInt_ext; [|exact H]. intros; apply E. Qed.
Lemma is_RInt_scalR : forall (f : R -> R) a b (c v : R), is_RInt f a b v -> is_RInt (fun x => c * f x) a b (c * v).
Proof. intros f a b c v H. apply (is_RInt_scal f a b c v H). Qed.
Theorem orthogonal : forall n m, n <> m -> is_RInt (fun x => P n 0 x * P m 0 x) (-1) 1 0.
Proof.
  intros n m N. set (k := INR m * (INR m + 1) - INR n * (INR n + 1)).
  assert (K: k <> 0).
  { unfold k. pose proof (pos_INR n). pose proof (pos_INR m). intros C. apply N. apply INR_eq.
    assert (Z: (INR m - INR n) * (INR m + INR n + 1) = 0) by lra. apply Rmult_integral in Z. lra. }
  assert (E: is_RInt (fun x => k * (P n 0 x * P m 0 x)) (-1) 1 0).
  { replace 0 with ((1 - 1 * 1) * P n 1 1 * P m 0 1 - (1 - 1 * 1) * P m 1 1 * P n 0 1 - ((1 - (-1) * (-1)) * P n 1 (-1) * P m 0 (-1) - (1 - (-1) * (-1)) * P m 1 (-1) * P n 0 (-1))) by ring.
    apply (integral_of (fun x => (1 - x * x) * P n 1 x * P m 0 x - (1 - x * x) * P m 1 x * P n 0 x) _ (fun x => k * (P n 1 x * P m 0 x + P n 0 x * P m 1 x))).
    - intros x. eapply deriv_eq.
      + apply deriv_minus; (apply deriv_mult; [apply legendre_equation | apply P_derivative]).
      + unfold k. ring.
    - intros x. apply (derivable_pt_lim_scal (fun x => P n 0 x * P m 0 x)). apply prod_derivative. }
  apply (is_RInt_scalR _ (-1) 1 (/ k)) in E.
  apply (is_RInt_by _ _ _ _ _ _ E); [|ring]. intros x. field. auto.
Qed.

Lemma is_RInt_lin : forall f g a b u v c d, is_RInt f a b u -> is_RInt g a b v -> is_RInt (fun x => c * f x + d * g x) a b (c * u + d * v).
Proof.
  intros f g a b u v c d Hf Hg.
  apply (is_RInt_plus (fun x => c * f x) (fun x => d * g x) a b (c * u) (d * v)).
  - apply (is_RInt_scal f a b c u Hf).
  - apply (is_RInt_scal g a b d v Hg).
Qed.

Lemma ex_prod_x : forall n m, exists v, is_RInt (fun x => x * (P n 0 x * P m 0 x)) (-1) 1 v.
Proof.
  intros n m. apply (ex_RInt_continuous (V := R_CompleteNormedModule)). intros z _. apply (ex_derive_continuous (fun x => x * (P n 0 x * P m 0 x))).
  eexists. apply is_derive_Reals. apply (deriv_mult id); [apply derivable_pt_lim_id|apply prod_derivative].
Qed.
Theorem norm_squared : forall n, is_RInt (fun x => P n 0 x * P n 0 x) (-1) 1 (2 / (2 * INR n + 1)).
Proof.
  induction n.
  - apply (is_RInt_by (fun _ => 1) _ _ _ (1 - (-1))); [|intros; rewrite P_0_0; ring|cbn [INR]; field].
    apply (integral_of (fun x => x) (fun _ => 1) (fun _ => 0)); [apply derivable_pt_lim_id | intros; apply derivable_pt_lim_const].
  - destruct (ex_prod_x (S n) n) as (v & Hv). pose proof (pos_INR n) as Hn.
    (* (n+2) P_{n+2} P_n = (2n+3) x P_{n+1} P_n - (n+1) P_n^2 *)
    assert (V: v = (INR n + 1) * (2 / (2 * INR n + 1)) / (2 * INR n + 3)).
    { pose proof (is_RInt_lin _ _ _ _ _ _ (2 * INR n + 3) (- (INR n + 1)) Hv IHn) as L.
      pose proof (orthogonal (S (S n)) n ltac:(lia)) as O. apply (is_RInt_scalR _ _ _ (INR n + 2)) in O.
      assert (L2: is_RInt (fun x => (INR n + 2) * (P (S (S n)) 0 x * P n 0 x)) (-1) 1 ((2 * INR n + 3) * v + - (INR n + 1) * (2 / (2 * INR n + 1)))).
      { apply (is_RInt_by _ _ _ _ _ _ L); [|reflexivity]. intros x. pose proof (P_recursion n 0 x) as B. cbn [INR] in B.
        transitivity (((2 * INR n + 3) * x * P (S n) 0 x - (INR n + 1 + 0) * P n 0 x) * P n 0 x); [ring|]. rewrite <- B. ring. }
      pose proof (is_RInt_unique _ _ _ _ L2) as U1. pose proof (is_RInt_unique _ _ _ _ O) as U2. rewrite U1 in U2.
      apply Rmult_eq_reg_l with (2 * INR n + 3); [|lra]. transitivity ((INR n + 1) * (2 / (2 * INR n + 1))); [lra|field; lra]. }
    destruct n as [|n].
    + (* P_1^2 = x P_1 P_0 *)
      apply (is_RInt_by _ _ _ _ _ _ Hv).
      * intros x. rewrite P_1_0, P_0_0. cbn. ring.
      * rewrite V. cbn [INR]. field.
    + pose proof (orthogonal n (S (S n)) ltac:(lia)) as O.
      pose proof (is_RInt_lin _ _ _ _ _ _ ((2 * INR n + 3) / (INR n + 2)) (- (INR n + 1) / (INR n + 2)) Hv O) as L.
      apply (is_RInt_by _ _ _ _ _ _ L).
      * intros x. pose proof (P_recursion n 0 x) as B. cbn [INR] in B. rewrite S_INR in Hn. pose proof (pos_INR n) as Hn'.
        replace (P (S (S n)) 0 x * P (S (S n)) 0 x) with (P (S (S n)) 0 x / (INR n + 2) * ((INR n + 2 - 0) * P (S (S n)) 0 x)) by (field; lra).
        rewrite B. field. lra.
      * rewrite V. rewrite !S_INR. pose proof (pos_INR n). field. lra.
Qed.

(* ---------------------------------------------- linear combinations of P_0 .. P_(n-1) *)

Inductive span : nat -> (R -> R) -> Prop :=
| span_0 : forall f, (forall x, f x = 0) -> span 0 f
| span_S : forall n c f g, span n g -> (forall x, f x = g x + c * P n 0 x) -> span (S n) f.

Lemma span_ext : forall n f g, span n f -> (forall x, f x = g x) -> span n g.
Proof. intros n f g H E. destruct H. constructor. intros; rewrite <- E; auto. econstructor; eauto. intros; rewrite <- E; auto. Qed.
Lemma span_lin : forall n f g a b, span n f -> span n g -> span n (fun x => a * f x + b * g x).
Proof.
  induction n; intros f g a b Hf Hg; inversion Hf as [? E|? c ? f' Hf' E]; inversion Hg as [? E'|? d ? g' Hg' E']; subst.
  - constructor. intros. rewrite E, E'. ring.
  - apply span_S with (c := a * c + b * d) (g := fun x => a * f' x + b * g' x); auto. intros. rewrite E, E'. ring.
Qed.
Lemma span_up : forall n f, span n f -> span (S n) f.
Proof. intros n f H. apply span_S with (c := 0) (g := f); auto. intros. ring. Qed.
Lemma span_le : forall k n f, span n f -> (n <= k)%nat -> span k f.
Proof. intros k n f H L. induction L; auto. apply span_up. auto. Qed.
Lemma span_zero : forall n, span n (fun _ => 0).
Proof. induction n; [constructor; auto | apply span_up; auto]. Qed.
Lemma span_P : forall n, span (S n) (P n 0).
Proof. intros. apply span_S with (c := 1) (g := fun _ => 0); [apply span_zero|]. intros. ring. Qed.
Lemma span_const : forall n c, (1 <= n)%nat -> span n (fun _ => c).
Proof.
  intros n c H. apply span_le with 1%nat; auto. apply span_S with (c := c) (g := fun _ => 0); [apply span_zero|]. intros. rewrite P_0_0. ring.
Qed.
Lemma span_mulx : forall n f, span n f -> span (S n) (fun x => x * f x).
Proof.
  intros n f H. induction H as [f E|n c f g Hg IH E].
  - apply span_S with (c := 0) (g := fun _ => 0); [apply span_zero|]. intros. rewrite E. ring.
  - destruct n as [|n].
    + inversion Hg as [? E0|]; subst. apply span_le with 2%nat; auto.
      apply span_ext with (fun x => c * P 1 0 x + 0 * P 1 0 x); [apply span_lin; apply span_P|]. intros. rewrite P_1_0, E, E0, P_0_0. ring.
    + pose proof (span_P (S (S n))) as S2. pose proof (span_le (S (S (S n))) _ _ (span_P n) ltac:(lia)) as S0. apply span_up in IH.
      pose proof (span_lin _ _ _ (c * (INR n + 2) / (2 * INR n + 3)) (c * (INR n + 1) / (2 * INR n + 3)) S2 S0) as L.
      pose proof (span_lin _ _ _ 1 1 IH L) as L2. eapply span_ext; [exact L2|]. intros x. cbn beta. rewrite E.
      pose proof (P_recursion n 0 x) as B. cbn [INR] in B. pose proof (pos_INR n) as Hn.
      replace (c * (INR n + 2) / (2 * INR n + 3) * P (S (S n)) 0 x) with (c / (2 * INR n + 3) * ((INR n + 2 - 0) * P (S (S n)) 0 x)) by (field; lra).
      rewrite B. field. lra.
Qed.
Lemma span_eval : forall p n, (length p <= n)%nat -> span n (eval p).
Proof.
  induction p as [|a p IH]; intros n H; [apply span_le with 0%nat; [constructor; reflexivity|lia]|].
  cbn [length] in H. destruct n as [|n]; [lia|]. pose proof (span_mulx _ _ (IH n ltac:(lia))) as M.
  pose proof (span_lin _ _ _ 1 1 (span_const (S n) a ltac:(lia)) M) as L. eapply span_ext; [exact L|]. intros. cbn [eval]. ring.
Qed.

(** polynomials of bounded length *)
Definition polyf (n : nat) (f : R -> R) : Prop := exists p, (length p <= n)%nat /\ forall x, f x = eval p x.
Lemma length_padd : forall p q n, (length p <= n)%nat -> (length q <= n)%nat -> (length (padd p q) <= n)%nat.
Proof. induction p as [|a p IH]; intros [|b q] n H K; cbn [padd length] in *; auto. destruct n; [lia|]. specialize (IH q n). lia. Qed.
Lemma polyf_lin : forall n f g a b, polyf n f -> polyf n g -> polyf n (fun x => a * f x + b * g x).
Proof.
  intros n f g a b (p & Lp & Ep) (q & Lq & Eq). exists (padd (pscale a p) (pscale b q)). split.
  - apply length_padd; unfold pscale; rewrite map_length; auto.
  - intros. rewrite eval_padd, !eval_pscale, Ep, Eq. reflexivity.
Qed.
Lemma polyf_P : forall n, polyf (S n) (P n 0).
Proof.
  assert (G: forall n, polyf (S n) (P n 0) /\ polyf (S (S n)) (P (S n) 0)).
  { induction n as [|n ((p & Lp & Ep) & (q & Lq & Eq))].
    - split; [exists [1] | exists [0; 1]]; (split; [cbn; lia|]); intros; rewrite ?P_0_0, ?P_1_0; cbn [eval]; ring.
    - split; [exists q; auto|]. pose proof (pos_INR n) as Hn.
      exists (padd (pscale ((2 * INR n + 3) / (INR n + 2)) (0 :: q)) (pscale (- (INR n + 1) / (INR n + 2)) p)). split.
      + apply length_padd; unfold pscale; rewrite map_length; cbn [length]; lia.
      + intros x. rewrite eval_padd, !eval_pscale. cbn [eval]. rewrite <- Ep, <- Eq. pose proof (P_recursion n 0 x) as B. cbn [INR] in B.
        apply Rmult_eq_reg_l with (INR n + 2 - 0); [|lra]. rewrite B. field. lra. }
  intros. apply G.
Qed.
Lemma span_polyf : forall n f, span n f -> polyf n f.
Proof.
  intros n f H. induction H as [f E|n c f g Hg IH E].
  - exists []. split; [cbn; lia|]. intros. rewrite E. reflexivity.
  - destruct IH as (p & Lp & Ep). destruct (polyf_P n) as (q & Lq & Eq).
    exists (padd p (pscale c q)). split; [apply length_padd; [lia|unfold pscale; rewrite map_length; auto]|].
    intros. rewrite eval_padd, eval_pscale, <- Ep, <- Eq. apply E.
Qed.
(** synthetic division *)
Fixpoint sdiv (p : list R) (r : R) : list R := match p with [] => [] | [_] => [] | _ :: q => eval q r :: sdiv q r end.
Lemma sdiv_spec : forall p r x, eval p x = eval p r + (x - r) * eval (sdiv p r) x.
Proof.
  induction p as [|a p IH]; intros r x; [cbn; ring|]. destruct p as [|b p]; [cbn; ring|].
  change (sdiv (a :: b :: p) r) with (eval (b :: p) r :: sdiv (b :: p) r). 
  change (eval (a :: b :: p) x) with (a + x * eval (b :: p) x). change (eval (a :: b :: p) r) with (a + r * eval (b :: p) r).
  change (eval (eval (b :: p) r :: sdiv (b :: p) r) x) with (eval (b :: p) r + x * eval (sdiv (b :: p) r) x).
  rewrite (IH r x). ring.
Qed.
Lemma sdiv_length : forall p r, length (sdiv p r) = (length p - 1)%nat.
Proof. induction p as [|a p IH]; intros r; [reflexivity|]. destruct p as [|b p]; [reflexivity|]. change (sdiv (a :: b :: p) r) with (eval (b :: p) r :: sdiv (b :: p) r). cbn [length] in *. rewrite IH. lia. Qed.
Lemma too_many_roots : forall l p, NoDup l -> (forall r, In r l -> eval p r = 0) -> (length p <= length l)%nat -> forall x, eval p x = 0.
Proof.
  induction l as [|r l IH]; intros p ND Z L x.
  - destruct p; [reflexivity|cbn in L; lia].
  - inversion ND; subst. rewrite (sdiv_spec p r x), (Z r) by (left; auto).
    rewrite (IH (sdiv p r)); auto.
    + ring.
    + intros s Hs. pose proof (sdiv_spec p r s) as E. rewrite (Z s), (Z r) in E by (cbn; auto).
      assert (s <> r) by (intros ->; contradiction). assert (Q: (s - r) * eval (sdiv p r) s = 0) by lra. apply Rmult_integral in Q. lra.
    + rewrite sdiv_length. cbn [length] in L. lia.
Qed.

(* ---------------------------------------------- integrals over [-1,1] *)

Lemma span_integrable : forall n f, span n f -> exists v, is_RInt f (-1) 1 v.
Proof.
  intros n f H. destruct (span_polyf n f H) as (p & _ & E). 
  destruct (ex_RInt_continuous (V := R_CompleteNormedModule) (eval p) (-1) 1) as (v & V).
  - intros z _. apply (ex_derive_continuous (eval p)). eexists. apply is_derive_Reals. apply eval_deriv.
  - exists v. eapply is_RInt_ext; [|exact V]. intros. symmetry. apply E.
Qed.
Lemma is_RInt_zero : is_RInt (fun _ => 0) (-1) 1 0.
Proof. pose proof (is_RInt_scalR _ _ _ 0 _ (norm_squared 0)) as H. apply (is_RInt_by _ _ _ _ _ _ H); intros; ring. Qed.
Lemma span_orthogonal : forall n f, span n f -> forall m, (n <= m)%nat -> is_RInt (fun x => f x * P m 0 x) (-1) 1 0.
Proof.
  intros n f H. induction H as [f E|n c f g Hg IH E]; intros m L.
  - apply (is_RInt_by _ _ _ _ _ _ is_RInt_zero); [|ring]. intros. rewrite E. ring.
  - pose proof (is_RInt_lin _ _ _ _ _ _ 1 c (IH m ltac:(lia)) (orthogonal n m ltac:(lia))) as Q.
    apply (is_RInt_by _ _ _ _ _ _ Q); [|ring]. intros. rewrite E. ring.
Qed.

(* ---------------------------------------------- Christoffel-Darboux kernel *)

Fixpoint K (n : nat) (x y : R) : R := match n with 0%nat => 0 | S k => K k x y + (2 * INR k + 1) * P k 0 x * P k 0 y end.
Lemma K_darboux : forall n x y, (x - y) * K (S n) x y = (INR n + 1) * (P (S n) 0 x * P n 0 y - P n 0 x * P (S n) 0 y).
Proof.
  induction n; intros x y.
  - cbn [K INR]. rewrite !P_0_0, !P_1_0. ring.
  - change (K (S (S n)) x y) with (K (S n) x y + (2 * INR (S n) + 1) * P (S n) 0 x * P (S n) 0 y). rewrite Rmult_plus_distr_l, IHn.
    pose proof (P_recursion n 0 x) as Bx. pose proof (P_recursion n 0 y) as By. cbn [INR] in Bx, By. rewrite S_INR.
    transitivity (((INR n + 2 - 0) * P (S (S n)) 0 x) * P (S n) 0 y - P (S n) 0 x * ((INR n + 2 - 0) * P (S (S n)) 0 y)); [rewrite Bx, By; ring|ring].
Qed.
Lemma K_span : forall n y, span n (fun x => K n x y).
Proof.
  induction n; intros y; [constructor; reflexivity|]. apply span_S with (c := (2 * INR n + 1) * P n 0 y) (g := fun x => K n x y); auto. intros. cbn [K]. ring.
Qed.
Lemma K_diag_pos : forall n y, 1 <= K (S n) y y.
Proof.
  induction n; intros y; [cbn [K INR]; rewrite !P_0_0; lra|]. change (K (S (S n)) y y) with (K (S n) y y + (2 * INR (S n) + 1) * P (S n) 0 y * P (S n) 0 y).
  specialize (IHn y). pose proof (pos_INR (S n)). pose proof (Rle_0_sqr (P (S n) 0 y)) as Q. unfold Rsqr in Q. nra.
Qed.
Lemma K_derivative : forall n y x, exists l, derivable_pt_lim (fun x => K n x y) x l.
Proof.
  intros n y x. destruct (span_polyf n _ (K_span n y)) as (p & _ & E). exists (eval (deriv p) x).
  apply derivable_ext with (eval p); [intros; symmetry; apply E | apply eval_deriv].
Qed.
Lemma K_diag : forall n y, K (S n) y y = (INR n + 1) * (P (S n) 1 y * P n 0 y - P n 1 y * P (S n) 0 y).
Proof.
  intros n y. destruct (K_derivative (S n) y y) as (l & L).
  assert (A: derivable_pt_lim (fun x => (x - y) * K (S n) x y) y ((1 - 0) * K (S n) y y + (y - y) * l)).
  { apply (deriv_mult (fun x => x - y) (fun x => K (S n) x y)); auto. apply (deriv_minus (fun x => x) (fun _ => y)); [apply derivable_pt_lim_id | apply derivable_pt_lim_const]. }
  assert (B: derivable_pt_lim (fun x => (x - y) * K (S n) x y) y ((INR n + 1) * (P (S n) 1 y * P n 0 y + P (S n) 0 y * 0 - (P n 1 y * P (S n) 0 y + P n 0 y * 0)))).
  { apply derivable_ext with (fun x => (INR n + 1) * (P (S n) 0 x * P n 0 y - P n 0 x * P (S n) 0 y)); [intros; rewrite K_darboux; reflexivity|].
    apply (derivable_pt_lim_scal (fun x => P (S n) 0 x * P n 0 y - P n 0 x * P (S n) 0 y)).
    apply deriv_minus; (apply (deriv_mult (P _ 0) (fun _ => _)); [apply P_derivative | apply derivable_pt_lim_const]). }
  pose proof (uniqueness_limite _ _ _ _ A B) as Q. lra.
Qed.
Lemma K_integral : forall n y, is_RInt (fun x => K (S n) x y) (-1) 1 2.
Proof.
  induction n; intros y.
  - pose proof (norm_squared 0) as N. cbn [INR] in N. apply (is_RInt_by _ _ _ _ _ _ N); [|field].
    intros. cbn [K INR]. rewrite !P_0_0. ring.
  - pose proof (orthogonal (S n) 0 ltac:(lia)) as O.
    pose proof (is_RInt_lin _ _ _ _ _ _ 1 ((2 * INR (S n) + 1) * P (S n) 0 y) (IHn y) O) as L.
    apply (is_RInt_by _ _ _ _ _ _ L); [|ring]. intros. rewrite P_0_0.
    change (K (S (S n)) x y) with (K (S n) x y + (2 * INR (S n) + 1) * P (S n) 0 x * P (S n) 0 y). ring.
Qed.

(* ---------------------------------------------- exactness *)

(** the Gauss weight *)
Definition gauss_weight (n : nat) (x : R) : R := 2 / ((1 - x * x) * (P n 1 x * P n 1 x)).
Fixpoint lsum (f : R -> R) (l : list R) : R := match l with [] => 0 | x :: l => f x + lsum f l end.
Lemma lsum_ext : forall f g l, (forall x, In x l -> f x = g x) -> lsum f l = lsum g l.
Proof. induction l; intros H; cbn [lsum]; [reflexivity|]. rewrite H by (left; auto). rewrite IHl by (intros; apply H; right; auto). reflexivity. Qed.

Lemma K_at_root : forall n x, P (S n) 0 x = 0 -> K (S n) x x = (1 - x * x) * (P (S n) 1 x * P (S n) 1 x).
Proof.
  intros n x Z. rewrite K_diag, Z. pose proof (P_deriv_formula (S n) x ltac:(lia)) as E. replace (S n - 1)%nat with n in E by lia.
  rewrite Z, S_INR in E. transitivity (P (S n) 1 x * ((P n 0 x - x * 0) * (INR n + 1))); [ring|]. rewrite E. ring.
Qed.
Section Exact.
Variable n : nat.
Variable nodes : list R.
Hypothesis Hlen : length nodes = S n.
Hypothesis Hdist : NoDup nodes.
Hypothesis Hroot : forall x, In x nodes -> P (S n) 0 x = 0.

Lemma K_root : forall x, In x nodes -> K (S n) x x = (1 - x * x) * (P (S n) 1 x * P (S n) 1 x).
Proof. intros x Hx. apply K_at_root. apply Hroot. auto. Qed.
Lemma weight_K : forall x, In x nodes -> gauss_weight (S n) x = 2 / K (S n) x x.
Proof. intros. unfold gauss_weight. rewrite K_root by auto. reflexivity. Qed.
(** interpolation *)
Definition interp (f : R -> R) (x : R) : R := lsum (fun r => f r / K (S n) r r * K (S n) x r) nodes.
Lemma interp_span : forall f, span (S n) (interp f).
Proof.
  intros f. unfold interp. clear Hlen Hdist Hroot. induction nodes as [|r l IH]; cbn [lsum]; [apply span_zero|].
  pose proof (span_lin _ _ _ (f r / K (S n) r r) 1 (K_span (S n) r) IH) as L. eapply span_ext; [exact L|]. intros. cbn beta. ring.
Qed.
Lemma K_cross : forall x y, In x nodes -> In y nodes -> x <> y -> K (S n) x y = 0.
Proof.
  intros x y Hx Hy N. pose proof (K_darboux n x y) as E. rewrite (Hroot x Hx), (Hroot y Hy) in E.
  assert (Q: (x - y) * K (S n) x y = 0) by lra. apply Rmult_integral in Q. lra.
Qed.
Lemma interp_at : forall f x, In x nodes -> interp f x = f x.
Proof.
  intros f x Hx. unfold interp.
  assert (G: forall l, incl l nodes -> NoDup l -> lsum (fun r => f r / K (S n) r r * K (S n) x r) l = if in_dec Req_EM_T x l then f x else 0).
  { induction l as [|r l IH]; intros I ND; cbn [lsum]; [destruct (in_dec _ _ _) as [C|]; [destruct C|reflexivity]|].
    inversion ND; subst. rewrite IH; auto; [|intros z Hz; apply I; right; auto].
    pose proof (K_diag_pos n r) as Kp. destruct (Req_EM_T x r) as [->|N].
    - destruct (in_dec _ r l); [contradiction|]. destruct (in_dec _ r (r :: l)) as [_|C]; [field; lra|exfalso; apply C; left; auto].
    - rewrite (K_cross x r) by (auto; apply I; left; auto).
      destruct (in_dec Req_EM_T x l) as [A|A], (in_dec Req_EM_T x (r :: l)) as [B|B].
      + field; lra.
      + exfalso. apply B. right. auto.
      + exfalso. destruct B; [congruence|contradiction].
      + field; lra. }
  rewrite G; auto; [|apply incl_refl]. destruct (in_dec _ _ _); [reflexivity|contradiction].
Qed.
Lemma interp_exact : forall f, span (S n) f -> forall x, f x = interp f x.
Proof.
  intros f H x. pose proof (span_lin _ _ _ 1 (-1) H (interp_span f)) as L. destruct (span_polyf _ _ L) as (p & Lp & Ep).
  assert (Z: eval p x = 0).
  { apply (too_many_roots nodes); auto; [|lia]. intros r Hr. rewrite <- Ep, interp_at by auto. ring. }
  rewrite <- Ep in Z. lra.
Qed.
Lemma low_exact : forall f, span (S n) f -> is_RInt f (-1) 1 (lsum (fun x => gauss_weight (S n) x * f x) nodes).
Proof.
  intros f H. apply (is_RInt_by (interp f) f _ _ (lsum (fun x => gauss_weight (S n) x * f x) nodes)); [|intros; symmetry; apply interp_exact; auto|reflexivity]. unfold interp.
  rewrite (lsum_ext (fun x => gauss_weight (S n) x * f x) (fun r => f r / K (S n) r r * 2)).
  2:{ intros r Hr. rewrite weight_K by auto. pose proof (K_diag_pos n r). field. lra. }
  clear Hlen Hdist Hroot. induction nodes as [|r l IH]; cbn [lsum].
  - exact is_RInt_zero.
  - pose proof (is_RInt_lin _ _ _ _ _ _ (f r / K (S n) r r) 1 (K_integral n r) IH) as L.
    apply (is_RInt_by _ _ _ _ _ _ L); [|ring]. intros. cbn beta. ring.
Qed.
(** division by P_n *)
Definition divisible (k : nat) (f : R -> R) : Prop := exists s r, span k s /\ span (S n) r /\ forall x, f x = s x * P (S n) 0 x + r x.
Lemma divisible_eval : forall k p, (length p <= S n + k)%nat -> divisible k (eval p).
Proof.
  induction k; intros p L.
  - exists (fun _ => 0), (eval p). split; [apply span_zero|]. split; [apply span_eval; lia|]. intros. ring.
  - destruct p as [|a q]; [exists (fun _ => 0), (fun _ => 0); split; [apply span_zero|split; [apply span_zero|]]; intros; cbn; ring|].
    cbn [length] in L. destruct (IHk q ltac:(lia)) as (s & r & Hs & Hr & E).
    pose proof (span_mulx _ _ Hr) as M. inversion M as [|? c ? g Hg Eg]; subst.
    exists (fun x => 1 * (x * s x) + c * 1), (fun x => 1 * g x + a * 1). split; [apply span_lin; [apply span_mulx; auto | apply span_const; lia]|].
    split; [apply span_lin; auto; apply span_const; lia|]. intros x. cbn [eval]. rewrite E.
    transitivity (a + (x * s x * P (S n) 0 x + x * r x)); [ring|]. rewrite Eg. ring.
Qed.
Theorem gauss_exact : forall p, (length p <= 2 * S n)%nat ->
  is_RInt (eval p) (-1) 1 (lsum (fun x => gauss_weight (S n) x * eval p x) nodes).
Proof.
  intros p L. destruct (divisible_eval (S n) p ltac:(lia)) as (s & r & Hs & Hr & E).
  pose proof (is_RInt_lin _ _ _ _ _ _ 1 1 (span_orthogonal _ _ Hs (S n) ltac:(lia)) (low_exact r Hr)) as Q.
  apply (is_RInt_by _ _ _ _ _ _ Q).
  - intros. rewrite E. ring.
  - rewrite (lsum_ext (fun x => gauss_weight (S n) x * eval p x) (fun x => gauss_weight (S n) x * r x)); [ring|].
    intros x Hx. rewrite E, (Hroot x Hx). ring.
Qed.
End Exact.

(** image under an affine map *)
Lemma length_padd_max : forall p q, length (padd p q) = Nat.max (length p) (length q).
Proof. induction p as [|a p IH]; intros [|b q]; cbn [padd length]; auto. rewrite IH. lia. Qed.
Lemma affine_poly : forall p u v, exists q, length q = length p /\ forall x, eval p (u * x + v) = eval q x.
Proof.
  induction p as [|a p IH]; intros u v; [exists []; split; reflexivity|].
  destruct (IH u v) as (q & L & E). destruct p as [|b p].
  - exists [a]. split; [reflexivity|]. intros. cbn [eval]. ring.
  - exists (padd [a] (padd (pscale u (0 :: q)) (pscale v q))). split.
    + rewrite !length_padd_max. unfold pscale. rewrite !map_length. cbn [length] in *. lia.
    + intros x. cbn [eval]. rewrite !eval_padd, !eval_pscale. cbn [eval]. specialize (E x). cbn [eval] in E. rewrite E. ring.
Qed.
Theorem gauss_exact_ab : forall n nodes p a b, length nodes = S n -> NoDup nodes -> (forall x, In x nodes -> P (S n) 0 x = 0) ->
  (length p <= 2 * S n)%nat ->
  is_RInt (eval p) a b (lsum (fun x => (b - a) / 2 * gauss_weight (S n) x * eval p ((b - a) / 2 * x + (a + b) / 2)) nodes).
Proof.
  intros n nodes p a b H1 H2 H3 H4. destruct (affine_poly p ((b - a) / 2) ((a + b) / 2)) as (q & L & E).
  pose proof (gauss_exact n nodes H1 H2 H3 q ltac:(lia)) as G.
  assert (X: exists v, is_RInt (eval p) a b v).
  { apply (ex_RInt_continuous (V := R_CompleteNormedModule)). intros z _. apply (ex_derive_continuous (eval p)). eexists. apply is_derive_Reals. apply eval_deriv. }
  destruct X as (v & V).
  assert (V': is_RInt (eval p) ((b - a) / 2 * (-1) + (a + b) / 2) ((b - a) / 2 * 1 + (a + b) / 2) v).
  { replace ((b - a) / 2 * (-1) + (a + b) / 2) with a by field. replace ((b - a) / 2 * 1 + (a + b) / 2) with b by field. exact V. }
  apply (is_RInt_comp_lin (eval p) ((b - a) / 2) ((a + b) / 2) (-1) 1 v) in V'.
  pose proof (is_RInt_scalR _ _ _ ((b - a) / 2) _ G) as Y.
  assert (Y': is_RInt (fun y => scal ((b - a) / 2) (eval p ((b - a) / 2 * y + (a + b) / 2))) (-1) 1 ((b - a) / 2 * lsum (fun x => gauss_weight (S n) x * eval q x) nodes)).
  { apply (is_RInt_by _ _ _ _ _ _ Y); [|reflexivity]. intros. rewrite <- E. reflexivity. }
  pose proof (is_RInt_unique _ _ _ _ V') as U1. pose proof (is_RInt_unique _ _ _ _ Y') as U2. 
  apply (is_RInt_by _ _ _ _ _ _ V); [reflexivity|]. transitivity ((b - a) / 2 * lsum (fun x => gauss_weight (S n) x * eval q x) nodes).
  { etransitivity; [symmetry; exact U1|exact U2]. }
  clear - E. induction nodes as [|r l IH]; cbn [lsum]; [ring|]. rewrite Rmult_plus_distr_l, IH, E. ring.
Qed.
