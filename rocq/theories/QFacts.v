(** What the loops of the two T-matrix tasks leave in the Q and RgQ matrices: for every element, a sum over the
    first half of the quadrature points. *)
From Coq Require Import List Arith Lia Bool Reals Lra.
From Coquelicot Require Import Complex.
From Verif Require Import Matrix Props_matrix Quadrature Wigner Align AlignFacts QMatrix.
Import ListNotations.
Open Scope R_scope.

(** contribution of one quadrature point to the element with row (p, n1) and column (q, n2) *)
Definition contribution (e : env) (m : nat) (h dh : C) (p q : bool) (ig n1 n2 : nat) : C :=
  let d1 := fst (wigner e ig (n1 - 1)%nat) in let dd1 := snd (wigner e ig (n1 - 1)%nat) in
  let d2 := fst (wigner e ig (n2 - 1)%nat) in let dd2 := snd (wigner e ig (n2 - 1)%nat) in
  let j := jkrmr e ig n2 in let dj := djkrmr e ig n2 in
  let wr := weight e ig * r2 e ig in let u := dr_over_r e ig in let a := ann e n1 n2 in
  let nn1 := INR n1 * (INR n1 + 1) in let nn2 := INR n2 * (INR n2 + 1) in
  let ki := krinv e ig in let kmi := krmrinv e ig in
  let ms := sinthetainv e ig * INR m in
  let f1 := wr * (d1 * d2 * (sintheta2inv e ig * (INR m * INR m)) + dd1 * dd2) in
  let J12 := (!(- a) * (!f1 * (j * dh) + !(wr * u * nn1 * (d1 * dd2)) * (!ki * (j * h))))%C in
  let J21 := (!a * (!f1 * (h * dj) + !(wr * u * nn2 * (dd1 * d2)) * (j * h * kmi)))%C in
  let e1 := ms * wr * (d1 * dd2 + dd1 * d2) in
  let fac := ms * wr * u * (d1 * d2) in
  let J11 := (Ci * !a * (!e1 * (j * h)))%C in
  let J22 := (Ci * !a * (!e1 * (dj * dh) + !(fac * nn1) * (dj * h * !ki) + !(fac * nn2) * (j * dh * kmi)))%C in
  match p, q with
  | false, false => k2mr e * J21 + !(k2 e) * J12
  | false, true => k2mr e * J11 + !(k2 e) * J22
  | true, false => k2mr e * J22 + !(k2 e) * J11
  | true, true => k2mr e * J12 + !(k2 e) * J21
  end%C.
Definition hQ (e : env) (ig n : nat) : C := (jkr e ig n, ykr e ig n).
Definition dhQ (e : env) (ig n : nat) : C := (djkr e ig n, dykr e ig n).
Definition hRg (e : env) (ig n : nat) : C := RtoC (jkr e ig n).
Definition dhRg (e : env) (ig n : nat) : C := RtoC (djkr e ig n).

(** a cell of the matrix: [b] for the second half *)
Definition cell (lo nm : nat) (b : bool) (n : nat) : nat := ((if b then nm else 0) + (n - lo))%nat.
(** elements that are not left out "because of symmetry" *)
Definition kept (p q : bool) (n1 n2 : nat) : bool := Bool.eqb (Nat.even (n1 + n2)) (Bool.eqb p q).
Definition at2 (r c r' c' : nat) (v : C) : C := if ((r =? r') && (c =? c'))%nat then v else RtoC 0.

Lemma addto_at : forall A r' c' v r c, addto A r' c' v r c = (A r c + at2 r c r' c' v)%C.
Proof. intros. unfold addto, upd, at2. destruct (Nat.eqb_spec r r'), (Nat.eqb_spec c c'); cbn [andb]; subst; ring. Qed.

Definition body_adds (e : env) (m lo nm ig n1 n2 : nat) (v : bool -> bool -> C) (r c : nat) : C :=
  if Nat.even (n1 + n2)
  then (at2 r c (n1 - lo) (n2 - lo) (v false false) + at2 r c (nm + (n1 - lo)) (nm + (n2 - lo)) (v true true))%C
  else (at2 r c (n1 - lo) (nm + (n2 - lo)) (v false true) + at2 r c (nm + (n1 - lo)) (n2 - lo) (v true false))%C.
Ltac csimp := repeat match goal with |- context [(?x, ?y)] => let H := fresh "z" in set (H := ((x, y) : C)); clearbody H end;
  rewrite ?RtoC_mult, ?RtoC_plus, ?RtoC_opp, ?RtoC_mult, ?RtoC_plus, ?RtoC_opp; ring.
Lemma mall_body_Q : forall e m nmax ig n1 n2 s r c, (m <= n1 <= nmax)%nat -> (m <= n2 <= nmax)%nat ->
  fst (mall_body e m nmax ig n1 n2 s) r c =
  (fst s r c + body_adds e m m (nmax + 1 - m) ig n1 n2 (fun p q => contribution e m (hQ e ig n1) (dhQ e ig n1) p q ig n1 n2) r c)%C.
Proof.
  intros. unfold mall_body, body_adds. cbv zeta. destruct (Nat.even (n1 + n2)) eqn:E; cbn [negb fst snd]; rewrite !addto_at.
  all: replace (n1 + 1 - m - 1)%nat with (n1 - m)%nat by lia; replace (n2 + 1 - m - 1)%nat with (n2 - m)%nat by lia;
    replace (n1 + 1 - m + (nmax + 1 - m) - 1)%nat with (nmax + 1 - m + (n1 - m))%nat by lia;
    replace (n2 + 1 - m + (nmax + 1 - m) - 1)%nat with (nmax + 1 - m + (n2 - m))%nat by lia;
    rewrite <- Cplus_assoc; f_equal; unfold contribution, hQ, dhQ; cbv zeta;
    apply f_equal2; unfold at2; (destruct (_ && _)%bool; [|reflexivity]); csimp.
Qed.
Lemma mall_body_Rg : forall e m nmax ig n1 n2 s r c, (m <= n1 <= nmax)%nat -> (m <= n2 <= nmax)%nat ->
  snd (mall_body e m nmax ig n1 n2 s) r c =
  (snd s r c + body_adds e m m (nmax + 1 - m) ig n1 n2 (fun p q => contribution e m (hRg e ig n1) (dhRg e ig n1) p q ig n1 n2) r c)%C.
Proof.
  intros. unfold mall_body, body_adds. cbv zeta. destruct (Nat.even (n1 + n2)) eqn:E; cbn [negb fst snd]; rewrite !addto_at.
  all: replace (n1 + 1 - m - 1)%nat with (n1 - m)%nat by lia; replace (n2 + 1 - m - 1)%nat with (n2 - m)%nat by lia;
    replace (n1 + 1 - m + (nmax + 1 - m) - 1)%nat with (nmax + 1 - m + (n1 - m))%nat by lia;
    replace (n2 + 1 - m + (nmax + 1 - m) - 1)%nat with (nmax + 1 - m + (n2 - m))%nat by lia;
    rewrite <- Cplus_assoc; f_equal; unfold contribution, hRg, dhRg; cbv zeta;
    apply f_equal2; unfold at2; (destruct (_ && _)%bool; [|reflexivity]); csimp.
Qed.
Lemma contribution_m0_off : forall e h dh p q ig n1 n2, p <> q -> contribution e 0 h dh p q ig n1 n2 = RtoC 0.
Proof.
  intros e h dh p q ig n1 n2 H. destruct p, q; try congruence; unfold contribution; cbv zeta; cbn [INR];
    rewrite !(Rmult_0_r (sinthetainv e ig)), ?Rmult_0_l; ring.
Qed.
Lemma at2_0 : forall r c r' c', at2 r c r' c' (RtoC 0) = RtoC 0.
Proof. intros. unfold at2. destruct (_ && _)%bool; reflexivity. Qed.
Lemma m0_body_Q : forall e nmax ig n1 n2 s r c, (1 <= n1 <= nmax)%nat -> (1 <= n2 <= nmax)%nat ->
  fst (m0_body e nmax (ig + 1) n1 n2 s) r c =
  (fst s r c + body_adds e 0 1 nmax ig n1 n2 (fun p q => contribution e 0 (hQ e ig n1) (dhQ e ig n1) p q ig n1 n2) r c)%C.
Proof.
  intros. unfold m0_body, body_adds. cbv zeta. replace (ig + 1 - 1)%nat with ig by lia. destruct (Nat.even (n1 + n2)) eqn:E; cbn [negb fst snd].
  - rewrite !addto_at.
    replace (n1 + nmax - 1)%nat with (nmax + (n1 - 1))%nat by lia; replace (n2 + nmax - 1)%nat with (nmax + (n2 - 1))%nat by lia.
    rewrite <- Cplus_assoc; f_equal; unfold contribution, hQ, dhQ; cbv zeta; cbn [INR]; rewrite !(Rmult_0_r 0), !(Rmult_0_r (sintheta2inv e ig)), !(Rmult_0_r (_ * _)), !(Rplus_0_l (_ * _));
    apply f_equal2; unfold at2; (destruct (_ && _)%bool; [|reflexivity]); csimp.
  - rewrite !contribution_m0_off by discriminate. rewrite !at2_0. ring.
Qed.
Lemma m0_body_Rg : forall e nmax ig n1 n2 s r c, (1 <= n1 <= nmax)%nat -> (1 <= n2 <= nmax)%nat ->
  snd (m0_body e nmax (ig + 1) n1 n2 s) r c =
  (snd s r c + body_adds e 0 1 nmax ig n1 n2 (fun p q => contribution e 0 (hRg e ig n1) (dhRg e ig n1) p q ig n1 n2) r c)%C.
Proof.
  intros. unfold m0_body, body_adds. cbv zeta. replace (ig + 1 - 1)%nat with ig by lia. destruct (Nat.even (n1 + n2)) eqn:E; cbn [negb fst snd].
  - rewrite !addto_at.
    replace (n1 + nmax - 1)%nat with (nmax + (n1 - 1))%nat by lia; replace (n2 + nmax - 1)%nat with (nmax + (n2 - 1))%nat by lia.
    rewrite <- Cplus_assoc; f_equal; unfold contribution, hRg, dhRg; cbv zeta; cbn [INR]; rewrite !(Rmult_0_r 0), !(Rmult_0_r (sintheta2inv e ig)), !(Rmult_0_r (_ * _)), !(Rplus_0_l (_ * _));
    apply f_equal2; unfold at2; (destruct (_ && _)%bool; [|reflexivity]); csimp.
  - rewrite !contribution_m0_off by discriminate. rewrite !at2_0. ring.
Qed.

(** a loop that adds [f k] in iteration k *)
Lemma for_acc : forall {S} (get : S -> C) (f : nat -> C) lo hi body s, (lo <= hi)%nat ->
  (forall k s, (lo <= k < hi)%nat -> get (body k s) = (get s + f k)%C) ->
  get (for_ lo hi body s) = (get s + csum (fun k => f (lo + k)%nat) (hi - lo))%C.
Proof.
  intros S get f lo hi body s H Hb.
  set (I := fun (q : nat) u => get u = (get s + csum (fun k => f (lo + k)%nat) (q - lo))%C).
  apply (for_ind I); unfold I; auto.
  - rewrite Nat.sub_diag. cbn [csum]. ring.
  - intros k u Hk E. rewrite Hb by lia. rewrite E. replace (k + 1 - lo)%nat with (Datatypes.S (k - lo)) by lia. cbn [csum].
    replace (lo + (k - lo))%nat with k by lia. ring.
Qed.
Lemma csum_one : forall f n i, (i < n)%nat -> (forall k, (k < n)%nat -> k <> i -> f k = RtoC 0) -> csum f n = f i.
Proof.
  intros f n. induction n as [|n IH]; intros i Hi H; [lia|]. cbn [csum]. destruct (Nat.eq_dec i n) as [->|N].
  - rewrite csum_0 by (intros; apply H; lia). ring.
  - rewrite (IH i) by (try lia; intros; apply H; lia). rewrite (H n) by lia. ring.
Qed.

(** the sums over n1 and n2 collapse on a cell *)
Lemma collapse : forall e m lo nm ig (v : nat -> nat -> bool -> bool -> C) p q n1 n2, (lo <= n1 < lo + nm)%nat -> (lo <= n2 < lo + nm)%nat ->
  csum (fun k1 => csum (fun k2 => body_adds e m lo nm ig (lo + k1) (lo + k2) (v (lo + k1)%nat (lo + k2)%nat) (cell lo nm p n1) (cell lo nm q n2)) nm) nm =
  if kept p q n1 n2 then v n1 n2 p q else RtoC 0.
Proof.
  intros e m lo nm ig v p q n1 n2 H1 H2.
  assert (Z: forall k1 k2, (k1 < nm)%nat -> (k2 < nm)%nat -> k1 <> (n1 - lo)%nat \/ k2 <> (n2 - lo)%nat ->
    body_adds e m lo nm ig (lo + k1) (lo + k2) (v (lo + k1)%nat (lo + k2)%nat) (cell lo nm p n1) (cell lo nm q n2) = RtoC 0).
  { intros k1 k2 K1 K2 K. unfold body_adds, cell, at2.
    replace (lo + k1 - lo)%nat with k1 by lia. replace (lo + k2 - lo)%nat with k2 by lia.
    destruct (Nat.even (lo + k1 + (lo + k2))).
    all: destruct p, q;
      repeat match goal with |- context [Nat.eqb ?a ?b] => destruct (Nat.eqb_spec a b) end; cbn [andb]; try ring; lia. }
  rewrite (csum_one _ nm (n1 - lo)%nat); [|lia|].
  2:{ intros k K N. apply csum_0. intros k2 K2. apply Z; auto. }
  rewrite (csum_one _ nm (n2 - lo)%nat); [|lia|].
  2:{ intros k K N. apply Z; auto; lia. }
  replace (lo + (n1 - lo))%nat with n1 by lia. replace (lo + (n2 - lo))%nat with n2 by lia.
  unfold body_adds, cell, at2, kept. destruct (Nat.even (n1 + n2)), p, q; cbn [Bool.eqb];
      repeat match goal with |- context [Nat.eqb ?a ?b] => destruct (Nat.eqb_spec a b) end; cbn [andb]; try ring; lia.
Qed.

Lemma mall_assemble_at : forall e m nmax ngauss p q n1 n2, (m <= n1 <= nmax)%nat -> (m <= n2 <= nmax)%nat ->
  fst (mall_assemble e m nmax ngauss) (cell m (nmax + 1 - m) p n1) (cell m (nmax + 1 - m) q n2) =
    csum (fun ig => if kept p q n1 n2 then contribution e m (hQ e ig n1) (dhQ e ig n1) p q ig n1 n2 else RtoC 0) ngauss /\
  snd (mall_assemble e m nmax ngauss) (cell m (nmax + 1 - m) p n1) (cell m (nmax + 1 - m) q n2) =
    csum (fun ig => if kept p q n1 n2 then contribution e m (hRg e ig n1) (dhRg e ig n1) p q ig n1 n2 else RtoC 0) ngauss.
Proof.
  intros e m nmax ngauss p q n1 n2 H1 H2. unfold mall_assemble. set (nm := (nmax + 1 - m)%nat).
  set (r := cell m nm p n1). set (c := cell m nm q n2). split.
  - rewrite (for_acc (fun s => fst s r c) (fun ig => if kept p q n1 n2 then contribution e m (hQ e ig n1) (dhQ e ig n1) p q ig n1 n2 else RtoC 0)).
    + cbn [fst]. unfold zero_mat. rewrite Cplus_0_l. rewrite Nat.sub_0_r. reflexivity.
    + lia.
    + intros ig s Hig.
      rewrite (for_acc (fun s => fst s r c) (fun k1 => csum (fun k2 => body_adds e m m nm ig k1 (m + k2) (fun p q => contribution e m (hQ e ig k1) (dhQ e ig k1) p q ig k1 (m + k2)%nat) r c) nm)).
      * f_equal. fold nm. apply (collapse e m m nm ig (fun a b p q => contribution e m (hQ e ig a) (dhQ e ig a) p q ig a b)); unfold nm; lia.
      * lia.
      * intros k1 s1 K1. rewrite (for_acc (fun s => fst s r c) (fun k2 => body_adds e m m nm ig k1 k2 (fun p q => contribution e m (hQ e ig k1) (dhQ e ig k1) p q ig k1 k2) r c)).
        -- reflexivity.
        -- lia.
        -- intros k2 s2 K2. apply mall_body_Q; lia.
  - rewrite (for_acc (fun s => snd s r c) (fun ig => if kept p q n1 n2 then contribution e m (hRg e ig n1) (dhRg e ig n1) p q ig n1 n2 else RtoC 0)).
    + cbn [snd]. unfold zero_mat. rewrite Cplus_0_l. rewrite Nat.sub_0_r. reflexivity.
    + lia.
    + intros ig s Hig.
      rewrite (for_acc (fun s => snd s r c) (fun k1 => csum (fun k2 => body_adds e m m nm ig k1 (m + k2) (fun p q => contribution e m (hRg e ig k1) (dhRg e ig k1) p q ig k1 (m + k2)%nat) r c) nm)).
      * f_equal. fold nm. apply (collapse e m m nm ig (fun a b p q => contribution e m (hRg e ig a) (dhRg e ig a) p q ig a b)); unfold nm; lia.
      * lia.
      * intros k1 s1 K1. rewrite (for_acc (fun s => snd s r c) (fun k2 => body_adds e m m nm ig k1 k2 (fun p q => contribution e m (hRg e ig k1) (dhRg e ig k1) p q ig k1 k2) r c)).
        -- reflexivity.
        -- lia.
        -- intros k2 s2 K2. apply mall_body_Rg; lia.
Qed.
Lemma m0_assemble_at : forall e nmax ngauss p q n1 n2, (1 <= n1 <= nmax)%nat -> (1 <= n2 <= nmax)%nat ->
  fst (m0_assemble e nmax ngauss) (cell 1 nmax p n1) (cell 1 nmax q n2) =
    csum (fun ig => if kept p q n1 n2 then contribution e 0 (hQ e ig n1) (dhQ e ig n1) p q ig n1 n2 else RtoC 0) ngauss /\
  snd (m0_assemble e nmax ngauss) (cell 1 nmax p n1) (cell 1 nmax q n2) =
    csum (fun ig => if kept p q n1 n2 then contribution e 0 (hRg e ig n1) (dhRg e ig n1) p q ig n1 n2 else RtoC 0) ngauss.
Proof.
  intros e nmax ngauss p q n1 n2 H1 H2. unfold m0_assemble.
  set (r := cell 1 nmax p n1). set (c := cell 1 nmax q n2). split.
  - rewrite (for_acc (fun s => fst s r c) (fun ig => if kept p q n1 n2 then contribution e 0 (hQ e (ig - 1) n1) (dhQ e (ig - 1) n1) p q (ig - 1) n1 n2 else RtoC 0)).
    + cbn [fst]. unfold zero_mat. rewrite Cplus_0_l. replace (ngauss + 1 - 1)%nat with ngauss by lia. apply csum_ext. intros k Hk.
      replace (1 + k - 1)%nat with k by lia. reflexivity.
    + lia.
    + intros ig s Hig. assert (EI: ig = (ig - 1 + 1)%nat) by lia. rewrite EI. replace (ig - 1 + 1 - 1)%nat with (ig - 1)%nat by lia.
      set (i := (ig - 1)%nat). clearbody i. clear ig Hig EI.
      rewrite (for_acc (fun s => fst s r c) (fun k1 => csum (fun k2 => body_adds e 0 1 nmax i k1 (1 + k2) (fun p q => contribution e 0 (hQ e i k1) (dhQ e i k1) p q i k1 (1 + k2)%nat) r c) nmax)).
      * f_equal. replace (nmax + 1 - 1)%nat with nmax by lia. apply (collapse e 0 1 nmax i (fun a b p q => contribution e 0 (hQ e i a) (dhQ e i a) p q i a b)); lia.
      * lia.
      * intros k1 s1 K1. rewrite (for_acc (fun s => fst s r c) (fun k2 => body_adds e 0 1 nmax i k1 k2 (fun p q => contribution e 0 (hQ e i k1) (dhQ e i k1) p q i k1 k2) r c)).
        -- replace (nmax + 1 - 1)%nat with nmax by lia. reflexivity.
        -- lia.
        -- intros k2 s2 K2. apply m0_body_Q; lia.
  - rewrite (for_acc (fun s => snd s r c) (fun ig => if kept p q n1 n2 then contribution e 0 (hRg e (ig - 1) n1) (dhRg e (ig - 1) n1) p q (ig - 1) n1 n2 else RtoC 0)).
    + cbn [snd]. unfold zero_mat. rewrite Cplus_0_l. replace (ngauss + 1 - 1)%nat with ngauss by lia. apply csum_ext. intros k Hk.
      replace (1 + k - 1)%nat with k by lia. reflexivity.
    + lia.
    + intros ig s Hig. assert (EI: ig = (ig - 1 + 1)%nat) by lia. rewrite EI. replace (ig - 1 + 1 - 1)%nat with (ig - 1)%nat by lia.
      set (i := (ig - 1)%nat). clearbody i. clear ig Hig EI.
      rewrite (for_acc (fun s => snd s r c) (fun k1 => csum (fun k2 => body_adds e 0 1 nmax i k1 (1 + k2) (fun p q => contribution e 0 (hRg e i k1) (dhRg e i k1) p q i k1 (1 + k2)%nat) r c) nmax)).
      * f_equal. replace (nmax + 1 - 1)%nat with nmax by lia. apply (collapse e 0 1 nmax i (fun a b p q => contribution e 0 (hRg e i a) (dhRg e i a) p q i a b)); lia.
      * lia.
      * intros k1 s1 K1. rewrite (for_acc (fun s => snd s r c) (fun k2 => body_adds e 0 1 nmax i k1 k2 (fun p q => contribution e 0 (hRg e i k1) (dhRg e i k1) p q i k1 k2) r c)).
        -- replace (nmax + 1 - 1)%nat with nmax by lia. reflexivity.
        -- lia.
        -- intros k2 s2 K2. apply m0_body_Rg; lia.
Qed.
