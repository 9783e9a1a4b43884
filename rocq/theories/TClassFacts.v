(** The matrices the class TMatrix assembles are i R_V^2 times those of the T-matrix tasks; the accumulated product. *)
From Coq Require Import List Arith Lia Bool Reals Lra.
From Coquelicot Require Import Complex.
From Verif Require Import Matrix Props_matrix Quadrature Wigner Align AlignFacts QMatrix QFacts Ebcm EbcmFacts Props_tmatrix TClass.
Import ListNotations.
Open Scope R_scope.

(* ---------------------------------------------- loops that assign cells *)
Lemma for_keep : forall {S X} (get : S -> X) lo hi body s, (lo <= hi)%nat ->
  (forall k s, (lo <= k < hi)%nat -> get (body k s) = get s) -> get (for_ lo hi body s) = get s.
Proof. intros S X get lo hi body s H Hb. apply (for_ind (fun _ u => get u = get s)); auto. intros k u Hk E. rewrite Hb; auto. Qed.
Lemma for_cell : forall {S X} (get : S -> X) v lo hi body s k, (lo <= k < hi)%nat ->
  (forall s, get (body k s) = v) -> (forall k' s, (lo <= k' < hi)%nat -> k' <> k -> get (body k' s) = get s) -> get (for_ lo hi body s) = v.
Proof.
  intros S X get v lo hi body s k H Hv Hk.
  apply (for_ind (fun q u => (k < q)%nat -> get u = v)); [lia | lia | | lia].
  intros q u Hq E L. destruct (Nat.eq_dec q k) as [->|N]; auto. rewrite Hk; auto. apply E. lia.
Qed.
Lemma for_for_cell : forall {S X} (get : S -> X) v lo hi body s k1 k2, (lo <= k1 < hi)%nat -> (lo <= k2 < hi)%nat ->
  (forall s, get (body k1 k2 s) = v) ->
  (forall a b s, (lo <= a < hi)%nat -> (lo <= b < hi)%nat -> a <> k1 \/ b <> k2 -> get (body a b s) = get s) ->
  get (for_ lo hi (fun a s => for_ lo hi (fun b s => body a b s) s) s) = v.
Proof.
  intros S X get v lo hi body s k1 k2 H1 H2 Hv Hk. apply (for_cell get v lo hi _ s k1 H1).
  - intros u. apply (for_cell get v lo hi _ u k2 H2); auto.
  - intros a u Ha Na. apply for_keep; [lia|]. intros b u' Hb. apply Hk; auto.
Qed.
Lemma for_for_keep : forall {S X} (get : S -> X) lo hi body s, (lo <= hi)%nat ->
  (forall a b s, (lo <= a < hi)%nat -> (lo <= b < hi)%nat -> get (body a b s) = get s) ->
  get (for_ lo hi (fun a s => for_ lo hi (fun b s => body a b s) s) s) = get s.
Proof. intros. apply for_keep; auto. intros. apply for_keep; auto. Qed.
Lemma upd_same : forall A r c v, upd C A r c v r c = v.
Proof. intros. unfold upd. rewrite !Nat.eqb_refl. reflexivity. Qed.
Lemma upd_other : forall A r c v r' c', r' <> r \/ c' <> c -> upd C A r c v r' c' = A r' c'.
Proof. intros. unfold upd. destruct (Nat.eqb_spec r' r), (Nat.eqb_spec c' c); cbn [andb]; auto. lia. Qed.

(* ---------------------------------------------- the sums *)
Lemma csum_scal : forall a f n, csum (fun k => a * f k)%C n = (a * csum f n)%C.
Proof. induction n; cbn [csum]; [ring | rewrite IHn; ring]. Qed.
Lemma csum_plus : forall f g n, csum (fun k => f k + g k)%C n = (csum f n + csum g n)%C.
Proof. induction n; cbn [csum]; [ring | rewrite IHn; ring]. Qed.
Lemma csum_eq : forall f g n, (forall k, (k < n)%nat -> f k = g k) -> csum f n = csum g n.
Proof. induction n; intros H; cbn [csum]; auto. rewrite IHn by auto. rewrite H by lia. reflexivity. Qed.

Section Terms.
Variable e : env.
(** the summands, for the outgoing functions (h, dh) or the regular ones *)
Definition s12 (m : nat) (h dh : C) (n1 n2 ig : nat) : C :=
  (!(weight e ig * r2 e ig * (fst (wigner e ig (n1 - 1)%nat) * fst (wigner e ig (n2 - 1)%nat) * (sintheta2inv e ig * (INR m * INR m)) + snd (wigner e ig (n1 - 1)%nat) * snd (wigner e ig (n2 - 1)%nat))) * (jkrmr e ig n2 * dh) +
   !(weight e ig * r2 e ig * dr_over_r e ig * (INR n1 * (INR n1 + 1)) * (fst (wigner e ig (n1 - 1)%nat) * snd (wigner e ig (n2 - 1)%nat))) * (!(krinv e ig) * (jkrmr e ig n2 * h)))%C.
Definition s21 (m : nat) (h dh : C) (n1 n2 ig : nat) : C :=
  (!(weight e ig * r2 e ig * (fst (wigner e ig (n1 - 1)%nat) * fst (wigner e ig (n2 - 1)%nat) * (sintheta2inv e ig * (INR m * INR m)) + snd (wigner e ig (n1 - 1)%nat) * snd (wigner e ig (n2 - 1)%nat))) * (h * djkrmr e ig n2) +
   !(weight e ig * r2 e ig * dr_over_r e ig * (INR n2 * (INR n2 + 1)) * (snd (wigner e ig (n1 - 1)%nat) * fst (wigner e ig (n2 - 1)%nat))) * (jkrmr e ig n2 * h * krmrinv e ig))%C.
Definition s11 (m : nat) (h : C) (n1 n2 ig : nat) : C :=
  (!(sinthetainv e ig * INR m * (weight e ig * r2 e ig) * (fst (wigner e ig (n1 - 1)%nat) * snd (wigner e ig (n2 - 1)%nat) + snd (wigner e ig (n1 - 1)%nat) * fst (wigner e ig (n2 - 1)%nat))) * (jkrmr e ig n2 * h))%C.
Definition s22 (m : nat) (h dh : C) (n1 n2 ig : nat) : C :=
  (!(sinthetainv e ig * INR m * (weight e ig * r2 e ig) * (fst (wigner e ig (n1 - 1)%nat) * snd (wigner e ig (n2 - 1)%nat) + snd (wigner e ig (n1 - 1)%nat) * fst (wigner e ig (n2 - 1)%nat))) * (djkrmr e ig n2 * dh) +
   !(sinthetainv e ig * INR m * (weight e ig * r2 e ig) * dr_over_r e ig * (fst (wigner e ig (n1 - 1)%nat) * fst (wigner e ig (n2 - 1)%nat)) * (INR n1 * (INR n1 + 1))) * (djkrmr e ig n2 * h * !(krinv e ig)) +
   !(sinthetainv e ig * INR m * (weight e ig * r2 e ig) * dr_over_r e ig * (fst (wigner e ig (n1 - 1)%nat) * fst (wigner e ig (n2 - 1)%nat)) * (INR n2 * (INR n2 + 1))) * (jkrmr e ig n2 * dh * krmrinv e ig))%C.
Lemma contribution_sums : forall m h dh p q ig n1 n2, contribution e m h dh p q ig n1 n2 =
  let a := !(ann e n1 n2) in
  match p, q with
  | false, false => a * (k2mr e * s21 m h dh n1 n2 ig - !(k2 e) * s12 m h dh n1 n2 ig)
  | true, true => a * (!(k2 e) * s21 m h dh n1 n2 ig - k2mr e * s12 m h dh n1 n2 ig)
  | false, true => Ci * a * (k2mr e * s11 m h n1 n2 ig + !(k2 e) * s22 m h dh n1 n2 ig)
  | true, false => Ci * a * (k2mr e * s22 m h dh n1 n2 ig + !(k2 e) * s11 m h n1 n2 ig)
  end%C.
Proof.
  intros. unfold contribution, s12, s21, s11, s22. cbv zeta. destruct p, q; rewrite ?RtoC_opp; ring.
Qed.

Lemma c0_sum : forall ngauss n1 n2, let s := for_ 1 (ngauss + 1) (c0_term e n1 n2) zero4 in
  f12 s = csum (fun ig => s12 0 (hQ e ig n1) (dhQ e ig n1) n1 n2 ig) ngauss /\
  f21 s = csum (fun ig => s21 0 (hQ e ig n1) (dhQ e ig n1) n1 n2 ig) ngauss /\
  g12 s = csum (fun ig => s12 0 (hRg e ig n1) (dhRg e ig n1) n1 n2 ig) ngauss /\
  g21 s = csum (fun ig => s21 0 (hRg e ig n1) (dhRg e ig n1) n1 n2 ig) ngauss.
Proof.
  intros ngauss n1 n2 s. unfold s.
  assert (G: forall (get : four C -> C) (f : nat -> C), get zero4 = RtoC 0 ->
    (forall ig u, get (c0_term e n1 n2 (S ig) u) = (get u + f ig)%C) -> get (for_ 1 (ngauss + 1) (c0_term e n1 n2) zero4) = csum f ngauss).
  { intros get f Z0 H. rewrite (for_acc get (fun k => f (k - 1)%nat)); [|lia|].
    - rewrite Z0, Cplus_0_l. replace (ngauss + 1 - 1)%nat with ngauss by lia. apply csum_eq. intros k _. f_equal. lia.
    - intros k u Hk. rewrite <- H. f_equal. f_equal. lia. }
  repeat split; apply G; try reflexivity; intros ig u; unfold c0_term; cbv zeta; cbn [f12 f21 g12 g21]; replace (S ig - 1)%nat with ig by lia;
    unfold s12, s21, hQ, dhQ, hRg, dhRg; cbn [INR]; rewrite (Rmult_0_l 0), (Rmult_0_r (sintheta2inv e ig)), (Rmult_0_r (_ * _)), (Rplus_0_l (_ * _)); ring.
Qed.
Lemma cm_sum : forall ngauss m n1 n2, let s := for_ 0 ngauss (cm_term e m n1 n2) zero8 in
  let ev := Nat.even (n1 + n2) in
  j12 s = (if ev then csum (fun ig => s12 m (hQ e ig n1) (dhQ e ig n1) n1 n2 ig) ngauss else RtoC 0) /\
  j21 s = (if ev then csum (fun ig => s21 m (hQ e ig n1) (dhQ e ig n1) n1 n2 ig) ngauss else RtoC 0) /\
  r12 s = (if ev then csum (fun ig => s12 m (hRg e ig n1) (dhRg e ig n1) n1 n2 ig) ngauss else RtoC 0) /\
  r21 s = (if ev then csum (fun ig => s21 m (hRg e ig n1) (dhRg e ig n1) n1 n2 ig) ngauss else RtoC 0) /\
  j11 s = (if ev then RtoC 0 else csum (fun ig => s11 m (hQ e ig n1) n1 n2 ig) ngauss) /\
  j22 s = (if ev then RtoC 0 else csum (fun ig => s22 m (hQ e ig n1) (dhQ e ig n1) n1 n2 ig) ngauss) /\
  r11 s = (if ev then RtoC 0 else csum (fun ig => s11 m (hRg e ig n1) n1 n2 ig) ngauss) /\
  r22 s = (if ev then RtoC 0 else csum (fun ig => s22 m (hRg e ig n1) (dhRg e ig n1) n1 n2 ig) ngauss).
Proof.
  intros ngauss m n1 n2 s ev. unfold s, ev.
  assert (G: forall (get : eight C -> C) (f : nat -> C), get zero8 = RtoC 0 ->
    (forall ig u, get (cm_term e m n1 n2 ig u) = (get u + f ig)%C) -> get (for_ 0 ngauss (cm_term e m n1 n2) zero8) = csum f ngauss).
  { intros get f Z0 H. rewrite (for_acc get f); [|lia|auto].
    rewrite Z0, Cplus_0_l, Nat.sub_0_r. reflexivity. }
  assert (GZ: forall (get : eight C -> C), get zero8 = RtoC 0 ->
    (forall ig u, get (cm_term e m n1 n2 ig u) = get u) -> get (for_ 0 ngauss (cm_term e m n1 n2) zero8) = RtoC 0).
  { intros get Z0 H. rewrite <- Z0. apply for_keep; [lia|auto]. }
  destruct (Nat.even (n1 + n2)) eqn:EV; repeat split;
    (apply GZ; [reflexivity | intros ig u; unfold cm_term; rewrite EV; reflexivity]) || (apply G; [reflexivity|]; intros ig u; unfold cm_term; rewrite EV; cbv zeta; cbn [negb j11 j12 j21 j22 r11 r12 r21 r22];
    unfold s11, s12, s21, s22, hQ, dhQ, hRg, dhRg; ring).
Qed.

(* ---------------------------------------------- the J matrices *)
Ltac getter := lazymatch goal with
  | |- @f12 _ _ ?r ?c = _ => constr:(fun s : four cmat => f12 s r c)
  | |- @f21 _ _ ?r ?c = _ => constr:(fun s : four cmat => f21 s r c)
  | |- @g12 _ _ ?r ?c = _ => constr:(fun s : four cmat => g12 s r c)
  | |- @g21 _ _ ?r ?c = _ => constr:(fun s : four cmat => g21 s r c)
  | |- @j11 _ _ ?r ?c = _ => constr:(fun s : eight cmat => j11 s r c)
  | |- @j12 _ _ ?r ?c = _ => constr:(fun s : eight cmat => j12 s r c)
  | |- @j21 _ _ ?r ?c = _ => constr:(fun s : eight cmat => j21 s r c)
  | |- @j22 _ _ ?r ?c = _ => constr:(fun s : eight cmat => j22 s r c)
  | |- @r11 _ _ ?r ?c = _ => constr:(fun s : eight cmat => r11 s r c)
  | |- @r12 _ _ ?r ?c = _ => constr:(fun s : eight cmat => r12 s r c)
  | |- @r21 _ _ ?r ?c = _ => constr:(fun s : eight cmat => r21 s r c)
  | |- @r22 _ _ ?r ?c = _ => constr:(fun s : eight cmat => r22 s r c)
  | |- fst _ ?r ?c = _ => constr:(fun s : cmat * cmat => fst s r c)
  | |- snd _ ?r ?c = _ => constr:(fun s : cmat * cmat => snd s r c)
  end.
Ltac cell_loop lo hi n1 n2 := let get := getter in
  lazymatch goal with |- _ = ?v => apply (for_for_cell get v lo hi _ _ n1 n2); [lia|lia| |] end.
Ltac keep_loop lo hi := let get := getter in apply (for_for_keep get lo hi).
Lemma c0_J_at : forall nmax ngauss n1 n2, (1 <= n1 <= nmax)%nat -> (1 <= n2 <= nmax)%nat ->
  let J := c0_J e nmax ngauss in let ev := Nat.even (n1 + n2) in let a := !(2 * ann e n1 n2) in
  f12 J (n1 - 1)%nat (n2 - 1)%nat = (if ev then a * csum (fun ig => s12 0 (hQ e ig n1) (dhQ e ig n1) n1 n2 ig) ngauss else RtoC 0)%C /\
  f21 J (n1 - 1)%nat (n2 - 1)%nat = (if ev then a * csum (fun ig => s21 0 (hQ e ig n1) (dhQ e ig n1) n1 n2 ig) ngauss else RtoC 0)%C /\
  g12 J (n1 - 1)%nat (n2 - 1)%nat = (if ev then a * csum (fun ig => s12 0 (hRg e ig n1) (dhRg e ig n1) n1 n2 ig) ngauss else RtoC 0)%C /\
  g21 J (n1 - 1)%nat (n2 - 1)%nat = (if ev then a * csum (fun ig => s21 0 (hRg e ig n1) (dhRg e ig n1) n1 n2 ig) ngauss else RtoC 0)%C.
Proof.
  intros nmax ngauss n1 n2 H1 H2 J ev a. unfold J, ev, a, c0_J. destruct (c0_sum ngauss n1 n2) as (S1 & S2 & S3 & S4). cbv zeta in *.
  destruct (Nat.even (n1 + n2)) eqn:EV.
  - split; [|split; [|split]]; cell_loop 1%nat (nmax + 1)%nat n1 n2;
    try (intros u; rewrite EV; cbn [f12 f21 g12 g21]; rewrite upd_same, ?S1, ?S2, ?S3, ?S4; reflexivity);
    intros a' b' u Ha Hb N; destruct (Nat.even (a' + b')); try reflexivity; cbn [f12 f21 g12 g21]; apply upd_other; lia.
  - split; [|split; [|split]]; (keep_loop 1%nat (nmax + 1)%nat; [lia|]);
    intros a' b' u Ha Hb; (destruct (Nat.even (a' + b')) eqn:EV'; [|reflexivity]); cbn [f12 f21 g12 g21]; apply upd_other;
    (destruct (Nat.eq_dec a' n1) as [->|]; [|lia]); (destruct (Nat.eq_dec b' n2) as [->|]; [congruence|lia]).
Qed.
Lemma cm_J_at : forall m nmax ngauss n1 n2, (1 <= m)%nat -> (m <= n1 <= nmax)%nat -> (m <= n2 <= nmax)%nat ->
  let J := cm_J e m nmax ngauss in let a := !(2 * ann e n1 n2) in
  let s := for_ 0 ngauss (cm_term e m n1 n2) zero8 in
  j12 J (n1 - 1)%nat (n2 - 1)%nat = (j12 s * a)%C /\ j21 J (n1 - 1)%nat (n2 - 1)%nat = (j21 s * a)%C /\
  r12 J (n1 - 1)%nat (n2 - 1)%nat = (r12 s * a)%C /\ r21 J (n1 - 1)%nat (n2 - 1)%nat = (r21 s * a)%C /\
  j11 J (n1 - 1)%nat (n2 - 1)%nat = (j11 s * a)%C /\ j22 J (n1 - 1)%nat (n2 - 1)%nat = (j22 s * a)%C /\
  r11 J (n1 - 1)%nat (n2 - 1)%nat = (r11 s * a)%C /\ r22 J (n1 - 1)%nat (n2 - 1)%nat = (r22 s * a)%C.
Proof.
  intros m nmax ngauss n1 n2 Hm H1 H2 J a s. unfold J, a, s, cm_J. cbv zeta.
  repeat split.
  all: cell_loop m (nmax + 1)%nat n1 n2.
  all: try (intros u; cbn [j11 j12 j21 j22 r11 r12 r21 r22]; apply upd_same).
  all: intros a' b' u Ha Hb N; cbn [j11 j12 j21 j22 r11 r12 r21 r22]; apply upd_other; lia.
Qed.

(* ---------------------------------------------- the matrices *)
Definition total (m : nat) (h dh : nat -> nat -> C) (p q : bool) (n1 n2 ngauss : nat) : C :=
  csum (fun ig => if kept p q n1 n2 then contribution e m (h ig n1) (dh ig n1) p q ig n1 n2 else RtoC 0) ngauss.
Lemma total_sums : forall m h dh p q n1 n2 ngauss, total m h dh p q n1 n2 ngauss =
  if kept p q n1 n2 then
  let a := !(ann e n1 n2) in
  let S12 := csum (fun ig => s12 m (h ig n1) (dh ig n1) n1 n2 ig) ngauss in let S21 := csum (fun ig => s21 m (h ig n1) (dh ig n1) n1 n2 ig) ngauss in
  let S11 := csum (fun ig => s11 m (h ig n1) n1 n2 ig) ngauss in let S22 := csum (fun ig => s22 m (h ig n1) (dh ig n1) n1 n2 ig) ngauss in
  match p, q with
  | false, false => a * (k2mr e * S21 - !(k2 e) * S12)
  | true, true => a * (!(k2 e) * S21 - k2mr e * S12)
  | false, true => Ci * a * (k2mr e * S11 + !(k2 e) * S22)
  | true, false => Ci * a * (k2mr e * S22 + !(k2 e) * S11)
  end%C else RtoC 0.
Proof.
  intros. unfold total. destruct (kept p q n1 n2); [|apply csum_0; auto]. cbv zeta.
  destruct p, q; rewrite <- ?csum_scal;
   [ rewrite (csum_eq _ (fun ig => !(ann e n1 n2) * (!(k2 e) * s21 m (h ig n1) (dh ig n1) n1 n2 ig + (- k2mr e) * s12 m (h ig n1) (dh ig n1) n1 n2 ig))%C)
   | rewrite (csum_eq _ (fun ig => (Ci * !(ann e n1 n2)) * (k2mr e * s22 m (h ig n1) (dh ig n1) n1 n2 ig + !(k2 e) * s11 m (h ig n1) n1 n2 ig))%C)
   | rewrite (csum_eq _ (fun ig => (Ci * !(ann e n1 n2)) * (k2mr e * s11 m (h ig n1) n1 n2 ig + !(k2 e) * s22 m (h ig n1) (dh ig n1) n1 n2 ig))%C)
   | rewrite (csum_eq _ (fun ig => !(ann e n1 n2) * (k2mr e * s21 m (h ig n1) (dh ig n1) n1 n2 ig + (- !(k2 e)) * s12 m (h ig n1) (dh ig n1) n1 n2 ig))%C) ];
   try (intros ig _; rewrite contribution_sums; cbv zeta; ring);
   rewrite csum_scal, csum_plus, !csum_scal; ring.
Qed.

Ltac cells := repeat first [rewrite upd_same | rewrite upd_other by (unfold cell; lia)].
Lemma c0_matrices_at : forall nmax ngauss p q n1 n2, (1 <= n1 <= nmax)%nat -> (1 <= n2 <= nmax)%nat ->
  fst (c0_matrices e nmax ngauss) (cell 1 nmax p n1) (cell 1 nmax q n2) = (!2 * Ci * total 0 (hQ e) (dhQ e) p q n1 n2 ngauss)%C /\
  snd (c0_matrices e nmax ngauss) (cell 1 nmax p n1) (cell 1 nmax q n2) = (!2 * Ci * total 0 (hRg e) (dhRg e) p q n1 n2 ngauss)%C.
Proof.
  intros nmax ngauss p q n1 n2 H1 H2.
  destruct (c0_J_at nmax ngauss n1 n2 H1 H2) as (J1 & J2 & J3 & J4). cbv zeta in *. rewrite RtoC_mult in J1, J2, J3, J4.
  destruct (Bool.bool_dec p q) as [<-|NE].
  - rewrite !total_sums. unfold kept. rewrite eqb_reflx. cbv zeta. destruct p.
    + split; unfold c0_matrices; cbv zeta; cell_loop 1%nat (nmax + 1)%nat n1 n2;
      try (intros u; cbn [fst snd]; replace (cell 1 nmax true n1) with (n1 + nmax - 1)%nat by (unfold cell; lia); replace (cell 1 nmax true n2) with (n2 + nmax - 1)%nat by (unfold cell; lia);
         rewrite upd_same, ?J1, ?J2, ?J3, ?J4; destruct (Nat.even (n1 + n2)); cbn [Bool.eqb]; ring);
      intros a' b' u Ha Hb N; cbn [fst snd]; cells; reflexivity.
    + split; unfold c0_matrices; cbv zeta; cell_loop 1%nat (nmax + 1)%nat n1 n2;
      try (intros u; cbn [fst snd]; rewrite upd_other by (unfold cell; lia); replace (cell 1 nmax false n1) with (n1 - 1)%nat by (unfold cell; lia); replace (cell 1 nmax false n2) with (n2 - 1)%nat by (unfold cell; lia);
         rewrite upd_same, ?J1, ?J2, ?J3, ?J4; destruct (Nat.even (n1 + n2)); cbn [Bool.eqb]; ring);
      intros a' b' u Ha Hb N; cbn [fst snd]; cells; reflexivity.
  - assert (Z0: forall h dh, total 0 h dh p q n1 n2 ngauss = RtoC 0).
    { intros. apply csum_0. intros ig _. destruct (kept p q n1 n2); auto. apply contribution_m0_off; auto. }
    rewrite !Z0. rewrite !Cmult_0_r. split; unfold c0_matrices; cbv zeta; (keep_loop 1%nat (nmax + 1)%nat; [lia|]);
    intros a' b' u Ha Hb; cbn [fst snd]; destruct p, q; try congruence; cells; reflexivity.
Qed.
Lemma cm_matrices_at : forall m nmax ngauss p q n1 n2, (1 <= m)%nat -> (m <= n1 <= nmax)%nat -> (m <= n2 <= nmax)%nat ->
  fst (cm_matrices e m nmax ngauss) (cell m (nmax + 1 - m) p n1) (cell m (nmax + 1 - m) q n2) = (!2 * Ci * total m (hQ e) (dhQ e) p q n1 n2 ngauss)%C /\
  snd (cm_matrices e m nmax ngauss) (cell m (nmax + 1 - m) p n1) (cell m (nmax + 1 - m) q n2) = (!2 * Ci * total m (hRg e) (dhRg e) p q n1 n2 ngauss)%C.
Proof.
  intros m nmax ngauss p q n1 n2 Hm H1 H2.
  destruct (cm_J_at m nmax ngauss n1 n2 Hm H1 H2) as (J1 & J2 & J3 & J4 & J5 & J6 & J7 & J8).
  destruct (cm_sum ngauss m n1 n2) as (S1 & S2 & S3 & S4 & S5 & S6 & S7 & S8). cbv zeta in *.
  rewrite S1 in J1; rewrite S2 in J2; rewrite S3 in J3; rewrite S4 in J4; rewrite S5 in J5; rewrite S6 in J6; rewrite S7 in J7; rewrite S8 in J8.
  rewrite RtoC_mult in J1, J2, J3, J4, J5, J6, J7, J8. clear S1 S2 S3 S4 S5 S6 S7 S8.
  set (nm := (nmax + 1 - m)%nat) in *. assert (NM: nm = (nmax + 1 - m)%nat) by reflexivity.
  assert (CI: (Ci * Ci = - RtoC 1)%C) by (unfold Ci, Cmult, RtoC, Copp; cbn [fst snd]; f_equal; ring).
  rewrite !total_sums. unfold kept. cbv zeta.
  split; unfold cm_matrices; cbv zeta; fold nm.
  all: cell_loop m (nmax + 1)%nat n1 n2.
  all: try (intros a' b' u Ha Hb N; cbn [fst snd]; destruct p, q; cells; reflexivity).
  all: intros u; cbn [fst snd]; destruct p, q; cbn [Bool.eqb].
  all: repeat rewrite upd_other by (unfold cell; lia).
  all: replace (n1 + 1 - m - 1)%nat with (cell m nm false n1) by (unfold cell; lia);
       replace (n2 + 1 - m - 1)%nat with (cell m nm false n2) by (unfold cell; lia);
       replace (n1 + 1 - m + nm - 1)%nat with (cell m nm true n1) by (unfold cell; lia);
       replace (n2 + 1 - m + nm - 1)%nat with (cell m nm true n2) by (unfold cell; lia).
  all: rewrite upd_same, ?J1, ?J2, ?J3, ?J4, ?J5, ?J6, ?J7, ?J8; destruct (Nat.even (n1 + n2)); cbn [Bool.eqb]; try ring.
  all: match goal with |- _ = (!2 * Ci * (Ci * ?a * ?b))%C => transitivity (Ci * Ci * (!2 * (a * b)))%C; [rewrite CI; ring|ring] end.
Qed.
End Terms.

(* ---------------------------------------------- the Wigner functions *)
Lemma updp_at : forall (A : nat -> nat -> R * R) r c v r' c', upd (R * R) A r c v r' c' = if ((r' =? r) && (c' =? c))%nat then v else A r' c'.
Proof. reflexivity. Qed.
Lemma class_wigner_row_at : forall nmax i1 i2 row T r n, (i1 - 1 <> i2 - 1)%nat ->
  class_wigner_row nmax i1 i2 row T r n =
  if ((r =? i1 - 1) && (n <? nmax))%nat then nth n row (0, 0)
  else if ((r =? i2 - 1) && (n <? nmax))%nat then ((-1) ^ (n + 1) * fst (nth n row (0, 0)), - (-1) ^ (n + 1) * snd (nth n row (0, 0)))
  else T r n.
Proof.
  intros nmax i1 i2 row T r n N. unfold class_wigner_row.
  set (I := (fun q (u : R * (nat -> nat -> R * R)) => fst u = (-1) ^ q /\ snd u r n =
      if ((r =? i1 - 1) && (n <? q))%nat then nth n row (0, 0)
      else if ((r =? i2 - 1) && (n <? q))%nat then ((-1) ^ (n + 1) * fst (nth n row (0, 0)), - (-1) ^ (n + 1) * snd (nth n row (0, 0)))
      else T r n)).
  match goal with |- snd (for_ ?lo ?hi ?body ?s) _ _ = _ => assert (G: I hi (for_ lo hi body s)) end.
  { apply (for_ind I); unfold I; [lia| |].
    - cbv beta. cbn [fst snd pow]. split; auto. destruct (Nat.eqb_spec r (i1 - 1)), (Nat.eqb_spec r (i2 - 1)), (Nat.ltb_spec n 0); cbn [andb]; auto; lia.
    - intros k u Hk (E1 & E2). destruct u as (sg, Tb). cbv beta zeta in *. cbn [fst snd] in *. subst sg. split; [rewrite pow_add; ring|].
      rewrite !updp_at, E2.
      destruct (Nat.eqb_spec n k) as [->|NK].
      + rewrite !andb_true_r. destruct (Nat.ltb_spec k k); [lia|]. destruct (Nat.ltb_spec k (k + 1)); [|lia]. rewrite !andb_true_r, !andb_false_r.
        destruct (Nat.eqb_spec r (i1 - 1)), (Nat.eqb_spec r (i2 - 1)); try lia; auto.
        * symmetry. apply surjective_pairing.
        * rewrite pow_add. f_equal; ring.
      + rewrite !andb_false_r. destruct (Nat.ltb_spec n k), (Nat.ltb_spec n (k + 1)); try lia; auto. }
  apply G.
Qed.
Lemma class_wigner_at : forall ngauss nmax m x r n, (r < 2 * ngauss)%nat -> (n < nmax)%nat ->
  class_wigner ngauss nmax m x r n = wigner_table ngauss nmax m x (fun _ _ => (0, 0)) r n.
Proof.
  intros ngauss nmax m x r n Hr Hn. rewrite wigner_table_at by auto. unfold class_wigner.
  destruct (Nat.leb_spec ngauss r) as [L|L].
  - apply (for_cell (fun T => T r n) _ 1 (ngauss + 1) _ _ (r + 1 - ngauss)); [lia| |].
    + intros T. cbv zeta. rewrite class_wigner_row_at by lia. destruct (Nat.eqb_spec r (ngauss + (r + 1 - ngauss) - 1)); [|lia].
      destruct (Nat.ltb_spec n nmax); [|lia]. cbn [andb]. unfold cell_direct. repeat f_equal. auto.
    + intros k T Hk N. cbv zeta. rewrite class_wigner_row_at by lia. destruct (Nat.eqb_spec r (ngauss + k - 1)); [lia|].
      destruct (Nat.eqb_spec r (ngauss - k + 1 - 1)); [lia|]. reflexivity.
  - apply (for_cell (fun T => T r n) _ 1 (ngauss + 1) _ _ (ngauss - r)); [lia| |].
    + intros T. cbv zeta. rewrite class_wigner_row_at by lia. destruct (Nat.eqb_spec r (ngauss + (ngauss - r) - 1)); [lia|].
      destruct (Nat.eqb_spec r (ngauss - (ngauss - r) + 1 - 1)); [|lia]. destruct (Nat.ltb_spec n nmax); [|lia]. cbn [andb]. unfold cell_direct.
      replace (2 * ngauss - 1 - r)%nat with (ngauss + (ngauss - r) - 1)%nat by lia. reflexivity.
    + intros k T Hk N. cbv zeta. rewrite class_wigner_row_at by lia. destruct (Nat.eqb_spec r (ngauss + k - 1)); [lia|].
      destruct (Nat.eqb_spec r (ngauss - k + 1 - 1)); [lia|]. reflexivity.
Qed.

(* ---------------------------------------------- the two environments *)
Section Scaled.
Variables (b : radial) (m nmax ngauss : nat) (x w : nat -> R) (axis_ratio R_V wavelength : R) (mr : C).
Hypotheses (Hs : symmetric_rule ngauss x w) (Ha : 0 < axis_ratio) (HR : 0 < R_V) (Hl : 0 < wavelength) (Hr : mr <> RtoC 0) (Hm : (m <= nmax)%nat).
Definition zeros : (nat -> R) * (nat -> R) := (fun _ => 0, fun _ => 0).
Let ec := class_env b m nmax ngauss x w axis_ratio R_V wavelength mr.
Let et := make_env b true m nmax ngauss x w axis_ratio R_V wavelength mr zeros (fun _ _ => (0, 0)).
Lemma kr_same : forall i, 2 * PI / wavelength * sqrt (r2 et i * (R_V * R_V)) = kr_of R_V wavelength (r2 et) i.
Proof. intros i. unfold kr_of. rewrite Rmult_comm with (r1 := r2 et i). rewrite sqrt_mult_alt by nra. rewrite sqrt_square by lra. ring. Qed.
Lemma krmr_same : forall i, (mr * !(kr_of R_V wavelength (r2 et) i))%C = krmr_of R_V wavelength mr (r2 et) i.
Proof. intros i. unfold krmr_of, kr_of. rewrite !RtoC_mult. ring. Qed.
Lemma class_ann_half : forall ni nj, class_ann ni nj = / 2 * ann_element ni nj.
Proof. intros. unfold class_ann, ann_element. cbv zeta. replace 0.5 with (/ 2) by lra. destruct (nj <=? ni)%nat; ring. Qed.
Lemma contribution_scaled : forall rg p q ig n1 n2, (ig < ngauss)%nat -> (1 <= n1 <= nmax)%nat -> (1 <= n2 <= nmax)%nat ->
  let h e := (if rg : bool then hRg e else hQ e) in let dh e := (if rg then dhRg e else dhQ e) in
  (!2 * contribution ec m (h ec ig n1) (dh ec ig n1) p q ig n1 n2 = !(R_V * R_V) * contribution et m (h et ig n1) (dh et ig n1) p q ig n1 n2)%C.
Proof.
  intros rg p q ig n1 n2 Hig H1 H2 h dh.
  assert (KR: forall i, 2 * PI / wavelength * sqrt (r2 ec i) = kr_of R_V wavelength (r2 et) i) by (intros i; apply kr_same).
  assert (KM: forall i, (mr * !(2 * PI / wavelength * sqrt (r2 ec i)))%C = krmr_of R_V wavelength mr (r2 et) i) by (intros i; rewrite KR; apply krmr_same).
  assert (E1: h ec ig n1 = h et ig n1).
  { unfold h. destruct rg; unfold hRg, hQ; change (jkr ec ig n1) with (jay b n1 (2 * PI / wavelength * sqrt (r2 ec ig)));
      try change (ykr ec ig n1) with (why b n1 (2 * PI / wavelength * sqrt (r2 ec ig))); rewrite KR; reflexivity. }
  assert (E2: dh ec ig n1 = dh et ig n1).
  { unfold dh. destruct rg; unfold dhRg, dhQ; change (djkr ec ig n1) with (djay b n1 (2 * PI / wavelength * sqrt (r2 ec ig)));
      try change (dykr ec ig n1) with (dwhy b n1 (2 * PI / wavelength * sqrt (r2 ec ig))); rewrite KR; reflexivity. }
  assert (E3: jkrmr ec ig n2 = jkrmr et ig n2).
  { change (jkrmr ec ig n2) with (jayc b n2 (mr * !(2 * PI / wavelength * sqrt (r2 ec ig)))%C). rewrite KM. reflexivity. }
  assert (E4: djkrmr ec ig n2 = djkrmr et ig n2).
  { change (djkrmr ec ig n2) with (djayc b n2 (mr * !(2 * PI / wavelength * sqrt (r2 ec ig)))%C). rewrite KM. reflexivity. }
  assert (E5: krinv ec ig = krinv et ig).
  { change (krinv ec ig) with (1 / (2 * PI / wavelength * sqrt (r2 ec ig))). rewrite KR. reflexivity. }
  assert (NK: kr_of R_V wavelength (r2 et) ig <> 0).
  { destruct (e_kr b true m nmax ngauss x w (angles x) axis_ratio R_V wavelength mr zeros (fun _ _ => (0, 0)) (angles_ok _ _ _ Hs) Ha HR Hl ig ltac:(lia)) as (E & N). fold et in E. rewrite E. exact N. }
  assert (E6: krmrinv ec ig = krmrinv et ig).
  { change (krmrinv ec ig) with (!1 / mr * !(krinv ec ig))%C. rewrite E5. change (krinv et ig) with (1 / kr_of R_V wavelength (r2 et) ig).
    change (krmrinv et ig) with (!1 / krmr_of R_V wavelength mr (r2 et) ig)%C. rewrite <- krmr_same.
    unfold Rdiv. rewrite RtoC_mult, RtoC_inv by auto. field. split; auto. intro E. apply NK, RtoC_inj. auto. }
  assert (E7: wigner ec ig (n1 - 1)%nat = wigner et ig (n1 - 1)%nat) by (apply class_wigner_at; lia).
  assert (E8: wigner ec ig (n2 - 1)%nat = wigner et ig (n2 - 1)%nat) by (apply class_wigner_at; lia).
  assert (E9: ann ec n1 n2 = / 2 * ann et n1 n2) by apply class_ann_half.
  assert (E10: r2 ec ig = (R_V * R_V) * r2 et ig) by (apply Rmult_comm).
  rewrite E1, E2, !contribution_sums. unfold s12, s21, s11, s22. cbv zeta. rewrite E3, E4, E5, E6, E7, E8, E9, E10.
  change (k2mr ec) with (k2mr et). change (k2 ec) with (k2 et). change (weight ec ig) with (weight et ig). change (dr_over_r ec ig) with (dr_over_r et ig).
  change (sinthetainv ec ig) with (sinthetainv et ig). change (sintheta2inv ec ig) with (sintheta2inv et ig).
  assert (TW: (!2 * !(/ 2) = !1)%C) by (rewrite <- RtoC_mult; f_equal; field).
  set (a := ann et n1 n2). clearbody a.
  assert (TA: forall z : C, (!2 * (!(/ 2 * a) * z) = !a * z)%C).
  { intros z. rewrite RtoC_mult. transitivity (!2 * !(/ 2) * (!a * z))%C; [ring|]. rewrite TW. ring. }
  assert (TB: forall z : C, (!2 * (Ci * !(/ 2 * a) * z) = Ci * !a * z)%C).
  { intros z. rewrite RtoC_mult. transitivity (!2 * !(/ 2) * (Ci * !a * z))%C; [ring|]. rewrite TW. ring. }
  assert (PULL: forall u v, !(u * (R_V * R_V * v)) = (!(R_V * R_V) * !(u * v))%C) by (intros; rewrite <- RtoC_mult; f_equal; ring).
  generalize (h et ig n1) (dh et ig n1). intros hh dd. clear h dh E1 E2.
  destruct p, q; rewrite ?TA, ?TB, ?RtoC_mult; ring.
Qed.
End Scaled.

(** both matrices of the class are i R_V^2 times those of the tasks *)
Definition class_matrices (e : env) (m nmax ngauss : nat) : cmat * cmat :=
  if (m =? 0)%nat then c0_matrices e nmax ngauss else cm_matrices e m nmax ngauss.
Lemma class_matrices_at : forall b m nmax ngauss x w axis_ratio R_V wavelength mr,
  symmetric_rule ngauss x w -> 0 < axis_ratio -> 0 < R_V -> 0 < wavelength -> mr <> RtoC 0 -> (m <= nmax)%nat -> (1 <= nmax)%nat ->
  let ec := class_env b m nmax ngauss x w axis_ratio R_V wavelength mr in
  let et := make_env b true m nmax ngauss x w axis_ratio R_V wavelength mr zeros (fun _ _ => (0, 0)) in
  forall i j, (i < 2 * orders m nmax)%nat -> (j < 2 * orders m nmax)%nat ->
  fst (class_matrices ec m nmax ngauss) i j = (Ci * !(R_V * R_V) * fst (task_matrices et m nmax ngauss) i j)%C /\
  snd (class_matrices ec m nmax ngauss) i j = (Ci * !(R_V * R_V) * snd (task_matrices et m nmax ngauss) i j)%C.
Proof.
  intros b m nmax ngauss x w axis_ratio R_V wavelength mr Hs Ha HR Hl Hr Hm Hn ec et i j Hi Hj.
  destruct (task_matrices_at et m nmax ngauss Hm Hn i j Hi Hj) as (-> & ->).
  destruct (cell_index m nmax i Hm Hn Hi) as (Ei & Bi). destruct (cell_index m nmax j Hm Hn Hj) as (Ej & Bj).
  set (p := kb (kind_of m nmax i)) in *. set (q := kb (kind_of m nmax j)) in *. set (n := order_of m nmax i) in *. set (n' := order_of m nmax j) in *.
  rewrite Ei, Ej.
  assert (AT: fst (class_matrices ec m nmax ngauss) (cell (lowest m) (orders m nmax) p n) (cell (lowest m) (orders m nmax) q n') = (!2 * Ci * total ec m (hQ ec) (dhQ ec) p q n n' ngauss)%C /\
              snd (class_matrices ec m nmax ngauss) (cell (lowest m) (orders m nmax) p n) (cell (lowest m) (orders m nmax) q n') = (!2 * Ci * total ec m (hRg ec) (dhRg ec) p q n n' ngauss)%C).
  { clearbody p q n n'. unfold class_matrices, orders, lowest in *. destruct (Nat.eqb_spec m 0) as [-> | N].
    - replace (nmax + 1 - Nat.max 1 0)%nat with nmax in * by lia. change (Nat.max 1 0) with 1%nat in *. apply c0_matrices_at; lia.
    - replace (Nat.max 1 m) with m in * by lia. apply cm_matrices_at; lia. }
  destruct AT as (-> & ->). clearbody p q n n'.
  assert (SC: forall rg : bool, (!2 * Ci * total ec m (if rg then hRg ec else hQ ec) (if rg then dhRg ec else dhQ ec) p q n n' ngauss)%C =
    (Ci * !(R_V * R_V) * csum (fun ig => if kept p q n n' then contribution et m ((if rg then hRg et else hQ et) ig n) ((if rg then dhRg et else dhQ et) ig n) p q ig n n' else RtoC 0) ngauss)%C).
  { intros rg. unfold total. destruct (kept p q n n').
    - transitivity (Ci * (!2 * csum (fun ig => contribution ec m ((if rg then hRg ec else hQ ec) ig n) ((if rg then dhRg ec else dhQ ec) ig n) p q ig n n') ngauss))%C; [ring|].
      rewrite <- Cmult_assoc. f_equal. rewrite <- !csum_scal. apply csum_eq. intros ig Hig. unfold lowest in *.
      apply (contribution_scaled b m nmax ngauss x w axis_ratio R_V wavelength mr Hs Ha HR Hl Hr Hm rg); lia.
    - rewrite !csum_0 by auto. ring. }
  split; [apply (SC false) | apply (SC true)].
Qed.

(* ---------------------------------------------- the product *)
Ltac bdec := repeat (match goal with
  | |- context [Nat.eqb ?a ?b] => destruct (Nat.eqb_spec a b); try subst; try lia
  | |- context [Nat.ltb ?a ?b] => destruct (Nat.ltb_spec a b); try lia
  | |- context [Nat.leb ?a ?b] => destruct (Nat.leb_spec a b); try lia end; cbn [andb orb]).
Lemma accumulate_spec : forall nm Q RgQ T r c, accumulate nm Q RgQ T r c =
  if ((r <? 2 * nm) && (c <? 2 * nm))%nat then (T r c - cdot (2 * nm) (fun k => RgQ r k * Q k c))%C else T r c.
Proof.
  intros nm Q RgQ T r c. rewrite cdot_sum. unfold accumulate.
  set (V := fun r c => (T r c - sum C (RtoC 0) Cplus (2 * nm) (fun k => RgQ r k * Q k c))%C).
  pose (row := fun i r => ((r <? i) || ((nm <=? r) && (r <? nm + i)))%nat%bool). pose (col := fun (j c : nat) => ((c <? j) || ((nm <=? c) && (c <? nm + j)))%nat%bool).
  pose (I := fun i (X : cmat) => forall r c, X r c = if (row i r && (c <? 2 * nm)%nat)%bool then V r c else T r c).
  match goal with |- for_ ?a ?b ?d ?e _ _ = _ => assert (G: I nm (for_ a b d e)) end.
  { apply (for_ind I); unfold I.
    - lia.
    - intros r' c'. unfold row. bdec; auto.
    - intros i X Hi IX. clear I.
      pose (J := fun j (Y : cmat) => forall r c, Y r c = if (((r =? i) || (r =? nm + i))%nat && col j c)%bool then V r c else X r c).
      match goal with |- forall r c, for_ ?a ?b ?d ?e _ _ = _ => assert (GJ: J nm (for_ a b d e)) end.
      { apply (for_ind J); unfold J.
        - lia.
        - intros r' c'. unfold col. bdec; auto.
        - intros j Y Hj IY. clear J. cbv zeta.
          pose (KK := fun k (Z : cmat) => forall r c, Z r c = if (((r =? i) || (r =? nm + i)) && ((c =? j) || (c =? nm + j)))%nat%bool then (T r c - sum C (RtoC 0) Cplus k (fun k => RgQ r k * Q k c))%C else Y r c).
          match goal with |- forall r c, for_ ?a ?b ?d ?e _ _ = _ => assert (GK: KK (2 * nm)%nat (for_ a b d e)) end.
          { apply (for_ind KK); unfold KK.
            - lia.
            - intros r' c'. cbn [sum]. rewrite IY, IX. unfold col, row. bdec; auto; ring.
            - intros k Z Hk IZ r' c'. replace (k + 1)%nat with (S k) by lia. cbn [sum]. unfold upd. rewrite !IZ. bdec; auto; ring. }
          intros r' c'. rewrite GK, IY. unfold col, V. bdec; auto. }
      intros r' c'. rewrite GJ, IX. unfold col, row. bdec; auto. }
  rewrite G. unfold row, V. bdec; auto.
Qed.
