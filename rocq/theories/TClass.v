(** Model of the class TMatrix (/repo/src/TMatrix.hpp): constructor l.532-750, compute_additional_elements l.763-992,
    element access l.1028-1080.

    Simplifications: as in QMatrix.v (exact numbers, arrays as functions of the index, the Bessel routines as the parameter
    [radial], the Gauss-Legendre points and weights of l.565-566 as parameters [x] and [w]). The asserts of l.1033-1039 are
    side conditions of the theorems. *)
From Coq Require Import List Arith Lia Bool Reals Lra.
From Coquelicot Require Import Complex.
From Verif Require Import Matrix Props_matrix Quadrature Wigner QMatrix.
Import ListNotations.
Open Scope R_scope.

(* ---------------------------------------------- members filled before the matrices are assembled *)

(** l.555-564: element _ann(ni, nj) (written for nj <= ni and mirrored) *)
Definition class_ann (ni nj : nat) : R :=
  let d i := sqrt ((2 * (INR i + 1) + 1) / ((INR i + 2) * (INR i + 1))) in
  if (nj <=? ni)%nat then 0.5 * d ni * d nj else 0.5 * d nj * d ni.

(** l.608-622 (m = 0) and l.787-801: wigner_d and dwigner_d as one table of pairs; [row] is the result of wigner_dn_0m (dv1 and dv2) *)
Definition class_wigner_row (nmax i1 i2 : nat) (row : list (R * R)) (T : nat -> nat -> R * R) : nat -> nat -> R * R :=
  snd (for_ 0 nmax (fun n s =>
    let si := - fst s in
    let dv1 := fst (nth n row (0, 0)) in let dv2 := snd (nth n row (0, 0)) in
    let T := upd (R * R) (snd s) (i1 - 1) n (dv1, dv2) in
    (si, upd (R * R) T (i2 - 1) n (si * dv1, - si * dv2))) (1, T)).
Definition class_wigner (ngauss nmax m : nat) (x : nat -> R) : nat -> nat -> R * R :=
  for_ 1 (ngauss + 1) (fun ig T =>
    let i1 := (ngauss + ig)%nat in
    let i2 := (ngauss - ig + 1)%nat in
    class_wigner_row nmax i1 i2 (wigner_dn_0m (x (i1 - 1)%nat) nmax m) T) (fun _ _ => (0, 0)).

(** l.543-594: everything the assembly of the matrices for azimuthal order [m] reads; the arrays are zero before they are filled *)
Definition class_env (b : radial) (m nmax ngauss : nat) (x w : nat -> R) (axis_ratio R_V wavelength : R) (refractive_index : C) : env :=
  let zeros := (fun _ : nat => 0, fun _ : nat => 0) in
  let k := 2 * PI / wavelength in
  let k2 := k * k in
  let g := gauss_inverses ngauss x zeros in
  let p := get_r_dr_spheroid x (2 * ngauss) axis_ratio zeros in
  let mrinv := (!1 / refractive_index)%C in
  let r2 := fun i => fst p i * (R_V * R_V) in
  let kr := fun i => k * sqrt (r2 i) in
  let krmr := fun i => (refractive_index * !(kr i))%C in
  let krinv := fun i => 1 / kr i in
  {| weight := w; sinthetainv := fst g; sintheta2inv := snd g; r2 := r2; dr_over_r := snd p;
     jkr := fun ig n => jay b n (kr ig); ykr := fun ig n => why b n (kr ig); djkr := fun ig n => djay b n (kr ig); dykr := fun ig n => dwhy b n (kr ig);
     jkrmr := fun ig n => jayc b n (krmr ig); djkrmr := fun ig n => djayc b n (krmr ig);
     krinv := krinv; krmrinv := fun i => (mrinv * !(krinv i))%C;
     ann := fun n1 n2 => class_ann (n1 - 1) (n2 - 1);
     k2mr := (refractive_index * !k2)%C; k2 := k2;
     wigner := class_wigner ngauss nmax m x |}.

(* ---------------------------------------------- m = 0 *)

(** J12, J21, RgJ12, RgJ21 (numbers in the sums, matrices afterwards) *)
Record four (X : Type) := mk4 { f12 : X; f21 : X; g12 : X; g21 : X }.
Arguments mk4 {X}. Arguments f12 {X}. Arguments f21 {X}. Arguments g12 {X}. Arguments g21 {X}.
Definition zero4 : four C := mk4 (RtoC 0) (RtoC 0) (RtoC 0) (RtoC 0).
(** l.636-700: one step of the sum over the quadrature points *)
Definition c0_term (e : env) (n1 n2 ig : nat) (s : four C) : four C :=
  let n1n1p1 := INR n1 * (INR n1 + 1) in
  let n2n2p1 := INR n2 * (INR n2 + 1) in
  let wigner_n1 := fst (wigner e (ig - 1)%nat (n1 - 1)%nat) in
  let dwigner_n1 := snd (wigner e (ig - 1)%nat (n1 - 1)%nat) in
  let wigner_n2 := fst (wigner e (ig - 1)%nat (n2 - 1)%nat) in
  let dwigner_n2 := snd (wigner e (ig - 1)%nat (n2 - 1)%nat) in
  let wn1dwn2 := wigner_n1 * dwigner_n2 in
  let dwn1wn2 := dwigner_n1 * wigner_n2 in
  let dwn1dwn2 := dwigner_n1 * dwigner_n2 in
  let jkrn1 := jkr e (ig - 1)%nat n1 in
  let ykrn1 := ykr e (ig - 1)%nat n1 in
  let hkrn1 : C := (jkrn1, ykrn1) in
  let djkrn1 := djkr e (ig - 1)%nat n1 in
  let dykrn1 := dykr e (ig - 1)%nat n1 in
  let dhkrn1 : C := (djkrn1, dykrn1) in
  let jkrmrn2 := jkrmr e (ig - 1)%nat n2 in
  let djkrmrn2 := djkrmr e (ig - 1)%nat n2 in
  let c1 := (jkrmrn2 * !jkrn1)%C in let b1 := (jkrmrn2 * hkrn1)%C in
  let c2 := (jkrmrn2 * !djkrn1)%C in let b2 := (jkrmrn2 * dhkrn1)%C in
  let krinvi := krinv e (ig - 1)%nat in
  let c3 := (!krinvi * c1)%C in let b3 := (!krinvi * b1)%C in
  let c4 := (!jkrn1 * djkrmrn2)%C in let b4 := (hkrn1 * djkrmrn2)%C in
  let krmrinvi := krmrinv e (ig - 1)%nat in
  let c5 := (c1 * krmrinvi)%C in let b5 := (b1 * krmrinvi)%C in
  let wr2i := weight e (ig - 1)%nat * r2 e (ig - 1)%nat in
  let dr_over_ri := dr_over_r e (ig - 1)%nat in
  let f1 := wr2i * dwn1dwn2 in
  let f2 := wr2i * dr_over_ri * n1n1p1 * wn1dwn2 in
  let f3 := wr2i * dr_over_ri * n2n2p1 * dwn1wn2 in
  mk4 (f12 s + (!f1 * b2 + !f2 * b3))%C (f21 s + (!f1 * b4 + !f3 * b5))%C
      (g12 s + (!f1 * c2 + !f2 * c3))%C (g21 s + (!f1 * c4 + !f3 * c5))%C.
(** l.601-604 and l.626-709 *)
Definition c0_J (e : env) (nmax ngauss : nat) : four cmat :=
  for_ 1 (nmax + 1) (fun n1 J => for_ 1 (nmax + 1) (fun n2 J =>
    if Nat.even (n1 + n2) then
      let s := for_ 1 (ngauss + 1) (c0_term e n1 n2) zero4 in
      let an12 := 2 * ann e n1 n2 in
      mk4 (upd C (f12 J) (n1 - 1) (n2 - 1) (!an12 * f12 s)%C) (upd C (f21 J) (n1 - 1) (n2 - 1) (!an12 * f21 s)%C)
          (upd C (g12 J) (n1 - 1) (n2 - 1) (!an12 * g12 s)%C) (upd C (g21 J) (n1 - 1) (n2 - 1) (!an12 * g21 s)%C)
    else J) J) (mk4 zero_mat zero_mat zero_mat zero_mat).
(** l.605-606 and l.710-735 *)
Definition c0_matrices (e : env) (nmax ngauss : nat) : cmat * cmat :=
  let J := c0_J e nmax ngauss in
  for_ 1 (nmax + 1) (fun n1 s => for_ 1 (nmax + 1) (fun n2 s =>
    let k1 := n1 in let kk1 := (k1 + nmax)%nat in
    let k2' := n2 in let kk2 := (k2' + nmax)%nat in
    let icompl := Ci in
    let this_J12 := (- icompl * f12 J (n1 - 1)%nat (n2 - 1)%nat)%C in
    let this_RgJ12 := (- icompl * g12 J (n1 - 1)%nat (n2 - 1)%nat)%C in
    let this_J21 := (icompl * f21 J (n1 - 1)%nat (n2 - 1)%nat)%C in
    let this_RgJ21 := (icompl * g21 J (n1 - 1)%nat (n2 - 1)%nat)%C in
    let Q := upd C (fst s) (k1 - 1) (k2' - 1) (k2mr e * this_J21 + !(k2 e) * this_J12)%C in
    let RgQ := upd C (snd s) (k1 - 1) (k2' - 1) (k2mr e * this_RgJ21 + !(k2 e) * this_RgJ12)%C in
    let Q := upd C Q (kk1 - 1) (kk2 - 1) (k2mr e * this_J12 + !(k2 e) * this_J21)%C in
    let RgQ := upd C RgQ (kk1 - 1) (kk2 - 1) (k2mr e * this_RgJ12 + !(k2 e) * this_RgJ21)%C in
    (Q, RgQ)) s) (zero_mat, zero_mat).

(* ---------------------------------------------- m > 0 *)

Record eight (X : Type) := mk8 { j11 : X; j12 : X; j21 : X; j22 : X; r11 : X; r12 : X; r21 : X; r22 : X }.
Arguments mk8 {X}. Arguments j11 {X}. Arguments j12 {X}. Arguments j21 {X}. Arguments j22 {X}.
Arguments r11 {X}. Arguments r12 {X}. Arguments r21 {X}. Arguments r22 {X}.
Definition zero8 : eight C := mk8 (RtoC 0) (RtoC 0) (RtoC 0) (RtoC 0) (RtoC 0) (RtoC 0) (RtoC 0) (RtoC 0).
(** l.767, l.802-807 (wr2, ds, dss) and l.818-927: one step of the sum over the quadrature points *)
Definition cm_term (e : env) (m n1 n2 ig : nat) (s : eight C) : eight C :=
  let m2 := INR m * INR m in
  let wr2 := fun ig => weight e ig * r2 e ig in
  let ds := fun ig => sinthetainv e ig * INR m * wr2 ig in
  let dss := fun ig => sintheta2inv e ig * m2 in
  let n1n1p1 := INR n1 * (INR n1 + 1) in
  let n2n2p1 := INR n2 * (INR n2 + 1) in
  let wigner_n1 := fst (wigner e ig (n1 - 1)%nat) in
  let dwigner_n1 := snd (wigner e ig (n1 - 1)%nat) in
  let wigner_n2 := fst (wigner e ig (n2 - 1)%nat) in
  let dwigner_n2 := snd (wigner e ig (n2 - 1)%nat) in
  let wn1wn2 := wigner_n1 * wigner_n2 in
  let wn1dwn2 := wigner_n1 * dwigner_n2 in
  let dwn1wn2 := dwigner_n1 * wigner_n2 in
  let jkrn1 := jkr e ig n1 in
  let ykrn1 := ykr e ig n1 in
  let hkrn1 : C := (jkrn1, ykrn1) in
  let djkrn1 := djkr e ig n1 in
  let dykrn1 := dykr e ig n1 in
  let dhkrn1 : C := (djkrn1, dykrn1) in
  let jkrmrn2 := jkrmr e ig n2 in
  let djkrmrn2 := djkrmr e ig n2 in
  let c1 := (jkrmrn2 * !jkrn1)%C in let b1 := (jkrmrn2 * hkrn1)%C in
  let c2 := (jkrmrn2 * !djkrn1)%C in let b2 := (jkrmrn2 * dhkrn1)%C in
  let krinvi := krinv e ig in
  let c4 := (djkrmrn2 * !jkrn1)%C in let b4 := (djkrmrn2 * hkrn1)%C in
  let krmrinvi := krmrinv e ig in
  let dr_over_ri := dr_over_r e ig in
  if negb (Nat.even (n1 + n2)) then                                   (* si < 0 *)
    let dsi := ds ig in
    let c6 := (djkrmrn2 * !djkrn1)%C in let b6 := (djkrmrn2 * dhkrn1)%C in
    let c7 := (c4 * !krinvi)%C in let b7 := (b4 * !krinvi)%C in
    let c8 := (c2 * krmrinvi)%C in let b8 := (b2 * krmrinvi)%C in
    let e1 := dsi * (wn1dwn2 + dwn1wn2) in
    let factor := dsi * dr_over_ri * wn1wn2 in
    let e2 := factor * n1n1p1 in
    let e3 := factor * n2n2p1 in
    mk8 (j11 s + !e1 * b1)%C (j12 s) (j21 s) (j22 s + (!e1 * b6 + !e2 * b7 + !e3 * b8))%C
        (r11 s + !e1 * c1)%C (r12 s) (r21 s) (r22 s + (!e1 * c6 + !e2 * c7 + !e3 * c8))%C
  else
    let wr2i := wr2 ig in
    let c3 := (!krinvi * c1)%C in let b3 := (!krinvi * b1)%C in
    let c5 := (c1 * krmrinvi)%C in let b5 := (b1 * krmrinvi)%C in
    let f1 := wr2i * (wn1wn2 * dss ig + dwigner_n1 * dwigner_n2) in
    let f2 := wr2i * dr_over_ri * n1n1p1 * wn1dwn2 in
    let f3 := wr2i * dr_over_ri * n2n2p1 * dwn1wn2 in
    mk8 (j11 s) (j12 s + (!f1 * b2 + !f2 * b3))%C (j21 s + (!f1 * b4 + !f3 * b5))%C (j22 s)
        (r11 s) (r12 s + (!f1 * c2 + !f2 * c3))%C (r21 s + (!f1 * c4 + !f3 * c5))%C (r22 s).
(** l.774-781 and l.808-939 *)
Definition cm_J (e : env) (m nmax ngauss : nat) : eight cmat :=
  for_ m (nmax + 1) (fun n1 J => for_ m (nmax + 1) (fun n2 J =>
    let s := for_ 0 ngauss (cm_term e m n1 n2) zero8 in
    let an12 := 2 * ann e n1 n2 in
    let put A v := upd C A (n1 - 1) (n2 - 1) (v * !an12)%C in
    mk8 (put (j11 J) (j11 s)) (put (j12 J) (j12 s)) (put (j21 J) (j21 s)) (put (j22 J) (j22 s))
        (put (r11 J) (r11 s)) (put (r12 J) (r12 s)) (put (r21 J) (r21 s)) (put (r22 J) (r22 s))) J)
    (mk8 zero_mat zero_mat zero_mat zero_mat zero_mat zero_mat zero_mat zero_mat).
(** l.782-783 and l.940-977 *)
Definition cm_matrices (e : env) (m nmax ngauss : nat) : cmat * cmat :=
  let nm := (nmax + 1 - m)%nat in
  let J := cm_J e m nmax ngauss in
  for_ m (nmax + 1) (fun n1 s => for_ m (nmax + 1) (fun n2 s =>
    let k1 := (n1 + 1 - m)%nat in let kk1 := (k1 + nm)%nat in
    let k2' := (n2 + 1 - m)%nat in let kk2 := (k2' + nm)%nat in
    let icompl := Ci in
    let this_J11 := (- j11 J (n1 - 1)%nat (n2 - 1)%nat)%C in
    let this_RgJ11 := (- r11 J (n1 - 1)%nat (n2 - 1)%nat)%C in
    let this_J12 := (- icompl * j12 J (n1 - 1)%nat (n2 - 1)%nat)%C in
    let this_RgJ12 := (- icompl * r12 J (n1 - 1)%nat (n2 - 1)%nat)%C in
    let this_J21 := (icompl * j21 J (n1 - 1)%nat (n2 - 1)%nat)%C in
    let this_RgJ21 := (icompl * r21 J (n1 - 1)%nat (n2 - 1)%nat)%C in
    let this_J22 := (- j22 J (n1 - 1)%nat (n2 - 1)%nat)%C in
    let this_RgJ22 := (- r22 J (n1 - 1)%nat (n2 - 1)%nat)%C in
    let Q := upd C (fst s) (k1 - 1) (k2' - 1) (k2mr e * this_J21 + !(k2 e) * this_J12)%C in
    let RgQ := upd C (snd s) (k1 - 1) (k2' - 1) (k2mr e * this_RgJ21 + !(k2 e) * this_RgJ12)%C in
    let Q := upd C Q (k1 - 1) (kk2 - 1) (k2mr e * this_J11 + !(k2 e) * this_J22)%C in
    let RgQ := upd C RgQ (k1 - 1) (kk2 - 1) (k2mr e * this_RgJ11 + !(k2 e) * this_RgJ22)%C in
    let Q := upd C Q (kk1 - 1) (k2' - 1) (k2mr e * this_J22 + !(k2 e) * this_J11)%C in
    let RgQ := upd C RgQ (kk1 - 1) (k2' - 1) (k2mr e * this_RgJ22 + !(k2 e) * this_RgJ11)%C in
    let Q := upd C Q (kk1 - 1) (kk2 - 1) (k2mr e * this_J12 + !(k2 e) * this_J21)%C in
    let RgQ := upd C RgQ (kk1 - 1) (kk2 - 1) (k2mr e * this_RgJ12 + !(k2 e) * this_RgJ21)%C in
    (Q, RgQ)) s) (zero_mat, zero_mat).

(* ---------------------------------------------- T *)

(** l.740-749 and l.981-990: _T[m] -= RgQ * Q, without resetting it first *)
Definition accumulate (nm : nat) (Q RgQ T : cmat) : cmat :=
  for_ 0 nm (fun i T => for_ 0 nm (fun j T => for_ 0 (2 * nm) (fun k T =>
    let T := upd C T i j (T i j - RgQ i k * Q k j)%C in
    let T := upd C T (nm + i) j (T (nm + i)%nat j - RgQ (nm + i)%nat k * Q k j)%C in
    let T := upd C T i (nm + j) (T i (nm + j)%nat - RgQ i k * Q k (nm + j)%nat)%C in
    upd C T (nm + i) (nm + j) (T (nm + i)%nat (nm + j)%nat - RgQ (nm + i)%nat k * Q k (nm + j)%nat)%C) T) T) T.
(** l.737-738 and l.979 (plu_inverse with scratch arrays of its own, Matrix.hpp l.392-398): None when a zero pivot is met *)
Definition add_block (nm : nat) (M : cmat * cmat) (T : cmat) : option cmat :=
  match c_plu_inverse (2 * nm) (fun _ => 0%nat) (fun _ => RtoC 0) (fst M) with
  | Some Qinv => Some (accumulate nm Qinv (snd M) T)
  | None => None
  end.

(** a particle: what the constructor is called with, and the rule of l.565-566 *)
Record particle := { p_radial : radial; p_nmax : nat; p_ngauss : nat; p_x : nat -> R; p_w : nat -> R;
                     p_axis_ratio : R; p_size : R; p_wavelength : R; p_mr : C }.
Definition env_of (p : particle) (m : nat) : env :=
  class_env (p_radial p) m (p_nmax p) (p_ngauss p) (p_x p) (p_w p) (p_axis_ratio p) (p_size p) (p_wavelength p) (p_mr p).
(** the member _T: one matrix per m *)
Definition tmats : Type := nat -> cmat.
(** l.549-553 and l.598-750 *)
Definition construct (p : particle) : option tmats :=
  let T : tmats := fun _ => zero_mat in
  match add_block (p_nmax p) (c0_matrices (env_of p 0) (p_nmax p) (p_ngauss p)) (T 0%nat) with
  | Some T0 => Some (vupd T 0 T0)
  | None => None
  end.
(** l.763-992; None when a zero pivot is met for some m *)
Definition compute_additional_elements (p : particle) (T : tmats) : option tmats :=
  for_ 1 (p_nmax p + 1) (fun m s =>
    match s with
    | None => None
    | Some T =>
        match add_block (p_nmax p + 1 - m) (cm_matrices (env_of p m) m (p_nmax p) (p_ngauss p)) (T m) with
        | Some Tm => Some (vupd T m Tm)
        | None => None
        end
    end) (Some T).
(** l.1028-1046 and l.1062-1080: the element that T(i1, n1, m1, i2, n2, m2) denotes *)
Definition element_at (nmax i1 n1 m1 i2 n2 m2 : nat) : nat * nat * nat :=
  if (0 <? m1)%nat then let nm := (nmax + 1 - m1)%nat in (m1, i1 * nm + n1 - m1, i2 * nm + n2 - m2)%nat
  else (m1, i1 * nmax + n1 - m1 - 1, i2 * nmax + n2 - m2 - 1)%nat.
Definition element (nmax : nat) (T : tmats) (i1 n1 m1 i2 n2 m2 : nat) : C :=
  let a := element_at nmax i1 n1 m1 i2 n2 m2 in T (fst (fst a)) (snd (fst a)) (snd a).
Definition set_element (nmax : nat) (T : tmats) (i1 n1 m1 i2 n2 m2 : nat) (value : C) : tmats :=
  let a := element_at nmax i1 n1 m1 i2 n2 m2 in vupd T (fst (fst a)) (upd C (T (fst (fst a))) (snd (fst a)) (snd a) value).
