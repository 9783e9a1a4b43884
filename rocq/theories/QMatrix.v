(** Model of the resources a T-matrix task reads (src/GaussBasedResources.hpp l.132-152,
    src/ParticleGeometryResource.hpp l.135-149 with get_r_dr_spheroid of src/SpecialFunctions.hpp l.872-893,
    src/NBasedResources.hpp l.115-137, src/InteractionResource.hpp l.75-78 and l.478-527) and of the two tasks
    that fill the Q and RgQ matrices and compute the T-matrix (src/TMatrixResource.hpp l.601-725 and l.912-1118).

    Simplifications: exact real and complex numbers; arrays are functions of the index (sizes are those of
    Props_mem); the spherical Bessel routines are parameters here (Bessel.v models them): [jay n z] is what
    spherical_j_jdj_array leaves in j[n-1], and so on; the asserts for NaN and the check_use bookkeeping are not
    modelled. *)
From Coq Require Import List Arith Lia Bool Reals Lra.
From Coquelicot Require Import Complex.
From Verif Require Import Matrix Props_matrix Quadrature Wigner.
Import ListNotations.
Open Scope R_scope.

(* ---------------------------------------------- resources *)

(** GaussBasedResources::execute l.136-144; [costheta] are the quadrature points of l.134 *)
Definition gauss_inverses (ngauss : nat) (costheta : nat -> R) (s : (nat -> R) * (nat -> R)) : (nat -> R) * (nat -> R) :=
  for_ 0 ngauss (fun ig s =>
    let this_sintheta2inv := 1 / ((1 - costheta ig) * (1 + costheta ig)) in
    let sintheta2inv := vupd (vupd (snd s) ig this_sintheta2inv) (2 * ngauss - ig - 1)%nat this_sintheta2inv in
    let this_sinthetainv := sqrt this_sintheta2inv in
    let sinthetainv := vupd (vupd (fst s) ig this_sinthetainv) (2 * ngauss - ig - 1)%nat this_sinthetainv in
    (sinthetainv, sintheta2inv)) s.

(** the cube root of a positive number (cbrt of the C library) *)
Definition cbrt (x : R) : R := Rpower x (/ 3).

(** SpecialFunctions::get_r_dr_spheroid l.872-893 *)
Definition get_r_dr_spheroid (costheta : nat -> R) (size : nat) (axis_ratio : R) (s : (nat -> R) * (nat -> R)) : (nat -> R) * (nat -> R) :=
  let a := cbrt axis_ratio in
  let a2 := a * a in
  let axis_ratio2 := axis_ratio * axis_ratio in
  let axis_ratio2m1 := axis_ratio2 - 1 in
  for_ 0 (size / 2) (fun i s =>
    let costheta2 := costheta i * costheta i in
    let sintheta2 := (1 - costheta i) * (1 + costheta i) in
    let sintheta := sqrt sintheta2 in
    let r2_over_a2 := 1 / (sintheta2 + axis_ratio2 * costheta2) in
    let r2 := vupd (fst s) i (a2 * r2_over_a2) in
    let r2 := vupd r2 (size - i - 1)%nat (r2 i) in
    let dr_over_r := vupd (snd s) i (r2_over_a2 * costheta i * sintheta * axis_ratio2m1) in
    let dr_over_r := vupd dr_over_r (size - i - 1)%nat (- dr_over_r i) in
    (r2, dr_over_r)) s.

(** NBasedResources::execute l.115-137: element _ann(ni, nj) *)
Definition ann_element (ni nj : nat) : R :=
  sqrt ((2 * (INR ni + 1) + 1) / ((INR ni + 2) * (INR ni + 1))) * sqrt ((2 * (INR nj + 1) + 1) / ((INR nj + 2) * (INR nj + 1))).

(** what a T-matrix task reads; arrays with an order argument are addressed by the order n >= 1 *)
Record env := {
  weight : nat -> R; sinthetainv : nat -> R; sintheta2inv : nat -> R;       (* GaussBasedResources *)
  r2 : nat -> R; dr_over_r : nat -> R;                                      (* ParticleGeometryResource *)
  jkr : nat -> nat -> R; ykr : nat -> nat -> R; djkr : nat -> nat -> R; dykr : nat -> nat -> R;
  jkrmr : nat -> nat -> C; djkrmr : nat -> nat -> C; krinv : nat -> R; krmrinv : nat -> C;   (* InteractionResource *)
  ann : nat -> nat -> R;                                                    (* NBasedResources *)
  k2mr : C; k2 : R;                                                         (* InteractionVariables *)
  wigner : nat -> nat -> R * R }.                                           (* WignerDResources for one m: point, index n - 1 *)

(* ---------------------------------------------- the tasks *)

Notation cmat := (nat -> nat -> C).
(** += on an element of a matrix *)
Definition addto (A : cmat) (r c : nat) (v : C) : cmat := upd C A r c (A r c + v)%C.
Notation "! x" := (RtoC x) (at level 9, format "! x").

(** TMatrixM0Task::execute, the body of the loops, l.604-706.  [s] is the pair (aux._Q, aux._RgQ). *)
Definition m0_body (e : env) (nmax ig n1 n2 : nat) (s : cmat * cmat) : cmat * cmat :=
  let n1n1p1 := INR n1 * (INR n1 + 1) in
  let i1 := n1 in let ii1 := (i1 + nmax)%nat in
  let n2n2p1 := INR n2 * (INR n2 + 1) in
  let i2 := n2 in let ii2 := (i2 + nmax)%nat in
  if Nat.even (n1 + n2) then
    let wigner_n1 := fst (wigner e (ig - 1)%nat (n1 - 1)%nat) in
    let dwigner_n1 := snd (wigner e (ig - 1)%nat (n1 - 1)%nat) in
    let wigner_n2 := fst (wigner e (ig - 1)%nat (n2 - 1)%nat) in
    let dwigner_n2 := snd (wigner e (ig - 1)%nat (n2 - 1)%nat) in
    let wn1dwn2 := wigner_n1 * dwigner_n2 in
    let dwn1wn2 := dwigner_n1 * wigner_n2 in
    let dwn1dwn2 := dwigner_n1 * dwigner_n2 in
    let jkrn1 := jkr e (ig - 1)%nat n1 in
    let ykrn1 := ykr e (ig - 1)%nat n1 in
    let hkrn1 : C := (jkrn1, ykrn1) in
    let djkrn1 := djkr e (ig - 1)%nat n1 in
    let dykrn1 := dykr e (ig - 1)%nat n1 in
    let dhkrn1 : C := (djkrn1, dykrn1) in
    let jkrmrn2 := jkrmr e (ig - 1)%nat n2 in
    let djkrmrn2 := djkrmr e (ig - 1)%nat n2 in
    let c1 := (jkrmrn2 * !jkrn1)%C in let b1 := (jkrmrn2 * hkrn1)%C in
    let c2 := (jkrmrn2 * !djkrn1)%C in let b2 := (jkrmrn2 * dhkrn1)%C in
    let krinvi := krinv e (ig - 1)%nat in
    let c3 := (!krinvi * c1)%C in let b3 := (!krinvi * b1)%C in
    let c4 := (!jkrn1 * djkrmrn2)%C in let b4 := (hkrn1 * djkrmrn2)%C in
    let krmrinvi := krmrinv e (ig - 1)%nat in
    let c5 := (c1 * krmrinvi)%C in let b5 := (b1 * krmrinvi)%C in
    let wr2i := weight e (ig - 1)%nat * r2 e (ig - 1)%nat in
    let dr_over_ri := dr_over_r e (ig - 1)%nat in
    let an12 := ann e n1 n2 in
    let f1 := wr2i * dwn1dwn2 in
    let f2 := wr2i * dr_over_ri * n1n1p1 * wn1dwn2 in
    let this_J12 := (!(- an12) * (!f1 * b2 + !f2 * b3))%C in
    let this_RgJ12 := (!(- an12) * (!f1 * c2 + !f2 * c3))%C in
    let f3 := wr2i * dr_over_ri * n2n2p1 * dwn1wn2 in
    let this_J21 := (!an12 * (!f1 * b4 + !f3 * b5))%C in
    let this_RgJ21 := (!an12 * (!f1 * c4 + !f3 * c5))%C in
    let Q := addto (fst s) (i1 - 1) (i2 - 1) (k2mr e * this_J21 + !(k2 e) * this_J12)%C in
    let RgQ := addto (snd s) (i1 - 1) (i2 - 1) (k2mr e * this_RgJ21 + !(k2 e) * this_RgJ12)%C in
    let Q := addto Q (ii1 - 1) (ii2 - 1) (k2mr e * this_J12 + !(k2 e) * this_J21)%C in
    let RgQ := addto RgQ (ii1 - 1) (ii2 - 1) (k2mr e * this_RgJ12 + !(k2 e) * this_RgJ21)%C in
    (Q, RgQ)
  else s.
(** l.592 (reset) and l.601-710: the loops *)
Definition zero_mat : cmat := fun _ _ => RtoC 0.
Definition m0_assemble (e : env) (nmax ngauss : nat) : cmat * cmat :=
  for_ 1 (ngauss + 1) (fun ig s => for_ 1 (nmax + 1) (fun n1 s => for_ 1 (nmax + 1) (fun n2 s => m0_body e nmax ig n1 n2 s) s) s) (zero_mat, zero_mat).
(** l.712-732: inversion and product; None when a zero pivot is met *)
Definition m0_execute (e : env) (nmax ngauss : nat) (pivot : nat -> nat) (work : nat -> C) (T : cmat) : option cmat :=
  let s := m0_assemble e nmax ngauss in c_t_matrix nmax pivot work (fst s) (snd s) T.

(** TMatrixMAllTask::execute, the body of the loops, l.936-1095 *)
Definition mall_body (e : env) (m nmax ig n1 n2 : nat) (s : cmat * cmat) : cmat * cmat :=
  let m2 := INR m * INR m in
  let nm := (nmax + 1 - m)%nat in
  let n1n1p1 := INR n1 * (INR n1 + 1) in
  let i1 := (n1 + 1 - m)%nat in let ii1 := (i1 + nm)%nat in
  let n2n2p1 := INR n2 * (INR n2 + 1) in
  let i2 := (n2 + 1 - m)%nat in let ii2 := (i2 + nm)%nat in
  let wigner_n1 := fst (wigner e ig (n1 - 1)%nat) in
  let dwigner_n1 := snd (wigner e ig (n1 - 1)%nat) in
  let wigner_n2 := fst (wigner e ig (n2 - 1)%nat) in
  let dwigner_n2 := snd (wigner e ig (n2 - 1)%nat) in
  let wn1wn2 := wigner_n1 * wigner_n2 in
  let wn1dwn2 := wigner_n1 * dwigner_n2 in
  let dwn1wn2 := dwigner_n1 * wigner_n2 in
  let jkrn1 := jkr e ig n1 in
  let ykrn1 := ykr e ig n1 in
  let hkrn1 : C := (jkrn1, ykrn1) in
  let djkrn1 := djkr e ig n1 in
  let dykrn1 := dykr e ig n1 in
  let dhkrn1 : C := (djkrn1, dykrn1) in
  let jkrmrn2 := jkrmr e ig n2 in
  let djkrmrn2 := djkrmr e ig n2 in
  let c1 := (jkrmrn2 * !jkrn1)%C in let b1 := (jkrmrn2 * hkrn1)%C in
  let c2 := (jkrmrn2 * !djkrn1)%C in let b2 := (jkrmrn2 * dhkrn1)%C in
  let krinvi := krinv e ig in
  let c4 := (djkrmrn2 * !jkrn1)%C in let b4 := (djkrmrn2 * hkrn1)%C in
  let krmrinvi := krmrinv e ig in
  let dr_over_ri := dr_over_r e ig in
  let an12 := ann e n1 n2 in
  if negb (Nat.even (n1 + n2)) then                                   (* sign < 0 *)
    let dsi := sinthetainv e ig * INR m * weight e ig * r2 e ig in
    let c6 := (djkrmrn2 * !djkrn1)%C in let b6 := (djkrmrn2 * dhkrn1)%C in
    let c7 := (c4 * !krinvi)%C in let b7 := (b4 * !krinvi)%C in
    let c8 := (c2 * krmrinvi)%C in let b8 := (b2 * krmrinvi)%C in
    let e1 := dsi * (wn1dwn2 + dwn1wn2) in
    let this_J11 := (Ci * !an12 * (!e1 * b1))%C in
    let this_RgJ11 := (Ci * !an12 * (!e1 * c1))%C in
    let factor := dsi * dr_over_ri * wn1wn2 in
    let e2 := factor * n1n1p1 in
    let e3 := factor * n2n2p1 in
    let this_J22 := (Ci * !an12 * (!e1 * b6 + !e2 * b7 + !e3 * b8))%C in
    let this_RgJ22 := (Ci * !an12 * (!e1 * c6 + !e2 * c7 + !e3 * c8))%C in
    let Q := addto (fst s) (i1 - 1) (ii2 - 1) (k2mr e * this_J11 + !(k2 e) * this_J22)%C in
    let RgQ := addto (snd s) (i1 - 1) (ii2 - 1) (k2mr e * this_RgJ11 + !(k2 e) * this_RgJ22)%C in
    let Q := addto Q (ii1 - 1) (i2 - 1) (k2mr e * this_J22 + !(k2 e) * this_J11)%C in
    let RgQ := addto RgQ (ii1 - 1) (i2 - 1) (k2mr e * this_RgJ22 + !(k2 e) * this_RgJ11)%C in
    (Q, RgQ)
  else
    let wr2i := weight e ig * r2 e ig in
    let dssi := sintheta2inv e ig * m2 in
    let c3 := (!krinvi * c1)%C in let b3 := (!krinvi * b1)%C in
    let c5 := (c1 * krmrinvi)%C in let b5 := (b1 * krmrinvi)%C in
    let f1 := wr2i * (wn1wn2 * dssi + dwigner_n1 * dwigner_n2) in
    let f2 := wr2i * dr_over_ri * n1n1p1 * wn1dwn2 in
    let this_J12 := (!(- an12) * (!f1 * b2 + !f2 * b3))%C in
    let this_RgJ12 := (!(- an12) * (!f1 * c2 + !f2 * c3))%C in
    let f3 := wr2i * dr_over_ri * n2n2p1 * dwn1wn2 in
    let this_J21 := (!an12 * (!f1 * b4 + !f3 * b5))%C in
    let this_RgJ21 := (!an12 * (!f1 * c4 + !f3 * c5))%C in
    let Q := addto (fst s) (i1 - 1) (i2 - 1) (k2mr e * this_J21 + !(k2 e) * this_J12)%C in
    let RgQ := addto (snd s) (i1 - 1) (i2 - 1) (k2mr e * this_RgJ21 + !(k2 e) * this_RgJ12)%C in
    let Q := addto Q (ii1 - 1) (ii2 - 1) (k2mr e * this_J12 + !(k2 e) * this_J21)%C in
    let RgQ := addto RgQ (ii1 - 1) (ii2 - 1) (k2mr e * this_RgJ12 + !(k2 e) * this_RgJ21)%C in
    (Q, RgQ).
(** l.914 (reset) and l.934-1097 *)
Definition mall_assemble (e : env) (m nmax ngauss : nat) : cmat * cmat :=
  for_ 0 ngauss (fun ig s => for_ m (nmax + 1) (fun n1 s => for_ m (nmax + 1) (fun n2 s => mall_body e m nmax ig n1 n2 s) s) s) (zero_mat, zero_mat).
(** l.907-910 (orders above the converged one are skipped) and l.1099-1118 *)
Definition mall_execute (e : env) (m nmax ngauss : nat) (pivot : nat -> nat) (work : nat -> C) (T : cmat) : option cmat :=
  if (nmax <? m)%nat then Some T else
  let s := mall_assemble e m nmax ngauss in c_t_matrix (nmax + 1 - m) pivot work (fst s) (snd s) T.

(* ---------------------------------------------- the environment the resource tasks leave behind *)

(** [jay n z], [djay n z]: j[n-1], dj[n-1] after spherical_j_jdj_array for a real z; [why], [dwhy] the same for
    spherical_y_ydy_array; [jayc], [djayc] for a complex z (InteractionTask l.485-512; InteractionVariables l.75-78:
    [k] is the wavenumber, [kmr] = refractive_index * k). *)
Record radial := { jay : nat -> R -> R; djay : nat -> R -> R; why : nat -> R -> R; dwhy : nat -> R -> R;
                   jayc : nat -> C -> C; djayc : nat -> C -> C }.
(** InteractionTask l.486-492: the factors kr and krmr; ParticleGeometryResource l.141: r = sqrt r2 *)
Definition kr_of (R_V wavelength : R) (r2 : nat -> R) (ig : nat) : R := 2 * PI / wavelength * sqrt (r2 ig) * R_V.
Definition krmr_of (R_V wavelength : R) (refractive_index : C) (r2 : nat -> R) (ig : nat) : C :=
  (refractive_index * !(2 * PI / wavelength) * !(sqrt (r2 ig)) * !R_V)%C.
(** WignerDResources::get_wigner_functions l.232-247: either the stored table or computed on the fly *)
Definition wigner_of (stored : bool) (ngauss nmax m : nat) (x : nat -> R) (T : nat -> nat -> R * R) (ig n : nat) : R * R :=
  if stored then wigner_table ngauss nmax m x T ig n else nth n (wigner_dn_0m (x ig) nmax m) (0, 0).

(** everything together: the points and weights [x], [w] of the quadrature, the axis ratio, size, wavelength and
    refractive index of the particle; the initial contents of the arrays are [junk] *)
Definition make_env (b : radial) (stored : bool) (m nmax ngauss : nat) (x w : nat -> R) (axis_ratio R_V wavelength : R) (refractive_index : C)
    (junk : (nat -> R) * (nat -> R)) (table : nat -> nat -> R * R) : env :=
  let g := gauss_inverses ngauss x junk in
  let p := get_r_dr_spheroid x (2 * ngauss) axis_ratio junk in
  let kr := kr_of R_V wavelength (fst p) in
  let krmr := krmr_of R_V wavelength refractive_index (fst p) in
  {| weight := w; sinthetainv := fst g; sintheta2inv := snd g; r2 := fst p; dr_over_r := snd p;
     jkr := fun ig n => jay b n (kr ig); ykr := fun ig n => why b n (kr ig); djkr := fun ig n => djay b n (kr ig); dykr := fun ig n => dwhy b n (kr ig);
     jkrmr := fun ig n => jayc b n (krmr ig); djkrmr := fun ig n => djayc b n (krmr ig);
     krinv := fun ig => 1 / kr ig; krmrinv := fun ig => (!1 / krmr ig)%C;
     ann := fun n1 n2 => ann_element (n1 - 1) (n2 - 1);
     k2mr := (refractive_index * !(2 * PI / wavelength * (2 * PI / wavelength)))%C; k2 := 2 * PI / wavelength * (2 * PI / wavelength);
     wigner := wigner_of stored ngauss nmax m x table |}.
