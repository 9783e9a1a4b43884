(** Model of the average of a T-matrix over an orientation distribution:
    AlignmentAverageTask::execute (src/AlignmentAverageTask.hpp:115-215, work array of
    src/TMatrixResource.hpp:312-326) and TMatrixCalculator::apply_orientation_distribution
    (src/TMatrixCalculator.hpp:230-306).  Arithmetic in exact reals; a T-matrix is the function
    from (i1, i2, m, n1, n2) to its element, the two quarters i being booleans (false = 0). *)
From Coq Require Import List ZArith Reals Lra Lia Arith Bool.
From Coquelicot Require Import Complex.
From Verif Require Import Base Racah Clebsch.
Import ListNotations.
Open Scope R_scope.

Notation tmat := (bool -> bool -> Z -> Z -> Z -> C).
(** Tn1n2[0][0], [0][1], [1][0], [1][1] *)
Notation quad := (C * C * C * C)%type.

Definition quarter (t : quad) (i j : bool) : C :=
  let '(t00, t01, t10, t11) := t in if i then (if j then t11 else t10) else (if j then t01 else t00).

(** (-1)^k as the code computes it *)
Definition sgn (k : Z) : R := if (k mod 2 =? 0)%Z then 1 else -1.

(** AlignmentAverageTask.hpp:162-185, TMatrixCalculator.hpp:274-297 *)
Definition m1_body (T : tmat) (m n1 n2 N : Z) (pN : R) (cg : list R) (m1 : Z) (t : quad) : option quad :=
  let M := Z.min n1 n2 in let '(t00, t01, t10, t11) := t in
  let factor := if (m1 =? 0)%Z then 1 else 2 in
  obind (rd cg (M + m)) (fun c1 =>
  obind (rd cg (M + m1)) (fun c2 =>
  let f := RtoC (sgn m1 * sgn m * factor * pN * c1 * c2) in
  Some (if ((N + (n1 + n2)) mod 2 =? 0)%Z
        then ((t00 + f * T false false m1 n1 n2)%C, t01, t10, (t11 + f * T true true m1 n1 n2)%C)
        else (t00, (t01 + f * T false true m1 n1 n2)%C, (t10 + f * T true false m1 n1 n2)%C, t11)))).

(** AlignmentAverageTask.hpp:150-186: the coefficients are computed in the work array [cg] *)
Definition N_body (coef : list R) (T : tmat) (m n1 n2 : Z) (N : Z) (st : list R * quad) : option (list R * quad) :=
  obind (get_clebsch_gordan_coefficients n1 n2 N (fst st)) (fun r =>
  obind (rd coef N) (fun pN =>
  obind (zup (Z.to_nat (Z.min n1 n2 + 1)) 0 (m1_body T m n1 n2 N pN (fst r)) (snd st)) (fun t => Some (fst r, t)))).

(** TMatrixCalculator.hpp:262-298: a new work array for every N *)
Definition N_body_fresh (coef : list R) (T : tmat) (m n1 n2 : Z) (N : Z) (t : quad) : option quad :=
  obind (get_clebsch_gordan_coefficients n1 n2 N (repeat 0 (Z.to_nat ((N + 1) * (2 * n1 + 1))))) (fun r =>
  obind (rd coef N) (fun pN =>
  zup (Z.to_nat (Z.min n1 n2 + 1)) 0 (m1_body T m n1 n2 N pN (fst r)) t)).

Definition n12min (n1 n2 : Z) : Z := if (n2 <? n1)%Z then (n1 - n2)%Z else (n2 - n1)%Z.
Definition quad0 : quad := (RtoC 0, RtoC 0, RtoC 0, RtoC 0).

(** AlignmentAverageTask.hpp:143-186 *)
Definition element (coef : list R) (T : tmat) (m n1 n2 : Z) (cg : list R) : option (list R * quad) :=
  zup (Z.to_nat (n1 + n2 + 1 - n12min n1 n2)) (n12min n1 n2) (N_body coef T m n1 n2) (cg, quad0).

(** TMatrixCalculator.hpp:255-298 *)
Definition element_fresh (coef : list R) (T : tmat) (m n1 n2 : Z) : option quad :=
  zup (Z.to_nat (n1 + n2 + 1 - n12min n1 n2)) (n12min n1 n2) (N_body_fresh coef T m n1 n2) quad0.

(** set_element for the four quarters (AlignmentAverageTask.hpp:188-191) *)
Definition set_elements (T : tmat) (m n1 n2 : Z) (t : quad) : tmat :=
  fun i j m' a b => if (m' =? m)%Z && (a =? n1)%Z && (b =? n2)%Z then quarter t i j else T i j m' a b.

(** The loops over m, n1 and n2 (AlignmentAverageTask.hpp:134-141) *)
Definition mn_loops {S} (nmax : Z) (f : Z -> Z -> Z -> S -> option S) (s : S) : option S :=
  zup (Z.to_nat (nmax + 1)) 0 (fun m s =>
    let nmin := Z.max m 1 in
    zup (Z.to_nat (nmax + 1 - nmin)) nmin (fun n1 s =>
      zup (Z.to_nat (nmax + 1 - nmin)) nmin (fun n2 s => f m n1 n2 s) s) s) s.

(** AlignmentAverageTask.hpp:115-215; [cg] is the work array of the thread, [old] the output before *)
Definition execute (compute_alignment : bool) (coef : list R) (nmax : Z) (T : tmat) (cg : list R) (old : tmat) : option (list R * tmat) :=
  if compute_alignment
  then mn_loops nmax (fun m n1 n2 s =>
         obind (element coef T m n1 n2 (fst s)) (fun r => Some (fst r, set_elements (snd s) m n1 n2 (snd r)))) (cg, old)
  else mn_loops nmax (fun m n1 n2 s =>
         Some (fst s, set_elements (snd s) m n1 n2
           (T false false m n1 n2, T false true m n1 n2, T true false m n1 n2, T true true m n1 n2))) (cg, old).

(** TMatrixCalculator.hpp:230-306 *)
Definition apply_orientation_distribution (coef : list R) (nmax : Z) (T : tmat) : option tmat :=
  mn_loops nmax (fun m n1 n2 s => obind (element_fresh coef T m n1 n2) (fun t => Some (set_elements s m n1 n2 t))) T.

(** TMatrixResource.hpp:326: size of the work array of a thread *)
Definition work_size (maximum_order : Z) : Z := ((maximum_order + 1) * (2 * maximum_order + 1))%Z.

(* ------------------------------------------------------------------ specification *)

(** Mishchenko (1991), eq. 3.27: both sums complete; T(-m) = (-1)^(i+j) T(m). *)
Fixpoint csum (f : nat -> C) (n : nat) : C := match n with O => RtoC 0 | S k => (csum f k + f k)%C end.
(** sum of f(a), ..., f(b) *)
Definition zsum (a b : Z) (f : Z -> C) : C := csum (fun k => f (a + Z.of_nat k)%Z) (Z.to_nat (b - a + 1)).

Definition mirrored (T : tmat) (i j : bool) (m n1 n2 : Z) : C :=
  if (m <? 0)%Z then (RtoC (if xorb i j then -1 else 1) * T i j (- m)%Z n1 n2)%C else T i j m n1 n2.

Definition mishchenko (p : Z -> R) (T : tmat) (i j : bool) (m n1 n2 : Z) : C :=
  zsum (Z.abs (n1 - n2)) (n1 + n2) (fun N =>
    (RtoC (sgn m * p N * clebsch_gordan n1 m n2 (- m) N 0) *
     zsum (- Z.min n1 n2) (Z.min n1 n2) (fun m1 =>
       RtoC (sgn m1 * clebsch_gordan n1 m1 n2 (- m1) N 0) * mirrored T i j m1 n1 n2))%C).
