(** Two loops which raise an order until two successive results agree: gauss_legendre_quadrature
    (/repo/src/SpecialFunctions.hpp l.771-810), in exact real arithmetic, and
    TMatrixCalculator::calculate_TMatrix (/repo/src/TMatrixCalculator.hpp l.64-213), with
    floating point comparisons. *)
From Coq Require Import List Arith Lia Bool ZArith Reals Lra Floats.SpecFloat.
From Verif Require Import Quadrature.
Local Open Scope R_scope.

(* ------------------------------------------------------------ gauss_legendre_quadrature *)

(** l.793-794: absolute_difference / fabs(new + old), where a zero denominator gives infinity or not-a-number *)
Inductive quotient := Number (r : R) | Infinity | NaN.
Definition divide (x y : R) : quotient :=
  if Req_EM_T y 0 then (if Req_EM_T x 0 then NaN else Infinity) else Number (x / y).
(** x > t, false for not-a-number *)
Definition exceeds (x : quotient) (t : R) : bool :=
  match x with Number r => if Rlt_dec t r then true else false | Infinity => true | NaN => false end.
(** l.788-791: the sum over the points *)
Fixpoint weighted_sum (k i : nat) (A : arrays) (f : R -> R) (acc : R) : R :=
  match k with 0%nat => acc | S k' => weighted_sum k' (S i) A f (acc + snd A i * f (fst A i)) end.
(** l.782-797: [todo] is maximum_order - order, so that the test order < maximum_order is todo <> 0;
    [rule n] are the points and weights of l.785-787, None if that call does not return. Result: order and
    old_quadrature after the loop. *)
Fixpoint quadrature_loop (todo : nat) (rule : nat -> option arrays) (f : R -> R) (da dr : R) (order : nat) (old : R) (absolute relative : quotient) : option (nat * R) :=
  match todo with
  | 0%nat => Some (order, old)
  | S todo' =>
      if exceeds absolute da && exceeds relative dr then
        match rule order with
        | None => None
        | Some A =>
            let new := weighted_sum order 0 A f 0 in
            let absolute := Rabs (new - old) in
            quadrature_loop todo' rule f da dr (S order) new (Number absolute) (divide absolute (Rabs (new + old)))
        end
      else Some (order, old)
  end.
(** l.771-810: the value returned, and whether the warning is printed (l.799-807) *)
Definition gauss_legendre_quadrature (rule : nat -> option arrays) (f : R -> R) (starting_order maximum_order : nat) (da dr : R) : option (R * bool) :=
  match quadrature_loop (maximum_order - starting_order) rule f da dr starting_order 0 (Number (da + 1)) (Number (dr + 1)) with
  | None => None
  | Some (order, old) => Some (old, Nat.eqb order maximum_order)
  end.
(** l.785-787: the rules of the code, in freshly allocated (zero) vectors *)
Definition code_rule (fuel : nat) (a b : R) (order : nat) : option arrays := gauss_legendre_ab fuel order a b (fun _ => 0, fun _ => 0).

(* ------------------------------------------------------------ TMatrixCalculator::calculate_TMatrix *)
Local Open Scope nat_scope.
Section Calculator.
Variables prec emax : Z.
(** the m=0 scattering and extinction factors (l.113-120, l.161-168) of the T-matrix object with the given order and number of
    quadrature points: the same particle and wavelength throughout, hence functions of these two numbers *)
Variables qsca qext : nat -> nat -> spec_float.
Variable tolerance : spec_float.
(** l.122-123, l.170-171: abs((old - new) / new) *)
Definition change (old new : spec_float) : spec_float := SFabs (SFdiv prec emax (SFsub prec emax old new) new).
(** x > tolerance; false if an operand is NaN *)
Definition above (x : spec_float) : bool := SFltb tolerance x.
(** a loop as it stands in l.101-135 and again in l.152-180: [size] is the counter (nmax or ngauss), [todo] is limit - size,
    [make size] are the order and number of points of the object created; [active] is active_Tmatrix. The counter, the old factors
    and the active object after the loop. *)
Record walk := mkWalk { w_size : nat; w_qsca : spec_float; w_qext : spec_float; active : option (nat * nat) }.
Fixpoint climb (todo : nat) (make : nat -> nat * nat) (dext dsca : spec_float) (w : walk) : walk :=
  match todo with
  | 0 => w
  | S todo' =>
      if above dext || above dsca then
        let T := make (w_size w) in
        let s := qsca (fst T) (snd T) in let e := qext (fst T) (snd T) in
        climb todo' make (change (w_qext w) e) (change (w_qsca w) s) (mkWalk (S (w_size w)) s e (Some T))
      else w
  end.
(** How the call ends: with a T-matrix of the given order and number of points, with the error "Unable to converge!", or by
    dereferencing a null pointer (l.191) *)
Inductive outcome := TMatrixOf (nmax ngauss : nat) | Unable | NullPointer.
(** l.64-213; [guess] is the first order (l.82-84); dext and dsca start with 1 in l.99-100 and with tolerance + 1 in l.150-151 *)
Definition calculate_TMatrix (guess maximum_order ndgs maximum_ngauss : nat) : outcome :=
  let one := SFone prec emax in let zero := S754_zero false in
  let w := climb (maximum_order - guess) (fun nmax => (nmax, ndgs * nmax)) one one (mkWalk guess zero zero None) in
  if w_size w =? maximum_order then Unable                             (* l.138-139 *)
  else
    let nmax := w_size w - 1 in                                        (* l.142 *)
    let ngauss := nmax * ndgs + 1 in                                   (* l.149 *)
    let far := SFadd prec emax tolerance one in                        (* l.150-151 *)
    let w' := climb (maximum_ngauss - ngauss) (fun ngauss => (nmax, ngauss)) far far (mkWalk ngauss (w_qsca w) (w_qext w) (active w)) in
    if w_size w' =? maximum_ngauss then Unable                         (* l.183-184 *)
    else match active w' with None => NullPointer | Some (n, g) => TMatrixOf n g end.
End Calculator.
