(** Model of the ownership of Python objects by the wrapper objects of the module: PyDustProperties (/repo/src/PyDustProperties.hpp l.64-93),
    CustomDustProperties (l.257-277, l.289-311), PyCustomDustProperties::init (l.377-401), PyOrientationDistribution (/repo/src/PyOrientationDistribution.hpp
    l.70-99), CustomOrientationDistribution (l.480-502, l.525-545), PyCustomOrientationDistribution::init (l.607-637), the use of the wrapped object by
    get_table (/repo/src/CTMModule.cpp l.146-478; the interpreter lock is released in l.309-311) and the copy of the wrapped object in
    PySizeBasedAlignmentDistribution::init (/repo/src/PyAlignmentDistribution.hpp l.172-180, /repo/src/SizeBasedAlignmentDistribution.hpp l.102-108).

    Python objects and C++ objects are numbered in the order in which they are made; numbers are not used again. [user] counts the references which the
    Python program itself holds (variables, containers, argument tuples). Simplifications: no cyclic garbage collection; the construction of a custom orientation
    distribution, during which the function is called, is one step (the caller holds the arguments); new references that Python returns are given back at once. *)
From Coq Require Import List Arith Lia Bool.
Import ListNotations.

(** a CustomDustProperties or CustomOrientationDistribution: _python_function and _additional_arguments *)
Record block := mkB { fn : nat; extra : option nat }.
Record state := mkSt {
  made : nat; wrapper : nat -> bool; count : nat -> nat; freed : nat -> bool;
  pointer : nat -> option nat;                                  (* _dust_properties, _orientation_distribution *)
  nblocks : nat; blocks : nat -> option block;                  (* None: deleted *)
  user : nat -> nat; runs : list (nat * nat); calls : list (option nat) }.
Inductive outcome := Runs (s : state) | Impossible | NullPointer | TypeConfusion | UseAfterFree | Stuck.
Definition upd {A} (f : nat -> A) (i : nat) (a : A) : nat -> A := fun j => if j =? i then a else f j.
Definition add1 (f : nat -> nat) (i : nat) := upd f i (S (f i)).
Definition sub1 (f : nat -> nat) (i : nat) := upd f i (f i - 1).
Definition olist (x : option nat) : list nat := match x with Some o => [o] | None => [] end.
Definition increfs (l : list nat) (c : nat -> nat) : nat -> nat := fold_left add1 l c.
Fixpoint drop_nth {A} (i : nat) (l : list A) : list A := match l, i with [], _ => [] | _ :: l, 0 => l | a :: l, S i => a :: drop_nth i l end.

Definition set_count c s := mkSt (made s) (wrapper s) c (freed s) (pointer s) (nblocks s) (blocks s) (user s) (runs s) (calls s).
Definition set_user u s := mkSt (made s) (wrapper s) (count s) (freed s) (pointer s) (nblocks s) (blocks s) u (runs s) (calls s).
Definition set_runs r s := mkSt (made s) (wrapper s) (count s) (freed s) (pointer s) (nblocks s) (blocks s) (user s) r (calls s).
Definition set_calls r s := mkSt (made s) (wrapper s) (count s) (freed s) (pointer s) (nblocks s) (blocks s) (user s) (runs s) r.
Definition set_freed o s := mkSt (made s) (wrapper s) (count s) (upd (freed s) o true) (pointer s) (nblocks s) (blocks s) (user s) (runs s) (calls s).
Definition set_deleted b s := mkSt (made s) (wrapper s) (count s) (freed s) (pointer s) (nblocks s) (upd (blocks s) b None) (user s) (runs s) (calls s).

(** Py_DECREF of the objects of the list. At zero the object is deallocated; a wrapper deletes what it wraps (PyDustProperties.hpp l.64-70), which gives up
    its references (l.271-277) *)
Fixpoint release (fuel : nat) (l : list nat) (s : state) : outcome :=
  match l with
  | [] => Runs s
  | o :: l =>
      match fuel with
      | 0 => Stuck
      | S fuel =>
          if freed s o || (count s o =? 0) then UseAfterFree else
          let s := set_count (sub1 (count s) o) s in
          if count s o =? 0 then
            let s := set_freed o s in
            if wrapper s o then
              match pointer s o with
              | None => release fuel l s                                          (* delete nullptr *)
              | Some b => match blocks s b with
                          | None => UseAfterFree                                  (* deleted twice *)
                          | Some k => release fuel (fn k :: olist (extra k) ++ l) (set_deleted b s)
                          end
              end
            else release fuel l s
          else release fuel l s
      end
  end.
Definition decref (l : list nat) (s : state) : outcome := release (3 * nblocks s + length l) l s.

Inductive op :=
| MakePlain | MakeWrapper                       (* a new object of Python's own; tp_new of a wrapper type *)
| Init (w f : nat) (x : option nat)             (* tp_init of a custom type *)
| InitFails (w : nat)                           (* tp_init with arguments that are refused *)
| Dup (o : nat) | Drop (o : nat)                (* the program takes or gives up a reference *)
| Start (o : nat)                               (* get_table (or get_refractive_index, evaluate) is called with the object *)
| BeginCall (i : nat) | EndCall (j : nat)       (* the function is called in the i-th running calculation; the j-th running call returns *)
| Finish (i : nat)                              (* the i-th running calculation returns *)
| Copy (o : nat).                               (* an alignment object is made from an orientation object *)

Definition held (s : state) (o : nat) : bool := 0 <? user s o.
Definition new_object (w : bool) (s : state) : state :=
  mkSt (S (made s)) (upd (wrapper s) (made s) w) (upd (count s) (made s) 1) (freed s) (upd (pointer s) (made s) None) (nblocks s) (blocks s) (upd (user s) (made s) 1) (runs s) (calls s).
(** the wrapped C++ object *)
Definition target (o : nat) (s : state) (k : nat -> outcome) : outcome :=
  if held s o then
    if wrapper s o then match pointer s o with None => NullPointer | Some b => match blocks s b with None => UseAfterFree | Some _ => k b end end
    else TypeConfusion                                                             (* format O: the type of the argument is not checked *)
  else Impossible.
Definition step (a : op) (s : state) : outcome :=
  match a with
  | MakePlain => Runs (new_object false s)
  | MakeWrapper => Runs (new_object true s)
  | Init w f x =>
      if held s w && wrapper s w && held s f && forallb (held s) (olist x) then
        (* PyDustProperties.hpp l.257-266, l.397-398: an older wrapped object is not deleted *)
        Runs (mkSt (made s) (wrapper s) (increfs (f :: olist x) (count s)) (freed s) (upd (pointer s) w (Some (nblocks s)))
                (S (nblocks s)) (upd (blocks s) (nblocks s) (Some (mkB f x))) (user s) (runs s) (calls s))
      else Impossible
  | InitFails w => if held s w && wrapper s w then Runs s else Impossible
  | Dup o => if held s o then Runs (set_user (add1 (user s) o) (set_count (add1 (count s) o) s)) else Impossible
  | Drop o => if held s o then decref [o] (set_user (sub1 (user s) o) s) else Impossible
  | Start o => target o s (fun b => Runs (set_runs ((o, b) :: runs s) (set_count (add1 (count s) o) s)))
  | BeginCall i =>
      match nth_error (runs s) i with
      | None => Impossible
      | Some (_, b) =>
          match blocks s b with
          | None => UseAfterFree
          | Some k => if freed s (fn k) || existsb (freed s) (olist (extra k)) then UseAfterFree
                      else Runs (set_calls (extra k :: calls s) (set_count (increfs (olist (extra k)) (count s)) s))    (* Py_BuildValue, l.301-307 *)
          end
      end
  | EndCall j =>
      match nth_error (calls s) j with
      | None => Impossible
      | Some x => decref (olist x) (set_calls (drop_nth j (calls s)) s)                                                  (* l.311 *)
      end
  | Finish i =>
      match nth_error (runs s) i with
      | None => Impossible
      | Some (o, _) => decref [o] (set_runs (drop_nth i (runs s)) s)
      end
  | Copy o => target o s (fun _ => Runs s)
  end.
Fixpoint run (h : list op) (s : state) : outcome :=
  match h with [] => Runs s | a :: h => match step a s with Runs s => run h s | e => e end end.
Definition start : state := mkSt 0 (fun _ => false) (fun _ => 0) (fun _ => false) (fun _ => None) 0 (fun _ => None) (fun _ => 0) [] [].
