(** Model of TaskManager::generate_tasks, creation phase
    (/repo/src/TaskManager.hpp l.762-1346): the sequence of scheduler calls and
    pointer-table stores it performs.

    Every C++ object that is created gets a name.  Per-parameter objects are named
    after the position (0, 1, 2, ...) of their (composition, size, wavelength)
    point, or of their (point, shape) block, in the order of the nested loops.
    The numerical contents of the objects are not modelled here. *)
From Coq Require Import List Arith Lia Bool ZArith.
From Verif Require Import Base.
Import ListNotations.

(** The three optional results: extinction, absorption, scattering. *)
Inductive kind := Ext | Abs | Sca.

(** What generate_tasks depends on: numbers of compositions, sizes, wavelengths,
    shapes (l.475-479), order limits, number of T-matrix slots (l.749, see
    MemLimit.v) and the three flags. *)
Record cfg := mkCfg {
  n_comp : nat; n_size : nat; n_wav : nat; n_shape : nat;
  o_min : nat; o_max : nat; n_slot : nat;
  flag : kind -> bool }.

Inductive task :=
| TN                          (* NBasedResources *)
| TG (ig : nat)               (* GaussBasedResources *)
| TGrid (k : kind)            (* *Grid *)
| TSW (k : kind)              (* *SpecialWignerDResources *)
| TWD (ig : nat)              (* WignerDResources *)
| TPG (is ig : nat)           (* ParticleGeometryResource *)
| TAv (k : kind) (p : nat)    (* *ShapeAveragingTask *)
| TI (b ig : nat)             (* InteractionTask *)
| TM0 (b ig : nat)            (* TMatrixM0Task *)
| TAL (b : nat)               (* AlignmentAverageTask *)
| TC (k : kind) (b : nat)     (* *CoefficientTask, ScatteringMatrixTask *)
| TR1 (b : nat) | TR2 (b : nat)   (* ResetTMatrixResourceTask: single, ensemble *)
| TR3 (b : nat)               (* ResetInteractionResourceTask *)
| TMA (b m : nat).            (* TMatrixMAllTask for m *)

Inductive res :=
| RT (t : task)               (* a task that is also a resource *)
| RInter (r : nat)            (* InteractionResource in slot r *)
| RTm (j : nat)               (* TMatrixResource j *)
| RTmM (j m : nat)            (* its m-resource *)
| RIV (p : nat)               (* InteractionVariables *)
| RRes (k : kind) (p : nat)   (* shape averaged result *)
| RUn (k : kind) (b : nat)    (* result for a single shape *)
| RConv (b : nat).            (* ConvergedSizeResources *)

(** Effects of the function, in program order. *)
Inductive ev :=
| ERes (r : res) (parent : option res)       (* quicksched.register_resource *)
| ETask (t : task)                           (* quicksched.register_task *)
| ELink (t : task) (r : res) (write : bool)  (* quicksched.link_task_and_resource *)
| EDep (a b : task)                          (* quicksched.link_tasks(a, b) *)
| EPutTask (t : task)                        (* tasks[running_task_index++] = t *)
| EPutRes (r : res)                          (* resources[running_resource_index++] = r *)
| EPutResult (r : res)                       (* results[running_result_index++] = r *)
| ENull.                                     (* dereference of a null pointer *)

Definition kinds : list kind := [Ext; Abs; Sca].

(** l.498-499, unsigned 64-bit subtraction *)
Definition n_quad (c : cfg) : nat :=
  Z.to_nat ((Z.of_nat (o_max c) - Z.of_nat (o_min c)) mod 2 ^ 64)%Z.

(** register_resource + register_task + link_resources of an object that is task
    and resource at once; [reads] are its read links. *)
Definition computable (t : task) (reads : list res) : list ev :=
  [ERes (RT t) None; ETask t; ELink t (RT t) true] ++ map (fun r => ELink t r false) reads.

(** link_tasks with a possibly null first argument *)
Definition dep_ptr (a : option task) (b : task) : list ev :=
  match a with Some a => [EDep a b] | None => [ENull] end.
(** if (a != nullptr) link_tasks( *a, b) *)
Definition dep_if (a : option task) (b : task) : list ev :=
  match a with Some a => [EDep a b] | None => [] end.

Section Gen.
Variable c : cfg.

Definition for_kinds (f : kind -> list ev) : list ev := flat_map (fun k => if flag c k then f k else []) kinds.

(** l.784-925 *)
Definition gen_shared : list ev :=
  (EPutTask TN :: computable TN []) ++                                                  (* 784-789 *)
  flat_map (fun i => computable (TG i) [] ++ [EPutTask (TG i)]) (seq 0 (n_quad c)) ++   (* 795-805 *)
  for_kinds (fun k => computable (TGrid k) [] ++ [EPutTask (TGrid k)]) ++               (* 808-839 *)
  for_kinds (fun k => computable (TSW k) [RT (TGrid k)] ++
                      [EDep (TGrid k) (TSW k); EPutTask (TSW k)]) ++                    (* 842-877 *)
  flat_map (fun i => computable (TWD i) [RT (TG i)] ++
                     [EDep (TG i) (TWD i); EPutTask (TWD i)]) (seq 0 (n_quad c)) ++     (* 883-898 *)
  flat_map (fun is => flat_map (fun ig =>
     computable (TPG is ig) [RT (TG ig)] ++ [EDep (TG ig) (TPG is ig); EPutTask (TPG is ig)])
     (seq 0 (n_quad c))) (seq 0 (n_shape c)).                                           (* 905-925 *)

(** l.935-956 *)
Definition gen_slots : list ev :=
  flat_map (fun i => [ERes (RInter i) None; EPutRes (RInter i)]) (seq 0 (n_slot c)) ++
  flat_map (fun j => EPutRes (RTm j) :: ERes (RTm j) None ::
     map (fun m => ERes (RTmM j m) (Some (RTm j))) (seq 0 (o_max c + 1))) (seq 0 (2 * n_slot c)).

(** l.1005-1069, for one point *)
Definition gen_point (p : nat) : list ev :=
  [ERes (RIV p) None; EPutRes (RIV p)] ++
  for_kinds (fun k => [ERes (RRes k p) None; EPutResult (RRes k p); ETask (TAv k p);
                       ELink (TAv k p) (RRes k p) true; EPutTask (TAv k p)]).

(** l.1146-1197: the loop over the orders; [un] is unlock_tasks[resource_reuse_index],
    [prev] is previous_m0task.  The links are those of InteractionTask
    (InteractionResource.hpp 449-457) and TMatrixM0Task (TMatrixResource.hpp 545-558). *)
Fixpoint gen_orders (r : nat) (un : option task) (p b is : nat) (igs : list nat) (prev : option task)
  : list ev * option task :=
  match igs with
  | [] => ([], prev)
  | ig :: igs' =>
      let evs :=
        [ETask (TI b ig);
         ELink (TI b ig) (RInter r) true; ELink (TI b ig) (RT (TPG is ig)) false;
         ELink (TI b ig) (RConv b) false; ELink (TI b ig) (RIV p) false;
         EDep (TPG is ig) (TI b ig)] ++
        dep_if un (TI b ig) ++
        [EPutTask (TI b ig);
         ETask (TM0 b ig);
         ELink (TM0 b ig) (RTmM (2 * r) 0) true; ELink (TM0 b ig) (RConv b) true;
         ELink (TM0 b ig) (RT TN) false; ELink (TM0 b ig) (RT (TG ig)) false;
         ELink (TM0 b ig) (RT (TPG is ig)) false; ELink (TM0 b ig) (RIV p) false;
         ELink (TM0 b ig) (RInter r) false; ELink (TM0 b ig) (RT (TWD ig)) false;
         EDep TN (TM0 b ig); EDep (TWD ig) (TM0 b ig); EDep (TI b ig) (TM0 b ig)] ++
        match prev with
        | Some m0 => [EDep m0 (TI b ig)]
        | None => dep_if un (TM0 b ig)
        end ++
        [EPutTask (TM0 b ig)] in
      let (rest, last) := gen_orders r un p b is igs' (Some (TM0 b ig)) in
      (evs ++ rest, last)
  end.

(** l.1077-1327 for one block *)
Definition gen_block (r : nat) (un : option task) (p b is : nat) : list ev :=
  for_kinds (fun k => [ERes (RUn k b) None; EPutRes (RUn k b)]) ++                 (* 1080-1111 *)
  [ERes (RConv b) None; EPutRes (RConv b)] ++                                      (* 1122-1126 *)
  let (os, last) := gen_orders r un p b is (seq 0 (n_quad c)) None in
  os ++
  [ETask (TAL b); ELink (TAL b) (RTm (2 * r)) true; ELink (TAL b) (RTm (2 * r + 1)) false;
   EPutTask (TAL b)] ++                                                            (* 1201-1207 *)
  for_kinds (fun k =>                                                              (* 1212-1273 *)
    [ETask (TC k b); ELink (TC k b) (RUn k b) true;
     ELink (TC k b) (RIV p) false; ELink (TC k b) (RTm (2 * r + 1)) false; ELink (TC k b) (RT TN) false;
     ELink (TC k b) (RT (TGrid k)) false; ELink (TC k b) (RT (TSW k)) false;
     EDep (TAL b) (TC k b); EDep (TSW k) (TC k b); EPutTask (TC k b);
     ELink (TAv k p) (RUn k b) false; EDep (TC k b) (TAv k p)]) ++
  [ETask (TR1 b); ELink (TR1 b) (RTm (2 * r)) true; EPutTask (TR1 b); EDep (TAL b) (TR1 b);   (* 1276-1282 *)
   ETask (TR2 b); ELink (TR2 b) (RTm (2 * r + 1)) true; EPutTask (TR2 b); EDep (TR1 b) (TR2 b)] ++
  for_kinds (fun k => [EDep (TC k b) (TR2 b)]) ++                                  (* 1293-1301 *)
  [ETask (TR3 b); ELink (TR3 b) (RInter r) true; EPutTask (TR3 b); EDep (TR2 b) (TR3 b)] ++   (* 1303-1311 *)
  flat_map (fun i =>                                                               (* 1314-1327 *)
    let t := TMA b (i + 1) in
    [ETask t; ELink t (RTmM (2 * r) (i + 1)) true; ELink t (RT TN) false; ELink t (RConv b) false;
     ELink t (RIV p) false; ELink t (RInter r) false] ++
    dep_ptr last t ++ [EDep t (TAL b); EPutTask t]) (seq 0 (o_max c)).

(** unlock_tasks and resource_reuse_index (l.969-970) *)
Record gst := mkGst { g_unlock : list (option task); g_reuse : nat }.

(** l.1074-1338: the loop over the shapes of one point, with the updates of l.1333-1337 *)
Fixpoint gen_shapes (p : nat) (shapes : list nat) (s : gst) : list ev * gst :=
  match shapes with
  | [] => ([], s)
  | is :: shapes' =>
      let b := p * n_shape c + is in
      let evs := gen_block (g_reuse s) (nth (g_reuse s) (g_unlock s) None) p b is in
      let s1 := mkGst (upd (g_reuse s) (Some (TR3 b)) (g_unlock s)) ((g_reuse s + 1) mod n_slot c) in
      let (rest, s2) := gen_shapes p shapes' s1 in
      (evs ++ rest, s2)
  end.

(** l.976-1341: the loops over compositions, sizes and wavelengths *)
Definition points : list (nat * nat * nat) :=
  flat_map (fun ic => flat_map (fun iz => map (fun il => (ic, iz, il)) (seq 0 (n_wav c))) (seq 0 (n_size c)))
           (seq 0 (n_comp c)).
Definition point_index (x : nat * nat * nat) : nat :=
  let '(ic, iz, il) := x in (ic * n_size c + iz) * n_wav c + il.

Fixpoint gen_points (ps : list (nat * nat * nat)) (s : gst) : list ev * gst :=
  match ps with
  | [] => ([], s)
  | x :: ps' =>
      let p := point_index x in
      let (e1, s1) := gen_shapes p (seq 0 (n_shape c)) s in
      let (e2, s2) := gen_points ps' s1 in
      (gen_point p ++ e1 ++ e2, s2)
  end.

Definition generate : list ev :=
  gen_shared ++ gen_slots ++ fst (gen_points points (mkGst (repeat None (n_slot c)) 0)).

(** Numbers of points and blocks. *)
Definition n_point : nat := n_comp c * n_size c * n_wav c.
Definition n_block : nat := n_point * n_shape c.

End Gen.
