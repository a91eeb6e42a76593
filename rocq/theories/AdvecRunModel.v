(* AdvecRunModel.v - the advection drivers from the right-hand side to the end of the run: src/advec1d/main.cpp with the loop of
   RKModel and the right-hand side of Line1DModel put together, and the script advec1d.py. Indices into numpy arrays that are too
   large raise; whole-array expressions whose shapes do not fit are UB here (numpy would raise or stretch). np.dot is taken to add
   from left to right, as blitz does. *)
From Coq Require Import ZArith List Bool Arith.
From Verif Require Import Base Loops Num BlitzModel Nodes1DModel RKModel Line1DModel CurvedSwModel.
Import ListNotations.
Local Open Scope nat_scope.

Section AdvecRun.
Context {T : Type} (A : arith T).
Variable junk : nat -> nat -> T.
Variable junkv : nat -> T.

(* RKModel takes a field as the list of its entries: here row after row, the order of blitz's storage. *)
Definition of_field (m : mat T) : list T := flat_map (fun i => map (ment m i) (seq 0 (mcols m))) (seq 0 (mrows m)).
Definition as_field (Np K : nat) (l : list T) : mat T := mkmat Np K (fun i k => nth (i * K + k) l (fofn A 0)).
Definition on_lists (Np K : nat) (rhs : mat T -> outcome (mat T)) (l : list T) : outcome (list T) :=
  bind (rhs (as_field Np K l)) (fun m => Ok (of_field m)).

(* The run of src/advec1d/main.cpp:53-54, 76-111 on the tables of the nodes object, from the initial field u0, with RHS and
   resRK zero to begin with. dt = CFL*min_dx/abs(c), min_dx = x(1,0) - x(0,0). *)
Definition advec_dt (CFL c : T) (x : mat T) : T := fdiv A (fmul A CFL (fsub A (ment x 1 0) (ment x 0 0))) (fabs A c).
Definition advec_run (fuel : nat) (n : nodes1d) (rx Fscale : mat T) (Np K : nat) (unstable : list T -> bool) (CFL c finalTime : T) (u0 : mat T) : outcome (sim T) :=
  sim_loop A fuel (fun _ => on_lists Np K (advec_rhs A junk junkv n rx Fscale Np K c)) unstable (advec_dt CFL c (n_x n)) finalTime
    (Sim (fofn A 0) 0 (of_field u0) (repeat (fofn A 0) (Np * K)) []).

(* --- advec1d.py --- *)
(* a[i] and a[i] = v for a one-dimensional array and an int: negative indices count from the end *)
Definition np_index (len : nat) (i : Z) : outcome nat :=
  if (0 <=? i)%Z then (if (i <? Z.of_nat len)%Z then Ok (Z.to_nat i) else Throw)
  else if (0 <=? i + Z.of_nat len)%Z then Ok (Z.to_nat (i + Z.of_nat len)) else Throw.
Definition np_item (a : list T) (i : Z) : outcome T := bind (np_index (length a) i) (getn a).
Definition np_put (a : list T) (i : Z) (v : T) : outcome (list T) := bind (np_index (length a) i) (fun k => setn a k v).
(* np.dot of two matrices *)
Definition np_dot (a b : mat T) : outcome (mat T) :=
  if mcols a =? mrows b then Ok (mkmat (mrows a) (mcols b) (fun i j => fsum A (mcols a) (fun k => fmul A (ment a i k) (ment b k j)))) else Throw.
(* a*b and a+b of two matrices of one shape *)
Definition np_zip (f : T -> T -> T) (a b : mat T) : outcome (mat T) :=
  require ((mrows a =? mrows b) && (mcols a =? mcols b)) (Ok (Line1DModel.mzip f a b)).
Definition np_zipv (f : T -> T -> T) (a b : list T) : outcome (list T) := require (length a =? length b) (Ok (zipw f a b)).

(* advec1dComputeRHS: advec1d.py:12-39. c, alpha and the literals are numbers, so (1-alpha) is computed once. *)
Definition py_advec_rhs (n : nodes1d) (rx Fscale : mat T) (c : T) (u : mat T) : outcome (mat T) :=
  let zero := fofn A 0 in
  let alpha := fofn A 0 in
  let uC := flattenF u in
  let nxC := flattenF (n_nx n) in
  bind (take A uC (n_vmapM n)) (fun uM =>
  bind (take A uC (n_vmapP n)) (fun uP =>
  bind (np_item uM (n_mapO n)) (fun uO =>
  bind (np_put uP (n_mapO n) uO) (fun uP =>
  bind (np_put uP (n_mapI n) zero) (fun uP =>
  bind (np_zipv (fun m p => fmul A (fsub A m p) (fhalf A)) uM uP) (fun d =>
  bind (np_zipv (fmul A) d
         (map (fun nx => fsub A (fmul A c nx) (fmul A (fsub A (fofn A 1) alpha) (fabs A (fmul A c nx)))) nxC)) (fun du =>
  bind (np_dot (n_Dr n) u) (fun ux =>
  bind (np_zip (fmul A) (Line1DModel.mmap (fmul A (fopp A c)) rx) ux) (fun RHS =>
  bind (reshapeF A (mrows (n_nx n)) (mcols (n_nx n)) du) (fun duMat =>
  bind (np_zip (fmul A) Fscale duMat) (fun surface =>
  bind (np_dot (n_Lift n) surface) (fun lifted =>
  np_zip (fadd A) RHS lifted)))))))))))).

(* The loop: advec1d.py:76-94. The plots are left out. raise("...") of a string is a TypeError: it ends the run all the same. *)
Fixpoint py_loop (fuel : nat) (rhs : list T -> outcome (list T)) (unstable : list T -> bool) (dt finalTime t : T) (u res : list T) : outcome (T * list T) :=
  match fuel with
  | O => UB
  | S fuel =>
      if flt A t finalTime then
        bind (rk_step A rhs dt (u, res)) (fun '(u', res') =>
        if unstable u' then Throw else py_loop fuel rhs unstable dt finalTime (fadd A t dt) u' res')
      else Ok (t, u)
  end.
Definition py_run (fuel : nat) (n : nodes1d) (rx Fscale : mat T) (Np K : nat) (unstable : list T -> bool) (CFL c finalTime : T) (u0 : mat T) : outcome (T * list T) :=
  py_loop fuel (on_lists Np K (py_advec_rhs n rx Fscale c)) unstable (advec_dt CFL c (n_x n)) finalTime
    (fofn A 0) (of_field u0) (repeat (fofn A 0) (Np * K)).
End AdvecRun.
