(* Line1DModel.v - the right-hand sides of the one-dimensional drivers: src/advec1d/main.cpp and
   src/burgers1d/main.cpp computeRHS, and the operator of src/poisson1d/Poisson1d.hpp. The nodes object is the
   record of Nodes1DModel; J, rx and Fscale are what computeJacobian stored in it. Whole-array expressions of
   blitz do not check extents; here arrays that do not conform are UB. *)
From Coq Require Import ZArith List Bool.
From Verif Require Import Base Loops Num BlitzModel Nodes1DModel RKModel.
Import ListNotations.

Section Line1D.
Context {T : Type} (A : arith T).
Variable junk : nat -> nat -> T.                                   (* uninitialised matrix storage *)
Variable junkv : nat -> T.                                         (* uninitialised vector storage *)

Definition conform (m : mat T) (r c : nat) : bool := (mrows m =? r)%nat && (mcols m =? c)%nat.
Definition require {X} (b : bool) (k : outcome X) : outcome X := if b then k else UB.
Definition fresh (n : nat) : list T := map junkv (seq 0 n).
(* sum(a(ii,kk)*b(kk,jj), kk) multiplied by s(ii,jj) *)
Definition scaled_product (s : mat T) (a b : mat T) (n r c : nat) : mat T :=
  mkmat r c (fun i j => fmul A (ment s i j) (fsum A n (fun k => fmul A (ment a i k) (ment b k j)))).
(* lhs += sum(Lift(ii,kk)*s(kk,jj), kk) and lhs -= ... *)
Definition add_product (lhs a b : mat T) (n : nat) : mat T :=
  mkmat (mrows lhs) (mcols lhs) (fun i j => fadd A (ment lhs i j) (fsum A n (fun k => fmul A (ment a i k) (ment b k j)))).
Definition sub_product (lhs a b : mat T) (n : nat) : mat T :=
  mkmat (mrows lhs) (mcols lhs) (fun i j => fsub A (ment lhs i j) (fsum A n (fun k => fmul A (ment a i k) (ment b k j)))).
Definition mzip (f : T -> T -> T) (a b : mat T) : mat T := mkmat (mrows a) (mcols a) (fun i j => f (ment a i j) (ment b i j)).
Definition mmap (f : T -> T) (a : mat T) : mat T := mkmat (mrows a) (mcols a) (fun i j => f (ment a i j)).

Definition tables_conform (n : nodes1d) (rx Fscale : mat T) (Np K : nat) : bool :=
  conform (n_Dr n) Np Np && conform (n_Lift n) Np 2 && conform (n_nx n) 2 K && conform rx Np K && conform Fscale 2 K.

(* src/advec1d/main.cpp:125-188 computeRHS; alpha is the local constant 0. *)
Definition advec_rhs (n : nodes1d) (rx Fscale : mat T) (Np K : nat) (c : T) (u : mat T) : outcome (mat T) :=
  require (tables_conform n rx Fscale Np K && conform u Np K)
  (let zero := fofn A 0 in
   let alpha := fofn A 0 in
   bind (fullToVector (n_nx n) (repeat zero (2 * K)) false) (fun nxVec =>
   bind (fullToVector u (fresh (Np * K)) false) (fun uVec =>
   bind (applyIndexMap uVec (n_vmapM n) (repeat zero (2 * K))) (fun uM =>
   bind (applyIndexMap uVec (n_vmapP n) (repeat zero (2 * K))) (fun uP =>
   bind (get uM (n_mapO n)) (fun uO =>
   bind (set uP (n_mapO n) uO) (fun uP =>
   bind (set uP (n_mapI n) zero) (fun uP =>
   let du := zipw (fun d s => fmul A d s)
     (zipw (fun m p => fmul A (fsub A m p) (fhalf A)) uM uP)
     (map (fun nx => fsub A (fmul A c nx) (fmul A (fsub A (fofn A 1) alpha) (fabs A (fmul A c nx)))) nxVec) in
   bind (vectorToFull du (mkmat 2 K junk) false) (fun duMat =>
   let RHS := scaled_product (mmap (fun r => fmul A (fopp A c) r) rx) (n_Dr n) u Np Np K in
   let surfaceRHS := mzip (fmul A) Fscale duMat in
   Ok (add_product RHS (n_Lift n) surfaceRHS 2)))))))))).

(* src/burgers1d/main.cpp:117-120 Burgers2; tanh is a parameter *)
Variable ftanh : T -> T.
Definition Burgers2 (x t alpha nu c : T) : T :=
  fsub A (fdiv A c alpha) (fmul A (fdiv A c alpha)
    (ftanh (fmul A (fmul A (fhalf A) (fdiv A c nu)) (fsub A x (fmul A c t))))).

(* max(abs(u)) of blitz: a running maximum that starts below every number *)
Variable lowest : T.
Definition max_abs (u : mat T) : T :=
  fold_left (fun m ij => let v := fabs A (ment u (fst ij) (snd ij)) in if flt A m v then v else m)
    (list_prod (seq 0 (mrows u)) (seq 0 (mcols u))) lowest.

(* src/burgers1d/main.cpp:126-225 computeRHS *)
Definition burgers_rhs (n : nodes1d) (rx Fscale : mat T) (Np K : nat) (x : mat T) (t c alpha nu : T) (u : mat T) : outcome (mat T) :=
  require (tables_conform n rx Fscale Np K && conform u Np K && conform x Np K)
  (let zero := fofn A 0 in
   let two := fofn A 2 in
   let half := fhalf A in
   let maxvel := max_abs u in
   bind (fullToVector (n_nx n) (fresh (2 * K)) false) (fun nxVec =>
   bind (fullToVector u (fresh (Np * K)) false) (fun uVec =>
   bind (fullToVector x (fresh (Np * K)) false) (fun xVec =>
   bind (applyIndexMap uVec (n_vmapM n) (fresh (2 * K))) (fun uM =>
   bind (applyIndexMap uVec (n_vmapP n) (fresh (2 * K))) (fun uP =>
   bind (get xVec (n_vmapI n)) (fun xI =>
   bind (get xVec (n_vmapO n)) (fun xO =>
   let uL := Burgers2 xI t alpha nu c in
   let uR := Burgers2 xO t alpha nu c in
   bind (get uVec (n_vmapI n)) (fun uI =>
   bind (get uVec (n_vmapO n)) (fun uO =>
   bind (set (zipw (fsub A) uM uP) (n_mapI n) (fmul A two (fsub A uI uL))) (fun du =>
   bind (set du (n_mapO n) (fmul A two (fsub A uO uR))) (fun du =>
   bind (vectorToFull du (mkmat 2 K junk) false) (fun duMat =>
   (* q: 196-197 *)
   let tmp := mzip (fmul A) (mzip (fmul A) (mmap (fmul A half) Fscale) (n_nx n)) duMat in
   let q := mmap (fmul A (fsqrt A nu)) (sub_product (scaled_product rx (n_Dr n) u Np Np K) (n_Lift n) tmp 2) in
   bind (fullToVector q (fresh (Np * K)) false) (fun qVec =>
   bind (applyIndexMap qVec (n_vmapM n) (fresh (2 * K))) (fun qM =>
   bind (applyIndexMap qVec (n_vmapP n) (fresh (2 * K))) (fun qP =>
   bind (set (zipw (fun m p => fmul A half (fsub A m p)) qM qP) (n_mapO n) zero) (fun dq =>
   bind (set dq (n_mapI n) zero) (fun dq =>
   (* the nonlinear flux: 207-209 *)
   bind (set (zipw (fun m p => fmul A half (fsub A (fmul A m m) (fmul A p p))) uM uP) (n_mapI n)
          (fsub A (fmul A uI uI) (fmul A uL uL))) (fun du2 =>
   bind (set du2 (n_mapO n) (fsub A (fmul A uO uO) (fmul A uR uR))) (fun du2 =>
   let flux := zipw (fsub A)
     (zipw (fmul A) nxVec (zipw (fsub A) (map (fmul A half) du2) (map (fmul A (fsqrt A nu)) dq)))
     (map (fmul A (fmul A half maxvel)) du) in
   bind (vectorToFull flux (mkmat 2 K junk) false) (fun fluxMat =>
   let tmp2 := mzip (fun v p => fsub A (fmul A (fmul A half v) v) (fmul A (fsqrt A nu) p)) u q in
   let RHS := scaled_product (mmap (fopp A) rx) (n_Dr n) tmp2 Np Np K in
   Ok (add_product RHS (n_Lift n) (mzip (fmul A) Fscale fluxMat) 2)))))))))))))))))))))).

(* src/poisson1d/Poisson1d.hpp:29-125 PoissonOperator::operator(); in and out are vectors of Np*K entries.
   LinAlgHelpers normMax is max(abs(.)); it always returns true. *)
Definition poisson1d_op (n : nodes1d) (J rx Fscale : mat T) (Np K : nat) (inp out : list T) : outcome (list T) :=
  require (tables_conform n rx Fscale Np K && conform J Np K && conform (n_Vinv n) Np Np)
  (let two := fofn A 2 in
   let half := fhalf A in
   bind (vectorToFull inp (mkmat Np K junk) false) (fun u =>
   bind (fullToVector (n_nx n) (fresh (2 * K)) false) (fun nxVec =>
   bind (fullToVector u (fresh (Np * K)) false) (fun uVec =>
   let ux := scaled_product rx (n_Dr n) u Np Np K in
   bind (fullToVector ux (fresh (Np * K)) false) (fun uxVec =>
   bind (applyIndexMap uVec (n_vmapM n) (fresh (2 * K))) (fun uM =>
   bind (applyIndexMap uVec (n_vmapP n) (fresh (2 * K))) (fun uP =>
   bind (get uM (n_mapI n)) (fun uI => bind (set uP (n_mapI n) (fopp A uI)) (fun uP =>
   bind (get uM (n_mapO n)) (fun uO => bind (set uP (n_mapO n) (fopp A uO)) (fun uP =>
   let du := zipw (fsub A) uM uP in
   bind (vectorToFull du (mkmat 2 K junk) false) (fun duMat =>
   let surface := mzip (fmul A) Fscale (mmap (fun d => fdiv A d two) (mzip (fmul A) (n_nx n) duMat)) in
   let q := sub_product (scaled_product rx (n_Dr n) u Np Np K) (n_Lift n) surface 2 in
   bind (fullToVector q (fresh (Np * K)) false) (fun qVec =>
   bind (applyIndexMap qVec (n_vmapM n) (fresh (2 * K))) (fun qM =>
   bind (applyIndexMap uxVec (n_vmapM n) (fresh (2 * K))) (fun uxM =>
   bind (applyIndexMap uxVec (n_vmapP n) (fresh (2 * K))) (fun uxP =>
   bind (get uxM (n_mapI n)) (fun vI => bind (set uxP (n_mapI n) vI) (fun uxP =>
   bind (get uxM (n_mapO n)) (fun vO => bind (set uxP (n_mapO n) vO) (fun uxP =>
   let qP := zipw (fun m p => fmul A half (fadd A m p)) uxM uxP in
   let dq := zipw (fsub A) qM qP in
   bind (vectorToFull dq (mkmat 2 K junk) false) (fun dqMat =>
   let hmin := fdiv A two (max_abs rx) in
   let tau := fdiv A (fofn A (Np * Np)) hmin in
   let surface := mzip (fmul A) (n_nx n) (mzip (fadd A) dqMat (mzip (fmul A) (mmap (fmul A tau) (n_nx n)) duMat)) in
   let mass := mkmat Np Np (fun i j => fsum A Np (fun k => fmul A (ment (n_Vinv n) k i) (ment (n_Vinv n) k j))) in
   let tmp := sub_product (scaled_product rx (n_Dr n) q Np Np K) (n_Lift n) surface 2 in
   let result := scaled_product J mass tmp Np Np K in
   fullToVector result out false))))))))))))))))))))).
End Line1D.
