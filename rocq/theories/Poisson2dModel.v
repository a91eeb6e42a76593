(* Poisson2dModel.v - the matrix-free Laplacian of src/poisson2d/Poisson2d.hpp (PoissonOperator) and the fields its
   driver src/poisson2d/main.cpp starts from. The local mass matrix is computed and not used (150-153, 161): left out. *)
From Coq Require Import ZArith List Bool.
From Verif Require Import Base Loops Num BlitzModel Maps2DModel Nodes1DModel RKModel Line1DModel SwModel.
Import ListNotations.

Section Poisson2d.
Context {T : Type} (A : arith T).
Variable junk : nat -> nat -> T.                                   (* uninitialised matrix storage *)
Variable junkv : nat -> T.                                         (* uninitialised vector storage *)
Variable lowest : T.                                               (* where a blitz max reduction starts *)
Local Notation two := (fofn A 2).
Local Notation half := (fhalf A).

(* dudr, duds, ux, uy: Poisson2d.hpp:56-61; and the same sums for the divergence: 156-157 *)
Definition dx (d : dg2d (T := T)) (Np K : nat) (u : mat T) : mat T :=
  mzip (fadd A) (scaled_product A (d_rx d) (d_Dr d) u Np Np K) (scaled_product A (d_sx d) (d_Ds d) u Np Np K).
Definition dy (d : dg2d (T := T)) (Np K : nat) (u : mat T) : mat T :=
  mzip (fadd A) (scaled_product A (d_ry d) (d_Dr d) u Np Np K) (scaled_product A (d_sy d) (d_Ds d) u Np Np K).
(* uP(d) = -uM(d): 71-74 *)
Definition odd_step (uM : list T) (w : nat) (uP : list T) : outcome (list T) :=
  bind (getn uM w) (fun v => setn uP w (fopp A v)).
(* the gradient beyond a Neumann face node: 125-129 *)
Definition reflect_step (nx ny uxM uyM : list T) (n : nat) (st : list T * list T) : outcome (list T * list T) :=
  let '(uxP, uyP) := st in
  bind (getn nx n) (fun n1 => bind (getn ny n) (fun n2 => bind (getn uxM n) (fun a => bind (getn uyM n) (fun b =>
  let un := fadd A (fmul A a n1) (fmul A b n2) in
  bind (setn uxP n (fsub A a (fmul A (fmul A two n1) un))) (fun uxP =>
  bind (setn uyP n (fsub A b (fmul A (fmul A two n2) un))) (fun uyP => Ok (uxP, uyP))))))).
(* dg.fscale()*(dg.nx()*duMat/2.0): 90-91 *)
Definition face_part (d : dg2d (T := T)) (n du : mat T) : mat T :=
  mzip (fmul A) (d_Fscale d) (mmap (fun v => fdiv A v two) (mzip (fmul A) n du)).
(* (dg.nx()*dqxMat + dg.ny()*dqyMat + tau*duMat)/2.0: 148 *)
Definition side_part (d : dg2d (T := T)) (tau : T) (dqx dqy du : mat T) : mat T :=
  mmap (fun v => fdiv A v two) (mzip (fadd A) (mzip (fadd A) (mzip (fmul A) (d_nx d) dqx) (mzip (fmul A) (d_ny d) dqy)) (mmap (fmul A tau) du)).
(* hmin = 2.0/normMax(J), tau = Np/hmin: 143-144 *)
Definition penalty (Np : nat) (J : mat T) : T := fdiv A (fofn A Np) (fdiv A two (max_abs A lowest J)).

(* operator(): 24-167. The traces qxP, qyP taken at 107, 110 are overwritten at 132-133. out is the caller's vector. *)
Definition poisson2d_op (d : dg2d (T := T)) (J : mat T) (NF Nfp Np K : nat) (inp out : list T) : outcome (list T) :=
  let nf := (NF * Nfp * K)%nat in
  require (dg_conform d NF Nfp Np K && conform J Np K)
  (bind (vectorToFull inp (mkmat Np K junk) false) (fun u =>
   bind (fullToVector (d_nx d) (vfresh junkv nf) false) (fun nx =>
   bind (fullToVector (d_ny d) (vfresh junkv nf) false) (fun ny =>
   let ux := dx d Np K u in let uy := dy d Np K u in
   bind (traces junkv d Np K nf u) (fun '(uM, uP) =>
   match hfind (d_bc d) 3 with
   | None => Throw                                                 (* dg.bcmap().at(BCTag::Wall) *)
   | Some mapD =>
     bind (each (odd_step uM) mapD uP) (fun uP =>
     bind (vectorToFull (zipw (fsub A) uM uP) (mkmat (Nfp * NF) K junk) false) (fun du =>
     let qx := sub_product A ux (d_Lift d) (face_part d (d_nx d) du) (NF * Nfp) in
     let qy := sub_product A uy (d_Lift d) (face_part d (d_ny d) du) (NF * Nfp) in
     bind (traces junkv d Np K nf qx) (fun '(qxM, _) => bind (traces junkv d Np K nf qy) (fun '(qyM, _) =>
     bind (traces junkv d Np K nf ux) (fun '(uxM, uxP) => bind (traces junkv d Np K nf uy) (fun '(uyM, uyP) =>
     let mapN := match hfind (d_bc d) 7 with None => [] | Some l => l end in
     bind (each (reflect_step nx ny uxM uyM) mapN (uxP, uyP)) (fun '(uxP, uyP) =>
     let qxP := zipw (fun m p => fmul A half (fadd A m p)) uxM uxP in
     let qyP := zipw (fun m p => fmul A half (fadd A m p)) uyM uyP in
     bind (vectorToFull (zipw (fsub A) qxM qxP) (mkmat (Nfp * NF) K junk) false) (fun dqx =>
     bind (vectorToFull (zipw (fsub A) qyM qyP) (mkmat (Nfp * NF) K junk) false) (fun dqy =>
     let surf := side_part d (penalty Np J) dqx dqy du in
     let tmp := mzip (fadd A) (dx d Np K qx) (dy d Np K qy) in
     fullToVector (sub_product A tmp (d_Lift d) surf (NF * Nfp)) out false)))))))))
   end))))).

(* The driver: uexact = sin(pi*x)*sin(pi*y), rhs = -pi*pi*uexact: src/poisson2d/main.cpp:64-65 *)
Variable sine : T -> T.
Variable pi : T.
Definition driver_exact (x y : T) : T := fmul A (sine (fmul A pi x)) (sine (fmul A pi y)).
Definition driver_rhs (x y : T) : T := fmul A (fmul A (fopp A pi) pi) (driver_exact x y).
End Poisson2d.
