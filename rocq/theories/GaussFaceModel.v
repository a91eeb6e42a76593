(* GaussFaceModel.v - TriangleNodesProvisioner::buildGaussFaceNodes (src/TriangleNodesProvisioner.cpp:207-381): Gauss points
   on the sides of every triangle, with the interpolation matrix, geometry, quadrature weights and maps between sides. *)
From Coq Require Import ZArith List Bool Arith.
From Verif Require Import Base Loops Num JacobiModel Nodes1DModel TriModel Maps2DModel.
Import ListNotations.
Local Open Scope nat_scope.

(* The eight quantities written at one Gauss point: lines 322-332. *)
Record gpoint (T : Type) := Gpoint { p_nx : T; p_ny : T; p_sJ : T; p_J : T; p_rx : T; p_ry : T; p_sx : T; p_sy : T }.
Arguments Gpoint {T}. Arguments p_nx {T}. Arguments p_ny {T}. Arguments p_sJ {T}. Arguments p_J {T}.
Arguments p_rx {T}. Arguments p_ry {T}. Arguments p_sx {T}. Arguments p_sy {T}.

(* GaussFaceContext2D: include/GaussFaceContext2D.hpp. *)
Record gauss_faces (T : Type) := GaussFaces { gf_nx : mat T; gf_ny : mat T; gf_sJ : mat T; gf_J : mat T; gf_rx : mat T; gf_ry : mat T;
  gf_sx : mat T; gf_sy : mat T; gf_bc : hmap; gf_x : mat T; gf_y : mat T; gf_W : mat T; gf_interp : mat T; gf_mapM : list nat; gf_mapP : list nat }.
Arguments GaussFaces {T}. Arguments gf_nx {T}. Arguments gf_ny {T}. Arguments gf_sJ {T}. Arguments gf_J {T}. Arguments gf_rx {T}.
Arguments gf_ry {T}. Arguments gf_sx {T}. Arguments gf_sy {T}. Arguments gf_bc {T}. Arguments gf_x {T}. Arguments gf_y {T}.
Arguments gf_W {T}. Arguments gf_interp {T}. Arguments gf_mapM {T}. Arguments gf_mapP {T}.

Section Gauss.
Context {T : Type}.
Variable A : arith T.
Variable powi : T -> nat -> T.
Variable junk : nat -> nat -> T.                                 (* uninitialised matrices *)
Variable eps : T.
Variable eig : nat -> (nat -> nat -> T) -> list T * (nat -> nat -> T).
Declare Scope gs_scope.
Local Notation "a + b" := (fadd A a b) : gs_scope.
Local Notation "a - b" := (fsub A a b) : gs_scope.
Local Notation "a * b" := (fmul A a b) : gs_scope.
Local Notation "a / b" := (fdiv A a b) : gs_scope.
Local Notation "- a" := (fopp A a) : gs_scope.
Delimit Scope gs_scope with gs.
Local Notation "# n" := (fofn A n) (at level 1, format "# n").

(* lines 221-222: the points of side f, given the Gauss points z of [-1,1] *)
Definition side_r (f : nat) (z : list T) : list T :=
  match f with 0 => z | 1 => map (fopp A) z | _ => map (fun t => (#0 * t - #1)%gs) z end.
Definition side_s (f : nat) (z : list T) : list T :=
  match f with 0 => map (fun t => (#0 * t - #1)%gs) z | 1 => z | _ => map (fopp A) z end.

(* lines 239-242 and 367-371: three blocks of NG rows on top of each other *)
Definition stack3 (NG cols : nat) (m0 m1 m2 : mat T) : mat T :=
  mkmat (3 * NG) cols (fun i j => if i <? NG then ment m0 i j else if i <? 2 * NG then ment m1 (i - NG) j else ment m2 (i - 2 * NG) j).

(* lines 296-320: one Gauss point of side f *)
Definition gauss_geometry (f : nat) (xr yr xs ys : T) : gpoint T :=
  let J := (xr * ys - xs * yr)%gs in
  let rx := (ys / J)%gs in let ry := (- xs / J)%gs in let sx := (- yr / J)%gs in let sy := (xr / J)%gs in
  let (ux, uy) := match f with
                  | 0 => ((- sx)%gs, (- sy)%gs)
                  | 1 => ((rx + sx)%gs, (ry + sy)%gs)
                  | _ => ((- rx)%gs, (- ry)%gs)
                  end in
  let norm := fsqrt A (ux * ux + uy * uy)%gs in
  Gpoint (ux / norm)%gs (uy / norm)%gs (norm * J)%gs J rx ry sx sy.

(* lines 276-332, without the maps: the eight output matrices, which are written together, are one matrix of records *)
Definition gauss_side (NG : nat) (I Dr Ds x y : mat T) (f k : nat) (m : mat (gpoint T)) : outcome (mat (gpoint T)) :=
  let VM := mkmat NG (mcols I) (fun i j => ment I (f * NG + i) j) in
  let dr := mmul A VM Dr in let ds := mmul A VM Ds in
  let at_ (d z : mat T) (ig : nat) := fsum A (mcols d) (fun j => (ment d ig j * ment z j k)%gs) in
  for_ NG (fun ig m => mset m (f * NG + ig) k (gauss_geometry f (at_ dr x ig) (at_ dr y ig) (at_ ds x ig) (at_ ds y ig))) m.
Definition gauss_sides (NG K : nat) (I Dr Ds x y : mat T) (m : mat (gpoint T)) : outcome (mat (gpoint T)) :=
  for_ 3 (fun f => for_ K (fun k => gauss_side NG I Dr Ds x y f k)) m.

Definition mproj {X} (p : X -> T) (m : mat X) : mat T := mkmat (mrows m) (mcols m) (fun i j => p (ment m i j)).

(* lines 207-381. Simplifications: the loops for the geometry and for the maps, which write different variables, are run
   one after the other (the maps are Maps2DModel.gaussFaceMaps); lines 226-236 are computeInterpMatrix spelled out; the
   call with NGauss = 0 or less, which asks for a quadrature rule of negative order, is UB. *)
Definition buildGaussFaceNodes (N K NG : nat) (Vinv Dr Ds x y : mat T) (junkg : nat -> nat -> gpoint T) (junkn : nat -> nat)
  (E2E E2F : list nat) (bcVec : list Z) : outcome (gauss_faces T) :=
  if NG =? 0 then UB else
  let (z, w) := computeJacobiQuadWeights A eig eps #0 #0 (NG - 1) in
  bind (computeInterpMatrix A powi junk N Vinv (side_r 0 z) (side_s 0 z)) (fun I0 =>
  bind (computeInterpMatrix A powi junk N Vinv (side_r 1 z) (side_s 1 z)) (fun I1 =>
  bind (computeInterpMatrix A powi junk N Vinv (side_r 2 z) (side_s 2 z)) (fun I2 =>
  let I := stack3 NG (mcols Vinv) I0 I1 I2 in
  bind (gauss_sides NG K I Dr Ds x y (mkmat (3 * NG) K junkg)) (fun g =>
  bind (gaussFaceMaps junkn 3 K NG E2E E2F bcVec) (fun '(mapM, mapP, _, bc) =>
  let wmat := mkmat NG K (fun i j => (nth i w #0 * (#0 * #j + #1))%gs) in
  let W := mzip (fmul A) (stack3 NG K wmat wmat wmat) (mproj p_sJ g) in
  Ok (GaussFaces (mproj p_nx g) (mproj p_ny g) (mproj p_sJ g) (mproj p_J g) (mproj p_rx g) (mproj p_ry g) (mproj p_sx g) (mproj p_sy g)
        bc (mmul A I x) (mmul A I y) W I mapM mapP)))))).
End Gauss.
