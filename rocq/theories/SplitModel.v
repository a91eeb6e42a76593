(* SplitModel.v - splitting high-order elements into linear ones for output, and the cells of the VTK writer.
   splitElements: src/TriangleNodesProvisioner.cpp:1154-1264 and src/QuadNodesProvisioner.cpp:720-835.
   The interpolation matrix is obtained from computeInterpMatrix of the same class, here the parameter interp.
   Index arithmetic is unbounded; the counter numLocalElements is the length of localE2V, with which it is incremented;
   the vectors va, vb, vc (vd) that copy the columns of E2Vnew are read directly from E2Vnew. *)
From Coq Require Import ZArith List Bool.
From Verif Require Import Base Loops Num BlitzModel Nodes1DModel TriModel.
Import ListNotations.
Local Open Scope nat_scope.

Section Split.
Context {T : Type}.
Variable A : arith T.
Variable junk : nat -> T.                                        (* uninitialised vectors *)
Variable junk2 : nat -> nat -> T.                                (* uninitialised matrices *)
Variable interp : list T -> list T -> outcome (mat T).           (* computeInterpMatrix(rout, sout, IM) *)
Variable N : nat.                                                (* get_NumFacePoints() - 1 *)

(* The coordinate -1 + 2 m / N of an equispaced lattice. *)
Definition lat (m : nat) : T := fadd A (fopp A (fofZ A 1)) (fdiv A (fmul A (fofZ A 2) (fofn A m)) (fofn A N)).

(* (rout, sout, counter) being filled. counter has -1 for 'No Value'. *)
Definition lattice : Type := list T * list T * mat Z.
Definition put_lattice (n m count : nat) (L : lattice) : outcome lattice :=
  let '(ro, so, C) := L in
  bind (setn ro count (lat m)) (fun ro => bind (setn so count (lat n)) (fun so =>
  bind (mset C n m (Z.of_nat count)) (fun C => Ok (ro, so, C)))).
Definition lattice0 (Np : nat) : lattice := (map junk (seq 0 Np), map junk (seq 0 Np), mkmat (S N) (S N) (fun _ _ => (-1)%Z)).

(* src/TriangleNodesProvisioner.cpp:1158-1176; the inner bound N+2-(n+1) is S (N - n). *)
Definition tri_lattice (Np : nat) : outcome lattice := bind (for_modes N put_lattice (lattice0 Np)) (fun st => Ok (fst st)).
(* src/QuadNodesProvisioner.cpp:726-743 *)
Definition quad_lattice (Np : nat) : outcome lattice :=
  bind (for_ (S N) (fun n => for_ (S N) (fun m '(L, count) => bind (put_lattice n m count L) (fun L => Ok (L, S count)))) (lattice0 Np, 0))
    (fun st => Ok (fst st)).

(* The four lattice points of a cell: src/TriangleNodesProvisioner.cpp:1188-1189. *)
Definition corners (C : mat Z) (n m : nat) : outcome (Z * Z * Z * Z) :=
  bind (mget C n m) (fun v1 => bind (mget C n (m + 1)) (fun v2 =>
  bind (mget C (n + 1) m) (fun v3 => bind (mget C (n + 1) (m + 1)) (fun v4 => Ok (v1, v2, v3, v4))))).
(* src/TriangleNodesProvisioner.cpp:1183-1204 *)
Definition tri_local (C : mat Z) : outcome (list (list Z)) :=
  for_ (N + 1) (fun n => for_ (N + 1 - (n + 1)) (fun m L => bind (corners C n m) (fun '(v1, v2, v3, v4) =>
    let L := L ++ [[v1; v2; v3]] in
    if (0 <=? v4)%Z then Ok (L ++ [[v2; v4; v3]]) else Ok L))) [].
(* src/QuadNodesProvisioner.cpp:752-771 *)
Definition quad_local (C : mat Z) : outcome (list (list Z)) :=
  for_ N (fun n => for_ N (fun m L => bind (corners C n m) (fun '(v1, v2, v3, v4) => Ok (L ++ [[v1; v2; v3; v4]])))) [].

(* E2Vnew: src/TriangleNodesProvisioner.cpp:1206-1218, src/QuadNodesProvisioner.cpp:773-786; nv vertices per new element. *)
Definition replicate_local (nv Np K : nat) (L : list (list Z)) : outcome (list (list Z)) :=
  for_ K (fun k => for_ (length L) (fun l E => bind (getn L l) (fun row =>
    bind (for_ nv (fun c r => bind (getn row c) (fun v => Ok (r ++ [(v + Z.of_nat (k * Np))%Z]))) []) (fun r => Ok (E ++ [r]))))) [].

(* src/TriangleNodesProvisioner.cpp:1226-1263, src/QuadNodesProvisioner.cpp:794-834. *)
Definition fill (nv : nat) (E : list (list Z)) (xv yv fv : list T) (total : nat) : outcome (mat T * mat T * mat T) :=
  for_ total (fun i => for_ nv (fun c '(X, Y, F) =>
    bind (getn E i) (fun row => bind (getn row c) (fun v =>
    bind (get xv v) (fun a => bind (mset X c i a) (fun X =>
    bind (get yv v) (fun b => bind (mset Y c i b) (fun Y =>
    bind (get fv v) (fun d => bind (mset F c i d) (fun F => Ok (X, Y, F))))))))))
  ) (mkmat nv total junk2, mkmat nv total junk2, mkmat nv total junk2).

Definition split_with (nv : nat) (mkLattice : nat -> outcome lattice) (mkLocal : mat Z -> outcome (list (list Z)))
  (x y field : mat T) : outcome (mat T * mat T * mat T) :=
  let Np := mrows field in let K := mcols field in
  let conf (m : mat T) := (mrows m =? Np) && (mcols m =? K) in
  if negb (conf x && conf y) then UB else                (* grids of another shape than the field are read out of bounds *)
  bind (mkLattice Np) (fun '(ro, so, C) =>
  bind (interp ro so) (fun IM =>
  bind (mkLocal C) (fun L =>
  bind (replicate_local nv Np K L) (fun E =>
  let v0 := map junk (seq 0 (Np * K)) in
  bind (fullToVector (mmul A IM x) v0 false) (fun xv =>
  bind (fullToVector (mmul A IM y) v0 false) (fun yv =>
  bind (fullToVector (mmul A IM field) v0 false) (fun fv =>
  fill nv E xv yv fv (length L * K)))))))).

Definition splitTriangles := split_with 3 tri_lattice tri_local.
Definition splitQuads := split_with 4 quad_lattice quad_local.
End Split.

(* insertAllCells: include/VtkOutputter.hpp:111-141. A VTK grid as written: the inserted points, the scalar array and the
   cells (type and point numbers). Types other than triangles (5) and quadrilaterals (9) are looked up with std::map's
   operator[], giving 0 (VTK_EMPTY_CELL). InsertPoint is only called with the next point number. *)
Record vtk_grid (T : Type) := Vtk { vk_points : list (T * T * T); vk_values : list T; vk_cells : list (nat * list nat) }.
Arguments Vtk {T}. Arguments vk_points {T}. Arguments vk_values {T}. Arguments vk_cells {T}.
Definition cell_type (Np : nat) : nat := match Np with 3 => 5 | 4 => 9 | _ => 0 end.
Definition swapn {V} (l : list V) (i j : nat) : outcome (list V) :=            (* std::swap(l[i], l[j]) *)
  bind (getn l i) (fun a => bind (getn l j) (fun b => bind (setn l i b) (fun l => setn l j a))).
Section Vtk.
Context {T : Type}.
Variable zero : T.
Variable junk : nat -> T.                                        (* SetNumberOfValues leaves the values unset *)
Definition insertAllCells (x y field : mat T) : outcome (vtk_grid T) :=
  let K := mcols field in let Np := mrows field in
  bind (for_ K (fun k '(P, V, nodes, nodeId, cells) =>
    bind (for_ Np (fun n '(P, V, nodes, nodeId) =>
      bind (mget x n k) (fun a => bind (mget y n k) (fun b => bind (mget field n k) (fun c =>
      bind (setn V nodeId c) (fun V => bind (setn nodes n nodeId) (fun nodes => Ok (P ++ [(a, b, zero)], V, nodes, S nodeId)))))))
      (P, V, nodes, nodeId)) (fun '(P, V, nodes, nodeId) =>
    bind (if cell_type Np =? 9 then bind (swapn nodes 1 3) (fun nodes => swapn nodes 1 2) else Ok nodes) (fun nodes =>
    Ok (P, V, nodes, nodeId, cells ++ [(cell_type Np, nodes)]))))
    ([], map junk (seq 0 (Np * K)), repeat 0 Np, 0, [])) (fun '(P, V, _, _, cells) => Ok (Vtk P V cells)).

(* writeFieldToFile: include/VtkOutputter.hpp:48-99 without the file itself. split is splitElements of the provisioner. *)
Definition writeField (order : nat) (split : mat T -> mat T -> mat T -> outcome (mat T * mat T * mat T)) (x y field : mat T) : outcome (vtk_grid T) :=
  if 1 <? order then bind (split x y field) (fun '(x, y, field) => insertAllCells x y field) else insertAllCells x y field.
End Vtk.
