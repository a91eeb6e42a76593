(* NumpyModel.v - how arrays cross the boundary to Python (boost::python::numpy).
   An ndarray is a block of bytes with a data pointer, an element type, a shape and strides. The binding code uses
   get_data() and the shape only; it never looks at the strides or at the element type.
   Simplified: reference counting is not modelled. Dictionaries are in DictModel.v. *)
From Coq Require Import ZArith List Bool.
From Verif Require Import Base Loops CscModel Num JacobiModel Nodes1DModel.
Import ListNotations.
Local Open Scope nat_scope.

(* A C++ element type stored in memory: its size, its bytes, the value a group of bytes stands for, and the zero byte.
   What a byte is stays open, so that the theorems can also speak of exact real numbers. *)
Record ctype (B T : Type) := CType { width : nat; encode : T -> list B; decode : list B -> T; zbyte : B }.
Arguments CType {B T}. Arguments width {B T}. Arguments encode {B T}. Arguments decode {B T}. Arguments zbyte {B T}.

(* A numpy array: its bytes, the position of get_data() in them, the item size, the shape and the strides in bytes. *)
Record ndarray (B : Type) := NdArray { nd_bytes : list B; nd_data : nat; nd_item : nat; nd_shape : list nat; nd_strides : list Z }.
Arguments NdArray {B}. Arguments nd_bytes {B}. Arguments nd_data {B}. Arguments nd_item {B}. Arguments nd_shape {B}. Arguments nd_strides {B}.

Definition product_of (l : list nat) : nat := fold_right Nat.mul 1 l.
(* strides of a C-ordered array *)
Fixpoint c_strides (item : nat) (shape : list nat) : list Z :=
  match shape with [] => [] | _ :: t => Z.of_nat (product_of t * item) :: c_strides item t end.
(* numpy.zeros(shape, dtype) *)
Definition zeros {B} (z : B) (item : nat) (shape : list nat) : ndarray B :=
  NdArray (repeat z (product_of shape * item)) 0 item shape (c_strides item shape).

(* n bytes from position p of a block *)
Definition load {B} (mem : list B) (p n : nat) : outcome (list B) :=
  if p + n <=? length mem then Ok (firstn n (skipn p mem)) else UB.
(* write the bytes b at position p of a block *)
Definition store {B} (mem : list B) (p : nat) (b : list B) : outcome (list B) :=
  if p + length b <=? length mem then Ok (firstn p mem ++ b ++ skipn (p + length b) mem) else UB.

(* std::copy(src->begin(), src->end(), reinterpret_cast<T*>(result.get_data())), as in src/DGContext2D.cpp:24-29 *)
Definition copy_out {B T} (c : ctype B T) (src : list T) (a : ndarray B) : outcome (ndarray B) :=
  bind (store (nd_bytes a) (nd_data a) (flat_map (encode c) src)) (fun m =>
  Ok (NdArray m (nd_data a) (nd_item a) (nd_shape a) (nd_strides a))).
(* shape; zeros(...); copy: the body of every getter *)
Definition export {B T} (c : ctype B T) (shape : list nat) (src : list T) : outcome (ndarray B) :=
  copy_out c src (zeros (zbyte c) (width c) shape).

(* storage order of a blitz matrix (row by row): begin() .. end() and data() *)
Definition storage {T} (m : mat T) : list T :=
  flat_map (fun i => map (fun j => ment m i j) (seq 0 (mcols m))) (seq 0 (mrows m)).
(* one r x s matrix per element, the element being the last index (src/TriangleNodesProvisioner.cpp:160, 179, 183) *)
Definition storage3 {T} (r s : nat) (t : list (mat T)) : list T :=
  flat_map (fun i => flat_map (fun j => map (fun m => ment m i j) t) (seq 0 s)) (seq 0 r).

Section Getters.
Context {B T : Type} (c : ctype B T).
(* DGContext2D: x, y, J, rx, ry, sx, sy: src/DGContext2D.cpp:45-57, 87-120 *)
Definition dg_volume (Np K : nat) (m : mat T) : outcome (ndarray B) := export c [Np; K] (storage m).
(* DGContext2D: filter, Dr, Ds, V: src/DGContext2D.cpp:24-29, 136-148, 171-176 *)
Definition dg_square (Np : nat) (m : mat T) : outcome (ndarray B) := export c [Np; Np] (storage m).
(* DGContext2D: Fscale, nx, ny: src/DGContext2D.cpp:59-64, 122-134 *)
Definition dg_face (NumFaces Nfp K : nat) (m : mat T) : outcome (ndarray B) := export c [NumFaces * Nfp; K] (storage m).
(* DGContext2D::lift_numpy: src/DGContext2D.cpp:150-155 *)
Definition dg_lift (NumFaces Nfp Np : nat) (m : mat T) : outcome (ndarray B) := export c [Np; NumFaces * Nfp] (storage m).
(* DGContext2D::fmask_numpy: src/DGContext2D.cpp:66-71 *)
Definition dg_mask (NumFaces Nfp : nat) (m : mat T) : outcome (ndarray B) := export c [Nfp; NumFaces] (storage m).
(* DGContext2D: r, s (length Np): src/DGContext2D.cpp:31-43; vmapM, vmapP: 157-169 *)
Definition dg_nodes (Np : nat) (v : list T) : outcome (ndarray B) := export c [Np] v.
Definition dg_map (NumFaces Nfp K : nat) (v : list T) : outcome (ndarray B) := export c [NumFaces * Nfp * K] v.
(* DGContext2D: gather, scatter: src/DGContext2D.cpp:73-85; r, s, w, mapM, mapP of the other two contexts:
   src/CubatureContext2D.cpp:46-65, src/GaussFaceContext2D.cpp:128-140 *)
Definition ctx_vector (v : list T) : outcome (ndarray B) := export c [length v] v.
(* CubatureContext2D: x, y, W, Jac, rx, ry, sx, sy, Dr, Ds, V: src/CubatureContext2D.cpp:25-44, 67-114, 130-135;
   GaussFaceContext2D: x, y, sJ, Jac, rx, ry, sy, nx, ny, W, Interp: src/GaussFaceContext2D.cpp:25-65, 74-93, 112-126;
   Poisson2DSparseMatrix::getBcRhs_numpy: src/Poisson2DSparseMatrix.cpp:923-929 *)
Definition ctx_matrix (m : mat T) : outcome (ndarray B) := export c [mrows m; mcols m] (storage m).
(* GaussFaceContext2D::sx_numpy: src/GaussFaceContext2D.cpp:67-72 *)
Definition gauss_sx (m : mat T) : outcome (ndarray B) := export c [mrows m; mrows m] (storage m).
(* CubatureContext2D: MM, MMChol: src/CubatureContext2D.cpp:116-128 *)
Definition ctx_tensor (r s : nat) (t : list (mat T)) : outcome (ndarray B) := export c [r; s; length t] (storage3 r s t).
(* MeshManager: partition maps, elements, vertices, bcType (flat tables): src/MeshManager.cpp:616-649 *)
Definition mesh_vector (n : nat) (v : list T) : outcome (ndarray B) := export c [n] v.
Definition mesh_table (n w : nat) (v : list T) : outcome (ndarray B) := export c [n; w] v.
End Getters.

(* std::copy of bytes raw[0] .. raw[n*sizeof(T)-1] of an ndarray into the storage of an array of cnt elements of
   type T, whose bytes are dst: src/MeshManager.cpp:651-654 *)
Definition copy_in {B T} (c : ctype B T) (a : ndarray B) (n : nat) (dst : list T) : outcome (list B) :=
  bind (load (nd_bytes a) (nd_data a) (n * width c)) (fun b =>
  store (flat_map (encode c) dst) 0 b).
(* the elements a block of bytes holds *)
Fixpoint elements {B T} (c : ctype B T) (n : nat) (b : list B) : list T :=
  match n with O => [] | S n' => decode c (firstn (width c) b) :: elements c n' (skipn (width c) b) end.

(* shape(0), shape(1) *)
Definition shape_at {B} (a : ndarray B) (d : nat) : outcome nat := getn (nd_shape a) d.

(* an r x c array whose storage is l *)
Definition of_storage {T} (dflt : T) (r c : nat) (l : list T) : mat T := mkmat r c (fun i j => nth (i * c + j) l dflt).

(* MeshManager::set_BCType_numpy: src/MeshManager.cpp:651-654; old is the present table *)
Definition set_bctype {B T} (c : ctype B T) (a : ndarray B) (old : list T) : outcome (list T) :=
  bind (shape_at a 0) (fun s0 => bind (shape_at a 1) (fun s1 =>
  bind (copy_in c a (s0 * s1) old) (fun b => Ok (elements c (length old) b)))).
(* one half of TriangleNodesProvisioner::setCoordinates_numpy: src/TriangleNodesProvisioner.cpp:1266-1272 *)
Definition set_coordinate {B T} (c : ctype B T) (dflt : T) (a : ndarray B) (old : mat T) : outcome (mat T) :=
  bind (set_bctype c a (storage old)) (fun l => Ok (of_storage dflt (mrows old) (mcols old) l)).
(* setCoordinates_numpy: nothing but xGrid and yGrid changes *)
Definition set_coordinates {B T} (c : ctype B T) (dflt : T) (x y : ndarray B) (xGrid yGrid : mat T) : outcome (mat T * mat T) :=
  bind (set_coordinate c dflt x xGrid) (fun x' => bind (set_coordinate c dflt y yGrid) (fun y' => Ok (x', y'))).
(* a real matrix argument: src/VtkOutputter.cpp:68-79, src/Poisson2DSparseMatrix.cpp:850-861. The matrix starts as zero. *)
Definition matrix_argument {B T} (c : ctype B T) (zero : T) (a : ndarray B) : outcome (mat T) :=
  bind (shape_at a 0) (fun s0 => bind (shape_at a 1) (fun s1 =>
  bind (copy_in c a (s0 * s1) (repeat zero (s0 * s1))) (fun b =>
  Ok (of_storage zero s0 s1 (elements c (s0 * s1) b))))).

(* Poisson2DSparseMatrix::getOP_numpy and getMM_numpy: src/Poisson2DSparseMatrix.cpp:886-921. ofn converts an index to
   double. The array is written through a pointer to doubles. *)
Definition put {B T} (c : ctype B T) (a : ndarray B) (k : nat) (v : T) : outcome (ndarray B) :=
  bind (store (nd_bytes a) (nd_data a + k * width c) (encode c v)) (fun m =>
  Ok (NdArray m (nd_data a) (nd_item a) (nd_shape a) (nd_strides a))).
Definition get_operator {B T} (c : ctype B T) (ofn : nat -> T) (m : csc T) : outcome (ndarray B) :=
  bind (for_ (n_ m) (fun j st =>
    bind (getn (p_ m) j) (fun lo => bind (getn (p_ m) (S j)) (fun hi =>
    for_from lo (hi - lo) (fun k '(a, count) =>
      bind (getn (i_ m) k) (fun r => bind (put c a (3 * count) (ofn r)) (fun a1 =>
      bind (put c a1 (3 * count + 1) (ofn j)) (fun a2 =>
      bind (getn (x_ m) k) (fun x => bind (put c a2 (3 * count + 2) x) (fun a3 =>
      Ok (a3, S count))))))) st)))
    (zeros (zbyte c) (width c) [nnz m; 3], 0)) (fun '(a, _) => Ok a).

(* VandermondeBuilders::buildVandermondeMatrix_numpy: include/VandermondeBuilders.hpp:76-105. inverse is
   DenseMatrixInverter::computeInverse. *)
Definition build_vandermonde {B T} (c : ctype B T) (A : arith T) (inverse : mat T -> mat T -> outcome (mat T))
    (r : ndarray B) (includeInverse : bool) (order : Z) : outcome (ndarray B * option (ndarray B)) :=
  bind (shape_at r 0) (fun M =>
  let N := if (-1 <? order)%Z then Z.to_nat (order + 1) else M in
  bind (copy_in c r M (repeat (fofn A 0) M)) (fun b =>
  let rblitz := elements c M b in
  let V := vandermonde1D A rblitz N in
  bind (if includeInverse then inverse V (mzero A N N) else Ok (mzero A N N)) (fun Vinv =>
  bind (export c [M; N] (storage V)) (fun Vpy =>
  if includeInverse then
    bind (load (flat_map (encode c) (storage Vinv)) 0 (M * N * width c)) (fun b2 =>
    bind (store (nd_bytes (zeros (zbyte c) (width c) [M; N])) 0 b2) (fun m =>
    Ok (Vpy, Some (NdArray m 0 (width c) [M; N] (c_strides (width c) [M; N])))))
  else Ok (Vpy, None))))).
