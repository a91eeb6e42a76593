(* MeshModel.v - the mesh tables of src/MeshManager.cpp: connectivity, boundary table, orientation
   and the gmsh file reader. Partitioning (METIS) and the Python array accessors are not modelled.
   index_type counters are unbounded naturals, except where the code's int product sizes a matrix. *)
From Coq Require Import ZArith List Bool Ascii SpecFloat.
From Verif Require Import Base Loops CscModel CsvModel.
Import ListNotations.
Local Open Scope nat_scope.

(* IEEE double operations (round to nearest even). *)
Definition dbl := spec_float.
Definition d_add := SFadd 53 1024.
Definition d_sub := SFsub 53 1024.
Definition d_mul := SFmul 53 1024.
Definition d_one : dbl := S754_finite false 4503599627370496 (-52).
Definition d_two : dbl := S754_finite false 4503599627370496 (-51).
(* MeshManager::NodeTol = 1.e-10, the nearest double. src/MeshManager.cpp:55 *)
Definition d_tol : dbl := S754_finite false 7737125245533627 (-86).
(* std::abs(x - 2.0) < NodeTol *)
Definition near2 (x : dbl) : bool := SFltb (SFabs (d_sub x d_two)) d_tol.

(* localVertNum: src/MeshManager.cpp:386-393; a face number of 4 or more is out of bounds. *)
Definition localVertNum (NF f : nat) : outcome (nat * nat) :=
  if NF =? 4 then getn [(0, 1); (1, 2); (2, 3); (3, 0)] f
  else getn [(0, 1); (1, 2); (2, 0); (0, 0)] f.

Section Connectivity.
(* Element type of the face matrices, so that the same loops can be discussed for any arithmetic. *)
Variable T : Type.
Variable one : T.
Variable add mul : T -> T -> T.
Variable isTwo : T -> bool.
Variable jk : nat * T.
Variable jp ji : nat -> nat.
Variable jx : nat -> T.

(* A vertex number used as a row index; a negative one is an invalid matrix for CXSparse. *)
Definition row_index (v : Z) : outcome nat := if (v <? 0)%Z then UB else Ok (Z.to_nat v).

(* body of the loops of src/MeshManager.cpp:405-425; the state is (globalFaceNum, nnz, VToF). *)
Definition face_step (NF : nat) (E2V : list Z) (k f : nat) (st : nat * nat * csc T)
  : outcome (nat * nat * csc T) :=
  let '(g, nnz, a) := st in
  bind (setn (p_ a) g nnz) (fun p' =>
  bind (localVertNum NF f) (fun '(v1, v2) =>
  bind (getn E2V (k * NF + v1)) (fun v1Global => bind (getn E2V (k * NF + v2)) (fun v2Global =>
  bind (row_index v1Global) (fun r1 => bind (row_index v2Global) (fun r2 =>
  bind (setn (i_ a) nnz r1) (fun i1 => bind (setn (x_ a) nnz one) (fun x1 =>
  bind (setn i1 (S nnz) r2) (fun i2 => bind (setn x1 (S nnz) one) (fun x2 =>
  Ok (S g, S (S nnz), mkcsc (m_ a) (n_ a) (nzmax a) p' i2 x2))))))))))).

(* src/MeshManager.cpp:398-426 *)
Definition buildVToF (NV K NF : nat) (E2V : list Z) : outcome (csc T) :=
  bind (ctor_sizes jp ji jx NV (NF * K) (2 * (NF * K))) (fun a0 =>
  bind (for_ K (fun k => for_ NF (face_step NF E2V k)) (0, 0, a0)) (fun '(g, nnz, a) =>
  bind (setn (p_ a) (NF * K) nnz) (fun p' =>
  Ok (mkcsc (m_ a) (n_ a) (nzmax a) p' (i_ a) (x_ a))))).

(* The entry test of src/MeshManager.cpp:433-434 and 454-455: the row i of entry k when it counts as
   a connection of column j. *)
Definition connection (F : csc T) (j k : nat) : outcome (option nat) :=
  bind (getn (i_ F) k) (fun i =>
  if negb (i =? j) then
    bind (getn (x_ F) k) (fun x => Ok (if isTwo x then Some i else None))
  else Ok None).

(* for (k = colPtrs(j); k < colPtrs(j + 1); ++k) *)
Definition over_col {S} (F : csc T) (j : nat) (body : nat -> S -> outcome S) (s : S) : outcome S :=
  bind (getn (p_ F) j) (fun lo => bind (getn (p_ F) (Datatypes.S j)) (fun hi =>
  for_from lo (hi - lo) body s)).

(* src/MeshManager.cpp:430-438 *)
Definition count_connections (total : nat) (F : csc T) : outcome nat :=
  for_ total (fun j => over_col F j (fun k c =>
    bind (connection F j k) (fun o => Ok (match o with Some _ => S c | None => c end)))) 0.

(* src/MeshManager.cpp:441-461 *)
Definition store_connections (total count : nat) (F : csc T) : outcome (nat * list nat * list nat) :=
  for_ total (fun j => over_col F j (fun k '(c, f1, f2) =>
    bind (connection F j k) (fun o => match o with
    | Some i => bind (setn f1 c i) (fun f1' => bind (setn f2 c j) (fun f2' => Ok (S c, f1', f2')))
    | None => Ok (c, f1, f2)
    end))) (0, repeat 0 count, repeat 0 count).

(* src/MeshManager.cpp:473-479 *)
Definition self_tables (K NF : nat) (E2E E2F : list nat) : outcome (list nat * list nat) :=
  for_ K (fun k => for_ NF (fun f '(a, b) =>
    bind (setn a (k * NF + f) k) (fun a' => bind (setn b (k * NF + f) f) (fun b' => Ok (a', b')))))
  (E2E, E2F).

(* src/MeshManager.cpp:481-488; e1, e2, f1, f2 already hold element and local face numbers. *)
Definition link_tables (NF count : nat) (e1 f1 e2 f2 : list nat) (tabs : list nat * list nat)
  : outcome (list nat * list nat) :=
  for_ count (fun i '(a, b) =>
    bind (getn e1 i) (fun ee1 => bind (getn e2 i) (fun ee2 =>
    bind (getn f1 i) (fun ff1 => bind (getn f2 i) (fun ff2 =>
    bind (setn a (ee1 * NF + ff1) ee2) (fun a' =>
    bind (setn b (ee1 * NF + ff1) ff2) (fun b' => Ok (a', b')))))))) tabs.

(* src/MeshManager.cpp:383-489 (462-467 are the divisions). E2E0, E2F0 are the allocated, uninitialised tables. *)
Definition buildConnectivity_with (NV K NF : nat) (E2V : list Z) (E2E0 E2F0 : list nat)
  : outcome (list nat * list nat) :=
  bind (buildVToF NV K NF E2V) (fun VToF =>
  bind (transpose jk VToF) (fun VT =>
  bind (multiply add mul jk VT VToF) (fun FToF =>
  bind (count_connections (NF * K) FToF) (fun count =>
  bind (store_connections (NF * K) count FToF) (fun '(_, f1, f2) =>
  bind (self_tables K NF E2E0 E2F0) (fun tabs =>
  link_tables NF count (map (fun f => f / NF) f1) (map (fun f => f mod NF) f1)
                       (map (fun f => f / NF) f2) (map (fun f => f mod NF) f2) tabs)))))).
End Connectivity.

(* The code's instance: doubles. *)
Definition buildConnectivity (jk : nat * dbl) (jp ji : nat -> nat) (jx : nat -> dbl) :=
  buildConnectivity_with dbl d_one d_add d_mul near2 jk jp ji jx.

(* buildBCTable(tag): src/MeshManager.cpp:315-329 *)
Definition buildBCTable (K NF : nat) (E2E : list nat) (tag : Z) (BC0 : list Z) : outcome (list Z) :=
  for_ (NF * K) (fun f bc =>
    bind (getn E2E f) (fun k2 => if k2 =? f / NF then setn bc f tag else Ok bc))
  (map (fun _ => 0%Z) BC0).

Section Geometry.
Variable R : Type.
Variable r_sub r_mul : R -> R -> R.
Variable neg : R -> bool.          (* x < 0 *)
Variable r_add : R -> R -> R.
Variable half : R.
Variable small : R -> bool.        (* std::abs(x) < NodeTol *)

(* body of src/MeshManager.cpp:101-116 and 291-306; dim is the stride of the vertex table. *)
Definition orient_step (dim NF : nat) (V : list R) (k : nat) (E2V : list Z) : outcome (list Z) :=
  let at_ (i : nat) (o : Z) := bind (getn E2V i) (fun v => get V (v * Z.of_nat dim + o)) in
  bind (at_ (NF * k) 0%Z) (fun ax => bind (at_ (NF * k) 1%Z) (fun ay =>
  bind (at_ (NF * k + 1) 0%Z) (fun bx => bind (at_ (NF * k + 1) 1%Z) (fun by_ =>
  bind (at_ (NF * k + 2) 0%Z) (fun cx => bind (at_ (NF * k + 2) 1%Z) (fun cy =>
  let det := r_sub (r_mul (r_sub ax cx) (r_sub by_ cy)) (r_mul (r_sub bx cx) (r_sub ay cy)) in
  if neg det then
    bind (getn E2V (NF * k + 1)) (fun u => bind (getn E2V (NF * k + 2)) (fun w =>
    bind (setn E2V (NF * k + 1) w) (fun e => setn e (NF * k + 2) u)))
  else Ok E2V)))))).

Definition orient (dim NF K : nat) (V : list R) (E2V : list Z) : outcome (list Z) :=
  for_ K (orient_step dim NF V) E2V.

(* buildBCTable(edges): src/MeshManager.cpp:331-381. The vertex table is addressed with stride
   NumFaces. An edge is the list of integers of its line in the file. *)
Definition coord (NF : nat) (V : list R) (v o : Z) : outcome R := get V (v * Z.of_nat NF + o).
Definition Wall : Z := 3.

Fixpoint edge_loop (NF : nat) (V : list R) (midx midy : R) (edges : list (list Z)) : outcome (option Z) :=
  match edges with
  | [] => Ok None
  | e :: rest =>
      bind (getn e 5) (fun a => bind (getn e 6) (fun b => bind (getn e 3) (fun t =>
      let n1 := (a - 1)%Z in let n2 := (b - 1)%Z in
      let bcType := if (t =? 0)%Z then Wall else t in
      bind (coord NF V n1 0) (fun x1 => bind (coord NF V n1 1) (fun y1 =>
      bind (coord NF V n2 0) (fun x2 => bind (coord NF V n2 1) (fun y2 =>
      if small (r_sub (r_mul (r_sub y2 midy) (r_sub x2 x1)) (r_mul (r_sub y2 y1) (r_sub x2 midx)))
      then Ok (Some bcType) else edge_loop NF V midx midy rest)))))))
  end.

Definition bc_face (NF : nat) (V : list R) (E2V : list Z) (edges : list (list Z)) (k f : nat) (bc : list Z)
  : outcome (list Z) :=
  bind (getn E2V (k * NF + f)) (fun v1 => bind (getn E2V (k * NF + (f + 1) mod NF)) (fun v2 =>
  bind (coord NF V v1 0) (fun v1x => bind (coord NF V v1 1) (fun v1y =>
  bind (coord NF V v2 0) (fun v2x => bind (coord NF V v2 1) (fun v2y =>
  bind (edge_loop NF V (r_mul half (r_add v1x v2x)) (r_mul half (r_add v1y v2y)) edges) (fun o =>
  match o with Some t => setn bc (NF * k + f) t | None => Ok bc end))))))).

Definition buildBCTable_edges (K NF : nat) (V : list R) (E2V : list Z) (edges : list (list Z)) (BC0 : list Z)
  : outcome (list Z) :=
  for_ K (fun k => for_ NF (bc_face NF V E2V edges k)) (map (fun _ => 0%Z) BC0).

(* ---- reading a gmsh file: src/MeshManager.cpp:130-313 ---- *)
Inductive num := NInt (z : Z) | NReal (x : R).
(* std::stoi, std::stod and std::stof; the float version number is kept as a real. *)
Variable stoi : str -> option (Z * nat).
Variable stod stof : str -> option (R * nat).
Variable vers_ok : R -> bool.      (* not (vers < 2.0 || vers >= 3.0) *)

Definition kInt : kind num := KNum (fun s => option_map (fun '(z, n) => (NInt z, n)) (stoi s)).
Definition kReal : kind num := KNum (fun s => option_map (fun '(x, n) => (NReal x, n)) (stod s)).
Definition kFloat : kind num := KNum (fun s => option_map (fun '(x, n) => (NReal x, n)) (stof s)).

(* parseElem: src/MeshManager.cpp:64-73 *)
Definition stoi_ (s : str) : outcome Z := match stoi s with Some (z, _) => Ok z | None => Throw end.
Fixpoint parseElem (toks : list str) : outcome (list Z) :=
  match toks with
  | [] => Ok []
  | s :: r => bind (stoi_ s) (fun z => bind (parseElem r) (fun zs => Ok (z :: zs)))
  end.

(* readLine(line) as used here: what the variable holds afterwards. At the end of the file the
   string is left alone when nothing can be extracted any more, and emptied on the first attempt. *)
Definition nextLine (line : str) (r : reader) : str * reader :=
  match readLine r with
  | (Some l, r') => (l, r')
  | (None, r') => (if seof (strm r) || sfail (strm r) then line else [], r')
  end.

Fixpoint str_eqb (a b : str) : bool :=
  match a, b with
  | [], [] => true
  | x :: a', y :: b' => Ascii.eqb x y && str_eqb a' b'
  | _, _ => false
  end.

(* parseRowValues whose exception propagates; the stored values and the reader. *)
Definition parseVals (ks : list (kind num)) (r : reader) : outcome (list num * reader) :=
  bind (parseRowValues ks r) (fun '((vals, res), r') =>
  match res with Exn => Throw | Ret _ => Ok (vals, r') end).

(* checkFailAndThrow: the section header has to be exactly this line. *)
Definition expect (line s : str) : outcome unit := if str_eqb line s then Ok tt else Throw.

Definition asc (s : list nat) : str := map ascii_of_nat s.
Definition s_MeshFormat : str := asc [36; 77; 101; 115; 104; 70; 111; 114; 109; 97; 116].  (* $MeshFormat *)
Definition s_Nodes : str := asc [36; 78; 111; 100; 101; 115].                               (* $Nodes *)
Definition s_Elements : str := asc [36; 69; 108; 101; 109; 101; 110; 116; 115].             (* $Elements *)

(* The node loop; V is the vertex table. A row that is missing leaves the variables unset. *)
Definition node_step (i : nat) (st : list R * reader) : outcome (list R * reader) :=
  let (V, r) := st in
  bind (parseVals [kInt; kReal; kReal; kReal] r) (fun '(vals, r') =>
  match vals with
  | [NInt nodeNum; NReal x; NReal y; NReal z] =>
      bind (set V ((nodeNum - 1) * 3) x) (fun V1 =>
      bind (set V1 ((nodeNum - 1) * 3 + 1) y) (fun V2 =>
      bind (set V2 ((nodeNum - 1) * 3 + 2) z) (fun V3 => Ok (V3, r'))))
  | _ => UB
  end).

(* The element loop: the four containers points, lines, tris, quads, the last line read, the reader. *)
Record elems := mkelems { pts : list Z; lns : list (list Z); trs : list (list Z); qds : list (list Z) }.

Definition in_intb (z : Z) : bool := (INT_MIN <=? z)%Z && (z <=? INT_MAX)%Z.

Definition elem_step (i : nat) (st : elems * str * reader) : outcome (elems * str * reader) :=
  let '(el, line0, r) := st in
  let (line, r') := nextLine line0 r in
  let info := tokenizeLine (delims r') line in
  let numCols := Z.of_nat (length info) in
  bind (getn info 1) (fun s1 => bind (stoi_ s1) (fun elemType =>
  bind (getn info 2) (fun s2 => bind (stoi_ s2) (fun numTags =>
  let numLocalVerts := (numCols - numTags - 3)%Z in
  if negb (in_intb numLocalVerts) then UB
  else if (numLocalVerts =? 1)%Z then
    if negb (elemType =? 15)%Z then Throw
    else bind (getn info 3) (fun s3 => bind (stoi_ s3) (fun z =>
      Ok (mkelems (pts el ++ [z]) (lns el) (trs el) (qds el), line, r')))
  else if (numLocalVerts =? 2)%Z then
    if negb (elemType =? 1)%Z then Throw
    else bind (parseElem info) (fun zs => Ok (mkelems (pts el) (lns el ++ [zs]) (trs el) (qds el), line, r'))
  else if (numLocalVerts =? 3)%Z then
    if negb (elemType =? 2)%Z then Throw
    else bind (parseElem info) (fun zs => Ok (mkelems (pts el) (lns el) (trs el ++ [zs]) (qds el), line, r'))
  else if (numLocalVerts =? 4)%Z then
    if negb (elemType =? 3)%Z then Throw
    else bind (parseElem info) (fun zs => Ok (mkelems (pts el) (lns el) (trs el) (qds el ++ [zs]), line, r'))
  else Ok (el, line, r'))))).

(* E2V(NumFaces*k + i) = elements[k][5 + i] - 1 *)
Definition elem_vertices (NF : nat) (e : list Z) : outcome (list Z) :=
  for_ NF (fun i acc => bind (getn e (5 + i)) (fun v => Ok (acc ++ [(v - 1)%Z]))) [].
Fixpoint elements_table (NF : nat) (es : list (list Z)) : outcome (list Z) :=
  match es with
  | [] => Ok []
  | e :: r => bind (elem_vertices NF e) (fun vs => bind (elements_table NF r) (fun t => Ok (vs ++ t)))
  end.

(* What the file contributes: vertex table, NumVerts, NumFaces, NumElements and the elements in file
   order, before re-orientation. *)
Record raw_mesh := mkraw { rVert : list R; rNV : nat; rNF : nat; rK : nat; rE2V : list Z }.

(* src/MeshManager.cpp:130-288. file is the text found under the name; NV0 the value of NumVerts
   before the call (kept if the file ends before the count); jv the uninitialised vertex table. *)
Definition s_delims : str := asc [9; 32].
Definition readMesh_raw (file : option str) (NV0 : Z) (jv : nat -> R) : outcome raw_mesh :=
  bind (openFile file 0 s_delims) (fun '(res, r) =>
  match res with Exn => Throw | Ret _ =>
  let (line, r) := nextLine [] r in
  bind (expect line s_MeshFormat) (fun _ =>
  bind (parseVals [kFloat; kInt; kInt] (with_cols r 3)) (fun '(vals, r) =>
  match vals with
  | [NReal vers; NInt fileType; NInt floatSize] =>
    if negb (vers_ok vers) then Throw
    else if negb (fileType =? 0)%Z then Throw
    else if negb (floatSize =? 8)%Z then Throw
    else
    let r := snd (skipLines 1 r) in
    let (line, r) := nextLine line r in
    bind (expect line s_Nodes) (fun _ =>
    bind (parseVals [kInt] (with_cols r 1)) (fun '(vals, r) =>
    let NV := match vals with [NInt n] => n | _ => NV0 end in
    if (NV <? 0)%Z then UB
    else
    let nv := Z.to_nat NV in
    bind (for_ nv node_step (map jv (seq 0 (nv * 3)), with_cols r 4)) (fun '(V, r) =>
    let r := snd (skipLines 1 r) in
    let (line, r) := nextLine line r in
    bind (expect line s_Elements) (fun _ =>
    bind (parseVals [kInt] (with_cols r 1)) (fun '(vals, r) =>
    let rows := match vals with [NInt n] => n | _ => 0%Z end in
    if (rows <? 0)%Z then Throw      (* reserve of a huge size_t *)
    else
    bind (for_ (Z.to_nat rows) elem_step (mkelems [] [] [] [], line, r)) (fun '(el, _, _) =>
    let NF := match qds el with [] => 3 | _ => 4 end in
    let es := match qds el with [] => trs el | _ => qds el end in
    bind (elements_table NF es) (fun E2V =>
    Ok (mkraw V nv NF (length es) E2V))))))))
  | _ => UB                          (* vers, fileType, floatSize used uninitialised *)
  end))
  end).

(* The whole of readMesh: src/MeshManager.cpp:130-313. je, jf, jb: uninitialised tables. *)
Record mesh := mkmesh { Vert : list R; NumVerts : nat; NumFaces : nat; NumElements : nat;
                        EToV : list Z; EToE : list nat; EToF : list nat; BCType : list Z }.
Variable jk : nat * dbl.
Variable jp ji : nat -> nat.
Variable jx : nat -> dbl.

(* The part common to readMesh (290-312) and buildMesh (101-120). *)
Definition finish_mesh (dim : nat) (w : raw_mesh) (je jf : nat -> nat) (jb : nat -> Z) : outcome mesh :=
  let n := rK w * rNF w in
  bind (orient dim (rNF w) (rK w) (rVert w) (rE2V w)) (fun E2V =>
  bind (buildConnectivity jk jp ji jx (rNV w) (rK w) (rNF w) E2V (map je (seq 0 n)) (map jf (seq 0 n)))
    (fun '(E2E, E2F) =>
  bind (buildBCTable (rK w) (rNF w) E2E Wall (map jb (seq 0 n))) (fun bc =>
  Ok (mkmesh (rVert w) (rNV w) (rNF w) (rK w) E2V E2E E2F bc)))).

Definition readMesh (file : option str) (NV0 : Z) (jv : nat -> R) (je jf : nat -> nat) (jb : nat -> Z)
  : outcome mesh :=
  bind (readMesh_raw file NV0 jv) (fun w => finish_mesh 3 w je jf jb).
End Geometry.
