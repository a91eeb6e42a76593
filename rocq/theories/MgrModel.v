(* MgrModel.v - a MeshManager object used with separate vertex and element files and with METIS.
   Simplified: the console output other than printVertices/printElements is left out, the sizes are taken exactly, and the
   options passed to METIS are not looked at. *)
From Coq Require Import ZArith List Bool Ascii.
From Verif Require Import Base Loops CsvModel MeshModel.
Import ListNotations.
Local Open Scope nat_scope.

(* csvread, vector version: include/CSVFileReader.hpp:447-461. nrows and ncols are reference arguments: the first two
   components are their values afterwards, also when the call throws. *)
Fixpoint vec_loop {V} (fuel : nat) (k : kind V) (r : reader) (nrows : nat) (data : list V)
  : outcome (nat * result (list V)) :=
  match fuel with
  | O => UB
  | S f => bind (parseRowIterator k r) (fun '((vals, res), r') =>
           match res with
           | Exn => Ok (nrows, Exn)
           | Ret true => vec_loop f k r' (S nrows) (data ++ vals)
           | Ret false => Ok (nrows, Ret (data ++ vals))
           end)
  end.
Definition csvread_vec {V} (k : kind V) (f : option str) (n : Z) (d : str) (nrows : nat) (cols : Z)
  : outcome (nat * Z * result (list V)) :=
  bind (openFile f n d) (fun '(res, r) =>
  match res with
  | Exn => Ok (nrows, cols, Exn)
  | Ret _ =>
      bind (vec_loop (S (length (srest (strm r)))) k r 0 []) (fun '(nr, res) =>
      match res with
      | Exn => Ok (nr, ncols r, Exn)
      | Ret data =>
          if (Z.of_nat (length data) =? Z.of_nat nr * ncols r)%Z
          then Ok (nr, ncols r, Ret data) else UB
      end)
  end).

Section Manager.
Variable X : Type.
Variable kX : kind X.                       (* StrCast<real_type> *)
Variable kI : kind Z.                       (* StrCast<index_type> *)
Variable jk : nat * dbl.
Variable jp ji : nat -> nat.
Variable jx : nat -> dbl.
Variables je jf : nat -> nat.               (* uninitialised tables *)
Variable jb : nat -> Z.

(* The fields of a MeshManager, None for a null pointer: include/MeshManager.hpp:25-33 *)
Record manager := Mgr { gDim : Z; gNV : nat; gNF : Z; gK : nat; gVert : option (list X); gEToV : option (list Z);
  gEToE : option (list nat); gEToF : option (list nat); gBC : option (list Z); gEPM : option (list Z); gVPM : option (list Z) }.
(* src/MeshManager.cpp:57-61 *)
Definition new_manager : manager := Mgr 0 0 0 0 None None None None None None None.

(* the default delimiters: include/CSVFileReader.hpp:449 *)
Definition tab_space : str := ["009"; " "]%char.

(* src/MeshManager.cpp:546-548 *)
Definition readVertices (f : option str) (st : manager) : outcome (result unit * manager) :=
  bind (csvread_vec kX f 0 tab_space (gNV st) (gDim st)) (fun '(nv, dim, res) =>
  let st1 := Mgr dim nv (gNF st) (gK st) (gVert st) (gEToV st) (gEToE st) (gEToF st) (gBC st) (gEPM st) (gVPM st) in
  match res with
  | Exn => Ok (Exn, st1)
  | Ret data => Ok (Ret tt, Mgr dim nv (gNF st) (gK st) (Some data) (gEToV st) (gEToE st) (gEToF st) (gBC st) (gEPM st) (gVPM st))
  end).

(* src/MeshManager.cpp:550-562 *)
Definition readElements (f : option str) (st : manager) : outcome (result unit * manager) :=
  bind (csvread_vec kI f 0 tab_space (gK st) (gNF st)) (fun '(k, nf, res) =>
  match res with
  | Exn => Ok (Exn, Mgr (gDim st) (gNV st) nf k (gVert st) (gEToV st) (gEToE st) (gEToF st) (gBC st) (gEPM st) (gVPM st))
  | Ret data =>
      let n := k * Z.to_nat nf in
      let e := map je (seq 0 n) in let f := map jf (seq 0 n) in let b := map jb (seq 0 n) in
      bind (if (nf =? 3)%Z then
              bind (buildConnectivity jk jp ji jx (gNV st) k 3 data e f) (fun '(E2E, E2F) =>
              bind (buildBCTable k 3 E2E Wall b) (fun bc => Ok (E2E, E2F, bc)))
            else Ok (e, f, b)) (fun '(e', f', b') =>
      Ok (Ret tt, Mgr (gDim st) (gNV st) nf k (gVert st) (Some data) (Some e') (Some f') (Some b') (gEPM st) (gVPM st)))
  end).

(* METIS_PartMeshNodal(&ne, &nn, eptr, eind, ..., &nparts, ..., epart, npart): return code and the two arrays afterwards *)
Variable metis : nat -> nat -> list Z -> list Z -> Z -> list Z -> list Z -> outcome (Z * list Z * list Z).
(* src/MeshManager.cpp:491-544: the return code is only printed *)
Definition partitionMesh (numPartitions : Z) (st : manager) : outcome manager :=
  let eptr := map (fun i => (gNF st * Z.of_nat i)%Z) (seq 0 (S (gK st))) in
  match gEToV st with
  | None => UB
  | Some E2V =>
      bind (metis (gK st) (gNV st) eptr E2V numPartitions (repeat 0%Z (gK st)) (repeat 0%Z (gNV st))) (fun '(_, ep, np) =>
      Ok (Mgr (gDim st) (gNV st) (gNF st) (gK st) (gVert st) (gEToV st) (gEToE st) (gEToF st) (gBC st) (Some ep) (Some np)))
  end.

(* printArray: src/MeshManager.cpp:44-52, with get_Index, include/MeshManager.hpp:66-68: the values printed, row by row *)
Definition print_array {T} (arr : option (list T)) (numRows : nat) (numCols : Z) : outcome (list (list T)) :=
  match arr with
  | None => UB
  | Some a =>
      for_ numRows (fun i out =>
        bind (for_ (Z.to_nat numCols) (fun j row => bind (get a (Z.of_nat j + numCols * Z.of_nat i)) (fun v => Ok (row ++ [v]))) [])
             (fun row => Ok (out ++ [row]))) []
  end.
(* src/MeshManager.cpp:564-570 *)
Definition printVertices (st : manager) : outcome (list (list X)) := print_array (gVert st) (gNV st) (gDim st).
Definition printElements (st : manager) : outcome (list (list Z)) := print_array (gEToV st) (gK st) (gNF st).

(* a history of calls on one object; an exception is caught by the caller *)
Inductive mcall := CVertices (f : option str) | CElements (f : option str) | CPartition (n : Z).
Definition do_call (c : mcall) (st : manager) : outcome (result unit * manager) :=
  match c with
  | CVertices f => readVertices f st
  | CElements f => readElements f st
  | CPartition n => bind (partitionMesh n st) (fun st' => Ok (Ret tt, st'))
  end.
Fixpoint mrun (cs : list mcall) (st : manager) : outcome (list (result unit) * manager) :=
  match cs with
  | [] => Ok ([], st)
  | c :: t => bind (do_call c st) (fun '(r, st') => bind (mrun t st') (fun '(rs, st'') => Ok (r :: rs, st'')))
  end.
End Manager.
