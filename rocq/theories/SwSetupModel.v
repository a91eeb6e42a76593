(* SwSetupModel.v - what src/sw2d/main.cpp does before its time loop: the depth file, the bed slopes, the open boundary
   sides and the sponge layer. *)
From Coq Require Import ZArith List Bool Ascii.
From Verif Require Import Base Loops Num BlitzModel Maps2DModel CsvModel Nodes1DModel RKModel Line1DModel SwModel SwStepModel.
Import ListNotations.

Section SwSetup.
Context {T : Type} (A : arith T).
Variable hyp : T -> T -> T.                                        (* std::hypot *)
Variable junkv : nat -> T.                                         (* uninitialised vector storage *)
Local Notation num := (fun z => fofZ A z).

(* while (reader.parseRowValues(val)) { depthData(count) = val; ++count; }: src/sw2d/main.cpp:498-501. conv is the
   conversion of a field to real_type. Every turn of the loop extracts at least one character. *)
Fixpoint depth_loop (fuel : nat) (conv : kind T) (r : reader) (count : nat) (data : list T) : outcome (list T) :=
  match fuel with
  | O => UB
  | S n => bind (parseRowValues [conv] r) (fun '((vals, res), r') =>
           match res, vals with
           | Exn, _ => Throw
           | Ret false, _ => Ok data
           | Ret true, [v] => bind (setn data count v) (fun data => depth_loop n conv r' (S count) data)
           | Ret true, _ => UB
           end)
  end.
(* if (val < 150.0) val = 150.0: 508-509 *)
Definition at_least (floor v : T) : T := if flt A v floor then floor else v.
(* H(n,k) = val; ++count: 506-512 *)
Definition depth_step (data : list T) (k n : nat) (st : mat T * nat) : outcome (mat T * nat) :=
  let (H, count) := st in
  bind (getn data count) (fun v => bind (mset H n k (at_least (num 150%Z) v)) (fun H => Ok (H, S count))).
(* readDepthData: 486-515; f is the text found under the file name. The reader is constructed with its defaults:
   no header, delimiters tab and blank (include/CSVFileReader.hpp:185). *)
Definition readDepthData (conv : kind T) (f : option str) (H : mat T) : outcome (mat T) :=
  bind (openFile f 0 ["009"; " "]%char) (fun '(res, r) =>
  match res with
  | Exn => Throw
  | Ret _ =>
    bind (depth_loop (S (length (srest (strm r)))) conv r 0 (repeat (num 0%Z) (mrows H * mcols H))) (fun data =>
    bind (for_ (mcols H) (fun k => for_ (mrows H) (fun n => depth_step data k n)) (H, 0)) (fun st => Ok (fst st)))
  end).

(* Hx = rx*(Dr H) + sx*(Ds H), Hy = ry*(Dr H) + sy*(Ds H): 129-130 *)
Definition bed_slopes (d : dg2d (T := T)) (Np K : nat) (H : mat T) : mat T * mat T :=
  let prod s D := scaled_product A s D H Np Np K in
  (mzip (fadd A) (prod (d_rx d) (d_Dr d)) (prod (d_sx d) (d_Ds d)),
   mzip (fadd A) (prod (d_ry d) (d_Dr d)) (prod (d_sy d) (d_Ds d))).
(* and the two filter statements: 132-133 *)
Definition filtered_slopes (F : mat T) (s : mat T * mat T) : mat T * mat T :=
  (filter_in_place A F (fst s), filter_in_place A F (snd s)).

(* The open boundary sides: 161-172. opn v tells whether vertex v is in obcNodes; BCTag::Out is 2. *)
Definition open_element (opn : nat -> bool) (EToV : list nat) (k : nat) (bcType : list Z) : outcome (list Z) :=
  bind (getn EToV (3 * k)) (fun v1 => bind (getn EToV (3 * k + 1)) (fun v2 => bind (getn EToV (3 * k + 2)) (fun v3 =>
  bind (if opn v1 && opn v2 then setn bcType (3 * k) 2%Z else Ok bcType) (fun bcType =>
  bind (if opn v2 && opn v3 then setn bcType (3 * k + 1) 2%Z else Ok bcType) (fun bcType =>
  if opn v3 && opn v1 then setn bcType (3 * k + 2) 2%Z else Ok bcType))))).
Definition tag_open (opn : nat -> bool) (EToV : list nat) (K : nat) (bcType : list Z) : outcome (list Z) :=
  for_ K (open_element opn EToV) bcType.
(* the tables the driver runs with: the boundary table is shared with the provisioner, which has added the new tags to
   the ones of the mesh: 174, include/DGContext2D.hpp:72-79 *)
Definition with_bc (d : dg2d (T := T)) (bc : hmap) : dg2d (T := T) :=
  Dg2d (d_Dr d) (d_Ds d) (d_Lift d) (d_Fscale d) (d_nx d) (d_ny d) (d_rx d) (d_ry d) (d_sx d) (d_sy d) (d_vmapM d) (d_vmapP d) bc.
Definition retagged (junkn : nat -> nat) (opn : nat -> bool) (EToV : list nat) (NF Nfp K : nat) (bcType : list Z) (d : dg2d (T := T)) : outcome (dg2d (T := T)) :=
  bind (tag_open opn EToV K bcType) (fun bc' => bind (buildBCHash junkn NF Nfp K bc' (d_bc d)) (fun bc => Ok (with_bc d bc))).

(* buildSpongeCoeff: 517-553. far is 1.0e12. *)
Definition far : T := num (10 ^ 12)%Z.
Definition closer (vM : list nat) (x y : list T) (x0 y0 rad : T) (o : nat) (best : T) : outcome T :=
  bind (getn vM o) (fun v => bind (getn x v) (fun x1 => bind (getn y v) (fun y1 =>
  let dist := hyp (fsub A x0 x1) (fsub A y0 y1) in
  Ok (if flt A dist rad && flt A dist best then dist else best)))).
Definition sponge_node (vM : list nat) (mapO : list nat) (X Y : mat T) (x y : list T) (strength rad : T) (k n : nat) (C : mat T) : outcome (mat T) :=
  bind (mget X n k) (fun x0 => bind (mget Y n k) (fun y0 =>
  bind (each (closer vM x y x0 y0 rad) mapO far) (fun best =>
  if flt A best far then mset C n k (fmul A strength (fsub A (num 1%Z) (fdiv A best rad))) else Ok C))).
Definition sponge_coeff (d : dg2d (T := T)) (NF Nfp Np K : nat) (X Y : mat T) (strength rad : T) (C : mat T) : outcome (mat T) :=
  match hfind (d_bc d) 2 with
  | None => Throw                                                  (* bcHash.at(BCTag::Out) *)
  | Some mapO =>
    bind (fullToVector X (vfresh junkv (NF * Nfp * K)) false) (fun x =>
    bind (fullToVector Y (vfresh junkv (NF * Nfp * K)) false) (fun y =>
    for_ K (fun k => for_ Np (fun n => sponge_node (d_vmapM d) mapO X Y x y strength rad k n)) C))
  end.
End SwSetup.
