(* ReconModel.v - surfaceReconstruction of swhelpers/limiters.py:38-80. The four arrays have one entry per face node; arrays of
   different lengths are UB here (numpy raises, or stretches an array of length one). *)
From Coq Require Import ZArith List Bool Arith.
From Verif Require Import Base Loops Num RKModel Line1DModel SwModel.
Import ListNotations.

Section Recon.
Context {T : Type} (A : arith T).
Variable milli : T.                                              (* the literal 1e-3 *)
Local Notation half := (fdiv A (fofZ A 1) (fofZ A 2)).           (* the literal 0.5 *)

(* limiters.py:43-61: the surface beyond one node. Where the correction is positive the caller's etaP is changed in place. *)
Definition raised (etaM hM etaP hP : T) : T :=
  let zM := fsub A etaM hM in let zP := fsub A etaP hP in
  let one := fofZ A 1 in
  let dz := fsub A (fsub A zP (fmul A half (minmod A (fsub A zP zM) (fmul A milli one)))) (fadd A zM (fmul A half (minmod A (fsub A zM zP) (fmul A (fopp A milli) one)))) in
  let corr := fsub A (fsub A zM zP) dz in
  let corr := if flt A (fsub A etaM etaP) corr then fsub A etaM etaP else corr in
  if fle A corr (fofZ A 0) then etaP else fadd A etaP corr.
(* limiters.py:64-80: the depths on both sides above the higher bed, at least 1e-3; etaP is the corrected one. maxz is zM under
   another name, but entry i of it is written only after it was read. *)
Definition higher_bed (zM zP : T) : T := if flt A zM zP then zP else zM.
Definition at_least (d : T) : T := if fle A d milli then milli else d.
Definition recon_node (etaM hM etaP hP : T) : T * T * T :=
  let etaP' := raised etaM hM etaP hP in
  let z := higher_bed (fsub A etaM hM) (fsub A etaP' hP) in
  (at_least (fsub A etaM z), at_least (fsub A etaP' z), etaP').

(* the returned hM and hP, and what etaP holds afterwards *)
Definition surface_reconstruction (etaM hM etaP hP : list T) : outcome (list T * list T * list T) :=
  let n := length etaM in
  require ((length hM =? n)%nat && (length etaP =? n)%nat && (length hP =? n)%nat)
  (let at_ l i := nth i l (fofn A 0) in
   let r := map (fun i => recon_node (at_ etaM i) (at_ hM i) (at_ etaP i) (at_ hP i)) (seq 0 n) in
   Ok (map (fun t => fst (fst t)) r, map (fun t => snd (fst t)) r, map snd r)).
End Recon.
