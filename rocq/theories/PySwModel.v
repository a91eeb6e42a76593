(* PySwModel.v - sw2dComputeRHS of swhelpers/rhs.py:178-312: the shallow water right-hand side with a tracer in strong
   form. Whole-array expressions of numpy are entrywise; arrays that do not conform are UB here (numpy raises, or stretches
   an array of length one). np.float, which new versions of numpy no longer have (rhs.py:262), is taken to exist. *)
From Coq Require Import ZArith List Bool.
From Verif Require Import Base Loops Num Maps2DModel Nodes1DModel RKModel Line1DModel SwModel CurvedSwModel.
Import ListNotations.

Section PySw.
Context {T : Type} (A : arith T).
Variable hypot : T -> T -> T.

(* rhs.py:212-233: velocities at the faces, and the discharges formed again from them *)
Definition transport (q : four (list T)) : four (list T) :=
  let again h hu := fmul A h (fdiv A hu h) in
  Four (q_h q) (zipw again (q_h q) (q_hu q)) (zipw again (q_h q) (q_hv q)) (q_hN q).
(* rhs.py:266-269: the jump vector of component c; lam is spdMax *)
Definition strong_jumps (g : T) (c : nat) (nx ny lam : list T) (qM qP : four (list T)) : list T :=
  jumps A nx ny (fluxes_vec A (flux_F A g c) qM) (fluxes_vec A (flux_F A g c) qP) (fluxes_vec A (flux_G A g c) qM) (fluxes_vec A (flux_G A g c) qP)
    lam (zipw (fsub A) (pick c qM) (pick c qP)).

(* rhs.py:178-312. The index maps are arguments; those of d are not used. H is used for nothing but eta, which is not used. *)
Definition py_rhs (d : dg2d (T := T)) (NF Nfp Np K : nat) (vmapM vmapP : list nat) (g CD f : T) (zx zy : mat T) (q : four (mat T)) : outcome (four (mat T)) :=
  let nf := (NF * Nfp * K)%nat in
  require (dg_conform d NF Nfp Np K && four_conform q Np K && conform zx Np K && conform zy Np K && (length vmapM =? nf)%nat && (length vmapP =? nf)%nat)
  match hfind (d_bc d) 3 with
  | None => Throw                                                (* BCmap[3] *)
  | Some mapW =>
    let nx := flattenF (d_nx d) in let ny := flattenF (d_ny d) in
    let flat := fmap4 flattenF q in
    bind (bind4 (fun v => take A v vmapM) flat) (fun qM => bind (bind4 (fun v => take A v vmapP) flat) (fun qP =>
    let qM := transport qM in let qP := transport qP in
    bind (reflect A mapW nx ny qM qP) (fun qP =>
    let spd := zipw (fmax A) (speeds_of A g qM) (speeds_of A g qP) in
    bind (side_max A Nfp spd) (fun lam =>
    let component c :=
      bind (reshapeF A (Nfp * NF) K (strong_jumps g c nx ny lam qM qP)) (fun dF =>
      Ok (strong_form A d Np (NF * Nfp) K (fluxes_mat (flux_F A g c) q) (fluxes_mat (flux_G A g c) q) dF)) in
    bind (component 0) (fun R0 => bind (component 1) (fun R1 => bind (component 2) (fun R2 => bind (component 3) (fun R3 =>
    Ok (add_sources A hypot g CD f q zx zy (Four R0 R1 R2 R3))))))))))
  end.
End PySw.
