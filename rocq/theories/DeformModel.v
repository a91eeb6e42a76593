(* DeformModel.v - meshhelpers/curved.py: adjustStraightEdges and deformAndBlendElements. Indices are not negative. Arrays
   whose lengths should agree and do not are UB (numpy raises or stretches an array of length one). Sums of np.dot are
   taken from the left. The splines (scipy.interpolate.splev) are functions sx, sy; np.hypot is a function. *)
From Coq Require Import ZArith List Bool Arith.
From Verif Require Import Base Loops Num Line1DModel JacobiModel Nodes1DModel PeriodicModel.
Import ListNotations.
Local Open Scope nat_scope.

Section Deform.
Context {T : Type} (A : arith T).
Variable hypot : T -> T -> T.                              (* np.hypot *)
Variable inverse : mat T -> mat T -> outcome (mat T).      (* DenseMatrixInverter::computeInverse *)
Variables (tiny tol : T).                                  (* the literals 1.0e-8 and 1.e-7 *)

(* np.argmin of an array without NaN: the first of the smallest entries; b is the smallest so far, at place j *)
Fixpoint argmin_from (i j : nat) (b : T) (l : list T) : nat * T :=
  match l with [] => (j, b) | a :: r => if flt A a b then argmin_from (S i) i a r else argmin_from (S i) j b r end.
(* an empty array raises ValueError *)
Definition argmin (l : list T) : outcome (nat * T) := match l with [] => Throw | a :: r => Ok (argmin_from 1 0 a r) end.

(* curved.py:19-23: the nearest sample and its distance *)
Definition nearest (xS yS : list T) (row : list T) : outcome (nat * T) :=
  bind (at_ row 0) (fun px => bind (at_ row 1) (fun py =>
  argmin (map (fun q => hypot (fsub A (fst q) px) (fsub A (snd q) py)) (combine xS yS)))).
(* curved.py:39-40 and 42-43: Verts[v, 0] = x; Verts[v, 1] = y *)
Definition set_row (row : list T) (x y : T) : list T := upd (upd row 0 x) 1 y.
Definition put_vertex (Verts : list (list T)) (v : nat) (x y : T) : outcome (list (list T)) :=
  bind (at_ Verts v) (fun row => Ok (upd Verts v (set_row row x y))).

(* curved.py:9-46, one boundary face; the state is (Verts, modifiedVerts, curvedFaces) *)
Definition adjust_face (nFaces : nat) (EToV : list (list nat)) (xS yS : list T) (e : nat * nat)
    (st : list (list T) * list T * list (nat * nat)) : outcome (list (list T) * list T * list (nat * nat)) :=
  let '(Verts, modified, curved) := st in
  bind (at_ EToV (fst e)) (fun ends =>
  bind (at_ ends (snd e)) (fun v1 => bind (at_ ends (S (snd e) mod nFaces)) (fun v2 =>
  bind (at_ Verts v1) (fun p1 => bind (at_ Verts v2) (fun p2 =>
  bind (nearest xS yS p1) (fun '(i1, d1) => bind (nearest xS yS p2) (fun '(i2, d2) =>
  if flt A (fofZ A 200) d1 || flt A (fofZ A 200) d2 then Ok st
  else
    bind (at_ xS i1) (fun x1 => bind (at_ yS i1) (fun y1 => bind (at_ xS i2) (fun x2 => bind (at_ yS i2) (fun y2 =>
    bind (put_vertex Verts v1 x1 y1) (fun V1 => bind (put_vertex V1 v2 x2 y2) (fun V2 =>
    Ok (V2, upd (upd modified v1 (fofZ A 1)) v2 (fofZ A 1), curved ++ [e])))))))))))))).
Fixpoint adjust_faces (nFaces : nat) (EToV : list (list nat)) (xS yS : list T) (faces : list (nat * nat))
    (st : list (list T) * list T * list (nat * nat)) : outcome (list (list T) * list T * list (nat * nat)) :=
  match faces with [] => Ok st | e :: r => bind (adjust_face nFaces EToV xS yS e st) (adjust_faces nFaces EToV xS yS r) end.
(* adjustStraightEdges: curved.py:5-48. nFaces is ctx.numFaces (x % 0 raises); faces are the entries bcFace[0]. The array
   Verts is changed in place and returned. *)
Definition adjustStraightEdges (nFaces : nat) (Verts : list (list T)) (EToV : list (list nat)) (faces : list (nat * nat)) (xS yS : list T)
    : outcome (list (list T) * list T * list (nat * nat)) :=
  require (length xS =? length yS)
  (if (nFaces =? 0) && negb (length faces =? 0) then Throw else
   adjust_faces nFaces EToV xS yS faces (Verts, repeat (fofZ A 0) (length Verts), [])).

(* np.where(np.sqrt((px-xSpline)**2 + (py-ySpline)**2) < 1.0e-8)[0]: curved.py:77-81 *)
Definition hits (xS yS : list T) (px py : T) : list nat :=
  map fst (filter (fun e => let '(dx, dy) := (fsub A px (fst (snd e)), fsub A py (snd (snd e))) in
                            flt A (fsqrt A (fadd A (fmul A dx dx) (fmul A dy dy))) tiny)
                  (combine (seq 0 (length xS)) (combine xS yS))).

(* The arrays ctx.r, ctx.s, the columns of ctx.Fmask, and how ctx hands out x and y: as arrays of its own (shared), or
   as DGContext2D does, a new copy at every access (src/DGContext2D.cpp:45-57, pyblitzdg.cpp: add_property "x", "y"). *)
Record face_ctx := FaceCtx { cc_r : list T; cc_s : list T; cc_mask : list (list nat); cc_shared : bool }.
(* the element's vertices at the ends of side f: curved.py:59-70 (f is one of 0, 1, 2: ctx.Fmask has three columns) *)
Definition side_vertices (ends : list nat) (f : nat) : outcome (nat * nat) :=
  match f with
  | 0 => bind (at_ ends 0) (fun a => bind (at_ ends 1) (fun b => Ok (a, b)))
  | 1 => bind (at_ ends 1) (fun a => bind (at_ ends 2) (fun b => Ok (a, b)))
  | 2 => bind (at_ ends 0) (fun a => bind (at_ ends 2) (fun b => Ok (a, b)))
  | _ => Throw
  end.
Definition along (c : face_ctx) (f : nat) : list T := if f =? 0 then cc_r c else cc_s c.
(* x[i, k], IndexError outside *)
Definition entry (x : mat T) (k i : nat) : outcome T := if inb x i k then Ok (ment x i k) else Throw.
(* 0.5*t1*(1-fr) + 0.5*t2*(1+fr): curved.py:100 *)
Definition part_way (t1 t2 q : T) : T :=
  let half := fdiv A (fofZ A 1) (fofZ A 2) in
  fadd A (fmul A (fmul A half t1) (fsub A (fofZ A 1) q)) (fmul A (fmul A half t2) (fadd A (fofZ A 1) q)).
(* curved.py:126-128 *)
Definition blend (f : nat) (r s vr : T) : T :=
  match f with
  | 1 => fdiv A (fadd A r (fofZ A 1)) (fsub A (fofZ A 1) vr)
  | _ => fdiv A (fopp A (fadd A r s)) (fsub A (fofZ A 1) vr)
  end.
(* curved.py:112-119: Vvol * (Vfinv * fd) at volume node n *)
Definition spread (N : nat) (vr : list T) (Vfinv : mat T) (fd : list T) (n : nat) : T :=
  fsum A (S N) (fun j => fmul A (ment (vandermonde1D A vr (S N)) n j)
                                (fsum A (S N) (fun i => fmul A (ment Vfinv j i) (nth i fd (fofZ A 0))))).
(* ctx.x[ids, k] += blend*vdx[ids]: curved.py:124-133. What is added to a copy is lost. *)
Definition add_to (c : face_ctx) (f k : nat) (vd : nat -> T) (x : mat T) : mat T :=
  if cc_shared c then
    mkmat (mrows x) (mcols x) (fun n e =>
      let vr := nth n (along c f) (fofZ A 0) in
      if (e =? k) && (n <? length (along c f)) && flt A tol (fabs A (fsub A (fofZ A 1) vr))
      then fadd A (ment x n e) (fmul A (blend f (nth n (cc_r c) (fofZ A 0)) (nth n (cc_s c) (fofZ A 0)) vr) (vd n))
      else ment x n e)
  else x.
Definition in_step (c : face_ctx) (x : mat T) : bool := (length (cc_s c) =? length (cc_r c)) && (mrows x =? length (cc_r c)).

(* curved.py:53-133, one listed face. np.where gives a tuple of one array, so the tests of its length never fail. The two
   index arrays are compared with ==: one index each is needed, anything else raises here or where t1, t2 are combined
   with fr. Equal indices end the step. *)
Definition deform_face (Verts : list (list T)) (EToV : list (list nat)) (xS yS ss : list T) (sx sy : T -> T) (c : face_ctx) (N : nat)
    (e : nat * nat) (xy : mat T * mat T) : outcome (mat T * mat T) :=
  let '(k, f) := e in let '(x, y) := xy in
  bind (at_ EToV k) (fun ends => bind (side_vertices ends f) (fun '(v1, v2) =>
  bind (at_ (cc_mask c) f) (fun fm => bind (each_entry (at_ (along c f)) fm) (fun fr =>
  bind (at_ Verts v1) (fun p1 => bind (at_ Verts v2) (fun p2 =>
  bind (at_ p1 0) (fun x1 => bind (at_ p1 1) (fun y1 => bind (at_ p2 0) (fun x2 => bind (at_ p2 1) (fun y2 =>
  match hits xS yS x1 y1, hits xS yS x2 y2 with
  | [i1], [i2] =>
    if i1 =? i2 then Ok xy else
    bind (at_ ss i1) (fun t1 => bind (at_ ss i2) (fun t2 =>
    let tLGL := map (part_way t1 t2) fr in
    bind (each_entry (entry x k) fm) (fun xf => bind (each_entry (entry y k) fm) (fun yf =>
    let fdx := map (fun q => fsub A (fst q) (snd q)) (combine (map sx tLGL) xf) in
    let fdy := map (fun q => fsub A (fst q) (snd q)) (combine (map sy tLGL) yf) in
    require ((length fr =? S N) && in_step c x && in_step c y)
    (bind (inverse (vandermonde1D A fr (S N)) (mzero A (S N) (S N))) (fun Vfinv =>
     Ok (add_to c f k (spread N (along c f) Vfinv fdx) x, add_to c f k (spread N (along c f) Vfinv fdy) y)))))))
  | _, _ => Throw
  end)))))))))).
Fixpoint deform_faces (Verts : list (list T)) (EToV : list (list nat)) (xS yS ss : list T) (sx sy : T -> T) (c : face_ctx) (N : nat)
    (faces : list (nat * nat)) (xy : mat T * mat T) : outcome (mat T * mat T) :=
  match faces with
  | [] => Ok xy
  | e :: r => bind (deform_face Verts EToV xS yS ss sx sy c N e xy) (deform_faces Verts EToV xS yS ss sx sy c N r)
  end.
(* deformAndBlendElements: curved.py:50-135. x, y are what ctx.x, ctx.y give at the start; the result is what they give at
   the end, and the elements of the listed faces. *)
Definition deformAndBlend (Verts : list (list T)) (EToV : list (list nat)) (faces : list (nat * nat)) (xS yS ss : list T) (sx sy : T -> T)
    (c : face_ctx) (x y : mat T) (N : nat) : outcome (mat T * mat T * list nat) :=
  require (length xS =? length yS)
  (bind (deform_faces Verts EToV xS yS ss sx sy c N faces (x, y)) (fun '(x', y') => Ok (x', y', map fst faces))).
End Deform.
