(* SwModel.v - the shallow water right-hand sides: computeRHS of src/sw2d-simple/main.cpp and src/sw2d/main.cpp,
   and swhelpers/flux.py, swhelpers/rhs.py (sw2dComputeRHS) and swhelpers/limiters.py. The tables of the
   discretisation are one record; a reference that aliases an array (F1M = huM, F3M = G2M, ...) is the array itself.
   Whole-array expressions of blitz and numpy are entrywise; arrays that do not conform are UB here. *)
From Coq Require Import ZArith List Bool.
From Verif Require Import Base Loops Num BlitzModel Maps2DModel Nodes1DModel RKModel Line1DModel.
Import ListNotations.

Section Sw.
Context {T : Type} (A : arith T).
Variable junk : nat -> nat -> T.                                   (* uninitialised matrix storage *)
Variable junkv : nat -> T.                                         (* uninitialised vector storage *)
Variable lowest : T.                                               (* where a blitz max reduction starts *)

(* include/DGContext2D.hpp, TriangleNodesProvisioner getters *)
Record dg2d := Dg2d {
  d_Dr : mat T; d_Ds : mat T; d_Lift : mat T; d_Fscale : mat T; d_nx : mat T; d_ny : mat T;
  d_rx : mat T; d_ry : mat T; d_sx : mat T; d_sy : mat T;
  d_vmapM : list nat; d_vmapP : list nat; d_bc : hmap }.
Definition dg_conform (d : dg2d) (NF Nfp Np K : nat) : bool :=
  conform (d_Dr d) Np Np && conform (d_Ds d) Np Np && conform (d_Lift d) Np (NF * Nfp) &&
  conform (d_Fscale d) (NF * Nfp) K && conform (d_nx d) (NF * Nfp) K && conform (d_ny d) (NF * Nfp) K &&
  conform (d_rx d) Np K && conform (d_ry d) Np K && conform (d_sx d) Np K && conform (d_sy d) Np K.

Definition vfresh (n : nat) : list T := map junkv (seq 0 n).
(* entrywise expressions of three and four arrays *)
Definition zipw3 (f : T -> T -> T -> T) (x y z : list T) : list T :=
  map (fun p => f (fst (fst p)) (snd (fst p)) (snd p)) (combine (combine x y) z).
Definition zipw4 (f : T -> T -> T -> T -> T) (x y z w : list T) : list T :=
  map (fun p => f (fst (fst (fst p))) (snd (fst (fst p))) (snd (fst p)) (snd p)) (combine (combine (combine x y) z) w).
Definition mzip3 (f : T -> T -> T -> T) (a b c : mat T) : mat T :=
  mkmat (mrows a) (mcols a) (fun i j => f (ment a i j) (ment b i j) (ment c i j)).
Definition half : T := fhalf A.
Definition two : T := fofn A 2.

(* (hu*hu)/h + 0.5*g*h*h, (hu*hv)/h: src/sw2d-simple/main.cpp:267-268, src/sw2d/main.cpp:377-378; the third flux
   is the first with hv for hu. *)
Definition press (g h q : T) : T := fadd A (fdiv A (fmul A q q) h) (fmul A (fmul A (fmul A half g) h) h).
Definition convx (h hu hv : T) : T := fdiv A (fmul A hu hv) h.
(* sqrt(u*u + v*v) + sqrt(g*h) with u = hu/h, v = hv/h: src/sw2d-simple/main.cpp:289-296, src/sw2d/main.cpp:399-406 *)
Definition speed (g h hu hv : T) : T :=
  let u := fdiv A hu h in let v := fdiv A hv h in
  fadd A (fsqrt A (fadd A (fmul A u u) (fmul A v v))) (fsqrt A (fmul A g h)).
Definition fmax (a b : T) : T := if flt A a b then b else a.
(* 0.5*((FM-FP)*nx + (GM-GP)*ny - spd*d): src/sw2d-simple/main.cpp:314-316 *)
Definition jump (nx ny fm fp gm gp spd d : T) : T :=
  fmul A half (fsub A (fadd A (fmul A (fsub A fm fp) nx) (fmul A (fsub A gm gp) ny)) (fmul A spd d)).
Definition jumps (nx ny FM FP GM GP spd d : list T) : list T :=
  zipw (fmul A) (map (fun _ => half) nx)
    (zipw (fsub A) (zipw (fadd A) (zipw (fmul A) (zipw (fsub A) FM FP) nx) (zipw (fmul A) (zipw (fsub A) GM GP) ny))
                   (zipw (fmul A) spd d)).

(* the wall loop: src/sw2d-simple/main.cpp:252-256; with depth, src/sw2d/main.cpp:340-345 *)
Definition wall_step (depth : bool) (nx ny hM huM hvM : list T) (w : nat) (st : list T * list T * list T) : outcome (list T * list T * list T) :=
  let '(hP, huP, hvP) := st in
  bind (getn nx w) (fun n1 => bind (getn ny w) (fun n2 => bind (getn hM w) (fun h => bind (getn huM w) (fun q1 => bind (getn hvM w) (fun q2 =>
  let un := fadd A (fmul A q1 n1) (fmul A q2 n2) in
  bind (if depth then setn hP w h else Ok hP) (fun hP =>
  bind (setn huP w (fsub A q1 (fmul A (fmul A two n1) un))) (fun huP =>
  bind (setn hvP w (fsub A q2 (fmul A (fmul A two n2) un))) (fun hvP => Ok (hP, huP, hvP))))))))).
Fixpoint each {S} (f : nat -> S -> outcome S) (l : list nat) (s : S) : outcome S :=
  match l with [] => Ok s | w :: l => bind (f w s) (each f l) end.

(* the flux divergence and the lifted face term: src/sw2d-simple/main.cpp:329-355, src/sw2d/main.cpp:428-460 *)
Definition strong_form (d : dg2d) (Np NFp K : nat) (F G dFlux : mat T) : mat T :=
  let prod s D X := scaled_product A s D X Np Np K in
  let R1 := mmap (fopp A) (mzip (fadd A) (prod (d_rx d) (d_Dr d) F) (prod (d_sx d) (d_Ds d) F)) in
  let R2 := mzip (fadd A) R1 (mmap (fopp A) (mzip (fadd A) (prod (d_ry d) (d_Dr d) G) (prod (d_sy d) (d_Ds d) G))) in
  add_product A R2 (d_Lift d) (mzip (fmul A) (d_Fscale d) dFlux) NFp.

(* (1 + 0*ii)*(blitz::max(lambda(kk, jj), kk)): src/sw2d-simple/main.cpp:306 *)
Definition column_max (m : mat T) : mat T :=
  mkmat (mrows m) (mcols m) (fun _ j => fmul A (fofn A 1) (fold_left (fun a i => fmax a (ment m i j)) (seq 0 (mrows m)) lowest)).

Definition traces (d : dg2d) (Np K nf : nat) (q : mat T) : outcome (list T * list T) :=
  bind (fullToVector q (vfresh (Np * K)) false) (fun v =>
  bind (applyIndexMap v (d_vmapM d) (vfresh nf)) (fun m => bind (applyIndexMap v (d_vmapP d) (vfresh nf)) (fun p => Ok (m, p)))).

Definition state := (mat T * mat T * mat T)%type.
Definition state_conform (q : state) (Np K : nat) : bool := let '(h, hu, hv) := q in conform h Np K && conform hu Np K && conform hv Np K.

(* src/sw2d-simple/main.cpp:181-356 computeRHS *)
Definition sw_simple_rhs (d : dg2d) (NF Nfp Np K : nat) (g : T) (q : state) : outcome state :=
  let '(h, hu, hv) := q in
  let nf := (NF * Nfp * K)%nat in
  require (dg_conform d NF Nfp Np K && state_conform q Np K)
  match hfind (d_bc d) 3 with
  | None => Throw                                                  (* bcHash.at(3) *)
  | Some mapW =>
    bind (fullToVector (d_nx d) (repeat (fofn A 0) nf) false) (fun nx =>
    bind (fullToVector (d_ny d) (repeat (fofn A 0) nf) false) (fun ny =>
    bind (traces d Np K nf h) (fun '(hM, hP) => bind (traces d Np K nf hu) (fun '(huM, huP) => bind (traces d Np K nf hv) (fun '(hvM, hvP) =>
    bind (each (wall_step false nx ny hM huM hvM) mapW (hP, huP, hvP)) (fun '(hP, huP, hvP) =>
    let dh := zipw (fsub A) hM hP in let dhu := zipw (fsub A) huM huP in let dhv := zipw (fsub A) hvM hvP in
    let F2M := zipw (press g) hM huM in let G2M := zipw3 convx hM huM hvM in let G3M := zipw (press g) hM hvM in
    let F2P := zipw (press g) hP huP in let G2P := zipw3 convx hP huP hvP in let G3P := zipw (press g) hP hvP in
    let F2 := mzip (press g) h hu in let G2 := mzip3 convx h hu hv in let G3 := mzip (press g) h hv in
    let spd := zipw fmax (zipw3 (speed g) hM huM hvM) (zipw3 (speed g) hP huP hvP) in
    bind (vectorToFull spd (mkmat Nfp (NF * K) junk) false) (fun lambda =>
    bind (fullToVector (column_max lambda) spd false) (fun spdMax =>
    bind (vectorToFull (jumps nx ny huM huP hvM hvP spdMax dh) (mkmat (NF * Nfp) K junk) false) (fun d1 =>
    bind (vectorToFull (jumps nx ny F2M F2P G2M G2P spdMax dhu) (mkmat (NF * Nfp) K junk) false) (fun d2 =>
    bind (vectorToFull (jumps nx ny G2M G2P G3M G3P spdMax dhv) (mkmat (NF * Nfp) K junk) false) (fun d3 =>
    Ok (strong_form d Np (NF * Nfp) K hu hv d1, strong_form d Np (NF * Nfp) K F2 G2 d2, strong_form d Np (NF * Nfp) K G2 G3 d3))))))))))))
  end.

(* --- src/sw2d/main.cpp --- *)
(* the open boundary: 348-353; tide is amp_tide*cos(om_tide*t)*0.5*(tanh(0.15/3600*(t-T_tide))+1) *)
Definition open_step (tide : T) (HM huM hvM : list T) (o : nat) (st : list T * list T * list T) : outcome (list T * list T * list T) :=
  let '(hP, huP, hvP) := st in
  bind (getn huM o) (fun q1 => bind (setn huP o q1) (fun huP => bind (getn hvM o) (fun q2 => bind (setn hvP o q2) (fun hvP =>
  bind (getn HM o) (fun h => bind (setn hP o (fadd A h tide)) (fun hP => Ok (hP, huP, hvP))))))).
(* std::max(0.0, h + b - std::max(bP, bM)): 362-363 *)
Definition star (h b bP bM : T) : T := fmax (fofn A 0) (fsub A (fadd A h b) (fmax bP bM)).
(* 415-416: the second and third jump carry a further difference; hm and hs are hM and hMstar *)
Definition balance (g hm hs n : T) : T :=
  fmul A (fsub A (fmul A (fmul A (fmul A half g) hm) hm) (fmul A (fmul A (fmul A half g) hs) hs)) n.
Definition jumps' (nx ny FM FP GM GP spd d bal : list T) : list T :=
  zipw (fmul A) (map (fun _ => half) nx)
    (zipw (fsub A) (zipw (fsub A) (zipw (fadd A) (zipw (fmul A) (zipw (fsub A) FM FP) nx) (zipw (fmul A) (zipw (fsub A) GM GP) ny))
                   (zipw (fmul A) spd d)) bal).
(* the source terms: 462-483, in order *)
Definition sw_source_x (g CD f h hu hv Hx rhs : T) : T :=
  let u := fdiv A hu h in let v := fdiv A hv h in
  let nu := fsqrt A (fadd A (fmul A u u) (fmul A v v)) in
  fadd A (fadd A (fadd A rhs (fmul A (fmul A g h) Hx)) (fmul A (fmul A (fopp A CD) u) nu)) (fmul A f hv).
Definition sw_source_y (g CD f h hu hv Hy rhs : T) : T :=
  let u := fdiv A hu h in let v := fdiv A hv h in
  let nu := fsqrt A (fadd A (fmul A u u) (fmul A v v)) in
  fadd A (fadd A (fadd A rhs (fmul A (fmul A g h) Hy)) (fmul A (fmul A (fopp A CD) v) nu)) (fmul A (fopp A f) hu).
Definition with_source (s : T -> T -> T -> T -> T -> T) (h hu hv H rhs : mat T) : mat T :=
  mkmat (mrows rhs) (mcols rhs) (fun i j => s (ment h i j) (ment hu i j) (ment hv i j) (ment H i j) (ment rhs i j)).

(* src/sw2d/main.cpp:279-484 computeRHS. hM and hP are overwritten by the star values before huM/hM is formed (366-368). *)
Definition sw_rhs (d : dg2d) (NF Nfp Np K : nat) (g CD f tide : T) (H Hx Hy : mat T) (q : state) : outcome state :=
  let '(h, hu, hv) := q in
  let nf := (NF * Nfp * K)%nat in
  require (dg_conform d NF Nfp Np K && state_conform q Np K && state_conform (H, Hx, Hy) Np K)
  match hfind (d_bc d) 3, hfind (d_bc d) 2 with
  | Some mapW, Some mapO =>
    bind (fullToVector (d_nx d) (repeat (fofn A 0) nf) false) (fun nx =>
    bind (fullToVector (d_ny d) (repeat (fofn A 0) nf) false) (fun ny =>
    bind (traces d Np K nf h) (fun '(hM, hP) => bind (traces d Np K nf hu) (fun '(huM, huP) => bind (traces d Np K nf hv) (fun '(hvM, hvP) =>
    bind (traces d Np K nf H) (fun '(HM, HP) =>
    bind (each (wall_step true nx ny hM huM hvM) mapW (hP, huP, hvP)) (fun '(hP, huP, hvP) =>
    bind (each (open_step tide HM huM hvM) mapO (hP, huP, hvP)) (fun '(hP, huP, hvP) =>
    let bM := map (fopp A) HM in let bP := map (fopp A) HP in
    let hMs := zipw4 star hM bM bP bM in let hPs := zipw4 star hP bP bP bM in
    let hM := hMs in let hP := hPs in
    let huM := zipw (fmul A) hMs (zipw (fdiv A) huM hM) in let huP := zipw (fmul A) hPs (zipw (fdiv A) huP hP) in
    let hvM := zipw (fmul A) hMs (zipw (fdiv A) hvM hM) in let hvP := zipw (fmul A) hPs (zipw (fdiv A) hvP hP) in
    let dh := zipw (fsub A) hM hP in let dhu := zipw (fsub A) huM huP in let dhv := zipw (fsub A) hvM hvP in
    let F2M := zipw (press g) hM huM in let G2M := zipw3 convx hM huM hvM in let G3M := zipw (press g) hM hvM in
    let F2P := zipw (press g) hP huP in let G2P := zipw3 convx hP huP hvP in let G3P := zipw (press g) hP hvP in
    let F2 := mzip (press g) h hu in let G2 := mzip3 convx h hu hv in let G3 := mzip (press g) h hv in
    let spd := zipw fmax (zipw3 (speed g) hM huM hvM) (zipw3 (speed g) hP huP hvP) in
    let top := fadd A (fold_left fmax spd lowest) (fofn A 0) in
    let spdMax := map (fun _ => top) spd in
    bind (vectorToFull (jumps nx ny huM huP hvM hvP spdMax dh) (mkmat (NF * Nfp) K junk) false) (fun d1 =>
    bind (vectorToFull (jumps' nx ny F2M F2P G2M G2P spdMax dhu (zipw3 (balance g) hM hMs nx)) (mkmat (NF * Nfp) K junk) false) (fun d2 =>
    bind (vectorToFull (jumps' nx ny G2M G2P G3M G3P spdMax dhv (zipw3 (balance g) hM hMs ny)) (mkmat (NF * Nfp) K junk) false) (fun d3 =>
    let R1 := strong_form d Np (NF * Nfp) K hu hv d1 in
    let R2 := strong_form d Np (NF * Nfp) K F2 G2 d2 in
    let R3 := strong_form d Np (NF * Nfp) K G2 G3 d3 in
    Ok (R1, with_source (sw_source_x g CD f) h hu hv Hx R2, with_source (sw_source_y g CD f) h hu hv Hy R3))))))))))))
  | _, _ => Throw                                                  (* bcHash.at(BCTag::Wall), bcHash.at(BCTag::Out) *)
  end.

(* --- Python --- *)
(* swhelpers/rhs.py:296-310 (and 161-174): the source terms. hypot(u, v) is a parameter. *)
Variable hypot : T -> T -> T.
Definition py_source_x (g CD f h hu hv zx rhs : T) : T :=
  let u := fdiv A hu h in let v := fdiv A hv h in
  fsub A (fadd A rhs (fsub A (fmul A f hv) (fmul A (fmul A CD (hypot u v)) u))) (fmul A (fmul A g h) zx).
Definition py_source_y (g CD f h hu hv zy rhs : T) : T :=
  let u := fdiv A hu h in let v := fdiv A hv h in
  fsub A (fsub A rhs (fsub A (fmul A f hu) (fmul A (fmul A CD (hypot u v)) v))) (fmul A (fmul A g h) zy).

(* swhelpers/limiters.py:3-23 positivityPreservingLimiter2D: one column of h and one column of a field q limited with
   the same factor (q is h, hu or hv). np.min of a column: a running minimum that starts at its first entry. *)
Definition col_min (h : list T) (h0 : T) : T := fold_left (fun a b => if flt A b a then b else a) h h0.
Definition col_sum (h : list T) : T := fold_left (fadd A) h (fofn A 0).
Definition col_mean (h : list T) : T := fdiv A (col_sum h) (fofn A (length h)).
Definition limiter_theta (milli tenth : T) (h : list T) (h0 : T) : T :=   (* milli = 1e-3, tenth = 1e-4 *)
  let hmin := col_min h h0 in
  let hmin := if flt A hmin milli then milli else hmin in
  let hmean := col_mean h in
  let theta := fdiv A hmean (fadd A (fsub A hmean hmin) tenth) in
  if flt A (fofn A 1) theta then fofn A 1 else theta.
Definition limit_column (theta : T) (q : list T) : list T :=
  let m := col_mean q in map (fun x => fadd A m (fmul A theta (fsub A x m))) q.
Definition limiter_column (milli tenth : T) (h q : list T) : outcome (list T) :=
  match h with
  | [] => Throw                                                    (* np.min of an empty axis *)
  | h0 :: _ => Ok (limit_column (limiter_theta milli tenth h h0) q)
  end.

(* swhelpers/limiters.py:26-36 minmod, entrywise *)
Definition minmod (a b : T) : T :=
  let zero := fofn A 0 in
  if flt A a b && flt A zero (fmul A a b) then a
  else if flt A b a && flt A zero (fmul A a b) then b
  else zero.
End Sw.
