(* CurvedRunModel.v - the script sw2d_curved.py after its mesh has been bent (C95) and its maps made periodic (C93): the drag
   coefficient, the initial jet, the right-hand side with a drag coefficient at every node, the time step and the loop with its
   output. numpy as in PySwModel.v, AdvecRunModel.v and SwScriptModel.v; u**2 is u*u. What is written is kept as a list, newest
   first: the step number and the fields eta, u, v, B and vort. *)
From Coq Require Import ZArith List Bool.
From Verif Require Import Base Loops Num Maps2DModel Nodes1DModel RKModel Line1DModel SwModel GaussFaceModel CubMeshModel CurvedSwModel PySwModel AdvecRunModel SwSetupModel SwScriptModel.
Import ListNotations.

Section CurvedRun.
Context {T : Type} (A : arith T).
Variables (hypot : T -> T -> T) (ftanh fexp : T -> T).            (* np.hypot, np.tanh, np.exp *)
Local Notation mmap := Line1DModel.mmap.
Local Notation mzip := Line1DModel.mzip.

(* np.min of a flat array: a NaN is passed on; no entries raise *)
Definition np_min2 (m v : T) : T := if np_isnan A m then m else if np_isnan A v then v else if flt A v m then v else m.
Definition np_min (l : list T) : outcome T := match l with [] => Throw | a :: l => Ok (fold_left np_min2 l a) end.
(* sw2d_curved.py:180-181: xi - xW is taken entry by entry *)
Definition wall_distance (xW yW : list T) (xi yi : T) : outcome T :=
  bind (np_zipv hypot (map (fun w => fsub A xi w) xW) (map (fun w => fsub A yi w) yW)) np_min.
(* sw2d_curved.py:183; tenth is the literal 0.1 *)
Definition drag_at (tenth CDmax tol dist : T) : T :=
  fmul A (fmul A CDmax (half A)) (fsub A (fofn A 1) (ftanh (fdiv A (fsub A dist (fmul A (half A) tol)) (fmul A tenth tol)))).
(* sw2d_curved.py:167-185, for the nodes one after the other *)
Fixpoint drag_nodes (tenth CDmax tol : T) (xW yW xs ys : list T) : outcome (list T) :=
  match xs, ys with
  | [], _ => Ok []
  | xi :: xs, [] => Throw                                          (* yFlat[i] *)
  | xi :: xs, yi :: ys => bind (wall_distance xW yW xi yi) (fun d => bind (drag_nodes tenth CDmax tol xW yW xs ys) (fun l => Ok (drag_at tenth CDmax tol d :: l)))
  end.
Definition drag_field (tenth CDmax tol : T) (Np K : nat) (vmapW : list nat) (x y : mat T) : outcome (mat T) :=
  let xF := flattenF x in let yF := flattenF y in
  bind (take A xF vmapW) (fun xW => bind (take A yF vmapW) (fun yW =>
  bind (drag_nodes tenth CDmax tol xW yW xF yF) (fun CD => reshapeF A Np K CD))).

(* sw2d_curved.py:159-161: surface, its slope and the velocity, at one y *)
Definition bump (L W y : T) : T := let r := fdiv A (fsub A y L) W in fexp (fopp A (fmul A r r)).
Definition jet_eta (amp L W y : T) : T := fmul A amp (bump L W y).
Definition jet_slope (amp L W y : T) : T := fdiv A (fmul A (fmul A (fmul A (fopp A (fofn A 2)) amp) (fsub A y L)) (bump L W y)) (fmul A W W).
Definition jet_u (g f amp L W y : T) : T := fmul A (fdiv A (fopp A g) f) (jet_slope amp L W y).
(* sw2d_curved.py:210 *)
Definition patch (Nx Ny rad x y : T) : T :=
  let a := fdiv A (fsub A x Nx) rad in let b := fdiv A (fsub A y Ny) rad in fexp (fopp A (fadd A (fmul A a a) (fmul A b b))).
(* h[h < lim] = lim: 214 *)
Definition clip (lim h : T) : T := if flt A h lim then lim else h.
(* sw2d_curved.py:195, 212-219: depth, discharges and tracer at the start; v = 0*eta *)
Definition start (g f H0 amp L W Nx Ny rad lim : T) (x y : mat T) : four (mat T) :=
  let eta := mmap (jet_eta amp L W) y in
  let h := mmap (fun e => clip lim (fadd A H0 e)) eta in
  Four h (mzip (fmul A) h (mmap (jet_u g f amp L W) y)) (mzip (fmul A) h (mmap (fmul A (fofn A 0)) eta)) (mzip (fmul A) h (mzip (patch Nx Ny rad) x y)).
(* sw2d_curved.py:203-205: the slopes of z = -H, as in C83 *)
Definition bottom (d : dg2d (T := T)) (Np K : nat) (H : mat T) : mat T * mat T := bed_slopes A d Np K (mmap (fopp A) H).
(* sw2d_curved.py:294-295 *)
Definition vorticity (d : dg2d (T := T)) (Np K : nat) (u v : mat T) : mat T := mzip (fsub A) (fst (bed_slopes A d Np K v)) (snd (bed_slopes A d Np K u)).

(* rhs.py:6-162 sw2dComputeRHS_curved up to the source terms, as in CurvedSwModel.v *)
Variable tri : bool -> mat T -> list T -> outcome (list T).       (* scipy.linalg.solve_triangular *)
Definition curved_core (V J : mat T) (cc : cub_mesh T) (gf : gauss_faces T) (curved gmapM gmapP : list nat) (g : T) (zx zy : mat T) (q : four (mat T)) : outcome (four (mat T)) :=
  let Np := mrows V in let K := mcols J in let nc := cc_n cc in let ng := mrows (gf_nx gf) in
  require (curved_conform V J cc gf Np K nc ng && four_conform q Np K && conform zx Np K && conform zy Np K)
  (let qc := fmap4 (mmul A (cc_V cc)) q in
  let volume c := weak_volume A cc (fluxes_mat (flux_F A g c) qc) (fluxes_mat (flux_G A g c) qc) in
  match hfind (gf_bc gf) 3 with
  | None => Throw                                                (* BCmap[3] *)
  | Some mapW =>
    let nx := flattenF (gf_nx gf) in let ny := flattenF (gf_ny gf) in
    let qg := fmap4 (fun m => flattenF (mmul A (gf_interp gf) m)) q in
    bind (bind4 (fun v => take A v gmapM) qg) (fun qM => bind (bind4 (fun v => take A v gmapP) qg) (fun qP =>
    let spd := zipw (fmax A) (speeds_of A g qM) (speeds_of A g qP) in
    bind (reflect A mapW nx ny qM qP) (fun qP =>
    let Nfp := (ng / 3)%nat in
    bind (side_max A Nfp spd) (fun lam => bind (reshapeF A (Nfp * 3) K lam) (fun lam =>
    let component c :=
      bind (weak_sides A g gf c qM qP lam K (Nfp * 3)) (fun S =>
      mass_inverse A tri V J (cc_chol cc) curved (mzip (fsub A) (volume c) S)) in
    bind (component 0%nat) (fun R0 => bind (component 1%nat) (fun R1 => bind (component 2%nat) (fun R2 => bind (component 3%nat) (fun R3 =>
    Ok (Four R0 R1 R2 R3))))))))))
  end).
(* rhs.py:165-174 with a coefficient for every node: CD*norm_u is taken entry by entry *)
Definition drag_sources (g f : T) (CD : mat T) (q : four (mat T)) (zx zy : mat T) (R : four (mat T)) : four (mat T) :=
  let on (source : T -> T -> T -> T -> T -> T -> T -> T -> T) (z R : mat T) :=
    mkmat (mrows R) (mcols R) (fun i k => source g (ment CD i k) f (ment (q_h q) i k) (ment (q_hu q) i k) (ment (q_hv q) i k) (ment z i k) (ment R i k)) in
  Four (q_h R) (on (py_source_x A hypot) zx (q_hu R)) (on (py_source_y A hypot) zy (q_hv R)) (q_hN R).
(* rhs.py:6-176 as sw2d_curved.py:248 and 264 call it *)
Definition curved_rates (V J : mat T) (cc : cub_mesh T) (gf : gauss_faces T) (curved gmapM gmapP : list nat) (g f : T) (CD zx zy : mat T) (q : four (mat T)) : outcome (four (mat T)) :=
  require (conform CD (mrows V) (mcols J)) (bind (curved_core V J cc gf curved gmapM gmapP g zx zy q) (fun R => Ok (drag_sources g f CD q zx zy R))).

(* np.mean: 231. The sum is taken from the left; no entries give 0/0 *)
Definition np_mean (m : mat T) : T := fdiv A (fold_left (fadd A) (flattenF m) (fofn A 0)) (fofn A (mrows m * mcols m)).
(* sw2d_curved.py:232-234 and 281: the celerity is that of the mean depth *)
Definition mean_dt (d : dg2d (T := T)) (Np K N : nat) (g CFL Hbar : T) (u v : mat T) : outcome T :=
  let c := mkmat Np K (fun _ _ => fmul A (fsqrt A (fmul A g Hbar)) (fofn A 1)) in
  bind (take A (flattenF c) (d_vmapM d)) (fun c =>
  bind (take A (flattenF u) (d_vmapM d)) (fun u => bind (take A (flattenF v) (d_vmapM d)) (fun v =>
  bind (np_zipv (fun u v => fsqrt A (fadd A (fmul A u u) (fmul A v v))) u v) (fun speed =>
  bind (np_zipv (fadd A) c speed) (fun wave =>
  bind (np_zipv (fmul A) (map (fun s => fmul A (fmul A (fofn A ((N + 1) * (N + 1))) (half A)) (fabs A s)) (flattenF (d_Fscale d))) wave) (fun rates =>
  bind (np_max A rates) (fun m => Ok (fdiv A CFL m)))))))).

(* sw2d_curved.py:246-302; the step of 248-275 is that of sw2d.py *)
Record crun := CRun { w_t : T; w_dt : T; w_step : Z; w_q : four (mat T); w_out : list (Z * (four (mat T) * mat T)) }.
Definition velocity (hu h : mat T) : mat T := mzip (fdiv A) hu h.
(* 292-301: eta, u, v, B and vort *)
Definition shown_curved (d : dg2d (T := T)) (Np K : nat) (H : mat T) (q : four (mat T)) : four (mat T) * mat T :=
  (shown A H q, vorticity d Np K (velocity (q_hu q) (q_h q)) (velocity (q_hv q) (q_h q))).
Definition curved_turn (d : dg2d (T := T)) (Np K N : nat) (F H : mat T) (rhs : four (mat T) -> outcome (four (mat T))) (g CFL Hbar huge : T) (numSteps : Z) (s : crun) : outcome crun :=
  bind (script_step A F rhs (w_dt s) (w_q s)) (fun q =>
  bind (mean_dt d Np K N g CFL Hbar (velocity (q_hu q) (q_h q)) (velocity (q_hv q) (q_h q))) (fun dt =>
  bind (script_unstable A huge (q_h q)) (fun bad => if bad then Throw else
  let step := (w_step s + 1)%Z in
  Ok (CRun (fadd A (w_t s) (w_dt s)) dt step q
       (if (step mod 50 =? 0)%Z || (step =? numSteps)%Z then (step, shown_curved d Np K H q) :: w_out s else w_out s))))).
Fixpoint curved_loop (fuel : nat) (turn : crun -> outcome crun) (finalTime : T) (s : crun) : outcome crun :=
  match fuel with
  | O => UB
  | S fuel => if flt A (w_t s) finalTime then bind (turn s) (curved_loop fuel turn finalTime) else Ok s
  end.
(* sw2d_curved.py:229-302, from the state of 212-219. The first output has -(u_y) for the vorticity (163): v is zero. *)
Definition curved_run (ceil : T -> Z) (fuel : nat) (d : dg2d (T := T)) (Np K N : nat) (F H : mat T) (rhs : four (mat T) -> outcome (four (mat T))) (g CFL huge finalTime : T)
  (eta u v tr : mat T) (q : four (mat T)) : outcome crun :=
  let Hbar := np_mean H in
  bind (mean_dt d Np K N g CFL Hbar u v) (fun dt =>
  curved_loop fuel (curved_turn d Np K N F H rhs g CFL Hbar huge (ceil (fdiv A finalTime dt))) finalTime
    (CRun (fofn A 0) dt 0%Z q [(0%Z, (Four eta u v tr, mmap (fopp A) (snd (bed_slopes A d Np K u))))])).
End CurvedRun.
Arguments crun : clear implicits. Arguments CRun {T}. Arguments w_t {T}. Arguments w_dt {T}. Arguments w_step {T}. Arguments w_q {T}. Arguments w_out {T}.
