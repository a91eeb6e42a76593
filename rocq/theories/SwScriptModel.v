(* SwScriptModel.v - the script sw2d.py: its own right-hand side (shallow water with a tracer and Coriolis force), the filtered
   midpoint step, the time step and the loop with its output. numpy as in PySwModel.v and AdvecRunModel.v; np.float is taken to
   exist. What is written is kept as a list, newest first: the step number and the fields eta, u, v and N. *)
From Coq Require Import ZArith List Bool.
From Verif Require Import Base Loops Num Maps2DModel Nodes1DModel RKModel Line1DModel SwModel CurvedSwModel PySwModel AdvecRunModel.
Import ListNotations.

Section Script.
Context {T : Type} (A : arith T).

(* sw2d.py:12-34 sw2dComputeFluxes, at one point; F3 is G2 *)
Definition script_F (g : T) (c : nat) (q : four T) : T :=
  let u := fdiv A (q_hu q) (q_h q) in let v := fdiv A (q_hv q) (q_h q) in
  match c with
  | 0%nat => q_hu q
  | 1%nat => fadd A (fmul A (q_hu q) u) (fmul A (fmul A (fmul A (half A) g) (q_h q)) (q_h q))
  | 2%nat => fmul A (q_hu q) v
  | _ => fmul A (q_hN q) u
  end.
Definition script_G (g : T) (c : nat) (q : four T) : T :=
  let v := fdiv A (q_hv q) (q_h q) in
  match c with
  | 0%nat => q_hv q
  | 1%nat => fmul A (q_hu q) v
  | 2%nat => fadd A (fmul A (q_hv q) v) (fmul A (fmul A (fmul A (half A) g) (q_h q)) (q_h q))
  | _ => fmul A (q_hN q) v
  end.
(* sw2d.py:109-112 *)
Definition script_jumps (g : T) (c : nat) (nx ny lam : list T) (qM qP : four (list T)) : list T :=
  jumps A nx ny (fluxes_vec A (script_F g c) qM) (fluxes_vec A (script_F g c) qP) (fluxes_vec A (script_G g c) qM) (fluxes_vec A (script_G g c) qP)
    lam (zipw (fsub A) (pick c qM) (pick c qP)).
(* sw2d.py:143-144 *)
Definition coriolis (f : T) (q R : four (mat T)) : four (mat T) :=
  Four (q_h R) (Line1DModel.mzip (fun r hv => fadd A r (fmul A f hv)) (q_hu R) (q_hv q))
    (Line1DModel.mzip (fun r hu => fsub A r (fmul A f hu)) (q_hv R) (q_hu q)) (q_hN R).
(* sw2d.py:36-146 sw2dComputeRHS. K, a global of the script, is ctx.numElements. *)
Definition script_rhs (d : dg2d (T := T)) (NF Nfp Np K : nat) (g f : T) (q : four (mat T)) : outcome (four (mat T)) :=
  let nf := (NF * Nfp * K)%nat in
  require (dg_conform d NF Nfp Np K && four_conform q Np K && (length (d_vmapM d) =? nf)%nat && (length (d_vmapP d) =? nf)%nat)
  match hfind (d_bc d) 3 with
  | None => Throw                                                (* BCmap[3] *)
  | Some mapW =>
    let nx := flattenF (d_nx d) in let ny := flattenF (d_ny d) in
    let flat := fmap4 flattenF q in
    bind (bind4 (fun v => take A v (d_vmapM d)) flat) (fun qM => bind (bind4 (fun v => take A v (d_vmapP d)) flat) (fun qP =>
    bind (reflect A mapW nx ny qM qP) (fun qP =>
    let spd := zipw (fmax A) (speeds_of A g qM) (speeds_of A g qP) in
    bind (side_max A Nfp spd) (fun lam =>
    let component c :=
      bind (reshapeF A (Nfp * NF) K (script_jumps g c nx ny lam qM qP)) (fun dF =>
      Ok (strong_form A d Np (NF * Nfp) K (fluxes_mat (script_F g c) q) (fluxes_mat (script_G g c) q) dF)) in
    bind (component 0%nat) (fun R0 => bind (component 1%nat) (fun R1 => bind (component 2%nat) (fun R2 => bind (component 3%nat) (fun R3 =>
    Ok (coriolis f q (Four R0 R1 R2 R3))))))))))
  end.

(* np.dot(Filt, RHS) of the four: 222-225, 235-238 *)
Definition filter4 (F : mat T) (z : four (mat T)) : outcome (four (mat T)) := bind4 (np_dot A F) z.
(* q + c*z of the four *)
Definition add4 (c : T) (q z : four (mat T)) : outcome (four (mat T)) :=
  let zip := np_zip (fun a b => fadd A a (fmul A c b)) in
  bind (zip (q_h q) (q_h z)) (fun a => bind (zip (q_hu q) (q_hu z)) (fun b => bind (zip (q_hv q) (q_hv z)) (fun c => bind (zip (q_hN q) (q_hN z)) (fun d => Ok (Four a b c d))))).
(* sw2d.py:220-231 and 233-244 *)
Definition predictor (F : mat T) (rhs : four (mat T) -> outcome (four (mat T))) (dt : T) (q : four (mat T)) : outcome (four (mat T)) :=
  bind (rhs q) (fun z => bind (filter4 F z) (add4 (fmul A (half A) dt) q)).
Definition corrector (F : mat T) (rhs : four (mat T) -> outcome (four (mat T))) (dt : T) (q q1 : four (mat T)) : outcome (four (mat T)) :=
  bind (rhs q1) (fun z => bind (filter4 F z) (add4 dt q)).
Definition script_step (F : mat T) (rhs : four (mat T) -> outcome (four (mat T))) (dt : T) (q : four (mat T)) : outcome (four (mat T)) :=
  bind (predictor F rhs dt q) (corrector F rhs dt q).

(* np.isnan, and np.max of a flat array: a NaN is passed on; no entries raise *)
Definition np_isnan (v : T) : bool := negb (fle A v v).
Definition np_max2 (m v : T) : T := if np_isnan m then m else if np_isnan v then v else fmax A m v.
Definition np_max (l : list T) : outcome T := match l with [] => Throw | a :: l => Ok (fold_left np_max2 l a) end.
(* sw2d.py:246-247 *)
Definition script_unstable (huge : T) (h : mat T) : outcome bool :=
  bind (np_max (map (fabs A) (flattenF h))) (fun m => Ok (flt A huge m || np_isnan m)).

(* sw2d.py:210-212; u**2 is u*u *)
Definition script_dt (d : dg2d (T := T)) (N : nat) (g CFL : T) (h u v : mat T) : outcome T :=
  bind (take A (flattenF (Line1DModel.mmap (fun h => fsqrt A (fmul A g h)) h)) (d_vmapM d)) (fun c =>
  bind (take A (flattenF u) (d_vmapM d)) (fun u => bind (take A (flattenF v) (d_vmapM d)) (fun v =>
  bind (np_zipv (fun u v => fsqrt A (fadd A (fmul A u u) (fmul A v v))) u v) (fun speed =>
  bind (np_zipv (fadd A) c speed) (fun wave =>
  bind (np_zipv (fmul A) (map (fun s => fmul A (fmul A (fofn A ((N + 1) * (N + 1))) (half A)) (fabs A s)) (flattenF (d_Fscale d))) wave) (fun rates =>
  bind (np_max rates) (fun m => Ok (fdiv A CFL m)))))))).

(* sw2d.py:217-260. numSteps and outputInterval are ints; step % 0 raises. *)
Record script := Script { k_t : T; k_step : Z; k_q : four (mat T); k_out : list (Z * four (mat T)) }.
(* 255-259: eta, u, v and N *)
Definition shown (H : mat T) (q : four (mat T)) : four (mat T) :=
  Four (Line1DModel.mzip (fsub A) (q_h q) H) (Line1DModel.mzip (fdiv A) (q_hu q) (q_h q)) (Line1DModel.mzip (fdiv A) (q_hv q) (q_h q)) (Line1DModel.mzip (fdiv A) (q_hN q) (q_h q)).
Definition script_turn (F H : mat T) (rhs : four (mat T) -> outcome (four (mat T))) (huge dt : T) (numSteps interval : Z) (s : script) : outcome script :=
  bind (script_step F rhs dt (k_q s)) (fun q =>
  bind (script_unstable huge (q_h q)) (fun bad => if bad then Throw else
  let step := (k_step s + 1)%Z in
  if (interval =? 0)%Z then Throw else
  Ok (Script (fadd A (k_t s) dt) step q
       (if (step mod interval =? 0)%Z || (step =? numSteps)%Z then (step, shown H q) :: k_out s else k_out s)))).
Fixpoint script_loop (fuel : nat) (F H : mat T) (rhs : four (mat T) -> outcome (four (mat T))) (huge dt finalTime : T) (numSteps interval : Z) (s : script) : outcome script :=
  match fuel with
  | O => UB
  | S fuel => if flt A (k_t s) finalTime then bind (script_turn F H rhs huge dt numSteps interval s) (script_loop fuel F H rhs huge dt finalTime numSteps interval) else Ok s
  end.
(* sw2d.py:197-260: from the fields eta, u, v, N, with numSteps = int(np.ceil(finalTime/dt)) and outputInterval = int(numSteps/numOuts).
   The float division of the two ints is taken to be exact before int() cuts it. *)
Definition script_run (ceil : T -> Z) (fuel : nat) (d : dg2d (T := T)) (NF Nfp Np K N : nat) (g f CFL huge finalTime : T) (numOuts : Z)
  (F H eta u v tr : mat T) : outcome script :=
  bind (np_zip (fadd A) H eta) (fun h => bind (np_zip (fmul A) h u) (fun hu => bind (np_zip (fmul A) h v) (fun hv => bind (np_zip (fmul A) h tr) (fun hN =>
  bind (script_dt d N g CFL h u v) (fun dt =>
  let numSteps := ceil (fdiv A finalTime dt) in
  if (numOuts =? 0)%Z then Throw else
  script_loop fuel F H (script_rhs d NF Nfp Np K g f) huge dt finalTime numSteps (Z.quot numSteps numOuts)
    (Script (fofn A 0) 0%Z (Four h hu hv hN) [(0%Z, Four eta u v tr)])))))).
End Script.
Arguments script : clear implicits. Arguments Script {T}. Arguments k_t {T}. Arguments k_step {T}. Arguments k_q {T}. Arguments k_out {T}.
