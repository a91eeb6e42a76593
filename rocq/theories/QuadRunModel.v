(* QuadRunModel.v - the script sw2dquads.py: shallow water on quadrilaterals, the filtered midpoint step and the loop with its
   output. numpy as in PySwModel.v and AdvecRunModel.v; the dtype named 'Float64' is taken to exist. The helpers of PySwModel.v
   take four arrays: the fourth is h once more and never reaches a result. What is written is kept as a list, newest first: the step
   number and the fields eta, u and v. *)
From Coq Require Import ZArith List Bool.
From Verif Require Import Base Loops Num Maps2DModel Nodes1DModel RKModel Line1DModel SwModel CurvedSwModel PySwModel AdvecRunModel SwScriptModel.
Import ListNotations.

Section Quads.
Context {T : Type} (A : arith T).

(* sw2dquads.py:10-23 sw2dComputeFluxes, at one point; F3 is G2; H is not read *)
Definition quads_F (g : T) (c : nat) (q : four T) : T :=
  match c with
  | 0%nat => q_hu q
  | 1%nat => fadd A (fdiv A (fmul A (q_hu q) (q_hu q)) (q_h q)) (fmul A (fmul A (fmul A (half A) g) (q_h q)) (q_h q))
  | _ => fdiv A (fmul A (q_hu q) (q_hv q)) (q_h q)
  end.
Definition quads_G (g : T) (c : nat) (q : four T) : T :=
  match c with
  | 0%nat => q_hv q
  | 1%nat => fdiv A (fmul A (q_hu q) (q_hv q)) (q_h q)
  | _ => fadd A (fdiv A (fmul A (q_hv q) (q_hv q)) (q_h q)) (fmul A (fmul A (fmul A (half A) g) (q_h q)) (q_h q))
  end.
(* sw2dquads.py:68-70, 72-73, 93-95 *)
Definition quads_jumps (g : T) (c : nat) (nx ny lam : list T) (qM qP : four (list T)) : list T :=
  jumps A nx ny (fluxes_vec A (quads_F g c) qM) (fluxes_vec A (quads_F g c) qP) (fluxes_vec A (quads_G g c) qM) (fluxes_vec A (quads_G g c) qP)
    lam (zipw (fsub A) (pick c qM) (pick c qP)).
(* h, hu, hv with h again as the fourth *)
Definition padded (q : mat T * mat T * mat T) : four (mat T) := let '(h, hu, hv) := q in Four h hu hv h.
(* sw2dquads.py:25-123 sw2dComputeRHS *)
Definition quads_rhs (d : dg2d (T := T)) (NF Nfp Np K : nat) (g : T) (q : mat T * mat T * mat T) : outcome (mat T * mat T * mat T) :=
  let nf := (NF * Nfp * K)%nat in let q := padded q in
  require (dg_conform d NF Nfp Np K && four_conform q Np K && (length (d_vmapM d) =? nf)%nat && (length (d_vmapP d) =? nf)%nat)
  match hfind (d_bc d) 3 with
  | None => Throw                                                (* BCmap[3] *)
  | Some mapW =>
    let nx := flattenF (d_nx d) in let ny := flattenF (d_ny d) in
    let flat := fmap4 flattenF q in
    bind (bind4 (fun v => take A v (d_vmapM d)) flat) (fun qM => bind (bind4 (fun v => take A v (d_vmapP d)) flat) (fun qP =>
    bind (reflect A mapW nx ny qM qP) (fun qP =>
    let spd := zipw (fmax A) (speeds_of A g qM) (speeds_of A g qP) in
    bind (side_max A Nfp spd) (fun lam =>
    let component c :=
      bind (reshapeF A (Nfp * NF) K (quads_jumps g c nx ny lam qM qP)) (fun dF =>
      Ok (strong_form A d Np (NF * Nfp) K (fluxes_mat (quads_F g c) q) (fluxes_mat (quads_G g c) q) dF)) in
    bind (component 0%nat) (fun R0 => bind (component 1%nat) (fun R1 => bind (component 2%nat) (fun R2 => Ok (R0, R1, R2)))))))) 
  end.

(* np.dot(Filt, RHS) of the three: 183-185, 193-195 *)
Definition bind3 {X Y} (f : X -> outcome Y) (q : X * X * X) : outcome (Y * Y * Y) :=
  let '(a, b, c) := q in bind (f a) (fun a => bind (f b) (fun b => bind (f c) (fun c => Ok (a, b, c)))).
Definition filter3 (F : mat T) (z : mat T * mat T * mat T) : outcome (mat T * mat T * mat T) := bind3 (np_dot A F) z.
(* q + c*z of the three *)
Definition add3 (c : T) (q z : mat T * mat T * mat T) : outcome (mat T * mat T * mat T) :=
  let zip := np_zip (fun a b => fadd A a (fmul A c b)) in
  let '(h, hu, hv) := q in let '(a, b, e) := z in
  bind (zip h a) (fun h => bind (zip hu b) (fun hu => bind (zip hv e) (fun hv => Ok (h, hu, hv)))).
(* sw2dquads.py:182-190 and 192-200 *)
Definition quads_predictor (F : mat T) (rhs : mat T * mat T * mat T -> outcome (mat T * mat T * mat T)) (dt : T) (q : mat T * mat T * mat T) : outcome (mat T * mat T * mat T) :=
  bind (rhs q) (fun z => bind (filter3 F z) (add3 (fmul A (half A) dt) q)).
Definition quads_corrector (F : mat T) (rhs : mat T * mat T * mat T -> outcome (mat T * mat T * mat T)) (dt : T) (q q1 : mat T * mat T * mat T) : outcome (mat T * mat T * mat T) :=
  bind (rhs q1) (fun z => bind (filter3 F z) (add3 dt q)).
Definition quads_step (F : mat T) (rhs : mat T * mat T * mat T -> outcome (mat T * mat T * mat T)) (dt : T) (q : mat T * mat T * mat T) : outcome (mat T * mat T * mat T) :=
  bind (quads_predictor F rhs dt q) (quads_corrector F rhs dt q).

(* sw2dquads.py:178-216 *)
Record quads := Quads { qd_t : T; qd_step : Z; qd_q : mat T * mat T * mat T; qd_out : list (Z * (mat T * mat T * mat T)) }.
(* 211, 213-215: eta, u and v *)
Definition quads_shown (H : mat T) (q : mat T * mat T * mat T) : mat T * mat T * mat T :=
  let '(h, hu, hv) := q in (Line1DModel.mzip (fsub A) h H, Line1DModel.mzip (fdiv A) hu h, Line1DModel.mzip (fdiv A) hv h).
Definition quads_turn (F H : mat T) (rhs : mat T * mat T * mat T -> outcome (mat T * mat T * mat T)) (huge dt : T) (s : quads) : outcome quads :=
  bind (quads_step F rhs dt (qd_q s)) (fun q =>
  bind (script_unstable A huge (fst (fst q))) (fun bad => if bad then Throw else
  let step := (qd_step s + 1)%Z in
  Ok (Quads (fadd A (qd_t s) dt) step q (if (step mod 20 =? 0)%Z then (step, quads_shown H q) :: qd_out s else qd_out s)))).
Fixpoint quads_loop (fuel : nat) (F H : mat T) (rhs : mat T * mat T * mat T -> outcome (mat T * mat T * mat T)) (huge dt finalTime : T) (s : quads) : outcome quads :=
  match fuel with
  | O => UB
  | S fuel => if flt A (qd_t s) finalTime then bind (quads_turn F H rhs huge dt s) (quads_loop fuel F H rhs huge dt finalTime) else Ok s
  end.
(* sw2dquads.py:157-161: the fields at the start, on the nodes x, y *)
Definition quads_eta (exp : T -> T) (x y : mat T) : mat T :=
  Line1DModel.mzip (fun x y => fmul A (fofn A 1) (exp (fsub A (fmul A (fopp A (fofn A 10)) (fmul A x x)) (fmul A (fofn A 10) (fmul A y y))))) x y.
Definition quads_run (exp : T -> T) (fuel : nat) (d : dg2d (T := T)) (NF Nfp Np K : nat) (g dt huge finalTime : T) (F x y : mat T) : outcome quads :=
  let eta := quads_eta exp x y in
  let u := mkmat Np K (fun _ _ => fofn A 0) in let v := mkmat Np K (fun _ _ => fofn A 0) in
  let H := mkmat Np K (fun _ _ => fmul A (fofn A 10) (fofn A 1)) in
  bind (np_zip (fadd A) H eta) (fun h => bind (np_zip (fmul A) h u) (fun hu => bind (np_zip (fmul A) h v) (fun hv =>
  quads_loop fuel F H (quads_rhs d NF Nfp Np K g) huge dt finalTime (Quads (fofn A 0) 0%Z (h, hu, hv) [(0%Z, (eta, u, v))])))).
End Quads.
Arguments quads : clear implicits. Arguments Quads {T}. Arguments qd_t {T}. Arguments qd_step {T}. Arguments qd_q {T}. Arguments qd_out {T}.
