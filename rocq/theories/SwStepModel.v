(* SwStepModel.v - the time loops of src/sw2d-simple/main.cpp and src/sw2d/main.cpp around their right-hand sides. The
   right-hand side is an argument (SwModel.v has both). Output is the list of fields written, newest first. *)
From Coq Require Import ZArith List Bool.
From Verif Require Import Base Loops Num BlitzModel Maps2DModel Nodes1DModel RKModel Line1DModel SwModel.
Import ListNotations.

Section SwStep.
Context {T : Type} (A : arith T).
Variable junkv : nat -> T.                                         (* uninitialised vector storage *)
Variable lowest : T.                                               (* where a blitz max reduction starts *)
Local Notation state := (mat T * mat T * mat T)%type.

(* RHS = sum(Filt(ii,kk)*RHS(kk,jj), kk): src/sw2d-simple/main.cpp:134-136, 145-147; the same statement on Hx and Hy in
   src/sw2d/main.cpp:132-133 and on the right-hand sides in src/ins2d/main.cpp:219-221, 230-232. blitz makes no
   temporary: entry after entry, in storage order (row by row), the destination is overwritten with an expression that
   reads it. *)
Definition put (X : mat T) (i j : nat) (v : T) : mat T :=
  mkmat (mrows X) (mcols X) (fun a b => if (a =? i)%nat && (b =? j)%nat then v else ment X a b).
Definition filter_entry (F : mat T) (i : nat) (X : mat T) (j : nat) : mat T :=
  put X i j (fsum A (mcols F) (fun k => fmul A (ment F i k) (ment X k j))).
Definition filter_in_place (F X : mat T) : mat T :=
  fold_left (fun X i => fold_left (filter_entry F i) (seq 0 (mcols X)) X) (seq 0 (mrows X)) X.
Definition filter_state (F : mat T) (z : state) : state :=
  let '(a, b, c) := z in (filter_in_place F a, filter_in_place F b, filter_in_place F c).

(* q + c*z *)
Definition advance (c : T) (q z : mat T) : mat T := mzip (fun a b => fadd A a (fmul A c b)) q z.
Definition advance_state (c : T) (q z : state) : state :=
  let '(h, hu, hv) := q in let '(a, b, e) := z in (advance c h a, advance c hu b, advance c hv e).

(* src/sw2d-simple/main.cpp:133-151 *)
Definition simple_step (F : mat T) (rhs : state -> outcome state) (dt : T) (q : state) : outcome state :=
  bind (rhs q) (fun z =>
  let q1 := advance_state (fmul A (fhalf A) dt) q (filter_state F z) in
  bind (rhs q1) (fun z1 => Ok (advance_state dt q (filter_state F z1)))).

(* blitz::max(a*b) *)
Definition max_product (a b : list T) : T :=
  fold_left (fun m v => if flt A m v then v else m) (zipw (fmul A) a b) lowest.
(* CFL/((N+1)*(N+1)*0.5*max(abs(fs)*spd)) over the face nodes: src/sw2d-simple/main.cpp:97-110, 159-166. u and v are
   given: they are zero before the first step and hu/h afterwards. *)
Definition simple_dt (d : dg2d (T := T)) (N NF Nfp Np K : nat) (g CFL : T) (h u v : mat T) : outcome T :=
  let nf := (NF * Nfp * K)%nat in
  let spd := mzip3 (fun h u v => fadd A (fsqrt A (fadd A (fmul A u u) (fmul A v v))) (fsqrt A (fmul A g h))) h u v in
  bind (fullToVector spd (vfresh junkv (Np * K)) false) (fun spdVec =>
  bind (fullToVector (d_Fscale d) (vfresh junkv nf) false) (fun fsVec =>
  bind (applyIndexMap spdVec (d_vmapM d) (vfresh junkv nf)) (fun spdM =>
  Ok (fdiv A CFL (fmul A (fmul A (fofn A ((N + 1) * (N + 1))) (fhalf A)) (max_product (map (fabs A) fsVec) spdM)))))).

(* abs(eta_max) > 1e8 || isnan(eta_max): src/sw2d-simple/main.cpp:155-157 *)
Definition unstable (huge : T) (eta : mat T) : bool :=
  let m := max_abs A lowest eta in flt A huge (fabs A m) || negb (fle A m m).

(* src/sw2d-simple/main.cpp:121-170; the state is time, time step, step count, fields and what was written *)
Record swsim := SwSim { w_t : T; w_dt : T; w_count : nat; w_q : state; w_out : list (nat * mat T) }.
Definition simple_sim_step (d : dg2d (T := T)) (N NF Nfp Np K : nat) (g CFL huge : T) (H F : mat T) (rhs : state -> outcome state) (s : swsim) : outcome swsim :=
  let '(h, _, _) := w_q s in
  let out := if (w_count s mod 10 =? 0)%nat then (w_count s, mzip (fsub A) h H) :: w_out s else w_out s in
  bind (simple_step F rhs (w_dt s) (w_q s)) (fun q' =>
  let '(h', hu', hv') := q' in
  if unstable huge (mzip (fsub A) h' H) then Throw else
  bind (simple_dt d N NF Nfp Np K g CFL h' (mzip (fdiv A) hu' h') (mzip (fdiv A) hv' h')) (fun dt' =>
  Ok (SwSim (fadd A (w_t s) dt') dt' (S (w_count s)) q' out))).
(* the loop; the bound on the number of steps is the model's *)
Fixpoint simple_loop (fuel : nat) (d : dg2d (T := T)) (N NF Nfp Np K : nat) (g CFL huge finalTime : T) (H F : mat T) (rhs : state -> outcome state) (s : swsim) : outcome swsim :=
  match fuel with
  | O => UB
  | S fuel => if flt A (w_t s) finalTime
              then bind (simple_sim_step d N NF Nfp Np K g CFL huge H F rhs s) (simple_loop fuel d N NF Nfp Np K g CFL huge finalTime H F rhs)
              else Ok s
  end.

(* hu /= (1.0 + spongeCoeff*hu*hu): src/sw2d/main.cpp:223-224, 235-236 *)
Definition sponged (s q : T) : T := fdiv A q (fadd A (fofn A 1) (fmul A (fmul A s q) q)).
Definition sponge_state (S : mat T) (q : state) : state :=
  let '(h, hu, hv) := q in (h, mzip sponged S hu, mzip sponged S hv).
(* 0.5*(q + q1 + dt*z1) *)
Definition blend (dt : T) (q q1 z1 : mat T) : mat T :=
  mzip3 (fun a b z => fmul A (fhalf A) (fadd A (fadd A a b) (fmul A dt z))) q q1 z1.
Definition blend_state (dt : T) (q q1 z1 : state) : state :=
  let '(h, hu, hv) := q in let '(h1, hu1, hv1) := q1 in let '(a, b, c) := z1 in (blend dt h h1 a, blend dt hu hu1 b, blend dt hv hv1 c).
(* src/sw2d/main.cpp:211-236; the right-hand side is called with the same time twice. Line 101 makes fields_np1 from fields_n
   with the implicit copy constructor of a struct of blitz arrays. The copy constructor of blitz::Array does not copy the entries:
   the new array shares the storage of the old one (computeRHS, which takes the struct by value and returns its results in the
   arrays of its copy, 279, depends on it). So the assignments to fields_np1.h, hu and hv overwrite fields_n.h, hu and hv. The
   argument tells whether the two have storage of their own; in the driver they do not. *)
Definition two_stage (separate : bool) (S : mat T) (rhs : state -> outcome state) (dt : T) (q : state) : outcome state :=
  bind (rhs q) (fun z =>
  let q1 := sponge_state S (advance_state dt q z) in
  let qn := if separate then q else q1 in                          (* fields_n.h, hu, hv after lines 218-224 *)
  bind (rhs q1) (fun z1 => Ok (sponge_state S (blend_state dt qn q1 z1)))).
Definition full_step : mat T -> (state -> outcome state) -> T -> state -> outcome state := two_stage false.

(* src/sw2d/main.cpp:250-277 computeTimeStep; without the absolute value of Fscale *)
Definition full_dt (d : dg2d (T := T)) (N NF Nfp Np K : nat) (g CFL : T) (q : state) : outcome T :=
  let '(h, hu, hv) := q in
  let nf := (NF * Nfp * K)%nat in
  let face (m : mat T) := bind (fullToVector m (vfresh junkv (Np * K)) false) (fun v => applyIndexMap v (d_vmapM d) (vfresh junkv nf)) in
  bind (fullToVector (d_Fscale d) (vfresh junkv nf) false) (fun fsVec =>
  bind (face (mzip (fdiv A) hu h)) (fun uM => bind (face (mzip (fdiv A) hv h)) (fun vM => bind (face h) (fun hM =>
  let spd := zipw3 (fun h u v => fadd A (fsqrt A (fadd A (fmul A u u) (fmul A v v))) (fsqrt A (fmul A g h))) hM uM vM in
  Ok (fdiv A CFL (fmul A (fmul A (fofn A ((N + 1) * (N + 1))) (fhalf A)) (max_product fsVec spd))))))).
End SwStep.
Arguments swsim : clear implicits. Arguments SwSim {T}. Arguments w_t {T}. Arguments w_dt {T}. Arguments w_count {T}. Arguments w_q {T}. Arguments w_out {T}.
