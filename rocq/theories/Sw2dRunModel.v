(* Sw2dRunModel.v - the program src/sw2d/main.cpp from the node tables to the end of its time loop. Reading the mesh, building the
   nodes and the filter (66-80) are modelled elsewhere; the parameters of lines 49-61 are arguments, and so is the set of open
   vertices (103). Printing and the file format are left out: the fields handed to the outputter are returned. *)
From Coq Require Import ZArith List Bool Arith.
From Verif Require Import Base Loops Num BlitzModel Maps2DModel CsvModel Nodes1DModel TriModel RKModel Line1DModel SwModel SwStepModel SwSetupModel.
Import ListNotations.
Local Open Scope nat_scope.

Section Sw2dRun.
Context {T : Type} (A : arith T).
Variables (hyp : T -> T -> T) (fcos ftanh : T -> T) (pi : T).      (* std::hypot, std::cos, std::tanh *)
Variables (junk : nat -> nat -> T) (junkv : nat -> T) (junkn : nat -> nat).   (* uninitialised storage *)
Variable lowest : T.                                               (* where a max reduction starts *)
Local Notation "# n" := (fofn A n) (at level 1, format "# n").

(* T_tide = 3600*12.42, om_tide = 2.0*pi/T_tide, amp_tide = 3.0: src/sw2d/main.cpp:281-283 *)
Definition tide_period : T := fmul A (fofZ A 3600) (fdiv A (fofZ A 1242) (fofZ A 100)).
(* amp_tide*cos(om_tide*t)*0.5*(tanh(0.15/3600*(t-T_tide))+1): 352 *)
Definition tide_at (t : T) : T :=
  let om := fdiv A (fmul A #2 pi) tide_period in
  fmul A (fmul A (fmul A #3 (fcos (fmul A om t))) (fhalf A))
    (fadd A (ftanh (fmul A (fdiv A (fdiv A #15 #100) (fofZ A 3600)) (fsub A t tide_period))) #1).

(* What the loop runs with: tables, still depth, bed slopes, sponge coefficient, fields. 105-190. The mesh's own boundary tags are
   retagged (124, 161-174); the sponge has strength 10000 and radius 1000 (179). *)
Record sw2d_ready := Sw2d { r_d : dg2d (T := T); r_H : mat T; r_Hx : mat T; r_Hy : mat T; r_S : mat T; r_q : state (T := T) }.
Definition sw2d_setup (conv : kind T) (file : option str) (opn : nat -> bool) (d : dg2d (T := T)) (F x y : mat T) (EToV : list nat) (bcType : list Z) (N Np K : nat) : outcome sw2d_ready :=
  bind (readDepthData A conv file (mkmat Np K junk)) (fun H =>
  let '(Hx, Hy) := filtered_slopes A F (bed_slopes A d Np K H) in
  let zero := mzero A Np K in let h := mzip (fadd A) H zero in
  bind (retagged junkn opn EToV 3 (S N) K bcType d) (fun d' =>
  bind (sponge_coeff A hyp junkv d' 3 (S N) Np K x y (fofZ A 10000) (fofZ A 1000) zero) (fun S =>
  Ok (Sw2d d' H Hx Hy S (h, mzip (fmul A) h zero, mzip (fmul A) h zero))))).

(* Time, number of steps, fields, and what was written: elevation and velocities under the number of the step *)
Record sw2d_sim := FSim { f_t : T; f_count : nat; f_q : state (T := T); f_out : list (nat * (mat T * mat T * mat T)) }.
(* sum(fields_n.eta) *)
Definition total (eta : mat T) : T :=
  fold_left (fun s ij => fadd A s (ment eta (fst ij) (snd ij))) (list_prod (seq 0 (mrows eta)) (seq 0 (mcols eta))) #0.
(* abs(eta_max) > 1e8 || isnan(sum(eta)): 238-239 *)
Definition blown_up (huge : T) (eta : mat T) : bool :=
  flt A huge (fabs A (max_abs A lowest eta)) || negb (fle A (total eta) (total eta)).
Definition sw2d_fields (H : mat T) (q : state (T := T)) : mat T * mat T * mat T :=
  let '(h, hu, hv) := q in (mzip (fsub A) h H, mzip (fdiv A) hu h, mzip (fdiv A) hv h).
(* One turn of the loop: 192-244. The elevation tested (238-240) is the one of line 193, before the step. *)
Definition sw2d_turn (d : dg2d (T := T)) (N Np K : nat) (g CFL huge : T) (H S : mat T) (rhs : T -> state (T := T) -> outcome (state (T := T))) (s : sw2d_sim) : outcome sw2d_sim :=
  let eta := mzip (fsub A) (fst (fst (f_q s))) H in
  bind (full_dt A junkv lowest d N 3 (Datatypes.S N) Np K g CFL (f_q s)) (fun dt =>
  let out := if (f_count s mod 20 =? 0) then (f_count s, sw2d_fields H (f_q s)) :: f_out s else f_out s in
  bind (full_step A S (rhs (f_t s)) dt (f_q s)) (fun q' =>
  if blown_up huge eta then Throw else
  Ok (FSim (fadd A (f_t s) dt) (Datatypes.S (f_count s)) q' out))).
(* the loop (192); the bound on the number of turns is the model's *)
Fixpoint sw2d_loop (fuel : nat) (d : dg2d (T := T)) (N Np K : nat) (g CFL huge finalTime : T) (H S : mat T) (rhs : T -> state (T := T) -> outcome (state (T := T))) (s : sw2d_sim) : outcome sw2d_sim :=
  match fuel with
  | O => UB
  | Datatypes.S fuel => if flt A (f_t s) finalTime
              then bind (sw2d_turn d N Np K g CFL huge H S rhs s) (sw2d_loop fuel d N Np K g CFL huge finalTime H S rhs)
              else Ok s
  end.
(* The program. The first fields written are those of line 152-157: zero elevation and velocities, under the number 0. *)
Definition sw2d_program (fuel : nat) (conv : kind T) (file : option str) (opn : nat -> bool) (d : dg2d (T := T)) (F x y : mat T) (EToV : list nat) (bcType : list Z) (N Np K : nat)
  (g CD f CFL huge t0 finalTime : T) : outcome sw2d_sim :=
  bind (sw2d_setup conv file opn d F x y EToV bcType N Np K) (fun r =>
  let zero := mzero A Np K in
  sw2d_loop fuel (r_d r) N Np K g CFL huge finalTime (r_H r) (r_S r)
    (fun t => sw_rhs A junk junkv lowest (r_d r) 3 (Datatypes.S N) Np K g CD f (tide_at t) (r_H r) (r_Hx r) (r_Hy r))
    (FSim t0 0 (r_q r) [(0, (zero, zero, zero))])).
End Sw2dRun.
Arguments FSim {T}. Arguments f_t {T}. Arguments f_count {T}. Arguments f_q {T}. Arguments f_out {T}. Arguments sw2d_sim : clear implicits.
