(* InsModel.v - src/ins2d/main.cpp: computeRHS, the time step and the time loop. The reading of its configuration file is
   NamelistModel.v; the filter statement, the midpoint update and the instability test are those of sw2d-simple
   (SwStepModel.v). The Poisson operator the driver builds and factorizes (168-190) is used nowhere and left out. Arrays
   that do not conform are UB here. *)
From Coq Require Import ZArith List Bool.
From Verif Require Import Base Loops Num BlitzModel Maps2DModel Nodes1DModel RKModel Line1DModel SwModel SwStepModel.
Import ListNotations.

Section Ins.
Context {T : Type} (A : arith T).
Variable junk : nat -> nat -> T.                                   (* uninitialised matrix storage *)
Variable junkv : nat -> T.                                         (* uninitialised vector storage *)
Variable lowest : T.                                               (* where a blitz max reduction starts *)
Variable highest : T.                                              (* where a blitz min reduction starts *)

(* sqrt(u*u + v*v): src/ins2d/main.cpp:145, 241, 384-385 *)
Definition ins_speed (u v : T) : T := fsqrt A (fadd A (fmul A u u) (fmul A v v)).
(* rx*sum(Dr(ii,kk)*q(kk,jj), kk) + sx*sum(Ds(ii,kk)*q(kk,jj), kk): 366-367, 370-371 *)
Definition ins_deriv (d : dg2d (T := T)) (Np K : nat) (mr ms q : mat T) : mat T :=
  mzip (fadd A) (scaled_product A mr (d_Dr d) q Np Np K) (scaled_product A ms (d_Ds d) q Np Np K).
(* 0.5*(u*u + v*v): 369 *)
Definition ins_energy (u v : mat T) : mat T := mzip (fun a b => fmul A (half A) (fadd A (fmul A a a) (fmul A b b))) u v.
(* += sum(Lift(ii,kk)*(Fscale*dFlux)(kk,jj), kk): 419-430 *)
Definition ins_lifted (d : dg2d (T := T)) (NFp : nat) (R dFlux : mat T) : mat T := add_product A R (d_Lift d) (mzip (fmul A) (d_Fscale d) dFlux) NFp.

(* src/ins2d/main.cpp:268-432 computeRHS. vort is declared (365) and read (376-377) but never assigned: its contents are
   an argument. mapW is fetched (291) and not used again. *)
Definition ins_rhs (vort : nat -> nat -> T) (d : dg2d (T := T)) (NF Nfp Np K : nat) (g : T) (q : state (T := T)) : outcome (state (T := T)) :=
  let '(rho, u, v) := q in
  let nf := (NF * Nfp * K)%nat in
  require (dg_conform d NF Nfp Np K && state_conform q Np K)
  match hfind (d_bc d) 3 with
  | None => Throw                                                  (* bcHash.at(3) *)
  | Some _ =>
    bind (fullToVector (d_nx d) (repeat (fofn A 0) nf) false) (fun nx =>
    bind (fullToVector (d_ny d) (repeat (fofn A 0) nf) false) (fun ny =>
    bind (traces junkv d Np K nf rho) (fun '(rhoM, rhoP) => bind (traces junkv d Np K nf u) (fun '(uM, uP) => bind (traces junkv d Np K nf v) (fun '(vM, vP) =>
    let drho := zipw (fsub A) rhoM rhoP in let du := zipw (fsub A) uM uP in let dv := zipw (fsub A) vM vP in
    let F1M := zipw (fmul A) rhoM uM in let G1M := zipw (fmul A) rhoM vM in
    let F2M := zipw (fmul A) uM uM in let G2M := zipw (fmul A) uM vM in let G3M := zipw (fmul A) vM vM in
    let F1P := zipw (fmul A) rhoP uP in let G1P := zipw (fmul A) rhoP vP in
    let F2P := zipw (fmul A) uP uP in let G2P := zipw (fmul A) uP vP in let G3P := zipw (fmul A) vP vP in
    let rhox := ins_deriv d Np K (d_rx d) (d_sx d) rho in let rhoy := ins_deriv d Np K (d_ry d) (d_sy d) rho in
    let ener := ins_energy u v in
    let enerx := ins_deriv d Np K (d_rx d) (d_sx d) ener in let enery := ins_deriv d Np K (d_ry d) (d_sy d) ener in
    let R1 := mkmat Np K (fun i k => fsub A (fmul A (fopp A (ment u i k)) (ment rhox i k)) (fmul A (ment v i k) (ment rhoy i k))) in
    let R2 := mkmat Np K (fun i k => fsub A (fopp A (ment enerx i k)) (fmul A (ment v i k) (vort i k))) in
    let R3 := mkmat Np K (fun i k => fadd A (fopp A (ment enery i k)) (fmul A (ment u i k) (vort i k))) in
    let R3 := mzip (fun r h => fadd A r (fmul A (fopp A g) h)) R3 rho in
    let spd := zipw (fmax A) (zipw ins_speed uM vM) (zipw ins_speed uP vP) in
    bind (vectorToFull spd (mkmat Nfp (NF * K) junk) false) (fun lambda =>
    bind (fullToVector (column_max A lowest lambda) spd false) (fun spdMax =>
    bind (vectorToFull (jumps A nx ny F1M F1P G1M G1P spdMax drho) (mkmat (NF * Nfp) K junk) false) (fun d1 =>
    bind (vectorToFull (jumps A nx ny F2M F2P G2M G2P spdMax du) (mkmat (NF * Nfp) K junk) false) (fun d2 =>
    bind (vectorToFull (jumps A nx ny G2M G2P G3M G3P spdMax dv) (mkmat (NF * Nfp) K junk) false) (fun d3 =>
    Ok (ins_lifted d (NF * Nfp) R1 d1, ins_lifted d (NF * Nfp) R2 d2, ins_lifted d (NF * Nfp) R3 d3)))))))))))
  end.

(* 218-236: two evaluations, each filtered in place; each evaluation has its own uninitialised vort *)
Definition ins_step (F : mat T) (rhs rhs' : state (T := T) -> outcome (state (T := T))) (dt : T) (q : state (T := T)) : outcome (state (T := T)) :=
  bind (rhs q) (fun z =>
  let q1 := advance_state A (fmul A (fhalf A) dt) q (filter_state A F z) in
  bind (rhs' q1) (fun z1 => Ok (advance_state A dt q (filter_state A F z1)))).

(* Fsc = abs(fsVec)*spdM over the face nodes: 145-161, 193-194, 241-245 *)
Definition ins_fsc (d : dg2d (T := T)) (NF Nfp Np K : nat) (u v : mat T) : outcome (list T) :=
  let nf := (NF * Nfp * K)%nat in
  bind (fullToVector (mzip ins_speed u v) (vfresh junkv (Np * K)) false) (fun spdVec =>
  bind (fullToVector (d_Fscale d) (vfresh junkv nf) false) (fun fsVec =>
  bind (applyIndexMap spdVec (d_vmapM d) (vfresh junkv nf)) (fun spdM => Ok (zipw (fmul A) (map (fabs A) fsVec) spdM)))).
(* (N+1)*(N+1)*0.5*(Fsc+c0_bound), one face node *)
Definition ins_rate (N : nat) (c0 f : T) : T := fmul A (fmul A (fofn A ((N + 1) * (N + 1))) (fhalf A)) (fadd A f c0).
Definition vec_max (l : list T) : T := fold_left (fmax A) l lowest.
Definition vec_min (l : list T) : T := fold_left (fun m v => if flt A v m then v else m) l highest.
(* H, delta_rho, buoyancy_freq and c0_bound: 163-168, 246-248. The vectors y and rho are those of the initial grid and the
   initial density in both places: rhoVec is filled once, before the loop. *)
Definition buoyancy_freq (g : T) (yVec rhoVec : list T) : T :=
  fsqrt A (fdiv A (fmul A g (fsub A (vec_max rhoVec) (vec_min rhoVec))) (fabs A (fsub A (vec_max yVec) (vec_min yVec)))).
Definition c0_bound (g : T) (yVec rhoVec : list T) : T :=
  fabs A (fmul A (buoyancy_freq g yVec rhoVec) (fabs A (fsub A (vec_max yVec) (vec_min yVec)))).
(* std::min(1/max(CFL/(rate)), CFL/buoyancy_freq): 195 *)
Definition ins_first_dt (N : nat) (CFL c0 bf : T) (Fsc : list T) : T :=
  let a := fdiv A (fofn A 1) (vec_max (map (fun f => fdiv A CFL (ins_rate N c0 f)) Fsc)) in
  let b := fdiv A CFL bf in if flt A b a then b else a.
(* CFL/max(1/(rate)): 251 *)
Definition ins_dt (N : nat) (CFL c0 : T) (Fsc : list T) : T :=
  fdiv A CFL (vec_max (map (fun f => fdiv A (fofn A 1) (ins_rate N c0 f)) Fsc)).

(* 206-259; the state is that of sw2d-simple's loop, vorts n is the contents of vort in the n-th evaluation *)
Definition ins_sim_step (vorts : nat -> nat -> nat -> T) (d : dg2d (T := T)) (N NF Nfp Np K : nat) (g CFL huge c0 : T) (F : mat T) (s : swsim T) : outcome (swsim T) :=
  let '(rho, _, _) := w_q s in
  let n := w_count s in
  let out := if (n mod 10 =? 0)%nat then (n, rho) :: w_out s else w_out s in
  bind (ins_step F (ins_rhs (vorts (2 * n)%nat) d NF Nfp Np K g) (ins_rhs (vorts (2 * n + 1)%nat) d NF Nfp Np K g) (w_dt s) (w_q s)) (fun q' =>
  let '(rho', u', v') := q' in
  if unstable A lowest huge rho' then Throw else
  bind (ins_fsc d NF Nfp Np K u' v') (fun Fsc =>
  let dt' := ins_dt N CFL c0 Fsc in
  Ok (SwSim (fadd A (w_t s) dt') dt' (S n) q' out))).
Fixpoint ins_loop (fuel : nat) (vorts : nat -> nat -> nat -> T) (d : dg2d (T := T)) (N NF Nfp Np K : nat) (g CFL huge c0 finalTime : T) (F : mat T) (s : swsim T) : outcome (swsim T) :=
  match fuel with
  | O => UB                                                        (* the bound on the number of steps is the model's *)
  | S fuel => if flt A (w_t s) finalTime
              then bind (ins_sim_step vorts d N NF Nfp Np K g CFL huge c0 F s) (ins_loop fuel vorts d N NF Nfp Np K g CFL huge c0 finalTime F)
              else Ok s
  end.
End Ins.
