(* BurgersRunModel.v - the program src/burgers1d/main.cpp from the node object to the printed error: the loop of RKModel with the
   right-hand side of Line1DModel. The constants of lines 31-44 are arguments; printing is left out, the printed number is returned. *)
From Coq Require Import ZArith List Bool Arith.
From Verif Require Import Base Loops Num BlitzModel Nodes1DModel RKModel Line1DModel AdvecRunModel.
Import ListNotations.
Local Open Scope nat_scope.

Section BurgersRun.
Context {T : Type} (A : arith T).
Variable junk : nat -> nat -> T.
Variable junkv : nat -> T.
Variables (ftanh : T -> T) (lowest : T).

(* src/burgers1d/main.cpp:58-60. min_dx is the distance of the first two nodes; std::min(a,b) gives b if b < a, else a. *)
Definition burgers_dt (CFL c nu : T) (x : mat T) : T :=
  let min_dx := fsub A (ment x 1 0) (ment x 0 0) in
  let p := fdiv A min_dx (fabs A c) in
  let q := fdiv A (fmul A min_dx min_dx) (fsqrt A nu) in
  fmul A CFL (if flt A q p then q else p).

(* the matrix form of Burgers2: src/burgers1d/main.cpp:123-125 *)
Definition burgers_profile (x : mat T) (t alpha nu c : T) : mat T := Line1DModel.mmap (fun v => Burgers2 A ftanh v t alpha nu c) x.

(* src/burgers1d/main.cpp:100-101: u_max = normMax(u), then u_max > 1e8 || isnan(u_max). isnan(v) is not (v <= v). *)
Definition burgers_unstable (huge : T) (Np K : nat) (l : list T) : bool :=
  let u_max := max_abs A lowest (as_field A Np K l) in flt A huge u_max || negb (fle A u_max u_max).

(* src/burgers1d/main.cpp:58-112 on the tables of the nodes object. The result is the state at the end of the loop and err. *)
Definition burgers_run (fuel : nat) (n : nodes1d) (rx Fscale : mat T) (Np K : nat) (huge CFL c alpha nu finalTime : T) : outcome (sim T * T) :=
  let zero := fofn A 0 in
  bind (sim_loop A fuel (fun t => on_lists A Np K (burgers_rhs A junk junkv ftanh lowest n rx Fscale Np K (n_x n) t c alpha nu))
          (burgers_unstable huge Np K) (burgers_dt CFL c nu (n_x n)) finalTime
          (Sim zero 0 (of_field (burgers_profile (n_x n) zero alpha nu c)) (repeat zero (Np * K)) []))
  (fun s =>
   let uexact := burgers_profile (n_x n) (s_t s) alpha nu c in
   Ok (s, max_abs A lowest (Line1DModel.mzip (fsub A) (as_field A Np K (s_u s)) uexact))).
End BurgersRun.
