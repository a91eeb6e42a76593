(* RKModel.v - include/LSERK4.hpp and the time loops of src/advec1d/main.cpp and src/burgers1d/main.cpp.
   A field (Np x K array) is the list of its entries; the right-hand side is a parameter that may
   depend on the time of the step. *)
From Coq Require Import ZArith List Bool.
From Verif Require Import Base Loops Num.
Import ListNotations.

Section RK.
Context {T : Type} (A : arith T).

(* include/LSERK4.hpp:17-27 *)
Definition numStages : nat := 5.
Definition rk4a : list T :=
  [ fofZ A 0;
    fdiv A (fopp A (fofZ A 567301805773)) (fofZ A 1357537059087);
    fdiv A (fopp A (fofZ A 2404267990393)) (fofZ A 2016746695238);
    fdiv A (fopp A (fofZ A 3550918686646)) (fofZ A 2091501179385);
    fdiv A (fopp A (fofZ A 1275806237668)) (fofZ A 842570457699) ].
Definition rk4b : list T :=
  [ fdiv A (fofZ A 1432997174477) (fofZ A 9575080441755);
    fdiv A (fofZ A 5161836677717) (fofZ A 13612068292357);
    fdiv A (fofZ A 1720146321549) (fofZ A 2090206949498);
    fdiv A (fofZ A 3134564353537) (fofZ A 4481467310338);
    fdiv A (fofZ A 2277821191437) (fofZ A 14882151754819) ].

(* An elementwise array expression of two arrays of the same shape. *)
Fixpoint zipw (f : T -> T -> T) (x y : list T) : list T :=
  match x, y with a :: x, b :: y => f a b :: zipw f x y | _, _ => [] end.

(* One stage: src/advec1d/main.cpp:94-101, src/burgers1d/main.cpp:90-97. The state is (u, resRK).
   The coefficient tables are arguments so that they can be named in statements. *)
Definition stage (ca cb : list T) (rhs : list T -> outcome (list T)) (dt : T) (i : nat) (st : list T * list T) : outcome (list T * list T) :=
  let '(u, res) := st in
  bind (getn ca i) (fun a => bind (getn cb i) (fun b =>
  bind (rhs u) (fun RHS =>
  let res' := zipw (fun r f => fadd A (fmul A a r) (fmul A dt f)) res RHS in
  let u' := zipw (fun v r => fadd A v (fmul A b r)) u res' in
  Ok (u', res')))).

(* the stage loop: src/advec1d/main.cpp:92-102, src/burgers1d/main.cpp:88-98 *)
Definition rk_step (rhs : list T -> outcome (list T)) (dt : T) (st : list T * list T) : outcome (list T * list T) :=
  for_ numStages (stage rk4a rk4b rhs dt) st.

(* src/advec1d/main.cpp:86-111, src/burgers1d/main.cpp:82-107. The state is time, step count, u, resRK
   and the fields written so far, newest first; a file is identified by its count (C52 has the names).
   unstable stands for u_max > 1e8 || isnan(u_max). The bound on the number of steps is the model's. *)
Record sim := Sim { s_t : T; s_count : nat; s_u : list T; s_res : list T; s_out : list (nat * list T) }.
Definition sim_step (rhs : T -> list T -> outcome (list T)) (unstable : list T -> bool) (dt : T) (s : sim) : outcome sim :=
  let out := if (s_count s mod 10 =? 0)%nat then (s_count s, s_u s) :: s_out s else s_out s in
  bind (rk_step (rhs (s_t s)) dt (s_u s, s_res s)) (fun '(u', res') =>
  if unstable u' then Throw
  else Ok (Sim (fadd A (s_t s) dt) (S (s_count s)) u' res' out)).
Fixpoint sim_loop (fuel : nat) (rhs : T -> list T -> outcome (list T)) (unstable : list T -> bool) (dt finalTime : T) (s : sim) : outcome sim :=
  match fuel with
  | O => UB
  | S fuel => if flt A (s_t s) finalTime
              then bind (sim_step rhs unstable dt s) (sim_loop fuel rhs unstable dt finalTime)
              else Ok s
  end.
End RK.
Arguments sim : clear implicits. Arguments Sim {T}. Arguments s_t {T}. Arguments s_count {T}. Arguments s_u {T}. Arguments s_res {T}. Arguments s_out {T}.
