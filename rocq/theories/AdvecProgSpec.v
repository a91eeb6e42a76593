(* AdvecProgSpec.v - what is said about the program advec1d. value, follows: AdvecRunSpec.v; largest_at: BurgersRunSpec.v. *)
From Coq Require Import Reals.
Local Open Scope R_scope.

(* the bell curve of height 1 about 0, carried along with speed c *)
Definition bell (c x t : R) : R := exp (- 10 * (x - c * t) ^ 2).
(* u(x,t) has both derivatives everywhere and u_t + c u_x = 0 *)
Definition solves_advection (c : R) (u : R -> R -> R) : Prop :=
  forall x t, exists ut ux, derivable_pt_lim (fun s => u x s) t ut /\ derivable_pt_lim (fun y => u y t) x ux /\ ut + c * ux = 0.
(* the solution for x >= a that starts as the bell curve when nothing comes in at a *)
Definition shut_in (a c x t : R) : R := if Rlt_dec (x - c * t) a then 0 else bell c x t.
