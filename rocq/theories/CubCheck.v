(* CubCheck.v - a fixed-point computation that decides how well a table integrates monomials.
   Numbers are integers in units of 2^-64. CubProofs.v says what a positive answer means. *)
From Coq Require Import ZArith List Bool.
From Verif Require Import CubTable.
Import ListNotations.
Local Open Scope Z_scope.

Definition SH : Z := 64.
Definition ten15 : Z := 1000000000000000.
Definition cell_num (c : cell) : Z := match c with L z => z | D z1 z2 => z1 - z2 end.
Fixpoint triples (l : list Z) : list (Z * Z * Z) :=
  match l with a :: b :: c :: l => (a, b, c) :: triples l | _ => [] end.
Definition rR (t : Z * Z * Z) := fst (fst t).
Definition rS (t : Z * Z * Z) := snd (fst t).
Definition rW (t : Z * Z * Z) := snd t.

(* (1 + z*10^-15)/2 and z*10^-15, rounded down. *)
Definition fixu (z : Z) : Z := Z.shiftl (ten15 + z) (SH - 1) / ten15.
Definition fixw (z : Z) : Z := Z.shiftl z SH / ten15.
Fixpoint mulsh (ps us : list Z) : list Z :=
  match ps, us with p :: ps, u :: us => Z.shiftr (p * u) SH :: mulsh ps us | _, _ => [] end.
Fixpoint sumZ (l : list Z) : Z := match l with [] => 0 | x :: l => x + sumZ l end.
Fixpoint factZ (n : nat) : Z := match n with O => 1 | S m => Z.of_nat n * factZ m end.

(* |sum - 4 a! b!/(a+b+2)!| <= 12*10^-15 *)
Definition test (a b : nat) (s : Z) : bool :=
  let f := factZ (a + b + 2) in
  Z.abs (s * f - 4 * factZ a * factZ b * 2 ^ SH) * ten15 <=? 12 * 2 ^ SH * f.

Fixpoint loop_b (k a b : nat) (qs vs : list Z) : bool :=
  if test a b (sumZ qs) then match k with O => true | S k => loop_b k a (S b) (mulsh qs vs) vs end else false.
Fixpoint loop_a (lim : nat -> nat -> nat) (k a : nat) (ps us vs : list Z) : bool :=
  if loop_b (lim a k) a 0 ps vs
  then match k with O => true | S k => loop_a lim k (S a) (mulsh ps us) us vs end else false.

Definition check (lim : nat -> nat -> nat) (n : nat) (t : list (Z * Z * Z)) : bool :=
  loop_a lim n 0 (map (fun x => fixw (rW x)) t) (map (fun x => fixu (rR x)) t) (map (fun x => fixu (rS x)) t).

(* Points inside the triangle by more than 10^-9, weights positive. *)
Definition row_ok (x : Z * Z * Z) : bool :=
  (- 999999999000000 <=? rR x) && (- 999999999000000 <=? rS x) && (rR x + rS x <=? - 1000000) && (1 <=? rW x) && (rW x <=? 2000000000000000).

(* Exchanging r and s permutes the points. *)
Definition row_eqb (x y : Z * Z * Z) : bool := (rR x =? rR y) && (rS x =? rS y) && (rW x =? rW y).
Definition count (x : Z * Z * Z) (t : list (Z * Z * Z)) : nat := List.length (filter (row_eqb x) t).
Definition swap (x : Z * Z * Z) : Z * Z * Z := (rS x, rR x, rW x).
Definition symmetric (t : list (Z * Z * Z)) : bool := forallb (fun x => Nat.eqb (count x t) (count (swap x) t)) t.

Definition rows_of (n : Z) : list (Z * Z * Z) :=
  match nth_error tables (Z.to_nat (n - 1)) with Some (_, cs) => triples (map cell_num cs) | None => [] end.
Definition plain (cs : list cell) : bool := forallb (fun c => match c with L _ => true | D _ _ => false end) cs.
Definition shape_ok (e : nat * list cell) : bool := plain (snd e) && (List.length (snd e) =? 3 * fst e)%nat && (fst e <=? 225)%nat.

Definition entry_ok (n : nat) (e : nat * list cell) (sym : bool) : bool :=
  let t := triples (map cell_num (snd e)) in
  shape_ok e && forallb row_ok t &&
  (if sym then symmetric t && check Nat.min n t else check (fun _ k => k) n t).
