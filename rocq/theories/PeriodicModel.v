(* PeriodicModel.v - swhelpers/maps.py: makeMapsPeriodic and correctBCTable. Indices are not negative. numpy arrays given
   with different lengths where one entry belongs to each node are UB here (numpy raises, or stretches an array of length
   one). An index that is too large raises IndexError, and so does the truth value of an array of several entries (ValueError). *)
From Coq Require Import ZArith List Bool Arith.
From Verif Require Import Base Loops Num Line1DModel.
Import ListNotations.
Local Open Scope nat_scope.

(* a[i] in Python *)
Definition at_ {X} (l : list X) (i : nat) : outcome X := match nth_error l i with Some a => Ok a | None => Throw end.
(* the results of f on the entries of l, in order; the first failure ends the loop *)
Fixpoint each_entry {X Y} (f : X -> outcome Y) (l : list X) : outcome (list Y) :=
  match l with [] => Ok [] | a :: r => bind (f a) (fun b => bind (each_entry f r) (fun s => Ok (b :: s))) end.
(* if array: (numpy still takes an empty array for False) *)
Definition truth (l : list bool) : outcome bool := match l with [] => Ok false | [b] => Ok b | _ => Throw end.
(* abs(a - b) <= 1 *)
Definition beside (a b : nat) : bool := (a <=? b + 1) && (b <=? a + 1).

Section Periodic.
Context {T : Type} (A : arith T).
Variables (milli micro : T).                                     (* the literals 1e-3 and 1e-6 *)

(* maps.py:7-14: the entries of vmapO whose y is that of node i and whose x is far away *)
Definition opposite_to (x y : T) (x' y' : T) : bool := flt A (fabs A (fsub A y' y)) milli && flt A (fofZ A 1000) (fabs A (fsub A x' x)).
Definition candidates (vmapO : list nat) (xFlat yFlat xO yO : list T) (i : nat) : outcome (list nat) :=
  bind (at_ xFlat i) (fun x => bind (at_ yFlat i) (fun y =>
  Ok (map snd (filter (fun e => opposite_to x y (fst (fst e)) (snd (fst e))) (combine (combine xO yO) vmapO))))).

(* maps.py:20-31: the partner of the i-th entry, whose candidates are l; all are the candidates of all entries *)
Definition choose (all : list (list nat)) (i : nat) (l : list nat) : outcome nat :=
  match l with
  | [a] => Ok a
  | _ =>
    bind (at_ l 0) (fun a =>
    bind (if i =? 0 then bind (at_ all 1) (fun n => truth (map (fun b => beside b a) n))
          else if i <? length all - 1 then
            bind (at_ all (i - 1)) (fun p => bind (at_ p 0) (fun b => if beside b a then Ok true else
            bind (at_ all (i + 1)) (fun n => bind (at_ n 0) (fun b => Ok (beside b a)))))
          else bind (at_ all (i - 1)) (fun p => truth (map (fun b => beside b a) p)))
      (fun first => if first then Ok a else at_ l 1))
  end.

(* dict.fromkeys: the keys in the order in which they first appear *)
Fixpoint keys_of (l : list nat) : list nat := match l with [] => [] | a :: r => a :: filter (fun b => negb (b =? a)) (keys_of r) end.
(* maps.py:36-37: the i-th key gets the i-th partner. There are at most as many keys as partners. *)
Definition lookup (keys partners : list nat) (v : nat) : option nat := option_map snd (find (fun e => fst e =? v) (combine keys partners)).

(* maps.py:39-42 *)
Fixpoint redirect (look : nat -> option nat) (i : nat) (vmapM vmapP : list nat) : outcome (list nat) :=
  match vmapM with
  | [] => Ok vmapP
  | v :: r => match look v with
              | None => redirect look (S i) r vmapP
              | Some p => if i <? length vmapP then redirect look (S i) r (upd vmapP i p) else Throw
              end
  end.

(* maps.py:3-44. vmapM is returned as it was given; vmapP is changed in place and returned. *)
Definition make_periodic (vmapM vmapP vmapO : list nat) (xFlat yFlat xO yO : list T) : outcome (list nat * list nat) :=
  require ((length xO =? length vmapO) && (length yO =? length vmapO))
  (bind (each_entry (candidates vmapO xFlat yFlat xO yO) vmapO) (fun all =>
   bind (each_entry (fun i => bind (at_ all i) (choose all i)) (seq 0 (length all))) (fun partners =>
   bind (redirect (lookup (keys_of vmapO) partners) 0 vmapM vmapP) (fun P => Ok (vmapM, P))))).

(* maps.py:48-65 correctBCTable. bcType has one row of (at least) three tags per element, Verts one row per vertex, of
   which the first two entries are used. *)
Definition on_open_line (x1 x2 : T) : bool :=
  let mid := fmul A (fdiv A (fofZ A 1) (fofZ A 2)) (fadd A x1 x2) in
  flt A (fabs A (fsub A mid (fofZ A 0))) micro || flt A (fabs A (fsub A mid (fofZ A 8000))) micro.
Definition correct_side (Verts : list (list T)) (tag : Z) (ends : list nat) (fi : nat * list nat) (row : list Z) : outcome (list Z) :=
  let f := snd fi in
  bind (at_ f 0) (fun a => bind (at_ f 1) (fun b => bind (at_ ends a) (fun v1 => bind (at_ ends b) (fun v2 =>
  bind (at_ Verts v1) (fun p1 => bind (at_ Verts v2) (fun p2 =>
  bind (at_ p1 0) (fun x1 => bind (at_ p1 1) (fun _ => bind (at_ p2 0) (fun x2 => bind (at_ p2 1) (fun _ =>
  if on_open_line x1 x2 then (if fst fi <? length row then Ok (upd row (fst fi) tag) else Throw) else Ok row)))))))))).
Fixpoint correct_row (Verts : list (list T)) (tag : Z) (ends : list nat) (sides : list (nat * list nat)) (row : list Z) : outcome (list Z) :=
  match sides with [] => Ok row | fi :: r => bind (correct_side Verts tag ends fi row) (correct_row Verts tag ends r) end.
Definition correct_table (bcType : list (list Z)) (EToV : list (list nat)) (Verts : list (list T)) (tag : Z) : outcome (list (list Z)) :=
  each_entry (fun e => bind (at_ bcType e) (fun row => bind (at_ EToV e) (fun ends =>
      correct_row Verts tag ends [(0, [0; 1]); (1, [1; 2]); (2, [2; 0])] row))) (seq 0 (length bcType)).
End Periodic.
