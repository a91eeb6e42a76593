(* TripletProps.v - properties C01-C04 of SparseTriplet. *)
From Coq Require Import ZArith List Lia Bool Sorted.
From Verif Require Import Base TripletModel TripletSpec TripletProofs.
Import ListNotations.
Local Open Scope Z_scope.

(* C01: any history of calls, from any constructed object, presents exactly the entries
   predicted by the array-free specification; the dimensions are fixed by construction. *)
Theorem C01_triplet_history :
  forall (T : Type) (zero : T) rows cols cap s0 os s ends,
  ctor T zero rows cols cap = Ok s0 -> run T zero s0 os = (s, ends) ->
  presents s (expected [] os ends) /\
  rows_ s = (if (rows =? 0) || (cols =? 0) then 0 else rows) /\
  cols_ s = (if (rows =? 0) || (cols =? 0) then 0 else cols) /\
  length ends = length os.
Proof. exact history_correct. Qed.

Example C01_witness :
  exists s0 s ends, ctor Z 0 3 3 1 = Ok s0 /\
  run Z 0 s0 [Insert 0 1 10; Insert 2 2 20; SetElem 0 11; Insert 1 0 30; Clear; Insert 1 1 5; Expand 9; Insert 0 2 6]
    = (s, ends) /\ ends = [Done;Done;Done;Done;Done;Done;Done;Done] /\
  expected [] [Insert 0 1 10; Insert 2 2 20; SetElem 0 11; Insert 1 0 30; Clear; Insert 1 1 5; Expand 9; Insert 0 2 6] ends
    = [(1,1,5); (0,2,6)] /\ nnz_ s = 2 /\ nzmax_ s = 9.
Proof. do 3 eexists. vm_compute. repeat split; reflexivity. Qed.

(* C02: capacity discipline. *)
Theorem C02_capacity :
  forall (T : Type) (zero : T) s, reachable zero s ->
  0 <= nnz_ s <= nzmax_ s /\
  Z.of_nat (length (row_ s)) = nzmax_ s /\
  Z.of_nat (length (col_ s)) = nzmax_ s /\
  Z.of_nat (length (elems_ s)) = nzmax_ s.
Proof. exact capacity. Qed.

Theorem C02_nzmax_never_decreases :
  forall (T : Type) (zero : T) s o, reachable zero s -> nzmax_ s <= nzmax_ (fst (step T zero s o)).
Proof. exact nzmax_monotone. Qed.

(* An insert throws exactly when storage is full and 1.5*nzmax (rounded up) exceeds INT_MAX;
   it then changes nothing, and an insert never touches memory out of bounds. *)
Theorem C02_insert_throws_iff :
  forall (T : Type) (zero : T) s r c v, reachable zero s ->
  (snd (insert T zero s r c v) = Threw <->
     nnz_ s = nzmax_ s /\ INT_MAX < nzmax_ s + nzmax_ s / 2 + nzmax_ s mod 2) /\
  (snd (insert T zero s r c v) = Threw -> fst (insert T zero s r c v) = s) /\
  snd (insert T zero s r c v) <> Undef.
Proof. exact insert_throws_iff. Qed.

(* Any call that throws leaves the object unchanged, and undefined behaviour arises only from
   writing through an out-of-range reference. *)
Theorem C02_throw_leaves_unchanged :
  forall (T : Type) (zero : T) s o, reachable zero s ->
  snd (step T zero s o) = Threw -> fst (step T zero s o) = s.
Proof. exact throw_unchanged. Qed.

Theorem C02_undefined_iff_out_of_range_write :
  forall (T : Type) (zero : T) s o, reachable zero s ->
  (snd (step T zero s o) = Undef <->
   match o with
   | SetRow k _ | SetCol k _ | SetElem k _ => ~ (0 <= k < nzmax_ s)
   | _ => False end).
Proof. exact undef_iff. Qed.

Example C02_witness : exists s, reachable 0 s /\ nnz_ s = 4 /\ nzmax_ s = 4.
Proof.
  eexists. split.
  - exists 5, 5, 0. eexists. exists [Insert 0 0 1; Insert 1 1 2; Insert 4 4 3; Insert 2 1 7].
    eexists. split; [reflexivity|]. split; [reflexivity|].
    simpl. intuition discriminate.
  - split; reflexivity.
Qed.

(* C03: n inserts into a new object move at most 4.5 n + 3 stored elements, per array. *)
Theorem C03_inserts_move_linearly_many :
  forall (T : Type) (zero : T) rows cols cap s0 os,
  ctor T zero rows cols cap = Ok s0 -> Forall is_insert os ->
  2 * total_moved T zero s0 os <= 9 * Z.of_nat (length os) + 6.
Proof. exact cost_linear. Qed.

Theorem C03_inserts_move_linearly_many_any_state :
  forall (T : Type) (zero : T) s os, reachable zero s -> Forall is_insert os ->
  2 * total_moved T zero s os <= 9 * (nnz_ s + Z.of_nat (length os)) + 12.
Proof. exact cost_linear_any. Qed.

Example C03_witness : exists s0, ctor Z 0 3 3 0 = Ok s0 /\
  total_moved Z 0 s0 (repeat (Insert 1 1 1) 20) = 2 + 3 + 4 + 6 + 9 + 13 + 19.
Proof. eexists. split; reflexivity. Qed.

(* C04: dense to triplet. [above] lists the kept positions row by row. *)
Theorem C04_dense_to_triplet :
  forall (T : Type) (zero : T) big ncols m,
  Forall (fun r => Z.of_nat (length r) = ncols) m ->
  Z.of_nat (length (filter big (concat m))) <= INT_MAX ->
  exists s, ctor_dense T zero big ncols m = Ok s /\
    presents s (above big m) /\
    countNonzeros big m = Ok (nnz_ s) /\ nzmax_ s = nnz_ s /\
    ((m <> [] /\ ncols <> 0) -> rows_ s = Z.of_nat (length m) /\ cols_ s = ncols).
Proof. exact dense_ok. Qed.

Theorem C04_kept_positions :
  forall (T : Type) (big : T -> bool) m i j x,
  In (i, j, x) (above big m) <->
  exists r, 0 <= i /\ 0 <= j /\ nth_error m (Z.to_nat i) = Some r /\
            nth_error r (Z.to_nat j) = Some x /\ big x = true.
Proof. exact @above_in. Qed.

Theorem C04_row_major_once_each :
  forall (T : Type) (big : T -> bool) m, StronglySorted (row_major_lt T) (above big m).
Proof. exact @above_sorted. Qed.

Theorem C04_too_many_nonzeros_throws :
  forall (T : Type) (zero : T) big ncols m,
  INT_MAX < Z.of_nat (length (filter big (concat m))) ->
  ctor_dense T zero big ncols m = Throw.
Proof. exact dense_throws. Qed.

Example C04_witness :
  exists s, ctor_dense Z 0 (fun x => 1 <? Z.abs x) 3 [[5;0;-1];[1;-7;2]] = Ok s /\
    above (fun x => 1 <? Z.abs x) [[5;0;-1];[1;-7;2]] = [(0,0,5);(1,1,-7);(1,2,2)] /\
    nnz_ s = 3 /\ rows_ s = 2 /\ cols_ s = 3.
Proof. eexists. vm_compute. repeat split; reflexivity. Qed.

Print Assumptions C01_triplet_history.
Print Assumptions C02_capacity.
Print Assumptions C02_nzmax_never_decreases.
Print Assumptions C02_insert_throws_iff.
Print Assumptions C02_throw_leaves_unchanged.
Print Assumptions C02_undefined_iff_out_of_range_write.
Print Assumptions C03_inserts_move_linearly_many.
Print Assumptions C03_inserts_move_linearly_many_any_state.
Print Assumptions C04_dense_to_triplet.
Print Assumptions C04_kept_positions.
Print Assumptions C04_row_major_once_each.
Print Assumptions C04_too_many_nonzeros_throws.
