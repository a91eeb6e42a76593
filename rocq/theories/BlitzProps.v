(* BlitzProps.v - properties C11-C14 and C55 of the array helpers in include/BlitzHelpers.hpp. *)
From Coq Require Import ZArith QArith List Lia Bool Permutation Sorted Reals Lra.
From Verif Require Import Base Loops BlitzModel BlitzSpec BlitzProofs UniqueProofs.
Import ListNotations.
Local Open Scope nat_scope.

(* ---- C11 ---- *)
Theorem C11_flatten_positions :
  forall (T : Type) (m : mat T) byRows arr, mrows m * mcols m <= length arr ->
  exists arr', reshapeMatTo1D m byRows arr = Ok arr' /\ length arr' = length arr /\
    (forall i j, i < mrows m -> j < mcols m ->
       nth_error arr' (flat_index byRows (mrows m) (mcols m) i j) = Some (ment m i j)) /\
    (forall k, mrows m * mcols m <= k -> nth_error arr' k = nth_error arr k).
Proof. exact @to1d_spec. Qed.

Theorem C11_unflatten_positions :
  forall (T : Type) (m : mat T) byRows arr, mrows m * mcols m <= length arr ->
  exists m', reshape1DToMat arr byRows m = Ok m' /\ mrows m' = mrows m /\ mcols m' = mcols m /\
    (forall i j, i < mrows m -> j < mcols m ->
       nth_error arr (flat_index byRows (mrows m) (mcols m) i j) = Some (ment m' i j)).
Proof. exact @from1d_spec. Qed.

Theorem C11_matrix_round_trip :
  forall (T : Type) (m m0 : mat T) byRows arr,
  mrows m0 = mrows m -> mcols m0 = mcols m -> mrows m * mcols m <= length arr ->
  exists arr' m', reshapeMatTo1D m byRows arr = Ok arr' /\
    reshape1DToMat arr' byRows m0 = Ok m' /\ meq m' m.
Proof. exact @roundtrip_mat. Qed.

Theorem C11_array_round_trip :
  forall (T : Type) (arr arr0 : list T) (m0 : mat T) byRows,
  length arr = mrows m0 * mcols m0 -> length arr0 = length arr ->
  exists m' arr', reshape1DToMat arr byRows m0 = Ok m' /\
    reshapeMatTo1D m' byRows arr0 = Ok arr' /\ arr' = arr.
Proof. exact @roundtrip_arr. Qed.

Theorem C11_vector_full_round_trip :
  forall (T : Type) (vec vec0 : list T) (m0 : mat T) byRows,
  length vec = mrows m0 * mcols m0 -> length vec0 = length vec ->
  exists m' vec', vectorToFull vec m0 byRows = Ok m' /\ fullToVector m' vec0 byRows = Ok vec' /\ vec' = vec.
Proof. exact @roundtrip_arr. Qed.

Theorem C11_applyIndexMap :
  forall (T : Type) (vec : list T) (map : list nat) (out : list T),
  length map <= length out -> (forall k ix, nth_error map k = Some ix -> ix < length vec) ->
  exists out', applyIndexMap vec map out = Ok out' /\ length out' = length out /\
    (forall k ix, nth_error map k = Some ix -> nth_error out' k = nth_error vec ix) /\
    (forall k, length map <= k -> nth_error out' k = nth_error out k).
Proof. exact @applyIndexMap_ok. Qed.

Example C11_witness :
  reshapeMatTo1D (mkmat 2 3 (fun i j => 10 * i + j)) false [7;7;7;7;7;7;7] = Ok [0;10;1;11;2;12;7].
Proof. reflexivity. Qed.

(* ---- C12 ---- *)
Theorem C12_kron_is_kronecker_of_transpose :
  forall (T : Type) (mul : T -> T -> T) junk (A B : mat T), mrows A = mcols A ->
  exists C, kron mul junk A B = Ok C /\ meq C (kronecker mul (mtranspose A) B).
Proof. exact @kron_is_transposed. Qed.

(* kron returns the Kronecker product exactly when A is symmetric or B is zero. *)
Theorem C12_kron_correct_iff :
  forall (T : Type) (mul : T -> T -> T) (zero : T) junk (A B : mat T),
  (forall a b c, mul a c = mul b c -> a = b \/ c = zero) ->
  (forall a, mul a zero = zero) ->
  mrows A = mcols A ->
  exists C, kron mul junk A B = Ok C /\
   (meq C (kronecker mul A B) <->
    (forall i j, i < mrows A -> j < mrows A -> ment A i j = ment A j i) \/
    (forall p q, p < mrows B -> q < mcols B -> ment B p q = zero)).
Proof. exact @kron_correct_iff. Qed.

Theorem C12_kron_nonsquare_writes_out_of_bounds :
  forall (T : Type) (mul : T -> T -> T) junk (A B : mat T),
  mrows A <> mcols A -> 0 < mrows A -> 0 < mcols A -> 0 < mrows B -> 0 < mcols B ->
  kron mul junk A B = UB.
Proof. exact @kron_nonsquare. Qed.

(* The documented contract C = kron(A,B) fails. *)
Theorem C12_kron_documented_contract_refuted :
  exists (A B C : mat Z), mrows A = mcols A /\ kron Z.mul (fun _ _ => 0%Z) A B = Ok C /\
    ~ meq C (kronecker Z.mul A B).
Proof.
  exists (mkmat 2 2 (fun i j => Z.of_nat (2 * i + j))), (mkmat 1 1 (fun _ _ => 1%Z)).
  eexists. split; [reflexivity|]. split; [vm_compute; reflexivity|].
  intros (_ & _ & H). specialize (H 0 1). vm_compute in H. specialize (H ltac:(lia) ltac:(lia)). discriminate.
Qed.

Example C12_witness : exists C,
  kron Z.mul (fun _ _ => 77%Z) (mkmat 2 2 (fun i j => Z.of_nat (1 + i * j))) (mkmat 1 2 (fun _ j => Z.of_nat (3 + j))) = Ok C /\
  mrows C = 2 /\ mcols C = 4 /\ ment C 1 3 = 8%Z /\ ment C 0 1 = 4%Z /\
  (forall a b c, Z.mul a c = Z.mul b c -> a = b \/ c = 0%Z).
Proof. eexists. split; [vm_compute; reflexivity|]. vm_compute. repeat split; auto. intros a b c H.
  destruct (Z.eq_dec c 0); auto. left. now apply Z.mul_cancel_r in H. Qed.

(* ---- C13: for any std::sort and any strict weak order on the entries (e.g. doubles that are
   not NaN) ---- *)
Theorem C13_unique :
  forall (T : Type) (ltb : T -> T -> bool) sort (A : nat -> nat -> T) rows cols,
  strict_weak ltb -> is_sort sort -> 0 < rows ->
  exists gather scatter, unique T ltb sort A rows cols = Ok (gather, scatter) /\
    labelling rows gather scatter /\
    (forall q r, represents gather scatter q r -> same_row ltb A cols q r) /\
    (forall g1 g2 q1 q2, nth_error gather g1 = Some q1 -> nth_error gather g2 = Some q2 ->
        g1 <> g2 -> ~ same_row ltb A cols q1 q2) /\
    (forall r, r < rows -> exists q, represents gather scatter q r).
Proof. exact unique_correct. Qed.

(* On a matrix without rows the result is not a labelling: gather names row 0. *)
Theorem C13_unique_zero_rows_refuted :
  forall (T : Type) (ltb : T -> T -> bool) sort (A : nat -> nat -> T) cols,
  strict_weak ltb -> is_sort sort ->
  unique T ltb sort A 0 cols = Ok ([0], []) /\ ~ labelling 0 [0] [].
Proof.
  intros T ltb sort A cols H1 H2. split; [now apply unique_zero_rows|].
  intros (_ & _ & H & _). destruct (H 0 0 eq_refl). lia.
Qed.

Lemma Zltb_strict_weak : strict_weak Z.ltb.
Proof.
  apply mk_strict_weak; intros.
  - apply Z.ltb_lt in H. apply Z.ltb_ge. lia.
  - apply Z.ltb_ge in H, H0. apply Z.ltb_ge. lia.
Qed.

Example C13_witness :
  strict_weak Z.ltb /\ is_sort isort /\
  unique Z Z.ltb isort (fun i j => nth j (nth i [[3;1];[1;2];[3;1];[0;9];[1;2]]%Z []) 0%Z) 5 2
   = Ok ([3;1;0], [2;1;2;0;1]).
Proof. split; [apply Zltb_strict_weak|]. split; [apply isort_is_sort|]. reflexivity. Qed.

(* ---- C14 ---- *)
Theorem C14_uniquetol :
  forall (T : Type) (ltb : T -> T -> bool) zero add sub mul div abs of_nat sort (A : nat -> nat -> T) rows cols,
  strict_weak ltb -> is_sort sort ->
  forall tol, 0 < rows -> 0 < cols -> ltb zero tol = true ->
  exists gather scatter,
    uniquetol T ltb zero add sub mul div abs of_nat sort A rows cols tol = Ok (gather, scatter) /\
    labelling rows gather scatter /\
    (forall r, r < rows -> exists q, represents gather scatter q r /\
        (r = q \/ within_tol ltb zero sub mul abs A rows cols tol q r)) /\
    (* representatives are pairwise beyond tolerance, when |a-c| >= |a-b| for a <= b <= c *)
    ((forall a b c, ltb b a = false -> ltb c b = false -> ltb (abs (sub a c)) (abs (sub a b)) = false) ->
     forall a b x y, a < b -> nth_error gather a = Some x -> nth_error gather b = Some y ->
       beyond_tol ltb zero sub mul abs A rows cols tol x y) /\
    (* and a row carries the label of the first representative it is within tolerance of *)
    ((forall a b c, ltb b a = false -> ltb c b = false -> ltb (abs (sub a c)) (abs (sub a b)) = false) ->
     forall r idx a x, nth_error scatter r = Some idx -> a < idx -> nth_error gather a = Some x ->
       beyond_tol ltb zero sub mul abs A rows cols tol x r).
Proof. intros; apply uniquetol_correct; assumption. Qed.
(* So rows that agree get the same label, in arithmetic in which a number is within tolerance of itself. *)
Theorem C14_equal_rows :
  forall (T : Type) (ltb : T -> T -> bool) zero add sub mul div abs of_nat sort (A : nat -> nat -> T) rows cols,
  strict_weak ltb -> is_sort sort ->
  forall tol, 0 < rows -> 0 < cols -> ltb zero tol = true ->
  (forall a b c, ltb b a = false -> ltb c b = false -> ltb (abs (sub a c)) (abs (sub a b)) = false) ->
  (forall j M a, is_max_abs ltb zero abs A rows j M -> ltb (mul M tol) (abs (sub a a)) = false) ->
  (forall j M M' v, is_max_abs ltb zero abs A rows j M -> is_max_abs ltb zero abs A rows j M' -> ltb (mul M tol) v = ltb (mul M' tol) v) ->
  forall gather scatter r r', uniquetol T ltb zero add sub mul div abs of_nat sort A rows cols tol = Ok (gather, scatter) ->
  r < rows -> r' < rows -> (forall j, j < cols -> A r j = A r' j) -> nth_error scatter r = nth_error scatter r'.
Proof.
  intros T ltb zero add sub mul div abs of_nat sort A rows cols SW IS tol Hr Hc Ht Hmono Hself Hmax gather scatter r r' E Hr1 Hr2 Heq.
  destruct (C14_uniquetol T ltb zero add sub mul div abs of_nat sort A rows cols SW IS tol Hr Hc Ht) as (g & s & E' & HL & HR & _ & HF).
  rewrite E in E'. injection E' as <- <-. specialize (HF Hmono).
  destruct (HR r Hr1) as (q & (i & Q1 & Q2) & Q3), (HR r' Hr2) as (q' & (i' & Q1' & Q2') & Q3'). rewrite Q1, Q1'. f_equal.
  assert (HX : forall r r' q i i', (forall j, j < cols -> A r j = A r' j) -> nth_error scatter r' = Some i' -> nth_error gather i = Some q ->
     (r = q \/ within_tol ltb zero sub mul abs A rows cols tol q r) -> i < i' -> False).
  { clear - HF Hself Hmax. intros r r' q i i' Heq Q1' Q2 Q3 Hi. destruct (HF r' i' i q Q1' Hi Q2) as (j & M & Hj & HM & HB).
    rewrite <- (Heq j Hj) in HB. destruct Q3 as [<-|Q3].
    - rewrite (Hself j M _ HM) in HB. discriminate.
    - destruct (Q3 j Hj) as (M' & HM' & HB'). rewrite (Hmax j M' M _ HM' HM) in HB'. congruence. }
  destruct (Nat.lt_trichotomy i i') as [Hlt|[He|Hlt]]; [exfalso|exact He|exfalso].
  - exact (HX r r' q i i' Heq Q1' Q2 Q3 Hlt).
  - refine (HX r' r q' i' i _ Q1 Q2' Q3' Hlt). intros j Hj. symmetry. auto.
Qed.

Theorem C14_uniquetol_nonpositive_is_unique :
  forall (T : Type) (ltb : T -> T -> bool) zero add sub mul div abs of_nat sort (A : nat -> nat -> T) rows cols tol,
  ltb zero tol = false ->
  uniquetol T ltb zero add sub mul div abs of_nat sort A rows cols tol = unique T ltb sort A rows cols.
Proof. intros; apply uniquetol_nonpositive; assumption. Qed.

Lemma Qlt_strict_weak : strict_weak (fun a b => negb (Qle_bool b a)).
Proof.
  apply mk_strict_weak.
  - intros x y H. apply negb_true_iff in H. apply negb_false_iff. apply Qle_bool_iff.
    apply not_true_iff_false in H. rewrite Qle_bool_iff in H. apply Qnot_le_lt in H. now apply Qlt_le_weak.
  - intros x y z H1 H2. apply negb_false_iff in H1, H2. apply negb_false_iff.
    rewrite Qle_bool_iff in *. eapply Qle_trans; eauto.
Qed.

Definition Qltb (a b : Q) : bool := negb (Qle_bool b a).
Definition qmat (l : list (list Q)) (i j : nat) : Q := nth j (nth i l []) 0%Q.
Definition qofnat (n : nat) : Q := inject_Z (Z.of_nat n).

Example C14_witness :
  strict_weak Qltb /\ is_sort isort /\
  (forall a b c, Qltb b a = false -> Qltb c b = false -> Qltb (Qabs.Qabs (a - c)%Q) (Qabs.Qabs (a - b)%Q) = false) /\
  uniquetol Q Qltb 0%Q Qplus Qminus Qmult Qdiv Qabs.Qabs qofnat isort
    (qmat [[1;0];[9#10;5];[101#100;1#100];[1;5];[0;0]]%Q) 5 2 (2#100)%Q
   = Ok ([4;0;1;3], [1;2;1;3;0]).
Proof.
  split; [apply Qlt_strict_weak|]. split; [apply isort_is_sort|]. split; [|vm_compute; reflexivity].
  unfold Qltb. intros a b c H1 H2. apply negb_false_iff in H1, H2. apply negb_false_iff.
  rewrite Qle_bool_iff in *.
  rewrite (Qabs.Qabs_neg (a - b)), (Qabs.Qabs_neg (a - c)).
  - apply Qopp_le_compat. apply Qplus_le_compat; [apply Qle_refl|]. now apply Qopp_le_compat.
  - rewrite <- (Qplus_opp_r c). apply Qplus_le_compat; [|apply Qle_refl]. eapply Qle_trans; eauto.
  - rewrite <- (Qplus_opp_r b). apply Qplus_le_compat; [auto|apply Qle_refl].
Qed.

Print Assumptions C14_equal_rows.
(* What it asks of the arithmetic holds for rationals, whatever the matrix. *)
Example C14_equal_rows_witness :
  (forall (A : nat -> nat -> Q) rows tol j M M' v, (0 < rows)%nat -> is_max_abs Qltb 0%Q Qabs.Qabs A rows j M -> is_max_abs Qltb 0%Q Qabs.Qabs A rows j M' -> Qltb (M * tol)%Q v = Qltb (M' * tol)%Q v) /\
  (forall (A : nat -> nat -> Q) rows tol j M a, (0 < rows)%nat -> (0 < tol)%Q -> is_max_abs Qltb 0%Q Qabs.Qabs A rows j M -> Qltb (M * tol)%Q (Qabs.Qabs (a - a)%Q) = false) /\
  uniquetol Q Qltb 0%Q Qplus Qminus Qmult Qdiv Qabs.Qabs qofnat isort (qmat [[1;0];[9#10;5];[1;0];[1;5]]%Q) 4 2 (2#100)%Q = Ok ([0;1;3], [0;1;0;2]).
Proof.
  assert (Hle : forall x y, Qltb x y = false <-> (y <= x)%Q) by (intros; unfold Qltb; rewrite negb_false_iff; apply Qle_bool_iff).
  split; [|split; [|vm_compute; reflexivity]].
  - intros A rows tol j M M' v Hr HM HM'. destruct (max_unique Q Qltb A rows Qlt_strict_weak 0%Q Qabs.Qabs j M M' HM HM' Hr) as (H1 & H2); [intro x; apply Hle, Qabs.Qabs_nonneg|].
    apply Hle in H1, H2. assert (E : (M == M')%Q) by (apply Qle_antisym; assumption).
    unfold Qltb. f_equal. apply eq_true_iff_eq. rewrite !Qle_bool_iff, E. reflexivity.
  - intros A rows tol j M a Hr Ht (HM & _). apply Hle. assert (E : (a - a == 0)%Q) by ring. rewrite E. change (Qabs.Qabs 0) with 0%Q.
    apply Qmult_le_0_compat; [|apply Qlt_le_weak, Ht]. eapply Qle_trans; [apply (Qabs.Qabs_nonneg (A 0%nat j))|apply Hle, HM, Hr].
Qed.

(* ---- C55: uniquetolMatlab groups by chains of neighbours ---- *)
Theorem C55_uniquetolMatlab :
  forall (T : Type) (ltb : T -> T -> bool) zero add sub mul abs sort (A : nat -> nat -> T) rows cols,
  strict_weak ltb -> is_sort sort ->
  forall tol, 0 < rows -> ltb zero tol = true ->
  exists gather scatter,
    uniquetolMatlab T ltb zero add sub mul abs sort A rows cols tol = Ok (gather, scatter) /\
    labelling rows gather scatter /\
    (forall r, r < rows -> exists q, represents gather scatter q r /\
        chain (within_tol ltb zero sub mul abs A rows cols tol) q r).
Proof. intros; apply (matlab_correct T ltb sort A rows cols H H0 zero add sub mul mul abs (fun _ => zero)); assumption. Qed.

(* ... so a row may be beyond tolerance of its own representative. *)
Theorem C55_representative_within_tolerance_refuted :
  exists (A : nat -> nat -> Q) gather scatter,
    uniquetolMatlab Q Qltb 0%Q Qplus Qminus Qmult Qabs.Qabs isort A 3 1 (6#100)%Q = Ok (gather, scatter) /\
    represents gather scatter 0 2 /\
    beyond_tol Qltb 0%Q Qminus Qmult Qabs.Qabs A 3 1 (6#100)%Q 0 2.
Proof.
  exists (qmat [[1];[105#100];[110#100]]%Q), [0], [0;0;0].
  split; [vm_compute; reflexivity|]. split; [exists 0; auto|].
  exists 0, (110#100)%Q. split; [lia|]. split.
  - split; [|right; exists 2; split; [lia|reflexivity]].
    intros i Hi. destruct i as [|[|[|]]]; try lia; reflexivity.
  - reflexivity.
Qed.

Print Assumptions C11_flatten_positions.
Print Assumptions C11_unflatten_positions.
Print Assumptions C11_matrix_round_trip.
Print Assumptions C11_array_round_trip.
Print Assumptions C11_vector_full_round_trip.
Print Assumptions C11_applyIndexMap.
Print Assumptions C12_kron_is_kronecker_of_transpose.
Print Assumptions C12_kron_correct_iff.
Print Assumptions C12_kron_nonsquare_writes_out_of_bounds.
Print Assumptions C12_kron_documented_contract_refuted.
Print Assumptions C13_unique.
Print Assumptions C13_unique_zero_rows_refuted.
Print Assumptions C14_uniquetol.
Print Assumptions C14_equal_rows.
Print Assumptions C14_uniquetol_nonpositive_is_unique.
Print Assumptions C55_uniquetolMatlab.
Print Assumptions C55_representative_within_tolerance_refuted.
