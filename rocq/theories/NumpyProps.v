(* NumpyProps.v - C90: arrays handed to and taken from Python. *)
From Coq Require Import ZArith List Bool Lia Arith.
From Verif Require Import Base Loops CscModel CscSpec Num JacobiModel JacobiSpec Nodes1DModel DenseSpec DenseModel BlitzModel NumpyModel NumpySpec NumpyProofs NumpyOpProofs.
From Verif Require Import JacobiProofs JacobiExactProofs.
From Coq Require Import Reals Lra.
Import ListNotations.
Local Open Scope nat_scope.

(* Every getter that states the shape of its array gives Python an array of that shape with the same entries. *)
Theorem C90_getters {B T} (c : ctype B T) Np K NF Nfp r s n (m : mat T) (v : list T) (t : list (mat T)) : ctype_ok c ->
  (mrows m = Np -> mcols m = K -> exists a, dg_volume c Np K m = Ok a /\ is_matrix c a Np K (ment m)) /\
  (mrows m = Np -> mcols m = Np -> exists a, dg_square c Np m = Ok a /\ is_matrix c a Np Np (ment m)) /\
  (mrows m = NF * Nfp -> mcols m = K -> exists a, dg_face c NF Nfp K m = Ok a /\ is_matrix c a (NF * Nfp) K (ment m)) /\
  (mrows m = Np -> mcols m = NF * Nfp -> exists a, dg_lift c NF Nfp Np m = Ok a /\ is_matrix c a Np (NF * Nfp) (ment m)) /\
  (mrows m = Nfp -> mcols m = NF -> exists a, dg_mask c NF Nfp m = Ok a /\ is_matrix c a Nfp NF (ment m)) /\
  (length v = Np -> exists a, dg_nodes c Np v = Ok a /\ is_vector c a v) /\
  (length v = NF * Nfp * K -> exists a, dg_map c NF Nfp K v = Ok a /\ is_vector c a v) /\
  (exists a, ctx_vector c v = Ok a /\ is_vector c a v) /\
  (exists a, ctx_matrix c m = Ok a /\ is_matrix c a (mrows m) (mcols m) (ment m)) /\
  (length t = K -> (forall m, In m t -> mrows m = r /\ mcols m = s) ->
     exists a, ctx_tensor c r s t = Ok a /\ is_tensor c a r s K (fun k i j => match nth_error t k with Some q => ment q i j | None => ment m i j end)) /\
  (length v = n -> exists a, mesh_vector c n v = Ok a /\ is_vector c a v) /\
  (forall d, length v = n * s -> exists a, mesh_table c n s v = Ok a /\ is_matrix c a n s (fun i j => nth (i * s + j) v d)).
Proof.
  intros Hc. assert (M : forall r s, mrows m = r -> mcols m = s -> exists a, export c [r; s] (storage m) = Ok a /\ is_matrix c a r s (ment m)).
  { intros r0 s0 Er Es. destruct (export_matrix c Hc m r0 s0 Er Es) as (a & E & _ & Hi). exists a. auto. }
  repeat split.
  - apply M.
  - apply M.
  - apply M.
  - apply M.
  - apply M.
  - apply export_vector; auto.
  - apply export_vector; auto.
  - apply export_vector; auto.
  - apply M; auto.
  - intros <- Hm. destruct (export_tensor c Hc r s t) as (a & E & Es & Hi). exists a. split; auto. split; auto.
    intros i j k Hr Hs Hk. destruct (nth_error t k) as [q|] eqn:Eq; [now apply Hi|]. apply nth_error_None in Eq. lia.
  - apply export_vector; auto.
  - intros d Hv. destruct (export_table c Hc n s v Hv) as (a & E & _ & _ & _ & Es & Hi). exists a. split; auto. split; auto.
    intros i j Hi' Hj. apply Hi; auto. apply nth_error_nth'. nia.
Qed.

(* The exception: GaussFaceContext2D.sx is allocated with as many columns as rows. With more elements than Gauss
   points per element the copy runs past the end of the array; with fewer, the array has the wrong shape, its entries
   are those of sx read row after row, and the rest is zero. *)
Theorem C90_gauss_sx_refuted {B T} (c : ctype B T) (m : mat T) : ctype_ok c ->
  (0 < mrows m < mcols m -> gauss_sx c m = UB) /\
  (mcols m <= mrows m -> exists a, gauss_sx c m = Ok a /\ nd_shape a = [mrows m; mrows m] /\
     (forall i j p q, i < mrows m -> j < mcols m -> p < mrows m -> q < mrows m -> p * mrows m + q = i * mcols m + j -> item c a [p; q] = Some (ment m i j)) /\
     (forall p q, p < mrows m -> q < mrows m -> mrows m * mcols m <= p * mrows m + q -> item c a [p; q] = Some (decode c (repeat (zbyte c) (width c))))).
Proof.
  intros Hc. split.
  - intros H. apply export_ub; auto. rewrite storage_len. cbn. nia.
  - intros H. exists (filled c [mrows m; mrows m] (storage m)). split; [|split; [reflexivity|split]].
    + apply export_ok; auto. rewrite storage_len. cbn. nia.
    + intros i j p q Hi Hj Hp Hq E. rewrite (filled_item2 c Hc) by (auto; rewrite ?storage_len; nia). rewrite E, storage_at by auto. reflexivity.
    + intros p q Hp Hq E. rewrite (filled_item2 c Hc) by (auto; rewrite ?storage_len; nia).
      rewrite (proj2 (nth_error_None _ _)) by (rewrite storage_len; lia). reflexivity.
Qed.

(* Arrays taken from Python, in numpy's default layout and with the right element type: the matrix the code works
   with is the one Python shows. An array smaller than the boundary table replaces the first entries of the table. *)
Theorem C90_arguments {B T} (c : ctype B T) (zero : T) (a : ndarray B) r s f (old : list T) (xg yg : mat T) y g : ctype_ok c ->
  c_ordered c a -> is_matrix c a r s f ->
  (exists m, matrix_argument c zero a = Ok m /\ mrows m = r /\ mcols m = s /\ forall i j, i < r -> j < s -> ment m i j = f i j) /\
  (r * s <= length old -> exists l, set_bctype c a old = Ok l /\ length l = length old /\
     (forall i j, i < r -> j < s -> nth_error l (i * s + j) = Some (f i j)) /\ (forall k, r * s <= k -> nth_error l k = nth_error old k)) /\
  (mrows xg = r -> mcols xg = s -> mrows yg = r -> mcols yg = s -> c_ordered c y -> is_matrix c y r s g ->
     exists x' y', set_coordinates c zero a y xg yg = Ok (x', y') /\ mrows x' = r /\ mcols x' = s /\ mrows y' = r /\ mcols y' = s /\
       forall i j, i < r -> j < s -> ment x' i j = f i j /\ ment y' i j = g i j).
Proof.
  intros Hc Ho Hm. split; [|split].
  - destruct (matrix_arg c Hc a r s zero (proj1 Hm)) as (m & E & Er & Es & Hi).
    { destruct Ho as (_ & _ & Hb). rewrite (proj1 Hm) in Hb. cbn in Hb. rewrite Nat.mul_1_r in Hb. lia. }
    exists m. split; auto. split; auto. split; auto. intros i j Hi' Hj. rewrite Hi by auto. eapply c_item; eauto.
  - intros H. eapply set_c_table; eauto.
  - intros E1 E2 E3 E4 Hy Gy. subst r s. rewrite <- E3, <- E4 in Gy.
    destruct (set_coord_ok c Hc zero a f xg Ho Hm) as (x' & Ex & A1 & A2 & A3).
    destruct (set_coord_ok c Hc zero y g yg Hy Gy) as (y' & Ey & B1 & B2 & B3).
    unfold set_coordinates. rewrite Ex. cbn [bind]. rewrite Ey. cbn [bind]. exists x', y'. repeat split; try congruence.
    + now apply A3.
    + apply B3; congruence.
Qed.

(* Writing back what was read changes nothing. *)
Theorem C90_round_trip {B T} (c : ctype B T) (zero : T) (m : mat T) (v : list T) n w : ctype_ok c ->
  (exists a m', dg_volume c (mrows m) (mcols m) m = Ok a /\ set_coordinate c zero a m = Ok m' /\ meq m' m) /\
  (length v = n * w -> exists a, mesh_table c n w v = Ok a /\ set_bctype c a v = Ok v).
Proof.
  intros Hc. split.
  - destruct (export_matrix c Hc m _ _ eq_refl eq_refl) as (a & E & Ho & Hi).
    destruct (set_coord_ok c Hc zero a (ment m) m Ho Hi) as (m' & Em & Er & Es & He).
    exists a, m'. split; auto. split; auto. split; auto. split; auto. intros i j Hi' Hj. apply He; congruence.
  - intros Hv. destruct (export_table c Hc n w v Hv) as (a & E & Ho & _ & _ & Es & Hi). exists a. split; auto.
    destruct v as [|d v'] eqn:Ev.
    + destruct (set_table c Hc a n w [] Es) as (l & El & Ll & _).
      { destruct Ho as (_ & _ & Hb). rewrite Es in Hb. cbn in Hb. rewrite Nat.mul_1_r in Hb. lia. }
      { cbn in *. lia. }
      rewrite El. f_equal. now destruct l.
    + rewrite <- Ev in *.
      assert (Hm : is_matrix c a n w (fun i j => nth (i * w + j) v d)).
      { split; auto. intros i j Hi' Hj. apply Hi; auto. apply nth_error_nth'. nia. }
      destruct (set_c_table c Hc a n w _ v Ho Hm) as (l & El & Ll & Hl & _); [lia|]. rewrite El. f_equal.
      apply (nth_ext l v d d Ll). intros k Hk. rewrite Ll in Hk. destruct (divmod_lt k n w) as (D1 & D2 & D3); [lia|].
      pose proof (Hl _ _ D1 D2) as Q. cbn beta in Q. rewrite D3 in Q. now apply nth_error_nth.
Qed.

(* Nothing checks sizes: an array with more entries than the table or grid it replaces is written past its end. *)
Theorem C90_too_large_refuted {B T} (c : ctype B T) (zero : T) (a : ndarray B) r s (old : list T) (g : mat T) : ctype_ok c -> nd_shape a = [r; s] ->
  (length old < r * s -> set_bctype c a old = UB) /\ (mrows g * mcols g < r * s -> set_coordinate c zero a g = UB).
Proof.
  intros Hc Es. split; intros H.
  - eapply set_table_big; eauto.
  - unfold set_coordinate. rewrite (set_table_big c Hc a r s); auto. now rewrite storage_len.
Qed.

(* Strides are ignored: given the transpose of an r x s array, the code works with a matrix that is not the one Python
   shows: its entries are those of the original array read row after row. *)
Theorem C90_transposed_refuted {B T} (c : ctype B T) (zero : T) (a : ndarray B) r s f : ctype_ok c -> c_ordered c a -> is_matrix c a r s f ->
  is_matrix c (transposed a) s r (fun j i => f i j) /\
  exists m, matrix_argument c zero (transposed a) = Ok m /\ mrows m = s /\ mcols m = r /\
    (forall p q i j, p < s -> q < r -> i < r -> j < s -> p * r + q = i * s + j -> ment m p q = f i j) /\
    (1 < r -> 1 < s -> f 0 1 <> f 1 0 -> item c (transposed a) [0; 1] = Some (f 1 0) /\ ment m 0 1 = f 0 1).
Proof.
  intros Hc Ho Hm. pose proof (proj1 Hm) as Es. split.
  { split; [cbn; now rewrite Es|]. intros j i Hj Hi. eapply transposed_item; eauto. }
  destruct (matrix_arg c Hc (transposed a) s r zero) as (m & E & Er & Ec & Hi).
  { cbn. now rewrite Es. }
  { cbn [transposed nd_data nd_bytes]. destruct Ho as (_ & _ & Hb). rewrite Es in Hb. cbn in Hb. rewrite Nat.mul_1_r in Hb. nia. }
  assert (Q : forall p q i j, p < s -> q < r -> i < r -> j < s -> p * r + q = i * s + j -> ment m p q = f i j).
  { intros p q i j Hp Hq Hr Hs Epq. rewrite Hi by auto. rewrite Epq. cbn [transposed nd_data nd_bytes]. eapply c_item; eauto. }
  exists m. split; auto. split; auto. split; auto. split; auto. intros Hr Hs _. split.
  - eapply transposed_item; eauto; lia.
  - apply Q; lia.
Qed.

(* The element type is ignored. An array of smaller items (float32 or int32 where doubles are expected) that fills its
   block of memory exactly is read past its end. *)
Theorem C90_small_items_refuted {B T} (c : ctype B T) (zero : T) (a : ndarray B) r s : ctype_ok c -> nd_shape a = [r; s] ->
  nd_item a < width c -> length (nd_bytes a) = nd_data a + r * s * nd_item a -> 0 < r * s -> matrix_argument c zero a = UB.
Proof. intros Hc Es Hi Hb Hp. eapply matrix_arg_ub; eauto. rewrite Hb. nia. Qed.

(* An array of items twice as wide (numpy's default 64-bit integers where 32-bit ones are expected): the boundary table
   receives the tags of the first half of the faces, each followed by a zero. *)
Theorem C90_wide_items_refuted {B T} (c : ctype B T) (zero : T) r s f (old : list T) : ctype_ok c -> length old = r * s ->
  exists l, set_bctype c (wide_array c zero r s f) old = Ok l /\ length l = r * s /\
  forall i j, i < r -> j < s ->
    (2 * (i * s + j) < r * s -> nth_error l (2 * (i * s + j)) = Some (f i j)) /\
    (2 * (i * s + j) + 1 < r * s -> nth_error l (2 * (i * s + j) + 1) = Some zero).
Proof.
  intros Hc Hl. destruct (set_table c Hc (wide_array c zero r s f) r s old eq_refl) as (l & E & Ll & Hn).
  { rewrite (wide_len c Hc). cbn. nia. }
  { lia. }
  exists l. split; auto. split; [congruence|].
  assert (Q : forall i j b, i < r -> j < s -> b < 2 -> 2 * (i * s + j) + b < r * s -> nth_error l (2 * (i * s + j) + b) = Some (if b =? 0 then f i j else zero)).
  { intros i j b Hi Hj Hb Hk. rewrite Hn by lia. rewrite (proj2 (Nat.ltb_lt _ _) Hk). f_equal. rewrite wide_bytes.
    cbn [wide_array nd_data]. rewrite Nat.add_0_l, <- (app_nil_r (flat_map _ _)). eapply dec_at; eauto. now apply wide_at. }
  intros i j Hi Hj. split; intros Hk.
  - rewrite <- (Nat.add_0_r (2 * _)). rewrite (Q i j 0); auto. lia.
  - apply (Q i j 1); auto.
Qed.

(* getOP / getMM: one row (row index, column index, value) per stored entry of the sparse matrix, in storage order;
   rows beyond the stored entries are zero. *)
Theorem C90_operator {B T} (c : ctype B T) (ofn : nat -> T) (m : csc T) : ctype_ok c -> valid m ->
  length (entries m) <= nnz m /\
  exists a, get_operator c ofn m = Ok a /\ nd_shape a = [nnz m; 3] /\
  (forall k i j x, nth_error (entries m) k = Some (i, j, x) ->
     item c a [k; 0] = Some (ofn i) /\ item c a [k; 1] = Some (ofn j) /\ item c a [k; 2] = Some x) /\
  (forall k b, length (entries m) <= k < nnz m -> b < 3 -> item c a [k; b] = Some (decode c (repeat (zbyte c) (width c)))).
Proof.
  intros Hc Hv. destruct (get_operator_ok c Hc ofn m Hv) as (Hn & E). split; auto. eexists. split; [exact E|]. split; [reflexivity|].
  assert (Hl : length (flat_map (triple ofn) (entries m)) <= nnz m * 3) by (rewrite triples_len; lia).
  split.
  - intros k i j x Hk. assert (Lk : k < length (entries m)) by (apply nth_error_Some; congruence).
    destruct (triples_at ofn (entries m) k _ Hk) as (A1 & A2 & A3).
    rewrite !(filled_item2 c Hc) by (auto; lia). now rewrite A1, A2, A3.
  - intros k b Hk Hb. rewrite (filled_item2 c Hc) by (auto; lia).
    rewrite (proj2 (nth_error_None _ _)) by (rewrite triples_len; lia). reflexivity.
Qed.

(* buildVandermondeMatrix: the orthonormal Legendre polynomials at the given points, as many as asked for (all when the
   order is -1). *)
Theorem C90_vandermonde {B} (c : ctype B R) G inverse (r : ndarray B) v order : ctype_ok c -> gamma_like G -> c_ordered c r -> is_vector c r v ->
  let N := if (-1 <? order)%Z then Z.to_nat (order + 1) else length v in
  exists a, build_vandermonde c (exact G) inverse r false order = Ok (a, None) /\
    is_matrix c a (length v) N (fun i j => jac G 0 0 j (nth i v 0%R)).
Proof. intros Hc HG Ho Hv. exact (vander_plain c Hc G HG inverse r v order Ho Hv). Qed.

(* With the inverse: when there are as many polynomials as points, both matrices, or the singularity exception. *)
Theorem C90_vandermonde_inverse {B} (c : ctype B R) G dgetrf dgetri (r : ndarray B) v order : ctype_ok c -> gamma_like G -> dgetr_spec dgetrf dgetri ->
  c_ordered c r -> is_vector c r v -> order = (-1)%Z \/ order = (Z.of_nat (length v) - 1)%Z ->
  build_vandermonde c (exact G) (computeInverse 0%R dgetrf dgetri) r true order = Throw \/
  exists a b W, build_vandermonde c (exact G) (computeInverse 0%R dgetrf dgetri) r true order = Ok (a, Some b) /\
    is_matrix c a (length v) (length v) (fun i j => jac G 0 0 j (nth i v 0%R)) /\ is_matrix c b (length v) (length v) W /\
    forall i j, i < length v -> j < length v -> sumn (length v) (fun k => jac G 0 0 k (nth i v 0%R) * W k j)%R = (if Nat.eqb i j then 1 else 0)%R /\
                                               sumn (length v) (fun k => W i k * jac G 0 0 j (nth k v 0%R))%R = (if Nat.eqb i j then 1 else 0)%R.
Proof.
  intros Hc HG HF Ho Hv HN. apply (vander_inverse c Hc G HG dgetrf dgetri r v order HF Ho Hv). unfold ncols.
  destruct HN as [-> | ->]; [reflexivity|]. destruct (Z.ltb_spec (-1) (Z.of_nat (length v) - 1)); lia.
Qed.

(* Asking for the inverse with another order: fewer polynomials than points is an exception, more is a write outside an
   array. *)
Theorem C90_vandermonde_refuted {B} (c : ctype B R) G dgetrf dgetri (r : ndarray B) v order : ctype_ok c -> gamma_like G -> dgetr_spec dgetrf dgetri ->
  c_ordered c r -> is_vector c r v -> (-1 < order)%Z ->
  ((order < Z.of_nat (length v) - 1)%Z -> build_vandermonde c (exact G) (computeInverse 0%R dgetrf dgetri) r true order = Throw) /\
  (0 < length v -> (Z.of_nat (length v) - 1 < order)%Z -> build_vandermonde c (exact G) (computeInverse 0%R dgetrf dgetri) r true order = UB).
Proof.
  intros Hc HG HF Ho Hv Hord. destruct (vander_other c Hc G dgetrf dgetri r v order HF Ho Hv) as (H1 & H2). unfold ncols in *.
  rewrite (proj2 (Z.ltb_lt _ _) Hord) in *. split; intros.
  - apply H1. lia.
  - apply H2. lia.
Qed.

(* ---- the hypotheses can be met ---- *)
(* 32-bit little-endian indices *)
Definition int32 : ctype Z nat := CType 4 (fun n => [Z.of_nat n; 0; 0; 0]%Z) (fun b => Z.to_nat (nth 0 b 0%Z)) 0%Z.
Lemma int32_ok : ctype_ok int32.
Proof. split; cbn; [lia|reflexivity|]. intros v. lia. Qed.
(* exact reals in eight cells *)
Definition real64 : ctype R R := CType 8 (fun x => [x; 0; 0; 0; 0; 0; 0; 0]%R) (fun b => nth 0 b 0%R) 0%R.
Lemma real64_ok : ctype_ok real64.
Proof. split; cbn; [lia|reflexivity|reflexivity]. Qed.
Example C90_witness_getter : exists a, mesh_table int32 2 3 [1; 2; 3; 4; 5; 6] = Ok a /\ item int32 a [1; 0] = Some 4 /\ item int32 a [1; 3] = None /\
  item int32 (transposed a) [0; 1] = Some 4 /\ c_ordered int32 a.
Proof. eexists. split; [reflexivity|]. repeat split. cbn. lia. Qed.
Example C90_witness_sx : gauss_sx int32 (mkmat 2 3 (fun i j => i + j)) = UB /\
  exists a, gauss_sx int32 (mkmat 3 2 (fun i j => 10 * i + j)) = Ok a /\ nd_shape a = [3; 3] /\ item int32 a [1; 0] = Some 11 /\ item int32 a [2; 2] = Some 0.
Proof. split; [reflexivity|]. eexists. split; [reflexivity|]. repeat split. Qed.
Example C90_witness_wide : set_bctype int32 (wide_array int32 0 2 2 (fun i j => 3 + i + j)) [9; 9; 9; 9] = Ok [3; 0; 4; 0].
Proof. reflexivity. Qed.
Example C90_witness_transposed : exists a m, ctx_matrix int32 (mkmat 2 2 (fun i j => 10 * i + j)) = Ok a /\ matrix_argument int32 0 (transposed a) = Ok m /\
  item int32 (transposed a) [0; 1] = Some 10 /\ ment m 0 1 = 1.
Proof. eexists. eexists. repeat split; reflexivity. Qed.
Example C90_witness_operator : let m := mkcsc 2 2 2 [0; 1; 2] [1; 0] [7; 8] in
  valid m /\ match get_operator int32 (fun n => n) m with Ok a => item int32 a [0; 0] = Some 1 /\ item int32 a [0; 1] = Some 0 /\ item int32 a [0; 2] = Some 7 | _ => False end.
Proof.
  split.
  - split; cbn.
    + lia.
    + reflexivity.
    + intros [|[|j]] u v Hj E1 E2; cbn in E1, E2; [|  |lia]; injection E1 as <-; injection E2 as <-; lia.
    + intros u E; injection E as <-; lia.
    + reflexivity.
    + reflexivity.
    + intros u k r E Hk Hr. injection E as <-. destruct k as [|[|k]]; cbn in Hr; try lia; injection Hr as <-; lia.
  - vm_compute. repeat split.
Qed.
Example C90_witness_vandermonde : exists (r : ndarray R), c_ordered real64 r /\ is_vector real64 r [(-1)%R; 1%R] /\ gamma_like gwit.
Proof.
  destruct (export_vector real64 real64_ok 2 [(-1)%R; 1%R] eq_refl) as (a & E & Hv).
  rewrite (export_ok real64 real64_ok) in E by (cbn; lia). exists a. split; [|split; [exact Hv|exact gwit_ok]].
  injection E as <-. split; [reflexivity|]. split; [reflexivity|]. cbn. lia.
Qed.

Print Assumptions C90_getters.
Print Assumptions C90_gauss_sx_refuted.
Print Assumptions C90_arguments.
Print Assumptions C90_round_trip.
Print Assumptions C90_too_large_refuted.
Print Assumptions C90_transposed_refuted.
Print Assumptions C90_small_items_refuted.
Print Assumptions C90_wide_items_refuted.
Print Assumptions C90_operator.
Print Assumptions C90_vandermonde.
Print Assumptions C90_vandermonde_inverse.
Print Assumptions C90_vandermonde_refuted.
