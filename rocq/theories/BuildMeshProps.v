(* BuildMeshProps.v - C98: building a mesh from numpy arrays. *)
From Coq Require Import ZArith List Bool Lia.
From Flocq Require Import Core.Core IEEE754.BinarySingleNaN IEEE754.Binary IEEE754.Bits.
From Verif Require Import Base Loops CscModel NumpyModel NumpySpec NumpyProofs NumpyOpProofs MeshModel MeshSpec MeshFileSpec MeshProofs MeshGeoProofs MeshFileProofs MeshEdgeProofs MeshProps
  BlitzProofs BuildMeshModel BuildMeshSpec BuildMeshProofs.
From Coq Require Import Reals Lra.
Import ListNotations.
Local Open Scope nat_scope.

(* Two arrays of doubles in numpy's default layout, a K x NF table of vertex numbers (NF = 3 or 4) and an NV x dim table of
   coordinates (dim at least 2): the mesh has these sizes, these coordinates and these elements, in order, up to the
   orientation swap; neighbours and the boundary table are those of the resulting element table. *)
Theorem C98_build_mesh {B X} (c : ctype B X) r_sub r_mul neg (to_index : X -> outcome Z) EN VN K NF NV dim e p (v : nat -> nat -> Z) jk jp ji jx je jf jb :
  ctype_ok c -> width c = 8 -> c_ordered c EN -> is_matrix c EN K NF e -> c_ordered c VN -> is_matrix c VN NV dim p ->
  NF = 3 \/ NF = 4 -> 2 <= dim ->
  (forall k i, k < K -> i < NF -> to_index (e k i) = Ok (v k i) /\ (0 <= v k i < Z.of_nat NV)%Z) ->
  (forall k i j, k < K -> i < NF -> j < NF -> v k i = v k j -> i = j) ->
  (Z.of_nat NV * Z.of_nat (NF * K) <= INT_MAX)%Z ->
  exists m, buildMesh B X c r_sub r_mul neg to_index jk jp ji jx EN VN je jf jb = Ok m /\
    NumVerts X m = NV /\ NumFaces X m = NF /\ NumElements X m = K /\
    length (Vert X m) = NV * dim /\ (forall i j, i < NV -> j < dim -> nth_error (Vert X m) (i * dim + j) = Some (p i j)) /\
    length (EToV X m) = K * NF /\
    (forall k, k < K -> as_listed NF (rows_of_table K NF v) (EToV X m) k \/ swapped NF (rows_of_table K NF v) (EToV X m) k) /\
    length (EToE X m) = K * NF /\ length (EToF X m) = K * NF /\ length (BCType X m) = K * NF /\
    forall g, g < K * NF -> exists h,
      links NF (EToE X m) (EToF X m) g h /\ neighbour NF (EToV X m) g h /\
      entry (BCType X m) g (if h =? g then 3%Z else 0%Z).
Proof.
  intros _ H8 OE ME OV MV HN Hd HV HD HS.
  destruct (build_ok c r_sub r_mul neg to_index EN VN K NF NV dim e p v jk jp ji jx je jf jb H8 OE ME OV MV HN Hd HV HD HS) as
    (m & EM & M1 & M2 & M3 & (M4 & M5) & M6 & M7 & M8 & M9 & M10 & M11 & (_ & M12) & M13).
  exists m. repeat (split; [assumption|]). split; [|auto].
  intros k Hk. destruct (M12 k Hk) as (s & Hs). destruct s; [right|left; exact Hs].
  split; [rewrite <- (Nat.add_0_r (k * NF)); apply (Hs 0); lia|]. split; [apply (Hs 1); lia|]. split; [apply (Hs 2); lia|].
  intros i Hi. rewrite (Hs i) by lia. destruct i as [|[|[|i]]]; try lia. reflexivity.
Qed.
Print Assumptions C98_build_mesh.

(* In exact arithmetic: an element whose first three vertices turn left or are in line is taken as listed; one whose first
   three vertices turn right has its second and third vertex swapped. *)
Theorem C98_orientation {B} (c : ctype B R) (to_index : R -> outcome Z) EN VN K NF NV dim e p (v : nat -> nat -> Z) jk jp ji jx je jf jb :
  ctype_ok c -> width c = 8 -> c_ordered c EN -> is_matrix c EN K NF e -> c_ordered c VN -> is_matrix c VN NV dim p ->
  NF = 3 \/ NF = 4 -> 2 <= dim ->
  (forall k i, k < K -> i < NF -> to_index (e k i) = Ok (v k i) /\ (0 <= v k i < Z.of_nat NV)%Z) ->
  (forall k i j, k < K -> i < NF -> j < NF -> v k i = v k j -> i = j) ->
  (Z.of_nat NV * Z.of_nat (NF * K) <= INT_MAX)%Z ->
  exists m, buildMesh B R c Rminus Rmult negR to_index jk jp ji jx EN VN je jf jb = Ok m /\
    forall k, k < K ->
    let x i := p (Z.to_nat (v k i)) 0 in let y i := p (Z.to_nat (v k i)) 1 in
    (area2 (x 0%nat) (y 0%nat) (x 1%nat) (y 1%nat) (x 2%nat) (y 2%nat) >= 0 -> as_listed NF (rows_of_table K NF v) (EToV R m) k)%R /\
    (area2 (x 0%nat) (y 0%nat) (x 1%nat) (y 1%nat) (x 2%nat) (y 2%nat) < 0 -> swapped NF (rows_of_table K NF v) (EToV R m) k /\
       area2 (x 0%nat) (y 0%nat) (x 2%nat) (y 2%nat) (x 1%nat) (y 1%nat) > 0)%R.
Proof.
  intros _ H8 OE ME OV MV HN Hd HV HD HS.
  destruct (build_ok c Rminus Rmult negR to_index EN VN K NF NV dim e p v jk jp ji jx je jf jb H8 OE ME OV MV HN Hd HV HD HS) as
    (m & EM & M1 & M2 & M3 & (M4 & M5) & M6 & M7 & M8 & M9 & M10 & M11 & M12 & M13).
  exists m. split; auto. intros k Hk x y. set (E := rows_of_table K NF v) in *.
  assert (Hc : forall i, i < NF -> corner NF E k i (v k i)) by (intros i Hi; now apply table_at).
  assert (Hv : forall i, i < NF -> vertex_at dim (Vert R m) (v k i) (x i) (y i)).
  { intros i Hi. destruct (HV k i Hk Hi) as (_ & Hr). split; [lia|]. split.
    - rewrite <- (Nat.add_0_r (_ * dim)). apply M5; lia.
    - apply M5; lia. }
  destruct (M11 k Hk (v k 0) (v k 1) (v k 2) (x 0) (y 0) (x 1) (y 1) (x 2) (y 2)) as (T0 & T12 & T3); try (apply Hc; lia); try (apply Hv; lia).
  pose proof (Hc 0 ltac:(lia)) as C0. pose proof (Hc 1 ltac:(lia)) as C1. pose proof (Hc 2 ltac:(lia)) as C2.
  assert (Q : det R Rminus Rmult (x 0) (y 0) (x 1) (y 1) (x 2) (y 2) = area2 (x 0) (y 0) (x 1) (y 1) (x 2) (y 2)) by (unfold det, area2; ring).
  rewrite Q in T12. unfold negR in T12. unfold corner in *. rewrite Nat.add_0_r in *.
  split; intros Hs; destruct (Rlt_dec _ _); try lra; destruct T12 as (T1 & T2).
  - intros i Hi. destruct i as [|[|[|i]]]; rewrite ?Nat.add_0_r; try congruence. apply T3. lia.
  - split.
    + split; [congruence|]. split; [congruence|]. split; [congruence|]. auto.
    + unfold area2 in *. lra.
Qed.
Print Assumptions C98_orientation.

(* The machine's doubles: eight bytes each. A finite entry that fits an int stands for its value with the fraction
   dropped, so whole numbers stand for themselves. *)
Theorem C98_doubles : ctype_ok float64 /\ width float64 = 8 /\
  forall (x : binary64) v, is_finite 53 1024 x = true -> Ztrunc (B2R 53 1024 x) = v -> (INT_MIN <= v <= INT_MAX)%Z -> index_of_double x = Ok v.
Proof. split; [exact float64_ok|]. split; [reflexivity|]. exact index_trunc. Qed.
Print Assumptions C98_doubles.

(* The element type is not checked. A table of vertex numbers in numpy's default integer type has the right number of
   bytes, which are read as doubles: the result is the same as for a table whose entries are all 0, whatever the
   numbers are. *)
Theorem C98_integer_table_refuted r_sub r_mul neg EN VN K NF v jk jp ji jx je jf jb :
  c_ordered int64 EN -> is_matrix int64 EN K NF v -> (forall k i, k < K -> i < NF -> (0 <= v k i < 2 ^ 52)%Z) ->
  buildMesh Z binary64 float64 r_sub r_mul neg index_of_double jk jp ji jx EN VN je jf jb =
  buildMesh Z binary64 float64 r_sub r_mul neg index_of_double jk jp ji jx (zeros 0%Z 8 [K; NF]) VN je jf jb.
Proof. apply build_int64. Qed.
Print Assumptions C98_integer_table_refuted.

(* An array of narrower items (int32 or float32) that fills its block of memory exactly is read past its end. *)
Theorem C98_narrow_items_refuted {B X} (c : ctype B X) r_sub r_mul neg (to_index : X -> outcome Z) EN VN K NF NV dim jk jp ji jx je jf jb :
  nd_shape EN = [K; NF] -> nd_shape VN = [NV; dim] ->
  length (nd_bytes EN) = nd_data EN + K * NF * nd_item EN -> length (nd_bytes VN) = nd_data VN + NV * dim * nd_item VN ->
  (0 < K * NF /\ nd_item EN < 8) \/ (0 < NV * dim /\ nd_item VN < 8) ->
  buildMesh B X c r_sub r_mul neg to_index jk jp ji jx EN VN je jf jb = UB.
Proof.
  intros SE SV LE LV H. apply (build_small c r_sub r_mul neg to_index EN VN K NF NV dim); auto.
  destruct H as [(H & H') | (H & H')]; [left|right]; nia.
Qed.
Print Assumptions C98_narrow_items_refuted.

(* The strides are not looked at: given the transpose of an r x s array (which Python shows as the s x r table of
   f i j at row j, column i) the mesh is built from the entries of the original array read row after row. *)
Theorem C98_transposed_refuted {B X} (c : ctype B X) r_sub r_mul neg (to_index : X -> outcome Z) a a' VN r s f g jk jp ji jx je jf jb :
  ctype_ok c -> width c = 8 -> c_ordered c a -> is_matrix c a r s f ->
  c_ordered c a' -> is_matrix c a' s r g -> (forall p q i j, p < s -> q < r -> i < r -> j < s -> p * r + q = i * s + j -> g p q = f i j) ->
  is_matrix c (transposed a) s r (fun j i => f i j) /\
  buildMesh B X c r_sub r_mul neg to_index jk jp ji jx (transposed a) VN je jf jb =
  buildMesh B X c r_sub r_mul neg to_index jk jp ji jx a' VN je jf jb.
Proof.
  intros Hc H8 Ho Hm Ho' Hm' Hg. split.
  { split; [cbn; now rewrite (proj1 Hm)|]. intros j i Hj Hi. eapply transposed_item; eauto. }
  unfold buildMesh, shape_at. cbn [transposed nd_shape]. rewrite (proj1 Hm), (proj1 Hm'). cbn [rev app].
  destruct (getn (nd_shape VN) 1) as [dim| |]; try reflexivity. destruct (getn (nd_shape VN) 0) as [nv| |]; try reflexivity.
  unfold getn. cbn [nth_error bind]. destruct (raw_doubles _ _ _ VN _); try reflexivity. cbn [bind].
  replace (raw_doubles B X c (transposed a) (s * r)) with (raw_doubles B X c a' (s * r)); [reflexivity|].
  destruct (raw_matrix c H8 a r s f Ho Hm) as (l & El & Ll & Hl). destruct (raw_matrix c H8 a' s r g Ho' Hm') as (l' & El' & Ll' & Hl').
  replace (raw_doubles B X c (transposed a) (s * r)) with (raw_doubles B X c a (r * s)).
  2:{ unfold raw_doubles. cbn [transposed nd_bytes nd_data]. now rewrite (Nat.mul_comm s r). }
  rewrite El, El'. f_equal. apply list_ext_nth. intros k. destruct (Nat.lt_ge_cases k (s * r)) as [Hk|Hk].
  - destruct (divmod_lt k s r Hk) as (D1 & D2 & D3). destruct (divmod_lt k r s ltac:(lia)) as (F1 & F2 & F3).
    pose proof (Hl' _ _ D1 D2) as A1. pose proof (Hl _ _ F1 F2) as A2. rewrite D3 in A1. rewrite F3 in A2.
    rewrite A1, A2. f_equal. first [apply Hg | symmetry; apply Hg]; auto; lia.
  - rewrite !(proj2 (nth_error_None _ _)) by lia. reflexivity.
Qed.
Print Assumptions C98_transposed_refuted.

(* The Python documentation describes the element table with one column per element. A table laid out like that, with
   five or more elements, takes the code out of bounds. *)
Theorem C98_documented_shape_refuted r_sub r_mul neg EN VN NF K NV dim jk jp ji jx je jf jb :
  nd_shape EN = [NF; K] -> nd_shape VN = [NV; dim] -> 0 < NF -> 5 <= K ->
  buildMesh Z binary64 float64 r_sub r_mul neg index_of_double jk jp ji jx EN VN je jf jb = UB.
Proof. intros SE SV H0 H1. eapply build_five; eauto. apply calm_index. Qed.
Print Assumptions C98_documented_shape_refuted.

(* ---- the hypotheses can be met ---- *)
Definition d0 : binary64 := b64_of_bits 0.
Definition d1 : binary64 := b64_of_bits 4607182418800017408.
Definition d2 : binary64 := b64_of_bits 4611686018427387904.
Definition d3 : binary64 := b64_of_bits 4613937818241073152.
(* the unit square cut along a diagonal, the second triangle listed clockwise *)
Definition sq_elements : list binary64 := [d0; d1; d2; d0; d3; d2].
Definition sq_vertices : list binary64 := [d0; d0; d1; d0; d1; d1; d0; d1].
Definition b_sub := b64_minus mode_NE.
Definition b_mul := b64_mult mode_NE.
Definition b_neg (x : binary64) : bool := match b64_compare x d0 with Some Lt => true | _ => false end.
Definition array_of (r s : nat) (l : list binary64) : ndarray Z :=
  NdArray (flat_map (encode float64) l) 0 8 [r; s] (c_strides 8 [r; s]).
Lemma array_of_ok r s l : length l = r * s ->
  c_ordered float64 (array_of r s l) /\ is_matrix float64 (array_of r s l) r s (fun i j => nth (i * s + j) l d0).
Proof.
  intros Hl. destruct (export_table float64 float64_ok r s l Hl) as (a & E & Ho & _ & _ & Es & Hi).
  rewrite (export_ok float64 float64_ok) in E by (cbn; lia). injection E as E.
  assert (Ea : array_of r s l = a).
  { rewrite <- E. unfold array_of, zeros. cbn [nd_data nd_item nd_shape nd_strides nd_bytes]. f_equal.
    rewrite Hl. cbn. rewrite Nat.mul_1_r, Nat.sub_diag. cbn. now rewrite app_nil_r. }
  rewrite Ea. split; auto. split; auto. intros i j Hi' Hj. apply Hi; auto. apply nth_error_nth'. nia.
Qed.
Example C98_witness : let e i j := nth (i * 3 + j) sq_elements d0 in let p i j := nth (i * 2 + j) sq_vertices d0 in
  let v k i := nth (k * 3 + i) [0; 1; 2; 0; 3; 2]%Z 0%Z in
  (c_ordered float64 (array_of 2 3 sq_elements) /\ is_matrix float64 (array_of 2 3 sq_elements) 2 3 e) /\
  (c_ordered float64 (array_of 4 2 sq_vertices) /\ is_matrix float64 (array_of 4 2 sq_vertices) 4 2 p) /\
  (forall k i, k < 2 -> i < 3 -> index_of_double (e k i) = Ok (v k i) /\ (0 <= v k i < Z.of_nat 4)%Z) /\
  (forall k i j, k < 2 -> i < 3 -> j < 3 -> v k i = v k j -> i = j) /\ (Z.of_nat 4 * Z.of_nat (3 * 2) <= INT_MAX)%Z.
Proof.
  cbv zeta. split; [now apply array_of_ok|]. split; [now apply array_of_ok|]. split; [|split].
  - intros [|[|k]] [|[|[|i]]] Hk Hi; try lia; split; try (vm_compute; reflexivity); cbn; lia.
  - intros [|[|k]] [|[|[|i]]] [|[|[|j]]] Hk Hi Hj; try lia; cbn; lia.
  - cbn. unfold INT_MAX. lia.
Qed.
Example C98_witness_result : match buildMesh Z binary64 float64 b_sub b_mul b_neg index_of_double (0, d_one) (fun _ => 7) (fun _ => 7) (fun _ => d_two)
    (array_of 2 3 sq_elements) (array_of 4 2 sq_vertices) (fun _ => 7) (fun _ => 7) (fun _ => 7%Z) with
  | Ok m => EToV _ m = [0; 1; 2; 0; 2; 3]%Z /\ EToE _ m = [0; 0; 1; 0; 1; 1] /\ EToF _ m = [0; 1; 0; 2; 1; 2] /\ BCType _ m = [3; 3; 0; 0; 3; 3]%Z
  | _ => False end.
Proof. vm_compute. repeat split. Qed.
Definition int_table : ndarray Z := NdArray (flat_map (encode int64) [0; 1; 2; 0; 3; 2]%Z) 0 8 [2; 3] (c_strides 8 [2; 3]).
Example C98_witness_integers : c_ordered int64 int_table /\ is_matrix int64 int_table 2 3 (fun k i => nth (k * 3 + i) [0; 1; 2; 0; 3; 2]%Z 0%Z).
Proof.
  split; [split; [reflexivity|]; split; [reflexivity|]; cbn; lia|]. split; [reflexivity|].
  intros [|[|k]] [|[|[|i]]] Hk Hi; try lia; vm_compute; reflexivity.
Qed.
