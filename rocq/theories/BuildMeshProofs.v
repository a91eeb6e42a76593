(* BuildMeshProofs.v - facts about MeshManager::buildMesh. *)
From Coq Require Import ZArith List Bool Lia.
From Flocq Require Import Core.Core IEEE754.Binary IEEE754.Bits.
From Verif Require Import Base Loops CscModel NumpyModel NumpySpec NumpyProofs MeshModel MeshSpec MeshFileSpec MeshProofs MeshGeoProofs MeshFileProofs MeshEdgeProofs
  BuildMeshModel BuildMeshSpec.
From Coq Require Import Reals Lra.
Import ListNotations.
Local Open Scope nat_scope.

(* ---- reading the arrays ---- *)
Section Arrays.
Context {B X : Type} (c : ctype B X).
Hypothesis H8 : width c = 8.

Lemma raw_ok a n : nd_data a + n * 8 <= length (nd_bytes a) ->
  exists l, raw_doubles B X c a n = Ok l /\ length l = n /\
    forall k, k < n -> nth_error l k = Some (decode c (firstn (width c) (skipn (nd_data a + k * width c) (nd_bytes a)))).
Proof.
  intros Hb. unfold raw_doubles, load. rewrite (proj2 (Nat.leb_le _ _)) by lia. cbn [bind].
  eexists. split; [reflexivity|]. split; [apply elements_len|]. intros k Hk. rewrite (elements_at c n _ k Hk). do 2 f_equal.
  rewrite H8, skipn_firstn_comm, skipn_add, firstn_firstn. now replace (Nat.min 8 (8 * n - k * 8)) with 8 by lia.
Qed.
Lemma raw_ub a n : length (nd_bytes a) < nd_data a + n * 8 -> raw_doubles B X c a n = UB.
Proof. clear H8. intros H. unfold raw_doubles, load. now rewrite (proj2 (Nat.leb_gt _ _)) by lia. Qed.

Lemma raw_matrix a r s f : c_ordered c a -> is_matrix c a r s f ->
  exists l, raw_doubles B X c a (r * s) = Ok l /\ length l = r * s /\ forall i j, i < r -> j < s -> nth_error l (i * s + j) = Some (f i j).
Proof.
  intros Ho Hm. destruct (raw_ok a (r * s)) as (l & E & Ll & Hl).
  { destruct Ho as (_ & _ & Hb). rewrite (proj1 Hm) in Hb. cbn in Hb. rewrite H8, Nat.mul_1_r in Hb. lia. }
  exists l. split; auto. split; auto. intros i j Hi Hj. rewrite Hl by nia. f_equal. eapply c_item; eauto.
Qed.
End Arrays.

Lemma to_indices_ok X (g : X -> outcome Z) l vs : length vs = length l ->
  (forall k x v, nth_error l k = Some x -> nth_error vs k = Some v -> g x = Ok v) -> to_indices X g l = Ok vs.
Proof.
  revert vs. induction l as [|x l IH]; intros [|v vs] HL H; cbn in HL; try lia; [reflexivity|].
  cbn [to_indices]. rewrite (H 0 x v eq_refl eq_refl). cbn [bind]. rewrite (IH vs); [reflexivity|lia|].
  intros k. apply (H (S k)).
Qed.
Lemma to_indices_ext X Y (g : X -> outcome Z) (h : Y -> outcome Z) l l' : length l = length l' ->
  (forall k x y, nth_error l k = Some x -> nth_error l' k = Some y -> g x = h y) -> to_indices X g l = to_indices Y h l'.
Proof.
  revert l'. induction l as [|x l IH]; intros [|v vs] HL H; cbn in HL; try lia; [reflexivity|].
  cbn [to_indices]. rewrite (H 0 x v eq_refl eq_refl). rewrite (IH vs); [reflexivity|lia|].
  intros k. apply (H (S k)).
Qed.

Lemma table_len K NF v : length (rows_of_table K NF v) = K * NF.
Proof. apply flat_map_seq_len. intros. now rewrite map_length, seq_length. Qed.
Lemma table_at K NF v k i : k < K -> i < NF -> nth_error (rows_of_table K NF v) (k * NF + i) = Some (v k i).
Proof.
  intros Hk Hi. unfold rows_of_table. rewrite (flat_map_seq_at _ NF) by (auto; intros; now rewrite map_length, seq_length).
  rewrite Nat.add_0_l. apply map_nth_error.
  rewrite (nth_error_nth' _ 0) by (rewrite seq_length; lia). now rewrite seq_nth by lia.
Qed.
Lemma table_in K NF v x : In x (rows_of_table K NF v) -> exists k i, k < K /\ i < NF /\ x = v k i.
Proof.
  unfold rows_of_table. rewrite in_flat_map. intros (k & Hk & Hx). apply in_map_iff in Hx. destruct Hx as (i & <- & Hi).
  apply in_seq in Hk, Hi. exists k, i. repeat split; lia.
Qed.

Section Main.
Context {B X : Type} (c : ctype B X).
Variable r_sub r_mul : X -> X -> X.
Variable neg : X -> bool.
Variable to_index : X -> outcome Z.

Lemma build_ok EN VN K NF NV dim e p (v : nat -> nat -> Z) jk jp ji jx je jf jb :
  width c = 8 -> c_ordered c EN -> is_matrix c EN K NF e -> c_ordered c VN -> is_matrix c VN NV dim p ->
  NF = 3 \/ NF = 4 -> 2 <= dim ->
  (forall k i, k < K -> i < NF -> to_index (e k i) = Ok (v k i) /\ (0 <= v k i < Z.of_nat NV)%Z) ->
  (forall k i j, k < K -> i < NF -> j < NF -> v k i = v k j -> i = j) ->
  (Z.of_nat NV * Z.of_nat (NF * K) <= INT_MAX)%Z ->
  let E := rows_of_table K NF v in
  exists m, buildMesh B X c r_sub r_mul neg to_index jk jp ji jx EN VN je jf jb = Ok m /\
    NumVerts X m = NV /\ NumFaces X m = NF /\ NumElements X m = K /\
    (length (Vert X m) = NV * dim /\ forall i j, i < NV -> j < dim -> nth_error (Vert X m) (i * dim + j) = Some (p i j)) /\
    (forall x, In x E -> known X dim (Vert X m) x) /\
    length (EToV X m) = K * NF /\ length (EToE X m) = K * NF /\ length (EToF X m) = K * NF /\ length (BCType X m) = K * NF /\
    (forall k, k < K -> turned X r_sub r_mul neg dim NF (Vert X m) E (EToV X m) k) /\ permuted NF K E (EToV X m) /\
    forall g, g < K * NF -> exists h, links NF (EToE X m) (EToF X m) g h /\ neighbour NF (EToV X m) g h /\
      entry (BCType X m) g (if h =? g then 3%Z else 0%Z).
Proof.
  intros H8 OE ME OV MV HN Hd HV HD HS E. unfold buildMesh, shape_at. rewrite (proj1 MV), (proj1 ME).
  unfold getn. cbn [nth_error bind].
  destruct (raw_matrix c H8 VN NV dim p OV MV) as (V & RV & LV & AV). rewrite (Nat.mul_comm dim NV), RV. cbn [bind].
  destruct (raw_matrix c H8 EN K NF e OE ME) as (l & RE & LE & AE). rewrite RE. cbn [bind].
  rewrite (to_indices_ok X to_index l E).
  2:{ unfold E. rewrite table_len. auto. }
  2:{ intros k x y Hx Hy. assert (Hk : k < K * NF) by (rewrite <- LE; apply nth_error_Some; congruence).
      destruct (divmod_lt k K NF Hk) as (D1 & D2 & D3). rewrite <- D3 in Hx, Hy. rewrite AE in Hx by auto.
      unfold E in Hy. rewrite table_at in Hy by auto. injection Hx as <-. injection Hy as <-. now apply HV. }
  cbn [bind].
  assert (HR : forall x, In x E -> (0 <= x < Z.of_nat NV)%Z).
  { intros x Hx. apply table_in in Hx. destruct Hx as (k & i & Hk & Hi & ->). now apply HV. }
  assert (HK : forall x, In x E -> known X dim V x).
  { intros x Hx. specialize (HR x Hx). exists (p (Z.to_nat x) 0), (p (Z.to_nat x) 1). split; [lia|]. split.
    - rewrite <- (Nat.add_0_r (_ * dim)). apply AV; lia.
    - apply AV; lia. }
  destruct (finish_ok X r_sub r_mul neg dim NF K NV V E jk jp ji jx je jf jb) as
    (m & EM & M1 & M2 & M3 & M4 & M5 & M6 & M7 & M8 & M9 & M10 & M11 & M12 & M13); auto.
  - unfold E. apply table_len.
  - intros k i j x Hi Hj A1 A2.
    assert (Hk : k * NF + i < K * NF) by (rewrite <- (table_len K NF v); apply nth_error_Some; unfold E in A1; congruence).
    assert (k < K) by nia. unfold E in A1, A2. rewrite table_at in A1, A2 by auto. apply (HD k); auto. congruence.
  - exists m. split; [exact EM|]. rewrite M1. repeat (split; [assumption|]). split; [split; [exact LV|exact AV]|].
    repeat (split; [assumption|]). assumption.
Qed.

Lemma build_small EN VN s0 s1 t0 t1 jk jp ji jx je jf jb :
  nd_shape EN = [s0; s1] -> nd_shape VN = [t0; t1] ->
  length (nd_bytes EN) < nd_data EN + s0 * s1 * 8 \/ length (nd_bytes VN) < nd_data VN + t0 * t1 * 8 ->
  buildMesh B X c r_sub r_mul neg to_index jk jp ji jx EN VN je jf jb = UB.
Proof.
  intros SE SV H. unfold buildMesh, shape_at. rewrite SE, SV. unfold getn. cbn [nth_error bind].
  destruct H as [H | H].
  - rewrite (raw_ub c EN) by lia. destruct (raw_doubles B X c VN (t1 * t0)) eqn:E; try reflexivity.
    unfold raw_doubles, load in E. destruct (_ <=? _); discriminate.
  - rewrite (raw_ub c VN); auto. lia.
Qed.
End Main.

(* ---- more than four faces ---- *)
Definition calm {S} (o : outcome S) : Prop := o <> Throw.
Lemma calm_bind {A S} (o : outcome A) (f : A -> outcome S) : calm o -> (forall a, calm (f a)) -> calm (bind o f).
Proof. intros H1 H2. destruct o; [apply H2|now elim H1|discriminate]. Qed.
Lemma calm_getn {A} (l : list A) i : calm (getn l i).
Proof. unfold getn. destruct (nth_error l i); discriminate. Qed.
Lemma calm_get {A} (l : list A) i : calm (get l i).
Proof. unfold get. destruct (_ <? _)%Z; [discriminate|]. destruct (nth_error l _); discriminate. Qed.
Lemma calm_setn {A} (l : list A) i v : calm (setn l i v).
Proof. unfold setn. destruct (_ <? _); discriminate. Qed.
Lemma calm_row v : calm (row_index v).
Proof. unfold row_index. destruct (_ <? _)%Z; discriminate. Qed.
Lemma calm_for {S} (f : nat -> S -> outcome S) n : (forall i s, calm (f i s)) -> forall lo s, calm (for_from lo n f s).
Proof. intros H. induction n; intros lo s; cbn; [discriminate|]. apply calm_bind; auto. Qed.
Lemma for_hits {S} (f : nat -> S -> outcome S) b n : (forall i s, calm (f i s)) -> (forall s, f b s = UB) ->
  forall lo s, lo <= b < lo + n -> for_from lo n f s = UB.
Proof.
  intros H Hb. induction n; intros lo s Hr; [lia|]. cbn. destruct (Nat.eq_dec lo b) as [->|Hn]; [now rewrite Hb|].
  pose proof (H lo s) as Q. destruct (f lo s); cbn [bind]; [|now elim Q|reflexivity]. apply IHn. lia.
Qed.
Ltac calm := repeat first [apply calm_getn | apply calm_get | apply calm_setn | apply calm_row | apply calm_bind; intros | discriminate].

Lemma calm_face NF E k f st : calm (face_step dbl d_one NF E k f st).
Proof.
  unfold face_step. destruct st as ((g & nnz) & a). apply calm_bind; [calm|]. intros p'. apply calm_bind.
  - unfold localVertNum. destruct (_ =? _); calm.
  - intros (v1 & v2). calm.
Qed.
Lemma face_five NF E k st : NF <> 4 -> face_step dbl d_one NF E k 4 st = UB.
Proof.
  intros HN. unfold face_step. destruct st as ((g & nnz) & a). pose proof (calm_setn (p_ a) g nnz) as Q.
  destruct (setn _ _ _); [|now elim Q|reflexivity]. cbn [bind]. unfold localVertNum. now rewrite (proj2 (Nat.eqb_neq _ _) HN).
Qed.
Lemma connectivity_five jk jp ji jx NV K NF E e f : 5 <= NF -> 0 < K -> buildConnectivity jk jp ji jx NV K NF E e f = UB.
Proof.
  intros HN HK. unfold buildConnectivity, buildConnectivity_with, buildVToF, ctor_sizes. destruct (_ <? _)%Z; [reflexivity|]. cbn [bind].
  set (a0 := mkcsc _ _ _ _ _ _). unfold for_ at 1.
  rewrite (for_hits (fun k => for_ NF (face_step dbl d_one NF E k)) 0 K); [reflexivity| | |lia].
  - intros i s. apply calm_for. intros. apply calm_face.
  - intros s. apply (for_hits _ 4); [intros; apply calm_face|intros; apply face_five; lia|lia].
Qed.
Lemma calm_orient X r_sub r_mul neg dim NF K V E : calm (orient X r_sub r_mul neg dim NF K V E).
Proof.
  apply calm_for. intros i s. unfold orient_step. do 6 (apply calm_bind; [calm|intros]). destruct (neg _); calm.
Qed.
Lemma calm_raw {B X} (c : ctype B X) a n : calm (raw_doubles B X c a n).
Proof. unfold raw_doubles, load. destruct (_ <=? _); discriminate. Qed.
Lemma calm_indices {X} (g : X -> outcome Z) l : (forall x, calm (g x)) -> calm (to_indices X g l).
Proof. intros H. induction l; cbn; calm; auto. Qed.

Lemma build_five {B X} (c : ctype B X) r_sub r_mul neg (g : X -> outcome Z) EN VN s0 s1 t0 t1 jk jp ji jx je jf jb :
  (forall x, calm (g x)) -> nd_shape EN = [s0; s1] -> nd_shape VN = [t0; t1] -> 0 < s0 -> 5 <= s1 ->
  buildMesh B X c r_sub r_mul neg g jk jp ji jx EN VN je jf jb = UB.
Proof.
  intros Hg SE SV H0 H1. unfold buildMesh, shape_at. rewrite SE, SV. unfold getn. cbn [nth_error bind].
  pose proof (calm_raw c VN (t1 * t0)) as Q1. destruct (raw_doubles B X c VN _) as [V| |]; [|now elim Q1|reflexivity]. cbn [bind].
  pose proof (calm_raw c EN (s0 * s1)) as Q2. destruct (raw_doubles B X c EN _) as [l| |]; [|now elim Q2|reflexivity]. cbn [bind].
  pose proof (calm_indices g l Hg) as Q3. destruct (to_indices X g l) as [E| |]; [|now elim Q3|reflexivity]. cbn [bind].
  unfold finish_mesh. cbn [rK rNF rVert rE2V rNV].
  match goal with |- context [orient ?a ?b ?c ?d ?e ?f ?g ?h ?i] => pose proof (calm_orient a b c d e f g h i) as Q4; destruct (orient a b c d e f g h i) as [E'| |]; [|now elim Q4|reflexivity] end.
  cbn [bind]. now rewrite connectivity_five.
Qed.

(* ---- the machine's doubles ---- *)
Lemma bytes_len n z : length (bytes_of n z) = n.
Proof. revert z. induction n; intros; cbn; congruence. Qed.
Lemma bytes_back n z : (0 <= z < 256 ^ Z.of_nat n)%Z -> of_bytes (bytes_of n z) = z.
Proof.
  revert z. induction n; intros z Hz; [cbn in *; lia|]. cbn [bytes_of of_bytes]. rewrite IHn.
  - pose proof (Z.div_mod z 256). lia.
  - rewrite Nat2Z.inj_succ, Z.pow_succ_r in Hz by lia. split; [apply Z.div_pos; lia|apply Z.div_lt_upper_bound; lia].
Qed.
Lemma float64_ok : ctype_ok float64.
Proof.
  split; cbn [float64 width encode decode]; [lia|intros; apply bytes_len|]. intros x. rewrite bytes_back.
  - apply (binary_float_of_bits_of_binary_float 52 11).
  - pose proof (bits_of_binary_float_range 52 11 eq_refl eq_refl x) as H. exact H.
Qed.

Lemma trunc_value (x : binary64) : Btrunc 53 1024 x = Ztrunc (B2R 53 1024 x).
Proof.
  apply eq_IZR. rewrite (Btrunc_correct 53 1024 eq_refl). unfold round, scaled_mantissa, cexp, FIX_exp, F2R. cbn [Fnum Fexp].
  rewrite Z.opp_0. cbn [bpow]. now rewrite !Rmult_1_r.
Qed.
Lemma index_trunc (x : binary64) v : is_finite 53 1024 x = true -> Ztrunc (B2R 53 1024 x) = v -> (INT_MIN <= v <= INT_MAX)%Z ->
  index_of_double x = Ok v.
Proof.
  intros Hf Hv Hi. unfold index_of_double. rewrite Hf, trunc_value, Hv. unfold in_intb.
  rewrite (proj2 (Z.leb_le _ _) (proj1 Hi)), (proj2 (Z.leb_le _ _) (proj2 Hi)). reflexivity.
Qed.
Lemma calm_index x : calm (index_of_double x).
Proof. unfold index_of_double. destruct (is_finite _ _ _); [|discriminate]. cbv zeta. destruct (in_intb _); discriminate. Qed.

Lemma small_bits w v : (0 <= v < 2 ^ 52)%Z -> (w mod 2 ^ 64 = v)%Z -> index_of_double (b64_of_bits w) = Ok 0%Z.
Proof.
  intros Hv Hw. pose proof (Z.div_mod w (2 ^ 64) ltac:(lia)) as Dw. rewrite Hw in Dw. set (q := (w / 2 ^ 64)%Z) in *.
  assert (A : exists s, binary_float_of_bits_aux 52 11 w = match v with 0%Z => F754_zero s | Z.pos p => F754_finite s p (-1074) | _ => F754_nan false 1 end).
  { unfold binary_float_of_bits_aux, split_bits.
    assert (E1 : (w mod 2 ^ 52 = v)%Z).
    { symmetry. apply (Z.mod_unique _ _ (q * 2 ^ 12)); [left; lia|]. change (2 ^ 64)%Z with (2 ^ 52 * 2 ^ 12)%Z in Dw. lia. }
    assert (E2 : ((w / 2 ^ 52) mod 2 ^ 11 = 0)%Z).
    { replace (w / 2 ^ 52)%Z with (q * 2 * 2 ^ 11)%Z; [apply Z.mod_mul; lia|].
      apply (Z.div_unique _ _ _ v); [left; lia|]. change (2 ^ 64)%Z with (2 ^ 52 * 2 * 2 ^ 11)%Z in Dw. lia. }
    rewrite E1, E2. eexists. destruct v; reflexivity. }
  destruct A as (s & A).
  apply index_trunc; [| |unfold INT_MIN, INT_MAX; lia].
  - unfold b64_of_bits, binary_float_of_bits. rewrite is_finite_FF2B, A. destruct v; [reflexivity|reflexivity|lia].
  - unfold b64_of_bits, binary_float_of_bits. rewrite B2R_FF2B, A. destruct v as [|p|p]; [apply (Ztrunc_IZR 0)| |lia].
    cbn [FF2R]. 
    assert (HP : (0 <= F2R (Float radix2 (Z.pos p) (-1074)) < 1)%R).
    { split; [apply F2R_ge_0; cbn; lia|]. unfold F2R. cbn [Fnum Fexp].
      apply Rlt_le_trans with (bpow radix2 52 * bpow radix2 (-1074))%R.
      - apply Rmult_lt_compat_r; [apply bpow_gt_0|]. rewrite <- (IZR_Zpower radix2 52) by lia. apply IZR_lt. change (Zpower radix2 52) with (2 ^ 52)%Z. lia.
      - rewrite <- bpow_plus. change 1%R with (bpow radix2 0). apply bpow_le. lia. }
    destruct s.
    + cbn [cond_Zopp]. rewrite F2R_Zopp, Ztrunc_opp, Ztrunc_floor by lra.
      rewrite (Zfloor_imp 0); [reflexivity|exact HP].
    + cbn [cond_Zopp]. rewrite Ztrunc_floor by lra. apply Zfloor_imp. exact HP.
Qed.

(* ---- 64-bit integers ---- *)
Lemma le_same n z : le_bytes n z = bytes_of n z.
Proof. revert z. induction n; intros; cbn; congruence. Qed.
Lemma le_value_same l : le_value l = of_bytes l.
Proof. induction l; cbn; congruence. Qed.
Lemma int64_word b v : decode int64 b = v -> (0 <= v < 2 ^ 52)%Z -> (of_bytes b mod 2 ^ 64 = v)%Z.
Proof.
  cbn [int64 decode]. rewrite le_value_same. set (w := of_bytes b). intros E Hv.
  pose proof (Z.div_mod (w + 2 ^ 63) (2 ^ 64) ltac:(lia)) as D. symmetry. apply (Z.mod_unique _ _ ((w + 2 ^ 63) / 2 ^ 64)); [left; lia|]. lia.
Qed.

Lemma zero_double : index_of_double (b64_of_bits 0) = Ok 0%Z.
Proof. apply (small_bits 0 0); [lia|reflexivity]. Qed.
Lemma zeros_raw s0 s1 : exists l, raw_doubles Z binary64 float64 (zeros 0%Z 8 [s0; s1]) (s0 * s1) = Ok l /\ length l = s0 * s1 /\
  forall k x, nth_error l k = Some x -> index_of_double x = Ok 0%Z.
Proof.
  destruct (raw_ok float64 eq_refl (zeros 0%Z 8 [s0; s1]) (s0 * s1)) as (l & E & Ll & Hl).
  { cbn [zeros nd_data nd_bytes]. rewrite repeat_length. cbn. lia. }
  exists l. split; auto. split; auto. intros k x Hx. assert (Hk : k < s0 * s1) by (rewrite <- Ll; apply nth_error_Some; congruence).
  rewrite Hl in Hx by auto. injection Hx as <-. change (index_of_double (b64_of_bits (of_bytes (firstn 8 (skipn (k * 8) (repeat 0%Z (product_of [s0; s1] * 8)))))) = Ok 0%Z).
  replace (firstn 8 (skipn (k * 8) (repeat 0%Z (product_of [s0; s1] * 8)))) with (repeat 0%Z 8).
  - apply zero_double.
  - replace (product_of [s0; s1] * 8) with (k * 8 + (8 + (s0 * s1 - k - 1) * 8)) by (cbn; lia).
    rewrite !repeat_app, skipn_app, skipn_all2, app_nil_l, repeat_length by now rewrite repeat_length.
    rewrite Nat.sub_diag. reflexivity.
Qed.

Lemma build_int64 r_sub r_mul neg EN VN K NF v jk jp ji jx je jf jb :
  c_ordered int64 EN -> is_matrix int64 EN K NF v -> (forall k i, k < K -> i < NF -> (0 <= v k i < 2 ^ 52)%Z) ->
  buildMesh Z binary64 float64 r_sub r_mul neg index_of_double jk jp ji jx EN VN je jf jb =
  buildMesh Z binary64 float64 r_sub r_mul neg index_of_double jk jp ji jx (zeros 0%Z 8 [K; NF]) VN je jf jb.
Proof.
  intros OE ME HV. unfold buildMesh, shape_at. rewrite (proj1 ME). change (nd_shape (zeros 0%Z 8 [K; NF])) with [K; NF].
  destruct (getn (nd_shape VN) 1) as [dim| |]; try reflexivity. destruct (getn (nd_shape VN) 0) as [nv| |]; try reflexivity.
  unfold getn. cbn [nth_error bind]. destruct (raw_doubles _ _ _ VN _); try reflexivity. cbn [bind].
  destruct (zeros_raw K NF) as (z & Ez & Lz & Hz). rewrite Ez. cbn [bind].
  destruct (raw_ok float64 eq_refl EN (K * NF)) as (l & El & Ll & Hl).
  { destruct OE as (_ & _ & Hb). rewrite (proj1 ME) in Hb. cbn in Hb. lia. }
  rewrite El. cbn [bind]. rewrite (to_indices_ext _ _ index_of_double index_of_double l z); [reflexivity|congruence|].
  intros k x y Hx Hy. rewrite (Hz k y Hy). assert (Hk : k < K * NF) by (rewrite <- Ll; apply nth_error_Some; congruence).
  rewrite Hl in Hx by auto. injection Hx as <-. destruct (divmod_lt k K NF Hk) as (D1 & D2 & D3).
  apply (small_bits _ (v (k / NF) (k mod NF))); [now apply HV|]. apply int64_word; [|now apply HV].
  rewrite <- D3 at 1. now apply (c_item int64 EN K NF v).
Qed.
