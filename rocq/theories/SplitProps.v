(* SplitProps.v - splitting elements for output (C40) and the cells of the VTK writer (C54). *)
From Coq Require Import ZArith List Lia Bool Arith Permutation.
From Verif Require Import Base Loops Num BlitzModel DenseSpec JacobiExactProofs JacobiQuadProofs Nodes1DModel Nodes1DSpec Nodes1DExactProofs TriModel TriSpec TriProofs TriGeoSpec TriSetup TriProps FoldProofs Maps2DSpec SplitModel SplitSpec SplitProofs.
From Verif Require TriWitness.
From Coq Require Import Reals Lra.
Import ListNotations.
Local Open Scope nat_scope.

(* ---------- C40: the pieces, any arithmetic and any interpolation ---------- *)
(* The triangles produced for each element are exactly the N*N small triangles of the lattice, none twice; column
   k*N*N + l of the results holds the values interpolated at the vertices of the l-th small triangle of element k. *)
Theorem C40_triangle_pieces {T} (A : arith T) junk junk2 interp N x y field :
  let Np := mrows field in let K := mcols field in
  2 * Np = (N + 1) * (N + 2) -> mrows x = Np -> mcols x = K -> mrows y = Np -> mcols y = K ->
  (forall ro so, length ro = Np -> length so = Np ->
     (forall q, q < Np -> exists m n, m + n <= N /\ nth_error ro q = Some (lat A N m) /\ nth_error so q = Some (lat A N n)) ->
     exists IM, interp ro so = Ok IM /\ mrows IM = Np) ->
  exists pieces ro so IM X Y F, splitTriangles A junk junk2 interp N x y field = Ok (X, Y, F) /\
    NoDup pieces /\ length pieces = N * N /\ (forall t, In t pieces <-> sub_triangle N t) /\
    interp ro so = Ok IM /\ length ro = Np /\ length so = Np /\
    (forall q, q < Np -> exists m n, m + n <= N /\ nth_error ro q = Some (lat A N m) /\ nth_error so q = Some (lat A N n)) /\
    mrows X = 3 /\ mcols X = N * N * K /\ mrows Y = 3 /\ mcols Y = N * N * K /\ mrows F = 3 /\ mcols F = N * N * K /\
    forall k l t c m n, k < K -> nth_error pieces l = Some t -> nth_error t c = Some (m, n) ->
      exists q, q < Np /\ nth_error ro q = Some (lat A N m) /\ nth_error so q = Some (lat A N n) /\
        ment X c (k * (N * N) + l) = ment (mmul A IM x) q k /\ ment Y c (k * (N * N) + l) = ment (mmul A IM y) q k /\
        ment F c (k * (N * N) + l) = ment (mmul A IM field) q k.
Proof.
  intros Np K HNp X1 X2 Y1 Y2 Hint. assert (HM : Np = length (modes N)) by (pose proof (modes_length N); lia).
  destruct (split_ok A junk junk2 interp N 3 (tri_lattice A junk N) (tri_local N) (tpos N) (fun n m => n + m <= N) (tri_pieces N) x y field X1 X2 Y1 Y2) as (ro & so & IM & X & Y & F & E & Lr & Ls & EI & S1 & S2 & S3 & S4 & S5 & S6 & Hl & Hv).
  - destruct (tri_lattice_ok A junk N) as (L & E & H). fold Np. rewrite HM. exists L. split; [exact E|]. split; [exact H|]. destruct L as [[ro so] C]. exact (tri_local_ok A N _ ro so C H).
  - intros t Ht. apply tri_pieces_in in Ht as (m & n & [(H & ->)|(H & ->)]); (split; [reflexivity|]); intros a b Hin; cbn in Hin; repeat (destruct Hin as [[= <- <-]|Hin]; [lia|]); destruct Hin.
  - fold Np. intros ro so C _ Hn. destruct Hn as (L1 & L2 & _ & _ & Hd & _). apply (Hint ro so L1 L2). intros q Hq. rewrite HM in Hq. apply tpos_surj in Hq as (n & m & _ & Hs & ->). destruct (Hd n m) as (_ & H1 & H2 & _); try lia. exists m, n. repeat split; auto; lia.
  - fold Np in Lr, Ls, Hv. fold K in S2, S4, S6, Hv. rewrite tri_pieces_len in S2, S4, S6, Hv. exists (tri_pieces N), ro, so, IM, X, Y, F. split; [exact E|]. split; [apply tri_pieces_nodup|]. split; [apply tri_pieces_len|]. split; [apply tri_pieces_in|].
    repeat (split; [assumption|]). split.
    { intros q Hq. rewrite HM in Hq. apply tpos_surj in Hq as (n & m & _ & Hs & ->). destruct (Hl n m ltac:(lia) ltac:(lia) Hs) as (H1 & H2). exists m, n. repeat split; auto; lia. }
    repeat (split; [assumption|]). intros k l t c m n Hk Ht Hc. destruct (Hv k l t c m n Hk Ht Hc) as (Hp & V). exists (tpos N n m). split; [exact Hp|].
    assert (Hs : sub_triangle N t) by (apply tri_pieces_in; eapply nth_error_In; exact Ht). assert (Hmn : n + m <= N).
    { apply nth_error_In in Hc. destruct Hs as (a & b & [(H & ->)|(H & ->)]); cbn in Hc; repeat (destruct Hc as [[= <- <-]|Hc]; [lia|]); destruct Hc. }
    destruct (Hl n m ltac:(lia) ltac:(lia) Hmn) as (G1 & G2). auto.
Qed.

(* The same for quadrilaterals: the N*N small squares. *)
Theorem C40_quad_pieces {T} (A : arith T) junk junk2 interp N x y field :
  let Np := mrows field in let K := mcols field in
  Np = (N + 1) * (N + 1) -> mrows x = Np -> mcols x = K -> mrows y = Np -> mcols y = K ->
  (forall ro so, length ro = Np -> length so = Np -> exists IM, interp ro so = Ok IM /\ mrows IM = Np) ->
  exists pieces ro so IM X Y F, splitQuads A junk junk2 interp N x y field = Ok (X, Y, F) /\
    NoDup pieces /\ length pieces = N * N /\ (forall t, In t pieces <-> sub_square N t) /\
    interp ro so = Ok IM /\ length ro = Np /\ length so = Np /\
    (forall m n, m <= N -> n <= N -> nth_error ro (n * (N + 1) + m) = Some (lat A N m) /\ nth_error so (n * (N + 1) + m) = Some (lat A N n)) /\
    mrows X = 4 /\ mcols X = N * N * K /\ mrows Y = 4 /\ mcols Y = N * N * K /\ mrows F = 4 /\ mcols F = N * N * K /\
    forall k l t c m n, k < K -> nth_error pieces l = Some t -> nth_error t c = Some (m, n) ->
      let q := n * (N + 1) + m in q < Np /\
      ment X c (k * (N * N) + l) = ment (mmul A IM x) q k /\ ment Y c (k * (N * N) + l) = ment (mmul A IM y) q k /\
      ment F c (k * (N * N) + l) = ment (mmul A IM field) q k.
Proof.
  intros Np K HNp X1 X2 Y1 Y2 Hint. rewrite !Nat.add_1_r in *.
  destruct (split_ok A junk junk2 interp N 4 (quad_lattice A junk N) (quad_local N) (qpos N) (fun n m => n <= N /\ m <= N) (quad_pieces N) x y field X1 X2 Y1 Y2) as (ro & so & IM & X & Y & F & E & Lr & Ls & EI & S1 & S2 & S3 & S4 & S5 & S6 & Hl & Hv).
  - destruct (quad_lattice_ok A junk N) as (L & E & H). fold Np. rewrite HNp. exists L. split; [exact E|]. split; [exact H|]. destruct L as [[ro so] C]. exact (quad_local_ok A N _ ro so C H).
  - intros t Ht. apply quad_pieces_in in Ht as (m & n & Hm & Hn & ->). split; [reflexivity|]. intros a b Hin. cbn in Hin. repeat (destruct Hin as [[= <- <-]|Hin]; [lia|]). destruct Hin.
  - fold Np. intros ro so C _ Hn. destruct Hn as (L1 & L2 & _). apply (Hint ro so L1 L2).
  - fold Np in Lr, Ls, Hv. fold K in S2, S4, S6, Hv. rewrite quad_pieces_len in S2, S4, S6, Hv. exists (quad_pieces N), ro, so, IM, X, Y, F. split; [exact E|]. split; [apply quad_pieces_nodup|]. split; [apply quad_pieces_len|]. split; [apply quad_pieces_in|].
    repeat (split; [assumption|]). split; [intros m n Hm Hn; apply Hl; auto|]. repeat (split; [assumption|]). intros k l t c m n Hk Ht Hc. exact (Hv k l t c m n Hk Ht Hc).
Qed.

(* ---------- C40: the small triangles tile the reference triangle, with equal positive areas ---------- *)
Local Open Scope R_scope.
Lemma nfloor x : 0 <= x -> exists n, INR n <= x < INR n + 1.
Proof.
  intro H. destruct (archimed x) as (H1 & H2). exists (Z.to_nat (up x - 1)). assert (0 < up x)%Z by (apply lt_IZR; lra).
  rewrite INR_IZR_INZ, Z2Nat.id by lia. rewrite minus_IZR. lra.
Qed.
Lemma INR_lt_1 a b : INR a < INR b + 1 -> (a <= b)%nat.
Proof. intro H. replace (INR b + 1) with (INR (S b)) in H by (rewrite S_INR; ring). apply INR_lt in H. lia. Qed.
Lemma floors_eq a b x : INR a < x < INR a + 1 -> INR b < x < INR b + 1 -> a = b.
Proof. intros H1 H2. assert (a <= b)%nat by (apply INR_lt_1; lra). assert (b <= a)%nat by (apply INR_lt_1; lra). lia. Qed.

Section Tiling.
Variable N : nat.
Hypothesis HN : (0 < N)%nat.
Lemma Npos : 0 < INR N. Proof. apply lt_0_INR. exact HN. Qed.
Definition back (u v : R) : R * R := (-1 + 2 * u / INR N, -1 + 2 * v / INR N).
Lemma up_sides m n u v : side (place N (m, n)) (place N (m + 1, n)%nat) (back u v) = 4 / (INR N * INR N) * (v - INR n) /\
  side (place N (m + 1, n)%nat) (place N (m, n + 1)%nat) (back u v) = 4 / (INR N * INR N) * (INR m + INR n + 1 - u - v) /\
  side (place N (m, n + 1)%nat) (place N (m, n)) (back u v) = 4 / (INR N * INR N) * (u - INR m).
Proof. pose proof Npos. unfold side, place, back. cbn [fst snd]. rewrite !plus_INR. cbn [INR]. repeat split; field; lra. Qed.
Lemma down_sides m n u v : side (place N (m + 1, n)%nat) (place N (m + 1, n + 1)%nat) (back u v) = 4 / (INR N * INR N) * (INR m + 1 - u) /\
  side (place N (m + 1, n + 1)%nat) (place N (m, n + 1)%nat) (back u v) = 4 / (INR N * INR N) * (INR n + 1 - v) /\
  side (place N (m, n + 1)%nat) (place N (m + 1, n)%nat) (back u v) = 4 / (INR N * INR N) * (u + v - INR m - INR n - 1).
Proof. pose proof Npos. unfold side, place, back. cbn [fst snd]. rewrite !plus_INR. cbn [INR]. repeat split; field; lra. Qed.
Lemma scale_pos : 0 < 4 / (INR N * INR N).
Proof. pose proof Npos. apply Rdiv_lt_0_compat; [lra|]. now apply Rmult_lt_0_compat. Qed.
Lemma back_of p : p = back ((1 + fst p) * INR N / 2) ((1 + snd p) * INR N / 2).
Proof. pose proof Npos. destruct p as [a b]. unfold back. cbn [fst snd]. f_equal; field; lra. Qed.
Lemma nonneg_scaled x : 0 <= x -> 0 <= 4 / (INR N * INR N) * x.
Proof. pose proof scale_pos. intro. apply Rmult_le_pos; lra. Qed.
Lemma scaled_pos x : 0 < 4 / (INR N * INR N) * x -> 0 < x.
Proof. pose proof scale_pos as H. intro H1. apply Rmult_lt_reg_l with (4 / (INR N * INR N)); lra. Qed.

Definition piece_contains (t : list (nat * nat)) (p : R * R) : Prop := exists a b c, t = [a; b; c] /\ in_triangle (place N a) (place N b) (place N c) p.
Definition piece_interior (t : list (nat * nat)) (p : R * R) : Prop := exists a b c, t = [a; b; c] /\ inside_triangle (place N a) (place N b) (place N c) p.

Lemma up_in m n u v : (m + n < N)%nat -> INR n <= v -> INR m <= u -> u + v <= INR m + INR n + 1 -> exists t, sub_triangle N t /\ piece_contains t (back u v).
Proof.
  intros H1 H2 H3 H4. exists [(m, n); (m + 1, n); (m, n + 1)]%nat. split; [exists m, n; left; auto|]. do 3 eexists. split; [reflexivity|].
  unfold in_triangle. destruct (up_sides m n u v) as (-> & -> & ->). repeat split; apply nonneg_scaled; lra.
Qed.
Theorem C40_tiling :
  (forall t, sub_triangle N t -> length t = 3%nat /\ shoelace (map (place N) t) = 4 / (INR N * INR N) /\
     forall m n, In (m, n) t -> (m + n <= N)%nat) /\
  (forall m n, (m + n <= N)%nat -> exists t, sub_triangle N t /\ In (m, n) t) /\
  (forall p, in_triangle (-1, -1) (1, -1) (-1, 1) p -> exists t, sub_triangle N t /\ piece_contains t p) /\
  (forall p t t', sub_triangle N t -> sub_triangle N t' -> piece_interior t p -> piece_interior t' p -> t = t').
Proof.
  pose proof Npos as HNp. split; [|split; [|split]].
  - intros t (m & n & [(H & ->)|(H & ->)]); (split; [reflexivity|]); (split; [unfold shoelace, shoelace_from, place; cbn [map fst snd]; rewrite !plus_INR; cbn [INR]; field; lra|]);
      intros a b Hin; cbn in Hin; repeat (destruct Hin as [[= <- <-]|Hin]; [lia|]); destruct Hin.
  - intros m n H. destruct (Nat.eq_dec (m + n) N) as [E|E].
    + destruct m as [|m].
      * exists [(0, n - 1); (0 + 1, n - 1); (0, n - 1 + 1)]%nat. split; [exists 0%nat, (n - 1)%nat; left; split; [lia|reflexivity]|]. right; right; left. f_equal. lia.
      * exists [(m, n); (m + 1, n); (m, n + 1)]%nat. split; [exists m, n; left; split; [lia|reflexivity]|]. right; left. f_equal. lia.
    + exists [(m, n); (m + 1, n); (m, n + 1)]%nat. split; [exists m, n; left; split; [lia|reflexivity]|]. now left.
  - intros p (P1 & P2 & P3). rewrite (back_of p). set (u := (1 + fst p) * INR N / 2). set (v := (1 + snd p) * INR N / 2).
    unfold side in P1, P2, P3. cbn [fst snd] in P1, P2, P3.
    assert (Hu : 0 <= u) by (unfold u; apply Rmult_le_pos; [apply Rmult_le_pos; lra|lra]). assert (Hv : 0 <= v) by (unfold v; apply Rmult_le_pos; [apply Rmult_le_pos; lra|lra]).
    assert (Huv : u + v <= INR N). { unfold u, v. apply Rmult_le_reg_r with 2; [lra|]. replace (((1 + fst p) * INR N / 2 + (1 + snd p) * INR N / 2) * 2) with ((2 + fst p + snd p) * INR N) by field. replace (INR N * 2) with (2 * INR N) by ring. apply Rmult_le_compat_r; lra. }
    destruct (nfloor u Hu) as (m & M1 & M2). destruct (nfloor v Hv) as (n & N1 & N2).
    destruct (Rle_dec (u + v) (INR m + INR n + 1)) as [Hs|Hs].
    + assert (Hmn : (m + n <= N)%nat) by (apply INR_le; rewrite plus_INR; lra). destruct (Nat.eq_dec (m + n) N) as [E|E].
      * assert (EI : INR m + INR n = INR N) by (rewrite <- plus_INR; f_equal; exact E). destruct m as [|m].
        -- apply (up_in 0 (n - 1)); cbn [INR] in *; [lia| | |]; rewrite ?minus_INR by lia; cbn [INR]; lra.
        -- rewrite S_INR in *. apply (up_in m n); [lia|lra|lra|lra].
      * apply (up_in m n); [lia|lra|lra|lra].
    + exists [(m + 1, n); (m + 1, n + 1); (m, n + 1)]%nat. split.
      * exists m, n. right. split; [|reflexivity]. assert (m + n + 1 < N)%nat by (apply INR_lt; rewrite !plus_INR; cbn [INR]; lra). lia.
      * do 3 eexists. split; [reflexivity|]. unfold in_triangle. destruct (down_sides m n u v) as (-> & -> & ->). repeat split; apply nonneg_scaled; lra.
  - intros p t t' Ht Ht'. rewrite (back_of p). generalize ((1 + fst p) * INR N / 2). intro u. generalize ((1 + snd p) * INR N / 2). intro v. clear p.
    assert (K : forall t, sub_triangle N t -> piece_interior t (back u v) -> exists m n, INR m < u < INR m + 1 /\ INR n < v < INR n + 1 /\
       ((t = [(m, n); (m + 1, n); (m, n + 1)]%nat /\ u + v < INR m + INR n + 1) \/ (t = [(m + 1, n); (m + 1, n + 1); (m, n + 1)]%nat /\ INR m + INR n + 1 < u + v))).
    { intros w (m & n & [(H & ->)|(H & ->)]) (a & b & c & [= <- <- <-] & S1 & S2 & S3); exists m, n.
      - destruct (up_sides m n u v) as (E1 & E2 & E3). rewrite E1 in S1. rewrite E2 in S2. rewrite E3 in S3. apply scaled_pos in S1, S2, S3. repeat split; try lra. left. split; [reflexivity|lra].
      - destruct (down_sides m n u v) as (E1 & E2 & E3). rewrite E1 in S1. rewrite E2 in S2. rewrite E3 in S3. apply scaled_pos in S1, S2, S3. repeat split; try lra. right. split; [reflexivity|lra]. }
    intros I I'. destruct (K t Ht I) as (m & n & U & V & C). destruct (K t' Ht' I') as (m' & n' & U' & V' & C').
    rewrite (floors_eq m' m u) in C' by assumption. rewrite (floors_eq n' n v) in C' by assumption. destruct C as [(-> & C)|(-> & C)], C' as [(-> & C')|(-> & C')]; try reflexivity; lra.
Qed.

(* The small squares tile the reference square; in the order in which splitElements lists their vertices the boundary crosses
   itself (the signed area vanishes), in the order bottom-left, top-left, top-right, bottom-right it does not. *)
Theorem C40_square_tiling :
  (forall t, sub_square N t -> exists a b c d, t = [a; b; c; d] /\ shoelace (map (place N) [a; b; c; d]) = 0 /\ shoelace (map (place N) [a; c; d; b]) = - (8 / (INR N * INR N)) /\
     side (place N a) (place N c) (place N d) < 0 /\ side (place N c) (place N d) (place N b) < 0 /\ side (place N d) (place N b) (place N a) < 0 /\ side (place N b) (place N a) (place N c) < 0) /\
  (forall m n, (m <= N)%nat -> (n <= N)%nat -> exists t, sub_square N t /\ In (m, n) t) /\
  (forall r s, -1 <= r <= 1 -> -1 <= s <= 1 -> exists m n, (m < N)%nat /\ (n < N)%nat /\ fst (place N (m, n)) <= r <= fst (place N (m + 1, n)%nat) /\ snd (place N (m, n)) <= s <= snd (place N (m, n + 1)%nat)) /\
  (forall r s m n m' n', fst (place N (m, n)) < r < fst (place N (m + 1, n)%nat) -> snd (place N (m, n)) < s < snd (place N (m, n + 1)%nat) ->
     fst (place N (m', n')) < r < fst (place N (m' + 1, n')%nat) -> snd (place N (m', n')) < s < snd (place N (m', n' + 1)%nat) -> m = m' /\ n = n').
Proof.
  pose proof Npos as HNp. pose proof scale_pos as HS. split; [|split; [|split]].
  - intros t (m & n & Hm & Hn & ->). do 4 eexists. split; [reflexivity|].
    split; [unfold shoelace, shoelace_from, place; cbn [map fst snd]; rewrite !plus_INR; cbn [INR]; field; lra|].
    split; [unfold shoelace, shoelace_from, place; cbn [map fst snd]; rewrite !plus_INR; cbn [INR]; field; lra|].
    unfold side, place; cbn [fst snd]; rewrite !plus_INR; cbn [INR].
    repeat split; match goal with |- ?e < 0 => replace e with (- (4 / (INR N * INR N))) by (field; lra) end; lra.
  - intros m n Hm Hn. exists [(min m (N - 1), min n (N - 1)); (min m (N - 1) + 1, min n (N - 1)); (min m (N - 1), min n (N - 1) + 1); (min m (N - 1) + 1, min n (N - 1) + 1)]%nat.
    split; [exists (min m (N - 1)), (min n (N - 1)); repeat split; lia|]. cbn [In]. destruct (Nat.eq_dec m N), (Nat.eq_dec n N);
      [right; right; right; left|right; left|right; right; left|left]; f_equal; lia.
  - assert (K : forall r, -1 <= r <= 1 -> exists m, (m < N)%nat /\ -1 + 2 * INR m / INR N <= r <= -1 + 2 * INR (m + 1) / INR N).
    { intros r Hr. set (u := (1 + r) * INR N / 2). assert (Er : r = -1 + 2 * u / INR N) by (unfold u; field; lra).
      assert (Hu : 0 <= u) by (unfold u; apply Rmult_le_pos; [apply Rmult_le_pos; lra|lra]). assert (HuN : u <= INR N) by (unfold u; apply Rmult_le_reg_r with 2; [lra|]; replace ((1 + r) * INR N / 2 * 2) with ((1 + r) * INR N) by field; rewrite (Rmult_comm (INR N)); apply Rmult_le_compat_r; lra).
      assert (Hord : forall a b, a <= b -> -1 + 2 * a / INR N <= -1 + 2 * b / INR N). { intros a b Hab. apply Rplus_le_compat_l. unfold Rdiv. apply Rmult_le_compat_r; [left; apply Rinv_0_lt_compat; exact HNp|lra]. }
      destruct (nfloor u Hu) as (m & M1 & M2). destruct (Nat.eq_dec m N) as [->|Hne].
      - exists (N - 1)%nat. split; [lia|]. replace (N - 1 + 1)%nat with N by lia. rewrite Er. split; apply Hord; [rewrite minus_INR by lia; cbn [INR]; lra|lra].
      - assert (m <= N)%nat by (apply INR_le; lra). exists m. split; [lia|]. rewrite Er. split; apply Hord; [lra|rewrite plus_INR; cbn [INR]; lra]. }
    intros r s Hr Hs. destruct (K r Hr) as (m & Hm & Hm'). destruct (K s Hs) as (n & Hn & Hn'). exists m, n. unfold place. cbn [fst snd]. auto.
  - intros r s m n m' n'. unfold place. cbn [fst snd]. intros R1 S1 R2 S2.
    assert (K : forall a x, -1 + 2 * INR a / INR N < x < -1 + 2 * INR (a + 1) / INR N -> INR a < (1 + x) * INR N / 2 < INR a + 1).
    { intros a x (H1 & H2). rewrite plus_INR in H2. cbn [INR] in H2. assert (E : x = -1 + 2 * ((1 + x) * INR N / 2) / INR N) by (field; lra). set (u := (1 + x) * INR N / 2) in *. rewrite E in H1, H2.
      assert (Q : forall a b, -1 + 2 * a / INR N < -1 + 2 * b / INR N -> a < b). { intros c d Hcd. apply Rmult_lt_reg_r with (2 * / INR N); [apply Rmult_lt_0_compat; [lra|now apply Rinv_0_lt_compat]|]. unfold Rdiv in Hcd. lra. }
      split; apply Q; assumption. }
    split; [apply (floors_eq m m' ((1 + r) * INR N / 2)); apply K; assumption|apply (floors_eq n n' ((1 + s) * INR N / 2)); apply K; assumption].
Qed.
End Tiling.

(* ---------- C40: what a constructed triangle provisioner writes ---------- *)
Lemma affine_poly (a b c : R) N : (0 < N)%nat -> exists p, degree2 N p /\ forall r s, eval2 p r s = a + (1 + r) / 2 * b + (1 + s) / 2 * c.
Proof.
  intro HN. exists [(0%nat, 0%nat, a + b / 2 + c / 2); (1%nat, 0%nat, b / 2); (0%nat, 1%nat, c / 2)]. split.
  - repeat constructor; cbn; lia.
  - intros r s. cbn [eval2 pow]. field.
Qed.

(* Splitting the grid and a field of a constructed provisioner in exact arithmetic: element k is cut into the N*N images of
   the small triangles under the affine map of the element, and the vertices carry the values of the polynomial of
   degree N that interpolates the field on the element. *)
Theorem C40_triangle G solve inverse junk eps eig tol N K Vert EToV el junk1 junk2 field :
  built G solve inverse junk eps eig tol N K Vert EToV el -> mrows field = length (e_r el) -> mcols field = K ->
  exists pieces X Y F,
    splitTriangles (exact G) junk1 junk2 (computeInterpMatrix (exact G) pow junk N (e_Vinv el)) N (e_x el) (e_y el) field = Ok (X, Y, F) /\
    NoDup pieces /\ length pieces = (N * N)%nat /\ (forall t, In t pieces <-> sub_triangle N t) /\
    mrows X = 3%nat /\ mcols X = (N * N * K)%nat /\ mrows Y = 3%nat /\ mcols Y = (N * N * K)%nat /\ mrows F = 3%nat /\ mcols F = (N * N * K)%nat /\
    forall k l t c v, (k < K)%nat -> nth_error pieces l = Some t -> nth_error t c = Some v ->
      let col := (k * (N * N) + l)%nat in let rs := place N v in
      (ment X c col, ment Y c col) = affine_image (corner Vert EToV k 0) (corner Vert EToV k 1) (corner Vert EToV k 2) (fst rs) (snd rs) /\
      forall p, degree2 N p -> (forall i, (i < length (e_r el))%nat -> ment field i k = eval2 p (nth i (e_r el) 0) (nth i (e_s el) 0)) ->
        ment F c col = eval2 p (fst rs) (snd rs).
Proof.
  intros HB Fr Fc. destruct (C36_affine_grid _ _ _ _ _ _ _ _ _ _ _ _ HB) as ((X1 & X2) & (Y1 & Y2) & Hxy). destruct (C67_edge_nodes _ _ _ _ _ _ _ _ _ _ _ _ HB) as (Len & Ls & _).
  assert (HN : (0 < N)%nat) by (destruct HB; lia). pose proof (lt_0_INR N HN) as HNp.
  assert (Hlat : forall m, lat (exact G) N m = -1 + 2 * INR m / INR N).
  { intro m. unfold lat. cbn [fadd fopp fdiv fmul fofZ exact]. unfold fofn. cbn [fofZ exact]. rewrite <- !INR_IZR_INZ. lra. }
  assert (Hdom : forall m n, (m + n <= N)%nat -> in_domain (-1 + 2 * INR m / INR N) (-1 + 2 * INR n / INR N)).
  { intros m n H. destruct (Nat.eq_dec n N) as [->|Hne]; [right; replace m with 0%nat by lia; cbn [INR]; field; lra|]. left. intro E. assert (E2 : INR n = INR N) by (apply Rmult_eq_reg_r with (2 / INR N); [|apply Rgt_not_eq, Rdiv_lt_0_compat; lra]; replace (INR N * (2 / INR N)) with 2 by (field; lra); lra). apply INR_eq in E2. lia. }
  destruct (C40_triangle_pieces (exact G) junk1 junk2 (computeInterpMatrix (exact G) pow junk N (e_Vinv el)) N (e_x el) (e_y el) field) as (pieces & ro & so & IM & X & Y & F & E & ND & LP & HP & EI & Lr & Lso & Hall & S1 & S2 & S3 & S4 & S5 & S6 & Hv); try congruence.
  - intros ro so Lr Lso Hq. destruct (C68_interpolation _ _ _ _ _ _ _ _ _ _ _ _ HB ro so) as (IM & EI & (SI & _) & _); [congruence| |exists IM; split; [exact EI|congruence]].
    intros k Hk. destruct (Hq k ltac:(lia)) as (m & n & Hmn & Q1 & Q2). rewrite (nth_error_nth _ _ 0 Q1), (nth_error_nth _ _ 0 Q2), !Hlat. apply Hdom. exact Hmn.
  - exists pieces, X, Y, F. rewrite Fc in *. split; [exact E|]. repeat (split; [assumption|]). intros k l t c (m, n) Hk Ht Hc col rs. destruct (Hv k l t c m n Hk Ht Hc) as (q & Hq & Q1 & Q2 & VX & VY & VF).
    assert (Hdo : forall j, (j < length ro)%nat -> in_domain (nth j ro 0) (nth j so 0)).
    { intros j Hj. destruct (Hall j ltac:(lia)) as (a & b & Hab & A1 & A2). rewrite (nth_error_nth _ _ 0 A1), (nth_error_nth _ _ 0 A2), !Hlat. apply Hdom. exact Hab. }
    destruct (C68_interpolation _ _ _ _ _ _ _ _ _ _ _ _ HB ro so ltac:(congruence) Hdo) as (IM' & EI' & (SI & SI2) & HI). assert (IM' = IM) by congruence. subst IM'.
    assert (Hmul : forall (M : mat R) p, degree2 N p -> (forall i, (i < length (e_r el))%nat -> ment M i k = eval2 p (nth i (e_r el) 0) (nth i (e_s el) 0)) -> ment (mmul (exact G) IM M) q k = eval2 p (fst rs) (snd rs)).
    { intros M p Hp HM. specialize (HI p q Hp ltac:(lia)). cbn beta in HI. rewrite (nth_error_nth _ _ 0 Q1), (nth_error_nth _ _ 0 Q2), !Hlat in HI. unfold rs, place. cbn [fst snd]. rewrite <- HI.
      cbn [mmul ment]. rewrite fsum_exact, SI2. apply sumn_ext. intros i Hi. cbn [fmul exact]. rewrite HM by exact Hi. reflexivity. }
    split.
    + unfold col. rewrite VX, VY. unfold affine_image.
      destruct (affine_poly (fst (corner Vert EToV k 0)) (fst (corner Vert EToV k 1) - fst (corner Vert EToV k 0)) (fst (corner Vert EToV k 2) - fst (corner Vert EToV k 0)) N HN) as (p1 & D1 & P1).
      destruct (affine_poly (snd (corner Vert EToV k 0)) (snd (corner Vert EToV k 1) - snd (corner Vert EToV k 0)) (snd (corner Vert EToV k 2) - snd (corner Vert EToV k 0)) N HN) as (p2 & D2 & P2).
      f_equal.
      * rewrite <- P1. apply Hmul; [exact D1|]. intros i Hi. destruct (Hxy i k Hi Hk) as (Ha & _). rewrite P1. apply (f_equal fst) in Ha. exact Ha.
      * rewrite <- P2. apply Hmul; [exact D2|]. intros i Hi. destruct (Hxy i k Hi Hk) as (Ha & _). rewrite P2. apply (f_equal snd) in Ha. exact Ha.
    + intros p Hp HF. unfold col. rewrite VF. apply Hmul; assumption.
Qed.

Example C40_witness : exists el, built JacobiExactProofs.gwit TriWitness.cramer TriWitness.cramer_inv TriWitness.junk0 0 TriWitness.eig0 (1 / 10) 1 2
   [0; 0; 0;  1; 0; 0;  1; 1; 0;  0; 1; 0] [0; 1; 2;  0; 2; 3]%nat el /\ mrows (e_x el) = length (e_r el) /\ mcols (e_x el) = 2%nat.
Proof.
  destruct TriWitness.tri_witness as (el & HB). exists el. split; [exact HB|]. destruct (C36_affine_grid _ _ _ _ _ _ _ _ _ _ _ _ HB) as ((X1 & X2) & _). auto.
Qed.
(* Order 2: four small triangles, and the identity in place of an interpolation. *)
Example C40_pieces_witness : tri_pieces 2 = [[(0, 0); (1, 0); (0, 1)]; [(1, 0); (1, 1); (0, 1)]; [(1, 0); (2, 0); (1, 1)]; [(0, 1); (1, 1); (0, 2)]]%nat.
Proof. reflexivity. Qed.
Example C40_tiling_witness : sub_triangle 2 [(1, 0); (1, 1); (0, 1)]%nat /\ in_triangle (-1, -1) (1, -1) (-1, 1) (- 1 / 2, 1 / 4).
Proof. split; [exists 0%nat, 0%nat; right; split; [lia|reflexivity]|]. unfold in_triangle, side. cbn [fst snd]. lra. Qed.

(* ---------- C54: the cells of the VTK file ---------- *)
Local Open Scope nat_scope.
Section C54.
Context {T : Type}.
Variables (zero : T) (junk : nat -> T) (x y field : mat T).
Local Notation K := (mcols field).
Local Notation Np := (mrows field).

(* One point and one value per entry, element by element; one cell per element, whose point numbers are those of the element,
   each once; triangles in the given order, quadrilaterals as first, third, fourth, second. *)
Theorem C54_cells : mrows x = Np -> mcols x = K -> mrows y = Np -> mcols y = K ->
  exists g, insertAllCells zero junk x y field = Ok g /\ length (vk_points g) = K * Np /\ length (vk_values g) = K * Np /\ length (vk_cells g) = K /\
  forall k, k < K -> 
    (forall n, n < Np -> nth_error (vk_points g) (k * Np + n) = Some (ment x n k, ment y n k, zero) /\ nth_error (vk_values g) (k * Np + n) = Some (ment field n k)) /\
    exists nodes, nth_error (vk_cells g) k = Some (cell_type Np, nodes) /\ Permutation nodes (seq (k * Np) Np) /\
      (Np = 3 -> nodes = [k * 3; k * 3 + 1; k * 3 + 2] /\ cell_type Np = 5) /\ (Np = 4 -> nodes = [k * 4; k * 4 + 2; k * 4 + 3; k * 4 + 1] /\ cell_type Np = 9).
Proof.
  intros X1 X2 Y1 Y2. destruct (cells_ok zero junk x y field (conj X1 X2) (conj Y1 Y2)) as (g & E & L1 & L2 & L3 & H). exists g. repeat (split; [assumption|]).
  intros k Hk. destruct (H k Hk) as (Hc & Hn). split; [exact Hn|]. eexists. split; [exact Hc|]. split; [|split].
  - unfold cell_nodes. destruct Np as [|[|[|[|[|q]]]]] eqn:Eq; try apply Permutation_refl. clear. cbn [seq]. apply perm_skip.
    replace (S (k * 4)) with (k * 4 + 1) by lia. replace (S (k * 4 + 1)) with (k * 4 + 2) by lia. replace (S (k * 4 + 2)) with (k * 4 + 3) by lia.
    change [k * 4 + 2; k * 4 + 3; k * 4 + 1] with ([k * 4 + 2; k * 4 + 3] ++ [k * 4 + 1]). apply Permutation_app_comm.
  - intro E3. unfold cell_nodes. rewrite E3. split; [|reflexivity]. cbn [seq]. repeat f_equal; lia.
  - intro E4. unfold cell_nodes. rewrite E4. split; reflexivity.
Qed.
End C54.

(* A field of a triangle provisioner of order N > 1 is written as N*N triangles per element, one of order 1 as the elements. *)
Theorem C54_triangle_file {T} (A : arith T) zero junk junk2 interp N x y field :
  let Np := mrows field in let K := mcols field in
  2 * Np = (N + 1) * (N + 2) -> mrows x = Np -> mcols x = K -> mrows y = Np -> mcols y = K -> 0 < N ->
  (forall ro so, length ro = Np -> length so = Np ->
     (forall q, q < Np -> exists m n, m + n <= N /\ nth_error ro q = Some (lat A N m) /\ nth_error so q = Some (lat A N n)) ->
     exists IM, interp ro so = Ok IM /\ mrows IM = Np) ->
  exists g, writeField zero junk N (splitTriangles A junk junk2 interp N) x y field = Ok g /\
    length (vk_cells g) = N * N * K /\ length (vk_points g) = N * N * K * 3 /\
    forall i, i < N * N * K -> nth_error (vk_cells g) i = Some (5, [i * 3; i * 3 + 1; i * 3 + 2]).
Proof.
  intros Np K HNp X1 X2 Y1 Y2 HN Hint. unfold writeField. destruct (Nat.ltb_spec 1 N) as [H1|H1].
  - destruct (C40_triangle_pieces A junk junk2 interp N x y field HNp X1 X2 Y1 Y2 Hint) as (pieces & ro & so & IM & X & Y & F & E & _ & _ & _ & _ & _ & _ & _ & S1 & S2 & S3 & S4 & S5 & S6 & _).
    rewrite E. cbn [bind]. fold K in S2, S4, S6. destruct (C54_cells zero junk X Y F) as (g & Eg & L1 & _ & L3 & H); try congruence. exists g. split; [exact Eg|]. split; [congruence|]. split; [congruence|].
    intros i Hi. destruct (H i ltac:(lia)) as (_ & nodes & Hc & _ & H3 & _). rewrite Hc. destruct (H3 S5) as (-> & ->). reflexivity.
  - assert (N = 1) by lia. subst N. assert (E3 : mrows field = 3) by (unfold Np in HNp; lia). destruct (C54_cells zero junk x y field X1 X2 Y1 Y2) as (g & Eg & L1 & _ & L3 & H).
    exists g. split; [exact Eg|]. fold K in L1, L3. split; [lia|]. split; [rewrite L1, E3; lia|]. intros i Hi. destruct (H i ltac:(fold K; lia)) as (_ & nodes & Hc & _ & H3 & _). rewrite Hc. destruct (H3 E3) as (-> & ->). reflexivity.
Qed.

(* A field of a quadrilateral provisioner: in the written order the four vertices of every small square run around it. *)
Theorem C54_quad_file {T} (A : arith T) zero junk junk2 interp N x y field :
  let Np := mrows field in let K := mcols field in
  Np = (N + 1) * (N + 1) -> mrows x = Np -> mcols x = K -> mrows y = Np -> mcols y = K -> 1 < N ->
  (forall ro so, length ro = Np -> length so = Np -> exists IM, interp ro so = Ok IM /\ mrows IM = Np) ->
  exists g IM, writeField zero junk N (splitQuads A junk junk2 interp N) x y field = Ok g /\ (exists ro so, interp ro so = Ok IM) /\
    length (vk_cells g) = N * N * K /\ length (vk_points g) = N * N * K * 4 /\
    forall k, k < K -> exists pieces, NoDup pieces /\ length pieces = N * N /\ (forall t, In t pieces <-> sub_square N t) /\
    forall l t, nth_error pieces l = Some t -> exists nodes, nth_error (vk_cells g) (k * (N * N) + l) = Some (9, nodes) /\
      forall m n, nth_error t 0 = Some (m, n) -> Forall2 (fun v p => nth_error (vk_points g) v = Some (ment (mmul A IM x) (snd p * (N + 1) + fst p) k, ment (mmul A IM y) (snd p * (N + 1) + fst p) k, zero) /\
          nth_error (vk_values g) v = Some (ment (mmul A IM field) (snd p * (N + 1) + fst p) k))
        nodes [(m, n); (m, n + 1); (m + 1, n + 1); (m + 1, n)].
Proof.
  intros Np K HNp X1 X2 Y1 Y2 HN Hint. unfold writeField. destruct (Nat.ltb_spec 1 N) as [_|H1]; [|lia].
  destruct (C40_quad_pieces A junk junk2 interp N x y field HNp X1 X2 Y1 Y2 Hint) as (pieces & ro & so & IM & X & Y & F & E & ND & LP & HP & EI & _ & _ & _ & S1 & S2 & S3 & S4 & S5 & S6 & Hv).
  rewrite E. cbn [bind]. fold K in S2, S4, S6, Hv. destruct (C54_cells zero junk X Y F) as (g & Eg & L1 & _ & L3 & H); try congruence. exists g, IM. split; [exact Eg|]. split; [eauto|]. split; [congruence|]. split; [congruence|].
  intros k Hk. exists pieces. split; [exact ND|]. split; [exact LP|]. split; [exact HP|]. intros l t Ht. assert (Hl : l < N * N) by (rewrite <- LP; apply nth_error_Some; congruence).
  assert (Hi : k * (N * N) + l < mcols F) by nia. destruct (H _ Hi) as (Hpt & nodes & Hc & _ & _ & H4). destruct (H4 S5) as (-> & Ect). rewrite Ect in Hc. eexists. split; [exact Hc|].
  intros m n Hmn. assert (Hs : sub_square N t) by (apply HP; eapply nth_error_In; exact Ht). destruct Hs as (a & b & _ & _ & ->). cbn in Hmn. injection Hmn as -> ->.
  rewrite S5 in Hpt. set (i := k * (N * N) + l) in *.
  assert (Hq : forall c p, c < 4 -> nth_error [(m, n); (m + 1, n); (m, n + 1); (m + 1, n + 1)] c = Some p -> nth_error (vk_points g) (i * 4 + c) = Some (ment (mmul A IM x) (snd p * (N + 1) + fst p) k, ment (mmul A IM y) (snd p * (N + 1) + fst p) k, zero) /\
          nth_error (vk_values g) (i * 4 + c) = Some (ment (mmul A IM field) (snd p * (N + 1) + fst p) k)).
  { intros c [p1 p2] Hc4 Hp. destruct (Hpt c Hc4) as (-> & ->). destruct (Hv k l _ c p1 p2 Hk Ht Hp) as (_ & V1 & V2 & V3). fold i in V1, V2, V3. rewrite V1, V2, V3. cbn [fst snd]. auto. }
  repeat constructor.
  1,2: replace (i * 4) with (i * 4 + 0) by lia; apply (Hq 0 (m, n)); [lia|reflexivity].
  1,2: apply (Hq 2 (m, n + 1)); [lia|reflexivity].
  1,2: apply (Hq 3 (m + 1, n + 1)); [lia|reflexivity].
  1,2: apply (Hq 1 (m + 1, n)); [lia|reflexivity].
Qed.

Example C54_witness : insertAllCells 0 (fun _ => 7) (mkmat 4 1 (fun i _ => i)) (mkmat 4 1 (fun i _ => 10 + i)) (mkmat 4 1 (fun i _ => 20 + i)) =
  Ok (Vtk [(0, 10, 0); (1, 11, 0); (2, 12, 0); (3, 13, 0)] [20; 21; 22; 23] [(9, [0; 2; 3; 1])]).
Proof. reflexivity. Qed.

Print Assumptions C40_triangle_pieces.
Print Assumptions C40_quad_pieces.
Print Assumptions C40_tiling.
Print Assumptions C40_square_tiling.
Print Assumptions C40_triangle.
Print Assumptions C54_cells.
Print Assumptions C54_triangle_file.
Print Assumptions C54_quad_file.
