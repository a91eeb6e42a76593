(* PoissonRhsProofs.v - the boundary right-hand side built on a constructed triangle mesh is the load of the data. *)
From Coq Require Import ZArith List Lia Bool Arith.
From Verif Require Import Base Loops Num FoldProofs BlitzModel BlitzSpec BlitzProofs JacobiModel JacobiSpec JacobiProofs JacobiOrthProofs JacobiQuadProofs JacobiExactProofs Nodes1DModel Nodes1DSpec Nodes1DExactProofs DenseSpec GllProofs
  MeshSpec MeshGeoProofs MeshProps MeshProofs TriModel TriSpec TriBasisProofs TriProofs TriOpProofs TriLiftProofs TriFaceProofs TriNodesProofs TriElemProofs TriGeoSpec TriGeoProofs TriSetup TriProps Maps2DModel Maps2DSpec Maps2DProofs Maps2DProps TriMapsProofs TriMapsProps TriDGSpec TriDGProofs
  QuadInterpProofs TripletModel CscModel CscSpec RKModel Line1DModel Line1DProofs SwModel SwSpec SwProofs SwSchemeProofs SwRunProofs PoissonModel PoissonSpec PoissonTripletProofs PoissonBlockProofs PoissonProofs PoissonLoadSpec PoissonRhsModel.
From Coq Require Import Reals Lra.
Import ListNotations.
Local Open Scope R_scope.

Section Loops.
Variable G : R -> R.
Local Notation E := (exact G).
Lemma mvec_ok (X : mat R) (y : nat -> R) l i n : (i < mrows X)%nat -> mcols X = n -> (forall j, (j < n)%nat -> getn l j = Ok (y j)) ->
  mvec E X l i = Ok (sumn n (fun j => ment X i j * y j)).
Proof.
  intros Hi Hn Hl. unfold mvec. rewrite Hn.
  destruct (for_inv (fun m acc => acc = sumn m (fun j => ment X i j * y j)) n (fun j acc => bind (mget X i j) (fun a => bind (getn l j) (fun v => Ok (fadd E acc (fmul E a v))))) (fofn E 0)) as (s & Es & Hs).
  - unfold sumn. reflexivity.
  - intros j s Hj ->. rewrite mget_ok by lia. cbn [bind]. rewrite Hl by exact Hj. cbn [bind]. eexists. split; [reflexivity|]. rewrite sumn_S. reflexivity.
  - rewrite Es. now rewrite Hs.
Qed.
Lemma addMvec_ok Np K k (X : mat R) (y : nat -> R) l n (B : mat R) : shape B Np K -> (k < K)%nat -> mrows X = Np -> mcols X = n -> (forall j, (j < n)%nat -> getn l j = Ok (y j)) ->
  exists B', addMvec E Np k X l B = Ok B' /\ shape B' Np K /\ (forall i k', k' <> k -> ment B' i k' = ment B i k') /\
    forall i, (i < Np)%nat -> ment B' i k = ment B i k + sumn n (fun j => ment X i j * y j).
Proof.
  intros (S1 & S2) Hk R1 C1 Hl. unfold addMvec.
  destruct (for_inv (fun m Y => shape Y Np K /\ (forall i k', k' <> k -> ment Y i k' = ment B i k') /\ (forall i, (i < m)%nat -> ment Y i k = ment B i k + sumn n (fun j => ment X i j * y j)) /\
      forall i, (m <= i)%nat -> ment Y i k = ment B i k) Np
    (fun i B => bind (mvec E X l i) (fun v => bind (mget B i k) (fun b => mset B i k (fadd E b v)))) B) as (B' & EB & H).
  - split; [split; assumption|]. split; [reflexivity|]. split; [intros; lia|reflexivity].
  - intros i Y Hi ((Y1 & Y2) & H1 & H2 & H3). rewrite (mvec_ok X y l i n) by (assumption || lia). cbn [bind]. rewrite mget_ok by lia. cbn [bind]. unfold mset. rewrite inb_true by lia. eexists. split; [reflexivity|].
    cbn [ment]. split; [split; assumption|]. split; [|split].
    + intros i' k' Hne. destruct (Nat.eqb_spec k' k); [contradiction|]. rewrite andb_false_r. now apply H1.
    + intros i' Hi'. rewrite Nat.eqb_refl, andb_true_r. destruct (Nat.eqb_spec i' i) as [->|]; [rewrite H3 by lia; reflexivity|apply H2; lia].
    + intros i' Hi'. rewrite Nat.eqb_refl, andb_true_r. destruct (Nat.eqb_spec i' i) as [->|]; [lia|apply H3; lia].
  - exists B'. destruct H as (H0 & H1 & H2 & H3). auto.
Qed.
Lemma pickCols_ok Np n (M : mat R) (F : nat -> nat) ids : shape M Np Np -> (forall j, (j < n)%nat -> getn ids j = Ok (F j)) -> (forall j, (j < n)%nat -> (F j < Np)%nat) ->
  exists X, pickCols E Np n M ids = Ok X /\ shape X Np n /\ forall i j, (i < Np)%nat -> (j < n)%nat -> ment X i j = ment M i (F j).
Proof.
  intros (M1 & M2) Hi HF. unfold pickCols.
  destruct (for_inv (fun m X => shape X Np n /\ forall i j, (i < Np)%nat -> (j < m)%nat -> ment X i j = ment M i (F j)) n
    (fun j X => bind (getn ids j) (fun b => for_ Np (fun i X => bind (mget M i b) (fun v => mset X i j v)) X)) (mzero E Np n)) as (X & EX & H).
  - split; [split; reflexivity|intros; lia].
  - intros j X Hj (SX & HX). rewrite Hi by exact Hj. cbn [bind].
    destruct (for_inv (fun m Y => shape Y Np n /\ (forall i j', (i < Np)%nat -> (j' < j)%nat -> ment Y i j' = ment M i (F j')) /\ forall i, (i < m)%nat -> ment Y i j = ment M i (F j)) Np
      (fun i X => bind (mget M i (F j)) (fun v => mset X i j v)) X) as (Y & EY & SY & Y1 & Y2).
    + split; [exact SX|]. split; [exact HX|intros; lia].
    + intros i Y Hi' ((Y1 & Y2) & Y3 & Y4). rewrite mget_ok by (rewrite ?M1, ?M2; auto). cbn [bind]. unfold mset. rewrite inb_true by lia. eexists. split; [reflexivity|]. cbn [ment]. split; [split; assumption|]. split.
      * intros i' j' A B. destruct (Nat.eqb_spec j' j); [lia|]. rewrite andb_false_r. apply Y3; assumption.
      * intros i' A. rewrite Nat.eqb_refl, andb_true_r. destruct (Nat.eqb_spec i' i) as [->|]; [reflexivity|apply Y4; lia].
    + exists Y. split; [exact EY|]. split; [exact SY|]. intros i j' A B. destruct (Nat.eq_dec j' j) as [->|]; [apply Y2; exact A|apply Y1; lia].
  - exists X. tauto.
Qed.
Lemma faceData_ok n k f col (b : nat -> R) : (forall j, (j < n)%nat -> getn col (n * 3 * k + f * n + j) = Ok (b j)) -> faceData n 3 k f col = Ok (map b (seq 0 n)).
Proof.
  intro H. unfold faceData.
  destruct (for_inv (fun i l => l = map b (seq 0 i)) n (fun j l => bind (getn col (n * 3 * k + f * n + j)) (fun v => Ok (l ++ [v]))) []) as (l & El & Hl).
  - reflexivity.
  - intros i l Hi ->. rewrite H by exact Hi. cbn [bind]. eexists. split; [reflexivity|]. now rewrite seq_S, map_app.
  - rewrite El. now rewrite Hl.
Qed.
End Loops.
Lemma getn_map {T} (b : nat -> T) n j : (j < n)%nat -> getn (map b (seq 0 n)) j = Ok (b j).
Proof. intro Hj. unfold getn. rewrite nth_error_map, (nth_error_nth' _ 0%nat) by (now rewrite seq_length). now rewrite seq_nth by exact Hj. Qed.
Lemma picked_mass Np n F M Em c v y : scattered Np n F M Em ->
  sumn Np (fun i => v i * sumn n (fun j => c * ment Em i (F j) * y j)) = c * lm n M (fun a => v (F a)) y.
Proof.
  intro HS. rewrite (sumn_ext Np _ (fun i => sumn n (fun j => c * y j * (v i * ment Em i (F j))))) by (intros i Hi; rewrite <- sumn_scal; apply sumn_ext; intros; ring).
  rewrite (sumn_swap Np n). unfold lm. rewrite (sumn_swap n n), <- sumn_scal. apply sumn_ext. intros j Hj. rewrite sumn_scal, (col_scattered Np n F M Em v j HS Hj), <- !sumn_scal. apply sumn_ext. intros; ring.
Qed.
Lemma picked_flux Np n F M Em c D v y : scattered Np n F M Em ->
  sumn Np (fun i => v i * sumn n (fun j => sumn Np (fun m => ment D m i * (c * ment Em m (F j))) * y j)) = c * lm n M (fun a => act Np D v (F a)) y.
Proof.
  intro HS. rewrite <- (picked_mass Np n F M Em c (act Np D v) y HS).
  rewrite (sumn_ext Np _ (fun i => sumn n (fun j => sumn Np (fun m => ment D m i * v i * (c * ment Em m (F j) * y j))))).
  2:{ intros i Hi. rewrite <- sumn_scal. apply sumn_ext. intros j Hj. rewrite (Rmult_comm (sumn _ _) (y j)), <- !sumn_scal. apply sumn_ext. intros; ring. }
  rewrite (sumn_ext Np _ (fun i => sumn Np (fun m => sumn n (fun j => ment D m i * v i * (c * ment Em m (F j) * y j))))) by (intros; apply sumn_swap).
  rewrite (sumn_swap Np Np). apply sumn_ext. intros m Hm. unfold act. rewrite (Rmult_comm (sumn Np _) (sumn n _)), <- sumn_scal. apply sumn_ext. intros i Hi. rewrite (Rmult_comm (sumn n _)), <- sumn_scal. apply sumn_ext. intros; ring.
Qed.

Section Run.
Variables (G : R -> R) (solve : mat R -> mat R -> mat R -> outcome (mat R)) (inverse : mat R -> mat R -> outcome (mat R))
  (junk : nat -> nat -> R) (eps : R) (eig : nat -> (nat -> nat -> R) -> list R * (nat -> nat -> R)) (tol : R)
  (N K : nat) (Vert : list R) (EToV : list nat) (el : element (T := R)).
Hypothesis HB : built G solve inverse junk eps eig tol N K Vert EToV el.
Variables (E2E E2F : list nat).
Hypothesis HM : tri_mesh K Vert EToV E2E E2F.
Local Notation E := (exact G).
Local Notation P := (TriGeoSpec.corner Vert EToV).
Hypothesis HA : forall k, (k < K)%nat -> 0 < area (P k 0) (P k 1) (P k 2).
Local Notation Fm := (mask_table N (e_masks el)).
Local Notation Np := (length (e_r el)).
Local Notation fn := (fnode el).
Hypothesis HS : forall n n', (n <= N)%nat -> (n' <= N)%nat -> n <> n' -> 2 * tol <= Rabs (nth (ment Fm n 0) (e_r el) 0 - nth (ment Fm n' 0) (e_r el) 0).
Variables (sort : (nat -> nat -> bool) -> list nat -> list nat) (junk1 : nat -> R) (junkn : nat -> nat) (bcType : list Z) (bc0 : hmap) (m : maps).
Hypothesis Hrun : buildMaps E rhypot sort junk1 junkn tol 3 (S N) Np K Fm (e_x el) (e_y el) E2E E2F EToV Vert bcType bc0 = Ok m.
Hypothesis Hbc : (3 * K <= length bcType)%nat.
Local Notation d := (tables_of el m).
Local Notation fid := (face_id 3 (S N)).
Local Notation X := (node_at (e_x el) (e_y el)).
Local Notation pt := (tables N el E2E E2F bcType m).
Local Notation sp k f := (side_point (P k f) (P k (next f))).
Local Notation Dx k := (Dx_ G el m k).
Local Notation Dy k := (Dy_ G el m k).
Local Notation rep := (represents N Np K (e_x el) (e_y el)).
Variables (ubc qbc : mat R) (g q : side_data).
Hypothesis Hu : tabulates N K Vert EToV (e_x el) (e_y el) Fm (dirichlet bcType) ubc g.
Hypothesis Hq : tabulates N K Vert EToV (e_x el) (e_y el) Fm (natural bcType) qbc q.
Hypothesis Hfac : (20000 * Z.of_nat (N + 1) * Z.of_nat (N + 1) <= INT_MAX)%Z.

Lemma tab_side on B b k f j : tabulates N K Vert EToV (e_x el) (e_y el) Fm on B b -> (k < K)%nat -> (f < 3)%nat -> (j < S N)%nat -> on k f -> ment B (f * S N + j) k = b k f (flip f (ec el f j)).
Proof.
  intros (_ & H) Hk Hf Hj Ho. destruct (H k f Hk Hf Ho) as (_ & H1). apply H1; [lia|]. change (ment Fm j f) with (fn f j). eapply node_side; try eassumption; lia.
Qed.
Lemma face_rhs ME ub qb k f B : edges_ok N el ME -> (k < K)%nat -> (f < 3)%nat ->
  (forall j, (j < S N)%nat -> getn ub (S N * 3 * k + f * S N + j) = Ok (ment ubc (f * S N + j) k)) ->
  (forall j, (j < S N)%nat -> getn qb (S N * 3 * k + f * S N + j) = Ok (ment qbc (f * S N + j) k)) -> shape B Np K ->
  exists B', faceRhs E pt 3 Np (S N) N ME ub qb (Dx k) (Dy k) k f B = Ok B' /\ shape B' Np K /\ (forall i k', k' <> k -> ment B' i k' = ment B i k') /\
    forall v V, rep v V -> exists w, side_load N K Vert EToV bcType g q k f V w /\
      sumn Np (fun i => v (Np * k + i)%nat * ment B' i k) = sumn Np (fun i => v (Np * k + i)%nat * ment B i k) + w.
Proof.
  intros HME Hk Hf Hub Hqb SB.
  assert (Hneigh : exists k2 f2 (H : nat -> nat), getn E2E (3 * k + f) = Ok k2 /\ getn E2F (3 * k + f) = Ok f2 /\ across K EToV k f k2 f2 /\
    forall n, (n < S N)%nat -> vM d (fid n f k) = volume_id Np (fn f n) k /\ vP d (fid n f k) = volume_id Np (H n) k2 /\ (H n < Np)%nat /\ X (H n) k2 = X (fn f n) k) by (eapply neigh; eassumption).
  destruct Hneigh as (k2 & f2 & H & G1 & G2 & Hac & HH). pose proof Hac as (Hk2 & Hf2 & _).
  assert (LL : length (d_vmapM d) = (3 * S N * K)%nat /\ length (d_vmapP d) = (3 * S N * K)%nat) by (eapply maps_len; eassumption). destruct LL as (LM & LP).
  destruct (HME f Hf) as (Em & M & GE & HSc & HEx).
  assert (HN1 : (1 <= N)%nat) by (eapply HN1; eassumption).
  assert (Hfn : forall f j, (f < 3)%nat -> (j <= N)%nat -> (fn f j < Np)%nat) by (intros; eapply fnlt; eassumption).
  set (n := (ment (d_nx d) (f * S N) k, ment (d_ny d) (f * S N) k)).
  assert (L1 : localIds Np (S N) 3 k f (d_vmapM d) = Ok (map (fn f) (seq 0 (S N)))).
  { eapply localIds_ok with (k2 := k); try eassumption. intros j Hj. destruct (HH j Hj) as (E1 & _). split; [exact E1|apply Hfn; lia]. }
  assert (L2 : localIds Np (S N) 3 k f (d_vmapP d) = Ok (map H (seq 0 (S N)))).
  { eapply localIds_ok with (k2 := k2); try eassumption. intros j Hj. destruct (HH j Hj) as (_ & E1 & E2 & _). auto. }
  assert (HfS : forall f', (f' < 3)%nat -> (f' * S N < 3 * S N)%nat) by (intros; nia).
  assert (Hdim : forall k f, (k < K)%nat -> (f < 3)%nat -> mget (d_nx d) (f * S N) k = Ok (ment (d_nx d) (f * S N) k) /\ mget (d_ny d) (f * S N) k = Ok (ment (d_ny d) (f * S N) k) /\ mget (d_Fscale d) (f * S N) k = Ok (inverse_height Vert EToV k f)).
  { intros k' f' A1 A2. assert (Hd : ment (d_Fscale d) (f' * S N) k' = inverse_height Vert EToV k' f') by (eapply fscale_d; eassumption). rewrite <- Hd.
    assert (Hdd := HfS f' A2). eapply dims in Hdd; [|eassumption..]. destruct Hdd as (_ & _ & _ & _ & X1 & X2 & X3). auto. }
  destruct (Hdim k f Hk Hf) as (X1 & X2 & X3). destruct (Hdim k2 f2 Hk2 Hf2) as (_ & _ & X4).
  assert (XJ : mget (g_J (e_metric el)) (fn f 1) k = Ok (area (P k 0) (P k 1) (P k 2) / 2)).
  { assert (HJ : ment (g_J (e_metric el)) (fn f 1) k = area (P k 0) (P k 1) (P k 2) / 2) by (eapply J_at; try eassumption; apply Hfn; lia). rewrite <- HJ.
    assert (HJs : mrows (g_J (e_metric el)) = Np /\ mcols (g_J (e_metric el)) = K) by (eapply J_shape; eassumption). apply mget_ok; [rewrite (proj1 HJs); apply Hfn; lia|rewrite (proj2 HJs); exact Hk]. }
  assert (Gt : getn (map (fn f) (seq 0 (S N))) 1 = Ok (fn f 1)) by (apply getn_map; lia).
  assert (Gb : getn bcType (3 * k + f) = Ok (tag_of bcType k f)) by (apply getn_ok; lia).
  assert (DS : mrows (Dx k) = Np /\ mcols (Dx k) = Np /\ mrows (Dy k) = Np /\ mcols (Dy k) = Np) by (eapply D_shape; eassumption). destruct DS as (DS1 & DS2 & DS3 & DS4).
  assert (HG2 : gradXY E d k2 = Ok (Dx k2, Dy k2)) by (eapply grad_run; eassumption).
  set (gt := tau N Vert EToV k f k2 f2). set (lsJ := side_length (P k f) (P k (next f)) / 2).
  assert (HlsJ : fmul E (inverse_height Vert EToV k f) (area (P k 0) (P k 1) (P k 2) / 2) = lsJ).
  { cbn [exact fmul]. unfold inverse_height, lsJ, from_, to_. pose proof (HA k Hk). field. lra. }
  assert (Hgt : fmul E (fofZ E (20000 * Z.of_nat (N + 1) * Z.of_nat (N + 1))) (fmax E (inverse_height Vert EToV k f) (inverse_height Vert EToV k2 f2)) = gt).
  { unfold gt, tau. cbn [exact fmul fofZ]. rewrite !mult_IZR, <- INR_IZR_INZ, plus_INR. change (INR 1) with 1. unfold fmax, Rmax. cbn [exact flt]. unfold Rltb.
    destruct (Rlt_dec (inverse_height Vert EToV k f) (inverse_height Vert EToV k2 f2)), (Rle_dec (inverse_height Vert EToV k f) (inverse_height Vert EToV k2 f2)); try lra; try reflexivity.
    replace (inverse_height Vert EToV k2 f2) with (inverse_height Vert EToV k f) by lra. reflexivity. }
  set (Dn := comb E (fst n) (Dx k) (snd n) (Dy k)). set (mmE := mkmat Np Np (fun i j => lsJ * ment Em i j)).
  destruct (pickCols_ok G Np (S N) mmE (fn f) (map (fn f) (seq 0 (S N))) (conj eq_refl eq_refl) (fun j Hj => getn_map (fn f) (S N) j Hj)) as (XF & EX & SX & HX); [intros; apply Hfn; lia|].
  set (ud := fun j => ment ubc (f * S N + j) k). set (qd := fun j => ment qbc (f * S N + j) k).
  assert (Hface : faceRhs E pt 3 Np (S N) N ME ub qb (Dx k) (Dy k) k f B =
    if (tag_of bcType k f =? tagDirichlet)%Z then addMvec E Np k (mkmat Np (S N) (fun i j => - ment (mmul E (mtrans Dn) XF) i j + gt * ment XF i j)) (map ud (seq 0 (S N))) B
    else if (tag_of bcType k f =? tagNeuman)%Z || (tag_of bcType k f =? tagWall)%Z then addMvec E Np k XF (map qd (seq 0 (S N))) B else Ok B).
  { unfold faceRhs. cbn [tables p_dg p_E2E p_E2F p_J p_bc]. rewrite G1. cbn [bind]. rewrite G2. cbn [bind]. rewrite L1. cbn [bind]. rewrite L2. cbn [bind].
    rewrite (faceData_ok (S N) k f ub ud Hub). cbn [bind]. rewrite (faceData_ok (S N) k f qb qd Hqb). cbn [bind].
    rewrite X1. cbn [bind]. rewrite X2. cbn [bind]. rewrite X3. cbn [bind]. rewrite X4. cbn [bind].
    rewrite Gt. cbn [bind]. rewrite XJ. cbn [bind]. rewrite HG2. cbn [bind]. rewrite GE. cbn [bind]. rewrite HlsJ.
    change (mkmat Np Np (fun i j => fmul E lsJ (ment Em i j))) with mmE. rewrite EX. cbn [bind]. destruct (Z.ltb_spec INT_MAX (20000 * Z.of_nat (N + 1) * Z.of_nat (N + 1))); [lia|].
    rewrite Gb. cbn [bind]. rewrite Hgt. reflexivity. }
  rewrite Hface. destruct SX as (SX1 & SX2).
  assert (Hn : normal_of Vert EToV k f n) by (eapply normal_d; eassumption).
  assert (SD : mrows Dn = Np /\ mcols Dn = Np) by (unfold Dn, comb; cbn [mrows mcols]; auto).
  assert (Htr : forall v V b (z : side_data), rep v V -> (exists cs, (length cs <= S N)%nat /\ forall t, z k f t = peval cs t) -> (forall j, (j < S N)%nat -> b j = z k f (flip f (ec el f j))) ->
    let vk := fun i => v (Np * k + i)%nat in
    integral_is (fun t => val_at V k (sp k f t) * z k f t) (-1) 1 (lm (S N) M (fun a => vk (fn f a)) b) /\
    integral_is (fun t => along n V k (sp k f t) * z k f t) (-1) 1 (lm (S N) M (fun a => act Np Dn vk (fn f a)) b)).
  { intros v V b z HV Hz Hb vk.
    assert (HL : exists p, local N el k p vk /\ (forall x y, val V k x y = eval2 p x y) /\ (forall x y, ddx V k x y = eval2 (ddr p) x y) /\ forall x y, ddy V k x y = eval2 (dds p) x y) by (eapply rep_local; eassumption).
    destruct HL as (p & Lp & P0 & P1 & P2). pose proof (proj1 Lp) as Dp. split.
    - eapply integral_ext; [|eapply (side_lm N el f M (fun t => at_point p (sp k f t)) (z k f)); try eassumption].
      + intro t. cbv beta. unfold val_at. rewrite P0. reflexivity.
      + eapply trace_poly. exact Dp.
      + intros j Hj. cbv beta. rewrite (proj2 Lp) by (apply Hfn; lia). eapply at_node_side; eassumption.
    - eapply integral_ext; [|eapply (side_lm N el f M (fun t => dn n p (sp k f t)) (z k f)); try eassumption].
      + intro t. cbv beta. unfold along, dn, at_point. rewrite P1, P2. reflexivity.
      + eapply dn_trace. exact Dp.
      + intros j Hj. cbv beta. assert (Hnode : X (fn f j) k = sp k f (flip f (ec el f j))) by (eapply node_side; try eassumption; lia). rewrite <- Hnode. unfold Dn. eapply dn_at; try eassumption. apply Hfn; lia. }
  destruct (Z.eqb_spec (tag_of bcType k f) tagDirichlet) as [Hd|Hd].
  - destruct (addMvec_ok G Np K k (mkmat Np (S N) (fun i j => - ment (mmul E (mtrans Dn) XF) i j + gt * ment XF i j)) ud (map ud (seq 0 (S N))) (S N) B SB Hk eq_refl eq_refl (fun j Hj => getn_map ud (S N) j Hj)) as (B' & EB & SB' & Ho & HB').
    exists B'. split; [exact EB|]. split; [exact SB'|]. split; [exact Ho|]. intros v V HV.
    destruct (proj2 Hu k f Hk Hf Hd) as (Hpoly & _).
    destruct (Htr v V ud g HV Hpoly (fun j Hj => tab_side _ _ _ k f j Hu Hk Hf Hj Hd)) as (I1 & I2). cbv zeta in I1, I2.
    set (vk := fun i => v (Np * k + i)%nat) in *. set (m1 := lm (S N) M (fun a => vk (fn f a)) ud) in *. change (integral_is (fun t => val_at V k (sp k f t) * g k f t) (-1) 1 m1) in I1. set (m2 := lm (S N) M (fun a => act Np Dn vk (fn f a)) ud) in *.
    exists (lsJ * (gt * m1 - m2)). split.
    + exists k2, f2, n. split; [exact Hac|]. split; [exact Hn|]. split; [|split; [intros [E1|E1]; unfold tagDirichlet in Hd; rewrite Hd in E1; discriminate|intros (E1 & _); contradiction]].
      intros _. exists (gt * m1 - m2). split; [|reflexivity]. eapply integral_val; [|eapply integral_ext; [|exact (integral_plus _ _ _ _ _ _ (integral_scal gt _ _ _ _ I1) (integral_scal (-1) _ _ _ _ I2))]]; [ring|].
      intro t. unfold from_, to_. fold gt. cbv zeta. ring.
    + transitivity (sumn Np (fun i => vk i * ment B i k + (gt * (vk i * sumn (S N) (fun j => lsJ * ment Em i (fn f j) * ud j)) + -1 * (vk i * sumn (S N) (fun j => sumn Np (fun l => ment Dn l i * (lsJ * ment Em l (fn f j))) * ud j))))).
      * apply sumn_ext. intros i Hi. rewrite HB' by exact Hi. cbn [ment]. fold (vk i).
        rewrite (sumn_ext (S N) (fun j => (- ment (mmul E (mtrans Dn) XF) i j + gt * ment XF i j) * ud j) (fun j => gt * (lsJ * ment Em i (fn f j) * ud j) + -1 * (sumn Np (fun l => ment Dn l i * (lsJ * ment Em l (fn f j))) * ud j))).
        { rewrite sumn_plus, !sumn_scal. ring. }
        intros j Hj. rewrite mmulE, HX by assumption. cbn [mtrans mcols]. rewrite (proj1 SD). rewrite (sumn_ext Np (fun l => ment (mtrans Dn) i l * ment XF l j) (fun l => ment Dn l i * (lsJ * ment Em l (fn f j)))) by (intros l Hl; rewrite HX by assumption; reflexivity). unfold mmE. cbn [ment]. ring.
      * rewrite sumn_plus, sumn_plus, !sumn_scal, (picked_mass Np (S N) (fn f) M Em lsJ vk ud HSc), (picked_flux Np (S N) (fn f) M Em lsJ Dn vk ud HSc). fold m1 m2. unfold vk. ring.
  - destruct ((tag_of bcType k f =? tagNeuman)%Z || (tag_of bcType k f =? tagWall)%Z) eqn:Hnat.
    + assert (Hnn : natural bcType k f) by (apply orb_true_iff in Hnat; unfold natural; destruct Hnat as [E2|E2]; apply Z.eqb_eq in E2; auto).
      destruct (addMvec_ok G Np K k XF qd (map qd (seq 0 (S N))) (S N) B SB Hk SX1 SX2 (fun j Hj => getn_map qd (S N) j Hj)) as (B' & EB & SB' & Ho & HB').
      exists B'. split; [exact EB|]. split; [exact SB'|]. split; [exact Ho|]. intros v V HV.
      destruct (proj2 Hq k f Hk Hf Hnn) as (Hpoly & _).
      destruct (Htr v V qd q HV Hpoly (fun j Hj => tab_side _ _ _ k f j Hq Hk Hf Hj Hnn)) as (I1 & _). cbv zeta in I1.
      set (vk := fun i => v (Np * k + i)%nat) in *. set (m1 := lm (S N) M (fun a => vk (fn f a)) qd) in *. change (integral_is (fun t => val_at V k (sp k f t) * q k f t) (-1) 1 m1) in I1. exists (lsJ * m1). split.
      * exists k2, f2, n. split; [exact Hac|]. split; [exact Hn|]. split; [intro E1; contradiction|]. split; [|intros (_ & E1); contradiction].
        intros _. exists m1. split; [exact I1|reflexivity].
      * transitivity (sumn Np (fun i => vk i * ment B i k + vk i * sumn (S N) (fun j => lsJ * ment Em i (fn f j) * qd j))).
        { apply sumn_ext. intros i Hi. rewrite HB' by exact Hi. fold (vk i). rewrite (sumn_ext (S N) (fun j => ment XF i j * qd j) (fun j => lsJ * ment Em i (fn f j) * qd j)) by (intros j Hj; rewrite HX by assumption; reflexivity). ring. }
        rewrite sumn_plus, (picked_mass Np (S N) (fn f) M Em lsJ vk qd HSc). reflexivity.
    + exists B. split; [reflexivity|]. split; [exact SB|]. split; [reflexivity|]. intros v V HV. exists 0. split; [|ring].
      exists k2, f2, n. split; [exact Hac|]. split; [exact Hn|]. split; [intro E1; contradiction|]. apply orb_false_iff in Hnat. destruct Hnat as (E1 & E2). apply Z.eqb_neq in E1, E2. split; [intros [E3|E3]; contradiction|reflexivity].
Qed.
Lemma data_ok (B : mat R) n : shape B (3 * S N) K -> (3 * S N * K <= n)%nat -> exists l, reshapeMatTo1D B false (repeat 0 n) = Ok l /\
  forall k f j, (k < K)%nat -> (f < 3)%nat -> (j < S N)%nat -> getn l (S N * 3 * k + f * S N + j) = Ok (ment B (f * S N + j) k).
Proof.
  intros (B1 & B2) Hn. destruct (to1d_spec B false (repeat 0 n)) as (l & El & _ & Hl & _); [rewrite repeat_length, B1, B2; exact Hn|]. exists l. split; [exact El|].
  intros k f j Hk Hf Hj. specialize (Hl (f * S N + j)%nat k ltac:(rewrite B1; nia) ltac:(lia)). unfold flat_index in Hl. rewrite B1 in Hl. unfold getn. replace (S N * 3 * k + f * S N + j)%nat with (f * S N + j + k * (3 * S N))%nat by lia. now rewrite Hl.
Qed.
Lemma nodup_map {S T} (h : S -> T) l : (forall a b, In a l -> In b l -> h a = h b -> a = b) -> NoDup l -> NoDup (map h l).
Proof.
  intros H Hn. induction Hn as [|a l Ha Hl IH]; [constructor|]. cbn [map]. constructor; [|apply IH; intros; apply H; [right..|]; assumption].
  intro Hin. apply in_map_iff in Hin as (b & E1 & Hb). apply Ha. rewrite (H a b); [exact Hb|left; reflexivity|right; exact Hb|congruence].
Qed.
Lemma face_le : (S N <= Np)%nat.
Proof.
  assert (Hfn : forall j, (j <= N)%nat -> (fn 0 j < Np)%nat) by (intros; eapply fnlt; try eassumption; lia).
  assert (Hinj : forall j j', (j <= N)%nat -> (j' <= N)%nat -> fn 0 j = fn 0 j' -> j = j') by (intros j j' A1 A2 A3; eapply fninj; try eassumption; lia).
  rewrite <- (seq_length Np 0). rewrite <- (seq_length (S N) 0), <- (map_length (fn 0) (seq 0 (S N))). apply NoDup_incl_length.
  - apply nodup_map; [|apply seq_NoDup]. intros a b Ha Hb. apply in_seq in Ha, Hb. apply Hinj; lia.
  - intros x Hx. apply in_map_iff in Hx as (a & <- & Ha). apply in_seq in Ha. apply in_seq. specialize (Hfn a ltac:(lia)). lia.
Qed.
Lemma bcRhs_ok : exists B, buildBcRhs E inverse junk pt 3 Np (S N) K N ubc qbc = Ok B /\ shape B Np K /\
  forall v V, rep v V -> load N K Vert EToV bcType g q V (sumn K (fun k => sumn Np (fun i => v (Np * k + i)%nat * ment B i k))).
Proof.
  unfold buildBcRhs, require.
  assert (Hconf : ptables_conform pt 3 (S N) Np K = true).
  { unfold ptables_conform. cbn [tables p_dg p_Vinv p_J]. assert (Hd : dg_conform d 3 (S N) Np K = true) by (eapply shapes_d; eassumption). rewrite Hd.
    assert (HJs : mrows (g_J (e_metric el)) = Np /\ mcols (g_J (e_metric el)) = K) by (eapply J_shape; eassumption). destruct HJs as (J1 & J2). unfold conform. rewrite J1, J2, !Nat.eqb_refl.
    destruct (element_ok _ _ _ _ _ _ _ _ _ _ _ _ HB) as [lr ls nodes masks edge_i pts SV SVi V Vi Vi' SL lift Dm x metric nrm]. destruct SVi as (S1 & S2). rewrite S1, S2, <- lr, Nat.eqb_refl. reflexivity. }
  rewrite Hconf. cbn [tables p_r p_s p_Fm p_dg].
  assert (HME : exists ME, massEdges E inverse junk 3 Np (S N) (e_r el) (e_s el) Fm = Ok ME /\ edges_ok N el ME) by (eapply massEdges_ok; eassumption). destruct HME as (ME & EME & HME).
  assert (EME' : massEdgesRhs E inverse junk 3 Np (S N) (e_r el) (e_s el) Fm = Ok ME).
  { rewrite <- EME. unfold massEdges, massEdgesRhs. cbn [Nat.eqb Nat.ltb Nat.leb orb negb]. reflexivity. }
  rewrite EME'. cbn [bind]. pose proof face_le as Hle.
  destruct (data_ok ubc (S N * 3 * K) (proj1 Hu) ltac:(lia)) as (ub & Eub & Hub). change (fofn E 0) with 0. rewrite Eub. cbn [bind].
  destruct (data_ok qbc (Np * 3 * K) (proj1 Hq) ltac:(nia)) as (qb & Eqb & Hqb). rewrite Eqb. cbn [bind].
  destruct (for_inv (fun n B => shape B Np K /\ (forall i k, (n <= k)%nat -> ment B i k = 0) /\
      forall v V, rep v V -> exists sd, (forall k f, (k < n)%nat -> (f < 3)%nat -> side_load N K Vert EToV bcType g q k f V (sd k f)) /\
        forall k, (k < n)%nat -> sumn Np (fun i => v (Np * k + i)%nat * ment B i k) = sd k 0%nat + sd k 1%nat + sd k 2%nat) K
    (fun k B => bind (gradXY E d k) (fun '(Dx, Dy) => for_ 3 (faceRhs E pt 3 Np (S N) N ME ub qb Dx Dy k) B)) (mzero E Np K)) as (B & EB & SB & _ & HL).
  - split; [split; reflexivity|]. split; [reflexivity|]. intros. exists (fun _ _ => 0). split; intros; lia.
  - intros k B Hk (SB & Hz & HL). assert (HG2 : gradXY E d k = Ok (Dx k, Dy k)) by (eapply grad_run; eassumption). rewrite HG2. cbn [bind].
    destruct (face_rhs ME ub qb k 0 B HME Hk ltac:(lia) (fun j Hj => Hub k 0%nat j Hk ltac:(lia) Hj) (fun j Hj => Hqb k 0%nat j Hk ltac:(lia) Hj) SB) as (B1 & E1 & S1 & O1 & L1).
    destruct (face_rhs ME ub qb k 1 B1 HME Hk ltac:(lia) (fun j Hj => Hub k 1%nat j Hk ltac:(lia) Hj) (fun j Hj => Hqb k 1%nat j Hk ltac:(lia) Hj) S1) as (B2 & E2 & S2 & O2 & L2).
    destruct (face_rhs ME ub qb k 2 B2 HME Hk ltac:(lia) (fun j Hj => Hub k 2%nat j Hk ltac:(lia) Hj) (fun j Hj => Hqb k 2%nat j Hk ltac:(lia) Hj) S2) as (B3 & E3 & S3 & O3 & L3).
    exists B3. split; [unfold for_; cbn [for_from]; rewrite E1; cbn [bind]; rewrite E2; cbn [bind]; rewrite E3; reflexivity|]. split; [exact S3|].
    assert (Ho : forall i k', k' <> k -> ment B3 i k' = ment B i k') by (intros i k' Hne; rewrite O3, O2, O1 by exact Hne; reflexivity). split.
    + intros i k' Hk'. rewrite Ho by lia. apply Hz. lia.
    + intros v V HV. destruct (HL v V HV) as (sd & D1 & D2). destruct (L1 v V HV) as (w1 & W1 & Q1). destruct (L2 v V HV) as (w2 & W2 & Q2). destruct (L3 v V HV) as (w3 & W3 & Q3).
      exists (fun k' f => if (k' =? k)%nat then match f with 0 => w1 | 1 => w2 | _ => w3 end%nat else sd k' f). split.
      * intros k' f Hk' Hf. destruct (Nat.eqb_spec k' k) as [->|]; [|apply D1; lia]. destruct f as [|[|[|]]]; [assumption..|lia].
      * intros k' Hk'. destruct (Nat.eqb_spec k' k) as [->|Hne].
        -- rewrite Q3, Q2, Q1. rewrite (sumn_zero Np (fun i => v (Np * k + i)%nat * ment B i k)); [ring|]. intros i Hi. rewrite Hz by lia. ring.
        -- rewrite <- D2 by lia. apply sumn_ext. intros i Hi. now rewrite Ho.
  - exists B. split; [exact EB|]. split; [exact SB|]. intros v V HV. destruct (HL v V HV) as (sd & D1 & D2). exists sd. split; [exact D1|]. apply sumn_ext. exact D2.
Qed.
End Run.
