(* TriGeoProofs.v - straight-sided triangles: grid, metric terms, normals. *)
From Coq Require Import ZArith List Lia Bool Arith.
From Verif Require Import Base Loops Num BlitzModel JacobiModel JacobiSpec JacobiProofs JacobiOrthProofs JacobiQuadProofs JacobiExactProofs DenseSpec Nodes1DModel Nodes1DSpec Nodes1DExactProofs TriModel TriSpec TriGeoSpec TriBasisProofs TriProofs TriOpProofs TriLiftProofs TriFaceProofs TriNodesProofs.
From Coq Require Import Reals Lra.
Import ListNotations.
Local Open Scope R_scope.

(* ---- plane geometry ---- *)
Lemma dot_pos u : u <> (0, 0) -> 0 < dot u u.
Proof.
  destruct u as [a b]. unfold dot. cbn [fst snd]. intro H. destruct (Req_dec a 0) as [->|Ha]; [destruct (Req_dec b 0) as [->|Hb]; [congruence|]|]; nra.
Qed.
Lemma area_sides a b c : area a b c <> 0 -> pminus b a <> (0, 0) /\ pminus c b <> (0, 0) /\ pminus a c <> (0, 0).
Proof.
  unfold area, cross, pminus. destruct a, b, c. cbn [fst snd]. intro H. repeat split; intros [= H1 H2]; apply H.
  - rewrite H1, H2. field.
  - replace r3 with r1 by lra. replace r4 with r2 by lra. field.
  - replace r3 with r by lra. replace r4 with r0 by lra. field.
Qed.
(* the code's normal of the side from p to q, for half of the side vector *)
Lemma normal_ok p q t ux uy : ux = (snd q - snd p) / 2 -> uy = - ((fst q - fst p) / 2) -> 0 < cross (pminus q p) (pminus t p) ->
  outward_normal p q t (ux / sqrt (ux * ux + uy * uy), uy / sqrt (ux * ux + uy * uy)) /\ sqrt (ux * ux + uy * uy) = side_length p q / 2 /\ 0 < side_length p q.
Proof.
  intros -> -> Hc. destruct p as [px py], q as [qx qy], t as [tx ty]. unfold outward_normal, dot, pminus, cross, side_length in *. cbn [fst snd] in *. unfold dot. cbn [fst snd].
  set (D := (qx - px) * (qx - px) + (qy - py) * (qy - py)).
  assert (HD : 0 < D). { apply (dot_pos (qx - px, qy - py)). intros [= H1 H2]. rewrite H1, H2 in Hc. lra. }
  pose proof (sqrt_lt_R0 D HD) as Hs. pose proof (sqrt_sqrt D ltac:(lra)) as Hss.
  assert (E : sqrt ((qy - py) / 2 * ((qy - py) / 2) + - ((qx - px) / 2) * - ((qx - px) / 2)) = sqrt D / 2).
  { replace ((qy - py) / 2 * ((qy - py) / 2) + - ((qx - px) / 2) * - ((qx - px) / 2)) with ((sqrt D / 2) * (sqrt D / 2)); [apply sqrt_square; lra|].
    replace (sqrt D / 2 * (sqrt D / 2)) with (sqrt D * sqrt D / 4) by field. rewrite Hss. unfold D. field. }
  rewrite E. split; [|split; [reflexivity|exact Hs]]. split; [|split].
  - clear E. set (w := sqrt D) in *. replace 1 with (D * / (w * w)) by (rewrite Hss; field; lra). unfold D. field. lra.
  - field. lra.
  - replace ((qy - py) / 2 / (sqrt D / 2) * (tx - px) + - ((qx - px) / 2) / (sqrt D / 2) * (ty - py)) with (- (((qx - px) * (ty - py) - (qy - py) * (tx - px)) / sqrt D)) by (field; lra).
    apply Ropp_lt_gt_0_contravar. apply Rdiv_lt_0_compat; assumption.
Qed.
(* two triangles on opposite sides of a common side have opposite normals there *)
Lemma outward_opposite p q t t' n m : p <> q -> cross (pminus q p) (pminus t p) * cross (pminus q p) (pminus t' p) < 0 ->
  outward_normal p q t n -> outward_normal q p t' m -> m = (- fst n, - snd n).
Proof.
  destruct p as [px py], q as [qx qy], t as [tx ty], t' as [ux uy], n as [nx ny], m as [mx my]. unfold outward_normal, dot, pminus, cross. cbn [fst snd].
  intros Hpq Hc (N1 & N2 & N3) (M1 & M2 & M3).
  set (a := qx - px) in *. set (b := qy - py) in *. replace (px - qx) with (- a) in M2 by (unfold a; ring). replace (py - qy) with (- b) in M2 by (unfold b; ring).
  replace (ux - qx) with ((ux - px) - a) in M3 by (unfold a; ring). replace (uy - qy) with ((uy - py) - b) in M3 by (unfold b; ring).
  set (c := tx - px) in *. set (d := ty - py) in *. set (e := ux - px) in *. set (f := uy - py) in *.
  assert (HD : 0 < a * a + b * b). { apply (dot_pos (a, b)). intros [= H1 H2]. unfold a, b in *. apply Hpq. f_equal; lra. }
  set (D := a * a + b * b) in *. set (k := (ny * a - nx * b) / D). set (l := (my * a - mx * b) / D).
  assert (Nx : nx = - k * b). { unfold k. apply (Rmult_eq_reg_r D); [|lra]. replace (- ((ny * a - nx * b) / D) * b * D) with (- (ny * a - nx * b) * b) by (field; lra). unfold D. transitivity (nx * b * b + a * (nx * a + ny * b) - a * b * ny); [ring|rewrite N2; ring]. }
  assert (Ny : ny = k * a). { unfold k. apply (Rmult_eq_reg_r D); [|lra]. replace ((ny * a - nx * b) / D * a * D) with ((ny * a - nx * b) * a) by (field; lra). unfold D. transitivity (ny * a * a + b * (nx * a + ny * b) - b * a * nx); [ring|rewrite N2; ring]. }
  assert (M2' : mx * a + my * b = 0) by lra.
  assert (Mx : mx = - l * b). { unfold l. apply (Rmult_eq_reg_r D); [|lra]. replace (- ((my * a - mx * b) / D) * b * D) with (- (my * a - mx * b) * b) by (field; lra). unfold D. transitivity (mx * b * b + a * (mx * a + my * b) - a * b * my); [ring|rewrite M2'; ring]. }
  assert (My : my = l * a). { unfold l. apply (Rmult_eq_reg_r D); [|lra]. replace ((my * a - mx * b) / D * a * D) with ((my * a - mx * b) * a) by (field; lra). unfold D. transitivity (my * a * a + b * (mx * a + my * b) - b * a * mx); [ring|rewrite M2'; ring]. }
  clearbody k l. subst nx ny mx my.
  assert (Hk : k * k * D = 1) by (rewrite <- N1; unfold D; ring). assert (Hl : l * l * D = 1) by (rewrite <- M1; unfold D; ring).
  assert (N3' : k * (a * d - b * c) < 0) by (replace (k * (a * d - b * c)) with (- k * b * c + k * a * d) by ring; exact N3).
  assert (M3' : l * (a * f - b * e) < 0) by (replace (l * (a * f - b * e)) with (- l * b * (e - a) + l * a * (f - b)) by ring; exact M3).
  assert (Hkl : (k - l) * (k + l) = 0). { apply (Rmult_eq_reg_r D); [|lra]. replace ((k - l) * (k + l) * D) with (k * k * D - l * l * D) by ring. rewrite Hk, Hl. ring. }
  assert (l = - k).
  { apply Rmult_integral in Hkl. destruct Hkl as [Hkl|Hkl]; [|lra]. exfalso. assert (l = k) by lra. subst l.
    set (X := a * d - b * c) in *. set (Y := a * f - b * e) in *. assert (0 < (k * X) * (k * Y)) by nra. assert (k * X * (k * Y) = k * k * (X * Y)) by ring. assert (0 <= k * k) by nra. nra. }
  subst l. f_equal; ring.
Qed.
Lemma side_sum a b c : fst (pminus b a) + fst (pminus c b) + fst (pminus a c) = 0.
Proof. unfold pminus. cbn. ring. Qed.

Lemma lin_lim a b x : derivable_pt_lim (fun t => a + (b + b * t)) x b.
Proof.
  intros eps He. exists (mkposreal 1 Rlt_0_1). intros h Hh _. replace ((a + (b + b * (x + h)) - (a + (b + b * x))) / h - b) with 0 by (field; exact Hh). rewrite Rabs_R0. exact He.
Qed.
Section Geo.
Variable G : R -> R.
Local Notation E := (exact G).
Variable junk : nat -> nat -> R.
Variables (N K : nat) (Vert : list R) (EToV : list nat) (r s : list R).
Hypothesis HN : (1 <= N)%nat.
Hypothesis HM : mesh_ok K Vert EToV.
Hypothesis Ls : length s = length r.
Local Notation P k c := (corner Vert EToV k c).

Lemma elementXY_ok k : (k < K)%nat -> elementXY Vert EToV k = Ok (P k 0, P k 1, P k 2).
Proof.
  intro Hk. destruct HM as (L & Hv). unfold elementXY.
  assert (HV : forall i, (i < 3 * K)%nat -> vertexXY Vert (nth i EToV 0%nat) = Ok (nth (3 * nth i EToV 0%nat) Vert 0, nth (3 * nth i EToV 0%nat + 1) Vert 0)).
  { intros i Hi. unfold vertexXY. pose proof (Hv (nth i EToV 0%nat) ltac:(apply nth_In; lia)) as Hb. rewrite !(getn_ok Vert _ 0) by lia. cbn [bind]. do 3 f_equal; lia. }
  rewrite !(getn_ok EToV _ 0%nat) by lia. cbn [bind]. rewrite !HV by lia. cbn [bind]. unfold corner. rewrite Nat.add_0_r. replace (k * 3)%nat with (3 * k)%nat by lia. reflexivity.
Qed.
Lemma affine_E x y a b c : affine E x y a b c = a + (1 + x) / 2 * (b - a) + (1 + y) / 2 * (c - a).
Proof. unfold affine, fhalf. rewrite !fofn_INR. cbn [exact fadd fmul fdiv fopp]. change (INR 0) with 0. change (INR 1) with 1. replace (INR 2) with 2 by (simpl; ring). field. Qed.
Lemma setcol2_ok (m : mat R) j v : (j < mcols m)%nat -> length v = mrows m -> exists m', setcol2 E m j v = Ok m' /\ shape m' (mrows m) (mcols m) /\
  (forall i, ment m' i j = nth i v 0) /\ forall i l, l <> j -> ment m' i l = ment m i l.
Proof.
  intros Hj Hl. unfold setcol2. rewrite (proj2 (Nat.ltb_lt _ _) Hj), (proj2 (Nat.eqb_eq _ _) Hl). cbn [andb]. eexists. split; [reflexivity|]. split; [split; reflexivity|]. cbn [ment]. split.
  - intro i. rewrite Nat.eqb_refl. reflexivity.
  - intros i l Hn. destruct (Nat.eqb_spec l j); [contradiction|reflexivity].
Qed.
Lemma physGrid_ok : exists x y, physGrid E junk K Vert EToV r s = Ok (x, y) /\ shape x (length r) K /\ shape y (length r) K /\
  forall i k, (i < length r)%nat -> (k < K)%nat -> (ment x i k, ment y i k) = affine_image (P k 0) (P k 1) (P k 2) (nth i r 0) (nth i s 0).
Proof.
  unfold physGrid.
  match goal with |- context [for_ K ?body ?st0] => destruct (for_inv (fun k (st : mat R * mat R) => shape (fst st) (length r) K /\ shape (snd st) (length r) K /\
     forall i k', (i < length r)%nat -> (k' < k)%nat -> (ment (fst st) i k', ment (snd st) i k') = affine_image (P k' 0) (P k' 1) (P k' 2) (nth i r 0) (nth i s 0)) K body st0) as ([x y] & EX & Sx & Sy & H) end.
  - split; [split; reflexivity|]. split; [split; reflexivity|]. intros; lia.
  - intros k [x y] Hk ((X1 & X2) & (Y1 & Y2) & H). cbn [fst snd] in *. rewrite elementXY_ok by exact Hk. cbn [bind]. destruct (P k 0) as [xa ya] eqn:E0, (P k 1) as [xb yb] eqn:E1, (P k 2) as [xc yc] eqn:E2.
    edestruct (setcol2_ok x k) as (x' & -> & (X1' & X2') & Xk & Xo); [lia|rewrite zip2_len; [rewrite X1; reflexivity|lia]|]. cbn [bind].
    edestruct (setcol2_ok y k) as (y' & -> & (Y1' & Y2') & Yk & Yo); [lia|rewrite zip2_len; [rewrite Y1; reflexivity|lia]|]. cbn [bind].
    eexists. split; [reflexivity|]. cbn [fst snd]. split; [split; congruence|]. split; [split; congruence|]. intros i k' Hi Hk'.
    destruct (Nat.eq_dec k' k) as [->|Hn]; [|rewrite Xo, Yo by exact Hn; apply H; lia].
    rewrite Xk, Yk, !zip2_nth by lia. rewrite !affine_E, E0, E1, E2. reflexivity.
  - exists x, y. split; [exact EX|]. cbn [fst snd] in *. split; [exact Sx|]. split; [exact Sy|exact H].
Qed.

(* the metric terms of an affine element *)
Definition aff_poly (a b c : R) : poly2 := [(0%nat, 0%nat, (b + c) / 2); (1%nat, 0%nat, (b - a) / 2); (0%nat, 1%nat, (c - a) / 2)].
Lemma aff_poly_eval a b c x y : eval2 (aff_poly a b c) x y = a + (1 + x) / 2 * (b - a) + (1 + y) / 2 * (c - a).
Proof. unfold aff_poly. cbn [eval2 pow]. field. Qed.
Lemma aff_dr a b c x y v : dr_is (eval2 (aff_poly a b c)) x y v -> v = (b - a) / 2.
Proof.
  intro H. apply (dr_unique (eval2 (aff_poly a b c)) x y v _ H). unfold dr_is.
  apply (dpl_ext (fun t => a + (1 + y) / 2 * (c - a) + ((b - a) / 2 + (b - a) / 2 * t))); [intro t; rewrite aff_poly_eval; field|].
  apply lin_lim.
Qed.
Lemma aff_ds a b c x y v : ds_is (eval2 (aff_poly a b c)) x y v -> v = (c - a) / 2.
Proof.
  intro H. apply (ds_unique (eval2 (aff_poly a b c)) x y v _ H). unfold ds_is.
  apply (dpl_ext (fun t => a + (1 + x) / 2 * (b - a) + ((c - a) / 2 + (c - a) / 2 * t))); [intro t; rewrite aff_poly_eval; field|].
  apply lin_lim.
Qed.
Variables Dr Ds x y : mat R.
Hypothesis SDr : shape Dr (length r) (length r).
Hypothesis SDs : shape Ds (length r) (length r).
Hypothesis HDr : maps_nodal N Dr r s r s (fun p => dr_is (eval2 p)).
Hypothesis HDs : maps_nodal N Ds r s r s (fun p => ds_is (eval2 p)).
Hypothesis Sx : shape x (length r) K.
Hypothesis Sy : shape y (length r) K.
Hypothesis Hxy : forall i k, (i < length r)%nat -> (k < K)%nat -> (ment x i k, ment y i k) = affine_image (P k 0) (P k 1) (P k 2) (nth i r 0) (nth i s 0).

Lemma aff_deg a b c : degree2 N (aff_poly a b c).
Proof. unfold aff_poly. repeat constructor; cbn; lia. Qed.
Lemma mmul_dr (z : mat R) a b c i k : (i < length r)%nat -> (forall m, (m < length r)%nat -> ment z m k = a + (1 + nth m r 0) / 2 * (b - a) + (1 + nth m s 0) / 2 * (c - a)) ->
  ment (mmul E Dr z) i k = (b - a) / 2 /\ ment (mmul E Ds z) i k = (c - a) / 2.
Proof.
  intros Hi Hz. destruct SDr as (D1 & D2), SDs as (D3 & D4). cbn [mmul ment]. rewrite !fsum_exact, D2, D4. cbn [exact fmul]. split.
  - apply (aff_dr a b c (nth i r 0) (nth i s 0)). pose proof (HDr (aff_poly a b c) i (aff_deg a b c) Hi) as H. erewrite sumn_ext; [exact H|]. intros m Hm. cbn beta. rewrite Hz, aff_poly_eval by exact Hm. reflexivity.
  - apply (aff_ds a b c (nth i r 0) (nth i s 0)). pose proof (HDs (aff_poly a b c) i (aff_deg a b c) Hi) as H. erewrite sumn_ext; [exact H|]. intros m Hm. cbn beta. rewrite Hz, aff_poly_eval by exact Hm. reflexivity.
Qed.
Local Notation M := (metricTerms E Dr Ds x y).
Lemma metric_ok i k : (i < length r)%nat -> (k < K)%nat ->
  ment (g_xr M) i k = (fst (P k 1) - fst (P k 0)) / 2 /\ ment (g_xs M) i k = (fst (P k 2) - fst (P k 0)) / 2 /\
  ment (g_yr M) i k = (snd (P k 1) - snd (P k 0)) / 2 /\ ment (g_ys M) i k = (snd (P k 2) - snd (P k 0)) / 2 /\
  ment (g_J M) i k = area (P k 0) (P k 1) (P k 2) / 2 /\
  let J := ment (g_J M) i k in
  ment (g_rx M) i k = ment (g_ys M) i k / J /\ ment (g_ry M) i k = - ment (g_xs M) i k / J /\ ment (g_sx M) i k = - ment (g_yr M) i k / J /\ ment (g_sy M) i k = ment (g_xr M) i k / J.
Proof.
  intros Hi Hk. destruct (mmul_dr x (fst (P k 0)) (fst (P k 1)) (fst (P k 2)) i k Hi) as (X1 & X2).
  { intros m Hm. pose proof (Hxy m k Hm Hk) as H. unfold affine_image in H. injection H as H _. exact H. }
  destruct (mmul_dr y (snd (P k 0)) (snd (P k 1)) (snd (P k 2)) i k Hi) as (Y1 & Y2).
  { intros m Hm. pose proof (Hxy m k Hm Hk) as H. unfold affine_image in H. injection H as _ H. exact H. }
  unfold metricTerms. cbn [g_xr g_xs g_yr g_ys g_J g_rx g_ry g_sx g_sy]. split; [exact X1|]. split; [exact X2|]. split; [exact Y1|]. split; [exact Y2|]. split.
  - cbn [mzip ment]. cbn [exact fsub fmul]. fold E. rewrite X1, X2, Y1, Y2. unfold area, cross, pminus. cbn [fst snd]. field.
  - cbn [mzip ment]. repeat split; reflexivity.
Qed.

(* normals *)
Variables (Nfp : nat) (fm : list (list nat)) (nx0 ny0 Fs0 : mat R).
Hypothesis Hfm : forall f, (f < 3)%nat -> exists mask, nth_error fm f = Some mask /\ length mask = Nfp /\ forall m, In m mask -> (m < length r)%nat.
Hypothesis Snx : shape nx0 (3 * Nfp) K.
Hypothesis Sny : shape ny0 (3 * Nfp) K.
Hypothesis SFs : shape Fs0 (3 * Nfp) K.
Definition nrm_at (f k : nat) (nx ny Fs : R) : Prop :=
  let p := P k f in let q := P k ((f + 1) mod 3) in
  let ux := (snd q - snd p) / 2 in let uy := - ((fst q - fst p) / 2) in let norm := sqrt (ux * ux + uy * uy) in
  nx = ux / norm /\ ny = uy / norm /\ Fs = norm / (area (P k 0) (P k 1) (P k 2) / 2).
Definition before (k f i k' f' i' : nat) : Prop := (k < k')%nat \/ (k = k' /\ ((f < f')%nat \/ (f = f' /\ (i < i')%nat))).
Definition nstate (k' f' i' : nat) (st : mat R * mat R * mat R) : Prop :=
  shape (fst (fst st)) (3 * Nfp) K /\ shape (snd (fst st)) (3 * Nfp) K /\ shape (snd st) (3 * Nfp) K /\
  forall k f i, (k < K)%nat -> (f < 3)%nat -> (i < Nfp)%nat -> before k f i k' f' i' ->
    nrm_at f k (ment (fst (fst st)) (f * Nfp + i) k) (ment (snd (fst st)) (f * Nfp + i) k) (ment (snd st) (f * Nfp + i) k).
Lemma nstate_le k f i k' f' i' st : (forall a b c, (a < K)%nat -> (b < 3)%nat -> (c < Nfp)%nat -> before a b c k' f' i' -> before a b c k f i) -> nstate k f i st -> nstate k' f' i' st.
Proof. intros H (A & B & C & D). split; [exact A|]. split; [exact B|]. split; [exact C|]. intros. apply D; auto. Qed.
Lemma faceNormal_E f k i : (f < 3)%nat -> (k < K)%nat -> (i < length r)%nat ->
  faceNormal E f (ment (g_xr M) i k) (ment (g_xs M) i k) (ment (g_yr M) i k) (ment (g_ys M) i k) =
  let p := P k f in let q := P k ((f + 1) mod 3) in ((snd q - snd p) / 2, - ((fst q - fst p) / 2)).
Proof.
  intros Hf Hk Hi. destruct (metric_ok i k Hi Hk) as (-> & -> & -> & -> & _). destruct f as [|[|[|]]]; [| | |lia]; cbn [faceNormal exact fopp fsub fadd]; change ((0 + 1) mod 3)%nat with 1%nat; change ((1 + 1) mod 3)%nat with 2%nat; change ((2 + 1) mod 3)%nat with 0%nat; f_equal; field.
Qed.
Lemma normals_ok : exists nx ny Fs, normals E K Nfp fm M (nx0, ny0, Fs0) = Ok (nx, ny, Fs) /\
  shape nx (3 * Nfp) K /\ shape ny (3 * Nfp) K /\ shape Fs (3 * Nfp) K /\
  forall k f i, (k < K)%nat -> (f < 3)%nat -> (i < Nfp)%nat -> nrm_at f k (ment nx (f * Nfp + i) k) (ment ny (f * Nfp + i) k) (ment Fs (f * Nfp + i) k).
Proof.
  unfold normals.
  destruct SDr as (D1 & D2), SDs as (D3 & D4), Sx as (X1 & X2), Sy as (Y1 & Y2).
  match goal with |- context [for_ K ?body ?st0] => destruct (for_inv (fun k st => nstate k 0 0 st) K body st0) as ([[nx ny] Fs] & EN & HNs) end.
  - split; [exact Snx|]. split; [exact Sny|]. split; [exact SFs|]. intros k f i _ _ _ [H|[_ [H|[_ H]]]]; lia.
  - intros k st Hk HS. 
    match goal with |- context [for_ 3 ?body ?st0] => destruct (for_inv (fun f st => nstate k f 0 st) 3 body st0 HS) as (st' & E1 & HS') end.
    + intros f st1 Hf HS1. destruct (Hfm f Hf) as (mask & Em & Lm & Hmask).
      match goal with |- context [for_ Nfp ?body ?st0] => destruct (for_inv (fun i st => nstate k f i st) Nfp body st0 HS1) as (st' & E1 & HS') end.
      * intros i [[nx ny] Fs] Hi (Nx & Ny & NF & HA). cbn [fst snd] in *. unfold getn at 1. rewrite Em. cbn [bind]. rewrite (getn_ok mask i 0%nat) by lia. cbn [bind].
        pose proof (Hmask (nth i mask 0%nat) ltac:(apply nth_In; lia)) as Hm. set (m := nth i mask 0%nat) in *.
        rewrite !mget_ok by (cbn [metricTerms g_xr g_xs g_yr g_ys g_J mzip mmul mrows mcols]; lia). cbn [bind]. rewrite (faceNormal_E f k m Hf Hk Hm). cbn zeta.
        destruct (metric_ok m k Hm Hk) as (_ & _ & _ & _ & HJ & _).
        destruct Nx as (Nx1 & Nx2), Ny as (Ny1 & Ny2), NF as (NF1 & NF2).
        assert (Hr : (f * Nfp + i < 3 * Nfp)%nat) by nia.
        unfold mset. rewrite !inb_true by lia. cbn [bind]. eexists. split; [reflexivity|]. split; [split; assumption|]. split; [split; assumption|]. split; [split; assumption|]. cbn [fst snd ment].
        intros k2 f2 i2 Hk2 Hf2 Hi2 Hb. destruct (Nat.eqb_spec (f2 * Nfp + i2) (f * Nfp + i)) as [He|He]; cbn [andb].
        -- assert (f2 = f) by (clear - He Hi Hi2 Hf Hf2; destruct f as [|[|[|]]], f2 as [|[|[|]]]; lia). subst f2. assert (i2 = i) by lia. subst i2. destruct (Nat.eqb_spec k2 k) as [->|Hne]; [|apply HA; auto; destruct Hb as [Hb|[Hb _]]; [left; exact Hb|congruence]].
           unfold nrm_at. rewrite HJ. split; [reflexivity|]. split; reflexivity.
        -- apply HA; auto. destruct Hb as [Hb|[-> [Hb|[-> Hb]]]]; [left; exact Hb|right; split; [reflexivity|left; exact Hb]|right; split; [reflexivity|right; split; [reflexivity|]]].
           assert (i2 <> i) by (intro; subst; auto). lia.
      * exists st'. split; [exact E1|]. revert HS'. apply nstate_le. intros a b c Ha Hb Hc [H|[-> [H|[-> H]]]]; [left; exact H| |lia]. right. split; [reflexivity|]. destruct (Nat.eq_dec b f) as [->|]; [right; split; [reflexivity|exact Hc]|left; lia].
    + exists st'. split; [exact E1|]. revert HS'. apply nstate_le. intros a b c Ha Hb Hc [H|[-> [H|[-> H]]]]; [|lia|lia]. destruct (Nat.eq_dec a k) as [->|]; [right; split; [reflexivity|left; lia]|left; lia].
  - exists nx, ny, Fs. split; [exact EN|]. destruct HNs as (A & B & C & D). cbn [fst snd] in *. split; [exact A|]. split; [exact B|]. split; [exact C|].
    intros k f i Hk Hf Hi. apply D; auto. left. exact Hk.
Qed.
End Geo.
