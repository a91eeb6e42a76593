(* CubMeshProps.v - C86: the cubature points inside the triangles, and their mass matrices. *)
From Coq Require Import ZArith List Lia Bool Arith.
From Verif Require Import Base Loops Num JacobiModel JacobiSpec JacobiQuadProofs JacobiExactProofs JacobiOrthProofs Nodes1DModel Nodes1DSpec Nodes1DExactProofs DenseSpec TriModel TriSpec TriGeoSpec TriSetup TriProofs TriBasisProofs
  TriElemProofs TriLiftProofs TriWitness TriDGSpec TriDGProofs CubModel CubSpec GaussFaceSpec CubMeshModel CubMeshSpec CubMeshProofs.
From Coq Require Import Reals Lra.
Import ListNotations.
Local Open Scope R_scope.

Section C86.
Variables (G : R -> R) (solve : mat R -> mat R -> mat R -> outcome (mat R)) (inverse chol : mat R -> mat R -> outcome (mat R))
  (junk : nat -> nat -> R) (eps : R) (eig : nat -> (nat -> nat -> R) -> list R * (nat -> nat -> R)) (tol : R)
  (N K : nat) (Vert : list R) (EToV : list nat) (el : element (T := R)) (lit : Z -> R) (NC : nat) (junkc : nat -> R) (cc : cub_mesh R).
Local Notation ready := (cub_ready G solve inverse chol junk eps eig tol N K Vert EToV el lit NC).
Local Notation run := (buildCubatureVolumeMesh (exact G) pow solve chol junk lit junkc (Z.of_nat NC) N K (e_V el) (e_Vinv el) (e_Dr el) (e_Ds el) (e_x el) (e_y el)).
Local Notation n := (length (e_r el)).
Local Notation image := (cell_image Vert EToV).
Local Notation area_ := (cell_area Vert EToV).
Local Notation corner := (TriGeoSpec.corner Vert EToV).

Lemma cfacts : ready -> run = Ok cc -> cub_facts G N K el NC cc.
Proof. intros HR Hrun. exact (cub_run _ _ _ _ _ _ _ _ _ _ _ _ _ _ _ _ HR cc Hrun). Qed.

(* The points: the reference points lie strictly inside the reference triangle, and column k of x, y holds their images in
   element k. *)
Theorem C86_points : ready -> run = Ok cc -> length (cc_r cc) = cc_n cc /\ length (cc_s cc) = cc_n cc /\ length (cc_w cc) = cc_n cc /\
  shape (cc_x cc) (cc_n cc) K /\ shape (cc_y cc) (cc_n cc) K /\ shape (cc_W cc) (cc_n cc) K /\
  forall i k, (i < cc_n cc)%nat -> (k < K)%nat -> inside (nth i (cc_r cc) 0) (nth i (cc_s cc) 0) /\
    (ment (cc_x cc) i k, ment (cc_y cc) i k) = image k (nth i (cc_r cc) 0) (nth i (cc_s cc) 0).
Proof.
  intros HR Hrun. pose proof (cfacts HR Hrun) as HF. split; [apply HF|]. split; [apply HF|]. split; [apply HF|].
  assert (Sx : shape (e_x el) n K /\ shape (e_y el) n K) by (destruct HR as [HB _ _ _ _]; destruct (element_ok _ _ _ _ _ _ _ _ _ _ _ _ HB) as [lr _ _ _ _ _ _ _ _ _ _ _ _ _ (A & B & _) _ _]; rewrite lr; auto).
  destruct Sx as ((_ & X) & (_ & Y)). destruct (cf_V _ _ _ _ _ _ HF) as (V & _).
  split; [rewrite (cf_x _ _ _ _ _ _ HF); split; assumption|]. split; [rewrite (cf_y _ _ _ _ _ _ HF); split; assumption|]. split; [apply HF|].
  intros i k Hi Hk. split; [apply (cf_in _ _ _ _ _ _ HF i Hi)|]. eapply cub_xy; eauto.
Qed.

(* The interpolation matrix and the two differentiation matrices, combined with the metric factors, give the value and the
   partial derivatives in x and y, at the cubature points, of the polynomial of degree at most N with the given nodal values. *)
Theorem C86_interpolation : ready -> run = Ok cc -> shape (cc_V cc) (cc_n cc) n /\ shape (cc_Dr cc) (cc_n cc) n /\ shape (cc_Ds cc) (cc_n cc) n /\
  forall i k p, (i < cc_n cc)%nat -> (k < K)%nat -> degree2 N p -> let X := ment (cc_x cc) i k in let Y := ment (cc_y cc) i k in
    let u := fun m => eval2 p (ment (e_x el) m k) (ment (e_y el) m k) in let g := cc_metric cc in
    sumn n (fun m => ment (cc_V cc) i m * u m) = eval2 p X Y /\
    dr_is (eval2 p) X Y (sumn n (fun m => (ment (g_rx g) i k * ment (cc_Dr cc) i m + ment (g_sx g) i k * ment (cc_Ds cc) i m) * u m)) /\
    ds_is (eval2 p) X Y (sumn n (fun m => (ment (g_ry g) i k * ment (cc_Dr cc) i m + ment (g_sy g) i k * ment (cc_Ds cc) i m) * u m)).
Proof.
  intros HR Hrun. pose proof (cfacts HR Hrun) as HF. split; [apply HF|]. split; [apply HF|]. split; [apply HF|]. intros i k p Hi Hk Dp X Y u g. split.
  - unfold u. erewrite cub_interp by eauto. unfold X, Y, at_point. pose proof (cub_xy _ _ _ _ _ _ _ _ _ _ _ _ _ _ _ HR cc HF k Hk i Hi) as A. rewrite <- A. reflexivity.
  - exact (cub_grad _ _ _ _ _ _ _ _ _ _ _ _ _ _ _ HR cc HF k Hk i p Hi Dp).
Qed.

(* The geometry: the Jacobian is half the signed area, and the metric factors invert the map from the reference triangle. *)
Theorem C86_geometry : ready -> run = Ok cc -> forall i k, (i < cc_n cc)%nat -> (k < K)%nat -> let g := cc_metric cc in
  ment (g_J g) i k = area_ k / 2 /\
  forall r s r' s', let p := image k r s in let q := image k r' s' in
    r' - r = ment (g_rx g) i k * (fst q - fst p) + ment (g_ry g) i k * (snd q - snd p) /\
    s' - s = ment (g_sx g) i k * (fst q - fst p) + ment (g_sy g) i k * (snd q - snd p).
Proof.
  intros HR Hrun i k Hi Hk g. pose proof (cfacts HR Hrun) as HF. destruct (cub_geo _ _ _ _ _ _ _ _ _ _ _ _ _ _ _ HR cc HF k Hk i Hi) as (HJ & H1 & H2 & H3 & H4). unfold g. split; [exact HJ|].
  intros r s r' s'. assert (HA : area_ k <> 0) by (destruct HR as [_ _ HA _ _]; apply HA; exact Hk). rewrite H1, H2, H3, H4. unfold cell_image, affine_image. unfold cell_area, area, TriGeoSpec.cross, pminus in *. cbn [fst snd] in *.
  set (ax := fst (corner k 0)) in *. set (ay := snd (corner k 0)) in *. set (bx := fst (corner k 1)) in *. set (by_ := snd (corner k 1)) in *. set (cx := fst (corner k 2)) in *. set (cy := snd (corner k 2)) in *.
  split; field; lra.
Qed.

(* The weights: positive on counter-clockwise elements, and integrating over the element every function that is a polynomial
   of degree at most NC, with an error of at most 2e-14 times the sum of its coefficients in the unit-triangle coordinates
   times half the area. *)
Theorem C86_quadrature : ready -> run = Ok cc -> forall k, (k < K)%nat ->
  (0 < area_ k -> forall i, (i < cc_n cc)%nat -> 0 < ment (cc_W cc) i k) /\
  forall p, degree2 NC p -> exists q v, degree2 NC q /\ (forall r s, bary q r s = at_point p (image k r s)) /\
    element_integral (corner k 0) (corner k 1) (corner k 2) (eval2 p) v /\
    Rabs (sumn (cc_n cc) (fun i => ment (cc_W cc) i k * eval2 p (ment (cc_x cc) i k) (ment (cc_y cc) i k)) - v) <= Rabs (area_ k / 2) * (2 / 100000000000000 * coefsum q).
Proof.
  intros HR Hrun k Hk. pose proof (cfacts HR Hrun) as HF. split.
  - intros Ha i Hi. rewrite (cub_weight _ _ _ _ _ _ _ _ _ _ _ _ _ _ _ HR cc HF k Hk i Hi). destruct (cf_in _ _ _ _ _ _ HF i Hi) as (_ & Hw). apply Rmult_lt_0_compat; lra.
  - intros p Dp. exact (cub_quad _ _ _ _ _ _ _ _ _ _ _ _ _ _ _ HR cc HF k Hk p Dp).
Qed.

(* The mass matrices: one per element, symmetric, sampling the product of two polynomials at the cubature points; with
   2N <= NC the L2 product up to the same error; and the stored factor is its Cholesky factor. *)
Lemma form_points (HR : ready) (HF : cub_facts G N K el NC cc) M k p q : (k < K)%nat -> degree2 N p -> degree2 N q ->
  (forall a b, (a < n)%nat -> (b < n)%nat -> ment M a b = sumn (cc_n cc) (fun i => ment (cc_W cc) i k * ment (cc_V cc) i a * ment (cc_V cc) i b)) ->
  nodal_form el M k p q = sumn (cc_n cc) (fun i => ment (cc_W cc) i k * (eval2 p (ment (cc_x cc) i k) (ment (cc_y cc) i k) * eval2 q (ment (cc_x cc) i k) (ment (cc_y cc) i k))).
Proof.
  intros Hk Dp Dq HM. assert (HV : forall p' i, degree2 N p' -> (i < cc_n cc)%nat -> eval2 p' (ment (cc_x cc) i k) (ment (cc_y cc) i k) = sumn n (fun m => ment (cc_V cc) i m * eval2 p' (ment (e_x el) m k) (ment (e_y el) m k))).
  { intros p' i D Hi. erewrite cub_interp by eauto. unfold at_point. rewrite <- (cub_xy _ _ _ _ _ _ _ _ _ _ _ _ _ _ _ HR cc HF k Hk i Hi). reflexivity. }
  unfold nodal_form. set (u := fun a => eval2 p (ment (e_x el) a k) (ment (e_y el) a k)). set (v := fun a => eval2 q (ment (e_x el) a k) (ment (e_y el) a k)).
  set (T := fun i a b => ment (cc_W cc) i k * ((ment (cc_V cc) i a * u a) * (ment (cc_V cc) i b * v b))).
  transitivity (sumn n (fun a => sumn (cc_n cc) (fun i => sumn n (fun b => T i a b)))).
  - apply sumn_ext. intros a Ha. rewrite sumn_swap. apply sumn_ext. intros b Hb. rewrite HM by assumption. unfold T. symmetry. rewrite (sumn_ext _ _ (fun i => (u a * v b) * (ment (cc_W cc) i k * ment (cc_V cc) i a * ment (cc_V cc) i b))) by (intros; ring). rewrite sumn_scal. unfold u, v. ring.
  - rewrite sumn_swap. apply sumn_ext. intros i Hi. rewrite (HV p i Dp Hi), (HV q i Dq Hi). fold u v. unfold T. 
    rewrite (sumn_ext n _ (fun a => ment (cc_W cc) i k * (sumn n (fun b => ment (cc_V cc) i b * v b) * (ment (cc_V cc) i a * u a)))).
    + rewrite sumn_scal, sumn_scal. unfold u, v. ring.
    + intros a Ha. rewrite sumn_scal, sumn_scal. ring.
Qed.

Theorem C86_mass : ready -> run = Ok cc -> length (cc_MM cc) = K /\ length (cc_chol cc) = K /\ forall k, (k < K)%nat -> exists M U,
  nth_error (cc_MM cc) k = Some M /\ nth_error (cc_chol cc) k = Some U /\ shape M n n /\ (forall a b, (a < n)%nat -> (b < n)%nat -> ment M a b = ment M b a) /\ cholesky_of n M U /\
  forall p q, degree2 N p -> degree2 N q -> let f := fun x y => eval2 p x y * eval2 q x y in
    nodal_form el M k p q = sumn (cc_n cc) (fun i => ment (cc_W cc) i k * f (ment (cc_x cc) i k) (ment (cc_y cc) i k)) /\
    ((2 * N <= NC)%nat -> exists h v, degree2 NC h /\ (forall r s, bary h r s = f (fst (image k r s)) (snd (image k r s))) /\ element_integral (corner k 0) (corner k 1) (corner k 2) f v /\
      Rabs (nodal_form el M k p q - v) <= Rabs (area_ k / 2) * (2 / 100000000000000 * coefsum h)).
Proof.
  intros HR Hrun. pose proof (cfacts HR Hrun) as HF. destruct (cf_MM _ _ _ _ _ _ HF) as (L1 & L2 & HM). split; [exact L1|]. split; [exact L2|]. intros k Hk. destruct (HM k Hk) as (M & U & A1 & A2 & SM & Hent & HU).
  exists M, U. split; [exact A1|]. split; [exact A2|]. split; [exact SM|]. split; [intros a b Ha Hb; rewrite !Hent by assumption; apply sumn_ext; intros; ring|]. split; [exact HU|].
  intros p q Dp Dq f. pose proof (form_points HR HF M k p q Hk Dp Dq Hent) as X. split; [exact X|]. intro HN. rewrite X.
  assert (TP : tpoly NC f).
  { apply (tpoly_le (N + N)); [lia|]. apply (tpoly_mul N N (eval2 p) (eval2 q)); [exists p; auto|exists q; auto]. }
  destruct TP as (pq & Dpq & Hpq). destruct (cub_quad _ _ _ _ _ _ _ _ _ _ _ _ _ _ _ HR cc HF k Hk pq Dpq) as (h & v & Dh & Hh & (i & Hi & Hv) & He). exists h, v. split; [exact Dh|].
  split; [intros r s; rewrite Hh; unfold at_point; symmetry; apply Hpq|]. split.
  - exists i. split; [|exact Hv]. eapply TriOpProofs.tint_ext; [|exact Hi]. intros r s. unfold pulled. symmetry. apply Hpq.
  - erewrite sumn_ext; [exact He|]. intros j Hj. cbv beta. rewrite <- Hpq. reflexivity.
Qed.

(* On a counter-clockwise element the mass matrix is positive, and vanishes only on polynomials that are zero at every
   cubature point. *)
Theorem C86_definite : ready -> run = Ok cc -> forall k M p, (k < K)%nat -> 0 < area_ k -> nth_error (cc_MM cc) k = Some M -> degree2 N p ->
  0 <= nodal_form el M k p p /\ (nodal_form el M k p p = 0 -> forall i, (i < cc_n cc)%nat -> eval2 p (ment (cc_x cc) i k) (ment (cc_y cc) i k) = 0).
Proof.
  intros HR Hrun k M p Hk Ha EM Dp. pose proof (cfacts HR Hrun) as HF. destruct (cf_MM _ _ _ _ _ _ HF) as (L1 & L2 & HM). destruct (HM k Hk) as (M' & U & A1 & A2 & SM & Hent & HU). assert (M' = M) by congruence. subst M'.
  pose proof (proj1 (C86_quadrature HR Hrun k Hk) Ha) as HW. rewrite (form_points HR HF M k p p Hk Dp Dp Hent).
  assert (Hp : forall i, (i < cc_n cc)%nat -> 0 <= ment (cc_W cc) i k * (eval2 p (ment (cc_x cc) i k) (ment (cc_y cc) i k) * eval2 p (ment (cc_x cc) i k) (ment (cc_y cc) i k))).
  { intros i Hi. apply Rmult_le_pos; [specialize (HW i Hi); lra|]. apply Rle_0_sqr. }
  split; [apply sumn_nonneg; exact Hp|]. intros H0 i Hi. pose proof (sumn_nonneg_zero _ _ Hp H0 i Hi) as Y. cbv beta in Y. specialize (HW i Hi). apply Rmult_integral in Y as [Y|Y]; [lra|]. apply Rmult_integral in Y as [Y|Y]; exact Y.
Qed.

(* The metric factors and the Jacobian at the nodes are recomputed to the values they had. *)
Theorem C86_nodal : ready -> run = Ok cc -> cc_nodal cc = e_metric el.
Proof. intros HR Hrun. apply (cfacts HR Hrun). Qed.

(* Three ways to get no result: an element whose corners run clockwise; fewer cubature points than nodes; and, with a solver
   that notices singular matrices, more cubature points than nodes. *)
Theorem C86_clockwise : ready -> forall k, (k < K)%nat -> area_ k < 0 -> run <> Ok cc.
Proof. intros HR k. exact (clockwise_no _ _ _ _ _ _ _ _ _ _ _ _ _ _ _ junkc HR cc k). Qed.
Theorem C86_too_few : ready -> forall m, NumCubaturePoints lit Rminus junkc (Z.of_nat NC) = Ok m -> (m < n)%nat -> run = Throw \/ run = UB.
Proof. intros HR m. exact (few_no _ _ _ _ _ _ _ _ _ _ _ _ _ _ _ junkc HR m). Qed.
Theorem C86_too_many : ready -> rejects_singular solve -> forall m, NumCubaturePoints lit Rminus junkc (Z.of_nat NC) = Ok m -> (n < m)%nat -> run = Throw.
Proof. intros HR HS m. exact (many_no _ _ _ _ _ _ _ _ _ _ _ _ _ _ _ junkc HR m HS). Qed.
End C86.

(* A Cholesky factorizer for three unknowns. *)
Definition chol3 (A X : mat R) : outcome (mat R) :=
  if (mrows A =? 3)%nat then
    let a := ment A in let u0 := sqrt (a 0%nat 0%nat) in let u01 := a 0%nat 1%nat / u0 in let u02 := a 0%nat 2%nat / u0 in
    let d := a 1%nat 1%nat - u01 * u01 in let u1 := sqrt d in let u12 := (a 1%nat 2%nat - u01 * u02) / u1 in
    let e := a 2%nat 2%nat - u02 * u02 - u12 * u12 in
    if Rlt_dec 0 (a 0%nat 0%nat) then if Rlt_dec 0 d then if Rlt_dec 0 e then
      Ok (mkmat 3 3 (fun i j => match i, j with
        | 0%nat, 0%nat => u0 | 0%nat, 1%nat => u01 | 0%nat, 2%nat => u02 | 1%nat, 1%nat => u1 | 1%nat, 2%nat => u12 | 2%nat, 2%nat => sqrt e | _, _ => 0 end))
    else Throw else Throw else Throw
  else Throw.
Lemma chol3_ok : factorizer_ok chol3.
Proof.
  intros m A X (A1 & A2) _ Sym. unfold chol3. destruct (Nat.eqb_spec (mrows A) 3) as [E3|]; [|left; reflexivity]. rewrite E3 in A1. subst m. cbv zeta.
  set (u0 := sqrt (ment A 0 0)). set (u01 := ment A 0 1 / u0). set (u02 := ment A 0 2 / u0). set (d := ment A 1 1 - u01 * u01). set (u1 := sqrt d). set (u12 := (ment A 1 2 - u01 * u02) / u1). set (e := ment A 2 2 - u02 * u02 - u12 * u12).
  destruct (Rlt_dec 0 (ment A 0 0)) as [H0|]; [|left; reflexivity]. destruct (Rlt_dec 0 d) as [H1|]; [|left; reflexivity]. destruct (Rlt_dec 0 e) as [H2|]; [|left; reflexivity].
  right. eexists. split; [reflexivity|]. split; [split; reflexivity|]. split.
  - intros i j (Hj & Hi). cbn [ment]. destruct i as [|[|[|i]]]; try lia; destruct j as [|[|j]]; try lia; reflexivity.
  - assert (Q0 : u0 * u0 = ment A 0 0) by (apply sqrt_sqrt; lra). assert (Q1 : u1 * u1 = d) by (apply sqrt_sqrt; lra). assert (Q2 : sqrt e * sqrt e = e) by (apply sqrt_sqrt; lra).
    assert (P0 : 0 < u0) by (apply sqrt_lt_R0; exact H0). assert (P1 : 0 < u1) by (apply sqrt_lt_R0; exact H1).
    assert (A01 : u0 * u01 = ment A 0 1) by (unfold u01; field; lra). assert (A02 : u0 * u02 = ment A 0 2) by (unfold u02; field; lra). assert (A12 : u1 * u12 = ment A 1 2 - u01 * u02) by (unfold u12; field; lra).
    intros i j Hi Hj. unfold sumn. cbn [seq map fold_right ment].
    assert (S10 := Sym 1%nat 0%nat ltac:(lia) ltac:(lia)). assert (S20 := Sym 2%nat 0%nat ltac:(lia) ltac:(lia)). assert (S21 := Sym 2%nat 1%nat ltac:(lia) ltac:(lia)).
    unfold e in Q2 at 3. unfold d in Q1 at 1.
    destruct i as [|[|[|i]]]; try lia; destruct j as [|[|[|j]]]; try lia; cbn [ment]; lra.
Qed.
(* It succeeds on V'DV with D > 0 and V invertible. *)
Lemma chol3_runs (M X : mat R) (v : nat -> nat -> R) (w : R) : mrows M = 3%nat -> 0 < w -> det3 v <> 0 ->
  (forall a b, (a < 3)%nat -> (b < 3)%nat -> ment M a b = w * (v 0%nat a * v 0%nat b + v 1%nat a * v 1%nat b + v 2%nat a * v 2%nat b)) -> exists U, chol3 M X = Ok U.
Proof.
  intros M3 Hw Hd HM. unfold chol3. rewrite M3. change (3 =? 3)%nat with true. cbv iota zeta.
  rewrite !HM by lia. set (x0 := v 0%nat 0%nat) in *. set (x1 := v 1%nat 0%nat) in *. set (x2 := v 2%nat 0%nat) in *. set (y0 := v 0%nat 1%nat) in *. set (y1 := v 1%nat 1%nat) in *. set (y2 := v 2%nat 1%nat) in *.
  set (z0 := v 0%nat 2%nat) in *. set (z1 := v 1%nat 2%nat) in *. set (z2 := v 2%nat 2%nat) in *.
  set (xx := x0 * x0 + x1 * x1 + x2 * x2). set (xy := x0 * y0 + x1 * y1 + x2 * y2). set (xz := x0 * z0 + x1 * z1 + x2 * z2). set (yy := y0 * y0 + y1 * y1 + y2 * y2). set (yz := y0 * z0 + y1 * z1 + y2 * z2). set (zz := z0 * z0 + z1 * z1 + z2 * z2).
  assert (Hdet : x0 * (y1 * z2 - z1 * y2) - y0 * (x1 * z2 - z1 * x2) + z0 * (x1 * y2 - y1 * x2) <> 0) by exact Hd. clear Hd.
  set (c0 := x1 * y2 - y1 * x2) in *. set (c1 := x0 * y2 - y0 * x2) in *. set (c2 := x0 * y1 - y0 * x1) in *. set (D := x0 * (y1 * z2 - z1 * y2) - y0 * (x1 * z2 - z1 * x2) + z0 * c0) in *.
  assert (Pxx : 0 < xx).
  { assert (0 <= xx) by (unfold xx; pose proof (Rle_0_sqr x0); pose proof (Rle_0_sqr x1); pose proof (Rle_0_sqr x2); unfold Rsqr in *; lra). destruct (Req_dec xx 0) as [Z|]; [|lra]. exfalso. apply Hdet.
    assert (x0 = 0 /\ x1 = 0 /\ x2 = 0) as (-> & -> & ->) by (unfold xx in Z; pose proof (Rle_0_sqr x0); pose proof (Rle_0_sqr x1); pose proof (Rle_0_sqr x2); unfold Rsqr in *; repeat split; nra). unfold D, c0. ring. }
  assert (Em : xx * yy - xy * xy = c0 * c0 + c1 * c1 + c2 * c2) by (unfold xx, yy, xy, c0, c1, c2; ring).
  assert (Pm : 0 < xx * yy - xy * xy).
  { rewrite Em. assert (0 <= c0 * c0 + c1 * c1 + c2 * c2) by (pose proof (Rle_0_sqr c0); pose proof (Rle_0_sqr c1); pose proof (Rle_0_sqr c2); unfold Rsqr in *; lra). destruct (Req_dec (c0 * c0 + c1 * c1 + c2 * c2) 0) as [Z|]; [|lra]. exfalso. apply Hdet.
    assert (c0 = 0 /\ c1 = 0 /\ c2 = 0) as (Z0 & Z1 & Z2) by (pose proof (Rle_0_sqr c0); pose proof (Rle_0_sqr c1); pose proof (Rle_0_sqr c2); unfold Rsqr in *; repeat split; nra).
    replace D with (z0 * c0 - z1 * c1 + z2 * c2) by (unfold D, c0, c1, c2; ring). rewrite Z0, Z1, Z2. ring. }
  assert (Hwx : 0 < w * xx) by (apply Rmult_lt_0_compat; assumption). destruct (Rlt_dec 0 (w * xx)) as [_|]; [|contradiction].
  assert (S0 : sqrt (w * xx) * sqrt (w * xx) = w * xx) by (apply sqrt_sqrt; lra). assert (T0 : 0 < sqrt (w * xx)) by (apply sqrt_lt_R0; exact Hwx). set (u0 := sqrt (w * xx)) in *. clearbody u0.
  assert (B1 : (w * xy / u0) * (w * xy / u0) = w * (xy * xy / xx)) by (transitivity (w * xy * (w * xy) / (u0 * u0)); [field; lra|rewrite S0; field; lra]).
  assert (B2 : (w * xz / u0) * (w * xz / u0) = w * (xz * xz / xx)) by (transitivity (w * xz * (w * xz) / (u0 * u0)); [field; lra|rewrite S0; field; lra]).
  assert (B3 : (w * xy / u0) * (w * xz / u0) = w * (xy * xz / xx)) by (transitivity (w * xy * (w * xz) / (u0 * u0)); [field; lra|rewrite S0; field; lra]).
  rewrite B1, B2, B3. assert (Ed : w * yy - w * (xy * xy / xx) = w * ((xx * yy - xy * xy) / xx)) by (field; lra). rewrite Ed.
  set (m := xx * yy - xy * xy) in *. assert (Hd : 0 < w * (m / xx)) by (apply Rmult_lt_0_compat; [exact Hw|apply Rdiv_lt_0_compat; assumption]). destruct (Rlt_dec 0 (w * (m / xx))) as [_|]; [|contradiction].
  assert (S1 : sqrt (w * (m / xx)) * sqrt (w * (m / xx)) = w * (m / xx)) by (apply sqrt_sqrt; lra). assert (T1 : 0 < sqrt (w * (m / xx))) by (apply sqrt_lt_R0; exact Hd). set (u1 := sqrt (w * (m / xx))) in *. clearbody u1.
  assert (B4 : (w * yz - w * (xy * xz / xx)) / u1 * ((w * yz - w * (xy * xz / xx)) / u1) = w * ((xx * yz - xy * xz) * (xx * yz - xy * xz) / (xx * m))).
  { transitivity ((w * yz - w * (xy * xz / xx)) * (w * yz - w * (xy * xz / xx)) / (u1 * u1)); [field; lra|]. rewrite S1. clearbody m. field. repeat split; lra. }
  rewrite B4. match goal with |- context [Rlt_dec 0 ?e] => assert (He : e = w * (D * D / m)) end.
  { apply (Rmult_eq_reg_r (xx * m)); [|apply Rmult_integral_contrapositive; split; lra]. transitivity (w * (D * D) * xx); [|field; lra].
    transitivity (w * (zz * xx * m - xz * xz * m - (xx * yz - xy * xz) * (xx * yz - xy * xz))); [field; lra|]. unfold m, D, zz, xx, yy, xy, xz, yz, c0. ring. }
  rewrite He. assert (Hp : 0 < w * (D * D / m)) by (apply Rmult_lt_0_compat; [exact Hw|apply Rdiv_lt_0_compat; [|exact Pm]; pose proof (Rle_0_sqr D); unfold Rsqr in *; assert (D * D <> 0) by (apply Rmult_integral_contrapositive; auto); lra]).
  destruct (Rlt_dec 0 (w * (D * D / m))) as [_|]; [eauto|contradiction].
Qed.

Lemma rule2 {A} (lit : Z -> A) sub junkc : NumCubaturePoints lit sub junkc 2 = Ok 3%nat /\
  rCoord lit sub junkc 2 = Ok [lit (-666666666666667)%Z; lit 333333333333333%Z; lit (-666666666666667)%Z] /\
  sCoord lit sub junkc 2 = Ok [lit (-666666666666667)%Z; lit (-666666666666667)%Z; lit 333333333333333%Z] /\
  weights lit sub junkc 2 = Ok [lit 666666666666667%Z; lit 666666666666667%Z; lit 666666666666667%Z].
Proof. split; [vm_compute; reflexivity|]. split; [vm_compute; reflexivity|]. split; vm_compute; reflexivity. Qed.

Lemma cramer_rejects : rejects_singular cramer.
Proof.
  intros m A B X (A1 & A2) (c & (i & Hi & Hc) & Hz). unfold cramer. destruct (det_ok A) eqn:ED; [|reflexivity]. exfalso. unfold det_ok in ED. rewrite A1 in ED.
  assert (H2 : forall a b d e f g : R, a * d + b * e = 0 -> a * f + b * g = 0 -> a * (d * g - f * e) = 0 /\ b * (d * g - f * e) = 0).
  { intros a b d e f g P Q. split; [replace (a * (d * g - f * e)) with (g * (a * d + b * e) - e * (a * f + b * g)) by ring|replace (b * (d * g - f * e)) with (d * (a * f + b * g) - f * (a * d + b * e)) by ring]; rewrite P, Q; ring. }
  destruct m as [|[|[|[|m]]]]; try discriminate.
  - destruct (Req_EM_T _ 0) as [|Hd]; [discriminate|]. pose proof (Hz 0%nat ltac:(lia)) as Z0. pose proof (Hz 1%nat ltac:(lia)) as Z1. unfold sumn in Z0, Z1. cbn [seq map fold_right] in Z0, Z1. rewrite !Rplus_0_r in Z0, Z1.
    destruct (H2 _ _ _ _ _ _ Z0 Z1) as (P & Q). unfold det2 in Hd. destruct i as [|[|i]]; [| |lia]; [apply Rmult_integral in P as [P|P]|apply Rmult_integral in Q as [Q|Q]]; lra.
  - destruct (Req_EM_T _ 0) as [|Hd]; [discriminate|]. pose proof (Hz 0%nat ltac:(lia)) as Z0. pose proof (Hz 1%nat ltac:(lia)) as Z1. pose proof (Hz 2%nat ltac:(lia)) as Z2. unfold sumn in Z0, Z1, Z2. cbn [seq map fold_right] in Z0, Z1, Z2. rewrite !Rplus_0_r in Z0, Z1, Z2.
    assert (H : c i * det3 (ment A) = 0); [|apply Rmult_integral in H as [H|H]; contradiction]. unfold det3. set (a := ment A) in *. clearbody a.
    assert (L : forall p q r, p * (c 0%nat * a 0%nat 0%nat + (c 1%nat * a 1%nat 0%nat + c 2%nat * a 2%nat 0%nat)) + q * (c 0%nat * a 0%nat 1%nat + (c 1%nat * a 1%nat 1%nat + c 2%nat * a 2%nat 1%nat)) + r * (c 0%nat * a 0%nat 2%nat + (c 1%nat * a 1%nat 2%nat + c 2%nat * a 2%nat 2%nat)) = 0) by (intros; rewrite Z0, Z1, Z2; ring).
    destruct i as [|[|[|i]]]; [| | |lia].
    + eapply eq_trans; [|apply (L (a 1%nat 1%nat * a 2%nat 2%nat - a 1%nat 2%nat * a 2%nat 1%nat) (- (a 1%nat 0%nat * a 2%nat 2%nat - a 1%nat 2%nat * a 2%nat 0%nat)) (a 1%nat 0%nat * a 2%nat 1%nat - a 1%nat 1%nat * a 2%nat 0%nat))]. ring.
    + eapply eq_trans; [|apply (L (- (a 0%nat 1%nat * a 2%nat 2%nat - a 0%nat 2%nat * a 2%nat 1%nat)) (a 0%nat 0%nat * a 2%nat 2%nat - a 0%nat 2%nat * a 2%nat 0%nat) (- (a 0%nat 0%nat * a 2%nat 1%nat - a 0%nat 1%nat * a 2%nat 0%nat)))]. ring.
    + eapply eq_trans; [|apply (L (a 0%nat 1%nat * a 1%nat 2%nat - a 0%nat 2%nat * a 1%nat 1%nat) (- (a 0%nat 0%nat * a 1%nat 2%nat - a 0%nat 2%nat * a 1%nat 0%nat)) (a 0%nat 0%nat * a 1%nat 1%nat - a 0%nat 1%nat * a 1%nat 0%nat))]. ring.
Qed.

(* The two triangles of the unit square, order 1 and cubature order 2 (three points, as many as nodes), meet the hypotheses
   and give a result. *)
Example C86_witness : let Vert := [0; 0; 0;  1; 0; 0;  1; 1; 0;  0; 1; 0] in let EToV := [0; 1; 2;  0; 2; 3]%nat in let lit := fun z => IZR z / 1000000000000000 in
  rejects_singular cramer /\ exists el, cub_ready gwit cramer cramer_inv chol3 junk0 0 eig0 (1 / 10) 1 2 Vert EToV el lit 2 /\
    (forall k, (k < 2)%nat -> 0 < cell_area Vert EToV k) /\
    forall junkc, exists cc, buildCubatureVolumeMesh (exact gwit) pow cramer chol3 junk0 lit junkc 2 1 2 (e_V el) (e_Vinv el) (e_Dr el) (e_Ds el) (e_x el) (e_y el) = Ok cc.
Proof.
  intros Vert EToV lit. split; [exact cramer_rejects|]. destruct tri_witness as (el & HB). fold Vert EToV in HB. exists el.
  assert (HA : forall k, (k < 2)%nat -> cell_area Vert EToV k = 1 / 2) by (intros k Hk; unfold cell_area; destruct k as [|[|]]; [| |lia]; unfold area, TriGeoSpec.corner, TriGeoSpec.cross, pminus; cbn; lra).
  assert (HR : cub_ready gwit cramer cramer_inv chol3 junk0 0 eig0 (1 / 10) 1 2 Vert EToV el lit 2).
  { constructor; [exact HB|exact chol3_ok|intros k Hk; rewrite HA by exact Hk; lra| |lia].
    intros z _. unfold lit, Rminus. rewrite Rplus_opp_r, Rabs_R0. apply Rmult_le_pos; [apply Rabs_pos|]. apply Rlt_le, Rinv_0_lt_compat, pow_lt. lra. }
  split; [exact HR|]. split; [intros k Hk; rewrite HA by exact Hk; lra|]. intro junkc.
  destruct (cub_front _ _ _ _ _ _ _ _ _ _ _ _ _ _ _ junkc HR) as (rs & ss & ws & Vc & Vr & Vs & X). cbv zeta in X. destruct X as (E1 & E2 & E3 & E4 & L1 & L2 & Hin & Hex & EV & SVc & MV & EG & SR & SS & HGr).
  destruct (rule2 lit Rminus junkc) as (F1 & F2 & F3 & F4). change (Z.of_nat 2) with 2%Z in *.
  assert (Lw : length ws = 3%nat) by congruence.
  assert (Ers : rs = [lit (-666666666666667)%Z; lit 333333333333333%Z; lit (-666666666666667)%Z]) by congruence.
  assert (Ess : ss = [lit (-666666666666667)%Z; lit (-666666666666667)%Z; lit 333333333333333%Z]) by congruence.
  assert (Ews : ws = [lit 666666666666667%Z; lit 666666666666667%Z; lit 666666666666667%Z]) by congruence.
  unfold buildCubatureVolumeMesh. change (fsub (exact gwit)) with Rminus. rewrite E1, E2, E3, E4. cbn [bind]. rewrite EV. cbn [bind]. rewrite EG. cbn [bind].
  destruct (element_ok _ _ _ _ _ _ _ _ _ _ _ _ HB) as [lr ls _ _ _ _ (V1 & V2) (I1 & I2) _ Vi Vi' _ _ _ _ _ _]. change (length (modes 1)) with 3%nat in *. rewrite lr, Lw in *.
  (* the interpolation matrix is invertible *)
  assert (DV : det3 (ment Vc) <> 0).
  { intro DZ. set (b := fun i j : nat => match j with 0%nat => 1 | 1%nat => nth i (e_r el) 0 | _ => nth i (e_s el) 0 end). pose proof (det3_mul (ment Vc) b) as HM. rewrite DZ, Rmult_0_l in HM.
    assert (M0 : forall i, (i < 3)%nat -> sumn 3 (fun m => ment Vc i m * 1) = 1).
    { intros i Hi. pose proof (MV [(0%nat, 0%nat, 1)] i) as Y. rewrite lr, L1 in Y. specialize (Y ltac:(repeat constructor) Hi). cbn [eval2 pow] in Y. erewrite sumn_ext; [rewrite Y; ring|]. intros; cbv beta; ring. }
    assert (M1 : forall i, (i < 3)%nat -> sumn 3 (fun m => ment Vc i m * nth m (e_r el) 0) = nth i rs 0).
    { intros i Hi. pose proof (MV [(1%nat, 0%nat, 1)] i) as Y. rewrite lr, L1 in Y. specialize (Y ltac:(repeat constructor) Hi). cbn [eval2 pow] in Y. erewrite sumn_ext; [rewrite Y; ring|]. intros; cbv beta; ring. }
    assert (M2 : forall i, (i < 3)%nat -> sumn 3 (fun m => ment Vc i m * nth m (e_s el) 0) = nth i ss 0).
    { intros i Hi. pose proof (MV [(0%nat, 1%nat, 1)] i) as Y. rewrite lr, L1 in Y. specialize (Y ltac:(repeat constructor) Hi). cbn [eval2 pow] in Y. erewrite sumn_ext; [rewrite Y; ring|]. intros; cbv beta; ring. }
    unfold sumn in M0, M1, M2. cbn [seq map fold_right] in M0, M1, M2.
    assert (HM' : det3 (fun i j => match j with 0%nat => 1 | 1%nat => nth i rs 0 | _ => nth i ss 0 end) = 0).
    { eapply eq_trans; [|symmetry; exact HM]. unfold det3, b. pose proof (M0 0%nat ltac:(lia)). pose proof (M0 1%nat ltac:(lia)). pose proof (M0 2%nat ltac:(lia)).
      rewrite <- (M1 0%nat), <- (M1 1%nat), <- (M1 2%nat), <- (M2 0%nat), <- (M2 1%nat), <- (M2 2%nat) by lia.
      replace (ment Vc 0%nat 0%nat * 1 + ment Vc 0%nat 1%nat * 1 + ment Vc 0%nat 2%nat * 1) with 1 by lra. replace (ment Vc 1%nat 0%nat * 1 + ment Vc 1%nat 1%nat * 1 + ment Vc 1%nat 2%nat * 1) with 1 by lra. replace (ment Vc 2%nat 0%nat * 1 + ment Vc 2%nat 1%nat * 1 + ment Vc 2%nat 2%nat * 1) with 1 by lra. ring. }
    rewrite Ers, Ess in HM'. unfold det3, lit in HM'. cbn [nth] in HM'. lra. }
  assert (DN : det3 (ment (e_V el)) <> 0).
  { intro DZ. pose proof (det3_mul (ment (e_V el)) (ment (e_Vinv el))) as HM. rewrite DZ, Rmult_0_l in HM.
    assert (HI : forall i j, (i < 3)%nat -> (j < 3)%nat -> ment (e_V el) i 0%nat * ment (e_Vinv el) 0%nat j + ment (e_V el) i 1%nat * ment (e_Vinv el) 1%nat j + ment (e_V el) i 2%nat * ment (e_Vinv el) 2%nat j = delta i j).
    { intros i j Hi Hj. rewrite <- Vi' by assumption. unfold sumn. cbn [seq map fold_right]. ring. }
    unfold det3 in HM. rewrite !HI in HM by lia. unfold delta in HM. cbn in HM. lra. }
  destruct SR as (R1 & R2). destruct SS as (S1 & S2). destruct SVc as (C1 & C2).
  assert (HD : exists D1 D2 D3 D4, diff_matrices_at (exact gwit) cramer junk0 Vr Vs (e_V el) Vc = Ok (D1, D2, D3, D4)).
  { unfold diff_matrices_at. rewrite R1, V1. change (3 <? 3)%nat with false. cbv iota. unfold computeDifferentiationMatrices. rewrite R1, V1.
    assert (DT : det_ok (mtrans (e_V el)) = true) by (apply det3_ok; [exact V2|]; change (ment (mtrans (e_V el))) with (fun i j => ment (e_V el) j i); rewrite det3_trans; exact DN).
    match goal with |- context [bind (cramer _ ?B ?X) _] => destruct (cramer_runs _ B X DT) as (Y1 & ->) end. cbn [bind].
    match goal with |- context [bind (cramer _ ?B ?X) _] => destruct (cramer_runs _ B X DT) as (Y2 & ->) end. cbn [bind].
    match goal with |- context [bind (cramer ?A _ _) _] => assert (DVV : det_ok A = true) end.
    { apply det3_ok; [reflexivity|]. match goal with |- det3 ?a <> 0 => replace (det3 a) with (det3 (ment Vc) * det3 (fun i j => ment Vc j i)) end.
      - apply Rmult_integral_contrapositive. split; [exact DV|]. rewrite det3_trans. exact DV.
      - rewrite det3_mul. cbn [mtrans ment mmul mrows mcols]. unfold det3. rewrite !fsum_exact, C2. unfold sumn. cbn [seq map fold_right exact fmul]. ring. }
    match goal with |- context [bind (cramer _ ?B ?X) _] => destruct (cramer_runs _ B X DVV) as (Y3 & ->) end. cbn [bind].
    match goal with |- context [bind (cramer _ ?B ?X) _] => destruct (cramer_runs _ B X DVV) as (Y4 & ->) end. cbn [bind]. eauto 10. }
  destruct HD as (D1 & D2 & D3 & D4 & HD). rewrite HD. cbn [bind].
  assert (Hp : pts_ok rs ss) by (apply (pts_inside rs ss 3); auto; intros i Hi; apply Hin; exact Hi).
  match goal with |- context [cub_masses _ _ _ _ _ (g_J ?g') _] => set (g := g') end.
  assert (HJ : forall i k, (i < 3)%nat -> (k < 2)%nat -> ment (g_J g) i k = 1 / 4).
  { intros i k Hi Hk. destruct (diff_at _ _ _ _ _ _ _ _ _ _ _ _ _ _ _ HR Vr Vs Vc 3 rs ss D1 D2 D3 D4) as (_ & SD1 & SD2 & MD1 & MD2); [rewrite lr; split; assumption|rewrite lr; split; assumption|exact L1|exact Hp|rewrite lr; exact HGr|exact HD|].
    pose proof (geo_at _ _ _ _ _ _ _ _ _ _ _ _ _ _ _ HR k Hk 3 D1 D2 rs ss i L1 SD1 SD2 MD1 MD2 Hi) as (Y & _). cbv zeta in Y. unfold g. rewrite Y, HA by exact Hk. lra. }
  assert (HM : forall k st, (k < 2)%nat -> exists st', bind (cub_mass (exact gwit) chol3 3 ws (g_J g) Vc k) (fun '(M, U) => Ok (fst st ++ [M], snd st ++ [U])) = Ok st').
  { intros k st Hk. unfold cub_mass. set (M := mmul (exact gwit) (mtrans Vc) _). 
    destruct (chol3_runs M (mzero (exact gwit) (mcols Vc) (mcols Vc)) (ment Vc) (666666666666667 / 4000000000000000)) as (U & EU); [exact C2|lra|exact DV| |rewrite EU; cbn [bind]; eauto].
    intros a b Ha Hb. pose proof (mass_entry gwit el ws (g_J g) Vc (mkmat 3 2 (fun i k => nth i ws 0 * ment (g_J g) i k)) 3 k a b) as Y. rewrite lr in Y. unfold M. rewrite Y; auto; [|split; assumption]. unfold sumn. cbn [seq map fold_right ment]. rewrite !HJ by lia. rewrite Ews. unfold lit. cbn [nth]. lra. }
  unfold cub_masses, for_. cbn [for_from]. destruct (HM 0%nat ([], []) ltac:(lia)) as (st1 & ->). cbn [bind]. destruct (HM 1%nat st1 ltac:(lia)) as ([MM UU] & ->). cbn [bind]. eauto.
Qed.

(* The hypotheses of the three failing cases are met: a square with one triangle turned over, and the orders 1 (one point for
   three nodes) and 5 (seven points). *)
Example C86_witness_fails : let Vert := [0; 0; 0;  1; 0; 0;  1; 1; 0;  0; 1; 0] in let EToV := [0; 2; 1;  0; 2; 3]%nat in let lit := fun z => IZR z / 1000000000000000 in
  exists el, length (e_r el) = 3%nat /\ (forall NC, In NC [1; 2; 5]%nat -> cub_ready gwit cramer cramer_inv chol3 junk0 0 eig0 (1 / 10) 1 2 Vert EToV el lit NC) /\
    cell_area Vert EToV 0 < 0 /\ 0 < cell_area Vert EToV 1 /\
    forall junkc, NumCubaturePoints lit Rminus junkc 1 = Ok 1%nat /\ NumCubaturePoints lit Rminus junkc 5 = Ok 7%nat.
Proof.
  intros Vert EToV lit. assert (HM : mesh_ok 2 Vert EToV) by (split; [reflexivity|]; intros v Hv; cbn in Hv; repeat (destruct Hv as [<-|Hv]; [cbn; lia|]); destruct Hv).
  destruct (tri_witness_any 2 Vert EToV HM) as (el & HB). exists el.
  assert (H0 : cell_area Vert EToV 0 = - (1 / 2)) by (unfold cell_area, area, TriGeoSpec.corner, TriGeoSpec.cross, pminus; cbn; lra). assert (H1 : cell_area Vert EToV 1 = 1 / 2) by (unfold cell_area, area, TriGeoSpec.corner, TriGeoSpec.cross, pminus; cbn; lra).
  split; [destruct (element_ok _ _ _ _ _ _ _ _ _ _ _ _ HB) as [lr _ _ _ _ _ _ _ _ _ _ _ _ _ _ _ _]; exact lr|]. split.
  - intros NC HN. constructor; [exact HB|exact chol3_ok|intros k Hk; destruct k as [|[|]]; [rewrite H0; lra|rewrite H1; lra|lia]| |cbn in HN; lia].
    intros z _. unfold lit, Rminus. rewrite Rplus_opp_r, Rabs_R0. apply Rmult_le_pos; [apply Rabs_pos|]. apply Rlt_le, Rinv_0_lt_compat, pow_lt. lra.
  - rewrite H0, H1. split; [lra|]. split; [lra|]. intro junkc. assert (X : forall (A : Type) (l : Z -> A) sb j, NumCubaturePoints l sb j 1 = Ok 1%nat /\ NumCubaturePoints l sb j 5 = Ok 7%nat) by (split; vm_compute; reflexivity). apply X.
Qed.

Print Assumptions C86_points.
Print Assumptions C86_interpolation.
Print Assumptions C86_geometry.
Print Assumptions C86_quadrature.
Print Assumptions C86_mass.
Print Assumptions C86_definite.
Print Assumptions C86_nodal.
Print Assumptions C86_clockwise.
Print Assumptions C86_too_few.
Print Assumptions C86_too_many.
