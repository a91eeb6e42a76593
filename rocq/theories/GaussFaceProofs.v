(* GaussFaceProofs.v - proofs about buildGaussFaceNodes. *)
From Coq Require Import ZArith List Lia Bool Arith.
From Verif Require Import Base Loops FoldProofs Num JacobiModel JacobiSpec JacobiQuadProofs Nodes1DModel Nodes1DExactProofs DenseSpec TriModel TriSpec TriGeoSpec TriSetup TriBasisProofs
  TriOpProofs TriLiftProofs TriNodesProofs TriGeoProofs TriElemProofs TriDGSpec TriDGProofs TriProps Maps2DModel MeshSpec Maps2DProps TriMapsProofs TriMapsProps JacobiOrthProofs GaussFaceModel GaussFaceSpec GaussRuleProofs.
From Coq Require Import Reals Lra.
Import ListNotations.
Local Open Scope R_scope.

Local Notation cross := TriGeoSpec.cross.
Definition ref_point (f : nat) (t : R) : R * R := match f with O => (t, -1) | 1%nat => (- t, t) | _ => (-1, - t) end.

Lemma stack3_at {T} NG cols (m0 m1 m2 : mat T) f g j : (f < 3)%nat -> (g < NG)%nat ->
  ment (stack3 NG cols m0 m1 m2) (f * NG + g) j = ment (match f with O => m0 | 1%nat => m1 | _ => m2 end) g j.
Proof.
  intros Hf Hg. cbn [stack3 ment]. destruct f as [|[|[|]]]; [| | |lia].
  - rewrite (proj2 (Nat.ltb_lt _ _)) by lia. f_equal; lia.
  - rewrite (proj2 (Nat.ltb_ge _ _)), (proj2 (Nat.ltb_lt _ _)) by lia. f_equal; lia.
  - rewrite !(proj2 (Nat.ltb_ge _ _)) by lia. f_equal; lia.
Qed.

(* the geometry at one point, from the derivatives of the affine map *)
Section Geometry.
Variables (G : R -> R) (a b c : point).
Local Notation E := (exact G).
Local Notation Xr := ((fst b - fst a) / 2).
Local Notation Xs := ((fst c - fst a) / 2).
Local Notation Yr := ((snd b - snd a) / 2).
Local Notation Ys := ((snd c - snd a) / 2).
Hypothesis Ha : area a b c <> 0.
Lemma geo_J f : p_J (gauss_geometry E f Xr Yr Xs Ys) = area a b c / 2.
Proof. unfold gauss_geometry. cbv zeta. destruct f as [|[|f]]; cbn [p_J exact fsub fmul]; unfold area, cross, pminus; cbn [fst snd]; field. Qed.
Lemma geo_metric f r s r' s' : let g := gauss_geometry E f Xr Yr Xs Ys in
  let p := affine_image a b c r s in let q := affine_image a b c r' s' in
  r' - r = p_rx g * (fst q - fst p) + p_ry g * (snd q - snd p) /\ s' - s = p_sx g * (fst q - fst p) + p_sy g * (snd q - snd p).
Proof.
  intros g p q. assert (EJ : Xr * Ys - Xs * Yr <> 0). { intro X. apply Ha. unfold area, cross, pminus. cbn [fst snd]. lra. }
  assert (Hg : p_rx g = Ys / (Xr * Ys - Xs * Yr) /\ p_ry g = - Xs / (Xr * Ys - Xs * Yr) /\ p_sx g = - Yr / (Xr * Ys - Xs * Yr) /\ p_sy g = Xr / (Xr * Ys - Xs * Yr)).
  { unfold g, gauss_geometry. destruct f as [|[|f]]; repeat split; reflexivity. }
  destruct Hg as (-> & -> & -> & ->). unfold p, q, affine_image. cbn [fst snd].
  set (xr := Xr) in *. set (xs := Xs) in *. set (yr := Yr) in *. set (ys := Ys) in *.
  assert (E1 : fst b - fst a = 2 * xr) by (unfold xr; field). assert (E2 : fst c - fst a = 2 * xs) by (unfold xs; field).
  assert (E3 : snd b - snd a = 2 * yr) by (unfold yr; field). assert (E4 : snd c - snd a = 2 * ys) by (unfold ys; field).
  rewrite E1, E2, E3, E4. clearbody xr xs yr ys. split; field; exact EJ.
Qed.
(* unit normal pointing away from the opposite corner whatever the orientation; the length scale takes the sign of the area *)
Lemma geo_normal f p q t : (f < 3)%nat -> p = match f with O => a | 1%nat => b | _ => c end -> q = match f with O => b | 1%nat => c | _ => a end -> t = match f with O => c | 1%nat => a | _ => b end ->
  let g := gauss_geometry E f Xr Yr Xs Ys in
  outward_normal p q t (p_nx g, p_ny g) /\ p_sJ g = (if Rlt_dec 0 (area a b c) then 1 else -1) * (side_length p q / 2) /\
  (0 < area a b c -> 0 < side_length p q /\ p_nx g = (snd q - snd p) / side_length p q /\ p_ny g = - (fst q - fst p) / side_length p q).
Proof.
  intros Hf Ep Eq Et g.
  assert (EA : area a b c = 2 * (Xr * Ys - Xs * Yr)) by (unfold area, cross, pminus; cbn [fst snd]; field).
  assert (EJ : Xr * Ys - Xs * Yr <> 0) by lra. set (J := Xr * Ys - Xs * Yr) in *.
  (* the vector before normalisation is (qy - py, px - qx) / 2J *)
  assert (Hg : exists ux uy, ux = (snd q - snd p) / 2 / J /\ uy = (fst p - fst q) / 2 / J /\ p_nx g = ux / sqrt (ux * ux + uy * uy) /\ p_ny g = uy / sqrt (ux * ux + uy * uy) /\ p_sJ g = sqrt (ux * ux + uy * uy) * J).
  { unfold g, gauss_geometry. destruct f as [|[|[|]]]; [| | |lia]; cbv zeta iota; cbn [p_nx p_ny p_sJ exact fsub fmul fadd fopp fdiv fsqrt]; fold J; subst p q; eexists; eexists;
      (split; [|split; [|split; [reflexivity|split; reflexivity]]]); clearbody J; field; exact EJ. }
  clearbody g. destruct Hg as (ux & uy & Ux & Uy & -> & -> & ->).
  assert (HL : (snd q - snd p) * (snd q - snd p) + (fst q - fst p) * (fst q - fst p) <> 0).
  { intro X. pose proof (Rle_0_sqr (snd q - snd p)) as Q1. pose proof (Rle_0_sqr (fst q - fst p)) as Q2. unfold Rsqr in *. assert (X1 : (snd q - snd p) * (snd q - snd p) = 0) by lra. assert (X2 : (fst q - fst p) * (fst q - fst p) = 0) by lra.
    apply Rmult_integral in X1. apply Rmult_integral in X2. apply EJ. unfold J. assert (X3 : snd q = snd p) by lra. assert (X4 : fst q = fst p) by lra.
    destruct f as [|[|[|]]]; [| | |lia]; subst p q; cbn [fst snd] in *; nra || (rewrite X3, X4; field) || (rewrite <- X3, <- X4; field). }
  set (S2 := (snd q - snd p) * (snd q - snd p) + (fst q - fst p) * (fst q - fst p)) in *.
  assert (HS : 0 < S2) by (pose proof (Rle_0_sqr (snd q - snd p)); pose proof (Rle_0_sqr (fst q - fst p)); unfold Rsqr, S2 in *; lra).
  assert (Lp : 0 < side_length p q) by (unfold side_length, dot, pminus; cbn [fst snd]; apply sqrt_lt_R0; unfold S2 in HS; lra).
  assert (LL : side_length p q * side_length p q = S2) by (unfold side_length, dot, pminus; cbn [fst snd]; rewrite sqrt_sqrt by (unfold S2 in HS; lra); unfold S2; ring).
  set (L := side_length p q) in *.
  assert (Aj : 0 < Rabs J) by (apply Rabs_pos_lt; exact EJ). assert (AA : Rabs J * Rabs J = J * J) by (rewrite <- Rabs_mult; apply Rabs_right; nra).
  assert (Hn : sqrt (ux * ux + uy * uy) = L / 2 / Rabs J).
  { apply sqrt_lem_1.
    - nra.
    - apply Rlt_le. unfold Rdiv. apply Rmult_lt_0_compat; [lra|apply Rinv_0_lt_compat; exact Aj].
    - rewrite Ux, Uy. transitivity (L * L / (4 * (Rabs J * Rabs J))); [field; lra|]. rewrite LL, AA. unfold S2. field. exact EJ. }
  rewrite Hn.
  assert (Hc : cross (pminus q p) (pminus t p) = 4 * J).
  { subst p q t. unfold J, cross, pminus. destruct f as [|[|[|]]]; [| | |lia]; cbn [fst snd]; field. }
  split.
  - unfold outward_normal. assert (Hdiv : forall u, u / J / (L / 2 / Rabs J) = 2 * u * Rabs J / (J * L)) by (intro; field; repeat split; lra).
    rewrite Ux, Uy, !Hdiv. unfold dot. cbn [fst snd]. split; [|split].
    + transitivity ((S2 * (Rabs J * Rabs J)) / (J * J * (L * L))); [unfold S2; field; split; lra|]. rewrite LL, AA. field. split; [lra|exact EJ].
    + unfold pminus. cbn [fst snd]. field. split; lra.
    + replace (2 * ((snd q - snd p) / 2) * Rabs J / (J * L) * fst (pminus t p) + 2 * ((fst p - fst q) / 2) * Rabs J / (J * L) * snd (pminus t p))
        with (- (cross (pminus q p) (pminus t p) / J * (Rabs J / L))) by (unfold cross, pminus; cbn [fst snd]; field; split; lra).
      rewrite Hc. replace (4 * J / J * (Rabs J / L)) with (4 * (Rabs J / L)) by (field; split; lra).
      assert (0 < Rabs J / L) by (apply Rdiv_lt_0_compat; assumption). lra.
  - split.
    + destruct (Rlt_dec 0 (area a b c)) as [Hp|Hp]; [rewrite Rabs_right by lra|rewrite Rabs_left by lra]; field; exact EJ.
    + intro Hp. split; [exact Lp|]. rewrite Rabs_right, Ux, Uy by lra. split; field; split; lra.
Qed.
End Geometry.

Section Gauss.
Variables (G : R -> R) (solve : mat R -> mat R -> mat R -> outcome (mat R)) (inverse : mat R -> mat R -> outcome (mat R))
  (junk : nat -> nat -> R) (eps : R) (eig : nat -> (nat -> nat -> R) -> list R * (nat -> nat -> R)) (tol : R)
  (N K : nat) (Vert : list R) (EToV : list nat) (el : element (T := R)) (NG : nat).
Hypothesis HB : built G solve inverse junk eps eig tol N K Vert EToV el.
Local Notation E := (exact G).
Local Notation r := (e_r el).
Local Notation s := (e_s el).
Local Notation P := (TriGeoSpec.corner Vert EToV).
Local Notation n := (length (e_r el)).
Variables (z w : list R).
Hypothesis HR : rule NG z w.

Lemma side_len f : length (side_r E f z) = NG /\ length (side_s E f z) = NG.
Proof. destruct HR. destruct f as [|[|f]]; cbn [side_r side_s]; rewrite ?map_length; auto. Qed.
Lemma side_nth f g : (f < 3)%nat -> (g < NG)%nat -> nth g (side_r E f z) 0 = fst (ref_point f (nth g z 0)) /\ nth g (side_s E f z) 0 = snd (ref_point f (nth g z 0)).
Proof.
  intros Hf Hg. destruct HR as [Lz _ _ _ _ _ _].
  assert (Ho : nth g (map (fopp E) z) 0 = - nth g z 0) by (rewrite (nth_indep _ 0 (fopp E 0)) by (rewrite map_length; lia); rewrite map_nth; reflexivity).
  assert (Hm : nth g (map (fun t => fsub E (fmul E (fofn E 0) t) (fofn E 1)) z) 0 = -1).
  { set (h := fun t => fsub E (fmul E (fofn E 0) t) (fofn E 1)). rewrite (nth_indep _ 0 (h 0)) by (rewrite map_length; lia). rewrite map_nth. unfold h, fofn. cbn [exact fsub fmul fofZ Z.of_nat]. cbn. ring. }
  destruct f as [|[|[|]]]; [| | |lia]; cbn [side_r side_s ref_point fst snd]; auto.
Qed.
Lemma side_block f : (f < 3)%nat -> exists IM, computeInterpMatrix E pow junk N (e_Vinv el) (side_r E f z) (side_s E f z) = Ok IM /\ shape IM NG n /\
  forall p g, degree2 N p -> (g < NG)%nat -> sumn n (fun m => ment IM g m * eval2 p (nth m r 0) (nth m s 0)) = eval2 p (fst (ref_point f (nth g z 0))) (snd (ref_point f (nth g z 0))).
Proof.
  intro Hf. destruct (side_len f) as (L1 & L2).
  destruct (C68_interpolation G solve inverse junk eps eig tol N K Vert EToV el HB (side_r E f z) (side_s E f z)) as (IM & EI & SI & HI); [congruence| |].
  { intros g Hg. rewrite L1 in Hg. destruct (side_nth f g Hf Hg) as (-> & ->). destruct HR as [_ _ Hin _ _ _ _]. specialize (Hin g Hg). unfold in_domain.
    destruct f as [|[|[|]]]; [| | |lia]; cbn [ref_point fst snd]; [left|left|right]; lra. }
  exists IM. split; [exact EI|]. rewrite L1 in SI. split; [exact SI|]. intros p g Dp Hg. rewrite (HI p g Dp) by lia. destruct (side_nth f g Hf Hg) as (-> & ->). reflexivity.
Qed.
Lemma ref_image k f t : (k < K)%nat -> (f < 3)%nat -> affine_image (P k 0) (P k 1) (P k 2) (fst (ref_point f t)) (snd (ref_point f t)) = side_point (P k f) (P k ((f + 1) mod 3)) t.
Proof.
  intros Hk Hf. pose proof (edge_image K Vert EToV k Hk f (match f with O => t | _ => - t end) Hf) as X.
  replace (match f with O => match f with O => t | S _ => - t end | S _ => - match f with O => t | S _ => - t end end) with t in X by (destruct f; ring).
  rewrite <- X. destruct f as [|[|[|]]]; [| | |lia]; cbn [ref_point edge fst snd]; f_equal; ring.
Qed.

Variables I0 I1 I2 : mat R.
Hypothesis HI : forall f, (f < 3)%nat -> forall p g, degree2 N p -> (g < NG)%nat ->
  sumn n (fun m => ment (match f with O => I0 | 1%nat => I1 | _ => I2 end) g m * eval2 p (nth m r 0) (nth m s 0)) = eval2 p (fst (ref_point f (nth g z 0))) (snd (ref_point f (nth g z 0))).
Local Notation I := (stack3 NG n I0 I1 I2).

Lemma interp_ref f g p : (f < 3)%nat -> (g < NG)%nat -> degree2 N p ->
  sumn n (fun m => ment I (f * NG + g) m * eval2 p (nth m r 0) (nth m s 0)) = eval2 p (fst (ref_point f (nth g z 0))) (snd (ref_point f (nth g z 0))).
Proof. intros Hf Hg Dp. rewrite <- HI by assumption. apply sumn_ext. intros m Hm. rewrite stack3_at by assumption. reflexivity. Qed.
(* polynomials in the physical coordinates *)
Lemma interp_phys k f g W : (k < K)%nat -> (f < 3)%nat -> (g < NG)%nat -> degree2 N W ->
  sumn n (fun m => ment I (f * NG + g) m * at_point W (ment (e_x el) m k, ment (e_y el) m k)) = at_point W (side_point (P k f) (P k ((f + 1) mod 3)) (nth g z 0)).
Proof.
  intros Hk Hf Hg DW. destruct (to_reference N Vert EToV k W DW) as (p & Dp & Hp & _).
  rewrite <- (ref_image k f _ Hk Hf), <- Hp, <- (interp_ref f g p Hf Hg Dp). apply sumn_ext. intros m Hm. f_equal. rewrite Hp.
  destruct (element_ok _ _ _ _ _ _ _ _ _ _ _ _ HB) as [lr _ _ _ _ _ _ _ _ _ _ _ _ _ (_ & _ & x) _ _]. rewrite x by (auto; lia). reflexivity.
Qed.
Lemma order1 : (1 <= N)%nat. Proof. destruct HB. assumption. Qed.
Lemma coord_poly : degree2 N [(1%nat, 0%nat, 1)] /\ degree2 N [(0%nat, 1%nat, 1)].
Proof. pose proof order1. split; constructor; cbn; try lia; constructor. Qed.
Lemma interp_xy k f g : (k < K)%nat -> (f < 3)%nat -> (g < NG)%nat ->
  (ment (mmul E I (e_x el)) (f * NG + g) k, ment (mmul E I (e_y el)) (f * NG + g) k) = side_point (P k f) (P k ((f + 1) mod 3)) (nth g z 0).
Proof.
  intros Hk Hf Hg. destruct coord_poly as (D1 & D2). cbn [mmul ment]. rewrite !fsum_exact. cbn [exact fmul]. change (mcols I) with n.
  pose proof (interp_phys k f g _ Hk Hf Hg D1) as X. pose proof (interp_phys k f g _ Hk Hf Hg D2) as Y. unfold at_point in X, Y. cbn [eval2 fst snd pow] in X, Y.
  set (Q := side_point _ _ _) in *. destruct Q as [q1 q2]. cbn [fst snd] in X, Y. f_equal.
  - erewrite sumn_ext; [rewrite X; ring|]. intros m Hm. cbv beta. ring.
  - erewrite sumn_ext; [rewrite Y; ring|]. intros m Hm. cbv beta. ring.
Qed.

(* the derivatives of the coordinates at the Gauss points *)
Lemma interp_one f g : (f < 3)%nat -> (g < NG)%nat -> sumn n (fun m => ment I (f * NG + g) m) = 1.
Proof.
  intros Hf Hg. assert (D : degree2 N [(0%nat, 0%nat, 1)]) by (constructor; [cbn; lia|constructor]). pose proof (interp_ref f g _ Hf Hg D) as X. cbn [eval2 pow] in X.
  erewrite sumn_ext; [rewrite X; ring|]. intros. cbv beta. ring.
Qed.
Lemma deriv_const (D zz : mat R) k f g v : mcols D = n -> (f < 3)%nat -> (g < NG)%nat -> (forall m, (m < n)%nat -> ment (mmul E D zz) m k = v) ->
  fsum E (mcols (mmul E (mkmat NG (mcols I) (fun i j => ment I (f * NG + i)%nat j)) D)) (fun j => fmul E (ment (mmul E (mkmat NG (mcols I) (fun i j => ment I (f * NG + i)%nat j)) D) g j) (ment zz j k)) = v.
Proof.
  intros HD Hf Hg Hv. cbn [mmul mcols]. rewrite HD, fsum_exact. change (fmul E) with Rmult. change (mcols I) with n.
  rewrite (sumn_ext _ _ (fun j => sumn n (fun m => ment I (f * NG + g) m * (ment D m j * ment zz j k)))).
  2:{ intros j Hj. cbn [mmul ment mcols]. rewrite fsum_exact. change (fmul E) with Rmult. rewrite Rmult_comm, <- sumn_scal. apply sumn_ext. intros. cbv beta. ring. }
  rewrite sumn_swap. rewrite (sumn_ext _ _ (fun m => v * ment I (f * NG + g) m)).
  - rewrite sumn_scal, interp_one by assumption. ring.
  - intros m Hm. rewrite <- (Hv m Hm). cbn [mmul ment]. rewrite fsum_exact, HD. change (fmul E) with Rmult. rewrite sumn_scal. ring.
Qed.
Lemma sides_ok (junkg : nat -> nat -> gpoint R) : exists g, gauss_sides E NG K I (e_Dr el) (e_Ds el) (e_x el) (e_y el) (mkmat (3 * NG) K junkg) = Ok g /\ mrows g = (3 * NG)%nat /\ mcols g = K /\
  forall f k i, (f < 3)%nat -> (k < K)%nat -> (i < NG)%nat -> ment g (f * NG + i) k =
    gauss_geometry E f ((fst (P k 1) - fst (P k 0)) / 2) ((snd (P k 1) - snd (P k 0)) / 2) ((fst (P k 2) - fst (P k 0)) / 2) ((snd (P k 2) - snd (P k 0)) / 2).
Proof.
  unfold gauss_sides, gauss_side. cbv zeta. rewrite for3.
  destruct (element_ok _ _ _ _ _ _ _ _ _ _ _ _ HB) as [lr ls nodes masks edge_i pts SV SVi V Vi Vi' SL lift D x metric nrm].
  destruct D as (Vr & Vs & S1 & S2 & _ & _ & M1 & M2 & _). destruct x as (Sx & Sy & Hxy). destruct HB.
  pose proof (fun i k Hi Hk => metric_ok G N K Vert EToV r s b_order ltac:(congruence) (e_Dr el) (e_Ds el) (e_x el) (e_y el) ltac:(rewrite lr; exact S1) ltac:(rewrite lr; exact S2) M1 M2 ltac:(rewrite lr; exact Hxy) i k Hi Hk) as MK.
  destruct S1 as (_ & S1), S2 as (_ & S2). rewrite <- lr in S1, S2.
  match goal with |- context [foldM ?bd (triples 3 K NG) ?st] => edestruct (fold_cells (fun m : mat (gpoint R) => mrows m = (3 * NG)%nat /\ mcols m = K) (fun m a => if (snd a <? NG)%nat then Some (ment m (fst (fst a) * NG + snd a)%nat (snd (fst a))) else None)
    (fun a => if (snd a <? NG)%nat then Some (junkg (fst (fst a) * NG + snd a)%nat (snd (fst a))) else None)
    (fun a => let k := snd (fst a) in Some (gauss_geometry E (fst (fst a)) ((fst (P k 1) - fst (P k 0)) / 2) ((snd (P k 1) - snd (P k 0)) / 2) ((fst (P k 2) - fst (P k 0)) / 2) ((snd (P k 2) - snd (P k 0)) / 2))) bd (triples 3 K NG)) with (s := st) as (g & Eg & (G1 & G2) & Hg & _) end.
  - apply (triples_nodup 3 K NG).
  - intros [[f k] i] m Ha (R1 & R2) _. apply triples_in in Ha as (Hf & Hk & Hi). cbn [fst snd]. unfold mset, Loops.inb. rewrite R1, R2.
    rewrite !(proj2 (Nat.ltb_lt _ _)) by nia. cbn [andb]. eexists. split; [reflexivity|]. split; [split; reflexivity|]. split.
    + cbn [ment]. rewrite !Nat.eqb_refl. cbn [andb]. f_equal.
      assert (MD : forall m, (m < n)%nat -> ment (mmul E (e_Dr el) (e_x el)) m k = (fst (P k 1) - fst (P k 0)) / 2 /\ ment (mmul E (e_Ds el) (e_x el)) m k = (fst (P k 2) - fst (P k 0)) / 2 /\
        ment (mmul E (e_Dr el) (e_y el)) m k = (snd (P k 1) - snd (P k 0)) / 2 /\ ment (mmul E (e_Ds el) (e_y el)) m k = (snd (P k 2) - snd (P k 0)) / 2).
      { intros m' Hm'. destruct (MK m' k Hm' Hk) as (X1 & X2 & X3 & X4 & _). auto. }
      rewrite (deriv_const (e_Dr el) (e_x el) k f i ((fst (P k 1) - fst (P k 0)) / 2)) by (auto; intros; apply MD; assumption).
      rewrite (deriv_const (e_Dr el) (e_y el) k f i ((snd (P k 1) - snd (P k 0)) / 2)) by (auto; intros; apply MD; assumption).
      rewrite (deriv_const (e_Ds el) (e_x el) k f i ((fst (P k 2) - fst (P k 0)) / 2)) by (auto; intros; apply MD; assumption).
      rewrite (deriv_const (e_Ds el) (e_y el) k f i ((snd (P k 2) - snd (P k 0)) / 2)) by (auto; intros; apply MD; assumption).
      reflexivity.
    + intros [[f' k'] i'] Hne. cbn [fst snd ment]. destruct (Nat.ltb_spec i' NG) as [Hi'|]; [|reflexivity]. f_equal.
      destruct (Nat.eqb_spec (f' * NG + i') (f * NG + i)) as [Ef|]; [|reflexivity]. destruct (Nat.eqb_spec k' k) as [->|]; [|reflexivity]. exfalso. apply Hne.
      assert (f' = f) by nia. subst f'. assert (i' = i) by lia. subst i'. reflexivity.
  - split; reflexivity.
  - reflexivity.
  - exists g. split; [exact Eg|]. split; [exact G1|]. split; [exact G2|]. intros f k i Hf Hk Hi. specialize (Hg (f, k, i) (proj2 (triples_in 3 K NG f k i) (conj Hf (conj Hk Hi)))). cbn [fst snd] in Hg.
    rewrite (proj2 (Nat.ltb_lt _ _)) in Hg by exact Hi. cbv zeta in Hg. congruence.
Qed.
End Gauss.

Section Run.
Variables (G : R -> R) (solve : mat R -> mat R -> mat R -> outcome (mat R)) (inverse : mat R -> mat R -> outcome (mat R))
  (junk : nat -> nat -> R) (eps : R) (eig : nat -> (nat -> nat -> R) -> list R * (nat -> nat -> R)) (tol : R)
  (N K : nat) (Vert : list R) (EToV : list nat) (el : element (T := R)) (E2E E2F : list nat) (bcVec : list Z) (NG : nat) (junkg : nat -> nat -> gpoint R) (junkn : nat -> nat).
Hypothesis HR : gauss_ready G solve inverse junk eps eig tol N K Vert EToV el E2E E2F bcVec NG.
Local Notation E := (exact G).
Local Notation P := (TriGeoSpec.corner Vert EToV).
Local Notation n := (length (e_r el)).

Definition geo (f k : nat) : gpoint R :=
  gauss_geometry E f ((fst (P k 1) - fst (P k 0)) / 2) ((snd (P k 1) - snd (P k 0)) / 2) ((fst (P k 2) - fst (P k 0)) / 2) ((snd (P k 2) - snd (P k 0)) / 2).
Record run_facts (gf : gauss_faces R) (z w : list R) : Prop := RunFacts {
  rf_shape : forall m, In m [gf_nx gf; gf_ny gf; gf_sJ gf; gf_J gf; gf_rx gf; gf_ry gf; gf_sx gf; gf_sy gf; gf_x gf; gf_y gf; gf_W gf] -> shape m (3 * NG) K;
  rf_interp_shape : shape (gf_interp gf) (3 * NG) n;
  rf_xy : forall f k g, (f < 3)%nat -> (k < K)%nat -> (g < NG)%nat ->
    (ment (gf_x gf) (f * NG + g) k, ment (gf_y gf) (f * NG + g) k) = side_point (P k f) (P k ((f + 1) mod 3)) (nth g z 0);
  rf_geo : forall f k g, (f < 3)%nat -> (k < K)%nat -> (g < NG)%nat -> let i := (f * NG + g)%nat in
    Gpoint (ment (gf_nx gf) i k) (ment (gf_ny gf) i k) (ment (gf_sJ gf) i k) (ment (gf_J gf) i k) (ment (gf_rx gf) i k) (ment (gf_ry gf) i k) (ment (gf_sx gf) i k) (ment (gf_sy gf) i k) = geo f k;
  rf_W : forall f k g, (f < 3)%nat -> (k < K)%nat -> (g < NG)%nat -> ment (gf_W gf) (f * NG + g) k = nth g w 0 * p_sJ (geo f k);
  rf_interp : forall f k g W, (f < 3)%nat -> (k < K)%nat -> (g < NG)%nat -> degree2 N W ->
    sumn n (fun m => ment (gf_interp gf) (f * NG + g) m * at_point W (ment (e_x el) m k, ment (e_y el) m k)) = at_point W (side_point (P k f) (P k ((f + 1) mod 3)) (nth g z 0));
  rf_maps : exists mapB, gaussFaceMaps junkn 3 K NG E2E E2F bcVec = Ok (gf_mapM gf, gf_mapP gf, mapB, gf_bc gf) }.

Theorem gauss_run : exists gf z w,
  buildGaussFaceNodes E pow junk eps eig N K NG (e_Vinv el) (e_Dr el) (e_Ds el) (e_x el) (e_y el) junkg junkn E2E E2F bcVec = Ok gf /\ rule NG z w /\ run_facts gf z w.
Proof.
  destruct HR as [HB [LE LF HN HO HA] HT HP He]. unfold buildGaussFaceNodes. rewrite (proj2 (Nat.eqb_neq _ _)) by lia.
  assert (HBc := HB). destruct HBc.
  destruct (gauss_rule G eps eig NG b_gamma (proj1 b_eps) HP He) as (z & w & EQ & HRu). change (fofn E 0) with 0. rewrite EQ.
  destruct (side_block G solve inverse junk eps eig tol N K Vert EToV el NG HB z w HRu 0 ltac:(lia)) as (I0 & -> & SI0 & H0). cbn [bind].
  destruct (side_block G solve inverse junk eps eig tol N K Vert EToV el NG HB z w HRu 1 ltac:(lia)) as (I1 & -> & SI1 & H1). cbn [bind].
  destruct (side_block G solve inverse junk eps eig tol N K Vert EToV el NG HB z w HRu 2 ltac:(lia)) as (I2 & -> & SI2 & H2). cbn [bind].
  assert (HI : forall f, (f < 3)%nat -> forall p g, degree2 N p -> (g < NG)%nat ->
    sumn n (fun m => ment (match f with O => I0 | 1%nat => I1 | _ => I2 end) g m * eval2 p (nth m (e_r el) 0) (nth m (e_s el) 0)) = eval2 p (fst (ref_point f (nth g z 0))) (snd (ref_point f (nth g z 0)))).
  { intros f Hf p g Dp Hg. destruct f as [|[|[|]]]; [| | |lia]; auto. }
  assert (EVi : mcols (e_Vinv el) = n) by (destruct (element_ok _ _ _ _ _ _ _ _ _ _ _ _ HB) as [lr _ _ _ _ _ _ (_ & SVi) _ _ _ _ _ _ _ _ _]; congruence). rewrite EVi.
  destruct (sides_ok G solve inverse junk eps eig tol N K Vert EToV el NG HB z I0 I1 I2 HI junkg) as (g & -> & G1 & G2 & Hg). cbn [bind].
  assert (HE2 : forall k, In k E2E -> (k < K)%nat).
  { intros k Hk. destruct (In_nth_error _ _ Hk) as (i & Hi). assert (Hl : (i < 3 * K)%nat) by (rewrite <- LE; apply nth_error_Some; congruence).
    destruct (HN i Hl) as (h & (L1 & _) & Nb). unfold entry in L1. rewrite Hi in L1. assert (X : k = (h / 3)%nat) by congruence. rewrite X. apply Nat.div_lt_upper_bound; [lia|]. eapply nbr_bound; eassumption. }
  assert (HF2 : forall f, In f E2F -> (f < 3)%nat).
  { intros f Hf. destruct (In_nth_error _ _ Hf) as (i & Hi). assert (Hl : (i < 3 * K)%nat) by (rewrite <- LF; apply nth_error_Some; congruence).
    destruct (HN i Hl) as (h & (_ & L2) & Nb). unfold entry in L2. rewrite Hi in L2. assert (X : f = (h mod 3)%nat) by congruence. rewrite X. apply Nat.mod_upper_bound. lia. }
  destruct (C37_gauss_maps junkn 3 K NG E2E E2F bcVec LE HE2 LF HF2 HT) as (mapM & mapP & mapB & bc & EM & _). rewrite EM. cbn [bind].
  eexists. exists z, w. split; [reflexivity|]. split; [exact HRu|].
  assert (HGe : forall f k i, (f < 3)%nat -> (k < K)%nat -> (i < NG)%nat -> ment g (f * NG + i) k = geo f k) by exact Hg.
  destruct (element_ok _ _ _ _ _ _ _ _ _ _ _ _ HB) as [lr _ _ _ _ _ _ _ _ _ _ _ _ _ ((Sx1 & Sx2) & (Sy1 & Sy2) & _) _ _].
  split; cbn [gf_nx gf_ny gf_sJ gf_J gf_rx gf_ry gf_sx gf_sy gf_x gf_y gf_W gf_interp gf_mapM gf_mapP gf_bc].
  - intros m Hm. cbn [In] in Hm. repeat destruct Hm as [<-|Hm]; try contradiction; split; cbn [mproj mmul mzip stack3 mrows mcols]; auto.
  - split; reflexivity.
  - intros. apply (interp_xy G solve inverse junk eps eig tol N K Vert EToV el NG HB z I0 I1 I2 HI); assumption.
  - intros f k i Hf Hk Hi. cbn [mproj ment]. rewrite (HGe f k i Hf Hk Hi). destruct (geo f k); reflexivity.
  - intros f k i Hf Hk Hi. cbn [mzip ment]. rewrite stack3_at by assumption. cbn [mproj ment]. rewrite (HGe f k i Hf Hk Hi).
    replace (match f with O => _ | _ => _ end) with (mkmat NG K (fun i j => fmul E (nth i w (fofn E 0)) (fadd E (fmul E (fofn E 0) (fofn E j)) (fofn E 1)))) by (destruct f as [|[|]]; reflexivity).
    cbn [ment]. change (fmul E) with Rmult. change (fadd E) with Rplus. change (fofn E 0) with 0. change (fofn E 1) with 1. ring.
  - intros. apply (interp_phys G solve inverse junk eps eig tol N K Vert EToV el NG HB z I0 I1 I2 HI); assumption.
  - exists mapB. exact EM.
Qed.

(* the side quadrature *)
Lemma quad_side z w k f p : rule NG z w -> degree2 (2 * NG - 1) p -> (1 <= NG)%nat ->
  side_integral (P k f) (P k ((f + 1) mod 3)) (fun t => at_point p (side_point (P k f) (P k ((f + 1) mod 3)) t))
    (sumn NG (fun g => nth g w 0 * (side_length (P k f) (P k ((f + 1) mod 3)) / 2) * at_point p (side_point (P k f) (P k ((f + 1) mod 3)) (nth g z 0)))).
Proof.
  intros HRu Dp H1. set (a := P k f). set (b := P k ((f + 1) mod 3)).
  destruct (spoly_restrict _ p (fst a + (fst b - fst a) / 2) ((fst b - fst a) / 2) (snd a + (snd b - snd a) / 2) ((snd b - snd a) / 2) Dp) as (cs & Lc & Hc).
  assert (Hs : forall t, at_point p (side_point a b t) = peval cs t). { intro t. rewrite <- Hc. unfold at_point, side_point. cbn [fst snd]. f_equal; field. }
  exists (sumn NG (fun g => nth g w 0 * peval cs (nth g z 0))). split.
  - eapply integral_ext; [|apply (ru_exact _ _ _ HRu cs); lia]. intro t. cbv beta. symmetry. apply Hs.
  - rewrite <- sumn_scal. apply sumn_ext. intros g Hg. rewrite Hs. ring.
Qed.
End Run.
