(* GaussFaceProps.v - C85: the Gauss points on the sides of the triangles. *)
From Coq Require Import ZArith List Lia Bool Arith.
From Verif Require Import Base Loops Num JacobiModel JacobiSpec JacobiQuadProofs JacobiExactProofs JacobiProps DenseSpec TriModel TriSpec TriGeoSpec TriSetup TriWitness TriDGSpec TriDGProofs
  Maps2DModel Maps2DSpec Maps2DProofs Maps2DProps MeshSpec TriMapsProofs TriMapsProps GaussFaceModel GaussFaceSpec GaussRuleProofs GaussFaceProofs.
From Coq Require Import Reals Lra.
Import ListNotations.
Local Open Scope R_scope.

Section C85.
Variables (G : R -> R) (solve : mat R -> mat R -> mat R -> outcome (mat R)) (inverse : mat R -> mat R -> outcome (mat R))
  (junk : nat -> nat -> R) (eps : R) (eig : nat -> (nat -> nat -> R) -> list R * (nat -> nat -> R)) (tol : R)
  (N K : nat) (Vert : list R) (EToV : list nat) (el : element (T := R)) (E2E E2F : list nat) (bcVec : list Z) (NG : nat)
  (junkg : nat -> nat -> gpoint R) (junkn : nat -> nat) (gf : gauss_faces R).
Local Notation ready := (gauss_ready G solve inverse junk eps eig tol N K Vert EToV el E2E E2F bcVec NG).
Local Notation run := (buildGaussFaceNodes (exact G) pow junk eps eig N K NG (e_Vinv el) (e_Dr el) (e_Ds el) (e_x el) (e_y el) junkg junkn E2E E2F bcVec).
Local Notation start := (side_start Vert EToV).
Local Notation stop := (side_end Vert EToV).

Lemma facts_of : ready -> run = Ok gf -> exists z w, rule NG z w /\ run_facts G N K Vert EToV el E2E E2F bcVec NG junkn gf z w.
Proof.
  intros HR Hrun. destruct (gauss_run G solve inverse junk eps eig tol N K Vert EToV el E2E E2F bcVec NG junkg junkn HR) as (gf' & z & w & E & A & B).
  rewrite Hrun in E. injection E as <-. exists z, w. auto.
Qed.

(* The points: the same NG increasing parameters strictly inside (-1,1), symmetric about 0, on every side, counted from the
   corner where the side starts. *)
Theorem C85_points : ready -> (exists gf', run = Ok gf') /\ (run = Ok gf ->
  (forall m, In m [gf_nx gf; gf_ny gf; gf_sJ gf; gf_J gf; gf_rx gf; gf_ry gf; gf_sx gf; gf_sy gf; gf_x gf; gf_y gf; gf_W gf] -> shape m (3 * NG) K) /\
  exists z, length z = NG /\ (forall g, (g < NG)%nat -> -1 < nth g z 0 < 1 /\ nth (NG - 1 - g) z 0 = - nth g z 0) /\
    (forall g, (S g < NG)%nat -> nth g z 0 < nth (S g) z 0) /\
    forall f k g, (f < 3)%nat -> (k < K)%nat -> (g < NG)%nat ->
      (ment (gf_x gf) (f * NG + g) k, ment (gf_y gf) (f * NG + g) k) = side_point (start k f) (stop k f) (nth g z 0)).
Proof.
  intro HR. split.
  - destruct (gauss_run G solve inverse junk eps eig tol N K Vert EToV el E2E E2F bcVec NG junkg junkn HR) as (gf' & z & w & E & _). exists gf'. exact E.
  - intro Hrun. destruct (facts_of HR Hrun) as (z & w & [Lz Lw Hin Hp Hi Hs He] & [S1 S2 Hxy HG HW HI HM]). split; [exact S1|]. exists z. split; [exact Lz|]. split; [auto|]. split; [exact Hi|]. exact Hxy.
Qed.

(* The interpolation matrix takes the nodal values of any polynomial of degree at most N to its values at the Gauss points. *)
Theorem C85_interpolation : ready -> run = Ok gf -> shape (gf_interp gf) (3 * NG) (length (e_r el)) /\
  forall f k g p, (f < 3)%nat -> (k < K)%nat -> (g < NG)%nat -> degree2 N p ->
    sumn (length (e_r el)) (fun m => ment (gf_interp gf) (f * NG + g) m * eval2 p (ment (e_x el) m k) (ment (e_y el) m k)) =
    eval2 p (ment (gf_x gf) (f * NG + g) k) (ment (gf_y gf) (f * NG + g) k).
Proof.
  intros HR Hrun. destruct (facts_of HR Hrun) as (z & w & _ & [S1 S2 Hxy HG HW HI HM]). split; [exact S2|]. intros f k g p Hf Hk Hg Dp.
  pose proof (HI f k g p Hf Hk Hg Dp) as X. rewrite <- (Hxy f k g Hf Hk Hg) in X. exact X.
Qed.

(* The geometry: unit normals pointing out of the element, half the side length (negative on an element whose corners run
   clockwise), half the area, and the derivatives of the reference coordinates. *)
Theorem C85_geometry : ready -> run = Ok gf -> forall f k g, (f < 3)%nat -> (k < K)%nat -> (g < NG)%nat -> let i := (f * NG + g)%nat in
  outward_normal (start k f) (stop k f) (side_opposite Vert EToV k f) (ment (gf_nx gf) i k, ment (gf_ny gf) i k) /\
  (0 < cell_area Vert EToV k -> ment (gf_sJ gf) i k = side_length (start k f) (stop k f) / 2) /\
  (cell_area Vert EToV k < 0 -> ment (gf_sJ gf) i k = - (side_length (start k f) (stop k f) / 2)) /\
  ment (gf_J gf) i k = cell_area Vert EToV k / 2 /\
  forall r s r' s', let p := cell_image Vert EToV k r s in let q := cell_image Vert EToV k r' s' in
    r' - r = ment (gf_rx gf) i k * (fst q - fst p) + ment (gf_ry gf) i k * (snd q - snd p) /\
    s' - s = ment (gf_sx gf) i k * (fst q - fst p) + ment (gf_sy gf) i k * (snd q - snd p).
Proof.
  intros HR Hrun f k g Hf Hk Hg i. destruct (facts_of HR Hrun) as (z & w & _ & [S1 S2 Hxy HG HW HI HM]).
  pose proof (HG f k g Hf Hk Hg) as X. cbv zeta in X. fold i in X. assert (HA : cell_area Vert EToV k <> 0) by (destruct HR as [_ [_ _ _ _ HA] _ _ _]; apply HA; exact Hk).
  set (a := TriGeoSpec.corner Vert EToV k 0) in *. set (b := TriGeoSpec.corner Vert EToV k 1) in *. set (c := TriGeoSpec.corner Vert EToV k 2) in *. change (area a b c <> 0) in HA.
  assert (EN := geo_normal G a b c HA f (start k f) (stop k f) (side_opposite Vert EToV k f) Hf).
  destruct EN as (N1 & N2 & _); [destruct f as [|[|[|]]]; [| | |lia]; reflexivity|destruct f as [|[|[|]]]; [| | |lia]; reflexivity|destruct f as [|[|[|]]]; [| | |lia]; reflexivity|].
  pose proof (geo_J G a b c f) as NJ. pose proof (fun r s r' s' => geo_metric G a b c HA f r s r' s') as NM. unfold geo in X. fold a b c in X. cbv zeta in N1, N2, NM. rewrite <- X in N1, N2, NJ, NM. cbn [p_nx p_ny p_sJ p_J p_rx p_ry p_sx p_sy] in *.
  split; [exact N1|]. split; [intro Hp; change (0 < area a b c) in Hp; rewrite N2; destruct (Rlt_dec 0 (area a b c)); lra|].
  split; [intro Hp; change (area a b c < 0) in Hp; rewrite N2; destruct (Rlt_dec 0 (area a b c)); lra|]. split; [exact NJ|]. exact NM.
Qed.

(* The weights: on an element whose corners run counter-clockwise they are positive and integrate polynomials of degree up to
   2 NG - 1 along the side exactly; on a clockwise element they have the opposite sign. *)
Theorem C85_quadrature : ready -> run = Ok gf -> forall f k p, (f < 3)%nat -> (k < K)%nat -> degree2 (2 * NG - 1) p ->
  let W g := ment (gf_W gf) (f * NG + g) k in
  let total := sumn NG (fun g => W g * eval2 p (ment (gf_x gf) (f * NG + g) k) (ment (gf_y gf) (f * NG + g) k)) in
  (0 < cell_area Vert EToV k -> (forall g, (g < NG)%nat -> 0 < W g) /\
     side_integral (start k f) (stop k f) (fun t => at_point p (side_point (start k f) (stop k f) t)) total) /\
  (cell_area Vert EToV k < 0 -> (forall g, (g < NG)%nat -> W g < 0) /\
     side_integral (start k f) (stop k f) (fun t => at_point p (side_point (start k f) (stop k f) t)) (- total)).
Proof.
  intros HR Hrun f k p Hf Hk Dp W total. assert (HR' := HR). destruct HR' as [HB [_ _ _ _ HA] _ HP _].
  destruct (facts_of HR Hrun) as (z & w & HRu & [S1 S2 Hxy HG HW HI HM]).
  pose proof (fun g Hg => C85_geometry HR Hrun f k g Hf Hk Hg) as HGe. cbv zeta in HGe.
  pose proof (quad_side Vert EToV NG z w k f p HRu Dp HP) as HQ. 
  assert (LL : 0 < side_length (start k f) (stop k f)). { apply side_pos. destruct (area_sides _ _ _ (HA k Hk)) as (X1 & X2 & X3). unfold side_start, side_end. destruct f as [|[|[|]]]; [| | |lia]; assumption. }
  change (TriGeoSpec.corner Vert EToV k f) with (start k f) in *. change (TriGeoSpec.corner Vert EToV k ((f + 1) mod 3)) with (stop k f) in *.
  assert (HWs : forall g, (g < NG)%nat -> W g = nth g w 0 * ment (gf_sJ gf) (f * NG + g) k).
  { intros g Hg. unfold W. rewrite HW by assumption. pose proof (HG f k g Hf Hk Hg) as X. cbv zeta in X. rewrite <- X. reflexivity. }
  assert (Hpt : forall g, (g < NG)%nat -> eval2 p (ment (gf_x gf) (f * NG + g) k) (ment (gf_y gf) (f * NG + g) k) = at_point p (side_point (start k f) (stop k f) (nth g z 0))).
  { intros g Hg. pose proof (Hxy f k g Hf Hk Hg) as X. unfold side_start, side_end. rewrite <- X. reflexivity. }
  split; intro Ha.
  - assert (HS : forall g, (g < NG)%nat -> W g = nth g w 0 * (side_length (start k f) (stop k f) / 2)) by (intros g Hg; rewrite HWs by exact Hg; f_equal; apply HGe; assumption). split.
    + intros g Hg. rewrite HS by exact Hg. pose proof (ru_pos _ _ _ HRu g Hg). apply Rmult_lt_0_compat; lra.
    + replace total with (sumn NG (fun g => nth g w 0 * (side_length (start k f) (stop k f) / 2) * at_point p (side_point (start k f) (stop k f) (nth g z 0)))); [exact HQ|].
      apply sumn_ext. intros g Hg. rewrite HS, Hpt by exact Hg. reflexivity.
  - assert (HS : forall g, (g < NG)%nat -> W g = nth g w 0 * - (side_length (start k f) (stop k f) / 2)) by (intros g Hg; rewrite HWs by exact Hg; f_equal; apply HGe; assumption). split.
    + intros g Hg. rewrite HS by exact Hg. pose proof (ru_pos _ _ _ HRu g Hg). assert (0 < nth g w 0 * (side_length (start k f) (stop k f) / 2)) by (apply Rmult_lt_0_compat; lra). lra.
    + replace (- total) with (sumn NG (fun g => nth g w 0 * (side_length (start k f) (stop k f) / 2) * at_point p (side_point (start k f) (stop k f) (nth g z 0)))); [exact HQ|].
      unfold total. replace (- sumn NG _) with (-1 * sumn NG (fun g => W g * eval2 p (ment (gf_x gf) (f * NG + g) k) (ment (gf_y gf) (f * NG + g) k))) by ring. rewrite <- sumn_scal.
      apply sumn_ext. intros g Hg. rewrite HS, Hpt by exact Hg. ring.
Qed.

(* The map to the other side of a face: an involution that pairs Gauss points at the same place, leaves exactly the points of
   boundary sides where they are, and (on counter-clockwise elements) joins opposite normals and equal weights. The tag table
   lists exactly the points of the boundary sides with the tag. *)
Theorem C85_matching : ready -> run = Ok gf -> gf_mapM gf = seq 0 (3 * NG * K) /\ length (gf_mapP gf) = (3 * NG * K)%nat /\
  forall f k g, (f < 3)%nat -> (k < K)%nat -> (g < NG)%nat -> let i := gauss_number NG g f k in
  (forall M, gauss_at NG M i = ment M (f * NG + g) k) /\
  exists j, entry (gf_mapP gf) i j /\ entry (gf_mapP gf) j i /\
    gauss_at NG (gf_x gf) j = gauss_at NG (gf_x gf) i /\ gauss_at NG (gf_y gf) j = gauss_at NG (gf_y gf) i /\
    (j = i <-> forall h, ~ shares 3 (map Z.of_nat EToV) (3 * k + f) h) /\
    (j <> i -> (forall k', (k' < K)%nat -> 0 < cell_area Vert EToV k') ->
       gauss_at NG (gf_nx gf) j = - gauss_at NG (gf_nx gf) i /\ gauss_at NG (gf_ny gf) j = - gauss_at NG (gf_ny gf) i /\ gauss_at NG (gf_W gf) j = gauss_at NG (gf_W gf) i) /\
    (forall t, (exists l, hfind (gf_bc gf) t = Some l /\ In i l) <-> j = i /\ entry bcVec (3 * k + f) t).
Proof.
  intros HR Hrun. assert (HR' := HR). destruct HR' as [HB [LE LF HN HO HA] HT HP _].
  destruct (facts_of HR Hrun) as (z & w & HRu & [S1 S2 Hxy HG HW HI (mapB & HM)]).
  pose proof (tri_tables _ _ _ _ _ _ _ _ _ _ _ _ HB _ _ LE LF HN) as [_ _ _ _ (_ & TE) (_ & TF) _]. 
  destruct (C37_gauss_maps junkn 3 K NG E2E E2F bcVec LE TE LF TF HT) as (mM & mP & mB & bc & Em & M1 & M2 & M3 & _ & _ & M4 & _).
  rewrite HM in Em. injection Em as E1 E2 E3 E4. rewrite <- E1 in M1. rewrite <- E2 in M2, M3. rewrite <- E4 in M4. clear mM mP mB bc E1 E2 E3 E4.
  split; [rewrite M1; f_equal; lia|]. split; [rewrite M2; lia|].
  assert (Hat : forall M f k g, (f < 3)%nat -> (g < NG)%nat -> gauss_at NG M (gauss_number NG g f k) = ment M (f * NG + g) k).
  { intros M f k g Hf Hg. unfold gauss_at, gauss_number. assert (g + f * NG < 3 * NG)%nat by (destruct f as [|[|[|]]]; lia).
    replace (g + f * NG + k * 3 * NG)%nat with (g + f * NG + k * (3 * NG))%nat by lia. rewrite Nat.mod_add, Nat.div_add, Nat.mod_small, Nat.div_small by lia. f_equal; lia. }
  intros f k g Hf Hk Hg i. split; [intro M; apply Hat; assumption|].
  assert (Hex : exists k2 f2, entry E2E (3 * k + f) k2 /\ entry E2F (3 * k + f) f2).
  { destruct (HN (3 * k + f)%nat ltac:(lia)) as (h & (L1 & L2) & _). eauto. }
  destruct Hex as (k2 & f2 & HE1 & HE2).
  destruct (tri_neighbour_corners _ _ _ _ _ _ _ _ _ _ _ _ HB E2E E2F LE LF HN HO HA f k k2 f2 Hf Hk HE1 HE2) as (Hf2 & Hk2 & Hc).
  pose proof (M3 g f k k2 f2 Hg Hf Hk HE1 HE2) as Hj. change (face_id 3 NG g f k) with i in Hj.
  destruct Hc as [(-> & -> & Hns)|(Hne & Hsh & C1 & C2)].
  - rewrite Nat.eqb_refl in Hj. exists i. split; [exact Hj|]. split; [exact Hj|]. split; [reflexivity|]. split; [reflexivity|]. split; [tauto|]. split; [tauto|].
    intro t. pose proof (M4 t g f k Hg Hf Hk) as X. change (face_id 3 NG g f k) with i in X. rewrite X. tauto.
  - destruct (Nat.eqb_spec k2 k) as [|_]; [contradiction|]. set (g2 := (NG - 1 - g)%nat) in *. assert (Hg2 : (g2 < NG)%nat) by (unfold g2; lia).
    exists (gauss_number NG g2 f2 k2). change (face_id 3 NG g2 f2 k2) with (gauss_number NG g2 f2 k2) in Hj. split; [exact Hj|].
    assert (Hback : entry E2E (3 * k2 + f2) k /\ entry E2F (3 * k2 + f2) f).
    { destruct (tri_paired _ _ _ _ _ _ _ _ _ _ _ _ HB E2E E2F LE LF HN HO HA) as (Hp & _). destruct (Hp (3 * k + f)%nat ltac:(lia)) as (h & Hh & (L1 & L2) & (L3 & L4)).
      unfold entry in *. rewrite L1 in HE1. rewrite L2 in HE2. assert (X1 : k2 = (h / 3)%nat) by congruence. assert (X2 : f2 = (h mod 3)%nat) by congruence.
      assert (Eh : (3 * k2 + f2)%nat = h) by (rewrite X1, X2; symmetry; apply Nat.div_mod; lia). rewrite Eh, L3, L4.
      replace (3 * k + f)%nat with (f + k * 3)%nat by lia. rewrite Nat.div_add, Nat.mod_add, Nat.div_small, Nat.mod_small by lia. auto. }
    destruct Hback as (B1 & B2). pose proof (M3 g2 f2 k2 k f Hg2 Hf2 Hk2 B1 B2) as Hb. destruct (Nat.eqb_spec k k2) as [|_]; [congruence|].
    replace (NG - 1 - g2)%nat with g in Hb by (unfold g2; lia). split; [exact Hb|]. assert (Hi : forall M, gauss_at NG M i = ment M (f * NG + g) k) by (intro M; apply Hat; assumption). rewrite !Hi, !Hat by assumption.
    assert (Hpt : (ment (gf_x gf) (f2 * NG + g2) k2, ment (gf_y gf) (f2 * NG + g2) k2) = (ment (gf_x gf) (f * NG + g) k, ment (gf_y gf) (f * NG + g) k)).
    { rewrite !Hxy by assumption. rewrite C1, C2. unfold g2. rewrite (ru_sym _ _ _ HRu g Hg). unfold side_point. f_equal; field. }
    injection Hpt as Px Py. split; [exact Px|]. split; [exact Py|].
    assert (Hdiff : gauss_number NG g2 f2 k2 <> i).
    { intro E. apply (face_id_inj 3 NG K) in E as (_ & _ & E); auto. }
    split; [split; [intro E; contradiction|intro Hx; exfalso; exact (Hx _ Hsh)]|]. split.
    + intros _ Hpos.
      assert (Hgeo : forall f k g, (f < 3)%nat -> (k < K)%nat -> (g < NG)%nat -> let L := side_length (start k f) (stop k f) in
        ment (gf_nx gf) (f * NG + g) k = (snd (stop k f) - snd (start k f)) / L /\ ment (gf_ny gf) (f * NG + g) k = - (fst (stop k f) - fst (start k f)) / L /\ ment (gf_W gf) (f * NG + g) k = nth g w 0 * (L / 2)).
      { clear - HG HW Hpos. intros f k g Hf Hk Hg L. pose proof (HG f k g Hf Hk Hg) as X. pose proof (HW f k g Hf Hk Hg) as XW. pose proof (Hpos k Hk) as Ha. cbv zeta in X. 
        unfold cell_area in Ha. unfold geo in X, XW.
        set (a := TriGeoSpec.corner Vert EToV k 0) in *. set (b := TriGeoSpec.corner Vert EToV k 1) in *. set (c := TriGeoSpec.corner Vert EToV k 2) in *.
        destruct (geo_normal G a b c ltac:(lra) f (start k f) (stop k f) (side_opposite Vert EToV k f) Hf) as (_ & N2 & N3);
          [destruct f as [|[|[|]]]; [| | |lia]; reflexivity|destruct f as [|[|[|]]]; [| | |lia]; reflexivity|destruct f as [|[|[|]]]; [| | |lia]; reflexivity|].
        cbv zeta in N2, N3. destruct (N3 Ha) as (_ & N4 & N5). rewrite XW, N2. destruct (Rlt_dec 0 (area a b c)) as [_|]; [|contradiction].
        rewrite <- X in N4, N5. cbn [p_nx p_ny] in N4, N5. fold L in N4, N5. fold L. rewrite N4, N5. split; [reflexivity|]. split; [reflexivity|]. ring. }
      cbv zeta in Hgeo. destruct (Hgeo f k g Hf Hk Hg) as (A1 & A2 & A3). destruct (Hgeo f2 k2 g2 Hf2 Hk2 Hg2) as (A4 & A5 & A6). rewrite A1, A2, A3, A4, A5, A6.
      unfold side_start, side_end. rewrite C1, C2. unfold g2. rewrite (rule_wsym _ _ _ g HRu Hg).
      assert (EL : side_length (TriGeoSpec.corner Vert EToV k ((f + 1) mod 3)) (TriGeoSpec.corner Vert EToV k f) = side_length (TriGeoSpec.corner Vert EToV k f) (TriGeoSpec.corner Vert EToV k ((f + 1) mod 3))).
      { unfold side_length, dot, pminus. f_equal. cbn [fst snd]. ring. }
      rewrite EL. unfold Rdiv. split; [ring|]. split; [ring|]. reflexivity.
    + intro t. pose proof (M4 t g f k Hg Hf Hk) as X. change (face_id 3 NG g f k) with i in X. rewrite X. split; [intros (Y & _)|intros (Y & _); contradiction].
      exfalso. unfold entry in *. congruence.
Qed.
End C85.

(* The two triangles of the unit square, order 1 and two Gauss points per side, meet the hypotheses. *)
Example C85_witness : let Vert := [0; 0; 0;  1; 0; 0;  1; 1; 0;  0; 1; 0] in let EToV := [0; 1; 2;  0; 2; 3]%nat in
  let E2E := [0; 0; 1;  0; 1; 1]%nat in let E2F := [0; 1; 0;  2; 1; 2]%nat in
  (exists eig el, gauss_ready gwit cramer cramer_inv junk0 0 eig (1 / 10) 1 2 Vert EToV el E2E E2F [3; 3; 0; 0; 3; 3]%Z 2) /\
  (forall k, (k < 2)%nat -> 0 < cell_area Vert EToV k) /\ shares 3 (map Z.of_nat EToV) 2 3.
Proof.
  intros Vert EToV E2E E2F. destruct (tri_grid_witness [3; 3; 0; 0; 3; 3]%Z (le_n 6)) as (A & B & el & m & HB & _). cbv zeta in A, B, HB. fold Vert EToV E2E E2F in A, B, HB. split; [|split].
  - destruct (C59_witness 0 ltac:(lra) ltac:(lra)) as (t & _ & Ht). cbv zeta in Ht.
    set (eig1 := fun (n : nat) (J : nat -> nat -> R) => ([- t; t], fun i j : nat => match i with 1%nat => match j with 0%nat => - / sqrt 2 | S _ => / sqrt 2 end | _ => / sqrt 2 end)).
    exists eig1, el. constructor; [|exact A|cbn; lia|lia|].
    + destruct HB. constructor; auto. lia.
    + intros _. exact Ht.
  - intros k Hk. unfold cell_area. destruct k as [|[|]]; [| |lia]; unfold area, TriGeoSpec.corner, TriGeoSpec.cross, pminus; cbn; lra.
  - apply B. left. auto.
Qed.

Print Assumptions C85_points.
Print Assumptions C85_interpolation.
Print Assumptions C85_geometry.
Print Assumptions C85_quadrature.
Print Assumptions C85_matching.
