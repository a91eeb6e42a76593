(* CurvedSwBuiltProofs.v - the tables that the library builds on a straight-sided mesh fit together. *)
From Coq Require Import ZArith List Lia Bool Arith.
From Verif Require Import Base Loops Num JacobiModel JacobiSpec Nodes1DModel Nodes1DSpec Nodes1DExactProofs JacobiProofs JacobiQuadProofs DenseSpec TriModel TriSpec TriGeoSpec TriSetup TriProofs TriBasisProofs TriElemProofs TriOpProofs TriLiftProofs TriGeoProofs TriDGSpec TriDGProofs
  Maps2DModel Maps2DSpec Maps2DProofs Maps2DProps MeshSpec TriMapsProofs TriMapsProps SwSpec GaussFaceModel GaussFaceSpec GaussRuleProofs GaussFaceProofs GaussFaceProps
  CubModel CubSpec CubMeshModel CubMeshSpec CubMeshProofs CubMeshProps PoissonTripletProofs PoissonProofs PoissonFormProofs PoissonCoerciveProofs GreenProofs QuadBasisProofs CurvedSwModel CurvedSwSpec CurvedSwProofs CurvedSwFactProofs.
From Coq Require Import Reals Lra.
Import ListNotations.
Local Open Scope R_scope.

Section Built.
Variables (G : R -> R) (solve : mat R -> mat R -> mat R -> outcome (mat R)) (inverse chol : mat R -> mat R -> outcome (mat R))
  (junk : nat -> nat -> R) (eps : R) (eig : nat -> (nat -> nat -> R) -> list R * (nat -> nat -> R)) (tol : R)
  (N K : nat) (Vert : list R) (EToV : list nat) (el : element (T := R)) (E2E E2F : list nat) (bcVec : list Z) (NG : nat)
  (junkg : nat -> nat -> gpoint R) (junkn : nat -> nat) (gf : gauss_faces R) (lit : Z -> R) (NC : nat) (junkc : nat -> R) (cc : cub_mesh R) (curved mapW : list nat).
Local Notation gready := (gauss_ready G solve inverse junk eps eig tol N K Vert EToV el E2E E2F bcVec NG).
Local Notation grun := (buildGaussFaceNodes (exact G) pow junk eps eig N K NG (e_Vinv el) (e_Dr el) (e_Ds el) (e_x el) (e_y el) junkg junkn E2E E2F bcVec).
Local Notation cready := (cub_ready G solve inverse chol junk eps eig tol N K Vert EToV el lit NC).
Local Notation crun := (buildCubatureVolumeMesh (exact G) pow solve chol junk lit junkc (Z.of_nat NC) N K (e_V el) (e_Vinv el) (e_Dr el) (e_Ds el) (e_x el) (e_y el)).
Local Notation Np := (length (e_r el)).
Hypotheses (HG : gready) (Hg : grun = Ok gf) (HC : cready) (Hc : crun = Ok cc).
Hypothesis Hpos : forall k, (k < K)%nat -> 0 < cell_area Vert EToV k.
Local Notation mass := (mesh_mass Vert EToV el cc curved).

Lemma HB : built G solve inverse junk eps eig tol N K Vert EToV el. Proof. apply HG. Qed.
Lemma HF : cub_facts G N K el NC cc. Proof. exact (cfacts _ _ _ _ _ _ _ _ _ _ _ _ _ _ _ _ _ HC Hc). Qed.
Lemma NG1 : (1 <= NG)%nat. Proof. apply HG. Qed.

Lemma in_curved k : existsb (Nat.eqb k) curved = true <-> In k curved.
Proof. rewrite existsb_exists. split; [intros (x & Hx & E); apply Nat.eqb_eq in E; congruence|intro H; exists k; split; [exact H|apply Nat.eqb_refl]]. Qed.
Lemma mass_curved k : (k < K)%nat -> In k curved -> nth_error (cc_MM cc) k = Some (mass k).
Proof.
  intros Hk Hin. unfold mesh_mass. rewrite (proj2 (in_curved k) Hin). destruct (cf_MM _ _ _ _ _ _ HF) as (_ & _ & H). destruct (H k Hk) as (M & U & E1 & _). rewrite E1. f_equal. symmetry. now apply nth_error_nth.
Qed.
Lemma mass_straight k : ~ In k curved -> mass k = straight_mass Vert EToV el k.
Proof. intro Hin. unfold mesh_mass. destruct (existsb (Nat.eqb k) curved) eqn:E; [apply in_curved in E; contradiction|reflexivity]. Qed.
Lemma masses_symmetric : symmetric_masses Np K mass.
Proof.
  intros k Hk a b Ha Hb. destruct (existsb (Nat.eqb k) curved) eqn:E.
  - apply in_curved in E. pose proof (mass_curved k Hk E) as X. destruct (cf_MM _ _ _ _ _ _ HF) as (_ & _ & H). destruct (H k Hk) as (M & U & E1 & _ & _ & Hm & _). assert (M = mass k) as <- by congruence. rewrite !Hm by assumption. apply sumn_ext. intros; ring.
  - unfold mesh_mass. rewrite E. unfold straight_mass. cbn [ment]. f_equal. apply sumn_ext. intros; ring.
Qed.

(* nodal values that vanish at every cubature point vanish *)
Definition cub_unisolvent : Prop := forall u, (forall i, (i < cc_n cc)%nat -> sumn Np (fun m => ment (cc_V cc) i m * u m) = 0) -> forall m, (m < Np)%nat -> u m = 0.

Lemma upper_kernel : forall n (U : nat -> nat -> R) i, (i < n)%nat -> (forall a b, (b < a < n)%nat -> U a b = 0) -> U i i = 0 ->
  (forall a, (a < i)%nat -> U a a <> 0) -> exists u, (u i = 1) /\ forall a, (a < n)%nat -> sumn n (fun b => U a b * u b) = 0.
Proof.
  intros n U i Hi HU Hz Hd.
  assert (H : forall m, (m <= i)%nat -> exists u : nat -> R, u i = 1 /\ (forall b, (i < b)%nat -> u b = 0) /\ (forall b, (b < i - m)%nat -> u b = 0) /\ forall a, (i - m <= a < n)%nat -> sumn n (fun b => U a b * u b) = 0).
  { induction m as [|m IH]; intro Hm.
    - exists (fun b => if (b =? i)%nat then 1 else 0). split; [now rewrite Nat.eqb_refl|]. split; [intros b Hb; destruct (Nat.eqb_spec b i); [lia|reflexivity]|]. split; [intros b Hb; destruct (Nat.eqb_spec b i); [lia|reflexivity]|].
      intros a Ha. rewrite (sumn_ext n _ (fun b => if (b =? i)%nat then U a b else 0)) by (intros b _; destruct (b =? i)%nat; ring). rewrite (sumn_if n i (U a) Hi).
      destruct (Nat.eq_dec a i) as [->|Hne]; [exact Hz|]. apply HU. lia.
    - destruct (IH ltac:(lia)) as (u & U1 & U2 & U3 & U4). set (c := (i - S m)%nat). assert (Hc' : (c < i)%nat) by (unfold c; lia). set (S0 := sumn n (fun b => U c b * u b)).
      exists (fun b => if (b =? c)%nat then - S0 / U c c else u b). split; [destruct (Nat.eqb_spec i c); [lia|exact U1]|]. split; [intros b Hb; destruct (Nat.eqb_spec b c); [lia|now apply U2]|].
      split; [intros b Hb; destruct (Nat.eqb_spec b c); [lia|apply U3; lia]|]. intros a Ha.
      assert (Hu : u c = 0) by (apply U3; unfold c; lia).
      rewrite (sumn_ext n _ (fun b => U a b * u b + (if (b =? c)%nat then U a b * (- S0 / U c c) else 0))) by (intros b _; destruct (Nat.eqb_spec b c) as [->|]; [rewrite Hu|]; ring).
      rewrite sumn_plus, (sumn_if n c (fun b => U a b * (- S0 / U c c)) ltac:(lia)). destruct (Nat.eq_dec a c) as [->|Hne].
      + fold S0. field. apply Hd. exact Hc'.
      + rewrite U4 by (unfold c in *; lia). rewrite (HU a c) by (unfold c in *; lia). ring. }
  destruct (H i (le_n i)) as (u & U1 & _ & _ & U4). exists u. split; [exact U1|]. intros a Ha. apply U4. lia.
Qed.
Lemma diagonal k U : (k < K)%nat -> nth_error (cc_chol cc) k = Some U -> cub_unisolvent -> forall i, (i < Np)%nat -> ment U i i <> 0.
Proof.
  intros Hk EU Hu. destruct (cf_MM _ _ _ _ _ _ HF) as (_ & _ & H). destruct (H k Hk) as (M & U' & _ & E2 & _ & Hm & HU). assert (U' = U) by congruence. subst U'. destruct HU as (_ & H0 & HUU).
  assert (HW : forall i, (i < cc_n cc)%nat -> 0 < ment (cc_W cc) i k) by (intros i Hi; exact (proj1 (C86_quadrature _ _ _ _ _ _ _ _ _ _ _ _ _ _ _ _ _ HC Hc k Hk) (Hpos k Hk) i Hi)).
  induction i as [i IH] using lt_wf_ind. intros Hi Hz. destruct (upper_kernel Np (ment U) i Hi H0 Hz (fun a Ha => IH a Ha ltac:(lia))) as (u & U1 & U2).
  assert (Hq : sumn (cc_n cc) (fun i => ment (cc_W cc) i k * (sumn Np (fun m => ment (cc_V cc) i m * u m) * sumn Np (fun m => ment (cc_V cc) i m * u m))) = 0).
  { transitivity (sumn Np (fun a => sumn Np (fun b => u a * ment M a b * u b))).
    - rewrite (sumn_ext (cc_n cc) _ (fun i => sumn Np (fun a => sumn Np (fun b => u a * (ment (cc_W cc) i k * ment (cc_V cc) i a * ment (cc_V cc) i b) * u b)))).
      + rewrite sumn_swap. apply sumn_ext. intros a Ha. rewrite sumn_swap. apply sumn_ext. intros b Hb. rewrite Hm by assumption. rewrite (sumn_ext (cc_n cc) _ (fun i => (u a * u b) * (ment (cc_W cc) i k * ment (cc_V cc) i a * ment (cc_V cc) i b))) by (intros; ring). rewrite sumn_scal. ring.
      + intros j Hj. transitivity (sumn Np (fun a => (ment (cc_W cc) j k * sumn Np (fun b => ment (cc_V cc) j b * u b)) * (ment (cc_V cc) j a * u a))).
        * rewrite sumn_scal. ring.
        * apply sumn_ext. intros a Ha. transitivity (sumn Np (fun b => (ment (cc_W cc) j k * (ment (cc_V cc) j a * u a)) * (ment (cc_V cc) j b * u b))); [rewrite sumn_scal; ring|apply sumn_ext; intros; ring].
    - apply sumn_zero. intros a Ha. transitivity (u a * sumn Np (fun c => ment U c a * sumn Np (fun b => ment U c b * u b))).
      + rewrite (sumn_ext Np (fun c => ment U c a * sumn Np (fun b => ment U c b * u b)) (fun c => sumn Np (fun b => ment U c a * ment U c b * u b))) by (intros; rewrite <- sumn_scal; apply sumn_ext; intros; ring).
        rewrite sumn_swap, <- sumn_scal. apply sumn_ext. intros b Hb. rewrite <- (HUU a b Ha Hb). rewrite (sumn_ext Np (fun k0 => ment U k0 a * ment U k0 b * u b) (fun k0 => u b * (ment U k0 a * ment U k0 b))) by (intros; ring). rewrite sumn_scal. ring.
      + rewrite sumn_zero; [ring|]. intros c Hc'. rewrite U2 by exact Hc'. ring. }
  assert (Hv : forall j, (j < cc_n cc)%nat -> sumn Np (fun m => ment (cc_V cc) j m * u m) = 0).
  { intros j Hj. pose proof (sumn_nonneg_zero _ _ (fun i Hi => Rmult_le_pos _ _ (Rlt_le _ _ (HW i Hi)) (Rle_0_sqr _)) Hq j Hj) as X. cbv beta in X. specialize (HW j Hj). apply Rmult_integral in X as [X|X]; [lra|]. now apply Rsqr_0_uniq. }
  pose proof (Hu u Hv i Hi). lra.
Qed.

Lemma numbers p : (p < 3 * NG * K)%nat -> exists g f k, (g < NG)%nat /\ (f < 3)%nat /\ (k < K)%nat /\ p = gauss_number NG g f k.
Proof.
  intro Hp. pose proof NG1. exists (p mod NG)%nat, ((p / NG) mod 3)%nat, (p / NG / 3)%nat. split; [apply Nat.mod_upper_bound; lia|]. split; [apply Nat.mod_upper_bound; lia|].
  split; [rewrite Nat.div_div by lia; apply Nat.div_lt_upper_bound; nia|]. unfold gauss_number. pose proof (Nat.div_mod p NG ltac:(lia)). pose proof (Nat.div_mod (p / NG) 3 ltac:(lia)). nia.
Qed.
Lemma number_lt g f k : (g < NG)%nat -> (f < 3)%nat -> (k < K)%nat -> (gauss_number NG g f k < 3 * NG * K)%nat.
Proof. intros. unfold gauss_number. nia. Qed.
Lemma number_side g f k : (g < NG)%nat -> (gauss_number NG g f k / NG = f + 3 * k)%nat.
Proof. intro H. unfold gauss_number. replace (g + f * NG + k * 3 * NG)%nat with (g + (f + 3 * k) * NG)%nat by lia. rewrite Nat.div_add by lia. rewrite Nat.div_small by lia. lia. Qed.
Lemma partner_entry p j : entry (gf_mapP gf) p j -> partner (gf_mapP gf) p = j.
Proof. intro H. unfold partner. now apply nth_error_nth. Qed.
Lemma partner_lt p : (p < 3 * NG * K)%nat -> (partner (gf_mapP gf) p < 3 * NG * K)%nat /\ partner (gf_mapP gf) (partner (gf_mapP gf) p) = p.
Proof.
  intro Hp. destruct (numbers p Hp) as (g & f & k & H1 & H2 & H3 & ->). destruct (C85_matching _ _ _ _ _ _ _ _ _ _ _ _ _ _ _ _ _ _ _ HG Hg) as (_ & L & HM). destruct (HM f k g H2 H3 H1) as (_ & j & E1 & E2 & _).
  rewrite (partner_entry _ _ E1), (partner_entry _ _ E2). split; [|reflexivity]. rewrite <- L. apply nth_error_Some. unfold entry in E2. congruence.
Qed.
Lemma sides p p' : (p < 3 * NG * K)%nat -> (p' < 3 * NG * K)%nat -> (p / NG = p' / NG)%nat -> (partner (gf_mapP gf) p / NG = partner (gf_mapP gf) p' / NG)%nat.
Proof.
  intros Hp Hp' Hs. destruct (numbers p Hp) as (g & f & k & H1 & H2 & H3 & ->). destruct (numbers p' Hp') as (g' & f' & k' & H1' & H2' & H3' & ->). rewrite !number_side in Hs by assumption.
  assert (f' = f /\ k' = k) as (-> & ->) by lia. assert (HG' := HG). destruct HG' as [HB' [LE LF HN HO HA] HT HP _].
  destruct (facts_of _ _ _ _ _ _ _ _ _ _ _ _ _ _ _ _ _ _ _ HG Hg) as (z & w & HRu & [S1 S2 Hxy HGe HW HI (mapB & HM)]).
  pose proof (tri_tables _ _ _ _ _ _ _ _ _ _ _ _ HB' _ _ LE LF HN) as [_ _ _ _ (_ & TE) (_ & TF) _].
  destruct (C37_gauss_maps junkn 3 K NG E2E E2F bcVec LE TE LF TF HT) as (mM & mP & mB & bc & Em & M1 & M2 & M3 & _).
  rewrite HM in Em. injection Em as E1 E2 E3 E4. rewrite <- E2 in M3.
  destruct (HN (3 * k + f)%nat ltac:(lia)) as (h & (L1 & L2) & _).
  pose proof (M3 g f k _ _ H1 H2 H3 L1 L2) as A. pose proof (M3 g' f k _ _ H1' H2 H3 L1 L2) as B.
  change (face_id 3 NG) with (gauss_number NG) in A, B. rewrite (partner_entry _ _ A), (partner_entry _ _ B). destruct (h / 3 =? k)%nat; rewrite !number_side by lia; reflexivity.
Qed.

Hypothesis HWm : hfind (gf_bc gf) 3 = Some mapW.
Lemma wall_iff g f k : (g < NG)%nat -> (f < 3)%nat -> (k < K)%nat -> (In (gauss_number NG g f k) mapW <-> partner (gf_mapP gf) (gauss_number NG g f k) = gauss_number NG g f k /\ entry bcVec (3 * k + f) 3%Z).
Proof.
  intros H1 H2 H3. destruct (C85_matching _ _ _ _ _ _ _ _ _ _ _ _ _ _ _ _ _ _ _ HG Hg) as (_ & L & HM). destruct (HM f k g H2 H3 H1) as (_ & j & E1 & E2 & _ & _ & _ & _ & Ht).
  rewrite (partner_entry _ _ E1). rewrite <- (Ht 3%Z). split; [intro H; eauto|]. intros (l & El & Hl). congruence.
Qed.
Lemma walls_in p : In p mapW -> (p < 3 * NG * K)%nat.
Proof.
  intro Hp. assert (HG' := HG). destruct HG' as [HB' [LE LF HN HO HA] HT HP _]. destruct (facts_of _ _ _ _ _ _ _ _ _ _ _ _ _ _ _ _ _ _ _ HG Hg) as (z & w & HRu & [S1 S2 Hxy HGe HW HI (mapB & HM)]).
  pose proof (tri_tables _ _ _ _ _ _ _ _ _ _ _ _ HB' _ _ LE LF HN) as [_ _ _ _ (_ & TE) (_ & TF) _].
  destruct (C37_gauss_maps junkn 3 K NG E2E E2F bcVec LE TE LF TF HT) as (mM & mP & mB & bc & Em & M1 & M2 & M3 & _ & _ & _ & M5 & _).
  rewrite HM in Em. injection Em as E1 E2 E3 E4. rewrite <- E4 in M5. destruct (M5 3%Z mapW HWm) as (_ & H). specialize (H p Hp). lia.
Qed.

Lemma built_tables : (forall k, In k curved -> (k < K)%nat) -> (curved <> [] -> cub_unisolvent) ->
  curved_tables Np K NG (e_V el) (g_J (e_metric el)) cc gf curved (gf_mapM gf) (gf_mapP gf) mapW mass.
Proof.
  intros Hcur Huni. destruct (element_ok _ _ _ _ _ _ _ _ _ _ _ _ HB) as [lr ls nodes masks edge_i pts SV SVi V Vi Vi' SL lift D x metric nrm]. rewrite <- lr in *.
  destruct D as (Vr & Vs & SDr & SDs & _ & _ & MDr & MDs & _). destruct x as (Sx & Sy & Hxy).
  destruct (C85_matching _ _ _ _ _ _ _ _ _ _ _ _ _ _ _ _ _ _ _ HG Hg) as (EM & LP & _).
  constructor.
  - exact NG1.
  - exact SV.
  - rewrite metric. unfold metricTerms. cbn [g_J]. destruct SDr, SDs, Sx, Sy. split; cbn [mzip mmul mrows mcols]; assumption.
  - intros m Hm. destruct Hm as [<-|[<-|[<-|[]]]]; apply HF.
  - intros m Hm. destruct (cf_Dr _ _ _ _ _ _ HF) as (A1 & A2). destruct (cf_Ds _ _ _ _ _ _ HF) as (A3 & A4). destruct Sx, Sy.
    destruct Hm as [<-|Hm]; [apply (cf_W _ _ _ _ _ _ HF)|]. rewrite (cf_metric _ _ _ _ _ _ HF) in Hm. unfold cub_metric in Hm. cbn [g_rx g_ry g_sx g_sy] in Hm.
    destruct Hm as [<-|[<-|[<-|[<-|[]]]]]; split; cbn [mzip mmul mrows mcols]; assumption.
  - intros m Hm. apply (proj2 (C85_points _ _ _ _ _ _ _ _ _ _ _ _ _ _ _ _ _ _ _ HG) Hg). cbn [In] in *. tauto.
  - apply (C85_interpolation _ _ _ _ _ _ _ _ _ _ _ _ _ _ _ _ _ _ _ HG Hg).
  - exact EM.
  - split; [exact LP|]. intros p Hp. apply In_nth with (d := 0%nat) in Hp as (j & Hj & <-). rewrite LP in Hj. exact (proj1 (partner_lt j Hj)).
  - exact HWm.
  - intros p Hp. pose proof (walls_in p Hp) as Hlt. split; [exact Hlt|]. destruct (numbers p Hlt) as (g & f & k & H1 & H2 & H3 & ->). apply (proj1 (wall_iff g f k H1 H2 H3) Hp).
  - intros k Hk Hin. destruct (cf_MM _ _ _ _ _ _ HF) as (_ & _ & H). destruct (H k Hk) as (M & U & E1 & E2 & _ & _ & HU). pose proof (mass_curved k Hk Hin) as E3. assert (M = mass k) by congruence. subst M. exists U. split; [exact E2|]. split; [exact HU|].
    apply (diagonal k U Hk E2). apply Huni. intro Z. rewrite Z in Hin. destruct Hin.
  - exact Hcur.
  - intros k Hk Hin. exists (cell_area Vert EToV k / 2). pose proof (Hpos k Hk) as Ha. split; [lra|]. split.
    + intros a Ha'. rewrite metric. apply (metric_ok G N K Vert EToV (e_r el) (e_s el)); auto. destruct HB; assumption.
    + intros a c Ha' Hc'. rewrite (mass_straight k Hin). unfold straight_mass. cbn [ment]. set (J := cell_area Vert EToV k / 2).
      rewrite (sumn_ext Np _ (fun b => sumn Np (fun d => sumn Np (fun e => J * (ment (e_Vinv el) d a * ment (e_V el) c e) * (ment (e_Vinv el) d b * ment (e_V el) b e))))).
      2:{ intros b Hb. transitivity ((J * sumn Np (fun e => ment (e_V el) b e * ment (e_V el) c e)) * sumn Np (fun d => ment (e_Vinv el) d a * ment (e_Vinv el) d b)); [ring|]. rewrite <- sumn_scal. apply sumn_ext. intros d Hd.
          transitivity ((J * ment (e_Vinv el) d a * ment (e_Vinv el) d b) * sumn Np (fun e => ment (e_V el) b e * ment (e_V el) c e)); [ring|]. rewrite <- sumn_scal. apply sumn_ext. intros; ring. }
      rewrite sumn_swap. rewrite (sumn_ext Np _ (fun d => J * (ment (e_V el) c d * ment (e_Vinv el) d a))).
      * rewrite sumn_scal, Vi' by assumption. unfold delta. rewrite (Nat.eqb_sym c a). destruct (a =? c)%nat; ring.
      * intros d Hd. rewrite sumn_swap. rewrite (sumn_ext Np _ (fun e => delta d e * (J * (ment (e_Vinv el) d a * ment (e_V el) c e)))).
        { rewrite sumn_delta by exact Hd. ring. }
        { intros e He. rewrite sumn_scal, Vi by assumption. ring. }
Qed.
Lemma built_constants : (1 <= K)%nat -> keeps_constants Np NG cc gf.
Proof.
  intro HK1. assert (D1 : degree2 N [(0%nat, 0%nat, 1)]) by (constructor; [cbn; lia|constructor]). pose proof NG1.
  constructor.
  - intros i Hi. pose proof (cf_mr _ _ _ _ _ _ HF _ i D1 ltac:(rewrite (cf_r _ _ _ _ _ _ HF); exact Hi)) as X. rewrite (sumn_ext Np _ (fun m => ment (cc_Dr cc) i m * eval2 [(0%nat, 0%nat, 1)] (nth m (e_r el) 0) (nth m (e_s el) 0))) by (intros; cbn [eval2 pow]; ring).
    eapply eq_trans; [exact (TriOpProofs.dr_unique _ _ _ _ _ X (TriOpProofs.ddr_ok _ _ _))|]. cbn. ring.
  - intros i Hi. pose proof (cf_ms _ _ _ _ _ _ HF _ i D1 ltac:(rewrite (cf_r _ _ _ _ _ _ HF); exact Hi)) as X. rewrite (sumn_ext Np _ (fun m => ment (cc_Ds cc) i m * eval2 [(0%nat, 0%nat, 1)] (nth m (e_r el) 0) (nth m (e_s el) 0))) by (intros; cbn [eval2 pow]; ring).
    eapply eq_trans; [exact (TriOpProofs.ds_unique _ _ _ _ _ X (TriOpProofs.dds_ok _ _ _))|]. cbn. ring.
  - intros i Hi. exact (const_row _ _ _ _ _ cc i HF Hi).
  - intros j Hj. pose proof (proj2 (C85_interpolation _ _ _ _ _ _ _ _ _ _ _ _ _ _ _ _ _ _ _ HG Hg) (j / NG)%nat 0%nat (j mod NG)%nat [(0%nat, 0%nat, 1)] ltac:(apply Nat.div_lt_upper_bound; lia) ltac:(lia) ltac:(apply Nat.mod_upper_bound; lia) D1) as X.
    replace (j / NG * NG + j mod NG)%nat with j in X by (pose proof (Nat.div_mod j NG ltac:(lia)); lia). cbn [eval2 pow] in X. erewrite sumn_ext; [rewrite X; ring|]. intros; cbv beta; ring.
Qed.
Lemma built_closed : (forall g, (g < 3 * K)%nat -> (forall h, ~ shares 3 (map Z.of_nat EToV) g h) -> entry bcVec g 3%Z) -> closed_pairs K NG gf (gf_mapP gf) mapW.
Proof.
  intro Hb. destruct (C85_matching _ _ _ _ _ _ _ _ _ _ _ _ _ _ _ _ _ _ _ HG Hg) as (_ & L & HM). constructor.
  - intros p Hp. apply (partner_lt p Hp).
  - exact sides.
  - intros p Hp Hne. destruct (numbers p Hp) as (g & f & k & H1 & H2 & H3 & ->). destruct (HM f k g H2 H3 H1) as (_ & j & E1 & E2 & _ & _ & _ & Hn & _). rewrite (partner_entry _ _ E1) in *. destruct (Hn Hne Hpos) as (A & B & C). unfold gauss_n. cbn [fst snd]. rewrite A, B, C. auto.
  - intros p Hp. pose proof (walls_in p Hp) as Hlt. destruct (numbers p Hlt) as (g & f & k & H1 & H2 & H3 & ->). destruct (HM f k g H2 H3 H1) as (Hat & _). unfold gauss_n. cbn [fst snd]. rewrite !Hat.
    destruct (C85_geometry _ _ _ _ _ _ _ _ _ _ _ _ _ _ _ _ _ _ _ HG Hg f k g H2 H3 H1) as ((Hu & _) & _). exact Hu.
  - intros p Hp Hs. destruct (numbers p Hp) as (g & f & k & H1 & H2 & H3 & ->). apply (wall_iff g f k H1 H2 H3). split; [exact Hs|]. destruct (HM f k g H2 H3 H1) as (_ & j & E1 & _ & _ & _ & Hi & _). rewrite (partner_entry _ _ E1) in Hs. apply Hb; [lia|]. now apply Hi.
Qed.
(* a straight element: the exact product *)
Lemma straight_exact k p q : (k < K)%nat -> degree2 N p -> degree2 N q ->
  element_integral (TriGeoSpec.corner Vert EToV k 0) (TriGeoSpec.corner Vert EToV k 1) (TriGeoSpec.corner Vert EToV k 2) (fun x y => eval2 p x y * eval2 q x y) (nodal_form el (straight_mass Vert EToV el k) k p q).
Proof.
  intros Hk Dp Dq. destruct (element_ok _ _ _ _ _ _ _ _ _ _ _ _ HB) as [lr ls nodes masks edge_i pts SV (I1 & I2) V Vi Vi' SL lift D x metric nrm]. rewrite <- lr in *.
  set (u := fun a => eval2 p (ment (e_x el) a k) (ment (e_y el) a k)). set (v := fun a => eval2 q (ment (e_x el) a k) (ment (e_y el) a k)).
  pose proof (mass_k _ _ _ _ _ _ _ _ _ _ _ _ HB k p q v u Hk (conj Dq (fun i _ => eq_refl)) (conj Dp (fun i _ => eq_refl))) as X.
  match type of X with element_integral _ _ _ _ ?v => replace (nodal_form el (straight_mass Vert EToV el k) k p q) with v; [exact X|] end.
  unfold nodal_form, bm. fold u v. change (area _ _ _) with (cell_area Vert EToV k). rewrite <- sumn_scal.
  rewrite (sumn_ext Np _ (fun b => sumn Np (fun a => u a * ment (straight_mass Vert EToV el k) a b * v b))).
  - apply sumn_swap.
  - intros b Hb. rewrite <- sumn_scal. apply sumn_ext. intros a Ha. unfold straight_mass, MM. cbn [ment mmul mtrans mcols]. rewrite fsum_exact. change (fmul (exact G)) with Rmult. rewrite I1 || rewrite I2.
    rewrite (sumn_ext Np (fun c => ment (e_Vinv el) c b * ment (e_Vinv el) c a) (fun c => ment (e_Vinv el) c a * ment (e_Vinv el) c b)) by (intros; ring). ring.
Qed.

(* the pressure of still water: the volume and side terms differ by the cubature error only *)
Lemma built_green k p ax ay : (k < K)%nat -> degree2 N p -> (N <= NC)%nat -> (N <= 2 * NG - 1)%nat ->
  let phi a := eval2 p (ment (e_x el) a k) (ment (e_y el) a k) in
  exists h, degree2 NC h /\ (forall r s, bary h r s = ax * at_point (ddr p) (cell_image Vert EToV k r s) + ay * at_point (dds p) (cell_image Vert EToV k r s)) /\
  Rabs (sumn (cc_n cc) (fun i => ment (cc_W cc) i k * (ax * fst (cub_gradient Np cc phi i k) + ay * snd (cub_gradient Np cc phi i k)))
        - sumn (3 * NG) (fun j => ment (gf_W gf) j k * gauss_value Np gf phi j * (ax * ment (gf_nx gf) j k + ay * ment (gf_ny gf) j k)))
    <= cell_area Vert EToV k / 2 * (2 / 100000000000000 * coefsum h).
Proof.
  intros Hk Dp HNC HNG phi. pose proof NG1 as HN1. pose proof (Hpos k Hk) as Ha.
  assert (TP : tpoly NC (fun x y => ax * eval2 (ddr p) x y + ay * eval2 (dds p) x y)).
  { apply (tpoly_le N); [exact HNC|]. apply tpoly_plus; apply tpoly_scal; [exists (ddr p)|exists (dds p)]; split; auto using ddr_deg, dds_deg. }
  destruct TP as (d & Dd & Hd). destruct (proj2 (C86_quadrature _ _ _ _ _ _ _ _ _ _ _ _ _ _ _ _ _ HC Hc k Hk) d Dd) as (h & v & Dh & Hh & Hv & He).
  exists h. split; [exact Dh|]. split; [intros r s; rewrite Hh; unfold at_point; symmetry; apply Hd|].
  assert (E1 : sumn (cc_n cc) (fun i => ment (cc_W cc) i k * (ax * fst (cub_gradient Np cc phi i k) + ay * snd (cub_gradient Np cc phi i k))) = sumn (cc_n cc) (fun i => ment (cc_W cc) i k * eval2 d (ment (cc_x cc) i k) (ment (cc_y cc) i k))).
  { apply sumn_ext. intros i Hi. f_equal. rewrite <- Hd. destruct (cub_grad _ _ _ _ _ _ _ _ _ _ _ _ _ _ _ HC cc HF k Hk i p Hi Dp) as (X & Y). cbv zeta in X, Y.
    pose proof (TriOpProofs.dr_unique _ _ _ _ _ X (ddr_ok p _ _)) as X'. pose proof (TriOpProofs.ds_unique _ _ _ _ _ Y (dds_ok p _ _)) as Y'. rewrite <- X', <- Y'. unfold cub_gradient. cbv zeta. cbn [fst snd]. rewrite <- !sumn_scal, <- !sumn_plus, <- !sumn_scal, <- ?sumn_plus. apply sumn_ext; intros; unfold phi; ring. }
  rewrite E1. clear E1. enough (E2 : sumn (3 * NG) (fun j => ment (gf_W gf) j k * gauss_value Np gf phi j * (ax * ment (gf_nx gf) j k + ay * ment (gf_ny gf) j k)) = v).
  { rewrite E2. rewrite (Rabs_pos_eq (cell_area Vert EToV k / 2)) in He by lra. exact He. }
  destruct (facts_of _ _ _ _ _ _ _ _ _ _ _ _ _ _ _ _ _ _ _ HG Hg) as (z & w & HRu & [S1 S2 Hxy HGe HW HI _]).
  assert (Hn : forall f g, (f < 3)%nat -> (g < NG)%nat -> ment (gf_nx gf) (f * NG + g) k = p_nx (geo G Vert EToV f k) /\ ment (gf_ny gf) (f * NG + g) k = p_ny (geo G Vert EToV f k)) by (intros f g Hf Hg'; pose proof (HGe f k g Hf Hk Hg') as X; cbv zeta in X; rewrite <- X; auto).
  set (tot := fun f => sumn NG (fun g => ment (gf_W gf) (f * NG + g) k * eval2 p (ment (gf_x gf) (f * NG + g) k) (ment (gf_y gf) (f * NG + g) k))).
  set (c := fun f => ax * p_nx (geo G Vert EToV f k) + ay * p_ny (geo G Vert EToV f k)).
  assert (Htot : forall f, (f < 3)%nat -> side_integral (TriGeoSpec.corner Vert EToV k f) (TriGeoSpec.corner Vert EToV k ((f + 1) mod 3)) (fun t => at_point p (side_point (TriGeoSpec.corner Vert EToV k f) (TriGeoSpec.corner Vert EToV k ((f + 1) mod 3)) t)) (tot f)).
  { intros f Hf. apply (C85_quadrature _ _ _ _ _ _ _ _ _ _ _ _ _ _ _ _ _ _ _ HG Hg f k p Hf Hk); [|exact Ha]. eapply Forall_impl; [|exact Dp]. intros [[x y] q]. cbn. intro Hxy'. clear - Hxy' HNG. lia. }
  assert (Hnrm : forall f, (f < 3)%nat -> normal_of Vert EToV k f (p_nx (geo G Vert EToV f k), p_ny (geo G Vert EToV f k))).
  { intros f Hf. destruct (Hn f 0%nat Hf ltac:(lia)) as (<- & <-). exact (proj1 (C85_geometry _ _ _ _ _ _ _ _ _ _ _ _ _ _ _ _ _ _ _ HG Hg f k 0%nat Hf Hk ltac:(lia))). }
  transitivity (c 0%nat * tot 0%nat + c 1%nat * tot 1%nat + c 2%nat * tot 2%nat).
  { rewrite (sumn_prod 3 NG). rewrite (sumn_ext 3 _ (fun f => c f * tot f)).
    - unfold sumn. cbn [seq map fold_right]. ring.
    - intros f Hf. unfold tot. rewrite <- sumn_scal. apply sumn_ext. intros g Hg'. destruct (Hn f g Hf Hg') as (-> & ->). unfold c, gauss_value, phi.
      rewrite (proj2 (C85_interpolation _ _ _ _ _ _ _ _ _ _ _ _ _ _ _ _ _ _ _ HG Hg) f k g p Hf Hk Hg' Dp). ring. }
  set (F := [(0%nat, 0%nat, ax)]). set (Gp := [(0%nat, 0%nat, ay)]). assert (DF : degree2 N F /\ degree2 N Gp) by (split; apply Forall_cons; [cbn; lia|apply Forall_nil|cbn; lia|apply Forall_nil]).
  assert (EF : forall x y, eval2 F x y = ax) by (intros; unfold F; cbn; ring). assert (EG : forall x y, eval2 Gp x y = ay) by (intros; unfold Gp; cbn; ring).
  assert (Hs : forall f, (f < 3)%nat -> side_integral (TriGeoSpec.corner Vert EToV k f) (TriGeoSpec.corner Vert EToV k ((f + 1) mod 3))
    (fun t => (fst (p_nx (geo G Vert EToV f k), p_ny (geo G Vert EToV f k)) * at_point F (side_point (TriGeoSpec.corner Vert EToV k f) (TriGeoSpec.corner Vert EToV k ((f + 1) mod 3)) t)
             + snd (p_nx (geo G Vert EToV f k), p_ny (geo G Vert EToV f k)) * at_point Gp (side_point (TriGeoSpec.corner Vert EToV k f) (TriGeoSpec.corner Vert EToV k ((f + 1) mod 3)) t))
             * at_point p (side_point (TriGeoSpec.corner Vert EToV k f) (TriGeoSpec.corner Vert EToV k ((f + 1) mod 3)) t)) (c f * tot f)).
  { intros f Hf. replace (c f * tot f) with (c f * tot f + 0 * tot f) by ring. eapply side_integral_ext; [|exact (side_integral_lin _ _ _ _ (c f) 0 _ _ (Htot f Hf) (Htot f Hf))].
    intro t. cbv beta. unfold at_point. rewrite EF, EG. unfold c. cbn [fst snd]. ring. }
  enough (X : 0 + v = c 0%nat * tot 0%nat + c 1%nat * tot 1%nat + c 2%nat * tot 2%nat) by (rewrite <- X; ring).
  apply (green_triangle K Vert EToV k Ha Hk N F Gp p 0 v _ _ _ _ _ _ (proj1 DF) (proj2 DF) Dp (Hnrm 0%nat ltac:(lia)) (Hnrm 1%nat ltac:(lia)) (Hnrm 2%nat ltac:(lia))); [| |exact (Hs 0%nat ltac:(lia))|exact (Hs 1%nat ltac:(lia))|exact (Hs 2%nat ltac:(lia))].
  - exists 0. split; [|ring]. eapply tint_ext; [|apply tint_zero]. intros x y. unfold pulled, F, Gp. cbn. ring.
  - destruct Hv as (i & Hi & Ev). exists i. split; [|exact Ev]. eapply tint_ext; [|exact Hi]. intros x y. unfold pulled. rewrite EF, EG. symmetry. apply Hd.
Qed.
End Built.

(* With a solver that notices singular matrices, a finished cubature mesh tells nodal values apart. *)
Lemma left_kernel n (a : nat -> nat -> R) u j : (j < n)%nat -> u j <> 0 -> (forall i, (i < n)%nat -> sumn n (fun m => a i m * u m) = 0) ->
  exists c, (exists i, (i < n)%nat /\ c i <> 0) /\ forall m, (m < n)%nat -> sumn n (fun i => c i * a i m) = 0.
Proof.
  intros Hj Hu H. set (sk := fun m => if (m <? j)%nat then m else S m). destruct (dependence (n - 1) n (fun i m => a i (sk m)) ltac:(lia)) as (c & Hc & Hz). exists c. split; [exact Hc|].
  assert (Hne : forall m, (m < n)%nat -> m <> j -> sumn n (fun i => c i * a i m) = 0).
  { intros m Hm Hmj. destruct (lt_dec m j) as [Hl|Hl].
    - specialize (Hz m ltac:(lia)). unfold sk in Hz. rewrite (proj2 (Nat.ltb_lt m j) Hl) in Hz. exact Hz.
    - specialize (Hz (m - 1)%nat ltac:(lia)). unfold sk in Hz. rewrite (proj2 (Nat.ltb_ge (m - 1) j)) in Hz by lia. replace (S (m - 1)) with m in Hz by lia. exact Hz. }
  intros m Hm. destruct (Nat.eq_dec m j) as [->|Hmj]; [|now apply Hne].
  assert (Hs : sumn n (fun i => c i * sumn n (fun m => a i m * u m)) = 0) by (apply sumn_zero; intros i Hi; rewrite H by exact Hi; ring).
  rewrite (sumn_ext n _ (fun i => sumn n (fun m => c i * (a i m * u m)))) in Hs by (intros; rewrite sumn_scal; reflexivity).
  rewrite sumn_swap in Hs. rewrite (sumn_ext n _ (fun m => if (m =? j)%nat then u m * sumn n (fun i => c i * a i m) else 0)) in Hs.
  - rewrite (sumn_if n j (fun m => u m * sumn n (fun i => c i * a i m)) Hj) in Hs. apply Rmult_integral in Hs as [Hs|Hs]; [contradiction|exact Hs].
  - intros m' Hm'. destruct (Nat.eqb_spec m' j) as [->|Hne']; [|rewrite <- (Rmult_0_r (u m')), <- (Hne m' Hm' Hne')]; rewrite <- sumn_scal; apply sumn_ext; intros; ring.
Qed.
Lemma unisolvent G solve inverse chol junk eps eig tol N K Vert EToV el lit NC junkc cc :
  cub_ready G solve inverse chol junk eps eig tol N K Vert EToV el lit NC ->
  buildCubatureVolumeMesh (exact G) pow solve chol junk lit junkc (Z.of_nat NC) N K (e_V el) (e_Vinv el) (e_Dr el) (e_Ds el) (e_x el) (e_y el) = Ok cc ->
  rejects_singular solve -> cub_unisolvent el cc.
Proof.
  intros HR Hrun HS u Hu. pose proof (cub_run _ _ _ _ _ _ _ _ _ _ _ _ _ _ _ junkc HR cc Hrun) as HF.
  destruct (cub_front _ _ _ _ _ _ _ _ _ _ _ _ _ _ _ junkc HR) as (rs & ss & ws & Vc & Vr & Vs & X). cbv zeta in X. destruct X as (E1 & E2 & E3 & E4 & L1 & L2 & Hin & Hex & EV & SVc & MV & EG & SR & SS & HGr).
  assert (Hle : (length ws <= length (e_r el))%nat).
  { destruct (le_lt_dec (length ws) (length (e_r el))) as [|Hlt]; [assumption|]. pose proof (many_no _ _ _ _ _ _ _ _ _ _ _ _ _ _ _ junkc HR _ HS E1 Hlt). congruence. }
  unfold buildCubatureVolumeMesh in Hrun. change (fsub (exact G)) with Rminus in Hrun. rewrite E1, E2, E3, E4 in Hrun. cbn [bind] in Hrun. rewrite EV in Hrun. cbn [bind] in Hrun. rewrite EG in Hrun. cbn [bind] in Hrun.
  destruct (diff_matrices_at (exact G) solve junk Vr Vs (e_V el) Vc) as [[[[D1 D2] D3] D4]| |] eqn:ED; try discriminate. cbn [bind] in Hrun.
  assert (Hp : pts_ok rs ss) by (apply (pts_inside rs ss (length ws)); auto; intros i Hi; apply Hin; exact Hi).
  destruct (diff_at _ _ _ _ _ _ _ _ _ _ _ _ _ _ _ HR Vr Vs Vc (length ws) rs ss D1 D2 D3 D4 SR SS L1 Hp HGr ED) as (Hmany & _).
  assert (EqV : cc_n cc = length ws /\ cc_V cc = Vc).
  { destruct (cub_masses _ _ _ _ _ _ _) as [[MM U]| |]; try discriminate. cbn [bind] in Hrun. injection Hrun as <-. auto. }
  destruct EqV as (En & EVc). rewrite En, EVc in Hu. assert (Eq : length ws = length (e_r el)) by lia. rewrite Eq in *.
  intros j Hj. destruct (Req_dec (u j) 0) as [|Hne]; [assumption|]. exfalso.
  destruct (left_kernel _ (ment Vc) u j Hj Hne Hu) as (c & Hc & Hz).
  assert (Hd : diff_matrices_at (exact G) solve junk Vr Vs (e_V el) Vc = Throw); [|congruence]. clear ED.
  destruct HR as [HB _ _ _ _]. assert (HSo : solver_ok solve) by (destruct HB; assumption). destruct (element_ok _ _ _ _ _ _ _ _ _ _ _ _ HB) as [lr _ _ _ _ _ (V1 & V2) _ _ _ _ _ _ _ _ _ _].
  destruct SR as (R1 & R2). destruct SS as (S1 & S2). destruct SVc as (C1 & C2). rewrite <- lr in *. unfold diff_matrices_at. rewrite R1, V1. rewrite Nat.ltb_irrefl.
  unfold computeDifferentiationMatrices. rewrite R1, V1.
  destruct (HSo (length (e_r el)) (length (e_r el)) (mtrans (e_V el)) (mtrans Vr) (mzero (exact G) (length (e_r el)) (length (e_r el)))) as [Es | (Y1 & Es & _)]; try (split; cbn [mtrans mrows mcols mzero]; congruence); rewrite Es; [reflexivity|]. cbn [bind].
  destruct (HSo (length (e_r el)) (length (e_r el)) (mtrans (e_V el)) (mtrans Vs) (mzero (exact G) (length (e_r el)) (length (e_r el)))) as [Es2 | (Y2 & Es2 & _)]; try (split; cbn [mtrans mrows mcols mzero]; congruence); rewrite Es2; [reflexivity|]. cbn [bind].
  rewrite (HS (length (e_r el))); [reflexivity|split; reflexivity|]. exists c. split; [exact Hc|]. intros m Hm. cbn [mtrans ment mmul mrows mcols].
  rewrite (sumn_ext _ _ (fun i => sumn (length (e_r el)) (fun a => ment Vc m a * (c i * ment Vc i a)))).
  - rewrite sumn_swap. apply sumn_zero. intros a Ha. rewrite sumn_scal, Hz by exact Ha. ring.
  - intros i Hi. rewrite fsum_exact. rewrite <- sumn_scal. rewrite ?C2. apply sumn_ext. intros a Ha. change (fmul (exact G)) with Rmult. ring.
Qed.
