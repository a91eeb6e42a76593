(* PoissonRhsProps.v - C81: the boundary right-hand side of the Poisson problem, and the problem it completes. *)
From Coq Require Import ZArith List Lia Bool Arith.
From Verif Require Import Base Loops Num FoldProofs BlitzModel UniqueProofs JacobiModel JacobiSpec JacobiProofs JacobiOrthProofs JacobiQuadProofs JacobiExactProofs Nodes1DModel Nodes1DSpec Nodes1DExactProofs DenseSpec GllProofs
  MeshSpec MeshGeoProofs MeshProps MeshProofs TriModel TriSpec TriBasisProofs TriProofs TriOpProofs TriLiftProofs TriFaceProofs TriNodesProofs TriElemProofs TriGeoSpec TriGeoProofs TriSetup TriProps TriWitness Maps2DModel Maps2DSpec Maps2DProofs Maps2DProps TriMapsProofs TriMapsProps TriDGSpec TriDGProofs
  QuadInterpProofs TripletModel CscModel CscSpec CscProps RKModel Line1DModel Line1DProofs SwModel SwSpec SwProofs SwSchemeProofs SwRunProofs SwProps PoissonModel PoissonSpec PoissonTripletProofs PoissonBlockProofs PoissonProofs PoissonFormProofs PoissonProps PoissonEnergySpec PoissonCoerciveProps
  PoissonLoadSpec PoissonRhsModel PoissonRhsProofs PoissonExactProofs.
From Coq Require Import Reals Lra.
Import ListNotations.
Local Open Scope R_scope.

(* What buildBcRhs stores, on a grid of C46: ubc, qbc are the tables passed in. *)
Definition rhs_of (G : R -> R) (inverse : mat R -> mat R -> outcome (mat R)) (junk : nat -> nat -> R)
  (N K : nat) (E2E E2F : list nat) (bcType : list Z) (el : element (T := R)) (m : maps) (ubc qbc : mat R) : outcome (mat R) :=
  buildBcRhs (exact G) inverse junk (tables N el E2E E2F bcType m) 3 (length (e_r el)) (S N) K N ubc qbc.

Section Facts.
Variables (G : R -> R) (solve : mat R -> mat R -> mat R -> outcome (mat R)) (inverse : mat R -> mat R -> outcome (mat R))
  (junk : nat -> nat -> R) (eps : R) (eig : nat -> (nat -> nat -> R) -> list R * (nat -> nat -> R)) (tol : R)
  (sort : (nat -> nat -> bool) -> list nat -> list nat) (junk1 : nat -> R) (junkn : nat -> nat)
  (N K : nat) (Vert : list R) (EToV E2E E2F : list nat) (bcType : list Z) (el : element (T := R)) (m : maps).
Hypothesis HG : poisson_grid G solve inverse junk eps eig tol sort junk1 junkn N K Vert EToV E2E E2F bcType el m.
Variable jk : nat * R.
Local Notation Np := (length (e_r el)).
Local Notation dof := (nodes el K).
Local Notation rep := (reads N K el).
Local Notation Fm := (mask_table N (e_masks el)).
Local Notation X := (node_at (e_x el) (e_y el)).
Local Notation data := (tabulates N K Vert EToV (e_x el) (e_y el) Fm).
Local Notation rhs := (rhs_of G inverse junk N K E2E E2F bcType el m).

(* Every table of the right shape is boundary data: on each side it is the table of one polynomial of degree N. *)
Theorem C81_data B : shape B (3 * S N) K -> exists g, data (fun _ _ => True) B g.
Proof. intro SB. destruct HG as [[HB HM HA HS Hrun Hbc] HK HP HZ]. eapply tab_exists; eassumption. Qed.
(* With data g on the Dirichlet sides and q on the Neumann and Wall sides, the call returns, and for every test function V
   the products of its nodal values with the right-hand side add up to the load
     sum over Dirichlet sides of  integral (tau V - dV/dn) g  +  sum over Neumann and Wall sides of  integral V q. *)
Theorem C81_load ubc qbc g q : data (dirichlet bcType) ubc g -> data (natural bcType) qbc q ->
  exists B, rhs ubc qbc = Ok B /\ shape B Np K /\
  forall v V, rep v V -> load N K Vert EToV bcType g q V (sumn K (fun k => sumn Np (fun i => v (Np * k + i)%nat * ment B i k))).
Proof. intros Hu Hq. destruct HG as [[HB HM HA HS Hrun Hbc] HK HP HZ]. eapply bcRhs_ok; eassumption. Qed.
(* So it returns for every pair of tables of the right shape. *)
Theorem C81_builds ubc qbc : shape ubc (3 * S N) K -> shape qbc (3 * S N) K -> exists B, rhs ubc qbc = Ok B /\ shape B Np K.
Proof.
  intros Su Sq. destruct (C81_data ubc Su) as (g & Hg). destruct (C81_data qbc Sq) as (q & Hq).
  assert (Hu : data (dirichlet bcType) ubc g) by (eapply tab_on; [|exact Hg]; intros; exact I). assert (Hn : data (natural bcType) qbc q) by (eapply tab_on; [|exact Hq]; intros; exact I).
  destruct (C81_load ubc qbc g q Hu Hn) as (B & E & SB & _). exists B. auto.
Qed.

(* p a polynomial of degree N on the whole plane. *)
Section Solution.
Variables (p px py pxx pxy pyx pyy : poly2) (nrm : nat -> nat -> point).
Hypotheses (Dp : degree2 N p) (Hp : gradient_of p px py) (Hpx : gradient_of px pxx pxy) (Hpy : gradient_of py pyx pyy).
Hypothesis Hnrm : forall k f, (k < K)%nat -> (f < 3)%nat -> normal_of Vert EToV k f (nrm k f).
Definition nodal (h : point -> R) : nat -> R := fun j => h (X (j mod Np) (j / Np)).
Local Notation u := (nodal (at_point p)).
Local Notation src := (nodal (fun P => - (at_point pxx P + at_point pyy P))).
(* the tables hold the values of p at the nodes of Dirichlet sides, and of its normal derivative at those of Neumann and
   Wall sides *)
Variables (ubc qbc : mat R).
Hypotheses (Su : shape ubc (3 * S N) K) (Sq : shape qbc (3 * S N) K).
Hypothesis Hubc : forall k f j, (k < K)%nat -> (f < 3)%nat -> (j <= N)%nat -> dirichlet bcType k f -> ment ubc (f * S N + j) k = at_point p (X (ment Fm j f) k).
Hypothesis Hqbc : forall k f j, (k < K)%nat -> (f < 3)%nat -> (j <= N)%nat -> natural bcType k f ->
  ment qbc (f * S N + j) k = fst (nrm k f) * at_point px (X (ment Fm j f) k) + snd (nrm k f) * at_point py (X (ment Fm j f) k).
Variables (s : poisson R) (B : mat R).
Hypothesis Hs : poisson_of G inverse junk jk N K E2E E2F bcType el m 0 0 = Ok s.
Hypothesis HB : rhs ubc qbc = Ok B.

Local Lemma px_is x y : eval2 px x y = eval2 (ddr p) x y.
Proof. eapply dr_unique; [apply Hp|apply ddr_ok]. Qed.
Local Lemma py_is x y : eval2 py x y = eval2 (dds p) x y.
Proof. eapply ds_unique; [apply Hp|apply dds_ok]. Qed.
Local Lemma pxx_is x y : eval2 pxx x y = eval2 (ddr (ddr p)) x y.
Proof. eapply dr_unique; [apply Hpx|]. unfold dr_is. eapply dpl_ext; [|apply ddr_ok]. intro t. symmetry. apply px_is. Qed.
Local Lemma pyy_is x y : eval2 pyy x y = eval2 (dds (dds p)) x y.
Proof. eapply ds_unique; [apply Hpy|]. unfold ds_is. eapply dpl_ext; [|apply dds_ok]. intro t. symmetry. apply py_is. Qed.
Local Lemma split_index k i : (i < Np)%nat -> ((Np * k + i) mod Np = i)%nat /\ ((Np * k + i) / Np = k)%nat.
Proof. intro Hi. replace (Np * k + i)%nat with (i + k * Np)%nat by lia. rewrite Nat.mod_add, Nat.div_add by lia. rewrite Nat.mod_small, Nat.div_small by lia. auto. Qed.
Local Lemma row_quadratic a v i : (i < dof)%nat -> row_times dof a v i = quadratic dof a (delta i) v.
Proof.
  intro Hi. unfold row_times, quadratic. rewrite (sumn_pick dof (fun i' => sumn dof (fun j => delta i i' * entry_of a i' j * v j)) i Hi).
  - apply sumn_ext. intros j Hj. unfold delta. rewrite Nat.eqb_refl. ring.
  - intros i' Hi' Hne. apply sumn_zero. intros j Hj. unfold delta. destruct (Nat.eqb_spec i i'); [congruence|ring].
Qed.

(* The discrete problem  OP u = MM (-Laplace p) + bcRhs  holds exactly for the nodal values of p. *)
Theorem C81_exact i : (i < dof)%nat -> row_times dof (OP_ s) u i = row_times dof (MM_ s) src i + ment B (i mod Np) (i / Np).
Proof.
  intro Hi. pose proof (C46_one_sided _ _ _ _ _ _ _ _ _ _ _ _ _ _ _ _ _ _ _ HG jk s) as F. pose proof (C46_mass _ _ _ _ _ _ _ _ _ _ _ _ _ _ _ _ _ _ _ HG jk s 0 0) as Fm_.
  assert (Hload : exists B, rhs ubc qbc = Ok B /\ shape B Np K /\ forall v V, rep v V -> load N K Vert EToV bcType (values_of Vert EToV p) (normal_derivative_of Vert EToV (ddr p) (dds p) nrm) V (sumn K (fun k => sumn Np (fun i => v (Np * k + i)%nat * ment B i k)))).
  { apply C81_load.
    - apply tab_values; assumption.
    - apply tab_ders; [assumption..|]. intros k f j Hk Hf Hj Ho. rewrite Hqbc by assumption. unfold at_point. rewrite px_is, py_is. reflexivity. }
  destruct Hload as (B' & E & _ & HL). rewrite HB in E. injection E as <-.
  destruct HG as [[HBu HM HA HS Hrun Hbc] HK HP HZ].
  assert (HV : exists V, rep (delta i) V) by (eapply rep_exists; eassumption). destruct HV as (V & HV).
  assert (HU : rep u (same p)).
  { intros k Hk. split; [exists p; split; [exact Dp|reflexivity]|]. split; [intros; apply ddr_ok|]. split; [intros; apply dds_ok|]. intros j Hj. unfold nodal. destruct (split_index k j Hj) as (-> & ->). reflexivity. }
  set (lp := mono2 0 0 (-1) (ddr (ddr p)) ++ mono2 0 0 (-1) (dds (dds p))).
  assert (Elp : forall x y, eval2 lp x y = - (eval2 (ddr (ddr p)) x y + eval2 (dds (dds p)) x y)) by (intros; unfold lp; rewrite eval2_app, !mono2_eval; cbn [pow]; ring).
  assert (Dlp : degree2 N lp). { apply Forall_app. split; apply (mono2_deg 0 0); [apply ddr_deg, ddr_deg|apply dds_deg, dds_deg]; exact Dp. }
  assert (HF : rep src (same lp)).
  { intros k Hk. split; [exists lp; split; [exact Dlp|reflexivity]|]. split; [intros; apply ddr_ok|]. split; [intros; apply dds_ok|]. intros j Hj. unfold nodal. destruct (split_index k j Hj) as (-> & ->).
    unfold val_at, at_point. cbn [same val]. rewrite Elp, pxx_is, pyy_is. reflexivity. }
  rewrite !row_quadratic by exact Hi.
  destruct (finite_choice ([] : poly2) K (fun k W => degree2 N W /\ (forall x y, val V k x y = eval2 W x y) /\ (forall x y, ddx V k x y = eval2 (ddr W) x y) /\ forall x y, ddy V k x y = eval2 (dds W) x y)) as (W & HW).
  { intros k Hk. assert (Hr : exists p, local N el k p (fun i0 => delta i (Np * k + i0)%nat) /\ (forall x y, val V k x y = eval2 p x y) /\ (forall x y, ddx V k x y = eval2 (ddr p) x y) /\ forall x y, ddy V k x y = eval2 (dds p) x y) by (eapply rep_local; eassumption).
    destruct Hr as (w & (D & _) & H). exists w. split; [exact D|exact H]. }
  assert (Hsum : sumn K (fun k => sumn Np (fun j => delta i (Np * k + j)%nat * ment B j k)) = ment B (i mod Np) (i / Np)).
  { assert (Hnp : (0 < Np)%nat) by (unfold nodes in Hi; destruct Np; lia). assert (Hk : (i / Np < K)%nat) by (apply Nat.div_lt_upper_bound; [lia|unfold nodes in Hi; lia]). pose proof (Nat.mod_upper_bound i Np ltac:(lia)) as Hj. pose proof (Nat.div_mod i Np ltac:(lia)) as Ei.
    rewrite (sumn_pick K _ (i / Np)%nat Hk).
    - rewrite (sumn_pick Np _ (i mod Np)%nat Hj); [unfold delta; rewrite <- Ei, Nat.eqb_refl; ring|]. intros j Hj' Hne. unfold delta. destruct (Nat.eqb_spec i (Np * (i / Np) + j)); [exfalso; lia|ring].
    - intros k Hk' Hne. apply sumn_zero. intros j Hj'. unfold delta. destruct (Nat.eqb_spec i (Np * k + j)) as [Ee|]; [|ring]. exfalso. apply Hne. rewrite Ee. symmetry. apply (split_index k j Hj'). }
  rewrite <- Hsum. eapply (form_exact N K Vert EToV E2E E2F bcType HM HA p Dp nrm Hnrm V W); [exact HW|apply F; assumption| |apply HL; exact HV].
  assert (Fmm : mass_form K Vert EToV (same lp) V (quadratic dof (MM_ s) (delta i) src)) by (apply Fm_; assumption).
  destruct Fmm as (vol & V1 & V2). exists vol. split; [|exact V2]. intros k Hk. eapply eint_ext; [|exact (V1 k Hk)]. intros x y. cbn [same source_ val]. rewrite Elp. reflexivity.
Qed.
(* On a connected mesh with a Dirichlet side p is the only solution of the discrete problem. *)
Theorem C81_solution z k f : consistent_tags K EToV bcType -> connected K EToV bcType -> (k < K)%nat -> (f < 3)%nat -> dirichlet bcType k f ->
  (forall i, (i < dof)%nat -> row_times dof (OP_ s) z i = row_times dof (MM_ s) src i + ment B (i mod Np) (i / Np)) ->
  forall i, (i < dof)%nat -> z i = at_point p (X (i mod Np) (i / Np)).
Proof.
  intros HC HL Hk Hf Hd Hz i Hi.
  assert (HZ : z i - u i = 0); [|unfold nodal in HZ; lra].
  apply (C79_dirichlet_nonsingular _ _ _ _ _ _ _ _ _ _ _ _ _ _ _ _ _ _ _ HG HC jk s (fun j => z j - u j) k f Hs HL Hk Hf Hd); [|exact Hi].
  intros j Hj. pose proof (Hz j Hj) as E1. rewrite <- (C81_exact j Hj) in E1. unfold row_times in E1.
  rewrite (sumn_ext dof _ (fun l => entry_of (OP_ s) j l * z l + -1 * (entry_of (OP_ s) j l * u l))) by (intros; ring). rewrite sumn_plus, sumn_scal, E1. ring.
Qed.
End Solution.

(* A Dirichlet table with more entries than the sides have nodes is written past the end of the vector that receives it. *)
Theorem C81_oversized ubc qbc : (3 * S N * K < mrows ubc * mcols ubc)%nat -> rhs ubc qbc = UB.
Proof.
  intro HL. unfold rhs_of, buildBcRhs, require. destruct HG as [[HB HM HA HS Hrun Hbc] HK HP HZ]. destruct (ptables_conform _ 3 (S N) Np K); [|reflexivity].
  cbn [tables p_r p_s p_Fm p_dg]. destruct (massEdgesRhs _ _ _ _ _ _ _ _ _) as [ME| |] eqn:EM; [|exfalso|reflexivity]; cbn [bind].
  - rewrite reshape_short; [reflexivity|]. rewrite repeat_length. lia.
  - assert (HME : exists ME, massEdges (exact G) inverse junk 3 Np (S N) (e_r el) (e_s el) Fm = Ok ME /\ edges_ok N el ME) by (eapply massEdges_ok; eassumption). destruct HME as (ME & EME & _).
    unfold massEdges in EME. unfold massEdgesRhs in EM. cbn [Nat.eqb Nat.ltb Nat.leb orb negb] in EME, EM. rewrite EME in EM. discriminate EM.
Qed.
End Facts.
(* The mesh of C46: two triangles, order 1, sides of all three kinds; p = 1 + 2x + 3y. *)
Example C81_witness :
  let Vert := [0; 0; 0;  1; 0; 0;  1; 1; 0;  0; 1; 0] in let EToV := [0; 1; 2;  0; 2; 3]%nat in
  let E2E := [0; 0; 1;  0; 1; 1]%nat in let E2F := [0; 1; 0;  2; 1; 2]%nat in let bcType := [6; 3; 0; 0; 3; 7]%Z in
  let p : poly2 := [(0%nat, 0%nat, 1); (1%nat, 0%nat, 2); (0%nat, 1%nat, 3)] in let px : poly2 := [(0%nat, 0%nat, 2)] in let py : poly2 := [(0%nat, 0%nat, 3)] in
  exists el m nrm ubc qbc s B,
    poisson_grid gwit cramer cramer_inv junk0 0 eig0 (1 / 10) isort (fun _ => 0) (fun _ => 0%nat) 1 2 Vert EToV E2E E2F bcType el m /\
    degree2 1 p /\ gradient_of p px py /\ gradient_of px [] [] /\ gradient_of py [] [] /\
    (forall k f, (k < 2)%nat -> (f < 3)%nat -> normal_of Vert EToV k f (nrm k f)) /\ shape ubc 6 2 /\ shape qbc 6 2 /\
    (forall k f j, (k < 2)%nat -> (f < 3)%nat -> (j <= 1)%nat -> dirichlet bcType k f -> ment ubc (f * 2 + j) k = at_point p (node_at (e_x el) (e_y el) (ment (mask_table 1 (e_masks el)) j f) k)) /\
    (forall k f j, (k < 2)%nat -> (f < 3)%nat -> (j <= 1)%nat -> natural bcType k f -> ment qbc (f * 2 + j) k = 2 * fst (nrm k f) + 3 * snd (nrm k f)) /\
    poisson_of gwit cramer_inv junk0 (0%nat, 0) 1 2 E2E E2F bcType el m 0 0 = Ok s /\ rhs_of gwit cramer_inv junk0 1 2 E2E E2F bcType el m ubc qbc = Ok B /\
    consistent_tags 2 EToV bcType /\ connected 2 EToV bcType /\ dirichlet bcType 0 0 /\ natural bcType 0 1 /\ natural bcType 1 2.
Proof.
  intros Vert EToV E2E E2F bcType p px py. destruct (C79_witness bcType (or_intror eq_refl)) as ((el & m & HG) & HC & HL).
  assert (HN : exists nrm, forall k f, (k < 2)%nat -> (f < 3)%nat -> normal_of Vert EToV k f (nrm k f)).
  { destruct HG as [[HB HM HA HS Hrun Hbc] HK HP HZ]. exists (fun k f => (ment (d_nx (tables_of el m)) (f * 2) k, ment (d_ny (tables_of el m)) (f * 2) k)). intros k f Hk Hf. eapply (normal_d gwit cramer cramer_inv junk0 0 eig0 (1 / 10) 1 2); eassumption. }
  destruct HN as (nrm & Hn).
  set (ubc := mkmat 6 2 (fun i k => at_point p (node_at (e_x el) (e_y el) (ment (mask_table 1 (e_masks el)) (i mod 2) (i / 2)) k))).
  set (qbc := mkmat 6 2 (fun i k => 2 * fst (nrm k (i / 2)%nat) + 3 * snd (nrm k (i / 2)%nat))).
  destruct (C46_builds _ _ _ _ _ _ _ _ _ _ _ _ _ _ _ _ _ _ _ HG (0%nat, 0) 0 0) as (s & Hs).
  destruct (C81_builds _ _ _ _ _ _ _ _ _ _ _ _ _ _ _ _ _ _ _ HG ubc qbc) as (B & HB & _); [split; reflexivity|split; reflexivity|].
  assert (Hi : forall f j, (j <= 1)%nat -> ((f * 2 + j) / 2 = f /\ (f * 2 + j) mod 2 = j)%nat).
  { intros f j Hj. replace (f * 2 + j)%nat with (j + f * 2)%nat by lia. rewrite Nat.mod_add, Nat.div_add by lia. rewrite Nat.mod_small, Nat.div_small by lia. auto. }
  assert (Hg : forall p px py, (forall x y, eval2 px x y = eval2 (ddr p) x y) -> (forall x y, eval2 py x y = eval2 (dds p) x y) -> gradient_of p px py).
  { intros a ax ay Ex Ey. split; intros X Y; [rewrite Ex; apply ddr_ok|rewrite Ey; apply dds_ok]. }
  exists el, m, nrm, ubc, qbc, s, B. split; [exact HG|]. split; [repeat constructor|].
  do 3 (split; [apply Hg; intros; vm_compute; lra|]). split; [exact Hn|]. do 2 (split; [split; reflexivity|]).
  split; [intros k f j _ _ Hj _; unfold ubc; cbn [ment]; destruct (Hi f j Hj) as (-> & ->); reflexivity|].
  split; [intros k f j _ _ Hj _; unfold qbc; cbn [ment]; destruct (Hi f j Hj) as (-> & _); reflexivity|].
  split; [exact Hs|]. split; [exact HB|]. split; [exact HC|]. split; [exact HL|]. split; [reflexivity|]. split; [left; reflexivity|right; reflexivity].
Qed.
Print Assumptions C81_data.
Print Assumptions C81_load.
Print Assumptions C81_builds.
Print Assumptions C81_exact.
Print Assumptions C81_solution.
Print Assumptions C81_oversized.
