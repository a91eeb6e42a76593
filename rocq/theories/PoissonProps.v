(* PoissonProps.v - C46 and C47: the matrices of the discontinuous Galerkin Poisson operator. *)
From Coq Require Import ZArith List Lia Bool Arith.
From Verif Require Import Base Loops Num FoldProofs BlitzModel UniqueProofs JacobiModel JacobiSpec JacobiProofs JacobiOrthProofs JacobiQuadProofs JacobiExactProofs Nodes1DModel Nodes1DSpec Nodes1DExactProofs DenseSpec GllProofs
  MeshSpec MeshGeoProofs MeshProps MeshProofs TriModel TriSpec TriBasisProofs TriProofs TriOpProofs TriLiftProofs TriFaceProofs TriNodesProofs TriElemProofs TriGeoSpec TriGeoProofs TriSetup TriProps TriWitness Maps2DModel Maps2DSpec Maps2DProofs Maps2DProps TriMapsProofs TriMapsProps TriDGSpec TriDGProofs
  QuadInterpProofs TripletModel CscModel CscSpec CscProps RKModel Line1DModel Line1DProofs SwModel SwSpec SwProofs SwSchemeProofs SwRunProofs SwProps PoissonModel PoissonSpec PoissonTripletProofs PoissonBlockProofs PoissonProofs PoissonFormProofs.
From Coq Require Import Reals Lra.
Import ListNotations.
Local Open Scope R_scope.

(* A triangle grid of order N on which the operator is assembled (sw_grid: nodes, operators and trace maps built by the
   provisioner on a conforming mesh of positively oriented triangles with a tag for every side), with sizes that fit in int. *)
Record poisson_grid (G : R -> R) (solve : mat R -> mat R -> mat R -> outcome (mat R)) (inverse : mat R -> mat R -> outcome (mat R))
  (junk : nat -> nat -> R) (eps : R) (eig : nat -> (nat -> nat -> R) -> list R * (nat -> nat -> R)) (tol : R)
  (sort : (nat -> nat -> bool) -> list nat -> list nat) (junk1 : nat -> R) (junkn : nat -> nat)
  (N K : nat) (Vert : list R) (EToV E2E E2F : list nat) (bcType : list Z) (el : element (T := R)) (m : maps) : Prop := PoissonGrid {
  pg_grid : sw_grid G solve inverse junk eps eig tol sort junk1 junkn N K Vert EToV E2E E2F bcType el m;
  pg_some : (0 < K)%nat;
  pg_penalty : (20000 * Z.of_nat (N + 1) * Z.of_nat (N + 1) <= INT_MAX)%Z;
  pg_size : ((1 + 3) * Z.of_nat (length (e_r el)) * Z.of_nat (length (e_r el)) * Z.of_nat K + 2 * Z.of_nat (length (e_r el) * K) <= INT_MAX)%Z }.

(* What the constructor builds from that grid. The tables it reads are the provisioner's own. *)
Definition poisson_of (G : R -> R) (inverse : mat R -> mat R -> outcome (mat R)) (junk : nat -> nat -> R) (jk : nat * R)
  (N K : nat) (E2E E2F : list nat) (bcType : list Z) (el : element (T := R)) (m : maps) (bordered skipDG : Z) : outcome (poisson R) :=
  build (exact G) inverse junk jk (tables N el E2E E2F bcType m) 3 (length (e_r el)) (S N) K N bordered skipDG.
Definition nodes (el : element (T := R)) (K : nat) : nat := (length (e_r el) * K)%nat.
Definition reads (N K : nat) (el : element (T := R)) (u : nat -> R) (U : piecewise) : Prop := represents N (length (e_r el)) K (e_x el) (e_y el) u U.

Section Facts.
Variables (G : R -> R) (solve : mat R -> mat R -> mat R -> outcome (mat R)) (inverse : mat R -> mat R -> outcome (mat R))
  (junk : nat -> nat -> R) (eps : R) (eig : nat -> (nat -> nat -> R) -> list R * (nat -> nat -> R)) (tol : R)
  (sort : (nat -> nat -> bool) -> list nat -> list nat) (junk1 : nat -> R) (junkn : nat -> nat)
  (N K : nat) (Vert : list R) (EToV E2E E2F : list nat) (bcType : list Z) (el : element (T := R)) (m : maps).
Hypothesis HG : poisson_grid G solve inverse junk eps eig tol sort junk1 junkn N K Vert EToV E2E E2F bcType el m.
Variable jk : nat * R.
Local Notation Np := (length (e_r el)).
Local Notation dof := (nodes el K).
Local Notation rep := (reads N K el).

Local Lemma op_exists b sk : let D := (if (b =? 0)%Z then dof else S dof) in
  exists s es, poisson_of G inverse junk jk N K E2E E2F bcType el m b sk = Ok s /\
  valid (OP_ s) /\ rows (OP_ s) = D /\ cols (OP_ s) = D /\ valid (MM_ s) /\ rows (MM_ s) = dof /\ cols (MM_ s) = dof /\
  (forall v u, quadratic D (OP_ s) v u = bl es v u + if (b =? 0)%Z then 0 else v dof * sumn dof u + sumn dof v * u dof) /\
  (forall v u U V, rep u U -> rep v V -> mass_form K Vert EToV U V (quadratic dof (MM_ s) v u)) /\
  (forall v u U V, rep u U -> rep v V -> form_upto N K Vert EToV bcType sk K U V (bl es v u)).
Proof.
  intro D. destruct HG as [[HB HM HA HS Hrun Hbc] HK HP HZ].
  destruct (assemble_ok _ _ _ _ _ _ _ _ _ _ _ _ HB _ _ HM HA HS _ _ _ _ _ _ Hrun Hbc b sk HK HP HZ) as (OP & Mt & es & fs & cap & capM & Ea & Ho & Hm & Hf).
  cbv zeta in Ho.
  destruct (C05_triplet_to_csc R jk OP (has_range _ _ _ _ Ho)) as (a & Eo & _). destruct (C05_triplet_to_csc R jk Mt (has_range _ _ _ _ Hm)) as (c & Em & _).
  destruct (csc_of _ _ _ _ _ _ Ho Eo) as (V1 & R1 & C1 & _ & Q1). destruct (csc_of _ _ _ _ _ _ Hm Em) as (V2 & R2 & C2 & _ & Q2).
  assert (HD : D = (Np * K + (if (b =? 0)%Z then 0 else 1))%nat) by (unfold D, nodes; destruct (b =? 0)%Z; lia).
  exists (Poisson a c), es. split; [|cbn [OP_ MM_]; split; [exact V1|]; split; [congruence|]; split; [congruence|]; split; [exact V2|]; split; [exact R2|]; split; [exact C2|]; split; [|split]].
  - unfold poisson_of, build. rewrite Ea. cbn [bind]. rewrite Eo. cbn [bind]. rewrite Em. reflexivity.
  - intros v u. rewrite HD, Q1, bl_app. destruct (b =? 0)%Z; [reflexivity|]. now rewrite bl_frame.
  - intros v u U V HU HV. fold (nodes el K) in Q2. rewrite Q2. apply (Hf v u U V HU HV).
  - intros v u U V HU HV. apply (Hf v u U V HU HV).
Qed.
Local Lemma op_of b sk s : poisson_of G inverse junk jk N K E2E E2F bcType el m b sk = Ok s -> let D := (if (b =? 0)%Z then dof else S dof) in
  exists es, valid (OP_ s) /\ rows (OP_ s) = D /\ cols (OP_ s) = D /\ valid (MM_ s) /\ rows (MM_ s) = dof /\ cols (MM_ s) = dof /\
  (forall v u, quadratic D (OP_ s) v u = bl es v u + if (b =? 0)%Z then 0 else v dof * sumn dof u + sumn dof v * u dof) /\
  (forall v u U V, rep u U -> rep v V -> mass_form K Vert EToV U V (quadratic dof (MM_ s) v u)) /\
  (forall v u U V, rep u U -> rep v V -> form_upto N K Vert EToV bcType sk K U V (bl es v u)).
Proof. intros Hs D. destruct (op_exists b sk) as (s' & es & Es & H). rewrite Es in Hs. injection Hs as ->. exists es. exact H. Qed.
Local Lemma upto_full U V w : form_upto N K Vert EToV bcType 0 K U V w -> one_sided_form N K Vert EToV bcType U V w.
Proof. intros (vol & sd & A & B & ->). exists vol, sd. split; [exact A|]. split; [exact B|reflexivity]. Qed.

(* ---------- C46 ---------- *)
(* On every such grid the constructor returns: it neither throws nor reads out of bounds. *)
Theorem C46_builds b sk : exists s, poisson_of G inverse junk jk N K E2E E2F bcType el m b sk = Ok s.
Proof. destruct (op_exists b sk) as (s & _ & E & _). exists s. exact E. Qed.
Theorem C46_shape b sk s : poisson_of G inverse junk jk N K E2E E2F bcType el m b sk = Ok s ->
  valid (OP_ s) /\ valid (MM_ s) /\ rows (MM_ s) = dof /\ cols (MM_ s) = dof /\
  rows (OP_ s) = (if (b =? 0)%Z then dof else S dof) /\ cols (OP_ s) = (if (b =? 0)%Z then dof else S dof).
Proof. intro Hs. destruct (op_of b sk s Hs) as (es & A & B & C & D & E & F & _). tauto. Qed.
(* Every boundary table: v^T OP u is the form in which each side meets the test functions of its own element. *)
Theorem C46_one_sided s u v U V : poisson_of G inverse junk jk N K E2E E2F bcType el m 0 0 = Ok s -> rep u U -> rep v V ->
  one_sided_form N K Vert EToV bcType U V (quadratic dof (OP_ s) v u).
Proof.
  intros Hs HU HV. destruct (op_of 0 0 s Hs) as (es & _ & _ & _ & _ & _ & _ & Q & _ & F). cbn [Z.eqb] in Q. rewrite Q, Rplus_0_r. apply upto_full. apply F; assumption.
Qed.
(* Consistent boundary tables: v^T OP u is the symmetric interior penalty form. *)
Theorem C46_form s u v U V : poisson_of G inverse junk jk N K E2E E2F bcType el m 0 0 = Ok s -> consistent_tags K EToV bcType -> rep u U -> rep v V ->
  penalty_form N K Vert EToV bcType U V (quadratic dof (OP_ s) v u).
Proof.
  intros Hs HC HU HV. pose proof (C46_one_sided s u v U V Hs HU HV) as H. destruct HG as [[HB HM HA HS Hrun Hbc] HK HP HZ].
  eapply penalty_of_one_sided; eassumption.
Qed.
Local Lemma sym_forms (q : (nat -> R) -> (nat -> R) -> R) : consistent_tags K EToV bcType -> (forall v u U V, rep u U -> rep v V -> one_sided_form N K Vert EToV bcType U V (q v u)) ->
  forall v u, q v u = q u v.
Proof.
  intros HC H v u. destruct HG as [[HB HM HA HS Hrun Hbc] HK HP HZ].
  assert (HU : exists U, rep u U) by (eapply rep_exists; eassumption). assert (HV : exists V, rep v V) by (eapply rep_exists; eassumption). destruct HU as (U & HU), HV as (V & HV).
  assert (P1 : penalty_form N K Vert EToV bcType U V (q v u)) by (eapply penalty_of_one_sided; try eassumption; apply H; assumption).
  assert (P2 : penalty_form N K Vert EToV bcType V U (q u v)) by (eapply penalty_of_one_sided; try eassumption; apply H; assumption).
  assert (P3 : penalty_form N K Vert EToV bcType U V (q u v)) by (eapply penalty_sym; eassumption). eapply form_unique; [eassumption..|exact P1|exact P3].
Qed.
Theorem C46_symmetric s b : poisson_of G inverse junk jk N K E2E E2F bcType el m b 0 = Ok s -> consistent_tags K EToV bcType ->
  forall i j, (i < rows (OP_ s))%nat -> (j < rows (OP_ s))%nat -> entry_of (OP_ s) i j = entry_of (OP_ s) j i.
Proof.
  intros Hs HC i j Hi Hj. destruct (op_of b 0 s Hs) as (es & _ & R1 & _ & _ & _ & _ & Q & _ & F). rewrite R1 in Hi, Hj.
  rewrite (entry_quadratic _ _ i j Hi Hj), (entry_quadratic _ _ j i Hj Hi), !Q.
  rewrite (sym_forms (fun v u => bl es v u) HC (fun v u U V HU HV => upto_full _ _ _ (F v u U V HU HV)) (delta i) (delta j)). destruct (b =? 0)%Z; ring.
Qed.
(* With a border the operator gains a row and a column of ones: v^T OP u is the form of the nodal parts plus the last entry of
   one vector times the sum of the nodal values of the other. *)
Theorem C46_bordered s b u v U V : b <> 0%Z -> poisson_of G inverse junk jk N K E2E E2F bcType el m b 0 = Ok s -> consistent_tags K EToV bcType -> rep u U -> rep v V ->
  exists w, penalty_form N K Vert EToV bcType U V w /\
  quadratic (S dof) (OP_ s) v u = w + (v dof * sumn dof u + sumn dof v * u dof).
Proof.
  intros Hb Hs HC HU HV. destruct (op_of b 0 s Hs) as (es & _ & _ & _ & _ & _ & _ & Q & _ & F). apply Z.eqb_neq in Hb. rewrite Hb in Q. exists (bl es v u). split; [|apply Q].
  pose proof (upto_full _ _ _ (F v u U V HU HV)) as H. destruct HG as [[HB HM HA HS Hrun Hbc] HK HP HZ]. eapply penalty_of_one_sided; eassumption.
Qed.
(* skipDG leaves the volume part. *)
Theorem C46_skip s sk u v U V : sk <> 0%Z -> poisson_of G inverse junk jk N K E2E E2F bcType el m 0 sk = Ok s -> rep u U -> rep v V ->
  stiffness_form K Vert EToV U V (quadratic dof (OP_ s) v u).
Proof.
  intros Hk Hs HU HV. destruct (op_of 0 sk s Hs) as (es & _ & _ & _ & _ & _ & _ & Q & _ & F). cbn [Z.eqb] in Q. rewrite Q, Rplus_0_r.
  destruct (F v u U V HU HV) as (vol & sd & A & B & E). exists vol. split; [exact A|]. rewrite E. apply sumn_ext. intros k Hkk. apply Z.eqb_neq in Hk. unfold side_part in B. rewrite Hk in B.
  rewrite !B by (assumption || lia). ring.
Qed.
(* The mass matrix. *)
Theorem C46_mass s b sk u v U V : poisson_of G inverse junk jk N K E2E E2F bcType el m b sk = Ok s -> rep u U -> rep v V ->
  mass_form K Vert EToV U V (quadratic dof (MM_ s) v u).
Proof. intros Hs HU HV. destruct (op_of b sk s Hs) as (es & _ & _ & _ & _ & _ & _ & _ & Q & _). apply Q; assumption. Qed.
Theorem C46_mass_symmetric s b sk : poisson_of G inverse junk jk N K E2E E2F bcType el m b sk = Ok s ->
  forall i j, (i < dof)%nat -> (j < dof)%nat -> entry_of (MM_ s) i j = entry_of (MM_ s) j i.
Proof.
  intros Hs i j Hi Hj. rewrite (entry_quadratic _ _ i j Hi Hj), (entry_quadratic _ _ j i Hj Hi). pose proof (C46_mass s b sk) as F. destruct HG as [[HB HM HA HS Hrun Hbc] HK HP HZ].
  assert (HU : exists U, rep (delta i) U) by (eapply rep_exists; eassumption). assert (HV : exists V, rep (delta j) V) by (eapply rep_exists; eassumption). destruct HU as (U & HU), HV as (V & HV).
  assert (M1 : mass_form K Vert EToV V U (quadratic dof (MM_ s) (delta i) (delta j))) by (apply F; assumption).
  assert (M2 : mass_form K Vert EToV U V (quadratic dof (MM_ s) (delta j) (delta i))) by (apply F; assumption).
  eapply mass_unique; [exact M1|]. eapply mass_sym. exact M2.
Qed.

(* ---------- C47 ---------- *)
(* No side carries a Dirichlet tag: every row of the operator sums to zero, so constants are in its kernel; and with the
   border the nodal part of a constant is still in it. *)
Theorem C47_constants_in_kernel s : poisson_of G inverse junk jk N K E2E E2F bcType el m 0 0 = Ok s ->
  (forall k f, (k < K)%nat -> (f < 3)%nat -> ~ dirichlet bcType k f) ->
  forall c i, (i < dof)%nat -> sumn dof (fun j => entry_of (OP_ s) i j * c) = 0.
Proof.
  intros Hs HD c i Hi. pose proof (C46_one_sided s) as F. destruct HG as [[HB HM HA HS Hrun Hbc] HK HP HZ].
  assert (HV : exists V, rep (delta i) V) by (eapply rep_exists; eassumption). destruct HV as (V & HV).
  set (U := Piecewise (fun _ _ _ => c) (fun _ _ _ => 0) (fun _ _ _ => 0)).
  assert (HU : rep (fun _ => c) U).
  { intros k Hk. split; [|split; [|split]].
    - exists [(0%nat, 0%nat, c)]. split; [repeat constructor; cbn; lia|]. intros X Y. cbn. ring.
    - intros X Y. unfold dr_is. cbn. apply derivable_pt_lim_const.
    - intros X Y. unfold ds_is. cbn. apply derivable_pt_lim_const.
    - reflexivity. }
  pose proof (F (fun _ => c) (delta i) U V Hs HU HV) as H.
  assert (E : quadratic dof (OP_ s) (delta i) (fun _ => c) = sumn dof (fun j => entry_of (OP_ s) i j * c)).
  { unfold quadratic. rewrite (sumn_ext dof _ (fun p => delta i p * sumn dof (fun q => entry_of (OP_ s) p q * c))) by (intros; rewrite <- sumn_scal; apply sumn_ext; intros; ring). apply sumn_delta. exact Hi. }
  rewrite <- E. assert (Z0 : one_sided_form N K Vert EToV bcType U V 0); [|eapply form_unique; [eassumption..|exact H|exact Z0]].
  destruct H as (vol & sd & A & B & _). exists (fun _ => 0), (fun _ _ => 0). split; [|split].
  - intros k Hk. exists 0. split; [|ring]. apply (tint_ext (fun _ _ => 0)); [|apply tint_zero]. intros; cbv beta. unfold pulled, U. cbn [ddx ddy]. ring.
  - intros k f Hk Hf. destruct (B k f Hk Hf) as (k2 & f2 & n & B1 & B2 & _). exists k2, f2, n. split; [exact B1|]. split; [exact B2|]. cbv zeta. split; [intro Hd; exfalso; exact (HD k f Hk Hf Hd)|]. split; [reflexivity|].
    intros _. exists 0. split; [|ring]. apply (integral_ext (fun _ => 0)); [|apply integral_zero]. intro t. unfold one_sided_density, jump, mean, along, val_at, U. cbn [val ddx ddy]. cbv beta. unfold Rdiv. ring.
  - symmetry. apply sumn_zero. intros; ring.
Qed.

Local Lemma rep_const c : rep (fun _ => c) (Piecewise (fun _ _ _ => c) (fun _ _ _ => 0) (fun _ _ _ => 0)).
Proof.
  intros k Hk. split; [|split; [|split]].
  - exists [(0%nat, 0%nat, c)]. split; [repeat constructor; cbn; lia|]. intros X Y. cbn. ring.
  - intros X Y. unfold dr_is. cbn. apply derivable_pt_lim_const.
  - intros X Y. unfold ds_is. cbn. apply derivable_pt_lim_const.
  - reflexivity.
Qed.
(* The mass matrix is positive definite. *)
Theorem C46_mass_positive s b sk u : poisson_of G inverse junk jk N K E2E E2F bcType el m b sk = Ok s ->
  (exists g, (g < dof)%nat /\ u g <> 0) -> 0 < quadratic dof (MM_ s) u u.
Proof.
  intros Hs (g & Hg & Hu). pose proof (C46_mass s b sk u u) as F. destruct HG as [[HB HM HA HS Hrun Hbc] HK HP HZ].
  assert (HU : exists U, rep u U) by (eapply rep_exists; eassumption). destruct HU as (U & HU).
  assert (HP' : 0 <= quadratic dof (MM_ s) u u /\ (quadratic dof (MM_ s) u u = 0 -> forall g, (g < Np * K)%nat -> u g = 0)) by (eapply mass_positive; [eassumption..|exact HU|apply F; assumption]).
  destruct HP' as (A & B). destruct (Rle_lt_or_eq_dec _ _ A) as [|E]; [assumption|]. exfalso. apply Hu. apply B; [now symmetry|exact Hg].
Qed.
(* What the C++ accessors hand out: all entries of getOP() sum to the area of the mesh and, when no side is a Dirichlet side, all
   entries of getMM() sum to zero. getOP() is the mass matrix and getMM() the operator. *)
Theorem C46_accessors_refuted s : poisson_of G inverse junk jk N K E2E E2F bcType el m 0 0 = Ok s ->
  (forall k f, (k < K)%nat -> (f < 3)%nat -> ~ dirichlet bcType k f) ->
  let total a := sumn dof (fun i => sumn dof (fun j => entry_of a i j)) in
  total (getOP s) = sumn K (fun k => area (TriGeoSpec.corner Vert EToV k 0) (TriGeoSpec.corner Vert EToV k 1) (TriGeoSpec.corner Vert EToV k 2)) /\
  0 < total (getOP s) /\ total (getMM s) = 0.
Proof.
  intros Hs HD total. pose proof (C46_mass s 0 0 (fun _ => 1) (fun _ => 1) _ _ Hs (rep_const 1) (rep_const 1)) as M. pose proof (C47_constants_in_kernel s Hs HD 1) as Z.
  assert (E : forall a, total a = quadratic dof a (fun _ => 1) (fun _ => 1)) by (intro a; unfold total, quadratic; apply sumn_ext; intros; apply sumn_ext; intros; ring).
  assert (A : total (getOP s) = sumn K (fun k => area (TriGeoSpec.corner Vert EToV k 0) (TriGeoSpec.corner Vert EToV k 1) (TriGeoSpec.corner Vert EToV k 2))).
  { rewrite E. unfold getOP. eapply mass_unique; [exact M|]. eexists. split; [|reflexivity]. intros k Hk. exists 2. split; [|cbv beta; field]. apply (tint_ext (fun _ _ => 1)); [|apply tint_one]. intros. unfold pulled. cbn. ring. }
  split; [exact A|]. split.
  - rewrite A. destruct HG as [[HB HM HA HS Hrun Hbc] HK HP HZ]. rewrite (sumn_ext K _ (fun k => Rabs (area (TriGeoSpec.corner Vert EToV k 0) (TriGeoSpec.corner Vert EToV k 1) (TriGeoSpec.corner Vert EToV k 2)))) by (intros k Hk; symmetry; apply Rabs_right; apply Rle_ge; left; apply HA; exact Hk).
    destruct K as [|K']; [lia|]. rewrite sumn_S. apply Rplus_le_lt_0_compat; [apply sumn_nonneg; intros; apply Rabs_pos|]. apply Rabs_pos_lt. pose proof (HA K' ltac:(lia)). lra.
  - unfold total, getMM. apply sumn_zero. intros i Hi. rewrite <- (Z i Hi). apply sumn_ext. intros; ring.
Qed.
End Facts.

(* Two triangles on the unit square; every boundary side a wall, or one a Dirichlet side. *)
Lemma poisson_witness bcType : (6 <= length bcType)%nat ->
  let Vert := [0; 0; 0;  1; 0; 0;  1; 1; 0;  0; 1; 0] in let EToV := [0; 1; 2;  0; 2; 3]%nat in
  let E2E := [0; 0; 1;  0; 1; 1]%nat in let E2F := [0; 1; 0;  2; 1; 2]%nat in
  exists el m, poisson_grid gwit cramer cramer_inv junk0 0 eig0 (1 / 10) isort (fun _ => 0) (fun _ => 0%nat) 1 2 Vert EToV E2E E2F bcType el m.
Proof.
  intros Hb Vert EToV E2E E2F. destruct (tri_grid_witness bcType Hb) as (A & _ & el & m & B & C & D). exists el, m.
  assert (L : length (e_r el) = 3%nat) by (destruct (element_ok _ _ _ _ _ _ _ _ _ _ _ _ B) as [lr]; rewrite lr; reflexivity).
  constructor; [|lia|vm_compute; discriminate|rewrite L; vm_compute; discriminate]. constructor; try assumption.
  intros k Hk. destruct k as [|[|]]; [| |lia]; unfold area, TriGeoSpec.corner, TriGeoSpec.cross, pminus; cbn; lra.
Qed.
Example C46_witness :
  let Vert := [0; 0; 0;  1; 0; 0;  1; 1; 0;  0; 1; 0] in let EToV := [0; 1; 2;  0; 2; 3]%nat in
  let E2E := [0; 0; 1;  0; 1; 1]%nat in let E2F := [0; 1; 0;  2; 1; 2]%nat in
  (forall bcType, bcType = [3; 3; 0; 0; 3; 7]%Z \/ bcType = [6; 3; 0; 0; 3; 7]%Z ->
     (exists el m, poisson_grid gwit cramer cramer_inv junk0 0 eig0 (1 / 10) isort (fun _ => 0) (fun _ => 0%nat) 1 2 Vert EToV E2E E2F bcType el m) /\
     consistent_tags 2 EToV bcType) /\
  (forall k f, (k < 2)%nat -> (f < 3)%nat -> ~ dirichlet [3; 3; 0; 0; 3; 7]%Z k f) /\ dirichlet [6; 3; 0; 0; 3; 7]%Z 0 0 /\ PoissonSpec.interior [6; 3; 0; 0; 3; 7]%Z 0 2.
Proof.
  intros Vert EToV E2E E2F.
  assert (HJ : forall g h, shares 3 (map Z.of_nat EToV) g h <-> (g = 2 /\ h = 3 \/ g = 3 /\ h = 2)%nat) by (destruct (tri_grid_witness [3; 3; 0; 0; 3; 3]%Z (le_n 6)) as (_ & B & _); exact B).
  assert (Hd : forall (bc : list Z) k f, PoissonSpec.interior bc k f <-> (tag_of bc k f <> 6 /\ tag_of bc k f <> 3 /\ tag_of bc k f <> 7)%Z).
  { intros. unfold PoissonSpec.interior, dirichlet, natural. tauto. }
  split; [|split; [|split]].
  - intros bcType Hb. split; [apply poisson_witness; destruct Hb as [-> | ->]; cbn; lia|]. intros k f Hk Hf Hi. apply Hd in Hi.
    assert (Ht : (k = 0 /\ f = 2 \/ k = 1 /\ f = 0)%nat). { destruct Hb as [-> | ->]; destruct k as [|[|]]; try lia; (destruct f as [|[|[|]]]; try lia); cbn in Hi; lia. }
    destruct Ht as [(-> & ->)|(-> & ->)]; [exists 1%nat, 0%nat|exists 0%nat, 2%nat]; (split; [lia|]; split; [lia|]; split; [apply HJ; lia|]); apply Hd; destruct Hb as [-> | ->]; cbn; lia.
  - intros k f Hk Hf. unfold dirichlet. destruct k as [|[|]]; try lia; (destruct f as [|[|[|]]]; try lia); cbn; lia.
  - reflexivity.
  - apply Hd. cbn. lia.
Qed.

(* A boundary side with any other tag - here none, tag 0 - is treated as an interior side that faces itself, and the operator
   is not symmetric. *)
Local Lemma normal_exists p q t : 0 < cross (pminus q p) (pminus t p) ->
  let L := side_length p q in 0 < L /\ outward_normal p q t ((snd q - snd p) / L, - (fst q - fst p) / L).
Proof.
  intros Hc L. assert (HD : 0 < dot (pminus q p) (pminus q p)).
  { unfold dot, pminus, cross in *. cbn [fst snd] in *. pose proof (Rle_0_sqr (fst q - fst p)). pose proof (Rle_0_sqr (snd q - snd p)). unfold Rsqr in *. destruct (Req_dec (fst q - fst p) 0) as [E1|E1].
    - destruct (Req_dec (snd q - snd p) 0) as [E2|E2]; [rewrite E1, E2 in Hc; lra|]. pose proof (Rsqr_pos_lt _ E2). unfold Rsqr in *. lra.
    - pose proof (Rsqr_pos_lt _ E1). unfold Rsqr in *. lra. }
  assert (HL : 0 < L) by (apply sqrt_lt_R0; exact HD). assert (E : L * L = dot (pminus q p) (pminus q p)) by (apply sqrt_sqrt; lra). split; [exact HL|].
  unfold outward_normal, dot, pminus, cross in *. cbn [fst snd] in *. split; [|split].
  - transitivity (((fst q - fst p) * (fst q - fst p) + (snd q - snd p) * (snd q - snd p)) / (L * L)); [field; lra|]. rewrite E. field. lra.
  - field. lra.
  - apply (Rmult_lt_reg_r L); [exact HL|]. rewrite Rmult_0_l. apply Rle_lt_trans with (- ((fst q - fst p) * (snd t - snd p) - (snd q - snd p) * (fst t - fst p))); [right; field; lra|lra].
Qed.
Theorem C46_untagged_boundary_refuted :
  let Vert := [0; 0; 0;  1; 0; 0;  1; 1; 0;  0; 1; 0] in let EToV := [0; 1; 2;  0; 2; 3]%nat in
  let E2E := [0; 0; 1;  0; 1; 1]%nat in let E2F := [0; 1; 0;  2; 1; 2]%nat in let bcType := [0; 3; 0; 0; 3; 3]%Z in
  exists el m, poisson_grid gwit cramer cramer_inv junk0 0 eig0 (1 / 10) isort (fun _ => 0) (fun _ => 0%nat) 1 2 Vert EToV E2E E2F bcType el m /\
  forall jk s, poisson_of gwit cramer_inv junk0 jk 1 2 E2E E2F bcType el m 0 0 = Ok s ->
  ~ (forall i j, (i < nodes el 2)%nat -> (j < nodes el 2)%nat -> entry_of (OP_ s) i j = entry_of (OP_ s) j i).
Proof.
  intros Vert EToV E2E E2F bcType. destruct (poisson_witness bcType) as (el & m & HG); [cbn; lia|]. exists el, m. split; [exact HG|]. intros jk s Hs Hsym.
  assert (HJ : forall g h, shares 3 (map Z.of_nat EToV) g h <-> (g = 2 /\ h = 3 \/ g = 3 /\ h = 2)%nat) by (destruct (tri_grid_witness [3; 3; 0; 0; 3; 3]%Z (le_n 6)) as (_ & B & _); exact B).
  assert (HD : forall k f, (k < 2)%nat -> (f < 3)%nat -> ~ dirichlet bcType k f) by (intros k f Hk Hf; unfold dirichlet; destruct k as [|[|]]; try lia; (destruct f as [|[|[|]]]; try lia); cbn; lia).
  pose proof (C47_constants_in_kernel _ _ _ _ _ _ _ _ _ _ _ _ _ _ _ _ _ _ _ HG jk s Hs HD 1) as Z.
  set (np := length (e_r el)). set (u := fun g => ment (e_y el) (g mod np) (g / np)). set (U := Piecewise (fun _ _ y => y) (fun _ _ _ => 0) (fun _ _ _ => 1)).
  set (V := Piecewise (fun _ _ _ => 1) (fun _ _ _ => 0) (fun _ _ _ => 0)).
  assert (HV : reads 1 2 el (fun _ => 1) V) by apply (rep_const 1 2 el 1).
  assert (HU : reads 1 2 el u U).
  { intros k Hk. split; [|split; [|split]].
    - exists [(0%nat, 1%nat, 1)]. split; [repeat constructor; cbn; lia|]. intros X Y. cbn. ring.
    - intros X Y. unfold dr_is. cbn. apply derivable_pt_lim_const.
    - intros X Y. unfold ds_is. cbn. apply derivable_pt_lim_id.
    - intros i Hi. unfold val_at, node_at, U, u, np. cbn [val fst snd]. replace (length (e_r el) * k + i)%nat with (i + k * length (e_r el))%nat by lia. rewrite Nat.mod_add, Nat.div_add, Nat.mod_small, Nat.div_small by lia. reflexivity. }
  pose proof (C46_one_sided _ _ _ _ _ _ _ _ _ _ _ _ _ _ _ _ _ _ _ HG jk s u (fun _ => 1) U V Hs HU HV) as F.
  assert (F1 : one_sided_form 1 2 Vert EToV bcType U V 1).
  { exists (fun _ => 0), (fun k f => match (k, f) with (0, 0)%nat => 1 | (0, 2)%nat => -1 | (1, 0)%nat => 1 | _ => 0 end). split; [|split].
    - intros k Hk. exists 0. split; [|ring]. apply (tint_ext (fun _ _ => 0)); [|apply tint_zero]. intros. unfold pulled. cbn. ring.
    - assert (HI : forall k f k2 f2, (k < 2)%nat -> (f < 3)%nat -> across 2 EToV k f k2 f2 -> 0 < cross (pminus (to_ Vert EToV k f) (from_ Vert EToV k f)) (pminus (TriGeoSpec.corner Vert EToV k ((f + 2) mod 3)) (from_ Vert EToV k f)) ->
         forall w, (natural bcType k f -> w = 0) -> (PoissonSpec.interior bcType k f -> w = fst (to_ Vert EToV k f) - fst (from_ Vert EToV k f)) -> sides 1 2 Vert EToV bcType (one_sided_density 1 Vert EToV) k f U V w).
      { intros k f k2 f2 Hk Hf Ha Hc w Hw1 Hw2. destruct (normal_exists _ _ _ Hc) as (HL & Hn). cbv zeta in HL, Hn. set (L := side_length (from_ Vert EToV k f) (to_ Vert EToV k f)) in *.
        exists k2, f2, ((snd (to_ Vert EToV k f) - snd (from_ Vert EToV k f)) / L, - (fst (to_ Vert EToV k f) - fst (from_ Vert EToV k f)) / L). split; [exact Ha|]. split; [exact Hn|]. cbv zeta.
        split; [intro Hd; exfalso; exact (HD k f Hk Hf Hd)|]. split; [exact Hw1|]. intro Hi. rewrite (Hw2 Hi). set (dx := fst (to_ Vert EToV k f) - fst (from_ Vert EToV k f)).
        exists (dx / L * 2). split; [|fold L; field; lra]. apply (integral_ext (fun _ => dx / L * 1)).
        - intro t. unfold one_sided_density, jump, mean, along, val_at, U, V. cbn [val ddx ddy fst snd]. field. lra.
        - apply (integral_scal (dx / L) (fun _ => 1)). exists (fun t => t). split; [intro; apply derivable_pt_lim_id|ring]. }
      assert (HB0 : forall k f, (k < 2)%nat -> (f < 3)%nat -> (3 * k + f <> 2 -> 3 * k + f <> 3 -> across 2 EToV k f k f)%nat).
      { intros k f Hk Hf N2 N3. split; [exact Hk|]. split; [exact Hf|]. right. split; [reflexivity|]. split; [reflexivity|]. intros h Hh. apply HJ in Hh. lia. }
      assert (HN : forall k f, PoissonSpec.interior bcType k f -> tag_of bcType k f <> 3%Z) by (intros k f (_ & Hn) E; apply Hn; left; exact E).
      assert (HN2 : forall k f, natural bcType k f -> tag_of bcType k f <> 0%Z) by (intros k f [E|E]; rewrite E; lia).
      intros k f Hk Hf. destruct k as [|[|]]; [| |lia]; (destruct f as [|[|[|]]]; [| | |lia]).
      + apply (HI 0 0 0 0)%nat; [lia|lia|apply HB0; lia| | |]; [unfold cross, pminus, to_, from_, TriGeoSpec.corner; cbn; lra|intro H; exfalso; apply (HN2 _ _ H); reflexivity|intros _; unfold to_, from_, TriGeoSpec.corner; cbn; ring].
      + apply (HI 0 1 0 1)%nat; [lia|lia|apply HB0; lia| | |]; [unfold cross, pminus, to_, from_, TriGeoSpec.corner; cbn; lra|reflexivity|intro H; exfalso; apply (HN _ _ H); reflexivity].
      + apply (HI 0 2 1 0)%nat; [lia|lia| | | |]; [split; [lia|]; split; [lia|]; left; apply HJ; lia|unfold cross, pminus, to_, from_, TriGeoSpec.corner; cbn; lra|intro H; exfalso; apply (HN2 _ _ H); reflexivity|intros _; unfold to_, from_, TriGeoSpec.corner; cbn; ring].
      + apply (HI 1 0 0 2)%nat; [lia|lia| | | |]; [split; [lia|]; split; [lia|]; left; apply HJ; lia|unfold cross, pminus, to_, from_, TriGeoSpec.corner; cbn; lra|intro H; exfalso; apply (HN2 _ _ H); reflexivity|intros _; unfold to_, from_, TriGeoSpec.corner; cbn; ring].
      + apply (HI 1 1 1 1)%nat; [lia|lia|apply HB0; lia| | |]; [unfold cross, pminus, to_, from_, TriGeoSpec.corner; cbn; lra|reflexivity|intro H; exfalso; apply (HN _ _ H); reflexivity].
      + apply (HI 1 2 1 2)%nat; [lia|lia|apply HB0; lia| | |]; [unfold cross, pminus, to_, from_, TriGeoSpec.corner; cbn; lra|reflexivity|intro H; exfalso; apply (HN _ _ H); reflexivity].
    - rewrite !sumn_S, sumn_0. ring. }
  destruct HG as [[HB HM HA HS Hrun Hbc] HK HP HZ].
  assert (E1 : quadratic (nodes el 2) (OP_ s) (fun _ => 1) u = 1) by (eapply form_unique; [eassumption..|exact F|exact F1]).
  assert (E0 : quadratic (nodes el 2) (OP_ s) (fun _ => 1) u = 0).
  { transitivity (sumn (nodes el 2) (fun j => u j * sumn (nodes el 2) (fun i => entry_of (OP_ s) j i * 1))).
    - unfold quadratic. rewrite (sumn_swap (nodes el 2) (nodes el 2)). apply sumn_ext. intros j Hj. rewrite <- sumn_scal. apply sumn_ext. intros i Hi. rewrite (Hsym i j Hi Hj). ring.
    - apply sumn_zero. intros j Hj. rewrite (Z j Hj). ring. }
  lra.
Qed.
Example C47_witness :
  let Vert := [0; 0; 0;  1; 0; 0;  1; 1; 0;  0; 1; 0] in let EToV := [0; 1; 2;  0; 2; 3]%nat in
  let E2E := [0; 0; 1;  0; 1; 1]%nat in let E2F := [0; 1; 0;  2; 1; 2]%nat in let bcType := [3; 3; 0; 0; 3; 7]%Z in
  exists el m s, poisson_grid gwit cramer cramer_inv junk0 0 eig0 (1 / 10) isort (fun _ => 0) (fun _ => 0%nat) 1 2 Vert EToV E2E E2F bcType el m /\
  poisson_of gwit cramer_inv junk0 (0%nat, 0) 1 2 E2E E2F bcType el m 0 0 = Ok s /\ (forall k f, (k < 2)%nat -> (f < 3)%nat -> ~ dirichlet bcType k f).
Proof.
  intros Vert EToV E2E E2F bcType. destruct (poisson_witness bcType) as (el & m & HG); [cbn; lia|].
  destruct (C46_builds _ _ _ _ _ _ _ _ _ _ _ _ _ _ _ _ _ _ _ HG (0%nat, 0) 0 0) as (s & Hs). exists el, m, s. split; [exact HG|]. split; [exact Hs|]. apply (proj1 (proj2 C46_witness)).
Qed.
Print Assumptions C46_builds.
Print Assumptions C46_shape.
Print Assumptions C46_one_sided.
Print Assumptions C46_form.
Print Assumptions C46_symmetric.
Print Assumptions C46_bordered.
Print Assumptions C46_skip.
Print Assumptions C46_mass.
Print Assumptions C46_mass_symmetric.
Print Assumptions C46_mass_positive.
Print Assumptions C46_accessors_refuted.
Print Assumptions C46_untagged_boundary_refuted.
Print Assumptions C47_constants_in_kernel.
