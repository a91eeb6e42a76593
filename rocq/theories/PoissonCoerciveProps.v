(* PoissonCoerciveProps.v - C79: the Poisson operator is positive semidefinite, and definite where it should be. *)
From Coq Require Import ZArith List Lia Bool Arith.
From Verif Require Import Base Loops Num FoldProofs BlitzModel UniqueProofs JacobiModel JacobiSpec JacobiProofs JacobiOrthProofs JacobiQuadProofs JacobiExactProofs Nodes1DModel Nodes1DSpec Nodes1DExactProofs DenseSpec GllProofs
  MeshSpec MeshGeoProofs MeshProps MeshProofs TriModel TriSpec TriBasisProofs TriProofs TriOpProofs TriLiftProofs TriFaceProofs TriNodesProofs TriElemProofs TriGeoSpec TriGeoProofs TriSetup TriProps TriWitness Maps2DModel Maps2DSpec Maps2DProofs Maps2DProps TriMapsProofs TriMapsProps TriDGSpec TriDGProofs
  QuadInterpProofs TripletModel CscModel CscSpec CscProps RKModel Line1DModel Line1DProofs SwModel SwSpec SwProofs SwSchemeProofs SwRunProofs SwProps PoissonModel PoissonSpec PoissonTripletProofs PoissonBlockProofs PoissonProofs PoissonFormProofs PoissonProps PoissonEnergySpec PoissonCoerciveProofs.
From Coq Require Import Reals Lra.
Import ListNotations.
Local Open Scope R_scope.

(* a vector in the kernel of a matrix *)
Definition in_kernel (n : nat) (a : csc R) (x : nat -> R) : Prop := forall i, (i < n)%nat -> sumn n (fun j => entry_of a i j * x j) = 0.
Lemma kernel_quadratic n a x v : in_kernel n a x -> quadratic n a v x = 0.
Proof. intro H. unfold quadratic. apply sumn_zero. intros i Hi. rewrite (sumn_ext n _ (fun j => v i * (entry_of a i j * x j))) by (intros; ring). rewrite sumn_scal, (H i Hi). ring. Qed.

Section Facts.
Variables (G : R -> R) (solve : mat R -> mat R -> mat R -> outcome (mat R)) (inverse : mat R -> mat R -> outcome (mat R))
  (junk : nat -> nat -> R) (eps : R) (eig : nat -> (nat -> nat -> R) -> list R * (nat -> nat -> R)) (tol : R)
  (sort : (nat -> nat -> bool) -> list nat -> list nat) (junk1 : nat -> R) (junkn : nat -> nat)
  (N K : nat) (Vert : list R) (EToV E2E E2F : list nat) (bcType : list Z) (el : element (T := R)) (m : maps).
Hypothesis HG : poisson_grid G solve inverse junk eps eig tol sort junk1 junkn N K Vert EToV E2E E2F bcType el m.
Hypothesis HC : consistent_tags K EToV bcType.
Variable jk : nat * R.
Local Notation Np := (length (e_r el)).
Local Notation dof := (nodes el K).
Local Notation rep := (reads N K el).
Local Notation built_op b s := (poisson_of G inverse junk jk N K E2E E2F bcType el m b 0 = Ok s).

(* u^T OP u is at least half the energy: broken Dirichlet energy plus penalised jumps and Dirichlet values. *)
Theorem C79_coercive s u U : built_op 0 s -> rep u U -> exists e, energy N K Vert EToV bcType U e /\ 0 <= e /\ e <= 2 * quadratic dof (OP_ s) u u.
Proof.
  intros Hs HU. pose proof (C46_form _ _ _ _ _ _ _ _ _ _ _ _ _ _ _ _ _ _ _ HG jk s u u U U Hs HC HU HU) as F. destruct HG as [[HB HM HA HS Hrun Hbc] HK HP HZ].
  assert (HE : exists vol sd, (forall k, (k < K)%nat -> element_integral (TriGeoSpec.corner Vert EToV k 0) (TriGeoSpec.corner Vert EToV k 1) (TriGeoSpec.corner Vert EToV k 2) (fun x y => ddx U k x y * ddx U k x y + ddy U k x y * ddy U k x y) (vol k) /\ 0 <= vol k) /\
    (forall k f, (k < K)%nat -> (f < 3)%nat -> side_energy N K Vert EToV bcType k f U (sd k f) /\ 0 <= sd k f) /\ sumn K (fun k => vol k + (sd k 0%nat + sd k 1%nat + sd k 2%nat)) / 2 <= quadratic dof (OP_ s) u u) by (eapply coercive; eassumption).
  destruct HE as (vol & sd & A & B & C). exists (sumn K (fun k => vol k + (sd k 0%nat + sd k 1%nat + sd k 2%nat))). split; [|split; [|lra]].
  - exists vol, sd. split; [intros k Hk; apply (A k Hk)|]. split; [intros k f Hk Hf; apply (B k f Hk Hf)|reflexivity].
  - apply sumn_nonneg. intros k Hk. pose proof (proj2 (A k Hk)). pose proof (proj2 (B k 0%nat Hk ltac:(lia))). pose proof (proj2 (B k 1%nat Hk ltac:(lia))). pose proof (proj2 (B k 2%nat Hk ltac:(lia))). lra.
Qed.
Theorem C79_semidefinite s u : built_op 0 s -> 0 <= quadratic dof (OP_ s) u u.
Proof.
  intro Hs. assert (HU : exists U, rep u U) by (destruct HG as [[HB HM HA HS Hrun Hbc] HK HP HZ]; eapply rep_exists; eassumption). destruct HU as (U & HU).
  destruct (C79_coercive s u U Hs HU) as (e & _ & A & B). lra.
Qed.
Local Lemma kernel_const u U : connected K EToV bcType -> rep u U -> penalty_form N K Vert EToV bcType U U 0 ->
  exists c, (forall g, (g < dof)%nat -> u g = c) /\ forall k f, (k < K)%nat -> (f < 3)%nat -> dirichlet bcType k f -> c = 0.
Proof.
  intros HL HU HF. pose proof HG as [[HB HM HA HS Hrun Hbc] HK HP HZ].
  assert (HE : exists c : nat -> R, (forall k i, (k < K)%nat -> (i < Np)%nat -> u (Np * k + i)%nat = c k) /\ (forall k f k2 f2, (k < K)%nat -> (f < 3)%nat -> (f2 < 3)%nat -> PoissonSpec.interior bcType k f -> joined EToV k f k2 f2 -> c k = c k2) /\ (forall k f, (k < K)%nat -> (f < 3)%nat -> dirichlet bcType k f -> c k = 0)) by (eapply kernel; eassumption).
  destruct HE as (c & A & B & C). assert (Ec : forall k, (k < K)%nat -> c k = c 0%nat) by (intros k Hk; eapply linked_eq; [exact B|apply HL; assumption]).
  exists (c 0%nat). split.
  - intros g Hg. unfold nodes in Hg. assert (Hn : Np <> 0%nat) by lia. assert (Hd : (g / Np < K)%nat) by (apply Nat.div_lt_upper_bound; lia). pose proof (Nat.mod_upper_bound g Np Hn) as Hm.
    rewrite (Nat.div_mod g Np Hn). rewrite (A _ _ Hd Hm). apply Ec. exact Hd.
  - intros k f Hk Hf Hdir. rewrite <- (Ec k Hk). exact (C k f Hk Hf Hdir).
Qed.
(* Connected meshes: only constants give zero. *)
Theorem C79_kernel s u : built_op 0 s -> connected K EToV bcType -> quadratic dof (OP_ s) u u = 0 -> exists c, forall g, (g < dof)%nat -> u g = c.
Proof.
  intros Hs HL Hz. assert (HU : exists U, rep u U) by (destruct HG as [[HB HM HA HS Hrun Hbc] HK HP HZ]; eapply rep_exists; eassumption). destruct HU as (U & HU).
  pose proof (C46_form _ _ _ _ _ _ _ _ _ _ _ _ _ _ _ _ _ _ _ HG jk s u u U U Hs HC HU HU) as F. rewrite Hz in F. destruct (kernel_const u U HL HU F) as (c & A & _). exists c. exact A.
Qed.
(* Connected meshes with a Dirichlet side: positive definite. *)
Theorem C79_definite s u k f : built_op 0 s -> connected K EToV bcType -> (k < K)%nat -> (f < 3)%nat -> dirichlet bcType k f ->
  (exists g, (g < dof)%nat /\ u g <> 0) -> 0 < quadratic dof (OP_ s) u u.
Proof.
  intros Hs HL Hk Hf Hd (g & Hg & Hu). destruct (Rle_lt_or_eq_dec _ _ (C79_semidefinite s u Hs)) as [|E0]; [assumption|]. exfalso.
  assert (HU : exists U, rep u U) by (destruct HG as [[HB HM HA HS Hrun Hbc] HK HP HZ]; eapply rep_exists; eassumption). destruct HU as (U & HU).
  pose proof (C46_form _ _ _ _ _ _ _ _ _ _ _ _ _ _ _ _ _ _ _ HG jk s u u U U Hs HC HU HU) as F. rewrite <- E0 in F. destruct (kernel_const u U HL HU F) as (c & A & B).
  apply Hu. rewrite (A g Hg). exact (B k f Hk Hf Hd).
Qed.
Corollary C79_dirichlet_nonsingular s u k f : built_op 0 s -> connected K EToV bcType -> (k < K)%nat -> (f < 3)%nat -> dirichlet bcType k f ->
  in_kernel dof (OP_ s) u -> forall g, (g < dof)%nat -> u g = 0.
Proof.
  intros Hs HL Hk Hf Hd Hu g Hg. destruct (Req_dec (u g) 0) as [|Hne]; [assumption|]. pose proof (C79_definite s u k f Hs HL Hk Hf Hd (ex_intro _ g (conj Hg Hne))) as P.
  rewrite (kernel_quadratic _ _ _ _ Hu) in P. lra.
Qed.
(* Connected meshes: the kernel of the operator without Dirichlet sides is the constants. *)
Corollary C79_neumann_kernel s u : built_op 0 s -> connected K EToV bcType -> (forall k f, (k < K)%nat -> (f < 3)%nat -> ~ dirichlet bcType k f) ->
  (in_kernel dof (OP_ s) u <-> exists c, forall g, (g < dof)%nat -> u g = c).
Proof.
  intros Hs HL HD. split.
  - intro Hu. apply (C79_kernel s u Hs HL). apply kernel_quadratic. exact Hu.
  - intros (c & Hc) i Hi. rewrite (sumn_ext dof _ (fun j => entry_of (OP_ s) i j * c)) by (intros j Hj; now rewrite (Hc j Hj)). exact (C47_constants_in_kernel _ _ _ _ _ _ _ _ _ _ _ _ _ _ _ _ _ _ _ HG jk s Hs HD c i Hi).
Qed.
Local Lemma zero_form U V w : (U = Piecewise (fun _ _ _ => 0) (fun _ _ _ => 0) (fun _ _ _ => 0) \/ V = Piecewise (fun _ _ _ => 0) (fun _ _ _ => 0) (fun _ _ _ => 0)) -> penalty_form N K Vert EToV bcType U V w -> w = 0.
Proof.
  intros HZ0 H. assert (Z0 : penalty_form N K Vert EToV bcType U V 0); [|destruct HG as [[HB HM HA HS Hrun Hbc] HK HP HZ]; eapply form_unique; [eassumption..|exact H|exact Z0]].
  destruct H as (vol & sd & A & B & _). exists (fun _ => 0), (fun _ _ => 0). split; [|split].
  - intros k Hk. exists 0. split; [|ring]. apply (tint_ext (fun _ _ => 0)); [|apply tint_zero]. intros. unfold pulled. destruct HZ0 as [-> | ->]; cbn [ddx ddy]; ring.
  - intros k f Hk Hf. destruct (B k f Hk Hf) as (k2 & f2 & n & B1 & B2 & _). exists k2, f2, n. split; [exact B1|]. split; [exact B2|]. cbv zeta. split; [|split; [reflexivity|]];
    intros _; exists 0; (split; [|ring]); apply (integral_ext (fun _ => 0)); try apply integral_zero; intro t; unfold dirichlet_density, interior_density, jump, mean, along, val_at, Rdiv; destruct HZ0 as [-> | ->]; cbn [val ddx ddy]; ring.
  - symmetry. apply sumn_zero. intros; ring.
Qed.
(* Connected meshes, no Dirichlet side, bordered: nonsingular. *)
Theorem C79_bordered_nonsingular s b x : b <> 0%Z -> built_op b s -> connected K EToV bcType -> in_kernel (S dof) (OP_ s) x -> forall g, (g < S dof)%nat -> x g = 0.
Proof.
  intros Hb Hs HL Hx.
  assert (HR : forall u, exists U, rep u U) by (intro u; destruct HG as [[HB HM HA HS Hrun Hbc] HK HP HZ]; eapply rep_exists; eassumption).
  assert (HQ : forall v u U V, rep u U -> rep v V -> exists w, penalty_form N K Vert EToV bcType U V w /\ quadratic (S dof) (OP_ s) v u = w + (v dof * sumn dof u + sumn dof v * u dof)).
  { intros v u U V HU HV. exact (C46_bordered _ _ _ _ _ _ _ _ _ _ _ _ _ _ _ _ _ _ _ HG jk s b u v U V Hb Hs HC HU HV). }
  set (O := Piecewise (fun _ _ _ => 0) (fun _ _ _ => 0) (fun _ _ _ => 0)).
  assert (HO : forall u, (forall g, (g < dof)%nat -> u g = 0) -> rep u O).
  { intros u Hu k Hk. destruct (PoissonProps.rep_const N K el 0 k Hk) as (A & B & C & _). split; [exact A|]. split; [exact B|]. split; [exact C|]. intros i Hi. unfold O, val_at. cbn. symmetry. apply Hu. unfold nodes. nia. }
  assert (Hpos : (0 < dof)%nat).
  { unfold nodes. destruct HG as [[HB HM HA HS Hrun Hbc] HK HP HZ]. destruct (element_ok _ _ _ _ _ _ _ _ _ _ _ _ HB) as [lr]. rewrite lr. assert (0 < length (modes N))%nat by (unfold modes; cbn; lia). nia. }
  destruct (HR x) as (U & HU).
  assert (Hsum : sumn dof x = 0).
  { destruct (HQ (delta dof) x U O HU) as (w & Hw & Eq). { apply HO. intros g Hg. unfold delta. destruct (Nat.eqb_spec dof g); [lia|reflexivity]. }
    rewrite (kernel_quadratic _ _ _ _ Hx) in Eq. rewrite (zero_form U O w (or_intror eq_refl) Hw) in Eq. unfold delta at 1 in Eq. rewrite Nat.eqb_refl in Eq.
    rewrite (sumn_zero dof (delta dof)) in Eq by (intros g Hg; unfold delta; destruct (Nat.eqb_spec dof g); [lia|reflexivity]). lra. }
  destruct (HQ x x U U HU HU) as (w & Hw & Eq). rewrite (kernel_quadratic _ _ _ _ Hx), Hsum in Eq. assert (Ew : w = 0) by lra. subst w.
  destruct (kernel_const x U HL HU Hw) as (c & Ec & _).
  assert (Hc : c = 0).
  { rewrite (sumn_ext dof x (fun _ => c * 1)) in Hsum by (intros g Hg; rewrite (Ec g Hg); ring). rewrite sumn_scal in Hsum. assert (E1 : forall n, sumn n (fun _ => 1) = INR n) by (induction n as [|n IH]; [reflexivity|rewrite sumn_S, IH, S_INR; reflexivity]).
    rewrite E1 in Hsum. apply Rmult_integral in Hsum. destruct Hsum as [|E2]; [assumption|]. pose proof (lt_0_INR dof Hpos). lra. }
  subst c. assert (Hlast : x dof = 0).
  { destruct (HR (delta 0%nat)) as (V & HV). destruct (HQ (delta 0%nat) x O V (HO x Ec) HV) as (w & Hw' & Eq'). rewrite (kernel_quadratic _ _ _ _ Hx), (zero_form O V w (or_introl eq_refl) Hw'), Hsum in Eq'.
    rewrite (sumn_pick dof (delta 0%nat) 0 Hpos) in Eq' by (intros g Hg Hne; unfold delta; destruct (Nat.eqb_spec 0 g); [lia|reflexivity]). unfold delta in Eq' at 2. cbn [Nat.eqb] in Eq'. lra. }
  intros g Hg. destruct (Nat.eq_dec g dof) as [-> |Hne]; [exact Hlast|]. apply Ec. lia.
Qed.
End Facts.

Example C79_witness :
  let EToV := [0; 1; 2;  0; 2; 3]%nat in
  forall bcType, bcType = [3; 3; 0; 0; 3; 7]%Z \/ bcType = [6; 3; 0; 0; 3; 7]%Z ->
     (exists el m, poisson_grid gwit cramer cramer_inv junk0 0 eig0 (1 / 10) isort (fun _ => 0) (fun _ => 0%nat) 1 2 [0; 0; 0;  1; 0; 0;  1; 1; 0;  0; 1; 0] EToV [0; 0; 1;  0; 1; 1]%nat [0; 1; 0;  2; 1; 2]%nat bcType el m) /\
     consistent_tags 2 EToV bcType /\ connected 2 EToV bcType.
Proof.
  intros EToV bcType Hb. destruct (proj1 C46_witness bcType Hb) as (A & B). split; [exact A|]. split; [exact B|].
  assert (HJ : forall g h, shares 3 (map Z.of_nat EToV) g h <-> (g = 2 /\ h = 3 \/ g = 3 /\ h = 2)%nat) by (destruct (tri_grid_witness [3; 3; 0; 0; 3; 3]%Z (le_n 6)) as (_ & B' & _); exact B').
  assert (Hi : PoissonSpec.interior bcType 0 2 /\ PoissonSpec.interior bcType 1 0) by (unfold PoissonSpec.interior, dirichlet, natural; destruct Hb as [-> | ->]; cbn; repeat split; try discriminate; intros [H|H]; discriminate).
  intros k k' Hk Hk'. destruct k as [|[|]], k' as [|[|]]; try lia; try apply linked_refl.
  - apply (linked_step _ _ _ 0 2 1 0); [lia|lia|lia|apply HJ; lia|apply Hi|apply linked_refl].
  - apply (linked_step _ _ _ 1 0 0 2); [lia|lia|lia|apply HJ; lia|apply Hi|apply linked_refl].
Qed.
Print Assumptions C79_coercive.
Print Assumptions C79_semidefinite.
Print Assumptions C79_kernel.
Print Assumptions C79_definite.
Print Assumptions C79_dirichlet_nonsingular.
Print Assumptions C79_neumann_kernel.
Print Assumptions C79_bordered_nonsingular.
