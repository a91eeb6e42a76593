(* InsProps.v - C89: what src/ins2d/main.cpp computes on a mesh of quadrilaterals, in exact arithmetic. *)
From Coq Require Import ZArith List Lia Bool Arith.
From Verif Require Import Base Loops Num BlitzModel JacobiModel JacobiSpec JacobiProofs JacobiQuadProofs JacobiExactProofs Nodes1DModel Nodes1DSpec Nodes1DExactProofs DenseSpec DenseModel
  MeshSpec MeshGeoProofs TriModel TriSpec TriGeoSpec TriOpProofs TriProofs TriFilterProofs TriLiftProofs QuadModel QuadSpec QuadSetup QuadBasisProofs QuadElemProofs QuadGeoProofs QuadProps Maps2DModel Maps2DSpec Maps2DProofs Maps2DProps TriMapsProofs TriMapsProps QuadMapsProofs QuadMapsProps
  RKModel Line1DModel Line1DProofs SwModel SwSpec SwProofs SwSchemeProofs SwStepModel SwStepSpec SwStepProofs SwStepProps QuadGradProofs InsModel InsSpec InsProofs InsGridProofs InsRunProofs.
From Coq Require Import Reals Lra.
Import ListNotations.
Local Open Scope R_scope.

(* What the driver's tables come from: quadrilaterals built by the provisioner of a convex counterclockwise mesh, maps built
   for it with the tags bcType, and nodes further apart than the tolerance of the node matching. *)
Record ins_grid (G : R -> R) (solve : mat R -> mat R -> mat R -> outcome (mat R)) (inverse : mat R -> mat R -> outcome (mat R))
  (junk : nat -> nat -> R) (eps : R) (eig : nat -> (nat -> nat -> R) -> list R * (nat -> nat -> R)) (tol : R)
  (sort : (nat -> nat -> bool) -> list nat -> list nat) (junk1 : nat -> R) (junkn : nat -> nat)
  (N K : nat) (Vert : list R) (EToV E2E E2F : list nat) (bcType : list Z) (el : element (T := R)) (m : maps) : Prop := InsGrid {
  ig_built : qbuilt G solve inverse junk eps eig tol N K Vert EToV el;
  ig_mesh : quad_mesh K Vert EToV E2E E2F;
  ig_convex : forall k, (k < K)%nat -> convex_ccw (fun c => qcorner Vert EToV k c);
  ig_nodes : forall n n', (n <= N)%nat -> (n' <= N)%nat -> n <> n' ->
    2 * tol <= Rabs (nth (ment (qmask_table N (e_masks el)) n 0) (e_r el) 0 - nth (ment (qmask_table N (e_masks el)) n' 0) (e_r el) 0);
  ig_maps : buildMaps (exact G) rhypot sort junk1 junkn tol 4 (S N) ((N + 1) * (N + 1)) K (qmask_table N (e_masks el)) (e_x el) (e_y el) E2E E2F EToV Vert bcType [] = Ok m;
  ig_tags : (4 * K <= length bcType)%nat }.

Section C89.
Context (G : R -> R) (solve : mat R -> mat R -> mat R -> outcome (mat R)) (inverse : mat R -> mat R -> outcome (mat R))
  (junk : nat -> nat -> R) (eps : R) (eig : nat -> (nat -> nat -> R) -> list R * (nat -> nat -> R)) (tol : R)
  (sort : (nat -> nat -> bool) -> list nat -> list nat) (junk1 : nat -> R) (junkn : nat -> nat)
  (N K : nat) (Vert : list R) (EToV E2E E2F : list nat) (bcType : list Z) (el : element (T := R)) (m : maps).
Variables (jk : nat -> nat -> R) (jv : nat -> R) (lowest : R).     (* uninitialised storage; the start of a maximum *)
Local Notation Grid := (ins_grid G solve inverse junk eps eig tol sort junk1 junkn N K Vert EToV E2E E2F bcType el m).
Local Notation Np := ((N + 1) * (N + 1))%nat.
Local Notation rhs vort g := (ins_rhs (exact G) jk jv lowest vort (tables_of el m) 4 (S N) Np K g).
Local Notation some_wall := (exists k f, (k < K)%nat /\ (f < 4)%nat /\ nth (4 * k + f) bcType 0%Z = 3%Z).
Local Notation fits q := (state_conform q Np K = true).
Local Notation M := (e_metric el).

(* C89: the right-hand side is computed whenever some face is tagged as a wall, and throws when none is. *)
Theorem C89_runs : Grid -> forall vort g q, fits q ->
  (some_wall -> exists z, rhs vort g q = Ok z /\ fits z) /\ (~ some_wall -> rhs vort g q = Throw).
Proof.
  intros [HB HM HX HS Hrun Hbc] vort g q HQ. split.
  - intro Ht. destruct (ins_grid_ok _ _ _ _ _ _ _ _ _ _ _ _ HB E2E E2F HM HS _ _ _ _ _ Hrun Hbc jk jv lowest vort g q Ht HQ) as (z & Ez & Cz & _). exists z. auto.
  - intro Hn. apply (ins_untagged _ _ _ _ _ _ _ _ _ _ _ _ HB E2E E2F HM _ _ _ _ _ Hrun Hbc jk jv lowest vort g q); [|exact HQ]. intros k f Hk Hf E. apply Hn. exists k, f. auto.
Qed.

(* C89: what it computes. At node i of element k, the rate of change of component c is that of the advective equations with
   the gradients of the collocation derivatives and w = the contents of the array vort, plus the lifted difference, at the
   face nodes of the element, of the flux of the element's own state and the Rusanov flux between the states vmapM and
   vmapP name - the latter with the largest flow speed over the nodes of that face. *)
Theorem C89_scheme : Grid -> lowest <= 0 -> some_wall -> forall vort g q, fits q ->
  exists z lam, rhs vort g q = Ok z /\ fits z /\
  let own := state_at Np q (m_vmapM m) in let other := state_at Np q (m_vmapP m) in
  let dx (f : nat -> R) i k := ment (g_rx M) i k * sumn Np (fun j => ment (e_Dr el) i j * f j) + ment (g_sx M) i k * sumn Np (fun j => ment (e_Ds el) i j * f j) in
  let dy (f : nat -> R) i k := ment (g_ry M) i k * sumn Np (fun j => ment (e_Dr el) i j * f j) + ment (g_sy M) i k * sumn Np (fun j => ment (e_Ds el) i j * f j) in
  (forall i k c, (i < Np)%nat -> (k < K)%nat -> (c < 3)%nat -> ment (fieldc c z) i k =
     let rho j := density (at_node q j k) in let e j := energy (at_node q j k) in
     advective g c (at_node q i k) (dx rho i k, dy rho i k) (dx e i k, dy e i k) (vort i k) +
     sumn (4 * S N) (fun j => let t := (j + k * (4 * S N))%nat in let n := (ment (e_nx el) j k, ment (e_ny el) j k) in
       ment (e_Lift el) i j * (ment (e_Fscale el) j k * (ins_through c n (own t) - ins_rusanov c n (lam t) (own t) (other t))))) /\
  (forall t, (t < 4 * S N * K)%nat -> is_max (fun v => exists t', (t' < 4 * S N * K)%nat /\ (t' / S N = t / S N)%nat /\ v = Rmax (flow_speed (own t')) (flow_speed (other t'))) (lam t)).
Proof.
  intros [HB HM HX HS Hrun Hbc] Hl Ht vort g q HQ.
  destruct (ins_grid_ok _ _ _ _ _ _ _ _ _ _ _ _ HB E2E E2F HM HS _ _ _ _ _ Hrun Hbc jk jv lowest vort g q Ht HQ) as (z & Ez & Cz & Hz).
  exists z, (lam_of G N el m lowest q). split; [exact Ez|]. split; [exact Cz|]. cbv zeta. split.
  - intros i k c Hi Hk Hc. rewrite (Hz c i k Hc Hi Hk). apply (f_equal2 Rplus).
    + unfold ins_volume, advective, density, energy, energy_at, at_node. cbn [part fst snd]. destruct c as [|[|[|]]]; [reflexivity|reflexivity|reflexivity|lia].
    + unfold ins_surface. apply sumn_ext. intros j Hj. unfold ins_jump, normal_at. rewrite Nat.mod_add, Nat.div_add, Nat.mod_small, Nat.div_small by lia. reflexivity.
  - intros t Htl. unfold lam_of, face_max. assert (Hq : (t / S N < 4 * K)%nat) by (apply Nat.div_lt_upper_bound; lia).
    set (f := fun i => Rmax (flow_speed (cell_at Np q (vM (tables_of el m) i))) (flow_speed (cell_at Np q (vP (tables_of el m) i)))). destruct (maxto_attained G lowest (S N) (fun n => f (n + t / S N * S N)%nat) ltac:(lia)) as (n & Hn & En).
    { intros i _. unfold f. eapply Rle_trans; [exact Hl|]. eapply Rle_trans; [|apply Rmax_l]. apply sqrt_pos. }
    split.
    + exists (n + t / S N * S N)%nat. split; [nia|]. split; [rewrite Nat.div_add, Nat.div_small by lia; reflexivity|]. exact En.
    + intros v (t' & Ht' & E & ->). replace (t' : nat) with (t' mod S N + t / S N * S N)%nat by (rewrite <- E, Nat.mul_comm; pose proof (Nat.div_mod t' (S N) ltac:(lia)); lia).
      apply (maxto_ge G lowest (S N) (fun n => f (n + t / S N * S N)%nat)). apply Nat.mod_upper_bound. lia.
Qed.

(* C89: consistency. For a continuous field whose density and kinetic energy are polynomials of degree at most N on element
   k, the rate of change at its nodes is that of the advective equations with the exact gradients - and the contents of vort
   in place of the vorticity. *)
Theorem C89_consistent : Grid -> some_wall -> forall vort g q, fits q -> continuous_field Np K (e_x el) (e_y el) q ->
  exists z, rhs vort g q = Ok z /\ forall k D W, (k < K)%nat -> degree2 N D -> degree2 N W ->
  (forall i, (i < Np)%nat -> density (at_node q i k) = eval2 D (ment (e_x el) i k) (ment (e_y el) i k)) ->
  (forall i, (i < Np)%nat -> energy (at_node q i k) = eval2 W (ment (e_x el) i k) (ment (e_y el) i k)) ->
  forall i c, (i < Np)%nat -> (c < 3)%nat -> let x := ment (e_x el) i k in let y := ment (e_y el) i k in
  exists Dx Dy Wx Wy, dr_is (eval2 D) x y Dx /\ ds_is (eval2 D) x y Dy /\ dr_is (eval2 W) x y Wx /\ ds_is (eval2 W) x y Wy /\
    ment (fieldc c z) i k = advective g c (at_node q i k) (Dx, Dy) (Wx, Wy) (vort i k).
Proof.
  intros [HB HM HX HS Hrun Hbc] Ht vort g q HQ Hcont.
  destruct (ins_grid_ok _ _ _ _ _ _ _ _ _ _ _ _ HB E2E E2F HM HS _ _ _ _ _ Hrun Hbc jk jv lowest vort g q Ht HQ) as (z & Ez & Cz & Hz).
  exists z. split; [exact Ez|]. intros k D W Hk HD HW ED EW i c Hi Hc. cbv zeta. rewrite (Hz c i k Hc Hi Hk).
  rewrite (surface_zero N K el bcType m Hbc q _ c i k Hk) by (intros j Hj; eapply continuous_jump; eassumption).
  destruct (deriv_grad _ _ _ _ _ _ _ _ _ _ _ _ HB HX m k D (fun j => ment (fieldc 0 q) j k) i Hk Hi HD ED) as (D1 & D2).
  destruct (deriv_grad _ _ _ _ _ _ _ _ _ _ _ _ HB HX m k W (energy_at q k) i Hk Hi HW EW) as (W1 & W2).
  eexists _, _, _, _. split; [apply ddr_ok|]. split; [apply dds_ok|]. split; [apply ddr_ok|]. split; [apply dds_ok|].
  unfold ins_volume. rewrite D1, D2, W1, W2. unfold advective, at_node. cbn [fst snd]. destruct c as [|[|[|]]]; [| | |lia]; ring.
Qed.

(* C89, what fails: the rates of change of the two velocity components depend on memory the code never writes. With the array
   vort holding w or w' instead, they differ by - v (w - w') and u (w - w'). *)
Theorem C89_uninitialised_refuted : Grid -> some_wall -> forall vort vort' g q, fits q ->
  exists z z', rhs vort g q = Ok z /\ rhs vort' g q = Ok z' /\
  forall i k, (i < Np)%nat -> (k < K)%nat -> let '(_, u, v) := at_node q i k in let dw := vort i k - vort' i k in
    ment (fieldc 0 z) i k = ment (fieldc 0 z') i k /\
    ment (fieldc 1 z) i k - ment (fieldc 1 z') i k = - (v * dw) /\ ment (fieldc 2 z) i k - ment (fieldc 2 z') i k = u * dw.
Proof.
  intros [HB HM HX HS Hrun Hbc] Ht vort vort' g q HQ.
  destruct (ins_grid_ok _ _ _ _ _ _ _ _ _ _ _ _ HB E2E E2F HM HS _ _ _ _ _ Hrun Hbc jk jv lowest vort g q Ht HQ) as (z & Ez & _ & Hz).
  destruct (ins_grid_ok _ _ _ _ _ _ _ _ _ _ _ _ HB E2E E2F HM HS _ _ _ _ _ Hrun Hbc jk jv lowest vort' g q Ht HQ) as (z' & Ez' & _ & Hz').
  exists z, z'. split; [exact Ez|]. split; [exact Ez'|]. intros i k Hi Hk. rewrite !Hz, !Hz' by (assumption || lia). unfold at_node, ins_volume, at_node. repeat split; ring.
Qed.

(* C89, what fails: a fluid at rest does not stay at rest. No pressure opposes gravity: whatever the density, its rate of
   change is (0, 0, - g rho). *)
Theorem C89_rest_refuted : Grid -> lowest <= 0 -> some_wall -> forall vort g q, fits q ->
  (forall i k, (i < Np)%nat -> (k < K)%nat -> velocity (at_node q i k) = (0, 0)) ->
  exists z, rhs vort g q = Ok z /\ forall i k, (i < Np)%nat -> (k < K)%nat -> at_node z i k = (0, 0, - (g * density (at_node q i k))).
Proof.
  intros [HB HM HX HS Hrun Hbc] Hl Ht vort g q HQ H0.
  destruct (ins_grid_ok _ _ _ _ _ _ _ _ _ _ _ _ HB E2E E2F HM HS _ _ _ _ _ Hrun Hbc jk jv lowest vort g q Ht HQ) as (z & Ez & _ & Hz).
  exists z. split; [exact Ez|]. intros i k Hi Hk. unfold at_node at 1.
  assert (Hz' : forall c, (c < 3)%nat -> ment (fieldc c z) i k = ins_volume vort (tables_of el m) Np g q c i k).
  { intros c Hc. rewrite (Hz c i k Hc Hi Hk). rewrite (surface_zero N K el bcType m Hbc q _ c i k Hk); [ring|]. intros j Hj. eapply still_jump; eassumption. }
  rewrite !Hz' by lia. destruct (still_parts _ (H0 i k Hi Hk)) as (U & V). unfold ins_volume. rewrite (surjective_pairing (at_node q i k)), (surjective_pairing (fst (at_node q i k))).
  destruct (deriv_const _ _ _ _ _ _ _ _ _ _ _ _ HB HX bcType m Hbc k (energy_at q k) 0 i Hk Hi) as (E1 & E2).
  { intros j Hj. destruct (still_parts _ (H0 j k Hj Hk)) as (Uj & Vj). unfold energy_at. unfold at_node in Uj, Vj. cbn [part fst snd] in Uj, Vj. rewrite Uj, Vj. lra. }
  rewrite E1, E2. unfold density. unfold part in U, V |- *. rewrite U, V. cbn [fst snd]. f_equal; [f_equal|]; ring.
Qed.

(* C89, what fails: walls are not walls. A uniform flow, through whatever faces, is advanced as if there were none: only the
   contents of vort and gravity change it. *)
Theorem C89_walls_refuted : Grid -> some_wall -> forall vort g q c w, fits q -> uniform Np K q c ->
  (forall i k, (i < Np)%nat -> (k < K)%nat -> vort i k = w) ->
  exists z, rhs vort g q = Ok z /\ uniform Np K z (let '(rho, u, v) := c in (0, - v * w, u * w - g * rho)).
Proof.
  intros [HB HM HX HS Hrun Hbc] Ht vort g q c w HQ Hu Hw.
  destruct (uniform_rhs _ _ _ _ _ _ _ _ _ _ _ _ HB E2E E2F HM HX HS _ _ _ _ _ Hrun Hbc jk jv lowest vort g q c w Ht HQ Hu Hw) as (z & Ez & _ & Uz).
  exists z. split; [exact Ez|]. destruct c as [[rho u] v]. exact Uz.
Qed.

(* C89: the filter (of any positive cutoff other than N) keeps constants - every row of it sums to one. *)
Theorem C89_filter_constants : Grid -> forall epsf Nc sp F, 0 < epsf <= 1 -> 0 < Nc -> INR N <> Nc ->
  quadFilter (exact G) pow exp ln epsf N (e_V el) (e_Vinv el) Nc sp = Ok F -> forall q c, fits q -> uniform Np K q c ->
  uniform Np K (filter_state (exact G) F q) c.
Proof.
  intros [HB HM HX HS Hrun Hbc] epsf Nc sp F He HN Hne EF q c HQ Hu.
  destruct (filter_rows _ _ _ _ _ _ _ _ _ _ _ _ HB bcType Hbc epsf Nc sp F He Hne HN EF) as (SF & H1). eapply uniform_filter; eassumption.
Qed.

(* C89, what fails: closed basins. Take any run of the loop, however long, from a uniform density without horizontal flow,
   with vort all zeros and the driver's filter: the fluid falls freely. After n steps every node has lost g rho times the sum of the
   steps taken in vertical velocity, walls below notwithstanding. *)
Theorem C89_free_fall_refuted : Grid -> some_wall -> forall epsf Nc sp F, 0 < epsf <= 1 -> 0 < Nc -> INR N <> Nc ->
  quadFilter (exact G) pow exp ln epsf N (e_V el) (e_Vinv el) Nc sp = Ok F ->
  forall g CFL huge c0 vorts rho0 V0 n s, (forall t i k, vorts t i k = 0) ->
  fits (w_q (s 0%nat)) -> uniform Np K (w_q (s 0%nat)) (rho0, 0, V0) ->
  history Ok (ins_sim_step (exact G) jk jv lowest vorts (tables_of el m) N 4 (S N) Np K g CFL huge c0 F) n s ->
  fits (w_q (s n)) /\ uniform Np K (w_q (s n)) (rho0, 0, V0 - g * rho0 * sumn n (fun i => w_dt (s i))).
Proof.
  intros [HB HM HX HS Hrun Hbc] Ht epsf Nc sp F He HN Hne EF g CFL huge c0 vorts rho0 V0 n s Hv HQ0 Hu0.
  destruct (filter_rows _ _ _ _ _ _ _ _ _ _ _ _ HB bcType Hbc epsf Nc sp F He Hne HN EF) as (SF & H1).
  induction n as [|n IH]; intro Hh.
  { split; [exact HQ0|]. unfold sumn. cbn. replace (V0 - g * rho0 * 0) with V0 by ring. exact Hu0. }
  destruct IH as (HQ & Hu); [intros i Hi; apply Hh; lia|]. pose proof (Hh n ltac:(lia)) as E. unfold ins_sim_step in E.
  set (dt := w_dt (s n)) in *. destruct (still_step _ _ _ _ _ _ _ _ _ _ _ _ HB E2E E2F HM HX HS _ _ _ _ _ Hrun Hbc jk jv lowest (vorts (2 * w_count (s n))%nat) (vorts (2 * w_count (s n) + 1)%nat) g F dt (w_q (s n)) rho0 _ Ht SF H1 ltac:(intros; rewrite !Hv; auto) HQ Hu) as (q' & Es & Cq & Uq).
  change (ins_step (exact G) F (rhs (vorts (2 * w_count (s n))%nat) g) (rhs (vorts (2 * w_count (s n) + 1)%nat) g) dt (w_q (s n)) = Ok q') in Es.
  rewrite Es in E. destruct (w_q (s n)) as [[a b] c] eqn:Eq. cbn [bind] in E. destruct q' as [[a' b'] c'] eqn:Eq'. destruct (unstable _ _ _ _); [discriminate E|]. destruct (ins_fsc _ _ _ _ _ _ _ _ _) as [Fsc| |]; [|discriminate E|discriminate E]. cbn [bind] in E.
  injection E as E. rewrite <- E. cbn [w_q]. split; [exact Cq|]. rewrite sumn_S. fold dt. intros i k Hi Hk. rewrite (Uq i k Hi Hk). f_equal. ring.
Qed.

(* C89: those runs exist, of every length, from every such state whose density is within the limit of the instability test. *)
Lemma unstable_uniform huge (x : mat R) rho0 : lowest <= 0 -> (0 < mrows x)%nat -> (0 < mcols x)%nat -> Rabs rho0 <= huge -> (forall i k, (i < mrows x)%nat -> (k < mcols x)%nat -> ment x i k = rho0) ->
  unstable (exact G) lowest huge x = false.
Proof.
  intros Hl Hr Hc Hh Hx. unfold unstable. cbv zeta. set (Mx := max_abs (exact G) lowest x).
  destruct (Line1DBurgersProofs.max_abs_ge G x (list_prod (seq 0 (mrows x)) (seq 0 (mcols x))) lowest Mx eq_refl) as (_ & H2 & H3).
  assert (Hm : Mx = Rabs rho0).
  { pose proof (H2 0%nat 0%nat ltac:(apply in_prod; apply in_seq; lia)) as H0. rewrite Hx in H0 by assumption. destruct H3 as [H3|(i & k & Hi & H3)].
    - pose proof (Rabs_pos rho0). lra.
    - apply in_prod_iff in Hi as (Hi & Hk). apply in_seq in Hi. apply in_seq in Hk. rewrite H3, Hx by lia. reflexivity. }
  rewrite Hm. cbn [exact flt fle fabs]. rewrite Rabs_Rabsolu. unfold Rltb, Rleb. destruct (Rlt_dec _ _); [lra|]. destruct (Rle_dec _ _); [reflexivity|lra].
Qed.
Theorem C89_free_fall_runs : Grid -> lowest <= 0 -> some_wall -> forall epsf Nc sp F, 0 < epsf <= 1 -> 0 < Nc -> INR N <> Nc ->
  quadFilter (exact G) pow exp ln epsf N (e_V el) (e_Vinv el) Nc sp = Ok F ->
  forall g CFL huge c0 vorts rho0 V0 s0, (forall t i k, vorts t i k = 0) -> fits (w_q s0) -> uniform Np K (w_q s0) (rho0, 0, V0) -> Rabs rho0 <= huge ->
  exists s, s 0%nat = s0 /\ forall n, history Ok (ins_sim_step (exact G) jk jv lowest vorts (tables_of el m) N 4 (S N) Np K g CFL huge c0 F) n s.
Proof.
  intros HG Hl Ht epsf Nc sp F He HN Hne EF g CFL huge c0 vorts rho0 V0 s0 Hv HQ0 Hu0 Hh.
  set (step := ins_sim_step (exact G) jk jv lowest vorts (tables_of el m) N 4 (S N) Np K g CFL huge c0 F).
  set (s := nat_rect (fun _ => swsim R) s0 (fun _ x => match step x with Ok y => y | _ => x end)). exists s. split; [reflexivity|].
  induction n as [|n IH]; [intros i Hi; lia|]. intros i Hi. destruct (Nat.eq_dec i n) as [->|Hne']; [|apply IH; lia].
  destruct (C89_free_fall_refuted HG Ht epsf Nc sp F He HN Hne EF g CFL huge c0 vorts rho0 V0 n s Hv HQ0 Hu0 IH) as (HQ & Hu).
  assert (Hok : exists y, step (s n) = Ok y).
  { destruct HG as [HB HM HX HS Hrun Hbc]. destruct (filter_rows _ _ _ _ _ _ _ _ _ _ _ _ HB bcType Hbc epsf Nc sp F He Hne HN EF) as (SF & H1).
    destruct (still_step _ _ _ _ _ _ _ _ _ _ _ _ HB E2E E2F HM HX HS _ _ _ _ _ Hrun Hbc jk jv lowest (vorts (2 * w_count (s n))%nat) (vorts (2 * w_count (s n) + 1)%nat) g F (w_dt (s n)) (w_q (s n)) rho0 _ Ht SF H1 ltac:(intros; rewrite !Hv; auto) HQ Hu) as (q' & Es & Cq & Uq).
    change (ins_step (exact G) F (rhs (vorts (2 * w_count (s n))%nat) g) (rhs (vorts (2 * w_count (s n) + 1)%nat) g) (w_dt (s n)) (w_q (s n)) = Ok q') in Es.
    pose proof (fsc_ok _ _ _ _ _ _ _ _ _ _ _ _ HB E2E E2F HM HS _ _ _ _ _ Hrun Hbc jk jv q' Cq) as EFs.
    unfold step, ins_sim_step. destruct (w_q (s n)) as [[a b] c]. rewrite Es. cbn [bind]. destruct q' as [[a' b'] c']. cbn [fieldc fst snd] in EFs.
    pose proof Cq as Cq'. unfold state_conform in Cq'. rewrite !andb_true_iff, !conform_ok in Cq'. destruct Cq' as (((A1 & A2) & _) & _).
    destruct Ht as (kw & fw & Hkw & _). rewrite (unstable_uniform huge a' rho0); [rewrite EFs; cbn [bind]; eexists; reflexivity|exact Hl|rewrite A1; lia|rewrite A2; lia|exact Hh|].
    intros i k Hi' Hk'. rewrite A1 in Hi'. rewrite A2 in Hk'. pose proof (f_equal (fun p => fst (fst p)) (Uq i k Hi' Hk')) as E0. exact E0. }
  destruct Hok as (y & Ey). change (s (S n)) with (match step (s n) with Ok y => y | _ => s n end). rewrite Ey. reflexivity.
Qed.

(* the rates at which the flow crosses the elements at the face nodes: Fscale times the flow speed *)
Definition face_crossing (q : field) (v : R) : Prop := exists n f k, (n <= N)%nat /\ (f < 4)%nat /\ (k < K)%nat /\
  v = Rabs (ment (e_Fscale el) (f * S N + n) k) * flow_speed (at_node q (ment (qmask_table N (e_masks el)) n f) k).
Lemma least_exists (l : list R) : l <> [] -> exists r, In r l /\ forall v, In v l -> r <= v.
Proof.
  induction l as [|a l IH]; [congruence|]. intros _. destruct l as [|b l]; [exists a; split; [left; reflexivity|intros v [<-|[]]; lra]|].
  destruct IH as (r & Hr & Hmin); [congruence|]. destruct (Rle_dec a r) as [L|L].
  - exists a. split; [left; reflexivity|]. intros v [<-|Hv]; [lra|]. specialize (Hmin v Hv). lra.
  - exists r. split; [right; exact Hr|]. intros v [<-|Hv]; [lra|]. apply Hmin, Hv.
Qed.
(* C89, what fails: the time step. With B = (N+1)^2/2, the next step is CFL times the SMALLEST of B (v + c0) over the face
   nodes, where a stable step is CFL over the largest: the faster the flow the longer the step. As soon as all the rates B v exceed one
   the step violates the condition dt B v <= CFL at every one of them. *)
Theorem C89_time_step_refuted : Grid -> lowest <= 0 -> (0 < K)%nat -> forall CFL c0 q, 0 < CFL -> 0 < c0 -> fits q ->
  let B := INR ((N + 1) * (N + 1)) / 2 in
  exists Fsc r, ins_fsc (exact G) jv (tables_of el m) 4 (S N) Np K (fieldc 1 q) (fieldc 2 q) = Ok Fsc /\
  is_least (fun v => exists f, face_crossing q f /\ v = B * (f + c0)) r /\
  let dt := ins_dt (exact G) lowest N CFL c0 Fsc in dt = CFL * r /\
  ((forall v, face_crossing q v -> 1 < B * v) -> forall v, face_crossing q v -> CFL < dt * (B * v)).
Proof.
  intros [HB HM HX HS Hrun Hbc] Hl HK CFL c0 q HC Hc HQ B.
  pose proof (fsc_ok _ _ _ _ _ _ _ _ _ _ _ _ HB E2E E2F HM HS _ _ _ _ _ Hrun Hbc jk jv q HQ) as EF.
  pose proof (in_frate _ _ _ _ _ _ _ _ _ _ _ _ HB E2E E2F HM HS _ _ _ _ _ Hrun Hbc q) as HI.
  set (Fsc := tab (4 * S N * K) (frate N el m q)) in *. assert (HI' : forall v, In v Fsc <-> face_crossing q v) by exact HI.
  assert (HBp : 0 < B) by (unfold B; assert (0 < INR ((N + 1) * (N + 1))) by (apply lt_0_INR; nia); lra).
  assert (Hne : Fsc <> []) by (unfold Fsc, tab; destruct (4 * S N * K)%nat eqn:E; [nia|]; cbn; discriminate).
  assert (Hpos : forall v, In v Fsc -> 0 <= v) by (intros v Hv; apply HI' in Hv as (? & ? & ? & _ & _ & _ & ->); apply Rmult_le_pos; [apply Rabs_pos|apply sqrt_pos]).
  destruct (least_exists Fsc Hne) as (r0 & Hr0 & Hmin). exists Fsc, (B * (r0 + c0)). split; [exact EF|].
  assert (HL : is_least (fun v => exists f, In f Fsc /\ v = B * (f + c0)) (B * (r0 + c0))).
  { split; [exists r0; auto|]. intros v (f & Hf & ->). apply Rmult_le_compat_l; [lra|]. specialize (Hmin f Hf). lra. }
  assert (Hrp : 0 < B * (r0 + c0)) by (apply Rmult_lt_0_compat; [exact HBp|]; specialize (Hpos r0 Hr0); lra).
  pose proof (ins_dt_ok G lowest N CFL c0 Fsc _ Hl Hrp HL) as Edt. split.
  { destruct HL as ((f & Hf & Ef) & HL). split; [exists f; rewrite <- HI'; auto|]. intros v (f' & Hf' & ->). apply HL. exists f'. rewrite HI'. auto. }
  cbv zeta. split; [exact Edt|]. intros Hall v Hv. rewrite Edt. pose proof (Hall v Hv) as Hv1. pose proof (Hall r0 (proj1 (HI' r0) Hr0)) as H1.
  assert (H2 : 1 < B * (r0 + c0)) by (pose proof (Rmult_lt_0_compat _ _ HBp Hc); lra). rewrite Rmult_assoc. rewrite <- (Rmult_1_r CFL) at 1. apply Rmult_lt_compat_l; [exact HC|].
  apply Rlt_trans with (1 * (B * v)); [lra|]. apply Rmult_lt_compat_r; lra.
Qed.
Lemma fscale_pos : Grid -> forall n f k, (n <= N)%nat -> (f < 4)%nat -> (k < K)%nat -> 0 < ment (e_Fscale el) (f * S N + n) k.
Proof.
  intros [HB HM HX HS Hrun Hbc] n f k Hn Hf Hk. destruct (C70_normals _ _ _ _ _ _ _ _ _ _ _ _ HB k Hk (HX k Hk)) as (_ & _ & _ & HF).
  destruct (C43_nodes_masks _ _ _ _ _ _ _ _ _ _ _ _ HB) as (_ & _ & g & _ & _ & _ & _ & _ & _ & _ & _ & Hm). destruct (Hm f Hf) as (mask & Em & Lm & Hin & _).
  destruct (HF f n mask Hf ltac:(lia) Em) as (_ & _ & ->). assert (Hi : (nth n mask 0 < Np)%nat) by (apply Hin, nth_In; lia).
  destruct (C70_metric _ _ _ _ _ _ _ _ _ _ _ _ HB _ k Hi Hk) as (_ & _ & _ & _ & _ & _ & HJ & _). specialize (HJ (HX k Hk)).
  apply Rdiv_lt_0_compat; [|exact HJ]. apply Rdiv_lt_0_compat; [|lra]. unfold side_length. apply sqrt_lt_R0.
  pose proof (HX k Hk f Hf) as HC. unfold corner_cross in HC. set (p := qcorner Vert EToV k f) in *. set (q := qcorner Vert EToV k ((f + 1) mod 4)) in *. unfold TriGeoSpec.dot, pminus. cbn [fst snd].
  unfold TriGeoSpec.cross, pminus in HC. cbn [fst snd] in HC. pose proof (Rle_0_sqr (fst q - fst p)) as Q1. pose proof (Rle_0_sqr (snd q - snd p)) as Q2. unfold Rsqr in Q1, Q2.
  destruct (Req_dec (fst q - fst p) 0) as [E1|E1].
  - destruct (Req_dec (snd q - snd p) 0) as [E2|E2]; [rewrite E1, E2 in HC; lra|]. assert (0 < (snd q - snd p) * (snd q - snd p)) by (apply Rsqr_pos_lt; exact E2). lra.
  - assert (0 < (fst q - fst p) * (fst q - fst p)) by (apply Rsqr_pos_lt; exact E1). lra.
Qed.
(* C89, what fails: on every such grid all fast enough uniform flows are stepped beyond the limit at every face node. *)
Theorem C89_fast_flow_refuted : Grid -> lowest <= 0 -> (0 < K)%nat -> forall CFL c0, 0 < CFL -> 0 < c0 ->
  exists U0, 0 < U0 /\ forall q c, fits q -> uniform Np K q c -> U0 <= flow_speed c ->
  exists Fsc, ins_fsc (exact G) jv (tables_of el m) 4 (S N) Np K (fieldc 1 q) (fieldc 2 q) = Ok Fsc /\
  forall v, face_crossing q v -> CFL < ins_dt (exact G) lowest N CFL c0 Fsc * (INR ((N + 1) * (N + 1)) / 2 * v).
Proof.
  intros HG Hl HK CFL c0 HC Hc. set (B := INR ((N + 1) * (N + 1)) / 2). assert (HBp : 0 < B) by (unfold B; assert (0 < INR ((N + 1) * (N + 1))) by (apply lt_0_INR; nia); lra).
  set (l := map (fun p => ment (e_Fscale el) (fst (fst p) * S N + snd (fst p)) (snd p)) (list_prod (list_prod (seq 0 4) (seq 0 (S N))) (seq 0 K))).
  assert (Hin : forall n f k, (n <= N)%nat -> (f < 4)%nat -> (k < K)%nat -> In (ment (e_Fscale el) (f * S N + n) k) l).
  { intros n f k Hn Hf Hk. apply in_map_iff. exists (f, n, k). split; [reflexivity|]. apply in_prod; [apply in_prod|]; apply in_seq; lia. }
  destruct (least_exists l) as (m0 & Hm0 & Hmin). { intro E. pose proof (Hin 0%nat 0%nat 0%nat ltac:(lia) ltac:(lia) HK) as H. rewrite E in H. destruct H. }
  assert (Hmp : 0 < m0). { apply in_map_iff in Hm0 as ([[f n] k] & <- & Hp). apply in_prod_iff in Hp as (Hp & Hk). apply in_prod_iff in Hp as (Hf & Hn). apply in_seq in Hf. apply in_seq in Hn. apply in_seq in Hk. apply (fscale_pos HG); cbn [fst snd]; lia. }
  assert (HBm : 0 < B * m0) by (apply Rmult_lt_0_compat; assumption). exists (2 / (B * m0)). split; [apply Rdiv_lt_0_compat; lra|].
  intros q c HQ Hu HU. destruct (C89_time_step_refuted HG Hl HK CFL c0 q HC Hc HQ) as (Fsc & r & EF & _ & _ & Hall). exists Fsc. split; [exact EF|]. apply Hall. fold B.
  intros v (n & f & k & Hn & Hf & Hk & ->). pose proof (fscale_pos HG n f k Hn Hf Hk) as Fp. pose proof (Hmin _ (Hin n f k Hn Hf Hk)) as Fm.
  assert (Hi : (ment (qmask_table N (e_masks el)) n f < Np)%nat) by (destruct HG as [HB HM HX HS Hrun Hbc]; eapply qfn_lt; eassumption).
  rewrite (Hu _ k Hi Hk), Rabs_right by lra. apply Rlt_le_trans with (B * (m0 * (2 / (B * m0)))).
  - replace (B * (m0 * (2 / (B * m0)))) with 2 by (field; lra). lra.
  - apply Rmult_le_compat_l; [lra|]. apply Rmult_le_compat; [lra| |exact Fm|exact HU]. apply Rlt_le, Rdiv_lt_0_compat; lra.
Qed.
(* C89, what fails: the first time step, from rest, is the smaller of (N+1)^2/2 c0/CFL - a step that shrinks as the limit CFL
   grows - and CFL divided by the buoyancy frequency. *)
Theorem C89_first_step_refuted : Grid -> lowest <= 0 -> (0 < K)%nat -> forall CFL c0 bf q, 0 < CFL -> 0 < c0 -> fits q ->
  (forall i k, (i < Np)%nat -> (k < K)%nat -> velocity (at_node q i k) = (0, 0)) ->
  exists Fsc, ins_fsc (exact G) jv (tables_of el m) 4 (S N) Np K (fieldc 1 q) (fieldc 2 q) = Ok Fsc /\
  ins_first_dt (exact G) lowest N CFL c0 bf Fsc = Rmin (INR ((N + 1) * (N + 1)) / 2 * c0 / CFL) (CFL / bf).
Proof.
  intros [HB HM HX HS Hrun Hbc] Hl HK CFL c0 bf q HC Hc HQ H0.
  pose proof (fsc_ok _ _ _ _ _ _ _ _ _ _ _ _ HB E2E E2F HM HS _ _ _ _ _ Hrun Hbc jk jv q HQ) as EF.
  pose proof (in_frate _ _ _ _ _ _ _ _ _ _ _ _ HB E2E E2F HM HS _ _ _ _ _ Hrun Hbc q) as HI.
  eexists. split; [exact EF|]. apply ins_first_ok; [exact Hl|exact HC|exact Hc| |].
  - unfold tab. destruct (4 * S N * K)%nat eqn:E; [nia|]. cbn. discriminate.
  - intros f Hf. apply HI in Hf as (n & e & k & Hn & He & Hk & ->).
    assert (Hi : (ment (qmask_table N (e_masks el)) n e < Np)%nat) by (eapply qfn_lt; eassumption).
    destruct (still_parts _ (H0 _ k Hi Hk)) as (U & V). unfold flow_speed. rewrite U, V. replace (0 * 0 + 0 * 0) with 0 by ring. rewrite sqrt_0. ring.
Qed.
End C89.

(* C89: the clock, as in C78: it is advanced by the step to come. *)
Theorem C89_clock_refuted G jk jv lowest vorts d N NF Nfp Np K g CFL huge c0 F n (s : nat -> swsim R) :
  history Ok (ins_sim_step (exact G) jk jv lowest vorts d N NF Nfp Np K g CFL huge c0 F) n s ->
  w_t (s n) - w_t (s 0%nat) = sumn n (fun i => w_dt (s i)) + (w_dt (s n) - w_dt (s 0%nat)).
Proof.
  induction n as [|n IH]; intro Hh; [unfold sumn; cbn; ring|]. specialize (IH (fun i Hi => Hh i ltac:(lia))).
  rewrite sumn_S. pose proof (Hh n ltac:(lia)) as E. unfold ins_sim_step in E. destruct (w_q (s n)) as [[a b] c]. destruct (ins_step _ F _ _ _ _) as [[[a' b'] c']| |]; [|discriminate E|discriminate E]. cbn [bind] in E.
  destruct (unstable _ _ _ _); [discriminate E|]. destruct (ins_fsc _ _ _ _ _ _ _ _ _) as [Fsc| |]; [|discriminate E|discriminate E]. cbn [bind] in E. injection E as E. rewrite <- E. cbn [w_t w_dt exact fadd]. lra.
Qed.
(* C89: what the instability test lets through: a step that returns leaves no density beyond the limit. *)
Theorem C89_guard G jk jv lowest vorts d N NF Nfp Np K g CFL huge c0 F (s s' : swsim R) :
  ins_sim_step (exact G) jk jv lowest vorts d N NF Nfp Np K g CFL huge c0 F s = Ok s' ->
  let rho := fst (fst (w_q s')) in forall i k, (i < mrows rho)%nat -> (k < mcols rho)%nat -> Rabs (ment rho i k) <= huge.
Proof.
  intros E. cbv zeta. unfold ins_sim_step in E. destruct (w_q s) as [[a b] c]. destruct (ins_step _ F _ _ _ _) as [[[a' b'] c']| |]; [|discriminate E|discriminate E]. cbn [bind] in E.
  destruct (unstable _ _ _ _) eqn:Eu; [discriminate E|]. destruct (ins_fsc _ _ _ _ _ _ _ _ _) as [Fsc| |]; [|discriminate E|discriminate E]. cbn [bind] in E. injection E as E. rewrite <- E. cbn [w_q fst].
  intros i k Hi Hk. unfold unstable in Eu. cbv zeta in Eu. apply Bool.orb_false_iff in Eu as (Eu & _). set (Mx := max_abs _ _ _) in Eu.
  destruct (Line1DBurgersProofs.max_abs_ge G a' (list_prod (seq 0 (mrows a')) (seq 0 (mcols a'))) lowest Mx eq_refl) as (_ & HM & _).
  specialize (HM i k ltac:(apply in_prod; apply in_seq; lia)). cbn [exact flt fabs] in Eu. unfold Rltb in Eu. destruct (Rlt_dec huge (Rabs Mx)) as [L|L]; [discriminate Eu|]. pose proof (Rle_abs Mx). lra.
Qed.
(* C89: what a run writes: the density of every tenth step, before that step, under the number of the step. *)
Theorem C89_output {T} (A : arith T) jk jv lowest vorts d N NF Nfp Np K g CFL huge c0 F n (s : nat -> swsim T) :
  history Ok (ins_sim_step A jk jv lowest vorts d N NF Nfp Np K g CFL huge c0 F) n s -> w_count (s 0%nat) = 0%nat -> w_out (s 0%nat) = [] ->
  w_count (s n) = n /\ forall c rho, In (c, rho) (w_out (s n)) <-> (c < n)%nat /\ (c mod 10 = 0)%nat /\ rho = fst (fst (w_q (s c))).
Proof.
  intros Hh H0 H1. induction n as [|n IH]; [split; [exact H0|]; intros; rewrite H1; cbn; split; [tauto|lia]|].
  destruct IH as (Hc & Ho); [intros i Hi; apply Hh; lia|]. pose proof (Hh n ltac:(lia)) as E. unfold ins_sim_step in E. rewrite Hc in E. remember (n mod 10 =? 0)%nat as b10 eqn:Hm.
  destruct (w_q (s n)) as [[h hu] hv] eqn:Eq. destruct (ins_step _ F _ _ _ _) as [[[h' hu'] hv']| |]; [|discriminate E|discriminate E]. cbn [bind] in E.
  destruct (unstable _ _ _ _); [discriminate E|]. destruct (ins_fsc _ _ _ _ _ _ _ _ _) as [Fsc| |]; [|discriminate E|discriminate E]. cbn [bind] in E. injection E as E. rewrite <- E. cbn [w_count w_out].
  split; [reflexivity|]. intros c eta. symmetry in Hm. destruct b10; [apply Nat.eqb_eq in Hm|apply Nat.eqb_neq in Hm].
  - split.
    + intros [Ee|Hin]; [injection Ee as <- <-; rewrite Eq; cbn [fst]; repeat split; [lia|exact Hm]|]. apply Ho in Hin as (L & M & ->). repeat split; [lia|exact M].
    + intros (L & M & ->). destruct (Nat.eq_dec c n) as [-> |]; [left; rewrite Eq; reflexivity|right; apply Ho; repeat split; [lia|exact M]].
  - rewrite Ho. split; [intros (L & M & ->); repeat split; [lia|exact M]|]. intros (L & M & ->). destruct (Nat.eq_dec c n) as [-> |]; [contradiction|repeat split; [lia|exact M]].
Qed.
(* C89: for a linear rate of change (the same in both evaluations) a step without filtering is the Taylor polynomial of
   degree two of the exact solution. *)
Theorem C89_second_order G Np K (rhs : field -> outcome field) dt q z z2 F :
  (forall a b c w ra rb, state_conform w Np K = true -> sum_of Np K c a b w -> rhs a = Ok ra -> rhs b = Ok rb -> exists r, rhs w = Ok r /\ state_conform r Np K = true /\ sum_of Np K c ra rb r) ->
  state_conform q Np K = true -> state_conform z Np K = true -> rhs q = Ok z -> rhs z = Ok z2 ->
  shape F Np Np -> (forall i j, (i < Np)%nat -> (j < Np)%nat -> ment F i j = delta i j) ->
  exists q', ins_step (exact G) F rhs rhs dt q = Ok q' /\ forall c i k, (c < 3)%nat -> (i < Np)%nat -> (k < K)%nat ->
    ment (fieldc c q') i k = ment (fieldc c q) i k + dt * ment (fieldc c z) i k + dt ^ 2 / 2 * ment (fieldc c z2) i k.
Proof. intros HL HQ HZ Eq Ez SF HF. exact (proj1 (C78_second_order G Np K rhs dt q z z2 HL HQ HZ Eq Ez) F SF HF). Qed.
(* C89: the bound c0 uses the initial density alone (the loop passes it unchanged): it is the buoyancy frequency times the
   height of the grid, sqrt(g drho H). *)
Theorem C89_wave_bound G lowest highest g ys rs : let drho := vec_max (exact G) lowest rs - vec_min (exact G) highest rs in let H := vec_max (exact G) lowest ys - vec_min (exact G) highest ys in
  0 <= g * drho -> 0 < H -> c0_bound (exact G) lowest highest g ys rs = sqrt (g * drho * H).
Proof.
  intros drho H Hg HH. unfold c0_bound, buoyancy_freq. cbn [exact fabs fmul fsub fdiv fsqrt]. fold drho. fold H. rewrite (Rabs_right H) by lra.
  rewrite Rabs_right by (apply Rle_ge, Rmult_le_pos; [apply sqrt_pos|lra]). rewrite <- (sqrt_square H) at 2 by lra. rewrite <- sqrt_mult_alt.
  - f_equal. field. lra.
  - apply Rmult_le_pos; [exact Hg|]. apply Rlt_le, Rinv_0_lt_compat, HH.
Qed.

From Verif Require Import UniqueProofs JacobiProps TriWitness QuadWitness.
(* The hypotheses are met: two convex quadrilaterals, order one, walls, the filter of a cutoff of one half; a state at rest,
   and a flow of speed one with density 1 + y. *)
Example C89_witness : exists el m F, let Np := ((1 + 1) * (1 + 1))%nat in
  ins_grid gwit solve4 inverse4 junk0 0 eig0 (1 / 10) isort (fun _ => 0) (fun _ => 0%nat) 1 2 qVert qEToV qE2E qE2F [3; 0; 3; 3; 3; 3; 3; 0]%Z el m /\
  (exists k f, (k < 2)%nat /\ (f < 4)%nat /\ nth (4 * k + f) [3; 0; 3; 3; 3; 3; 3; 0]%Z 0%Z = 3%Z) /\
  quadFilter (exact gwit) pow exp ln (1 / 2) 1 (e_V el) (e_Vinv el) (1 / 2) 4 = Ok F /\ INR 1 <> 1 / 2 /\
  (let q := (mkmat Np 2 (fun _ _ => 1), mkmat Np 2 (fun _ _ => 0), mkmat Np 2 (fun _ _ => 0)) in state_conform q Np 2 = true /\ uniform Np 2 q (1, 0, 0)) /\
  let q := (mkmat Np 2 (fun i k => 1 + ment (e_y el) i k), mkmat Np 2 (fun _ _ => 1), mkmat Np 2 (fun _ _ => 0)) in
  state_conform q Np 2 = true /\ continuous_field Np 2 (e_x el) (e_y el) q /\ degree2 1 [(0%nat, 0%nat, 1); (0%nat, 1%nat, 1)] /\
  (forall i k, density (at_node q i k) = eval2 [(0%nat, 0%nat, 1); (0%nat, 1%nat, 1)] (ment (e_x el) i k) (ment (e_y el) i k)) /\
  (forall i k, energy (at_node q i k) = eval2 [(0%nat, 0%nat, 1 / 2)] (ment (e_x el) i k) (ment (e_y el) i k)).
Proof.
  destruct C38_quadrilateral_witness as (el & m & HB & HS & Hm). destruct C43_witness as (_ & HX & _).
  destruct (C44_filter_refuted _ _ _ _ _ _ _ _ _ _ _ _ HB (1 / 2) (1 / 2) 4%nat ltac:(lra) ltac:(cbn; lra)) as (F & EF & _).
  exists el, m, F. cbv zeta. split; [constructor; [exact HB|exact quad_mesh_witness|exact HX|exact HS|exact Hm|cbn; lia]|]. split; [exists 0%nat, 0%nat; cbn; repeat split; lia|]. split; [exact EF|]. split; [cbn; lra|].
  split; [split; [reflexivity|intros i k _ _; reflexivity]|]. split; [reflexivity|]. split; [|split; [|split]].
  - intros i k i2 k2 _ _ _ _ E. unfold at_node. cbn [fieldc fst snd ment]. f_equal. f_equal. f_equal. exact (f_equal snd E).
  - apply Forall_cons; [cbn; lia|]. apply Forall_cons; [cbn; lia|]. apply Forall_nil.
  - intros i k. unfold density, at_node. cbn [part fieldc fst snd ment eval2 pow]. ring.
  - intros i k. unfold energy, at_node. cbn [part fieldc fst snd ment eval2 pow]. field.
Qed.
Print Assumptions C89_runs.
Print Assumptions C89_scheme.
Print Assumptions C89_consistent.
Print Assumptions C89_uninitialised_refuted.
Print Assumptions C89_rest_refuted.
Print Assumptions C89_walls_refuted.
Print Assumptions C89_filter_constants.
Print Assumptions C89_free_fall_refuted.
Print Assumptions C89_free_fall_runs.
Print Assumptions C89_time_step_refuted.
Print Assumptions C89_fast_flow_refuted.
Print Assumptions C89_first_step_refuted.
Print Assumptions C89_clock_refuted.
Print Assumptions C89_guard.
Print Assumptions C89_output.
Print Assumptions C89_second_order.
Print Assumptions C89_wave_bound.
