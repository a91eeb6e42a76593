(* PySwProps.v - theorems about sw2dComputeRHS of swhelpers/rhs.py, in exact arithmetic (C92). *)
From Coq Require Import ZArith List Lia Bool Arith.
From Verif Require Import Base Loops Num JacobiSpec JacobiQuadProofs Nodes1DModel Maps2DModel RKModel Line1DModel Line1DProofs TriModel TriSpec TriGeoSpec MeshSpec Maps2DSpec Maps2DProofs TriSetup TriDGSpec TriDGProofs TriMapsProofs TriMapsProps
  UniqueProofs Maps2DProps SwModel SwSpec SwProofs SwSchemeProofs SwRunProofs SwProps CurvedSwModel CurvedSwSpec CurvedSwProofs PySwModel PySwSpec PySwProofs PySwRunProofs JacobiExactProofs TriWitness.
From Coq Require Import Reals Lra.
Import ListNotations.
Local Open Scope R_scope.

(* The tables the run needs: they conform, there are nodes and sides, the two index maps name nodes, the boundary table
   has walls (tag 3), whose entries name face nodes; and there is water at every node. *)
Definition tables_ready (d : dg2d (T := R)) (NF Nfp Np K : nat) (vmapM vmapP : list nat) (zx zy : mat R) (q : four (mat R)) : Prop :=
  exists mapW, py_ready d NF Nfp Np K vmapM vmapP mapW zx zy q.

(* C92: with the same tables and index maps, the rates of the water are those of the C++ driver sw2d-simple plus the source terms. *)
Theorem C92_same_as_driver G d NF Nfp Np K vmapM vmapP zx zy q : tables_ready d NF Nfp Np K vmapM vmapP zx zy q ->
  forall g CD f jk jv low, low <= 0 -> exists z r,
  py_rhs (exact G) rhypot d NF Nfp Np K vmapM vmapP g CD f zx zy q = Ok z /\ four_conform z Np K = true /\
  sw_simple_rhs (exact G) jk jv low (with_maps d vmapM vmapP) NF Nfp Np K g (water q) = Ok r /\
  forall c i k, (c < 3)%nat -> (i < Np)%nat -> (k < K)%nat -> ment (pick c z) i k = ment (fieldc c r) i k + source4 g CD f (ment zx i k) (ment zy i k) c (node_state q i k).
Proof. intros (mapW & HR) g CD f jk jv low Hl. exact (same_water G d NF Nfp Np K vmapM vmapP mapW g CD f zx zy q HR jk jv low Hl). Qed.

(* C92: water of uniform concentration keeps it: whatever the maps (periodic ones included) and the flow, the rate of
   the tracer is the concentration times the rate of the depth. *)
Theorem C92_uniform_concentration G d NF Nfp Np K vmapM vmapP zx zy q : tables_ready d NF Nfp Np K vmapM vmapP zx zy q ->
  forall g CD f t, (forall i k, (i < Np)%nat -> (k < K)%nat -> ment (q_hN q) i k = t * ment (q_h q) i k) ->
  exists z, py_rhs (exact G) rhypot d NF Nfp Np K vmapM vmapP g CD f zx zy q = Ok z /\ forall i k, (i < Np)%nat -> (k < K)%nat -> ment (q_hN z) i k = t * ment (q_h z) i k.
Proof.
  intros (mapW & HR) g CD f t Ht. destruct (py_ok G d NF Nfp Np K vmapM vmapP mapW g CD f zx zy q HR) as (z & Ez & _). exists z. split; [exact Ez|].
  exact (tracer_kept G d NF Nfp Np K vmapM vmapP mapW g CD f zx zy q HR t z Ht Ez).
Qed.

(* C92: without a wall in the boundary table the run raises KeyError. *)
Theorem C92_no_wall_throws G d NF Nfp Np K vmapM vmapP g CD f zx zy q :
  dg_conform d NF Nfp Np K = true -> four_conform q Np K = true -> conform zx Np K = true -> conform zy Np K = true ->
  length vmapM = (NF * Nfp * K)%nat -> length vmapP = (NF * Nfp * K)%nat -> hfind (d_bc d) 3 = None ->
  py_rhs (exact G) rhypot d NF Nfp Np K vmapM vmapP g CD f zx zy q = Throw.
Proof. intros H1 H2 H3 H4 H5 H6 H7. unfold py_rhs. rewrite H1, H2, H3, H4, H5, H6, Nat.eqb_refl, H7. reflexivity. Qed.

Section C92.
Context (G : R -> R) (solve : mat R -> mat R -> mat R -> outcome (mat R)) (inverse : mat R -> mat R -> outcome (mat R))
  (junk : nat -> nat -> R) (eps : R) (eig : nat -> (nat -> nat -> R) -> list R * (nat -> nat -> R)) (tol : R)
  (sort : (nat -> nat -> bool) -> list nat -> list nat) (junk1 : nat -> R) (junkn : nat -> nat)
  (N K : nat) (Vert : list R) (EToV E2E E2F : list nat) (bcType : list Z) (el : element (T := R)) (m : maps).
Local Notation Grid := (sw_grid G solve inverse junk eps eig tol sort junk1 junkn N K Vert EToV E2E E2F bcType el m).
Local Notation Np := (length (e_r el)).
Local Notation d := (tables_of el m).
Local Notation alone k f := (forall k2 f2, (f2 < 3)%nat -> ~ joined EToV k f k2 f2).
Local Notation tagged t := (exists k f, (k < K)%nat /\ (f < 3)%nat /\ tag_of bcType k f = t).
Local Notation scheme := (dg_scheme N Np K Vert EToV (e_x el) (e_y el)).
Local Notation local := (local_speed Np K Vert EToV (e_x el) (e_y el)).
Local Notation run g CD f zx zy q := (py_rhs (exact G) rhypot d 3 (S N) Np K (m_vmapM m) (m_vmapP m) g CD f zx zy q).
(* a state with water at every node and slopes of the bottom on the mesh *)
Definition wet (zx zy : mat R) (q : four (mat R)) : Prop :=
  four_conform q Np K = true /\ conform zx Np K = true /\ conform zy Np K = true /\ forall i k, (i < Np)%nat -> (k < K)%nat -> ment (q_h q) i k <> 0.

(* C92: on a mesh whose walls are boundary sides the result is the rate of the discontinuous Galerkin scheme with the
   local Rusanov flux, for the water and for the tracer, plus the source terms at the nodes. *)
Theorem C92_scheme : Grid -> (forall k f, (k < K)%nat -> (f < 3)%nat -> tag_of bcType k f = 3%Z -> alone k f) -> tagged 3%Z ->
  forall g CD f zx zy q, wet zx zy q -> exists z r, run g CD f zx zy q = Ok z /\ four_conform z Np K = true /\
  scheme g (water q) (walls bcType) (local g (water q) (walls bcType)) r /\
  (forall c i k, (c < 3)%nat -> (i < Np)%nat -> (k < K)%nat -> ment (pick c z) i k = ment (fieldc c r) i k + source4 g CD f (ment zx i k) (ment zy i k) c (node_state q i k)) /\
  tracer_scheme N Np K Vert EToV (e_x el) (e_y el) q (walls bcType) (local g (water q) (walls bcType)) (q_hN z).
Proof.
  intros HG Hw Ht g CD f zx zy q (HQ & Hx & Hy & Hh).
  destruct (mesh_water G solve inverse junk eps eig tol sort junk1 junkn N K Vert EToV E2E E2F bcType el m HG Hw g CD f zx zy q Ht HQ Hx Hy Hh) as (z & r & Ez & Cz & Hs & Hz).
  destruct (mesh_stuff G solve inverse junk eps eig tol sort junk1 junkn N K Vert EToV E2E E2F bcType el m HG Hw g CD f zx zy q Ht HQ Hx Hy Hh) as (z' & mapW & Ez' & _ & Hz' & Hs').
  assert (z' = z) by congruence. subst z'. exists z, r. split; [exact Ez|]. split; [exact Cz|]. split; [exact Hs|]. split; [exact Hz|].
  intros k Hk. destruct (Hs' k 0%nat Hk ltac:(lia)) as (Z & F & GG & S0 & S1 & S2 & (D1 & I1) & D2 & I2 & D3 & I3 & F0 & F1 & F2 & HB). exists Z, F, GG, S0, S1, S2. cbv zeta.
  split. { split; [exact D1|]. intros i Hi. rewrite (I1 i Hi), Hz' by assumption. reflexivity. }
  split. { split; [exact D2|]. exact I2. }
  split. { split; [exact D3|]. exact I3. }
  repeat (split; [assumption|]). assumption.
Qed.

Lemma closed_mass q g g' t z : Grid -> (forall k f, (k < K)%nat -> (f < 3)%nat -> tag_of bcType k f = 3%Z <-> alone k f) ->
  scheme g' t (walls bcType) (local g q (walls bcType)) z ->
  forall (Z : nat -> poly2) (v : nat -> R),
  (forall k, (k < K)%nat -> interpolant N Np (e_x el) (e_y el) (fieldc 0 z) k (Z k) /\
     element_integral (TriGeoSpec.corner Vert EToV k 0) (TriGeoSpec.corner Vert EToV k 1) (TriGeoSpec.corner Vert EToV k 2) (eval2 (Z k)) (v k)) ->
  sumn K v = 0.
Proof.
  intros HG Hcl Hs Z v HZ. pose proof HG as [HB HM HA HS Hrun Hbc].
  assert (Hj : forall k f k2 f2, (k < K)%nat -> (f < 3)%nat -> (f2 < 3)%nat -> joined EToV k f k2 f2 -> walls bcType k f = None).
  { intros k f k2 f2 Hk Hf Hf2 J. unfold walls. destruct (Z.eqb_spec (tag_of bcType k f) 3) as [E|E]; [|reflexivity]. exfalso. exact (proj1 (Hcl k f Hk Hf) E k2 f2 Hf2 J). }
  eapply (mass_zero G solve inverse junk eps eig tol N K Vert EToV el HB E2E E2F HM HA HS sort junk1 junkn bcType m Hrun Hbc g' t (walls bcType) _ z Hs); [| | |exact HZ].
  - intros k f v0 w0. apply is_max_unique.
  - intros k f k2 f2 Hf Hk Hf2 J v0 w0 Hv Hw. pose proof (joined_ends G solve inverse junk eps eig tol N K Vert EToV el HB E2E E2F HM HA HS sort junk1 junkn bcType m Hrun Hbc k f k2 f2 Hf Hk Hf2 J) as (Hk2 & _ & _ & J').
    eapply (local_swap G solve inverse junk eps eig tol N K Vert EToV el HB E2E E2F HM HA HS sort junk1 junkn bcType m Hrun Hbc g q (walls bcType) k f k2 f2); try eassumption; [eapply Hj|eapply (Hj k2 f2 k f)]; eassumption.
  - intros k f Hk Hf. destruct (Z.eq_dec (tag_of bcType k f) 3) as [E|E].
    + left. split; [unfold walls; rewrite E; reflexivity|exact (proj1 (Hcl k f Hk Hf) E)].
    + right. split; [unfold walls; destruct (Z.eqb_spec (tag_of bcType k f) 3); [contradiction|reflexivity]|].
      destruct HM as [_ _ HN _ _]. destruct (HN (3 * k + f)%nat ltac:(lia)) as (h & _ & [(_ & Hno)|(Sh & _)]).
      * exfalso. apply E. apply (proj2 (Hcl k f Hk Hf)). intros k2 f2 _ J. exact (Hno _ J).
      * exists (h / 3)%nat, (h mod 3)%nat. split; [apply Nat.mod_upper_bound; lia|]. unfold joined. rewrite <- (Nat.div_mod h 3) by lia. exact Sh.
Qed.

(* C92: with walls all round neither water nor tracer is gained or lost: the integrals of the rates of h and of hN over the
   mesh vanish. *)
Theorem C92_conservation : Grid -> (forall k f, (k < K)%nat -> (f < 3)%nat -> tag_of bcType k f = 3%Z <-> alone k f) -> tagged 3%Z ->
  forall g CD f zx zy q, wet zx zy q -> exists z, run g CD f zx zy q = Ok z /\
  forall c, c = 0%nat \/ c = 3%nat -> forall (Z : nat -> poly2) (v : nat -> R),
  (forall k, (k < K)%nat -> interpolant N Np (e_x el) (e_y el) (pick c z) k (Z k) /\
     element_integral (TriGeoSpec.corner Vert EToV k 0) (TriGeoSpec.corner Vert EToV k 1) (TriGeoSpec.corner Vert EToV k 2) (eval2 (Z k)) (v k)) ->
  sumn K v = 0.
Proof.
  intros HG Hcl Ht g CD f zx zy q (HQ & Hx & Hy & Hh). assert (Hw : forall k f, (k < K)%nat -> (f < 3)%nat -> tag_of bcType k f = 3%Z -> alone k f) by (intros k f0 Hk Hf; apply (proj1 (Hcl k f0 Hk Hf))).
  destruct (mesh_water G solve inverse junk eps eig tol sort junk1 junkn N K Vert EToV E2E E2F bcType el m HG Hw g CD f zx zy q Ht HQ Hx Hy Hh) as (z & r & Ez & Cz & Hs & Hz).
  destruct (mesh_stuff G solve inverse junk eps eig tol sort junk1 junkn N K Vert EToV E2E E2F bcType el m HG Hw g CD f zx zy q Ht HQ Hx Hy Hh) as (z' & mapW & Ez' & _ & Hz' & Hs').
  assert (z' = z) by congruence. subst z'. exists z. split; [exact Ez|]. intros c [-> | ->] Z v HZ.
  - apply (closed_mass (water q) g g (water q) r HG Hcl Hs Z v). intros k Hk. destruct (HZ k Hk) as ((D & I) & E). split; [|exact E]. split; [exact D|]. intros i Hi. rewrite (I i Hi), (Hz 0%nat i k ltac:(lia) Hi Hk).
    unfold source4. destruct (fst (node_state q i k)) as [[? ?] ?]. ring.
  - apply (closed_mass (water q) g 0 (tracer Np K q) _ HG Hcl Hs' Z v). intros k Hk. destruct (HZ k Hk) as ((D & I) & E). split; [|exact E]. split; [exact D|]. intros i Hi. rewrite (I i Hi). cbn [pick]. apply Hz'; assumption.
Qed.

(* C92: still water of constant depth over a flat bottom, with uniform concentration, stays as it is. *)
Theorem C92_still_water : Grid -> (forall k f, (k < K)%nat -> (f < 3)%nat -> tag_of bcType k f = 3%Z -> alone k f) -> tagged 3%Z ->
  forall g CD f zx zy q h0 hN0, wet zx zy q ->
  (forall i k, (i < Np)%nat -> (k < K)%nat -> node_state q i k = (h0, 0, 0, hN0) /\ ment zx i k = 0 /\ ment zy i k = 0) ->
  exists z, run g CD f zx zy q = Ok z /\ forall i k, (i < Np)%nat -> (k < K)%nat -> node_state z i k = (0, 0, 0, 0).
Proof.
  intros HG Hw Ht g CD f zx zy q h0 hN0 (HQ & Hx & Hy & Hh) Hq. pose proof HG as [HB HM HA HS Hrun Hbc].
  destruct (mesh_ready_py G solve inverse junk eps eig tol sort junk1 junkn N K Vert EToV E2E E2F bcType el m HG zx zy q Ht HQ Hx Hy Hh) as (mapW & HR & _).
  destruct (same_water G d 3 (S N) Np K _ _ mapW g CD f zx zy q HR (fun _ _ => 0) (fun _ => 0) 0 (Rle_refl 0)) as (z & r & Ez & Cz & Er & Hz).
  assert (HS' : state_conform (water q) Np K = true). { unfold four_conform in HQ. rewrite !andb_true_iff in HQ. unfold water, state_conform. rewrite !andb_true_iff. tauto. }
  destruct (C49_still_water G solve inverse junk eps eig tol sort junk1 junkn N K Vert EToV E2E E2F bcType el m (fun _ _ => 0) (fun _ => 0) 0 HG Hw Ht g (water q) h0 HS') as (r' & Er' & Hr).
  { intros i k Hi Hk. destruct (Hq i k Hi Hk) as (E & _). exact (f_equal fst E). }
  change (with_maps d (m_vmapM m) (m_vmapP m)) with d in Er. assert (r' = r) by congruence. subst r'.
  exists z. split; [exact Ez|].
  assert (HW : forall c i k, (c < 3)%nat -> (i < Np)%nat -> (k < K)%nat -> ment (pick c z) i k = 0).
  { intros c i k Hc Hi Hk. rewrite (Hz c i k Hc Hi Hk). destruct (Hq i k Hi Hk) as (E & -> & ->). rewrite E. pose proof (Hr i k Hi Hk) as Er1. unfold at_node in Er1.
    assert (E3 : ment (fieldc c r) i k = 0) by (destruct c as [|[|[|]]]; [| | |lia]; congruence). rewrite E3. unfold source4. cbn [fst snd]. destruct c as [|[|[|]]]; unfold Rdiv; try ring; lia. }
  assert (HT : forall i k, (i < Np)%nat -> (k < K)%nat -> ment (q_hN z) i k = 0).
  { destruct (Nat.eq_dec (Np * K) 0) as [E0|E0]; [intros; nia|].
    assert (H0 : h0 <> 0). { intro. apply (Hh 0%nat 0%nat); [nia|nia|]. destruct (Hq 0%nat 0%nat ltac:(nia) ltac:(nia)) as (E & _). unfold node_state in E. congruence. }
    intros i k Hi Hk. rewrite (tracer_kept G d 3 (S N) Np K _ _ mapW g CD f zx zy q HR (hN0 / h0) z) by (try assumption; intros a b Ha Hb; destruct (Hq a b Ha Hb) as (E & _); unfold node_state in E; injection E as -> _ _ ->; field; exact H0).
    pose proof (HW 0%nat i k ltac:(lia) Hi Hk) as X. cbn [pick] in X. rewrite X. ring. }
  intros i k Hi Hk. unfold node_state. pose proof (HW 0%nat i k ltac:(lia) Hi Hk) as X0. pose proof (HW 1%nat i k ltac:(lia) Hi Hk) as X1. pose proof (HW 2%nat i k ltac:(lia) Hi Hk) as X2. cbn [pick] in X0, X1, X2. rewrite X0, X1, X2, (HT i k Hi Hk). reflexivity.
Qed.
End C92.

(* Two triangles with walls all round and a state not at rest; and its tables are ready for the run. *)
Example C92_witness :
  let Vert := [0; 0; 0;  1; 0; 0;  1; 1; 0;  0; 1; 0] in let EToV := [0; 1; 2;  0; 2; 3]%nat in
  let E2E := [0; 0; 1;  0; 1; 1]%nat in let E2F := [0; 1; 0;  2; 1; 2]%nat in let bcType := [3; 3; 0; 0; 3; 3]%Z in
  exists el m, sw_grid gwit cramer cramer_inv junk0 0 eig0 (1 / 10) isort (fun _ => 0) (fun _ => 0%nat) 1 2 Vert EToV E2E E2F bcType el m /\
  (exists k f, (k < 2)%nat /\ (f < 3)%nat /\ tag_of bcType k f = 3%Z) /\
  (forall k f, (k < 2)%nat -> (f < 3)%nat -> tag_of bcType k f = 3%Z <-> forall k2 f2, (f2 < 3)%nat -> ~ joined EToV k f k2 f2) /\
  let M := mkmat (length (e_r el)) 2 in let q := Four (M (fun i k => 1 + INR k)) (M (fun i k => INR i)) (M (fun _ _ => 0)) (M (fun i k => 2 + INR i)) in
  wet 2 el (M (fun i k => INR k)) (M (fun _ _ => 0)) q /\
  tables_ready (tables_of el m) 3 2 (length (e_r el)) 2 (m_vmapM m) (m_vmapP m) (M (fun i k => INR k)) (M (fun _ _ => 0)) q.
Proof.
  intros Vert EToV E2E E2F bcType. destruct C49_witness as (HW & HT & _). destruct (HW bcType (or_introl eq_refl)) as (el & m & HG & _). exists el, m. split; [exact HG|].
  assert (Htag : exists k f, (k < 2)%nat /\ (f < 3)%nat /\ tag_of bcType k f = 3%Z) by (exists 0%nat, 0%nat; repeat split; lia).
  split; [exact Htag|]. split; [exact HT|].
  intros M q. assert (Hwet : wet 2 el (M (fun i k => INR k)) (M (fun _ _ => 0)) q).
  { split; [unfold four_conform, conform; cbn; rewrite !Nat.eqb_refl; reflexivity|]. split; [unfold conform; cbn; rewrite !Nat.eqb_refl; reflexivity|]. split; [unfold conform; cbn; rewrite !Nat.eqb_refl; reflexivity|].
    intros i k _ _. unfold q, M; cbn [q_h ment]. pose proof (pos_INR k). lra. }
  split; [exact Hwet|]. destruct Hwet as (H1 & H2 & H3 & H4).
  destruct (mesh_ready_py gwit cramer cramer_inv junk0 0 eig0 (1 / 10) isort (fun _ => 0) (fun _ => 0%nat) 1 2 Vert EToV E2E E2F bcType el m HG _ _ q Htag H1 H2 H3 H4) as (mapW & HR & _). exists mapW. exact HR.
Qed.
Print Assumptions C92_same_as_driver.
Print Assumptions C92_uniform_concentration.
Print Assumptions C92_no_wall_throws.
Print Assumptions C92_scheme.
Print Assumptions C92_conservation.
Print Assumptions C92_still_water.
