(* SwProps.v - theorems about the shallow water drivers src/sw2d-simple and src/sw2d (C49) and about the source terms and
   limiters of src/sw2d, swhelpers/rhs.py and swhelpers/limiters.py (C50), in exact arithmetic. *)
From Coq Require Import ZArith List Lia Bool Arith.
From Verif Require Import Base Loops Num JacobiSpec JacobiQuadProofs Nodes1DModel DenseModel MeshSpec TriModel TriSpec TriGeoSpec TriSetup TriProps Maps2DModel Maps2DProps TriMapsProofs TriMapsProps TriDGSpec
  RKModel Line1DModel SwModel SwSpec SwSchemeProofs SwRunProofs JacobiExactProofs TriWitness Maps2DProofs UniqueProofs.
From Coq Require Import Reals Lra.
Import ListNotations.
Local Open Scope R_scope.

(* The situation: a provisioner built on a mesh of K positively oriented triangles, its face maps and boundary table
   built from the face tags bcType, with face nodes further apart than the node tolerance tells apart. *)
Record sw_grid (G : R -> R) (solve : mat R -> mat R -> mat R -> outcome (mat R)) (inverse : mat R -> mat R -> outcome (mat R))
  (junk : nat -> nat -> R) (eps : R) (eig : nat -> (nat -> nat -> R) -> list R * (nat -> nat -> R)) (tol : R)
  (sort : (nat -> nat -> bool) -> list nat -> list nat) (junk1 : nat -> R) (junkn : nat -> nat)
  (N K : nat) (Vert : list R) (EToV E2E E2F : list nat) (bcType : list Z) (el : element (T := R)) (m : maps) : Prop := SwGrid {
  sg_built : built G solve inverse junk eps eig tol N K Vert EToV el;
  sg_mesh : tri_mesh K Vert EToV E2E E2F;
  sg_area : forall k, (k < K)%nat -> 0 < area (TriGeoSpec.corner Vert EToV k 0) (TriGeoSpec.corner Vert EToV k 1) (TriGeoSpec.corner Vert EToV k 2);
  sg_nodes : forall n n', (n <= N)%nat -> (n' <= N)%nat -> n <> n' ->
    2 * tol <= Rabs (nth (ment (mask_table N (e_masks el)) n 0) (e_r el) 0 - nth (ment (mask_table N (e_masks el)) n' 0) (e_r el) 0);
  sg_maps : buildMaps (exact G) rhypot sort junk1 junkn tol 3 (S N) (length (e_r el)) K (mask_table N (e_masks el)) (e_x el) (e_y el) E2E E2F EToV Vert bcType [] = Ok m;
  sg_tags : (3 * K <= length bcType)%nat }.

Section C49.
Context (G : R -> R) (solve : mat R -> mat R -> mat R -> outcome (mat R)) (inverse : mat R -> mat R -> outcome (mat R))
  (junk : nat -> nat -> R) (eps : R) (eig : nat -> (nat -> nat -> R) -> list R * (nat -> nat -> R)) (tol : R)
  (sort : (nat -> nat -> bool) -> list nat -> list nat) (junk1 : nat -> R) (junkn : nat -> nat)
  (N K : nat) (Vert : list R) (EToV E2E E2F : list nat) (bcType : list Z) (el : element (T := R)) (m : maps).
Variables (jk : nat -> nat -> R) (jv : nat -> R) (lowest : R).     (* uninitialised storage; the start of a maximum *)
Local Notation Grid := (sw_grid G solve inverse junk eps eig tol sort junk1 junkn N K Vert EToV E2E E2F bcType el m).
Local Notation Np := (length (e_r el)).
Local Notation tagged t := (exists k f, (k < K)%nat /\ (f < 3)%nat /\ tag_of bcType k f = t).
Local Notation untagged t := (forall k f, (k < K)%nat -> (f < 3)%nat -> tag_of bcType k f <> t).
Local Notation alone k f := (forall k2 f2, (f2 < 3)%nat -> ~ joined EToV k f k2 f2).
Local Notation simple g q := (sw_simple_rhs (exact G) jk jv lowest (tables_of el m) 3 (S N) Np K g q).
Local Notation full g CD f0 tide H Hx Hy q := (sw_rhs (exact G) jk jv lowest (tables_of el m) 3 (S N) Np K g CD f0 tide H Hx Hy q).
Local Notation scheme := (dg_scheme N Np K Vert EToV (e_x el) (e_y el)).
Local Notation local := (local_speed Np K Vert EToV (e_x el) (e_y el)).
Local Notation global := (global_speed Np K Vert EToV (e_x el) (e_y el)).
Local Notation flux := (side_flux N Np K Vert EToV (e_x el) (e_y el)).

(* C49: the right-hand side of src/sw2d-simple is the discontinuous Galerkin scheme for the shallow water equations with
   the Rusanov flux, the dissipation being the largest wave speed met on either side of the face and the walls being the
   faces tagged 3. *)
Theorem C49_simple_scheme : Grid -> lowest <= 0 ->
  (forall k f, (k < K)%nat -> (f < 3)%nat -> tag_of bcType k f = 3%Z -> alone k f) -> tagged 3%Z ->
  forall g q, state_conform q Np K = true ->
  exists z, simple g q = Ok z /\ state_conform z Np K = true /\ scheme g q (walls bcType) (local g q (walls bcType)) z.
Proof. intros [HB HM HA HS Hrun Hbc] Hlow Hw Ht g q HQ. eapply simple_scheme; eassumption. Qed.

(* A mesh none of whose faces is tagged as a wall makes the driver throw. *)
Theorem C49_simple_no_wall_throws : Grid -> untagged 3%Z -> forall g q, state_conform q Np K = true -> simple g q = Throw.
Proof. intros [HB HM HA HS Hrun Hbc] Ht g q HQ. eapply simple_no_wall; eassumption. Qed.

(* C49: src/sw2d is the same scheme with one dissipation for the whole mesh, walls at tag 3, open boundaries at tag 2 and
   the source terms added, as long as the water is everywhere deep and the bottom is continuous. *)
Theorem C49_full_scheme : Grid -> lowest <= 0 -> tagged 3%Z -> tagged 2%Z ->
  forall g CD f0 tide H Hx Hy q, state_conform q Np K = true -> state_conform (H, Hx, Hy) Np K = true ->
  (forall i k, (i < Np)%nat -> (k < K)%nat -> 0 < part 0 (at_node q i k)) ->
  (forall i k i2 k2, (i < Np)%nat -> (k < K)%nat -> (i2 < Np)%nat -> (k2 < K)%nat -> node_at (e_x el) (e_y el) i k = node_at (e_x el) (e_y el) i2 k2 -> ment H i k = ment H i2 k2) ->
  (forall i k f, (i < Np)%nat -> (k < K)%nat -> (f < 3)%nat -> tag_of bcType k f = 2%Z -> 0 < ment H i k + tide) ->
  exists z r, full g CD f0 tide H Hx Hy q = Ok z /\ state_conform z Np K = true /\
    scheme g q (walls_and_tide bcType H tide) (global g q (walls_and_tide bcType H tide)) r /\
    forall c i k, (c < 3)%nat -> (i < Np)%nat -> (k < K)%nat ->
      ment (fieldc c z) i k = ment (fieldc c r) i k + source g CD f0 (ment Hx i k) (ment Hy i k) c (at_node q i k).
Proof.
  intros [HB HM HA HS Hrun Hbc] Hlow H3 H2 g CD f0 tide H Hx Hy q HQ HH Hwet Hc Ht.
  edestruct (full_scheme G solve inverse junk eps eig tol N K Vert EToV el HB E2E E2F HM HA HS sort junk1 junkn bcType m Hrun Hbc jk jv lowest Hlow g CD f0 tide H Hx Hy q HQ HH H3 H2 Hwet Hc Ht) as (z & r & Ez & Cz & Hs & Hd).
  exists z, r. repeat (split; [assumption|]). exact Hs.
Qed.

(* src/sw2d throws on a closed basin, and on a mesh without walls. *)
Theorem C49_full_missing_tag_throws : Grid -> untagged 2%Z \/ untagged 3%Z ->
  forall g CD f0 tide H Hx Hy q, state_conform q Np K = true -> state_conform (H, Hx, Hy) Np K = true -> full g CD f0 tide H Hx Hy q = Throw.
Proof. intros [HB HM HA HS Hrun Hbc] Ht g CD f0 tide H Hx Hy q HQ HH. eapply full_missing_tag; eassumption. Qed.

(* C49: what leaves an element through a shared side enters its neighbour: the two polynomial fluxes are opposite at every
   point of the side (t on one element is -t on the other). With either choice of the dissipation. *)
Theorem C49_single_valued : Grid -> forall g q beyond speed_of, speed_of = local g q beyond \/ speed_of = global g q beyond ->
  forall k f k2 f2 c cs cs2, (k < K)%nat -> (f < 3)%nat -> (f2 < 3)%nat -> joined EToV k f k2 f2 -> beyond k f = None -> beyond k2 f2 = None ->
  flux g q beyond speed_of k f c cs -> flux g q beyond speed_of k2 f2 c cs2 -> forall t, peval cs t = - peval cs2 (- t).
Proof.
  intros [HB HM HA HS Hrun Hbc] g q beyond speed_of Hs k f k2 f2 c cs cs2 Hk Hf Hf2 J B1 B2 F1 F2.
  eapply (flux_swap G solve inverse junk eps eig tol N K Vert EToV el HB E2E E2F HM HA HS sort junk1 junkn bcType m Hrun Hbc g q beyond speed_of k f k2 f2 c cs cs2); try assumption.
  destruct Hs as [-> | ->]; intros v w Hv Hw.
  - eapply (local_swap G solve inverse junk eps eig tol N K Vert EToV el HB E2E E2F HM HA HS sort junk1 junkn bcType m Hrun Hbc g q beyond k f k2 f2); eassumption.
  - eapply is_max_unique; [exact Hv|exact Hw].
Qed.

(* C49: where the states of the two sides agree the flux is the physical flux through the side. *)
Theorem C49_consistent : Grid -> forall g q beyond speed_of k f c cs t a n, (k < K)%nat -> (f < 3)%nat -> flux g q beyond speed_of k f c cs ->
  facing Np K Vert EToV (e_x el) (e_y el) q beyond k f t a a -> normal_of Vert EToV k f n -> peval cs t = through g c n a.
Proof.
  intros [HB HM HA HS Hrun Hbc] g q beyond speed_of k f c cs t a n Hk Hf (_ & _ & n' & lam & Hn' & _ & H) F Hn. rewrite (H t a a F), rusanov_same.
  rewrite (normal_unique _ _ _ _ _ (side_ne K Vert EToV HA f k Hf Hk) Hn Hn'). reflexivity.
Qed.

(* C49: no mass passes a wall, at any point of it. *)
Theorem C49_wall_impermeable : Grid -> forall g q speed_of k f cs, (k < K)%nat -> (f < 3)%nat -> tag_of bcType k f = 3%Z ->
  flux g q (walls bcType) speed_of k f 0 cs -> forall t, peval cs t = 0.
Proof.
  intros [HB HM HA HS Hrun Hbc] g q speed_of k f cs Hk Hf Ht F.
  eapply (flux_wall N K Vert EToV el HA g q (walls bcType) speed_of k f cs Hf Hk); [|exact F]. unfold walls. rewrite Ht. reflexivity.
Qed.
Theorem C49_full_wall_impermeable : Grid -> forall g q H tide speed_of k f cs, (k < K)%nat -> (f < 3)%nat -> tag_of bcType k f = 3%Z ->
  flux g q (walls_and_tide bcType H tide) speed_of k f 0 cs -> forall t, peval cs t = 0.
Proof.
  intros [HB HM HA HS Hrun Hbc] g q H tide speed_of k f cs Hk Hf Ht F.
  eapply (flux_wall N K Vert EToV el HA g q (walls_and_tide bcType H tide) speed_of k f cs Hf Hk); [|exact F]. unfold walls_and_tide, walls. rewrite Ht. reflexivity.
Qed.

(* C49: on a mesh whose boundary faces, and no others, are walls, the total volume of water does not change: the integrals
   over the elements of the rate of change of the depth add up to zero. *)
Theorem C49_mass_conserved : Grid -> lowest <= 0 ->
  (forall k f, (k < K)%nat -> (f < 3)%nat -> tag_of bcType k f = 3%Z <-> alone k f) ->
  forall g q z, state_conform q Np K = true -> simple g q = Ok z ->
  forall (Z : nat -> poly2) (v : nat -> R),
  (forall k, (k < K)%nat -> interpolant N Np (e_x el) (e_y el) (fieldc 0 z) k (Z k) /\
     element_integral (TriGeoSpec.corner Vert EToV k 0) (TriGeoSpec.corner Vert EToV k 1) (TriGeoSpec.corner Vert EToV k 2) (eval2 (Z k)) (v k)) ->
  sumn K v = 0.
Proof.
  intros HG Hlow Hcl g q z HQ Ez Z v HZ.
  assert (Hdec : tagged 3%Z \/ untagged 3%Z).
  { clear. assert (H : forall n, (exists k f, (k < n)%nat /\ (f < 3)%nat /\ tag_of bcType k f = 3%Z) \/ (forall k f, (k < n)%nat -> (f < 3)%nat -> tag_of bcType k f <> 3%Z)); [|apply H].
    induction n as [|n [(k & f & Hk & H)|IH]]; [right; intros; lia|left; exists k, f; split; [lia|exact H]|].
    destruct (Z.eq_dec (tag_of bcType n 0) 3) as [E|E0]; [left; exists n, 0%nat; repeat split; auto; lia|].
    destruct (Z.eq_dec (tag_of bcType n 1) 3) as [E|E1]; [left; exists n, 1%nat; repeat split; auto; lia|].
    destruct (Z.eq_dec (tag_of bcType n 2) 3) as [E|E2]; [left; exists n, 2%nat; repeat split; auto; lia|].
    right. intros k f Hk Hf. destruct (Nat.eq_dec k n) as [->|]; [destruct f as [|[|[|]]]; auto; lia|apply IH; lia]. }
  destruct Hdec as [Ht|Hno]; [|rewrite (C49_simple_no_wall_throws HG Hno g q HQ) in Ez; discriminate].
  destruct (C49_simple_scheme HG Hlow (fun k f Hk Hf => proj1 (Hcl k f Hk Hf)) Ht g q HQ) as (z' & Ez' & _ & Hs). rewrite Ez in Ez'. injection Ez' as <-.
  pose proof HG as [HB HM HA HS Hrun Hbc].
  assert (Hj : forall k f k2 f2, (k < K)%nat -> (f < 3)%nat -> (f2 < 3)%nat -> joined EToV k f k2 f2 -> walls bcType k f = None).
  { intros k f k2 f2 Hk Hf Hf2 J. unfold walls. destruct (Z.eqb_spec (tag_of bcType k f) 3) as [E|E]; [|reflexivity]. exfalso. exact (proj1 (Hcl k f Hk Hf) E k2 f2 Hf2 J). }
  eapply (mass_zero G solve inverse junk eps eig tol N K Vert EToV el HB E2E E2F HM HA HS sort junk1 junkn bcType m Hrun Hbc g q (walls bcType) _ z Hs); [| | |exact HZ].
  - intros k f v0 w0. apply is_max_unique.
  - intros k f k2 f2 Hf Hk Hf2 J v0 w0 Hv Hw. pose proof (joined_ends G solve inverse junk eps eig tol N K Vert EToV el HB E2E E2F HM HA HS sort junk1 junkn bcType m Hrun Hbc k f k2 f2 Hf Hk Hf2 J) as (Hk2 & _ & _ & J').
    eapply (local_swap G solve inverse junk eps eig tol N K Vert EToV el HB E2E E2F HM HA HS sort junk1 junkn bcType m Hrun Hbc g q (walls bcType) k f k2 f2); try eassumption; [eapply Hj|eapply (Hj k2 f2 k f)]; eassumption.
  - intros k f Hk Hf. destruct (Z.eq_dec (tag_of bcType k f) 3) as [E|E].
    + left. split; [unfold walls; rewrite E; reflexivity|exact (proj1 (Hcl k f Hk Hf) E)].
    + right. split; [unfold walls; destruct (Z.eqb_spec (tag_of bcType k f) 3); [contradiction|reflexivity]|].
      destruct HM as [_ _ HN _ _]. destruct (HN (3 * k + f)%nat ltac:(lia)) as (h & _ & [(_ & Hno)|(Sh & _)]).
      * exfalso. apply E. apply (proj2 (Hcl k f Hk Hf)). intros k2 f2 _ J. exact (Hno _ J).
      * exists (h / 3)%nat, (h mod 3)%nat. split; [apply Nat.mod_upper_bound; lia|]. unfold joined. rewrite <- (Nat.div_mod h 3) by lia. exact Sh.
Qed.

(* C49: still water of constant depth stays still. *)
Theorem C49_still_water : Grid -> 
  (forall k f, (k < K)%nat -> (f < 3)%nat -> tag_of bcType k f = 3%Z -> alone k f) -> tagged 3%Z ->
  forall g q depth, state_conform q Np K = true -> (forall i k, (i < Np)%nat -> (k < K)%nat -> at_node q i k = (depth, 0, 0)) ->
  exists z, simple g q = Ok z /\ forall i k, (i < Np)%nat -> (k < K)%nat -> at_node z i k = (0, 0, 0).
Proof. intros [HB HM HA HS Hrun Hbc] Hw Ht g q h0 HQ Hq. eapply simple_rest; eassumption. Qed.
End C49.

(* Two triangles with walls all round; and with one side open. The state of the first is not at rest. *)
Example C49_witness :
  let Vert := [0; 0; 0;  1; 0; 0;  1; 1; 0;  0; 1; 0] in let EToV := [0; 1; 2;  0; 2; 3]%nat in
  let E2E := [0; 0; 1;  0; 1; 1]%nat in let E2F := [0; 1; 0;  2; 1; 2]%nat in
  (forall bcType, bcType = [3; 3; 0; 0; 3; 3]%Z \/ bcType = [3; 2; 0; 0; 3; 3]%Z ->
     exists el m, sw_grid gwit cramer cramer_inv junk0 0 eig0 (1 / 10) isort (fun _ => 0) (fun _ => 0%nat) 1 2 Vert EToV E2E E2F bcType el m /\
     state_conform (mkmat (length (e_r el)) 2 (fun i k => 1 + INR k), mkmat (length (e_r el)) 2 (fun i k => INR i), mkmat (length (e_r el)) 2 (fun _ _ => 0)) (length (e_r el)) 2 = true) /\
  (forall k f, (k < 2)%nat -> (f < 3)%nat -> tag_of [3; 3; 0; 0; 3; 3]%Z k f = 3%Z <-> forall k2 f2, (f2 < 3)%nat -> ~ joined EToV k f k2 f2) /\
  joined EToV 0 2 1 0.
Proof.
  intros Vert EToV E2E E2F.
  assert (HJ : forall g h, shares 3 (map Z.of_nat EToV) g h <-> (g = 2 /\ h = 3 \/ g = 3 /\ h = 2)%nat) by (destruct (tri_grid_witness [3; 3; 0; 0; 3; 3]%Z (le_n 6)) as (_ & B & _); exact B).
  split; [|split].
  - intros bcType Hb. destruct (tri_grid_witness bcType) as (A & _ & el & m & B & C & D). { destruct Hb as [-> | ->]; cbn; lia. }
    exists el, m. split; [|unfold state_conform, conform; cbn; rewrite !Nat.eqb_refl; reflexivity]. constructor; try assumption.
    + intros k Hk. destruct k as [|[|]]; [| |lia]; unfold area, TriGeoSpec.corner, TriGeoSpec.cross, pminus; cbn; lra.
    + destruct Hb as [-> | ->]; cbn; lia.
  - intros k f Hk Hf. unfold joined. destruct k as [|[|]]; [| |lia]; (destruct f as [|[|[|]]]; [| | |lia]); cbn [tag_of nth Nat.mul Nat.add]; split; intro H; try reflexivity; try discriminate;
      try (intros k2 f2 _ J; apply HJ in J; lia); exfalso.
    + apply (H 1%nat 0%nat ltac:(lia)). apply HJ. lia.
    + apply (H 0%nat 2%nat ltac:(lia)). apply HJ. lia.
  - apply HJ. lia.
Qed.
Print Assumptions C49_simple_scheme.
Print Assumptions C49_simple_no_wall_throws.
Print Assumptions C49_full_scheme.
Print Assumptions C49_full_missing_tag_throws.
Print Assumptions C49_single_valued.
Print Assumptions C49_consistent.
Print Assumptions C49_wall_impermeable.
Print Assumptions C49_full_wall_impermeable.
Print Assumptions C49_mass_conserved.
Print Assumptions C49_still_water.

(* ---------- C50: source terms ---------- *)
(* The power u . S of the drag and Coriolis terms of src/sw2d: what the source terms add to the momentum equations beyond
   the bottom slope, times the velocity. The drag takes |u|^3 CD and the Coriolis force does no work. *)
Theorem C50_drag_dissipates G g CD f h hu hv Hx Hy rx ry : h <> 0 ->
  let u := hu / h in let v := hv / h in
  (sw_source_x (exact G) g CD f h hu hv Hx rx - rx - g * h * Hx) * u + (sw_source_y (exact G) g CD f h hu hv Hy ry - ry - g * h * Hy) * v = - CD * sqrt (u * u + v * v) ^ 3.
Proof.
  intros Hh u v. unfold sw_source_x, sw_source_y. cbn [fadd fmul fdiv fopp fsqrt exact]. change (hu / h) with u. change (hv / h) with v. set (s := sqrt (u * u + v * v)).
  assert (Es : s * s = u * u + v * v). { apply sqrt_sqrt. pose proof (Rle_0_sqr u). pose proof (Rle_0_sqr v). unfold Rsqr in *. lra. }
  assert (E1 : hu = u * h) by (unfold u; field; exact Hh). assert (E2 : hv = v * h) by (unfold v; field; exact Hh). clearbody s u v. subst hu hv.
  transitivity (- CD * s * (u * u + v * v)); [ring|]. rewrite <- Es. ring.
Qed.
Corollary C50_drag_never_gains G g CD f h hu hv Hx Hy rx ry : h <> 0 -> 0 <= CD ->
  (sw_source_x (exact G) g CD f h hu hv Hx rx - rx - g * h * Hx) * (hu / h) + (sw_source_y (exact G) g CD f h hu hv Hy ry - ry - g * h * Hy) * (hv / h) <= 0.
Proof.
  intros Hh HC. rewrite (C50_drag_dissipates G g CD f h hu hv Hx Hy rx ry Hh). set (s := sqrt _). assert (0 <= s ^ 3) by (apply pow_le, sqrt_pos). assert (0 <= CD * s ^ 3) by (apply Rmult_le_pos; assumption). lra.
Qed.
(* In Python the drag drives the y momentum: the power is CD |u| (v^2 - u^2), positive when the flow is mostly along y. *)
Theorem C50_python_drag_power G g CD f h hu hv zx zy rx ry : h <> 0 ->
  let u := hu / h in let v := hv / h in let hyp a b := sqrt (a * a + b * b) in
  (py_source_x (exact G) hyp g CD f h hu hv zx rx - rx + g * h * zx) * u + (py_source_y (exact G) hyp g CD f h hu hv zy ry - ry + g * h * zy) * v = CD * sqrt (u * u + v * v) * (v * v - u * u).
Proof.
  intros Hh u v hyp. unfold py_source_x, py_source_y. cbn [fadd fsub fmul fdiv exact]. change (hu / h) with u. change (hv / h) with v. unfold hyp. set (s := sqrt (u * u + v * v)).
  assert (E1 : hu = u * h) by (unfold u; field; exact Hh). assert (E2 : hv = v * h) by (unfold v; field; exact Hh). clearbody s u v. subst hu hv. ring.
Qed.
Theorem C50_python_drag_refuted G : exists g CD f h hu hv, 0 < h /\ 0 < CD /\ let hyp a b := sqrt (a * a + b * b) in
  0 < (py_source_x (exact G) hyp g CD f h hu hv 0 0) * (hu / h) + (py_source_y (exact G) hyp g CD f h hu hv 0 0) * (hv / h).
Proof.
  exists 1, 1, 0, 1, 0, 1. split; [lra|]. split; [lra|]. intro hyp. pose proof (C50_python_drag_power G 1 1 0 1 0 1 0 0 0 0 ltac:(lra)) as H. cbv zeta in H. fold hyp in H.
  replace (0 / 1) with 0 in * by field. replace (1 / 1) with 1 in * by field. replace (0 * 0 + 1 * 1) with 1 in H by ring. rewrite sqrt_1 in H. lra.
Qed.

(* ---------- C50: the positivity limiter ---------- *)
Definition total (q : list R) : R := fold_right Rplus 0 q.
Definition mean (q : list R) : R := total q / INR (length q).
Lemma col_sum_total G q : col_sum (exact G) q = total q.
Proof.
  unfold col_sum. assert (H : forall q a, fold_left Rplus q a = a + total q) by (clear; induction q as [|x q IH]; intro a; cbn [fold_left total fold_right]; [ring|rewrite IH; unfold total; ring]).
  change (fadd (exact G)) with Rplus. change (fofn (exact G) 0) with 0. rewrite H. ring.
Qed.
Lemma col_mean_mean G q : col_mean (exact G) q = mean q.
Proof. unfold col_mean, mean. rewrite col_sum_total. cbn [fdiv exact]. rewrite JacobiProofs.fofn_INR. reflexivity. Qed.
(* The mean of every limited field is unchanged, whatever the depths. *)
Theorem C50_limiter_keeps_means G milli tenth h q q' : limiter_column (exact G) milli tenth h q = Ok q' -> length q' = length q /\ mean q' = mean q.
Proof.
  unfold limiter_column. destruct h as [|h0 h]; [discriminate|]. intros [= <-]. set (th := limiter_theta _ _ _ _ _). unfold limit_column. split; [apply map_length|].
  rewrite (col_mean_mean G q). cbn [fadd fmul fsub exact]. unfold mean at 1. rewrite map_length. destruct q as [|x0 q]; [reflexivity|]. set (l := x0 :: q). set (mu := mean l).
  clearbody th. assert (H : forall w, total (map (fun x => mu + th * (x - mu)) w) = INR (length w) * mu + th * (total w - INR (length w) * mu)).
  { generalize mu. clear. intros mu w. induction w as [|x w IH]; [cbn; ring|]. cbn [map length]. rewrite S_INR. unfold total in *. cbn [fold_right]. rewrite IH. ring. }
  rewrite H. assert (HL : INR (length l) <> 0) by (apply not_0_INR; discriminate). assert (E : total l = INR (length l) * mu) by (unfold mu, mean; field; exact HL). rewrite E. field. exact HL.
Qed.
Lemma col_min_le G l a : col_min (exact G) l a <= a /\ (forall x, In x l -> col_min (exact G) l a <= x).
Proof.
  unfold col_min. revert a. induction l as [|y l IH]; intro a; cbn [fold_left]; [split; [lra|intros x []]|].
  destruct (IH (if flt (exact G) y a then y else a)) as (H1 & H2). cbn [flt exact] in *. unfold Rltb in *. destruct (Rlt_dec y a); (split; [lra|]; intros x [<-|Hx]; [lra|apply H2; exact Hx]).
Qed.
(* A column with some depth below 1e-3 and mean above 9e-4 is not limited at all: negative depths stay. *)
Theorem C50_limiter_inert G h q x : In x h -> x < 1 / 1000 -> mean h > 9 / 10000 -> limiter_column (exact G) (1 / 1000) (1 / 10000) h q = Ok q.
Proof.
  intros Hx Hlt Hm. destruct h as [|h0 h]; [destruct Hx|]. unfold limiter_column. set (l := h0 :: h) in *. f_equal.
  assert (Hmin : col_min (exact G) l h0 < 1 / 1000). { destruct (col_min_le G l h0) as (_ & H). specialize (H x Hx). lra. }
  assert (Hth : limiter_theta (exact G) (1 / 1000) (1 / 10000) l h0 = 1).
  { unfold limiter_theta. rewrite col_mean_mean. cbn [flt fdiv fadd fsub exact]. change (fofn (exact G) 1) with 1. unfold Rltb at 2. destruct (Rlt_dec (col_min (exact G) l h0) (1 / 1000)) as [_|Hn]; [|contradiction]. 
    unfold Rltb. destruct (Rlt_dec _ _) as [|Hn]; [reflexivity|]. exfalso. apply Hn. set (mu := mean l) in *. apply (Rmult_lt_reg_r (mu - 1 / 1000 + 1 / 10000)); [lra|]. replace (mu / (mu - 1 / 1000 + 1 / 10000) * (mu - 1 / 1000 + 1 / 10000)) with mu by (field; lra). lra. }
  rewrite Hth. unfold limit_column. cbn [fadd fmul fsub exact]. rewrite <- (map_id q) at 2. apply map_ext. intro y. ring.
Qed.
Theorem C50_limiter_positivity_refuted G : exists h h', limiter_column (exact G) (1 / 1000) (1 / 10000) h h = Ok h' /\ mean h > 0 /\ exists x, In x h' /\ x < 0.
Proof.
  exists [-1; 3], [-1; 3]. assert (Hm : mean [-1; 3] = 1) by (unfold mean, total; cbn; field). split; [apply (C50_limiter_inert G _ _ (-1)); [left; reflexivity|lra|lra]|]. split; [lra|]. exists (-1). split; [left; reflexivity|lra].
Qed.
(* Nearly dry columns are turned over and stretched. *)
Theorem C50_limiter_overturns_refuted G : exists h h', limiter_column (exact G) (1 / 1000) (1 / 10000) h h = Ok h' /\ (forall x, In x h -> 0 <= x) /\ exists x, In x h' /\ x < 0.
Proof.
  exists [0; 1 / 1000]. eexists. split; [reflexivity|]. split; [intros x [<-|[<-|[]]]; lra|]. unfold limit_column. rewrite col_mean_mean. assert (Hm : mean [0; 1 / 1000] = 1 / 2000) by (unfold mean, total; cbn; field). rewrite Hm.
  assert (Hth : limiter_theta (exact G) (1 / 1000) (1 / 10000) [0; 1 / 1000] 0 = - (5 / 4)).
  { unfold limiter_theta. rewrite col_mean_mean, Hm. assert (Hmin : col_min (exact G) [0; 1 / 1000] 0 <= 0) by exact (proj1 (col_min_le G [0; 1 / 1000] 0)). cbn [flt fdiv fadd fsub exact]. change (fofn (exact G) 1) with 1. assert (Ec : Rltb (col_min (exact G) [0; 1 / 1000] 0) (1 / 1000) = true) by (unfold Rltb; destruct (Rlt_dec _ _); [reflexivity|exfalso; lra]). rewrite !Ec.
    replace (1 / 2000 / (1 / 2000 - 1 / 1000 + 1 / 10000)) with (- (5 / 4)) by field. unfold Rltb. destruct (Rlt_dec _ _); [lra|reflexivity]. }
  rewrite Hth. cbn [map fadd fmul fsub exact]. exists (1 / 2000 + - (5 / 4) * (1 / 1000 - 1 / 2000)). split; [right; left; reflexivity|lra].
Qed.
(* Where it does act - every depth at least 1e-3 - the result is positive. *)
Theorem C50_limiter_keeps_positive G h h' : (forall x, In x h -> 1 / 1000 <= x) -> limiter_column (exact G) (1 / 1000) (1 / 10000) h h = Ok h' -> forall x, In x h' -> 0 < x.
Proof.
  intros Hpos Hrun x Hx. destruct h as [|h0 h]; [discriminate|]. unfold limiter_column in Hrun. set (l := h0 :: h) in *. injection Hrun as <-. unfold limit_column in Hx. apply in_map_iff in Hx as (y & <- & Hy).
  rewrite col_mean_mean. cbn [fadd fmul fsub exact]. set (mu := mean l).
  destruct (col_min_le G l h0) as (_ & Hle). set (mn := col_min (exact G) l h0) in *.
  assert (Hmn : 1 / 1000 <= mn). { assert (A : forall w a, 1 / 1000 <= a -> (forall x, In x w -> 1 / 1000 <= x) -> 1 / 1000 <= col_min (exact G) w a).
    { clear. intro w. unfold col_min. induction w as [|y w IH]; intros a Ha Hl; [exact Ha|]. cbn [fold_left]. apply IH; [|intros; apply Hl; right; assumption]. destruct (flt (exact G) y a); [apply Hl; left; reflexivity|exact Ha]. }
    apply A; [apply Hpos; left; reflexivity|exact Hpos]. }
  assert (Hmu : mn <= mu). { unfold mu, mean. assert (B : forall w, (forall x, In x w -> mn <= x) -> INR (length w) * mn <= total w).
    { generalize mn. clear. intros mn w. induction w as [|z w IH]; intro Hl; [cbn; lra|]. cbn [length]. rewrite S_INR. unfold total in *. cbn [fold_right]. pose proof (Hl z (or_introl eq_refl)). specialize (IH (fun x Hx => Hl x (or_intror Hx))). lra. }
    specialize (B l Hle). assert (HL : 0 < INR (length l)) by (apply lt_0_INR; cbn; lia). apply (Rmult_le_reg_r (INR (length l))); [exact HL|]. unfold Rdiv. rewrite Rmult_assoc, Rinv_l by lra. lra. }
  assert (Hth : 0 <= limiter_theta (exact G) (1 / 1000) (1 / 10000) l h0 <= 1).
  { unfold limiter_theta. rewrite col_mean_mean. fold mn mu. cbn [flt fdiv fadd fsub exact]. change (fofn (exact G) 1) with 1. assert (Ec : Rltb mn (1 / 1000) = false) by (unfold Rltb; destruct (Rlt_dec _ _); [exfalso; lra|reflexivity]). rewrite !Ec.
    assert (0 <= mu / (mu - mn + 1 / 10000)) by (apply Rmult_le_pos; [lra|left; apply Rinv_0_lt_compat; lra]). unfold Rltb. destruct (Rlt_dec _ _); lra. }
  set (th := limiter_theta _ _ _ _ _) in *. pose proof (Hpos y Hy). replace (mu + th * (y - mu)) with ((1 - th) * mu + th * y) by ring.
  destruct (Req_dec th 0) as [->|Hne]; [lra|]. assert (0 < th * y) by (apply Rmult_lt_0_compat; lra). assert (0 <= (1 - th) * mu) by (apply Rmult_le_pos; lra). lra.
Qed.

(* ---------- C50: minmod ---------- *)
Theorem C50_minmod_values G a b : 
  (a * b <= 0 -> minmod (exact G) a b = 0) /\ (0 < a * b -> a <> b -> minmod (exact G) a b = Rmin a b) /\ (a = b -> minmod (exact G) a b = 0).
Proof.
  unfold minmod. change (fofn (exact G) 0) with 0. cbn [flt fmul exact]. unfold Rltb. split; [|split].
  - intro H. destruct (Rlt_dec 0 (a * b)); [lra|]. rewrite !andb_false_r. reflexivity.
  - intros H Hne. destruct (Rlt_dec 0 (a * b)); [|contradiction]. rewrite !andb_true_r. destruct (Rlt_dec a b); [symmetry; apply Rmin_left; lra|]. destruct (Rlt_dec b a); [symmetry; apply Rmin_right; lra|]. exfalso. apply Hne. lra.
  - intros ->. destruct (Rlt_dec b b); [lra|]. reflexivity.
Qed.
(* So of two negative slopes it takes the steeper, and of two equal ones none. *)
Theorem C50_minmod_refuted G : (exists a b, a < 0 /\ b < 0 /\ Rabs (minmod (exact G) a b) > Rmin (Rabs a) (Rabs b)) /\ (exists a, 0 < a /\ minmod (exact G) a a <> a).
Proof.
  split.
  - exists (-2), (-1). split; [lra|]. split; [lra|]. rewrite (proj1 (proj2 (C50_minmod_values G (-2) (-1)))) by lra. rewrite Rmin_left by lra. rewrite !Rabs_left by lra. rewrite Rmin_right by lra. lra.
  - exists 1. split; [lra|]. rewrite (proj2 (proj2 (C50_minmod_values G 1 1))) by reflexivity. lra.
Qed.
Example C50_witness G : 2 <> 0 /\ limiter_column (exact G) (1 / 1000) (1 / 10000) [-1; 3] [5; 7] = Ok [5; 7].
Proof.
  split; [lra|]. apply (C50_limiter_inert G _ _ (-1)); [left; reflexivity|lra|]. unfold mean, total. cbn. lra.
Qed.
Print Assumptions C50_drag_dissipates.
Print Assumptions C50_drag_never_gains.
Print Assumptions C50_python_drag_power.
Print Assumptions C50_python_drag_refuted.
Print Assumptions C50_limiter_keeps_means.
Print Assumptions C50_limiter_inert.
Print Assumptions C50_limiter_positivity_refuted.
Print Assumptions C50_limiter_overturns_refuted.
Print Assumptions C50_limiter_keeps_positive.
Print Assumptions C50_minmod_values.
Print Assumptions C50_minmod_refuted.
