(* Poisson2dProps.v - C84: the matrix-free Laplacian of src/poisson2d on a triangle grid. *)
From Coq Require Import ZArith List Lia Bool Arith.
From Verif Require Import Base Loops Num JacobiSpec JacobiModel JacobiExactProofs JacobiQuadProofs JacobiOrthProofs BlitzModel UniqueProofs MeshSpec TriModel TriSpec TriGeoSpec TriSetup TriProps TriWitness TriOpProofs TriBasisProofs JacobiProofs Maps2DModel Maps2DSpec TriMapsProofs TriMapsProps TriDGSpec TriDGProofs
  RKModel Line1DModel Line1DProofs SwModel SwSpec SwProofs SwSchemeProofs SwProps Poisson2dModel Poisson2dSpec Poisson2dProofs.
From Coq Require Import Reals Lra.
Import ListNotations.
Local Open Scope R_scope.
Local Notation tab := Line1DProofs.tab.

Section C84.
Context (G : R -> R) (solve : mat R -> mat R -> mat R -> outcome (mat R)) (inverse : mat R -> mat R -> outcome (mat R))
  (junk : nat -> nat -> R) (eps : R) (eig : nat -> (nat -> nat -> R) -> list R * (nat -> nat -> R)) (tol : R)
  (sort : (nat -> nat -> bool) -> list nat -> list nat) (junk1 : nat -> R) (junkn : nat -> nat)
  (N K : nat) (Vert : list R) (EToV E2E E2F : list nat) (bcType : list Z) (el : element (T := R)) (m : maps).
Variables (jk : nat -> nat -> R) (jv : nat -> R) (lowest : R).     (* uninitialised storage; the start of a maximum *)
Local Notation Grid := (sw_grid G solve inverse junk eps eig tol sort junk1 junkn N K Vert EToV E2E E2F bcType el m).
Local Notation Np := (length (e_r el)).
Local Notation node i k := (node_at (e_x el) (e_y el) i k).
Local Notation tagged t := (exists k f, (k < K)%nat /\ (f < 3)%nat /\ tag_of bcType k f = t).
Local Notation alone k f := (forall k2 f2, (f2 < 3)%nat -> ~ joined EToV k f k2 f2).
Local Notation op inp out := (poisson2d_op (exact G) jk jv lowest (tables_of el m) (g_J (e_metric el)) 3 (S N) Np K inp out).
Local Notation side k f t := (side_point (from_ Vert EToV k f) (to_ Vert EToV k f) t).

(* C84: applied to the nodal values of u the operator returns the nodal values of a local discontinuous Galerkin Laplacian:
   a gradient with the mean of u on the sides, then its divergence with the side flux ldg_flux; tau is the number of nodes
   of an element times a quarter of the largest area. *)
Theorem C84_weak_form : Grid -> lowest <= 0 -> tagged 3%Z ->
  (forall k f, (k < K)%nat -> (f < 3)%nat -> tag_of bcType k f = 3%Z \/ tag_of bcType k f = 7%Z -> alone k f) ->
  forall inp out, length inp = (Np * K)%nat -> length out = (Np * K)%nat ->
  exists v u z a, op inp out = Ok v /\ stacked Np K inp u /\ stacked Np K v z /\
    is_max (fun s => exists k, (k < K)%nat /\ s = area (TriGeoSpec.corner Vert EToV k 0) (TriGeoSpec.corner Vert EToV k 1) (TriGeoSpec.corner Vert EToV k 2)) a /\
    poisson2d_form N Np K Vert EToV (e_x el) (e_y el) (INR Np * a / 4) bcType u z.
Proof. intros [HB HM HA HS Hrun Hbc] Hlow Ht Hl inp out Li Lo. exact (form_ok _ _ _ _ _ _ _ _ _ _ _ _ HB _ _ HM HA HS _ _ _ _ _ Hrun Hbc jk jv lowest Hl inp out Hlow Li Lo Ht). Qed.

(* A mesh with no side tagged as a wall makes the operator throw. *)
Theorem C84_no_wall_throws : Grid -> (forall k f, (k < K)%nat -> (f < 3)%nat -> tag_of bcType k f <> 3%Z) ->
  forall inp out, length inp = (Np * K)%nat -> op inp out = Throw.
Proof. intros [HB HM HA HS Hrun Hbc] Hno inp out Li. exact (no_wall _ _ _ _ _ _ _ _ _ _ _ _ HB _ _ HM HA HS _ _ _ _ _ Hrun Hbc jk jv lowest inp out Li Hno). Qed.

(* C84: for a polynomial of degree at most N that vanishes on the walls and has no normal derivative on the sides tagged 7,
   the result is its Laplacian at every node. *)
Theorem C84_exact : Grid -> lowest <= 0 -> tagged 3%Z -> forall p px py, degree2 N p ->
  (forall x y, dr_is (eval2 p) x y (px x y)) -> (forall x y, ds_is (eval2 p) x y (py x y)) ->
  (forall k f t, (k < K)%nat -> (f < 3)%nat -> tag_of bcType k f = 3%Z -> at_point p (side k f t) = 0) ->
  (forall k f t n, (k < K)%nat -> (f < 3)%nat -> tag_of bcType k f = 7%Z -> normal_of Vert EToV k f n ->
     fst n * px (fst (side k f t)) (snd (side k f t)) + snd n * py (fst (side k f t)) (snd (side k f t)) = 0) ->
  forall inp out, length inp = (Np * K)%nat -> length out = (Np * K)%nat ->
  (forall i k, (i < Np)%nat -> (k < K)%nat -> nth (i + k * Np) inp 0 = at_point p (node i k)) ->
  exists v, op inp out = Ok v /\ length v = (Np * K)%nat /\
  forall i k pxx pyy, (i < Np)%nat -> (k < K)%nat -> dr_is px (fst (node i k)) (snd (node i k)) pxx -> ds_is py (fst (node i k)) (snd (node i k)) pyy ->
    nth (i + k * Np) v 0 = pxx + pyy.
Proof.
  intros [HB HM HA HS Hrun Hbc] Hlow Ht p px py Dp Hx Hy HD HNeu inp out Li Lo Hp.
  assert (Ex : forall x y, eval2 (ddr p) x y = px x y) by (intros x y; eapply dr_unique; [apply ddr_ok|apply Hx]).
  assert (Ey : forall x y, eval2 (dds p) x y = py x y) by (intros x y; eapply ds_unique; [apply dds_ok|apply Hy]).
  destruct (exact_ok _ _ _ _ _ _ _ _ _ _ _ _ HB _ _ HM HA HS _ _ _ _ _ Hrun Hbc jk jv lowest p inp out Hlow Li Lo Ht Dp Hp HD) as (v & Ev & Lv & Hv).
  { intros k f t n Hk Hf Htg Hn s. unfold at_point. rewrite Ex, Ey. apply HNeu; assumption. }
  exists v. split; [exact Ev|]. split; [exact Lv|]. intros i k pxx pyy Hi Hk Hxx Hyy. rewrite Hv by assumption. f_equal.
  - eapply dr_unique; [apply ddr_ok|]. eapply dr_ext; [|exact Hxx]. intros; symmetry; apply Ex.
  - eapply ds_unique; [apply dds_ok|]. eapply ds_ext; [|exact Hyy]. intros; symmetry; apply Ey.
Qed.

(* On a side tagged 7 the flux of the divergence is not zero: it is the normal component of q times 1 - weight. *)
Theorem C84_neumann_flux : Grid -> forall q qx qy tau k f cs, (k < K)%nat -> (f < 3)%nat -> tag_of bcType k f = 7%Z ->
  side_values N Np K Vert EToV (e_x el) (e_y el) q (reflecting bcType) k f (ldg_flux Vert EToV tau qx qy k f) cs ->
  forall t i own other n, (i < Np)%nat -> node i k = side k f t -> facing Np K Vert EToV (e_x el) (e_y el) q (reflecting bcType) k f t own other -> normal_of Vert EToV k f n ->
  peval cs t = (1 - weight Vert EToV k f) * (fst n * ment qx i k + snd n * ment qy i k).
Proof. intros [HB HM HA HS Hrun Hbc] q qx qy tau k f cs Hk Hf Ht HV. exact (neumann_flux N K Vert EToV el HA bcType q qx qy tau k f cs Hk Hf Ht HV). Qed.
End C84.

(* The unit square cut along its diagonal, order 1. *)
Definition square_v : list R := [0; 0; 0;  1; 0; 0;  1; 1; 0;  0; 1; 0].
Definition square_e : list nat := [0; 1; 2;  0; 2; 3]%nat.
Local Notation square bc el m := (sw_grid gwit cramer cramer_inv junk0 0 eig0 (1 / 10) isort (fun _ => 0) (fun _ => 0%nat) 1 2 square_v square_e [0; 0; 1;  0; 1; 1]%nat [0; 1; 0;  2; 1; 2]%nat bc el m).
Lemma square_ok bc : length bc = 6%nat -> (forall g h, shares 3 (map Z.of_nat square_e) g h <-> (g = 2 /\ h = 3 \/ g = 3 /\ h = 2)%nat) /\ exists el m, square bc el m.
Proof.
  intro Hb. destruct (tri_grid_witness bc) as (A & HJ & el & m & B & C & D); [lia|]. split; [exact HJ|]. exists el, m. constructor; try assumption; [|lia].
  intros k Hk. destruct k as [|[|]]; [| |lia]; unfold area, TriGeoSpec.corner, TriGeoSpec.cross, pminus, square_v, square_e; cbn; lra.
Qed.

(* The hypotheses of C84_weak_form and C84_exact hold there with the wall at x = 0, sides tagged 7 at y = 0 and y = 1, and
   p = x; at x = 1 the side is not tagged and nothing is asked of p. *)
Example C84_witness : let bc := [7; 0; 0; 0; 7; 3]%Z in exists el m, square bc el m /\
  let p := [(1%nat, 0%nat, 1)] in degree2 1 p /\ tag_of bc 1 2 = 3%Z /\
  (forall k f, (k < 2)%nat -> (f < 3)%nat -> tag_of bc k f = 3%Z \/ tag_of bc k f = 7%Z -> forall k2 f2, (f2 < 3)%nat -> ~ joined square_e k f k2 f2) /\
  (forall k f t, (k < 2)%nat -> (f < 3)%nat -> tag_of bc k f = 3%Z -> at_point p (side_point (from_ square_v square_e k f) (to_ square_v square_e k f) t) = 0) /\
  (forall k f (t : R) n, (k < 2)%nat -> (f < 3)%nat -> tag_of bc k f = 7%Z -> normal_of square_v square_e k f n -> fst n * 1 + snd n * 0 = 0) /\
  (forall x y, dr_is (eval2 p) x y 1) /\ (forall x y, ds_is (eval2 p) x y 0).
Proof.
  intro bc. destruct (square_ok bc eq_refl) as (HJ & el & m & HG). exists el, m. split; [exact HG|]. intro p. split; [repeat constructor; cbn; lia|]. split; [reflexivity|]. split; [|split; [|split; [|split]]].
  - intros k f Hk Hf Ht k2 f2 Hf2 J. apply HJ in J. destruct k as [|[|]]; [| |lia]; (destruct f as [|[|[|]]]; [| | |lia]); cbn in Ht, J; destruct Ht; try discriminate; lia.
  - intros k f t Hk Hf Ht. destruct k as [|[|]]; [| |lia]; (destruct f as [|[|[|]]]; [| | |lia]); cbn in Ht; try discriminate. cbn. field.
  - intros k f t n Hk Hf Ht (H1 & H2 & H3). destruct k as [|[|]]; [| |lia]; (destruct f as [|[|[|]]]; [| | |lia]); cbn in Ht; try discriminate; unfold dot, pminus in *; cbn in H1, H2, H3; lra.
  - intros x y. unfold dr_is. eapply dpl_ext; [|apply derivable_pt_lim_id]. intro t. unfold id. cbn. ring.
  - intros x y. unfold ds_is. eapply dpl_ext; [|apply (derivable_pt_lim_const x)]. intro t. unfold fct_cte. cbn. ring.
Qed.

(* The result is not that of an interior penalty method: on the square, for u = 0 below the diagonal and u = y - x above it,
   no penalty parameter and no inner field (fx, fy) make the result on the lower triangle a divergence whose side flux is the
   mean gradient less a multiple of the jump. *)
Theorem C84_interior_penalty_refuted : let bc := [3; 7; 0; 0; 7; 7]%Z in exists el m, square bc el m /\ let Np := length (e_r el) in
  (forall k f, (k < 2)%nat -> (f < 3)%nat -> tag_of bc k f = 3%Z \/ tag_of bc k f = 7%Z -> forall k2 f2, (f2 < 3)%nat -> ~ joined square_e k f k2 f2) /\
  let values inp := length inp = (Np * 2)%nat /\ forall i, (i < Np)%nat -> nth i inp 0 = 0 /\ nth (i + Np) inp 0 = snd (node_at (e_x el) (e_y el) i 1) - fst (node_at (e_x el) (e_y el) i 1) in
  (exists inp, values inp) /\ forall jk jv lowest inp out, lowest <= 0 -> values inp -> length out = (Np * 2)%nat ->
  exists v u z gx gy, poisson2d_op (exact gwit) jk jv lowest (tables_of el m) (g_J (e_metric el)) 3 2 Np 2 inp out = Ok v /\
    stacked Np 2 inp u /\ stacked Np 2 v z /\ gradients 1 Np 2 (e_x el) (e_y el) u gx gy /\
    forall tau fx fy, ~ divergence_on 1 Np 2 square_v square_e (e_x el) (e_y el) (u, gx, gy) (reflecting bc) 0 z fx fy (fun _ n _ own other => penalty_flux tau n own other).
Proof.
  intro bc. destruct (square_ok bc eq_refl) as (HJ & el & m & HG). exists el, m. split; [exact HG|]. intro Np.
  assert (Hl : forall k f, (k < 2)%nat -> (f < 3)%nat -> tag_of bc k f = 3%Z \/ tag_of bc k f = 7%Z -> forall k2 f2, (f2 < 3)%nat -> ~ joined square_e k f k2 f2).
  { intros k f Hk Hf Ht k2 f2 Hf2 J. apply HJ in J. destruct k as [|[|]]; [| |lia]; (destruct f as [|[|[|]]]; [| | |lia]); cbn in Ht, J; destruct Ht; try discriminate; lia. }
  split; [exact Hl|]. intro values. split.
  { exists (tab (Np * 2) (fun g => if (g <? Np)%nat then 0 else snd (node_at (e_x el) (e_y el) (g - Np) 1) - fst (node_at (e_x el) (e_y el) (g - Np) 1))). split; [apply tab_len|]. intros i Hi.
    split; apply nth_error_nth; rewrite tab_nth_error; (destruct (Nat.ltb_spec i (Np * 2)); [|lia]).
    - destruct (Nat.ltb_spec i Np); [reflexivity|lia].
    - destruct (Nat.ltb_spec (i + Np) (Np * 2)); [|lia]. destruct (Nat.ltb_spec (i + Np) Np); [lia|]. replace (i + Np - Np)%nat with i by lia. reflexivity. }
  intros jk jv lowest inp out Hlow (Li & Hinp) Lo. destruct HG as [HB HM HA HS Hrun Hbc].
  assert (Hex : exists k f, (k < 2)%nat /\ (f < 3)%nat /\ tag_of bc k f = 3%Z) by (exists 0%nat, 0%nat; repeat split; lia).
  destruct (op_full _ _ _ _ _ _ _ _ _ _ _ _ HB _ _ HM HA HS _ _ _ _ _ Hrun Hbc jk jv lowest inp out Hlow Li Lo Hex) as (v & u & z & a & qx & qy & W & Nn & Ev & Su & Sv & Ha & Ea & HT & Heq).
  set (E := exact gwit) in *. set (d := tables_of el m) in *. set (gx := dx E d Np 2 u). set (gy := dy E d Np 2 u). fold Np in Heq, Su, Sv, Ev.
  exists v, u, z, gx, gy. split; [exact Ev|]. split; [exact Su|]. split; [exact Sv|].
  split; [exact (gradients_ok _ _ _ _ _ _ _ _ _ _ _ _ HB _ _ HA _ _ _ _ _ Hrun Hbc u)|].
  intros tau fx fy HD.
  assert (U0 : forall i, (i < Np)%nat -> ment u i 0 = 0). { intros i Hi. destruct Su as (_ & _ & _ & Hu). rewrite <- Hu by lia. replace (i + 0 * Np)%nat with i by lia. apply Hinp, Hi. }
  assert (U1 : forall i, (i < Np)%nat -> ment u i 1 = snd (node_at (e_x el) (e_y el) i 1) - fst (node_at (e_x el) (e_y el) i 1)).
  { intros i Hi. destruct Su as (_ & _ & _ & Hu). rewrite <- Hu by lia. replace (i + 1 * Np)%nat with (i + Np)%nat by lia. apply Hinp, Hi. }
  assert (D0 : forall i, (i < Np)%nat -> ment gx i 0 = 0 /\ ment gy i 0 = 0).
  { intros i Hi. apply (slopes_at _ _ _ _ _ _ _ _ _ _ _ _ HB _ _ HA _ _ _ _ _ Hrun Hbc u 0 [] ltac:(lia)); [|exact Hi]. split; [constructor|]. intros j Hj. rewrite U0 by exact Hj. reflexivity. }
  assert (D1 : forall i, (i < Np)%nat -> ment gx i 1 = -1 /\ ment gy i 1 = 1).
  { intros i Hi. destruct (slopes_at _ _ _ _ _ _ _ _ _ _ _ _ HB _ _ HA _ _ _ _ _ Hrun Hbc u 1 [(0%nat, 1%nat, 1); (1%nat, 0%nat, -1)] ltac:(lia)) with (i := i) as (Ex & Ey); [|exact Hi|].
    - split; [repeat constructor; cbn; lia|]. intros j Hj. rewrite U1 by exact Hj. unfold at_point. cbn. ring.
    - change (ment gx i 1) with (ment (dx (exact gwit) (tables_of el m) (length (e_r el)) 2 u) i 1). change (ment gy i 1) with (ment (dy (exact gwit) (tables_of el m) (length (e_r el)) 2 u) i 1). rewrite Ex, Ey. unfold at_point. cbn. split; ring. }
  set (q := (u, gx, gy)) in *.
  assert (C0 : forall i, (i < Np)%nat -> at_node q i 0 = (0, 0, 0)). { intros i Hi. unfold at_node, q. cbn [fieldc fst snd]. destruct (D0 i Hi) as (-> & ->). rewrite U0 by exact Hi. reflexivity. }
  assert (Hdiag : forall t, side_point (from_ square_v square_e 0 2) (to_ square_v square_e 0 2) t = ((1 - t) / 2, (1 - t) / 2)). { intro t. unfold side_point, from_, to_. cbn. f_equal; field. }
  assert (Hf2 : forall t own other, facing Np 2 square_v square_e (e_x el) (e_y el) q (reflecting bc) 0 2 t own other -> own = (0, 0, 0) /\ other = (0, -1, 1)).
  { intros t own other (i & Hi & Ei & -> & Hb). split; [apply C0, Hi|]. cbn in Hb. destruct Hb as [(k2 & f2 & i2 & Hk2 & Hf2 & HJ2 & Hi2 & Ei2 & ->)|(Hno & _)].
    - apply HJ in HJ2. assert (k2 = 1%nat) as -> by lia. unfold at_node, q. cbn [fieldc fst snd]. destruct (D1 i2 Hi2) as (-> & ->). rewrite U1 by exact Hi2. rewrite Ei2, Ei, Hdiag. cbn [fst snd]. f_equal. f_equal. lra.
    - exfalso. apply (Hno 1%nat 0%nat ltac:(lia)). apply HJ. lia. }
  assert (Hf01 : forall f t own other, (f < 2)%nat -> facing Np 2 square_v square_e (e_x el) (e_y el) q (reflecting bc) 0 f t own other -> own = (0, 0, 0) /\ other = (0, 0, 0)).
  { intros f t own other Hf (i & Hi & Ei & -> & Hb). rewrite C0 in Hb |- * by exact Hi. split; [reflexivity|].
    destruct f as [|[|]]; [| |lia]; cbn in Hb; destruct Hb as (n & _ & ->); [f_equal; f_equal; lra|]. unfold mirror. f_equal; [f_equal|]; ring. }
  assert (Hnj : forall i k, (i < Np)%nat -> (k < 2)%nat -> ment qx i k = ment gx i k /\ ment qy i k = ment gy i k).
  { apply (no_jump gwit 1 2 el bc m Hbc lowest u z qx qy W Nn Heq). intros n f k Hn Hf Hk. destruct HT as (HW & HNn).
    destruct (sides_ok _ _ _ _ _ _ _ _ _ _ _ _ HB _ _ HM HA HS _ _ _ _ _ Hrun Hl u W Nn HW HNn n f k Hn Hf Hk) as (Eo & Eb). cbv zeta in Eo, Eb. fold Np E d gx gy q in Eo, Eb. change (part 0 (beyond_cell d (3 * 2) Np W Nn q (face_id 3 2 n f k)) = part 0 (cell_at Np q (vM d (face_id 3 2 n f k)))). rewrite Eb, Eo. clear Eb Eo.
    pose proof (fn_lt _ _ _ _ _ _ _ _ _ _ _ _ HB f n Hf Hn) as Hlt.
    destruct (maps_at _ _ _ _ _ _ _ _ _ _ _ _ HB _ _ HM HA HS _ _ _ _ _ _ Hrun n f k Hn Hf Hk) as (_ & k2 & f2 & q2 & Hk2 & Hf2' & Hq2 & EP & EX & Hcase).
    pose proof (fn_lt _ _ _ _ _ _ _ _ _ _ _ _ HB f2 q2 Hf2' Hq2) as Hlt2.
    assert (Ecell : cell_at Np q (vP d (face_id 3 2 n f k)) = at_node q (fnode el f2 q2) k2) by (unfold d; rewrite EP; eapply volume_cell; eassumption).
    unfold reflecting. destruct (Z.eqb_spec (tag_of bc k f) 3) as [T3|T3].
    - assert (k = 0%nat) as -> by (destruct k as [|[|]]; [reflexivity| |lia]; destruct f as [|[|[|]]]; cbn in T3; discriminate || lia). rewrite C0 by exact Hlt. cbn. ring.
    - destruct (Z.eqb_spec (tag_of bc k f) 7) as [T7|T7]. { unfold mirror. destruct (at_node q (fnode el f n) k) as [[b1 b2] b3]. reflexivity. }
      rewrite Ecell. destruct Hcase as [(-> & -> & -> & _)|(HJ2 & _)]; [reflexivity|]. apply HJ in HJ2.
      assert (Ed : forall j, (j <= 1)%nat -> fst (node_at (e_x el) (e_y el) (fnode el 2 j) 0) = snd (node_at (e_x el) (e_y el) (fnode el 2 j) 0)).
      { intros j Hj. destruct (side_pt _ _ _ _ _ _ _ _ _ _ _ _ HB 2 j ltac:(lia) Hj) as (t & Ht). rewrite (Ht 0%nat ltac:(lia)). unfold side_point, next. cbn. field. }
      unfold at_node, q, part. cbn [fieldc fst snd]. assert (Hkk : (k = 0 /\ f = 2 /\ k2 = 1 /\ f2 = 0 \/ k = 1 /\ f = 0 /\ k2 = 0 /\ f2 = 2)%nat) by lia. destruct Hkk as [(-> & -> & -> & ->)|(-> & -> & -> & ->)].
      + rewrite U0, U1, EX, Ed by assumption. lra.
      + rewrite U0, U1, <- EX, Ed by assumption. lra. }
  destruct (form_at _ _ _ _ _ _ _ _ _ _ _ _ HB _ _ HM HA HS _ _ _ _ _ Hrun Hbc lowest Hl u z a qx qy W Nn Ea HT Heq 0%nat ltac:(lia)) as (_ & _ & Hz). cbv zeta in Hz. fold Np E d gx gy q in Hz.
  assert (Hn0 : exists n0, normal_of square_v square_e 0 2 n0). { exists (normal_at d 6 (face_id 3 2 0 2 0)). apply (normal_fid _ _ _ _ _ _ _ _ _ _ _ _ HB HA m 0 2 0); lia. }
  destruct Hn0 as (n0 & Hn0).
  assert (Hun : forall n, normal_of square_v square_e 0 2 n -> n = n0) by (intros n Hn; eapply normal_unique; [|exact Hn|exact Hn0]; apply (side_ne 2 square_v square_e HA 2 0); lia).
  destruct (interp_exists _ _ _ _ _ _ _ _ _ _ _ _ HB HA z 0 ltac:(lia)) as (Zp & HZp).
  set (w := weight square_v square_e 0 2).
  pose proof (divergence_const _ _ _ _ _ _ _ _ _ _ _ _ HB bc Hbc q (reflecting bc) 0 z qx qy _ 0 0 (w * ((snd n0 - fst n0) / 2)) Zp ltac:(lia) Hz) as I1.
  pose proof (divergence_const _ _ _ _ _ _ _ _ _ _ _ _ HB bc Hbc q (reflecting bc) 0 z fx fy _ 0 0 ((snd n0 - fst n0) / 2) Zp ltac:(lia) HD) as I2.
  destruct I1 as (i1 & I1 & X1); [|exact HZp|]. { intros f n i own other t Hf Hn Hi Ei F. destruct (Hnj i 0%nat Hi ltac:(lia)) as (E1 & E2). destruct (D0 i Hi) as (E3 & E4). unfold ldg_flux. rewrite E1, E2, E3, E4.
    destruct (Nat.eq_dec f 2) as [-> |Hne]; [apply Hf2 in F as (-> & ->); rewrite (Hun n Hn); fold w; cbn; field|].
    apply Hf01 in F as (-> & ->); [|lia]. destruct f as [|[|]]; [| |lia]; cbn; field. }
  destruct I2 as (i2 & I2 & X2); [|exact HZp|]. { intros f n i own other t Hf Hn Hi Ei F. unfold penalty_flux.
    destruct (Nat.eq_dec f 2) as [-> |Hne]; [apply Hf2 in F as (-> & ->); rewrite (Hun n Hn); cbn; field|].
    apply Hf01 in F as (-> & ->); [|lia]. destruct f as [|[|]]; [| |lia]; cbn; field. }
  pose proof (tint_unique _ _ _ I1 I2) as ->. rewrite <- X2 in X1. clear X2 I1 I2.
  assert (Hlen : side_length (TriGeoSpec.corner square_v square_e 0 2) (TriGeoSpec.corner square_v square_e 0 0) = sqrt 2).
  { unfold side_length. f_equal. unfold pminus, dot. cbn. ring. }
  assert (Hw : w = 1 / (4 * sqrt 2)).
  { unfold w, weight, from_, to_. change (next 2) with 0%nat. rewrite Hlen. unfold area, TriGeoSpec.cross, pminus. cbn. field. apply Rgt_not_eq, sqrt_lt_R0. lra. }
  assert (Hs : 1 < sqrt 2) by (rewrite <- sqrt_1 at 1; apply sqrt_lt_1; lra).
  destruct Hn0 as (N1 & N2 & N3). unfold dot, pminus, from_, to_ in *. cbn in N1, N2, N3. rewrite Hlen, Hw in X1.
  assert (Es : 1 / (4 * sqrt 2) * ((snd n0 - fst n0) / 2) = (snd n0 - fst n0) / 2).
  { apply (Rmult_eq_reg_l (sqrt 2)); [|lra]. lra. }
  assert (Hpos : 0 < (snd n0 - fst n0) / 2) by lra.
  assert (H1 : 1 / (4 * sqrt 2) = 1). { apply (Rmult_eq_reg_r ((snd n0 - fst n0) / 2)); [rewrite Es; ring|lra]. }
  assert (H2 : 1 = 4 * sqrt 2). { apply (Rmult_eq_reg_l (/ (4 * sqrt 2))); [|apply Rinv_neq_0_compat; lra]. rewrite Rinv_l by lra. unfold Rdiv in H1. lra. }
  lra.
Qed.

(* The driver asks for the solution of Laplacian u = -pi^2 sin(pi x) sin(pi y) and compares it with sin(pi x) sin(pi y),
   whose Laplacian is -2 pi^2 sin(pi x) sin(pi y): the two differ wherever that is not zero. *)
Theorem C84_driver_rhs_refuted G : let u := driver_exact (exact G) sin PI in
  exists ux uy, (forall x y, dr_is u x y (ux x y)) /\ (forall x y, ds_is u x y (uy x y)) /\
  forall x y, exists uxx uyy, dr_is ux x y uxx /\ ds_is uy x y uyy /\
    uxx + uyy = 2 * driver_rhs (exact G) sin PI x y /\ (0 < x < 1 -> 0 < y < 1 -> uxx + uyy <> driver_rhs (exact G) sin PI x y).
Proof.
  intro u. assert (Dsin : forall x, derivable_pt_lim (fun t => sin (PI * t)) x (PI * cos (PI * x))).
  { intro x. pose proof (derivable_pt_lim_comp (fun t => PI * t) sin x PI (cos (PI * x))) as H. rewrite Rmult_comm. apply H; [|apply derivable_pt_lim_sin].
    pose proof (derivable_pt_lim_scal id PI x 1 (derivable_pt_lim_id x)) as Hd. rewrite Rmult_1_r in Hd. exact Hd. }
  assert (Dcos : forall x, derivable_pt_lim (fun t => cos (PI * t)) x (- (PI * sin (PI * x)))).
  { intro x. pose proof (derivable_pt_lim_comp (fun t => PI * t) cos x PI (- sin (PI * x))) as H. replace (- (PI * sin (PI * x))) with (- sin (PI * x) * PI) by ring. apply H; [|apply derivable_pt_lim_cos].
    pose proof (derivable_pt_lim_scal id PI x 1 (derivable_pt_lim_id x)) as Hd. rewrite Rmult_1_r in Hd. exact Hd. }
  exists (fun x y => PI * sin (PI * y) * cos (PI * x)), (fun x y => PI * sin (PI * x) * cos (PI * y)).
  split. { intros x y. unfold dr_is, u, driver_exact. cbn [exact fmul]. pose proof (derivable_pt_lim_scal _ (sin (PI * y)) _ _ (Dsin x)) as H. replace (PI * sin (PI * y) * cos (PI * x)) with (sin (PI * y) * (PI * cos (PI * x))) by ring.
    eapply dpl_ext; [|exact H]. intro t. unfold mult_real_fct. ring. }
  split. { intros x y. unfold ds_is, u, driver_exact. cbn [exact fmul]. pose proof (derivable_pt_lim_scal _ (sin (PI * x)) _ _ (Dsin y)) as H. replace (PI * sin (PI * x) * cos (PI * y)) with (sin (PI * x) * (PI * cos (PI * y))) by ring.
    eapply dpl_ext; [|exact H]. intro t. unfold mult_real_fct. ring. }
  intros x y. exists (PI * sin (PI * y) * (- (PI * sin (PI * x)))), (PI * sin (PI * x) * (- (PI * sin (PI * y)))).
  split. { unfold dr_is. exact (derivable_pt_lim_scal _ (PI * sin (PI * y)) _ _ (Dcos x)). }
  split. { unfold ds_is. exact (derivable_pt_lim_scal _ (PI * sin (PI * x)) _ _ (Dcos y)). }
  assert (E2 : PI * sin (PI * y) * - (PI * sin (PI * x)) + PI * sin (PI * x) * - (PI * sin (PI * y)) = 2 * driver_rhs (exact G) sin PI x y) by (unfold driver_rhs, driver_exact; cbn [exact fmul fopp]; ring).
  split; [exact E2|]. intros Hx Hy. rewrite E2. pose proof PI_RGT_0 as HP.
  assert (S1 : 0 < sin (PI * x)) by (apply sin_gt_0; nra). assert (S2 : 0 < sin (PI * y)) by (apply sin_gt_0; nra).
  unfold driver_rhs, driver_exact. cbn [exact fmul fopp]. pose proof (Rmult_lt_0_compat _ _ S1 S2) as S3. pose proof (Rmult_lt_0_compat _ _ HP HP) as S4. nra.
Qed.
Print Assumptions C84_weak_form.
Print Assumptions C84_no_wall_throws.
Print Assumptions C84_exact.
Print Assumptions C84_neumann_flux.
Print Assumptions C84_interior_penalty_refuted.
Print Assumptions C84_driver_rhs_refuted.
