(* QuadSplitProps.v - C40 for the quadrilateral provisioner as it is constructed. *)
From Coq Require Import ZArith List Lia Bool Arith.
From Verif Require Import Base Loops Num BlitzModel JacobiModel JacobiSpec JacobiQuadProofs DenseSpec Nodes1DModel Nodes1DExactProofs TriModel TriSpec TriGeoSpec TriLiftProofs QuadModel QuadSpec QuadSetup QuadBasisProofs QuadElemProofs QuadProps SplitModel SplitSpec SplitProofs SplitProps.
From Coq Require Import Reals Lra.
Import ListNotations.
Local Open Scope R_scope.

(* C40, quadrilaterals. splitElements throws (the dense inverter refusing the matrix) or returns N*N small quadrilaterals per
   element. Because computeInterpMatrix returns the identity (C44), the vertex that the code places at lattice point (m,n) carries
   the coordinates and the field value of node n(N+1)+m, at the reference point (g n, g m) of the Gauss-Lobatto grid: vertices are
   nodes, and the two directions are exchanged. So the first vertex off the diagonal is not where the code asked for it - but
   coordinates and values agree with each other, and in the order 0,2,3,1 in which they are written out (C54) the vertices run
   counter-clockwise in the reference square. *)
Theorem C40_quadrilateral_refuted G solve inverse junk eps eig tol N K Vert EToV el junk1 junk2 field :
  qbuilt G solve inverse junk eps eig tol N K Vert EToV el -> mrows field = ((N + 1) * (N + 1))%nat -> mcols field = K ->
  let interp ro so := bind (quadInterp (exact G) inverse junk N (e_Vinv el) ro so) (fun p => Ok (fst p)) in
  splitQuads (exact G) junk1 junk2 interp N (e_x el) (e_y el) field = Throw \/
  exists pieces X Y F g, splitQuads (exact G) junk1 junk2 interp N (e_x el) (e_y el) field = Ok (X, Y, F) /\
    NoDup pieces /\ length pieces = (N * N)%nat /\ (forall t, In t pieces <-> sub_square N t) /\
    mrows X = 4%nat /\ mcols X = (N * N * K)%nat /\ mrows Y = 4%nat /\ mcols Y = (N * N * K)%nat /\ mrows F = 4%nat /\ mcols F = (N * N * K)%nat /\
    (forall i, (i < N)%nat -> nth i g 0 < nth (S i) g 0) /\ nth 0 g 0 = -1 /\ nth N g 0 = 1 /\
    (forall k l t c m n, (k < K)%nat -> nth_error pieces l = Some t -> nth_error t c = Some (m, n) ->
      let col := (k * (N * N) + l)%nat in let q := (n * (N + 1) + m)%nat in
      (ment X c col, ment Y c col) = bilinear_image (qcorner Vert EToV k 0) (qcorner Vert EToV k 1) (qcorner Vert EToV k 2) (qcorner Vert EToV k 3) (nth n g 0) (nth m g 0) /\
      (nth q (e_r el) 0, nth q (e_s el) 0) = (nth n g 0, nth m g 0) /\ ment F c col = ment field q k) /\
    (forall t, In t pieces -> exists a b c d, t = [a; b; c; d] /\
       let at_ p := (nth (snd p) g 0, nth (fst p) g 0) in 0 < area (at_ a) (at_ c) (at_ d) /\ 0 < area (at_ a) (at_ d) (at_ b)) /\
    place N (0, 1)%nat <> (nth 1 g 0, nth 0 g 0).
Proof.
  intros HB Fr Fc interp. destruct (C43_mapping _ _ _ _ _ _ _ _ _ _ _ _ HB) as ((X1 & X2) & (Y1 & Y2) & Hxy & _).
  destruct (C43_nodes_masks _ _ _ _ _ _ _ _ _ _ _ _ HB) as (Len & Ls & g & _ & g0 & gN & Hinc & _ & _ & Hgr & _).
  assert (HN : (0 < N)%nat) by (destruct HB; lia).
  destruct (quad_lattice_ok (exact G) junk1 N) as (((ro & so) & C) & EL & Hnum).
  assert (Hro : length ro = ((N + 1) * (N + 1))%nat /\ length so = ((N + 1) * (N + 1))%nat) by (destruct Hnum as (A1 & A2 & _); rewrite A1, A2; split; lia). destruct Hro as (Lro & Lso).
  destruct (C44_interp_refuted _ _ _ _ _ _ _ _ _ _ _ _ HB ro so Lro Lso) as [ET | (IM & Vi & EI & SI & HI & _)].
  - left. unfold splitQuads, split_with. rewrite Fr, Fc, X1, X2, Y1, Y2, !Nat.eqb_refl. cbn [andb negb]. replace ((N + 1) * (N + 1))%nat with (S N * S N)%nat by lia. rewrite EL. cbn [bind]. unfold interp. rewrite ET. reflexivity.
  - right. assert (Einterp : interp ro so = Ok IM) by (unfold interp; rewrite EI; reflexivity).
    assert (Ecomp : splitQuads (exact G) junk1 junk2 interp N (e_x el) (e_y el) field = splitQuads (exact G) junk1 junk2 (fun _ _ => Ok IM) N (e_x el) (e_y el) field).
    { unfold splitQuads, split_with. destruct (negb _); [reflexivity|]. rewrite Fr. replace ((N + 1) * (N + 1))%nat with (S N * S N)%nat by lia. rewrite EL. cbn [bind]. rewrite Einterp. reflexivity. }
    destruct (C40_quad_pieces (exact G) junk1 junk2 (fun _ _ => Ok IM) N (e_x el) (e_y el) field) as (pieces & ro' & so' & IM' & X & Y & F & E & ND & LP & HP & EI' & _ & _ & _ & S1 & S2 & S3 & S4 & S5 & S6 & Hv); try congruence.
    { intros. exists IM. split; [reflexivity|]. rewrite Fr. apply SI. }
    assert (IM' = IM) by congruence. subst IM'. exists pieces, X, Y, F, g. rewrite Ecomp. rewrite Fc in *.
    split; [exact E|]. repeat (split; [assumption|]).
    assert (Hmul : forall (M : mat R) q k, (q < (N + 1) * (N + 1))%nat -> ment (mmul (exact G) IM M) q k = ment M q k).
    { intros M q k Hq. cbn [mmul ment]. rewrite fsum_exact, (proj2 SI). rewrite (sumn_ext _ _ (fun l => delta q l * ment M l k)) by (intros l Hl; cbn [exact fmul]; rewrite HI by assumption; reflexivity). apply (sumn_delta _ q (fun l => ment M l k) Hq). }
    split; [|split].
    + intros k l t c m n Hk Ht Hc col q. destruct (Hv k l t c m n Hk Ht Hc) as (Hq & VX & VY & VF). rewrite Fr in Hq. unfold col, q. rewrite VX, VY, VF, !Hmul by exact Hq.
      assert (Hmn : (m <= N)%nat /\ (n <= N)%nat).
      { apply nth_error_In in Ht. apply HP in Ht as (a & b & Ha & Hb & ->). apply nth_error_In in Hc. cbn in Hc. destruct Hc as [Hc | [Hc | [Hc | [Hc | []]]]]; injection Hc as <- <-; lia. }
      pose proof (Hgr n m (proj2 Hmn) (proj1 Hmn)) as Hg. cbv zeta in Hg. split; [|split; [exact Hg|reflexivity]].
      rewrite Hxy by assumption. injection Hg as E1 E2. rewrite E1, E2. reflexivity.
    + intros t Ht. apply HP in Ht as (m & n & Hm & Hn & ->). do 4 eexists. split; [reflexivity|]. cbv zeta. cbn [fst snd]. unfold area, TriGeoSpec.cross, pminus. cbn [fst snd].
      pose proof (Hinc m Hm) as G1. pose proof (Hinc n Hn) as G2. rewrite !Nat.add_1_r. nra.
    + unfold place. cbn [fst snd]. rewrite g0. pose proof (Hinc 0%nat HN) as G1. rewrite g0 in G1. intro X0. injection X0. cbn [INR]. intros _ X1'. lra.
Qed.
From Verif Require Import JacobiProofs JacobiExactProofs TriProofs TriWitness QuadWitness.
(* On the two-element mesh of C43_witness, order 1, it does not throw. *)
Example C40_quadrilateral_witness : exists el X Y F, qbuilt gwit solve4 inverse4 junk0 0 eig0 (1 / 10) 1 2 qVert qEToV el /\
  splitQuads (exact gwit) (fun _ => 0) (fun _ _ => 0) (fun ro so => bind (quadInterp (exact gwit) inverse4 junk0 1 (e_Vinv el) ro so) (fun p => Ok (fst p))) 1 (e_x el) (e_y el) (e_x el) = Ok (X, Y, F).
Proof.
  destruct quad_witness as (el & HB). exists el. destruct (C43_mapping _ _ _ _ _ _ _ _ _ _ _ _ HB) as ((X1 & X2) & (Y1 & Y2) & _ & _).
  destruct (C40_quadrilateral_refuted _ _ _ _ _ _ _ _ _ _ _ _ (fun _ => 0) (fun _ _ => 0) (e_x el) HB X1 X2) as [ET | (p & X & Y & F & g & E & _)]; [|exists X, Y, F; auto].
  exfalso. revert ET. unfold splitQuads, split_with. rewrite X1, X2, Y1, Y2, !Nat.eqb_refl. cbn [andb negb]. change ((1 + 1) * (1 + 1))%nat with (2 * 2)%nat.
  destruct (quad_lattice_ok (exact gwit) (fun _ => 0) 1) as (((ro & so) & C) & EL & Hnum). pose proof Hnum as Hnum0. rewrite EL. cbn [bind]. destruct Hnum as (Lr & Ls & _ & _ & Hd & _).
  assert (Hlat : lat (exact gwit) 1 0 = -1 /\ lat (exact gwit) 1 1 = 1) by (unfold lat; rewrite !fofn_INR; cbn; lra). destruct Hlat as (L0 & L1).
  destruct (Hd 0%nat 0%nat ltac:(lia) ltac:(lia) ltac:(lia)) as (_ & A0 & B0 & _). destruct (Hd 0%nat 1%nat ltac:(lia) ltac:(lia) ltac:(lia)) as (_ & A1 & B1 & _).
  destruct (Hd 1%nat 0%nat ltac:(lia) ltac:(lia) ltac:(lia)) as (_ & A2 & B2 & _). destruct (Hd 1%nat 1%nat ltac:(lia) ltac:(lia) ltac:(lia)) as (_ & A3 & B3 & _).
  rewrite L0, ?L1 in *. cbn in A0, A1, A2, A3, B0, B1, B2, B3.
  assert (Ero : ro = [-1; 1; -1; 1]). { destruct ro as [|r0 [|r1 [|r2 [|r3 [|]]]]]; try discriminate Lr. cbn in A0, A1, A2, A3. congruence. }
  assert (Eso : so = [-1; -1; 1; 1]). { destruct so as [|r0 [|r1 [|r2 [|r3 [|]]]]]; try discriminate Ls. cbn in B0, B1, B2, B3. congruence. }
  rewrite (quad_local_ok (exact gwit) 1 _ ro so C Hnum0).
  rewrite Ero, Eso. unfold quadInterp, quadVandermonde. cbn [length Nat.eqb negb]. change (2 * 2)%nat with 4%nat.
  destruct (qvander_fill gwit gwit_ok 1 [-1; 1; -1; 1] [-1; -1; 1; 1] eq_refl (mkmat 4 4 junk0) eq_refl eq_refl) as (V & -> & SV & HV). cbn [bind].
  destruct (runs4 V (nth 4 known (mzero (exact gwit) 0 0)) (proj1 SV) ltac:(right; right; right; right; left; reflexivity) (fitsVswap V HV)) as (_ & RI). destruct (RI (e_Vinv el)) as (Vi & -> & SVi). cbn [bind fst].
  intro ET.
  destruct (C40_quad_pieces (exact gwit) (fun _ => 0) (fun _ _ => 0) (fun _ _ => Ok (mmul (exact gwit) V Vi)) 1 (e_x el) (e_y el) (e_x el)) as (pieces & ro' & so' & IM' & X & Y & F & E & _); try congruence.
  { intros. eexists. split; [reflexivity|]. rewrite X1. cbn [mmul mrows]. apply SV. }
  revert E. unfold splitQuads, split_with. rewrite X1, X2, Y1, Y2, !Nat.eqb_refl. cbn [andb negb]. change ((1 + 1) * (1 + 1))%nat with (2 * 2)%nat. rewrite EL. cbn [bind]. rewrite (quad_local_ok (exact gwit) 1 _ ro so C Hnum0). change (2 * 2)%nat with 4%nat. cbn [bind]. intro E. rewrite E in ET. discriminate.
Qed.
Print Assumptions C40_quadrilateral_refuted.
