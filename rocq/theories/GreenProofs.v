(* GreenProofs.v - the divergence theorem for polynomials on a straight-sided triangle. *)
From Coq Require Import ZArith List Lia Bool Arith.
From Verif Require Import Base Loops Num JacobiModel JacobiSpec JacobiProofs JacobiQuadProofs JacobiExactProofs DenseSpec MeshSpec TriSpec TriBasisProofs TriProofs TriOpProofs TriLiftProofs TriGeoSpec TriDGSpec TriDGProofs SwSpec SwSchemeProofs JacobiOrthProofs.
From Coq Require Import Reals Lra.
Import ListNotations.
Local Open Scope R_scope.

Lemma normal_exists p q t : 0 < cross (pminus q p) (pminus t p) ->
  let L := side_length p q in 0 < L /\ outward_normal p q t ((snd q - snd p) / L, - (fst q - fst p) / L).
Proof.
  intros Hc L. assert (HD : 0 < dot (pminus q p) (pminus q p)).
  { unfold dot, pminus, cross in *. cbn [fst snd] in *. pose proof (Rle_0_sqr (fst q - fst p)). pose proof (Rle_0_sqr (snd q - snd p)). unfold Rsqr in *. destruct (Req_dec (fst q - fst p) 0) as [E1|E1].
    - destruct (Req_dec (snd q - snd p) 0) as [E2|E2]; [rewrite E1, E2 in Hc; lra|]. pose proof (Rsqr_pos_lt _ E2). unfold Rsqr in *. lra.
    - pose proof (Rsqr_pos_lt _ E1). unfold Rsqr in *. lra. }
  assert (HL : 0 < L) by (apply sqrt_lt_R0; exact HD). assert (E : L * L = dot (pminus q p) (pminus q p)) by (apply sqrt_sqrt; lra). split; [exact HL|].
  unfold outward_normal, dot, pminus, cross in *. cbn [fst snd] in *. split; [|split].
  - transitivity (((fst q - fst p) * (fst q - fst p) + (snd q - snd p) * (snd q - snd p)) / (L * L)); [field; lra|]. rewrite E. field. lra.
  - field. lra.
  - apply (Rmult_lt_reg_r L); [exact HL|]. rewrite Rmult_0_l. apply Rle_lt_trans with (- ((fst q - fst p) * (snd t - snd p) - (snd q - snd p) * (fst t - fst p))); [right; field; lra|lra].
Qed.

Section Green.
Variables (K : nat) (Vert : list R) (EToV : list nat) (k : nat).
Local Notation P := (TriGeoSpec.corner Vert EToV k).
Hypothesis Ha : 0 < area (P 0) (P 1) (P 2).
Hypothesis Hk : (k < K)%nat.
Local Notation a := (P 0%nat). Local Notation b := (P 1%nat). Local Notation c := (P 2%nat).
Local Notation J := (area (P 0%nat) (P 1%nat) (P 2%nat) / 2).
Local Notation Xr := ((fst (P 1%nat) - fst (P 0%nat)) / 2).
Local Notation Xs := ((fst (P 2%nat) - fst (P 0%nat)) / 2).
Local Notation Yr := ((snd (P 1%nat) - snd (P 0%nat)) / 2).
Local Notation Ys := ((snd (P 2%nat) - snd (P 0%nat)) / 2).

(* the outward normal, times half the length of the side *)
Lemma normal_scaled f n : (f < 3)%nat -> normal_of Vert EToV k f n ->
  side_length (from_ Vert EToV k f) (to_ Vert EToV k f) / 2 * fst n = (snd (to_ Vert EToV k f) - snd (from_ Vert EToV k f)) / 2 /\
  side_length (from_ Vert EToV k f) (to_ Vert EToV k f) / 2 * snd n = - (fst (to_ Vert EToV k f) - fst (from_ Vert EToV k f)) / 2.
Proof.
  intros Hf Hn. unfold normal_of in Hn. set (p := from_ Vert EToV k f) in *. set (q := to_ Vert EToV k f) in *. set (t := TriGeoSpec.corner Vert EToV k ((f + 2) mod 3)) in *.
  assert (Hc : 0 < cross (pminus q p) (pminus t p)).
  { subst p q t. unfold from_, to_, next. unfold area, cross, pminus in *. cbn [fst snd] in *. destruct f as [|[|[|]]]; [| | |lia]; cbn [Nat.add]; change (1 mod 3)%nat with 1%nat; change (2 mod 3)%nat with 2%nat; change (3 mod 3)%nat with 0%nat; change (4 mod 3)%nat with 1%nat; nra. }
  destruct (normal_exists p q t Hc) as (HL & Ho). cbv zeta in HL, Ho.
  assert (Hpq : p <> q). { intro E0. rewrite E0 in Hc. unfold cross, pminus in Hc. cbn [fst snd] in Hc. nra. }
  rewrite (normal_unique p q t _ _ Hpq Hn Ho). cbn [fst snd]. split; field; lra.
Qed.

Lemma chain_x m W : degree2 m W -> exists w, degree2 m w /\ (forall x y, eval2 w x y = at_point W (affine_image a b c x y)) /\
  (forall x y, eval2 (ddr w) x y = Xr * at_point (ddr W) (affine_image a b c x y) + Yr * at_point (dds W) (affine_image a b c x y)) /\
  (forall x y, eval2 (dds w) x y = Xs * at_point (ddr W) (affine_image a b c x y) + Ys * at_point (dds W) (affine_image a b c x y)).
Proof.
  intro D. destruct (to_reference m Vert EToV k W D) as (w & Dw & W0 & W1 & W2). exists w. split; [exact Dw|]. split; [exact W0|]. split; intros x y; [rewrite W1|rewrite W2]; unfold at_point; ring.
Qed.

(* The integral of a divergence times a test polynomial, by parts. *)
Lemma green_triangle m F Gp W vd vg v0 v1 v2 n0 n1 n2 : degree2 m F -> degree2 m Gp -> degree2 m W ->
  normal_of Vert EToV k 0 n0 -> normal_of Vert EToV k 1 n1 -> normal_of Vert EToV k 2 n2 ->
  element_integral a b c (fun x y => (eval2 (ddr F) x y + eval2 (dds Gp) x y) * eval2 W x y) vd ->
  element_integral a b c (fun x y => eval2 F x y * eval2 (ddr W) x y + eval2 Gp x y * eval2 (dds W) x y) vg ->
  side_integral a b (fun t => (fst n0 * at_point F (side_point a b t) + snd n0 * at_point Gp (side_point a b t)) * at_point W (side_point a b t)) v0 ->
  side_integral b c (fun t => (fst n1 * at_point F (side_point b c t) + snd n1 * at_point Gp (side_point b c t)) * at_point W (side_point b c t)) v1 ->
  side_integral c a (fun t => (fst n2 * at_point F (side_point c a t) + snd n2 * at_point Gp (side_point c a t)) * at_point W (side_point c a t)) v2 ->
  vd + vg = v0 + v1 + v2.
Proof.
  intros DF DG DW Hn0 Hn1 Hn2 (id & Hd & ->) (ig & Hg & ->) (i0 & H0 & ->) (i1 & H1 & ->) (i2 & H2 & ->).
  destruct (chain_x m F DF) as (p & _ & P0 & P1 & P2). destruct (chain_x m Gp DG) as (q & _ & Q0 & Q1 & Q2). destruct (chain_x m W DW) as (w & _ & W0 & W1 & W2).
  pose proof (J_eq Vert EToV k) as EJ.
  set (A := mono2 0 0 Ys p ++ mono2 0 0 (- Xs) q). set (B := mono2 0 0 (- Yr) p ++ mono2 0 0 Xr q).
  assert (EA : forall x y, eval2 A x y = Ys * eval2 p x y - Xs * eval2 q x y) by (intros; unfold A; rewrite eval2_app, !mono2_eval; cbn [pow]; ring).
  assert (EB : forall x y, eval2 B x y = - Yr * eval2 p x y + Xr * eval2 q x y) by (intros; unfold B; rewrite eval2_app, !mono2_eval; cbn [pow]; ring).
  assert (EAr : forall x y, eval2 (ddr A) x y = Ys * eval2 (ddr p) x y - Xs * eval2 (ddr q) x y).
  { intros x y. eapply dr_unique; [apply ddr_ok|]. unfold dr_is. eapply dpl_ext; [|apply (derivable_pt_lim_minus (fun t => Ys * eval2 p t y) (fun t => Xs * eval2 q t y)); [apply (derivable_pt_lim_scal (fun t => eval2 p t y))|apply (derivable_pt_lim_scal (fun t => eval2 q t y))]; apply ddr_ok]. intro t. cbv beta. symmetry. apply EA. }
  assert (EBs : forall x y, eval2 (dds B) x y = - Yr * eval2 (dds p) x y + Xr * eval2 (dds q) x y).
  { intros x y. eapply ds_unique; [apply dds_ok|]. unfold ds_is. eapply dpl_ext; [|apply (derivable_pt_lim_plus (fun t => - Yr * eval2 p x t) (fun t => Xr * eval2 q x t)); [apply (derivable_pt_lim_scal (fun t => eval2 p x t))|apply (derivable_pt_lim_scal (fun t => eval2 q x t))]; apply dds_ok]. intro t. cbv beta. symmetry. apply EB. }
  set (I := affine_image a b c).
  destruct (normal_scaled 0 n0 ltac:(lia) Hn0) as (S0 & T0). destruct (normal_scaled 1 n1 ltac:(lia) Hn1) as (S1 & T1). destruct (normal_scaled 2 n2 ltac:(lia) Hn2) as (S2 & T2).
  unfold from_, to_, next in S0, T0, S1, T1, S2, T2. change ((0 + 1) mod 3)%nat with 1%nat in *. change ((1 + 1) mod 3)%nat with 2%nat in *. change ((2 + 1) mod 3)%nat with 0%nat in *.
  set (L0 := side_length a b) in *. set (L1 := side_length b c) in *. set (L2 := side_length c a) in *.
  (* the reference integrals *)
  assert (G1 : triangle_integral (fun x y => eval2 A x y * eval2 (ddr w) x y + eval2 B x y * eval2 (dds w) x y) (J * ig)).
  { eapply tint_ext; [|apply (tint_scal J _ _ Hg)]. intros x y. cbv beta. unfold pulled. rewrite EA, EB, W1, W2, P0, Q0. fold I. unfold at_point. rewrite EJ. ring. }
  assert (G2 : integral_is (fun t => eval2 B t (-1) * eval2 w t (-1)) (-1) 1 (- (L0 / 2 * i0))).
  { replace (- (L0 / 2 * i0)) with (- (L0 / 2) * i0) by ring. eapply integral_ext; [|apply (integral_scal (- (L0 / 2)) _ _ _ _ H0)]. intro t. cbv beta. rewrite EB, W0, P0, Q0.
    pose proof (edge_image K Vert EToV k Hk 0 t ltac:(lia)) as EI. cbn [edge fst snd] in EI. change ((0 + 1) mod 3)%nat with 1%nat in EI. rewrite EI.
    set (x := at_point F (side_point a b t)). set (y := at_point Gp (side_point a b t)). set (z := at_point W (side_point a b t)).
    transitivity (- (L0 / 2 * fst n0 * x + L0 / 2 * snd n0 * y) * z); [ring|]. rewrite S0, T0. field. }
  assert (G3 : integral_is (fun t => (eval2 A t (- t) + eval2 B t (- t)) * eval2 w t (- t)) (-1) 1 (L1 / 2 * i1)).
  { apply integral_flip in H1. eapply integral_ext; [|apply (integral_scal (L1 / 2) _ _ _ _ H1)]. intro t. cbv beta. rewrite EA, EB, W0, P0, Q0.
    pose proof (edge_image K Vert EToV k Hk 1 t ltac:(lia)) as EI. cbn [edge fst snd] in EI. change ((1 + 1) mod 3)%nat with 2%nat in EI. rewrite EI.
    set (x := at_point F (side_point b c (- t))). set (y := at_point Gp (side_point b c (- t))). set (z := at_point W (side_point b c (- t))).
    transitivity ((L1 / 2 * fst n1 * x + L1 / 2 * snd n1 * y) * z); [ring|]. rewrite S1, T1. field. }
  assert (G4 : integral_is (fun t => eval2 A (-1) t * eval2 w (-1) t) (-1) 1 (- (L2 / 2 * i2))).
  { apply integral_flip in H2. replace (- (L2 / 2 * i2)) with (- (L2 / 2) * i2) by ring. eapply integral_ext; [|apply (integral_scal (- (L2 / 2)) _ _ _ _ H2)]. intro t. cbv beta. rewrite EA, W0, P0, Q0.
    pose proof (edge_image K Vert EToV k Hk 2 t ltac:(lia)) as EI. cbn [edge fst snd] in EI. change ((2 + 1) mod 3)%nat with 0%nat in EI. rewrite EI.
    set (x := at_point F (side_point c a (- t))). set (y := at_point Gp (side_point c a (- t))). set (z := at_point W (side_point c a (- t))).
    transitivity (- (L2 / 2 * fst n2 * x + L2 / 2 * snd n2 * y) * z); [ring|]. rewrite S2, T2. field. }
  pose proof (green A B w _ _ _ _ G1 G2 G3 G4) as HG.
  assert (HD : triangle_integral (fun x y => (eval2 (ddr A) x y + eval2 (dds B) x y) * eval2 w x y) (J * id)).
  { eapply tint_ext; [|apply (tint_scal J _ _ Hd)]. intros x y. cbv beta. unfold pulled. rewrite EAr, EBs, P1, P2, Q1, Q2, W0. fold I. unfold at_point. rewrite EJ. ring. }
  pose proof (tint_unique _ _ _ HG HD) as E. lra.
Qed.
End Green.
