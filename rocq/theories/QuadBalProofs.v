(* QuadBalProofs.v - balance of the strong form on one quadrilateral: the nodal sum of the rates, weighted by the Jacobian, is minus
   the sum of the numerical fluxes over its sides. *)
From Coq Require Import ZArith List Lia Bool Arith.
From Verif Require Import Base Loops Num BlitzModel JacobiModel JacobiSpec JacobiProofs JacobiOrthProofs JacobiQuadProofs JacobiExactProofs Nodes1DModel Nodes1DSpec Nodes1DExactProofs DenseSpec DenseModel QuadInterpProofs
  MeshSpec MeshGeoProofs TriModel TriSpec TriGeoSpec TriBasisProofs TriOpProofs TriProofs TriLiftProofs TriDGProofs TriFilterProofs QuadModel QuadSpec QuadSetup QuadBasisProofs QuadNodesProofs QuadOpProofs QuadElemProofs QuadGeoProofs QuadProps QuadVolProofs.
From Coq Require Import Reals Lra.
Import ListNotations.
Local Open Scope R_scope.

Definition qjac (p : nat -> point) (x y : R) : R := sumn 4 (fun c => corner_weight c x y * (corner_cross p c / 4)).
Definition twist (f : point -> R) (p : nat -> point) : R := (f (p 0%nat) + f (p 2%nat) - f (p 1%nat) - f (p 3%nat)) / 4.
Lemma bil_r_lin (f : point -> R) p y : bil_r (f (p 0%nat)) (f (p 1%nat)) (f (p 2%nat)) (f (p 3%nat)) y = (f (p 1%nat) + f (p 2%nat) - f (p 0%nat) - f (p 3%nat)) / 4 + twist f p * y.
Proof. unfold bil_r, twist. field. Qed.
Lemma bil_s_lin (f : point -> R) p x : bil_s (f (p 0%nat)) (f (p 1%nat)) (f (p 2%nat)) (f (p 3%nat)) x = (f (p 2%nat) + f (p 3%nat) - f (p 0%nat) - f (p 1%nat)) / 4 + twist f p * x.
Proof. unfold bil_s, twist. field. Qed.
Lemma qjac_lin p : exists a b c, (forall x y, qjac p x y = a + b * x + c * y) /\ (twist fst p = 0 -> twist snd p = 0 -> b = 0 /\ c = 0).
Proof.
  set (A := (fst (p 1%nat) + fst (p 2%nat) - fst (p 0%nat) - fst (p 3%nat)) / 4). set (C := (fst (p 2%nat) + fst (p 3%nat) - fst (p 0%nat) - fst (p 1%nat)) / 4).
  set (A' := (snd (p 1%nat) + snd (p 2%nat) - snd (p 0%nat) - snd (p 3%nat)) / 4). set (C' := (snd (p 2%nat) + snd (p 3%nat) - snd (p 0%nat) - snd (p 1%nat)) / 4).
  exists (A * C' - C * A'), (A * twist snd p - twist fst p * A'), (twist fst p * C' - C * twist snd p). split.
  - intros x y. unfold qjac. rewrite <- bil_jac. rewrite (bil_r_lin fst), (bil_s_lin fst), (bil_r_lin snd), (bil_s_lin snd). fold A A' C C'. ring.
  - intros -> ->. split; ring.
Qed.

Section Balance.
Context (G : R -> R) (solve : mat R -> mat R -> mat R -> outcome (mat R)) (inverse : mat R -> mat R -> outcome (mat R))
  (junk : nat -> nat -> R) (eps : R) (eig : nat -> (nat -> nat -> R) -> list R * (nat -> nat -> R)) (tol : R)
  (N K : nat) (Vert : list R) (EToV : list nat) (el : element (T := R)).
Hypothesis HB : qbuilt G solve inverse junk eps eig tol N K Vert EToV el.
Local Notation n := (S N * S N)%nat.
Local Notation r := (e_r el). Local Notation s := (e_s el).
Local Notation E := (exact G).
Local Notation M := (e_metric el).
Local Notation P k := (fun c => qcorner Vert EToV k c).
Local Notation qw := (qw G N el).
Local Notation om := (om G N el).
Variable k : nat.
Hypothesis Hk : (k < K)%nat.
Hypothesis HC : convex_ccw (P k).
Local Notation J i := (qjac (P k) (nth i r 0) (nth i s 0)).
Definition side_ux (f : nat) : R := (snd (P k ((f + 1) mod 4)%nat) - snd (P k f)) / 2.
Definition side_uy (f : nat) : R := - ((fst (P k ((f + 1) mod 4)%nat) - fst (P k f)) / 2).
Definition side_norm (f : nat) : R := sqrt (side_ux f * side_ux f + side_uy f * side_uy f).

Lemma metric_at i : (i < n)%nat -> J i <> 0 /\ ment (g_J M) i k = J i /\
  J i * ment (g_rx M) i k = (snd (P k 2%nat) + snd (P k 3%nat) - snd (P k 0%nat) - snd (P k 1%nat)) / 4 + twist snd (P k) * nth i r 0 /\
  J i * ment (g_sx M) i k = - ((snd (P k 1%nat) + snd (P k 2%nat) - snd (P k 0%nat) - snd (P k 3%nat)) / 4 + twist snd (P k) * nth i s 0) /\
  J i * ment (g_ry M) i k = - ((fst (P k 2%nat) + fst (P k 3%nat) - fst (P k 0%nat) - fst (P k 1%nat)) / 4 + twist fst (P k) * nth i r 0) /\
  J i * ment (g_sy M) i k = (fst (P k 1%nat) + fst (P k 2%nat) - fst (P k 0%nat) - fst (P k 3%nat)) / 4 + twist fst (P k) * nth i s 0.
Proof.
  intro Hi. destruct (C70_metric _ _ _ _ _ _ _ _ _ _ _ _ HB i k ltac:(lia) Hk) as (_ & _ & _ & _ & _ & EJ & Pos & _). specialize (Pos HC).
  assert (EJ' : ment (g_J M) i k = J i) by exact EJ. clear EJ. rename EJ' into EJ. assert (HJ : J i <> 0) by (rewrite <- EJ; lra). split; [exact HJ|]. split; [exact EJ|].
  destruct (qelement_ok _ _ _ _ _ _ _ _ _ _ _ _ HB) as [Hn masks edge_i SV SVi V Vi Vi' SL lift D x metric nrm]. destruct Hn as (lr & ls & _).
  destruct D as (Vr & Vs & S1 & S2 & _ & _ & M1 & M2 & _). destruct x as (Sx & Sy & Hxy). pose proof (qb_order _ _ _ _ _ _ _ _ _ _ _ _ HB) as HN.
  rewrite metric in *. 
  destruct (qmetric_ok G N K Vert EToV r s HN ltac:(congruence) (e_Dr el) (e_Ds el) (e_x el) (e_y el) ltac:(rewrite lr; exact S1) ltac:(rewrite lr; exact S2) M1 M2 ltac:(rewrite lr; exact Hxy) i k ltac:(lia) Hk) as (H1 & H2 & H3 & H4 & HJ' & R1 & R2 & R3 & R4).
  rewrite R1, R2, R3, R4, H1, H2, H3, H4, EJ.
  rewrite <- (bil_r_lin fst (P k)), <- (bil_s_lin fst (P k)), <- (bil_r_lin snd (P k)), <- (bil_s_lin snd (P k)).
  repeat split; field; exact HJ.
Qed.
Lemma deriv_nodal (v : nat -> R) : exists p, tdegree N p /\ (forall i, (i < n)%nat -> eval2 p (nth i r 0) (nth i s 0) = v i) /\
  forall i, (i < n)%nat -> sumn n (fun j => ment (e_Dr el) i j * v j) = eval2 (ddr p) (nth i r 0) (nth i s 0) /\ sumn n (fun j => ment (e_Ds el) i j * v j) = eval2 (dds p) (nth i r 0) (nth i s 0).
Proof.
  destruct (qnodal_poly _ _ _ _ _ _ _ _ _ _ _ _ HB v) as (p & D & Hp). exists p. split; [exact D|]. split; [exact Hp|]. intros i Hi.
  destruct (qelement_ok _ _ _ _ _ _ _ _ _ _ _ _ HB) as [Hn masks edge_i SV SVi V Vi Vi' SL lift DD x metric nrm]. destruct Hn as (lr & ls & _).
  destruct DD as (Vr & Vs & S1 & S2 & _ & _ & M1 & M2 & _). specialize (M1 p i D ltac:(lia)). specialize (M2 p i D ltac:(lia)). rewrite lr in M1, M2. split.
  - rewrite (sumn_ext _ _ (fun j => ment (e_Dr el) i j * eval2 p (nth j r 0) (nth j s 0))) by (intros; rewrite Hp by assumption; reflexivity). eapply dr_unique; [exact M1|apply ddr_ok].
  - rewrite (sumn_ext _ _ (fun j => ment (e_Ds el) i j * eval2 p (nth j r 0) (nth j s 0))) by (intros; rewrite Hp by assumption; reflexivity). eapply ds_unique; [exact M2|apply dds_ok].
Qed.
Variable g : nat -> R.
Hypothesis HGp : gpoints N el g.
Lemma green_nodal a b c p : tdegree N p ->
  sumn n (fun i => qw i * ((a + b * nth i r 0) * eval2 (ddr p) (nth i r 0) (nth i s 0) - (c + b * nth i s 0) * eval2 (dds p) (nth i r 0) (nth i s 0))) =
  let v f := sumn (S N) (fun j => om j * eval2 p (nth (qpos N f j) r 0) (nth (qpos N f j) s 0)) in
  (a + b) * v 1%nat - (a - b) * v 3%nat - (c + b) * v 2%nat + (c - b) * v 0%nat.
Proof.
  intro D. cbv zeta. pose proof (edge_sum _ _ _ _ _ _ _ _ _ _ _ _ HB g HGp p) as X.
  pose proof (X 0%nat ltac:(lia) D) as V0. pose proof (X 1%nat ltac:(lia) D) as V1. pose proof (X 2%nat ltac:(lia) D) as V2. pose proof (X 3%nat ltac:(lia) D) as V3. cbn [square_edge fst snd] in V0, V1, V2, V3. clear X.
  eapply qint_unique; [|apply (sq_green a b c p _ _ _ _ V0 V1 V2 V3)].
  assert (T : tens N (fun x y => (a + b * x) * eval2 (ddr p) x y - (c + b * y) * eval2 (dds p) x y)).
  { eapply tens_ext; [|apply tens_plus; [apply tens_plus; [apply (tens_scal N a), tens_poly, ddr_tdeg, D|apply (tens_scal N b), r_ddr, D]|apply tens_plus; [apply (tens_scal N (-c)), tens_poly, dds_tdeg, D|apply (tens_scal N (-b)), s_dds, D]]]. intros x y. cbv beta. ring. }
  apply (qnodal_tens _ _ _ _ _ _ _ _ _ _ _ _ HB _ T).
Qed.
Lemma elem_div fx fy :
  sumn n (fun i => qw i * (J i * (ment (g_rx M) i k * sumn n (fun j => ment (e_Dr el) i j * fx j) + ment (g_sx M) i k * sumn n (fun j => ment (e_Ds el) i j * fx j)
     + (ment (g_ry M) i k * sumn n (fun j => ment (e_Dr el) i j * fy j) + ment (g_sy M) i k * sumn n (fun j => ment (e_Ds el) i j * fy j)))))
  = sumn 4 (fun f => sumn (S N) (fun j => om j * (side_ux f * fx (qpos N f j) + side_uy f * fy (qpos N f j)))).
Proof.
  destruct (deriv_nodal fx) as (px & Dx & Ex & Hx). destruct (deriv_nodal fy) as (py & Dy & Ey & Hy).
  set (Cy := (snd (P k 2%nat) + snd (P k 3%nat) - snd (P k 0%nat) - snd (P k 1%nat)) / 4). set (Ay := (snd (P k 1%nat) + snd (P k 2%nat) - snd (P k 0%nat) - snd (P k 3%nat)) / 4).
  set (Cx := (fst (P k 2%nat) + fst (P k 3%nat) - fst (P k 0%nat) - fst (P k 1%nat)) / 4). set (Ax := (fst (P k 1%nat) + fst (P k 2%nat) - fst (P k 0%nat) - fst (P k 3%nat)) / 4).
  transitivity (sumn n (fun i => qw i * ((Cy + twist snd (P k) * nth i r 0) * eval2 (ddr px) (nth i r 0) (nth i s 0) - (Ay + twist snd (P k) * nth i s 0) * eval2 (dds px) (nth i r 0) (nth i s 0)))
    + -1 * sumn n (fun i => qw i * ((Cx + twist fst (P k) * nth i r 0) * eval2 (ddr py) (nth i r 0) (nth i s 0) - (Ax + twist fst (P k) * nth i s 0) * eval2 (dds py) (nth i r 0) (nth i s 0)))).
  - rewrite <- sumn_scal, <- sumn_plus. apply sumn_ext. intros i Hi. destruct (metric_at i Hi) as (_ & _ & R1 & R2 & R3 & R4). fold Cy in R1. fold Ay in R2. fold Cx in R3. fold Ax in R4. destruct (Hx i Hi) as (-> & ->). destruct (Hy i Hi) as (-> & ->).
    match goal with |- qw i * (J i * (?z1 * ?z2 + ?z3 * ?z4 + (?z5 * ?z6 + ?z7 * ?z8))) = _ => replace (J i * (z1 * z2 + z3 * z4 + (z5 * z6 + z7 * z8))) with ((J i * z1) * z2 + (J i * z3) * z4 + ((J i * z5) * z6 + (J i * z7) * z8)) by ring end. rewrite R1, R2, R3, R4. ring.
  - rewrite !green_nodal by assumption. cbv beta zeta.
    assert (Vx : forall f, (f < 4)%nat -> sumn (S N) (fun j => om j * eval2 px (nth (qpos N f j) r 0) (nth (qpos N f j) s 0)) = sumn (S N) (fun j => om j * fx (qpos N f j))) by (intros f Hf; apply sumn_ext; intros j Hj; rewrite Ex by (apply qpos_lt; lia); reflexivity).
    assert (Vy : forall f, (f < 4)%nat -> sumn (S N) (fun j => om j * eval2 py (nth (qpos N f j) r 0) (nth (qpos N f j) s 0)) = sumn (S N) (fun j => om j * fy (qpos N f j))) by (intros f Hf; apply sumn_ext; intros j Hj; rewrite Ey by (apply qpos_lt; lia); reflexivity).
    rewrite !Vx, !Vy by lia. change (sumn 4 ?h) with (h 0%nat + (h 1%nat + (h 2%nat + (h 3%nat + 0)))).
    assert (Sp : forall f, sumn (S N) (fun j => om j * (side_ux f * fx (qpos N f j) + side_uy f * fy (qpos N f j))) = side_ux f * sumn (S N) (fun j => om j * fx (qpos N f j)) + side_uy f * sumn (S N) (fun j => om j * fy (qpos N f j))) by (intro f; rewrite <- !sumn_scal, <- sumn_plus; apply sumn_ext; intros; ring).
    cbv beta. rewrite !Sp. unfold Cy, Ay, Cx, Ax, twist, side_ux, side_uy. change ((0 + 1) mod 4)%nat with 1%nat. change ((1 + 1) mod 4)%nat with 2%nat. change ((2 + 1) mod 4)%nat with 3%nat. change ((3 + 1) mod 4)%nat with 0%nat. field.
Qed.
Lemma norm_at f j : (f < 4)%nat -> (j <= N)%nat -> side_norm f <> 0 /\ side_norm f * ment (e_nx el) (f * S N + j) k = side_ux f /\ side_norm f * ment (e_ny el) (f * S N + j) k = side_uy f /\
  ment (e_Fscale el) (f * S N + j) k = side_norm f / qjac (P k) (fst (square_edge f (g j))) (snd (square_edge f (g j))) /\ qjac (P k) (fst (square_edge f (g j))) (snd (square_edge f (g j))) <> 0.
Proof.
  intros Hf Hj. destruct (qelement_ok _ _ _ _ _ _ _ _ _ _ _ _ HB) as [Hn masks edge_i SV SVi V Vi Vi' SL lift D x metric nrm]. destruct nrm as (_ & _ & _ & Hnn).
  destruct (Hnn k f j Hk Hf ltac:(lia)) as (Nx & Ny & Fs). cbv zeta in Nx, Ny, Fs.
  destruct (mask_coord _ _ _ _ _ _ _ _ _ _ _ _ HB g HGp f j Hf Hj) as (Em & Ej & Ec & _). rewrite (nth_error_nth _ _ [] Em), Ej in Fs.
  destruct (metric_at (qpos N f j) (qpos_lt N f j Hj)) as (J0 & EJ & _). rewrite EJ in Fs. rewrite <- Ec. cbn [fst snd].
  assert (N0 : side_norm f <> 0).
  { pose proof (HC f Hf) as Cf. unfold corner_cross in Cf. unfold side_norm. intro Z. apply sqrt_eq_0 in Z; [|pose proof (Rle_0_sqr (side_ux f)); pose proof (Rle_0_sqr (side_uy f)); unfold Rsqr in *; lra].
    assert (U : side_ux f = 0 /\ side_uy f = 0). { pose proof (Rle_0_sqr (side_ux f)); pose proof (Rle_0_sqr (side_uy f)); unfold Rsqr in *. split; apply Rsqr_0_uniq; unfold Rsqr; lra. }
    destruct U as (U1 & U2). unfold side_ux in U1. unfold side_uy in U2. unfold cross, pminus in Cf. cbn [fst snd] in Cf.
    assert (X1 : snd (qcorner Vert EToV k ((f + 1) mod 4)) - snd (qcorner Vert EToV k f) = 0) by lra. assert (X2 : fst (qcorner Vert EToV k ((f + 1) mod 4)) - fst (qcorner Vert EToV k f) = 0) by lra. rewrite X1, X2 in Cf. lra. }
  split; [exact N0|]. unfold side_norm, side_ux, side_uy in *. rewrite Nx, Ny. split; [field; exact N0|]. split; [field; exact N0|]. split; [exact Fs|exact J0].
Qed.
Lemma elem_lift phi : ((2 <= N)%nat \/ (twist fst (P k) = 0 /\ twist snd (P k) = 0)) ->
  sumn n (fun i => qw i * (J i * sumn (4 * S N) (fun j => ment (e_Lift el) i j * (ment (e_Fscale el) j k * phi j))))
  = sumn 4 (fun f => sumn (S N) (fun j => om j * (side_norm f * phi (f * S N + j)%nat))).
Proof.
  intro HP. destruct (qjac_lin (P k)) as (a & b & c & Hlin & Haff). assert (Hl : (2 <= N)%nat \/ (b = 0 /\ c = 0)) by (destruct HP as [|(T1 & T2)]; [auto|right; apply Haff; assumption]).
  rewrite (sumn_ext n _ (fun i => sumn 4 (fun f => qw i * (J i * sumn (S N) (fun j => ment (e_Lift el) i (f * S N + j) * (ment (e_Fscale el) (f * S N + j) k * phi (f * S N + j)%nat)))))).
  2:{ intros i Hi. rewrite sumn_rect, <- !sumn_scal. apply sumn_ext. intros; reflexivity. }
  rewrite sumn_swap. apply sumn_ext. intros f Hf.
  rewrite <- (lift_face _ _ _ _ _ _ _ _ _ _ _ _ HB g HGp f a b c (fun j => side_norm f * phi (f * S N + j)%nat) Hf Hl).
  - apply sumn_ext. intros i Hi. rewrite Hlin. f_equal. f_equal. apply sumn_ext. intros j Hj. destruct (norm_at f j Hf ltac:(lia)) as (_ & _ & _ & -> & J0). rewrite Hlin in J0. rewrite Hlin. field. exact J0.
  - intros j Hj. rewrite <- Hlin. apply (norm_at f j Hf Hj).
Qed.
(* The rates z of one conserved quantity with fluxes fx, fy and numerical flux star at the face nodes. *)
Lemma elem_balance fx fy star (z : nat -> R) : ((2 <= N)%nat \/ (twist fst (P k) = 0 /\ twist snd (P k) = 0)) ->
  (forall i, (i < n)%nat -> z i =
    - (ment (g_rx M) i k * sumn n (fun j => ment (e_Dr el) i j * fx j) + ment (g_sx M) i k * sumn n (fun j => ment (e_Ds el) i j * fx j)
       + (ment (g_ry M) i k * sumn n (fun j => ment (e_Dr el) i j * fy j) + ment (g_sy M) i k * sumn n (fun j => ment (e_Ds el) i j * fy j)))
    + sumn (4 * S N) (fun j => ment (e_Lift el) i j * (ment (e_Fscale el) j k * (ment (e_nx el) j k * fx (qpos N (j / S N) (j mod S N)) + ment (e_ny el) j k * fy (qpos N (j / S N) (j mod S N)) - star j)))) ->
  sumn n (fun i => qw i * (J i * z i)) = - sumn 4 (fun f => sumn (S N) (fun j => om j * (side_norm f * star (f * S N + j)%nat))).
Proof.
  intros HP Hz. rewrite (sumn_ext n _ (fun i => -1 * (qw i * (J i * (ment (g_rx M) i k * sumn n (fun j => ment (e_Dr el) i j * fx j) + ment (g_sx M) i k * sumn n (fun j => ment (e_Ds el) i j * fx j)
       + (ment (g_ry M) i k * sumn n (fun j => ment (e_Dr el) i j * fy j) + ment (g_sy M) i k * sumn n (fun j => ment (e_Ds el) i j * fy j)))))
    + qw i * (J i * sumn (4 * S N) (fun j => ment (e_Lift el) i j * (ment (e_Fscale el) j k * (ment (e_nx el) j k * fx (qpos N (j / S N) (j mod S N)) + ment (e_ny el) j k * fy (qpos N (j / S N) (j mod S N)) - star j)))))).
  2:{ intros i Hi. rewrite Hz by exact Hi. ring. }
  rewrite sumn_plus, sumn_scal, elem_div, (elem_lift (fun j => ment (e_nx el) j k * fx (qpos N (j / S N) (j mod S N)) + ment (e_ny el) j k * fy (qpos N (j / S N) (j mod S N)) - star j) HP).
  rewrite <- (Rmult_1_l (sumn 4 (fun f => sumn (S N) (fun j => om j * (side_norm f * star (f * S N + j)%nat))))), Ropp_mult_distr_l, <- !sumn_scal, <- sumn_plus. apply sumn_ext. intros f Hf. rewrite <- !sumn_scal, <- sumn_plus. apply sumn_ext. intros j Hj.
  rewrite Nat.div_add_l, (Nat.add_comm (f * S N)), Nat.mod_add, (Nat.div_small j), (Nat.mod_small j), Nat.add_0_r, (Nat.add_comm j) by lia.
  destruct (norm_at f j Hf ltac:(lia)) as (_ & <- & <- & _). ring.
Qed.
End Balance.
