(* QuadGradProofs.v - the physical derivatives of a polynomial on a bilinear quadrilateral, from the matrices and metric terms. *)
From Coq Require Import ZArith List Lia.
From Verif Require Import Base Loops Num JacobiModel JacobiSpec JacobiQuadProofs JacobiOrthProofs Nodes1DSpec TriModel TriSpec TriGeoSpec TriBasisProofs TriOpProofs TriGeoProofs TriDGProofs TriProofs TriLiftProofs JacobiProofs
  QuadModel QuadSpec QuadSetup QuadBasisProofs QuadGeoProofs QuadProps.
From Coq Require Import Reals Lra.
Import ListNotations.
Local Open Scope R_scope.

Lemma tens_le N M f : (N <= M)%nat -> tens N f -> tens M f.
Proof. intros H (p & D & Ef). exists p. split; [|exact Ef]. revert D. unfold tdegree. apply Forall_impl. intros; lia. Qed.
Lemma tens_mono_mul N M i j c g : (i <= N)%nat -> (j <= N)%nat -> tens M g -> tens (N + M) (fun x y => c * x ^ i * y ^ j * g x y).
Proof.
  intros Hi Hj (q & D & Eg). exists (map (fun t => ((i + fst (fst t))%nat, (j + snd (fst t))%nat, c * snd t)) q). split.
  - apply Forall_map. eapply Forall_impl; [|exact D]. cbn [fst snd]. intros; lia.
  - intros x y. rewrite Eg. clear D Eg. induction q as [|[[a b] e] q IH]; cbn [map eval2 fst snd]; [ring|]. rewrite <- IH, !pow_add. ring.
Qed.
Lemma tens_mul N M f g : tens N f -> tens M g -> tens (N + M) (fun x y => f x y * g x y).
Proof.
  intros (p & D & Ef) Hg. apply (tens_ext _ (fun x y => eval2 p x y * g x y)); [intros; rewrite Ef; reflexivity|]. clear Ef f. induction p as [|[[i j] c] p IH]; cbn [eval2].
  - eapply tens_ext; [|apply tens_zero]. intros; cbv beta; ring.
  - inversion D as [|? ? Hd Dp]; subst. cbn [fst snd] in Hd. eapply tens_ext; [|apply tens_plus; [apply (tens_mono_mul N M i j c g); [lia|lia|exact Hg]|apply (IH Dp)]]. intros; cbv beta; ring.
Qed.
Lemma tens_const N c : tens N (fun _ _ => c).
Proof. eapply tens_ext; [|apply (tens_mono N 0 0 c); lia]. intros; cbv beta; ring. Qed.
Lemma tens_pow N f n : tens N f -> tens (n * N) (fun x y => f x y ^ n).
Proof. intro H. induction n as [|n IH]; [cbn [pow]; apply tens_const|]. cbn [pow Nat.mul]. apply tens_mul; assumption. Qed.
Lemma tens_comp N P f g : degree2 N P -> tens 1 f -> tens 1 g -> tens N (fun x y => eval2 P (f x y) (g x y)).
Proof.
  intros D Hf Hg. induction P as [|[[i j] c] P IH]; cbn [eval2]; [apply tens_zero|]. inversion D as [|? ? Hd Dp]; subst. cbn [fst snd] in Hd.
  apply tens_plus; [|apply (IH Dp)]. apply (tens_le (0 + i * 1 + j * 1)); [lia|].
  apply (tens_mul (0 + i * 1) (j * 1)); [|apply tens_pow, Hg]. apply (tens_mul 0 (i * 1)); [apply tens_const|apply tens_pow, Hf].
Qed.
Lemma bil_aff_r a b c d r s : bil a b c d r s = bil a b c d 0 s + bil_r a b c d s * r.
Proof. unfold bil, bil_r. field. Qed.
Lemma bil_aff_s a b c d r s : bil a b c d r s = bil a b c d r 0 + bil_s a b c d r * s.
Proof. unfold bil, bil_s. field. Qed.
Lemma bil_tens a b c d : tens 1 (bil a b c d).
Proof. exists (bil_poly a b c d). split; [|intros; symmetry; apply bil_poly_eval]. unfold bil_poly. repeat (apply Forall_cons; [cbn; lia|]). apply Forall_nil. Qed.
Lemma chain_r P a b c d a' b' c' d' r s : dr_is (fun x y => eval2 P (bil a b c d x y) (bil a' b' c' d' x y)) r s
  (bil_r a b c d s * eval2 (ddr P) (bil a b c d r s) (bil a' b' c' d' r s) + bil_r a' b' c' d' s * eval2 (dds P) (bil a b c d r s) (bil a' b' c' d' r s)).
Proof.
  unfold dr_is. rewrite (bil_aff_r a b c d r s), (bil_aff_r a' b' c' d' r s). eapply dpl_ext; [|apply eval2_chain]. intro t. cbv beta. rewrite (bil_aff_r a b c d t s), (bil_aff_r a' b' c' d' t s). reflexivity.
Qed.
Lemma chain_s P a b c d a' b' c' d' r s : ds_is (fun x y => eval2 P (bil a b c d x y) (bil a' b' c' d' x y)) r s
  (bil_s a b c d r * eval2 (ddr P) (bil a b c d r s) (bil a' b' c' d' r s) + bil_s a' b' c' d' r * eval2 (dds P) (bil a b c d r s) (bil a' b' c' d' r s)).
Proof.
  unfold ds_is. rewrite (bil_aff_s a b c d r s), (bil_aff_s a' b' c' d' r s). eapply dpl_ext; [|apply eval2_chain]. intro t. cbv beta. rewrite (bil_aff_s a b c d r t), (bil_aff_s a' b' c' d' r t). reflexivity.
Qed.

Section Grad.
Context (G : R -> R) (solve : mat R -> mat R -> mat R -> outcome (mat R)) (inverse : mat R -> mat R -> outcome (mat R))
  (junk : nat -> nat -> R) (eps : R) (eig : nat -> (nat -> nat -> R) -> list R * (nat -> nat -> R)) (tol : R)
  (N K : nat) (Vert : list R) (EToV : list nat) (el : element (T := R)).
Local Notation P k c := (qcorner Vert EToV k c).
Local Notation Np := ((N + 1) * (N + 1))%nat.
Hypothesis HB : qbuilt G solve inverse junk eps eig tol N K Vert EToV el.
Lemma quad_gradient k f W : (k < K)%nat -> convex_ccw (fun c => P k c) -> degree2 N W ->
  (forall j, (j < Np)%nat -> f j = eval2 W (ment (e_x el) j k) (ment (e_y el) j k)) ->
  forall i, (i < Np)%nat ->
  ment (g_rx (e_metric el)) i k * sumn Np (fun j => ment (e_Dr el) i j * f j) + ment (g_sx (e_metric el)) i k * sumn Np (fun j => ment (e_Ds el) i j * f j)
    = eval2 (ddr W) (ment (e_x el) i k) (ment (e_y el) i k) /\
  ment (g_ry (e_metric el)) i k * sumn Np (fun j => ment (e_Dr el) i j * f j) + ment (g_sy (e_metric el)) i k * sumn Np (fun j => ment (e_Ds el) i j * f j)
    = eval2 (dds W) (ment (e_x el) i k) (ment (e_y el) i k).
Proof.
  intros Hk Hc DW Hf i Hi.
  destruct (C43_mapping _ _ _ _ _ _ _ _ _ _ _ _ HB) as (_ & _ & Hxy & _).
  destruct (C42_quadrilateral _ _ _ _ _ _ _ _ _ _ _ _ HB) as (_ & _ & M1 & M2 & _).
  destruct (C43_nodes_masks _ _ _ _ _ _ _ _ _ _ _ _ HB) as (Lr & Ls & _).
  destruct (C70_metric _ _ _ _ _ _ _ _ _ _ _ _ HB i k Hi Hk) as (D1 & D2 & D3 & D4 & _ & _ & HJ & HI). cbv zeta in *. specialize (HJ Hc).
  destruct HI as (I1 & I2 & I3 & I4); [lra|].
  set (X := bil (fst (P k 0)) (fst (P k 1)) (fst (P k 2)) (fst (P k 3))). set (Y := bil (snd (P k 0)) (snd (P k 1)) (snd (P k 2)) (snd (P k 3))).
  assert (HX : forall j, (j < Np)%nat -> ment (e_x el) j k = X (nth j (e_r el) 0) (nth j (e_s el) 0) /\ ment (e_y el) j k = Y (nth j (e_r el) 0) (nth j (e_s el) 0)).
  { intros j Hj. specialize (Hxy j k Hj Hk). rewrite bil_image in Hxy. split; [exact (f_equal fst Hxy)|exact (f_equal snd Hxy)]. }
  destruct (tens_comp N W X Y DW (bil_tens _ _ _ _) (bil_tens _ _ _ _)) as (p & Dp & Ep).
  destruct (HX i Hi) as (-> & ->). set (r := nth i (e_r el) 0) in *. set (s := nth i (e_s el) 0) in *.
  assert (ES : forall D, sumn Np (fun j => ment D i j * f j) = sumn (length (e_r el)) (fun m => ment D i m * eval2 p (nth m (e_r el) 0) (nth m (e_s el) 0))).
  { intro D. rewrite Lr. apply sumn_ext. intros j Hj. rewrite Hf by exact Hj. destruct (HX j Hj) as (-> & ->). rewrite <- Ep. reflexivity. }
  rewrite !ES. pose proof (M1 p i Dp ltac:(rewrite Lr; exact Hi)) as A1. pose proof (M2 p i Dp ltac:(rewrite Lr; exact Hi)) as A2. cbv beta in A1, A2. fold r s in A1, A2.
  set (s1 := sumn _ _) in A1 |- *. set (s2 := sumn _ (fun m => ment (e_Ds el) i m * _)) in A2 |- *.
  assert (B1 : s1 = bil_r (fst (P k 0)) (fst (P k 1)) (fst (P k 2)) (fst (P k 3)) s * eval2 (ddr W) (X r s) (Y r s) + bil_r (snd (P k 0)) (snd (P k 1)) (snd (P k 2)) (snd (P k 3)) s * eval2 (dds W) (X r s) (Y r s)).
  { eapply dr_unique; [exact A1|]. eapply dr_ext; [intros x y; apply (Ep x y)|]. apply chain_r. }
  assert (B2 : s2 = bil_s (fst (P k 0)) (fst (P k 1)) (fst (P k 2)) (fst (P k 3)) r * eval2 (ddr W) (X r s) (Y r s) + bil_s (snd (P k 0)) (snd (P k 1)) (snd (P k 2)) (snd (P k 3)) r * eval2 (dds W) (X r s) (Y r s)).
  { eapply ds_unique; [exact A2|]. eapply ds_ext; [intros x y; apply (Ep x y)|]. apply chain_s. }
  assert (Xr : ment (g_xr (e_metric el)) i k = bil_r (fst (P k 0)) (fst (P k 1)) (fst (P k 2)) (fst (P k 3)) s).
  { eapply dr_unique; [exact D1|]. eapply dr_ext; [|apply (bil_dr _ _ _ _ r s)]. intros; rewrite bil_image; reflexivity. }
  assert (Xs : ment (g_xs (e_metric el)) i k = bil_s (fst (P k 0)) (fst (P k 1)) (fst (P k 2)) (fst (P k 3)) r).
  { eapply ds_unique; [exact D2|]. eapply ds_ext; [|apply (bil_ds _ _ _ _ r s)]. intros; rewrite bil_image; reflexivity. }
  assert (Yr : ment (g_yr (e_metric el)) i k = bil_r (snd (P k 0)) (snd (P k 1)) (snd (P k 2)) (snd (P k 3)) s).
  { eapply dr_unique; [exact D3|]. eapply dr_ext; [|apply (bil_dr _ _ _ _ r s)]. intros; rewrite bil_image; reflexivity. }
  assert (Ys : ment (g_ys (e_metric el)) i k = bil_s (snd (P k 0)) (snd (P k 1)) (snd (P k 2)) (snd (P k 3)) r).
  { eapply ds_unique; [exact D4|]. eapply ds_ext; [|apply (bil_ds _ _ _ _ r s)]. intros; rewrite bil_image; reflexivity. }
  rewrite B1, B2, <- Xr, <- Xs, <- Yr, <- Ys. set (wx := eval2 (ddr W) _ _). set (wy := eval2 (dds W) _ _).
  set (m := e_metric el) in *. clearbody wx wy. clear - I1 I2 I3 I4.
  set (rx := ment (g_rx m) i k) in *. set (ry := ment (g_ry m) i k) in *. set (sx := ment (g_sx m) i k) in *. set (sy := ment (g_sy m) i k) in *.
  set (xr := ment (g_xr m) i k) in *. set (xs := ment (g_xs m) i k) in *. set (yr := ment (g_yr m) i k) in *. set (ys := ment (g_ys m) i k) in *.
  clearbody rx ry sx sy xr xs yr ys.
  (* the inverse on the other side *)
  assert (Hd : (rx * sy - ry * sx) * (xr * ys - xs * yr) = 1).
  { transitivity ((rx * xr + ry * yr) * (sx * xs + sy * ys) - (rx * xs + ry * ys) * (sx * xr + sy * yr)); [ring|]. rewrite I1, I2, I3, I4. ring. }
  assert (Hn : xr * ys - xs * yr <> 0) by (intro Z; rewrite Z in Hd; lra).
  assert (Q : forall a b, a * (xr * ys - xs * yr) = b -> a = b / (xr * ys - xs * yr)) by (intros a b <-; field; exact Hn).
  assert (E1 : rx = ys / (xr * ys - xs * yr)) by (apply Q; transitivity (ys * (rx * xr + ry * yr) - yr * (rx * xs + ry * ys)); [ring|rewrite I1, I2; ring]).
  assert (E2 : ry = - xs / (xr * ys - xs * yr)) by (apply Q; transitivity (xr * (rx * xs + ry * ys) - xs * (rx * xr + ry * yr)); [ring|rewrite I1, I2; ring]).
  assert (E3 : sx = - yr / (xr * ys - xs * yr)) by (apply Q; transitivity (ys * (sx * xr + sy * yr) - yr * (sx * xs + sy * ys)); [ring|rewrite I3, I4; ring]).
  assert (E4 : sy = xr / (xr * ys - xs * yr)) by (apply Q; transitivity (xr * (sx * xs + sy * ys) - xs * (sx * xr + sy * yr)); [ring|rewrite I3, I4; ring]).
  rewrite E1, E2, E3, E4. split; field; exact Hn.
Qed.
End Grad.
