(* QuadElemProofs.v - everything known about a constructed quadrilateral provisioner. *)
From Coq Require Import ZArith List Lia Bool Arith.
From Verif Require Import Base Loops Num BlitzModel JacobiModel JacobiSpec JacobiProofs JacobiOrthProofs JacobiQuadProofs JacobiExactProofs JacobiProps DenseSpec Nodes1DModel Nodes1DSpec Nodes1DExactProofs TriModel TriSpec TriGeoSpec TriBasisProofs TriProofs TriOpProofs TriLiftProofs TriFaceProofs TriNodesProofs TriGeoProofs QuadModel QuadSpec QuadSetup QuadBasisProofs QuadOpProofs QuadNodesProofs QuadGeoProofs.
From Coq Require Import Reals Lra.
Import ListNotations.
Local Open Scope R_scope.

Section QElem.
Variables (G : R -> R) (solve : mat R -> mat R -> mat R -> outcome (mat R)) (inverse : mat R -> mat R -> outcome (mat R))
  (junk : nat -> nat -> R) (eps : R) (eig : nat -> (nat -> nat -> R) -> list R * (nat -> nat -> R)) (tol : R)
  (N K : nat) (Vert : list R) (EToV : list nat) (el : element (T := R)).
Hypothesis HB : qbuilt G solve inverse junk eps eig tol N K Vert EToV el.
Local Notation E := (exact G).
Local Notation n := (S N * S N)%nat.
Local Notation g := (computeGaussLobottoPoints E eig eps 0 0 N).
Local Notation r := (e_r el).
Local Notation s := (e_s el).

Lemma qgll : length g = S N /\ nth 0 g 0 = -1 /\ nth N g 0 = 1 /\ (forall i, (i < N)%nat -> nth i g 0 < nth (S i) g 0) /\
  (forall i, (0 < i < N)%nat -> computeGradJacobi E [nth i g 0] 0 0 N = [0]).
Proof.
  destruct HB. destruct N as [|m] eqn:EN; [lia|]. apply (C60_gauss_lobatto G 0 0 eps m eig); auto; try lra.
  intro Hm. specialize (qb_eig ltac:(lia)). cbn zeta in qb_eig. replace (S m - 2)%nat with (m - 1)%nat in qb_eig by lia. replace (S m - 1)%nat with m in qb_eig by lia. exact qb_eig.
Qed.

Record qfacts : Prop := QFacts {
  q_nodes : qnode N g r s;
  q_masks : e_masks el = map (fun f => map (qpos N f) (seq 0 (S N))) (seq 0 4);
  q_edge : forall f q mask, (f < 4)%nat -> nth_error (e_masks el) f = Some mask -> (q < n)%nat -> (nth q r 0, nth q s 0) = square_edge f (square_coord f (nth q r 0) (nth q s 0)) -> In q mask;
  q_SV : shape (e_V el) n n; q_SVi : shape (e_Vinv el) n n;
  q_V : forall i c, (i < n)%nat -> (c < n)%nat -> ment (e_V el) i c = qb G N c (nth i r 0) (nth i s 0);
  q_Vi : forall i j, (i < n)%nat -> (j < n)%nat -> sumn n (fun k => ment (e_Vinv el) i k * ment (e_V el) k j) = delta i j;
  q_Vi' : forall i j, (i < n)%nat -> (j < n)%nat -> sumn n (fun k => ment (e_V el) i k * ment (e_Vinv el) k j) = delta i j;
  q_SL : shape (e_Lift el) n (4 * S N);
  q_lift : forall f mask cs, (f < 4)%nat -> nth_error (e_masks el) f = Some mask -> (length cs <= S N)%nat ->
    exists z, tdegree N z /\
    (forall i, (i < n)%nat -> sumn (S N) (fun j => ment (e_Lift el) i (f * S N + j) * peval cs (square_coord f (nth (nth j mask 0%nat) r 0) (nth (nth j mask 0%nat) s 0))) = eval2 z (nth i r 0) (nth i s 0)) /\
    forall w, tdegree N w -> exists v, square_integral (fun x y => eval2 z x y * eval2 w x y) v /\
      integral_is (fun t => eval2 w (fst (square_edge f t)) (snd (square_edge f t)) * peval cs t) (-1) 1 v;
  q_D : exists Vr Vs, shape (e_Dr el) n n /\ shape (e_Ds el) n n /\ shape (e_Drw el) n n /\ shape (e_Dsw el) n n /\
    maps_tensor N (e_Dr el) r s r s (fun p => dr_is (eval2 p)) /\ maps_tensor N (e_Ds el) r s r s (fun p => ds_is (eval2 p)) /\
    (forall i c, (i < n)%nat -> (c < n)%nat -> ment Vr i c = qbr G N c (nth i r 0) (nth i s 0)) /\
    (forall i c, (i < n)%nat -> (c < n)%nat -> ment Vs i c = qbs G N c (nth i r 0) (nth i s 0)) /\
    qweak_eq N (e_V el) (e_Drw el) Vr /\ qweak_eq N (e_V el) (e_Dsw el) Vs;
  q_x : shape (e_x el) n K /\ shape (e_y el) n K /\ forall i k, (i < n)%nat -> (k < K)%nat ->
    (ment (e_x el) i k, ment (e_y el) i k) = bilinear_image (qcorner Vert EToV k 0) (qcorner Vert EToV k 1) (qcorner Vert EToV k 2) (qcorner Vert EToV k 3) (nth i r 0) (nth i s 0);
  q_metric : e_metric el = metricTerms E (e_Dr el) (e_Ds el) (e_x el) (e_y el);
  q_normals : shape (e_nx el) (4 * S N) K /\ shape (e_ny el) (4 * S N) K /\ shape (e_Fscale el) (4 * S N) K /\
    forall k f i, (k < K)%nat -> (f < 4)%nat -> (i < S N)%nat ->
      qnrm_at Vert EToV f k (ment (g_J (e_metric el)) (nth i (nth f (e_masks el) []) 0%nat) k) (ment (e_nx el) (f * S N + i) k) (ment (e_ny el) (f * S N + i) k) (ment (e_Fscale el) (f * S N + i) k) }.

Theorem qelement_ok : qfacts.
Proof.
  destruct HB. destruct qgll as (Lg & g0 & gN & _). revert qb_ok. unfold buildQuad.
  destruct (quadNodes E junk eps eig tol N) as [[[r0 s0] fm] | |] eqn:EN; [|discriminate|discriminate]. cbn [bind].
  destruct (quadNodes_ok G junk N g tol qb_order qb_tol Lg g0 gN eps eig eq_refl r0 s0 fm EN) as (Hn & Hfm & HE).
  assert (Hn' := Hn). destruct Hn' as (Lr & Ls & _).
  assert (HM : forall f, (f < 4)%nat -> qmask_ok N r0 s0 f (map (qpos N f) (seq 0 (S N)))) by (intros f Hf; eapply qnode_masks; eassumption).
  rewrite Hfm. cbn [seq map] in Hfm |- *. change (map (fun f => map (qpos N f) (0%nat :: seq 1 N)) (seq 0 4)) with (map (fun f => map (qpos N f) (seq 0 (S N))) (seq 0 4)) in *.
  set (m0 := map (qpos N 0) (seq 0 (S N))) in *. set (m1 := map (qpos N 1) (seq 0 (S N))) in *. set (m2 := map (qpos N 2) (seq 0 (S N))) in *. set (m3 := map (qpos N 3) (seq 0 (S N))) in *.
  change (quadLift E inverse junk N r0 s0 ?l) with (quadLift E inverse junk N r0 s0 [m0; m1; m2; m3]).
  destruct (quadLift_ok G qb_gamma inverse junk qb_inverse N r0 s0 Lr Ls m0 m1 m2 m3 (HM 0%nat ltac:(lia)) (HM 1%nat ltac:(lia)) (HM 2%nat ltac:(lia)) (HM 3%nat ltac:(lia))) as [-> | (V0 & Vi0 & L & -> & SV0 & SVi0 & SL & HL)]; [discriminate|]. cbn [bind].
  destruct (qvander_ok G qb_gamma inverse N r0 s0 ltac:(congruence) V0 Vi0 qb_inverse Lr SV0 SVi0) as [-> | (V & Vi & -> & SV & SVi & HV & HVi & HVi')]; [discriminate|]. cbn [bind].
  destruct (qgvander_ok G qb_gamma N r0 s0 ltac:(congruence) (mkmat n n junk) (mkmat n n junk)) as (Vr & Vs & EVg & SVr & SVs & HG); try (rewrite Lr; split; reflexivity).
  change (S (N + N * S N))%nat with n. rewrite EVg. cbn [bind]. rewrite Lr in SVr, SVs, HG.
  destruct (qdiffmats_ok G qb_gamma solve junk qb_solve N r0 s0 Lr V Vr Vs SV SVr SVs HV) as [-> | (Dr & Ds & Drw & Dsw & -> & S1 & S2 & S3 & S4 & M1 & M2 & W1 & W2)].
  1: { intros i c Hi Hc. apply HG; assumption. }
  1: { intros i c Hi Hc. apply HG; assumption. }
  1: { discriminate. }
  cbn [bind].
  destruct (quadGrid_ok G junk N K Vert EToV r0 s0 qb_order qb_mesh ltac:(congruence)) as (x & y & -> & Sx & Sy & Hxy). cbn [bind].
  change (S (N + 3 * S N))%nat with (4 * S N)%nat.
  destruct (quadNormals_ok G N K Vert EToV r0 s0 qb_order ltac:(congruence) Dr Ds x y ltac:(rewrite Lr; exact S1) ltac:(rewrite Lr; exact S2) M1 M2 Sx Sy Hxy (S N) [m0; m1; m2; m3] (mkmat (4 * S N) K junk) (mkmat (4 * S N) K junk) (mkmat (4 * S N) K junk)) as (nx & ny & Fs & EF & Snx & Sny & SFs & HF); try (split; reflexivity).
  { intros f Hf. exists (map (qpos N f) (seq 0 (S N))). split; [destruct f as [|[|[|[|]]]]; [reflexivity|reflexivity|reflexivity|reflexivity|lia]|]. rewrite Lr. apply HM, Hf. }
  change (quadNormals E K (S N) ?l) with (quadNormals E K (S N) [m0; m1; m2; m3]). rewrite EF. cbn [bind]. intros Hel. injection Hel as Hel. rewrite Lr in Hxy, Sx, Sy. rewrite Hfm in HE.
  constructor; rewrite <- Hel; cbn [e_r e_s e_masks e_V e_Vinv e_Lift e_Dr e_Ds e_Drw e_Dsw e_x e_y e_metric e_nx e_ny e_Fscale]; auto.
  - intros f mask cs Hf Em Hc. destruct (HL f cs Hf Hc) as (z & Dz & Hz & Hw). exists z. split; [exact Dz|]. split; [|exact Hw]. intros i Hi. rewrite <- Hz by exact Hi.
    destruct f as [|[|[|[|]]]]; cbn [nth_error] in Em; [injection Em as <-|injection Em as <-|injection Em as <-|injection Em as <-|lia]; reflexivity.
  - exists Vr, Vs. repeat match goal with |- _ /\ _ => split end; auto; intros i c Hi Hc; apply HG; assumption.
Qed.
End QElem.
