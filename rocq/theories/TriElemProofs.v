(* TriElemProofs.v - everything known about a constructed triangle provisioner. *)
From Coq Require Import ZArith List Lia Bool Arith.
From Verif Require Import Base Loops Num BlitzModel JacobiModel JacobiSpec JacobiProofs JacobiOrthProofs JacobiQuadProofs JacobiExactProofs JacobiProps DenseSpec Nodes1DModel Nodes1DSpec Nodes1DExactProofs TriModel TriSpec TriGeoSpec TriSetup TriBasisProofs TriProofs TriOpProofs TriLiftProofs TriFaceProofs TriNodesProofs TriGeoProofs.
From Coq Require Import Reals Lra.
Import ListNotations.
Local Open Scope R_scope.

Section Elem.
Variables (G : R -> R) (solve : mat R -> mat R -> mat R -> outcome (mat R)) (inverse : mat R -> mat R -> outcome (mat R))
  (junk : nat -> nat -> R) (eps : R) (eig : nat -> (nat -> nat -> R) -> list R * (nat -> nat -> R)) (tol : R)
  (N K : nat) (Vert : list R) (EToV : list nat) (el : element (T := R)).
Hypothesis HB : built G solve inverse junk eps eig tol N K Vert EToV el.
Local Notation E := (exact G).
Local Notation n := (length (modes N)).
Local Notation g := (computeGaussLobottoPoints E eig eps 0 0 N).
Local Notation r := (e_r el).
Local Notation s := (e_s el).

Lemma gll : length g = S N /\ nth 0 g 0 = -1 /\ nth N g 0 = 1 /\ (forall i, (i < N)%nat -> nth i g 0 < nth (S i) g 0) /\
  (forall i, (0 < i < N)%nat -> computeGradJacobi E [nth i g 0] 0 0 N = [0]).
Proof.
  destruct HB. destruct N as [|m] eqn:EN; [lia|]. apply (C60_gauss_lobatto G 0 0 eps m eig); auto; try lra.
  intro Hm. specialize (b_eig ltac:(lia)). cbn zeta in b_eig. replace (S m - 2)%nat with (m - 1)%nat in b_eig by lia. replace (S m - 1)%nat with m in b_eig by lia. exact b_eig.
Qed.

Record facts : Prop := Facts {
  f_lr : length r = n; f_ls : length s = n;
  f_nodes : forall q, (q < n)%nat -> is_node G eps eig N q (nth q r 0) (nth q s 0);
  f_masks : masks_ok N (e_masks el);
  f_edge : forall f q, (f < 3)%nat -> (q < n)%nat -> (nth q r 0, nth q s 0) = edge f (edge_coord f (nth q r 0) (nth q s 0)) -> on_edge N f q;
  f_pts : pts_ok r s;
  f_SV : shape (e_V el) n n; f_SVi : shape (e_Vinv el) n n;
  f_V : forall i c, (i < n)%nat -> (c < n)%nat -> ment (e_V el) i c = bas G N c (nth i r 0) (nth i s 0);
  f_Vi : forall i j, (i < n)%nat -> (j < n)%nat -> sumn n (fun k => ment (e_Vinv el) i k * ment (e_V el) k j) = delta i j;
  f_Vi' : forall i j, (i < n)%nat -> (j < n)%nat -> sumn n (fun k => ment (e_V el) i k * ment (e_Vinv el) k j) = delta i j;
  f_SL : shape (e_Lift el) n (3 * S N);
  f_lift : forall f mask cs, (f < 3)%nat -> nth_error (e_masks el) f = Some mask -> (length cs <= S N)%nat ->
    exists z, degree2 N z /\
    (forall i, (i < n)%nat -> sumn (S N) (fun j => ment (e_Lift el) i (f * S N + j) * peval cs (edge_coord f (nth (nth j mask 0%nat) r 0) (nth (nth j mask 0%nat) s 0))) = eval2 z (nth i r 0) (nth i s 0)) /\
    forall w, degree2 N w -> exists v, triangle_integral (fun x y => eval2 z x y * eval2 w x y) v /\
      integral_is (fun t => eval2 w (fst (edge f t)) (snd (edge f t)) * peval cs t) (-1) 1 v;
  f_D : exists Vr Vs, shape (e_Dr el) n n /\ shape (e_Ds el) n n /\ shape (e_Drw el) n n /\ shape (e_Dsw el) n n /\
    maps_nodal N (e_Dr el) r s r s (fun p => dr_is (eval2 p)) /\ maps_nodal N (e_Ds el) r s r s (fun p => ds_is (eval2 p)) /\
    (forall i c, (i < n)%nat -> (c < n)%nat -> ment Vr i c = dbr G N c (nth i r 0) (nth i s 0)) /\
    (forall i c, (i < n)%nat -> (c < n)%nat -> ment Vs i c = dbs G N c (nth i r 0) (nth i s 0)) /\
    weak_eq N (e_V el) (e_Drw el) Vr /\ weak_eq N (e_V el) (e_Dsw el) Vs;
  f_x : shape (e_x el) n K /\ shape (e_y el) n K /\ forall i k, (i < n)%nat -> (k < K)%nat ->
    (ment (e_x el) i k, ment (e_y el) i k) = affine_image (corner Vert EToV k 0) (corner Vert EToV k 1) (corner Vert EToV k 2) (nth i r 0) (nth i s 0);
  f_metric : e_metric el = metricTerms E (e_Dr el) (e_Ds el) (e_x el) (e_y el);
  f_normals : shape (e_nx el) (3 * S N) K /\ shape (e_ny el) (3 * S N) K /\ shape (e_Fscale el) (3 * S N) K /\
    forall k f i, (k < K)%nat -> (f < 3)%nat -> (i < S N)%nat ->
      nrm_at Vert EToV f k (ment (e_nx el) (f * S N + i) k) (ment (e_ny el) (f * S N + i) k) (ment (e_Fscale el) (f * S N + i) k) }.

Theorem element_ok : facts.
Proof.
  destruct HB. destruct gll as (Lg & g0 & gN & _). revert b_ok. unfold buildElement.
  destruct (buildNodes2D E solve inverse junk eps eig cos sin PI tol N) as [[[r0 s0] fm] | |] eqn:EN; [|discriminate|discriminate]. cbn [bind].
  destruct (nodes2D_ok G b_gamma solve inverse junk b_solve b_inverse eps eig N b_order b_int Lg g0 gN tol r0 s0 fm b_tol EN) as (Lr & Ls & Hn & HM & HGE).
  destruct (buildLift2D E pow inverse junk N r0 s0 fm) as [[[V0 Vi0] L] | |] eqn:EL; [|discriminate|discriminate]. cbn [bind].
  pose proof (lift_pts G b_gamma inverse junk b_inverse eps eig N b_order Lg gN r0 s0 fm _ Lr Ls Hn EL) as Hp.
  assert (HM' := HM). destruct HM' as (m1 & m2 & m3 & -> & HMf).
  pose proof (fun f mask => nodes_edge_mask G eps eig N b_order Lg r0 s0 [m1; m2; m3] f mask Lr Ls Hn HM) as HE.
  destruct (lift2D_ok G b_gamma inverse junk b_inverse N r0 s0 Lr Hp m1 m2 m3 (HE 0%nat m1 ltac:(lia) eq_refl) (HE 1%nat m2 ltac:(lia) eq_refl) (HE 2%nat m3 ltac:(lia) eq_refl)) as [Hx | (V' & Vi' & L' & EL' & SV0 & _ & SL & _ & _ & _ & HL)]; [congruence|].
  rewrite EL in EL'. injection EL' as <- <- <-.
  destruct (physGrid_ok G junk N K Vert EToV r0 s0 b_order b_mesh ltac:(congruence)) as (x & y & -> & Sx & Sy & Hxy). cbn [bind].
  destruct SV0 as (V01 & V02).
  destruct (vander2D_ok G b_gamma N r0 s0 V0 Hp) as (V & -> & SV & HV & _); [congruence|lia|]. cbn [bind]. rewrite V01, V02 in SV.
  rewrite Lr. destruct (b_inverse n V (mkmat n n junk) SV ltac:(split; reflexivity)) as [-> | (Vi & -> & SVi & HVi)]; [discriminate|]. cbn [bind].
  destruct (gvander2D_ok G b_gamma N r0 s0 (mkmat n n junk) (mkmat n n junk) Hp) as (Vr & Vs & -> & SVr & SVs & HG); try (cbn [mrows mcols]; congruence || lia). cbn [bind]. cbn [mrows mcols] in SVr, SVs.
  destruct (diffmats_ok G b_gamma solve junk b_solve N r0 s0 Lr Hp V Vr Vs SV SVr SVs) as [-> | (Dr & Ds & Drw & Dsw & -> & S1 & S2 & S3 & S4 & M1 & M2 & W1 & W2)].
  1: { intros i c Hi Hc. apply HV; congruence. }
  1: { intros i c Hi Hc. apply HG; congruence. }
  1: { intros i c Hi Hc. apply HG; congruence. }
  1: { discriminate. }
  cbn [bind]. 
  destruct (normals_ok G N K Vert EToV r0 s0 b_order ltac:(congruence) Dr Ds x y ltac:(rewrite Lr; exact S1) ltac:(rewrite Lr; exact S2) M1 M2 Sx Sy Hxy (S N) [m1; m2; m3] (mkmat (3 * S N) K junk) (mkmat (3 * S N) K junk) (mkmat (3 * S N) K junk)) as (nx & ny & Fs & EF & Snx & Sny & SFs & HF); try (split; reflexivity).
  { intros f Hf. destruct (nth_error [m1; m2; m3] f) as [mask|] eqn:Em; [|apply nth_error_None in Em; cbn in Em; lia]. exists mask. split; [reflexivity|]. destruct (HMf f mask Hf Em) as (Lm & _ & Hi). split; [exact Lm|]. intros m Hm. apply Hi in Hm. lia. }
  rewrite EF. cbn [bind]. intros Hel. injection Hel as Hel. rewrite Lr in Hxy, Sx, Sy. constructor; rewrite <- Hel; cbn [e_r e_s e_masks e_V e_Vinv e_Lift e_Dr e_Ds e_Drw e_Dsw e_x e_y e_metric e_nx e_ny e_Fscale]; auto.
  - intros i c Hi Hc. apply HV; congruence.
  - intros i j Hi Hj. apply (HVi i j Hi Hj).
  - intros i j Hi Hj. apply (HVi i j Hi Hj).
  - intros f mask cs Hf Em Hc. destruct (HL f cs Hf Hc) as (z & Dz & Hz & Hw). exists z. split; [exact Dz|]. split; [|exact Hw]. intros i Hi. rewrite <- Hz by exact Hi.
    destruct f as [|[|[|]]]; cbn [nth_error] in Em; [injection Em as <-|injection Em as <-|injection Em as <-|lia]; reflexivity.
  - exists Vr, Vs. repeat match goal with |- _ /\ _ => split end; auto; intros i c Hi Hc; apply HG; congruence.
Qed.
End Elem.
