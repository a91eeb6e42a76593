(* TriWitness.v - a concrete constructed provisioner: order 1 on two triangles of the unit square. *)
From Coq Require Import ZArith List Lia Bool Arith.
From Verif Require Import Base Loops Num BlitzModel JacobiModel JacobiSpec JacobiProofs JacobiOrthProofs JacobiQuadProofs JacobiExactProofs JacobiProps DenseSpec Nodes1DModel Nodes1DSpec Nodes1DExactProofs TriModel TriSpec TriGeoSpec TriSetup TriBasisProofs TriProofs TriOpProofs TriLiftProofs TriFaceProofs TriNodesProofs TriGeoProofs TriElemProofs.
From Coq Require Import Reals Lra.
Import ListNotations.
Local Open Scope R_scope.

(* Cramer's rule for two or three unknowns; other sizes and singular matrices throw. *)
Definition det2 (a : nat -> nat -> R) : R := a 0%nat 0%nat * a 1%nat 1%nat - a 0%nat 1%nat * a 1%nat 0%nat.
Definition det3 (a : nat -> nat -> R) : R :=
  a 0%nat 0%nat * (a 1%nat 1%nat * a 2%nat 2%nat - a 1%nat 2%nat * a 2%nat 1%nat)
  - a 0%nat 1%nat * (a 1%nat 0%nat * a 2%nat 2%nat - a 1%nat 2%nat * a 2%nat 0%nat)
  + a 0%nat 2%nat * (a 1%nat 0%nat * a 2%nat 1%nat - a 1%nat 1%nat * a 2%nat 0%nat).
Definition col (a : nat -> nat -> R) (c : nat) (b : nat -> R) (i j : nat) : R := if (j =? c)%nat then b i else a i j.
Definition det_ok (A : mat R) : bool :=
  match mrows A with 2%nat => if Req_EM_T (det2 (ment A)) 0 then false else true | 3%nat => if Req_EM_T (det3 (ment A)) 0 then false else true | _ => false end.
Definition cramer (A B X : mat R) : outcome (mat R) :=
  if det_ok A then Ok (mkmat (mrows A) (mcols B) (fun i j =>
    if (mrows A =? 2)%nat then det2 (col (ment A) i (fun k => ment B k j)) / det2 (ment A) else det3 (col (ment A) i (fun k => ment B k j)) / det3 (ment A)))
  else Throw.
Definition idm (i j : nat) : R := if (i =? j)%nat then 1 else 0.
Definition cramer_inv (A X : mat R) : outcome (mat R) := cramer A (mkmat (mrows A) (mrows A) idm) X.

Lemma cramer_ok : solver_ok cramer.
Proof.
  intros n m A B X (Ar & Ac) (Br & Bc) _. unfold cramer, det_ok. rewrite Ar.
  destruct n as [|[|[|[|n]]]]; try (left; reflexivity); (destruct (Req_EM_T _ 0) as [|Hd]; [left; reflexivity|]); right; eexists; (split; [reflexivity|]); (split; [split; cbn; congruence|]); (split; [split; cbn; congruence|]);
  intros i j Hi Hj; rewrite Ar in Hi; unfold sumn; cbn [seq map fold_right ment Nat.eqb].
  - unfold det2, col in *. destruct i as [|[|i]]; [| |lia]; cbn [Nat.eqb]; field; exact Hd.
  - unfold det3, col in *. destruct i as [|[|[|i]]]; [| | |lia]; cbn [Nat.eqb]; field; exact Hd.
Qed.
Lemma cramer_inv_ok : inverter_ok cramer_inv.
Proof.
  intros n A X (Ar & Ac) _. unfold cramer_inv, cramer, det_ok. rewrite Ar.
  destruct n as [|[|[|[|n]]]]; try (left; reflexivity); (destruct (Req_EM_T _ 0) as [|Hd]; [left; reflexivity|]); right; eexists; (split; [reflexivity|]); (split; [split; cbn; congruence|]);
  intros i j Hi Hj; unfold sumn; cbn [seq map fold_right ment mcols Nat.eqb].
  - unfold det2, col, idm in *. destruct i as [|[|i]]; [| |lia]; (destruct j as [|[|j]]; [| |lia]); cbn [Nat.eqb]; split; field; exact Hd.
  - unfold det3, col, idm in *. destruct i as [|[|[|i]]]; [| | |lia]; (destruct j as [|[|[|j]]]; [| | |lia]); cbn [Nat.eqb]; split; field; exact Hd.
Qed.
Lemma cramer_runs A B X : det_ok A = true -> exists Y, cramer A B X = Ok Y.
Proof. intro H. unfold cramer. rewrite H. eauto. Qed.
Lemma det2_ok A : mrows A = 2%nat -> det2 (ment A) <> 0 -> det_ok A = true.
Proof. intros H D. unfold det_ok. rewrite H. destruct (Req_EM_T _ 0); [contradiction|reflexivity]. Qed.
Lemma det3_ok A : mrows A = 3%nat -> det3 (ment A) <> 0 -> det_ok A = true.
Proof. intros H D. unfold det_ok. rewrite H. destruct (Req_EM_T _ 0); [contradiction|reflexivity]. Qed.

Local Notation G := gwit.
Local Notation E := (exact gwit).
Definition eig0 (n : nat) (J : nat -> nat -> R) : list R * (nat -> nat -> R) := (@nil R, J).
Definition junk0 (i j : nat) : R := 0.
Local Notation P k x := (jac gwit 0 0 k x).
Lemma vand_det a b : a <> b -> det2 (ment (vandermonde1D E [a; b] 2)) <> 0.
Proof.
  intro H. unfold det2. rewrite !(vander_ent gwit gwit_ok) by (cbn; lia). cbn [nth].
  rewrite !(proj1 (leg2 gwit gwit_ok 0 _)), !(proj2 (leg2 gwit gwit_ok 0 _)). pose proof (sg_pos 0). pose proof (sg_pos 1). cbn [legendre].
  match goal with |- ?x <> 0 => replace x with (sg 0 * sg 1 * (b - a)) by (cbn; ring) end. apply Rmult_integral_contrapositive. split; [nra|lra].
Qed.
Lemma gll1 : computeGaussLobottoPoints E eig0 0 0 0 1 = [-1; 1].
Proof. cbn [computeGaussLobottoPoints]. rewrite fofn_INR. cbn [exact fopp]. change (INR 1) with 1. reflexivity. Qed.
Lemma warp_runs r : exists w, computeWarpFactor E cramer cramer_inv junk0 0 eig0 1 r = Ok w.
Proof.
  unfold computeWarpFactor. set (re := map _ (seq 0 2)).
  assert (Er : re = [-1; 1]) by (unfold re; cbn [seq map]; rewrite !fofn_INR; cbn [exact fadd fopp fdiv fmul fsub INR]; f_equal; [field|f_equal; field]).
  assert (D : det_ok (vandermonde1D E re 2) = true) by (apply det2_ok; [rewrite Er; reflexivity|rewrite Er; apply vand_det; lra]).
  destruct (cramer_runs (vandermonde1D E re 2) (mkmat (mrows (vandermonde1D E re 2)) (mrows (vandermonde1D E re 2)) idm) (mkmat 2 2 junk0) D) as (Y & EY). unfold cramer_inv at 1. rewrite EY. cbn [bind].
  assert (D' : det_ok (mtrans (vandermonde1D E re 2)) = true).
  { apply det2_ok; [rewrite Er; reflexivity|]. rewrite Er. pose proof (vand_det (-1) 1 ltac:(lra)) as H. unfold det2 in *. cbn [mtrans ment]. lra. }
  match goal with |- context [cramer (mtrans (vandermonde1D E re 2)) ?B ?X] => destruct (cramer_runs _ B X D') as (L & ->) end. cbn [bind]. eauto.
Qed.
Lemma nodes_run : exists ms, buildNodes2D E cramer cramer_inv junk0 0 eig0 cos sin PI (1 / 10) 1 = Ok ([-1; 1; -1], [-1; -1; 1], ms) /\ ms = [[0%nat; 1%nat]; [1%nat; 2%nat]; [0%nat; 2%nat]].
Proof.
  eexists. split; [|reflexivity]. unfold buildNodes2D.
  destruct (equi_nodes gwit gwit_ok cramer cramer_inv junk0 cramer_ok cramer_inv_ok 0 eig0 1 ltac:(lia) ltac:(lia)) as [H | (x & y & -> & Lx & Ly & Hq)].
  1-3: rewrite gll1; reflexivity.
  - exfalso. revert H. unfold computeEquilateralNodes. cbn [Nat.eqb].
    match goal with |- bind (computeWarpFactor _ _ _ _ _ _ _ ?r) _ = _ -> _ => destruct (warp_runs r) as (w1 & ->) end. cbn [bind].
    match goal with |- bind (computeWarpFactor _ _ _ _ _ _ _ ?r) _ = _ -> _ => destruct (warp_runs r) as (w2 & ->) end. cbn [bind].
    match goal with |- bind (computeWarpFactor _ _ _ _ _ _ _ ?r) _ = _ -> _ => destruct (warp_runs r) as (w3 & ->) end. cbn [bind]. discriminate.
  - cbn [bind]. destruct (ref_nodes gwit 0 eig0 1 ltac:(lia) ltac:(rewrite gll1; reflexivity) x y Lx Ly Hq) as (r & s & -> & Lr & Ls & Hn). 
    change (length (modes 1)) with 3%nat in *.
    pose proof (Hn 0%nat ltac:(lia)) as H0. pose proof (Hn 1%nat ltac:(lia)) as H1. pose proof (Hn 2%nat ltac:(lia)) as H2.
    unfold is_node in H0, H1, H2. change (mode 1 0) with (0%nat, 0%nat) in H0. change (mode 1 1) with (0%nat, 1%nat) in H1. change (mode 1 2) with (1%nat, 0%nat) in H2. rewrite gll1 in H0, H1, H2.
    destruct H0 as (A0 & _). destruct H1 as (A1 & _). destruct H2 as (_ & _ & A2). destruct (A0 eq_refl) as (S0 & R0). destruct (A1 eq_refl) as (S1 & R1). destruct (A2 eq_refl) as (R2 & S2). cbn [nth Nat.sub] in *.
    destruct r as [|r0 [|r1 [|r2 [|]]]]; try discriminate. destruct s as [|s0 [|s1 [|s2 [|]]]]; try discriminate. cbn [nth] in *. subst. replace (- -1) with 1 by ring. cbn [map zip2 combine fst snd].
    assert (Hz : forall v, v = 0 -> flt E (fabs E v) (1 / 10) = true) by (intros v ->; cbn [exact flt fabs]; rewrite Rabs_R0; unfold Rltb; destruct (Rlt_dec 0 (1/10)); [reflexivity|lra]).
    assert (Hb : forall v, 1 < v \/ v < -1 -> flt E (fabs E v) (1 / 10) = false).
    { intros v Hv. cbn [exact flt fabs]. unfold Rltb. destruct (Rlt_dec (Rabs v) (1/10)) as [H|]; [|reflexivity]. apply Rabs_def2 in H. lra. }
    rewrite !fofn_INR. cbn [exact fadd]. change (INR 1) with 1.
    unfold faceMask. cbn [length for_ for_from getn nth_error bind repeat].
    rewrite (Hz (-1 + 1)), (Hz (1 + -1)), (Hb (1 + 1)), (Hb (-1 + -1)) by lra. reflexivity.
Qed.

Local Notation rw := [-1; 1; -1].
Local Notation sw := [-1; -1; 1].
Lemma pts_w : pts_ok rw sw.
Proof. split; [reflexivity|]. intros p H. cbn [combine In] in H. destruct H as [<-|[<-|[<-|[]]]]; cbn [fst snd]; unfold in_domain; [left; lra|left; lra|right; reflexivity]. Qed.
(* the basis is unisolvent at the corners *)
Lemma det3_mul (a b : nat -> nat -> R) : det3 a * det3 b = det3 (fun i j => a i 0%nat * b 0%nat j + a i 1%nat * b 1%nat j + a i 2%nat * b 2%nat j).
Proof. unfold det3. ring. Qed.
Lemma vand3 (V : mat R) : (forall i c, (i < 3)%nat -> (c < 3)%nat -> ment V i c = bas gwit 1 c (nth i rw 0) (nth i sw 0)) -> det3 (ment V) <> 0.
Proof.
  intro HV.
  destruct (modal_ex gwit gwit_ok 1 [(1%nat, 0%nat, - / 2); (0%nat, 1%nat, - / 2)]) as (c1 & H1); [repeat constructor; cbn; lia|].
  destruct (modal_ex gwit gwit_ok 1 [(0%nat, 0%nat, / 2); (1%nat, 0%nat, / 2)]) as (c2 & H2); [repeat constructor; cbn; lia|].
  destruct (modal_ex gwit gwit_ok 1 [(0%nat, 0%nat, / 2); (0%nat, 1%nat, / 2)]) as (c3 & H3); [repeat constructor; cbn; lia|].
  pose proof (det3_mul (ment V) (fun k j => match j with 0%nat => c1 k | 1%nat => c2 k | _ => c3 k end)) as HM. intro D. rewrite D, Rmult_0_l in HM.
  unfold modal in *. change (length (modes 1)) with 3%nat in *. unfold sumn in *. cbn [seq map fold_right eval2 pow] in *.
  assert (Q : forall i, (i < 3)%nat ->
    ment V i 0 * c1 0%nat + ment V i 1 * c1 1%nat + ment V i 2 * c1 2%nat = - (nth i rw 0 + nth i sw 0) / 2 /\
    ment V i 0 * c2 0%nat + ment V i 1 * c2 1%nat + ment V i 2 * c2 2%nat = (1 + nth i rw 0) / 2 /\
    ment V i 0 * c3 0%nat + ment V i 1 * c3 1%nat + ment V i 2 * c3 2%nat = (1 + nth i sw 0) / 2).
  { intros i Hi. rewrite !HV by lia. specialize (H1 (nth i rw 0) (nth i sw 0)). specialize (H2 (nth i rw 0) (nth i sw 0)). specialize (H3 (nth i rw 0) (nth i sw 0)). split; [|split]; lra. }
  destruct (Q 0%nat ltac:(lia)) as (Q00 & Q01 & Q02). destruct (Q 1%nat ltac:(lia)) as (Q10 & Q11 & Q12). destruct (Q 2%nat ltac:(lia)) as (Q20 & Q21 & Q22).
  cbn [nth] in *. unfold det3 in HM at 1. rewrite Q00, Q01, Q02, Q10, Q11, Q12, Q20, Q21, Q22 in HM. lra.
Qed.
Lemma edgeMass_runs a b : a <> b -> exists M, edgeMass E cramer_inv junk0 2 [a; b] = Ok M /\ shape M 2 2.
Proof.
  intro H. unfold edgeMass. pose proof (vand_det a b H) as D.
  unfold cramer_inv at 1. destruct (cramer_runs (vandermonde1D E [a; b] 2) (mkmat 2 2 idm) (mkmat 2 2 junk0) (det2_ok (vandermonde1D E [a; b] 2) eq_refl D)) as (Y & EY). change (mrows (vandermonde1D E [a; b] 2)) with 2%nat. rewrite EY. cbn [bind].
  unfold cramer_inv. set (M := mmul E _ _). assert (DM : det_ok M = true).
  { apply det2_ok; [reflexivity|]. replace (det2 (ment M)) with (det2 (ment (vandermonde1D E [a; b] 2)) * det2 (ment (vandermonde1D E [a; b] 2))); [nra|].
    unfold det2, M. cbn [mmul ment mtrans]. rewrite !fsum_exact. change (mcols (vandermonde1D E [a; b] 2)) with 2%nat. unfold sumn. cbn [seq map fold_right exact fmul]. ring. }
  unfold cramer. rewrite DM. eexists. split; [reflexivity|]. split; reflexivity.
Qed.
Lemma putEdge_runs f mask (M Em : mat R) : (f < 3)%nat -> shape M 2 2 -> shape Em 3 6 -> length mask = 2%nat -> (forall m, In m mask -> (m < 3)%nat) -> exists Em', putEdge 2 f mask M Em = Ok Em' /\ shape Em' 3 6.
Proof.
  intros Hf (M1 & M2) SE Lm Hm. unfold putEdge.
  match goal with |- context [for_ 2 ?body Em] => destruct (for_inv (fun _ Em => shape Em 3 6) 2 body Em SE) as (Em' & -> & HE) end; [|eauto].
  intros i Em1 Hi SE1. 
  match goal with |- context [for_ 2 ?body Em1] => destruct (for_inv (fun _ Em => shape Em 3 6) 2 body Em1 SE1) as (Em' & -> & HE) end; [|eauto].
  intros j Em2 Hj (E1 & E2). rewrite (getn_ok mask i 0%nat) by lia. cbn [bind]. rewrite mget_ok by lia. cbn [bind]. pose proof (Hm (nth i mask 0%nat) ltac:(apply nth_In; lia)).
  unfold mset. rewrite inb_true by lia. eexists. split; [reflexivity|]. split; assumption.
Qed.
Lemma lift_runs : exists V Vi L, buildLift2D E pow cramer_inv junk0 1 rw sw [[0%nat; 1%nat]; [1%nat; 2%nat]; [0%nat; 2%nat]] = Ok (V, Vi, L) /\ shape V 3 3.
Proof.
  unfold buildLift2D. cbn [length getn nth_error bind].
  assert (g1 : gather rw [0%nat; 1%nat] = Ok [-1; 1]) by reflexivity. assert (g2 : gather rw [1%nat; 2%nat] = Ok [1; -1]) by reflexivity. assert (g3 : gather sw [0%nat; 2%nat] = Ok [-1; 1]) by reflexivity.
  rewrite g1, g2, g3. cbn [bind].
  destruct (edgeMass_runs (-1) 1 ltac:(lra)) as (M1 & -> & S1). cbn [bind].
  destruct (putEdge_runs 0 [0%nat; 1%nat] M1 (mzero E 3 6)) as (E1 & HE1 & SE1); [lia|exact S1|split; reflexivity|reflexivity|intros m [<-|[<-|[]]]; lia|]. change (3 * 2)%nat with 6%nat. rewrite HE1. cbn [bind].
  destruct (edgeMass_runs 1 (-1) ltac:(lra)) as (M2 & -> & S2). cbn [bind].
  destruct (putEdge_runs 1 [1%nat; 2%nat] M2 E1) as (E2 & -> & SE2); [lia|exact S2|exact SE1|reflexivity|intros m [<-|[<-|[]]]; lia|]. cbn [bind].
  destruct (putEdge_runs 2 [0%nat; 2%nat] M1 E2) as (E3 & -> & SE3); [lia|exact S1|exact SE2|reflexivity|intros m [<-|[<-|[]]]; lia|]. cbn [bind].
  destruct (vander2D_ok gwit gwit_ok 1 rw sw (mzero E 3 3) pts_w eq_refl ltac:(cbn; lia)) as (V & -> & SV & HV & _). cbn [bind].
  change (mrows (mzero E 3 3)) with 3%nat in SV. change (mcols (mzero E 3 3)) with 3%nat in SV.
  assert (D : det_ok V = true) by (apply det3_ok; [apply SV|apply vand3; exact HV]).
  unfold cramer_inv. match goal with |- context [cramer V ?B ?X] => destruct (cramer_runs V B X D) as (Vi & ->) end. cbn [bind]. do 3 eexists. split; [reflexivity|exact SV].
Qed.
Lemma det3_trans a : det3 (fun i j => a j i) = det3 a.
Proof. unfold det3. ring. Qed.
Theorem tri_witness_any K Vert EToV : mesh_ok K Vert EToV ->
  exists el, built gwit cramer cramer_inv junk0 0 eig0 (1 / 10) 1 K Vert EToV el.
Proof.
  intro HM.
  assert (HB : exists el, buildElement E pow cramer cramer_inv junk0 0 eig0 cos sin PI (1 / 10) 1 K Vert EToV = Ok el).
  { unfold buildElement. destruct nodes_run as (ms & -> & ->). cbn [bind].
    destruct lift_runs as (V0 & Vi0 & L & -> & SV0). cbn [bind].
    destruct (physGrid_ok gwit junk0 1 K Vert EToV rw sw ltac:(lia) HM eq_refl) as (x & y & -> & Sx & Sy & Hxy). cbn [bind].
    destruct SV0 as (V01 & V02).
    destruct (vander2D_ok gwit gwit_ok 1 rw sw V0 pts_w) as (V & -> & SV & HV & _); [exact V01|rewrite V02; cbn; lia|]. cbn [bind]. rewrite V01, V02 in SV.
    assert (D3 : det3 (ment V) <> 0) by (apply vand3; exact HV). assert (D : det_ok V = true) by (apply det3_ok; [apply SV|exact D3]).
    unfold cramer_inv. match goal with |- context [cramer V ?B ?X] => destruct (cramer_runs V B X D) as (Vi & EVi); rewrite EVi end. cbn [bind]. clear EVi.
    destruct (gvander2D_ok gwit gwit_ok 1 rw sw (mkmat 3 3 junk0) (mkmat 3 3 junk0) pts_w) as (Vr & Vs & EVrs & SVr & SVs & HVrs); try (cbn; lia). change (length rw) with 3%nat. rewrite EVrs. cbn [bind]. cbn [mrows mcols] in SVr, SVs.
    destruct (diffmats_ok gwit gwit_ok cramer junk0 cramer_ok 1 rw sw eq_refl pts_w V Vr Vs SV SVr SVs) as [HT | (Dr & Ds & Drw & Dsw & -> & S1 & S2 & S3 & S4 & M1 & M2 & W1 & W2)].
    - exact HV.
    - intros i c Hi Hc. apply HVrs; assumption.
    - intros i c Hi Hc. apply HVrs; assumption.
    - exfalso. revert HT. unfold computeDifferentiationMatrices. destruct SV as (SV1 & SV2). 
      assert (DT : det_ok (mtrans V) = true) by (apply det3_ok; [exact SV2|]; change (ment (mtrans V)) with (fun i j => ment V j i); rewrite det3_trans; exact D3).
      match goal with |- bind (cramer _ ?B ?X) _ = _ -> _ => destruct (cramer_runs _ B X DT) as (Y1 & ->) end. cbn [bind].
      match goal with |- bind (cramer _ ?B ?X) _ = _ -> _ => destruct (cramer_runs _ B X DT) as (Y2 & ->) end. cbn [bind].
      match goal with |- bind (cramer ?A _ _) _ = _ -> _ => assert (DVV : det_ok A = true) end.
      { apply det3_ok; [cbn [mtrans mrows mcols]; apply SVr|].
        match goal with |- det3 ?a <> 0 => replace (det3 a) with (det3 (ment V) * det3 (fun i j => ment V j i)) end.
        - apply Rmult_integral_contrapositive. split; [exact D3|]. rewrite det3_trans. exact D3.
        - rewrite det3_mul. cbn [mtrans ment mmul mrows mcols]. unfold det3. rewrite !fsum_exact, SV2. unfold sumn. cbn [seq map fold_right exact fmul]. ring. }
      match goal with |- bind (cramer _ ?B ?X) _ = _ -> _ => destruct (cramer_runs _ B X DVV) as (Y3 & ->) end. cbn [bind].
      match goal with |- bind (cramer _ ?B ?X) _ = _ -> _ => destruct (cramer_runs _ B X DVV) as (Y4 & ->) end. cbn [bind]. discriminate.
    - cbn [bind].
      destruct (normals_ok gwit 1 K Vert EToV rw sw ltac:(lia) eq_refl Dr Ds x y S1 S2 M1 M2 Sx Sy Hxy 2 [[0%nat; 1%nat]; [1%nat; 2%nat]; [0%nat; 2%nat]] (mkmat (3 * 2) K junk0) (mkmat (3 * 2) K junk0) (mkmat (3 * 2) K junk0)) as (nx & ny & Fs & -> & _); try (split; reflexivity).
      { intros f Hf. destruct f as [|[|[|]]]; [| | |lia]; eexists; (split; [reflexivity|]); (split; [reflexivity|]); intros m [<-|[<-|[]]]; cbn; lia. }
      cbn [bind]. eauto. }
  destruct HB as (el & HB). exists el. constructor; auto using gwit_ok, cramer_ok, cramer_inv_ok; try lra; try lia.
Qed.
Theorem tri_witness : let Vert := [0; 0; 0;  1; 0; 0;  1; 1; 0;  0; 1; 0] in let EToV := [0; 1; 2;  0; 2; 3]%nat in
  exists el, built gwit cramer cramer_inv junk0 0 eig0 (1 / 10) 1 2 Vert EToV el.
Proof.
  intros Vert EToV. apply tri_witness_any. split; [reflexivity|]. intros v Hv. cbn in Hv. repeat (destruct Hv as [<-|Hv]; [cbn; lia|]). destruct Hv.
Qed.
