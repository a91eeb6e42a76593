(* PoissonExactProofs.v - a polynomial solution satisfies the discrete Poisson problem exactly; boundary tables as data. *)
From Coq Require Import ZArith List Lia Bool Arith.
From Verif Require Import Base Loops Num FoldProofs BlitzModel JacobiModel JacobiSpec JacobiProofs JacobiOrthProofs JacobiQuadProofs JacobiExactProofs Nodes1DModel Nodes1DSpec Nodes1DExactProofs DenseSpec GllProofs
  MeshSpec MeshGeoProofs MeshProps MeshProofs TriModel TriSpec TriBasisProofs TriProofs TriOpProofs TriLiftProofs TriFaceProofs TriNodesProofs TriElemProofs TriGeoSpec TriGeoProofs TriSetup TriProps Maps2DModel Maps2DSpec Maps2DProofs Maps2DProps TriMapsProofs TriMapsProps TriDGSpec TriDGProofs
  QuadInterpProofs TripletModel CscModel CscSpec RKModel Line1DModel Line1DProofs SwModel SwSpec SwProofs SwSchemeProofs SwRunProofs PoissonModel PoissonSpec PoissonTripletProofs PoissonBlockProofs PoissonProofs PoissonFormProofs PoissonCoerciveProofs PoissonLoadSpec PoissonRhsModel PoissonRhsProofs GreenProofs.
From Coq Require Import Reals Lra.
Import ListNotations.
Local Open Scope R_scope.

Lemma side_point_inj p q t t' : p <> q -> side_point p q t = side_point p q t' -> t = t'.
Proof.
  intros Hne E. unfold side_point in E. injection E as E1 E2. destruct (Req_dec (fst q - fst p) 0) as [Z1|Z1].
  - destruct (Req_dec (snd q - snd p) 0) as [Z2|Z2]; [exfalso; apply Hne; destruct p, q; cbn [fst snd] in *; f_equal; lra|].
    apply (Rmult_eq_reg_r (snd q - snd p)); [lra|exact Z2].
  - apply (Rmult_eq_reg_r (fst q - fst p)); [lra|exact Z1].
Qed.

Section Exact.
Variables (N K : nat) (Vert : list R) (EToV E2E E2F : list nat) (bcType : list Z).
Hypothesis HM : tri_mesh K Vert EToV E2E E2F.
Local Notation P := (TriGeoSpec.corner Vert EToV).
Hypothesis HA : forall k, (k < K)%nat -> 0 < area (P k 0) (P k 1) (P k 2).
Local Notation A k f := (from_ Vert EToV k f).
Local Notation B k f := (to_ Vert EToV k f).
Variable p : poly2.
Hypothesis Dp : degree2 N p.
Variable nrm : nat -> nat -> point.
Hypothesis Hnrm : forall k f, (k < K)%nat -> (f < 3)%nat -> normal_of Vert EToV k f (nrm k f).
Definition same (p : poly2) : piecewise := Piecewise (fun _ => eval2 p) (fun _ => eval2 (ddr p)) (fun _ => eval2 (dds p)).
Definition source_ : piecewise := Piecewise (fun _ x y => - (eval2 (ddr (ddr p)) x y + eval2 (dds (dds p)) x y)) (fun _ _ _ => 0) (fun _ _ _ => 0).
Definition poly_on (V : piecewise) (W : nat -> poly2) : Prop := forall k, (k < K)%nat -> degree2 N (W k) /\ (forall x y, val V k x y = eval2 (W k) x y) /\ (forall x y, ddx V k x y = eval2 (ddr (W k)) x y) /\ forall x y, ddy V k x y = eval2 (dds (W k)) x y.

Lemma nrm_is k f n : (k < K)%nat -> (f < 3)%nat -> normal_of Vert EToV k f n -> n = nrm k f.
Proof. intros Hk Hf Hn. eapply normal_unique; [|exact Hn|exact (Hnrm k f Hk Hf)]. eapply side_ne; eassumption. Qed.
Lemma flux_int V W k f : poly_on V W -> (k < K)%nat -> exists v, side_integral (A k f) (B k f) (fun t => let x := side_point (A k f) (B k f) t in (fst (nrm k f) * at_point (ddr p) x + snd (nrm k f) * at_point (dds p) x) * at_point (W k) x) v.
Proof.
  intros HV Hk. destruct (HV k Hk) as (DW & _). set (nx := fst (nrm k f)). set (ny := snd (nrm k f)).
  assert (HT : tpoly (N + N) (fun x y => (nx * eval2 (ddr p) x y + ny * eval2 (dds p) x y) * eval2 (W k) x y)).
  { apply tpoly_mul; [apply (tpoly_plus N (fun x y => nx * eval2 (ddr p) x y) (fun x y => ny * eval2 (dds p) x y)); apply tpoly_scal|].
    - exists (ddr p). split; [apply ddr_deg; exact Dp|reflexivity].
    - exists (dds p). split; [apply dds_deg; exact Dp|reflexivity].
    - exists (W k). split; [exact DW|reflexivity]. }
  destruct (side_poly _ _ (A k f) (B k f) HT) as (v & Hv). exists v. exact Hv.
Qed.

Local Notation vals := (values_of Vert EToV p).
Local Notation ders := (normal_derivative_of Vert EToV (ddr p) (dds p) nrm).
Lemma side_balance V W k f w w' v : poly_on V W -> (k < K)%nat -> (f < 3)%nat -> sides N K Vert EToV bcType (one_sided_density N Vert EToV) k f (same p) V w ->
  side_load N K Vert EToV bcType vals ders k f V w' ->
  side_integral (A k f) (B k f) (fun t => let x := side_point (A k f) (B k f) t in (fst (nrm k f) * at_point (ddr p) x + snd (nrm k f) * at_point (dds p) x) * at_point (W k) x) v ->
  w + v = w'.
Proof.
  intros HV Hk Hf (k2 & f2 & n & Ha & Hn & Hd & Hna & Hi) (k3 & f3 & n' & Ha' & Hn' & Ld & Ln & Li) Hv.
  destruct (across_unique K Vert EToV E2E E2F HM k f _ _ _ _ Ha' Ha) as (-> & ->). rewrite (nrm_is k f n Hk Hf Hn) in *. rewrite (nrm_is k f n' Hk Hf Hn') in *. clear Hn Hn' n n'. set (n := nrm k f) in *. cbv zeta in Hv.
  destruct (HV k Hk) as (DW & V0 & V1 & V2). set (sp := side_point (A k f) (B k f)) in *.
  assert (E1 : forall t, val_at V k (sp t) = at_point (W k) (sp t)) by (intro; apply V0).
  assert (E2 : forall k t, along n (same p) k (sp t) = fst n * at_point (ddr p) (sp t) + snd n * at_point (dds p) (sp t)) by reflexivity.
  assert (E3 : forall k t, val_at (same p) k (sp t) = at_point p (sp t)) by reflexivity.
  destruct (tag_cases bcType k f) as [C|[C|C]].
  - specialize (Hd C). specialize (Ld C). cbv zeta in Ld. pose proof (side_integral_lin _ _ _ _ 1 1 _ _ Hd Hv) as Hs. replace (w + v) with (1 * w + 1 * v) by ring.
    eapply side_integral_unique; [exact Hs|]. eapply side_integral_ext; [|exact Ld]. intro t. cbv beta. unfold dirichlet_density, values_of. fold sp. rewrite E1, E2, E3. ring.
  - rewrite (Hna C), Rplus_0_l. specialize (Ln C). eapply side_integral_unique; [exact Hv|]. eapply side_integral_ext; [|exact Ln]. intro t. cbv beta. fold sp. rewrite E1. unfold normal_derivative_of. cbv zeta. fold n sp. ring.
  - rewrite (Li C). specialize (Hi C). cbv zeta in Hi. pose proof (side_integral_lin _ _ _ _ 1 1 _ _ Hi Hv) as Hs. replace (w + v) with (1 * w + 1 * v) by ring.
    eapply side_integral_unique; [exact Hs|]. exists 0. split; [|ring]. exists (fun _ => 0). split; [|ring].
    intro t. replace (1 * _ + 1 * _) with 0; [apply derivable_pt_lim_const|]. unfold one_sided_density, jump, mean. rewrite !E1, !E2, !E3. field.
Qed.
Lemma form_exact V W a b c : poly_on V W -> one_sided_form N K Vert EToV bcType (same p) V a -> mass_form K Vert EToV source_ V b -> load N K Vert EToV bcType vals ders V c -> a = b + c.
Proof.
  intros HV (vol & sd & F1 & F2 & ->) (mv & M1 & ->) (ld & L1 & ->). rewrite <- sumn_plus. apply sumn_ext. intros k Hk.
  destruct (HV k Hk) as (DW & V0 & V1 & V2).
  destruct (flux_int V W k 0 HV Hk) as (v0 & I0). destruct (flux_int V W k 1 HV Hk) as (v1 & I1). destruct (flux_int V W k 2 HV Hk) as (v2 & I2).
  pose proof (side_balance V W k 0 _ _ _ HV Hk ltac:(lia) (F2 k 0%nat Hk ltac:(lia)) (L1 k 0%nat Hk ltac:(lia)) I0) as B0.
  pose proof (side_balance V W k 1 _ _ _ HV Hk ltac:(lia) (F2 k 1%nat Hk ltac:(lia)) (L1 k 1%nat Hk ltac:(lia)) I1) as B1.
  pose proof (side_balance V W k 2 _ _ _ HV Hk ltac:(lia) (F2 k 2%nat Hk ltac:(lia)) (L1 k 2%nat Hk ltac:(lia)) I2) as B2.
  assert (Gr : - mv k + vol k = v0 + v1 + v2); [|lra].
  eapply (green_triangle K Vert EToV k (HA k Hk) Hk N (ddr p) (dds p) (W k)); try eassumption; try (apply Hnrm; lia).
  - apply ddr_deg; exact Dp.
  - apply dds_deg; exact Dp.
  - destruct (M1 k Hk) as (i & Hi & ->). exists (-1 * i). split; [|ring]. eapply tint_ext; [|apply (tint_scal (-1) _ _ Hi)]. intros x y. unfold pulled. cbn [source_ val]. rewrite V0. ring.
  - eapply eint_ext; [|exact (F1 k Hk)]. intros x y. cbn [same ddx ddy]. rewrite V1, V2. reflexivity.
Qed.
End Exact.

Section Data.
Variables (G : R -> R) (solve : mat R -> mat R -> mat R -> outcome (mat R)) (inverse : mat R -> mat R -> outcome (mat R))
  (junk : nat -> nat -> R) (eps : R) (eig : nat -> (nat -> nat -> R) -> list R * (nat -> nat -> R)) (tol : R)
  (N K : nat) (Vert : list R) (EToV : list nat) (el : element (T := R)).
Hypothesis HB : built G solve inverse junk eps eig tol N K Vert EToV el.
Local Notation P := (TriGeoSpec.corner Vert EToV).
Hypothesis HA : forall k, (k < K)%nat -> 0 < area (P k 0) (P k 1) (P k 2).
Local Notation Fm := (mask_table N (e_masks el)).
Local Notation Np := (length (e_r el)).
Local Notation X := (node_at (e_x el) (e_y el)).
Local Notation sp k f := (side_point (P k f) (P k (next f))).
Local Notation tab := (tabulates N K Vert EToV (e_x el) (e_y el) Fm).

Lemma flip2 f t : flip f (flip f t) = t.
Proof. destruct f; cbn [flip]; ring. Qed.
Lemma tab_exists B : shape B (3 * S N) K -> exists g, tab (fun _ _ => True) B g.
Proof.
  intro SB.
  assert (Hp : forall k f, (k < K)%nat -> (f < 3)%nat -> exists h : R -> R, (exists cs, (length cs <= S N)%nat /\ forall t, h t = peval cs t) /\ forall j, (j <= N)%nat -> h (flip f (ec el f j)) = ment B (f * S N + j) k).
  { intros k f Hk Hf. assert (He : exists cs, (length cs <= S N)%nat /\ forall j, (j <= N)%nat -> peval cs (edge_coord f (nth (fnode el f j) (e_r el) 0) (nth (fnode el f j) (e_s el) 0)) = ment B (f * S N + j) k) by (eapply (edge_poly _ _ _ _ _ _ _ _ _ _ _ _ HB f (fun j => ment B (f * S N + j) k)); eassumption).
    destruct He as (cs & Lc & Hc). exists (fun t => peval cs (flip f t)). split.
    - apply (spoly_flip N f (peval cs)). exists cs. split; [exact Lc|reflexivity].
    - intros j Hj. cbv beta. rewrite flip2. rewrite <- Hc by exact Hj. destruct f as [|[|[|]]]; [reflexivity..|lia]. }
  destruct (finite_choice (fun _ : R => 0) (K * 3) (fun i h => (i < K * 3)%nat -> (exists cs, (length cs <= S N)%nat /\ forall t, h t = peval cs t) /\ forall j, (j <= N)%nat -> h (flip (i mod 3) (ec el (i mod 3) j)) = ment B ((i mod 3) * S N + j) (i / 3))) as (c & Hc).
  { intros i Hi. destruct (Hp (i / 3)%nat (i mod 3)%nat) as (h & Hh); [apply Nat.div_lt_upper_bound; lia|apply Nat.mod_upper_bound; lia|]. exists h. intros _. exact Hh. }
  exists (fun k f t => c (3 * k + f)%nat t). split; [exact SB|]. intros k f Hk Hf _. destruct (Hc (3 * k + f)%nat ltac:(lia) ltac:(lia)) as (H1 & H2). destruct (d3 k f Hf) as (Ed & Em). rewrite Ed, Em in H2. split; [exact H1|].
  intros j t Hj Ht. rewrite <- (H2 j Hj). change (ment Fm j f) with (fnode el f j) in Ht. assert (Hn : X (fnode el f j) k = sp k f (flip f (ec el f j))) by (apply (node_side _ _ _ _ _ _ _ _ _ _ _ _ HB (repeat 0%Z (3 * K))); try assumption; rewrite repeat_length; lia). rewrite Hn in Ht.
  apply side_point_inj in Ht; [now rewrite Ht|]. eapply side_ne; eassumption.
Qed.
Lemma tab_on (on on' : nat -> nat -> Prop) B g : (forall k f, on' k f -> on k f) -> tab on B g -> tab on' B g.
Proof. intros H (A1 & A2). split; [exact A1|]. intros k f Hk Hf Ho. apply A2; auto. Qed.
Lemma tab_values (on : nat -> nat -> Prop) B p : degree2 N p -> shape B (3 * S N) K ->
  (forall k f j, (k < K)%nat -> (f < 3)%nat -> (j <= N)%nat -> on k f -> ment B (f * S N + j) k = at_point p (X (ment Fm j f) k)) -> tab on B (values_of Vert EToV p).
Proof.
  intros Dp SB H. split; [exact SB|]. intros k f Hk Hf Ho. split.
  - destruct (trace_poly N Vert EToV k f p Dp) as (cs & L & Hc). exists cs. split; [exact L|]. exact Hc.
  - intros j t Hj Ht. rewrite H by assumption. rewrite Ht. reflexivity.
Qed.
Lemma tab_ders (on : nat -> nat -> Prop) B p nrm : degree2 N p -> shape B (3 * S N) K ->
  (forall k f j, (k < K)%nat -> (f < 3)%nat -> (j <= N)%nat -> on k f -> ment B (f * S N + j) k = fst (nrm k f) * at_point (ddr p) (X (ment Fm j f) k) + snd (nrm k f) * at_point (dds p) (X (ment Fm j f) k)) ->
  tab on B (normal_derivative_of Vert EToV (ddr p) (dds p) nrm).
Proof.
  intros Dp SB H. split; [exact SB|]. intros k f Hk Hf Ho. split.
  - destruct (dn_trace N Vert EToV (nrm k f) k f p Dp) as (cs & L & Hc). exists cs. split; [exact L|]. exact Hc.
  - intros j t Hj Ht. rewrite H by assumption. rewrite Ht. reflexivity.
Qed.
End Data.
