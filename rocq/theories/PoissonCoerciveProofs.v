(* PoissonCoerciveProofs.v - the symmetric interior penalty form bounds the energy; its kernel. *)
From Coq Require Import ZArith List Lia Bool Arith.
From Verif Require Import Base Loops Num FoldProofs BlitzModel JacobiModel JacobiSpec JacobiProofs JacobiOrthProofs JacobiQuadProofs JacobiExactProofs Nodes1DModel Nodes1DSpec Nodes1DExactProofs DenseSpec GllProofs
  GmresMath MeshSpec MeshGeoProofs MeshProps MeshProofs TriModel TriSpec TriBasisProofs TriProofs TriOpProofs TriLiftProofs TriFaceProofs TriNodesProofs TriElemProofs TriGeoSpec TriGeoProofs TriSetup TriProps Maps2DModel Maps2DSpec Maps2DProofs Maps2DProps TriMapsProofs TriMapsProps TriDGSpec TriDGProofs
  QuadInterpProofs TripletModel CscModel CscSpec RKModel Line1DModel Line1DProofs SwModel SwSpec SwProofs SwSchemeProofs SwRunProofs PoissonModel PoissonSpec PoissonTripletProofs PoissonBlockProofs PoissonProofs PoissonFormProofs TraceProofs PoissonEnergySpec.
From Coq Require Import Reals Lra.
Import ListNotations.
Local Open Scope R_scope.

Lemma tint_le f g v w : (forall r s, f r s <= g r s) -> triangle_integral f v -> triangle_integral g w -> v <= w.
Proof.
  intros H (I & HI & Hv) (J & HJ & Hw). apply (integral_le I J (-1) 1 v w ltac:(lra)) with (2 := Hv) (3 := Hw). intros s Hs.
  apply (integral_le _ _ (-1) (- s) _ _ ltac:(lra)) with (2 := HI s) (3 := HJ s). intros; apply H.
Qed.
Lemma side_integral_le p q f g v w : (forall t, f t <= g t) -> side_integral p q f v -> side_integral p q g w -> v <= w.
Proof.
  intros H (i & Hi & ->) (j & Hj & ->). apply Rmult_le_compat_l; [apply Rmult_le_pos; [apply sqrt_pos|lra]|]. apply (integral_le f g (-1) 1 i j ltac:(lra)) with (2 := Hi) (3 := Hj). intros; apply H.
Qed.
Lemma side_integral_lin p q f g a b v w : side_integral p q f v -> side_integral p q g w -> side_integral p q (fun t => a * f t + b * g t) (a * v + b * w).
Proof.
  intros (i & Hi & ->) (j & Hj & ->). exists (a * i + b * j). split; [|ring]. apply integral_plus; apply integral_scal; assumption.
Qed.
Lemma side_poly M F p q : tpoly M F -> exists v, side_integral p q (fun t => F (fst (side_point p q t)) (snd (side_point p q t))) v.
Proof.
  intros (z & _ & Hz). destruct (line_integral z (fst p + (fst q - fst p) / 2) ((fst q - fst p) / 2) (snd p + (snd q - snd p) / 2) ((snd q - snd p) / 2) (-1) 1) as (v & Hv).
  exists (side_length p q / 2 * v). exists v. split; [|reflexivity]. eapply integral_ext; [|exact Hv]. intro t. cbv beta. rewrite Hz. unfold side_point. cbn [fst snd]. f_equal; field.
Qed.

Lemma d3 k f : (f < 3)%nat -> ((3 * k + f) / 3 = k)%nat /\ ((3 * k + f) mod 3 = f)%nat.
Proof. intro Hf. replace (3 * k + f)%nat with (f + k * 3)%nat by lia. rewrite Nat.div_add, Nat.mod_add, Nat.div_small, Nat.mod_small by lia. auto. Qed.

Section Form.
Variables (G : R -> R) (solve : mat R -> mat R -> mat R -> outcome (mat R)) (inverse : mat R -> mat R -> outcome (mat R))
  (junk : nat -> nat -> R) (eps : R) (eig : nat -> (nat -> nat -> R) -> list R * (nat -> nat -> R)) (tol : R)
  (N K : nat) (Vert : list R) (EToV : list nat) (el : element (T := R)).
Hypothesis HB : built G solve inverse junk eps eig tol N K Vert EToV el.
Variables (E2E E2F : list nat).
Hypothesis HM : tri_mesh K Vert EToV E2E E2F.
Local Notation E := (exact G).
Local Notation P := (corner Vert EToV).
Hypothesis HA : forall k, (k < K)%nat -> 0 < area (P k 0) (P k 1) (P k 2).
Local Notation Fm := (mask_table N (e_masks el)).
Local Notation Np := (length (e_r el)).
Hypothesis HS : forall n n', (n <= N)%nat -> (n' <= N)%nat -> n <> n' -> 2 * tol <= Rabs (nth (ment Fm n 0) (e_r el) 0 - nth (ment Fm n' 0) (e_r el) 0).
Variables (sort : (nat -> nat -> bool) -> list nat -> list nat) (junk1 : nat -> R) (junkn : nat -> nat) (bcType : list Z) (m : maps).
Hypothesis Hrun : buildMaps E rhypot sort junk1 junkn tol 3 (S N) Np K Fm (e_x el) (e_y el) E2E E2F EToV Vert bcType [] = Ok m.
Hypothesis Hbc : (3 * K <= length bcType)%nat.
Local Notation X := (node_at (e_x el) (e_y el)).
Local Notation sp k f := (side_point (P k f) (P k (next f))).
Local Notation dirich := (dirichlet bcType).
Local Notation natur := (natural bcType).
Local Notation inter := (PoissonSpec.interior bcType).
Local Notation eint k := (element_integral (P k 0) (P k 1) (P k 2)).
Local Notation rep := (represents N Np K (e_x el) (e_y el)).
Local Notation img k := (affine_image (P k 0) (P k 1) (P k 2)).
Local Notation sint k f := (side_integral (P k f) (P k (next f))).

Lemma ends2 k f k2 f2 : (f < 3)%nat -> (k < K)%nat -> (f2 < 3)%nat -> joined EToV k f k2 f2 -> (k2 < K)%nat /\ P k2 f2 = P k (next f) /\ P k2 (next f2) = P k f /\ joined EToV k2 f2 k f.
Proof. intros. eapply joined_ends; eassumption. Qed.
(* pairing of the sides *)
Lemma partner : consistent_tags K EToV bcType -> exists sg : nat -> nat, forall g, (g < 3 * K)%nat -> (sg g < 3 * K)%nat /\ sg (sg g) = g /\
  ((inter (g / 3) (g mod 3) /\ inter (sg g / 3) (sg g mod 3) /\ joined EToV (g / 3) (g mod 3) (sg g / 3) (sg g mod 3)) \/ (~ inter (g / 3) (g mod 3) /\ sg g = g)).
Proof.
  intro HC. destruct (finite_choice 0%nat (3 * K) (fun g h => (h < 3 * K)%nat /\
     ((inter (g / 3) (g mod 3) /\ inter (h / 3) (h mod 3) /\ joined EToV (g / 3) (g mod 3) (h / 3) (h mod 3)) \/ (~ inter (g / 3) (g mod 3) /\ h = g)))) as (sg & Hsg).
  { intros g Hg. assert (B1 : (g / 3 < K)%nat) by (apply Nat.div_lt_upper_bound; lia). assert (B2 : (g mod 3 < 3)%nat) by (apply Nat.mod_upper_bound; lia).
    destruct (tag_cases bcType (g / 3) (g mod 3)) as [H|[H|H]]; [exists g; split; [exact Hg|right; split; [intros (Y & _); contradiction|reflexivity]]|exists g; split; [exact Hg|right; split; [intros (_ & Y); contradiction|reflexivity]]|].
    destruct (HC _ _ B1 B2 H) as (k2 & f2 & C1 & C2 & C3 & C4). exists (3 * k2 + f2)%nat. split; [lia|]. left.
    destruct (d3 k2 f2 C2) as (-> & ->). auto. }
  exists sg. intros g Hg. destruct (Hsg g Hg) as (B1 & B2). split; [exact B1|]. split; [|exact B2].
  destruct B2 as [(I1 & I2 & J)|(I1 & E0)]; [|rewrite E0; exact E0]. destruct (Hsg (sg g) B1) as (B3 & [(I3 & I4 & J2)|(I3 & E3)]); [|contradiction].
  assert (M1 : (g mod 3 < 3)%nat) by (apply Nat.mod_upper_bound; lia). assert (M2 : (sg g mod 3 < 3)%nat) by (apply Nat.mod_upper_bound; lia). assert (M3 : (sg (sg g) mod 3 < 3)%nat) by (apply Nat.mod_upper_bound; lia).
  assert (M4 : (g / 3 < K)%nat) by (apply Nat.div_lt_upper_bound; lia).
  assert (J' : joined EToV (sg g / 3) (sg g mod 3) (g / 3) (g mod 3)) by (apply (ends2 _ _ _ _ M1 M4 M2 J)).
  destruct (joined_unique _ _ _ _ _ HM _ _ _ _ _ _ M3 M1 J2 J') as (Q1 & Q2). transitivity (3 * (sg (sg g) / 3) + sg (sg g) mod 3)%nat; [apply Nat.div_mod; lia|]. rewrite Q1, Q2. symmetry. apply Nat.div_mod. lia.
Qed.

(* --- the trace inequality on an element --- *)
Lemma hinv_pos k f : (k < K)%nat -> (f < 3)%nat -> 0 < inverse_height Vert EToV k f.
Proof.
  intros Hk Hf. unfold inverse_height. apply Rdiv_lt_0_compat; [|apply HA; exact Hk]. apply sqrt_lt_R0. pose proof (side_ne K Vert EToV HA f k Hf Hk) as Hne.
  unfold dot, pminus. cbn [fst snd]. set (p := from_ Vert EToV k f) in *. set (q := to_ Vert EToV k f) in *. pose proof (Rle_0_sqr (fst q - fst p)). pose proof (Rle_0_sqr (snd q - snd p)). unfold Rsqr in *.
  destruct (Req_dec (fst q - fst p) 0) as [E1|E1]; [destruct (Req_dec (snd q - snd p) 0) as [E2|E2]|].
  - exfalso. apply Hne. rewrite (surjective_pairing p), (surjective_pairing q). f_equal; lra.
  - pose proof (Rsqr_pos_lt _ E2). unfold Rsqr in *. lra.
  - pose proof (Rsqr_pos_lt _ E1). unfold Rsqr in *. lra.
Qed.
Lemma phys_trace k f q v e : (k < K)%nat -> (f < 3)%nat -> degree2 N q -> eint k (fun x y => eval2 q x y * eval2 q x y) v ->
  sint k f (fun t => at_point q (sp k f t) * at_point q (sp k f t)) e -> e <= 2 * ((INR N + 1) * (INR N + 1)) * inverse_height Vert EToV k f * v.
Proof.
  intros Hk Hf Dq (i & Hi & ->) (j & Hj & ->). destruct (to_reference N Vert EToV k q Dq) as (w & Dw & Hw & _).
  assert (B : j <= 2 * ((INR N + 1) * (INR N + 1)) * i).
  { apply (trace N w f i j Hf Dw).
    - eapply tint_ext; [|exact Hi]. intros r s. unfold pulled. now rewrite Hw.
    - assert (Hx : forall t, eval2 w (fst (edge f t)) (snd (edge f t)) = at_point q (sp k f (match f with O => t | _ => - t end))) by (intro t; rewrite Hw, (edge_image K Vert EToV k Hk f t Hf); reflexivity).
      destruct f as [|f]; [eapply integral_ext; [|exact Hj]; intro t; cbv beta; rewrite Hx; reflexivity|]. eapply integral_ext; [|exact (integral_flip _ _ Hj)]. intro t. cbv beta. rewrite Hx. reflexivity. }
  pose proof (HA k Hk) as Ha. unfold inverse_height, from_, to_. set (L := side_length (P k f) (P k (next f))) in *. assert (HL : 0 <= L) by apply sqrt_pos.
  apply Rle_trans with (L / 2 * (2 * ((INR N + 1) * (INR N + 1)) * i)); [apply Rmult_le_compat_l; lra|]. right. field. lra.
Qed.
(* the pieces of a represented function are polynomials with their gradients *)
Lemma pieces u U k : rep u U -> (k < K)%nat -> exists p, degree2 N p /\ (forall x y, val U k x y = eval2 p x y) /\ (forall x y, ddx U k x y = eval2 (ddr p) x y) /\ (forall x y, ddy U k x y = eval2 (dds p) x y).
Proof.
  intros HU Hk. destruct (HU k Hk) as ((p & Dp & Hp) & H1 & H2 & _). exists p. split; [exact Dp|]. split; [exact Hp|]. split; intros x y.
  - eapply dr_unique; [|apply ddr_ok]. eapply dpl_ext; [|apply H1]. intro t. cbv beta. apply Hp.
  - eapply ds_unique; [|apply dds_ok]. eapply dpl_ext; [|apply H2]. intro t. cbv beta. apply Hp.
Qed.
Lemma along_poly u U k n : rep u U -> (k < K)%nat -> exists q, degree2 N q /\ forall A, along n U k A = at_point q A.
Proof.
  intros HU Hk. destruct (pieces u U k HU Hk) as (p & Dp & _ & Hx & Hy).
  destruct (tpoly_plus N (fun x y => fst n * eval2 (ddr p) x y) (fun x y => snd n * eval2 (dds p) x y)) as (q & Dq & Hq).
  - apply tpoly_scal. exists (ddr p). split; [apply ddr_deg; exact Dp|reflexivity].
  - apply tpoly_scal. exists (dds p). split; [apply dds_deg; exact Dp|reflexivity].
  - exists q. split; [exact Dq|]. intro A. unfold along, at_point. rewrite <- Hq, Hx, Hy. reflexivity.
Qed.
Lemma flux_bound u U k f n v e : rep u U -> (k < K)%nat -> (f < 3)%nat -> dot n n = 1 -> eint k (fun x y => ddx U k x y * ddx U k x y + ddy U k x y * ddy U k x y) v ->
  sint k f (fun t => along n U k (sp k f t) * along n U k (sp k f t)) e -> e <= 2 * ((INR N + 1) * (INR N + 1)) * inverse_height Vert EToV k f * v.
Proof.
  intros HU Hk Hf Hn Hv He. destruct (along_poly u U k n HU Hk) as (q & Dq & Hq). 
  destruct (to_reference N Vert EToV k q Dq) as (w & _ & Hw & _). destruct (poly_times w w) as (ww & Hww & _). destruct (tint_poly ww) as (i & Hi).
  assert (Hqi : eint k (fun x y => eval2 q x y * eval2 q x y) (area (P k 0) (P k 1) (P k 2) / 2 * i)).
  { exists i. split; [|reflexivity]. eapply tint_ext; [|exact Hi]. intros r s. unfold pulled. rewrite Hww, Hw. reflexivity. }
  pose proof (phys_trace k f q _ e Hk Hf Dq Hqi) as B. specialize (B ltac:(eapply side_integral_ext; [|exact He]; intro t; cbv beta; now rewrite Hq)).
  destruct Hv as (j & Hj & ->). pose proof (HA k Hk) as Ha. pose proof (hinv_pos k f Hk Hf) as Hh. eapply Rle_trans; [exact B|]. apply Rmult_le_compat_l.
  { apply Rmult_le_pos; [|lra]. apply Rmult_le_pos; [lra|]. apply Rle_0_sqr. }
  apply Rmult_le_compat_l; [lra|]. destruct Hqi as (i' & Hi' & Ei'). assert (i' = i) as -> by (apply (Rmult_eq_reg_l (area (P k 0) (P k 1) (P k 2) / 2)); lra).
  eapply tint_le; [|exact Hi'|exact Hj]. intros r s. unfold pulled. set (A := img k r s). pose proof (Hq A) as EA. unfold at_point in EA. rewrite <- EA. unfold along.
  set (a := ddx U k (fst A) (snd A)). set (b := ddy U k (fst A) (snd A)). unfold dot in Hn.
  assert (0 <= (fst n * b - snd n * a) * (fst n * b - snd n * a)) by apply Rle_0_sqr.
  replace (a * a + b * b) with ((a * a + b * b) * (fst n * fst n + snd n * snd n)) by (rewrite Hn; ring). lra.
Qed.
Lemma tau_bound k f k2 f2 : (k < K)%nat -> (f < 3)%nat -> (k2 < K)%nat -> (f2 < 3)%nat -> 0 < tau N Vert EToV k f k2 f2 /\
  20000 * ((INR N + 1) * (INR N + 1)) * inverse_height Vert EToV k f <= tau N Vert EToV k f k2 f2 /\ 20000 * ((INR N + 1) * (INR N + 1)) * inverse_height Vert EToV k2 f2 <= tau N Vert EToV k f k2 f2.
Proof.
  intros Hk Hf Hk2 Hf2. pose proof (hinv_pos k f Hk Hf) as H1. unfold tau. pose proof (pos_INR N) as HN.
  assert (Hc : 0 < 20000 * ((INR N + 1) * (INR N + 1))) by (apply Rmult_lt_0_compat; [lra|apply Rmult_lt_0_compat; lra]).
  replace (20000 * (INR N + 1) * (INR N + 1)) with (20000 * ((INR N + 1) * (INR N + 1))) by ring.
  pose proof (Rmax_l (inverse_height Vert EToV k f) (inverse_height Vert EToV k2 f2)). pose proof (Rmax_r (inverse_height Vert EToV k f) (inverse_height Vert EToV k2 f2)).
  split; [apply Rmult_lt_0_compat; lra|]. split; apply Rmult_le_compat_l; lra.
Qed.
(* over the penalty *)
Lemma flux_over u U k f n v e : rep u U -> (k < K)%nat -> (f < 3)%nat -> dot n n = 1 -> forall T, 0 < T -> 20000 * ((INR N + 1) * (INR N + 1)) * inverse_height Vert EToV k f <= T ->
  eint k (fun x y => ddx U k x y * ddx U k x y + ddy U k x y * ddy U k x y) v ->
  sint k f (fun t => along n U k (sp k f t) * along n U k (sp k f t)) e -> / T * e <= v / 10000.
Proof.
  intros HU Hk Hf Hn T HT HT' Hv He. pose proof (flux_bound u U k f n v e HU Hk Hf Hn Hv He) as B.
  assert (V0 : 0 <= v). { destruct Hv as (j & Hj & ->). pose proof (HA k Hk) as Ha. apply Rmult_le_pos; [lra|]. eapply tint_le; [|apply tint_zero|exact Hj]. intros r s. unfold pulled. cbv beta. apply Rplus_le_le_0_compat; apply Rle_0_sqr. }
  apply (Rmult_le_reg_l T); [exact HT|]. rewrite <- Rmult_assoc, Rinv_r, Rmult_1_l by lra. eapply Rle_trans; [exact B|].
  assert (20000 * ((INR N + 1) * (INR N + 1)) * inverse_height Vert EToV k f * v <= T * v) by (apply Rmult_le_compat_r; assumption). lra.
Qed.

Lemma side_flip p q (F : point -> R) e : side_integral p q (fun t => F (side_point p q t)) e -> side_integral q p (fun t => F (side_point q p t)) e.
Proof.
  intros (j & Hj & ->). exists j. split.
  - eapply integral_ext; [|exact (integral_flip _ _ Hj)]. intro t. cbv beta. rewrite (side_swap q p t). reflexivity.
  - f_equal. unfold side_length, dot, pminus. cbn [fst snd]. f_equal. f_equal. ring.
Qed.
Lemma side_sq_exists (F : point -> R) M p q : tpoly M (fun x y => F (x, y)) -> exists v, side_integral p q (fun t => F (side_point p q t) * F (side_point p q t)) v.
Proof.
  intro T. destruct (side_poly (M + M) _ p q (tpoly_mul M M _ _ T T)) as (v & Hv). exists v. eapply side_integral_ext; [|exact Hv]. intro t. cbv beta. now rewrite <- surjective_pairing.
Qed.
Lemma val_tpoly u U k : rep u U -> (k < K)%nat -> tpoly N (fun x y => val_at U k (x, y)).
Proof. intros HU Hk. destruct (pieces u U k HU Hk) as (p & Dp & Hp & _). exists p. split; [exact Dp|]. intros. apply Hp. Qed.
Lemma along_tpoly u U k n : rep u U -> (k < K)%nat -> tpoly N (fun x y => along n U k (x, y)).
Proof. intros HU Hk. destruct (along_poly u U k n HU Hk) as (p & Dp & Hp). exists p. split; [exact Dp|]. intros. apply Hp. Qed.
Lemma side_pos k f (F : point -> R) T e : 0 <= T -> sint k f (fun t => T * (F (sp k f t) * F (sp k f t))) e -> 0 <= e.
Proof.
  intros HT (j & Hj & ->). apply Rmult_le_pos; [apply Rmult_le_pos; [apply sqrt_pos|lra]|]. apply (integral_le (fun _ => 0) _ (-1) 1 0 j ltac:(lra)) with (3 := Hj); [|apply integral_zero].
  intros x Hx. apply Rmult_le_pos; [exact HT|apply Rle_0_sqr].
Qed.
Lemma vol_pos U k v : (k < K)%nat -> eint k (fun x y => ddx U k x y * ddx U k x y + ddy U k x y * ddy U k x y) v -> 0 <= v.
Proof.
  intros Hk (j & Hj & ->). pose proof (HA k Hk) as Ha. apply Rmult_le_pos; [lra|]. eapply tint_le; [|apply tint_zero|exact Hj]. intros r s. unfold pulled. cbv beta. apply Rplus_le_le_0_compat; apply Rle_0_sqr.
Qed.
Definition partner_of (k f k2 f2 : nat) : Prop := (inter k f /\ joined EToV k f k2 f2) \/ (~ inter k f /\ k2 = k /\ f2 = f).
Lemma side_low u U vol k f k2 f2 w : rep u U -> (forall k, (k < K)%nat -> eint k (fun x y => ddx U k x y * ddx U k x y + ddy U k x y * ddy U k x y) (vol k)) ->
  (k < K)%nat -> (f < 3)%nat -> (f2 < 3)%nat -> partner_of k f k2 f2 -> sides N K Vert EToV bcType (interior_density N Vert EToV) k f U U w ->
  exists es, side_energy N K Vert EToV bcType k f U es /\ 0 <= es /\ es / 2 - (vol k + vol k2) / 10000 <= w.
Proof.
  intros HU Hvol Hk Hf Hf2 HP (k3 & f3 & n & A1 & A2 & A3). cbv zeta in A3. destruct A3 as (Ad & An & Ai).
  assert (Hn : dot n n = 1) by apply A2. destruct A1 as (Hk3 & Hf3 & A1). destruct (tau_bound k f k3 f3 Hk Hf Hk3 Hf3) as (T0 & T1 & T2). set (T := tau N Vert EToV k f k3 f3) in *.
  pose proof (vol_pos U k (vol k) Hk (Hvol k Hk)) as V0.
  destruct (side_sq_exists (along n U k) N (P k f) (P k (next f)) (along_tpoly u U k n HU Hk)) as (ea & Hea).
  pose proof (flux_over u U k f n (vol k) ea HU Hk Hf Hn T T0 T1 (Hvol k Hk) Hea) as Fa.
  destruct (tag_cases bcType k f) as [Hd|[Hn'|Hi]].
  - assert (Hni : ~ inter k f) by (intros (Y & _); contradiction). destruct HP as [(Y & _)|(_ & -> & ->)]; [contradiction|].
    destruct (side_sq_exists (val_at U k) N (P k f) (P k (next f)) (val_tpoly u U k HU Hk)) as (ev & Hev).
    assert (Hes : sint k f (fun t => T * (val_at U k (sp k f t) * val_at U k (sp k f t))) (T * ev)) by (destruct Hev as (j & Hj & ->); exists (T * j); split; [apply integral_scal; exact Hj|ring]).
    exists (T * ev). split; [|split].
    + exists k3, f3. split; [split; [exact Hk3|split; [exact Hf3|exact A1]]|]. cbv zeta. split; [intros _; exact Hes|]. split; [intro Y; exfalso; unfold dirichlet, natural in *; rewrite Hd in Y; destruct Y; discriminate|intro Y; contradiction].
    + exact (side_pos k f (val_at U k) T _ (Rlt_le _ _ T0) Hes).
    + pose proof (side_integral_lin _ _ _ _ (/ 2) (- 2 / T) _ _ Hes Hea) as Hlow. assert (Hle : / 2 * (T * ev) + - 2 / T * ea <= w).
      { eapply side_integral_le; [|exact Hlow|exact (Ad Hd)]. intro t. cbv beta. unfold dirichlet_density, from_, to_. fold T. set (A := sp k f t). set (x := val_at U k A). set (a := along n U k A).
        assert (0 <= T / 2 * ((x - 2 * a / T) * (x - 2 * a / T))) by (apply Rmult_le_pos; [lra|apply Rle_0_sqr]).
        assert (E0 : T / 2 * ((x - 2 * a / T) * (x - 2 * a / T)) = T * (x * x) - a * x - a * x - (/ 2 * (T * (x * x)) + - 2 / T * (a * a))) by (field; lra). lra. }
      replace (- 2 / T * ea) with (-2 * (/ T * ea)) in Hle by (field; lra). lra.
  - assert (Hni : ~ inter k f) by (intros (_ & Y); contradiction). destruct HP as [(Y & _)|(_ & -> & ->)]; [contradiction|]. rewrite (An Hn').
    exists 0. split; [|split; lra]. exists k3, f3. split; [split; [exact Hk3|split; [exact Hf3|exact A1]]|]. cbv zeta. split; [intro Y; exfalso; unfold dirichlet, natural in *; rewrite Y in Hn'; destruct Hn'; discriminate|]. split; [reflexivity|intro Y; contradiction].
  - destruct HP as [(_ & J)|(Y & _)]; [|contradiction]. destruct (ends2 k f k2 f2 Hf Hk Hf2 J) as (Hk2 & E1 & E2 & J').
    assert (H3 : k3 = k2 /\ f3 = f2) by (eapply across_unique; [eassumption..|split; [exact Hk3|split; [exact Hf3|exact A1]]|split; [exact Hk2|split; [exact Hf2|left; exact J]]]). destruct H3 as (-> & ->).
    pose proof (vol_pos U k2 (vol k2) Hk2 (Hvol k2 Hk2)) as V2.
    destruct (side_sq_exists (along n U k2) N (P k f) (P k (next f)) (along_tpoly u U k2 n HU Hk2)) as (eb & Heb).
    assert (Heb' : sint k2 f2 (fun t => along n U k2 (sp k2 f2 t) * along n U k2 (sp k2 f2 t)) eb) by (rewrite E1, E2; apply (side_flip _ _ (fun A => along n U k2 A * along n U k2 A)); exact Heb).
    pose proof (flux_over u U k2 f2 n (vol k2) eb HU Hk2 Hf2 Hn T T0 T2 (Hvol k2 Hk2) Heb') as Fb.
    assert (TJ : tpoly N (fun x y => jump U k k2 (x, y))).
    { unfold jump. apply (tpoly_ext N (fun x y => val_at U k (x, y) + -1 * val_at U k2 (x, y))); [intros; ring|]. apply tpoly_plus; [exact (val_tpoly u U k HU Hk)|apply tpoly_scal; exact (val_tpoly u U k2 HU Hk2)]. }
    destruct (side_sq_exists (jump U k k2) N (P k f) (P k (next f)) TJ) as (ev & Hev).
    assert (Hes : sint k f (fun t => T / 4 * (jump U k k2 (sp k f t) * jump U k k2 (sp k f t))) (T / 4 * ev)) by (destruct Hev as (j & Hj & ->); exists (T / 4 * j); split; [apply integral_scal; exact Hj|ring]).
    exists (T / 4 * ev). split; [|split].
    + exists k2, f2. split; [split; [exact Hk2|split; [exact Hf2|left; exact J]]|]. cbv zeta. split; [intro Y; exfalso; exact (proj1 Hi Y)|]. split; [intro Y; exfalso; exact (proj2 Hi Y)|intros _; exact Hes].
    + refine (side_pos k f (jump U k k2) (T / 4) _ _ Hes). lra.
    + pose proof (side_integral_lin _ _ _ _ 1 1 _ _ Hea Heb) as Hab. pose proof (side_integral_lin _ _ _ _ (/ 2) (- 1 / T) _ _ Hes Hab) as Hlow. cbv beta in Hlow.
      assert (Hle : / 2 * (T / 4 * ev) + - 1 / T * (1 * ea + 1 * eb) <= w).
      { eapply side_integral_le; [|exact Hlow|exact (Ai Hi)]. intro t. cbv beta. unfold interior_density, mean, from_, to_. fold T. set (A := sp k f t). set (x := jump U k k2 A). set (a := along n U k A). set (b := along n U k2 A).
        assert (0 <= T / 8 * ((x - 2 * (a + b) / T) * (x - 2 * (a + b) / T))) by (apply Rmult_le_pos; [lra|apply Rle_0_sqr]).
        assert (0 <= / (2 * T) * ((a - b) * (a - b))) by (apply Rmult_le_pos; [left; apply Rinv_0_lt_compat; lra|apply Rle_0_sqr]).
        assert (E0 : T / 8 * ((x - 2 * (a + b) / T) * (x - 2 * (a + b) / T)) + / (2 * T) * ((a - b) * (a - b)) = / 2 * (T / 2 * (x * x) - (a + b) / 2 * x - (a + b) / 2 * x) - (/ 2 * (T / 4 * (x * x)) + - 1 / T * (1 * (a * a) + 1 * (b * b)))) by (field; lra). lra. }
      replace (- 1 / T * (1 * ea + 1 * eb)) with (- (/ T * ea) - / T * eb) in Hle by (field; lra). lra.
Qed.

(* the form bounds the energy *)
Lemma coercive u U w : consistent_tags K EToV bcType -> rep u U -> penalty_form N K Vert EToV bcType U U w ->
  exists vol sd, (forall k, (k < K)%nat -> eint k (fun x y => ddx U k x y * ddx U k x y + ddy U k x y * ddy U k x y) (vol k) /\ 0 <= vol k) /\
  (forall k f, (k < K)%nat -> (f < 3)%nat -> side_energy N K Vert EToV bcType k f U (sd k f) /\ 0 <= sd k f) /\
  sumn K (fun k => vol k + (sd k 0%nat + sd k 1%nat + sd k 2%nat)) / 2 <= w.
Proof.
  intros HC HU (vol & sd & A1 & A2 & ->). destruct (partner HC) as (sg & Hsg).
  assert (HP : forall g, (g < 3 * K)%nat -> exists es, side_energy N K Vert EToV bcType (g / 3) (g mod 3) U es /\ 0 <= es /\ es / 2 - (vol (g / 3)%nat + vol (sg g / 3)%nat) / 10000 <= sd (g / 3)%nat (g mod 3)%nat).
  { intros g Hg. assert (B1 : (g / 3 < K)%nat) by (apply Nat.div_lt_upper_bound; lia). assert (B2 : (g mod 3 < 3)%nat) by (apply Nat.mod_upper_bound; lia). destruct (Hsg g Hg) as (C1 & C2 & C3).
    apply (side_low u U vol (g / 3) (g mod 3) (sg g / 3) (sg g mod 3)); try assumption; [apply Nat.mod_upper_bound; lia| |apply A2; assumption].
    destruct C3 as [(I1 & _ & J)|(I1 & E0)]; [left; auto|right; rewrite E0; auto]. }
  destruct (finite_choice 0 (3 * K) _ HP) as (es & Hes).
  exists vol, (fun k f => es (3 * k + f)%nat). split; [intros k Hk; split; [apply A1; exact Hk|exact (vol_pos U k _ Hk (A1 k Hk))]|]. split.
  { intros k f Hk Hf. destruct (Hes (3 * k + f)%nat ltac:(lia)) as (B1 & B2 & _). destruct (d3 k f Hf) as (Ek & Ef). rewrite Ek, Ef in B1. auto. }
  assert (Hz : sumn (3 * K) (fun g => vol (sg g / 3)%nat - vol (g / 3)%nat) = 0).
  { apply (sumn_invol (3 * K) _ sg). intros g Hg. destruct (Hsg g Hg) as (C1 & C2 & _). split; [exact C1|]. split; [exact C2|]. rewrite C2. ring. }
  assert (Hle : 0 <= sumn (3 * K) (fun g => sd (g / 3)%nat (g mod 3)%nat - (es g / 2 - (vol (g / 3)%nat + vol (sg g / 3)%nat) / 10000))).
  { apply sumn_nonneg. intros g Hg. destruct (Hes g Hg) as (_ & _ & B). lra. }
  assert (Hv : 0 <= sumn K vol) by (apply sumn_nonneg; intros k Hk; exact (vol_pos U k _ Hk (A1 k Hk))).
  rewrite (sumn_ext (3 * K) _ (fun g => (sd (g / 3)%nat (g mod 3)%nat - es g / 2 + 2 / 10000 * vol (g / 3)%nat) + / 10000 * (vol (sg g / 3)%nat - vol (g / 3)%nat))) in Hle by (intros; field).
  rewrite sumn_plus, sumn_scal, Hz, Rmult_0_r, Rplus_0_r, sumn_three in Hle.
  rewrite (sumn_ext K _ (fun k => (sd k 0%nat + sd k 1%nat + sd k 2%nat) + (- / 2 * (es (3 * k + 0)%nat + es (3 * k + 1)%nat + es (3 * k + 2)%nat) + 6 / 10000 * vol k))) in Hle.
  2: { intros k Hk. destruct (d3 k 0 ltac:(lia)) as (Ea & Eb), (d3 k 1 ltac:(lia)) as (Ec & Ed), (d3 k 2 ltac:(lia)) as (Ee & Ef). rewrite Nat.add_0_r in Ea, Eb. rewrite Ea, Eb, Ec, Ed, Ee, Ef, Nat.add_0_r. field. }
  match type of Hle with 0 <= ?S => assert (E0 : sumn K (fun k => vol k + (sd k 0%nat + sd k 1%nat + sd k 2%nat)) = / 2 * sumn K (fun k => vol k + (es (3 * k + 0)%nat + es (3 * k + 1)%nat + es (3 * k + 2)%nat)) + (S + (/ 2 - 6 / 10000) * sumn K vol)) end.
  { rewrite <- !sumn_scal, <- !sumn_plus. apply sumn_ext. intros; field. }
  rewrite E0. lra.
Qed.

(* --- the kernel --- *)
Lemma flat_line f a b : (forall x, derivable_pt_lim f x 0) -> f a = f b.
Proof.
  intro H. assert (I1 : integral_is (fun _ => 0) a b (f b - f a)) by (exists f; split; [exact H|reflexivity]). pose proof (integral_unique _ _ _ _ _ I1 (integral_zero a b)). lra.
Qed.
Lemma grad_zero k q j : (k < K)%nat -> degree2 N q -> triangle_integral (pulled (P k 0) (P k 1) (P k 2) (fun x y => eval2 q x y * eval2 q x y)) j -> j <= 0 -> forall x y, at_point q (img k x y) = 0.
Proof.
  intros Hk Dq Hj Hz. assert (S : 0 <= j /\ (j = 0 -> forall x y, at_point q (img k x y) = 0)) by (eapply square_int; eassumption). destruct S as (S1 & S2). apply S2. lra.
Qed.
Lemma pulled_sq_exists k q : degree2 N q -> exists j, triangle_integral (pulled (P k 0) (P k 1) (P k 2) (fun x y => eval2 q x y * eval2 q x y)) j.
Proof.
  intro Dq. destruct (to_reference N Vert EToV k q Dq) as (w & _ & Hw & _). destruct (poly_times w w) as (ww & Hww & _). destruct (tint_poly ww) as (i & Hi). exists i.
  eapply tint_ext; [|exact Hi]. intros r s. unfold pulled. rewrite Hww, Hw. reflexivity.
Qed.
Lemma flat u U k : rep u U -> (k < K)%nat -> eint k (fun x y => ddx U k x y * ddx U k x y + ddy U k x y * ddy U k x y) 0 -> exists c, forall x y, val_at U k (img k x y) = c.
Proof.
  intros HU Hk (j & Hj & E0). pose proof (HA k Hk) as Ha. assert (Ej : j = 0) by (symmetry in E0; apply Rmult_integral in E0; destruct E0; lra). subst j. clear E0.
  destruct (pieces u U k HU Hk) as (p & Dp & Hp & Hx & Hy).
  assert (Z1 : forall x y, at_point (ddr p) (img k x y) = 0).
  { destruct (pulled_sq_exists k (ddr p) (ddr_deg N p Dp)) as (i & Hi). apply (grad_zero k (ddr p) i Hk (ddr_deg N p Dp) Hi). eapply tint_le; [|exact Hi|exact Hj]. intros r s. unfold pulled. rewrite <- !Hx. pose proof (Rle_0_sqr (ddy U k (fst (img k r s)) (snd (img k r s)))) as S0. unfold Rsqr in S0. lra. }
  assert (Z2 : forall x y, at_point (dds p) (img k x y) = 0).
  { destruct (pulled_sq_exists k (dds p) (dds_deg N p Dp)) as (i & Hi). apply (grad_zero k (dds p) i Hk (dds_deg N p Dp) Hi). eapply tint_le; [|exact Hi|exact Hj]. intros r s. unfold pulled. rewrite <- !Hy. pose proof (Rle_0_sqr (ddx U k (fst (img k r s)) (snd (img k r s)))) as S0. unfold Rsqr in S0. lra. }
  destruct (to_reference N Vert EToV k p Dp) as (w & _ & Hw & Hr & Hs). exists (eval2 w 0 0). intros x y. unfold val_at. rewrite Hp. change (at_point p (img k x y) = eval2 w 0 0). rewrite <- Hw.
  transitivity (eval2 w 0 y).
  - apply (flat_line (fun t => eval2 w t y)). intro t. assert (Et : eval2 (ddr w) t y = 0) by (rewrite Hr, Z1, Z2; ring). rewrite <- Et. apply (ddr_ok w).
  - apply (flat_line (fun t => eval2 w 0 t)). intro t. assert (Et : eval2 (dds w) 0 t = 0) by (rewrite Hs, Z1, Z2; ring). pose proof (dds_ok w 0 t) as Hd. rewrite Et in Hd. exact Hd.
Qed.
Lemma on_side k f t : (k < K)%nat -> (f < 3)%nat -> exists x y, sp k f t = img k x y.
Proof.
  intros Hk Hf. pose proof (edge_image K Vert EToV k Hk f (match f with O => t | _ => - t end) Hf) as Ei. exists (fst (edge f (match f with O => t | _ => - t end))), (snd (edge f (match f with O => t | _ => - t end))). rewrite Ei.
  destruct f; [reflexivity|]. rewrite Ropp_involutive. reflexivity.
Qed.
Lemma side_const k f g T c : (k < K)%nat -> (f < 3)%nat -> 0 < T -> (forall t, g t = c) -> sint k f (fun t => T * (g t * g t)) 0 -> c = 0.
Proof.
  intros Hk Hf HT Hg (j & Hj & E0). pose proof (hinv_pos k f Hk Hf) as Hh. unfold inverse_height, from_, to_ in Hh. pose proof (HA k Hk) as Ha.
  assert (HL : 0 < side_length (P k f) (P k (next f))). { apply (Rmult_lt_reg_r (/ area (P k 0) (P k 1) (P k 2))); [apply Rinv_0_lt_compat; exact Ha|]. rewrite Rmult_0_l. exact Hh. }
  assert (Ej : j = 0) by (symmetry in E0; apply Rmult_integral in E0; destruct E0; lra). subst j.
  assert (I1 : integral_is (fun t => T * (g t * g t)) (-1) 1 (T * (c * c) * 2)). { apply (integral_ext (fun _ => T * (c * c) * 1)); [intro t; rewrite Hg; ring|]. apply (integral_scal (T * (c * c)) (fun _ => 1)). exists (fun t => t). split; [intro; apply derivable_pt_lim_id|ring]. }
  pose proof (integral_unique _ _ _ _ _ Hj I1) as Ez. assert (Ez' : c * c = 0) by (symmetry in Ez; apply Rmult_integral in Ez; destruct Ez as [Ez|Ez]; [apply Rmult_integral in Ez; destruct Ez; lra|lra]). apply Rsqr_0_uniq. exact Ez'.
Qed.
Lemma kernel u U : consistent_tags K EToV bcType -> rep u U -> penalty_form N K Vert EToV bcType U U 0 ->
  exists c : nat -> R, (forall k i, (k < K)%nat -> (i < Np)%nat -> u (Np * k + i)%nat = c k) /\
  (forall k f k2 f2, (k < K)%nat -> (f < 3)%nat -> (f2 < 3)%nat -> inter k f -> joined EToV k f k2 f2 -> c k = c k2) /\ (forall k f, (k < K)%nat -> (f < 3)%nat -> dirich k f -> c k = 0).
Proof.
  intros HC HU HF. destruct (coercive u U 0 HC HU HF) as (vol & sd & Hv & Hs & Hle).
  assert (H0 : forall k, (k < K)%nat -> 0 <= vol k + (sd k 0%nat + sd k 1%nat + sd k 2%nat)). { intros k Hk. pose proof (proj2 (Hv k Hk)). pose proof (proj2 (Hs k 0%nat Hk ltac:(lia))). pose proof (proj2 (Hs k 1%nat Hk ltac:(lia))). pose proof (proj2 (Hs k 2%nat Hk ltac:(lia))). lra. }
  pose proof (sumn_nonneg K _ H0) as Hsum. pose proof (sumn_nonneg_0 K _ H0 ltac:(lra)) as Hz. cbv beta in Hz.
  assert (Hz' : forall k, (k < K)%nat -> vol k = 0 /\ forall f, (f < 3)%nat -> sd k f = 0).
  { intros k Hk. pose proof (proj2 (Hv k Hk)). pose proof (proj2 (Hs k 0%nat Hk ltac:(lia))). pose proof (proj2 (Hs k 1%nat Hk ltac:(lia))). pose proof (proj2 (Hs k 2%nat Hk ltac:(lia))). pose proof (Hz k Hk). split; [lra|]. intros [|[|[|f]]] Hf; [lra|lra|lra|lia]. }
  destruct (finite_choice 0 K (fun k c => forall x y, val_at U k (img k x y) = c)) as (c & Hc).
  { intros k Hk. apply (flat u U k HU Hk). rewrite <- (proj1 (Hz' k Hk)). apply (Hv k Hk). }
  exists c. split; [|split].
  - intros k i Hk Hi. destruct (HU k Hk) as (_ & _ & _ & Hn). rewrite <- (Hn i Hi). erewrite phys by eassumption. apply (Hc k Hk).
  - intros k f k2 f2 Hk Hf Hf2 Hi J. destruct (ends2 k f k2 f2 Hf Hk Hf2 J) as (Hk2 & E1 & E2 & J'). destruct (Hs k f Hk Hf) as ((k3 & f3 & A1 & _ & _ & A3) & _).
    assert (H3 : k3 = k2 /\ f3 = f2) by (eapply across_unique; [eassumption..|exact A1|split; [exact Hk2|split; [exact Hf2|left; exact J]]]). destruct H3 as (-> & ->).
    destruct (tau_bound k f k2 f2 Hk Hf Hk2 Hf2) as (T0 & _). pose proof (A3 Hi) as B. rewrite (proj2 (Hz' k Hk) f Hf) in B. unfold from_, to_ in B.
    apply Rminus_diag_uniq. apply (side_const k f (fun t => jump U k k2 (sp k f t)) (tau N Vert EToV k f k2 f2 / 4) (c k - c k2) Hk Hf ltac:(lra)); [|exact B]. intro t. unfold jump. f_equal.
    + destruct (on_side k f t Hk Hf) as (x & y & ->). apply (Hc k Hk).
    + f_equal. rewrite (side_swap (P k f) (P k (next f)) t). rewrite <- E1, <- E2. destruct (on_side k2 f2 (- t) Hk2 Hf2) as (x & y & ->). apply (Hc k2 Hk2).
  - intros k f Hk Hf Hd. destruct (Hs k f Hk Hf) as ((k3 & f3 & A1 & A2 & _) & _). destruct A1 as (Hk3 & Hf3 & _). destruct (tau_bound k f k3 f3 Hk Hf Hk3 Hf3) as (T0 & _). pose proof (A2 Hd) as B. rewrite (proj2 (Hz' k Hk) f Hf) in B. unfold from_, to_ in B.
    apply (side_const k f (fun t => val_at U k (sp k f t)) _ (c k) Hk Hf T0) with (2 := B). intro t. destruct (on_side k f t Hk Hf) as (x & y & ->). apply (Hc k Hk).
Qed.
Lemma linked_eq (c : nat -> R) : (forall k f k2 f2, (k < K)%nat -> (f < 3)%nat -> (f2 < 3)%nat -> inter k f -> joined EToV k f k2 f2 -> c k = c k2) -> forall k k', linked K EToV bcType k k' -> c k = c k'.
Proof. intros H k k' HL. induction HL as [|k f k2 f2 k3 Hk Hf Hf2 J Hi _ IH]; [reflexivity|]. rewrite <- IH. exact (H k f k2 f2 Hk Hf Hf2 Hi J). Qed.
End Form.
