(* GaussPoissonProps.v - C87: the Poisson operator assembled with cubature and Gauss face nodes. *)
From Coq Require Import ZArith List Lia Bool Arith.
From Verif Require Import Base Loops Num JacobiModel JacobiSpec JacobiQuadProofs JacobiExactProofs JacobiOrthProofs JacobiProps DenseSpec TriModel TriSpec TriGeoSpec TriSetup TriProofs TriOpProofs TriLiftProofs TriElemProofs TriWitness TriDGSpec TriDGProofs
  MeshSpec GmresExactProofs TriMapsProps CscModel CscSpec SwSpec PoissonModel PoissonSpec GaussFaceModel GaussFaceSpec GaussRuleProofs GaussFaceProofs GaussFaceProps CubModel CubSpec CubMeshModel CubMeshSpec CubMeshProofs CubMeshProps
  GaussPoissonModel GaussPoissonSpec GaussPoissonProofs.
From Coq Require Import Reals Lra.
Import ListNotations.
Local Open Scope R_scope.

Section C87.
Variables (G : R -> R) (solve : mat R -> mat R -> mat R -> outcome (mat R)) (inverse chol : mat R -> mat R -> outcome (mat R))
  (junk : nat -> nat -> R) (eps : R) (eig : nat -> (nat -> nat -> R) -> list R * (nat -> nat -> R)) (tol : R)
  (N K : nat) (Vert : list R) (EToV : list nat) (el : element (T := R)) (E2E E2F : list nat) (bc : list Z) (NG : nat) (lit : Z -> R) (NC : nat)
  (junkg : nat -> nat -> gpoint R) (junkn : nat -> nat) (junkc : nat -> R) (gf : gauss_faces R) (cc : cub_mesh R) (jk : nat * R) (s : poisson R).
Local Notation ready := (gp_ready G solve inverse chol junk eps eig tol N K Vert EToV el E2E E2F bc NG lit NC junkg junkn junkc gf cc).
Local Notation Np := (length (e_r el)).
Local Notation tables := (GPTables (e_Dr el) (e_Ds el) (e_x el) (e_y el) (e_Fscale el) gf cc E2E E2F bc).
Local Notation run := (gauss_build (exact G) eps jk tables 3 NG Np (S N) K N).
Local Notation dof := (Np * K)%nat.
Local Notation represents := (represents N Np K (e_x el) (e_y el)).
Local Notation area_ := (cell_area Vert EToV).
Local Notation len k f := (side_length (from_ Vert EToV k f) (to_ Vert EToV k f)).
Local Notation EV := (map Z.of_nat EToV).

(* The assembly never goes wrong; it ends in the two sparse matrices, or throws, and it throws only if an element is too
   small on the scale of eps. *)
Theorem C87_builds : ready -> (run = Throw /\ ~ resolved eps K Vert EToV el) \/
  exists s, run = Ok s /\ valid (OP_ s) /\ valid (MM_ s) /\ rows (OP_ s) = dof /\ cols (OP_ s) = dof /\ rows (MM_ s) = dof /\ cols (MM_ s) = dof.
Proof.
  intro HR. destruct (gp_build _ _ _ _ _ _ _ _ _ _ _ _ _ _ _ _ _ _ _ _ _ _ _ _ HR jk) as [X|(s' & E & H)]; [left; exact X|]. right. exists s'. tauto.
Qed.

(* The form it represents, and the mass matrix. *)
Theorem C87_form : ready -> run = Ok s -> forall u v U V, represents u U -> represents v V ->
  quadratic dof (OP_ s) v u = operator_form N K Np NG Vert EToV E2E E2F bc gf cc u v U V.
Proof.
  intros HR Hs u v U V HU HV. destruct (gp_build _ _ _ _ _ _ _ _ _ _ _ _ _ _ _ _ _ _ _ _ _ _ _ _ HR jk) as [(X & _)|(s' & E & _ & _ & _ & _ & _ & _ & H)]; [congruence|]. rewrite Hs in E. injection E as <-. apply H; assumption.
Qed.
Theorem C87_mass : ready -> run = Ok s -> forall u v U V, represents u U -> represents v V ->
  quadratic dof (MM_ s) v u = sumn K (mass_form cc U V).
Proof.
  intros HR Hs u v U V HU HV. destruct (gp_build _ _ _ _ _ _ _ _ _ _ _ _ _ _ _ _ _ _ _ _ _ _ _ _ HR jk) as [(X & _)|(s' & E & _ & _ & _ & _ & _ & _ & H)]; [congruence|]. rewrite Hs in E. injection E as <-. apply H; assumption.
Qed.

(* every vector is that of a piecewise polynomial *)
Lemma pick (u : nat -> R) : ready -> exists U, represents u U.
Proof.
  intro HR. pose proof (gp_built _ _ _ _ _ _ _ _ _ _ _ _ _ _ _ _ _ _ _ _ _ _ _ _ HR) as HB.
  assert (HP : forall k, exists p, (k < K)%nat -> degree2 N p /\ forall i, (i < Np)%nat -> eval2 p (ment (e_x el) i k) (ment (e_y el) i k) = u (Np * k + i)%nat).
  { intro k. destruct (Nat.lt_ge_cases k K) as [Hk|]; [|exists []; lia]. destruct (nodal_poly _ _ _ _ _ _ _ _ _ _ _ _ HB (fun i => u (Np * k + i)%nat)) as (p & Dp & Hp).
    assert (HA : area_ k <> 0) by (destruct HR as [_ [_ _ HA _ _] _ _ _ _ _]; auto).
    (* the inverse of the map to the reference triangle is affine *)
    set (a := TriGeoSpec.corner Vert EToV k 0) in *. set (b := TriGeoSpec.corner Vert EToV k 1) in *. set (c := TriGeoSpec.corner Vert EToV k 2) in *.
    set (d := 2 * area a b c). assert (Hd : d <> 0) by (unfold d; unfold cell_area in HA; fold a b c in HA; lra).
    set (rx := 2 * (snd c - snd a) / d). set (ry := - (2 * (fst c - fst a)) / d). set (sx := - (2 * (snd b - snd a)) / d). set (sy := 2 * (fst b - fst a) / d).
    destruct (comp_poly N p (- 1 - rx * fst a - ry * snd a) rx ry (- 1 - sx * fst a - sy * snd a) sx sy Dp) as (w & Dw & Hw). exists w. intros _. split; [exact Dw|]. intros i Hi. rewrite <- Hp by exact Hi. rewrite <- Hw.
    assert (HX : (ment (e_x el) i k, ment (e_y el) i k) = affine_image a b c (nth i (e_r el) 0) (nth i (e_s el) 0)) by (destruct HR as [_ HC _ _ _ _ _]; exact (node_xy _ _ _ _ _ _ _ _ _ _ _ _ _ _ _ HC k Hk i Hi)).
    clearbody a b c. unfold affine_image in HX. injection HX as -> ->. unfold rx, ry, sx, sy, d, area, TriGeoSpec.cross, pminus in *. cbn [fst snd] in *. f_equal; field; lra. }
  assert (HC : exists F : nat -> poly2, forall k, (k < K)%nat -> degree2 N (F k) /\ forall i, (i < Np)%nat -> eval2 (F k) (ment (e_x el) i k) (ment (e_y el) i k) = u (Np * k + i)%nat).
  { clear - HP. induction K as [|m IH]; [exists (fun _ => []); lia|]. destruct IH as (F & HF); [intro k; destruct (HP k) as (p & Hp); exists p; intro; apply Hp; lia|]. destruct (HP m) as (p & Hp).
    exists (fun k => if (k =? m)%nat then p else F k). intros k Hk. destruct (Nat.eqb_spec k m) as [-> |]; [apply Hp; lia|apply HF; lia]. }
  destruct HC as (F & HF). exists (Piecewise (fun k => eval2 (F k)) (fun k => eval2 (ddr (F k))) (fun k => eval2 (dds (F k)))). intros k Hk. destruct (HF k Hk) as (D & Hn). cbn [val ddx ddy]. split; [exists (F k); auto|].
  split; [intros; apply ddr_ok|]. split; [intros; apply dds_ok|]. intros i Hi. unfold val_at. cbn [val node_at fst snd]. apply Hn, Hi.
Qed.

(* With natural conditions on every side nothing but the volume part is left: symmetric, not negative, blind to constants. *)
Theorem C87_natural : ready -> run = Ok s -> over_sides K (natural bc) ->
  (forall u v U V, represents u U -> represents v V -> quadratic dof (OP_ s) v u = sumn K (volume_form cc U V)) /\
  (forall u v, quadratic dof (OP_ s) v u = quadratic dof (OP_ s) u v) /\ (forall u, 0 <= quadratic dof (OP_ s) u u) /\ forall v, quadratic dof (OP_ s) v (fun _ => 1) = 0.
Proof.
  intros HR Hs Hn.
  assert (HF : forall u v U V, represents u U -> represents v V -> quadratic dof (OP_ s) v u = sumn K (volume_form cc U V)).
  { intros u v U V HU HV. rewrite (C87_form HR Hs u v U V HU HV). unfold operator_form. apply sumn_ext. intros k Hk. rewrite (sumn_zero 3); [ring|]. intros f Hf. unfold side_form. cbv zeta. destruct (Hn k f Hk Hf) as [-> | ->]; reflexivity. }
  split; [exact HF|]. split; [|split].
  - intros u v. destruct (pick u HR) as (U & HU). destruct (pick v HR) as (V & HV). rewrite (HF u v U V), (HF v u V U) by assumption. apply sumn_ext. intros k Hk. unfold volume_form. apply sumn_ext. intros; ring.
  - intro u. destruct (pick u HR) as (U & HU). rewrite (HF u u U U) by assumption. apply sumn_nonneg. intros k Hk. apply sumn_nonneg. intros i Hi.
    assert (HW : 0 < ment (cc_W cc) i k).
    { pose proof (gp_area _ _ _ _ _ _ _ _ _ _ _ _ _ _ _ _ _ _ _ _ _ _ _ _ HR k Hk) as HA. destruct HR as [_ HC _ Hcc _ _ _]. apply (C86_quadrature _ _ _ _ _ _ _ _ _ _ _ _ _ _ _ _ _ HC Hcc k Hk); assumption. }
    apply Rmult_le_pos; [lra|]. apply Rplus_le_le_0_compat; apply Rle_0_sqr.
  - intro v. destruct (pick v HR) as (V & HV).
    assert (H1 : represents (fun _ => 1) (Piecewise (fun _ _ _ => 1) (fun _ _ _ => 0) (fun _ _ _ => 0))).
    { intros k Hk. cbn [val ddx ddy]. split; [exists [(0%nat, 0%nat, 1)]; split; [apply Forall_cons; [cbn; lia|apply Forall_nil]|]; intros; cbn; ring|]. split; [|split; [|reflexivity]]; intros x y; unfold dr_is, ds_is; apply derivable_pt_lim_const. }
    rewrite (HF _ _ _ _ H1 HV). apply sumn_zero. intros k Hk. unfold volume_form. apply sumn_zero. intros i Hi. unfold along. cbn [ddx ddy]. ring.
Qed.

Lemma two_integral : integral_is (peval [1]) (-1) 1 2.
Proof. exists id. split; [|unfold id; ring]. intro x. replace (peval [1] x) with 1 by (cbn; ring). apply derivable_pt_lim_id. Qed.
(* the weights of a side add up to its length, and its normal is the rotated edge over the length *)
Lemma side_geo k f : ready -> (k < K)%nat -> (f < 3)%nat -> let p := from_ Vert EToV k f in let q := to_ Vert EToV k f in
  0 < side_length p q /\ (forall c, side_sum NG gf k f (fun _ => c) = c * side_length p q) /\
  forall g, (g < NG)%nat -> gauss_normal NG gf k f g = ((snd q - snd p) / side_length p q, - (fst q - fst p) / side_length p q).
Proof.
  intros HR Hk Hf p q. destruct (gp_rf _ _ _ _ _ _ _ _ _ _ _ _ _ _ _ _ _ _ _ _ _ _ _ _ HR) as (z & w & RU & RF). pose proof (gp_area _ _ _ _ _ _ _ _ _ _ _ _ _ _ _ _ _ _ _ _ _ _ _ _ HR k Hk) as HA.
  set (a := TriGeoSpec.corner Vert EToV k 0) in *. set (b := TriGeoSpec.corner Vert EToV k 1) in *. set (c := TriGeoSpec.corner Vert EToV k 2) in *. change (0 < area a b c) in HA.
  assert (HA' : area a b c <> 0) by lra.
  destruct (geo_normal G a b c HA' f p q (match f with O => c | 1%nat => a | _ => b end) Hf) as (_ & E1 & E2).
  1: destruct f as [|[|[|]]]; [| | |lia]; reflexivity. 1: destruct f as [|[|[|]]]; [| | |lia]; reflexivity. 1: reflexivity.
  cbv zeta in E1, E2. destruct (E2 HA) as (L0 & NX & NY). clear E2. destruct (Rlt_dec 0 (area a b c)) as [_|]; [|contradiction]. rewrite Rmult_1_l in E1. split; [exact L0|]. split.
  - intro d. unfold side_sum, gauss_weight. rewrite (sumn_ext NG _ (fun g => (d * (side_length p q / 2)) * (nth g w 0 * peval [1] (nth g z 0)))).
    + rewrite sumn_scal. assert (NG0 : (1 <= NG)%nat) by (destruct HR as [[_ _ _ H _] _ _ _ _ _ _]; exact H).
      rewrite (integral_unique _ _ _ _ _ (ru_exact _ _ _ RU [1] ltac:(cbn; lia)) (two_integral)). field.
    + intros g Hg. rewrite (rf_W _ _ _ _ _ _ _ _ _ _ _ _ _ _ RF f k g Hf Hk Hg). unfold geo. fold a b c. rewrite E1. cbn. ring.
  - intros g Hg. unfold gauss_normal. pose proof (rf_geo _ _ _ _ _ _ _ _ _ _ _ _ _ _ RF f k g Hf Hk Hg) as X. cbv zeta in X. unfold geo in X. fold a b c in X. rewrite <- X in NX, NY. cbn [p_nx p_ny] in NX, NY. rewrite NX, NY. reflexivity.
Qed.

(* a piecewise polynomial is that of the vector of its values *)
Definition sampled (U : piecewise) (m : nat) : R := val_at U (m / Np) (node_at (e_x el) (e_y el) (m mod Np) (m / Np)).
Lemma sampled_ok U : ready ->
  (forall k, (exists p, degree2 N p /\ forall X Y, val U k X Y = eval2 p X Y) /\ (forall X Y, dr_is (val U k) X Y (ddx U k X Y)) /\ (forall X Y, ds_is (val U k) X Y (ddy U k X Y))) -> represents (sampled U) U.
Proof.
  intros HR H k Hk. destruct (H k) as (A & B & C). split; [exact A|]. split; [exact B|]. split; [exact C|]. intros i Hi. unfold sampled.
  replace ((Np * k + i) / Np)%nat with k by (rewrite (Nat.mul_comm Np), Nat.div_add_l by lia; rewrite Nat.div_small by exact Hi; lia).
  replace ((Np * k + i) mod Np)%nat with i by (rewrite (Nat.mul_comm Np), Nat.add_comm, Nat.mod_add by lia; rewrite Nat.mod_small by exact Hi; reflexivity). reflexivity.
Qed.
Lemma Np_big : ready -> (3 <= Np)%nat.
Proof.
  intro HR. pose proof (gp_built _ _ _ _ _ _ _ _ _ _ _ _ _ _ _ _ _ _ _ _ _ _ _ _ HR) as HB. destruct (element_ok _ _ _ _ _ _ _ _ _ _ _ _ HB) as [lr _ _ _ _ _ _ _ _ _ _ _ _ _ _ _ _].
  destruct HB. rewrite lr. pose proof (modes_length N). nia.
Qed.
Lemma tau_pos k f k2 f2 : ready -> (k < K)%nat -> (f < 3)%nat -> 0 < tau N Vert EToV k f k2 f2.
Proof.
  intros HR Hk Hf. destruct (side_geo k f HR Hk Hf) as (L & _). pose proof (gp_area _ _ _ _ _ _ _ _ _ _ _ _ _ _ _ _ _ _ _ _ _ _ _ _ HR k Hk) as HA.
  assert (0 < inverse_height Vert EToV k f) by (apply Rdiv_lt_0_compat; [exact L|exact HA]). unfold tau. pose proof (Rmax_l (inverse_height Vert EToV k f) (inverse_height Vert EToV k2 f2)). pose proof (pos_INR N).
  repeat apply Rmult_lt_0_compat; lra.
Qed.

(* What the constant function meets: twice the same 1 as trial and as test function. *)
Definition ones_side (k f : nat) : R := let t := tau N Vert EToV k f (nb E2E k f) (nbf E2F k f) in
  if (tag_of bc k f =? 6)%Z then (t - 1) * len k f
  else if (tag_of bc k f =? 7)%Z || (tag_of bc k f =? 3)%Z then 0 else - (t / 2 * (INR Np * INR Np - 1) * len k f).
Theorem C87_ones : ready -> run = Ok s -> quadratic dof (OP_ s) (fun _ => 1) (fun _ => 1) = sumn K (fun k => sumn 3 (ones_side k)).
Proof.
  intros HR Hs.
  set (U1 := Piecewise (fun _ _ _ => 1) (fun _ _ _ => 0) (fun _ _ _ => 0)).
  assert (H1 : represents (fun _ => 1) U1).
  { intros k Hk. cbn [val ddx ddy U1]. split; [exists [(0%nat, 0%nat, 1)]; split; [apply Forall_cons; [cbn; lia|apply Forall_nil]|]; intros; cbn; ring|]. split; [|split; [|reflexivity]]; intros x y; unfold dr_is, ds_is; apply derivable_pt_lim_const. }
  rewrite (C87_form HR Hs _ _ _ _ H1 H1). unfold operator_form. apply sumn_ext. intros k Hk. rewrite <- (Rplus_0_l (sumn 3 (ones_side k))). f_equal.
  - apply sumn_zero. intros i Hi. unfold along. cbn [U1 ddx ddy]. ring.
  - apply sumn_ext. intros f Hf. unfold side_form, ones_side. cbv zeta. destruct (side_geo k f HR Hk Hf) as (_ & HS & _). unfold val_at, slope0, along. cbn [U1 val ddx ddy].
    assert (SE : forall h c, (forall g, h g = c) -> side_sum NG gf k f h = c * len k f) by (intros h c Hh; rewrite <- HS; unfold side_sum; apply sumn_ext; intros g Hg; rewrite Hh; reflexivity).
    destruct (tag_of bc k f =? 6)%Z; [apply SE; intro; ring|]. destruct ((tag_of bc k f =? 7)%Z || (tag_of bc k f =? 3)%Z); [reflexivity|].
    set (t := tau _ _ _ _ _ _ _).
    rewrite (SE _ (t / 2)) by (intro; ring). rewrite (SE (fun _ => 1) 1) by reflexivity. rewrite (SE (fun g => 1 * _) 0) by (intro; ring). rewrite (SE (fun g => _ * 1) 0) by (intro; ring).
    assert (EN : sumn Np (fun _ => 1) = INR Np) by (clear; induction Np as [|m IH]; [reflexivity|]; rewrite sumn_S, IH, S_INR; reflexivity). rewrite EN. field. apply Rgt_not_eq, (gp_area _ _ _ _ _ _ _ _ _ _ _ _ _ _ _ _ _ _ _ _ _ _ _ _ HR k Hk).
Qed.

(* Without Dirichlet sides the constants are not in the kernel, and the operator is not even positive semidefinite, as soon
   as one side is neither Dirichlet nor natural. *)
Theorem C87_constants_refuted : ready -> run = Ok s -> over_sides K (fun k f => ~ dirichlet bc k f) -> (exists k f, (k < K)%nat /\ (f < 3)%nat /\ PoissonSpec.interior bc k f) ->
  quadratic dof (OP_ s) (fun _ => 1) (fun _ => 1) < 0.
Proof.
  intros HR Hs Hn (k & f & Hk & Hf & Hi). rewrite (C87_ones HR Hs).
  assert (BN : 1 < INR Np * INR Np) by (pose proof (le_INR _ _ (Np_big HR)) as X; cbn [INR] in X; nra).
  assert (HC : forall k f, (k < K)%nat -> (f < 3)%nat -> PoissonSpec.interior bc k f -> ones_side k f < 0).
  { intros k' f' Hk' Hf' (I1 & I2). unfold ones_side, dirichlet, natural in *. cbv zeta. destruct (Z.eqb_spec (tag_of bc k' f') 6); [contradiction|]. destruct (Z.eqb_spec (tag_of bc k' f') 7); [tauto|]. destruct (Z.eqb_spec (tag_of bc k' f') 3); [tauto|]. cbn [orb].
    pose proof (tau_pos k' f' (nb E2E k' f') (nbf E2F k' f') HR Hk' Hf'). destruct (side_geo k' f' HR Hk' Hf') as (L & _). apply Ropp_lt_gt_0_contravar. apply Rmult_lt_0_compat; [|exact L]. apply Rmult_lt_0_compat; lra. }
  assert (HL : forall k f, (k < K)%nat -> (f < 3)%nat -> ones_side k f <= 0).
  { intros k' f' Hk' Hf'. destruct (Z.eq_dec (tag_of bc k' f') 7) as [E7|N7]; [unfold ones_side; cbv zeta; rewrite E7; cbn; lra|]. destruct (Z.eq_dec (tag_of bc k' f') 3) as [E3|N3]; [unfold ones_side; cbv zeta; rewrite E3; cbn; lra|].
    apply Rlt_le, HC; auto. split; [apply Hn; assumption|]. unfold natural. tauto. }
  assert (ST : forall n (h : nat -> R) i, (forall j, (j < n)%nat -> h j <= 0) -> (i < n)%nat -> h i < 0 -> sumn n h < 0).
  { clear. induction n as [|n IH]; intros h i Hh Hi Hl; [lia|]. rewrite sumn_S. pose proof (Hh n ltac:(lia)). destruct (Nat.eq_dec i n) as [-> |].
    - assert (sumn n h <= 0); [|lra]. replace (sumn n h) with (- sumn n (fun j => - h j)) by (rewrite (sumn_ext n (fun j => - h j) (fun j => -1 * h j)), sumn_scal by (intros; ring); ring). pose proof (sumn_nonneg n (fun j => - h j)) as X. cut (0 <= sumn n (fun j => - h j)); [lra|]. apply X. intros j Hj. pose proof (Hh j ltac:(lia)). lra.
    - pose proof (IH h i (fun j Hj => Hh j ltac:(lia)) ltac:(lia) Hl). lra. }
  apply (ST K _ k); [|exact Hk|apply (ST 3%nat _ f); auto].
  intros j Hj. rewrite !sumn_S, sumn_0. pose proof (HL j 0%nat Hj ltac:(lia)). pose proof (HL j 1%nat Hj ltac:(lia)). pose proof (HL j 2%nat Hj ltac:(lia)). lra.
Qed.

(* The operator is not symmetric as soon as an element has both Dirichlet and other sides (sides that are neither Dirichlet
   nor natural being shared with a neighbour). *)
Theorem C87_symmetry_refuted : ready -> run = Ok s -> forall k0, (k0 < K)%nat -> (exists f, (f < 3)%nat /\ dirichlet bc k0 f) -> (exists f, (f < 3)%nat /\ ~ dirichlet bc k0 f) ->
  (forall f, (f < 3)%nat -> PoissonSpec.interior bc k0 f -> exists h, shares 3 EV (3 * k0 + f) h) ->
  ~ forall i j, (i < dof)%nat -> (j < dof)%nat -> entry_of (OP_ s) i j = entry_of (OP_ s) j i.
Proof.
  intros HR Hs k0 Hk0 (f0 & Hf0 & D0) (f1 & Hf1 & D1) Hsh HSy.
  assert (HS : forall u v, quadratic dof (OP_ s) v u = quadratic dof (OP_ s) u v).
  { intros u v. unfold quadratic. rewrite sumn_swap. apply sumn_ext. intros i Hi. apply sumn_ext. intros j Hj. rewrite (HSy j i Hj Hi). ring. }
  set (dir := fun f => if (tag_of bc k0 f =? 6)%Z then 1 else 0).
  set (p := from_ Vert EToV k0). set (q := to_ Vert EToV k0).
  set (A := sumn 3 (fun f => dir f * (snd (q f) - snd (p f)))). set (B := sumn 3 (fun f => dir f * - (fst (q f) - fst (p f)))).
  set (on := fun k (r : R) => if (k =? k0)%nat then r else 0).
  set (V := Piecewise (fun k _ _ => on k 1) (fun _ _ _ => 0) (fun _ _ _ => 0)).
  set (U := Piecewise (fun k x y => on k (A * x + B * y)) (fun k _ _ => on k A) (fun k _ _ => on k B)).
  assert (HN : (1 <= N)%nat) by (destruct (gp_built _ _ _ _ _ _ _ _ _ _ _ _ _ _ _ _ _ _ _ _ _ _ _ _ HR); assumption).
  assert (RV : represents (sampled V) V).
  { apply (sampled_ok V HR). intro k. cbn [val ddx ddy V]. split; [exists [(0%nat, 0%nat, on k 1)]; split; [apply Forall_cons; [cbn; lia|apply Forall_nil]|]; intros; cbn; ring|]. split; intros x y; unfold dr_is, ds_is; apply derivable_pt_lim_const. }
  assert (RU : represents (sampled U) U).
  { apply (sampled_ok U HR). intro k. cbn [val ddx ddy U]. unfold on. destruct (k =? k0)%nat.
    - split; [exists [(1%nat, 0%nat, A); (0%nat, 1%nat, B)]; split; [repeat (apply Forall_cons; [cbn; lia|]); apply Forall_nil|]; intros; cbn; ring|].
      assert (LIN : forall c d x, derivable_pt_lim (fun t => c * t + d) x c).
      { intros c d x. assert (X : derivable_pt_lim (fun t => c * t + d) x (c * 1 + 0)) by (apply (derivable_pt_lim_plus (fun t => c * t) (fun _ => d)); [apply (derivable_pt_lim_scal id), derivable_pt_lim_id|apply derivable_pt_lim_const]). replace (c * 1 + 0) with c in X by ring. exact X. }
      split; intros x y; unfold dr_is, ds_is; [apply LIN|]. apply (derivable_pt_lim_ext (fun t => B * t + A * x)); [intro; ring|apply LIN].
    - split; [exists []; split; [apply Forall_nil|reflexivity]|]. split; intros x y; unfold dr_is, ds_is; apply derivable_pt_lim_const. }
  pose proof (HS (sampled U) (sampled V)) as HQ. rewrite (C87_form HR Hs _ _ U V RU RV), (C87_form HR Hs _ _ V U RV RU) in HQ.
  assert (TZ : forall (W : piecewise) k, (k < K)%nat -> k <> k0 -> represents (sampled W) W -> (forall P, val_at W k P = 0) -> sumn Np (fun i => sampled W (Np * k + i)%nat) = 0).
  { intros W k Hk Hne HW Hz. apply sumn_zero. intros i Hi. destruct (HW k Hk) as (_ & _ & _ & X). rewrite <- X by exact Hi. apply Hz. }
  assert (OFF : forall k, k <> k0 -> forall r, on k r = 0) by (intros k Hne r; unfold on; destruct (Nat.eqb_spec k k0); [contradiction|reflexivity]).
  assert (ON : forall r, on k0 r = r) by (intro r; unfold on; rewrite Nat.eqb_refl; reflexivity).
  (* the difference of the two forms is carried by the Dirichlet sides of element k0 *)
  assert (DF : operator_form N K Np NG Vert EToV E2E E2F bc gf cc (sampled U) (sampled V) U V - operator_form N K Np NG Vert EToV E2E E2F bc gf cc (sampled V) (sampled U) V U = A * A + B * B).
  { unfold operator_form, Rminus. replace (- sumn K _) with (-1 * sumn K (fun k => volume_form cc V U k + sumn 3 (side_form N Np NG Vert EToV E2E E2F bc gf (sampled V) (sampled U) V U k))) by ring. rewrite <- sumn_scal, <- sumn_plus.
    rewrite (sumn_ext K _ (fun k => (A * A + B * B) * delta k k0)); [rewrite sumn_delta' by exact Hk0; reflexivity|]. intros k Hk.
    assert (VZ : volume_form cc U V k = 0 /\ volume_form cc V U k = 0) by (split; apply sumn_zero; intros i Hi; unfold along; cbn [V ddx ddy]; ring). destruct VZ as (-> & ->).
    unfold delta. destruct (Nat.eqb_spec k k0) as [-> | Hne].
    - transitivity (sumn 3 (fun f => A * (dir f * (snd (q f) - snd (p f))) + B * (dir f * - (fst (q f) - fst (p f))))); [|rewrite sumn_plus, !sumn_scal; fold A B; ring].
      match goal with |- 0 + sumn 3 ?a + -1 * (0 + sumn 3 ?b) = _ => transitivity (sumn 3 (fun f => a f + -1 * b f)); [rewrite sumn_plus, sumn_scal; ring|] end.
      apply sumn_ext. intros f Hf. destruct (side_geo k0 f HR Hk Hf) as (L0 & SC & SN). fold (p f) (q f) in L0, SC, SN.
      assert (SE : forall h h', (forall g, (g < NG)%nat -> h g = h' g) -> side_sum NG gf k0 f h = side_sum NG gf k0 f h') by (intros h h' Hh; unfold side_sum; apply sumn_ext; intros g Hg; rewrite Hh by exact Hg; reflexivity).
      assert (SD : forall h h', side_sum NG gf k0 f h + -1 * side_sum NG gf k0 f h' = side_sum NG gf k0 f (fun g => h g - h' g)) by (intros h h'; unfold side_sum; rewrite <- sumn_scal, <- sumn_plus; apply sumn_ext; intros; ring).
      assert (VV : forall P, val_at V k0 P = 1) by (intro P; apply ON). assert (VS : forall k n P, along n V k P = 0) by (intros; unfold along; cbn [V ddx ddy]; ring).
      assert (US : forall g P, (g < NG)%nat -> along (gauss_normal NG gf k0 f g) U k0 P = (A * (snd (q f) - snd (p f)) + B * - (fst (q f) - fst (p f))) / side_length (p f) (q f)).
      { intros g P Hg. rewrite SN by exact Hg. unfold along. cbn [U ddx ddy fst snd]. rewrite !ON. field. lra. }
      unfold side_form, slope0. cbv zeta. unfold dir. destruct (Z.eqb_spec (tag_of bc k0 f) 6) as [E6|N6].
      { rewrite SD. rewrite (SE _ (fun _ => (A * (snd (q f) - snd (p f)) + B * - (fst (q f) - fst (p f))) / side_length (p f) (q f))); [rewrite SC; field; lra|]. intros g Hg. rewrite !VV, !VS, US by exact Hg. ring. }
      destruct ((tag_of bc k0 f =? 7)%Z || (tag_of bc k0 f =? 3)%Z) eqn:ET; [ring|].
      assert (IN : PoissonSpec.interior bc k0 f). { apply orb_false_iff in ET. destruct ET as (T7 & T3). apply Z.eqb_neq in T7, T3. split; [exact N6|]. unfold natural. tauto. }
      destruct (node_nb _ _ _ _ _ _ _ _ _ _ _ _ _ _ _ _ _ _ _ _ _ _ _ _ HR k0 f Hk0 Hf) as (_ & _ & K2 & _ & [(_ & _ & Hno)|(Hne & _)]); [destruct (Hsh f Hf IN) as (h & Hh); destruct (Hno h Hh)|].
      set (k2 := nb E2E k0 f) in *. set (t := tau _ _ _ _ _ _ _). set (c2 := cell_area Vert EToV k2 / cell_area Vert EToV k0).
      assert (VV2 : forall P, val_at V k2 P = 0) by (intro P; apply OFF; exact Hne). assert (UU2 : forall P, val_at U k2 P = 0) by (intro P; apply OFF; exact Hne).
      assert (US2 : forall n P, along n U k2 P = 0) by (intros; unfold along; cbn [U ddx ddy]; rewrite !OFF by exact Hne; ring).
      rewrite (TZ U k2 K2 Hne RU UU2), (TZ V k2 K2 Hne RV VV2).
      assert (EZ : forall h, (forall g, h g = 0) -> side_sum NG gf k0 f h = 0) by (intros h Hh; apply sumn_zero; intros; rewrite Hh; ring).
      rewrite (EZ (fun g => val_at V k0 _ * along _ U k2 _)) by (intro; rewrite US2; ring). rewrite (EZ (fun g => along _ V k0 _ * _)) by (intro; rewrite VS; ring).
      rewrite (EZ (fun g => _ * along _ V k2 _)) by (intro; rewrite VS; ring). rewrite (EZ (fun g => _ * val_at V k2 _)) by (intro; rewrite VV2; ring).
      match goal with |- side_sum _ _ _ _ ?h - _ - _ + _ + -1 * (side_sum _ _ _ _ ?h' - _ - _ + _) = _ => rewrite (SE h h') by (intros g Hg; cbv beta; rewrite !VV, !VS; ring) end. ring.
    - assert (SZ : sumn 3 (side_form N Np NG Vert EToV E2E E2F bc gf (sampled U) (sampled V) U V k) = 0 /\ sumn 3 (side_form N Np NG Vert EToV E2E E2F bc gf (sampled V) (sampled U) V U k) = 0); [|destruct SZ as (-> & ->); ring].
      assert (VV : forall P, val_at V k P = 0) by (intro P; apply OFF; exact Hne). assert (UU : forall P, val_at U k P = 0) by (intro P; apply OFF; exact Hne).
      assert (VS : forall n P, along n V k P = 0) by (intros; unfold along; cbn [V ddx ddy]; ring). assert (US : forall n P, along n U k P = 0) by (intros; unfold along; cbn [U ddx ddy]; rewrite !OFF by exact Hne; ring).
      split; apply sumn_zero; intros f Hf; unfold side_form, slope0; cbv zeta.
      all: destruct (tag_of bc k f =? 6)%Z; [apply sumn_zero; intros; rewrite ?VV, ?VS, ?UU, ?US; ring|]. all: destruct ((tag_of bc k f =? 7)%Z || (tag_of bc k f =? 3)%Z); [reflexivity|].
      + rewrite (TZ V k Hk Hne RV VV). assert (EZ : forall h, (forall g, h g = 0) -> side_sum NG gf k f h = 0) by (intros h Hh; apply sumn_zero; intros; rewrite Hh; ring).
        rewrite (EZ (fun g => _ / 2 * _ - _ - _)), (EZ (fun g => val_at V k _ * _)), (EZ (fun g => along _ V k _ * _)) by (intro; rewrite ?VV, ?VS; ring). ring.
      + rewrite (TZ U k Hk Hne RU UU). assert (EZ : forall h, (forall g, h g = 0) -> side_sum NG gf k f h = 0) by (intros h Hh; apply sumn_zero; intros; rewrite Hh; ring).
        rewrite (EZ (fun g => _ / 2 * _ - _ - _)), (EZ (fun g => val_at U k _ * _)), (EZ (fun g => along _ U k _ * _)) by (intro; rewrite ?UU, ?US; ring). ring. }
  assert (AB : A * A + B * B = 0) by lra. clear DF HQ.
  assert (A = 0 /\ B = 0) as (A0 & B0) by (split; nra).
  pose proof (gp_area _ _ _ _ _ _ _ _ _ _ _ _ _ _ _ _ _ _ _ _ _ _ _ _ HR k0 Hk0) as HA. unfold A, B in A0, B0. rewrite !sumn_S, sumn_0 in A0, B0.
  assert (DD : forall f, dir f = 1 /\ dirichlet bc k0 f \/ dir f = 0 /\ ~ dirichlet bc k0 f) by (intro f; unfold dir, dirichlet; destruct (Z.eqb_spec (tag_of bc k0 f) 6); auto).
  unfold p, q, from_, to_, next in A0, B0. change ((0 + 1) mod 3)%nat with 1%nat in *. change ((1 + 1) mod 3)%nat with 2%nat in *. change ((2 + 1) mod 3)%nat with 0%nat in *.
  unfold cell_area, area, TriGeoSpec.cross, pminus in HA. cbn [fst snd] in HA.
  set (a := TriGeoSpec.corner Vert EToV k0 0) in *. set (b := TriGeoSpec.corner Vert EToV k0 1) in *. set (c := TriGeoSpec.corner Vert EToV k0 2) in *.
  assert (Dn : dir f0 = 1 /\ dir f1 = 0) by (destruct (DD f0), (DD f1); tauto). destruct Dn as (Z0 & Z1). clearbody a b c.
  assert (EQ : (a = b \/ b = c \/ c = a) -> False) by (intros [E|[E|E]]; rewrite E in HA; lra).
  assert (PE : forall x y : point, fst x = fst y -> snd x = snd y -> x = y) by (intros [? ?] [? ?]; cbn; congruence).
  assert (D01 : forall f, dir f = 0 \/ dir f = 1) by (intro f; destruct (DD f) as [(-> & _)|(-> & _)]; auto). clear DD.
  assert (C0 := D01 0%nat). assert (C1 := D01 1%nat). assert (C2 := D01 2%nat). clear D01.
  assert (NO : ~ (dir 0%nat = dir 1%nat /\ dir 1%nat = dir 2%nat)) by (intros (? & ?); destruct f0 as [|[|[|]]], f1 as [|[|[|]]]; try lia; lra). clear Z0 Z1.
  generalize dependent (dir 0%nat). generalize dependent (dir 1%nat). generalize dependent (dir 2%nat). intros d2 C2 d1 C1 d0 A0 B0 C0 NO.
  destruct C0 as [-> | ->], C1 as [-> | ->], C2 as [-> | ->]; try (apply NO; split; reflexivity); apply EQ.
  - right. right. apply PE; lra.
  - right. left. apply PE; lra.
  - left. apply PE; lra.
  - left. apply PE; lra.
  - right. left. apply PE; lra.
  - right. right. apply PE; lra.
Qed.
End C87.

(* The two triangles of the unit square, order 1, two Gauss points per side and the cubature of order 2 meet the hypotheses,
   with every choice of boundary tags; and tags for each of the theorems. *)
Example C87_witness : let Vert := [0; 0; 0;  1; 0; 0;  1; 1; 0;  0; 1; 0] in let EToV := [0; 1; 2;  0; 2; 3]%nat in let lit := fun z => IZR z / 1000000000000000 in
  let E2E := [0; 0; 1;  0; 1; 1]%nat in let E2F := [0; 1; 0;  2; 1; 2]%nat in
  (forall bc junkg junkn junkc, length bc = 6%nat -> exists eig el gf cc,
    gp_ready gwit cramer cramer_inv chol3 junk0 0 eig (1 / 10) 1 2 Vert EToV el E2E E2F bc 2 lit 2 junkg junkn junkc gf cc /\ resolved 0 2 Vert EToV el) /\
  over_sides 2 (natural [7; 7; 7; 7; 7; 7]%Z) /\
  (over_sides 2 (fun k f => ~ dirichlet [3; 3; 0; 0; 3; 3]%Z k f) /\ exists k f, (k < 2)%nat /\ (f < 3)%nat /\ PoissonSpec.interior [3; 3; 0; 0; 3; 3]%Z k f) /\
  (let bc := [6; 3; 0; 0; 3; 3]%Z in dirichlet bc 0 0 /\ ~ dirichlet bc 0 1 /\ (forall f, (f < 3)%nat -> PoissonSpec.interior bc 0 f -> exists h, shares 3 (map Z.of_nat EToV) (3 * 0 + f) h)).
Proof.
  intros Vert EToV lit E2E E2F. destruct (tri_grid_witness [3; 3; 0; 0; 3; 3]%Z (le_n 6)) as (A & B & _). cbv zeta in A, B. fold Vert EToV E2E E2F in A, B. split; [|split; [|split]].
  - intros bc junkg junkn junkc Lb. destruct C86_witness as (_ & el & HC & HA & Hcc). cbv zeta in HC, HA, Hcc. fold Vert EToV in HC, HA, Hcc. fold lit in HC, Hcc.
    destruct (C59_witness 0 ltac:(lra) ltac:(lra)) as (t & _ & Ht). cbv zeta in Ht.
    set (eig1 := fun (n : nat) (J : nat -> nat -> R) => ([- t; t], fun i j : nat => match i with 1%nat => match j with 0%nat => - / sqrt 2 | S _ => / sqrt 2 end | _ => / sqrt 2 end)).
    assert (HB : built gwit cramer cramer_inv junk0 0 eig1 (1 / 10) 1 2 Vert EToV el) by (destruct HC as [HB _ _ _ _]; destruct HB; constructor; auto; lia).
    assert (HG : gauss_ready gwit cramer cramer_inv junk0 0 eig1 (1 / 10) 1 2 Vert EToV el E2E E2F bc 2) by (constructor; [exact HB|exact A|rewrite Lb; cbn; lia|lia|intros _; exact Ht]).
    assert (HC' : cub_ready gwit cramer cramer_inv chol3 junk0 0 eig1 (1 / 10) 1 2 Vert EToV el lit 2) by (destruct HC; constructor; auto).
    destruct (gauss_run _ _ _ _ _ _ _ _ _ _ _ _ _ _ _ _ junkg junkn HG) as (gf & _ & _ & Hgf & _). destruct (Hcc junkc) as (cc & Hc).
    exists eig1, el, gf, cc. split.
    + constructor; [exact HG|exact HC'|exact Hgf|exact Hc|lia|unfold INT_MAX; lia|]. destruct (element_ok _ _ _ _ _ _ _ _ _ _ _ _ HB) as [lr _ _ _ _ _ _ _ _ _ _ _ _ _ _ _ _]. rewrite lr. change (length (modes 1)) with 3%nat. unfold INT_MAX. lia.
    + intros k Hk. pose proof (HA k Hk). split; [lra|]. intros k2 Hk2 c _. rewrite !Rmult_0_r, !Rmult_0_l. apply HA, Hk2.
  - intros k f Hk Hf. right. destruct k as [|[|]]; [| |lia]; destruct f as [|[|[|]]]; try lia; reflexivity.
  - split; [intros k f Hk Hf; destruct k as [|[|]]; [| |lia]; destruct f as [|[|[|]]]; try lia; discriminate|]. exists 0%nat, 2%nat. split; [lia|]. split; [lia|]. split; [discriminate|intros [X|X]; discriminate X].
  - cbv zeta. split; [reflexivity|]. split; [discriminate|]. intros f Hf (I1 & I2). destruct f as [|[|[|]]]; [destruct (I1 eq_refl)|destruct (I2 (or_introl eq_refl))| |lia]. exists 3%nat. apply B. left. auto.
Qed.
Print Assumptions C87_builds.
Print Assumptions C87_form.
Print Assumptions C87_mass.
Print Assumptions C87_natural.
Print Assumptions C87_ones.
Print Assumptions C87_constants_refuted.
Print Assumptions C87_symmetry_refuted.
