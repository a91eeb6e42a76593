(* SwScriptProps.v - C101: what a run of the script sw2d.py computes. *)
From Coq Require Import ZArith List Lia Bool Arith SpecFloat.
From Verif Require Import Base Loops Num JacobiSpec JacobiProofs JacobiQuadProofs JacobiExactProofs Nodes1DModel DenseSpec Maps2DModel RKModel Line1DModel Line1DProofs TriModel TriSpec TriGeoSpec MeshSpec Maps2DSpec Maps2DProofs TriSetup TriProps TriDGSpec TriDGProofs TriMapsProofs TriMapsProps
  UniqueProofs Maps2DProps SwModel SwSpec SwProofs SwSchemeProofs SwRunProofs SwProps CurvedSwModel CurvedSwSpec CurvedSwProofs PySwModel PySwSpec PySwProofs PySwRunProofs PySwProps SwStepModel SwStepSpec SwVolProofs SwDtProofs
  AdvecRunModel SwScriptModel SwScriptSpec SwScriptProofs TriWitness.
From Coq Require Import Reals Lra.
Import ListNotations.
Local Open Scope R_scope.

Section C101.
Context (G : R -> R) (solve : mat R -> mat R -> mat R -> outcome (mat R)) (inverse : mat R -> mat R -> outcome (mat R))
  (junk : nat -> nat -> R) (eps : R) (eig : nat -> (nat -> nat -> R) -> list R * (nat -> nat -> R)) (tol : R)
  (sort : (nat -> nat -> bool) -> list nat -> list nat) (junk1 : nat -> R) (junkn : nat -> nat)
  (N K : nat) (Vert : list R) (EToV E2E E2F : list nat) (bcType : list Z) (el : element (T := R)) (m : maps).
Local Notation Grid := (sw_grid G solve inverse junk eps eig tol sort junk1 junkn N K Vert EToV E2E E2F bcType el m).
Local Notation Np := (length (e_r el)).
Local Notation d := (tables_of el m).
Local Notation alone k f := (forall k2 f2, (f2 < 3)%nat -> ~ joined EToV k f k2 f2).
Local Notation tagged t := (exists k f, (k < K)%nat /\ (f < 3)%nat /\ tag_of bcType k f = t).
Local Notation scheme := (dg_scheme N Np K Vert EToV (e_x el) (e_y el)).
Local Notation local := (local_speed Np K Vert EToV (e_x el) (e_y el)).
Local Notation volume := (volume_is N Np K Vert EToV (e_x el) (e_y el)).
Local Notation filter_is epsf Nc sp F := (buildFilter (exact G) pow exp ln epsf N (e_V el) (e_Vinv el) Nc sp = Ok F).
Local Notation E := (exact G).
Local Notation rates g f := (script_rhs E d 3 (S N) Np K g f).
Local Notation step F g f dt := (script_step E F (rates g f) dt).
Local Notation half F g f dt := (predictor E F (rates g f) dt).
Local Notation flat := (level Np K).
(* the states at the ends of the steps and half way through them have water at every node *)
Local Notation watered F g f dt n q := (forall i, (i < n)%nat -> has_water Np K (q i) /\ forall p, half F g f dt (q i) = Ok p -> has_water Np K p).

Lemma level_conform : conform flat Np K = true.
Proof. unfold conform, level. cbn. rewrite !Nat.eqb_refl. reflexivity. Qed.
Lemma rates_ok g f q : Grid -> tagged 3%Z -> has_water Np K q ->
  exists z z', rates g f q = Ok z /\ py_rhs E rhypot d 3 (S N) Np K (m_vmapM m) (m_vmapP m) g 0 f flat flat q = Ok z' /\
  four_conform z Np K = true /\ forall c i k, (c < 4)%nat -> (i < Np)%nat -> (k < K)%nat -> ment (pick c z) i k = ment (pick c z') i k.
Proof.
  intros HG Ht (HQ & Hw). destruct (mesh_ready_py G solve inverse junk eps eig tol sort junk1 junkn N K Vert EToV E2E E2F bcType el m HG flat flat q Ht HQ level_conform level_conform Hw) as (mapW & HR & _).
  destruct (script_same G d 3 (S N) Np K g f q mapW HR) as (z & z' & Ez & Ez' & Cz & _ & Hz). exists z, z'. repeat (split; [assumption|]). exact Hz.
Qed.

(* C101: the rates are those of the discontinuous Galerkin scheme with the local Rusanov flux, for the water and for the
   tracer, plus the Coriolis force. *)
Theorem C101_scheme : Grid -> (forall k f, (k < K)%nat -> (f < 3)%nat -> tag_of bcType k f = 3%Z -> alone k f) -> tagged 3%Z ->
  forall g f q, has_water Np K q -> exists z r, rates g f q = Ok z /\ four_conform z Np K = true /\
  scheme g (water q) (walls bcType) (local g (water q) (walls bcType)) r /\
  (forall c i k, (c < 3)%nat -> (i < Np)%nat -> (k < K)%nat -> ment (pick c z) i k = ment (fieldc c r) i k + turning f c (ment (q_hu q) i k) (ment (q_hv q) i k)) /\
  tracer_scheme N Np K Vert EToV (e_x el) (e_y el) q (walls bcType) (local g (water q) (walls bcType)) (q_hN z).
Proof.
  intros HG Hw Ht g f q Hq. destruct (rates_ok g f q HG Ht Hq) as (z & z' & Ez & Ez' & Cz & Hz).
  destruct (C92_scheme G solve inverse junk eps eig tol sort junk1 junkn N K Vert EToV E2E E2F bcType el m HG Hw Ht g 0 f flat flat q) as (z2 & r & E2 & _ & Hs & Hr & HT).
  { destruct Hq. repeat split; auto using level_conform. }
  assert (z2 = z') by congruence. subst z2. exists z, r. split; [exact Ez|]. split; [exact Cz|]. split; [exact Hs|]. split.
  - intros c i k Hc Hi Hk. rewrite Hz, Hr by (assumption || lia). f_equal. unfold level, source4, node_state, turning. cbn [ment fst snd]. destruct c as [|[|[|]]]; try lia; unfold Rdiv; ring.
  - intros k Hk. destruct (HT k Hk) as (Z & HZ). exists Z. cbv zeta in HZ |- *. destruct HZ as (Fx & Fy & S0 & S1 & S2 & (D1 & I1) & HZ). exists Fx, Fy, S0, S1, S2. split; [|exact HZ].
    split; [exact D1|]. intros i Hi. rewrite (I1 i Hi). symmetry. apply (Hz 3%nat); (assumption || lia).
Qed.

(* C101: while there is water at every node, the script has no other way to stop than its instability test. *)
Theorem C101_step_runs : Grid -> tagged 3%Z -> forall g f F dt q, shape F Np Np -> has_water Np K q ->
  exists p, half F g f dt q = Ok p /\ four_conform p Np K = true /\ (has_water Np K p -> exists q', step F g f dt q = Ok q' /\ four_conform q' Np K = true).
Proof.
  intros HG Ht g f F dt q HF Hq. destruct (rates_ok g f q HG Ht Hq) as (z & _ & Ez & _ & Cz & _). pose proof Hq as (Cq & _).
  destruct (stage_ok G Np K F (rates g f) (fmul E (SwModel.half E) dt) q q z HF Cq Ez Cz) as (p & Ep & Cp & _). exists p. split; [exact Ep|]. split; [exact Cp|]. intro Hp.
  destruct (rates_ok g f p HG Ht Hp) as (z1 & _ & Ez1 & _ & Cz1 & _). destruct (stage_ok G Np K F (rates g f) dt q p z1 HF Cq Ez1 Cz1) as (q' & Eq' & Cq' & _).
  exists q'. split; [|exact Cq']. unfold script_step. change (predictor E F (rates g f) dt q) with (half F g f dt q). unfold predictor. rewrite Ep. exact Eq'.
Qed.
(* one step, taken apart *)
Lemma step_inv g f F dt q q' : Grid -> tagged 3%Z -> shape F Np Np -> has_water Np K q -> (forall p, half F g f dt q = Ok p -> has_water Np K p) -> step F g f dt q = Ok q' ->
  exists p z1 y z0 y0, half F g f dt q = Ok p /\ has_water Np K p /\ rates g f q = Ok z0 /\ rates g f p = Ok z1 /\ four_conform q' Np K = true /\ four_conform z0 Np K = true /\
  (forall c, (c < 4)%nat -> filtered Np K F (pick c z0) (pick c y0)) /\
  (forall c i k, (c < 4)%nat -> ment (pick c p) i k = ment (pick c q) i k + 1 / 2 * dt * ment (pick c y0) i k) /\
  (forall c, (c < 4)%nat -> filtered Np K F (pick c z1) (pick c y)) /\
  (forall c i k, (c < 4)%nat -> ment (pick c q') i k = ment (pick c q) i k + dt * ment (pick c y) i k).
Proof.
  intros HG Ht HF Hq Hp Es. destruct (rates_ok g f q HG Ht Hq) as (z & _ & Ez & _ & Cz & _). pose proof Hq as (Cq & _).
  destruct (stage_ok G Np K F (rates g f) (fmul E (SwModel.half E) dt) q q z HF Cq Ez Cz) as (p & Ep & Cp & y0 & Hf0 & Hy0).
  assert (Eh : half F g f dt q = Ok p) by exact Ep. specialize (Hp p Eh).
  destruct (rates_ok g f p HG Ht Hp) as (z1 & _ & Ez1 & _ & Cz1 & _). destruct (stage_ok G Np K F (rates g f) dt q p z1 HF Cq Ez1 Cz1) as (q2 & Eq' & Cq' & y & Hf & Hy).
  unfold script_step in Es. rewrite Eh in Es. cbn [bind] in Es. unfold corrector in Es. assert (q2 = q') by congruence. subst q2.
  exists p, z1, y, z, y0. do 7 (split; [assumption|]). split; [|split; [exact Hf|exact Hy]].
  intros c i k Hc. rewrite (Hy0 c i k Hc). unfold SwModel.half. cbn [exact fmul]. rewrite fhalf_exact. reflexivity.
Qed.

(* C101: a step is the midpoint rule with the rates filtered: half a step with the rates of the state, and from the same
   state the whole step with the rates of the half-way one. *)
Theorem C101_midpoint : Grid -> tagged 3%Z -> forall g f F dt q q', shape F Np Np -> has_water Np K q -> (forall p, half F g f dt q = Ok p -> has_water Np K p) ->
  step F g f dt q = Ok q' -> exists p z0 z1, rates g f q = Ok z0 /\ rates g f p = Ok z1 /\ four_conform p Np K = true /\ four_conform q' Np K = true /\
  forall c i k, (c < 4)%nat -> (i < Np)%nat -> (k < K)%nat ->
    ment (pick c p) i k = ment (pick c q) i k + dt / 2 * sumn Np (fun j => ment F i j * ment (pick c z0) j k) /\
    ment (pick c q') i k = ment (pick c q) i k + dt * sumn Np (fun j => ment F i j * ment (pick c z1) j k).
Proof.
  intros HG Ht g f F dt q q' SF W1 W2 Es. destruct (step_inv g f F dt q q' HG Ht SF W1 W2 Es) as (p & z1 & y & z0 & y0 & _ & (Cp & _) & Ez0 & Ez1 & Cq' & _ & Hy0 & Hp & Hy & Hq).
  exists p, z0, z1. do 4 (split; [assumption|]). intros c i k Hc Hi Hk. rewrite (Hp c i k Hc), (Hq c i k Hc), (Hy0 c Hc i k Hi Hk), (Hy c Hc i k Hi Hk). split; [unfold Rdiv; ring|reflexivity].
Qed.

(* C101: in a basin with walls all round a run keeps the volume of the water and the amount of tracer: the filter is
   applied as a matrix product here (C78 has the driver where it is not). *)
Theorem C101_keeps_water_and_tracer : Grid -> (forall k f, (k < K)%nat -> (f < 3)%nat -> tag_of bcType k f = 3%Z <-> alone k f) -> tagged 3%Z ->
  forall epsf Nc sp F, 0 < epsf <= 1 -> 0 < Nc -> INR N <> Nc -> filter_is epsf Nc sp F ->
  forall g f dt n q, history Ok (step F g f dt) n q -> watered F g f dt n q ->
  forall c, c = 0%nat \/ c = 3%nat -> exists v, volume (pick c (q 0%nat)) v /\ volume (pick c (q n)) v /\ forall w, volume (pick c (q n)) w -> w = v.
Proof.
  intros HG Hcl Ht epsf Nc sp F He Hn HnN EF g f dt n q Hh Hwat c Hc.
  pose proof (sg_built _ _ _ _ _ _ _ _ _ _ _ _ _ _ _ _ _ _ _ HG) as HB. pose proof (sg_area _ _ _ _ _ _ _ _ _ _ _ _ _ _ _ _ _ _ _ HG) as HA.
  destruct (C41_filter _ _ _ _ _ _ _ _ _ _ _ _ HB epsf Nc sp He HnN) as (F' & EF' & SF & _). assert (F' = F) by congruence. subst F'.
  pose proof (fun h v => vol_iff G solve inverse junk eps eig tol N K Vert EToV el HB HA h v) as V.
  assert (Hv : vol_of G N K Vert EToV el (pick c (q n)) = vol_of G N K Vert EToV el (pick c (q 0%nat))).
  { induction n as [|n IH]; [reflexivity|]. rewrite <- IH by (intros i Hi; first [apply Hh; lia|apply Hwat; lia]). clear IH.
    destruct (Hwat n ltac:(lia)) as (W1 & W2). destruct (step_inv g f F dt (q n) (q (S n)) HG Ht SF W1 W2 (Hh n ltac:(lia))) as (p & z1 & y & _ & _ & _ & Wp & _ & Ez1 & _ & _ & _ & _ & Hy & Hq).
    assert (Hc4 : (c < 4)%nat) by (destruct Hc; lia).
    rewrite (vol_ext G N K Vert EToV el (pick c (q (S n))) (advance E dt (pick c (q n)) (pick c y))) by (intros i k Hi Hk; rewrite (Hq c i k Hc4); reflexivity).
    rewrite (vol_advance G N K Vert EToV el).
    assert (Y0 : vol_of G N K Vert EToV el (pick c y) = 0).
    { transitivity (vol_of G N K Vert EToV el (pick c z1)); [eapply filtered_volume; try eassumption; apply Hy, Hc4|].
      destruct (rates_ok g f p HG Ht Wp) as (z1' & z' & Ez1' & Ez' & _ & Hz). assert (z1' = z1) by congruence. subst z1'.
      rewrite (vol_ext G N K Vert EToV el (pick c z1) (pick c z')) by (intros i k Hi Hk; apply Hz; assumption).
      destruct (C92_conservation G solve inverse junk eps eig tol sort junk1 junkn N K Vert EToV E2E E2F bcType el m HG Hcl Ht g 0 f flat flat p) as (z2 & E2 & H2); [destruct Wp; repeat split; auto using level_conform|].
      assert (z2 = z') by congruence. subst z2. destruct (proj2 (V (pick c z') _) eq_refl) as (Z & w & HZ & ->). exact (H2 c Hc Z w HZ). }
    rewrite Y0. ring. }
  exists (vol_of G N K Vert EToV el (pick c (q 0%nat))). split; [apply V; reflexivity|]. split; [apply V; symmetry; exact Hv|]. intros w Hw. apply V in Hw. congruence.
Qed.

(* C101: water of uniform concentration keeps it through a run, whatever the flow and the filter. *)
Theorem C101_uniform_concentration : Grid -> tagged 3%Z -> forall F, shape F Np Np ->
  forall g f dt n q, history Ok (step F g f dt) n q -> watered F g f dt n q ->
  forall t, (forall i k, (i < Np)%nat -> (k < K)%nat -> ment (q_hN (q 0%nat)) i k = t * ment (q_h (q 0%nat)) i k) ->
  forall i k, (i < Np)%nat -> (k < K)%nat -> ment (q_hN (q n)) i k = t * ment (q_h (q n)) i k.
Proof.
  intros HG Ht F SF g f dt n q Hh Hwat t H0. induction n as [|n IH]; [exact H0|].
  specialize (IH ltac:(intros i Hi; apply Hh; lia) ltac:(intros i Hi; apply Hwat; lia)).
  assert (HR : forall p z, has_water Np K p -> rates g f p = Ok z -> (forall i k, (i < Np)%nat -> (k < K)%nat -> ment (q_hN p) i k = t * ment (q_h p) i k) -> forall i k, (i < Np)%nat -> (k < K)%nat -> ment (pick 3 z) i k = t * ment (pick 0 z) i k).
  { intros p z Wp Ez Hp i k Hi Hk. destruct (rates_ok g f p HG Ht Wp) as (z1' & z' & Ez1' & Ez' & _ & Hz). assert (z1' = z) by congruence. subst z1'. rewrite !Hz by (assumption || lia).
    pose proof Wp as (Cp & Hw). destruct (mesh_ready_py G solve inverse junk eps eig tol sort junk1 junkn N K Vert EToV E2E E2F bcType el m HG flat flat p Ht Cp level_conform level_conform Hw) as (mapW & HRd & _).
    exact (tracer_kept G d 3 (S N) Np K _ _ mapW g 0 f flat flat p HRd t z' Hp Ez' i k Hi Hk). }
  assert (HL : forall z y, (forall c, (c < 4)%nat -> filtered Np K F (pick c z) (pick c y)) -> (forall i k, (i < Np)%nat -> (k < K)%nat -> ment (pick 3 z) i k = t * ment (pick 0 z) i k) -> forall i k, (i < Np)%nat -> (k < K)%nat -> ment (pick 3 y) i k = t * ment (pick 0 y) i k).
  { intros z y Hy Hz i k Hi Hk. rewrite (Hy 3%nat ltac:(lia) i k Hi Hk), (Hy 0%nat ltac:(lia) i k Hi Hk), <- sumn_scal. apply sumn_ext. intros j Hj. rewrite Hz by assumption. ring. }
  destruct (Hwat n ltac:(lia)) as (W1 & W2). destruct (step_inv g f F dt (q n) (q (S n)) HG Ht SF W1 W2 (Hh n ltac:(lia))) as (p & z1 & y & z0 & y0 & _ & Wp & Ez0 & Ez1 & _ & _ & Hy0 & Hp & Hy & Hq).
  assert (Hpt : forall i k, (i < Np)%nat -> (k < K)%nat -> ment (pick 3 p) i k = t * ment (pick 0 p) i k).
  { intros i k Hi Hk. rewrite !Hp by lia. rewrite (HL z0 y0 Hy0 (HR _ _ W1 Ez0 IH) i k Hi Hk). pose proof (IH i k Hi Hk) as X. cbn [pick]. rewrite X. ring. }
  intros i k Hi Hk. pose proof (Hq 3%nat i k ltac:(lia)) as X3. pose proof (Hq 0%nat i k ltac:(lia)) as X0. cbn [pick] in X3, X0. rewrite X3, X0, (IH i k Hi Hk). pose proof (HL z1 y Hy (HR _ _ Wp Ez1 Hpt) i k Hi Hk) as X. cbn [pick] in X. rewrite X. ring.
Qed.

Local Notation calm h0 hN0 q := (has_water Np K q /\ forall i k, (i < Np)%nat -> (k < K)%nat -> node_state q i k = (h0, 0, 0, hN0)).
Lemma still_step : Grid -> (forall k f, (k < K)%nat -> (f < 3)%nat -> tag_of bcType k f = 3%Z -> alone k f) -> tagged 3%Z -> forall F, shape F Np Np ->
  forall g f dt q h0 hN0, calm h0 hN0 q -> exists p q', half F g f dt q = Ok p /\ calm h0 hN0 p /\ step F g f dt q = Ok q' /\ calm h0 hN0 q'.
Proof.
  intros HG Hw Ht F SF g f dt q h0 hN0 (Hq & Hc).
  assert (Hz0 : forall p, has_water Np K p -> (forall i k, (i < Np)%nat -> (k < K)%nat -> node_state p i k = (h0, 0, 0, hN0)) -> forall z, rates g f p = Ok z -> forall c i k, (c < 4)%nat -> (i < Np)%nat -> (k < K)%nat -> ment (pick c z) i k = 0).
  { intros p Wp Hp z Ez c i k Hc4 Hi Hk. destruct (rates_ok g f p HG Ht Wp) as (z1' & z' & Ez1' & Ez' & _ & Hz). assert (z1' = z) by congruence. subst z1'. rewrite Hz by assumption.
    destruct (C92_still_water G solve inverse junk eps eig tol sort junk1 junkn N K Vert EToV E2E E2F bcType el m HG Hw Ht g 0 f flat flat p h0 hN0) as (z2 & E2 & H2).
    - destruct Wp. repeat split; auto using level_conform.
    - intros a b Ha Hb. split; [apply Hp; assumption|]. split; reflexivity.
    - assert (z2 = z') by congruence. subst z2. specialize (H2 i k Hi Hk). unfold node_state in H2. destruct c as [|[|[|[|]]]]; cbn [pick]; try lia; congruence. }
  assert (HY : forall z y, (forall c, (c < 4)%nat -> filtered Np K F (pick c z) (pick c y)) -> (forall c i k, (c < 4)%nat -> (i < Np)%nat -> (k < K)%nat -> ment (pick c z) i k = 0) -> forall c i k, (c < 4)%nat -> (i < Np)%nat -> (k < K)%nat -> ment (pick c y) i k = 0).
  { intros z y Hy Hz c i k Hc4 Hi Hk. rewrite (Hy c Hc4 i k Hi Hk). apply sumn_zero. intros j Hj. rewrite Hz by assumption. ring. }
  assert (HN : forall a b, (forall c i k, (c < 4)%nat -> (i < Np)%nat -> (k < K)%nat -> ment (pick c a) i k = ment (pick c b) i k) -> forall i k, (i < Np)%nat -> (k < K)%nat -> node_state a i k = node_state b i k).
  { intros a b Hab i k Hi Hk. unfold node_state. pose proof (Hab 0%nat i k ltac:(lia) Hi Hk) as X0. pose proof (Hab 1%nat i k ltac:(lia) Hi Hk) as X1. pose proof (Hab 2%nat i k ltac:(lia) Hi Hk) as X2. pose proof (Hab 3%nat i k ltac:(lia) Hi Hk) as X3. cbn [pick] in *. congruence. }
  destruct (C101_step_runs HG Ht g f F dt q SF Hq) as (p & Ep & Cp & Hp).
  assert (Wp : has_water Np K p).
  { split; [exact Cp|]. intros i k Hi Hk. destruct (rates_ok g f q HG Ht Hq) as (z & _ & Ez & _ & Cz & _). pose proof Hq as (Cq & Hw0).
    destruct (stage_ok G Np K F (rates g f) (fmul E (SwModel.half E) dt) q q z SF Cq Ez Cz) as (p2 & Ep2 & _ & y0 & Hf0 & Hy0). assert (p2 = p) by (change (half F g f dt q = Ok p2) in Ep2; congruence). subst p2.
    pose proof (Hy0 0%nat i k ltac:(lia)) as X. rewrite (HY z y0 Hf0 (Hz0 q Hq Hc z Ez) 0%nat i k) in X by (assumption || lia). cbn [pick] in X. rewrite X. specialize (Hw0 i k Hi Hk). lra. }
  destruct (Hp Wp) as (q' & Eq' & Cq'). destruct (step_inv g f F dt q q' HG Ht SF Hq) as (p2 & z1 & y & z0 & y0 & Ep2 & _ & Ez0 & Ez1 & _ & _ & Hy0 & Hpp & Hy & Hqq); [intros p2 Ep2; congruence|exact Eq'|]. assert (p2 = p) by congruence. subst p2.
  assert (Sp : forall i k, (i < Np)%nat -> (k < K)%nat -> node_state p i k = (h0, 0, 0, hN0)).
  { intros i k Hi Hk. rewrite (HN p q); [apply Hc; assumption| |exact Hi|exact Hk]. intros c a b Hc4 Ha Hb. rewrite (Hpp c a b Hc4), (HY z0 y0 Hy0 (Hz0 q Hq Hc z0 Ez0) c a b Hc4 Ha Hb). ring. }
  assert (Sq : forall c i k, (c < 4)%nat -> (i < Np)%nat -> (k < K)%nat -> ment (pick c q') i k = ment (pick c q) i k).
  { intros c i k Hc4 Hi Hk. rewrite (Hqq c i k Hc4), (HY z1 y Hy (Hz0 p Wp Sp z1 Ez1) c i k Hc4 Hi Hk). ring. }
  exists p, q'. split; [exact Ep|]. split; [split; assumption|]. split; [exact Eq'|]. split.
  - split; [exact Cq'|]. intros i k Hi Hk. pose proof (Sq 0%nat i k ltac:(lia) Hi Hk) as X. cbn [pick] in X. rewrite X. apply Hq; assumption.
  - intros i k Hi Hk. rewrite (HN q' q Sq i k Hi Hk). apply Hc; assumption.
Qed.

(* C101: still water of constant depth and concentration: every step returns and changes nothing. *)
Theorem C101_still_water : Grid -> (forall k f, (k < K)%nat -> (f < 3)%nat -> tag_of bcType k f = 3%Z -> alone k f) -> tagged 3%Z -> forall F, shape F Np Np ->
  forall g f dt q h0 hN0, calm h0 hN0 q ->
  forall n, exists s, s 0%nat = q /\ history Ok (step F g f dt) n s /\ forall j, (j <= n)%nat -> calm h0 hN0 (s j) /\ exists p, half F g f dt (s j) = Ok p /\ calm h0 hN0 p.
Proof.
  intros HG Hw Ht F SF g f dt q h0 hN0 Hq. induction n as [|n (s & S0 & Hh & Hs)].
  - exists (fun _ => q). split; [reflexivity|]. split; [intros i Hi; lia|]. intros j _. split; [exact Hq|]. destruct (still_step HG Hw Ht F SF g f dt q h0 hN0 Hq) as (p & q' & Ep & Cp & _). exists p. split; assumption.
  - destruct (Hs n ltac:(lia)) as (W1 & _). destruct (still_step HG Hw Ht F SF g f dt (s n) h0 hN0 W1) as (p & q' & Ep & Cp & Eq' & Cq').
    exists (fun i => if (i <=? n)%nat then s i else q'). split; [exact S0|]. split.
    + intros i Hi. destruct (Nat.leb_spec i n); [|lia]. destruct (Nat.leb_spec (S i) n); [apply Hh; lia|]. assert (i = n) as -> by lia. exact Eq'.
    + intros j Hj. destruct (Nat.leb_spec j n); [apply Hs; lia|]. split; [exact Cq'|]. destruct (still_step HG Hw Ht F SF g f dt q' h0 hN0 Cq') as (p' & q2 & Ep' & Cp' & _). exists p'. split; assumption.
Qed.

(* C101: the time step is the largest the CFL condition allows for the initial state, whatever the elements. *)
Theorem C101_time_step : Grid -> forall g CFL h u v, 0 < CFL -> conform h Np K = true -> conform u Np K = true -> conform v Np K = true ->
  (forall i k, (i < Np)%nat -> (k < K)%nat -> ment h i k <> 0) ->
  let q := (h, Line1DModel.mzip Rmult h u, Line1DModel.mzip Rmult h v) in
  (exists r, crossing_rate Np K Vert EToV (e_x el) (e_y el) g q r /\ 0 < r) ->
  exists dt, script_dt E d N g CFL h u v = Ok dt /\ largest_step N Np K Vert EToV (e_x el) (e_y el) g q CFL dt.
Proof.
  intros HG g CFL h u v HC Ch Cu Cv Hw q Hex. pose proof HG as [HB HM HA HS Hrun Hbc].
  apply conform_ok in Ch as (H1 & H2), Cu as (U1 & U2), Cv as (V1 & V2).
  pose proof (maps_bounds _ _ _ _ _ _ _ _ _ _ _ _ HB _ _ HM HA HS _ _ _ _ _ _ Hrun) as (L1 & _ & B1 & _). pose proof (Np_pos _ _ _ _ _ _ _ _ _ _ _ _ HB _ _ _ _ _ _ _ _ Hrun) as HN.
  pose proof (conform_d _ _ _ _ _ _ _ _ _ _ _ _ HB m) as Hd. unfold dg_conform in Hd. assert (HF : conform (d_Fscale d) (3 * S N) K = true) by (rewrite !andb_true_iff in Hd; tauto). apply conform_ok in HF as (F1 & F2).
  unfold script_dt. rewrite (flat_tab (Line1DModel.mmap _ h) Np K H1 H2), (flat_tab u Np K U1 U2), (flat_tab v Np K V1 V2), (flat_tab _ (3 * S N) K F1 F2).
  rewrite !(take_tab G (Np * K) _ (d_vmapM d) (3 * S N * K) L1 B1). cbn [bind]. unfold np_zipv. rewrite !tab_len, Nat.eqb_refl. cbn [require bind]. rewrite tab_zipw, tab_len, Nat.eqb_refl. cbn [require bind]. rewrite tab_zipw.
  rewrite map_length, !tab_len, Nat.eqb_refl. cbn [require bind]. rewrite tab_map, tab_zipw.
  match goal with |- context[np_max E (tab _ ?w)] => set (W := w) end. set (nf := (3 * S N * K)%nat) in *.
  set (w := fun i => ment (e_Fscale el) (i mod (3 * S N)) (i / (3 * S N)) * wave_speed g (cell_at Np q (nth i (d_vmapM d) 0%nat))).
  set (B := INR ((N + 1) * (N + 1)) * (1 / 2)).
  assert (HB0 : 0 < B) by (unfold B; apply Rmult_lt_0_compat; [apply lt_0_INR; nia|lra]).
  assert (HW : forall i, (i < nf)%nat -> W i = B * w i).
  { intros i Hi. destruct (fid_split N K i Hi) as (n & fc & k & Hn & Hf & Hk & ->). destruct (fs_at _ _ _ _ _ _ _ _ _ _ _ _ HB HA n fc k Hn Hf Hk) as (P0 & _).
    unfold W, w, B, SwModel.half. cbn [exact fmul fabs fadd fsqrt tables_of d_Fscale]. rewrite fofn_INR, fhalf_exact, (Rabs_right (ment (e_Fscale el) _ _)) by lra.
    rewrite Rmult_assoc. f_equal. f_equal. unfold wave_speed, cell_at, at_node, q, Line1DModel.mzip, Line1DModel.mmap. cbn [fieldc fst snd ment].
    set (x := nth _ _ _). assert (Hx : (x < Np * K)%nat) by (apply B1, nth_In; lia). assert (Hh : ment h (x mod Np) (x / Np) <> 0) by (apply Hw; [apply Nat.mod_upper_bound; lia|apply Nat.div_lt_upper_bound; lia]).
    rewrite Rplus_comm. f_equal. f_equal. field. exact Hh. }
  assert (Hlen : (0 < nf)%nat).
  { destruct Hex as (r & (k & fc & i & t & Hk & Hf & Hi & Hp & _) & _). unfold nf. nia. }
  destruct (tab nf W) as [|a l] eqn:El; [apply (f_equal (@length R)) in El; rewrite tab_len in El; cbn in El; lia|].
  destruct (np_max_exact G a l) as (M & EM & Hin & Hge). rewrite EM. cbn [bind]. rewrite <- El in *.
  eexists. split; [reflexivity|].
  assert (EMax : M = B * maxto G 0 nf w).
  { assert (Hwp : forall i, (i < nf)%nat -> 0 <= w i).
    { intros i Hi. destruct (fid_split N K i Hi) as (n & fc & k & Hn & Hf & Hk & ->). destruct (fs_at _ _ _ _ _ _ _ _ _ _ _ _ HB HA n fc k Hn Hf Hk) as (P0 & _). apply Rmult_le_pos; [lra|apply speed_nonneg]. }
    apply Rle_antisym.
    - apply in_map_iff in Hin as (i & <- & Hi). apply in_seq in Hi. rewrite HW by lia. apply Rmult_le_compat_l; [lra|]. apply maxto_ge. lia.
    - destruct (maxto_attained G 0 nf w Hlen Hwp) as (i & Hi & ->). rewrite <- HW by exact Hi. apply Hge. apply in_map_iff. exists i. split; [reflexivity|apply in_seq; lia]. }
  cbn [exact fdiv]. rewrite EMax. unfold B. apply (max_rate G solve inverse junk eps eig tol N K Vert EToV el HB HA 0 g CFL q w); [lra|exact HC| |exact Hex].
  intros n fc k Hn Hf Hk. unfold w. f_equal. f_equal. destruct (maps_at _ _ _ _ _ _ _ _ _ _ _ _ HB _ _ HM HA HS _ _ _ _ _ _ Hrun n fc k Hn Hf Hk) as (Ev & _). unfold vM in Ev. rewrite Ev.
  pose proof (fn_lt _ _ _ _ _ _ _ _ _ _ _ _ HB fc n Hf Hn) as Hl. unfold cell_at, volume_id. rewrite (Nat.mul_comm Np k), Nat.mod_add, Nat.div_add, Nat.mod_small, Nat.div_small by lia. reflexivity.
Qed.
(* C101: the whole run of still water of constant depth and concentration over a level bottom: given fuel for its steps
   it returns, with the water as it was. *)
Theorem C101_still_run : Grid -> (forall k f, (k < K)%nat -> (f < 3)%nat -> tag_of bcType k f = 3%Z -> alone k f) -> tagged 3%Z -> forall F, shape F Np Np ->
  forall ceil g f CFL huge finalTime numOuts H eta u v tr h0 t0, is_ceiling ceil -> 0 < g -> 0 < h0 -> h0 <= huge -> 0 < CFL -> 0 < finalTime -> (0 < numOuts)%Z ->
  conform H Np K = true -> conform eta Np K = true -> conform u Np K = true -> conform v Np K = true -> conform tr Np K = true ->
  (forall i k, (i < Np)%nat -> (k < K)%nat -> ment H i k + ment eta i k = h0 /\ ment u i k = 0 /\ ment v i k = 0 /\ ment tr i k = t0) ->
  exists dt, 0 < dt /\ script_dt E d N g CFL (Line1DModel.mzip Rplus H eta) u v = Ok dt /\
  forall fuel, (numOuts <= ceil (finalTime / dt)%R)%Z -> (ceil (finalTime / dt)%R < Z.of_nat fuel)%Z ->
  exists s', script_run E ceil fuel d 3 (S N) Np K N g f CFL huge finalTime numOuts F H eta u v tr = Ok s' /\
    forall i k, (i < Np)%nat -> (k < K)%nat -> node_state (k_q s') i k = (h0, 0, 0, h0 * t0).
Proof.
  intros HG Hw Ht F SF ceil g f CFL huge finalTime numOuts H eta u v tr h0 t0 Hceil Hg Hh0 Hhuge HCFL Hft Hno CH Ce Cu Cv Ct Hf. pose proof HG as [HB HM HA HS Hrun Hbc].
  pose proof (Np_pos _ _ _ _ _ _ _ _ _ _ _ _ HB _ _ _ _ _ _ _ _ Hrun) as HN. assert (HK : (0 < K)%nat) by (destruct Ht as (k & _ & Hk & _); lia).
  set (h := Line1DModel.mzip Rplus H eta). assert (Ch : conform h Np K = true) by exact CH.
  destruct (C101_time_step HG g CFL h u v HCFL Ch Cu Cv) as (dt & Edt & Hdt & _).
  { intros i k Hi Hk. destruct (Hf i k Hi Hk) as (E1 & _). change (ment H i k + ment eta i k <> 0). lra. }
  { destruct (side_pt _ _ _ _ _ _ _ _ _ _ _ _ HB 0%nat 0%nat ltac:(lia) ltac:(lia)) as (t & Htt). pose proof (fn_lt _ _ _ _ _ _ _ _ _ _ _ _ HB 0%nat 0%nat ltac:(lia) ltac:(lia)) as Hl.
    pose proof (fs_at _ _ _ _ _ _ _ _ _ _ _ _ HB HA 0%nat 0%nat 0%nat ltac:(lia) ltac:(lia) ltac:(lia)) as (F1 & F2). rewrite F2 in F1.
    eexists. split; [exists 0%nat, 0%nat, (fnode el 0 0), t; repeat split; try lia; first [exact Hl|apply Htt; lia]|].
    apply Rmult_lt_0_compat; [exact F1|]. unfold at_node, h, Line1DModel.mzip. cbn [fieldc fst snd ment]. destruct (Hf _ 0%nat Hl HK) as (-> & -> & -> & _). unfold wave_speed.
    assert (0 < sqrt (g * h0)) by (apply sqrt_lt_R0, Rmult_lt_0_compat; assumption). pose proof (sqrt_pos (h0 * 0 / h0 * (h0 * 0 / h0) + h0 * 0 / h0 * (h0 * 0 / h0))). lra. }
  exists dt. split; [exact Hdt|]. split; [exact Edt|]. intros fuel Hn Hfuel.
  unfold script_run, np_zip. apply conform_ok in CH as (A1 & A2), Ce as (B1 & B2), Cu as (C1 & C2), Cv as (D1 & D2), Ct as (T1 & T2), Ch as (H1 & H2).
  rewrite A1, A2, B1, B2, !Nat.eqb_refl. cbn [andb require bind]. change (Line1DModel.mzip (fadd E) H eta) with h. rewrite H1, H2, C1, C2, D1, D2, T1, T2, !Nat.eqb_refl. cbn [andb require bind]. rewrite Edt. cbn [bind]. destruct (Z.eqb_spec numOuts 0); [lia|].
  set (ns := ceil (fdiv E finalTime dt)). change (ceil (finalTime / dt)) with ns in Hn, Hfuel. assert (Hiv : Z.quot ns numOuts <> 0%Z) by (rewrite Z.quot_div_nonneg by lia; assert (1 <= ns / numOuts)%Z by (apply Z.div_le_lower_bound; lia); lia).
  set (iv := Z.quot ns numOuts) in *. clearbody iv. change (fofn E 0) with 0. set (s := Script 0 0%Z _ _).
  assert (Hs : calm h0 (h0 * t0) (k_q s)).
  { unfold s. cbn [k_q]. split; [split|].
    - unfold four_conform, conform, Line1DModel.mzip. cbn [q_h q_hu q_hv q_hN mrows mcols]. rewrite H1, H2, !Nat.eqb_refl. reflexivity.
    - intros i k Hi Hk. cbn [q_h]. destruct (Hf i k Hi Hk) as (E1 & _). change (ment H i k + ment eta i k <> 0). lra.
    - intros i k Hi Hk. unfold node_state, h, Line1DModel.mzip. cbn [q_h q_hu q_hv q_hN ment exact fmul fadd]. destruct (Hf i k Hi Hk) as (-> & -> & -> & ->). rewrite Rmult_0_r. reflexivity. }
  assert (Hle : finalTime <= k_t s + INR (pred fuel) * dt).
  { cbn [s k_t]. destruct (Hceil (finalTime / dt)) as (_ & Hc). change (ceil (finalTime / dt)) with ns in Hc. assert (Hp : IZR ns <= INR (pred fuel)) by (rewrite INR_IZR_INZ; apply IZR_le; lia).
    replace finalTime with (finalTime / dt * dt) by (field; lra). rewrite Rplus_0_l. apply Rmult_le_compat_r; lra. }
  clearbody s. assert (Hfp : (0 < fuel)%nat) by lia. clear Hfuel. revert s Hs Hle. destruct fuel as [|fuel]; [lia|]. cbn [pred]. clear Hfp. induction fuel as [|fuel IH]; intros s Hs Hle.
  - cbn [script_loop exact flt]. unfold Rltb. cbn [INR] in Hle. destruct (Rlt_dec (k_t s) finalTime); [lra|]. exists s. split; [reflexivity|apply Hs].
  - rewrite loop_S. cbn [exact flt]. unfold Rltb. destruct (Rlt_dec (k_t s) finalTime) as [L|L]; [|exists s; split; [reflexivity|apply Hs]].
    destruct (still_step HG Hw Ht F SF g f dt (k_q s) h0 (h0 * t0) Hs) as (p & q' & _ & _ & Eq' & Cq'). unfold script_turn. rewrite Eq'. cbn [bind].
    assert (Eu : script_unstable E huge (q_h q') = Ok false).
    { unfold script_unstable. destruct Cq' as ((Cc & _) & Cn). unfold four_conform in Cc. rewrite !andb_true_iff in Cc. destruct Cc as (((Cc & _) & _) & _). apply conform_ok in Cc as (R1 & R2).
      pose proof (in_map (fabs E) _ _ (in_flat (q_h q') 0 0 ltac:(lia) ltac:(lia))) as Hin. destruct (map (fabs E) (flattenF (q_h q'))) as [|a l] eqn:El; [destruct Hin|].
      destruct (np_max_exact G a l) as (M & EM & HMx & _). rewrite EM. cbn [bind]. rewrite <- El in HMx. apply in_map_iff in HMx as (x & <- & Hx). apply in_flat_map in Hx as (k & Hk & Hx). apply in_map_iff in Hx as (i & <- & Hi). apply in_seq in Hi, Hk.
      specialize (Cn i k ltac:(lia) ltac:(lia)). unfold node_state in Cn. injection Cn as -> _ _ _. cbn [exact flt fabs]. rewrite Rabs_right by lra. unfold Rltb. destruct (Rlt_dec huge h0); [lra|]. cbn [orb]. unfold np_isnan. cbn [exact fle]. unfold Rleb. destruct (Rle_dec h0 h0); [reflexivity|lra]. }
    rewrite Eu. cbn [bind]. destruct (Z.eqb_spec iv 0); [contradiction|]. apply IH; [exact Cq'|]. cbn [k_t exact fadd]. rewrite S_INR in Hle. lra.
Qed.
End C101.

(* ---------- the run ---------- *)
Lemma output_count n iv outs l : (0 < outs <= n)%Z -> iv = Z.quot n outs -> NoDup l -> (forall c, In c l <-> due n iv c) -> (outs + 1 <= Z.of_nat (length l) <= 2 * outs)%Z.
Proof.
  intros Ho Eiv ND Hl. rewrite Z.quot_div_nonneg in Eiv by lia. pose proof (Z.div_mod n outs ltac:(lia)) as D1. rewrite <- Eiv in D1. pose proof (Z.mod_pos_bound n outs ltac:(lia)) as D2.
  assert (Hiv : (1 <= iv)%Z) by (rewrite Eiv; apply Z.div_le_lower_bound; lia).
  pose proof (Z.div_mod n iv ltac:(lia)) as D3. pose proof (Z.mod_pos_bound n iv ltac:(lia)) as D4. set (r := (n mod outs)%Z) in *. set (t := (n / iv)%Z) in *. set (u := (n mod iv)%Z) in *.
  set (L := map (fun j => (iv * Z.of_nat j)%Z) (seq 0 (S (Z.to_nat t)))).
  assert (Ht : (outs <= t)%Z) by nia.
  assert (LL : Z.of_nat (length L) = (t + 1)%Z) by (unfold L; rewrite map_length, seq_length; lia).
  assert (NL : NoDup L). { unfold L. apply FinFun.Injective_map_NoDup; [intros a b Hab; nia|apply seq_NoDup]. }
  assert (HinL : forall c, In c L <-> (0 <= c <= n)%Z /\ Z.divide iv c).
  { intro c. unfold L. rewrite in_map_iff. split.
    - intros (j & <- & Hj). apply in_seq in Hj. split; [nia|exists (Z.of_nat j); ring].
    - intros (Hc & (j & ->)). exists (Z.to_nat j). assert (0 <= j <= t)%Z by nia. split; [rewrite Z2Nat.id by lia; ring|apply in_seq; lia]. }
  split.
  - assert (length L <= length l)%nat; [|lia]. apply NoDup_incl_length; [exact NL|]. intros c Hc. apply HinL in Hc as (Hc & Hd). apply Hl. destruct (Z.eq_dec c 0); [left; assumption|right; split; [lia|left; exact Hd]].
  - destruct (Z.eq_dec u 0) as [E0|E0].
    + assert (length l <= length L)%nat.
      { apply NoDup_incl_length; [exact ND|]. intros c Hc. apply Hl in Hc. apply HinL. destruct Hc as [-> |(Hc & [Hd| ->])]; [split; [lia|apply Z.divide_0_r]|split; [lia|exact Hd]|split; [lia|exists t; lia]]. }
      assert (t + 1 <= 2 * outs)%Z; [|lia]. nia.
    + assert (length l <= length (n :: L))%nat.
      { apply NoDup_incl_length; [exact ND|]. intros c Hc. apply Hl in Hc. destruct Hc as [-> |(Hc & [Hd| ->])]; [right; apply HinL; split; [lia|apply Z.divide_0_r]|right; apply HinL; split; [lia|exact Hd]|left; reflexivity]. }
      cbn [length] in H. assert (t + 2 <= 2 * outs)%Z; [|lia]. assert (2 <= iv)%Z by lia. assert (2 <= outs)%Z by (destruct (Z.eq_dec outs 1) as [E1|]; [exfalso; rewrite E1 in *; assert (r = 0)%Z by lia; assert (n = iv)%Z by lia; assert (t = 1)%Z by nia; nia|lia]). nia.
Qed.

(* C101: a run that returns. It starts from h = H + eta and the products with it, with the step of script_dt. With
   exact arithmetic and a positive step it makes exactly numSteps steps and ends at the first time not before finalTime;
   it writes the initial fields, every outputInterval-th step and the last, each once, and what it writes are the surface
   elevation, the velocities and the concentration of that step; that is between numOuts + 1 and 2 numOuts writings. *)
Theorem C101_run G ceil fuel d NF Nfp Np K N g f CFL huge finalTime numOuts F H eta u v tr s' : is_ceiling ceil -> (0 < numOuts)%Z -> 0 < finalTime ->
  script_run (exact G) ceil fuel d NF Nfp Np K N g f CFL huge finalTime numOuts F H eta u v tr = Ok s' ->
  exists h dt q, mrows h = mrows H /\ mcols h = mcols H /\ (forall i k, ment h i k = ment H i k + ment eta i k) /\ script_dt (exact G) d N g CFL h u v = Ok dt /\
  (forall i k, node_state (q 0%nat) i k = (ment h i k, ment h i k * ment u i k, ment h i k * ment v i k, ment h i k * ment tr i k)) /\
  (0 < dt -> exists n, (0 < n)%nat /\ history Ok (script_step (exact G) F (script_rhs (exact G) d NF Nfp Np K g f) dt) n q /\ k_q s' = q n /\
    k_step s' = Z.of_nat n /\ k_t s' = INR n * dt /\ finalTime <= INR n * dt < finalTime + dt /\
    (forall c i k, (0 < c <= n)%nat -> (i < mrows (q_h (q c)))%nat -> (k < mcols (q_h (q c)))%nat -> Rabs (ment (q_h (q c)) i k) <= huge) /\
    NoDup (map fst (k_out s')) /\ (forall c, In c (map fst (k_out s')) <-> due (Z.of_nat n) (Z.of_nat n / numOuts) c) /\
    (forall c w, In (c, w) (k_out s') -> (c = 0%Z /\ w = Four eta u v tr) \/ (0 < c)%Z /\ let p := q (Z.to_nat c) in
       forall i k, node_state w i k = (ment (q_h p) i k - ment H i k, ment (q_hu p) i k / ment (q_h p) i k, ment (q_hv p) i k / ment (q_h p) i k, ment (q_hN p) i k / ment (q_h p) i k)) /\
    (numOuts <= Z.of_nat n /\ numOuts + 1 <= Z.of_nat (length (k_out s')) <= 2 * numOuts)%Z).
Proof.
  intros Hceil Hno Hft Hr. unfold script_run, np_zip in Hr. destruct ((mrows H =? mrows eta) && (mcols H =? mcols eta))%nat; [|discriminate Hr]. cbn [require bind] in Hr. set (h := Line1DModel.mzip (fadd (exact G)) H eta) in *.
  do 3 (match type of Hr with context[require ?b _] => destruct b; [|discriminate Hr] end; cbn [require bind] in Hr).
  destruct (script_dt (exact G) d N g CFL h u v) as [dt| |] eqn:Edt; [|discriminate Hr|discriminate Hr]. cbn [bind] in Hr. destruct (Z.eqb_spec numOuts 0) as [|_]; [lia|].
  set (ns := ceil (fdiv (exact G) finalTime dt)) in *. set (iv := Z.quot ns numOuts) in *. change (fofn (exact G) 0) with 0 in Hr.
  destruct (loop_history G F H _ huge dt finalTime ns iv _ _ _ Hr) as (n & hs & Hh & H0 & Hn & Hlt & Hge).
  exists h, dt, (fun i => k_q (hs i)). do 2 (split; [reflexivity|]). split; [reflexivity|]. split; [exact Edt|]. split; [intros i k; rewrite H0; reflexivity|]. intro Hdt.
  assert (Ht : forall i, (i <= n)%nat -> k_t (hs i) = INR i * dt /\ k_step (hs i) = Z.of_nat i).
  { intros i Hi. destruct (history_clock G F H (script_rhs (exact G) d NF Nfp Np K g f) huge dt ns iv i hs) as (A1 & A2); [intros j Hj; apply Hh; lia|]. rewrite A1, A2, H0. cbn [k_t k_step]. split; [ring|lia]. }
  rewrite <- Hn in Hge. rewrite (proj1 (Ht n ltac:(lia))) in Hge.
  assert (Hn0 : (0 < n)%nat) by (destruct n; [cbn [INR] in Hge; lra|lia]).
  assert (Hup : INR n * dt < finalTime + dt). { destruct n as [|n']; [lia|]. specialize (Hlt n' ltac:(lia)). rewrite (proj1 (Ht n' ltac:(lia))) in Hlt. rewrite S_INR. lra. }
  assert (Ens : ns = Z.of_nat n).
  { destruct (Hceil (finalTime / dt)) as (C1 & C2). change (ceil (finalTime / dt)) with ns in C1, C2.
    assert (X1 : finalTime / dt <= INR n) by (apply (Rmult_le_reg_r dt); [exact Hdt|]; replace (finalTime / dt * dt) with finalTime by (field; lra); exact Hge).
    assert (X2 : INR n < finalTime / dt + 1) by (apply (Rmult_lt_reg_r dt); [exact Hdt|]; replace ((finalTime / dt + 1) * dt) with (finalTime + dt) by (field; lra); exact Hup).
    rewrite INR_IZR_INZ in X1, X2. assert (IZR ns - 1 < IZR (Z.of_nat n)) as Y1 by lra. assert (IZR (Z.of_nat n) - 1 < IZR ns) as Y2 by lra. rewrite <- minus_IZR in Y1, Y2. apply lt_IZR in Y1, Y2. lia. }
  assert (Hiv : iv <> 0%Z) by (apply (turn_inv G _ _ _ _ _ _ _ _ _ (Hh 0%nat Hn0))).
  assert (Hle : (numOuts <= Z.of_nat n)%Z). { destruct (Z.le_gt_cases numOuts (Z.of_nat n)) as [|Hlt2]; [assumption|]. exfalso. apply Hiv. unfold iv. rewrite Ens. apply Z.quot_small. lia. }
  assert (Eiv : iv = (Z.of_nat n / numOuts)%Z) by (unfold iv; rewrite Ens; apply Z.quot_div_nonneg; lia).
  assert (Hout : forall j, (j <= n)%nat -> NoDup (map fst (k_out (hs j))) /\ (forall c, In c (map fst (k_out (hs j))) <-> (c <= Z.of_nat j)%Z /\ due (Z.of_nat n) iv c) /\
    (forall c w, In (c, w) (k_out (hs j)) -> (c = 0%Z /\ w = Four eta u v tr) \/ (0 < c <= Z.of_nat j)%Z /\ w = shown (exact G) H (k_q (hs (Z.to_nat c))))).
  { induction j as [|j IH]; intro Hj.
    - rewrite H0. cbn [k_out map fst]. split; [repeat constructor; intros []|]. split.
      + intro c. split; [intros [<- |[]]; split; [lia|left; reflexivity]|]. intros (Hc & [-> |(Hc2 & _)]); [left; reflexivity|lia].
      + intros c w [Ecw|[]]. injection Ecw as <- <-. left. split; reflexivity.
    - destruct (IH ltac:(lia)) as (I1 & I2 & I3). destruct (turn_inv G _ _ _ _ _ _ _ _ _ (Hh j ltac:(lia))) as (_ & _ & _ & _ & _ & Eo). rewrite (proj2 (Ht (S j) Hj)), Ens in Eo.
      assert (Hd : ((Z.of_nat (S j) mod iv =? 0) || (Z.of_nat (S j) =? Z.of_nat n))%Z = true <-> due (Z.of_nat n) iv (Z.of_nat (S j))).
      { rewrite orb_true_iff, !Z.eqb_eq, Z.mod_divide by exact Hiv. unfold due. split; [intro X; right; split; [lia|exact X]|]. intros [X|(_ & X)]; [lia|exact X]. }
      destruct ((Z.of_nat (S j) mod iv =? 0) || (Z.of_nat (S j) =? Z.of_nat n))%Z eqn:Eb; try rewrite Eb in Eo; try rewrite Eb in Hd; rewrite Eo; cbn [map fst].
      + split; [constructor; [rewrite I2; lia|exact I1]|]. split.
        * intro c. split; [intros [<- |Hc]; [split; [lia|apply Hd; reflexivity]|apply I2 in Hc; split; [lia|apply Hc]]|]. intros (Hc & Hdu). destruct (Z.eq_dec c (Z.of_nat (S j))) as [-> |]; [left; reflexivity|right; apply I2; split; [lia|exact Hdu]].
        * intros c w [Ecw|Hin]; [injection Ecw as <- <-; right; split; [lia|]; rewrite Nat2Z.id; reflexivity|]. destruct (I3 c w Hin) as [X|(X & Y)]; [left; exact X|right; split; [lia|exact Y]].
      + split; [exact I1|]. split.
        * intro c. rewrite I2. split; [intros (X & Y); split; [lia|exact Y]|]. intros (X & Y). split; [|exact Y]. destruct (Z.eq_dec c (Z.of_nat (S j))) as [-> |]; [|lia]. apply Hd in Y. discriminate Y.
        * intros c w Hin. destruct (I3 c w Hin) as [X|(X & Y)]; [left; exact X|right; split; [lia|exact Y]]. }
  destruct (Hout n ltac:(lia)) as (O1 & O2 & O3). rewrite Hn in O1, O2, O3.
  assert (O2' : forall c, In c (map fst (k_out s')) <-> due (Z.of_nat n) iv c). { intro c. rewrite O2. split; [intros (_ & X); exact X|]. intro X. split; [|exact X]. destruct X as [-> |(X & _)]; lia. }
  exists n. split; [exact Hn0|]. split. { intros i Hi. destruct (turn_inv G _ _ _ _ _ _ _ _ _ (Hh i Hi)) as (X & _). exact X. }
  split; [rewrite Hn; reflexivity|]. rewrite <- Hn. destruct (Ht n ltac:(lia)) as (T1 & T2). rewrite T1, T2. split; [reflexivity|]. split; [reflexivity|]. split; [split; [exact Hge|exact Hup]|]. rewrite Hn.
  split.
  { intros c i k Hc Hi Hk. destruct c as [|c]; [lia|]. destruct (turn_inv G _ _ _ _ _ _ _ _ _ (Hh c ltac:(lia))) as (_ & Eu & _). unfold script_unstable in Eu. set (X := q_h (k_q (hs (S c)))) in *.
    pose proof (in_map (fabs (exact G)) _ _ (in_flat X i k Hi Hk)) as Hin. destruct (map (fabs (exact G)) (flattenF X)) as [|a l]; [destruct Hin|]. destruct (np_max_exact G a l) as (M & EM & _ & HM). rewrite EM in Eu. cbn [bind] in Eu.
    injection Eu as Eu. apply orb_false_iff in Eu as (Eu & _). cbn [exact flt] in Eu. unfold Rltb in Eu. destruct (Rlt_dec huge M); [discriminate Eu|]. specialize (HM _ Hin). cbn [exact fabs] in HM. lra. }
  split; [exact O1|]. split; [rewrite <- Eiv; exact O2'|]. split.
  - intros c w Hin. destruct (O3 c w Hin) as [X|(X & ->)]; [left; exact X|right]. split; [lia|]. intros i k. reflexivity.
  - split; [exact Hle|]. pose proof (output_count (Z.of_nat n) iv numOuts (map fst (k_out s')) ltac:(lia) ltac:(unfold iv; rewrite Ens; reflexivity) O1 O2') as X. rewrite map_length in X. exact X.
Qed.

(* C101, what fails: with fewer steps than outputs outputInterval is zero, and the first step that is let through ends the
   run with a division by zero. *)
Theorem C101_few_steps_refuted G fuel F H rhs huge dt finalTime numSteps numOuts s q : (0 < numSteps < numOuts)%Z -> k_t s < finalTime ->
  script_step (exact G) F rhs dt (k_q s) = Ok q -> (0 < mrows (q_h q) * mcols (q_h q))%nat ->
  script_loop (exact G) (S fuel) F H rhs huge dt finalTime numSteps (Z.quot numSteps numOuts) s = Throw.
Proof.
  intros Hn Ht Es Hne. rewrite Z.quot_small by lia. cbn [script_loop exact flt]. unfold Rltb. destruct (Rlt_dec (k_t s) finalTime); [|lra]. unfold script_turn. rewrite Es. cbn [bind].
  unfold script_unstable. pose proof (in_map (fabs (exact G)) _ _ (in_flat (q_h q) 0 0 ltac:(nia) ltac:(nia))) as Hin. destruct (map (fabs (exact G)) (flattenF (q_h q))) as [|a l]; [destruct Hin|].
  destruct (np_max_exact G a l) as (M & EM & _). rewrite EM. cbn [bind]. destruct (_ || _); reflexivity.
Qed.

(* C101: a NaN anywhere in the depth ends the run (in doubles; C78 has the C++ driver, which lets it pass). *)
Theorem C101_nan_caught gp gg F H rhs huge dt numSteps interval s q i k : script_step (dbl_arith gp gg) F rhs dt (k_q s) = Ok q ->
  (i < mrows (q_h q))%nat -> (k < mcols (q_h q))%nat -> ment (q_h q) i k = S754_nan ->
  script_turn (dbl_arith gp gg) F H rhs huge dt numSteps interval s = Throw.
Proof.
  intros Es Hi Hk En. unfold script_turn. rewrite Es. cbn [bind]. unfold script_unstable. pose proof (in_map (fabs (dbl_arith gp gg)) _ _ (in_flat (q_h q) i k Hi Hk)) as Hin.
  destruct (nan_max (dbl_arith gp gg) _ _ Hin) as (M & EM & Hm); [rewrite En; reflexivity|]. rewrite EM. cbn [bind]. rewrite Hm, orb_true_r. reflexivity.
Qed.

(* The hypotheses are met: two triangles with walls all around, order one, a filter as in the script (cutoff nine tenths of
   the order); still water for a history with water at every node, a ceiling and a run that returns. *)
Example C101_witness :
  let Vert := [0; 0; 0;  1; 0; 0;  1; 1; 0;  0; 1; 0] in let EToV := [0; 1; 2;  0; 2; 3]%nat in
  let E2E := [0; 0; 1;  0; 1; 1]%nat in let E2F := [0; 1; 0;  2; 1; 2]%nat in let bcType := [3; 3; 0; 0; 3; 3]%Z in
  exists el m F s q0 ceil dt fuel s', let Np := length (e_r el) in let rhs := script_rhs (exact gwit) (tables_of el m) 3 2 Np 2 1 (1 / 2) in let M c := mkmat Np 2 (fun _ _ => c) in
    sw_grid gwit cramer cramer_inv junk0 0 eig0 (1 / 10) isort (fun _ => 0) (fun _ => 0%nat) 1 2 Vert EToV E2E E2F bcType el m /\
    (exists k f, (k < 2)%nat /\ (f < 3)%nat /\ tag_of bcType k f = 3%Z) /\
    (forall k f, (k < 2)%nat -> (f < 3)%nat -> tag_of bcType k f = 3%Z <-> forall k2 f2, (f2 < 3)%nat -> ~ joined EToV k f k2 f2) /\
    buildFilter (exact gwit) pow exp ln (1 / 2) 1 (e_V el) (e_Vinv el) (9 / 10) 4 = Ok F /\ 0 < 9 / 10 /\ INR 1 <> 9 / 10 /\ shape F Np Np /\
    history Ok (script_step (exact gwit) F rhs dt) 5 s /\
    (forall i, (i < 5)%nat -> has_water Np 2 (s i) /\ forall p, predictor (exact gwit) F rhs dt (s i) = Ok p -> has_water Np 2 p) /\
    (* a state not at rest, with water *)
    has_water Np 2 q0 /\ ment (q_hu q0) 1 0 = 1 /\
    is_ceiling ceil /\ 0 < dt /\ script_run (exact gwit) ceil fuel (tables_of el m) 3 2 Np 2 1 1 (1 / 2) (4 / 5) 100 (5 * dt) 2 F (M 1) (M 0) (M 0) (M 0) (M 3) = Ok s'.
Proof.
  intros Vert EToV E2E E2F bcType. destruct C49_witness as (Hg & Hcl & _). destruct (Hg bcType (or_introl eq_refl)) as (el & m & HG & _).
  pose proof (sg_built _ _ _ _ _ _ _ _ _ _ _ _ _ _ _ _ _ _ _ HG) as HB.
  destruct (C41_filter _ _ _ _ _ _ _ _ _ _ _ _ HB (1 / 2) (9 / 10) 4%nat ltac:(lra) ltac:(cbn; lra)) as (F & EF & SF & _).
  set (Np := length (e_r el)) in *. set (M := fun c : R => mkmat Np 2 (fun _ _ => c)).
  assert (Htag : exists k f, (k < 2)%nat /\ (f < 3)%nat /\ tag_of bcType k f = 3%Z) by (exists 0%nat, 0%nat; repeat split; lia).
  assert (Hw : forall k f, (k < 2)%nat -> (f < 3)%nat -> tag_of bcType k f = 3%Z -> forall k2 f2, (f2 < 3)%nat -> ~ joined EToV k f k2 f2) by (intros k f Hk Hf; apply (proj1 (Hcl k f Hk Hf))).
  set (ceil := fun x => (- Int_part (- x))%Z).
  assert (Hceil : is_ceiling ceil). { intro x. unfold ceil. rewrite opp_IZR. destruct (base_Int_part (- x)) as (I1 & I2). lra. }
  assert (CM : forall c, conform (M c) Np 2 = true) by (intro c; unfold conform; cbn; rewrite !Nat.eqb_refl; reflexivity).
  pose proof (fun ft => C101_still_run gwit cramer cramer_inv junk0 0 eig0 (1 / 10) isort (fun _ => 0) (fun _ => 0%nat) 1 2 Vert EToV E2E E2F bcType el m HG Hw Htag F SF ceil 1 (1 / 2) (4 / 5) 100 ft 2%Z (M 1) (M 0) (M 0) (M 0) (M 3) 1 3 Hceil ltac:(lra) ltac:(lra) ltac:(lra) ltac:(lra)) as HR.
  assert (HR' : forall ft, 0 < ft -> exists dt, 0 < dt /\ script_dt (exact gwit) (tables_of el m) 1 1 (4 / 5) (Line1DModel.mzip Rplus (M 1) (M 0)) (M 0) (M 0) = Ok dt /\ forall fuel, (2 <= ceil (ft / dt)%R)%Z -> (ceil (ft / dt)%R < Z.of_nat fuel)%Z ->
    exists s', script_run (exact gwit) ceil fuel (tables_of el m) 3 2 Np 2 1 1 (1 / 2) (4 / 5) 100 ft 2 F (M 1) (M 0) (M 0) (M 0) (M 3) = Ok s').
  { intros ft Hft. destruct (HR ft Hft ltac:(lia) (CM 1) (CM 0) (CM 0) (CM 0) (CM 3)) as (dt & H1 & H2 & H3); [intros i k _ _; cbn; repeat split; ring|].
    exists dt. split; [exact H1|]. split; [exact H2|]. intros fuel Ha Hb. destruct (H3 fuel Ha Hb) as (s' & Es' & _). exists s'. exact Es'. }
  clear HR. destruct (HR' 1 ltac:(lra)) as (dt & Hdt & Edt & _). destruct (HR' (5 * dt) ltac:(lra)) as (dt' & _ & Edt' & Hrun). assert (dt' = dt) by congruence. subst dt'.
  assert (E5 : 5 * dt / dt = 5) by (field; lra). rewrite E5 in Hrun. assert (C5 : ceil 5 = 5%Z).
  { destruct (Hceil 5) as (I1 & I2). assert (IZR (ceil 5) < 6) as I3 by lra. apply lt_IZR in I3. apply le_IZR in I2. lia. }
  destruct (Hrun 6%nat) as (s' & Es'); [rewrite C5; lia|rewrite C5; lia|].
  set (q := Four (M 1) (M 0) (M 0) (M 3)).
  assert (Hq : has_water Np 2 q). { split; [unfold four_conform, q; cbn [q_h q_hu q_hv q_hN]; rewrite !CM; reflexivity|]. intros i k _ _. cbn. lra. }
  destruct (C101_still_water gwit cramer cramer_inv junk0 0 eig0 (1 / 10) isort (fun _ => 0) (fun _ => 0%nat) 1 2 Vert EToV E2E E2F bcType el m HG Hw Htag F SF 1 (1 / 2) dt q 1 3 (conj Hq (fun i k _ _ => eq_refl)) 5) as (s & S0 & Hh & Hs).
  exists el, m, F, s, (Four (M 1) (mkmat Np 2 (fun i k => INR i)) (M 0) (M 3)), ceil, dt, 6%nat, s'. cbv zeta.
  split; [exact HG|]. split; [exact Htag|]. split; [exact Hcl|]. split; [exact EF|]. split; [lra|]. split; [cbn; lra|]. split; [exact SF|]. split; [exact Hh|]. split.
  - intros i Hi. destruct (Hs i ltac:(lia)) as ((W & _) & p & Ep & (Wp & _)). split; [exact W|]. intros p' Ep'. assert (X : Ok p' = Ok p) by (rewrite <- Ep; symmetry; exact Ep'). injection X as ->. exact Wp.
  - split; [split; [unfold four_conform; cbn [q_h q_hu q_hv q_hN]; rewrite !CM; unfold conform; cbn; rewrite !Nat.eqb_refl; reflexivity|intros i k _ _; cbn; lra]|]. split; [reflexivity|]. split; [exact Hceil|]. split; [exact Hdt|exact Es'].
Qed.
(* fewer steps than outputs; and a step in doubles that leaves a NaN *)
Example C101_witness_stop : exists (rhs : four (mat R) -> outcome (four (mat R))) F q q', script_step (exact gwit) F rhs (1 / 10) q = Ok q' /\ (0 < mrows (q_h q') * mcols (q_h q'))%nat /\ (0 < 3 < 200)%Z.
Proof.
  set (M := mkmat 1 1 (fun _ _ => 1) : mat R). exists (fun q => Ok q), M, (Four M M M M). eexists. split; [reflexivity|]. split; [cbn; lia|lia].
Qed.
Example C101_witness_nan gp gg : exists (rhs : four (mat spec_float) -> outcome (four (mat spec_float))) F q q', script_step (dbl_arith gp gg) F rhs S754_nan q = Ok q' /\ (0 < mrows (q_h q'))%nat /\ (0 < mcols (q_h q'))%nat /\ ment (q_h q') 0 0 = S754_nan.
Proof.
  set (M := mkmat 1 1 (fun _ _ => fofn (dbl_arith gp gg) 1) : mat spec_float). exists (fun q => Ok q), M, (Four M M M M). eexists. split; [reflexivity|]. split; [cbn; lia|]. split; [cbn; lia|reflexivity].
Qed.
Print Assumptions C101_scheme.
Print Assumptions C101_step_runs.
Print Assumptions C101_midpoint.
Print Assumptions C101_keeps_water_and_tracer.
Print Assumptions C101_uniform_concentration.
Print Assumptions C101_still_water.
Print Assumptions C101_still_run.
Print Assumptions C101_time_step.
Print Assumptions C101_run.
Print Assumptions C101_few_steps_refuted.
Print Assumptions C101_nan_caught.
