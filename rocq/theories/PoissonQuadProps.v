(* PoissonQuadProps.v - C108: the Poisson operator on quadrilaterals, and the program src/ins2d that asks for it. *)
From Coq Require Import ZArith List Lia Bool Arith.
From Coq Require SpecFloat.
From Verif Require Import Base Loops Num BlitzModel JacobiModel JacobiSpec JacobiProofs JacobiQuadProofs JacobiExactProofs Nodes1DModel Nodes1DSpec Nodes1DExactProofs DenseSpec DenseModel CscModel
  MeshSpec MeshGeoProofs TriModel TriSpec TriGeoSpec TriOpProofs TriProofs QuadModel QuadSpec QuadSetup QuadBasisProofs QuadNodesProofs QuadElemProofs QuadGeoProofs QuadProps Maps2DModel Maps2DSpec Maps2DProofs Maps2DProps TriMapsProofs TriMapsProps QuadMapsProofs QuadMapsProps
  RKModel Line1DModel Line1DProofs SwModel SwSpec SwProofs SwSchemeProofs SwStepModel SwStepSpec SwStepProofs QuadGradProofs PoissonModel PoissonRhsModel InsModel InsSpec InsProofs InsGridProofs InsRunProofs InsProps InsRunModel PoissonQuadSpec PoissonQuadProofs CurvedRunProofs QuadOpProofs UniqueProofs TriWitness QuadWitness.
From Coq Require Import Reals Lra.
Import ListNotations.
Local Open Scope R_scope.

(* C108, in any arithmetic, rounded or not: if of the nodes of the line exactly the last one is within the tolerance of 1, and
   the inverter reports a matrix with equal rows as singular, then neither the operator nor the boundary right-hand side can be
   built on quadrilaterals of order N: the side r = 1 is described by its r coordinates. *)
Theorem C108_any_arithmetic_refuted {T} (A : arith T) inverse junk eps eig tol N r s ms v :
  returns_square (S N) inverse -> rejects_equal_rows (S N) inverse -> quadNodes A junk eps eig tol N = Ok (r, s, ms) ->
  let x := computeGaussLobottoPoints A eig eps (fofn A 0) (fofn A 0) N in length x = S N -> nth_error x N = Some v ->
  (forall j t, nth_error x j = Some t -> flt A (fabs A (fsub A t (fofn A 1))) tol = true <-> j = N) ->
  forall p K M jk bordered skipDG ubc qbc, let Np := (S N * S N)%nat in ptables_conform p 4 (S N) Np K = true -> p_r p = r -> p_s p = s -> p_Fm p = qmask_table N ms ->
  build A inverse junk jk p 4 Np (S N) K M bordered skipDG = Throw /\ buildBcRhs A inverse junk p 4 Np (S N) K M ubc qbc = Throw.
Proof.
  intros HR HE HQ x Lx Ev Hone p K M jk bordered skipDG ubc qbc Np HC E1 E2 E3.
  destruct (face1_value A junk eps eig tol N r s ms v Lx HQ Ev Hone) as (L1 & L2 & HB & Hv).
  split; [eapply build_throw with (r := r) (s := s) (v := v)|eapply bcRhs_throw with (r := r) (s := s) (v := v)]; try eassumption; try reflexivity.
  all: intros; cbn [ment qmask_table]; auto.
Qed.

Lemma nth_tab {X} (f : nat -> X) n i d : (i < n)%nat -> nth i (map f (seq 0 n)) d = f i.
Proof. intro H. rewrite (nth_indep _ d (f 0%nat)) by (rewrite map_length, seq_length; exact H). rewrite map_nth, seq_nth by exact H. reflexivity. Qed.
Lemma inverter_square inverse n : inverter_ok inverse -> returns_square n inverse.
Proof.
  intros HI M X M1 M2 X1 X2. destruct (HI n M X (conj M1 M2) (conj X1 X2)) as [E|(Y & E & (Y1 & Y2) & _)]; [left; exact E|right; exists Y; auto].
Qed.
Lemma inverter_rejects inverse n : (2 <= n)%nat -> inverter_ok inverse -> rejects_equal_rows n inverse.
Proof.
  intros Hn HI M X M1 M2 X1 X2 Heq. destruct (HI n M X (conj M1 M2) (conj X1 X2)) as [E|(Y & E & _ & HY)]; [exact E|exfalso].
  destruct (HY 0%nat 0%nat) as (A & _); [lia|lia|]. destruct (HY 1%nat 0%nat) as (B & _); [lia|lia|]. cbn [Nat.eqb] in A, B.
  assert (C : sumn n (fun k => ment M 0 k * ment Y k 0%nat) = sumn n (fun k => ment M 1 k * ment Y k 0%nat)) by (apply sumn_ext; intros k Hk; rewrite (Heq 0%nat 1%nat k) by lia; reflexivity).
  lra.
Qed.

Section C108.
Context (G : R -> R) (solve : mat R -> mat R -> mat R -> outcome (mat R)) (inverse : mat R -> mat R -> outcome (mat R))
  (junk : nat -> nat -> R) (eps : R) (eig : nat -> (nat -> nat -> R) -> list R * (nat -> nat -> R)) (tol : R).
Local Notation Np N := ((N + 1) * (N + 1))%nat.

(* C108: whatever the mesh of quadrilaterals, the order, the tags and the two flags, construction of the operator throws, and so
   does the boundary right-hand side, whatever the data. *)
Theorem C108_operator_refuted N K Vert EToV el m E2E E2F bcType jk bordered skipDG ubc qbc : qbuilt G solve inverse junk eps eig tol N K Vert EToV el ->
  let p := quad_ptables N el m E2E E2F bcType in
  build (exact G) inverse junk jk p 4 (Np N) (S N) K N bordered skipDG = Throw /\ buildBcRhs (exact G) inverse junk p 4 (Np N) (S N) K N ubc qbc = Throw.
Proof.
  intros HB p. pose proof (qb_order _ _ _ _ _ _ _ _ _ _ _ _ HB) as HN. pose proof (qb_inverse _ _ _ _ _ _ _ _ _ _ _ _ HB) as HI.
  assert (HC : ptables_conform p 4 (S N) (Np N) K = true).
  { unfold ptables_conform. change (p_dg p) with (tables_of el m). rewrite (qconform _ _ _ _ _ _ _ _ _ _ _ _ HB (repeat 0%Z (4 * K)) m ltac:(rewrite repeat_length; lia)).
    destruct (qelement_ok _ _ _ _ _ _ _ _ _ _ _ _ HB) as [Hn masks edge_i SV SVi V Vi Vi' SL lift D x metric nrm]. destruct D as (Vr & Vs & S1 & S2 & _). destruct x as (Sx & Sy & _). replace (S N * S N)%nat with (Np N) in * by lia.
    unfold p, quad_ptables. cbn [p_Vinv p_J]. rewrite metric. unfold metricTerms. cbn [g_J]. unfold shape in *. destruct S1 as (D1 & D2), S2 as (D3 & D4), Sx as (X1 & X2), Sy as (Y1 & Y2), SVi as (W1 & W2).
    cbn [andb]. rewrite !andb_true_iff, !conform_ok. unfold TriModel.mzip, Nodes1DModel.mmul. cbn [mrows mcols]. repeat split; try tauto; congruence. }
  pose proof (qelement_ok _ _ _ _ _ _ _ _ _ _ _ _ HB) as HF. destruct (q_nodes _ _ _ _ _ _ _ _ HF) as (L1 & L2 & HQ). pose proof (q_masks _ _ _ _ _ _ _ _ HF) as Em.
  replace (S N * S N)%nat with (Np N) in * by lia. set (gN := nth N (computeGaussLobottoPoints (exact G) eig eps 0 0 N) 0) in *.
  assert (Hm : forall i f, (i < S N)%nat -> (f < 4)%nat -> nth i (nth f (e_masks el) []) 0%nat = qpos N f i).
  { intros i f Hi Hf. rewrite Em, nth_tab by exact Hf. apply nth_tab, Hi. }
  assert (HB' : forall i f, (i < S N)%nat -> (f < 4)%nat -> (ment (qmask_table N (e_masks el)) i f < Np N)%nat).
  { intros i f Hi Hf. cbn [ment qmask_table]. rewrite Hm by assumption. pose proof (qpos_lt N f i ltac:(lia)). lia. }
  assert (Hv : forall i d, (i < S N)%nat -> nth (ment (qmask_table N (e_masks el)) i 1) (e_r el) d = gN).
  { intros i d Hi. cbn [ment qmask_table]. rewrite Hm by lia. pose proof (qpos_lt N 1 i ltac:(lia)) as Hl. rewrite (nth_indep _ d 0) by lia. destruct (HQ (qpos N 1 i) ltac:(lia)) as (-> & _).
    rewrite (f_equal fst (qpos_dm N 1 i ltac:(lia)) : (_ / _ = _)%nat). reflexivity. }
  pose proof (inverter_square inverse (S N) HI) as HR2. pose proof (inverter_rejects inverse (S N) ltac:(lia) HI) as HE2.
  split.
  - exact (build_throw (exact G) inverse junk N (Np N) HR2 HE2 (e_r el) (e_s el) (qmask_table N (e_masks el)) eq_refl eq_refl HB' L1 gN Hv p K N jk bordered skipDG HC eq_refl eq_refl eq_refl).
  - exact (bcRhs_throw (exact G) inverse junk N (Np N) HR2 HE2 (e_r el) (e_s el) (qmask_table N (e_masks el)) eq_refl eq_refl HB' L1 gN Hv p K N ubc qbc HC eq_refl eq_refl eq_refl).
Qed.

(* C108: so the program ins2d never reaches its time loop and never writes a file: on every mesh, with every parameter, for every
   number of steps, the run throws (or never gets as far as the operator). *)
Variables (junkv : nat -> R) (junkn : nat -> nat) (jk : nat * R) (lowest highest : R) (ftanh fexp flog : R -> R) (powi : R -> nat -> R)
  (sort : (nat -> nat -> bool) -> list nat -> list nat) (factorize : csc R -> outcome unit).
Local Notation setup := (ins_setup (exact G) solve inverse junk junkv junkn jk lowest highest ftanh fexp flog powi rhypot eig sort eps tol factorize).
Local Notation program := (ins_program (exact G) solve inverse junk junkv junkn jk lowest highest ftanh fexp flog powi rhypot eig sort eps tol factorize).
Theorem C108_never_runs_refuted N K Vert EToV E2E E2F bcType : gamma_like G -> solver_ok solve -> inverter_ok inverse ->
  ((3 <= N)%nat -> let J := quad_matrix (exact G) eps (0 + 1) (0 + 1) (N - 2) in eigen_solution (N - 1) J (fst (eig (N - 1)%nat J)) (snd (eig (N - 1)%nat J))) ->
  0 <= eps <= 1 / 5 -> 0 < tol -> (1 <= N)%nat -> qmesh_ok K Vert EToV ->
  forall g CFL cutoff t0 finalTime huge sp fuel vorts s, program fuel vorts N K Vert EToV E2E E2F bcType g CFL cutoff t0 finalTime huge sp <> Ok s.
Proof.
  intros HG Hs Hi He Hep Ht HN HM g CFL cutoff t0 finalTime huge sp fuel vorts s. unfold ins_program, ins_setup. cbv zeta.
  destruct (buildQuad _ _ _ _ _ _ _ _ _ _ _) as [el| |] eqn:EB; [|discriminate|discriminate]. cbn [bind].
  assert (HB : qbuilt G solve inverse junk eps eig tol N K Vert EToV el) by (constructor; assumption).
  destruct (buildMaps _ _ _ _ _ _ _ _ _ _ _ _ _ _ _ _ _ _ _) as [m| |]; [|discriminate|discriminate]. cbn [bind].
  destruct (quadFilter _ _ _ _ _ _ _ _ _ _) as [F| |]; [|discriminate|discriminate]. cbn [bind ins_initial].
  destruct (ins_fsc _ _ _ _ _ _ _ _ _) as [Fsc| |]; [|discriminate|discriminate]. cbn [bind].
  destruct (fullToVector (e_y el) _ _) as [yV| |]; [|discriminate|discriminate]. cbn [bind].
  destruct (fullToVector (mzip _ _ _) _ _) as [rV| |]; [|discriminate|discriminate]. cbn [bind].
  rewrite (proj1 (C108_operator_refuted N K Vert EToV el m E2E E2F bcType jk 1 0 (mkmat 0 0 junk) (mkmat 0 0 junk) HB)). discriminate.
Qed.
(* C108: on every grid the program can build the set-up throws, whatever the parameters, and so does the program. *)
Theorem C108_throws_refuted N K Vert EToV E2E E2F bcType el m : powi = pow -> ins_grid G solve inverse junk eps eig tol sort junkv junkn N K Vert EToV E2E E2F bcType el m ->
  forall g CFL cutoff sp t0 finalTime huge fuel vorts, setup N K Vert EToV E2E E2F bcType g CFL cutoff sp = Throw /\
  program fuel vorts N K Vert EToV E2E E2F bcType g CFL cutoff t0 finalTime huge sp = Throw.
Proof.
  intros Ep [HB HM HX HS Hrun Hbc] g CFL cutoff sp t0 finalTime huge fuel vorts.
  assert (X : setup N K Vert EToV E2E E2F bcType g CFL cutoff sp = Throw).
  { pose proof (qelement_ok _ _ _ _ _ _ _ _ _ _ _ _ HB) as HF. destruct (q_x _ _ _ _ _ _ _ _ HF) as ((X1 & X2) & (Y1 & Y2) & _). replace (S N * S N)%nat with (Np N) in * by lia.
    unfold ins_setup. cbv zeta. rewrite (qb_ok _ _ _ _ _ _ _ _ _ _ _ _ HB). cbn [bind]. unfold qmask_table in Hrun. rewrite Hrun. cbn [bind].
    destruct HF as [Hn masks edge_i SV SVi V Vi Vi' SL lift D x metric nrm]. destruct Hn as (lr & ls & _).
    destruct (qfilter_ok G N (e_r el) (e_s el) lr ls (e_V el) SV V (e_Vinv el) SVi Vi fexp flog eps (fmul (exact G) cutoff (fofn (exact G) N)) sp) as (F & EF & _). rewrite Ep, EF. cbn [bind ins_initial].
    set (q := ins_initial (exact G) ftanh (Np N) K (e_x el) (e_y el)).
    assert (HQ : state_conform q (Np N) K = true).
    { unfold q, state_conform, ins_initial. unfold TriModel.mzip, Line1DModel.mzip, mzero. rewrite !andb_true_iff, !conform_ok. cbn [mrows mcols]. repeat split; assumption. }
    pose proof (fsc_ok _ _ _ _ _ _ _ _ _ _ _ _ HB E2E E2F HM HS _ _ _ _ _ Hrun Hbc junk junkv q HQ) as EFsc. cbn [q ins_initial fieldc fst snd] in EFsc. change (quad_dg el m) with (tables_of el m).
    rewrite EFsc. cbn [bind].
    erewrite (full_tab (e_y el)) by (try eassumption; try (rewrite repeat_length; reflexivity); lia). cbn [bind].
    erewrite full_tab; [|exact X1|exact X2|lia|apply repeat_length]. cbn [bind].
    rewrite (proj1 (C108_operator_refuted N K Vert EToV el m E2E E2F bcType jk 1 0 (mkmat 0 0 junk) (mkmat 0 0 junk) HB)). reflexivity. }
  split; [exact X|]. unfold ins_program. rewrite X. reflexivity.
Qed.
End C108.

(* C108: the fields the program starts from: the fluid is at rest, and its density is everywhere strictly between 1 and 1.003
   and strictly smaller the higher the point, so that the layering is stable. *)
Theorem C108_initial G Np K x y : shape x Np K -> shape y Np K ->
  let q := ins_initial (exact G) tanh Np K x y in
  (forall i j, ment (fieldc 1 q) i j = 0 /\ ment (fieldc 2 q) i j = 0 /\ 1 < ment (fieldc 0 q) i j < 1 + 3 / 1000) /\
  (forall i j i' j', ment x i j = ment x i' j' -> ment y i j < ment y i' j' -> ment (fieldc 0 q) i' j' < ment (fieldc 0 q) i j) /\
  (forall i j, ment (fieldc 0 q) i j = 1 + 3 / 1000 * ((1 - tanh (5 * (ment y i j + 5 / 1000 * ment x i j + 75 / 1000))) / 2)) /\
  forall c, (c < 3)%nat -> shape (fieldc c q) Np K.
Proof.
  intros [X1 X2] [Y1 Y2] q.
  assert (E : forall i j, ment (fieldc 0 q) i j = 1 + 3 / 1000 * ((1 - tanh (5 * (ment y i j + 5 / 1000 * ment x i j + 75 / 1000))) / 2)).
  { intros i j. unfold q, ins_initial. cbn [fieldc fst snd]. unfold TriModel.mzip, Line1DModel.mzip, ins_density, dec. cbn [ment]. rewrite !fofn_INR. cbn [exact fadd fmul fdiv fopp].
    rewrite ?INR_IZR_INZ. change (Z.of_nat 5) with 5%Z. change (Z.of_nat 1) with 1%Z. change (Z.of_nat 2) with 2%Z. change (Z.of_nat 3) with 3%Z. change (Z.of_nat 1000) with 1000%Z. change (Z.of_nat 75) with 75%Z. lra. }
  split; [|split; [|split; [exact E|]]].
  - intros i j. split; [|split]; try (unfold q, ins_initial, mzero; cbn [fieldc fst snd ment]; try rewrite fofn_INR; reflexivity). rewrite E. pose proof (tanh_range (5 * (ment y i j + 5 / 1000 * ment x i j + 75 / 1000))). lra.
  - intros i j i' j' Hx Hy. rewrite !E, Hx. pose proof (tanh_mono (5 * (ment y i j + 5 / 1000 * ment x i' j' + 75 / 1000)) (5 * (ment y i' j' + 5 / 1000 * ment x i' j' + 75 / 1000)) ltac:(lra)). lra.
  - intros c Hc. destruct c as [|[|[|c]]]; try lia; unfold q, ins_initial; cbn [fieldc fst snd]; split; cbn [mrows mcols mzero mzip]; auto.
Qed.

(* the grid of two unit squares meets the hypotheses of the theorems on built grids *)
Example C108_witness : exists el m, ins_grid gwit solve4 inverse4 junk0 0 eig0 (1 / 10) isort (fun _ => 0) (fun _ => 0%nat) 1 2 qVert qEToV qE2E qE2F [3; 0; 3; 3; 3; 3; 3; 0]%Z el m /\
  qbuilt gwit solve4 inverse4 junk0 0 eig0 (1 / 10) 1 2 qVert qEToV el /\ shape (e_x el) 4 2 /\ shape (e_y el) 4 2.
Proof.
  destruct C89_witness as (el & m & _ & HG & _). exists el, m. split; [exact HG|]. destruct HG as [HB HM HX HS Hrun Hbc]. split; [exact HB|].
  pose proof (qelement_ok _ _ _ _ _ _ _ _ _ _ _ _ HB) as HF. destruct (q_x _ _ _ _ _ _ _ _ HF) as (X & Y & _). split; [exact X|exact Y].
Qed.

(* in doubles, order 1: the nodes of the line are -1 and 1, and an inverter that looks for equal rows of a 2x2 matrix meets the
   hypotheses of C108_any_arithmetic_refuted *)
Definition sf_dec (a b : SpecFloat.spec_float) : {a = b} + {a <> b}.
Proof. decide equality; try apply Bool.bool_dec; try apply Z.eq_dec; apply Pos.eq_dec. Defined.
Definition dinv (M X : mat SpecFloat.spec_float) : outcome (mat SpecFloat.spec_float) :=
  if sf_dec (ment M 0 0) (ment M 1 0) then if sf_dec (ment M 0 1) (ment M 1 1) then Throw else Ok X else Ok X.
Definition dtab (r c : nat) : mat SpecFloat.spec_float := mkmat r c (fun _ _ => dofZ 1).
Example C108_witness_doubles gp gg junk eig : let A := dbl_arith gp gg in let tol := fdiv A (fofn A 1) (fofn A 1000) in let eps := fofn A 0 in
  returns_square 2 dinv /\ rejects_equal_rows 2 dinv /\
  (let x := computeGaussLobottoPoints A eig eps (fofn A 0) (fofn A 0) 1 in length x = 2%nat /\ nth_error x 1 = Some (fofn A 1) /\
   forall j t, nth_error x j = Some t -> flt A (fabs A (fsub A t (fofn A 1))) tol = true <-> j = 1%nat) /\
  exists r s ms, quadNodes A junk eps eig tol 1 = Ok (r, s, ms) /\
  exists p, ptables_conform p 4 2 4 1 = true /\ p_r p = r /\ p_s p = s /\ p_Fm p = qmask_table 1 ms.
Proof.
  cbv zeta. split; [|split; [|split; [|]]].
  - intros M X _ _ Hr Hc. unfold dinv. destruct (sf_dec _ _); [destruct (sf_dec _ _); [left; reflexivity|]|]; right; exists X; auto.
  - intros M X _ _ _ _ H. unfold dinv. destruct (sf_dec _ _) as [|n]; [|exfalso; apply n, H; lia]. destruct (sf_dec _ _) as [|n]; [reflexivity|exfalso; apply n, H; lia].
  - split; [reflexivity|]. split; [reflexivity|]. intros j t. destruct j as [|[|j]]; cbn [computeGaussLobottoPoints nth_error].
    + intro E. injection E as <-. split; [intro Hx; vm_compute in Hx; discriminate Hx|discriminate].
    + intro E. injection E as <-. split; [reflexivity|intro; vm_compute; reflexivity].
    + intro E. destruct j; discriminate E.
  - eexists _, _, _. split; [vm_compute; reflexivity|].
    match goal with |- exists p, _ /\ p_r p = ?r /\ p_s p = ?s /\ p_Fm p = ?m =>
      exists (PTables (Dg2d (dtab 4 4) (dtab 4 4) (dtab 4 8) (dtab 8 1) (dtab 8 1) (dtab 8 1) (dtab 4 1) (dtab 4 1) (dtab 4 1) (dtab 4 1) [] [] []) (dtab 4 4) (dtab 4 1) r s m [] [] []) end.
    repeat split; reflexivity.
Qed.
Print Assumptions C108_any_arithmetic_refuted.
Print Assumptions C108_operator_refuted.
Print Assumptions C108_never_runs_refuted.
Print Assumptions C108_throws_refuted.
Print Assumptions C108_initial.
