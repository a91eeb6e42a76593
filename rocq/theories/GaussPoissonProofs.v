(* GaussPoissonProofs.v - the operator assembled with cubature and Gauss face nodes represents operator_form. *)
From Coq Require Import ZArith List Lia Bool Arith.
From Verif Require Import Base Loops Num FoldProofs JacobiModel JacobiSpec JacobiProofs JacobiQuadProofs JacobiExactProofs Nodes1DModel Nodes1DExactProofs DenseSpec GmresExactProofs
  MeshSpec TriModel TriSpec TriBasisProofs TriProofs TriOpProofs TriLiftProofs TriFaceProofs TriElemProofs TriGeoSpec TriGeoProofs TriSetup TriProps TriMapsProofs TriMapsProps TriDGSpec TriDGProofs
  TripletModel CscModel CscSpec Line1DModel SwModel SwSpec PoissonModel PoissonSpec PoissonTripletProofs PoissonBlockProofs GaussFaceModel GaussFaceSpec GaussRuleProofs GaussFaceProofs GaussFaceProps
  CscProps CubMeshModel CubMeshSpec CubMeshProofs CubMeshProps GaussPoissonModel GaussPoissonSpec.
From Coq Require Import Reals Lra.
Import ListNotations.
Local Open Scope R_scope.

(* the rows of the neighbour after the reversal in place *)
Lemma reverse_ok NG (M : mat R) : mrows M = NG -> exists M', reverseRows NG M = Ok M' /\ mrows M' = NG /\ mcols M' = mcols M /\
  forall a j, (a < NG)%nat -> (j < mcols M)%nat -> ment M' a j = ment M (Nat.max a (NG - 1 - a)) j.
Proof.
  intro HR. unfold reverseRows.
  destruct (for_inv (fun i M' => mrows M' = NG /\ mcols M' = mcols M /\ forall a j, (a < NG)%nat -> (j < mcols M)%nat ->
    ment M' a j = if (a <? i)%nat then ment M (Nat.max a (NG - 1 - a)) j else ment M a j) NG
    (fun i => for_ (mcols M) (fun j M => bind (mget M (NG - 1 - i) j) (fun v => mset M i j v))) M) as (M' & E & A & B & C).
  - auto.
  - intros i M1 Hi (A & B & C).
    destruct (for_inv (fun c M' => mrows M' = NG /\ mcols M' = mcols M /\ forall a j, (a < NG)%nat -> (j < mcols M)%nat ->
      ment M' a j = if (a <? i)%nat || ((a =? i)%nat && (j <? c)%nat) then ment M (Nat.max a (NG - 1 - a)) j else ment M a j) (mcols M)
      (fun j M => bind (mget M (NG - 1 - i) j) (fun v => mset M i j v)) M1) as (M' & E & A' & B' & C').
    + split; [exact A|]. split; [exact B|]. intros a j Ha Hj. rewrite C by assumption. replace (j <? 0)%nat with false by (symmetry; apply Nat.ltb_ge; lia). rewrite andb_false_r, orb_false_r. reflexivity.
    + intros c M2 Hc (A2 & B2 & C2). rewrite mget_ok by lia. cbn [bind]. destruct (mset_ent M2 i c (ment M2 (NG - 1 - i) c)) as (M3 & -> & R3 & K3 & E3); [lia|lia|]. exists M3. split; [reflexivity|]. split; [lia|]. split; [congruence|].
      intros a j Ha Hj. rewrite E3. destruct (Nat.eqb_spec a i) as [-> |Hai], (Nat.eqb_spec j c) as [-> |Hjc]; cbn [andb]; rewrite ?orb_false_r.
      * replace (i <? i)%nat with false by (symmetry; apply Nat.ltb_ge; lia). replace (c <? S c)%nat with true by (symmetry; apply Nat.ltb_lt; lia). cbn [orb]. rewrite C2 by lia.
        destruct (Nat.ltb_spec (NG - 1 - i) i); cbn [orb].
        { f_equal. lia. }
        { replace (c <? c)%nat with false by (symmetry; apply Nat.ltb_ge; lia). rewrite andb_false_r. f_equal. lia. }
      * rewrite C2 by lia. replace (i <? i)%nat with false by (symmetry; apply Nat.ltb_ge; lia). rewrite Nat.eqb_refl. cbn [orb andb]. replace (j <? S c)%nat with (j <? c)%nat; [reflexivity|]. destruct (Nat.ltb_spec j c), (Nat.ltb_spec j (S c)); lia || reflexivity.
      * rewrite C2 by lia. replace (a =? i)%nat with false by (symmetry; now apply Nat.eqb_neq). cbn [andb]. rewrite orb_false_r. reflexivity.
      * rewrite C2 by lia. replace (a =? i)%nat with false by (symmetry; now apply Nat.eqb_neq). cbn [andb]. rewrite orb_false_r. reflexivity.
    + exists M'. split; [exact E|]. split; [exact A'|]. split; [exact B'|]. intros a j Ha Hj. rewrite C' by assumption. replace (j <? mcols M)%nat with true by (symmetry; now apply Nat.ltb_lt). rewrite andb_true_r.
      destruct (Nat.ltb_spec a i), (Nat.eqb_spec a i), (Nat.ltb_spec a (S i)); cbn [orb]; reflexivity || lia.
  - exists M'. split; [exact E|]. split; [exact A|]. split; [exact B|]. intros a j Ha Hj. rewrite C by assumption. replace (a <? NG)%nat with true by (symmetry; now apply Nat.ltb_lt). reflexivity.
Qed.

(* products of two matrices with NG rows, as forms *)
Section Algebra.
Variable G : R -> R.
Local Notation E := (exact G).
Lemma gramE NG X Y i j : gram E NG X Y i j = sumn NG (fun g => ment X g i * ment Y g j).
Proof. unfold gram. rewrite fsum_exact. reflexivity. Qed.
Lemma bm_gram n NG X Y v u : bm n (mkmat n n (gram E NG X Y)) v u = sumn NG (fun g => act n X v g * act n Y u g).
Proof.
  unfold bm, act. transitivity (sumn n (fun i => sumn NG (fun g => (ment X g i * v i) * sumn n (fun j => ment Y g j * u j)))).
  - apply sumn_ext. intros i Hi. rewrite (sumn_ext NG _ (fun g => sumn n (fun j => (ment X g i * v i) * (ment Y g j * u j)))) by (intros; rewrite <- sumn_scal; reflexivity).
    rewrite (sumn_swap NG n). apply sumn_ext. intros j Hj. cbn [ment]. rewrite gramE. rewrite (Rmult_comm (v i)), Rmult_assoc, (Rmult_comm (sumn _ _)), <- sumn_scal. apply sumn_ext. intros; ring.
  - rewrite (sumn_swap n NG). apply sumn_ext. intros g Hg. rewrite (Rmult_comm (sumn n _)), <- sumn_scal. apply sumn_ext. intros; ring.
Qed.
Lemma gramAllE n NG X Y : gramAll E NG n X Y = sumn NG (fun g => act n X (fun _ => 1) g * act n Y (fun _ => 1) g).
Proof.
  unfold gramAll. rewrite fsum_exact. rewrite <- bm_gram. unfold bm. apply sumn_ext. intros i Hi. rewrite fsum_exact. apply sumn_ext. intros j Hj. cbn [ment]. ring.
Qed.
Lemma act_weighted n w V u g : act n (weighted E w V) u g = w g * act n V u g.
Proof. unfold act, weighted. cbn [ment]. change (fmul E) with Rmult. rewrite <- sumn_scal. apply sumn_ext. intros; ring. Qed.
Lemma act_comb2 n NG a b X Y u g : act n (mkmat NG n (fun i j => a i * ment X i j + b i * ment Y i j)) u g = a g * act n X u g + b g * act n Y u g.
Proof. unfold act. cbn [ment]. rewrite <- !sumn_scal, <- sumn_plus. apply sumn_ext. intros; ring. Qed.
Lemma act_lin n X u v a b g : act n X (fun i => a * u i + b * v i) g = a * act n X u g + b * act n X v g.
Proof. unfold act. rewrite <- !sumn_scal, <- sumn_plus. apply sumn_ext. intros; ring. Qed.
Lemma bm_energy n m w D v u : mrows D = m -> mcols D = n -> bm n (energy E m w D) v u = sumn m (fun i => w i * (act n D v i * act n D u i)).
Proof.
  intros R1 C1. transitivity (bm n (mkmat n n (gram E m (mkmat m n (fun i j => w i * ment D i j)) D)) v u).
  - apply bm_ext; auto. intros i j Hi Hj. cbn [ment]. rewrite gramE. unfold energy. rewrite mmulE. cbn [mmul mtrans mcols mrows]. rewrite ?R1. apply sumn_ext. intros a Ha. rewrite mmulE. cbn [mtrans mcols mrows ment]. rewrite R1. f_equal.
    rewrite (sumn_ext m _ (fun b => (w a * ment D a i) * delta b a)); [rewrite sumn_delta' by exact Ha; reflexivity|].
    intros b Hb. unfold delta. destruct (Nat.eqb_spec b a) as [-> |]; [|change (fofn E 0) with 0]; ring.
  - rewrite bm_gram. apply sumn_ext. intros a Ha. rewrite <- Rmult_assoc. f_equal. unfold act. cbn [ment]. rewrite <- sumn_scal. apply sumn_ext. intros; ring.
Qed.
End Algebra.

(* a loop some pass of which may throw, for the reason B *)
Lemma for_from_alt {S} (P : nat -> S -> Prop) (B : Prop) n : forall lo body s, P lo s ->
  (forall i s, (lo <= i < lo + n)%nat -> P i s -> (body i s = Throw /\ B) \/ exists s', body i s = Ok s' /\ P (Datatypes.S i) s') ->
  (for_from lo n body s = Throw /\ B) \/ exists s', for_from lo n body s = Ok s' /\ P (lo + n)%nat s'.
Proof.
  induction n as [|n IH]; intros lo body s H0 Hs; cbn [for_from].
  - right. exists s. rewrite Nat.add_0_r. auto.
  - destruct (Hs lo s ltac:(lia) H0) as [(-> & HB)|(s' & -> & H')]; cbn [bind]; [left; auto|].
    destruct (IH (Datatypes.S lo) body s' H') as [X|(s2 & E2 & H2)]; [intros; apply Hs; [lia|assumption]|left; exact X|].
    right. exists s2. split; [exact E2|]. replace (lo + Datatypes.S n)%nat with (Datatypes.S lo + n)%nat by lia. exact H2.
Qed.
Lemma for_alt {S} (P : nat -> S -> Prop) (B : Prop) n body s : P 0%nat s ->
  (forall i s, (i < n)%nat -> P i s -> (body i s = Throw /\ B) \/ exists s', body i s = Ok s' /\ P (Datatypes.S i) s') ->
  (for_ n body s = Throw /\ B) \/ exists s', for_ n body s = Ok s' /\ P n s'.
Proof. intros H0 Hs. apply (for_from_alt P B n 0 body s H0). intros i s0 Hi Hp. apply Hs; [lia|exact Hp]. Qed.

Section Main.
Variables (G : R -> R) (solve : mat R -> mat R -> mat R -> outcome (mat R)) (inverse chol : mat R -> mat R -> outcome (mat R))
  (junk : nat -> nat -> R) (eps : R) (eig : nat -> (nat -> nat -> R) -> list R * (nat -> nat -> R)) (tol : R)
  (N K : nat) (Vert : list R) (EToV : list nat) (el : element (T := R)) (E2E E2F : list nat) (bc : list Z) (NG : nat) (lit : Z -> R) (NC : nat)
  (junkg : nat -> nat -> gpoint R) (junkn : nat -> nat) (junkc : nat -> R) (gf : gauss_faces R) (cc : cub_mesh R).
Hypothesis HR : gp_ready G solve inverse chol junk eps eig tol N K Vert EToV el E2E E2F bc NG lit NC junkg junkn junkc gf cc.
Local Notation E := (exact G).
Local Notation P := (TriGeoSpec.corner Vert EToV).
Local Notation n := (length (e_r el)).
Local Notation area_ := (cell_area Vert EToV).
Local Notation Xr k := ((fst (P k 1) - fst (P k 0)) / 2).
Local Notation Yr k := ((snd (P k 1) - snd (P k 0)) / 2).
Local Notation Xs k := ((fst (P k 2) - fst (P k 0)) / 2).
Local Notation Ys k := ((snd (P k 2) - snd (P k 0)) / 2).
Local Notation q := (GPTables (e_Dr el) (e_Ds el) (e_x el) (e_y el) (e_Fscale el) gf cc E2E E2F bc).
Local Notation gpt := (gauss_point NG gf).
Definition nod (p : poly2) (k i : nat) : R := at_point p (ment (e_x el) i k, ment (e_y el) i k).
Local Notation represents := (represents N n K (e_x el) (e_y el)).

Lemma gp_built : built G solve inverse junk eps eig tol N K Vert EToV el. Proof. destruct HR as [[]]. assumption. Qed.
Lemma gp_cf : cub_facts G N K el NC cc. Proof. destruct HR. eapply cfacts; eassumption. Qed.
Lemma gp_rf : exists z w, rule NG z w /\ run_facts G N K Vert EToV el E2E E2F bc NG junkn gf z w.
Proof. destruct HR. eapply facts_of; eassumption. Qed.
Lemma gp_area k : (k < K)%nat -> 0 < area_ k.
Proof.
  intro Hk. destruct HR as [[_ [_ _ _ _ HA] _ _ _] HC _ Hcc _ _ _]. pose proof (HA k Hk) as H. change (area_ k <> 0) in H. destruct (Rtotal_order (area_ k) 0) as [X|[X|X]]; [|contradiction|exact X].
  exfalso. eapply clockwise_no; eassumption.
Qed.
Lemma J_pos k : Xr k * Ys k - Xs k * Yr k = area_ k / 2.
Proof. unfold cell_area, area, TriGeoSpec.cross, pminus. cbn [fst snd]. field. Qed.
Lemma node_nb k f : (k < K)%nat -> (f < 3)%nat -> getn E2E (3 * k + f) = Ok (nb E2E k f) /\ getn E2F (3 * k + f) = Ok (nbf E2F k f) /\ (nb E2E k f < K)%nat /\ (nbf E2F k f < 3)%nat /\
  ((nb E2E k f = k /\ nbf E2F k f = f /\ forall h, ~ shares 3 (map Z.of_nat EToV) (3 * k + f) h) \/ (nb E2E k f <> k /\ shares 3 (map Z.of_nat EToV) (3 * k + f) (3 * nb E2E k f + nbf E2F k f))).
Proof.
  intros Hk Hf. destruct HR as [[HB [LE LF HN HO HA] _ _ _] _ _ _ _ _ _].
  assert (A1 : nth_error E2E (3 * k + f) = Some (nb E2E k f)) by (apply nth_error_nth'; lia). assert (A2 : nth_error E2F (3 * k + f) = Some (nbf E2F k f)) by (apply nth_error_nth'; lia).
  split; [unfold getn; now rewrite A1|]. split; [unfold getn; now rewrite A2|].
  destruct (tri_neighbour_corners _ _ _ _ _ _ _ _ _ _ _ _ HB _ _ LE LF HN HO HA f k _ _ Hf Hk A1 A2) as (B1 & B2 & [(C1 & C2 & C3)|(C1 & C2 & _)]); split; auto.
Qed.

(* D1 and D2 differentiate in r and s at a point that is Q on element k *)
Definition deriv_at (D1 D2 : mat R) (i k : nat) (Q : point) : Prop := forall p, degree2 N p ->
  act n D1 (nod p k) i = Xr k * at_point (ddr p) Q + Yr k * at_point (dds p) Q /\ act n D2 (nod p k) i = Xs k * at_point (ddr p) Q + Ys k * at_point (dds p) Q.
Lemma order_N : (1 <= N)%nat. Proof. destruct gp_built. assumption. Qed.
Lemma node_ref i k : (i < n)%nat -> (k < K)%nat -> (ment (e_x el) i k, ment (e_y el) i k) = affine_image (P k 0) (P k 1) (P k 2) (nth i (e_r el) 0) (nth i (e_s el) 0).
Proof. intros Hi Hk. destruct HR as [_ HC _ _ _ _ _]. exact (node_xy _ _ _ _ _ _ _ _ _ _ _ _ _ _ _ HC k Hk i Hi). Qed.
Lemma nodal_deriv k i : (k < K)%nat -> (i < n)%nat -> deriv_at (e_Dr el) (e_Ds el) i k (ment (e_x el) i k, ment (e_y el) i k).
Proof.
  intros Hk Hi p Dp. destruct (to_reference N Vert EToV k p Dp) as (w & Dw & W0 & W1 & W2).
  assert (Hn : forall D, act n D (nod p k) i = sumn n (fun m => ment D i m * eval2 w (nth m (e_r el) 0) (nth m (e_s el) 0))).
  { intro D. unfold act. apply sumn_ext. intros m Hm. unfold nod. rewrite node_ref, W0 by assumption. reflexivity. }
  rewrite !Hn, (nodal_dr _ _ _ _ _ _ _ _ _ _ _ _ gp_built w i Dw Hi), (nodal_ds _ _ _ _ _ _ _ _ _ _ _ _ gp_built w i Dw Hi), W1, W2, node_ref by assumption. auto.
Qed.
Lemma act_mmul I D u i : mcols I = n -> act n (mmul E I D) u i = sumn n (fun l => ment I i l * act n D u l).
Proof.
  intro HI. unfold act. rewrite (sumn_ext n _ (fun j => sumn n (fun l => ment I i l * (ment D l j * u j)))).
  - rewrite sumn_swap. apply sumn_ext. intros l Hl. rewrite <- sumn_scal. reflexivity.
  - intros j Hj. rewrite mmulE, HI, (Rmult_comm (sumn _ _)), <- sumn_scal. apply sumn_ext. intros; ring.
Qed.
Lemma interp_deriv I i k Q : (k < K)%nat -> mcols I = n -> (forall p, degree2 N p -> sumn n (fun m => ment I i m * nod p k m) = at_point p Q) ->
  deriv_at (mmul E I (e_Dr el)) (mmul E I (e_Ds el)) i k Q.
Proof.
  intros Hk HI HQ p Dp. rewrite !act_mmul by exact HI.
  assert (HL : forall a b, sumn n (fun l => ment I i l * (a * nod (ddr p) k l + b * nod (dds p) k l)) = a * at_point (ddr p) Q + b * at_point (dds p) Q).
  { intros a b. rewrite <- (HQ (ddr p)), <- (HQ (dds p)) by (apply ddr_deg || apply dds_deg; exact Dp). rewrite <- !sumn_scal, <- sumn_plus. apply sumn_ext. intros; ring. }
  split; rewrite <- HL; apply sumn_ext; intros l Hl; f_equal; apply (nodal_deriv k l Hk Hl p Dp).
Qed.
Lemma deriv_ext D1 D2 D1' D2' i k Q : (forall j, (j < n)%nat -> ment D1' i j = ment D1 i j /\ ment D2' i j = ment D2 i j) -> deriv_at D1 D2 i k Q -> deriv_at D1' D2' i k Q.
Proof.
  intros H HD p Dp. destruct (HD p Dp) as (A & B). split; [rewrite <- A|rewrite <- B]; unfold act; apply sumn_ext; intros j Hj; destruct (H j Hj) as (H1 & H2); rewrite ?H1, ?H2; reflexivity.
Qed.

Definition px : poly2 := [(1%nat, 0%nat, 1)].
Definition py : poly2 := [(0%nat, 1%nat, 1)].
Definition p1 : poly2 := [(0%nat, 0%nat, 1)].
Lemma p_deg : degree2 N px /\ degree2 N py /\ degree2 N p1.
Proof. pose proof order_N. repeat split; repeat constructor; cbn; lia. Qed.
Lemma p_val Q : at_point px Q = fst Q /\ at_point py Q = snd Q /\ at_point p1 Q = 1.
Proof. unfold at_point, px, py, p1. cbn. repeat split; ring. Qed.
Lemma p_der Q : at_point (ddr px) Q = 1 /\ at_point (dds px) Q = 0 /\ at_point (ddr py) Q = 0 /\ at_point (dds py) Q = 1 /\ at_point (ddr p1) Q = 0 /\ at_point (dds p1) Q = 0.
Proof. unfold at_point, px, py, p1. cbn. repeat split; ring. Qed.

Lemma timesE D u i : mcols D = n -> times E D u i = act n D u i.
Proof. intro H. unfold times. rewrite fsum_exact, H. reflexivity. Qed.
Lemma act_ext D u v i : (forall j, (j < n)%nat -> u j = v j) -> act n D u i = act n D v i.
Proof. intro H. unfold act. apply sumn_ext. intros j Hj. now rewrite H. Qed.
Lemma coords D1 D2 i k Q : mcols D1 = n -> mcols D2 = n -> deriv_at D1 D2 i k Q ->
  times E D1 (fun m => ment (e_x el) m k) i = Xr k /\ times E D1 (fun m => ment (e_y el) m k) i = Yr k /\ times E D2 (fun m => ment (e_x el) m k) i = Xs k /\ times E D2 (fun m => ment (e_y el) m k) i = Ys k.
Proof.
  intros C1 C2 HD. destruct p_deg as (Dx & Dy & _). destruct (HD px Dx) as (A1 & A2). destruct (HD py Dy) as (A3 & A4). destruct (p_der Q) as (d1 & d2 & d3 & d4 & _). rewrite d1, d2 in A1, A2. rewrite d3, d4 in A3, A4.
  rewrite !timesE by assumption.
  assert (Hx : forall D, act n D (fun m => ment (e_x el) m k) i = act n D (nod px k) i) by (intro D; apply act_ext; intros j Hj; unfold nod; rewrite (proj1 (p_val _)); reflexivity).
  assert (Hy : forall D, act n D (fun m => ment (e_y el) m k) i = act n D (nod py k) i) by (intro D; apply act_ext; intros j Hj; unfold nod; rewrite (proj1 (proj2 (p_val _))); reflexivity).
  rewrite !Hx, !Hy, A1, A2, A3, A4. repeat split; ring.
Qed.
Lemma jac_at D1 D2 i k Q : mcols D1 = n -> mcols D2 = n -> deriv_at D1 D2 i k Q -> jac E D1 D2 (fun m => ment (e_x el) m k) (fun m => ment (e_y el) m k) i = area_ k / 2.
Proof.
  intros C1 C2 HD. unfold jac. destruct (coords D1 D2 i k Q C1 C2 HD) as (-> & -> & -> & ->). change (fadd E) with Rplus. change (fmul E) with Rmult. change (fopp E) with Ropp. rewrite <- J_pos. ring.
Qed.
Lemma act_diff (D D1 D2 : mat R) a b u i : (forall j, (j < n)%nat -> ment D i j = a * ment D1 i j + b * ment D2 i j) -> act n D u i = a * act n D1 u i + b * act n D2 u i.
Proof. intro H. unfold act. rewrite <- !sumn_scal, <- sumn_plus. apply sumn_ext. intros j Hj. rewrite H by exact Hj. ring. Qed.
Lemma diff_at m D1 D2 i k Q J p : mcols D1 = n -> mcols D2 = n -> deriv_at D1 D2 i k Q -> J i <> 0 -> degree2 N p -> 
  act n (diffx E m D1 D2 (fun l => ment (e_y el) l k) J) (nod p k) i = area_ k / 2 / J i * at_point (ddr p) Q /\
  act n (diffy E m D1 D2 (fun l => ment (e_x el) l k) J) (nod p k) i = area_ k / 2 / J i * at_point (dds p) Q.
Proof.
  intros C1 C2 HD HJ Dp. destruct (coords D1 D2 i k Q C1 C2 HD) as (T1 & T2 & T3 & T4). destruct (HD p Dp) as (A1 & A2).
  rewrite (act_diff (diffx E m D1 D2 (fun l => ment (e_y el) l k) J) D1 D2 (Ys k / J i) (- Yr k / J i)) by (intros j Hj; unfold diffx; cbn [ment]; rewrite T2, T4; reflexivity).
  rewrite (act_diff (diffy E m D1 D2 (fun l => ment (e_x el) l k) J) D1 D2 (- Xs k / J i) (Xr k / J i)) by (intros j Hj; unfold diffy; cbn [ment]; rewrite T1, T3; reflexivity).
  rewrite A1, A2, <- J_pos. split; field; exact HJ.
Qed.

Lemma rep_local u U k : represents u U -> (k < K)%nat -> exists p, degree2 N p /\ (forall i, (i < n)%nat -> u (n * k + i)%nat = nod p k i) /\
  (forall Q, val_at U k Q = at_point p Q) /\ forall m Q, along m U k Q = fst m * at_point (ddr p) Q + snd m * at_point (dds p) Q.
Proof.
  intros HU Hk. destruct (HU k Hk) as ((p & Dp & Hv) & Hx & Hy & Hn). exists p. split; [exact Dp|]. split; [|split].
  - intros i Hi. rewrite <- Hn by exact Hi. unfold val_at, nod, at_point. apply Hv.
  - intro Q. apply Hv.
  - intros m Q. unfold along, at_point. f_equal; f_equal.
    + eapply dr_unique; [apply Hx|]. unfold dr_is. eapply dpl_ext; [|apply ddr_ok]. intro t. symmetry. apply Hv.
    + eapply ds_unique; [apply Hy|]. unfold ds_is. eapply dpl_ext; [|apply dds_ok]. intro t. symmetry. apply Hv.
Qed.

(* the volume part *)
Lemma cub_nod i k p : (i < cc_n cc)%nat -> (k < K)%nat -> degree2 N p -> sumn n (fun m => ment (cc_V cc) i m * nod p k m) = at_point p (cub_point cc k i).
Proof.
  intros Hi Hk Dp. destruct HR as [_ HC _ _ _ _ _]. unfold nod, at_point at 1. cbn [fst snd]. erewrite cub_interp by eauto using gp_cf. unfold cub_point. rewrite <- (cub_xy _ _ _ _ _ _ _ _ _ _ _ _ _ _ _ HC cc gp_cf k Hk i Hi). reflexivity.
Qed.
Lemma D_cols : mcols (e_Dr el) = n /\ mcols (e_Ds el) = n /\ mrows (e_Dr el) = n /\ mrows (e_Ds el) = n.
Proof.
  pose proof (element_ok _ _ _ _ _ _ _ _ _ _ _ _ gp_built) as F. destruct (f_D _ _ _ _ _ _ _ _ F) as (Vr & Vs & (S1 & S2) & (S3 & S4) & _). rewrite S1, S2, S3, S4, (f_lr _ _ _ _ _ _ _ _ F). auto.
Qed.
Lemma volume_shape k : mrows (volumeOP E q k) = n /\ mcols (volumeOP E q k) = n.
Proof. destruct D_cols as (C1 & C2 & _ & _). unfold volumeOP, energy, mmul, mtrans, diffx. cbn [mrows mcols q_cub q_Dr q_Ds]. auto. Qed.
Lemma volume_bm k pu pv : (k < K)%nat -> degree2 N pu -> degree2 N pv -> bm n (volumeOP E q k) (nod pv k) (nod pu k) =
  sumn (cc_n cc) (fun i => ment (cc_W cc) i k * (at_point (ddr pv) (cub_point cc k i) * at_point (ddr pu) (cub_point cc k i) + at_point (dds pv) (cub_point cc k i) * at_point (dds pu) (cub_point cc k i))).
Proof.
  intros Hk Du Dv. destruct (cf_V _ _ _ _ _ _ gp_cf) as (V1 & V2). destruct D_cols as (C1 & C2 & R1 & R2).
  unfold volumeOP. cbv zeta. cbn [q_Dr q_Ds q_x q_y q_cub]. set (I1 := mmul E (cc_V cc) (e_Dr el)). set (I2 := mmul E (cc_V cc) (e_Ds el)). set (J := jac E I1 I2 _ _).
  assert (CI1 : mcols I1 = n) by exact C1. assert (CI2 : mcols I2 = n) by exact C2.
  assert (HD : forall i, (i < cc_n cc)%nat -> deriv_at I1 I2 i k (cub_point cc k i)).
  { intros i Hi. apply interp_deriv; [exact Hk|exact V2|]. intros p Dp. now apply cub_nod. }
  assert (HJ : forall i, (i < cc_n cc)%nat -> J i = area_ k / 2) by (intros i Hi; unfold J; eapply jac_at; eauto).
  pose proof (gp_area k Hk) as HA.
  match goal with |- bm n (mkmat _ _ (fun i j => fadd E (ment ?a i j) (ment ?b i j))) _ _ = _ => transitivity (bm n a (nod pv k) (nod pu k) + bm n b (nod pv k) (nod pu k)); [rewrite <- bm_plus; apply bm_ext; auto|] end.
  rewrite !bm_energy by (unfold diffx, diffy; cbn [mrows mcols]; auto). rewrite <- sumn_plus. apply sumn_ext. intros i Hi.
  assert (Hne : J i <> 0) by (rewrite HJ by exact Hi; lra).
  destruct (diff_at (cc_n cc) I1 I2 i k _ J pv CI1 CI2 (HD i Hi) Hne Dv) as (-> & ->). destruct (diff_at (cc_n cc) I1 I2 i k _ J pu CI1 CI2 (HD i Hi) Hne Du) as (-> & ->). rewrite HJ by exact Hi. field. lra.
Qed.

(* the faces *)
Lemma gauss_nod k f g p : (k < K)%nat -> (f < 3)%nat -> (g < NG)%nat -> degree2 N p -> sumn n (fun m => ment (gf_interp gf) (f * NG + g) m * nod p k m) = at_point p (gpt k f g).
Proof.
  intros Hk Hf Hg Dp. destruct gp_rf as (z & w & _ & RF). unfold nod. rewrite (rf_interp _ _ _ _ _ _ _ _ _ _ _ _ _ _ RF f k g p Hf Hk Hg Dp). unfold gauss_point. rewrite (rf_xy _ _ _ _ _ _ _ _ _ _ _ _ _ _ RF f k g Hf Hk Hg). reflexivity.
Qed.
Lemma gf_shapes : conform (gf_interp gf) (3 * NG) n = true /\ conform (gf_nx gf) (3 * NG) K = true /\ conform (gf_ny gf) (3 * NG) K = true /\ conform (gf_W gf) (3 * NG) K = true.
Proof.
  destruct gp_rf as (z & w & _ & [SH SI _ _ _ _ _]).
  assert (HC : forall (m : mat R) a b, shape m a b -> conform m a b = true) by (intros m a b (H1 & H2); unfold conform; rewrite H1, H2, !Nat.eqb_refl; reflexivity).
  split; [apply HC, SI|]. split; [|split]; apply HC, SH; cbn; tauto.
Qed.
Local Notation gDr := (mkmat NG n (ment (mmul E (gf_interp gf) (e_Dr el)))).
Local Notation gDs := (mkmat NG n (ment (mmul E (gf_interp gf) (e_Ds el)))).
Lemma interp_cols : mcols (gf_interp gf) = n /\ mrows (gf_interp gf) = (3 * NG)%nat. Proof. destruct gp_rf as (z & w & _ & [_ (A & B) _ _ _ _ _]). auto. Qed.
Lemma gderiv k g : (k < K)%nat -> (g < NG)%nat -> deriv_at gDr gDs g k (gpt k 0 g).
Proof.
  intros Hk Hg. apply (deriv_ext (mmul E (gf_interp gf) (e_Dr el)) (mmul E (gf_interp gf) (e_Ds el))); [auto|]. apply interp_deriv; [exact Hk|apply interp_cols|].
  intros p Dp. rewrite <- (gauss_nod k 0 g p Hk ltac:(lia) Hg Dp). reflexivity.
Qed.
Local Notation xk k := (fun i => ment (e_x el) i k).
Local Notation yk k := (fun i => ment (e_y el) i k).
Local Notation J1 k := (jac E gDr gDs (xk k) (yk k)).
Lemma gjac k g : (k < K)%nat -> (g < NG)%nat -> J1 k g = area_ k / 2.
Proof. intros Hk Hg. eapply jac_at; [reflexivity|reflexivity|]. apply gderiv; assumption. Qed.
Lemma gdiff k k2 g p : (k < K)%nat -> (k2 < K)%nat -> (g < NG)%nat -> degree2 N p ->
  act n (diffx E NG gDr gDs (yk k2) (J1 k)) (nod p k2) g = area_ k2 / area_ k * at_point (ddr p) (gpt k2 0 g) /\
  act n (diffy E NG gDr gDs (xk k2) (J1 k)) (nod p k2) g = area_ k2 / area_ k * at_point (dds p) (gpt k2 0 g).
Proof.
  intros Hk Hk2 Hg Dp. pose proof (gp_area k Hk). destruct (diff_at NG gDr gDs g k2 (gpt k2 0 g) (J1 k) p eq_refl eq_refl (gderiv k2 g Hk2 Hg)) as (-> & ->); [rewrite gjac by assumption; lra|exact Dp|]. rewrite gjac by assumption. split; field; lra.
Qed.
Lemma NG_pos : (1 <= NG)%nat. Proof. destruct HR as [[]]. assumption. Qed.
Lemma INR10 : fofn E 10 = 10. Proof. rewrite fofn_INR. cbn [INR]. lra. Qed.
Lemma smallJ_ok k : (k < K)%nat -> smallJ E eps NG (J1 k) = true -> ~ resolved eps K Vert EToV el.
Proof.
  intros Hk Hs Hres. destruct (Hres k Hk) as (Ha & _). unfold smallJ in Hs. rewrite fsum_exact, INR10 in Hs. change (flt E) with Rltb in Hs. unfold Rltb in Hs. destruct (Rlt_dec _ _) as [Hl|]; [|discriminate]. change (fmul E) with Rmult in Hl.
  pose proof (gp_area k Hk) as Hp. assert (Hle : area_ k / 2 <= sqrt (sumn NG (fun i => J1 k i * J1 k i))); [|change (sqrt (sumn NG (fun i => J1 k i * J1 k i)) < 10 * eps) in Hl; lra].
  rewrite <- (sqrt_square (area_ k / 2)) at 1 by lra. apply sqrt_le_1_alt. rewrite (sumn_ext NG _ (fun _ => area_ k / 2 * (area_ k / 2))) by (intros i Hi; rewrite !gjac by assumption; reflexivity).
  pose proof NG_pos as HN. clear - Hp HN. induction NG as [|m IH]; [lia|]. rewrite sumn_S. destruct m as [|m]; [cbn; lra|]. specialize (IH ltac:(lia)). pose proof (Rle_0_sqr (area_ k / 2)) as HS. unfold Rsqr in HS. lra.
Qed.
Lemma sum_bound m (d x : nat -> R) c : (forall j, (j < m)%nat -> Rabs (d j) <= c) -> sumn m (fun j => d j * x j) <= c * sumn m (fun j => Rabs (x j)).
Proof.
  intro H. induction m as [|m IH]; [cbn; lra|]. rewrite !sumn_S. specialize (IH ltac:(intros; apply H; lia)). specialize (H m ltac:(lia)).
  assert (d m * x m <= c * Rabs (x m)); [|lra]. eapply Rle_trans; [apply Rle_abs|]. rewrite Rabs_mult. apply Rmult_le_compat_r; [apply Rabs_pos|exact H].
Qed.
Lemma smallD_ok D x : mrows D = NG -> mcols D = n -> smallD E eps D = true -> act n D x 0 <= 10 * eps * sumn n (fun j => Rabs (x j)).
Proof.
  intros R1 C1 Hs. unfold smallD in Hs. rewrite forallb_forall in Hs. specialize (Hs 0%nat ltac:(apply in_seq; pose proof NG_pos; lia)). rewrite forallb_forall in Hs.
  unfold act. apply sum_bound. intros j Hj. specialize (Hs j ltac:(apply in_seq; lia)). rewrite INR10 in Hs. change (flt E) with Rltb in Hs. unfold Rltb in Hs. destruct (Rlt_dec _ _) as [Hl|]; [|discriminate]. change (fmul E) with Rmult in Hl. change (fabs E) with Rabs in Hl. lra.
Qed.
Lemma smallD_no k k2 : (k < K)%nat -> (k2 < K)%nat -> smallD E eps (diffx E NG gDr gDs (yk k2) (J1 k)) || smallD E eps (diffy E NG gDr gDs (xk k2) (J1 k)) = true -> ~ resolved eps K Vert EToV el.
Proof.
  intros Hk Hk2 Hs Hres. destruct (Hres k Hk) as (_ & Hc). pose proof (gp_area k Hk) as HA. pose proof NG_pos as HN. destruct p_deg as (Dx & Dy & _).
  assert (Hx : area_ k2 / area_ k <= 10 * eps * sumn n (fun j => Rabs (ment (e_x el) j k2)) \/ area_ k2 / area_ k <= 10 * eps * sumn n (fun j => Rabs (ment (e_y el) j k2))).
  { apply orb_true_iff in Hs as [Hs|Hs]; [left|right].
    - apply (smallD_ok _ (nod px k2)) in Hs; [|reflexivity|reflexivity]. rewrite (proj1 (gdiff k k2 0 px Hk Hk2 ltac:(lia) Dx)), (proj1 (p_der _)), Rmult_1_r in Hs. erewrite sumn_ext; [exact Hs|]. intros j Hj. cbv beta. unfold nod. rewrite (proj1 (p_val _)). reflexivity.
    - apply (smallD_ok _ (nod py k2)) in Hs; [|reflexivity|reflexivity]. rewrite (proj2 (gdiff k k2 0 py Hk Hk2 ltac:(lia) Dy)) in Hs. destruct (p_der (gpt k2 0 0)) as (_ & _ & _ & d & _). rewrite d, Rmult_1_r in Hs. erewrite sumn_ext; [exact Hs|]. intros j Hj. cbv beta. unfold nod. rewrite (proj1 (proj2 (p_val _))). reflexivity. }
  assert (Hr : area_ k2 / area_ k * area_ k = area_ k2) by (field; lra).
  destruct Hx as [Hx|Hx]; [specialize (Hc k2 Hk2 (e_x el) (or_introl eq_refl))|specialize (Hc k2 Hk2 (e_y el) (or_intror (or_introl eq_refl)))]; apply (Rmult_le_compat_r (area_ k)) in Hx; lra.
Qed.

Local Notation gw k f := (fun i => ment (gf_W gf) (f * NG + i) k).
Local Notation gnx k f := (fun i => ment (gf_nx gf) (f * NG + i) k).
Local Notation gny k f := (fun i => ment (gf_ny gf) (f * NG + i) k).
Local Notation VM f := (sideRows NG f (gf_interp gf)).
Definition Dn (k f k2 : nat) : mat R :=
  mkmat NG n (fun i j => gnx k f i * ment (diffx E NG gDr gDs (yk k2) (J1 k)) i j + gny k f i * ment (diffy E NG gDr gDs (xk k2) (J1 k)) i j).
Definition slope (k f : nat) (p : poly2) (k2 g : nat) : R := gnx k f g * at_point (ddr p) (gpt k2 0 g) + gny k f g * at_point (dds p) (gpt k2 0 g).
Lemma act_Dn k f k2 g p : (k < K)%nat -> (k2 < K)%nat -> (g < NG)%nat -> degree2 N p -> act n (Dn k f k2) (nod p k2) g = area_ k2 / area_ k * slope k f p k2 g.
Proof.
  intros Hk Hk2 Hg Dp. unfold Dn. rewrite act_comb2. destruct (gdiff k k2 g p Hk Hk2 Hg Dp) as (-> & ->). unfold slope. ring.
Qed.
Lemma act_VM k f g p : (k < K)%nat -> (f < 3)%nat -> (g < NG)%nat -> degree2 N p -> act n (VM f) (nod p k) g = at_point p (gpt k f g).
Proof. intros. apply gauss_nod; assumption. Qed.
Lemma act_one_VM f g : (f < 3)%nat -> (g < NG)%nat -> act n (VM f) (fun _ => 1) g = 1.
Proof.
  intros Hf Hg. destruct p_deg as (_ & _ & D1). assert (Hk : (0 < K)%nat) by (destruct HR; assumption). rewrite (act_ext _ _ (nod p1 0)); [rewrite act_VM by assumption; apply p_val|]. intros j Hj. unfold nod. symmetry. apply p_val.
Qed.
Lemma bm_lin m h0 h1 h2 h3 a b c v u : bm m (mkmat m m (fun i j => h0 i j + a * h1 i j + b * h2 i j + c * h3 i j)) v u =
  bm m (mkmat m m h0) v u + a * bm m (mkmat m m h1) v u + b * bm m (mkmat m m h2) v u + c * bm m (mkmat m m h3) v u.
Proof.
  unfold bm. rewrite <- !sumn_scal, <- !sumn_plus. apply sumn_ext. intros i Hi. rewrite <- !sumn_scal, <- !sumn_plus. apply sumn_ext. intros j Hj. cbn [ment]. ring.
Qed.
Lemma bm_const m c v u : bm m (mkmat m m (fun _ _ => c)) v u = c * (sumn m v * sumn m u).
Proof.
  unfold bm. cbn [ment]. rewrite (sumn_ext m _ (fun i => (c * sumn m u) * v i)); [rewrite sumn_scal; ring|]. intros i Hi. transitivity (sumn m (fun j => (v i * c) * u j)); [reflexivity|]. rewrite sumn_scal. ring.
Qed.
Lemma fscale_at k f : (k < K)%nat -> (f < 3)%nat -> mget (e_Fscale el) (f * S N) k = Ok (inverse_height Vert EToV k f).
Proof.
  intros Hk Hf. pose proof (gp_area k Hk) as HA. destruct (normal_k _ _ _ _ _ _ _ _ _ _ _ _ gp_built k Hk HA f 0 Hf ltac:(lia)) as (_ & HF & _). cbv zeta in HF. rewrite Nat.add_0_r in HF.
  destruct (f_normals _ _ _ _ _ _ _ _ (element_ok _ _ _ _ _ _ _ _ _ _ _ _ gp_built)) as (_ & _ & (S1 & S2) & _). rewrite mget_ok by (rewrite ?S1, ?S2; nia). rewrite HF. f_equal. unfold inverse_height, from_, to_, next.
  unfold cell_area in HA. field. lra.
Qed.
Lemma tau_at k f k2 f2 : fmul E (fofZ E (20000 * Z.of_nat (N + 1) * Z.of_nat (N + 1))) (fmax E (inverse_height Vert EToV k f) (inverse_height Vert EToV k2 f2)) = tau N Vert EToV k f k2 f2.
Proof.
  unfold tau. cbn [exact fmul fofZ]. rewrite !mult_IZR, <- INR_IZR_INZ, plus_INR. change (INR 1) with 1. unfold fmax, Rmax. cbn [exact flt]. unfold Rltb.
  destruct (Rlt_dec (inverse_height Vert EToV k f) (inverse_height Vert EToV k2 f2)), (Rle_dec (inverse_height Vert EToV k f) (inverse_height Vert EToV k2 f2)); try lra; try reflexivity.
  replace (inverse_height Vert EToV k2 f2) with (inverse_height Vert EToV k f) by lra. reflexivity.
Qed.

Definition side_value (k f : nat) (B C : mat R) (k2 : nat) (v u : nat -> R) : R := bm n B (fun i => v (n * k + i)%nat) (fun i => u (n * k + i)%nat) + bm n C (fun i => v (n * k + i)%nat) (fun i => u (n * k2 + i)%nat).
Lemma face_step k f OP11 OP es D cap : (k < K)%nat -> (f < 3)%nat -> mrows OP11 = n -> mcols OP11 = n -> has D cap OP es -> (Z.of_nat (length es + n * n) <= cap)%Z -> (n * K <= D)%nat ->
  (faceOP E eps q 3 NG n (S N) K N k f (OP11, OP) = Throw /\ ~ resolved eps K Vert EToV el) \/
  exists OP11' OP' es', faceOP E eps q 3 NG n (S N) K N k f (OP11, OP) = Ok (OP11', OP') /\ mrows OP11' = n /\ mcols OP11' = n /\ has D cap OP' (es ++ es') /\ (length es' <= n * n)%nat /\
    forall v u U V, represents u U -> represents v V ->
      bm n OP11' (fun i => v (n * k + i)%nat) (fun i => u (n * k + i)%nat) + bl es' v u = bm n OP11 (fun i => v (n * k + i)%nat) (fun i => u (n * k + i)%nat) + side_form N n NG Vert EToV E2E E2F bc gf u v U V k f.
Proof.
  intros Hk Hf R1 C1 HO Hcap HD. destruct (node_nb k f Hk Hf) as (G1 & G2 & Hk2 & Hf2 & _). set (k2 := nb E2E k f) in *. set (f2 := nbf E2F k f) in *.
  assert (Gb : getn bc (3 * k + f) = Ok (tag_of bc k f)) by (destruct HR as [[_ _ Ht _ _] _ _ _ _ _ _]; apply TriFaceProofs.getn_ok; lia).
  destruct interp_cols as (IC & IR).
  destruct (reverse_ok NG (sideRows NG f2 (gf_interp gf)) eq_refl) as (VP & EVP & RVP & CVP & HVP). cbn [sideRows mcols] in CVP, HVP. rewrite IC in CVP, HVP.
  assert (Hfac : (20000 * Z.of_nat (N + 1) * Z.of_nat (N + 1) <= INT_MAX)%Z) by (destruct HR; assumption).
  set (t := tau N Vert EToV k f k2 f2).
  set (A11 := mkmat n n (fun i j => ment OP11 i j + -1 * gram E NG (Dn k f k) (weighted E (gw k f) (VM f)) i j + -1 * gram E NG (VM f) (weighted E (gw k f) (VM f)) i j + t * gram E NG (VM f) (weighted E (gw k f) (VM f)) i j)).
  set (B11 := mkmat n n (fun i j => ment OP11 i j + - / 2 * gram E NG (weighted E (gw k f) (VM f)) (Dn k f k) i j + - / 2 * gram E NG (Dn k f k) (weighted E (gw k f) (VM f)) i j + / 2 * t * gram E NG (weighted E (gw k f) (VM f)) (VM f) i j)).
  set (B12 := mkmat n n (fun i j => - / 2 * t * gramAll E NG n (weighted E (gw k f) (VM f)) VP + - / 2 * gram E NG (weighted E (gw k f) (VM f)) (Dn k f k2) i j + / 2 * gram E NG (Dn k f k) (weighted E (gw k f) VP) i j + 0 * 0)).
  assert (Hrun : (faceOP E eps q 3 NG n (S N) K N k f (OP11, OP) = Throw /\ ~ resolved eps K Vert EToV el) \/
    exists A B C,
     faceOP E eps q 3 NG n (S N) K N k f (OP11, OP) =
     (if (tag_of bc k f =? tagDirichlet)%Z then Ok (A, OP) else if (tag_of bc k f =? tagNeuman)%Z || (tag_of bc k f =? tagWall)%Z then Ok (OP11, OP)
     else bind (insBlock E n (n * k) (n * k2) C OP) (fun OP' => Ok (B, OP'))) /\
     mrows A = n /\ mcols A = n /\ mrows B = n /\ mcols B = n /\ mrows C = n /\ mcols C = n /\
     (forall i j, ment A i j = ment A11 i j) /\ (forall i j, ment B i j = ment B11 i j) /\ (forall i j, ment C i j = ment B12 i j)).
  { unfold faceOP. cbv zeta. cbn [q_Dr q_Ds q_x q_y q_Fscale q_gauss q_cub q_E2E q_E2F q_bc]. rewrite G1. cbn [bind]. rewrite G2. cbn [bind]. unfold require.
    replace ((k2 <? K) && (f2 <? 3))%bool with true by (symmetry; apply andb_true_iff; split; apply Nat.ltb_lt; assumption). rewrite EVP. cbn [bind].
    destruct (smallJ E eps NG (J1 k)) eqn:EJ; [left; split; [reflexivity|]; exact (smallJ_ok k Hk EJ)|].
    match goal with |- context [if ?b then Throw else _] => destruct b eqn:ED end; [left; split; [reflexivity|]; exact (smallD_no k k Hk Hk ED)|].
    match goal with |- context [if ?b then Throw else _] => destruct b eqn:ED2 end; [left; split; [reflexivity|]; exact (smallD_no k k2 Hk Hk2 ED2)|].
    rewrite (fscale_at k f Hk Hf). cbn [bind]. rewrite (fscale_at k2 f2 Hk2 Hf2). cbn [bind]. destruct (Z.ltb_spec INT_MAX (20000 * Z.of_nat (N + 1) * Z.of_nat (N + 1))); [lia|]. rewrite Gb. cbn [bind]. rewrite tau_at, halfE. fold t.
    right. eexists _, _, _. split; [reflexivity|]. cbn [mrows mcols ment]. do 6 (split; [reflexivity|]). unfold A11, B11, B12. cbn [ment]. change (fadd E) with Rplus. change (fsub E) with Rminus. change (fmul E) with Rmult. change (fopp E) with Ropp. unfold Dn.
    split; [|split]; intros i j; ring. }
  destruct Hrun as [X|(A & B & C & Hrun & S1 & S2 & S3 & S4 & S5 & S6 & HA & HB & HC)]; [left; exact X|right]. rewrite Hrun. clear Hrun.
  (* the values *)
  assert (Hloc : forall w W l, represents w W -> (l < K)%nat -> exists p, degree2 N p /\ (forall i, (i < n)%nat -> w (n * l + i)%nat = nod p l i) /\ (forall Q, val_at W l Q = at_point p Q) /\ forall g, slope0 NG gf k f W l g = slope k f p l g).
  { intros w W l HW Hl. destruct (rep_local w W l HW Hl) as (p & Dp & H1 & H2 & H3). exists p. split; [exact Dp|]. split; [exact H1|]. split; [exact H2|]. intro g. unfold slope0. rewrite H3. reflexivity. }
  assert (HaV : forall w p, degree2 N p -> (forall i, (i < n)%nat -> w (n * k + i)%nat = nod p k i) -> forall g, (g < NG)%nat -> act n (VM f) (fun i => w (n * k + i)%nat) g = at_point p (gpt k f g)).
  { intros w p Dp Hw g Hg. rewrite (act_ext _ _ _ _ Hw). now apply act_VM. }
  assert (HaD : forall w p, degree2 N p -> (forall i, (i < n)%nat -> w (n * k + i)%nat = nod p k i) -> forall g, (g < NG)%nat -> act n (Dn k f k) (fun i => w (n * k + i)%nat) g = slope k f p k g).
  { intros w p Dp Hw g Hg. rewrite (act_ext _ _ _ _ Hw). rewrite act_Dn by assumption. pose proof (gp_area k Hk). field. lra. }
  unfold side_form. cbv zeta. fold k2 f2. fold t. change 6%Z with tagDirichlet. change 7%Z with tagNeuman. change 3%Z with tagWall. unfold side_sum, gauss_weight.
  destruct (tag_of bc k f =? tagDirichlet)%Z; [|destruct ((tag_of bc k f =? tagNeuman)%Z || (tag_of bc k f =? tagWall)%Z)].
  - exists A, OP, []. split; [reflexivity|]. split; [exact S1|]. split; [exact S2|]. rewrite app_nil_r. split; [exact HO|]. split; [cbn; lia|]. intros v u U V HU HV.
    destruct (Hloc u U k HU Hk) as (pu & Du & Nu & Vu & Su). destruct (Hloc v V k HV Hk) as (pv & Dv & Nv & Vv & Sv). cbn [bl]. rewrite Rplus_0_r.
    rewrite (bm_ext n A A11 _ _ _ _ (fun i j _ _ => HA i j) (fun i _ => eq_refl) (fun i _ => eq_refl)). unfold A11. rewrite bm_lin, !bm_gram. rewrite (bm_ext n (mkmat n n (fun i j => ment OP11 i j)) OP11 _ _ _ _ (fun i j _ _ => eq_refl) (fun i _ => eq_refl) (fun i _ => eq_refl)).
    rewrite !Rplus_assoc. f_equal. rewrite <- !sumn_scal, <- !sumn_plus. apply sumn_ext. intros g Hg. rewrite !act_weighted. rewrite (HaV u pu), (HaV v pv), (HaD v pv) by assumption. rewrite Vu, Vv, Sv. ring.
  - exists OP11, OP, []. split; [reflexivity|]. split; [exact R1|]. split; [exact C1|]. rewrite app_nil_r. split; [exact HO|]. split; [cbn; lia|]. intros. cbn [bl]. ring.
  - destruct (insBlock_has G D cap OP es n (n * k) (n * k2) C HO Hcap ltac:(nia) ltac:(nia) S5 S6) as (OP' & -> & HO'). cbn [bind].
    exists B, OP', (block n (n * k) (n * k2) C). split; [reflexivity|]. split; [exact S3|]. split; [exact S4|]. split; [exact HO'|]. split; [rewrite block_len; lia|]. intros v u U V HU HV. rewrite bl_block.
    destruct (Hloc u U k HU Hk) as (pu & Du & Nu & Vu & Su). destruct (Hloc v V k HV Hk) as (pv & Dv & Nv & Vv & Sv). destruct (Hloc u U k2 HU Hk2) as (p2 & D2 & N2 & V2 & S2').
    rewrite (bm_ext n B B11 _ _ _ _ (fun i j _ _ => HB i j) (fun i _ => eq_refl) (fun i _ => eq_refl)). rewrite (bm_ext n C B12 _ _ _ _ (fun i j _ _ => HC i j) (fun i _ => eq_refl) (fun i _ => eq_refl)). unfold B11, B12. rewrite !bm_lin, !bm_gram, bm_const, gramAllE. rewrite (bm_ext n (mkmat n n (fun i j => ment OP11 i j)) OP11 _ _ _ _ (fun i j _ _ => eq_refl) (fun i _ => eq_refl) (fun i _ => eq_refl)).
    assert (HVPa : forall w g, (g < NG)%nat -> act n VP w g = act n (VM f2) w (Nat.max g (NG - 1 - g))).
    { intros w g Hg. unfold act. apply sumn_ext. intros j Hj. rewrite HVP by assumption. reflexivity. }
    assert (HS : sumn NG (fun g => act n (weighted E (gw k f) (VM f)) (fun _ => 1) g * act n VP (fun _ => 1) g) = sumn NG (fun g => gw k f g * 1)).
    { apply sumn_ext. intros g Hg. rewrite act_weighted, HVPa by assumption. rewrite !act_one_VM by (assumption || lia). ring. }
    rewrite HS. clear HS.
    assert (HD2 : sumn NG (fun g => act n (weighted E (gw k f) (VM f)) (fun i => v (n * k + i)%nat) g * act n (Dn k f k2) (fun i => u (n * k2 + i)%nat) g) = area_ k2 / area_ k * sumn NG (fun g => gw k f g * (val_at V k (gpt k f g) * slope0 NG gf k f U k2 g))).
    { rewrite <- sumn_scal. apply sumn_ext. intros g Hg. rewrite act_weighted, (HaV v pv) by assumption. rewrite (act_ext _ _ _ _ N2), act_Dn by assumption. rewrite Vv, S2'. ring. }
    assert (HVP2 : sumn NG (fun g => act n (Dn k f k) (fun i => v (n * k + i)%nat) g * act n (weighted E (gw k f) VP) (fun i => u (n * k2 + i)%nat) g) = sumn NG (fun g => gw k f g * (slope0 NG gf k f V k g * val_at U k2 (gpt k2 f2 (Nat.max g (NG - 1 - g)))))).
    { apply sumn_ext. intros g Hg. rewrite act_weighted, HVPa, (HaD v pv) by assumption. rewrite (act_ext _ _ _ _ N2), act_VM by (assumption || lia). rewrite V2, Sv. ring. }
    assert (H11 : - / 2 * sumn NG (fun g => act n (weighted E (gw k f) (VM f)) (fun i => v (n * k + i)%nat) g * act n (Dn k f k) (fun i => u (n * k + i)%nat) g) +
      - / 2 * sumn NG (fun g => act n (Dn k f k) (fun i => v (n * k + i)%nat) g * act n (weighted E (gw k f) (VM f)) (fun i => u (n * k + i)%nat) g) +
      / 2 * t * sumn NG (fun g => act n (weighted E (gw k f) (VM f)) (fun i => v (n * k + i)%nat) g * act n (VM f) (fun i => u (n * k + i)%nat) g) =
      sumn NG (fun g => gw k f g * (t / 2 * (val_at V k (gpt k f g) * val_at U k (gpt k f g)) - / 2 * (val_at V k (gpt k f g) * slope0 NG gf k f U k g) - / 2 * (slope0 NG gf k f V k g * val_at U k (gpt k f g))))).
    { rewrite <- !sumn_scal, <- !sumn_plus. apply sumn_ext. intros g Hg. rewrite !act_weighted, (HaV v pv), (HaV u pu), (HaD v pv), (HaD u pu) by assumption. rewrite Vu, Vv, Su, Sv. field. }
    rewrite <- H11. clear H11. rewrite HD2, HVP2.
    match goal with |- context [- / 2 * t * ?s * _] => generalize s end. intro s0. ring_simplify. rewrite Rmult_0_l || idtac. field. pose proof (gp_area k Hk). lra.
Qed.

Local Notation sform := (side_form N n NG Vert EToV E2E E2F bc gf).
Lemma conform_ok {T} (m : mat T) a b : mrows m = a -> mcols m = b -> conform m a b = true.
Proof. intros H1 H2. unfold conform. rewrite H1, H2, !Nat.eqb_refl. reflexivity. Qed.
Lemma element_step k OP Mt es fs D capO capM : (k < K)%nat -> has D capO OP es -> has D capM Mt fs -> (Z.of_nat (length es + 4 * (n * n)) <= capO)%Z -> (Z.of_nat (length fs + n * n) <= capM)%Z -> (n * K <= D)%nat ->
  (elementOP E eps q 3 NG n (S N) K N k (OP, Mt) = Throw /\ ~ resolved eps K Vert EToV el) \/
  exists OP' Mt' es' MM, elementOP E eps q 3 NG n (S N) K N k (OP, Mt) = Ok (OP', Mt') /\ has D capO OP' (es ++ es') /\ (length es' <= 4 * (n * n))%nat /\
    nth_error (cc_MM cc) k = Some MM /\ has D capM Mt' (fs ++ block n (n * k) (n * k) MM) /\
    forall v u U V, represents u U -> represents v V -> bl es' v u = volume_form cc U V k + sumn 3 (sform u v U V k).
Proof.
  intros Hk HO HM Hco Hcm HD. destruct (cf_MM _ _ _ _ _ _ gp_cf) as (_ & _ & HMM). destruct (HMM k Hk) as (MM & Uf & EM & _ & (SM1 & SM2) & _).
  assert (EG : getn (cc_MM cc) k = Ok MM) by (unfold getn; now rewrite EM). unfold elementOP. cbn [q_cub]. rewrite EG. cbn [bind]. unfold require. rewrite (conform_ok MM n n SM1 SM2).
  destruct (volume_shape k) as (V1 & V2).
  destruct (for_alt (fun f st => exists es', has D capO (snd st) (es ++ es') /\ (length es' <= f * (n * n))%nat /\ mrows (fst st) = n /\ mcols (fst st) = n /\
    forall v u U V, represents u U -> represents v V -> bm n (fst st) (fun i => v (n * k + i)%nat) (fun i => u (n * k + i)%nat) + bl es' v u = bm n (volumeOP E q k) (fun i => v (n * k + i)%nat) (fun i => u (n * k + i)%nat) + sumn f (sform u v U V k))
    (~ resolved eps K Vert EToV el) 3 (faceOP E eps q 3 NG n (S N) K N k) (volumeOP E q k, OP)) as [(E1 & HB)|((OP11 & OP1) & E1 & es' & H1 & L1 & R1 & C1 & HV)].
  - exists []. cbn [fst snd bl]. rewrite app_nil_r. split; [exact HO|]. split; [cbn; lia|]. split; [exact V1|]. split; [exact V2|]. intros. cbn [sumn seq map fold_right]. change (sumn 0 (sform u v U V k)) with 0. ring.
  - intros f (OP11, OPf) Hf (es' & H1 & L1 & R1 & C1 & HV). cbn [fst snd] in *.
    destruct (face_step k f OP11 OPf (es ++ es') D capO Hk Hf R1 C1 H1) as [X|(OP11' & OP' & es2 & E2 & R2 & C2 & H2 & L2 & HV2)]; [rewrite app_length; nia|exact HD|left; exact X|].
    right. exists (OP11', OP'). split; [exact E2|]. exists (es' ++ es2). cbn [fst snd]. rewrite app_assoc. split; [exact H2|]. split; [rewrite app_length; nia|]. split; [exact R2|]. split; [exact C2|].
    intros v u U V HU HV0. rewrite bl_app, sumn_S. specialize (HV v u U V HU HV0). specialize (HV2 v u U V HU HV0). lra.
  - rewrite E1. left. auto.
  - cbn [fst snd] in *. rewrite E1. cbn [bind].
    destruct (insBlock2_has G D D capO capM OP1 Mt (es ++ es') fs n (n * k) (n * k) OP11 MM H1 HM ltac:(rewrite app_length; nia) Hcm ltac:(nia) ltac:(nia) ltac:(nia) ltac:(nia) R1 C1 SM1 SM2) as (OP' & Mt' & EE & HO' & HM').
    right. exists OP', Mt', (es' ++ block n (n * k) (n * k) OP11), MM. split; [exact EE|]. split; [rewrite app_assoc; exact HO'|]. split; [rewrite app_length, block_len; lia|]. split; [exact EM|]. split; [exact HM'|].
    intros v u U V HU HV0. rewrite bl_app, bl_block. specialize (HV v u U V HU HV0).
    destruct (rep_local u U k HU Hk) as (pu & Du & Nu & Vu & Su). destruct (rep_local v V k HV0 Hk) as (pv & Dv & Nv & Vv & Sv).
    assert (HVo : bm n (volumeOP E q k) (fun i => v (n * k + i)%nat) (fun i => u (n * k + i)%nat) = volume_form cc U V k).
    { rewrite (bm_ext n (volumeOP E q k) (volumeOP E q k) _ (nod pv k) _ (nod pu k) (fun i j _ _ => eq_refl) Nv Nu). rewrite volume_bm by assumption. unfold volume_form. apply sumn_ext. intros i Hi. rewrite !Su, !Sv. cbn [fst snd]. ring. }
    lra.
Qed.

Lemma mass_bm k MM u v U V : (k < K)%nat -> nth_error (cc_MM cc) k = Some MM -> represents u U -> represents v V ->
  bm n MM (fun i => v (n * k + i)%nat) (fun i => u (n * k + i)%nat) = mass_form cc U V k.
Proof.
  intros Hk EM HU HV. destruct (rep_local u U k HU Hk) as (pu & Du & Nu & Vu & Su). destruct (rep_local v V k HV Hk) as (pv & Dv & Nv & Vv & Sv).
  destruct HR as [_ HC _ Hcc _ _ _]. destruct (C86_mass _ _ _ _ _ _ _ _ _ _ _ _ _ _ _ _ _ HC Hcc) as (_ & _ & HM). destruct (HM k Hk) as (M' & U' & E1 & _ & _ & _ & _ & HF). assert (M' = MM) by congruence. subst M'.
  destruct (HF pv pu Dv Du) as (HF1 & _). unfold mass_form. unfold nodal_form in HF1. transitivity (sumn n (fun a => sumn n (fun b => nod pv k a * ment MM a b * nod pu k b))).
  - unfold bm. apply sumn_ext. intros i Hi. apply sumn_ext. intros j Hj. rewrite Nv, Nu by assumption. reflexivity.
  - cbv zeta in HF1. etransitivity; [exact HF1|]. apply sumn_ext. intros i Hi. rewrite Vu, Vv. reflexivity.
Qed.

Theorem gp_build jk : (gauss_build E eps jk q 3 NG n (S N) K N = Throw /\ ~ resolved eps K Vert EToV el) \/
  exists s, gauss_build E eps jk q 3 NG n (S N) K N = Ok s /\ valid (OP_ s) /\ valid (MM_ s) /\
    rows (OP_ s) = (n * K)%nat /\ cols (OP_ s) = (n * K)%nat /\ rows (MM_ s) = (n * K)%nat /\ cols (MM_ s) = (n * K)%nat /\
    forall u v U V, represents u U -> represents v V ->
      quadratic (n * K) (OP_ s) v u = operator_form N K n NG Vert EToV E2E E2F bc gf cc u v U V /\ quadratic (n * K) (MM_ s) v u = sumn K (mass_form cc U V).
Proof.
  unfold gauss_build, gauss_assemble. destruct HR as [HG HC _ _ HK _ Hsz]. destruct D_cols as (C1 & C2 & R1 & R2). destruct gf_shapes as (G1 & G2 & G3 & G4).
  pose proof (element_ok _ _ _ _ _ _ _ _ _ _ _ _ gp_built) as F. pose proof (f_lr _ _ _ _ _ _ _ _ F) as Ln.
  assert (Np0 : (0 < n)%nat) by (pose proof (modes_length N); lia).
  assert (Hcf : gp_conform q 3 NG n (S N) K = true).
  { destruct (f_x _ _ _ _ _ _ _ _ F) as ((X1 & X2) & (X3 & X4) & _). destruct (f_normals _ _ _ _ _ _ _ _ F) as (_ & _ & (F1 & F2) & _). destruct (cf_V _ _ _ _ _ _ gp_cf) as (V1 & V2). destruct (cf_W _ _ _ _ _ _ gp_cf) as ((W1 & W2) & _).
    unfold gp_conform. cbn [q_Dr q_Ds q_x q_y q_Fscale q_gauss q_cub]. rewrite G1, G2, G3, G4, !conform_ok by congruence. reflexivity. }
  unfold require. rewrite Hcf. set (capO := ((1 + Z.of_nat 3) * Z.of_nat n * Z.of_nat n * Z.of_nat K)%Z). set (capM := (Z.of_nat n * Z.of_nat n * Z.of_nat K)%Z).
  destruct (Z.ltb_spec INT_MAX capO) as [X|_]; [unfold capO in X; lia|].
  destruct (ctor_has (n * K) capM ltac:(nia) ltac:(unfold capM; nia)) as (Mt & EMt & HMt). destruct (ctor_has (n * K) capO ltac:(nia) ltac:(unfold capO; nia)) as (OP & EOP & HO).
  rewrite zeroE, EMt. cbn [bind]. rewrite EOP. cbn [bind].
  destruct (for_alt (fun k st => exists es fs, has (n * K) capO (fst st) es /\ has (n * K) capM (snd st) fs /\ (length es <= k * (4 * (n * n)))%nat /\ (length fs = k * (n * n))%nat /\
    forall v u U V, represents u U -> represents v V -> bl es v u = sumn k (fun k => volume_form cc U V k + sumn 3 (sform u v U V k)) /\ bl fs v u = sumn k (mass_form cc U V))
    (~ resolved eps K Vert EToV el) K (elementOP E eps q 3 NG n (S N) K N) (OP, Mt)) as [(E1 & HB)|((OP1 & Mt1) & E1 & es & fs & H1 & H2 & _ & _ & HV)].
  - exists [], []. cbn [fst snd bl]. split; [exact HO|]. split; [exact HMt|]. split; [cbn; lia|]. split; [reflexivity|]. intros. split; reflexivity.
  - intros k (OPk, Mk) Hk (es & fs & H1 & H2 & L1 & L2 & HV). cbn [fst snd] in *.
    destruct (element_step k OPk Mk es fs (n * K) capO capM Hk H1 H2) as [X|(OP' & Mt' & es' & MM & EE & H1' & L1' & EM & H2' & HV')].
    + unfold capO. nia.
    + unfold capM. nia.
    + lia.
    + left. exact X.
    + right. exists (OP', Mt'). split; [exact EE|]. exists (es ++ es'), (fs ++ block n (n * k) (n * k) MM). cbn [fst snd]. split; [exact H1'|]. split; [exact H2'|]. split; [rewrite app_length; lia|]. split; [rewrite app_length, block_len; lia|].
      intros v u U V HU HV0. destruct (HV v u U V HU HV0) as (B1 & B2). rewrite !bl_app, B1, B2, (sumn_S k (fun k => _)), (sumn_S k (mass_form cc U V)), bl_block, (HV' v u U V HU HV0), (mass_bm k MM u v U V Hk EM HU HV0). split; reflexivity.
  - left. rewrite E1. split; [reflexivity|exact HB].
  - right. rewrite E1. cbn [bind fst snd] in *. destruct (C05_triplet_to_csc R jk OP1 (has_range _ _ _ _ H1)) as (a & Eo & _). destruct (C05_triplet_to_csc R jk Mt1 (has_range _ _ _ _ H2)) as (c & Em & _).
    destruct (csc_of _ _ _ _ _ _ H1 Eo) as (V1 & Ra & Ca & _ & Q1). destruct (csc_of _ _ _ _ _ _ H2 Em) as (V2 & Rc & Cc & _ & Q2).
    rewrite Eo. cbn [bind]. rewrite Em. cbn [bind]. exists (Poisson a c). split; [reflexivity|]. cbn [OP_ MM_]. do 6 (split; [assumption|]). intros u v U V HU HV0. destruct (HV v u U V HU HV0) as (B1 & B2). rewrite Q1, Q2. split; [exact B1|exact B2].
Qed.
End Main.
