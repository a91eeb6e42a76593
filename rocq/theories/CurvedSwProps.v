(* CurvedSwProps.v - C91: the shallow water right-hand side of swhelpers for meshes with curved elements. *)
From Coq Require Import ZArith List Lia Bool Arith.
From Verif Require Import Base Loops Num JacobiModel JacobiSpec JacobiQuadProofs JacobiExactProofs DenseSpec TriModel TriSpec TriGeoSpec TriSetup TriDGSpec TriOpProofs TriWitness Maps2DModel Maps2DProps MeshSpec TriMapsProofs TriMapsProps Line1DModel SwSpec
  GaussFaceModel GaussFaceSpec GaussFaceProofs GaussFaceProps CubModel CubSpec CubMeshModel CubMeshSpec CubMeshProps CurvedSwModel CurvedSwSpec CurvedSwProofs CurvedSwFactProofs CurvedSwBuiltProofs.
From Coq Require Import Reals Lra.
Import ListNotations.
Local Open Scope R_scope.

Section C91.
Variables (G : R -> R) (tri : bool -> mat R -> list R -> outcome (list R)) (Np K NG : nat) (V J : mat R) (cc : cub_mesh R) (gf : gauss_faces R)
  (curved gmapM gmapP mapW : list nat) (mass : nat -> mat R) (g CD f : R) (zx zy : mat R) (q : four (mat R)).
Local Notation run := (curved_rhs (exact G) rhypot tri V J cc gf curved gmapM gmapP g CD f zx zy q).
(* tables that fit together, a working solver, and a state and bottom slopes of the right shapes *)
Definition curved_ready : Prop := curved_tables Np K NG V J cc gf curved gmapM gmapP mapW mass /\ symmetric_masses Np K mass /\ triangular_solver tri /\
  four_conform q Np K = true /\ conform zx Np K = true /\ conform zy Np K = true.

(* The rates are computed, and satisfy the weak form of the shallow water equations with a tracer. *)
Theorem C91_scheme : curved_ready -> exists z, run = Ok z /\ four_conform z Np K = true /\ weak_scheme Np K NG cc gf gmapP mapW q mass g CD f zx zy z.
Proof. intros (HT & _ & Ht & Hq & Hx & Hy). exact (curved_run G tri Np K NG V J cc gf curved gmapM gmapP mapW mass HT Ht g CD f zx zy q Hq Hx Hy). Qed.
Lemma run_scheme z : curved_ready -> run = Ok z -> weak_scheme Np K NG cc gf gmapP mapW q mass g CD f zx zy z.
Proof. intros HR Hz. destruct (C91_scheme HR) as (z' & E & _ & H). assert (z' = z) by congruence. subst z'. exact H. Qed.

(* and nothing else does *)
Theorem C91_determined z z' : curved_ready -> run = Ok z -> weak_scheme Np K NG cc gf gmapP mapW q mass g CD f zx zy z' ->
  forall c i k, (c < 4)%nat -> (i < Np)%nat -> (k < K)%nat -> ment (pick c z') i k = ment (pick c z) i k.
Proof.
  intros HR Hz Hz' c i k Hc Hi Hk. pose proof (run_scheme z HR Hz) as HW. destruct HR as (HT & Hs & _). destruct (HW c Hc) as (F & HF & W). destruct (Hz' c Hc) as (F' & HF' & W').
  apply (determined Np K NG V J cc gf curved gmapM gmapP mapW mass HT (pick c z') (pick c z) k Hs Hk); [|exact Hi]. intro phi.
  assert (EF : forall p, (p < 3 * NG * K)%nat -> F' p = F p).
  { intros p Hp. destruct (HF p Hp) as (lam & L1 & ->). destruct (HF' p Hp) as (lam' & L2 & ->). rewrite (speed_unique Np K NG gf gmapP g q p lam lam' L1 L2). reflexivity. }
  pose proof (W k phi Hk) as X. pose proof (W' k phi Hk) as X'.
  assert (ES : side_terms Np NG gf F' k phi = side_terms Np NG gf F k phi) by (unfold side_terms; apply sumn_ext; intros j Hj; rewrite EF by nia; reflexivity).
  rewrite ES, <- X in X'. clear X ES.
  set (src := fun b => source4 g CD f (ment zx b k) (ment zy b k) c (node_state q b k)) in *.
  assert (D : forall u : mat R, sumn Np (fun a => sumn Np (fun b => phi a * ment (mass k) a b * ment u b k)) = sumn Np (fun a => sumn Np (fun b => phi a * ment (mass k) a b * (ment u b k - src b))) + sumn Np (fun a => sumn Np (fun b => phi a * ment (mass k) a b * src b))).
  { intro u. rewrite <- sumn_plus. apply sumn_ext. intros a Ha. rewrite <- sumn_plus. apply sumn_ext. intros; ring. }
  rewrite !D. unfold src in *. rewrite X'. reflexivity.
Qed.

(* Without a wall entry in the boundary table the call raises. *)
Theorem C91_no_wall_entry : curved_ready -> forall gf', gf_nx gf' = gf_nx gf -> gf_ny gf' = gf_ny gf -> gf_W gf' = gf_W gf -> gf_interp gf' = gf_interp gf -> hfind (gf_bc gf') 3 = None ->
  curved_rhs (exact G) rhypot tri V J cc gf' curved gmapM gmapP g CD f zx zy q = Throw.
Proof.
  intros (HT & _ & _ & Hq & Hx & Hy) gf' E1 E2 E3 E4 Hn. unfold curved_rhs. destruct (ct_V _ _ _ _ _ _ _ _ _ _ _ _ HT) as (V1 & V2). destruct (ct_J _ _ _ _ _ _ _ _ _ _ _ _ HT) as (J1 & J2).
  destruct (ct_gauss _ _ _ _ _ _ _ _ _ _ _ _ HT (gf_nx gf) ltac:(cbn; auto)) as (N1 & N2). pose proof (tables_conform G Np K NG V J cc gf curved gmapM gmapP mapW mass HT g) as HC.
  unfold curved_conform in *. rewrite E1, E2, E3, E4, V1, J2, N1, HC, Hq, Hx, Hy. cbn [andb require]. rewrite Hn. reflexivity.
Qed.

(* No water and no tracer is gained or lost in all, if constants are treated exactly and sides are matched or walls. *)
Theorem C91_conservation z : curved_ready -> keeps_constants Np NG cc gf -> closed_pairs K NG gf gmapP mapW -> run = Ok z ->
  total Np K mass (q_h z) = 0 /\ total Np K mass (q_hN z) = 0.
Proof.
  intros HR HK HC Hz. pose proof (run_scheme z HR Hz) as HW. destruct HR as (HT & _). split.
  - exact (conserved Np K NG V J cc gf curved gmapM gmapP mapW mass HT g CD f zx zy q z HW 0 HK HC (or_introl eq_refl)).
  - exact (conserved Np K NG V J cc gf curved gmapM gmapP mapW mass HT g CD f zx zy q z HW 3 HK HC (or_intror eq_refl)).
Qed.
(* Nothing passes a wall point, whatever the speed used there. *)
Theorem C91_wall n lam a c : fst n * fst n + snd n * snd n = 1 -> c = 0%nat \/ c = 3%nat -> rusanov4 g c n lam a (mirror4 n a) = 0.
Proof. intros Hn Hc. exact (rusanov4_wall g c n lam a Hc Hn). Qed.

(* A tracer of the same concentration t everywhere keeps it: its rate is t times the rate of the depth at every node. *)
Theorem C91_tracer z t : curved_ready -> run = Ok z -> (forall i k, (i < Np)%nat -> (k < K)%nat -> ment (q_hN q) i k = t * ment (q_h q) i k) ->
  (forall i k, (i < cc_n cc)%nat -> (k < K)%nat -> depth (cub_state Np cc q i k) <> 0) -> (forall p, (p < 3 * NG * K)%nat -> depth (gauss_state Np NG gf q p) <> 0) ->
  forall i k, (i < Np)%nat -> (k < K)%nat -> ment (q_hN z) i k = t * ment (q_h z) i k.
Proof.
  intros HR Hz. pose proof (run_scheme z HR Hz) as HW. destruct HR as (HT & Hs & _).
  exact (constant_tracer Np K NG V J cc gf curved gmapM gmapP mapW mass HT g CD f zx zy q z HW t Hs).
Qed.

(* Still water of constant depth over a flat bottom: the depth does not change; the discharges change only as far as the
   two rules fail to balance the pressure. *)
Theorem C91_still_water z H0 : curved_ready -> keeps_constants Np NG cc gf -> run = Ok z -> H0 <> 0 ->
  (forall i k, (i < Np)%nat -> (k < K)%nat -> ment (q_h q) i k = H0 /\ ment (q_hu q) i k = 0 /\ ment (q_hv q) i k = 0 /\ ment zx i k = 0 /\ ment zy i k = 0) ->
  (forall i k, (i < Np)%nat -> (k < K)%nat -> ment (q_h z) i k = 0) /\
  forall k phi, (k < K)%nat -> let tested c := sumn Np (fun a => sumn Np (fun b => phi a * ment (mass k) a b * ment (pick c z) b k)) in
    tested 1%nat = g * (H0 * H0) / 2 * (sumn (cc_n cc) (fun i => ment (cc_W cc) i k * fst (cub_gradient Np cc phi i k)) - sumn (3 * NG) (fun j => ment (gf_W gf) j k * gauss_value Np gf phi j * ment (gf_nx gf) j k)) /\
    tested 2%nat = g * (H0 * H0) / 2 * (sumn (cc_n cc) (fun i => ment (cc_W cc) i k * snd (cub_gradient Np cc phi i k)) - sumn (3 * NG) (fun j => ment (gf_W gf) j k * gauss_value Np gf phi j * ment (gf_ny gf) j k)).
Proof.
  intros HR HK Hz. pose proof (run_scheme z HR Hz) as HW. destruct HR as (HT & Hs & _).
  exact (still_flat Np K NG V J cc gf curved gmapM gmapP mapW mass HT g CD f zx zy q z HW H0 Hs HK).
Qed.
End C91.

Section Mesh.
Variables (G : R -> R) (solve : mat R -> mat R -> mat R -> outcome (mat R)) (inverse chol : mat R -> mat R -> outcome (mat R))
  (junk : nat -> nat -> R) (eps : R) (eig : nat -> (nat -> nat -> R) -> list R * (nat -> nat -> R)) (tol : R)
  (N K : nat) (Vert : list R) (EToV : list nat) (el : element (T := R)) (E2E E2F : list nat) (bcVec : list Z) (NG : nat)
  (junkg : nat -> nat -> gpoint R) (junkn : nat -> nat) (gf : gauss_faces R) (lit : Z -> R) (NC : nat) (junkc : nat -> R) (cc : cub_mesh R) (curved : list nat).
Local Notation gready := (gauss_ready G solve inverse junk eps eig tol N K Vert EToV el E2E E2F bcVec NG).
Local Notation grun := (buildGaussFaceNodes (exact G) pow junk eps eig N K NG (e_Vinv el) (e_Dr el) (e_Ds el) (e_x el) (e_y el) junkg junkn E2E E2F bcVec).
Local Notation cready := (cub_ready G solve inverse chol junk eps eig tol N K Vert EToV el lit NC).
Local Notation crun := (buildCubatureVolumeMesh (exact G) pow solve chol junk lit junkc (Z.of_nat NC) N K (e_V el) (e_Vinv el) (e_Dr el) (e_Ds el) (e_x el) (e_y el)).
Local Notation Np := (length (e_r el)).
(* A straight-sided mesh of counter-clockwise triangles, for which the library has built Gauss points on the sides and
   cubature points; some elements are treated as curved. The solver notices singular matrices. *)
Definition mesh_ready : Prop := gready /\ grun = Ok gf /\ cready /\ crun = Ok cc /\ rejects_singular solve /\ (1 <= K)%nat /\
  (forall k, (k < K)%nat -> 0 < cell_area Vert EToV k) /\ (forall k, In k curved -> (k < K)%nat).

(* The tables built there fit together; if all sides on the boundary are tagged as walls (3), sides are matched or walls. *)
Theorem C91_built : mesh_ready -> exists mapW, let mass := mesh_mass Vert EToV el cc curved in
  curved_tables Np K NG (e_V el) (g_J (e_metric el)) cc gf curved (gf_mapM gf) (gf_mapP gf) mapW mass /\ symmetric_masses Np K mass /\ keeps_constants Np NG cc gf /\
  ((forall h, (h < 3 * K)%nat -> (forall h', ~ shares 3 (map Z.of_nat EToV) h h') -> entry bcVec h 3%Z) -> closed_pairs K NG gf (gf_mapP gf) mapW).
Proof.
  intros (HG & Hg & HC & Hc & HS & HK & Hpos & Hcur).
  assert (HW : exists mapW, hfind (gf_bc gf) 3 = Some mapW).
  { assert (HG' := HG). destruct HG' as [HB' [LE LF HN HO HA] HT HP _]. destruct (facts_of _ _ _ _ _ _ _ _ _ _ _ _ _ _ _ _ _ _ _ HG Hg) as (z & w & HRu & [S1 S2 Hxy HGe HW HI (mapB & HM)]).
    pose proof (tri_tables _ _ _ _ _ _ _ _ _ _ _ _ HB' _ _ LE LF HN) as [_ _ _ _ (_ & TE) (_ & TF) _].
    destruct (C37_gauss_maps junkn 3 K NG E2E E2F bcVec LE TE LF TF HT) as (mM & mP & mB & bc & Em & _ & _ & _ & _ & _ & _ & _ & M6).
    rewrite HM in Em. injection Em as E1 E2 E3 E4. rewrite <- E4 in M6. apply (M6 3%Z). cbn. tauto. }
  destruct HW as (mapW & HW). exists mapW. cbv zeta. pose proof (unisolvent _ _ _ _ _ _ _ _ _ _ _ _ _ _ _ _ _ HC Hc HS) as HU. split; [|split; [|split]].
  - exact (built_tables _ _ _ _ _ _ _ _ _ _ _ _ _ _ _ _ _ _ _ _ _ _ _ _ _ _ HG Hg HC Hc Hpos HW Hcur (fun _ => HU)).
  - eapply masses_symmetric; eassumption.
  - eapply built_constants; eassumption.
  - eapply built_closed; eassumption.
Qed.

(* The mass matrices: on straight elements the exact product of polynomials of degree at most N, on the others the product
   sampled at the cubature points. *)
Theorem C91_mass : mesh_ready -> forall k p q, (k < K)%nat -> degree2 N p -> degree2 N q -> let v := nodal_form el (mesh_mass Vert EToV el cc curved k) k p q in
  (~ In k curved -> element_integral (TriGeoSpec.corner Vert EToV k 0) (TriGeoSpec.corner Vert EToV k 1) (TriGeoSpec.corner Vert EToV k 2) (fun x y => eval2 p x y * eval2 q x y) v) /\
  (In k curved -> v = sumn (cc_n cc) (fun i => ment (cc_W cc) i k * (eval2 p (ment (cc_x cc) i k) (ment (cc_y cc) i k) * eval2 q (ment (cc_x cc) i k) (ment (cc_y cc) i k)))).
Proof.
  intros (HG & Hg & HC & Hc & HS & HK & Hpos & Hcur) k p q Hk Dp Dq v. split; intro Hin.
  - unfold v. rewrite mass_straight by exact Hin. eapply straight_exact; eauto.
  - pose proof (mass_curved _ _ _ _ _ _ _ _ _ _ _ _ _ _ _ _ _ curved HC Hc k Hk Hin) as EM.
    destruct (C86_mass _ _ _ _ _ _ _ _ _ _ _ _ _ _ _ _ _ HC Hc) as (_ & _ & H). destruct (H k Hk) as (M & U & E1 & _ & _ & _ & _ & X). assert (M = mesh_mass Vert EToV el cc curved k) by congruence. subst M. apply (X p q Dp Dq).
Qed.

(* Still water there: tested with any polynomial of degree at most N, the rates of the discharges are at most the pressure
   times the cubature error. *)
Theorem C91_still_water_built tri CD f zx zy q z g H0 mapW : mesh_ready -> let mass := mesh_mass Vert EToV el cc curved in
  curved_ready tri Np K NG (e_V el) (g_J (e_metric el)) cc gf curved (gf_mapM gf) (gf_mapP gf) mapW mass zx zy q ->
  curved_rhs (exact G) rhypot tri (e_V el) (g_J (e_metric el)) cc gf curved (gf_mapM gf) (gf_mapP gf) g CD f zx zy q = Ok z -> H0 <> 0 -> (N <= NC)%nat -> (N <= 2 * NG - 1)%nat ->
  (forall i k, (i < Np)%nat -> (k < K)%nat -> ment (q_h q) i k = H0 /\ ment (q_hu q) i k = 0 /\ ment (q_hv q) i k = 0 /\ ment zx i k = 0 /\ ment zy i k = 0) ->
  (forall i k, (i < Np)%nat -> (k < K)%nat -> ment (q_h z) i k = 0) /\
  forall k p, (k < K)%nat -> degree2 N p -> let phi a := eval2 p (ment (e_x el) a k) (ment (e_y el) a k) in
    let tested c := sumn Np (fun a => sumn Np (fun b => phi a * ment (mass k) a b * ment (pick c z) b k)) in
    exists h h', degree2 NC h /\ degree2 NC h' /\ (forall r s, bary h r s = at_point (ddr p) (cell_image Vert EToV k r s)) /\ (forall r s, bary h' r s = at_point (dds p) (cell_image Vert EToV k r s)) /\
    Rabs (tested 1%nat) <= Rabs (g * (H0 * H0) / 2) * (cell_area Vert EToV k / 2 * (2 / 100000000000000 * coefsum h)) /\
    Rabs (tested 2%nat) <= Rabs (g * (H0 * H0) / 2) * (cell_area Vert EToV k / 2 * (2 / 100000000000000 * coefsum h')).
Proof.
  intros HM mass HR Hz HH HNC HNG Hrest. assert (HM' := HM). destruct HM' as (HG & Hg & HC & Hc & HS & HK & Hpos & Hcur).
  assert (HKC : keeps_constants Np NG cc gf) by (eapply built_constants; eassumption).
  destruct (C91_still_water _ _ _ _ _ _ _ _ _ _ _ _ _ _ _ _ _ _ _ _ z H0 HR HKC Hz HH Hrest) as (A & B). split; [exact A|]. intros k p Hk Dp phi tested.
  destruct (B k phi Hk) as (B1 & B2). fold (tested 1%nat) in B1. fold (tested 2%nat) in B2.
  destruct (built_green _ _ _ _ _ _ _ _ _ _ _ _ _ _ _ _ _ _ _ _ _ _ _ _ HG Hg HC Hc Hpos k p 1 0 Hk Dp HNC HNG) as (h & D1 & Q1 & X1).
  destruct (built_green _ _ _ _ _ _ _ _ _ _ _ _ _ _ _ _ _ _ _ _ _ _ _ _ HG Hg HC Hc Hpos k p 0 1 Hk Dp HNC HNG) as (h' & D2 & Q2 & X2).
  exists h, h'. split; [exact D1|]. split; [exact D2|]. split; [intros r s; rewrite Q1; ring|]. split; [intros r s; rewrite Q2; ring|]. split.
  - rewrite B1, Rabs_mult. apply Rmult_le_compat_l; [apply Rabs_pos|]. eapply Rle_trans; [|exact X1]. right. f_equal. f_equal; apply sumn_ext; intros; fold phi; ring.
  - rewrite B2, Rabs_mult. apply Rmult_le_compat_l; [apply Rabs_pos|]. eapply Rle_trans; [|exact X2]. right. f_equal. f_equal; apply sumn_ext; intros; fold phi; ring.
Qed.
End Mesh.

(* A solver for triangular systems: substitution in the order of the unknowns, or in the opposite order. *)
Fixpoint substitute (n : nat) (a : nat -> nat -> R) (b : nat -> R) (order : list nat) (x : nat -> R) : nat -> R :=
  match order with
  | [] => x
  | i :: rest => substitute n a b rest (fun j => if (j =? i)%nat then (b i - sumn n (fun j => a i j * x j)) / a i i else x j)
  end.
Definition by_substitution (t : bool) (U : mat R) (b : list R) : outcome (list R) :=
  let n := mrows U in
  if forallb (fun i => if Req_EM_T (ment U i i) 0 then false else true) (seq 0 n) then
    Ok (map (substitute n (fun i j => if t then ment U j i else ment U i j) (fun i => nth i b 0) (if t then seq 0 n else rev (seq 0 n)) (fun _ => 0)) (seq 0 n))
  else Throw.
Lemma substitute_keeps n a b : forall order x p, (forall i, In i order -> (i < n)%nat /\ a p i = 0) -> sumn n (fun j => a p j * substitute n a b order x j) = sumn n (fun j => a p j * x j).
Proof.
  induction order as [|i rest IH]; intros x p H; [reflexivity|]. cbn [substitute]. rewrite IH by (intros j Hj; apply H; right; exact Hj). apply sumn_ext. intros j _. destruct (Nat.eqb_spec j i) as [->|]; [|reflexivity]. rewrite (proj2 (H i (or_introl eq_refl))). ring.
Qed.
Lemma substitute_solves n a b : forall order x, NoDup order -> (forall i, In i order -> (i < n)%nat /\ a i i <> 0 /\ x i = 0) -> (forall l i r, order = l ++ i :: r -> forall j, In j r -> a i j = 0) ->
  forall i, In i order -> sumn n (fun j => a i j * substitute n a b order x j) = b i.
Proof.
  induction order as [|i rest IH]; intros x Hnd H Hz p Hp; [destruct Hp|]. inversion Hnd as [|? ? Hni Hnd']; subst. cbn [substitute]. destruct (H i (or_introl eq_refl)) as (Hi & Hd & Hx).
  set (x' := fun j => if (j =? i)%nat then (b i - sumn n (fun j => a i j * x j)) / a i i else x j). destruct Hp as [->|Hp].
  - rewrite substitute_keeps. 2:{ intros j Hj. split; [apply H; right; exact Hj|]. apply (Hz [] p rest eq_refl j Hj). }
    rewrite (sumn_ext n _ (fun j => a p j * x j + (if (j =? p)%nat then b p - sumn n (fun j => a p j * x j) else 0))).
    + rewrite sumn_plus, (sumn_if n p (fun _ => b p - sumn n (fun j => a p j * x j)) Hi). ring.
    + intros j _. unfold x'. destruct (Nat.eqb_spec j p) as [->|]; [rewrite Hx; field; exact Hd|ring].
  - apply (IH x' Hnd'); [| |exact Hp].
    + intros j Hj. destruct (H j (or_intror Hj)) as (A & B & C). split; [exact A|]. split; [exact B|]. unfold x'. destruct (Nat.eqb_spec j i) as [->|]; [contradiction|exact C].
    + intros l i' r E. apply (Hz (i :: l) i' r). cbn. now rewrite E.
Qed.
Lemma seq_split : forall n s l i r, seq s n = l ++ i :: r -> forall j, In j r -> (i < j)%nat.
Proof.
  induction n as [|n IH]; intros s l i r E j Hj; [destruct l; discriminate|]. destruct l as [|a l]; cbn in E; injection E as -> E; [|exact (IH _ _ _ _ E j Hj)]. rewrite <- E in Hj. apply in_seq in Hj. lia.
Qed.
Lemma by_substitution_ok : triangular_solver by_substitution.
Proof.
  intros n U b ((U1 & U2) & HU) Lb. split.
  - intros (i & Hi & Hz) t. unfold by_substitution. rewrite U1. destruct (forallb _ _) eqn:E; [|reflexivity]. exfalso. rewrite forallb_forall in E. specialize (E i ltac:(apply in_seq; lia)). destruct (Req_EM_T (ment U i i) 0); [discriminate|contradiction].
  - intros Hd t. unfold by_substitution. rewrite U1. rewrite (proj2 (forallb_forall _ _)).
    2:{ intros i Hi. apply in_seq in Hi. destruct (Req_EM_T (ment U i i) 0) as [Z|]; [|reflexivity]. exfalso. exact (Hd i ltac:(lia) Z). }
    eexists. split; [reflexivity|]. split; [rewrite map_length, seq_length; reflexivity|]. intros i Hi.
    set (a := fun i j => if t then ment U j i else ment U i j). set (order := if t then seq 0 n else rev (seq 0 n)).
    assert (Hin : forall j, In j order <-> (j < n)%nat) by (intro j; unfold order; destruct t; rewrite <- ?in_rev, in_seq; lia).
    transitivity (sumn n (fun j => a i j * substitute n a (fun i => nth i b 0) order (fun _ => 0) j)).
    + apply sumn_ext. intros j Hj. (rewrite nth_indep with (d' := substitute n a (fun i => nth i b 0) order (fun _ => 0) 0%nat) by (rewrite map_length, seq_length; exact Hj); rewrite map_nth, seq_nth by exact Hj). reflexivity.
    + apply (substitute_solves n a (fun i => nth i b 0) order (fun _ => 0)); [| | |apply Hin; exact Hi].
      * unfold order. destruct t; [apply seq_NoDup|apply NoDup_rev, seq_NoDup].
      * intros j Hj. apply Hin in Hj. split; [exact Hj|]. split; [|reflexivity]. unfold a. destruct t; apply Hd; exact Hj.
      * intros l p r E j Hj. assert (Hpj : (p < n)%nat /\ (j < n)%nat) by (rewrite <- !Hin; rewrite E; split; apply in_or_app; right; [left; reflexivity|right; exact Hj]). unfold a, order in *. destruct t.
        { pose proof (seq_split _ _ _ _ _ E j Hj). apply HU. lia. }
        { apply (f_equal (@rev nat)) in E. rewrite rev_involutive, rev_app_distr in E. cbn [rev] in E. rewrite <- app_assoc in E. cbn [app] in E.
          apply in_rev in Hj. apply in_split in Hj as (r1 & r2 & Er). rewrite Er, <- app_assoc in E. cbn [app] in E. pose proof (seq_split _ _ _ _ _ E p ltac:(apply in_or_app; right; left; reflexivity)). apply HU. lia. }
Qed.

(* The unit square cut into two triangles, the first one treated as curved, walls all around. *)
Example C91_witness : exists G solve inverse chol junk eig tol el E2E E2F bcVec lit, let Vert := [0; 0; 0;  1; 0; 0;  1; 1; 0;  0; 1; 0] in let EToV := [0; 1; 2;  0; 2; 3]%nat in
  forall junkg junkn junkc, exists gf cc mapW,
  mesh_ready G solve inverse chol junk 0 eig tol 1 2 Vert EToV el E2E E2F bcVec 2 junkg junkn gf lit 2 junkc cc [0%nat] /\
  closed_pairs 2 2 gf (gf_mapP gf) mapW /\
  forall q, four_conform q 3 2 = true -> curved_ready by_substitution 3 2 2 (e_V el) (g_J (e_metric el)) cc gf [0%nat] (gf_mapM gf) (gf_mapP gf) mapW (mesh_mass Vert EToV el cc [0%nat]) (mkmat 3 2 (fun _ _ => 0)) (mkmat 3 2 (fun _ _ => 0)) q.
Proof.
  pose proof C85_witness as W5. pose proof C86_witness as W6. cbv zeta in W5, W6. destruct W5 as ((eig & el & HG) & Hpos & Hsh). destruct W6 as (HS & el' & HC & _ & Hrun).
  assert (Eel : el' = el). { destruct HG as [[] _ _ _ _]. destruct HC as [[] _ _ _ _]. assert (E : Ok el' = Ok el) by (etransitivity; [symmetry; exact b_ok0|exact b_ok]). congruence. }
  subst el'. exists gwit, cramer, cramer_inv, chol3, junk0, eig, (1 / 10), el. do 3 eexists. exists (fun z => IZR z / 1000000000000000). intros Vert EToV junkg junkn junkc.
  destruct (gauss_run _ _ _ _ _ _ _ _ _ _ _ _ _ _ _ _ junkg junkn HG) as (gf & zz & ww & Hg & _).
  destruct (Hrun junkc) as (cc & Hc). exists gf, cc.
  assert (HC' : cub_ready gwit cramer cramer_inv chol3 junk0 0 eig (1 / 10) 1 2 Vert EToV el (fun z => IZR z / 1000000000000000) 2) by (destruct HC; constructor; auto; apply HG).
  assert (HM : mesh_ready gwit cramer cramer_inv chol3 junk0 0 eig (1 / 10) 1 2 Vert EToV el [0; 0; 1;  0; 1; 1]%nat [0; 1; 0;  2; 1; 2]%nat [3; 3; 0; 0; 3; 3]%Z 2 junkg junkn gf (fun z => IZR z / 1000000000000000) 2 junkc cc [0%nat]).
  { split; [exact HG|]. split; [exact Hg|]. split; [exact HC'|]. split; [exact Hc|]. split; [exact HS|]. split; [lia|]. split; [exact Hpos|]. intros k [<-|[]]. lia. }
  destruct (C91_built _ _ _ _ _ _ _ _ _ _ _ _ _ _ _ _ _ _ _ _ _ _ _ _ _ HM) as (mapW & HT & Hsy & HK & Hcl). exists mapW. split; [exact HM|].
  assert (E3 : length (e_r el) = 3%nat) by (destruct (TriElemProofs.element_ok _ _ _ _ _ _ _ _ _ _ _ _ (gr_built _ _ _ _ _ _ _ _ _ _ _ _ _ _ _ _ HG)) as [lr _ _ _ _ _ _ _ _ _ _ _ _ _ _ _ _]; exact lr).
  split.
  - apply Hcl. intros h Hh Hn. assert (h <> 2 /\ h <> 3)%nat.
    { split; intros ->; [exact (Hn 3%nat Hsh)|apply (Hn 2%nat)]. destruct Hsh as (_ & a & b & c & d & F1 & F2 & F3). split; [lia|]. exists c, d, a, b. split; [exact F2|]. split; [exact F1|]. unfold same_pair in *. intuition congruence. }
    destruct h as [|[|[|[|[|[|]]]]]]; try lia; reflexivity.
  - intros q Hq. rewrite E3 in *. split; [exact HT|]. split; [exact Hsy|]. split; [exact by_substitution_ok|]. split; [exact Hq|]. split; reflexivity.
Qed.

Print Assumptions C91_scheme.
Print Assumptions C91_determined.
Print Assumptions C91_no_wall_entry.
Print Assumptions C91_conservation.
Print Assumptions C91_wall.
Print Assumptions C91_tracer.
Print Assumptions C91_still_water.
Print Assumptions C91_built.
Print Assumptions C91_mass.
Print Assumptions C91_still_water_built.
Print Assumptions C91_witness.
