(* SemProps.v - C82: the matrices of the continuous (spectral element) Poisson operator. *)
From Coq Require Import ZArith List Lia Bool Arith Permutation.
From Verif Require Import Base Loops Num GmresMath FoldProofs BlitzModel BlitzSpec BlitzProofs UniqueProofs JacobiModel JacobiSpec JacobiProofs JacobiOrthProofs JacobiQuadProofs JacobiExactProofs Nodes1DModel Nodes1DSpec Nodes1DExactProofs DenseSpec GllProofs
  MeshSpec MeshGeoProofs MeshProps MeshProofs TriModel TriSpec TriBasisProofs TriProofs TriOpProofs TriLiftProofs TriFaceProofs TriNodesProofs TriElemProofs TriGeoSpec TriGeoProofs TriSetup TriProps TriWitness Maps2DModel Maps2DSpec Maps2DProofs Maps2DProps TriMapsProofs TriMapsProps TriDGSpec TriDGProofs
  QuadInterpProofs TripletModel CscModel CscSpec CscProps RKModel Line1DModel Line1DProofs SwModel SwSpec SwProofs SwSchemeProofs SwRunProofs SwProps PoissonModel PoissonSpec PoissonTripletProofs PoissonBlockProofs PoissonProofs PoissonFormProofs PoissonProps PoissonEnergySpec PoissonCoerciveProofs PoissonCoerciveProps SemModel SemProofs SemGridProofs.
From Coq Require Import Reals Lra.
Import ListNotations.
Local Open Scope R_scope.

(* A triangle grid of order N (sw_grid) on which the operator is assembled, with a sort that sorts and sizes that fit in int. *)
Record sem_grid (G : R -> R) (solve : mat R -> mat R -> mat R -> outcome (mat R)) (inverse : mat R -> mat R -> outcome (mat R))
  (junk : nat -> nat -> R) (eps : R) (eig : nat -> (nat -> nat -> R) -> list R * (nat -> nat -> R)) (tol : R)
  (sort : (nat -> nat -> bool) -> list nat -> list nat) (junk1 : nat -> R) (junkn : nat -> nat)
  (N K : nat) (Vert : list R) (EToV E2E E2F : list nat) (bcType : list Z) (el : element (T := R)) (m : maps) : Prop := SemGrid {
  eg_grid : sw_grid G solve inverse junk eps eig tol sort junk1 junkn N K Vert EToV E2E E2F bcType el m;
  eg_some : (0 < K)%nat;
  eg_sort : is_sort sort;
  eg_size : (10 * Z.of_nat (length (e_r el)) * Z.of_nat (length (e_r el)) * Z.of_nat K + 2 * Z.of_nat (length (e_r el) * K) <= INT_MAX)%Z }.
Definition sem_of (G : R -> R) (jk : nat * R) (N K : nat) (E2E E2F : list nat) (bcType : list Z) (el : element (T := R)) (m : maps) (bordered : Z) : outcome (poisson R) :=
  buildSem (exact G) jk (tables N el E2E E2F bcType m) 3 (length (e_r el)) (S N) K (m_gather m) (m_scatter m) bordered.
(* the grid points: one for each entry of the gather table; the values at all nodes of a vector with one value for each point *)
Definition points (m : maps) : nat := length (m_gather m).
Definition at_nodes (m : maps) (u : nat -> R) : nat -> R := fun g => u (nth g (m_scatter m) 0%nat).
(* neighbours are reached through shared sides, whatever their tags *)
Definition connected_mesh (K : nat) (EToV : list nat) : Prop := connected K EToV (repeat 0%Z (3 * K)).

Lemma stiff_unique K Vert EToV U V w w' : stiffness_form K Vert EToV U V w -> stiffness_form K Vert EToV U V w' -> w = w'.
Proof. intros (a & Ha & ->) (b & Hb & ->). apply sumn_ext. intros k Hk. eapply eint_unique; [apply Ha|apply Hb]; exact Hk. Qed.
Lemma stiff_sym K Vert EToV U V w : stiffness_form K Vert EToV U V w -> stiffness_form K Vert EToV V U w.
Proof. intros (a & Ha & ->). exists a. split; [|reflexivity]. intros k Hk. eapply eint_ext; [|exact (Ha k Hk)]. intros; cbv beta; ring. Qed.
Lemma stiff_flat K Vert EToV U V w : (forall k x y, ddx U k x y = 0) -> (forall k x y, ddy U k x y = 0) -> stiffness_form K Vert EToV U V w -> w = 0.
Proof.
  intros H1 H2 H. eapply stiff_unique; [exact H|]. exists (fun _ => 0). split; [|symmetry; apply sumn_zero; reflexivity]. intros k Hk. exists 0. split; [|ring].
  apply (tint_ext (fun _ _ => 0)); [|apply tint_zero]. intros. unfold pulled. rewrite H1, H2. ring.
Qed.
Lemma stiff_const K Vert EToV c V w : stiffness_form K Vert EToV (Piecewise (fun _ _ _ => c) (fun _ _ _ => 0) (fun _ _ _ => 0)) V w -> w = 0.
Proof. apply stiff_flat; reflexivity. Qed.
Lemma row_quadratic n a i x : (i < n)%nat -> sumn n (fun j => entry_of a i j * x j) = quadratic n a (delta i) x.
Proof.
  intro Hi. unfold quadratic. rewrite (sumn_pick n (fun i0 => sumn n (fun j => delta i i0 * entry_of a i0 j * x j)) i Hi).
  - apply sumn_ext. intros j _. unfold delta. rewrite Nat.eqb_refl. ring.
  - intros k _ Hne. apply sumn_zero. intros j _. unfold delta. destruct (Nat.eqb_spec i k); [lia|ring].
Qed.
Lemma flat_map_twice {A B} (h : A -> list B) l a b x : In a l -> In b l -> a <> b -> In x (h a) -> In x (h b) -> ~ NoDup (flat_map h l).
Proof.
  induction l as [|c l IH]; [intros []|]. intros Ha Hb Hne Xa Xb ND. cbn [flat_map] in ND.
  assert (Hdisj : forall y, In y (h c) -> In y (flat_map h l) -> False).
  { intros y Y1 Y2. apply in_split in Y1. destruct Y1 as (p & q & E). rewrite E, <- app_assoc in ND. cbn [app] in ND. apply NoDup_remove_2 in ND. apply ND. rewrite !in_app_iff. auto. }
  destruct Ha as [-> |Ha], Hb as [-> |Hb]; [contradiction| | |].
  - apply (Hdisj x Xa). apply in_flat_map. exists b. auto.
  - apply (Hdisj x Xb). apply in_flat_map. exists a. auto.
  - apply (IH Ha Hb Hne Xa Xb). clear -ND. induction (h c) as [|y r IH]; [exact ND|]. cbn [app] in ND. inversion ND. auto.
Qed.

Section Facts.
Variables (G : R -> R) (solve : mat R -> mat R -> mat R -> outcome (mat R)) (inverse : mat R -> mat R -> outcome (mat R))
  (junk : nat -> nat -> R) (eps : R) (eig : nat -> (nat -> nat -> R) -> list R * (nat -> nat -> R)) (tol : R)
  (sort : (nat -> nat -> bool) -> list nat -> list nat) (junk1 : nat -> R) (junkn : nat -> nat)
  (N K : nat) (Vert : list R) (EToV E2E E2F : list nat) (bcType : list Z) (el : element (T := R)) (m : maps).
Hypothesis HG : sem_grid G solve inverse junk eps eig tol sort junk1 junkn N K Vert EToV E2E E2F bcType el m.
Variable jk : nat * R.
Local Notation Np := (length (e_r el)).
Local Notation dof := (nodes el K).
Local Notation n := (points m).
Local Notation rep u U := (reads N K el (at_nodes m u) U).
Local Notation built_op b s := (sem_of G jk N K E2E E2F bcType el m b = Ok s).
Local Notation P := (TriGeoSpec.corner Vert EToV).
Local Notation X := (node_at (e_x el) (e_y el)).
Local Notation sp k f := (side_point (P k f) (P k (next f))).
Local Notation inc b := (if (b =? 0)%Z then 0%nat else 1%nat).

Local Lemma labels_ : labelling dof (m_gather m) (m_scatter m).
Proof. destruct HG as [Hg HK HSo HZ]. eapply grid_labels; eassumption. Qed.
Local Lemma n_le : (n <= dof)%nat. Proof. eapply labels_le, labels_. Qed.
Local Lemma n_pos : (0 < n)%nat.
Proof. eapply labels_pos; [apply labels_|]. destruct HG as [Hg HK HSo HZ]. eapply NpK; eassumption. Qed.
Local Lemma rep_ex u : exists U, rep u U.
Proof. destruct HG as [[HB HM HA HS Hrun Hbc] HK HSo HZ]. eapply rep_exists; eassumption. Qed.

Local Lemma op_exists b : exists s (A C : nat -> mat R), let es := fun B : nat -> mat R => flat_map (fun k => sblock Np (fun i => nth (Np * k + i) (m_scatter m) 0%nat) (B k)) (seq 0 K) in
  built_op b s /\ valid (OP_ s) /\ rows (OP_ s) = (dof + inc b)%nat /\ cols (OP_ s) = (dof + inc b)%nat /\ valid (MM_ s) /\ rows (MM_ s) = n /\ cols (MM_ s) = n /\
  Permutation (entries (OP_ s)) (es A ++ if (b =? 0)%Z then [] else frame n) /\ (forall i j, entry_of (OP_ s) i j = value 0 Rplus (es A ++ if (b =? 0)%Z then [] else frame n) i j) /\
  Forall (inD n) (es A) /\ (forall v u, quadratic n (MM_ s) v u = bl (es C) v u) /\
  forall v u U V, rep u U -> rep v V -> stiffness_form K Vert EToV U V (bl (es A) v u) /\ mass_form K Vert EToV U V (bl (es C) v u).
Proof.
  pose proof labels_ as HL. destruct HG as [[HB HM HA HS Hrun Hbc] HK HSo HZ].
  destruct (assembleSem_ok _ _ _ _ _ _ _ _ _ _ _ _ _ _ _ _ _ _ _ _ HB HA Hrun Hbc _ _ HL b HK HZ) as (OP & Mt & A & C & cap & capM & Ea & Ho & Hm & Hf).
  destruct (C05_triplet_to_csc R jk OP (has_range _ _ _ _ Ho)) as (a & Eo & _ & _ & _ & Pe & _). destruct (C05_triplet_to_csc R jk Mt (has_range _ _ _ _ Hm)) as (c & Em & _).
  destruct (csc_of _ _ _ _ _ _ Ho Eo) as (V1 & R1 & C1 & E1 & Q1). destruct (csc_of _ _ _ _ _ _ Hm Em) as (V2 & R2 & C2 & _ & Q2).
  rewrite (has_entries _ _ _ _ Ho) in Pe.
  exists (Poisson a c), A, C. cbv zeta. cbn [OP_ MM_]. split; [|split; [exact V1|]; split; [exact R1|]; split; [exact C1|]; split; [exact V2|]; split; [exact R2|]; split; [exact C2|]; split; [exact Pe|]; split; [exact E1|]; split; [|split; [exact Q2|exact Hf]]].
  - unfold sem_of, buildSem. rewrite Ea. cbn [bind]. rewrite Eo. cbn [bind]. rewrite Em. reflexivity.
  - apply Forall_forall. intros e He. apply in_flat_map in He. destruct He as (k & Hk & He). apply in_seq in Hk. unfold sblock in He. apply in_map_iff in He. destruct He as ((i, j) & <- & Hij). apply pairs_in in Hij. cbn [fst snd].
    split; (eapply label_at; [exact HL|unfold nodes; nia]).
Qed.
Local Lemma frame_in k : Forall (inD (S k)) (frame k).
Proof. apply Forall_forall. intros e He. unfold frame in He. apply in_flat_map in He. destruct He as (i & Hi & He). apply in_seq in Hi. destruct He as [<- |[<- |[]]]; split; cbn; lia. Qed.
Local Lemma inD_le a b es : (a <= b)%nat -> Forall (inD a) es -> Forall (inD b) es.
Proof. intros Hab H. eapply Forall_impl; [|exact H]. intros ((i, j), x) (Hi & Hj). split; lia. Qed.
Local Lemma op_in b es : Forall (inD n) es -> Forall (inD (n + inc b)) (es ++ if (b =? 0)%Z then [] else frame n).
Proof. intro H. apply Forall_app. split; [apply (inD_le n); [lia|exact H]|]. destruct (b =? 0)%Z; [constructor|]. rewrite Nat.add_1_r. apply frame_in. Qed.
Local Lemma value_out D es i j : Forall (inD D) es -> ((D <= i)%nat \/ (D <= j)%nat) -> value 0 Rplus es i j = 0.
Proof.
  intros H Hij. unfold value. replace (filter (at_pos i j) es) with (@nil (nat * nat * R)); [reflexivity|]. symmetry. induction H as [|e es (H1 & H2) _ IH]; [reflexivity|]. cbn [filter]. unfold at_pos at 1.
  destruct (Nat.eqb_spec (row_of e) i); [|exact IH]. destruct (Nat.eqb_spec (col_of e) j); [lia|exact IH].
Qed.
Local Lemma op_form b s : built_op b s -> 
  (forall v u U V, rep u U -> rep v V -> exists w, stiffness_form K Vert EToV U V w /\ quadratic (n + inc b) (OP_ s) v u = w + if (b =? 0)%Z then 0 else v n * sumn n u + sumn n v * u n) /\
  forall i j, ((n + inc b <= i)%nat \/ (n + inc b <= j)%nat) -> entry_of (OP_ s) i j = 0.
Proof.
  intro Hs. destruct (op_exists b) as (s' & A & C & Es & _ & _ & _ & _ & _ & _ & _ & E1 & HA & _ & Hf). rewrite Es in Hs. injection Hs as ->. pose proof (op_in b _ HA) as HD. split.
  - intros v u U V HU HV. destruct (Hf v u U V HU HV) as (H1 & _). eexists. split; [exact H1|].
    match type of E1 with forall i j, _ = value _ _ ?l _ _ => transitivity (bl l v u) end.
    + rewrite <- (bl_value _ _ v u HD). unfold quadratic. apply sumn_ext. intros i _. apply sumn_ext. intros j _. now rewrite E1.
    + rewrite bl_app. destruct (b =? 0)%Z; [reflexivity|]. now rewrite bl_frame.
  - intros i j Hij. rewrite E1. eapply value_out; eassumption.
Qed.
Local Lemma mass_of_ b s : built_op b s -> forall v u U V, rep u U -> rep v V -> mass_form K Vert EToV U V (quadratic n (MM_ s) v u).
Proof.
  intro Hs. destruct (op_exists b) as (s' & A & C & Es & _ & _ & _ & _ & _ & _ & _ & _ & _ & Q & Hf). rewrite Es in Hs. injection Hs as ->. intros v u U V HU HV. rewrite Q. apply (Hf v u U V HU HV).
Qed.

(* ---------- C82 ---------- *)
Theorem C82_builds b : exists s, built_op b s.
Proof. destruct (op_exists b) as (s & A & C & H & _). exists s. exact H. Qed.
(* The mass matrix has one row for each grid point, the operator one for each node of the discontinuous grid. *)
Theorem C82_shape b s : built_op b s -> valid (OP_ s) /\ valid (MM_ s) /\ rows (MM_ s) = n /\ cols (MM_ s) = n /\ rows (OP_ s) = (dof + inc b)%nat /\ cols (OP_ s) = (dof + inc b)%nat /\ (n <= dof)%nat.
Proof. intro Hs. destruct (op_exists b) as (s' & A & C & Es & H1 & H2 & H3 & H4 & H5 & H6 & _). rewrite Es in Hs. injection Hs as ->. pose proof n_le. tauto. Qed.
(* What is stored past the grid points (and the border) is zero. *)
Theorem C82_padding b s i j : built_op b s -> ((n + inc b <= i)%nat \/ (n + inc b <= j)%nat) -> entry_of (OP_ s) i j = 0.
Proof. intros Hs. apply (proj2 (op_form b s Hs)). Qed.
(* v^T OP u is the integral of grad U . grad V, for the functions with the values u and v at the grid points. *)
Theorem C82_form s u v U V : built_op 0 s -> rep u U -> rep v V -> stiffness_form K Vert EToV U V (quadratic n (OP_ s) v u).
Proof. intros Hs HU HV. destruct (proj1 (op_form 0 s Hs) v u U V HU HV) as (w & Hw & Q). cbn [Z.eqb] in Q. rewrite Nat.add_0_r, Rplus_0_r in Q. rewrite Q. exact Hw. Qed.
(* Those functions are continuous across every side that two elements share. *)
Theorem C82_continuous u U k f k2 f2 t : rep u U -> (k < K)%nat -> (f < 3)%nat -> (f2 < 3)%nat -> joined EToV k f k2 f2 -> val_at U k (sp k f t) = val_at U k2 (sp k f t).
Proof. intros HU Hk Hf Hf2 J. destruct HG as [Hg HK HSo HZ]. exact (continuous _ _ _ _ _ _ _ _ _ _ _ _ _ _ _ _ _ _ _ Hg HK HSo u U k f k2 f2 t HU Hk Hf Hf2 J). Qed.
(* If the nodes that are not at the same place are further apart than the node tolerance, no such function is missed: all
   nodal values that agree wherever two nodes are at the same place come from values at the grid points. *)
Theorem C82_all_continuous (w : nat -> R) :
  (forall k i k2 i2, (k < K)%nat -> (i < Np)%nat -> (k2 < K)%nat -> (i2 < Np)%nat -> X i k <> X i2 k2 ->
     ~ within_tol Rltb 0 Rminus Rmult Rabs (node_coord Np (e_x el) (e_y el)) dof 2 (1 / 1000000000) (Np * k + i) (Np * k2 + i2)) ->
  (forall k i k2 i2, (k < K)%nat -> (i < Np)%nat -> (k2 < K)%nat -> (i2 < Np)%nat -> X i k = X i2 k2 -> w (Np * k + i)%nat = w (Np * k2 + i2)%nat) ->
  exists u, forall g, (g < dof)%nat -> at_nodes m u g = w g.
Proof.
  intros Hsep Hw. exists (fun l => w (nth l (m_gather m) 0%nat)). intros g Hg. unfold at_nodes. pose proof labels_ as HL. destruct HG as [Hgr HK HSo HZ].
  destruct (NpK _ _ _ _ _ _ _ _ _ _ _ _ _ _ _ _ _ _ _ Hgr HK) as (HNp & _).
  destruct (grid_labels _ _ _ _ _ _ _ _ _ _ _ _ _ _ _ _ _ _ _ Hgr HK HSo) as (_ & HR). unfold nodes in Hg. destruct (HR g Hg) as (q & (l & E1 & E2) & Hq).
  rewrite (nth_error_nth _ _ 0%nat E1), (nth_error_nth _ _ 0%nat E2). destruct Hq as [-> |Hq]; [reflexivity|].
  assert (Hqd : (q < Np * K)%nat) by (destruct HL as (_ & _ & L3 & _); destruct (L3 _ _ E2); assumption).
  assert (Dq : (q = Np * (q / Np) + q mod Np /\ q / Np < K /\ q mod Np < Np)%nat) by (split; [apply Nat.div_mod; lia|split; [apply Nat.div_lt_upper_bound; lia|apply Nat.mod_upper_bound; lia]]).
  assert (Dg : (g = Np * (g / Np) + g mod Np /\ g / Np < K /\ g mod Np < Np)%nat) by (split; [apply Nat.div_mod; lia|split; [apply Nat.div_lt_upper_bound; lia|apply Nat.mod_upper_bound; lia]]).
  destruct Dq as (Eq & Q1 & Q2). destruct Dg as (Eg & G1 & G2). rewrite Eq, Eg. rewrite Eq, Eg in Hq. apply Hw; try assumption.
  assert (Hdec : X (q mod Np) (q / Np) = X (g mod Np) (g / Np) \/ X (q mod Np) (q / Np) <> X (g mod Np) (g / Np)).
  { unfold node_at. destruct (Req_dec (ment (e_x el) (q mod Np) (q / Np)) (ment (e_x el) (g mod Np) (g / Np))) as [-> |Hne]; [|right; intro E; injection E; intros; contradiction].
    destruct (Req_dec (ment (e_y el) (q mod Np) (q / Np)) (ment (e_y el) (g mod Np) (g / Np))) as [-> |Hne]; [left; reflexivity|right; intro E; injection E; intros; contradiction]. }
  destruct Hdec as [|Hne]; [assumption|]. exfalso. exact (Hsep _ _ _ _ Q1 Q2 G1 G2 Hne Hq).
Qed.
Theorem C82_symmetric b s i j : built_op b s -> entry_of (OP_ s) i j = entry_of (OP_ s) j i.
Proof.
  intro Hs. destruct (op_form b s Hs) as (F & Z). destruct (le_lt_dec (n + inc b) i) as [Hi|Hi]; [rewrite !Z by auto; reflexivity|]. destruct (le_lt_dec (n + inc b) j) as [Hj|Hj]; [rewrite !Z by auto; reflexivity|].
  rewrite !(entry_quadratic (n + inc b)) by assumption. destruct (rep_ex (delta i)) as (U & HU). destruct (rep_ex (delta j)) as (V & HV).
  destruct (F _ _ _ _ HU HV) as (w & Hw & ->). destruct (F _ _ _ _ HV HU) as (w' & Hw' & ->). rewrite (stiff_unique _ _ _ _ _ _ _ Hw (stiff_sym _ _ _ _ _ _ Hw')). destruct (b =? 0)%Z; ring.
Qed.
Theorem C82_semidefinite s u : built_op 0 s -> 0 <= quadratic n (OP_ s) u u.
Proof.
  intro Hs. destruct (rep_ex u) as (U & HU). destruct (C82_form s u u U U Hs HU HU) as (vol & Hv & ->). apply sumn_nonneg. intros k Hk. destruct HG as [[HB HM HA HS Hrun Hbc] HK HSo HZ]. exact (vol_pos _ _ _ HA U k _ Hk (Hv k Hk)).
Qed.
Local Lemma const_rep c : rep (fun _ => c) (Piecewise (fun _ _ _ => c) (fun _ _ _ => 0) (fun _ _ _ => 0)).
Proof. exact (PoissonProps.rep_const N K el c). Qed.
(* On a connected mesh exactly the constants are in the kernel: the operator imposes no boundary condition. *)
Theorem C82_kernel s u : built_op 0 s -> connected_mesh K EToV -> (in_kernel n (OP_ s) u <-> exists c, forall l, (l < n)%nat -> u l = c).
Proof.
  intros Hs HC. split.
  - intro Hu. destruct (rep_ex u) as (U & HU). pose proof (C82_form s u u U U Hs HU HU) as F. rewrite (kernel_quadratic _ _ _ _ Hu) in F. pose proof n_pos as Hn. destruct HG as [Hg HK HSo HZ].
    exists (u 0%nat). intros l Hl. exact (no_gradient _ _ _ _ _ _ _ _ _ _ _ _ _ _ _ _ _ _ _ Hg HK HSo u U HC HU F l 0%nat Hl Hn).
  - intros (c & Hc) i Hi. rewrite (sumn_ext n _ (fun j => entry_of (OP_ s) i j * c)) by (intros j Hj; now rewrite (Hc j Hj)). rewrite (row_quadratic n (OP_ s) i (fun _ => c) Hi). destruct (rep_ex (delta i)) as (V & HV).
    eapply stiff_flat; [| |exact (C82_form s (fun _ => c) (delta i) _ V Hs (const_rep c) HV)]; reflexivity.
Qed.
(* The border: one more row and column of ones, at the position after the grid points. *)
Theorem C82_bordered s b u v U V : b <> 0%Z -> built_op b s -> rep u U -> rep v V ->
  exists w, stiffness_form K Vert EToV U V w /\ quadratic (S n) (OP_ s) v u = w + (v n * sumn n u + sumn n v * u n).
Proof. intros Hb Hs HU HV. destruct (proj1 (op_form b s Hs) v u U V HU HV) as (w & Hw & Q). destruct (Z.eqb_spec b 0); [contradiction|]. rewrite Nat.add_1_r in Q. exists w. auto. Qed.
(* On a connected mesh the leading bordered block is nonsingular. *)
Theorem C82_bordered_nonsingular s b x : b <> 0%Z -> built_op b s -> connected_mesh K EToV -> in_kernel (S n) (OP_ s) x -> forall l, (l < S n)%nat -> x l = 0.
Proof.
  intros Hb Hs HC Hx. pose proof n_pos as Hn.
  assert (HD : forall l, (l < n)%nat -> delta n l = 0) by (intros l Hl; unfold delta; destruct (Nat.eqb_spec n l); [lia|reflexivity]).
  assert (Dn : delta n n = 1) by (unfold delta; now rewrite Nat.eqb_refl).
  assert (HO : forall u, (forall l, (l < n)%nat -> u l = 0) -> rep u (Piecewise (fun _ _ _ => 0) (fun _ _ _ => 0) (fun _ _ _ => 0))).
  { intros u Hu k Hk. destruct (const_rep 0 k Hk) as (A & B & C & _). split; [exact A|]. split; [exact B|]. split; [exact C|]. intros i Hi. unfold val_at. cbn. symmetry. unfold at_nodes. apply Hu. eapply label_at; [apply labels_|]. unfold nodes. nia. }
  destruct (rep_ex x) as (U & HU).
  assert (Hsum : sumn n x = 0).
  { destruct (C82_bordered s b x (delta n) U _ Hb Hs HU (HO _ HD)) as (w & Hw & Q). rewrite (kernel_quadratic _ _ _ _ Hx), Dn, (sumn_zero n (delta n) HD) in Q. apply stiff_sym in Hw. rewrite (stiff_const _ _ _ _ _ _ Hw) in Q. lra. }
  destruct (C82_bordered s b x x U U Hb Hs HU HU) as (w & Hw & Q). rewrite (kernel_quadratic _ _ _ _ Hx), Hsum in Q. assert (w = 0) by lra. subst w.
  assert (Hc : forall l, (l < n)%nat -> x l = x 0%nat) by (intros l Hl; destruct HG as [Hg HK HSo HZ]; exact (no_gradient _ _ _ _ _ _ _ _ _ _ _ _ _ _ _ _ _ _ _ Hg HK HSo x U HC HU Hw l 0%nat Hl Hn)).
  assert (H0 : x 0%nat = 0).
  { rewrite (sumn_ext n x (fun _ => x 0%nat * 1)) in Hsum by (intros l Hl; rewrite (Hc l Hl); ring). rewrite sumn_scal in Hsum. assert (E1 : forall k, sumn k (fun _ => 1) = INR k) by (induction k as [|k IH]; [reflexivity|rewrite sumn_S, IH, S_INR; reflexivity]).
    rewrite E1 in Hsum. apply Rmult_integral in Hsum. destruct Hsum as [|E2]; [assumption|]. pose proof (lt_0_INR n Hn). lra. }
  assert (Hlast : x n = 0).
  { destruct (rep_ex (delta 0%nat)) as (V & HV). destruct (C82_bordered s b x (delta 0%nat) _ V Hb Hs (HO x ltac:(intros l Hl; rewrite (Hc l Hl); exact H0)) HV) as (w & Hw' & Q').
    rewrite (kernel_quadratic _ _ _ _ Hx), (stiff_const _ _ _ _ _ _ Hw'), Hsum in Q'.
    rewrite (sumn_pick n (delta 0%nat) 0 Hn) in Q' by (intros g Hg Hne; unfold delta; destruct (Nat.eqb_spec 0 g); [lia|reflexivity]). unfold delta in Q' at 2. cbn [Nat.eqb] in Q'. lra. }
  intros l Hl. destruct (Nat.eq_dec l n) as [-> |Hne]; [exact Hlast|]. rewrite (Hc l ltac:(lia)). exact H0.
Qed.
(* v^T MM u is the integral of U V; the mass matrix is symmetric and positive definite. *)
Theorem C82_mass b s u v U V : built_op b s -> rep u U -> rep v V -> mass_form K Vert EToV U V (quadratic n (MM_ s) v u).
Proof. intros Hs HU HV. exact (mass_of_ b s Hs v u U V HU HV). Qed.
Theorem C82_mass_symmetric b s i j : built_op b s -> (i < n)%nat -> (j < n)%nat -> entry_of (MM_ s) i j = entry_of (MM_ s) j i.
Proof.
  intros Hs Hi Hj. rewrite !(entry_quadratic n) by assumption. destruct (rep_ex (delta i)) as (U & HU). destruct (rep_ex (delta j)) as (V & HV).
  eapply mass_unique; [exact (C82_mass b s _ _ _ _ Hs HV HU)|]. apply mass_sym. exact (C82_mass b s _ _ _ _ Hs HU HV).
Qed.
Theorem C82_mass_definite b s u : built_op b s -> (exists l, (l < n)%nat /\ u l <> 0) -> 0 < quadratic n (MM_ s) u u.
Proof.
  intros Hs (l & Hl & Hne). destruct (rep_ex u) as (U & HU). pose proof (C82_mass b s u u U U Hs HU HU) as F. pose proof labels_ as HL. destruct HG as [[HB HM HA HS Hrun Hbc] HK HSo HZ].
  assert (HP : 0 <= quadratic n (MM_ s) u u /\ (quadratic n (MM_ s) u u = 0 -> forall g, (g < Np * K)%nat -> at_nodes m u g = 0)) by (eapply mass_positive; eassumption).
  destruct HP as (P0 & P1). destruct (Rle_lt_or_eq_dec _ _ P0) as [|E0]; [assumption|]. exfalso. apply Hne. destruct HL as (_ & _ & L3 & _).
  destruct (nth_error (m_gather m) l) as [r|] eqn:Er; [|apply nth_error_None in Er; unfold points in Hl; lia]. destruct (L3 l r Er) as (Hr & Esc). specialize (P1 (eq_sym E0) r Hr). unfold at_nodes in P1. rewrite (nth_error_nth _ _ 0%nat Esc) in P1. exact P1.
Qed.
Local Lemma other k f k2 f2 : (k < K)%nat -> (f < 3)%nat -> (f2 < 3)%nat -> joined EToV k f k2 f2 -> (k2 < K)%nat /\ k <> k2.
Proof.
  intros Hk Hf Hf2 J. destruct HG as [[HB HM HA HS Hrun Hbc] HK HSo HZ]. assert (H : (k2 < K)%nat /\ P k2 f2 = P k (next f) /\ P k2 (next f2) = P k f /\ joined EToV k2 f2 k f) by (eapply ends; eassumption). destruct H as (Hk2 & E1 & E2 & _).
  split; [exact Hk2|]. intros <-. specialize (HA k Hk). destruct f as [|[|[|]]]; [| | |lia]; (destruct f2 as [|[|[|]]]; [| | |lia]); change (next 0) with 1%nat in *; change (next 1) with 2%nat in *; change (next 2) with 0%nat in *;
    revert HA E1 E2; unfold area; generalize (P k 0) (P k 1) (P k 2); intros a b c HA E1 E2; unfold TriGeoSpec.cross, pminus in HA; subst; cbn [fst snd] in HA; lra.
Qed.
(* A shared side means fewer grid points than nodes. *)
Theorem C82_fewer k f k2 f2 : (k < K)%nat -> (f < 3)%nat -> (f2 < 3)%nat -> joined EToV k f k2 f2 -> (n < dof)%nat.
Proof.
  intros Hk Hf Hf2 J. destruct (other k f k2 f2 Hk Hf Hf2 J) as (Hk2 & Hne). pose proof labels_ as HL. destruct HG as [Hg HK HSo HZ].
  destruct (twins _ _ _ _ _ _ _ _ _ _ _ _ _ _ _ _ _ _ _ Hg HK k f k2 f2 Hk Hf Hf2 J) as (H & HT). destruct (HT 0%nat ltac:(lia)) as (A1 & A2 & A3).
  pose proof (coincide _ _ _ _ _ _ _ _ _ _ _ _ _ _ _ _ _ _ _ Hg HK HSo k (fnode el f 0) k2 (H 0%nat) Hk A1 Hk2 A2 (eq_sym A3)) as E.
  destruct (le_lt_dec dof n) as [Hle|]; [exfalso|assumption]. destruct HL as (L1 & L2 & L3 & L4).
  (* then gather lists every node, and both nodes carry their own label *)
  assert (Hall : forall r, (r < dof)%nat -> In r (m_gather m)).
  { intros r Hr. assert (Hinc : incl (m_gather m) (seq 0 dof)) by (intros q Hq; apply In_nth_error in Hq; destruct Hq as (i & Hi); apply in_seq; destruct (L3 i q Hi); lia).
    apply (NoDup_length_incl L4) in Hinc; [|rewrite seq_length; exact Hle]. apply Hinc. apply in_seq. lia. }
  assert (Hown : forall r, (r < dof)%nat -> nth_error (m_gather m) (nth r (m_scatter m) 0%nat) = Some r).
  { intros r Hr. destruct (In_nth_error _ _ (Hall r Hr)) as (i & Hi). destruct (L3 i r Hi) as (_ & Es). rewrite (nth_error_nth _ _ 0%nat Es). exact Hi. }
  assert (B1 : (Np * k + fnode el f 0 < dof)%nat) by (unfold nodes; nia). assert (B2 : (Np * k2 + H 0 < dof)%nat) by (unfold nodes; nia).
  pose proof (Hown _ B1) as O1. pose proof (Hown _ B2) as O2. rewrite E, O2 in O1. injection O1 as O1. apply Hne. nia.
Qed.
(* Then the returned operator is singular, with or without the border. *)
Theorem C82_singular b s k f k2 f2 : built_op b s -> (k < K)%nat -> (f < 3)%nat -> (f2 < 3)%nat -> joined EToV k f k2 f2 ->
  exists x, in_kernel (rows (OP_ s)) (OP_ s) x /\ exists g, (g < rows (OP_ s))%nat /\ x g <> 0.
Proof.
  intros Hs Hk Hf Hf2 J. pose proof (C82_fewer k f k2 f2 Hk Hf Hf2 J) as Hlt. destruct (C82_shape b s Hs) as (_ & _ & _ & _ & -> & _). set (g := (n + inc b)%nat). exists (delta g). split.
  - intros i Hi. apply sumn_zero. intros j Hj. unfold delta. destruct (Nat.eqb_spec g j) as [<- |]; [|ring]. rewrite (C82_padding b s i g Hs) by (right; reflexivity). ring.
  - exists g. split; [unfold g; lia|]. unfold delta. rewrite Nat.eqb_refl. lra.
Qed.
(* Entries of elements that share a side are stored separately: some position of the matrix is stored more than once. *)
Theorem C82_repeated b s k f k2 f2 : built_op b s -> (k < K)%nat -> (f < 3)%nat -> (f2 < 3)%nat -> joined EToV k f k2 f2 -> ~ NoDup (map fst (entries (OP_ s))).
Proof.
  intros Hs Hk Hf Hf2 J. destruct (other k f k2 f2 Hk Hf Hf2 J) as (Hk2 & Hne). destruct (op_exists b) as (s' & A & C & Es & _ & _ & _ & _ & _ & _ & Pe & _). rewrite Es in Hs. injection Hs as ->. destruct HG as [Hg HK HSo HZ].
  destruct (twins _ _ _ _ _ _ _ _ _ _ _ _ _ _ _ _ _ _ _ Hg HK k f k2 f2 Hk Hf Hf2 J) as (H & HT). destruct (HT 0%nat ltac:(lia)) as (A1 & A2 & A3).
  pose proof (coincide _ _ _ _ _ _ _ _ _ _ _ _ _ _ _ _ _ _ _ Hg HK HSo k (fnode el f 0) k2 (H 0%nat) Hk A1 Hk2 A2 (eq_sym A3)) as E.
  intro ND. apply (Permutation_NoDup (Permutation_map fst Pe)) in ND. rewrite map_app in ND.
  assert (ND2 : NoDup (flat_map (fun k => map fst (sblock Np (fun i => nth (Np * k + i) (m_scatter m) 0%nat) (A k))) (seq 0 K))).
  { assert (EF : forall l, flat_map (fun k => map fst (sblock Np (fun i => nth (Np * k + i) (m_scatter m) 0%nat) (A k))) l = map fst (flat_map (fun k => sblock Np (fun i => nth (Np * k + i) (m_scatter m) 0%nat) (A k)) l)) by (induction l as [|a l IH]; [reflexivity|]; cbn [flat_map]; rewrite map_app, IH; reflexivity). rewrite EF. clear -ND. match type of ND with NoDup (?a ++ _) => induction a as [|y r IH]; [constructor|] end. cbn [app] in ND. inversion ND as [|? ? Hn Hd]; subst. constructor; [intro; apply Hn; apply in_or_app; auto|auto]. }
  revert ND2. set (l := nth (Np * k + fnode el f 0) (m_scatter m) 0%nat) in *. apply (flat_map_twice _ _ k k2 (l, l)); try (apply in_seq; lia); try assumption; apply in_map_iff.
  - exists (l, l, ment (A k) (fnode el f 0) (fnode el f 0)). split; [reflexivity|]. unfold sblock. apply in_map_iff. exists (fnode el f 0%nat, fnode el f 0%nat). split; [reflexivity|]. apply pairs_in. lia.
  - exists (l, l, ment (A k2) (H 0%nat) (H 0%nat)). split; [reflexivity|]. unfold sblock. apply in_map_iff. exists (H 0%nat, H 0%nat). cbn [fst snd]. rewrite <- E. split; [reflexivity|]. apply pairs_in. lia.
Qed.
End Facts.

(* Two triangles on the unit square. *)
Example C82_witness :
  let Vert := [0; 0; 0;  1; 0; 0;  1; 1; 0;  0; 1; 0] in let EToV := [0; 1; 2;  0; 2; 3]%nat in
  let E2E := [0; 0; 1;  0; 1; 1]%nat in let E2F := [0; 1; 0;  2; 1; 2]%nat in
  connected_mesh 2 EToV /\ joined EToV 0 2 1 0 /\
  forall bcType, (6 <= length bcType)%nat -> exists el m, sem_grid gwit cramer cramer_inv junk0 0 eig0 (1 / 10) isort (fun _ => 0) (fun _ => 0%nat) 1 2 Vert EToV E2E E2F bcType el m.
Proof.
  intros Vert EToV E2E E2F.
  assert (HJ : forall g h, shares 3 (map Z.of_nat EToV) g h <-> (g = 2 /\ h = 3 \/ g = 3 /\ h = 2)%nat) by (destruct (tri_grid_witness [3; 3; 0; 0; 3; 3]%Z (le_n 6)) as (_ & B' & _); exact B').
  split; [|split].
  - assert (Hi : forall k f, (k < 2)%nat -> (f < 3)%nat -> PoissonSpec.interior (repeat 0%Z (3 * 2)) k f) by (intros k f Hk Hf; unfold PoissonSpec.interior, dirichlet, natural; destruct k as [|[|]]; try lia; (destruct f as [|[|[|]]]; try lia); cbn; lia).
    intros k k' Hk Hk'. destruct k as [|[|]], k' as [|[|]]; try lia; try apply linked_refl.
    + apply (linked_step _ _ _ 0 2 1 0); [lia|lia|lia|apply HJ; lia|apply Hi; lia|apply linked_refl].
    + apply (linked_step _ _ _ 1 0 0 2); [lia|lia|lia|apply HJ; lia|apply Hi; lia|apply linked_refl].
  - apply HJ. lia.
  - intros bcType Hb. destruct (poisson_witness bcType Hb) as (el & m & [Hg HK _ _]). exists el, m. assert (L : length (e_r el) = 3%nat) by (destruct Hg as [HB _ _ _ _ _]; destruct (element_ok _ _ _ _ _ _ _ _ _ _ _ _ HB) as [lr]; rewrite lr; reflexivity).
    constructor; [exact Hg|exact HK|apply isort_is_sort|rewrite L; vm_compute; discriminate].
Qed.
(* order 1: the nodes are the corners *)
Local Lemma corner_nodes G solve inverse junk eps eig tol K Vert EToV el i : built G solve inverse junk eps eig tol 1 K Vert EToV el -> (i < length (e_r el))%nat ->
  length (e_r el) = 3%nat /\ exists j, (j < 3)%nat /\ (nth i (e_r el) 0, nth i (e_s el) 0) = nth j [(-1, -1); (1, -1); (-1, 1)] (0, 0).
Proof.
  intros HB Hi. destruct (C67_edge_nodes _ _ _ _ _ _ _ _ _ _ _ _ HB) as (L & _ & g & _ & g0 & g1 & _ & _ & _ & _ & Hm). destruct (Hm 0%nat ltac:(lia)) as (m0 & _ & L0 & I0 & N0). destruct (Hm 2%nat ltac:(lia)) as (m2 & _ & L2 & I2 & N2).
  assert (L3 : length (e_r el) = 3%nat) by lia. split; [exact L3|]. pose proof (N0 0%nat ltac:(lia)) as A. pose proof (N0 1%nat ltac:(lia)) as B. pose proof (N2 1%nat ltac:(lia)) as C. cbv beta zeta iota in A, B, C. rewrite g0 in A. rewrite g1 in B, C.
  set (a := nth 0 m0 0%nat) in *. set (b := nth 1 m0 0%nat) in *. set (c := nth 1 m2 0%nat) in *.
  assert (Ha : (a < 3)%nat) by (rewrite <- L3; apply I0; apply nth_In; lia). assert (Hb : (b < 3)%nat) by (rewrite <- L3; apply I0; apply nth_In; lia). assert (Hc : (c < 3)%nat) by (rewrite <- L3; apply I2; apply nth_In; lia).
  assert (ab : a <> b) by (intro E; rewrite E in A; rewrite A in B; injection B; lra). assert (ac : a <> c) by (intro E; rewrite E in A; rewrite A in C; injection C; lra). assert (bc : b <> c) by (intro E; rewrite E in B; rewrite B in C; injection C; lra).
  assert (Hor : (i = a \/ i = b \/ i = c)%nat) by lia. destruct Hor as [-> |[-> | ->]]; [exists 0%nat|exists 1%nat|exists 2%nat]; (split; [lia|assumption]).
Qed.
Example C82_all_continuous_witness :
  let Vert := [0; 0; 0;  1; 0; 0;  1; 1; 0;  0; 1; 0] in let EToV := [0; 1; 2;  0; 2; 3]%nat in
  let E2E := [0; 0; 1;  0; 1; 1]%nat in let E2F := [0; 1; 0;  2; 1; 2]%nat in
  forall bcType el m, sem_grid gwit cramer cramer_inv junk0 0 eig0 (1 / 10) isort (fun _ => 0) (fun _ => 0%nat) 1 2 Vert EToV E2E E2F bcType el m ->
  forall k i k2 i2, (k < 2)%nat -> (i < length (e_r el))%nat -> (k2 < 2)%nat -> (i2 < length (e_r el))%nat -> node_at (e_x el) (e_y el) i k <> node_at (e_x el) (e_y el) i2 k2 ->
     ~ within_tol Rltb 0 Rminus Rmult Rabs (node_coord (length (e_r el)) (e_x el) (e_y el)) (nodes el 2) 2 (1 / 1000000000) (length (e_r el) * k + i) (length (e_r el) * k2 + i2).
Proof.
  intros Vert EToV E2E E2F bcType el m [[HB HM HA HS Hrun Hbc] HK HSo HZ] k i k2 i2 Hk Hi Hk2 Hi2 Hne HW.
  assert (Hx : forall k i, (k < 2)%nat -> (i < length (e_r el))%nat -> let p := node_at (e_x el) (e_y el) i k in (fst p = 0 \/ fst p = 1) /\ (snd p = 0 \/ snd p = 1)).
  { clear k i k2 i2 Hk Hi Hk2 Hi2 Hne HW. intros k i Hk Hi p. unfold p. assert (EP : node_at (e_x el) (e_y el) i k = affine_image (TriGeoSpec.corner Vert EToV k 0) (TriGeoSpec.corner Vert EToV k 1) (TriGeoSpec.corner Vert EToV k 2) (nth i (e_r el) 0) (nth i (e_s el) 0)) by (eapply phys; eassumption).
    rewrite EP. destruct (corner_nodes _ _ _ _ _ _ _ _ _ _ _ i HB Hi) as (_ & j & Hj & E). pose proof (f_equal fst E) as E1. pose proof (f_equal snd E) as E2. cbn [fst snd] in E1, E2. rewrite E1, E2.
    destruct k as [|[|]]; try lia; (destruct j as [|[|[|]]]; try lia); unfold affine_image, TriGeoSpec.corner; cbn; split; lra. }
  assert (Hc : forall k i j, (k < 2)%nat -> (i < length (e_r el))%nat -> node_coord (length (e_r el)) (e_x el) (e_y el) (length (e_r el) * k + i) j = if (j =? 0)%nat then fst (node_at (e_x el) (e_y el) i k) else snd (node_at (e_x el) (e_y el) i k)).
  { intros. apply (node_coord_at 2); [lia|assumption]. }
  assert (Hb : forall g j, (g < nodes el 2)%nat -> Rabs (node_coord (length (e_r el)) (e_x el) (e_y el) g j) <= 1).
  { intros g j Hg. unfold nodes in Hg. assert (Hn : (length (e_r el) <> 0)%nat) by lia. rewrite (Nat.div_mod g (length (e_r el)) Hn). assert (D1 : (g / length (e_r el) < 2)%nat) by (apply Nat.div_lt_upper_bound; lia). pose proof (Nat.mod_upper_bound g _ Hn) as D2.
    rewrite Hc by assumption. destruct (Hx _ _ D1 D2) as (A & B). destruct (j =? 0)%nat; [destruct A as [-> | ->]|destruct B as [-> | ->]]; rewrite ?Rabs_R0, ?Rabs_R1; lra. }
  assert (HM1 : forall j M, is_max_abs Rltb 0 Rabs (node_coord (length (e_r el)) (e_x el) (e_y el)) (nodes el 2) j M -> M <= 1) by (intros j M (_ & [-> |(g & Hg & ->)]); [lra|apply Hb; exact Hg]).
  destruct (HW 0%nat ltac:(lia)) as (M & HM0 & W0). destruct (HW 1%nat ltac:(lia)) as (M' & HM0' & W1). apply HM1 in HM0. apply HM1 in HM0'. apply nltb_iff in W0. apply nltb_iff in W1. rewrite !Hc in W0, W1 by assumption. cbn [Nat.eqb] in W0, W1.
  destruct (Hx k i Hk Hi) as (A & B). destruct (Hx k2 i2 Hk2 Hi2) as (A' & B'). apply Hne. rewrite (surjective_pairing (node_at (e_x el) (e_y el) i k)), (surjective_pairing (node_at (e_x el) (e_y el) i2 k2)).
  assert (Hd : forall a b M, (a = 0 \/ a = 1) -> (b = 0 \/ b = 1) -> M <= 1 -> Rabs (a - b) <= M * (1 / 1000000000) -> a = b).
  { intros a b M0 [-> | ->] [-> | ->] HM2 H; try reflexivity; exfalso; revert H; unfold Rabs; destruct (Rcase_abs _); lra. }
  f_equal; [exact (Hd _ _ _ A A' HM0 W0)|exact (Hd _ _ _ B B' HM0' W1)].
Qed.
(* Bordering does not make the operator solvable: on this grid every call returns a singular matrix, with some positions stored
   twice. *)
Theorem C82_solvable_refuted :
  let Vert := [0; 0; 0;  1; 0; 0;  1; 1; 0;  0; 1; 0] in let EToV := [0; 1; 2;  0; 2; 3]%nat in
  let E2E := [0; 0; 1;  0; 1; 1]%nat in let E2F := [0; 1; 0;  2; 1; 2]%nat in let bcType := [3; 3; 0; 0; 3; 3]%Z in
  exists el m, sem_grid gwit cramer cramer_inv junk0 0 eig0 (1 / 10) isort (fun _ => 0) (fun _ => 0%nat) 1 2 Vert EToV E2E E2F bcType el m /\
  forall jk b, exists s, sem_of gwit jk 1 2 E2E E2F bcType el m b = Ok s /\
  (exists x, in_kernel (rows (OP_ s)) (OP_ s) x /\ exists g, (g < rows (OP_ s))%nat /\ x g <> 0) /\ ~ NoDup (map fst (entries (OP_ s))).
Proof.
  intros Vert EToV E2E E2F bcType. destruct C82_witness as (_ & J & W). destruct (W bcType (le_n 6)) as (el & m & HG). exists el, m. split; [exact HG|]. intros jk b.
  destruct (C82_builds _ _ _ _ _ _ _ _ _ _ _ _ _ _ _ _ _ _ _ HG jk b) as (s & Hs). exists s. split; [exact Hs|]. split.
  - exact (C82_singular _ _ _ _ _ _ _ _ _ _ _ _ _ _ _ _ _ _ _ HG jk b s 0 2 1 0 Hs ltac:(lia) ltac:(lia) ltac:(lia) J).
  - exact (C82_repeated _ _ _ _ _ _ _ _ _ _ _ _ _ _ _ _ _ _ _ HG jk b s 0 2 1 0 Hs ltac:(lia) ltac:(lia) ltac:(lia) J).
Qed.
Print Assumptions C82_builds.
Print Assumptions C82_shape.
Print Assumptions C82_padding.
Print Assumptions C82_form.
Print Assumptions C82_continuous.
Print Assumptions C82_all_continuous.
Print Assumptions C82_symmetric.
Print Assumptions C82_semidefinite.
Print Assumptions C82_kernel.
Print Assumptions C82_bordered.
Print Assumptions C82_bordered_nonsingular.
Print Assumptions C82_mass.
Print Assumptions C82_mass_symmetric.
Print Assumptions C82_mass_definite.
Print Assumptions C82_fewer.
Print Assumptions C82_singular.
Print Assumptions C82_repeated.
Print Assumptions C82_solvable_refuted.
