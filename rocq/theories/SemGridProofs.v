(* SemGridProofs.v - the labels of the grid points, and continuity of the functions they describe. *)
From Coq Require Import ZArith List Lia Bool Arith.
From Verif Require Import Base Loops Num GmresMath FoldProofs BlitzModel BlitzSpec BlitzProofs UniqueProofs JacobiModel JacobiSpec JacobiProofs JacobiOrthProofs JacobiQuadProofs JacobiExactProofs Nodes1DModel Nodes1DSpec Nodes1DExactProofs DenseSpec GllProofs
  MeshSpec MeshGeoProofs MeshProps MeshProofs TriModel TriSpec TriBasisProofs TriProofs TriOpProofs TriLiftProofs TriFaceProofs TriNodesProofs TriElemProofs TriGeoSpec TriGeoProofs TriSetup TriProps Maps2DModel Maps2DSpec Maps2DProofs Maps2DProps TriMapsProofs TriMapsProps TriDGSpec TriDGProofs
  QuadInterpProofs TripletModel CscModel CscSpec CscProps RKModel Line1DModel Line1DProofs SwModel SwSpec SwProofs SwSchemeProofs SwRunProofs SwProps PoissonModel PoissonSpec PoissonTripletProofs PoissonBlockProofs PoissonProofs PoissonFormProofs PoissonEnergySpec PoissonCoerciveProofs SemModel SemProofs.
From Coq Require Import Reals Lra.
Import ListNotations.
Local Open Scope R_scope.

(* what uniquetol needs of exact arithmetic *)
Lemma ltb_iff a b : Rltb a b = true <-> a < b.
Proof. unfold Rltb. destruct (Rlt_dec a b); split; intro; try assumption; try reflexivity; try discriminate; contradiction. Qed.
Lemma nltb_iff a b : Rltb a b = false <-> b <= a.
Proof. unfold Rltb. destruct (Rlt_dec a b); split; intro; try reflexivity; try discriminate; try lra. Qed.
Lemma max_abs_val B rows j M M' : (0 < rows)%nat -> is_max_abs Rltb 0 Rabs B rows j M -> is_max_abs Rltb 0 Rabs B rows j M' -> 0 <= M /\ M <= M'.
Proof.
  intros Hr (A1 & A2) (B1 & B2). pose proof (proj1 (nltb_iff _ _) (A1 0%nat Hr)) as P. pose proof (proj1 (nltb_iff _ _) (B1 0%nat Hr)) as P'. pose proof (Rabs_pos (B 0%nat j)). split; [lra|].
  destruct A2 as [-> |(i & Hi & ->)]; [lra|]. apply nltb_iff. apply B1. exact Hi.
Qed.
Lemma exact_tolerance G : let E := exact G in let t := fdiv E (fofZ E 1) (fofZ E 1000000000) in
  strict_weak (flt E) /\ flt E (fofZ E 0) t = true /\
  (forall a b c, flt E b a = false -> flt E c b = false -> flt E (fabs E (fsub E a c)) (fabs E (fsub E a b)) = false) /\
  (forall B rows j M a, (0 < rows)%nat -> is_max_abs (flt E) (fofZ E 0) (fabs E) B rows j M -> flt E (fmul E M t) (fabs E (fsub E a a)) = false) /\
  (forall B rows j M M' v, (0 < rows)%nat -> is_max_abs (flt E) (fofZ E 0) (fabs E) B rows j M -> is_max_abs (flt E) (fofZ E 0) (fabs E) B rows j M' -> flt E (fmul E M t) v = flt E (fmul E M' t) v).
Proof.
  intros E t. unfold t, E. cbn [exact flt fofZ fdiv fabs fsub fmul]. split; [exact Rltb_strict_weak|]. split; [apply ltb_iff; lra|]. split; [|split].
  - intros a b c H1 H2. apply nltb_iff in H1. apply nltb_iff in H2. apply nltb_iff. unfold Rabs. destruct (Rcase_abs (a - b)), (Rcase_abs (a - c)); lra.
  - intros B rows j M a Hr HM. destruct (max_abs_val B rows j M M Hr HM HM) as (P & _). apply nltb_iff. rewrite Rminus_diag_eq, Rabs_R0 by reflexivity. lra.
  - intros B rows j M M' v Hr H1 H2. destruct (max_abs_val B rows j M M' Hr H1 H2). destruct (max_abs_val B rows j M' M Hr H2 H1). replace M' with M by lra. reflexivity.
Qed.

Lemma map_NoDup_in {A B} (f : A -> B) l : (forall a b, In a l -> In b l -> f a = f b -> a = b) -> NoDup l -> NoDup (map f l).
Proof.
  intros H ND. induction ND as [|x l Hx ND IH]; cbn [map]; constructor.
  - intro Hi. apply in_map_iff in Hi. destruct Hi as (y & E & Hy). apply H in E; [subst y; contradiction|right; exact Hy|left; reflexivity].
  - apply IH. intros a b Ha Hb. apply H; right; assumption.
Qed.

Section Grid.
Variables (G : R -> R) (solve : mat R -> mat R -> mat R -> outcome (mat R)) (inverse : mat R -> mat R -> outcome (mat R))
  (junk : nat -> nat -> R) (eps : R) (eig : nat -> (nat -> nat -> R) -> list R * (nat -> nat -> R)) (tol : R)
  (sort : (nat -> nat -> bool) -> list nat -> list nat) (junk1 : nat -> R) (junkn : nat -> nat)
  (N K : nat) (Vert : list R) (EToV E2E E2F : list nat) (bcType : list Z) (el : element (T := R)) (m : maps).
Hypothesis HG : sw_grid G solve inverse junk eps eig tol sort junk1 junkn N K Vert EToV E2E E2F bcType el m.
Hypothesis HK : (0 < K)%nat.
Hypothesis HSo : is_sort sort.
Local Notation P := (TriGeoSpec.corner Vert EToV).
Local Notation Np := (length (e_r el)).
Local Notation rep := (PoissonSpec.represents N Np K (e_x el) (e_y el)).
Local Notation X := (node_at (e_x el) (e_y el)).
Local Notation sp k f := (side_point (P k f) (P k (next f))).
Local Notation eint k := (element_integral (P k 0) (P k 1) (P k 2)).
Local Notation img k := (affine_image (P k 0) (P k 1) (P k 2)).

Lemma NpK : (0 < Np)%nat /\ (0 < Np * K)%nat.
Proof. destruct HG as [HB HM HA HS Hrun Hbc]. assert (0 < Np)%nat by (eapply Np0; eassumption). split; nia. Qed.
Lemma grid_labels : labelling (Np * K) (m_gather m) (m_scatter m) /\
  forall v, (v < Np * K)%nat -> exists q, BlitzSpec.represents (m_gather m) (m_scatter m) q v /\
    (v = q \/ within_tol Rltb 0 Rminus Rmult Rabs (node_coord Np (e_x el) (e_y el)) (Np * K) 2 (1 / 1000000000) q v).
Proof.
  pose proof NpK as (_ & HN). destruct HG as [HB HM HA HS Hrun Hbc]. destruct (exact_tolerance G) as (T1 & T2 & T3 & T4 & T5).
  assert (HT : tables_ok 3 (S N) Np K (mask_table N (e_masks el)) (e_x el) (e_y el) E2E E2F EToV Vert) by (eapply run_tables; eassumption).
  exact (C69_gather_scatter (exact G) _ _ _ _ _ _ _ _ _ _ _ _ _ _ _ _ _ _ _ T1 HSo T2 HN HT Hrun).
Qed.
Lemma node_coord_at k i j : (i < Np)%nat -> node_coord Np (e_x el) (e_y el) (Np * k + i) j = if (j =? 0)%nat then fst (X i k) else snd (X i k).
Proof. intro Hi. unfold node_coord, node_at. replace (Np * k + i)%nat with (i + k * Np)%nat by lia. rewrite Nat.mod_add, Nat.div_add, Nat.mod_small, Nat.div_small by lia. reflexivity. Qed.
Lemma coincide k i k2 i2 : (k < K)%nat -> (i < Np)%nat -> (k2 < K)%nat -> (i2 < Np)%nat -> X i k = X i2 k2 -> nth (Np * k + i) (m_scatter m) 0%nat = nth (Np * k2 + i2) (m_scatter m) 0%nat.
Proof.
  intros Hk Hi Hk2 Hi2 EX. pose proof grid_labels as (HL & _). pose proof NpK as (_ & HN). destruct HG as [HB HM HA HS Hrun Hbc]. destruct (exact_tolerance G) as (T1 & T2 & T3 & T4 & T5).
  assert (HT : tables_ok 3 (S N) Np K (mask_table N (e_masks el)) (e_x el) (e_y el) E2E E2F EToV Vert) by (eapply run_tables; eassumption).
  assert (H : nth_error (m_scatter m) (Np * k + i) = nth_error (m_scatter m) (Np * k2 + i2)).
  { apply (C69_coincident (exact G) _ _ _ _ _ _ _ _ _ _ _ _ _ _ _ _ _ _ _ T1 HSo T2 T3 T4 T5 HN HT Hrun); try nia; rewrite !node_coord_at by assumption; cbn [Nat.eqb]; now rewrite EX. }
  destruct HL as (HL & _). rewrite !(nth_error_nth' _ 0%nat) in H by nia. injection H as H. exact H.
Qed.

Lemma joined_lt k f k2 f2 : (f < 3)%nat -> (k < K)%nat -> (f2 < 3)%nat -> joined EToV k f k2 f2 -> (k2 < K)%nat.
Proof. intros Hf Hk Hf2 J. destruct HG as [HB HM HA HS Hrun Hbc]. assert (H : (k2 < K)%nat /\ P k2 f2 = P k (next f) /\ P k2 (next f2) = P k f /\ joined EToV k2 f2 k f) by (eapply ends; eassumption). apply H. Qed.
(* nodes of a shared side are found in the neighbour *)
Lemma twins k f k2 f2 : (k < K)%nat -> (f < 3)%nat -> (f2 < 3)%nat -> joined EToV k f k2 f2 -> exists H : nat -> nat, forall n, (n <= N)%nat -> (fnode el f n < Np)%nat /\ (H n < Np)%nat /\ X (H n) k2 = X (fnode el f n) k.
Proof.
  intros Hk Hf Hf2 J. pose proof (joined_lt k f k2 f2 Hf Hk Hf2 J) as Hk2. destruct HG as [HB HM HA HS Hrun Hbc].
  destruct (neigh _ _ _ _ _ _ _ _ _ _ _ _ HB _ _ HM HA HS _ _ _ _ _ _ Hrun Hbc k f Hk Hf) as (k3 & f3 & H & _ & _ & HX & Hn).
  assert (E : k3 = k2 /\ f3 = f2) by (eapply across_unique; [eassumption..|split; [exact Hk2|split; [exact Hf2|left; exact J]]]). destruct E as (-> & ->).
  exists H. intros n Hn'. destruct (Hn n ltac:(lia)) as (_ & _ & A & B). split; [|split; assumption]. eapply fn_lt; eassumption.
Qed.
Lemma side_params f : (f < 3)%nat -> NoDup (map (fun j => flip f (ec el f j)) (seq 0 (S N))).
Proof.
  intro Hf. destruct HG as [HB HM HA HS Hrun Hbc]. destruct (face_nodes _ _ _ _ _ _ _ _ _ _ _ _ HB) as (g & Lg & Hi & _ & Hn).
  assert (Hmono : forall a b, (a < b)%nat -> (b <= N)%nat -> nth a g 0 < nth b g 0).
  { intros a b Hab. induction b as [|b IH]; intro Hb; [lia|]. destruct (Nat.eq_dec a b) as [->|]; [apply Hi; lia|]. apply Rlt_trans with (nth b g 0); [apply IH; lia|apply Hi; lia]. }
  assert (Hs : forall a b, (a <= N)%nat -> (b <= N)%nat -> flip f (ec el f a) = flip f (ec el f b) -> nth a g 0 = nth b g 0).
  { intros a b Ha Hb. destruct (Hn f a Hf Ha) as (_ & E1). destruct (Hn f b Hf Hb) as (_ & E2). unfold flip, ec. destruct f as [|[|[|]]]; [| | |lia]; injection E1; injection E2; intros; lra. }
  apply map_NoDup_in; [|apply seq_NoDup]. intros a b Ha Hb E. apply in_seq in Ha. apply in_seq in Hb. specialize (Hs a b ltac:(lia) ltac:(lia) E).
  destruct (Nat.lt_trichotomy a b) as [Hl|[Hl|Hl]]; [|exact Hl|]; apply Hmono in Hl; try lia; lra.
Qed.
(* a function that has one value for each label is continuous across every shared side *)
Lemma continuous u U k f k2 f2 t : rep (spread (m_scatter m) u) U -> (k < K)%nat -> (f < 3)%nat -> (f2 < 3)%nat -> joined EToV k f k2 f2 -> val_at U k (sp k f t) = val_at U k2 (sp k f t).
Proof.
  intros HU Hk Hf Hf2 J. pose proof (joined_lt k f k2 f2 Hf Hk Hf2 J) as Hk2. destruct (twins k f k2 f2 Hk Hf Hf2 J) as (H & HT).
  destruct (pieces _ _ _ _ _ _ HU Hk) as (p & Dp & Ep & _). destruct (pieces _ _ _ _ _ _ HU Hk2) as (q & Dq & Eq & _).
  assert (Sd : spoly N (fun t => at_point p (sp k f t) + -1 * at_point q (sp k f t))) by (apply spoly_plus; [apply trace_poly; exact Dp|apply spoly_scal, trace_poly; exact Dq]).
  destruct Sd as (cs & Lcs & Hcs). pose proof (side_params f Hf) as ND.
  assert (Z : peval cs t = 0).
  { apply (too_many_roots (S N) cs _ Lcs ND); [now rewrite map_length, seq_length|]. intros x Hx. apply in_map_iff in Hx. destruct Hx as (j & <- & Hj). apply in_seq in Hj. rewrite <- Hcs.
    destruct (HT j ltac:(lia)) as (A1 & A2 & A3). destruct HG as [HB HM HA HS Hrun Hbc].
    assert (EX : X (fnode el f j) k = sp k f (flip f (ec el f j))) by (eapply node_side; try eassumption; lia). rewrite <- EX. rewrite <- A3 at 2.
    destruct (HU k Hk) as (_ & _ & _ & V1). destruct (HU k2 Hk2) as (_ & _ & _ & V2). specialize (V1 _ A1). specialize (V2 _ A2). unfold val_at in V1, V2. rewrite Ep in V1. rewrite Eq in V2. unfold at_point. rewrite V1, V2.
    unfold spread. rewrite (coincide k (fnode el f j) k2 (H j) Hk A1 Hk2 A2 (eq_sym A3)). ring. }
  rewrite <- Hcs in Z. unfold val_at. rewrite Ep, Eq. unfold at_point in Z. lra.
Qed.
(* only constants have no gradient *)
Lemma no_gradient u U : connected K EToV (repeat 0%Z (3 * K)) -> rep (spread (m_scatter m) u) U -> stiffness_form K Vert EToV U U 0 -> forall l l', (l < length (m_gather m))%nat -> (l' < length (m_gather m))%nat -> u l = u l'.
Proof.
  intros HC HU (vol & Hv & Hz). pose proof grid_labels as (HL & _). pose proof NpK as (HNp & _). pose proof joined_lt as JL. pose proof twins as TW. pose proof coincide as CO. destruct HG as [HB HM HA HS Hrun Hbc].
  assert (Hpos : forall k, (k < K)%nat -> 0 <= vol k) by (intros k Hk; eapply vol_pos; eauto).
  assert (Hv0 : forall k, (k < K)%nat -> vol k = 0) by (apply GmresMath.sumn_nonneg_0; [exact Hpos|lra]).
  destruct (finite_choice 0 K (fun k c => forall x y, val_at U k (img k x y) = c)) as (c & Hc).
  { intros k Hk. eapply flat; try eassumption. rewrite <- (Hv0 k Hk). apply (Hv k Hk). }
  assert (Hn : forall k i, (k < K)%nat -> (i < Np)%nat -> u (nth (Np * k + i) (m_scatter m) 0%nat) = c k).
  { intros k i Hk Hi. destruct (HU k Hk) as (_ & _ & _ & V). specialize (V i Hi). unfold spread in V. rewrite <- V. erewrite phys by eassumption. apply (Hc k Hk). }
  assert (Hlink : forall k k', linked K EToV (repeat 0%Z (3 * K)) k k' -> c k = c k').
  { apply linked_eq. intros k f k2 f2 Hk Hf Hf2 _ J. pose proof (JL k f k2 f2 Hf Hk Hf2 J) as Hk2. destruct (TW k f k2 f2 Hk Hf Hf2 J) as (H & HT). destruct (HT 0%nat ltac:(lia)) as (A1 & A2 & A3).
    rewrite <- (Hn k _ Hk A1), <- (Hn k2 _ Hk2 A2). f_equal. apply CO; auto. }
  assert (Hall : forall l, (l < length (m_gather m))%nat -> u l = c 0%nat).
  { intros l Hl. destruct HL as (L1 & _ & L3 & _). destruct (nth_error (m_gather m) l) as [r|] eqn:Er; [|apply nth_error_None in Er; lia]. destruct (L3 l r Er) as (Hr & Es). apply nth_error_nth with (d := 0%nat) in Es.
    assert (Hd : (r / Np < K)%nat) by (apply Nat.div_lt_upper_bound; lia). pose proof (Nat.mod_upper_bound r Np ltac:(lia)) as Hm. pose proof (Hn _ _ Hd Hm) as E. rewrite <- (Nat.div_mod r Np) in E by lia. rewrite Es in E. rewrite E. apply Hlink. apply HC; lia. }
  intros l l' Hl Hl'. rewrite (Hall l Hl), (Hall l' Hl'). reflexivity.
Qed.
End Grid.
