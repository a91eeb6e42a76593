(* InsGridProofs.v - the right-hand side and the time step of src/ins2d/main.cpp on a grid of quadrilaterals. *)
From Coq Require Import ZArith List Lia Bool Arith.
From Verif Require Import Base Loops Num BlitzModel JacobiModel JacobiSpec JacobiProofs JacobiQuadProofs JacobiExactProofs Nodes1DModel Nodes1DSpec Nodes1DExactProofs DenseSpec DenseModel
  MeshSpec MeshGeoProofs TriModel TriSpec TriGeoSpec TriOpProofs TriProofs TriFilterProofs QuadModel QuadSpec QuadSetup QuadBasisProofs QuadElemProofs QuadGeoProofs QuadProps Maps2DModel Maps2DSpec Maps2DProofs Maps2DProps TriMapsProofs TriMapsProps QuadMapsProofs QuadMapsProps
  RKModel Line1DModel Line1DProofs SwModel SwSpec SwProofs SwSchemeProofs SwStepModel QuadGradProofs InsModel InsSpec InsProofs.
From Coq Require Import Reals Lra.
Import ListNotations.
Local Open Scope R_scope.

(* the tag of face f of quadrilateral k *)
Definition qtag_of (bcType : list Z) (k f : nat) : Z := nth (4 * k + f) bcType 0%Z.

Section Grid.
Context (G : R -> R) (solve : mat R -> mat R -> mat R -> outcome (mat R)) (inverse : mat R -> mat R -> outcome (mat R))
  (junk : nat -> nat -> R) (eps : R) (eig : nat -> (nat -> nat -> R) -> list R * (nat -> nat -> R)) (tol : R)
  (N K : nat) (Vert : list R) (EToV : list nat) (el : element (T := R)).
Hypothesis HB : qbuilt G solve inverse junk eps eig tol N K Vert EToV el.
Variables E2E E2F : list nat.
Hypothesis HM : quad_mesh K Vert EToV E2E E2F.
Hypothesis HX : forall k, (k < K)%nat -> convex_ccw (fun c => qcorner Vert EToV k c).
Local Notation Fm := (qmask_table N (e_masks el)).
Local Notation Np := ((N + 1) * (N + 1))%nat.
Hypothesis HS : forall n n', (n <= N)%nat -> (n' <= N)%nat -> n <> n' -> 2 * tol <= Rabs (nth (ment Fm n 0) (e_r el) 0 - nth (ment Fm n' 0) (e_r el) 0).
Variables (sort : (nat -> nat -> bool) -> list nat -> list nat) (junk1 : nat -> R) (junkn : nat -> nat) (bcType : list Z) (m : maps).
Hypothesis Hrun : buildMaps (exact G) rhypot sort junk1 junkn tol 4 (S N) Np K Fm (e_x el) (e_y el) E2E E2F EToV Vert bcType [] = Ok m.
Hypothesis Hbc : (4 * K <= length bcType)%nat.
Local Notation d := (tables_of el m).
Local Notation fid := (face_id 4 (S N)).
Local Notation fn f n := (ment Fm n f).

Lemma qNp_pos : (0 < Np)%nat. Proof. nia. Qed.
Lemma qconform : dg_conform d 4 (S N) Np K = true.
Proof.
  destruct (qelement_ok _ _ _ _ _ _ _ _ _ _ _ _ HB) as [Hn masks edge_i SV SVi V Vi Vi' SL lift D x metric nrm].
  destruct D as (Vr & Vs & S1 & S2 & _). destruct nrm as (Sn1 & Sn2 & Sn3 & _). destruct x as (Sx & Sy & _). replace (S N * S N)%nat with Np in * by lia.
  unfold dg_conform. cbn [tables_of d_Dr d_Ds d_Lift d_Fscale d_nx d_ny d_rx d_ry d_sx d_sy]. rewrite metric. unfold metricTerms. cbn [g_rx g_ry g_sx g_sy].
  unfold shape in *. destruct S1 as (D1 & D2), S2 as (D3 & D4), Sx as (X1 & X2), Sy as (Y1 & Y2).
  rewrite !andb_true_iff, !conform_ok. unfold TriModel.mzip, Nodes1DModel.mmul. cbn [mrows mcols]. repeat split; try tauto; congruence.
Qed.
Lemma qtables : tables_ok 4 (S N) Np K Fm (e_x el) (e_y el) E2E E2F EToV Vert.
Proof. destruct HM as [LE LF HN HO HA]. exact (quad_tables _ _ _ _ _ _ _ _ _ _ _ _ HB _ _ LE LF HN). Qed.
Lemma qfn_lt f n : (f < 4)%nat -> (n <= N)%nat -> (fn f n < Np)%nat.
Proof. intros Hf Hn. destruct qtables as [_ (_ & _ & F3) _ _ _ _ _]. apply F3; lia. Qed.
Lemma qmaps_at n f k : (n <= N)%nat -> (f < 4)%nat -> (k < K)%nat ->
  vM d (fid n f k) = volume_id Np (fn f n) k /\
  exists k2 f2 p, (k2 < K)%nat /\ (f2 < 4)%nat /\ (p <= N)%nat /\ vP d (fid n f k) = volume_id Np (fn f2 p) k2 /\
    (ment (e_x el) (fn f2 p) k2, ment (e_y el) (fn f2 p) k2) = (ment (e_x el) (fn f n) k, ment (e_y el) (fn f n) k).
Proof.
  intros Hn Hf Hk. pose proof qtables as HT. destruct HM as [LE LF HN HO HA].
  destruct (C38_trace_maps (exact G) rhypot sort junk1 junkn tol 4 (S N) Np K Fm (e_x el) (e_y el) E2E E2F EToV Vert bcType [] m HT Hrun) as (_ & _ & _ & Ht).
  destruct (HN (4 * k + f)%nat ltac:(lia)) as (h & (L1 & L2) & Nb).
  destruct (quad_neighbour_corners _ _ _ _ _ _ _ _ _ _ _ _ HB _ _ LE LF HN HO HA f k _ _ Hf Hk L1 L2) as (B1 & B2 & _).
  pose proof (quad_match _ _ _ _ _ _ _ _ _ _ _ _ HB _ _ LE LF HN HO HA HS n f k _ _ Hn Hf Hk L1 L2) as (p & Hp & Ep & _ & Mp & _ & Hu).
  destruct (Ht n f k _ _ ltac:(lia) Hf Hk L1 L2) as (V1 & [(q & Q1 & Q2 & _ & V2 & _)|(No & _)]).
  2:{ rewrite No in Mp by lia. discriminate. }
  assert (q = p) by (apply Hu; [lia|exact Q2]). subst q.
  split; [exact (nth_error_nth _ _ _ V1)|]. exists (h / 4)%nat, (h mod 4)%nat, p. split; [exact B2|]. split; [exact B1|]. split; [exact Hp|]. split; [exact (nth_error_nth _ _ _ V2)|]. exact Ep.
Qed.
Lemma qfid_split i : (i < 4 * S N * K)%nat -> exists n f k, (n <= N)%nat /\ (f < 4)%nat /\ (k < K)%nat /\ i = fid n f k.
Proof.
  intro Hi. pose proof (Nat.div_mod i (S N) ltac:(lia)) as D1. pose proof (Nat.mod_upper_bound i (S N) ltac:(lia)) as D2.
  pose proof (Nat.div_mod (i / S N) 4 ltac:(lia)) as D3. pose proof (Nat.mod_upper_bound (i / S N) 4 ltac:(lia)) as D4.
  exists (i mod S N)%nat, ((i / S N) mod 4)%nat, (i / S N / 4)%nat. split; [lia|]. split; [exact D4|]. split; [|unfold face_id; nia].
  apply Nat.div_lt_upper_bound; [lia|]. apply Nat.div_lt_upper_bound; [lia|]. lia.
Qed.
Lemma qfid_lt n f k : (n <= N)%nat -> (f < 4)%nat -> (k < K)%nat -> (fid n f k < 4 * S N * K)%nat.
Proof. unfold face_id. intros. nia. Qed.
Lemma qfid_pos n f k : (n <= N)%nat -> (f < 4)%nat -> fid n f k = (f * S N + n + k * (4 * S N))%nat /\ (fid n f k mod (4 * S N) = f * S N + n)%nat /\ (fid n f k / (4 * S N) = k)%nat.
Proof.
  intros Hn Hf. assert (E : fid n f k = (f * S N + n + k * (4 * S N))%nat) by (unfold face_id; lia). split; [exact E|]. rewrite E.
  assert ((f * S N + n < 4 * S N)%nat) by nia. rewrite Nat.mod_add, Nat.div_add, Nat.mod_small, Nat.div_small by lia. split; lia.
Qed.
Lemma qmaps_bounds : maps_ok d Np K (4 * S N * K).
Proof.
  destruct (C38_trace_maps (exact G) rhypot sort junk1 junkn tol 4 (S N) Np K Fm (e_x el) (e_y el) E2E E2F EToV Vert bcType [] m qtables Hrun) as (L1 & L2 & _).
  assert (Hb : forall i, (i < 4 * S N * K)%nat -> (vM d i < Np * K)%nat /\ (vP d i < Np * K)%nat).
  { intros i Hi. destruct (qfid_split i Hi) as (n & f & k & Hn & Hf & Hk & ->). destruct (qmaps_at n f k Hn Hf Hk) as (-> & k2 & f2 & q & Hk2 & Hf2 & Hq & -> & _).
    pose proof (qfn_lt f n Hf Hn). pose proof (qfn_lt f2 q Hf2 Hq). unfold volume_id. nia. }
  unfold maps_ok. cbn [tables_of d_vmapM d_vmapP]. split; [lia|]. split; [lia|].
  split; intros v Hv; apply (In_nth _ _ 0%nat) in Hv as (i & Hi & <-); apply (Hb i); lia.
Qed.
Lemma qvolume_cell (q : field) i k : (i < Np)%nat -> cell_at Np q (volume_id Np i k) = at_node q i k.
Proof. intro Hi. unfold cell_at, volume_id. rewrite (Nat.mul_comm Np k), Nat.mod_add, Nat.div_add, Nat.mod_small, Nat.div_small by lia. reflexivity. Qed.

Lemma qhash t : t <> 0%Z ->
  ((exists k f, (k < K)%nat /\ (f < 4)%nat /\ qtag_of bcType k f = t) -> exists l, hfind (m_bc m) t = Some l) /\
  ((forall k f, (k < K)%nat -> (f < 4)%nat -> qtag_of bcType k f <> t) -> hfind (m_bc m) t = None).
Proof.
  intro Ht. destruct (parts _ _ _ _ _ _ _ _ _ _ _ _ _ _ _ _ _ _ _ _ qtables Hrun) as (_ & _ & Eh & _).
  destruct (C39_one_call junkn 4 (S N) K bcType [] Hbc) as (m' & Eh' & Hl & _). rewrite Eh in Eh'. injection Eh' as <-.
  destruct (Hl t Ht) as (l & _ & Hin & Hf). cbn [hfind] in Hf.
  assert (Hin' : forall n f k, (n <= N)%nat -> (f < 4)%nat -> (k < K)%nat -> In (fid n f k) l <-> qtag_of bcType k f = t).
  { intros n f k Hn Hf' Hk. rewrite Hin. pose proof (qfid_lt n f k Hn Hf' Hk) as HL.
    assert (E : (fid n f k / S N = 4 * k + f)%nat). { unfold face_id. symmetry. apply Nat.div_unique with n; lia. }
    rewrite E. unfold entry, qtag_of. split.
    - intros (_ & He). apply nth_error_nth with (d := 0%Z) in He. exact He.
    - intros <-. split; [lia|]. apply nth_error_nth'. lia. }
  split.
  - intros (k & f & Hk & Hf' & Htag). pose proof (proj2 (Hin' 0%nat f k ltac:(lia) Hf' Hk) Htag) as Hi. exists l. rewrite Hf. destruct l; [destruct Hi|reflexivity].
  - intro Hno. rewrite Hf. destruct l as [|w l]; [reflexivity|]. exfalso. destruct (proj1 (Hin w) (or_introl eq_refl)) as (Hw & _).
    destruct (qfid_split w ltac:(lia)) as (n & f & k & Hn & Hf' & Hk & ->). apply (Hno k f Hk Hf'). apply (Hin' n f k Hn Hf' Hk). left. reflexivity.
Qed.

Variables (jk : nat -> nat -> R) (jv : nat -> R) (lowest : R).
Local Notation rhs vort g q := (ins_rhs (exact G) jk jv lowest vort d 4 (S N) Np K g q).
Local Notation tagged := (exists k f, (k < K)%nat /\ (f < 4)%nat /\ qtag_of bcType k f = 3%Z).
Local Notation own q := (fun i => cell_at Np q (vM d i)).
Local Notation other q := (fun i => cell_at Np q (vP d i)).
Definition lam_of (q : field) : nat -> R := face_max G lowest (S N) (fun i => Rmax (flow_speed (own q i)) (flow_speed (other q i))).
Lemma ins_grid_ok vort g q : tagged -> state_conform q Np K = true ->
  exists z, rhs vort g q = Ok z /\ state_conform z Np K = true /\
  forall c i k, (c < 3)%nat -> (i < Np)%nat -> (k < K)%nat ->
    ment (fieldc c z) i k = ins_volume vort d Np g q c i k + ins_surface d (4 * S N) (own q) (other q) (lam_of q) c i k.
Proof.
  intros Ht HQ. destruct (qhash 3 ltac:(discriminate)) as (Hs & _). destruct (Hs Ht) as (l & El).
  exact (ins_ok G jk jv lowest vort d 4 (S N) Np K g q l qconform HQ qNp_pos ltac:(lia) ltac:(lia) qmaps_bounds El).
Qed.
Lemma ins_untagged vort g q : (forall k f, (k < K)%nat -> (f < 4)%nat -> qtag_of bcType k f <> 3%Z) -> state_conform q Np K = true -> rhs vort g q = Throw.
Proof.
  intros Hno HQ. destruct (qhash 3 ltac:(discriminate)) as (_ & Hn). specialize (Hn Hno). destruct q as [[rho u] v]. unfold ins_rhs. rewrite qconform, HQ. cbn [require andb]. change (d_bc d) with (m_bc m). rewrite Hn. reflexivity.
Qed.

(* surfaces without jumps *)
Lemma still_parts c : velocity c = (0, 0) -> part 1 c = 0 /\ part 2 c = 0.
Proof. intro H. split; [exact (f_equal fst H)|exact (f_equal snd H)]. Qed.
Lemma surface_zero (q : field) lam c i k : (k < K)%nat -> (forall j, (j < 4 * S N * K)%nat -> ins_jump d (4 * S N) (own q) (other q) lam c j = 0) ->
  ins_surface d (4 * S N) (own q) (other q) lam c i k = 0.
Proof.
  intros Hk H. unfold ins_surface. rewrite (sumn_ext _ _ (fun _ => 0)); [|intros j Hj; rewrite H by nia; ring]. clear. induction (4 * S N)%nat as [|n IH]; [reflexivity|]. rewrite sumn_S, IH. ring.
Qed.
Lemma continuous_jump q c lam j : continuous_field Np K (e_x el) (e_y el) q -> (j < 4 * S N * K)%nat -> ins_jump d (4 * S N) (own q) (other q) lam c j = 0.
Proof.
  intros Hq Hj. destruct (qfid_split j Hj) as (n & f & k & Hn & Hf & Hk & ->). destruct (qmaps_at n f k Hn Hf Hk) as (E1 & k2 & f2 & p & Hk2 & Hf2 & Hp & E2 & Ep).
  unfold ins_jump, ins_rusanov. rewrite E1, E2, !qvolume_cell by (apply qfn_lt; assumption).
  rewrite (Hq (fn f2 p) k2 (fn f n) k) by (auto; apply qfn_lt; assumption). field.
Qed.
Lemma maxto_zero n f : lowest <= 0 -> (0 < n)%nat -> (forall i, (i < n)%nat -> f i = 0) -> maxto G lowest n f = 0.
Proof.
  intros Hl Hn Hf. destruct (maxto_attained G lowest n f Hn) as (i & Hi & ->); [|apply Hf, Hi]. intros i Hi. rewrite Hf by exact Hi. exact Hl.
Qed.
Lemma still_jump q c j : lowest <= 0 -> (forall i k, (i < Np)%nat -> (k < K)%nat -> velocity (at_node q i k) = (0, 0)) -> (j < 4 * S N * K)%nat -> ins_jump d (4 * S N) (own q) (other q) (lam_of q) c j = 0.
Proof.
  intros Hl Hq Hj.
  assert (HO : forall j, (j < 4 * S N * K)%nat -> velocity (own q j) = (0, 0) /\ velocity (other q j) = (0, 0)).
  { clear j Hj. intros j Hj. destruct (qfid_split j Hj) as (n & f & k & Hn & Hf & Hk & ->). destruct (qmaps_at n f k Hn Hf Hk) as (E1 & k2 & f2 & p & Hk2 & Hf2 & Hp & E2 & Ep).
    rewrite E1, E2, !qvolume_cell by (apply qfn_lt; assumption). split; apply Hq; auto; apply qfn_lt; assumption. }
  assert (HL : lam_of q j = 0).
  { unfold lam_of, face_max. apply maxto_zero; [exact Hl|lia|]. intros i Hi.
    assert (Hb : (i + j / S N * S N < 4 * S N * K)%nat). { pose proof (Nat.div_lt_upper_bound j (S N) (4 * K) ltac:(lia) ltac:(lia)). nia. }
    destruct (HO _ Hb) as (A1 & A2). destruct (still_parts _ A1) as (B1 & B1'), (still_parts _ A2) as (B2 & B2'). unfold flow_speed. rewrite B1, B1', B2, B2'. replace (0 * 0 + 0 * 0) with 0 by ring. rewrite sqrt_0. apply Rmax_left. lra. }
  destruct (HO j Hj) as (A1 & A2). destruct (still_parts _ A1) as (B1 & B1'), (still_parts _ A2) as (B2 & B2').
  unfold ins_jump, ins_rusanov, ins_through. rewrite HL, B1, B1', B2, B2'. field.
Qed.
Lemma deriv_grad k W f i : (k < K)%nat -> (i < Np)%nat -> degree2 N W -> (forall j, (j < Np)%nat -> f j = eval2 W (ment (e_x el) j k) (ment (e_y el) j k)) ->
  deriv_entry d Np (d_rx d) (d_sx d) f i k = eval2 (ddr W) (ment (e_x el) i k) (ment (e_y el) i k) /\
  deriv_entry d Np (d_ry d) (d_sy d) f i k = eval2 (dds W) (ment (e_x el) i k) (ment (e_y el) i k).
Proof. intros Hk Hi DW Hf. exact (quad_gradient _ _ _ _ _ _ _ _ _ _ _ _ HB k f W Hk (HX k Hk) DW Hf i Hi). Qed.
Lemma deriv_const k (f : nat -> R) c i : (k < K)%nat -> (i < Np)%nat -> (forall j, (j < Np)%nat -> f j = c) ->
  deriv_entry d Np (d_rx d) (d_sx d) f i k = 0 /\ deriv_entry d Np (d_ry d) (d_sy d) f i k = 0.
Proof.
  intros Hk Hi Hf. destruct (deriv_grad k [(0%nat, 0%nat, c)] f i Hk Hi) as (-> & ->).
  - apply Forall_cons; [cbn; lia|apply Forall_nil].
  - intros j Hj. rewrite Hf by exact Hj. cbn. ring.
  - cbn. split; ring.
Qed.
End Grid.
