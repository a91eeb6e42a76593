(* InsRunProofs.v - time steps and runs of src/ins2d/main.cpp. *)
From Coq Require Import ZArith List Lia Bool Arith.
From Verif Require Import Base Loops Num BlitzModel JacobiModel JacobiSpec JacobiProofs JacobiQuadProofs JacobiExactProofs Nodes1DModel Nodes1DSpec Nodes1DExactProofs DenseSpec DenseModel
  MeshSpec MeshGeoProofs TriModel TriSpec TriGeoSpec TriOpProofs TriProofs TriFilterProofs QuadModel QuadSpec QuadSetup QuadBasisProofs QuadElemProofs QuadGeoProofs QuadProps Maps2DModel Maps2DSpec Maps2DProofs Maps2DProps TriMapsProofs TriMapsProps QuadMapsProofs QuadMapsProps
  RKModel Line1DModel Line1DProofs SwModel SwSpec SwProofs SwSchemeProofs SwStepModel SwStepSpec SwStepProofs SwStepProps QuadGradProofs InsModel InsSpec InsProofs InsGridProofs.
From Coq Require Import Reals Lra.
Import ListNotations.
Local Open Scope R_scope.

Lemma fold_max G l : forall a M, a <= M -> (forall x, In x l -> x <= M) -> (a = M \/ In M l) -> fold_left (fmax (exact G)) l a = M.
Proof.
  induction l as [|x l IH]; intros a M Ha Hl HM; cbn [fold_left]; [destruct HM as [H|[]]; exact H|]. apply IH.
  - rewrite fmax_exact. apply Rmax_lub; [exact Ha|apply Hl; left; reflexivity].
  - intros y Hy. apply Hl. right. exact Hy.
  - rewrite fmax_exact. destruct HM as [-> |[->|HM]]; [|left; apply Rmax_right; exact Ha|right; exact HM].
    left. apply Rmax_left. apply Hl. left. reflexivity.
Qed.

Section Dt.
Variables (G : R -> R) (lowest : R).
Local Notation E := (exact G).
Lemma rate_exact N c0 f : ins_rate E N c0 f = INR ((N + 1) * (N + 1)) / 2 * (f + c0).
Proof. unfold ins_rate. rewrite fofn_INR, fhalf_exact. cbn [exact fmul fadd]. field. Qed.
Lemma ins_dt_ok N CFL c0 l r : lowest <= 0 -> 0 < r -> is_least (fun v => exists f, In f l /\ v = INR ((N + 1) * (N + 1)) / 2 * (f + c0)) r ->
  ins_dt E lowest N CFL c0 l = CFL * r.
Proof.
  intros Hl Hr ((f & Hf & Ef) & Hmin). unfold ins_dt, vec_max. rewrite (fold_max G _ lowest (1 / r)).
  - cbn [exact fdiv]. field. lra.
  - assert (0 < 1 / r) by (apply Rdiv_lt_0_compat; lra). lra.
  - intros x Hx. apply in_map_iff in Hx as (y & <- & Hy). rewrite rate_exact, fofn_INR. cbn [exact fdiv INR]. pose proof (Hmin _ (ex_intro _ y (conj Hy eq_refl))) as H.
    unfold Rdiv. rewrite !Rmult_1_l. apply Rinv_le_contravar; [exact Hr|exact H].
  - right. apply in_map_iff. exists f. split; [|exact Hf]. rewrite rate_exact, fofn_INR, <- Ef. reflexivity.
Qed.
Lemma ins_first_ok N CFL c0 bf l : lowest <= 0 -> 0 < CFL -> 0 < c0 -> l <> [] -> (forall f, In f l -> f = 0) ->
  ins_first_dt E lowest N CFL c0 bf l = Rmin (INR ((N + 1) * (N + 1)) / 2 * c0 / CFL) (CFL / bf).
Proof.
  intros Hl HC Hc Hn H0. assert (HN : 0 < INR ((N + 1) * (N + 1))) by (apply lt_0_INR; nia). set (B := INR ((N + 1) * (N + 1))) in *.
  assert (Hv : forall f, In f l -> CFL / ins_rate E N c0 f = CFL / (B / 2 * c0)) by (intros f Hf; rewrite (H0 f Hf), rate_exact; fold B; do 2 f_equal; lra).
  assert (0 < B / 2 * c0) by (apply Rmult_lt_0_compat; lra).
  unfold ins_first_dt, vec_max. rewrite (fold_max G _ lowest (CFL / (B / 2 * c0))).
  - rewrite fofn_INR. cbn [exact fdiv INR flt]. replace (1 / (CFL / (B / 2 * c0))) with (B / 2 * c0 / CFL) by (field; lra). unfold Rltb, Rmin. destruct (Rlt_dec _ _), (Rle_dec _ _); lra.
  - assert (0 < CFL / (B / 2 * c0)) by (apply Rdiv_lt_0_compat; lra). lra.
  - intros x Hx. apply in_map_iff in Hx as (y & <- & Hy). cbn [exact fdiv]. rewrite Hv by exact Hy. lra.
  - right. destruct l as [|f l]; [congruence|]. left. cbn [exact fdiv]. apply Hv. left. reflexivity.
Qed.
End Dt.

Section Filt.
Variable G : R -> R.
Lemma filter_const n K (F X : mat R) c : shape F n n -> shape X n K -> (forall i, (i < n)%nat -> sumn n (fun k => ment F i k) = 1) ->
  (forall i j, (i < n)%nat -> (j < K)%nat -> ment X i j = c) -> shape (filter_in_place (exact G) F X) n K /\
  forall i j, (i < n)%nat -> (j < K)%nat -> ment (filter_in_place (exact G) F X) i j = c.
Proof.
  intros HF SX H1 HX. destruct (C78_filter_in_place G n K F X HF SX) as (SY & HY). split; [exact SY|].
  intro i. induction i as [i IH] using lt_wf_ind. intros j Hi Hj. rewrite HY by assumption.
  rewrite (sumn_ext _ _ (fun k => c * ment F i k)).
  - rewrite sumn_scal, H1 by exact Hi. ring.
  - intros k Hk. destruct (Nat.ltb_spec k i); [rewrite IH by lia|rewrite HX by lia]; ring.
Qed.
End Filt.

Section Run.
Context (G : R -> R) (solve : mat R -> mat R -> mat R -> outcome (mat R)) (inverse : mat R -> mat R -> outcome (mat R))
  (junk : nat -> nat -> R) (eps : R) (eig : nat -> (nat -> nat -> R) -> list R * (nat -> nat -> R)) (tol : R)
  (N K : nat) (Vert : list R) (EToV : list nat) (el : element (T := R)).
Hypothesis HB : qbuilt G solve inverse junk eps eig tol N K Vert EToV el.
Variables E2E E2F : list nat.
Hypothesis HM : quad_mesh K Vert EToV E2E E2F.
Hypothesis HX : forall k, (k < K)%nat -> convex_ccw (fun c => qcorner Vert EToV k c).
Local Notation Fm := (qmask_table N (e_masks el)).
Local Notation Np := ((N + 1) * (N + 1))%nat.
Hypothesis HS : forall n n', (n <= N)%nat -> (n' <= N)%nat -> n <> n' -> 2 * tol <= Rabs (nth (ment Fm n 0) (e_r el) 0 - nth (ment Fm n' 0) (e_r el) 0).
Variables (sort : (nat -> nat -> bool) -> list nat -> list nat) (junk1 : nat -> R) (junkn : nat -> nat) (bcType : list Z) (m : maps).
Hypothesis Hrun : buildMaps (exact G) rhypot sort junk1 junkn tol 4 (S N) Np K Fm (e_x el) (e_y el) E2E E2F EToV Vert bcType [] = Ok m.
Hypothesis Hbc : (4 * K <= length bcType)%nat.
Variables (jk : nat -> nat -> R) (jv : nat -> R) (lowest : R).
Local Notation d := (tables_of el m).
Local Notation rhs vort g q := (ins_rhs (exact G) jk jv lowest vort d 4 (S N) Np K g q).
Local Notation tagged := (exists k f, (k < K)%nat /\ (f < 4)%nat /\ qtag_of bcType k f = 3%Z).
Local Notation uni := (uniform Np K).
Local Notation ok q := (state_conform q Np K = true).

Lemma uniform_rhs vort g q c w : tagged -> ok q -> uni q c -> (forall i k, (i < Np)%nat -> (k < K)%nat -> vort i k = w) ->
  exists z, rhs vort g q = Ok z /\ ok z /\ uni z (0, - part 2 c * w, part 1 c * w - g * part 0 c).
Proof.
  intros Ht HQ Hu Hw. destruct (ins_grid_ok _ _ _ _ _ _ _ _ _ _ _ _ HB E2E E2F HM HS _ _ _ _ _ Hrun Hbc jk jv lowest vort g q Ht HQ) as (z & Ez & Cz & Hz).
  exists z. split; [exact Ez|]. split; [exact Cz|]. intros i k Hi Hk.
  assert (Hc : continuous_field Np K (e_x el) (e_y el) q) by (intros a b a2 b2 Ha Hb Ha2 Hb2 _; rewrite !Hu by assumption; reflexivity).
  assert (Hz' : forall cc, (cc < 3)%nat -> ment (fieldc cc z) i k = ins_volume vort d Np g q cc i k).
  { intros cc Hcc. rewrite (Hz cc i k Hcc Hi Hk). rewrite (surface_zero N K el bcType m Hbc q _ cc i k Hk); [ring|]. intros j Hj. eapply continuous_jump; eassumption. }
  assert (Hq : forall cc j, (j < Np)%nat -> (cc < 3)%nat -> ment (fieldc cc q) j k = part cc c).
  { intros cc j Hj Hcc. rewrite <- (Hu j k Hj Hk). unfold at_node. destruct cc as [|[|[|]]]; [reflexivity|reflexivity|reflexivity|lia]. }
  unfold at_node. rewrite !Hz' by lia. unfold ins_volume. unfold at_node. rewrite !Hq by lia. rewrite Hw by assumption.
  destruct (deriv_const _ _ _ _ _ _ _ _ _ _ _ _ HB HX bcType m Hbc k (fun j => ment (fieldc 0 q) j k) (part 0 c) i Hk Hi ltac:(intros; apply Hq; lia)) as (-> & ->).
  destruct (deriv_const _ _ _ _ _ _ _ _ _ _ _ _ HB HX bcType m Hbc k (energy_at q k) ((part 1 c * part 1 c + part 2 c * part 2 c) / 2) i Hk Hi) as (-> & ->).
  { intros j Hj. unfold energy_at. rewrite !Hq by lia. reflexivity. }
  f_equal; [f_equal|]; ring.
Qed.
Lemma uniform_filter F z c : shape F Np Np -> (forall i, (i < Np)%nat -> sumn Np (fun k => ment F i k) = 1) -> ok z -> uni z c -> ok (filter_state (exact G) F z) /\ uni (filter_state (exact G) F z) c.
Proof.
  intros SF H1 HC Hz. destruct z as [[a b] e]. unfold state_conform in HC. rewrite !andb_true_iff, !conform_ok in HC. destruct HC as ((C1 & C2) & C3).
  assert (Hp : forall i k, (i < Np)%nat -> (k < K)%nat -> ment a i k = part 0 c /\ ment b i k = part 1 c /\ ment e i k = part 2 c) by (intros i k Hi Hk; rewrite <- (Hz i k Hi Hk); repeat split; reflexivity).
  destruct (filter_const G Np K F a (part 0 c) SF C1 H1) as ((A1 & A2) & A3); [intros; apply Hp; assumption|].
  destruct (filter_const G Np K F b (part 1 c) SF C2 H1) as ((B1 & B2) & B3); [intros; apply Hp; assumption|].
  destruct (filter_const G Np K F e (part 2 c) SF C3 H1) as ((D1 & D2) & D3); [intros; apply Hp; assumption|].
  unfold filter_state. split; [unfold state_conform; rewrite !andb_true_iff, !conform_ok; tauto|].
  intros i k Hi Hk. unfold at_node. cbn [fieldc fst snd]. rewrite A3, B3, D3 by assumption. destruct c as [[c0 c1] c2]. reflexivity.
Qed.
Lemma uniform_advance dt q z c e : ok q -> uni q c -> uni z e ->
  ok (advance_state (exact G) dt q z) /\ uni (advance_state (exact G) dt q z) (part 0 c + dt * part 0 e, part 1 c + dt * part 1 e, part 2 c + dt * part 2 e).
Proof.
  intros HC Hq Hz. destruct q as [[a b] f], z as [[a' b'] f']. split; [exact HC|]. intros i k Hi Hk. rewrite <- (Hq i k Hi Hk), <- (Hz i k Hi Hk). reflexivity.
Qed.
Lemma still_step vort vort' g F dt q rho0 V : tagged -> shape F Np Np -> (forall i, (i < Np)%nat -> sumn Np (fun k => ment F i k) = 1) ->
  (forall i k, (i < Np)%nat -> (k < K)%nat -> vort i k = 0 /\ vort' i k = 0) -> ok q -> uni q (rho0, 0, V) ->
  exists q', ins_step (exact G) F (fun q => rhs vort g q) (fun q => rhs vort' g q) dt q = Ok q' /\ ok q' /\ uni q' (rho0, 0, V - dt * (g * rho0)).
Proof.
  intros Ht SF H1 Hw HQ Hu. unfold ins_step.
  destruct (uniform_rhs vort g q _ 0 Ht HQ Hu ltac:(intros; apply Hw; assumption)) as (z & -> & Cz & Uz). cbn [bind].
  destruct (uniform_filter F z _ SF H1 Cz Uz) as (Cf & Uf). cbn [part fst snd] in Uf.
  destruct (uniform_advance (fmul (exact G) (fhalf (exact G)) dt) q _ _ _ HQ Hu Uf) as (C1 & U1). cbn [part fst snd] in U1.
  destruct (uniform_rhs vort' g _ _ 0 Ht C1 U1 ltac:(intros; apply Hw; assumption)) as (z1 & -> & Cz1 & Uz1). cbn [bind].
  destruct (uniform_filter F z1 _ SF H1 Cz1 Uz1) as (Cf1 & Uf1). destruct (uniform_advance dt q _ _ _ HQ Hu Uf1) as (C2 & U2).
  eexists. split; [reflexivity|]. split; [exact C2|]. intros i k Hi Hk. rewrite (U2 i k Hi Hk). cbn [part fst snd]. f_equal; [f_equal|]; ring.
Qed.

Local Notation fid := (face_id 4 (S N)).
Local Notation fn f n := (ment Fm n f).
Local Notation nf := (4 * S N * K)%nat.
Definition frate (q : field) (i : nat) : R := Rabs (ment (e_Fscale el) (i mod (4 * S N)) (i / (4 * S N))) * flow_speed (cell_at Np q (vM d i)).
Lemma frate_at q n f k : (n <= N)%nat -> (f < 4)%nat -> (k < K)%nat -> frate q (fid n f k) = Rabs (ment (e_Fscale el) (f * S N + n) k) * flow_speed (at_node q (fn f n) k).
Proof.
  intros Hn Hf Hk. unfold frate. destruct (qfid_pos N K bcType Hbc n f k Hn Hf) as (_ & -> & ->).
  destruct (qmaps_at _ _ _ _ _ _ _ _ _ _ _ _ HB E2E E2F HM HS _ _ _ _ _ Hrun Hbc n f k Hn Hf Hk) as (-> & _).
  rewrite (qvolume_cell N K bcType Hbc); [reflexivity|]. eapply qfn_lt; eassumption.
Qed.
Lemma fsc_ok q : ok q -> ins_fsc (exact G) jv d 4 (S N) Np K (fieldc 1 q) (fieldc 2 q) = Ok (tab nf (frate q)).
Proof.
  intro HQ. pose proof (qconform _ _ _ _ _ _ _ _ _ _ _ _ HB bcType m Hbc) as Hd. unfold dg_conform in Hd. rewrite !andb_true_iff in Hd.
  assert (HF : conform (e_Fscale el) (4 * S N) K = true) by (cbn [tables_of d_Fscale] in Hd; tauto). apply conform_ok in HF as (F1 & F2).
  destruct (qmaps_bounds _ _ _ _ _ _ _ _ _ _ _ _ HB _ _ HM HS _ _ _ _ _ Hrun Hbc) as (L1 & _ & B1 & _).
  destruct q as [[a b] c]. unfold state_conform in HQ. rewrite !andb_true_iff, !conform_ok in HQ. destruct HQ as ((_ & (C1 & C2)) & _). cbn [fieldc fst snd].
  unfold ins_fsc. cbv zeta. rewrite (full_tab (mzip (ins_speed (exact G)) b c) _ Np K C1 C2) by (try apply vfresh_len; lia). cbn [bind].
  change (d_Fscale d) with (e_Fscale el). rewrite (full_tab (e_Fscale el) _ (4 * S N) K F1 F2) by (try apply vfresh_len; lia). cbn [bind].
  rewrite (list_map_nth (d_vmapM d) nf L1) at 1. rewrite (index_tab (Np * K) nf) by (try apply vfresh_len; intros i Hi; apply B1, nth_In; lia). cbn [bind].
  rewrite tab_map, tab_zipw. reflexivity.
Qed.
Lemma in_frate q v : In v (tab nf (frate q)) <-> exists n f k, (n <= N)%nat /\ (f < 4)%nat /\ (k < K)%nat /\ v = Rabs (ment (e_Fscale el) (f * S N + n) k) * flow_speed (at_node q (fn f n) k).
Proof.
  unfold tab. rewrite in_map_iff. split.
  - intros (i & <- & Hi). apply in_seq in Hi. destruct (qfid_split N K bcType Hbc i ltac:(lia)) as (n & f & k & Hn & Hf & Hk & ->). exists n, f, k. repeat split; try assumption. apply frate_at; assumption.
  - intros (n & f & k & Hn & Hf & Hk & ->). exists (fid n f k). split; [apply frate_at; assumption|]. apply in_seq. pose proof (qfid_lt N K bcType Hbc n f k Hn Hf Hk). lia.
Qed.
Lemma filter_rows epsf Nc sp F : 0 < epsf <= 1 -> INR N <> Nc -> 0 < Nc -> quadFilter (exact G) pow exp ln epsf N (e_V el) (e_Vinv el) Nc sp = Ok F ->
  shape F Np Np /\ forall i, (i < Np)%nat -> sumn Np (fun j => ment F i j) = 1.
Proof.
  intros He Hne HNc EF. destruct (C44_filter_refuted _ _ _ _ _ _ _ _ _ _ _ _ HB epsf Nc sp He Hne) as (F' & EF' & SF & HF & _). rewrite EF in EF'. injection EF' as <-. split; [exact SF|].
  destruct (C73_vandermonde _ _ _ _ _ _ _ _ _ _ _ _ HB) as (basis & _ & _ & _ & Hb & HV & _ & HI).
  assert (H0 : forall i, (i < Np)%nat -> ment (e_V el) i 0 = ment (e_V el) 0 0).
  { intros i Hi. rewrite !HV by lia. pose proof (Hb 0%nat 0%nat (nth i (e_r el) 0) (nth i (e_s el) 0) ltac:(lia) ltac:(lia)) as E1. pose proof (Hb 0%nat 0%nat (nth 0 (e_r el) 0) (nth 0 (e_s el) 0) ltac:(lia) ltac:(lia)) as E2.
    cbn [Nat.mul Nat.add] in E1, E2. assert (E3 : [eval2 (basis 0%nat) (nth i (e_r el) 0) (nth i (e_s el) 0)] = [eval2 (basis 0%nat) (nth 0 (e_r el) 0) (nth 0 (e_s el) 0)]) by (rewrite E1, E2; reflexivity).
    injection E3 as E3. exact E3. }
  assert (Hv : ment (e_V el) 0 0 <> 0).
  { intro Z. destruct (HI 0%nat 0%nat ltac:(lia) ltac:(lia)) as (_ & H1). cbn [Nat.eqb] in H1. rewrite sumn_zero in H1; [lra|]. intros k Hk. rewrite (H0 k Hk), Z. ring. }
  intros i Hi. assert (Em : nth_error (modes N) 0 = Some (0%nat, 0%nat)) by (unfold modes; cbn [seq flat_map]; replace (N - 0)%nat with N by lia; reflexivity).
  pose proof (HF 0%nat 0%nat 0%nat i Em Hi) as E. unfold damping in E. cbn [Nat.add INR] in E. destruct (Rlt_dec 0 Nc) as [_|C]; [|exfalso; exact (C HNc)].
  rewrite (sumn_ext _ _ (fun j => ment (e_V el) 0 0 * ment F i j)) in E by (intros j Hj; rewrite (H0 j Hj); ring). rewrite (sumn_scal Np (ment (e_V el) 0 0) (ment F i)) in E. rewrite (H0 i Hi) in E. apply (Rmult_eq_reg_l (ment (e_V el) 0 0)); [|exact Hv]. etransitivity; [exact E|ring].
Qed.
End Run.
