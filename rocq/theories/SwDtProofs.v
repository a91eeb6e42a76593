(* SwDtProofs.v - the time step of the shallow water drivers; lemmas for SwStepProps.v. *)
From Coq Require Import ZArith List Lia Bool Arith.
From Verif Require Import Base Loops Num JacobiSpec DenseSpec BlitzModel Maps2DModel Maps2DSpec TriModel TriSpec TriGeoSpec TriSetup TriProps TriMapsProps TriDGSpec TriDGProofs TriMapsProofs
  RKModel Line1DModel Line1DProofs SwModel SwSpec SwProofs SwSchemeProofs SwRunProofs SwStepModel SwStepSpec JacobiExactProofs JacobiProofs.
From Coq Require Import Reals Lra.
Import ListNotations.
Local Open Scope R_scope.

Section Dt.
Variables (G : R -> R) (solve : mat R -> mat R -> mat R -> outcome (mat R)) (inverse : mat R -> mat R -> outcome (mat R))
  (junk : nat -> nat -> R) (eps : R) (eig : nat -> (nat -> nat -> R) -> list R * (nat -> nat -> R)) (tol : R)
  (N K : nat) (Vert : list R) (EToV : list nat) (el : element (T := R)).
Hypothesis HB : built G solve inverse junk eps eig tol N K Vert EToV el.
Variables (E2E E2F : list nat).
Hypothesis HM : tri_mesh K Vert EToV E2E E2F.
Local Notation P := (TriGeoSpec.corner Vert EToV).
Hypothesis HA : forall k, (k < K)%nat -> 0 < area (P k 0) (P k 1) (P k 2).
Local Notation Fm := (mask_table N (e_masks el)).
Local Notation Np := (length (e_r el)).
Local Notation fn := (fnode el).
Hypothesis HS : forall n n', (n <= N)%nat -> (n' <= N)%nat -> n <> n' -> 2 * tol <= Rabs (nth (ment Fm n 0) (e_r el) 0 - nth (ment Fm n' 0) (e_r el) 0).
Variables (sort : (nat -> nat -> bool) -> list nat -> list nat) (junk1 : nat -> R) (junkn : nat -> nat) (bcType : list Z) (m : maps).
Hypothesis Hrun : buildMaps (exact G) rhypot sort junk1 junkn tol 3 (S N) Np K Fm (e_x el) (e_y el) E2E E2F EToV Vert bcType [] = Ok m.
Local Notation d := (tables_of el m).
Local Notation fid := (face_id 3 (S N)).
Variables (jv : nat -> R) (lowest g CFL : R).
Local Notation E := (exact G).
Local Notation nf := (3 * S N * K)%nat.

Lemma fs_at n f k : (n <= N)%nat -> (f < 3)%nat -> (k < K)%nat -> 0 < ment (e_Fscale el) (fid n f k mod (3 * S N)) (fid n f k / (3 * S N)) /\
  ment (e_Fscale el) (fid n f k mod (3 * S N)) (fid n f k / (3 * S N)) = side_length (from_ Vert EToV k f) (to_ Vert EToV k f) / area (P k 0) (P k 1) (P k 2).
Proof.
  intros Hn Hf Hk. destruct (fid_pos N n f k Hn Hf) as (_ & E1 & E2). rewrite E1, E2. pose proof (HA k Hk) as Ha.
  destruct (C36_normals _ _ _ _ _ _ _ _ _ _ _ _ HB k Hk Ha) as (_ & _ & _ & H & _). destruct (H f n Hf ltac:(lia)) as (_ & ->). unfold from_, to_, next.
  assert (Es : side_length (P k f) (P k ((f + 1) mod 3)) / 2 / (area (P k 0) (P k 1) (P k 2) / 2) = side_length (P k f) (P k ((f + 1) mod 3)) / area (P k 0) (P k 1) (P k 2)) by (field; lra).
  rewrite Es. split; [|reflexivity]. apply Rdiv_lt_0_compat; [|exact Ha].
  pose proof (side_ne K Vert EToV HA f k Hf Hk) as Hne. unfold from_, to_, next in Hne. unfold side_length. apply sqrt_lt_R0.
  set (p := P k f) in *. set (q := P k ((f + 1) mod 3)) in *. clearbody p q. destruct p as [p1 p2], q as [q1 q2]. unfold dot, pminus. cbn [fst snd].
  pose proof (Rle_0_sqr (q1 - p1)) as S1. pose proof (Rle_0_sqr (q2 - p2)) as S2. unfold Rsqr in *.
  destruct (Req_dec q1 p1) as [-> |Hq]; [destruct (Req_dec q2 p2) as [-> |Hq2]; [contradiction|]|].
  - assert (0 < (q2 - p2) * (q2 - p2)) by (apply (Rsqr_pos_lt (q2 - p2)); lra). lra.
  - assert (0 < (q1 - p1) * (q1 - p1)) by (apply (Rsqr_pos_lt (q1 - p1)); lra). lra.
Qed.
Lemma own_at (q : field) n f k : (n <= N)%nat -> (f < 3)%nat -> (k < K)%nat -> forall c, volv Np (fieldc c q) (vM d (fid n f k)) = ment (fieldc c q) (fn f n) k.
Proof.
  intros Hn Hf Hk c. destruct (maps_at _ _ _ _ _ _ _ _ _ _ _ _ HB _ _ HM HA HS _ _ _ _ _ _ Hrun n f k Hn Hf Hk) as (-> & _).
  pose proof (fn_lt _ _ _ _ _ _ _ _ _ _ _ _ HB f n Hf Hn) as Hl. unfold volv, volume_id. rewrite (Nat.mul_comm Np k), Nat.mod_add, Nat.div_add, Nat.mod_small, Nat.div_small by lia. reflexivity.
Qed.

(* the maximum of the products, in physical terms *)
Lemma max_rate (q : field) (w : nat -> R) : lowest <= 0 -> 0 < CFL ->
  (forall n f k, (n <= N)%nat -> (f < 3)%nat -> (k < K)%nat -> w (fid n f k) = ment (e_Fscale el) (fid n f k mod (3 * S N)) (fid n f k / (3 * S N)) * wave_speed g (at_node q (fn f n) k)) ->
  (exists v, crossing_rate Np K Vert EToV (e_x el) (e_y el) g q v /\ 0 < v) ->
  largest_step N Np K Vert EToV (e_x el) (e_y el) g q CFL (CFL / (INR ((N + 1) * (N + 1)) * (1 / 2) * maxto G lowest nf w)).
Proof.
  intros Hlow HC Hw (v0 & Hv0 & Hpos). set (M := maxto G lowest nf w).
  assert (Hin : forall v, crossing_rate Np K Vert EToV (e_x el) (e_y el) g q v -> exists i, (i < nf)%nat /\ w i = v).
  { intros v (k & f & i & t & Hk & Hf & Hi & Ht & ->). destruct (side_node _ _ _ _ _ _ _ _ _ _ _ _ HB HA f k i t Hf Hk Hi Ht) as (n & Hn & ->).
    exists (fid n f k). split; [apply (fid_lt N K); assumption|]. rewrite Hw by assumption. destruct (fs_at n f k Hn Hf Hk) as (_ & ->). reflexivity. }
  assert (Hout : forall i, (i < nf)%nat -> crossing_rate Np K Vert EToV (e_x el) (e_y el) g q (w i) /\ 0 <= w i).
  { intros i Hi. destruct (fid_split N K i Hi) as (n & f & k & Hn & Hf & Hk & ->). rewrite Hw by assumption. destruct (fs_at n f k Hn Hf Hk) as (F0 & F1). split.
    - destruct (side_pt _ _ _ _ _ _ _ _ _ _ _ _ HB f n Hf Hn) as (t & Ht). exists k, f, (fn f n), t. split; [exact Hk|]. split; [exact Hf|]. split; [apply (fn_lt _ _ _ _ _ _ _ _ _ _ _ _ HB); assumption|]. split; [apply Ht, Hk|]. rewrite F1. reflexivity.
    - apply Rmult_le_pos; [lra|apply speed_nonneg]. }
  assert (HMg : forall v, crossing_rate Np K Vert EToV (e_x el) (e_y el) g q v -> v <= M) by (intros v Hv; destruct (Hin v Hv) as (i & Hi & <-); apply maxto_ge, Hi).
  assert (Hn0 : (0 < nf)%nat) by (destruct (Hin v0 Hv0) as (i & Hi & _); lia).
  destruct (maxto_attained G lowest nf w Hn0) as (i & Hi & Ei). { intros i Hi. destruct (Hout i Hi). lra. }
  assert (HM0 : 0 < M) by (pose proof (HMg v0 Hv0); lra).
  assert (EN : INR ((N + 1) * (N + 1)) = (INR N + 1) ^ 2) by (rewrite mult_INR, plus_INR; cbn [INR pow]; ring). rewrite EN.
  assert (HN : 0 < (INR N + 1) ^ 2) by (apply pow_lt; pose proof (pos_INR N); lra).
  unfold largest_step. set (B := (INR N + 1) ^ 2) in *. clearbody B. split; [|split].
  - apply Rdiv_lt_0_compat; [exact HC|]. apply Rmult_lt_0_compat; [lra|exact HM0].
  - intros v Hv. pose proof (HMg v Hv) as Hle. replace (CFL / (B * (1 / 2) * M) * (B / 2 * v)) with (CFL / M * v) by (field; lra).
    apply Rle_trans with (CFL / M * M); [apply Rmult_le_compat_l; [apply Rlt_le, Rdiv_lt_0_compat; assumption|exact Hle]|right; field; lra].
  - exists (w i). split; [apply Hout, Hi|]. rewrite <- Ei. fold M. field. lra.
Qed.

Lemma fsvec : exists l, fullToVector (e_Fscale el) (vfresh jv nf) false = Ok l /\ l = tab nf (fun i => ment (e_Fscale el) (i mod (3 * S N)) (i / (3 * S N))).
Proof.
  pose proof (conform_d _ _ _ _ _ _ _ _ _ _ _ _ HB m) as Hd. unfold dg_conform in Hd. cbn [tables_of d_Fscale] in Hd.
  assert (HF : conform (e_Fscale el) (3 * S N) K = true) by (rewrite !andb_true_iff in Hd; tauto). apply conform_ok in HF as (F1 & F2).
  eexists. split; [apply (full_tab _ _ (3 * S N) K F1 F2); [lia|apply vfresh_len]|reflexivity].
Qed.
Lemma face_ok x : conform x Np K = true -> bind (fullToVector x (vfresh jv (Np * K)) false) (fun v => applyIndexMap v (d_vmapM d) (vfresh jv nf)) = Ok (tab nf (fun i => volv Np x (vM d i))).
Proof.
  intro Hx. apply conform_ok in Hx as (X1 & X2). pose proof (Np_pos _ _ _ _ _ _ _ _ _ _ _ _ HB _ _ _ _ _ _ _ _ Hrun) as HN. destruct (maps_bounds _ _ _ _ _ _ _ _ _ _ _ _ HB _ _ HM HA HS _ _ _ _ _ _ Hrun) as (L1 & _ & B1 & _).
  rewrite (full_tab x _ Np K X1 X2 HN) by apply vfresh_len. cbn [bind].
  rewrite (list_map_nth (d_vmapM d) nf L1) at 1. rewrite (index_tab (Np * K) nf) by (try apply vfresh_len; intros i Hi; apply B1, nth_In; lia). reflexivity.
Qed.
Lemma speed_E h hu hv : fadd E (fsqrt E (fadd E (fmul E (hu / h) (hu / h)) (fmul E (hv / h) (hv / h)))) (fsqrt E (fmul E g h)) = wave_speed g (h, hu, hv).
Proof. reflexivity. Qed.

Lemma simple_dt_ok q : lowest <= 0 -> 0 < CFL -> state_conform q Np K = true -> (exists v, crossing_rate Np K Vert EToV (e_x el) (e_y el) g q v /\ 0 < v) ->
  exists dt, simple_dt E jv lowest d N 3 (S N) Np K g CFL (fieldc 0 q) (mzip (fdiv E) (fieldc 1 q) (fieldc 0 q)) (mzip (fdiv E) (fieldc 2 q) (fieldc 0 q)) = Ok dt /\
    largest_step N Np K Vert EToV (e_x el) (e_y el) g q CFL dt.
Proof.
  intros Hlow HC HQ Hex. assert (H0 : conform (fieldc 0 q) Np K = true) by (destruct q as [[h hu] hv]; cbn [fieldc fst snd]; unfold state_conform in HQ; rewrite !andb_true_iff in HQ; tauto).
  unfold simple_dt. cbv zeta. cbn [tables_of d_Fscale]. destruct fsvec as (l & El & ->).
  set (spd := mzip3 _ (fieldc 0 q) _ _). assert (Hs : conform spd Np K = true) by exact H0. pose proof (face_ok spd Hs) as HF.
  destruct (fullToVector spd (vfresh jv (Np * K)) false) as [sv| |]; [|discriminate HF|discriminate HF]. cbn [bind] in HF |- *. rewrite El. cbn [bind]. cbn [tables_of d_vmapM] in HF |- *. rewrite HF. cbn [bind].
  eexists. split; [reflexivity|]. cbn [exact fdiv fmul]. rewrite fofn_INR, fhalf_exact. unfold max_product. rewrite tab_map, tab_zipw.
  match goal with |- context[fold_left _ (tab nf ?w) lowest] => set (W := w); change (fold_left _ (tab nf W) lowest) with (fold_left (fmax E) (tab nf W) lowest) end.
  rewrite (max_tab G lowest nf W). apply max_rate; auto. intros n f k Hn Hf Hk. unfold W. cbn [exact fabs fmul]. destruct (fs_at n f k Hn Hf Hk) as (F0 & _). rewrite Rabs_right by lra. f_equal.
  destruct (maps_at _ _ _ _ _ _ _ _ _ _ _ _ HB _ _ HM HA HS _ _ _ _ _ _ Hrun n f k Hn Hf Hk) as (-> & _).
  pose proof (fn_lt _ _ _ _ _ _ _ _ _ _ _ _ HB f n Hf Hn) as Hl. unfold volv, volume_id. rewrite (Nat.mul_comm Np k), Nat.mod_add, Nat.div_add, Nat.mod_small, Nat.div_small by lia. reflexivity.
Qed.

Lemma full_dt_ok q : lowest <= 0 -> 0 < CFL -> state_conform q Np K = true -> (exists v, crossing_rate Np K Vert EToV (e_x el) (e_y el) g q v /\ 0 < v) ->
  exists dt, full_dt E jv lowest d N 3 (S N) Np K g CFL q = Ok dt /\ largest_step N Np K Vert EToV (e_x el) (e_y el) g q CFL dt.
Proof.
  intros Hlow HC HQ Hex. destruct q as [[h hu] hv]. unfold state_conform in HQ. rewrite !andb_true_iff in HQ. destruct HQ as ((H0 & H1) & H2).
  unfold full_dt. cbv zeta. cbn [tables_of d_Fscale]. destruct fsvec as (l & El & ->). rewrite El. cbn [bind].
  change (d_vmapM d) with (d_vmapM d). pose proof (face_ok (mzip (fdiv E) hu h) H1) as F1. pose proof (face_ok (mzip (fdiv E) hv h) H2) as F2. pose proof (face_ok h H0) as F0.
  cbn [tables_of d_vmapM] in *. rewrite F1. cbn [bind]. rewrite F2. cbn [bind]. rewrite F0. cbn [bind].
  eexists. split; [reflexivity|]. cbn [exact fdiv fmul]. rewrite fofn_INR, fhalf_exact. unfold max_product. rewrite tab_zipw3, tab_zipw.
  match goal with |- context[fold_left _ (tab nf ?w) lowest] => set (W := w); change (fold_left _ (tab nf W) lowest) with (fold_left (fmax E) (tab nf W) lowest) end.
  rewrite (max_tab G lowest nf W). apply max_rate; auto. intros n f k Hn Hf Hk. unfold W. cbn [exact fmul]. f_equal.
  destruct (maps_at _ _ _ _ _ _ _ _ _ _ _ _ HB _ _ HM HA HS _ _ _ _ _ _ Hrun n f k Hn Hf Hk) as (Ev & _).
  pose proof (fn_lt _ _ _ _ _ _ _ _ _ _ _ _ HB f n Hf Hn) as Hl. change (vM _ (fid n f k)) with (vM d (fid n f k)). rewrite Ev. unfold volv, volume_id. rewrite (Nat.mul_comm Np k), Nat.mod_add, Nat.div_add, Nat.mod_small, Nat.div_small by lia. reflexivity.
Qed.
End Dt.
