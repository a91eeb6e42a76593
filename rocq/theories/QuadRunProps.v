(* QuadRunProps.v - C103: the script sw2dquads.py, shallow water on quadrilaterals. *)
From Coq Require Import ZArith List Lia Bool Arith.
From Coq Require Import Floats.SpecFloat.
From Verif Require Import Base Loops Num BlitzModel JacobiModel JacobiSpec JacobiProofs JacobiQuadProofs JacobiExactProofs Nodes1DModel Nodes1DSpec Nodes1DExactProofs DenseSpec DenseModel
  MeshSpec MeshGeoProofs TriModel TriSpec TriGeoSpec TriOpProofs TriProofs TriFilterProofs TriLiftProofs QuadModel QuadSpec QuadSetup QuadProps Maps2DModel Maps2DSpec Maps2DProofs Maps2DProps TriMapsProofs TriMapsProps QuadMapsProofs QuadMapsProps
  RKModel RKProofs Line1DModel Line1DProofs SwModel SwSpec SwProofs SwSchemeProofs SwRunProofs SwStepModel SwStepSpec CurvedSwModel CurvedSwSpec PySwModel PySwProofs AdvecRunModel
  SwScriptModel SwScriptProofs QuadGradProofs InsModel InsSpec InsProofs InsGridProofs InsRunProofs InsProps QuadRunModel QuadRunSpec QuadRunProofs.
From Coq Require Import Reals Lra.
Import ListNotations.
Local Open Scope R_scope.

Section C103.
Context (G : R -> R) (solve : mat R -> mat R -> mat R -> outcome (mat R)) (inverse : mat R -> mat R -> outcome (mat R))
  (junk : nat -> nat -> R) (eps : R) (eig : nat -> (nat -> nat -> R) -> list R * (nat -> nat -> R)) (tol : R)
  (sort : (nat -> nat -> bool) -> list nat -> list nat) (junk1 : nat -> R) (junkn : nat -> nat)
  (N K : nat) (Vert : list R) (EToV E2E E2F : list nat) (bcType : list Z) (el : element (T := R)) (m : maps).
Local Notation E := (exact G).
Local Notation Grid := (ins_grid G solve inverse junk eps eig tol sort junk1 junkn N K Vert EToV E2E E2F bcType el m).
Local Notation Np := ((N + 1) * (N + 1))%nat.
Local Notation rhs g := (quads_rhs E (tables_of el m) 4 (S N) Np K g).
Local Notation half F g dt := (quads_predictor E F (rhs g) dt).
Local Notation step F g dt := (quads_step E F (rhs g) dt).
Local Notation turn F H g huge dt := (quads_turn E F H (rhs g) huge dt).
Local Notation loop F H g huge dt ft := (fun fuel => quads_loop E fuel F H (rhs g) huge dt ft).
Local Notation tag k f := (nth (4 * k + f) bcType 0%Z).
Local Notation some_wall := (exists k f, (k < K)%nat /\ (f < 4)%nat /\ tag k f = 3%Z).
Local Notation fits q := (state_conform q Np K = true).
Local Notation M := (e_metric el).
(* normal at face node t *)
Local Notation normal := (fun t => (ment (e_nx el) (t mod (4 * S N)) (t / (4 * S N)), ment (e_ny el) (t mod (4 * S N)) (t / (4 * S N)))).

(* C103: the rates are computed whenever some side is tagged as a wall and no node is dry; with no such tag the
   subscript BCmap[3] raises. *)
Theorem C103_runs : Grid -> forall g q, fits q ->
  (some_wall -> wet Np K q -> exists z, rhs g q = Ok z /\ fits z) /\ (~ some_wall -> rhs g q = Throw).
Proof.
  intros [HB HM HX HS Hrun Hbc] g q Cq. split.
  - intros Ht Hw. destruct (qrates_ok _ _ _ _ _ _ _ _ _ _ _ _ HB _ _ HM HS _ _ _ _ _ Hrun Hbc g q Ht Cq Hw) as (z & Ez & Cz & _). exists z. split; assumption.
  - intro Hn. eapply quntagged; try eassumption. intros k f Hk Hf Hk3. apply Hn. exists k, f. repeat split; assumption.
Qed.

(* C103: what they are. At node i of element k, component c changes by minus the divergence of the shallow water fluxes,
   taken with the collocation derivatives, plus the lifted difference, at the face nodes of the element, of the flux of the
   element's own state and the Rusanov flux to the state beyond - the mirrored one at walls - with the largest wave speed
   met on either side of that face. *)
Theorem C103_scheme : Grid -> some_wall -> forall g q, fits q -> wet Np K q ->
  exists z lam, rhs g q = Ok z /\ fits z /\
  let own := state_at Np q (m_vmapM m) in let other := beyond_wall N Np bcType (m_vmapM m) (m_vmapP m) q normal in
  let dx (f : nat -> R) i k := ment (g_rx M) i k * sumn Np (fun j => ment (e_Dr el) i j * f j) + ment (g_sx M) i k * sumn Np (fun j => ment (e_Ds el) i j * f j) in
  let dy (f : nat -> R) i k := ment (g_ry M) i k * sumn Np (fun j => ment (e_Dr el) i j * f j) + ment (g_sy M) i k * sumn Np (fun j => ment (e_Ds el) i j * f j) in
  (forall i k c, (i < Np)%nat -> (k < K)%nat -> (c < 3)%nat -> ment (fieldc c z) i k =
     - (dx (fun j => part c (flux_x g (at_node q j k))) i k + dy (fun j => part c (flux_y g (at_node q j k))) i k) +
     sumn (4 * S N) (fun j => let t := (j + k * (4 * S N))%nat in let n := (ment (e_nx el) j k, ment (e_ny el) j k) in
       ment (e_Lift el) i j * (ment (e_Fscale el) j k * (through g c n (own t) - rusanov g c n (lam t) (own t) (other t))))) /\
  (forall t, (t < 4 * S N * K)%nat -> is_max (fun v => exists t', (t' < 4 * S N * K)%nat /\ (t' / S N = t / S N)%nat /\ v = Rmax (wave_speed g (own t')) (wave_speed g (other t'))) (lam t)).
Proof.
  intros [HB HM HX HS Hrun Hbc] Ht g q Cq Hw. destruct (qrates_ok _ _ _ _ _ _ _ _ _ _ _ _ HB _ _ HM HS _ _ _ _ _ Hrun Hbc g q Ht Cq Hw) as (z & Ez & Cz & Hz).
  exists z, (qspeed G N el bcType m g q). split; [exact Ez|]. split; [exact Cz|]. cbv zeta. split.
  - intros i k c Hi Hk Hc. rewrite (Hz c i k Hc Hi Hk). unfold rate, strong_entry. cbn [tables_of d_rx d_ry d_sx d_sy d_Dr d_Ds d_Lift d_Fscale]. f_equal; [ring|].
    apply sumn_ext. intros j Hj. unfold jump_entry, normal_at. rewrite Nat.mod_add, Nat.div_add, Nat.mod_small, Nat.div_small by lia. reflexivity.
  - intros t Htn. unfold qspeed, face_max. assert (Hd : (t / S N < 4 * K)%nat) by (apply Nat.div_lt_upper_bound; lia).
    set (f := fun t => Rmax (wave_speed g (state_at Np q (m_vmapM m) t)) (wave_speed g (beyond_wall N Np bcType (m_vmapM m) (m_vmapP m) q (normal_at (tables_of el m) (4 * S N)) t))).
    destruct (maxto_attained G 0 (S N) (fun n => f (n + t / S N * S N)%nat) ltac:(lia)) as (n & Hn & En).
    { intros n Hn. apply (Rle_trans _ _ _ (speed_nonneg _ _) (Rmax_l _ _)). }
    split.
    + exists (n + t / S N * S N)%nat. split; [nia|]. split; [rewrite Nat.div_add, Nat.div_small by lia; reflexivity|]. exact En.
    + intros v (t' & Ht' & Et & ->). replace (t' : nat) with (t' mod S N + t / S N * S N)%nat by (rewrite <- Et, Nat.mul_comm; pose proof (Nat.div_mod t' (S N) ltac:(lia)); lia).
      apply (maxto_ge G 0 (S N) (fun n => f (n + t / S N * S N)%nat)). apply Nat.mod_upper_bound. lia.
Qed.

(* C103: consistency. On an element without walls, for a state without jumps whose fluxes are polynomials of degree at most
   N there, the rates are minus the exact divergence of the fluxes. *)
Theorem C103_consistent : Grid -> some_wall -> forall g q, fits q -> wet Np K q -> continuous_field Np K (e_x el) (e_y el) q ->
  exists z, rhs g q = Ok z /\ forall k c P Q, (k < K)%nat -> (c < 3)%nat -> (forall f, (f < 4)%nat -> tag k f <> 3%Z) -> degree2 N P -> degree2 N Q ->
  (forall i, (i < Np)%nat -> part c (flux_x g (at_node q i k)) = eval2 P (ment (e_x el) i k) (ment (e_y el) i k)) ->
  (forall i, (i < Np)%nat -> part c (flux_y g (at_node q i k)) = eval2 Q (ment (e_x el) i k) (ment (e_y el) i k)) ->
  forall i, (i < Np)%nat -> exists Px Qy, dr_is (eval2 P) (ment (e_x el) i k) (ment (e_y el) i k) Px /\ ds_is (eval2 Q) (ment (e_x el) i k) (ment (e_y el) i k) Qy /\
    ment (fieldc c z) i k = - (Px + Qy).
Proof.
  intros [HB HM HX HS Hrun Hbc] Ht g q Cq Hw Hcont. destruct (qrates_ok _ _ _ _ _ _ _ _ _ _ _ _ HB _ _ HM HS _ _ _ _ _ Hrun Hbc g q Ht Cq Hw) as (z & Ez & Cz & Hz).
  exists z. split; [exact Ez|]. intros k c P Q Hk Hc Hno DP DQ EP EQ i Hi. eexists _, _. split; [apply ddr_ok|]. split; [apply dds_ok|]. rewrite (Hz c i k Hc Hi Hk).
  rewrite (rate_volume N K el bcType m Hbc g q).
  - destruct (deriv_grad _ _ _ _ _ _ _ _ _ _ _ _ HB HX m k P (fun j => part c (flux_x g (at_node q j k))) i Hk Hi DP EP) as (-> & _).
    destruct (deriv_grad _ _ _ _ _ _ _ _ _ _ _ _ HB HX m k Q (fun j => part c (flux_y g (at_node q j k))) i Hk Hi DQ EQ) as (_ & ->). ring.
  - exact Hk.
  - intros n f Hn Hf. unfold beyond_wall. cbv zeta. rewrite (side_tag_at N K bcType Hbc n f k Hn). unfold qtag_of. rewrite (proj2 (Z.eqb_neq _ _) (Hno f Hf)).
    rewrite (own_at _ _ _ _ _ _ _ _ _ _ _ _ HB _ _ HM HS _ _ _ _ _ Hrun Hbc q n f k Hn Hf Hk). destruct (far_at _ _ _ _ _ _ _ _ _ _ _ _ HB _ _ HM HS _ _ _ _ _ Hrun Hbc q n f k Hn Hf Hk) as (k2 & f2 & p & Hk2 & Hf2 & Hp & -> & Ep).
    symmetry. apply Hcont; auto; eapply qfn_lt; eassumption.
Qed.

(* C103: the step is the midpoint rule with filtered rates. *)
Theorem C103_midpoint : Grid -> some_wall -> forall g F dt q, shape F Np Np -> fits q -> wet Np K q ->
  exists z0 p, rhs g q = Ok z0 /\ half F g dt q = Ok p /\ fits p /\
  (forall c i k, (c < 3)%nat -> (i < Np)%nat -> (k < K)%nat -> ment (fieldc c p) i k = ment (fieldc c q) i k + dt / 2 * sumn Np (fun j => ment F i j * ment (fieldc c z0) j k)) /\
  (wet Np K p -> exists z1 q', rhs g p = Ok z1 /\ step F g dt q = Ok q' /\ fits q' /\
   forall c i k, (c < 3)%nat -> (i < Np)%nat -> (k < K)%nat -> ment (fieldc c q') i k = ment (fieldc c q) i k + dt * sumn Np (fun j => ment F i j * ment (fieldc c z1) j k)).
Proof.
  intros HG Ht g F dt q SF Cq Hw. destruct (proj1 (C103_runs HG g q Cq) Ht Hw) as (z0 & Ez & Cz).
  destruct (stage3_ok G Np K F (rhs g) (fmul E (SwModel.half E) dt) q q z0 SF Cq Ez Cz) as (p & Ep & Cp & Hp). exists z0, p. split; [exact Ez|]. split; [exact Ep|]. split; [exact Cp|]. split.
  - intros c i k Hc Hi Hk. rewrite (Hp c i k Hc Hi Hk). f_equal. f_equal. unfold SwModel.half. cbn [exact fmul]. rewrite fhalf_exact. field.
  - intro Wp. destruct (proj1 (C103_runs HG g p Cp) Ht Wp) as (z1 & Ez1 & Cz1). destruct (stage3_ok G Np K F (rhs g) dt q p z1 SF Cq Ez1 Cz1) as (q' & Eq & Cq' & Hq). exists z1, q'. split; [exact Ez1|]. split; [|split; assumption].
    unfold quads_step. assert (Eh : half F g dt q = Ok p) by exact Ep. rewrite Eh. exact Eq.
Qed.

(* C103: water at rest with a level surface. Every step returns and changes nothing, for any filter matrix and step. *)
Theorem C103_rest : Grid -> some_wall -> forall g F dt q h0, shape F Np Np -> fits q -> h0 <> 0 -> at_rest Np K h0 q ->
  exists q', step F g dt q = Ok q' /\ fits q' /\ at_rest Np K h0 q'.
Proof.
  intros HG Ht g F dt q h0 SF Cq H0 Hr.
  assert (W : forall q, at_rest Np K h0 q -> wet Np K q). { intros p Hp a b Ha Hb. specialize (Hp a b Ha Hb). unfold at_node in Hp. congruence. }
  assert (Z : forall p z, fits p -> at_rest Np K h0 p -> rhs g p = Ok z -> forall c i k, (c < 3)%nat -> (i < Np)%nat -> (k < K)%nat -> ment (fieldc c z) i k = 0).
  { intros p z Cp Hp Ez. destruct HG as [HB HM HX HS Hrun Hbc]. eapply rest_rates; eassumption. }
  assert (S0 : forall z, (forall c i k, (c < 3)%nat -> (i < Np)%nat -> (k < K)%nat -> ment (fieldc c z) i k = 0) -> forall c i k, (c < 3)%nat -> (k < K)%nat -> sumn Np (fun j => ment F i j * ment (fieldc c z) j k) = 0).
  { intros z Hz c i k Hc Hk. apply sumn_zero. intros j Hj. rewrite Hz by assumption. ring. }
  assert (RE : forall p, (forall c i k, (c < 3)%nat -> (i < Np)%nat -> (k < K)%nat -> ment (fieldc c p) i k = ment (fieldc c q) i k) -> at_rest Np K h0 p).
  { intros p Hp i k Hi Hk. unfold at_node. rewrite !Hp by (assumption || lia). exact (Hr i k Hi Hk). }
  destruct (C103_midpoint HG Ht g F dt q SF Cq (W q Hr)) as (z0 & p & Ez0 & Ep & Cp & Hp & Hs).
  assert (Rp : at_rest Np K h0 p). { apply RE. intros c i k Hc Hi Hk. rewrite (Hp c i k Hc Hi Hk), (S0 z0 (Z q z0 Cq Hr Ez0)) by assumption. ring. }
  destruct (Hs (W p Rp)) as (z1 & q' & Ez1 & Eq & Cq' & Hq). exists q'. split; [exact Eq|]. split; [exact Cq'|]. apply RE. intros c i k Hc Hi Hk. rewrite (Hq c i k Hc Hi Hk), (S0 z1 (Z p z1 Cp Rp Ez1)) by assumption. ring.
Qed.

(* C103: so a run from rest goes on to the end and finds the water as it was. *)
Lemma rest_turn : Grid -> some_wall -> (0 < K)%nat -> forall g F H huge dt s h0, shape F Np Np -> fits (qd_q s) -> h0 <> 0 -> Rabs h0 <= huge -> at_rest Np K h0 (qd_q s) ->
  exists s', turn F H g huge dt s = Ok s' /\ fits (qd_q s') /\ at_rest Np K h0 (qd_q s') /\ qd_t s' = qd_t s + dt.
Proof.
  intros HG Ht HK g F H huge dt s h0 SF Cq H0 Hh Hr. destruct (C103_rest HG Ht g F dt (qd_q s) h0 SF Cq H0 Hr) as (q' & Eq & Cq' & Rq).
  unfold quads_turn. rewrite Eq. cbn [bind]. unfold script_unstable.
  assert (Hflat : forall v, In v (map (fabs E) (flattenF (fst (fst q')))) -> v = Rabs h0).
  { intros v Hv. apply in_map_iff in Hv as (w & <- & Hw). cbn [exact fabs]. f_equal. unfold flattenF in Hw. apply in_flat_map in Hw as (k & Hk & Hw). apply in_seq in Hk. unfold mcol in Hw. apply in_map_iff in Hw as (i & <- & Hi). apply in_seq in Hi.
    pose proof (proj1 (conform3 Np K q') Cq' 0%nat ltac:(lia)) as (R0 & C0). unfold fieldc in R0, C0. rewrite R0 in Hi. rewrite C0 in Hk. specialize (Rq i k ltac:(lia) ltac:(lia)). unfold at_node, fieldc in Rq. congruence. }
  assert (Hin : In (Rabs h0) (map (fabs E) (flattenF (fst (fst q'))))).
  { pose proof (proj1 (conform3 Np K q') Cq' 0%nat ltac:(lia)) as (R0 & C0). unfold fieldc in R0, C0. pose proof (in_flat (fst (fst q')) 0%nat 0%nat ltac:(rewrite R0; nia) ltac:(lia)) as Hi. apply (in_map (fabs E)) in Hi. rewrite <- (Hflat _ Hi). exact Hi. }
  destruct (map (fabs E) (flattenF (fst (fst q')))) as [|a l] eqn:El; [destruct Hin|].
  destruct (np_max_exact G a l) as (mx & Em & Hm & _). rewrite Em. cbn [bind]. rewrite (Hflat mx Hm).
  unfold np_isnan. cbn [exact flt fle]. unfold Rltb, Rleb. destruct (Rlt_dec huge (Rabs h0)); [lra|]. destruct (Rle_dec (Rabs h0) (Rabs h0)); [|lra]. cbn [negb orb].
  eexists. split; [reflexivity|]. cbn [qd_q qd_t exact fadd]. repeat split; auto.
Qed.
Theorem C103_rest_run : Grid -> some_wall -> (0 < K)%nat -> forall g F H huge dt ft s h0, 0 < dt -> shape F Np Np -> fits (qd_q s) -> h0 <> 0 -> Rabs h0 <= huge -> at_rest Np K h0 (qd_q s) ->
  exists fuel s', loop F H g huge dt ft fuel s = Ok s' /\ at_rest Np K h0 (qd_q s').
Proof.
  intros HG Ht HK g F H huge dt ft s h0 Hdt SF Cq H0 Hh Hr.
  assert (HA : exists n, (ft - qd_t s) / dt < INR n).
  { exists (Z.to_nat (up ((ft - qd_t s) / dt))). rewrite INR_IZR_INZ. destruct (archimed ((ft - qd_t s) / dt)) as (HU & _). apply Rgt_lt in HU. eapply Rlt_le_trans; [exact HU|]. apply IZR_le. lia. }
  destruct HA as (n & Hn).
  assert (Hn' : ft <= qd_t s + INR n * dt). { apply Rmult_lt_compat_r with (r := dt) in Hn; [|exact Hdt]. unfold Rdiv in Hn. rewrite Rmult_assoc, Rinv_l in Hn by lra. lra. }
  clear Hn. exists (S n). revert s Cq Hr Hn'. induction n as [|n IH]; intros s Cq Hr Hn.
  - exists s. rewrite qloop_S. cbn [exact flt]. unfold Rltb. cbn [INR] in Hn. destruct (Rlt_dec (qd_t s) ft); [lra|]. split; [reflexivity|exact Hr].
  - rewrite qloop_S. cbn [exact flt]. unfold Rltb. destruct (Rlt_dec (qd_t s) ft) as [L|L]; [|exists s; split; [reflexivity|exact Hr]].
    destruct (rest_turn HG Ht HK g F H huge dt s h0 SF Cq H0 Hh Hr) as (s1 & E1 & C1 & R1 & T1).
    rewrite E1. cbn [bind]. apply IH; [exact C1|exact R1|]. rewrite T1, S_INR in *. lra.
Qed.

(* C103: a run. It starts from rest with the depth 10 + exp (-10 x^2 - 10 y^2), takes n steps of dt, n the first number with n dt
   >= finalTime, and every state it goes through keeps within the bound on the depth. It writes the start and the states whose
   number is a multiple of 20: surface, velocities. *)
Local Notation run g dt huge ft F := (fun fuel => quads_run E exp fuel (tables_of el m) 4 (S N) Np K g dt huge ft F (e_x el) (e_y el)).
Local Notation shown q fs := (forall i k, (i < Np)%nat -> (k < K)%nat ->
  at_node fs i k = let '(h, hu, hv) := at_node q i k in (h - 10, hu / h, hv / h)).
Theorem C103_run : Grid -> forall g dt huge ft F fuel s, run g dt huge ft F fuel = Ok s -> exists n (q : nat -> field),
  (forall i k, (i < Np)%nat -> (k < K)%nat -> let x := ment (e_x el) i k in let y := ment (e_y el) i k in at_node (q 0%nat) i k = (10 + exp (-10 * (x * x) - 10 * (y * y)), 0, 0)) /\
  fits (q 0%nat) /\ wet Np K (q 0%nat) /\ history Ok (step F g dt) n q /\
  (forall j i k, (1 <= j <= n)%nat -> (i < mrows (fieldc 0 (q j)))%nat -> (k < mcols (fieldc 0 (q j)))%nat -> Rabs (ment (fieldc 0 (q j)) i k) <= huge) /\
  qd_q s = q n /\ qd_t s = INR n * dt /\ qd_step s = Z.of_nat n /\ ft <= INR n * dt /\ (forall j, (j < n)%nat -> INR j * dt < ft) /\
  (forall j fs, In (j, fs) (qd_out s) -> exists i, (i <= n)%nat /\ (i mod 20 = 0)%nat /\ j = Z.of_nat i /\ shown (q i) fs) /\
  (forall i, (i <= n)%nat -> (i mod 20 = 0)%nat -> exists fs, In (Z.of_nat i, fs) (qd_out s) /\ shown (q i) fs).
Proof.
  intros HG g dt huge ft F fuel s Hr. destruct HG as [HB _ _ _ _ _]. destruct (C43_mapping _ _ _ _ _ _ _ _ _ _ _ _ HB) as ((X1 & X2) & (Y1 & Y2) & _). clear HB.
  unfold quads_run in Hr. cbv zeta in Hr. unfold np_zip at 1 in Hr. unfold quads_eta in Hr. cbn [Line1DModel.mzip mrows mcols] in Hr. rewrite X1, X2, !Nat.eqb_refl in Hr. cbn [andb bind require] in Hr.
  unfold np_zip in Hr. cbn [Line1DModel.mzip mrows mcols] in Hr. rewrite !Nat.eqb_refl in Hr. cbn [andb bind require] in Hr.
  apply qloop_history in Hr as (n & h & Hh & H0 & Hn & Hlt & Hge). exists n, (fun i => qd_q (h i)).
  pose proof (qhistory_clock _ _ _ _ _ _ _ _ Hh) as (T & S0). rewrite Hn, H0 in T, S0. cbn [qd_t qd_step] in T, S0.
  assert (T0 : fofn E 0 = 0) by (rewrite fofn_INR; reflexivity). assert (T1 : fofn E 1 = 1) by (rewrite fofn_INR; reflexivity). assert (T10 : fofn E 10 = 10) by (rewrite fofn_INR; cbn; lra).
  assert (Start : forall i k, (i < Np)%nat -> (k < K)%nat -> let x := ment (e_x el) i k in let y := ment (e_y el) i k in at_node (qd_q (h 0%nat)) i k = (10 + exp (-10 * (x * x) - 10 * (y * y)), 0, 0)).
  { intros i k Hi Hk. rewrite H0. unfold at_node, fieldc. cbn [qd_q fst snd Line1DModel.mzip ment exact fadd fmul fsub fopp]. fold E. rewrite T0, T1, T10. repeat (match goal with |- (_, _) = (_, _) => f_equal end); try ring. rewrite Rmult_1_l, Rmult_1_r. f_equal. }
  assert (Step : history Ok (step F g dt) n (fun i => qd_q (h i))). { intros i Hi. exact (proj1 (qturn_inv _ _ _ _ _ _ _ _ (Hh i Hi))). }
  pose proof (qhistory_out G _ _ _ _ _ n h Hh ltac:(rewrite H0; reflexivity)) as Out. rewrite Hn in Out.
  assert (Shown : forall i, (i <= n)%nat -> (1 <= i)%nat -> (forall a b, (a < Np)%nat -> (b < K)%nat -> True) -> shown (qd_q (h i)) (quads_shown E (mkmat Np K (fun _ _ => fmul E (fofn E 10) (fofn E 1))) (qd_q (h i)))).
  { intros i _ _ _ a b Ha Hb. destruct (qd_q (h i)) as [[q0 q1] q2]. unfold at_node, fieldc, quads_shown. cbn [fst snd Line1DModel.mzip ment exact fsub fdiv fmul]. fold E. rewrite T1, T10. f_equal. f_equal. ring. }
  split; [exact Start|]. split; [|split; [|split; [exact Step|split; [|split; [symmetry; f_equal; exact Hn|split; [rewrite T; fold E; rewrite T0; ring|split; [rewrite S0; lia|split; [|split]]]]]]]].
  - apply conform3. intros c Hc. rewrite H0. unfold fieldc. cbn [qd_q fst snd]. destruct c as [|[|[|]]]; try lia; cbn [fst snd Line1DModel.mzip mrows mcols]; split; reflexivity.
  - intros i k Hi Hk Hz. specialize (Start i k Hi Hk). cbv zeta in Start. unfold at_node in Start. rewrite Hz in Start. injection Start as Start _ _. pose proof (exp_pos (-10 * (ment (e_x el) i k * ment (e_x el) i k) - 10 * (ment (e_y el) i k * ment (e_y el) i k))). lra.
  - intros j i k Hj Hi Hk. destruct j as [|j]; [lia|]. destruct (qturn_inv _ _ _ _ _ _ _ _ (Hh j ltac:(lia))) as (_ & Hu & _). unfold script_unstable in Hu. pose proof (in_map (fabs E) _ _ (in_flat _ i k Hi Hk)) as Hin.
    destruct (map (fabs E) (flattenF (fieldc 0 (qd_q (h (S j)))))) as [|a l]; [destruct Hin|]. destruct (np_max_exact G a l) as (mx & Em & _ & Hm). rewrite Em in Hu. cbn [bind] in Hu. injection Hu as Hu. apply orb_false_iff in Hu as (Hu & _). cbn [exact flt] in Hu. unfold Rltb in Hu. destruct (Rlt_dec huge mx); [discriminate Hu|].
    specialize (Hm _ Hin). cbn [exact fabs] in Hm. lra.
  - rewrite T in Hge. fold E in Hge. rewrite T0 in Hge. lra.
  - intros j Hj. specialize (Hlt j Hj). destruct (qhistory_clock G F _ _ _ _ j h (fun i Hi => Hh i (Nat.lt_trans _ _ _ Hi Hj))) as (Tj & _). rewrite Tj, H0 in Hlt. cbn [qd_t] in Hlt. fold E in Hlt. rewrite T0 in Hlt. lra.
  - assert (S0' : shown (qd_q (h 0%nat)) (quads_eta E exp (e_x el) (e_y el), mkmat Np K (fun _ _ => fofn E 0), mkmat Np K (fun _ _ => fofn E 0))).
    { intros a b Ha Hb. rewrite (Start a b Ha Hb). unfold at_node, fieldc, quads_eta. cbn [fst snd Line1DModel.mzip ment exact fsub fdiv fmul fopp]. fold E. rewrite T0, T1, T10, Rmult_1_l. repeat (match goal with |- (_, _) = (_, _) => f_equal end); try (unfold Rdiv; ring). rewrite Ropp_mult_distr_l_reverse. replace (10 + exp (-10 * (ment (e_x el) a b * ment (e_x el) a b) - 10 * (ment (e_y el) a b * ment (e_y el) a b)) - 10) with (exp (-10 * (ment (e_x el) a b * ment (e_x el) a b) - 10 * (ment (e_y el) a b * ment (e_y el) a b))) by ring. f_equal. ring. }
    split.
    + intros j fs Hin. apply Out in Hin as [Hin|(i & Hi & Mi & -> & ->)].
      * rewrite H0 in Hin. cbn [qd_out] in Hin. destruct Hin as [Hin|[]]. injection Hin as <- <-. exists 0%nat. split; [lia|]. split; [reflexivity|]. split; [reflexivity|]. exact S0'.
      * exists i. split; [lia|]. split; [exact Mi|]. split; [reflexivity|]. apply Shown; auto; lia.
    + intros i Hi Mi. destruct i as [|i].
      * eexists. split; [apply Out; left; rewrite H0; cbn [qd_out]; left; reflexivity|exact S0'].
      * eexists. split; [apply Out; right; exists (S i); repeat split; auto; lia|]. apply Shown; auto; lia.
Qed.

(* C103, what fails: the state reached at the end need not be written. Unless the number of steps is a multiple of 20, no
   file of that number appears. *)
Theorem C103_last_state_lost_refuted : Grid -> forall g dt huge ft F fuel s, run g dt huge ft F fuel = Ok s -> (qd_step s mod 20 <> 0)%Z ->
  forall fs, ~ In (qd_step s, fs) (qd_out s).
Proof.
  intros HG g dt huge ft F fuel s Hr Hm fs Hin. destruct (C103_run HG _ _ _ _ _ _ _ Hr) as (n & q & _ & _ & _ & _ & _ & _ & _ & S0 & _ & _ & Ho & _).
  destruct (Ho _ _ Hin) as (i & _ & Mi & Ei & _). apply Hm. rewrite Ei. change 20%Z with (Z.of_nat 20). rewrite <- Nat2Z.inj_mod, Mi. reflexivity.
Qed.
End C103.

(* C103, in doubles: a depth that is not a number at any node stops the run. *)
Theorem C103_nan_caught gp gg F H rhs huge dt s q i k : quads_step (dbl_arith gp gg) F rhs dt (qd_q s) = Ok q ->
  (i < mrows (fst (fst q)))%nat -> (k < mcols (fst (fst q)))%nat -> ment (fst (fst q)) i k = S754_nan ->
  quads_turn (dbl_arith gp gg) F H rhs huge dt s = Throw.
Proof.
  intros Es Hi Hk En. unfold quads_turn. rewrite Es. cbn [bind]. unfold script_unstable. pose proof (in_map (fabs (dbl_arith gp gg)) _ _ (in_flat (fst (fst q)) i k Hi Hk)) as Hin.
  destruct (nan_max (dbl_arith gp gg) _ _ Hin) as (M & EM & Hm); [rewrite En; reflexivity|]. rewrite EM. cbn [bind]. rewrite Hm, orb_true_r. reflexivity.
Qed.

(* The hypotheses are met: two quadrilaterals side by side, order one, a wall along one side of the first; still water one deep,
   and a flow that spreads, with the rate of change of the depth -2 on the element without walls. *)
From Verif Require Import BlitzSpec UniqueProofs JacobiProps TriWitness QuadWitness.
Lemma quad_grid_w bcType : (8 <= length bcType)%nat -> exists el m, ins_grid gwit solve4 inverse4 junk0 0 eig0 (1 / 10) isort (fun _ => 0) (fun _ => 0%nat) 1 2 qVert qEToV qE2E qE2F bcType el m.
Proof.
  intro Hbc. destruct C38_quadrilateral_witness as (el & _ & HB & HS & _). destruct C43_witness as (_ & HX & _). destruct quad_mesh_witness as [LE LF HN HO HA].
  pose proof (quad_tables _ _ _ _ _ _ _ _ _ _ _ _ HB _ _ LE LF HN) as HTb.
  edestruct (C38_defined (exact gwit) rhypot isort (fun _ => 0) (fun _ => 0%nat) (1 / 10) 4 2 ((1 + 1) * (1 + 1)) 2 (qmask_table 1 (e_masks el)) (e_x el) (e_y el) qE2E qE2F qEToV qVert bcType []) as (m & Em).
  - exact Rltb_strict_weak.
  - exact isort_is_sort.
  - cbn. unfold Rltb. destruct (Rlt_dec _ _) as [|Hx]; [reflexivity|]. exfalso. apply Hx. lra.
  - lia.
  - cbn. lia.
  - exact HTb.
  - exists el, m. constructor; [exact HB|exact quad_mesh_witness|exact HX|exact HS|exact Em|cbn; lia].
Qed.
Example C103_witness : let bcType := [3; 0; 0; 0; 0; 0; 0; 0]%Z in exists el m, let Np := ((1 + 1) * (1 + 1))%nat in
  ins_grid gwit solve4 inverse4 junk0 0 eig0 (1 / 10) isort (fun _ => 0) (fun _ => 0%nat) 1 2 qVert qEToV qE2E qE2F bcType el m /\
  (exists k f, (k < 2)%nat /\ (f < 4)%nat /\ nth (4 * k + f) bcType 0%Z = 3%Z) /\
  (let q := (mkmat Np 2 (fun _ _ => 1), mkmat Np 2 (fun _ _ => 0), mkmat Np 2 (fun _ _ => 0)) in state_conform q Np 2 = true /\ at_rest Np 2 1 q /\ wet Np 2 q) /\
  (exists fuel s, quads_loop (exact gwit) fuel (mkmat Np Np (fun _ _ => 1)) (mkmat Np 2 (fun _ _ => 10)) (quads_rhs (exact gwit) (tables_of el m) 4 2 Np 2 (981 / 100)) 1000 (1 / 2) 3
    (Quads 0 0%Z (mkmat Np 2 (fun _ _ => 1), mkmat Np 2 (fun _ _ => 0), mkmat Np 2 (fun _ _ => 0)) []) = Ok s /\ at_rest Np 2 1 (qd_q s)) /\
  let q := (mkmat Np 2 (fun _ _ => 1), mkmat Np 2 (fun i k => ment (e_x el) i k), mkmat Np 2 (fun i k => ment (e_y el) i k)) in
  state_conform q Np 2 = true /\ wet Np 2 q /\ continuous_field Np 2 (e_x el) (e_y el) q /\
  exists z, quads_rhs (exact gwit) (tables_of el m) 4 2 Np 2 (981 / 100) q = Ok z /\ forall i, (i < Np)%nat -> ment (fieldc 0 z) i 1 = -2.
Proof.
  destruct (quad_grid_w [3; 0; 0; 0; 0; 0; 0; 0]%Z ltac:(cbn; lia)) as (el & m & HG). cbv zeta. exists el, m. split; [exact HG|].
  assert (Ht : exists k f, (k < 2)%nat /\ (f < 4)%nat /\ nth (4 * k + f) [3; 0; 0; 0; 0; 0; 0; 0]%Z 0%Z = 3%Z) by (exists 0%nat, 0%nat; cbn; repeat split; lia).
  split; [exact Ht|]. split.
  { split; [reflexivity|]. split; [intros i k _ _; reflexivity|]. intros i k _ _. cbn. lra. }
  split.
  { eapply C103_rest_run; [exact HG|exact Ht|lia|lra|split; reflexivity|reflexivity|lra|rewrite Rabs_R1; lra|intros i k _ _; reflexivity]. }
  set (q := (mkmat ((1 + 1) * (1 + 1)) 2 (fun _ _ => 1), mkmat ((1 + 1) * (1 + 1)) 2 (fun i k => ment (e_x el) i k), mkmat ((1 + 1) * (1 + 1)) 2 (fun i k => ment (e_y el) i k))).
  assert (Cq : state_conform q ((1 + 1) * (1 + 1)) 2 = true) by reflexivity.
  assert (Wq : wet ((1 + 1) * (1 + 1)) 2 q) by (intros i k _ _; cbn; lra).
  assert (Hc : continuous_field ((1 + 1) * (1 + 1)) 2 (e_x el) (e_y el) q).
  { intros i k i2 k2 _ _ _ _ He. unfold at_node, q. cbn [fieldc fst snd ment]. injection He as H1 H2. rewrite H1, H2. reflexivity. }
  split; [exact Cq|]. split; [exact Wq|]. split; [exact Hc|].
  destruct (C103_consistent _ _ _ _ _ _ _ _ _ _ _ _ _ _ _ _ _ _ _ HG Ht (981 / 100) q Cq Wq Hc) as (z & Ez & Hz). exists z. split; [exact Ez|]. intros i Hi.
  destruct (Hz 1%nat 0%nat [(1%nat, 0%nat, 1)] [(0%nat, 1%nat, 1)] ltac:(lia) ltac:(lia)) with (i := i) as (Px & Qy & DP & DQ & ->).
  - intros f Hf. destruct f as [|[|[|[|]]]]; try lia; cbn; discriminate.
  - apply Forall_cons; [cbn; lia|apply Forall_nil].
  - apply Forall_cons; [cbn; lia|apply Forall_nil].
  - intros j Hj. unfold q, at_node, flux_x. cbn [fieldc fst snd ment part eval2 pow]. ring.
  - intros j Hj. unfold q, at_node, flux_y. cbn [fieldc fst snd ment part eval2 pow]. ring.
  - exact Hi.
  - pose proof (uniqueness_limite _ _ _ _ DP (ddr_ok [(1%nat, 0%nat, 1)] (ment (e_x el) i 1) (ment (e_y el) i 1))) as ->. pose proof (uniqueness_limite _ _ _ _ DQ (dds_ok [(0%nat, 1%nat, 1)] (ment (e_x el) i 1) (ment (e_y el) i 1))) as ->. cbn. ring.
Qed.
Example C103_witness_nan : let q := (mkmat 1 1 (fun _ _ => S754_nan), mkmat 1 1 (fun _ _ => S754_nan), mkmat 1 1 (fun _ _ => S754_nan)) in
  let D := dbl_arith (fun x _ => x) (fun x => x) in
  quads_step D (mkmat 1 1 (fun _ _ => fofn D 1)) (fun q => Ok q) (fofn D 1) q <> Throw /\ quads_turn D (mkmat 1 1 (fun _ _ => fofn D 1)) (mkmat 1 1 (fun _ _ => fofn D 10)) (fun q => Ok q) (fofn D 100) (fofn D 1) (Quads (fofn D 0) 0%Z q []) = Throw.
Proof. cbv zeta. split; [intro H; vm_compute in H; discriminate H|vm_compute; reflexivity]. Qed.

Print Assumptions C103_runs.
Print Assumptions C103_scheme.
Print Assumptions C103_consistent.
Print Assumptions C103_midpoint.
Print Assumptions C103_rest.
Print Assumptions C103_rest_run.
Print Assumptions C103_run.
Print Assumptions C103_last_state_lost_refuted.
Print Assumptions C103_nan_caught.
