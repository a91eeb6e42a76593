(* SwStepProps.v - theorems about the time loops of src/sw2d-simple and src/sw2d (C78), in exact arithmetic except where
   IEEE doubles are named. *)
From Coq Require Import ZArith List Lia Bool Arith SpecFloat.
From Verif Require Import Base Loops Num JacobiSpec JacobiQuadProofs Nodes1DModel DenseModel DenseSpec MeshSpec TriModel TriSpec TriGeoSpec TriSetup TriProofs TriLiftProofs TriOpProofs TriElemProofs TriProps Maps2DModel Maps2DProps TriMapsProofs TriMapsProps TriDGSpec TriDGProofs
  RKModel Line1DModel Line1DProofs SwModel SwSpec SwSchemeProofs SwRunProofs SwProps SwStepModel SwStepSpec SwStepProofs SwVolProofs SwDtProofs JacobiExactProofs TriWitness Maps2DProofs UniqueProofs.
From Coq Require Import Reals Lra.
Import ListNotations.
Local Open Scope R_scope.

(* ---------- the filter statement ---------- *)
(* C78: what `R = sum(F(ii,kk)*R(kk,jj), kk)` computes: row i of the result uses the rows of the result above i and the
   rows of the argument from i on. *)
Theorem C78_filter_in_place G n K (F X : mat R) : shape F n n -> shape X n K -> let Y := filter_in_place (exact G) F X in
  shape Y n K /\ forall i j, (i < n)%nat -> (j < K)%nat -> ment Y i j = sumn n (fun k => ment F i k * (if (k <? i)%nat then ment Y k j else ment X k j)).
Proof.
  intros (_ & Fc) (Xr & Xc). destruct (in_place_ok G F X) as (Yr & Yc & H). cbv zeta. rewrite Fc, Xr, Xc in *. split; [split; assumption|exact H].
Qed.

Lemma sumn_below n i (g : nat -> R) : (i <= n)%nat -> sumn n (fun k => if (k <? i)%nat then g k else 0) = sumn i g.
Proof.
  intro H. induction n as [|n IH].
  - assert (i = 0%nat) as -> by lia. reflexivity.
  - rewrite sumn_S. destruct (Nat.eq_dec i (S n)) as [-> |].
    + rewrite sumn_S. rewrite (sumn_ext n _ g) by (intros k Hk; destruct (Nat.ltb_spec k (S n)); [reflexivity|lia]). destruct (Nat.ltb_spec n (S n)); [reflexivity|lia].
    + rewrite IH by lia. destruct (Nat.ltb_spec n i); [lia|ring].
Qed.

(* C78: it is the matrix product F X for every X exactly when the rows of F satisfy a condition. *)
Theorem C78_filter_product_iff G n K (F : mat R) : shape F n n -> (0 < K)%nat ->
  (forall X, shape X n K -> filtered n K F X (filter_in_place (exact G) F X)) <->
  (forall i l, (i < n)%nat -> (l < n)%nat -> sumn i (fun k => ment F i k * (ment F k l - delta k l)) = 0).
Proof.
  intros HF HK. split.
  - intros H i l Hi Hl. set (X := mkmat n K (fun a _ => delta a l)). assert (SX : shape X n K) by (split; reflexivity).
    destruct (C78_filter_in_place G n K F X HF SX) as (_ & HY). specialize (H X SX). set (Y := filter_in_place (exact G) F X) in *.
    assert (EY : forall k, (k < n)%nat -> ment Y k 0 = ment F k l) by (intros k Hk; rewrite H by assumption; apply (sumn_delta' n l (fun m => ment F k m) Hl)).
    pose proof (HY i 0%nat Hi HK) as E. rewrite (H i 0%nat Hi HK) in E.
    rewrite <- (sumn_below n i) by lia.
    transitivity (sumn n (fun k => ment F i k * (if (k <? i)%nat then ment Y k 0 else ment X k 0)) - sumn n (fun k => ment F i k * ment X k 0)); [|rewrite E; ring].
    replace (sumn n (fun k => ment F i k * (if (k <? i)%nat then ment Y k 0 else ment X k 0)) - sumn n (fun k => ment F i k * ment X k 0))
      with (sumn n (fun k => ment F i k * (if (k <? i)%nat then ment Y k 0 else ment X k 0)) + (-1) * sumn n (fun k => ment F i k * ment X k 0)) by ring.
    rewrite <- sumn_scal, <- sumn_plus. apply sumn_ext. intros k Hk. destruct (k <? i)%nat; [rewrite EY by exact Hk; unfold X; cbn [ment]; ring|ring].
  - intros H X SX. destruct (C78_filter_in_place G n K F X HF SX) as (_ & HY). set (Y := filter_in_place (exact G) F X) in *.
    intros i. induction i as [i IH] using lt_wf_ind. intros j Hi Hj. rewrite HY by assumption.
    rewrite (sumn_ext n _ (fun k => ment F i k * ment X k j + (if (k <? i)%nat then ment F i k * (sumn n (fun l => (ment F k l - delta k l) * ment X l j)) else 0))).
    2:{ intros k Hk. destruct (Nat.ltb_spec k i) as [Hlt|]; [|ring]. rewrite IH by lia.
        replace (sumn n (fun l => (ment F k l - delta k l) * ment X l j)) with (sumn n (fun l => ment F k l * ment X l j) - ment X k j); [ring|].
        rewrite <- (sumn_delta n k (fun l => ment X l j) Hk). rewrite (sumn_ext n (fun l => (ment F k l - delta k l) * ment X l j) (fun l => ment F k l * ment X l j + (-1) * (delta k l * ment X l j))) by (intros; ring).
        rewrite sumn_plus, sumn_scal. ring. }
    rewrite sumn_plus, (sumn_below n i (fun k => ment F i k * sumn n (fun l => (ment F k l - delta k l) * ment X l j))) by lia.
    rewrite (sumn_ext i _ (fun k => sumn n (fun l => (ment F i k * (ment F k l - delta k l)) * ment X l j))) by (intros; rewrite <- sumn_scal; apply sumn_ext; intros; ring).
    rewrite (sumn_swap i n). rewrite (sumn_ext n (fun l => sumn i _) (fun _ => 0)); [replace (sumn n (fun _ => 0)) with 0 by (symmetry; apply sumn_zero; reflexivity); ring|].
    intros l Hl. rewrite <- (Rmult_0_l (ment X l j)), <- (H i l Hi Hl), (Rmult_comm (sumn _ _)), <- sumn_scal. apply sumn_ext. intros. ring.
Qed.

Section C78.
Context (G : R -> R) (solve : mat R -> mat R -> mat R -> outcome (mat R)) (inverse : mat R -> mat R -> outcome (mat R))
  (junk : nat -> nat -> R) (eps : R) (eig : nat -> (nat -> nat -> R) -> list R * (nat -> nat -> R)) (tol : R)
  (sort : (nat -> nat -> bool) -> list nat -> list nat) (junk1 : nat -> R) (junkn : nat -> nat)
  (N K : nat) (Vert : list R) (EToV E2E E2F : list nat) (bcType : list Z) (el : element (T := R)) (m : maps).
Variables (jk : nat -> nat -> R) (jv : nat -> R) (lowest : R).     (* uninitialised storage; the start of a maximum *)
Local Notation Built := (built G solve inverse junk eps eig tol N K Vert EToV el).
Local Notation Grid := (sw_grid G solve inverse junk eps eig tol sort junk1 junkn N K Vert EToV E2E E2F bcType el m).
Local Notation Np := (length (e_r el)).
Local Notation P := (TriGeoSpec.corner Vert EToV).
Local Notation alone k f := (forall k2 f2, (f2 < 3)%nat -> ~ joined EToV k f k2 f2).
Local Notation simple g := (sw_simple_rhs (exact G) jk jv lowest (tables_of el m) 3 (S N) Np K g).
Local Notation volume := (volume_is N Np K Vert EToV (e_x el) (e_y el)).
Local Notation positive_areas := (forall k, (k < K)%nat -> 0 < area (P k 0) (P k 1) (P k 2)).
Local Notation filter_is epsf Nc sp F := (buildFilter (exact G) pow exp ln epsf N (e_V el) (e_Vinv el) Nc sp = Ok F).

(* C78: every depth has one volume; applied as a matrix product, the filter (any positive cutoff) does not change it. *)
Theorem C78_product_filter_keeps_volume : Built -> positive_areas ->
  forall epsf Nc sp F, 0 < Nc -> filter_is epsf Nc sp F ->
  forall X Y, filtered Np K F X Y -> exists v, volume X v /\ volume Y v /\ (forall w, volume X w -> w = v) /\ (forall w, volume Y w -> w = v).
Proof.
  intros HB HA epsf Nc sp F Hn EF X Y HF. exists (vol_of G N K Vert EToV el X).
  assert (E : vol_of G N K Vert EToV el Y = vol_of G N K Vert EToV el X) by (eapply filtered_volume; eassumption).
  pose proof (fun h v => vol_iff G solve inverse junk eps eig tol N K Vert EToV el HB HA h v) as V.
  split; [apply V; reflexivity|]. split; [apply V; symmetry; exact E|]. split; intros w Hw; apply V in Hw; congruence.
Qed.

(* ---------- volume through a run ---------- *)
Lemma tag_dec t : (exists k f, (k < K)%nat /\ (f < 3)%nat /\ tag_of bcType k f = t) \/ (forall k f, (k < K)%nat -> (f < 3)%nat -> tag_of bcType k f <> t).
Proof.
  clear. assert (H : forall n, (exists k f, (k < n)%nat /\ (f < 3)%nat /\ tag_of bcType k f = t) \/ (forall k f, (k < n)%nat -> (f < 3)%nat -> tag_of bcType k f <> t)); [|apply H].
  induction n as [|n [(k & f & Hk & H)|IH]]; [right; intros; lia|left; exists k, f; split; [lia|exact H]|].
  destruct (Z.eq_dec (tag_of bcType n 0) t) as [E|E0]; [left; exists n, 0%nat; repeat split; auto; lia|].
  destruct (Z.eq_dec (tag_of bcType n 1) t) as [E|E1]; [left; exists n, 1%nat; repeat split; auto; lia|].
  destruct (Z.eq_dec (tag_of bcType n 2) t) as [E|E2]; [left; exists n, 2%nat; repeat split; auto; lia|].
  right. intros k f Hk Hf. destruct (Nat.eq_dec k n) as [-> |]; [|apply IH; lia]. destruct f as [|[|[|]]]; try lia; assumption.
Qed.
Lemma advance_conform c q z : state_conform q Np K = true -> state_conform (advance_state (exact G) c q z) Np K = true.
Proof. destruct q as [[h hu] hv], z as [[a b] e]. intro H. exact H. Qed.
Lemma filter_conform F z : state_conform z Np K = true -> state_conform (filter_state (exact G) F z) Np K = true.
Proof.
  destruct z as [[a b] c]. unfold state_conform, filter_state, conform. destruct (in_place_ok G F a) as (A1 & A2 & _). destruct (in_place_ok G F b) as (B1 & B2 & _). destruct (in_place_ok G F c) as (C1 & C2 & _).
  rewrite A1, A2, B1, B2, C1, C2. trivial.
Qed.
Lemma rhs_volume : Grid -> lowest <= 0 -> (forall k f, (k < K)%nat -> (f < 3)%nat -> tag_of bcType k f = 3%Z <-> alone k f) ->
  forall g q z, state_conform q Np K = true -> simple g q = Ok z -> state_conform z Np K = true /\ vol_of G N K Vert EToV el (fieldc 0 z) = 0.
Proof.
  intros HG Hlow Hcl g q z HQ Ez. destruct (tag_dec 3%Z) as [Ht|Ht].
  - destruct (C49_simple_scheme G solve inverse junk eps eig tol sort junk1 junkn N K Vert EToV E2E E2F bcType el m jk jv lowest HG Hlow (fun k f Hk Hf => proj1 (Hcl k f Hk Hf)) Ht g q HQ) as (z' & Ez' & Cz & _). assert (z' = z) by congruence. subst z'. split; [exact Cz|].
    destruct HG as [HB HM HA HS Hrun Hbc] eqn:EG. destruct (proj2 (vol_iff _ _ _ _ _ _ _ _ _ _ _ _ HB HA (fieldc 0 z) _) eq_refl) as (Z & w & HZ & Ew). rewrite Ew.
    eapply (C49_mass_conserved G solve inverse junk eps eig tol sort junk1 junkn N K Vert EToV E2E E2F bcType el m jk jv lowest HG Hlow Hcl g q z HQ Ez Z w). subst HG. exact HZ.
  - rewrite (C49_simple_no_wall_throws G solve inverse junk eps eig tol sort junk1 junkn N K Vert EToV E2E E2F bcType el m jk jv lowest HG Ht g q HQ) in Ez. discriminate Ez.
Qed.

(* C78: on a closed basin (the boundary faces, and no others, are walls), with a filter whose cutoff lies above the order,
   a step of src/sw2d-simple keeps the volume of water; so does a whole run. *)
Theorem C78_step_keeps_volume : Grid -> lowest <= 0 ->
  (forall k f, (k < K)%nat -> (f < 3)%nat -> tag_of bcType k f = 3%Z <-> alone k f) ->
  forall epsf Nc sp F, 0 < epsf <= 1 -> INR N < Nc -> filter_is epsf Nc sp F ->
  forall g dt q q', state_conform q Np K = true -> simple_step (exact G) F (simple g) dt q = Ok q' ->
  state_conform q' Np K = true /\ forall v, volume (fieldc 0 q) v -> volume (fieldc 0 q') v.
Proof.
  intros HG Hlow Hcl epsf Nc sp F He Hn EF g dt q q' HQ Es. pose proof (sg_built _ _ _ _ _ _ _ _ _ _ _ _ _ _ _ _ _ _ _ HG) as HB. pose proof (sg_area _ _ _ _ _ _ _ _ _ _ _ _ _ _ _ _ _ _ _ HG) as HA.
  destruct (C41_filter _ _ _ _ _ _ _ _ _ _ _ _ HB epsf Nc sp He ltac:(lra)) as (F' & EF' & (SF1 & SF2) & _ & _ & _ & _ & HI). assert (F' = F) by congruence. subst F'. specialize (HI Hn).
  assert (Hv : forall z, state_conform z Np K = true -> vol_of G N K Vert EToV el (fieldc 0 (filter_state (exact G) F z)) = vol_of G N K Vert EToV el (fieldc 0 z)).
  { intros z Cz. apply vol_ext. intros i k Hi Hk. destruct z as [[a b] c]. unfold state_conform, conform in Cz. rewrite !andb_true_iff, !Nat.eqb_eq in Cz. cbn [filter_state fieldc fst snd]. apply (in_place_id G F a Np); try tauto. destruct Cz as (((_ & ->) & _) & _). exact Hk. }
  unfold simple_step in Es. destruct (simple g q) as [z| |] eqn:Ez; [|discriminate Es|discriminate Es]. cbn [bind] in Es.
  set (q1 := advance_state (exact G) (fmul (exact G) (fhalf (exact G)) dt) q (filter_state (exact G) F z)) in *.
  assert (C1 : state_conform q1 Np K = true) by apply advance_conform, HQ.
  destruct (simple g q1) as [z1| |] eqn:Ez1; [|discriminate Es|discriminate Es]. cbn [bind] in Es. injection Es as <-.
  destruct (rhs_volume HG Hlow Hcl g q1 z1 C1 Ez1) as (Cz1 & V1).
  split; [apply advance_conform, HQ|]. intros v Hv0. apply (vol_iff _ _ _ _ _ _ _ _ _ _ _ _ HB HA) in Hv0. apply (vol_iff _ _ _ _ _ _ _ _ _ _ _ _ HB HA). rewrite Hv0.
  pose proof (Hv z1 Cz1) as E. rewrite V1 in E. destruct q as [[h hu] hv], (filter_state (exact G) F z1) as [[a b] c]. cbn [advance_state fieldc fst snd] in *.
  rewrite vol_advance, E. ring.
Qed.

Theorem C78_run_keeps_volume : Grid -> lowest <= 0 ->
  (forall k f, (k < K)%nat -> (f < 3)%nat -> tag_of bcType k f = 3%Z <-> alone k f) ->
  forall epsf Nc sp F, 0 < epsf <= 1 -> INR N < Nc -> filter_is epsf Nc sp F ->
  forall fuel g CFL huge finalTime H s s', state_conform (w_q s) Np K = true ->
  simple_loop (exact G) jv lowest fuel (tables_of el m) N 3 (S N) Np K g CFL huge finalTime H F (simple g) s = Ok s' ->
  forall v, volume (fieldc 0 (w_q s)) v -> volume (fieldc 0 (w_q s')) v.
Proof.
  intros HG Hlow Hcl epsf Nc sp F He Hn EF fuel. induction fuel as [|fuel IH]; intros g CFL huge finalTime H s s' HQ Es v Hv; [discriminate Es|].
  cbn [simple_loop] in Es. destruct (flt (exact G) (w_t s) finalTime); [|injection Es as <-; exact Hv].
  destruct (simple_sim_step _ _ _ _ _ _ _ _ _ _ _ _ _ _ _ s) as [s1| |] eqn:E1; [|discriminate Es|discriminate Es]. cbn [bind] in Es.
  unfold simple_sim_step in E1. destruct (w_q s) as [[h hu] hv] eqn:Eq. destruct (simple_step _ F _ (w_dt s) (h, hu, hv)) as [q'| |] eqn:E2; [|discriminate E1|discriminate E1]. cbn [bind] in E1.
  destruct (C78_step_keeps_volume HG Hlow Hcl epsf Nc sp F He Hn EF g _ _ _ HQ E2) as (C' & V').
  destruct q' as [[h' hu'] hv']. destruct (unstable _ _ _ _); [discriminate E1|]. destruct (simple_dt _ _ _ _ _ _ _ _ _ _ _ _ _ _) as [dt'| |]; [|discriminate E1|discriminate E1]. cbn [bind] in E1. injection E1 as <-.
  eapply (IH g CFL huge finalTime H _ s'); [|exact Es|]; cbn [w_q]; [exact C'|apply V', Hv].
Qed.

(* ---------- the time step ---------- *)
(* C78: both drivers choose the largest time step that satisfies the CFL condition at every node of every side. *)
Theorem C78_time_step : Grid -> lowest <= 0 -> forall g CFL q, 0 < CFL -> state_conform q Np K = true ->
  (exists v, crossing_rate Np K Vert EToV (e_x el) (e_y el) g q v /\ 0 < v) ->
  (let '(h, hu, hv) := q in exists dt, simple_dt (exact G) jv lowest (tables_of el m) N 3 (S N) Np K g CFL h (mzip (fdiv (exact G)) hu h) (mzip (fdiv (exact G)) hv h) = Ok dt /\
     largest_step N Np K Vert EToV (e_x el) (e_y el) g q CFL dt) /\
  exists dt, full_dt (exact G) jv lowest (tables_of el m) N 3 (S N) Np K g CFL q = Ok dt /\ largest_step N Np K Vert EToV (e_x el) (e_y el) g q CFL dt.
Proof.
  intros [HB HM HA HS Hrun Hbc] Hlow g CFL q HC HQ Hex. split.
  - pose proof (simple_dt_ok G solve inverse junk eps eig tol N K Vert EToV el HB E2E E2F HM HA HS sort junk1 junkn bcType m Hrun jv lowest g CFL q Hlow HC HQ Hex) as H. destruct q as [[h hu] hv]. exact H.
  - exact (full_dt_ok G solve inverse junk eps eig tol N K Vert EToV el HB E2E E2F HM HA HS sort junk1 junkn bcType m Hrun jv lowest g CFL q Hlow HC HQ Hex).
Qed.
End C78.

(* C78, what fails: with the filter of the shipped driver (order one, any cutoff below one, any strength) the statement is
   not the matrix product, and it changes the volume: a field without volume gets one. *)
Theorem C78_driver_filter_refuted G solve inverse junk eps eig tol K Vert EToV el : built G solve inverse junk eps eig tol 1 K Vert EToV el ->
  (0 < K)%nat -> (forall k, (k < K)%nat -> 0 < area (TriGeoSpec.corner Vert EToV k 0) (TriGeoSpec.corner Vert EToV k 1) (TriGeoSpec.corner Vert EToV k 2)) ->
  forall epsf Nc sp, 0 < epsf < 1 -> 0 < Nc < 1 ->
  exists F X v w, buildFilter (exact G) pow exp ln epsf 1 (e_V el) (e_Vinv el) Nc sp = Ok F /\ shape X (length (e_r el)) K /\
    let Y := filter_in_place (exact G) F X in let volume := volume_is 1 (length (e_r el)) K Vert EToV (e_x el) (e_y el) in
    volume X v /\ volume Y w /\ v = 0 /\ w < 0 /\ ~ filtered (length (e_r el)) K F X Y.
Proof.
  intros HB HK HA epsf Nc sp He Hn. destruct (filter1 G solve inverse junk eps eig tol K Vert EToV el HB epsf Nc sp ltac:(lra) Hn) as (F & EF & SF & HF).
  destruct (corner_sum G solve inverse junk eps eig tol K Vert EToV el HB (fun _ _ => 0)) as (L3 & _).
  assert (W : forall i, (i < 3)%nat -> wt G 1 el i = 2 / 3).
  { intros i Hi. destruct (nodal_poly _ _ _ _ _ _ _ _ _ _ _ _ HB (fun j => delta j i)) as (p & Dp & Hp). rewrite L3 in Hp.
    pose proof (nodal_int _ _ _ _ _ _ _ _ _ _ _ _ HB p Dp) as I1. rewrite L3 in I1. rewrite (sumn_ext 3 _ (fun j => wt G 1 el j * delta j i)) in I1 by (intros j Hj; rewrite Hp by exact Hj; reflexivity).
    rewrite (sumn_delta' 3 i (wt G 1 el) Hi) in I1.
    destruct (linear_form p Dp) as (c & a & b & Hl). assert (I2 : triangle_integral (eval2 p) (2 * c - 2 / 3 * a - 2 / 3 * b)) by (eapply tint_ext; [intros x y; symmetry; apply Hl|apply linear_integral]).
    rewrite (tint_unique _ _ _ I1 I2). destruct (corner_sum G solve inverse junk eps eig tol K Vert EToV el HB (eval2 p)) as (_ & Es). rewrite !Hl in Es.
    rewrite (sumn_ext 3 _ (fun j => 1 * delta j i)) in Es by (intros j Hj; rewrite Hp by exact Hj; ring). rewrite (sumn_delta' 3 i (fun _ => 1) Hi) in Es. lra. }
  set (X := mkmat 3 K (fun i k => if (k =? 0)%nat then match i with O => 1 | S O => -1 | _ => 0 end else 0)).
  assert (SX : shape X 3 K) by (split; reflexivity).
  assert (SF' : shape F 3 3) by exact SF. destruct (C78_filter_in_place G 3 K F X SF' SX) as (SY & HY). set (Y := filter_in_place (exact G) F X) in *.
  assert (D : forall i j, delta i j = if (i =? j)%nat then 1 else 0) by reflexivity.
  set (e := epsf) in *. set (c := (1 - e) / 3) in *.
  assert (Y0 : forall j, (j < K)%nat -> ment Y 0 j = if (j =? 0)%nat then e else 0).
  { intros j Hj. rewrite HY by lia. rewrite sum3, !HF by lia. rewrite !D. cbn [Nat.ltb Nat.leb Nat.eqb X ment]. destruct (j =? 0)%nat; ring. }
  assert (Y1 : forall j, (j < K)%nat -> ment Y 1 j = if (j =? 0)%nat then c * e - (e + c) else 0).
  { intros j Hj. rewrite HY by lia. rewrite sum3, !HF by lia. rewrite !D. cbn [Nat.ltb Nat.leb Nat.eqb]. rewrite Y0 by exact Hj. cbn [X ment]. destruct (j =? 0)%nat; ring. }
  assert (Y2 : forall j, (j < K)%nat -> ment Y 2 j = if (j =? 0)%nat then c * e + c * (c * e - (e + c)) else 0).
  { intros j Hj. rewrite HY by lia. rewrite sum3, !HF by lia. rewrite !D. cbn [Nat.ltb Nat.leb Nat.eqb]. rewrite Y0, Y1 by exact Hj. cbn [X ment]. destruct (j =? 0)%nat; ring. }
  set (a0 := area (TriGeoSpec.corner Vert EToV 0 0) (TriGeoSpec.corner Vert EToV 0 1) (TriGeoSpec.corner Vert EToV 0 2)).
  assert (HV : forall M t, (forall j, (j < K)%nat -> ment M 0 j + ment M 1 j + ment M 2 j = if (j =? 0)%nat then t else 0) -> vol_of G 1 K Vert EToV el M = a0 / 3 * t).
  { intros M t HM. unfold vol_of. rewrite L3. rewrite (sumn_ext K _ (fun k => delta 0 k * (area (TriGeoSpec.corner Vert EToV k 0) (TriGeoSpec.corner Vert EToV k 1) (TriGeoSpec.corner Vert EToV k 2) / 3 * t))).
    - rewrite (sumn_delta K 0 (fun k => area (TriGeoSpec.corner Vert EToV k 0) (TriGeoSpec.corner Vert EToV k 1) (TriGeoSpec.corner Vert EToV k 2) / 3 * t) HK). reflexivity.
    - intros k Hk. rewrite sum3, !W by lia. replace (2 / 3 * ment M 0 k + 2 / 3 * ment M 1 k + 2 / 3 * ment M 2 k) with (2 / 3 * (ment M 0 k + ment M 1 k + ment M 2 k)) by ring. rewrite HM by exact Hk.
      rewrite D, (Nat.eqb_sym k 0). destruct (0 =? k)%nat; field. }
  assert (VX : vol_of G 1 K Vert EToV el X = a0 / 3 * 0) by (apply HV; intros j Hj; cbn [X ment]; destruct (j =? 0)%nat; ring).
  assert (VY : vol_of G 1 K Vert EToV el Y = a0 / 3 * (- (c * (1 - e) * (1 + c)))) by (apply HV; intros j Hj; rewrite Y0, Y1, Y2 by exact Hj; destruct (j =? 0)%nat; [unfold c; field|ring]).
  assert (Ha : 0 < a0) by (apply HA; lia). assert (Hc : 0 < c) by (unfold c; lra).
  assert (Hw : a0 / 3 * (- (c * (1 - e) * (1 + c))) < 0).
  { assert (0 < c * (1 - e) * (1 + c)) by (apply Rmult_lt_0_compat; [apply Rmult_lt_0_compat|]; lra). assert (0 < a0 / 3 * (c * (1 - e) * (1 + c))) by (apply Rmult_lt_0_compat; lra). lra. }
  exists F, X, (vol_of G 1 K Vert EToV el X), (vol_of G 1 K Vert EToV el Y). split; [exact EF|]. split; [rewrite L3; exact SX|]. cbv zeta.
  split; [eapply vol_iff; eauto|]. split; [eapply vol_iff; eauto|]. split; [rewrite VX; ring|]. split; [rewrite VY; exact Hw|].
  intro HFl. pose proof (filtered_volume _ _ _ _ _ _ _ _ _ _ _ _ HB epsf Nc sp F X Y ltac:(lra) EF HFl) as E. rewrite VX, VY in E. lra.
Qed.

(* ---------- accuracy of the two time integrators ---------- *)
(* C78: for a rate of change that is linear, one step of the simple driver (without filtering) is the Taylor polynomial of
   degree two of the exact solution: q + dt L q + dt^2/2 L L q. So would be one step of the full driver (without a sponge), if its
   two sets of fields had storage of their own, which they do not: see C109. *)
Theorem C78_second_order G Np K (rhs : field -> outcome field) dt q z z2 :
  (forall a b c w ra rb, state_conform w Np K = true -> sum_of Np K c a b w -> rhs a = Ok ra -> rhs b = Ok rb -> exists r, rhs w = Ok r /\ state_conform r Np K = true /\ sum_of Np K c ra rb r) ->
  state_conform q Np K = true -> state_conform z Np K = true -> rhs q = Ok z -> rhs z = Ok z2 ->
  let taylor q' := forall c i k, (c < 3)%nat -> (i < Np)%nat -> (k < K)%nat ->
    ment (fieldc c q') i k = ment (fieldc c q) i k + dt * ment (fieldc c z) i k + dt ^ 2 / 2 * ment (fieldc c z2) i k in
  (forall F, shape F Np Np -> (forall i j, (i < Np)%nat -> (j < Np)%nat -> ment F i j = delta i j) -> exists q', simple_step (exact G) F rhs dt q = Ok q' /\ taylor q') /\
  (forall S, (forall i k, (i < Np)%nat -> (k < K)%nat -> ment S i k = 0) -> shape S Np K -> exists q', two_stage (exact G) true S rhs dt q = Ok q' /\ taylor q').
Proof.
  intros HL HQ HZ Eq Ez. cbv zeta.
  assert (HI : forall F y, shape F Np Np -> (forall i j, (i < Np)%nat -> (j < Np)%nat -> ment F i j = delta i j) -> state_conform y Np K = true -> forall c i k, (c < 3)%nat -> (i < Np)%nat -> (k < K)%nat -> ment (fieldc c (filter_state (exact G) F y)) i k = ment (fieldc c y) i k).
  { intros F y (_ & Fc) HF Cy c i k Hc Hi Hk. destruct y as [[a b] e]. unfold state_conform, conform in Cy. rewrite !andb_true_iff, !Nat.eqb_eq in Cy. destruct Cy as (((A1 & A2) & (B1 & B2)) & (C1 & C2)).
    destruct c as [|[|[|]]]; [| | |lia]; cbn [filter_state fieldc fst snd]; apply (in_place_id G F _ Np Fc); auto; lia. }
  split.
  - intros F SF HF. unfold simple_step. rewrite Eq. cbn [bind]. set (q1 := advance_state (exact G) _ q _).
    destruct (HL q z (dt / 2) q1 z z2) as (r & Er & Cr & Hr); auto.
    { destruct q as [[h hu] hv], z as [[a b] e]. exact HQ. }
    { intros c i k Hc Hi Hk. rewrite <- (HI F z SF HF HZ c i k Hc Hi Hk). unfold q1. destruct q as [[h hu] hv], (filter_state (exact G) F z) as [[a b] e]. destruct c as [|[|[|]]]; [| | |lia]; cbn [advance_state fieldc fst snd advance mzip ment]; rewrite fhalf_exact; cbn [exact fadd fmul]; field. }
    rewrite Er. cbn [bind]. eexists. split; [reflexivity|]. intros c i k Hc Hi Hk. pose proof (Hr c i k Hc Hi Hk) as H1. rewrite <- (HI F r SF HF Cr c i k Hc Hi Hk) in H1.
    set (y := filter_state (exact G) F r) in *. clearbody y. transitivity (ment (fieldc c q) i k + dt * ment (fieldc c y) i k).
    + destruct q as [[h hu] hv], y as [[a b] e]. destruct c as [|[|[|]]]; [| | |lia]; reflexivity.
    + rewrite H1. field.
  - intros S0 HS SS. assert (HP : forall c y i k, (c < 3)%nat -> (i < Np)%nat -> (k < K)%nat -> ment (fieldc c (sponge_state (exact G) S0 y)) i k = ment (fieldc c y) i k).
    { intros c y i k Hc Hi Hk. destruct y as [[a b] e]. destruct c as [|[|[|]]]; [| | |lia]; cbn [sponge_state fieldc fst snd mzip ment]; [reflexivity| |]; unfold sponged; cbn [exact fdiv fadd fmul]; rewrite HS by assumption; rewrite JacobiProofs.fofn_INR; cbn [INR]; field. }
    unfold two_stage. rewrite Eq. cbn [bind]. set (q1 := sponge_state (exact G) S0 _).
    assert (Hq1 : forall c i k, (c < 3)%nat -> (i < Np)%nat -> (k < K)%nat -> ment (fieldc c q1) i k = ment (fieldc c q) i k + dt * ment (fieldc c z) i k).
    { intros c i k Hc Hi Hk. unfold q1. rewrite HP by assumption. destruct q as [[h hu] hv], z as [[a b] e]. destruct c as [|[|[|]]]; [| | |lia]; reflexivity. }
    destruct (HL q z dt q1 z z2) as (r & Er & Cr & Hr); auto.
    { unfold q1. destruct q as [[h hu] hv], z as [[a b] e]. unfold state_conform, conform in *. cbn [advance_state sponge_state mzip mrows mcols advance] in *. destruct SS as (-> & ->). rewrite !Nat.eqb_refl. rewrite !andb_true_iff in *. tauto. }
    rewrite Er. cbn [bind]. eexists. split; [reflexivity|]. intros c i k Hc Hi Hk. rewrite HP by assumption.
    pose proof (Hr c i k Hc Hi Hk) as H1. pose proof (Hq1 c i k Hc Hi Hk) as H2. clearbody q1.
    transitivity (1 / 2 * (ment (fieldc c q) i k + ment (fieldc c q1) i k + dt * ment (fieldc c r) i k)).
    + destruct q as [[h hu] hv], q1 as [[h1 hu1] hv1], r as [[a b] e]. destruct c as [|[|[|]]]; [| | |lia]; reflexivity.
    + rewrite H1, H2. field.
Qed.

(* C78: the sponge layer of src/sw2d damps: a discharge keeps its direction and never grows, is bounded by 1/(2 sqrt s),
   and is left alone where the coefficient is zero. *)
Theorem C78_sponge G s q : 0 <= s -> let q' := sponged (exact G) s q in
  Rabs q' <= Rabs q /\ 0 <= q * q' /\ (q <> 0 -> q' <> 0) /\ (s = 0 -> q' = q) /\ (0 < s -> Rabs q' <= 1 / (2 * sqrt s)).
Proof.
  intros Hs q'. assert (Ed : q' = q / (1 + s * q * q)) by (subst q'; unfold sponged; rewrite JacobiProofs.fofn_INR; reflexivity).
  pose proof (Rle_0_sqr q) as Hq. unfold Rsqr in Hq. pose proof (Rmult_le_pos s (q * q) Hs Hq) as Hsq. set (D := 1 + s * q * q) in *. assert (HD : 1 <= D) by (unfold D; lra).
  assert (Ea : Rabs q' = Rabs q / D) by (rewrite Ed; unfold Rdiv; rewrite Rabs_mult, Rabs_inv, (Rabs_right D) by lra; reflexivity).
  pose proof (Rabs_pos q) as Hp. split; [|split; [|split; [|split]]].
  - rewrite Ea. apply (Rmult_le_reg_r D); [lra|]. replace (Rabs q / D * D) with (Rabs q * 1) by (field; lra). apply Rmult_le_compat_l; assumption.
  - rewrite Ed. replace (q * (q / D)) with (q * q * / D) by (field; lra). apply Rmult_le_pos; [exact Hq|]. apply Rlt_le, Rinv_0_lt_compat. lra.
  - intros Hne E. rewrite Ed in E. apply Hne. replace q with (q / D * D) by (field; lra). rewrite E. ring.
  - intros E0. rewrite Ed. unfold D. rewrite E0. field.
  - intro Hpos. rewrite Ea. pose proof (sqrt_lt_R0 s Hpos) as Hr. pose proof (sqrt_sqrt s Hs) as Hss. set (a := sqrt s) in *.
    apply (Rmult_le_reg_r (2 * a * D)); [apply Rmult_lt_0_compat; lra|]. replace (Rabs q / D * (2 * a * D)) with (2 * (a * Rabs q)) by (field; lra). replace (1 / (2 * a) * (2 * a * D)) with D by (field; lra).
    assert (Eq2 : q * q = Rabs q * Rabs q) by (rewrite <- Rabs_mult; symmetry; apply Rabs_right; lra).
    assert (ED : D = 1 + (a * Rabs q) * (a * Rabs q)) by (unfold D; rewrite <- Hss; transitivity (1 + a * a * (q * q)); [ring|rewrite Eq2; ring]). rewrite ED.
    pose proof (Rle_0_sqr (a * Rabs q - 1)) as H. unfold Rsqr in H. lra.
Qed.

(* ---------- the clock, the output and the instability test ---------- *)
(* C78: the driver adds the next step to the clock, not the one it has taken: after n steps the clock differs from the
   time integrated by the difference of the last and the first step. *)
Theorem C78_clock G jv lowest d N NF Nfp Np K g CFL huge H F rhs n (s : nat -> swsim R) :
  history Ok (simple_sim_step (exact G) jv lowest d N NF Nfp Np K g CFL huge H F rhs) n s ->
  w_t (s n) - w_t (s 0%nat) = sumn n (fun i => w_dt (s i)) + (w_dt (s n) - w_dt (s 0%nat)).
Proof.
  induction n as [|n IH]; intro Hh; [unfold sumn; cbn; ring|]. assert (Hh' : history Ok (simple_sim_step (exact G) jv lowest d N NF Nfp Np K g CFL huge H F rhs) n s) by (intros i Hi; apply Hh; lia).
  specialize (IH Hh'). rewrite sumn_S. pose proof (Hh n ltac:(lia)) as E. unfold simple_sim_step in E. destruct (w_q (s n)) as [[h hu] hv]. destruct (simple_step _ F rhs _ _) as [[[h' hu'] hv']| |]; [|discriminate E|discriminate E]. cbn [bind] in E.
  destruct (unstable _ _ _ _); [discriminate E|]. destruct (simple_dt _ _ _ _ _ _ _ _ _ _ _ _ _ _) as [dt'| |]; [|discriminate E|discriminate E]. cbn [bind] in E. injection E as E. rewrite <- E. cbn [w_t w_dt exact fadd]. lra.
Qed.
(* C78: what the instability test lets through: a step that returns leaves no depth further than the limit from the still
   depth. *)
Theorem C78_guard G jv lowest d N NF Nfp Np K g CFL huge H F rhs (s s' : swsim R) :
  simple_sim_step (exact G) jv lowest d N NF Nfp Np K g CFL huge H F rhs s = Ok s' ->
  let h' := fst (fst (w_q s')) in forall i k, (i < mrows h')%nat -> (k < mcols h')%nat -> Rabs (ment h' i k - ment H i k) <= huge.
Proof.
  intros E. cbv zeta. unfold simple_sim_step in E. destruct (w_q s) as [[h hu] hv]. destruct (simple_step _ F rhs _ _) as [[[h' hu'] hv']| |]; [|discriminate E|discriminate E]. cbn [bind] in E.
  destruct (unstable _ _ _ _) eqn:Eu; [discriminate E|]. destruct (simple_dt _ _ _ _ _ _ _ _ _ _ _ _ _ _) as [dt'| |]; [|discriminate E|discriminate E]. cbn [bind] in E. injection E as E. rewrite <- E. cbn [w_q fst].
  intros i k Hi Hk. unfold unstable in Eu. cbv zeta in Eu. apply Bool.orb_false_iff in Eu as (Eu & _). unfold max_abs in Eu. unfold Line1DModel.mzip in Eu; cbn [mrows mcols] in Eu.
  set (M := fold_left _ _ _) in Eu. destruct (Line1DBurgersProofs.max_abs_ge G (mzip (fsub (exact G)) h' H) (list_prod (seq 0 (mrows h')) (seq 0 (mcols h'))) lowest M eq_refl) as (_ & HM & _).
  specialize (HM i k ltac:(apply in_prod; apply in_seq; lia)). unfold Line1DModel.mzip in HM; cbn [ment exact fsub] in HM.
  cbn [exact flt fabs] in Eu. unfold Rltb in Eu. destruct (Rlt_dec huge (Rabs M)) as [L|L]; [discriminate Eu|]. pose proof (Rle_abs M). lra.
Qed.
(* C78: what a run writes: the surface elevation of every tenth step, before that step, under the number of the step. *)
Theorem C78_output {T} (A : arith T) jv lowest d N NF Nfp Np K g CFL huge H F rhs n (s : nat -> swsim T) :
  history Ok (simple_sim_step A jv lowest d N NF Nfp Np K g CFL huge H F rhs) n s -> w_count (s 0%nat) = 0%nat -> w_out (s 0%nat) = [] ->
  w_count (s n) = n /\ forall c eta, In (c, eta) (w_out (s n)) <-> (c < n)%nat /\ (c mod 10 = 0)%nat /\ eta = mzip (fsub A) (fst (fst (w_q (s c)))) H.
Proof.
  intros Hh H0 H1. induction n as [|n IH]; [split; [exact H0|]; intros; rewrite H1; cbn; split; [tauto|lia]|].
  destruct IH as (Hc & Ho); [intros i Hi; apply Hh; lia|]. pose proof (Hh n ltac:(lia)) as E. unfold simple_sim_step in E. rewrite Hc in E. remember (n mod 10 =? 0)%nat as b10 eqn:Hm.
  destruct (w_q (s n)) as [[h hu] hv] eqn:Eq. destruct (simple_step _ F rhs _ _) as [[[h' hu'] hv']| |]; [|discriminate E|discriminate E]. cbn [bind] in E.
  destruct (unstable _ _ _ _); [discriminate E|]. destruct (simple_dt _ _ _ _ _ _ _ _ _ _ _ _ _ _) as [dt'| |]; [|discriminate E|discriminate E]. cbn [bind] in E. injection E as E. rewrite <- E. cbn [w_count w_out].
  split; [reflexivity|]. intros c eta. symmetry in Hm. destruct b10; [apply Nat.eqb_eq in Hm|apply Nat.eqb_neq in Hm].
  - split.
    + intros [Ee|Hin]; [injection Ee as <- <-; rewrite Eq; cbn [fst]; repeat split; [lia|exact Hm]|]. apply Ho in Hin as (L & M & ->). repeat split; [lia|exact M].
    + intros (L & M & ->). destruct (Nat.eq_dec c n) as [-> |]; [left; rewrite Eq; reflexivity|right; apply Ho; repeat split; [lia|exact M]].
  - rewrite Ho. split; [intros (L & M & ->); repeat split; [lia|exact M]|]. intros (L & M & ->). destruct (Nat.eq_dec c n) as [-> |]; [contradiction|repeat split; [lia|exact M]].
Qed.

(* The instability test in IEEE doubles, with the driver's limit 1e8 and the reduction's start -DBL_MAX. *)
Definition dbl_lowest : spec_float := S754_finite true 9007199254740991 971.
Definition dbl_1e8 : spec_float := S754_finite false 6710886400000000 (-26).
Lemma nan_skipped gp gg (eta : mat spec_float) l : (forall ij, In ij l -> ment eta (fst ij) (snd ij) = S754_nan) -> forall m0,
  fold_left (fun m ij => let v := fabs (dbl_arith gp gg) (ment eta (fst ij) (snd ij)) in if flt (dbl_arith gp gg) m v then v else m) l m0 = m0.
Proof.
  induction l as [|ij l IH]; intros H m0; [reflexivity|]. cbn [fold_left]. cbv zeta. rewrite (H ij (or_introl eq_refl)). cbn [fabs dbl_arith SFabs]. replace (flt (dbl_arith gp gg) m0 S754_nan) with false by (cbn; unfold SFltb; destruct m0; reflexivity).
  apply IH. intros x Hx. apply H. right. exact Hx.
Qed.
(* C78: a field that is NaN everywhere is caught. *)
Theorem C78_all_nan_caught gp gg r c (eta : mat spec_float) : mrows eta = r -> mcols eta = c -> (forall i j, (i < r)%nat -> (j < c)%nat -> ment eta i j = S754_nan) ->
  unstable (dbl_arith gp gg) dbl_lowest dbl_1e8 eta = true.
Proof.
  intros Er Ec H. unfold unstable, max_abs. rewrite Er, Ec, nan_skipped; [reflexivity|].
  intros [i j] Hij. apply in_prod_iff in Hij as (Hi & Hj). apply in_seq in Hi, Hj. apply H; cbn; lia.
Qed.
(* C78, what fails: the maximum passes over NaN entries, so a field with NaN entries is not caught as long as one entry is
   a number below the limit: here every entry is NaN or zero, not all are NaN, and the run goes on. *)
Theorem C78_nan_undetected_refuted gp gg r c i0 j0 (eta : mat spec_float) : mrows eta = r -> mcols eta = c -> (i0 < r)%nat -> (j0 < c)%nat -> ment eta i0 j0 = S754_zero false ->
  (forall i j, (i < r)%nat -> (j < c)%nat -> ment eta i j = S754_nan \/ ment eta i j = S754_zero false) ->
  unstable (dbl_arith gp gg) dbl_lowest dbl_1e8 eta = false.
Proof.
  intros Er Ec Hi0 Hj0 H0 H. unfold unstable, max_abs. rewrite Er, Ec.
  assert (HL : forall l, (forall ij, In ij l -> (fst ij < r)%nat /\ (snd ij < c)%nat) ->
    let f := fun m ij => let v := fabs (dbl_arith gp gg) (ment eta (fst ij) (snd ij)) in if flt (dbl_arith gp gg) m v then v else m in
    fold_left f l (S754_zero false) = S754_zero false /\ (In (i0, j0) l -> fold_left f l dbl_lowest = S754_zero false)).
  { induction l as [|[i j] l IH]; intro Hl; cbv zeta; [split; [reflexivity|intros []]|]. destruct IH as (I1 & I2); [intros x Hx; apply Hl; right; exact Hx|]. cbv zeta in I1, I2.
    cbn [fold_left fst snd]. destruct (Hl (i, j) (or_introl eq_refl)) as (Hi & Hj). cbn [fst snd] in Hi, Hj. destruct (H i j Hi Hj) as [E|E]; rewrite E; cbn [fabs dbl_arith SFabs flt SFltb SFcompare].
    - split; [exact I1|]. intros [X|X]; [injection X as -> ->; congruence|]. exact (I2 X).
    - split; [exact I1|]. intros _. exact I1. }
  destruct (HL (list_prod (seq 0 r) (seq 0 c))) as (_ & E). { intros [i j] Hij. apply in_prod_iff in Hij as (A & B). apply in_seq in A, B. cbn. lia. }
  cbv zeta in E. rewrite E; [reflexivity|]. apply in_prod; apply in_seq; lia.
Qed.

(* The hypotheses are met: two triangles with walls all around, order one, still water of depth one; the shipped driver's
   cutoff for the refuted claim. *)
Example C78_witness :
  let Vert := [0; 0; 0;  1; 0; 0;  1; 1; 0;  0; 1; 0] in let EToV := [0; 1; 2;  0; 2; 3]%nat in
  let E2E := [0; 0; 1;  0; 1; 1]%nat in let E2F := [0; 1; 0;  2; 1; 2]%nat in let bcType := [3; 3; 0; 0; 3; 3]%Z in
  exists el m F F0 q', let Np := length (e_r el) in let q := (mkmat Np 2 (fun _ _ => 1), mkmat Np 2 (fun _ _ => 0), mkmat Np 2 (fun _ _ => 0)) in
    sw_grid gwit cramer cramer_inv junk0 0 eig0 (1 / 10) isort (fun _ => 0) (fun _ => 0%nat) 1 2 Vert EToV E2E E2F bcType el m /\
    (forall k f, (k < 2)%nat -> (f < 3)%nat -> tag_of bcType k f = 3%Z <-> forall k2 f2, (f2 < 3)%nat -> ~ joined EToV k f k2 f2) /\
    buildFilter (exact gwit) pow exp ln (1 / 2) 1 (e_V el) (e_Vinv el) 2 4 = Ok F /\ INR 1 < 2 /\
    buildFilter (exact gwit) pow exp ln (1 / 2) 1 (e_V el) (e_Vinv el) (9 / 10) 1 = Ok F0 /\
    state_conform q Np 2 = true /\
    simple_step (exact gwit) F (sw_simple_rhs (exact gwit) junk0 (fun _ => 0) (-1) (tables_of el m) 3 2 Np 2 1) (1 / 100) q = Ok q' /\
    exists v, crossing_rate Np 2 Vert EToV (e_x el) (e_y el) 1 q v /\ 0 < v.
Proof.
  intros Vert EToV E2E E2F bcType. destruct C49_witness as (Hg & Hcl & _). destruct (Hg bcType (or_introl eq_refl)) as (el & m & HG & _).
  pose proof (sg_built _ _ _ _ _ _ _ _ _ _ _ _ _ _ _ _ _ _ _ HG) as HB. pose proof (sg_area _ _ _ _ _ _ _ _ _ _ _ _ _ _ _ _ _ _ _ HG) as HA.
  destruct (C41_filter _ _ _ _ _ _ _ _ _ _ _ _ HB (1 / 2) 2 4 ltac:(lra) ltac:(cbn; lra)) as (F & EF & _).
  destruct (C41_filter _ _ _ _ _ _ _ _ _ _ _ _ HB (1 / 2) (9 / 10) 1%nat ltac:(lra) ltac:(cbn; lra)) as (F0 & EF0 & _).
  set (Np := length (e_r el)). set (q := (mkmat Np 2 (fun _ _ => 1), mkmat Np 2 (fun _ _ => 0), mkmat Np 2 (fun _ _ => 0)) : field).
  assert (HQ : state_conform q Np 2 = true) by (unfold state_conform, conform; cbn; rewrite !Nat.eqb_refl; reflexivity).
  assert (Hr : forall y, state_conform y Np 2 = true -> exists z, sw_simple_rhs (exact gwit) junk0 (fun _ => 0) (-1) (tables_of el m) 3 2 Np 2 1 y = Ok z /\ state_conform z Np 2 = true).
  { intros y Hy. destruct (C49_simple_scheme gwit cramer cramer_inv junk0 0 eig0 (1 / 10) isort (fun _ => 0) (fun _ => 0%nat) 1 2 Vert EToV E2E E2F bcType el m junk0 (fun _ => 0) (-1) HG ltac:(lra)) with (g := 1) (q := y) as (z & Ez & Cz & _).
    - intros k f Hk Hf Ht. apply (Hcl k f Hk Hf). exact Ht.
    - exists 0%nat, 0%nat. repeat split; lia.
    - exact Hy.
    - exists z. split; [exact Ez|exact Cz]. }
  destruct (Hr q HQ) as (z & Ez & Cz). destruct (Hr (advance_state (exact gwit) (fmul (exact gwit) (fhalf (exact gwit)) (1 / 100)) q (filter_state (exact gwit) F z))) as (z1 & Ez1 & Cz1).
  { destruct (filter_state (exact gwit) F z) as [[a b] e]. exact HQ. }
  exists el, m, F, F0, (advance_state (exact gwit) (1 / 100) q (filter_state (exact gwit) F z1)). cbv zeta. fold Np. fold q.
  split; [exact HG|]. split; [exact Hcl|]. split; [exact EF|]. split; [cbn; lra|]. split; [exact EF0|]. split; [exact HQ|]. split.
  - unfold simple_step. rewrite Ez. cbn [bind]. rewrite Ez1. reflexivity.
  - destruct (side_pt _ _ _ _ _ _ _ _ _ _ _ _ HB 0%nat 0%nat ltac:(lia) ltac:(lia)) as (t & Ht). pose proof (fn_lt _ _ _ _ _ _ _ _ _ _ _ _ HB 0%nat 0%nat ltac:(lia) ltac:(lia)) as Hl.
    pose proof (fs_at _ _ _ _ _ _ _ _ _ _ _ _ HB HA 0%nat 0%nat 0%nat ltac:(lia) ltac:(lia) ltac:(lia)) as (F1 & F2). rewrite F2 in F1.
    eexists. split; [exists 0%nat, 0%nat, (fnode el 0 0), t; repeat split; try lia; first [exact Hl|apply Ht; lia]|].
    apply Rmult_lt_0_compat; [exact F1|]. cbn. replace (1 * 1) with 1 by ring. rewrite sqrt_1. pose proof (sqrt_pos (0 / 1 * (0 / 1) + 0 / 1 * (0 / 1))). lra.
Qed.
Example C78_linear_witness : exists (rhs : field -> outcome field) (q z z2 : field), rhs q = Ok z /\ rhs z = Ok z2 /\ state_conform q 2 1 = true /\ state_conform z 2 1 = true /\
  (forall a b c w ra rb, state_conform w 2 1 = true -> sum_of 2 1 c a b w -> rhs a = Ok ra -> rhs b = Ok rb -> exists r, rhs w = Ok r /\ state_conform r 2 1 = true /\ sum_of 2 1 c ra rb r).
Proof.
  exists (fun q => let '(h, hu, hv) := q in Ok (mkmat 2 1 (fun i k => ment hu i k), mkmat 2 1 (fun i k => - ment h i k), mkmat 2 1 (fun i k => 3 * ment hv i k))).
  exists (mkmat 2 1 (fun i _ => INR i), mkmat 2 1 (fun i _ => 1), mkmat 2 1 (fun i _ => 1)). do 2 eexists. split; [reflexivity|]. split; [reflexivity|]. split; [reflexivity|]. split; [reflexivity|].
  intros [[ah au] av] [[bh bu] bv] c [[wh wu] wv] ra rb Cw Hs Ea Eb. injection Ea as <-. injection Eb as <-. eexists. split; [reflexivity|]. split; [reflexivity|].
  intros p i k Hp Hi Hk. pose proof (Hs 0%nat i k ltac:(lia) Hi Hk) as S0. pose proof (Hs 1%nat i k ltac:(lia) Hi Hk) as S1. pose proof (Hs 2%nat i k ltac:(lia) Hi Hk) as S2. cbn [fieldc fst snd] in *.
  destruct p as [|[|[|]]]; [| | |lia]; cbn [fieldc fst snd ment]; rewrite ?S0, ?S1, ?S2; ring.
Qed.
Print Assumptions C78_filter_in_place.
Print Assumptions C78_filter_product_iff.
Print Assumptions C78_product_filter_keeps_volume.
Print Assumptions C78_step_keeps_volume.
Print Assumptions C78_run_keeps_volume.
Print Assumptions C78_time_step.
Print Assumptions C78_driver_filter_refuted.
Print Assumptions C78_second_order.
Print Assumptions C78_sponge.
Print Assumptions C78_clock.
Print Assumptions C78_guard.
Print Assumptions C78_output.
Print Assumptions C78_all_nan_caught.
Print Assumptions C78_nan_undetected_refuted.
