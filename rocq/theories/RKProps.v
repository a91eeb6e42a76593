(* RKProps.v - C48: the low-storage Runge-Kutta scheme and the time loop around it. *)
From Coq Require Import ZArith List Lia Bool QArith Qreals Arith.
From Flocq Require Import Core.Core IEEE754.BinarySingleNaN.
From Verif Require Import Base Loops Num JacobiSpec JacobiQuadProofs RKModel RKSpec RKProofs.
From Coq Require Import Reals Lra SpecFloat.
Import ListNotations.
Local Open Scope R_scope.

Definition qa : list Q := [0; -567301805773 # 1357537059087; -2404267990393 # 2016746695238; -3550918686646 # 2091501179385; -1275806237668 # 842570457699]%Q.
Definition qb : list Q := [1432997174477 # 9575080441755; 5161836677717 # 13612068292357; 1720146321549 # 2090206949498; 3134564353537 # 4481467310338; 2277821191437 # 14882151754819]%Q.
Definition tol11 : Q := 1 # 100000000000.
Lemma exact_order : order_check_tab tol11 (tab qa qb) = true.
Proof. vm_compute. reflexivity. Qed.
Lemma tol11_R : Q2R tol11 = 1 / 100000000000.
Proof. unfold Q2R, tol11. cbn [Qnum Qden]. lra. Qed.

Lemma rk4a_Q (G : R -> R) m : (m < 5)%nat -> nth m (rk4a (exact G)) 0 = Q2R (nth m qa 0%Q).
Proof. intros H. destruct m as [|[|[|[|[|m]]]]]; try lia; cbn [nth rk4a qa exact fdiv fopp fofZ]; unfold Q2R, Rdiv; cbn [Qnum Qden]; try lra; rewrite <- ?opp_IZR; reflexivity. Qed.
Lemma rk4b_Q (G : R -> R) m : (m < 5)%nat -> nth m (rk4b (exact G)) 0 = Q2R (nth m qb 0%Q).
Proof. intros H. destruct m as [|[|[|[|[|m]]]]]; try lia; reflexivity. Qed.

Lemma rkA_ext a a' b b' : (forall m, (m < 5)%nat -> a m = a' m) -> (forall m, (m < 5)%nat -> b m = b' m) -> forall i j, (i <= 5)%nat -> rkA a b i j = rkA a' b' i j.
Proof.
  intros Ea Eb i j Hi. unfold rkA.
  assert (Ch : forall i, (i < 5)%nat -> chain 1 Rmult a i j = chain 1 Rmult a' i j).
  { induction i0 as [|i0 IH]; intros Hl; cbn [chain]; [reflexivity|]. destruct (j =? S i0)%nat; [reflexivity|]. rewrite IH by lia. rewrite (Ea (S i0)) by lia. reflexivity. }
  induction i as [|i IH]; cbn [lsA]; [reflexivity|]. rewrite (Eb i) by lia. destruct (j =? i)%nat; [reflexivity|]. rewrite IH by lia. rewrite Ch by lia. reflexivity.
Qed.

Definition tabA (i j : nat) : R := rkA (fun m => Q2R (nth m qa 0%Q)) (fun m => Q2R (nth m qb 0%Q)) i j.

Lemma rk_ext A A' B B' f dt u u' : (forall i j, (i < 5)%nat -> (j < i)%nat -> A i j = A' i j) -> (forall j, (j < 5)%nat -> B j = B' j) ->
  explicit_rk_step 5 A B f dt u u' -> explicit_rk_step 5 A' B' f dt u u'.
Proof.
  intros EA EB (k & Hk & ->). exists k. split.
  - intros i Hi. rewrite <- (Hk i Hi). f_equal. apply shifted_eq; [apply shifted_length|]. intros m Hm. rewrite shifted_nth by exact Hm. do 2 f_equal.
    apply sumn_ext. intros j Hj. rewrite EA by lia. reflexivity.
  - apply shifted_eq; [apply shifted_length|]. intros m Hm. rewrite shifted_nth by exact Hm. do 2 f_equal. apply sumn_ext. intros j Hj. rewrite EB by lia. reflexivity.
Qed.

(* One set of coefficients, of order four up to 10^-11, describes every step of the program, whatever
   the right-hand side, the step size, the state and the residual left by the previous step. *)
Theorem C48_scheme : exists A B, order4 5 A B (1 / 100000000000) /\
  (forall i, (i < 5)%nat -> 0 <= abscissa A i <= 1) /\
  forall G f dt u res u' res', length res = length u ->
    (forall v w, length v = length u -> f v = Ok w -> length w = length u) ->
    rk_step (exact G) f dt (u, res) = Ok (u', res') ->
    length u' = length u /\ length res' = length u /\ explicit_rk_step 5 A B f dt u u'.
Proof.
  exists tabA, (tabA 5). split; [|split].
  - rewrite <- tol11_R. unfold tabA. apply (order_check_ok tol11 qa qb exact_order); reflexivity.
  - intros i Hi. unfold abscissa. rewrite (sumn_ext i (tabA i) (fun j => Q2R (lA qa qb i j))).
    + rewrite <- tsum_sumn, <- (tsum_hom 0%Q qadd 0 Rplus Q2R Q2R_0 Q2R_qadd).
      assert (C : forall i, (i < 5)%nat -> (Qle_bool 0 (tsum 0%Q qadd i (lA qa qb i)) && Qle_bool (tsum 0%Q qadd i (lA qa qb i)) 1)%bool = true).
      { intros i0 Hi0. destruct i0 as [|[|[|[|[|i0]]]]]; try lia; vm_compute; reflexivity. }
      specialize (C i Hi). apply andb_true_iff in C. destruct C as [C1 C2]. apply Qle_bool_iff, Qle_Rle in C1. apply Qle_bool_iff, Qle_Rle in C2.
      rewrite Q2R_0 in C1. rewrite Q2R_1 in C2. split; assumption.
    + intros j Hj. unfold tabA. symmetry. apply lA_ok; auto; lia.
  - intros G f dt u res u' res' Lr Hf H.
    destruct (stages_rk G (rk4a (exact G)) (rk4b (exact G)) f dt u Hf res (u', res') eq_refl eq_refl eq_refl Lr H) as (L1 & L2 & E). cbn [fst snd] in *.
    split; [exact L1|]. split; [exact L2|]. unfold tabA. eapply rk_ext; [| |exact E]; intros; apply rkA_ext; try lia; intros; first [apply rk4a_Q | apply rk4b_Q]; assumption.
Qed.

(* Every right-hand side that always returns gives a step that returns. *)
Theorem C48_total : forall G f dt u res, (forall v, exists w, f v = Ok w) -> exists u' res', rk_step (exact G) f dt (u, res) = Ok (u', res').
Proof. intros G f dt u res Hf. destruct (stages_total G (rk4a (exact G)) (rk4b (exact G)) f dt 5 eq_refl eq_refl Hf (u, res)) as ([u' res'] & E). eauto. Qed.

(* What the previous step left in the residual does not matter. *)
Lemma rk_unique A B f dt u u1 u2 : explicit_rk_step 5 A B f dt u u1 -> explicit_rk_step 5 A B f dt u u2 -> u1 = u2.
Proof.
  intros (k1 & H1 & ->) (k2 & H2 & ->). apply shifted_ext.
  assert (E : forall n, (n <= 5)%nat -> forall j, (j < n)%nat -> k1 j = k2 j).
  { induction n as [|n IH]; intros Hn j Hj; [lia|]. destruct (Nat.eq_dec j n) as [->|]; [|apply IH; lia].
    pose proof (H1 n ltac:(lia)) as A1. pose proof (H2 n ltac:(lia)) as A2. rewrite (shifted_ext u dt n (A n) k1 k2) in A1 by (apply IH; lia). congruence. }
  apply E. lia.
Qed.
Theorem C48_residual_irrelevant : forall G f dt u res1 res2 u1 u2 r1 r2, length res1 = length u -> length res2 = length u ->
  (forall v w, length v = length u -> f v = Ok w -> length w = length u) ->
  rk_step (exact G) f dt (u, res1) = Ok (u1, r1) -> rk_step (exact G) f dt (u, res2) = Ok (u2, r2) -> u1 = u2.
Proof.
  intros G f dt u res1 res2 u1 u2 r1 r2 L1 L2 Hf H1 H2. destruct C48_scheme as (A & B & _ & _ & S).
  destruct (S G f dt u res1 u1 r1 L1 Hf H1) as (_ & _ & E1). destruct (S G f dt u res2 u2 r2 L2 Hf H2) as (_ & _ & E2). eapply rk_unique; eassumption.
Qed.

(* A constant right-hand side is integrated up to a relative error of 10^-11. *)
Theorem C48_constant : forall G c dt u res, length res = length u -> length c = length u ->
  exists u' res', rk_step (exact G) (fun _ => Ok c) dt (u, res) = Ok (u', res') /\
    forall m, (m < length u)%nat -> Rabs (nth m u' 0 - (nth m u 0 + dt * nth m c 0)) <= 1 / 100000000000 * Rabs (dt * nth m c 0).
Proof.
  intros G c dt u res Lr Lc. destruct (C48_total G (fun _ => Ok c) dt u res) as (u' & res' & E); [eauto|]. exists u', res'. split; [exact E|].
  destruct C48_scheme as (A & B & O & _ & S). destruct (S G (fun _ => Ok c) dt u res u' res' Lr ltac:(intros v w _ [= <-]; exact Lc) E) as (_ & _ & k & Hk & ->).
  intros m Hm. rewrite shifted_nth by exact Hm. rewrite (sumn_ext 5 _ (fun j => nth m c 0 * B j)) by (intros j Hj; specialize (Hk j Hj); injection Hk as <-; ring).
  rewrite sumn_scal. destruct O as (O & _). unfold near in O.
  replace (nth m u 0 + dt * (nth m c 0 * sumn 5 B) - (nth m u 0 + dt * nth m c 0)) with ((sumn 5 B - 1) * (dt * nth m c 0)) by ring.
  rewrite Rabs_mult. apply Rmult_le_compat_r; [apply Rabs_pos|exact O].
Qed.

Lemma linear_step (M : nat -> nat -> R) (B : nat -> R) lambda dt y y' : let z := lambda * dt in
  explicit_rk_step 5 M B (fun v => Ok (map (fun x => lambda * x) v)) dt [y] [y'] ->
  y' = (1 + sumn 5 B * z + sumn 5 (fun i => B i * abscissa M i) * z ^ 2 + sumn 5 (fun i => B i * sumn i (fun j => M i j * abscissa M j)) * z ^ 3
        + sumn 5 (fun i => B i * sumn i (fun j => M i j * sumn j (fun l => M j l * abscissa M l))) * z ^ 4
        + B 4%nat * M 4%nat 3%nat * M 3%nat 2%nat * M 2%nat 1%nat * M 1%nat 0%nat * z ^ 5) * y.
Proof.
  intros z (k & Hk & Ey).
  assert (K : forall i, (i < 5)%nat -> nth 0 (k i) 0 = lambda * (y + dt * sumn i (fun j => M i j * nth 0 (k j) 0))).
  { intros i Hi. specialize (Hk i Hi). unfold shifted in Hk. cbn [length seq map nth] in Hk. injection Hk as Hk. rewrite <- Hk. reflexivity. }
  unfold shifted in Ey. cbn [length seq map nth] in Ey. injection Ey as Ey. clear Hk.
  set (q := fun i => nth 0 (k i) 0) in *. change (forall i, (i < 5)%nat -> q i = lambda * (y + dt * sumn i (fun j => M i j * q j))) in K.
  change (y' = y + dt * sumn 5 (fun j => B j * q j)) in Ey. clearbody q. clear k. unfold abscissa.
  pose proof (K 0%nat ltac:(lia)) as K0. pose proof (K 1%nat ltac:(lia)) as K1. pose proof (K 2%nat ltac:(lia)) as K2. pose proof (K 3%nat ltac:(lia)) as K3. pose proof (K 4%nat ltac:(lia)) as K4. clear K.
  rewrite ?sumn_S, ?sumn_0 in *. rewrite Ey, K4, K3, K2, K1, K0. unfold z. ring.
Qed.

(* The equation y' = lambda y: with z = lambda dt, one step multiplies y by the Taylor polynomial of
   degree four of exp z, up to 10^-11 per coefficient and a term of order z^5. *)
Theorem C48_linear : forall G lambda dt y res, let z := lambda * dt in
  exists y' res', rk_step (exact G) (fun v => Ok (map (fun x => lambda * x) v)) dt ([y], [res]) = Ok ([y'], [res']) /\
    Rabs (y' - (1 + z + z ^ 2 / 2 + z ^ 3 / 6 + z ^ 4 / 24) * y) <=
    (1 / 100000000000 * (Rabs z + Rabs z ^ 2 + Rabs z ^ 3 + Rabs z ^ 4) + 1 / 100 * Rabs z ^ 5) * Rabs y.
Proof.
  intros G lambda dt y res z. set (f := fun v => Ok (map (fun x => lambda * x) v)).
  destruct (C48_total G f dt [y] [res]) as (u' & r' & E); [intros v; eexists; reflexivity|].
  destruct (stages_rk G (rk4a (exact G)) (rk4b (exact G)) f dt [y] ltac:(intros v w L [= <-]; rewrite map_length; exact L) [res] (u', r') eq_refl eq_refl eq_refl eq_refl E) as (L1 & L2 & E').
  cbn [fst snd] in *. destruct u' as [|y' [|]]; try discriminate. destruct r' as [|r1 [|]]; try discriminate. exists y', r1. split; [exact E|].
  assert (X : explicit_rk_step 5 tabA (tabA 5) f dt [y] [y']).
  { unfold tabA. eapply rk_ext; [| |exact E']; intros; apply rkA_ext; try lia; intros; first [apply rk4a_Q | apply rk4b_Q]; assumption. }
  assert (O : order4 5 tabA (tabA 5) (1 / 100000000000)).
  { rewrite <- tol11_R. unfold tabA. apply (order_check_ok tol11 qa qb exact_order); reflexivity. }
  assert (G5 : Rabs (tabA 5 4 * tabA 4 3 * tabA 3 2 * tabA 2 1 * tabA 1 0) <= 1 / 100).
  { assert (C : Qle_bool (qmul (qmul (qmul (qmul (lA qa qb 5 4) (lA qa qb 4 3)) (lA qa qb 3 2)) (lA qa qb 2 1)) (lA qa qb 1 0)) (1 # 100) = true) by (vm_compute; reflexivity).
    assert (C' : Qle_bool 0 (qmul (qmul (qmul (qmul (lA qa qb 5 4) (lA qa qb 4 3)) (lA qa qb 3 2)) (lA qa qb 2 1)) (lA qa qb 1 0)) = true) by (vm_compute; reflexivity).
    apply Qle_bool_iff, Qle_Rle in C. apply Qle_bool_iff, Qle_Rle in C'. rewrite !Q2R_qmul in C, C'. rewrite Q2R_0 in C'.
    rewrite !(lA_ok qa qb (fun m => Q2R (nth m qa 0%Q)) (fun m => Q2R (nth m qb 0%Q))) in C, C' by (auto; lia). fold (tabA 5 4) (tabA 4 3) (tabA 3 2) (tabA 2 1) (tabA 1 0) in C, C'.
    rewrite Rabs_right by (apply Rle_ge; exact C'). eapply Rle_trans; [exact C|]. unfold Q2R. cbn [Qnum Qden]. lra. }
  apply linear_step in X. fold z in X. unfold order4, near in O. destruct O as (O1 & O2 & _ & O4 & _ & _ & _ & O8).
  assert (Ab : forall a t e, Rabs (a - t) <= e -> exists d, a = t + d /\ Rabs d <= e) by (intros a t e H; exists (a - t); split; [ring|exact H]).
  destruct (Ab _ _ _ O1) as (d1 & D1 & B1). destruct (Ab _ _ _ O2) as (d2 & D2 & B2). destruct (Ab _ _ _ O4) as (d3 & D3 & B3). destruct (Ab _ _ _ O8) as (d4 & D4 & B4).
  clear O1 O2 O4 O8 Ab. rewrite D1, D2, D3, D4 in X. set (g5 := tabA 5 4 * tabA 4 3 * tabA 3 2 * tabA 2 1 * tabA 1 0) in *. clearbody g5.
  assert (Key : y' - (1 + z + z ^ 2 / 2 + z ^ 3 / 6 + z ^ 4 / 24) * y = (d1 * z + d2 * z ^ 2 + d3 * z ^ 3 + d4 * z ^ 4 + g5 * z ^ 5) * y) by (rewrite X; field).
  rewrite Key, Rabs_mult. apply Rmult_le_compat_r; [apply Rabs_pos|].
  assert (P : forall d e n, Rabs d <= e -> Rabs (d * z ^ n) <= e * Rabs z ^ n).
  { intros d e n H. rewrite Rabs_mult, RPow_abs. apply Rmult_le_compat_r; [apply Rabs_pos|exact H]. }
  pose proof (P d1 _ 1%nat B1) as P1. pose proof (P d2 _ 2%nat B2) as P2. pose proof (P d3 _ 3%nat B3) as P3. pose proof (P d4 _ 4%nat B4) as P4. pose proof (P g5 _ 5%nat G5) as P5.
  rewrite !pow_1 in P1.
  eapply Rle_trans; [apply Rabs_triang|]. eapply Rle_trans; [apply Rplus_le_compat_r, Rabs_triang|]. eapply Rle_trans; [apply Rplus_le_compat_r, Rplus_le_compat_r, Rabs_triang|].
  eapply Rle_trans; [apply Rplus_le_compat_r, Rplus_le_compat_r, Rplus_le_compat_r, Rabs_triang|]. lra.
Qed.

(* The quotients as doubles: the scheme with those coefficients also is one of order four up to 10^-11. *)
Definition sfQ (x : spec_float) : Q :=
  match x with
  | S754_finite s m e => match e with
                         | Zneg p => ((if s then Zneg m else Zpos m) # (2 ^ p))%Q
                         | _ => inject_Z ((if s then Zneg m else Zpos m) * 2 ^ e)
                         end
  | _ => 0%Q
  end.
Lemma sfQ_ok x : SF2R radix2 x = Q2R (sfQ x).
Proof.
  destruct x as [s|s| |s m e]; try (cbn; symmetry; apply Q2R_0). unfold SF2R, F2R, sfQ, cond_Zopp. cbn [Fnum Fexp].
  destruct e as [|p|p].
  - unfold Q2R, inject_Z. cbn [Qnum Qden bpow]. replace (2 ^ 0)%Z with 1%Z by reflexivity. rewrite Z.mul_1_r. destruct s; cbn; lra.
  - rewrite bpow_powerRZ. unfold inject_Z, Q2R. cbn [Qnum Qden]. rewrite mult_IZR, Rinv_1, Rmult_1_r.
    replace (IZR (2 ^ Zpos p)) with (powerRZ (IZR (radix_val radix2)) (Zpos p)); [destruct s; reflexivity|].
    rewrite <- bpow_powerRZ. rewrite <- IZR_Zpower by lia. reflexivity.
  - unfold Q2R. cbn [Qnum Qden]. replace (bpow radix2 (Zneg p)) with (/ IZR (Zpos (2 ^ p))); [destruct s; reflexivity|].
    replace (Zneg p) with (- Zpos p)%Z by reflexivity. rewrite bpow_opp, <- IZR_Zpower by lia. do 2 f_equal. change (Zpos (2 ^ p)) with (Zpos (2 ^ p)). rewrite Pos2Z.inj_pow. reflexivity.
Qed.

Definition dA pow gam : list R := map (SF2R radix2) (rk4a (dbl_arith pow gam)).
Definition dB pow gam : list R := map (SF2R radix2) (rk4b (dbl_arith pow gam)).
Lemma double_order pow gam : order_check_tab tol11 (tab (map sfQ (rk4a (dbl_arith pow gam))) (map sfQ (rk4b (dbl_arith pow gam)))) = true.
Proof. vm_compute. reflexivity. Qed.
Lemma nth_SF2R l m : nth m (map (SF2R radix2) l) 0 = Q2R (nth m (map sfQ l) 0%Q).
Proof. rewrite <- Q2R_0, <- (map_nth Q2R), Q2R_0, map_map. f_equal. apply map_ext. apply sfQ_ok. Qed.

Theorem C48_double_coefficients : forall pow gam, exists A B, order4 5 A B (1 / 100000000000) /\
  forall G f dt u res u' res', length res = length u ->
    (forall v w, length v = length u -> f v = Ok w -> length w = length u) ->
    for_ 5 (stage (exact G) (dA pow gam) (dB pow gam) f dt) (u, res) = Ok (u', res') ->
    explicit_rk_step 5 A B f dt u u'.
Proof.
  intros pow gam. exists (rkA (fun m => nth m (dA pow gam) 0) (fun m => nth m (dB pow gam) 0)), (rkA (fun m => nth m (dA pow gam) 0) (fun m => nth m (dB pow gam) 0) 5). split.
  - rewrite <- tol11_R. apply (order_check_ok tol11 _ _ (double_order pow gam)); intros m _; apply nth_SF2R.
  - intros G f dt u res u' res' Lr Hf H.
    destruct (stages_rk G (dA pow gam) (dB pow gam) f dt u Hf res (u', res')) as (_ & _ & E); auto.
Qed.

(* The time loop: it performs steps until the time reaches finalTime, never fewer or more; the fields
   written are those before steps 0, 10, 20, ... *)
Theorem C48_time_loop : forall G rhs unstable dt finalTime fuel t0 u0 res0 s, 0 < dt ->
  sim_loop (exact G) fuel rhs unstable dt finalTime (Sim t0 0 u0 res0 []) = Ok s ->
  exists n (state : nat -> sim R), state 0%nat = Sim t0 0 u0 res0 [] /\ state n = s /\
    (forall i, (i < n)%nat -> sim_step (exact G) rhs unstable dt (state i) = Ok (state (S i))) /\
    s_t s = t0 + INR n * dt /\ finalTime <= s_t s /\ (n <> 0%nat -> s_t s < finalTime + dt) /\ (n = 0%nat <-> finalTime <= t0) /\
    (forall c u, In (c, u) (s_out s) <-> (c < n)%nat /\ (c mod 10 = 0)%nat /\ u = s_u (state c)).
Proof.
  intros G rhs unstable dt T fuel t0 u0 res0 s Hdt H. destruct (loop_steps G rhs unstable dt T fuel _ s Hdt H) as (n & _ & En & Et & TT & TL & T0). cbn [s_t] in *.
  set (s0 := Sim t0 0 u0 res0 []) in *.
  exists n, (fun i => match steps G rhs unstable dt i s0 with Ok x => x | _ => s0 end). cbv beta. split; [reflexivity|]. split; [rewrite En; reflexivity|].
  assert (Pre : forall c, (c <= n)%nat -> exists sc, steps G rhs unstable dt c s0 = Ok sc).
  { intros c Hc. replace n with (c + (n - c))%nat in En by lia. rewrite steps_app in En. destruct (steps G rhs unstable dt c s0) as [x| |]; cbn [bind] in En; try discriminate. eauto. }
  split; [|split; [exact Et|split; [exact TT|split; [intros Hn; specialize (TL ltac:(lia)); lra|split; [exact T0|]]]]].
  - intros i Hi. destruct (Pre i ltac:(lia)) as (si & Ei). destruct (Pre (S i) ltac:(lia)) as (si' & Ei'). rewrite Ei, Ei'. replace (S i) with (i + 1)%nat in Ei' by lia. rewrite steps_app, Ei in Ei'. cbn [bind steps] in Ei'.
    destruct (sim_step (exact G) rhs unstable dt si); cbn [bind] in Ei'; congruence.
  - intros c u. rewrite (steps_out G rhs unstable dt n s0 s En eq_refl eq_refl). split; intros (A & B & C); (split; [exact A|]; split; [exact B|]).
    + destruct C as (sc & -> & ->). reflexivity.
    + destruct (Pre c ltac:(lia)) as (sc & Ec). rewrite Ec in C. eauto.
Qed.

(* It ends: with more than (finalTime - t0)/dt iterations allowed the bound is never met. *)
Theorem C48_time_loop_ends : forall G rhs unstable dt finalTime t0 u0 res0 fuel, 0 < dt -> (finalTime - t0) / dt <= INR fuel ->
  (forall t v, rhs t v <> UB) -> sim_loop (exact G) (S fuel) rhs unstable dt finalTime (Sim t0 0 u0 res0 []) <> UB.
Proof.
  intros G rhs unstable dt T t0 u0 res0 fuel Hdt Hf Hr.
  assert (Hrk : forall t st, rk_step (exact G) (rhs t) dt st <> UB).
  { intros t st. unfold rk_step, for_, numStages. assert (St : forall i st, (i < 5)%nat -> stage (exact G) (rk4a (exact G)) (rk4b (exact G)) (rhs t) dt i st <> UB).
    { intros i [u r] Hi. unfold stage, getn. rewrite (nth_error_nth' (rk4a (exact G)) 0), (nth_error_nth' (rk4b (exact G)) 0) by exact Hi. cbn [bind]. specialize (Hr t u). destruct (rhs t u); cbn [bind]; congruence. }
    assert (Fr : forall n lo st, (lo + n <= 5)%nat -> for_from lo n (stage (exact G) (rk4a (exact G)) (rk4b (exact G)) (rhs t) dt) st <> UB).
    { induction n as [|n IHn]; intros lo st0 Hl; cbn [for_from]; [discriminate|]. specialize (St lo st0 ltac:(lia)). destruct (stage _ _ _ _ _ lo st0); cbn [bind]; [apply IHn; lia|discriminate|congruence]. }
    apply Fr. lia. }
  assert (Gn : forall fuel s, (T - s_t s) / dt <= INR fuel -> sim_loop (exact G) (S fuel) rhs unstable dt T s <> UB).
  { clear fuel Hf. assert (Pos : forall s, s_t s < T -> 0 < (T - s_t s) / dt) by (intros s Hs; apply Rdiv_lt_0_compat; lra).
    induction fuel as [|fuel IH]; intros s Hf.
    - cbn [sim_loop]. cbn [exact flt]. unfold Rltb. destruct (Rlt_dec (s_t s) T) as [Ht|Ht]; [|discriminate]. specialize (Pos s Ht). cbn [INR] in Hf. lra.
    - remember (S fuel) as fu. cbn [sim_loop]. cbn [exact flt]. unfold Rltb. destruct (Rlt_dec (s_t s) T) as [Ht|Ht]; [|discriminate].
      assert (Hs : sim_step (exact G) rhs unstable dt s <> UB).
      { unfold sim_step. specialize (Hrk (s_t s) (s_u s, s_res s)). destruct (rk_step (exact G) (rhs (s_t s)) dt (s_u s, s_res s)) as [[u' r']| |]; cbn [bind]; try discriminate; [|congruence]. destruct (unstable u'); discriminate. }
      destruct (sim_step (exact G) rhs unstable dt s) as [s1| |] eqn:Es; cbn [bind]; [|discriminate|congruence].
      destruct (step_fields G rhs unstable dt s s1 Es) as (Et & _). subst fu. apply IH.
      rewrite S_INR in Hf. rewrite Et. replace ((T - (s_t s + dt)) / dt) with ((T - s_t s) / dt - 1) by (field; lra). lra. }
  apply Gn. exact Hf.
Qed.

(* A concrete run: y' = -y for two unknowns, dt = 1/2, from t = 0 to 1. *)
Example C48_witness : let f := fun (_ : R) v => Ok (map Ropp v) in
  exists s, sim_loop (exact (fun x => x)) 4 f (fun _ => false) (1 / 2) 1 (Sim 0 0 [1; 2] [0; 0] []) = Ok s /\ s_t s = 1 /\ s_count s = 2%nat /\ s_out s = [(0%nat, [1; 2])].
Proof.
  intros f. assert (St : forall s, exists s', sim_step (exact (fun x => x)) f (fun _ => false) (1 / 2) s = Ok s').
  { intros s. unfold sim_step. destruct (C48_total (fun x => x) (f (s_t s)) (1 / 2) (s_u s) (s_res s)) as (u' & r' & ->); [intros v; eexists; reflexivity|]. cbn [bind]. eauto. }
  set (s0 := Sim 0 0 [1; 2] [0; 0] []). destruct (St s0) as (s1 & E1). destruct (St s1) as (s2 & E2).
  destruct (step_fields _ _ _ _ _ _ E1) as (T1 & C1 & O1 & _). destruct (step_fields _ _ _ _ _ _ E2) as (T2 & C2 & O2 & _). change (s_t s0) with 0 in T1. change (s_count s0) with 0%nat in *. change (s_out s0) with (@nil (nat * list R)) in O1.
  rewrite C1 in C2, O2. cbn [Nat.modulo Nat.divmod Nat.eqb fst snd Nat.sub] in O1, O2.
  exists s2. cbn [sim_loop exact flt]. change (flt (exact (fun x => x))) with Rltb. change (s_t s0) with 0. unfold Rltb at 1. destruct (Rlt_dec 0 1) as [_|N]; [|exfalso; lra].
  rewrite E1. cbn [bind]. rewrite T1. unfold Rltb at 1. destruct (Rlt_dec (0 + 1 / 2) 1) as [_|N]; [|exfalso; lra].
  rewrite E2. cbn [bind]. rewrite T2, T1. unfold Rltb. destruct (Rlt_dec (0 + 1 / 2 + 1 / 2) 1) as [N|_]; [exfalso; lra|].
  split; [reflexivity|]. split; [lra|]. split; [exact C2|]. rewrite O2, O1. reflexivity.
Qed.

Print Assumptions C48_scheme.
Print Assumptions C48_total.
Print Assumptions C48_residual_irrelevant.
Print Assumptions C48_constant.
Print Assumptions C48_linear.
Print Assumptions C48_double_coefficients.
Print Assumptions C48_time_loop.
Print Assumptions C48_time_loop_ends.
