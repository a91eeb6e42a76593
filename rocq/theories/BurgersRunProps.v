(* BurgersRunProps.v - C105: the program burgers1d from one step to the printed error.
   wave, solves_burgers, largest_at and end_flows are in BurgersRunSpec.v; value, follows, derivatives and total in AdvecRunSpec.v. *)
From Coq Require Import ZArith List Lia Bool Arith.
From Verif Require Import Base Loops Num JacobiModel JacobiSpec JacobiProofs JacobiOrthProofs JacobiQuadProofs JacobiExactProofs
  DenseSpec CscModel MeshModel Nodes1DModel Nodes1DSpec Nodes1DProofs Nodes1DExactProofs Nodes1DProps DblProofs RKModel RKSpec RKProofs RKProps Line1DModel Line1DSpec TriBasisProofs Line1DProofs Line1DBurgersProofs Line1DProps
  AdvecRunModel AdvecRunSpec AdvecRunProofs AdvecRunProps SwStepProps BurgersRunModel BurgersRunSpec BurgersRunProofs.
From Coq Require Import Reals Lra SpecFloat.
Import ListNotations.
Local Open Scope R_scope.

(* The profile the program starts from, takes its boundary values from and compares with: with the real hyperbolic tangent it is
   the wave, and the wave solves Burgers' equation. *)
Theorem C105_exact_solution : forall G alpha nu c, alpha <> 0 -> nu <> 0 ->
  (forall x t, Burgers2 (exact G) tanh x t alpha nu c = wave alpha nu c x t) /\ solves_burgers alpha nu (wave alpha nu c).
Proof.
  intros G alpha nu c Ha Hn. split.
  - intros x t. unfold Burgers2, wave. rewrite fhalf_exact. cbn [exact fsub fmul fdiv]. replace (1 / 2 * (c / nu) * (x - c * t)) with (c / (2 * nu) * (x - c * t)) by (field; exact Hn). ring.
  - exists (fun x t => - (c / alpha) * (c / (2 * nu)) * (1 - tanh (c / (2 * nu) * (x - c * t)) ^ 2)). split; [intros; apply wave_x|].
    intros x t. do 2 eexists. split; [apply wave_t|]. split; [apply wave_xx|]. unfold wave. set (T := tanh _). clearbody T. field. auto.
Qed.
(* What fails: the rates the program computes are those of u_t + u u_x = nu u_xx (C105_consistent), whatever alpha is. For any
   other alpha than 1 the profile does not solve that equation. *)
Theorem C105_alpha_refuted : forall alpha nu c, alpha <> 0 -> alpha <> 1 -> nu <> 0 -> c <> 0 -> ~ solves_burgers 1 nu (wave alpha nu c).
Proof.
  intros alpha nu c Ha H1 Hn Hc (ux & Dx & H). destruct (H 0 0) as (ut & uxx & Dt & Dxx & Eq).
  assert (Ex : forall x t, ux x t = - (c / alpha) * (c / (2 * nu)) * (1 - tanh (c / (2 * nu) * (x - c * t)) ^ 2)) by (intros x t; apply (uniqueness_limite _ _ _ _ (Dx x t) (wave_x alpha nu c x t))).
  rewrite (uniqueness_limite _ _ _ _ Dt (wave_t alpha nu c 0 0)) in Eq.
  assert (Exx : uxx = c / alpha * 2 * (c / (2 * nu)) ^ 2 * (tanh (c / (2 * nu) * (0 - c * 0)) * (1 - tanh (c / (2 * nu) * (0 - c * 0)) ^ 2))).
  { apply (uniqueness_limite (fun y => ux y 0) 0); [exact Dxx|]. apply (dpl_ext (fun y => - (c / alpha) * (c / (2 * nu)) * (1 - tanh (c / (2 * nu) * (y - c * 0)) ^ 2))); [intro; symmetry; apply Ex|apply wave_xx]. }
  rewrite Exx, Ex in Eq. unfold wave in Eq. replace (c / (2 * nu) * (0 - c * 0)) with 0 in Eq by ring. rewrite tanh_0' in Eq.
  assert (Z : c ^ 3 * (alpha - 1) = 0).
  { apply (Rmult_eq_reg_r (1 / (2 * nu * alpha ^ 2))); [|assert (alpha ^ 2 <> 0) by (apply pow_nonzero; exact Ha); unfold Rdiv; rewrite Rmult_1_l; apply Rinv_neq_0_compat; apply Rmult_integral_contrapositive; split; lra].
    match type of Eq with ?l = ?rr => replace (c ^ 3 * (alpha - 1) * (1 / (2 * nu * alpha ^ 2))) with (l - rr) by (field; auto) end. rewrite Eq. ring. }
  apply Rmult_integral in Z. destruct Z as [Z|Z]; [apply (pow_nonzero c 3 Hc Z)|lra].
Qed.

Section Drivers.
Variables (G : R -> R) (N K : nat) (a b eps tol : R).
Variables (solve : mat R -> mat R -> mat R -> outcome (mat R)) (inverse : mat R -> mat R -> outcome (mat R))
  (eig : nat -> (nat -> nat -> R) -> list R * (nat -> nat -> R)) (junk : nat -> nat -> R) (junkv : nat -> R)
  (jk : nat * dbl) (jp ji : nat -> nat) (jx : nat -> dbl) (junkn : nat -> nat) (ftanh : R -> R) (lowest : R).
Local Notation E := (exact G).
Local Notation Np := (S (S N)).
Local Notation w := ((b - a) / INR K).
Local Notation result := (buildNodes1D E solve inverse eig eps junk tol (buildConnectivity1D jk jp ji jx) junkn (S N) K a b).
Local Notation metric n := (computeJacobian1D E junk Np K (n_x n) (n_Dr n)).
Local Notation rate n rx Fs t c alpha nu := (on_lists E Np K (burgers_rhs E junk junkv ftanh lowest n rx Fs Np K (n_x n) t c alpha nu)).
Local Notation step n rx Fs t c alpha nu dt := (rk_step E (rate n rx Fs t c alpha nu) dt).
Local Notation profile x t alpha nu c := (Burgers2 E ftanh x t alpha nu c).

Lemma bbuilt : a <> b -> sound1D G N K eps tol solve inverse eig -> result = Throw \/
  exists n J rx Fs, result = Ok n /\ metric n = Ok (J, rx, Fs) /\ line_tables n J rx Fs Np K w /\ shape (n_x n) Np K /\
    ment (n_x n) 0%nat 0%nat = a /\ ment (n_x n) (Np - 1)%nat (K - 1)%nat = b /\ a + w * INR K = b /\
    forall i k, (i < Np)%nat -> (k < K)%nat -> ment (n_x n) i k = a + w * INR k + w / 2 * (1 + nth i (n_r n) 0).
Proof.
  intros Hab HS. destruct (built G N K a b eps tol solve inverse eig junk jk jp ji jx junkn Hab HS) as [Et | (n & J & rx & Fs & En & EJ & LT & HX)]; [left; exact Et|].
  destruct (built_tables G N K a b eps tol solve inverse eig junk jk jp ji jx junkn Hab HS) as [Et | (n1 & J1 & rx1 & Fs1 & En1 & _ & _ & X0 & XK & SX)]; [congruence|].
  assert (n1 = n) by congruence. subst n1. right. exists n, J, rx, Fs. split; [exact En|]. split; [exact EJ|]. split; [exact LT|]. split; [exact SX|].
  split; [exact X0|]. split; [replace (Np - 1)%nat with (S N) by lia; exact XK|]. split; [|exact HX].
  pose proof (lt_K _ _ _ _ _ _ _ LT) as HK. assert (0 < INR K) by (apply lt_0_INR; exact HK). field. lra.
Qed.

Lemma bstep n J rx Fs t c alpha nu dt u res : line_tables n J rx Fs Np K w -> shape (n_x n) Np K -> length u = (Np * K)%nat -> length res = (Np * K)%nat ->
  exists u' res', step n rx Fs t c alpha nu dt (u, res) = Ok (u', res') /\ length u' = (Np * K)%nat /\ length res' = (Np * K)%nat /\
    forall A B, (forall G f dt u res u' res', length res = length u -> (forall v w, length v = length u -> f v = Ok w -> length w = length u) ->
      rk_step (exact G) f dt (u, res) = Ok (u', res') -> length u' = length u /\ length res' = length u /\ explicit_rk_step 5 A B f dt u u') ->
    explicit_rk_step 5 A B (rate n rx Fs t c alpha nu) dt u u'.
Proof.
  intros LT SX Lu Lr.
  destruct (C48_total G (rate n rx Fs t c alpha nu) dt u res) as (u' & res' & Es).
  { intro v. destruct (brhs_ok G junk junkv ftanh lowest n J rx Fs Np K w LT SX t c alpha nu v) as (q & Eq & _). eauto. }
  assert (Hl : forall v w0, length v = length u -> rate n rx Fs t c alpha nu v = Ok w0 -> length w0 = length u).
  { intros v q _ Eq. destruct (brhs_ok G junk junkv ftanh lowest n J rx Fs Np K w LT SX t c alpha nu v) as (q' & Eq' & L). rewrite Lu. congruence. }
  exists u', res'. split; [exact Es|]. destruct rk_table as (A & B & _ & _ & HT).
  destruct (HT G _ dt u res u' res' ltac:(lia) Hl Es) as (L1 & L2 & _). split; [lia|]. split; [lia|].
  intros A' B' HT'. apply (HT' G _ dt u res u' res' ltac:(lia) Hl Es).
Qed.

(* The time step: positive, at most CFL times the smaller of the advective and the diffusive limit, and equal to one of them. *)
Theorem C105_time_step : a < b -> sound1D G N K eps tol solve inverse eig -> result = Throw \/
  exists n, result = Ok n /\ let dx := ment (n_x n) 1%nat 0%nat - ment (n_x n) 0%nat 0%nat in 0 < dx /\
  forall CFL c nu, 0 < CFL -> c <> 0 -> 0 < nu -> let dt := burgers_dt E CFL c nu (n_x n) in
    0 < dt /\ Rabs c * dt <= CFL * dx /\ sqrt nu * dt <= CFL * dx ^ 2 /\ (Rabs c * dt = CFL * dx \/ sqrt nu * dt = CFL * dx ^ 2).
Proof.
  intros Hab HS. destruct (C100_time_step G N K a b eps tol solve inverse eig junk jk jp ji jx junkn Hab HS) as [Et | (n & En & Ht)]; [left; exact Et|]. right. exists n. split; [exact En|].
  intro dx. assert (Px : 0 < dx). { destruct (Ht 1 1 ltac:(lra) ltac:(lra)) as (P & Q). fold dx in Q. rewrite Rabs_R1 in Q. lra. }
  split; [exact Px|]. intros CFL c nu HC Hc Hn dt. pose proof (Rabs_pos_lt c Hc) as Pc. pose proof (sqrt_lt_R0 nu Hn) as Ps.
  unfold dt, burgers_dt. cbn [exact fmul fsub fdiv fabs fsqrt flt]. fold dx. unfold Rltb.
  assert (P1 : 0 < dx / Rabs c) by (apply Rdiv_lt_0_compat; lra). assert (P2 : 0 < dx * dx / sqrt nu) by (apply Rdiv_lt_0_compat; [apply Rmult_lt_0_compat; lra|lra]).
  assert (Q1 : Rabs c * (CFL * (dx / Rabs c)) = CFL * dx) by (field; lra). assert (Q2 : sqrt nu * (CFL * (dx * dx / sqrt nu)) = CFL * dx ^ 2) by (field; lra).
  destruct (Rlt_dec (dx * dx / sqrt nu) (dx / Rabs c)) as [L|L].
  - split; [apply Rmult_lt_0_compat; lra|]. split; [|split; [lra|right; exact Q2]]. rewrite <- Q1. apply Rmult_le_compat_l; [lra|]. apply Rmult_le_compat_l; lra.
  - split; [apply Rmult_lt_0_compat; lra|]. split; [lra|]. split; [|left; exact Q1]. rewrite <- Q2. apply Rmult_le_compat_l; [lra|]. apply Rmult_le_compat_l; lra.
Qed.
(* What fails: the diffusive limit has sqrt(nu) where the diffusivity is nu. For nu above 1, once dx is small, the step is longer
   than CFL*dx^2/nu, by the factor sqrt(nu). *)
Theorem C105_diffusive_limit_refuted : a < b -> sound1D G N K eps tol solve inverse eig -> result = Throw \/
  exists n, result = Ok n /\ let dx := ment (n_x n) 1%nat 0%nat - ment (n_x n) 0%nat 0%nat in
  forall CFL c nu, 0 < CFL -> c <> 0 -> 1 < nu -> Rabs c * dx <= sqrt nu -> let dt := burgers_dt E CFL c nu (n_x n) in
    nu * dt = sqrt nu * (CFL * dx ^ 2) /\ CFL * dx ^ 2 < nu * dt.
Proof.
  intros Hab HS. destruct (C105_time_step Hab HS) as [Et | (n & En & Px & Ht)]; [left; exact Et|]. right. exists n. split; [exact En|]. intros dx CFL c nu HC Hc Hn Hd dt. fold dx in Px, Ht.
  destruct (Ht CFL c nu HC Hc ltac:(lra)) as (P & L1 & L2 & Q). fold dt in P, L1, L2, Q. pose proof (Rabs_pos_lt c Hc) as Pc. pose proof (sqrt_lt_R0 nu ltac:(lra)) as Ps.
  assert (S1 : 1 < sqrt nu) by (rewrite <- sqrt_1; apply sqrt_lt_1; lra). assert (SS : sqrt nu * sqrt nu = nu) by (apply sqrt_sqrt; lra).
  assert (E2 : sqrt nu * dt = CFL * dx ^ 2).
  { destruct Q as [Q|Q]; [|exact Q]. apply Rle_antisym; [exact L2|]. apply (Rmult_le_reg_l (Rabs c)); [exact Pc|].
    replace (Rabs c * (sqrt nu * dt)) with (sqrt nu * (Rabs c * dt)) by ring. rewrite Q. replace (Rabs c * (CFL * dx ^ 2)) with (Rabs c * dx * (CFL * dx)) by ring.
    apply Rmult_le_compat_r; [|exact Hd]. apply Rmult_le_pos; lra. }
  assert (E3 : nu * dt = sqrt nu * (CFL * dx ^ 2)) by (rewrite <- E2, <- SS at 1; ring). split; [exact E3|]. rewrite E3.
  rewrite <- (Rmult_1_l (CFL * dx ^ 2)) at 1. apply Rmult_lt_compat_r; [|exact S1]. apply Rmult_lt_0_compat; [exact HC|apply pow_lt; exact Px].
Qed.

(* The rates. On a field that is one polynomial P on all elements and has the boundary values at both ends they are
   -(I(P^2/2))' + nu P'', I interpolation at the nodes of the element; if the square of P is in the space, -P P' + nu P''. *)
Theorem C105_consistent : a <> b -> sound1D G N K eps tol solve inverse eig -> result = Throw \/
  exists n J rx Fs, result = Ok n /\ metric n = Ok (J, rx, Fs) /\
  forall t c alpha nu P D l, 0 <= nu -> (length P <= Np)%nat -> derivatives D -> (forall x, D 0%nat x = peval P x) ->
    follows Np K (n_x n) l 0 (D 0%nat) -> D 0%nat a = profile a t alpha nu c -> D 0%nat b = profile b t alpha nu c ->
  exists v, rate n rx Fs t c alpha nu l = Ok v /\
    (forall i k Q dQ, (i < Np)%nat -> (k < K)%nat -> (length Q <= Np)%nat -> (forall j, (j < Np)%nat -> let x := ment (n_x n) j k in peval Q x = D 0%nat x ^ 2 / 2) ->
      let x := ment (n_x n) i k in derivable_pt_lim (peval Q) x dQ -> value K v i k = - dQ + nu * D 2%nat x) /\
    ((2 * length P <= S Np)%nat -> follows Np K (n_x n) v 0 (fun x => - (D 0%nat x * D 1%nat x) + nu * D 2%nat x)).
Proof.
  intros Hab HS. destruct (bbuilt Hab HS) as [Et | (n & J & rx & Fs & En & EJ & LT & SX & X0 & XK & Eb & HX)]; [left; exact Et|]. right. exists n, J, rx, Fs. split; [exact En|]. split; [exact EJ|].
  intros t c alpha nu P D l Hnu LP HD H0 HF HL HR. destruct (brhs_ok G junk junkv ftanh lowest n J rx Fs Np K w LT SX t c alpha nu l) as (v & Ev & _). exists v. split; [exact Ev|].
  assert (Cs : forall i k Q, (i < Np)%nat -> (k < K)%nat -> (length Q <= Np)%nat -> (forall j, (j < Np)%nat -> peval Q (ment (n_x n) j k) = peval P (ment (n_x n) j k) ^ 2 / 2) ->
    value K v i k = - dpeval Q (ment (n_x n) i k) + nu * D 2%nat (ment (n_x n) i k)).
  { intros i k Q Hi Hk LQ HQ. rewrite (derivs P D HD H0 2), dk_S. change (dk 1 P) with (pderiv P).
    apply (consistent G junk junkv ftanh lowest n J rx Fs Np K a w LT HX SX t c alpha nu P l v Hnu LP); auto.
    - intros i' k' Hi' Hk'. rewrite <- H0. apply HF; auto.
    - rewrite X0, <- HL. symmetry. apply H0.
    - rewrite XK, Eb, <- HR. symmetry. apply H0. }
  split.
  - intros i k Q dQ Hi Hk LQ HQ x Dx. rewrite (uniqueness_limite _ _ _ _ Dx (dpeval_ok Q x)). apply Cs; auto. intros j Hj. cbv zeta in HQ. rewrite HQ, H0 by auto. reflexivity.
  - intros L2 i k Hi Hk. destruct (pmul_len P P) as (m & Lm & Hm). rewrite (Cs i k (pscal (1 / 2) m) Hi ltac:(lia)).
    + f_equal. f_equal. apply (uniqueness_limite (peval (pscal (1 / 2) m)) (ment (n_x n) i k)); [apply dpeval_ok|].
      apply (dpl_ext (fun y => 0 + 1 / 2 * (peval P y * peval P y))); [intro y; rewrite pscal_eval, Hm; ring|].
      rewrite (derivs P D HD H0 1), (derivs P D HD H0 0). change (dk 0 P) with P. set (x := ment (n_x n) i k).
      replace (peval P x * peval (dk 1 P) x) with (1 / 2 * (dpeval P x * peval P x + peval P x * dpeval P x)) by (rewrite dk_S; change (dk 0 P) with P; field).
      apply dpl_aff. apply (derivable_pt_lim_mult (peval P) (peval P)); apply dpeval_ok.
    + rewrite pscal_len. lia.
    + intros j Hj. rewrite pscal_eval, Hm. field.
Qed.

(* A step always succeeds and is a step of the fourth order method of C48, all stages with the boundary values of its start. The
   integral of u changes by what the five stages let in at the left end and out at the right end, nothing else. *)
Theorem C105_balance : exists (A : nat -> nat -> R) (B : nat -> R), order4 5 A B (1 / 100000000000) /\
  (a <> b -> lowest < 0 -> sound1D G N K eps tol solve inverse eig -> result = Throw \/
  exists n J rx Fs, result = Ok n /\ metric n = Ok (J, rx, Fs) /\
  forall t c alpha nu dt u res m, length u = (Np * K)%nat -> length res = (Np * K)%nat -> total Np K w (n_r n) u m ->
  exists u' res' m' (v k : nat -> list R) (fin fout : nat -> R), step n rx Fs t c alpha nu dt (u, res) = Ok (u', res') /\
    length u' = (Np * K)%nat /\ length res' = (Np * K)%nat /\
    (forall i, (i < 5)%nat -> v i = shifted u dt i (A i) k /\ rate n rx Fs t c alpha nu (v i) = Ok (k i) /\
       end_flows Np K w (n_r n) (profile a t alpha nu c) (profile b t alpha nu c) nu (v i) (fin i) (fout i)) /\
    u' = shifted u dt 5 B k /\ total Np K w (n_r n) u' m' /\ m' = m + dt * sumn 5 (fun i => B i * (fin i - fout i))).
Proof.
  destruct rk_table as (A & B & O & _ & HT). exists A, B. split; [exact O|].
  intros Hab Hlo HS. destruct (bbuilt Hab HS) as [Et | (n & J & rx & Fs & En & EJ & LT & SX & X0 & XK & Eb & HX)]; [left; exact Et|]. right. exists n, J, rx, Fs. split; [exact En|]. split; [exact EJ|].
  intros t c alpha nu dt u res m Lu Lr Hm. destruct (bstep n J rx Fs t c alpha nu dt u res LT SX Lu Lr) as (u' & res' & Es & L1 & L2 & HR). destruct (HR A B HT) as (p & Hp & Eu).
  destruct (C76_burgers_weak_form G N K a b eps tol solve inverse eig junk junkv jk jp ji jx junkn ftanh lowest Hab Hlo HS) as [Et | (n1 & J1 & rx1 & Fs1 & En1 & EJ1 & HW)]; [congruence|].
  assert (n1 = n) by congruence. subst n1. assert (rx1 = rx /\ Fs1 = Fs) as (-> & ->) by (split; congruence).
  pose proof (lt_K _ _ _ _ _ _ _ LT) as HK.
  assert (Fl : forall l q, rate n rx Fs t c alpha nu l = Ok q -> exists fi fo, end_flows Np K w (n_r n) (profile a t alpha nu c) (profile b t alpha nu c) nu l fi fo /\ total Np K w (n_r n) q (fi - fo)).
  { intros l q Eq. destruct (interp_exists n J rx Fs Np K w LT (as_field E Np K l)) as (U & HU).
    destruct (HW t c alpha nu (as_field E Np K l) U ltac:(split; reflexivity) HU) as (M & rhs & Q & F & HM & Er & Sr & HQF & W1 & W2).
    unfold on_lists in Eq. rewrite Er in Eq. cbn [bind] in Eq. injection Eq as <-.
    destruct (interp_exists n J rx Fs Np K w LT rhs) as (V & HV). specialize (W2 V HV).
    set (f := lax_friedrichs K (profile a t alpha nu c) (profile b t alpha nu c) (sqrt nu) M U Q F) in *.
    destruct (C76_burgers_conserves N K a b F V f W2) as (HI & HTel).
    exists (f 0%nat), (f K). split.
    - exists M, U, Q. split; [exact HM|]. split.
      { intros k Hk. destruct (HU k Hk) as (LU & VU). destruct (HQF k Hk) as (LQ & _). split; [exact LU|]. split; [exact LQ|]. intros i Hi. rewrite <- VU by exact Hi. reflexivity. }
      split; [exact W1|]. split; [unfold f; cbn [lax_friedrichs]; field|]. unfold f. destruct K as [|K']; [lia|]. cbn [lax_friedrichs]. rewrite Nat.eqb_refl. replace (S K' - 1)%nat with K' by lia. field.
    - exists V, (fun k => f k - f (S k)). split; [|symmetry; exact HTel]. intros k Hk. destruct (HV k Hk) as (LV & VV). split; [exact LV|]. split; [|apply HI; exact Hk].
      intros i Hi. rewrite (of_field_value rhs Np K) by auto. apply VV. exact Hi. }
  assert (Ch : forall s, (s <= 5)%nat -> exists fi fo : nat -> R, forall i, (i < s)%nat -> end_flows Np K w (n_r n) (profile a t alpha nu c) (profile b t alpha nu c) nu (shifted u dt i (A i) p) (fi i) (fo i) /\ total Np K w (n_r n) (p i) (fi i - fo i)).
  { induction s as [|s IH]; intro Hs; [exists (fun _ => 0), (fun _ => 0); intros; lia|]. destruct (IH ltac:(lia)) as (fi & fo & H). destruct (Fl _ _ (Hp s ltac:(lia))) as (x & y & Hxy).
    exists (fun i => if (i =? s)%nat then x else fi i), (fun i => if (i =? s)%nat then y else fo i). intros i Hi. destruct (Nat.eqb_spec i s) as [-> |]; [exact Hxy|apply H; lia]. }
  destruct (Ch 5%nat (Nat.le_refl _)) as (fi & fo & Hf).
  exists u', res', (m + dt * sumn 5 (fun i => B i * (fi i - fo i))), (fun i => shifted u dt i (A i) p), p, fi, fo.
  split; [exact Es|]. split; [exact L1|]. split; [exact L2|]. split; [intros i Hi; split; [reflexivity|]; split; [apply Hp; exact Hi|apply Hf; exact Hi]|]. split; [exact Eu|]. split; [|reflexivity].
  rewrite Eu. apply (total_shifted n Np K w u dt 5 B p m (fun i => fi i - fo i) Lu Hm). intros i Hi. apply Hf. exact Hi.
Qed.

(* A whole run: the states, the times, when it stops, what is written and what is printed. *)
Theorem C105_run : exists (A : nat -> nat -> R) (B : nat -> R), order4 5 A B (1 / 100000000000) /\
  (a < b -> lowest < 0 -> sound1D G N K eps tol solve inverse eig -> result = Throw \/
  exists n J rx Fs, result = Ok n /\ metric n = Ok (J, rx, Fs) /\
  forall fuel huge CFL c alpha nu finalTime s err, 0 < CFL -> c <> 0 -> 0 < nu ->
    burgers_run E junk junkv ftanh lowest fuel n rx Fs Np K huge CFL c alpha nu finalTime = Ok (s, err) ->
  let dt := burgers_dt E CFL c nu (n_x n) in
  exists m (u : nat -> list R), u m = s_u s /\
    follows Np K (n_x n) (u 0%nat) 0 (fun x => profile x 0 alpha nu c) /\
    (forall i, (i < m)%nat -> explicit_rk_step 5 A B (rate n rx Fs (INR i * dt) c alpha nu) dt (u i) (u (S i)) /\
       forall j k, (j < Np)%nat -> (k < K)%nat -> Rabs (value K (u (S i)) j k) <= huge) /\
    finalTime <= INR m * dt /\ (forall i, (i < m)%nat -> INR i * dt < finalTime) /\
    (forall i v, In (i, v) (s_out s) <-> (i < m)%nat /\ (i mod 10 = 0)%nat /\ v = u i) /\
    largest_at Np K (fun j k => value K (u m) j k - profile (ment (n_x n) j k) (INR m * dt) alpha nu c) err).
Proof.
  destruct rk_table as (A & B & O & _ & HT). exists A, B. split; [exact O|].
  intros Hab Hlo HS. destruct (bbuilt ltac:(lra) HS) as [Et | (n & J & rx & Fs & En & EJ & LT & SX & X0 & XK & Eb & HX)]; [left; exact Et|]. right. exists n, J, rx, Fs. split; [exact En|]. split; [exact EJ|].
  intros fuel huge CFL c alpha nu T s err HC Hc Hn Er dt.
  destruct (C105_time_step Hab HS) as [Et | (n1 & En1 & _ & Ht)]; [congruence|]. assert (n1 = n) by congruence. subst n1. destruct (Ht CFL c nu HC Hc Hn) as (Pd & _). fold dt in Pd. clear Ht.
  pose proof (lt_K _ _ _ _ _ _ _ LT) as HK.
  unfold burgers_run in Er. cbv zeta in Er. fold dt in Er. change (fofn E 0) with 0 in Er.
  match type of Er with bind ?L _ = _ => destruct L as [s1| |] eqn:EL; cbn [bind] in Er; try discriminate end. injection Er as <- <-.
  destruct (C48_time_loop G _ _ dt T fuel 0 _ _ s1 Pd EL) as (m & st & S0 & Sm & St & Tm & T1 & T2 & T0 & Ho).
  assert (Ls : forall i, (i <= m)%nat -> length (s_u (st i)) = (Np * K)%nat /\ length (s_res (st i)) = (Np * K)%nat /\ s_t (st i) = INR i * dt).
  { induction i as [|i IH]; intro Hi.
    - rewrite S0. cbn [s_u s_res s_t INR]. split; [rewrite of_field_len; destruct SX as (Sr & Sc); unfold burgers_profile; cbn [mmap mrows mcols]; rewrite Sr, Sc; reflexivity|]. split; [apply repeat_length|ring].
    - destruct (IH ltac:(lia)) as (L1 & L2 & L3). specialize (St i ltac:(lia)). unfold sim_step in St.
      destruct (bstep n J rx Fs (s_t (st i)) c alpha nu dt _ _ LT SX L1 L2) as (u' & r' & Es & L1' & L2' & _). rewrite Es in St. cbn [bind] in St.
      destruct (burgers_unstable E lowest huge Np K u'); [discriminate|]. injection St as <-. cbn [s_u s_res s_t exact fadd]. rewrite L3, S_INR. split; [exact L1'|]. split; [exact L2'|ring]. }
  exists m, (fun i => s_u (st i)). rewrite Sm. split; [reflexivity|]. split; [|split; [|split; [|split; [|split]]]].
  - rewrite S0. cbn [s_u]. intros i k Hi Hk. rewrite (of_field_value _ Np K) by (try lia; destruct SX; split; assumption). reflexivity.
  - intros i Hi. destruct (Ls i ltac:(lia)) as (L1 & L2 & L3). specialize (St i Hi). unfold sim_step in St.
    destruct (bstep n J rx Fs (s_t (st i)) c alpha nu dt _ _ LT SX L1 L2) as (u' & r' & Es & L1' & L2' & HR). rewrite Es in St. cbn [bind] in St. rewrite L3 in HR.
    destruct (burgers_unstable E lowest huge Np K u') eqn:Eu; [discriminate|]. injection St as <-. cbn [s_u]. split; [apply HR; exact HT|].
    intros j k Hj Hk. destruct (Rle_dec (Rabs (value K u' j k)) huge) as [Q|Q]; [exact Q|]. exfalso. enough (burgers_unstable E lowest huge Np K u' = true) by congruence.
    apply unstable_iff; [exact Hlo|lia|exact HK|]. exists j, k. split; [exact Hj|]. split; [exact Hk|lra].
  - rewrite Tm in T1. lra.
  - intros i Hi. specialize (T2 ltac:(lia)). rewrite Tm in T2.
    destruct (Nat.eq_dec m 0); [lia|]. assert (INR i * dt <= (INR m - 1) * dt); [|lra]. apply Rmult_le_compat_r; [lra|]. apply (le_INR (S i) m) in Hi. rewrite S_INR in Hi. lra.
  - intros i v. rewrite Ho. split; intros (P & Q & V); auto.
  - rewrite Tm. replace (0 + INR m * dt) with (INR m * dt) by ring.
    destruct SX as (SXr & SXc). apply (max_at G lowest Np K (mzip (fsub E) (as_field E Np K (s_u s1)) (burgers_profile E ftanh (n_x n) (INR m * dt) alpha nu c)) Hlo ltac:(lia) HK). split; reflexivity.
Qed.

(* With enough iterations allowed the program ends, with a result or with the instability error. *)
Theorem C105_ends : a < b -> lowest < 0 -> sound1D G N K eps tol solve inverse eig -> result = Throw \/
  exists n J rx Fs, result = Ok n /\ metric n = Ok (J, rx, Fs) /\
  forall fuel huge CFL c alpha nu finalTime, 0 < CFL -> c <> 0 -> 0 < nu -> finalTime / burgers_dt E CFL c nu (n_x n) <= INR fuel ->
    burgers_run E junk junkv ftanh lowest (S fuel) n rx Fs Np K huge CFL c alpha nu finalTime <> UB.
Proof.
  intros Hab Hlo HS. destruct (bbuilt ltac:(lra) HS) as [Et | (n & J & rx & Fs & En & EJ & LT & SX & X0 & XK & Eb & HX)]; [left; exact Et|]. right. exists n, J, rx, Fs. split; [exact En|]. split; [exact EJ|].
  intros fuel huge CFL c alpha nu T HC Hc Hn Hf.
  destruct (C105_time_step Hab HS) as [Et | (n1 & En1 & _ & Ht)]; [congruence|]. assert (n1 = n) by congruence. subst n1. destruct (Ht CFL c nu HC Hc Hn) as (Pd & _).
  unfold burgers_run. cbv zeta. change (fofn E 0) with 0.
  match goal with |- bind ?L _ <> _ => assert (L <> UB) as NU end.
  { apply C48_time_loop_ends; [exact Pd|rewrite Rminus_0_r; exact Hf|]. intros t v. destruct (brhs_ok G junk junkv ftanh lowest n J rx Fs Np K w LT SX t c alpha nu v) as (q & Eq & _). rewrite Eq. discriminate. }
  match goal with |- bind ?L _ <> _ => destruct L; cbn [bind]; congruence end.
Qed.
End Drivers.

(* What fails: the state the error is computed from is never written, whatever the number of steps. *)
Theorem C105_last_state_refuted : forall G rhs unstable dt finalTime fuel u0 res0 s v, 0 < dt ->
  sim_loop (exact G) fuel rhs unstable dt finalTime (Sim 0 0 u0 res0 []) = Ok s -> ~ In (s_count s, v) (s_out s).
Proof.
  intros G rhs unstable dt T fuel u0 res0 s v Hdt H Hin. destruct (C48_time_loop G rhs unstable dt T fuel 0 u0 res0 s Hdt H) as (n & st & S0 & Sn & St & _ & _ & _ & _ & Ho).
  assert (Hc : forall i, (i <= n)%nat -> s_count (st i) = i).
  { induction i as [|i IH]; intro Hi; [rewrite S0; reflexivity|]. specialize (St i ltac:(lia)). unfold sim_step in St. destruct (rk_step _ _ _ _) as [[u' r']| |]; cbn [bind] in St; try discriminate.
    destruct (unstable u'); [discriminate|]. injection St as <-. cbn [s_count]. f_equal. apply IH. lia. }
  apply Ho in Hin. rewrite <- Sn, Hc in Hin by lia. lia.
Qed.
(* What fails, in IEEE doubles with the limit 1e8 and the reduction's start -DBL_MAX: the maximum passes over NaN entries, so a
   field that is NaN everywhere is not caught. The test isnan(u_max) never holds. *)
Theorem C105_nan_undetected_refuted : forall gp gg Np K (l : list spec_float), (forall i k, (i < Np)%nat -> (k < K)%nat -> ment (as_field (dbl_arith gp gg) Np K l) i k = S754_nan) ->
  burgers_unstable (dbl_arith gp gg) dbl_lowest dbl_1e8 Np K l = false.
Proof.
  intros gp gg Np K l H. unfold burgers_unstable, max_abs. rewrite nan_skipped; [reflexivity|].
  intros [i j] Hij. cbn [as_field mrows mcols] in Hij. apply in_prod_iff in Hij as (Hi & Hj). apply in_seq in Hi, Hj. apply H; cbn; lia.
Qed.

(* Six elements of order 1 on [0,1] with the program's constants: built, with a field that is linear with the boundary values of
   time 0 at the ends, a field with an integral, and a run of one step that ends normally. *)
Example C105_witness : let eig := fun n (J : nat -> nat -> R) => (@nil R, J) in let w := (1 - 0) / INR 6 in
  let u0 := wave 1 (1 / 10) (1 / 2) 0 0 in let u1 := wave 1 (1 / 10) (1 / 2) 1 0 in
  sound1D gwit 0 6 0 (1 / 10) solve2 inverse2 eig /\ exists n J rx Fs,
  buildNodes1D (exact gwit) solve2 inverse2 eig 0 (fun _ _ => 0) (1 / 10) (buildConnectivity1D (0%nat, d_one) (fun _ => 0%nat) (fun _ => 0%nat) (fun _ => d_one)) (fun _ => 7%nat) 1 6 0 1 = Ok n /\
  computeJacobian1D (exact gwit) (fun _ _ => 0) 2 6 (n_x n) (n_Dr n) = Ok (J, rx, Fs) /\
  (let D := fun q x => match q with O => u0 + (u1 - u0) * x | 1%nat => u1 - u0 | _ => 0 end in
   let l := of_field (Line1DModel.mmap (D 0%nat) (n_x n)) in
   derivatives D /\ (forall x, D 0%nat x = peval [u0; u1 - u0] x) /\ follows 2 6 (n_x n) l 0 (D 0%nat) /\
   D 0%nat 0 = Burgers2 (exact gwit) tanh 0 0 1 (1 / 10) (1 / 2) /\ D 0%nat 1 = Burgers2 (exact gwit) tanh 1 0 1 (1 / 10) (1 / 2) /\
   length l = (2 * 6)%nat /\ exists m, total 2 6 w (n_r n) l m) /\
  exists fuel huge finalTime s err, 0 < finalTime /\
   burgers_run (exact gwit) (fun _ _ => 0) (fun _ => 0) tanh (-1) fuel n rx Fs 2 6 huge (3 / 4) (1 / 2) 1 (1 / 10) finalTime = Ok (s, err) /\ s_count s = 1%nat.
Proof.
  intros eig w u0 u1. destruct six as (HS & n & En). fold eig in HS, En. split; [exact HS|].
  destruct (bbuilt gwit 0 6 0 1 0 (1 / 10) solve2 inverse2 eig (fun _ _ => 0) (0%nat, d_one) (fun _ => 0%nat) (fun _ => 0%nat) (fun _ => d_one) (fun _ => 7%nat) ltac:(lra) HS)
    as [Et | (n1 & J & rx & Fs & En1 & EJ & LT & SX & X0 & XK & Eb & HX)]; [congruence|]. assert (n1 = n) by congruence. subst n1. fold w in LT, HX.
  destruct (C105_time_step gwit 0 6 0 1 0 (1 / 10) solve2 inverse2 eig (fun _ _ => 0) (0%nat, d_one) (fun _ => 0%nat) (fun _ => 0%nat) (fun _ => d_one) (fun _ => 7%nat) ltac:(lra) HS) as [Et | (n1 & En2 & _ & Ht)]; [congruence|].
  assert (n1 = n) by congruence. subst n1. destruct (Ht (3 / 4) (1 / 2) (1 / 10) ltac:(lra) ltac:(lra) ltac:(lra)) as (Pd & _).
  exists n, J, rx, Fs. split; [exact En|]. split; [exact EJ|]. destruct (C105_exact_solution gwit 1 (1 / 10) (1 / 2) ltac:(lra) ltac:(lra)) as (EW & _). split.
  - intros D l. assert (Sl : shape (Line1DModel.mmap (D 0%nat) (n_x n)) 2 6) by (destruct SX; split; assumption). split.
    { intros [|[|q]] x; cbn [D]; [|apply derivable_pt_lim_const|apply derivable_pt_lim_const]. replace (u1 - u0) with ((u1 - u0) * 1) by ring. apply (dpl_aff (fun y => y) u0 (u1 - u0)), derivable_pt_lim_id. }
    split; [intro x; cbn [D peval]; ring|]. split; [intros i k Hi Hk; unfold l; rewrite (of_field_value _ 2 6) by (auto; lia); reflexivity|].
    split; [rewrite EW; cbn [D]; unfold u0; ring|]. split; [rewrite EW; cbn [D]; unfold u1; ring|]. split; [unfold l; rewrite of_field_len; destruct Sl as (-> & ->); reflexivity|].
    apply (total_exists gwit n J rx Fs 2 6 w LT).
  - set (dt := burgers_dt (exact gwit) (3 / 4) (1 / 2) (1 / 10) (n_x n)) in *.
    set (v0 := of_field (burgers_profile (exact gwit) tanh (n_x n) 0 1 (1 / 10) (1 / 2))).
    destruct (bstep gwit 0 6 0 1 (fun _ _ => 0) (fun _ => 0) tanh (-1) n J rx Fs 0 (1 / 2) 1 (1 / 10) dt v0 (repeat 0 (2 * 6)) LT SX) as (u' & r' & Es & _).
    { unfold v0. rewrite of_field_len. destruct SX as (Sr & Sc). cbn [burgers_profile mmap mrows mcols]. rewrite Sr, Sc. reflexivity. }
    { apply repeat_length. }
    assert (Lo : -1 < 0) by lra. destruct (max_at gwit (-1) 2 6 (as_field (exact gwit) 2 6 u') Lo ltac:(lia) ltac:(lia) ltac:(split; reflexivity)) as (HM & _).
    set (huge := max_abs (exact gwit) (-1) (as_field (exact gwit) 2 6 u')) in *.
    assert (Hu : burgers_unstable (exact gwit) (-1) huge 2 6 u' = false).
    { destruct (burgers_unstable _ _ huge 2 6 u') eqn:Eu; [|reflexivity]. apply unstable_iff in Eu; [|lra|lia|lia]. destruct Eu as (i & k & Hi & Hk & Q). specialize (HM i k Hi Hk). rewrite (as_value gwit) in HM. lra. }
    assert (Hd1 : 0 < dt / 2) by lra. assert (Hd2 : ~ 0 + dt < dt / 2) by lra.
    exists 2%nat, huge, (dt / 2). do 2 eexists. split; [exact Hd1|]. unfold burgers_run. cbv zeta. fold dt. change (fofn (exact gwit) 0) with 0. fold v0.
    cbn [sim_loop s_t]. cbn [exact flt]. unfold Rltb. destruct (Rlt_dec 0 (dt / 2)) as [_|C]; [|contradiction]. unfold sim_step. cbn [s_t s_u s_res s_count s_out]. rewrite Es. cbn [bind]. rewrite Hu. cbn [s_t exact fadd bind].
    destruct (Rlt_dec (0 + dt) (dt / 2)) as [C|_]; [contradiction|]. cbn [bind]. split; reflexivity.
Qed.
Example C105_nan_witness : forall gp gg i k, (i < 2)%nat -> (k < 3)%nat -> ment (as_field (dbl_arith gp gg) 2 3 (repeat S754_nan 6)) i k = S754_nan.
Proof. intros gp gg [|[|i]] [|[|[|k]]] Hi Hk; try lia; reflexivity. Qed.

Print Assumptions C105_exact_solution.
Print Assumptions C105_alpha_refuted.
Print Assumptions C105_time_step.
Print Assumptions C105_diffusive_limit_refuted.
Print Assumptions C105_consistent.
Print Assumptions C105_balance.
Print Assumptions C105_run.
Print Assumptions C105_ends.
Print Assumptions C105_last_state_refuted.
Print Assumptions C105_nan_undetected_refuted.
