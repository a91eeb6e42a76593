(* Line1DProps.v - the theorems about the right-hand sides of the one-dimensional drivers (C75, C76).
   interpolates, weak_form, from_left, from_right, trace_mean, lax_friedrichs and largest_abs are in Line1DSpec.v. *)
From Coq Require Import ZArith List Lia Bool Arith.
From Verif Require Import Base Loops Num JacobiModel JacobiSpec JacobiProofs JacobiOrthProofs JacobiQuadProofs JacobiExactProofs
  DenseSpec CscModel MeshModel Nodes1DModel Nodes1DSpec Nodes1DProofs Nodes1DExactProofs Nodes1DProps DblProofs RKModel Line1DModel Line1DSpec TriBasisProofs Line1DProofs Line1DBurgersProofs.
From Coq Require Import Reals Lra SpecFloat.
Import ListNotations.
Local Open Scope R_scope.

Section Drivers.
Variables (G : R -> R) (N K : nat) (a b eps tol : R).
Variables (solve : mat R -> mat R -> mat R -> outcome (mat R)) (inverse : mat R -> mat R -> outcome (mat R))
  (eig : nat -> (nat -> nat -> R) -> list R * (nat -> nat -> R)) (junk : nat -> nat -> R) (junkv : nat -> R)
  (jk : nat * dbl) (jp ji : nat -> nat) (jx : nat -> dbl) (junkn : nat -> nat).
Local Notation E := (exact G).
Local Notation Np := (S (S N)).
Local Notation w := ((b - a) / INR K).
Local Notation result := (buildNodes1D E solve inverse eig eps junk tol (buildConnectivity1D jk jp ji jx) junkn (S N) K a b).
Local Notation metric n := (computeJacobian1D E junk Np K (n_x n) (n_Dr n)).

(* C75. For every order, number of elements, wave speed and field: the computed rate is the discontinuous
   Galerkin discretisation of -c u_x with upwind face terms, nothing entering at the left end. *)
Theorem C75_advection_weak_form : a <> b -> sound1D G N K eps tol solve inverse eig -> result = Throw \/
  exists n J rx Fs, result = Ok n /\ metric n = Ok (J, rx, Fs) /\
  (forall m, exists P, forall k, (k < K)%nat -> interpolates Np (n_r n) m k (P k)) /\
  forall c u U, shape u Np K -> (forall k, (k < K)%nat -> interpolates Np (n_r n) u k (U k)) ->
  exists rhs, advec_rhs E junk junkv n rx Fs Np K c u = Ok rhs /\ shape rhs Np K /\
  forall Q, (forall k, (k < K)%nat -> interpolates Np (n_r n) rhs k (Q k)) ->
    weak_form Np K w (- c) U Q
      (fun k => - Rmax c 0 * (peval (U k) (-1) - from_left U k))
      (fun k => Rmin c 0 * (peval (U k) 1 - from_right K U k)).
Proof.
  intros Hab HS. destruct (built_tables G N K a b eps tol solve inverse eig junk jk jp ji jx junkn Hab HS) as [Et | (n & J & rx & Fs & En & EJ & LT & _)]; [left; exact Et|].
  right. exists n, J, rx, Fs. split; [exact En|]. split; [exact EJ|]. split; [exact (interp_exists n J rx Fs _ K _ LT)|].
  intros c u U SU HU. destruct (advec_ok G junk junkv n J rx Fs _ K _ LT c u U SU HU) as (rhs & Er & Sr & Hr).
  exists rhs. split; [exact Er|]. split; [exact Sr|]. intros Q HQ.
  apply (weak_all n J rx Fs _ K _ LT (- c) u rhs (fun f k => match f with O => _ | _ => _ end) U HU Hr Q HQ).
Qed.

(* What the weak form says about any such rate, without reference to the code. *)
Definition advected (c : R) (U Q : nat -> list R) : Prop :=
  weak_form Np K w (- c) U Q (fun k => - Rmax c 0 * (peval (U k) (-1) - from_left U k)) (fun k => Rmin c 0 * (peval (U k) 1 - from_right K U k)).

Lemma tele_left U m : sumn m (fun k => from_left U k - peval (U k) 1) = match m with O => 0 | S m => - peval (U m) 1 end.
Proof. induction m as [|m IH]; [reflexivity|]. rewrite sumn_S, IH. destruct m; cbn [from_left]; ring. Qed.

(* The total of the field changes only by what leaves at the right end. *)
Theorem C75_advection_mass c U Q : (0 < K)%nat -> 0 <= c -> advected c U Q ->
  exists m, (forall k, (k < K)%nat -> integral_is (fun x => w / 2 * peval (Q k) x) (-1) 1 (m k)) /\
    sumn K m = - c * peval (U (K - 1)%nat) 1.
Proof.
  intros HK Hc HW. exists (fun k => c * (from_left U k - peval (U k) 1)). split.
  - intros k Hk. pose proof (weak_total Np K w (- c) U Q _ _ HW ltac:(lia) k Hk) as H. cbv beta in H.
    rewrite Rmax_left, Rmin_right in H by lra.
    replace (c * (from_left U k - peval (U k) 1)) with (- c * (peval (U k) 1 - peval (U k) (-1)) + (- c * (peval (U k) (-1) - from_left U k) + 0 * (peval (U k) 1 - from_right K U k))) by ring. exact H.
  - rewrite sumn_scal, tele_left. destruct K as [|K']; [lia|]. replace (S K' - 1)%nat with K' by lia. ring.
Qed.

Lemma tele_left_sq U m : sumn m (fun k => from_left U k * from_left U k - peval (U k) 1 * peval (U k) 1) = match m with O => 0 | S m => - (peval (U m) 1 * peval (U m) 1) end.
Proof. induction m as [|m IH]; [reflexivity|]. rewrite sumn_S, IH. destruct m; cbn [from_left]; ring. Qed.

(* For c >= 0 the energy (half the integral of the square) decays: by the squares of all jumps, the inflow
   value and the outflow value. *)
Theorem C75_advection_energy c U Q : (0 < K)%nat -> 0 <= c -> (forall k, (k < K)%nat -> (length (U k) <= Np)%nat) -> advected c U Q ->
  exists e, (forall k, (k < K)%nat -> integral_is (fun x => w / 2 * peval (Q k) x * peval (U k) x) (-1) 1 (e k)) /\
    sumn K e = - (c / 2) * (sumn K (fun k => (peval (U k) (-1) - from_left U k) ^ 2) + peval (U (K - 1)%nat) 1 ^ 2) /\
    sumn K e <= 0.
Proof.
  intros HK Hc HL HW.
  set (e := fun k => - (c / 2) * ((peval (U k) (-1) - from_left U k) ^ 2 + - (from_left U k * from_left U k - peval (U k) 1 * peval (U k) 1))).
  assert (Es : sumn K e = - (c / 2) * (sumn K (fun k => (peval (U k) (-1) - from_left U k) ^ 2) + peval (U (K - 1)%nat) 1 ^ 2)).
  { unfold e. rewrite sumn_scal. f_equal. rewrite sumn_plus. f_equal.
    rewrite (sumn_ext _ (fun i => - _) (fun i => (-1) * (from_left U i * from_left U i - peval (U i) 1 * peval (U i) 1))) by (intros; ring).
    rewrite sumn_scal, tele_left_sq. destruct K as [|K']; [lia|]. replace (S K' - 1)%nat with K' by lia. ring. }
  exists e. split; [|split; [exact Es|]].
  - intros k Hk. pose proof (weak_energy Np K w (- c) U Q _ _ HW k Hk (HL k Hk)) as H. cbv beta in H.
    rewrite Rmax_left, Rmin_right in H by lra. eapply eq_rect; [exact H|]. unfold e. field.
  - rewrite Es. assert (0 <= sumn K (fun k => (peval (U k) (-1) - from_left U k) ^ 2)) by (apply sumn_nonneg; intros; apply pow2_ge_0).
    pose proof (pow2_ge_0 (peval (U (K - 1)%nat) 1)). nra.
Qed.

Lemma tele_right_sq U m : (m <= K)%nat -> sumn m (fun k => from_right K U k * from_right K U k - peval (U k) (-1) * peval (U k) (-1)) =
  match m with O => 0 | S m => from_right K U m * from_right K U m - peval (U 0%nat) (-1) * peval (U 0%nat) (-1) end.
Proof.
  induction m as [|m IH]; intro Hm; [reflexivity|]. rewrite sumn_S, IH by lia. destruct m as [|m]; [ring|].
  replace (from_right K U m) with (peval (U (S m)) (-1)); [ring|]. unfold from_right. destruct (Nat.eqb_spec (S m) K); [lia|reflexivity].
Qed.

(* For c < 0 the flow comes in at the right end, where the driver still uses its own value: the energy can
   grow. The exact balance, and a field on which it grows, for every mesh. *)
Theorem C75_advection_energy_leftward c U Q : (0 < K)%nat -> c <= 0 -> (forall k, (k < K)%nat -> (length (U k) <= Np)%nat) -> advected c U Q ->
  exists e, (forall k, (k < K)%nat -> integral_is (fun x => w / 2 * peval (Q k) x * peval (U k) x) (-1) 1 (e k)) /\
    sumn K e = c / 2 * (sumn K (fun k => (peval (U k) 1 - from_right K U k) ^ 2) + peval (U 0%nat) (-1) ^ 2) - c / 2 * peval (U (K - 1)%nat) 1 ^ 2.
Proof.
  intros HK Hc HL HW.
  set (e := fun k => c / 2 * ((peval (U k) 1 - from_right K U k) ^ 2 + - (from_right K U k * from_right K U k - peval (U k) (-1) * peval (U k) (-1)))).
  exists e. split.
  - intros k Hk. pose proof (weak_energy Np K w (- c) U Q _ _ HW k Hk (HL k Hk)) as H. cbv beta in H.
    rewrite Rmax_right, Rmin_left in H by lra. eapply eq_rect; [exact H|]. unfold e. field.
  - unfold e. rewrite sumn_scal, sumn_plus.
    rewrite (sumn_ext _ (fun i => - _) (fun i => (-1) * (from_right K U i * from_right K U i - peval (U i) (-1) * peval (U i) (-1)))) by (intros; ring).
    rewrite sumn_scal, tele_right_sq by lia. destruct K as [|K'] eqn:EK; [lia|]. replace (S K' - 1)%nat with K' by lia.
    unfold from_right at 2 3. rewrite Nat.eqb_refl. ring.
Qed.

Theorem C75_leftward_stability_refuted c : (0 < K)%nat -> c < 0 -> exists U, (forall k, (k < K)%nat -> (length (U k) <= Np)%nat) /\
  forall Q, advected c U Q -> exists e, (forall k, (k < K)%nat -> integral_is (fun x => w / 2 * peval (Q k) x * peval (U k) x) (-1) 1 (e k)) /\ 0 < sumn K e.
Proof.
  intros HK Hc. set (U := fun k => if (k =? K - 1)%nat then [1 / 2; 1 / 2] else []).
  assert (HL : forall k, (k < K)%nat -> (length (U k) <= Np)%nat) by (intros k _; unfold U; destruct (k =? K - 1)%nat; cbn; lia).
  exists U. split; [exact HL|]. intros Q HW. destruct (C75_advection_energy_leftward c U Q HK ltac:(lra) HL HW) as (e & He & Es).
  exists e. split; [exact He|]. rewrite Es.
  assert (Z : forall k, (k < K)%nat -> (peval (U k) 1 - from_right K U k) ^ 2 = 0).
  { intros k Hk. unfold from_right. destruct (Nat.eqb_spec (S k) K); [ring|]. unfold U. destruct (Nat.eqb_spec k (K - 1)); [lia|]. destruct (S k =? K - 1)%nat; cbn [peval]; field. }
  rewrite (sumn_zero _ _ Z). assert (U0 : peval (U 0%nat) (-1) = 0) by (unfold U; destruct (0 =? K - 1)%nat; cbn [peval]; field).
  assert (U1 : peval (U (K - 1)%nat) 1 = 1) by (unfold U; rewrite Nat.eqb_refl; cbn [peval]; field). rewrite U0, U1. lra.
Qed.

(* The same, said of the driver: for every field the computed rate loses exactly the outflow, and its energy
   rate is the (non-positive) sum of squares. *)
Theorem C75_advection_stable : a <> b -> sound1D G N K eps tol solve inverse eig -> result = Throw \/
  exists n J rx Fs, result = Ok n /\ metric n = Ok (J, rx, Fs) /\
  forall c u U, 0 <= c -> shape u Np K -> (forall k, (k < K)%nat -> interpolates Np (n_r n) u k (U k)) ->
  exists rhs, advec_rhs E junk junkv n rx Fs Np K c u = Ok rhs /\
  forall Q, (forall k, (k < K)%nat -> interpolates Np (n_r n) rhs k (Q k)) ->
  exists m e, (forall k, (k < K)%nat -> integral_is (fun x => w / 2 * peval (Q k) x) (-1) 1 (m k)) /\
    (forall k, (k < K)%nat -> integral_is (fun x => w / 2 * peval (Q k) x * peval (U k) x) (-1) 1 (e k)) /\
    sumn K m = - c * peval (U (K - 1)%nat) 1 /\
    sumn K e = - (c / 2) * (sumn K (fun k => (peval (U k) (-1) - from_left U k) ^ 2) + peval (U (K - 1)%nat) 1 ^ 2) /\
    sumn K e <= 0.
Proof.
  intros Hab HS. destruct (C75_advection_weak_form Hab HS) as [Et | (n & J & rx & Fs & En & EJ & HI & HA)]; [left; exact Et|].
  right. exists n, J, rx, Fs. split; [exact En|]. split; [exact EJ|]. intros c u U Hc SU HU.
  destruct (HA c u U SU HU) as (rhs & Er & _ & HQ). exists rhs. split; [exact Er|]. intros Q HQi. specialize (HQ Q HQi).
  assert (HK : (0 < K)%nat) by apply HS. assert (HL : forall k, (k < K)%nat -> (length (U k) <= Np)%nat) by (intros k Hk; apply HU; exact Hk).
  destruct (C75_advection_mass c U Q HK Hc HQ) as (m & Hm & Sm). destruct (C75_advection_energy c U Q HK Hc HL HQ) as (e & He & Se & Le).
  exists m, e. auto.
Qed.

(* and for c < 0 the driver has a field whose energy grows. *)
Theorem C75_leftward_driver_refuted : a <> b -> sound1D G N K eps tol solve inverse eig -> result = Throw \/
  exists n J rx Fs, result = Ok n /\ metric n = Ok (J, rx, Fs) /\
  forall c, c < 0 -> exists u U rhs, shape u Np K /\ (forall k, (k < K)%nat -> interpolates Np (n_r n) u k (U k)) /\
  advec_rhs E junk junkv n rx Fs Np K c u = Ok rhs /\
  forall Q, (forall k, (k < K)%nat -> interpolates Np (n_r n) rhs k (Q k)) ->
  exists e, (forall k, (k < K)%nat -> integral_is (fun x => w / 2 * peval (Q k) x * peval (U k) x) (-1) 1 (e k)) /\ 0 < sumn K e.
Proof.
  intros Hab HS. destruct (C75_advection_weak_form Hab HS) as [Et | (n & J & rx & Fs & En & EJ & HI & HA)]; [left; exact Et|].
  right. exists n, J, rx, Fs. split; [exact En|]. split; [exact EJ|]. intros c Hc.
  destruct (C75_leftward_stability_refuted c ltac:(apply HS) Hc) as (U & HL & HU).
  set (u := mkmat Np K (fun i k => peval (U k) (nth i (n_r n) 0))).
  assert (Hu : forall k, (k < K)%nat -> interpolates Np (n_r n) u k (U k)) by (intros k Hk; split; [apply HL; exact Hk|reflexivity]).
  destruct (HA c u U ltac:(split; reflexivity) Hu) as (rhs & Er & _ & HQ).
  exists u, U, rhs. split; [split; reflexivity|]. split; [exact Hu|]. split; [exact Er|]. intros Q HQi. apply (HU Q). apply HQ. exact HQi.
Qed.

(* C76. Viscous Burgers: the auxiliary gradient q and the rate are weak forms with one trace and one flux per
   mesh vertex. *)
Section BurgersProps.
Variables (ftanh : R -> R) (lowest : R).
Theorem C76_burgers_weak_form : a <> b -> lowest < 0 -> sound1D G N K eps tol solve inverse eig -> result = Throw \/
  exists n J rx Fs, result = Ok n /\ metric n = Ok (J, rx, Fs) /\
  forall t c alpha nu u U, shape u Np K -> (forall k, (k < K)%nat -> interpolates Np (n_r n) u k (U k)) ->
  let uL := Burgers2 E ftanh a t alpha nu c in
  let uR := Burgers2 E ftanh b t alpha nu c in
  exists M rhs q F, largest_abs Np K u M /\
  burgers_rhs E junk junkv ftanh lowest n rx Fs Np K (n_x n) t c alpha nu u = Ok rhs /\ shape rhs Np K /\
  (forall k, (k < K)%nat -> (length (q k) <= Np)%nat /\ (length (F k) <= Np)%nat /\
     forall i, (i < Np)%nat -> let x := nth i (n_r n) 0 in peval (F k) x = peval (U k) x ^ 2 / 2 - sqrt nu * peval (q k) x) /\
  weak_form Np K w (sqrt nu) U q
    (fun k => - (sqrt nu * (trace_mean K uL uR U k - peval (U k) (-1))))
    (fun k => sqrt nu * (trace_mean K uL uR U (S k) - peval (U k) 1)) /\
  forall Q, (forall k, (k < K)%nat -> interpolates Np (n_r n) rhs k (Q k)) ->
    weak_form Np K w (-1) F Q
      (fun k => lax_friedrichs K uL uR (sqrt nu) M U q F k - peval (F k) (-1))
      (fun k => peval (F k) 1 - lax_friedrichs K uL uR (sqrt nu) M U q F (S k)).
Proof.
  intros Hab Hlo HS. destruct (built_tables G N K a b eps tol solve inverse eig junk jk jp ji jx junkn Hab HS) as [Et | (n & J & rx & Fs & En & EJ & LT & X0 & XK & SX)]; [left; exact Et|].
  right. exists n, J, rx, Fs. split; [exact En|]. split; [exact EJ|].
  intros t c alpha nu u U SU HU uL uR.
  pose proof (max_abs_ok G lowest n J rx Fs _ K _ LT u Hlo SU) as HM. set (M := max_abs E lowest u) in *.
  destruct (burgers_ok G junk junkv ftanh lowest n J rx Fs _ K _ LT (n_x n) t c alpha nu u U SU SX HU) as (q & rhs & P & Er & Sr & Sq & HP & Hq & Hr).
  rewrite X0 in Hq, Hr. replace (S (S N) - 1)%nat with (S N) in Hq, Hr by lia. rewrite XK in Hq, Hr.
  change (Burgers2 E ftanh a t alpha nu c) with uL in Hq, Hr. change (Burgers2 E ftanh b t alpha nu c) with uR in Hq, Hr. clearbody uL uR. fold M in Hr. clearbody M.
  destruct (interp_exists n J rx Fs _ K _ LT (mkmat Np K (fun i k => ment u i k * ment u i k / 2 - sqrt nu * ment q i k))) as (F & HF).
  assert (HF1 : forall i k, (i < Np)%nat -> (k < K)%nat -> peval (F k) (nth i (n_r n) 0) = ment u i k * ment u i k / 2 - sqrt nu * ment q i k).
  { intros i k Hi Hk. destruct (HF k Hk) as (_ & H). rewrite <- H by exact Hi. reflexivity. }
  assert (HF2 : forall k, (k < K)%nat -> (length (F k) <= Np)%nat) by (intros k Hk; apply HF; exact Hk).
  specialize (Hr F HF1 HF2).
  assert (HFe : forall i k, (i < Np)%nat -> (k < K)%nat -> let x := nth i (n_r n) 0 in peval (F k) x = peval (U k) x ^ 2 / 2 - sqrt nu * peval (P k) x).
  { intros i k Hi Hk x. unfold x. rewrite HF1 by auto. destruct (HU k Hk) as (_ & H1). destruct (HP k Hk) as (_ & H2). rewrite <- H1, <- H2 by auto. field. }
  pose proof (lt_K _ _ _ _ _ _ _ LT) as HK. pose proof (lt_r0 _ _ _ _ _ _ _ LT) as R0. pose proof (lt_r1 _ _ _ _ _ _ _ LT) as R1.
  assert (FL : forall k, (k < K)%nat -> peval (F k) (-1) = Lv U k ^ 2 / 2 - sqrt nu * Lv P k).
  { intros k Hk. rewrite <- R0 at 1. rewrite (HFe 0%nat k) by (auto; lia). rewrite R0. reflexivity. }
  assert (FR : forall k, (k < K)%nat -> peval (F k) 1 = Rv U k ^ 2 / 2 - sqrt nu * Rv P k).
  { intros k Hk. rewrite <- R1 at 1. rewrite (HFe (Np - 1)%nat k) by (auto; lia). rewrite R1. reflexivity. }
  exists M, rhs, P, F. split; [exact HM|]. split; [exact Er|]. split; [exact Sr|]. split; [|split].
  - intros k Hk. split; [apply HP; exact Hk|]. split; [apply HF2; exact Hk|]. intros i Hi. apply HFe; auto.
  - refine (weak_all n J rx Fs _ K _ LT (sqrt nu) u q (fun f k => match f with O => - (sqrt nu * (trace_mean K uL uR U k - peval (U k) (-1))) | _ => sqrt nu * (trace_mean K uL uR U (S k) - peval (U k) 1) end) U HU _ P HP).
    intros i k Hi Hk. rewrite Hq by auto. cbv iota. f_equal.
    assert (D0 : sqrt nu * (1 / 2 * du_at K uL uR U (0 + k * 2)) = - (sqrt nu * (trace_mean K uL uR U k - peval (U k) (-1)))).
    { unfold du_at. destruct (Nat.eqb_spec (0 + k * 2) (2 * K - 1)); [lia|]. destruct k as [|k].
      - cbn [Nat.add Nat.mul Nat.eqb trace_mean]. unfold Lv. field.
      - destruct (Nat.eqb_spec (0 + S k * 2) 0); [lia|]. rewrite mate_l by auto. rewrite side_l, side_r. unfold trace_mean. destruct (Nat.eqb_spec (S k) K); [lia|]. unfold Lv, Rv. field. }
    assert (D1 : - sqrt nu * (1 / 2 * du_at K uL uR U (1 + k * 2)) = sqrt nu * (trace_mean K uL uR U (S k) - peval (U k) 1)).
    { unfold du_at, trace_mean. destruct (Nat.eqb_spec (1 + k * 2) (2 * K - 1)), (Nat.eqb_spec (S k) K); try lia.
      - replace (K - 1)%nat with k by lia. unfold Rv. field.
      - destruct (Nat.eqb_spec (1 + k * 2) 0); [lia|]. rewrite mate_r by auto. destruct (Nat.eqb_spec (S k) K); [lia|]. rewrite side_l, side_r. unfold Lv, Rv. field. }
    rewrite D0, D1. reflexivity.
  - intros Q HQ.
    refine (weak_all n J rx Fs _ K _ LT (-1) (mkmat Np K (fun i k => ment u i k * ment u i k / 2 - sqrt nu * ment q i k)) rhs
      (fun f k => match f with O => lax_friedrichs K uL uR (sqrt nu) M U P F k - peval (F k) (-1) | _ => peval (F k) 1 - lax_friedrichs K uL uR (sqrt nu) M U P F (S k) end) F HF _ Q HQ).
    intros i k Hi Hk. rewrite Hr by auto. cbv iota. f_equal.
    assert (D0 : sgn (0 + k * 2) * (1 / 2 * du2_at K uL uR U (0 + k * 2) - sqrt nu * dq_at K P (0 + k * 2)) - M / 2 * du_at K uL uR U (0 + k * 2)
       = lax_friedrichs K uL uR (sqrt nu) M U P F k - peval (F k) (-1)).
    { unfold sgn. rewrite Nat.mod_add by lia. change (0 mod 2 =? 0)%nat with true. cbv iota. unfold du2_at, dq_at, du_at. destruct (Nat.eqb_spec (0 + k * 2) (2 * K - 1)); [lia|]. destruct k as [|k].
      - cbn [Nat.add Nat.mul Nat.eqb lax_friedrichs]. rewrite FL by auto. unfold Lv. field.
      - destruct (Nat.eqb_spec (0 + S k * 2) 0); [lia|]. rewrite mate_l by auto. rewrite !side_l, !side_r. unfold lax_friedrichs. destruct (Nat.eqb_spec (S k) K); [lia|].
        rewrite FL, FR by lia. unfold Lv, Rv. field. }
    assert (D1 : sgn (1 + k * 2) * (1 / 2 * du2_at K uL uR U (1 + k * 2) - sqrt nu * dq_at K P (1 + k * 2)) - M / 2 * du_at K uL uR U (1 + k * 2)
       = peval (F k) 1 - lax_friedrichs K uL uR (sqrt nu) M U P F (S k)).
    { unfold sgn. rewrite Nat.mod_add by lia. change (1 mod 2 =? 0)%nat with false. cbv iota. unfold du2_at, dq_at, du_at, lax_friedrichs.
      destruct (Nat.eqb_spec (1 + k * 2) 0); [lia|]. destruct (Nat.eqb_spec (1 + k * 2) (2 * K - 1)), (Nat.eqb_spec (S k) K); try lia.
      - replace (K - 1)%nat with k by lia. rewrite FR by auto. unfold Rv. field.
      - rewrite mate_r by auto. destruct (Nat.eqb_spec (S k) K); [lia|]. rewrite !side_l, !side_r. rewrite FR, FL by lia. unfold Lv, Rv. field. }
    rewrite D0, D1. reflexivity.
Qed.
End BurgersProps.

(* Local and global conservation of any rate with one flux f v per vertex. *)
Theorem C76_burgers_conserves F Q f :
  weak_form Np K w (-1) F Q (fun k => f k - peval (F k) (-1)) (fun k => peval (F k) 1 - f (S k)) ->
  (forall k, (k < K)%nat -> integral_is (fun x => w / 2 * peval (Q k) x) (-1) 1 (f k - f (S k))) /\
  sumn K (fun k => f k - f (S k)) = f 0%nat - f K.
Proof.
  intro HW. split.
  - intros k Hk. pose proof (weak_total Np K w (-1) F Q _ _ HW ltac:(lia) k Hk) as H. cbv beta in H. eapply eq_rect; [exact H|]. ring.
  - clear. induction K as [|m IH]; [rewrite sumn_0; ring|]. rewrite sumn_S, IH. ring.
Qed.
End Drivers.

(* Three elements of order 1 on [0,1] and the field with nodal values 1..6: the hypotheses hold, the constructor
   succeeds and both right-hand sides are computed. *)
Example C75_witness : let eig := fun n (J : nat -> nat -> R) => (@nil R, J) in
  sound1D gwit 0 3 0 (1 / 10) solve2 inverse2 eig /\ exists n J rx Fs rhs rhs', 
  buildNodes1D (exact gwit) solve2 inverse2 eig 0 (fun _ _ => 0) (1 / 10) (buildConnectivity1D (0%nat, d_one) (fun _ => 0%nat) (fun _ => 0%nat) (fun _ => d_one)) (fun _ => 7%nat) 1 3 0 1 = Ok n /\
  computeJacobian1D (exact gwit) (fun _ _ => 0) 2 3 (n_x n) (n_Dr n) = Ok (J, rx, Fs) /\
  let u := mkmat 2 3 (fun i k => INR (i + 2 * k + 1)) in
  advec_rhs (exact gwit) (fun _ _ => 0) (fun _ => 0) n rx Fs 2 3 (1 / 10) u = Ok rhs /\
  burgers_rhs (exact gwit) (fun _ _ => 0) (fun _ => 0) (fun x => x) (-1) n rx Fs 2 3 (n_x n) 0 (1 / 2) 1 (1 / 10) u = Ok rhs'.
Proof.
  intro eig. destruct C26_witness as (HS & n & En). fold eig in HS, En. split; [exact HS|].
  destruct (C75_advection_weak_form gwit 0 3 0 1 0 (1 / 10) solve2 inverse2 eig (fun _ _ => 0) (fun _ => 0) (0%nat, d_one) (fun _ => 0%nat) (fun _ => 0%nat) (fun _ => d_one) (fun _ => 7%nat) ltac:(lra) HS)
    as [Et | (n1 & J & rx & Fs & En1 & EJ & HI & HA)]; [congruence|].
  destruct (C76_burgers_weak_form gwit 0 3 0 1 0 (1 / 10) solve2 inverse2 eig (fun _ _ => 0) (fun _ => 0) (0%nat, d_one) (fun _ => 0%nat) (fun _ => 0%nat) (fun _ => d_one) (fun _ => 7%nat) (fun x => x) (-1) ltac:(lra) ltac:(lra) HS)
    as [Et | (n2 & J2 & rx2 & Fs2 & En2 & EJ2 & HB)]; [congruence|].
  assert (n1 = n) by congruence. subst n1. assert (n2 = n) by congruence. subst n2. assert (rx2 = rx /\ Fs2 = Fs) as (-> & ->) by (split; congruence).
  set (u := mkmat 2 3 (fun i k => INR (i + 2 * k + 1))). destruct (HI u) as (U & HU).
  destruct (HA (1 / 10) u U ltac:(split; reflexivity) HU) as (rhs & Er & _).
  destruct (HB 0 (1 / 2) 1 (1 / 10) u U ltac:(split; reflexivity) HU) as (M & rhs' & q & F & _ & Er' & _).
  exists n, J, rx, Fs, rhs, rhs'. split; [exact En|]. split; [exact EJ|]. split; [exact Er|exact Er'].
Qed.

Print Assumptions C75_advection_weak_form.
Print Assumptions C75_advection_mass.
Print Assumptions C75_advection_energy.
Print Assumptions C75_leftward_stability_refuted.
Print Assumptions C76_burgers_weak_form.
Print Assumptions C76_burgers_conserves.
