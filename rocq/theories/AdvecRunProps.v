(* AdvecRunProps.v - C100: the advection drivers, in C++ and in Python, from one step to a whole run.
   value, follows, same_on, derivatives and total are in AdvecRunSpec.v. *)
From Coq Require Import ZArith List Lia Bool Arith QArith.
From Verif Require Import Base Loops Num JacobiModel JacobiSpec JacobiProofs JacobiOrthProofs JacobiQuadProofs JacobiExactProofs
  DenseSpec CscModel MeshModel Nodes1DModel Nodes1DSpec Nodes1DProofs Nodes1DExactProofs Nodes1DProps DblProofs RKModel RKSpec RKProofs RKProps Line1DModel Line1DSpec TriBasisProofs Line1DProofs Line1DProps
  CurvedSwModel AdvecRunModel AdvecRunSpec AdvecRunProofs.
From Coq Require Import Reals Lra SpecFloat Qreals.
Import ListNotations.
Local Open Scope R_scope.

(* the method of C48, with its last coefficient *)
Lemma rk_table : exists A B, order4 5 A B (1 / 100000000000) /\ Rabs (B 4%nat * A 4%nat 3%nat * A 3%nat 2%nat * A 2%nat 1%nat * A 1%nat 0%nat) <= 1 / 100 /\
  forall G f dt u res u' res', length res = length u -> (forall v w, length v = length u -> f v = Ok w -> length w = length u) ->
    rk_step (exact G) f dt (u, res) = Ok (u', res') -> length u' = length u /\ length res' = length u /\ explicit_rk_step 5 A B f dt u u'.
Proof.
  exists tabA, (tabA 5). split; [rewrite <- tol11_R; unfold tabA; apply (order_check_ok tol11 qa qb exact_order); reflexivity|]. split.
  - assert (C : Qle_bool (qmul (qmul (qmul (qmul (lA qa qb 5 4) (lA qa qb 4 3)) (lA qa qb 3 2)) (lA qa qb 2 1)) (lA qa qb 1 0)) (1 # 100) = true) by (vm_compute; reflexivity).
    assert (C' : Qle_bool 0 (qmul (qmul (qmul (qmul (lA qa qb 5 4) (lA qa qb 4 3)) (lA qa qb 3 2)) (lA qa qb 2 1)) (lA qa qb 1 0)) = true) by (vm_compute; reflexivity).
    apply Qle_bool_iff, Qle_Rle in C. apply Qle_bool_iff, Qle_Rle in C'. rewrite !Q2R_qmul in C, C'. rewrite Q2R_0 in C'.
    rewrite !(lA_ok qa qb (fun m => Q2R (nth m qa 0%Q)) (fun m => Q2R (nth m qb 0%Q))) in C, C' by (auto; lia). fold (tabA 5 4) (tabA 4 3) (tabA 3 2) (tabA 2 1) (tabA 1 0) in C, C'.
    rewrite Rabs_right by (apply Rle_ge; exact C'). eapply Rle_trans; [exact C|]. unfold Q2R. cbn [Qnum Qden]. lra.
  - intros G f dt u res u' res' Lr Hf H.
    destruct (stages_rk G (rk4a (exact G)) (rk4b (exact G)) f dt u Hf res (u', res') eq_refl eq_refl eq_refl Lr H) as (L1 & L2 & E). cbn [fst snd] in *.
    split; [exact L1|]. split; [exact L2|]. unfold tabA. eapply rk_ext; [| |exact E]; intros; apply rkA_ext; try lia; intros; first [apply rk4a_Q | apply rk4b_Q]; assumption.
Qed.

(* the derivatives of a polynomial are those computed from its coefficients *)
Lemma derivs P D : derivatives D -> (forall x, D 0%nat x = peval P x) -> forall q x, D q x = peval (dk q P) x.
Proof.
  intros HD H0 q. induction q as [|q IH]; intro x; [apply H0|]. rewrite dk_S. apply (uniqueness_limite (D q) x); [apply HD|].
  apply (dpl_ext (peval (dk q P))); [intro; symmetry; apply IH|apply dpeval_ok].
Qed.
Lemma taylor4 P x z : (length P <= 5)%nat ->
  peval P (x + z) = peval (dk 0 P) x + z * peval (dk 1 P) x + z ^ 2 / 2 * peval (dk 2 P) x + z ^ 3 / 6 * peval (dk 3 P) x + z ^ 4 / 24 * peval (dk 4 P) x.
Proof.
  intros L. destruct P as [|p0 [|p1 [|p2 [|p3 [|p4 [|]]]]]]; cbn [length] in L; try lia; cbn [dk Nat.iter nat_rect pderiv padd peval]; field.
Qed.
Lemma dk5 P x : (length P <= 5)%nat -> peval (dk 5 P) x = 0.
Proof. intros L. destruct P as [|p0 [|p1 [|p2 [|p3 [|p4 [|]]]]]]; cbn [length] in L; try lia; cbn [dk Nat.iter nat_rect pderiv padd peval]; ring. Qed.

Section Drivers.
Variables (G : R -> R) (N K : nat) (a b eps tol : R).
Variables (solve : mat R -> mat R -> mat R -> outcome (mat R)) (inverse : mat R -> mat R -> outcome (mat R))
  (eig : nat -> (nat -> nat -> R) -> list R * (nat -> nat -> R)) (junk : nat -> nat -> R) (junkv : nat -> R)
  (jk : nat * dbl) (jp ji : nat -> nat) (jx : nat -> dbl) (junkn : nat -> nat).
Local Notation E := (exact G).
Local Notation Np := (S (S N)).
Local Notation w := ((b - a) / INR K).
Local Notation result := (buildNodes1D E solve inverse eig eps junk tol (buildConnectivity1D jk jp ji jx) junkn (S N) K a b).
Local Notation metric n := (computeJacobian1D E junk Np K (n_x n) (n_Dr n)).
Local Notation rate n rx Fs c := (on_lists E Np K (advec_rhs E junk junkv n rx Fs Np K c)).
Local Notation step n rx Fs c dt := (rk_step E (rate n rx Fs c) dt).

Lemma built : a <> b -> sound1D G N K eps tol solve inverse eig -> result = Throw \/
  exists n J rx Fs, result = Ok n /\ metric n = Ok (J, rx, Fs) /\ line_tables n J rx Fs Np K w /\
    forall i k, (i < Np)%nat -> (k < K)%nat -> ment (n_x n) i k = a + w * INR k + w / 2 * (1 + nth i (n_r n) 0).
Proof.
  intros Hab HS. destruct (built_tables G N K a b eps tol solve inverse eig junk jk jp ji jx junkn Hab HS) as [Et | (n & J & rx & Fs & En & EJ & LT & _)]; [left; exact Et|].
  destruct (exact_nodes G N K a b eps tol solve inverse eig junk jk jp ji jx junkn HS) as [Et | (n1 & En1 & _ & _ & Ex & _)]; [congruence|].
  assert (n1 = n) by congruence. subst n1. right. exists n, J, rx, Fs. split; [exact En|]. split; [exact EJ|]. split; [exact LT|].
  intros i k _ _. rewrite Ex. unfold grid1D. cbn [ment exact fadd fmul fdiv fsub]. rewrite fhalf_exact. unfold fofn. cbn [exact fofZ]. rewrite <- !INR_IZR_INZ. cbn [INR Z.of_nat]. change (IZR 0) with 0. change (IZR 1) with 1. field. 
  apply not_0_INR. destruct HS as (_ & HK & _). lia.
Qed.

(* a step of the driver always succeeds, and is a step of the method *)
Lemma step_ok n J rx Fs c dt u res : line_tables n J rx Fs Np K w -> 0 <= c -> length u = (Np * K)%nat -> length res = (Np * K)%nat ->
  exists u' res', step n rx Fs c dt (u, res) = Ok (u', res') /\ length u' = (Np * K)%nat /\ length res' = (Np * K)%nat /\
    forall A B, (forall G f dt u res u' res', length res = length u -> (forall v w, length v = length u -> f v = Ok w -> length w = length u) ->
      rk_step (exact G) f dt (u, res) = Ok (u', res') -> length u' = length u /\ length res' = length u /\ explicit_rk_step 5 A B f dt u u') ->
    explicit_rk_step 5 A B (rate n rx Fs c) dt u u'.
Proof.
  intros LT Hc Lu Lr.
  destruct (C48_total G (rate n rx Fs c) dt u res) as (u' & res' & Es).
  { intro v. destruct (rhs_ok G junk junkv n J rx Fs Np K w LT c Hc v) as (U & _ & q & Eq & _). eauto. }
  assert (Hl : forall v w0, length v = length u -> rate n rx Fs c v = Ok w0 -> length w0 = length u).
  { intros v q _ Eq. rewrite Lu. apply (rhs_len G junk junkv n J rx Fs Np K w LT c Hc v q Eq). }
  exists u', res'. split; [exact Es|]. destruct rk_table as (A & B & _ & _ & HT).
  destruct (HT G (rate n rx Fs c) dt u res u' res' ltac:(lia) Hl Es) as (L1 & L2 & _). split; [lia|]. split; [lia|].
  intros A' B' HT'. apply (HT' G (rate n rx Fs c) dt u res u' res' ltac:(lia) Hl Es).
Qed.

(* One step on a field that is one polynomial, of degree at most the order, on the elements from j on: five elements further on
   it is the Taylor polynomial of degree four of the profile shifted by c*dt, up to 10^-11 per coefficient and a term with the
   fifth derivative. *)
Theorem C100_transport : a <> b -> sound1D G N K eps tol solve inverse eig -> result = Throw \/
  exists n J rx Fs, result = Ok n /\ metric n = Ok (J, rx, Fs) /\
  forall c dt u res j P D, 0 <= c -> length u = (Np * K)%nat -> length res = (Np * K)%nat -> (length P <= Np)%nat ->
    derivatives D -> (forall x, D 0%nat x = peval P x) -> follows Np K (n_x n) u j (D 0%nat) ->
  exists u' res', step n rx Fs c dt (u, res) = Ok (u', res') /\ length u' = (Np * K)%nat /\ length res' = (Np * K)%nat /\
    forall i k, (i < Np)%nat -> (j + 5 <= k < K)%nat -> let x := ment (n_x n) i k in let z := - (c * dt) in
      Rabs (value K u' i k - (D 0%nat x + z * D 1%nat x + z ^ 2 / 2 * D 2%nat x + z ^ 3 / 6 * D 3%nat x + z ^ 4 / 24 * D 4%nat x)) <=
      1 / 100000000000 * (Rabs z * Rabs (D 1%nat x) + Rabs z ^ 2 * Rabs (D 2%nat x) + Rabs z ^ 3 * Rabs (D 3%nat x) + Rabs z ^ 4 * Rabs (D 4%nat x))
      + 1 / 100 * (Rabs z ^ 5 * Rabs (D 5%nat x)).
Proof.
  intros Hab HS. destruct (built Hab HS) as [Et | (n & J & rx & Fs & En & EJ & LT & HX)]; [left; exact Et|]. right. exists n, J, rx, Fs. split; [exact En|]. split; [exact EJ|].
  intros c dt u res j P D Hc Lu Lr LP HD H0 HF. destruct (step_ok n J rx Fs c dt u res LT Hc Lu Lr) as (u' & res' & Es & L1 & L2 & HR).
  exists u', res'. split; [exact Es|]. split; [exact L1|]. split; [exact L2|]. intros i k Hi Hk x z.
  destruct rk_table as (A & B & O & G5 & HT). specialize (HR A B HT).
  assert (HF' : follows Np K (n_x n) u j (peval P)) by (intros i' k' Hi' Hk'; rewrite <- H0; apply HF; auto).
  destruct (step_poly G junk junkv n J rx Fs Np K a w LT HX c Hc A B dt u u' j P Lu LP HF' HR) as (kp & Hkp & Fo & _).
  rewrite (Fo i k Hi Hk). fold x. rewrite (five_stages c A B dt P kp x Hkp). replace (- c * dt) with z by (unfold z; ring).
  rewrite !(derivs P D HD H0). unfold order4, near in O. destruct O as (O1 & O2 & _ & O4 & _ & _ & _ & O8).
  set (g5 := B 4%nat * A 4%nat 3%nat * A 3%nat 2%nat * A 2%nat 1%nat * A 1%nat 0%nat) in *. clearbody g5.
  generalize dependent (sumn 5 B). intros s1 O1. generalize dependent (sumn 5 (fun i0 => B i0 * abscissa A i0)). intros s2 O2.
  generalize dependent (sumn 5 (fun i0 => B i0 * sumn i0 (fun j0 => A i0 j0 * abscissa A j0))). intros s3 O3.
  generalize dependent (sumn 5 (fun i0 => B i0 * sumn i0 (fun j0 => A i0 j0 * sumn j0 (fun l => A j0 l * abscissa A l)))). intros s4 O8.
  generalize (peval (dk 0 P) x) (peval (dk 1 P) x) (peval (dk 2 P) x) (peval (dk 3 P) x) (peval (dk 4 P) x) (peval (dk 5 P) x). intros d0 d1 d2 d3 d4 d5.
  match goal with |- Rabs ?e <= _ => replace e with ((s1 - 1) * (z ^ 1 * d1) + (s2 - 1 / 2) * (z ^ 2 * d2) + (s3 - 1 / 6) * (z ^ 3 * d3) + (s4 - 1 / 24) * (z ^ 4 * d4) + g5 * (z ^ 5 * d5)) by field end.
  assert (Q : forall s e m d, Rabs s <= e -> Rabs (s * (z ^ m * d)) <= e * (Rabs z ^ m * Rabs d)).
  { intros s e m d H. rewrite !Rabs_mult, RPow_abs. apply Rmult_le_compat_r; [|exact H]. apply Rmult_le_pos; apply Rabs_pos. }
  pose proof (Q _ _ 1%nat d1 O1) as P1. pose proof (Q _ _ 2%nat d2 O2) as P2. pose proof (Q _ _ 3%nat d3 O3) as P3. pose proof (Q _ _ 4%nat d4 O8) as P4. pose proof (Q _ _ 5%nat d5 G5) as P5.
  rewrite pow_1 in P1.
  eapply Rle_trans; [apply Rabs_triang|]. eapply Rle_trans; [apply Rplus_le_compat_r, Rabs_triang|]. eapply Rle_trans; [apply Rplus_le_compat_r, Rplus_le_compat_r, Rabs_triang|].
  eapply Rle_trans; [apply Rplus_le_compat_r, Rplus_le_compat_r, Rplus_le_compat_r, Rabs_triang|]. rewrite pow_1 in *. lra.
Qed.

(* For profiles of degree at most four the step is the shift by c*dt, up to the roundoff of the coefficients. *)
Theorem C100_shift : a <> b -> sound1D G N K eps tol solve inverse eig -> result = Throw \/
  exists n J rx Fs, result = Ok n /\ metric n = Ok (J, rx, Fs) /\
  forall c dt u res j P D, 0 <= c -> length u = (Np * K)%nat -> length res = (Np * K)%nat -> (length P <= Np)%nat -> (length P <= 5)%nat ->
    derivatives D -> (forall x, D 0%nat x = peval P x) -> follows Np K (n_x n) u j (D 0%nat) ->
  exists u' res', step n rx Fs c dt (u, res) = Ok (u', res') /\
    forall i k, (i < Np)%nat -> (j + 5 <= k < K)%nat -> let x := ment (n_x n) i k in let z := - (c * dt) in
      Rabs (value K u' i k - D 0%nat (x - c * dt)) <=
      1 / 100000000000 * (Rabs z * Rabs (D 1%nat x) + Rabs z ^ 2 * Rabs (D 2%nat x) + Rabs z ^ 3 * Rabs (D 3%nat x) + Rabs z ^ 4 * Rabs (D 4%nat x)).
Proof.
  intros Hab HS. destruct (C100_transport Hab HS) as [Et | (n & J & rx & Fs & En & EJ & HT)]; [left; exact Et|]. right. exists n, J, rx, Fs. split; [exact En|]. split; [exact EJ|].
  intros c dt u res j P D Hc Lu Lr LP LP5 HD H0 HF. destruct (HT c dt u res j P D Hc Lu Lr LP HD H0 HF) as (u' & res' & Es & _ & _ & Hv). exists u', res'. split; [exact Es|].
  intros i k Hi Hk x z. specialize (Hv i k Hi Hk). cbv zeta in Hv. fold x z in Hv. rewrite H0. replace (x - c * dt) with (x + z) by (unfold z; ring).
  rewrite (taylor4 P x z LP5), <- !(derivs P D HD H0). rewrite (derivs P D HD H0 5 x), (dk5 P x LP5), Rabs_R0 in Hv. lra.
Qed.

(* A linear profile over any number of steps: it keeps its slope and moves with one speed, c up to 10^-11, until the boundary's
   influence, five elements per step, gets there. *)
Theorem C100_linear_profile : exists speed, Rabs (speed - 1) <= 1 / 100000000000 /\
  (a <> b -> sound1D G N K eps tol solve inverse eig -> result = Throw \/
  exists n J rx Fs, result = Ok n /\ metric n = Ok (J, rx, Fs) /\
  forall c dt u res p0 p1, 0 <= c -> length u = (Np * K)%nat -> length res = (Np * K)%nat -> follows Np K (n_x n) u 0 (fun x => p0 + p1 * x) ->
  exists st, st 0%nat = (u, res) /\ forall m, step n rx Fs c dt (st m) = Ok (st (S m)) /\
    follows Np K (n_x n) (fst (st m)) (5 * m) (fun x => p0 + p1 * (x - speed * c * (INR m * dt)))).
Proof.
  destruct rk_table as (A & B & O & _ & HT). exists (sumn 5 B). split; [destruct O as (O & _); exact O|].
  intros Hab HS. destruct (built Hab HS) as [Et | (n & J & rx & Fs & En & EJ & LT & HX)]; [left; exact Et|]. right. exists n, J, rx, Fs. split; [exact En|]. split; [exact EJ|].
  intros c dt u res p0 p1 Hc Lu Lr HF.
  set (st := fun m => Nat.iter m (fun s => match step n rx Fs c dt s with Ok s' => s' | _ => s end) (u, res)). exists st. split; [reflexivity|].
  assert (Q : forall m, length (fst (st m)) = (Np * K)%nat /\ length (snd (st m)) = (Np * K)%nat /\ follows Np K (n_x n) (fst (st m)) (5 * m) (fun x => p0 + p1 * (x - sumn 5 B * c * (INR m * dt)))).
  { induction m as [|m (L1 & L2 & IH)].
    - cbn. split; [exact Lu|]. split; [exact Lr|]. intros i k Hi Hk. rewrite HF by (auto; lia). change (INR 0) with 0. ring.
    - assert (S1 : st (S m) = match step n rx Fs c dt (st m) with Ok s' => s' | _ => st m end) by reflexivity. rewrite S1. destruct (st m) as [v q]. cbn [fst snd] in *.
      destruct (step_ok n J rx Fs c dt v q LT Hc L1 L2) as (u' & res' & Es & L1' & L2' & HR). rewrite Es. cbn [fst snd]. split; [exact L1'|]. split; [exact L2'|]. specialize (HR A B HT).
      set (P := [p0 - p1 * (sumn 5 B * c * (INR m * dt)); p1]).
      destruct (step_poly G junk junkv n J rx Fs Np K a w LT HX c Hc A B dt v u' (5 * m) P L1 ltac:(cbn [length P]; lia) ltac:(intros i k Hi Hk; rewrite IH by auto; cbn [P peval]; ring) HR) as (kp & Hkp & Fo & _).
      intros i k Hi Hk. rewrite (Fo i k Hi ltac:(lia)). rewrite (five_stages c A B dt P kp _ Hkp). unfold P. cbn [dk Nat.iter nat_rect pderiv padd peval]. rewrite S_INR. ring. }
  intro m. destruct (Q m) as (L1 & L2 & F). split; [|exact F].
  assert (S1 : st (S m) = match step n rx Fs c dt (st m) with Ok s' => s' | _ => st m end) by reflexivity. rewrite S1. destruct (st m) as [v q]. cbn [fst snd] in *.
  destruct (step_ok n J rx Fs c dt v q LT Hc L1 L2) as (u' & res' & Es & _). rewrite Es. reflexivity.
Qed.

(* What a step gives on the elements up to k is settled by the field on them: information moves to the right only, and at most five
   elements per step. *)
Theorem C100_local : a <> b -> sound1D G N K eps tol solve inverse eig -> result = Throw \/
  exists n J rx Fs, result = Ok n /\ metric n = Ok (J, rx, Fs) /\
  forall c dt u res v res2 j k, 0 <= c -> (k < K)%nat -> length u = (Np * K)%nat -> length res = (Np * K)%nat -> length v = (Np * K)%nat -> length res2 = (Np * K)%nat ->
    same_on Np K u v j k ->
  exists u' r1 v' r2, step n rx Fs c dt (u, res) = Ok (u', r1) /\ step n rx Fs c dt (v, res2) = Ok (v', r2) /\
    same_on Np K u' v' (j + 5) k /\ (j = 0%nat -> same_on Np K u' v' 0 k).
Proof.
  intros Hab HS. destruct (built Hab HS) as [Et | (n & J & rx & Fs & En & EJ & LT & HX)]; [left; exact Et|]. right. exists n, J, rx, Fs. split; [exact En|]. split; [exact EJ|].
  intros c dt u res v res2 j k Hc Hk Lu Lr Lv Lr2 Hs.
  destruct (step_ok n J rx Fs c dt u res LT Hc Lu Lr) as (u' & r1 & E1 & _ & _ & H1). destruct (step_ok n J rx Fs c dt v res2 LT Hc Lv Lr2) as (v' & r2 & E2 & _ & _ & H2).
  exists u', r1, v', r2. split; [exact E1|]. split; [exact E2|]. destruct rk_table as (A & B & _ & _ & HT). specialize (H1 A B HT). specialize (H2 A B HT). split.
  - eapply (step_local G junk junkv n J rx Fs Np K w LT c Hc A B dt u v); eauto.
  - intros ->. eapply (step_local0 G junk junkv n J rx Fs Np K w LT c Hc A B dt u v); eauto.
Qed.

(* The integral of the field: it is defined and unique, and if the field is a constant q on the last five elements a step takes
   c*dt*q out of it, the flow through the right end. Nothing flows in on the left, nothing is lost inside. *)
Theorem C100_mass : a <> b -> sound1D G N K eps tol solve inverse eig -> result = Throw \/
  exists n J rx Fs, result = Ok n /\ metric n = Ok (J, rx, Fs) /\
  (forall l, exists m, total Np K w (n_r n) l m /\ forall m', total Np K w (n_r n) l m' -> m' = m) /\
  forall c dt u res q m, 0 <= c -> length u = (Np * K)%nat -> length res = (Np * K)%nat -> total Np K w (n_r n) u m ->
    follows Np K (n_x n) u (K - 5) (fun _ => q) -> (5 <= K)%nat ->
  exists u' res' m', step n rx Fs c dt (u, res) = Ok (u', res') /\ total Np K w (n_r n) u' m' /\
    Rabs (m' - (m - c * dt * q)) <= 1 / 100000000000 * Rabs (c * dt * q).
Proof.
  intros Hab HS. destruct (built Hab HS) as [Et | (n & J & rx & Fs & En & EJ & LT & HX)]; [left; exact Et|]. right. exists n, J, rx, Fs. split; [exact En|]. split; [exact EJ|]. split.
  { intro l. destruct (total_exists G n J rx Fs Np K w LT l) as (m & Hm). exists m. split; [exact Hm|]. intros m' Hm'. eapply (total_unique G n J rx Fs Np K w LT); eauto. }
  intros c dt u res q m Hc Lu Lr Hm HF HK. destruct (step_ok n J rx Fs c dt u res LT Hc Lu Lr) as (u' & res' & Es & _ & _ & HR).
  destruct rk_table as (A & B & O & _ & HT). specialize (HR A B HT). destruct HR as (p & Hp & ->).
  assert (St : forall t, (t <= 5)%nat -> forall i, (i < t)%nat -> follows Np K (n_x n) (p i) (K - 5 + S i) (fun _ => 0)).
  { induction t as [|t IH]; intros Ht i Hi; [lia|]. destruct (Nat.eq_dec i t) as [->|]; [|apply IH; lia].
    intros e k He Hk. assert (R := rhs_poly G junk junkv n J rx Fs Np K a w LT HX c Hc (shifted u dt t (A t) p) (p t) (K - 5 + t) [q] ltac:(cbn [length]; lia)).
    rewrite R; [cbn [dpeval peval]; ring| |apply Hp; lia|exact He|lia].
    intros e' k' He' Hk'. rewrite (value_shifted Np K) by (auto; lia). rewrite HF by lia. rewrite (sumn_ext t _ (fun _ => 0 * 0)); [rewrite sumn_scal; cbn [peval]; ring|].
    intros z Hz. rewrite (IH ltac:(lia) z Hz) by (auto; lia). ring. }
  exists (shifted u dt 5 B p), res', (m + dt * sumn 5 (fun i => B i * (- c * q))). split; [exact Es|]. split.
  - apply (total_shifted n Np K w u dt 5 B p m (fun _ => - c * q) Lu Hm). intros i Hi.
    replace (- c * q) with (- c * value K (shifted u dt i (A i) p) (Np - 1) (K - 1)); [apply (total_rhs G junk junkv n J rx Fs Np K w LT c _ _ Hc (Hp i Hi))|].
    f_equal. rewrite (value_shifted Np K) by (auto; lia). rewrite HF by lia. rewrite (sumn_ext i _ (fun _ => 0 * 0)); [rewrite sumn_scal; ring|].
    intros z Hz. rewrite (St 5%nat (Nat.le_refl _) z ltac:(lia)) by lia. ring.
  - destruct O as (O & _). unfold near in O. rewrite (sumn_ext 5 _ (fun i => (- c * q) * B i)) by (intros; ring). rewrite sumn_scal.
    replace (m + dt * (- c * q * sumn 5 B) - (m - c * dt * q)) with ((sumn 5 B - 1) * - (c * dt * q)) by ring. rewrite Rabs_mult, Rabs_Ropp. apply Rmult_le_compat_r; [apply Rabs_pos|exact O].
Qed.

(* The time step is positive for either sign of the speed: in one step the profile moves CFL times the first node distance. *)
Theorem C100_time_step : a < b -> sound1D G N K eps tol solve inverse eig -> result = Throw \/
  exists n, result = Ok n /\ forall CFL c, 0 < CFL -> c <> 0 -> let dt := advec_dt E CFL c (n_x n) in
    0 < dt /\ Rabs c * dt = CFL * (ment (n_x n) 1%nat 0%nat - ment (n_x n) 0%nat 0%nat).
Proof.
  intros Hab HS. destruct (built ltac:(lra) HS) as [Et | (n & J & rx & Fs & En & EJ & LT & HX)]; [left; exact Et|]. right. exists n. split; [exact En|].
  intros CFL c HC Hc dt. unfold dt, advec_dt. cbn [exact fdiv fmul fsub fabs]. pose proof (Rabs_pos_lt c Hc) as Pc.
  destruct (exact_nodes G N K a b eps tol solve inverse eig junk jk jp ji jx junkn HS) as [Et | (n1 & En1 & Er & _)]; [congruence|]. assert (n1 = n) by congruence. subst n1.
  pose proof (sound_points G N K eps tol solve inverse eig HS) as (_ & _ & _ & Rinc). rewrite <- Er in Rinc. specialize (Rinc 0%nat ltac:(lia)).
  pose proof (lt_K _ _ _ _ _ _ _ LT) as HK. assert (PK : 0 < INR K) by (apply lt_0_INR; exact HK). assert (Pw : 0 < w) by (apply Rdiv_lt_0_compat; lra).
  assert (Px : 0 < ment (n_x n) 1%nat 0%nat - ment (n_x n) 0%nat 0%nat).
  { rewrite !HX by lia. replace (a + w * INR 0 + w / 2 * (1 + nth 1 (n_r n) 0) - (a + w * INR 0 + w / 2 * (1 + nth 0 (n_r n) 0))) with (w / 2 * (nth 1 (n_r n) 0 - nth 0 (n_r n) 0)) by ring. apply Rmult_lt_0_compat; lra. }
  split; [apply Rdiv_lt_0_compat; [apply Rmult_lt_0_compat; assumption|exact Pc]|]. field. lra.
Qed.

(* The script advec1d.py and the C++ program: the same run, step for step. *)
Theorem C100_python_same_built : a <> b -> sound1D G N K eps tol solve inverse eig -> result = Throw \/
  exists n J rx Fs, result = Ok n /\ metric n = Ok (J, rx, Fs) /\
  forall fuel unstable CFL c finalTime u0, py_run E fuel n rx Fs Np K unstable CFL c finalTime u0 =
    bind (advec_run E junk junkv fuel n rx Fs Np K unstable CFL c finalTime u0) (fun s => Ok (s_t s, s_u s)).
Proof.
  intros Hab HS. destruct (built Hab HS) as [Et | (n & J & rx & Fs & En & EJ & LT & HX)]; [left; exact Et|]. right. exists n, J, rx, Fs. split; [exact En|]. split; [exact EJ|].
  intros. pose proof (lt_Np _ _ _ _ _ _ _ LT) as HNp. pose proof (lt_K _ _ _ _ _ _ _ LT) as HK. pose proof (lt_M _ _ _ _ _ _ _ LT) as HM. pose proof (lt_P _ _ _ _ _ _ _ LT) as HP.
  apply run_same with (mo := (2 * K - 1)%nat) (mi := 0%nat); try lia.
  - apply (lt_conf _ _ _ _ _ _ _ LT).
  - rewrite HM, map_length, seq_length. reflexivity.
  - rewrite HP, map_length, seq_length. reflexivity.
  - rewrite HM. intros i Hi. apply in_map_iff in Hi. destruct Hi as (g & <- & Hg). apply in_seq in Hg. pose proof (endn_lt Np K g ltac:(lia) ltac:(lia)). lia.
  - rewrite HP. intros i Hi. apply in_map_iff in Hi. destruct Hi as (g & <- & Hg). apply in_seq in Hg. pose proof (endn_lt Np K (mate K g) ltac:(lia) (mate_lt K g ltac:(lia))). lia.
  - apply (lt_mO _ _ _ _ _ _ _ LT).
  - apply (lt_mI _ _ _ _ _ _ _ LT).
Qed.
End Drivers.

(* For any arithmetic, doubles included, and any tables of the right shapes. *)
Theorem C100_python_rhs : forall T (A : arith T) (junk : nat -> nat -> T) junkv (n : @nodes1d T) rx Fs Np K c u mo mi,
  (0 < Np)%nat -> tables_conform n rx Fs Np K = true -> conform u Np K = true -> length (n_vmapM n) = (2 * K)%nat -> length (n_vmapP n) = (2 * K)%nat ->
  (forall i, In i (n_vmapM n) -> (i < Np * K)%nat) -> (forall i, In i (n_vmapP n) -> (i < Np * K)%nat) ->
  n_mapO n = Z.of_nat mo -> n_mapI n = Z.of_nat mi -> (mo < 2 * K)%nat -> (mi < 2 * K)%nat ->
  exists m m', advec_rhs A junk junkv n rx Fs Np K c u = Ok m /\ py_advec_rhs A n rx Fs c u = Ok m' /\
    mrows m = Np /\ mcols m = K /\ mrows m' = Np /\ mcols m' = K /\ forall i k, (i < Np)%nat -> (k < K)%nat -> ment m i k = ment m' i k.
Proof. intros. eapply python_same; eauto. Qed.
Theorem C100_python_run : forall T (A : arith T) (junk : nat -> nat -> T) junkv (n : @nodes1d T) rx Fs Np K mo mi,
  (0 < Np)%nat -> tables_conform n rx Fs Np K = true -> length (n_vmapM n) = (2 * K)%nat -> length (n_vmapP n) = (2 * K)%nat ->
  (forall i, In i (n_vmapM n) -> (i < Np * K)%nat) -> (forall i, In i (n_vmapP n) -> (i < Np * K)%nat) ->
  n_mapO n = Z.of_nat mo -> n_mapI n = Z.of_nat mi -> (mo < 2 * K)%nat -> (mi < 2 * K)%nat ->
  forall fuel unstable CFL c finalTime u0, py_run A fuel n rx Fs Np K unstable CFL c finalTime u0 =
    bind (advec_run A junk junkv fuel n rx Fs Np K unstable CFL c finalTime u0) (fun s => Ok (s_t s, s_u s)).
Proof. intros. eapply run_same; eauto. Qed.

(* The loop gives every stage of a step the time at which the step starts. For y' = t on [0,1] in n equal steps the error is
   1/(2n): a right-hand side that depends on time, as with the boundary values of burgers1d, is not integrated to fourth order. *)
Theorem C100_stage_time_refuted : forall G unstable fuel n s, (0 < n)%nat ->
  sim_loop (exact G) fuel (fun t _ => Ok [t]) unstable (1 / INR n) 1 (Sim 0 0%nat [0] [0] []) = Ok s ->
  exists y, s_u s = [y] /\ Rabs ((1 / 2 - y) - 1 / (2 * INR n)) <= 1 / 100000000000.
Proof.
  intros G unstable fuel n s Hn H. assert (Pn : 0 < INR n) by (apply lt_0_INR; lia). set (dt := 1 / INR n) in *.
  assert (Pd : 0 < dt) by (apply Rdiv_lt_0_compat; lra). assert (Nd : INR n * dt = 1) by (unfold dt; field; lra).
  destruct (C48_time_loop G _ unstable dt 1 fuel 0 [0] [0] s Pd H) as (m & st & S0 & Sm & St & Tm & T1 & T2 & T0 & _).
  assert (m = n).
  { assert (m <> 0%nat) as Hm by (rewrite T0; lra). specialize (T2 Hm). rewrite Tm, Rplus_0_l in T1, T2.
    assert (INR n * dt <= INR m * dt) as C1 by lra. assert (INR m * dt < INR (n + 1) * dt) as C2 by (rewrite plus_INR; change (INR 1) with 1; lra).
    apply Rmult_le_reg_r in C1; [|exact Pd]. apply Rmult_lt_reg_r in C2; [|exact Pd]. apply INR_le in C1. apply INR_lt in C2. lia. }
  subst m.
  assert (Q : forall i, (i <= n)%nat -> s_t (st i) = INR i * dt /\ exists y r, s_u (st i) = [y] /\ s_res (st i) = [r] /\
    Rabs (y - dt * dt * (INR i * (INR i - 1) / 2)) <= 1 / 100000000000 * (dt * dt * (INR i * (INR i - 1) / 2))).
  { induction i as [|i IH]; intro Hi.
    - rewrite S0. cbn [s_t s_u s_res INR]. split; [ring|]. exists 0, 0. split; [reflexivity|]. split; [reflexivity|].
      replace (0 - dt * dt * (0 * (0 - 1) / 2)) with 0 by field. rewrite Rabs_R0. lra.
    - destruct (IH ltac:(lia)) as (Ti & y & r & Eu & Er & Hy). specialize (St i ltac:(lia)). unfold sim_step in St. rewrite Eu, Er in St.
      destruct (C48_constant G [s_t (st i)] dt [y] [r] eq_refl eq_refl) as (u' & r' & Es & Hv). rewrite Es in St. cbn [bind] in St. destruct (unstable u'); [discriminate|]. injection St as <-.
      cbn [s_t s_u s_res]. rewrite S_INR. split; [rewrite Ti; change (fadd (exact G)) with Rplus; ring|].
      destruct C48_scheme as (A & B & _ & _ & HS). destruct (HS G (fun _ => Ok [s_t (st i)]) dt [y] [r] u' r' eq_refl ltac:(intros v q _ [= <-]; reflexivity) Es) as (L1 & L2 & _).
      destruct u' as [|y' [|]]; try discriminate. destruct r' as [|r1 [|]]; try discriminate. exists y', r1. split; [reflexivity|]. split; [reflexivity|].
      specialize (Hv 0%nat ltac:(cbn; lia)). cbn [nth] in Hv. rewrite Ti in Hv. pose proof (pos_INR i) as Pi.
      assert (0 <= dt * (INR i * dt)) as P0 by (apply Rmult_le_pos; [lra|apply Rmult_le_pos; lra]). rewrite (Rabs_right (dt * (INR i * dt))) in Hv by lra.
      replace (y' - dt * dt * ((INR i + 1) * (INR i + 1 - 1) / 2)) with ((y' - (y + dt * (INR i * dt))) + (y - dt * dt * (INR i * (INR i - 1) / 2))) by field.
      eapply Rle_trans; [apply Rabs_triang|]. replace (dt * dt * ((INR i + 1) * (INR i + 1 - 1) / 2)) with (dt * (INR i * dt) + dt * dt * (INR i * (INR i - 1) / 2)) by field. lra. }
  destruct (Q n (Nat.le_refl _)) as (_ & y & r & Eu & _ & Hy). rewrite Sm in Eu. exists y. split; [exact Eu|].
  assert (V : dt * dt * (INR n * (INR n - 1) / 2) = 1 / 2 - 1 / (2 * INR n)) by (unfold dt; field; lra). rewrite V in Hy.
  replace (1 / 2 - y - 1 / (2 * INR n)) with (- (y - (1 / 2 - 1 / (2 * INR n)))) by ring. rewrite Rabs_Ropp. eapply Rle_trans; [exact Hy|].
  assert (0 < 1 / (2 * INR n)) by (apply Rdiv_lt_0_compat; lra). lra.
Qed.

(* Six elements of order 1 on [0,1]: built, with a field that is the linear profile x and one that is the constant 1. *)
Lemma six : let eig := fun n (J : nat -> nat -> R) => (@nil R, J) in
  sound1D gwit 0 6 0 (1 / 10) solve2 inverse2 eig /\
  exists n, buildNodes1D (exact gwit) solve2 inverse2 eig 0 (fun _ _ => 0) (1 / 10)
    (buildConnectivity1D (0%nat, d_one) (fun _ => 0%nat) (fun _ => 0%nat) (fun _ => d_one)) (fun _ => 7%nat) 1 6 0 1 = Ok n.
Proof.
  intro eig. assert (HS : sound1D gwit 0 6 0 (1 / 10) solve2 inverse2 eig).
  { split; [exact gwit_ok|]. split; [lia|]. split; [vm_compute; discriminate|]. split; [lra|]. split; [lra|]. split; [exact solve2_ok|].
    split; [exact inverse2_ok|]. intros J Hf. lia. }
  split; [exact HS|].
  assert (Hd : forall r, r = [-1; 1] -> ment (vandermonde1D (exact gwit) r 2) 0 0%nat * ment (vandermonde1D (exact gwit) r 2) 1 1%nat
    - ment (vandermonde1D (exact gwit) r 2) 0 1%nat * ment (vandermonde1D (exact gwit) r 2) 1 0%nat <> 0).
  { intros r ->. rewrite !(vander_ent gwit gwit_ok) by (cbn; lia). cbn [nth].
    rewrite !(proj1 (leg2 gwit gwit_ok 0 _)), !(proj2 (leg2 gwit gwit_ok 0 _)). pose proof (sg_pos 0). pose proof (sg_pos 1). cbn. nra. }
  destruct (nodes_ok (exact gwit) solve2 inverse2 eig 0 (fun _ _ => 0) (1/10) (0%nat, d_one) (fun _ => 0%nat) (fun _ => 0%nat) (fun _ => d_one) (fun _ => 7%nat) 0 6 0 1)
    as (Fx & nx & _ & _ & E); try lia.
  - vm_compute. discriminate.
  - reflexivity.
  - rewrite fofn_INR. cbn [exact fmul fopp]. change (INR 1) with 1. ring.
  - intros k Hk. cbv zeta. 
    pose proof (sound_points gwit 0 6 0 (1/10) solve2 inverse2 eig HS) as (Lr & R0 & R1 & _).
    match goal with |- context [grid1D ?EE ?aa ?bb ?KK ?rr] => set (r := rr) in * end.
    assert (Eq : ment (grid1D (exact gwit) 0 1 6 r) 1%nat k = ment (grid1D (exact gwit) 0 1 6 r) 0%nat (S k)).
    { rewrite (grid_right gwit 0 6 0 1 r ltac:(lia) Lr R1), (grid_left gwit 0 6 0 1 r ltac:(lia) Lr R0). reflexivity. }
    cbn [Nat.sub]. rewrite Eq. assert (Cl : forall v, flt (exact gwit) (fsqrt (exact gwit) (fmul (exact gwit) (fsub (exact gwit) v v) (fsub (exact gwit) v v))) (1/10) = true).
    { intros v. cbn [exact fsub fmul fsqrt flt]. replace ((v - v) * (v - v)) with 0 by ring. rewrite sqrt_0. unfold Rltb. destruct (Rlt_dec 0 (1/10)); [reflexivity|lra]. }
    split; apply Cl.
  - assert (Cl : forall v, flt (exact gwit) (fsqrt (exact gwit) (fmul (exact gwit) (fsub (exact gwit) v v) (fsub (exact gwit) v v))) (1/10) = true).
    { intros v. cbn [exact fsub fmul fsqrt flt]. replace ((v - v) * (v - v)) with 0 by ring. rewrite sqrt_0. unfold Rltb. destruct (Rlt_dec 0 (1/10)); [reflexivity|lra]. }
    cbv zeta. split; apply Cl.
  - rewrite E. clear E. set (r := computeGaussLobottoPoints _ _ _ _ _ _).
    assert (Er : r = [-1; 1]) by (unfold r; cbn [computeGaussLobottoPoints]; rewrite fofn_INR; reflexivity).
    specialize (Hd r Er). unfold inverse2, buildDr. unfold solve2.
    assert (Lr : length r = 2%nat) by (rewrite Er; reflexivity).
    cbn [mtrans mrows mcols vandermonde1D mat_cols]. rewrite Lr. cbn [Nat.eqb andb].
    cbn [ment vandermonde1D mat_cols] in Hd |- *.
    destruct (Req_EM_T _ 0) as [Hc|_]; [contradiction|]. cbn [bind].
    destruct (Req_EM_T _ 0) as [Hc|_]; [exfalso; apply Hd; etransitivity; [|exact Hc]; cbn [mtrans ment vandermonde1D mat_cols]; ring|]. cbn [bind].
    match goal with |- context [buildLift1D ?A' ?n ?V] => destruct (lift_total A' 0 V) as (L & EL); rewrite EL end. cbn [bind].
    eexists. reflexivity.
Qed.
Example C100_witness : let eig := fun n (J : nat -> nat -> R) => (@nil R, J) in
  sound1D gwit 0 6 0 (1 / 10) solve2 inverse2 eig /\ exists n J rx Fs,
  buildNodes1D (exact gwit) solve2 inverse2 eig 0 (fun _ _ => 0) (1 / 10) (buildConnectivity1D (0%nat, d_one) (fun _ => 0%nat) (fun _ => 0%nat) (fun _ => d_one)) (fun _ => 7%nat) 1 6 0 1 = Ok n /\
  computeJacobian1D (exact gwit) (fun _ _ => 0) 2 6 (n_x n) (n_Dr n) = Ok (J, rx, Fs) /\
  let D := fun q x => match q with O => x | 1%nat => 1 | _ => 0 end in
  let u := of_field (n_x n) in let one := repeat 1 12 in
  length u = (2 * 6)%nat /\ length one = (2 * 6)%nat /\ derivatives D /\ (forall x, D 0%nat x = peval [0; 1] x) /\ follows 2 6 (n_x n) u 0 (D 0%nat) /\
  follows 2 6 (n_x n) u 0 (fun x => 0 + 1 * x) /\ follows 2 6 (n_x n) one (6 - 5) (fun _ => 1) /\ (exists m, total 2 6 ((1 - 0) / INR 6) (n_r n) one m) /\
  same_on 2 6 u (map (fun i => if ((i mod 6 =? 5)%nat) then 9 else nth i u 0) (seq 0 12)) 0 4.
Proof.
  intro eig. destruct six as (HS & n & En). fold eig in HS, En. split; [exact HS|].
  destruct (built gwit 0 6 0 1 0 (1 / 10) solve2 inverse2 eig (fun _ _ => 0) (0%nat, d_one) (fun _ => 0%nat) (fun _ => 0%nat) (fun _ => d_one) (fun _ => 7%nat) ltac:(lra) HS)
    as [Et | (n1 & J & rx & Fs & En1 & EJ & LT & HX)]; [congruence|]. assert (n1 = n) by congruence. subst n1.
  destruct (built_tables gwit 0 6 0 1 0 (1 / 10) solve2 inverse2 eig (fun _ _ => 0) (0%nat, d_one) (fun _ => 0%nat) (fun _ => 0%nat) (fun _ => d_one) (fun _ => 7%nat) ltac:(lra) HS) as [Et | (n1 & _ & _ & _ & En2 & _ & _ & _ & _ & Sx)]; [congruence|].
  assert (n1 = n) by congruence. subst n1.
  exists n, J, rx, Fs. split; [exact En|]. split; [exact EJ|]. intros D u one.
  assert (Lu : length u = (2 * 6)%nat) by (unfold u; rewrite of_field_len; destruct Sx as (-> & ->); reflexivity). split; [exact Lu|]. split; [reflexivity|]. split.
  { intros [|[|q]] x; cbn [D]; [apply derivable_pt_lim_id|apply derivable_pt_lim_const|apply derivable_pt_lim_const]. }
  assert (Fu : follows 2 6 (n_x n) u 0 (D 0%nat)) by (intros i k Hi Hk; unfold u, D; rewrite (of_field_value _ 2 6) by (auto; lia); reflexivity).
  split; [intro x; cbn [D peval]; ring|]. split; [exact Fu|]. split; [intros i k Hi Hk; rewrite Fu by auto; cbn [D]; ring|]. split.
  { intros i k Hi Hk. unfold value, one. apply (repeat_spec 12 1). apply nth_In. rewrite repeat_length. lia. }
  split; [apply (total_exists gwit n J rx Fs 2 6 _ LT)|].
  intros i e Hi He. unfold value. change 12%nat with (2 * 6)%nat. rewrite <- Lu. assert (Hl : (i * 6 + e < length u)%nat) by lia.
  set (g := fun i => if ((i mod 6 =? 5)%nat) then 9 else nth i u 0). rewrite (nth_indep (map g _) 0 (g 0%nat)) by (rewrite map_length, seq_length; exact Hl).
  rewrite map_nth, seq_nth by exact Hl. unfold g. cbn [Nat.add]. replace (i * 6 + e)%nat with (e + i * 6)%nat by lia. rewrite Nat.mod_add, Nat.mod_small by lia.
  destruct (Nat.eqb_spec e 5); [lia|reflexivity].
Qed.
(* The time loop runs through: two steps for y' = t. *)
Example C100_stage_time_witness : forall G, exists fuel s, sim_loop (exact G) fuel (fun t _ => Ok [t]) (fun _ => false) (1 / INR 2) 1 (Sim 0 0%nat [0] [0] []) = Ok s.
Proof.
  intro G. exists 3%nat.
  assert (St : forall s, exists s', sim_step (exact G) (fun t _ => Ok [t]) (fun _ => false) (1 / INR 2) s = Ok s').
  { intro s. unfold sim_step. destruct (C48_total G (fun _ => Ok [s_t s]) (1 / INR 2) (s_u s) (s_res s)) as (u' & r' & E); [eauto|]. rewrite E. cbn [bind]. eauto. }
  pose proof (C48_time_loop_ends G (fun t _ => Ok [t]) (fun _ => false) (1 / INR 2) 1 0 [0] [0] 2 ltac:(cbn; lra) ltac:(cbn; lra) ltac:(discriminate)) as NU.
  assert (NT : forall f s, sim_loop (exact G) f (fun t _ => Ok [t]) (fun _ => false) (1 / INR 2) 1 s <> Throw).
  { induction f as [|f IH]; intro s; cbn [sim_loop]; [discriminate|]. destruct (flt (exact G) (s_t s) 1); [|discriminate]. destruct (St s) as (s' & ->). cbn [bind]. apply IH. }
  specialize (NT 3%nat (Sim 0 0%nat [0] [0] [])). destruct (sim_loop _ 3 _ _ _ _ _) as [s | |] eqn:Es; [exists s; reflexivity|congruence|congruence].
Qed.

Print Assumptions C100_transport.
Print Assumptions C100_shift.
Print Assumptions C100_linear_profile.
Print Assumptions C100_local.
Print Assumptions C100_mass.
Print Assumptions C100_time_step.
Print Assumptions C100_python_same_built.
Print Assumptions C100_python_rhs.
Print Assumptions C100_python_run.
Print Assumptions C100_stage_time_refuted.
