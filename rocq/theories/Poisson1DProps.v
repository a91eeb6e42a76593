(* Poisson1DProps.v - C77: the operator of the one-dimensional Poisson driver. holds, slopes, dot, penalty_flux and
   interior_penalty are in Poisson1DSpec.v, weak_form and trace_mean in Line1DSpec.v. *)
From Coq Require Import ZArith List Lia Bool Arith.
From Verif Require Import Base Loops Num BlitzModel BlitzSpec BlitzProofs JacobiModel JacobiSpec JacobiProofs JacobiOrthProofs JacobiQuadProofs JacobiExactProofs
  DenseSpec CscModel MeshModel Nodes1DModel Nodes1DSpec Nodes1DProofs Nodes1DExactProofs Nodes1DProps DblProofs RKModel Line1DModel TriBasisProofs TriProofs TriLiftProofs TriOpProofs TriDGProofs QuadBasisProofs TriWitness Nodes1DTotalProps Line1DSpec Line1DProofs Line1DBurgersProofs Poisson1DSpec Poisson1DProofs.
From Coq Require Import Reals Lra SpecFloat FunctionalExtensionality.
From Verif Require GmresExactProofs GmresMath.
Import ListNotations.
Local Open Scope R_scope.

Lemma slopes_eq U D : slopes U D -> D = fun k => dpeval (U k).
Proof. intro H. extensionality k. extensionality x. eapply uniqueness_limite; [apply H|apply dpeval_ok]. Qed.

Lemma tele (f : nat -> R) m : sumn m (fun k => f (S k) - f k) = f m - f 0%nat.
Proof. induction m as [|m IH]; [rewrite sumn_0; ring|]. rewrite sumn_S, IH. ring. Qed.
Ltac fld := field; repeat split; first [assumption | lra].
Section Drivers.
Variables (G : R -> R) (N K : nat) (a b eps tol lowest : R).
Variables (solve : mat R -> mat R -> mat R -> outcome (mat R)) (inverse : mat R -> mat R -> outcome (mat R))
  (eig : nat -> (nat -> nat -> R) -> list R * (nat -> nat -> R)) (junk : nat -> nat -> R) (junkv : nat -> R)
  (jk : nat * dbl) (jp ji : nat -> nat) (jx : nat -> dbl) (junkn : nat -> nat).
Local Notation E := (exact G).
Local Notation Np := (S (S N)).
Local Notation w := ((b - a) / INR K).
Local Notation tau := (INR Np * INR Np / Rabs w).
Local Notation result := (buildNodes1D E solve inverse eig eps junk tol (buildConnectivity1D jk jp ji jx) junkn (S N) K a b).
Local Notation metric n := (computeJacobian1D E junk Np K (n_x n) (n_Dr n)).
Local Notation op n J rx Fs inp out := (poisson1d_op E junk junkv lowest n J rx Fs Np K inp out).
Local Notation is n v U := (holds Np K (n_r n) v U).
Hypothesis Hab : a <> b.
Hypothesis Hlow : lowest < 0.
Hypothesis HS : sound1D G N K eps tol solve inverse eig.

(* The operator never fails and its output tests two weak forms: q discretises u_x with one trace per vertex (0 at both
   ends), T discretises q_x with one flux per vertex. The flux terms of the second carry the factor w/2, which is 1
   only for elements of width 2. *)
Theorem C77_weak_form : result = Throw \/ exists n J rx Fs, result = Ok n /\ metric n = Ok (J, rx, Fs) /\
  (forall v, length v = (Np * K)%nat -> exists V, is n v V) /\
  forall inp out U D, is n inp U -> slopes U D -> length out = (Np * K)%nat ->
  exists res q T, op n J rx Fs inp out = Ok res /\ length res = (Np * K)%nat /\ (forall k, (k < K)%nat -> (length (q k) <= Np)%nat) /\
  weak_form Np K w 1 U q (fun k => peval (U k) (-1) - trace_mean K 0 0 U k) (fun k => trace_mean K 0 0 U (S k) - peval (U k) 1) /\
  weak_form Np K w 1 q T (fun k => w / 2 * (peval (q k) (-1) - penalty_flux K w tau U D k)) (fun k => w / 2 * (penalty_flux K w tau U D (S k) - peval (q k) 1)) /\
  forall v V, is n v V -> exists s, (forall k, (k < K)%nat -> integral_is (fun x => w / 2 * peval (T k) x * peval (V k) x) (-1) 1 (s k)) /\ dot (Np * K) v res = sumn K s.
Proof.
  destruct (built_tables G N K a b eps tol solve inverse eig junk jk jp ji jx junkn Hab HS) as [Et | (n & J & rx & Fs & En & EJ & LT & _)]; [left; exact Et|].
  destruct (exact_nodes G N K a b eps tol solve inverse eig junk jk jp ji jx junkn HS) as [Et | (n1 & En1 & _ & EV & _)]; [left; exact Et|]. assert (n1 = n) by congruence. subst n1.
  assert (HG : gamma_like G) by apply HS. right. exists n, J, rx, Fs. split; [exact En|]. split; [exact EJ|].
  pose proof (lt_K _ _ _ _ _ _ _ LT) as HK. pose proof (lt_w _ _ _ _ _ _ _ LT) as Hw. pose proof (Rabs_no_R0 _ Hw) as HwR. pose proof (not_0_INR K ltac:(lia)) as HKR. split.
  { intros v Lv. destruct (interp_exists n J rx Fs Np K _ LT (mkmat Np K (fun i k => nth (i + k * Np) v 0))) as (V & HV). exists V. split; [exact Lv|]. intros k Hk. destruct (HV k Hk) as (A & B). split; [exact A|exact B]. }
  intros inp out U D HU HD Lo. rewrite (slopes_eq U D HD).
  destruct (poisson_ok G junk junkv lowest n J rx Fs Np K _ LT Hlow inp out U HU Lo) as (res & q & t & P & Er & Lr & HP & Hq & Ht & Hr).
  destruct (interp_exists n J rx Fs Np K _ LT t) as (T & HT). exists res, P, T. split; [exact Er|]. split; [exact Lr|]. split; [intros k Hk; apply HP; exact Hk|].
  set (u := mkmat Np K (fun i k => nth (i + k * Np) inp 0)).
  assert (IU : forall k, (k < K)%nat -> interpolates Np (n_r n) u k (U k)) by (intros k Hk; destruct HU as (_ & HU); destruct (HU k Hk) as (A & B); split; [exact A|exact B]).
  assert (D0 : forall k, (k < K)%nat -> 1 / 2 * du_at K 0 0 U (0 + k * 2) = peval (U k) (-1) - trace_mean K 0 0 U k).
  { intros k Hk. unfold du_at. destruct (Nat.eqb_spec (0 + k * 2) (2 * K - 1)); [lia|]. destruct k as [|k].
    - cbn [Nat.add Nat.mul Nat.eqb trace_mean]. unfold Lv. field.
    - destruct (Nat.eqb_spec (0 + S k * 2) 0); [lia|]. rewrite mate_l by auto. rewrite side_l, side_r. unfold trace_mean. destruct (Nat.eqb_spec (S k) K); [lia|]. unfold Lv, Rv. field. }
  assert (D1 : forall k, (k < K)%nat -> - (1 / 2 * du_at K 0 0 U (1 + k * 2)) = trace_mean K 0 0 U (S k) - peval (U k) 1).
  { intros k Hk. unfold du_at, trace_mean. destruct (Nat.eqb_spec (1 + k * 2) (2 * K - 1)), (Nat.eqb_spec (S k) K); try lia.
    - replace (K - 1)%nat with k by lia. unfold Rv. field.
    - destruct (Nat.eqb_spec (1 + k * 2) 0); [lia|]. rewrite mate_r by auto. destruct (Nat.eqb_spec (S k) K); [lia|]. rewrite side_l, side_r. unfold Lv, Rv. field. }
  split; [|split].
  - apply (weak_all n J rx Fs _ K _ LT 1 u q (fun f k => match f with O => _ | _ => _ end) U IU) with (2 := HP). intros i k Hi Hk. cbv iota. rewrite Hq by auto. rewrite D0, D1 by auto. reflexivity.
  - apply (weak_all n J rx Fs _ K _ LT 1 q t (fun f k => match f with O => _ | _ => _ end) P HP) with (2 := HT). intros i k Hi Hk. cbv iota. rewrite Ht by auto.
    assert (F0 : - (w / 2) * flux_at K tau U (UXof w U) P (0 + k * 2) = w / 2 * (peval (P k) (-1) - penalty_flux K w tau U (fun k => dpeval (U k)) k)).
    { unfold flux_at. unfold sgn. rewrite Nat.mod_add by lia. change (0 mod 2 =? 0)%nat with true. cbv iota. unfold du_at, penalty_flux. destruct (Nat.eqb_spec (0 + k * 2) (2 * K - 1)); [lia|]. rewrite mate_l by auto. destruct k as [|k].
      - cbn [Nat.add Nat.mul Nat.eqb]. change (side P 0) with (Lv P 0). change (side (UXof w U) 0) with (Lv (UXof w U) 0). unfold Lv, UXof. rewrite pscal_eval, pderiv_eval. fld.
      - destruct (Nat.eqb_spec (0 + S k * 2) 0); [lia|]. destruct (Nat.eqb_spec (S k) K); [lia|]. rewrite !side_l, !side_r. unfold Lv, Rv, UXof. rewrite !pscal_eval, !pderiv_eval. fld. }
    assert (F1 : - (w / 2) * flux_at K tau U (UXof w U) P (1 + k * 2) = w / 2 * (penalty_flux K w tau U (fun k => dpeval (U k)) (S k) - peval (P k) 1)).
    { unfold flux_at. unfold sgn. rewrite Nat.mod_add by lia. change (1 mod 2 =? 0)%nat with false. cbv iota. unfold du_at, penalty_flux. rewrite mate_r by auto.
      destruct (Nat.eqb_spec (1 + k * 2) (2 * K - 1)), (Nat.eqb_spec (S k) K); try lia.
      - replace (K - 1)%nat with k by lia. rewrite !side_r. unfold Lv, Rv, UXof. rewrite !pscal_eval, !pderiv_eval. fld.
      - destruct (Nat.eqb_spec (1 + k * 2) 0); [lia|]. rewrite !side_l, !side_r. unfold Lv, Rv, UXof. rewrite !pscal_eval, !pderiv_eval. fld. }
    rewrite F0, F1. reflexivity.
  - intros v V (Lv & HV). exists (fun k => w / 2 * sumn Np (fun i => peval (V k) (nth i (n_r n) 0) * sumn Np (fun j => sumn Np (fun l => ment (n_Vinv n) l i * ment (n_Vinv n) l j) * peval (T k) (nth j (n_r n) 0)))). split.
    + intros k Hk. eapply integral_ext; [|apply integral_scal; apply (mass_pair G HG (S N) (n_r n) (n_V n) (n_Vinv n))].
      * intro x. cbv beta. ring.
      * exact (lt_r _ _ _ _ _ _ _ LT).
      * exact EV.
      * intros k0 j0 Hk0 Hj0. apply (lt_V _ _ _ _ _ _ _ LT); assumption.
      * apply HV. exact Hk.
      * apply HT. exact Hk.
    + unfold dot. rewrite Nat.mul_comm, sumn_prod. apply sumn_ext. intros k Hk. rewrite <- sumn_scal. apply sumn_ext. intros i Hi. rewrite (Nat.add_comm (k * Np) i).
      destruct (HV k Hk) as (_ & HVi). rewrite HVi, Hr by auto.
      rewrite (sumn_ext Np (fun j => _ * ment t j k) (fun j => sumn Np (fun l => ment (n_Vinv n) l i * ment (n_Vinv n) l j) * peval (T k) (nth j (n_r n) 0))) by (intros j Hj; destruct (HT k Hk) as (_ & H); rewrite H by exact Hj; reflexivity). ring.
Qed.

(* Elements of width 2: pairing the output with any field is the symmetric interior penalty form. *)
Theorem C77_interior_penalty : w = 2 -> result = Throw \/ exists n J rx Fs, result = Ok n /\ metric n = Ok (J, rx, Fs) /\
  forall inp out U D v V D', is n inp U -> slopes U D -> length out = (Np * K)%nat -> is n v V -> slopes V D' ->
  exists res, op n J rx Fs inp out = Ok res /\ interior_penalty K w (INR Np * INR Np / 2) U V D D' (dot (Np * K) v res).
Proof.
  intro H2. destruct C77_weak_form as [Et | (n & J & rx & Fs & En & EJ & _ & HW)]; [left; exact Et|]. right. exists n, J, rx, Fs. split; [exact En|]. split; [exact EJ|].
  intros inp out U D v V D' HU HD Lo HV HD'. destruct (HW inp out U D HU HD Lo) as (res & q & T & Er & _ & _ & Wq & WT & HP). exists res. split; [exact Er|].
  destruct (HP v V HV) as (s & Hs & ->). rewrite (slopes_eq U D HD) in *. rewrite (slopes_eq V D' HD').
  replace (INR Np * INR Np / 2) with tau by (rewrite H2, Rabs_right by lra; reflexivity).
  apply (pair_form Np K w tau U q T ltac:(rewrite H2; lra) ltac:(apply HS) Wq WT V s H2); [|exact Hs]. intros k Hk. apply HV. exact Hk.
Qed.
Lemma all_slopes U : slopes U (fun k => dpeval (U k)).
Proof. intros k x. apply dpeval_ok. Qed.
Theorem C77_symmetric : w = 2 -> result = Throw \/ exists n J rx Fs, result = Ok n /\ metric n = Ok (J, rx, Fs) /\
  forall x y out1 out2, length x = (Np * K)%nat -> length y = (Np * K)%nat -> length out1 = (Np * K)%nat -> length out2 = (Np * K)%nat ->
  exists Ax Ay, op n J rx Fs x out1 = Ok Ax /\ op n J rx Fs y out2 = Ok Ay /\ dot (Np * K) y Ax = dot (Np * K) x Ay.
Proof.
  intro H2. destruct C77_weak_form as [Et | (n & J & rx & Fs & En & EJ & HE & _)]; [left; exact Et|].
  destruct (C77_interior_penalty H2) as [Et | (n' & J' & rx' & Fs' & En' & EJ' & HF)]; [left; exact Et|]. assert (n' = n) by congruence. subst n'. assert (J' = J /\ rx' = rx /\ Fs' = Fs) as (-> & -> & ->) by (repeat split; congruence).
  right. exists n, J, rx, Fs. split; [exact En|]. split; [exact EJ|]. intros x y out1 out2 Lx Ly L1 L2. destruct (HE x Lx) as (X & HX). destruct (HE y Ly) as (Y & HY).
  destruct (HF x out1 X _ y Y _ HX (all_slopes X) L1 HY (all_slopes Y)) as (Ax & E1 & F1). destruct (HF y out2 Y _ x X _ HY (all_slopes Y) L2 HX (all_slopes X)) as (Ay & E2 & F2).
  exists Ax, Ay. split; [exact E1|]. split; [exact E2|]. eapply form_sym; [exact F1|exact F2].
Qed.
Theorem C77_negative_definite : w = 2 -> result = Throw \/ exists n J rx Fs, result = Ok n /\ metric n = Ok (J, rx, Fs) /\
  forall x out, length x = (Np * K)%nat -> length out = (Np * K)%nat -> exists Ax, op n J rx Fs x out = Ok Ax /\
  ((exists g, (g < Np * K)%nat /\ nth g x 0 <> 0) -> dot (Np * K) x Ax < 0).
Proof.
  intro H2. destruct C77_weak_form as [Et | (n & J & rx & Fs & En & EJ & HE & _)]; [left; exact Et|].
  destruct (C77_interior_penalty H2) as [Et | (n' & J' & rx' & Fs' & En' & EJ' & HF)]; [left; exact Et|]. assert (n' = n) by congruence. subst n'. assert (J' = J /\ rx' = rx /\ Fs' = Fs) as (-> & -> & ->) by (repeat split; congruence).
  right. exists n, J, rx, Fs. split; [exact En|]. split; [exact EJ|]. intros x out Lx L1. destruct (HE x Lx) as (X & HX).
  destruct (HF x out X _ x X _ HX (all_slopes X) L1 HX (all_slopes X)) as (Ax & E1 & F1). exists Ax. split; [exact E1|]. intros (g & Hg & Hne). rewrite H2 in F1.
  destruct (definite N K _ X _ ltac:(apply HS) (fun k Hk => proj1 (proj2 HX k Hk)) eq_refl F1) as (A & B). destruct (Rle_lt_or_eq_dec _ _ A) as [|E0]; [assumption|]. exfalso. apply Hne.
  assert (Hd : (g / Np < K)%nat) by (apply Nat.div_lt_upper_bound; lia). pose proof (Nat.mod_upper_bound g Np ltac:(lia)) as Hm.
  destruct (proj2 HX _ Hd) as (_ & H). specialize (H _ Hm). rewrite (B E0 _ Hd) in H. replace g with (g mod Np + g / Np * Np)%nat; [exact H|]. pose proof (Nat.div_mod g Np ltac:(lia)). lia.
Qed.

(* Any other width (the driver uses 15 elements on [-1,1]): with two or more elements of order two or more the operator is not symmetric. *)
Theorem C77_symmetric_refuted : w <> 2 -> (2 <= K)%nat -> (1 <= N)%nat -> result = Throw \/ exists n J rx Fs, result = Ok n /\ metric n = Ok (J, rx, Fs) /\
  exists x y, length x = (Np * K)%nat /\ length y = (Np * K)%nat /\
  forall out1 out2 Ax Ay, length out1 = (Np * K)%nat -> length out2 = (Np * K)%nat -> op n J rx Fs x out1 = Ok Ax -> op n J rx Fs y out2 = Ok Ay -> dot (Np * K) y Ax <> dot (Np * K) x Ay.
Proof.
  intros H2 HK2 HN1. destruct C77_weak_form as [Et | (n & J & rx & Fs & En & EJ & HE & HW)]; [left; exact Et|]. right. exists n, J, rx, Fs. split; [exact En|]. split; [exact EJ|].
  assert (Hw : w <> 0) by (unfold Rdiv; apply Rmult_integral_contrapositive_currified; [lra|]; apply Rinv_neq_0_compat; apply not_0_INR; lia).
  pose proof (Rabs_no_R0 _ Hw) as HwR. pose proof (not_0_INR K ltac:(lia)) as HKR.
  set (U := fun _ : nat => [1]). set (V := fun k : nat => match k with O => [1; 0; -1] | S _ => [] end).
  set (vec := fun X : nat -> list R => map (fun g => peval (X (g / Np)%nat) (nth (g mod Np) (n_r n) 0)) (seq 0 (Np * K))).
  assert (Hvec : forall X, (forall k, (length (X k) <= Np)%nat) -> is n (vec X) X).
  { intros X HX. split; [unfold vec; rewrite map_length; apply seq_length|]. intros k Hk. split; [apply HX|]. intros i Hi. unfold vec.
    assert (Hg : (i + k * Np < Np * K)%nat) by nia. erewrite nth_error_nth; [|apply map_nth_error; rewrite (nth_error_nth' _ 0%nat) by (rewrite seq_length; exact Hg); rewrite seq_nth by exact Hg; reflexivity].
    cbn [Nat.add]. rewrite Nat.mod_add, Nat.div_add, Nat.mod_small, Nat.div_small by lia. reflexivity. }
  pose proof (Hvec U ltac:(intro; cbn; lia)) as HU. pose proof (Hvec V ltac:(intros [|]; cbn; lia)) as HV.
  exists (vec U), (vec V). split; [apply HU|]. split; [apply HV|]. intros out1 out2 Ax Ay L1 L2 EA EB.
  destruct (HW (vec U) out1 U _ HU (all_slopes U) L1) as (Ax' & q & T & E1 & _ & _ & Wq & WT & P1). assert (Ax' = Ax) by congruence. subst Ax'.
  destruct (HW (vec V) out2 V _ HV (all_slopes V) L2) as (Ay' & q' & T' & E2 & _ & Lq & Wq' & WT' & P2). assert (Ay' = Ay) by congruence. subst Ay'.
  destruct (P1 (vec V) V HV) as (s & Hs & ->). destruct (P2 (vec U) U HU) as (s' & Hs' & ->).
  assert (HK0 : (0 < K)%nat) by lia.
  assert (Z0 : forall f, (forall x, f x = 0) -> integral_is f (-1) 1 0) by (intros f Hf; apply (integral_ext (fun _ => 0)); [intro; symmetry; apply Hf|apply integral_zero]).
  (* the first pairing *)
  assert (S0 : sumn K s = - (4 / w)).
  { rewrite (sumn_pick K s 0 HK0).
    - pose proof (element_pair Np K w _ U q T Hw HK0 Wq WT 0%nat (V 0%nat) 0 HK0 ltac:(cbn; lia) ltac:(apply Z0; intro; cbn; ring)) as H.
      rewrite (integral_unique _ _ _ _ _ (Hs 0%nat HK0) H). unfold V, U, trace_mean. destruct (Nat.eqb_spec 1 K); [lia|]. cbn [peval dpeval]. fld.
    - intros k Hk Hne. destruct k; [lia|]. eapply integral_unique; [apply Hs; exact Hk|]. apply Z0. intro x. cbn. ring. }
  (* the second *)
  assert (Tr : forall v, (v <= K)%nat -> trace_mean K 0 0 V v = 0).
  { intros [|e] He; [reflexivity|]. unfold trace_mean. destruct (Nat.eqb_spec (S e) K); [reflexivity|]. unfold V. destruct e; cbn [peval]; field. }
  assert (Ve : forall k, peval (V k) (-1) = 0 /\ peval (V k) 1 = 0) by (intros [|k]; cbn; split; ring).
  assert (Qv : forall k, (k < K)%nat -> forall x, peval (q' k) x = 2 / w * dpeval (V k) x).
  { intros k Hk. set (e := padd (pscal (w / 2) (q' k)) (pscal (-1) (pderiv (V k)))). assert (Le : (length e <= Np)%nat).
    { unfold e. rewrite padd_len, !pscal_len. pose proof (pderiv_len (V k)). specialize (Lq k Hk). assert ((length (V k) <= Np)%nat) by (destruct k; cbn; lia). lia. }
    pose proof (Wq' k Hk (dpeval (V k)) (dpeval_ok _) e Le) as H. cbv beta in H. destruct (Ve k) as (A & B). rewrite A, B, !Tr in H by lia. 
    assert (He : forall x, peval e x = w / 2 * peval (q' k) x - dpeval (V k) x) by (intro x; unfold e; rewrite padd_eval, !pscal_eval, pderiv_eval; ring).
    assert (Hz : forall x, peval e x = 0). { apply (zero_square Np); [exists e; split; [lia|reflexivity]|]. eapply integral_val; [|eapply integral_ext; [|exact H]]; [ring|]. intro x. cbv beta. rewrite He. ring. }
    intro x. specialize (Hz x). rewrite He in Hz. apply Rmult_eq_reg_l with (w / 2); [|lra]. replace (w / 2 * (2 / w * dpeval (V k) x)) with (dpeval (V k) x) by fld. lra. }
  set (sg := penalty_flux K w tau V (fun k => dpeval (V k))) in *.
  assert (S1 : sumn K s' = (1 - w / 2) * (2 / w * -4) + w / 2 * (sg K - sg 0%nat)).
  { rewrite (sumn_ext K s' (fun k => (1 - w / 2) * (2 / w * (dpeval (V k) 1 - dpeval (V k) (-1))) + w / 2 * (sg (S k) - sg k))).
    - rewrite sumn_plus, !sumn_scal. f_equal.
      + f_equal. f_equal. rewrite (sumn_pick K _ 0 HK0); [cbn; ring|]. intros [|k] Hk Hne; [lia|]. cbn. ring.
      + f_equal. apply tele.
    - intros k Hk. pose proof (element_pair Np K w _ V q' T' Hw HK0 Wq' WT' k (U k) 0 Hk ltac:(cbn; lia) ltac:(apply Z0; intro; cbn; ring)) as H.
      rewrite (integral_unique _ _ _ _ _ (Hs' k Hk) H). fold sg. rewrite !Qv by exact Hk. unfold U. cbn [peval dpeval]. fld. }
  assert (G0 : sg 0%nat = 4 / w) by (unfold sg, penalty_flux, V; cbn [peval dpeval]; fld).
  assert (GK : sg K = 0).
  { unfold sg, penalty_flux. destruct K as [|[|m]]; [lia|lia|]. rewrite Nat.eqb_refl. unfold V. cbn [peval dpeval]. ring. }
  rewrite S0, S1, G0, GK. intro Heq. apply H2. assert (Hm : w * (- (4 / w)) = w * ((1 - w / 2) * (2 / w * -4) + w / 2 * (0 - 4 / w))) by (rewrite Heq; reflexivity).
  replace (w * - (4 / w)) with (-4) in Hm by fld. replace (w * ((1 - w / 2) * (2 / w * -4) + w / 2 * (0 - 4 / w))) with (-8 + 2 * w) in Hm by fld. lra.
Qed.
End Drivers.

(* Three elements of width 2 on [0,6] meet every hypothesis of the first four theorems, two elements of order 2 on [0,1] those of the refutation. *)
Example C77_witness : 
  (sound1D gwit 0 3 0 (1 / 10) cramer cramer_inv eig0 /\ (6 - 0) / INR 3 = 2 /\
   exists n, buildNodes1D (exact gwit) cramer cramer_inv eig0 0 junk0 (1 / 10) (buildConnectivity1D (0%nat, d_one) (fun _ => 0%nat) (fun _ => 0%nat) (fun _ => d_one)) (fun _ => 7%nat) 1 3 0 6 = Ok n) /\
  (sound1D gwit 1 2 0 (1 / 10) cramer cramer_inv eig0 /\ (1 - 0) / INR 2 <> 2 /\
   exists n, buildNodes1D (exact gwit) cramer cramer_inv eig0 0 junk0 (1 / 10) (buildConnectivity1D (0%nat, d_one) (fun _ => 0%nat) (fun _ => 0%nat) (fun _ => d_one)) (fun _ => 7%nat) 2 2 0 1 = Ok n).
Proof.
  pose proof (cramer_sound 0 3 ltac:(lia) ltac:(lia)) as S1. pose proof (cramer_sound 1 2 ltac:(lia) ltac:(lia)) as S2.
  destruct (cramer_regular 2 ltac:(lia)) as (A2 & B2). destruct (cramer_regular 3 ltac:(lia)) as (A3 & B3).
  split; (split; [assumption|]); (split; [cbn [INR]; lra|]).
  - apply (C80_nodes_always_built gwit 0 3); assumption.
  - apply (C80_nodes_always_built gwit 1 2); assumption.
Qed.
Print Assumptions C77_weak_form.
Print Assumptions C77_interior_penalty.
Print Assumptions C77_symmetric.
Print Assumptions C77_negative_definite.
Print Assumptions C77_symmetric_refuted.
