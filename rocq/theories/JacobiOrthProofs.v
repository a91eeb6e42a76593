(* JacobiOrthProofs.v - orthonormality, Legendre normalisation, parity, end values. *)
From Coq Require Import ZArith List Reals Lra Lia Arith.
From Verif Require Import Base Num JacobiModel JacobiSpec JacobiProofs.
Import ListNotations.
Local Open Scope R_scope.

Section Struct.
Variables al be : R.
Hypothesis Ha : -1 < al. Hypothesis Hb : -1 < be. Hypothesis Hs : al + be <> -1.
Local Notation s := (al + be).
Local Notation A := (a2 al be). Local Notation B := (bn al be). Local Notation p := (mon al be).
Local Notation q := (mon (al + 1) (be + 1)).
Ltac nz := repeat split; try lra; try (intro; lra).

Definition dmon (n : nat) (x : R) : R := match n with O => 0 | S m => INR n * q m x end.

Lemma dmon_rec n x : dmon (S (S n)) x = p (S n) x + (x - B (S n)) * dmon (S n) x - A (INR (S n)) * dmon n x.
Proof.
  unfold dmon. rewrite bnS. destruct n as [|n].
  + rewrite (contig1 al be), mon1, mon0, bn'_bb by assumption. unfold ee. change (INR 1) with 1. replace (INR 2) with 2 by (simpl; lra).
    replace (1 - 1) with 0 by lra. cbn [INR]. ring.
  + rewrite (contig al be), (monSS (al + 1) (be + 1) n), bn'_bb by assumption.
    pose proof (S_INR (S n)) as E2. pose proof (S_INR n) as E1. pose proof (S_INR (S (S n))) as E3.
    unfold ee, dd. rewrite E3.
    replace (INR (S (S n)) - 1) with (INR (S n)) by lra. rewrite E2. ring.
Qed.

Definition uu (n : R) := 2 * n * (n + s + 1) * (al - be) / ((2 * n + s) * (2 * n + s + 2)).
Definition vv (n : R) := (n + s + 1) * A n.

Lemma st1 n : 1 <= n -> - (bb al be (n + 1) + bb al be n) - n * (bb al be (n + 1) - bb al be n) + uu n = uu (n + 1).
Proof. intro. unfold uu, bb. field. nz. Qed.
Lemma st2 n : 2 <= n -> 1 - A (n + 1) - bb al be n * bb al be n - A n - n * A (n + 1) + vv n + (n - 1) * A n = vv (n + 1).
Proof. intro. unfold vv, a2, bb. field. nz. Qed.
Lemma st2_1 : 1 - A 2 - bb al be 1 * bb al be 1 - A 1 - 1 * A 2 + vv 1 + 0 = vv 2.
Proof. unfold vv, a2, bb. field. nz. Qed.
Lemma st3 n : 2 <= n -> - bb al be n * A n - A n * bb al be (n - 1) + uu n * A n + vv n * (bb al be (n - 1) - bb al be n) - A n * uu (n - 1) = 0.
Proof. intro. unfold uu, vv, a2, bb. field. nz. Qed.
Lemma st3_1 : - bb al be 1 * A 1 - A 1 * B 0 + uu 1 * A 1 + vv 1 * (B 0 - bb al be 1) = 0.
Proof. unfold uu, vv, a2, bb, bn. field. nz. Qed.

Lemma structure1 x : (1 - x * x) * dmon 1 x = - 1 * p 2 x + uu 1 * p 1 x + vv 1 * p 0 x.
Proof.
  unfold dmon. rewrite monSS, mon1, !mon0, bnS. change (INR 1) with 1. unfold uu, vv, bb, bn, a2. field. nz.
Qed.

Lemma structure n x : (1 - x * x) * dmon (S n) x =
  - INR (S n) * p (S (S n)) x + uu (INR (S n)) * p (S n) x + vv (INR (S n)) * p n x.
Proof.
  induction n as [n IH] using lt_wf_ind.
  destruct n as [|[|n]].
  - rewrite structure1. reflexivity.
  - rewrite dmon_rec.
    replace ((1 - x * x) * (p 1 x + (x - B 1) * dmon 1 x - A (INR 1) * dmon 0 x)) with
      ((1 - x * x) * p 1 x + (x - B 1) * ((1 - x * x) * dmon 1 x)) by (unfold dmon; ring).
    rewrite structure1. rewrite (monSS al be 1), (monSS al be 0), mon1, mon0, !bnS.
    change (INR 1) with 1. replace (INR 2) with 2 by (simpl; lra).
    pose proof (st1 1 ltac:(lra)) as H1. replace (1 + 1) with 2 in H1 by lra. rewrite <- H1, <- st2_1.
    pose proof st3_1 as H3.
    match type of H3 with ?I = 0 => match goal with |- _ = ?r => transitivity (r + I); [ring | rewrite H3; ring] end end.
  - rewrite dmon_rec.
    replace ((1 - x * x) * (p (S (S n)) x + (x - B (S (S n))) * dmon (S (S n)) x - A (INR (S (S n))) * dmon (S n) x)) with
      ((1 - x * x) * p (S (S n)) x + (x - B (S (S n))) * ((1 - x * x) * dmon (S (S n)) x) - A (INR (S (S n))) * ((1 - x * x) * dmon (S n) x)) by ring.
    rewrite (IH (S n)), (IH n) by lia.
    rewrite (monSS al be (S (S n))), (monSS al be (S n)), (monSS al be n), !bnS.
    pose proof (pos_INR n) as Hn.
    set (r := INR n) in *.
    assert (EE : INR (S n) = r + 1) by apply S_INR.
    assert (E2 : INR (S (S n)) = r + 2) by (rewrite !S_INR; subst r; lra).
    assert (E3 : INR (S (S (S n))) = r + 3) by (rewrite !S_INR; subst r; lra).
    rewrite EE, E2, E3.
    pose proof (st1 (r + 2) ltac:(lra)) as H1. pose proof (st2 (r + 2) ltac:(lra)) as H2. pose proof (st3 (r + 2) ltac:(lra)) as H3.
    replace (r + 2 + 1) with (r + 3) in * by lra. replace (r + 2 - 1) with (r + 1) in * by lra.
    rewrite <- H1, <- H2.
    assert (H4 : - A (r + 2) * A (r + 1) + vv (r + 2) * A (r + 1) - A (r + 2) * vv (r + 1) = 0) by (unfold vv; ring).
    match type of H3 with ?I3 = 0 => match type of H4 with ?I4 = 0 => match goal with |- _ = ?rhs => 
      transitivity (rhs + I3 * p (S n) x + I4 * p n x); [ring | rewrite H3, H4; ring] end end end.
Qed.

(* end values *)
Definition rat1 (n : R) := 2 * (n + al + 1) * (n + s + 1) / ((2 * n + s + 1) * (2 * n + s + 2)).
Definition ratm (n : R) := - (2 * (n + be + 1) * (n + s + 1) / ((2 * n + s + 1) * (2 * n + s + 2))).
Lemma at1 n : p (S n) 1 = rat1 (INR n) * p n 1.
Proof.
  induction n as [|n IH].
  - rewrite mon1, mon0. unfold rat1, bn. cbn [INR]. field. nz.
  - assert (N0 : rat1 (INR n) <> 0).
    { unfold rat1. pose proof (pos_INR n). destruct n as [|n]; [cbn [INR]; replace (2 * (0 + al + 1) * (0 + s + 1) / ((2 * 0 + s + 1) * (2 * 0 + s + 2))) with (2 * (al + 1) / (s + 2)) by (field; nz)|].
      - apply Rgt_not_eq. apply Rdiv_lt_0_compat; lra.
      - rewrite S_INR in *. pose proof (pos_INR n). apply Rgt_not_eq. apply Rdiv_lt_0_compat; repeat apply Rmult_lt_0_compat; lra. }
    rewrite monSS, bnS.
    replace (p n 1) with (p (S n) 1 / rat1 (INR n)) by (rewrite IH; field; exact N0).
    pose proof (pos_INR n). rewrite S_INR. destruct n as [|n].
    + cbn [INR]. unfold rat1, bb, a2. field. nz.
    + rewrite S_INR in *. pose proof (pos_INR n). unfold rat1, bb, a2. field. nz.
Qed.
Lemma atm n : p (S n) (-1) = ratm (INR n) * p n (-1).
Proof.
  induction n as [|n IH].
  - rewrite mon1, mon0. unfold ratm, bn. cbn [INR]. field. nz.
  - assert (N0 : ratm (INR n) <> 0).
    { unfold ratm. apply Ropp_neq_0_compat. pose proof (pos_INR n). destruct n as [|n]; [cbn [INR]; replace (2 * (0 + be + 1) * (0 + s + 1) / ((2 * 0 + s + 1) * (2 * 0 + s + 2))) with (2 * (be + 1) / (s + 2)) by (field; nz)|].
      - apply Rgt_not_eq. apply Rdiv_lt_0_compat; lra.
      - rewrite S_INR in *. pose proof (pos_INR n). apply Rgt_not_eq. apply Rdiv_lt_0_compat; repeat apply Rmult_lt_0_compat; lra. }
    rewrite monSS, bnS.
    replace (p n (-1)) with (p (S n) (-1) / ratm (INR n)) by (rewrite IH; field; exact N0).
    pose proof (pos_INR n). rewrite S_INR. destruct n as [|n].
    + cbn [INR]. unfold ratm, bb, a2. field. nz.
    + rewrite S_INR in *. pose proof (pos_INR n). unfold ratm, bb, a2. field. nz.
Qed.
Lemma mon_at1_pos n : 0 < p n 1.
Proof.
  induction n as [|n IH]; [rewrite mon0; lra|]. rewrite at1. apply Rmult_lt_0_compat; [|exact IH].
  unfold rat1. pose proof (pos_INR n). destruct n as [|n].
  - cbn [INR]. replace (2 * (0 + al + 1) * (0 + s + 1) / ((2 * 0 + s + 1) * (2 * 0 + s + 2))) with (2 * (al + 1) / (s + 2)) by (field; nz). apply Rdiv_lt_0_compat; lra.
  - rewrite S_INR in *. pose proof (pos_INR n). apply Rdiv_lt_0_compat; repeat apply Rmult_lt_0_compat; lra.
Qed.
Lemma mon_atm_pos n : 0 < (-1) ^ n * p n (-1).
Proof.
  induction n as [|n IH]; [rewrite mon0; cbn; lra|]. rewrite atm. cbn [pow].
  replace (-1 * (-1) ^ n * (ratm (INR n) * p n (-1))) with ((- ratm (INR n)) * ((-1) ^ n * p n (-1))) by ring.
  apply Rmult_lt_0_compat; [|exact IH].
  unfold ratm. rewrite Ropp_involutive. pose proof (pos_INR n). destruct n as [|n].
  - cbn [INR]. replace (2 * (0 + be + 1) * (0 + s + 1) / ((2 * 0 + s + 1) * (2 * 0 + s + 2))) with (2 * (be + 1) / (s + 2)) by (field; nz). apply Rdiv_lt_0_compat; lra.
  - rewrite S_INR in *. pose proof (pos_INR n). apply Rdiv_lt_0_compat; repeat apply Rmult_lt_0_compat; lra.
Qed.
End Struct.

Section Lower.
Variables al be : R.
Hypothesis Ha : -1 < al. Hypothesis Hb : -1 < be. Hypothesis Hs : al + be <> -1.
Local Notation s := (al + be).
Local Notation p := (mon al be). Local Notation q := (mon (al + 1) (be + 1)).
Ltac nz := repeat split; try lra; try (intro; lra).
Lemma lw1 m : 1 <= m -> uu (al + 1) (be + 1) m + (be - al) - (s + 2) * bb' al be m - (m + s + 2) * ee al be (m + 1) = 0.
Proof. intro. unfold uu, ee, bb', bb. field. nz. Qed.
Lemma lw2 m : 1 <= m -> vv (al + 1) (be + 1) m - (s + 2) * a2 (al + 1) (be + 1) m + (m + s + 2) * dd al be (m + 1) = 0.
Proof. intro. unfold vv, dd, a2. field. nz. Qed.

Lemma lowering n x : (1 - x * x) * dmon (al + 1) (be + 1) n x + (be - al - (s + 2) * x) * q n x = - (INR n + s + 2) * p (S n) x.
Proof.
  destruct n as [|n].
  - unfold dmon. rewrite mon0, mon1. unfold bn. cbn [INR]. field. nz.
  - rewrite structure by (auto; lra). rewrite (contig al be) by assumption. rewrite (monSS (al + 1) (be + 1) n), bn'_bb by assumption.
    assert (1 <= INR (S n)) by (rewrite S_INR; pose proof (pos_INR n); lra).
    pose proof (lw1 (INR (S n)) H) as H1. pose proof (lw2 (INR (S n)) H) as H2.
    rewrite (S_INR (S n)). set (r := INR (S n)) in *.
    match type of H1 with ?I1 = 0 => match type of H2 with ?I2 = 0 => match goal with |- _ = ?rhs => 
      transitivity (rhs + I1 * q (S n) x + I2 * q n x); [ring | rewrite H1, H2; ring] end end end.
Qed.
End Lower.

(* --- integration --- *)
Lemma integral_ext f g a b v : (forall x, f x = g x) -> integral_is f a b v -> integral_is g a b v.
Proof. intros E (F & D & V). exists F. split; [intro x; rewrite <- E; apply D | exact V]. Qed.
Lemma integral_scal c f a b v : integral_is f a b v -> integral_is (fun x => c * f x) a b (c * v).
Proof. intros (F & D & V). exists (fun x => c * F x). split; [intro x; apply derivable_pt_lim_scal; apply D | rewrite <- V; ring]. Qed.
Lemma integral_plus f g a b v w : integral_is f a b v -> integral_is g a b w -> integral_is (fun x => f x + g x) a b (v + w).
Proof.
  intros (F & D & V) (F' & D' & V'). exists (fun x => F x + F' x).
  split; [intro x; apply derivable_pt_lim_plus; auto | rewrite <- V, <- V'; ring].
Qed.
Lemma integral_zero a b : integral_is (fun _ => 0) a b 0.
Proof. exists (fun _ => 0). split; [intro; apply derivable_pt_lim_const | ring]. Qed.
(* integration by parts against a function vanishing at both ends *)
Lemma integral_parts f f' g g' a b v : (forall x, derivable_pt_lim f x (f' x)) -> (forall x, derivable_pt_lim g x (g' x)) ->
  f a = 0 -> f b = 0 -> integral_is (fun x => f x * g' x) a b v -> integral_is (fun x => f' x * g x) a b (- v).
Proof.
  intros Df Dg Fa Fb (F & D & V). exists (fun x => f x * g x - F x). split.
  - intro x. replace (f' x * g x) with ((f' x * g x + f x * g' x) - f x * g' x) by ring.
    apply derivable_pt_lim_minus; [apply (derivable_pt_lim_mult f g); auto | apply D].
  - rewrite Fa, Fb, <- V. ring.
Qed.

Lemma d1m n x : derivable_pt_lim (fun t => (1 - t) ^ n) x (- INR n * (1 - x) ^ (pred n)).
Proof.
  induction n as [|n IH].
  - cbn [pow INR]. replace (- 0 * (1 - x) ^ pred 0) with 0 by (cbn; ring). apply derivable_pt_lim_const.
  - replace (- INR (S n) * (1 - x) ^ pred (S n)) with ((0 - 1) * (1 - x) ^ n + (1 - x) * (- INR n * (1 - x) ^ pred n)).
    + cbn [pow]. apply (derivable_pt_lim_mult (fun t => 1 - t) (fun t => (1 - t) ^ n)); [|exact IH].
      apply derivable_pt_lim_minus; [apply derivable_pt_lim_const | apply derivable_pt_lim_id].
    + rewrite S_INR. destruct n; cbn [pred pow INR]; ring.
Qed.
Lemma d1p n x : derivable_pt_lim (fun t => (1 + t) ^ n) x (INR n * (1 + x) ^ (pred n)).
Proof.
  induction n as [|n IH].
  - cbn [pow INR]. replace (0 * (1 + x) ^ pred 0) with 0 by (cbn; ring). apply derivable_pt_lim_const.
  - replace (INR (S n) * (1 + x) ^ pred (S n)) with ((0 + 1) * (1 + x) ^ n + (1 + x) * (INR n * (1 + x) ^ pred n)).
    + cbn [pow]. apply (derivable_pt_lim_mult (fun t => 1 + t) (fun t => (1 + t) ^ n)); [|exact IH].
      apply derivable_pt_lim_plus; [apply derivable_pt_lim_const | apply derivable_pt_lim_id].
    + rewrite S_INR. destruct n; cbn [pred pow INR]; ring.
Qed.
Lemma dweight a b x : derivable_pt_lim (weight (S a) (S b)) x
  (weight a b x * (INR (S b) * (1 - x) - INR (S a) * (1 + x))).
Proof.
  replace (weight a b x * (INR (S b) * (1 - x) - INR (S a) * (1 + x))) with
   ((- INR (S a) * (1 - x) ^ a) * (1 + x) ^ S b + (1 - x) ^ S a * (INR (S b) * (1 + x) ^ b)) by (unfold weight; cbn [pow]; ring).
  apply (derivable_pt_lim_mult (fun t => (1 - t) ^ S a) (fun t => (1 + t) ^ S b)); [apply (d1m (S a)) | apply (d1p (S b))].
Qed.
Lemma weight_end1 a b : weight (S a) b 1 = 0. Proof. unfold weight. replace (1 - 1) with 0 by lra. cbn [pow]. ring. Qed.
Lemma weight_endm a b : weight a (S b) (-1) = 0. Proof. unfold weight. replace (1 + -1) with 0 by lra. cbn [pow]. ring. Qed.

Section Nat.
Variable G : R -> R.
Hypothesis HG : gamma_like G.
Local Notation P a b := (jac G (INR a) (INR b)).
Lemma natp a : -1 < INR a. Proof. pose proof (pos_INR a). lra. Qed.
Lemma nats a b : INR a + INR b <> -1. Proof. pose proof (pos_INR a). pose proof (pos_INR b). lra. Qed.
Hint Resolve natp nats : core.

Lemma beta_int b : forall a, integral_is (weight a b) (-1) 1 (g0 G (INR a) (INR b)).
Proof.
  destruct HG as (F & Ps & G1).
  induction b as [|b IH]; intro a.
  - assert (V : g0 G (INR a) (INR 0) = 2 ^ S a / INR (S a)).
    { rewrite g0_alt by (auto; apply nats). change (INR 0) with 0. rewrite Rplus_0_l, G1, Rplus_0_r.
      replace (INR a + 2) with ((INR a + 1) + 1) by lra. pose proof (pos_INR a). rewrite (F (INR a + 1)) by lra.
      rewrite <- Rpower_pow by lra. rewrite S_INR. pose proof (Ps (INR a + 1) ltac:(lra)). field. lra. }
    rewrite V. exists (fun x => / INR (S a) * (- (1 - x) ^ S a)). split.
    + intro x. assert (INR (S a) <> 0) by (rewrite S_INR; pose proof (pos_INR a); lra).
      replace (weight a 0 x) with (/ INR (S a) * - (- INR (S a) * (1 - x) ^ a)) by (unfold weight; cbn [pow]; field; assumption).
      apply (derivable_pt_lim_scal (fun x => - (1 - x) ^ S a)). apply derivable_pt_lim_opp. apply (d1m (S a)).
    + replace (1 - 1) with 0 by lra. replace (1 - -1) with 2 by lra. rewrite pow_i by lia. unfold Rdiv. ring.
  - assert (V : g0 G (INR a) (INR (S b)) = INR (S b) / INR (S a) * g0 G (INR (S a)) (INR b)).
    { rewrite !g0_alt by (auto; apply nats). rewrite !S_INR. pose proof (pos_INR a). pose proof (pos_INR b).
      rewrite (F (INR a + 1)), (F (INR b + 1)) by lra.
      replace (INR a + 1 + INR b + 1) with (INR a + (INR b + 1) + 1) by ring.
      replace (INR a + 1 + INR b + 2) with (INR a + (INR b + 1) + 2) by ring.
      pose proof (Ps (INR a + (INR b + 1) + 2) ltac:(lra)). field. lra. }
    rewrite V. assert (Na : INR (S a) <> 0) by (rewrite S_INR; pose proof (pos_INR a); lra).
    replace (INR (S b) / INR (S a) * g0 G (INR (S a)) (INR b)) with (- (- (INR (S b) / INR (S a)) * g0 G (INR (S a)) (INR b))) by ring.
    destruct b as [|b'] eqn:Eb.
    + destruct (IH (S a)) as (F1 & D1 & V1).
      exists (fun x => / INR (S a) * (- (1 - x) ^ S a * (1 + x) + F1 x)). split.
      * intro x. replace (weight a 1 x) with (/ INR (S a) * (- ((- INR (S a) * (1 - x) ^ a)) * (1 + x) + - (1 - x) ^ S a * (0 + 1) + weight (S a) 0 x)) by (unfold weight; cbn [pow]; field; assumption).
        apply (derivable_pt_lim_scal (fun x => - (1 - x) ^ S a * (1 + x) + F1 x)).
        apply (derivable_pt_lim_plus (fun x => - (1 - x) ^ S a * (1 + x)) F1); [|apply D1].
        apply (derivable_pt_lim_mult (fun x => - (1 - x) ^ S a) (fun x => 1 + x)).
        -- apply derivable_pt_lim_opp. apply (d1m (S a)).
        -- apply derivable_pt_lim_plus; [apply derivable_pt_lim_const | apply derivable_pt_lim_id].
      * rewrite <- V1. replace (1 - 1) with 0 by lra. rewrite pow_i by lia. change (INR 1) with 1. unfold Rdiv. ring.
    + rewrite <- Eb in *.
      apply integral_ext with (fun x => - (- INR (S a) * (1 - x) ^ a) * (/ INR (S a) * (1 + x) ^ S b)).
      { intro x. unfold weight. field. assumption. }
      destruct (IH (S a)) as (F1 & D1 & V1).
      exists (fun x => / INR (S a) * (- (1 - x) ^ S a * (1 + x) ^ S b + INR (S b) * F1 x)). split.
      * intro x. replace (- (- INR (S a) * (1 - x) ^ a) * (/ INR (S a) * (1 + x) ^ S b)) with 
          (/ INR (S a) * (- ((- INR (S a) * (1 - x) ^ a)) * (1 + x) ^ S b + - (1 - x) ^ S a * (INR (S b) * (1 + x) ^ b) + INR (S b) * weight (S a) b x)) by (unfold weight; ring).
        apply (derivable_pt_lim_scal (fun x => - (1 - x) ^ S a * (1 + x) ^ S b + INR (S b) * F1 x)).
        apply (derivable_pt_lim_plus (fun x => - (1 - x) ^ S a * (1 + x) ^ S b) (fun x => INR (S b) * F1 x)); [|apply derivable_pt_lim_scal; apply D1].
        apply (derivable_pt_lim_mult (fun x => - (1 - x) ^ S a) (fun x => (1 + x) ^ S b)).
        -- apply derivable_pt_lim_opp. apply (d1m (S a)).
        -- apply (d1p (S b)).
      * rewrite <- V1. replace (1 - 1) with 0 by lra. replace (1 + -1) with 0 by lra. rewrite !pow_i by lia. unfold Rdiv. ring.
Qed.

Definition cc a b n := sqrt (INR (S n) * (INR (S n) + (INR a + INR b) + 1)).
Lemma cc_pos a b n : 0 < cc a b n.
Proof. apply sqrt_lt_R0. pose proof (pos_INR a). pose proof (pos_INR b). pose proof (pos_INR n). rewrite S_INR. apply Rmult_lt_0_compat; lra. Qed.

Lemma dP a b n x : derivable_pt_lim (P a b (S n)) x (cc a b n * P (S a) (S b) n x).
Proof. rewrite (S_INR a), (S_INR b). apply (gjac_deriv G (INR a) (INR b) (natp a) (natp b) (nats a b) HG (S n) x). Qed.

Lemma dwQ a b n x : derivable_pt_lim (fun t => weight (S a) (S b) t * P (S a) (S b) n t) x (- cc a b n * (weight a b x * P a b (S n) x)).
Proof.
  set (nq := nrm G (INR (S a)) (INR (S b)) n). set (np := nrm G (INR a) (INR b) (S n)).
  assert (Pq : 0 < nq) by (apply nrm_pos; auto; apply nats). assert (Pp : 0 < np) by (apply nrm_pos; auto; apply nats).
  assert (R : INR (S n) * nq = cc a b n * np).
  { unfold nq, np, cc. rewrite (S_INR a), (S_INR b). apply (nrm_rel G (INR a) (INR b) (natp a) (natp b) (nats a b) HG n). }
  pose proof (lowering (INR a) (INR b) (natp a) (natp b) (nats a b) n x) as L.
  assert (Dq : derivable_pt_lim (mon (INR (S a)) (INR (S b)) n) x (dmon (INR a + 1) (INR b + 1) n x)).
  { rewrite (S_INR a), (S_INR b). apply mon_deriv; pose proof (pos_INR a); pose proof (pos_INR b); lra. }
  apply dpl_ext with (fun t => / nq * (weight (S a) (S b) t * mon (INR (S a)) (INR (S b)) n t)).
  { intro t. unfold jac. fold nq. unfold Rdiv. ring. }
  replace (- cc a b n * (weight a b x * P a b (S n) x)) with (/ nq *
    (weight a b x * (INR (S b) * (1 - x) - INR (S a) * (1 + x)) * mon (INR (S a)) (INR (S b)) n x + weight (S a) (S b) x * dmon (INR a + 1) (INR b + 1) n x)).
  - apply (derivable_pt_lim_scal (fun t => weight (S a) (S b) t * mon (INR (S a)) (INR (S b)) n t)).
    apply (derivable_pt_lim_mult (weight (S a) (S b)) (mon (INR (S a)) (INR (S b)) n)); [apply dweight | exact Dq].
  - replace (weight a b x * (INR (S b) * (1 - x) - INR (S a) * (1 + x)) * mon (INR (S a)) (INR (S b)) n x + weight (S a) (S b) x * dmon (INR a + 1) (INR b + 1) n x)
      with (weight a b x * ((1 - x * x) * dmon (INR a + 1) (INR b + 1) n x + (INR b - INR a - (INR a + INR b + 2) * x) * mon (INR a + 1) (INR b + 1) n x)).
    2:{ rewrite !S_INR. unfold weight. cbn [pow]. ring. }
    rewrite L. unfold jac. fold np.
    assert (C2 : cc a b n * cc a b n = INR (S n) * (INR n + (INR a + INR b) + 2)).
    { unfold cc. rewrite sqrt_sqrt. rewrite S_INR; ring. pose proof (pos_INR a). pose proof (pos_INR b). pose proof (pos_INR n). rewrite S_INR. apply Rmult_le_pos; lra. }
    assert (Hn : 0 < INR (S n)) by (rewrite S_INR; pose proof (pos_INR n); lra).
    apply Rmult_eq_reg_r with (nq * INR (S n) * np); [|apply Rgt_not_eq; apply Rmult_lt_0_compat; [apply Rmult_lt_0_compat|]; assumption].
    transitivity (- (weight a b x * mon (INR a) (INR b) (S n) x) * (np * (INR (S n) * (INR n + (INR a + INR b) + 2)))); [field; lra|].
    rewrite <- C2. transitivity (- (weight a b x * mon (INR a) (INR b) (S n) x) * (cc a b n * (cc a b n * np))); [ring|]. rewrite <- R. field. lra.
Qed.

Lemma orth_0n a b n : integral_is (fun x => weight a b x * P a b (S n) x * P a b 0 x) (-1) 1 0.
Proof.
  apply integral_ext with (fun x => / (- cc a b n) * / nrm G (INR a) (INR b) 0 * ((- cc a b n * (weight a b x * P a b (S n) x)) * 1)).
  { intro x. replace (P a b 0 x) with (1 / nrm G (INR a) (INR b) 0) by reflexivity. pose proof (cc_pos a b n). pose proof (nrm_pos G (INR a) (INR b) (natp a) (natp b) (nats a b) HG 0). field. lra. }
  replace 0 with (/ (- cc a b n) * / nrm G (INR a) (INR b) 0 * (- 0)) by ring.
  apply integral_scal.
  apply (integral_parts (fun t => weight (S a) (S b) t * P (S a) (S b) n t) _ (fun _ => 1) (fun _ => 0)).
  - intro x. apply dwQ.
  - intro. apply derivable_pt_lim_const.
  - rewrite weight_endm. ring.
  - rewrite weight_end1. ring.
  - apply integral_ext with (fun _ => 0); [intro; ring|]. apply integral_zero.
Qed.

Lemma orth m : forall n a b, integral_is (fun x => weight a b x * P a b m x * P a b n x) (-1) 1 (if Nat.eqb m n then 1 else 0).
Proof.
  induction m as [|m IH]; intros n a b; destruct n as [|n]; cbn [Nat.eqb].
  - pose proof (g0_pos G (INR a) (INR b) (natp a) (natp b) (nats a b) HG) as Gp.
    assert (E1 : / g0 G (INR a) (INR b) * g0 G (INR a) (INR b) = 1) by (field; lra).
    enough (I : integral_is (fun x => weight a b x * P a b 0 x * P a b 0 x) (-1) 1 (/ g0 G (INR a) (INR b) * g0 G (INR a) (INR b)))
      by (rewrite E1 in I; exact I).
    apply integral_ext with (fun x => / g0 G (INR a) (INR b) * weight a b x).
    { intro x. unfold jac. rewrite mon0. cbn [nrm]. pose proof (sqrt_lt_R0 _ Gp) as Sp.
      pose proof (sqrt_sqrt (g0 G (INR a) (INR b)) ltac:(lra)) as Sq.
      generalize dependent (sqrt (g0 G (INR a) (INR b))). intros r Sp Sq. rewrite <- Sq. field. lra. }
    apply integral_scal. apply beta_int.
  - apply integral_ext with (fun x => weight a b x * P a b (S n) x * P a b 0 x); [intro; ring|]. apply orth_0n.
  - apply orth_0n.
  - pose proof (cc_pos a b m) as Cm. pose proof (cc_pos a b n) as Cn.
    replace (if (m =? n)%nat then 1 else 0) with (/ (- cc a b n) * - (cc a b m * (if (m =? n)%nat then 1 else 0))).
    2:{ destruct (Nat.eqb_spec m n) as [-> | Hne]; field; lra. }
    apply integral_ext with (fun x => / (- cc a b n) * ((- cc a b n * (weight a b x * P a b (S n) x)) * P a b (S m) x)); [intro; field; lra|].
    apply integral_scal.
    apply (integral_parts (fun t => weight (S a) (S b) t * P (S a) (S b) n t) _ (P a b (S m)) (fun x => cc a b m * P (S a) (S b) m x)).
    + intro x. apply dwQ.
    + intro x. apply dP.
    + rewrite weight_endm. ring.
    + rewrite weight_end1. ring.
    + apply integral_ext with (fun x => cc a b m * (weight (S a) (S b) x * P (S a) (S b) m x * P (S a) (S b) n x)); [intro; ring|].
      apply integral_scal. apply IH.
Qed.
End Nat.
