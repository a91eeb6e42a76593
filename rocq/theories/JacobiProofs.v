(* JacobiProofs.v - proofs about the Jacobi model over the reals. *)
From Coq Require Import ZArith List Reals Lra Lia Arith.
From Verif Require Import Base Num JacobiModel JacobiSpec.
Import ListNotations.
Local Open Scope R_scope.

Section Coef.
Variables al be : R.
Definition a2 (m : R) : R :=
  4 * m * (m + (al + be)) * (m + al) * (m + be) /
  ((2 * m + (al + be)) ^ 2 * (2 * m + (al + be) - 1) * (2 * m + (al + be) + 1)).
Definition bb (m : R) : R := (be ^ 2 - al ^ 2) / ((2 * m + (al + be)) * (2 * m + (al + be) + 2)).
Definition bn (n : nat) : R := match n with O => (be - al) / (al + be + 2) | S _ => bb (INR n) end.
Fixpoint mon2 (n : nat) (x : R) : R * R :=
  match n with
  | O => (1, x - bn 0)
  | S m => let (a, b) := mon2 m x in (b, (x - bn (S m)) * b - a2 (INR (S m)) * a)
  end.
Definition mon (n : nat) (x : R) : R := fst (mon2 n x).
Lemma mon0 x : mon 0 x = 1. Proof. reflexivity. Qed.
Lemma mon1 x : mon 1 x = x - bn 0. Proof. reflexivity. Qed.
Lemma monSS n x : mon (S (S n)) x = (x - bn (S n)) * mon (S n) x - a2 (INR (S n)) * mon n x.
Proof. unfold mon. cbn [mon2]. destruct (mon2 n x) as [a b]. reflexivity. Qed.
End Coef.

Section Contig.
Variables al be : R.
Hypothesis Ha : -1 < al. Hypothesis Hb : -1 < be. Hypothesis Hs : al + be <> -1.
Local Notation s := (al + be).
Local Notation A := (a2 al be). Local Notation B := (bn al be).
Local Notation A' := (a2 (al + 1) (be + 1)). Local Notation B' := (bn (al + 1) (be + 1)).
Local Notation p := (mon al be). Local Notation q := (mon (al + 1) (be + 1)).

(* rational coefficients as functions of a real n >= 1 *)
Definition bb' (m : R) := bb (al + 1) (be + 1) m.
Definition ee (n : R) := n * (bb' (n - 1) - bb al be n).
Definition dd (n : R) := (n - 1) * A n - n * A' (n - 1).

Ltac nz := repeat split; try lra; try (intro; lra).

Lemma bnS n : B (S n) = bb al be (INR (S n)). Proof. reflexivity. Qed.
Lemma bn'_bb n : B' n = bb' (INR n).
Proof.
  destruct n; [|reflexivity]. unfold bn, bb', bb. cbn [INR]. field. nz.
Qed.

Lemma id1 n : 1 <= n -> bb' n - bb al be n - ee n = - ee (n + 1).
Proof. intro. unfold ee, bb', bb. field. nz. Qed.
Lemma id2 n : 2 <= n -> A' n - ee n * (bb' (n - 1) - bb al be n) + dd n - A n = dd (n + 1).
Proof. intro. unfold ee, dd, bb', bb, a2. field. nz. Qed.
Lemma id3 n : 2 <= n -> - ee n * A' (n - 1) + dd n * (bb' (n - 2) - bb al be n) + A n * ee (n - 1) = 0.
Proof. intro. unfold ee, dd, bb', bb, a2. field. nz. Qed.
Lemma id4 n : 3 <= n -> dd n * A' (n - 2) - A n * dd (n - 1) = 0.
Proof. intro. unfold ee, dd, bb', bb, a2. field. nz. Qed.
Lemma id2_1 : A' 1 - ee 1 * (bb' 0 - bb al be 1) + 0 - A 1 = dd 2.
Proof. unfold ee, dd, bb', bb, a2. field. nz. Qed.

Lemma contig1 x : p 1 x = q 1 x - ee 1 * q 0 x.
Proof. rewrite !mon1, mon0, bn'_bb. unfold ee, bn, bb', bb. cbn [INR]. field. nz. Qed.

Lemma contig n x : p (S (S n)) x = q (S (S n)) x - ee (INR (S (S n))) * q (S n) x + dd (INR (S (S n))) * q n x.
Proof.
  induction n as [n IH] using lt_wf_ind.
  destruct n as [|[|n]].
  - rewrite (monSS al be), contig1, (monSS (al + 1)), !mon1, !mon0, !bn'_bb, bnS.
    change (INR 1) with 1. replace (INR 2) with 2 by (simpl; lra). cbn [INR].
    assert (E1 : ee 2 = ee 1 - (bb' 1 - bb al be 1)) by (pose proof (id1 1 ltac:(lra)) as H; replace (1 + 1) with 2 in H by lra; lra).
    rewrite <- id2_1, E1. ring.
  - assert (E2 : INR 2 = 2) by (simpl; lra). assert (E3 : INR 3 = 3) by (simpl; lra).
    rewrite (monSS al be), (IH 0%nat) by lia. rewrite contig1.
    rewrite (monSS (al + 1) (be + 1) 1), (monSS (al + 1) (be + 1) 0), !mon1, !mon0, !bn'_bb, bnS.
    change (INR 1) with 1. rewrite E2, E3. cbn [INR].
    pose proof (id1 2 ltac:(lra)) as H1. replace (2 + 1) with 3 in H1 by lra.
    pose proof (id2 2 ltac:(lra)) as H2. replace (2 + 1) with 3 in H2 by lra.
    pose proof (id3 2 ltac:(lra)) as H3.
    replace (2 - 1) with 1 in * by lra. replace (2 - 2) with 0 in * by lra.
    replace (ee 3) with (ee 2 - (bb' 2 - bb al be 2)) by lra. rewrite <- H2.
    match type of H3 with ?e = 0 => apply Rplus_eq_reg_r with (- e * 1); rewrite H3 at 2 end. ring_simplify.
    match type of H3 with ?e = 0 => idtac end.
    ring_simplify in H3. lra.
  - pose proof (pos_INR n) as Hn.
    set (r := INR n) in *.
    assert (EE : INR (S n) = r + 1) by apply S_INR.
    assert (E2 : INR (S (S n)) = r + 2) by (rewrite !S_INR; subst r; lra).
    assert (E3 : INR (S (S (S n))) = r + 3) by (rewrite !S_INR; subst r; lra).
    assert (E4 : INR (S (S (S (S n)))) = r + 4) by (rewrite !S_INR; subst r; lra).
    rewrite (monSS al be (S (S n))), (IH (S n)), (IH n) by lia.
    rewrite bnS. rewrite E2, E3, E4.
    pose proof (id1 (r + 3) ltac:(lra)) as H1. pose proof (id2 (r + 3) ltac:(lra)) as H2.
    pose proof (id3 (r + 3) ltac:(lra)) as H3. pose proof (id4 (r + 3) ltac:(lra)) as H4.
    replace (r + 3 + 1) with (r + 4) in * by lra. replace (r + 3 - 1) with (r + 2) in * by lra.
    replace (r + 3 - 2) with (r + 1) in * by lra.
    rewrite (monSS (al + 1) (be + 1) (S (S n))), (monSS (al + 1) (be + 1) (S n)), (monSS (al + 1) (be + 1) n).
    rewrite !bn'_bb, EE, E2, E3.
    replace (ee (r + 4)) with (ee (r + 3) - (bb' (r + 3) - bb al be (r + 3))) by lra. rewrite <- H2.
    generalize dependent (ee (r + 3)). generalize dependent (ee (r + 2)). generalize dependent (dd (r + 3)). generalize dependent (dd (r + 2)).
    generalize (bb al be (r + 3)) (bb' (r + 3)) (bb' (r + 2)) (bb' (r + 1)) (A (r + 3)) (A' (r + 3)) (A' (r + 2)) (A' (r + 1)) (q (S n) x) (q n x).
    intros b B3 B2 B1 a A3 A2 A1 q1 q0 d2 d3 H4 e2 e3 _ _ H3.
    match type of H3 with ?I3 = 0 => match type of H4 with ?I4 = 0 =>
      match goal with |- _ = ?rhs => transitivity (rhs + I3 * q1 + I4 * q0); [ring | rewrite H3, H4; ring] end end end.
Qed.

(* p_n' = n q_{n-1} *)
Lemma dpl_ext (f g : R -> R) x l : (forall t, f t = g t) -> derivable_pt_lim f x l -> derivable_pt_lim g x l.
Proof. intros E H eps He. destruct (H eps He) as [d Hd]. exists d. intros h h0 hd. rewrite <- !E. auto. Qed.

Lemma mon_deriv n x : derivable_pt_lim (p n) x (match n with O => 0 | S m => INR n * q m x end).
Proof.
  induction n as [n IH] using lt_wf_ind. destruct n as [|[|n]].
  - apply dpl_ext with (fun _ => 1); [reflexivity|]. apply derivable_pt_lim_const.
  - apply dpl_ext with (fun t => t - B 0); [reflexivity|]. rewrite mon0. cbn [INR].
    replace (1 * 1) with (1 - 0) by lra.
    apply derivable_pt_lim_minus; [apply derivable_pt_lim_id | apply derivable_pt_lim_const].
  - apply dpl_ext with (fun t => (t - B (S n)) * p (S n) t - A (INR (S n)) * p n t); [intro; symmetry; apply monSS|].
    pose proof (IH (S n) ltac:(lia)) as D1. pose proof (IH n ltac:(lia)) as D0.
    assert (D : derivable_pt_lim (fun t => (t - B (S n)) * p (S n) t - A (INR (S n)) * p n t) x
       (((1 - 0) * p (S n) x + (x - B (S n)) * (INR (S n) * q n x)) - (A (INR (S n)) * match n with O => 0 | S m => INR n * q m x end))).
    { apply derivable_pt_lim_minus.
      - apply (derivable_pt_lim_mult (fun t => t - B (S n)) (p (S n))); [|exact D1].
        apply derivable_pt_lim_minus; [apply derivable_pt_lim_id | apply derivable_pt_lim_const].
      - apply (derivable_pt_lim_scal (p n)). exact D0. }
    match type of D with derivable_pt_lim _ _ ?l => replace (INR (S (S n)) * q (S n) x) with l; [exact D|] end.
    clear D D1 D0 IH. rewrite bnS. destruct n as [|n].
    + rewrite contig1, mon1, mon0, bn'_bb. unfold ee. change (INR 1) with 1. replace (INR 2) with 2 by (simpl; lra).
      replace (1 - 1) with 0 by lra. cbn [INR]. ring.
    + rewrite contig, (monSS (al + 1) (be + 1) n), bn'_bb. pose proof (S_INR (S n)) as E2. pose proof (S_INR n) as E1. pose proof (S_INR (S (S n))) as E3.
      unfold ee, dd. rewrite E3.
      replace (INR (S (S n)) - 1) with (INR (S n)) by lra. rewrite E2. ring.
Qed.
End Contig.

Lemma fofn_INR G n : fofn (exact G) n = INR n.
Proof. unfold fofn. cbn [exact fofZ]. symmetry. apply INR_IZR_INZ. Qed.

Section Norm.
Variables (G : R -> R) (al be : R).
Hypothesis Ha : -1 < al. Hypothesis Hb : -1 < be. Hypothesis Hs : al + be <> -1.
Hypothesis HG : gamma_like G.
Local Notation s := (al + be).
Local Notation E := (exact G).
Local Notation A := (a2 al be). Local Notation B := (bn al be). Local Notation p := (mon al be).
Definition g0 := gamma0 E al be.

Lemma g0_alt : g0 = Rpower 2 (s + 1) * G (al + 1) * G (be + 1) / G (s + 2).
Proof.
  unfold g0, gamma0. rewrite !fofn_INR. cbn [exact fadd fmul fdiv fpow ftgamma INR].
  replace (s + 2) with ((s + 1) + 1) by lra. destruct HG as (F & Ps & _).
  rewrite (F (s + 1)) by lra.
  assert (G (s + 1) <> 0). { intro Z0. pose proof (F (s + 1) ltac:(lra) ltac:(lra)) as H. rewrite Z0 in H.
    pose proof (Ps (s + 1 + 1) ltac:(lra)). lra. }
  replace (1 + 1) with 2 by lra. field. repeat split; try assumption; lra.
Qed.
Lemma g0_pos : 0 < g0.
Proof.
  rewrite g0_alt. destruct HG as (F & Ps & _). pose proof (Ps (al + 1) ltac:(lra)). pose proof (Ps (be + 1) ltac:(lra)). pose proof (Ps (s + 2) ltac:(lra)).
  unfold Rdiv. repeat apply Rmult_lt_0_compat; auto; [unfold Rpower; apply exp_pos | apply Rinv_0_lt_compat; auto].
Qed.

Lemma a2_pos m : (1 <= m)%nat -> 0 < A (INR m).
Proof.
  intro Hm. unfold a2.
  destruct m as [|[|m]]; [lia| |].
  - change (INR 1) with 1. replace (4 * 1 * (1 + s) * (1 + al) * (1 + be) / ((2 * 1 + s) ^ 2 * (2 * 1 + s - 1) * (2 * 1 + s + 1)))
      with (4 * (1 + al) * (1 + be) * / ((2 + s) ^ 2 * (3 + s))) by (field; repeat split; lra).
    apply Rmult_lt_0_compat; [repeat apply Rmult_lt_0_compat; lra|]. apply Rinv_0_lt_compat. apply Rmult_lt_0_compat; [apply pow_lt|]; lra.
  - pose proof (pos_INR m). set (r := INR (S (S m))). assert (2 <= r) by (subst r; rewrite !S_INR; lra).
    unfold Rdiv. apply Rmult_lt_0_compat; [repeat apply Rmult_lt_0_compat; lra|]. apply Rinv_0_lt_compat.
    repeat apply Rmult_lt_0_compat; try lra.
Qed.

Definition aa (m : R) : R := 2 / (2 * m + s) * sqrt (m * (m + s) * (m + al) * (m + be) / (2 * m + s - 1) / (2 * m + s + 1)).
Lemma aa_sqrt m : (1 <= m)%nat -> aa (INR m) = sqrt (A (INR m)).
Proof.
  intro Hm. pose proof (a2_pos m Hm) as Hp.
  assert (1 <= INR m) by (change 1 with (INR 1); apply le_INR; lia).
  set (r := INR m) in *.
  assert (E1 : A r = (2 / (2 * r + s)) * (2 / (2 * r + s)) * (r * (r + s) * (r + al) * (r + be) / (2 * r + s - 1) / (2 * r + s + 1))).
  { unfold a2. destruct m as [|[|m]]; [lia| |].
    - subst r. change (INR 1) with 1. field. repeat split; lra.
    - assert (2 <= r). { subst r. rewrite !S_INR. pose proof (pos_INR m). lra. } field. repeat split; lra. }
  assert (H2 : 0 < 2 / (2 * r + s)) by (apply Rdiv_lt_0_compat; lra).
  unfold aa. rewrite E1 in Hp |- *. rewrite sqrt_mult_alt by (apply Rmult_le_pos; lra).
  rewrite sqrt_square by lra. reflexivity.
Qed.
Lemma aa_pos m : (1 <= m)%nat -> 0 < aa (INR m).
Proof. intro Hm. rewrite aa_sqrt by assumption. apply sqrt_lt_R0. apply a2_pos. assumption. Qed.
Lemma aa_sq m : (1 <= m)%nat -> aa (INR m) * aa (INR m) = A (INR m).
Proof. intro Hm. rewrite aa_sqrt by assumption. apply sqrt_sqrt. left. apply a2_pos. assumption. Qed.

Fixpoint nrm (n : nat) : R := match n with O => sqrt g0 | S m => nrm m * aa (INR (S m)) end.
Lemma nrm_pos n : 0 < nrm n.
Proof. induction n; cbn [nrm]; [apply sqrt_lt_R0; apply g0_pos|]. apply Rmult_lt_0_compat; [assumption|]. apply aa_pos. lia. Qed.

Definition jac (n : nat) (x : R) : R := p n x / nrm n.

Lemma combine_map2 {X Y Z} (f : X -> Y) (g : X -> Z) xs :
  combine xs (combine (map f xs) (map g xs)) = map (fun x => (x, (f x, g x))) xs.
Proof. induction xs; cbn; congruence. Qed.

Lemma step_ok xs i : (1 <= i)%nat ->
  jacobi_step E xs al be i (aa (INR i), map (jac (i - 1)) xs, map (jac i) xs) =
  (aa (INR (S i)), map (jac i) xs, map (jac (S i)) xs).
Proof.
  intro Hi. unfold jacobi_step.
  assert (EA : fmul E (fdiv E (fofn E 2) (fadd E (fadd E (fadd E (fofn E (2 * i)) al) be) (fofn E 2)))
     (fsqrt E (fdiv E (fdiv E (fmul E (fmul E (fmul E (fofn E (i + 1)) (fadd E (fadd E (fofn E (i + 1)) al) be)) (fadd E (fofn E (i + 1)) al)) (fadd E (fofn E (i + 1)) be))
        (fadd E (fadd E (fadd E (fofn E (2 * i)) al) be) (fofn E 1))) (fadd E (fadd E (fadd E (fofn E (2 * i)) al) be) (fofn E 3)))) = aa (INR (S i))).
  { rewrite !fofn_INR. cbn [exact fadd fmul fdiv fsqrt]. unfold aa. rewrite mult_INR, !S_INR, plus_INR. cbn [INR].
    assert (1 <= INR i) by (change 1 with (INR 1); apply le_INR; lia).
    f_equal; [field; lra|]. f_equal. field. lra. }
  rewrite EA. f_equal. rewrite combine_map2, map_map. apply map_ext. intro x.
  rewrite !fofn_INR. cbn [exact fadd fmul fdiv fsub fopp]. unfold jac.
  destruct i as [|i]; [lia|]. replace (S i - 1)%nat with i by lia. rewrite monSS.
  cbn [nrm]. pose proof (nrm_pos i) as Np. pose proof (aa_pos (S i) ltac:(lia)) as A1. pose proof (aa_pos (S (S i)) ltac:(lia)) as A2.
  rewrite <- (aa_sq (S i)) by lia.
  assert (EB : (- (al * al - be * be)) / (INR (2 * S i) + al + be) / (INR (2 * S i) + al + be + INR 2) = B (S i)).
  { unfold bn, bb. rewrite mult_INR. replace (INR 2) with 2 by (simpl; lra).
    assert (1 <= INR (S i)) by (rewrite S_INR; pose proof (pos_INR i); lra). field. lra. }
  rewrite EB. change (INR 1) with 1. field. repeat split; lra.
Qed.

Lemma loop_ok xs n : forall i, (1 <= i)%nat ->
  jacobi_loop E xs al be i n (aa (INR i), map (jac (i - 1)) xs, map (jac i) xs) =
  (aa (INR (i + n)), map (jac (i + n - 1)) xs, map (jac (i + n)) xs).
Proof.
  induction n as [|n IH]; intros i Hi; cbn [jacobi_loop].
  - rewrite Nat.add_0_r. reflexivity.
  - rewrite step_ok by assumption. replace (map (jac i) xs) with (map (jac (S i - 1)) xs) by (f_equal; f_equal; lia).
    rewrite (IH (S i)) by lia. repeat (f_equal; try lia).
Qed.

Theorem compute_ok xs N : computeJacobiPolynomial E xs al be N = map (jac N) xs.
Proof.
  unfold computeJacobiPolynomial. fold g0.
  assert (H0 : map (fun _ : R => fdiv E (fofn E 1) (fsqrt E g0)) xs = map (jac 0) xs).
  { apply map_ext. intro x. rewrite fofn_INR. reflexivity. }
  rewrite H0. destruct N as [|N]; [reflexivity|].
  assert (Q : 0 < (al + 1) * (be + 1) / (s + 3)) by (unfold Rdiv; repeat apply Rmult_lt_0_compat; try apply Rinv_0_lt_compat; lra).
  assert (EA : fmul E (fdiv E (fofn E 2) (fadd E (fadd E (fofn E 2) al) be))
      (fsqrt E (fdiv E (fmul E (fadd E al (fofn E 1)) (fadd E be (fofn E 1))) (fadd E (fadd E al be) (fofn E 3)))) = aa (INR 1)).
  { rewrite !fofn_INR. cbn [exact fadd fmul fdiv fsqrt]. unfold aa. cbn [INR].
    f_equal; [field; lra|]. f_equal. field. lra. }
  rewrite EA.
  match goal with |- context[jacobi_loop E xs al be 1 N (_, _, ?m)] => replace m with (map (jac 1) xs) end.
  2:{ apply map_ext. intro x. rewrite !fofn_INR in *. cbn [exact fadd fmul fdiv fsqrt fsub] in *.
      unfold jac. cbn [nrm]. rewrite mon1, <- EA. unfold bn. cbn [INR] in *.
      replace (1 + 1 + 1) with 3 in * by lra. rewrite (sqrt_mult_alt _ g0) by lra.
      pose proof (sqrt_lt_R0 _ g0_pos). pose proof (sqrt_lt_R0 _ Q). field. repeat split; lra. }
  pose proof (loop_ok xs N 1 ltac:(lia)) as L. cbn [Nat.sub] in L. rewrite L. reflexivity.
Qed.
End Norm.

Section Grad.
Variables (G : R -> R) (al be : R).
Hypothesis Ha : -1 < al. Hypothesis Hb : -1 < be. Hypothesis Hs : al + be <> -1.
Hypothesis HG : gamma_like G.
Local Notation s := (al + be).

Lemma g0_shift : g0 G (al + 1) (be + 1) = g0 G al be * (4 * (al + 1) * (be + 1) / ((s + 3) * (s + 2))).
Proof.
  rewrite !g0_alt by (auto; lra). destruct HG as (F & Ps & _).
  rewrite (F (al + 1)), (F (be + 1)) by lra.
  replace (al + 1 + (be + 1) + 2) with ((s + 2 + 1) + 1) by lra. rewrite (F (s + 2 + 1)), (F (s + 2)) by lra.
  replace (al + 1 + (be + 1) + 1) with ((s + 1) + 2) by lra. rewrite Rpower_plus.
  replace (Rpower 2 2) with 4. 2:{ replace 2 with (INR 2) at 2 by (simpl; lra). rewrite Rpower_pow by lra. lra. }
  pose proof (Ps (s + 2) ltac:(lra)). field. repeat split; lra.
Qed.

Lemma a2_shift m : (1 <= m)%nat -> a2 (al + 1) (be + 1) (INR m) * ((INR m + 1) * (INR m + 1 + s)) =
   a2 al be (INR (S m)) * (INR m * (INR m + s + 2)).
Proof.
  intro Hm. assert (1 <= INR m) by (change 1 with (INR 1); apply le_INR; lia). rewrite S_INR.
  unfold a2. field. repeat split; lra.
Qed.

Lemma nrm_sq n : INR (S n) * nrm G (al + 1) (be + 1) n * (INR (S n) * nrm G (al + 1) (be + 1) n) =
  INR (S n) * (INR (S n) + s + 1) * (nrm G al be (S n) * nrm G al be (S n)).
Proof.
  induction n as [|n IH].
  - cbn [nrm]. change (INR 1) with 1. pose proof (g0_pos G al be Ha Hb Hs HG) as P0.
    pose proof (g0_pos G (al + 1) (be + 1) ltac:(lra) ltac:(lra) ltac:(lra) HG) as P1.
    transitivity (sqrt (g0 G (al + 1) (be + 1)) * sqrt (g0 G (al + 1) (be + 1))); [ring|]. rewrite sqrt_sqrt by lra.
    transitivity ((s + 2) * (sqrt (g0 G al be) * sqrt (g0 G al be)) * (aa al be (INR 1) * aa al be (INR 1))); [|change (INR 1) with 1; ring].
    rewrite sqrt_sqrt by lra. rewrite aa_sq by (auto; lra). rewrite g0_shift. change (INR 1) with 1. unfold a2. field. repeat split; lra.
  - change (nrm G (al + 1) (be + 1) (S n)) with (nrm G (al + 1) (be + 1) n * aa (al + 1) (be + 1) (INR (S n))).
    change (nrm G al be (S (S n))) with (nrm G al be (S n) * aa al be (INR (S (S n)))).
    remember (S n) as m eqn:Em.
    assert (Hm : (1 <= m)%nat) by lia. assert (1 <= INR m) by (change 1 with (INR 1); apply le_INR; lia).
    assert (S1 := aa_sq (al + 1) (be + 1) ltac:(lra) ltac:(lra) ltac:(lra) m Hm).
    assert (S2 := aa_sq al be Ha Hb Hs (S m) ltac:(lia)).
    assert (Sh := a2_shift m Hm).
    set (N1 := nrm G (al + 1) (be + 1) n) in *. set (N0 := nrm G al be m) in *.
    set (u := aa (al + 1) (be + 1) (INR m)) in *. set (v := aa al be (INR (S m))) in *.
    rewrite S_INR in Sh |- *. clearbody u v. rewrite S_INR in S2.
    transitivity (N1 * N1 * (u * u) * ((INR m + 1) * (INR m + 1))); [ring|]. rewrite S1.
    transitivity ((INR m + 1) * (INR m + 1 + s + 1) * (N0 * N0) * (v * v)); [|ring]. rewrite S2.
    assert (IH' : N1 * N1 * INR m = (INR m + s + 1) * (N0 * N0)).
    { apply Rmult_eq_reg_l with (INR m); [|lra]. rewrite <- Rmult_assoc. lra. }
    apply Rmult_eq_reg_r with (INR m * (INR m + 1 + s)); [|apply Rmult_integral_contrapositive_currified; lra].
    transitivity (N1 * N1 * INR m * (INR m + 1) * (a2 (al + 1) (be + 1) (INR m) * ((INR m + 1) * (INR m + 1 + s)))); [ring|].
    rewrite IH', Sh. ring.
Qed.

Lemma nrm_rel n : INR (S n) * nrm G (al + 1) (be + 1) n = sqrt (INR (S n) * (INR (S n) + s + 1)) * nrm G al be (S n).
Proof.
  pose proof (nrm_pos G (al + 1) (be + 1) ltac:(lra) ltac:(lra) ltac:(lra) HG n) as P1.
  pose proof (nrm_pos G al be Ha Hb Hs HG (S n)) as P0.
  assert (1 <= INR (S n)) by (rewrite S_INR; pose proof (pos_INR n); lra).
  assert (0 <= INR (S n) * (INR (S n) + s + 1)) by (apply Rmult_le_pos; lra).
  apply Rsqr_inj; [apply Rmult_le_pos; lra | apply Rmult_le_pos; [apply sqrt_pos|lra] |].
  unfold Rsqr. rewrite nrm_sq.
  transitivity (sqrt (INR (S n) * (INR (S n) + s + 1)) * sqrt (INR (S n) * (INR (S n) + s + 1)) * (nrm G al be (S n) * nrm G al be (S n))); [|ring].
  rewrite sqrt_sqrt by assumption. reflexivity.
Qed.

Definition gjac (N : nat) (x : R) : R :=
  match N with O => 0 | S n => sqrt (INR N * (INR N + s + 1)) * jac G (al + 1) (be + 1) n x end.
Lemma grad_ok xs N : computeGradJacobi (exact G) xs al be N = map (gjac N) xs.
Proof.
  unfold computeGradJacobi. destruct N as [|n].
  - apply map_ext. intro. rewrite fofn_INR. reflexivity.
  - rewrite !fofn_INR. cbn [exact fadd fmul]. replace (INR 1) with 1 by reflexivity. rewrite compute_ok by (auto; lra). rewrite map_map.
    apply map_ext. intro x. cbn [fsqrt exact]. unfold gjac. do 2 f_equal. ring.
Qed.
Lemma gjac_deriv N x : derivable_pt_lim (jac G al be N) x (gjac N x).
Proof.
  pose proof (mon_deriv al be Ha Hb Hs N x) as D.
  pose proof (nrm_pos G al be Ha Hb Hs HG N) as P0.
  assert (D' : derivable_pt_lim (fun t => / nrm G al be N * mon al be N t) x (/ nrm G al be N * match N with O => 0 | S m => INR N * mon (al + 1) (be + 1) m x end)).
  { apply (derivable_pt_lim_scal (mon al be N)). exact D. }
  replace (gjac N x) with (/ nrm G al be N * match N with O => 0 | S m => INR N * mon (al + 1) (be + 1) m x end).
  - apply dpl_ext with (fun t => / nrm G al be N * mon al be N t); [|exact D']. intro t. unfold jac. unfold Rdiv. ring.
  - unfold gjac. destruct N as [|n]; [ring|]. unfold jac.
    pose proof (nrm_pos G (al + 1) (be + 1) ltac:(lra) ltac:(lra) ltac:(lra) HG n) as P1.
    apply Rmult_eq_reg_r with (nrm G (al + 1) (be + 1) n * nrm G al be (S n)); [|apply Rmult_integral_contrapositive_currified; lra].
    transitivity (mon (al + 1) (be + 1) n x * (INR (S n) * nrm G (al + 1) (be + 1) n)); [field; lra|].
    rewrite nrm_rel. field. lra.
Qed.
End Grad.
