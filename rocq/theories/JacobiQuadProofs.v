(* JacobiQuadProofs.v - parity, Legendre normalisation, location of the zeros, Gauss quadrature. *)
From Coq Require Import ZArith List Reals Lra Lia Arith Bool.
From Verif Require Import Base Num JacobiModel JacobiSpec JacobiProofs JacobiOrthProofs.
Import ListNotations.
Local Open Scope R_scope.

(* --- sums --- *)
Lemma sumn_S n f : sumn (S n) f = sumn n f + f n.
Proof.
  unfold sumn. rewrite seq_S, map_app, fold_right_app. cbn.
  generalize (map f (seq 0 n)). intro l. induction l; cbn; [ring|]. rewrite IHl. ring.
Qed.
Lemma sumn_0 f : sumn 0 f = 0. Proof. reflexivity. Qed.
Lemma sumn_ext n f g : (forall i, (i < n)%nat -> f i = g i) -> sumn n f = sumn n g.
Proof. induction n; intro H; [reflexivity|]. rewrite !sumn_S, IHn by (intros; apply H; lia). rewrite H by lia. reflexivity. Qed.
Lemma sumn_plus n f g : sumn n (fun i => f i + g i) = sumn n f + sumn n g.
Proof. induction n; [rewrite !sumn_0; ring|]. rewrite !sumn_S, IHn. ring. Qed.
Lemma sumn_scal n c f : sumn n (fun i => c * f i) = c * sumn n f.
Proof. induction n; [rewrite !sumn_0; ring|]. rewrite !sumn_S, IHn. ring. Qed.
Lemma sumn_zero n f : (forall i, (i < n)%nat -> f i = 0) -> sumn n f = 0.
Proof. induction n; intro H; [reflexivity|]. rewrite sumn_S, IHn by (intros; apply H; lia). rewrite H by lia. ring. Qed.
Lemma sumn_pick n f i : (i < n)%nat -> (forall k, (k < n)%nat -> k <> i -> f k = 0) -> sumn n f = f i.
Proof.
  revert i. induction n; intros i Hi H; [lia|]. rewrite sumn_S.
  destruct (Nat.eq_dec i n) as [-> | Hne].
  - rewrite sumn_zero by (intros k Hk; apply H; lia). ring.
  - rewrite (IHn i) by (try lia; intros; apply H; lia). rewrite (H n) by lia. ring.
Qed.
Lemma sumn_if n i c : (i < n)%nat -> sumn n (fun k => if (k =? i)%nat then c k else 0) = c i.
Proof.
  intro Hi. rewrite (sumn_pick n _ i) by (auto; intros k _ Hk; apply Nat.eqb_neq in Hk; rewrite Hk; reflexivity).
  rewrite Nat.eqb_refl. reflexivity.
Qed.
Lemma sumn_nonneg n f : (forall i, (i < n)%nat -> 0 <= f i) -> 0 <= sumn n f.
Proof. induction n; intro H; [rewrite sumn_0; lra|]. rewrite sumn_S. pose proof (H n ltac:(lia)). assert (0 <= sumn n f) by (apply IHn; intros; apply H; lia). lra. Qed.
Lemma sumn_swap n m f : sumn n (fun i => sumn m (fun j => f i j)) = sumn m (fun j => sumn n (fun i => f i j)).
Proof.
  induction n; [rewrite sumn_0; symmetry; apply sumn_zero; reflexivity|].
  rewrite sumn_S, IHn, <- sumn_plus. apply sumn_ext. intros. rewrite sumn_S. reflexivity.
Qed.

(* --- parity --- *)
Lemma mon_parity al n x : -1 < al -> mon al al n (- x) = (-1) ^ n * mon al al n x.
Proof.
  intro Ha.
  assert (B0 : forall k, bn al al k = 0). { intros [|k]; unfold bn, bb. { replace (al - al) with 0 by ring. unfold Rdiv. ring. } replace (al ^ 2 - al ^ 2) with 0 by ring. unfold Rdiv. ring. }
  induction n as [n IH] using lt_wf_ind. destruct n as [|[|n]].
  - rewrite !mon0. cbn. ring.
  - rewrite !mon1, B0. cbn. ring.
  - rewrite !monSS, !B0, (IH (S n)), (IH n) by lia. cbn [pow]. ring.
Qed.

(* --- Legendre --- *)
Section Leg.
Variable G : R -> R.
Hypothesis HG : gamma_like G.
Lemma jac_rec al be n x : -1 < al -> -1 < be -> al + be <> -1 ->
  aa al be (INR (S (S n))) * jac G al be (S (S n)) x = (x - bn al be (S n)) * jac G al be (S n) x - aa al be (INR (S n)) * jac G al be n x.
Proof.
  intros Ha Hb Hs. unfold jac. rewrite monSS. change (nrm G al be (S (S n))) with (nrm G al be n * aa al be (INR (S n)) * aa al be (INR (S (S n)))).
  change (nrm G al be (S n)) with (nrm G al be n * aa al be (INR (S n))).
  rewrite <- (aa_sq al be Ha Hb Hs (S n)) by lia.
  pose proof (nrm_pos G al be Ha Hb Hs HG n). pose proof (aa_pos al be Ha Hb Hs (S n) ltac:(lia)). pose proof (aa_pos al be Ha Hb Hs (S (S n)) ltac:(lia)).
  field. repeat split; lra.
Qed.
Lemma jac_rec0 al be x : -1 < al -> -1 < be -> al + be <> -1 ->
  aa al be (INR 1) * jac G al be 1 x = (x - bn al be 0) * jac G al be 0 x.
Proof.
  intros Ha Hb Hs. unfold jac. rewrite mon1, mon0. change (nrm G al be 1) with (nrm G al be 0 * aa al be (INR 1)).
  pose proof (nrm_pos G al be Ha Hb Hs HG 0). pose proof (aa_pos al be Ha Hb Hs 1 ltac:(lia)).
  field. repeat split; lra.
Qed.

Definition sg (n : nat) := sqrt ((2 * INR n + 1) / 2).
Lemma sg_pos n : 0 < sg n. Proof. apply sqrt_lt_R0. pose proof (pos_INR n). lra. Qed.
Lemma sg_sq n : sg n * sg n = (2 * INR n + 1) / 2. Proof. apply sqrt_sqrt. pose proof (pos_INR n). lra. Qed.

Lemma leg_aa n : aa 0 0 (INR (S n)) = INR (S n) / (2 * sg n * sg (S n)).
Proof.
  rewrite aa_sqrt by (try lra; lia). pose proof (sg_pos n) as P0. pose proof (sg_pos (S n)) as P1. pose proof (pos_INR n) as Hn.
  assert (E : a2 0 0 (INR (S n)) = (INR (S n) / (2 * sg n * sg (S n))) * (INR (S n) / (2 * sg n * sg (S n)))).
  { transitivity (INR (S n) * INR (S n) / (4 * (sg n * sg n) * (sg (S n) * sg (S n)))); [|field; lra].
    rewrite !sg_sq. unfold a2. rewrite S_INR. field. repeat split; lra. }
  rewrite E. apply sqrt_square. apply Rlt_le. apply Rdiv_lt_0_compat; [rewrite S_INR; lra|]. repeat apply Rmult_lt_0_compat; lra.
Qed.
Lemma leg2 n x : jac G 0 0 n x = sg n * legendre n x /\ jac G 0 0 (S n) x = sg (S n) * legendre (S n) x.
Proof.
  assert (B0 : forall k, bn 0 0 k = 0). { intros [|k]; unfold bn, bb; [unfold Rdiv; ring|]. unfold Rdiv. ring. }
  assert (J0 : jac G 0 0 0 x = sg 0).
  { unfold jac. rewrite mon0. cbn [nrm]. destruct HG as (F & _ & G1).
    assert (Eg : g0 G 0 0 = 2). { rewrite g0_alt by (auto; lra). replace (0 + 0 + 2) with (1 + 1) by lra. rewrite (F 1) by lra.
      replace (0 + 0 + 1) with 1 by lra. replace (0 + 1) with 1 by lra. rewrite G1, Rpower_1 by lra. field. }
    rewrite Eg. unfold sg. cbn [INR]. replace ((2 * 0 + 1) / 2) with (/ 2) by lra. rewrite sqrt_inv. unfold Rdiv. ring. }
  assert (A1 := jac_rec0 0 0 x ltac:(lra) ltac:(lra) ltac:(lra)).
  induction n as [|n [IH0 IH1]].
  - split.
    + rewrite J0. unfold legendre. cbn. ring.
    + rewrite B0, J0, (leg_aa 0) in A1. pose proof (sg_pos 0) as P0. pose proof (sg_pos 1) as P1. change (INR 1) with 1 in A1.
      assert (S0 := sg_sq 0). cbn [INR] in S0. unfold legendre. cbn [legendre2 fst].
      apply Rmult_eq_reg_l with (1 / (2 * sg 0 * sg 1)); [|apply Rgt_not_eq; apply Rdiv_lt_0_compat; [lra|repeat apply Rmult_lt_0_compat; lra]].
      rewrite A1. transitivity (2 * (sg 0 * sg 0) * (x * / (2 * sg 0))); [field; lra|]. rewrite S0. field. lra.
  - split; [exact IH1|].
    assert (AR := jac_rec 0 0 n x ltac:(lra) ltac:(lra) ltac:(lra)). rewrite B0, IH0, IH1, !leg_aa in AR.
    pose proof (sg_pos n) as P0. pose proof (sg_pos (S n)) as P1. pose proof (sg_pos (S (S n))) as P2.
    assert (S1 := sg_sq (S n)). pose proof (pos_INR n) as Hn.
    assert (EL : legendre (S (S n)) x = ((2 * INR n + 3) * x * legendre (S n) x - (INR n + 1) * legendre n x) / (INR n + 2)).
    { unfold legendre. cbn [legendre2]. destruct (legendre2 n x) as [u v]. cbn [fst]. destruct n; cbn [INR]; reflexivity. }
    rewrite EL. rewrite !S_INR in *. replace (INR n + 1 + 1) with (INR n + 2) in * by lra.
    apply Rmult_eq_reg_l with ((INR n + 2) / (2 * sg (S n) * sg (S (S n)))); [|apply Rgt_not_eq; apply Rdiv_lt_0_compat; [lra|repeat apply Rmult_lt_0_compat; lra]].
    rewrite AR. transitivity (((2 * (sg (S n) * sg (S n))) * x * legendre (S n) x - (INR n + 1) * legendre n x) / (2 * sg (S n))); [field; lra|].
    rewrite S1. field. lra.
Qed.
Lemma legendre_at_1 n : legendre n 1 = 1 /\ legendre (S n) 1 = 1.
Proof.
  induction n as [|n [A B]]; [split; reflexivity|]. split; [exact B|].
  unfold legendre in *. cbn [legendre2] in *. destruct (legendre2 n 1) as [u v]. cbn [fst] in *. subst. pose proof (pos_INR n). field. lra.
Qed.
End Leg.

(* --- zeros lie strictly between -1 and 1 --- *)
Lemma mon_ge1 n : forall al be x, -1 < al -> -1 < be -> al + be <> -1 -> 1 <= x -> 0 < mon al be n x.
Proof.
  induction n as [|n IH]; intros al be x Ha Hb Hs Hx; [rewrite mon0; lra|].
  destruct (Rle_lt_or_eq_dec 1 x Hx) as [Hlt | <-]; [|apply mon_at1_pos; assumption].
  destruct (MVT_cor2 (mon al be (S n)) (fun t => INR (S n) * mon (al + 1) (be + 1) n t) 1 x Hlt) as (c & Ec & Hc).
  { intros c _. apply (mon_deriv al be Ha Hb Hs (S n)). }
  pose proof (mon_at1_pos al be Ha Hb Hs (S n)).
  assert (0 < INR (S n) * mon (al + 1) (be + 1) n c * (x - 1)).
  { apply Rmult_lt_0_compat; [apply Rmult_lt_0_compat|lra]. rewrite S_INR; pose proof (pos_INR n); lra. apply IH; lra. }
  lra.
Qed.
Lemma mon_lem1 n : forall al be x, -1 < al -> -1 < be -> al + be <> -1 -> x <= -1 -> 0 < (-1) ^ n * mon al be n x.
Proof.
  induction n as [|n IH]; intros al be x Ha Hb Hs Hx; [rewrite mon0; cbn; lra|].
  destruct (Rle_lt_or_eq_dec x (-1) Hx) as [Hlt | ->]; [|apply mon_atm_pos; assumption].
  destruct (MVT_cor2 (mon al be (S n)) (fun t => INR (S n) * mon (al + 1) (be + 1) n t) x (-1) Hlt) as (c & Ec & Hc).
  { intros c _. apply (mon_deriv al be Ha Hb Hs (S n)). }
  pose proof (mon_atm_pos al be Ha Hb Hs (S n)) as H1.
  assert (H2 : 0 < INR (S n) * ((-1) ^ n * mon (al + 1) (be + 1) n c) * (-1 - x)).
  { apply Rmult_lt_0_compat; [apply Rmult_lt_0_compat|lra]. rewrite S_INR; pose proof (pos_INR n); lra. apply IH; lra. }
  cbn [pow] in *.
  assert (E2 : -1 * (-1) ^ n * mon al be (S n) x = -1 * (-1) ^ n * mon al be (S n) (-1) + INR (S n) * ((-1) ^ n * mon (al + 1) (be + 1) n c) * (-1 - x)).
  { replace (mon al be (S n) x) with (mon al be (S n) (-1) - INR (S n) * mon (al + 1) (be + 1) n c * (-1 - x)) by (rewrite <- Ec; ring). ring. }
  lra.
Qed.
Lemma mon_zero_inside n al be x : -1 < al -> -1 < be -> al + be <> -1 -> mon al be n x = 0 -> -1 < x < 1.
Proof.
  intros Ha Hb Hs Z0. split.
  - destruct (Rlt_le_dec (-1) x) as [?|L]; [assumption|]. pose proof (mon_lem1 n al be x Ha Hb Hs L) as H. rewrite Z0 in H. lra.
  - destruct (Rlt_le_dec x 1) as [?|L]; [assumption|]. pose proof (mon_ge1 n al be x Ha Hb Hs L) as H. rewrite Z0 in H. lra.
Qed.

(* --- Gauss quadrature --- *)
Section GW.
Variables (G : R -> R) (al be eps : R) (N : nat).
Hypothesis HG : gamma_like G.
Hypothesis Ha : -1 < al. Hypothesis Hb : -1 < be. Hypothesis Hs : al + be <> -1.
Hypothesis Heps : 0 <= eps.
Hypothesis Hfirst : al = be \/ 10 * eps <= al + be /\ al + be <> 0.
Local Notation E := (exact G).
Local Notation J := (quad_matrix E eps al be N).
Local Notation P := (jac G al be).

Lemma diag_ok i : quad_diag E eps al be i + quad_diag E eps al be i = bn al be i.
Proof.
  unfold quad_diag. rewrite !fofn_INR. cbn [exact fadd fmul fdiv fsub fopp flt].
  replace (INR 2) with 2 by (simpl; lra). replace (INR 1) with 1 by reflexivity.
  destruct i as [|i]; cbn [Nat.eqb andb].
  - replace (INR 10) with 10 by (simpl; lra). unfold Rltb. destruct (Rlt_dec (al + be) (10 * eps)) as [L|L].
    + destruct Hfirst as [-> | [H _]]; [|lra]. unfold bn. cbn [INR]. field. lra.
    + unfold bn. cbn [INR]. destruct Hfirst as [He | [_ H]].
      * rewrite He. replace (be * be - be * be) with 0 by ring. unfold Rdiv. ring.
      * field. lra.
  - unfold bn, bb. assert (1 <= INR (S i)) by (rewrite S_INR; pose proof (pos_INR i); lra). field. lra.
Qed.
Lemma off_ok i : quad_off E al be i = aa al be (INR (S i)).
Proof.
  unfold quad_off. rewrite !fofn_INR. cbn [exact fadd fmul fdiv fsqrt]. unfold aa. rewrite !S_INR, plus_INR. cbn [INR].
  pose proof (pos_INR i). f_equal; [field; lra|]. f_equal. destruct i as [|i]; [cbn [INR]; field; lra|]. rewrite S_INR in *. pose proof (pos_INR i). field. lra.
Qed.
Lemma J_entry i k : J i k = (if (k =? i)%nat then bn al be i else 0) + (if (k =? S i)%nat && (i <? N)%nat then aa al be (INR (S i)) else 0)
   + (if (i =? S k)%nat && (k <? N)%nat then aa al be (INR i) else 0).
Proof.
  unfold quad_matrix, quad_upper. rewrite !fofn_INR. cbn [exact fadd]. change (INR 0) with 0. rewrite !off_ok.
  pose proof (diag_ok i) as D.
  destruct (Nat.ltb_spec k i) as [L|L].
  - replace (k =? i)%nat with false by (symmetry; apply Nat.eqb_neq; lia). replace (i =? k)%nat with false by (symmetry; apply Nat.eqb_neq; lia).
    replace (k =? S i)%nat with false by (symmetry; apply Nat.eqb_neq; lia). cbn [andb].
    destruct (Nat.eqb_spec i (S k)) as [-> | Hn]; cbn [andb]; [|ring]. destruct (k <? N)%nat; ring.
  - destruct (Nat.eqb_spec k i) as [-> | Hn].
    + rewrite Nat.eqb_refl. replace (i =? S i)%nat with false by (symmetry; apply Nat.eqb_neq; lia). cbn [andb]. rewrite <- D. ring.
    + replace (i =? k)%nat with false by (symmetry; apply Nat.eqb_neq; lia). replace (i =? S k)%nat with false by (symmetry; apply Nat.eqb_neq; lia).
      cbn [andb]. destruct (Nat.eqb_spec k (S i)) as [-> | Hn2]; cbn [andb]; [|ring]. destruct (i <? N)%nat; ring.
Qed.
Lemma J_sym i j : J i j = J j i.
Proof.
  rewrite !J_entry. rewrite (Nat.eqb_sym i j). destruct (Nat.eqb_spec j i) as [-> | Hn]; [reflexivity|].
  destruct (Nat.eqb_spec j (S i)) as [H1 | H1]; destruct (Nat.eqb_spec i (S j)) as [H2 | H2]; cbn [andb]; try (exfalso; lia); try subst j; try subst i; ring.
Qed.

Variables (xs : list R) (V : nat -> nat -> R).
Hypothesis HE : eigen_solution (S N) J xs V.

Lemma row_sum i (r : nat -> R) : (i <= N)%nat -> sumn (S N) (fun k => J i k * r k) =
  bn al be i * r i + (if (i <? N)%nat then aa al be (INR (S i)) * r (S i) else 0) + (match i with O => 0 | S h => aa al be (INR i) * r h end).
Proof.
  intro Hi.
  rewrite (sumn_ext _ _ (fun k => (if (k =? i)%nat then bn al be i * r k else 0) + (if (k =? S i)%nat then (if (i <? N)%nat then aa al be (INR (S i)) * r k else 0) else 0)
    + (match i with O => 0 | S h => if (k =? h)%nat then aa al be (INR i) * r k else 0 end))).
  2:{ intros k Hk. rewrite J_entry. destruct i as [|h].
      - replace (0 =? S k)%nat with false by reflexivity. cbn [andb]. destruct (k =? 0)%nat, (k =? 1)%nat, (0 <? N)%nat; cbn [andb]; ring.
      - change (S h =? S k)%nat with (h =? k)%nat. rewrite (Nat.eqb_sym h k).
        destruct (Nat.eqb_spec k h) as [-> | Hkh].
        + replace (h <? N)%nat with true by (symmetry; apply Nat.ltb_lt; lia). cbn [andb].
          destruct (h =? S h)%nat, (h =? S (S h))%nat, (S h <? N)%nat; cbn [andb]; ring.
        + cbn [andb]. destruct (k =? S h)%nat, (k =? S (S h))%nat, (S h <? N)%nat; cbn [andb]; ring. }
  rewrite !sumn_plus. rewrite (sumn_if (S N) i (fun k => bn al be i * r k)) by lia.
  f_equal; [f_equal|].
  - destruct (Nat.ltb_spec i N) as [L|L].
    + rewrite (sumn_if (S N) (S i) (fun k => aa al be (INR (S i)) * r k)) by lia. reflexivity.
    + apply sumn_zero. intros k Hk. destruct (k =? S i)%nat; reflexivity.
  - destruct i as [|h]; [apply sumn_zero; reflexivity|].
    apply (sumn_if (S N) h (fun k => aa al be (INR (S h)) * r k)). lia.
Qed.

Lemma V_ok j : (j <= N)%nat -> forall i, (i <= N)%nat -> V i j = V 0%nat j * nrm G al be 0 * P i (nth j xs 0).
Proof.
  intros Hj. destruct HE as (HL & HJ & _ & _ & _).
  induction i as [i IH] using lt_wf_ind. intro Hi. destruct i as [|i].
  - unfold jac. rewrite mon0. pose proof (nrm_pos G al be Ha Hb Hs HG 0). field. lra.
  - pose proof (HJ i j ltac:(lia) ltac:(lia)) as R0. rewrite (row_sum i (fun k => V k j)) in R0 by lia.
    replace (i <? N)%nat with true in R0 by (symmetry; apply Nat.ltb_lt; lia).
    pose proof (aa_pos al be Ha Hb Hs (S i) ltac:(lia)) as Pa.
    apply Rmult_eq_reg_l with (aa al be (INR (S i))); [|lra].
    set (x := nth j xs 0) in *.
    destruct i as [|i].
    + transitivity ((x - bn al be 0) * V 0%nat j); [lra|].
      transitivity (V 0%nat j * nrm G al be 0 * (aa al be (INR 1) * P 1 x)); [|ring]. rewrite jac_rec0 by assumption.
      unfold jac. rewrite mon0. pose proof (nrm_pos G al be Ha Hb Hs HG 0). field. lra.
    + transitivity ((x - bn al be (S i)) * V (S i) j - aa al be (INR (S i)) * V i j); [lra|].
      rewrite (IH (S i)), (IH i) by lia.
      transitivity (V 0%nat j * nrm G al be 0 * (aa al be (INR (S (S i))) * P (S (S i)) x)); [|ring]. rewrite jac_rec by assumption. ring.
Qed.
Lemma V0_nz j : (j <= N)%nat -> V 0%nat j <> 0.
Proof.
  intros Hj Z0. destruct HE as (_ & _ & _ & HC & _). pose proof (HC j j ltac:(lia) ltac:(lia)) as H. rewrite Nat.eqb_refl in H.
  rewrite sumn_zero in H; [lra|]. intros i Hi. rewrite (V_ok j Hj i) by lia. rewrite Z0. ring.
Qed.
Lemma node_zero j : (j <= N)%nat -> P (S N) (nth j xs 0) = 0.
Proof.
  intros Hj. destruct HE as (_ & HJ & _ & _ & _).
  pose proof (HJ N j ltac:(lia) ltac:(lia)) as R0. rewrite (row_sum N (fun k => V k j)) in R0 by lia.
  rewrite Nat.ltb_irrefl in R0. pose proof (aa_pos al be Ha Hb Hs (S N) ltac:(lia)) as Pa.
  pose proof (nrm_pos G al be Ha Hb Hs HG 0) as Np. pose proof (V0_nz j Hj) as V0.
  set (x := nth j xs 0) in *.
  assert (M : forall n, (n <= N)%nat -> match n with O => 0 | S h => aa al be (INR n) * V h j end = V 0%nat j * nrm G al be 0 * match n with O => 0 | S h => aa al be (INR n) * P h x end).
  { intros [|h] Hh; [ring|]. rewrite (V_ok j Hj h ltac:(lia)). fold x. ring. }
  rewrite (M N ltac:(lia)), (V_ok j Hj N ltac:(lia)) in R0. fold x in R0.
  assert (Z0 : V 0%nat j * nrm G al be 0 * (aa al be (INR (S N)) * P (S N) x) = 0).
  { assert (RR : forall n, aa al be (INR (S n)) * P (S n) x = (x - bn al be n) * P n x - match n with O => 0 | S h => aa al be (INR n) * P h x end).
    { intros [|h]; [rewrite jac_rec0 by assumption; ring | apply jac_rec; assumption]. }
    rewrite (RR N). lra. }
  apply Rmult_integral in Z0. destruct Z0 as [Z0|Z0]; [apply Rmult_integral in Z0; destruct Z0; lra|].
  apply Rmult_integral in Z0. destruct Z0; lra.
Qed.
Lemma jac_zero_mon n x : P n x = 0 -> mon al be n x = 0.
Proof. unfold jac. intro H. pose proof (nrm_pos G al be Ha Hb Hs HG n). apply Rmult_eq_reg_r with (/ nrm G al be n); [lra|]. apply Rinv_neq_0_compat. lra. Qed.
Lemma node_inside j : (j <= N)%nat -> -1 < nth j xs 0 < 1.
Proof. intro Hj. apply (mon_zero_inside (S N) al be); auto. apply jac_zero_mon. apply node_zero. exact Hj. Qed.
Lemma node_increasing j : (S j <= N)%nat -> nth j xs 0 < nth (S j) xs 0.
Proof.
  intro Hj. destruct HE as (_ & _ & _ & HC & HO). destruct (HO j ltac:(lia)) as [L|Eq]; [exact L|exfalso].
  pose proof (HC j (S j) ltac:(lia) ltac:(lia)) as H0. replace (j =? S j)%nat with false in H0 by (symmetry; apply Nat.eqb_neq; lia).
  pose proof (HC j j ltac:(lia) ltac:(lia)) as H1. rewrite Nat.eqb_refl in H1.
  rewrite (sumn_ext _ _ (fun i => V 0%nat (S j) / V 0%nat j * (V i j * V i j))) in H0.
  2:{ intros i Hi. rewrite (V_ok (S j) ltac:(lia) i ltac:(lia)), (V_ok j ltac:(lia) i ltac:(lia)), <- Eq. pose proof (V0_nz j ltac:(lia)). field. assumption. }
  rewrite sumn_scal, H1 in H0. pose proof (V0_nz j ltac:(lia)). pose proof (V0_nz (S j) ltac:(lia)).
  assert (V 0%nat (S j) = 0); [|contradiction]. apply Rmult_eq_reg_r with (/ V 0%nat j); [unfold Rdiv in H0; lra | apply Rinv_neq_0_compat; assumption].
Qed.

Local Notation wt := (map (fun j => fmul E (fmul E (V 0%nat j) (V 0%nat j)) (gamma0 E al be)) (seq 0 (S N))).
Lemma quadrature_sum (l : list R) (w : nat -> R) f : forall k, quadrature l (map w (seq k (length l))) f = fold_right Rplus 0 (map (fun j => w (k + j)%nat * f (nth j l 0)) (seq 0 (length l))).
Proof.
  unfold quadrature. induction l as [|x l IH]; intro k; [reflexivity|].
  cbn [length seq map combine fold_right nth]. rewrite Nat.add_0_r. f_equal. rewrite IH. rewrite <- seq_shift, map_map. f_equal. apply map_ext. intro j. cbn [nth]. do 2 f_equal. lia.
Qed.
Lemma quad_is_sum f : quadrature xs wt f = sumn (S N) (fun j => V 0%nat j * V 0%nat j * g0 G al be * f (nth j xs 0)).
Proof.
  destruct HE as (HL & _). rewrite <- HL. rewrite quadrature_sum. unfold sumn. f_equal.
Qed.
Lemma gauss_orth a b : (a <= N)%nat -> (b <= S N)%nat -> quadrature xs wt (fun x => P a x * P b x) = if (a =? b)%nat then 1 else 0.
Proof.
  intros Hna Hnb. rewrite quad_is_sum.
  destruct (Nat.eq_dec b (S N)) as [-> | Hne].
  - replace (a =? S N)%nat with false by (symmetry; apply Nat.eqb_neq; lia). apply sumn_zero. intros j Hj. rewrite node_zero by lia. ring.
  - destruct HE as (_ & _ & HR & _). rewrite <- (HR a b) by lia. apply sumn_ext. intros j Hj.
    rewrite (V_ok j ltac:(lia) a), (V_ok j ltac:(lia) b) by lia.
    pose proof (g0_pos G al be Ha Hb Hs HG) as Gp. cbn [nrm].
    rewrite <- (sqrt_sqrt (g0 G al be)) at 1 by lra. ring.
Qed.
Lemma weights_pos j : (j <= N)%nat -> 0 < nth j wt 0.
Proof.
  intro Hj. rewrite (nth_indep _ 0 ((fun j => fmul E (fmul E (V 0%nat j) (V 0%nat j)) (gamma0 E al be)) 0%nat)) by (rewrite map_length, seq_length; lia).
  rewrite (map_nth (fun j => fmul E (fmul E (V 0%nat j) (V 0%nat j)) (gamma0 E al be))), seq_nth by lia. cbn [exact fmul Nat.add].
  pose proof (g0_pos G al be Ha Hb Hs HG) as Gp. pose proof (V0_nz j Hj). apply Rmult_lt_0_compat; [|exact Gp]. apply Rsqr_pos_lt. assumption.
Qed.
End GW.
