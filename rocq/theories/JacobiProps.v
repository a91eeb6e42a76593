(* JacobiProps.v - the theorems about Jacobi polynomials, their derivatives and quadrature (C31-C33, C59, C60). *)
From Coq Require Import ZArith List Lia Arith Bool.
From Verif Require Import Base Num JacobiModel JacobiSpec JacobiProofs JacobiOrthProofs JacobiQuadProofs JacobiExactProofs.
From Coq Require Import Reals Lra SpecFloat.
Import ListNotations.
Local Open Scope R_scope.

(* C31: computeJacobiPolynomial evaluates one polynomial of degree N at each point, and computeGradJacobi
   evaluates its derivative. *)
Theorem C31_gradient G alpha beta N : gamma_like G -> -1 < alpha -> -1 < beta -> alpha + beta <> -1 ->
  exists f f',
    (forall xs, computeJacobiPolynomial (exact G) xs alpha beta N = map f xs) /\
    (forall xs, computeGradJacobi (exact G) xs alpha beta N = map f' xs) /\
    (forall x, derivable_pt_lim f x (f' x)) /\
    (exists cs, length cs = S N /\ 0 < nth N cs 0 /\ forall x, f x = peval cs x).
Proof.
  intros HG Ha Hb Hs. exists (jac G alpha beta N), (gjac G alpha beta N). repeat split.
  - intro xs. apply compute_ok; assumption.
  - intro xs. apply grad_ok; assumption.
  - intro x. apply gjac_deriv; assumption.
  - destruct (mon_poly alpha beta N) as (cs & L & T & E). exists (pscal (/ nrm G alpha beta N) cs).
    pose proof (nrm_pos G alpha beta Ha Hb Hs HG N) as Np. repeat split.
    + rewrite pscal_len. exact L.
    + rewrite pscal_nth, T. rewrite Rmult_1_r. apply Rinv_0_lt_compat. exact Np.
    + intro x. rewrite pscal_eval, <- E. unfold jac, Rdiv. ring.
Qed.
Example C31_witness : gamma_like gwit /\ -1 < 1/2 /\ -1 < 2 /\ 1/2 + 2 <> -1.
Proof. split; [exact gwit_ok | lra]. Qed.

(* alpha + beta = -1 is outside the theorem: with IEEE doubles (and a tgamma with a pole at 0) every value
   is NaN, for example for the Chebyshev weight. *)
Theorem C31_chebyshev_nan pow gam m e x :
  let half := SFdiv 53 1024 (dofZ 1) (dofZ 2) in
  pow (dofZ 2) (S754_zero false) = dofZ 1 -> gam half = S754_finite false m e -> gam (S754_zero false) = S754_infinity false ->
  computeJacobiPolynomial (dbl_arith pow gam) [x] (SFopp half) (SFopp half) 0 = [S754_nan].
Proof.
  intros half Hp Hg H0. unfold computeJacobiPolynomial, gamma0, fofn. cbn [dbl_arith fadd fmul fdiv fsqrt fpow ftgamma fofZ map].
  replace (SFadd 53 1024 (SFadd 53 1024 (SFopp half) (SFopp half)) (dofZ (Z.of_nat 1))) with (S754_zero false) by (vm_compute; reflexivity).
  replace (SFadd 53 1024 (SFopp half) (dofZ (Z.of_nat 1))) with half by (vm_compute; reflexivity).
  change (dofZ (Z.of_nat 2)) with (dofZ 2). rewrite Hp, Hg, H0.
  replace (SFdiv 53 1024 (dofZ 1) (S754_zero false)) with (S754_infinity false) by (vm_compute; reflexivity).
  cbn [SFmul SFdiv SFsqrt xorb]. vm_compute. reflexivity.
Qed.

(* C32 *)
Theorem C32_parity G alpha N x : gamma_like G -> -1 < alpha -> 2 * alpha <> -1 ->
  computeJacobiPolynomial (exact G) [- x] alpha alpha N =
  map (fun v => (-1) ^ N * v) (computeJacobiPolynomial (exact G) [x] alpha alpha N).
Proof.
  intros HG Ha Hs. rewrite !compute_ok by (auto; lra). cbn [map]. f_equal. unfold jac. rewrite mon_parity by assumption. unfold Rdiv. ring.
Qed.
Theorem C32_legendre G N xs : gamma_like G ->
  computeJacobiPolynomial (exact G) xs 0 0 N = map (fun x => sqrt ((2 * INR N + 1) / 2) * legendre N x) xs.
Proof.
  intro HG. rewrite compute_ok by (auto; lra). apply map_ext. intro x. apply (proj1 (leg2 G HG N x)).
Qed.
Theorem C32_value_at_one G N : gamma_like G ->
  computeJacobiPolynomial (exact G) [1] 0 0 N = [sqrt ((2 * INR N + 1) / 2)].
Proof.
  intro HG. rewrite C32_legendre by assumption. cbn [map]. rewrite (proj1 (legendre_at_1 N)). f_equal. ring.
Qed.
(* Orthonormality for every pair of degrees and every natural alpha, beta: the integral over [-1,1] of
   (1-x)^a (1+x)^b P_m P_n is 1 if m = n and 0 otherwise. *)
Theorem C32_orthonormal G a b m n : gamma_like G ->
  exists pm pn,
    (forall xs, computeJacobiPolynomial (exact G) xs (INR a) (INR b) m = map pm xs) /\
    (forall xs, computeJacobiPolynomial (exact G) xs (INR a) (INR b) n = map pn xs) /\
    integral_is (fun x => weight a b x * pm x * pn x) (-1) 1 (if (m =? n)%nat then 1 else 0).
Proof.
  intro HG. exists (jac G (INR a) (INR b) m), (jac G (INR a) (INR b) n). repeat split.
  - intro xs. apply compute_ok; auto using natp, nats.
  - intro xs. apply compute_ok; auto using natp, nats.
  - apply orth. exact HG.
Qed.
Example C32_witness : gamma_like gwit /\ -1 < 1 /\ 2 * 1 <> -1.
Proof. split; [exact gwit_ok | lra]. Qed.

(* C33: what goes wrong. *)
Theorem C33_one_point_weight_refuted G eig eps :
  computeJacobiQuadWeights (exact G) eig eps 1 1 0 = ([0], [2]) /\ integral_is (weight 1 1) (-1) 1 (4 / 3).
Proof.
  split.
  - unfold computeJacobiQuadWeights. rewrite !fofn_INR. cbn [exact fadd fsub fdiv fopp]. replace (INR 2) with 2 by (simpl; lra).
    do 2 f_equal. field.
  - exists (fun x => x - / 3 * x ^ 3). split; [|cbn [pow]; lra].
    intro x. replace (weight 1 1 x) with (1 - / 3 * (INR 3 * x ^ 2)) by (unfold weight; simpl; field).
    apply derivable_pt_lim_minus; [apply derivable_pt_lim_id|]. apply (derivable_pt_lim_scal (fun x => x ^ 3)). apply (derivable_pt_lim_pow x 3).
Qed.
(* Whenever alpha+beta is negative and alpha <> beta, the rule does not even make P_0 and P_1 orthogonal,
   whatever the eigenvalue solver returns. *)
Theorem C33_first_entry_refuted G alpha beta eps N eig : gamma_like G -> -1 < alpha -> -1 < beta -> alpha + beta <> -1 ->
  0 <= eps -> alpha + beta < 0 -> alpha <> beta ->
  let J := quad_matrix (exact G) eps alpha beta (S N) in
  eigen_solution (S (S N)) J (fst (eig (S (S N)) J)) (snd (eig (S (S N)) J)) ->
  exists p0 p1,
    (forall xs, computeJacobiPolynomial (exact G) xs alpha beta 0 = map p0 xs) /\
    (forall xs, computeJacobiPolynomial (exact G) xs alpha beta 1 = map p1 xs) /\
    let (xs, ws) := computeJacobiQuadWeights (exact G) eig eps alpha beta (S N) in
    quadrature xs ws (fun x => p0 x * p1 x) <> 0.
Proof.
  intros HG Ha Hb Hs He Hn Hne J HE. exists (jac G alpha beta 0), (jac G alpha beta 1). split; [|split].
  - intro. apply compute_ok; assumption.
  - intro. apply compute_ok; assumption.
  - unfold computeJacobiQuadWeights. fold J. destruct (eig (S (S N)) J) as [xs V]. cbn [fst snd] in HE.
    apply (first_moment G alpha beta eps (S N)); auto. lra.
Qed.

(* C59: the Gauss-Jacobi rule. *)
Theorem C59_gauss_nodes G alpha beta eps N eig : gamma_like G -> -1 < alpha -> -1 < beta -> alpha + beta <> -1 ->
  0 <= eps -> alpha = beta \/ 10 * eps <= alpha + beta /\ alpha + beta <> 0 ->
  let J := quad_matrix (exact G) eps alpha beta (S N) in
  (forall i j, J i j = J j i) /\
  (eigen_solution (S (S N)) J (fst (eig (S (S N)) J)) (snd (eig (S (S N)) J)) ->
   let (xs, ws) := computeJacobiQuadWeights (exact G) eig eps alpha beta (S N) in
   length xs = S (S N) /\ length ws = S (S N) /\
   (forall j, (j < S (S N))%nat -> -1 < nth j xs 0 < 1 /\ 0 < nth j ws 0 /\
      computeJacobiPolynomial (exact G) [nth j xs 0] alpha beta (S (S N)) = [0]) /\
   (forall j, (S j < S (S N))%nat -> nth j xs 0 < nth (S j) xs 0)).
Proof.
  intros HG Ha Hb Hs He Hf J. split.
  - intros i j. apply J_sym; assumption.
  - intro HE. unfold computeJacobiQuadWeights. fold J. destruct (eig (S (S N)) J) as [xs V]. cbn [fst snd] in HE. split; [|split; [|split]].
    + apply HE.
    + rewrite map_length, seq_length. reflexivity.
    + intros j Hj. split; [|split].
      * apply (node_inside G alpha beta eps (S N) HG Ha Hb Hs He Hf xs V HE). lia.
      * apply (weights_pos G alpha beta eps (S N) HG Ha Hb Hs He Hf xs V HE). lia.
      * rewrite compute_ok by assumption. cbn [map]. f_equal. apply (node_zero G alpha beta eps (S N) HG Ha Hb Hs He Hf xs V HE). lia.
    + intros j Hj. apply (node_increasing G alpha beta eps (S N) HG Ha Hb Hs He Hf xs V HE). lia.
Qed.
(* With N+1 points (N >= 1) the rule integrates every polynomial of degree at most 2N+1 exactly. *)
Theorem C59_gauss_exact G a b eps N eig cs : gamma_like G -> 0 <= eps <= 1 / 10 ->
  let J := quad_matrix (exact G) eps (INR a) (INR b) (S N) in
  eigen_solution (S (S N)) J (fst (eig (S (S N)) J)) (snd (eig (S (S N)) J)) ->
  (length cs <= 2 * S N + 2)%nat ->
  let (xs, ws) := computeJacobiQuadWeights (exact G) eig eps (INR a) (INR b) (S N) in
  integral_is (fun x => weight a b x * peval cs x) (-1) 1 (quadrature xs ws (peval cs)).
Proof.
  intros HG He J HE Hl. unfold computeJacobiQuadWeights. fold J. destruct (eig (S (S N)) J) as [xs V]. cbn [fst snd] in HE.
  assert (Hf : INR a = INR b \/ 10 * eps <= INR a + INR b /\ INR a + INR b <> 0).
  { destruct (Nat.eq_dec a b) as [-> | Hne]; [left; reflexivity|right].
    assert (1 <= INR a + INR b) by (rewrite <- plus_INR; change 1 with (INR 1); apply le_INR; lia). lra. }
  apply (exactness G a b (S N)); [exact HG| |exact Hl].
  intros i j Hi Hj. apply (gauss_orth G (INR a) (INR b) eps (S N) HG (natp a) (natp b) (nats a b) (proj1 He) Hf xs V HE); assumption.
Qed.
(* The two-point symmetric rules (in particular the Legendre one) meet the hypotheses. *)
Example C59_witness al : -1 < al -> al + al <> -1 -> let J := quad_matrix (exact gwit) 0 al al 1 in
  let c := / sqrt 2 in
  let V := fun i j => match i, j with 1%nat, 0%nat => - c | _, _ => c end in
  exists t, 0 < t /\ eigen_solution 2 J [- t; t] V.
Proof.
  intros Ha Hs J c V. exists (aa al al (INR 1)). split; [apply aa_pos; lra || lia|].
  assert (Hc : c * c = 1 / 2). { unfold c. pose proof (sqrt_lt_R0 2 ltac:(lra)). pose proof (sqrt_sqrt 2 ltac:(lra)) as H2.
    transitivity (/ (sqrt 2 * sqrt 2)); [field; lra|]. rewrite H2. lra. }
  assert (HJ : forall i k, J i k = (if (k =? i)%nat then bn al al i else 0) + (if (k =? S i)%nat && (i <? 1)%nat then aa al al (INR (S i)) else 0)
      + (if (i =? S k)%nat && (k <? 1)%nat then aa al al (INR i) else 0)).
  { intros i k. apply J_entry; try lra; left; reflexivity. }
  clearbody J. 
  assert (B0 : bn al al 0 = 0) by (unfold bn; field; lra). assert (B1 : bn al al 1 = 0) by (unfold bn, bb; replace (al ^ 2 - al ^ 2) with 0 by ring; unfold Rdiv; ring).
  assert (t0 : 0 < aa al al (INR 1)) by (apply aa_pos; lra || lia). set (t := aa al al (INR 1)) in *.
  assert (two : forall j, (j < 2)%nat -> j = 0%nat \/ j = 1%nat) by (intros; lia).
  assert (S2 : forall f, sumn 2 f = f 0%nat + f 1%nat) by (intro; unfold sumn; cbn; ring).
  split; [reflexivity|]. split; [|split; [|split]].
  - intros i j Hi Hj. rewrite S2, !HJ. destruct (two i Hi) as [-> | ->], (two j Hj) as [-> | ->];
      cbn [Nat.eqb Nat.ltb Nat.leb andb nth V]; fold t; rewrite ?B0, ?B1; ring.
  - intros i j Hi Hj. rewrite S2. destruct (two i Hi) as [-> | ->], (two j Hj) as [-> | ->]; cbn [Nat.eqb V]; lra.
  - intros i j Hi Hj. rewrite S2. destruct (two i Hi) as [-> | ->], (two j Hj) as [-> | ->]; cbn [Nat.eqb V]; lra.
  - intros j Hj. assert (j = 0%nat) by lia. subst. cbn [nth]. lra.
Qed.

(* C60: the Gauss-Lobatto points are -1, the zeros of the derivative of P_N in increasing order, and 1. *)
Theorem C60_gauss_lobatto G alpha beta eps N eig : gamma_like G -> -1 < alpha -> -1 < beta -> alpha + beta <> -1 ->
  0 <= eps -> 10 * eps <= alpha + beta + 2 ->
  let J := quad_matrix (exact G) eps (alpha + 1) (beta + 1) (N - 1) in
  (2 <= N -> eigen_solution N J (fst (eig N J)) (snd (eig N J)))%nat ->
  let xs := computeGaussLobottoPoints (exact G) eig eps alpha beta (S N) in
  length xs = S (S N) /\ nth 0 xs 0 = -1 /\ nth (S N) xs 0 = 1 /\
  (forall i, (i < S N)%nat -> nth i xs 0 < nth (S i) xs 0) /\
  (forall i, (0 < i < S N)%nat -> computeGradJacobi (exact G) [nth i xs 0] alpha beta (S N) = [0]).
Proof.
  intros HG Ha Hb Hs He Hsum J HE xs.
  assert (M1 : fopp (exact G) (fofn (exact G) 1) = -1) by (rewrite fofn_INR; cbn; lra).
  assert (P1 : fofn (exact G) 1 = 1) by (rewrite fofn_INR; reflexivity).
  destruct N as [|n].
  { subst xs. cbn [computeGaussLobottoPoints]. rewrite P1. cbn [exact fopp].
    split; [reflexivity|]. split; [reflexivity|]. split; [reflexivity|]. split; intros i Hi; [|lia].
    assert (i = 0%nat) by lia. subst. cbn [nth]. lra. }
  replace (S n - 1)%nat with n in * by lia.
  assert (Hint : exists ys, xs = -1 :: ys ++ [1] /\ length ys = S n /\
      (forall j, (j < S n)%nat -> -1 < nth j ys 0 < 1 /\ mon (alpha + 1) (beta + 1) (S n) (nth j ys 0) = 0) /\
      (forall j, (S j < S n)%nat -> nth j ys 0 < nth (S j) ys 0)).
  { subst xs. unfold computeGaussLobottoPoints. rewrite M1, P1. cbn [exact fadd]. replace (S (S n) - 2)%nat with n by lia.
    destruct n as [|n].
    - exists [(beta - alpha) / (alpha + beta + 4)]. split; [|split; [reflexivity|split]].
      + cbn [computeJacobiQuadWeights fst app]. rewrite !fofn_INR. cbn [exact fadd fdiv fsub fopp]. replace (INR 2) with 2 by (simpl; lra).
        do 2 f_equal. field. lra.
      + intros j Hj. assert (j = 0%nat) by lia. subst. cbn [nth].
        assert (Z0 : mon (alpha + 1) (beta + 1) 1 ((beta - alpha) / (alpha + beta + 4)) = 0) by (rewrite mon1; unfold bn; field; lra).
        split; [|exact Z0]. apply (mon_zero_inside 1 (alpha + 1) (beta + 1)); lra || exact Z0.
      + intros j Hj. lia.
    - specialize (HE ltac:(lia)). cbn [computeJacobiQuadWeights]. change (quad_matrix (Arith R Rplus Rminus Rmult Rdiv Ropp sqrt Rabs IZR Rltb Rleb Reqb Rpower G)) with (quad_matrix (exact G)).
      change J with (quad_matrix (exact G) eps (alpha + 1) (beta + 1) (S n)) in HE.
      destruct (eig (S (S n)) (quad_matrix (exact G) eps (alpha + 1) (beta + 1) (S n))) as [ys V]. cbn [fst snd] in *. exists ys.
      assert (Hf : alpha + 1 = beta + 1 \/ 10 * eps <= alpha + 1 + (beta + 1) /\ alpha + 1 + (beta + 1) <> 0) by (right; lra).
      split; [reflexivity|]. split; [apply HE|]. split.
      + intros j Hj. split.
        * apply (node_inside G (alpha + 1) (beta + 1) eps (S n) HG ltac:(lra) ltac:(lra) ltac:(lra) He Hf ys V HE). lia.
        * apply (jac_zero_mon G (alpha + 1) (beta + 1) eps); auto; try lra.
          apply (node_zero G (alpha + 1) (beta + 1) eps (S n) HG ltac:(lra) ltac:(lra) ltac:(lra) He Hf ys V HE). lia.
      + intros j Hj. apply (node_increasing G (alpha + 1) (beta + 1) eps (S n) HG ltac:(lra) ltac:(lra) ltac:(lra) He Hf ys V HE). lia. }
  destruct Hint as (ys & Ex & Ly & Hin & Hinc). rewrite Ex.
  assert (Nth : forall j, (j < S n)%nat -> nth (S j) (-1 :: ys ++ [1]) 0 = nth j ys 0) by (intros j Hj; cbn [nth]; apply app_nth1; lia).
  assert (Last : nth (S (S n)) (-1 :: ys ++ [1]) 0 = 1) by (cbn [nth]; rewrite app_nth2 by lia; replace (S n - length ys)%nat with 0%nat by lia; reflexivity).
  split; [cbn [length]; rewrite app_length; cbn; lia|]. split; [reflexivity|]. split; [exact Last|]. split.
  - intros i Hi. destruct i as [|i].
    + rewrite Nth by lia. cbn [nth]. apply Hin. lia.
    + rewrite (Nth i) by lia. destruct (Nat.eq_dec (S i) (S n)) as [Ei | Hne].
      * rewrite Ei, Last. apply Hin. lia.
      * rewrite Nth by lia. apply Hinc. lia.
  - intros i Hi. destruct i as [|i]; [lia|]. rewrite Nth by lia. rewrite grad_ok by assumption. cbn [map]. f_equal.
    unfold gjac, jac. rewrite (proj2 (Hin i ltac:(lia))). unfold Rdiv. ring.
Qed.
Example C60_witness : let J := quad_matrix (exact gwit) 0 (0 + 1) (0 + 1) 1 in
  exists xs V, eigen_solution 2 J xs V.
Proof. destruct (C59_witness (0 + 1) ltac:(lra) ltac:(lra)) as (t & _ & H). eauto. Qed.

Print Assumptions C31_gradient.
Print Assumptions C32_orthonormal.
Print Assumptions C59_gauss_exact.
Print Assumptions C60_gauss_lobatto.
