(* QuadVolProofs.v - integrals on the reference square from nodal values, for the balance of the shallow water rates on
   quadrilaterals: interpolatory weights of the nodes and of the edges, one degree beyond the order when the order is at least
   two (the nodes are those of Gauss and Lobatto), and the divergence theorem. *)
From Coq Require Import ZArith List Lia Bool Arith.
From Verif Require Import Base Loops Num BlitzModel JacobiModel JacobiSpec JacobiProofs JacobiOrthProofs JacobiQuadProofs JacobiExactProofs Nodes1DModel Nodes1DSpec Nodes1DExactProofs DenseSpec DenseModel QuadInterpProofs
  MeshSpec MeshGeoProofs TriModel TriSpec TriGeoSpec TriBasisProofs TriOpProofs TriProofs TriLiftProofs TriDGProofs TriFilterProofs QuadModel QuadSpec QuadSetup QuadBasisProofs QuadNodesProofs QuadOpProofs QuadElemProofs QuadGeoProofs QuadProps.
From Coq Require Import Reals Lra.
Import ListNotations.
Local Open Scope R_scope.

(* --- integrals of products and of derivatives over the square --- *)
Lemma qint_prod f g u v : integral_is f (-1) 1 u -> integral_is g (-1) 1 v -> square_integral (fun x y => f x * g y) (u * v).
Proof.
  intros Hf Hg. exists (fun y => g y * u). split.
  - intro y. eapply integral_ext; [|apply (integral_scal (g y) f); exact Hf]. intro x. apply Rmult_comm.
  - eapply integral_ext; [|eapply integral_val; [|apply (integral_scal u g); exact Hg]]; [intro y; apply Rmult_comm|reflexivity].
Qed.
Lemma pow_int n : exists v, integral_is (fun x => x ^ n) (-1) 1 v.
Proof. destruct (spoly_pow n) as (cs & _ & H). destruct (peval_integral cs (-1) 1) as (v & Hv). exists v. eapply integral_ext; [|exact Hv]. intro x. symmetry. apply H. Qed.
Lemma dpow_int n : integral_is (fun x => INR n * x ^ pred n) (-1) 1 (1 ^ n - (-1) ^ n).
Proof. exists (fun x => x ^ n). split; [intro x; apply derivable_pt_lim_pow|reflexivity]. Qed.
Lemma qint_poly p : exists v, square_integral (eval2 p) v.
Proof.
  induction p as [|[[i j] c] p (v & IH)]; [exists 0; apply qint_zero|]. destruct (pow_int i) as (a & Ha). destruct (pow_int j) as (b & Hb).
  exists (c * (a * b) + v). eapply qint_ext; [|apply qint_plus; [apply (qint_scal c), (qint_prod _ _ _ _ Ha Hb)|exact IH]]. intros x y. cbn [eval2]. ring.
Qed.
Lemma edge_int p f : exists v, integral_is (fun t => eval2 p (fst (square_edge f t)) (snd (square_edge f t))) (-1) 1 v.
Proof.
  destruct f as [|[|[|]]]; cbn [square_edge fst snd].
  - destruct (line_integral p 0 1 (-1) 0 (-1) 1) as (v & Hv). exists v. eapply integral_ext; [|exact Hv]. intro t. cbv beta. f_equal; ring.
  - destruct (line_integral p 1 0 0 1 (-1) 1) as (v & Hv). exists v. eapply integral_ext; [|exact Hv]. intro t. cbv beta. f_equal; ring.
  - destruct (line_integral p 0 1 1 0 (-1) 1) as (v & Hv). exists v. eapply integral_ext; [|exact Hv]. intro t. cbv beta. f_equal; ring.
  - destruct (line_integral p (-1) 0 0 1 (-1) 1) as (v & Hv). exists v. eapply integral_ext; [|exact Hv]. intro t. cbv beta. f_equal; ring.
Qed.
Lemma sq_div_r p v1 v3 : integral_is (fun t => eval2 p 1 t) (-1) 1 v1 -> integral_is (fun t => eval2 p (-1) t) (-1) 1 v3 -> square_integral (eval2 (ddr p)) (v1 - v3).
Proof.
  revert v1 v3. induction p as [|[[i j] c] p IH]; intros v1 v3 H1 H3.
  - cbn [eval2] in H1, H3. pose proof (integral_unique _ _ _ _ _ H1 (integral_zero (-1) 1)) as ->. pose proof (integral_unique _ _ _ _ _ H3 (integral_zero (-1) 1)) as ->. eapply qint_val; [|apply qint_zero]. ring.
  - destruct (edge_int p 1) as (a & Ha). destruct (edge_int p 3) as (b & Hb). cbn [square_edge fst snd] in Ha, Hb. destruct (pow_int j) as (u & Hu).
    assert (E1 : v1 = c * 1 ^ i * u + a). { eapply integral_unique; [exact H1|]. eapply integral_ext; [|apply integral_plus; [apply (integral_scal (c * 1 ^ i)); exact Hu|exact Ha]]. intro t. cbn [eval2]. ring. }
    assert (E3 : v3 = c * (-1) ^ i * u + b). { eapply integral_unique; [exact H3|]. eapply integral_ext; [|apply integral_plus; [apply (integral_scal (c * (-1) ^ i)); exact Hu|exact Hb]]. intro t. cbn [eval2]. ring. }
    eapply qint_ext; [|eapply qint_val; [|apply qint_plus; [apply (qint_scal c), (qint_prod _ _ _ _ (dpow_int i) Hu)|apply (IH a b Ha Hb)]]].
    + intros x y. cbn [eval2 ddr map fst snd]. fold (ddr p). ring.
    + rewrite E1, E3. ring.
Qed.
Lemma sq_div_s p v2 v0 : integral_is (fun t => eval2 p t 1) (-1) 1 v2 -> integral_is (fun t => eval2 p t (-1)) (-1) 1 v0 -> square_integral (eval2 (dds p)) (v2 - v0).
Proof.
  revert v2 v0. induction p as [|[[i j] c] p IH]; intros v2 v0 H1 H3.
  - cbn [eval2] in H1, H3. pose proof (integral_unique _ _ _ _ _ H1 (integral_zero (-1) 1)) as ->. pose proof (integral_unique _ _ _ _ _ H3 (integral_zero (-1) 1)) as ->. eapply qint_val; [|apply qint_zero]. ring.
  - destruct (edge_int p 2) as (a & Ha). destruct (edge_int p 0) as (b & Hb). cbn [square_edge fst snd] in Ha, Hb. destruct (pow_int i) as (u & Hu).
    assert (E1 : v2 = c * 1 ^ j * u + a). { eapply integral_unique; [exact H1|]. eapply integral_ext; [|apply integral_plus; [apply (integral_scal (c * 1 ^ j)); exact Hu|exact Ha]]. intro t. cbn [eval2]. ring. }
    assert (E3 : v0 = c * (-1) ^ j * u + b). { eapply integral_unique; [exact H3|]. eapply integral_ext; [|apply integral_plus; [apply (integral_scal (c * (-1) ^ j)); exact Hu|exact Hb]]. intro t. cbn [eval2]. ring. }
    eapply qint_ext; [|eapply qint_val; [|apply qint_plus; [apply (qint_scal c), (qint_prod _ _ _ _ Hu (dpow_int j))|apply (IH a b Ha Hb)]]].
    + intros x y. cbn [eval2 dds map fst snd]. fold (dds p). ring.
    + rewrite E1, E3. ring.
Qed.

(* polynomials with one factor more *)
Definition shift_r (p : poly2) : poly2 := map (fun t => (S (fst (fst t)), snd (fst t), snd t)) p.
Definition shift_s (p : poly2) : poly2 := map (fun t => (fst (fst t), S (snd (fst t)), snd t)) p.
Lemma shift_r_eval p x y : eval2 (shift_r p) x y = x * eval2 p x y.
Proof. induction p as [|[[i j] c] p IH]; cbn [shift_r map eval2 fst snd]; [ring|]. fold (shift_r p). rewrite IH. cbn [pow]. ring. Qed.
Lemma shift_s_eval p x y : eval2 (shift_s p) x y = y * eval2 p x y.
Proof. induction p as [|[[i j] c] p IH]; cbn [shift_s map eval2 fst snd]; [ring|]. fold (shift_s p). rewrite IH. cbn [pow]. ring. Qed.
Lemma tens_scal N c f : tens N f -> tens N (fun x y => c * f x y).
Proof. intros (p & D & Ef). exists (mono2 0 0 c p). split; [apply Forall_map; eapply Forall_impl; [|exact D]; cbn [fst snd]; intros; lia|]. intros. rewrite mono2_eval, Ef. cbn [pow]. ring. Qed.
Lemma tens_poly N p : tdegree N p -> tens N (eval2 p).
Proof. intro D. exists p. auto. Qed.
(* r dp/dr has the degree of p *)
Lemma r_ddr N p : tdegree N p -> tens N (fun x y => x * eval2 (ddr p) x y).
Proof.
  induction p as [|[[i j] c] p IH]; intro D.
  - eapply tens_ext; [|apply tens_zero]. intros. cbn. ring.
  - inversion D as [|? ? Hd D']; subst. cbn [fst snd] in Hd. destruct Hd as (Hi & Hj).
    eapply tens_ext; [|apply tens_plus; [apply (tens_mono N i j (INR i * c) Hi Hj)|apply (IH D')]]. intros x y. cbn [ddr map eval2 fst snd]. fold (ddr p). destruct i as [|i]; cbn [pred pow INR]; [ring|]. fold (INR (S i)). ring.
Qed.
Lemma s_dds N p : tdegree N p -> tens N (fun x y => y * eval2 (dds p) x y).
Proof.
  induction p as [|[[i j] c] p IH]; intro D.
  - eapply tens_ext; [|apply tens_zero]. intros. cbn. ring.
  - inversion D as [|? ? Hd D']; subst. cbn [fst snd] in Hd. destruct Hd as (Hi & Hj).
    eapply tens_ext; [|apply tens_plus; [apply (tens_mono N i j (INR j * c) Hi Hj)|apply (IH D')]]. intros x y. cbn [dds map eval2 fst snd]. fold (dds p). destruct j as [|j]; cbn [pred pow INR]; [ring|]. fold (INR (S j)). ring.
Qed.
(* the divergence theorem with coefficients linear in the other variable: the integral of (a + b r) dp/dr - (c + b s) dp/ds is
   that of p over the edges, times the coefficient there *)
Lemma sq_green a b c p v0 v1 v2 v3 : integral_is (fun t => eval2 p t (-1)) (-1) 1 v0 -> integral_is (fun t => eval2 p 1 t) (-1) 1 v1 ->
  integral_is (fun t => eval2 p t 1) (-1) 1 v2 -> integral_is (fun t => eval2 p (-1) t) (-1) 1 v3 ->
  square_integral (fun x y => (a + b * x) * eval2 (ddr p) x y - (c + b * y) * eval2 (dds p) x y) ((a + b) * v1 - (a - b) * v3 - (c + b) * v2 + (c - b) * v0).
Proof.
  intros H0 H1 H2 H3.
  set (u := mono2 0 0 a p ++ mono2 0 0 b (shift_r p)). set (w := mono2 0 0 c p ++ mono2 0 0 b (shift_s p)).
  assert (Eu : forall x y, eval2 u x y = (a + b * x) * eval2 p x y) by (intros; unfold u; rewrite eval2_app, !mono2_eval, shift_r_eval; cbn [pow]; ring).
  assert (Ew : forall x y, eval2 w x y = (c + b * y) * eval2 p x y) by (intros; unfold w; rewrite eval2_app, !mono2_eval, shift_s_eval; cbn [pow]; ring).
  assert (Du : forall x y, eval2 (ddr u) x y = b * eval2 p x y + (a + b * x) * eval2 (ddr p) x y).
  { intros x y. eapply uniqueness_limite; [apply ddr_ok|]. unfold dr_is. eapply dpl_ext; [intro t; symmetry; apply Eu|].
    apply (derivable_pt_lim_mult (fun t => a + b * t) (fun t => eval2 p t y)); [|apply ddr_ok]. eapply dpl_ext; [|apply (dpl_aff b a)]. intro t. cbv beta. ring. }
  assert (Dw : forall x y, eval2 (dds w) x y = b * eval2 p x y + (c + b * y) * eval2 (dds p) x y).
  { intros x y. eapply uniqueness_limite; [apply dds_ok|]. unfold ds_is. eapply dpl_ext; [intro t; symmetry; apply Ew|].
    apply (derivable_pt_lim_mult (fun t => c + b * t) (fun t => eval2 p x t)); [|apply dds_ok]. eapply dpl_ext; [|apply (dpl_aff b c)]. intro t. cbv beta. ring. }
  pose proof (sq_div_r u ((a + b) * v1) ((a - b) * v3)) as R1. pose proof (sq_div_s w ((c + b) * v2) ((c - b) * v0)) as R2.
  eapply qint_ext; [|eapply qint_val; [|apply qint_plus; [apply R1|apply (qint_scal (-1)), R2]]].
  - intros x y. cbv beta. rewrite Du, Dw. ring.
  - ring.
  - eapply integral_ext; [|apply (integral_scal (a + b)); exact H1]. intro t. cbv beta. rewrite Eu. ring.
  - eapply integral_ext; [|apply (integral_scal (a - b)); exact H3]. intro t. cbv beta. rewrite Eu. ring.
  - eapply integral_ext; [|apply (integral_scal (c + b)); exact H2]. intro t. cbv beta. rewrite Ew. ring.
  - eapply integral_ext; [|apply (integral_scal (c - b)); exact H0]. intro t. cbv beta. rewrite Ew. ring.
Qed.
Lemma jac_zero G a b k x : gamma_like G -> -1 < a -> -1 < b -> a + b <> -1 -> jac G a b k x = 0 -> mon a b k x = 0.
Proof.
  intros HG Ha Hb Hs. pose proof (nrm_pos G a b Ha Hb Hs HG k) as P0. unfold jac, Rdiv. intro H. apply Rmult_integral in H as [H|H]; [exact H|]. exfalso. apply (Rinv_neq_0_compat (nrm G a b k)); [lra|exact H].
Qed.

Section Weights.
Context (G : R -> R) (solve : mat R -> mat R -> mat R -> outcome (mat R)) (inverse : mat R -> mat R -> outcome (mat R))
  (junk : nat -> nat -> R) (eps : R) (eig : nat -> (nat -> nat -> R) -> list R * (nat -> nat -> R)) (tol : R)
  (N K : nat) (Vert : list R) (EToV : list nat) (el : element (T := R)).
Hypothesis HB : qbuilt G solve inverse junk eps eig tol N K Vert EToV el.
Local Notation n := (S N * S N)%nat.
Local Notation r := (e_r el). Local Notation s := (e_s el).
Local Notation Vi := (e_Vinv el).
Local Notation E := (exact G).
Local Notation k0 := (qb G N 0 0 0).

Lemma qb0 : (forall x y, qb G N 0 x y = k0) /\ k0 <> 0.
Proof.
  pose proof (qb_gamma _ _ _ _ _ _ _ _ _ _ _ _ HB) as HG.
  assert (H0 : forall x y, qb G N 0 x y = k0).
  { assert (C : forall x, jac G 0 0 0 x = jac G 0 0 0 0). { destruct (spoly_P G 0) as ([|c [|]] & L & Hc); cbn [length] in L; try lia; intro x; rewrite !Hc; cbn; ring. }
    intros x y. unfold qb. rewrite Nat.div_0_l, Nat.mod_0_l by lia. rewrite (C x), (C y). reflexivity. }
  split; [exact H0|]. intro Z. pose proof (qb_orth G HG N 0 0 ltac:(nia) ltac:(nia)) as O.
  assert (delta 0 0 = 0); [|unfold delta in *; cbn in *; lra]. eapply qint_unique; [exact O|]. eapply qint_ext; [|apply qint_zero]. intros x y. cbv beta. rewrite (H0 x y), Z. ring.
Qed.
Lemma qb_int c : (c < n)%nat -> square_integral (qb G N c) (/ k0 * delta 0 c).
Proof.
  intro Hc. destruct qb0 as (H0 & Hn). pose proof (qb_gamma _ _ _ _ _ _ _ _ _ _ _ _ HB) as HG.
  eapply qint_ext; [|exact (qint_scal (/ k0) _ _ (qb_orth G HG N 0 c ltac:(nia) Hc))]. intros x y. cbv beta. rewrite (H0 x y). field. exact Hn.
Qed.
(* the integral of a polynomial from its nodal values *)
Definition qw (i : nat) : R := / k0 * ment Vi 0 i.
Lemma qnodal_int p : tdegree N p -> square_integral (eval2 p) (sumn n (fun i => qw i * eval2 p (nth i r 0) (nth i s 0))).
Proof.
  intro Dp. destruct (qelement_ok _ _ _ _ _ _ _ _ _ _ _ _ HB) as [Hn masks edge_i SV SVi V HVi HVi' SL lift D x metric nrm].
  pose proof (qb_gamma _ _ _ _ _ _ _ _ _ _ _ _ HB) as HG. assert (Lm : (0 < n)%nat) by nia.
  destruct (qmodal_ex G HG N p Dp) as (c & Hc).
  assert (C0 : c 0%nat = sumn n (fun i => ment Vi 0 i * eval2 p (nth i r 0) (nth i s 0))).
  { rewrite (sumn_ext _ _ (fun i => sumn n (fun m => (ment Vi 0 i * ment (e_V el) i m) * c m))).
    2:{ intros i Hi. rewrite (Hc _ _), <- sumn_scal. apply sumn_ext. intros m Hm. rewrite V by auto. ring. }
    rewrite sumn_swap. rewrite (sumn_ext _ _ (fun m => delta 0 m * c m)); [symmetry; apply (sumn_delta _ 0 c); exact Lm|].
    intros m Hm. rewrite <- HVi by auto. rewrite Rmult_comm, <- sumn_scal. apply sumn_ext. intros. ring. }
  eapply qint_ext; [intros x0 y0; symmetry; apply (Hc x0 y0)|].
  replace (sumn n (fun i => qw i * eval2 p (nth i r 0) (nth i s 0))) with (sumn n (fun k => c k * (/ k0 * delta 0 k))).
  - apply qint_sum. intros k Hk. apply qint_scal, qb_int, Hk.
  - rewrite (sumn_ext _ _ (fun k => delta 0 k * (c k * / k0))) by (intros k Hk; ring).
    rewrite (sumn_delta _ 0 (fun k => c k * / k0) Lm), C0, Rmult_comm, <- sumn_scal. apply sumn_ext. intros i Hi. unfold qw. ring.
Qed.
Lemma qnodal_tens f : tens N f -> square_integral f (sumn n (fun i => qw i * f (nth i r 0) (nth i s 0))).
Proof.
  intros (p & D & Ef). eapply qint_ext; [intros; symmetry; apply Ef|]. rewrite (sumn_ext _ _ (fun i => qw i * eval2 p (nth i r 0) (nth i s 0))) by (intros; rewrite Ef; reflexivity). apply qnodal_int, D.
Qed.
Lemma qnodal_poly (v : nat -> R) : exists p, tdegree N p /\ forall i, (i < n)%nat -> eval2 p (nth i r 0) (nth i s 0) = v i.
Proof.
  destruct (qelement_ok _ _ _ _ _ _ _ _ _ _ _ _ HB) as [Hn masks edge_i SV SVi V HVi HVi' SL lift D x metric nrm].
  destruct (qcomb G N (fun c => sumn n (fun j => ment Vi c j * v j))) as (p & Dp & Hp). exists p. split; [exact Dp|]. intros i Hi. rewrite Hp.
  rewrite (sumn_ext n _ (fun c => sumn n (fun j => ment (e_V el) i c * ment Vi c j * v j))).
  2:{ intros c Hc. rewrite V by assumption. rewrite Rmult_comm, <- sumn_scal. apply sumn_ext. intros; ring. }
  rewrite (sumn_swap n n), (sumn_ext n _ (fun j => delta i j * v j)); [apply (sumn_delta n i v Hi)|]. intros j Hj. rewrite <- HVi' by assumption. rewrite (Rmult_comm (sumn _ _)), <- sumn_scal. apply sumn_ext. intros; ring.
Qed.

(* the points of Gauss and Lobatto along the sides *)
Record gpoints (g : nat -> R) : Prop := {
  gp_incr : forall i, (i < N)%nat -> g i < g (S i);
  gp_sym : forall i, (i <= N)%nat -> g (N - i)%nat = - g i;
  gp_first : g 0%nat = -1; gp_last : g N = 1;
  gp_node : forall i, (i < n)%nat -> nth i r 0 = g (i / S N)%nat /\ nth i s 0 = g (i mod S N)%nat;
  gp_low : (2 <= N)%nat -> exists lw, (length lw <= S N)%nat /\ (forall j, (j <= N)%nat -> g j ^ S N = peval lw (g j)) /\ exists v, integral_is (fun x => x ^ S N) (-1) 1 v /\ integral_is (peval lw) (-1) 1 v }.
Lemma gp_ex : exists g, gpoints g.
Proof.
  pose proof (qb_gamma _ _ _ _ _ _ _ _ _ _ _ _ HB) as HG.
  destruct (C43_nodes_masks _ _ _ _ _ _ _ _ _ _ _ _ HB) as (_ & _ & g & Lg & g0 & gN & gi & gz & Hsym & Hgr & _).
  exists (fun i => nth i g 0). constructor; [exact gi|exact Hsym|exact g0|exact gN| |].
  - intros i Hi. pose proof (Nat.div_mod i (S N) ltac:(lia)) as Di. pose proof (Nat.mod_upper_bound i (S N) ltac:(lia)). assert (i / S N < S N)%nat by (apply Nat.div_lt_upper_bound; lia).
    pose proof (Hgr (i / S N)%nat (i mod S N)%nat ltac:(lia) ltac:(lia)) as H1. cbv zeta in H1. replace (i / S N * (N + 1) + i mod S N)%nat with i in H1 by lia. injection H1 as H1 H2. auto.
  - intro H2. destruct N as [|M] eqn:EN; [lia|]. destruct (mon_poly 1 1 M) as (cs & Lc & Tc & Ec).
    destruct (exists_last (l := cs)) as (low & top & Elow); [intro; subst; cbn in Lc; lia|]. subst cs. rewrite app_length in Lc. cbn [length] in Lc. rewrite app_nth2 in Tc by lia. replace (M - length low)%nat with 0%nat in Tc by lia. cbn [nth] in Tc. subst top.
    assert (Eapp : forall x, peval (low ++ [1]) x = peval low x + x ^ M).
    { intro x. replace M with (length low) by lia. clear. induction low as [|a l IH]; cbn [app peval length pow]; [ring|rewrite IH; ring]. }
    assert (PL : forall p q : list R, length (padd p q) = max (length p) (length q)) by (induction p as [|x p IH]; intros [|y q]; cbn; try reflexivity; rewrite IH; reflexivity).
    set (lw := padd (low ++ [1]) (pscal (-1) (0 :: 0 :: low))). exists lw.
    assert (El : forall x, x ^ S (S M) - peval lw x = (x * x - 1) * mon 1 1 M x). { intro x. unfold lw. rewrite padd_eval, pscal_eval, Ec. cbn [peval]. rewrite Eapp. cbn [pow]. ring. }
    split; [unfold lw; rewrite PL, pscal_len, app_length; cbn [length]; lia|]. split.
    + intros j Hj. apply Rminus_diag_uniq. rewrite El.
      assert (Z : nth j g 0 * nth j g 0 - 1 = 0 \/ mon 1 1 M (nth j g 0) = 0).
      { destruct (Nat.eq_dec j 0) as [-> |J0]; [left; rewrite g0; ring|]. destruct (Nat.eq_dec j (S M)) as [-> |J1]; [left; rewrite gN; ring|]. right.
        specialize (gz j ltac:(lia)).
        assert (D0 : gjac G 0 0 (S M) (nth j g 0) = 0).
        { eapply uniqueness_limite; [apply (dP_ok G HG (S M) (nth j g 0))|]. eapply dpl_ext; [|exact gz]. intro t. cbv beta. rewrite compute_ok by (auto; lra). reflexivity. }
        cbn [gjac] in D0. rewrite !Rplus_0_l in D0. apply Rmult_integral in D0 as [D0|D0].
        - exfalso. apply sqrt_eq_0 in D0; pose proof (pos_INR M); rewrite S_INR in *; nra.
        - apply (jac_zero G); [exact HG|lra|lra|lra|exact D0]. }
      destruct Z as [-> | ->]; ring.
    + destruct (pow_int (S (S M))) as (v & Hv). exists v. split; [exact Hv|].
      assert (I0 : integral_is (fun x => (x * x - 1) * mon 1 1 M x) (-1) 1 0).
      { pose proof (orth G HG M 0 1 1) as O. replace (M =? 0)%nat with false in O by (symmetry; apply Nat.eqb_neq; lia). change (INR 1) with 1 in O.
        pose proof (nrm_pos G 1 1 ltac:(lra) ltac:(lra) ltac:(lra) HG M) as P1. pose proof (nrm_pos G 1 1 ltac:(lra) ltac:(lra) ltac:(lra) HG 0) as P2.
        assert (M0 : forall x, mon 1 1 0 x = 1) by (intro x; destruct (mon_poly 1 1 0) as ([|c [|]] & L & T & H); cbn in L; try lia; cbn in T; rewrite H; subst c; cbn; ring).
        eapply integral_ext; [|eapply integral_val; [|apply (integral_scal (- (nrm G 1 1 M * nrm G 1 1 0))); exact O]]; [|ring]. intro x. cbv beta. unfold jac, weight. rewrite M0. cbn [pow]. fold (mon 1 1 M x). field. lra. }
      eapply integral_ext; [|eapply integral_val; [|apply integral_plus; [exact Hv|apply (integral_scal (-1)); exact I0]]]; [|ring]. intro x. cbv beta. rewrite <- El. ring.
Qed.

(* --- with linear weight --- *)
Variable g : nat -> R.
Hypothesis HGp : gpoints g.
Local Notation lin a b c := (fun x y : R => a + b * x + c * y).
Lemma raise_r p : (2 <= N)%nat -> tdegree N p -> exists q, tdegree N q /\ (forall i, (i < n)%nat -> eval2 q (nth i r 0) (nth i s 0) = nth i r 0 * eval2 p (nth i r 0) (nth i s 0)) /\
  exists v, square_integral (fun x y => x * eval2 p x y) v /\ square_integral (eval2 q) v.
Proof.
  intros H2 D. destruct (gp_low g HGp H2) as (lw & Ll & Hl & vl & I1 & I2).
  induction p as [|[[i j] c] p IH].
  - exists []. split; [constructor|]. split; [intros; cbn; ring|]. exists 0. split; [|apply qint_zero]. eapply qint_ext; [|apply qint_zero]. intros. cbn. ring.
  - inversion D as [|? ? Hd D']; subst. cbn [fst snd] in Hd. destruct (IH D') as (q & Dq & Hq & v & J1 & J2).
    assert (C : exists q0 v0, tdegree N q0 /\ (forall m, (m < n)%nat -> eval2 q0 (nth m r 0) (nth m s 0) = c * nth m r 0 ^ S i * nth m s 0 ^ j) /\ square_integral (fun x y => c * x ^ S i * y ^ j) v0 /\ square_integral (eval2 q0) v0).
    { destruct (Nat.eq_dec i N) as [-> |Ni].
      - destruct (tens_prod N (peval lw) (fun y => c * y ^ j)) as (q0 & D0 & E0).
        + exists lw. auto.
        + destruct (spoly_pow j) as (cs & Lc & Hc). exists (pscal c cs). split; [rewrite pscal_len; lia|]. intro x. rewrite pscal_eval, Hc. reflexivity.
        + destruct (pow_int j) as (u & Hu). exists q0, (vl * (c * u)). split; [exact D0|]. split; [|split].
          * intros m Hm. rewrite <- E0. destruct (gp_node g HGp m Hm) as (-> & ->). rewrite <- Hl; [ring|]. assert (m / S N < S N)%nat by (apply Nat.div_lt_upper_bound; lia). lia.
          * eapply qint_ext; [|apply (qint_prod _ _ _ _ I1 (integral_scal c _ _ _ _ Hu))]. intros; cbv beta. ring.
          * eapply qint_ext; [|apply (qint_prod _ _ _ _ I2 (integral_scal c _ _ _ _ Hu))]. intros; cbv beta. rewrite <- E0. ring.
      - destruct (qint_poly [(S i, j, c)]) as (u & Hu). exists [(S i, j, c)], u. split; [constructor; [cbn; lia|constructor]|]. split; [intros; cbn [eval2]; ring|]. split; [|exact Hu]. eapply qint_ext; [|exact Hu]. intros. cbn [eval2]. ring. }
    destruct C as (q0 & v0 & D0 & E0 & I3 & I4). exists (q0 ++ q). split; [apply Forall_app; auto|]. split.
    + intros m Hm. rewrite eval2_app, E0, Hq by exact Hm. cbn [eval2 pow]. ring.
    + exists (v0 + v). split.
      * eapply qint_ext; [|apply qint_plus; [exact I3|exact J1]]. intros. cbn [eval2 pow]. ring.
      * eapply qint_ext; [|apply qint_plus; [exact I4|exact J2]]. intros. rewrite eval2_app. reflexivity.
Qed.
Lemma raise_s p : (2 <= N)%nat -> tdegree N p -> exists q, tdegree N q /\ (forall i, (i < n)%nat -> eval2 q (nth i r 0) (nth i s 0) = nth i s 0 * eval2 p (nth i r 0) (nth i s 0)) /\
  exists v, square_integral (fun x y => y * eval2 p x y) v /\ square_integral (eval2 q) v.
Proof.
  intros H2 D. destruct (gp_low g HGp H2) as (lw & Ll & Hl & vl & I1 & I2).
  induction p as [|[[i j] c] p IH].
  - exists []. split; [constructor|]. split; [intros; cbn; ring|]. exists 0. split; [|apply qint_zero]. eapply qint_ext; [|apply qint_zero]. intros. cbn. ring.
  - inversion D as [|? ? Hd D']; subst. cbn [fst snd] in Hd. destruct (IH D') as (q & Dq & Hq & v & J1 & J2).
    assert (C : exists q0 v0, tdegree N q0 /\ (forall m, (m < n)%nat -> eval2 q0 (nth m r 0) (nth m s 0) = c * nth m r 0 ^ i * nth m s 0 ^ S j) /\ square_integral (fun x y => c * x ^ i * y ^ S j) v0 /\ square_integral (eval2 q0) v0).
    { destruct (Nat.eq_dec j N) as [-> |Ni].
      - destruct (tens_prod N (fun y => c * y ^ i) (peval lw)) as (q0 & D0 & E0).
        + destruct (spoly_pow i) as (cs & Lc & Hc). exists (pscal c cs). split; [rewrite pscal_len; lia|]. intro x. rewrite pscal_eval, Hc. reflexivity.
        + exists lw. auto.
        + destruct (pow_int i) as (u & Hu). exists q0, (c * u * vl). split; [exact D0|]. split; [|split].
          * intros m Hm. rewrite <- E0. destruct (gp_node g HGp m Hm) as (-> & ->). rewrite <- Hl; [ring|]. pose proof (Nat.mod_upper_bound m (S N) ltac:(lia)). lia.
          * eapply qint_ext; [|apply (qint_prod _ _ _ _ (integral_scal c _ _ _ _ Hu) I1)]. intros; cbv beta. ring.
          * eapply qint_ext; [|apply (qint_prod _ _ _ _ (integral_scal c _ _ _ _ Hu) I2)]. intros; cbv beta. rewrite <- E0. ring.
      - destruct (qint_poly [(i, S j, c)]) as (u & Hu). exists [(i, S j, c)], u. split; [constructor; [cbn; lia|constructor]|]. split; [intros; cbn [eval2]; ring|]. split; [|exact Hu]. eapply qint_ext; [|exact Hu]. intros. cbn [eval2]. ring. }
    destruct C as (q0 & v0 & D0 & E0 & I3 & I4). exists (q0 ++ q). split; [apply Forall_app; auto|]. split.
    + intros m Hm. rewrite eval2_app, E0, Hq by exact Hm. cbn [eval2 pow]. ring.
    + exists (v0 + v). split.
      * eapply qint_ext; [|apply qint_plus; [exact I3|exact J1]]. intros. cbn [eval2 pow]. ring.
      * eapply qint_ext; [|apply qint_plus; [exact I4|exact J2]]. intros. rewrite eval2_app. reflexivity.
Qed.
Lemma lin_int a b c p : ((2 <= N)%nat \/ (b = 0 /\ c = 0)) -> tdegree N p ->
  square_integral (fun x y => lin a b c x y * eval2 p x y) (sumn n (fun i => qw i * (lin a b c (nth i r 0) (nth i s 0) * eval2 p (nth i r 0) (nth i s 0)))).
Proof.
  intros [H2|(-> & ->)] D.
  - destruct (raise_r p H2 D) as (q & Dq & Eq & v & I1 & I2). destruct (raise_s p H2 D) as (q' & Dq' & Eq' & v' & I1' & I2').
    pose proof (qint_unique _ _ _ (qnodal_int q Dq) I2) as V1. pose proof (qint_unique _ _ _ (qnodal_int q' Dq') I2') as V2.
    eapply qint_ext; [|eapply qint_val; [|apply qint_plus; [apply (qint_scal a), (qnodal_int p D)|apply qint_plus; [apply (qint_scal b), I1|apply (qint_scal c), I1']]]].
    + intros x y. cbv beta. ring.
    + rewrite <- V1, <- V2, <- !sumn_scal, <- !sumn_plus. apply sumn_ext. intros i Hi. rewrite Eq, Eq' by exact Hi. ring.
  - eapply qint_ext; [|eapply qint_val; [|apply (qint_scal a), (qnodal_int p D)]].
    + intros x y. cbv beta. ring.
    + rewrite <- sumn_scal. apply sumn_ext. intros. ring.
Qed.

(* --- the edges --- *)
Lemma gp_mono i j : (i < j)%nat -> (j <= N)%nat -> g i < g j.
Proof. intros Hi Hj. induction j as [|j IH]; [lia|]. pose proof (gp_incr g HGp j ltac:(lia)). destruct (Nat.eq_dec i j) as [-> |]; [assumption|]. specialize (IH ltac:(lia) ltac:(lia)). lra. Qed.
Lemma gp_interp (v : nat -> R) : exists cs, (length cs <= S N)%nat /\ forall j, (j <= N)%nat -> peval cs (g j) = v j.
Proof.
  destruct (newton (map g (seq 0 (S N)))) with (v := v) as (cs & L & H).
  - assert (HN : forall i j, (i <= N)%nat -> (j <= N)%nat -> g i = g j -> i = j). { intros i j Hi Hj Eg. destruct (Nat.lt_trichotomy i j) as [Lt|[|Lt]]; [|assumption|]; [pose proof (gp_mono i j Lt Hj)|pose proof (gp_mono j i Lt Hi)]; lra. }
    apply NoDup_nth_error. intros i j Hi Eij. rewrite map_length, seq_length in Hi. rewrite nth_error_map in Eij. rewrite nth_error_map in Eij.
    assert (Hj : (j < S N)%nat). { destruct (Nat.lt_ge_cases j (S N)) as [|Hge]; [assumption|]. rewrite (proj2 (nth_error_None (seq 0 (S N)) j)) in Eij by (rewrite seq_length; exact Hge). rewrite (nth_error_nth' (seq 0 (S N)) 0%nat) in Eij by (rewrite seq_length; exact Hi). discriminate Eij. }
    rewrite !(nth_error_nth' (seq 0 (S N)) 0%nat) in Eij by (rewrite seq_length; assumption). rewrite !seq_nth in Eij by assumption. cbn [option_map Nat.add] in Eij. apply HN; [lia|lia|congruence].
  - rewrite map_length, seq_length in *. exists cs. split; [exact L|]. intros j Hj. specialize (H j ltac:(lia)). rewrite (nth_indep _ 0 (g 0%nat)) in H by (rewrite map_length, seq_length; lia). rewrite map_nth, seq_nth in H by lia. exact H.
Qed.
Lemma mask_coord f j : (f < 4)%nat -> (j <= N)%nat -> nth_error (e_masks el) f = Some (map (qpos N f) (seq 0 (S N))) /\ nth j (map (qpos N f) (seq 0 (S N))) 0%nat = qpos N f j /\
  (nth (qpos N f j) r 0, nth (qpos N f j) s 0) = square_edge f (g j) /\ square_coord f (nth (qpos N f j) r 0) (nth (qpos N f j) s 0) = g j.
Proof.
  intros Hf Hj. destruct (qelement_ok _ _ _ _ _ _ _ _ _ _ _ _ HB) as [Hn masks edge_i SV SVi V HVi HVi' SL lift D x metric nrm]. rewrite masks. split; [do 4 (destruct f as [|f]; [reflexivity|]); lia|].
  split; [rewrite (nth_indep _ _ (qpos N f 0)) by (rewrite map_length, seq_length; lia); rewrite map_nth, seq_nth by lia; reflexivity|].
  destruct (gp_node g HGp (qpos N f j) (qpos_lt N f j Hj)) as (-> & ->). pose proof (qpos_dm N f j Hj) as Q. assert (Q1 := f_equal fst Q). assert (Q2 := f_equal snd Q). cbn [fst snd] in Q1, Q2. rewrite Q1, Q2.
  destruct f as [|[|[|[|]]]]; try lia; cbn [fst snd square_edge square_coord]; rewrite ?(gp_first g HGp), ?(gp_last g HGp); auto.
Qed.
Lemma lift_lin f a b c cs : (f < 4)%nat -> ((2 <= N)%nat \/ (b = 0 /\ c = 0)) -> (length cs <= S N)%nat ->
  integral_is (fun t => lin a b c (fst (square_edge f t)) (snd (square_edge f t)) * peval cs t) (-1) 1
    (sumn n (fun i => qw i * (lin a b c (nth i r 0) (nth i s 0) * sumn (S N) (fun j => ment (e_Lift el) i (f * S N + j) * peval cs (g j))))).
Proof.
  intros Hf Hl Lc. destruct (qelement_ok _ _ _ _ _ _ _ _ _ _ _ _ HB) as [Hn masks edge_i SV SVi V HVi HVi' SL lift D x metric nrm].
  pose proof (qb_order _ _ _ _ _ _ _ _ _ _ _ _ HB) as HN1.
  destruct (mask_coord f 0 Hf ltac:(lia)) as (Em & _). destruct (lift f _ cs Hf Em Lc) as (z & Dz & Hz & Hw).
  destruct (Hw [(0%nat, 0%nat, a); (1%nat, 0%nat, b); (0%nat, 1%nat, c)]) as (v & I1 & I2); [repeat constructor; cbn; lia|].
  assert (Ev : v = sumn n (fun i => qw i * (lin a b c (nth i r 0) (nth i s 0) * eval2 z (nth i r 0) (nth i s 0)))).
  { eapply qint_unique; [exact I1|]. eapply qint_ext; [|apply (lin_int a b c z Hl Dz)]. intros x0 y0. cbn [eval2 pow]. ring. }
  eapply integral_ext; [|eapply integral_val; [|exact I2]].
  - intro t. cbn [eval2 pow]. ring.
  - rewrite Ev. apply sumn_ext. intros i Hi. rewrite <- Hz by exact Hi. f_equal. f_equal. apply sumn_ext. intros j Hj. destruct (mask_coord f j Hf ltac:(lia)) as (_ & -> & _ & ->). reflexivity.
Qed.
Definition om (j : nat) : R := sumn n (fun i => qw i * ment (e_Lift el) i j).
Lemma om_int cs : (length cs <= S N)%nat -> integral_is (peval cs) (-1) 1 (sumn (S N) (fun j => om j * peval cs (g j))).
Proof.
  intro Lc. eapply integral_ext; [|eapply integral_val; [|apply (lift_lin 0 1 0 0 cs ltac:(lia) ltac:(right; auto) Lc)]].
  - intro t. cbv beta. ring.
  - unfold om. rewrite (sumn_ext n _ (fun i => sumn (S N) (fun j => qw i * ment (e_Lift el) i j * peval cs (g j)))).
    + rewrite (sumn_swap n (S N)). apply sumn_ext. intros j Hj. rewrite (Rmult_comm (sumn _ _)), <- sumn_scal. apply sumn_ext. intros; ring.
    + intros i Hi. rewrite <- !sumn_scal. apply sumn_ext. intros. cbn [Nat.mul Nat.add]. ring.
Qed.
Lemma om_sym j : (j <= N)%nat -> om (N - j) = om j.
Proof.
  intro Hj. destruct (gp_interp (fun i => delta j i)) as (cs & Lc & Hc).
  assert (A : sumn (S N) (fun i => om i * peval cs (g i)) = om j).
  { rewrite (sumn_ext _ _ (fun i => delta j i * om i)); [apply (sumn_delta (S N) j om); lia|]. intros i Hi. rewrite Hc by lia. ring. }
  assert (B : sumn (S N) (fun i => om i * peval (pneg cs) (g i)) = om (N - j)%nat).
  { rewrite (sumn_ext _ _ (fun i => delta (N - j) i * om i)); [apply (sumn_delta (S N) (N - j) om); lia|]. intros i Hi. rewrite pneg_eval, <- (gp_sym g HGp) by lia. rewrite Hc by lia. unfold delta. destruct (Nat.eqb_spec j (N - i)), (Nat.eqb_spec (N - j) i); try lia; ring. }
  rewrite <- A, <- B. eapply integral_unique; [apply om_int; rewrite pneg_len; exact Lc|]. eapply integral_ext; [|apply (integral_flip (peval cs)); apply om_int; exact Lc]. intro t. cbv beta. rewrite pneg_eval. reflexivity.
Qed.
Lemma om_lin a b cs : ((2 <= N)%nat \/ b = 0) -> (length cs <= S N)%nat -> integral_is (fun t => (a + b * t) * peval cs t) (-1) 1 (sumn (S N) (fun j => om j * ((a + b * g j) * peval cs (g j)))).
Proof.
  intros [H2| ->] Lc.
  - destruct (gp_low g HGp H2) as (lw & Ll & Hl & vl & I1 & I2).
    assert (X : exists ds, (length ds <= S N)%nat /\ (forall j, (j <= N)%nat -> peval ds (g j) = g j * peval cs (g j)) /\ exists v, integral_is (fun t => t * peval cs t) (-1) 1 v /\ integral_is (peval ds) (-1) 1 v).
    { destruct (Nat.eq_dec (length cs) (S N)) as [EL|NL].
      - destruct (exists_last (l := cs)) as (low & top & Elow); [intro; subst; cbn in EL; lia|]. subst cs. rewrite app_length in EL. cbn [length] in EL. assert (Lw : length low = N) by lia.
        assert (Eapp : forall x, peval (low ++ [top]) x = peval low x + top * x ^ N). { intro x. rewrite <- Lw. clear. induction low as [|a l IH]; cbn [app peval length pow]; [ring|rewrite IH; ring]. }
        exists (padd (0 :: low) (pscal top lw)). split; [|split].
        + rewrite padd_len, pscal_len. cbn [length]. lia.
        + intros j Hj. rewrite padd_eval, pscal_eval, <- Hl, Eapp by exact Hj. cbn [peval pow]. ring.
        + destruct (peval_integral (0 :: low) (-1) 1) as (u & Hu). exists (u + top * vl). split.
          * eapply integral_ext; [|apply integral_plus; [exact Hu|apply (integral_scal top); exact I1]]. intro t. cbn [peval]. rewrite Eapp. cbn [pow]. ring.
          * eapply integral_ext; [|apply integral_plus; [exact Hu|apply (integral_scal top); exact I2]]. intro t. rewrite padd_eval, pscal_eval. reflexivity.
      - exists (0 :: cs). split; [cbn [length]; lia|]. split; [intros; cbn [peval]; ring|]. destruct (peval_integral (0 :: cs) (-1) 1) as (u & Hu). exists u. split; [|exact Hu]. eapply integral_ext; [|exact Hu]. intro t. cbn [peval]. ring. }
    destruct X as (ds & Ld & Hd & v & J1 & J2). pose proof (integral_unique _ _ _ _ _ (om_int ds Ld) J2) as V.
    eapply integral_ext; [|eapply integral_val; [|apply integral_plus; [apply (integral_scal a); apply (om_int cs Lc)|apply (integral_scal b); exact J1]]].
    + intro t. cbv beta. ring.
    + rewrite <- V, <- !sumn_scal, <- sumn_plus. apply sumn_ext. intros j Hj. rewrite Hd by lia. ring.
  - eapply integral_ext; [|eapply integral_val; [|apply (integral_scal a); apply (om_int cs Lc)]].
    + intro t. cbv beta. ring.
    + rewrite <- sumn_scal. apply sumn_ext. intros. ring.
Qed.
(* the lifted data, scaled by a linear function there and integrated against it here, is the sum over the edge *)
Lemma lift_face f a b c phi : (f < 4)%nat -> ((2 <= N)%nat \/ (b = 0 /\ c = 0)) ->
  (forall j, (j <= N)%nat -> lin a b c (fst (square_edge f (g j))) (snd (square_edge f (g j))) <> 0) ->
  sumn n (fun i => qw i * (lin a b c (nth i r 0) (nth i s 0) * sumn (S N) (fun j => ment (e_Lift el) i (f * S N + j) * (phi j / lin a b c (fst (square_edge f (g j))) (snd (square_edge f (g j)))))))
  = sumn (S N) (fun j => om j * phi j).
Proof.
  intros Hf Hl Hne. destruct (gp_interp (fun j => phi j / lin a b c (fst (square_edge f (g j))) (snd (square_edge f (g j))))) as (cs & Lc & Hc). cbv beta in Hc, Hne.
  assert (X : exists al be, ((2 <= N)%nat \/ be = 0) /\ forall t, a + b * fst (square_edge f t) + c * snd (square_edge f t) = al + be * t).
  { destruct f as [|[|[|[|]]]]; try lia; cbn [square_edge fst snd]; [exists (a - c), b|exists (a + b), c|exists (a + c), b|exists (a - b), c]; (split; [destruct Hl as [|(-> & ->)]; auto|intro t; ring]). }
  destruct X as (al & be & Hbe & Hal).
  transitivity (sumn n (fun i => qw i * (lin a b c (nth i r 0) (nth i s 0) * sumn (S N) (fun j => ment (e_Lift el) i (f * S N + j) * peval cs (g j))))).
  - apply sumn_ext. intros i Hi. f_equal. f_equal. apply sumn_ext. intros j Hj. rewrite Hc by lia. reflexivity.
  - transitivity (sumn (S N) (fun j => om j * ((al + be * g j) * peval cs (g j)))).
    + eapply integral_unique; [apply (lift_lin f a b c cs Hf Hl Lc)|]. eapply integral_ext; [|apply (om_lin al be cs Hbe Lc)]. intro t. cbv beta. rewrite Hal. reflexivity.
    + apply sumn_ext. intros j Hj. rewrite Hc, <- Hal by lia. field. apply Hne. lia.
Qed.
Lemma edge_sum p f : (f < 4)%nat -> tdegree N p -> integral_is (fun t => eval2 p (fst (square_edge f t)) (snd (square_edge f t))) (-1) 1 (sumn (S N) (fun j => om j * eval2 p (nth (qpos N f j) r 0) (nth (qpos N f j) s 0))).
Proof.
  intros Hf D. assert (X : exists cs, (length cs <= S N)%nat /\ forall t, eval2 p (fst (square_edge f t)) (snd (square_edge f t)) = peval cs t).
  { induction p as [|[[i j] c] p IH]; [exists []; split; [cbn; lia|intro; reflexivity]|]. inversion D as [|? ? Hd D']; subst. cbn [fst snd] in Hd. destruct (IH D') as (cs & Lc & Hc).
    destruct (spoly_pow i) as (ci & Li & Ei). destruct (spoly_pow j) as (cj & Lj & Ej).
    destruct f as [|[|[|[|]]]]; try lia; cbn [square_edge fst snd] in *.
    - exists (padd (pscal (c * (-1) ^ j) ci) cs). split; [rewrite padd_len, pscal_len; lia|]. intro t. rewrite padd_eval, pscal_eval, <- Ei, <- Hc. cbn [eval2]. ring.
    - exists (padd (pscal (c * 1 ^ i) cj) cs). split; [rewrite padd_len, pscal_len; lia|]. intro t. rewrite padd_eval, pscal_eval, <- Ej, <- Hc. cbn [eval2]. ring.
    - exists (padd (pscal (c * 1 ^ j) ci) cs). split; [rewrite padd_len, pscal_len; lia|]. intro t. rewrite padd_eval, pscal_eval, <- Ei, <- Hc. cbn [eval2]. ring.
    - exists (padd (pscal (c * (-1) ^ i) cj) cs). split; [rewrite padd_len, pscal_len; lia|]. intro t. rewrite padd_eval, pscal_eval, <- Ej, <- Hc. cbn [eval2]. ring. }
  destruct X as (cs & Lc & Hc). eapply integral_ext; [|eapply integral_val; [|apply (om_int cs Lc)]].
  - intro t. symmetry. apply Hc.
  - apply sumn_ext. intros j Hj. destruct (mask_coord f j Hf ltac:(lia)) as (_ & _ & Em & _). f_equal. rewrite <- Hc, <- Em. reflexivity.
Qed.
End Weights.
