(* TriDGProofs.v - Green's formula for polynomials on the reference triangle and the discontinuous Galerkin balance
   of "flux divergence plus lifted face term" on a constructed triangle. *)
From Coq Require Import ZArith List Lia Bool Arith.
From Verif Require Import Base Loops Num JacobiModel JacobiSpec JacobiProofs JacobiOrthProofs JacobiQuadProofs JacobiExactProofs DenseSpec TriModel TriSpec TriGeoSpec TriBasisProofs TriProofs TriOpProofs TriLiftProofs
  TriGeoProofs TriNodesProofs TriElemProofs TriSetup TriProps TriDGSpec.
From Coq Require Import Reals Lra.
Import ListNotations.
Local Open Scope R_scope.

(* --- polynomials along lines --- *)
Lemma dpl_val f x v w : v = w -> derivable_pt_lim f x v -> derivable_pt_lim f x w.
Proof. intros ->; auto. Qed.
Lemma aff_pow a b n t : derivable_pt_lim (fun t => (a + b * t) ^ n) t (b * (INR n * (a + b * t) ^ pred n)).
Proof.
  eapply dpl_val; [|apply (derivable_pt_lim_comp (fun t => a + b * t) (fun u => u ^ n) t b)].
  - apply Rmult_comm.
  - eapply dpl_ext; [|apply (dpl_aff b a)]. intro u. cbv beta. ring.
  - apply derivable_pt_lim_pow.
Qed.
Lemma eval2_chain q a b c d t : derivable_pt_lim (fun t => eval2 q (a + b * t) (c + d * t)) t
  (b * eval2 (ddr q) (a + b * t) (c + d * t) + d * eval2 (dds q) (a + b * t) (c + d * t)).
Proof.
  induction q as [|[[i j] k] q IH]; cbn [eval2 ddr dds map fst snd].
  - eapply dpl_val; [|apply derivable_pt_lim_const]. ring.
  - eapply dpl_val; [|apply (derivable_pt_lim_plus (fun t => k * (a + b * t) ^ i * (c + d * t) ^ j) (fun t => eval2 q (a + b * t) (c + d * t))); [|exact IH]].
    2:{ apply (derivable_pt_lim_mult (fun t => k * (a + b * t) ^ i) (fun t => (c + d * t) ^ j)); [|apply aff_pow]. apply (derivable_pt_lim_scal (fun t => (a + b * t) ^ i)). apply aff_pow. }
    unfold ddr, dds. ring.
Qed.
Lemma integral_flip f v : integral_is f (-1) 1 v -> integral_is (fun t => f (- t)) (-1) 1 v.
Proof.
  intros (F & HF & Hv). exists (fun t => - F (- t)). split.
  - intro x. eapply dpl_val; [|apply derivable_pt_lim_opp; apply (derivable_pt_lim_comp Ropp F x (-1)); [|apply HF]].
    + ring.
    + eapply dpl_ext; [|apply (dpl_aff (-1) 0)]. intro u. cbv beta. ring.
  - replace (- -1) with 1 by ring. rewrite <- Hv. change (- (1)) with (-1). ring.
Qed.
Lemma integral_val f a b v w : v = w -> integral_is f a b v -> integral_is f a b w.
Proof. intros ->; auto. Qed.
Lemma peval_integral cs a b : exists v, integral_is (peval cs) a b v.
Proof.
  assert (H : exists F, forall x, derivable_pt_lim F x (peval cs x)).
  { assert (Hn : forall n, exists F, forall x, derivable_pt_lim F x (x ^ n * peval cs x)).
    { induction cs as [|c cs IH]; intro n; cbn [peval].
      - exists (fun _ => 0). intro x. eapply dpl_val; [|apply derivable_pt_lim_const]. ring.
      - destruct (IH (S n)) as (F & HF). exists (fun x => c / INR (S n) * x ^ S n + F x). intro x.
        eapply dpl_val; [|apply derivable_pt_lim_plus; [apply (derivable_pt_lim_scal (fun x => x ^ S n)); apply derivable_pt_lim_pow|apply HF]].
        cbn [pred]. rewrite <- (tech_pow_Rmult x n). field. apply not_0_INR. lia. }
    destruct (Hn O) as (F & HF). exists F. intro x. eapply dpl_val; [|apply HF]. cbn [pow]. ring. }
  destruct H as (F & HF). exists (F b - F a), F. auto.
Qed.
Lemma line_integral p a b c d x y : exists v, integral_is (fun t => eval2 p (a + b * t) (c + d * t)) x y v.
Proof.
  assert (H : exists N, degree2 N p).
  { induction p as [|[[i j] k] p (N & IH)]; [exists O; constructor|]. exists (i + j + N)%nat. constructor; [cbn; lia|]. eapply degree2_le; [|exact IH]. lia. }
  destruct H as (N & H). destruct (spoly_restrict N p a b c d H) as (cs & _ & Hc). destruct (peval_integral cs x y) as (v & Hv). exists v.
  eapply integral_ext; [|exact Hv]. intro t. symmetry. apply Hc.
Qed.

(* --- integrals over the reference triangle --- *)
Definition antir (p : poly2) : poly2 := map (fun t => (S (fst (fst t)), snd (fst t), snd t / INR (S (fst (fst t))))) p.
Lemma antir_r p x y : eval2 (ddr (antir p)) x y = eval2 p x y.
Proof.
  induction p as [|[[i j] c] p IH]; [reflexivity|]. unfold ddr, antir in *. cbn [map eval2 fst snd pred]. cbn [map eval2 fst snd pred] in IH. rewrite IH. f_equal. field. apply not_0_INR. lia.
Qed.
Lemma antir_rs p x y : eval2 (ddr (dds (antir p))) x y = eval2 (dds p) x y.
Proof.
  induction p as [|[[i j] c] p IH]; [reflexivity|]. unfold ddr, dds, antir in *. cbn [map eval2 fst snd pred]. cbn [map eval2 fst snd pred] in IH. rewrite IH. f_equal. field. apply not_0_INR. lia.
Qed.
Lemma tint_poly p : exists v, triangle_integral (eval2 p) v.
Proof.
  set (A := antir p).
  destruct (line_integral A 0 (-1) 0 1 (-1) 1) as (v1 & H1). destruct (line_integral A (-1) 0 0 1 (-1) 1) as (v2 & H2).
  exists (v1 + -1 * v2), (fun s => eval2 A (- s) s - eval2 A (-1) s). split.
  - intro s. exists (fun r => eval2 A r s). split; [|reflexivity]. intro r. eapply dpl_val; [|apply ddr_ok]. apply antir_r.
  - eapply integral_ext; [|apply (integral_plus _ _ _ _ _ _ H1 (integral_scal (-1) _ _ _ _ H2))]. 
    intro s. cbv beta. replace (0 + -1 * s) with (- s) by ring. replace (0 + 1 * s) with s by ring. replace (-1 + 0 * s) with (-1) by ring. ring.
Qed.

Lemma div_r p v1 v2 : integral_is (fun t => eval2 p t (- t)) (-1) 1 v1 -> integral_is (fun t => eval2 p (-1) t) (-1) 1 v2 ->
  triangle_integral (eval2 (ddr p)) (v1 - v2).
Proof.
  intros H1 H2. exists (fun s => eval2 p (- s) s - eval2 p (-1) s). split.
  - intro s. exists (fun r => eval2 p r s). split; [|reflexivity]. intro r. apply ddr_ok.
  - apply integral_flip in H1. replace (v1 - v2) with (v1 + -1 * v2) by ring. eapply integral_ext; [|apply (integral_plus _ _ _ _ _ _ H1 (integral_scal (-1) _ _ _ _ H2))].
    intro s. cbv beta. rewrite Ropp_involutive. ring.
Qed.
Lemma div_s p v1 v3 : integral_is (fun t => eval2 p t (- t)) (-1) 1 v1 -> integral_is (fun t => eval2 p t (-1)) (-1) 1 v3 ->
  triangle_integral (eval2 (dds p)) (v1 - v3).
Proof.
  intros H1 H3. set (A := antir p). exists (fun s => eval2 (dds A) (- s) s - eval2 (dds A) (-1) s). split.
  - intro s. exists (fun r => eval2 (dds A) r s). split; [|reflexivity]. intro r. eapply dpl_val; [|apply ddr_ok]. apply antir_rs.
  - apply integral_flip in H1. destruct H1 as (Q & HQ & EQ). 
    assert (E3 : v3 = eval2 A 1 (-1) - eval2 A (-1) (-1)).
    { apply (integral_unique _ _ _ _ _ H3). exists (fun t => eval2 A t (-1)). split; [|reflexivity]. intro r. eapply dpl_val; [|apply ddr_ok]. apply antir_r. }
    exists (fun s => eval2 A (0 + -1 * s) (0 + 1 * s) - eval2 A (-1 + 0 * s) (0 + 1 * s) + Q s). split.
    + intro s. eapply dpl_val; [|apply derivable_pt_lim_plus; [apply derivable_pt_lim_minus; apply eval2_chain|apply HQ]].
      cbv beta. unfold A. rewrite !antir_r. fold A. rewrite Ropp_involutive.
      replace (0 + -1 * s) with (- s) by ring. replace (0 + 1 * s) with s by ring. replace (-1 + 0 * s) with (-1) by ring. ring.
    + cbv beta. replace (0 + -1 * 1) with (-1) by ring. replace (0 + 1 * 1) with 1 by ring. replace (-1 + 0 * 1) with (-1) by ring.
      replace (0 + -1 * -1) with 1 by ring. replace (0 + 1 * -1) with (-1) by ring. replace (-1 + 0 * -1) with (-1) by ring. rewrite <- EQ, E3. ring.
Qed.
Lemma poly_times p w : exists q, (forall x y, eval2 q x y = eval2 p x y * eval2 w x y) /\
  (forall x y, eval2 (ddr q) x y = eval2 (ddr p) x y * eval2 w x y + eval2 p x y * eval2 (ddr w) x y) /\
  (forall x y, eval2 (dds q) x y = eval2 (dds p) x y * eval2 w x y + eval2 p x y * eval2 (dds w) x y).
Proof.
  assert (Hd : forall p : poly2, exists N, degree2 N p).
  { induction p0 as [|[[i j] k] p0 (N & IH)]; [exists O; constructor|]. exists (i + j + N)%nat. constructor; [cbn; lia|]. eapply degree2_le; [|exact IH]. lia. }
  destruct (Hd p) as (N & Dp), (Hd w) as (M & Dw).
  destruct (tpoly_mul N M (eval2 p) (eval2 w)) as (q & _ & Hq); [exists p; auto|exists w; auto|]. exists q. split; [intros; symmetry; apply Hq|]. split; intros x y.
  - eapply dr_unique; [apply ddr_ok|]. unfold dr_is. eapply dpl_ext; [|apply (derivable_pt_lim_mult (fun t => eval2 p t y) (fun t => eval2 w t y)); apply ddr_ok]. intro t. apply Hq.
  - eapply ds_unique; [apply dds_ok|]. unfold ds_is. eapply dpl_ext; [|apply (derivable_pt_lim_mult (fun t => eval2 p x t) (fun t => eval2 w x t)); apply dds_ok]. intro t. apply Hq.
Qed.
Lemma eval2_comb a p b q : exists z, forall x y, eval2 z x y = a * eval2 p x y + b * eval2 q x y.
Proof. exists (mono2 0 0 a p ++ mono2 0 0 b q). intros. rewrite eval2_app, !mono2_eval. cbn [pow]. ring. Qed.

(* Green's formula *)
Lemma green A B w i2 e0 e1 e2 :
  triangle_integral (fun x y => eval2 A x y * eval2 (ddr w) x y + eval2 B x y * eval2 (dds w) x y) i2 ->
  integral_is (fun t => eval2 B t (-1) * eval2 w t (-1)) (-1) 1 e0 ->
  integral_is (fun t => (eval2 A t (- t) + eval2 B t (- t)) * eval2 w t (- t)) (-1) 1 e1 ->
  integral_is (fun t => eval2 A (-1) t * eval2 w (-1) t) (-1) 1 e2 ->
  triangle_integral (fun x y => (eval2 (ddr A) x y + eval2 (dds B) x y) * eval2 w x y) (e1 - e2 - e0 - i2).
Proof.
  intros HI H0 H1 H2. destruct (poly_times A w) as (a & Ea & Er & _). destruct (poly_times B w) as (b & Eb & _ & Es).
  destruct (line_integral a 0 1 0 (-1) (-1) 1) as (va & Ha). destruct (line_integral b 0 1 0 (-1) (-1) 1) as (vb & Hb).
  assert (Ha' : integral_is (fun t => eval2 a t (- t)) (-1) 1 va) by (eapply integral_ext; [|exact Ha]; intro t; cbv beta; f_equal; ring).
  assert (Hb' : integral_is (fun t => eval2 b t (- t)) (-1) 1 vb) by (eapply integral_ext; [|exact Hb]; intro t; cbv beta; f_equal; ring).
  assert (E1 : e1 = va + vb).
  { apply (integral_unique _ _ _ _ _ H1). eapply integral_ext; [|apply (integral_plus _ _ _ _ _ _ Ha' Hb')]. intro t. cbv beta. rewrite Ea, Eb. ring. }
  pose proof (div_r a va e2 Ha') as Dr. pose proof (div_s b vb e0 Hb') as Ds.
  assert (X2 : integral_is (fun t => eval2 a (-1) t) (-1) 1 e2) by (eapply integral_ext; [|exact H2]; intro t; cbv beta; symmetry; apply Ea).
  assert (X0 : integral_is (fun t => eval2 b t (-1)) (-1) 1 e0) by (eapply integral_ext; [|exact H0]; intro t; cbv beta; symmetry; apply Eb).
  specialize (Dr X2). specialize (Ds X0). subst e1.
  replace (va + vb - e2 - e0 - i2) with (va - e2 + (vb - e0) + -1 * i2) by ring.
  eapply tint_ext; [|apply (tint_plus _ _ _ _ (tint_plus _ _ _ _ Dr Ds) (tint_scal (-1) _ _ HI))].
  intros x y. cbv beta. rewrite Er, Es. ring.
Qed.

(* --- interpolation on distinct points --- *)
Lemma newton l : NoDup l -> forall (v : nat -> R), exists cs, (length cs <= length l)%nat /\ forall i, (i < length l)%nat -> peval cs (nth i l 0) = v i.
Proof.
  induction l as [|a l IH]; intros Hn v; [exists []; split; [auto|cbn; lia]|]. inversion Hn as [|? ? Ha Hl]; subst.
  destruct (IH Hl (fun i => (v (S i) - v O) / (nth i l 0 - a))) as (ds & Ld & Hd).
  exists (padd [v O] (padd (0 :: ds) (pscal (- a) ds))). split.
  - rewrite !padd_len, pscal_len. cbn [length]. lia.
  - intros i Hi. rewrite !padd_eval, pscal_eval. cbn [peval]. destruct i as [|i]; cbn [nth].
    + ring.
    + cbn [length] in Hi. rewrite Hd by lia. field. intro E. apply Ha. replace a with (nth i l 0) by lra. apply nth_In. lia.
Qed.
Lemma sumn_rect n m (h : nat -> R) : sumn (n * m) h = sumn n (fun a => sumn m (fun b => h (a * m + b)%nat)).
Proof.
  induction n as [|n IH]; [reflexivity|]. rewrite sumn_S, <- IH. replace (S n * m)%nat with (n * m + m)%nat by lia.
  clear IH. induction m as [|m IH]; [rewrite Nat.add_0_r, sumn_0; ring|].
  revert IH. generalize (n * S m)%nat as u. intro u. revert u. clear. intros u _.
  induction m as [|m IH].
  - replace (u + 1)%nat with (S u) by lia. rewrite !sumn_S, sumn_0. rewrite Nat.add_0_r. ring.
  - replace (u + S (S m))%nat with (S (u + S m))%nat by lia. rewrite sumn_S, IH, (sumn_S (S m)). ring.
Qed.
Lemma comp_poly N p a0 a1 a2 b0 b1 b2 : degree2 N p -> tpoly N (fun x y => eval2 p (a0 + a1 * x + a2 * y) (b0 + b1 * x + b2 * y)).
Proof.
  intro D. assert (L : forall c0 c1 c2, tpoly 1 (fun x y => c0 + c1 * x + c2 * y)).
  { intros c0 c1 c2. apply tpoly_plus; [apply tpoly_plus|].
    - apply (tpoly_le 0); [lia|apply tpoly_const].
    - apply (tpoly_scal 1 c1 (fun x _ => x)), tpoly_r.
    - apply (tpoly_scal 1 c2 (fun _ y => y)), tpoly_s. }
  induction p as [|[[i j] k] p IH]; [exists []; split; [constructor|reflexivity]|]. inversion D as [|? ? Hd Dp]; subst. cbn [fst snd] in Hd.
  cbn [eval2]. apply tpoly_plus; [|exact (IH Dp)]. apply (tpoly_le (i * 1 + j * 1)); [lia|].
  eapply tpoly_ext; [|apply (tpoly_mul (i * 1) (j * 1) (fun x y => k * (a0 + a1 * x + a2 * y) ^ i) (fun x y => (b0 + b1 * x + b2 * y) ^ j))].
  - reflexivity.
  - apply (tpoly_scal _ k (fun x y => (a0 + a1 * x + a2 * y) ^ i)). apply (tpoly_pow 1 (fun x y => a0 + a1 * x + a2 * y)). apply L.
  - apply (tpoly_pow 1 (fun x y => b0 + b1 * x + b2 * y)). apply L.
Qed.

Fixpoint pneg (cs : list R) : list R := match cs with [] => [] | c :: cs => c :: pscal (-1) (pneg cs) end.
Lemma pneg_len cs : length (pneg cs) = length cs.
Proof. induction cs; cbn [pneg length]; [reflexivity|]. rewrite pscal_len. congruence. Qed.
Lemma pneg_eval cs x : peval (pneg cs) x = peval cs (- x).
Proof. induction cs as [|c cs IH]; cbn [pneg peval]; [reflexivity|]. rewrite pscal_eval, IH. ring. Qed.

Lemma pmul_ex p q : exists m, forall x, peval m x = peval p x * peval q x.
Proof.
  induction p as [|c p (m & Hm)]; [exists []; intro; cbn; ring|]. exists (padd (pscal c q) (0 :: m)). intro x.
  rewrite padd_eval, pscal_eval. cbn [peval]. rewrite Hm. ring.
Qed.

Section Element.
Variables (G : R -> R) (solve : mat R -> mat R -> mat R -> outcome (mat R)) (inverse : mat R -> mat R -> outcome (mat R))
  (junk : nat -> nat -> R) (eps : R) (eig : nat -> (nat -> nat -> R) -> list R * (nat -> nat -> R)) (tol : R)
  (N K : nat) (Vert : list R) (EToV : list nat) (el : element (T := R)).
Hypothesis HB : built G solve inverse junk eps eig tol N K Vert EToV el.
Local Notation r := (e_r el).
Local Notation s := (e_s el).
Local Notation P := (corner Vert EToV).
Local Notation n := (length (e_r el)).
Local Notation M := (e_metric el).

Lemma nodal_poly (v : nat -> R) : exists p, degree2 N p /\ forall i, (i < n)%nat -> eval2 p (nth i r 0) (nth i s 0) = v i.
Proof.
  destruct (element_ok _ _ _ _ _ _ _ _ _ _ _ _ HB) as [lr ls nodes masks edge_i pts SV SVi V Vi Vi' SL lift D x metric nrm]. destruct HB.
  destruct (comb_poly G b_gamma N (fun c => sumn (length (modes N)) (fun m => ment (e_Vinv el) c m * v m))) as (p & Dp & Hp). exists p. split; [exact Dp|].
  intros i Hi. rewrite lr in Hi. rewrite (Hp (nth i r 0) (nth i s 0)).
  rewrite (sumn_ext _ _ (fun c => sumn (length (modes N)) (fun m => ment (e_Vinv el) c m * v m) * ment (e_V el) i c)) by (intros c Hc; rewrite V by auto; reflexivity).
  rewrite (sumn_ext _ _ (fun c => sumn (length (modes N)) (fun m => ment (e_V el) i c * ment (e_Vinv el) c m * v m))) by (intros; rewrite Rmult_comm, <- sumn_scal; apply sumn_ext; intros; ring).
  rewrite sumn_swap. rewrite (sumn_ext _ _ (fun m => delta i m * v m)).
  - apply sumn_delta. exact Hi.
  - intros m Hm. rewrite <- Vi' by auto. rewrite Rmult_comm, <- sumn_scal. apply sumn_ext. intros. ring.
Qed.
Lemma nodal_dr p i : degree2 N p -> (i < n)%nat -> sumn n (fun m => ment (e_Dr el) i m * eval2 p (nth m r 0) (nth m s 0)) = eval2 (ddr p) (nth i r 0) (nth i s 0).
Proof. intros Dp Hi. destruct (C42_triangle _ _ _ _ _ _ _ _ _ _ _ _ HB) as (_ & _ & M1 & _). eapply dr_unique; [apply (M1 p i Dp Hi)|apply ddr_ok]. Qed.
Lemma nodal_ds p i : degree2 N p -> (i < n)%nat -> sumn n (fun m => ment (e_Ds el) i m * eval2 p (nth m r 0) (nth m s 0)) = eval2 (dds p) (nth i r 0) (nth i s 0).
Proof. intros Dp Hi. destruct (C42_triangle _ _ _ _ _ _ _ _ _ _ _ _ HB) as (_ & _ & _ & M2 & _). eapply ds_unique; [apply (M2 p i Dp Hi)|apply dds_ok]. Qed.

Definition fnode (f j : nat) : nat := nth j (nth f (e_masks el) []) 0%nat.
Lemma face_nodes : exists g, length g = S N /\ (forall i, (i < N)%nat -> nth i g 0 < nth (S i) g 0) /\ (forall i, (i <= N)%nat -> nth (N - i) g 0 = - nth i g 0) /\
  forall f j, (f < 3)%nat -> (j <= N)%nat -> (fnode f j < n)%nat /\
    (nth (fnode f j) r 0, nth (fnode f j) s 0) = match f with O => (nth j g 0, -1) | 1%nat => (- nth j g 0, nth j g 0) | _ => (-1, nth j g 0) end.
Proof.
  destruct (C67_edge_nodes _ _ _ _ _ _ _ _ _ _ _ _ HB) as (_ & _ & g & Lg & _ & _ & Hi & _ & Hs & _ & Hm). exists g. split; [exact Lg|]. split; [exact Hi|]. split; [exact Hs|].
  intros f j Hf Hj. destruct (Hm f Hf) as (mask & Em & Lm & Hin & Hq). unfold fnode. rewrite (nth_error_nth _ _ [] Em). split; [|apply Hq; exact Hj].
  apply Hin, nth_In. lia.
Qed.
Lemma edge_poly f (v : nat -> R) : (f < 3)%nat -> exists cs, (length cs <= S N)%nat /\
  forall j, (j <= N)%nat -> peval cs (edge_coord f (nth (fnode f j) r 0) (nth (fnode f j) s 0)) = v j.
Proof.
  intro Hf. destruct face_nodes as (g & Lg & Hi & Hs & Hn). set (l := map (fun j => edge_coord f (nth (fnode f j) r 0) (nth (fnode f j) s 0)) (seq 0 (S N))).
  assert (Hlt : forall i j, (i < j)%nat -> (j <= N)%nat -> nth i g 0 < nth j g 0).
  { intros i j Hij. induction j as [|j IH]; [lia|]. intro Hj. destruct (Nat.eq_dec i j) as [-> |]; [apply Hi; lia|]. eapply Rlt_trans; [apply IH; lia|apply Hi; lia]. }
  assert (Hg : forall i j, (i <= N)%nat -> (j <= N)%nat -> nth i g 0 = nth j g 0 -> i = j).
  { intros i j A1 A2 E. destruct (Nat.lt_trichotomy i j) as [X|[X|X]]; auto; apply Hlt in X; auto; lra. }
  assert (ND : NoDup l).
  { unfold l.
    assert (Hall : forall m lo, (lo + m <= S N)%nat -> NoDup (map (fun j => edge_coord f (nth (fnode f j) r 0) (nth (fnode f j) s 0)) (seq lo m))).
    { induction m as [|m IH]; intros lo Hm; cbn [seq map]; constructor; [|apply IH; lia]. rewrite in_map_iff. intros (j & E & Hj). apply in_seq in Hj.
      destruct (Hn f j Hf ltac:(lia)) as (_ & E1). destruct (Hn f lo Hf ltac:(lia)) as (_ & E2).
      assert (j = lo); [|lia]. apply Hg; [lia|lia|]. destruct f as [|[|[|]]]; [| | |lia]; injection E1 as X1 X2; injection E2 as X3 X4; cbn [edge_coord] in E; lra. }
    apply (Hall (S N) 0%nat). lia. }
  destruct (newton l ND v) as (cs & Lc & Hc). unfold l in Lc, Hc. rewrite map_length, seq_length in Lc, Hc. exists cs. split; [exact Lc|]. intros j Hj.
  specialize (Hc j ltac:(lia)). rewrite (map_seq_nth _ (S N) j) in Hc by lia. exact Hc.
Qed.

Variable k : nat.
Hypothesis Hk : (k < K)%nat.
Hypothesis Ha : 0 < area (P k 0) (P k 1) (P k 2).
Local Notation a := (P k 0).
Local Notation b := (P k 1).
Local Notation c := (P k 2).
Local Notation J := (area (P k 0) (P k 1) (P k 2) / 2).
Local Notation Xr := ((fst (P k 1) - fst (P k 0)) / 2).
Local Notation Xs := ((fst (P k 2) - fst (P k 0)) / 2).
Local Notation Yr := ((snd (P k 1) - snd (P k 0)) / 2).
Local Notation Ys := ((snd (P k 2) - snd (P k 0)) / 2).
Lemma J_eq : J = Xr * Ys - Xs * Yr.
Proof. unfold area, cross, pminus. cbn [fst snd]. field. Qed.

Lemma metric_k i : (i < n)%nat -> ment (g_rx M) i k = Ys / J /\ ment (g_ry M) i k = - Xs / J /\ ment (g_sx M) i k = - Yr / J /\ ment (g_sy M) i k = Xr / J.
Proof.
  intro Hi. destruct (element_ok _ _ _ _ _ _ _ _ _ _ _ _ HB) as [lr ls nodes masks edge_i pts SV SVi V Vi Vi' SL lift D x metric nrm].
  destruct D as (Vr & Vs & S1 & S2 & _ & _ & M1 & M2 & _). destruct x as (Sx & Sy & Hxy). destruct HB.
  destruct (metric_ok G N K Vert EToV r s b_order ltac:(congruence) (e_Dr el) (e_Ds el) (e_x el) (e_y el) ltac:(rewrite lr; exact S1) ltac:(rewrite lr; exact S2) M1 M2 ltac:(rewrite lr; exact Hxy) i k ltac:(lia) Hk) as (H1 & H2 & H3 & H4 & HJ & R1 & R2 & R3 & R4).
  rewrite metric. cbv zeta in R1, R2, R3, R4. rewrite R1, R2, R3, R4, HJ, H1, H2, H3, H4. auto.
Qed.
Lemma normal_k f j : (f < 3)%nat -> (j <= N)%nat -> let p := P k f in let q := P k ((f + 1) mod 3) in
  0 < side_length p q /\ ment (e_Fscale el) (f * S N + j) k = side_length p q / 2 / J /\
  side_length p q * ment (e_nx el) (f * S N + j) k = snd q - snd p /\ side_length p q * ment (e_ny el) (f * S N + j) k = - (fst q - fst p).
Proof.
  intros Hf Hj p q. destruct (element_ok _ _ _ _ _ _ _ _ _ _ _ _ HB) as [lr ls nodes masks edge_i pts SV SVi V Vi Vi' SL lift D x metric nrm].
  destruct nrm as (Sn1 & Sn2 & Sn3 & Hn).
  assert (Hc : 0 < cross (pminus q p) (pminus (P k ((f + 2) mod 3)) p)).
  { unfold p, q. pose proof Ha as Ha'. unfold area, cross, pminus in *. cbn [fst snd] in *. destruct f as [|[|[|]]]; [| | |lia]; change ((0 + 1) mod 3)%nat with 1%nat; change ((0 + 2) mod 3)%nat with 2%nat; change ((1 + 1) mod 3)%nat with 2%nat; change ((1 + 2) mod 3)%nat with 0%nat; change ((2 + 1) mod 3)%nat with 0%nat; change ((2 + 2) mod 3)%nat with 1%nat; lra. }
  destruct (Hn k f j Hk Hf ltac:(lia)) as (Nx & Ny & Fs). cbv zeta in Nx, Ny, Fs. fold p q in Nx, Ny, Fs.
  destruct (normal_ok p q (P k ((f + 2) mod 3)) ((snd q - snd p) / 2) (- ((fst q - fst p) / 2)) eq_refl eq_refl Hc) as (O & Ln & Lp).
  rewrite Nx, Ny, Fs, Ln. split; [exact Lp|]. split; [reflexivity|]. split; field; lra.
Qed.

(* the face term of face f, as a polynomial along its edge *)
Lemma face_term f p q cs : (f < 3)%nat -> degree2 N p -> degree2 N q -> (length cs <= S N)%nat ->
  exists z, degree2 N z /\
  (forall i, (i < n)%nat -> sumn (S N) (fun j => ment (e_Lift el) i (f * S N + j) * (ment (e_Fscale el) (f * S N + j) k *
     (ment (e_nx el) (f * S N + j) k * eval2 p (nth (fnode f j) r 0) (nth (fnode f j) s 0) + ment (e_ny el) (f * S N + j) k * eval2 q (nth (fnode f j) r 0) (nth (fnode f j) s 0) -
      peval cs (edge_coord f (nth (fnode f j) r 0) (nth (fnode f j) s 0))))) = eval2 z (nth i r 0) (nth i s 0)) /\
  forall w e v, degree2 N w ->
    let dx := (fst (P k ((f + 1) mod 3)) - fst (P k f)) / 2 in let dy := (snd (P k ((f + 1) mod 3)) - snd (P k f)) / 2 in
    integral_is (fun t => (dy * eval2 p (fst (edge f t)) (snd (edge f t)) - dx * eval2 q (fst (edge f t)) (snd (edge f t))) * eval2 w (fst (edge f t)) (snd (edge f t))) (-1) 1 e ->
    integral_is (fun t => peval cs t * eval2 w (fst (edge f t)) (snd (edge f t))) (-1) 1 v ->
    triangle_integral (fun x y => eval2 z x y * eval2 w x y) ((e - side_length (P k f) (P k ((f + 1) mod 3)) / 2 * v) / J).
Proof.
  intros Hf Dp Dq Lc. set (pf := P k f). set (qf := P k ((f + 1) mod 3)). 
  pose proof (fun j Hj => normal_k f j Hf Hj) as Hn. cbv zeta in Hn. fold pf qf in Hn. set (L := side_length pf qf) in *.
  destruct (Hn 0%nat ltac:(lia)) as (HL & _).
  set (dx := (fst qf - fst pf) / 2). set (dy := (snd qf - snd pf) / 2).
  assert (Sp : forall p, degree2 N p -> spoly N (fun t => eval2 p (fst (edge f t)) (snd (edge f t)))).
  { intros p0 D0. destruct f as [|[|[|]]]; [| | |lia]; cbn [edge fst snd].
    - eapply spoly_ext; [|apply (spoly_restrict N p0 0 1 (-1) 0 D0)]. intro t. cbv beta. f_equal; ring.
    - eapply spoly_ext; [|apply (spoly_restrict N p0 0 1 0 (-1) D0)]. intro t. cbv beta. f_equal; ring.
    - eapply spoly_ext; [|apply (spoly_restrict N p0 (-1) 0 0 1 D0)]. intro t. cbv beta. f_equal; ring. }
  assert (Hd : spoly N (fun t => / J * (dy * eval2 p (fst (edge f t)) (snd (edge f t)) + - dx * eval2 q (fst (edge f t)) (snd (edge f t)) + - (L / 2) * peval cs t))).
  { apply spoly_scal. apply spoly_plus; [apply spoly_plus; apply spoly_scal; apply Sp; assumption|]. apply spoly_scal. exists cs. auto. }
  destruct Hd as (ds & Ld & Hd).
  destruct (C67_edge_nodes _ _ _ _ _ _ _ _ _ _ _ _ HB) as (_ & _ & g & _ & _ & _ & _ & _ & _ & _ & Hm). destruct (Hm f Hf) as (mask & Em & Lm & Hin & _).
  destruct (C65_lift _ _ _ _ _ _ _ _ _ _ _ _ HB f mask ds Hf Em Ld) as (_ & z & Dz & Hz & Hw). exists z. split; [exact Dz|]. split.
  - intros i Hi. rewrite <- Hz by exact Hi. apply sumn_ext. intros j Hj. f_equal. unfold fnode. rewrite (nth_error_nth _ _ [] Em). set (m := nth j mask 0%nat).
    rewrite <- Hd. assert (Hmin : In m mask) by (apply nth_In; lia). apply Hin in Hmin as (_ & Hmin). rewrite <- Hmin. cbn [fst snd].
    destruct (Hn j ltac:(lia)) as (_ & -> & Hx & Hy). 
    replace (L / 2 / J * (ment (e_nx el) (f * S N + j) k * eval2 p (nth m r 0) (nth m s 0) + ment (e_ny el) (f * S N + j) k * eval2 q (nth m r 0) (nth m s 0) - peval cs (edge_coord f (nth m r 0) (nth m s 0))))
      with (/ J * ((L * ment (e_nx el) (f * S N + j) k) / 2 * eval2 p (nth m r 0) (nth m s 0) + (L * ment (e_ny el) (f * S N + j) k) / 2 * eval2 q (nth m r 0) (nth m s 0) + - (L / 2) * peval cs (edge_coord f (nth m r 0) (nth m s 0)))) by (field; lra).
    rewrite Hx, Hy. unfold dx, dy. field. lra.
  - intros w e v Dw dx' dy' He Hv. fold dx in dx'. fold dy in dy'. destruct (Hw w Dw) as (u & Hu & Hu'). 
    replace ((e - L / 2 * v) / J) with u; [exact Hu|]. apply (integral_unique _ _ _ _ _ Hu').
    replace ((e - L / 2 * v) / J) with (/ J * e + (- (L / 2) / J) * v) by (field; lra).
    eapply integral_ext; [|apply (integral_plus _ _ _ _ _ _ (integral_scal (/ J) _ _ _ _ He) (integral_scal (- (L / 2) / J) _ _ _ _ Hv))].
    intro t. cbv beta. rewrite <- Hd. subst dx' dy'. field. lra.
Qed.

(* the affine map and its inverse *)
Lemma image_lin x y : affine_image a b c x y = (fst a + Xr + Xs + Xr * x + Xs * y, snd a + Yr + Ys + Yr * x + Ys * y).
Proof. unfold affine_image. f_equal; field. Qed.
Lemma to_physical p : degree2 N p -> exists q, degree2 N q /\ forall x y, at_point q (affine_image a b c x y) = eval2 p x y.
Proof.
  intro Dp. destruct (comp_poly N p (- (Ys * (fst a + Xr + Xs) - Xs * (snd a + Yr + Ys)) / J) (Ys / J) (- Xs / J) (- (- Yr * (fst a + Xr + Xs) + Xr * (snd a + Yr + Ys)) / J) (- Yr / J) (Xr / J) Dp) as (q & Dq & Hq).
  exists q. split; [exact Dq|]. intros x y. unfold at_point. rewrite <- Hq, image_lin. cbn [fst snd]. pose proof Ha as Ha'. pose proof J_eq as EJ. 
  assert (HJ : area a b c <> 0) by lra. f_equal; (apply (Rmult_eq_reg_r J); [|lra]).
  - transitivity ((Xr * Ys - Xs * Yr) * x); [field; exact HJ|rewrite <- EJ; ring].
  - transitivity ((Xr * Ys - Xs * Yr) * y); [field; exact HJ|rewrite <- EJ; ring].
Qed.
Lemma to_reference W : degree2 N W -> exists w, degree2 N w /\ (forall x y, eval2 w x y = at_point W (affine_image a b c x y)) /\
  (forall x y, eval2 (ddr w) x y = Xr * at_point (ddr W) (affine_image a b c x y) + Yr * at_point (dds W) (affine_image a b c x y)) /\
  (forall x y, eval2 (dds w) x y = Xs * at_point (ddr W) (affine_image a b c x y) + Ys * at_point (dds W) (affine_image a b c x y)).
Proof.
  intro Dw. destruct (comp_poly N W (fst a + Xr + Xs) Xr Xs (snd a + Yr + Ys) Yr Ys Dw) as (w & Dw' & Hw).
  exists w. split; [exact Dw'|]. unfold at_point. split; [intros x y; rewrite <- Hw, image_lin; reflexivity|]. split; intros x y; rewrite image_lin; cbn [fst snd].
  - eapply dr_unique; [apply ddr_ok|]. unfold dr_is. eapply dpl_ext; [|eapply dpl_val; [|apply (eval2_chain W (fst a + Xr + Xs + Xs * y) Xr (snd a + Yr + Ys + Ys * y) Yr x)]].
    + intro t. cbv beta. rewrite <- Hw. f_equal; ring.
    + cbv beta. replace (fst a + Xr + Xs + Xs * y + Xr * x) with (fst a + Xr + Xs + Xr * x + Xs * y) by ring. replace (snd a + Yr + Ys + Ys * y + Yr * x) with (snd a + Yr + Ys + Yr * x + Ys * y) by ring. reflexivity.
  - eapply ds_unique; [apply dds_ok|]. unfold ds_is. eapply dpl_ext; [|eapply dpl_val; [|apply (eval2_chain W (fst a + Xr + Xs + Xr * x) Xs (snd a + Yr + Ys + Yr * x) Ys y)]].
    + intro t. cbv beta. rewrite <- Hw. reflexivity.
    + reflexivity.
Qed.
Lemma edge_image f t : (f < 3)%nat -> affine_image a b c (fst (edge f t)) (snd (edge f t)) = side_point (P k f) (P k ((f + 1) mod 3)) (match f with O => t | _ => - t end).
Proof.
  intro Hf. unfold affine_image, side_point. destruct f as [|[|[|]]]; [| | |lia]; cbn [edge fst snd Nat.add];
    change (1 mod 3)%nat with 1%nat; change (2 mod 3)%nat with 2%nat; change (3 mod 3)%nat with 0%nat; f_equal; field.
Qed.
Lemma side_inj f t u : (f < 3)%nat -> side_point (P k f) (P k ((f + 1) mod 3)) t = side_point (P k f) (P k ((f + 1) mod 3)) u -> t = u.
Proof.
  intros Hf E. destruct (normal_k f 0 Hf ltac:(lia)) as (HL & _). cbv zeta in HL. set (p := P k f) in *. set (q := P k ((f + 1) mod 3)) in *. unfold side_point in E. clearbody p q. pose proof (f_equal fst E) as E1. pose proof (f_equal snd E) as E2. cbn [fst snd] in E1, E2.
  unfold side_length, dot, pminus in HL. cbn [fst snd] in HL. assert (E1' : (t - u) * (fst q - fst p) = 0) by (transitivity (2 * ((fst p + (1 + t) / 2 * (fst q - fst p)) - (fst p + (1 + u) / 2 * (fst q - fst p)))); [field|rewrite E1; ring]). assert (E2' : (t - u) * (snd q - snd p) = 0) by (transitivity (2 * ((snd p + (1 + t) / 2 * (snd q - snd p)) - (snd p + (1 + u) / 2 * (snd q - snd p)))); [field|rewrite E2; ring]).
  destruct (Req_dec (t - u) 0) as [|Hne]; [lra|]. exfalso. apply Rmult_integral in E1' as [|E1']; [contradiction|]. apply Rmult_integral in E2' as [|E2']; [contradiction|]. rewrite E1', E2' in HL. rewrite Rmult_0_l, Rplus_0_l, sqrt_0 in HL. lra.
Qed.

Lemma dg_element (Fv Gv phi Rv : nat -> R) :
  (forall i, (i < n)%nat -> Rv i =
     - (ment (g_rx M) i k * sumn n (fun m => ment (e_Dr el) i m * Fv m) + ment (g_sx M) i k * sumn n (fun m => ment (e_Ds el) i m * Fv m)) +
     - (ment (g_ry M) i k * sumn n (fun m => ment (e_Dr el) i m * Gv m) + ment (g_sy M) i k * sumn n (fun m => ment (e_Ds el) i m * Gv m)) +
     sumn (3 * S N) (fun j => ment (e_Lift el) i j * (ment (e_Fscale el) j k *
       (ment (e_nx el) j k * Fv (fnode (j / S N) (j mod S N)) + ment (e_ny el) j k * Gv (fnode (j / S N) (j mod S N)) - phi j)))) ->
  exists Z Fp Gp S0 S1 S2, degree2 N Z /\ degree2 N Fp /\ degree2 N Gp /\ (length S0 <= S N)%nat /\ (length S1 <= S N)%nat /\ (length S2 <= S N)%nat /\
    (forall i, (i < n)%nat -> let pt := (ment (e_x el) i k, ment (e_y el) i k) in at_point Z pt = Rv i /\ at_point Fp pt = Fv i /\ at_point Gp pt = Gv i) /\
    (forall f j t, (f < 3)%nat -> (j <= N)%nat -> (ment (e_x el) (fnode f j) k, ment (e_y el) (fnode f j) k) = side_point (P k f) (P k ((f + 1) mod 3)) t ->
       peval (nth f [S0; S1; S2] []) t = phi (f * S N + j)%nat) /\
    dg_balance N a b c Z Fp Gp S0 S1 S2.
Proof.
  intro HR. destruct (nodal_poly Fv) as (p & Dp & Hp). destruct (nodal_poly Gv) as (q & Dq & Hq).
  destruct (edge_poly 0 (fun j => phi (0 * S N + j)%nat) ltac:(lia)) as (c0 & L0 & C0). destruct (edge_poly 1 (fun j => phi (1 * S N + j)%nat) ltac:(lia)) as (c1 & L1 & C1). destruct (edge_poly 2 (fun j => phi (2 * S N + j)%nat) ltac:(lia)) as (c2 & L2 & C2).
  destruct (face_term 0 p q c0 ltac:(lia) Dp Dq L0) as (z0 & Dz0 & Hz0 & Hw0). destruct (face_term 1 p q c1 ltac:(lia) Dp Dq L1) as (z1 & Dz1 & Hz1 & Hw1). destruct (face_term 2 p q c2 ltac:(lia) Dp Dq L2) as (z2 & Dz2 & Hz2 & Hw2).
  assert (HJ : J <> 0) by lra.
  set (A := mono2 0 0 Ys p ++ mono2 0 0 (- Xs) q). set (B := mono2 0 0 (- Yr) p ++ mono2 0 0 Xr q).
  assert (EA : forall x y, eval2 A x y = Ys * eval2 p x y - Xs * eval2 q x y) by (intros; unfold A; rewrite eval2_app, !mono2_eval; cbn [pow]; ring).
  assert (EB : forall x y, eval2 B x y = - Yr * eval2 p x y + Xr * eval2 q x y) by (intros; unfold B; rewrite eval2_app, !mono2_eval; cbn [pow]; ring).
  assert (EAr : forall x y, eval2 (ddr A) x y = Ys * eval2 (ddr p) x y - Xs * eval2 (ddr q) x y).
  { intros x y. eapply dr_unique; [apply ddr_ok|]. unfold dr_is. eapply dpl_ext; [|apply (derivable_pt_lim_minus (fun t => Ys * eval2 p t y) (fun t => Xs * eval2 q t y)); [apply (derivable_pt_lim_scal (fun t => eval2 p t y))|apply (derivable_pt_lim_scal (fun t => eval2 q t y))]; apply ddr_ok]. intro t. cbv beta. symmetry. apply EA. }
  assert (EBs : forall x y, eval2 (dds B) x y = - Yr * eval2 (dds p) x y + Xr * eval2 (dds q) x y).
  { intros x y. eapply ds_unique; [apply dds_ok|]. unfold ds_is. eapply dpl_ext; [|apply (derivable_pt_lim_plus (fun t => - Yr * eval2 p x t) (fun t => Xr * eval2 q x t)); [apply (derivable_pt_lim_scal (fun t => eval2 p x t))|apply (derivable_pt_lim_scal (fun t => eval2 q x t))]; apply dds_ok]. intro t. cbv beta. symmetry. apply EB. }
  set (z := mono2 0 0 (- / J) (ddr A) ++ mono2 0 0 (- / J) (dds B) ++ z0 ++ z1 ++ z2).
  assert (DA : degree2 N A) by (apply Forall_app; split; [apply (mono2_deg 0 0 _ _ N Dp)|apply (mono2_deg 0 0 _ _ N Dq)]).
  assert (DB : degree2 N B) by (apply Forall_app; split; [apply (mono2_deg 0 0 _ _ N Dp)|apply (mono2_deg 0 0 _ _ N Dq)]).
  assert (Dz : degree2 N z). { repeat (apply Forall_app; split); auto; [apply (mono2_deg 0 0 _ _ N (ddr_deg N A DA))|apply (mono2_deg 0 0 _ _ N (dds_deg N B DB))]. }
  assert (Ez : forall x y, eval2 z x y = - / J * (eval2 (ddr A) x y + eval2 (dds B) x y) + eval2 z0 x y + eval2 z1 x y + eval2 z2 x y).
  { intros. unfold z. rewrite !eval2_app, !mono2_eval. cbn [pow]. ring. }
  assert (Hz : forall i, (i < n)%nat -> eval2 z (nth i r 0) (nth i s 0) = Rv i).
  { intros i Hi. rewrite Ez, HR, <- Hz0, <- Hz1, <- Hz2 by exact Hi. rewrite sumn_rect. rewrite (sumn_S 2), (sumn_S 1), (sumn_S 0), sumn_0. cbv beta.
    assert (Hs : forall (D : mat R) (V : nat -> R) (u : poly2), (forall m, (m < n)%nat -> eval2 u (nth m r 0) (nth m s 0) = V m) -> sumn n (fun m => ment D i m * V m) = sumn n (fun m => ment D i m * eval2 u (nth m r 0) (nth m s 0))) by (intros D V u Hu; apply sumn_ext; intros m Hm; rewrite Hu by exact Hm; reflexivity).
    rewrite !(Hs _ Fv p Hp), !(Hs _ Gv q Hq), !nodal_dr, !nodal_ds by auto. destruct (metric_k i Hi) as (-> & -> & -> & ->). rewrite EAr, EBs.
    assert (Hfc : forall f cf, (f < 3)%nat -> (forall j, (j <= N)%nat -> peval cf (edge_coord f (nth (fnode f j) r 0) (nth (fnode f j) s 0)) = phi (f * S N + j)%nat) ->
      sumn (S N) (fun j => ment (e_Lift el) i (f * S N + j) * (ment (e_Fscale el) (f * S N + j) k * (ment (e_nx el) (f * S N + j) k * Fv (fnode ((f * S N + j) / S N) ((f * S N + j) mod S N)) + ment (e_ny el) (f * S N + j) k * Gv (fnode ((f * S N + j) / S N) ((f * S N + j) mod S N)) - phi (f * S N + j)%nat))) =
      sumn (S N) (fun j => ment (e_Lift el) i (f * S N + j) * (ment (e_Fscale el) (f * S N + j) k * (ment (e_nx el) (f * S N + j) k * eval2 p (nth (fnode f j) r 0) (nth (fnode f j) s 0) + ment (e_ny el) (f * S N + j) k * eval2 q (nth (fnode f j) r 0) (nth (fnode f j) s 0) - peval cf (edge_coord f (nth (fnode f j) r 0) (nth (fnode f j) s 0)))))).
    { intros f cf Hf Hcf. apply sumn_ext. intros j Hj. replace ((f * S N + j) / S N)%nat with f by (rewrite Nat.add_comm, Nat.div_add, Nat.div_small by lia; reflexivity).
      replace ((f * S N + j) mod S N)%nat with j by (rewrite Nat.add_comm, Nat.mod_add, Nat.mod_small by lia; reflexivity).
      destruct face_nodes as (g & _ & _ & _ & Hn). destruct (Hn f j Hf ltac:(lia)) as (Hlt & _). rewrite Hp, Hq, Hcf by (auto; lia). reflexivity. }
    rewrite (Hfc 0%nat c0 ltac:(lia) C0), (Hfc 1%nat c1 ltac:(lia) C1), (Hfc 2%nat c2 ltac:(lia) C2). field. lra. }
  destruct (to_physical z Dz) as (Z & DZ & HZ). destruct (to_physical p Dp) as (Fp & DF & HF). destruct (to_physical q Dq) as (Gp & DG & HGp).
  exists Z, Fp, Gp, c0, (pneg c1), (pneg c2). rewrite !pneg_len.
  split; [exact DZ|]. split; [exact DF|]. split; [exact DG|]. split; [exact L0|]. split; [exact L1|]. split; [exact L2|].
  assert (Hxy : forall i, (i < n)%nat -> (ment (e_x el) i k, ment (e_y el) i k) = affine_image a b c (nth i r 0) (nth i s 0)).
  { intros i Hi. destruct (C36_affine_grid _ _ _ _ _ _ _ _ _ _ _ _ HB) as (_ & _ & Hx). apply (Hx i k Hi Hk). }
  split; [|split].
  - intros i Hi pt. unfold pt. rewrite Hxy, HZ, HF, HGp, Hz, Hp, Hq by exact Hi. auto.
  - intros f j t Hf Hj E. destruct face_nodes as (g & _ & _ & _ & Hn). destruct (Hn f j Hf Hj) as (Hlt & Enode). rewrite Hxy in E by exact Hlt.
    assert (Eedge : (nth (fnode f j) r 0, nth (fnode f j) s 0) = edge f (edge_coord f (nth (fnode f j) r 0) (nth (fnode f j) s 0))).
    { destruct f as [|[|[|]]]; [| | |lia]; cbn [edge] in Enode; injection Enode as En1 En2; rewrite En1, En2; cbn; f_equal; ring. }
    assert (Ef : affine_image a b c (nth (fnode f j) r 0) (nth (fnode f j) s 0) = affine_image a b c (fst (edge f (edge_coord f (nth (fnode f j) r 0) (nth (fnode f j) s 0)))) (snd (edge f (edge_coord f (nth (fnode f j) r 0) (nth (fnode f j) s 0))))) by (rewrite <- Eedge; reflexivity).
    rewrite Ef, edge_image in E by exact Hf. apply side_inj in E; [|exact Hf].
    destruct f as [|[|[|]]]; [| | |lia]; cbn [nth]; rewrite <- E.
    + apply C0. exact Hj.
    + rewrite pneg_eval, Ropp_involutive. apply C1. exact Hj.
    + rewrite pneg_eval, Ropp_involutive. apply C2. exact Hj.
  - intros W Wx Wy DW HWx HWy.
    assert (EWx : forall x y, Wx x y = eval2 (ddr W) x y) by (intros; eapply dr_unique; [apply HWx|apply ddr_ok]).
    assert (EWy : forall x y, Wy x y = eval2 (dds W) x y) by (intros; eapply ds_unique; [apply HWy|apply dds_ok]).
    destruct (to_reference W DW) as (w & Dw & Ew & Ewr & Ews).
    destruct (poly_times p w) as (pw & Epw & _). destruct (poly_times q w) as (qw & Eqw & _).
    destruct (poly_times A (ddr w)) as (ta & Eta & _). destruct (poly_times B (dds w)) as (tb & Etb & _). destruct (tint_poly (ta ++ tb)) as (i2 & Hi2).
    assert (Hi2' : triangle_integral (fun x y => eval2 A x y * eval2 (ddr w) x y + eval2 B x y * eval2 (dds w) x y) i2) by (eapply tint_ext; [|exact Hi2]; intros; rewrite eval2_app, Eta, Etb; reflexivity).
    destruct (poly_times B w) as (bw & Ebw & _). destruct (poly_times A w) as (aw & Eaw & _).
    destruct (line_integral bw 0 1 (-1) 0 (-1) 1) as (e0 & H0). destruct (line_integral (aw ++ bw) 0 1 0 (-1) (-1) 1) as (e1 & H1). destruct (line_integral aw (-1) 0 0 1 (-1) 1) as (e2 & H2).
    assert (H0' : integral_is (fun t => eval2 B t (-1) * eval2 w t (-1)) (-1) 1 e0) by (eapply integral_ext; [|exact H0]; intro t; cbv beta; rewrite Ebw; replace (0 + 1 * t) with t by ring; replace (-1 + 0 * t) with (-1) by ring; reflexivity).
    assert (H1' : integral_is (fun t => (eval2 A t (- t) + eval2 B t (- t)) * eval2 w t (- t)) (-1) 1 e1) by (eapply integral_ext; [|exact H1]; intro t; cbv beta; rewrite eval2_app, Ebw, Eaw; replace (0 + 1 * t) with t by ring; replace (0 + -1 * t) with (- t) by ring; ring).
    assert (H2' : integral_is (fun t => eval2 A (-1) t * eval2 w (-1) t) (-1) 1 e2) by (eapply integral_ext; [|exact H2]; intro t; cbv beta; rewrite Eaw; replace (0 + 1 * t) with t by ring; replace (-1 + 0 * t) with (-1) by ring; reflexivity).
    pose proof (green A B w i2 e0 e1 e2 Hi2' H0' H1' H2') as HG.
    assert (Sp : forall f cs, (f < 3)%nat -> exists v, integral_is (fun t => peval cs t * eval2 w (fst (edge f t)) (snd (edge f t))) (-1) 1 v).
    { intros f cs Hf. assert (Hs : exists ws, forall t, eval2 w (fst (edge f t)) (snd (edge f t)) = peval ws t).
      { destruct f as [|[|[|]]]; [| | |lia]; cbn [edge fst snd].
        - destruct (spoly_restrict N w 0 1 (-1) 0 Dw) as (ws & _ & Hws). exists ws. intro t. rewrite <- Hws. f_equal; ring.
        - destruct (spoly_restrict N w 0 1 0 (-1) Dw) as (ws & _ & Hws). exists ws. intro t. rewrite <- Hws. f_equal; ring.
        - destruct (spoly_restrict N w (-1) 0 0 1 Dw) as (ws & _ & Hws). exists ws. intro t. rewrite <- Hws. f_equal; ring. }
      destruct Hs as (ws & Hws). destruct (pmul_ex cs ws) as (ms & Hms). destruct (peval_integral ms (-1) 1) as (v & Hv). exists v. eapply integral_ext; [|exact Hv]. intro t. cbv beta. rewrite Hws. apply Hms. }
    destruct (Sp 0%nat c0 ltac:(lia)) as (s0 & HS0). destruct (Sp 1%nat c1 ltac:(lia)) as (s1 & HS1). destruct (Sp 2%nat c2 ltac:(lia)) as (s2 & HS2).
    specialize (Hw0 w (- e0) s0 Dw). specialize (Hw1 w e1 s1 Dw). specialize (Hw2 w (- e2) s2 Dw). cbv zeta in Hw0, Hw1, Hw2.
    change ((0 + 1) mod 3)%nat with 1%nat in *. change ((1 + 1) mod 3)%nat with 2%nat in *. change ((2 + 1) mod 3)%nat with 0%nat in *. cbn [edge fst snd] in Hw0, Hw1, Hw2, HS0, HS1, HS2.
    assert (T0 : triangle_integral (fun x y => eval2 z0 x y * eval2 w x y) ((- e0 - side_length a b / 2 * s0) / J)).
    { apply Hw0; [|exact HS0]. replace (- e0) with (-1 * e0) by ring. eapply integral_ext; [|apply (integral_scal (-1) _ _ _ _ H0')]. intro t. cbv beta. rewrite EB. field. }
    assert (T1 : triangle_integral (fun x y => eval2 z1 x y * eval2 w x y) ((e1 - side_length b c / 2 * s1) / J)).
    { apply Hw1; [|exact HS1]. eapply integral_ext; [|exact H1']. intro t. cbv beta. rewrite EA, EB. field. }
    assert (T2 : triangle_integral (fun x y => eval2 z2 x y * eval2 w x y) ((- e2 - side_length c a / 2 * s2) / J)).
    { apply Hw2; [|exact HS2]. replace (- e2) with (-1 * e2) by ring. eapply integral_ext; [|apply (integral_scal (-1) _ _ _ _ H2')]. intro t. cbv beta. rewrite EA. field. }
    exists (i2 - (side_length a b / 2 * s0 + side_length b c / 2 * s1 + side_length c a / 2 * s2)), i2, (side_length a b / 2 * s0), (side_length b c / 2 * s1), (side_length c a / 2 * s2).
    split; [|split; [|split; [|split; [|split]]]]; [| | | | |reflexivity].
    + exists ((i2 - (side_length a b / 2 * s0 + side_length b c / 2 * s1 + side_length c a / 2 * s2)) / J). split; [|field; lra].
      eapply tint_ext; [|eapply tint_val; [|apply (tint_plus _ _ _ _ (tint_plus _ _ _ _ (tint_plus _ _ _ _ (tint_scal (- / J) _ _ HG) T0) T1) T2)]].
      * intros x y. cbv beta. unfold pulled. change (eval2 Z (fst (affine_image a b c x y)) (snd (affine_image a b c x y))) with (at_point Z (affine_image a b c x y)).
        change (eval2 W (fst (affine_image a b c x y)) (snd (affine_image a b c x y))) with (at_point W (affine_image a b c x y)). rewrite HZ, <- Ew, Ez. ring.
      * field. lra.
    + exists (/ J * i2). split; [|field; lra]. eapply tint_ext; [|apply (tint_scal (/ J) _ _ Hi2')]. intros x y. cbv beta. unfold pulled. rewrite EWx, EWy.
      change (eval2 Fp (fst (affine_image a b c x y)) (snd (affine_image a b c x y))) with (at_point Fp (affine_image a b c x y)). change (eval2 Gp (fst (affine_image a b c x y)) (snd (affine_image a b c x y))) with (at_point Gp (affine_image a b c x y)).
      rewrite HF, HGp, EA, EB, Ewr, Ews. unfold at_point.
      set (wx := eval2 (ddr W) _ _). set (wy := eval2 (dds W) _ _).
      transitivity (/ J * ((Xr * Ys - Xs * Yr) * (eval2 p x y * wx + eval2 q x y * wy))); [field; lra|]. rewrite <- J_eq. field. lra.
    + exists s0. split; [|reflexivity]. eapply integral_ext; [|exact HS0]. intro t. cbv beta. rewrite Ew. f_equal. f_equal. exact (edge_image 0 t ltac:(lia)).
    + exists s1. split; [|reflexivity]. eapply integral_ext; [|apply integral_flip; exact HS1]. intro t. cbv beta. rewrite pneg_eval, Ew. f_equal. f_equal. 
      etransitivity; [exact (edge_image 1 (- t) ltac:(lia))|]. cbn iota. rewrite Ropp_involutive. reflexivity.
    + exists s2. split; [|reflexivity]. eapply integral_ext; [|apply integral_flip; exact HS2]. intro t. cbv beta. rewrite pneg_eval, Ew. f_equal. f_equal. 
      etransitivity; [exact (edge_image 2 (- t) ltac:(lia))|]. cbn iota. rewrite Ropp_involutive. reflexivity.
Qed.
End Element.
