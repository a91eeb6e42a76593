(* TraceProofs.v - rotations of the reference triangle and the trace inequality: the integral of the square of a polynomial
   along an edge is bounded by its integral over the triangle. *)
From Coq Require Import ZArith List Lia Bool Arith.
From Verif Require Import Base Loops Num JacobiModel JacobiSpec JacobiProofs JacobiOrthProofs JacobiQuadProofs JacobiExactProofs Nodes1DModel Nodes1DSpec Nodes1DExactProofs
  GmresMath TriModel TriSpec TriBasisProofs TriProofs TriOpProofs TriLiftProofs TriDGProofs.
From Coq Require Import Reals Lra.
Import ListNotations.
Local Open Scope R_scope.

(* ---------- integrals of one variable ---------- *)
Lemma integral_le f g a b v w : a <= b -> (forall x, a <= x <= b -> f x <= g x) -> integral_is f a b v -> integral_is g a b w -> v <= w.
Proof.
  intros Hab H (F & HF & <-) (D & HD & <-). destruct (Rle_lt_or_eq_dec a b Hab) as [Hlt|<-]; [|lra].
  destruct (MVT_cor2 (fun x => D x - F x) (fun x => g x - f x) a b Hlt) as (c & Hc & Hin).
  { intros c Hc. apply derivable_pt_lim_minus; [apply HD|apply HF]. }
  cbv beta in Hc. pose proof (H c ltac:(lra)) as Hfg. assert (0 <= (g c - f c) * (b - a)) by (apply Rmult_le_pos; lra). lra.
Qed.
Lemma integral_split f a b c v w : integral_is f a b v -> integral_is f b c w -> integral_is f a c (v + w).
Proof.
  intros (F & HF & <-) (D & HD & <-). exists F. split; [exact HF|].
  assert (E : integral_is f b c (F c - F b)) by (exists F; split; [exact HF|reflexivity]). assert (E' : integral_is f b c (D c - D b)) by (exists D; split; [exact HD|reflexivity]).
  rewrite (integral_unique _ _ _ _ _ E' E). ring.
Qed.
(* substitution x = p + q t *)
Lemma integral_subst f p q a b v : integral_is f (p + q * a) (p + q * b) v -> integral_is (fun t => q * f (p + q * t)) a b v.
Proof.
  intros (F & HF & <-). exists (fun t => F (p + q * t)). split; [|reflexivity]. intro t.
  replace (q * f (p + q * t)) with (f (p + q * t) * q) by ring. apply (derivable_pt_lim_comp (fun t => p + q * t) F); [|apply HF].
  assert (H : derivable_pt_lim (fun t => p + q * t) t (0 + q * 1)) by (apply (derivable_pt_lim_plus (fun _ => p) (fun t => q * t)); [apply derivable_pt_lim_const|]; apply (derivable_pt_lim_scal (fun t => t)); apply derivable_pt_lim_id).
  replace (0 + q * 1) with q in H by ring. exact H.
Qed.

(* ---------- Cauchy-Schwarz for finite sums ---------- *)
Lemma cauchy n (a b : nat -> R) : sumn n (fun k => a k * b k) * sumn n (fun k => a k * b k) <= sumn n (fun k => a k * a k) * sumn n (fun k => b k * b k).
Proof.
  set (A := sumn n (fun k => a k * a k)). set (B := sumn n (fun k => b k * b k)). set (C := sumn n (fun k => a k * b k)).
  assert (HB : 0 <= B) by (apply sumn_nonneg; intros; apply Rle_0_sqr).
  destruct (Rle_lt_or_eq_dec 0 B HB) as [Hlt|E].
  - assert (H : 0 <= sumn n (fun k => (B * a k - C * b k) * (B * a k - C * b k))) by (apply sumn_nonneg; intros; apply Rle_0_sqr).
    rewrite (sumn_ext n _ (fun k => B * B * (a k * a k) + (- 2 * B * C * (a k * b k) + C * C * (b k * b k)))) in H by (intros; ring).
    rewrite !sumn_plus, !sumn_scal in H. fold A B C in H. assert (H' : 0 <= B * (A * B - C * C)) by lra.
    apply (Rmult_le_compat_l (/ B)) in H'; [|left; apply Rinv_0_lt_compat; exact Hlt]. rewrite Rmult_0_r, <- Rmult_assoc, Rinv_l in H' by lra. lra.
  - assert (Z : C = 0). { apply sumn_zero. intros k Hk. pose proof (sumn_nonneg_0 n _ (fun k _ => Rle_0_sqr (b k)) (eq_sym E) k Hk) as Hz. apply Rsqr_0_uniq in Hz. rewrite Hz. ring. }
    rewrite Z, <- E. lra.
Qed.

(* ---------- a polynomial at an end point ---------- *)
Lemma sum_odd M : sumn (S M) (fun k => (2 * INR k + 1) / 2) = (INR M + 1) * (INR M + 1) / 2.
Proof. induction M as [|M IH]; [rewrite sumn_S, sumn_0; cbn; field|]. rewrite sumn_S, IH, S_INR. field. Qed.
Lemma end_bound1 M f e : spoly M f -> integral_is (fun x => f x * f x) (-1) 1 e -> f 1 * f 1 <= (INR M + 1) * (INR M + 1) / 2 * e.
Proof.
  intros Hf He. destruct (modal1 gwit gwit_ok M f Hf) as (c & Hc). pose proof (parseval1 gwit gwit_ok M f f c c Hc Hc) as Hp.
  rewrite (integral_unique _ _ _ _ _ He Hp). rewrite (Hc 1).
  assert (E : forall k, jac gwit 0 0 k 1 * jac gwit 0 0 k 1 = (2 * INR k + 1) / 2).
  { intro k. rewrite (proj1 (leg2 gwit gwit_ok k 1)), (proj1 (legendre_at_1 k)). unfold sg. rewrite Rmult_1_r. apply sqrt_sqrt. pose proof (pos_INR k). lra. }
  eapply Rle_trans; [apply (cauchy (S M) c (fun k => jac gwit 0 0 k 1))|]. cbv beta. rewrite (sumn_ext (S M) (fun k => jac gwit 0 0 k 1 * jac gwit 0 0 k 1) (fun k => (2 * INR k + 1) / 2)) by (intros; apply E).
  rewrite sum_odd. right. ring.
Qed.
Lemma spoly_aff M f a b : spoly M f -> spoly M (fun t => f (a + b * t)).
Proof.
  intros (cs & L & H). destruct (spoly_restrict M (map (fun k => (k, 0%nat, nth k cs 0)) (seq 0 (length cs))) a b 0 0) as (ds & Ld & Hd).
  - apply Forall_map. apply Forall_forall. intros k Hk. apply in_seq in Hk. cbn. lia.
  - exists ds. split; [exact Ld|]. intro t. rewrite <- Hd, H. generalize (a + b * t) as x. intro x. clear.
    assert (E : forall n, eval2 (map (fun k => (k, 0%nat, nth (k - n) cs 0)) (seq n (length cs))) x (0 + 0 * t) = x ^ n * peval cs x).
    { induction cs as [|c cs IH]; intro n; cbn [length seq map eval2 peval]; [ring|]. rewrite Nat.sub_diag. cbn [nth].
      rewrite (map_ext_in _ (fun k => (k, 0%nat, nth (k - S n) cs 0))). - rewrite IH. cbn [pow]. ring.
      - intros k Hk. apply in_seq in Hk. replace (k - n)%nat with (S (k - S n)) by lia. reflexivity. }
    specialize (E 0%nat). cbn [pow] in E. rewrite Rmult_1_l in E. rewrite <- E. f_equal. apply map_ext. intro k. now rewrite Nat.sub_0_r.
Qed.
Lemma spoly_sq M f : spoly M f -> forall a b, exists v, integral_is (fun x => f x * f x) a b v.
Proof.
  intros (cs & L & H) a b. destruct (tpoly_mul (length cs) (length cs) (fun x _ => peval cs x) (fun x _ => peval cs x)) as (q & _ & Hq).
  1, 2: apply (tpoly_le (length cs * 1)); [lia|]; apply (tpoly_peval 1 (fun r _ => r)); [apply tpoly_r|lia].
  destruct (line_integral q 0 1 0 0 a b) as (v & Hv). exists v. eapply integral_ext; [|exact Hv]. intro x. cbv beta. rewrite <- Hq, !H. replace (0 + 1 * x) with x by ring. reflexivity.
Qed.
(* with the weight 1-s that vanishes at the other end *)
Lemma end_bound M f e : spoly M f -> integral_is (fun s => (1 - s) * (f s * f s)) (-1) 1 e -> f (-1) * f (-1) <= (INR M + 1) * (INR M + 1) * e.
Proof.
  intros Hf He. destruct (spoly_sq M f Hf (-1) 0) as (h & Hh).
  assert (E : integral_is (fun s => f ((s - 1) / 2) * f ((s - 1) / 2)) (-1) 1 (2 * h)).
  { apply (integral_ext (fun t => 2 * (/ 2 * (f (- / 2 + / 2 * t) * f (- / 2 + / 2 * t))))); [intro t; replace ((t - 1) / 2) with (- / 2 + / 2 * t) by field; field|].
    apply (integral_scal 2). apply (integral_subst (fun x => f x * f x)). replace (- / 2 + / 2 * -1) with (-1) by field. replace (- / 2 + / 2 * 1) with 0 by field. exact Hh. }
  assert (B : f (-1) * f (-1) <= (INR M + 1) * (INR M + 1) / 2 * (2 * h)).
  { pose proof (end_bound1 M (fun t => f (- / 2 + - / 2 * t)) (2 * h) (spoly_aff M f _ _ Hf)) as X. cbv beta in X. replace (- / 2 + - / 2 * 1) with (-1) in X by field. apply X.
    eapply integral_ext; [|exact (integral_flip _ _ E)]. intro t. cbv beta. replace ((- t - 1) / 2) with (- / 2 + - / 2 * t) by field. reflexivity. }
  assert (D : h <= e).
  { assert (Hx : exists v, integral_is (fun s => (1 - s) * (f s * f s)) (-1) 0 v /\ exists w, integral_is (fun s => (1 - s) * (f s * f s)) 0 1 w).
    { destruct He as (F & HF & _). exists (F 0 - F (-1)). split; [exists F; split; [exact HF|reflexivity]|]. exists (F 1 - F 0). exists F. split; [exact HF|reflexivity]. }
    destruct Hx as (v & Hv & w & Hw). pose proof (integral_unique _ _ _ _ _ He (integral_split _ _ _ _ _ _ Hv Hw)) as ->.
    assert (h <= v). { apply (integral_le _ _ (-1) 0 h v ltac:(lra)) with (2 := Hh) (3 := Hv). intros x Hx. pose proof (Rle_0_sqr (f x)) as S0. unfold Rsqr in S0. assert (0 <= - x * (f x * f x)) by (apply Rmult_le_pos; lra). lra. }
    assert (0 <= w). { apply (integral_le (fun _ => 0) _ 0 1 0 w ltac:(lra)) with (3 := Hw); [|apply integral_zero]. intros x Hx. apply Rmult_le_pos; [lra|apply Rle_0_sqr]. }
    lra. }
  pose proof (Rle_0_sqr (INR M + 1)) as S1. unfold Rsqr in S1. assert ((INR M + 1) * (INR M + 1) * h <= (INR M + 1) * (INR M + 1) * e) by (apply Rmult_le_compat_l; assumption). lra.
Qed.

(* ---------- rotations ---------- *)
Definition prim (p : poly2) : poly2 := map (fun t => (S (fst (fst t)), snd (fst t), snd t / INR (S (fst (fst t))))) p.
Lemma prim_ok p r s : eval2 (ddr (prim p)) r s = eval2 p r s.
Proof.
  induction p as [|[[i j] c] p IH]; [reflexivity|]. cbn [prim map ddr fst snd eval2] in *. unfold ddr, prim in IH. rewrite IH. cbn [pred].
  replace (INR (S i) * (c / INR (S i))) with c; [reflexivity|]. field. apply not_0_INR. discriminate.
Qed.
Lemma rotate p v : triangle_integral (eval2 p) v -> triangle_integral (fun r s => eval2 p (-1 - r - s) r) v.
Proof.
  intro Hv. set (F := prim p).
  destruct (line_integral F 0 1 0 (-1) (-1) 1) as (va & Ha). destruct (line_integral F (-1) 0 0 1 (-1) 1) as (vb & Hb).
  assert (Ha' : integral_is (fun t => eval2 F t (- t)) (-1) 1 va) by (eapply integral_ext; [|exact Ha]; intro t; cbv beta; f_equal; ring).
  assert (Hb' : integral_is (fun t => eval2 F (-1) t) (-1) 1 vb) by (eapply integral_ext; [|exact Hb]; intro t; cbv beta; f_equal; ring).
  assert (E : v = va - vb). { eapply tint_unique; [exact Hv|]. eapply tint_ext; [|exact (div_r F va vb Ha' Hb')]. intros. apply prim_ok. }
  assert (HN : exists n, degree2 n F). { clear. generalize F. clear. intro F. induction F as [|[[i j] k] F (n & IH)]; [exists O; constructor|]. exists (i + j + n)%nat. constructor; [cbn; lia|]. eapply degree2_le; [|exact IH]. lia. }
  destruct HN as (n & Dn). destruct (comp_poly n F (-1) (-1) (-1) 0 1 0 Dn) as (B & _ & HB).
  assert (HB' : forall r s, eval2 B r s = eval2 F (-1 - r - s) r) by (intros; rewrite <- HB; f_equal; ring).
  assert (X : triangle_integral (eval2 (dds B)) (vb - va)).
  { apply (div_s B vb va).
    - eapply integral_ext; [|exact Hb']. intro t. cbv beta. rewrite HB'. f_equal; ring.
    - eapply integral_ext; [|exact (integral_flip _ _ Ha')]. intro t. cbv beta. rewrite HB'. f_equal; ring. }
  rewrite E. replace (va - vb) with (-1 * (vb - va)) by ring. eapply tint_ext; [|exact (tint_scal (-1) _ _ X)]. intros r s. cbv beta.
  assert (Es : eval2 (dds B) r s = - eval2 p (-1 - r - s) r); [|rewrite Es; ring].
  eapply ds_unique; [apply dds_ok|]. unfold ds_is. apply (dpl_ext (fun t => eval2 F (-1 - r - t) r)); [intro; symmetry; apply HB'|].
  replace (- eval2 p (-1 - r - s) r) with (eval2 (ddr F) (-1 - r - s) r * (0 - 1)) by (unfold F; rewrite prim_ok; ring).
  apply (derivable_pt_lim_comp (fun t => -1 - r - t) (fun t => eval2 F t r)); [|apply (ddr_ok F)]. apply (derivable_pt_lim_minus (fun _ => -1 - r) (fun t => t)); [apply derivable_pt_lim_const|apply derivable_pt_lim_id].
Qed.

(* ---------- the trace inequality on edge 0, then on all edges ---------- *)
Lemma swap_square q : exists I J v, (forall s, integral_is (fun a => eval2 q a s) (-1) 1 (I s)) /\ (forall a, integral_is (fun s => eval2 q a s) (-1) 1 (J a)) /\ integral_is I (-1) 1 v /\ integral_is J (-1) 1 v.
Proof.
  assert (Hm : forall n, exists w, integral_is (fun x => x ^ n) (-1) 1 w).
  { intro n. destruct (line_integral [(n, 0%nat, 1)] 0 1 0 0 (-1) 1) as (w & Hw). exists w. eapply integral_ext; [|exact Hw]. intro x. cbn. replace (0 + 1 * x) with x by ring. ring. }
  induction q as [|[[i j] c] q (I & J & v & A & B & C & D)].
  - exists (fun _ => 0), (fun _ => 0), 0. cbn [eval2]. repeat split; intros; apply integral_zero.
  - destruct (Hm i) as (wi & Hi), (Hm j) as (wj & Hj). cbn [eval2]. exists (fun s => c * s ^ j * wi + I s), (fun a => c * a ^ i * wj + J a), (c * wi * wj + v). repeat split.
    + intro s. apply integral_plus; [|apply A]. apply (integral_ext (fun a => c * s ^ j * a ^ i)); [intro; ring|]. apply integral_scal. exact Hi.
    + intro a. apply integral_plus; [|apply B]. apply (integral_scal (c * a ^ i)). exact Hj.
    + apply integral_plus; [|exact C]. apply (integral_ext (fun s => c * wi * s ^ j)); [intro; ring|]. apply (integral_scal (c * wi)). exact Hj.
    + apply integral_plus; [|exact D]. apply (integral_ext (fun s => c * wj * s ^ i)); [intro; ring|]. replace (c * wi * wj) with (c * wj * wi) by ring. apply (integral_scal (c * wj)). exact Hi.
Qed.
Lemma collapse p v : triangle_integral (eval2 p) v ->
  exists J, (forall a, integral_is (fun s => (1 - s) / 2 * eval2 p ((1 + a) * (1 - s) / 2 - 1) s) (-1) 1 (J a)) /\ integral_is J (-1) 1 v.
Proof.
  intros (I & HI & Hv).
  assert (Hq : exists q, forall a s, eval2 q a s = (1 - s) / 2 * eval2 p ((1 + a) * (1 - s) / 2 - 1) s).
  { assert (L : tpoly 1 (fun _ s => (1 - s) / 2)). { apply (tpoly_ext 1 (fun _ s => / 2 + - / 2 * s)); [intros; field|]. apply tpoly_plus; [apply (tpoly_le 0); [lia|apply tpoly_const]|apply (tpoly_scal 1 (- / 2) (fun _ s => s)), tpoly_s]. }
    assert (T : tpoly 2 (fun a s => (1 + a) * (1 - s) / 2 - 1)).
    { apply (tpoly_ext 2 (fun a s => (1 + a) * ((1 - s) / 2) + -1)); [intros; field|]. apply tpoly_plus; [|apply (tpoly_le 0); [lia|apply tpoly_const]]. apply (tpoly_mul 1 1); [|exact L]. apply tpoly_plus; [apply (tpoly_le 0); [lia|apply tpoly_const]|apply tpoly_r]. }
    assert (Hp : exists n, tpoly n (fun a s => eval2 p ((1 + a) * (1 - s) / 2 - 1) s)).
    { clear - T. induction p as [|[[i j] c] p (n & IH)]; cbn [eval2]; [exists 0%nat; apply tpoly_const|]. exists (i * 2 + j * 1 + n)%nat. apply tpoly_plus; [|apply (tpoly_le n); [lia|exact IH]].
      apply (tpoly_le (i * 2 + j * 1)); [lia|]. apply tpoly_mul; [apply tpoly_scal, tpoly_pow, T|apply (tpoly_pow 1 (fun _ s => s)), tpoly_s]. }
    destruct Hp as (n & Hp). destruct (tpoly_mul _ _ _ _ L Hp) as (q & _ & Hq). exists q. intros. rewrite <- Hq. reflexivity. }
  destruct Hq as (q & Hq). destruct (swap_square q) as (I' & J & w & A & B & C & D). exists J. split; [intro a; eapply integral_ext; [|apply B]; intro s; apply Hq|].
  assert (E : forall s, I s = I' s).
  { intro s. eapply integral_unique; [|apply A]. apply (integral_ext (fun a => (1 - s) / 2 * eval2 p (((1 - s) / 2 - 1) + (1 - s) / 2 * a) s)); [intro a; rewrite Hq; f_equal; f_equal; field|].
    apply (integral_subst (fun r => eval2 p r s)). replace ((1 - s) / 2 - 1 + (1 - s) / 2 * -1) with (-1) by field. replace ((1 - s) / 2 - 1 + (1 - s) / 2 * 1) with (- s) by field. apply HI. }
  assert (Ev : v = w) by (eapply integral_unique; [exact Hv|eapply integral_ext; [|exact C]; intro; symmetry; apply E]). rewrite Ev. exact D.
Qed.
Lemma trace0 M p v e : degree2 M p -> triangle_integral (fun r s => eval2 p r s * eval2 p r s) v -> integral_is (fun t => eval2 p t (-1) * eval2 p t (-1)) (-1) 1 e ->
  e <= 2 * ((INR M + 1) * (INR M + 1)) * v.
Proof.
  intros Dp Hv He. destruct (poly_times p p) as (q & Hq & _). assert (Hv' : triangle_integral (eval2 q) v) by (eapply tint_ext; [|exact Hv]; intros; symmetry; apply Hq).
  destruct (collapse q v Hv') as (J & HJ & Ev).
  assert (Ev2 : integral_is (fun a => 2 * ((INR M + 1) * (INR M + 1)) * J a) (-1) 1 (2 * ((INR M + 1) * (INR M + 1)) * v)) by (apply (integral_scal _ J); exact Ev).
  apply (integral_le _ _ (-1) 1 _ _ ltac:(lra)) with (2 := He) (3 := Ev2). intros a Ha. cbv beta.
  pose proof (spoly_restrict M p ((1 + a) / 2 - 1) (- ((1 + a) / 2)) 0 1 Dp) as Hs. set (f := fun t => eval2 p ((1 + a) / 2 - 1 + - ((1 + a) / 2) * t) (0 + 1 * t)) in *.
  assert (B : f (-1) * f (-1) <= (INR M + 1) * (INR M + 1) * (2 * J a)).
  { apply end_bound; [exact Hs|]. apply (integral_ext (fun s => 2 * ((1 - s) / 2 * eval2 q ((1 + a) * (1 - s) / 2 - 1) s))); [|apply (integral_scal 2); apply HJ].
    intro s. rewrite Hq. unfold f. replace ((1 + a) / 2 - 1 + - ((1 + a) / 2) * s) with ((1 + a) * (1 - s) / 2 - 1) by field. replace (0 + 1 * s) with s by ring. field. }
  unfold f in B. replace ((1 + a) / 2 - 1 + - ((1 + a) / 2) * -1) with a in B by field. replace (0 + 1 * -1) with (-1) in B by ring. lra.
Qed.
Lemma trace M p f v e : (f < 3)%nat -> degree2 M p -> triangle_integral (fun r s => eval2 p r s * eval2 p r s) v ->
  integral_is (fun t => eval2 p (fst (edge f t)) (snd (edge f t)) * eval2 p (fst (edge f t)) (snd (edge f t))) (-1) 1 e ->
  e <= 2 * ((INR M + 1) * (INR M + 1)) * v.
Proof.
  intros Hf Dp Hv He. assert (Hrot : forall q w, degree2 M q -> triangle_integral (fun r s => eval2 q r s * eval2 q r s) w ->
    exists q', degree2 M q' /\ (forall r s, eval2 q' r s = eval2 q (-1 - r - s) r) /\ triangle_integral (fun r s => eval2 q' r s * eval2 q' r s) w).
  { intros q w Dq Hw. destruct (comp_poly M q (-1) (-1) (-1) 0 1 0 Dq) as (q' & Dq' & Hq').
    assert (E : forall r s, eval2 q' r s = eval2 q (-1 - r - s) r) by (intros; rewrite <- Hq'; f_equal; ring). exists q'. split; [exact Dq'|]. split; [exact E|].
    destruct (poly_times q q) as (qq & Hqq & _). apply (tint_ext (fun r s => eval2 qq (-1 - r - s) r)); [intros; rewrite Hqq, !E; reflexivity|]. apply rotate. eapply tint_ext; [|exact Hw]. intros; symmetry; apply Hqq. }
  destruct (Hrot p v Dp Hv) as (p1 & D1 & E1 & V1). destruct (Hrot p1 v D1 V1) as (p2 & D2 & E2 & V2).
  destruct f as [|[|[|]]]; [| | |lia]; cbn [edge fst snd] in He.
  - exact (trace0 M p v e Dp Hv He).
  - apply (trace0 M p1 v e D1 V1). eapply integral_ext; [|exact (integral_flip _ _ He)]. intro t. cbv beta. rewrite E1. replace (-1 - t - -1) with (- t) by ring. replace (- - t) with t by ring. reflexivity.
  - apply (trace0 M p2 v e D2 V2). eapply integral_ext; [|exact (integral_flip _ _ He)]. intro t. cbv beta. rewrite E2, E1. replace (-1 - (-1 - t - -1) - t) with (-1) by ring. replace (-1 - t - -1) with (- t) by ring. reflexivity.
Qed.
