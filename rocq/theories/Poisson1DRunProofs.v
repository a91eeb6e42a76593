(* Poisson1DRunProofs.v - lemmas about the program poisson1d: Legendre polynomials as test functions and the kernel of
   its operator. *)
From Coq Require Import ZArith List Lia Bool Arith.
From Verif Require Import Base Loops Num JacobiModel JacobiSpec JacobiProofs JacobiOrthProofs JacobiQuadProofs JacobiExactProofs
  TriBasisProofs TriProofs TriLiftProofs TriOpProofs TraceProofs TriDGProofs Line1DSpec Line1DProofs Line1DBurgersProofs Poisson1DSpec Poisson1DProofs HeatSpec LinSolve Poisson1DRunSpec.
From Coq Require Import Reals Lra.
Import ListNotations.
Local Open Scope R_scope.

(* --- Legendre polynomials --- *)
Lemma dpeval_padd p : forall q x, dpeval (padd p q) x = dpeval p x + dpeval q x.
Proof. intros q x. eapply uniqueness_limite; [apply dpeval_ok|]. eapply dpl_ext; [intro t; symmetry; apply padd_eval|]. apply derivable_pt_lim_plus; apply dpeval_ok. Qed.
Lemma dpeval_pscal c p x : dpeval (pscal c p) x = c * dpeval p x.
Proof. eapply uniqueness_limite; [apply dpeval_ok|]. eapply dpl_ext; [intro t; symmetry; apply pscal_eval|]. apply derivable_pt_lim_scal; apply dpeval_ok. Qed.

Fixpoint legp2 (n : nat) : list R * list R :=
  match n with
  | O => ([1], [0; 1])
  | S m => let (a, b) := legp2 m in (b, padd (pscal ((2 * INR m + 3) / (INR m + 2)) (0 :: b)) (pscal (- ((INR m + 1) / (INR m + 2))) a))
  end.
Definition legp (n : nat) : list R := fst (legp2 n).
Lemma legp_snd n : snd (legp2 n) = legp (S n).
Proof. unfold legp. cbn [legp2]. destruct (legp2 n). reflexivity. Qed.
Lemma legp_SS n : legp (S (S n)) = padd (pscal ((2 * INR n + 3) / (INR n + 2)) (0 :: legp (S n))) (pscal (- ((INR n + 1) / (INR n + 2))) (legp n)).
Proof. rewrite <- legp_snd. cbn [legp2]. rewrite <- legp_snd. unfold legp. destruct (legp2 n). reflexivity. Qed.
Lemma two_ind (P : nat -> Prop) : P 0%nat -> P 1%nat -> (forall n, P n -> P (S n) -> P (S (S n))) -> forall n, P n.
Proof. intros H0 H1 H n. enough (P n /\ P (S n)) by tauto. induction n as [|n (A & B)]; auto. Qed.
Lemma legp_len n : length (legp n) = S n.
Proof. induction n using two_ind; [reflexivity|reflexivity|]. rewrite legp_SS, padd_len, !pscal_len. cbn [length]. lia. Qed.
Lemma legp_eval n x : peval (legp n) x = legendre n x.
Proof.
  induction n using two_ind; [unfold legendre; cbn; ring|unfold legendre; cbn; ring|].
  rewrite legp_SS, padd_eval, !pscal_eval. cbn [peval]. rewrite IHn, IHn0. unfold legendre. cbn [legendre2]. destruct (legendre2 n x) as [u v]. cbn [fst].
  pose proof (pos_INR n). rewrite ?S_INR. field. lra.
Qed.
(* Bonnet: x P_{n+1} *)
Lemma legp_x n x : (2 * INR (S n) + 1) * (x * peval (legp (S n)) x) = (INR (S n) + 1) * peval (legp (S (S n))) x + INR (S n) * peval (legp n) x.
Proof. rewrite legp_SS, padd_eval, !pscal_eval. cbn [peval]. rewrite S_INR. pose proof (pos_INR n). field. lra. Qed.
Lemma legp_1 n : peval (legp n) 1 = 1.
Proof. rewrite legp_eval. apply legendre_at_1. Qed.
Lemma legp_m1 n : peval (legp n) (-1) = (-1) ^ n.
Proof.
  induction n using two_ind; [cbn; ring|cbn; ring|]. rewrite legp_SS, padd_eval, !pscal_eval. cbn [peval]. rewrite IHn, IHn0. cbn [pow]. pose proof (pos_INR n). field. lra.
Qed.
Lemma legp_d1 n : dpeval (legp n) 1 = INR n * (INR n + 1) / 2.
Proof.
  induction n using two_ind; [cbn; field|cbn; field|]. rewrite legp_SS, dpeval_padd, !dpeval_pscal. cbn [dpeval]. rewrite IHn, IHn0, legp_1, !S_INR. pose proof (pos_INR n). field. lra.
Qed.
Lemma legp_dm1 n : dpeval (legp n) (-1) = - (-1) ^ n * (INR n * (INR n + 1) / 2).
Proof.
  induction n using two_ind; [cbn; field|cbn; field|]. rewrite legp_SS, dpeval_padd, !dpeval_pscal. cbn [dpeval]. rewrite IHn, IHn0, legp_m1, !S_INR. cbn [pow]. pose proof (pos_INR n). field. lra.
Qed.
(* orthogonal to every polynomial of lower degree *)
Lemma legp_orth n p : (length p <= n)%nat -> integral_is (fun x => peval p x * peval (legp n) x) (-1) 1 0.
Proof.
  intro Lp. destruct n as [|n]. { destruct p; [|cbn in Lp; lia]. apply (integral_ext (fun _ => 0)); [intro; cbn; ring|apply integral_zero]. }
  destruct (modal1 gwit gwit_ok n (peval p)) as (c & Hc); [exists p; split; [exact Lp|reflexivity]|].
  set (c' := fun k => if (k =? S n)%nat then 0 else c k). set (d := fun k => if (k =? S n)%nat then / sg (S n) else 0).
  assert (H1 : forall x, peval p x = sumn (S (S n)) (fun k => c' k * jac gwit 0 0 k x)).
  { intro x. rewrite sumn_S. unfold c' at 2. rewrite Nat.eqb_refl, Rmult_0_l, Rplus_0_r, Hc. apply sumn_ext. intros k Hk. unfold c'. destruct (Nat.eqb_spec k (S n)); [lia|reflexivity]. }
  assert (H2 : forall x, peval (legp (S n)) x = sumn (S (S n)) (fun k => d k * jac gwit 0 0 k x)).
  { intro x. rewrite (sumn_pick (S (S n)) _ (S n)); [|lia|intros k Hk Hne; unfold d; destruct (Nat.eqb_spec k (S n)); [lia|ring]].
    unfold d. rewrite Nat.eqb_refl, (proj1 (leg2 gwit gwit_ok (S n) x)), legp_eval. pose proof (sg_pos (S n)). field. lra. }
  eapply integral_val; [|exact (parseval1 gwit gwit_ok (S n) _ _ c' d H1 H2)]. apply sumn_zero. intros k Hk. unfold c', d. destruct (k =? S n)%nat; ring.
Qed.
Lemma euler_low q : forall M, (length q <= S M)%nat -> exists r, (length r <= M)%nat /\ forall x, x * dpeval q x = INR M * peval q x + peval r x.
Proof.
  induction q as [|c cs IH]; intros M L; [exists []; split; [cbn; lia|intro; cbn; ring]|]. cbn [length] in L. destruct M as [|m].
  - destruct cs; [|cbn in L; lia]. exists []. split; [cbn; lia|]. intro. cbn. ring.
  - destruct (IH m ltac:(lia)) as (r & Lr & Hr). exists (- (INR m + 1) * c :: r). split; [cbn [length]; lia|]. intro x. cbn [dpeval peval]. rewrite (Rmult_plus_distr_l x _ (x * _)), (Hr x), S_INR. ring.
Qed.
Lemma der_low p M : (length p <= S M)%nat -> exists d, (length d <= M)%nat /\ forall x, dpeval p x = peval d x.
Proof. intro L. destruct (deriv_poly p) as (d & Ld & Hd). exists d. split; [lia|exact Hd]. Qed.
(* the integral of q P_M for q of degree at most M = n + 1 *)
Lemma top_mode q n v : (length q <= S (S n))%nat -> integral_is (fun x => dpeval q x * peval (legp n) x) (-1) 1 v ->
  integral_is (fun x => peval q x * peval (legp (S n)) x) (-1) 1 (/ (2 * INR (S n) + 1) * v).
Proof.
  intros L Hv. destruct (euler_low q (S n) L) as (r & Lr & Hr). destruct (der_low q (S n) L) as (d & Ld & Hd).
  pose proof (legp_orth (S n) r Lr) as H1. pose proof (legp_orth (S (S n)) d ltac:(lia)) as H2.
  assert (P : 0 < INR (S n)) by (apply lt_0_INR; lia).
  pose proof (integral_plus _ _ _ _ _ _ (integral_plus _ _ _ _ _ _ (integral_scal (/ (2 * INR (S n) + 1)) _ _ _ _ Hv) (integral_scal ((INR (S n) + 1) / (INR (S n) * (2 * INR (S n) + 1))) _ _ _ _ H2)) (integral_scal (- / INR (S n)) _ _ _ _ H1)) as H.
  eapply integral_val; [|eapply integral_ext; [|exact H]]; [ring|]. intro x. cbv beta. rewrite <- Hd.
  apply Rmult_eq_reg_l with (INR (S n) * (2 * INR (S n) + 1)); [|nra].
  transitivity (dpeval q x * ((INR (S n) + 1) * peval (legp (S (S n))) x + INR (S n) * peval (legp n) x) - (2 * INR (S n) + 1) * (peval r x * peval (legp (S n)) x)); [field; lra|].
  rewrite <- legp_x. transitivity ((2 * INR (S n) + 1) * ((x * dpeval q x) * peval (legp (S n)) x - peval r x * peval (legp (S n)) x)); [ring|]. rewrite Hr. ring.
Qed.
(* polynomials that pick out the value at an end *)
Lemma sq1 n : (-1) ^ n * (-1) ^ n = 1.
Proof. induction n as [|n IH]; cbn [pow]; [ring|]. transitivity ((-1) ^ n * (-1) ^ n); [ring|exact IH]. Qed.
Lemma pick_r_len M : exists L, (length L <= S M)%nat /\ forall x, peval L x = (dpeval (legp M) x + dpeval (legp (S M)) x) / 2.
Proof.
  destruct (der_low (legp M) M ltac:(rewrite legp_len; lia)) as (d0 & L0 & H0). destruct (der_low (legp (S M)) (S M) ltac:(rewrite legp_len; lia)) as (d1 & L1 & H1).
  exists (pscal (/ 2) (padd d0 d1)). split; [rewrite pscal_len, padd_len; lia|]. intro x. rewrite pscal_eval, padd_eval, H0, H1. field.
Qed.
Lemma pick_l_len M : exists L, (length L <= S M)%nat /\ forall x, peval L x = (-1) ^ M * (dpeval (legp (S M)) x - dpeval (legp M) x) / 2.
Proof.
  destruct (der_low (legp M) M ltac:(rewrite legp_len; lia)) as (d0 & L0 & H0). destruct (der_low (legp (S M)) (S M) ltac:(rewrite legp_len; lia)) as (d1 & L1 & H1).
  exists (pscal ((-1) ^ M / 2) (padd d1 (pscal (-1) d0))). split; [rewrite pscal_len, padd_len, pscal_len; lia|]. intro x. rewrite !pscal_eval, padd_eval, pscal_eval, H0, H1. field.
Qed.
Lemma by_parts f P a b : integral_is (fun x => dpeval f x * P x) (-1) 1 a -> (forall x, derivable_pt_lim P x (b x)) ->
  integral_is (fun x => peval f x * b x) (-1) 1 (peval f 1 * P 1 - peval f (-1) * P (-1) - a).
Proof.
  intros Ha Hb.
  assert (HB : integral_is (fun x => dpeval f x * P x + peval f x * b x) (-1) 1 (peval f 1 * P 1 - peval f (-1) * P (-1))).
  { exists (fun x => peval f x * P x). split; [|reflexivity]. intro x. apply (derivable_pt_lim_mult (peval f) P); [apply dpeval_ok|apply Hb]. }
  eapply integral_val; [|eapply integral_ext; [|exact (integral_plus _ _ _ _ _ _ HB (integral_scal (-1) _ _ _ _ Ha))]]; [ring|]. intro x. cbv beta. ring.
Qed.
Lemma end_r f M : (length f <= S M)%nat -> integral_is (fun x => peval f x * ((dpeval (legp M) x + dpeval (legp (S M)) x) / 2)) (-1) 1 (peval f 1).
Proof.
  intro L. destruct (der_low f M L) as (d & Ld & Hd). pose proof (legp_orth M d Ld) as H1. pose proof (legp_orth (S M) d ltac:(lia)) as H2.
  assert (A : forall n, integral_is (fun x => peval d x * peval (legp n) x) (-1) 1 0 -> integral_is (fun x => dpeval f x * peval (legp n) x) (-1) 1 0) by (intros n H; eapply integral_ext; [|exact H]; intro x; cbv beta; rewrite Hd; reflexivity).
  pose proof (by_parts f _ _ _ (A _ H1) (dpeval_ok (legp M))) as B1. pose proof (by_parts f _ _ _ (A _ H2) (dpeval_ok (legp (S M)))) as B2.
  rewrite !legp_1, !legp_m1 in *. eapply integral_val; [|eapply integral_ext; [|exact (integral_scal (/ 2) _ _ _ _ (integral_plus _ _ _ _ _ _ B1 B2))]]; [cbn [pow]; field|]. intro x. cbv beta. field.
Qed.
Lemma end_l f M : (length f <= S M)%nat -> integral_is (fun x => peval f x * ((-1) ^ M * (dpeval (legp (S M)) x - dpeval (legp M) x) / 2)) (-1) 1 (peval f (-1)).
Proof.
  intro L. destruct (der_low f M L) as (d & Ld & Hd). pose proof (legp_orth M d Ld) as H1. pose proof (legp_orth (S M) d ltac:(lia)) as H2.
  assert (A : forall n, integral_is (fun x => peval d x * peval (legp n) x) (-1) 1 0 -> integral_is (fun x => dpeval f x * peval (legp n) x) (-1) 1 0) by (intros n H; eapply integral_ext; [|exact H]; intro x; cbv beta; rewrite Hd; reflexivity).
  pose proof (by_parts f _ _ _ (A _ H1) (dpeval_ok (legp M))) as B1. pose proof (by_parts f _ _ _ (A _ H2) (dpeval_ok (legp (S M)))) as B2.
  rewrite !legp_1, !legp_m1 in *. eapply integral_val; [|eapply integral_ext; [|exact (integral_scal ((-1) ^ M / 2) _ _ _ _ (integral_plus _ _ _ _ _ _ B2 (integral_scal (-1) _ _ _ _ B1)))]].
  - pose proof (sq1 M) as Q. cbn [pow]. transitivity (((-1) ^ M * (-1) ^ M) * peval f (-1)); [field|]. rewrite Q. ring.
  - intro x. cbv beta. field.
Qed.

(* --- the kernel of the operator --- *)
Section Kernel.
Variables (N K : nat) (w : R) (U q T : nat -> list R).
Local Notation M := (S N).
Local Notation Np := (S (S N)).
Local Notation tau := (INR Np * INR Np / Rabs w).
Local Notation h := (w / 2).
Local Notation sg := ((-1) ^ M).
Hypothesis Hw : w <> 0.
Hypothesis HK : (0 < K)%nat.
Hypothesis LU : forall k, (k < K)%nat -> (length (U k) <= Np)%nat.
Hypothesis Lq : forall k, (k < K)%nat -> (length (q k) <= Np)%nat.
Hypothesis HT : forall k p, (k < K)%nat -> (length p <= Np)%nat -> integral_is (fun x => w / 2 * peval (T k) x * peval p x) (-1) 1 0.
Local Notation hat := (trace_mean K 0 0 U).
Local Notation sig := (penalty_flux K w tau U (fun k => dpeval (U k))).
Hypothesis Wq : weak_form Np K w 1 U q (fun k => peval (U k) (-1) - hat k) (fun k => hat (S k) - peval (U k) 1).
Hypothesis WT : weak_form Np K w 1 q T (fun k => w / 2 * (peval (q k) (-1) - sig k)) (fun k => w / 2 * (sig (S k) - peval (q k) 1)).

Definition drop (v : nat) : R :=
  match v with O => - 2 * peval (U 0%nat) (-1) | S e => if (v =? K)%nat then 2 * peval (U e) 1 else peval (U e) 1 - peval (U v) (-1) end.
Lemma eq1 k p : (k < K)%nat -> (length p <= Np)%nat ->
  integral_is (fun x => h * (peval (q k) x * peval p x) - dpeval (U k) x * peval p x) (-1) 1 (- (peval p (-1) * drop k + peval p 1 * drop (S k)) / 2).
Proof.
  intros Hk Lp. pose proof (Wq k Hk _ (dpeval_ok (U k)) p Lp) as H. eapply integral_val; [|eapply integral_ext; [|exact H]].
  - unfold drop, trace_mean. destruct k as [|e].
    + destruct (Nat.eqb_spec 1 K); field.
    + destruct (Nat.eqb_spec (S e) K); [lia|]. destruct (Nat.eqb_spec (S (S e)) K); field.
  - intro x. cbv beta. ring.
Qed.
Lemma eq2 k p : (k < K)%nat -> (length p <= Np)%nat ->
  integral_is (fun x => dpeval (q k) x * peval p x) (-1) 1 (h * (peval p 1 * (peval (q k) 1 - sig (S k)) - peval p (-1) * (peval (q k) (-1) - sig k))).
Proof.
  intros Hk Lp. pose proof (WT k Hk _ (dpeval_ok (q k)) p Lp) as H. eapply integral_val; [|eapply integral_ext; [|exact (integral_plus _ _ _ _ _ _ (HT k p Hk Lp) (integral_scal (-1) _ _ _ _ H))]].
  - cbv beta. field.
  - intro x. cbv beta. ring.
Qed.
Ltac fw := field; repeat split; first [exact Hw | apply Rabs_no_R0; exact Hw | lra].
Lemma h_nz : h <> 0. Proof. lra. Qed.
(* the two ends of an element *)
Lemma ends_rel k : (k < K)%nat -> peval (q k) (-1) - sig k = sg * (peval (q k) 1 - sig (S k)).
Proof.
  intro Hk. pose proof (eq2 k (legp M) Hk ltac:(rewrite legp_len; lia)) as H. rewrite legp_1, legp_m1 in H.
  destruct (der_low (q k) M (Lq k Hk)) as (d & Ld & Hd). pose proof (legp_orth M d Ld) as H0.
  assert (H1 : integral_is (fun x => dpeval (q k) x * peval (legp M) x) (-1) 1 0) by (eapply integral_ext; [|exact H0]; intro x; cbv beta; rewrite Hd; reflexivity).
  pose proof (integral_unique _ _ _ _ _ H H1) as E. pose proof h_nz as Hh. pose proof (sq1 M) as Q. set (s := sg) in *.
  apply Rmult_integral in E. destruct E as [E|E]; [contradiction|].
  transitivity ((s * s) * (peval (q k) (-1) - sig k)); [rewrite Q; ring|]. replace (s * s * (peval (q k) (-1) - sig k)) with (s * (s * (peval (q k) (-1) - sig k))) by ring. f_equal. lra.
Qed.
Lemma right_end k : (k < K)%nat -> 4 * (h * h) * (peval (q k) 1 - sig (S k)) = - (2 * INR M + 1) * (sg * drop k + drop (S k)).
Proof.
  intro Hk. pose proof (eq2 k (legp N) Hk ltac:(rewrite legp_len; lia)) as H. rewrite legp_1, legp_m1 in H. rewrite (ends_rel k Hk) in H. set (e := peval (q k) 1 - sig (S k)) in *.
  pose proof (top_mode (q k) N _ (Lq k Hk) H) as H2. pose proof (eq1 k (legp M) Hk ltac:(rewrite legp_len; lia)) as H3. rewrite legp_1, legp_m1 in H3.
  destruct (der_low (U k) M (LU k Hk)) as (d & Ld & Hd). pose proof (legp_orth M d Ld) as H0.
  pose proof (integral_plus _ _ _ _ _ _ (integral_scal h _ _ _ _ H2) (integral_scal (-1) _ _ _ _ H0)) as H4.
  assert (E : h * (/ (2 * INR M + 1) * (h * (1 * e - (-1) ^ N * (sg * e)))) + -1 * 0 = - (sg * drop k + 1 * drop (S k)) / 2).
  { eapply integral_unique; [exact H4|]. eapply integral_ext; [|exact H3]. intro x. cbv beta. rewrite Hd. ring. }
  assert (Q : (-1) ^ N * sg = -1) by (cbn [pow]; pose proof (sq1 N); lra). assert (P : 0 < INR M) by (apply lt_0_INR; lia).
  assert (E2 : h * (/ (2 * INR M + 1) * (h * (1 * e - (-1) ^ N * (sg * e)))) = 2 * (h * h) * e / (2 * INR M + 1)).
  { transitivity (h * h * e * (1 - (-1) ^ N * sg) / (2 * INR M + 1)); [field; lra|]. rewrite Q. field. lra. }
  rewrite E2 in E. clear - E P. assert (E3 : 2 * (h * h) * e = (2 * INR M + 1) * (- (sg * drop k + 1 * drop (S k)) / 2)) by (rewrite <- E; field; lra). 
  transitivity (2 * (2 * (h * h) * e)); [ring|]. rewrite E3. field.
Qed.
Lemma slope_r k : (k < K)%nat -> dpeval (U k) 1 = h * peval (q k) 1 + (sg * INR Np * drop k + INR Np * INR Np * drop (S k)) / 4.
Proof.
  intro Hk. destruct (pick_r_len M) as (L & LL & HL). pose proof (eq1 k L Hk LL) as H. rewrite !HL, !legp_dm1, !legp_d1 in H.
  destruct (der_low (U k) Np ltac:(pose proof (LU k Hk); lia)) as (d & Ld & Hd).
  assert (Ld' : (length d <= Np)%nat) by lia. pose proof (end_r d M Ld') as H1. pose proof (end_r (q k) M (Lq k Hk)) as H2.
  assert (E : h * peval (q k) 1 + -1 * peval d 1 = - ((- (-1) ^ M * (INR M * (INR M + 1) / 2) + - (-1) ^ S M * (INR (S M) * (INR (S M) + 1) / 2)) / 2 * drop k + (INR M * (INR M + 1) / 2 + INR (S M) * (INR (S M) + 1) / 2) / 2 * drop (S k)) / 2).
  { eapply integral_unique; [exact (integral_plus _ _ _ _ _ _ (integral_scal h _ _ _ _ H2) (integral_scal (-1) _ _ _ _ H1))|]. eapply integral_ext; [|exact H]. intro x. cbv beta. rewrite !HL, Hd. ring. }
  rewrite Hd. rewrite (S_INR M) in *. change ((-1) ^ S M) with (-1 * sg) in E. set (s := sg) in *. clearbody s. clear - E. lra.
Qed.
Lemma slope_l k : (k < K)%nat -> dpeval (U k) (-1) = h * peval (q k) (-1) + (INR Np * INR Np * drop k + sg * INR Np * drop (S k)) / 4.
Proof.
  intro Hk. destruct (pick_l_len M) as (L & LL & HL). pose proof (eq1 k L Hk LL) as H. rewrite !HL, !legp_dm1, !legp_d1 in H.
  destruct (der_low (U k) Np ltac:(pose proof (LU k Hk); lia)) as (d & Ld & Hd).
  assert (Ld' : (length d <= Np)%nat) by lia. pose proof (end_l d M Ld') as H1. pose proof (end_l (q k) M (Lq k Hk)) as H2.
  assert (E : h * peval (q k) (-1) + -1 * peval d (-1) = - ((-1) ^ M * (- (-1) ^ S M * (INR (S M) * (INR (S M) + 1) / 2) - - (-1) ^ M * (INR M * (INR M + 1) / 2)) / 2 * drop k + (-1) ^ M * (INR (S M) * (INR (S M) + 1) / 2 - INR M * (INR M + 1) / 2) / 2 * drop (S k)) / 2).
  { eapply integral_unique; [exact (integral_plus _ _ _ _ _ _ (integral_scal h _ _ _ _ H2) (integral_scal (-1) _ _ _ _ H1))|]. eapply integral_ext; [|exact H]. intro x. cbv beta. rewrite !HL, Hd. ring. }
  rewrite Hd. rewrite (S_INR M) in *. change ((-1) ^ S M) with (-1 * sg) in E. pose proof (sq1 M) as Q. set (s := sg) in *. clearbody s. clear - E Q.
  set (m := INR M) in *. replace (s * (- (-1 * s) * ((m + 1) * (m + 1 + 1) / 2) - - s * (m * (m + 1) / 2)) / 2 * drop k) with ((s * s) * ((m + 1) * (m + 1)) / 2 * drop k) in E by field. rewrite Q in E. lra.
Qed.

(* the balance at the vertices: a strictly dominant system for the drops *)
Local Notation ca := (2 * INR M + 1 + 4 * (h * h) * tau - INR Np * INR Np * h).
Local Notation cb := (2 * INR M + 1 - INR Np * h).
Lemma coef : Rabs cb < ca.
Proof.
  assert (P : 1 <= INR M) by (change 1 with (INR 1); apply le_INR; lia). rewrite (S_INR M). set (m := INR M) in *. clearbody m. unfold Rabs. destruct (Rcase_abs w) as [L|L].
  - replace (4 * (h * h) * ((m + 1) * (m + 1) / - w)) with (- w * ((m + 1) * (m + 1))) by (field; lra). assert (0 < m * - w) by nra. assert (0 < m * (m * - w)) by nra.
    destruct (Rcase_abs (2 * m + 1 - (m + 1) * h)); nra.
  - assert (Lp : 0 < w) by (destruct L as [L|L]; [exact L|contradiction]). replace (4 * (h * h) * ((m + 1) * (m + 1) / w)) with (w * ((m + 1) * (m + 1))) by (field; lra). assert (0 < m * w) by nra. assert (0 < m * (m * w)) by nra.
    destruct (Rcase_abs (2 * m + 1 - (m + 1) * h)); nra.
Qed.
Lemma inner_vertex e : (S e < K)%nat -> 2 * ca * drop (S e) + sg * cb * (drop e + drop (S (S e))) = 0.
Proof.
  intro He. pose proof (right_end e ltac:(lia)) as R1. pose proof (right_end (S e) He) as R2. pose proof (ends_rel (S e) He) as E2. pose proof (slope_r e ltac:(lia)) as S1. pose proof (slope_l (S e) He) as S2.
  assert (F : sig (S e) = (2 / w * dpeval (U e) 1 + 2 / w * dpeval (U (S e)) (-1)) / 2 - tau * drop (S e)) by (unfold penalty_flux, drop; destruct (Nat.eqb_spec (S e) K); [lia|reflexivity]).
  rewrite S1, S2 in F. pose proof (sq1 M) as Q. set (s := sg) in *. clearbody s.
  set (e1 := peval (q e) 1 - sig (S e)) in *. set (e2 := peval (q (S e)) 1 - sig (S (S e))) in *.
  assert (X : e1 + s * e2 = 2 * tau * drop (S e) - / w * ((s * INR Np * drop e + INR Np * INR Np * drop (S e)) / 2 + (INR Np * INR Np * drop (S e) + s * INR Np * drop (S (S e))) / 2)).
  { rewrite <- E2. unfold e1. rewrite F. fw. }
  assert (Y : 4 * (h * h) * e1 + s * (4 * (h * h) * e2) = 4 * (h * h) * (e1 + s * e2)) by ring. rewrite R1, R2, X in Y.
  replace (s * (- (2 * INR M + 1) * (s * drop (S e) + drop (S (S e))))) with (- (2 * INR M + 1) * ((s * s) * drop (S e) + s * drop (S (S e)))) in Y by ring. rewrite Q in Y.
  replace (4 * (h * h) * (2 * tau * drop (S e) - / w * ((s * INR Np * drop e + INR Np * INR Np * drop (S e)) / 2 + (INR Np * INR Np * drop (S e) + s * INR Np * drop (S (S e))) / 2)))
    with (8 * (h * h) * tau * drop (S e) - h * (s * INR Np * (drop e + drop (S (S e))) + 2 * (INR Np * INR Np) * drop (S e))) in Y by (fw).
  set (t := 8 * (h * h) * tau) in *. replace (4 * (h * h) * tau) with (t / 2) by (unfold t; fw). clearbody t. lra.
Qed.
Lemma first_vertex : ca * drop 0 + sg * cb * drop 1 = 0.
Proof.
  pose proof (right_end 0 HK) as R2. pose proof (ends_rel 0 HK) as E2. pose proof (slope_l 0 HK) as S2.
  assert (F : sig 0%nat = 2 / w * dpeval (U 0%nat) (-1) - tau * drop 0) by (unfold penalty_flux, drop; fw).
  rewrite S2 in F. pose proof (sq1 M) as Q. set (s := sg) in *. clearbody s. set (e2 := peval (q 0%nat) 1 - sig 1%nat) in *.
  assert (X : s * e2 = tau * drop 0 - / w * ((INR Np * INR Np * drop 0 + s * INR Np * drop 1) / 2)) by (rewrite <- E2, F; fw).
  assert (Y : s * (4 * (h * h) * e2) = 4 * (h * h) * (s * e2)) by ring. rewrite R2, X in Y.
  replace (s * (- (2 * INR M + 1) * (s * drop 0 + drop 1))) with (- (2 * INR M + 1) * ((s * s) * drop 0 + s * drop 1)) in Y by ring. rewrite Q in Y.
  replace (4 * (h * h) * (tau * drop 0 - / w * ((INR Np * INR Np * drop 0 + s * INR Np * drop 1) / 2)))
    with (4 * (h * h) * tau * drop 0 - h * (s * INR Np * drop 1 + INR Np * INR Np * drop 0)) in Y by (fw).
  set (t := 4 * (h * h) * tau) in *. clearbody t. lra.
Qed.
Lemma last_vertex : ca * drop K + sg * cb * drop (K - 1) = 0.
Proof.
  assert (X : exists e, K = S e) by (exists (K - 1)%nat; lia). destruct X as (e & EK). replace (K - 1)%nat with e by lia.
  assert (He : (e < K)%nat) by lia. pose proof (right_end e He) as R1. pose proof (slope_r e He) as S1. rewrite <- EK in R1, S1.
  assert (F : sig K = 2 / w * dpeval (U e) 1 - tau * drop K) by (clear - EK Hw; unfold drop, penalty_flux; destruct K as [|e']; [discriminate|]; injection EK as ->; rewrite Nat.eqb_refl; fw).
  rewrite S1 in F. set (s := sg) in *. clearbody s. rewrite F in R1.
  replace (4 * (h * h) * (peval (q e) 1 - (2 / w * (h * peval (q e) 1 + (s * INR Np * drop e + INR Np * INR Np * drop K) / 4) - tau * drop K)))
    with (4 * (h * h) * tau * drop K - h * (s * INR Np * drop e + INR Np * INR Np * drop K)) in R1 by (fw).
  set (t := 4 * (h * h) * tau) in *. clearbody t. lra.
Qed.
Lemma argmax (f : nat -> R) n : exists m, (m <= n)%nat /\ forall v, (v <= n)%nat -> Rabs (f v) <= Rabs (f m).
Proof.
  induction n as [|n (m & Hm & H)]; [exists 0%nat; split; [lia|]; intros v Hv; replace v with 0%nat by lia; lra|].
  destruct (Rle_dec (Rabs (f m)) (Rabs (f (S n)))) as [L|L].
  - exists (S n). split; [lia|]. intros v Hv. destruct (Nat.eq_dec v (S n)) as [-> |]; [lra|]. specialize (H v ltac:(lia)). lra.
  - exists m. split; [lia|]. intros v Hv. destruct (Nat.eq_dec v (S n)) as [-> |]; [lra|]. apply H. lia.
Qed.
Lemma abs_sg : Rabs sg = 1.
Proof. apply pow_1_abs. Qed.
Lemma no_drop v : (v <= K)%nat -> drop v = 0.
Proof.
  destruct (argmax drop K) as (m & Hm & H). pose proof coef as C. set (a := ca) in *. set (b := cb) in *.
  assert (Z : Rabs (drop m) = 0).
  { pose proof (Rabs_pos (drop m)) as P. assert (Pa : 0 < a) by (pose proof (Rabs_pos b); lra).
    enough (a * Rabs (drop m) <= Rabs b * Rabs (drop m)) by nra.
    assert (St : forall c, (c <= K)%nat -> Rabs (sg * b * drop c) <= Rabs b * Rabs (drop m)).
    { intros c Hc. rewrite !Rabs_mult, abs_sg. specialize (H c Hc). pose proof (Rabs_pos b). nra. }
    assert (Ab : Rabs (a * drop m) = a * Rabs (drop m)) by (rewrite Rabs_mult, (Rabs_right a) by lra; reflexivity). rewrite <- Ab.
    destruct m as [|e].
    - pose proof first_vertex as V. replace (ca * drop 0) with (- (sg * b * drop 1)) in V |- * by (unfold a, b in *; lra). fold a in V. replace (a * drop 0) with (- (sg * b * drop 1)) by (unfold a, b in *; lra). rewrite Rabs_Ropp. apply St. lia.
    - destruct (Nat.eq_dec (S e) K) as [E|E].
      + rewrite E in *. pose proof last_vertex as V. fold a in V. fold b in V. replace (a * drop K) with (- (sg * b * drop (K - 1))) by lra. rewrite Rabs_Ropp. apply St. lia.
      + pose proof (inner_vertex e ltac:(lia)) as V. fold a in V. fold b in V. replace (a * drop (S e)) with (- (/ 2 * (sg * b * drop e + sg * b * drop (S (S e))))) by lra.
        rewrite Rabs_Ropp, Rabs_mult, (Rabs_right (/ 2)) by lra. pose proof (Rabs_triang (sg * b * drop e) (sg * b * drop (S (S e)))). pose proof (St e ltac:(lia)). pose proof (St (S (S e)) ltac:(lia)). lra. }
  intro Hv. specialize (H v Hv). rewrite Z in H. destruct (Req_dec (drop v) 0) as [|Ne]; [assumption|]. pose proof (Rabs_pos_lt _ Ne). lra.
Qed.
Lemma const_of p : (forall x, dpeval p x = 0) -> forall x y, peval p x = peval p y.
Proof.
  intros H x y. assert (L : forall a b, a < b -> peval p a = peval p b).
  { intros a b Hab. destruct (MVT_cor2 (peval p) (fun _ => 0) a b Hab) as (c & Hc & _); [intros c _; rewrite <- (H c); apply dpeval_ok|]. lra. }
  destruct (Rtotal_order x y) as [A|[-> |A]]; [apply L; exact A|reflexivity|symmetry; apply L; exact A].
Qed.
Lemma kernel_zero : forall k, (k < K)%nat -> forall x, peval (U k) x = 0.
Proof.
  assert (E0 : forall k, (k < K)%nat -> peval (q k) 1 = sig (S k) /\ peval (q k) (-1) = sig k).
  { intros j Hj. pose proof (right_end j Hj) as R1. rewrite !no_drop in R1 by lia. pose proof h_nz as Hh. assert (Z : peval (q j) 1 - sig (S j) = 0) by (apply Rmult_eq_reg_l with (4 * (h * h)); [rewrite R1; ring|]; apply Rmult_integral_contrapositive_currified; [lra|]; apply Rmult_integral_contrapositive_currified; exact Hh).
    pose proof (ends_rel j Hj) as R2. rewrite Z in R2. split; lra. }
  assert (Dq : forall k, (k < K)%nat -> forall x, dpeval (q k) x = 0).
  { intros j Hj. destruct (der_low (q j) Np ltac:(pose proof (Lq j Hj); lia)) as (d & Ld & Hd). pose proof (eq2 j d Hj Ld) as H. destruct (E0 j Hj) as (A & B).
    assert (Z : forall x, peval d x = 0) by (apply (zero_square Np); [exists d; split; [lia|reflexivity]|]; eapply integral_val; [|eapply integral_ext; [|exact H]]; [rewrite A, B; ring|intro x; cbv beta; rewrite Hd; ring]). intro x. rewrite Hd. apply Z. }
  assert (Fl : forall v, (v <= K)%nat -> sig v = sig 0%nat).
  { induction v as [|v IH]; intro Hv; [reflexivity|]. destruct (E0 v ltac:(lia)) as (A & B). rewrite <- A, (const_of _ (Dq v ltac:(lia)) 1 (-1)), B. apply IH. lia. }
  set (c := sig 0%nat) in *.
  assert (Qc : forall k, (k < K)%nat -> forall x, peval (q k) x = c) by (intros j Hj x; rewrite (const_of _ (Dq j Hj) x (-1)); destruct (E0 j Hj) as (_ & ->); apply Fl; lia).
  assert (DU : forall k, (k < K)%nat -> forall x, dpeval (U k) x = h * c).
  { intros j Hj. destruct (der_low (U j) Np ltac:(pose proof (LU j Hj); lia)) as (d & Ld & Hd). set (e := padd [h * c] (pscal (-1) d)).
    assert (He : forall x, peval e x = h * c - dpeval (U j) x) by (intro x; unfold e; rewrite padd_eval, pscal_eval, <- Hd; cbn [peval]; ring).
    pose proof (eq1 j e Hj ltac:(unfold e; rewrite padd_len, pscal_len; cbn [length]; lia)) as H. rewrite !no_drop in H by lia.
    assert (Z : forall x, peval e x = 0) by (apply (zero_square Np); [exists e; split; [unfold e; rewrite padd_len, pscal_len; cbn [length]; lia|reflexivity]|]; eapply integral_val; [|eapply integral_ext; [|exact H]]; [field|intro x; cbv beta; rewrite (Qc j Hj), He; ring]).
    intro x. specialize (Z x). rewrite He in Z. lra. }
  assert (Aff : forall k, (k < K)%nat -> forall x, peval (U k) x = peval (U k) (-1) + h * c * (x + 1)).
  { intros j Hj x. pose proof (const_of (padd (U j) [0; - (h * c)])) as C. specialize (C ltac:(intro y; rewrite dpeval_padd, (DU j Hj); cbn; ring) x (-1)). rewrite !padd_eval in C. cbn [peval] in C. lra. }
  assert (Lf : forall k, (k < K)%nat -> peval (U k) (-1) = 2 * (h * c) * INR k).
  { induction k as [|j IH]; intro Hj.
    - pose proof (no_drop 0 ltac:(lia)) as D0. unfold drop in D0. cbn [INR]. rewrite Rmult_0_r. clear - D0. lra.
    - pose proof (no_drop (S j) ltac:(lia)) as D0. unfold drop in D0. destruct (Nat.eqb_spec (S j) K); [lia|]. rewrite (Aff j ltac:(lia) 1), IH in D0 by lia. rewrite S_INR. lra. }
  assert (Hc : h * c = 0).
  { pose proof (no_drop K ltac:(lia)) as D0. assert (X : exists e, K = S e) by (exists (K - 1)%nat; lia). destruct X as (j & EK).
    assert (D1 : 2 * peval (U j) 1 = 0) by (rewrite <- D0; unfold drop; destruct K as [|j']; [lia|]; injection EK as ->; rewrite Nat.eqb_refl; reflexivity). clear D0. rename D1 into D0. rewrite (Aff j ltac:(lia) 1), Lf in D0 by lia. 
    pose proof (pos_INR j). assert (P : (h * c) * (INR j + 1) = 0) by lra. apply Rmult_integral in P. destruct P; lra. }
  intros k Hk x. rewrite (Aff k Hk x), (Lf k Hk), Hc. ring.
Qed.
End Kernel.

(* --- an operator given by its weak forms is an invertible matrix --- *)
Lemma tab_nth_R n (f : nat -> R) g : (g < n)%nat -> nth g (tab n f) 0 = f g.
Proof. intro H. erewrite nth_error_nth; [|rewrite tab_nth_error; destruct (Nat.ltb_spec g n); [reflexivity|lia]]. reflexivity. Qed.
Section Op.
Variables (N K : nat) (w : R) (r : list R) (f : list R -> list R -> outcome (list R)).
Local Notation Np := (S (S N)).
Local Notation nn := (Np * K)%nat.
Local Notation tau := (INR Np * INR Np / Rabs w).
Hypothesis Hw : w <> 0.
Hypothesis HK : (0 < K)%nat.
Hypothesis HE : forall v, length v = nn -> exists V, holds Np K r v V.
Hypothesis HW : forall inp out U D, holds Np K r inp U -> slopes U D -> length out = nn ->
  exists res q T, f inp out = Ok res /\ length res = nn /\ (forall k, (k < K)%nat -> (length (q k) <= Np)%nat) /\
  weak_form Np K w 1 U q (fun k => peval (U k) (-1) - trace_mean K 0 0 U k) (fun k => trace_mean K 0 0 U (S k) - peval (U k) 1) /\
  weak_form Np K w 1 q T (fun k => w / 2 * (peval (q k) (-1) - penalty_flux K w tau U D k)) (fun k => w / 2 * (penalty_flux K w tau U D (S k) - peval (q k) 1)) /\
  forall v V, holds Np K r v V -> exists s, (forall k, (k < K)%nat -> integral_is (fun x => w / 2 * peval (T k) x * peval (V k) x) (-1) 1 (s k)) /\ dot nn v res = sumn K s.

Lemma slopes_d U : slopes U (fun k => dpeval (U k)).
Proof. intros k x. apply dpeval_ok. Qed.
Lemma vec_holds V : (forall k, (k < K)%nat -> (length (V k) <= Np)%nat) -> holds Np K r (tab nn (fun g => peval (V (g / Np)%nat) (nth (g mod Np) r 0))) V.
Proof.
  intro HV. split; [apply tab_len|]. intros k Hk. split; [apply HV; exact Hk|]. intros i Hi. rewrite tab_nth_R by nia. rewrite Nat.mod_add, Nat.div_add, Nat.mod_small, Nat.div_small by lia. reflexivity.
Qed.
Definition unitv (j : nat) : list R := tab nn (fun g => if (g =? j)%nat then 1 else 0).
Lemma unit_dot g y : (g < nn)%nat -> dot nn (unitv g) y = nth g y 0.
Proof.
  intro Hg. unfold dot. rewrite (sumn_pick nn _ g Hg).
  - unfold unitv. rewrite tab_nth_R by exact Hg. rewrite Nat.eqb_refl. ring.
  - intros k Hk Hne. unfold unitv. rewrite tab_nth_R by exact Hk. destruct (Nat.eqb_spec k g); [contradiction|ring].
Qed.
Lemma unit_len j : length (unitv j) = nn. Proof. apply tab_len. Qed.

Lemma trace_lin U1 U2 U3 al v : (v <= K)%nat -> (forall k x, peval (U3 k) x = peval (U1 k) x + al * peval (U2 k) x) ->
  trace_mean K 0 0 U3 v = trace_mean K 0 0 U1 v + al * trace_mean K 0 0 U2 v.
Proof. intros Hv H. destruct v as [|e]; cbn [trace_mean]; [ring|]. destruct (S e =? K)%nat; [ring|]. rewrite !H. field. Qed.
Lemma flux_lin U1 U2 U3 al v : (forall k x, peval (U3 k) x = peval (U1 k) x + al * peval (U2 k) x) -> (forall k x, dpeval (U3 k) x = dpeval (U1 k) x + al * dpeval (U2 k) x) ->
  penalty_flux K w tau U3 (fun k => dpeval (U3 k)) v = penalty_flux K w tau U1 (fun k => dpeval (U1 k)) v + al * penalty_flux K w tau U2 (fun k => dpeval (U2 k)) v.
Proof. intros H D. pose proof (Rabs_no_R0 _ Hw). destruct v as [|e]; cbn [penalty_flux]; [rewrite !H, !D; field; auto|]. destruct (S e =? K)%nat; rewrite !H, !D; field; auto. Qed.

Lemma op_lin al x y z ox oy oz rx ry rz : length x = nn -> length y = nn -> length z = nn -> length ox = nn -> length oy = nn -> length oz = nn ->
  (forall g, (g < nn)%nat -> nth g z 0 = nth g x 0 + al * nth g y 0) -> f x ox = Ok rx -> f y oy = Ok ry -> f z oz = Ok rz ->
  forall g, (g < nn)%nat -> nth g rz 0 = nth g rx 0 + al * nth g ry 0.
Proof.
  intros Lx Ly Lz Lox Loy Loz Hz Ex Ey Ez g Hg. destruct (HE x Lx) as (U1 & H1). destruct (HE y Ly) as (U2 & H2). set (U3 := fun k => padd (U1 k) (pscal al (U2 k))).
  assert (H3 : holds Np K r z U3).
  { split; [exact Lz|]. intros k Hk. destruct H1 as (_ & H1). destruct H2 as (_ & H2). destruct (H1 k Hk) as (A1 & B1). destruct (H2 k Hk) as (A2 & B2). unfold U3. split; [rewrite padd_len, pscal_len; lia|].
    intros i Hi. rewrite Hz, B1, B2, padd_eval, pscal_eval by nia. reflexivity. }
  destruct (HW x ox U1 _ H1 (slopes_d U1) Lox) as (r1 & q1 & T1 & E1 & _ & L1 & W1 & X1 & P1). destruct (HW y oy U2 _ H2 (slopes_d U2) Loy) as (r2 & q2 & T2 & E2 & _ & L2 & W2 & X2 & P2).
  destruct (HW z oz U3 _ H3 (slopes_d U3) Loz) as (r3 & q3 & T3 & E3 & _ & L3 & W3 & X3 & P3). assert (r1 = rx) by congruence. assert (r2 = ry) by congruence. assert (r3 = rz) by congruence. subst r1 r2 r3.
  assert (EU : forall k x0, peval (U3 k) x0 = peval (U1 k) x0 + al * peval (U2 k) x0) by (intros; unfold U3; rewrite padd_eval, pscal_eval; ring).
  assert (DU : forall k x0, dpeval (U3 k) x0 = dpeval (U1 k) x0 + al * dpeval (U2 k) x0) by (intros; unfold U3; rewrite dpeval_padd, dpeval_pscal; ring).
  assert (Q : forall k, (k < K)%nat -> forall x0, peval (q3 k) x0 = peval (q1 k) x0 + al * peval (q2 k) x0).
  { intros k Hk. set (e := padd (q3 k) (padd (pscal (-1) (q1 k)) (pscal (- al) (q2 k)))).
    assert (He : forall x0, peval e x0 = peval (q3 k) x0 - peval (q1 k) x0 - al * peval (q2 k) x0) by (intro; unfold e; rewrite !padd_eval, !pscal_eval; ring).
    assert (Le : (length e <= Np)%nat) by (unfold e; rewrite !padd_len, !pscal_len; specialize (L1 k Hk); specialize (L2 k Hk); specialize (L3 k Hk); lia).
    pose proof (W1 k Hk _ (dpeval_ok _) e Le) as I1. pose proof (W2 k Hk _ (dpeval_ok _) e Le) as I2. pose proof (W3 k Hk _ (dpeval_ok _) e Le) as I3.
    cbv beta in I1, I2, I3. rewrite (trace_lin U1 U2 U3 al k), (trace_lin U1 U2 U3 al (S k)) in I3 by (lia || exact EU). rewrite !EU in I3.
    assert (Z : forall x0, peval e x0 = 0).
    { apply (zero_square Np); [exists e; split; [lia|reflexivity]|]. eapply integral_val; [|eapply integral_ext; [|exact (integral_scal (2 / w) _ _ _ _ (integral_plus _ _ _ _ _ _ I3 (integral_plus _ _ _ _ _ _ (integral_scal (-1) _ _ _ _ I1) (integral_scal (- al) _ _ _ _ I2))))]].
      - cbv beta. ring.
      - intro x0. cbv beta. rewrite DU, He. field. exact Hw. }
    intro x0. specialize (Z x0). rewrite He in Z. lra. }
  assert (DQ : forall k, (k < K)%nat -> forall x0, dpeval (q3 k) x0 = dpeval (q1 k) x0 + al * dpeval (q2 k) x0).
  { intros k Hk x0. eapply uniqueness_limite; [apply dpeval_ok|]. eapply dpl_ext; [intro t; symmetry; apply (Q k Hk)|]. apply derivable_pt_lim_plus; [apply dpeval_ok|]. apply derivable_pt_lim_scal. apply dpeval_ok. }
  destruct (HE (unitv g) (unit_len g)) as (V & HV). rewrite <- (unit_dot g rz), <- (unit_dot g rx), <- (unit_dot g ry) by exact Hg.
  destruct (P1 _ V HV) as (s1 & S1 & ->). destruct (P2 _ V HV) as (s2 & S2 & ->). destruct (P3 _ V HV) as (s3 & S3 & ->). rewrite <- sumn_scal, <- sumn_plus. apply sumn_ext. intros k Hk.
  assert (LV : (length (V k) <= Np)%nat) by (apply HV; exact Hk).
  pose proof (X1 k Hk _ (dpeval_ok _) (V k) LV) as I1. pose proof (X2 k Hk _ (dpeval_ok _) (V k) LV) as I2. pose proof (X3 k Hk _ (dpeval_ok _) (V k) LV) as I3. 
  cbv beta in I1, I2, I3. rewrite !(flux_lin U1 U2 U3 al _ EU DU), !(Q k Hk) in I3.
  pose proof (integral_plus _ _ _ _ _ _ I3 (integral_plus _ _ _ _ _ _ (integral_scal (-1) _ _ _ _ I1) (integral_scal (- al) _ _ _ _ I2))) as I.
  pose proof (integral_plus _ _ _ _ _ _ (S3 k Hk) (integral_plus _ _ _ _ _ _ (integral_scal (-1) _ _ _ _ (S1 k Hk)) (integral_scal (- al) _ _ _ _ (S2 k Hk)))) as S.
  assert (E0 : s3 k + (-1 * s1 k + - al * s2 k) = 0); [|lra].
  eapply integral_unique; [exact S|]. eapply integral_val; [|eapply integral_ext; [|exact I]]; [ring|]. intro x0. cbv beta. rewrite (DQ k Hk). ring.
Qed.
Lemma op_total x out : length x = nn -> length out = nn -> exists res, f x out = Ok res /\ length res = nn.
Proof. intros Lx Lo. destruct (HE x Lx) as (U & HU). destruct (HW x out U _ HU (slopes_d U) Lo) as (res & q & T & E & L & _). exists res. auto. Qed.
Definition zerov : list R := tab nn (fun _ => 0).
Definition mat_of (g j : nat) : R := match f (unitv j) zerov with Ok res => nth g res 0 | _ => 0 end.
Lemma op_matrix_to m : (m <= nn)%nat -> forall x out res, length x = nn -> length out = nn -> (forall g, (m <= g)%nat -> (g < nn)%nat -> nth g x 0 = 0) -> f x out = Ok res ->
  forall g, (g < nn)%nat -> nth g res 0 = sumn m (fun j => mat_of g j * nth j x 0).
Proof.
  induction m as [|m IH]; intros Hm x out res Lx Lo Z E g Hg.
  - rewrite sumn_0. pose proof (op_lin 1 x x x out out out res res res Lx Lx Lx Lo Lo Lo ltac:(intros j Hj; rewrite (Z j ltac:(lia) Hj); ring) E E E g Hg). lra.
  - rewrite sumn_S. set (x' := tab nn (fun j => if (j =? m)%nat then 0 else nth j x 0)).
    assert (Lx' : length x' = nn) by apply tab_len. assert (Lz : length zerov = nn) by apply tab_len.
    destruct (op_total x' out Lx' Lo) as (res' & E' & _). destruct (op_total (unitv m) zerov (unit_len m) Lz) as (ru & Eu & _).
    rewrite (op_lin (nth m x 0) x' (unitv m) x out zerov out res' ru res Lx' (unit_len m) Lx Lo Lz Lo) with (g := g); auto.
    + rewrite (IH ltac:(lia) x' out res' Lx' Lo) with (g := g); auto.
      * unfold mat_of at 3. rewrite Eu. f_equal; [|ring]. apply sumn_ext. intros j Hj. unfold x'. rewrite tab_nth_R by lia. destruct (Nat.eqb_spec j m); [lia|reflexivity].
      * intros j H1 H2. unfold x'. rewrite tab_nth_R by lia. destruct (Nat.eqb_spec j m); [reflexivity|]. apply Z; lia.
    + intros j Hj. unfold x', unitv. rewrite !tab_nth_R by exact Hj. destruct (Nat.eqb_spec j m) as [-> |]; ring.
Qed.
Lemma op_matrix x out res : length x = nn -> length out = nn -> f x out = Ok res -> forall g, (g < nn)%nat -> nth g res 0 = times nn mat_of (fun j => nth j x 0) g.
Proof. intros Lx Lo E g Hg. apply (op_matrix_to nn ltac:(lia) x out res Lx Lo); auto. intros; lia. Qed.
Lemma op_kernel x out res : length x = nn -> length out = nn -> f x out = Ok res -> (forall g, (g < nn)%nat -> nth g res 0 = 0) -> forall g, (g < nn)%nat -> nth g x 0 = 0.
Proof.
  intros Lx Lo E Z g Hg. destruct (HE x Lx) as (U & HU). destruct (HW x out U _ HU (slopes_d U) Lo) as (res' & q & T & E' & _ & Lq & Wq & WT & HP). assert (res' = res) by congruence. subst res'.
  assert (HT : forall k p, (k < K)%nat -> (length p <= Np)%nat -> integral_is (fun x0 => w / 2 * peval (T k) x0 * peval p x0) (-1) 1 0).
  { intros k p Hk Lp. set (V := fun j => if (j =? k)%nat then p else []). assert (HV : forall j, (j < K)%nat -> (length (V j) <= Np)%nat) by (intros j Hj; unfold V; destruct (j =? k)%nat; [exact Lp|cbn; lia]).
    destruct (HP _ V (vec_holds V HV)) as (s & Hs & Es).
    assert (E0 : sumn K s = 0) by (rewrite <- Es; apply sumn_zero; intros j Hj; rewrite Z by exact Hj; ring).
    rewrite (sumn_pick K s k Hk) in E0.
    - pose proof (Hs k Hk) as H. rewrite E0 in H. unfold V in H. rewrite Nat.eqb_refl in H. exact H.
    - intros j Hj Hne. eapply integral_unique; [apply Hs; exact Hj|]. apply (integral_ext (fun _ => 0)); [|apply integral_zero]. intro x0. unfold V. destruct (Nat.eqb_spec j k); [contradiction|]. cbn [peval]. ring. }
  pose proof (kernel_zero N K w U q T Hw HK (fun k Hk => proj1 (proj2 HU k Hk)) Lq HT Wq WT) as Z0.
  assert (Hd : (g / Np < K)%nat) by (apply Nat.div_lt_upper_bound; lia). pose proof (Nat.mod_upper_bound g Np ltac:(lia)) as Hm.
  destruct (proj2 HU _ Hd) as (_ & H). specialize (H _ Hm). rewrite Z0 in H by exact Hd. replace g with (g mod Np + g / Np * Np)%nat; [exact H|]. pose proof (Nat.div_mod g Np ltac:(lia)). lia.
Qed.
Lemma op_nonsingular : nonsingular nn mat_of.
Proof.
  intros x Hx i Hi. assert (Lx : length (tab nn x) = nn) by apply tab_len. assert (Lz : length zerov = nn) by apply tab_len.
  destruct (op_total (tab nn x) zerov Lx Lz) as (res & E & _). rewrite <- (tab_nth_R nn x i Hi). apply (op_kernel _ _ _ Lx Lz E); [|exact Hi].
  intros g Hg. rewrite (op_matrix _ _ _ Lx Lz E g Hg). transitivity (times nn mat_of x g); [|exact (Hx g Hg)]. apply times_ext. intros j Hj. apply tab_nth_R. exact Hj.
Qed.
Lemma op_solvable b : length b = nn -> exists x, length x = nn /\ (forall out, length out = nn -> f x out = Ok b) /\ forall y out, length y = nn -> length out = nn -> f y out = Ok b -> y = x.
Proof.
  intro Lb. destruct (gauss_ok nn mat_of (fun g => nth g b 0) op_nonsingular) as (xf & _ & Hx). set (x := tab nn xf). assert (Lx : length x = nn) by apply tab_len. exists x. split; [exact Lx|]. split.
  - intros out Lo. destruct (op_total x out Lx Lo) as (res & E & Lr). rewrite E. f_equal. apply (nth_ext _ _ 0 0); [congruence|]. intros g Hg. rewrite Lr in Hg. rewrite (op_matrix _ _ _ Lx Lo E g Hg). transitivity (times nn mat_of xf g); [|exact (Hx g Hg)]. apply times_ext. intros j Hj. apply tab_nth_R. exact Hj.
  - intros y out Ly Lo E. apply (nth_ext _ _ 0 0); [congruence|]. intros g Hg. rewrite Ly in Hg. apply (solution_unique nn mat_of (fun j => nth j y 0) (fun j => nth j x 0)); [apply op_nonsingular| |exact Hg].
    intros i Hi. rewrite <- (op_matrix _ _ _ Ly Lo E i Hi). transitivity (times nn mat_of xf i); [symmetry; exact (Hx i Hi)|]. apply times_ext. intros j Hj. symmetry. apply tab_nth_R. exact Hj.
Qed.

(* smooth fields: the operator gives the tested second derivative *)
Lemma op_smooth inp out U D F b : holds Np K r inp U -> smooth_and_pinned K U D -> second_derivative w D F -> (forall k, (k < K)%nat -> (length (F k) <= Np)%nat) -> length out = nn ->
  tests Np K w r F b -> f inp out = Ok b.
Proof.
  intros HU (HD & Z0 & ZK & HC) HF LF Lo (Lb & Tb). destruct (HW inp out U D HU HD Lo) as (res & q & T & E & Lr & Lq & Wq & WT & HP). rewrite E. f_equal.
  assert (Ed : forall k x, dpeval (U k) x = D k x) by (intros k x; eapply uniqueness_limite; [apply dpeval_ok|apply HD]).
  assert (Tr : forall k, (k < K)%nat -> trace_mean K 0 0 U k = peval (U k) (-1) /\ trace_mean K 0 0 U (S k) = peval (U k) 1).
  { intros k Hk. split.
    - destruct k as [|e]; cbn [trace_mean]; [symmetry; exact Z0|]. destruct (Nat.eqb_spec (S e) K); [lia|]. destruct (HC e ltac:(lia)) as (-> & _). field.
    - cbn [trace_mean]. destruct (Nat.eqb_spec (S k) K) as [e0|]; [replace k with (K - 1)%nat by lia; symmetry; exact ZK|]. destruct (HC k ltac:(lia)) as (-> & _). field. }
  assert (Qv : forall k, (k < K)%nat -> forall x, peval (q k) x = 2 / w * D k x).
  { intros k Hk. destruct (der_low (U k) Np ltac:(pose proof (proj1 (proj2 HU k Hk)); lia)) as (d & Ld & Hd). set (e := padd (pscal (w / 2) (q k)) (pscal (-1) d)).
    assert (Le : (length e <= Np)%nat) by (unfold e; rewrite padd_len, !pscal_len; specialize (Lq k Hk); lia). assert (He : forall x, peval e x = w / 2 * peval (q k) x - D k x) by (intro x; unfold e; rewrite padd_eval, !pscal_eval, <- Hd, Ed; ring).
    pose proof (Wq k Hk (D k) (HD k) e Le) as H. destruct (Tr k Hk) as (T1 & T2). cbv beta in H. rewrite T1, T2 in H.
    assert (Z : forall x, peval e x = 0) by (apply (zero_square Np); [exists e; split; [lia|reflexivity]|]; eapply integral_val; [|eapply integral_ext; [|exact H]]; [ring|intro x; cbv beta; rewrite He; ring]).
    intro x. specialize (Z x). rewrite He in Z. apply Rmult_eq_reg_l with (w / 2); [|lra]. replace (w / 2 * (2 / w * D k x)) with (D k x) by (field; exact Hw). lra. }
  assert (Fx : forall k, (k < K)%nat -> penalty_flux K w tau U D k = peval (q k) (-1) /\ penalty_flux K w tau U D (S k) = peval (q k) 1).
  { pose proof (Rabs_no_R0 _ Hw) as Hr. intros k Hk. rewrite !Qv by exact Hk. split.
    - destruct k as [|e]; cbn [penalty_flux]; [rewrite Z0; field; auto|]. destruct (Nat.eqb_spec (S e) K); [lia|]. destruct (HC e ltac:(lia)) as (-> & ->). field. auto.
    - cbn [penalty_flux]. destruct (Nat.eqb_spec (S k) K) as [e0|]; [replace k with (K - 1)%nat by lia; rewrite ZK; field; auto|]. destruct (HC k ltac:(lia)) as (-> & ->). field. auto. }
  apply (nth_ext _ _ 0 0); [congruence|]. intros g Hg. rewrite Lr in Hg. rewrite <- (unit_dot g res), <- (unit_dot g b) by exact Hg. destruct (HE (unitv g) (unit_len g)) as (V & HV).
  destruct (HP _ V HV) as (s & Hs & ->). destruct (Tb _ V HV) as (s' & Hs' & ->). apply sumn_ext. intros k Hk. eapply integral_unique; [|apply (Hs' k Hk)].
  assert (LV : (length (V k) <= Np)%nat) by (apply HV; exact Hk). 
  assert (dq : forall x, derivable_pt_lim (peval (q k)) x (2 / w * ((w / 2) ^ 2 * peval (F k) x))) by (intro x; eapply dpl_ext; [intro t; symmetry; apply (Qv k Hk)|]; apply derivable_pt_lim_scal; apply HF).
  pose proof (WT k Hk _ dq (V k) LV) as H. destruct (Fx k Hk) as (F1 & F2). cbv beta in H. rewrite F1, F2 in H.
  eapply integral_val; [|eapply integral_ext; [|exact (integral_plus _ _ _ _ _ _ (Hs k Hk) (integral_scal (-1) _ _ _ _ H))]]; [ring|]. intro x. cbv beta. field. exact Hw.
Qed.
End Op.
