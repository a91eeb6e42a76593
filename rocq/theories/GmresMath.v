(* GmresMath.v - linear algebra behind GMRES, on vectors of length N given by their components. *)
From Coq Require Import List Lia Arith Bool.
From Verif Require Import Loops JacobiSpec JacobiProofs JacobiQuadProofs GmresSpec.
From Coq Require Import Reals Lra.
Local Open Scope R_scope.

Section Vec.
Variable N : nat.
Notation vec := (nat -> R).
Local Notation dot := (dot N). Local Notation veq := (veq N). Local Notation span := (span N). Local Notation ap := (ap N).

Lemma veq_refl u : veq u u. Proof. intros a _. reflexivity. Qed.
Lemma veq_trans u v w : veq u v -> veq v w -> veq u w.
Proof. intros H K a Ha. rewrite H, K by auto. reflexivity. Qed.
Lemma veq_sym u v : veq u v -> veq v u.
Proof. intros H a Ha. symmetry. auto. Qed.
Lemma dot_ext u u' v v' : veq u u' -> veq v v' -> dot u v = dot u' v'.
Proof. intros H K. apply sumn_ext. intros. rewrite H, K by auto. reflexivity. Qed.
Lemma dot_comm u v : dot u v = dot v u.
Proof. apply sumn_ext. intros. ring. Qed.
Lemma dot_lin a u b v w : dot (fun x => a * u x + b * v x) w = a * dot u w + b * dot v w.
Proof. unfold dot. rewrite <- !sumn_scal, <- sumn_plus. apply sumn_ext. intros. ring. Qed.
Lemma dot_lin_r a u b v w : dot w (fun x => a * u x + b * v x) = a * dot w u + b * dot w v.
Proof. rewrite dot_comm, dot_lin, (dot_comm u), (dot_comm v). reflexivity. Qed.
Lemma dot_lc n c v w : dot (lc n c v) w = sumn n (fun l => c l * dot (v l) w).
Proof.
  unfold dot, lc. transitivity (sumn N (fun a => sumn n (fun l => c l * v l a * w a))).
  - apply sumn_ext. intros a Ha. rewrite Rmult_comm, <- sumn_scal. apply sumn_ext. intros. ring.
  - rewrite sumn_swap. apply sumn_ext. intros l Hl. rewrite <- sumn_scal. apply sumn_ext. intros. ring.
Qed.
Lemma dot_nonneg u : 0 <= dot u u.
Proof. apply sumn_nonneg. intros. nra. Qed.
Lemma sumn_nonneg_0 n f : (forall i, (i < n)%nat -> 0 <= f i) -> sumn n f = 0 -> forall i, (i < n)%nat -> f i = 0.
Proof.
  induction n as [|n IH]; intros H E i Hi; [lia|]. rewrite sumn_S in E.
  pose proof (H n ltac:(lia)). assert (0 <= sumn n f) by (apply sumn_nonneg; intros; apply H; lia).
  destruct (Nat.eq_dec i n) as [->|]; [lra|]. apply IH; [intros; apply H; lia|lra|lia].
Qed.
Lemma dot_zero u : dot u u = 0 -> veq u (fun _ => 0).
Proof. intros H a Ha. pose proof (sumn_nonneg_0 N _ (fun i _ => Rle_0_sqr (u i)) H a Ha) as E. cbv beta in E. unfold Rsqr in E. nra. Qed.

Lemma ap_ext P u v : veq u v -> veq (ap P u) (ap P v).
Proof. intros H a Ha. apply sumn_ext. intros. rewrite H by auto. reflexivity. Qed.
Lemma ap_lc P n c v : veq (ap P (lc n c v)) (lc n c (fun l => ap P (v l))).
Proof.
  intros a Ha. unfold ap, lc. transitivity (sumn N (fun b => sumn n (fun l => P a b * (c l * v l b)))).
  - apply sumn_ext. intros. now rewrite sumn_scal.
  - rewrite sumn_swap. apply sumn_ext. intros l Hl. rewrite <- sumn_scal. apply sumn_ext. intros. ring.
Qed.
Lemma ap_lin P a u b v : veq (ap P (fun x => a * u x + b * v x)) (fun x => a * ap P u x + b * ap P v x).
Proof. intros x Hx. unfold ap. rewrite <- !sumn_scal, <- sumn_plus. apply sumn_ext. intros. ring. Qed.
Lemma ap_ap P M u : veq (ap P (ap M u)) (ap (fun a b => sumn N (fun k => P a k * M k b)) u).
Proof.
  intros a Ha. unfold ap. transitivity (sumn N (fun b => sumn N (fun k => P a b * (M b k * u k)))).
  - apply sumn_ext. intros. now rewrite sumn_scal.
  - rewrite sumn_swap. apply sumn_ext. intros k Hk. rewrite (Rmult_comm (sumn N _)), <- sumn_scal. apply sumn_ext. intros. ring.
Qed.

(* --- spans --- *)
Lemma span_ext n v u u' : veq u u' -> span n v u -> span n v u'.
Proof. intros H (c & E). exists c. eapply veq_trans; [apply veq_sym; exact H|exact E]. Qed.
Lemma span_gen n v j : (j < n)%nat -> span n v (v j).
Proof. intro H. exists (fun l => if (l =? j)%nat then 1 else 0). intros a Ha. unfold lc. rewrite (sumn_pick n _ j); [|auto|].
  - rewrite Nat.eqb_refl. ring.
  - intros k _ Hk. rewrite (proj2 (Nat.eqb_neq k j) Hk). ring.
Qed.
Lemma span_lin n v a u b w : span n v u -> span n v w -> span n v (fun x => a * u x + b * w x).
Proof.
  intros (c & E) (d & F). exists (fun l => a * c l + b * d l). intros x Hx. rewrite (E x Hx), (F x Hx). unfold lc.
  rewrite <- !sumn_scal, <- sumn_plus. apply sumn_ext. intros. ring.
Qed.
Lemma span_scal n v a u : span n v u -> span n v (fun x => a * u x).
Proof. intro H. eapply span_ext; [|exact (span_lin n v a u 0 u H H)]. intros x _. cbv beta. ring. Qed.
Lemma span_zero n v : span n v (fun _ => 0).
Proof. exists (fun _ => 0). intros a _. symmetry. apply sumn_zero. intros. ring. Qed.
Lemma span_lc n v m c w : (forall l, (l < m)%nat -> span n v (w l)) -> span n v (lc m c w).
Proof.
  induction m as [|m IH]; intro H.
  - eapply span_ext; [|apply span_zero]. intros a _. reflexivity.
  - eapply span_ext; [|apply (span_lin n v 1 (lc m c w) (c m) (w m)); [apply IH; intros; apply H; lia|apply H; lia]].
    intros a _. unfold lc. rewrite sumn_S. ring.
Qed.
Lemma span_le n m v u : (n <= m)%nat -> span n v u -> span m v u.
Proof. intros H (c & E). eapply span_ext; [apply veq_sym; exact E|]. apply span_lc. intros. apply span_gen. lia. Qed.
Lemma span_sub n m v w u : (forall l, (l < n)%nat -> span m w (v l)) -> span n v u -> span m w u.
Proof. intros H (c & E). eapply span_ext; [apply veq_sym; exact E|]. apply span_lc. exact H. Qed.
Lemma span_orth n v u w : span n v u -> (forall l, (l < n)%nat -> dot (v l) w = 0) -> dot u w = 0.
Proof. intros (c & E) H. rewrite (dot_ext u (lc n c v) w w E (veq_refl _)), dot_lc. apply sumn_zero. intros. rewrite H by auto. ring. Qed.
Lemma span_ap P n v u : span n v u -> span n (fun l => ap P (v l)) (ap P u).
Proof. intros (c & E). exists c. eapply veq_trans; [apply ap_ext; exact E|apply ap_lc]. Qed.

(* --- orthonormal families --- *)
Local Notation ortho := (ortho N).
Lemma ortho_norm n v c : ortho n v -> dot (lc n c v) (lc n c v) = sumn n (fun l => c l * c l).
Proof.
  intro H. rewrite dot_lc. apply sumn_ext. intros l Hl. f_equal. rewrite dot_comm, dot_lc. rewrite (sumn_pick n _ l Hl).
  - rewrite H, Nat.eqb_refl by auto. ring.
  - intros k Hk Hkl. rewrite H, (proj2 (Nat.eqb_neq k l) Hkl) by auto. ring.
Qed.
(* at most N orthonormal vectors *)
Lemma ortho_le n v : ortho n v -> (n <= N)%nat.
Proof.
  intro H.
  assert (B : forall a, (a < N)%nat -> sumn n (fun l => v l a * v l a) <= 1).
  { intros a Ha. set (e := fun b => if (b =? a)%nat then 1 else 0).
    assert (De : forall u, dot e u = u a).
    { intro u. unfold dot, e. rewrite (sumn_pick N _ a Ha); [rewrite Nat.eqb_refl; ring|]. intros k _ Hk. rewrite (proj2 (Nat.eqb_neq k a) Hk). ring. }
    pose proof (dot_nonneg (fun x => 1 * e x + (-1) * lc n (fun l => v l a) v x)) as P.
    rewrite dot_lin, !dot_lin_r, De in P. rewrite (dot_comm _ e), De, (ortho_norm n v _ H) in P. unfold e at 1 in P. rewrite Nat.eqb_refl in P.
    unfold lc in P. lra. }
  assert (S1 : sumn N (fun a => sumn n (fun l => v l a * v l a)) <= sumn N (fun _ => 1)).
  { clear -B. revert B. generalize N. intro M. induction M as [|M IH]; intro B; [cbn; lra|]. rewrite !sumn_S. pose proof (B M ltac:(lia)).
    assert (sumn M (fun a => sumn n (fun l => v l a * v l a)) <= sumn M (fun _ => 1)) by (apply IH; intros; apply B; lia). lra. }
  rewrite sumn_swap in S1. rewrite (sumn_ext n _ (fun _ => 1)) in S1.
  - assert (C : forall m, sumn m (fun _ => 1) = INR m) by (induction m; [reflexivity|rewrite sumn_S, S_INR, IHm; ring]).
    rewrite !C in S1. now apply INR_le.
  - intros l Hl. specialize (H l l Hl Hl). rewrite Nat.eqb_refl in H. exact H.
Qed.

(* --- Givens rotations of the basis: T 0 = v 0, then (T j, v (j+1)) is turned into (Q j, T (j+1)) --- *)
Section Givens.
Variable v : nat -> vec.
Variables c s : nat -> R.
Fixpoint Tv (j : nat) : vec := match j with O => v 0%nat | S m => fun a => c m * v (S m) a + (- s m) * Tv m a end.
Definition Qv (j : nat) : vec := fun a => c j * Tv j a + s j * v (S j) a.
Lemma Tv_S j : Tv (S j) = fun a => c j * v (S j) a + (- s j) * Tv j a. Proof. reflexivity. Qed.
Lemma rot_coords j x y a : c j * c j + s j * s j = 1 ->
  x * Tv j a + y * v (S j) a = (c j * x + s j * y) * Qv j a + (c j * y - s j * x) * Tv (S j) a.
Proof.
  intro H. rewrite Tv_S. unfold Qv.
  transitivity ((c j * c j + s j * s j) * (x * Tv j a + y * v (S j) a)); [rewrite H; ring|ring].
Qed.
Variable i : nat.
Hypothesis Hv : ortho (S i) v.
Hypothesis Hc : forall j, (j < i)%nat -> c j * c j + s j * s j = 1.
Lemma T_span j : (j <= i)%nat -> span (S j) v (Tv j).
Proof.
  induction j as [|j IH]; intro H; [apply (span_gen 1 v 0); lia|]. rewrite Tv_S. apply span_lin; [apply span_gen; lia|].
  apply span_le with (S j); [lia|apply IH; lia].
Qed.
Lemma Q_span j : (j < i)%nat -> span (S (S j)) v (Qv j).
Proof. intro H. unfold Qv. apply span_lin; [apply span_le with (S j); [lia|apply T_span; lia]|apply span_gen; lia]. Qed.
Lemma T_v j m : (j < m)%nat -> (m <= i)%nat -> dot (Tv j) (v m) = 0.
Proof.
  intros H K. apply (span_orth (S j) v); [apply T_span; lia|]. intros l Hl. rewrite Hv by lia. rewrite (proj2 (Nat.eqb_neq l m)) by lia. reflexivity.
Qed.
Lemma Q_v j m : (S j < m)%nat -> (m <= i)%nat -> dot (Qv j) (v m) = 0.
Proof.
  intros H K. apply (span_orth (S (S j)) v); [apply Q_span; lia|]. intros l Hl. rewrite Hv by lia. rewrite (proj2 (Nat.eqb_neq l m)) by lia. reflexivity.
Qed.
Lemma v_unit j : (j <= i)%nat -> dot (v j) (v j) = 1.
Proof. intro. rewrite Hv, Nat.eqb_refl by lia. reflexivity. Qed.
Lemma T_unit j : (j <= i)%nat -> dot (Tv j) (Tv j) = 1.
Proof.
  induction j as [|j IH]; intro H; [apply v_unit; lia|]. rewrite Tv_S, dot_lin, !dot_lin_r. rewrite (dot_comm (v (S j)) (Tv j)), T_v, v_unit, IH by lia.
  pose proof (Hc j ltac:(lia)). nra.
Qed.
Lemma Q_T l j : (l < j)%nat -> (j <= i)%nat -> dot (Qv l) (Tv j) = 0.
Proof.
  revert l. induction j as [|j IH]; intros l H K; [lia|]. rewrite Tv_S, dot_lin_r. destruct (Nat.eq_dec l j) as [->|].
  - unfold Qv. rewrite !dot_lin, T_v, v_unit, T_unit, (dot_comm (v (S j)) (Tv j)), T_v by lia. ring.
  - rewrite Q_v, IH by lia. ring.
Qed.
Lemma Q_ortho : ortho i Qv.
Proof.
  assert (D : forall l m, (l < m)%nat -> (m < i)%nat -> dot (Qv l) (Qv m) = 0).
  { intros l m H K. unfold Qv at 2. rewrite dot_lin_r, Q_T, Q_v by lia. ring. }
  intros j l Hj Hl. destruct (j =? l)%nat eqn:E.
  - apply Nat.eqb_eq in E. subst l. unfold Qv. rewrite dot_lin, !dot_lin_r, T_unit, v_unit, (dot_comm (v (S j)) (Tv j)), T_v by lia.
    pose proof (Hc j Hj). nra.
  - apply Nat.eqb_neq in E. destruct (Nat.lt_ge_cases j l); [apply D; lia|rewrite dot_comm; apply D; lia].
Qed.
End Givens.

(* --- one cycle: columns v, triangular factor R, rotated right-hand side g --- *)
Section Cycle.
Variable P : nat -> nat -> R.                              (* the preconditioned operator *)
Variable k : nat.
Variables v q : nat -> vec.
Variable t : vec.
Variable Rm : nat -> nat -> R.
Variable g : nat -> R.
Variable r : vec.
Hypothesis Hq : ortho k q.
Hypothesis Hqt : forall l, (l < k)%nat -> dot (q l) t = 0.
Hypothesis Ht : dot t t = 1 \/ g k = 0.
Hypothesis Hcol : forall j, (j < k)%nat -> veq (ap P (v j)) (lc (S j) (fun l => Rm l j) q).
Hypothesis Hr : veq r (fun a => lc k g q a + g k * t a).
Definition tri (y : nat -> R) (l : nat) : R := sumn k (fun j => (if (l <=? j)%nat then Rm l j else 0) * y j).
Lemma residual_form y : veq (fun a => r a - ap P (lc k y v) a) (fun a => lc k (fun l => g l - tri y l) q a + g k * t a).
Proof.
  intros a Ha. rewrite (Hr a Ha), (ap_lc P k y v a Ha). unfold lc at 1 2 3.
  assert (E : sumn k (fun l => y l * ap P (v l) a) = sumn k (fun l => tri y l * q l a)).
  { transitivity (sumn k (fun j => sumn k (fun l => (if (l <=? j)%nat then Rm l j else 0) * y j * q l a))).
    - apply sumn_ext. intros j Hj. rewrite (Hcol j Hj a Ha). unfold lc. rewrite <- sumn_scal.
      replace k with (S j + (k - S j))%nat by lia.
      assert (Sp : forall m n f, sumn (m + n) f = sumn m f + sumn n (fun x => f (m + x)%nat)).
      { intros m n f. induction n as [|n IH]; [rewrite Nat.add_0_r, sumn_0; ring|]. rewrite Nat.add_succ_r, !sumn_S, IH. ring. }
      rewrite Sp. rewrite (sumn_zero (k - S j)).
      + rewrite Rplus_0_r. apply sumn_ext. intros l Hl. rewrite (proj2 (Nat.leb_le l j)) by lia. ring.
      + intros x Hx. rewrite (proj2 (Nat.leb_gt (S j + x) j)) by lia. ring.
    - rewrite sumn_swap. apply sumn_ext. intros l Hl. unfold tri. rewrite (Rmult_comm (sumn k _)), <- sumn_scal. apply sumn_ext. intros. ring. }
  rewrite E. transitivity (sumn k (fun l => g l * q l a) + (-1) * sumn k (fun l => tri y l * q l a) + g k * t a); [ring|].
  rewrite <- sumn_scal, <- sumn_plus. f_equal. apply sumn_ext. intros. ring.
Qed.
Lemma residual_norm2 y : let e := fun a => r a - ap P (lc k y v) a in
  dot e e = sumn k (fun l => (g l - tri y l) * (g l - tri y l)) + g k * g k.
Proof.
  intro e. set (f := fun l => g l - tri y l). rewrite (dot_ext e (fun a => 1 * lc k f q a + g k * t a) e (fun a => 1 * lc k f q a + g k * t a)).
  - assert (Z0 : dot (lc k f q) t = 0) by (rewrite dot_lc; apply sumn_zero; intros l Hl; rewrite Hqt by auto; ring).
    rewrite dot_lin, !dot_lin_r, (ortho_norm k q f Hq), (dot_comm t), Z0. unfold f. destruct Ht as [-> | ->]; ring.
  - intros a Ha. unfold e. rewrite (residual_form y a Ha). unfold f. ring.
  - intros a Ha. unfold e. rewrite (residual_form y a Ha). unfold f. ring.
Qed.
End Cycle.

(* --- Krylov space --- *)
Section Krylov.
Variable P : nat -> nat -> R.
Variable r : vec.
Local Notation kry := (kry N P r).
Variable v : nat -> vec.
Variable i : nat.
Variable beta : R.
Hypothesis Hb : beta <> 0.
Hypothesis H0 : veq r (fun a => beta * v 0%nat a).
Hypothesis Hh : forall j, (j < i)%nat -> exists h, h (S j) <> 0 /\ veq (ap P (v j)) (lc (S (S j)) h v).
Lemma v_in_krylov : forall j, (j <= i)%nat -> span (S j) kry (v j).
Proof.
  assert (All : forall m, (m <= i)%nat -> forall j, (j <= m)%nat -> span (S j) kry (v j)).
  { induction m as [|m IH]; intros Hm j Hj.
    - assert (j = 0)%nat by lia. subst j. eapply span_ext; [|apply (span_scal 1 kry (/ beta) r); apply (span_gen 1 kry 0); lia].
      intros a Ha. rewrite (H0 a Ha). field. exact Hb.
    - destruct (Nat.eq_dec j (S m)) as [->|]; [|apply IH; lia]. destruct (Hh m ltac:(lia)) as (h & Hn & E).
      assert (S1 : span (S (S m)) kry (ap P (v m))).
      { apply (span_sub (S m) (S (S m)) (fun l => ap P (kry l)) kry); [|apply span_ap; apply IH; lia].
        intros l Hl. change (ap P (kry l)) with (kry (S l)). apply span_gen. lia. }
      assert (S2 : span (S (S m)) kry (lc (S m) h v)).
      { apply span_lc. intros l Hl. apply span_le with (S l); [lia|]. apply IH; lia. }
      eapply span_ext; [|exact (span_lin _ _ (/ h (S m)) _ (- / h (S m)) _ S1 S2)].
      intros a Ha. rewrite (E a Ha). unfold lc. rewrite (sumn_S (S m)). field. exact Hn. }
  intros j H. exact (All j H j (le_n j)).
Qed.
Lemma krylov_in_v j : (j <= i)%nat -> span (S j) v (kry j).
Proof.
  induction j as [|j IH]; intro H.
  - exists (fun _ => beta). intros a Ha. cbn [GmresSpec.kry]. rewrite (H0 a Ha). unfold lc. rewrite sumn_S, sumn_0. ring.
  - cbn [GmresSpec.kry]. apply (span_sub (S j) (S (S j)) (fun l => ap P (v l)) v); [|apply span_ap; apply IH; lia].
    intros l Hl. destruct (Hh l ltac:(lia)) as (h & _ & E). apply span_le with (S (S l)); [lia|]. exists h. exact E.
Qed.
End Krylov.
End Vec.
