(* GllProofs.v - the Gauss-Lobatto points are symmetric about 0, and they are determined by being increasing zeros. *)
From Coq Require Import ZArith List Lia Bool Arith.
From Verif Require Import Base Loops Num JacobiModel JacobiSpec JacobiProofs JacobiOrthProofs JacobiQuadProofs JacobiExactProofs.
From Coq Require Import Reals Lra.
Import ListNotations.
Local Open Scope R_scope.

(* a polynomial with more zeros than its degree vanishes *)
Lemma deflate a cs : forall k, (length cs <= S k)%nat -> exists ds, (length ds <= k)%nat /\ forall x, peval cs x = peval cs a + (x - a) * peval ds x.
Proof.
  induction cs as [|c cs IH]; intros k Hk; [exists []; split; [cbn; lia|]; intro; cbn; ring|]. cbn [length] in Hk.
  destruct cs as [|c' cs]; [exists []; split; [cbn; lia|]; intro; cbn; ring|]. destruct k as [|k]; [cbn [length] in Hk; lia|].
  destruct (IH k ltac:(lia)) as (ds & Ld & Hd). exists (peval (c' :: cs) a :: ds). split; [cbn [length]; lia|]. intro x.
  change (peval (c :: c' :: cs) x) with (c + x * peval (c' :: cs) x). change (peval (c :: c' :: cs) a) with (c + a * peval (c' :: cs) a). change (peval (peval (c' :: cs) a :: ds) x) with (peval (c' :: cs) a + x * peval ds x). rewrite Hd. ring.
Qed.
Lemma too_many_roots k : forall cs l, (length cs <= k)%nat -> NoDup l -> length l = k -> (forall x, In x l -> peval cs x = 0) -> forall x, peval cs x = 0.
Proof.
  induction k as [|k IH]; intros cs l Hk Nl Ll Hr x.
  - destruct cs; [reflexivity|cbn in Hk; lia].
  - destruct l as [|a l]; [discriminate|]. inversion Nl as [|? ? Ha Nl']; subst. destruct (deflate a cs k Hk) as (ds & Ld & Hd). rewrite Hd, (Hr a) by (left; reflexivity).
    rewrite (IH ds l Ld Nl' ltac:(cbn in Ll; lia)); [ring|]. intros y Hy. pose proof (Hd y) as H. rewrite (Hr y), (Hr a) in H by (cbn; auto).
    assert (y - a <> 0) by (intro Z; apply Ha; replace a with y by lra; exact Hy). apply Rmult_eq_reg_l with (y - a); [lra|assumption].
Qed.

(* increasing lists of reals with the same elements *)
Definition rincr (l : list R) : Prop := forall i, (S i < length l)%nat -> nth i l 0 < nth (S i) l 0.
Lemma rincr_lt l : rincr l -> forall i j, (i < j < length l)%nat -> nth i l 0 < nth j l 0.
Proof.
  intros H i j. induction j as [|j IH]; intros Hj; [lia|]. destruct (Nat.eq_dec i j) as [->|]; [apply H; lia|]. specialize (IH ltac:(lia)). specialize (H j ltac:(lia)). lra.
Qed.
Lemma rincr_nodup l : rincr l -> NoDup l.
Proof.
  intro H. apply (NoDup_nth l 0). intros i j Hi Hj E. destruct (Nat.lt_trichotomy i j) as [L|[L|L]]; [|exact L|].
  - pose proof (rincr_lt l H i j ltac:(lia)). lra.
  - pose proof (rincr_lt l H j i ltac:(lia)). lra.
Qed.
Lemma rincr_tail a l : rincr (a :: l) -> rincr l /\ forall x, In x l -> a < x.
Proof.
  intro H. split; [intros i Hi; apply (H (S i)); cbn [length]; lia|]. intros x Hx. destruct (In_nth _ _ 0 Hx) as (i & Hi & <-). apply (rincr_lt _ H 0%nat (S i)). cbn [length]. lia.
Qed.
Lemma rincr_eq l : forall m, rincr l -> rincr m -> (forall x, In x l <-> In x m) -> l = m.
Proof.
  induction l as [|a l IH]; intros [|b m] Hl Hm HI; [reflexivity|destruct (proj2 (HI b)); left; reflexivity|destruct (proj1 (HI a)); left; reflexivity|].
  destruct (rincr_tail _ _ Hl) as (Hl' & La). destruct (rincr_tail _ _ Hm) as (Hm' & Lb).
  assert (E : a = b).
  { destruct (proj1 (HI a) (or_introl eq_refl)) as [->|Ha]; [reflexivity|]. destruct (proj2 (HI b) (or_introl eq_refl)) as [->|Hb]; [reflexivity|]. specialize (La _ Hb). specialize (Lb _ Ha). lra. }
  subst b. f_equal. apply IH; auto. intro x. split; intro Hx.
  - destruct (proj1 (HI x) (or_intror Hx)) as [<-|]; [specialize (La _ Hx); lra|assumption].
  - destruct (proj2 (HI x) (or_intror Hx)) as [<-|]; [specialize (Lb _ Hx); lra|assumption].
Qed.
(* two increasing lists of m zeros of the same nonzero polynomial of degree at most m *)
Lemma roots_unique cs m l l' : (length cs <= S m)%nat -> (exists x, peval cs x <> 0) -> length l = m -> length l' = m -> rincr l -> rincr l' ->
  (forall x, In x l -> peval cs x = 0) -> (forall x, In x l' -> peval cs x = 0) -> l = l'.
Proof.
  intros Lc (x0 & Hx0) Ll Ll' Il Il' Hl Hl'.
  assert (Hin : incl l' l).
  { intros y Hy. destruct (in_dec Req_EM_T y l) as [|Hn]; [assumption|]. exfalso. apply Hx0. apply (too_many_roots (S m) cs (y :: l)); auto.
    - constructor; [exact Hn|apply rincr_nodup, Il].
    - cbn. lia.
    - intros x [<-|Hx]; auto. }
  apply rincr_eq; auto. intro x. split; [|apply Hin]. apply (NoDup_length_incl (rincr_nodup _ Il')); [lia|exact Hin].
Qed.

Section Sym.
Variable G : R -> R.
Hypothesis HG : gamma_like G.
(* points given by: ends -1 and 1, increasing, interior zeros of the derivative of the Legendre polynomial *)
Definition gll_points (N : nat) (g : list R) : Prop :=
  length g = S N /\ nth 0 g 0 = -1 /\ nth N g 0 = 1 /\ (forall i, (i < N)%nat -> nth i g 0 < nth (S i) g 0) /\
  (forall i, (0 < i < N)%nat -> computeGradJacobi (exact G) [nth i g 0] 0 0 N = [0]).

Lemma gll_poly m : exists cs, (length cs <= S m)%nat /\ (exists x, peval cs x <> 0) /\
  forall x, computeGradJacobi (exact G) [x] 0 0 (S m) = [0] <-> peval cs x = 0.
Proof.
  destruct (mon_poly 1 1 m) as (cs & Lc & _ & Hc). exists cs. split; [lia|]. split.
  - exists 1. rewrite <- Hc. pose proof (mon_at1_pos 1 1 ltac:(lra) ltac:(lra) ltac:(lra) m) as Hp; apply Rgt_not_eq; exact Hp.
  - intro x. rewrite (grad_ok G 0 0) by (auto; lra). cbn [map]. rewrite <- Hc. unfold gjac, jac. replace (0 + 1) with 1 by ring.
    pose proof (nrm_pos G 1 1 ltac:(lra) ltac:(lra) ltac:(lra) HG m) as Hn.
    assert (Hs : 0 < sqrt (INR (S m) * (INR (S m) + (0 + 0) + 1))). { apply sqrt_lt_R0. pose proof (lt_0_INR (S m) ltac:(lia)). nra. }
    split.
    + intro H; apply (f_equal (hd 0)) in H; cbn [hd] in H. apply Rmult_integral in H. destruct H as [H|H]; [lra|]. unfold Rdiv in H. apply Rmult_integral in H. destruct H as [H|H]; [exact H|]. pose proof (Rinv_0_lt_compat _ Hn). lra.
    + intros ->. f_equal. unfold Rdiv. ring.
Qed.
Lemma gll_inner N g : gll_points N g -> (1 <= N)%nat -> let l := map (fun i => nth (S i) g 0) (seq 0 (N - 1)) in
  length l = (N - 1)%nat /\ rincr l /\ forall x, In x l -> computeGradJacobi (exact G) [x] 0 0 N = [0].
Proof.
  intros (Lg & g0 & gN & Hi & Hr) HN l. assert (Ll : length l = (N - 1)%nat) by (unfold l; rewrite map_length, seq_length; reflexivity). split; [exact Ll|].
  assert (Hnth : forall i, (i < N - 1)%nat -> nth i l 0 = nth (S i) g 0).
  { intros i H. unfold l. rewrite (nth_indep _ 0 (nth 1 g 0)) by (rewrite map_length, seq_length; lia). rewrite (map_nth (fun i => nth (S i) g 0) _ 0%nat), seq_nth by lia. reflexivity. }
  split.
  - intros i H. rewrite !Hnth by lia. apply Hi. lia.
  - intros x Hx. destruct (In_nth _ _ 0 Hx) as (i & H & <-). rewrite Ll in H. rewrite Hnth by lia. apply Hr. lia.
Qed.
Lemma gll_unique N g g' : (1 <= N)%nat -> gll_points N g -> gll_points N g' -> g = g'.
Proof.
  intros HN Hg Hg'. destruct (gll_inner N g Hg HN) as (L1 & I1 & R1). destruct (gll_inner N g' Hg' HN) as (L2 & I2 & R2).
  destruct N as [|m]; [lia|]. replace (S m - 1)%nat with m in * by lia. destruct (gll_poly m) as (cs & Lc & Hx & Hc).
  pose proof (roots_unique cs m _ _ Lc Hx L1 L2 I1 I2 (fun x H => proj1 (Hc x) (R1 x H)) (fun x H => proj1 (Hc x) (R2 x H))) as E.
  destruct Hg as (Lg & g0 & gN & _). destruct Hg' as (Lg' & g0' & gN' & _).
  apply nth_ext with 0 0; [congruence|]. intros i Hi. destruct i as [|i]; [congruence|]. destruct (Nat.eq_dec i m) as [->|Hne]; [congruence|].
  apply (f_equal (fun l => nth i l 0)) in E.
  rewrite !(nth_indep (map _ _) 0 (nth 1 g 0)) in E by (rewrite map_length, seq_length; lia). rewrite (map_nth (fun i => nth (S i) g 0) _ 0%nat), seq_nth in E by lia.
  rewrite (nth_indep (map _ _) (nth 1 g 0) (nth 1 g' 0)) in E by (rewrite map_length, seq_length; lia). rewrite (map_nth (fun i => nth (S i) g' 0) _ 0%nat), seq_nth in E by lia. exact E.
Qed.
Lemma gll_sym N g : (1 <= N)%nat -> gll_points N g -> forall i, (i <= N)%nat -> nth (N - i) g 0 = - nth i g 0.
Proof.
  intros HN Hg. assert (Hg' : gll_points N (map (fun i => - nth (N - i) g 0) (seq 0 (S N)))).
  { destruct Hg as (Lg & g0 & gN & Hi & Hr).
    assert (Hn : forall i, (i <= N)%nat -> nth i (map (fun i => - nth (N - i) g 0) (seq 0 (S N))) 0 = - nth (N - i) g 0).
    { intros i H. rewrite (nth_indep _ 0 (- nth (N - 0) g 0)) by (rewrite map_length, seq_length; lia). rewrite (map_nth (fun i => - nth (N - i) g 0) _ 0%nat), seq_nth by lia. reflexivity. }
    split; [rewrite map_length, seq_length; reflexivity|]. split; [rewrite Hn, Nat.sub_0_r by lia; lra|]. split; [rewrite Hn, Nat.sub_diag by lia; lra|]. split.
    - intros i H. rewrite !Hn by lia. pose proof (Hi (N - S i)%nat ltac:(lia)) as H1. replace (S (N - S i)) with (N - i)%nat in H1 by lia. lra.
    - intros i H. rewrite Hn by lia. specialize (Hr (N - i)%nat ltac:(lia)). revert Hr. destruct N as [|m]; [lia|]. rewrite !(grad_ok G 0 0) by (auto; lra). cbn [map]. unfold gjac, jac. replace (0 + 1) with 1 by ring.
      rewrite mon_parity by lra. intro Hz; apply (f_equal (hd 0)) in Hz; cbn [hd] in Hz. f_equal. replace (sqrt _ * _) with ((-1) ^ m * (sqrt (INR (S m) * (INR (S m) + (0 + 0) + 1)) * (mon 1 1 m (nth (S m - i) g 0) / nrm G 1 1 m))) by (unfold Rdiv; ring). rewrite Hz. ring. }
  intros i Hi. pose proof (gll_unique N g _ HN Hg Hg') as E. apply (f_equal (fun l => nth i l 0)) in E. 
  rewrite (nth_indep (map _ _) 0 (- nth (N - 0) g 0)) in E by (rewrite map_length, seq_length; lia). rewrite (map_nth (fun i => - nth (N - i) g 0) _ 0%nat), seq_nth in E by lia. cbn [plus] in E. lra.
Qed.
End Sym.
