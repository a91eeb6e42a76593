(* TriFilterProofs.v - the modal filter on triangles. *)
From Coq Require Import ZArith List Lia Bool Arith.
From Flocq Require Import IEEE754.BinarySingleNaN.
From Verif Require Import Base Loops Num DblProofs BlitzModel JacobiModel JacobiSpec JacobiProofs JacobiOrthProofs JacobiQuadProofs JacobiExactProofs DenseSpec Nodes1DModel Nodes1DSpec Nodes1DExactProofs TriModel TriSpec TriBasisProofs TriProofs TriOpProofs TriLiftProofs.
From Coq Require Import Reals Lra SpecFloat.
Import ListNotations.
Local Open Scope R_scope.

(* What the filter does to a mode of degree d: nothing below the cutoff, and from there on a factor falling from 1 at
   the cutoff to eps at the order N. *)
Definition damping (eps : R) (N : nat) (Nc : R) (sp d : nat) : R :=
  if Rlt_dec (INR d) Nc then 1 else exp (ln eps * ((INR d - Nc) / (INR N - Nc)) ^ sp).

Section Filter.
Variable G : R -> R.
Hypothesis HG : gamma_like G.
Local Notation E := (exact G).

Lemma damping_E eps N Nc sp i j : INR N <> Nc -> filter_diag E pow exp ln eps N Nc sp i j = damping eps N Nc sp (i + j).
Proof.
  intro Hn. unfold filter_diag, damping. rewrite !fofn_INR. cbn [exact fopp fmul fdiv fsub fle].
  destruct (Rlt_dec (INR (i + j)) Nc) as [Hlt|Hge].
  - unfold Rleb. destruct (Rle_dec Nc (INR (i + j))); [lra|]. reflexivity.
  - unfold Rleb. destruct (Rle_dec Nc (INR (i + j))); [|lra]. f_equal. ring.
Qed.
Lemma low_E eps N Nc sp i j : INR (i + j) < Nc -> filter_diag E pow exp ln eps N Nc sp i j = 1.
Proof.
  intro Hn. unfold filter_diag. rewrite !fofn_INR. cbn [exact fle]. unfold Rleb. destruct (Rle_dec Nc (INR (i + j))); [lra|]. reflexivity.
Qed.
Lemma damping_range eps N Nc sp d : 0 < eps <= 1 -> (d <= N)%nat -> INR N <> Nc -> eps <= damping eps N Nc sp d <= 1.
Proof.
  intros (He & He1) Hd Hn. unfold damping. destruct (Rlt_dec (INR d) Nc) as [Hlt|Hge]; [lra|].
  apply le_INR in Hd. set (k := (INR d - Nc) / (INR N - Nc)).
  assert (Hk : 0 <= k <= 1).
  { unfold k. split; [apply Rmult_le_pos; [lra|apply Rlt_le, Rinv_0_lt_compat; lra]|]. apply Rmult_le_reg_r with (INR N - Nc); [lra|]. unfold Rdiv. rewrite Rmult_assoc, Rinv_l by lra. lra. }
  assert (Hp : 0 <= k ^ sp <= 1) by (split; [apply pow_le; lra|]; clearbody k; clear - Hk; induction sp as [|n IH]; cbn [pow]; [lra|]; assert (0 <= k ^ n) by (apply pow_le; lra); nra).
  assert (Hl : ln eps <= 0) by (rewrite <- ln_1; destruct He1 as [He1| ->]; [apply Rlt_le, ln_increasing; lra|lra]).
  assert (Hmono : forall x y, x <= y -> exp x <= exp y) by (intros x y [H| ->]; [apply Rlt_le, exp_increasing, H|lra]).
  split.
  - rewrite <- (exp_ln eps) at 1 by lra. apply Hmono. nra.
  - rewrite <- exp_0. apply Hmono. nra.
Qed.

Variables (N : nat) (r s : list R).
Local Notation n := (length (modes N)).
Hypothesis Lr : length r = n.
Variables (F : mat R) (sig : nat -> R).
Hypothesis HF : forall i c, (i < n)%nat -> (c < n)%nat -> sumn n (fun m => ment F i m * bas G N c (nth m r 0) (nth m s 0)) = sig c * bas G N c (nth i r 0) (nth i s 0).

Lemma filter_modal p a i : modal G N p a -> (i < n)%nat ->
  sumn n (fun m => ment F i m * eval2 p (nth m r 0) (nth m s 0)) = sumn n (fun c => (sig c * a c) * bas G N c (nth i r 0) (nth i s 0)).
Proof.
  intros Hp Hi. rewrite (sumn_ext n _ (fun m => sumn n (fun c => a c * (ment F i m * bas G N c (nth m r 0) (nth m s 0))))).
  2: { intros m Hm. rewrite Hp, <- sumn_scal. apply sumn_ext. intros c Hc. ring. }
  rewrite sumn_swap. apply sumn_ext. intros c Hc. rewrite sumn_scal, HF by assumption. ring.
Qed.

Lemma filter_low p d : (d <= N)%nat -> degree2 d p -> (forall c, (c < n)%nat -> (fst (mode N c) + snd (mode N c) <= d)%nat -> sig c = 1) ->
  forall i, (i < n)%nat -> sumn n (fun m => ment F i m * eval2 p (nth m r 0) (nth m s 0)) = eval2 p (nth i r 0) (nth i s 0).
Proof.
  intros Hd Dp Hs i Hi. destruct (span_all G HG p d Dp) as (l & Dl & Hl). rewrite Hl.
  rewrite (sumn_ext n _ (fun m => ment F i m * lin2 G l (nth m r 0) (nth m s 0))) by (intros m Hm; rewrite Hl; reflexivity).
  clear p Dp Hl. induction l as [|[[a b] c] l IH]; cbn [lin2].
  - rewrite (sumn_ext n _ (fun _ => 0)) by (intros; ring). apply sumn_zero; reflexivity.
  - inversion Dl as [|? ? H1 H2]; subst. cbn [fst snd] in H1.
    rewrite (sumn_ext n _ (fun m => c * (ment F i m * sb G a b (nth m r 0) (nth m s 0)) + ment F i m * lin2 G l (nth m r 0) (nth m s 0))) by (intros; ring).
    rewrite sumn_plus, sumn_scal, (IH H2). f_equal. f_equal.
    destruct (In_nth_error (modes N) (a, b)) as (q & Hq); [apply modes_in; lia|]. destruct (mode_error _ _ _ _ Hq) as (Em & Lq).
    pose proof (HF i q Hi Lq) as H. unfold bas in H. rewrite Em in H. cbn [fst snd] in H. rewrite H, Hs by (auto; rewrite Em; cbn [fst snd]; lia). ring.
Qed.

Lemma filter_contract p : degree2 N p -> (forall c, (c < n)%nat -> 0 <= sig c <= 1) ->
  exists q, degree2 N q /\ (forall i, (i < n)%nat -> sumn n (fun m => ment F i m * eval2 p (nth m r 0) (nth m s 0)) = eval2 q (nth i r 0) (nth i s 0)) /\
  exists vp vq, triangle_integral (fun x y => eval2 p x y * eval2 p x y) vp /\ triangle_integral (fun x y => eval2 q x y * eval2 q x y) vq /\ vq <= vp.
Proof.
  intros Dp Hs. destruct (modal_ex G HG N p Dp) as (a & Ha). destruct (comb_poly G HG N (fun c => sig c * a c)) as (q & Dq & Hq).
  exists q. split; [exact Dq|]. split; [intros i Hi; rewrite (filter_modal p a i Ha Hi), Hq; reflexivity|].
  pose proof (parseval G HG N (eval2 p) (eval2 p) a a Ha Ha) as P1. pose proof (parseval G HG N (eval2 q) (eval2 q) _ _ Hq Hq) as P2.
  eexists. eexists. split; [exact P1|]. split; [exact P2|]. clear - Hs. induction n as [|m IH]; [apply Rle_refl|]. rewrite !sumn_S.
  apply Rplus_le_compat; [apply IH; intros; apply Hs; lia|]. specialize (Hs m ltac:(lia)).
  replace (sig m * a m * (sig m * a m)) with ((sig m * sig m) * (a m * a m)) by ring. assert (0 <= a m * a m) by apply Rle_0_sqr. assert (0 <= sig m * sig m <= 1) by nra. nra.
Qed.
End Filter.

(* ---- doubles: the cutoff equal to the order ---- *)
Section Nan.
Variables (pw : spec_float -> spec_float -> spec_float) (gam : spec_float -> spec_float).
Local Notation D := (dbl_arith pw gam).
Lemma nan_add_l x : fadd D S754_nan x = S754_nan. Proof. destruct x; reflexivity. Qed.
Lemma nan_add_r x : fadd D x S754_nan = S754_nan. Proof. destruct x as [| | |]; try destruct s; reflexivity. Qed.
Lemma nan_mul_l x : fmul D S754_nan x = S754_nan. Proof. destruct x; reflexivity. Qed.
Lemma nan_mul_r x : fmul D x S754_nan = S754_nan. Proof. destruct x as [| | |]; try destruct s; reflexivity. Qed.
Lemma nan_fold l (f : nat -> spec_float) a : a = S754_nan -> fold_left (fun s k => fadd D s (f k)) l a = S754_nan.
Proof. revert a. induction l as [|k l IH]; intros a Ha; [exact Ha|]. cbn [fold_left]. apply IH. rewrite Ha. apply nan_add_l. Qed.
Lemma nan_sum n (f : nat -> spec_float) k : (k < n)%nat -> f k = S754_nan -> fsum D n f = S754_nan.
Proof.
  intros Hk Hf. unfold fsum. replace n with (k + (1 + (n - k - 1)))%nat by lia. rewrite !seq_app, !fold_left_app. cbn [seq fold_left Nat.add]. apply nan_fold. rewrite Hf. apply nan_add_r.
Qed.

Lemma self_cancel z : (Z.abs z <= 2 ^ 53)%Z -> let x := dofZ z in fle D x x = true /\ fdiv D (fsub D x x) (fsub D x x) = S754_nan.
Proof.
  intro Hz. rewrite dofZ_bin. destruct (exact_int z Hz) as (_ & Fz & _). destruct (bnorm z 0 false) as [b|b| |b m e H]; try discriminate Fz; cbn zeta; cbn [B2SF].
  - split; [reflexivity|]. destruct b; reflexivity.
  - split.
    + cbn [dbl_arith fle]. unfold SFleb, SFcompare. destruct b; rewrite Z.compare_refl, Pos.compare_cont_refl; reflexivity.
    + assert (Hs : fsub D (S754_finite b m e) (S754_finite b m e) = S754_zero false).
      { cbn [dbl_arith fsub SFsub]. rewrite Z.sub_diag. reflexivity. }
      rewrite Hs. reflexivity.
Qed.

Variables (powi : spec_float -> nat -> spec_float) (fexp flog : spec_float -> spec_float) (eps : spec_float).
Lemma filter_nan N V Vi sp : (Z.of_nat N <= 2 ^ 53)%Z -> powi S754_nan sp = S754_nan -> fexp S754_nan = S754_nan ->
  mrows V = length (modes N) -> mcols V = length (modes N) ->
  exists F, buildFilter D powi fexp flog eps N V Vi (fofn D N) sp = Ok F /\ mrows F = length (modes N) /\ mcols F = mcols Vi /\ forall i j, ment F i j = S754_nan.
Proof.
  intros HN Hp He V1 V2. unfold buildFilter. rewrite V1. set (n := length (modes N)).
  destruct (for_modes_ok (fun c (F : mat spec_float) => (mrows F = n /\ mcols F = n) /\ forall a, (a < c)%nat -> forall i j, nth_error (modes N) a = Some (i, j) -> ment F a a = filter_diag D powi fexp flog eps N (fofn D N) sp i j) N
     (fun i j count F => mset F count count (filter_diag D powi fexp flog eps N (fofn D N) sp i j)) (mzero D n n)) as (F & EF & (F1 & F2) & HF).
  - split; [split; reflexivity|]. intros; lia.
  - intros c i j F Hc ((F1 & F2) & HF). destruct (mode_error _ _ _ _ Hc) as (_ & Lc). fold n in Lc. unfold mset. rewrite inb_true by lia. eexists. split; [reflexivity|]. cbn [mrows mcols ment]. split; [split; assumption|].
    intros a Ha i0 j0 H0. destruct (Nat.eqb_spec a c) as [->|Hne]; cbn [andb]; [rewrite Hc in H0; injection H0 as <- <-; reflexivity|]. apply HF; [lia|exact H0].
  - rewrite EF. cbn [bind]. eexists. split; [reflexivity|]. cbn [mmul mrows mcols ment]. rewrite V2. fold n in EF, HF. split; [exact V1|]. split; [reflexivity|]. intros i j.
    destruct (In_nth_error (modes N) (0%nat, N)) as (q & Hq); [apply modes_in; lia|]. destruct (mode_error _ _ _ _ Hq) as (_ & Lq). fold n in Lq.
    apply (nan_sum n _ q Lq). rewrite F2. rewrite (nan_sum n _ q Lq); [apply nan_mul_r|]. rewrite (HF q Lq _ _ Hq). cbn [plus].
    destruct (self_cancel (Z.of_nat N) ltac:(lia)) as (Hle & Hnan). unfold filter_diag. cbn [plus]. change (fofn D N) with (dofZ (Z.of_nat N)). rewrite Hle, Hnan, Hp, nan_mul_r, He. apply nan_mul_l.
Qed.
End Nan.
