(* SwStepProofs.v - lemmas for SwStepProps.v. *)
From Coq Require Import ZArith List Lia Bool Arith.
From Verif Require Import Base Loops Num JacobiSpec JacobiProofs JacobiOrthProofs JacobiQuadProofs Nodes1DModel Nodes1DExactProofs DenseSpec BlitzModel TriModel TriSpec TriGeoSpec TriSetup TriBasisProofs TriProofs TriLiftProofs TriOpProofs TriFilterProofs TriElemProofs TriProps TriDGSpec TriDGProofs
  RKModel Line1DModel Line1DProofs Line1DBurgersProofs SwModel SwSpec SwStepModel SwStepSpec.
From Coq Require Import Reals Lra.
Import ListNotations.
Local Open Scope R_scope.

Section InPlace.
Variable G : R -> R.
Local Notation E := (exact G).

Lemma entry_shape F i X j : mrows (filter_entry E F i X j) = mrows X /\ mcols (filter_entry E F i X j) = mcols X.
Proof. split; reflexivity. Qed.
(* one row *)
Lemma row_ok (F : mat R) i n : forall X, (forall a b, ment (fold_left (filter_entry E F i) (seq 0 n) X) a b =
    if ((a =? i) && (b <? n))%nat%bool then sumn (mcols F) (fun k => ment F i k * ment X k b) else ment X a b) /\
  mrows (fold_left (filter_entry E F i) (seq 0 n) X) = mrows X /\ mcols (fold_left (filter_entry E F i) (seq 0 n) X) = mcols X.
Proof.
  induction n as [|n IH]; intro X.
  - cbn [seq fold_left]. split; [|split; reflexivity]. intros a b. rewrite andb_comm. reflexivity.
  - rewrite seq_S, fold_left_app. cbn [fold_left Nat.add]. destruct (IH X) as (H & Hr & Hc). split.
    + intros a b. unfold filter_entry at 1, put. cbn [ment]. rewrite fsum_exact. destruct (Nat.eqb_spec a i) as [-> |Ha]; cbn [andb].
      * destruct (Nat.eqb_spec b n) as [-> |Hb].
        -- destruct (Nat.ltb_spec n (S n)); [|lia]. apply sumn_ext. intros k Hk. rewrite H. cbn [exact fmul]. destruct (Nat.ltb_spec n n); [lia|]. rewrite andb_false_r. reflexivity.
        -- rewrite H, Nat.eqb_refl. cbn [andb]. destruct (Nat.ltb_spec b n), (Nat.ltb_spec b (S n)); try lia; reflexivity.
      * rewrite H. destruct (Nat.eqb_spec a i); [contradiction|]. reflexivity.
    + unfold filter_entry at 1 3. cbn [put mrows mcols]. split; assumption.
Qed.
(* the rows up to n *)
Lemma rows_ok (F X : mat R) n : let Y := fold_left (fun X i => fold_left (filter_entry E F i) (seq 0 (mcols X)) X) (seq 0 n) X in
  mrows Y = mrows X /\ mcols Y = mcols X /\
  (forall a b, (n <= a)%nat -> ment Y a b = ment X a b) /\
  (forall a b, (a < n)%nat -> (b < mcols X)%nat -> ment Y a b = sumn (mcols F) (fun k => ment F a k * (if (k <? a)%nat then ment Y k b else ment X k b))).
Proof.
  induction n as [|n IH]; cbv zeta.
  - cbn [seq fold_left]. repeat split. intros; lia.
  - rewrite seq_S, fold_left_app. cbn [fold_left Nat.add]. cbv zeta in IH. set (Y := fold_left _ (seq 0 n) X) in *. destruct IH as (Hr & Hc & Hhi & Hlo).
    destruct (row_ok F n (mcols Y) Y) as (H & Hr' & Hc'). rewrite Hr', Hc'. split; [exact Hr|]. split; [exact Hc|]. split.
    + intros a b Ha. rewrite H. destruct (Nat.eqb_spec a n); [lia|]. apply Hhi. lia.
    + intros a b Ha Hb. rewrite H. destruct (Nat.eqb_spec a n) as [-> |Hne]; cbn [andb].
      * destruct (Nat.ltb_spec b (mcols Y)); [|lia]. apply sumn_ext. intros k Hk. f_equal. rewrite H.
        destruct (Nat.ltb_spec k n); [destruct (Nat.eqb_spec k n); [lia|reflexivity]|]. apply Hhi. lia.
      * rewrite Hlo by lia. apply sumn_ext. intros k Hk. f_equal. destruct (Nat.ltb_spec k a); [|reflexivity]. rewrite H. destruct (Nat.eqb_spec k n); [lia|reflexivity].
Qed.
Lemma in_place_ok (F X : mat R) : let Y := filter_in_place E F X in mrows Y = mrows X /\ mcols Y = mcols X /\
  forall i j, (i < mrows X)%nat -> (j < mcols X)%nat -> ment Y i j = sumn (mcols F) (fun k => ment F i k * (if (k <? i)%nat then ment Y k j else ment X k j)).
Proof.
  destruct (rows_ok F X (mrows X)) as (Hr & Hc & _ & H). cbv zeta. split; [exact Hr|]. split; [exact Hc|]. exact H.
Qed.
Lemma in_place_id (F X : mat R) n : mcols F = n -> mrows X = n -> (forall i j, (i < n)%nat -> (j < n)%nat -> ment F i j = delta i j) ->
  forall i j, (i < n)%nat -> (j < mcols X)%nat -> ment (filter_in_place E F X) i j = ment X i j.
Proof.
  intros HF HX HI i j Hi Hj. destruct (in_place_ok F X) as (_ & _ & H). rewrite H by lia. rewrite HF.
  rewrite (sumn_ext n _ (fun k => delta i k * (if (k <? i)%nat then ment (filter_in_place E F X) k j else ment X k j))) by (intros k Hk; rewrite HI by auto; reflexivity).
  rewrite (sumn_delta n i (fun k => if (k <? i)%nat then ment (filter_in_place E F X) k j else ment X k j) Hi). rewrite Nat.ltb_irrefl. reflexivity.
Qed.
End InPlace.

(* ---- the filter of order one ---- *)
Lemma linear_form p : degree2 1 p -> exists c a b, forall x y, eval2 p x y = c + a * x + b * y.
Proof.
  induction p as [|[[i j] d] p IH]; intro D.
  - exists 0, 0, 0. intros. cbn. ring.
  - inversion D as [|? ? Hd D']; subst. destruct (IH D') as (c & a & b & H). cbn [fst snd] in Hd.
    assert (C : (i = 0 /\ j = 0 \/ i = 1 /\ j = 0 \/ i = 0 /\ j = 1)%nat) by lia.
    destruct C as [(-> & ->)|[(-> & ->)|(-> & ->)]]; [exists (c + d), a, b|exists c, (a + d), b|exists c, a, (b + d)]; intros x y;
    cbn [eval2]; rewrite H; cbn [pow]; ring.
Qed.

Lemma linear_integral c a b : triangle_integral (fun x y => c + a * x + b * y) (2 * c - 2 / 3 * a - 2 / 3 * b).
Proof.
  exists (fun s => c * (1 - s) + a * (s * s - 1) / 2 + b * s * (1 - s)). split.
  - intro s. exists (peval [0; c + b * s; a / 2]). split; [|cbn; field].
    intro x. replace (c + a * x + b * s) with (dpeval [0; c + b * s; a / 2] x) by (cbn; field). apply dpeval_ok.
  - exists (peval [0; c - a / 2; b / 2 - c / 2; a / 6 - b / 3]). split; [|cbn; field].
    intro x. replace (c * (1 - x) + a * (x * x - 1) / 2 + b * x * (1 - x)) with (dpeval [0; c - a / 2; b / 2 - c / 2; a / 6 - b / 3] x) by (cbn; field). apply dpeval_ok.
Qed.

Lemma sum3 (f : nat -> R) : sumn 3 f = f 0%nat + f 1%nat + f 2%nat.
Proof. unfold sumn. cbn [seq map fold_right]. ring. Qed.
Lemma three_perm q0 q1 q2 (f : nat -> R) : (q0 < 3)%nat -> (q1 < 3)%nat -> (q2 < 3)%nat -> q0 <> q1 -> q0 <> q2 -> q1 <> q2 -> f 0%nat + f 1%nat + f 2%nat = f q0 + f q1 + f q2.
Proof. intros. destruct q0 as [|[|[|]]], q1 as [|[|[|]]], q2 as [|[|[|]]]; try lia; ring. Qed.

Section Order1.
Context (G : R -> R) (solve : mat R -> mat R -> mat R -> outcome (mat R)) (inverse : mat R -> mat R -> outcome (mat R))
  (junk : nat -> nat -> R) (eps : R) (eig : nat -> (nat -> nat -> R) -> list R * (nat -> nat -> R)) (tol : R)
  (K : nat) (Vert : list R) (EToV : list nat) (el : element (T := R)).
Hypothesis HB : built G solve inverse junk eps eig tol 1 K Vert EToV el.
Local Notation r := (e_r el). Local Notation s := (e_s el).

(* the three nodes are the three corners *)
Lemma corner_sum (f : R -> R -> R) : length r = 3%nat /\ sumn 3 (fun m => f (nth m r 0) (nth m s 0)) = f (-1) (-1) + f 1 (-1) + f (-1) 1.
Proof.
  destruct (C67_edge_nodes G solve inverse junk eps eig tol 1 K Vert EToV el HB) as (L2 & Ls & g & Lg & g0 & g1 & _ & _ & _ & _ & HM).
  assert (L3 : length r = 3%nat) by lia. split; [exact L3|].
  destruct (HM 0%nat ltac:(lia)) as (m0 & _ & Lm0 & I0 & H0). destruct (HM 1%nat ltac:(lia)) as (m1 & _ & Lm1 & I1 & H1).
  pose proof (H0 0%nat ltac:(lia)) as P0. pose proof (H0 1%nat ltac:(lia)) as P1. pose proof (H1 1%nat ltac:(lia)) as P2. cbv zeta iota in P0, P1, P2. rewrite ?g0, ?g1 in P0, P1, P2.
  set (q0 := nth 0 m0 0%nat) in *. set (q1 := nth 1 m0 0%nat) in *. set (q2 := nth 1 m1 0%nat) in *.
  assert (B0 : (q0 < 3)%nat) by (rewrite <- L3; apply I0; apply nth_In; lia). assert (B1 : (q1 < 3)%nat) by (rewrite <- L3; apply I0; apply nth_In; lia). assert (B2 : (q2 < 3)%nat) by (rewrite <- L3; apply I1; apply nth_In; lia).
  injection P0 as R0 S0. injection P1 as R1 S1. injection P2 as R2 S2.
  rewrite sum3. rewrite (three_perm q0 q1 q2 (fun m => f (nth m r 0) (nth m s 0))); try assumption.
  - rewrite R0, S0, R1, S1, R2, S2, g0, g1. reflexivity.
  - intro X. rewrite X in *. lra.
  - intro X. rewrite X in *. lra.
  - intro X. rewrite X in *. lra.
Qed.

Lemma mode_sum c : (c < 3)%nat -> (forall x y, bas G 1 0 x y = bas G 1 0 0 0) /\ bas G 1 0 0 0 <> 0 /\
  sumn 3 (fun m => bas G 1 c (nth m r 0) (nth m s 0)) = if (c =? 0)%nat then 3 * bas G 1 0 0 0 else 0.
Proof.
  intro Hc. pose proof (b_gamma _ _ _ _ _ _ _ _ _ _ _ _ HB) as HG.
  assert (H0 : forall x y, bas G 1 0 x y = bas G 1 0 0 0).
  { destruct (sb_poly G HG 0 0) as (p & Dp & Ep). assert (C0 : forall x y, eval2 p x y = eval2 p 0 0).
    { clear Ep. induction p as [|[[i j] d] p IH]; intros x y; [reflexivity|]. inversion Dp as [|? ? Hd D']; subst. cbn [fst snd] in Hd. assert (i = 0 /\ j = 0)%nat as (-> & ->) by lia. cbn [eval2]. rewrite (IH D' x y). reflexivity. }
    intros x y. unfold bas. change (mode 1 0) with (0%nat, 0%nat). cbn [fst snd]. rewrite !Ep. apply C0. }
  destruct (bas_poly G HG 1 c Hc) as (p & Dp & Ep). destruct (linear_form p Dp) as (k & a & b & Hp).
  pose proof (bas_orth G HG 1 0 c ltac:(cbn; lia) Hc) as Ho.
  assert (Ho' : triangle_integral (fun x y => bas G 1 0 0 0 * (k + a * x + b * y)) (if (0 =? c)%nat then 1 else 0)).
  { eapply tint_ext; [|exact Ho]. intros x y. cbv beta. rewrite (H0 x y), Ep, Hp. reflexivity. }
  pose proof (tint_unique _ _ _ Ho' (tint_scal (bas G 1 0 0 0) _ _ (linear_integral k a b))) as E.
  assert (Hne : bas G 1 0 0 0 <> 0).
  { pose proof (bas_orth G HG 1 0 0 ltac:(cbn; lia) ltac:(cbn; lia)) as O. cbn [Nat.eqb] in O. intro Z. 
    assert (1 = 0); [|lra]. eapply tint_unique; [exact O|]. eapply tint_ext; [|apply tint_zero]. intros x y. cbv beta. rewrite (H0 x y), Z. ring. }
  split; [exact H0|]. split; [exact Hne|].
  destruct (corner_sum (fun x y => bas G 1 c x y)) as (_ & ->). destruct (Nat.eqb_spec c 0) as [-> |Hc0].
  - rewrite (H0 (-1) (-1)), (H0 1 (-1)), (H0 (-1) 1). ring.
  - destruct (Nat.eqb_spec 0 c); [lia|]. assert (Z : 2 * k - 2 / 3 * a - 2 / 3 * b = 0) by (apply Rmult_eq_reg_l with (bas G 1 0 0 0); [lra|exact Hne]). rewrite !Ep, !Hp. lra.
Qed.

(* the filter keeps the mean and multiplies the rest by eps *)
Lemma filter1 epsf Nc sp : 0 < epsf <= 1 -> 0 < Nc < 1 -> exists F, buildFilter (exact G) pow exp ln epsf 1 (e_V el) (e_Vinv el) Nc sp = Ok F /\ shape F 3 3 /\
  forall i j, (i < 3)%nat -> (j < 3)%nat -> ment F i j = epsf * delta i j + (1 - epsf) / 3.
Proof.
  intros He Hn. destruct (C41_filter G solve inverse junk eps eig tol 1 K Vert EToV el HB epsf Nc sp He ltac:(cbn; lra)) as (F & EF & SF & _ & HF & _).
  destruct (corner_sum (fun _ _ => 0)) as (L3 & _). rewrite L3 in *. exists F. split; [exact EF|]. split; [exact SF|].
  destruct (element_ok _ _ _ _ _ _ _ _ _ _ _ _ HB) as [lr ls nodes masks edge_i pts SV SVi V Vi Vi' SL lift D x metric nrm].
  change (length (modes 1)) with 3%nat in *. intros i j Hi Hj.
  assert (HM : forall c, (c < 3)%nat -> sumn 3 (fun m => ment F i m * ment (e_V el) m c) = sumn 3 (fun m => (epsf * delta i m + (1 - epsf) / 3) * ment (e_V el) m c)).
  { intros c Hc. destruct (mode_sum c Hc) as (B0 & Bn & Bs).
    rewrite (sumn_ext 3 (fun m => (epsf * delta i m + (1 - epsf) / 3) * ment (e_V el) m c) (fun m => epsf * (delta i m * ment (e_V el) m c) + (1 - epsf) / 3 * ment (e_V el) m c)) by (intros; ring).
    rewrite sumn_plus, !sumn_scal, (sumn_delta 3 i (fun m => ment (e_V el) m c) Hi).
    rewrite (sumn_ext 3 (fun m => ment (e_V el) m c) (fun m => bas G 1 c (nth m r 0) (nth m s 0))) by (intros m Hm; apply V; assumption). rewrite Bs.
    assert (C : (c = 0 \/ c = 1 \/ c = 2)%nat) by lia. destruct C as [-> |[-> | ->]]; cbn [Nat.eqb].
    - rewrite (HF 0%nat 0%nat 0%nat i eq_refl Hi). unfold damping. cbn [Nat.add INR]. destruct (Rlt_dec 0 Nc) as [Hl|]; [|lra]. rewrite (V i 0%nat) by lia. rewrite (B0 (nth i r 0) (nth i s 0)). field.
    - rewrite (HF 1%nat 0%nat 1%nat i eq_refl Hi). unfold damping. cbn [Nat.add INR]. destruct (Rlt_dec 1 Nc); [lra|]. replace ((1 - Nc) / (1 - Nc)) with 1 by (field; lra). rewrite pow1, Rmult_1_r, exp_ln by lra. ring.
    - rewrite (HF 2%nat 1%nat 0%nat i eq_refl Hi). unfold damping. cbn [Nat.add INR]. destruct (Rlt_dec 1 Nc); [lra|]. replace ((1 - Nc) / (1 - Nc)) with 1 by (field; lra). rewrite pow1, Rmult_1_r, exp_ln by lra. ring. }
  assert (HI : forall f : nat -> R, sumn 3 (fun m => f m * delta m j) = sumn 3 (fun c => sumn 3 (fun m => f m * ment (e_V el) m c) * ment (e_Vinv el) c j)).
  { intro f. rewrite (sumn_ext 3 (fun c => _ * ment (e_Vinv el) c j) (fun c => sumn 3 (fun m => f m * (ment (e_V el) m c * ment (e_Vinv el) c j)))) by (intros; rewrite (Rmult_comm (sumn _ _)), <- sumn_scal; apply sumn_ext; intros; ring).
    rewrite (sumn_swap 3 3). apply sumn_ext. intros m Hm. rewrite <- (Vi' m j Hm Hj), <- sumn_scal. reflexivity. }
  rewrite <- (sumn_delta' 3 j (fun m => ment F i m) Hj), <- (sumn_delta' 3 j (fun m => epsf * delta i m + (1 - epsf) / 3) Hj). rewrite !HI. apply sumn_ext. intros c Hc. rewrite HM by exact Hc. reflexivity.
Qed.
End Order1.
