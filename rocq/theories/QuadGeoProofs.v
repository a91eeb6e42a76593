(* QuadGeoProofs.v - grid, metric terms and normals of bilinear quadrilaterals. *)
From Coq Require Import ZArith List Lia Bool Arith.
From Verif Require Import Base Loops Num BlitzModel JacobiModel JacobiSpec JacobiProofs JacobiOrthProofs JacobiQuadProofs JacobiExactProofs DenseSpec Nodes1DModel Nodes1DSpec Nodes1DExactProofs TriModel TriSpec TriGeoSpec TriBasisProofs TriProofs TriOpProofs TriLiftProofs TriFaceProofs TriNodesProofs TriGeoProofs QuadModel QuadSpec QuadBasisProofs.
From Coq Require Import Reals Lra.
Import ListNotations.
Local Open Scope R_scope.

Definition bil_r (a b c d y : R) : R := ((1 - y) * (b - a) + (1 + y) * (c - d)) / 4.
Definition bil_s (a b c d x : R) : R := ((1 - x) * (d - a) + (1 + x) * (c - b)) / 4.
Definition bil (a b c d x y : R) : R := a + (1 + y) / 2 * (d - a) + (1 + x) / 2 * (b + (1 + y) / 2 * (c - b) - (a + (1 + y) / 2 * (d - a))).
Lemma bil_image a b c d x y : bilinear_image a b c d x y = (bil (fst a) (fst b) (fst c) (fst d) x y, bil (snd a) (snd b) (snd c) (snd d) x y).
Proof. reflexivity. Qed.
Definition bil_poly (a b c d : R) : poly2 :=
  [(0%nat, 0%nat, (a + b + c + d) / 4); (1%nat, 0%nat, (b + c - a - d) / 4); (0%nat, 1%nat, (c + d - a - b) / 4); (1%nat, 1%nat, (a + c - b - d) / 4)].
Lemma bil_poly_eval a b c d x y : eval2 (bil_poly a b c d) x y = bil a b c d x y.
Proof. unfold bil_poly, bil. cbn [eval2 pow]. field. Qed.
Lemma bil_dr a b c d x y : dr_is (bil a b c d) x y (bil_r a b c d y).
Proof.
  unfold dr_is. apply (dpl_ext (fun t => bil a b c d 0 y - bil_r a b c d y + (bil_r a b c d y + bil_r a b c d y * t))); [intro t; unfold bil, bil_r; field|]. apply lin_lim.
Qed.
Lemma bil_ds a b c d x y : ds_is (bil a b c d) x y (bil_s a b c d x).
Proof.
  unfold ds_is. apply (dpl_ext (fun t => bil a b c d x 0 - bil_s a b c d x + (bil_s a b c d x + bil_s a b c d x * t))); [intro t; unfold bil, bil_s; field|]. apply lin_lim.
Qed.
(* the Jacobian is the average of the four corner values *)
Lemma bil_jac (p : nat -> point) x y :
  let X := fun f : point -> R => (f (p 0%nat), f (p 1%nat), f (p 2%nat), f (p 3%nat)) in
  bil_r (fst (p 0%nat)) (fst (p 1%nat)) (fst (p 2%nat)) (fst (p 3%nat)) y * bil_s (snd (p 0%nat)) (snd (p 1%nat)) (snd (p 2%nat)) (snd (p 3%nat)) x
  - bil_s (fst (p 0%nat)) (fst (p 1%nat)) (fst (p 2%nat)) (fst (p 3%nat)) x * bil_r (snd (p 0%nat)) (snd (p 1%nat)) (snd (p 2%nat)) (snd (p 3%nat)) y
  = sumn 4 (fun c => corner_weight c x y * (corner_cross p c / 4)).
Proof.
  cbn zeta. change (sumn 4 ?f) with (f 0%nat + (f 1%nat + (f 2%nat + (f 3%nat + 0)))). unfold corner_cross. 
  change ((0 + 1) mod 4)%nat with 1%nat. change ((0 + 3) mod 4)%nat with 3%nat. change ((1 + 1) mod 4)%nat with 2%nat. change ((1 + 3) mod 4)%nat with 0%nat.
  change ((2 + 1) mod 4)%nat with 3%nat. change ((2 + 3) mod 4)%nat with 1%nat. change ((3 + 1) mod 4)%nat with 0%nat. change ((3 + 3) mod 4)%nat with 2%nat.
  destruct (p 0%nat) as [a a'], (p 1%nat) as [b b'], (p 2%nat) as [c c'], (p 3%nat) as [d d']. unfold bil_r, bil_s, corner_weight, cross, pminus. cbn [fst snd]. field.
Qed.
Lemma weights_pos x y : -1 <= x <= 1 -> -1 <= y <= 1 -> (forall c, 0 <= corner_weight c x y) /\ sumn 4 (fun c => corner_weight c x y) = 1.
Proof.
  intros Hx Hy. split.
  - intros c. assert (forall u v, 0 <= u -> 0 <= v -> 0 <= u * v / 4) as H by (intros; pose proof (Rmult_le_pos u v); lra). destruct c as [|[|[|c]]]; cbn [corner_weight]; apply H; lra.
  - change (sumn 4 ?f) with (f 0%nat + (f 1%nat + (f 2%nat + (f 3%nat + 0)))). cbn [corner_weight]. field.
Qed.
Lemma weighted_pos p x y : -1 <= x <= 1 -> -1 <= y <= 1 -> convex_ccw p -> 0 < sumn 4 (fun c => corner_weight c x y * (corner_cross p c / 4)).
Proof.
  intros Hx Hy Hc. destruct (weights_pos x y Hx Hy) as (W & S1). change (sumn 4 ?f) with (f 0%nat + (f 1%nat + (f 2%nat + (f 3%nat + 0)))) in *.
  pose proof (Hc 0%nat ltac:(lia)) as H0. pose proof (Hc 1%nat ltac:(lia)) as H1. pose proof (Hc 2%nat ltac:(lia)) as H2. pose proof (Hc 3%nat ltac:(lia)) as H3.
  pose proof (W 0%nat) as W0. pose proof (W 1%nat) as W1. pose proof (W 2%nat) as W2. pose proof (W 3%nat) as W3. cbv beta in S1 |- *. clear W.
  remember (corner_weight 0 x y) as w0 eqn:Ew0; clear Ew0. remember (corner_weight 1 x y) as w1 eqn:Ew1; clear Ew1. remember (corner_weight 2 x y) as w2 eqn:Ew2; clear Ew2. remember (corner_weight 3 x y) as w3 eqn:Ew3; clear Ew3.
  set (m := Rmin (Rmin (corner_cross p 0) (corner_cross p 1)) (Rmin (corner_cross p 2) (corner_cross p 3))).
  assert (Hm : 0 < m) by (unfold m; repeat apply Rmin_glb_lt; assumption).
  assert (M0 : m <= corner_cross p 0) by (unfold m; eapply Rle_trans; [apply Rmin_l|apply Rmin_l]). assert (M1 : m <= corner_cross p 1) by (unfold m; eapply Rle_trans; [apply Rmin_l|apply Rmin_r]).
  assert (M2 : m <= corner_cross p 2) by (unfold m; eapply Rle_trans; [apply Rmin_r|apply Rmin_l]). assert (M3 : m <= corner_cross p 3) by (unfold m; eapply Rle_trans; [apply Rmin_r|apply Rmin_r]).
  clearbody m.
  pose proof (Rmult_le_compat_l _ _ _ W0 M0). pose proof (Rmult_le_compat_l _ _ _ W1 M1). pose proof (Rmult_le_compat_l _ _ _ W2 M2). pose proof (Rmult_le_compat_l _ _ _ W3 M3).
  assert (w0 * m + w1 * m + w2 * m + w3 * m = m) by (transitivity ((w0 + (w1 + (w2 + (w3 + 0)))) * m); [ring|rewrite S1; ring]).
  lra.
Qed.

Section QGeo.
Variable G : R -> R.
Local Notation E := (exact G).
Variable junk : nat -> nat -> R.
Variables (N K : nat) (Vert : list R) (EToV : list nat) (r s : list R).
Hypothesis HN : (1 <= N)%nat.
Hypothesis HM : qmesh_ok K Vert EToV.
Hypothesis Ls : length s = length r.
Local Notation P k c := (qcorner Vert EToV k c).

Lemma quadXY_ok k : (k < K)%nat -> quadXY Vert EToV k = Ok (P k 0, P k 1, P k 2, P k 3).
Proof.
  intro Hk. destruct HM as (L & Hv). unfold quadXY.
  assert (HV : forall i, (i < 4 * K)%nat -> vertexXY Vert (nth i EToV 0%nat) = Ok (nth (3 * nth i EToV 0%nat) Vert 0, nth (3 * nth i EToV 0%nat + 1) Vert 0)).
  { intros i Hi. unfold vertexXY. pose proof (Hv (nth i EToV 0%nat) ltac:(apply nth_In; lia)) as Hb. rewrite !(getn_ok Vert _ 0) by lia. cbn [bind]. do 3 f_equal; lia. }
  rewrite !(getn_ok EToV _ 0%nat) by lia. cbn [bind]. rewrite !HV by lia. cbn [bind]. unfold qcorner. rewrite Nat.add_0_r. replace (k * 4)%nat with (4 * k)%nat by lia. reflexivity.
Qed.
Lemma bilinear_E x y a b c d : bilinear E x y a b c d = bil a b c d x y.
Proof. unfold bilinear, bil. rewrite !fofn_INR. cbn [exact fadd fmul fdiv fsub]. change (INR 0) with 0. change (INR 1) with 1. replace (INR 4) with 4 by (simpl; ring). field. Qed.
Lemma quadGrid_ok : exists x y, quadGrid E junk K Vert EToV r s = Ok (x, y) /\ shape x (length r) K /\ shape y (length r) K /\
  forall i k, (i < length r)%nat -> (k < K)%nat -> (ment x i k, ment y i k) = bilinear_image (P k 0) (P k 1) (P k 2) (P k 3) (nth i r 0) (nth i s 0).
Proof.
  unfold quadGrid.
  match goal with |- context [for_ K ?body ?st0] => destruct (for_inv (fun k (st : mat R * mat R) => shape (fst st) (length r) K /\ shape (snd st) (length r) K /\
     forall i k', (i < length r)%nat -> (k' < k)%nat -> (ment (fst st) i k', ment (snd st) i k') = bilinear_image (P k' 0) (P k' 1) (P k' 2) (P k' 3) (nth i r 0) (nth i s 0)) K body st0) as ([x y] & EX & Sx & Sy & H) end.
  - split; [split; reflexivity|]. split; [split; reflexivity|]. intros; lia.
  - intros k [x y] Hk ((X1 & X2) & (Y1 & Y2) & H). cbn [fst snd] in *. rewrite quadXY_ok by exact Hk. cbn [bind]. destruct (P k 0) as [xa ya] eqn:E0, (P k 1) as [xb yb] eqn:E1, (P k 2) as [xc yc] eqn:E2, (P k 3) as [xd yd] eqn:E3.
    edestruct (setcol2_ok G x k) as (x' & -> & (X1' & X2') & Xk & Xo); [lia|rewrite zip2_len; [rewrite X1; reflexivity|lia]|]. cbn [bind].
    edestruct (setcol2_ok G y k) as (y' & -> & (Y1' & Y2') & Yk & Yo); [lia|rewrite zip2_len; [rewrite Y1; reflexivity|lia]|]. cbn [bind].
    eexists. split; [reflexivity|]. cbn [fst snd]. split; [split; congruence|]. split; [split; congruence|]. intros i k' Hi Hk'.
    destruct (Nat.eq_dec k' k) as [->|Hn]; [|rewrite Xo, Yo by exact Hn; apply H; lia].
    rewrite Xk, Yk, !zip2_nth by lia. rewrite !bilinear_E, E0, E1, E2, E3. reflexivity.
  - exists x, y. split; [exact EX|]. cbn [fst snd] in *. split; [exact Sx|]. split; [exact Sy|exact H].
Qed.

Variables Dr Ds x y : mat R.
Hypothesis SDr : shape Dr (length r) (length r).
Hypothesis SDs : shape Ds (length r) (length r).
Hypothesis HDr : maps_tensor N Dr r s r s (fun p => dr_is (eval2 p)).
Hypothesis HDs : maps_tensor N Ds r s r s (fun p => ds_is (eval2 p)).
Hypothesis Sx : shape x (length r) K.
Hypothesis Sy : shape y (length r) K.
Hypothesis Hxy : forall i k, (i < length r)%nat -> (k < K)%nat -> (ment x i k, ment y i k) = bilinear_image (P k 0) (P k 1) (P k 2) (P k 3) (nth i r 0) (nth i s 0).

Lemma bil_deg a b c d : tdegree N (bil_poly a b c d).
Proof. unfold bil_poly. repeat constructor; cbn; lia. Qed.
Lemma qmmul_dr (z : mat R) a b c d i k : (i < length r)%nat -> (forall m, (m < length r)%nat -> ment z m k = bil a b c d (nth m r 0) (nth m s 0)) ->
  ment (mmul E Dr z) i k = bil_r a b c d (nth i s 0) /\ ment (mmul E Ds z) i k = bil_s a b c d (nth i r 0).
Proof.
  intros Hi Hz. destruct SDr as (D1 & D2), SDs as (D3 & D4). cbn [mmul ment]. rewrite !fsum_exact, D2, D4. cbn [exact fmul]. split.
  - pose proof (HDr (bil_poly a b c d) i (bil_deg a b c d) Hi) as H. eapply dr_unique; [|apply bil_dr]. eapply dr_ext; [intros; apply bil_poly_eval|]. erewrite sumn_ext; [exact H|]. intros m Hm. cbn beta. rewrite Hz, bil_poly_eval by exact Hm. reflexivity.
  - pose proof (HDs (bil_poly a b c d) i (bil_deg a b c d) Hi) as H. eapply ds_unique; [|apply bil_ds]. eapply ds_ext; [intros; apply bil_poly_eval|]. erewrite sumn_ext; [exact H|]. intros m Hm. cbn beta. rewrite Hz, bil_poly_eval by exact Hm. reflexivity.
Qed.
Local Notation M := (metricTerms E Dr Ds x y).
Lemma qmetric_ok i k : (i < length r)%nat -> (k < K)%nat ->
  let X := fst (P k 0) in let xb := fst (P k 1) in let xc := fst (P k 2) in let xd := fst (P k 3) in
  let Y := snd (P k 0) in let yb := snd (P k 1) in let yc := snd (P k 2) in let yd := snd (P k 3) in
  ment (g_xr M) i k = bil_r X xb xc xd (nth i s 0) /\ ment (g_xs M) i k = bil_s X xb xc xd (nth i r 0) /\
  ment (g_yr M) i k = bil_r Y yb yc yd (nth i s 0) /\ ment (g_ys M) i k = bil_s Y yb yc yd (nth i r 0) /\
  ment (g_J M) i k = sumn 4 (fun c => corner_weight c (nth i r 0) (nth i s 0) * (corner_cross (fun c => P k c) c / 4)) /\
  let J := ment (g_J M) i k in
  ment (g_rx M) i k = ment (g_ys M) i k / J /\ ment (g_ry M) i k = - ment (g_xs M) i k / J /\ ment (g_sx M) i k = - ment (g_yr M) i k / J /\ ment (g_sy M) i k = ment (g_xr M) i k / J.
Proof.
  intros Hi Hk. cbn zeta. destruct (qmmul_dr x (fst (P k 0)) (fst (P k 1)) (fst (P k 2)) (fst (P k 3)) i k Hi) as (X1 & X2).
  { intros m Hm. pose proof (Hxy m k Hm Hk) as H. rewrite bil_image in H. exact (f_equal fst H). }
  destruct (qmmul_dr y (snd (P k 0)) (snd (P k 1)) (snd (P k 2)) (snd (P k 3)) i k Hi) as (Y1 & Y2).
  { intros m Hm. pose proof (Hxy m k Hm Hk) as H. rewrite bil_image in H. exact (f_equal snd H). }
  unfold metricTerms. cbn [g_xr g_xs g_yr g_ys g_J g_rx g_ry g_sx g_sy]. split; [exact X1|]. split; [exact X2|]. split; [exact Y1|]. split; [exact Y2|]. split.
  - cbn [mzip ment]. cbn [exact fsub fmul]. fold E. rewrite X1, X2, Y1, Y2. apply (bil_jac (fun c => P k c)).
  - cbn [mzip ment]. repeat split; reflexivity.
Qed.

(* normals *)
Variables (Nfp : nat) (fm : list (list nat)) (nx0 ny0 Fs0 : mat R).
Hypothesis Hfm : forall f, (f < 4)%nat -> exists mask, nth_error fm f = Some mask /\ length mask = Nfp /\
  forall m, In m mask -> (m < length r)%nat /\ (nth m r 0, nth m s 0) = square_edge f (square_coord f (nth m r 0) (nth m s 0)).
Hypothesis Snx : shape nx0 (4 * Nfp) K.
Hypothesis Sny : shape ny0 (4 * Nfp) K.
Hypothesis SFs : shape Fs0 (4 * Nfp) K.
Definition qnrm_at (f k : nat) (J nx ny Fs : R) : Prop :=
  let p := P k f in let q := P k ((f + 1) mod 4) in
  let ux := (snd q - snd p) / 2 in let uy := - ((fst q - fst p) / 2) in let norm := sqrt (ux * ux + uy * uy) in
  nx = ux / norm /\ ny = uy / norm /\ Fs = norm / J.
Definition Jat (f i k : nat) : R := ment (g_J M) (nth i (nth f fm []) 0%nat) k.
Definition qnstate (k' f' i' : nat) (st : mat R * mat R * mat R) : Prop :=
  shape (fst (fst st)) (4 * Nfp) K /\ shape (snd (fst st)) (4 * Nfp) K /\ shape (snd st) (4 * Nfp) K /\
  forall k f i, (k < K)%nat -> (f < 4)%nat -> (i < Nfp)%nat -> before k f i k' f' i' ->
    qnrm_at f k (Jat f i k) (ment (fst (fst st)) (f * Nfp + i) k) (ment (snd (fst st)) (f * Nfp + i) k) (ment (snd st) (f * Nfp + i) k).
Lemma qnstate_le k f i k' f' i' st : (forall a b c, (a < K)%nat -> (b < 4)%nat -> (c < Nfp)%nat -> before a b c k' f' i' -> before a b c k f i) -> qnstate k f i st -> qnstate k' f' i' st.
Proof. intros H (A & B & C & D). split; [exact A|]. split; [exact B|]. split; [exact C|]. intros. apply D; auto. Qed.
Lemma quadFaceNormal_E f k i : (f < 4)%nat -> (k < K)%nat -> (i < length r)%nat -> (nth i r 0, nth i s 0) = square_edge f (square_coord f (nth i r 0) (nth i s 0)) ->
  quadFaceNormal E f (ment (g_xr M) i k) (ment (g_xs M) i k) (ment (g_yr M) i k) (ment (g_ys M) i k) =
  let p := P k f in let q := P k ((f + 1) mod 4) in ((snd q - snd p) / 2, - ((fst q - fst p) / 2)).
Proof.
  intros Hf Hk Hi He. destruct (qmetric_ok i k Hi Hk) as (-> & -> & -> & -> & _). unfold bil_r, bil_s.
  destruct f as [|[|[|[|]]]]; [| | | |lia]; cbn [square_edge square_coord] in He; injection He as He; rewrite He; cbn [quadFaceNormal exact fopp];
  change ((0 + 1) mod 4)%nat with 1%nat; change ((1 + 1) mod 4)%nat with 2%nat; change ((2 + 1) mod 4)%nat with 3%nat; change ((3 + 1) mod 4)%nat with 0%nat; cbn zeta; f_equal; field.
Qed.
Lemma quadNormals_ok : exists nx ny Fs, quadNormals E K Nfp fm M (nx0, ny0, Fs0) = Ok (nx, ny, Fs) /\
  shape nx (4 * Nfp) K /\ shape ny (4 * Nfp) K /\ shape Fs (4 * Nfp) K /\
  forall k f i, (k < K)%nat -> (f < 4)%nat -> (i < Nfp)%nat -> qnrm_at f k (Jat f i k) (ment nx (f * Nfp + i) k) (ment ny (f * Nfp + i) k) (ment Fs (f * Nfp + i) k).
Proof.
  unfold quadNormals.
  destruct SDr as (D1 & D2), SDs as (D3 & D4), Sx as (X1 & X2), Sy as (Y1 & Y2).
  match goal with |- context [for_ K ?body ?st0] => destruct (for_inv (fun k st => qnstate k 0 0 st) K body st0) as ([[nx ny] Fs] & EN & HNs) end.
  - split; [exact Snx|]. split; [exact Sny|]. split; [exact SFs|]. intros k f i _ _ _ [H|[_ [H|[_ H]]]]; lia.
  - intros k st Hk HS. 
    match goal with |- context [for_ 4 ?body ?st0] => destruct (for_inv (fun f st => qnstate k f 0 st) 4 body st0 HS) as (st' & E1 & HS') end.
    + intros f st1 Hf HS1. destruct (Hfm f Hf) as (mask & Em & Lm & Hmask).
      match goal with |- context [for_ Nfp ?body ?st0] => destruct (for_inv (fun i st => qnstate k f i st) Nfp body st0 HS1) as (st' & E1 & HS') end.
      * intros i [[nx ny] Fs] Hi (Nx & Ny & NF & HA). cbn [fst snd] in *. unfold getn at 1. rewrite Em. cbn [bind]. rewrite (getn_ok mask i 0%nat) by lia. cbn [bind].
        destruct (Hmask (nth i mask 0%nat) ltac:(apply nth_In; lia)) as (Hm & He). 
        assert (EJ : Jat f i k = ment (g_J M) (nth i mask 0%nat) k) by (unfold Jat; rewrite (nth_error_nth fm f [] Em); reflexivity).
        set (m := nth i mask 0%nat) in *.
        rewrite !mget_ok by (cbn [metricTerms g_xr g_xs g_yr g_ys g_J mzip mmul mrows mcols]; lia). cbn [bind]. rewrite (quadFaceNormal_E f k m Hf Hk Hm He). cbn zeta.
        destruct Nx as (Nx1 & Nx2), Ny as (Ny1 & Ny2), NF as (NF1 & NF2).
        assert (Hr : (f * Nfp + i < 4 * Nfp)%nat) by nia.
        unfold mset. rewrite !inb_true by lia. cbn [bind]. eexists. split; [reflexivity|]. split; [split; assumption|]. split; [split; assumption|]. split; [split; assumption|]. cbn [fst snd ment].
        intros k2 f2 i2 Hk2 Hf2 Hi2 Hb. destruct (Nat.eqb_spec (f2 * Nfp + i2) (f * Nfp + i)) as [He2|He2]; cbn [andb].
        -- assert (f2 = f) by (clear - He2 Hi Hi2 Hf Hf2; destruct f as [|[|[|[|]]]], f2 as [|[|[|[|]]]]; lia). subst f2. assert (i2 = i) by lia. subst i2. destruct (Nat.eqb_spec k2 k) as [->|Hne]; [|apply HA; auto; destruct Hb as [Hb|[Hb _]]; [left; exact Hb|congruence]].
           unfold qnrm_at. rewrite EJ. split; [reflexivity|]. split; reflexivity.
        -- apply HA; auto. destruct Hb as [Hb|[-> [Hb|[-> Hb]]]]; [left; exact Hb|right; split; [reflexivity|left; exact Hb]|right; split; [reflexivity|right; split; [reflexivity|]]].
           assert (i2 <> i) by (intro; subst; auto). lia.
      * exists st'. split; [exact E1|]. revert HS'. apply qnstate_le. intros a b c Ha Hb Hc [H|[-> [H|[-> H]]]]; [left; exact H| |lia]. right. split; [reflexivity|]. destruct (Nat.eq_dec b f) as [->|]; [right; split; [reflexivity|exact Hc]|left; lia].
    + exists st'. split; [exact E1|]. revert HS'. apply qnstate_le. intros a b c Ha Hb Hc [H|[-> [H|[-> H]]]]; [|lia|lia]. destruct (Nat.eq_dec a k) as [->|]; [right; split; [reflexivity|left; lia]|left; lia].
  - exists nx, ny, Fs. split; [exact EN|]. destruct HNs as (A & B & C & D). cbn [fst snd] in *. split; [exact A|]. split; [exact B|]. split; [exact C|].
    intros k f i Hk Hf Hi. apply D; auto. left. exact Hk.
Qed.
End QGeo.
