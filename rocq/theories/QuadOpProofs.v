(* QuadOpProofs.v - differentiation, interpolation, filter and lift matrices of quadrilaterals. *)
From Coq Require Import ZArith List Lia Bool Arith.
From Verif Require Import Base Loops Num BlitzModel JacobiModel JacobiSpec JacobiProofs JacobiOrthProofs JacobiQuadProofs JacobiExactProofs DenseSpec Nodes1DModel Nodes1DSpec Nodes1DExactProofs TriModel TriSpec TriBasisProofs TriProofs TriOpProofs TriLiftProofs TriFaceProofs TriNodesProofs TriGeoProofs QuadModel QuadSpec QuadBasisProofs.
From Coq Require Import Reals Lra.
Import ListNotations.
Local Open Scope R_scope.

Section QuadOp.
Variable G : R -> R.
Hypothesis HG : gamma_like G.
Local Notation E := (exact G).
Local Notation P := (jac G 0 0).
Local Notation qb := (qb G).
Local Notation qmodal := (qmodal G).

Lemma qderiv_coefs N (isd : (R -> R -> R) -> R -> R -> R -> Prop) :
  (forall p, tdegree N p -> exists q, tdegree N q /\ forall r s, isd (eval2 p) r s (eval2 q r s)) ->
  (forall f g r s v, (forall r s, f r s = g r s) -> isd f r s v -> isd g r s v) ->
  exists C : nat -> nat -> R, forall j, (j < (S N * S N)%nat)%nat ->
    forall r s, isd (qb N j) r s (sumn ((S N * S N)%nat) (fun k => C k j * qb N k r s)).
Proof.
  intros Hd Hx.
  assert (H : forall n, (n <= (S N * S N)%nat)%nat -> exists C : nat -> nat -> R, forall j, (j < n)%nat ->
    forall r s, isd (qb N j) r s (sumn ((S N * S N)%nat) (fun k => C k j * qb N k r s))).
  { induction n as [|n IH]; intro Hn; [exists (fun _ _ => 0); intros; lia|]. destruct (IH ltac:(lia)) as (C & HC).
    destruct (qb_tens G N n Hn) as (p & Dp & Hp). destruct (Hd p Dp) as (q & Dq & Hq). destruct (qmodal_ex G HG N q Dq) as (c & Hc).
    exists (fun k j => if (j =? n)%nat then c k else C k j). intros j Hj r s. destruct (Nat.eq_dec j n) as [->|Hne].
    - rewrite Nat.eqb_refl. rewrite <- Hc. eapply Hx; [|apply Hq]. intros; symmetry; apply Hp.
    - destruct (Nat.eqb_spec j n); [contradiction|]. apply HC. lia. }
  apply (H _ (le_n _)).
Qed.
Lemma qdr_coefs N : exists C : nat -> nat -> R, forall j, (j < (S N * S N)%nat)%nat -> forall r s, dr_is (qb N j) r s (sumn ((S N * S N)%nat) (fun k => C k j * qb N k r s)).
Proof. apply qderiv_coefs; [|exact dr_ext]. intros p D. exists (ddr p). split; [now apply ddr_tdeg|]. intros; apply ddr_ok. Qed.
Lemma qds_coefs N : exists C : nat -> nat -> R, forall j, (j < (S N * S N)%nat)%nat -> forall r s, ds_is (qb N j) r s (sumn ((S N * S N)%nat) (fun k => C k j * qb N k r s)).
Proof. apply qderiv_coefs; [|exact ds_ext]. intros p D. exists (dds p). split; [now apply dds_tdeg|]. intros; apply dds_ok. Qed.
(* the weak form: W V V' = V Vd' with V invertible *)
Lemma qweak_form N r s (V Vd W Vi : mat R) (C : nat -> nat -> R) :
  let n := (S N * S N)%nat in
  length r = n ->
  (forall i c, (i < n)%nat -> (c < n)%nat -> ment V i c = qb N c (nth i r 0) (nth i s 0)) ->
  (forall i c, (i < n)%nat -> (c < n)%nat -> ment Vd i c = sumn n (fun k => C k c * ment V i k)) ->
  (forall i j, (i < n)%nat -> (j < n)%nat -> sumn n (fun k => ment Vi i k * ment V k j) = if (i =? j)%nat then 1 else 0) ->
  (forall i a, (i < n)%nat -> (a < n)%nat -> sumn n (fun k => sumn n (fun c => ment V k c * ment V a c) * ment W i k) = sumn n (fun c => ment V i c * ment Vd a c)) ->
  forall p b, qmodal N p b -> forall i, (i < n)%nat ->
    sumn n (fun m => ment W i m * eval2 p (nth m r 0) (nth m s 0)) = sumn n (fun j => sumn n (fun k => C k j * b k) * qb N j (nth i r 0) (nth i s 0)).
Proof.
  intros n Lr HV HVd HI HW p b Hb i Hi.
  (* W V = V C' *)
  assert (WV : forall c, (c < n)%nat -> sumn n (fun k => ment W i k * ment V k c) = sumn n (fun j => ment V i j * C c j)).
  { intros c Hc.
    assert (H1 : sumn n (fun a => ment Vi c a * sumn n (fun k => sumn n (fun d => ment V k d * ment V a d) * ment W i k)) = sumn n (fun k => ment W i k * ment V k c)).
    { rewrite (sumn_ext n _ (fun a => sumn n (fun k => ment Vi c a * (sumn n (fun d => ment V k d * ment V a d) * ment W i k)))) by (intros; rewrite sumn_scal; reflexivity).
      rewrite sumn_swap. apply sumn_ext. intros k Hk.
      rewrite (sumn_ext n _ (fun a => ment W i k * sumn n (fun d => ment V k d * (ment Vi c a * ment V a d)))).
      2: { intros a Ha. rewrite (sumn_ext n (fun d => ment V k d * (ment Vi c a * ment V a d)) (fun d => ment Vi c a * (ment V k d * ment V a d))) by (intros; ring). rewrite sumn_scal. ring. }
      rewrite sumn_scal, sumn_swap. f_equal.
      rewrite (sumn_ext n _ (fun d => if (d =? c)%nat then ment V k d else 0)).
      - apply (sumn_if n c (ment V k) Hc).
      - intros d Hd. rewrite sumn_scal, HI by assumption. rewrite (Nat.eqb_sym d c). destruct (c =? d)%nat; ring. }
    rewrite <- H1. rewrite (sumn_ext n _ (fun a => ment Vi c a * sumn n (fun d => ment V i d * ment Vd a d))) by (intros a Ha; rewrite HW by assumption; reflexivity).
    rewrite (sumn_ext n _ (fun a => sumn n (fun d => ment V i d * (sumn n (fun k => C k d * (ment Vi c a * ment V a k)))))).
    2: { intros a Ha. rewrite <- sumn_scal. apply sumn_ext. intros d Hd. rewrite HVd by assumption.
         rewrite (sumn_ext n (fun k => C k d * (ment Vi c a * ment V a k)) (fun k => ment Vi c a * (C k d * ment V a k))) by (intros; ring). rewrite sumn_scal. ring. }
    rewrite sumn_swap. apply sumn_ext. intros d Hd. rewrite sumn_scal. f_equal. rewrite sumn_swap.
    rewrite (sumn_ext n _ (fun k => if (k =? c)%nat then C k d else 0)).
    - apply (sumn_if n c (fun k => C k d) Hc).
    - intros k Hk. rewrite sumn_scal, HI by assumption. rewrite (Nat.eqb_sym k c). destruct (c =? k)%nat; ring. }
  rewrite (qrow_modal G N p b _ n (fun m => nth m r 0) (fun m => nth m s 0) Hb). fold n.
  rewrite (sumn_ext n _ (fun c => b c * sumn n (fun j => ment V i j * C c j))).
  2: { intros c Hc. rewrite <- WV by assumption. f_equal. apply sumn_ext. intros k Hk. rewrite HV by assumption. reflexivity. }
  rewrite (sumn_ext n _ (fun c => sumn n (fun j => C c j * b c * qb N j (nth i r 0) (nth i s 0)))).
  2: { intros c Hc. rewrite <- sumn_scal. apply sumn_ext. intros j Hj. rewrite HV by assumption. ring. }
  rewrite sumn_swap. apply sumn_ext. intros j Hj. rewrite (Rmult_comm (sumn n _)), <- sumn_scal. apply sumn_ext. intros; ring.
Qed.


Variable solve : mat R -> mat R -> mat R -> outcome (mat R).
Variable inverse : mat R -> mat R -> outcome (mat R).
Variable junk : nat -> nat -> R.
Hypothesis HS : solver_ok solve.
Hypothesis HI : inverter_ok inverse.

Section Nodes.
Variables (N : nat) (r s : list R).
Local Notation n := (S N * S N)%nat.
Hypothesis Lr : length r = n.
Hypothesis Ls : length s = n.

Section Diff.
Variables V Vr Vs : mat R.
Hypothesis SV : shape V n n.
Hypothesis SVr : shape Vr n n.
Hypothesis SVs : shape Vs n n.
Hypothesis HV : forall i c, (i < n)%nat -> (c < n)%nat -> ment V i c = qb N c (nth i r 0) (nth i s 0).
Hypothesis HVr : forall i c, (i < n)%nat -> (c < n)%nat -> ment Vr i c = qbr G N c (nth i r 0) (nth i s 0).
Hypothesis HVs : forall i c, (i < n)%nat -> (c < n)%nat -> ment Vs i c = qbs G N c (nth i r 0) (nth i s 0).

Definition qweak_eq (W Vd : mat R) : Prop := forall i a, (i < n)%nat -> (a < n)%nat ->
  sumn n (fun k => sumn n (fun c => ment V k c * ment V a c) * ment W i k) = sumn n (fun c => ment V i c * ment Vd a c).
Lemma qdiffmats_ok : quadDifferentiation E solve junk Vr Vs V = Throw \/
  exists Dr Ds Drw Dsw, quadDifferentiation E solve junk Vr Vs V = Ok (Dr, Ds, Drw, Dsw) /\
    shape Dr n n /\ shape Ds n n /\ shape Drw n n /\ shape Dsw n n /\
    maps_tensor N Dr r s r s (fun p => dr_is (eval2 p)) /\ maps_tensor N Ds r s r s (fun p => ds_is (eval2 p)) /\
    qweak_eq Drw Vr /\ qweak_eq Dsw Vs.
Proof.
  destruct SV as (Vr' & Vc'). destruct SVr as (R1 & R2). destruct SVs as (S1 & S2). unfold quadDifferentiation. rewrite Vr', Vc'. cbn zeta.
  destruct (HS n n (mtrans V) (mtrans Vr) (mzero E n n)) as [-> | (Y1 & -> & (Y1r & Y1c) & HY1)]; try (split; cbn [mtrans mrows mcols mzero]; congruence); [left; reflexivity|]. cbn [bind].
  destruct (HS n n (mtrans V) (mtrans Vs) (mzero E n n)) as [-> | (Y2 & -> & (Y2r & Y2c) & HY2)]; try (split; cbn [mtrans mrows mcols mzero]; congruence); [left; reflexivity|]. cbn [bind].
  destruct (HS n n (mtrans (mmul E V (mtrans V))) (mtrans (mmul E V (mtrans Vr))) (mkmat n n junk)) as [-> | (Y3 & -> & (Y3r & Y3c) & HY3)]; try (split; cbn [mtrans mmul mrows mcols mzero]; congruence); [left; reflexivity|]. cbn [bind].
  destruct (HS n n (mtrans (mmul E V (mtrans V))) (mtrans (mmul E V (mtrans Vs))) (mkmat n n junk)) as [-> | (Y4 & -> & (Y4r & Y4c) & HY4)]; try (split; cbn [mtrans mmul mrows mcols mzero]; congruence); [left; reflexivity|]. cbn [bind].
  right. do 4 eexists. split; [reflexivity|]. do 4 (split; [split; cbn [mtrans mrows mcols mzero]; congruence|]).
  assert (Hn1 : forall Y Vd, mcols Y = n -> product_is n (mtrans V) Y (mtrans Vd) -> forall i c, (i < n)%nat -> (c < n)%nat -> sumn (length r) (fun m => ment (mtrans Y) i m * qb N c (nth m r 0) (nth m s 0)) = ment Vd i c).
  { intros Y Vd Yc (_ & HY) i c Hi Hc. specialize (HY c i). cbn [mtrans mrows mcols ment] in HY. rewrite <- HY by congruence. rewrite Lr. apply sumn_ext. intros m Hm. rewrite <- HV by assumption. cbn [mtrans ment]. ring. }
  assert (Hn2 : forall Y Vd, mcols Y = n -> product_is n (mtrans (mmul E V (mtrans V))) Y (mtrans (mmul E V (mtrans Vd))) -> qweak_eq (mtrans Y) Vd).
  { intros Y Vd Yc (_ & HY) i a Hi Ha. specialize (HY a i). cbn [mtrans mmul mrows mcols ment] in HY. rewrite Vr', Vc', !fsum_exact in HY. specialize (HY Ha ltac:(congruence)).
    cbn [mtrans ment]. cbn [exact fmul] in HY. rewrite <- HY. apply sumn_ext. intros k Hk. rewrite fsum_exact. reflexivity. }
  split; [apply (qmaps_dr G HG); intros i c Hi Hc; rewrite <- HVr by congruence; apply (Hn1 Y1 Vr); auto; congruence|].
  split; [apply (qmaps_ds G HG); intros i c Hi Hc; rewrite <- HVs by congruence; apply (Hn1 Y2 Vs); auto; congruence|].
  split; [apply Hn2; assumption|apply Hn2; assumption].
Qed.
Variable Vi : mat R.
Hypothesis SVi : shape Vi n n.
Hypothesis HVi : forall i j, (i < n)%nat -> (j < n)%nat -> sumn n (fun k => ment Vi i k * ment V k j) = delta i j.


Lemma qweak_int isd (D : nat -> R -> R -> R) (Vd W : mat R) C :
  (forall i c, (i < n)%nat -> (c < n)%nat -> ment Vd i c = D c (nth i r 0) (nth i s 0)) ->
  (forall c x y, isd (qb N c) x y (D c x y)) ->
  (forall f x y v w, isd f x y v -> isd f x y w -> v = w) ->
  (forall j, (j < n)%nat -> forall x y, isd (qb N j) x y (sumn n (fun k => C k j * qb N k x y))) ->
  (forall p b x y, qmodal N p b -> isd (eval2 p) x y (sumn n (fun j => b j * sumn n (fun k => C k j * qb N k x y)))) ->
  qweak_eq W Vd ->
  forall p, tdegree N p -> exists z, tdegree N z /\
    (forall i, (i < n)%nat -> sumn n (fun m => ment W i m * eval2 p (nth m r 0) (nth m s 0)) = eval2 z (nth i r 0) (nth i s 0)) /\
    forall q dq, tdegree N q -> (forall x y, isd (eval2 q) x y (dq x y)) ->
      exists v, square_integral (fun x y => eval2 z x y * eval2 q x y) v /\ square_integral (fun x y => eval2 p x y * dq x y) v.
Proof.
  intros HVd HD Hu HC Hm HW p Dp. destruct (qmodal_ex G HG N p Dp) as (a & Ha).
  destruct (qcomb G N (fun j => sumn n (fun k => C k j * a k))) as (z & Dz & Hz). exists z. split; [exact Dz|]. split.
  - intros i Hi. rewrite Hz. apply (qweak_form N r s V Vd W Vi C); auto.
    intros i' c Hi' Hc. rewrite HVd by assumption. rewrite (Hu _ _ _ _ _ (HD c _ _) (HC c Hc _ _)). apply sumn_ext. intros k Hk. rewrite HV by assumption. reflexivity.
  - intros q dq Dq Hdq. destruct (qmodal_ex G HG N q Dq) as (b & Hb). exists (sumn n (fun j => sumn n (fun k => C k j * a k) * b j)). split.
    + apply (qparseval G HG N); [exact Hz|exact Hb].
    + eapply qint_val; [|apply (qparseval G HG N (eval2 p) dq a (fun k => sumn n (fun j => C k j * b j)) Ha)].
      * symmetry. rewrite <- (sumn_assoc n n a (fun k j => C k j) b). apply sumn_ext. intros j Hj. f_equal. apply sumn_ext; intros; ring.
      * intros x y. rewrite (Hu _ _ _ _ _ (Hdq x y) (Hm q b x y Hb)).
        rewrite (sumn_ext n _ (fun j => sumn n (fun k => C k j * b j * qb N k x y))) by (intros; rewrite <- sumn_scal; apply sumn_ext; intros; ring).
        rewrite sumn_swap. apply sumn_ext. intros k Hk. rewrite (Rmult_comm (sumn n _)), <- sumn_scal. apply sumn_ext; intros; ring.
Qed.

Lemma qmodal_drC C p b x y : (forall j, (j < n)%nat -> forall x y, dr_is (qb N j) x y (sumn n (fun k => C k j * qb N k x y))) ->
  qmodal N p b -> dr_is (eval2 p) x y (sumn n (fun j => b j * sumn n (fun k => C k j * qb N k x y))).
Proof.
  intros HC Hb. unfold dr_is. eapply dpl_ext; [intro t; symmetry; apply Hb|].
  assert (H : forall m, (m <= n)%nat -> derivable_pt_lim (fun t => sumn m (fun k => b k * qb N k t y)) x (sumn m (fun j => b j * sumn n (fun k => C k j * qb N k x y)))).
  { induction m as [|m IH]; intro Hm; [apply derivable_pt_lim_const|].
    rewrite sumn_S. eapply dpl_ext; [intro t; symmetry; apply sumn_S|]. apply (derivable_pt_lim_plus (fun t => sumn m (fun k => b k * qb N k t y))); [apply IH; lia|].
    apply (derivable_pt_lim_scal (fun t => qb N m t y)). apply (HC m Hm x y). }
  apply H. lia.
Qed.
Lemma qmodal_dsC C p b x y : (forall j, (j < n)%nat -> forall x y, ds_is (qb N j) x y (sumn n (fun k => C k j * qb N k x y))) ->
  qmodal N p b -> ds_is (eval2 p) x y (sumn n (fun j => b j * sumn n (fun k => C k j * qb N k x y))).
Proof.
  intros HC Hb. unfold ds_is. eapply dpl_ext; [intro t; symmetry; apply Hb|].
  assert (H : forall m, (m <= n)%nat -> derivable_pt_lim (fun t => sumn m (fun k => b k * qb N k x t)) y (sumn m (fun j => b j * sumn n (fun k => C k j * qb N k x y)))).
  { induction m as [|m IH]; intro Hm; [apply derivable_pt_lim_const|].
    rewrite sumn_S. eapply dpl_ext; [intro t; symmetry; apply sumn_S|]. apply (derivable_pt_lim_plus (fun t => sumn m (fun k => b k * qb N k x t))); [apply IH; lia|].
    apply (derivable_pt_lim_scal (fun t => qb N m x t)). apply (HC m Hm x y). }
  apply H. lia.
Qed.
Lemma qweak_r W : qweak_eq W Vr -> forall p, tdegree N p -> exists z, tdegree N z /\
    (forall i, (i < n)%nat -> sumn n (fun m => ment W i m * eval2 p (nth m r 0) (nth m s 0)) = eval2 z (nth i r 0) (nth i s 0)) /\
    forall q dq, tdegree N q -> (forall x y, dr_is (eval2 q) x y (dq x y)) ->
      exists v, square_integral (fun x y => eval2 z x y * eval2 q x y) v /\ square_integral (fun x y => eval2 p x y * dq x y) v.
Proof.
  intro HW. destruct (qdr_coefs N) as (C & HC). apply (qweak_int dr_is (qbr G N) Vr W C); auto.
  - intros c x y. apply (qb_dr G HG).
  - exact dr_unique.
  - intros p b x y Hb. apply qmodal_drC; assumption.
Qed.
Lemma qweak_s W : qweak_eq W Vs -> forall p, tdegree N p -> exists z, tdegree N z /\
    (forall i, (i < n)%nat -> sumn n (fun m => ment W i m * eval2 p (nth m r 0) (nth m s 0)) = eval2 z (nth i r 0) (nth i s 0)) /\
    forall q dq, tdegree N q -> (forall x y, ds_is (eval2 q) x y (dq x y)) ->
      exists v, square_integral (fun x y => eval2 z x y * eval2 q x y) v /\ square_integral (fun x y => eval2 p x y * dq x y) v.
Proof.
  intro HW. destruct (qds_coefs N) as (C & HC). apply (qweak_int ds_is (qbs G N) Vs W C); auto.
  - intros c x y. apply (qb_ds G HG).
  - exact ds_unique.
  - intros p b x y Hb. apply qmodal_dsC; assumption.
Qed.


(* ---- filter: the factor of every mode is the one set by the triangular loop, and zero from column (N+1)(N+2)/2 on ---- *)
Variables (fexp flog : R -> R) (eps Nc : R) (sp : nat).
Local Notation h := (length (modes N)).
Definition qsig (c : nat) : R := if (c <? h)%nat then filter_diag E pow fexp flog eps N Nc sp (fst (mode N c)) (snd (mode N c)) else 0.
Lemma qfilter_ok : exists F, quadFilter E pow fexp flog eps N V Vi Nc sp = Ok F /\ shape F n n /\
  forall i c, (i < n)%nat -> (c < n)%nat -> sumn n (fun m => ment F i m * qb N c (nth m r 0) (nth m s 0)) = qsig c * qb N c (nth i r 0) (nth i s 0).
Proof.
  destruct SVi as (I1 & I2). destruct SV as (V1 & V2). unfold quadFilter.
  assert (Hh : (h <= n)%nat) by (pose proof (modes_length N); nia).
  destruct (for_modes_ok (fun c (F : mat R) => shape F n n /\ forall a b, ment F a b = if ((a =? b) && (a <? c))%nat then qsig a else 0) N
     (fun i j count F => mset F count count (filter_diag E pow fexp flog eps N Nc sp i j)) (mzero E n n)) as (F & EF & (F1 & F2) & HF).
  - split; [split; reflexivity|]. intros. cbn [mzero ment]. rewrite andb_false_r. reflexivity.
  - intros c i j F Hc ((F1 & F2) & HF). destruct (mode_error _ _ _ _ Hc) as (Em & Lc). unfold mset. rewrite inb_true by lia. eexists. split; [reflexivity|]. cbn [mrows mcols ment]. split; [split; assumption|].
    intros a b. rewrite HF. destruct (Nat.eqb_spec a c) as [->|Ha]; cbn [andb].
    + unfold qsig. rewrite (proj2 (Nat.ltb_lt c h) Lc), Em. cbn [fst snd]. destruct (Nat.eqb_spec b c) as [->|Hb]; [rewrite Nat.eqb_refl; replace (c <? S c)%nat with true by (symmetry; apply Nat.ltb_lt; lia); reflexivity|].
      destruct (Nat.eqb_spec c b); [congruence|]. reflexivity.
    + destruct (a =? b)%nat; cbn [andb]; [|reflexivity]. destruct (Nat.ltb_spec a c), (Nat.ltb_spec a (S c)); try lia; reflexivity.
  - rewrite EF. cbn [bind]. eexists. split; [reflexivity|]. split; [split; cbn [mmul mrows mcols]; congruence|]. intros i c Hi Hc. cbn [mmul ment]. rewrite V2, F2.
    rewrite (sumn_ext n _ (fun m => sumn n (fun k => ment V i k * (qsig k * ment Vi k m)) * ment V m c)).
    2: { intros m Hm. rewrite fsum_exact, HV by assumption. f_equal. apply sumn_ext. intros k Hk. cbn [exact fmul]. f_equal. rewrite fsum_exact.
         rewrite (sumn_pick n _ k Hk); cbn [exact fmul].
         - rewrite HF, Nat.eqb_refl. cbn [andb]. destruct (Nat.ltb_spec k h) as [Hl|Hl]; [reflexivity|]. unfold qsig. rewrite (proj2 (Nat.ltb_ge k h) Hl). reflexivity.
         - intros k' Hk' Hne. rewrite HF. destruct (Nat.eqb_spec k k'); [congruence|]. cbn [andb]. ring. }
    rewrite sumn_assoc. rewrite (sumn_ext n _ (fun k => ment V i k * qsig k * delta k c)).
    2: { intros k Hk. rewrite <- (HVi k c Hk Hc). rewrite (sumn_ext n _ (fun m => qsig k * (ment Vi k m * ment V m c))) by (intros; ring). rewrite sumn_scal. ring. }
    rewrite (sumn_delta' n c (fun k => ment V i k * qsig k) Hc). rewrite HV by assumption. ring.
Qed.
End Diff.

(* ---- lift ---- *)
Variables m0 m1 m2 m3 : list nat.
Definition qmask_ok (f : nat) (mask : list nat) : Prop := length mask = S N /\
  forall m, In m mask -> (m < n)%nat /\ (nth m r 0, nth m s 0) = square_edge f (square_coord f (nth m r 0) (nth m s 0)).
Hypothesis Hm0 : qmask_ok 0 m0.
Hypothesis Hm1 : qmask_ok 1 m1.
Hypothesis Hm2 : qmask_ok 2 m2.
Hypothesis Hm3 : qmask_ok 3 m3.
Definition qmask (f : nat) : list nat := match f with O => m0 | 1%nat => m1 | 2%nat => m2 | _ => m3 end.
Definition qtf (f : nat) (m : nat) : R := square_coord f (nth m r 0) (nth m s 0).
Lemma qmask_fine f : (f < 4)%nat -> qmask_ok f (qmask f).
Proof. intro Hf. destruct f as [|[|[|[|f]]]]; [exact Hm0|exact Hm1|exact Hm2|exact Hm3|lia]. Qed.
Lemma spoly_edge f w : (f < 4)%nat -> tdegree N w -> spoly N (fun t => eval2 w (fst (square_edge f t)) (snd (square_edge f t))).
Proof.
  intros Hf Dw.
  assert (A : forall a, spoly N (fun t => eval2 w t a) /\ spoly N (fun t => eval2 w a t)).
  { intro a. induction w as [|[[i j] c] w IH]; cbn [eval2]; [split; exists []; (split; [cbn; lia|reflexivity])|]. inversion Dw as [|? ? Hd Dw']; subst. cbn [fst snd] in Hd. destruct (IH Dw') as (I1 & I2). split; apply spoly_plus; auto.
    - eapply spoly_ext; [|apply (spoly_scal N (c * a ^ j) (fun t => t ^ i)); eapply spoly_mono; [|apply spoly_pow]; lia]. intro; cbn beta; ring.
    - eapply spoly_ext; [|apply (spoly_scal N (c * a ^ i) (fun t => t ^ j)); eapply spoly_mono; [|apply spoly_pow]; lia]. intro; cbn beta; ring. }
  destruct f as [|[|[|[|f]]]]; cbn [square_edge fst snd]; try apply A; lia.
Qed.
(* from a matrix with the edge mass matrices in its columns to the lifted polynomial *)
Lemma qlifted V E4 f M cs :
  (f < 4)%nat -> (length cs <= S N)%nat -> NoDup (qmask f) ->
  (forall i c, (i < n)%nat -> (c < n)%nat -> ment V i c = qb N c (nth i r 0) (nth i s 0)) -> shape V n n -> shape E4 n (4 * S N) ->
  (forall i j, (i < S N)%nat -> (j < S N)%nat -> ment E4 (nth i (qmask f) 0%nat) (f * S N + j) = ment M i j) ->
  (forall m j, (m < n)%nat -> (j < S N)%nat -> ~ In m (qmask f) -> ment E4 m (f * S N + j) = 0) ->
  (forall k l, (k < S N)%nat -> (l < S N)%nat -> sumn (S N) (fun i => P k (qtf f (nth i (qmask f) 0%nat)) * sumn (S N) (fun j => ment M i j * P l (qtf f (nth j (qmask f) 0%nat)))) = delta k l) ->
  exists z, tdegree N z /\
    (forall i, (i < n)%nat -> sumn (S N) (fun j => ment (mmul E (mmul E V (mtrans V)) E4) i (f * S N + j) * peval cs (qtf f (nth j (qmask f) 0%nat))) = eval2 z (nth i r 0) (nth i s 0)) /\
    forall w, tdegree N w -> exists v, square_integral (fun x y => eval2 z x y * eval2 w x y) v /\
      integral_is (fun t => eval2 w (fst (square_edge f t)) (snd (square_edge f t)) * peval cs t) (-1) 1 v.
Proof.
  intros Hf Hcs ND HV (V1 & V2) (E1 & E2) HE HE0 HM. destruct (qmask_fine f Hf) as (Lm & Hm).
  set (y := fun i => sumn (S N) (fun j => ment M i j * peval cs (qtf f (nth j (qmask f) 0%nat)))).
  set (x := fun i => nth i (qmask f) 0%nat) in *.
  assert (Hx : forall i, (i < S N)%nat -> (x i < n)%nat) by (intros i Hi; apply Hm, nth_In; lia).
  destruct (qcomb G N (fun c => sumn (S N) (fun i => y i * qb N c (nth (x i) r 0) (nth (x i) s 0)))) as (z & Dz & Hz). exists z. split; [exact Dz|]. split.
  - intros i Hi. rewrite Hz. cbn [mmul mtrans ment mrows mcols]. rewrite V1, V2.
    transitivity (sumn (S N) (fun j => sumn (S N) (fun i' => sumn n (fun c => ment V i c * ment V (x i') c) * ment M i' j) * peval cs (qtf f (x j)))).
    { apply sumn_ext. intros j Hj. f_equal. rewrite fsum_exact. rewrite (sumn_ext n _ (fun m => sumn n (fun c => ment V i c * ment V m c) * ment E4 m (f * S N + j))) by (intros m Hm'; rewrite fsum_exact; reflexivity).
      rewrite (sumn_mask (qmask f) n); [rewrite Lm; apply sumn_ext; intros i' Hi'; rewrite HE by assumption; reflexivity|exact ND|intros m Hin; apply Hm; exact Hin|].
      intros m Hm' Hn. rewrite HE0 by assumption. ring. }
    rewrite sumn_assoc. fold y. transitivity (sumn (S N) (fun i' => sumn n (fun c => ment V i c * ment V (x i') c) * y i')); [reflexivity|]. rewrite sumn_assoc.
    apply sumn_ext. intros c Hc. rewrite (HV i c Hi Hc), Rmult_comm. f_equal. apply sumn_ext. intros i' Hi'. rewrite (HV _ c (Hx i' Hi') Hc). ring.
  - intros w Dw. destruct (qmodal_ex G HG N w Dw) as (b & Hb). exists (sumn (S N) (fun i => eval2 w (nth (x i) r 0) (nth (x i) s 0) * y i)). split.
    + eapply qint_val; [|apply (qparseval G HG N (eval2 z) (eval2 w) _ b Hz Hb)]. cbv beta.
      rewrite (sumn_assoc n (S N) y (fun i c => qb N c (nth (x i) r 0) (nth (x i) s 0)) b). apply sumn_ext. intros i Hi.
      rewrite Hb, Rmult_comm. f_equal. apply sumn_ext; intros; ring.
    + assert (Sw := spoly_edge f w Hf Dw).
      assert (Sg : spoly N (peval cs)) by (exists cs; split; [exact Hcs|reflexivity]).
      assert (Lt : length (map (qtf f) (qmask f)) = S N) by (rewrite map_length; exact Lm).
      assert (Nt : forall i, (i < S N)%nat -> nth i (map (qtf f) (qmask f)) 0 = qtf f (x i)).
      { intros i Hi. rewrite nth_indep with (d' := qtf f 0%nat) by lia. apply map_nth. }
      pose proof (edge_integral G HG N (map (qtf f) (qmask f)) M (fun t => eval2 w (fst (square_edge f t)) (snd (square_edge f t))) (peval cs) Lt) as H. cbv beta in H.
      match type of H with ?A -> _ => assert (HA : A) end.
      { intros k l Hk Hl. rewrite <- (HM k l Hk Hl). apply sumn_ext. intros i Hi. rewrite Nt by exact Hi. f_equal. apply sumn_ext. intros j Hj. rewrite Nt by exact Hj. reflexivity. }
      specialize (H HA Sw Sg). match type of H with integral_is _ _ _ ?v => match goal with |- integral_is _ _ _ ?w => replace w with v; [exact H|] end end.
      apply sumn_ext. intros i Hi. rewrite Nt by exact Hi. f_equal.
      * destruct (Hm (x i)) as (_ & Ee); [apply nth_In; lia|]. unfold qtf at 1 2. rewrite <- Ee. reflexivity.
      * unfold y. apply sumn_ext. intros j Hj. rewrite Nt by exact Hj. reflexivity.
Qed.


Lemma qfaceX_ok f : (f < 4)%nat -> gather (match f with O | 2%nat => r | _ => s end) (qmask f) = Ok (map (qtf f) (qmask f)).
Proof.
  intro Hf. destruct (qmask_fine f Hf) as (Lm & Hm).
  rewrite (gather_ok _ (qmask f) 0) by (intros m Hin; destruct (Hm m Hin); destruct f as [|[|[|[|f]]]]; lia).
  f_equal. apply map_ext. intro m. unfold qtf, square_coord. destruct f as [|[|[|[|f]]]]; reflexivity.
Qed.
Lemma qnodup f : (f < 4)%nat -> (forall a b, (a < S N)%nat -> (b < S N)%nat -> nth a (map (qtf f) (qmask f)) 0 = nth b (map (qtf f) (qmask f)) 0 -> a = b) -> NoDup (qmask f).
Proof.
  intros Hf Hab. destruct (qmask_fine f Hf) as (Lm & _). apply (NoDup_nth (qmask f) 0%nat). intros a b Ha Hb Eab. apply Hab; [lia|lia|].
  rewrite !(map_nth' _ _ _ 0%nat) by lia. rewrite Eab. reflexivity.
Qed.
Lemma qedge_step f E0 (H0 : shape E0 n (4 * S N)) {Z} (k : mat R -> outcome Z) : (f < 4)%nat ->
  (bind (gather (match f with O | 2%nat => r | _ => s end) (qmask f)) (fun x => bind (edgeMass E inverse junk (S N) x) (fun M => bind (putEdge (S N) f (qmask f) M E0) k)) = Throw) \/
  exists M E1, bind (gather (match f with O | 2%nat => r | _ => s end) (qmask f)) (fun x => bind (edgeMass E inverse junk (S N) x) (fun M => bind (putEdge (S N) f (qmask f) M E0) k)) = k E1 /\
   NoDup (qmask f) /\ shape E1 n (4 * S N) /\
   (forall i j, (i < S N)%nat -> (j < S N)%nat -> ment E1 (nth i (qmask f) 0%nat) (f * S N + j) = ment M i j) /\
   (forall i j, (j < f * S N)%nat \/ (f * S N + S N <= j)%nat \/ ~ In i (qmask f) -> ment E1 i j = ment E0 i j) /\
   (forall k l, (k < S N)%nat -> (l < S N)%nat -> sumn (S N) (fun i => P k (qtf f (nth i (qmask f) 0%nat)) * sumn (S N) (fun j => ment M i j * P l (qtf f (nth j (qmask f) 0%nat)))) = delta k l).
Proof.
  intro Hf. rewrite (qfaceX_ok f Hf). cbn [bind]. destruct (qmask_fine f Hf) as (Lm & Im).
  destruct (edgeMass_ok G HG inverse junk HI N (map (qtf f) (qmask f))) as [-> | (M & -> & SM & D & HM)]; [rewrite map_length; exact Lm|left; reflexivity|right]. cbn [bind].
  pose proof (qnodup f Hf D) as ND. destruct H0 as (H1 & H2).
  destruct (putEdge_ok (S N) f (qmask f) M E0 Lm ND ltac:(intros m Hin; rewrite H1; apply Im; exact Hin) SM ltac:(rewrite H2; nia)) as (E1 & -> & (E1r & E1c) & P1 & Z1). cbn [bind].
  exists M, E1. split; [reflexivity|]. split; [exact ND|]. split; [split; congruence|]. split; [exact P1|]. split; [intros a c [Hc|[Hc|Hc]]; apply Z1; [left; left; exact Hc|left; right; exact Hc|right; exact Hc]|].
  intros a l Ha Hl. rewrite <- (HM a l Ha Hl). apply sumn_ext. intros i Hi. rewrite (map_nth' _ _ _ 0%nat) by lia. f_equal. apply sumn_ext. intros j Hj. rewrite (map_nth' _ _ _ 0%nat) by lia. reflexivity.
Qed.

Lemma quadLift_ok : quadLift E inverse junk N r s [m0; m1; m2; m3] = Throw \/
  exists V Vi L, quadLift E inverse junk N r s [m0; m1; m2; m3] = Ok (V, Vi, L) /\ shape V n n /\ shape Vi n n /\ shape L n (4 * S N) /\
    forall f cs, (f < 4)%nat -> (length cs <= S N)%nat ->
    exists z, tdegree N z /\
    (forall i, (i < n)%nat -> sumn (S N) (fun j => ment L i (f * S N + j) * peval cs (qtf f (nth j (qmask f) 0%nat))) = eval2 z (nth i r 0) (nth i s 0)) /\
    forall w, tdegree N w -> exists v, square_integral (fun x y => eval2 z x y * eval2 w x y) v /\
      integral_is (fun t => eval2 w (fst (square_edge f t)) (snd (square_edge f t)) * peval cs t) (-1) 1 v.
Proof.
  unfold quadLift. cbn zeta. cbn [getn nth_error bind].
  destruct (qedge_step 0 (mzero E n (4 * S N)) ltac:(split; reflexivity) (fun E1 =>
    bind (gather s m1) (fun f2 => bind (edgeMass E inverse junk (S N) f2) (fun M2 => bind (putEdge (S N) 1 m1 M2 E1) (fun E2 =>
    bind (gather r m2) (fun f3 => bind (edgeMass E inverse junk (S N) f3) (fun M3 => bind (putEdge (S N) 2 m2 M3 E2) (fun E3 =>
    bind (gather s m3) (fun f4 => bind (edgeMass E inverse junk (S N) f4) (fun M4 => bind (putEdge (S N) 3 m3 M4 E3) (fun E4 =>
    bind (quadVandermonde E inverse N r s (mzero E n n) (mkmat n n junk)) (fun '(V, Vinv) =>
    Ok (V, Vinv, mmul E (mmul E V (mtrans V)) E4)))))))))))) ltac:(lia)) as [Hx | (M1 & E1 & Hx & ND1 & S1 & P1 & Z1 & HM1)]; cbn [qmask] in Hx; [left; exact Hx|rewrite Hx; clear Hx].
  destruct (qedge_step 1 E1 S1 (fun E2 =>
    bind (gather r m2) (fun f3 => bind (edgeMass E inverse junk (S N) f3) (fun M3 => bind (putEdge (S N) 2 m2 M3 E2) (fun E3 =>
    bind (gather s m3) (fun f4 => bind (edgeMass E inverse junk (S N) f4) (fun M4 => bind (putEdge (S N) 3 m3 M4 E3) (fun E4 =>
    bind (quadVandermonde E inverse N r s (mzero E n n) (mkmat n n junk)) (fun '(V, Vinv) =>
    Ok (V, Vinv, mmul E (mmul E V (mtrans V)) E4))))))))) ltac:(lia)) as [Hx | (M2 & E2 & Hx & ND2 & S2 & P2 & Z2 & HM2)]; cbn [qmask] in Hx; [left; exact Hx|rewrite Hx; clear Hx].
  destruct (qedge_step 2 E2 S2 (fun E3 =>
    bind (gather s m3) (fun f4 => bind (edgeMass E inverse junk (S N) f4) (fun M4 => bind (putEdge (S N) 3 m3 M4 E3) (fun E4 =>
    bind (quadVandermonde E inverse N r s (mzero E n n) (mkmat n n junk)) (fun '(V, Vinv) =>
    Ok (V, Vinv, mmul E (mmul E V (mtrans V)) E4)))))) ltac:(lia)) as [Hx | (M3 & E3 & Hx & ND3 & S3 & P3 & Z3 & HM3)]; cbn [qmask] in Hx; [left; exact Hx|rewrite Hx; clear Hx].
  destruct (qedge_step 3 E3 S3 (fun E4 =>
    bind (quadVandermonde E inverse N r s (mzero E n n) (mkmat n n junk)) (fun '(V, Vinv) =>
    Ok (V, Vinv, mmul E (mmul E V (mtrans V)) E4))) ltac:(lia)) as [Hx | (M4 & E4 & Hx & ND4 & S4 & P4 & Z4 & HM4)]; cbn [qmask] in Hx; [left; exact Hx|rewrite Hx; clear Hx].
  destruct (qvander_ok G HG inverse N r s ltac:(congruence) (mzero E n n) (mkmat n n junk) HI Lr ltac:(split; reflexivity) ltac:(split; reflexivity)) as [-> | (V & Vi & -> & SV & SVi & HV & _)]; [left; reflexivity|right]. cbn [bind].
  exists V, Vi, (mmul E (mmul E V (mtrans V)) E4). split; [reflexivity|]. split; [exact SV|]. split; [exact SVi|]. split; [split; cbn [mmul mrows mcols]; [apply SV|apply S4]|].
  intros f cs Hf Hcs. destruct f as [|[|[|[|f]]]]; [| | | |lia].
  - apply (qlifted V E4 0 M1); auto.
    + intros i j Hi Hj. rewrite Z4, Z3, Z2 by lia. apply P1; assumption.
    + intros m j Hm Hj Hn. rewrite Z4, Z3, Z2 by lia. rewrite Z1 by (right; right; exact Hn). reflexivity.
  - apply (qlifted V E4 1 M2); auto.
    + intros i j Hi Hj. rewrite Z4, Z3 by lia. apply P2; assumption.
    + intros m j Hm Hj Hn. rewrite Z4, Z3 by lia. rewrite Z2 by (right; right; exact Hn). rewrite Z1 by lia. reflexivity.
  - apply (qlifted V E4 2 M3); auto.
    + intros i j Hi Hj. rewrite Z4 by lia. apply P3; assumption.
    + intros m j Hm Hj Hn. rewrite Z4 by lia. rewrite Z3 by (right; right; exact Hn). rewrite Z2, Z1 by lia. reflexivity.
  - apply (qlifted V E4 3 M4); auto.
    intros m j Hm Hj Hn. rewrite Z4 by (right; right; exact Hn). rewrite Z3, Z2, Z1 by lia. reflexivity.
Qed.
End Nodes.
End QuadOp.
