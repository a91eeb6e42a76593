(* QuadFiltProofs.v - the volume of water from the nodal depths, and the filter matrix of QuadNodesProvisioner: it changes no mode
   of degree below its cutoff, so it leaves the volume alone. *)
From Coq Require Import ZArith List Lia Bool Arith.
From Verif Require Import Base Loops Num BlitzModel JacobiModel JacobiSpec JacobiProofs JacobiOrthProofs JacobiQuadProofs JacobiExactProofs Nodes1DModel Nodes1DSpec Nodes1DExactProofs DenseSpec DenseModel QuadInterpProofs
  MeshSpec MeshGeoProofs Poisson1DProofs TriModel TriSpec TriGeoSpec TriBasisProofs TriOpProofs TriProofs TriLiftProofs TriDGProofs TriFilterProofs QuadModel QuadSpec QuadSetup QuadBasisProofs QuadNodesProofs QuadOpProofs QuadElemProofs QuadGeoProofs QuadProps
  QuadVolProofs QuadBalProofs QuadVolSpec.
From Coq Require Import Reals Lra.
Import ListNotations.
Local Open Scope R_scope.

Lemma par_twist p : parallelogram p -> twist fst p = 0 /\ twist snd p = 0.
Proof. intros (H1 & H2). unfold twist. split; lra. Qed.
Lemma mode_low N : (1 <= N)%nat -> nth_error (modes N) 0 = Some (0%nat, 0%nat) /\ nth_error (modes N) 1 = Some (0%nat, 1%nat) /\ nth_error (modes N) (S N) = Some (1%nat, 0%nat).
Proof.
  intro HN. destruct N as [|M]; [lia|]. unfold modes. cbn [seq flat_map map Nat.sub nth_error app]. repeat split. rewrite nth_error_app2 by (rewrite map_length, seq_length; lia). rewrite map_length, seq_length. cbn [Nat.sub]; rewrite ?Nat.sub_diag; reflexivity.
Qed.

Section Filt.
Context (G : R -> R) (solve : mat R -> mat R -> mat R -> outcome (mat R)) (inverse : mat R -> mat R -> outcome (mat R))
  (junk : nat -> nat -> R) (eps : R) (eig : nat -> (nat -> nat -> R) -> list R * (nat -> nat -> R)) (tol : R)
  (N K : nat) (Vert : list R) (EToV : list nat) (el : element (T := R)).
Hypothesis HB : qbuilt G solve inverse junk eps eig tol N K Vert EToV el.
Local Notation n := (S N * S N)%nat.
Local Notation Np := ((N + 1) * (N + 1))%nat.
Local Notation r := (e_r el). Local Notation s := (e_s el).
Local Notation E := (exact G).
Local Notation PP k := (fun c => qcorner Vert EToV k c).
Local Notation qw := (qw G N el).
Local Notation Pj := (jac G 0 0).

Lemma low_int e j : (e < j)%nat -> integral_is (fun x => x ^ e * Pj j x) (-1) 1 0.
Proof.
  intro He. pose proof (qb_gamma _ _ _ _ _ _ _ _ _ _ _ _ HB) as HG. destruct (modal1 G HG e (fun x => x ^ e)) as (c & Hc); [apply spoly_pow|].
  eapply integral_ext; [|eapply integral_val; [|apply (int_sum (-1) 1 (S e) (fun k x => c k * (Pj k x * Pj j x)) (fun k => c k * (if (k =? j)%nat then 1 else 0)))]].
  - intro x. cbv beta. rewrite Hc, (Rmult_comm (sumn _ _)), <- sumn_scal. apply sumn_ext. intros; ring.
  - apply sumn_zero. intros k Hk. destruct (Nat.eqb_spec k j); [lia|ring].
  - intros k Hk. apply integral_scal. eapply integral_ext; [|apply (orth G HG k j 0 0)]. intro x. cbv beta. unfold weight. cbn [pow]. change (INR 0) with 0. ring.
Qed.
Lemma lin_mode a b c m : (m < n)%nat -> (m <> 0)%nat -> ((m <> 1)%nat /\ (m <> S N)%nat \/ (b = 0 /\ c = 0)) -> square_integral (fun x y => (a + b * x + c * y) * qb G N m x y) 0.
Proof.
  intros Hm H0 Hm1. destruct (pair_lt _ _ Hm) as (A1 & A2 & A3). set (i := (m / S N)%nat) in *. set (j := (m mod S N)%nat) in *.
  assert (Ex : forall e f, exists v, integral_is (fun x => x ^ e * Pj f x) (-1) 1 v).
  { intros e f. destruct (spoly_P G f) as (cs & Lc & Hc). destruct (spoly_pow e) as (es & Le & He). destruct (int_prod es cs (-1) 1) as (v & Hv). exists v. eapply integral_ext; [|exact Hv]. intro x. cbv beta. rewrite He, Hc. reflexivity. }
  destruct (Ex 0%nat i) as (i0 & I0). destruct (Ex 1%nat i) as (i1 & I1). destruct (Ex 0%nat j) as (j0 & J0). destruct (Ex 1%nat j) as (j1 & J1).
  eapply qint_ext; [|eapply qint_val; [|apply qint_plus; [apply (qint_scal a), (qint_prod _ _ _ _ J0 I0)|apply qint_plus; [apply (qint_scal b), (qint_prod _ _ _ _ J1 I0)|apply (qint_scal c), (qint_prod _ _ _ _ J0 I1)]]]].
  - intros x y. unfold qb. fold i j. cbn [pow]. ring.
  - assert (Z0 : forall e f v, (e < f)%nat -> integral_is (fun x => x ^ e * Pj f x) (-1) 1 v -> v = 0) by (intros e f v Hef Hv; exact (integral_unique _ _ _ _ _ Hv (low_int e f Hef))).
    destruct (Nat.eq_dec i 0) as [Ei|Ni].
    + destruct (Nat.eq_dec j 0) as [Ej|Nj]; [exfalso; apply H0; rewrite A3, Ei, Ej; lia|]. rewrite (Z0 0%nat j j0 ltac:(lia) J0). destruct Hm1 as [(M1 & _)|(-> & ->)]; [|ring].
      rewrite (Z0 1%nat j j1); [ring| |exact J1]. assert (j <> 1)%nat by (intro; apply M1; rewrite A3, Ei; lia). lia.
    + rewrite (Z0 0%nat i i0 ltac:(lia) I0). destruct Hm1 as [(_ & M2)|(-> & ->)]; [|ring]. destruct (Nat.eq_dec j 0) as [Ej|Nj]; [|rewrite (Z0 0%nat j j0 ltac:(lia) J0); ring].
      rewrite (Z0 1%nat i i1); [ring| |exact I1]. assert (i <> 1)%nat by (intro; apply M2; rewrite A3, Ej; lia). lia.
Qed.

Variable gp : nat -> R.
Hypothesis HGp : gpoints N el gp.
Variables (epsf Nc : R) (sp : nat) (F : mat R).
Hypothesis HF : quadFilter E pow exp ln epsf N (e_V el) (e_Vinv el) Nc sp = Ok F.
Lemma filter_cols : shape F n n /\ forall i c, (i < n)%nat -> (c < n)%nat -> sumn n (fun m => ment F i m * qb G N c (nth m r 0) (nth m s 0)) = qsig G N exp ln epsf Nc sp c * qb G N c (nth i r 0) (nth i s 0).
Proof.
  destruct (qelement_ok _ _ _ _ _ _ _ _ _ _ _ _ HB) as [Hn masks edge_i SV SVi V Vi Vi' SL lift D x metric nrm]. destruct Hn as (lr & ls & _).
  destruct (qfilter_ok G N r s lr ls (e_V el) SV V (e_Vinv el) SVi Vi exp ln epsf Nc sp) as (F' & EF & SF & HF'). assert (F' = F) by congruence. subst F'. split; assumption.
Qed.
Lemma sig_low c : (1 <= N)%nat -> (c = 0%nat /\ 0 < Nc \/ (c = 1%nat \/ c = S N) /\ 1 < Nc) -> qsig G N exp ln epsf Nc sp c = 1.
Proof.
  intros HN Hc. destruct (mode_low N HN) as (M0 & M1 & M2). unfold qsig.
  assert (X : exists i j, nth_error (modes N) c = Some (i, j) /\ INR (i + j) < Nc).
  { destruct Hc as [(-> & H)|([-> | ->] & H)]; [exists 0%nat, 0%nat|exists 0%nat, 1%nat|exists 1%nat, 0%nat]; split; auto; cbn; lra. }
  destruct X as (i & j & Em & Hl). destruct (mode_error _ _ _ _ Em) as (Em' & Lc). rewrite (proj2 (Nat.ltb_lt _ _) Lc), Em'. cbn [fst snd]. apply low_E. exact Hl.
Qed.
Lemma filter_lin a b c (z : nat -> R) : ((2 <= N)%nat /\ 1 < Nc \/ (b = 0 /\ c = 0) /\ 0 < Nc) ->
  sumn n (fun i => qw i * ((a + b * nth i r 0 + c * nth i s 0) * sumn n (fun m => ment F i m * z m))) = sumn n (fun i => qw i * ((a + b * nth i r 0 + c * nth i s 0) * z i)).
Proof.
  intro Hcond. pose proof (qb_gamma _ _ _ _ _ _ _ _ _ _ _ _ HB) as HG. pose proof (qb_order _ _ _ _ _ _ _ _ _ _ _ _ HB) as HN.
  assert (Hl : (2 <= N)%nat \/ (b = 0 /\ c = 0)) by tauto. destruct filter_cols as (SF & Hcol).
  destruct (qnodal_poly _ _ _ _ _ _ _ _ _ _ _ _ HB z) as (p & D & Hp). destruct (qmodal_ex G HG N p D) as (ch & Hch). unfold qmodal in Hch.
  destruct (qcomb G N (fun k => (qsig G N exp ln epsf Nc sp k) * ch k)) as (p' & D' & Hch'). unfold qmodal in Hch'.
  assert (Ef : forall i, (i < n)%nat -> sumn n (fun m => ment F i m * z m) = eval2 p' (nth i r 0) (nth i s 0)).
  { intros i Hi. rewrite Hch'. rewrite (sumn_ext n (fun k => qsig G N exp ln epsf Nc sp k * ch k * qb G N k (nth i r 0) (nth i s 0)) (fun k => sumn n (fun m => ch k * (ment F i m * qb G N k (nth m r 0) (nth m s 0))))) by (intros k Hk; rewrite sumn_scal, (Hcol i k Hi Hk); ring).
    rewrite sumn_swap. apply sumn_ext. intros m Hm. rewrite <- Hp, Hch, <- sumn_scal by exact Hm. apply sumn_ext. intros; ring. }
  rewrite (sumn_ext n _ (fun i => qw i * ((a + b * nth i r 0 + c * nth i s 0) * eval2 p' (nth i r 0) (nth i s 0)))) by (intros i Hi; rewrite Ef by exact Hi; reflexivity).
  rewrite (sumn_ext n (fun i => qw i * ((a + b * nth i r 0 + c * nth i s 0) * z i)) (fun i => qw i * ((a + b * nth i r 0 + c * nth i s 0) * eval2 p (nth i r 0) (nth i s 0)))) by (intros i Hi; rewrite Hp by exact Hi; reflexivity).
  pose proof (lin_int _ _ _ _ _ _ _ _ _ _ _ _ HB gp HGp a b c p Hl D) as I1. pose proof (lin_int _ _ _ _ _ _ _ _ _ _ _ _ HB gp HGp a b c p' Hl D') as I2. cbv beta in I1, I2.
  eapply qint_unique; [exact I2|]. eapply qint_ext; [|eapply qint_val; [|apply qint_plus; [exact I1|apply (qint_sum n (fun k x y => (qsig G N exp ln epsf Nc sp k - 1) * ch k * ((a + b * x + c * y) * qb G N k x y)) (fun _ => 0))]]].
  - intros x y. cbv beta. rewrite Hch, Hch', <- !sumn_scal, <- sumn_plus. apply sumn_ext. intros; ring.
  - rewrite (sumn_zero n (fun _ => 0)) by reflexivity. ring.
  - intros k Hk. destruct (Nat.eq_dec k 0) as [-> |N0].
    + rewrite (sig_low 0%nat HN) by (left; split; [reflexivity|destruct Hcond as [(_ & H)|(_ & H)]; lra]). eapply qint_ext; [|apply qint_zero]; intros; cbv beta; ring.
    + destruct Hcond as [(H2 & HNc)|(Hbc & _)].
      * destruct (Nat.eq_dec k 1) as [-> |N1]; [rewrite (sig_low 1%nat HN) by (right; auto); eapply qint_ext; [|apply qint_zero]; intros; cbv beta; ring|].
        destruct (Nat.eq_dec k (S N)) as [-> |N2]; [rewrite (sig_low (S N) HN) by (right; auto); eapply qint_ext; [|apply qint_zero]; intros; cbv beta; ring|].
        eapply qint_val; [|apply qint_scal, (lin_mode a b c k Hk N0 (or_introl (conj N1 N2)))]. ring.
      * eapply qint_val; [|apply qint_scal, (lin_mode a b c k Hk N0 (or_intror Hbc))]. ring.
Qed.
End Filt.

Section Volume.
Context (G : R -> R) (solve : mat R -> mat R -> mat R -> outcome (mat R)) (inverse : mat R -> mat R -> outcome (mat R))
  (junk : nat -> nat -> R) (eps : R) (eig : nat -> (nat -> nat -> R) -> list R * (nat -> nat -> R)) (tol : R)
  (N K : nat) (Vert : list R) (EToV : list nat) (el : element (T := R)).
Hypothesis HB : qbuilt G solve inverse junk eps eig tol N K Vert EToV el.
Local Notation n := (S N * S N)%nat.
Local Notation Np := ((N + 1) * (N + 1))%nat.
Local Notation r := (e_r el). Local Notation s := (e_s el).
Local Notation PP k := (fun c => qcorner Vert EToV k c).
Variable gp : nat -> R.
Hypothesis HGp : gpoints N el gp.
Hypothesis HP : (2 <= N)%nat \/ forall k, (k < K)%nat -> parallelogram (PP k).
Definition qvol (h : nat -> nat -> R) : R := sumn K (fun k => sumn n (fun i => qw G N el i * (qjac (PP k) (nth i r 0) (nth i s 0) * h i k))).
Lemma elem_lin k : (k < K)%nat -> exists a b c, (forall x y, qjac (PP k) x y = a + b * x + c * y) /\ ((2 <= N)%nat \/ (b = 0 /\ c = 0)).
Proof. intro Hk. destruct (qjac_lin (PP k)) as (a & b & c & H & H0). exists a, b, c. split; [exact H|]. destruct HP as [|Q]; [auto|right]. destruct (par_twist _ (Q k Hk)). apply H0; assumption. Qed.
Lemma vol_iff h v : quad_volume_is N Np K Vert EToV r s h v <-> v = qvol (fun i k => ment h i k).
Proof.
  assert (W : forall k Z, (k < K)%nat -> tdegree N Z -> (forall i, (i < Np)%nat -> eval2 Z (nth i r 0) (nth i s 0) = ment h i k) -> quad_integral (PP k) (eval2 Z) (sumn n (fun i => qw G N el i * (qjac (PP k) (nth i r 0) (nth i s 0) * ment h i k)))).
  { intros k Z Hk D HZ. destruct (elem_lin k Hk) as (a & b & c & Hlin & Hl). unfold quad_integral. eapply qint_ext; [|eapply qint_val; [|apply (lin_int _ _ _ _ _ _ _ _ _ _ _ _ HB gp HGp a b c Z Hl D)]].
    - intros x y. cbv beta. change (area_scale (PP k) x y) with (qjac (PP k) x y). rewrite Hlin. reflexivity.
    - apply sumn_ext. intros i Hi. rewrite Hlin, HZ by lia. reflexivity. }
  split.
  - intros (Z & w & HZ & ->). unfold qvol. apply sumn_ext. intros k Hk. destruct (HZ k Hk) as (D & Hv & I). eapply qint_unique; [exact I|]. apply (W k (Z k) Hk D Hv).
  - intros ->. assert (Ex : forall k, exists p, tdegree N p /\ forall i, (i < n)%nat -> eval2 p (nth i r 0) (nth i s 0) = ment h i k) by (intro k; apply (qnodal_poly _ _ _ _ _ _ _ _ _ _ _ _ HB (fun i => ment h i k))).
    assert (X : exists Z : nat -> poly2, forall k, (k < K)%nat -> tdegree N (Z k) /\ forall i, (i < n)%nat -> eval2 (Z k) (nth i r 0) (nth i s 0) = ment h i k).
    { clear - Ex. induction K as [|k (Z & HZ)]; [exists (fun _ => []); intros; lia|]. destruct (Ex k) as (p & Hp). exists (fun i => if (i =? k)%nat then p else Z i). intros i Hi. destruct (Nat.eqb_spec i k) as [-> |]; [exact Hp|apply HZ; lia]. }
    destruct X as (Z & HZ). exists Z, (fun k => sumn n (fun i => qw G N el i * (qjac (PP k) (nth i r 0) (nth i s 0) * ment h i k))). split; [|reflexivity].
    intros k Hk. destruct (HZ k Hk) as (D & Hv). split; [exact D|]. split; [intros i Hi; apply Hv; lia|]. apply W; [exact Hk|exact D|]. intros i Hi. apply Hv. lia.
Qed.
Lemma qvol_plus c h z : qvol (fun i k => h i k + c * z i k) = qvol h + c * qvol z.
Proof. unfold qvol. rewrite <- sumn_scal, <- sumn_plus. apply sumn_ext. intros k Hk. rewrite <- sumn_scal, <- sumn_plus. apply sumn_ext. intros; ring. Qed.
Lemma qvol_ext h z : (forall i k, (i < n)%nat -> (k < K)%nat -> h i k = z i k) -> qvol h = qvol z.
Proof. intro H. unfold qvol. apply sumn_ext. intros k Hk. apply sumn_ext. intros i Hi. rewrite H by assumption. reflexivity. Qed.
Lemma qvol_filter epsf Nc sp F z : quadFilter (exact G) pow exp ln epsf N (e_V el) (e_Vinv el) Nc sp = Ok F -> ((2 <= N)%nat /\ 1 < Nc \/ (forall k, (k < K)%nat -> parallelogram (PP k)) /\ 0 < Nc) ->
  qvol (fun i k => sumn n (fun m => ment F i m * z m k)) = qvol z.
Proof.
  intros HF Hc. unfold qvol. apply sumn_ext. intros k Hk. destruct (qjac_lin (PP k)) as (a & b & c & Hlin & Haff).
  assert (X : (2 <= N)%nat /\ 1 < Nc \/ (b = 0 /\ c = 0) /\ 0 < Nc). { destruct Hc as [|(Q & H)]; [auto|right; split; [|exact H]]. destruct (par_twist _ (Q k Hk)). apply Haff; assumption. }
  rewrite (sumn_ext n _ (fun i => qw G N el i * ((a + b * nth i r 0 + c * nth i s 0) * sumn n (fun m => ment F i m * z m k)))) by (intros; rewrite Hlin; reflexivity).
  rewrite (filter_lin _ _ _ _ _ _ _ _ _ _ _ _ HB gp HGp epsf Nc sp F HF a b c (fun m => z m k) X). apply sumn_ext. intros; rewrite Hlin; reflexivity.
Qed.
End Volume.
