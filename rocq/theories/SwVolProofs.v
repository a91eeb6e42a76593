(* SwVolProofs.v - the volume of water under a nodal depth is a weighted sum of the nodal values; lemmas for SwStepProps.v. *)
From Coq Require Import ZArith List Lia Bool Arith.
From Verif Require Import Base Loops Num JacobiSpec JacobiProofs JacobiOrthProofs JacobiQuadProofs JacobiExactProofs Nodes1DModel Nodes1DExactProofs DenseSpec BlitzModel QuadInterpProofs TriModel TriSpec TriGeoSpec TriSetup TriBasisProofs TriProofs TriLiftProofs TriOpProofs TriFilterProofs TriElemProofs TriProps TriDGSpec TriDGProofs
  RKModel Line1DModel Line1DProofs Line1DBurgersProofs SwModel SwSpec SwProofs SwSchemeProofs SwRunProofs SwStepModel SwStepSpec SwStepProofs.
From Coq Require Import Reals Lra.
Import ListNotations.
Local Open Scope R_scope.

Section Vol.
Context (G : R -> R) (solve : mat R -> mat R -> mat R -> outcome (mat R)) (inverse : mat R -> mat R -> outcome (mat R))
  (junk : nat -> nat -> R) (eps : R) (eig : nat -> (nat -> nat -> R) -> list R * (nat -> nat -> R)) (tol : R)
  (N K : nat) (Vert : list R) (EToV : list nat) (el : element (T := R)).
Hypothesis HB : built G solve inverse junk eps eig tol N K Vert EToV el.
Local Notation P := (corner Vert EToV).
Hypothesis HA : forall k, (k < K)%nat -> 0 < area (P k 0) (P k 1) (P k 2).
Local Notation Np := (length (e_r el)).
Local Notation r := (e_r el). Local Notation s := (e_s el).
Local Notation Vi := (e_Vinv el).
Local Notation vol := (volume_is N Np K Vert EToV (e_x el) (e_y el)).
Local Notation b0 := (bas G N 0 0 0).

Lemma mode0 : mode N 0 = (0%nat, 0%nat) /\ (0 < length (modes N))%nat.
Proof. unfold mode, modes. cbn. split; [reflexivity|lia]. Qed.
Lemma bas0 : (forall x y, bas G N 0 x y = b0) /\ b0 <> 0.
Proof.
  pose proof (b_gamma _ _ _ _ _ _ _ _ _ _ _ _ HB) as HG. destruct mode0 as (M0 & Lm).
  assert (H0 : forall x y, bas G N 0 x y = b0).
  { destruct (sb_poly G HG 0 0) as (p & Dp & Ep). assert (C0 : forall x y, eval2 p x y = eval2 p 0 0).
    { clear Ep. induction p as [|[[i j] d] p IH]; intros x y; [reflexivity|]. inversion Dp as [|? ? Hd D']; subst. cbn [fst snd] in Hd. assert (i = 0 /\ j = 0)%nat as (-> & ->) by lia. cbn [eval2]. rewrite (IH D' x y). reflexivity. }
    intros x y. unfold bas. rewrite M0. cbn [fst snd]. rewrite !Ep. apply C0. }
  split; [exact H0|]. intro Z. pose proof (bas_orth G HG N 0 0 Lm Lm) as O. cbn [Nat.eqb] in O. 
  assert (1 = 0); [|lra]. eapply tint_unique; [exact O|]. eapply tint_ext; [|apply tint_zero]. intros x y. cbv beta. rewrite (H0 x y), Z. ring.
Qed.
Lemma bas_int c : (c < length (modes N))%nat -> triangle_integral (bas G N c) (if (0 =? c)%nat then / b0 else 0).
Proof.
  intro Hc. destruct bas0 as (H0 & Hn). pose proof (b_gamma _ _ _ _ _ _ _ _ _ _ _ _ HB) as HG. destruct mode0 as (_ & Lm).
  pose proof (tint_scal (/ b0) _ _ (bas_orth G HG N 0 c Lm Hc)) as H.
  replace (if (0 =? c)%nat then / b0 else 0) with (/ b0 * (if (0 =? c)%nat then 1 else 0)) by (destruct (0 =? c)%nat; ring).
  eapply tint_ext; [|exact H]. intros x y. cbv beta. rewrite (H0 x y). field. exact Hn.
Qed.

(* the integral of a polynomial from its nodal values *)
Definition wt (i : nat) : R := / b0 * ment Vi 0 i.
Lemma nodal_int p : degree2 N p -> triangle_integral (eval2 p) (sumn Np (fun i => wt i * eval2 p (nth i r 0) (nth i s 0))).
Proof.
  intro Dp. destruct (element_ok _ _ _ _ _ _ _ _ _ _ _ _ HB) as [lr ls nodes masks edge_i pts SV SVi V HVi HVi' SL lift D x metric nrm].
  pose proof (b_gamma _ _ _ _ _ _ _ _ _ _ _ _ HB) as HG. destruct mode0 as (_ & Lm).
  destruct (modal_ex G HG N p Dp) as (c & Hc).
  assert (C0 : c 0%nat = sumn Np (fun i => ment Vi 0 i * eval2 p (nth i r 0) (nth i s 0))).
  { rewrite lr in *. rewrite (sumn_ext _ _ (fun i => sumn (length (modes N)) (fun m => (ment Vi 0 i * ment (e_V el) i m) * c m))).
    2:{ intros i Hi. rewrite (Hc _ _), <- sumn_scal. apply sumn_ext. intros m Hm. rewrite V by auto. ring. }
    rewrite sumn_swap. rewrite (sumn_ext _ _ (fun m => delta 0 m * c m)); [symmetry; apply (sumn_delta _ 0 c); exact Lm|].
    intros m Hm. rewrite <- HVi by auto. rewrite Rmult_comm, <- sumn_scal. apply sumn_ext. intros. ring. }
  eapply tint_ext; [intros x0 y0; symmetry; apply (Hc x0 y0)|].
  replace (sumn Np (fun i => wt i * eval2 p (nth i r 0) (nth i s 0))) with (sumn (length (modes N)) (fun k => c k * (if (0 =? k)%nat then / b0 else 0))).
  - apply tint_sum. intros k Hk. apply tint_scal, bas_int, Hk.
  - rewrite (sumn_ext _ _ (fun k => delta 0 k * (c k * / b0))) by (intros k Hk; unfold delta; destruct (0 =? k)%nat; ring).
    rewrite (sumn_delta _ 0 (fun k => c k * / b0) Lm), C0, Rmult_comm, <- sumn_scal. apply sumn_ext. intros i Hi. unfold wt. ring.
Qed.

Definition vol_of (h : mat R) : R := sumn K (fun k => area (P k 0) (P k 1) (P k 2) / 2 * sumn Np (fun i => wt i * ment h i k)).
Lemma vol_iff h v : vol h v <-> v = vol_of h.
Proof.
  split.
  - intros (Z & w & H & ->). apply sumn_ext. intros k Hk. destruct (H k Hk) as ((Dz & Iz) & i & Hi & ->). f_equal.
    destruct (to_reference N Vert EToV k (Z k) Dz) as (q & Dq & Hq & _).
    eapply tint_unique; [exact Hi|]. eapply tint_ext; [|replace (sumn Np (fun i0 => wt i0 * ment h i0 k)) with (sumn Np (fun i0 => wt i0 * eval2 q (nth i0 r 0) (nth i0 s 0))); [apply nodal_int, Dq|]].
    + intros x y. rewrite Hq. reflexivity.
    + apply sumn_ext. intros i0 Hi0. rewrite Hq, <- (phys _ _ _ _ _ _ _ _ _ _ _ _ HB i0 k Hi0 Hk), Iz by exact Hi0. reflexivity.
  - intros ->.
    assert (C : forall k, (k < K)%nat -> exists p, degree2 N p /\ (forall i, (i < Np)%nat -> at_point p (node_at (e_x el) (e_y el) i k) = ment h i k) /\
      element_integral (P k 0) (P k 1) (P k 2) (eval2 p) (area (P k 0) (P k 1) (P k 2) / 2 * sumn Np (fun i => wt i * ment h i k))).
    { intros k Hk. destruct (nodal_poly _ _ _ _ _ _ _ _ _ _ _ _ HB (fun i => ment h i k)) as (w & Dw & Hw). destruct (to_physical N Vert EToV k (HA k Hk) w Dw) as (q & Dq & Hq).
      exists q. split; [exact Dq|]. split.
      - intros i Hi. rewrite (phys _ _ _ _ _ _ _ _ _ _ _ _ HB i k Hi Hk), Hq. apply Hw, Hi.
      - eexists. split; [|reflexivity]. eapply tint_ext; [|replace (sumn Np (fun i => wt i * ment h i k)) with (sumn Np (fun i => wt i * eval2 w (nth i r 0) (nth i s 0))); [apply nodal_int, Dw|]].
        + intros x y. unfold pulled. symmetry. apply (Hq x y).
        + apply sumn_ext. intros i Hi. rewrite Hw by exact Hi. reflexivity. }
    destruct (finite_choice [] K _ C) as (Z & HZ). exists Z, (fun k => area (P k 0) (P k 1) (P k 2) / 2 * sumn Np (fun i => wt i * ment h i k)). split; [|reflexivity].
    intros k Hk. destruct (HZ k Hk) as (D & I & J). split; [split; assumption|exact J].
Qed.
Lemma vol_ext h h' : (forall i k, (i < Np)%nat -> (k < K)%nat -> ment h i k = ment h' i k) -> vol_of h = vol_of h'.
Proof. intro H. apply sumn_ext. intros k Hk. f_equal. apply sumn_ext. intros i Hi. rewrite H by assumption. reflexivity. Qed.
Lemma vol_advance c h z : vol_of (advance (exact G) c h z) = vol_of h + c * vol_of z.
Proof.
  unfold vol_of. rewrite <- sumn_scal, <- sumn_plus. apply sumn_ext. intros k Hk.
  rewrite (sumn_ext Np _ (fun i => wt i * ment h i k + c * (wt i * ment z i k))) by (intros i Hi; cbn; ring).
  rewrite sumn_plus, sumn_scal. ring.
Qed.

(* a filter applied as a matrix product keeps the volume *)
Lemma filter_weight epsf Nc sp F : 0 < Nc -> buildFilter (exact G) pow exp ln epsf N (e_V el) Vi Nc sp = Ok F ->
  forall j, (j < Np)%nat -> sumn Np (fun i => wt i * ment F i j) = wt j.
Proof.
  intros Hn EF j Hj. destruct (element_ok _ _ _ _ _ _ _ _ _ _ _ _ HB) as [lr ls nodes masks edge_i pts SV SVi V HVi HVi' SL lift D x metric nrm].
  destruct (filter_ok G N r s lr (e_V el) SV V Vi SVi HVi exp ln epsf Nc sp) as (F' & EF' & _ & HF). assert (F' = F) by congruence. subst F'. cbv beta in HF.
  rewrite lr in *. set (n := length (modes N)) in *. destruct mode0 as (M0 & Lm).
  assert (HM : forall c, (c < n)%nat -> sumn n (fun m => sumn n (fun i => ment Vi 0 i * ment F i m) * ment (e_V el) m c) = delta 0 c).
  { intros c Hc. rewrite (sumn_ext n _ (fun m => sumn n (fun i => ment Vi 0 i * (ment F i m * ment (e_V el) m c)))) by (intros m Hm; rewrite Rmult_comm, <- sumn_scal; apply sumn_ext; intros; ring).
    rewrite (sumn_swap n n). rewrite (sumn_ext n _ (fun i => filter_diag (exact G) pow exp ln epsf N Nc sp (fst (mode N c)) (snd (mode N c)) * (ment Vi 0 i * ment (e_V el) i c))).
    2:{ intros i Hi. rewrite sumn_scal, (sumn_ext n _ (fun m => ment F i m * bas G N c (nth m r 0) (nth m s 0))) by (intros m Hm; rewrite (V m c) by assumption; reflexivity).
        rewrite HF, <- (V i c) by assumption. ring. }
    rewrite sumn_scal, (HVi 0%nat c Lm Hc). unfold delta. destruct (Nat.eqb_spec 0 c) as [<- |]; [|ring]. rewrite M0. cbn [fst snd]. rewrite low_E by (cbn; lra). ring. }
  unfold wt. rewrite (sumn_ext n _ (fun i => / b0 * (ment Vi 0 i * ment F i j))) by (intros; ring). rewrite sumn_scal. f_equal.
  rewrite <- (sumn_delta' n j (fun m => sumn n (fun i => ment Vi 0 i * ment F i m)) Hj).
  rewrite (sumn_ext n _ (fun m => sumn n (fun c => sumn n (fun i => ment Vi 0 i * ment F i m) * (ment (e_V el) m c * ment Vi c j)))) by (intros m Hm; rewrite sumn_scal, HVi' by assumption; reflexivity).
  rewrite (sumn_swap n n), (sumn_ext n _ (fun c => delta 0 c * ment Vi c j)); [apply (sumn_delta n 0 (fun c => ment Vi c j) Lm)|].
  intros c Hc. rewrite <- (HM c Hc), Rmult_comm, <- sumn_scal. apply sumn_ext. intros m Hm. ring.
Qed.
Lemma filtered_volume epsf Nc sp F X Y : 0 < Nc -> buildFilter (exact G) pow exp ln epsf N (e_V el) Vi Nc sp = Ok F ->
  filtered Np K F X Y -> vol_of Y = vol_of X.
Proof.
  intros Hn EF HF. apply sumn_ext. intros k Hk. f_equal.
  rewrite (sumn_ext Np _ (fun i => sumn Np (fun m => (wt i * ment F i m) * ment X m k))) by (intros i Hi; rewrite HF, <- sumn_scal by assumption; apply sumn_ext; intros; ring).
  rewrite (sumn_swap Np Np). apply sumn_ext. intros m Hm. rewrite <- (filter_weight epsf Nc sp F Hn EF m Hm), (Rmult_comm (sumn _ _)), <- sumn_scal. apply sumn_ext. intros. ring.
Qed.
End Vol.
