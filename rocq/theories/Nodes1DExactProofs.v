(* Nodes1DExactProofs.v - the one-dimensional grid, differentiation matrix, Jacobian and lift in exact arithmetic. *)
From Coq Require Import ZArith List Lia Bool Arith.
From Verif Require Import Base Loops Num BlitzModel BlitzProofs JacobiModel JacobiSpec JacobiProofs JacobiOrthProofs JacobiQuadProofs JacobiExactProofs DenseSpec Nodes1DModel Nodes1DSpec Nodes1DProofs.
From Coq Require Import Reals Lra.
Import ListNotations.
Local Open Scope R_scope.

Lemma fsum_exact G n f : fsum (exact G) n f = sumn n f.
Proof.
  unfold fsum. change (fofn (exact G) 0) with 0. induction n as [|n IH]; [reflexivity|].
  rewrite seq_S, fold_left_app, IH, sumn_S. reflexivity.
Qed.

Section Exact1D.
Variable G : R -> R.
Hypothesis HG : gamma_like G.
Local Notation E := (exact G).
Local Notation P := (jac G 0 0).
Local Notation P' := (gjac G 0 0).

Lemma vander_ent r c i j : (i < length r)%nat -> ment (vandermonde1D E r c) i j = P j (nth i r 0).
Proof.
  intro Hi. cbn [vandermonde1D mat_cols ment]. change (fofn E 0) with 0. rewrite compute_ok by (auto; lra).
  rewrite nth_indep with (d' := P j 0) by (rewrite map_length; exact Hi). apply map_nth.
Qed.
Lemma gvander_ent r i j : (i < length r)%nat -> ment (gradVandermonde1D E r) i j = P' j (nth i r 0).
Proof.
  intro Hi. cbn [gradVandermonde1D mat_cols ment]. change (fofn E 0) with 0. rewrite grad_ok by (auto; lra).
  rewrite nth_indep with (d' := P' j 0) by (rewrite map_length; exact Hi). apply map_nth.
Qed.

(* --- span --- *)
Lemma poly_span_from cs : forall k, exists l, below (k + length cs - 1) l /\ forall x, lin G 0 0 l x = x ^ k * peval cs x.
Proof.
  induction cs as [|c cs IH]; intro k.
  - exists []. split; [constructor|]. intro. cbn. ring.
  - destruct (IH (S k)) as (l & Bl & El). destruct (pow_span G 0 0 HG ltac:(lra) ltac:(lra) ltac:(lra) k) as (m & Bm & Em).
    exists (map (fun kc => (fst kc, c * snd kc)) m ++ l). split.
    + apply Forall_app. split; [|eapply Forall_impl; [|exact Bl]; cbn [length]; cbv beta; intros; lia].
      apply Forall_map. eapply Forall_impl; [|exact Bm]. cbn [fst length]. intros; lia.
    + intro x. rewrite lin_app, El. cbn [peval]. change (peval (c :: cs) x) with (c + x * peval cs x).
      assert (S : lin G 0 0 (map (fun kc => (fst kc, c * snd kc)) m) x = c * lin G 0 0 m x).
      { clear Bm Em. induction m as [|[a b] m IHm]; cbn [map lin fst snd]; [ring|]. rewrite IHm. ring. }
      rewrite S, Em. cbn [pow]. ring.
Qed.
Lemma poly_span cs n : (length cs <= S n)%nat -> exists l, below n l /\ forall x, lin G 0 0 l x = peval cs x.
Proof.
  intro Hl. destruct (poly_span_from cs 0) as (l & Bl & El). exists l. split.
  - eapply Forall_impl; [|exact Bl]. cbv beta. intros. lia.
  - intro x. rewrite El. cbn. ring.
Qed.
Fixpoint dlin (l : list (nat * R)) (x : R) : R := match l with [] => 0 | kc :: l' => snd kc * P' (fst kc) x + dlin l' x end.
Lemma lin_deriv l x : derivable_pt_lim (lin G 0 0 l) x (dlin l x).
Proof.
  induction l as [|[k c] l IH]; cbn [dlin fst snd].
  - apply dpl_ext with (fun _ => 0); [reflexivity|]. apply derivable_pt_lim_const.
  - apply dpl_ext with (fun t => c * P k t + lin G 0 0 l t); [reflexivity|].
    apply derivable_pt_lim_plus; [|exact IH]. apply (derivable_pt_lim_scal (P k)). apply gjac_deriv; auto; lra.
Qed.

Lemma sumn_lin n d r l : sumn n (fun m => d m * lin G 0 0 l (r m)) = fold_right (fun kc acc => snd kc * sumn n (fun m => d m * P (fst kc) (r m)) + acc) 0 l.
Proof.
  induction l as [|[k c] l IH]; cbn [fold_right lin fst snd].
  - apply sumn_zero. intros. ring.
  - rewrite <- IH, <- sumn_scal, <- sumn_plus. apply sumn_ext. intros. ring.
Qed.

Lemma diff_of_modes n r (D : mat R) :
  (forall i j, (i < n)%nat -> (j < n)%nat -> sumn n (fun m => ment D i m * P j (nth m r 0)) = P' j (nth i r 0)) ->
  differentiates n r D.
Proof.
  intros H cs i v Hl Hi Hv. destruct n as [|n]; [lia|].
  destruct (poly_span cs n Hl) as (l & Bl & El).
  rewrite (sumn_ext (S n) _ (fun m => ment D i m * lin G 0 0 l (nth m r 0))) by (intros; rewrite El; reflexivity).
  assert (Ev : v = dlin l (nth i r 0)).
  { apply (uniqueness_limite (peval cs) (nth i r 0)); [exact Hv|]. apply dpl_ext with (lin G 0 0 l); [exact El|]. apply lin_deriv. }
  subst v. clear Hv El Hl cs.
  etransitivity; [exact (sumn_lin (S n) (ment D i) (fun m => nth m r 0) l)|].
  induction l as [|[k c] l IH]; [reflexivity|]. inversion Bl as [|? ? Hk Bl']; subst. cbn [fst] in Hk.
  cbn [fold_right dlin fst snd]. rewrite IH by assumption. rewrite H by lia. reflexivity.
Qed.

Lemma buildDr_ok solve junk r n : solver_ok solve -> length r = n ->
  buildDr E solve junk r (vandermonde1D E r n) = Throw \/
  exists D, buildDr E solve junk r (vandermonde1D E r n) = Ok D /\ shape D n n /\ differentiates n r D.
Proof.
  intros HS Lr. unfold buildDr. rewrite Lr.
  destruct (HS n n (mtrans (vandermonde1D E r n)) (mtrans (gradVandermonde1D E r)) (mkmat n n junk)) as [-> | (Y & -> & HY & HP & HE)];
    try (split; cbn; congruence); [left; reflexivity|]. right. cbn [bind]. eexists. split; [reflexivity|].
  destruct HY as (Yr & Yc). split; [split; cbn; congruence|].
  apply diff_of_modes. intros i j Hi Hj. specialize (HE j i). cbn [mtrans mrows mcols ment vandermonde1D mat_cols] in HE.
  rewrite Yc in HE. specialize (HE Hj Hi).
  change (ment (gradVandermonde1D E r) i j) with (ment (gradVandermonde1D E r) i j) in HE.
  rewrite gvander_ent in HE by lia. rewrite <- HE. apply sumn_ext. intros m Hm. cbn [mtrans ment].
  change (P j (nth m r 0)) with (P j (nth m r 0)). rewrite <- (vander_ent r n m j) by lia. cbn [vandermonde1D mat_cols ment]. ring.
Qed.

(* --- the grid --- *)
Section Grid.
Variables (N K : nat) (a b : R) (r : list R).
Hypothesis HK : (0 < K)%nat.
Hypothesis Lr : length r = S (S N).
Hypothesis r0 : nth 0 r 0 = -1.
Hypothesis r1 : nth (S N) r 0 = 1.
Hypothesis rinc : forall i, (i < S N)%nat -> nth i r 0 < nth (S i) r 0.
Local Notation x := (grid1D E a b K r).
Let w := (b - a) / INR K.
Lemma grid_ent i k : ment x i k = a + w * (INR k + / 2 * (nth i r 0 + 1)).
Proof. cbn [grid1D ment]. unfold fhalf. rewrite !fofn_INR. cbn [exact fadd fsub fmul fdiv]. change (INR 0) with 0. change (INR 1) with 1. replace (INR 2) with 2 by (simpl; lra). unfold w. field. apply not_0_INR. lia. Qed.
Lemma grid_left k : ment x 0 k = a + w * INR k.
Proof. rewrite grid_ent, r0. lra. Qed.
Lemma grid_right k : ment x (S N) k = a + w * INR (S k).
Proof. rewrite grid_ent, r1, S_INR. lra. Qed.
Lemma w_pos : a < b -> 0 < w.
Proof. intro. unfold w. apply Rdiv_lt_0_compat; [lra|]. apply lt_0_INR. lia. Qed.
Lemma w_tot : w * INR K = b - a.
Proof. unfold w. field. apply not_0_INR. lia. Qed.

Lemma grid_J (D : mat R) i k : shape D (S (S N)) (S (S N)) -> differentiates (S (S N)) r D -> (i < S (S N))%nat -> ment (mmul E D x) i k = w / 2.
Proof.
  intros (Dr & Dc) HD Hi. cbn [mmul ment]. rewrite Dc, fsum_exact.
  rewrite <- (HD [a + w * (INR k + / 2); w / 2] i (w / 2)).
  - apply sumn_ext. intros m Hm. cbn [exact fmul]. rewrite grid_ent. cbn [peval]. lra.
  - cbn; lia.
  - exact Hi.
  - apply dpl_ext with (fun t => (a + w * (INR k + / 2)) + w / 2 * t); [intro; cbn [peval]; lra|].
    assert (HD' : derivable_pt_lim (fun t => (a + w * (INR k + / 2)) + w / 2 * t) (nth i r 0) (0 + w / 2 * 1)).
    { apply (derivable_pt_lim_plus (fun _ => a + w * (INR k + / 2)) (fun t => w / 2 * t)); [apply derivable_pt_lim_const|].
      apply (derivable_pt_lim_scal (fun t => t)). apply derivable_pt_lim_id. }
    replace (0 + w / 2 * 1) with (w / 2) in HD' by lra. exact HD'.
Qed.
End Grid.

Lemma jacobian_ok junk Np K x D : (0 < Np)%nat -> mrows D = Np -> mcols x = K ->
  exists J rx Fs, computeJacobian1D E junk Np K x D = Ok (J, rx, Fs) /\
    shape J Np K /\ shape rx Np K /\ shape Fs 2 K /\
    (forall i k, ment J i k = ment (mmul E D x) i k) /\ (forall i k, ment rx i k = 1 / ment J i k) /\
    (forall f k, (f < 2)%nat -> (k < K)%nat -> ment Fs f k = 1 / ment J (if (f =? 0)%nat then 0 else Np - 1)%nat k).
Proof.
  intros HN HD Hx. unfold computeJacobian1D. set (J := mmul E D x).
  assert (SJ : mrows J = Np /\ mcols J = K) by (split; cbn; congruence). destruct SJ as (Jr & Jc).
  assert (One : fofn E 1 = 1) by (rewrite fofn_INR; reflexivity).
  destruct (for_inv (fun f (F : mat R) => mrows F = 2%nat /\ mcols F = K /\
     forall f' k, (f' < f)%nat -> (k < K)%nat -> ment F f' k = 1 / ment J (if (f' =? 0)%nat then 0 else Np - 1)%nat k) 2
     (fun f Fs => bind (getn (Fmask1D Np) f) (fun m =>
       for_ K (fun k Fs => bind (mget J m k) (fun v => mset Fs f k (fdiv E (fofn E 1) v))) Fs)) (mkmat 2 K junk)) as (F & EF & Rw & C & H).
  - cbn. split; [reflexivity|]. split; [reflexivity|]. intros; lia.
  - intros f F Hf (Rw & C & H). rewrite fmask_ok by auto. cbn [bind].
    destruct (for_inv (fun k (F : mat R) => mrows F = 2%nat /\ mcols F = K /\
       (forall f' k', (f' < f)%nat -> (k' < K)%nat -> ment F f' k' = 1 / ment J (if (f' =? 0)%nat then 0 else Np - 1)%nat k') /\
       (forall k', (k' < k)%nat -> ment F f k' = 1 / ment J (if (f =? 0)%nat then 0 else Np - 1)%nat k')) K
       (fun k Fs => bind (mget J (if (f =? 0)%nat then 0%nat else (Np - 1)%nat) k) (fun v => mset Fs f k (fdiv E (fofn E 1) v))) F) as (F' & EF' & R' & C' & H1 & H2).
    + split; auto. split; auto. split; auto. intros; lia.
    + intros k F1 Hk (R1 & C1 & H1 & H2). unfold mget. rewrite inb_true by (rewrite ?Jr, ?Jc; destruct (f =? 0)%nat; lia).
      cbn [bind]. unfold mset. rewrite inb_true by lia. eexists. split; [reflexivity|]. cbn [mrows mcols ment].
      split; auto. split; auto. split.
      * intros f' k' Hf' Hk'. destruct (Nat.eqb_spec f' f); [lia|]. cbn [andb]. auto.
      * intros k' Hk'. rewrite Nat.eqb_refl. destruct (Nat.eqb_spec k' k) as [->|]; cbn [andb]; [rewrite One; reflexivity|]. apply H2. lia.
    + exists F'. split; [exact EF'|]. split; auto. split; auto. intros f' k Hf' Hk. destruct (Nat.eq_dec f' f) as [->|]; [apply H2; lia|apply H1; lia].
  - exists J, (mkmat (mrows J) (mcols J) (fun i k => fdiv E (fofn E 1) (ment J i k))), F. split.
    + change (Arith R Rplus Rminus Rmult Rdiv Ropp sqrt Rabs IZR Rltb Rleb Reqb Rpower G) with E.
      match type of EF with ?l = _ => match goal with |- bind ?r _ = _ => change r with l end end. rewrite EF. reflexivity.
    + split; [split; auto|]. split; [split; auto|]. split; [split; auto|]. split; [reflexivity|]. split.
      * intros i k. cbn [ment]. rewrite One. reflexivity.
      * intros f k Hf Hk. apply H; lia.
Qed.

(* --- the lift matrix --- *)
Lemma lift_ok Np (V : mat R) : (2 <= Np)%nat -> shape V Np Np ->
  exists L, buildLift1D E Np V = Ok L /\ shape L Np 2 /\
    forall i f, (f < 2)%nat -> ment L i f = sumn Np (fun k => ment V i k * ment V (if (f =? 0)%nat then 0 else Np - 1)%nat k).
Proof.
  intros HN (Vr & Vc). unfold buildLift1D. unfold mset at 1. rewrite inb_true by (cbn; lia). cbn [bind].
  unfold mset at 1. rewrite inb_true by (cbn; lia). cbn [bind]. eexists. split; [reflexivity|]. split; [split; cbn; auto|].
  intros i f Hf. cbn [mmul mtrans ment mrows mcols]. rewrite Vc, Vr, fsum_exact. apply sumn_ext. intros k Hk. rewrite fsum_exact.
  cbn [exact fmul]. f_equal.
  rewrite (sumn_pick Np _ (if (f =? 0)%nat then 0 else Np - 1)%nat).
  - rewrite !fofn_INR. change (INR 0) with 0. change (INR 1) with 1. cbn [mzero ment]. destruct f as [|[|f]]; [| |lia]; cbn [Nat.eqb andb];
      rewrite ?Nat.eqb_refl, ?andb_true_r, ?andb_false_r; cbn [andb]; ring.
  - destruct (f =? 0)%nat; lia.
  - intros m Hm Hne. rewrite !fofn_INR. change (INR 0) with 0. change (INR 1) with 1. cbn [mzero ment]. destruct f as [|[|f]]; [| |lia]; cbn [Nat.eqb andb] in *.
    + rewrite !andb_false_r. destruct (Nat.eqb_spec m 0); [lia|]. cbn [andb]. rewrite ?fofn_INR; change (INR 0) with 0; ring.
    + rewrite !andb_false_r. destruct (Nat.eqb_spec m (Np - 1)); [lia|]. cbn [andb]. rewrite ?fofn_INR; change (INR 0) with 0; ring.
Qed.

(* the function sum_k P_k(x) P_k(e) reproduces the value at e of polynomials of degree below n *)
Lemma kernel n e cs : (length cs <= n)%nat ->
  integral_is (fun x => sumn n (fun k => P k x * P k e) * peval cs x) (-1) 1 (peval cs e).
Proof.
  intro Hl. destruct n as [|n]; [destruct cs; [|cbn in Hl; lia]; apply integral_ext with (fun _ => 0); [intro; cbn; ring|apply integral_zero]|].
  destruct (poly_span cs n Hl) as (l & Bl & El). rewrite <- El.
  apply integral_ext with (fun x => sumn (S n) (fun k => P k x * P k e) * lin G 0 0 l x); [intro; rewrite El; reflexivity|]. clear El Hl cs.
  induction l as [|[j c] l IH]; cbn [lin fst snd].
  - apply integral_ext with (fun _ => 0); [intro; ring|]. apply integral_zero.
  - inversion Bl as [|? ? Hj Bl']; subst. cbn [fst] in Hj.
    apply integral_ext with (fun x => c * (sumn (S n) (fun k => P k x * P k e) * P j x) + sumn (S n) (fun k => P k x * P k e) * lin G 0 0 l x); [intro; ring|].
    apply integral_plus; [|exact (IH Bl')]. apply integral_scal. clear IH Bl Bl' l.
    assert (Hs : forall m, integral_is (fun x => sumn m (fun k => P k x * P k e) * P j x) (-1) 1 (sumn m (fun k => P k e * (if (k =? j)%nat then 1 else 0)))).
    { induction m as [|m IHm].
      - apply integral_ext with (fun _ => 0); [intro; rewrite sumn_0; ring|]. apply integral_zero.
      - rewrite sumn_S. apply integral_ext with (fun x => sumn m (fun k => P k x * P k e) * P j x + P m e * (weight 0 0 x * P m x * P j x)).
        + intro x. rewrite sumn_S. unfold weight. cbn [pow]. ring.
        + apply integral_plus; [exact IHm|]. apply integral_scal. apply (orth G HG m j 0 0). }
    pose proof (Hs (S n)) as H. rewrite (sumn_pick (S n) _ j) in H; [|lia|].
    + rewrite Nat.eqb_refl, Rmult_1_r in H. exact H.
    + intros k Hk Hne. destruct (Nat.eqb_spec k j); [contradiction|]. ring.
Qed.
End Exact1D.
