(* TriFaceProofs.v - the lift matrix of the triangle. *)
From Coq Require Import ZArith List Lia Bool Arith.
From Verif Require Import Base Loops Num BlitzModel JacobiModel JacobiSpec JacobiProofs JacobiOrthProofs JacobiQuadProofs JacobiExactProofs DenseSpec Nodes1DModel Nodes1DSpec Nodes1DExactProofs TriModel TriSpec TriBasisProofs TriProofs TriOpProofs TriLiftProofs.
From Coq Require Import Reals Lra.
Import ListNotations.
Local Open Scope R_scope.

Lemma getn_ok {T} (l : list T) i d : (i < length l)%nat -> getn l i = Ok (nth i l d).
Proof. intro H. unfold getn. rewrite (nth_error_nth' l d H). reflexivity. Qed.
Lemma gather_ok {T} (x : list T) mask d : (forall m, In m mask -> (m < length x)%nat) -> gather x mask = Ok (map (fun m => nth m x d) mask).
Proof.
  intro H. unfold gather. destruct (for_inv (fun i (l : list T) => l = map (fun m => nth m x d) (firstn i mask)) (length mask)
    (fun i l => bind (getn mask i) (fun m => bind (getn x m) (fun v => Ok (l ++ [v])))) []) as (l & El & Hl).
  - reflexivity.
  - intros i l Hi ->. rewrite (getn_ok mask i 0%nat Hi). cbn [bind]. rewrite (getn_ok x _ d) by (apply H, nth_In; exact Hi). cbn [bind]. eexists. split; [reflexivity|].
    replace (firstn (S i) mask) with (firstn i mask ++ [nth i mask 0%nat]); [rewrite map_app; reflexivity|]. clear - Hi. revert i Hi. induction mask as [|a mask IH]; intros i Hi; [cbn in Hi; lia|].
    destruct i; [reflexivity|]. cbn [firstn nth app]. f_equal. apply IH. cbn in Hi; lia.
  - rewrite El, Hl, firstn_all. reflexivity.
Qed.
Lemma sumn_mask (mask : list nat) : forall n h, NoDup mask -> (forall m, In m mask -> (m < n)%nat) -> (forall m, (m < n)%nat -> ~ In m mask -> h m = 0) ->
  sumn n h = sumn (length mask) (fun i => h (nth i mask 0%nat)).
Proof.
  assert (G : forall n h, NoDup mask -> (forall m, In m mask -> (m < n)%nat) -> (forall m, (m < n)%nat -> ~ In m mask -> h m = 0) -> sumn n h = fold_right (fun m acc => h m + acc) 0 mask).
  { induction mask as [|a mask IH]; intros n h ND Hr Hz.
    - apply sumn_zero. intros; apply Hz; auto.
    - inversion ND as [|? ? Ha ND']; subst. cbn [fold_right]. pose proof (Hr a (or_introl eq_refl)) as Han.
      rewrite (sumn_ext n h (fun m => (if (m =? a)%nat then 0 else h m) + (if (m =? a)%nat then h m else 0))) by (intros m _; destruct (m =? a)%nat; ring).
      rewrite sumn_plus, (sumn_if n a h Han). rewrite (IH n (fun m => if (m =? a)%nat then 0 else h m)).
      + assert (forall l, ~ In a l -> fold_right (fun m acc => (if (m =? a)%nat then 0 else h m) + acc) 0 l = fold_right (fun m acc => h m + acc) 0 l) as F.
        { induction l as [|b l IHl]; intro Hn; [reflexivity|]. cbn [fold_right]. rewrite IHl by (intro; apply Hn; now right). destruct (Nat.eqb_spec b a); [subst; exfalso; apply Hn; now left|reflexivity]. }
        rewrite F by exact Ha. ring.
      + exact ND'.
      + intros; apply Hr; now right.
      + intros m Hm Hn. destruct (Nat.eqb_spec m a); [reflexivity|]. apply Hz; [exact Hm|]. intros [|]; [congruence|contradiction]. }
  intros n h H1 H2 H3. rewrite (G n h H1 H2 H3). unfold sumn. clear. induction mask as [|a mask IH]; [reflexivity|].
  cbn [fold_right length seq map nth]. f_equal. rewrite IH. rewrite <- seq_shift, map_map. reflexivity.
Qed.

Lemma putEdge_ok Nfp f mask (M E0 : mat R) : length mask = Nfp -> NoDup mask -> (forall m, In m mask -> (m < mrows E0)%nat) -> shape M Nfp Nfp -> (f * Nfp + Nfp <= mcols E0)%nat ->
  exists E1, putEdge Nfp f mask M E0 = Ok E1 /\ shape E1 (mrows E0) (mcols E0) /\
    (forall i j, (i < Nfp)%nat -> (j < Nfp)%nat -> ment E1 (nth i mask 0%nat) (f * Nfp + j) = ment M i j) /\
    (forall m c, (c < f * Nfp \/ f * Nfp + Nfp <= c)%nat \/ ~ In m mask -> ment E1 m c = ment E0 m c).
Proof.
  intros Lm ND Hr (M1 & M2) HC. unfold putEdge.
  destruct (for_inv (fun i (W : mat R) => shape W (mrows E0) (mcols E0) /\
     (forall i' j, (i' < i)%nat -> (j < Nfp)%nat -> ment W (nth i' mask 0%nat) (f * Nfp + j) = ment M i' j) /\
     (forall m c, (c < f * Nfp \/ f * Nfp + Nfp <= c)%nat \/ ~ In m mask -> ment W m c = ment E0 m c)) Nfp
     (fun i => for_ Nfp (fun j E => bind (getn mask i) (fun m => bind (mget M i j) (fun v => mset E m (f * Nfp + j) v)))) E0) as (W & EW & SW & H1 & H2).
  - split; [split; reflexivity|]. split; [intros; lia|reflexivity].
  - intros i W Hi (SW & H1 & H2).
    destruct (for_inv (fun j (W : mat R) => shape W (mrows E0) (mcols E0) /\
       (forall i' j', (i' < i)%nat -> (j' < Nfp)%nat -> ment W (nth i' mask 0%nat) (f * Nfp + j') = ment M i' j') /\
       (forall j', (j' < j)%nat -> ment W (nth i mask 0%nat) (f * Nfp + j') = ment M i j') /\
       (forall m c, (c < f * Nfp \/ f * Nfp + Nfp <= c)%nat \/ ~ In m mask -> ment W m c = ment E0 m c)) Nfp
       (fun j E => bind (getn mask i) (fun m => bind (mget M i j) (fun v => mset E m (f * Nfp + j) v))) W) as (W' & EW' & SW' & H1' & H2' & H3').
    + split; [exact SW|]. split; [exact H1|]. split; [intros; lia|exact H2].
    + intros j X Hj ((X1 & X2) & K1 & K2 & K3). rewrite (getn_ok mask i 0%nat) by lia. cbn [bind]. rewrite mget_ok by lia. cbn [bind].
      pose proof (Hr _ (nth_In mask 0%nat (ltac:(lia) : (i < length mask)%nat))) as Hm. unfold mset. rewrite inb_true by (rewrite ?X1, ?X2; lia). eexists. split; [reflexivity|]. cbn [mrows mcols ment].
      split; [split; assumption|]. split; [|split].
      * intros i' j' Hi' Hj'. destruct (Nat.eqb_spec (nth i' mask 0%nat) (nth i mask 0%nat)) as [Eq|]; cbn [andb]; [|apply K1; assumption].
        exfalso. apply (proj1 (NoDup_nth mask 0%nat) ND i' i) in Eq; lia.
      * intros j' Hj'. rewrite Nat.eqb_refl. cbn [andb]. destruct (Nat.eqb_spec (f * Nfp + j') (f * Nfp + j)) as [Eq|]; [replace j' with j by lia; reflexivity|]. apply K2. lia.
      * intros m c Hc. destruct (Nat.eqb_spec m (nth i mask 0%nat)) as [->|]; cbn [andb]; [|apply K3; exact Hc].
        destruct (Nat.eqb_spec c (f * Nfp + j)) as [->|]; [|apply K3; exact Hc]. exfalso. destruct Hc as [Hc|Hc]; [lia|]. apply Hc, nth_In. lia.
    + exists W'. split; [exact EW'|]. split; [exact SW'|]. split; [|exact H3']. intros i' j Hi' Hj. destruct (Nat.eq_dec i' i) as [->|]; [apply H2'; exact Hj|apply H1'; [lia|exact Hj]].
  - exists W. split; [exact EW|]. split; [exact SW|]. split; [exact H1|exact H2].
Qed.

Section Lift2.
Variable G : R -> R.
Hypothesis HG : gamma_like G.
Local Notation E := (exact G).
Local Notation P := (jac G 0 0).
Local Notation bas := (bas G).
Local Notation modal := (modal G).
Variable inverse : mat R -> mat R -> outcome (mat R).
Variable junk : nat -> nat -> R.
Hypothesis HI : inverter_ok inverse.

Lemma edgeMass_ok N t : length t = S N -> edgeMass E inverse junk (S N) t = Throw \/
  exists M, edgeMass E inverse junk (S N) t = Ok M /\ shape M (S N) (S N) /\
    (forall a b, (a < S N)%nat -> (b < S N)%nat -> nth a t 0 = nth b t 0 -> a = b) /\
    forall k l, (k < S N)%nat -> (l < S N)%nat -> sumn (S N) (fun i => P k (nth i t 0) * sumn (S N) (fun j => ment M i j * P l (nth j t 0))) = delta k l.
Proof.
  intro Lt. unfold edgeMass.
  destruct (HI (S N) (vandermonde1D E t (S N)) (mkmat (S N) (S N) junk)) as [-> | (Y & -> & SY & HY)]; try (split; cbn [vandermonde1D mat_cols mrows mcols]; congruence); [left; reflexivity|]. cbn [bind].
  destruct (HI (S N) (mmul E (vandermonde1D E t (S N)) (mtrans (vandermonde1D E t (S N)))) (mkmat (S N) (S N) junk)) as [-> | (M & -> & SM & HM)];
    try (split; cbn [vandermonde1D mat_cols mmul mtrans mrows mcols]; congruence); [left; reflexivity|]. right. exists M. split; [reflexivity|]. split; [exact SM|].
  set (V := vandermonde1D E t (S N)) in *. assert (HV : forall i j, (i < S N)%nat -> ment V i j = P j (nth i t 0)) by (intros; apply (vander_ent G HG); lia). split.
  - intros a b Ha Hb Hab. destruct (Nat.eq_dec a b) as [|Hn]; [assumption|exfalso]. destruct (HY a b Ha Hb) as (H1 & _). destruct (HY b b Hb Hb) as (H2 & _). rewrite Nat.eqb_refl in H2.
    destruct (Nat.eqb_spec a b); [contradiction|]. rewrite (sumn_ext _ _ (fun k => ment V b k * ment Y k b)) in H1 by (intros k Hk; rewrite !HV, Hab by assumption; reflexivity). lra.
  - intros k l Hk Hl.
    assert (A1 : forall i j, (i < S N)%nat -> (j < S N)%nat -> sumn (S N) (fun k => ment Y i k * ment V k j) = delta i j) by (intros i j Hi Hj; apply HY; assumption).
    assert (A2 : forall i j, (i < S N)%nat -> (j < S N)%nat -> sumn (S N) (fun k => sumn (S N) (fun l => ment V i l * ment V k l) * ment M k j) = delta i j).
    { intros i j Hi Hj. destruct (HM i j Hi Hj) as (H1 & _). unfold delta. rewrite <- H1. apply sumn_ext. intros q Hq. cbn [mmul mtrans ment mcols mrows]. rewrite fsum_exact. reflexivity. }
    rewrite <- (edge_mass (S N) V Y M A1 A2 k l Hk Hl).
    apply sumn_ext. intros i Hi. rewrite HV by assumption. f_equal. apply sumn_ext. intros j Hj. rewrite HV by assumption. reflexivity.
Qed.

Section Nodes.
Variables (N : nat) (r s : list R).
Local Notation n := (length (modes N)).
Hypothesis Lr : length r = n.
Hypothesis Hp : pts_ok r s.
Variables m1 m2 m3 : list nat.
Hypothesis H1 : edge_mask N r s 0 m1.
Hypothesis H2 : edge_mask N r s 1 m2.
Hypothesis H3 : edge_mask N r s 2 m3.

Definition mask (f : nat) : list nat := match f with O => m1 | 1%nat => m2 | _ => m3 end.
Definition tf (f : nat) (m : nat) : R := edge_coord f (nth m r 0) (nth m s 0).
Lemma mask_ok f : (f < 3)%nat -> edge_mask N r s f (mask f).
Proof. intro Hf. destruct f as [|[|[|f]]]; [exact H1|exact H2|exact H3|lia]. Qed.

(* from a matrix with the edge mass matrices in its columns to the lifted polynomial *)
Lemma lifted V E3 f M cs :
  (f < 3)%nat -> (length cs <= S N)%nat -> NoDup (mask f) ->
  (forall i c, (i < n)%nat -> (c < n)%nat -> ment V i c = bas N c (nth i r 0) (nth i s 0)) -> shape V n n -> shape E3 n (3 * S N) ->
  (forall i j, (i < S N)%nat -> (j < S N)%nat -> ment E3 (nth i (mask f) 0%nat) (f * S N + j) = ment M i j) ->
  (forall m j, (m < n)%nat -> (j < S N)%nat -> ~ In m (mask f) -> ment E3 m (f * S N + j) = 0) ->
  (forall k l, (k < S N)%nat -> (l < S N)%nat -> sumn (S N) (fun i => P k (tf f (nth i (mask f) 0%nat)) * sumn (S N) (fun j => ment M i j * P l (tf f (nth j (mask f) 0%nat)))) = delta k l) ->
  exists z, degree2 N z /\
    (forall i, (i < n)%nat -> sumn (S N) (fun j => ment (mmul E (mmul E V (mtrans V)) E3) i (f * S N + j) * peval cs (tf f (nth j (mask f) 0%nat))) = eval2 z (nth i r 0) (nth i s 0)) /\
    forall w, degree2 N w -> exists v, triangle_integral (fun x y => eval2 z x y * eval2 w x y) v /\
      integral_is (fun t => eval2 w (fst (edge f t)) (snd (edge f t)) * peval cs t) (-1) 1 v.
Proof.
  intros Hf Hcs ND HV (V1 & V2) (E1 & E2) HE HE0 HM. destruct (mask_ok f Hf) as (Lm & Hm).
  set (y := fun i => sumn (S N) (fun j => ment M i j * peval cs (tf f (nth j (mask f) 0%nat)))).
  set (x := fun i => nth i (mask f) 0%nat) in *.
  assert (Hx : forall i, (i < S N)%nat -> (x i < n)%nat) by (intros i Hi; rewrite <- Lr; apply Hm, nth_In; lia).
  destruct (comb_poly G HG N (fun c => sumn (S N) (fun i => y i * bas N c (nth (x i) r 0) (nth (x i) s 0)))) as (z & Dz & Hz). exists z. split; [exact Dz|]. split.
  - intros i Hi. rewrite Hz. cbn [mmul mtrans ment mrows mcols]. rewrite V1, V2.
    transitivity (sumn (S N) (fun j => sumn (S N) (fun i' => sumn n (fun c => ment V i c * ment V (x i') c) * ment M i' j) * peval cs (tf f (x j)))).
    { apply sumn_ext. intros j Hj. f_equal. rewrite fsum_exact. rewrite (sumn_ext n _ (fun m => sumn n (fun c => ment V i c * ment V m c) * ment E3 m (f * S N + j))) by (intros m Hm'; rewrite fsum_exact; reflexivity).
      rewrite (sumn_mask (mask f) n); [rewrite Lm; apply sumn_ext; intros i' Hi'; rewrite HE by assumption; reflexivity|exact ND|intros m Hin; rewrite <- Lr; apply Hm; exact Hin|].
      intros m Hm' Hn. rewrite HE0 by assumption. ring. }
    rewrite sumn_assoc. fold y. transitivity (sumn (S N) (fun i' => sumn n (fun c => ment V i c * ment V (x i') c) * y i')); [reflexivity|]. rewrite sumn_assoc.
    apply sumn_ext. intros c Hc. rewrite (HV i c Hi Hc), Rmult_comm. f_equal. apply sumn_ext. intros i' Hi'. rewrite (HV _ c (Hx i' Hi') Hc). ring.
  - intros w Dw. destruct (modal_ex G HG N w Dw) as (b & Hb). exists (sumn (S N) (fun i => eval2 w (nth (x i) r 0) (nth (x i) s 0) * y i)). split.
    + eapply tint_val; [|apply (parseval G HG N (eval2 z) (eval2 w) _ b Hz Hb)]. cbv beta.
      rewrite (sumn_assoc n (S N) y (fun i c => bas N c (nth (x i) r 0) (nth (x i) s 0)) b). apply sumn_ext. intros i Hi.
      rewrite Hb, Rmult_comm. f_equal. apply sumn_ext; intros; ring.
    + assert (Sw : spoly N (fun t => eval2 w (fst (edge f t)) (snd (edge f t)))).
      { destruct f as [|[|[|f]]]; [| | |lia]; cbn [edge fst snd].
        - eapply spoly_ext; [|apply (spoly_restrict N w 0 1 (-1) 0 Dw)]. intro t. cbv beta. f_equal; ring.
        - eapply spoly_ext; [|apply (spoly_restrict N w 0 1 0 (-1) Dw)]. intro t. cbv beta. f_equal; ring.
        - eapply spoly_ext; [|apply (spoly_restrict N w (-1) 0 0 1 Dw)]. intro t. cbv beta. f_equal; ring. }
      assert (Sg : spoly N (peval cs)) by (exists cs; split; [exact Hcs|reflexivity]).
      assert (Lt : length (map (tf f) (mask f)) = S N) by (rewrite map_length; exact Lm).
      assert (Nt : forall i, (i < S N)%nat -> nth i (map (tf f) (mask f)) 0 = tf f (x i)).
      { intros i Hi. rewrite nth_indep with (d' := tf f 0%nat) by lia. apply map_nth. }
      pose proof (edge_integral G HG N (map (tf f) (mask f)) M (fun t => eval2 w (fst (edge f t)) (snd (edge f t))) (peval cs) Lt) as H. cbv beta in H.
      match type of H with ?A -> _ => assert (HA : A) end.
      { intros k l Hk Hl. rewrite <- (HM k l Hk Hl). apply sumn_ext. intros i Hi. rewrite Nt by exact Hi. f_equal. apply sumn_ext. intros j Hj. rewrite Nt by exact Hj. reflexivity. }
      specialize (H HA Sw Sg). match type of H with integral_is _ _ _ ?v => match goal with |- integral_is _ _ _ ?w => replace w with v; [exact H|] end end.
      apply sumn_ext. intros i Hi. rewrite Nt by exact Hi. f_equal.
      * destruct (Hm (x i)) as (_ & Ee); [apply nth_In; lia|]. unfold tf at 1 2. rewrite <- Ee. reflexivity.
      * unfold y. apply sumn_ext. intros j Hj. rewrite Nt by exact Hj. reflexivity.
Qed.

Lemma faceX_ok f : (f < 3)%nat -> gather (match f with 2%nat => s | _ => r end) (mask f) = Ok (map (tf f) (mask f)).
Proof.
  intro Hf. destruct (mask_ok f Hf) as (Lm & Hm). destruct Hp as (L & _).
  rewrite (gather_ok _ (mask f) 0) by (intros m Hin; destruct (Hm m Hin); destruct f as [|[|[|f]]]; lia).
  f_equal. apply map_ext. intro m. unfold tf, edge_coord. destruct f as [|[|[|f]]]; reflexivity.
Qed.
Lemma lift2D_ok : buildLift2D E pow inverse junk N r s [m1; m2; m3] = Throw \/
  exists V Vi L, buildLift2D E pow inverse junk N r s [m1; m2; m3] = Ok (V, Vi, L) /\ shape V n n /\ shape Vi n n /\ shape L n (3 * S N) /\
    (forall i c, (i < n)%nat -> (c < n)%nat -> ment V i c = bas N c (nth i r 0) (nth i s 0)) /\
    (forall i j, (i < n)%nat -> (j < n)%nat -> sumn n (fun k => ment Vi i k * ment V k j) = delta i j) /\
    (forall i j, (i < n)%nat -> (j < n)%nat -> sumn n (fun k => ment V i k * ment Vi k j) = delta i j) /\
    forall f cs, (f < 3)%nat -> (length cs <= S N)%nat ->
    exists z, degree2 N z /\
    (forall i, (i < n)%nat -> sumn (S N) (fun j => ment L i (f * S N + j) * peval cs (tf f (nth j (mask f) 0%nat))) = eval2 z (nth i r 0) (nth i s 0)) /\
    forall w, degree2 N w -> exists v, triangle_integral (fun x y => eval2 z x y * eval2 w x y) v /\
      integral_is (fun t => eval2 w (fst (edge f t)) (snd (edge f t)) * peval cs t) (-1) 1 v.
Proof.
  unfold buildLift2D. rewrite Lr. cbn [getn nth_error bind].
  pose proof (faceX_ok 0 ltac:(lia)) as F1. pose proof (faceX_ok 1 ltac:(lia)) as F2. pose proof (faceX_ok 2 ltac:(lia)) as F3. cbn [mask] in F1, F2, F3.
  destruct H1 as (L1 & I1). destruct H2 as (L2 & I2). destruct H3 as (L3 & I3).
  assert (ND : forall f, (f < 3)%nat -> (forall a b, (a < S N)%nat -> (b < S N)%nat -> nth a (map (tf f) (mask f)) 0 = nth b (map (tf f) (mask f)) 0 -> a = b) -> NoDup (mask f)).
  { intros f Hf Hab. destruct (mask_ok f Hf) as (Lm & _). apply (NoDup_nth (mask f) 0%nat). intros a b Ha Hb Eab. apply Hab; [lia|lia|].
    rewrite (nth_indep _ 0 (tf f 0%nat)) by (rewrite map_length; lia). rewrite map_nth, Eab. symmetry. rewrite (nth_indep _ 0 (tf f 0%nat)) by (rewrite map_length; lia). apply map_nth. }
  assert (NT : forall f, (f < 3)%nat -> forall (M : mat R) k l, sumn (S N) (fun i => P k (nth i (map (tf f) (mask f)) 0) * sumn (S N) (fun j => ment M i j * P l (nth j (map (tf f) (mask f)) 0))) =
     sumn (S N) (fun i => P k (tf f (nth i (mask f) 0%nat)) * sumn (S N) (fun j => ment M i j * P l (tf f (nth j (mask f) 0%nat))))).
  { intros f Hf M k l. destruct (mask_ok f Hf) as (Lm & _). apply sumn_ext. intros i Hi. rewrite nth_indep with (d' := tf f 0%nat) by (rewrite map_length; lia). rewrite map_nth. f_equal.
    apply sumn_ext. intros j Hj. rewrite nth_indep with (d' := tf f 0%nat) by (rewrite map_length; lia). rewrite map_nth. reflexivity. }
  rewrite F1. cbn [bind].
  destruct (edgeMass_ok N (map (tf 0) m1)) as [-> | (M1 & -> & SM1 & D1 & HM1)]; [rewrite map_length; exact L1|left; reflexivity|]. cbn [bind].
  pose proof (ND 0%nat ltac:(lia) D1) as ND1. cbn [mask] in ND1.
  destruct (putEdge_ok (S N) 0 m1 M1 (mzero E n (3 * S N)) L1 ND1 ltac:(intros m Hin; cbn [mzero mrows]; rewrite <- Lr; apply I1; exact Hin) SM1 ltac:(cbn [mzero mcols]; lia)) as (E1 & -> & (E1r & E1c) & P1 & Z1). cbn [bind].
  rewrite F2. cbn [bind].
  destruct (edgeMass_ok N (map (tf 1) m2)) as [-> | (M2 & -> & SM2 & D2 & HM2)]; [rewrite map_length; exact L2|left; reflexivity|]. cbn [bind].
  pose proof (ND 1%nat ltac:(lia) D2) as ND2. cbn [mask] in ND2. cbn [mzero mrows mcols] in E1r, E1c.
  destruct (putEdge_ok (S N) 1 m2 M2 E1 L2 ND2 ltac:(intros m Hin; rewrite E1r, <- Lr; apply I2; exact Hin) SM2 ltac:(lia)) as (E2 & -> & (E2r & E2c) & P2 & Z2). cbn [bind].
  rewrite F3. cbn [bind].
  destruct (edgeMass_ok N (map (tf 2) m3)) as [-> | (M3 & -> & SM3 & D3 & HM3)]; [rewrite map_length; exact L3|left; reflexivity|]. cbn [bind].
  pose proof (ND 2%nat ltac:(lia) D3) as ND3. cbn [mask] in ND3. rewrite E1r in E2r. rewrite E1c in E2c.
  destruct (putEdge_ok (S N) 2 m3 M3 E2 L3 ND3 ltac:(intros m Hin; rewrite E2r, <- Lr; apply I3; exact Hin) SM3 ltac:(lia)) as (E3 & -> & (E3r & E3c) & P3 & Z3). cbn [bind].
  rewrite E2r in E3r. rewrite E2c in E3c.
  destruct (vander2D_ok G HG N r s (mzero E n n) Hp) as (V & -> & SV & HV & _); [cbn [mzero mrows]; auto|cbn [mzero mcols]; lia|]. cbn [bind]. cbn [mzero mrows mcols] in SV. rewrite Lr in HV.
  destruct (HI n V (mkmat n n junk) SV) as [-> | (Vi & -> & SVi & HVi)]; [split; reflexivity|left; reflexivity|]. cbn [bind].
  right. exists V, Vi, (mmul E (mmul E V (mtrans V)) E3). split; [reflexivity|]. split; [exact SV|]. split; [exact SVi|]. split; [split; cbn [mmul mrows mcols]; [apply SV|exact E3c]|]. split; [exact HV|].
  split; [intros i j Hi Hj; apply HVi; assumption|]. split; [intros i j Hi Hj; apply HVi; assumption|].
  intros f cs Hf Hcs. destruct f as [|[|[|f]]]; [| | |lia].
  - apply (lifted V E3 0 M1); auto; [split; assumption| | |].
    + intros i j Hi Hj. cbn [mask]. rewrite Z3 by lia. rewrite Z2 by lia. apply P1; assumption.
    + intros m j Hm Hj Hn. cbn [mask] in Hn. rewrite Z3 by lia. rewrite Z2 by lia. rewrite Z1 by (right; exact Hn). reflexivity.
    + intros k l Hk Hl. rewrite <- NT by lia. apply HM1; assumption.
  - apply (lifted V E3 1 M2); auto; [split; assumption| | |].
    + intros i j Hi Hj. cbn [mask]. rewrite Z3 by lia. apply P2; assumption.
    + intros m j Hm Hj Hn. cbn [mask] in Hn. rewrite Z3 by lia. rewrite Z2 by (right; exact Hn). rewrite Z1 by lia. reflexivity.
    + intros k l Hk Hl. rewrite <- NT by lia. apply HM2; assumption.
  - apply (lifted V E3 2 M3); auto; [split; assumption| |].
    + intros m j Hm Hj Hn. cbn [mask] in Hn. rewrite Z3 by (right; exact Hn). rewrite Z2 by lia. rewrite Z1 by lia. reflexivity.
    + intros k l Hk Hl. rewrite <- NT by lia. apply HM3; assumption.
Qed.
End Nodes.
End Lift2.
