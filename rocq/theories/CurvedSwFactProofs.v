(* CurvedSwFactProofs.v - what follows from the weak form: conservation, constant tracers, still water. *)
From Coq Require Import ZArith List Lia Bool Arith.
From Verif Require Import Base Loops Num JacobiSpec JacobiProofs JacobiQuadProofs DenseSpec QuadBasisProofs TriModel TriSpec TriGeoSpec Maps2DModel RKModel Line1DModel
  SwModel SwSpec SwRunProofs GaussFaceModel GaussFaceSpec CubMeshModel CubMeshSpec CurvedSwModel CurvedSwSpec CurvedSwProofs.
From Coq Require Import Reals Lra.
Import ListNotations.
Local Open Scope R_scope.

(* one point *)
Lemma through4_zero g c q : (c < 4)%nat -> through4 g c (0, 0) q = 0.
Proof. intro Hc. unfold through4, through. destruct (c <? 3)%nat; cbn [fst snd]; unfold Rdiv; ring. Qed.
Lemma through4_opp g c n q : through4 g c (- fst n, - snd n) q = - through4 g c n q.
Proof. unfold through4, through. destruct (c <? 3)%nat; cbn [fst snd]; unfold Rdiv; ring. Qed.
Lemma rusanov4_swap g c n lam a b : rusanov4 g c (- fst n, - snd n) lam b a = - rusanov4 g c n lam a b.
Proof. unfold rusanov4. rewrite !through4_opp. field. Qed.
Lemma rusanov4_wall g c n lam a : c = 0%nat \/ c = 3%nat -> fst n * fst n + snd n * snd n = 1 -> rusanov4 g c n lam a (mirror4 n a) = 0.
Proof.
  intros Hc Hn. destruct a as [[[h hu] hv] t]. destruct n as [n1 n2]. cbn [fst snd] in Hn. unfold rusanov4, through4, through, mirror4, mirror, flux_x, flux_y, part4, depth.
  destruct Hc as [-> | ->]; cbn [Nat.ltb Nat.leb part fst snd].
  - transitivity ((hu * n1 + hv * n2) * (1 - (n1 * n1 + n2 * n2))); [field|rewrite Hn; ring].
  - transitivity (t * / h * ((hu * n1 + hv * n2) * (1 - (n1 * n1 + n2 * n2)))); [unfold Rdiv; generalize (/ h); intro ih; field|rewrite Hn; ring].
Qed.
Lemma rusanov4_tracer g n lam t a b : snd a = t * depth a -> snd b = t * depth b -> depth a <> 0 -> depth b <> 0 -> rusanov4 g 3 n lam a b = t * rusanov4 g 0 n lam a b.
Proof.
  destruct a as [[[h hu] hv] x]. destruct b as [[[h' hu'] hv'] x']. unfold depth. cbn [fst snd part]. intros -> -> Ha Hb.
  unfold rusanov4, through4, through, flux_x, flux_y, part4, depth. cbn [Nat.ltb Nat.leb part fst snd]. field. auto.
Qed.
Lemma mirror4_depth n a : depth (mirror4 n a) = depth a. Proof. destruct a as [[[h hu] hv] x]. reflexivity. Qed.

Section Facts.
Variables (Np K NG : nat) (V J : mat R) (cc : cub_mesh R) (gf : gauss_faces R) (curved gmapM gmapP mapW : list nat) (mass : nat -> mat R).
Hypothesis HT : curved_tables Np K NG V J cc gf curved gmapM gmapP mapW mass.
Local Notation n := (3 * NG * K)%nat.
Local Notation P := (partner gmapP).
Variables (g CD f : R) (zx zy : mat R) (q z : four (mat R)).
Hypothesis Hz : weak_scheme Np K NG cc gf gmapP mapW q mass g CD f zx zy z.
Local Notation state := (gauss_state Np NG gf q).
Local Notation far := (far_state Np NG gf gmapP mapW q).

Lemma partner_lt p : (p < n)%nat -> (P p < n)%nat.
Proof. intro Hp. destruct (ct_mapP _ _ _ _ _ _ _ _ _ _ _ _ HT) as (L & H). apply H, nth_In. lia. Qed.
Lemma speed_unique p lam lam' : side_speed Np K NG gf gmapP q g p lam -> side_speed Np K NG gf gmapP q g p lam' -> lam = lam'.
Proof. intros (A & B) (A' & B'). apply Rle_antisym; auto. Qed.
Lemma speed_partner p lam lam' : closed_pairs K NG gf gmapP mapW -> (p < n)%nat -> side_speed Np K NG gf gmapP q g p lam -> side_speed Np K NG gf gmapP q g (P p) lam' -> lam = lam'.
Proof.
  intros HC Hp (A & B) (A' & B'). apply Rle_antisym.
  - apply B'. destruct A as (p' & Hp' & Hd & Hv). exists (P p'). split; [now apply partner_lt|]. split; [now apply (cp_sides _ _ _ _ _ HC)|]. rewrite (cp_back _ _ _ _ _ HC p' Hp'). destruct Hv; auto.
  - apply B. destruct A' as (p' & Hp' & Hd & Hv). exists (P p'). split; [now apply partner_lt|]. split.
    + rewrite <- (cp_back _ _ _ _ _ HC p Hp). apply (cp_sides _ _ _ _ _ HC); auto. now apply partner_lt.
    + rewrite (cp_back _ _ _ _ _ HC p' Hp'). destruct Hv; auto.
Qed.
Lemma far_wall p : In p mapW -> far p = mirror4 (gauss_n NG gf p) (state p).
Proof. intro Hp. unfold far_state. rewrite (proj2 (existsb_exists _ _)); [reflexivity|]. exists p. split; [exact Hp|apply Nat.eqb_refl]. Qed.
Lemma far_open p : ~ In p mapW -> far p = state (P p).
Proof.
  intro Hp. unfold far_state. destruct (existsb (Nat.eqb p) mapW) eqn:Ew; [|reflexivity].
  apply existsb_exists in Ew as (p' & Hin & Epp). apply Nat.eqb_eq in Epp. subst p'. contradiction.
Qed.

(* nothing is lost *)
Lemma gradient_one i k : keeps_constants Np NG cc gf -> (i < cc_n cc)%nat -> cub_gradient Np cc (fun _ => 1) i k = (0, 0).
Proof.
  intros HK Hi. unfold cub_gradient. rewrite (sumn_ext Np (fun a => ment (cc_Dr cc) i a * 1) (ment (cc_Dr cc) i)) by (intros; ring).
  rewrite (sumn_ext Np (fun a => ment (cc_Ds cc) i a * 1) (ment (cc_Ds cc) i)) by (intros; ring).
  pose proof (kc_Dr _ _ _ _ HK i Hi) as A. pose proof (kc_Ds _ _ _ _ HK i Hi) as B. cbv zeta.
  change (sumn Np (ment (cc_Dr cc) i) = 0) in A. change (sumn Np (ment (cc_Ds cc) i) = 0) in B. rewrite A, B. f_equal; ring.
Qed.
Lemma conserved c : keeps_constants Np NG cc gf -> closed_pairs K NG gf gmapP mapW -> c = 0%nat \/ c = 3%nat -> total Np K mass (pick c z) = 0.
Proof.
  intros HK HC Hc. assert (Hc4 : (c < 4)%nat) by lia. destruct (Hz c Hc4) as (F & HF & HW).
  assert (HN := ct_some _ _ _ _ _ _ _ _ _ _ _ _ HT).
  unfold total. rewrite (sumn_ext K _ (fun k => -1 * sumn (3 * NG) (fun j => gauss_at NG (gf_W gf) (j + 3 * NG * k) * F (j + 3 * NG * k)%nat))).
  2:{ intros k Hk. pose proof (HW k (fun _ => 1) Hk) as X. transitivity (sumn Np (fun a => sumn Np (fun b => 1 * ment (mass k) a b * (ment (pick c z) b k - source4 g CD f (ment zx b k) (ment zy b k) c (node_state q b k))))).
      { apply sumn_ext. intros a Ha. apply sumn_ext. intros b Hb. assert (E0 : source4 g CD f (ment zx b k) (ment zy b k) c (node_state q b k) = 0) by (destruct Hc as [-> | ->]; unfold source4, node_state; cbn [fst]; reflexivity). rewrite E0. ring. }
      rewrite X. unfold volume_term. rewrite sumn_zero. 2:{ intros i Hi. rewrite gradient_one by auto. rewrite through4_zero by exact Hc4. ring. }
      unfold side_terms. unfold Rminus. rewrite Rplus_0_l. transitivity (-1 * sumn (3 * NG) (fun j => ment (gf_W gf) j k * gauss_value Np gf (fun _ => 1) j * F (j + 3 * NG * k)%nat)); [ring|]. f_equal. apply sumn_ext. intros j Hj.
      destruct (div_pos NG j k Hj) as (D1 & D2). unfold gauss_at. rewrite D1, D2. unfold gauss_value. rewrite (sumn_ext Np _ (ment (gf_interp gf) j)) by (intros; ring).
      pose proof (kc_I _ _ _ _ HK j Hj) as A. change (sumn Np (ment (gf_interp gf) j) = 1) in A. rewrite A. ring. }
  rewrite sumn_scal. rewrite (sumn_ext K _ (fun k => sumn (3 * NG) (fun j => (fun p => gauss_at NG (gf_W gf) p * F p) (k * (3 * NG) + j)%nat))).
  2:{ intros k Hk. apply sumn_ext. intros j Hj. cbv beta. replace (k * (3 * NG) + j)%nat with (j + 3 * NG * k)%nat by lia. reflexivity. }
  rewrite <- (sumn_prod K (3 * NG) (fun p => gauss_at NG (gf_W gf) p * F p)). replace (K * (3 * NG))%nat with n by lia.
  rewrite (sumn_invol n (fun p => gauss_at NG (gf_W gf) p * F p) P); [ring|]. intros p Hp. split; [now apply partner_lt|]. split; [now apply (cp_back _ _ _ _ _ HC)|].
  destruct (HF p Hp) as (lam & Hl & Ep). destruct (HF (P p) (partner_lt p Hp)) as (lam' & Hl' & Ep').
  destruct (Nat.eq_dec (P p) p) as [Hs|Hs].
  - rewrite Hs. assert (E0 : F p = 0); [|rewrite E0; ring]. pose proof (cp_closed _ _ _ _ _ HC p Hp Hs) as Hw. rewrite Ep, (far_wall p Hw). apply rusanov4_wall; [exact Hc|]. now apply (cp_unit _ _ _ _ _ HC).
  - destruct (cp_normal _ _ _ _ _ HC p Hp Hs) as (En & EW). rewrite EW, Ep, Ep', En. rewrite <- (speed_partner p lam lam' HC Hp Hl Hl').
    assert (Hn1 : ~ In p mapW) by (intro Hi; apply Hs, (ct_wall _ _ _ _ _ _ _ _ _ _ _ _ HT p Hi)).
    assert (Hn2 : ~ In (P p) mapW). { intro Hi. apply Hs. pose proof (proj2 (ct_wall _ _ _ _ _ _ _ _ _ _ _ _ HT _ Hi)) as X. rewrite (cp_back _ _ _ _ _ HC p Hp) in X. congruence. }
    rewrite (far_open p Hn1), (far_open (P p) Hn2), (cp_back _ _ _ _ _ HC p Hp), rusanov4_swap. ring.
Qed.

(* the rates are determined by the weak form *)
Definition symmetric_masses : Prop := forall k, (k < K)%nat -> forall a b, (a < Np)%nat -> (b < Np)%nat -> ment (mass k) a b = ment (mass k) b a.
Lemma determined (u v : mat R) k : symmetric_masses -> (k < K)%nat ->
  (forall phi, sumn Np (fun a => sumn Np (fun b => phi a * ment (mass k) a b * ment u b k)) = sumn Np (fun a => sumn Np (fun b => phi a * ment (mass k) a b * ment v b k))) ->
  forall i, (i < Np)%nat -> ment u i k = ment v i k.
Proof.
  intros Hs Hk H i Hi. cut (ment u i k - ment v i k = 0); [lra|]. revert i Hi.
  apply (mass_injective Np K NG V J cc gf curved gmapM gmapP mapW mass HT k (fun b => ment u b k - ment v b k) Hs Hk). intros a Ha.
  pose proof (H (fun a' => if (a' =? a)%nat then 1 else 0)) as X.
  assert (Y : forall w : mat R, sumn Np (fun a' => sumn Np (fun b => (if (a' =? a)%nat then 1 else 0) * ment (mass k) a' b * ment w b k)) = sumn Np (fun b => ment (mass k) a b * ment w b k)).
  { intro w. rewrite (sumn_ext Np _ (fun a' => if (a' =? a)%nat then sumn Np (fun b => ment (mass k) a' b * ment w b k) else 0)).
    - apply (sumn_if Np a (fun a' => sumn Np (fun b => ment (mass k) a' b * ment w b k))). exact Ha.
    - intros a' _. destruct (a' =? a)%nat; [apply sumn_ext; intros; ring|apply sumn_zero; intros; ring]. }
  rewrite !Y in X. rewrite (sumn_ext Np _ (fun b => ment (mass k) a b * ment u b k + -1 * (ment (mass k) a b * ment v b k))) by (intros; ring). rewrite sumn_plus, sumn_scal, X. ring.
Qed.

(* a tracer of constant concentration stays constant *)
Lemma interpolated_tracer row k t : (k < K)%nat -> (forall i k, (i < Np)%nat -> (k < K)%nat -> ment (q_hN q) i k = t * ment (q_h q) i k) -> snd (interpolated Np q row k) = t * depth (interpolated Np q row k).
Proof. intros Hk H. unfold interpolated, depth. cbn [snd fst part]. rewrite <- sumn_scal. apply sumn_ext. intros a Ha. rewrite H by auto. ring. Qed.
Lemma point_element p : (p < n)%nat -> (p / (3 * NG) < K)%nat.
Proof. intro Hp. assert (HN := ct_some _ _ _ _ _ _ _ _ _ _ _ _ HT). apply Nat.div_lt_upper_bound; nia. Qed.
Lemma constant_tracer t : symmetric_masses -> (forall i k, (i < Np)%nat -> (k < K)%nat -> ment (q_hN q) i k = t * ment (q_h q) i k) ->
  (forall i k, (i < cc_n cc)%nat -> (k < K)%nat -> depth (cub_state Np cc q i k) <> 0) -> (forall p, (p < n)%nat -> depth (state p) <> 0) ->
  forall i k, (i < Np)%nat -> (k < K)%nat -> ment (q_hN z) i k = t * ment (q_h z) i k.
Proof.
  intros Hs Hq Hc Hg i k Hi Hk. destruct (Hz 0%nat ltac:(lia)) as (F0 & HF0 & HW0). destruct (Hz 3%nat ltac:(lia)) as (F3 & HF3 & HW3).
  assert (HF : forall p, (p < n)%nat -> F3 p = t * F0 p).
  { intros p Hp. destruct (HF0 p Hp) as (lam & Hl & ->). destruct (HF3 p Hp) as (lam' & Hl' & ->). rewrite <- (speed_unique p lam lam' Hl Hl').
    assert (Hst : forall p', (p' < n)%nat -> snd (state p') = t * depth (state p')) by (intros p' Hp'; apply interpolated_tracer; [now apply point_element|exact Hq]).
    apply rusanov4_tracer; auto; unfold far_state; destruct (existsb (Nat.eqb p) mapW); try (apply Hst; now apply partner_lt); try (apply Hg; now apply partner_lt).
    - rewrite mirror4_depth. cbn [mirror4 snd]. now apply Hst.
    - rewrite mirror4_depth. now apply Hg. }
  apply (determined (q_hN z) (mkmat Np K (fun i k => t * ment (q_h z) i k)) k Hs Hk); [|exact Hi]. intro phi.
  pose proof (HW0 k phi Hk) as X0. pose proof (HW3 k phi Hk) as X3. cbn [pick] in X0, X3.
  rewrite (sumn_ext Np _ (fun a => sumn Np (fun b => phi a * ment (mass k) a b * (ment (q_hN z) b k - source4 g CD f (ment zx b k) (ment zy b k) 3 (node_state q b k))))) by (intros a Ha; apply sumn_ext; intros b Hb; unfold source4, node_state; cbn [fst]; ring).
  rewrite X3. cbn [ment]. transitivity (t * sumn Np (fun a => sumn Np (fun b => phi a * ment (mass k) a b * (ment (q_h z) b k - source4 g CD f (ment zx b k) (ment zy b k) 0 (node_state q b k))))).
  2:{ rewrite <- sumn_scal. apply sumn_ext. intros a Ha. rewrite <- sumn_scal. apply sumn_ext. intros b Hb. unfold source4, node_state. cbn [fst]. ring. }
  rewrite X0. unfold Rminus. rewrite Rmult_plus_distr_l, Ropp_mult_distr_r_reverse. f_equal.
  - unfold volume_term. rewrite <- sumn_scal. apply sumn_ext. intros i' Hi'. rewrite <- Rmult_assoc, (Rmult_comm t), Rmult_assoc. f_equal.
    pose proof (interpolated_tracer (ment (cc_V cc) i') k t Hk Hq) as Y. fold (cub_state Np cc q i' k) in Y. specialize (Hc i' k Hi' Hk). destruct (cub_state Np cc q i' k) as [[[h hu] hv] x].
    unfold depth in *. cbn [fst snd part] in Y, Hc. subst x. unfold through4, through, flux_x, flux_y, depth. cbn [Nat.ltb Nat.leb part fst snd]. field. exact Hc.
  - f_equal. unfold side_terms. rewrite <- sumn_scal. apply sumn_ext. intros j Hj. rewrite HF by nia. ring.
Qed.

(* still water over a flat bottom *)
Lemma interpolated_rest row k H0 : (k < K)%nat -> sumn Np row = 1 -> (forall i k, (i < Np)%nat -> (k < K)%nat -> ment (q_h q) i k = H0 /\ ment (q_hu q) i k = 0 /\ ment (q_hv q) i k = 0) ->
  fst (interpolated Np q row k) = (H0, 0, 0).
Proof.
  intros Hk H1 H. unfold interpolated. cbn [fst]. f_equal; [f_equal|].
  - rewrite (sumn_ext Np _ (fun a => H0 * row a)) by (intros a Ha; destruct (H a k Ha Hk) as (-> & _); ring). rewrite sumn_scal, H1. ring.
  - apply sumn_zero. intros a Ha. destruct (H a k Ha Hk) as (_ & -> & _). ring.
  - apply sumn_zero. intros a Ha. destruct (H a k Ha Hk) as (_ & _ & ->). ring.
Qed.
Lemma still_flat H0 : symmetric_masses -> keeps_constants Np NG cc gf -> H0 <> 0 ->
  (forall i k, (i < Np)%nat -> (k < K)%nat -> ment (q_h q) i k = H0 /\ ment (q_hu q) i k = 0 /\ ment (q_hv q) i k = 0 /\ ment zx i k = 0 /\ ment zy i k = 0) ->
  (forall i k, (i < Np)%nat -> (k < K)%nat -> ment (q_h z) i k = 0) /\
  forall k phi, (k < K)%nat -> let tested c := sumn Np (fun a => sumn Np (fun b => phi a * ment (mass k) a b * ment (pick c z) b k)) in
    tested 1%nat = g * (H0 * H0) / 2 * (sumn (cc_n cc) (fun i => ment (cc_W cc) i k * fst (cub_gradient Np cc phi i k)) - sumn (3 * NG) (fun j => ment (gf_W gf) j k * gauss_value Np gf phi j * ment (gf_nx gf) j k)) /\
    tested 2%nat = g * (H0 * H0) / 2 * (sumn (cc_n cc) (fun i => ment (cc_W cc) i k * snd (cub_gradient Np cc phi i k)) - sumn (3 * NG) (fun j => ment (gf_W gf) j k * gauss_value Np gf phi j * ment (gf_ny gf) j k)).
Proof.
  intros Hs HK HH Hrest. assert (HN := ct_some _ _ _ _ _ _ _ _ _ _ _ _ HT).
  assert (Hrest' : forall i k, (i < Np)%nat -> (k < K)%nat -> ment (q_h q) i k = H0 /\ ment (q_hu q) i k = 0 /\ ment (q_hv q) i k = 0) by (intros i k Hi Hk; destruct (Hrest i k Hi Hk) as (A & B & C & _); auto).
  assert (Hg : forall p, (p < n)%nat -> fst (state p) = (H0, 0, 0)).
  { intros p Hp. apply interpolated_rest; [now apply point_element| |exact Hrest']. apply (kc_I _ _ _ _ HK). apply Nat.mod_upper_bound. lia. }
  assert (Hf : forall p, (p < n)%nat -> fst (far p) = (H0, 0, 0)).
  { intros p Hp. unfold far_state. destruct (existsb (Nat.eqb p) mapW); [|apply Hg, partner_lt, Hp]. unfold mirror4. cbn [fst]. rewrite (Hg p Hp). unfold mirror. f_equal; [f_equal|]; ring. }
  assert (Hc : forall i k, (i < cc_n cc)%nat -> (k < K)%nat -> fst (cub_state Np cc q i k) = (H0, 0, 0)) by (intros i k Hi Hk; apply interpolated_rest; [exact Hk|apply (kc_V _ _ _ _ HK i Hi)|exact Hrest']).
  assert (Hsrc : forall c b k, (b < Np)%nat -> (k < K)%nat -> source4 g CD f (ment zx b k) (ment zy b k) c (node_state q b k) = 0).
  { intros c b k Hb Hk. destruct (Hrest b k Hb Hk) as (A & B & C & D & E). unfold source4, node_state. cbn [fst]. rewrite A, B, C, D, E. destruct c as [|[|[|]]]; unfold Rdiv; ring. }
  assert (Hall : forall c k phi, (c < 3)%nat -> (k < K)%nat -> sumn Np (fun a => sumn Np (fun b => phi a * ment (mass k) a b * ment (pick c z) b k)) =
    sumn (cc_n cc) (fun i => ment (cc_W cc) i k * through g c (cub_gradient Np cc phi i k) (H0, 0, 0)) - sumn (3 * NG) (fun j => ment (gf_W gf) j k * gauss_value Np gf phi j * through g c (ment (gf_nx gf) j k, ment (gf_ny gf) j k) (H0, 0, 0))).
  { intros c k phi Hc3 Hk. destruct (Hz c ltac:(lia)) as (F & HF & HW).
    transitivity (sumn Np (fun a => sumn Np (fun b => phi a * ment (mass k) a b * (ment (pick c z) b k - source4 g CD f (ment zx b k) (ment zy b k) c (node_state q b k))))).
    { apply sumn_ext. intros a Ha. apply sumn_ext. intros b Hb. rewrite Hsrc by auto. ring. }
    rewrite (HW k phi Hk). unfold Rminus. f_equal.
    - apply sumn_ext. intros i Hi. f_equal. unfold through4. rewrite (proj2 (Nat.ltb_lt c 3) Hc3), (Hc i k Hi Hk). reflexivity.
    - f_equal. apply sumn_ext. intros j Hj. f_equal. assert (Hp : (j + 3 * NG * k < n)%nat) by nia. destruct (HF _ Hp) as (lam & _ & ->).
      destruct (div_pos NG j k Hj) as (D1 & D2). unfold rusanov4, through4, part4. rewrite (proj2 (Nat.ltb_lt c 3) Hc3), (Hg _ Hp), (Hf _ Hp). unfold gauss_n, gauss_at. rewrite D1, D2. field. }
  split.
  - intros i k Hi Hk. apply (determined (q_h z) (mkmat Np K (fun _ _ => 0)) k Hs Hk); [|exact Hi]. intro phi. cbn [ment]. pose proof (Hall 0%nat k phi ltac:(lia) Hk) as X. cbn [pick] in X. rewrite X.
    rewrite !sumn_zero; [ring| | |]; [intros; apply sumn_zero; intros; ring|intros j Hj|intros j Hj]; unfold through, flux_x, flux_y; cbn [part fst snd]; ring.
  - intros k phi Hk tested. unfold tested. split.
    + rewrite (Hall 1%nat k phi ltac:(lia) Hk). rewrite Rmult_minus_distr_l, <- !sumn_scal. f_equal; apply sumn_ext; intros j Hj; unfold through, flux_x, flux_y; cbn [part fst snd]; field; exact HH.
    + rewrite (Hall 2%nat k phi ltac:(lia) Hk). rewrite Rmult_minus_distr_l, <- !sumn_scal. f_equal; apply sumn_ext; intros j Hj; unfold through, flux_x, flux_y; cbn [part fst snd]; field; exact HH.
Qed.
End Facts.
