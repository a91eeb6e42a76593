(* QuadConsProofs.v - the numerical fluxes over all sides of a mesh of quadrilaterals with walls all round cancel: interior sides
   pair off, walls let nothing through. *)
From Coq Require Import ZArith List Lia Bool Arith.
From Verif Require Import Base Loops Num BlitzModel JacobiModel JacobiSpec JacobiProofs JacobiQuadProofs JacobiExactProofs Nodes1DModel Nodes1DSpec Nodes1DExactProofs DenseSpec DenseModel
  MeshSpec MeshProofs MeshProps MeshGeoProofs TriModel TriSpec TriGeoSpec TriOpProofs TriProofs TriLiftProofs TriDGProofs QuadModel QuadSpec QuadSetup QuadBasisProofs QuadNodesProofs QuadElemProofs QuadGeoProofs QuadProps
  Maps2DModel Maps2DSpec Maps2DProofs Maps2DProps TriMapsProofs TriMapsProps QuadMapsProofs QuadMapsProps
  RKModel RKProofs Line1DModel Line1DProofs SwModel SwSpec SwProofs SwSchemeProofs SwRunProofs SwStepModel SwStepSpec InsModel InsSpec InsProofs InsGridProofs InsProps QuadRunModel QuadRunSpec QuadRunProofs
  QuadVolProofs QuadBalProofs.
From Coq Require Import Reals Lra.
Import ListNotations.
Local Open Scope R_scope.

Lemma spos_le N f n : (n <= N)%nat -> (spos N f n <= N)%nat.
Proof. unfold spos. destruct (2 <=? f)%nat; lia. Qed.
Lemma spos_inv N f n : (n <= N)%nat -> spos N f (spos N f n) = n.
Proof. unfold spos. destruct (2 <=? f)%nat; lia. Qed.

Section Cons.
Context (G : R -> R) (solve : mat R -> mat R -> mat R -> outcome (mat R)) (inverse : mat R -> mat R -> outcome (mat R))
  (junk : nat -> nat -> R) (eps : R) (eig : nat -> (nat -> nat -> R) -> list R * (nat -> nat -> R)) (tol : R)
  (N K : nat) (Vert : list R) (EToV : list nat) (el : element (T := R)).
Hypothesis HB : qbuilt G solve inverse junk eps eig tol N K Vert EToV el.
Variables E2E E2F : list nat.
Hypothesis HM : quad_mesh K Vert EToV E2E E2F.
Hypothesis HX : forall k, (k < K)%nat -> convex_ccw (fun c => qcorner Vert EToV k c).
Local Notation Fm := (qmask_table N (e_masks el)).
Local Notation Np := ((N + 1) * (N + 1))%nat.
Hypothesis HS : forall n n', (n <= N)%nat -> (n' <= N)%nat -> n <> n' -> 2 * tol <= Rabs (nth (ment Fm n 0) (e_r el) 0 - nth (ment Fm n' 0) (e_r el) 0).
Variables (sort : (nat -> nat -> bool) -> list nat -> list nat) (junk1 : nat -> R) (junkn : nat -> nat) (bcType : list Z) (m : maps).
Hypothesis Hrun : buildMaps (exact G) rhypot sort junk1 junkn tol 4 (S N) Np K Fm (e_x el) (e_y el) E2E E2F EToV Vert bcType [] = Ok m.
Hypothesis Hbc : (4 * K <= length bcType)%nat.
Local Notation fid := (face_id 4 (S N)).
Local Notation fn f n := (ment Fm n f).
Local Notation P k := (fun c => qcorner Vert EToV k c).
Local Notation EV := (map Z.of_nat EToV).
Local Notation nf := (4 * S N * K)%nat.

(* the node that faces node n of side f of element k *)
Lemma far_exact q n f k : (n <= N)%nat -> (f < 4)%nat -> (k < K)%nat ->
  exists k2 f2, (k2 < K)%nat /\ (f2 < 4)%nat /\
  let p := if (k2 =? k)%nat then n else spos N f2 (N - spos N f n) in (p <= N)%nat /\
  state_at Np q (m_vmapP m) (fid n f k) = at_node q (fn f2 p) k2 /\ links 4 E2E E2F (4 * k + f) (4 * k2 + f2) /\
  ((k2 = k /\ f2 = f /\ forall h, ~ shares 4 EV (4 * k + f) h) \/ (k2 <> k /\ shares 4 EV (4 * k + f) (4 * k2 + f2) /\ P k2 f2 = P k ((f + 1) mod 4)%nat /\ P k2 ((f2 + 1) mod 4)%nat = P k f)).
Proof.
  intros Hn Hf Hk. pose proof (qtables _ _ _ _ _ _ _ _ _ _ _ _ HB _ _ HM) as HT. destruct HM as [LE LF HN HO HA].
  destruct (C38_trace_maps (exact G) rhypot sort junk1 junkn tol 4 (S N) Np K Fm (e_x el) (e_y el) E2E E2F EToV Vert bcType [] m HT Hrun) as (_ & _ & _ & Ht).
  destruct (HN (4 * k + f)%nat ltac:(lia)) as (h & (L1 & L2) & Nb).
  destruct (quad_neighbour_corners _ _ _ _ _ _ _ _ _ _ _ _ HB _ _ LE LF HN HO HA f k _ _ Hf Hk L1 L2) as (B1 & B2 & Hc).
  pose proof (quad_match _ _ _ _ _ _ _ _ _ _ _ _ HB _ _ LE LF HN HO HA HS n f k _ _ Hn Hf Hk L1 L2) as (p & Hp & Ep & Eq & Mp & _ & Hu).
  destruct (Ht n f k _ _ ltac:(lia) Hf Hk L1 L2) as (V1 & [(q1 & Q1 & Q2 & _ & V2 & _)|(No & _)]).
  2:{ rewrite No in Mp by lia. discriminate. }
  assert (q1 = p) by (apply Hu; [lia|exact Q2]). subst q1.
  exists (h / 4)%nat, (h mod 4)%nat. split; [exact B2|]. split; [exact B1|]. cbv zeta. rewrite <- Eq. split; [exact Hp|]. split; [|split].
  - rewrite <- (qvolume_cell N K bcType Hbc q (fn (h mod 4) p) (h / 4)) by (eapply qfn_lt; eassumption). unfold state_at. rewrite (nth_error_nth _ _ _ V2). reflexivity.
  - assert (Eh : (4 * (h / 4) + h mod 4 = h)%nat) by (symmetry; apply Nat.div_mod; lia). rewrite Eh. split; assumption.
  - exact Hc.
Qed.
Lemma own_exact q n f k : (n <= N)%nat -> (f < 4)%nat -> (k < K)%nat -> state_at Np q (m_vmapM m) (fid n f k) = at_node q (fn f n) k.
Proof. intros. apply (own_at _ _ _ _ _ _ _ _ _ _ _ _ HB _ _ HM HS _ _ _ _ _ Hrun Hbc q n f k); assumption. Qed.
Lemma shares_back k f k2 f2 : (f < 4)%nat -> (k < K)%nat -> (f2 < 4)%nat -> (k2 < K)%nat -> shares 4 EV (4 * k + f) (4 * k2 + f2) -> links 4 E2E E2F (4 * k2 + f2) (4 * k + f).
Proof.
  intros Hf Hk Hf2 Hk2 Sh. destruct HM as [LE LF HN HO HA]. pose proof (C21_oriented_conforming 4 EV HO) as HC.
  destruct (HN (4 * k2 + f2)%nat ltac:(lia)) as (g' & L & Nb). assert (Nb2 : neighbour 4 EV (4 * k + f) (4 * k2 + f2)) by (right; split; [exact Sh|intros h' Sh'; rewrite (HC _ _ _ Sh Sh'); lia]).
  apply (neighbour_sym _ _ _ _ HC) in Nb2. rewrite (C20_neighbour_unique _ _ _ _ _ Nb2 Nb). exact L.
Qed.

(* A state, its rates and dissipations as in C103_scheme. *)
Variables (g : R) (q : field) (lam : nat -> R).
Local Notation own := (state_at Np q (m_vmapM m)).
Local Notation normal := (fun t => (ment (e_nx el) (t mod (4 * S N)) (t / (4 * S N)), ment (e_ny el) (t mod (4 * S N)) (t / (4 * S N)))).
Local Notation other := (beyond_wall N Np bcType (m_vmapM m) (m_vmapP m) q normal).
Hypothesis Hlam : forall t, (t < nf)%nat -> is_max (fun v => exists t', (t' < nf)%nat /\ (t' / S N = t / S N)%nat /\ v = Rmax (wave_speed g (own t')) (wave_speed g (other t'))) (lam t).
Hypothesis Hwall : forall k f, (k < K)%nat -> (f < 4)%nat -> nth (4 * k + f) bcType 0%Z = 3%Z <-> forall h, ~ shares 4 EV (4 * k + f) h.
Definition star (t : nat) : R := rusanov g 0 (normal t) (lam t) (own t) (other t).

Lemma normal_eq n f k : (n <= N)%nat -> (f < 4)%nat -> normal (fid n f k) = (ment (e_nx el) (f * S N + n) k, ment (e_ny el) (f * S N + n) k).
Proof. intros Hn Hf. destruct (qfid_pos N K bcType Hbc n f k Hn Hf) as (_ & -> & ->). reflexivity. Qed.
Lemma fid_face n f k : (n <= N)%nat -> (fid n f k / S N = 4 * k + f)%nat.
Proof. intro Hn. symmetry. apply Nat.div_unique with n; [lia|]. unfold face_id. lia. Qed.
Lemma wall_star n f k : (n <= N)%nat -> (f < 4)%nat -> (k < K)%nat -> (forall h, ~ shares 4 EV (4 * k + f) h) -> star (fid n f k) = 0.
Proof.
  intros Hn Hf Hk Hlone. unfold star, beyond_wall. cbv zeta. rewrite (side_tag_at N K bcType Hbc n f k Hn). unfold qtag_of. rewrite (proj2 (Hwall k f Hk Hf) Hlone), Z.eqb_refl.
  destruct (far_exact q n f k Hn Hf Hk) as (k2 & f2 & _ & _ & _ & Ef & _ & [(-> & -> & _)|(_ & Sh & _)]); [|exfalso; exact (Hlone _ Sh)].
  rewrite Ef, Nat.eqb_refl, (own_exact q n f k Hn Hf Hk). set (a := at_node q (fn f n) k). rewrite (normal_eq n f k Hn Hf).
  match goal with |- rusanov _ _ ?nn _ _ ?b = 0 => replace b with (mirror nn a) by (destruct a as [[h u] v]; reflexivity) end. apply rusanov_mirror.
  destruct (qelement_ok _ _ _ _ _ _ _ _ _ _ _ _ HB) as [Hn0 masks _ _ _ _ _ _ _ _ _ _ _ _].
  destruct (C70_normals _ _ _ _ _ _ _ _ _ _ _ _ HB k Hk (HX k Hk)) as (_ & _ & _ & Hnn).
  destruct (Hnn f n (nth f (e_masks el) []) Hf ltac:(lia)) as ((D & _) & _); [|exact D].
  apply nth_error_nth'. rewrite masks, map_length, seq_length. exact Hf.
Qed.
(* across a shared side *)
Lemma across n f k k2 f2 : (n <= N)%nat -> (f < 4)%nat -> (k < K)%nat -> (f2 < 4)%nat -> (k2 < K)%nat -> links 4 E2E E2F (4 * k + f) (4 * k2 + f2) -> shares 4 EV (4 * k + f) (4 * k2 + f2) ->
  let p := spos N f2 (N - spos N f n) in (p <= N)%nat /\ spos N f (N - spos N f2 p) = n /\
  own (fid p f2 k2) = other (fid n f k) /\ other (fid p f2 k2) = own (fid n f k) /\ normal (fid p f2 k2) = (- fst (normal (fid n f k)), - snd (normal (fid n f k))) /\
  side_norm Vert EToV k2 f2 = side_norm Vert EToV k f.
Proof.
  intros Hn Hf Hk Hf2 Hk2 L Sh. cbv zeta. set (p := spos N f2 (N - spos N f n)).
  assert (Hp : (p <= N)%nat) by (apply spos_le; lia). assert (Hback : spos N f (N - spos N f2 p) = n).
  { unfold p. rewrite (spos_inv N f2) by lia. pose proof (spos_le N f n Hn). replace (N - (N - spos N f n))%nat with (spos N f n) by lia. apply spos_inv. exact Hn. }
  pose proof (shares_back k f k2 f2 Hf Hk Hf2 Hk2 Sh) as L'.
  assert (NT : forall k f n h, (n <= N)%nat -> (k < K)%nat -> (f < 4)%nat -> shares 4 EV (4 * k + f) h -> side_tag N bcType (fid n f k) <> 3%Z).
  { intros k0 f0 n0 h H1 H2 H3 S0. rewrite (side_tag_at N K bcType Hbc n0 f0 k0 H1). unfold qtag_of. intro T. apply (proj1 (Hwall k0 f0 H2 H3) T h S0). }
  assert (Sh' : shares 4 EV (4 * k2 + f2) (4 * k + f)). { destruct Sh as (Ne & a & b & c & d & F1 & F2 & Pr). split; [congruence|]. exists c, d, a, b. split; [exact F2|]. split; [exact F1|]. destruct Pr as [(-> & ->)|(-> & ->)]; [left|right]; split; reflexivity. }
  split; [exact Hp|]. split; [exact Hback|].
  destruct (far_exact q n f k Hn Hf Hk) as (k3 & f3 & Hk3 & Hf3 & _ & Ef & L3 & Hd). cbv zeta in Ef. pose proof (links_inj 4 _ _ _ _ _ ltac:(lia) L L3) as X3.
  assert (k3 = k2 /\ f3 = f2) as (-> & ->) by lia. destruct Hd as [(E1 & E2 & Hno)|(Nk & _ & C1 & C2)]; [exfalso; exact (Hno _ Sh)|]. rewrite (proj2 (Nat.eqb_neq _ _) Nk) in Ef. fold p in Ef.
  destruct (far_exact q p f2 k2 Hp Hf2 Hk2) as (k4 & f4 & Hk4 & Hf4 & _ & Ef' & L4 & _). cbv zeta in Ef'. pose proof (links_inj 4 _ _ _ _ _ ltac:(lia) L' L4) as X4.
  assert (k4 = k /\ f4 = f) as (-> & ->) by lia. rewrite (proj2 (Nat.eqb_neq k k2)), Hback in Ef' by congruence.
  split; [unfold beyond_wall; cbv zeta; rewrite (proj2 (Z.eqb_neq _ _) (NT k f n _ Hn Hk Hf Sh)), Ef; apply own_exact; assumption|].
  split; [unfold beyond_wall; cbv zeta; rewrite (proj2 (Z.eqb_neq _ _) (NT k2 f2 p _ Hp Hk2 Hf2 Sh')), Ef'; symmetry; apply own_exact; assumption|].
  split.
  - rewrite (normal_eq n f k Hn Hf), (normal_eq p f2 k2 Hp Hf2). cbn [fst snd]. destruct (C70_shared_face _ _ _ _ _ _ _ _ _ _ _ _ HB k k2 f f2 n p Hk Hk2 Hf Hf2 ltac:(lia) ltac:(lia) (eq_sym C2) (eq_sym C1)) as (-> & ->). reflexivity.
  - unfold side_norm, side_ux, side_uy. cbv beta in C1, C2. rewrite C1, C2. f_equal. field.
Qed.
Lemma lam_le n f k k2 f2 : (n <= N)%nat -> (f < 4)%nat -> (k < K)%nat -> (f2 < 4)%nat -> (k2 < K)%nat -> links 4 E2E E2F (4 * k + f) (4 * k2 + f2) -> shares 4 EV (4 * k + f) (4 * k2 + f2) ->
  forall p, (p <= N)%nat -> lam (fid n f k) <= lam (fid p f2 k2).
Proof.
  intros Hn Hf Hk Hf2 Hk2 L Sh p Hp. destruct (Hlam (fid n f k) (qfid_lt N K bcType Hbc n f k Hn Hf Hk)) as ((t & Ht & Et & ->) & _). rewrite fid_face in Et by exact Hn.
  assert (Es : t = fid (t mod S N) f k). { unfold face_id. pose proof (Nat.div_mod t (S N) ltac:(lia)). lia. } pose proof (Nat.mod_upper_bound t (S N) ltac:(lia)) as Hm. assert (Hm' : (t mod S N <= N)%nat) by lia.
  destruct (across (t mod S N) f k k2 f2 Hm' Hf Hk Hf2 Hk2 L Sh) as (Hp' & _ & O1 & O2 & _). rewrite Es, <- O1, <- O2, Rmax_comm.
  apply (proj2 (Hlam (fid p f2 k2) (qfid_lt N K bcType Hbc p f2 k2 Hp Hf2 Hk2))). exists (fid (spos N f2 (N - spos N f (t mod S N))) f2 k2). split; [eapply qfid_lt; eassumption|]. split; [rewrite !fid_face by assumption; reflexivity|reflexivity].
Qed.
Lemma star_across n f k k2 f2 : (n <= N)%nat -> (f < 4)%nat -> (k < K)%nat -> (f2 < 4)%nat -> (k2 < K)%nat -> links 4 E2E E2F (4 * k + f) (4 * k2 + f2) -> shares 4 EV (4 * k + f) (4 * k2 + f2) ->
  star (fid (spos N f2 (N - spos N f n)) f2 k2) = - star (fid n f k).
Proof.
  intros Hn Hf Hk Hf2 Hk2 L Sh. destruct (across n f k k2 f2 Hn Hf Hk Hf2 Hk2 L Sh) as (Hp & _ & O1 & O2 & En & _). set (p := spos N f2 (N - spos N f n)) in *.
  unfold star. rewrite O1, O2, En. replace (lam (fid p f2 k2)) with (lam (fid n f k)); [apply rusanov_flip|].
  assert (Sh' : shares 4 EV (4 * k2 + f2) (4 * k + f)). { destruct Sh as (Ne & a & b & c & d & F1 & F2 & Pr). split; [congruence|]. exists c, d, a, b. split; [exact F2|]. split; [exact F1|]. destruct Pr as [(-> & ->)|(-> & ->)]; [left|right]; split; reflexivity. }
  apply Rle_antisym; [apply (lam_le n f k k2 f2)|apply (lam_le p f2 k2 k f)]; try assumption. apply shares_back; assumption.
Qed.

Variable gp : nat -> R.
Hypothesis HGp : gpoints N el gp.
Local Notation om := (om G N el).
Lemma om_spos f j : (j <= N)%nat -> om (spos N f j) = om j.
Proof. intro Hj. unfold spos. destruct (2 <=? f)%nat; [|reflexivity]. apply (om_sym _ _ _ _ _ _ _ _ _ _ _ _ HB gp HGp j Hj). Qed.
Lemma fluxes_cancel : sumn K (fun k => sumn 4 (fun f => sumn (S N) (fun j => om j * (side_norm Vert EToV k f * star (f * S N + j + k * (4 * S N))%nat)))) = 0.
Proof.
  set (s := fun t => om (t mod S N)%nat * (side_norm Vert EToV (t / S N / 4) ((t / S N) mod 4) * star t)).
  assert (Es : forall n f k, (n <= N)%nat -> (f < 4)%nat -> s (fid n f k) = om n * (side_norm Vert EToV k f * star (fid n f k))).
  { intros n f k Hn Hf. unfold s. rewrite (fid_face n f k Hn). replace (fid n f k mod S N)%nat with n by (apply Nat.mod_unique with (4 * k + f)%nat; unfold face_id; lia).
    replace ((4 * k + f) / 4)%nat with k by (apply Nat.div_unique with f; lia). replace ((4 * k + f) mod 4)%nat with f by (apply Nat.mod_unique with k; lia). reflexivity. }
  transitivity (sumn (K * (4 * S N)) s).
  - rewrite sumn_rect. apply sumn_ext. intros k Hk. rewrite sumn_rect. apply sumn_ext. intros f Hf. apply sumn_ext. intros j Hj.
    destruct (qfid_pos N K bcType Hbc j f k ltac:(lia) Hf) as (Ef & _). replace (f * S N + j + k * (4 * S N))%nat with (fid j f k) by lia. replace (k * (4 * S N) + (f * S N + j))%nat with (fid j f k) by lia. symmetry. apply Es; lia.
  - replace (K * (4 * S N))%nat with nf by lia.
    apply (sumn_invol nf s (fun t => let k2 := nth (t / S N) E2E 0%nat in let f2 := nth (t / S N) E2F 0%nat in fid (if (k2 =? t / S N / 4)%nat then t mod S N else spos N f2 (N - spos N ((t / S N) mod 4) (t mod S N))) f2 k2)).
    assert (SG : forall n f k k2 f2, (n <= N)%nat -> (f < 4)%nat -> (f2 < 4)%nat -> links 4 E2E E2F (4 * k + f) (4 * k2 + f2) ->
      (let t := fid n f k in let k2 := nth (t / S N) E2E 0%nat in let f2 := nth (t / S N) E2F 0%nat in fid (if (k2 =? t / S N / 4)%nat then t mod S N else spos N f2 (N - spos N ((t / S N) mod 4) (t mod S N))) f2 k2) = fid (if (k2 =? k)%nat then n else spos N f2 (N - spos N f n)) f2 k2).
    { intros n f k k2 f2 Hn Hf Hf2 (L1 & L2). cbv zeta. rewrite (fid_face n f k Hn). rewrite (nth_error_nth _ _ _ L1), (nth_error_nth _ _ _ L2).
      replace ((4 * k2 + f2) / 4)%nat with k2 by (apply Nat.div_unique with f2; lia). replace ((4 * k2 + f2) mod 4)%nat with f2 by (apply Nat.mod_unique with k2; lia).
      replace ((4 * k + f) / 4)%nat with k by (apply Nat.div_unique with f; lia). replace ((4 * k + f) mod 4)%nat with f by (apply Nat.mod_unique with k; lia). replace (fid n f k mod S N)%nat with n by (apply Nat.mod_unique with (4 * k + f)%nat; unfold face_id; lia). reflexivity. }
    intros t Ht. destruct (qfid_split N K bcType Hbc t Ht) as (n & f & k & Hn & Hf & Hk & ->).
    destruct (far_exact q n f k Hn Hf Hk) as (k2 & f2 & Hk2 & Hf2 & Hp & _ & L & Hd). pose proof (SG n f k k2 f2 Hn Hf Hf2 L) as Sg. cbv zeta in Sg, Hp |- *. rewrite Sg.
    destruct Hd as [(-> & -> & Hno)|(Nk & Sh & _ & _)].
    + rewrite Nat.eqb_refl in *. split; [exact Ht|]. split; [exact Sg|]. rewrite (Es n f k Hn Hf), (wall_star n f k Hn Hf Hk Hno). ring.
    + rewrite (proj2 (Nat.eqb_neq _ _) Nk) in *. destruct (across n f k k2 f2 Hn Hf Hk Hf2 Hk2 L Sh) as (_ & Hback & _ & _ & _ & En).
      split; [eapply qfid_lt; eassumption|]. split.
      * pose proof (SG (spos N f2 (N - spos N f n)) f2 k2 k f Hp Hf2 Hf (shares_back k f k2 f2 Hf Hk Hf2 Hk2 Sh)) as Sg2. cbv zeta in Sg2. rewrite Sg2, (proj2 (Nat.eqb_neq k k2)), Hback by congruence. reflexivity.
      * rewrite (Es _ f2 k2 Hp Hf2), (Es n f k Hn Hf), En, (star_across n f k k2 f2 Hn Hf Hk Hf2 Hk2 L Sh). rewrite om_spos by lia. pose proof (spos_le N f n Hn). rewrite (om_sym _ _ _ _ _ _ _ _ _ _ _ _ HB gp HGp) by assumption. rewrite om_spos by exact Hn. ring.
Qed.
(* so the rates of the depth sum to zero *)
Variable z : field.
Local Notation n := (S N * S N)%nat.
Local Notation M := (e_metric el).
Hypothesis Hz : forall i k, (i < Np)%nat -> (k < K)%nat -> ment (fieldc 0 z) i k =
  - (ment (g_rx M) i k * sumn Np (fun j => ment (e_Dr el) i j * part 0 (flux_x g (at_node q j k))) + ment (g_sx M) i k * sumn Np (fun j => ment (e_Ds el) i j * part 0 (flux_x g (at_node q j k)))
     + (ment (g_ry M) i k * sumn Np (fun j => ment (e_Dr el) i j * part 0 (flux_y g (at_node q j k))) + ment (g_sy M) i k * sumn Np (fun j => ment (e_Ds el) i j * part 0 (flux_y g (at_node q j k))))) +
  sumn (4 * S N) (fun j => ment (e_Lift el) i j * (ment (e_Fscale el) j k * (through g 0 (ment (e_nx el) j k, ment (e_ny el) j k) (own (j + k * (4 * S N))%nat) - rusanov g 0 (ment (e_nx el) j k, ment (e_ny el) j k) (lam (j + k * (4 * S N))%nat) (own (j + k * (4 * S N))%nat) (other (j + k * (4 * S N))%nat)))).
Lemma rates_cancel : ((2 <= N)%nat \/ forall k, (k < K)%nat -> twist fst (P k) = 0 /\ twist snd (P k) = 0) ->
  sumn K (fun k => sumn n (fun i => qw G N el i * (qjac (P k) (nth i (e_r el) 0) (nth i (e_s el) 0) * ment (fieldc 0 z) i k))) = 0.
Proof.
  intro HP. rewrite (sumn_ext K _ (fun k => -1 * sumn 4 (fun f => sumn (S N) (fun j => om j * (side_norm Vert EToV k f * star (f * S N + j + k * (4 * S N))%nat))))).
  { rewrite sumn_scal, fluxes_cancel. ring. }
  intros k Hk.
  rewrite (elem_balance _ _ _ _ _ _ _ _ _ _ _ _ HB k Hk (HX k Hk) gp HGp (fun j => part 0 (flux_x g (at_node q j k))) (fun j => part 0 (flux_y g (at_node q j k))) (fun j => star (j + k * (4 * S N))%nat) (fun i => ment (fieldc 0 z) i k)).
  - ring.
  - destruct HP as [|HP]; [auto|right; apply HP; exact Hk].
  - intros i Hi. rewrite (Hz i k) by lia. replace n with Np by lia. f_equal. apply sumn_ext. intros j Hj. f_equal. f_equal.
    pose proof (Nat.div_mod j (S N) ltac:(lia)) as Dj. pose proof (Nat.mod_upper_bound j (S N) ltac:(lia)) as Bj. assert (Hf : (j / S N < 4)%nat) by (apply Nat.div_lt_upper_bound; lia).
    assert (Ej : (j + k * (4 * S N))%nat = fid (j mod S N) (j / S N) k) by (unfold face_id; lia).
    unfold star. rewrite Ej, normal_eq by lia. replace (j / S N * S N + j mod S N)%nat with j by lia. f_equal.
    rewrite own_exact by lia. unfold through. cbn [fst snd].
    destruct (mask_coord _ _ _ _ _ _ _ _ _ _ _ _ HB gp HGp (j / S N) (j mod S N) Hf ltac:(lia)) as (Em & Ep & _). cbn [qmask_table ment]. rewrite (nth_error_nth _ _ [] Em), Ep. reflexivity.
Qed.
End Cons.
