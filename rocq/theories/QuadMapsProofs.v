(* QuadMapsProofs.v - the trace maps of a constructed quadrilateral provisioner. *)
From Coq Require Import ZArith List Lia Bool.
From Verif Require Import Base Loops Num JacobiModel JacobiSpec DenseSpec Nodes1DSpec TriModel TriSpec TriGeoSpec QuadModel QuadSpec QuadSetup QuadElemProofs QuadProps MeshSpec MeshProofs FoldProofs Maps2DModel Maps2DSpec Maps2DProofs Maps2DProps TriMapsProofs.
From Coq Require Import Reals Lra.
Import ListNotations.
Local Open Scope R_scope.
From Verif Require Import MeshGeoProofs.
From Verif Require MeshProps.

Definition qmask_table (N : nat) (masks : list (list nat)) : mat nat := mkmat (S N) 4 (fun n f => nth n (nth f masks []) 0%nat).

Section QuadMaps.
Variables (G : R -> R) (solve : mat R -> mat R -> mat R -> outcome (mat R)) (inverse : mat R -> mat R -> outcome (mat R))
  (junk : nat -> nat -> R) (eps : R) (eig : nat -> (nat -> nat -> R) -> list R * (nat -> nat -> R)) (tol : R)
  (N K : nat) (Vert : list R) (EToV : list nat) (el : element (T := R)).
Hypothesis HB : qbuilt G solve inverse junk eps eig tol N K Vert EToV el.
Variables (E2E E2F : list nat).
Local Notation r := (e_r el).
Local Notation Np := ((N + 1) * (N + 1))%nat.
Local Notation P := (qcorner Vert EToV).
Local Notation EV := (map Z.of_nat EToV).
Hypothesis LE : length E2E = (4 * K)%nat.
Hypothesis LF : length E2F = (4 * K)%nat.
Hypothesis HN : forall g, (g < 4 * K)%nat -> exists h, links 4 E2E E2F g h /\ neighbour 4 EV g h.
Hypothesis HO : oriented 4 EV.
Hypothesis HA : forall k, (k < K)%nat -> forall c d, (c < 4)%nat -> (d < 4)%nat -> P k c = P k d -> c = d.
Local Notation Fm := (qmask_table N (e_masks el)).
Hypothesis HS : forall n n', (n <= N)%nat -> (n' <= N)%nat -> n <> n' -> 2 * tol <= Rabs (nth (ment Fm n 0) r 0 - nth (ment Fm n' 0) r 0).

Lemma mesh_len : length EV = (K * 4)%nat.
Proof. destruct HB. destruct qb_mesh as (L & _). rewrite map_length. lia. Qed.
Lemma nbr_bound g h : (g < 4 * K)%nat -> neighbour 4 EV g h -> (h < 4 * K)%nat.
Proof. intros Hg [(-> & _)|(Sh & _)]; auto. eapply shares_lt in Sh; [|apply mesh_len]. lia. Qed.
Lemma div4 g : (g < 4 * K)%nat -> (g / 4 < K)%nat /\ (g mod 4 < 4)%nat.
Proof. intro H. split; [apply Nat.div_lt_upper_bound; lia|apply Nat.mod_upper_bound; lia]. Qed.

Lemma quad_tables : tables_ok 4 (S N) Np K Fm (e_x el) (e_y el) E2E E2F EToV Vert.
Proof.
  destruct (C43_mapping _ _ _ _ _ _ _ _ _ _ _ _ HB) as ((X1 & X2) & (Y1 & Y2) & _).
  destruct (C43_nodes_masks _ _ _ _ _ _ _ _ _ _ _ _ HB) as (_ & _ & g & _ & _ & _ & _ & _ & _ & _ & _ & Hm).
  destruct HB. destruct qb_mesh as (Lm & Hv). constructor; try lia; auto.
  - split; [reflexivity|]. split; [reflexivity|]. intros n f Hn Hf. cbn [ment qmask_table]. destruct (Hm f Hf) as (mask & Em & Lmask & Hin & _). rewrite (nth_error_nth _ _ [] Em). apply Hin. apply nth_In. lia.
  - split; [exact LE|]. intros k Hk. apply In_nth_error in Hk as (g' & Hg). assert (g' < 4 * K)%nat by (rewrite <- LE; apply nth_error_Some; congruence).
    destruct (HN g' H) as (h & (L1 & _) & Nb). rewrite L1 in Hg. injection Hg as <-. apply div4. eapply nbr_bound; eauto.
  - split; [exact LF|]. intros f Hf. apply In_nth_error in Hf as (g' & Hg). assert (g' < 4 * K)%nat by (rewrite <- LF; apply nth_error_Some; congruence).
    destruct (HN g' H) as (h & (_ & L2) & Nb). rewrite L2 in Hg. injection Hg as <-. apply div4. eapply nbr_bound; eauto.
  - split; [exact Lm|]. intros v Hin. specialize (Hv v Hin). lia.
Qed.

Lemma corner_nth k f v : entry EV (4 * k + f) v -> P k f = mesh_vertex (exact G) Vert (Z.to_nat v) /\ nth (k * 4 + f) EToV 0%nat = Z.to_nat v.
Proof.
  unfold entry. rewrite nth_error_map. destruct (nth_error EToV (4 * k + f)) as [w|] eqn:Ew; [|discriminate]. cbn. intros [= <-]. rewrite Nat2Z.id.
  replace (k * 4 + f)%nat with (4 * k + f)%nat by lia.
  unfold qcorner, mesh_vertex. rewrite (nth_error_nth _ _ 0%nat Ew). split; reflexivity.
Qed.

Lemma quad_distinct : distinct_verts 4 EV.
Proof.
  intros k i j v Hi Hj A B. assert (Hk : (k < K)%nat). { assert (A1 : (k * 4 + i < length EV)%nat) by (apply nth_error_Some; unfold entry in A; congruence). rewrite mesh_len in A1. lia. }
  replace (k * 4 + i)%nat with (4 * k + i)%nat in A by lia. replace (k * 4 + j)%nat with (4 * k + j)%nat in B by lia.
  apply corner_nth in A as (A & _). apply corner_nth in B as (B & _). rewrite <- B in A. apply (HA k Hk); assumption.
Qed.

Lemma quad_paired : paired 4 K E2E E2F.
Proof.

  assert (HC : conforming 4 EV) by (apply MeshProps.C21_oriented_conforming; exact HO).
  split.
  - intros g Hg. destruct (HN g Hg) as (h & L1 & Nb). pose proof (nbr_bound g h Hg Nb) as Hh. exists h. split; [exact Hh|]. split; [exact L1|].
    destruct (HN h Hh) as (g' & L2 & Nb'). apply (neighbour_sym _ _ _ _ HC) in Nb. rewrite (neighbour_fun _ _ _ _ _ Nb Nb'). exact L2.
  - intros g h Lk Eq. assert (Hg : (g < 4 * K)%nat) by (destruct Lk as (Lk & _); rewrite <- LE; apply nth_error_Some; congruence).
    destruct (HN g Hg) as (h' & L1 & Nb). assert (E : h = h') by (apply (links_inj 4 E2E E2F g h h'); auto; lia). rewrite E in *. destruct Nb as [(-> & _)|(Sh & _)]; [reflexivity|].
    exfalso. apply (same_element_not_shared 4 EV g h' ltac:(lia) quad_distinct Sh). symmetry. exact Eq.
Qed.

(* position along the side from corner f to corner f+1 *)
Definition spos (f n : nat) : nat := if (2 <=? f)%nat then (N - n)%nat else n.
Lemma spos_le f n : (n <= N)%nat -> (spos f n <= N)%nat.
Proof. unfold spos. destruct (2 <=? f)%nat; lia. Qed.
Lemma spos_inv f n : (n <= N)%nat -> spos f (spos f n) = n.
Proof. unfold spos. destruct (2 <=? f)%nat; lia. Qed.

Lemma quad_points : exists g, (forall i, (i <= N)%nat -> nth (N - i) g 0 = - nth i g 0) /\
  (forall i j, (i <= N)%nat -> (j <= N)%nat -> i <> j -> 2 * tol <= Rabs (nth i g 0 - nth j g 0)) /\
  forall n f k, (n <= N)%nat -> (f < 4)%nat -> (k < K)%nat ->
    face_point Fm (e_x el) (e_y el) n f k = lerp (P k f) (P k ((f + 1) mod 4)) (nth (spos f n) g 0).
Proof.
  destruct (C43_mapping _ _ _ _ _ _ _ _ _ _ _ _ HB) as (_ & _ & Hxy & _).
  destruct (C43_nodes_masks _ _ _ _ _ _ _ _ _ _ _ _ HB) as (_ & _ & g & _ & _ & _ & _ & _ & Hsym & _ & _ & Hm).
  exists g. split; [exact Hsym|]. split.
  - intros i j Hi Hj Hne. pose proof (HS i j Hi Hj Hne) as HS0. destruct (Hm 0%nat ltac:(lia)) as (mask & Em & _ & _ & _ & Hq).
    cbn [ment qmask_table] in HS0. rewrite (nth_error_nth _ _ [] Em) in HS0. pose proof (Hq i Hi) as Qi. pose proof (Hq j Hj) as Qj. cbn zeta in Qi, Qj. injection Qi as Qi _. injection Qj as Qj _. rewrite Qi, Qj in HS0. exact HS0.
  - intros n f k Hn Hf Hk. destruct (Hm f Hf) as (mask & Em & Lmask & Hin & _ & Hq). unfold face_point. cbn [ment qmask_table]. rewrite (nth_error_nth _ _ [] Em).
    assert (Hl : (nth n mask 0 < Np)%nat) by (apply Hin, nth_In; lia). rewrite (Hxy (nth n mask 0%nat) k Hl Hk).
    specialize (Hq n Hn). cbn zeta in Hq. unfold lerp, bilinear_image, along, spos.
    destruct f as [|[|[|[|]]]]; [| | | |lia]; injection Hq as -> ->; cbn [Nat.leb Nat.modulo Nat.divmod Nat.add fst snd Nat.sub].
    + f_equal; field.
    + f_equal; field.
    + rewrite Hsym by exact Hn. f_equal; field.
    + rewrite Hsym by exact Hn. f_equal; field.
Qed.

Lemma quad_len f k : (f < 4)%nat -> (k < K)%nat -> face_len (exact G) rhypot 4 EToV Vert f k = side_length (P k f) (P k ((f + 1) mod 4)) /\ 0 < side_length (P k f) (P k ((f + 1) mod 4)).
Proof.
  intros Hf Hk. assert (H1 : (4 * k + f < length EV)%nat) by (rewrite mesh_len; lia). assert (H2 : (4 * k + (f + 1) mod 4 < length EV)%nat) by (rewrite mesh_len; pose proof (Nat.mod_upper_bound (f + 1) 4); lia).
  apply nth_error_Some in H1, H2. unfold face_len.
  destruct (nth_error EV (4 * k + f)) as [a|] eqn:Ea; [|congruence]. destruct (nth_error EV (4 * k + (f + 1) mod 4)) as [b|] eqn:Eb; [|congruence].
  apply corner_nth in Ea as (Ea & Ea'). apply corner_nth in Eb as (Eb & Eb'). rewrite Ea', Eb', <- Ea, <- Eb. split.
  - unfold distance, rhypot, side_length, dot, pminus. cbn [fst snd fsub exact]. f_equal. ring.
  - apply side_pos. intro X. apply (HA k Hk) in X; [|exact Hf|apply Nat.mod_upper_bound; lia]. destruct f as [|[|[|[|]]]]; cbn in X; lia.
Qed.

Lemma quad_neighbour_corners f k k2 f2 : (f < 4)%nat -> (k < K)%nat -> entry E2E (4 * k + f) k2 -> entry E2F (4 * k + f) f2 ->
  (f2 < 4)%nat /\ (k2 < K)%nat /\
  ((k2 = k /\ f2 = f /\ forall h, ~ shares 4 EV (4 * k + f) h) \/
   (k2 <> k /\ shares 4 EV (4 * k + f) (4 * k2 + f2) /\ P k2 f2 = P k ((f + 1) mod 4) /\ P k2 ((f2 + 1) mod 4) = P k f)).
Proof.
  intros Hf Hk He2 Hf2. set (g := (4 * k + f)%nat) in *. assert (Hg : (g < 4 * K)%nat) by lia. destruct (HN g Hg) as (h & (L1 & L2) & Nb).
  unfold entry in *. rewrite L1 in He2. rewrite L2 in Hf2.
  assert (X1 : k2 = (h / 4)%nat) by congruence. assert (X2 : f2 = (h mod 4)%nat) by congruence. subst k2 f2. clear He2 Hf2. pose proof (nbr_bound g h Hg Nb) as Hh. destruct (div4 h Hh) as (B1 & B2). split; [exact B2|]. split; [exact B1|].
  assert (Eg : (g / 4 = k)%nat /\ (g mod 4 = f)%nat). { unfold g. replace (4 * k + f)%nat with (f + k * 4)%nat by lia. rewrite Nat.div_add, Nat.mod_add by lia. rewrite Nat.div_small, Nat.mod_small by lia. lia. }
  assert (Eh : (4 * (h / 4) + h mod 4)%nat = h) by (symmetry; apply Nat.div_mod; lia).
  destruct Nb as [(Ehg & Nb)|(Sh & _)].
  - left. rewrite Ehg. destruct Eg as (Eg1 & Eg2). auto.
  - right. split; [intro Eq; apply (same_element_not_shared 4 EV g h ltac:(lia) quad_distinct Sh); destruct Eg as (Eg1 & _); rewrite Eg1; symmetry; exact Eq|]. rewrite Eh. split; [exact Sh|].
    assert (Hfe : exists a b, face 4 EV g a b).
    { destruct Sh as (_ & a & b & _ & _ & Fa & _). eauto. }
    destruct Hfe as (a & b & Fg). pose proof (oriented_opposite 4 EV g h a b HO Sh Fg) as Fh. destruct Fg as (Fa & Fb), Fh as (Fc & Fd). destruct Eg as (Eg1 & Eg2). rewrite Eg1, Eg2 in Fb.
    assert (C1 : P k f = mesh_vertex (exact G) Vert (Z.to_nat a)) by (apply corner_nth; exact Fa).
    assert (C2 : P k ((f + 1) mod 4) = mesh_vertex (exact G) Vert (Z.to_nat b)) by (apply corner_nth; unfold entry; rewrite <- Fb; f_equal; lia).
    assert (C3 : P (h / 4) (h mod 4) = mesh_vertex (exact G) Vert (Z.to_nat b)) by (apply corner_nth; unfold entry; rewrite Eh; exact Fc).
    assert (C4 : P (h / 4) ((h mod 4 + 1) mod 4) = mesh_vertex (exact G) Vert (Z.to_nat a)) by (apply corner_nth; unfold entry; rewrite <- Fd; f_equal; lia).
    rewrite C1, C2, C3, C4. auto.
Qed.

(* the node of face f2 facing position t of the side, seen from the other element *)
Lemma quad_match n f k k2 f2 : (n <= N)%nat -> (f < 4)%nat -> (k < K)%nat -> entry E2E (4 * k + f) k2 -> entry E2F (4 * k + f) f2 ->
  exists q, (q <= N)%nat /\ face_point Fm (e_x el) (e_y el) q f2 k2 = face_point Fm (e_x el) (e_y el) n f k /\
    q = (if (k2 =? k)%nat then n else spos f2 (N - spos f n)) /\
    matches (exact G) rhypot 4 EToV Vert tol f k (face_point Fm (e_x el) (e_y el) n f k) (face_point Fm (e_x el) (e_y el) q f2 k2) = true /\
    matches (exact G) rhypot 4 EToV Vert tol f2 k2 (face_point Fm (e_x el) (e_y el) q f2 k2) (face_point Fm (e_x el) (e_y el) n f k) = true /\
    forall j, (j <= N)%nat -> matches (exact G) rhypot 4 EToV Vert tol f k (face_point Fm (e_x el) (e_y el) n f k) (face_point Fm (e_x el) (e_y el) j f2 k2) = true -> j = q.
Proof.
  intros Hn Hf Hk He2 Hf2. destruct quad_points as (g & Hsym & Hsep & Hpt). destruct (quad_neighbour_corners f k k2 f2 Hf Hk He2 Hf2) as (B1 & B2 & Hc).
  assert (Htol : 0 < tol) by (destruct HB; auto).
  assert (Hm : forall f k p, (f < 4)%nat -> (k < K)%nat -> matches (exact G) rhypot 4 EToV Vert tol f k p p = true).
  { intros f' k' p Hf' Hk'. unfold matches. destruct (quad_len f' k' Hf' Hk') as (-> & Hp). cbn [flt fmul exact]. unfold Rltb. destruct (Rlt_dec _ _) as [|Hx]; [reflexivity|]. exfalso. apply Hx.
    unfold distance, rhypot. cbn [fsub exact]. replace ((fst p - fst p) * (fst p - fst p) + (snd p - snd p) * (snd p - snd p)) with 0 by ring. rewrite sqrt_0. apply Rmult_lt_0_compat; assumption. }
  assert (Hu : forall i j, (i <= N)%nat -> (j <= N)%nat -> matches (exact G) rhypot 4 EToV Vert tol f k (lerp (P k f) (P k ((f + 1) mod 4)) (nth i g 0)) (lerp (P k f) (P k ((f + 1) mod 4)) (nth j g 0)) = true -> j = i).
  { intros i j Hi Hj. unfold matches. destruct (quad_len f k Hf Hk) as (-> & Hp). rewrite lerp_dist. cbn [flt fmul exact]. unfold Rltb. destruct (Rlt_dec _ _) as [Hx|]; [|discriminate]. intros _.
    destruct (Nat.eq_dec j i) as [|Hne]; [assumption|]. exfalso. specialize (Hsep j i Hj Hi Hne). assert (Rabs (nth j g 0 - nth i g 0) / 2 < tol). { apply Rmult_lt_reg_r with (side_length (P k f) (P k ((f + 1) mod 4))); [exact Hp|]. lra. } lra. }
  destruct Hc as [(-> & -> & _)|(Hne & _ & C1 & C2)].
  - exists n. rewrite Nat.eqb_refl. split; [exact Hn|]. split; [reflexivity|]. split; [reflexivity|]. split; [auto|]. split; [auto|]. intros j Hj. rewrite !Hpt by auto. intro Hx. apply Hu in Hx; [|apply spos_le; auto|apply spos_le; auto].
    rewrite <- (spos_inv f n Hn), <- Hx, spos_inv by auto. reflexivity.
  - exists (spos f2 (N - spos f n)). destruct (Nat.eqb_spec k2 k) as [|_]; [contradiction|]. pose proof (spos_le f n Hn) as Hs.
    assert (Hq : face_point Fm (e_x el) (e_y el) (spos f2 (N - spos f n)) f2 k2 = face_point Fm (e_x el) (e_y el) n f k).
    { rewrite !Hpt by (auto; apply spos_le; lia). rewrite spos_inv by lia. rewrite C1, C2, Hsym by exact Hs. symmetry. apply lerp_flip. }
    split; [apply spos_le; lia|]. split; [exact Hq|]. split; [reflexivity|]. rewrite Hq. split; [auto|]. split; [auto|].
    intros j Hj. rewrite !Hpt by auto. rewrite C1, C2. pose proof (spos_le f2 j Hj) as Hs2.
    assert (F : lerp (P k ((f + 1) mod 4)) (P k f) (nth (spos f2 j) g 0) = lerp (P k f) (P k ((f + 1) mod 4)) (nth (N - spos f2 j) g 0)).
    { rewrite Hsym by exact Hs2. apply lerp_flip. }
    rewrite F. intro Hx. apply Hu in Hx; [|exact Hs|lia]. assert (Hj2 : spos f2 j = (N - spos f n)%nat) by lia.
    rewrite <- Hj2. symmetry. apply spos_inv. exact Hj.
Qed.
End QuadMaps.
