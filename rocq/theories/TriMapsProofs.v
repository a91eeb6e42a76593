(* TriMapsProofs.v - the trace maps of a constructed triangle provisioner. *)
From Coq Require Import ZArith List Lia Bool.
From Verif Require Import Base Loops Num JacobiModel JacobiSpec DenseSpec Nodes1DSpec TriModel TriSpec TriGeoSpec TriSetup TriElemProofs TriProps MeshSpec MeshProofs FoldProofs Maps2DModel Maps2DSpec Maps2DProofs Maps2DProps.
From Coq Require Import Reals Lra.
Import ListNotations.
Local Open Scope R_scope.

Definition rhypot (a b : R) : R := sqrt (a * a + b * b).
Definition mask_table (N : nat) (masks : list (list nat)) : mat nat := mkmat (S N) 3 (fun n f => nth n (nth f masks []) 0%nat).
Definition lerp (p q : point) (t : R) : point := (fst p + (1 + t) / 2 * (fst q - fst p), snd p + (1 + t) / 2 * (snd q - snd p)).
Lemma lerp_flip p q t : lerp p q t = lerp q p (- t).
Proof. unfold lerp. f_equal; field. Qed.
Lemma lerp_dist G p q a b : distance (exact G) rhypot (lerp p q a) (lerp p q b) = Rabs (b - a) / 2 * side_length p q.
Proof.
  unfold distance, rhypot, lerp, side_length, dot, pminus. cbn [fst snd fsub exact].
  replace ((fst p + (1 + b) / 2 * (fst q - fst p) - (fst p + (1 + a) / 2 * (fst q - fst p))) * (fst p + (1 + b) / 2 * (fst q - fst p) - (fst p + (1 + a) / 2 * (fst q - fst p))) +
    (snd p + (1 + b) / 2 * (snd q - snd p) - (snd p + (1 + a) / 2 * (snd q - snd p))) * (snd p + (1 + b) / 2 * (snd q - snd p) - (snd p + (1 + a) / 2 * (snd q - snd p))))
    with (Rsqr ((b - a) / 2) * ((fst q - fst p) * (fst q - fst p) + (snd q - snd p) * (snd q - snd p))) by (unfold Rsqr; field).
  rewrite sqrt_mult; [|apply Rle_0_sqr|]. 
  - rewrite sqrt_Rsqr_abs. unfold Rdiv. rewrite Rabs_mult, (Rabs_right (/ 2)) by lra. reflexivity.
  - pose proof (Rle_0_sqr (fst q - fst p)). pose proof (Rle_0_sqr (snd q - snd p)). unfold Rsqr in *. lra.
Qed.
Lemma side_pos p q : p <> q -> 0 < side_length p q.
Proof.
  intro Hn. unfold side_length, dot, pminus. cbn [fst snd]. apply sqrt_lt_R0.
  pose proof (Rle_0_sqr (fst q - fst p)) as H1. pose proof (Rle_0_sqr (snd q - snd p)) as H2. unfold Rsqr in *.
  destruct (Req_dec (fst q) (fst p)) as [E1|E1].
  - destruct (Req_dec (snd q) (snd p)) as [E2|E2]; [exfalso; apply Hn; destruct p, q; cbn in *; congruence|].
    assert (0 < (snd q - snd p) * (snd q - snd p)) by (apply Rsqr_pos_lt; lra). lra.
  - assert (0 < (fst q - fst p) * (fst q - fst p)) by (apply Rsqr_pos_lt; lra). lra.
Qed.
Lemma area_sides a b c : area a b c <> 0 -> a <> b /\ b <> c /\ c <> a.
Proof.
  intro H. repeat split; intros ->; apply H; unfold area, TriGeoSpec.cross, pminus; cbn [fst snd]; field.
Qed.
From Verif Require Import MeshGeoProofs.
From Verif Require MeshProps.

Section TriMaps.
Variables (G : R -> R) (solve : mat R -> mat R -> mat R -> outcome (mat R)) (inverse : mat R -> mat R -> outcome (mat R))
  (junk : nat -> nat -> R) (eps : R) (eig : nat -> (nat -> nat -> R) -> list R * (nat -> nat -> R)) (tol : R)
  (N K : nat) (Vert : list R) (EToV : list nat) (el : element (T := R)).
Hypothesis HB : built G solve inverse junk eps eig tol N K Vert EToV el.
Variables (E2E E2F : list nat).
Local Notation r := (e_r el).
Local Notation P := (TriGeoSpec.corner Vert EToV).
Local Notation EV := (map Z.of_nat EToV).
Hypothesis LE : length E2E = (3 * K)%nat.
Hypothesis LF : length E2F = (3 * K)%nat.
Hypothesis HN : forall g, (g < 3 * K)%nat -> exists h, links 3 E2E E2F g h /\ neighbour 3 EV g h.
Hypothesis HO : oriented 3 EV.
Hypothesis HA : forall k, (k < K)%nat -> area (P k 0) (P k 1) (P k 2) <> 0.
Local Notation Fm := (mask_table N (e_masks el)).
Hypothesis HS : forall n n', (n <= N)%nat -> (n' <= N)%nat -> n <> n' -> 2 * tol <= Rabs (nth (ment Fm n 0) r 0 - nth (ment Fm n' 0) r 0).

Lemma mesh_len : length EV = (K * 3)%nat.
Proof. destruct HB. destruct b_mesh as (L & _). rewrite map_length. lia. Qed.
Lemma nbr_bound g h : (g < 3 * K)%nat -> neighbour 3 EV g h -> (h < 3 * K)%nat.
Proof. intros Hg [(-> & _)|(Sh & _)]; auto. eapply shares_lt in Sh; [|apply mesh_len]. lia. Qed.
Lemma div3 g : (g < 3 * K)%nat -> (g / 3 < K)%nat /\ (g mod 3 < 3)%nat.
Proof. intro H. split; [apply Nat.div_lt_upper_bound; lia|apply Nat.mod_upper_bound; lia]. Qed.

Lemma tri_tables : tables_ok 3 (S N) (length r) K Fm (e_x el) (e_y el) E2E E2F EToV Vert.
Proof.
  destruct (C36_affine_grid _ _ _ _ _ _ _ _ _ _ _ _ HB) as ((X1 & X2) & (Y1 & Y2) & _).
  destruct (C67_edge_nodes _ _ _ _ _ _ _ _ _ _ _ _ HB) as (_ & _ & g & _ & _ & _ & _ & _ & _ & _ & Hm).
  destruct HB. destruct b_mesh as (Lm & Hv). constructor; try lia; auto.
  - split; [reflexivity|]. split; [reflexivity|]. intros n f Hn Hf. cbn [ment mask_table]. destruct (Hm f Hf) as (mask & Em & Lmask & Hin & _). rewrite (nth_error_nth _ _ [] Em). apply Hin. apply nth_In. lia.
  - split; [exact LE|]. intros k Hk. apply In_nth_error in Hk as (g' & Hg). assert (g' < 3 * K)%nat by (rewrite <- LE; apply nth_error_Some; congruence).
    destruct (HN g' H) as (h & (L1 & _) & Nb). rewrite L1 in Hg. injection Hg as <-. apply div3. eapply nbr_bound; eauto.
  - split; [exact LF|]. intros f Hf. apply In_nth_error in Hf as (g' & Hg). assert (g' < 3 * K)%nat by (rewrite <- LF; apply nth_error_Some; congruence).
    destruct (HN g' H) as (h & (_ & L2) & Nb). rewrite L2 in Hg. injection Hg as <-. apply div3. eapply nbr_bound; eauto.
  - split; [exact Lm|]. intros v Hin. specialize (Hv v Hin). lia.
Qed.

Lemma corner_nth k f v : entry EV (3 * k + f) v -> P k f = mesh_vertex (exact G) Vert (Z.to_nat v) /\ nth (k * 3 + f) EToV 0%nat = Z.to_nat v.
Proof.
  unfold entry. rewrite nth_error_map. destruct (nth_error EToV (3 * k + f)) as [w|] eqn:Ew; [|discriminate]. cbn. intros [= <-]. rewrite Nat2Z.id.
  replace (k * 3 + f)%nat with (3 * k + f)%nat by lia.
  unfold TriGeoSpec.corner, mesh_vertex. rewrite (nth_error_nth _ _ 0%nat Ew). split; reflexivity.
Qed.

Lemma tri_distinct : distinct_verts 3 EV.
Proof.
  intros k i j v Hi Hj A B. assert (Hk : (k < K)%nat). { assert (A1 : (k * 3 + i < length EV)%nat) by (apply nth_error_Some; unfold entry in A; congruence). rewrite mesh_len in A1. lia. }
  destruct (area_sides _ _ _ (HA k Hk)) as (N1 & N2 & N3). replace (k * 3 + i)%nat with (3 * k + i)%nat in A by lia. replace (k * 3 + j)%nat with (3 * k + j)%nat in B by lia.
  apply corner_nth in A as (A & _). apply corner_nth in B as (B & _). rewrite <- B in A. destruct i as [|[|[|]]], j as [|[|[|]]]; try lia; congruence.
Qed.

Lemma tri_paired : paired 3 K E2E E2F.
Proof.

  assert (HC : conforming 3 EV) by (apply MeshProps.C21_oriented_conforming; exact HO).
  split.
  - intros g Hg. destruct (HN g Hg) as (h & L1 & Nb). pose proof (nbr_bound g h Hg Nb) as Hh. exists h. split; [exact Hh|]. split; [exact L1|].
    destruct (HN h Hh) as (g' & L2 & Nb'). apply (neighbour_sym _ _ _ _ HC) in Nb. rewrite (neighbour_fun _ _ _ _ _ Nb Nb'). exact L2.
  - intros g h Lk Eq. assert (Hg : (g < 3 * K)%nat) by (destruct Lk as (Lk & _); rewrite <- LE; apply nth_error_Some; congruence).
    destruct (HN g Hg) as (h' & L1 & Nb). assert (E : h = h') by (apply (links_inj 3 E2E E2F g h h'); auto; lia). rewrite E in *. destruct Nb as [(-> & _)|(Sh & _)]; [reflexivity|].
    exfalso. apply (same_element_not_shared 3 EV g h' ltac:(lia) tri_distinct Sh). symmetry. exact Eq.
Qed.

(* position along the side from corner f to corner f+1 *)
Definition spos (f n : nat) : nat := if (f =? 2)%nat then (N - n)%nat else n.
Lemma spos_le f n : (n <= N)%nat -> (spos f n <= N)%nat.
Proof. unfold spos. destruct (f =? 2)%nat; lia. Qed.
Lemma spos_inv f n : (n <= N)%nat -> spos f (spos f n) = n.
Proof. unfold spos. destruct (f =? 2)%nat; lia. Qed.

Lemma tri_points : exists g, (forall i, (i <= N)%nat -> nth (N - i) g 0 = - nth i g 0) /\
  (forall i j, (i <= N)%nat -> (j <= N)%nat -> i <> j -> 2 * tol <= Rabs (nth i g 0 - nth j g 0)) /\
  forall n f k, (n <= N)%nat -> (f < 3)%nat -> (k < K)%nat ->
    face_point Fm (e_x el) (e_y el) n f k = lerp (P k f) (P k ((f + 1) mod 3)) (nth (spos f n) g 0).
Proof.
  destruct (C36_affine_grid _ _ _ _ _ _ _ _ _ _ _ _ HB) as (_ & _ & Hxy).
  destruct (C67_edge_nodes _ _ _ _ _ _ _ _ _ _ _ _ HB) as (_ & _ & g & _ & _ & _ & _ & _ & Hsym & _ & Hm).
  exists g. split; [exact Hsym|]. split.
  - intros i j Hi Hj Hne. pose proof (HS i j Hi Hj Hne) as HS0. destruct (Hm 0%nat ltac:(lia)) as (mask & Em & _ & _ & Hq).
    cbn [ment mask_table] in HS0. rewrite (nth_error_nth _ _ [] Em) in HS0. pose proof (Hq i Hi) as Qi. pose proof (Hq j Hj) as Qj. cbn zeta in Qi, Qj. injection Qi as Qi _. injection Qj as Qj _. rewrite Qi, Qj in HS0. exact HS0.
  - intros n f k Hn Hf Hk. destruct (Hm f Hf) as (mask & Em & Lmask & Hin & Hq). unfold face_point. cbn [ment mask_table]. rewrite (nth_error_nth _ _ [] Em).
    assert (Hl : (nth n mask 0 < length r)%nat) by (apply Hin, nth_In; lia). destruct (Hxy (nth n mask 0%nat) k Hl Hk) as (-> & _).
    specialize (Hq n Hn). cbn zeta in Hq. unfold lerp, affine_image, spos.
    destruct f as [|[|[|]]]; [| | |lia]; injection Hq as -> ->; cbn [Nat.eqb Nat.modulo Nat.divmod Nat.add fst snd Nat.sub].
    + f_equal; field.
    + f_equal; field.
    + rewrite Hsym by exact Hn. f_equal; field.
Qed.

Lemma tri_len f k : (f < 3)%nat -> (k < K)%nat -> face_len (exact G) rhypot 3 EToV Vert f k = side_length (P k f) (P k ((f + 1) mod 3)) /\ 0 < side_length (P k f) (P k ((f + 1) mod 3)).
Proof.
  intros Hf Hk. assert (H1 : (3 * k + f < length EV)%nat) by (rewrite mesh_len; lia). assert (H2 : (3 * k + (f + 1) mod 3 < length EV)%nat) by (rewrite mesh_len; pose proof (Nat.mod_upper_bound (f + 1) 3); lia).
  apply nth_error_Some in H1, H2. unfold face_len.
  destruct (nth_error EV (3 * k + f)) as [a|] eqn:Ea; [|congruence]. destruct (nth_error EV (3 * k + (f + 1) mod 3)) as [b|] eqn:Eb; [|congruence].
  apply corner_nth in Ea as (Ea & Ea'). apply corner_nth in Eb as (Eb & Eb'). rewrite Ea', Eb', <- Ea, <- Eb. split.
  - unfold distance, rhypot, side_length, dot, pminus. cbn [fst snd fsub exact]. f_equal. ring.
  - apply side_pos. destruct (area_sides _ _ _ (HA k Hk)) as (N1 & N2 & N3). destruct f as [|[|[|]]]; try lia; cbn; auto.
Qed.

Lemma tri_neighbour_corners f k k2 f2 : (f < 3)%nat -> (k < K)%nat -> entry E2E (3 * k + f) k2 -> entry E2F (3 * k + f) f2 ->
  (f2 < 3)%nat /\ (k2 < K)%nat /\
  ((k2 = k /\ f2 = f /\ forall h, ~ shares 3 EV (3 * k + f) h) \/
   (k2 <> k /\ shares 3 EV (3 * k + f) (3 * k2 + f2) /\ P k2 f2 = P k ((f + 1) mod 3) /\ P k2 ((f2 + 1) mod 3) = P k f)).
Proof.
  intros Hf Hk He2 Hf2. set (g := (3 * k + f)%nat) in *. assert (Hg : (g < 3 * K)%nat) by lia. destruct (HN g Hg) as (h & (L1 & L2) & Nb).
  unfold entry in *. rewrite L1 in He2. rewrite L2 in Hf2.
  assert (X1 : k2 = (h / 3)%nat) by congruence. assert (X2 : f2 = (h mod 3)%nat) by congruence. subst k2 f2. clear He2 Hf2. pose proof (nbr_bound g h Hg Nb) as Hh. destruct (div3 h Hh) as (B1 & B2). split; [exact B2|]. split; [exact B1|].
  assert (Eg : (g / 3 = k)%nat /\ (g mod 3 = f)%nat). { unfold g. replace (3 * k + f)%nat with (f + k * 3)%nat by lia. rewrite Nat.div_add, Nat.mod_add by lia. rewrite Nat.div_small, Nat.mod_small by lia. lia. }
  assert (Eh : (3 * (h / 3) + h mod 3)%nat = h) by (symmetry; apply Nat.div_mod; lia).
  destruct Nb as [(Ehg & Nb)|(Sh & _)].
  - left. rewrite Ehg. destruct Eg as (Eg1 & Eg2). auto.
  - right. split; [intro Eq; apply (same_element_not_shared 3 EV g h ltac:(lia) tri_distinct Sh); destruct Eg as (Eg1 & _); rewrite Eg1; symmetry; exact Eq|]. rewrite Eh. split; [exact Sh|].
    assert (Hfe : exists a b, face 3 EV g a b).
    { destruct Sh as (_ & a & b & _ & _ & Fa & _). eauto. }
    destruct Hfe as (a & b & Fg). pose proof (oriented_opposite 3 EV g h a b HO Sh Fg) as Fh. destruct Fg as (Fa & Fb), Fh as (Fc & Fd). destruct Eg as (Eg1 & Eg2). rewrite Eg1, Eg2 in Fb.
    assert (C1 : P k f = mesh_vertex (exact G) Vert (Z.to_nat a)) by (apply corner_nth; exact Fa).
    assert (C2 : P k ((f + 1) mod 3) = mesh_vertex (exact G) Vert (Z.to_nat b)) by (apply corner_nth; unfold entry; rewrite <- Fb; f_equal; lia).
    assert (C3 : P (h / 3) (h mod 3) = mesh_vertex (exact G) Vert (Z.to_nat b)) by (apply corner_nth; unfold entry; rewrite Eh; exact Fc).
    assert (C4 : P (h / 3) ((h mod 3 + 1) mod 3) = mesh_vertex (exact G) Vert (Z.to_nat a)) by (apply corner_nth; unfold entry; rewrite <- Fd; f_equal; lia).
    rewrite C1, C2, C3, C4. auto.
Qed.

(* the node of face f2 facing position t of the side, seen from the other element *)
Lemma tri_match n f k k2 f2 : (n <= N)%nat -> (f < 3)%nat -> (k < K)%nat -> entry E2E (3 * k + f) k2 -> entry E2F (3 * k + f) f2 ->
  exists q, (q <= N)%nat /\ face_point Fm (e_x el) (e_y el) q f2 k2 = face_point Fm (e_x el) (e_y el) n f k /\
    q = (if (k2 =? k)%nat then n else spos f2 (N - spos f n)) /\
    matches (exact G) rhypot 3 EToV Vert tol f k (face_point Fm (e_x el) (e_y el) n f k) (face_point Fm (e_x el) (e_y el) q f2 k2) = true /\
    matches (exact G) rhypot 3 EToV Vert tol f2 k2 (face_point Fm (e_x el) (e_y el) q f2 k2) (face_point Fm (e_x el) (e_y el) n f k) = true /\
    forall j, (j <= N)%nat -> matches (exact G) rhypot 3 EToV Vert tol f k (face_point Fm (e_x el) (e_y el) n f k) (face_point Fm (e_x el) (e_y el) j f2 k2) = true -> j = q.
Proof.
  intros Hn Hf Hk He2 Hf2. destruct tri_points as (g & Hsym & Hsep & Hpt). destruct (tri_neighbour_corners f k k2 f2 Hf Hk He2 Hf2) as (B1 & B2 & Hc).
  assert (Htol : 0 < tol) by (destruct HB; auto).
  assert (Hm : forall f k p, (f < 3)%nat -> (k < K)%nat -> matches (exact G) rhypot 3 EToV Vert tol f k p p = true).
  { intros f' k' p Hf' Hk'. unfold matches. destruct (tri_len f' k' Hf' Hk') as (-> & Hp). cbn [flt fmul exact]. unfold Rltb. destruct (Rlt_dec _ _) as [|Hx]; [reflexivity|]. exfalso. apply Hx.
    unfold distance, rhypot. cbn [fsub exact]. replace ((fst p - fst p) * (fst p - fst p) + (snd p - snd p) * (snd p - snd p)) with 0 by ring. rewrite sqrt_0. apply Rmult_lt_0_compat; assumption. }
  assert (Hu : forall i j, (i <= N)%nat -> (j <= N)%nat -> matches (exact G) rhypot 3 EToV Vert tol f k (lerp (P k f) (P k ((f + 1) mod 3)) (nth i g 0)) (lerp (P k f) (P k ((f + 1) mod 3)) (nth j g 0)) = true -> j = i).
  { intros i j Hi Hj. unfold matches. destruct (tri_len f k Hf Hk) as (-> & Hp). rewrite lerp_dist. cbn [flt fmul exact]. unfold Rltb. destruct (Rlt_dec _ _) as [Hx|]; [|discriminate]. intros _.
    destruct (Nat.eq_dec j i) as [|Hne]; [assumption|]. exfalso. specialize (Hsep j i Hj Hi Hne). assert (Rabs (nth j g 0 - nth i g 0) / 2 < tol). { apply Rmult_lt_reg_r with (side_length (P k f) (P k ((f + 1) mod 3))); [exact Hp|]. lra. } lra. }
  destruct Hc as [(-> & -> & _)|(Hne & _ & C1 & C2)].
  - exists n. rewrite Nat.eqb_refl. split; [exact Hn|]. split; [reflexivity|]. split; [reflexivity|]. split; [auto|]. split; [auto|]. intros j Hj. rewrite !Hpt by auto. intro Hx. apply Hu in Hx; [|apply spos_le; auto|apply spos_le; auto].
    rewrite <- (spos_inv f n Hn), <- Hx, spos_inv by auto. reflexivity.
  - exists (spos f2 (N - spos f n)). destruct (Nat.eqb_spec k2 k) as [|_]; [contradiction|]. pose proof (spos_le f n Hn) as Hs.
    assert (Hq : face_point Fm (e_x el) (e_y el) (spos f2 (N - spos f n)) f2 k2 = face_point Fm (e_x el) (e_y el) n f k).
    { rewrite !Hpt by (auto; apply spos_le; lia). rewrite spos_inv by lia. rewrite C1, C2, Hsym by exact Hs. symmetry. apply lerp_flip. }
    split; [apply spos_le; lia|]. split; [exact Hq|]. split; [reflexivity|]. rewrite Hq. split; [auto|]. split; [auto|].
    intros j Hj. rewrite !Hpt by auto. rewrite C1, C2. pose proof (spos_le f2 j Hj) as Hs2.
    assert (F : lerp (P k ((f + 1) mod 3)) (P k f) (nth (spos f2 j) g 0) = lerp (P k f) (P k ((f + 1) mod 3)) (nth (N - spos f2 j) g 0)).
    { rewrite Hsym by exact Hs2. apply lerp_flip. }
    rewrite F. intro Hx. apply Hu in Hx; [|exact Hs|lia]. assert (Hj2 : spos f2 j = (N - spos f n)%nat) by lia.
    rewrite <- Hj2. symmetry. apply spos_inv. exact Hj.
Qed.
End TriMaps.
