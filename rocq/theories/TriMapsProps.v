(* TriMapsProps.v - C38 for the triangle provisioner as it is constructed: the trace maps of a grid built on any conforming,
   consistently oriented mesh connect exactly coincident nodes, pairwise, and leave only the nodes of unshared faces. *)
From Coq Require Import ZArith List Lia.
From Verif Require Import Base Loops Num DenseModel MeshSpec MeshGeoProofs TriModel TriGeoSpec TriSetup TriProps Maps2DModel Maps2DSpec Maps2DProofs Maps2DProps TriMapsProofs.
From Coq Require Import Reals Lra.
Import ListNotations.
Local Open Scope R_scope.

(* Coordinates of volume node v. *)
Definition node_point (Np : nat) (x y : mat R) (v : nat) : R * R := (ment x (v mod Np) (v / Np), ment y (v mod Np) (v / Np)).

(* Hypotheses on the mesh: E2E and E2F are connectivity tables (as produced by the mesh manager, C20) of the triangles EToV,
   which are traversed consistently and are not degenerate. *)
Record tri_mesh (K : nat) (Vert : list R) (EToV E2E E2F : list nat) : Prop := {
  tm_e2e : length E2E = (3 * K)%nat;
  tm_e2f : length E2F = (3 * K)%nat;
  tm_links : forall g, (g < 3 * K)%nat -> exists h, links 3 E2E E2F g h /\ neighbour 3 (map Z.of_nat EToV) g h;
  tm_oriented : oriented 3 (map Z.of_nat EToV);
  tm_area : forall k, (k < K)%nat -> area (TriGeoSpec.corner Vert EToV k 0) (TriGeoSpec.corner Vert EToV k 1) (TriGeoSpec.corner Vert EToV k 2) <> 0 }.

Theorem C38_triangle_provisioner G solve inverse junk eps eig tol N K Vert EToV el E2E E2F sort junk1 junkn bcType bc0 m :
  built G solve inverse junk eps eig tol N K Vert EToV el ->
  tri_mesh K Vert EToV E2E E2F ->
  (forall n n', (n <= N)%nat -> (n' <= N)%nat -> n <> n' ->
     2 * tol <= Rabs (nth (ment (mask_table N (e_masks el)) n 0) (e_r el) 0 - nth (ment (mask_table N (e_masks el)) n' 0) (e_r el) 0)) ->
  buildMaps (exact G) rhypot sort junk1 junkn tol 3 (S N) (length (e_r el)) K (mask_table N (e_masks el)) (e_x el) (e_y el) E2E E2F EToV Vert bcType bc0 = Ok m ->
  forall i, (i < K * 3 * S N)%nat -> exists j v w,
    entry (m_mapP m) i j /\ entry (m_mapP m) j i /\
    entry (m_vmapM m) i v /\ entry (m_vmapP m) i w /\ entry (m_vmapM m) j w /\
    node_point (length (e_r el)) (e_x el) (e_y el) v = node_point (length (e_r el)) (e_x el) (e_y el) w /\
    (j = i <-> forall h, ~ shares 3 (map Z.of_nat EToV) (i / S N) h) /\
    (In i (m_mapB m) <-> forall h, ~ shares 3 (map Z.of_nat EToV) (i / S N) h).
Proof.
  intros HB [LE LF HN HO HA] HS Hrun i Hi.
  pose proof (tri_tables _ _ _ _ _ _ _ _ _ _ _ _ HB _ _ LE LF HN) as HT.
  pose proof (tri_paired _ _ _ _ _ _ _ _ _ _ _ _ HB _ _ LE LF HN HO HA) as HP.
  pose proof (tri_match _ _ _ _ _ _ _ _ _ _ _ _ HB _ _ LE LF HN HO HA HS) as HM.
  pose proof (tri_neighbour_corners _ _ _ _ _ _ _ _ _ _ _ _ HB _ _ LE LF HN HO HA) as HC.
  set (Fm := mask_table N (e_masks el)) in *.
  assert (Hself : forall n f k, (n < S N)%nat -> (f < 3)%nat -> (k < K)%nat -> matches (exact G) rhypot 3 EToV Vert tol f k (face_point Fm (e_x el) (e_y el) n f k) (face_point Fm (e_x el) (e_y el) n f k) = true).
  { intros n f k Hn Hf Hk. destruct (HN (3 * k + f)%nat ltac:(lia)) as (h & (L1 & L2) & _).
    destruct (HM n f k _ _ ltac:(lia) Hf Hk L1 L2) as (q & _ & Eq & _ & M & _). rewrite Eq in M. exact M. }
  edestruct (C38_involution (exact G) rhypot sort junk1 junkn tol 3 (S N) (length (e_r el)) K Fm (e_x el) (e_y el) E2E E2F EToV Vert bcType bc0 m HT Hrun HP) as (j & J1 & J2 & J3 & J4 & J5 & J6); [|exact Hself|exact Hi|].
  { intros n f k k2 f2 Hn Hf Hk A1 A2. destruct (HM n f k k2 f2 ltac:(lia) Hf Hk A1 A2) as (q & Q1 & Q2 & _ & Q3 & Q4 & Q5). exists q. split; [lia|]. split; [exact Q3|]. split; [exact Q4|]. intros a Ha. apply Q5. lia. }
  pose proof (C38_trace_maps (exact G) rhypot sort junk1 junkn tol 3 (S N) (length (e_r el)) K Fm (e_x el) (e_y el) E2E E2F EToV Vert bcType bc0 m HT Hrun) as (_ & _ & _ & Ht).
  set (n := (i mod S N)%nat). set (g := (i / S N)%nat). set (f := (g mod 3)%nat). set (k := (g / 3)%nat).
  assert (Hn : (n < S N)%nat) by (apply Nat.mod_upper_bound; lia). assert (Hf : (f < 3)%nat) by (apply Nat.mod_upper_bound; lia).
  assert (Hg : (g < 3 * K)%nat) by (apply Nat.div_lt_upper_bound; lia). assert (Hk : (k < K)%nat) by (apply Nat.div_lt_upper_bound; lia).
  assert (Eg : g = (3 * k + f)%nat) by (apply Nat.div_mod; lia).
  assert (Ei : i = face_id 3 (S N) n f k). { pose proof (Nat.div_mod i (S N) ltac:(lia)) as D. fold g n in D. unfold face_id. nia. }
  destruct (HN g Hg) as (h & (L1 & L2) & Nb). rewrite Eg in L1, L2.
  destruct (Ht n f k _ _ Hn Hf Hk L1 L2) as (V1 & [(q & Q1 & Q2 & _ & V2 & V3)|(No & _)]).
  2:{ destruct (HM n f k _ _ ltac:(lia) Hf Hk L1 L2) as (q & Q1 & _ & _ & M & _). rewrite No in M by lia. discriminate. }
  destruct (HM n f k _ _ ltac:(lia) Hf Hk L1 L2) as (q' & Q1' & Eq & _ & _ & _ & Hu). assert (q = q') by (apply Hu; [lia|exact Q2]). subst q'.
  rewrite <- Ei in V1, V2. exists j, (volume_id (length (e_r el)) (ment Fm n f) k), (volume_id (length (e_r el)) (ment Fm q (h mod 3)) (h / 3)).
  split; [exact J1|]. split; [exact J3|]. split; [exact V1|]. split; [exact V2|]. split; [apply J4; exact V2|].
  destruct (HC f k _ _ Hf Hk L1 L2) as (B1 & B2 & Hb). split.
  - destruct HT as [_ (_ & _ & F3) _ _ _ _ _]. unfold node_point, volume_id. pose proof (F3 n f Hn Hf) as X1. pose proof (F3 q (h mod 3)%nat Q1 B1) as X2.
    rewrite !(Nat.mul_comm (length (e_r el))), !Nat.mod_add, !Nat.div_add by lia. rewrite !Nat.mod_small, !Nat.div_small by lia. cbn [Nat.add]. symmetry. exact Eq.
  - assert (X : j = i <-> (forall h0, ~ shares 3 (map Z.of_nat EToV) g h0)).
    { rewrite J5. fold g. fold k. rewrite Eg at 1. unfold entry. rewrite L1. destruct Hb as [(E1 & _ & Hns)|(E1 & Hsh & _)].
      - rewrite E1, Eg. split; auto.
      - split; [intro X; exfalso; apply E1; congruence|]. intro X. exfalso. eapply X. rewrite Eg. exact Hsh. }
    split; [exact X|]. rewrite J6. exact X.
Qed.

(* A concrete case: the unit square cut along a diagonal, order 1. *)
From Verif Require Import BlitzSpec UniqueProofs Nodes1DExactProofs JacobiExactProofs JacobiProps TriWitness.
Lemma Rltb_strict_weak : strict_weak Rltb.
Proof.
  apply mk_strict_weak; unfold Rltb.
  - intros a b. destruct (Rlt_dec a b), (Rlt_dec b a); auto; lra.
  - intros a b c. destruct (Rlt_dec a b), (Rlt_dec b c), (Rlt_dec a c); auto; lra.
Qed.
Lemma tri_grid_witness bcType : (6 <= length bcType)%nat ->
  let Vert := [0; 0; 0;  1; 0; 0;  1; 1; 0;  0; 1; 0] in let EToV := [0; 1; 2;  0; 2; 3]%nat in
  let E2E := [0; 0; 1;  0; 1; 1]%nat in let E2F := [0; 1; 0;  2; 1; 2]%nat in
  tri_mesh 2 Vert EToV E2E E2F /\
  (forall g h, shares 3 (map Z.of_nat EToV) g h <-> (g = 2 /\ h = 3 \/ g = 3 /\ h = 2)%nat) /\
  exists el m, built gwit cramer cramer_inv junk0 0 eig0 (1 / 10) 1 2 Vert EToV el /\
  (forall n n', (n <= 1)%nat -> (n' <= 1)%nat -> n <> n' ->
     2 * (1 / 10) <= Rabs (nth (ment (mask_table 1 (e_masks el)) n 0) (e_r el) 0 - nth (ment (mask_table 1 (e_masks el)) n' 0) (e_r el) 0)) /\
  buildMaps (exact gwit) rhypot isort (fun _ => 0) (fun _ => 0%nat) (1 / 10) 3 2 (length (e_r el)) 2 (mask_table 1 (e_masks el)) (e_x el) (e_y el) E2E E2F EToV Vert bcType [] = Ok m.
Proof.
  intros Hbc Vert EToV E2E E2F.
  assert (Hf : forall g a b, face 3 (map Z.of_nat EToV) g a b -> In (g, a, b) [(0%nat, 0, 1); (1%nat, 1, 2); (2%nat, 2, 0); (3%nat, 0, 2); (4%nat, 2, 3); (5%nat, 3, 0)]%Z).
  { intros g a b (A & B). destruct g as [|[|[|[|[|[|g]]]]]]; try (cbn in A, B; injection A as <-; injection B as <-; cbn; tauto). cbn in A. destruct g; discriminate. }
  assert (Hf' : forall g a b, In (g, a, b) [(0%nat, 0, 1); (1%nat, 1, 2); (2%nat, 2, 0); (3%nat, 0, 2); (4%nat, 2, 3); (5%nat, 3, 0)]%Z -> face 3 (map Z.of_nat EToV) g a b).
  { intros g a b H. cbn in H. repeat (destruct H as [[= <- <- <-]|H]; [split; reflexivity|]). destruct H. }
  assert (Hs : forall g h, shares 3 (map Z.of_nat EToV) g h -> (g = 2 /\ h = 3 \/ g = 3 /\ h = 2)%nat).
  { intros g h (Ne & a & b & c & d & F1 & F2 & P); apply Hf in F1, F2; cbn in F1, F2; unfold same_pair in P;
    repeat match goal with H : _ \/ _ |- _ => destruct H | H : (_, _, _) = _ |- _ => injection H; clear H; intros | H : False |- _ => destruct H end; lia. }
  assert (S23 : shares 3 (map Z.of_nat EToV) 2 3).
  { split; [lia|]. exists 2%Z, 0%Z, 0%Z, 2%Z. split; [apply Hf'; cbn; tauto|]. split; [apply Hf'; cbn; tauto|]. right. auto. }
  assert (HT : tri_mesh 2 Vert EToV E2E E2F).
  { constructor; [reflexivity|reflexivity| | |].
    - intros g Hg. destruct g as [|[|[|[|[|[|g]]]]]]; [exists 0%nat|exists 1%nat|exists 3%nat|exists 2%nat|exists 4%nat|exists 5%nat|lia]; (split; [split; reflexivity|]).
      1,2,5,6: left; split; [reflexivity|]; intros h Hh; apply Hs in Hh; lia.
      + right. split; [exact S23|]. intros h Hh. apply Hs in Hh. lia.
      + right. split; [apply shares_sym; exact S23|]. intros h Hh. apply Hs in Hh. lia.
    - intros g h a b F1 F2. apply Hf in F1, F2. cbn in F1, F2.
      repeat match goal with H : _ \/ _ |- _ => destruct H | H : (_, _, _) = _ |- _ => injection H; clear H; intros | H : False |- _ => destruct H end; lia.
    - intros k Hk. destruct k as [|[|]]; [| |lia]; unfold area, TriGeoSpec.corner, TriGeoSpec.cross, pminus; cbn; lra. }
  split; [exact HT|]. split; [intros g h; split; [apply Hs|intros [(-> & ->)|(-> & ->)]; [exact S23|apply shares_sym; exact S23]]|]. destruct tri_witness as (el & HB). fold Vert EToV in HB. exists el.
  destruct HT as [LE LF HN HO HA].
  pose proof (tri_tables _ _ _ _ _ _ _ _ _ _ _ _ HB _ _ LE LF HN) as HTb.
  destruct (C67_edge_nodes _ _ _ _ _ _ _ _ _ _ _ _ HB) as (Len & _ & g & _ & g0 & gN & _ & _ & _ & _ & Hm).
  edestruct (C38_defined (exact gwit) rhypot isort (fun _ => 0) (fun _ => 0%nat) (1 / 10) 3 2 (length (e_r el)) 2 (mask_table 1 (e_masks el)) (e_x el) (e_y el) E2E E2F EToV Vert bcType []) as (m & Em).
  - exact Rltb_strict_weak.
  - exact isort_is_sort.
  - cbn. unfold Rltb. destruct (Rlt_dec _ _) as [|Hx]; [reflexivity|]. exfalso. apply Hx. lra.
  - lia.
  - lia.
  - exact HTb.
  - exists m. split; [exact HB|]. split; [|exact Em].
    destruct (Hm 0%nat ltac:(lia)) as (mask & Ek & _ & _ & Hq). cbn [ment mask_table]. rewrite (nth_error_nth _ _ [] Ek).
    pose proof (Hq 0%nat ltac:(lia)) as Q0. pose proof (Hq 1%nat ltac:(lia)) as Q1. cbn zeta in Q0, Q1. injection Q0 as Q0 _. injection Q1 as Q1 _. rewrite g0 in Q0. rewrite gN in Q1.
    intros n n' Hn Hn' Hne. destruct n as [|[|]], n' as [|[|]]; try lia; rewrite Q0, Q1; unfold Rabs; destruct (Rcase_abs _); lra.
Qed.
Example C38_triangle_witness :
  let Vert := [0; 0; 0;  1; 0; 0;  1; 1; 0;  0; 1; 0] in let EToV := [0; 1; 2;  0; 2; 3]%nat in
  let E2E := [0; 0; 1;  0; 1; 1]%nat in let E2F := [0; 1; 0;  2; 1; 2]%nat in
  tri_mesh 2 Vert EToV E2E E2F /\
  exists el m, built gwit cramer cramer_inv junk0 0 eig0 (1 / 10) 1 2 Vert EToV el /\
  (forall n n', (n <= 1)%nat -> (n' <= 1)%nat -> n <> n' ->
     2 * (1 / 10) <= Rabs (nth (ment (mask_table 1 (e_masks el)) n 0) (e_r el) 0 - nth (ment (mask_table 1 (e_masks el)) n' 0) (e_r el) 0)) /\
  buildMaps (exact gwit) rhypot isort (fun _ => 0) (fun _ => 0%nat) (1 / 10) 3 2 (length (e_r el)) 2 (mask_table 1 (e_masks el)) (e_x el) (e_y el) E2E E2F EToV Vert [3; 3; 0; 0; 3; 3]%Z [] = Ok m.
Proof. destruct (tri_grid_witness [3; 3; 0; 0; 3; 3]%Z (le_n 6)) as (A & _ & B). exact (conj A B). Qed.
Print Assumptions C38_triangle_provisioner.
