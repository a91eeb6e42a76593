(* QuadMapsProps.v - C38 for the quadrilateral provisioner as it is constructed: the trace maps of a grid built on any conforming,
   consistently oriented mesh connect exactly coincident nodes, pairwise, and leave only the nodes of unshared faces. *)
From Coq Require Import ZArith List Lia.
From Verif Require Import Base Loops Num DenseModel MeshSpec MeshGeoProofs TriModel TriGeoSpec QuadModel QuadSpec QuadSetup QuadProps Maps2DModel Maps2DSpec Maps2DProofs Maps2DProps TriMapsProofs TriMapsProps QuadMapsProofs.
From Coq Require Import Reals Lra.
Import ListNotations.
Local Open Scope R_scope.

(* Hypotheses on the mesh: E2E and E2F are connectivity tables (as produced by the mesh manager, C20) of the quadrilaterals EToV,
   which are traversed consistently and have four different corners each. *)
Record quad_mesh (K : nat) (Vert : list R) (EToV E2E E2F : list nat) : Prop := {
  qm_e2e : length E2E = (4 * K)%nat;
  qm_e2f : length E2F = (4 * K)%nat;
  qm_links : forall g, (g < 4 * K)%nat -> exists h, links 4 E2E E2F g h /\ neighbour 4 (map Z.of_nat EToV) g h;
  qm_oriented : oriented 4 (map Z.of_nat EToV);
  qm_corners : forall k, (k < K)%nat -> forall c d, (c < 4)%nat -> (d < 4)%nat -> qcorner Vert EToV k c = qcorner Vert EToV k d -> c = d }.

Theorem C38_quadrilateral_provisioner G solve inverse junk eps eig tol N K Vert EToV el E2E E2F sort junk1 junkn bcType bc0 m :
  qbuilt G solve inverse junk eps eig tol N K Vert EToV el ->
  quad_mesh K Vert EToV E2E E2F ->
  (forall n n', (n <= N)%nat -> (n' <= N)%nat -> n <> n' ->
     2 * tol <= Rabs (nth (ment (qmask_table N (e_masks el)) n 0) (e_r el) 0 - nth (ment (qmask_table N (e_masks el)) n' 0) (e_r el) 0)) ->
  buildMaps (exact G) rhypot sort junk1 junkn tol 4 (S N) ((N + 1) * (N + 1))%nat K (qmask_table N (e_masks el)) (e_x el) (e_y el) E2E E2F EToV Vert bcType bc0 = Ok m ->
  forall i, (i < K * 4 * S N)%nat -> exists j v w,
    entry (m_mapP m) i j /\ entry (m_mapP m) j i /\
    entry (m_vmapM m) i v /\ entry (m_vmapP m) i w /\ entry (m_vmapM m) j w /\
    node_point ((N + 1) * (N + 1))%nat (e_x el) (e_y el) v = node_point ((N + 1) * (N + 1))%nat (e_x el) (e_y el) w /\
    (j = i <-> forall h, ~ shares 4 (map Z.of_nat EToV) (i / S N) h) /\
    (In i (m_mapB m) <-> forall h, ~ shares 4 (map Z.of_nat EToV) (i / S N) h).
Proof.
  intros HB [LE LF HN HO HA] HS Hrun i Hi.
  pose proof (quad_tables _ _ _ _ _ _ _ _ _ _ _ _ HB _ _ LE LF HN) as HT.
  pose proof (quad_paired _ _ _ _ _ _ _ _ _ _ _ _ HB _ _ LE LF HN HO HA) as HP.
  pose proof (quad_match _ _ _ _ _ _ _ _ _ _ _ _ HB _ _ LE LF HN HO HA HS) as HM.
  pose proof (quad_neighbour_corners _ _ _ _ _ _ _ _ _ _ _ _ HB _ _ LE LF HN HO HA) as HC.
  set (Fm := qmask_table N (e_masks el)) in *.
  assert (Hself : forall n f k, (n < S N)%nat -> (f < 4)%nat -> (k < K)%nat -> matches (exact G) rhypot 4 EToV Vert tol f k (face_point Fm (e_x el) (e_y el) n f k) (face_point Fm (e_x el) (e_y el) n f k) = true).
  { intros n f k Hn Hf Hk. destruct (HN (4 * k + f)%nat ltac:(lia)) as (h & (L1 & L2) & _).
    destruct (HM n f k _ _ ltac:(lia) Hf Hk L1 L2) as (q & _ & Eq & _ & M & _). rewrite Eq in M. exact M. }
  edestruct (C38_involution (exact G) rhypot sort junk1 junkn tol 4 (S N) ((N + 1) * (N + 1))%nat K Fm (e_x el) (e_y el) E2E E2F EToV Vert bcType bc0 m HT Hrun HP) as (j & J1 & J2 & J3 & J4 & J5 & J6); [|exact Hself|exact Hi|].
  { intros n f k k2 f2 Hn Hf Hk A1 A2. destruct (HM n f k k2 f2 ltac:(lia) Hf Hk A1 A2) as (q & Q1 & Q2 & _ & Q3 & Q4 & Q5). exists q. split; [lia|]. split; [exact Q3|]. split; [exact Q4|]. intros a Ha. apply Q5. lia. }
  pose proof (C38_trace_maps (exact G) rhypot sort junk1 junkn tol 4 (S N) ((N + 1) * (N + 1))%nat K Fm (e_x el) (e_y el) E2E E2F EToV Vert bcType bc0 m HT Hrun) as (_ & _ & _ & Ht).
  set (n := (i mod S N)%nat). set (g := (i / S N)%nat). set (f := (g mod 4)%nat). set (k := (g / 4)%nat).
  assert (Hn : (n < S N)%nat) by (apply Nat.mod_upper_bound; lia). assert (Hf : (f < 4)%nat) by (apply Nat.mod_upper_bound; lia).
  assert (Hg : (g < 4 * K)%nat) by (apply Nat.div_lt_upper_bound; lia). assert (Hk : (k < K)%nat) by (apply Nat.div_lt_upper_bound; lia).
  assert (Eg : g = (4 * k + f)%nat) by (apply Nat.div_mod; lia).
  assert (Ei : i = face_id 4 (S N) n f k). { pose proof (Nat.div_mod i (S N) ltac:(lia)) as D. fold g n in D. unfold face_id. nia. }
  destruct (HN g Hg) as (h & (L1 & L2) & Nb). rewrite Eg in L1, L2.
  destruct (Ht n f k _ _ Hn Hf Hk L1 L2) as (V1 & [(q & Q1 & Q2 & _ & V2 & V3)|(No & _)]).
  2:{ destruct (HM n f k _ _ ltac:(lia) Hf Hk L1 L2) as (q & Q1 & _ & _ & M & _). rewrite No in M by lia. discriminate. }
  destruct (HM n f k _ _ ltac:(lia) Hf Hk L1 L2) as (q' & Q1' & Eq & _ & _ & _ & Hu). assert (q = q') by (apply Hu; [lia|exact Q2]). subst q'.
  rewrite <- Ei in V1, V2. exists j, (volume_id ((N + 1) * (N + 1))%nat (ment Fm n f) k), (volume_id ((N + 1) * (N + 1))%nat (ment Fm q (h mod 4)) (h / 4)).
  split; [exact J1|]. split; [exact J3|]. split; [exact V1|]. split; [exact V2|]. split; [apply J4; exact V2|].
  destruct (HC f k _ _ Hf Hk L1 L2) as (B1 & B2 & Hb). split.
  - destruct HT as [_ (_ & _ & F3) _ _ _ _ _]. unfold node_point, volume_id. pose proof (F3 n f Hn Hf) as X1. pose proof (F3 q (h mod 4)%nat Q1 B1) as X2.
    rewrite !(Nat.mul_comm ((N + 1) * (N + 1))%nat), !Nat.mod_add, !Nat.div_add by lia. rewrite !Nat.mod_small, !Nat.div_small by lia. cbn [Nat.add]. symmetry. exact Eq.
  - assert (X : j = i <-> (forall h0, ~ shares 4 (map Z.of_nat EToV) g h0)).
    { rewrite J5. fold g. fold k. rewrite Eg at 1. unfold entry. rewrite L1. destruct Hb as [(E1 & _ & Hns)|(E1 & Hsh & _)].
      - rewrite E1, Eg. split; auto.
      - split; [intro X; exfalso; apply E1; congruence|]. intro X. exfalso. eapply X. rewrite Eg. exact Hsh. }
    split; [exact X|]. rewrite J6. exact X.
Qed.

(* A concrete case: two quadrilaterals side by side, order 1. *)
From Verif Require Import BlitzSpec UniqueProofs Nodes1DExactProofs JacobiExactProofs JacobiProps TriWitness QuadWitness.
Definition qE2E : list nat := [0; 1; 0; 0;  1; 1; 1; 0]%nat.
Definition qE2F : list nat := [0; 3; 2; 3;  0; 1; 2; 1]%nat.
Lemma quad_mesh_on Vert : (forall k, (k < 2)%nat -> forall c d, (c < 4)%nat -> (d < 4)%nat -> qcorner Vert qEToV k c = qcorner Vert qEToV k d -> c = d) ->
  quad_mesh 2 Vert qEToV qE2E qE2F /\ (forall g h, shares 4 (map Z.of_nat qEToV) g h <-> (g = 1 /\ h = 7 \/ g = 7 /\ h = 1)%nat).
Proof.
  intro HV.
  assert (Hf : forall g a b, face 4 (map Z.of_nat qEToV) g a b -> In (g, a, b) [(0%nat, 0, 1); (1%nat, 1, 4); (2%nat, 4, 3); (3%nat, 3, 0); (4%nat, 1, 2); (5%nat, 2, 5); (6%nat, 5, 4); (7%nat, 4, 1)]%Z).
  { intros g a b (A & B). destruct g as [|[|[|[|[|[|[|[|g]]]]]]]]; try (cbn in A, B; injection A as <-; injection B as <-; cbn; tauto). cbn in A. destruct g; discriminate. }
  assert (Hf' : forall g a b, In (g, a, b) [(0%nat, 0, 1); (1%nat, 1, 4); (2%nat, 4, 3); (3%nat, 3, 0); (4%nat, 1, 2); (5%nat, 2, 5); (6%nat, 5, 4); (7%nat, 4, 1)]%Z -> face 4 (map Z.of_nat qEToV) g a b).
  { intros g a b H. cbn in H. repeat (destruct H as [[= <- <- <-]|H]; [split; reflexivity|]). destruct H. }
  assert (Hs : forall g h, shares 4 (map Z.of_nat qEToV) g h -> (g = 1 /\ h = 7 \/ g = 7 /\ h = 1)%nat).
  { intros g h (Ne & a & b & c & d & F1 & F2 & P); apply Hf in F1, F2; cbn in F1, F2; unfold same_pair in P;
    repeat match goal with H : _ \/ _ |- _ => destruct H | H : (_, _, _) = _ |- _ => injection H; clear H; intros | H : False |- _ => destruct H end; lia. }
  assert (S17 : shares 4 (map Z.of_nat qEToV) 1 7).
  { split; [lia|]. exists 1%Z, 4%Z, 4%Z, 1%Z. split; [apply Hf'; cbn; tauto|]. split; [apply Hf'; cbn; tauto|]. right. auto. }
  split; [|intros g h; split; [apply Hs|intros [(-> & ->)|(-> & ->)]; [exact S17|apply shares_sym; exact S17]]].
  constructor; [reflexivity|reflexivity| | |].
  - intros g Hg. destruct g as [|[|[|[|[|[|[|[|g]]]]]]]]; [exists 0%nat|exists 7%nat|exists 2%nat|exists 3%nat|exists 4%nat|exists 5%nat|exists 6%nat|exists 1%nat|lia]; (split; [split; reflexivity|]).
    1,3,4,5,6,7: left; split; [reflexivity|]; intros h Hh; apply Hs in Hh; lia.
    + right. split; [exact S17|]. intros h Hh. apply Hs in Hh. lia.
    + right. split; [apply shares_sym; exact S17|]. intros h Hh. apply Hs in Hh. lia.
  - intros g h a b F1 F2. apply Hf in F1, F2. cbn in F1, F2.
    repeat match goal with H : _ \/ _ |- _ => destruct H | H : (_, _, _) = _ |- _ => injection H; clear H; intros | H : False |- _ => destruct H end; lia.
  - exact HV.
Qed.
Lemma quad_mesh_witness : quad_mesh 2 qVert qEToV qE2E qE2F.
Proof.
  apply quad_mesh_on.
  intros k Hk c d Hc Hd. destruct k as [|[|]]; [| |lia]; destruct c as [|[|[|[|]]]], d as [|[|[|[|]]]]; try lia; unfold qcorner; cbn; intro X; injection X; lra.
Qed.
Example C38_quadrilateral_witness : exists el m, qbuilt gwit solve4 inverse4 junk0 0 eig0 (1 / 10) 1 2 qVert qEToV el /\
  (forall n n', (n <= 1)%nat -> (n' <= 1)%nat -> n <> n' ->
     2 * (1 / 10) <= Rabs (nth (ment (qmask_table 1 (e_masks el)) n 0) (e_r el) 0 - nth (ment (qmask_table 1 (e_masks el)) n' 0) (e_r el) 0)) /\
  buildMaps (exact gwit) rhypot isort (fun _ => 0) (fun _ => 0%nat) (1 / 10) 4 2 ((1 + 1) * (1 + 1)) 2 (qmask_table 1 (e_masks el)) (e_x el) (e_y el) qE2E qE2F qEToV qVert [3; 0; 3; 3; 3; 3; 3; 0]%Z [] = Ok m.
Proof.
  destruct quad_witness as (el & HB). exists el. destruct quad_mesh_witness as [LE LF HN HO HA].
  pose proof (quad_tables _ _ _ _ _ _ _ _ _ _ _ _ HB _ _ LE LF HN) as HTb.
  destruct (C43_nodes_masks _ _ _ _ _ _ _ _ _ _ _ _ HB) as (_ & _ & g & _ & g0 & gN & _ & _ & _ & _ & _ & Hm).
  edestruct (C38_defined (exact gwit) rhypot isort (fun _ => 0) (fun _ => 0%nat) (1 / 10) 4 2 ((1 + 1) * (1 + 1)) 2 (qmask_table 1 (e_masks el)) (e_x el) (e_y el) qE2E qE2F qEToV qVert [3; 0; 3; 3; 3; 3; 3; 0]%Z []) as (m & Em).
  - exact Rltb_strict_weak.
  - exact isort_is_sort.
  - cbn. unfold Rltb. destruct (Rlt_dec _ _) as [|Hx]; [reflexivity|]. exfalso. apply Hx. lra.
  - lia.
  - cbn. lia.
  - exact HTb.
  - exists m. split; [exact HB|]. split; [|exact Em].
    destruct (Hm 0%nat ltac:(lia)) as (mask & Ek & _ & _ & _ & Hq). cbn [ment qmask_table]. rewrite (nth_error_nth _ _ [] Ek).
    pose proof (Hq 0%nat ltac:(lia)) as Q0. pose proof (Hq 1%nat ltac:(lia)) as Q1. cbn zeta in Q0, Q1. injection Q0 as Q0 _. injection Q1 as Q1 _. rewrite g0 in Q0. rewrite gN in Q1.
    intros n n' Hn Hn' Hne. destruct n as [|[|]], n' as [|[|]]; try lia; rewrite Q0, Q1; unfold Rabs; destruct (Rcase_abs _); lra.
Qed.
Print Assumptions C38_quadrilateral_provisioner.
