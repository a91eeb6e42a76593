(* ReconProps.v - theorems about surfaceReconstruction of swhelpers/limiters.py, in exact arithmetic (C94). *)
From Coq Require Import ZArith List Lia Bool Arith.
From Verif Require Import Base Loops Num RKModel Line1DModel SwModel ReconModel JacobiExactProofs.
From Coq Require Import Reals Lra.
Import ListNotations.
Local Open Scope R_scope.

Local Notation milli := (1 / 1000).
Lemma raised_ok G etaM hM etaP hP : let zM := etaM - hM in let zP := etaP - hP in
  raised (exact G) milli etaM hM etaP hP = if Rlt_dec zP zM then (if Rlt_dec etaP etaM then etaP + Rmin (2 * (zM - zP)) (etaM - etaP) else etaP) else etaP.
Proof.
  intros zM zP. unfold raised. cbn [exact fsub fofZ fmul fdiv fadd fopp fle flt]. fold zM zP. unfold minmod. cbn [exact flt fofn fofZ fmul]. rewrite !Rmult_1_r. change (IZR (Z.of_nat 0)) with 0.
  assert (P : forall a b, Rltb 0 (a * b) = true <-> 0 < a * b) by (intros a b; unfold Rltb; destruct (Rlt_dec 0 (a * b)); split; intro; try discriminate; tauto).
  destruct (Rlt_dec zP zM) as [Hz|Hz].
  - assert (E1 : Rltb 0 ((zP - zM) * milli) = false) by (unfold Rltb; destruct (Rlt_dec _ _); [nra|reflexivity]). assert (E2 : Rltb 0 ((zM - zP) * - milli) = false) by (unfold Rltb; destruct (Rlt_dec _ _); [nra|reflexivity]).
    rewrite E1, E2, !andb_false_r. set (c := zM - zP - (zP - 1 / 2 * 0 - (zM + 1 / 2 * 0))). assert (Ec : c = 2 * (zM - zP)) by (unfold c; field). rewrite Ec. unfold Rltb, Rleb, Rmin.
    destruct (Rlt_dec etaP etaM); repeat match goal with |- context [Rlt_dec ?a ?b] => destruct (Rlt_dec a b) | |- context [Rle_dec ?a ?b] => destruct (Rle_dec a b) end; lra.
  - set (mm1 := if Rltb (zP - zM) milli && _ then _ else _). set (mm2 := if Rltb (zM - zP) (- milli) && _ then _ else _).
    assert (H1 : mm1 <= zP - zM). { unfold mm1, Rltb. repeat match goal with |- context [Rlt_dec ?a ?b] => destruct (Rlt_dec a b) end; cbn [andb]; lra. }
    assert (H2 : mm2 >= - (zP - zM) - milli). { unfold mm2, Rltb. repeat match goal with |- context [Rlt_dec ?a ?b] => destruct (Rlt_dec a b) end; cbn [andb]; lra. }
    assert (H3 : zP - zM < milli -> mm1 = zP - zM \/ mm1 = 0). { unfold mm1, Rltb. repeat match goal with |- context [Rlt_dec ?a ?b] => destruct (Rlt_dec a b) end; cbn [andb]; lra. }
    assert (H4 : mm1 <= milli /\ (0 <= mm1)). { unfold mm1, Rltb. repeat match goal with |- context [Rlt_dec ?a ?b] => destruct (Rlt_dec a b) end; cbn [andb]; lra. }
    assert (H5 : mm2 <= 0). { unfold mm2, Rltb. repeat match goal with |- context [Rlt_dec ?a ?b] => destruct (Rlt_dec a b) end; cbn [andb]; lra. }
    clearbody mm1 mm2. unfold Rltb, Rleb. repeat match goal with |- context [Rlt_dec ?a ?b] => destruct (Rlt_dec a b) | |- context [Rle_dec ?a ?b] => destruct (Rle_dec a b) end; try reflexivity; lra.
Qed.

Local Notation at_ l i := (nth i l 0).
(* the depth above the bed z, with the floor of 1e-3 *)
Definition above (eta z : R) : R := Rmax milli (eta - z).

(* C94: what the function returns at every node, and what it leaves in etaP. Where the near bed and the near surface are both
   higher than the far ones, etaP is raised by twice the step of the bed, but not above the near surface; elsewhere it is kept. *)
Theorem C94_values G etaM hM etaP hP n : length etaM = n -> length hM = n -> length etaP = n -> length hP = n ->
  exists hM' hP' etaP', surface_reconstruction (exact G) milli etaM hM etaP hP = Ok (hM', hP', etaP') /\ length hM' = n /\ length hP' = n /\ length etaP' = n /\
  forall i, (i < n)%nat ->
    let zM := at_ etaM i - at_ hM i in let zP := at_ etaP i - at_ hP i in
    ((zP < zM /\ at_ etaP i < at_ etaM i -> at_ etaP' i = Rmin (at_ etaP i + 2 * (zM - zP)) (at_ etaM i)) /\
     (~ (zP < zM /\ at_ etaP i < at_ etaM i) -> at_ etaP' i = at_ etaP i)) /\
    let z := Rmax zM (at_ etaP' i - at_ hP i) in at_ hM' i = above (at_ etaM i) z /\ at_ hP' i = above (at_ etaP' i) z.
Proof.
  intros L1 L2 L3 L4. unfold surface_reconstruction. rewrite L1, L2, L3, L4, Nat.eqb_refl. cbn [require andb].
  do 3 eexists. split; [reflexivity|]. rewrite !map_length, !seq_length. do 3 (split; [reflexivity|]). intros i Hi. set (zM := at_ etaM i - at_ hM i). set (zP := at_ etaP i - at_ hP i).
  set (rn := fun j => recon_node (exact G) milli (nth j etaM (fofn (exact G) 0)) (nth j hM (fofn (exact G) 0)) (nth j etaP (fofn (exact G) 0)) (nth j hP (fofn (exact G) 0))).
  assert (NT : forall (p : R * R * R -> R), at_ (map p (map rn (seq 0 n))) i = p (rn i)).
  { intro p. rewrite map_map. rewrite (nth_indep _ 0 (p (rn 0%nat))) by (rewrite map_length, seq_length; exact Hi). rewrite (map_nth (fun j => p (rn j))), seq_nth by exact Hi. reflexivity. }
  rewrite !NT. unfold rn. change (fofn (exact G) 0) with 0. unfold recon_node. cbn [fst snd]. rewrite raised_ok. fold zM zP. cbn [exact fsub]. fold zM.
  set (e' := if Rlt_dec zP zM then _ else _). split; [split|].
  - intros (H1 & H2). unfold e'. destruct (Rlt_dec zP zM); [|tauto]. destruct (Rlt_dec _ _); [|tauto]. unfold Rmin. repeat destruct (Rle_dec _ _); lra.
  - intro H. unfold e'. destruct (Rlt_dec zP zM); [|reflexivity]. destruct (Rlt_dec _ _); [tauto|reflexivity].
  - cbv zeta. assert (Hz : forall a b, higher_bed (exact G) a b = Rmax a b) by (clear; intros a b; unfold higher_bed; cbn [exact flt]; unfold Rltb, Rmax; destruct (Rlt_dec _ _), (Rle_dec _ _); first [reflexivity|lra]).
    rewrite Hz. assert (Ha : forall d, at_least (exact G) milli d = Rmax milli d) by (clear; intro d; unfold at_least; cbn [exact fle]; unfold Rleb, Rmax; destruct (Rle_dec _ _), (Rle_dec _ _); lra). rewrite !Ha. split; reflexivity.
Qed.

Section C94.
Context (G : R -> R) (etaM hM etaP hP hM' hP' etaP' : list R) (n : nat).
Hypothesis L1 : length etaM = n. Hypothesis L2 : length hM = n. Hypothesis L3 : length etaP = n. Hypothesis L4 : length hP = n.
Hypothesis Hrun : surface_reconstruction (exact G) milli etaM hM etaP hP = Ok (hM', hP', etaP').
Lemma values i : (i < n)%nat ->
    let zM := at_ etaM i - at_ hM i in let zP := at_ etaP i - at_ hP i in
    ((zP < zM /\ at_ etaP i < at_ etaM i -> at_ etaP' i = Rmin (at_ etaP i + 2 * (zM - zP)) (at_ etaM i)) /\
     (~ (zP < zM /\ at_ etaP i < at_ etaM i) -> at_ etaP' i = at_ etaP i)) /\
    let z := Rmax zM (at_ etaP' i - at_ hP i) in at_ hM' i = above (at_ etaM i) z /\ at_ hP' i = above (at_ etaP' i) z.
Proof. destruct (C94_values G etaM hM etaP hP n L1 L2 L3 L4) as (a & b & c & E & _ & _ & _ & H). rewrite Hrun in E. injection E as -> -> ->. exact (H i). Qed.

(* C94: the depths returned are at least 1e-3, and neither side becomes deeper (apart from that floor). *)
Theorem C94_positive i : (i < n)%nat -> (milli <= at_ hM' i <= Rmax milli (at_ hM i)) /\ (milli <= at_ hP' i <= Rmax milli (at_ hP i)).
Proof.
  intro Hi. destruct (values i Hi) as (_ & -> & ->). unfold above. split; split; try apply Rmax_l.
  - apply Rle_max_compat_l. match goal with |- _ - Rmax ?a ?b <= _ => pose proof (Rmax_l a b) end. lra.
  - apply Rle_max_compat_l. match goal with |- _ - Rmax ?a ?b <= _ => pose proof (Rmax_r a b) end. lra.
Qed.
(* C94: where the surface is level, both sides get the same depth, that above the higher bed, and etaP is kept. *)
Theorem C94_level_surface i : (i < n)%nat -> at_ etaM i = at_ etaP i ->
  at_ etaP' i = at_ etaP i /\ at_ hM' i = at_ hP' i /\ at_ hM' i = Rmax milli (Rmin (at_ hM i) (at_ hP i)).
Proof.
  intros Hi E. destruct (values i Hi) as ((_ & H2) & H3 & H4). cbv zeta in *. rewrite H2 in * by lra. rewrite H3, H4. split; [reflexivity|]. rewrite E. split; [reflexivity|]. unfold above. f_equal. unfold Rmin, Rmax. destruct (Rle_dec _ _), (Rle_dec _ _); lra.
Qed.
(* C94: where the bed is level, depths of at least 1e-3 and etaP are kept. *)
Theorem C94_level_bed i : (i < n)%nat -> at_ etaM i - at_ hM i = at_ etaP i - at_ hP i -> milli <= at_ hM i -> milli <= at_ hP i ->
  at_ hM' i = at_ hM i /\ at_ hP' i = at_ hP i /\ at_ etaP' i = at_ etaP i.
Proof.
  intros Hi E H1 H2. destruct (values i Hi) as ((_ & H3) & H4 & H5). cbv zeta in *. rewrite H3 in * by lra. rewrite H4, H5. unfold above. split; [|split; [|reflexivity]]; unfold Rmax; repeat destruct (Rle_dec _ _); lra.
Qed.
(* C94: the surface beyond is never lowered, and raised at most to the near one. *)
Theorem C94_surface_raised i : (i < n)%nat -> at_ etaP i <= at_ etaP' i <= Rmax (at_ etaM i) (at_ etaP i).
Proof.
  intro Hi. destruct (values i Hi) as ((H1 & H2) & _). cbv zeta in *. destruct (Rlt_dec (at_ etaP i - at_ hP i) (at_ etaM i - at_ hM i)) as [A|A]; [|rewrite H2 by tauto; pose proof (Rmax_r (at_ etaM i) (at_ etaP i)); lra].
  destruct (Rlt_dec (at_ etaP i) (at_ etaM i)) as [B|B]; [|rewrite H2 by tauto; pose proof (Rmax_r (at_ etaM i) (at_ etaP i)); lra]. rewrite H1 by tauto.
  pose proof (Rmax_l (at_ etaM i) (at_ etaP i)). unfold Rmin. destruct (Rle_dec _ _); lra.
Qed.
End C94.

(* The two elements of a side see different depths: from the higher side, both are 1; from the lower one, the own depth is the
   floor. A flux computed from them is not the same on both sides, and the total of the water is not conserved. *)
Theorem C94_two_sides_refuted G :
  surface_reconstruction (exact G) milli [2] [1] [1] [1] = Ok ([1], [1], [2]) /\
  surface_reconstruction (exact G) milli [1] [1] [2] [1] = Ok ([milli], [1], [2]).
Proof.
  split.
  - destruct (C94_values G [2] [1] [1] [1] 1 eq_refl eq_refl eq_refl eq_refl) as (a & b & c & E & A & B & C & H). rewrite E. destruct (H 0%nat ltac:(lia)) as ((H1 & _) & H2 & H3). cbv zeta in *. cbn [nth] in *.
    destruct a as [|a [|]], b as [|b [|]], c as [|c [|]]; try discriminate. cbn [nth] in *. unfold above in *. rewrite Rmin_right in H1 by lra. specialize (H1 ltac:(split; lra)). subst c. rewrite (Rmax_left (2 - 1) (2 - 1)) in H2, H3 by lra. rewrite Rmax_right in H2, H3 by lra.
    replace a with 1 by lra. replace b with 1 by lra. reflexivity.
  - destruct (C94_values G [1] [1] [2] [1] 1 eq_refl eq_refl eq_refl eq_refl) as (a & b & c & E & A & B & C & H). rewrite E. destruct (H 0%nat ltac:(lia)) as ((_ & H1) & H2 & H3). cbv zeta in *. cbn [nth] in *.
    destruct a as [|a [|]], b as [|b [|]], c as [|c [|]]; try discriminate. cbn [nth] in *. unfold above in *. specialize (H1 ltac:(lra)). subst c. rewrite (Rmax_right (1 - 1)) in H2, H3 by lra. rewrite Rmax_left in H2 by lra. rewrite Rmax_right in H3 by lra.
    replace a with milli by lra. replace b with 1 by lra. reflexivity.
Qed.
(* a step of the bed under a level surface, and a level bed *)
Example C94_witness : exists hM hP etaP, surface_reconstruction (exact gwit) milli [5; 5] [2; 2] [5; 6] [1; 3] = Ok (hM, hP, etaP) /\ nth 0 [5; 5] 0 = nth 0 [5; 6] 0 /\ nth 1 [5; 5] 0 - nth 1 [2; 2] 0 = nth 1 [5; 6] 0 - nth 1 [1; 3] 0.
Proof. destruct (C94_values gwit [5; 5] [2; 2] [5; 6] [1; 3] 2 eq_refl eq_refl eq_refl eq_refl) as (a & b & c & E & _). exists a, b, c. split; [exact E|]. cbn. lra. Qed.
Print Assumptions C94_values.
Print Assumptions C94_positive.
Print Assumptions C94_level_surface.
Print Assumptions C94_level_bed.
Print Assumptions C94_surface_raised.
Print Assumptions C94_two_sides_refuted.
