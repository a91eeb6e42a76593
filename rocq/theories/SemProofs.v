(* SemProofs.v - assembly of the continuous Poisson operator. *)
From Coq Require Import ZArith List Lia Bool Arith.
From Verif Require Import Base Loops Num FoldProofs BlitzModel BlitzSpec BlitzProofs UniqueProofs JacobiModel JacobiSpec JacobiProofs JacobiOrthProofs JacobiQuadProofs JacobiExactProofs Nodes1DModel Nodes1DSpec Nodes1DExactProofs DenseSpec GllProofs
  MeshSpec MeshGeoProofs MeshProps MeshProofs TriModel TriSpec TriBasisProofs TriProofs TriOpProofs TriLiftProofs TriFaceProofs TriNodesProofs TriElemProofs TriGeoSpec TriGeoProofs TriSetup TriProps Maps2DModel Maps2DSpec Maps2DProofs Maps2DProps TriMapsProofs TriMapsProps TriDGSpec TriDGProofs
  QuadInterpProofs TripletModel CscModel CscSpec CscProps RKModel Line1DModel Line1DProofs SwModel SwSpec SwProofs SwSchemeProofs SwRunProofs SwProps PoissonModel PoissonSpec PoissonTripletProofs PoissonBlockProofs PoissonProofs PoissonFormProofs SemModel.
From Coq Require Import Reals Lra.
Import ListNotations.
Local Open Scope R_scope.

(* a labelling has at most as many labels as rows *)
Lemma labels_le n g s : labelling n g s -> (length g <= n)%nat.
Proof.
  intros (_ & _ & H & ND). rewrite <- (seq_length n 0). apply NoDup_incl_length; [exact ND|]. intros x Hx. apply In_nth_error in Hx. destruct Hx as (i & Hi). apply in_seq. destruct (H i x Hi). lia.
Qed.
Lemma label_at n g s i : labelling n g s -> (i < n)%nat -> (nth i s 0 < length g)%nat.
Proof. intros (_ & H & _) Hi. destruct (H i Hi) as (l & El & Hl). apply nth_error_nth with (d := 0%nat) in El. rewrite El. exact Hl. Qed.
Lemma labels_pos n g s : labelling n g s -> (0 < n)%nat -> (0 < length g)%nat.
Proof. intros H Hn. pose proof (label_at n g s 0 H Hn). lia. Qed.

Section Exact.
Variable G : R -> R.
Local Notation E := (exact G).

Definition sblock (Np : nat) (sl : nat -> nat) (B : mat R) : list (nat * nat * R) :=
  map (fun p => (sl (fst p), sl (snd p), ment B (fst p) (snd p))) (pairs Np Np).
Lemma sblock_len Np sl B : length (sblock Np sl B) = (Np * Np)%nat.
Proof. unfold sblock. now rewrite map_length, pairs_len. Qed.
Lemma bl_srow sl B v u i n : bl (map (fun p => (sl (fst p), sl (snd p), ment B (fst p) (snd p))) (map (fun j => (i, j)) (seq 0 n))) v u = sumn n (fun j => v (sl i) * ment B i j * u (sl j)).
Proof. induction n as [|n IH]; [reflexivity|]. rewrite seq_S, !map_app, bl_app, IH, sumn_S. cbn [map bl fst snd plus]. ring. Qed.
Lemma bl_sblock Np sl B v u : bl (sblock Np sl B) v u = bm Np B (fun i => v (sl i)) (fun j => u (sl j)).
Proof.
  unfold sblock, pairs, bm. generalize Np at 1 4. intro n. induction Np as [|m IH]; [reflexivity|].
  rewrite seq_S, flat_map_app, map_app, bl_app, IH, sumn_S. cbn [flat_map plus]. rewrite app_nil_r, bl_srow. reflexivity.
Qed.
Lemma semInsert_has D D' cap cap' t u es fs Np (sl : nat -> nat) B C : has D cap t es -> has D' cap' u fs -> (Z.of_nat (length es + Np * Np) <= cap)%Z -> (Z.of_nat (length fs + Np * Np) <= cap')%Z ->
  (forall i, (i < Np)%nat -> (sl i < D)%nat /\ (sl i < D')%nat) -> mrows B = Np -> mcols B = Np -> mrows C = Np -> mcols C = Np ->
  exists t' u', semInsert E Np (map sl (seq 0 Np)) B C (t, u) = Ok (t', u') /\ has D cap t' (es ++ sblock Np sl B) /\ has D' cap' u' (fs ++ sblock Np sl C).
Proof.
  intros H H' Hc Hc' Hsl B1 B2 C1 C2. unfold semInsert. rewrite (for2 Np Np (fun i j '(t, u) => _)). pose proof (pairs_len Np Np) as HL.
  match goal with |- exists t' u', foldM ?f _ _ = _ /\ _ /\ _ => destruct (foldM_inv (fun done s => has D cap (fst s) (es ++ map (fun p => (sl (fst p), sl (snd p), ment B (fst p) (snd p))) done) /\
      has D' cap' (snd s) (fs ++ map (fun p => (sl (fst p), sl (snd p), ment C (fst p) (snd p))) done)) f (pairs Np Np) [] (t, u)) as ([t' u'] & Et & Ht & Hu) end.
  - cbn [map fst snd]. rewrite !app_nil_r. auto.
  - intros d [i j] [s w] (rest & Er) (Hs & Hw). cbn [fst snd] in *. assert (Hin : In (i, j) (pairs Np Np)) by (cbn in Er; rewrite Er; apply in_elt). apply pairs_in in Hin.
    cbn in Er. rewrite Er, app_length in HL. cbn [length] in HL.
    assert (Hg : forall i, (i < Np)%nat -> getn (map sl (seq 0 Np)) i = Ok (sl i)). { intros a Ha. apply BlitzProofs.getn_ok. rewrite nth_error_map, (nth_error_nth' (seq 0 Np) 0%nat) by (rewrite seq_length; exact Ha). cbn [option_map]. rewrite seq_nth by exact Ha. reflexivity. }
    rewrite !Hg by lia. cbn [bind]. unfold mget. rewrite inb_true by lia. cbn [bind]. destruct (Hsl i ltac:(lia)), (Hsl j ltac:(lia)).
    destruct (ins_has G D cap s _ (sl i) (sl j) (ment B i j) Hs) as (s' & Es & Hs'); try lia; [rewrite app_length, map_length; lia|].
    destruct (ins_has G D' cap' w _ (sl i) (sl j) (ment C i j) Hw) as (w' & Ew & Hw'); try lia; [rewrite app_length, map_length; lia|].
    rewrite Es. cbn [bind]. rewrite inb_true by lia. cbn [bind]. rewrite Ew. cbn [bind]. exists (s', w'). split; [reflexivity|]. cbn [fst snd]. rewrite !map_app, !app_assoc. auto.
  - exists t', u'. auto.
Qed.
(* the border in a matrix with room to spare *)
Lemma border_has' D cap t es dof : (dof < D)%nat -> has D cap t es -> (Z.of_nat (length es + dof * 2) <= cap)%Z -> exists t', border E dof t = Ok t' /\ has D cap t' (es ++ frame dof).
Proof.
  intros HD H Hc. unfold border. rewrite for_fold.
  match goal with |- exists t', foldM ?f _ _ = _ /\ _ => destruct (foldM_inv (fun done s => has D cap s (es ++ flat_map (fun k => [(dof, k, 1); (k, dof, 1)]) done)) f (seq 0 dof) [] t) as (t' & Et & Ht) end.
  - cbn [flat_map]. rewrite app_nil_r. exact H.
  - intros d k s (rest & Er) Hs. assert (Hin : In k (seq 0 dof)) by (cbn in Er; rewrite Er; apply in_elt). apply in_seq in Hin.
    assert (HL : (S (length d) <= dof)%nat) by (rewrite <- (seq_length dof 0); cbn in Er; rewrite Er, app_length; cbn; lia).
    assert (H1 : fofn E 1 = 1) by (rewrite fofn_INR; reflexivity). rewrite H1.
    assert (Hlen : length (flat_map (fun k => [(dof, k, 1); (k, dof, 1)]) d) = (length d * 2)%nat) by (apply flat_map_len; reflexivity).
    destruct (ins_has G _ cap s _ dof k 1 Hs) as (s' & Es & Hs'); try lia; [rewrite app_length, Hlen; lia|]. rewrite Es. cbn [bind].
    destruct (ins_has G _ cap s' _ k dof 1 Hs') as (s2 & Es2 & Hs2); try lia; [rewrite !app_length, Hlen; cbn; lia|]. exists s2. split; [exact Es2|].
    rewrite flat_map_app. cbn [flat_map]. rewrite app_nil_r. rewrite <- !app_assoc in Hs2. cbn [app] in Hs2. exact Hs2.
  - exists t'. split; [exact Et|exact Ht].
Qed.
End Exact.

Lemma semColumn_ok Np k s : (Np * k + Np <= length s)%nat -> semColumn Np k s = Ok (map (fun n => nth (Np * k + n) s 0%nat) (seq 0 Np)).
Proof.
  intro H. unfold semColumn. rewrite for_fold.
  destruct (foldM_inv (fun done l => l = map (fun n => nth (Np * k + n) s 0%nat) done) (fun n l => bind (vat s (Np * k + n)) (fun v => Ok (l ++ [v]))) (seq 0 Np) [] []) as (l & El & Hl).
  - reflexivity.
  - intros d n l (rest & Er) ->. assert (Hin : In n (seq 0 Np)) by (cbn in Er; rewrite Er; apply in_elt). apply in_seq in Hin. unfold vat. rewrite (nth_error_nth' s 0%nat) by lia. cbn [bind]. eexists. split; [reflexivity|]. rewrite map_app. reflexivity.
  - rewrite El, Hl. reflexivity.
Qed.
Lemma semMap_ok Np K s : (Np * K <= length s)%nat -> semMap Np K s = Ok (map (fun k => map (fun n => nth (Np * k + n) s 0%nat) (seq 0 Np)) (seq 0 K)).
Proof.
  intro H. unfold semMap. rewrite for_fold.
  destruct (foldM_inv (fun done l => l = map (fun k => map (fun n => nth (Np * k + n) s 0%nat) (seq 0 Np)) done) (fun k M => bind (semColumn Np k s) (fun c => Ok (M ++ [c]))) (seq 0 K) [] []) as (l & El & Hl).
  - reflexivity.
  - intros d k l (rest & Er) ->. assert (Hin : In k (seq 0 K)) by (cbn in Er; rewrite Er; apply in_elt). apply in_seq in Hin. rewrite semColumn_ok by nia. cbn [bind]. eexists. split; [reflexivity|]. rewrite map_app. reflexivity.
  - rewrite El, Hl. reflexivity.
Qed.

Section Run.
Variables (G : R -> R) (solve : mat R -> mat R -> mat R -> outcome (mat R)) (inverse : mat R -> mat R -> outcome (mat R))
  (junk : nat -> nat -> R) (eps : R) (eig : nat -> (nat -> nat -> R) -> list R * (nat -> nat -> R)) (tol : R)
  (sort : (nat -> nat -> bool) -> list nat -> list nat) (junk1 : nat -> R) (junkn : nat -> nat) (bc0 : hmap)
  (N K : nat) (Vert : list R) (EToV E2E E2F : list nat) (bcType : list Z) (el : element (T := R)) (m : maps).
Local Notation E := (exact G).
Local Notation P := (TriGeoSpec.corner Vert EToV).
Local Notation Fm := (mask_table N (e_masks el)).
Local Notation Np := (length (e_r el)).
Local Notation rep := (represents N Np K (e_x el) (e_y el)).
Local Notation eint k := (element_integral (P k 0) (P k 1) (P k 2)).
Hypothesis HB : built G solve inverse junk eps eig tol N K Vert EToV el.
Hypothesis HA : forall k, (k < K)%nat -> 0 < area (P k 0) (P k 1) (P k 2).
Hypothesis Hrun : buildMaps (exact G) rhypot sort junk1 junkn tol 3 (S N) Np K Fm (e_x el) (e_y el) E2E E2F EToV Vert bcType bc0 = Ok m.
Local Notation pt := (tables N el E2E E2F bcType m).
Hypothesis Hbc : (3 * K <= length bcType)%nat.
Variables gather scatter : list nat.
Hypothesis HL : labelling (Np * K) gather scatter.
Local Notation sem := (length gather).
(* values at the nodes of the discontinuous grid *)
Definition spread (u : nat -> R) : nat -> R := fun j => u (nth j scatter 0%nat).

Lemma semElement_ok k OP Mt es fs D cap capM : (k < K)%nat -> has D cap OP es -> has sem capM Mt fs -> (Z.of_nat (length es + Np * Np) <= cap)%Z -> (Z.of_nat (length fs + Np * Np) <= capM)%Z -> (sem <= D)%nat ->
  exists OP' Mt' A C, semElement E pt Np (map (fun k => map (fun n => nth (Np * k + n) scatter 0%nat) (seq 0 Np)) (seq 0 K)) (MM G el) k (OP, Mt) = Ok (OP', Mt') /\
    has D cap OP' (es ++ sblock Np (fun n => nth (Np * k + n) scatter 0%nat) A) /\ has sem capM Mt' (fs ++ sblock Np (fun n => nth (Np * k + n) scatter 0%nat) C) /\
    forall v u U V, rep (spread u) U -> rep (spread v) V ->
      eint k (grad_prod U V k) (bl (sblock Np (fun n => nth (Np * k + n) scatter 0%nat) A) v u) /\ eint k (fun x y => val U k x y * val V k x y) (bl (sblock Np (fun n => nth (Np * k + n) scatter 0%nat) C) v u).
Proof.
  intros Hk HO HMt Hc Hcm HD. unfold semElement.
  assert (Hgk : getn (map (fun k => map (fun n => nth (Np * k + n) scatter 0%nat) (seq 0 Np)) (seq 0 K)) k = Ok (map (fun n => nth (Np * k + n) scatter 0%nat) (seq 0 Np))).
  { apply BlitzProofs.getn_ok. rewrite nth_error_map, (nth_error_nth' (seq 0 K) 0%nat) by (rewrite seq_length; exact Hk). cbn [option_map]. rewrite seq_nth by exact Hk. reflexivity. }
  rewrite Hgk. cbn [bind tables p_dg p_J]. assert (Egr : gradXY E (tables_of el m) k = Ok (Dx_ G el m k, Dy_ G el m k)) by (eapply grad_run; eassumption). rewrite Egr. cbn [bind].
  assert (HJ : mrows (g_J (e_metric el)) = Np /\ mcols (g_J (e_metric el)) = K) by (eapply J_shape; eassumption). assert (HNp : (0 < Np)%nat) by (eapply Np0; eassumption).
  rewrite mget_ok by (rewrite ?(proj1 HJ), ?(proj2 HJ); assumption). assert (EJ : ment (g_J (e_metric el)) 0 k = area (P k 0) (P k 1) (P k 2) / 2) by (eapply J_at; eassumption). rewrite EJ. cbn [bind].
  set (J := area (P k 0) (P k 1) (P k 2) / 2). set (sl := fun n => nth (Np * k + n) scatter 0%nat).
  assert (HMs : mrows (MM G el) = Np /\ mcols (MM G el) = Np) by (eapply MM_shape; eassumption). assert (HDs : mrows (Dx_ G el m k) = Np /\ mcols (Dx_ G el m k) = Np /\ mrows (Dy_ G el m k) = Np /\ mcols (Dy_ G el m k) = Np) by (eapply D_shape; eassumption).
  destruct HDs as (D1 & D2 & D3 & D4).
  assert (V1 : mrows (volume E (MM G el) (Dx_ G el m k) (Dy_ G el m k) J) = Np /\ mcols (volume E (MM G el) (Dx_ G el m k) (Dy_ G el m k) J) = Np) by (unfold volume; cbn [mrows mcols mmul mtrans]; auto).
  set (A := volume E (MM G el) (Dx_ G el m k) (Dy_ G el m k) J). set (C := mkmat Np Np (fun i j => fmul E J (ment (MM G el) i j))).
  destruct (semInsert_has G D sem cap capM OP Mt es fs Np sl A C HO HMt Hc Hcm) as (OP' & Mt' & EE & H1 & H2); try (apply V1); try reflexivity.
  { intros i Hi. assert (sl i < sem)%nat by (unfold sl; eapply label_at; [exact HL|nia]). lia. }
  exists OP', Mt', A, C. split; [exact EE|]. split; [exact H1|]. split; [exact H2|]. intros v u U V HU HV. rewrite !bl_sblock. split.
  - change (fun i => v (sl i)) with (fun i => spread v (Np * k + i)%nat). change (fun j => u (sl j)) with (fun j => spread u (Np * k + j)%nat). unfold A, J. eapply volume_k; eassumption.
  - assert (HR : forall u U, rep u U -> exists p, local N el k p (fun i0 => u (Np * k + i0)%nat) /\ (forall x y, val U k x y = eval2 p x y)). { intros w W HW. assert (H3 : exists p, local N el k p (fun i0 => w (Np * k + i0)%nat) /\ (forall x y, val W k x y = eval2 p x y) /\ (forall x y, ddx W k x y = eval2 (ddr p) x y) /\ forall x y, ddy W k x y = eval2 (dds p) x y) by (eapply rep_local; eassumption). destruct H3 as (p & ? & ? & _). exists p. auto. }
    destruct (HR _ _ HU) as (p & Lp & P0). destruct (HR _ _ HV) as (q & Lq & Q0). unfold C.
    change (mkmat Np Np (fun i j : nat => fmul E J (ment (MM G el) i j))) with (mkmat Np Np (fun i j : nat => J * ment (MM G el) i j)). rewrite bm_scal.
    assert (Hm : eint k (fun x y => eval2 p x y * eval2 q x y) (J * bm Np (MM G el) (fun i => spread v (Np * k + i)%nat) (fun i => spread u (Np * k + i)%nat))) by (eapply mass_k; eassumption).
    eapply eint_ext; [|exact Hm]. intros x y. cbv beta. rewrite P0, Q0. reflexivity.
Qed.

(* the entries of the first n elements *)
Lemma semElements D : (sem <= D)%nat -> forall OP Mt cap capM, has D cap OP [] -> has sem capM Mt [] -> (Z.of_nat (Np * Np * K) <= cap)%Z -> (Z.of_nat (Np * Np * K) <= capM)%Z ->
  exists OP' Mt' (A C : nat -> mat R), let es := fun B : nat -> mat R => flat_map (fun k => sblock Np (fun n => nth (Np * k + n) scatter 0%nat) (B k)) (seq 0 K) in
    for_ K (semElement E pt Np (map (fun k => map (fun n => nth (Np * k + n) scatter 0%nat) (seq 0 Np)) (seq 0 K)) (MM G el)) (OP, Mt) = Ok (OP', Mt') /\ has D cap OP' (es A) /\ has sem capM Mt' (es C) /\
    forall v u U V, rep (spread u) U -> rep (spread v) V -> stiffness_form K Vert EToV U V (bl (es A) v u) /\ mass_form K Vert EToV U V (bl (es C) v u).
Proof.
  intros HD OP Mt cap capM HO HMt Hc Hcm.
  set (es := fun n (B : nat -> mat R) => flat_map (fun k => sblock Np (fun n => nth (Np * k + n) scatter 0%nat) (B k)) (seq 0 n)).
  assert (Les : forall n B, length (es n B) = (Np * Np * n)%nat) by (intros n B; unfold es; rewrite (flat_map_len _ (Np * Np)), seq_length; [lia|intros; apply sblock_len]).
  assert (Ees : forall n B B', (forall k, (k < n)%nat -> B k = B' k) -> es n B = es n B').
  { intros n B B' H. unfold es. assert (HH : forall l, (forall k, In k l -> B k = B' k) -> flat_map (fun k => sblock Np (fun n => nth (Np * k + n) scatter 0%nat) (B k)) l = flat_map (fun k => sblock Np (fun n => nth (Np * k + n) scatter 0%nat) (B' k)) l).
    { induction l as [|k l IH]; intro Hl; [reflexivity|]. cbn [flat_map]. rewrite IH, Hl; [reflexivity|left; reflexivity|intros; apply Hl; right; assumption]. }
    apply HH. intros k Hk. apply in_seq in Hk. apply H. lia. }
  assert (ESn : forall n B, es (S n) B = es n B ++ sblock Np (fun i => nth (Np * n + i) scatter 0%nat) (B n)) by (intros; unfold es; rewrite seq_S, flat_map_app; cbn [flat_map plus]; rewrite app_nil_r; reflexivity).
  destruct (for_inv (fun n st => exists A C, has D cap (fst st) (es n A) /\ has sem capM (snd st) (es n C) /\
    forall v u U V, rep (spread u) U -> rep (spread v) V -> (exists vol, (forall k, (k < n)%nat -> eint k (grad_prod U V k) (vol k)) /\ bl (es n A) v u = sumn n vol) /\
      exists vol, (forall k, (k < n)%nat -> eint k (fun x y => val U k x y * val V k x y) (vol k)) /\ bl (es n C) v u = sumn n vol)
    K (semElement E pt Np (map (fun k => map (fun n => nth (Np * k + n) scatter 0%nat) (seq 0 Np)) (seq 0 K)) (MM G el)) (OP, Mt)) as ((OP' & Mt') & EE & A & C & H1 & H2 & H3).
  - exists (fun _ => mzero E 0 0), (fun _ => mzero E 0 0). split; [exact HO|]. split; [exact HMt|]. intros v u U V _ _. split; exists (fun _ => 0); (split; [intros; lia|reflexivity]).
  - intros k (OP1, Mt1) Hk (A & C & H1 & H2 & H3). cbn [fst snd] in H1, H2.
    destruct (semElement_ok k OP1 Mt1 _ _ D cap capM Hk H1 H2 ltac:(rewrite Les; nia) ltac:(rewrite Les; nia) HD) as (OP2 & Mt2 & A' & C' & EE & G1 & G2 & G3).
    exists (OP2, Mt2). split; [exact EE|]. exists (fun j => if (j =? k)%nat then A' else A j), (fun j => if (j =? k)%nat then C' else C j). cbn [fst snd].
    assert (E1 : forall (B : nat -> mat R) B', es (S k) (fun j => if (j =? k)%nat then B' else B j) = es k B ++ sblock Np (fun i => nth (Np * k + i) scatter 0%nat) B').
    { intros B B'. rewrite ESn, Nat.eqb_refl. f_equal. apply Ees. intros j Hj. destruct (Nat.eqb_spec j k); [lia|reflexivity]. }
    rewrite !E1. split; [exact G1|]. split; [exact G2|]. intros v u U V HU HV. destruct (H3 v u U V HU HV) as ((va & A1 & A2) & (vc & C1 & C2)). destruct (G3 v u U V HU HV) as (B1 & B2). rewrite !bl_app. split.
    + exists (fun j => if (j =? k)%nat then bl (sblock Np (fun i => nth (Np * k + i) scatter 0%nat) A') v u else va j). split; [intros j Hj; destruct (Nat.eqb_spec j k) as [-> |]; [exact B1|apply A1; lia]|].
      rewrite A2, sumn_S, Nat.eqb_refl. f_equal. apply sumn_ext. intros j Hj. destruct (Nat.eqb_spec j k); [lia|reflexivity].
    + exists (fun j => if (j =? k)%nat then bl (sblock Np (fun i => nth (Np * k + i) scatter 0%nat) C') v u else vc j). split; [intros j Hj; destruct (Nat.eqb_spec j k) as [-> |]; [exact B2|apply C1; lia]|].
      rewrite C2, sumn_S, Nat.eqb_refl. f_equal. apply sumn_ext. intros j Hj. destruct (Nat.eqb_spec j k); [lia|reflexivity].
  - exists OP', Mt', A, C. split; [exact EE|]. split; [exact H1|]. split; [exact H2|]. intros v u U V HU HV. destruct (H3 v u U V HU HV) as (Q1 & Q2). split; [exact Q1|exact Q2].
Qed.

Lemma assembleSem_ok b : (0 < K)%nat -> (10 * Z.of_nat Np * Z.of_nat Np * Z.of_nat K + 2 * Z.of_nat (Np * K) <= INT_MAX)%Z ->
  let inc := if (b =? 0)%Z then 0%nat else 1%nat in let es := fun B : nat -> mat R => flat_map (fun k => sblock Np (fun n => nth (Np * k + n) scatter 0%nat) (B k)) (seq 0 K) in
  exists OP Mt A C cap capM, assembleSem E pt 3 Np (S N) K gather scatter b = Ok (OP, Mt) /\
    has (Np * K + inc) cap OP (es A ++ if (b =? 0)%Z then [] else frame sem) /\ has sem capM Mt (es C) /\
    forall v u U V, rep (spread u) U -> rep (spread v) V -> stiffness_form K Vert EToV U V (bl (es A) v u) /\ mass_form K Vert EToV U V (bl (es C) v u).
Proof.
  intros HK Hcap inc es. assert (HNp : (0 < Np)%nat) by (eapply Np0; eassumption). pose proof (labels_le _ _ _ HL) as Hle. pose proof (labels_pos _ _ _ HL ltac:(nia)) as Hpos. unfold assembleSem, require.
  assert (Hconf : ptables_conform pt 3 (S N) Np K = true).
  { unfold ptables_conform. cbn [tables p_dg p_Vinv p_J]. assert (Hs : dg_conform (tables_of el m) 3 (S N) Np K = true) by (eapply shapes_d; eassumption). rewrite Hs. assert (HJ : mrows (g_J (e_metric el)) = Np /\ mcols (g_J (e_metric el)) = K) by (eapply J_shape; eassumption). destruct HJ as (J1 & J2). unfold conform. rewrite J1, J2, !Nat.eqb_refl.
    destruct (element_ok _ _ _ _ _ _ _ _ _ _ _ _ HB) as [lr ls nodes masks edge_i pts SV SVi V Vi Vi' SL lift Dm x metric nrm]. destruct SVi as (S1 & S2). rewrite S1, S2, <- lr, Nat.eqb_refl. reflexivity. }
  rewrite Hconf. rewrite semMap_ok by (destruct HL as (-> & _); lia). cbn [bind tables p_Vinv]. fold inc.
  set (capO := (10 * Z.of_nat Np * Z.of_nat Np * Z.of_nat K + Z.of_nat inc * 2 * Z.of_nat sem)%Z). set (capM := (Z.of_nat Np * Z.of_nat Np * Z.of_nat K)%Z).
  assert (Hinc : (inc <= 1)%nat) by (unfold inc; destruct (b =? 0)%Z; lia).
  assert (HcO : (capO <= INT_MAX)%Z) by (unfold capO; nia). destruct (Z.ltb_spec INT_MAX capO); [lia|].
  change (fofn E 0) with (IZR 0).
  destruct (ctor_has sem capM Hpos ltac:(unfold capM; nia)) as (Mt & -> & HMt). cbn [bind].
  destruct (ctor_has (Np * K + inc) capO ltac:(nia) ltac:(unfold capO; nia)) as (OP & -> & HO). cbn [bind]. fold (MM G el).
  destruct (semElements (Np * K + inc) ltac:(lia) OP Mt capO capM HO HMt) as (OP' & Mt' & A & C & EE & H1 & H2 & H3); [unfold capO; nia|unfold capM; nia|].
  change (mmul E (mtrans (e_Vinv el)) (e_Vinv el)) with (MM G el) in *. rewrite EE. cbn [bind].
  assert (Hi' : inc = if (b =? 0)%Z then 0%nat else 1%nat) by reflexivity. clearbody inc. destruct (b =? 0)%Z eqn:Hb.
  - exists OP', Mt', A, C, capO, capM. rewrite app_nil_r. auto.
  - assert (Hlen : length (es A) = (Np * Np * K)%nat) by (unfold es; rewrite (flat_map_len _ (Np * Np)), seq_length; [lia|intros; apply sblock_len]).
    destruct (border_has' G (Np * K + inc) capO OP' (es A) sem ltac:(lia) H1) as (OP2 & -> & H5); [rewrite Hlen; unfold capO; subst inc; nia|]. cbn [bind]. exists OP2, Mt', A, C, capO, capM. auto.
Qed.
End Run.
