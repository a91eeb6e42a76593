(* QuadNodesProofs.v - nodes and face masks of the reference square, and the grid, metric terms and normals of bilinear
   quadrilaterals. *)
From Coq Require Import ZArith List Lia Bool Arith.
From Verif Require Import Base Loops Num BlitzModel BlitzProofs JacobiModel JacobiSpec JacobiProofs JacobiOrthProofs JacobiQuadProofs JacobiExactProofs DenseSpec Nodes1DModel Nodes1DSpec Nodes1DExactProofs TriModel TriSpec TriGeoSpec TriBasisProofs TriProofs TriOpProofs TriLiftProofs TriFaceProofs TriNodesProofs TriMaskProofs TriGeoProofs QuadModel QuadSpec QuadBasisProofs QuadOpProofs.
From Coq Require Import Reals Lra.
Import ListNotations.
Local Open Scope R_scope.

(* the t-th node of face f *)
Definition qpos (N f t : nat) : nat := match f with O => t * S N | 1%nat => N * S N + t | 2%nat => t * S N + N | _ => t end%nat.
Lemma qpos_lt N f t : (t <= N)%nat -> (qpos N f t < S N * S N)%nat.
Proof. intro. destruct f as [|[|[|f]]]; cbn [qpos]; nia. Qed.
Lemma qpos_incr N f t : (qpos N f t < qpos N f (S t))%nat.
Proof. destruct f as [|[|[|f]]]; cbn [qpos]; nia. Qed.
Lemma qpos_dm N f t : (t <= N)%nat -> (qpos N f t / S N, qpos N f t mod S N)%nat = match f with O => (t, 0) | 1%nat => (N, t) | 2%nat => (t, N) | _ => (0, t) end%nat.
Proof.
  intro Ht. destruct f as [|[|[|f]]]; cbn [qpos].
  - destruct (pair_div (S N) t 0 ltac:(lia)) as (E1 & E2). rewrite Nat.add_0_r in E1, E2. rewrite E1, E2. reflexivity.
  - destruct (pair_div (S N) N t ltac:(lia)) as (-> & ->). reflexivity.
  - destruct (pair_div (S N) t N ltac:(lia)) as (-> & ->). reflexivity.
  - rewrite Nat.div_small, Nat.mod_small by lia. reflexivity.
Qed.

Lemma nth_upd_same {T} (l : list T) i v d : (i < length l)%nat -> nth i (upd l i v) d = v.
Proof. intro H. apply nth_error_nth. now apply nth_error_upd_eq. Qed.
Lemma nth_upd_other {T} (l : list T) i j v d : j <> i -> nth j (upd l i v) d = nth j l d.
Proof.
  intro H. destruct (nth_error l j) eqn:En.
  - rewrite (nth_error_nth l j d En). apply nth_error_nth. rewrite nth_error_upd_neq by auto. exact En.
  - apply nth_error_None in En. rewrite !nth_overflow; auto. now rewrite upd_length.
Qed.
Section QNodes.
Variable G : R -> R.
Variable junk : nat -> nat -> R.
Local Notation E := (exact G).
Variables (N : nat) (g : list R) (tol : R).
Hypothesis HN : (1 <= N)%nat.
Hypothesis Ht : 0 < tol.
Hypothesis Lg : length g = S N.
Hypothesis g0 : nth 0 g 0 = -1.
Hypothesis gN : nth N g 0 = 1.
Local Notation n := (S N * S N)%nat.

Variables (eps : R) (eig : nat -> (nat -> nat -> R) -> list R * (nat -> nat -> R)).
Hypothesis Hg : computeGaussLobottoPoints E eig eps 0 0 N = g.
Lemma qmask_exact f test mask : length test = n -> (forall t, (t <= N)%nat -> nth (qpos N f t) test 0 = 0) ->
  faceMask E tol (S N) test = Ok mask -> mask = map (qpos N f) (seq 0 (S N)) /\ forall q, (q < n)%nat -> nth q test 0 = 0 -> In q mask.
Proof.
  intros Lt Hz HM. destruct (faceMask_ok G eps eig N HN ltac:(rewrite Hg; exact Lg) tol _ _ _ HM) as (Lm & Li & Em). rewrite Lt in *. set (idx := filter _ _) in *.
  assert (HZ : forall q, nth q test 0 = 0 -> near G tol test q = true).
  { intros q Hq. unfold near. rewrite Hq. cbn [exact flt fabs]. rewrite Rabs_R0. unfold Rltb. destruct (Rlt_dec 0 tol); [reflexivity|contradiction]. }
  set (l := map (qpos N f) (seq 0 (S N))) in *.
  assert (Hnth : forall i, (i <= N)%nat -> nth i l 0%nat = qpos N f i).
  { intros i Hi. unfold l. rewrite (nth_indep _ 0%nat (qpos N f 0)) by (rewrite map_length, seq_length; lia). rewrite map_nth, seq_nth by lia. reflexivity. }
  assert (Ll : length l = S N) by (unfold l; rewrite map_length, seq_length; reflexivity).
  assert (Il : incr l). { intros i Hi. rewrite !Hnth by lia. apply qpos_incr. }
  assert (Nl : NoDup l).
  { apply (NoDup_nth l 0%nat). intros i j Hi Hj Hij. destruct (lt_eq_lt_dec i j) as [[H|H]|H]; [|exact H|].
    - pose proof (incr_lt l Il i j ltac:(lia)). lia.
    - pose proof (incr_lt l Il j i ltac:(lia)). lia. }
  assert (Hinc : incl l idx).
  { intros q Hq. unfold l in Hq. apply in_map_iff in Hq. destruct Hq as (t & <- & Hq). apply in_seq in Hq. apply filter_In. split; [apply in_seq; pose proof (qpos_lt N f t ltac:(lia)); lia|]. apply HZ, Hz. lia. }
  assert (Hinc' : incl idx l) by (apply NoDup_length_incl; [exact Nl|lia|exact Hinc]).
  pose proof (NoDup_incl_length Nl Hinc) as Hle. assert (Lidx : length idx = S N) by lia. rewrite Lidx, Nat.sub_diag in Em. cbn [repeat] in Em. rewrite app_nil_r in Em. subst mask.
  split.
  - apply incr_eq; [|exact Il|intro x; split; [apply Hinc'|apply Hinc]].
    assert (Hsort : forall lo k i, (S i < length (filter (near G tol test) (seq lo k)))%nat -> (nth i (filter (near G tol test) (seq lo k)) 0 < nth (S i) (filter (near G tol test) (seq lo k)) 0)%nat).
    { intros lo k. revert lo. induction k as [|k IH]; intros lo i; cbn [seq filter]; [cbn; lia|]. destruct (near G tol test lo); [|apply IH].
      destruct i as [|i]; cbn [length nth]; intro Hi.
      - assert (Hin : In (nth 0 (filter (near G tol test) (seq (S lo) k)) 0%nat) (filter (near G tol test) (seq (S lo) k))) by (apply nth_In; lia).
        apply filter_In in Hin. destruct Hin as (Hin & _). apply in_seq in Hin. lia.
      - apply IH. lia. }
    intros i Hi. apply Hsort. exact Hi.
  - intros q Hq Hq0. apply filter_In. split; [apply in_seq; lia|]. apply HZ, Hq0.
Qed.

Definition qnode (r s : list R) : Prop := length r = n /\ length s = n /\ forall q, (q < n)%nat -> nth q r 0 = nth (q / S N) g 0 /\ nth q s 0 = nth (q mod S N) g 0.
Lemma quadNodes_ok r s ms : quadNodes E junk eps eig tol N = Ok (r, s, ms) ->
  qnode r s /\ ms = map (fun f => map (qpos N f) (seq 0 (S N))) (seq 0 4) /\
  forall f q mask, (f < 4)%nat -> nth_error ms f = Some mask -> (q < n)%nat -> (nth q r 0, nth q s 0) = square_edge f (square_coord f (nth q r 0) (nth q s 0)) -> In q mask.
Proof.
  unfold quadNodes. change (fofn E 0) with 0. rewrite Hg. cbn zeta.
  match goal with |- context [for_ (S N) ?body ?st0] => destruct (for_inv (fun j (st : list R * list R) => length (fst st) = n /\ length (snd st) = n /\
     forall q, (q < j * S N)%nat -> nth q (fst st) 0 = nth (q / S N) g 0 /\ nth q (snd st) 0 = nth (q mod S N) g 0) (S N) body st0) as ([r0 s0] & -> & L1 & L2 & HQ) end.
  - cbn [fst snd]. rewrite !map_length, seq_length. split; [reflexivity|]. split; [reflexivity|]. intros; lia.
  - intros j st Hj HI. cbn beta.
    match goal with |- context [for_ (S N) ?body ?st0] => destruct (for_inv (fun i (st : list R * list R) => length (fst st) = n /\ length (snd st) = n /\
      forall q, (q < j * S N + i)%nat -> nth q (fst st) 0 = nth (q / S N) g 0 /\ nth q (snd st) 0 = nth (q mod S N) g 0) (S N) body st0) as (st' & E1 & L1 & L2 & HQ) end.
    + rewrite Nat.add_0_r. exact HI.
    + intros i [r0 s0] Hi (L1 & L2 & HQ). cbn [fst snd] in *. rewrite (TriFaceProofs.getn_ok g j 0), (TriFaceProofs.getn_ok g i 0) by lia. cbn [bind].
      pose proof (pair_in (S N) j i Hj Hi) as Hb. replace (S N * j + i)%nat with (j * S N + i)%nat by lia. rewrite !setn_ok by lia. cbn [bind]. eexists. split; [reflexivity|]. cbn [fst snd]. rewrite !upd_length.
      split; [exact L1|]. split; [exact L2|]. intros q Hq. destruct (Nat.eq_dec q (j * S N + i)) as [->|Hn].
      * rewrite !nth_upd_same by lia. destruct (pair_div (S N) j i Hi) as (-> & ->). split; reflexivity.
      * rewrite !nth_upd_other by lia. apply HQ. lia.
    + exists st'. split; [exact E1|]. split; [exact L1|]. split; [exact L2|]. intros q Hq. apply HQ. lia.
  - cbn [bind fst snd] in *. assert (One : fofn E 1 = 1) by (rewrite fofn_INR; reflexivity). rewrite One.
    destruct (faceMask E tol (S N) (map _ s0)) as [m1 | |] eqn:E1; [|discriminate|discriminate]. cbn [bind].
    destruct (faceMask E tol (S N) (map _ r0)) as [m2 | |] eqn:E2; [|discriminate|discriminate]. cbn [bind].
    destruct (faceMask E tol (S N) (map _ s0)) as [m3 | |] eqn:E3 in |- *; [|discriminate|discriminate]. cbn [bind].
    destruct (faceMask E tol (S N) (map _ r0)) as [m4 | |] eqn:E4 in |- *; [|discriminate|discriminate]. cbn [bind]. intros [= <- <- <-].
    split; [split; [exact L1|split; [exact L2|exact HQ]]|].
    destruct (fun L H => qmask_exact 0 _ m1 L H E1) as (A & A').
    { rewrite map_length. exact L2. }
    { intros t Hq. pose proof (qpos_lt N 0 t Hq). rewrite (map_nth' _ _ _ 0) by lia. destruct (HQ (qpos N 0 t)) as (_ & ->); [lia|]. pose proof (qpos_dm N 0 t Hq) as D. rewrite (f_equal snd D : (_ mod _ = _)%nat). cbn [snd]. rewrite g0. cbn [exact fadd]. ring. }
    destruct (fun L H => qmask_exact 1 _ m2 L H E2) as (B & B').
    { rewrite map_length. exact L1. }
    { intros t Hq. pose proof (qpos_lt N 1 t Hq). rewrite (map_nth' _ _ _ 0) by lia. destruct (HQ (qpos N 1 t)) as (-> & _); [lia|]. pose proof (qpos_dm N 1 t Hq) as D. rewrite (f_equal fst D : (_ / _ = _)%nat). cbn [fst]. rewrite gN. cbn [exact fsub]. ring. }
    destruct (fun L H => qmask_exact 2 _ m3 L H E3) as (C & C').
    { rewrite map_length. exact L2. }
    { intros t Hq. pose proof (qpos_lt N 2 t Hq). rewrite (map_nth' _ _ _ 0) by lia. destruct (HQ (qpos N 2 t)) as (_ & ->); [lia|]. pose proof (qpos_dm N 2 t Hq) as D. rewrite (f_equal snd D : (_ mod _ = _)%nat). cbn [snd]. rewrite gN. cbn [exact fsub]. ring. }
    destruct (fun L H => qmask_exact 3 _ m4 L H E4) as (D & D').
    { rewrite map_length. exact L1. }
    { intros t Hq. pose proof (qpos_lt N 3 t Hq). rewrite (map_nth' _ _ _ 0) by lia. destruct (HQ (qpos N 3 t)) as (-> & _); [lia|]. pose proof (qpos_dm N 3 t Hq) as D. rewrite (f_equal fst D : (_ / _ = _)%nat). cbn [fst]. rewrite g0. cbn [exact fadd]. ring. }
    split; [rewrite A, B, C, D; reflexivity|].
    intros f q mask Hf Em Hq. destruct f as [|[|[|[|]]]]; [injection Em as <-|injection Em as <-|injection Em as <-|injection Em as <-|lia]; cbn [square_edge square_coord]; intros [= He].
    + apply A'; [exact Hq|]. rewrite (map_nth' _ _ q 0) by lia. rewrite He. cbn [exact fadd]. ring.
    + apply B'; [exact Hq|]. rewrite (map_nth' _ _ q 0) by lia. rewrite He. cbn [exact fsub]. ring.
    + apply C'; [exact Hq|]. rewrite (map_nth' _ _ q 0) by lia. rewrite He. cbn [exact fsub]. ring.
    + apply D'; [exact Hq|]. rewrite (map_nth' _ _ q 0) by lia. rewrite He. cbn [exact fadd]. ring.
Qed.
Lemma qnode_masks r s f : qnode r s -> (f < 4)%nat -> qmask_ok N r s f (map (qpos N f) (seq 0 (S N))).
Proof.
  intros (L1 & L2 & HQ) Hf. split; [rewrite map_length, seq_length; reflexivity|]. intros m Hm. apply in_map_iff in Hm. destruct Hm as (t & <- & Hm). apply in_seq in Hm.
  pose proof (qpos_lt N f t ltac:(lia)) as Hl. split; [exact Hl|]. destruct (HQ _ Hl) as (Hr & Hs). pose proof (qpos_dm N f t ltac:(lia)) as D.
  rewrite (f_equal fst D : (_ / _ = _)%nat) in Hr. rewrite (f_equal snd D : (_ mod _ = _)%nat) in Hs. destruct f as [|[|[|[|]]]]; [| | | |lia]; cbn [square_edge square_coord fst snd] in *.
  - rewrite Hs, g0. reflexivity.
  - rewrite Hr, gN. reflexivity.
  - rewrite Hs, gN. reflexivity.
  - rewrite Hr, g0. reflexivity.
Qed.
End QNodes.
