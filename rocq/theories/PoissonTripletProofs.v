(* PoissonTripletProofs.v - inserting blocks into a triplet, and the bilinear form of a list of entries. *)
From Coq Require Import ZArith List Lia Bool Permutation.
From Verif Require Import Base Loops Num TripletModel TripletProofs CscModel CscSpec CscProofs CscAlgProofs CscProps JacobiSpec JacobiQuadProofs JacobiProofs FoldProofs
  TriModel Nodes1DModel PoissonModel PoissonSpec.
From Coq Require Import Reals Lra.
Import ListNotations.
Local Open Scope R_scope.

Definition toZ (e : nat * nat * R) : Z * Z * R := (Z.of_nat (row_of e), Z.of_nat (col_of e), val_of e).
Definition inD (D : nat) (e : nat * nat * R) : Prop := (row_of e < D)%nat /\ (col_of e < D)%nat.
Record has (D : nat) (cap : Z) (t : triplet R) (es : list (nat * nat * R)) : Prop := Has {
  h_wf : wf R t; h_view : view R t = map toZ es; h_rows : rows_ t = Z.of_nat D; h_cols : cols_ t = Z.of_nat D;
  h_cap : nzmax_ t = cap; h_in : Forall (inD D) es }.

Lemma view_entries (t : triplet R) : triplet_entries t = map (fun '(i, j, x) => (Z.to_nat i, Z.to_nat j, x)) (view R t).
Proof. reflexivity. Qed.
Lemma has_entries D cap t es : has D cap t es -> triplet_entries t = es.
Proof.
  intros [W V _ _ _ _]. rewrite view_entries, V, map_map. rewrite <- (map_id es) at 2. apply map_ext. intros [[i j] x]. unfold toZ. cbn. now rewrite !Nat2Z.id.
Qed.
Lemma has_nnz D cap t es : has D cap t es -> nnz_ t = Z.of_nat (length es).
Proof. intros [W V _ _ _ _]. rewrite <- (view_length R t W), V, map_length. reflexivity. Qed.
Lemma has_range D cap t es : has D cap t es -> triplet_in_range t.
Proof.
  intro H. pose proof (has_nnz _ _ _ _ H) as Hn. destruct H as [W V Hr Hc _ Hi]. pose proof W as (W1 & W2 & W3 & W4). unfold triplet_in_range.
  split; [lia|]. split; [lia|]. split; [lia|]. split; [lia|].
  assert (Hv : forall k r c x, (k < Z.to_nat (nnz_ t))%nat -> nth_error (row_ t) k = Some r -> nth_error (col_ t) k = Some c -> nth_error (elems_ t) k = Some x ->
    (0 <= r < rows_ t /\ 0 <= c < cols_ t)%Z).
  { intros k r c x Hk E1 E2 E3. pose proof (nth_view R t k W) as Hnv. rewrite V in Hnv. 
    assert (Hk' : (k < length es)%nat) by lia. destruct (nth_some es k Hk') as ([[a b] y] & Ey). rewrite nth_error_map, Ey in Hnv. cbn [option_map] in Hnv.
    rewrite Forall_forall in Hi. destruct (Hi _ (nth_error_In _ _ Ey)) as (I1 & I2). cbn in I1, I2. unfold toZ in Hnv. cbn in Hnv.
    rewrite !nth_error_firstn' in Hnv. destruct (Nat.ltb_spec k (Z.to_nat (nnz_ t))); [|lia]. rewrite E1, E2, E3 in Hnv. injection Hnv as <- <- <-. lia. }
  split; intros k r Hk E.
  - destruct (nth_some (col_ t) k ltac:(lia)) as (c & Ec). destruct (nth_some (elems_ t) k ltac:(lia)) as (x & Ex). apply (Hv k r c x); assumption.
  - destruct (nth_some (row_ t) k ltac:(lia)) as (c & Ec). destruct (nth_some (elems_ t) k ltac:(lia)) as (x & Ex). apply (Hv k c r x); assumption.
Qed.
Lemma ctor_has D cap : (0 < D)%nat -> (0 <= cap)%Z -> exists t, TripletModel.ctor R 0 (Z.of_nat D) (Z.of_nat D) cap = Ok t /\ has D cap t [].
Proof.
  intros HD Hc. unfold TripletModel.ctor. destruct (Z.ltb_spec cap 0); [lia|]. destruct (Z.eqb_spec (Z.of_nat D) 0); [lia|]. cbn [orb].
  eexists. split; [reflexivity|]. destruct (ctor_wf R 0 (Z.of_nat D) (Z.of_nat D) cap) with (s := mk (Z.of_nat D) (Z.of_nat D) 0 cap (repeat 0%Z (Z.to_nat cap)) (repeat 0%Z (Z.to_nat cap)) (repeat 0 (Z.to_nat cap))) as (W & V).
  { unfold TripletModel.ctor. destruct (Z.ltb_spec cap 0); [lia|]. destruct (Z.eqb_spec (Z.of_nat D) 0); [lia|]. reflexivity. }
  constructor; auto.
Qed.

Section Exact.
Variable G : R -> R.
Local Notation E := (exact G).
Lemma zeroE : fofn E 0 = 0.
Proof. rewrite fofn_INR. reflexivity. Qed.
Lemma ins_has D cap t es r c v : has D cap t es -> (Z.of_nat (length es) < cap)%Z -> (r < D)%nat -> (c < D)%nat ->
  exists t', ins E r c v t = Ok t' /\ has D cap t' (es ++ [(r, c, v)]).
Proof.
  intros H Hl Hr Hc. pose proof (has_nnz _ _ _ _ H) as Hn. destruct H as [W V R1 C1 Cp Hi]. unfold ins. rewrite zeroE.
  destruct (insert_cases R 0 t (Z.of_nat r) (Z.of_nat c) v W) as [(A1 & _)|(_ & t' & -> & W' & V' & N' & R' & C' & M')]; [lia|].
  exists t'. split; [reflexivity|]. constructor; auto; try congruence.
  - rewrite V', V, map_app. reflexivity.
  - rewrite M'. destruct (Z.leb_spec (nzmax_ t) (nnz_ t)); lia.
  - apply Forall_app. split; [exact Hi|]. constructor; [|constructor]. split; assumption.
Qed.

(* the entries of a block, row by row *)
Definition block (Np r0 c0 : nat) (B : mat R) : list (nat * nat * R) :=
  map (fun p => ((r0 + fst p)%nat, (c0 + snd p)%nat, ment B (fst p) (snd p))) (pairs Np Np).
Lemma block_len Np r0 c0 B : length (block Np r0 c0 B) = (Np * Np)%nat.
Proof. unfold block. now rewrite map_length, pairs_len. Qed.

Lemma insBlock_has D cap t es Np r0 c0 B : has D cap t es -> (Z.of_nat (length es + Np * Np) <= cap)%Z -> (r0 + Np <= D)%nat -> (c0 + Np <= D)%nat ->
  mrows B = Np -> mcols B = Np -> exists t', insBlock E Np r0 c0 B t = Ok t' /\ has D cap t' (es ++ block Np r0 c0 B).
Proof.
  intros H Hc Hr Hcc B1 B2. unfold insBlock. rewrite for2. pose proof (pairs_len Np Np) as HL.
  destruct (foldM_inv (fun done s => has D cap s (es ++ map (fun p => ((r0 + fst p)%nat, (c0 + snd p)%nat, ment B (fst p) (snd p))) done))
    (fun p t => bind (mget B (fst p) (snd p)) (fun v => ins E (r0 + fst p) (c0 + snd p) v t)) (pairs Np Np) [] t) as (t' & Et & Ht).
  - cbn [map]. rewrite app_nil_r. exact H.
  - intros d [i j] s (rest & Er) Hs. cbn [fst snd]. assert (Hin : In (i, j) (pairs Np Np)) by (cbn in Er; rewrite Er; apply in_elt). apply pairs_in in Hin.
    unfold mget. rewrite inb_true by lia. cbn [bind].
    destruct (ins_has D cap s _ (r0 + i)%nat (c0 + j)%nat (ment B i j) Hs) as (s' & Es & Hs'); try lia.
    { rewrite app_length, map_length. cbn in Er. rewrite Er, app_length in HL. cbn [length] in HL. lia. }
    exists s'. split; [exact Es|]. rewrite map_app, app_assoc. exact Hs'.
  - exists t'. split; [exact Et|exact Ht].
Qed.
Lemma insBlock2_has D D' cap cap' t u es fs Np r0 c0 B C : has D cap t es -> has D' cap' u fs -> (Z.of_nat (length es + Np * Np) <= cap)%Z -> (Z.of_nat (length fs + Np * Np) <= cap')%Z ->
  (r0 + Np <= D)%nat -> (c0 + Np <= D)%nat -> (r0 + Np <= D')%nat -> (c0 + Np <= D')%nat -> mrows B = Np -> mcols B = Np -> mrows C = Np -> mcols C = Np ->
  exists t' u', insBlock2 E Np r0 c0 B C (t, u) = Ok (t', u') /\ has D cap t' (es ++ block Np r0 c0 B) /\ has D' cap' u' (fs ++ block Np r0 c0 C).
Proof.
  intros H H' Hc Hc' Hr Hcc Hr' Hcc' B1 B2 C1 C2. unfold insBlock2. rewrite (for2 Np Np (fun i j '(t, u) => _)). pose proof (pairs_len Np Np) as HL.
  match goal with |- exists t' u', foldM ?f _ _ = _ /\ _ /\ _ => destruct (foldM_inv (fun done s => has D cap (fst s) (es ++ map (fun p => ((r0 + fst p)%nat, (c0 + snd p)%nat, ment B (fst p) (snd p))) done) /\
      has D' cap' (snd s) (fs ++ map (fun p => ((r0 + fst p)%nat, (c0 + snd p)%nat, ment C (fst p) (snd p))) done)) f (pairs Np Np) [] (t, u)) as ([t' u'] & Et & Ht & Hu) end.
  - cbn [map fst snd]. rewrite !app_nil_r. auto.
  - intros d [i j] [s w] (rest & Er) (Hs & Hw). cbn [fst snd] in *. assert (Hin : In (i, j) (pairs Np Np)) by (cbn in Er; rewrite Er; apply in_elt). apply pairs_in in Hin.
    cbn in Er. rewrite Er, app_length in HL. cbn [length] in HL.
    unfold mget. rewrite inb_true by lia. cbn [bind].
    destruct (ins_has D cap s _ (r0 + i)%nat (c0 + j)%nat (ment B i j) Hs) as (s' & Es & Hs'); try lia; [rewrite app_length, map_length; lia|].
    destruct (ins_has D' cap' w _ (r0 + i)%nat (c0 + j)%nat (ment C i j) Hw) as (w' & Ew & Hw'); try lia; [rewrite app_length, map_length; lia|].
    rewrite Es. cbn [bind]. rewrite inb_true by lia. cbn [bind]. rewrite Ew. cbn [bind]. exists (s', w'). split; [reflexivity|]. cbn [fst snd]. rewrite !map_app, !app_assoc. auto.
  - exists t', u'. auto.
Qed.
(* the border *)
Definition frame (dof : nat) : list (nat * nat * R) := flat_map (fun k => [(dof, k, 1); (k, dof, 1)]) (seq 0 dof).
Lemma frame_len dof : length (frame dof) = (dof * 2)%nat.
Proof. unfold frame. rewrite (flat_map_len _ 2), seq_length; [lia|reflexivity]. Qed.
Lemma border_has cap t es dof : has (S dof) cap t es -> (Z.of_nat (length es + dof * 2) <= cap)%Z -> exists t', border E dof t = Ok t' /\ has (S dof) cap t' (es ++ frame dof).
Proof.
  intros H Hc. unfold border. rewrite for_fold.
  match goal with |- exists t', foldM ?f _ _ = _ /\ _ => destruct (foldM_inv (fun done s => has (S dof) cap s (es ++ flat_map (fun k => [(dof, k, 1); (k, dof, 1)]) done)) f (seq 0 dof) [] t) as (t' & Et & Ht) end.
  - cbn [flat_map]. rewrite app_nil_r. exact H.
  - intros d k s (rest & Er) Hs. assert (Hin : In k (seq 0 dof)) by (cbn in Er; rewrite Er; apply in_elt). apply in_seq in Hin.
    assert (HL : (S (length d) <= dof)%nat) by (rewrite <- (seq_length dof 0); cbn in Er; rewrite Er, app_length; cbn; lia).
    assert (H1 : fofn E 1 = 1) by (rewrite fofn_INR; reflexivity). rewrite H1.
    assert (Hlen : length (flat_map (fun k => [(dof, k, 1); (k, dof, 1)]) d) = (length d * 2)%nat) by (apply flat_map_len; reflexivity).
    destruct (ins_has _ cap s _ dof k 1 Hs) as (s' & Es & Hs'); try lia; [rewrite app_length, Hlen; lia|]. rewrite Es. cbn [bind].
    destruct (ins_has _ cap s' _ k dof 1 Hs') as (s2 & Es2 & Hs2); try lia; [rewrite !app_length, Hlen; cbn; lia|]. exists s2. split; [exact Es2|].
    rewrite flat_map_app. cbn [flat_map]. rewrite app_nil_r. rewrite <- !app_assoc in Hs2. cbn [app] in Hs2. exact Hs2.
  - exists t'. split; [exact Et|exact Ht].
Qed.
End Exact.

(* v^T a u for a list of entries *)
Fixpoint bl (es : list (nat * nat * R)) (v u : nat -> R) : R :=
  match es with [] => 0 | (i, j, x) :: es' => v i * x * u j + bl es' v u end.
Lemma bl_app a b v u : bl (a ++ b) v u = bl a v u + bl b v u.
Proof. induction a as [|[[i j] x] a IH]; cbn [app bl]; [ring|]. rewrite IH. ring. Qed.
Lemma value_nil i j : value 0 Rplus [] i j = 0.
Proof. reflexivity. Qed.
Lemma value_cons e es i j : value 0 Rplus (e :: es) i j = (if at_pos i j e then val_of e else 0) + value 0 Rplus es i j.
Proof. unfold value. cbn [filter]. destruct (at_pos i j e); cbn [map sum fold_right]; unfold sum; cbn [fold_right]; ring. Qed.
Lemma bl_value D es v u : Forall (inD D) es -> sumn D (fun i => sumn D (fun j => v i * value 0 Rplus es i j * u j)) = bl es v u.
Proof.
  induction 1 as [|[[a b] x] es (H1 & H2) _ IH]; cbn [bl].
  - apply sumn_zero. intros. apply sumn_zero. intros. rewrite value_nil. ring.
  - cbn in H1, H2. rewrite <- IH. rewrite (sumn_ext D _ (fun i => sumn D (fun j => v i * (if at_pos i j (a, b, x) then x else 0) * u j) + sumn D (fun j => v i * value 0 Rplus es i j * u j))).
    + rewrite sumn_plus. f_equal. rewrite (sumn_pick D _ a H1).
      * rewrite (sumn_pick D _ b H2).
        -- unfold at_pos. cbn. rewrite !Nat.eqb_refl. reflexivity.
        -- intros j _ Hj. unfold at_pos. cbn. destruct (Nat.eqb_spec b j); [congruence|]. rewrite andb_false_r. ring.
      * intros i _ Hi. apply sumn_zero. intros j Hj. unfold at_pos. cbn. destruct (Nat.eqb_spec a i); [congruence|]. cbn. ring.
    + intros i Hi. rewrite <- sumn_plus. apply sumn_ext. intros j Hj. rewrite value_cons. cbn [val_of snd]. ring.
Qed.
Definition bm (Np : nat) (B : mat R) (v u : nat -> R) : R := sumn Np (fun i => sumn Np (fun j => v i * ment B i j * u j)).
Lemma bl_row r c0 B v u i n : bl (map (fun p => ((r + fst p)%nat, (c0 + snd p)%nat, ment B (fst p) (snd p))) (map (fun j => (i, j)) (seq 0 n))) v u =
  sumn n (fun j => v (r + i)%nat * ment B i j * u (c0 + j)%nat).
Proof.
  induction n as [|n IH]; [reflexivity|]. rewrite seq_S, !map_app, bl_app, IH, sumn_S. cbn [map bl fst snd plus]. ring.
Qed.
Lemma bl_block Np r0 c0 B v u : bl (block Np r0 c0 B) v u = bm Np B (fun i => v (r0 + i)%nat) (fun j => u (c0 + j)%nat).
Proof.
  unfold block, pairs, bm. generalize Np at 1 4. intro n. induction Np as [|m IH]; [reflexivity|].
  rewrite seq_S, flat_map_app, map_app, bl_app, IH, sumn_S. cbn [flat_map plus]. rewrite app_nil_r, bl_row. reflexivity.
Qed.
Lemma bl_frame dof v u : bl (frame dof) v u = v dof * sumn dof u + sumn dof v * u dof.
Proof.
  unfold frame. generalize dof at 1 2 4 7. intro d. induction dof as [|n IH]; [rewrite !sumn_0; cbn; ring|].
  rewrite seq_S, flat_map_app, bl_app, IH, !sumn_S. cbn [flat_map app bl plus]. ring.
Qed.
Lemma Rplus_monoid : comm_monoid 0 Rplus.
Proof. constructor; intros; ring. Qed.
Lemma csc_of D cap t es jk a : has D cap t es -> ctor_triplet jk t = Ok a ->
  valid a /\ rows a = D /\ cols a = D /\ (forall i j, entry_of a i j = value 0 Rplus es i j) /\ forall v u, quadratic D a v u = bl es v u.
Proof.
  intros H Ha. pose proof (has_range _ _ _ _ H) as Hr. destruct (C05_triplet_to_csc R jk t Hr) as (a' & Ea & Va & R1 & C1 & _). rewrite Ea in Ha. injection Ha as ->.
  assert (He : forall i j, entry_of a i j = value 0 Rplus es i j) by (intros; unfold entry_of; rewrite (C05_same_matrix R 0 Rplus jk t a Rplus_monoid Hr Ea), (has_entries _ _ _ _ H); reflexivity).
  destruct H as [_ _ Hrows Hcols _ Hin]. split; [exact Va|]. split; [lia|]. split; [lia|]. split; [exact He|].
  intros v u. unfold quadratic. rewrite <- (bl_value D es v u Hin). apply sumn_ext. intros i Hi. apply sumn_ext. intros j Hj. now rewrite He.
Qed.
