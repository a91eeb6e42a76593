(* MeshProofs.v - buildConnectivity computes the neighbour of every face. *)
From Coq Require Import ZArith List Lia Bool Permutation Sorted SpecFloat.
From Verif Require Import Base Loops BlitzProofs CscModel CscSpec CscProofs CscAlgProofs MeshModel MeshSpec.
Import ListNotations.
Local Open Scope nat_scope.

Lemma nested_inv {S} (Q : nat -> S -> Prop) K NF (body : nat -> nat -> S -> outcome S) s :
  Q 0 s ->
  (forall k f s, k < K -> f < NF -> Q (k * NF + f) s ->
     exists s', body k f s = Ok s' /\ Q (Datatypes.S (k * NF + f)) s') ->
  exists s', for_ K (fun k => for_ NF (body k)) s = Ok s' /\ Q (K * NF) s'.
Proof.
  intros H0 Hs. apply (for_inv (fun k s => Q (k * NF) s)); auto.
  intros k s1 Hk H1.
  destruct (for_inv (fun f s => Q (k * NF + f) s) NF (body k) s1) as (s2 & E & H2).
  - now rewrite Nat.add_0_r.
  - intros f s2 Hf H2. destruct (Hs k f s2 Hk Hf H2) as (s3 & E & H3). exists s3. split; auto.
    now rewrite Nat.add_succ_r.
  - exists s2. split; auto. now replace (Datatypes.S k * NF) with (k * NF + NF) by lia.
Qed.

Lemma div_flat NF k f : f < NF -> (k * NF + f) / NF = k.
Proof. intros. rewrite Nat.div_add_l by lia. rewrite Nat.div_small; lia. Qed.
Lemma mod_flat NF k f : f < NF -> (k * NF + f) mod NF = f.
Proof. intros. rewrite Nat.add_comm, Nat.mod_add by lia. now apply Nat.mod_small. Qed.

Lemma localVertNum_ok NF f : NF = 3 \/ NF = 4 -> f < NF -> localVertNum NF f = Ok (f, (f + 1) mod NF).
Proof.
  intros [-> | ->] Hf; unfold localVertNum; simpl;
  repeat (destruct f as [|f]; [reflexivity|]); lia.
Qed.

Section Conn.
Variable T : Type.
Variable one : T.
Variable add mul : T -> T -> T.
Variable isTwo : T -> bool.
Notation column := (list (nat * T)).

(* vertex pair of face g *)
Section Table.
Variable NF : nat.
Variable E2V : list Z.
Definition fa g := Z.to_nat (nth g E2V 0%Z).
Definition fb g := Z.to_nat (nth (g / NF * NF + (g mod NF + 1) mod NF) E2V 0%Z).
Definition face_cols (F : nat) : list column := map (fun g => [(fa g, one); (fb g, one)]) (seq 0 F).

Lemma face_cols_S F : face_cols (S F) = face_cols F ++ [[(fa F, one); (fb F, one)]].
Proof. unfold face_cols. rewrite seq_S, map_app. reflexivity. Qed.

Lemma concat_face_cols_len F : length (concat (face_cols F)) = 2 * F.
Proof. induction F; auto. rewrite face_cols_S, concat_app, app_length, IHF. simpl. lia. Qed.

Lemma firstn_seq n : forall j s, j <= n -> firstn j (seq s n) = seq s j.
Proof. induction n; intros j s Hj; destruct j; simpl; auto; try lia. now rewrite IHn by lia. Qed.

Lemma ptrs_face_cols F : ptrs 0 (face_cols F) = map (fun g => 2 * g) (seq 0 (S F)).
Proof.
  apply list_ext_nth. intros j. destruct (Nat.le_gt_cases j F).
  - rewrite ptrs_nth by (unfold face_cols; rewrite map_length, seq_length; auto).
    rewrite nth_error_map, nth_error_nth' with (d := 0) by (rewrite seq_length; lia).
    rewrite seq_nth by lia. cbn [option_map]. f_equal. cbn [plus].
    replace (firstn j (face_cols F)) with (face_cols j); [apply concat_face_cols_len|].
    unfold face_cols. rewrite firstn_map, firstn_seq by lia. auto.
  - rewrite !(proj2 (nth_error_None _ _)); auto.
    + rewrite map_length, seq_length. lia.
    + rewrite ptrs_length. unfold face_cols. rewrite map_length, seq_length. lia.
Qed.

Lemma firstn_full {A} (l l' : list A) n : length l = n -> firstn n l = l' -> l = l'.
Proof. intros <- <-. now rewrite firstn_all. Qed.

Lemma firstn_upd2 {A} (l : list A) n a b : S (S n) <= length l ->
  firstn (S (S n)) (upd (upd l n a) (S n) b) = firstn n l ++ [a; b].
Proof.
  intros H. rewrite firstn_upd_snoc by (rewrite upd_length; lia).
  rewrite firstn_upd_snoc by lia. now rewrite <- app_assoc.
Qed.

Lemma buildVToF_ok jp ji jx NV K : mesh_table NV K NF E2V -> 0 < K ->
  forall jk, buildVToF T one jp ji jx NV K NF E2V = Ok (of_cols jk NV (face_cols (K * NF))).
Proof.
  intros M HK jk. pose proof (mt_nf _ _ _ _ M) as Hnf. pose proof (mt_len _ _ _ _ M) as Hlen.
  assert (HV : 0 < NV).
  { destruct E2V as [|v E] eqn:EE; [simpl in Hlen; destruct Hnf; subst; lia|].
    pose proof (mt_range _ _ _ _ M v (or_introl eq_refl)). lia. }
  unfold buildVToF, ctor_sizes. rewrite (Nat.mul_comm NF K) in *.
  set (F := K * NF) in *. assert (HF : 0 < F) by (unfold F; destruct Hnf; subst; lia).
  destruct (Z.ltb_spec INT_MAX (Z.of_nat NV * Z.of_nat F)).
  { pose proof (mt_size _ _ _ _ M) as Q. rewrite (Nat.mul_comm NF K) in Q. fold F in Q. lia. }
  destruct (Nat.eqb_spec (NV * F) 0); [nia|].
  destruct (Nat.eqb_spec NV 0); [lia|]. destruct (Nat.eqb_spec F 0); [lia|]. cbn [orb bind].
  replace (Nat.max 1 (2 * F)) with (2 * F) by lia.
  set (a0 := mkcsc _ _ _ _ _ _).
  assert (Hrow : forall i, i < F -> exists v, nth_error E2V i = Some v /\ row_index v = Ok (Z.to_nat v) /\
             nth i E2V 0%Z = v).
  { intros i Hi. destruct (nth_error_ex E2V i) as (v & Hv); [lia|]. exists v. split; auto. split.
    - unfold row_index. pose proof (mt_range _ _ _ _ M v (nth_error_In _ _ Hv)).
      destruct (Z.ltb_spec v 0); auto; lia.
    - eapply nth_nth_error; eauto. }
  destruct (nested_inv (fun g (st : nat * nat * csc T) =>
     let '(g', nz, a) := st in
     g' = g /\ nz = 2 * g /\ m_ a = NV /\ n_ a = F /\ nzmax a = 2 * F /\ length (p_ a) = S F /\
     length (i_ a) = 2 * F /\ length (x_ a) = 2 * F /\
     firstn g (p_ a) = map (fun g => 2 * g) (seq 0 g) /\
     firstn (2 * g) (i_ a) = map fst (concat (face_cols g)) /\
     firstn (2 * g) (x_ a) = map snd (concat (face_cols g))) K NF (face_step T one NF E2V) (0, 0, a0))
    as (((g & nz) & a) & E & -> & -> & A1 & A2 & A3 & A4 & A5 & A6 & A7 & A8 & A9).
  - unfold a0; cbn [m_ n_ nzmax p_ i_ x_]. rewrite !map_length, !seq_length. repeat (split; auto).
  - intros k f ((g & nz) & a) Hk Hf (-> & -> & A1 & A2 & A3 & A4 & A5 & A6 & A7 & A8 & A9).
    assert (Hg : k * NF + f < F) by (unfold F; nia).
    assert (Hm : (f + 1) mod NF < NF) by (apply Nat.mod_upper_bound; lia).
    assert (Hg2 : k * NF + (f + 1) mod NF < F) by (unfold F; nia).
    set (g := k * NF + f) in *.
    unfold face_step. rewrite setn_ok by lia. cbn [bind].
    rewrite localVertNum_ok by auto. cbn [bind]. fold g.
    destruct (Hrow g Hg) as (v1 & N1 & R1 & D1). destruct (Hrow _ Hg2) as (v2 & N2 & R2 & D2).
    rewrite (getn_ok _ _ _ N1). cbn [bind]. rewrite (getn_ok _ _ _ N2). cbn [bind].
    rewrite R1, R2. cbn [bind].
    rewrite (setn_ok (i_ a)) by lia. cbn [bind]. rewrite (setn_ok (x_ a)) by lia. cbn [bind].
    rewrite setn_ok by (rewrite upd_length; lia). cbn [bind].
    rewrite setn_ok by (rewrite upd_length; lia). cbn [bind].
    eexists. split; [reflexivity|]. cbn [m_ n_ nzmax p_ i_ x_]. rewrite !upd_length.
    assert (Ea : fa g = Z.to_nat v1) by (unfold fa; now rewrite D1).
    assert (Eb : fb g = Z.to_nat v2).
    { unfold fb, g. rewrite div_flat, mod_flat by auto. now rewrite D2. }
    assert (E2 : 2 * S g = S (S (2 * g))) by lia.
    split; auto. split; [lia|]. do 6 (split; auto).
    split; [|rewrite E2, face_cols_S, concat_app, !map_app; split].
    + rewrite firstn_upd_snoc by lia. rewrite A7, (seq_S g), map_app. reflexivity.
    + rewrite firstn_upd2 by lia. rewrite A8. cbn. now rewrite Ea, Eb.
    + rewrite firstn_upd2 by lia. rewrite A9. reflexivity.
  - fold F in A7, A8, A9. rewrite E. cbn [bind]. rewrite setn_ok by (rewrite A4; auto). cbn [bind].
    unfold of_cols. fold F. pose proof (concat_face_cols_len F) as L.
    destruct (concat (face_cols F)) as [|e0 es] eqn:EC; [simpl in L; lia|]. rewrite <- EC in *.
    f_equal. rewrite ptrs_face_cols. rewrite L, A1, A2, A3. f_equal.
    + unfold face_cols. now rewrite map_length, seq_length.
    + rewrite seq_S, map_app. rewrite <- A7.
      apply firstn_full with (n := S F); [now rewrite upd_length|].
      rewrite firstn_upd_snoc by lia. f_equal. 
    + now apply firstn_full with (n := 2 * F).
    + now apply firstn_full with (n := 2 * F).
Qed.

Lemma valid_face_cols jk NV K : mesh_table NV K NF E2V -> valid (of_cols jk NV (face_cols (K * NF))).
Proof.
  intros M. apply of_cols_valid. intros c e Hc He. unfold face_cols in Hc.
  apply in_map_iff in Hc. destruct Hc as (g & <- & Hg). apply in_seq in Hg.
  pose proof (mt_len _ _ _ _ M) as L. pose proof (mt_nf _ _ _ _ M) as Hnf.
  assert (R : forall i, i < K * NF -> Z.to_nat (nth i E2V 0%Z) < NV).
  { intros i Hi. assert (Hin : In (nth i E2V 0%Z) E2V) by (apply nth_In; lia).
    pose proof (mt_range _ _ _ _ M _ Hin). lia. }
  destruct He as [<-|[<-|[]]]; cbn [fst].
  - apply R. lia.
  - apply R. assert (g / NF < K) by (destruct Hnf; subst NF; apply Nat.div_lt_upper_bound; lia).
    assert ((g mod NF + 1) mod NF < NF) by (apply Nat.mod_upper_bound; destruct Hnf; subst NF; lia). nia.
Qed.

(* ---- the product ---- *)
Definition has (g v : nat) : Prop := fa g = v \/ fb g = v.

Lemma combine_seq_map {X} (h : nat -> X) : forall n s, combine (seq s n) (map h (seq s n)) = map (fun g => (g, h g)) (seq s n).
Proof. induction n; intros s; simpl; f_equal; auto. Qed.

Definition vcol (F v : nat) : column :=
  flat_map (fun g => map (fun e : nat * T => (g, snd e)) (filter (fun e => fst e =? v) [(fa g, one); (fb g, one)])) (seq 0 F).

Lemma transpose_face_cols NV F v : v < NV -> nth v (transpose_cols NV (face_cols F)) [] = vcol F v.
Proof.
  intros H. rewrite transpose_cols_nth by auto. unfold face_cols. rewrite map_length, seq_length, combine_seq_map.
  unfold vcol. generalize (seq 0 F). intros l. induction l; simpl; auto. now rewrite IHl.
Qed.

Lemma vcol_in F v i x : In (i, x) (vcol F v) <-> i < F /\ has i v /\ x = one.
Proof.
  unfold vcol. rewrite in_flat_map. unfold has. split.
  - intros (g & Hg & H). apply in_seq in Hg. apply in_map_iff in H. destruct H as ((r & y) & E & H).
    injection E as <- <-. apply filter_In in H. destruct H as (H & Hr). cbn [fst snd] in *. apply Nat.eqb_eq in Hr.
    destruct H as [H|[H|[]]]; injection H as <- <-; repeat split; auto; lia.
  - intros (Hi & Hv & ->). exists i. split; [apply in_seq; lia|]. apply in_map_iff.
    exists (v, one). split; auto. apply filter_In. cbn [fst]. rewrite Nat.eqb_refl. split; auto.
    destruct Hv as [<-|<-]; simpl; auto.
Qed.

Lemma vcol_nodup F v : (forall g, g < F -> fa g <> fb g) -> NoDup (map fst (vcol F v)).
Proof.
  induction F; intros H; [constructor|].
  unfold vcol. rewrite seq_S, flat_map_app, map_app. apply NoDup_app_mk.
  - apply IHF. intros. apply H. lia.
  - cbn [flat_map plus]. rewrite app_nil_r. specialize (H F ltac:(lia)). simpl.
    destruct (Nat.eqb_spec (fa F) v), (Nat.eqb_spec (fb F) v); simpl; try lia; repeat constructor; auto.
  - intros x Hx Hy. apply in_map_iff in Hx. destruct Hx as ((i & y) & <- & Hx).
    fold (vcol F v) in Hx. apply vcol_in in Hx. cbn [fst] in Hy. cbn [flat_map plus] in Hy. rewrite app_nil_r in Hy.
    apply in_map_iff in Hy. destruct Hy as (e & <- & He). apply in_map_iff in He. destruct He as (e' & <- & _).
    cbn [fst] in Hx. lia.
Qed.

Lemma add_to_in (acc : column) k v i x : NoDup (map fst acc) ->
  In (i, x) (add_to add acc k v) <->
  (i <> k /\ In (i, x) acc) \/
  (i = k /\ ((exists y, In (k, y) acc /\ x = add y v) \/ (~ In k (map fst acc) /\ x = v))).
Proof.
  induction acc as [|(k' & w) acc IH]; intros ND; cbn [add_to map fst In].
  - split.
    + intros [E|[]]. injection E as <- <-. right. split; auto.
    + intros [(_ & [])|(-> & [(y & [] & _)|(_ & ->)])]. auto.
  - inversion ND as [|? ? N1 N2]; subst. destruct (Nat.eqb_spec k' k) as [->|N].
    + cbn [In]. split.
      * intros [E|H].
        -- injection E as <- <-. right. split; auto. left. exists w. auto.
        -- left. assert (In i (map fst acc)) by (apply in_map_iff; exists (i, x); auto).
           split; [intros ->; auto|]. auto.
      * intros [(N & [E|H])|(-> & [(y & [E|H] & ->)|(H & _)])]; auto.
        -- injection E as <- <-. tauto.
        -- injection E as <-. auto.
        -- exfalso. apply N1. apply in_map_iff. exists (k, y). auto.
        -- exfalso. apply H. auto.
    + cbn [In]. rewrite IH by auto. split.
      * intros [E|[(A & B)|(-> & [(y & A & B)|(A & B)])]].
        -- injection E as <- <-. left. auto.
        -- left. auto.
        -- right. split; auto. left. exists y. auto.
        -- right. split; auto. right. split; auto. intros [?|?]; auto.
      * intros [(A & [E|B])|(-> & [(y & [E|A] & B)|(A & B)])]; auto.
        -- injection E as <- <-. contradiction.
        -- right. right. split; auto. left. eauto.
        -- right. right. split; auto. right. split; auto.
Qed.

Lemma scatter_in (ck : column) b : NoDup (map fst ck) -> forall acc i x, NoDup (map fst acc) ->
  In (i, x) (scatter add mul ck b acc) <->
  (~ In i (map fst ck) /\ In (i, x) acc) \/
  (exists w, In (i, w) ck /\ ((exists y, In (i, y) acc /\ x = add y (mul b w)) \/
                              (~ In i (map fst acc) /\ x = mul b w))).
Proof.
  unfold scatter. induction ck as [|(k & w) ck IH]; intros ND acc i x NA; cbn [fold_left map fst snd In].
  - split; [auto|]. intros [(_ & H)|(w & [] & _)]; auto.
  - inversion ND as [|? ? N1 N2]; subst. rewrite IH by (auto; now apply add_to_nodup).
    setoid_rewrite (add_to_in acc k (mul b w)); auto. setoid_rewrite add_to_keys. split.
    + intros [(A & [(B & C)|(-> & [(y & B & ->)|(B & ->)])])|(w' & A & [(y & [(B & C)|(-> & B)] & ->)|(B & ->)])].
      * left. split; auto. intros [?|?]; auto.
      * right. exists w. split; auto. left. eauto.
      * right. exists w. split; auto.
      * right. exists w'. split; auto. left. eauto.
      * exfalso. apply N1. apply in_map_iff. exists (k, w'). auto.
      * right. exists w'. split; auto. right. split; auto.
    + intros [(A & B)|(w' & [E|A] & B)].
      * left. split; auto. left. split; auto.
      * injection E as <- <-. left. split; auto.
      * right. exists w'. split; auto.
        assert (i <> k). { intros ->. apply N1. apply in_map_iff. exists (k, w'). auto. }
        destruct B as [(y & B & ->)|(B & ->)].
        -- left. exists y. auto.
        -- right. split; auto. intros [?|?]; auto.
Qed.

Hypothesis two_yes : isTwo (add (mul one one) (mul one one)) = true.
Hypothesis two_no : isTwo (mul one one) = false.

(* Faces whose entry in column j of the product counts as a connection. *)
Definition picks (j : nat) (c : column) : list nat :=
  map fst (filter (fun e => negb (fst e =? j) && isTwo (snd e)) c).

Lemma product_col_picks NV F j i : (forall g, g < F -> fa g <> fb g /\ fa g < NV /\ fb g < NV) -> j < F ->
  In i (picks j (mul_col add mul (transpose_cols NV (face_cols F)) [(fa j, one); (fb j, one)])) <->
  i < F /\ i <> j /\ has i (fa j) /\ has i (fb j).
Proof.
  intros HF Hj. unfold mul_col. cbn [fold_left fst snd]. destruct (HF j Hj) as (Hd & Ha & Hb).
  rewrite !transpose_face_cols by auto.
  assert (NA : NoDup (map fst (vcol F (fa j)))) by (apply vcol_nodup; intros; now apply HF).
  assert (NB : NoDup (map fst (vcol F (fb j)))) by (apply vcol_nodup; intros; now apply HF).
  set (acc := scatter add mul (vcol F (fa j)) one []).
  assert (NC : NoDup (map fst acc)) by (apply scatter_nodup; constructor).
  assert (Hacc : forall i x, In (i, x) acc <-> i < F /\ has i (fa j) /\ x = mul one one).
  { intros i' x. unfold acc. rewrite scatter_in by (auto; constructor). split.
    - intros [(_ & [])|(w & H & [(y & [] & _)|(_ & ->)])]. apply vcol_in in H. destruct H as (A & B & ->). auto.
    - intros (A & B & ->). right. exists one. split; [now apply vcol_in|]. right. simpl. auto. }
  unfold picks. rewrite in_map_iff. split.
  - intros ((i' & x) & <- & H). apply filter_In in H. cbn [fst snd] in *. destruct H as (H & Ht).
    apply andb_true_iff in Ht. destruct Ht as (Hn & Ht). apply negb_true_iff, Nat.eqb_neq in Hn.
    apply scatter_in in H; auto. destruct H as [(H & H')|(w & H & [(y & H' & ->)|(H' & ->)])].
    + apply Hacc in H'. destruct H' as (_ & _ & ->). congruence.
    + apply vcol_in in H. apply Hacc in H'. destruct H as (A & B & ->), H' as (_ & C & ->). auto.
    + apply vcol_in in H. destruct H as (_ & _ & ->). congruence.
  - intros (A & B & C & D). exists (i, add (mul one one) (mul one one)). split; auto.
    apply filter_In. cbn [fst snd]. split.
    + apply scatter_in; auto. right. exists one. split; [now apply vcol_in|]. left. exists (mul one one).
      split; auto. apply Hacc. auto.
    + rewrite two_yes, andb_true_r. apply negb_true_iff, Nat.eqb_neq. auto.
Qed.

(* ---- walking over the columns of a freshly built matrix ---- *)
Lemma over_col_inv {S} jk m (cs : list column) j c (body : nat -> S -> outcome S) (P : nat -> S -> Prop) s :
  nth_error cs j = Some c -> P 0 s ->
  (forall n e k s, nth_error c n = Some e ->
     nth_error (i_ (of_cols jk m cs)) k = Some (fst e) -> nth_error (x_ (of_cols jk m cs)) k = Some (snd e) ->
     P n s -> exists s', body k s = Ok s' /\ P (Datatypes.S n) s') ->
  exists s', over_col T (of_cols jk m cs) j body s = Ok s' /\ P (length c) s'.
Proof.
  intros Hc H0 Hs. pose proof (nth_error_Some_lt _ _ _ Hc) as Hj.
  unfold over_col. change (p_ (of_cols jk m cs)) with (ptrs 0 cs).
  rewrite (getn_ok _ _ _ (ptrs_nth cs 0 j ltac:(lia))). cbn [bind].
  rewrite (getn_ok _ _ _ (ptrs_nth cs 0 (Datatypes.S j) ltac:(lia))). cbn [bind plus].
  rewrite (firstn_S_nth _ _ _ Hc), concat_app, app_length. cbn [concat]. rewrite app_nil_r.
  set (lo := length (concat (firstn j cs))).
  replace (lo + length c - lo) with (length c) by lia.
  destruct (for_from_inv (fun k s => P (k - lo) s) (length c) lo body s) as (s' & E & HP).
  - now rewrite Nat.sub_diag.
  - intros k s1 Hk H1. destruct (nth_error_ex c (k - lo)) as (e & He); [lia|].
    assert (Hcat : nth_error (concat cs) k = Some e).
    { rewrite (concat_split cs j c Hc), nth_error_app2 by (fold lo; lia). fold lo.
      rewrite nth_error_app1 by lia. auto. }
    assert (Hne : (match concat cs with [] => [jk] | _ => concat cs end) = concat cs).
    { destruct (concat cs); auto. destruct k; discriminate. }
    destruct (Hs (k - lo) e k s1 He) as (s2 & E2 & H2); auto.
    + unfold of_cols. cbn [i_]. rewrite Hne, nth_error_map, Hcat. reflexivity.
    + unfold of_cols. cbn [x_]. rewrite Hne, nth_error_map, Hcat. reflexivity.
    + exists s2. split; auto. now replace (Datatypes.S k - lo) with (Datatypes.S (k - lo)) by lia.
  - exists s'. split; auto. now replace (lo + length c - lo) with (length c) in HP by lia.
Qed.

Lemma connection_ok jk m (cs : list column) j k e :
  nth_error (i_ (of_cols jk m cs)) k = Some (fst e) -> nth_error (x_ (of_cols jk m cs)) k = Some (snd e) ->
  connection T isTwo (of_cols jk m cs) j k =
    Ok (if negb (fst e =? j) && isTwo (snd e) then Some (fst e) else None).
Proof.
  intros Hi Hx. unfold connection. rewrite (getn_ok _ _ _ Hi). cbn [bind].
  destruct (negb (fst e =? j)); cbn [andb]; auto. rewrite (getn_ok _ _ _ Hx). reflexivity.
Qed.

(* All connections in the order the loops meet them: (face, neighbour). *)
Fixpoint conns_from (j : nat) (cs : list column) : list (nat * nat) :=
  match cs with
  | [] => []
  | c :: r => map (fun i => (i, j)) (picks j c) ++ conns_from (S j) r
  end.
Definition conns := conns_from 0.

Lemma conns_from_app cs : forall j c, conns_from j (cs ++ [c]) =
  conns_from j cs ++ map (fun i => (i, j + length cs)) (picks (j + length cs) c).
Proof.
  induction cs; intros j c; simpl.
  - now rewrite app_nil_r, Nat.add_0_r.
  - rewrite IHcs, <- app_assoc. now replace (S j + length cs) with (j + S (length cs)) by lia.
Qed.

Lemma conns_firstn cs j c : nth_error cs j = Some c ->
  conns (firstn (S j) cs) = conns (firstn j cs) ++ map (fun i => (i, j)) (picks j c).
Proof.
  intros H. rewrite (firstn_S_nth _ _ _ H). unfold conns. rewrite conns_from_app.
  pose proof (nth_error_Some_lt _ _ _ H). rewrite firstn_length, Nat.min_l by lia. reflexivity.
Qed.

Lemma picks_firstn j (c : column) n e : nth_error c n = Some e ->
  picks j (firstn (S n) c) = picks j (firstn n c) ++
    (if negb (fst e =? j) && isTwo (snd e) then [fst e] else []).
Proof.
  intros H. rewrite (firstn_S_nth _ _ _ H). unfold picks. rewrite filter_app, map_app. f_equal. simpl.
  destruct (negb (fst e =? j) && isTwo (snd e)); reflexivity.
Qed.

Lemma count_connections_ok jk m (cs : list column) :
  count_connections T isTwo (length cs) (of_cols jk m cs) = Ok (length (conns cs)).
Proof.
  unfold count_connections.
  destruct (for_inv (fun j n => n = length (conns (firstn j cs))) (length cs)
    (fun j => over_col T (of_cols jk m cs) j (fun k c =>
      bind (connection T isTwo (of_cols jk m cs) j k) (fun o => Ok (match o with Some _ => S c | None => c end)))) 0)
    as (n & E & Hn); auto.
  - intros j s Hj ->. destruct (nth_error_ex cs j Hj) as (c & Hc).
    destruct (over_col_inv jk m cs j c (fun k c =>
      bind (connection T isTwo (of_cols jk m cs) j k) (fun o => Ok (match o with Some _ => S c | None => c end)))
      (fun n s => s = length (conns (firstn j cs)) + length (picks j (firstn n c))) (length (conns (firstn j cs))))
      as (s' & E & Hs); auto.
    + intros n e k s He Hi Hx ->. rewrite (connection_ok jk m cs j k e Hi Hx). cbn [bind].
      eexists. split; [reflexivity|]. rewrite (picks_firstn j c n e He), app_length.
      destruct (negb (fst e =? j) && isTwo (snd e)); simpl; lia.
    + exists s'. split; auto. rewrite Hs, firstn_all, (conns_firstn _ _ _ Hc), app_length, map_length. auto.
  - rewrite E, Hn, firstn_all. auto.
Qed.

Lemma store_connections_ok jk m (cs : list column) :
  store_connections T isTwo (length cs) (length (conns cs)) (of_cols jk m cs) =
    Ok (length (conns cs), map fst (conns cs), map snd (conns cs)).
Proof.
  unfold store_connections. set (N := length (conns cs)).
  set (body := fun j k '(c, f1, f2) => bind (connection T isTwo (of_cols jk m cs) j k) (fun o =>
     match o with
     | Some i => bind (setn f1 c i) (fun f1' => bind (setn f2 c j) (fun f2' => Ok (S c, f1', f2')))
     | None => Ok (c, f1, f2)
     end)).
  set (Inv := fun l (st : nat * list nat * list nat) => let '(c, f1, f2) := st in
     c = length l /\ length f1 = N /\ length f2 = N /\
     firstn c f1 = map (@fst nat nat) l /\ firstn c f2 = map (@snd nat nat) l).
  assert (Pre : forall j, exists r, conns cs = conns (firstn j cs) ++ r).
  { intros j. exists (conns_from j (skipn j cs)). unfold conns.
    assert (G : forall cs j s, conns_from s cs = conns_from s (firstn j cs) ++ conns_from (s + j) (skipn j cs)).
    { induction cs0; intros j0 s0; destruct j0; simpl; auto; [now rewrite Nat.add_0_r|].
      rewrite (IHcs0 j0 (S s0)), <- app_assoc. now replace (S s0 + j0) with (s0 + S j0) by lia. }
    apply (G cs j 0). }
  destruct (for_inv (fun j st => Inv (conns (firstn j cs)) st) (length cs)
    (fun j => over_col T (of_cols jk m cs) j (body j)) (0, repeat 0 N, repeat 0 N)) as (((c & f1) & f2) & E & H).
  - unfold Inv. cbn. rewrite !repeat_length. auto.
  - intros j st Hj Hst. destruct (nth_error_ex cs j Hj) as (c & Hc).
    destruct (over_col_inv jk m cs j c (body j)
      (fun n st => Inv (conns (firstn j cs) ++ map (fun i => (i, j)) (picks j (firstn n c))) st) st) as (st' & E & Hs).
    + auto.
    + cbn. now rewrite app_nil_r.
    + intros n e k ((cc & f1) & f2) He Hi Hx (-> & L1 & L2 & F1 & F2). unfold body.
      rewrite (connection_ok jk m cs j k e Hi Hx). cbn [bind].
      rewrite (picks_firstn j c n e He).
      assert (Hlt : length (conns (firstn j cs) ++ map (fun i => (i, j)) (picks j (firstn (S n) c))) <= N).
      { unfold N. destruct (Pre (S j)) as (r & ->). rewrite (conns_firstn _ _ _ Hc), <- app_assoc, !app_length, !map_length.
        rewrite <- (firstn_skipn (S n) c) at 2. unfold picks. rewrite filter_app, map_app, app_length. lia. }
      rewrite (picks_firstn j c n e He) in Hlt.
      destruct (negb (fst e =? j) && isTwo (snd e)).
      * rewrite map_app, app_assoc in Hlt |- *. cbn [map] in Hlt |- *. set (l := conns (firstn j cs) ++ _) in *. clearbody l.
        rewrite app_length in Hlt. cbn [length] in Hlt.
        rewrite setn_ok by lia. cbn [bind]. rewrite setn_ok by lia. cbn [bind].
        eexists. split; [reflexivity|]. unfold Inv. rewrite !upd_length, app_length. cbn [length].
        split; [lia|]. split; auto. split; auto.
        rewrite !map_app. cbn [map fst snd]. rewrite !firstn_upd_snoc by lia. now rewrite F1, F2.
      * rewrite app_nil_r. eexists. split; [reflexivity|]. unfold Inv. auto.
    + exists st'. split; auto. rewrite firstn_all in Hs. now rewrite (conns_firstn _ _ _ Hc).
  - change (for_ (length cs) (fun j => over_col T (of_cols jk m cs) j (body j)) (0, repeat 0 N, repeat 0 N) =
      Ok (N, map fst (conns cs), map snd (conns cs))).
    rewrite E. rewrite firstn_all in H. destruct H as (-> & L1 & L2 & F1 & F2).
    fold N in F1, F2. rewrite firstn_all2 in F1, F2 by lia. now rewrite F1, F2.
Qed.

Lemma conns_in cs i j : In (i, j) (conns cs) <-> exists c, nth_error cs j = Some c /\ In i (picks j c).
Proof.
  unfold conns. assert (G : forall s, In (i, j) (conns_from s cs) <->
    s <= j /\ exists c, nth_error cs (j - s) = Some c /\ In i (picks j c)).
  { induction cs as [|c cs IH]; intros s; cbn [conns_from].
    - split; [intros []|]. intros (_ & c & H & _). destruct (j - s); discriminate.
    - rewrite in_app_iff, IH, in_map_iff. split.
      + intros [(i' & E & H)|(H1 & c' & H2 & H3)].
        * injection E as <- <-. split; auto. exists c. rewrite Nat.sub_diag. auto.
        * split; [lia|]. exists c'. replace (j - s) with (S (j - S s)) by lia. auto.
      + intros (H1 & c' & H2 & H3). destruct (Nat.eq_dec s j) as [->|N].
        * rewrite Nat.sub_diag in H2. injection H2 as <-. left. exists i. auto.
        * right. split; [lia|]. exists c'. split; auto. replace (j - s) with (S (j - S s)) in H2 by lia. auto. }
  rewrite G. rewrite Nat.sub_0_r. intuition lia.
Qed.

Lemma conns_sorted cs : forall s, StronglySorted (fun a b => snd a <= snd b) (conns_from s cs) /\
  (forall e, In e (conns_from s cs) -> s <= snd e).
Proof.
  induction cs as [|c cs IH]; intros s; cbn [conns_from]; [split; [constructor|intros ? []]|].
  destruct (IH (S s)) as (A & B). split.
  - apply SS_app; auto.
    + induction (picks s c); cbn; constructor; auto. rewrite Forall_forall. intros x Hx.
      apply in_map_iff in Hx. destruct Hx as (i & <- & _). auto.
    + intros x y Hx Hy. apply in_map_iff in Hx. destruct Hx as (i & <- & _). specialize (B y Hy). cbn. lia.
  - intros e He. apply in_app_or in He. destruct He as [He|He].
    + apply in_map_iff in He. destruct He as (i & <- & _). auto.
    + specialize (B e He). lia.
Qed.

(* ---- the tables ---- *)
Lemma self_tables_ok K e2e e2f : length e2e = K * NF -> length e2f = K * NF ->
  self_tables K NF e2e e2f = Ok (map (fun g => g / NF) (seq 0 (K * NF)), map (fun g => g mod NF) (seq 0 (K * NF))).
Proof.
  intros L1 L2. unfold self_tables. set (F := K * NF) in *.
  destruct (nested_inv (fun g (st : list nat * list nat) => length (fst st) = F /\ length (snd st) = F /\
      firstn g (fst st) = map (fun g => g / NF) (seq 0 g) /\ firstn g (snd st) = map (fun g => g mod NF) (seq 0 g))
     K NF (fun k f '(a, b) =>
    bind (setn a (k * NF + f) k) (fun a' => bind (setn b (k * NF + f) f) (fun b' => Ok (a', b')))) (e2e, e2f))
    as ((a & b) & E & A & B & C & D).
  - cbn. auto.
  - intros k f (a & b) Hk Hf (A & B & C & D). cbn [fst snd] in *.
    assert (k * NF + f < F) by (unfold F; nia).
    rewrite setn_ok by lia. cbn [bind]. rewrite setn_ok by lia. cbn [bind].
    eexists. split; [reflexivity|]. cbn [fst snd]. rewrite !upd_length. split; auto. split; auto.
    rewrite !firstn_upd_snoc by lia. rewrite C, D, seq_S, !map_app. cbn [map plus].
    rewrite div_flat, mod_flat by auto. auto.
  - fold F in C, D. cbn [fst snd] in *. rewrite firstn_all2 in C by lia. rewrite firstn_all2 in D by lia.
    subst a b. exact E.
Qed.

Definition linked (l : list (nat * nat)) (a b : list nat) (g : nat) : Prop :=
  ((forall j, ~ In (g, j) l) /\ nth_error a g = Some (g / NF) /\ nth_error b g = Some (g mod NF)) \/
  (exists j, In (g, j) l /\ (forall j', In (g, j') l -> j' <= j) /\
     nth_error a g = Some (j / NF) /\ nth_error b g = Some (j mod NF)).

Lemma link_tables_ok F (l : list (nat * nat)) : 0 < NF ->
  (forall i j, In (i, j) l -> i < F) -> StronglySorted (fun a b => snd a <= snd b) l ->
  exists a b, link_tables NF (length l) (map (fun f => f / NF) (map fst l)) (map (fun f => f mod NF) (map fst l))
     (map (fun f => f / NF) (map snd l)) (map (fun f => f mod NF) (map snd l))
     (map (fun g => g / NF) (seq 0 F), map (fun g => g mod NF) (seq 0 F)) = Ok (a, b) /\
  length a = F /\ length b = F /\ forall g, g < F -> linked l a b g.
Proof.
  intros HNF Hl HS. unfold link_tables.
  match goal with |- exists a b, for_ _ ?body ?s0 = _ /\ _ =>
    destruct (for_inv (fun n (st : list nat * list nat) => length (fst st) = F /\ length (snd st) = F /\
      forall g, g < F -> linked (firstn n l) (fst st) (snd st) g) (length l) body s0) as ((a & b) & E & A & B & C)
  end.
  - cbn [fst snd]. rewrite !map_length, !seq_length. split; auto. split; auto. intros g Hg. left.
    split; [intros j []|]. rewrite !nth_error_map, !nth_error_nth' with (d := 0) by (rewrite seq_length; auto).
    rewrite seq_nth by auto. auto.
  - intros n (a & b) Hn (A & B & C). cbn [fst snd] in *. destruct (nth_error_ex l n Hn) as ((i & j) & Hij).
    assert (G : forall h : nat -> nat, getn (map h (map fst l)) n = Ok (h i) /\ getn (map h (map snd l)) n = Ok (h j)).
    { intros h. split; apply getn_ok; rewrite !nth_error_map, Hij; reflexivity. }
    do 2 (rewrite (proj1 (G _)); cbn [bind]; rewrite (proj2 (G _)); cbn [bind]).
    assert (Hi : i < F) by (eapply Hl; eapply nth_error_In; eauto).
    replace (i / NF * NF + i mod NF) with i by (rewrite Nat.mul_comm; apply Nat.div_mod; lia).
    rewrite setn_ok by lia. cbn [bind]. rewrite setn_ok by lia. cbn [bind].
    eexists. split; [reflexivity|]. cbn [fst snd]. rewrite !upd_length. split; auto. split; auto.
    intros g Hg. rewrite (firstn_S_nth _ _ _ Hij). unfold linked.
    rewrite !nth_error_upd_if by lia.
    assert (Hmax : forall e, In e (firstn n l) -> snd e <= j).
    { intros e He. rewrite <- (firstn_skipn n l) in HS.
      assert (Hs : In (i, j) (skipn n l)).
      { rewrite <- (firstn_skipn n l) in Hij. rewrite nth_error_app2 in Hij by (rewrite firstn_length; lia).
        eapply nth_error_In; eauto. }
      clear - HS He Hs. induction (firstn n l) as [|x r IH]; [destruct He|]. cbn in HS. inversion HS as [|? ? HS' HF]; subst.
      destruct He as [->|He]; auto. rewrite Forall_forall in HF. apply (HF (i, j)). apply in_or_app. auto. }
    destruct (Nat.eqb_spec g i) as [->|N].
    + right. exists j. split; [apply in_or_app; right; left; auto|]. split; auto.
      intros j' Hj'. apply in_app_or in Hj'. destruct Hj' as [Hj'|[Hj'|[]]].
      * apply (Hmax _ Hj').
      * injection Hj' as <-. auto.
    + destruct (C g Hg) as [(H1 & H2)|(j0 & H1 & H2 & H3)].
      * left. split; auto. intros j' Hj'. apply in_app_or in Hj'. destruct Hj' as [Hj'|[Hj'|[]]]; [eapply H1; eauto|].
        injection Hj' as -> ->. auto.
      * right. exists j0. split; [apply in_or_app; auto|]. split; auto.
        intros j' Hj'. apply in_app_or in Hj'. destruct Hj' as [Hj'|[Hj'|[]]]; auto.
        injection Hj' as -> ->. contradiction.
  - cbn [fst snd] in *. exists a, b. split; auto. rewrite firstn_all in C. auto.
Qed.

(* ---- faces of the spec ---- *)
Lemma face_lt K g a b : length E2V = K * NF -> face NF E2V g a b -> g < K * NF.
Proof. intros L (H & _). rewrite <- L. apply nth_error_Some. congruence. Qed.

Lemma face_ex NV K g : mesh_table NV K NF E2V -> g < K * NF ->
  exists a b, face NF E2V g a b /\ fa g = Z.to_nat a /\ fb g = Z.to_nat b /\
    (0 <= a < Z.of_nat NV)%Z /\ (0 <= b < Z.of_nat NV)%Z.
Proof.
  intros M Hg. pose proof (mt_len _ _ _ _ M) as L. pose proof (mt_nf _ _ _ _ M) as Hnf.
  assert (g / NF < K) by (destruct Hnf; subst NF; apply Nat.div_lt_upper_bound; lia).
  assert ((g mod NF + 1) mod NF < NF) by (apply Nat.mod_upper_bound; destruct Hnf; subst NF; lia).
  destruct (nth_error_ex E2V g) as (a & Ha); [lia|].
  destruct (nth_error_ex E2V (g / NF * NF + (g mod NF + 1) mod NF)) as (b & Hb); [nia|].
  exists a, b. split; [split; auto|]. unfold fa, fb. rewrite (nth_nth_error _ _ _ _ Ha), (nth_nth_error _ _ _ _ Hb).
  split; auto. split; auto. split; apply (mt_range _ _ _ _ M); eapply nth_error_In; eauto.
Qed.

Lemma shares_iff NV K g h : mesh_table NV K NF E2V -> h < K * NF -> g < K * NF ->
  (shares NF E2V g h <-> g <> h /\ has g (fa h) /\ has g (fb h)).
Proof.
  intros M Hh Hg. destruct (face_ex NV K g M Hg) as (a & b & F1 & A1 & B1 & R1 & R1').
  destruct (face_ex NV K h M Hh) as (c & d & F2 & A2 & B2 & R2 & R2').
  pose proof (mt_faces _ _ _ _ M g a b F1) as D1. pose proof (mt_faces _ _ _ _ M h c d F2) as D2.
  unfold shares, has. rewrite A1, B1, A2, B2. split.
  - intros (N & a' & b' & c' & d' & (X1 & X2) & (Y1 & Y2) & S). destruct F1, F2.
    assert (a' = a) by congruence. assert (b' = b) by congruence. assert (c' = c) by congruence.
    assert (d' = d) by congruence. subst. split; auto. destruct S as [(-> & ->)|(-> & ->)]; auto.
  - intros (N & P & Q). split; auto. exists a, b, c, d. split; auto. split; auto. unfold same_pair. lia.
Qed.

Lemma shares_lt K g h : length E2V = K * NF -> shares NF E2V g h -> g < K * NF /\ h < K * NF.
Proof. intros L (_ & a & b & c & d & F1 & F2 & _). split; eapply face_lt; eauto. Qed.

Lemma buildConnectivity_with_ok jk jp ji jx NV K e2e e2f : mesh_table NV K NF E2V ->
  length e2e = K * NF -> length e2f = K * NF ->
  exists E2E E2F, buildConnectivity_with T one add mul isTwo jk jp ji jx NV K NF E2V e2e e2f = Ok (E2E, E2F) /\
    length E2E = K * NF /\ length E2F = K * NF /\
    forall g, g < K * NF -> exists h, links NF E2E E2F g h /\ neighbour NF E2V g h.
Proof.
  intros M L1 L2. pose proof (mt_nf _ _ _ _ M) as Hnf. pose proof (mt_len _ _ _ _ M) as L.
  unfold buildConnectivity_with.
  destruct (Nat.eq_dec K 0) as [->|HK].
  { (* no elements *)
    assert (E2V = []) by (destruct E2V; [auto|discriminate]).
    assert (e2e = []) by (destruct e2e; [auto|discriminate]).
    assert (e2f = []) by (destruct e2f; [auto|discriminate]). subst e2e e2f.
    unfold buildVToF, ctor_sizes. rewrite Nat.mul_0_r.
    destruct (Z.ltb_spec INT_MAX (Z.of_nat NV * Z.of_nat 0)); [unfold INT_MAX in *; lia|].
    rewrite Nat.mul_0_r, orb_true_r. cbn. exists [], []. split; [reflexivity|].
    split; auto. split; auto. intros; lia. }
  rewrite (buildVToF_ok jp ji jx NV K M ltac:(lia) jk). cbn [bind].
  pose proof (valid_face_cols jk NV K M) as V. set (F := K * NF) in *.
  unfold transpose at 1. rewrite (proj2 (validb_iff _) V). cbn [ctor_ptr bind].
  rewrite cols_of_of_cols. cbn [m_ n_ of_cols].
  assert (HF : forall g, g < F -> fa g <> fb g /\ fa g < NV /\ fb g < NV).
  { intros g Hg. destruct (face_ex NV K g M Hg) as (a & b & F1 & -> & -> & R1 & R2).
    pose proof (mt_faces _ _ _ _ M g a b F1). lia. }
  assert (LF : length (face_cols F) = F) by (unfold face_cols; now rewrite map_length, seq_length).
  rewrite LF.
  assert (V2 : valid (of_cols jk F (transpose_cols NV (face_cols F)))).
  { apply of_cols_valid. intros c e Hc He. pose proof (transpose_rows _ _ _ _ Hc He) as Q. now rewrite LF in Q. }
  unfold multiply. rewrite (proj2 (validb_iff _) V), (proj2 (validb_iff _) V2). cbn [andb].
  rewrite !cols_of_of_cols. cbn [m_ n_ of_cols].
  unfold transpose_cols at 1. rewrite map_length, seq_length, Nat.eqb_refl. cbn [ctor_ptr bind].
  set (cs := map (mul_col add mul (transpose_cols NV (face_cols F))) (face_cols F)).
  assert (Lcs : length cs = F) by (unfold cs; now rewrite map_length).
  rewrite (Nat.mul_comm NF K). fold F.
  assert (EC : forall F', F' = F -> count_connections T isTwo F' (of_cols jk F' cs) = Ok (length (conns cs))).
  { intros F' ->. rewrite <- Lcs at 1. apply count_connections_ok. }
  assert (ES : forall F', F' = F -> store_connections T isTwo F' (length (conns cs)) (of_cols jk F' cs) =
     Ok (length (conns cs), map fst (conns cs), map snd (conns cs))).
  { intros F' ->. rewrite <- Lcs at 1. apply store_connections_ok. }
  rewrite EC by auto. cbn [bind]. rewrite ES by auto. cbn [bind].
  rewrite self_tables_ok by auto. cbn [bind]. fold F.
  assert (Hin : forall g j, In (g, j) (conns cs) <-> shares NF E2V g j).
  { intros g j. rewrite conns_in. split.
    - intros (c & Hc & Hp). pose proof (nth_error_Some_lt _ _ _ Hc) as Hj. rewrite Lcs in Hj.
      unfold cs, face_cols in Hc. rewrite !nth_error_map in Hc.
      rewrite nth_error_nth' with (d := 0) in Hc by (rewrite seq_length; auto). rewrite seq_nth in Hc by auto.
      injection Hc as <-. apply product_col_picks in Hp; auto. destruct Hp as (A & B & C).
      apply (shares_iff NV K); auto.
    - intros S. destruct (shares_lt K g j L S) as (Hg & Hj). apply (shares_iff NV K) in S; auto.
      eexists. split.
      + unfold cs, face_cols. rewrite !nth_error_map.
        rewrite nth_error_nth' with (d := 0) by (rewrite seq_length; auto). rewrite seq_nth by auto. reflexivity.
      + apply product_col_picks; tauto. }
  destruct (link_tables_ok F (conns cs)) as (a & b & E & A & B & C).
  - destruct Hnf; lia.
  - intros i j H. apply Hin in H. eapply shares_lt in H; eauto. destruct H; auto.
  - apply (conns_sorted cs 0).
  - exists a, b. split; auto. split; auto. split; auto.
    intros g Hg. destruct (C g Hg) as [(H1 & H2)|(j & H1 & H2 & H3)].
    + exists g. split; auto. left. split; auto. intros h' S. apply Hin in S. eapply H1; eauto.
    + exists j. split; auto. right. split; [now apply Hin|]. intros h' S. apply H2. now apply Hin.
Qed.
End Table.
End Conn.

Lemma buildConnectivity_ok NF E2V jk jp ji jx NV K e2e e2f : mesh_table NV K NF E2V ->
  length e2e = K * NF -> length e2f = K * NF ->
  exists E2E E2F, buildConnectivity jk jp ji jx NV K NF E2V e2e e2f = Ok (E2E, E2F) /\
    length E2E = K * NF /\ length E2F = K * NF /\
    forall g, g < K * NF -> exists h, links NF E2E E2F g h /\ neighbour NF E2V g h.
Proof.
  intros. unfold buildConnectivity. apply buildConnectivity_with_ok; auto; vm_compute; reflexivity.
Qed.

Lemma buildConnectivity_overflow NF E2V jk jp ji jx NV K e2e e2f :
  (INT_MAX < Z.of_nat NV * Z.of_nat (NF * K))%Z ->
  buildConnectivity jk jp ji jx NV K NF E2V e2e e2f = UB.
Proof.
  intros H. unfold buildConnectivity, buildConnectivity_with, buildVToF, ctor_sizes.
  destruct (Z.ltb_spec INT_MAX (Z.of_nat NV * Z.of_nat (NF * K))); [reflexivity|lia].
Qed.
