(* Maps2DProofs.v - proofs about Maps2DModel.v. *)
From Coq Require Import ZArith List Lia Bool FinFun.
From Verif Require Import Base Loops Num BlitzModel BlitzSpec BlitzProofs MeshSpec FoldProofs Maps2DModel Maps2DSpec.
Import ListNotations.
Local Open Scope nat_scope.

Lemma tget_ok {T} (t : ten T) i j k : i < t1 t -> j < t2 t -> k < t3 t -> tget t i j k = Ok (tent t i j k).
Proof. intros. unfold tget, tin. rewrite !(proj2 (Nat.ltb_lt _ _)) by auto. reflexivity. Qed.
Lemma tset_ok {T} (t : ten T) i j k v : i < t1 t -> j < t2 t -> k < t3 t -> exists t', tset t i j k v = Ok t' /\
  t1 t' = t1 t /\ t2 t' = t2 t /\ t3 t' = t3 t /\ tent t' i j k = v /\
  (forall a b c, (a, b, c) <> (i, j, k) -> tent t' a b c = tent t a b c).
Proof.
  intros. unfold tset, tin. rewrite !(proj2 (Nat.ltb_lt _ _)) by auto. cbn [andb]. eexists. split; [reflexivity|]. cbn [t1 t2 t3 tent].
  repeat split; auto.
  - rewrite !Nat.eqb_refl. reflexivity.
  - intros a b c Hn. destruct (Nat.eqb_spec a i), (Nat.eqb_spec b j), (Nat.eqb_spec c k); cbn [andb]; auto. congruence.
Qed.

(* the last index below n satisfying p *)
Fixpoint lastp (p : nat -> bool) (n : nat) : option nat :=
  match n with 0 => None | S m => if p m then Some m else lastp p m end.
Lemma lastp_none p n : lastp p n = None <-> forall i, i < n -> p i = false.
Proof.
  induction n; cbn [lastp]; [split; [intros; lia|auto]|]. destruct (p n) eqn:E; split; try discriminate.
  - intro H. rewrite H in E by lia. discriminate.
  - intros H i Hi. destruct (Nat.eq_dec i n); [subst; auto|]. apply IHn; auto. lia.
  - intro H. apply IHn. intros; apply H; lia.
Qed.
Lemma lastp_some p n i : lastp p n = Some i <-> i < n /\ p i = true /\ forall j, i < j < n -> p j = false.
Proof.
  induction n; cbn [lastp]; [split; [discriminate|lia]|]. destruct (p n) eqn:E; split.
  - intros [= ->]. repeat split; auto. intros. lia.
  - intros (Hi & Hp & Hj). f_equal. destruct (Nat.eq_dec i n); auto. rewrite Hj in E by lia. discriminate.
  - intro H. apply IHn in H as (H1 & H2 & H3). repeat split; auto. intros j Hj. destruct (Nat.eq_dec j n); [subst; auto|]. apply H3; lia.
  - intros (Hi & Hp & Hj). apply IHn. destruct (Nat.eq_dec i n); [subst; congruence|]. repeat split; auto; try lia. intros; apply Hj; lia.
Qed.

Section Maps.
Context {T : Type}.
Variable A : arith T.
Variable hypot : T -> T -> T.
Variable sort : (nat -> nat -> bool) -> list nat -> list nat.
Variable junk : nat -> T.
Variable junkn : nat -> nat.
Variable tol : T.
Variables (NF Nfp Np K : nat).
Variables (Fm : mat nat) (x y : mat T) (E2E E2F E2V : list nat) (Vert : list T).
Hypothesis HT : tables_ok NF Nfp Np K Fm x y E2E E2F E2V Vert.

Lemma flat_ok (m : mat T) : mrows m = Np -> mcols m = K -> exists l, reshapeMatTo1D m false (map junk (seq 0 (K * Np))) = Ok l /\ length l = K * Np /\
  forall i k, i < Np -> k < K -> nth_error l (volume_id Np i k) = Some (ment m i k).
Proof.
  intros Hr Hc. destruct (to1d_spec m false (map junk (seq 0 (K * Np)))) as (l & E & L & H & _).
  { rewrite Hr, Hc, map_length, seq_length. lia. }
  exists l. split; [exact E|]. rewrite map_length, seq_length in L. split; [exact L|]. intros i k Hi Hk.
  specialize (H i k ltac:(lia) ltac:(lia)). unfold flat_index, volume_id in *. rewrite Hr in H. rewrite <- H. f_equal. lia.
Qed.

Definition dims {V} (t : ten V) : Prop := t1 t = Nfp /\ t2 t = NF /\ t3 t = K.
Lemma vmapM3_ok : exists M, build_vmapM3 NF Nfp Np K Fm = Ok M /\ dims M /\
  forall n f k, n < Nfp -> f < NF -> k < K -> tent M n f k = volume_id Np (ment Fm n f) k.
Proof.
  destruct HT as [_ (F1 & F2 & F3) _ _ _ _ _]. unfold build_vmapM3. rewrite for3.
  destruct (fold_cells (St := ten nat) (Key := nat * nat * nat) dims (fun M p => tent M (snd p) (snd (fst p)) (fst (fst p))) (fun _ => 0)
    (fun p => volume_id Np (ment Fm (snd p) (snd (fst p))) (fst (fst p)))
    (fun p M => bind (mget Fm (snd p) (snd (fst p))) (fun i => bind (mget (mkmat Np K (fun i k => i + Np * k)) i (fst (fst p))) (fun id => tset M (snd p) (snd (fst p)) (fst (fst p)) id)))
    (triples K NF Nfp) (triples_nodup _ _ _)) with (s := mkten Nfp NF K (fun _ _ _ => 0)) as (M & E & D & C & _).
  - intros [[k f] n] s Hin (D1 & D2 & D3) _. apply triples_in in Hin as (Hk & Hf & Hn). cbn [fst snd].
    rewrite mget_ok by lia. cbn [bind]. rewrite mget_ok by (cbn [mrows mcols]; auto). cbn [bind ment].
    destruct (tset_ok s n f k (ment Fm n f + Np * k)) as (s' & E & Q1 & Q2 & Q3 & Q4 & Q5); try lia.
    exists s'. split; [exact E|]. split; [repeat split; congruence|]. split; [exact Q4|]. intros [[a b] c] Hne. cbn [fst snd]. apply Q5. congruence.
  - repeat split.
  - reflexivity.
  - exists M. split; [exact E|]. split; [exact D|]. intros n f k Hn Hf Hk. exact (C (k, f, n) (proj2 (triples_in _ _ _ _ _ _) (conj Hk (conj Hf Hn)))).
Qed.

(* distance test between node n of face f of element k and node nP of the neighbouring face *)
Definition vcoord (v c : nat) : T := nth (3 * v + c) Vert (fofZ A 0).
Definition refd (f k : nat) : T := let v1 := nth (k * NF + f) E2V 0 in let v2 := nth (k * NF + (f + 1) mod NF) E2V 0 in
  hypot (fsub A (vcoord v1 0) (vcoord v2 0)) (fsub A (vcoord v1 1) (vcoord v2 1)).
Definition near (n f k nP f2 k2 : nat) : bool :=
  flt A (hypot (fsub A (ment x (ment Fm nP f2) k2) (ment x (ment Fm n f) k)) (fsub A (ment y (ment Fm nP f2) k2) (ment y (ment Fm n f) k)))
        (fmul A (refd f k) tol).

Lemma face_lt f k : f < NF -> k < K -> NF * k + f < NF * K.
Proof. nia. Qed.
Lemma getn_nth {V} (l : list V) i d : i < length l -> getn l i = Ok (nth i l d).
Proof. intro H. unfold getn. rewrite (nth_error_nth' l d H). reflexivity. Qed.
Lemma face_length_ok f k : f < NF -> k < K -> face_length A hypot NF E2V Vert f k = Ok (refd f k).
Proof.
  intros Hf Hk. destruct HT as [Hn _ _ _ _ _ (L & Hv)]. unfold face_length.
  assert (H1 : k * NF + f < length E2V) by (rewrite L; nia).
  assert (H2 : k * NF + (f + 1) mod NF < length E2V) by (rewrite L; pose proof (Nat.mod_upper_bound (f + 1) NF); nia).
  rewrite (getn_nth E2V _ 0 H1). cbn [bind]. rewrite (getn_nth E2V _ 0 H2). cbn [bind].
  pose proof (Hv _ (nth_In _ 0 H1)). pose proof (Hv _ (nth_In _ 0 H2)).
  rewrite !(getn_nth Vert _ (fofZ A 0)) by lia. cbn [bind]. unfold refd, vcoord. rewrite !Nat.add_0_r. reflexivity.
Qed.

Variables (xl yl : list T).
Hypothesis Hx : forall i k, i < Np -> k < K -> nth_error xl (volume_id Np i k) = Some (ment x i k).
Hypothesis Hy : forall i k, i < Np -> k < K -> nth_error yl (volume_id Np i k) = Some (ment y i k).
Variable M : ten nat.
Hypothesis DM : dims M.
Hypothesis HM : forall n f k, n < Nfp -> f < NF -> k < K -> tent M n f k = volume_id Np (ment Fm n f) k.

Definition partner (n f k : nat) : option nat := lastp (fun nP => near n f k nP (nth (NF * k + f) E2F 0) (nth (NF * k + f) E2E 0)) Nfp.
Definition partner_vals (n f k : nat) : nat * nat := let k2 := nth (NF * k + f) E2E 0 in let f2 := nth (NF * k + f) E2F 0 in
  match partner n f k with None => (0, 0) | Some nP => (volume_id Np (ment Fm nP f2) k2, face_id NF Nfp nP f2 k2) end.
Lemma nbr_lt f k : f < NF -> k < K -> nth (NF * k + f) E2E 0 < K /\ nth (NF * k + f) E2F 0 < NF.
Proof. intros Hf Hk. destruct HT as [_ _ _ _ (L1 & H1) (L2 & H2) _]. pose proof (face_lt f k Hf Hk). split; [apply H1|apply H2]; apply nth_In; lia. Qed.

Definition cell2 (P : ten nat * ten nat) (p : nat * nat * nat) : nat * nat :=
  (tent (fst P) (fst (fst p)) (snd (fst p)) (snd p), tent (snd P) (fst (fst p)) (snd (fst p)) (snd p)).
Definition dims2 (P : ten nat * ten nat) : Prop := dims (fst P) /\ dims (snd P).

Lemma match_node_ok n f k P : n < Nfp -> f < NF -> k < K -> dims2 P -> cell2 P (n, f, k) = (0, 0) ->
  exists P', match_node A hypot tol NF Nfp E2E E2F E2V Vert xl yl M n f k P = Ok P' /\ dims2 P' /\ cell2 P' (n, f, k) = partner_vals n f k /\
    forall q, q <> (n, f, k) -> cell2 P' q = cell2 P q.
Proof.
  intros Hn Hf Hk HP H0. destruct (nbr_lt f k Hf Hk) as (Hk2 & Hf2). pose proof (face_lt f k Hf Hk) as Hg.
  destruct HT as [_ (F1 & F2 & F3) _ _ (L1 & _) (L2 & _) _]. unfold match_node.
  rewrite (getn_nth E2E _ 0) by lia. cbn [bind]. rewrite (getn_nth E2F _ 0) by lia. cbn [bind]. rewrite face_length_ok by auto. cbn [bind].
  destruct DM as (D1 & D2 & D3). rewrite tget_ok by lia. cbn [bind]. rewrite HM by auto.
  rewrite (getn_ok _ _ _ (Hx _ _ (F3 n f Hn Hf) Hk)), (getn_ok _ _ _ (Hy _ _ (F3 n f Hn Hf) Hk)). cbn [bind].
  unfold partner_vals, partner. set (k2 := nth (NF * k + f) E2E 0) in *. set (f2 := nth (NF * k + f) E2F 0) in *.
  match goal with |- context [for_ Nfp ?body P] => destruct (for_inv (fun j Q => dims2 Q /\
     cell2 Q (n, f, k) = match lastp (fun nP => near n f k nP f2 k2) j with None => (0, 0) | Some nP => (volume_id Np (ment Fm nP f2) k2, face_id NF Nfp nP f2 k2) end /\
     forall q, q <> (n, f, k) -> cell2 Q q = cell2 P q) Nfp body P) as (P' & E & D & C & O) end.
  - cbn [lastp]. auto.
  - intros nP Q Hp (((A1 & A2 & A3) & (B1 & B2 & B3)) & C & O). rewrite tget_ok by lia. cbn [bind]. rewrite HM by auto.
    rewrite (getn_ok _ _ _ (Hx _ _ (F3 nP f2 Hp Hf2) Hk2)), (getn_ok _ _ _ (Hy _ _ (F3 nP f2 Hp Hf2) Hk2)). cbn [bind].
    unfold distanceLessThanEps. fold (near n f k nP f2 k2). cbn [lastp]. destruct (near n f k nP f2 k2).
    + destruct (tset_ok (fst Q) n f k (volume_id Np (ment Fm nP f2) k2)) as (P1 & -> & a1 & a2 & a3 & a4 & a5); try lia. cbn [bind].
      destruct (tset_ok (snd Q) n f k (nP + f2 * Nfp + k2 * NF * Nfp)) as (P2 & -> & b1 & b2 & b3 & b4 & b5); try lia. cbn [bind].
      exists (P1, P2). split; [reflexivity|]. split; [repeat split; cbn [fst snd]; congruence|]. split.
      * unfold cell2. cbn [fst snd]. rewrite a4, b4. reflexivity.
      * intros [[a b] c] Hq. rewrite <- O by auto. unfold cell2. cbn [fst snd]. rewrite a5, b5 by auto. reflexivity.
    + exists Q. split; [reflexivity|]. split; [repeat split; auto|]. auto.
  - exists P'. auto.
Qed.

Lemma vmapP3_ok : exists P Q, build_vmapP3 A hypot tol NF Nfp K E2E E2F E2V Vert xl yl M = Ok (P, Q) /\ dims P /\ dims Q /\
  forall n f k, n < Nfp -> f < NF -> k < K -> (tent P n f k, tent Q n f k) = partner_vals n f k.
Proof.
  unfold build_vmapP3. rewrite for3.
  destruct (fold_cells (St := ten nat * ten nat) (Key := nat * nat * nat) dims2 cell2 (fun _ => (0, 0)) (fun p => partner_vals (fst (fst p)) (snd (fst p)) (snd p))
    (fun p => match_node A hypot tol NF Nfp E2E E2F E2V Vert xl yl M (fst (fst p)) (snd (fst p)) (snd p))
    (triples Nfp NF K) (triples_nodup _ _ _)) with (s := (mkten Nfp NF K (fun _ _ _ => 0), mkten Nfp NF K (fun _ _ _ => 0))) as ((P & Q) & E & (DP & DQ) & C & _).
  - intros [[n f] k] s Hin HP H0. apply triples_in in Hin as (Hn & Hf & Hk). cbn [fst snd]. apply match_node_ok; auto.
  - repeat split.
  - reflexivity.
  - exists P, Q. split; [exact E|]. split; [exact DP|]. split; [exact DQ|]. intros n f k Hn Hf Hk.
    exact (C (n, f, k) (proj2 (triples_in _ _ _ _ _ _) (conj Hn (conj Hf Hk)))).
Qed.

Lemma face_id_lt n f k : n < Nfp -> f < NF -> k < K -> face_id NF Nfp n f k < K * NF * Nfp.
Proof. intros. unfold face_id. assert (k * NF + f < K * NF) by nia. nia. Qed.
Lemma face_id_pos n f k : n < Nfp -> f < NF -> k < K -> nth_error (triples K NF Nfp) (face_id NF Nfp n f k) = Some (k, f, n).
Proof. intros. unfold face_id. rewrite <- (triples_nth K NF Nfp k f n) by auto. f_equal. lia. Qed.

Lemma flatten3_ok (P Q : ten nat) : dims P -> dims Q -> exists vM vP mP, flatten3 junkn NF Nfp K M P Q = Ok (vM, vP, mP) /\
  length vM = K * NF * Nfp /\ length vP = K * NF * Nfp /\ length mP = K * NF * Nfp /\
  forall n f k, n < Nfp -> f < NF -> k < K -> nth_error vM (face_id NF Nfp n f k) = Some (tent M n f k) /\
    nth_error vP (face_id NF Nfp n f k) = Some (tent P n f k) /\ nth_error mP (face_id NF Nfp n f k) = Some (tent Q n f k).
Proof.
  intros (P1 & P2 & P3) (Q1 & Q2 & Q3). destruct DM as (D1 & D2 & D3). unfold flatten3. rewrite for3.
  set (a0 := map junkn (seq 0 (K * NF * Nfp))). assert (L0 : length a0 = K * NF * Nfp) by (unfold a0; now rewrite map_length, seq_length).
  match goal with |- context [foldM ?body (triples K NF Nfp) ?s] =>
    destruct (foldM_inv (fun (d : list (nat * nat * nat)) (st : list nat * list nat * list nat * nat) => let '(vM, vP, mP, count) := st in
      count = length d /\ length vM = K * NF * Nfp /\ length vP = K * NF * Nfp /\ length mP = K * NF * Nfp /\
      forall i k f n, nth_error d i = Some (k, f, n) -> nth_error vM i = Some (tent M n f k) /\ nth_error vP i = Some (tent P n f k) /\ nth_error mP i = Some (tent Q n f k))
      body (triples K NF Nfp) [] s) as ((((vM & vP) & mP) & count) & E & _ & L1 & L2 & L3 & H) end.
  - repeat split; auto; destruct i; discriminate.
  - intros d [[k f] n] (((vM & vP) & mP) & count) (rest & Hr) (-> & L1 & L2 & L3 & H). cbn [app] in Hr. cbn [fst snd].
    assert (Hin : In (k, f, n) (triples K NF Nfp)) by (rewrite Hr; apply in_elt). apply triples_in in Hin as (Hk & Hf & Hn).
    assert (Hl : length d < K * NF * Nfp) by (apply (f_equal (@length _)) in Hr; rewrite triples_len, app_length in Hr; cbn [length] in Hr; lia).
    rewrite tget_ok by lia. cbn [bind]. rewrite setn_ok by lia. cbn [bind]. rewrite tget_ok by lia. cbn [bind]. rewrite setn_ok by lia. cbn [bind].
    rewrite tget_ok by lia. cbn [bind]. rewrite setn_ok by lia. cbn [bind]. eexists. split; [reflexivity|]. cbn beta iota.
    rewrite app_length, !upd_length. cbn [length]. repeat (split; [lia|]). intros i k' f' n' Hi.
    destruct (Nat.lt_ge_cases i (length d)).
    + rewrite nth_error_app1 in Hi by auto. rewrite !nth_error_upd_neq by lia. apply H. exact Hi.
    + rewrite nth_error_app2 in Hi by auto. destruct (i - length d) as [|[|]] eqn:Ei; try discriminate Hi. cbn in Hi. injection Hi as <- <- <-.
      replace i with (length d) by lia. rewrite !nth_error_upd_eq by lia. auto.
  - rewrite E. cbn [bind]. exists vM, vP, mP. split; [reflexivity|]. split; [exact L1|]. split; [exact L2|]. split; [exact L3|].
    intros n f k Hn Hf Hk. apply H. cbn [app]. now apply face_id_pos.
Qed.

Lemma filter_snoc {V} (p : V -> bool) l a : filter p (l ++ [a]) = filter p l ++ if p a then [a] else [].
Proof. rewrite filter_app. reflexivity. Qed.
Lemma filter_len {V} (p : V -> bool) l : length (filter p l) <= length l.
Proof. induction l; cbn; [lia|]. destruct (p a); cbn; lia. Qed.
Lemma firstn_snoc_upd {V} (l : list V) c v : c < length l -> firstn (S c) (upd l c v) = firstn c l ++ [v].
Proof. revert c. induction l; intros c H; cbn in H; [lia|]. destruct c; cbn; [reflexivity|]. f_equal. apply IHl. lia. Qed.

Lemma firstn_S_nth {V} (l : list V) i d : i < length l -> firstn (S i) l = firstn i l ++ [nth i l d].
Proof. revert i. induction l; intros i H; cbn in H; [lia|]. destruct i; [reflexivity|]. cbn [firstn nth app]. f_equal. apply IHl. lia. Qed.

Definition bnd (vM vP : list nat) : list nat := filter (fun i => nth i vP 0 =? nth i vM 0) (seq 0 (K * NF * Nfp)).
Lemma boundary_ok vM vP : length vM = K * NF * Nfp -> length vP = K * NF * Nfp ->
  boundary junkn NF Nfp K vM vP = Ok (bnd vM vP, map (fun i => nth i vM 0) (bnd vM vP)).
Proof.
  intros L1 L2. unfold boundary. set (N := K * NF * Nfp) in *.
  match goal with |- context [for_ N ?body ?s] => destruct (for_inv (fun i (st : list nat * nat) => let '(tmp, c) := st in
     length tmp = N /\ c = length (filter (fun i => nth i vP 0 =? nth i vM 0) (seq 0 i)) /\
     firstn c tmp = filter (fun i => nth i vP 0 =? nth i vM 0) (seq 0 i)) N body s) as ((tmp & nb) & E & L & C & F) end.
  - rewrite map_length, seq_length. repeat split.
  - intros i (tmp & c) Hi (L & C & F). rewrite (getn_nth vP i 0), (getn_nth vM i 0) by lia. cbn [bind].
    assert (Hc : c <= i) by (rewrite C; eapply Nat.le_trans; [apply filter_len|]; rewrite seq_length; lia).
    rewrite (seq_S i 0), filter_snoc. cbn [plus]. destruct (nth i vP 0 =? nth i vM 0).
    + rewrite setn_ok by lia. cbn [bind]. eexists. split; [reflexivity|]. cbn beta iota. rewrite upd_length. split; [exact L|].
      rewrite app_length. cbn [length]. split; [lia|]. rewrite firstn_snoc_upd by lia. now rewrite F.
    + rewrite app_nil_r. eexists. split; [reflexivity|]. cbn beta iota. auto.
  - assert (F' : firstn nb tmp = bnd vM vP) by exact F. assert (C' : nb = length (bnd vM vP)) by exact C. assert (Cn : nb <= N) by (rewrite C; eapply Nat.le_trans; [apply filter_len|]; rewrite seq_length; lia). clear C F. rename C' into C, F' into F. rewrite E. cbn [bind].
    assert (Hb : forall i, i < nb -> nth_error tmp i = Some (nth i (bnd vM vP) 0)).
    { intros i Hi. rewrite <- F. rewrite nth_error_nth' with (d := 0); [|lia].
      f_equal. rewrite <- (firstn_skipn nb tmp) at 1. rewrite app_nth1; auto. rewrite F. lia. }
    match goal with |- for_ nb ?body ?s = _ => destruct (for_inv (fun i (st : list nat * list nat) => let '(mB, vB) := st in
       length mB = nb /\ length vB = nb /\ firstn i mB = firstn i (bnd vM vP) /\ firstn i vB = firstn i (map (fun i => nth i vM 0) (bnd vM vP))) nb body s) as ((mB & vB) & -> & l1 & l2 & F1 & F2) end.
    + rewrite map_length, seq_length. repeat split.
    + intros i (mB & vB) Hi (l1 & l2 & F1 & F2). rewrite (getn_ok _ _ _ (Hb i Hi)). cbn [bind]. rewrite setn_ok by lia. cbn [bind].
      assert (Hin : In (nth i (bnd vM vP) 0) (bnd vM vP)) by (apply nth_In; lia). unfold bnd in Hin at 2. apply filter_In in Hin as (Hin & _). apply in_seq in Hin.
      rewrite (getn_nth vM _ 0) by (fold N in Hin; lia). cbn [bind]. rewrite setn_ok by lia. cbn [bind]. eexists. split; [reflexivity|]. cbn beta iota. rewrite !upd_length.
      split; [exact l1|]. split; [exact l2|]. rewrite !firstn_snoc_upd by lia. rewrite F1, F2. split.
      * symmetry. apply firstn_S_nth. lia.
      * symmetry. rewrite (firstn_S_nth _ _ 0) by (rewrite map_length; lia). do 2 f_equal.
        rewrite nth_indep with (d' := (fun i => nth i vM 0) 0) by (rewrite map_length; lia). apply (map_nth (fun i => nth i vM 0)).
    + rewrite <- l1 in F1 at 1. rewrite <- l2 in F2 at 1. rewrite firstn_all in F1, F2. rewrite firstn_all2 in F1, F2 by (rewrite ?map_length; lia). congruence.
Qed.
End Maps.

(* ---- hash maps of index lists ---- *)
Definition hlist (m : hmap) (t : Z) : list nat := match hfind m t with Some l => l | None => [] end.
Lemma hfind_app m m' t : hfind (m ++ m') t = match hfind m t with Some l => Some l | None => hfind m' t end.
Proof. induction m as [|[u l] m IH]; cbn [hfind app]; [reflexivity|]. destruct (Z.eqb u t); auto. Qed.
Lemma hfind_insert m t l u : hfind (hinsert m t l) u = match hfind m u with Some v => Some v | None => if Z.eqb t u then Some l else None end.
Proof.
  unfold hinsert. destruct (hfind m t) eqn:E.
  - destruct (hfind m u) eqn:E'; auto. destruct (Z.eqb_spec t u); auto. congruence.
  - rewrite hfind_app. destruct (hfind m u); auto.
Qed.
Lemma hfind_push m t i u : hfind (hpush m t i) u = if Z.eqb t u then option_map (fun l => l ++ [i]) (hfind m u) else hfind m u.
Proof.
  unfold hpush. induction m as [|[w l] m IH]; cbn [hfind map fst snd]; [now destruct (Z.eqb t u)|].
  destruct (Z.eqb_spec w t); cbn [hfind fst snd].
  - subst w. destruct (Z.eqb t u); auto.
  - rewrite IH. destruct (Z.eqb_spec w u), (Z.eqb_spec t u); auto. congruence.
Qed.
Lemma bc_step_find c b m u : hfind (bc_step c b m) u = if Z.eqb b 0 then hfind m u else if Z.eqb b u then Some (hlist m b ++ [c]) else hfind m u.
Proof.
  unfold bc_step, hlist. destruct (Z.eqb b 0); auto. destruct (hfind m b) eqn:E.
  - rewrite hfind_push. destruct (Z.eqb_spec b u); auto. subst. rewrite E. reflexivity.
  - rewrite hfind_insert. destruct (Z.eqb_spec b u).
    + subst. rewrite E. reflexivity.
    + destruct (hfind m u); auto.
Qed.
Lemma hindex_find m t i u : hfind (hindex_push m t i) u = if Z.eqb t u then Some (hlist m u ++ [i]) else hfind m u.
Proof.
  unfold hindex_push, hlist. rewrite hfind_push, hfind_insert. destruct (Z.eqb_spec t u); destruct (hfind m u); auto.
Qed.

Section Hash.
Variable junkn : nat -> nat.
Variables NF Nfp K : nat.
(* face nodes whose face carries tag t, in increasing order *)
Definition tagged (bcType : list Z) (t : Z) : list nat := filter (fun i => Z.eqb (nth (i / Nfp) bcType 0%Z) t) (seq 0 (Nfp * NF * K)).

Lemma bchash_ok bcType m : NF * K <= length bcType -> exists m', buildBCHash junkn NF Nfp K bcType m = Ok m' /\
  (forall t, t <> 0%Z -> hlist m' t = hlist m t ++ tagged bcType t) /\
  hfind m' 0%Z = hfind m 0%Z /\ (forall t, hfind m' t = None <-> hfind m t = None /\ (t <> 0%Z -> tagged bcType t = [])).
Proof.
  intro HL. unfold buildBCHash. destruct (Nat.ltb_spec (length bcType) (NF * K)); [lia|].
  set (B := mkmat Nfp (NF * K) (fun _ j => (1 * nth j bcType 0)%Z)).
  set (a0 := map (fun i => Z.of_nat (junkn i)) (seq 0 (Nfp * NF * K))). assert (L0 : length a0 = Nfp * NF * K) by (unfold a0; now rewrite map_length, seq_length).
  destruct (to1d_spec B false a0) as (nodes & E & L & HN & _); [cbn [mrows mcols B]; lia|]. unfold fullToVector. rewrite E. cbn [bind]. rewrite L, L0.
  assert (Hnodes : forall i, i < Nfp * NF * K -> nth_error nodes i = Some (nth (i / Nfp) bcType 0%Z)).
  { intros i Hi. assert (Nfp <> 0) by nia. specialize (HN (i mod Nfp) (i / Nfp)). cbn [mrows mcols ment B] in HN. unfold flat_index in HN.
    replace (i mod Nfp + i / Nfp * Nfp) with i in HN by (pose proof (Nat.div_mod i Nfp); lia). rewrite HN; [f_equal; lia|apply Nat.mod_upper_bound; auto|apply Nat.div_lt_upper_bound; lia]. }
  set (tg := fun j t => filter (fun i => Z.eqb (nth (i / Nfp) bcType 0%Z) t) (seq 0 j)).
  match goal with |- context [for_ ?n ?body m] => destruct (for_inv (fun j (m' : hmap) => (forall t, t <> 0%Z -> hlist m' t = hlist m t ++ tg j t) /\
     hfind m' 0%Z = hfind m 0%Z /\ (forall t, hfind m' t = None <-> hfind m t = None /\ (t <> 0%Z -> tg j t = []))) n body m) as (m' & Em & H1 & H2 & H3) end.
  - unfold tg. cbn. split; [intros; now rewrite app_nil_r|]. split; [reflexivity|]. intro t. tauto.
  - intros j m1 Hj (H1 & H2 & H3). rewrite (getn_ok _ _ _ (Hnodes j Hj)). cbn [bind]. eexists. split; [reflexivity|].
    set (b := nth (j / Nfp) bcType 0%Z).
    assert (Htg : forall t, tg (S j) t = tg j t ++ if Z.eqb b t then [j] else []) by (intro t; unfold tg; rewrite seq_S, filter_app; reflexivity).
    split; [|split].
    + intros t Ht. unfold hlist at 1. rewrite bc_step_find, Htg. destruct (Z.eqb_spec b 0).
      * destruct (Z.eqb_spec b t); [congruence|]. rewrite app_nil_r. apply H1, Ht.
      * destruct (Z.eqb_spec b t); [subst t; rewrite H1 by auto; now rewrite app_assoc|]. rewrite app_nil_r. apply H1, Ht.
    + rewrite bc_step_find. destruct (Z.eqb_spec b 0); auto.
    + intro t. rewrite bc_step_find, Htg. destruct (Z.eqb_spec b 0).
      * rewrite H3. destruct (Z.eqb_spec b t); [|now rewrite app_nil_r]. subst t. split; intros (H4 & H5); split; auto; intro; congruence.
      * destruct (Z.eqb_spec b t); [|rewrite app_nil_r; apply H3]. subst t. split; [discriminate|]. intros (_ & H5). specialize (H5 n). destruct (tg j b); discriminate.
  - rewrite Em. cbn [bind]. exists m'. split; [reflexivity|]. auto.
Qed.
Lemma bchash_ub bcType m : length bcType < NF * K -> buildBCHash junkn NF Nfp K bcType m = UB.
Proof. intro H. unfold buildBCHash. destruct (Nat.ltb_spec (length bcType) (NF * K)); [reflexivity|lia]. Qed.
End Hash.

(* ---- Gauss face maps ---- *)
Lemma face_id_inj NF Nfp K n f k n' f' k' : n < Nfp -> f < NF -> k < K -> n' < Nfp -> f' < NF -> k' < K ->
  face_id NF Nfp n f k = face_id NF Nfp n' f' k' -> n = n' /\ f = f' /\ k = k'.
Proof.
  intros H1 H2 H3 H4 H5 H6 E. pose proof (face_id_pos NF Nfp K n f k H1 H2 H3) as P1. rewrite E, face_id_pos in P1 by auto. injection P1 as -> -> ->. auto.
Qed.
Section Gauss.
Variable junkn : nat -> nat.
Variables NF K NG : nat.
Variables (E2E E2F : list nat) (bcVec : list Z).
Hypothesis L1 : length E2E = NF * K.
Hypothesis HE : forall k, In k E2E -> k < K.
Hypothesis L2 : length E2F = NF * K.
Hypothesis HF : forall f, In f E2F -> f < NF.
Hypothesis L3 : NF * K <= length bcVec.

Definition gid ig f k := face_id NF NG ig f k.
Definition gval ig f k : nat := let k2 := nth (NF * k + f) E2E 0 in let f2 := nth (NF * k + f) E2F 0 in
  if k =? k2 then gid ig f k else gid (NG - 1 - ig) f2 k2.
Definition gface (p : nat * nat) : list nat := if snd p =? nth (NF * snd p + fst p) E2E 0 then map (fun ig => gid ig (fst p) (snd p)) (seq 0 NG) else [].
Definition gface_t (t : Z) (p : nat * nat) : list nat := if Z.eqb (nth (NF * snd p + fst p) bcVec 0%Z) t then gface p else [].

Lemma gauss_ok : exists mapM mapP mapB bc, gaussFaceMaps junkn NF K NG E2E E2F bcVec = Ok (mapM, mapP, mapB, bc) /\
  mapM = seq 0 (NG * NF * K) /\ length mapP = NG * NF * K /\
  (forall ig f k, ig < NG -> f < NF -> k < K -> nth_error mapP (gid ig f k) = Some (gval ig f k)) /\
  mapB = flat_map gface (pairs NF K) /\ (forall t, hlist bc t = flat_map (gface_t t) (pairs NF K)) /\
  (forall t, In t bc_tags -> hfind bc t <> None).
Proof.
  unfold gaussFaceMaps. set (m0 := mkmat (NG * NF) K (fun i j => i + NG * NF * j)).
  destruct (to1d_spec m0 false (map junkn (seq 0 (NG * NF * K)))) as (mapM & E & L & HM & _); [rewrite map_length, seq_length; reflexivity|].
  rewrite map_length, seq_length in L. unfold fullToVector. rewrite E. cbn [bind].
  assert (HMM : mapM = seq 0 (NG * NF * K)).
  { apply nth_ext with (d := 0) (d' := 0); [now rewrite seq_length|]. intros i Hi. rewrite L in Hi. rewrite seq_nth by auto. cbn [plus].
    assert (NG * NF <> 0) by nia. specialize (HM (i mod (NG * NF)) (i / (NG * NF))). cbn [mrows mcols ment m0] in HM.
    apply nth_error_nth. unfold flat_index in HM. pose proof (Nat.div_mod i (NG * NF)) as Hd. 
    replace (i mod (NG * NF) + i / (NG * NF) * (NG * NF)) with i in HM by lia. rewrite HM; [f_equal; lia|apply Nat.mod_upper_bound; auto|apply Nat.div_lt_upper_bound; lia]. }
  rewrite (for2 NF K (fun f k st => gauss_face NF NG E2E E2F bcVec mapM f k st)).
  assert (Hget : forall i, i < NG * NF * K -> getn mapM i = Ok i) by (intros i Hi; unfold getn; rewrite HMM, nth_error_seq' by auto; reflexivity).
  assert (Hlt : forall ig f k, ig < NG -> f < NF -> k < K -> gid ig f k < NG * NF * K) by (intros; unfold gid; pose proof (face_id_lt NF NG K ig f k); lia).
  match goal with |- context [foldM ?body (pairs NF K) ?s] => destruct (foldM_inv (fun (d : list (nat * nat)) (st : list nat * list nat * hmap) => let '(mP, mB, bc) := st in
      length mP = NG * NF * K /\ (forall f k ig, In (f, k) d -> f < NF -> k < K -> ig < NG -> nth_error mP (gid ig f k) = Some (gval ig f k)) /\
      mB = flat_map gface d /\ (forall t, hlist bc t = flat_map (gface_t t) d) /\ (forall t, In t bc_tags -> hfind bc t <> None)) body (pairs NF K) [] s) as (((mP & mB) & bc) & Ef & LP & HP & HB & HC & HD) end.
  - rewrite repeat_length. split; [reflexivity|]. split; [intros f k ig []|]. split; [reflexivity|]. split.
    + intro t. unfold bc_tags. cbn [fold_left]. unfold hlist. rewrite !hfind_insert. cbn [hfind]. repeat match goal with |- context [Z.eqb ?a t] => destruct (Z.eqb a t); auto end.
    + intros t Ht. cbn [fold_left bc_tags]. cbn in Ht. rewrite !hfind_insert. cbn [hfind]. repeat (destruct Ht as [<-|Ht]; [cbn; discriminate|]). destruct Ht.
  - intros d (f & k) ((mP & mB) & bc) (rest & Hr) (LP & HP & HB & HC & HD). cbn [app] in Hr. cbn [fst snd].
    assert (Hin : In (f, k) (pairs NF K)) by (rewrite Hr; apply in_elt). apply pairs_in in Hin as (Hf & Hk).
    assert (Hfresh : ~ In (f, k) d) by (pose proof (pairs_nodup NF K) as ND; rewrite Hr in ND; apply NoDup_remove_2 in ND; intro; apply ND, in_or_app; auto).
    assert (Hg : NF * k + f < NF * K) by nia. unfold gauss_face.
    rewrite (getn_nth E2E _ 0) by lia. cbn [bind]. rewrite (getn_nth E2F _ 0) by lia. cbn [bind].
    assert (Hk2 : nth (NF * k + f) E2E 0 < K) by (apply HE, nth_In; lia). assert (Hf2 : nth (NF * k + f) E2F 0 < NF) by (apply HF, nth_In; lia).
    set (k2 := nth (NF * k + f) E2E 0) in *. set (f2 := nth (NF * k + f) E2F 0) in *.
    assert (Hgv : forall ig, gval ig f k = if k =? k2 then gid ig f k else gid (NG - 1 - ig) f2 k2) by reflexivity.
    assert (Hgf : gface (f, k) = if k =? k2 then map (fun ig => gid ig f k) (seq 0 NG) else []) by reflexivity.
    assert (Hgt : forall t, gface_t t (f, k) = if Z.eqb (nth (NF * k + f) bcVec 0%Z) t then gface (f, k) else []) by reflexivity.
    destruct (Nat.eqb_spec k k2) as [Hkk|Hkk]; cbn [negb].
    + match goal with |- context [for_ NG ?body (mP, mB, bc)] => destruct (for_inv (fun j (st : list nat * list nat * hmap) => let '(mP', mB', bc') := st in
        length mP' = NG * NF * K /\ (forall f k ig, In (f, k) d -> f < NF -> k < K -> ig < NG -> nth_error mP' (gid ig f k) = Some (gval ig f k)) /\
        (forall ig, ig < j -> nth_error mP' (gid ig f k) = Some (gid ig f k)) /\
        mB' = mB ++ map (fun ig => gid ig f k) (seq 0 j) /\
        (forall t, hlist bc' t = hlist bc t ++ if Z.eqb (nth (NF * k + f) bcVec 0%Z) t then map (fun ig => gid ig f k) (seq 0 j) else []) /\
        (forall t, In t bc_tags -> hfind bc' t <> None)) NG body (mP, mB, bc)) as (((mP' & mB') & bc') & -> & A1 & A2 & A3 & A4 & A5 & A6) end.
      * split; [exact LP|]. split; [exact HP|]. split; [intros; lia|]. split; [now rewrite app_nil_r|]. split; [|exact HD]. intro t. cbn. destruct (Z.eqb _ t); now rewrite app_nil_r.
      * intros ig ((mP1 & mB1) & bc1) Hig (A1 & A2 & A3 & A4 & A5 & A6). 
        replace (f * NG + ig + k * (NG * NF)) with (gid ig f k) by (unfold gid, face_id; lia).
        rewrite Hget by auto. cbn [bind]. rewrite setn_ok by (rewrite A1; auto). cbn [bind]. rewrite (getn_nth bcVec _ 0%Z) by lia. cbn [bind]. eexists. split; [reflexivity|]. cbn beta iota.
        rewrite upd_length. split; [exact A1|]. rewrite seq_S, map_app. cbn [map plus]. split; [|split; [|split; [|split]]].
        -- intros f' k' ig' Hi Hf' Hk' Hig'. rewrite nth_error_upd_neq; [auto|]. intro Eq. apply (face_id_inj NF NG K) in Eq as (_ & Eq1 & Eq2); auto. rewrite <- Eq1, <- Eq2 in Hi. contradiction.
        -- intros ig' Hi. destruct (Nat.eq_dec ig' ig) as [Ei|Ei]; [rewrite Ei;rewrite nth_error_upd_eq by (rewrite A1; auto); reflexivity|].
           rewrite nth_error_upd_neq; [apply A3; lia|]. intro Eq. apply (face_id_inj NF NG K) in Eq as (Eq & _); auto; lia.
        -- rewrite A4, <- app_assoc. reflexivity.
        -- intro t. unfold hlist at 1. rewrite hindex_find. destruct (Z.eqb_spec (nth (NF * k + f) bcVec 0%Z) t) as [Et|Et].
           ++ rewrite A5. rewrite Et, Z.eqb_refl. now rewrite <- app_assoc.
           ++ pose proof (A5 t) as A5t. rewrite (proj2 (Z.eqb_neq _ _) Et) in A5t. exact A5t.
        -- intros t Ht. rewrite hindex_find. destruct (Z.eqb _ t); [discriminate|]. auto.
      * eexists. split; [reflexivity|]. cbn beta iota. split; [exact A1|]. split; [|split; [|split]].
        -- intros f' k' ig' Hi Hf' Hk' Hig'. apply in_app_iff in Hi as [Hi|[Hi|[]]]; [auto|]. injection Hi as <- <-. rewrite Hgv. auto.
        -- rewrite A4, HB, flat_map_app. cbn [flat_map]. rewrite app_nil_r, Hgf. reflexivity.
        -- intro t. rewrite A5, HC, flat_map_app. cbn [flat_map]. rewrite app_nil_r, Hgt, Hgf. reflexivity.
        -- exact A6.
    + match goal with |- context [for_ NG ?body (mP, mB, bc)] => destruct (for_inv (fun j (st : list nat * list nat * hmap) => let '(mP', mB', bc') := st in
        length mP' = NG * NF * K /\ (forall f k ig, In (f, k) d -> f < NF -> k < K -> ig < NG -> nth_error mP' (gid ig f k) = Some (gval ig f k)) /\
        (forall ig, ig < j -> nth_error mP' (gid ig f k) = Some (gid (NG - 1 - ig) f2 k2)) /\ mB' = mB /\ bc' = bc) NG body (mP, mB, bc)) as (((mP' & mB') & bc') & -> & A1 & A2 & A3 & A4 & A5) end.
      * split; [exact LP|]. split; [exact HP|]. split; [intros; lia|]. auto.
      * intros ig ((mP1 & mB1) & bc1) Hig (A1 & A2 & A3 & A4 & A5).
        replace (f * NG + ig + k * (NG * NF)) with (gid ig f k) by (unfold gid, face_id; lia).
        replace (NG * (f2 + 1) - ig - 1 + k2 * (NG * NF)) with (gid (NG - 1 - ig) f2 k2) by (unfold gid, face_id; nia).
        rewrite Hget by (apply Hlt; lia). cbn [bind]. rewrite setn_ok by (rewrite A1; auto). cbn [bind]. eexists. split; [reflexivity|]. cbn beta iota.
        rewrite upd_length. split; [exact A1|]. split; [|split; [|split; auto]].
        -- intros f' k' ig' Hi Hf' Hk' Hig'. rewrite nth_error_upd_neq; [auto|]. intro Eq. apply (face_id_inj NF NG K) in Eq as (_ & Eq1 & Eq2); auto. rewrite <- Eq1, <- Eq2 in Hi. contradiction.
        -- intros ig' Hi. destruct (Nat.eq_dec ig' ig) as [Ei|Ei]; [rewrite Ei;rewrite nth_error_upd_eq by (rewrite A1; auto); reflexivity|].
           rewrite nth_error_upd_neq; [apply A3; lia|]. intro Eq. apply (face_id_inj NF NG K) in Eq as (Eq & _); auto; lia.
      * eexists. split; [reflexivity|]. cbn beta iota. split; [exact A1|]. split; [|split; [|split]].
        -- intros f' k' ig' Hi Hf' Hk' Hig'. apply in_app_iff in Hi as [Hi|[Hi|[]]]; [auto|]. injection Hi as <- <-. rewrite Hgv. auto.
        -- rewrite A4, HB, flat_map_app. cbn [flat_map]. rewrite app_nil_r, Hgf, app_nil_r. reflexivity.
        -- intro t. rewrite A5, HC, flat_map_app. cbn [flat_map]. rewrite app_nil_r, Hgt, Hgf. destruct (Z.eqb _ t); now rewrite app_nil_r.
        -- rewrite A5. exact HD.
  - rewrite Ef. cbn [bind]. exists mapM, mP, mB, bc. split; [reflexivity|]. split; [exact HMM|]. split; [exact LP|]. split; [|split; [exact HB|split; [exact HC|exact HD]]].
    intros ig f k Hig Hf Hk. apply HP; auto. cbn [app]. now apply pairs_in.
Qed.
End Gauss.
