(* MeshFileProofs.v - readMesh on well-formed gmsh files. *)
From Coq Require Import ZArith List Lia Bool Ascii.
From Verif Require Import Base Loops BlitzProofs CscProofs CsvModel CsvSpec CsvProofs CsvReadProofs MeshModel MeshSpec MeshFileSpec MeshProofs MeshGeoProofs.
Import ListNotations.
Local Open Scope nat_scope.

(* The reader stands before the lines rest of a small text. *)
Definition Rd (r : reader) (rest : list str) : Prop :=
  exists v, R r v /\ vend v = false /\ skipn (vpos v) (lines v) = rest /\ vdelims v = sep /\
    (exists ls, vlines v = Some ls).

Lemma Rd_delims r rest : Rd r rest -> delims r = sep.
Proof. intros (v & H & _ & _ & Hd & _). now rewrite (R_delims _ _ H). Qed.

Lemma Rd_line r l rest : Rd r (l :: rest) -> exists r', readLine r = (Some l, r') /\ Rd r' rest.
Proof.
  intros (v & H & He & Hs & Hd & Hl). destruct (readLine_ok r v H) as (o & r' & v' & E & T & H' & _).
  apply skipn_cons_nth in Hs. destruct Hs as (Hn & Hs & Hlen).
  inversion T as [l0 Hv Hn' E1 E2|Hv E1 E2]; subst.
  - assert (l0 = l) by congruence. subst. exists r'. split; auto.
    exists (move v (S (vpos v)) false). cbn [move vend vpos vdelims vlines]. auto.
  - destruct Hv as [Hv|Hv]; [congruence|]. apply nth_error_None in Hv. congruence.
Qed.

Lemma Rd_next r l rest line : Rd r (l :: rest) -> exists r', nextLine line r = (l, r') /\ Rd r' rest.
Proof.
  intros H. destruct (Rd_line r l rest H) as (r' & E & H'). exists r'. split; auto. unfold nextLine. now rewrite E.
Qed.

Lemma Rd_skip r l rest : Rd r (l :: rest) -> Rd (snd (skipLines 1 r)) rest.
Proof.
  intros H. destruct (Rd_line r l rest H) as (r' & E & H'). unfold skipLines.
  change (Z.to_nat 1) with 1. change (0 <? 1)%Z with true. cbv iota zeta. cbn [skip_loop]. rewrite E. exact H'.
Qed.

Lemma Rd_cols r rest n : Rd r rest -> (0 <= n <= 10)%Z -> Rd (with_cols r n) rest.
Proof.
  intros (v & H & He & Hs & Hd & Hl) Hn. exists (set_cols v n). split.
  - apply with_cols_R; auto. unfold cols_ok, INT_MIN, INT_MAX. lia.
  - auto.
Qed.

Lemma Rd_line_len r l rest : Rd r (l :: rest) -> (Z.of_nat (length l) < INT_MAX)%Z.
Proof.
  intros (v & H & He & Hs & Hd & ls & Hl). pose proof (R_text _ _ H) as Ht. rewrite Hl in Ht.
  destruct Ht as (txt & Hlines & Hsm). apply skipn_cons_nth in Hs. destruct Hs as (Hn & _).
  unfold lines in Hn. rewrite Hl in Hn. apply nth_error_In in Hn.
  assert (G : forall t ls, lines_of t ls -> In l ls -> length l <= length t).
  { clear. induction 1; simpl; intros Hi; [easy| |].
    - destruct Hi as [->|[]]. auto.
    - rewrite app_length. simpl. destruct Hi as [->|Hi]; [lia|]. specialize (IHlines_of Hi). lia. }
  specialize (G _ _ Hlines Hn). unfold small_text in Hsm. lia.
Qed.

Lemma Rd_row r l rest fs : Rd r (l :: rest) -> line_fields l fs ->
  exists r' t, getNonemptyLine r = Ok (Some t, r') /\ trimmed l t /\ fields sep t fs /\ Rd r' rest /\
    sfail (strm r') = false /\ ncols r' = ncols r.
Proof.
  intros (v & H & He & Hs & Hd & Hl) (Hb & t & Ht & Hf).
  destruct (getNonemptyLine_ok r v H) as (row & r' & v' & E & N & H' & _).
  apply skipn_cons_nth in Hs. destruct Hs as (Hn & Hs & Hlen).
  assert (N' : next_row v (Some t) (move v (S (vpos v)) false)).
  { replace (S (vpos v)) with (S (vpos v + 0)) by lia. apply row_some with (l := l); auto.
    - intros; lia.
    - now rewrite Nat.add_0_r. }
  destruct (next_row_det _ _ _ _ _ N N') as (-> & ->).
  exists r', t. split; auto. split; auto. split; auto. split; [|split].
  - exists (move v (S (vpos v)) false). cbn [move vend vpos vdelims vlines]. auto.
  - now rewrite (R_fail _ _ H').
  - rewrite (R_cols _ _ H'), (R_cols _ _ H). reflexivity.
Qed.

Section Read.
Variable X : Type.
Variable stoi : str -> option (Z * nat).
Variable stod stof : str -> option (X * nat).
Variable vers_ok : X -> bool.

Lemma Rd_vals (ks : list (kind (num X))) r l rest fs vals : Rd r (l :: rest) -> line_fields l fs ->
  (length ks <= 10) -> Forall2 (fun '(k, s) v => strCast k s = Some v) (combine ks fs) vals -> length fs = length ks ->
  exists r', parseVals X ks (with_cols r (Z.of_nat (length ks))) = Ok (vals, r') /\ Rd r' rest.
Proof.
  intros H Hl Hk Hv Hlen.
  assert (H1 : Rd (with_cols r (Z.of_nat (length ks))) (l :: rest)) by (apply Rd_cols; auto; lia).
  destruct (Rd_row _ _ _ _ H1 Hl) as (r' & t & E & Ht & Hf & H' & Hs & Hc).
  exists r'. split; auto. unfold parseVals, parseRowValues. cbn [ncols with_cols].
  assert (Hsz : size_t (Z.of_nat (length ks)) = Z.of_nat (length ks)).
  { unfold size_t. apply Z.mod_small. lia. }
  rewrite Hsz, Z.eqb_refl. unfold parse_row. rewrite E. cbn [bind].
  rewrite (Rd_delims _ _ H'), (fields_unique _ _ _ (tokenizeLine_fields sep t) _ Hf).
  rewrite Hc. cbn [ncols with_cols]. rewrite Hsz, Hlen, Z.eqb_refl, Hs.
  assert (G : forall (ks : list (kind (num X))) fs vals out, length fs = length ks ->
     Forall2 (fun '(k, s) v => strCast k s = Some v) (combine ks fs) vals -> store_loop ks fs out = (out ++ vals, true)).
  { clear. induction ks; intros [|s fs] vals out L F; simpl in *; try lia; inversion F; subst.
    - now rewrite app_nil_r.
    - rewrite H1. rewrite (IHks fs l'); auto. now rewrite <- app_assoc. }
  rewrite (G ks fs vals [] Hlen Hv). reflexivity.
Qed.

Lemma cast_int s z : is_int stoi s z -> strCast (kInt X stoi) s = Some (NInt X z).
Proof. unfold is_int. intros H. cbn. rewrite H. cbn. now rewrite Nat.eqb_refl. Qed.
Lemma cast_real s z : is_real stod s z -> strCast (kReal X stod) s = Some (NReal X z).
Proof. unfold is_real. intros H. cbn. rewrite H. cbn. now rewrite Nat.eqb_refl. Qed.
Lemma cast_float s z : is_float stof s z -> strCast (kFloat X stof) s = Some (NReal X z).
Proof. unfold is_float. intros H. cbn. rewrite H. cbn. now rewrite Nat.eqb_refl. Qed.

(* ---- nodes ---- *)
Notation node := (Z * (X * X * X))%type.
Definition put_node (V : list X) (n : node) : list X :=
  let i := Z.to_nat (fst n - 1) * 3 in
  upd (upd (upd V i (fst (fst (snd n)))) (i + 1) (snd (fst (snd n)))) (i + 2) (snd (snd n)).

Lemma set_ok (V : list X) i x : (0 <= i < Z.of_nat (length V))%Z -> set V i x = Ok (upd V (Z.to_nat i) x).
Proof.
  intros H. unfold set. destruct (Z.ltb_spec i 0), (Z.leb_spec (Z.of_nat (length V)) i); try lia. reflexivity.
Qed.

Lemma node_step_ok i V r l rest n : Rd r (l :: rest) -> ncols r = 4%Z -> node_line stoi stod l n ->
  (1 <= fst n)%Z -> (Z.to_nat (fst n - 1) * 3 + 3 <= length V) ->
  exists r', node_step X stoi stod i (V, r) = Ok (put_node V n, r') /\ Rd r' rest /\ ncols r' = 4%Z.
Proof.
  intros H Hc (a & b & c & d & Hl & Ha & Hb & Hcc & Hd) Hn HV.
  destruct (Rd_row _ _ _ _ H Hl) as (r0 & t & E & _ & _ & _ & _ & Hc0).
  destruct (Rd_vals [kInt X stoi; kReal X stod; kReal X stod; kReal X stod] r l rest [a; b; c; d]
     [NInt X (fst n); NReal X (fst (fst (snd n))); NReal X (snd (fst (snd n))); NReal X (snd (snd n))]) as (r' & Ev & H'); auto.
  { cbn; lia. }
  { cbn [combine]. repeat constructor; auto using cast_int, cast_real. }
  assert (Er : with_cols r (Z.of_nat (length [kInt X stoi; kReal X stod; kReal X stod; kReal X stod])) = r).
  { destruct r. cbn in *. unfold with_cols. cbn. now rewrite Hc. }
  rewrite Er in Ev.
  assert (Hc' : ncols r' = 4%Z).
  { unfold parseVals, parseRowValues, parse_row in Ev.
    destruct (_ =? size_t (ncols r))%Z; [|discriminate].
    rewrite E in Ev. cbn [bind] in Ev.
    destruct (_ =? size_t (ncols r0))%Z; [|discriminate].
    destruct (store_loop _ _ _) as (v0 & ok). destruct ok; [|discriminate]. cbn in Ev. injection Ev as _ <-. congruence. }
  exists r'. split; auto. unfold node_step. rewrite Ev. cbn [bind].
  rewrite set_ok by lia. cbn [bind]. rewrite set_ok by (rewrite upd_length; lia). cbn [bind].
  rewrite set_ok by (rewrite !upd_length; lia). cbn [bind]. unfold put_node.
  replace (Z.to_nat ((fst n - 1) * 3)) with (Z.to_nat (fst n - 1) * 3) by lia.
  replace (Z.to_nat ((fst n - 1) * 3 + 1)) with (Z.to_nat (fst n - 1) * 3 + 1) by lia.
  replace (Z.to_nat ((fst n - 1) * 3 + 2)) with (Z.to_nat (fst n - 1) * 3 + 2) by lia. reflexivity.
Qed.

Lemma put_node_length V n : length (put_node V n) = length V.
Proof. unfold put_node. now rewrite !upd_length. Qed.

Lemma nodes_ok nodes : forall nlines lo V r rest, Rd r (nlines ++ rest) -> ncols r = 4%Z ->
  Forall2 (node_line stoi stod) nlines nodes ->
  (forall n, In n nodes -> (1 <= fst n)%Z /\ Z.to_nat (fst n - 1) * 3 + 3 <= length V) ->
  exists r', for_from lo (length nodes) (node_step X stoi stod) (V, r) = Ok (fold_left put_node nodes V, r') /\ Rd r' rest.
Proof.
  induction nodes as [|n nodes IH]; intros nlines lo V r rest H Hc F Hr; inversion F; subst.
  - exists r. auto.
  - cbn [app] in H. destruct (Hr n (or_introl eq_refl)) as (H1 & H2).
    destruct (node_step_ok lo V r x (l ++ rest) n) as (r' & E & H' & Hc'); auto.
    cbn [length for_from fold_left]. rewrite E. cbn [bind].
    apply (IH l); auto. intros n' Hn'. rewrite put_node_length. apply Hr. now right.
Qed.

Lemma put_node_other V n i : ~ (Z.to_nat (fst n - 1) * 3 <= i < Z.to_nat (fst n - 1) * 3 + 3) ->
  nth_error (put_node V n) i = nth_error V i.
Proof. intros H. unfold put_node. rewrite !nth_error_upd_neq by lia. auto. Qed.

Lemma put_nodes_other nodes : forall V i,
  (forall n, In n nodes -> ~ (Z.to_nat (fst n - 1) * 3 <= i < Z.to_nat (fst n - 1) * 3 + 3)) ->
  nth_error (fold_left put_node nodes V) i = nth_error V i.
Proof.
  induction nodes as [|n nodes IH]; intros V i H; cbn [fold_left]; auto.
  rewrite IH; [|intros; apply H; now right]. apply put_node_other. apply H. now left.
Qed.

Lemma put_nodes_length nodes : forall V, length (fold_left put_node nodes V) = length V.
Proof. induction nodes; intros V; cbn; auto. rewrite IHnodes. apply put_node_length. Qed.

Lemma put_nodes_at nodes : forall V, NoDup (map fst nodes) ->
  (forall n, In n nodes -> (1 <= fst n)%Z /\ Z.to_nat (fst n - 1) * 3 + 3 <= length V) ->
  forall n x y z, In (n, (x, y, z)) nodes ->
  let W := fold_left put_node nodes V in
    nth_error W (Z.to_nat (n - 1) * 3) = Some x /\ nth_error W (Z.to_nat (n - 1) * 3 + 1) = Some y /\
    nth_error W (Z.to_nat (n - 1) * 3 + 2) = Some z.
Proof.
  induction nodes as [|m nodes IH]; intros V ND Hr n x y z Hin W; [destruct Hin|].
  cbn [map] in ND. inversion ND as [|? ? N1 N2]; subst. unfold W. cbn [fold_left].
  destruct Hin as [->|Hin].
  - cbn [fst] in *. destruct (Hr _ (or_introl eq_refl)) as (H1 & H2). cbn [fst] in *.
    assert (D : forall k, k < 3 -> forall m, In m nodes -> ~ (Z.to_nat (fst m - 1) * 3 <= Z.to_nat (n - 1) * 3 + k < Z.to_nat (fst m - 1) * 3 + 3)).
    { intros k Hk m Hm Hc. destruct (Hr m (or_intror Hm)) as (H3 & _).
      assert (fst m = n) by lia. apply N1. rewrite <- H. now apply in_map. }
    pose proof (D 0 ltac:(lia)) as D0. rewrite Nat.add_0_r in D0.
    rewrite !put_nodes_other by auto. unfold put_node. cbn [fst snd].
    repeat split.
    + rewrite !nth_error_upd_neq by lia. apply nth_error_upd_eq. lia.
    + rewrite nth_error_upd_neq by lia. apply nth_error_upd_eq. rewrite upd_length. lia.
    + apply nth_error_upd_eq. rewrite !upd_length. lia.
  - apply (IH (put_node V m)); auto. intros n' Hn'. rewrite put_node_length. apply Hr. now right.
Qed.

(* ---- elements ---- *)
Definition collect (el : elems) (e : element) : elems :=
  match length (e_verts e) with
  | 1 => mkelems (pts el ++ [nth 3 (integers e) 0%Z]) (lns el) (trs el) (qds el)
  | 2 => mkelems (pts el) (lns el ++ [integers e]) (trs el) (qds el)
  | 3 => mkelems (pts el) (lns el) (trs el ++ [integers e]) (qds el)
  | 4 => mkelems (pts el) (lns el) (trs el) (qds el ++ [integers e])
  | _ => el
  end.

Lemma parseElem_ok fs zs : Forall2 (fun s z => exists n, stoi s = Some (z, n)) fs zs -> parseElem stoi fs = Ok zs.
Proof.
  induction 1 as [|s z fs zs (n & Hn) F IH]; cbn; auto. unfold stoi_. rewrite Hn. cbn. rewrite IH. reflexivity.
Qed.

Lemma elem_step_ok i el line r l rest e : Rd r (l :: rest) -> element_line stoi l e -> typed e ->
  exists r', elem_step stoi i (el, line, r) = Ok (collect el e, l, r') /\ Rd r' rest.
Proof.
  intros H (fs & Hf & HF) Ht. pose proof (Rd_line_len _ _ _ H) as Hll.
  destruct (Rd_next r l rest line H) as (r' & E & H'). exists r'. split; auto.
  unfold elem_step. rewrite E. rewrite (Rd_delims _ _ H').
  rewrite (fields_unique _ _ _ (tokenizeLine_fields sep l) _ Hf).
  pose proof (Forall2_len _ _ _ HF) as HL. pose proof (fields_count _ _ _ Hf) as Hfc.
  assert (G : forall i z, nth_error (integers e) i = Some z -> exists s, nth_error fs i = Some s /\ stoi_ stoi s = Ok z).
  { intros i0 z Hz. destruct (nth_error_ex fs i0) as (s & Hs); [rewrite HL; eapply nth_error_Some_lt; eauto|].
    exists s. split; auto. clear - HF Hz Hs. revert i0 Hz Hs. induction HF as [|a b la lb (n & Hn) F IH]; intros i0 Hz Hs;
      destruct i0; try discriminate; cbn in *; eauto. injection Hz as <-. injection Hs as <-. unfold stoi_. now rewrite Hn. }
  destruct (G 1 (e_type e) eq_refl) as (s1 & N1 & S1). destruct (G 2 _ eq_refl) as (s2 & N2 & S2).
  rewrite (getn_ok _ _ _ N1). cbn [bind]. rewrite S1. cbn [bind].
  rewrite (getn_ok _ _ _ N2). cbn [bind]. rewrite S2. cbn [bind].
  unfold integers in HL. cbn [length] in HL. rewrite app_length in HL.
  replace (Z.of_nat (length fs) - Z.of_nat (length (e_tags e)) - 3)%Z with (Z.of_nat (length (e_verts e))) by lia.
  replace (in_intb (Z.of_nat (length (e_verts e)))) with true.
  2:{ unfold in_intb. symmetry. apply andb_true_iff. rewrite !Z.leb_le. unfold INT_MIN, INT_MAX in *. lia. }
  cbn [negb]. rewrite (parseElem_ok _ _ HF). unfold collect. unfold typed in Ht.
  remember (length (e_verts e)) as k eqn:Ek.
  destruct k as [|[|[|[|[|k]]]]]; [easy| | | | |].
  - rewrite Ht. change (Z.of_nat 1 =? 1)%Z with true. change (negb (15 =? 15)%Z) with false. cbv iota.
    assert (Hlen : 3 < length (integers e)) by (unfold integers; cbn [length]; rewrite app_length; lia).
    destruct (G 3 (nth 3 (integers e) 0%Z)) as (s3 & N3 & S3); [now apply nth_error_nth'|].
    rewrite (getn_ok _ _ _ N3). cbn [bind]. rewrite S3. reflexivity.
  - rewrite Ht. reflexivity.
  - rewrite Ht. reflexivity.
  - rewrite Ht. reflexivity.
  - destruct (Z.eqb_spec (Z.of_nat (S (S (S (S (S k)))))) 1); [lia|].
    destruct (Z.eqb_spec (Z.of_nat (S (S (S (S (S k)))))) 2); [lia|].
    destruct (Z.eqb_spec (Z.of_nat (S (S (S (S (S k)))))) 3); [lia|].
    destruct (Z.eqb_spec (Z.of_nat (S (S (S (S (S k)))))) 4); [lia|]. reflexivity.
Qed.

Lemma elems_ok els : forall elines lo el line r rest, Rd r (elines ++ rest) ->
  Forall2 (element_line stoi) elines els -> Forall typed els ->
  exists line' r', for_from lo (length els) (elem_step stoi) (el, line, r) = Ok (fold_left collect els el, line', r').
Proof.
  induction els as [|e els IH]; intros elines lo el line r rest H F T; inversion F; subst.
  - exists line, r. reflexivity.
  - inversion T; subst. cbn [app] in H.
    destruct (elem_step_ok lo el line r x (l ++ rest) e) as (r' & E & H'); auto.
    cbn [length for_from fold_left]. rewrite E. cbn [bind]. eapply IH; eauto.
Qed.

Lemma collect_tris els : forall el, trs (fold_left collect els el) = trs el ++ map integers (sized 3 els) /\
  qds (fold_left collect els el) = qds el ++ map integers (sized 4 els).
Proof.
  induction els as [|e els IH]; intros el; cbn [fold_left].
  - cbn. now rewrite !app_nil_r.
  - destruct (IH (collect el e)) as (A & B). rewrite A, B. clear A B IH. unfold collect, sized. cbn [filter].
    destruct (length (e_verts e)) as [|[|[|[|[|k]]]]]; cbn [Nat.eqb map trs qds]; rewrite <- ?app_assoc; auto.
Qed.

(* columns 5.. of the row, as the code reads them *)
Lemma elem_vertices_gen NF e : 2 <= length (e_tags e) -> length (e_verts e) = NF ->
  elem_vertices NF (integers e) = Ok (map (fun v => (v - 1)%Z) (firstn NF (skipn 2 (e_tags e ++ e_verts e)))).
Proof.
  intros Ht Hv. unfold elem_vertices.
  destruct (for_inv (fun n acc => acc = map (fun v => (v - 1)%Z) (firstn n (skipn 2 (e_tags e ++ e_verts e)))) NF
    (fun i acc => bind (getn (integers e) (5 + i)) (fun v => Ok (acc ++ [(v - 1)%Z]))) []) as (acc & E & ->).
  - reflexivity.
  - intros i acc Hi ->. destruct (nth_error_ex (skipn 2 (e_tags e ++ e_verts e)) i) as (v & Hvi).
    { rewrite skipn_length, app_length. lia. }
    assert (N : nth_error (integers e) (5 + i) = Some v).
    { unfold integers. rewrite nth_error_skipn' in Hvi. exact Hvi. }
    rewrite (getn_ok _ _ _ N). cbn [bind]. eexists. split; [reflexivity|].
    rewrite (firstn_S_nth _ _ _ Hvi), map_app. reflexivity.
  - rewrite E. reflexivity.
Qed.

Lemma elements_table_gen NF es : (forall e, In e es -> 2 <= length (e_tags e) /\ length (e_verts e) = NF) ->
  elements_table NF (map integers es) =
    Ok (flat_map (fun e => map (fun v => (v - 1)%Z) (firstn NF (skipn 2 (e_tags e ++ e_verts e)))) es).
Proof.
  induction es as [|e es IH]; intros H; cbn [map elements_table]; auto.
  destruct (H e (or_introl eq_refl)). rewrite elem_vertices_gen by auto. cbn [bind].
  rewrite IH by (intros; apply H; now right). reflexivity.
Qed.

Lemma elements_table_ok NF es : (forall e, In e es -> length (e_tags e) = 2 /\ length (e_verts e) = NF) ->
  elements_table NF (map integers es) = Ok (vertex_table es).
Proof.
  intros H. rewrite elements_table_gen.
  - f_equal. unfold vertex_table. induction es as [|e es IH]; auto. cbn [flat_map].
    destruct (H e (or_introl eq_refl)) as (A & B). rewrite IH by (intros; apply H; now right). f_equal.
    destruct (e_tags e) as [|a [|b [|]]]; try discriminate. cbn [app skipn]. now rewrite <- B, firstn_all.
  - intros e He. destruct (H e He). lia.
Qed.

Lemma elem_vertices_few NF e : 3 <= NF -> length (e_tags e) < 2 -> length (e_verts e) = NF ->
  elem_vertices NF (integers e) = UB.
Proof.
  intros HN Ht Hv. unfold elem_vertices, for_.
  assert (G : forall n lo acc, lo + n = NF -> 0 < n ->
    for_from lo n (fun i acc => bind (getn (integers e) (5 + i)) (fun v => Ok (acc ++ [(v - 1)%Z]))) acc = UB).
  { induction n as [|n IH]; intros lo acc Hs Hn; [lia|]. cbn [for_from].
    unfold getn at 1. destruct (nth_error (integers e) (5 + lo)) as [v|] eqn:E; [|reflexivity].
    cbn [bind]. destruct n; [|apply IH; lia].
    apply nth_error_Some_lt in E. unfold integers in E. cbn [length] in E. rewrite app_length in E. lia. }
  apply G; lia.
Qed.

Lemma elem_vertices_nothrow NF row : elem_vertices NF row <> Throw.
Proof.
  unfold elem_vertices, for_.
  assert (G : forall n lo acc, for_from lo n (fun i acc => bind (getn row (5 + i)) (fun v => Ok (acc ++ [(v - 1)%Z]))) acc <> Throw).
  { induction n as [|n IH]; intros lo acc; cbn [for_from]; [discriminate|].
    unfold getn at 1. destruct (nth_error row (5 + lo)); cbn [bind]; [apply IH|discriminate]. }
  apply G.
Qed.

Lemma elements_table_few NF es e : 3 <= NF -> In e es -> length (e_tags e) < 2 -> length (e_verts e) = NF ->
  elements_table NF (map integers es) = UB.
Proof.
  intros HN. induction es as [|e0 es IH]; intros Hin Ht Hv; [destruct Hin|]. cbn [map elements_table].
  destruct Hin as [->|Hin]; [rewrite elem_vertices_few; auto|].
  pose proof (elem_vertices_nothrow NF (integers e0)). destruct (elem_vertices NF (integers e0)); try easy; cbn [bind].
  now rewrite IH.
Qed.

Lemma str_eqb_refl s : str_eqb s s = true.
Proof. induction s; cbn; auto. now rewrite Ascii.eqb_refl. Qed.

Lemma sized_in n els e : In e (sized n els) -> length (e_verts e) = n /\ In e els.
Proof. unfold sized. rewrite filter_In, Nat.eqb_eq. tauto. Qed.


Lemma open_lines t l ls : small_text t -> lines_of t (l :: ls) ->
  exists r, openFile (Some t) 0 s_delims = Ok (Ret tt, r) /\ Rd r (l :: ls).
Proof.
  intros Hsm HL. destruct (openFile_ok (Some t) 0 s_delims) as (res & r & vw & E & O & HRr); auto.
  { unfold in_int, INT_MIN, INT_MAX. lia. }
  assert (exists ls0 c, vw = mkview (Some ls0) 0 false 0 s_delims c /\ lines_of t ls0 /\ res = Ret tt) as (ls0 & c & -> & Hls & ->).
  { clear - O. remember (Some t) as ot. inversion O; subst; try discriminate.
    - exfalso. match goal with H : ~ legal_delims _ |- _ => apply H end. apply checkDelimiters_legal. reflexivity.
    - lia.
    - destruct res as [[]|]; [|discriminate].
      match goal with H : Some t = Some _ |- _ => injection H as <- end. eauto 6. }
  exists r. split; auto. rewrite <- (lines_unique _ _ Hls _ HL).
  eexists. split; [exact HRr|]. cbn. split; auto. split; auto. split; auto. eauto.
Qed.


(* the whole file *)
Lemma readMesh_raw_ok t nodes els NV0 jv : small_text t ->
  gmsh_file stoi stod stof vers_ok t nodes els -> numbered nodes ->
  readMesh_raw X stoi stod stof vers_ok (Some t) NV0 jv =
    bind (elements_table (fst (mesh_elements els)) (map integers (snd (mesh_elements els)))) (fun E2V =>
    Ok (mkraw X (fold_left put_node nodes (map jv (seq 0 (length nodes * 3)))) (length nodes)
          (fst (mesh_elements els)) (length (snd (mesh_elements els))) E2V)).
Proof.
  intros Hsm (fmt & end1 & ncount & nlines & end2 & ecount & elines & rest & v & v' & f & f' & g & g' & a & a' & b & b' &
     HL & H1 & H2 & H3 & H4 & H5 & -> & -> & H8 & H9 & -> & H11 & H12 & H13 & -> & H15 & H16) (ND & HR).
  unfold readMesh_raw.
  cbn [app] in HL. destruct (open_lines t _ _ Hsm HL) as (r & E & H0). rewrite E. cbn [bind]. clear E.
  destruct (Rd_next _ _ _ [] H0) as (r1 & E1 & R1). rewrite E1.
  unfold expect. change s_MeshFormat with h_format. rewrite str_eqb_refl. cbn [bind].
  destruct (Rd_vals [kFloat X stof; kInt X stoi; kInt X stoi] r1 _ _ [v'; f'; g'] [NReal X v; NInt X 0; NInt X 8] R1) as (r2 & E2 & R2); auto.
  { cbn; lia. } { cbn [combine]. repeat constructor; auto using cast_int, cast_float. }
  change (Z.of_nat (length [kFloat X stof; kInt X stoi; kInt X stoi])) with 3%Z in E2. rewrite E2. cbn [bind].
  rewrite H5. change (negb (0 =? 0)%Z) with false. change (negb (8 =? 8)%Z) with false. cbn [negb]. cbv iota.
  pose proof (Rd_skip _ _ _ R2) as R3. set (r3 := snd (skipLines 1 r2)) in *. clearbody r3.
  destruct (Rd_next _ _ _ h_format R3) as (r4 & E4 & R4). rewrite E4.
  change s_Nodes with h_nodes. rewrite str_eqb_refl. cbn [bind].
  destruct (Rd_vals [kInt X stoi] r4 _ _ [a'] [NInt X (Z.of_nat (length nodes))] R4) as (r5 & E5 & R5); auto.
  { cbn; lia. } { cbn [combine]. repeat constructor; auto using cast_int. }
  change (Z.of_nat (length [kInt X stoi])) with 1%Z in E5. rewrite E5. cbn [bind].
  destruct (Z.ltb_spec (Z.of_nat (length nodes)) 0); [lia|]. rewrite Nat2Z.id.
  assert (R6 : Rd (with_cols r5 4) (nlines ++ [end2; h_elements; ecount] ++ elines ++ rest)) by (apply Rd_cols; auto; lia).
  destruct (nodes_ok nodes nlines 0 (map jv (seq 0 (length nodes * 3))) _ _ R6) as (r7 & E7 & R7); auto.
  { intros n Hn'. specialize (HR (fst n) (in_map fst _ _ Hn')). rewrite map_length, seq_length. lia. }
  unfold for_. rewrite E7. cbn [bind]. cbn [app] in R7.
  pose proof (Rd_skip _ _ _ R7) as R8. set (r8 := snd (skipLines 1 r7)) in *. clearbody r8.
  destruct (Rd_next _ _ _ h_nodes R8) as (r9 & E9 & R9). rewrite E9.
  change s_Elements with h_elements. rewrite str_eqb_refl. cbn [bind].
  destruct (Rd_vals [kInt X stoi] r9 _ _ [b'] [NInt X (Z.of_nat (length els))] R9) as (r10 & E10 & R10); auto.
  { cbn; lia. } { cbn [combine]. repeat constructor; auto using cast_int. }
  change (Z.of_nat (length [kInt X stoi])) with 1%Z in E10. rewrite E10. cbn [bind].
  destruct (Z.ltb_spec (Z.of_nat (length els)) 0); [lia|]. rewrite Nat2Z.id.
  destruct (elems_ok els elines 0 (mkelems [] [] [] []) h_elements r10 rest R10) as (line' & r11 & E11); auto.
  rewrite E11. cbn [bind].
  destruct (collect_tris els (mkelems [] [] [] [])) as (A & B). cbn [trs qds app] in A, B. rewrite A, B.
  unfold mesh_elements. destruct (sized 4 els) as [|q qs]; cbn [map fst snd length]; rewrite ?map_length; reflexivity.
Qed.
Lemma str_eqb_eq a : forall b, str_eqb a b = true -> a = b.
Proof.
  induction a as [|x a IH]; intros [|y b] H; cbn in *; auto; try discriminate.
  apply andb_true_iff in H. destruct H as (H1 & H2). apply Ascii.eqb_eq in H1. subst. f_equal. auto.
Qed.

Lemma wrong_header t l ls NV0 jv : small_text t -> lines_of t (l :: ls) -> l <> h_format ->
  readMesh_raw X stoi stod stof vers_ok (Some t) NV0 jv = Throw.
Proof.
  intros Hsm HL Hne. unfold readMesh_raw. destruct (open_lines t l ls Hsm HL) as (r & E & H).
  rewrite E. cbn [bind]. destruct (Rd_next _ _ _ [] H) as (r1 & E1 & _). rewrite E1.
  unfold expect. destruct (str_eqb l s_MeshFormat) eqn:Q; [|reflexivity].
  exfalso. apply Hne. now apply str_eqb_eq.
Qed.
End Read.

Lemma lines_join ls : Forall (fun l => ~ In NL l) ls -> lines_of (flat_map (fun l => l ++ [NL]) ls) ls.
Proof.
  induction 1 as [|l ls H F IH]; cbn [flat_map]; [constructor|]. rewrite <- app_assoc. cbn [app]. now constructor.
Qed.

(* ---- the rest of readMesh ---- *)
Section Finish.
Variable X : Type.
Variable r_sub r_mul : X -> X -> X.
Variable neg : X -> bool.

Definition sw (s : bool) (i : nat) : nat := if s then match i with 1 => 2 | 2 => 1 | _ => i end else i.

Lemma turned_perm dim NF V E E' k K : 3 <= NF -> length E = K * NF -> k < K ->
  (forall v, In v E -> known X dim V v) -> turned X r_sub r_mul neg dim NF V E E' k ->
  exists s, forall i, i < NF -> nth_error E' (k * NF + i) = nth_error E (k * NF + sw s i).
Proof.
  intros HN HL Hk HV T.
  assert (Hx : forall i, i < NF -> exists v, corner NF E k i v).
  { intros i Hi. apply nth_error_ex. nia. }
  destruct (Hx 0 ltac:(lia)) as (a & Ha), (Hx 1 ltac:(lia)) as (b & Hb), (Hx 2 ltac:(lia)) as (c & Hc).
  destruct (HV a) as (ax & ay & Va); [eapply nth_error_In; exact Ha|].
  destruct (HV b) as (bx & by_ & Vb); [eapply nth_error_In; exact Hb|].
  destruct (HV c) as (cx & cy & Vc); [eapply nth_error_In; exact Hc|].
  destruct (T a b c ax ay bx by_ cx cy) as (T0 & T12 & T3); auto.
  unfold corner in *. rewrite ?Nat.add_0_r in *.
  exists (neg (det X r_sub r_mul ax ay bx by_ cx cy)). destruct (neg _); destruct T12 as (T1 & T2); intros i Hi;
    destruct i as [|[|[|i]]]; cbn [sw]; rewrite ?Nat.add_0_r; try congruence; apply T3; lia.
Qed.

Lemma sw_lt s NF i : 3 <= NF -> i < NF -> sw s i < NF.
Proof. intros. unfold sw. destruct s; auto. destruct i as [|[|[|]]]; lia. Qed.
Lemma sw_inj s i j : sw s i = sw s j -> i = j.
Proof. unfold sw. destruct s; auto. destruct i as [|[|[|]]], j as [|[|[|]]]; lia. Qed.

(* the i-th element of E' lists the vertices of the i-th of E, the second and third perhaps swapped *)
Definition permuted NF K (E E' : list Z) : Prop := length E' = K * NF /\
  forall k, k < K -> exists s, forall i, i < NF -> nth_error E' (k * NF + i) = nth_error E (k * NF + sw s i).

Lemma permuted_in NF K E E' v : 3 <= NF -> length E = K * NF -> permuted NF K E E' -> In v E' -> In v E.
Proof.
  intros HN HL (HL' & P) Hin. apply In_nth_error in Hin. destruct Hin as (g & Hg).
  assert (g < K * NF) by (rewrite <- HL'; eapply nth_error_Some_lt; eauto).
  assert (Hm : g mod NF < NF) by (apply Nat.mod_upper_bound; lia).
  assert (Hd : g / NF < K) by (apply Nat.div_lt_upper_bound; lia).
  destruct (P (g / NF) Hd) as (s & Hs). specialize (Hs (g mod NF) Hm).
  replace (g / NF * NF + g mod NF) with g in Hs by (rewrite Nat.mul_comm; apply Nat.div_mod; lia).
  rewrite Hg in Hs. symmetry in Hs. eapply nth_error_In; eauto.
Qed.

Lemma permuted_distinct NF K E E' : 3 <= NF -> length E = K * NF -> permuted NF K E E' ->
  distinct_verts NF E -> distinct_verts NF E'.
Proof.
  intros HN HL (HL' & P) D k i j v Hi Hj A B.
  assert (k < K). { apply nth_error_Some_lt in A. nia. }
  destruct (P k H) as (s & Hs). rewrite Hs in A, B by auto. apply (sw_inj s).
  eapply D; eauto using sw_lt.
Qed.
End Finish.
