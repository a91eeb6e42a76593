(* MgrProofs.v *)
From Coq Require Import ZArith List Bool Ascii Lia.
From Verif Require Import Base Loops CscModel NumpyProofs CscProofs CsvModel CsvSpec CsvProofs CsvReadProofs MeshModel MeshSpec MeshProofs MeshGeoProofs MeshFileProofs MeshEdgeProofs BuildMeshProofs MgrModel MgrSpec.
Import ListNotations.
Local Open Scope nat_scope.

Section Values.
Context {V : Type}.

Lemma vec_loop_ok (k : kind V) fuel : forall r v nr data, R r v -> vend v = false ->
  (length (srest (strm r)) < fuel)%nat ->
  forall rows, rows_of (vdelims v) (skipn (vpos v) (lines v)) rows ->
  exists nr' res, vec_loop fuel k r nr data = Ok (nr', res) /\
    match res with
    | Ret data' => exists vals, Forall (fun row => Z.of_nat (length row) = vcols v) rows /\
        Forall2 (Forall2 (understood k)) rows vals /\ data' = data ++ concat vals /\ nr' = (nr + length rows)%nat
    | Exn => exists rows1 row rows2, rows = rows1 ++ row :: rows2 /\ Forall (good_row k (vcols v)) rows1 /\
        ~ good_row k (vcols v) row /\ nr' = nr + length rows1
    end.
Proof.
  induction fuel as [|f IH]; intros r v nr data H Hv Hf rows Hr; [lia|]. simpl.
  destruct (parseRowIterator_ok k r v H) as (vals & res & r1 & v1 & E & P & H1 & Hs). rewrite E. cbn [bind].
  inversion P as [v' N Ea | t fs v' N F C Ea | t fs vs v' N F C D Ea | t fs vs v' N F C D Ea]; subst v'.
  - destruct res as [[|]|]; try discriminate. injection Ea as <-.
    destruct (next_row_rows _ _ _ _ _ N Hv Hr) as [-> He].
    do 2 eexists. split; [reflexivity|]. exists []. simpl. repeat split; auto.
  - destruct res as [|]; try discriminate.
    destruct (next_row_rows _ _ _ _ _ N Hv Hr) as (fs' & rows' & -> & F' & Hv1 & Hr').
    rewrite <- (fields_unique _ _ _ F _ F') in *.
    do 2 eexists. split; [reflexivity|]. exists [], fs, rows'. split; [reflexivity|]. split; [constructor|]. split; [|simpl; lia].
    intros (L & _). congruence.
  - destruct res as [[|]|]; try discriminate. injection Ea as ->.
    destruct (next_row_rows _ _ _ _ _ N Hv Hr) as (fs' & rows' & -> & F' & Hv1 & Hr').
    rewrite <- (fields_unique _ _ _ F _ F') in *.
    destruct (next_row_frame _ _ _ N) as (Hd & Hc & Hl & Hk). rewrite <- Hd in Hr'.
    specialize (Hs eq_refl).
    destruct (IH r1 v1 (S nr) (data ++ vals) H1 Hv1 ltac:(lia) rows' Hr') as (nr' & res & E2 & X).
    exists nr', res. split; auto.
    rewrite Hc in X. apply delivered_true in D. destruct res as [data'|].
    + destruct X as (vls & A & B & -> & ->). exists (vals :: vls). simpl.
      repeat split; auto; rewrite <- ?app_assoc; auto; lia.
    + destruct X as (rows1 & row & rows2 & -> & A & B & ->). exists (fs :: rows1), row, rows2. split; [reflexivity|].
      split; [constructor; auto; split; [congruence|eauto]|]. split; auto. simpl. lia.
  - destruct res as [|]; try discriminate.
    destruct (next_row_rows _ _ _ _ _ N Hv Hr) as (fs' & rows' & -> & F' & Hv1 & Hr').
    rewrite <- (fields_unique _ _ _ F _ F') in *.
    do 2 eexists. split; [reflexivity|]. exists [], fs, rows'. split; [reflexivity|]. split; [constructor|]. split; [|simpl; lia].
    intros (_ & vls & U). apply delivered_true in U. destruct (delivered_det _ _ _ _ D _ _ U). discriminate.
Qed.

Lemma blanks_legal : legal_delims blanks.
Proof. split; [discriminate|]. intros c [<- | [<- | []]]; simpl; auto. Qed.

Lemma vec_ok (k : kind V) t nrows cols : small_text t ->
  exists nr nc res, csvread_vec k (Some t) 0 tab_space nrows cols = Ok (nr, nc, res) /\
    match res with Ret data => is_table k t nr nc data | Exn => breaks_off k t nr nc end.
Proof.
  intros Hsm. unfold csvread_vec. change tab_space with blanks.
  destruct (openFile_ok (Some t) 0 blanks Hsm) as (res & r & v & E & O & H); [unfold in_int, INT_MIN, INT_MAX; lia|]. rewrite E. cbn [bind].
  destruct res as [[]|].
  2:{ exfalso. inversion O as [ls Hd _ | Hd Hn | t' ls Hd Hn Hl Hlt |]; subst; [now apply Hd, blanks_legal|discriminate|lia]. }
  inversion O as [| | |t' ls c L F Hl Hle Hc]; subst. injection F as <-.
    destruct (rows_exist blanks (skipn (Z.to_nat 0) ls)) as (rows & Hr).
    destruct (vec_loop_ok k (S (length (srest (strm r)))) r _ 0 [] H eq_refl ltac:(lia) rows Hr)
      as (nr & res' & E' & X). rewrite E'. cbn [bind].
    assert (rows = [] -> c = 0%Z) as Hc0.
    { intros ->. destruct Hc as (row & v' & N & Hc).
      pose proof (next_row_rows blanks _ _ _ _ N eq_refl Hr) as Y. destruct row; auto.
      destruct Y as (? & ? & ? & _). discriminate. }
    assert (forall fs rows', rows = fs :: rows' -> c = Z.of_nat (length fs)) as Hc1.
    { intros fs rows' ->. destruct Hc as (row & v' & N & Hc).
      pose proof (next_row_rows blanks _ _ _ _ N eq_refl Hr) as Y. destruct row.
      - destruct Y as (fs' & rs' & Ey & F' & _). injection Ey as <- <-.
        destruct Hc as (fs2 & F2 & ->). now rewrite (fields_unique _ _ _ F' _ F2).
      - destruct Y as [Y _]. discriminate. }
    pose proof (R_cols _ _ H) as Hnc. cbn [vcols] in Hnc, X.
    destruct res' as [data|].
    - destruct X as (vals & A & B & -> & ->). simpl.
      rewrite (concat_length rows vals c _ A B), Hnc, Z.eqb_refl.
      do 3 eexists. split; [reflexivity|]. exists ls, rows, vals. repeat split; auto.
    - destruct X as (rows1 & row & rows2 & -> & A & B & ->).
      do 3 eexists. split; [reflexivity|]. rewrite Hnc. exists ls, rows1, row, rows2. repeat split; auto.
      symmetry. destruct rows1; cbn in *; eapply Hc1; reflexivity.
Qed.
End Values.

Lemma table_shape {V} (k : kind V) t nr nc data : is_table k t nr nc data -> (0 <= nc)%Z /\ Z.of_nat (length data) = (Z.of_nat nr * nc)%Z.
Proof.
  intros (ls & rows & vals & _ & _ & _ & -> & A & C0 & B & ->). split; [|eapply concat_length; eauto].
  destruct rows; [rewrite C0; auto; lia|]. inversion A; subst. lia.
Qed.
Lemma table_unique {V} (k : kind V) t nr nc data nr' nc' data' : is_table k t nr nc data -> is_table k t nr' nc' data' ->
  nr = nr' /\ nc = nc' /\ data = data'.
Proof.
  intros (ls & rows & vals & L & _ & Rr & -> & A & C0 & B & ->) (ls' & rows' & vals' & L' & _ & R' & -> & A' & C0' & B' & ->).
  rewrite <- (lines_unique _ _ L _ L') in R'. rewrite <- (rows_unique _ _ _ Rr _ R') in *. split; auto. split.
  - destruct rows; [rewrite C0, C0'; auto|]. inversion A; inversion A'; subst. congruence.
  - f_equal. clear - B B'. revert vals' B'. induction B as [|row vs rows vals U B IH]; intros vals' B'; inversion B' as [|? vs' ? ? U' B2]; subst; auto.
    f_equal; auto. clear - U U'. revert vs' U'. induction U; intros vs' U'; inversion U'; subst; auto. f_equal; eauto. eapply understood_fun; eauto.
Qed.
Lemma table_whole {V} (k : kind V) t nr nc data nr' nc' : is_table k t nr nc data -> breaks_off k t nr' nc' -> False.
Proof.
  intros (ls & rows & vals & L & _ & Rr & -> & A & C0 & B & ->) (ls' & rows1 & row & rows2 & L' & R' & G & NG & -> & H).
  rewrite <- (lines_unique _ _ L _ L') in R'. change (skipn (Z.to_nat 0) ls) with ls in Rr. rewrite (rows_unique _ _ _ Rr _ R') in *.
  apply NG. assert (In row (rows1 ++ row :: rows2)) as Hin by (apply in_or_app; right; now left). split.
  - rewrite <- H. transitivity nc; [now apply (proj1 (Forall_forall _ _) A)|].
    symmetry. apply (proj1 (Forall_forall _ _) A). destruct rows1; cbn; auto.
  - clear - B Hin. induction B as [|x y l l' U B IH]; [destruct Hin|]. destruct Hin as [-> |Hin]; eauto.
Qed.
Lemma breaks_unique {V} (k : kind V) t nr nc nr' nc' : breaks_off k t nr nc -> breaks_off k t nr' nc' -> nr = nr' /\ nc = nc'.
Proof.
  intros (ls & r1 & r & r2 & L & Rr & G & NG & -> & H) (ls' & s1 & s & s2 & L' & R' & G' & NG' & -> & H').
  rewrite <- (lines_unique _ _ L _ L') in R'. pose proof (rows_unique _ _ _ Rr _ R') as E. clear Rr R'.
  assert (nc = nc') as <-.
  { rewrite <- H, <- H'. destruct r1, s1; cbn in *; injection E; intros; subst; auto. }
  split; auto. clear H H'. revert s1 E G'. induction r1 as [|a r1 IH]; intros [|b s1] E G'; cbn in *; auto.
  - injection E as -> _. inversion G'; subst. contradiction.
  - injection E as <- _. inversion G; subst. contradiction.
  - injection E as <- E. inversion G; inversion G'; subst. f_equal. now apply IH.
Qed.

Lemma vec_table {V} (k : kind V) t nr nc data nrows cols : small_text t -> is_table k t nr nc data ->
  csvread_vec k (Some t) 0 tab_space nrows cols = Ok (nr, nc, Ret data).
Proof.
  intros Hs Ht. destruct (vec_ok k t nrows cols Hs) as (nr' & nc' & [data'|] & E & H).
  - destruct (table_unique _ _ _ _ _ _ _ _ Ht H) as (-> & -> & ->). exact E.
  - exfalso. eapply table_whole; eauto.
Qed.
Lemma vec_broken {V} (k : kind V) t nr nc nrows cols : small_text t -> breaks_off k t nr nc ->
  csvread_vec k (Some t) 0 tab_space nrows cols = Ok (nr, nc, Exn).
Proof.
  intros Hs Ht. destruct (vec_ok k t nrows cols Hs) as (nr' & nc' & [data'|] & E & H).
  - exfalso. eapply table_whole; eauto.
  - destruct (breaks_unique _ _ _ _ _ _ Ht H) as (-> & ->). exact E.
Qed.

(* ---- connectivity for a triangle file ---- *)
Lemma tri_tables jk jp ji jx je jf jb NV K E : length E = K * 3 -> (forall v, In v E -> (0 <= v < Z.of_nat NV)%Z) -> distinct_verts 3 E ->
  (Z.of_nat NV * Z.of_nat (3 * K) <= INT_MAX)%Z ->
  exists E2E E2F bc, buildConnectivity jk jp ji jx NV K 3 E (map je (seq 0 (K * 3))) (map jf (seq 0 (K * 3))) = Ok (E2E, E2F) /\
    buildBCTable K 3 E2E Wall (map jb (seq 0 (K * 3))) = Ok bc /\
    length E2E = K * 3 /\ length E2F = K * 3 /\ length bc = K * 3 /\
    forall g, g < K * 3 -> exists h, links 3 E2E E2F g h /\ neighbour 3 E g h /\ entry bc g (if h =? g then 3%Z else 0%Z).
Proof.
  intros HL HR HD HS.
  assert (HM : mesh_table NV K 3 E).
  { constructor; auto. intros g a b. apply distinct_faces; auto. }
  destruct (buildConnectivity_ok 3 E jk jp ji jx NV K (map je (seq 0 (K * 3))) (map jf (seq 0 (K * 3))) HM)
    as (E2E & E2F & EC & L1 & L2 & HC).
  { now rewrite map_length, seq_length. } { now rewrite map_length, seq_length. }
  destruct (buildBCTable_ok K 3 E2E Wall (map jb (seq 0 (K * 3)))) as (bc & EB & LB & HB); auto.
  { now rewrite map_length, seq_length. }
  exists E2E, E2F, bc. repeat (split; [assumption|]). intros g Hg. destruct (HC g Hg) as (h & Hl & Hn). exists h. split; auto. split; auto.
  destruct Hl as (Hl1 & _). specialize (HB g _ Hl1).
  replace (h =? g) with (h / 3 =? g / 3); auto.
  destruct (Nat.eqb_spec h g) as [->|Hne]; [apply Nat.eqb_refl|]. apply Nat.eqb_neq. intros Q.
  destruct Hn as [(-> & _)|(Hs & _)]; [easy|]. apply (same_element_not_shared 3 E g h) in Hs; auto.
Qed.

Lemma connectivity_no_vertices jk jp ji jx K E e f : 0 < K -> buildConnectivity jk jp ji jx 0 K 3 E e f = UB.
Proof.
  intros HK. unfold buildConnectivity, buildConnectivity_with, buildVToF, ctor_sizes. destruct (_ <? _)%Z; [reflexivity|]. cbn [bind].
  set (a0 := mkcsc _ _ _ _ _ _). destruct K as [|K]; [lia|]. unfold for_ at 1. cbn [for_from].
  assert (Q : face_step dbl d_one 3 E 0 0 (0, 0, a0) = UB).
  { unfold face_step.
    assert (L : length (i_ a0) = 1) by reflexivity. assert (L2 : length (x_ a0) = 1) by reflexivity. clearbody a0.
    pose proof (calm_setn (p_ a0) 0 0) as Q. destruct (setn (p_ a0) 0 0); [|now elim Q|reflexivity]. cbn [bind localVertNum Nat.eqb getn nth_error].
    repeat match goal with
    | |- bind (getn ?l ?i) _ = UB => let Q := fresh in pose proof (calm_getn l i) as Q; destruct (getn l i); [|now elim Q|reflexivity]; cbn [bind]
    | |- bind (row_index ?v) _ = UB => let Q := fresh in pose proof (calm_row v) as Q; destruct (row_index v); [|now elim Q|reflexivity]; cbn [bind]
    end.
    unfold setn at 1. rewrite L. cbn [Nat.ltb Nat.leb bind]. unfold setn at 1. rewrite L2. cbn [Nat.ltb Nat.leb bind].
    unfold setn at 1. rewrite upd_length, L. reflexivity. }
  unfold for_. cbn [for_from]. rewrite Q. reflexivity.
Qed.

(* ---- rows of a table ---- *)
Lemma rows_len {T} w n (l : list T) : length (table_rows w n l) = n.
Proof. revert l. induction n; intros; cbn; congruence. Qed.
Lemma rows_at {T} w n (l : list T) i : i < n -> nth_error (table_rows w n l) i = Some (firstn w (skipn (i * w) l)).
Proof.
  revert l i. induction n; intros l i Hi; [lia|]. destruct i as [|i]; [reflexivity|]. cbn [table_rows nth_error].
  rewrite IHn by lia. do 2 f_equal. rewrite skipn_add. f_equal; cbn; lia.
Qed.

Lemma print_ok {T} (a : list T) nr nc : (0 <= nc)%Z -> Z.of_nat (length a) = (Z.of_nat nr * nc)%Z ->
  print_array (Some a) nr nc = Ok (table_rows (Z.to_nat nc) nr a).
Proof.
  intros Hc HL. unfold print_array. set (w := Z.to_nat nc). assert (Hw : nc = Z.of_nat w) by lia. assert (HL' : length a = nr * w) by nia.
  destruct (for_inv (fun i out => out = firstn i (table_rows w nr a)) nr
    (fun i out => bind (for_ w (fun j row => bind (get a (Z.of_nat j + nc * Z.of_nat i)) (fun v => Ok (row ++ [v]))) [])
      (fun row => Ok (out ++ [row]))) []) as (out & E & ->); [reflexivity| |].
  - intros i out Hi ->.
    destruct (for_inv (fun j row => row = firstn j (skipn (i * w) a)) w
      (fun j row => bind (get a (Z.of_nat j + nc * Z.of_nat i)) (fun v => Ok (row ++ [v]))) []) as (row & E & ->); [reflexivity| |].
    + intros j row Hj ->. destruct (nth_error a (i * w + j)) as [v|] eqn:Ev; [|apply nth_error_None in Ev; nia].
      assert (G : get a (Z.of_nat j + nc * Z.of_nat i) = Ok v).
      { unfold get. rewrite (proj2 (Z.ltb_ge _ _)) by nia. replace (Z.to_nat (Z.of_nat j + nc * Z.of_nat i)) with (i * w + j) by nia. now rewrite Ev. }
      rewrite G. cbn [bind]. eexists. split; [reflexivity|]. symmetry. apply firstn_S_nth.
      rewrite nth_error_skipn'. exact Ev.
    + rewrite E. cbn [bind]. eexists. split; [reflexivity|]. symmetry. apply firstn_S_nth. now apply rows_at.
  - rewrite E. rewrite firstn_all2; [reflexivity|]. now rewrite rows_len.
Qed.

Lemma metis_args (K nf NV : nat) E : length E = K * nf -> (forall v, In v E -> (0 <= v < Z.of_nat NV)%Z) ->
  metis_mesh K NV (map (fun i => (Z.of_nat nf * Z.of_nat i)%Z) (seq 0 (S K))) E (table_rows nf K E).
Proof.
  intros HL HR. split; [apply rows_len|]. split; auto. intros i vs Hi.
  assert (Hk : i < K) by (rewrite <- (rows_len nf K E); apply nth_error_Some; congruence). rewrite rows_at in Hi by auto. injection Hi as <-.
  assert (Hn : forall j, j <= K -> nth_error (map (fun i => (Z.of_nat nf * Z.of_nat i)%Z) (seq 0 (S K))) j = Some (Z.of_nat nf * Z.of_nat j)%Z).
  { intros j Hj. apply map_nth_error with (f := fun i => (Z.of_nat nf * Z.of_nat i)%Z).
    destruct (nth_error (seq 0 (S K)) j) as [x|] eqn:Ex.
    - apply nth_error_nth with (d := 0) in Ex. rewrite seq_nth in Ex by lia. now rewrite <- Ex.
    - apply nth_error_None in Ex. rewrite seq_length in Ex. lia. }
  exists (Z.of_nat nf * Z.of_nat i)%Z, (Z.of_nat nf * Z.of_nat (S i))%Z. split; [apply Hn; lia|]. split; [apply Hn; lia|].
  split; [nia|]. split; [nia|]. f_equal; [nia|f_equal; nia].
Qed.
