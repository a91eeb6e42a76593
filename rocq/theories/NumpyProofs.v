(* NumpyProofs.v - proofs about arrays crossing to Python. *)
From Coq Require Import ZArith List Bool Lia Arith.
From Verif Require Import Base Loops NumpyModel NumpySpec.
Import ListNotations.
Local Open Scope nat_scope.

Lemma skipn_add {A} a b (l : list A) : skipn a (skipn b l) = skipn (b + a) l.
Proof. revert l; induction b; intros l; simpl; auto. destruct l; auto. now rewrite skipn_nil. Qed.

Lemma storage_len {T} (m : mat T) : length (storage m) = mrows m * mcols m.
Proof.
  unfold storage. generalize (seq 0 (mrows m)) as l, (seq_length (mrows m) 0). intros l <-.
  induction l; simpl; auto. rewrite app_length, map_length, seq_length, IHl. lia.
Qed.
Lemma flat_at {A} (g : nat -> list A) w n i j lo : (forall k, length (g k) = w) -> i < n -> j < w ->
  nth_error (flat_map g (seq lo n)) (i * w + j) = nth_error (g (lo + i)) j.
Proof.
  intros Hg. revert i lo; induction n; intros i lo Hi Hj; [lia|]. simpl.
  destruct i.
  - rewrite nth_error_app1 by (rewrite Hg; lia). rewrite Nat.add_0_r. reflexivity.
  - rewrite nth_error_app2 by (rewrite Hg; lia). rewrite Hg.
    replace (S i * w + j - w) with (i * w + j) by lia. rewrite IHn by lia. now rewrite Nat.add_succ_r.
Qed.
Lemma storage_at {T} (m : mat T) i j : i < mrows m -> j < mcols m -> nth_error (storage m) (i * mcols m + j) = Some (ment m i j).
Proof.
  intros Hi Hj. unfold storage. rewrite (flat_at _ (mcols m)); auto.
  - simpl. rewrite nth_error_map. rewrite (nth_error_nth' _ 0) by (rewrite seq_length; lia). rewrite seq_nth by lia. reflexivity.
  - intros. now rewrite map_length, seq_length.
Qed.
Lemma flat_map_seq_len {X} (f : nat -> list X) w n b : (forall i, length (f i) = w) -> length (flat_map f (seq b n)) = n * w.
Proof. intros H. revert b. induction n as [|n IH]; intros b; cbn; auto. now rewrite app_length, H, IH. Qed.
Lemma flat_map_seq_at {X} (f : nat -> list X) w n b i j : (forall i, length (f i) = w) -> i < n -> j < w ->
  nth_error (flat_map f (seq b n)) (i * w + j) = nth_error (f (b + i)) j.
Proof.
  intros H. revert b i. induction n as [|n IH]; intros b i Hi Hj; [lia|]. cbn [seq flat_map]. destruct i as [|i].
  - rewrite nth_error_app1 by (rewrite H; lia). now rewrite Nat.add_0_r.
  - rewrite nth_error_app2 by (rewrite H; nia). rewrite H. replace (S i * w + j - w) with (i * w + j) by nia.
    rewrite IH by lia. now rewrite Nat.add_succ_r.
Qed.
Lemma storage3_len {T} (t : list (mat T)) r s : length (storage3 r s t) = r * (s * length t).
Proof. apply flat_map_seq_len. intros i. apply flat_map_seq_len. intros j. apply map_length. Qed.
Lemma storage3_at {T} (t : list (mat T)) r s k i j m :
  nth_error t k = Some m -> i < r -> j < s -> nth_error (storage3 r s t) (i * (s * length t) + (j * length t + k)) = Some (ment m i j).
Proof.
  intros Hk Hi Hj. assert (Hl : k < length t) by (apply nth_error_Some; congruence).
  unfold storage3. rewrite (flat_map_seq_at _ (s * length t)); auto; [| |nia].
  2:{ intros i'. apply flat_map_seq_len. intros j'. apply map_length. }
  rewrite (flat_map_seq_at _ (length t)); auto. 2:{ intros j'. apply map_length. }
  cbn [Nat.add]. rewrite nth_error_map, Hk. reflexivity.
Qed.

Section Bytes.
Context {B T : Type} (c : ctype B T) (Hc : ctype_ok c).

Lemma enc_len l : length (flat_map (encode c) l) = length l * width c.
Proof. induction l; simpl; auto. rewrite app_length, (ct_len c Hc), IHl. lia. Qed.
Lemma firstn_enc (v : T) l : firstn (width c) (encode c v ++ l) = encode c v.
Proof. rewrite firstn_app, (ct_len c Hc), Nat.sub_diag, firstn_all2 by (rewrite (ct_len c Hc); lia). simpl. now rewrite app_nil_r. Qed.

(* the k-th element of a block that starts with the encoding of l *)
Lemma enc_at l k x rest : nth_error l k = Some x ->
  firstn (width c) (skipn (k * width c) (flat_map (encode c) l ++ rest)) = encode c x.
Proof.
  revert k; induction l as [|v l IH]; intros [|k] H; simpl in H; try discriminate.
  - injection H as <-. cbn [flat_map Nat.mul skipn]. rewrite <- app_assoc. apply firstn_enc.
  - cbn [flat_map]. rewrite <- app_assoc.
    rewrite skipn_app, (ct_len c Hc), skipn_all2 by (rewrite (ct_len c Hc); lia).
    replace (S k * width c - width c) with (k * width c) by lia. simpl. now apply IH.
Qed.
Lemma dec_at l k x rest : nth_error l k = Some x ->
  decode c (firstn (width c) (skipn (k * width c) (flat_map (encode c) l ++ rest))) = x.
Proof. intros H. rewrite (enc_at _ _ _ _ H). apply ct_dec; auto. Qed.

Lemma elements_len n b : length (elements c n b) = n.
Proof. revert b; induction n; simpl; auto. Qed.
Lemma elements_at n b k : k < n -> nth_error (elements c n b) k = Some (decode c (firstn (width c) (skipn (k * width c) b))).
Proof.
  revert b k; induction n; intros b k H; [lia|]. destruct k; simpl.
  - reflexivity.
  - rewrite IHn by lia. rewrite skipn_add. reflexivity.
Qed.

(* what export leaves in memory *)
Lemma export_ok shape src : length src <= product_of shape ->
  export c shape src = Ok (NdArray (flat_map (encode c) src ++ repeat (zbyte c) ((product_of shape - length src) * width c)) 0 (width c)
                             shape (c_strides (width c) shape)).
Proof.
  intros H. unfold export, copy_out, store, zeros; cbn [nd_bytes nd_data nd_item nd_shape nd_strides].
  rewrite enc_len, repeat_length.
  assert (E : (0 + length src * width c <=? product_of shape * width c) = true).
  { apply Nat.leb_le. apply Nat.mul_le_mono_r. exact H. }
  rewrite E. cbn [bind firstn]. f_equal. f_equal. rewrite app_nil_l. f_equal.
  rewrite Nat.add_0_l. replace (product_of shape * width c) with (length src * width c + (product_of shape - length src) * width c) by nia.
  rewrite repeat_app, skipn_app, repeat_length, Nat.sub_diag, skipn_all2 by (rewrite repeat_length; lia). reflexivity.
Qed.
Lemma export_ub shape src : product_of shape < length src -> export c shape src = UB.
Proof.
  intros H. unfold export, copy_out, store, zeros; cbn [nd_bytes nd_data]. rewrite enc_len, repeat_length.
  assert (E : (0 + length src * width c <=? product_of shape * width c) = false).
  { apply Nat.leb_gt. pose proof (ct_pos c Hc). nia. }
  now rewrite E.
Qed.

(* the address of a C-ordered item *)
Lemma item1 a n i k : nd_shape a = [n] -> nd_strides a = c_strides (width c) [n] -> i < n -> k = i ->
  item c a [i] = Some (decode c (firstn (width c) (skipn (nd_data a + k * width c) (nd_bytes a)))).
Proof.
  intros Es Et Hi ->. unfold item. rewrite Es, Et. cbn [in_shape]. apply Nat.ltb_lt in Hi. rewrite Hi. cbn [andb].
  cbn [c_strides address product_of fold_right]. do 4 f_equal. lia.
Qed.
Lemma item2 a r s i j : nd_shape a = [r; s] -> nd_strides a = c_strides (width c) [r; s] -> i < r -> j < s ->
  item c a [i; j] = Some (decode c (firstn (width c) (skipn (nd_data a + (i * s + j) * width c) (nd_bytes a)))).
Proof.
  intros Es Et Hi Hj. unfold item. rewrite Es, Et. cbn [in_shape]. apply Nat.ltb_lt in Hi, Hj. rewrite Hi, Hj. cbn [andb].
  cbn [c_strides address product_of fold_right]. do 4 f_equal. nia.
Qed.
Lemma item3 a K r s k i j : nd_shape a = [K; r; s] -> nd_strides a = c_strides (width c) [K; r; s] -> k < K -> i < r -> j < s ->
  item c a [k; i; j] = Some (decode c (firstn (width c) (skipn (nd_data a + (k * (r * s) + (i * s + j)) * width c) (nd_bytes a)))).
Proof.
  intros Es Et Hk Hi Hj. unfold item. rewrite Es, Et. cbn [in_shape]. apply Nat.ltb_lt in Hk, Hi, Hj. rewrite Hk, Hi, Hj. cbn [andb].
  cbn [c_strides address product_of fold_right]. do 4 f_equal. nia.
Qed.

Lemma export_vector n v : length v = n -> exists a, export c [n] v = Ok a /\ is_vector c a v.
Proof.
  intros E. eexists. split; [apply export_ok; cbn; lia|]. split; [cbn; now rewrite E|]. intros i x Hx.
  assert (Hi : i < n). { rewrite <- E. apply nth_error_Some. congruence. }
  erewrite (item1 _ n i i); [|reflexivity|reflexivity|exact Hi|reflexivity].
  cbn [nd_data nd_bytes]. now rewrite Nat.add_0_l, (dec_at _ _ _ _ Hx).
Qed.
Lemma export_table r s l : length l = r * s ->
  exists a, export c [r; s] l = Ok a /\ c_ordered c a /\ nd_data a = 0 /\ nd_bytes a = flat_map (encode c) l /\ nd_shape a = [r; s] /\
  forall i j x, i < r -> j < s -> nth_error l (i * s + j) = Some x -> item c a [i; j] = Some x.
Proof.
  intros E. eexists. split; [apply export_ok; cbn; lia|]. split.
  { split; [reflexivity|split; [reflexivity|]]. cbn. rewrite app_length, enc_len, repeat_length, E. nia. }
  split; [reflexivity|]. split.
  { cbn [nd_bytes]. replace (product_of [r; s] - length l) with 0 by (cbn; lia). cbn. apply app_nil_r. }
  split; [reflexivity|]. intros i j x Hi Hj Hx. erewrite (item2 _ r s i j); try reflexivity; auto.
  cbn [nd_data nd_bytes]. now rewrite Nat.add_0_l, (dec_at _ _ _ _ Hx).
Qed.
Lemma export_matrix m r s : mrows m = r -> mcols m = s -> exists a, export c [r; s] (storage m) = Ok a /\ c_ordered c a /\ is_matrix c a r s (ment m).
Proof.
  intros <- <-. destruct (export_table (mrows m) (mcols m) (storage m) (storage_len m)) as (a & E & Ho & _ & _ & Es & Hi).
  exists a. split; auto. split; auto. split; auto. intros i j Hr Hs. apply Hi; auto. now apply storage_at.
Qed.
Lemma export_tensor r s t : exists a, export c [r; s; length t] (storage3 r s t) = Ok a /\ nd_shape a = [r; s; length t] /\
  forall k i j m, nth_error t k = Some m -> i < r -> j < s -> item c a [i; j; k] = Some (ment m i j).
Proof.
  eexists. split; [apply export_ok; rewrite storage3_len; cbn; nia|]. split; [reflexivity|].
  intros k i j m Hk Hi Hj. assert (k < length t). { apply nth_error_Some. congruence. }
  erewrite (item3 _ r s (length t) i j k); try reflexivity; auto. cbn [nd_data nd_bytes].
  now rewrite Nat.add_0_l, (dec_at _ _ _ _ (storage3_at _ _ _ _ _ _ _ Hk Hi Hj)).
Qed.

(* reading n elements of an array into storage that holds old *)
Lemma copy_in_ok a n old : nd_data a + n * width c <= length (nd_bytes a) -> n <= length old ->
  copy_in c a n old = Ok (firstn (n * width c) (skipn (nd_data a) (nd_bytes a)) ++ skipn (n * width c) (flat_map (encode c) old)).
Proof.
  intros Ha Hn. unfold copy_in, load. rewrite (proj2 (Nat.leb_le _ _) Ha). cbn [bind]. unfold store.
  assert (El : length (firstn (n * width c) (skipn (nd_data a) (nd_bytes a))) = n * width c).
  { rewrite firstn_length, skipn_length. lia. }
  rewrite El, enc_len.
  assert (E : (0 + n * width c <=? length old * width c) = true) by (apply Nat.leb_le; nia). rewrite E.
  cbn [firstn]. now rewrite app_nil_l, Nat.add_0_l.
Qed.
Lemma copy_in_elements a n old k : nd_data a + n * width c <= length (nd_bytes a) -> n <= length old -> k < length old ->
  nth_error (elements c (length old) (firstn (n * width c) (skipn (nd_data a) (nd_bytes a)) ++ skipn (n * width c) (flat_map (encode c) old))) k
  = if k <? n then Some (decode c (firstn (width c) (skipn (nd_data a + k * width c) (nd_bytes a)))) else nth_error old k.
Proof.
  intros Ha Hn Hk. rewrite elements_at by auto.
  assert (El : length (firstn (n * width c) (skipn (nd_data a) (nd_bytes a))) = n * width c).
  { rewrite firstn_length, skipn_length. lia. }
  destruct (k <? n) eqn:E.
  - apply Nat.ltb_lt in E. f_equal. f_equal. rewrite skipn_app, firstn_app.
    assert (k * width c + width c <= n * width c) by nia.
    rewrite El. replace (width c - length (skipn (k * width c) (firstn (n * width c) (skipn (nd_data a) (nd_bytes a))))) with 0
      by (rewrite skipn_length, El; lia).
    cbn [firstn]. rewrite app_nil_r, skipn_firstn_comm, firstn_firstn, skipn_add. f_equal. lia.
  - apply Nat.ltb_ge in E. rewrite skipn_app, El, skipn_all2 by (rewrite El; nia). rewrite app_nil_l, skipn_add.
    replace (n * width c + (k * width c - n * width c)) with (k * width c) by nia.
    destruct (nth_error old k) as [x|] eqn:Ex.
    + pose proof (dec_at old k x [] Ex) as D. rewrite app_nil_r in D. now rewrite D.
    + apply nth_error_None in Ex. lia.
Qed.

Lemma set_table a s0 s1 old : nd_shape a = [s0; s1] -> nd_data a + (s0 * s1) * width c <= length (nd_bytes a) -> s0 * s1 <= length old ->
  exists l, set_bctype c a old = Ok l /\ length l = length old /\
  forall k, k < length old -> nth_error l k =
    if k <? s0 * s1 then Some (decode c (firstn (width c) (skipn (nd_data a + k * width c) (nd_bytes a)))) else nth_error old k.
Proof.
  intros Es Ha Hn. unfold set_bctype, shape_at, getn. rewrite Es. cbn [nth_error bind]. rewrite copy_in_ok by auto. cbn [bind].
  eexists. split; [reflexivity|]. split; [apply elements_len|]. intros k Hk. now apply copy_in_elements.
Qed.
Lemma set_table_big a s0 s1 old : nd_shape a = [s0; s1] -> length old < s0 * s1 -> set_bctype c a old = UB.
Proof.
  intros Es Hn. unfold set_bctype, shape_at, getn. rewrite Es. cbn [nth_error bind]. unfold copy_in, load.
  destruct (_ <=? _) eqn:E; [|reflexivity]. apply Nat.leb_le in E. cbn [bind]. unfold store.
  assert (El : length (firstn (s0 * s1 * width c) (skipn (nd_data a) (nd_bytes a))) = s0 * s1 * width c).
  { rewrite firstn_length, skipn_length. lia. }
  rewrite El, enc_len. pose proof (ct_pos c Hc).
  assert (E' : (0 + s0 * s1 * width c <=? length old * width c) = false) by (apply Nat.leb_gt; nia). now rewrite E'.
Qed.

(* a C-ordered matrix argument *)
Lemma c_item a r s f i j : c_ordered c a -> is_matrix c a r s f -> i < r -> j < s ->
  decode c (firstn (width c) (skipn (nd_data a + (i * s + j) * width c) (nd_bytes a))) = f i j.
Proof.
  intros (_ & Et & _) [Es Hi] Hr Hs. specialize (Hi i j Hr Hs). rewrite (item2 a r s i j Es) in Hi; auto.
  - now injection Hi.
  - now rewrite Et, Es.
Qed.
Lemma divmod_lt k r s : k < r * s -> k / s < r /\ k mod s < s /\ k / s * s + k mod s = k.
Proof.
  intros H. assert (s <> 0) by nia. pose proof (Nat.div_mod k s H0). pose proof (Nat.mod_upper_bound k s H0).
  split; [apply Nat.div_lt_upper_bound; lia|]. split; lia.
Qed.
Lemma set_c_table a r s f old : c_ordered c a -> is_matrix c a r s f -> r * s <= length old ->
  exists l, set_bctype c a old = Ok l /\ length l = length old /\
  (forall i j, i < r -> j < s -> nth_error l (i * s + j) = Some (f i j)) /\
  (forall k, r * s <= k -> nth_error l k = nth_error old k).
Proof.
  intros Ho Hm Hn. pose proof (proj1 Hm) as Es.
  destruct (set_table a r s old Es) as (l & E & El & Hl); auto.
  { destruct Ho as (_ & _ & Hb). rewrite Es in Hb. cbn in Hb. rewrite Nat.mul_1_r in Hb. lia. }
  exists l. split; auto. split; auto. split.
  - intros i j Hi Hj. rewrite Hl by nia. assert (i * s + j < r * s) by nia.
    rewrite (proj2 (Nat.ltb_lt _ _) H). f_equal. eapply c_item; eauto.
  - intros k Hk. destruct (Nat.lt_ge_cases k (length old)) as [Hk'|Hk'].
    + rewrite Hl by auto. now rewrite (proj2 (Nat.ltb_ge _ _) Hk).
    + assert (Q1 : nth_error l k = None) by (apply nth_error_None; lia).
      assert (Q2 : nth_error old k = None) by (apply nth_error_None; lia). congruence.
Qed.

Lemma of_storage_at (d : T) r s l i j x : nth_error l (i * s + j) = Some x -> ment (of_storage d r s l) i j = x.
Proof. intros H. cbn. now apply nth_error_nth. Qed.

Lemma set_coord_ok d a f old : c_ordered c a -> is_matrix c a (mrows old) (mcols old) f ->
  exists m, set_coordinate c d a old = Ok m /\ mrows m = mrows old /\ mcols m = mcols old /\
  forall i j, i < mrows old -> j < mcols old -> ment m i j = f i j.
Proof.
  intros Ho Hm. destruct (set_c_table a _ _ f (storage old) Ho Hm) as (l & E & El & Hl & _); [rewrite storage_len; lia|].
  unfold set_coordinate. rewrite E. cbn [bind]. eexists. split; [reflexivity|]. split; [reflexivity|]. split; [reflexivity|].
  intros i j Hi Hj. apply of_storage_at. now apply Hl.
Qed.
Lemma matrix_arg a s0 s1 z : nd_shape a = [s0; s1] -> nd_data a + (s0 * s1) * width c <= length (nd_bytes a) ->
  exists m, matrix_argument c z a = Ok m /\ mrows m = s0 /\ mcols m = s1 /\
  forall i j, i < s0 -> j < s1 -> ment m i j = decode c (firstn (width c) (skipn (nd_data a + (i * s1 + j) * width c) (nd_bytes a))).
Proof.
  intros Es Ha. unfold matrix_argument, shape_at, getn. rewrite Es. cbn [nth_error bind].
  rewrite copy_in_ok by (auto; rewrite repeat_length; lia). cbn [bind]. eexists. split; [reflexivity|].
  split; [reflexivity|]. split; [reflexivity|]. intros i j Hi Hj. apply of_storage_at.
  assert (H : i * s1 + j < s0 * s1) by nia.
  pose proof (copy_in_elements a (s0 * s1) (repeat z (s0 * s1)) (i * s1 + j) Ha) as C. rewrite repeat_length in C.
  rewrite C by lia. now rewrite (proj2 (Nat.ltb_lt _ _) H).
Qed.
Lemma matrix_arg_ub a s0 s1 z : nd_shape a = [s0; s1] -> length (nd_bytes a) < nd_data a + (s0 * s1) * width c ->
  matrix_argument c z a = UB.
Proof.
  intros Es Ha. unfold matrix_argument, shape_at, getn. rewrite Es. cbn [nth_error bind]. unfold copy_in, load.
  now rewrite (proj2 (Nat.leb_gt _ _) Ha).
Qed.
End Bytes.
