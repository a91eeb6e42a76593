From Coq Require Import ZArith List Lia Bool Permutation Sorted.
From Verif Require Import Base Loops TripletModel BlitzProofs CscModel CscSpec.
Import ListNotations.
Local Open Scope nat_scope.

Section P.
Context {T : Type}.
Notation column := (list (nat * T)).
Notation ent := (nat * nat * T)%type.

Lemma nth_nth_error {A} (l : list A) i d x : nth_error l i = Some x -> nth i l d = x.
Proof. revert i; induction l; destruct i; simpl; intros; try discriminate; auto. congruence. Qed.

Lemma nth_error_nth' {A} (l : list A) i d : i < length l -> nth_error l i = Some (nth i l d).
Proof. revert i; induction l; destruct i; simpl; intros; try lia; auto. apply IHl. lia. Qed.

Lemma validb_iff (a : csc T) : validb a = true <-> valid a.
Proof.
  unfold validb. rewrite !andb_true_iff, !forallb_forall, !Nat.eqb_eq, !Nat.leb_le.
  split.
  - intros ((((((H1 & H2) & H3) & H4) & H5) & H6) & H7). constructor; auto.
    + destruct (p_ a); [discriminate|]. apply Nat.eqb_eq in H2. simpl. congruence.
    + intros j u v Hj Hu Hv. specialize (H3 j). rewrite in_seq in H3. specialize (H3 ltac:(lia)).
      apply Nat.leb_le in H3. rewrite (nth_nth_error _ _ _ _ Hu), (nth_nth_error _ _ _ _ Hv) in H3. auto.
    + intros u Hu. now rewrite (nth_nth_error _ _ _ _ Hu) in H4.
    + intros u k r Hu Hk Hr. rewrite (nth_nth_error _ _ _ _ Hu) in H7. specialize (H7 r).
      apply Nat.ltb_lt. apply H7. apply nth_error_In with k.
      rewrite <- (firstn_skipn u (i_ a)) in Hr. rewrite nth_error_app1 in Hr; auto.
      rewrite firstn_length. apply nth_error_Some_lt in Hr. rewrite (nth_nth_error _ _ _ _ Hu) in H4.
      rewrite <- firstn_skipn with (n := u) (l := i_ a) in H5.
      rewrite app_length, firstn_length, skipn_length in H5. lia.
  - intros [H1 H2 H3 H4 H5 H6 H7].
    assert (E : nth_error (p_ a) (n_ a) = Some (nth (n_ a) (p_ a) 0)) by (apply nth_error_nth'; lia).
    repeat split; auto.
    + destruct (p_ a); [discriminate|]. simpl in H2. apply Nat.eqb_eq. congruence.
    + intros j Hj. apply in_seq in Hj. apply Nat.leb_le. apply (H3 j); [lia|..]; apply nth_error_nth'; lia.
    + intros r Hr. apply Nat.ltb_lt. apply In_nth_error in Hr. destruct Hr as (k & Hk).
      assert (k < nth (n_ a) (p_ a) 0). { apply nth_error_Some_lt in Hk. rewrite firstn_length in Hk. lia. }
      apply (H7 _ k r E); auto. rewrite <- Hk.
      rewrite <- (firstn_skipn (nth (n_ a) (p_ a) 0) (i_ a)) at 1. rewrite nth_error_app1; auto.
      apply nth_error_Some_lt in Hk. auto.
Qed.

(* entries by columns *)
Definition tag (j : nat) (c : column) : list ent := map (fun e => (fst e, j, snd e)) c.
Definition coo_from (s : nat) (cs : list column) : list ent :=
  flat_map (fun '(j, c) => tag j c) (combine (seq s (length cs)) cs).
Definition coo := coo_from 0.

Lemma coo_cons s c cs : coo_from s (c :: cs) = tag s c ++ coo_from (S s) cs.
Proof. reflexivity. Qed.

Lemma ptrs_length (cs : list column) : forall s, length (ptrs s cs) = S (length cs).
Proof. induction cs; intros; simpl; auto. Qed.

Lemma ptrs_nth (cs : list column) : forall s j, j <= length cs ->
  nth_error (ptrs s cs) j = Some (s + length (concat (firstn j cs))).
Proof.
  induction cs; intros s j Hj; simpl in Hj.
  - assert (j = 0) by lia. subst. simpl. f_equal. lia.
  - destruct j; simpl; [f_equal; lia|]. rewrite IHcs by lia. f_equal. rewrite app_length. lia.
Qed.

Lemma concat_split (cs : list column) j c : nth_error cs j = Some c ->
  concat cs = concat (firstn j cs) ++ c ++ concat (skipn (S j) cs).
Proof.
  revert j; induction cs; intros j H; [destruct j; discriminate|].
  destruct j; simpl in *; [inversion H; subst; auto|].
  rewrite (IHcs _ H) at 1. now rewrite <- app_assoc.
Qed.

Lemma slice_app {X} (a b c : list X) : slice (a ++ b ++ c) (length a) (length a + length b) = b.
Proof.
  unfold slice. rewrite skipn_app, skipn_all, Nat.sub_diag. simpl.
  replace (length a + length b - length a) with (length b) by lia.
  rewrite firstn_app, Nat.sub_diag, firstn_all. simpl. apply app_nil_r.
Qed.

Lemma map_fst_snd (l : list (nat * T)) : combine (map fst l) (map snd l) = l.
Proof. induction l as [|[? ?] l IH]; simpl; auto. now rewrite IH. Qed.

Lemma firstn_S_nth {A} (l : list A) j c : nth_error l j = Some c -> firstn (S j) l = firstn j l ++ [c].
Proof.
  revert j; induction l; intros j H; [destruct j; discriminate|].
  destruct j; simpl in *; [congruence|]. now rewrite <- IHl.
Qed.

Lemma cols_of_of_cols jk m (cs : list column) : cols_of (of_cols jk m cs) = cs.
Proof.
  unfold cols_of. simpl. rewrite map_fst_snd.
  apply list_ext_nth. intros j. rewrite nth_error_map.
  destruct (Nat.lt_ge_cases j (length cs)).
  - rewrite nth_error_nth' with (d := 0) by (rewrite seq_length; auto). rewrite seq_nth by auto. simpl.
    destruct (nth_error_ex cs j H) as (c & Hc). rewrite Hc. f_equal.
    rewrite (nth_nth_error _ _ _ _ (ptrs_nth cs 0 j ltac:(lia))).
    pose proof (ptrs_nth cs 0 (S j) ltac:(lia)) as Q. rewrite (firstn_S_nth _ _ _ Hc) in Q.
    rewrite concat_app, app_length in Q. simpl concat in Q. rewrite app_nil_r in Q.
    rewrite (nth_nth_error _ _ _ _ Q). simpl.
    destruct (concat cs) eqn:E.
    + assert (c = []).
      { rewrite (concat_split _ _ _ Hc) in E. apply app_eq_nil in E. destruct E as (_ & E).
        apply app_eq_nil in E. tauto. }
      subst c. unfold slice. simpl. rewrite Nat.add_0_r, Nat.sub_diag. reflexivity.
    + rewrite <- E. rewrite (concat_split _ _ _ Hc). apply slice_app.
  - rewrite (proj2 (nth_error_None (seq 0 (length cs)) j)) by (rewrite seq_length; lia).
    rewrite (proj2 (nth_error_None cs j)) by lia. reflexivity.
Qed.

Lemma concat_firstn_le (cs : list column) j : length (concat (firstn j cs)) <= length (concat cs).
Proof.
  rewrite <- (firstn_skipn j cs) at 2. rewrite concat_app, app_length. lia.
Qed.

Lemma of_cols_valid jk m (cs : list column) :
  (forall c e, In c cs -> In e c -> fst e < m) -> valid (of_cols jk m cs).
Proof.
  intros H. constructor; unfold of_cols; cbn [m_ n_ p_ i_ x_ nzmax].
  - rewrite ptrs_length. lia.
  - destruct cs; reflexivity.
  - intros j u v Hj Hu Hv. rewrite ptrs_nth in Hu, Hv by lia.
    destruct (nth_error_ex cs j Hj) as (c & Hc). rewrite (firstn_S_nth _ _ _ Hc), concat_app, app_length in Hv.
    injection Hu as <-. injection Hv as <-. lia.
  - intros u Hu. rewrite ptrs_nth in Hu by lia. inversion Hu; subst. rewrite firstn_all. simpl.
    destruct (concat cs); simpl; lia.
  - apply map_length.
  - apply map_length.
  - intros u k r Hu Hk Hr. rewrite ptrs_nth in Hu by lia. inversion Hu; subst. rewrite firstn_all in Hk. simpl in Hk.
    destruct (concat cs) eqn:E; [simpl in Hk; lia|]. rewrite <- E in Hr.
    rewrite nth_error_map in Hr. destruct (nth_error (concat cs) k) eqn:Ek; [|discriminate].
    simpl in Hr. inversion Hr; subst. apply nth_error_In in Ek. apply in_concat in Ek.
    destruct Ek as (c & Hc & He). eauto.
Qed.

Lemma flat_map_seq_shift {X} (f g : nat -> list X) n s s' :
  (forall k, k < n -> f (s + k) = g (s' + k)) -> flat_map f (seq s n) = flat_map g (seq s' n).
Proof.
  revert s s'; induction n; intros s s' H; simpl; auto. f_equal.
  - specialize (H 0). rewrite !Nat.add_0_r in H. apply H. lia.
  - apply IHn. intros k Hk. replace (S s + k) with (s + S k) by lia. replace (S s' + k) with (s' + S k) by lia.
    apply H. lia.
Qed.

Lemma slice_entries (l : list (nat * T)) j : forall u n, u + n <= length l ->
  flat_map (fun k => match nth_error l k with Some e => [(fst e, j, snd e)] | None => [] end) (seq u n)
  = tag j (firstn n (skipn u l)).
Proof.
  intros u n; revert u; induction n; intros u H; simpl; auto.
  destruct (nth_error_ex l u) as (e & He); [lia|]. rewrite He. rewrite IHn by lia.
  rewrite <- (firstn_skipn u l) at 2.
  assert (E : skipn u l = e :: skipn (S u) l).
  { clear - He. revert u He; induction l; destruct u; simpl; intros; try discriminate; [congruence|]. now apply IHl. }
  rewrite firstn_skipn, E. reflexivity.
Qed.

Lemma nth_error_combine' {A B} (a : list A) (b : list B) i :
  nth_error (combine a b) i =
  match nth_error a i, nth_error b i with Some x, Some y => Some (x, y) | _, _ => None end.
Proof.
  revert b i; induction a; intros b i; simpl.
  - destruct i; reflexivity.
  - destruct b; simpl.
    + destruct i; simpl; auto. now destruct (nth_error a0 i).
    + destruct i; simpl; auto.
Qed.

Lemma mono_le (a : csc T) : valid a -> forall i j, i <= j -> j <= n_ a -> nth i (p_ a) 0 <= nth j (p_ a) 0.
Proof.
  intros V i j Hij. induction Hij; intros Hj; auto.
  etransitivity; [apply IHHij; lia|]. pose proof (v_plen _ V).
  apply (v_mono _ V m); [lia|..]; apply nth_error_nth'; lia.
Qed.

Lemma entries_coo (a : csc T) : valid a -> entries a = coo (cols_of a).
Proof.
  intros V. unfold coo, coo_from, cols_of. rewrite map_length, seq_length. unfold entries.
  pose proof (v_plen _ V).
  assert (G : forall n s, s + n <= n_ a ->
   flat_map (fun j => match nth_error (p_ a) j, nth_error (p_ a) (S j) with
     | Some u, Some v => flat_map (fun k => match nth_error (i_ a) k, nth_error (x_ a) k with
                           | Some r, Some x => [(r, j, x)] | _, _ => [] end) (seq u (v - u))
     | _, _ => [] end) (seq s n) =
   flat_map (fun '(j, c) => tag j c) (combine (seq s n)
     (map (fun j => slice (combine (i_ a) (x_ a)) (nth j (p_ a) 0) (nth (S j) (p_ a) 0)) (seq s n)))).
  { induction n; intros s Hs; [reflexivity|]. cbn [seq map combine flat_map].
    rewrite (IHn (S s)) by lia. f_equal.
    rewrite !nth_error_nth' with (d := 0) by lia.
    unfold slice. rewrite <- slice_entries.
    - apply flat_map_ext. intros k. rewrite nth_error_combine'.
      destruct (nth_error (i_ a) k), (nth_error (x_ a) k); auto.
    - rewrite combine_length, (v_ilen _ V), (v_xlen _ V), Nat.min_id.
      assert (nth (S s) (p_ a) 0 <= nth (n_ a) (p_ a) 0) by (apply mono_le; auto; lia).
      assert (nth (n_ a) (p_ a) 0 <= nzmax a) by (apply (v_last _ V); apply nth_error_nth'; lia).
      assert (nth s (p_ a) 0 <= nth (S s) (p_ a) 0) by (apply mono_le; auto; lia).
      lia. }
  apply G. lia.
Qed.

Lemma entries_of_cols jk m (cs : list column) : 
  (forall c e, In c cs -> In e c -> fst e < m) -> entries (of_cols jk m cs) = coo cs.
Proof. intros H. rewrite entries_coo by now apply of_cols_valid. now rewrite cols_of_of_cols. Qed.

Lemma cols_of_length (a : csc T) : length (cols_of a) = n_ a.
Proof. unfold cols_of. now rewrite map_length, seq_length. Qed.

Lemma firstn_In {A} (l : list A) n x : In x (firstn n l) -> In x l.
Proof. intros. rewrite <- (firstn_skipn n l). apply in_or_app. auto. Qed.

Lemma cols_of_rows (a : csc T) : valid a -> forall c e, In c (cols_of a) -> In e c -> fst e < m_ a.
Proof.
  intros V c e Hc He. unfold cols_of in Hc. apply in_map_iff in Hc. destruct Hc as (j & <- & Hj).
  apply in_seq in Hj. unfold slice in He. apply In_nth_error in He. destruct He as (k & Hk).
  pose proof (v_plen _ V).
  set (u := nth j (p_ a) 0) in *. set (w := nth (S j) (p_ a) 0) in *.
  assert (Hkl : k < w - u). { apply nth_error_Some_lt in Hk. rewrite firstn_length in Hk. lia. }
  assert (Hk2 : nth_error (combine (i_ a) (x_ a)) (u + k) = Some e).
  { rewrite <- Hk. clear - Hkl. generalize (combine (i_ a) (x_ a)) as l. intros l.
    rewrite <- (firstn_skipn u l) at 1.
    destruct (Nat.lt_ge_cases (length l) u).
    - rewrite skipn_all2 by lia. rewrite firstn_nil, app_nil_r.
      rewrite (proj2 (nth_error_None (firstn u l) (u + k))) by (rewrite firstn_length; lia). destruct k; reflexivity.
    - rewrite nth_error_app2 by (rewrite firstn_length; lia). rewrite firstn_length, Nat.min_l by lia.
      replace (u + k - u) with k by lia.
      rewrite <- (firstn_skipn (w - u) (skipn u l)) at 1.
      destruct (Nat.lt_ge_cases k (length (firstn (w - u) (skipn u l)))).
      + now rewrite nth_error_app1.
      + rewrite (proj2 (nth_error_None (firstn (w - u) (skipn u l)) k)) by lia.
        apply nth_error_None. rewrite firstn_skipn. rewrite firstn_length in H0. lia. }
  rewrite nth_error_combine' in Hk2.
  destruct (nth_error (i_ a) (u + k)) as [r|] eqn:Er; [|discriminate].
  destruct (nth_error (x_ a) (u + k)) as [x|]; [|discriminate]. inversion Hk2; subst e. simpl.
  apply (v_rows _ V (nth (n_ a) (p_ a) 0) (u + k) r); auto.
  - apply nth_error_nth'. lia.
  - assert (w <= nth (n_ a) (p_ a) 0) by (apply mono_le; auto; lia). lia.
Qed.

(* position filters *)
Lemma filter_tag_row i j (c : column) : filter (at_pos i j) (tag j c) = tag j (filter (fun e => fst e =? i) c).
Proof.
  unfold tag, at_pos, row_of, col_of. induction c as [|e c IH]; simpl; auto. rewrite IH.
  rewrite Nat.eqb_refl, andb_true_r. destruct (fst e =? i); reflexivity.
Qed.

Lemma filter_tag_other i j j' (c : column) : j <> j' -> filter (at_pos i j') (tag j c) = [].
Proof.
  intros. unfold tag, at_pos, row_of, col_of. induction c as [|e c IH]; simpl; auto. rewrite IH.
  destruct (Nat.eqb_spec j j'); [lia|]. now rewrite andb_false_r.
Qed.

Lemma filter_coo_from i j (cs : list column) : forall s, s <= j ->
  filter (at_pos i j) (coo_from s cs) = tag j (filter (fun e => fst e =? i) (nth (j - s) cs [])).
Proof.
  induction cs as [|c cs IH]; intros s H; [destruct (j - s); reflexivity|].
  rewrite coo_cons, filter_app.
  destruct (Nat.eq_dec s j).
  - subst. rewrite filter_tag_row, Nat.sub_diag. simpl.
    assert (E : filter (at_pos i j) (coo_from (S j) cs) = []).
    { clear. generalize (Nat.lt_succ_diag_r j). generalize (S j) as s'.
      induction cs as [|c cs IH]; intros s Hs; [reflexivity|]. rewrite coo_cons, filter_app.
      rewrite filter_tag_other by lia. simpl. apply IH. lia. }
    rewrite E. apply app_nil_r.
  - rewrite filter_tag_other by lia. simpl. rewrite IH by lia.
    replace (j - s) with (S (j - S s)) by lia. reflexivity.
Qed.

Lemma filter_coo i j (cs : list column) :
  filter (at_pos i j) (coo cs) = tag j (filter (fun e => fst e =? i) (nth j cs [])).
Proof. unfold coo. rewrite filter_coo_from by lia. now rewrite Nat.sub_0_r. Qed.

(* equal per position => permutation *)
Lemma split_filter (f : ent -> bool) l x r : filter f l = x :: r ->
  exists l1 l2, l = l1 ++ x :: l2 /\ filter f l1 = [] /\ filter f l2 = r.
Proof.
  induction l as [|y l IH]; simpl; [discriminate|]. destruct (f y) eqn:E.
  - intros H; inversion H; subst. exists [], l. auto.
  - intros H. destruct (IH H) as (l1 & l2 & -> & H1 & H2). exists (y :: l1), l2. simpl. rewrite E. auto.
Qed.

Lemma perm_of_positions (l1 l2 : list ent) :
  (forall i j, filter (at_pos i j) l1 = filter (at_pos i j) l2) -> Permutation l1 l2.
Proof.
  revert l2. induction l1 as [|x l1 IH]; intros l2 H.
  - destruct l2 as [|y l2]; auto. specialize (H (row_of y) (col_of y)). simpl in H.
    unfold at_pos in H at 1. rewrite !Nat.eqb_refl in H. discriminate.
  - pose proof (H (row_of x) (col_of x)) as Hx. simpl in Hx. unfold at_pos in Hx at 1.
    rewrite !Nat.eqb_refl in Hx. simpl in Hx. symmetry in Hx.
    destruct (split_filter _ _ _ _ Hx) as (a & b & -> & H1 & H2).
    apply Permutation_cons_app. apply IH. intros i j. rewrite filter_app.
    specialize (H i j). rewrite filter_app in H. simpl in H.
    destruct (at_pos i j x) eqn:E.
    + unfold at_pos in E. apply andb_true_iff in E. rewrite !Nat.eqb_eq in E. destruct E as (<- & <-).
      rewrite H1 in *. simpl in *. inversion H. auto.
    + exact H.
Qed.

(* ---- transpose ---- *)
Lemma transpose_cols_nth m (cs : list column) i : i < m ->
  nth i (transpose_cols m cs) [] =
  flat_map (fun '(j, c) => map (fun e => (j, snd e)) (filter (fun e => fst e =? i) c)) (combine (seq 0 (length cs)) cs).
Proof.
  intros H. unfold transpose_cols.
  erewrite nth_nth_error; [reflexivity|]. rewrite nth_error_map.
  rewrite nth_error_nth' with (d := 0) by (rewrite seq_length; auto). rewrite seq_nth by auto. reflexivity.
Qed.

Lemma transpose_inner i j (cs : list column) : forall s, s <= j ->
  filter (fun e : nat * T => fst e =? j)
   (flat_map (fun '(j, c) => map (fun e => (j, snd e)) (filter (fun e => fst e =? i) c)) (combine (seq s (length cs)) cs))
  = map (fun e => (j, snd e)) (filter (fun e => fst e =? i) (nth (j - s) cs [])).
Proof.
  assert (F1 : forall j (l : column), filter (fun e : nat * T => fst e =? j) (map (fun e => (j, snd e)) l) = map (fun e => (j, snd e)) l).
  { intros j' l; induction l; simpl; auto. now rewrite Nat.eqb_refl, IHl. }
  assert (F2 : forall j s (l : column), s <> j -> filter (fun e : nat * T => fst e =? j) (map (fun e => (s, snd e)) l) = []).
  { intros j' s l Hne; induction l; simpl; auto. destruct (Nat.eqb_spec s j'); [lia|auto]. }
  induction cs as [|c cs IH]; intros s Hs; [destruct (j - s); reflexivity|].
  cbn [length seq combine flat_map]. rewrite filter_app.
  destruct (Nat.eq_dec s j).
  - subst. rewrite F1, Nat.sub_diag. simpl.
    assert (E : forall s', j < s' -> filter (fun e : nat * T => fst e =? j)
     (flat_map (fun '(j, c) => map (fun e => (j, snd e)) (filter (fun e => fst e =? i) c)) (combine (seq s' (length cs)) cs)) = []).
    { clear - F2. induction cs as [|c cs IH]; intros s Hs; [reflexivity|].
      cbn [length seq combine flat_map]. rewrite filter_app, F2 by lia. simpl. apply IH. lia. }
    rewrite E by lia. apply app_nil_r.
  - rewrite F2 by lia. simpl. rewrite IH by lia. replace (j - s) with (S (j - S s)) by lia. reflexivity.
Qed.

Lemma transpose_rows m (cs : list column) c e : In c (transpose_cols m cs) -> In e c -> fst e < length cs.
Proof.
  unfold transpose_cols. intros Hc He. apply in_map_iff in Hc. destruct Hc as (i & <- & _).
  apply in_flat_map in He. destruct He as ((j & c') & Hj & He).
  apply in_map_iff in He. destruct He as (e' & <- & _). simpl.
  apply in_combine_l in Hj. apply in_seq in Hj. lia.
Qed.

Definition vals (i j : nat) (es : list ent) : list T := map val_of (filter (at_pos i j) es).

Lemma vals_tag j (c : column) : map val_of (tag j c) = map snd c.
Proof. unfold tag. rewrite map_map. reflexivity. Qed.

Lemma nth_out_rows m (cs : list column) i j :
  (forall c e, In c cs -> In e c -> fst e < m) -> m <= i -> filter (fun e => fst e =? i) (nth j cs []) = [].
Proof.
  intros H Hi. destruct (filter (fun e => fst e =? i) (nth j cs [])) as [|e l] eqn:E; auto.
  assert (In e (filter (fun e => fst e =? i) (nth j cs []))) as Q by (rewrite E; left; auto).
  apply filter_In in Q. destruct Q as (Q1 & Q2). apply Nat.eqb_eq in Q2.
  assert (In (nth j cs []) cs).
  { destruct (Nat.lt_ge_cases j (length cs)); [now apply nth_In|].
    rewrite nth_overflow in Q1 by auto. destruct Q1. }
  specialize (H _ _ H0 Q1). lia.
Qed.

Lemma transpose_vals m (cs : list column) i j :
  (forall c e, In c cs -> In e c -> fst e < m) ->
  vals j i (coo (transpose_cols m cs)) = vals i j (coo cs).
Proof.
  intros H. unfold vals. rewrite !filter_coo, !vals_tag.
  destruct (Nat.lt_ge_cases i m).
  - rewrite transpose_cols_nth by auto. rewrite transpose_inner by lia. rewrite Nat.sub_0_r, map_map. reflexivity.
  - rewrite (nth_overflow (transpose_cols m cs)) by (unfold transpose_cols; rewrite map_length, seq_length; auto).
    rewrite (nth_out_rows m) by auto. reflexivity.
Qed.

Lemma SS_app {X} (Q : X -> X -> Prop) (a b : list X) :
  StronglySorted Q a -> StronglySorted Q b -> (forall x y, In x a -> In y b -> Q x y) ->
  StronglySorted Q (a ++ b).
Proof.
  induction 1; intros Hb H'; simpl; auto. constructor.
  - apply IHStronglySorted; auto. intros. apply H'; simpl; auto.
  - rewrite Forall_app. split; auto. rewrite Forall_forall. intros. apply H'; simpl; auto.
Qed.

Lemma coo_from_in s (cs : list column) e : In e (coo_from s cs) -> s <= col_of e /\ In (row_of e, val_of e) (nth (col_of e - s) cs []).
Proof.
  revert s; induction cs as [|c cs IH]; intros s H; [destruct H|].
  rewrite coo_cons in H. apply in_app_or in H. destruct H as [H|H].
  - unfold tag in H. apply in_map_iff in H. destruct H as ((r & v) & <- & Hin). simpl.
    unfold col_of, row_of, val_of; simpl. rewrite Nat.sub_diag. auto.
  - destruct (IH _ H) as (A & B). split; [lia|].
    replace (col_of e - s) with (S (col_of e - S s)) by lia. exact B.
Qed.

Lemma sorted_coo (cs : list column) : 
  (forall c, In c cs -> StronglySorted (fun a b => fst a <= fst b) c) ->
  forall s, StronglySorted (@col_row_le T) (coo_from s cs).
Proof.
  induction cs as [|c cs IH]; intros H s; [constructor|]. rewrite coo_cons. apply SS_app.
  - specialize (H c (or_introl eq_refl)). unfold tag. induction H; simpl; constructor; auto.
    rewrite Forall_forall in *. intros x Hx. apply in_map_iff in Hx. destruct Hx as (e & <- & He).
    right. unfold col_of, row_of; simpl. split; auto.
  - apply IH. intros. apply H. right. auto.
  - intros x y Hx Hy. unfold tag in Hx. apply in_map_iff in Hx. destruct Hx as (e & <- & He).
    apply coo_from_in in Hy. left. unfold col_of at 1; simpl. lia.
Qed.

Lemma transpose_col_sorted m (cs : list column) c : In c (transpose_cols m cs) ->
  StronglySorted (fun a b => fst a <= fst b) c.
Proof.
  unfold transpose_cols. intros H. apply in_map_iff in H. destruct H as (i & <- & _).
  generalize 0 as s. induction cs as [|c cs IH]; intros s; [constructor|].
  cbn [length seq combine flat_map]. apply SS_app; auto.
  - induction (filter (fun e => fst e =? i) c) as [|e l IHl]; simpl; constructor; auto.
    rewrite Forall_forall. intros x Hx. apply in_map_iff in Hx. destruct Hx as (e' & <- & _). simpl. lia.
  - intros x y Hx Hy. apply in_map_iff in Hx. destruct Hx as (e' & <- & _). simpl.
    apply in_flat_map in Hy. destruct Hy as ((j & c') & Hj & Hy). apply in_map_iff in Hy.
    destruct Hy as (e2 & <- & _). simpl. apply in_combine_l in Hj. apply in_seq in Hj. lia.
Qed.

Lemma transpose_ok jk (a : csc T) : valid a ->
  exists b, transpose jk a = Ok b /\ valid b /\ m_ b = n_ a /\ n_ b = m_ a /\
    (forall i j, map val_of (filter (at_pos j i) (entries b)) = map val_of (filter (at_pos i j) (entries a))) /\
    StronglySorted (@col_row_le T) (entries b).
Proof.
  intros V. unfold transpose. rewrite (proj2 (validb_iff a) V). unfold ctor_ptr.
  assert (R : forall c e, In c (transpose_cols (m_ a) (cols_of a)) -> In e c -> fst e < n_ a).
  { intros c e Hc He. rewrite <- (cols_of_length a). eapply transpose_rows; eauto. }
  eexists. split; [reflexivity|]. split; [now apply of_cols_valid|]. split; [reflexivity|].
  split. { simpl. unfold transpose_cols. now rewrite map_length, seq_length. }
  rewrite (entries_of_cols jk (n_ a)) by exact R. split.
  - intros i j. rewrite (entries_coo a V). apply (transpose_vals (m_ a) (cols_of a) i j).
    apply cols_of_rows. auto.
  - apply sorted_coo. intros c Hc. eapply transpose_col_sorted; eauto.
Qed.

Lemma map_val_filter_eq (l1 l2 : list ent) :
  (forall i j, map val_of (filter (at_pos i j) l1) = map val_of (filter (at_pos i j) l2)) ->
  forall i j, filter (at_pos i j) l1 = filter (at_pos i j) l2.
Proof.
  intros H i j. specialize (H i j).
  assert (G : forall l : list ent, filter (at_pos i j) l = map (fun v => (i, j, v)) (map val_of (filter (at_pos i j) l))).
  { induction l as [|((r & c) & v) l IH]; simpl; auto. destruct (at_pos i j (r, c, v)) eqn:E; auto.
    simpl. rewrite <- IH. f_equal. unfold at_pos, row_of, col_of in E. simpl in E.
    apply andb_true_iff in E. rewrite !Nat.eqb_eq in E. unfold val_of. simpl. destruct E; subst; auto. }
  rewrite (G l1), (G l2). congruence.
Qed.

Lemma filter_swap (l : list ent) i j :
  map val_of (filter (at_pos j i) (map swap_pos l)) = map val_of (filter (at_pos i j) l).
Proof.
  induction l as [|e l IH]; simpl; auto.
  replace (at_pos j i (swap_pos e)) with (at_pos i j e).
  2: { unfold at_pos, swap_pos, row_of, col_of. simpl. apply andb_comm. }
  destruct (at_pos i j e); simpl; auto. now rewrite IH.
Qed.

Lemma transpose_perm jk (a b : csc T) : valid a -> transpose jk a = Ok b ->
  Permutation (entries b) (map swap_pos (entries a)).
Proof.
  intros V E. destruct (transpose_ok jk a V) as (b' & E' & _ & _ & _ & H & _).
  assert (b' = b) by congruence. subst b'. apply perm_of_positions. apply map_val_filter_eq.
  intros i j. rewrite H. now rewrite filter_swap.
Qed.

(* sorted strictly + same positions => equal lists *)
Lemma strict_le_unique (l1 l2 : list ent) :
  StronglySorted (@col_row_lt T) l1 -> StronglySorted (@col_row_le T) l2 -> 
  (forall i j, filter (at_pos i j) l1 = filter (at_pos i j) l2) -> l1 = l2.
Proof.
  intros S1. revert l2. induction S1 as [|x l1 S1 IH F]; intros l2 S2 H.
  - destruct l2 as [|y l2]; auto. specialize (H (row_of y) (col_of y)). simpl in H.
    unfold at_pos in H at 1. rewrite !Nat.eqb_refl in H. discriminate.
  - pose proof (perm_of_positions _ _ H) as P.
    destruct l2 as [|y l2]; [apply Permutation_sym, Permutation_nil in P; discriminate|].
    inversion S2 as [|? ? S2' F2]; subst.
    assert (x = y).
    { rewrite Forall_forall in F, F2.
      assert (In y (x :: l1)) as Hy by (eapply Permutation_in; [apply Permutation_sym; eauto|left; auto]).
      destruct Hy as [Hy|Hy]; auto. exfalso. specialize (F y Hy).
      assert (In x (y :: l2)) as Hx by (eapply Permutation_in; [eauto|left; auto]).
      destruct Hx as [Hx|Hx].
      - subst. unfold col_row_lt in F. lia.
      - specialize (F2 x Hx). unfold col_row_lt, col_row_le in *. lia. }
    subst y. f_equal. apply IH; auto. intros i j. specialize (H i j). simpl in H.
    destruct (at_pos i j x); [congruence|auto].
Qed.

Lemma transpose_twice jk jk' (a b c : csc T) : valid a -> transpose jk a = Ok b -> transpose jk' b = Ok c ->
  valid c /\ m_ c = m_ a /\ n_ c = n_ a /\
  (forall i j, map val_of (filter (at_pos i j) (entries c)) = map val_of (filter (at_pos i j) (entries a))) /\
  StronglySorted (@col_row_le T) (entries c) /\
  (StronglySorted (@col_row_lt T) (entries a) -> entries c = entries a).
Proof.
  intros V E1 E2. destruct (transpose_ok jk a V) as (b' & Eb & Vb & Mb & Nb & Hb & Sb).
  assert (b' = b) by congruence. subst b'.
  destruct (transpose_ok jk' b Vb) as (c' & Ec & Vc & Mc & Nc & Hc & Sc).
  assert (c' = c) by congruence. subst c'.
  assert (H : forall i j, map val_of (filter (at_pos i j) (entries c)) = map val_of (filter (at_pos i j) (entries a))).
  { intros i j. rewrite Hc. apply Hb. }
  repeat split; auto; try congruence; try apply Vc.
  intros SA. symmetry. apply strict_le_unique; auto. intros. symmetry. now apply map_val_filter_eq.
Qed.

(* ---- triplet constructor ---- *)
Lemma entry_loop_ok n : forall r c (v : list T) m0 n0 acc,
  n <= length r -> n <= length c -> n <= length v ->
  (forall k x, k < n -> nth_error r k = Some x -> (0 <= x)%Z) ->
  (forall k x, k < n -> nth_error c k = Some x -> (0 <= x)%Z) ->
  entry_loop n r c v m0 n0 acc =
  Ok (fold_left (fun a x => Z.max a (x + 1)) (firstn n r) m0,
      fold_left (fun a x => Z.max a (x + 1)) (firstn n c) n0,
      acc ++ combine (combine (firstn n r) (firstn n c)) (firstn n v)).
Proof.
  induction n; intros r c v m0 n0 acc H1 H2 H3 H4 H5; simpl.
  - now rewrite app_nil_r.
  - destruct r as [|i r]; [simpl in H1; lia|]. destruct c as [|j c]; [simpl in H2; lia|].
    destruct v as [|x v]; [simpl in H3; lia|].
    pose proof (H4 0 i ltac:(lia) eq_refl). pose proof (H5 0 j ltac:(lia) eq_refl).
    destruct (Z.ltb_spec i 0); [lia|]. destruct (Z.ltb_spec j 0); [lia|]. simpl.
    rewrite IHn; simpl in *; try lia.
    + rewrite <- app_assoc. reflexivity.
    + intros k y Hk Hy. apply (H4 (S k)); [lia|auto].
    + intros k y Hk Hy. apply (H5 (S k)); [lia|auto].
Qed.

Lemma entry_loop_neg n : forall r c (v : list T) m0 n0 acc k i j,
  n <= length r -> n <= length c -> n <= length v -> k < n ->
  nth_error r k = Some i -> nth_error c k = Some j -> (i < 0 \/ j < 0)%Z ->
  entry_loop n r c v m0 n0 acc = Throw.
Proof.
  induction n; intros r c v m0 n0 acc k i j H1 H2 H3 Hk Hi Hj Hneg; [lia|]. simpl.
  destruct r as [|i0 r]; [simpl in H1; lia|]. destruct c as [|j0 c]; [simpl in H2; lia|].
  destruct v as [|x v]; [simpl in H3; lia|].
  destruct ((i0 <? 0)%Z || (j0 <? 0)%Z) eqn:E; auto. apply orb_false_iff in E.
  destruct k; simpl in Hi, Hj.
  - inversion Hi; inversion Hj; subst. lia.
  - simpl in *. apply (IHn _ _ _ _ _ _ k i j); auto; lia.
Qed.

Lemma fold_max_in (l : list Z) : forall m0, (forall x, In x l -> x < m0)%Z ->
  fold_left (fun a x => Z.max a (x + 1)) l m0 = m0.
Proof.
  induction l; intros m0 H; simpl; auto. rewrite Z.max_l; [|specialize (H a (or_introl eq_refl)); lia].
  apply IHl. intros. apply H. right. auto.
Qed.

Lemma fold_max_spec (l : list Z) : forall m0,
  let M := fold_left (fun a x => Z.max a (x + 1)) l m0 in
  (m0 <= M)%Z /\ (forall x, In x l -> x < M)%Z /\ (M = m0 \/ exists x, In x l /\ M = x + 1)%Z.
Proof.
  induction l as [|y l IH]; intros m0; simpl.
  - split; [lia|]. split; [tauto|auto].
  - destruct (IH (Z.max m0 (y + 1))) as (A & B & C). cbn zeta in *. split; [lia|]. split.
    + intros x [<-|Hx]; [lia|auto].
    + destruct C as [C|(x & Hx & C)]; [|right; exists x; auto].
      revert C. generalize (fold_left (fun a x => Z.max a (x + 1))%Z l (Z.max m0 (y + 1))) as M. intros M C.
      destruct (Z.max_spec m0 (y + 1)) as [(Q1 & Q2)|(Q1 & Q2)]; rewrite Q2 in C; [|auto].
      right. exists y. auto.
Qed.

Lemma compress_coo (es : list (Z * Z * T)) n :
  (forall i j x, In (i, j, x) es -> (0 <= i /\ 0 <= j < Z.of_nat n)%Z) ->
  forall i j, filter (at_pos i j) (coo (map (compress_col es) (seq 0 n))) =
    filter (at_pos i j) (map (fun '(i, j, x) => (Z.to_nat i, Z.to_nat j, x)) es).
Proof.
  intros H i j. rewrite filter_coo.
  destruct (Nat.lt_ge_cases j n).
  - erewrite (nth_nth_error (map (compress_col es) (seq 0 n))).
    2: { rewrite nth_error_map, nth_error_nth' with (d := 0) by (rewrite seq_length; auto).
         rewrite seq_nth by auto. reflexivity. }
    unfold compress_col. simpl. clear H0. induction es as [|((a & b) & x) es IH]; simpl; auto.
    assert (Hab : (0 <= a /\ 0 <= b < Z.of_nat n)%Z) by (apply (H a b x); left; auto).
    rewrite <- IH by (intros; eapply H; right; eauto).
    unfold at_pos at 1, row_of, col_of. simpl.
    destruct (Z.eqb_spec b (Z.of_nat j)).
    + subst b. rewrite Nat2Z.id, Nat.eqb_refl, andb_true_r. simpl.
      destruct (Z.to_nat a =? i); reflexivity.
    + destruct (Nat.eqb_spec (Z.to_nat b) j); [lia|]. rewrite andb_false_r. reflexivity.
  - rewrite nth_overflow by (rewrite map_length, seq_length; auto). simpl. symmetry.
    induction es as [|((a & b) & x) es IH]; simpl; auto.
    assert (Hab : (0 <= a /\ 0 <= b < Z.of_nat n)%Z) by (apply (H a b x); left; auto).
    unfold at_pos at 1, row_of, col_of. simpl. destruct (Nat.eqb_spec (Z.to_nat b) j); [lia|].
    rewrite andb_false_r. apply IH. intros; eapply H; right; eauto.
Qed.

Lemma filter_in_column (l1 l2 : list ent) : forall j, 
  (filter (in_column j) l1 = filter (in_column j) l2) ->
  forall i, filter (at_pos i j) l1 = filter (at_pos i j) l2.
Proof.
  intros j H i. assert (G : forall l : list ent, filter (at_pos i j) l = filter (fun e => row_of e =? i) (filter (in_column j) l)).
  { induction l as [|e l IH]; simpl; auto. unfold at_pos at 1, in_column at 1.
    destruct (col_of e =? j); simpl.
    - rewrite andb_true_r, IH. reflexivity.
    - rewrite andb_false_r. auto. }
  rewrite (G l1), (G l2). congruence.
Qed.

Lemma in_column_coo (cs : list column) j : forall s, s <= j ->
  filter (in_column j) (coo_from s cs) = tag j (nth (j - s) cs []).
Proof.
  assert (F1 : forall j (c : column), filter (in_column j) (tag j c) = tag j c).
  { intros j' c; induction c; simpl; auto. unfold in_column at 1, col_of; simpl. now rewrite Nat.eqb_refl, IHc. }
  assert (F2 : forall s j (c : column), s <> j -> filter (in_column j) (tag s c) = []).
  { intros s' j' c Hne; induction c; simpl; auto. unfold in_column at 1, col_of; simpl.
    destruct (Nat.eqb_spec s' j'); [lia|auto]. }
  induction cs as [|c cs IH]; intros s Hs; [destruct (j - s); reflexivity|].
  rewrite coo_cons, filter_app. destruct (Nat.eq_dec s j).
  - subst. rewrite F1, Nat.sub_diag. simpl.
    assert (E : forall s', j < s' -> filter (in_column j) (coo_from s' cs) = []).
    { clear - F2. induction cs as [|c cs IH]; intros s Hs; [reflexivity|]. rewrite coo_cons, filter_app, F2 by lia.
      simpl. apply IH. lia. }
    rewrite E by lia. apply app_nil_r.
  - rewrite F2 by lia. simpl. rewrite IH by lia. replace (j - s) with (S (j - S s)) by lia. reflexivity.
Qed.

Lemma triplet_general jk (t : triplet T) :
  length (row_ t) = length (col_ t) -> length (col_ t) = length (elems_ t) ->
  (0 <= nnz_ t <= Z.of_nat (length (row_ t)))%Z -> (0 <= rows_ t)%Z -> (0 <= cols_ t)%Z ->
  (forall k r, k < Z.to_nat (nnz_ t) -> nth_error (row_ t) k = Some r -> (0 <= r)%Z) ->
  (forall k c, k < Z.to_nat (nnz_ t) -> nth_error (col_ t) k = Some c -> (0 <= c)%Z) ->
  exists a, ctor_triplet jk t = Ok a /\ valid a /\
   Z.of_nat (m_ a) = fold_left (fun a x => Z.max a (x + 1)) (firstn (Z.to_nat (nnz_ t)) (row_ t)) (rows_ t) /\
   Z.of_nat (n_ a) = fold_left (fun a x => Z.max a (x + 1)) (firstn (Z.to_nat (nnz_ t)) (col_ t)) (cols_ t) /\
   (forall i j, filter (at_pos i j) (entries a) = filter (at_pos i j) (triplet_entries t)) /\
   (forall j, filter (in_column j) (entries a) = filter (in_column j) (triplet_entries t)) /\
   nzmax a = Nat.max 1 (Z.to_nat (nnz_ t)).
Proof.
  intros L1 L2 Hn Hr Hc Pr Pc. unfold ctor_triplet.
  rewrite entry_loop_ok by (auto; lia). cbn [bind app].
  set (N := Z.to_nat (nnz_ t)) in *.
  set (M1 := fold_left _ (firstn N (row_ t)) (rows_ t)).
  set (M2 := fold_left _ (firstn N (col_ t)) (cols_ t)).
  destruct (fold_max_spec (firstn N (row_ t)) (rows_ t)) as (A1 & A2 & _).
  destruct (fold_max_spec (firstn N (col_ t)) (cols_ t)) as (B1 & B2 & _).
  cbn zeta in *. fold M1 in A1, A2. fold M2 in B1, B2.
  destruct (Z.ltb_spec M1 0); [lia|]. destruct (Z.ltb_spec M2 0); [lia|]. cbn [orb].
  set (es := combine (combine (firstn N (row_ t)) (firstn N (col_ t))) (firstn N (elems_ t))).
  assert (NN : forall l k x, (forall k r, k < N -> nth_error l k = Some r -> (0 <= r)%Z) ->
              nth_error (firstn N l) k = Some x -> (0 <= x)%Z).
  { intros l k x Hl Hx. assert (k < N) by (apply nth_error_Some_lt in Hx; rewrite firstn_length in Hx; lia).
    apply (Hl k); auto. rewrite <- (firstn_skipn N l). rewrite nth_error_app1; auto. eapply nth_error_Some_lt; eauto. }
  assert (HE : forall i j x, In (i, j, x) es -> (0 <= i < M1 /\ 0 <= j < M2)%Z).
  { intros i j x H1. apply in_combine_l in H1. pose proof (in_combine_l _ _ _ _ H1) as I1.
    pose proof (in_combine_r _ _ _ _ H1) as I2. 
    specialize (A2 _ I1). specialize (B2 _ I2).
    apply In_nth_error in I1. apply In_nth_error in I2. destruct I1 as (k1 & I1). destruct I2 as (k2 & I2).
    specialize (NN (row_ t) k1 i Pr I1) as P1. specialize (NN (col_ t) k2 j Pc I2) as P2. lia. }
  assert (R : forall c e, In c (map (compress_col es) (seq 0 (Z.to_nat M2))) -> In e c -> fst e < Z.to_nat M1).
  { intros c e H1 H2. apply in_map_iff in H1. destruct H1 as (j & <- & _). unfold compress_col in H2.
    apply in_map_iff in H2. destruct H2 as (((i & c') & x) & <- & H2). apply filter_In in H2.
    destruct H2 as (H2 & _). specialize (HE _ _ _ H2). simpl. lia. }
  eexists. split; [reflexivity|].
  split; [now apply of_cols_valid|]. simpl m_. simpl n_.
  rewrite entries_of_cols by auto.
  assert (TE : triplet_entries t = map (fun '(i, j, x) => (Z.to_nat i, Z.to_nat j, x)) es) by reflexivity.
  split; [lia|]. split; [rewrite map_length, seq_length; lia|]. split; [|split].
  - rewrite TE. apply compress_coo. intros i j x Hin. specialize (HE _ _ _ Hin). lia.
  - intros j. unfold coo. rewrite in_column_coo by lia. rewrite Nat.sub_0_r, TE.
    destruct (Nat.lt_ge_cases j (Z.to_nat M2)).
    + erewrite (nth_nth_error (map (compress_col es) (seq 0 (Z.to_nat M2)))).
      2: { rewrite nth_error_map, nth_error_nth' with (d := 0) by (rewrite seq_length; auto).
           rewrite seq_nth by auto. reflexivity. }
      simpl. unfold compress_col. clear - HE. induction es as [|((a & b) & x) es IH]; simpl; auto.
      assert (Hab : (0 <= a < M1 /\ 0 <= b < M2)%Z) by (apply (HE a b x); left; auto).
      rewrite <- IH by (intros; eapply HE; right; eauto).
      unfold in_column, col_of. simpl. destruct (Z.eqb_spec b (Z.of_nat j)).
      * subst b. rewrite Nat2Z.id, Nat.eqb_refl. reflexivity.
      * destruct (Nat.eqb_spec (Z.to_nat b) j); [lia|]. reflexivity.
    + rewrite nth_overflow by (rewrite map_length, seq_length; auto). simpl. symmetry.
      clear - HE H1. induction es as [|((a & b) & x) es IH]; simpl; auto.
      assert (Hab : (0 <= a < M1 /\ 0 <= b < M2)%Z) by (apply (HE a b x); left; auto).
      unfold in_column at 1, col_of. simpl. destruct (Nat.eqb_spec (Z.to_nat b) j); [lia|].
      apply IH. intros; eapply HE; right; eauto.
  - unfold of_cols. cbn [nzmax]. assert (LL : length (concat (map (compress_col es) (seq 0 (Z.to_nat M2)))) = N).
    { assert (P : Permutation (coo (map (compress_col es) (seq 0 (Z.to_nat M2))))
                  (map (fun '(i, j, x) => (Z.to_nat i, Z.to_nat j, x)) es)).
      { apply perm_of_positions. apply compress_coo. intros i j x Hin. specialize (HE _ _ _ Hin). lia. }
      apply Permutation_length in P. rewrite map_length in P. unfold es in P at 2.
      rewrite !combine_length, !firstn_length in P.
      assert (forall (cs : list column) s, length (coo_from s cs) = length (concat cs)) as LC.
      { induction cs as [|c cs IH]; intros s; [reflexivity|]. rewrite coo_cons, app_length. simpl.
        rewrite app_length, IH. unfold tag. now rewrite map_length. }
      unfold coo in P. rewrite LC in P. lia. }
    destruct (concat (map (compress_col es) (seq 0 (Z.to_nat M2)))) eqn:EC; cbn [length] in *; lia.
Qed.

Lemma triplet_in_range_ok jk (t : triplet T) : triplet_in_range t ->
  exists a, ctor_triplet jk t = Ok a /\ valid a /\
   Z.of_nat (m_ a) = rows_ t /\ Z.of_nat (n_ a) = cols_ t /\
   Permutation (entries a) (triplet_entries t) /\
   (forall j, filter (in_column j) (entries a) = filter (in_column j) (triplet_entries t)) /\
   nzmax a = Nat.max 1 (Z.to_nat (nnz_ t)).
Proof.
  intros ((Hr & Hc & Hn) & L1 & L2 & Ln & Pr & Pc).
  destruct (triplet_general jk t) as (a & E & V & M & N & H1 & H2 & H3); auto.
  { intros k r Hk Hx. apply (Pr k r Hk Hx). }
  { intros k r Hk Hx. apply (Pc k r Hk Hx). }
  exists a. split; [auto|]. split; [auto|].
  assert (G : forall l b, (forall k r, k < Z.to_nat (nnz_ t) -> nth_error l k = Some r -> (0 <= r < b)%Z) ->
     forall x, In x (firstn (Z.to_nat (nnz_ t)) l) -> (x < b)%Z).
  { intros l b Hl x Hx. apply In_nth_error in Hx. destruct Hx as (k & Hk).
    assert (k < Z.to_nat (nnz_ t)) by (apply nth_error_Some_lt in Hk; rewrite firstn_length in Hk; lia).
    apply (Hl k); auto. rewrite <- (firstn_skipn (Z.to_nat (nnz_ t)) l). rewrite nth_error_app1; auto.
    eapply nth_error_Some_lt; eauto. }
  split. { rewrite M. apply fold_max_in. eapply G; eauto. }
  split. { rewrite N. apply fold_max_in. eapply G; eauto. }
  split; [|auto]. now apply perm_of_positions.
Qed.

Lemma triplet_negative jk (t : triplet T) k i j :
  length (row_ t) = length (col_ t) -> length (col_ t) = length (elems_ t) ->
  (0 <= nnz_ t <= Z.of_nat (length (row_ t)))%Z ->
  k < Z.to_nat (nnz_ t) -> nth_error (row_ t) k = Some i -> nth_error (col_ t) k = Some j -> (i < 0 \/ j < 0)%Z ->
  ctor_triplet jk t = Throw.
Proof.
  intros. unfold ctor_triplet. rewrite (entry_loop_neg _ _ _ _ _ _ _ k i j); auto; lia.
Qed.

(* ---- prune ---- *)
Lemma coo_map_filter f (cs : list column) : forall s,
  coo_from s (map (filter (fun e => f (snd e))) cs) = filter (fun e => f (val_of e)) (coo_from s cs).
Proof.
  induction cs as [|c cs IH]; intros s; [reflexivity|]. cbn [map]. rewrite !coo_cons, filter_app, IH. f_equal.
  unfold tag. induction c as [|e c IHc]; simpl; auto. unfold val_of at 1. simpl.
  destruct (f (snd e)); simpl; now rewrite IHc.
Qed.

Lemma coo_length (cs : list column) : forall s, length (coo_from s cs) = length (concat cs).
Proof.
  induction cs as [|c cs IH]; intros s; [reflexivity|]. rewrite coo_cons, app_length. simpl.
  rewrite app_length, IH. unfold tag. now rewrite map_length.
Qed.

Lemma prune_ok jk big (a : csc T) : valid a ->
  exists b e, prune jk big a = Ok (b, e) /\ valid b /\ m_ b = m_ a /\ n_ b = n_ a /\
    entries b = filter (fun e => big (val_of e)) (entries a) /\
    (e = Threw <-> forall x, In x (entries a) -> big (val_of x) = false) /\ e <> Undef.
Proof.
  intros V. unfold prune. rewrite (proj2 (validb_iff a) V).
  set (cs := map (filter (fun e => big (snd e))) (cols_of a)).
  assert (R : forall c e, In c cs -> In e c -> fst e < m_ a).
  { intros c e Hc He. apply in_map_iff in Hc. destruct Hc as (c' & <- & Hc'). apply filter_In in He.
    eapply cols_of_rows; eauto. tauto. }
  do 2 eexists. split; [reflexivity|]. split; [now apply of_cols_valid|]. split; [reflexivity|].
  split. { simpl. unfold cs. rewrite map_length. apply cols_of_length. }
  rewrite entries_of_cols by auto. unfold cs, coo. rewrite coo_map_filter.
  rewrite (entries_coo a V). split; [reflexivity|].
  fold cs. assert (LL : length (concat cs) = length (filter (fun e => big (val_of e)) (coo (cols_of a)))).
  { rewrite <- (coo_length cs 0). unfold cs. rewrite coo_map_filter. reflexivity. }
  rewrite LL. split.
  - split.
    + intros H x Hx. destruct (Nat.eqb_spec (length (filter (fun e => big (val_of e)) (coo (cols_of a)))) 0); [|discriminate].
      destruct (big (val_of x)) eqn:E; auto.
      assert (In x (filter (fun e => big (val_of e)) (coo (cols_of a)))) as Q by (apply filter_In; auto).
      destruct (filter _ _); [destruct Q|simpl in e; lia].
    + intros H. destruct (filter (fun e => big (val_of e)) (coo (cols_of a))) as [|y l] eqn:E; auto.
      assert (In y (filter (fun e => big (val_of e)) (coo (cols_of a)))) as Q by (rewrite E; left; auto).
      apply filter_In in Q. rewrite H in Q by tauto. destruct Q; discriminate.
  - destruct (_ =? 0); discriminate.
Qed.

End P.
