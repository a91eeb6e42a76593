From Coq Require Import ZArith List Lia Bool Permutation Sorted.
From Verif Require Import Base Loops TripletModel BlitzProofs CscModel CscSpec CscProofs.
Import ListNotations.
Local Open Scope nat_scope.

Lemma NoDup_app_mk {X} (a b : list X) : NoDup a -> NoDup b -> (forall x, In x a -> In x b -> False) ->
  NoDup (a ++ b).
Proof.
  induction 1; intros Hb H'; simpl; auto. constructor.
  - rewrite in_app_iff. intros [?|?]; auto. eapply H'; eauto. left; auto.
  - apply IHNoDup; auto. intros. eapply H'; eauto. right; auto.
Qed.

Section A.
Context {T : Type}.
Notation column := (list (nat * T)).
Notation ent := (nat * nat * T)%type.
Lemma NoDup_coo (cs : list column) : (forall c, In c cs -> NoDup (map fst c)) ->
  forall s, NoDup (map (fun e : ent => (row_of e, col_of e)) (coo_from s cs)).
Proof.
  induction cs as [|c cs IH]; intros H s; [constructor|]. rewrite coo_cons, map_app.
  apply NoDup_app_mk.
  - specialize (H c (or_introl eq_refl)). unfold tag. rewrite map_map. unfold row_of, col_of. simpl.
    clear IH. induction c as [|e c IHc]; simpl in *; constructor; inversion H; subst; auto.
    intros Q. apply in_map_iff in Q. destruct Q as (e' & E & Q). inversion E. apply H2.
    rewrite <- H1. now apply in_map.
  - apply IH. intros; apply H; right; auto.
  - intros x Hx Hy. apply in_map_iff in Hx. destruct Hx as (e & <- & Hx).
    apply in_map_iff in Hy. destruct Hy as (e' & E & Hy). apply coo_from_in in Hy.
    unfold tag in Hx. apply in_map_iff in Hx. destruct Hx as (e2 & <- & _).
    unfold col_of in *; simpl in *. injection E; intros. lia.
Qed.

Variable add : T -> T -> T.

Lemma add_to_keys (acc : column) i v : forall x, In x (map fst (add_to add acc i v)) <-> x = i \/ In x (map fst acc).
Proof.
  induction acc as [|(k & w) acc IH]; intros x; simpl.
  - intuition.
  - destruct (Nat.eqb_spec k i); simpl; [subst; intuition|]. rewrite IH. intuition.
Qed.

Lemma add_to_nodup (acc : column) i v : NoDup (map fst acc) -> NoDup (map fst (add_to add acc i v)).
Proof.
  induction acc as [|(k & w) acc IH]; simpl; intros H.
  - constructor; auto.
  - inversion H; subst. destruct (Nat.eqb_spec k i); simpl; [auto|]. constructor; auto.
    rewrite add_to_keys. intros [->|Q]; auto.
Qed.

Lemma add_to_fresh (acc : column) i v : ~ In i (map fst acc) -> add_to add acc i v = acc ++ [(i, v)].
Proof.
  induction acc as [|(k & w) acc IH]; simpl; intros H; auto.
  destruct (Nat.eqb_spec k i); [intuition|]. now rewrite IH by tauto.
Qed.

Lemma dedup_nodup_gen (c acc : column) : NoDup (map fst (acc ++ c)) ->
  fold_left (fun acc e => add_to add acc (fst e) (snd e)) c acc = acc ++ c.
Proof.
  revert acc; induction c as [|(k & w) c IH]; intros acc H; simpl; [now rewrite app_nil_r|].
  rewrite add_to_fresh.
  - rewrite IH; [now rewrite <- app_assoc|]. now rewrite <- app_assoc.
  - rewrite map_app in H. simpl in H. apply NoDup_remove_2 in H. rewrite in_app_iff in H. tauto.
Qed.

Lemma dedup_id (c : column) : NoDup (map fst c) -> dedup_col add c = c.
Proof. intros. unfold dedup_col. now rewrite dedup_nodup_gen. Qed.

Lemma fold_keep (P : column -> Prop) {X} (f : column -> X -> column) l :
  (forall acc e, P acc -> P (f acc e)) -> forall acc, P acc -> P (fold_left f l acc).
Proof. intros H; induction l; simpl; auto. Qed.

Lemma dedup_nodup (c : column) : NoDup (map fst (dedup_col add c)).
Proof.
  unfold dedup_col. apply fold_keep with (P := fun c => NoDup (map fst c)).
  - intros. now apply add_to_nodup.
  - constructor.
Qed.

Lemma dedup_keys (c acc : column) x :
  In x (map fst (fold_left (fun acc e => add_to add acc (fst e) (snd e)) c acc)) <-> In x (map fst acc) \/ In x (map fst c).
Proof.
  revert acc; induction c as [|(k & w) c IH]; intros acc; simpl; [intuition|].
  rewrite IH, add_to_keys. simpl. intuition.
Qed.


Variable mul : T -> T -> T.

Lemma scatter_nodup (ck : column) b acc : NoDup (map fst acc) -> NoDup (map fst (scatter add mul ck b acc)).
Proof.
  intros H. unfold scatter. apply fold_keep with (P := fun c => NoDup (map fst c)); auto.
  intros. now apply add_to_nodup.
Qed.

Lemma mul_col_nodup (A : list column) c : NoDup (map fst (mul_col add mul A c)).
Proof.
  unfold mul_col. apply fold_keep with (P := fun c => NoDup (map fst c)); [|constructor].
  intros. now apply scatter_nodup.
Qed.

Lemma scatter_keys (ck : column) b acc x : 
  In x (map fst (scatter add mul ck b acc)) <-> In x (map fst acc) \/ In x (map fst ck).
Proof.
  unfold scatter. revert acc; induction ck as [|(k & w) c IH]; intros acc; simpl; [intuition|].
  rewrite IH, add_to_keys. simpl. intuition.
Qed.

Lemma mul_col_keys (A : list column) c : forall acc x,
  In x (map fst (fold_left (fun acc e => scatter add mul (nth (fst e) A []) (snd e) acc) c acc)) <->
  In x (map fst acc) \/ exists e, In e c /\ In x (map fst (nth (fst e) A [])).
Proof.
  induction c as [|e c IH]; intros acc x; simpl.
  - split; auto. intros [?|(e & [] & _)]; auto.
  - rewrite IH, scatter_keys. split.
    + intros [[?|?]|(e' & H1 & H2)]; auto; right; [exists e|exists e']; auto.
    + intros [?|(e' & [<-|H1] & H2)]; auto. right. exists e'. auto.
Qed.



End A.

Section B.
Context {T : Type}.
Notation column := (list (nat * T)).
Notation ent := (nat * nat * T)%type.
Variable add : T -> T -> T.
Variable zero : T.
Definition cval (c : column) (i : nat) : T := sum zero add (map snd (filter (fun e => fst e =? i) c)).

Lemma value_coo (cs : list column) i j : value zero add (coo cs) i j = cval (nth j cs []) i.
Proof. unfold value, cval. now rewrite filter_coo, vals_tag. Qed.

Hypothesis CM : comm_monoid zero add.

Lemma add0r a : add a zero = a.
Proof using CM. rewrite (cm_comm _ _ CM). apply (cm_zero _ _ CM). Qed.

Lemma sum_perm l l' : Permutation l l' -> sum zero add l = sum zero add l'.
Proof using CM.
  unfold sum. induction 1; simpl; auto; [congruence| |congruence].
  rewrite !(cm_assoc _ _ CM). f_equal. apply (cm_comm _ _ CM).
Qed.

Lemma sum_app l l' : sum zero add (l ++ l') = add (sum zero add l) (sum zero add l').
Proof using CM.
  unfold sum. induction l; simpl; [now rewrite (cm_zero _ _ CM)|]. now rewrite IHl, (cm_assoc _ _ CM).
Qed.

Lemma Permutation_filter' {X} (f : X -> bool) l l' : Permutation l l' -> Permutation (filter f l) (filter f l').
Proof using CM.
  induction 1; simpl; auto; [destruct (f x); auto| |eauto using Permutation_trans].
  destruct (f x), (f y); auto. constructor.
Qed.

Lemma value_perm (l l' : list ent) i j : Permutation l l' -> value zero add l i j = value zero add l' i j.
Proof using CM. intros. unfold value. apply sum_perm. apply Permutation_map. now apply Permutation_filter'. Qed.

Lemma cval_cons k w (c : column) i : cval ((k, w) :: c) i = if k =? i then add w (cval c i) else cval c i.
Proof using CM. unfold cval. simpl. destruct (k =? i); reflexivity. Qed.

Lemma cval_add_to (acc : column) k v i :
  cval (add_to add acc k v) i = if k =? i then add (cval acc i) v else cval acc i.
Proof using CM.
  induction acc as [|(k' & w) acc IH]; simpl.
  - rewrite cval_cons. unfold cval. simpl. destruct (k =? i); auto. apply (cm_comm _ _ CM).
  - destruct (Nat.eqb_spec k' k).
    + subst. rewrite !cval_cons. destruct (k =? i); auto.
      rewrite <- !(cm_assoc _ _ CM). f_equal. apply (cm_comm _ _ CM).
    + rewrite !cval_cons, IH. destruct (Nat.eqb_spec k' i), (Nat.eqb_spec k i); subst; try lia; auto.
Qed.

Lemma cval_dedup_gen (c acc : column) i :
  cval (fold_left (fun acc e => add_to add acc (fst e) (snd e)) c acc) i = add (cval acc i) (cval c i).
Proof using CM.
  revert acc; induction c as [|(k & w) c IH]; intros acc; simpl.
  - unfold cval at 3. simpl. now rewrite add0r.
  - rewrite IH, cval_add_to, cval_cons. destruct (k =? i); auto. now rewrite (cm_assoc _ _ CM).
Qed.

Lemma cval_dedup (c : column) i : cval (dedup_col add c) i = cval c i.
Proof using CM. unfold dedup_col. rewrite cval_dedup_gen. unfold cval at 1. simpl. apply (cm_zero _ _ CM). Qed.

Lemma removeDuplicates_ok jk (a : csc T) : valid a ->
  exists b, removeDuplicates add jk a = Ok b /\ valid b /\ m_ b = m_ a /\ n_ b = n_ a /\
   (forall i j, value zero add (entries b) i j = value zero add (entries a) i j) /\
   NoDup (map (fun e => (row_of e, col_of e)) (entries b)) /\
   (forall i j, In (i, j) (map (fun e => (row_of e, col_of e)) (entries b)) <->
                In (i, j) (map (fun e => (row_of e, col_of e)) (entries a))).
Proof using CM.
  intros V. unfold removeDuplicates. rewrite (proj2 (validb_iff a) V).
  assert (R : forall c e, In c (map (dedup_col add) (cols_of a)) -> In e c -> fst e < m_ a).
  { intros c e Hc He. apply in_map_iff in Hc. destruct Hc as (c' & <- & Hc').
    apply (in_map fst) in He. apply dedup_keys in He. destruct He as [[]|He].
    apply in_map_iff in He. destruct He as (e' & <- & He'). eapply cols_of_rows; eauto. }
  eexists. split; [reflexivity|]. split; [now apply of_cols_valid|]. split; [reflexivity|].
  split. { simpl. rewrite map_length. apply cols_of_length. }
  rewrite entries_of_cols by auto. rewrite (entries_coo a V).
  assert (N : forall j, nth j (map (dedup_col add) (cols_of a)) [] = dedup_col add (nth j (cols_of a) [])).
  { intros j. change [] with (dedup_col add []) at 1. apply map_nth. }
  split; [|split].
  - intros i j. rewrite !value_coo, N. apply cval_dedup.
  - apply NoDup_coo. intros c Hc. apply in_map_iff in Hc. destruct Hc as (c' & <- & _). apply dedup_nodup.
  - intros i j.
    assert (G : forall cs : list column, In (i, j) (map (fun e => (row_of e, col_of e)) (coo cs)) <-> In i (map fst (nth j cs []))).
    { intros cs. split.
      - intros H. apply in_map_iff in H. destruct H as (e & E & H). apply coo_from_in in H.
        injection E; intros; subst. rewrite Nat.sub_0_r in H. destruct H as (_ & H). apply (in_map fst) in H. exact H.
      - intros H. apply in_map_iff in H. destruct H as ((r & v) & E & H). simpl in E. subst r.
        apply in_map_iff. exists (i, j, v). split; auto.
        assert (In (i, j, v) (filter (at_pos i j) (coo cs))) as Q; [|apply filter_In in Q; tauto].
        rewrite filter_coo. unfold tag. apply in_map_iff. exists (i, v). split; auto. apply filter_In. simpl.
        now rewrite Nat.eqb_refl. }
    rewrite !G, N. unfold dedup_col. rewrite dedup_keys. simpl. intuition.
Qed.

Lemma removeDuplicates_idem jk jk' (a b c : csc T) : valid a -> removeDuplicates add jk a = Ok b ->
  removeDuplicates add jk' b = Ok c -> entries c = entries b.
Proof using CM.
  intros V E1 E2. destruct (removeDuplicates_ok jk a V) as (b' & Eb & Vb & _).
  assert (b' = b) by congruence. subst b'.
  destruct (removeDuplicates_ok jk' b Vb) as (c' & Ec & Vc & _).
  assert (c' = c) by congruence. subst c'.
  rewrite (entries_coo c Vc), (entries_coo b Vb). f_equal.
  unfold removeDuplicates in E1, E2. rewrite (proj2 (validb_iff a) V) in E1. rewrite (proj2 (validb_iff b) Vb) in E2.
  injection E1 as <-. injection E2 as <-. rewrite !cols_of_of_cols. rewrite map_map.
  apply map_ext. intros x. apply dedup_id. apply dedup_nodup.
Qed.

Variable mul : T -> T -> T.
Hypothesis SR : comm_semiring zero add mul.

Lemma mul0l a : mul zero a = zero.
Proof. rewrite (sr_mcomm _ _ _ SR). apply (sr_mzero _ _ _ SR). Qed.

Lemma cval_scatter (ck : column) b acc i :
  cval (scatter add mul ck b acc) i = add (cval acc i) (mul b (cval ck i)).
Proof.
  unfold scatter. revert acc; induction ck as [|(k & w) c IH]; intros acc; simpl.
  - unfold cval at 3. simpl. now rewrite (sr_mzero _ _ _ SR), add0r.
  - rewrite IH, cval_add_to, cval_cons. destruct (k =? i); auto.
    rewrite (sr_dist _ _ _ SR). now rewrite (cm_assoc _ _ CM).
Qed.

Lemma cval_mul_gen (A : list column) (c acc : column) i :
  cval (fold_left (fun acc e => scatter add mul (nth (fst e) A []) (snd e) acc) c acc) i =
  add (cval acc i) (sum zero add (map (fun e => mul (snd e) (cval (nth (fst e) A []) i)) c)).
Proof.
  revert acc; induction c as [|e c IH]; intros acc; simpl.
  - now rewrite add0r.
  - rewrite IH, cval_scatter. now rewrite (cm_assoc _ _ CM).
Qed.

Lemma sum_add {X} (f g : X -> T) l :
  sum zero add (map (fun k => add (f k) (g k)) l) = add (sum zero add (map f l)) (sum zero add (map g l)).
Proof.
  unfold sum. induction l; simpl; [now rewrite (cm_zero _ _ CM)|]. rewrite IHl.
  rewrite <- !(cm_assoc _ _ CM). f_equal. rewrite !(cm_assoc _ _ CM). f_equal. apply (cm_comm _ _ CM).
Qed.

Lemma sum_zero {X} (l : list X) : sum zero add (map (fun _ => zero) l) = zero.
Proof. unfold sum. induction l; simpl; auto. now rewrite IHl, (cm_zero _ _ CM). Qed.

Lemma sum_single n k (x : T) : forall s, s <= k < s + n ->
  sum zero add (map (fun k' => if k =? k' then x else zero) (seq s n)) = x.
Proof.
  induction n; intros s H; [lia|]. simpl. unfold sum in *. simpl.
  destruct (Nat.eqb_spec k s).
  - subst. assert (E : fold_right add zero (map (fun k' => if s =? k' then x else zero) (seq (S s) n)) = zero).
    { transitivity (sum zero add (map (fun _ : nat => zero) (seq (S s) n))); [|apply sum_zero].
      unfold sum. f_equal. apply map_ext_in. intros k Hk. apply in_seq in Hk.
      destruct (Nat.eqb_spec s k); [lia|auto]. }
    rewrite E. apply add0r.
  - rewrite IHn by lia. apply (cm_zero _ _ CM).
Qed.

Lemma sum_regroup n (f : nat -> T) (c : column) : (forall e, In e c -> fst e < n) ->
  sum zero add (map (fun e => mul (snd e) (f (fst e))) c) =
  sum zero add (map (fun k => mul (f k) (cval c k)) (seq 0 n)).
Proof.
  induction c as [|(k & w) c IH]; intros H.
  - simpl. unfold cval. simpl. rewrite (map_ext _ (fun _ => zero)); [now rewrite sum_zero|].
    intros. apply (sr_mzero _ _ _ SR).
  - simpl. rewrite IH by (intros; apply H; right; auto).
    rewrite (map_ext (fun k0 => mul (f k0) (cval ((k, w) :: c) k0))
       (fun k0 => add (if k =? k0 then mul w (f k) else zero) (mul (f k0) (cval c k0)))).
    + rewrite sum_add. f_equal. rewrite sum_single; auto. specialize (H _ (or_introl eq_refl)). simpl in H. lia.
    + intros k0. rewrite cval_cons. destruct (Nat.eqb_spec k k0).
      * subst. rewrite (sr_dist _ _ _ SR). f_equal. apply (sr_mcomm _ _ _ SR).
      * now rewrite (cm_zero _ _ CM).
Qed.

Lemma multiply_ok jk (a b : csc T) : valid a -> valid b -> n_ a = m_ b ->
  exists c, multiply add mul jk a b = Ok c /\ valid c /\ m_ c = m_ a /\ n_ c = n_ b /\
   (forall i j, value zero add (entries c) i j =
      product zero add mul (n_ a) (value zero add (entries a)) (value zero add (entries b)) i j) /\
   NoDup (map (fun e => (row_of e, col_of e)) (entries c)).
Proof.
  intros Va Vb D. unfold multiply. rewrite (proj2 (validb_iff a) Va), (proj2 (validb_iff b) Vb). simpl.
  rewrite (proj2 (Nat.eqb_eq _ _) D). unfold ctor_ptr.
  assert (R : forall c e, In c (map (mul_col add mul (cols_of a)) (cols_of b)) -> In e c -> fst e < m_ a).
  { intros c e Hc He. apply in_map_iff in Hc. destruct Hc as (c' & <- & Hc').
    apply (in_map fst) in He. unfold mul_col in He. apply mul_col_keys in He. destruct He as [[]|(e' & He' & He)].
    apply in_map_iff in He. destruct He as (e2 & <- & He2).
    destruct (Nat.lt_ge_cases (fst e') (length (cols_of a))).
    - eapply cols_of_rows; eauto. now apply nth_In.
    - rewrite nth_overflow in He2 by auto. destruct He2. }
  eexists. split; [reflexivity|]. split; [now apply of_cols_valid|]. split; [reflexivity|].
  split. { simpl. rewrite map_length. apply cols_of_length. }
  rewrite entries_of_cols by auto. rewrite (entries_coo a Va), (entries_coo b Vb). split.
  - intros i j. rewrite value_coo. unfold product.
    change (@nil (nat * T)) with (mul_col add mul (cols_of a) []). rewrite map_nth. unfold mul_col.
    rewrite cval_mul_gen. unfold cval at 1. simpl. rewrite (cm_zero _ _ CM).
    rewrite (sum_regroup (n_ a) (fun k => cval (nth k (cols_of a) []) i)).
    + f_equal. apply map_ext. intros k. now rewrite !value_coo.
    + intros e He. rewrite D. destruct (Nat.lt_ge_cases j (length (cols_of b))).
      * eapply (cols_of_rows b); eauto. now apply nth_In.
      * rewrite nth_overflow in He by auto. destruct He.
  - apply NoDup_coo. intros c Hc. apply in_map_iff in Hc. destruct Hc as (c' & <- & _). apply mul_col_nodup.
Qed.

Lemma multiply_mismatch jk (a b : csc T) : valid a -> valid b -> n_ a <> m_ b -> multiply add mul jk a b = Throw.
Proof.
  intros Va Vb D. unfold multiply. rewrite (proj2 (validb_iff a) Va), (proj2 (validb_iff b) Vb). simpl.
  destruct (Nat.eqb_spec (n_ a) (m_ b)); [lia|]. reflexivity.
Qed.
End B.
