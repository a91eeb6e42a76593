From Coq Require Import ZArith List Lia Bool Permutation Sorted.
From Verif Require Import Base Loops TripletModel BlitzProofs CscModel CscSpec CscProofs CscAlgProofs CscDenseProofs CscHistModel CscHistSpec.
Import ListNotations.
Local Open Scope nat_scope.

Definition good {T} (a : csc T) : Prop := valid a /\ nnz a = Nat.max 1 (length (entries a)).

Lemma of_cols_good {T} jk m (cs : list (list (nat * T))) :
  (forall c e, In c cs -> In e c -> fst e < m) -> good (of_cols jk m cs).
Proof.
  intros H. split; [now apply of_cols_valid|]. rewrite entries_of_cols by auto. unfold coo. rewrite coo_length.
  unfold nnz, of_cols. cbn [nzmax]. destruct (concat cs); cbn [length]; lia.
Qed.

Lemma entry_loop_inv {T} n : forall r c (v : list T) m0 n0 acc m1 n1 es,
  entry_loop n r c v m0 n0 acc = Ok (m1, n1, es) ->
  (forall i j x, In (i, j, x) acc -> 0 <= i < m0 /\ 0 <= j < n0)%Z ->
  (m0 <= m1 /\ n0 <= n1)%Z /\ (forall i j x, In (i, j, x) es -> 0 <= i < m1 /\ 0 <= j < n1)%Z.
Proof.
  induction n; intros r c v m0 n0 acc m1 n1 es E H; simpl in E.
  - injection E as <- <- <-. split; [lia|auto].
  - destruct r as [|i r]; [discriminate|]. destruct c as [|j c]; [discriminate|]. destruct v as [|x v]; [discriminate|].
    destruct ((i <? 0)%Z || (j <? 0)%Z) eqn:B; [discriminate|]. apply orb_false_iff in B. destruct B as (B1 & B2).
    apply Z.ltb_ge in B1, B2.
    destruct (IHn _ _ _ _ _ _ _ _ _ E) as (A1 & A2).
    + intros i' j' x' Hin. apply in_app_or in Hin. destruct Hin as [Hin|[Hin|[]]].
      * specialize (H _ _ _ Hin). lia.
      * injection Hin as -> -> ->. lia.
    + split; [lia|auto].
Qed.

Lemma triplet_good {T} jk (t : triplet T) a : ctor_triplet jk t = Ok a -> good a.
Proof.
  unfold ctor_triplet. destruct (entry_loop _ _ _ _ _ _ _) as [((m & n) & es)| |] eqn:E; simpl; try discriminate.
  destruct ((m <? 0)%Z || (n <? 0)%Z) eqn:B; [discriminate|]. intros H; injection H as <-.
  destruct (entry_loop_inv _ _ _ _ _ _ _ _ _ _ E) as (_ & H); [intros ? ? ? []|].
  apply of_cols_good. intros c e Hc He. apply in_map_iff in Hc. destruct Hc as (j & <- & _).
  unfold compress_col in He. apply in_map_iff in He. destruct He as (((i & c') & x) & <- & He). apply filter_In in He.
  specialize (H _ _ _ (proj1 He)). simpl. lia.
Qed.

Lemma dense_good {T} jp ji jx big (A : mat T) a : ctor_dense jp ji jx big A = Ok a -> good a.
Proof.
  intros H. destruct (Z.lt_ge_cases INT_MAX (Z.of_nat (count_dense big A))) as [L|L].
  - unfold ctor_dense in H. rewrite (proj2 (Z.ltb_lt _ _) L) in H. discriminate.
  - rewrite ctor_dense_eq in H by auto. injection H as <-. apply of_cols_good. apply dcols_rows.
Qed.

Lemma entries_rows {T} (a : csc T) : valid a -> forall e, In e (entries a) -> row_of e < m_ a /\ col_of e < n_ a.
Proof.
  intros V e He. rewrite (entries_coo a V) in He. apply coo_from_in in He. destruct He as (_ & He).
  rewrite Nat.sub_0_r in He.
  destruct (Nat.lt_ge_cases (col_of e) (length (cols_of a))).
  - split; [|rewrite cols_of_length in H; auto].
    apply (cols_of_rows a V (nth (col_of e) (cols_of a) []) (row_of e, val_of e)); auto. now apply nth_In.
  - rewrite nth_overflow in He by auto. destruct He.
Qed.

Lemma valid_empty_entries {T} (a : csc T) : valid a -> m_ a = 0 \/ n_ a = 0 -> entries a = [].
Proof.
  intros V H. destruct (entries a) as [|e es] eqn:E; auto.
  destruct (entries_rows a V e); [rewrite E; left; auto|]. lia.
Qed.

Lemma copy_empty {T} jp ji jx (o : csc T) : good o -> m_ o = 0 \/ n_ o = 0 ->
  exists a, copy_ctor jp ji jx o = Ok a /\ m_ a = 0 /\ n_ a = 0 /\ good a /\ entries a = [].
Proof.
  intros (V & Hn) H0. rewrite valid_empty_entries in Hn by auto. simpl in Hn. unfold nnz in Hn.
  pose proof (v_ilen _ V) as Li. pose proof (v_xlen _ V) as Lx. pose proof (v_plen _ V) as Lp. rewrite Hn in Li, Lx.
  destruct (i_ o) as [|r [|? ?]] eqn:Ei; try discriminate. destruct (x_ o) as [|v [|? ?]] eqn:Ex; try discriminate.
  unfold copy_ctor. unfold ctor_sizes, rows, cols, nnz. rewrite Hn.
  assert (E0 : m_ o * n_ o = 0) by lia. rewrite E0.
  assert (EZ : (Z.of_nat (m_ o) * Z.of_nat (n_ o) = 0)%Z) by lia. rewrite EZ. rewrite Nat.eqb_refl.
  assert (EB : (m_ o =? 0) || (n_ o =? 0) = true).
  { apply orb_true_iff. rewrite !Nat.eqb_eq. auto. }
  rewrite EB. change (INT_MAX <? 0)%Z with false. cbn [bind].
  change (Nat.max 1 0) with 1. cbn [seq map].
  unfold for_ at 1. cbn [for_from]. rewrite Ei, Ex. cbn [getn nth_error bind i_ x_].
  unfold setn at 1. cbn [length Nat.ltb Nat.leb bind upd]. unfold setn at 1. cbn [length Nat.ltb Nat.leb bind upd m_ n_ nzmax p_].
  set (n := n_ o) in *.
  match goal with |- context [for_ (S n) ?f ?s] => set (f2 := f); set (b0 := s) end.
  destruct (for_inv (fun k (b : csc T) => k <= S n /\ i_ b = [r] /\ x_ b = [v] /\
      m_ b = 0 /\ n_ b = 0 /\ nzmax b = 1 /\ length (p_ b) = S n /\
      firstn k (p_ b) = firstn k (p_ o)) (S n) f2 b0)
      as (b & E & _ & I1 & X1 & Em & En & Ez & Lp' & Fp).
  - unfold b0. cbn [m_ n_ nzmax p_ i_ x_ length]. rewrite map_length, seq_length. repeat split; auto; try lia.
  - intros k b Hk (_ & I1 & X1 & Em' & En' & Ez' & Lp' & Fp). unfold f2.
    destruct (nth_error_ex (p_ o) k) as (q & Hq); [lia|]. rewrite (getn_ok _ _ _ Hq). cbn [bind].
    rewrite setn_ok by lia. cbn [bind]. eexists. split; [reflexivity|].
    cbn [i_ x_ m_ n_ nzmax p_]. rewrite !upd_length.
    split; [lia|]. repeat (split; [assumption|]). apply firstn_S_upd_eq; auto; lia.
  - exists b. split; [exact E|]. split; [auto|]. split; [auto|].
    assert (P0 : nth_error (p_ b) 0 = Some 0).
    { rewrite <- (firstn_all (p_ b)), Lp', Fp. rewrite nth_firstn_lt by lia. apply (v_p0 _ V). }
    assert (VB : valid b).
    { constructor; rewrite ?En, ?Em, ?Ez, ?I1, ?X1; auto; try lia; try (intros; lia).
      - intros u Hu. rewrite P0 in Hu. injection Hu as <-. lia.
      - intros u k r0 Hu Hk. rewrite P0 in Hu. injection Hu as <-. lia. }
    assert (EB' : entries b = []) by (apply valid_empty_entries; auto).
    split; [|auto]. split; [auto|]. rewrite EB'. simpl. exact Ez.
Qed.

Lemma copy_nonempty_good {T} jp ji jx (o : csc T) : good o -> (Z.of_nat (rows o) * Z.of_nat (cols o) <= INT_MAX)%Z ->
  0 < rows o -> 0 < cols o ->
  exists a, copy_ctor jp ji jx o = Ok a /\ rows a = rows o /\ cols a = cols o /\ good a /\ nnz a = nnz o /\
    entries a = entries o.
Proof.
  intros (V & Hn) HM Hr Hc.
  destruct (copy_ok jp ji jx o V HM Hr Hc) as (a & E & Em & En & Ez & Li & Lx & Fi & Fx & Fp).
  destruct (extend_same o a) as (VA & EA); auto; [unfold nnz in *; lia|].
  exists a. unfold rows, cols, nnz, good in *. unfold nnz. rewrite EA. repeat split; auto; try apply VA; lia.
Qed.

Lemma copy_overflow {T} jp ji jx (o : csc T) : (INT_MAX < Z.of_nat (rows o) * Z.of_nat (cols o))%Z ->
  copy_ctor jp ji jx o = UB.
Proof.
  intros H. unfold copy_ctor, ctor_sizes. destruct (Z.ltb_spec INT_MAX (Z.of_nat (rows o) * Z.of_nat (cols o))); auto. lia.
Qed.

Lemma copy_good {T} jp ji jx (o a : csc T) : good o -> copy_ctor jp ji jx o = Ok a -> good a /\ entries a = entries o.
Proof.
  intros G E. destruct (Z.le_gt_cases (Z.of_nat (rows o) * Z.of_nat (cols o)) INT_MAX) as [L|L].
  - destruct (Nat.eq_dec (rows o) 0) as [R|R]; [|destruct (Nat.eq_dec (cols o) 0) as [C|C]].
    + destruct (copy_empty jp ji jx o G) as (a' & E' & _ & _ & G' & H); auto. assert (a' = a) by congruence. subst.
      split; auto. rewrite H. symmetry. apply valid_empty_entries; [apply G|auto].
    + destruct (copy_empty jp ji jx o G) as (a' & E' & _ & _ & G' & H); auto. assert (a' = a) by congruence. subst.
      split; auto. rewrite H. symmetry. apply valid_empty_entries; [apply G|auto].
    + destruct (copy_nonempty_good jp ji jx o G L) as (a' & E' & _ & _ & G' & _ & H); try lia.
      assert (a' = a) by congruence. subst. auto.
  - rewrite copy_overflow in E by lia. discriminate.
Qed.

Lemma transpose_good {T} jk (a b : csc T) : valid a -> transpose jk a = Ok b -> good b.
Proof.
  intros V. unfold transpose. rewrite (proj2 (validb_iff a) V). simpl. intros H; injection H as <-.
  apply of_cols_good. intros c e Hc He. rewrite <- (cols_of_length a). eapply transpose_rows; eauto.
Qed.

Lemma dedup_good {T} add jk (a b : csc T) : valid a -> removeDuplicates add jk a = Ok b -> good b.
Proof.
  intros V. unfold removeDuplicates. rewrite (proj2 (validb_iff a) V). simpl. intros H; injection H as <-.
  apply of_cols_good. intros c e Hc He. apply in_map_iff in Hc. destruct Hc as (c' & <- & Hc').
  apply (in_map fst) in He. apply dedup_keys in He. destruct He as [[]|He].
  apply in_map_iff in He. destruct He as (e' & <- & He'). eapply cols_of_rows; eauto.
Qed.

Lemma multiply_good {T} add mul jk (a b c : csc T) : valid a -> valid b -> multiply add mul jk a b = Ok c -> good c.
Proof.
  intros Va Vb. unfold multiply. rewrite (proj2 (validb_iff a) Va), (proj2 (validb_iff b) Vb). simpl.
  destruct (n_ a =? m_ b); simpl; [|discriminate]. intros H; injection H as <-.
  apply of_cols_good. intros d e Hc He. apply in_map_iff in Hc. destruct Hc as (c' & <- & Hc').
  apply (in_map fst) in He. unfold mul_col in He. apply mul_col_keys in He. destruct He as [[]|(e' & He' & He)].
  apply in_map_iff in He. destruct He as (e2 & <- & He2).
  destruct (Nat.lt_ge_cases (fst e') (length (cols_of a))).
  - eapply cols_of_rows; eauto. now apply nth_In.
  - rewrite nth_overflow in He2 by auto. destruct He2.
Qed.

Lemma prune_good {T} jk big (a b : csc T) e : valid a -> prune jk big a = Ok (b, e) -> good b.
Proof.
  intros V. unfold prune. rewrite (proj2 (validb_iff a) V). intros H; injection H as <- _.
  apply of_cols_good. intros c x Hc He. apply in_map_iff in Hc. destruct Hc as (c' & <- & Hc'). apply filter_In in He.
  eapply cols_of_rows; eauto. tauto.
Qed.

Lemma good_swap {T} (a b : csc T) : swap a b = (b, a).
Proof. destruct a, b; reflexivity. Qed.

Lemma Forall_upd {X} (P : X -> Prop) l k v : Forall P l -> P v -> Forall P (upd l k v).
Proof. intros H Hv. revert k; induction H; intros [|k]; simpl; constructor; auto. Qed.

Lemma getn_inv {X} (l : list X) k x : getn l k = Ok x -> In x l.
Proof. unfold getn. destruct (nth_error l k) eqn:E; intros H; [injection H as <-|discriminate]. eapply nth_error_In; eauto. Qed.

Lemma Forall_snoc {X} (P : X -> Prop) l v : Forall P l -> P v -> Forall P (l ++ [v]).
Proof. intros. apply Forall_app. auto. Qed.

Lemma call_step_good {T} add mul (env env' : list (csc T)) c e :
  Forall good env -> call_step add mul env c = Ok (env', e) -> Forall good env'.
Proof.
  intros G E. pose proof (proj1 (Forall_forall _ _) G) as GG.
  destruct c; simpl in E;
   repeat match type of E with
   | bind (getn ?l ?k) _ = _ => let Q := fresh "Q" in destruct (getn l k) eqn:Q; [apply getn_inv in Q|discriminate|discriminate]; simpl in E
   | keep _ _ ?o _ = _ => let Q := fresh "K" in destruct o eqn:Q; simpl in E; [|injection E as <- <-; exact G|discriminate]
   end.
  - injection E as <- <-. apply Forall_snoc; auto. eapply triplet_good; eauto.
  - injection E as <- <-. apply Forall_snoc; auto. eapply dense_good; eauto.
  - injection E as <- <-. apply Forall_snoc; auto. eapply copy_good; eauto.
  - injection E as <- <-. apply Forall_upd; auto. unfold assign in K.
    destruct (copy_ctor _ _ _ _) eqn:KC; try discriminate. cbn [bind] in K. rewrite good_swap in K.
    injection K as <-. eapply copy_good; eauto.
  - destruct a, a0. injection E as <- <-. apply Forall_upd; [apply Forall_upd|]; auto.
  - injection E as <- <-. apply Forall_upd; auto. eapply transpose_good; eauto. apply (GG _ Q).
  - injection E as <- <-. apply Forall_snoc; auto. eapply transpose_good; eauto. apply (GG _ Q).
  - injection E as <- <-. apply Forall_snoc; auto. eapply multiply_good; [| |eauto]; [apply (GG _ Q)|apply (GG _ Q0)].
  - injection E as <- <-. apply Forall_upd; auto. eapply dedup_good; eauto. apply (GG _ Q).
  - destruct a0 as (b & e0). injection E as <- <-. apply Forall_upd; auto. eapply prune_good; eauto. apply (GG _ Q).
Qed.

Lemma calls_good {T} add mul cs : forall (env env' : list (csc T)),
  Forall good env -> calls add mul env cs = Ok env' -> Forall good env'.
Proof.
  induction cs as [|c cs IH]; intros env env' G E; simpl in E.
  - injection E as <-. auto.
  - destruct (call_step add mul env c) as [(e1 & en)| |] eqn:S; try discriminate. simpl in E.
    eapply IH; [eapply call_step_good; eauto|exact E].
Qed.

Lemma copy_total {T} jp ji jx (o : csc T) : good o -> small o -> exists a, copy_ctor jp ji jx o = Ok a.
Proof.
  intros G S. destruct (Nat.eq_dec (rows o) 0) as [R|R]; [|destruct (Nat.eq_dec (cols o) 0) as [C|C]].
  - destruct (copy_empty jp ji jx o G) as (a & E & _); eauto.
  - destruct (copy_empty jp ji jx o G) as (a & E & _); eauto.
  - destruct (copy_nonempty_good jp ji jx o G S) as (a & E & _); try lia; eauto.
Qed.

Lemma call_step_total {T} add mul (env : list (csc T)) c :
  Forall good env -> call_ok env c -> exists env' e, call_step add mul env c = Ok (env', e).
Proof.
  intros G H. pose proof (proj1 (Forall_forall _ _) G) as GG.
  assert (GE : forall k, k < length env -> exists a, nth_error env k = Some a /\ good a).
  { intros k Hk. destruct (nth_error_ex env k Hk) as (a & Ha). exists a. split; auto. apply GG. eapply nth_error_In; eauto. }
  destruct c; simpl in H |- *.
  - destruct (triplet_in_range_ok jk t H) as (a & E & _). rewrite E. simpl. eauto.
  - destruct (Z.lt_ge_cases INT_MAX (Z.of_nat (count_dense big A))) as [L|L].
    + unfold ctor_dense. rewrite (proj2 (Z.ltb_lt _ _) L). simpl. eauto.
    + rewrite ctor_dense_eq by auto. simpl. eauto.
  - destruct H as (a & Ha & S). rewrite (getn_ok _ _ _ Ha). simpl.
    destruct (copy_total jp ji jx a) as (b & E); auto. { apply GG. eapply nth_error_In; eauto. }
    rewrite E. simpl. eauto.
  - destruct H as (Hk & a & Ha & S). destruct (GE k Hk) as (b & Hb & _).
    rewrite (getn_ok _ _ _ Ha), (getn_ok _ _ _ Hb). simpl. unfold assign.
    destruct (copy_total jp ji jx a) as (c & E); auto. { apply GG. eapply nth_error_In; eauto. }
    rewrite E. simpl. eauto.
  - destruct H as (Hk & Hl). destruct (GE k Hk) as (a & Ha & _). destruct (GE l Hl) as (b & Hb & _).
    rewrite (getn_ok _ _ _ Ha), (getn_ok _ _ _ Hb). simpl. eauto.
  - destruct (GE k H) as (a & Ha & (V & _)). rewrite (getn_ok _ _ _ Ha). simpl.
    destruct (transpose_ok jk a V) as (b & E & _). rewrite E. simpl. eauto.
  - destruct (GE k H) as (a & Ha & (V & _)). rewrite (getn_ok _ _ _ Ha). simpl.
    destruct (transpose_ok jk a V) as (b & E & _). rewrite E. simpl. eauto.
  - destruct H as (Hk & Hl). destruct (GE k Hk) as (a & Ha & (Va & _)). destruct (GE l Hl) as (b & Hb & (Vb & _)).
    rewrite (getn_ok _ _ _ Ha), (getn_ok _ _ _ Hb). simpl. unfold multiply.
    rewrite (proj2 (validb_iff a) Va), (proj2 (validb_iff b) Vb). simpl. destruct (n_ a =? m_ b); simpl; eauto.
  - destruct (GE k H) as (a & Ha & (V & _)). rewrite (getn_ok _ _ _ Ha). simpl.
    unfold removeDuplicates. rewrite (proj2 (validb_iff a) V). simpl. eauto.
  - destruct (GE k H) as (a & Ha & (V & _)). rewrite (getn_ok _ _ _ Ha). simpl.
    destruct (prune_ok jk big a V) as (b & e & E & _). rewrite E. simpl. eauto.
Qed.

(* ---- ownership ---- *)
Definition ind (x z : nat) : nat := if Nat.eq_dec x z then 1 else 0.
Definition cnt (l : list nat) (z : nat) : nat := count_occ Nat.eq_dec l z.
Lemma cnt_cons x l z : cnt (x :: l) z = ind x z + cnt l z.
Proof. unfold cnt, ind. simpl. destruct (Nat.eq_dec x z); auto. Qed.
Lemma cnt_app a b z : cnt (a ++ b) z = cnt a z + cnt b z.
Proof. apply count_occ_app. Qed.
Lemma perm_cnt a b : Permutation a b <-> forall z, cnt a z = cnt b z.
Proof. apply (Permutation_count_occ Nat.eq_dec). Qed.
Ltac perm :=
  apply perm_cnt; let z := fresh "z" in intros z;
  repeat match goal with H : Permutation _ _ |- _ => rewrite perm_cnt in H; specialize (H z) end;
  rewrite ?cnt_app, ?cnt_cons in *; cbn [cnt count_occ] in *; lia.

Definition minv (m : mem) : Prop :=
  NoDup (owned (objs m)) /\ Permutation (owned (objs m)) (live m) /\ (forall b, In b (live m) -> b < next m).

Lemma remove1_perm b l : In b l -> exists l', remove1 b l = Some l' /\ Permutation l (b :: l').
Proof.
  induction l as [|x l IH]; intros H; [destruct H|]. simpl. destruct (Nat.eqb_spec x b).
  - subst. eauto.
  - destruct H as [H|H]; [lia|]. destruct (IH H) as (l' & E & P). rewrite E. simpl. eexists. split; eauto.
    rewrite P. apply perm_swap.
Qed.

Lemma free_perm b l r : Permutation (b :: r) l -> exists l', free b l = Ok l' /\ Permutation r l'.
Proof.
  intros P. destruct (remove1_perm b l) as (l' & E & Q).
  { eapply Permutation_in; eauto. left; auto. }
  unfold free. rewrite E. eexists. split; eauto. eapply Permutation_cons_inv. etransitivity; eauto.
Qed.

Lemma spfree_perm h m r : Permutation (blocks h ++ r) (live m) ->
  exists l', spfree (Some h) m = Ok (mkmem (next m) l' (objs m)) /\ Permutation r l'.
Proof.
  intros P. unfold spfree, blocks in *. simpl in P.
  destruct (free_perm (h_i h) (live m) (h_self h :: h_p h :: h_x h :: r)) as (l1 & E1 & P1).
  { rewrite <- P. apply perm_swap. }
  destruct (free_perm (h_p h) l1 (h_self h :: h_x h :: r)) as (l2 & E2 & P2).
  { rewrite <- P1. apply perm_swap. }
  destruct (free_perm (h_x h) l2 (h_self h :: r)) as (l3 & E3 & P3).
  { rewrite <- P2. apply perm_swap. }
  destruct (free_perm (h_self h) l3 r) as (l4 & E4 & P4); auto.
  rewrite E1. simpl. rewrite E2. simpl. rewrite E3. simpl. rewrite E4. simpl. eauto.
Qed.

Definition oblocks (o : option header) : list nat := match o with Some h => blocks h | None => [] end.

Lemma owned_upd os k o o' : nth_error os k = Some o ->
  exists r, Permutation (owned os) (oblocks o ++ r) /\ Permutation (owned (upd os k o')) (oblocks o' ++ r).
Proof.
  revert k; induction os as [|x os IH]; intros k H; [destruct k; discriminate|].
  destruct k; simpl in *.
  - injection H as ->. exists (owned os). auto.
  - destruct (IH _ H) as (r & P1 & P2). exists (oblocks x ++ r). split.
    + change (owned (x :: os)) with (oblocks x ++ owned os). rewrite P1. rewrite !app_assoc. apply Permutation_app_tail, Permutation_app_comm.
    + change (owned (x :: upd os k o')) with (oblocks x ++ owned (upd os k o')). rewrite P2. rewrite !app_assoc. apply Permutation_app_tail, Permutation_app_comm.
Qed.

Lemma owned_snoc os o : Permutation (owned (os ++ [o])) (oblocks o ++ owned os).
Proof. unfold owned. rewrite flat_map_app. simpl. rewrite app_nil_r. apply Permutation_app_comm. Qed.

Lemma getn_nth {X} (l : list X) k x : getn l k = Ok x -> nth_error l k = Some x.
Proof. unfold getn. destruct (nth_error l k); congruence. Qed.

(* what has to be shown: the owned blocks are the live ones, all below next *)
Lemma minv_intro m : NoDup (live m) -> Permutation (owned (objs m)) (live m) -> (forall b, In b (live m) -> b < next m) -> minv m.
Proof. intros N P F. split; [|auto]. eapply Permutation_NoDup; [|exact N]. now apply Permutation_sym. Qed.

Lemma minv_live m : minv m -> NoDup (live m).
Proof. intros (N & P & _). eapply Permutation_NoDup; eauto. Qed.

Definition fresh4 (n : nat) := [n; S n; S (S n); S (S (S n))].

Lemma NoDup_fresh n l : NoDup l -> (forall b, In b l -> b < n) -> NoDup (fresh4 n ++ l).
Proof.
  intros N F. unfold fresh4. simpl. 
  repeat (constructor; [simpl; intros H; repeat destruct H as [H|H]; try lia; apply F in H; lia|]). auto.
Qed.

Lemma NoDup_app_r {X} (a b : list X) : NoDup (a ++ b) -> NoDup b.
Proof. induction a; simpl; auto. intros H; inversion H; auto. Qed.

Lemma mstep_inv m c m' : minv m -> mstep m c = Ok m' -> minv m'.
Proof.
  intros I E. pose proof (minv_live _ I) as NL. destruct I as (N & P & F).
  assert (NF := NoDup_fresh (next m) (live m) NL F).
  destruct c; cbn [mstep bind the spalloc] in E.
  - injection E as <-. apply minv_intro; simpl.
    + exact NF.
    + rewrite owned_snoc. simpl. now rewrite P.
    + intros b H. repeat destruct H as [H|H]; try lia. apply F in H. lia.
  - destruct (getn (objs m) k) as [o| |]; try discriminate. cbn [mstep bind the spalloc] in E. destruct o; try discriminate. cbn [mstep bind the spalloc] in E.
    injection E as <-. apply minv_intro; simpl.
    + exact NF.
    + rewrite owned_snoc. simpl. now rewrite P.
    + intros b H. repeat destruct H as [H|H]; try lia. apply F in H. lia.
  - destruct (getn (objs m) k) as [o| |] eqn:Q; try discriminate. cbn [mstep bind the spalloc] in E. apply getn_nth in Q. injection E as <-.
    destruct (owned_upd _ _ _ None Q) as (r & P1 & P2).
    apply minv_intro; simpl; auto. rewrite owned_snoc, P2. simpl. now rewrite <- P1.
  - destruct (getn (objs m) k) as [o| |] eqn:Q; try discriminate. cbn [mstep bind the spalloc] in E. apply getn_nth in Q.
    destruct (getn (objs m) l) as [ol| |] eqn:Ql; try discriminate. cbn [mstep bind the spalloc] in E.
    destruct ol; try discriminate. destruct o as [a|]; try discriminate. cbn [bind the] in E.
    cbn [spalloc] in E. set (t := mkhdr (next m) _ _ _) in E. unfold swap_headers in E.
    set (a' := mkhdr (h_self a) _ _ _) in E. set (t' := mkhdr (h_self t) _ _ _) in E.
    destruct (owned_upd _ _ _ (Some a') Q) as (r & P1 & P2).
    match type of E with spfree _ ?mm = _ => set (m1 := mm) in E end.
    destruct (spfree_perm t' m1 (oblocks (Some a') ++ r)) as (l' & E' & P').
    { clear - P P1. subst t' a' t m1. unfold put, blocks, oblocks in *. cbn [live h_self h_i h_p h_x blocks app] in *. perm. }
    rewrite E' in E. injection E as <-.
    assert (LP : Permutation (blocks t' ++ oblocks (Some a') ++ r) (fresh4 (next m) ++ live m)).
    { clear - P P1. subst t' a' t. unfold fresh4, blocks, oblocks in *. cbn [live h_self h_i h_p h_x blocks app] in *. perm. }
    assert (NA : NoDup (oblocks (Some a') ++ r)).
    { apply (NoDup_app_r (blocks t')). eapply Permutation_NoDup; [apply Permutation_sym, LP|auto]. }
    apply minv_intro; simpl.
    + eapply Permutation_NoDup; eauto.
    + rewrite P2. exact P'.
    + intros b H. assert (In b (fresh4 (next m) ++ live m)) as HB.
      { eapply Permutation_in; [exact LP|]. apply in_or_app. right. eapply Permutation_in; [apply Permutation_sym, P'|auto]. }
      simpl in HB. repeat destruct HB as [HB|HB]; try lia. apply F in HB. lia.
  - destruct (getn (objs m) k) as [o| |] eqn:Q; try discriminate. cbn [mstep bind the spalloc] in E. apply getn_nth in Q.
    destruct (getn (objs m) l) as [ol| |] eqn:Ql; try discriminate. cbn [mstep bind the spalloc] in E. apply getn_nth in Ql.
    destruct o as [a|]; try discriminate. destruct ol as [b|]; try discriminate. cbn [bind the] in E.
    destruct (Nat.eqb_spec k l). { injection E as <-. split; auto. }
    unfold swap_headers in E. injection E as <-.
    set (a' := mkhdr (h_self a) _ _ _). set (b' := mkhdr (h_self b) _ _ _).
    destruct (owned_upd _ _ _ (Some a') Q) as (r & P1 & P2).
    assert (Ql' : nth_error (upd (objs m) k (Some a')) l = Some (Some b)).
    { rewrite nth_error_upd_neq; auto. }
    destruct (owned_upd _ _ _ (Some b') Ql') as (r2 & P3 & P4).
    apply minv_intro; simpl; auto. clear - P P1 P2 P3 P4. subst a' b'.
    unfold oblocks, blocks in *. cbn [h_self h_i h_p h_x app] in *. perm.
  - destruct (getn (objs m) k) as [o| |] eqn:Q; try discriminate. cbn [mstep bind the spalloc] in E. apply getn_nth in Q.
    destruct o as [a|]; try discriminate. cbn [bind the spalloc] in E. set (t := mkhdr (next m) _ _ _) in E.
    destruct (owned_upd _ _ _ (Some t) Q) as (r & P1 & P2).
    match type of E with spfree _ ?mm = _ => set (m1 := mm) in E end.
    assert (LP : Permutation (blocks a ++ blocks t ++ r) (fresh4 (next m) ++ live m)).
    { rewrite <- P, P1. change (blocks t) with (fresh4 (next m)). rewrite !app_assoc. apply Permutation_app_tail, Permutation_app_comm. }
    destruct (spfree_perm a m1 (oblocks (Some t) ++ r)) as (l' & E' & P').
    { exact LP. }
    rewrite E' in E. injection E as <-.
    apply minv_intro; simpl.
    + eapply Permutation_NoDup; [exact P'|]. apply (NoDup_app_r (blocks a)).
      eapply Permutation_NoDup; [apply Permutation_sym, LP|auto].
    + rewrite P2. exact P'.
    + intros b H. assert (In b (fresh4 (next m) ++ live m)) as HB.
      { eapply Permutation_in; [exact LP|]. apply in_or_app. right. eapply Permutation_in; [apply Permutation_sym, P'|auto]. }
      simpl in HB. repeat destruct HB as [HB|HB]; try lia. apply F in HB. lia.
  - destruct (getn (objs m) k) as [o| |] eqn:Q; try discriminate. cbn [mstep bind the spalloc] in E. apply getn_nth in Q.
    destruct o as [a|]; try discriminate. cbn [bind the] in E. unfold sprealloc in E.
    set (a' := mkhdr (h_self a) (next m) (h_p a) (S (next m))) in E.
    destruct (owned_upd _ _ _ (Some a') Q) as (r & P1 & P2).
    destruct (free_perm (h_i a) (live m) (h_self a :: h_p a :: h_x a :: r)) as (l1 & E1 & P1').
    { rewrite <- P, P1. simpl. apply perm_swap. }
    destruct (free_perm (h_x a) l1 (h_self a :: h_p a :: r)) as (l2 & E2 & P2').
    { clear - P1'. perm. }
    rewrite E1 in E. cbn [bind] in E. rewrite E2 in E. cbn [bind] in E. injection E as <-.
    assert (IL : forall b, In b l2 -> In b (live m)).
    { intros b Hb. eapply Permutation_in; [exact P|]. rewrite P1. simpl.
      eapply Permutation_in in Hb; [|apply Permutation_sym, P2']. simpl in Hb. intuition. }
    assert (N2 : NoDup l2).
    { eapply Permutation_NoDup; [exact P2'|]. rewrite P1 in N. simpl in N.
      inversion N as [|? ? A1 N1]; subst. inversion N1 as [|? ? A2 N2]; subst. inversion N2 as [|? ? A3 N3]; subst.
      inversion N3; subst. simpl in *. constructor; [simpl; tauto|]. constructor; [tauto|auto]. }
    apply minv_intro; simpl.
    + constructor; [|constructor; auto].
      * simpl. intros [H|H]; [lia|]. apply IL, F in H. lia.
      * intros H. apply IL, F in H. lia.
    + clear - P2 P2'. subst a'. unfold oblocks, blocks in *. cbn [h_self h_i h_p h_x app] in *. perm.
    + intros b [H|[H|H]]; try lia. apply IL, F in H. lia.
  - destruct (getn (objs m) k) as [o| |] eqn:Q; try discriminate. cbn [mstep bind the spalloc] in E. apply getn_nth in Q.
    destruct (owned_upd _ _ _ None Q) as (r & P1 & P2). destruct o as [a|].
    + destruct (spfree_perm a (put k None m) r) as (l' & E' & P'). { simpl. rewrite <- P. now rewrite P1. }
      rewrite E' in E. injection E as <-. apply minv_intro; simpl.
      * eapply Permutation_NoDup; [exact P'|]. rewrite P1 in N. eapply NoDup_app_r. exact N.
      * rewrite P2. exact P'.
      * intros b H. apply F. eapply Permutation_in; [exact P|]. rewrite P1. apply in_or_app. right.
        eapply Permutation_in; [apply Permutation_sym, P'|auto].
    + cbn [mstep bind the spalloc] in E. injection E as <-. apply minv_intro; simpl; auto. rewrite P2. simpl. now rewrite <- P1.
Qed.

Lemma mrun_inv cs : forall m m', minv m -> mrun m cs = Ok m' -> minv m'.
Proof.
  induction cs as [|c cs IH]; intros m m' I E; simpl in E.
  - injection E as <-. auto.
  - destruct (mstep m c) eqn:S; try discriminate. simpl in E. eapply IH; [eapply mstep_inv; eauto|exact E].
Qed.

Lemma minv0 : minv mem0.
Proof. split; [constructor|]. split; [constructor|]. intros b []. Qed.

Lemma mstep_total m c : minv m -> mcall_ok m c -> exists m', mstep m c = Ok m'.
Proof.
  intros (N & P & F) H. destruct c; cbn [mcall_ok mstep] in H |- *.
  - cbn [spalloc]. eauto.
  - destruct H as (h & H). rewrite (getn_ok _ _ _ H). simpl. eauto.
  - destruct (nth_error_ex (objs m) k H) as (o & Ho). rewrite (getn_ok _ _ _ Ho). simpl. eauto.
  - destruct H as ((a & Ha) & (b & Hb)). rewrite (getn_ok _ _ _ Ha), (getn_ok _ _ _ Hb). cbn [bind the spalloc swap_headers].
    set (t := mkhdr (next m) _ _ _). set (a' := mkhdr (h_self a) _ _ _). set (t' := mkhdr (h_self t) _ _ _).
    match goal with |- exists _, spfree _ ?mm = _ => set (m1 := mm) end.
    destruct (owned_upd _ _ _ (Some a') Ha) as (r & P1 & P2).
    destruct (spfree_perm t' m1 (oblocks (Some a') ++ r)) as (l' & E' & P').
    { clear - P P1. subst t' a' t m1. unfold put, blocks, oblocks in *. cbn [live h_self h_i h_p h_x blocks app] in *. perm. }
    rewrite E'. eauto.
  - destruct H as ((a & Ha) & (b & Hb)). rewrite (getn_ok _ _ _ Ha), (getn_ok _ _ _ Hb). cbn [bind the swap_headers].
    destruct (k =? l); eauto.
  - destruct H as (a & Ha). rewrite (getn_ok _ _ _ Ha). cbn [bind the spalloc].
    set (t := mkhdr (next m) _ _ _). match goal with |- exists _, spfree _ ?mm = _ => set (m1 := mm) end.
    destruct (owned_upd _ _ _ (Some t) Ha) as (r & P1 & P2).
    destruct (spfree_perm a m1 (oblocks (Some t) ++ r)) as (l' & E' & P').
    { change (live m1) with (fresh4 (next m) ++ live m). rewrite <- P, P1. change (oblocks (Some t)) with (fresh4 (next m)).
      rewrite !app_assoc. apply Permutation_app_tail, Permutation_app_comm. }
    rewrite E'. eauto.
  - destruct H as (a & Ha). rewrite (getn_ok _ _ _ Ha). cbn [bind the]. unfold sprealloc.
    destruct (owned_upd _ _ _ None Ha) as (r & P1 & P2).
    destruct (free_perm (h_i a) (live m) (h_self a :: h_p a :: h_x a :: r)) as (l1 & E1 & P1').
    { rewrite <- P, P1. simpl. apply perm_swap. }
    destruct (free_perm (h_x a) l1 (h_self a :: h_p a :: r)) as (l2 & E2 & P2').
    { clear - P1'. perm. }
    rewrite E1. cbn [bind]. rewrite E2. cbn [bind]. eauto.
  - destruct (nth_error_ex (objs m) k H) as (o & Ho). rewrite (getn_ok _ _ _ Ho). cbn [bind].
    destruct o as [a|]; [|cbn [spfree]; eauto]. destruct (owned_upd _ _ _ None Ho) as (r & P1 & P2).
    destruct (spfree_perm a (put k None m) r) as (l' & E' & P'). { simpl. rewrite <- P. now rewrite P1. }
    rewrite E'. eauto.
Qed.

(* ---- effect of a call on the other matrices ---- *)
Lemma nth_error_app_old {A} (l : list A) a i x : nth_error l i = Some x -> nth_error (l ++ [a]) i = Some x.
Proof. intros H. rewrite nth_error_app1; auto. apply nth_error_Some. congruence. Qed.

Lemma call_step_frame {T} (add mul : T -> T -> T) env c env' e :
  call_step add mul env c = Ok (env', e) ->
  forall i a, nth_error env i = Some a -> ~ modifies c i -> nth_error env' i = Some a.
Proof.
  intros E i a Hi Hm. destruct c; cbn [call_step modifies] in *;
    repeat match type of E with
    | (bind ?o _) = (Ok _) => destruct o eqn:?; cbn [bind] in E; try discriminate
    | (keep _ _ ?o _) = (Ok _) => destruct o eqn:?; cbn [keep] in E; try discriminate
    | context [match ?p with pair _ _ => _ end] => destruct p
    | (Ok _) = (Ok _) => injection E as <- <-
    end; auto using nth_error_app_old;
    repeat rewrite nth_error_upd_neq by (intros ->; apply Hm; auto); auto.
Qed.

Lemma call_step_swap {T} (add mul : T -> T -> T) env k l a b :
  nth_error env k = Some a -> nth_error env l = Some b ->
  exists env', call_step add mul env (Swap k l) = Ok (env', Done) /\
    nth_error env' k = Some b /\ nth_error env' l = Some a /\ length env' = length env.
Proof.
  intros Hk Hl. cbn [call_step]. unfold getn. rewrite Hk, Hl. cbn [bind].
  assert (Lk : k < length env) by (apply nth_error_Some; congruence).
  assert (Ll : l < length env) by (apply nth_error_Some; congruence).
  eexists. split; [reflexivity|]. unfold swap; cbn [fst snd].
  destruct a as [a1 a2 a3 a4 a5 a6], b as [b1 b2 b3 b4 b5 b6]; cbn.
  split; [|split].
  - destruct (Nat.eq_dec l k) as [->|N].
    + rewrite nth_error_upd_eq by now rewrite upd_length. rewrite Hk in Hl. injection Hl as <- <- <- <- <- <-. auto.
    + rewrite nth_error_upd_neq by auto. now apply nth_error_upd_eq.
  - apply nth_error_upd_eq. now rewrite upd_length.
  - now rewrite !upd_length.
Qed.
