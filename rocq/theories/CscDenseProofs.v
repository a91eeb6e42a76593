From Coq Require Import ZArith List Lia Bool Permutation Sorted.
From Verif Require Import Base Loops TripletModel BlitzProofs CscModel CscSpec CscProofs.
Import ListNotations.
Local Open Scope nat_scope.

Section D.
Context {T : Type}.
Notation column := (list (nat * T)).
Notation ent := (nat * nat * T)%type.

Definition dpart (big : T -> bool) (A : nat -> nat -> T) (j n : nat) : column :=
  flat_map (fun i => if big (A i j) then [(i, A i j)] else []) (seq 0 n).
Definition dcols (big : T -> bool) (A : nat -> nat -> T) nr nc : list column :=
  map (fun j => dpart big A j nr) (seq 0 nc).

Lemma dpart_S big A j n : dpart big A j (S n) = dpart big A j n ++ (if big (A n j) then [(n, A n j)] else []).
Proof. unfold dpart. rewrite seq_S, flat_map_app. simpl. now rewrite app_nil_r. Qed.

Lemma concat_app_length {X} (f g : nat -> list X) l :
  length (concat (map (fun j => f j ++ g j) l)) = length (concat (map f l)) + length (concat (map g l)).
Proof. induction l; simpl; auto. rewrite !app_length, IHl. lia. Qed.

Lemma filter_length_le' {X} (f : X -> bool) l : length (filter f l) <= length l.
Proof. induction l; simpl; auto. destruct (f a); simpl; lia. Qed.

Lemma flat_map_ext_in' {X Y} (f g : X -> list Y) l : (forall x, In x l -> f x = g x) -> flat_map f l = flat_map g l.
Proof. induction l; simpl; intros H; auto. rewrite H, IHl; auto. Qed.

Lemma count_dense_cols big (A : mat T) : count_dense big A = length (concat (dcols big (ment A) (mrows A) (mcols A))).
Proof.
  unfold count_dense, dcols. induction (mrows A) as [|n IH].
  - simpl. unfold dpart. simpl. induction (seq 0 (mcols A)); auto.
  - rewrite seq_S, flat_map_app, filter_app, app_length, IH. simpl. rewrite app_nil_r.
    rewrite (map_ext (fun j => dpart big (ment A) j (S n)) (fun j => dpart big (ment A) j n ++ (if big (ment A n j) then [(n, ment A n j)] else []))).
    2: intros; apply dpart_S.
    rewrite concat_app_length. f_equal. generalize (seq 0 (mcols A)) as l. induction l; simpl; auto.
    destruct (big (ment A n a)); simpl; auto.
Qed.

Lemma skipn_upd {X} (l : list X) k v : skipn (S k) (upd l k v) = skipn (S k) l.
Proof. revert k; induction l; intros [|k]; simpl; auto. apply (IHl k). Qed.

Variables (l0 : list nat) (x0 : list T).
Definition done (l : list nat) (x : list T) (k cap : nat) (c : column) : Prop :=
  (length l = cap /\ length x = cap /\ k = length c) /\
  (firstn k l = map fst c /\ firstn k x = map snd c) /\
  (skipn k l = skipn k l0 /\ skipn k x = skipn k x0).

Lemma done_step l x k cap c i v : done l x k cap c -> k < cap ->
  done (upd l k i) (upd x k v) (S k) cap (c ++ [(i, v)]).
Proof.
  intros ((L1 & L2 & Lk) & (F1 & F2) & (S1 & S2)) Hk. unfold done. rewrite !upd_length, !skipn_upd.
  assert (SK : forall X (a b : list X) k, skipn k a = skipn k b -> skipn (S k) a = skipn (S k) b).
  { intros X a b n H. assert (G : forall (m : list X) n, skipn (S n) m = skipn 1 (skipn n m)).
    { intros m; induction m; intros [|n']; auto. exact (IHm n'). }
    now rewrite (G a), (G b), H. }
  split; [|split].
  - repeat split; auto. rewrite app_length. simpl. lia.
  - rewrite !map_app. rewrite !firstn_upd_snoc by lia. rewrite F1, F2. auto.
  - auto.
Qed.


Lemma dense_entries_loop big (A : mat T) j cap pre a0 k0 :
  j < mcols A -> done (i_ a0) (x_ a0) k0 cap pre -> nzmax a0 = cap ->
  length (pre ++ dpart big (ment A) j (mrows A)) <= cap ->
  exists k a, for_ (mrows A) (dense_entry T big A j) (k0, a0) = Ok (k, a) /\
    done (i_ a) (x_ a) k cap (pre ++ dpart big (ment A) j (mrows A)) /\
    m_ a = m_ a0 /\ n_ a = n_ a0 /\ nzmax a = nzmax a0 /\ p_ a = p_ a0.
Proof.
  intros Hj D0 Hc HL.
  destruct (for_inv (fun n st => let (k, a) := st : nat * csc T in
     n <= mrows A /\ done (i_ a) (x_ a) k cap (pre ++ dpart big (ment A) j n) /\
     m_ a = m_ a0 /\ n_ a = n_ a0 /\ nzmax a = nzmax a0 /\ p_ a = p_ a0)
     (mrows A) (dense_entry T big A j) (k0, a0)) as ((k & a) & E & _ & D & H).
  - split; [lia|]. unfold dpart. simpl. rewrite app_nil_r. auto.
  - intros n (k & a) Hn (_ & D & Em & En & Ez & Ep). unfold dense_entry.
    pose proof D as ((L1 & L2 & Lk) & _).
    rewrite mget_ok by auto. cbn [bind]. rewrite dpart_S.
    destruct (big (ment A n j)) eqn:B.
    + assert (Hk : k < cap).
      { assert (G : exists r, dpart big (ment A) j (mrows A) = dpart big (ment A) j (S n) ++ r).
        { exists (flat_map (fun i => if big (ment A i j) then [(i, ment A i j)] else []) (seq (S n) (mrows A - S n))).
          unfold dpart. rewrite <- flat_map_app, <- seq_app. do 2 f_equal. lia. }
        destruct G as (r & G). rewrite G, dpart_S, B in HL. rewrite !app_length in *. simpl in *. lia. }
      unfold setn. rewrite L1, L2. rewrite (proj2 (Nat.ltb_lt k cap) Hk). cbn [bind].
      eexists. split; [reflexivity|]. cbn [i_ x_ m_ n_ nzmax p_]. split; [lia|]. split; [|auto].
      rewrite app_assoc. apply done_step; auto.
    + eexists. split; [reflexivity|]. cbn [i_ x_ m_ n_ nzmax p_]. rewrite app_nil_r. split; [lia|auto].
  - exists k, a. auto.
Qed.

Lemma dcols_S big A nr j : dcols big A nr (S j) = dcols big A nr j ++ [dpart big A j nr].
Proof. unfold dcols. rewrite seq_S, map_app. reflexivity. Qed.

Lemma dcols_len big A nr j : length (dcols big A nr j) = j.
Proof. unfold dcols. now rewrite map_length, seq_length. Qed.

Lemma ptrs_snoc (cs : list column) c : forall s, ptrs s (cs ++ [c]) = ptrs s cs ++ [s + length (concat cs) + length c].
Proof.
  induction cs as [|d cs IH]; intros s; cbn [app ptrs concat].
  - simpl. do 2 f_equal. f_equal. lia.
  - rewrite IH. rewrite app_length. simpl. do 3 f_equal. lia.
Qed.

End D.

Lemma firstn_ptrs_snoc {T} (cs : list (list (nat * T))) c p k j :
  length cs = j -> j < length p -> k = length (concat cs) -> firstn j p = firstn j (ptrs 0 cs) ->
  firstn (S j) (upd p j k) = firstn (S j) (ptrs 0 (cs ++ [c])) /\ firstn (S j) (upd p j k) = ptrs 0 cs.
Proof.
  intros L Hj Hk Hp. rewrite firstn_upd_snoc by auto. rewrite Hp, ptrs_snoc.
  assert (LP : length (ptrs 0 cs) = S j) by now rewrite ptrs_length, L.
  rewrite firstn_app, LP, Nat.sub_diag. cbn [firstn]. rewrite app_nil_r.
  assert (NP : nth_error (ptrs 0 cs) j = Some k).
  { rewrite ptrs_nth by lia. rewrite <- L. rewrite firstn_all. simpl. congruence. }
  rewrite <- (firstn_S_nth _ _ _ NP). split; auto. rewrite <- LP. apply firstn_all.
Qed.

Lemma ctor_dense_eq {T} jp ji jx big (A : mat T) :
  (Z.of_nat (count_dense big A) <= INT_MAX)%Z ->
  ctor_dense jp ji jx big A = Ok (of_cols (ji 0, jx 0) (mrows A) (dcols big (ment A) (mrows A) (mcols A))).
Proof.
  intros HM. unfold ctor_dense. destruct (Z.ltb_spec INT_MAX (Z.of_nat (count_dense big A))); [lia|]. clear HM H.
  rewrite count_dense_cols. set (CS := dcols big (ment A) (mrows A) (mcols A)).
  set (cap := Nat.max 1 (length (concat CS))).
  set (l0 := map ji (seq 0 cap)). set (x0 := map jx (seq 0 cap)).
  set (a0 := mkcsc _ _ cap _ _ _).
  destruct (for_inv (fun j st => let (k, a) := st : nat * csc T in
     j <= mcols A /\ done l0 x0 (i_ a) (x_ a) k cap (concat (dcols big (ment A) (mrows A) j)) /\
     m_ a = mrows A /\ n_ a = mcols A /\ nzmax a = cap /\ length (p_ a) = S (mcols A) /\
     firstn j (p_ a) = firstn j (ptrs 0 (dcols big (ment A) (mrows A) j)))
     (mcols A) (dense_col T big A) (0, a0)) as ((k & a) & E & _ & D & Em & En & Ez & Ep & Fp).
  - unfold a0. cbn [i_ x_ m_ n_ nzmax p_]. split; [lia|]. unfold done, l0, x0. rewrite !map_length, !seq_length.
    repeat split; auto.
  - intros j (k & a) Hj (_ & D & Em & En & Ez & Ep & Fp). unfold dense_col.
    unfold setn at 1. rewrite Ep. destruct (Nat.ltb_spec j (S (mcols A))); [|lia]. cbn [bind].
    set (a1 := mkcsc _ _ _ _ _ _).
    assert (PF : exists r, concat CS = concat (dcols big (ment A) (mrows A) (S j)) ++ r).
    { unfold CS, dcols. exists (concat (map (fun j => dpart big (ment A) j (mrows A)) (seq (S j) (mcols A - S j)))).
      rewrite <- concat_app, <- map_app, <- seq_app. do 3 f_equal. lia. }
    destruct PF as (r & PF).
    destruct (dense_entries_loop l0 x0 big A j cap (concat (dcols big (ment A) (mrows A) j)) a1 k) as (k' & a' & E' & D' & E1 & E2 & E3 & E4); auto.
    { unfold cap. rewrite PF, dcols_S, concat_app. simpl concat. rewrite app_nil_r, !app_length. lia. }
    exists (k', a'). split; auto. rewrite dcols_S.
    destruct D as ((_ & _ & Dk) & _).
    split; [lia|]. split. { rewrite concat_app. simpl concat. rewrite app_nil_r. exact D'. }
    unfold a1 in *. cbn [i_ x_ m_ n_ nzmax p_] in *. rewrite E4, upd_length.
    repeat split; try congruence.
    apply (firstn_ptrs_snoc (dcols big (ment A) (mrows A) j) (dpart big (ment A) j (mrows A)) (p_ a) k j); auto.
    + apply dcols_len.
    + lia.
  - rewrite E. cbn [bind]. unfold setn. rewrite Ep. destruct (Nat.ltb_spec (mcols A) (S (mcols A))); [|lia].
    cbn [bind]. f_equal. fold CS in D, Fp. destruct D as ((D1 & D2 & D3) & (D4 & D5) & (D6 & D7)).
    destruct (firstn_ptrs_snoc CS [] (p_ a) k (mcols A)) as (_ & Q); auto.
    { apply dcols_len. } { lia. }
    rewrite firstn_all2 in Q by (rewrite upd_length; lia). rewrite Q.
    unfold of_cols. rewrite Em, En, Ez. replace (length CS) with (mcols A) by (symmetry; apply dcols_len).
    rewrite <- (firstn_skipn k (i_ a)), <- (firstn_skipn k (x_ a)), D4, D5, D6, D7.
    assert (Hl0 : length l0 = cap) by (unfold l0; now rewrite map_length, seq_length).
    assert (Hx0 : length x0 = cap) by (unfold x0; now rewrite map_length, seq_length).
    destruct (concat CS) as [|e es] eqn:EC.
    + simpl in D3. subst k. unfold l0, x0, cap. simpl. reflexivity.
    + rewrite !skipn_all2 by (unfold cap in *; simpl in *; lia). rewrite !app_nil_r. reflexivity.
Qed.

Lemma dcols_rows {T} (big : T -> bool) A nr nc c e : In c (dcols big A nr nc) -> In e c -> fst e < nr.
Proof.
  unfold dcols. intros Hc He. apply in_map_iff in Hc. destruct Hc as (j & <- & _). unfold dpart in He.
  apply in_flat_map in He. destruct He as (i & Hi & He). apply in_seq in Hi.
  destruct (big (A i j)); [|destruct He]. destruct He as [<-|[]]. simpl. lia.
Qed.

Lemma coo_dcols {T} (big : T -> bool) (A : mat T) :
  coo (dcols big (ment A) (mrows A) (mcols A)) = dense_list big A.
Proof.
  unfold coo, coo_from, dense_list. rewrite dcols_len. unfold dcols.
  generalize (seq 0 (mcols A)) as l. induction l as [|j l IH]; [reflexivity|].
  cbn [map combine flat_map]. rewrite IH. f_equal. unfold tag, dpart.
  generalize (seq 0 (mrows A)) as r. induction r as [|i r IHr]; [reflexivity|].
  cbn [flat_map]. rewrite map_app, IHr. f_equal. destruct (big (ment A i j)); reflexivity.
Qed.

Lemma dense_ok {T} jp ji jx big (A : mat T) :
  (Z.of_nat (mrows A * mcols A) <= INT_MAX)%Z ->
  exists a, ctor_dense jp ji jx big A = Ok a /\ valid a /\ m_ a = mrows A /\ n_ a = mcols A /\
    entries a = dense_list big A.
Proof.
  intros H.
  assert (count_dense big A <= mrows A * mcols A).
  { unfold count_dense. etransitivity. apply filter_length_le'.
    clear. generalize 0 at 2 as s. induction (mrows A); intros s; simpl; auto. rewrite app_length, map_length, seq_length.
    specialize (IHn (S s)). lia. }
  rewrite ctor_dense_eq by (apply inj_le in H0; eapply Z.le_trans; eauto). eexists. split; [reflexivity|].
  split; [apply of_cols_valid; apply dcols_rows|]. split; [reflexivity|].
  split. { simpl. apply dcols_len. }
  rewrite entries_of_cols by apply dcols_rows. apply coo_dcols.
Qed.

(* ---- copy ---- *)
Lemma ctor_sizes_ok {T} jp ji (jx : nat -> T) r c n : (Z.of_nat r * Z.of_nat c <= INT_MAX)%Z -> 0 < r -> 0 < c ->
  ctor_sizes jp ji jx r c n =
  Ok (mkcsc r c (Nat.max 1 n) (map jp (seq 0 (S c))) (map ji (seq 0 (Nat.max 1 n))) (map jx (seq 0 (Nat.max 1 n)))).
Proof.
  intros H Hr Hc. unfold ctor_sizes. destruct (Z.ltb_spec INT_MAX (Z.of_nat r * Z.of_nat c)); [lia|].
  destruct (Nat.eqb_spec (r * c) 0); [lia|]. destruct (Nat.eqb_spec r 0); [lia|].
  destruct (Nat.eqb_spec c 0); [lia|]. reflexivity.
Qed.

Lemma firstn_S_upd_eq {X} (l p : list X) k v : k < length l -> nth_error p k = Some v ->
  firstn k l = firstn k p -> firstn (S k) (upd l k v) = firstn (S k) p.
Proof.
  intros Hk Hv H. rewrite Base.firstn_upd_snoc by auto. rewrite H. symmetry. now apply firstn_S_nth.
Qed.

Lemma copy_ok {T} jp ji jx (o : csc T) : valid o -> (Z.of_nat (rows o) * Z.of_nat (cols o) <= INT_MAX)%Z ->
  0 < rows o -> 0 < cols o ->
  exists a, copy_ctor jp ji jx o = Ok a /\ m_ a = m_ o /\ n_ a = n_ o /\ nzmax a = Nat.max 1 (nzmax o) /\
    length (i_ a) = nzmax a /\ length (x_ a) = nzmax a /\
    firstn (nzmax o) (i_ a) = i_ o /\ firstn (nzmax o) (x_ a) = x_ o /\ p_ a = firstn (S (n_ o)) (p_ o).
Proof.
  intros V HM Hr Hc. unfold copy_ctor. rewrite ctor_sizes_ok by auto. cbn [bind].
  unfold rows, cols, nnz in *. set (cap := Nat.max 1 (nzmax o)).
  set (a0 := mkcsc _ _ _ _ _ _). pose proof (v_ilen _ V). pose proof (v_xlen _ V). pose proof (v_plen _ V).
  match goal with |- context [for_ (nzmax o) ?f a0] => set (f1 := f) end.
  destruct (for_inv (fun k (a : csc T) => k <= nzmax o /\ length (i_ a) = cap /\ length (x_ a) = cap /\
      m_ a = m_ o /\ n_ a = n_ o /\ nzmax a = cap /\ length (p_ a) = S (n_ o) /\
      firstn k (i_ a) = firstn k (i_ o) /\ firstn k (x_ a) = firstn k (x_ o)) (nzmax o) f1 a0)
    as (a & E & _ & L1 & L2 & Em & En & Ez & Lp & F1 & F2).
  - unfold a0. cbn [i_ x_ m_ n_ nzmax p_ firstn]. rewrite !map_length, !seq_length. repeat split; auto. lia.
  - intros k a Hk (_ & L1 & L2 & Em & En & Ez & Lp & F1 & F2). unfold f1.
    destruct (nth_error_ex (i_ o) k) as (r & Hrr); [lia|]. destruct (nth_error_ex (x_ o) k) as (v & Hv); [lia|].
    rewrite (getn_ok _ _ _ Hrr), (getn_ok _ _ _ Hv). cbn [bind].
    rewrite !setn_ok by lia. cbn [bind]. eexists. split; [reflexivity|].
    cbn [i_ x_ m_ n_ nzmax p_]. rewrite !upd_length.
    split; [lia|]. repeat (split; [assumption|]). split; apply firstn_S_upd_eq; auto; lia.
  - rewrite E. cbn [bind]. clear E. set (n := n_ o) in *. 
    match goal with |- context [for_ (S n) ?f a] => set (f2 := f) end.
    destruct (for_inv (fun k (b : csc T) => k <= S n /\ i_ b = i_ a /\ x_ b = x_ a /\
      m_ b = m_ o /\ n_ b = n_ o /\ nzmax b = cap /\ length (p_ b) = S n /\
      firstn k (p_ b) = firstn k (p_ o)) (S n) f2 a)
      as (b & E & _ & I1 & X1 & Em' & En' & Ez' & Lp' & Fp).
    + repeat split; auto. lia.
    + intros k b Hk (_ & I1 & X1 & Em' & En' & Ez' & Lp' & Fp). unfold f2.
      destruct (nth_error_ex (p_ o) k) as (q & Hq); [lia|]. rewrite (getn_ok _ _ _ Hq). cbn [bind].
      rewrite setn_ok by lia. cbn [bind]. eexists. split; [reflexivity|].
      cbn [i_ x_ m_ n_ nzmax p_]. rewrite !upd_length.
      split; [lia|]. repeat (split; [assumption|]). apply firstn_S_upd_eq; auto; lia.
    + exists b. split; auto. rewrite I1, X1, Ez'. repeat split; auto.
      * rewrite F1. rewrite <- H. apply firstn_all.
      * rewrite F2. rewrite <- H0. apply firstn_all.
      * rewrite <- Fp. rewrite <- Lp'. symmetry. apply firstn_all.
Qed.

Lemma nth_firstn_lt {X} (l : list X) k n : k < n -> nth_error (firstn n l) k = nth_error l k.
Proof.
  revert k n; induction l; intros [|k] [|n] H; simpl; try lia; auto. apply IHl. lia.
Qed.

Lemma extend_same {T} (o a : csc T) : valid o -> m_ a = m_ o -> n_ a = n_ o ->
  nzmax o <= nzmax a -> length (i_ a) = nzmax a -> length (x_ a) = nzmax a ->
  firstn (nzmax o) (i_ a) = i_ o -> firstn (nzmax o) (x_ a) = x_ o -> p_ a = firstn (S (n_ o)) (p_ o) ->
  valid a /\ entries a = entries o.
Proof.
  intros V Em En Hz Li Lx Fi Fx Fp. pose proof (v_plen _ V).
  assert (PN : forall j, j <= n_ o -> nth_error (p_ a) j = nth_error (p_ o) j).
  { intros j Hj. rewrite Fp. apply nth_firstn_lt. lia. }
  split.
  - constructor; rewrite ?Em, ?En.
    + rewrite Fp, firstn_length. lia.
    + rewrite PN by lia. apply (v_p0 _ V).
    + intros j u v Hj. rewrite !PN by lia. apply (v_mono _ V). auto.
    + intros u. rewrite PN by lia. intros Q. apply (v_last _ V) in Q. lia.
    + auto.
    + auto.
    + intros u k r Hu Hk Hr. rewrite PN in Hu by lia. apply (v_rows _ V u k); auto.
      rewrite <- Fi. rewrite nth_firstn_lt; auto. pose proof (v_last _ V _ Hu). lia.
  - unfold entries. rewrite En. apply flat_map_ext_in'. intros j Hj. apply in_seq in Hj.
    rewrite !PN by lia. destruct (nth_error (p_ o) j) as [u|] eqn:Eu; auto.
    destruct (nth_error (p_ o) (S j)) as [v|] eqn:Ev; auto.
    apply flat_map_ext_in'. intros k Hk. apply in_seq in Hk.
    assert (v <= nzmax o).
    { rewrite <- (nth_nth_error _ _ 0 _ Ev). etransitivity. apply mono_le with (j := n_ o); auto; lia.
      apply (v_last _ V). apply CscProofs.nth_error_nth'. lia. }
    rewrite <- Fi, <- Fx, !nth_firstn_lt by lia. reflexivity.
Qed.
