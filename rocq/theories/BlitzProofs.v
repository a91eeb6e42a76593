From Coq Require Import ZArith List Lia Bool Permutation Sorted.
From Verif Require Import Base Loops BlitzModel BlitzSpec.
Import ListNotations.

Lemma getn_ok {A} (l : list A) i x : nth_error l i = Some x -> getn l i = Ok x.
Proof. unfold getn. now intros ->. Qed.
Lemma setn_ok {A} (l : list A) i (x : A) : i < length l -> setn l i x = Ok (upd l i x).
Proof. intros. unfold setn. destruct (Nat.ltb_spec i (length l)); auto; lia. Qed.

Lemma nth_error_upd_if {A} (l : list A) i j v : i < length l ->
  nth_error (upd l i v) j = if j =? i then Some v else nth_error l j.
Proof.
  intros. destruct (Nat.eqb_spec j i).
  - subst. now apply nth_error_upd_eq.
  - apply nth_error_upd_neq. auto.
Qed.

Lemma nth_error_Some_lt {A} (l : list A) i x : nth_error l i = Some x -> i < length l.
Proof. intros H. apply nth_error_Some. congruence. Qed.

Lemma nth_error_ex {A} (l : list A) i : i < length l -> exists x, nth_error l i = Some x.
Proof. intros. destruct (nth_error l i) eqn:E; eauto. apply nth_error_None in E. lia. Qed.

(* ---------- reshape ---------- *)
Section Reshape.
Context {T : Type}.

(* generic double loop visiting (a,b) with a outer over n1, b inner over n2 *)
Lemma to1d_outer (m : mat T) (f : nat -> nat -> nat * nat) n1 n2 (arr : list T) :
  n1 * n2 <= length arr ->
  (forall a b, a < n1 -> b < n2 -> fst (f a b) < mrows m /\ snd (f a b) < mcols m) ->
  exists arr',
    for_ n1 (fun a => for_ n2 (fun b => put_next m (fst (f a b)) (snd (f a b)))) (arr, 0)
      = Ok (arr', n1 * n2) /\
    length arr' = length arr /\
    (forall a b, a < n1 -> b < n2 -> nth_error arr' (a * n2 + b) = Some (ment m (fst (f a b)) (snd (f a b)))) /\
    (forall k, n1 * n2 <= k -> nth_error arr' k = nth_error arr k).
Proof.
  intros Hlen Hf.
  destruct (for_inv (S := list T * nat) (fun i st => let '(ar, k) := st in
      k = i * n2 /\ length ar = length arr /\
      (forall a b, a < i -> b < n2 -> nth_error ar (a * n2 + b) = Some (ment m (fst (f a b)) (snd (f a b)))) /\
      (forall k', k <= k' -> nth_error ar k' = nth_error arr k')) n1
      (fun a => for_ n2 (fun b => put_next m (fst (f a b)) (snd (f a b)))) (arr, 0)) as ((ar & k) & E & P).
  - repeat split; auto; try (intros; lia).
  - intros i (ar & k) Hi (-> & Hl & H1 & H2).
    destruct (for_inv (S := list T * nat) (fun j st => let '(ar, k) := st in
      k = i * n2 + j /\ length ar = length arr /\
      (forall a b, a < i -> b < n2 -> nth_error ar (a * n2 + b) = Some (ment m (fst (f a b)) (snd (f a b)))) /\
      (forall b, b < j -> nth_error ar (i * n2 + b) = Some (ment m (fst (f i b)) (snd (f i b)))) /\
      (forall k', k <= k' -> nth_error ar k' = nth_error arr k')) n2
      (fun b => put_next m (fst (f i b)) (snd (f i b))) (ar, i * n2)) as ((ar2 & k2) & E2 & P2).
    + repeat split; auto; try lia; try (intros; lia).
    + intros j (ar3 & k3) Hj (-> & Hl3 & A1 & A2 & A3).
      assert (i * n2 + j < length ar3) as Hk by nia.
      unfold put_next. destruct (Hf i j Hi Hj).
      rewrite mget_ok by auto. cbn [bind]. rewrite setn_ok by auto. cbn [bind].
      eexists. split; [reflexivity|]. cbn beta iota.
      split; [lia|]. split; [now rewrite upd_length|].
      split; [|split].
      * intros a b Ha Hb. rewrite nth_error_upd_neq by nia. auto.
      * intros b Hb. rewrite nth_error_upd_if by auto.
        destruct (Nat.eqb_spec (i * n2 + b) (i * n2 + j)).
        -- now replace b with j by lia.
        -- apply A2. lia.
      * intros k' Hk'. rewrite nth_error_upd_neq by lia. apply A3. lia.
    + destruct P2 as (-> & Hl2 & A1 & A2 & A3).
      exists (ar2, i * n2 + n2). split; [exact E2|].
      split; [lia|]. split; [auto|]. split.
      * intros a b Ha Hb. destruct (Nat.eq_dec a i); [subst; auto|]. apply A1; auto; lia.
      * intros k' Hk'. apply A3. lia.
  - destruct P as (-> & Hl & H1 & H2). exists ar. auto.
Qed.

Lemma from1d_outer (arr : list T) (f : nat -> nat -> nat * nat) n1 n2 (m : mat T) :
  n1 * n2 <= length arr ->
  (forall a b, a < n1 -> b < n2 -> fst (f a b) < mrows m /\ snd (f a b) < mcols m) ->
  (forall a b a' b', f a b = f a' b' -> a = a' /\ b = b') ->
  exists m',
    for_ n1 (fun a => for_ n2 (fun b => take_next arr (fst (f a b)) (snd (f a b)))) (m, 0)
      = Ok (m', n1 * n2) /\
    mrows m' = mrows m /\ mcols m' = mcols m /\
    (forall a b, a < n1 -> b < n2 -> nth_error arr (a * n2 + b) = Some (ment m' (fst (f a b)) (snd (f a b)))).
Proof.
  intros Hlen Hf Hinj.
  assert (Hne : forall a b a' b', (a <> a' \/ b <> b') ->
     (fst (f a b) =? fst (f a' b')) && (snd (f a b) =? snd (f a' b')) = false).
  { intros. apply not_true_iff_false. rewrite andb_true_iff, !Nat.eqb_eq. intros (X & Y).
    destruct (Hinj a b a' b'); [|lia]. destruct (f a b), (f a' b'); simpl in *; congruence. }
  destruct (for_inv (S := mat T * nat) (fun i st => let '(m', k) := st in
      k = i * n2 /\ mrows m' = mrows m /\ mcols m' = mcols m /\
      (forall a b, a < i -> b < n2 -> nth_error arr (a * n2 + b) = Some (ment m' (fst (f a b)) (snd (f a b))))) n1
      (fun a => for_ n2 (fun b => take_next arr (fst (f a b)) (snd (f a b)))) (m, 0)) as ((m1 & k) & E & P).
  - repeat split; auto; try (intros; lia).
  - intros i (m1 & k) Hi (-> & Hr & Hc & H1).
    destruct (for_inv (S := mat T * nat) (fun j st => let '(m', k) := st in
      k = i * n2 + j /\ mrows m' = mrows m /\ mcols m' = mcols m /\
      (forall a b, a < i -> b < n2 -> nth_error arr (a * n2 + b) = Some (ment m' (fst (f a b)) (snd (f a b)))) /\
      (forall b, b < j -> nth_error arr (i * n2 + b) = Some (ment m' (fst (f i b)) (snd (f i b))))) n2
      (fun b => take_next arr (fst (f i b)) (snd (f i b))) (m1, i * n2)) as ((m2 & k2) & E2 & P2).
    + repeat split; auto; try lia; try (intros; lia).
    + intros j (m3 & k3) Hj (-> & Hr3 & Hc3 & A1 & A2).
      destruct (nth_error_ex arr (i * n2 + j)) as (x & Hx); [nia|].
      unfold take_next. rewrite (getn_ok _ _ _ Hx). cbn [bind].
      destruct (Hf i j Hi Hj). unfold mset. rewrite inb_true by congruence. cbn [bind].
      eexists. split; [reflexivity|]. cbn [mrows mcols ment].
      split; [lia|]. split; [auto|]. split; [auto|]. split.
      * intros a b Ha Hb. rewrite Hne by lia. auto.
      * intros b Hb. destruct (Nat.eq_dec b j).
        -- subst b. rewrite !Nat.eqb_refl. exact Hx.
        -- rewrite Hne by lia. apply A2. lia.
    + destruct P2 as (-> & Hr2 & Hc2 & A1 & A2).
      exists (m2, i * n2 + n2). split; [exact E2|].
      split; [lia|]. split; [auto|]. split; [auto|].
      intros a b Ha Hb. destruct (Nat.eq_dec a i); [subst; auto|]. apply A1; auto; lia.
  - destruct P as (-> & Hr & Hc & H1). exists m1. auto.
Qed.

Lemma to1d_spec (m : mat T) byRows arr : mrows m * mcols m <= length arr ->
  exists arr', reshapeMatTo1D m byRows arr = Ok arr' /\ length arr' = length arr /\
    (forall i j, i < mrows m -> j < mcols m ->
       nth_error arr' (flat_index byRows (mrows m) (mcols m) i j) = Some (ment m i j)) /\
    (forall k, mrows m * mcols m <= k -> nth_error arr' k = nth_error arr k).
Proof.
  intros Hlen. unfold reshapeMatTo1D. destruct byRows.
  - destruct (to1d_outer m (fun a b => (a, b)) (mrows m) (mcols m) arr Hlen) as (arr' & E & L & H1 & H2); [auto|].
    exists arr'. simpl in E. rewrite E. simpl. auto.
  - destruct (to1d_outer m (fun a b => (b, a)) (mcols m) (mrows m) arr) as (arr' & E & L & H1 & H2); [lia|auto|].
    exists arr'. simpl in E. rewrite E. simpl. split; [auto|]. split; [auto|]. split.
    + intros. rewrite Nat.add_comm. apply H1; auto.
    + intros. apply H2. lia.
Qed.

Lemma from1d_spec (m : mat T) byRows arr : mrows m * mcols m <= length arr ->
  exists m', reshape1DToMat arr byRows m = Ok m' /\ mrows m' = mrows m /\ mcols m' = mcols m /\
    (forall i j, i < mrows m -> j < mcols m ->
       nth_error arr (flat_index byRows (mrows m) (mcols m) i j) = Some (ment m' i j)).
Proof.
  intros Hlen. unfold reshape1DToMat. destruct byRows.
  - destruct (from1d_outer arr (fun a b => (a, b)) (mrows m) (mcols m) m Hlen) as (m' & E & R & C & H1); [auto|..].
    { intros ? ? ? ? H; inversion H; auto. }
    exists m'. simpl in E. rewrite E. simpl. auto.
  - destruct (from1d_outer arr (fun a b => (b, a)) (mcols m) (mrows m) m) as (m' & E & R & C & H1); [lia|auto|..].
    { intros ? ? ? ? H; inversion H; auto. }
    exists m'. simpl in E. rewrite E. simpl. repeat split; auto.
    intros. rewrite Nat.add_comm. apply H1; auto.
Qed.

Lemma roundtrip_mat (m m0 : mat T) byRows arr :
  mrows m0 = mrows m -> mcols m0 = mcols m -> mrows m * mcols m <= length arr ->
  exists arr' m', reshapeMatTo1D m byRows arr = Ok arr' /\
    reshape1DToMat arr' byRows m0 = Ok m' /\ meq m' m.
Proof.
  intros Hr Hc Hl. destruct (to1d_spec m byRows arr Hl) as (arr' & E & L & H1 & H2).
  destruct (from1d_spec m0 byRows arr') as (m' & E' & R & C & H3); [rewrite Hr, Hc; lia|].
  exists arr', m'. split; [auto|]. split; [auto|]. split; [congruence|]. split; [congruence|].
  intros i j Hi Hj. specialize (H3 i j). rewrite Hr, Hc in H3.
  rewrite R in Hi. rewrite C in Hj. rewrite H1 in H3 by congruence.
  specialize (H3 ltac:(congruence) ltac:(congruence)). congruence.
Qed.

Lemma flat_cover byRows rows cols k : k < rows * cols ->
  exists i j, i < rows /\ j < cols /\ flat_index byRows rows cols i j = k.
Proof.
  intros H. destruct byRows; unfold flat_index.
  - assert (cols <> 0) by nia.
    exists (k / cols), (k mod cols). split; [|split].
    + apply Nat.div_lt_upper_bound; lia.
    + now apply Nat.mod_upper_bound.
    + pose proof (Nat.div_mod k cols). lia.
  - assert (rows <> 0) by nia.
    exists (k mod rows), (k / rows). split; [|split].
    + now apply Nat.mod_upper_bound.
    + apply Nat.div_lt_upper_bound; lia.
    + pose proof (Nat.div_mod k rows). lia.
Qed.

Lemma list_ext_nth {A} (a b : list A) : (forall i, nth_error a i = nth_error b i) -> a = b.
Proof.
  revert b; induction a; destruct b; intros H; auto.
  - specialize (H 0); discriminate.
  - specialize (H 0); discriminate.
  - f_equal. { specialize (H 0). simpl in H. congruence. }
    apply IHa. intros i. apply (H (S i)).
Qed.

Lemma roundtrip_arr (arr arr0 : list T) (m0 : mat T) byRows :
  length arr = mrows m0 * mcols m0 -> length arr0 = length arr ->
  exists m' arr', reshape1DToMat arr byRows m0 = Ok m' /\
    reshapeMatTo1D m' byRows arr0 = Ok arr' /\ arr' = arr.
Proof.
  intros Hl Hl0. destruct (from1d_spec m0 byRows arr) as (m' & E & R & C & H); [lia|].
  destruct (to1d_spec m' byRows arr0) as (arr' & E' & L & H1 & H2); [rewrite R, C; lia|].
  exists m', arr'. repeat split; auto. apply list_ext_nth. intros k.
  destruct (Nat.lt_ge_cases k (length arr)).
  - rewrite Hl in H0. destruct (flat_cover byRows _ _ k H0) as (i & j & Hi & Hj & <-).
    rewrite (H i j Hi Hj). rewrite R, C in H1. apply H1; auto.
  - rewrite (proj2 (nth_error_None arr k)) by lia. apply nth_error_None. lia.
Qed.

Lemma applyIndexMap_ok (vec : list T) (map : list nat) (out : list T) :
  length map <= length out -> (forall k ix, nth_error map k = Some ix -> ix < length vec) ->
  exists out', applyIndexMap vec map out = Ok out' /\ length out' = length out /\
    (forall k ix, nth_error map k = Some ix -> nth_error out' k = nth_error vec ix) /\
    (forall k, length map <= k -> nth_error out' k = nth_error out k).
Proof.
  intros Hl Hr. unfold applyIndexMap.
  destruct (for_inv (S := list T) (fun i o => length o = length out /\
     (forall k ix, k < i -> nth_error map k = Some ix -> nth_error o k = nth_error vec ix) /\
     (forall k, i <= k -> nth_error o k = nth_error out k)) (length map)
     (fun k out => bind (getn map k) (fun ix => bind (getn vec ix) (fun x => setn out k x))) out)
     as (o & E & (L & H1 & H2)).
  - repeat split; auto; try (intros; lia).
  - intros i o Hi (L & H1 & H2).
    destruct (nth_error_ex map i Hi) as (ix & Hix).
    destruct (nth_error_ex vec ix (Hr _ _ Hix)) as (x & Hx).
    rewrite (getn_ok _ _ _ Hix). cbn [bind]. rewrite (getn_ok _ _ _ Hx). cbn [bind].
    rewrite setn_ok by lia. eexists. split; [reflexivity|].
    split; [now rewrite upd_length|]. split.
    + intros k ix' Hk Hix'. rewrite nth_error_upd_if by lia.
      destruct (Nat.eqb_spec k i).
      * subst. congruence.
      * apply H1; auto. lia.
    + intros k Hk. rewrite nth_error_upd_neq by lia. apply H2. lia.
  - exists o. split; [auto|]. split; [auto|]. split; [|auto].
    intros k ix Hk. apply H1; auto. eapply nth_error_Some_lt; eauto.
Qed.

End Reshape.

(* ---------- kron ---------- *)
Section Kron.
Context {T : Type}.
Variable mul : T -> T -> T.

Lemma kron_square junk (A B : mat T) : mrows A = mcols A ->
  exists C, kron mul junk A B = Ok C /\ mrows C = mrows A * mrows B /\ mcols C = mcols A * mcols B /\
   forall i j p q, i < mrows A -> j < mcols A -> p < mrows B -> q < mcols B ->
     ment C (j * mrows B + p) (i * mcols B + q) = mul (ment A i j) (ment B p q).
Proof.
  intros Hsq. unfold kron.
  set (Br := mrows B). set (Bc := mcols B). set (Ar := mrows A) in *. set (Ac := mcols A) in *.
  destruct (for_inv (S := mat T) (fun i C => mrows C = Ar * Br /\ mcols C = Ac * Bc /\
     forall i' j p q, i' < i -> j < Ac -> p < Br -> q < Bc ->
       ment C (j * Br + p) (i' * Bc + q) = mul (ment A i' j) (ment B p q)) Ar
    (fun i => for_ Ac (fun j C =>
    bind (mget A i j) (fun a =>
    for_ Br (fun p => for_ Bc (fun q C =>
      bind (mget B p q) (fun b => mset C (j * Br + p) (i * Bc + q) (mul a b)))) C)))
    (mkmat (Ar * Br) (Ac * Bc) junk)) as (C & E & P).
  - repeat split; auto; try (intros; lia).
  - intros i C Hi (Hr & Hc & H1).
    destruct (for_inv (S := mat T) (fun j0 C => mrows C = Ar * Br /\ mcols C = Ac * Bc /\
       forall i' j p q, (i' < i \/ i' = i /\ j < j0) -> j < Ac -> p < Br -> q < Bc ->
       ment C (j * Br + p) (i' * Bc + q) = mul (ment A i' j) (ment B p q)) Ac
      (fun j C =>
    bind (mget A i j) (fun a =>
    for_ Br (fun p => for_ Bc (fun q C =>
      bind (mget B p q) (fun b => mset C (j * Br + p) (i * Bc + q) (mul a b)))) C)) C) as (C1 & E1 & P1).
    + repeat split; auto. intros i' j p q [H|H]; [auto|lia].
    + intros j C1 Hj (Hr1 & Hc1 & H2). rewrite mget_ok by auto. cbn [bind].
      destruct (for_inv (S := mat T) (fun p0 C => mrows C = Ar * Br /\ mcols C = Ac * Bc /\
       forall i' j' p q, (i' < i \/ i' = i /\ (j' < j \/ j' = j /\ p < p0)) -> j' < Ac -> p < Br -> q < Bc ->
         ment C (j' * Br + p) (i' * Bc + q) = mul (ment A i' j') (ment B p q)) Br
       (fun p => for_ Bc (fun q C =>
      bind (mget B p q) (fun b => mset C (j * Br + p) (i * Bc + q) (mul (ment A i j) b)))) C1) as (C2 & E2 & P2).
      * repeat split; auto. intros i' j' p q Hx. apply H2. lia.
      * intros p C2 Hp (Hr2 & Hc2 & H3).
        destruct (for_inv (S := mat T) (fun q0 C => mrows C = Ar * Br /\ mcols C = Ac * Bc /\
         forall i' j' p' q, (i' < i \/ i' = i /\ (j' < j \/ j' = j /\ (p' < p \/ p' = p /\ q < q0))) ->
           j' < Ac -> p' < Br -> q < Bc ->
           ment C (j' * Br + p') (i' * Bc + q) = mul (ment A i' j') (ment B p' q)) Bc
         (fun q C => bind (mget B p q) (fun b => mset C (j * Br + p) (i * Bc + q) (mul (ment A i j) b))) C2)
         as (C3 & E3 & P3).
        -- repeat split; auto. intros i' j' p' q Hx. apply H3. lia.
        -- intros q C3 Hq (Hr3 & Hc3 & H4). rewrite mget_ok by auto. cbn [bind].
           unfold mset. rewrite inb_true by (rewrite ?Hr3, ?Hc3; nia).
           eexists. split; [reflexivity|]. cbn [mrows mcols ment]. split; [auto|]. split; [auto|].
           intros i' j' p' q' Hx Hj' Hp' Hq'.
           destruct (Nat.eqb_spec (j' * Br + p') (j * Br + p)); destruct (Nat.eqb_spec (i' * Bc + q') (i * Bc + q)); cbn [andb].
           ++ assert (j' = j) by nia. assert (i' = i) by nia. subst. 
              assert (p' = p) by lia. assert (q' = q) by lia. now subst.
           ++ apply H4; auto. nia.
           ++ apply H4; auto. nia.
           ++ apply H4; auto. nia.
        -- exists C3. split; [exact E3|]. destruct P3 as (Hr3 & Hc3 & H4). split; [auto|]. split; [auto|].
           intros. apply H4; auto. lia.
      * exists C2. split; [exact E2|]. destruct P2 as (Hr2 & Hc2 & H3). split; [auto|]. split; [auto|].
        intros. apply H3; auto. lia.
    + exists C1. split; [exact E1|]. destruct P1 as (Hr1 & Hc1 & H2). split; [auto|]. split; [auto|].
      intros. apply H2; auto. lia.
  - exists C. split; [exact E|]. exact P.
Qed.

Lemma kron_is_transposed junk (A B : mat T) : mrows A = mcols A ->
  exists C, kron mul junk A B = Ok C /\ meq C (kronecker mul (mtranspose A) B).
Proof.
  intros Hsq. destruct (kron_square junk A B Hsq) as (C & E & R & Cc & H).
  exists C. split; [auto|]. split; [simpl; congruence|]. split; [simpl; congruence|].
  intros r c Hr Hc. rewrite R in Hr. rewrite Cc in Hc. simpl.
  assert (mrows B <> 0) as B1 by nia. assert (mcols B <> 0) as B2 by nia.
  pose proof (Nat.div_mod r (mrows B) B1) as D1. pose proof (Nat.div_mod c (mcols B) B2) as D2.
  pose proof (Nat.mod_upper_bound r (mrows B) B1). pose proof (Nat.mod_upper_bound c (mcols B) B2).
  assert (r / mrows B < mcols A) by (apply Nat.div_lt_upper_bound; lia).
  assert (c / mcols B < mrows A) by (apply Nat.div_lt_upper_bound; lia).
  rewrite <- H by auto. f_equal; lia.
Qed.

Lemma kron_correct_iff zero junk (A B : mat T) :
  (forall a b c, mul a c = mul b c -> a = b \/ c = zero) ->
  (forall a, mul a zero = zero) ->
  mrows A = mcols A ->
  exists C, kron mul junk A B = Ok C /\
   (meq C (kronecker mul A B) <->
    (forall i j, i < mrows A -> j < mrows A -> ment A i j = ment A j i) \/
    (forall p q, p < mrows B -> q < mcols B -> ment B p q = zero)).
Proof.
  intros Hc Hz Hsq. destruct (kron_square junk A B Hsq) as (C & E & R & Cc & H).
  exists C. split; [auto|].
  assert (K : forall i j p q, i < mrows A -> j < mcols A -> p < mrows B -> q < mcols B ->
     ment (kronecker mul A B) (i * mrows B + p) (j * mcols B + q) = mul (ment A i j) (ment B p q)).
  { intros. simpl. rewrite !Nat.div_add_l, !Nat.div_small by lia.
    rewrite (Nat.add_comm (i * _)), (Nat.add_comm (j * _)), !Nat.mod_add, !Nat.mod_small by lia.
    now rewrite !Nat.add_0_r. }
  split.
  - intros (_ & _ & Q).
    assert (D : (forall p q, p < mrows B -> q < mcols B -> ment B p q = zero) \/
       forall i j, i < mrows A -> j < mrows A -> ment A i j = ment A j i).
    2: tauto.
    assert (G : forall p q, p < mrows B -> q < mcols B -> ment B p q = zero \/
               forall i j, i < mrows A -> j < mrows A -> ment A i j = ment A j i).
    { intros p q Hp Hq.
      assert (forall i j, i < mrows A -> j < mrows A -> ment A i j = ment A j i \/ ment B p q = zero).
      { intros i j Hi Hj. apply Hc. rewrite <- (H i j) by congruence. rewrite <- K by congruence.
        apply Q; rewrite ?R, ?Cc; nia. }
      assert (forall n, n <= mrows A -> ment B p q = zero \/ forall i j, i < n -> j < mrows A -> ment A i j = ment A j i) as L.
      { induction n; intros Hn; [right; lia|]. destruct IHn as [|I]; [lia|auto|].
        assert (forall k, k <= mrows A -> ment B p q = zero \/ forall j, j < k -> ment A n j = ment A j n) as L2.
        { induction k; intros Hk; [right; lia|]. destruct IHk as [|I2]; [lia|auto|].
          destruct (H0 n k); [lia|lia| |auto]. right. intros j Hj. destruct (Nat.eq_dec j k); [congruence|apply I2; lia]. }
        destruct (L2 (mrows A) ltac:(lia)) as [|I2]; [auto|]. right.
        intros i j Hi Hj. destruct (Nat.eq_dec i n); [subst; auto|apply I; lia]. }
      apply (L (mrows A)). lia. }
    assert (forall n, n <= mrows B -> (forall p q, p < n -> q < mcols B -> ment B p q = zero) \/
         forall i j, i < mrows A -> j < mrows A -> ment A i j = ment A j i) as L.
    { induction n; intros Hn; [left; lia|]. destruct IHn as [I|]; [lia| |auto].
      assert (forall k, k <= mcols B -> (forall q, q < k -> ment B n q = zero) \/
           forall i j, i < mrows A -> j < mrows A -> ment A i j = ment A j i) as L2.
      { induction k; intros Hk; [left; lia|]. destruct IHk as [I2|]; [lia| |auto].
        destruct (G n k); [lia|lia| |auto]. left. intros q Hq. destruct (Nat.eq_dec q k); [congruence|apply I2; lia]. }
      destruct (L2 (mcols B) ltac:(lia)) as [I2|]; [|auto]. left.
      intros p q Hp Hq. destruct (Nat.eq_dec p n); [subst; auto|apply I; lia]. }
    apply (L (mrows B)). lia.
  - intros S. split; [simpl; congruence|]. split; [simpl; congruence|].
    intros r c Hr Hc'. rewrite R in Hr. rewrite Cc in Hc'.
    assert (mrows B <> 0) as B1 by nia. assert (mcols B <> 0) as B2 by nia.
    pose proof (Nat.div_mod r (mrows B) B1) as D1. pose proof (Nat.div_mod c (mcols B) B2) as D2.
    pose proof (Nat.mod_upper_bound r (mrows B) B1). pose proof (Nat.mod_upper_bound c (mcols B) B2).
    assert (r / mrows B < mrows A) by (apply Nat.div_lt_upper_bound; lia).
    assert (c / mcols B < mcols A) by (apply Nat.div_lt_upper_bound; lia).
    replace r with (r / mrows B * mrows B + r mod mrows B) by lia.
    replace c with (c / mcols B * mcols B + c mod mcols B) by lia.
    rewrite K by auto. rewrite H by congruence.
    destruct S as [S|S].
    + rewrite S by congruence. reflexivity.
    + rewrite S by auto. now rewrite !Hz.
Qed.

(* non-square, everything non-empty: some write is outside the result *)
Lemma for_from_not_ok {S} (P : nat -> S -> Prop) n : forall lo body (s : S) bad,
  P lo s -> lo <= bad < lo + n ->
  (forall i s, lo <= i < bad -> P i s -> body i s = UB \/ exists s', body i s = Ok s' /\ P (Datatypes.S i) s') ->
  (forall s, P bad s -> body bad s = UB) ->
  for_from lo n body s = UB.
Proof.
  induction n; intros lo body s bad H0 Hb Hs Hu; [lia|]. simpl.
  destruct (Nat.eq_dec lo bad).
  - subst. rewrite Hu by auto. reflexivity.
  - destruct (Hs lo s) as [E | (s1 & E & P1)]; [lia|auto| |]; rewrite E; [reflexivity|]. simpl.
    apply IHn with bad; auto; [lia|]. intros. apply Hs; [lia|auto].
Qed.

Lemma for_inv_or_ub {S} (P : S -> Prop) n : forall lo body (s : S),
  P s -> (forall i s, P s -> body i s = UB \/ exists s', body i s = Ok s' /\ P s') ->
  for_from lo n body s = UB \/ exists s', for_from lo n body s = Ok s' /\ P s'.
Proof.
  induction n; intros lo body s H0 Hs; simpl; [eauto|].
  destruct (Hs lo s H0) as [E | (s1 & E & P1)]; rewrite E; simpl; auto.
Qed.

Lemma kron_nonsquare junk (A B : mat T) :
  mrows A <> mcols A -> 0 < mrows A -> 0 < mcols A -> 0 < mrows B -> 0 < mcols B ->
  kron mul junk A B = UB.
Proof.
  intros Hne HA1 HA2 HB1 HB2. unfold kron, for_.
  set (shape := fun C : mat T => mrows C = mrows A * mrows B /\ mcols C = mcols A * mcols B).
  assert (HW : forall i j a C, shape C ->
     for_from 0 (mrows B) (fun p => for_from 0 (mcols B) (fun q C =>
        bind (mget B p q) (fun b => mset C (j * mrows B + p) (i * mcols B + q) (mul a b)))) C = UB \/
     exists C', for_from 0 (mrows B) (fun p => for_from 0 (mcols B) (fun q C =>
        bind (mget B p q) (fun b => mset C (j * mrows B + p) (i * mcols B + q) (mul a b)))) C = Ok C' /\ shape C').
  { intros i j a C HC. apply for_inv_or_ub; auto. intros p C1 HC1. apply for_inv_or_ub; auto.
    intros q C2 HC2. unfold mget. destruct (inb B p q); [|auto]. cbn [bind]. unfold mset.
    destruct (inb C2 _ _); [|auto]. right. eexists. split; [reflexivity|]. destruct HC2. split; auto. }
  assert (HBad : forall i j a C, shape C -> (mrows A <= j \/ mcols A <= i) ->
     for_from 0 (mrows B) (fun p => for_from 0 (mcols B) (fun q C =>
        bind (mget B p q) (fun b => mset C (j * mrows B + p) (i * mcols B + q) (mul a b)))) C = UB).
  { intros i j a C (Hr & Hc) Hbad. destruct (mrows B) eqn:E1; [lia|]. destruct (mcols B) eqn:E2; [lia|].
    cbn [for_from]. rewrite mget_ok by lia. cbn [bind]. unfold mset, inb. rewrite Hr, Hc.
    destruct (Nat.ltb_spec (j * S n + 0) (mrows A * S n)); [|reflexivity].
    destruct (Nat.ltb_spec (i * S n0 + 0) (mcols A * S n0)); [|reflexivity]. nia. }
  destruct (Nat.lt_ge_cases (mrows A) (mcols A)).
  - apply for_from_not_ok with (P := fun i C => shape C) (bad := 0); [split; reflexivity|lia|intros; lia|].
    intros C HC. apply for_from_not_ok with (P := fun j C => shape C) (bad := mrows A); [auto|lia| |].
    + intros j C1 Hj HC1. rewrite mget_ok by lia. cbn [bind]. apply HW; auto.
    + intros C1 HC1. rewrite mget_ok by lia. cbn [bind]. apply HBad; auto.
  - apply for_from_not_ok with (P := fun i C => shape C) (bad := mcols A); [split; reflexivity|lia| |].
    + intros i C Hi HC. apply for_inv_or_ub; auto. intros j C1 HC1. unfold mget.
      destruct (inb A i j); [|auto]. cbn [bind]. apply HW; auto.
    + intros C HC. destruct (mcols A) eqn:EA; [lia|]. cbn [for_from].
      rewrite mget_ok by lia. cbn [bind]. rewrite HBad by (auto; lia). reflexivity.
Qed.

End Kron.
