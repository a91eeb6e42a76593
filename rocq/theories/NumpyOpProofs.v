(* NumpyOpProofs.v - the sparse operator, Vandermonde matrices, and arrays in other layouts. *)
From Coq Require Import ZArith List Bool Lia Arith.
From Verif Require Import Base Loops CscModel CscSpec Num JacobiModel Nodes1DModel BlitzModel DenseModel NumpyModel NumpySpec NumpyProofs.
Import ListNotations.
Local Open Scope nat_scope.

Section Op.
Context {B T : Type} (c : ctype B T) (Hc : ctype_ok c) (ofn : nat -> T).

(* an array of n elements whose first elements are l *)
Definition filled (shape : list nat) (l : list T) : ndarray B :=
  NdArray (flat_map (encode c) l ++ repeat (zbyte c) ((product_of shape - length l) * width c)) 0 (width c) shape (c_strides (width c) shape).
Lemma filled_nil shape : filled shape [] = zeros (zbyte c) (width c) shape.
Proof. unfold filled, zeros. cbn. now rewrite Nat.sub_0_r. Qed.
Lemma put_next shape l v : length l < product_of shape -> put c (filled shape l) (length l) v = Ok (filled shape (l ++ [v])).
Proof.
  intros H. unfold put, filled, store; cbn [nd_bytes nd_data nd_item nd_shape nd_strides].
  rewrite app_length, (enc_len c Hc), repeat_length, (ct_len c Hc).
  assert (E : (0 + length l * width c + width c <=? length l * width c + (product_of shape - length l) * width c) = true)
    by (apply Nat.leb_le; nia). rewrite E. cbn [bind]. do 2 f_equal.
  rewrite Nat.add_0_l, firstn_app, (enc_len c Hc), Nat.sub_diag, firstn_all2 by (rewrite (enc_len c Hc); lia). cbn [firstn].
  rewrite app_nil_r, flat_map_app. cbn [flat_map]. rewrite app_nil_r, <- app_assoc. f_equal. f_equal.
  rewrite skipn_app, (enc_len c Hc), skipn_all2 by (rewrite (enc_len c Hc); lia). rewrite app_nil_l.
  replace (length l * width c + width c - length l * width c) with (width c) by lia. rewrite app_length. cbn [length].
  replace ((product_of shape - length l) * width c) with (width c + (product_of shape - (length l + 1)) * width c) by nia.
  rewrite repeat_app, skipn_app, repeat_length, Nat.sub_diag, skipn_all2 by (rewrite repeat_length; lia). reflexivity.
Qed.

Definition triple (e : nat * nat * T) : list T := [ofn (row_of e); ofn (col_of e); val_of e].
Lemma triples_len (l : list (nat * nat * T)) : length (flat_map triple l) = 3 * length l.
Proof. induction l; simpl; auto. rewrite IHl. lia. Qed.

Definition upto (m : csc T) (j : nat) : list (nat * nat * T) :=
  flat_map (fun j =>
    match nth_error (p_ m) j, nth_error (p_ m) (S j) with
    | Some u, Some v =>
        flat_map (fun k => match nth_error (i_ m) k, nth_error (x_ m) k with
                           | Some r, Some x => [(r, j, x)] | _, _ => [] end) (seq u (v - u))
    | _, _ => [] end) (seq 0 j).

Lemma get_operator_ok m : valid m -> length (entries m) <= nnz m /\ get_operator c ofn m = Ok (filled [nnz m; 3] (flat_map triple (entries m))).
Proof.
  intros Hv. unfold get_operator.
  set (body := fun j st => _).
  assert (Hp : forall j, j <= n_ m -> exists u, nth_error (p_ m) j = Some u /\ u <= nzmax m).
  { intros j Hj. remember (n_ m - j) as d. revert j Hj Heqd. induction d; intros j Hj E.
    - assert (j = n_ m) by lia. subst j. destruct (nth_error (p_ m) (n_ m)) as [u|] eqn:Eu.
      + exists u. split; auto. now apply (v_last _ Hv).
      + apply nth_error_None in Eu. pose proof (v_plen _ Hv). lia.
    - destruct (IHd (S j)) as (v & Ev & Hv'); try lia. destruct (nth_error (p_ m) j) as [u|] eqn:Eu.
      + exists u. split; auto. pose proof (v_mono _ Hv j u v ltac:(lia) Eu Ev). lia.
      + apply nth_error_None in Eu. pose proof (v_plen _ Hv). lia. }
  destruct (for_inv (fun j st => nth_error (p_ m) j = Some (length (upto m j)) /\ length (upto m j) <= nzmax m /\
     st = (filled [nnz m; 3] (flat_map triple (upto m j)), length (upto m j))) (n_ m) body (zeros (zbyte c) (width c) [nnz m; 3], 0)) as (st & E & (_ & Hle & ->)).
  - unfold upto; cbn [seq flat_map length]. split; [exact (v_p0 _ Hv)|]. split; [lia|]. now rewrite filled_nil.
  - intros j st Hj (Ej & Hl & ->). destruct (Hp (S j) ltac:(lia)) as (v & Ev & Hvn).
    pose proof (v_mono _ Hv j _ v Hj Ej Ev) as Huv.
    set (u := length (upto m j)) in *.
    assert (Eup : upto m (S j) = upto m j ++ flat_map (fun k => match nth_error (i_ m) k, nth_error (x_ m) k with
                           | Some r, Some x => [(r, j, x)] | _, _ => [] end) (seq u (v - u))).
    { unfold upto at 1. rewrite seq_S, flat_map_app. cbn [flat_map]. rewrite Nat.add_0_l, Ej, Ev, app_nil_r. reflexivity. }
    unfold body. unfold getn at 1. rewrite Ej. cbn [bind]. unfold getn at 1. rewrite Ev. cbn [bind].
    set (col := fun n => flat_map (fun k => match nth_error (i_ m) k, nth_error (x_ m) k with
                           | Some r, Some x => [(r, j, x)] | _, _ => [] end) (seq u n)).
    destruct (for_from_inv (fun k st => length (upto m j ++ col (k - u)) = k /\
        st = (filled [nnz m; 3] (flat_map triple (upto m j ++ col (k - u))), k)) (v - u) u
        (fun k '(a, count) =>
      bind (getn (i_ m) k) (fun r => bind (put c a (3 * count) (ofn r)) (fun a1 =>
      bind (put c a1 (3 * count + 1) (ofn j)) (fun a2 =>
      bind (getn (x_ m) k) (fun x => bind (put c a2 (3 * count + 2) x) (fun a3 =>
      Ok (a3, S count)))))))
        (filled [nnz m; 3] (flat_map triple (upto m j)), u)) as (st' & E' & (Hlen & ->)).
    + rewrite Nat.sub_diag. cbn. rewrite app_nil_r. split; [reflexivity|reflexivity].
    + intros k st Hk (Hlk & ->). assert (Hkn : k < nzmax m) by lia.
      destruct (nth_error (i_ m) k) as [r|] eqn:Er; [|apply nth_error_None in Er; rewrite (v_ilen _ Hv) in Er; lia].
      destruct (nth_error (x_ m) k) as [x|] eqn:Ex; [|apply nth_error_None in Ex; rewrite (v_xlen _ Hv) in Ex; lia].
      assert (Ec : col (S k - u) = col (k - u) ++ [(r, j, x)]).
      { unfold col. replace (S k - u) with (S (k - u)) by lia. rewrite seq_S, flat_map_app. cbn [flat_map].
        replace (u + (k - u)) with k by lia. now rewrite Er, Ex, app_nil_r. }
      set (L := flat_map triple (upto m j ++ col (k - u))).
      assert (EL : length L = 3 * k) by (unfold L; rewrite triples_len, Hlk; lia).
      assert (Ep : product_of [nnz m; 3] = 3 * nzmax m) by (unfold nnz; cbn; lia).
      eexists. split.
      * unfold getn at 1. rewrite Er. cbn [bind].
        rewrite <- EL at 1. rewrite put_next by lia. cbn [bind].
        replace (3 * k + 1) with (length (L ++ [ofn r])) at 1 by (rewrite app_length; cbn; lia).
        rewrite put_next by (rewrite app_length; cbn [length]; lia). cbn [bind]. unfold getn. rewrite Ex. cbn [bind].
        replace (3 * k + 2) with (length ((L ++ [ofn r]) ++ [ofn j])) at 1 by (rewrite !app_length; cbn; lia).
        rewrite put_next by (rewrite !app_length; cbn [length]; lia). cbn [bind]. reflexivity.
      * split.
        -- rewrite Ec, app_assoc, app_length, Hlk. cbn. lia.
        -- f_equal. f_equal. rewrite Ec, app_assoc, (flat_map_app triple _ [(r, j, x)]). fold L. cbn. now rewrite <- !app_assoc.
    + exists (filled [nnz m; 3] (flat_map triple (upto m (S j))), v).
      replace (u + (v - u)) with v in * by lia. fold (col (v - u)) in Eup. rewrite <- Eup in *.
      split; [exact E'|]. rewrite Hlen. split; [reflexivity|]. split; [exact Hvn|reflexivity].
  - split; [exact Hle|]. rewrite E. reflexivity.
Qed.

Lemma filled_item2 r s l i j : s <> 0 -> i < r -> j < s -> length l <= r * s ->
  item c (filled [r; s] l) [i; j] = Some (match nth_error l (i * s + j) with Some x => x | None => decode c (repeat (zbyte c) (width c)) end).
Proof.
  intros Hs Hi Hj Hl. erewrite (item2 c _ r s i j); try reflexivity; auto. cbn [filled nd_data nd_bytes]. f_equal. rewrite Nat.add_0_l.
  destruct (nth_error l (i * s + j)) as [x|] eqn:E; [now apply dec_at|]. apply nth_error_None in E. f_equal.
  rewrite skipn_app, skipn_all2 by (rewrite (enc_len c Hc); nia). rewrite app_nil_l, (enc_len c Hc).
  cbn [product_of fold_right]. rewrite Nat.mul_1_r. 
  replace ((r * s - length l) * width c) with (((i * s + j) * width c - length l * width c) + (width c + (r * s - (i * s + j) - 1) * width c)).
  2:{ assert (i * s + j < r * s) by nia. nia. }
  rewrite repeat_app, skipn_app, repeat_length, Nat.sub_diag, skipn_all2 by (rewrite repeat_length; lia). cbn [skipn]. rewrite app_nil_l.
  rewrite repeat_app, firstn_app, repeat_length, Nat.sub_diag, firstn_all2 by (rewrite repeat_length; lia). cbn. apply app_nil_r.
Qed.
Lemma triples_at (l : list (nat * nat * T)) k e : nth_error l k = Some e ->
  nth_error (flat_map triple l) (k * 3 + 0) = Some (ofn (row_of e)) /\ nth_error (flat_map triple l) (k * 3 + 1) = Some (ofn (col_of e)) /\
  nth_error (flat_map triple l) (k * 3 + 2) = Some (val_of e).
Proof.
  revert k; induction l as [|e0 l IH]; intros [|k] H; simpl in H; try discriminate.
  - injection H as <-. repeat split.
  - destruct (IH k H) as (A1 & A2 & A3). simpl. rewrite !Nat.add_0_r in *. auto.
Qed.

(* arrays in another layout *)
Lemma transposed_item a r s f i j : c_ordered c a -> is_matrix c a r s f -> i < r -> j < s -> item c (transposed a) [j; i] = Some (f i j).
Proof.
  intros (_ & Et & _) [Es Hi] Hr Hs. rewrite <- (Hi i j Hr Hs). unfold item, transposed; cbn [nd_shape nd_strides nd_data nd_bytes].
  rewrite Et, Es. cbn [rev app c_strides in_shape address]. rewrite !andb_true_r, andb_comm. destruct (_ && _); auto.
  do 5 f_equal. lia.
Qed.
Lemma wide_bytes zero r s (f : nat -> nat -> T) :
  nd_bytes (wide_array c zero r s f) = flat_map (encode c) (flat_map (fun i => flat_map (fun j => [f i j; zero]) (seq 0 s)) (seq 0 r)).
Proof.
  cbn. generalize (seq 0 r) as l. induction l as [|i l IH]; simpl; auto. rewrite flat_map_app, IH. f_equal.
  generalize (seq 0 s) as q. induction q as [|j q IHq]; simpl; auto. rewrite IHq. now rewrite !app_assoc.
Qed.
Lemma pairs_at zero (g : nat -> T) n lo j b : j < n -> b < 2 -> nth_error (flat_map (fun j => [g j; zero]) (seq lo n)) (j * 2 + b) = Some (if b =? 0 then g (lo + j) else zero).
Proof.
  intros Hj Hb. rewrite (flat_at (fun j => [g j; zero]) 2 n j b lo) by (auto; intros; reflexivity).
  destruct b as [|[|b]]; [reflexivity|reflexivity|lia].
Qed.
Lemma pairs_len zero (g : nat -> T) q : length (flat_map (fun j => [g j; zero]) q) = length q * 2.
Proof. induction q; simpl; auto. Qed.
Lemma wide_at zero r s (f : nat -> nat -> T) i j b : i < r -> j < s -> b < 2 ->
  nth_error (flat_map (fun i => flat_map (fun j => [f i j; zero]) (seq 0 s)) (seq 0 r)) (2 * (i * s + j) + b) = Some (if b =? 0 then f i j else zero).
Proof.
  intros Hi Hj Hb. replace (2 * (i * s + j) + b) with (i * (s * 2) + (j * 2 + b)) by lia.
  rewrite (flat_at _ (s * 2) r i (j * 2 + b) 0).
  - rewrite Nat.add_0_l. now rewrite pairs_at.
  - intros k. now rewrite pairs_len, seq_length.
  - auto.
  - nia.
Qed.
Lemma wide_len zero r s (f : nat -> nat -> T) : length (nd_bytes (wide_array c zero r s f)) = r * s * (2 * width c).
Proof.
  rewrite wide_bytes, (enc_len c Hc).
  assert (E : length (flat_map (fun i => flat_map (fun j => [f i j; zero]) (seq 0 s)) (seq 0 r)) = r * (s * 2)).
  { generalize (seq 0 r) as l, (seq_length r 0). intros l <-. induction l as [|i l IH]; simpl; auto. rewrite app_length, IH.
    rewrite pairs_len, seq_length. lia. }
  rewrite E. lia.
Qed.
End Op.

(* ---- Vandermonde matrices ---- *)
From Verif Require Import JacobiSpec JacobiProofs JacobiOrthProofs JacobiQuadProofs JacobiExactProofs BlitzProofs DenseSpec DenseProofs CubMeshProofs Nodes1DSpec Nodes1DProofs Nodes1DExactProofs.
From Coq Require Import Reals Lra.
Local Open Scope nat_scope.

Lemma for_from_nothrow {S} (body : nat -> S -> outcome S) n : (forall i s, body i s <> Throw) -> forall lo s, for_from lo n body s <> Throw.
Proof.
  intros H. induction n; intros lo s; cbn; [discriminate|]. destruct (body lo s) eqn:E; cbn; [apply IHn| |discriminate]. now apply H in E.
Qed.
Lemma reshape_short {T} (m : mat T) arr : length arr < mrows m * mcols m -> reshapeMatTo1D m false arr = UB.
Proof.
  intros H. unfold reshapeMatTo1D.
  assert (Np : forall i j st, BlitzModel.put_next m i j st <> Throw).
  { intros i j (a & k). unfold BlitzModel.put_next, mget, setn. destruct (inb m i j); cbn [bind]; [|discriminate]. destruct (Nat.ltb k (length a)); cbn [bind]; discriminate. }
  destruct (for_ (mcols m) _ (arr, 0)) as [st| |] eqn:E; cbn [bind]; [|exfalso|reflexivity].
  2:{ revert E. apply for_from_nothrow. intros j s. apply for_from_nothrow. intros. apply Np. }
  exfalso.
  assert (Q : forall i j (st st' : list T * nat), BlitzModel.put_next m i j st = Ok st' -> snd st < length (fst st) /\ snd st' = Datatypes.S (snd st) /\ length (fst st') = length (fst st)).
  { intros i j (a & k) st'. unfold BlitzModel.put_next, mget, setn. destruct (inb m i j); cbn [bind]; [|discriminate].
    destruct (k <? length a) eqn:El; cbn [bind]; [|discriminate]. apply Nat.ltb_lt in El. injection 1 as <-. cbn. split; [exact El|]. split; [reflexivity|apply upd_length]. }
  assert (I : snd st = mrows m * mcols m /\ length (fst st) = length arr /\ snd st <= length arr).
  { apply (for_from_ok (fun j (st : list T * nat) => snd st = mrows m * j /\ length (fst st) = length arr /\ snd st <= length arr)
      (fun j => for_ (mrows m) (fun i => BlitzModel.put_next m i j)) (mcols m) 0 (arr, 0) st).
    - cbn. split; [lia|]. split; [reflexivity|lia].
    - intros j a b _ (E1 & E2 & E3) Eb.
      pose proof (for_from_ok (fun i (st : list T * nat) => snd st = mrows m * j + i /\ length (fst st) = length arr /\ snd st <= length arr)
        (fun i => BlitzModel.put_next m i j) (mrows m) 0 a b) as F. cbn [Nat.add] in F.
      destruct F as (F1 & F2 & F3).
      + split; [lia|]. split; auto.
      + intros i s s' _ (G1 & G2 & G3) Es. destruct (Q _ _ _ _ Es) as (Q1 & Q2 & Q3). split; [lia|]. split; [congruence|lia].
      + exact Eb.
      + split; [lia|]. split; auto.
    - exact E. }
  destruct I as (I1 & I2 & I3). lia.
Qed.

Section Vander.
Context {B : Type}.
Variable c : ctype B R.
Hypothesis Hc : ctype_ok c.
Variable G : R -> R.
Hypothesis HG : gamma_like G.

(* r is a C-ordered vector *)
Lemma vector_in r v : c_ordered c r -> is_vector c r v ->
  exists b, NumpyModel.copy_in c r (length v) (repeat (fofn (exact G) 0) (length v)) = Ok b /\ elements c (length v) b = v.
Proof.
  intros (_ & Et & Hb) [Es Hi]. rewrite Es in Hb. cbn in Hb. rewrite Nat.mul_1_r in Hb.
  eexists. split; [apply copy_in_ok; auto; rewrite repeat_length; lia|].
  assert (L : forall k, nth_error (elements c (length v) (firstn (length v * width c) (skipn (nd_data r) (nd_bytes r)) ++ skipn (length v * width c) (flat_map (encode c) (repeat (fofn (exact G) 0) (length v))))) k = nth_error v k).
  { intros k. destruct (Nat.lt_ge_cases k (length v)) as [Hk|Hk].
    - pose proof (copy_in_elements c Hc r (length v) (repeat (fofn (exact G) 0) (length v)) k) as C. rewrite repeat_length in C.
      rewrite C by (auto; lia). rewrite (proj2 (Nat.ltb_lt _ _) Hk).
      destruct (nth_error v k) as [x|] eqn:E; [|apply nth_error_None in E; lia].
      specialize (Hi k x E). rewrite (item1 c r (length v) k k) in Hi; auto. rewrite Et, Es. reflexivity.
    - rewrite (proj2 (nth_error_None v k)) by lia. apply nth_error_None. rewrite elements_len. lia. }
  revert L. generalize (elements c (length v) (firstn (length v * width c) (skipn (nd_data r) (nd_bytes r)) ++ skipn (length v * width c) (flat_map (encode c) (repeat (fofn (exact G) 0) (length v))))).
  intros l. clear. revert v. induction l as [|x l IH]; intros [|y v] H.
  - reflexivity.
  - specialize (H 0). discriminate.
  - specialize (H 0). discriminate.
  - f_equal; [specialize (H 0); cbn in H; congruence|]. apply IH. intros k. exact (H (S k)).
Qed.

Definition ncols (order : Z) (M : nat) : nat := if (-1 <? order)%Z then Z.to_nat (order + 1) else M.

Lemma vander_plain inverse r v order : c_ordered c r -> is_vector c r v ->
  exists a, build_vandermonde c (exact G) inverse r false order = Ok (a, None) /\
    is_matrix c a (length v) (ncols order (length v)) (fun i j => jac G 0 0 j (nth i v 0%R)).
Proof.
  intros Ho Hv. destruct (vector_in r v Ho Hv) as (b & Eb & El).
  unfold build_vandermonde, shape_at, getn. rewrite (proj1 Hv). cbn [nth_error bind]. fold (ncols order (length v)).
  rewrite Eb. cbn [bind]. rewrite El.
  destruct (export_matrix c Hc (vandermonde1D (exact G) v (ncols order (length v))) (length v) (ncols order (length v)) eq_refl eq_refl) as (a & Ea & _ & Es & Hi).
  rewrite Ea. cbn [bind]. exists a. split; [reflexivity|]. split; [exact Es|]. intros i j Hi' Hj. rewrite Hi by auto. f_equal. now apply vander_ent.
Qed.

Lemma vander_inverse dgetrf dgetri r v order : dgetr_spec dgetrf dgetri -> c_ordered c r -> is_vector c r v -> ncols order (length v) = length v ->
  build_vandermonde c (exact G) (computeInverse 0%R dgetrf dgetri) r true order = Throw \/
  exists a b W, build_vandermonde c (exact G) (computeInverse 0%R dgetrf dgetri) r true order = Ok (a, Some b) /\
    is_matrix c a (length v) (length v) (fun i j => jac G 0 0 j (nth i v 0%R)) /\ is_matrix c b (length v) (length v) W /\
    forall i j, i < length v -> j < length v -> sumn (length v) (fun k => jac G 0 0 k (nth i v 0%R) * W k j)%R = (if Nat.eqb i j then 1 else 0)%R /\
                                               sumn (length v) (fun k => W i k * jac G 0 0 j (nth k v 0%R))%R = (if Nat.eqb i j then 1 else 0)%R.
Proof.
  intros HF Ho Hv HN. destruct (vector_in r v Ho Hv) as (b & Eb & El).
  unfold build_vandermonde, shape_at, getn. rewrite (proj1 Hv). cbn [nth_error bind]. fold (ncols order (length v)). rewrite HN.
  rewrite Eb. cbn [bind]. rewrite El. set (M := length v) in *.
  set (V := vandermonde1D (exact G) v M).
  destruct (inverse_ok dgetrf dgetri V (mzero (exact G) M M) M HF) as [-> | (Y & -> & (Yr & Yc) & HY)]; [split; reflexivity|split; reflexivity|left; reflexivity|].
  right. cbn [bind].
  destruct (export_matrix c Hc V M M eq_refl eq_refl) as (a & Ea & _ & Es & Hi). rewrite Ea. cbn [bind].
  destruct (export_table c Hc M M (storage Y)) as (bb & Ebb & _ & _ & _ & _ & Hbb); [rewrite storage_len; congruence|].
  rewrite (export_ok c Hc) in Ebb by (rewrite storage_len; cbn; nia). replace (product_of [M; M] - length (storage Y)) with 0 in Ebb by (rewrite storage_len; cbn; nia).
  cbn [Nat.mul repeat] in Ebb. rewrite app_nil_r in Ebb.
  unfold load. rewrite (enc_len c Hc), storage_len, Yr, Yc.
  rewrite (proj2 (Nat.leb_le _ _)) by lia. cbn [bind].
  replace (firstn (M * M * width c) (skipn 0 (flat_map (encode c) (storage Y)))) with (flat_map (encode c) (storage Y)).
  2:{ cbn [skipn]. rewrite firstn_all2; [reflexivity|]. rewrite (enc_len c Hc), storage_len, Yr, Yc. lia. }
  unfold store. cbn [nd_bytes zeros]. rewrite (enc_len c Hc), storage_len, Yr, Yc, repeat_length.
  rewrite (proj2 (Nat.leb_le _ _)) by (cbn; nia). cbn [bind firstn]. rewrite app_nil_l.
  rewrite skipn_all2 by (rewrite repeat_length; cbn; nia). rewrite app_nil_r.
  exists a, bb, (ment Y). split; [|split; [|split]].
  - injection Ebb as <-. reflexivity.
  - split; [exact Es|]. intros i j Hi' Hj. rewrite Hi by auto. f_equal. now apply vander_ent.
  - split; [injection Ebb as <-; reflexivity|]. intros i j Hi' Hj. apply Hbb; auto. rewrite <- Yc. apply storage_at; congruence.
  - intros i j Hi' Hj. destruct (HY i j Hi' Hj) as (H1 & H2). split; [rewrite <- H1|rewrite <- H2]; apply sumn_ext; intros k Hk; unfold V; now rewrite vander_ent.
Qed.

Lemma vander_other dgetrf dgetri r v order : dgetr_spec dgetrf dgetri -> c_ordered c r -> is_vector c r v ->
  (ncols order (length v) < length v -> build_vandermonde c (exact G) (computeInverse 0%R dgetrf dgetri) r true order = Throw) /\
  (0 < length v < ncols order (length v) -> build_vandermonde c (exact G) (computeInverse 0%R dgetrf dgetri) r true order = UB).
Proof.
  intros HF Ho Hv. destruct (vector_in r v Ho Hv) as (b & Eb & El).
  unfold build_vandermonde, shape_at, getn. rewrite (proj1 Hv). cbn [nth_error bind]. fold (ncols order (length v)).
  rewrite Eb. cbn [bind]. rewrite El. set (M := length v) in *. set (N := ncols order M).
  set (V := vandermonde1D (exact G) v N).
  split; intros HN; unfold computeInverse at 1; change (mrows V) with M.
  -     destruct (to1d_spec V false (repeat 0%R (M * M))) as (a & E & L & H & Hz); [rewrite repeat_length; cbn; nia|].
    rewrite repeat_length in L. rewrite E. cbn [bind]. specialize (HF M a L).
    destruct (dgetrf M a) as ((lu & ipiv) & info). destruct (dgetri M lu ipiv) as (x & info2) eqn:Ed. destruct HF as (Lx & HF).
    unfold check_info. destruct (Z.eqb_spec info 0) as [E1|]; cbn [bind]; auto. rewrite ?Ed.
    destruct (Z.eqb_spec info2 0) as [E2|]; cbn [bind]; auto. exfalso.
    destruct (HF E1 E2 (M - 1) (M - 1)) as (_ & H2); try lia. rewrite Nat.eqb_refl in H2.
    rewrite sumn_zero in H2; [lra|]. intros k Hk. replace (cm M a k (M - 1)) with 0%R; [ring|]. unfold cm.
    symmetry. apply nthe. rewrite Hz by (cbn; nia). rewrite nth_error_repeat; [reflexivity|]. nia.
  - rewrite reshape_short; [reflexivity|]. rewrite repeat_length. cbn. nia.
Qed.
End Vander.
