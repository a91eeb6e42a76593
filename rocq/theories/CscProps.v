(* CscProps.v - C05..C10, C56, C57: compressed-column matrices. *)
From Coq Require Import ZArith List Lia Bool Permutation Sorted.
From Verif Require Import Base Loops TripletModel CscModel CscSpec CscProofs CscAlgProofs CscDenseProofs
  CscHistModel CscHistSpec CscHistProofs.
Import ListNotations.
Local Open Scope nat_scope.

(* ---- C05 ---- *)
Theorem C05_triplet_to_csc :
  forall (T : Type) (jk : nat * T) (t : triplet T), triplet_in_range t ->
  exists a, ctor_triplet jk t = Ok a /\ valid a /\
    Z.of_nat (rows a) = rows_ t /\ Z.of_nat (cols a) = cols_ t /\
    Permutation (entries a) (triplet_entries t) /\
    (forall j, filter (in_column j) (entries a) = filter (in_column j) (triplet_entries t)) /\
    nnz a = Nat.max 1 (Z.to_nat (nnz_ t)).
Proof. exact @triplet_in_range_ok. Qed.

Theorem C05_same_matrix :
  forall (T : Type) (zero : T) (add : T -> T -> T) (jk : nat * T) (t : triplet T) (a : csc T),
  comm_monoid zero add -> triplet_in_range t -> ctor_triplet jk t = Ok a ->
  forall i j, value zero add (entries a) i j = value zero add (triplet_entries t) i j.
Proof.
  intros T zero add jk t a CM H E i j. destruct (triplet_in_range_ok jk t H) as (a' & E' & _ & _ & _ & P & _).
  assert (a' = a) by congruence. subst. now apply value_perm.
Qed.

Theorem C05_negative_index_throws :
  forall (T : Type) (jk : nat * T) (t : triplet T) k i j,
  length (row_ t) = length (col_ t) -> length (col_ t) = length (elems_ t) ->
  (0 <= nnz_ t <= Z.of_nat (length (row_ t)))%Z -> k < Z.to_nat (nnz_ t) ->
  nth_error (row_ t) k = Some i -> nth_error (col_ t) k = Some j -> (i < 0 \/ j < 0)%Z ->
  ctor_triplet jk t = Throw.
Proof. exact @triplet_negative. Qed.

(* Indices beyond the declared dimensions are accepted: the matrix grows to hold them. *)
Theorem C05_large_index_enlarges :
  forall (T : Type) (jk : nat * T) (t : triplet T),
  length (row_ t) = length (col_ t) -> length (col_ t) = length (elems_ t) ->
  (0 <= nnz_ t <= Z.of_nat (length (row_ t)))%Z -> (0 <= rows_ t)%Z -> (0 <= cols_ t)%Z ->
  (forall k r, k < Z.to_nat (nnz_ t) -> nth_error (row_ t) k = Some r -> (0 <= r)%Z) ->
  (forall k c, k < Z.to_nat (nnz_ t) -> nth_error (col_ t) k = Some c -> (0 <= c)%Z) ->
  exists a, ctor_triplet jk t = Ok a /\ valid a /\
    Z.of_nat (rows a) = fold_left (fun a x => Z.max a (x + 1)) (firstn (Z.to_nat (nnz_ t)) (row_ t)) (rows_ t) /\
    Z.of_nat (cols a) = fold_left (fun a x => Z.max a (x + 1)) (firstn (Z.to_nat (nnz_ t)) (col_ t)) (cols_ t) /\
    Permutation (entries a) (triplet_entries t).
Proof.
  intros T jk t L1 L2 Hn Hr Hc P1 P2.
  destruct (triplet_general jk t L1 L2 Hn Hr Hc P1 P2) as (a & E & V & M & N & H & _).
  exists a. repeat split; auto; try apply V. now apply perm_of_positions.
Qed.

Definition t_ex : triplet Z := mk 3 3 4 6 [2; 0; 2; 1; 9; 9]%Z [1; 0; 1; 2; 9; 9]%Z [5; 7; 6; -1; 0; 0]%Z.
Example C05_witness : triplet_in_range t_ex /\
  triplet_entries t_ex = [(2, 1, 5%Z); (0, 0, 7%Z); (2, 1, 6%Z); (1, 2, (-1)%Z)] /\
  exists a, ctor_triplet (0, 0%Z) t_ex = Ok a /\
    entries a = [(0, 0, 7%Z); (2, 1, 5%Z); (2, 1, 6%Z); (1, 2, (-1)%Z)] /\ value 0%Z Z.add (entries a) 2 1 = 11%Z.
Proof.
  split; [|split; [reflexivity|eexists; split; [reflexivity|split; reflexivity]]].
  unfold triplet_in_range; simpl. repeat split; try lia;
    (destruct k as [|[|[|[|k]]]]; simpl in *; [..|lia]; congruence || (injection H0 as <-; lia)).
Qed.
Lemma Z_comm_semiring : comm_semiring 0%Z Z.add Z.mul.
Proof. repeat constructor; intros; lia. Qed.

(* ---- C06 ---- *)
Theorem C06_transpose :
  forall (T : Type) (jk : nat * T) (a : csc T), valid a ->
  exists b, transpose jk a = Ok b /\ valid b /\ rows b = cols a /\ cols b = rows a /\
    (forall i j, map val_of (filter (at_pos j i) (entries b)) = map val_of (filter (at_pos i j) (entries a))) /\
    StronglySorted (@col_row_le T) (entries b).
Proof. exact @transpose_ok. Qed.

Theorem C06_same_entries_swapped :
  forall (T : Type) (jk : nat * T) (a b : csc T), valid a -> transpose jk a = Ok b ->
  Permutation (entries b) (map swap_pos (entries a)).
Proof. exact @transpose_perm. Qed.

(* No law of arithmetic is needed: the summands at (j,i) come in the same order. *)
Theorem C06_transposed_values :
  forall (T : Type) (zero : T) (add : T -> T -> T) jk (a b : csc T), valid a -> transpose jk a = Ok b ->
  forall i j, value zero add (entries b) j i = value zero add (entries a) i j.
Proof.
  intros T zero add jk a b V E i j. destruct (transpose_ok jk a V) as (b' & E' & _ & _ & _ & H & _).
  assert (b' = b) by congruence. subst. unfold value. now rewrite H.
Qed.

Theorem C06_twice :
  forall (T : Type) (jk jk' : nat * T) (a b c : csc T),
  valid a -> transpose jk a = Ok b -> transpose jk' b = Ok c ->
  valid c /\ rows c = rows a /\ cols c = cols a /\
  (forall i j, map val_of (filter (at_pos i j) (entries c)) = map val_of (filter (at_pos i j) (entries a))) /\
  StronglySorted (@col_row_le T) (entries c) /\
  (StronglySorted (@col_row_lt T) (entries a) -> entries c = entries a).
Proof. exact @transpose_twice. Qed.

Definition a_ex : csc Z := mkcsc 2 3 4 [0; 2; 2; 4] [1; 0; 1; 1] [4; 3; 8; 9]%Z.
Lemma a_ex_valid : valid a_ex.
Proof. apply validb_iff. reflexivity. Qed.
Example C06_witness : valid a_ex /\ exists b, transpose (0, 0%Z) a_ex = Ok b /\
  entries a_ex = [(1, 0, 4%Z); (0, 0, 3%Z); (1, 2, 8%Z); (1, 2, 9%Z)] /\
  entries b = [(0, 0, 3%Z); (0, 1, 4%Z); (2, 1, 8%Z); (2, 1, 9%Z)].
Proof. split; [apply a_ex_valid|]. eexists. repeat split; reflexivity. Qed.

(* ---- C07 ---- *)
Theorem C07_multiply :
  forall (T : Type) (add : T -> T -> T) (zero : T), comm_monoid zero add ->
  forall mul, comm_semiring zero add mul ->
  forall (jk : nat * T) (a b : csc T), valid a -> valid b -> cols a = rows b ->
  exists c, multiply add mul jk a b = Ok c /\ valid c /\ rows c = rows a /\ cols c = cols b /\
    (forall i j, value zero add (entries c) i j =
       product zero add mul (cols a) (value zero add (entries a)) (value zero add (entries b)) i j) /\
    NoDup (map (fun e => (row_of e, col_of e)) (entries c)).
Proof. intros T add zero CM mul SR. exact (multiply_ok add zero CM mul SR). Qed.

Theorem C07_mismatch_throws :
  forall (T : Type) (add mul : T -> T -> T) (jk : nat * T) (a b : csc T),
  valid a -> valid b -> cols a <> rows b -> multiply add mul jk a b = Throw.
Proof.
  intros T add mul jk a b Va Vb D. unfold multiply. rewrite (proj2 (validb_iff a) Va), (proj2 (validb_iff b) Vb). simpl.
  unfold cols, rows in D. destruct (Nat.eqb_spec (n_ a) (m_ b)); [lia|]. reflexivity.
Qed.

Example C07_witness : valid a_ex /\ exists b c, transpose (0, 0%Z) a_ex = Ok b /\ valid b /\ cols b = rows a_ex /\
  multiply Z.add Z.mul (0, 0%Z) a_ex b = Ok c /\ entries c = [(1, 0, 12%Z); (0, 0, 9%Z); (1, 1, 305%Z); (0, 1, 12%Z)].
Proof.
  split; [apply a_ex_valid|]. do 2 eexists. split; [reflexivity|]. split; [apply validb_iff; reflexivity|].
  repeat split; reflexivity.
Qed.

(* ---- C08 ---- *)
Theorem C08_removeDuplicates :
  forall (T : Type) (add : T -> T -> T) (zero : T), comm_monoid zero add ->
  forall (jk : nat * T) (a : csc T), valid a ->
  exists b, removeDuplicates add jk a = Ok b /\ valid b /\ rows b = rows a /\ cols b = cols a /\
    (forall i j, value zero add (entries b) i j = value zero add (entries a) i j) /\
    NoDup (map (fun e => (row_of e, col_of e)) (entries b)) /\
    (forall i j, In (i, j) (map (fun e => (row_of e, col_of e)) (entries b)) <->
                 In (i, j) (map (fun e => (row_of e, col_of e)) (entries a))).
Proof. intros T add zero CM. exact (removeDuplicates_ok add zero CM). Qed.

Theorem C08_idempotent :
  forall (T : Type) (add : T -> T -> T) (zero : T), comm_monoid zero add ->
  forall (jk jk' : nat * T) (a b c : csc T), valid a ->
  removeDuplicates add jk a = Ok b -> removeDuplicates add jk' b = Ok c -> entries c = entries b.
Proof. intros T add zero CM. exact (removeDuplicates_idem add zero CM). Qed.

Example C08_witness : valid a_ex /\ exists b, removeDuplicates Z.add (0, 0%Z) a_ex = Ok b /\
  entries b = [(1, 0, 4%Z); (0, 0, 3%Z); (1, 2, 17%Z)].
Proof. split; [apply a_ex_valid|]. eexists. split; vm_compute; reflexivity. Qed.

(* ---- C09 ---- *)
Theorem C09_prune :
  forall (T : Type) (jk : nat * T) (big : T -> bool) (a : csc T), valid a ->
  exists b e, prune jk big a = Ok (b, e) /\ valid b /\ rows b = rows a /\ cols b = cols a /\
    entries b = filter (fun e => big (val_of e)) (entries a) /\
    (e = Threw <-> forall x, In x (entries a) -> big (val_of x) = false) /\ e <> Undef.
Proof. exact @prune_ok. Qed.

Example C09_witness : valid a_ex /\
  (exists b, prune (0, 0%Z) (fun x => 5 <? Z.abs x)%Z a_ex = Ok (b, Done) /\ entries b = [(1, 2, 8%Z); (1, 2, 9%Z)]) /\
  (exists b, prune (0, 0%Z) (fun x => 50 <? Z.abs x)%Z a_ex = Ok (b, Threw) /\ entries b = []).
Proof. split; [apply a_ex_valid|]. split; eexists; split; reflexivity. Qed.

(* ---- C10 ---- *)
Theorem C10_validity_preserved :
  forall (T : Type) (add mul : T -> T -> T) (cs : list (call T)) (env : list (csc T)),
  calls add mul [] cs = Ok env ->
  forall a, In a env -> valid a /\ nnz a = Nat.max 1 (length (entries a)).
Proof.
  intros T add mul cs env E a Ha.
  exact (proj1 (Forall_forall _ _) (calls_good add mul cs [] env (Forall_nil _) E) a Ha).
Qed.

Theorem C10_never_undefined :
  forall (T : Type) (add mul : T -> T -> T) (cs : list (call T)) (env : list (csc T)) (c : call T),
  calls add mul [] cs = Ok env -> call_ok env c ->
  exists env' e, call_step add mul env c = Ok (env', e).
Proof.
  intros T add mul cs env c E H. apply call_step_total; auto.
  exact (calls_good add mul cs [] env (Forall_nil _) E).
Qed.

(* swap exchanges the two matrices completely; any call leaves all other matrices alone. *)
Theorem C10_swap_exchanges :
  forall (T : Type) (add mul : T -> T -> T) (env : list (csc T)) k l a b,
  nth_error env k = Some a -> nth_error env l = Some b ->
  exists env', call_step add mul env (Swap k l) = Ok (env', Done) /\
    nth_error env' k = Some b /\ nth_error env' l = Some a /\ length env' = length env.
Proof. intros. now apply call_step_swap. Qed.

Theorem C10_others_untouched :
  forall (T : Type) (add mul : T -> T -> T) (env : list (csc T)) c env' e,
  call_step add mul env c = Ok (env', e) ->
  forall i a, nth_error env i = Some a -> ~ modifies c i -> nth_error env' i = Some a.
Proof. intros until e. apply call_step_frame. Qed.

Theorem C10_no_shared_storage :
  forall cs m, mrun mem0 cs = Ok m ->
  NoDup (owned (objs m)) /\ Permutation (owned (objs m)) (live m).
Proof. intros cs m E. destruct (mrun_inv cs mem0 m minv0 E) as (A & B & _). auto. Qed.

Theorem C10_no_double_free :
  forall cs m c, mrun mem0 cs = Ok m -> mcall_ok m c -> exists m', mstep m c = Ok m'.
Proof. intros cs m c E. apply mstep_total. exact (mrun_inv cs mem0 m minv0 E). Qed.

Theorem C10_no_leak :
  forall cs m, mrun mem0 cs = Ok m -> (forall o, In o (objs m) -> o = None) -> live m = [].
Proof.
  intros cs m E H. destruct (mrun_inv cs mem0 m minv0 E) as (_ & P & _).
  assert (Z : owned (objs m) = []).
  { clear - H. induction (objs m) as [|o os IH]; auto. simpl. rewrite (H o (or_introl eq_refl)). simpl.
    apply IH. intros. apply H. right. auto. }
  rewrite Z in P. apply Permutation_nil in P. exact P.
Qed.

(* A matrix that was moved from holds the null pointer: swapping it is undefined. *)
Theorem C10_swap_after_move_undefined :
  exists cs m, mrun mem0 cs = Ok m /\ mstep m (MSwap 0 1) = UB /\ 1 < length (objs m).
Proof. exists [MNew; MMove 0]. eexists. split; [reflexivity|]. split; [reflexivity|]. simpl. lia. Qed.

Definition zf : nat -> nat := fun _ => 0.
Definition calls_ex : list (call Z) :=
  [FromTriplet (0, 0%Z) t_ex; TransposeOf (0, 0%Z) 0; Multiply (0, 0%Z) 1 0; RemoveDuplicates (0, 0%Z) 0;
   Assign zf zf (fun _ => 0%Z) 1 0; Swap 1 2; Prune (0, 0%Z) (fun x => 60 <? Z.abs x)%Z 1].
Example C10_witness :
  (exists env, calls Z.add Z.mul [] calls_ex = Ok env /\ length env = 3 /\
     map (@entries Z) env = [[(0, 0, 7%Z); (2, 1, 11%Z); (1, 2, (-1)%Z)]; [(1, 1, 121%Z)]; [(0, 0, 7%Z); (2, 1, 11%Z); (1, 2, (-1)%Z)]]) /\
  (exists m, mrun mem0 [MNew; MCopy 0; MSwap 0 1; MAssign 0 1; MTranspose 1; MShrink 0; MMove 1; MDestroy 0] = Ok m /\
     objs m = [None; None; Some (mkhdr 12 13 14 15)] /\ live m = [12; 13; 14; 15]).
Proof. split; eexists; (split; [vm_compute; reflexivity|split; vm_compute; reflexivity]). Qed.

(* ---- C56 ---- *)
Theorem C56_copy_is_faithful :
  forall (T : Type) jp ji (jx : nat -> T) (o : csc T), valid o ->
  (Z.of_nat (rows o) * Z.of_nat (cols o) <= INT_MAX)%Z -> 0 < rows o -> 0 < cols o ->
  exists a, copy_ctor jp ji jx o = Ok a /\ rows a = rows o /\ cols a = cols o /\ valid a /\
    nnz a = Nat.max 1 (nnz o) /\ entries a = entries o.
Proof.
  intros T jp ji jx o V H Hr Hc. destruct (copy_ok jp ji jx o V H Hr Hc) as (a & E & Em & En & Ez & Li & Lx & Fi & Fx & Fp).
  destruct (extend_same o a) as (VA & EA); auto; [lia|]. exists a. repeat split; auto; try apply VA.
Qed.

Theorem C56_assign_is_copy :
  forall (T : Type) jp ji (jx : nat -> T) (lhs o : csc T), assign jp ji jx lhs o = copy_ctor jp ji jx o.
Proof.
  intros. unfold assign. destruct (copy_ctor jp ji jx o); auto. simpl. destruct a; reflexivity.
Qed.

(* Copying is undefined as soon as rows*cols exceeds the int range, whatever the storage. *)
Theorem C56_copy_large_undefined :
  forall (T : Type) jp ji (jx : nat -> T) (o : csc T),
  (INT_MAX < Z.of_nat (rows o) * Z.of_nat (cols o))%Z -> copy_ctor jp ji jx o = UB.
Proof. exact @copy_overflow. Qed.

(* A matrix with one zero dimension loses the other when copied. *)
Theorem C56_copy_keeps_shape_refuted :
  exists o a : csc Z, valid o /\ copy_ctor zf zf (fun _ => 0%Z) o = Ok a /\ rows o = 3 /\ rows a = 0.
Proof.
  exists (of_cols (0, 0%Z) 3 []). eexists. split; [apply validb_iff; reflexivity|]. repeat split; reflexivity.
Qed.

(* CSCMat(rows, cols, nnz), documented as "all elements set to zero": with memory that happens to
   hold other values the object is not a valid matrix. *)
Theorem C56_sized_ctor_zero_refuted :
  exists jp ji jx (a : csc Z), ctor_sizes jp ji jx 2 2 1 = Ok a /\ ~ valid a.
Proof.
  exists (fun _ => 7), zf, (fun _ => 0%Z). eexists. split; [reflexivity|].
  intros V. apply validb_iff in V. discriminate.
Qed.

Example C56_witness : valid a_ex /\ exists a, copy_ctor zf zf (fun _ => 0%Z) a_ex = Ok a /\ entries a = entries a_ex.
Proof. split; [apply a_ex_valid|]. eexists. split; vm_compute; reflexivity. Qed.

(* ---- C57 ---- *)
Theorem C57_dense_to_csc :
  forall (T : Type) jp ji (jx : nat -> T) (big : T -> bool) (A : mat T),
  (Z.of_nat (mrows A * mcols A) <= INT_MAX)%Z ->
  exists a, ctor_dense jp ji jx big A = Ok a /\ valid a /\ rows a = mrows A /\ cols a = mcols A /\
    entries a = dense_list big A.
Proof. exact @dense_ok. Qed.

Theorem C57_kept_entries :
  forall (T : Type) (big : T -> bool) (A : mat T) i j x,
  In (i, j, x) (dense_list big A) <-> i < mrows A /\ j < mcols A /\ x = ment A i j /\ big x = true.
Proof.
  intros T big A i j x. unfold dense_list. rewrite in_flat_map. split.
  - intros (j' & Hj & H). apply in_flat_map in H. destruct H as (i' & Hi & H). apply in_seq in Hi, Hj.
    destruct (big (ment A i' j')) eqn:B; [|destruct H]. destruct H as [H|[]]. injection H as -> -> <-.
    repeat split; auto; lia.
  - intros (Hi & Hj & -> & B). exists j. split; [apply in_seq; lia|]. apply in_flat_map. exists i.
    split; [apply in_seq; lia|]. rewrite B. left. auto.
Qed.

Theorem C57_sorted_once_each :
  forall (T : Type) (big : T -> bool) (A : mat T), StronglySorted (@col_row_lt T) (dense_list big A).
Proof.
  intros T big A. unfold dense_list. 
  assert (G : forall n s, StronglySorted (@col_row_lt T) (flat_map (fun j => flat_map (fun i => if big (ment A i j) then [(i, j, ment A i j)] else []) (seq 0 (mrows A))) (seq s n))); [|apply G].
  induction n; intros s; [constructor|]. simpl. apply CscProofs.SS_app; auto.
  - generalize 0 at 1 as r. generalize (mrows A) as m. induction m; intros r; [constructor|]. simpl. 
    destruct (big (ment A r s)); simpl; [|auto]. constructor; auto.
    rewrite Forall_forall. intros x Hx. apply in_flat_map in Hx. destruct Hx as (i & Hi & Hx). apply in_seq in Hi.
    destruct (big (ment A i s)); [|destruct Hx]. destruct Hx as [<-|[]]. right. unfold col_of, row_of; simpl. lia.
  - intros x y Hx Hy. apply in_flat_map in Hx. destruct Hx as (i & Hi & Hx).
    destruct (big (ment A i s)); [|destruct Hx]. destruct Hx as [<-|[]].
    apply in_flat_map in Hy. destruct Hy as (j & Hj & Hy). apply in_seq in Hj.
    apply in_flat_map in Hy. destruct Hy as (i' & Hi' & Hy). destruct (big (ment A i' j)); [|destruct Hy]. destruct Hy as [<-|[]].
    left. unfold col_of; simpl. lia.
Qed.

Example C57_witness : exists a,
  ctor_dense zf zf (fun _ => 0%Z) (fun x => 1 <? Z.abs x)%Z (mkmat 2 3 (fun i j => Z.of_nat i * 4 - Z.of_nat j))%Z = Ok a /\
  entries a = [(1, 0, 4%Z); (1, 1, 3%Z); (0, 2, (-2)%Z); (1, 2, 2%Z)].
Proof. eexists. split; vm_compute; reflexivity. Qed.

Print Assumptions C05_triplet_to_csc.
Print Assumptions C05_same_matrix.
Print Assumptions C05_negative_index_throws.
Print Assumptions C05_large_index_enlarges.
Print Assumptions C06_transpose.
Print Assumptions C06_same_entries_swapped.
Print Assumptions C06_transposed_values.
Print Assumptions C06_twice.
Print Assumptions C07_multiply.
Print Assumptions C07_mismatch_throws.
Print Assumptions C08_removeDuplicates.
Print Assumptions C08_idempotent.
Print Assumptions C09_prune.
Print Assumptions C10_validity_preserved.
Print Assumptions C10_never_undefined.
Print Assumptions C10_swap_exchanges.
Print Assumptions C10_others_untouched.
Print Assumptions C10_no_shared_storage.
Print Assumptions C10_no_double_free.
Print Assumptions C10_no_leak.
Print Assumptions C10_swap_after_move_undefined.
Print Assumptions C56_copy_is_faithful.
Print Assumptions C56_assign_is_copy.
Print Assumptions C56_copy_large_undefined.
Print Assumptions C56_copy_keeps_shape_refuted.
Print Assumptions C56_sized_ctor_zero_refuted.
Print Assumptions C57_dense_to_csc.
Print Assumptions C57_kept_entries.
Print Assumptions C57_sorted_once_each.
