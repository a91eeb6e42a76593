From Coq Require Import ZArith List Lia Bool Sorted.
From Verif Require Import Base TripletModel TripletSpec.
Import ListNotations.
Local Open Scope Z_scope.

Section P.
Variable T : Type.
Variable z : T.
Notation tr := (triplet T).

(* Storage discipline. *)
Definition wf (s : tr) : Prop :=
  0 <= nnz_ s <= nzmax_ s /\
  Z.of_nat (length (row_ s)) = nzmax_ s /\
  Z.of_nat (length (col_ s)) = nzmax_ s /\
  Z.of_nat (length (elems_ s)) = nzmax_ s.

(* The used prefix of the three arrays. *)
Definition view (s : tr) : list (Z * Z * T) :=
  let n := Z.to_nat (nnz_ s) in
  combine (combine (firstn n (row_ s)) (firstn n (col_ s))) (firstn n (elems_ s)).

Lemma ctor_wf r c cap s : ctor T z r c cap = Ok s -> wf s /\ view s = [].
Proof.
  unfold ctor. destruct (cap <? 0) eqn:E; [discriminate|].
  destruct ((r =? 0) || (c =? 0)); intros H; inversion H; subst; clear H;
    unfold wf, view; simpl; rewrite ?repeat_length; repeat split; try lia.
Qed.

Lemma grow_facts s n : wf s ->
  wf (grow T z s n) /\ view (grow T z s n) = view s /\
  nnz_ (grow T z s n) = nnz_ s /\ nzmax_ (grow T z s n) = Z.max (nzmax_ s) n /\
  rows_ (grow T z s n) = rows_ s /\ cols_ (grow T z s n) = cols_ s.
Proof.
  intros (Hn & H1 & H2 & H3). unfold grow.
  destruct (n <=? nzmax_ s) eqn:E.
  - unfold wf. repeat split; auto; lia.
  - unfold wf, view; simpl.
    rewrite !resize_length by lia.
    rewrite !firstn_resize by lia.
    repeat split; auto; lia.
Qed.

Lemma combine_snoc {A B} (a : list A) (b : list B) x y :
  length a = length b -> combine (a ++ [x]) (b ++ [y]) = combine a b ++ [(x, y)].
Proof.
  revert b; induction a; destruct b; simpl; intros; try discriminate; auto.
  f_equal. apply IHa. lia.
Qed.

Lemma insert_cases s r c v : wf s ->
  (nnz_ s = nzmax_ s /\ 2 * INT_MAX < 3 * nzmax_ s /\ insert T z s r c v = (s, Threw)) \/
  (~ (nnz_ s = nzmax_ s /\ 2 * INT_MAX < 3 * nzmax_ s) /\
   exists s', insert T z s r c v = (s', Done) /\ wf s' /\ view s' = view s ++ [(r, c, v)] /\
     nnz_ s' = nnz_ s + 1 /\ rows_ s' = rows_ s /\ cols_ s' = cols_ s /\
     nzmax_ s' = (if nzmax_ s <=? nnz_ s then (if nzmax_ s <? 2 then 2 else 3 * nzmax_ s / 2) else nzmax_ s)).
Proof.
  intros W.
  assert (Wr : forall s1, wf s1 -> nnz_ s1 < nzmax_ s1 ->
    exists s2, match set (row_ s1) (nnz_ s1) r, set (col_ s1) (nnz_ s1) c, set (elems_ s1) (nnz_ s1) v with
      | Ok r', Ok c', Ok v' => (mk (rows_ s1) (cols_ s1) (nnz_ s1 + 1) (nzmax_ s1) r' c' v', Done)
      | _, _, _ => (s1, Undef)
      end = (s2, Done) /\ wf s2 /\ view s2 = view s1 ++ [(r, c, v)] /\ nnz_ s2 = nnz_ s1 + 1 /\
      rows_ s2 = rows_ s1 /\ cols_ s2 = cols_ s1 /\ nzmax_ s2 = nzmax_ s1).
  { intros s1 (A & B & C & D) Lt. unfold set.
    destruct ((nnz_ s1 <? 0) || (Z.of_nat (length (row_ s1)) <=? nnz_ s1)) eqn:E1;
      [apply orb_true_iff in E1; lia|].
    destruct ((nnz_ s1 <? 0) || (Z.of_nat (length (col_ s1)) <=? nnz_ s1)) eqn:E2;
      [apply orb_true_iff in E2; lia|].
    destruct ((nnz_ s1 <? 0) || (Z.of_nat (length (elems_ s1)) <=? nnz_ s1)) eqn:E3;
      [apply orb_true_iff in E3; lia|].
    eexists. split; [reflexivity|]. unfold wf, view; simpl.
    rewrite !upd_length.
    replace (Z.to_nat (nnz_ s1 + 1)) with (S (Z.to_nat (nnz_ s1))) by lia.
    rewrite !firstn_upd_snoc by lia.
    rewrite combine_snoc by (rewrite !firstn_length; lia).
    rewrite combine_snoc by (rewrite ?combine_length, !firstn_length; lia).
    repeat split; auto; lia. }
  unfold insert. destruct (nzmax_ s <=? nnz_ s) eqn:E.
  - unfold newSize. destruct (nzmax_ s <? 2) eqn:E2.
    + right. split; [unfold INT_MAX; lia|].
      destruct (grow_facts s 2 W) as (G1 & G2 & G3 & G4 & G5 & G6).
      destruct (Wr (grow T z s 2) G1) as (s2 & Q1 & Q2 & Q3 & Q4 & Q5 & Q6 & Q7).
      { destruct W. lia. }
      exists s2. split; [exact Q1|]. rewrite Q3, Q4, Q5, Q6, Q7, G2, G3, G4, G5, G6.
      repeat split; auto; try apply Q2; try lia.
    + destruct (2 * INT_MAX <? 3 * nzmax_ s) eqn:E3.
      * left. destruct W. repeat split; auto; lia.
      * right. split; [lia|].
        assert (nzmax_ s < 3 * nzmax_ s / 2) as Hlt.
        { apply Z.lt_le_trans with (nzmax_ s + 1); [lia|]. apply Z.div_le_lower_bound; lia. }
        destruct (grow_facts s (3 * nzmax_ s / 2) W) as (G1 & G2 & G3 & G4 & G5 & G6).
        destruct (Wr (grow T z s (3 * nzmax_ s / 2)) G1) as (s2 & Q1 & Q2 & Q3 & Q4 & Q5 & Q6 & Q7).
        { destruct W. lia. }
        exists s2. split; [exact Q1|]. rewrite Q3, Q4, Q5, Q6, Q7, G2, G3, G4, G5, G6.
        repeat split; auto; try apply Q2; try lia.
  - right. split; [lia|]. apply Wr; auto. lia.
Qed.

Lemma combine_map_id (l : list (Z*Z*T)) k f :
  (length l <= k)%nat ->
  map (fun '(j, e) => if Z.eqb (Z.of_nat j) (Z.of_nat k) then f e else e) (combine (seq 0 (length l)) l) = l.
Proof.
  intros. assert (forall n, (n + length l <= k)%nat ->
   map (fun '(j, e) => if Z.eqb (Z.of_nat j) (Z.of_nat k) then f e else e) (combine (seq n (length l)) l) = l).
  { clear. induction l; simpl; intros; auto.
    destruct (Z.eqb_spec (Z.of_nat n) (Z.of_nat k)); [lia|].
    f_equal. apply IHl. lia. }
  apply H0. lia.
Qed.

Lemma nth_error_change (l : list (Z*Z*T)) k f i :
  nth_error (change l k f) i =
  match nth_error l i with
  | Some e => Some (if Z.eqb (Z.of_nat i) k then f e else e)
  | None => None end.
Proof.
  unfold change.
  assert (forall n, nth_error (map (fun '(j, e) => if Z.eqb (Z.of_nat j) k then f e else e)
            (combine (seq n (length l)) l)) i =
     match nth_error l i with
     | Some e => Some (if Z.eqb (Z.of_nat (n + i)) k then f e else e)
     | None => None end) as H.
  { revert i. induction l; intros i n; simpl.
    - destruct i; reflexivity.
    - destruct i; simpl.
      + now rewrite Nat.add_0_r.
      + rewrite IHl. replace (S n + i)%nat with (n + S i)%nat by lia. reflexivity. }
  apply (H 0%nat).
Qed.

Lemma list_ext {A} (a b : list A) : (forall i, nth_error a i = nth_error b i) -> a = b.
Proof.
  revert b; induction a; destruct b; intros H; auto.
  - specialize (H 0%nat); discriminate.
  - specialize (H 0%nat); discriminate.
  - f_equal. { specialize (H 0%nat). simpl in H. congruence. }
    apply IHa. intros i. apply (H (S i)).
Qed.

Lemma nth_error_combine {A B} (a : list A) (b : list B) i :
  nth_error (combine a b) i =
  match nth_error a i, nth_error b i with Some x, Some y => Some (x, y) | _, _ => None end.
Proof.
  revert b i; induction a; intros b i; simpl.
  - destruct i; reflexivity.
  - destruct b; simpl.
    + destruct i; simpl; auto. now destruct (nth_error a0 i).
    + destruct i; simpl; auto.
Qed.

Lemma firstn_upd_lt {A} (l : list A) n i v :
  (i < n)%nat -> firstn n (upd l i v) = upd (firstn n l) i v.
Proof.
  revert n i; induction l; destruct n, i; simpl; intros; try lia; auto.
  f_equal. apply IHl. lia.
Qed.

Lemma nth_error_firstn' {A} (l : list A) n i :
  nth_error (firstn n l) i = if (i <? n)%nat then nth_error l i else None.
Proof.
  revert n i; induction l; intros n i.
  - rewrite firstn_nil. destruct (i <? n)%nat; destruct i; reflexivity.
  - destruct n; simpl.
    + destruct i; reflexivity.
    + destruct i; simpl; auto. rewrite IHl. reflexivity.
Qed.

Lemma nth_error_upd {A} (l : list A) i j v :
  nth_error (upd l i v) j = if Nat.eqb i j then (if (j <? length l)%nat then Some v else None) else nth_error l j.
Proof.
  destruct (Nat.eqb_spec i j).
  - subst. destruct (j <? length l)%nat eqn:E.
    + apply nth_error_upd_eq. apply Nat.ltb_lt in E. lia.
    + apply Nat.ltb_ge in E. apply nth_error_None. rewrite upd_length. lia.
  - now apply nth_error_upd_neq.
Qed.

Lemma nth_view s i : wf s ->
  nth_error (view s) i =
  match nth_error (firstn (Z.to_nat (nnz_ s)) (row_ s)) i,
        nth_error (firstn (Z.to_nat (nnz_ s)) (col_ s)) i,
        nth_error (firstn (Z.to_nat (nnz_ s)) (elems_ s)) i with
  | Some r, Some c, Some v => Some (r, c, v) | _, _, _ => None end.
Proof.
  intros. unfold view. rewrite !nth_error_combine.
  destruct (nth_error (firstn (Z.to_nat (nnz_ s)) (row_ s)) i); auto.
  destruct (nth_error (firstn (Z.to_nat (nnz_ s)) (col_ s)) i); auto.
Qed.

Definition doneness (s : tr) (o : op T) (e : ended) (s' : tr) : Prop :=
  wf s' /\ rows_ s' = rows_ s /\ cols_ s' = cols_ s /\ nzmax_ s <= nzmax_ s' /\
  (e = Done -> view s' = effect (view s) o) /\
  (e <> Done -> s' = s).

Ltac setcase :=
  unfold set;
  match goal with |- context [if ?b then UB else _] => destruct b eqn:?E end;
  [ cbn [fst snd]; repeat split; auto; try congruence; lia | ].

Lemma nth_some {A} (l : list A) i : (i < length l)%nat -> exists x, nth_error l i = Some x.
Proof.
  intros. destruct (nth_error l i) eqn:E; eauto. apply nth_error_None in E. lia.
Qed.

Lemma set_view_row s k r : wf s -> 0 <= k < nzmax_ s ->
  view (mk (rows_ s) (cols_ s) (nnz_ s) (nzmax_ s) (upd (row_ s) (Z.to_nat k) r) (col_ s) (elems_ s))
  = change (view s) k (fun '(_, c, v) => (r, c, v)).
Proof.
  intros W K. apply list_ext; intros i. rewrite nth_error_change.
  rewrite !nth_view by (unfold wf in *; simpl; rewrite ?upd_length; auto).
  simpl. rewrite !nth_error_firstn', nth_error_upd.
  destruct (i <? Z.to_nat (nnz_ s))%nat eqn:L; auto. apply Nat.ltb_lt in L.
  destruct W as (A & B & C & D).
  destruct (nth_some (row_ s) i) as [x Hx]; [lia|].
  destruct (nth_some (col_ s) i) as [y Hy]; [lia|].
  destruct (nth_some (elems_ s) i) as [w Hw]; [lia|].
  rewrite Hx, Hy, Hw.
  destruct (Nat.eqb_spec (Z.to_nat k) i); destruct (Z.eqb_spec (Z.of_nat i) k); try lia; auto.
  destruct (Nat.ltb_spec i (length (row_ s))); [auto|lia].
Qed.

Lemma set_view_col s k r : wf s -> 0 <= k < nzmax_ s ->
  view (mk (rows_ s) (cols_ s) (nnz_ s) (nzmax_ s) (row_ s) (upd (col_ s) (Z.to_nat k) r) (elems_ s))
  = change (view s) k (fun '(c, _, v) => (c, r, v)).
Proof.
  intros W K. apply list_ext; intros i. rewrite nth_error_change.
  rewrite !nth_view by (unfold wf in *; simpl; rewrite ?upd_length; auto).
  simpl. rewrite !nth_error_firstn', nth_error_upd.
  destruct (i <? Z.to_nat (nnz_ s))%nat eqn:L; auto. apply Nat.ltb_lt in L.
  destruct W as (A & B & C & D).
  destruct (nth_some (row_ s) i) as [x Hx]; [lia|].
  destruct (nth_some (col_ s) i) as [y Hy]; [lia|].
  destruct (nth_some (elems_ s) i) as [w Hw]; [lia|].
  rewrite Hx, Hy, Hw.
  destruct (Nat.eqb_spec (Z.to_nat k) i); destruct (Z.eqb_spec (Z.of_nat i) k); try lia; auto.
  destruct (Nat.ltb_spec i (length (col_ s))); [auto|lia].
Qed.

Lemma set_view_elem s k r : wf s -> 0 <= k < nzmax_ s ->
  view (mk (rows_ s) (cols_ s) (nnz_ s) (nzmax_ s) (row_ s) (col_ s) (upd (elems_ s) (Z.to_nat k) r))
  = change (view s) k (fun '(c, d, _) => (c, d, r)).
Proof.
  intros W K. apply list_ext; intros i. rewrite nth_error_change.
  rewrite !nth_view by (unfold wf in *; simpl; rewrite ?upd_length; auto).
  simpl. rewrite !nth_error_firstn', nth_error_upd.
  destruct (i <? Z.to_nat (nnz_ s))%nat eqn:L; auto. apply Nat.ltb_lt in L.
  destruct W as (A & B & C & D).
  destruct (nth_some (row_ s) i) as [x Hx]; [lia|].
  destruct (nth_some (col_ s) i) as [y Hy]; [lia|].
  destruct (nth_some (elems_ s) i) as [w Hw]; [lia|].
  rewrite Hx, Hy, Hw.
  destruct (Nat.eqb_spec (Z.to_nat k) i); destruct (Z.eqb_spec (Z.of_nat i) k); try lia; auto.
  destruct (Nat.ltb_spec i (length (elems_ s))); [auto|lia].
Qed.

Lemma step_ok s o : wf s -> doneness s o (snd (step T z s o)) (fst (step T z s o)).
Proof.
  intros W. unfold doneness. destruct o; simpl step.
  - destruct (insert_cases s r c v W) as [(A & B & E) | (_ & s' & E & W' & V & N & R & C & M)];
      rewrite E; cbn [fst snd].
    + repeat split; auto; try congruence; try apply W; lia.
    + repeat split; auto; try congruence; try apply W'; try lia.
      rewrite M. destruct W. destruct (nzmax_ s <=? nnz_ s) eqn:Q; [|lia].
      destruct (nzmax_ s <? 2) eqn:Q2; [lia|]. apply Z.div_le_lower_bound; lia.
  - destruct (grow_facts s n W) as (G1 & G2 & G3 & G4 & G5 & G6).
    unfold expand; cbn [fst snd]. repeat split; auto; try apply G1; try congruence; try lia.
  - destruct W as (A & B & C & D). unfold clear; simpl. unfold wf, view; simpl.
    rewrite !map_length. repeat split; auto; try congruence; lia.
  - unfold setRow. pose proof W as W0. destruct W as (A & B & C & D). setcase.
    apply orb_false_iff in E. simpl. unfold wf; simpl. rewrite !upd_length.
    repeat split; auto; try congruence; try lia. intros _. apply set_view_row; auto; lia.
  - unfold setCol. pose proof W as W0. destruct W as (A & B & C & D). setcase.
    apply orb_false_iff in E. simpl. unfold wf; simpl. rewrite !upd_length.
    repeat split; auto; try congruence; try lia. intros _. apply set_view_col; auto; lia.
  - unfold setElem. pose proof W as W0. destruct W as (A & B & C & D). setcase.
    apply orb_false_iff in E. simpl. unfold wf; simpl. rewrite !upd_length.
    repeat split; auto; try congruence; try lia. intros _. apply set_view_elem; auto; lia.
Qed.

Lemma run_ok os : forall s, wf s ->
  let s' := fst (run T z s os) in
  let es := snd (run T z s os) in
  wf s' /\ rows_ s' = rows_ s /\ cols_ s' = cols_ s /\ nzmax_ s <= nzmax_ s' /\
  view s' = expected (view s) os es /\ length es = length os.
Proof.
  induction os as [|o os IH]; intros s W; simpl.
  - repeat split; auto; try apply W; lia.
  - destruct (step_ok s o W) as (W1 & R & C & M & D & U).
    destruct (step T z s o) as [s1 e] eqn:E. cbn [fst snd] in *.
    specialize (IH s1 W1). destruct (run T z s1 os) as [s2 es] eqn:E2. cbn [fst snd] in *.
    destruct IH as (W2 & R2 & C2 & M2 & V2 & L2).
    repeat split; auto; try apply W2; try congruence; try lia.
    + rewrite V2. simpl. destruct e.
      * rewrite D by auto. reflexivity.
      * rewrite (U ltac:(congruence)). reflexivity.
      * rewrite (U ltac:(congruence)). reflexivity.
    + simpl. lia.
Qed.

Lemma view_length s : wf s -> Z.of_nat (length (view s)) = nnz_ s.
Proof.
  intros (A & B & C & D). unfold view. rewrite !combine_length, !firstn_length. lia.
Qed.

Lemma presents_view s : wf s -> presents s (view s).
Proof.
  intros W. split. { symmetry. now apply view_length. }
  intros k r c v H. rewrite nth_view in H by auto.
  rewrite !nth_error_firstn' in H. destruct (k <? Z.to_nat (nnz_ s))%nat; [|discriminate].
  unfold row, col, elem, get. rewrite !Nat2Z.id.
  destruct (Z.ltb_spec (Z.of_nat k) 0); [lia|].
  destruct (nth_error (row_ s) k), (nth_error (col_ s) k), (nth_error (elems_ s) k); try discriminate.
  inversion H; subst; auto.
Qed.

Lemma history_correct rows cols cap s0 os s ends :
  ctor T z rows cols cap = Ok s0 -> run T z s0 os = (s, ends) ->
  presents s (expected [] os ends) /\
  rows_ s = (if (rows =? 0) || (cols =? 0) then 0 else rows) /\
  cols_ s = (if (rows =? 0) || (cols =? 0) then 0 else cols) /\
  length ends = length os.
Proof.
  intros H R. destruct (ctor_wf _ _ _ _ H) as (W & V).
  destruct (run_ok os s0 W) as (W' & R' & C' & M' & V' & L').
  rewrite R in *. cbn [fst snd] in *.
  split. { rewrite V in V'. rewrite <- V'. now apply presents_view. }
  rewrite R', C'. clear - H L'. unfold ctor in H. destruct (cap <? 0); [discriminate|].
  destruct ((rows =? 0) || (cols =? 0)); inversion H; subst; auto.
Qed.

Lemma reachable_wf s : reachable z s -> wf s.
Proof.
  intros (rows & cols & cap & s0 & os & ends & H & R & _).
  destruct (ctor_wf _ _ _ _ H) as (W & V).
  destruct (run_ok os s0 W) as (W' & _). rewrite R in W'. exact W'.
Qed.

Lemma capacity s : reachable z s ->
  0 <= nnz_ s <= nzmax_ s /\
  Z.of_nat (length (row_ s)) = nzmax_ s /\
  Z.of_nat (length (col_ s)) = nzmax_ s /\
  Z.of_nat (length (elems_ s)) = nzmax_ s.
Proof. apply reachable_wf. Qed.

Lemma insert_throws_iff s r c v : reachable z s ->
  (snd (insert T z s r c v) = Threw <-> nnz_ s = nzmax_ s /\ INT_MAX < nzmax_ s + nzmax_ s / 2 + nzmax_ s mod 2) /\
  (snd (insert T z s r c v) = Threw -> fst (insert T z s r c v) = s) /\
  snd (insert T z s r c v) <> Undef.
Proof.
  intros R. apply reachable_wf in R.
  assert (2 * INT_MAX < 3 * nzmax_ s <-> INT_MAX < nzmax_ s + nzmax_ s / 2 + nzmax_ s mod 2) as Hq.
  { pose proof (Z.div_mod (nzmax_ s) 2). pose proof (Z.mod_pos_bound (nzmax_ s) 2). unfold INT_MAX in *. lia. }
  destruct (insert_cases s r c v R) as [(A & B & E) | (N & s' & E & _)]; rewrite E; simpl.
  - split; [|split]; [|auto|congruence]. split; auto. intros _. split; auto. now apply Hq.
  - split; [|split]; [|congruence|congruence]. split; [discriminate|].
    intros (X & Y). exfalso. apply N. split; auto. now apply Hq.
Qed.

Lemma nzmax_monotone s o : reachable z s -> nzmax_ s <= nzmax_ (fst (step T z s o)).
Proof. intros R. apply reachable_wf in R. apply (step_ok s o R). Qed.

Lemma throw_unchanged s o : reachable z s ->
  snd (step T z s o) = Threw -> fst (step T z s o) = s.
Proof.
  intros R E. apply reachable_wf in R. destruct (step_ok s o R) as (_ & _ & _ & _ & _ & U).
  apply U. congruence.
Qed.

Lemma undef_iff s o : reachable z s ->
  (snd (step T z s o) = Undef <->
   match o with
   | SetRow k _ | SetCol k _ | SetElem k _ => ~ (0 <= k < nzmax_ s)
   | _ => False end).
Proof.
  intros R. pose proof (reachable_wf s R) as (A & B & C & D). destruct o; simpl step.
  - destruct (insert_throws_iff s r c v R) as (_ & _ & U). tauto.
  - simpl. split; [discriminate|tauto].
  - simpl. split; [discriminate|tauto].
  - unfold setRow, set. destruct ((k <? 0) || _) eqn:E; simpl.
    + apply orb_true_iff in E. split; auto. intros _. lia.
    + apply orb_false_iff in E. split; [discriminate|]. lia.
  - unfold setCol, set. destruct ((k <? 0) || _) eqn:E; simpl.
    + apply orb_true_iff in E. split; auto. intros _. lia.
    + apply orb_false_iff in E. split; [discriminate|]. lia.
  - unfold setElem, set. destruct ((k <? 0) || _) eqn:E; simpl.
    + apply orb_true_iff in E. split; auto. intros _. lia.
    + apply orb_false_iff in E. split; [discriminate|]. lia.
Qed.

(* Amortised cost *)
Lemma half_bound k : 2 <= k -> k <= 3 * (3 * k / 2 - k).
Proof.
  intros. pose proof (Z.div_mod (3 * k) 2). pose proof (Z.mod_pos_bound (3*k) 2).
  destruct (Z.eq_dec k 2); [subst; vm_compute; discriminate|]. lia.
Qed.

Lemma cost_insert os : Forall is_insert os -> forall s, wf s ->
  let s' := fst (run T z s os) in
  let es := snd (run T z s os) in
  total_moved T z s os <= 3 * (nzmax_ s' - nzmax_ s) /\
  (nzmax_ s' = nzmax_ s \/ 2 * nzmax_ s' <= 3 * nnz_ s' \/ (nzmax_ s' = 2 /\ nzmax_ s < 2)) /\
  nnz_ s' <= nnz_ s + Z.of_nat (length os) /\ nnz_ s <= nnz_ s' /\
  (nzmax_ s' <> nzmax_ s -> nnz_ s < nnz_ s').
Proof.
  induction os as [|o os IH]; intros F s W; simpl.
  - repeat split; try lia; try (left; reflexivity); try (intros; congruence).
  - inversion F; subst. destruct o; simpl in H1; try tauto.
    unfold moved. simpl step.
    destruct (insert_cases s r c v W) as [(A & B & E) | (_ & s1 & E & W1 & V & N & R & C & M)];
      rewrite E; cbn [fst snd].
    + specialize (IH H2 s W). destruct (run T z s os) as [s2 es]. cbn [fst snd] in *.
      destruct (Z.ltb_spec (nzmax_ s) (nzmax_ s)); [lia|].
      intuition lia.
    + specialize (IH H2 s1 W1). destruct (run T z s1 os) as [s2 es]. cbn [fst snd] in *.
      destruct IH as (I1 & I2 & I3 & I4 & I5).
      destruct W as (Wn & _).
      destruct (Z.leb_spec (nzmax_ s) (nnz_ s)).
      * assert (nnz_ s = nzmax_ s) by lia.
        destruct (Z.ltb_spec (nzmax_ s) 2).
        -- destruct (Z.ltb_spec (nzmax_ s) (nzmax_ s1)); [|lia].
           repeat split; try lia.
        -- pose proof (half_bound (nzmax_ s) ltac:(lia)).
           assert (3 * nzmax_ s / 2 * 2 <= 3 * nzmax_ s) by (rewrite Z.mul_comm; apply Z.mul_div_le; lia).
           destruct (Z.ltb_spec (nzmax_ s) (nzmax_ s1)); [|lia].
           repeat split; try lia.
      * destruct (Z.ltb_spec (nzmax_ s) (nzmax_ s1)); [lia|].
        repeat split; try lia.
Qed.

Lemma cost_linear rows cols cap s0 os :
  ctor T z rows cols cap = Ok s0 -> Forall is_insert os ->
  2 * total_moved T z s0 os <= 9 * Z.of_nat (length os) + 6.
Proof.
  intros H F. destruct (ctor_wf _ _ _ _ H) as (W & V).
  assert (nnz_ s0 = 0) as N0.
  { pose proof (view_length s0 W). rewrite V in H0. simpl in H0. lia. }
  destruct (cost_insert os F s0 W) as (I1 & I2 & I3 & I4 & I5).
  destruct W as (Wn & _).
  lia.
Qed.

Lemma cost_linear_any s os :
  reachable z s -> Forall is_insert os ->
  2 * total_moved T z s os <= 9 * (nnz_ s + Z.of_nat (length os)) + 12.
Proof.
  intros H F. pose proof (reachable_wf s H) as W.
  destruct (cost_insert os F s W) as (I1 & I2 & I3 & I4 & I5).
  destruct W as (Wn & _). lia.
Qed.

(* Dense constructor *)
Lemma count_fold (big : T -> bool) (l : list T) : forall n : Z,
  fold_left (fun n x => if big x then n + 1 else n) l n =
  n + Z.of_nat (length (filter big l)).
Proof.
  induction l as [|a l IH]; intros n.
  - cbn. lia.
  - cbn [fold_left filter]. rewrite IH. destruct (big a); [cbn [length]|]; lia.
Qed.

Definition rowents (big : T -> bool) (i : Z) (j : nat) (r : list T) : list (Z*Z*T) :=
  flat_map (fun '(j, x) => if big x then [(i, Z.of_nat j, x)] else []) (combine (seq j (length r)) r).

Lemma rowents_cons big i j x r :
  rowents big i j (x :: r) = (if big x then [(i, Z.of_nat j, x)] else []) ++ rowents big i (S j) r.
Proof. reflexivity. Qed.

Lemma scan_row_ok big i : forall (r : list T) (j : nat) (s : tr), wf s ->
  nnz_ s + Z.of_nat (length (filter big r)) <= nzmax_ s ->
  exists s', scan_row T big i (Z.of_nat j) r s = Ok s' /\ wf s' /\
   view s' = view s ++ rowents big i j r /\ nzmax_ s' = nzmax_ s /\
   nnz_ s' = nnz_ s + Z.of_nat (length (filter big r)) /\ rows_ s' = rows_ s /\ cols_ s' = cols_ s.
Proof.
  induction r as [|x r IH]; intros j s W L.
  - simpl in *. exists s. unfold rowents; simpl. rewrite app_nil_r. repeat split; auto; try apply W; lia.
  - rewrite rowents_cons. cbn [scan_row filter] in *. destruct (big x) eqn:B.
    + simpl length in L. pose proof W as (A1 & A2 & A3 & A4).
      destruct (insert_cases s i (Z.of_nat j) x W) as [(Q & _) | (_ & s1 & E & W1 & V & N & R & C & M)]; [lia|].
      unfold insert in E. destruct (Z.leb_spec (nzmax_ s) (nnz_ s)); [lia|].
      destruct (set (row_ s) (nnz_ s) i); try discriminate.
      destruct (set (col_ s) (nnz_ s) (Z.of_nat j)); try discriminate.
      destruct (set (elems_ s) (nnz_ s) x); try discriminate.
      inversion E; subst s1; clear E.
      replace (Z.of_nat j + 1) with (Z.of_nat (S j)) by lia.
      destruct (IH (S j) _ W1) as (s' & E' & W' & V' & M' & N' & R' & C').
      { simpl. lia. }
      exists s'. split; auto. split; auto. rewrite V', V. rewrite <- app_assoc.
      repeat split; auto; try (simpl in *; lia).
    + replace (Z.of_nat j + 1) with (Z.of_nat (S j)) by lia.
      destruct (IH (S j) s W L) as (s' & E' & W' & V' & M' & N' & R' & C').
      exists s'. repeat split; auto; apply W'.
Qed.

Definition aboves (big : T -> bool) (i : nat) (m : list (list T)) : list (Z*Z*T) :=
  flat_map (fun '(i, r) =>
    flat_map (fun '(j, x) => if big x then [(Z.of_nat i, Z.of_nat j, x)] else [])
             (combine (seq 0 (length r)) r))
  (combine (seq i (length m)) m).

Lemma scan_ok big : forall (m : list (list T)) (i : nat) (s : tr), wf s ->
  nnz_ s + Z.of_nat (length (filter big (concat m))) <= nzmax_ s ->
  exists s', scan T big (Z.of_nat i) m s = Ok s' /\ wf s' /\
   view s' = view s ++ aboves big i m /\ nzmax_ s' = nzmax_ s /\
   nnz_ s' = nnz_ s + Z.of_nat (length (filter big (concat m))) /\ rows_ s' = rows_ s /\ cols_ s' = cols_ s.
Proof.
  induction m as [|r m IH]; intros i s W L.
  - simpl in *. exists s. rewrite app_nil_r. repeat split; auto; try apply W; lia.
  - simpl in L. rewrite filter_app, app_length in L.
    destruct (scan_row_ok big (Z.of_nat i) r 0 s W) as (s1 & E1 & W1 & V1 & M1 & N1 & R1 & C1); [lia|].
    destruct (IH (S i) s1 W1) as (s' & E' & W' & V' & M' & N' & R' & C'); [lia|].
    exists s'. cbn [scan]. change 0 with (Z.of_nat 0). rewrite E1. cbn [bind].
    replace (Z.of_nat i + 1) with (Z.of_nat (S i)) by lia. rewrite E'.
    split; auto. split; auto. rewrite V', V1, <- app_assoc.
    simpl concat. rewrite filter_app, app_length.
    repeat split; auto; try congruence; try lia.
Qed.

Lemma filter_concat_nil big (m : list (list T)) :
  (forall r, In r m -> r = []) -> filter big (concat m) = [] /\ forall i, aboves big i m = [].
Proof.
  induction m as [|r m IH]; intros H; simpl; auto.
  destruct IH as (A & B). { intros; apply H; simpl; auto. }
  rewrite (H r) by (simpl; auto). simpl. split; auto. intros i.
  unfold aboves. simpl. apply (B (S i)).
Qed.

Lemma dense_ok big ncols m :
  Forall (fun r => Z.of_nat (length r) = ncols) m ->
  Z.of_nat (length (filter big (concat m))) <= INT_MAX ->
  exists s, ctor_dense T z big ncols m = Ok s /\
    presents s (above big m) /\
    countNonzeros big m = Ok (nnz_ s) /\ nzmax_ s = nnz_ s /\
    ((m <> [] /\ ncols <> 0) -> rows_ s = Z.of_nat (length m) /\ cols_ s = ncols).
Proof.
  intros F L. unfold ctor_dense, countNonzeros. rewrite count_fold. rewrite Z.add_0_l.
  destruct (Z.ltb_spec INT_MAX (Z.of_nat (length (filter big (concat m))))); [lia|].
  cbn [bind].
  set (nz := Z.of_nat (length (filter big (concat m)))) in *.
  assert (exists s0, ctor T z (Z.of_nat (length m)) ncols nz = Ok s0 /\ nzmax_ s0 = nz /\
     nnz_ s0 = 0 /\ ((m <> [] /\ ncols <> 0) -> rows_ s0 = Z.of_nat (length m) /\ cols_ s0 = ncols)) as (s0 & E & NZ & N0 & DD).
  { unfold ctor. destruct (Z.ltb_spec nz 0); [lia|].
    destruct ((Z.of_nat (length m) =? 0) || (ncols =? 0)) eqn:Q.
    - eexists. split; [reflexivity|]. simpl. apply orb_true_iff in Q. rewrite !Z.eqb_eq in Q.
      repeat split.
      + subst nz. destruct Q as [Q|Q].
        * destruct m; [reflexivity|simpl in Q; lia].
        * subst ncols. destruct (filter_concat_nil big m) as (A & _).
          { intros r Hr. rewrite Forall_forall in F. specialize (F r Hr). destruct r; auto; simpl in F; lia. }
          rewrite A. reflexivity.
      + destruct Q as [Q|Q]; [|tauto]. destruct m; [tauto|simpl in Q; lia].
      + destruct Q as [Q|Q]; [|tauto]. destruct m; [tauto|simpl in Q; lia].
    - eexists. split; [reflexivity|]. simpl. auto. }
  destruct (ctor_wf _ _ _ _ E) as (W & V).
  destruct (scan_ok big m 0 s0 W) as (s' & E' & W' & V' & M' & N' & R' & C'). { fold nz. lia. }
  exists s'. rewrite E. cbn [bind]. change 0 with (Z.of_nat 0). split; [exact E'|].
  rewrite V in V'. simpl in V'.
  change (above big m) with (aboves big 0 m).
  split. { rewrite <- V'. now apply presents_view. }
  fold nz in N'. rewrite R', C'. repeat split; try tauto; try (f_equal; lia); lia.
Qed.

Lemma dense_throws big ncols m :
  INT_MAX < Z.of_nat (length (filter big (concat m))) ->
  ctor_dense T z big ncols m = Throw.
Proof.
  intros. unfold ctor_dense, countNonzeros. rewrite count_fold, Z.add_0_l.
  destruct (Z.ltb_spec INT_MAX (Z.of_nat (length (filter big (concat m))))); [reflexivity|lia].
Qed.

End P.

(* Membership view of `above`: exactly the positions above tolerance. *)
Lemma flat_map_in_combine {A B} (f : nat * A -> list B) (l : list A) n y :
  In y (flat_map f (combine (seq n (length l)) l)) <->
  exists i x, nth_error l i = Some x /\ In y (f ((n + i)%nat, x)).
Proof.
  revert n; induction l as [|a l IH]; intros n; simpl.
  - split; [tauto|]. intros (i & x & H & _). destruct i; discriminate.
  - rewrite in_app_iff, IH. split.
    + intros [H | (i & x & H & Hin)].
      * exists 0%nat, a. rewrite Nat.add_0_r. auto.
      * exists (S i), x. simpl. replace (n + S i)%nat with (S n + i)%nat by lia. auto.
    + intros (i & x & H & Hin). destruct i; simpl in H.
      * inversion H; subst. rewrite Nat.add_0_r in Hin. auto.
      * right. exists i, x. replace (S n + i)%nat with (n + S i)%nat by lia. auto.
Qed.

Lemma above_in {T} (big : T -> bool) m i j x :
  In (i, j, x) (above big m) <->
  exists r, 0 <= i /\ 0 <= j /\ nth_error m (Z.to_nat i) = Some r /\
            nth_error r (Z.to_nat j) = Some x /\ big x = true.
Proof.
  unfold above. rewrite flat_map_in_combine. split.
  - intros (i' & r & Hr & Hin). cbn in Hin.
    apply (flat_map_in_combine (fun '(j, x) => if big x then [(Z.of_nat i', Z.of_nat j, x)] else []) r 0) in Hin.
    destruct Hin as (j' & x' & Hx & Hin). cbn in Hin.
    destruct (big x') eqn:B; [|destruct Hin].
    destruct Hin as [Hin|[]]. inversion Hin; subst.
    exists r. rewrite !Nat2Z.id. repeat split; auto; lia.
  - intros (r & Hi & Hj & Hr & Hx & B).
    exists (Z.to_nat i), r. split; auto. cbn.
    apply (flat_map_in_combine (fun '(j, x) => if big x then [(Z.of_nat (Z.to_nat i), Z.of_nat j, x)] else []) r 0).
    exists (Z.to_nat j), x. split; auto. cbn. rewrite B. rewrite !Z2Nat.id by lia. simpl. auto.
Qed.

(* row-major order, hence no position twice *)
Lemma sorted_app {A} (R : A -> A -> Prop) (a b : list A) :
  StronglySorted R a -> StronglySorted R b -> (forall x y, In x a -> In y b -> R x y) ->
  StronglySorted R (a ++ b).
Proof.
  induction 1; intros Hb H'; simpl; auto. constructor.
  - apply IHStronglySorted; auto. intros. apply H'; simpl; auto.
  - rewrite Forall_forall in *. intros y Hy. apply in_app_iff in Hy. destruct Hy; auto.
    apply H'; simpl; auto.
Qed.

Lemma row_sorted {T} (big : T -> bool) i r : forall n,
  StronglySorted (@row_major_lt T) (rowents T big i n r).
Proof.
  induction r as [|x r IH]; intros n; [constructor|].
  rewrite rowents_cons. apply sorted_app; auto.
  - destruct (big x); repeat constructor.
  - intros a b Ha Hb. destruct (big x); [|destruct Ha]. destruct Ha as [<-|[]].
    unfold rowents in Hb. apply flat_map_in_combine in Hb.
    destruct Hb as (j & y & Hy & Hin). cbn in Hin. destruct (big y); [|destruct Hin].
    destruct Hin as [<-|[]]. simpl. right. split; auto. lia.
Qed.

Lemma above_sorted {T} (big : T -> bool) m : StronglySorted (@row_major_lt T) (above big m).
Proof.
  change (above big m) with (aboves T big 0 m). generalize 0%nat as i.
  induction m as [|r m IH]; intros i; [constructor|].
  change (aboves T big i (r :: m)) with (rowents T big (Z.of_nat i) 0 r ++ aboves T big (S i) m).
  apply sorted_app; auto. { apply row_sorted. }
  intros a b Ha Hb.
  unfold rowents in Ha. apply flat_map_in_combine in Ha.
  destruct Ha as (j & y & Hy & Hin). cbn in Hin. destruct (big y); [|destruct Hin]. destruct Hin as [<-|[]].
  unfold aboves in Hb. apply flat_map_in_combine in Hb.
  destruct Hb as (i' & r' & Hr & Hin). cbn in Hin.
  apply (flat_map_in_combine (fun '(j, x) => if big x then [(Z.of_nat (S (i + i')), Z.of_nat j, x)] else []) r' 0) in Hin.
  destruct Hin as (j' & y' & Hy' & Hin). cbn in Hin. destruct (big y'); [|destruct Hin]. destruct Hin as [<-|[]].
  unfold row_major_lt. left. lia.
Qed.
