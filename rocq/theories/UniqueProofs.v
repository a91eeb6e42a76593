From Coq Require Import ZArith List Lia Bool Permutation Sorted.
From Verif Require Import Base Loops BlitzModel BlitzSpec BlitzProofs.
Import ListNotations.

(* ---- strict weak orders ---- *)
Section SW.
Context {A : Type} (lt : A -> A -> bool) (H : strict_weak lt).

Lemma sw_asym x y : lt x y = true -> lt y x = false.
Proof.
  intros E. destruct (lt y x) eqn:E2; auto.
  pose proof (sw_trans _ H x y x E E2). rewrite (sw_irrefl _ H) in H0. discriminate.
Qed.

Lemma sw_negtrans x y z : lt x y = false -> lt y z = false -> lt x z = false.
Proof.
  intros E1 E2. destruct (lt x z) eqn:E3; auto.
  destruct (lt y x) eqn:E4.
  - rewrite (sw_trans _ H y x z E4 E3) in E2. discriminate.
  - destruct (lt z y) eqn:E5.
    + rewrite (sw_trans _ H x z y E3 E5) in E1. discriminate.
    + destruct (sw_incomp _ H x y z) as [Q _]; [split; auto|split; auto|]. congruence.
Qed.

Lemma sw_lt_le x y z : lt x y = true -> lt z y = false -> lt x z = true.
Proof.
  intros E1 E2. destruct (lt x z) eqn:E3; auto. rewrite (sw_negtrans x z y E3 E2) in E1. discriminate.
Qed.

Lemma sw_le_lt x y z : lt y x = false -> lt y z = true -> lt x z = true.
Proof.
  intros E1 E2. destruct (lt x z) eqn:E3; auto. rewrite (sw_negtrans y x z E1 E3) in E2. discriminate.
Qed.
End SW.

Lemma mk_strict_weak {A} (lt : A -> A -> bool) :
  (forall x y, lt x y = true -> lt y x = false) ->
  (forall x y z, lt x y = false -> lt y z = false -> lt x z = false) -> strict_weak lt.
Proof.
  intros Ha Hn. constructor.
  - intros x. destruct (lt x x) eqn:E; auto. rewrite (Ha x x E) in E. auto.
  - intros x y z E1 E2. destruct (lt x z) eqn:E3; auto.
    pose proof (Ha _ _ E2) as E4. rewrite (Hn x z y E3 E4) in E1. discriminate.
  - intros x y z (A1 & A2) (B1 & B2). split; eapply Hn; eauto.
Qed.

Lemma sw_pullback {A B} (lt : A -> A -> bool) (f : B -> A) :
  strict_weak lt -> strict_weak (fun i j => lt (f j) (f i)).
Proof.
  intros H. apply mk_strict_weak.
  - intros. now apply sw_asym.
  - intros x y z E1 E2. eapply sw_negtrans; eauto.
Qed.

Section U.
Variable T : Type.
Variable ltb : T -> T -> bool.
Variable sort : (nat -> nat -> bool) -> list nat -> list nat.
Variable A : nat -> nat -> T.
Variables (rows cols : nat).

Hypothesis Hsw : strict_weak ltb.
Hypothesis Hsort : is_sort sort.

Notation cE := (compareExact T ltb A).

Lemma cE_asym ord l r : cE ord l r = true -> cE ord r l = false.
Proof.
  induction ord as [|j ord IH]; simpl; [discriminate|].
  destruct (ltb (A l j) (A r j)) eqn:E1.
  - intros _. rewrite (sw_asym ltb Hsw _ _ E1). reflexivity.
  - destruct (ltb (A r j) (A l j)); [discriminate|]. auto.
Qed.

Lemma cE_negtrans ord x y z : cE ord x y = false -> cE ord y z = false -> cE ord x z = false.
Proof.
  induction ord as [|j ord IH]; simpl; [auto|].
  destruct (ltb (A x j) (A y j)) eqn:E1; [discriminate|].
  destruct (ltb (A y j) (A z j)) eqn:E2; [intros; discriminate|].
  rewrite (sw_negtrans ltb Hsw _ _ _ E1 E2).
  destruct (ltb (A y j) (A x j)) eqn:E3.
  - intros _ _. rewrite (sw_le_lt ltb Hsw (A z j) (A y j) (A x j)); auto.
  - destruct (ltb (A z j) (A y j)) eqn:E4.
    + intros _ _. rewrite (sw_lt_le ltb Hsw (A z j) (A y j) (A x j)); auto.
    + rewrite (sw_negtrans ltb Hsw (A z j) (A y j) (A x j)) by auto. auto.
Qed.

Lemma cE_sw ord : strict_weak (cE ord).
Proof. apply mk_strict_weak; [apply cE_asym|apply cE_negtrans]. Qed.

Lemma cE_incomp ord l r : incomparable (cE ord) l r <->
  forall j, In j ord -> incomparable ltb (A l j) (A r j).
Proof.
  unfold incomparable. induction ord as [|j ord IH]; simpl.
  - split; auto. intros _ j [].
  - split.
    + destruct (ltb (A l j) (A r j)) eqn:E1; [intros (? & ?); discriminate|].
      destruct (ltb (A r j) (A l j)) eqn:E2; [intros (? & ?); discriminate|].
      intros H j' [<-|Hj]; [auto|]. apply IH; auto.
    + intros H. destruct (H j (or_introl eq_refl)) as (-> & ->). apply IH. auto.
Qed.

Lemma seq_same_row l r : incomparable (cE (seq 0 cols)) l r <-> same_row ltb A cols l r.
Proof.
  rewrite cE_incomp. unfold same_row. split; intros H j Hj; apply H.
  - apply in_seq. lia.
  - apply in_seq in Hj. lia.
Qed.

(* facts about a sorted iota *)
Section Sorted.
Variable comp : nat -> nat -> bool.
Hypothesis Hc : strict_weak comp.
Notation g0 := (sort comp (seq 0 rows)).

Lemma g0_len : length g0 = rows.
Proof.
  destruct (Hsort comp (seq 0 rows) Hc) as (P & _). apply Permutation_length in P.
  rewrite seq_length in P. auto.
Qed.
Lemma g0_nodup : NoDup g0.
Proof.
  destruct (Hsort comp (seq 0 rows) Hc) as (P & _). eapply Permutation_NoDup; eauto. apply seq_NoDup.
Qed.
Lemma g0_in r : In r g0 <-> r < rows.
Proof.
  destruct (Hsort comp (seq 0 rows) Hc) as (P & _). split; intros H.
  - apply Permutation_sym in P. apply (Permutation_in _ P) in H. apply in_seq in H. lia.
  - apply (Permutation_in _ P). apply in_seq. lia.
Qed.
End Sorted.

Lemma sorted_nth {X} (R : X -> X -> Prop) (l : list X) : StronglySorted R l ->
  forall a b x y, a < b -> nth_error l a = Some x -> nth_error l b = Some y -> R x y.
Proof.
  induction 1; intros i j x y Hij Hx Hy.
  - destruct i; discriminate.
  - destruct j; [lia|]. destruct i; simpl in *.
    + inversion Hx; subst. rewrite Forall_forall in H0. apply H0. eapply nth_error_In; eauto.
    + apply IHStronglySorted with (a := i) (b := j); auto. lia.
Qed.

Lemma unique_correct : 0 < rows ->
  exists gather scatter, unique T ltb sort A rows cols = Ok (gather, scatter) /\
    labelling rows gather scatter /\
    (forall q r, represents gather scatter q r -> same_row ltb A cols q r) /\
    (forall g1 g2 q1 q2, nth_error gather g1 = Some q1 -> nth_error gather g2 = Some q2 ->
        g1 <> g2 -> ~ same_row ltb A cols q1 q2) /\
    (forall r, r < rows -> exists q, represents gather scatter q r).
Proof.
  intros Hpos. unfold unique.
  set (comp := cE (seq 0 cols)).
  assert (Hc : strict_weak comp) by apply cE_sw.
  set (S0 := sort comp (seq 0 rows)).
  assert (L0 : length S0 = rows) by apply (g0_len comp Hc).
  assert (N0 : NoDup S0) by apply (g0_nodup comp Hc).
  assert (I0 : forall r, In r S0 <-> r < rows) by apply (g0_in comp Hc).
  assert (O0 : StronglySorted (fun a b => comp b a = false) S0) by apply (Hsort comp (seq 0 rows) Hc).
  clearbody S0.
  destruct (for_inv (S := nat * list nat * list nat) (fun k st => let '(i, g, sc) := st in
     length g = rows /\ length sc = rows /\ (i <= k - 1) /\
     (forall idx, k <= idx -> nth_error g idx = nth_error S0 idx) /\
     (k = 0 -> g = S0 /\ i = 0) /\
     (forall x, 0 < k -> nth_error S0 (k-1) = Some x -> exists c, nth_error g i = Some c /\ incomparable comp c x) /\
     (forall a b x y, a < b -> b <= i -> nth_error g a = Some x -> nth_error g b = Some y -> comp x y = true) /\
     (forall m x, m < k -> nth_error S0 m = Some x -> exists lb c, nth_error sc x = Some lb /\ lb <= i /\
         nth_error g lb = Some c /\ incomparable comp c x) /\
     (0 < k -> forall a x, a <= i -> nth_error g a = Some x ->
        exists m, m < k /\ nth_error S0 m = Some x /\ nth_error sc x = Some a)
     ) rows (unique_step comp) (0, S0, repeat 0 rows)) as (((i & g) & sc) & E & P).
  - split; [auto|]. split; [apply repeat_length|]. split; [lia|]. split; [auto|]. split; [auto|].
    split; [lia|]. split; [lia|]. split; lia.
  - intros k ((i & g) & sc) Hk (Lg & Ls & Hi & Hg & Hk0 & Hcur & Hinc & Hlab & Hval).
    destruct (nth_error_ex g i) as (curr & Hc1); [lia|].
    destruct (nth_error_ex S0 k) as (next & Hn1); [lia|].
    assert (Hnr : next < rows) by (apply I0; eapply nth_error_In; eauto).
    unfold unique_step. rewrite (getn_ok _ _ _ Hc1). cbn [bind].
    rewrite (getn_ok g k next) by (rewrite Hg; auto). cbn [bind].
    assert (Hfresh : forall m x, m < k -> nth_error S0 m = Some x -> x <> next).
    { intros m x Hm Hx ->. pose proof (proj1 (NoDup_nth_error S0) N0 m k) as Q.
      rewrite Hx, Hn1 in Q. specialize (Q ltac:(lia) eq_refl). lia. }
    assert (Hle : comp next curr = false).
    { destruct (Nat.eq_dec k 0).
      - subst k. destruct (Hk0 eq_refl) as (-> & ->). rewrite Hn1 in Hc1. inversion Hc1; subst.
        apply (sw_irrefl _ Hc).
      - destruct (nth_error_ex S0 (k-1)) as (p & Hp); [lia|].
        destruct (Hcur p) as (c & Hc' & (I1 & I2)); [lia|auto|].
        assert (c = curr) by congruence. subst c.
        pose proof (sorted_nth _ _ O0 (k-1) k p next ltac:(lia) Hp Hn1) as Hs. simpl in Hs.
        eapply (sw_negtrans comp Hc); eauto. }
    rewrite Hle, orb_false_r. destruct (comp curr next) eqn:Ec.
    + assert (0 < k) as Hk'.
      { destruct (Nat.eq_dec k 0); [|lia]. subst k. destruct (Hk0 eq_refl) as (-> & ->).
        assert (curr = next) by congruence. subst. rewrite (sw_irrefl _ Hc) in Ec. discriminate. }
      assert (i < k) by lia.
      rewrite !setn_ok by lia. cbn [bind].
      eexists. split; [reflexivity|]. cbn beta iota.
      split; [now rewrite upd_length|]. split; [now rewrite upd_length|]. split; [lia|].
      split; [|split; [lia|]]. 2: split; [|split; [|split]].
      * intros idx Hidx. rewrite nth_error_upd_if by lia. destruct (Nat.eqb_spec idx (S i)); [lia|]. apply Hg. lia.
      * intros x _ Hx. replace (S k - 1) with k in Hx by lia. exists next.
        rewrite nth_error_upd_if, Nat.eqb_refl by lia. split; auto. assert (x = next) by congruence. subst.
        split; apply (sw_irrefl _ Hc).
      * intros a b x y Hab Hb Hx Hy. rewrite nth_error_upd_if in Hx, Hy by lia.
        destruct (Nat.eqb_spec a (S i)); [lia|].
        destruct (Nat.eqb_spec b (S i)).
        -- inversion Hy; subst y. destruct (Nat.eq_dec a i).
           ++ subst a. congruence.
           ++ apply (sw_trans _ Hc x curr next); auto. apply (Hinc a i); auto; lia.
        -- apply (Hinc a b); auto. lia.
      * intros m x Hm Hx. destruct (Nat.eq_dec m k).
        -- subst m. assert (x = next) by congruence. subst x. exists (S i), next.
           rewrite !nth_error_upd_if, !Nat.eqb_refl by lia. repeat split; auto; apply (sw_irrefl _ Hc).
        -- destruct (Hlab m x) as (lb & c & Q1 & Q2 & Q3 & Q4); [lia|auto|]. exists lb, c.
           rewrite !nth_error_upd_if by lia.
           destruct (Nat.eqb_spec x next); [exfalso; apply (Hfresh m x); auto; lia|].
           destruct (Nat.eqb_spec lb (S i)); [lia|]. repeat split; auto; apply Q4.
      * intros _ a x Ha Hx. rewrite nth_error_upd_if in Hx by lia.
        destruct (Nat.eqb_spec a (S i)).
        -- inversion Hx; subst. exists k. rewrite nth_error_upd_if, Nat.eqb_refl by lia. auto.
        -- destruct (Hval Hk' a x) as (m & M1 & M2 & M3); [lia|auto|]. exists m.
           rewrite nth_error_upd_if by lia. destruct (Nat.eqb_spec x next); [exfalso; apply (Hfresh m x); auto|]. auto.
    + rewrite setn_ok by lia. cbn [bind]. eexists. split; [reflexivity|]. cbn beta iota.
      split; [auto|]. split; [now rewrite upd_length|]. split; [lia|].
      split; [|split; [lia|]]. 2: split; [|split; [|split]].
      * intros idx Hidx. apply Hg. lia.
      * intros x _ Hx. replace (S k - 1) with k in Hx by lia. exists curr. split; auto.
        assert (x = next) by congruence. subst. split; auto.
      * auto.
      * intros m x Hm Hx. destruct (Nat.eq_dec m k).
        -- subst m. assert (x = next) by congruence. subst x. exists i, curr.
           rewrite !nth_error_upd_if, !Nat.eqb_refl by lia. repeat split; auto.
        -- destruct (Hlab m x) as (lb & c & Q1 & Q2 & Q3 & Q4); [lia|auto|]. exists lb, c.
           rewrite !nth_error_upd_if by lia.
           destruct (Nat.eqb_spec x next); [exfalso; apply (Hfresh m x); auto; lia|]. auto.
      * intros _ a x Ha Hx. destruct (Nat.eq_dec k 0).
        -- subst k. destruct (Hk0 eq_refl) as (-> & ->). assert (a = 0) by lia. subst a.
           assert (x = next) by congruence. subst x. exists 0.
           rewrite nth_error_upd_if, Nat.eqb_refl by lia. auto.
        -- destruct (Hval ltac:(lia) a x) as (m & M1 & M2 & M3); [lia|auto|]. exists m.
           rewrite nth_error_upd_if by lia. destruct (Nat.eqb_spec x next); [exfalso; apply (Hfresh m x); auto|]. auto.
  - destruct P as (Lg & Ls & Hi & Hg & _ & _ & Hinc & Hlab & Hval).
    rewrite E. cbn [bind].
    exists (firstn (S i) g), sc.
    split. { unfold resizen. replace (S i - length g) with 0 by lia. simpl. now rewrite app_nil_r. }
    assert (Lf : length (firstn (S i) g) = S i) by (rewrite firstn_length; lia).
    assert (Nf : forall a x, nth_error (firstn (S i) g) a = Some x <-> a <= i /\ nth_error g a = Some x).
    { intros a x. split.
      - intros Hx. assert (a < S i) by (apply nth_error_Some_lt in Hx; lia). split; [lia|].
        rewrite <- Hx. rewrite <- (firstn_skipn (S i) g) at 1. rewrite nth_error_app1; auto; lia.
      - intros (Ha & Hx). rewrite <- Hx. rewrite <- (firstn_skipn (S i) g) at 2.
        rewrite nth_error_app1; auto; lia. }
    assert (Hrow : forall r, r < rows -> exists lb c, nth_error sc r = Some lb /\ lb <= i /\
         nth_error g lb = Some c /\ incomparable comp c r).
    { intros r Hr. apply I0 in Hr. apply In_nth_error in Hr. destruct Hr as (m & Hm).
      apply (Hlab m); auto. apply nth_error_Some_lt in Hm. lia. }
    split; [|split; [|split]].
    + split; [auto|]. split; [|split].
      * intros r Hr. destruct (Hrow r Hr) as (lb & c & Q1 & Q2 & Q3 & Q4). exists lb. split; auto. lia.
      * intros a x Hx. apply Nf in Hx. destruct Hx as (Ha & Hx).
        destruct (Hval Hpos a x Ha Hx) as (m & M1 & M2 & M3). split; auto.
        apply I0. eapply nth_error_In; eauto.
      * apply NoDup_nth_error. intros a b Ha Hab.
        destruct (nth_error (firstn (S i) g) a) as [x|] eqn:Ex.
        2: { apply nth_error_None in Ex. lia. }
        symmetry in Hab. apply Nf in Ex. apply Nf in Hab.
        destruct (Hval Hpos a x) as (m & _ & _ & M); try tauto.
        destruct (Hval Hpos b x) as (m' & _ & _ & M'); try tauto. congruence.
    + intros q r (lb & R1 & R2). apply Nf in R2. destruct R2 as (R2 & R3).
      apply seq_same_row. assert (r < rows) by (apply nth_error_Some_lt in R1; lia).
      destruct (Hrow r) as (lb' & c & Q1 & Q2 & Q3 & Q4); auto.
      assert (lb' = lb) by congruence. subst. assert (c = q) by congruence. now subst.
    + intros a b x y Hx Hy Hab Hs. apply Nf in Hx. apply Nf in Hy.
      apply seq_same_row in Hs. destruct Hs as (S1 & S2). fold comp in S1, S2.
      destruct (Nat.lt_ge_cases a b).
      * assert (comp x y = true) by (apply (Hinc a b); try tauto; lia). congruence.
      * assert (comp y x = true) by (apply (Hinc b a); try tauto; lia). congruence.
    + intros r Hr. destruct (Hrow r Hr) as (lb & c & Q1 & Q2 & Q3 & Q4). exists c, lb. split; auto.
      apply Nf. auto.
Qed.

Lemma unique_zero_rows : rows = 0 -> unique T ltb sort A rows cols = Ok ([0], []).
Proof.
  intros ->. unfold unique. simpl. 
  destruct (Hsort (cE (seq 0 cols)) [] (cE_sw _)) as (P & _). apply Permutation_nil in P. rewrite P.
  reflexivity.
Qed.

(* ---- uniquetol ---- *)
Variables (zero : T) (add sub mul div : T -> T -> T) (abs : T -> T) (of_nat : nat -> T).
Fixpoint span (p : nat -> bool) (l : list nat) : list nat * list nat :=
  match l with
  | [] => ([], [])
  | x :: l' => if p x then let (a, b) := span p l' in (x :: a, b) else ([], l)
  end.

Lemma span_app p l : l = fst (span p l) ++ snd (span p l).
Proof.
  induction l as [|x l IH]; simpl; auto. destruct (p x); auto.
  destruct (span p l); simpl in *. congruence.
Qed.

Lemma span_all p l x : In x (fst (span p l)) -> p x = true.
Proof.
  induction l as [|y l IH]; simpl; [tauto|]. destruct (p y) eqn:E; simpl; [|tauto].
  destruct (span p l); simpl in *. intros [->|H]; auto.
Qed.

Lemma span_stop p l x l' : snd (span p l) = x :: l' -> p x = false.
Proof.
  induction l as [|y l IH]; simpl; [discriminate|]. destruct (p y) eqn:E.
  - destruct (span p l); simpl in *. auto.
  - simpl. intros H; inversion H; subst. auto.
Qed.

Lemma upd_app_r {X} (a b : list X) v : upd (a ++ b) (length a) v = a ++ upd b 0 v.
Proof. induction a; simpl; auto. now rewrite IHa. Qed.

Section UT.
Variables (byDim comp : nat -> nat -> bool).

Definition mark (seed n : nat) (sc : list nat) (M : list nat) : list nat :=
  fold_left (fun sc x => if comp seed x then upd sc x n else sc) M sc.

Lemma mark_length seed n M : forall sc, length (mark seed n sc M) = length sc.
Proof.
  induction M; intros sc; simpl; auto. unfold mark in *. simpl. rewrite IHM.
  destruct (comp seed a); auto. apply upd_length.
Qed.

Lemma mark_nth seed n M : forall sc r, (forall x, In x M -> x < length sc) ->
  nth_error (mark seed n sc M) r =
  if existsb (fun x => (x =? r) && comp seed x) M then Some n else nth_error sc r.
Proof.
  induction M as [|x M IH]; intros sc r HM; simpl; auto.
  unfold mark in *. simpl. rewrite IH.
  - destruct (comp seed x) eqn:E.
    + rewrite andb_true_r. rewrite nth_error_upd_if by (apply HM; simpl; auto).
      rewrite (Nat.eqb_sym r x). destruct (x =? r); simpl; [|auto].
      destruct (existsb _ M); auto.
    + rewrite andb_false_r. reflexivity.
  - intros y Hy. destruct (comp seed x); rewrite ?upd_length; apply HM; simpl; auto.
Qed.

Lemma inner_ok seed n R : forall fuel P K G sc,
  length R <= fuel -> (forall x, In x R -> x < length sc) ->
  let M := fst (span (byDim seed) R) in
  exists G',
  uniquetol_inner byDim comp seed n fuel (P ++ K ++ G ++ R) sc (length (P ++ K)) (length (P ++ K ++ G))
  = Ok (P ++ (K ++ filter (fun x => negb (comp seed x)) M) ++ G' ++ snd (span (byDim seed) R),
        mark seed n sc M,
        length (P ++ K ++ filter (fun x => negb (comp seed x)) M),
        length (P ++ (K ++ filter (fun x => negb (comp seed x)) M) ++ G')).
Proof.
  induction R as [|x R IH]; intros fuel P K G sc Hf Hsc; cbn zeta.
  - exists G. destruct fuel; cbn [uniquetol_inner]; rewrite !app_nil_r; rewrite Nat.eqb_refl; simpl;
      rewrite ?app_nil_r; reflexivity.
  - destruct fuel as [|fuel]; [simpl in Hf; lia|]. cbn [uniquetol_inner].
    destruct (Nat.eqb_spec (length (P ++ K ++ G)) (length (P ++ K ++ G ++ x :: R))) as [E|E].
    { rewrite !app_length in E. simpl in E. lia. }
    rewrite (getn_ok _ _ x).
    2: { replace (P ++ K ++ G ++ x :: R) with ((P ++ K ++ G) ++ x :: R) by (now rewrite !app_assoc).
         rewrite nth_error_app2 by lia. now rewrite Nat.sub_diag. }
    cbn [bind]. simpl span. destruct (byDim seed x) eqn:Eb.
    + destruct (span (byDim seed) R) as [M R'] eqn:Es. cbn [fst snd].
      destruct (comp seed x) eqn:Ec; cbn [negb].
      * rewrite setn_ok by (apply Hsc; simpl; auto). cbn [bind].
        destruct (IH fuel P K (G ++ [x]) (upd sc x n)) as (G' & Q).
        { simpl in Hf; lia. }
        { intros y Hy. rewrite upd_length. apply Hsc. simpl; auto. }
        cbn zeta in Q. cbn [fst snd] in Q.
        exists G'.
        replace (P ++ K ++ G ++ x :: R) with (P ++ K ++ (G ++ [x]) ++ R) by (rewrite <- !app_assoc; reflexivity).
        replace (S (length (P ++ K ++ G))) with (length (P ++ K ++ (G ++ [x]))) by (rewrite !app_length; simpl; lia).
        rewrite Q. simpl filter. rewrite Ec. cbn [negb]. unfold mark. simpl. rewrite Ec. reflexivity.
      * rewrite setn_ok by (rewrite !app_length; simpl; lia). cbn [bind].
        destruct (IH fuel P (K ++ [x]) (tl (G ++ [x])) sc) as (G' & Q).
        { simpl in Hf; lia. }
        { intros y Hy. apply Hsc. simpl; auto. }
        cbn zeta in Q. cbn [fst snd] in Q.
        exists G'.
        replace (upd (P ++ K ++ G ++ x :: R) (length (P ++ K)) x)
          with (P ++ (K ++ [x]) ++ tl (G ++ [x]) ++ R).
        2: { rewrite (app_assoc P K). rewrite upd_app_r. rewrite <- !app_assoc. do 2 f_equal.
             destruct G; simpl; auto. f_equal. now rewrite <- app_assoc. }
        replace (S (length (P ++ K))) with (length (P ++ K ++ [x])) by (rewrite !app_length; simpl; lia).
        replace (S (length (P ++ K ++ G))) with (length (P ++ (K ++ [x]) ++ tl (G ++ [x]))).
        2: { rewrite !app_length. destruct G; simpl; rewrite ?app_length; simpl; lia. }
        rewrite Q. simpl filter. rewrite Ec. cbn [negb]. unfold mark. simpl. rewrite Ec.
        rewrite <- !app_assoc. simpl. rewrite <- ?app_assoc. reflexivity.
    + cbn [fst snd]. exists G. simpl. rewrite !app_nil_r. reflexivity.
Qed.

(* what the tolerance-sorted list gives: once a row is out of reach of the seed in the leading
   column, so are all later rows, and comp requires closeness in the leading column *)
Variable le1 : nat -> nat -> Prop.     (* order of the list in the leading column *)
Variable mono : Prop.
Hypothesis far_stays_far : mono -> forall s x y, le1 s x -> le1 x y -> byDim s x = false -> byDim s y = false.
Hypothesis comp_byDim : mono -> forall s x, comp s x = true -> byDim s x = true.

Definition inv (D R sc : list nat) : Prop :=
  length sc = rows /\ NoDup (D ++ R) /\ (forall x, In x (D ++ R) -> x < rows) /\
  (forall idx d, nth_error D idx = Some d -> nth_error sc d = Some idx) /\
  (forall r, r < rows -> In r R \/ exists idx d, nth_error D idx = Some d /\ nth_error sc r = Some idx /\
      (r = d \/ comp d r = true) /\ (mono -> forall a x, a < idx -> nth_error D a = Some x -> comp x r = false)) /\
  StronglySorted le1 R /\
  (mono -> forall d r, In d D -> In r R -> comp d r = false) /\
  (mono -> forall a b x y, a < b -> nth_error D a = Some x -> nth_error D b = Some y -> comp x y = false).

Lemma SS_app_inv {X} (Q : X -> X -> Prop) (a b : list X) : StronglySorted Q (a ++ b) ->
  StronglySorted Q a /\ StronglySorted Q b /\ (forall x y, In x a -> In y b -> Q x y).
Proof.
  induction a as [|x a IH]; simpl; intros H.
  - split; [constructor|]. split; auto. intros x y [].
  - inversion H; subst. destruct (IH H2) as (A1 & A2 & A3). rewrite Forall_app in H3.
    destruct H3 as (F1 & F2). split; [constructor; auto|]. split; auto.
    intros u v [<-|Hu] Hv; auto. rewrite Forall_forall in F2. auto.
Qed.

Lemma SS_app {X} (Q : X -> X -> Prop) (a b : list X) :
  StronglySorted Q a -> StronglySorted Q b -> (forall x y, In x a -> In y b -> Q x y) ->
  StronglySorted Q (a ++ b).
Proof.
  induction 1; intros Hb H'; simpl; auto. constructor.
  - apply IHStronglySorted; auto. intros. apply H'; simpl; auto.
  - rewrite Forall_app. split; auto. rewrite Forall_forall. intros. apply H'; simpl; auto.
Qed.

Lemma SS_filter {X} (Q : X -> X -> Prop) f (a : list X) : StronglySorted Q a -> StronglySorted Q (filter f a).
Proof.
  induction 1; simpl; [constructor|]. destruct (f a); auto. constructor; auto.
  rewrite Forall_forall in *. intros x Hx. apply filter_In in Hx. apply H0. tauto.
Qed.

Lemma NoDup_app_parts {X} (a b : list X) : NoDup (a ++ b) ->
  NoDup a /\ NoDup b /\ forall x, In x a -> In x b -> False.
Proof.
  induction a; simpl; intros H.
  - split; [constructor|]. split; auto.
  - inversion H; subst. destruct (IHa H3) as (A1 & A2 & A3). rewrite in_app_iff in H2.
    split; [constructor; tauto|]. split; auto. intros x [<-|Hx] Hb; [tauto|eauto].
Qed.

Lemma NoDup_app_mk {X} (a b : list X) : NoDup a -> NoDup b -> (forall x, In x a -> In x b -> False) ->
  NoDup (a ++ b).
Proof.
  induction 1; intros Hb H'; simpl; auto. constructor.
  - rewrite in_app_iff. intros [?|?]; [tauto|]. apply (H' x); simpl; auto.
  - apply IHNoDup; auto. intros. apply (H' x0); simpl; auto.
Qed.

Lemma nth_error_snoc {X} (l : list X) x i y :
  nth_error (l ++ [x]) i = Some y -> (i < length l /\ nth_error l i = Some y) \/ (i = length l /\ y = x).
Proof.
  intros H. destruct (Nat.lt_ge_cases i (length l)).
  - rewrite nth_error_app1 in H by auto. auto.
  - rewrite nth_error_app2 in H by auto. destruct (i - length l) eqn:E; simpl in H.
    + right. split; [lia|congruence].
    + destruct n; discriminate.
Qed.

Lemma inv_step D seed R sc : inv D (seed :: R) sc ->
  let M := fst (span (byDim seed) R) in
  inv (D ++ [seed]) (filter (fun x => negb (comp seed x)) M ++ snd (span (byDim seed) R))
      (upd (mark seed (length D) sc M) seed (length D)).
Proof.
  intros (Ls & ND & Rg & Lab & Cov & Srt & Mn & Pw). cbn zeta.
  pose proof (span_app (byDim seed) R) as SA.
  pose proof (span_all (byDim seed) R) as SAll.
  pose proof (span_stop (byDim seed) R) as SStop.
  destruct (span (byDim seed) R) as [M R']. cbn [fst snd] in *. subst R.
  apply NoDup_app_parts in ND. destruct ND as (ND1 & ND2 & NDx).
  inversion ND2 as [|? ? Hns ND3]; subst.
  apply NoDup_app_parts in ND3. destruct ND3 as (NM & NR' & NMR).
  inversion Srt as [|? ? Srt' Fs]; subst.
  destruct (SS_app_inv _ _ _ Srt') as (SM & SR & SMR).
  assert (Hin : forall x, In x M -> x < length sc).
  { intros x Hx. rewrite Ls. apply Rg. apply in_or_app. right. right. apply in_or_app. auto. }
  assert (Hseed : seed < rows) by (apply Rg; apply in_or_app; right; left; auto).
  assert (Hex : forall r, existsb (fun x => (x =? r) && comp seed x) M = true <-> In r M /\ comp seed r = true).
  { intros r. rewrite existsb_exists. split.
    - intros (x & Hx & Q). apply andb_true_iff in Q. destruct Q as (Q1 & Q2). apply Nat.eqb_eq in Q1. subst. auto.
    - intros (Q1 & Q2). exists r. rewrite Nat.eqb_refl. auto. }
  assert (Hnth : forall r, nth_error (upd (mark seed (length D) sc M) seed (length D)) r =
     if r =? seed then Some (length D) else
     if existsb (fun x => (x =? r) && comp seed x) M then Some (length D) else nth_error sc r).
  { intros r. rewrite nth_error_upd_if by (rewrite mark_length; lia).
    destruct (r =? seed); auto. apply mark_nth; auto. }
  split; [rewrite upd_length, mark_length; auto|].
  split; [|split; [|split; [|split; [|split; [|split]]]]].
  - rewrite <- app_assoc. simpl. apply NoDup_app_mk; auto.
    + constructor.
      * rewrite in_app_iff, filter_In. intros [(Q & _)|Q]; apply Hns; apply in_or_app; auto.
      * apply NoDup_app_mk; auto; [now apply NoDup_filter|].
        intros x Hx. apply filter_In in Hx. apply NMR. tauto.
    + intros x Hx [<-|Hy]; [apply (NDx seed); simpl; auto|].
      rewrite in_app_iff, filter_In in Hy. apply (NDx x); auto. right. apply in_or_app. tauto.
  - intros x Hx. rewrite <- app_assoc in Hx. apply Rg. apply in_app_or in Hx. apply in_or_app.
    destruct Hx as [Hx|Hx]; [auto|]. right. simpl in Hx. destruct Hx as [->|Hx]; [left; auto|right].
    rewrite in_app_iff, filter_In in Hx. apply in_or_app. tauto.
  - intros idx d Hd. rewrite Hnth. apply nth_error_snoc in Hd. destruct Hd as [(Hi & Hd)|(-> & ->)].
    + destruct (Nat.eqb_spec d seed).
      { subst. exfalso. apply (NDx seed); [eapply nth_error_In; eauto|left; auto]. }
      destruct (existsb _ M) eqn:Eb; [|auto].
      apply Hex in Eb. exfalso. apply (NDx d); [eapply nth_error_In; eauto|]. right. apply in_or_app. tauto.
    + rewrite Nat.eqb_refl. auto.
  - intros r Hr. rewrite Hnth.
    destruct (Nat.eqb_spec r seed) as [->|Hne].
    { right. exists (length D), seed. rewrite nth_error_app2, Nat.sub_diag by lia. simpl. do 3 (split; auto).
      intros Hm a x Ha Hx. rewrite nth_error_app1 in Hx by auto. apply Mn; auto; [eapply nth_error_In; eauto|left; auto]. }
    destruct (existsb _ M) eqn:Eb.
    { apply Hex in Eb. right. exists (length D), seed. rewrite nth_error_app2, Nat.sub_diag by lia. simpl.
      split; auto. split; auto. split; [right; tauto|].
      intros Hm a x Ha Hx. rewrite nth_error_app1 in Hx by auto. apply Mn; auto; [eapply nth_error_In; eauto|right; apply in_or_app; tauto]. }
    destruct (Cov r Hr) as [Hin'|(idx & d & Q1 & Q2 & Q3 & Q4)].
    + destruct Hin' as [Q|Q]; [congruence|]. apply in_app_or in Q. left. apply in_or_app.
      destruct Q as [Q|Q]; [|auto]. left. apply filter_In. split; auto.
      destruct (comp seed r) eqn:Ecs; auto. assert (In r M /\ comp seed r = true) as W by auto.
      apply Hex in W. congruence.
    + assert (idx < length D) by (eapply nth_error_Some_lt; eauto). right. exists idx, d. split; [rewrite nth_error_app1; auto|]. do 2 (split; auto).
      intros Hm a x Ha Hx. rewrite nth_error_app1 in Hx by lia. eauto.
  - apply SS_app; auto; [now apply SS_filter|]. intros x y Hx Hy. apply filter_In in Hx. apply SMR; tauto.
  - intros Hm d r Hd Hr. apply in_app_or in Hd. destruct Hd as [Hd|[<-|[]]].
    + apply Mn; auto. right. apply in_app_or in Hr. apply in_or_app. rewrite filter_In in Hr. tauto.
    + apply in_app_or in Hr. destruct Hr as [Hr|Hr].
      * apply filter_In in Hr. destruct (comp seed r); auto; simpl in Hr; destruct Hr; discriminate.
      * destruct (comp seed r) eqn:Ecs; auto. apply (comp_byDim Hm) in Ecs.
        destruct R' as [|x R'']; [destruct Hr|].
        pose proof (SStop x R'' eq_refl) as Hx.
        rewrite Forall_forall in Fs.
        destruct Hr as [<-|Hr]; [congruence|].
        inversion SR as [|? ? SR2 FR]; subst. rewrite Forall_forall in FR.
        assert (byDim seed r = false); [|congruence].
        apply (far_stays_far Hm seed x r); auto. apply Fs. apply in_or_app. right. left. auto.
  - intros Hm a b x y Hab Hx Hy. apply nth_error_snoc in Hy. apply nth_error_snoc in Hx.
    destruct Hx as [(Hx1 & Hx)|(-> & ->)].
    + destruct Hy as [(Hy1 & Hy)|(-> & ->)]; [eauto|]. apply Mn; auto; [eapply nth_error_In; eauto|left; auto].
    + destruct Hy as [(Hy1 & Hy)|(-> & ->)]; lia.
Qed.

Lemma outer_ok : forall fuel D R sc, length R <= fuel -> inv D R sc ->
  exists gather scatter,
    uniquetol_outer byDim comp fuel (D ++ R) sc (length D) (length D) = Ok (gather, scatter) /\
    inv gather [] scatter.
Proof.
  induction fuel; intros D R sc Hf HI.
  - destruct R; [|simpl in Hf; lia]. rewrite app_nil_r. simpl. rewrite Nat.eqb_refl. eauto.
  - destruct R as [|seed R].
    + rewrite app_nil_r. simpl. rewrite Nat.eqb_refl. eauto.
    + cbn [uniquetol_outer].
      destruct (Nat.eqb_spec (length D) (length (D ++ seed :: R))) as [E|E].
      { rewrite app_length in E. simpl in E. lia. }
      rewrite (getn_ok _ _ seed) by (rewrite nth_error_app2, Nat.sub_diag by lia; reflexivity).
      cbn [bind].
      pose proof HI as (Ls & ND & Rg & _).
      destruct (inner_ok seed (length D) R (length (D ++ seed :: R)) (D ++ [seed]) [] [] sc) as (G' & Q).
      { rewrite app_length. simpl. lia. }
      { intros x Hx. rewrite Ls. apply Rg. apply in_or_app. right. right. auto. }
      cbn zeta in Q. simpl app in Q. rewrite !app_nil_r in Q.
      rewrite <- app_assoc in Q. simpl app in Q.
      replace (length (D ++ [seed])) with (S (length D)) in Q by (rewrite app_length; simpl; lia).
      rewrite Q. cbn [bind].
      rewrite setn_ok.
      2: { rewrite mark_length, Ls. apply Rg. apply in_or_app. right. left. auto. }
      cbn [bind].
      pose proof (inv_step D seed R sc HI) as HI'. cbn zeta in HI'.
      set (F := filter (fun x => negb (comp seed x)) (fst (span (byDim seed) R))) in *.
      set (R' := snd (span (byDim seed) R)) in *.
      assert (EE : forall L, erase ((D ++ [seed]) ++ F ++ G' ++ R') L (length ((D ++ [seed]) ++ F ++ G')) =
                 firstn L ((D ++ [seed]) ++ F ++ G' ++ R') ++ R').
      { intros L. unfold erase. f_equal.
        rewrite !app_assoc. rewrite skipn_app. rewrite skipn_all, Nat.sub_diag. reflexivity. }
      rewrite EE.
      replace (firstn (length ((D ++ [seed]) ++ F)) ((D ++ [seed]) ++ F ++ G' ++ R')) with ((D ++ [seed]) ++ F).
      2: { rewrite !app_assoc. rewrite <- (app_assoc _ G' R'). rewrite firstn_app, firstn_all, Nat.sub_diag. simpl.
           now rewrite app_nil_r. }
      rewrite <- (app_assoc _ F R').
      replace (S (length D)) with (length (D ++ [seed])) by (rewrite app_length; simpl; lia).
      apply IHfuel; auto.
      assert (length R = length (fst (span (byDim seed) R)) + length R').
      { unfold R'. rewrite <- app_length, <- span_app. auto. }
      rewrite app_length. unfold F.
      assert (forall (f : nat -> bool) l, length (filter f l) <= length l) as Hfl.
      { intros f l; induction l; simpl; [lia|]. destruct (f a); simpl; lia. }
      specialize (Hfl (fun x => negb (comp seed x)) (fst (span (byDim seed) R))). simpl in Hf. lia.
Qed.
End UT.

Lemma colTol_spec tol j : ltb zero tol = true ->
  exists M, is_max_abs ltb zero abs A rows j M /\ colTol T ltb zero mul abs A rows tol j = mul M tol.
Proof.
  intros Ht. unfold colTol. rewrite Ht. eexists. split; [|reflexivity].
  assert (H : forall l m0, 
     let M := fold_left (fun t i => stdmax T ltb t (abs (A i j))) l m0 in
     (forall i, In i l -> ltb M (abs (A i j)) = false) /\ ltb M m0 = false /\
     (M = m0 \/ exists i, In i l /\ M = abs (A i j))).
  { induction l as [|i l IH]; intros m0; cbn zeta; simpl.
    - split; [tauto|]. split; [apply (sw_irrefl _ Hsw)|auto].
    - destruct (IH (stdmax T ltb m0 (abs (A i j)))) as (A1 & A2 & A3). cbn zeta in *.
      assert (B : ltb (stdmax T ltb m0 (abs (A i j))) m0 = false /\
                  ltb (stdmax T ltb m0 (abs (A i j))) (abs (A i j)) = false).
      { unfold stdmax. destruct (ltb m0 (abs (A i j))) eqn:E.
        - split; [now apply (sw_asym ltb Hsw)|apply (sw_irrefl _ Hsw)].
        - split; [apply (sw_irrefl _ Hsw)|auto]. }
      split; [|split].
      + intros i' [<-|Hi]; [|auto]. eapply (sw_negtrans ltb Hsw); [apply A2|apply B].
      + eapply (sw_negtrans ltb Hsw); [apply A2|apply B].
      + destruct A3 as [A3|(i' & Hi' & A3)]; [|right; exists i'; auto].
        rewrite A3. unfold stdmax. destruct (ltb m0 (abs (A i j))); [right; exists i; auto|auto]. }
  destruct (H (seq 0 rows) zero) as (H1 & H2 & H3). split.
  - intros i Hi. apply H1. apply in_seq. lia.
  - destruct H3 as [H3|(i & Hi & H3)]; auto. right. exists i. apply in_seq in Hi. split; auto. lia.
Qed.

Lemma compareEQ_within tol a b : ltb zero tol = true ->
  compareEQ T ltb zero sub mul abs A rows cols tol a b = true ->
  within_tol ltb zero sub mul abs A rows cols tol a b.
Proof.
  intros Ht H j Hj. unfold compareEQ in H. rewrite forallb_forall in H.
  specialize (H j). rewrite in_seq in H. specialize (H ltac:(lia)). apply negb_true_iff in H.
  destruct (colTol_spec tol j Ht) as (M & HM & E). exists M. split; auto. congruence.
Qed.

Lemma max_unique j M1 M2 : is_max_abs ltb zero abs A rows j M1 -> is_max_abs ltb zero abs A rows j M2 ->
  0 < rows -> (forall x, ltb (abs x) zero = false) -> incomparable ltb M1 M2.
Proof.
  intros (A1 & A2) (B1 & B2) Hp Hn.
  assert (forall M, (forall i, i < rows -> ltb M (abs (A i j)) = false) -> ltb M zero = false) as Z.
  { intros M HM. eapply (sw_negtrans ltb Hsw); [apply (HM 0 Hp)|apply Hn]. }
  split.
  - destruct B2 as [->|(i & Hi & ->)]; auto.
  - destruct A2 as [->|(i & Hi & ->)]; auto.
Qed.

Lemma getOrdering_perm : 0 < cols ->
  Permutation (seq 0 cols) (getOrdering T ltb zero add sub mul div of_nat sort A rows cols).
Proof.
  intros Hc. unfold getOrdering. destruct (Nat.ltb_spec cols 2).
  - replace cols with 1 by lia. reflexivity.
  - apply Hsort. apply sw_pullback. auto.
Qed.

Lemma uniquetol_correct tol : 0 < rows -> 0 < cols -> ltb zero tol = true ->
  exists gather scatter,
    uniquetol T ltb zero add sub mul div abs of_nat sort A rows cols tol = Ok (gather, scatter) /\
    labelling rows gather scatter /\
    (forall r, r < rows -> exists q, represents gather scatter q r /\
        (r = q \/ within_tol ltb zero sub mul abs A rows cols tol q r)) /\
    ((forall a b c, ltb b a = false -> ltb c b = false -> ltb (abs (sub a c)) (abs (sub a b)) = false) ->
     forall a b x y, a < b -> nth_error gather a = Some x -> nth_error gather b = Some y ->
       beyond_tol ltb zero sub mul abs A rows cols tol x y) /\
    ((forall a b c, ltb b a = false -> ltb c b = false -> ltb (abs (sub a c)) (abs (sub a b)) = false) ->
     forall r idx a x, nth_error scatter r = Some idx -> a < idx -> nth_error gather a = Some x ->
       beyond_tol ltb zero sub mul abs A rows cols tol x r).
Proof.
  intros Hr Hc Ht. unfold uniquetol, leb.
  rewrite Ht. cbn [negb].
  pose proof (getOrdering_perm Hc) as Hp.
  set (order := getOrdering T ltb zero add sub mul div of_nat sort A rows cols) in *.
  clearbody order. destruct order as [|d ord].
  { apply Permutation_length in Hp. rewrite seq_length in Hp. simpl in Hp. lia. }
  assert (Hd : d < cols).
  { assert (In d (seq 0 cols)) as Q by (eapply Permutation_in; [apply Permutation_sym; eauto|left; auto]).
    apply in_seq in Q. lia. }
  cbn [getn nth_error bind].
  set (cx := cE (d :: ord)).
  assert (Hcx : strict_weak cx) by apply cE_sw.
  pose proof (g0_len cx Hcx) as L0. pose proof (g0_nodup cx Hcx) as N0.
  pose proof (g0_in cx Hcx) as I0. pose proof (proj2 (Hsort cx (seq 0 rows) Hcx)) as O0.
  set (S0 := sort cx (seq 0 rows)) in *. clearbody S0.
  set (byDim := compareEQByDim T ltb zero sub mul abs A rows d tol).
  set (comp := compareEQ T ltb zero sub mul abs A rows cols tol).
  set (mono := forall a b c, ltb b a = false -> ltb c b = false -> ltb (abs (sub a c)) (abs (sub a b)) = false).
  set (le1 := fun s x => ltb (A x d) (A s d) = false).
  destruct (outer_ok byDim comp le1 mono) with (fuel := rows) (D := @nil nat) (R := S0) (sc := repeat 0 rows)
    as (gather & scatter & E & I).
  - intros Hm s x y Hsx Hxy Hf. unfold byDim, compareEQByDim, leb in *.
    apply negb_false_iff in Hf. apply negb_false_iff.
    eapply (sw_lt_le ltb Hsw); [apply Hf|]. apply Hm; auto.
  - intros Hm s x Hx. unfold comp, compareEQ in Hx. rewrite forallb_forall in Hx.
    specialize (Hx d). rewrite in_seq in Hx. unfold byDim, compareEQByDim, leb. apply Hx. lia.
  - lia.
  - split; [apply repeat_length|]. split; [auto|]. split; [intros x Hx; now apply I0|].
    split; [intros idx dd Q; destruct idx; discriminate|].
    split; [intros r Hr'; left; now apply I0|]. split; [|split].
    + clear - O0. induction O0; constructor; auto.
      rewrite Forall_forall in *. intros x Hx. specialize (H x Hx).
      unfold cx in H. simpl in H. unfold le1.
      destruct (ltb (A x d) (A a d)); auto.
    + intros _ dd r [].
    + intros _ a b x y _ Q. destruct a; discriminate.
  - destruct I as (Ls & ND & Rg & Lab & Cov & _ & _ & Pw). rewrite app_nil_r in *.
    exists gather, scatter. simpl app in E. simpl length in E. split; [exact E|].
    assert (HF : forall x y, comp x y = false -> beyond_tol ltb zero sub mul abs A rows cols tol x y).
    { intros x y Q0. unfold comp, compareEQ in Q0. apply not_true_iff_false in Q0. rewrite forallb_forall in Q0.
      destruct (existsb (fun j => ltb (colTol T ltb zero mul abs A rows tol j) (abs (sub (A x j) (A y j)))) (seq 0 cols)) eqn:Eex.
      * apply existsb_exists in Eex. destruct Eex as (j & Hj & Q). apply in_seq in Hj. exists j.
        destruct (colTol_spec tol j Ht) as (M & HM & EM). exists M. split; [lia|]. split; auto. congruence.
      * exfalso. apply Q0. intros j Hj. apply negb_true_iff.
        apply not_true_iff_false. intros Q. apply not_true_iff_false in Eex. apply Eex.
        apply existsb_exists. exists j. auto. }
    split; [|split; [|split]].
    + split; [auto|]. split; [|split].
      * intros r Hr'. destruct (Cov r Hr') as [[]|(idx & dd & Q1 & Q2 & _)]. exists idx. split; auto.
        eapply nth_error_Some_lt; eauto.
      * intros g r Hg. split; auto. apply Rg. eapply nth_error_In; eauto.
      * auto.
    + intros r Hr'. destruct (Cov r Hr') as [[]|(idx & dd & Q1 & Q2 & Q3 & _)]. exists dd. split.
      * exists idx. auto.
      * destruct Q3 as [Q3|Q3]; [auto|right]. now apply compareEQ_within.
    + intros Hm a b x y Hab Hx Hy. apply HF. exact (Pw Hm a b x y Hab Hx Hy).
    + intros Hm r idx a x Hi Ha Hx. apply HF. assert (Hr' : r < rows) by (rewrite <- Ls; eapply nth_error_Some_lt; eauto).
      destruct (Cov r Hr') as [[]|(i & dd & Q1 & Q2 & Q3 & Q4)]. apply (Q4 Hm a); auto. congruence.
Qed.

Lemma uniquetol_nonpositive tol : ltb zero tol = false ->
  uniquetol T ltb zero add sub mul div abs of_nat sort A rows cols tol = unique T ltb sort A rows cols.
Proof. intros H. unfold uniquetol, leb. now rewrite H. Qed.

(* ---- uniquetolMatlab: rows are grouped by chains of consecutive close rows ---- *)
Lemma orderColsByNorm_ok : strict_weak (cE (orderColsByNorm T ltb zero add mul sort A rows cols)).
Proof. apply cE_sw. Qed.

Lemma matlab_correct tol : 0 < rows -> ltb zero tol = true ->
  exists gather scatter,
    uniquetolMatlab T ltb zero add sub mul abs sort A rows cols tol = Ok (gather, scatter) /\
    labelling rows gather scatter /\
    (forall r, r < rows -> exists q, represents gather scatter q r /\
        chain (within_tol ltb zero sub mul abs A rows cols tol) q r).
Proof.
  intros Hr Ht. unfold uniquetolMatlab, leb. rewrite Ht. cbn [negb].
  set (cx := cE (orderColsByNorm T ltb zero add mul sort A rows cols)).
  assert (Hcx : strict_weak cx) by apply cE_sw.
  pose proof (g0_len cx Hcx) as L0. pose proof (g0_nodup cx Hcx) as N0.
  pose proof (g0_in cx Hcx) as I0.
  set (S0 := sort cx (seq 0 rows)) in *. clearbody S0.
  set (comp := compareEQ T ltb zero sub mul abs A rows cols tol).
  set (wt := within_tol ltb zero sub mul abs A rows cols tol).
  destruct (nth_error_ex S0 0) as (x0 & Hx0); [lia|].
  assert (Hx0r : x0 < rows) by (apply I0; eapply nth_error_In; eauto).
  rewrite (getn_ok _ _ _ Hx0). cbn [bind]. rewrite setn_ok by (rewrite repeat_length; lia). cbn [bind].
  destruct (for_from_inv (S := nat * list nat * list nat) (fun k st => let '(i, g, sc) := st in
     length g = rows /\ length sc = rows /\ i < k /\
     (forall idx, k <= S idx -> nth_error g idx = nth_error S0 idx) /\
     (forall m x, m < k -> nth_error S0 m = Some x -> exists lb c, nth_error sc x = Some lb /\ lb <= i /\
         nth_error g lb = Some c /\ chain wt c x /\ (m = k - 1 -> lb = i)) /\
     (forall a x, a <= i -> nth_error g a = Some x ->
        exists m, m < k /\ nth_error S0 m = Some x /\ nth_error sc x = Some a)
     ) (rows - 1) 1 (matlab_step comp) (0, S0, upd (repeat 0 rows) x0 0)) as (((i & g) & sc) & E & P).
  - split; [auto|]. split; [rewrite upd_length; apply repeat_length|]. split; [lia|]. split; [auto|]. split.
    + intros m x Hm Hx. assert (m = 0) by lia. subst m. assert (x = x0) by congruence. subst.
      exists 0, x0. rewrite nth_error_upd_if, Nat.eqb_refl by (rewrite repeat_length; lia).
      repeat split; auto. constructor.
    + intros a x Ha Hx. assert (a = 0) by lia. subst a. assert (x = x0) by congruence. subst.
      exists 0. rewrite nth_error_upd_if, Nat.eqb_refl by (rewrite repeat_length; lia). auto.
  - intros k ((i & g) & sc) Hk (Lg & Ls & Hi & Hg & Hlab & Hval).
    destruct (nth_error_ex S0 (k-1)) as (curr & Hc1); [lia|].
    destruct (nth_error_ex S0 k) as (next & Hn1); [lia|].
    assert (Hnr : next < rows) by (apply I0; eapply nth_error_In; eauto).
    unfold matlab_step. rewrite (getn_ok g (k-1) curr) by (rewrite Hg; auto; lia). cbn [bind].
    rewrite (getn_ok g k next) by (rewrite Hg; auto). cbn [bind].
    assert (Hfresh : forall m x, m < k -> nth_error S0 m = Some x -> x <> next).
    { intros m x Hm Hx ->. pose proof (proj1 (NoDup_nth_error S0) N0 m k) as Q.
      rewrite Hx, Hn1 in Q. specialize (Q ltac:(lia) eq_refl). lia. }
    destruct (comp curr next) eqn:Ec; cbn [negb].
    + rewrite setn_ok by lia. cbn [bind]. eexists. split; [reflexivity|]. cbn beta iota.
      split; [auto|]. split; [now rewrite upd_length|]. split; [lia|]. split; [intros; apply Hg; lia|]. split.
      * intros m x Hm Hx. destruct (Nat.eq_dec m k).
        -- subst m. assert (x = next) by congruence. subst x.
           destruct (Hlab (k-1) curr) as (lb & c & Q1 & Q2 & Q3 & Q4 & Q5); [lia|auto|].
           specialize (Q5 eq_refl). subst lb. exists i, c.
           rewrite nth_error_upd_if, Nat.eqb_refl by lia. repeat split; auto. econstructor; eauto. now apply compareEQ_within.
        -- destruct (Hlab m x) as (lb & c & Q1 & Q2 & Q3 & Q4 & Q5); [lia|auto|]. exists lb, c.
           rewrite nth_error_upd_if by lia.
           destruct (Nat.eqb_spec x next); [exfalso; apply (Hfresh m x); auto; lia|].
           repeat split; auto. lia.
      * intros a x Ha Hx. destruct (Hval a x Ha Hx) as (m & M1 & M2 & M3). exists m.
        rewrite nth_error_upd_if by lia.
        destruct (Nat.eqb_spec x next); [exfalso; apply (Hfresh m x); auto|]. auto.
    + rewrite !setn_ok by lia. cbn [bind].
      eexists. split; [reflexivity|]. cbn beta iota.
      split; [now rewrite upd_length|]. split; [now rewrite upd_length|]. split; [lia|]. split; [|split].
      * intros idx Hidx. rewrite nth_error_upd_if by lia. destruct (Nat.eqb_spec idx (S i)).
        -- assert (idx = k) by lia. subst. rewrite <- Hn1. reflexivity.
        -- apply Hg. lia.
      * intros m x Hm Hx. destruct (Nat.eq_dec m k).
        -- subst m. assert (x = next) by congruence. subst x. exists (S i), next.
           rewrite !nth_error_upd_if, !Nat.eqb_refl by lia. repeat split; auto. constructor.
        -- destruct (Hlab m x) as (lb & c & Q1 & Q2 & Q3 & Q4 & Q5); [lia|auto|]. exists lb, c.
           rewrite !nth_error_upd_if by lia.
           destruct (Nat.eqb_spec x next); [exfalso; apply (Hfresh m x); auto; lia|].
           destruct (Nat.eqb_spec lb (S i)); [lia|]. repeat split; auto; lia.
      * intros a x Ha Hx. rewrite nth_error_upd_if in Hx by lia.
        destruct (Nat.eqb_spec a (S i)).
        -- inversion Hx; subst. exists k. rewrite nth_error_upd_if, Nat.eqb_refl by lia. auto.
        -- destruct (Hval a x) as (m & M1 & M2 & M3); [lia|auto|]. exists m.
           rewrite nth_error_upd_if by lia. destruct (Nat.eqb_spec x next); [exfalso; apply (Hfresh m x); auto|]. auto.
  - destruct P as (Lg & Ls & Hi & Hg & Hlab & Hval). rewrite E. cbn [bind].
    replace (1 + (rows - 1)) with rows in * by lia.
    exists (firstn (S i) g), sc.
    split. { unfold resizen. replace (S i - length g) with 0 by lia. simpl. now rewrite app_nil_r. }
    assert (Lf : length (firstn (S i) g) = S i) by (rewrite firstn_length; lia).
    assert (Nf : forall a x, nth_error (firstn (S i) g) a = Some x <-> a <= i /\ nth_error g a = Some x).
    { intros a x. split.
      - intros Hx. assert (a < S i) by (apply nth_error_Some_lt in Hx; lia). split; [lia|].
        rewrite <- Hx. rewrite <- (firstn_skipn (S i) g) at 1. rewrite nth_error_app1; auto; lia.
      - intros (Ha & Hx). rewrite <- Hx. rewrite <- (firstn_skipn (S i) g) at 2.
        rewrite nth_error_app1; auto; lia. }
    assert (Hrow : forall r, r < rows -> exists lb c, nth_error sc r = Some lb /\ lb <= i /\
         nth_error g lb = Some c /\ chain wt c r).
    { intros r Hr'. apply I0 in Hr'. apply In_nth_error in Hr'. destruct Hr' as (m & Hm).
      destruct (Hlab m r) as (lb & c & Q); auto. { apply nth_error_Some_lt in Hm. lia. }
      exists lb, c. tauto. }
    split; [|].
    + split; [auto|]. split; [|split].
      * intros r Hr'. destruct (Hrow r Hr') as (lb & c & Q1 & Q2 & Q3 & Q4). exists lb. split; auto. lia.
      * intros a x Hx. apply Nf in Hx. destruct Hx as (Ha & Hx).
        destruct (Hval a x Ha Hx) as (m & M1 & M2 & M3). split; auto.
        apply I0. eapply nth_error_In; eauto.
      * apply NoDup_nth_error. intros a b Ha Hab.
        destruct (nth_error (firstn (S i) g) a) as [x|] eqn:Ex.
        2: { apply nth_error_None in Ex. lia. }
        symmetry in Hab. apply Nf in Ex. apply Nf in Hab.
        destruct (Hval a x) as (m & _ & _ & M); try tauto.
        destruct (Hval b x) as (m' & _ & _ & M'); try tauto. congruence.
    + intros r Hr'. destruct (Hrow r Hr') as (lb & c & Q1 & Q2 & Q3 & Q4). exists c. split; auto.
      exists lb. split; auto. apply Nf. auto.
Qed.
End U.

(* insertion sort meets the std::sort contract, so the contract can be met *)
Fixpoint ins (comp : nat -> nat -> bool) (x : nat) (l : list nat) : list nat :=
  match l with
  | [] => [x]
  | y :: l' => if comp y x then y :: ins comp x l' else x :: l
  end.
Definition isort (comp : nat -> nat -> bool) (l : list nat) : list nat := fold_right (ins comp) [] l.

Lemma ins_perm comp x l : Permutation (x :: l) (ins comp x l).
Proof.
  induction l as [|y l IH]; simpl; auto. destruct (comp y x); auto.
  eapply perm_trans; [apply perm_swap|]. constructor. auto.
Qed.

Lemma ins_sorted comp x l : strict_weak comp ->
  StronglySorted (fun a b => comp b a = false) l -> StronglySorted (fun a b => comp b a = false) (ins comp x l).
Proof.
  intros Hc. induction 1; simpl; [repeat constructor|].
  destruct (comp a x) eqn:E.
  - constructor; auto. rewrite Forall_forall in *. intros y Hy.
    apply (Permutation_in _ (Permutation_sym (ins_perm comp x l))) in Hy.
    destruct Hy as [<-|Hy]; auto. now apply (sw_asym comp Hc).
  - constructor; [constructor; auto|]. constructor; auto.
    rewrite Forall_forall in *. intros y Hy. eapply (sw_negtrans comp Hc); eauto.
Qed.

Lemma isort_is_sort : is_sort isort.
Proof.
  intros comp l Hc. induction l as [|x l (P & S)]; simpl.
  - split; constructor.
  - split; [|now apply ins_sorted]. eapply perm_trans; [constructor; apply P|apply ins_perm].
Qed.
