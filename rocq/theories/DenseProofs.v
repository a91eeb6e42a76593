(* DenseProofs.v - storage order of the LAPACK wrappers. *)
From Coq Require Import ZArith List Lia Bool Arith.
From Verif Require Import Base Loops BlitzModel BlitzSpec BlitzProofs DenseModel JacobiSpec DenseSpec JacobiQuadProofs.
From Coq Require Import Reals Lra.
Import ListNotations.
Local Open Scope nat_scope.

Lemma nthe (l : list R) i x : nth_error l i = Some x -> nth i l 0%R = x.
Proof. intros H. erewrite nth_error_nth; eauto. Qed.

(* copying in, column by column *)
Lemma copy_in (A : mat R) n m : shape A n m -> forall N, n * m <= N ->
  exists a, reshapeMatTo1D A false (repeat 0%R N) = Ok a /\ length a = N /\
  forall i j, i < n -> j < m -> cm n a i j = ment A i j.
Proof.
  intros (<- & <-) N HN. destruct (to1d_spec A false (repeat 0%R N)) as (a & E & L & H & _).
  - rewrite repeat_length. lia.
  - exists a. split; auto. split; [now rewrite L, repeat_length|]. intros i j Hi Hj. apply nthe. apply H; auto.
Qed.
(* copying in, row by row *)
Lemma copy_in_rows (A : mat R) n : shape A n n ->
  exists a, reshapeMatTo1D A true (repeat 0%R (n * n)) = Ok a /\ length a = n * n /\
  forall i j, i < n -> j < n -> cm n a i j = ment A j i.
Proof.
  intros (<- & Hc). destruct (to1d_spec A true (repeat 0%R (mrows A * mrows A))) as (a & E & L & H & _).
  - rewrite repeat_length. lia.
  - exists a. split; auto. split; [now rewrite L, repeat_length|]. intros i j Hi Hj. apply nthe.
    specialize (H j i Hj). unfold flat_index in H. rewrite Hc in H. unfold cm. rewrite Nat.add_comm. apply H. auto.
Qed.
Lemma copy_out (x : list R) (X : mat R) n m : shape X n m -> length x = n * m ->
  exists X', reshape1DToMat x false X = Ok X' /\ shape X' n m /\ forall i j, i < n -> j < m -> ment X' i j = cm n x i j.
Proof.
  intros (<- & <-) L. destruct (from1d_spec X false x) as (X' & E & R & C & H); [lia|].
  exists X'. split; auto. split; [split; auto|]. intros i j Hi Hj. symmetry. apply nthe. apply H; auto.
Qed.

Lemma direct_solve_ok f (A B X : mat R) n m : dsgesv_spec f -> shape A n n -> shape B n m -> shape X n m ->
  direct_solve 0%R f A B X = Throw \/ exists Y, direct_solve 0%R f A B X = Ok Y /\ shape Y n m /\ product_is n A Y B.
Proof.
  intros HF HA HB HX. unfold direct_solve. destruct HA as (Ar & Ac). pose proof HB as (Br & Bc). rewrite Ar, Bc.
  destruct (copy_in A n n (conj Ar Ac) (n * n)) as (a & -> & La & Ha); [lia|]. cbn [bind].
  destruct (copy_in B n m HB (n * m)) as (b & -> & Lb & Hb); [lia|]. cbn [bind].
  specialize (HF n m a b La Lb). destruct (f n m a b) as (x & info). destruct HF as (Lx & HF).
  unfold check_info. destruct (Z.eqb_spec info 0) as [E|]; cbn [bind]; auto. right.
  destruct (copy_out x X n m HX Lx) as (Y & -> & (Yr & Yc) & HY). exists Y. split; auto. split; [split; auto|].
  split; [split; congruence|]. rewrite Ar, Yc. intros i j Hi Hj. rewrite <- Hb, <- (HF E i j Hi Hj) by auto.
  apply sumn_ext. intros k Hk. now rewrite Ha, HY.
Qed.

Lemma inverse_ok f g (A X : mat R) n : dgetr_spec f g -> shape A n n -> shape X n n ->
  computeInverse 0%R f g A X = Throw \/ exists Y, computeInverse 0%R f g A X = Ok Y /\ shape Y n n /\
    forall i j, i < n -> j < n -> sumn n (fun k => ment A i k * ment Y k j)%R = (if Nat.eqb i j then 1 else 0)%R /\
                                  sumn n (fun k => ment Y i k * ment A k j)%R = (if Nat.eqb i j then 1 else 0)%R.
Proof.
  intros HF (Ar & Ac) HX. unfold computeInverse. rewrite Ar.
  destruct (copy_in A n n (conj Ar Ac) (n * n)) as (a & -> & La & Ha); [lia|]. cbn [bind].
  specialize (HF n a La). destruct (f n a) as ((lu & ipiv) & info). destruct (g n lu ipiv) as (x & info2).
  destruct HF as (Lx & HF). unfold check_info. destruct (Z.eqb_spec info 0) as [E|]; cbn [bind]; auto.
  destruct (Z.eqb_spec info2 0) as [E2|]; cbn [bind]; auto. right.
  destruct (copy_out x X n n HX Lx) as (Y & -> & S & HY). exists Y. split; auto. split; auto.
  intros i j Hi Hj. destruct (HF E E2 i j Hi Hj) as (H1 & H2). split; [rewrite <- H1|rewrite <- H2]; apply sumn_ext; intros k Hk; now rewrite Ha, HY.
Qed.

Lemma zero_below (R1 : mat R) n : shape R1 n n ->
  exists R2, for_from 1 (mrows R1 - 1) (fun i => for_ i (fun j R => mset R i j 0%R)) R1 = Ok R2 /\ shape R2 n n /\
    forall i j, ment R2 i j = if (j <? i) && (i <? n) then 0%R else ment R1 i j.
Proof.
  intros (Hr & Hc). rewrite Hr. destruct n as [|n].
  { exists R1. split; [reflexivity|]. split; [split; auto|]. intros i j. destruct (i <? 0) eqn:E; [discriminate|]. now rewrite andb_false_r. }
  replace (S n - 1) with n by lia.
  destruct (for_from_inv (fun i R => shape R (S n) (S n) /\ forall a b, ment R a b = if (b <? a) && (a <? i) then 0%R else ment R1 a b)
    n 1 (fun i => for_ i (fun j R => mset R i j 0%R)) R1) as (R2 & E & HS & H).
  - split; [split; auto|]. intros a b. destruct (Nat.ltb_spec b a), (Nat.ltb_spec a 1); auto; lia.
  - intros i s Hi ((Sr & Sc) & Hs).
    destruct (for_inv (fun j R => shape R (S n) (S n) /\
        forall a b, ment R a b = if (b <? a) && (a <? i) || (a =? i) && (b <? j) then 0%R else ment R1 a b) i
        (fun j R => mset R i j 0%R) s) as (s' & E & HS & H).
    + split; [split; auto|]. intros a b. rewrite Hs. destruct (a =? i); cbn; now rewrite ?orb_false_r.
    + intros j t Hj ((Tr & Tc) & Ht). unfold mset. rewrite inb_true by lia. eexists. split; [reflexivity|].
      split; [split; auto|]. intros a b. cbn [ment]. rewrite Ht.
      destruct (Nat.eqb_spec a i), (Nat.eqb_spec b j), (Nat.ltb_spec b a), (Nat.ltb_spec a i), (Nat.ltb_spec b j), (Nat.ltb_spec b (S j)); cbn; auto; lia.
    + exists s'. split; auto. split; auto. intros a b. rewrite H.
      destruct (Nat.eqb_spec a i), (Nat.ltb_spec b a), (Nat.ltb_spec a i), (Nat.ltb_spec b i), (Nat.ltb_spec a (S i)); cbn; auto; lia.
  - exists R2. auto.
Qed.

Lemma cholesky_ok f (A X : mat R) n : dpotrf_spec f -> shape A n n -> shape X n n ->
  (forall i j, i < n -> j < n -> ment A i j = ment A j i) ->
  computeCholesky 0%R f A X = Throw \/ exists U, computeCholesky 0%R f A X = Ok U /\ shape U n n /\
    (forall i j, j < i < n -> ment U i j = 0%R) /\
    (forall i j, i < n -> j < n -> sumn n (fun k => ment U k i * ment U k j)%R = ment A i j).
Proof.
  intros HF (Ar & Ac) HX Hsym. unfold computeCholesky. rewrite Ar.
  destruct (copy_in A n n (conj Ar Ac) (n * n)) as (a & -> & La & Ha); [lia|]. cbn [bind].
  specialize (HF n a La). destruct (f n a) as (u & info). destruct HF as (Lu & HF).
  unfold check_info. destruct (Z.eqb_spec info 0) as [E|]; cbn [bind]; auto. right.
  destruct (copy_out u X n n HX Lu) as (Y & -> & HS & HY). cbn [bind].
  destruct (zero_below Y n HS) as (U & EU & SU & HU). exists U. split; auto. split; auto. split.
  - intros i j Hij. rewrite HU. destruct (Nat.ltb_spec j i), (Nat.ltb_spec i n); auto; lia.
  - assert (G : forall i j, i <= j < n -> sumn n (fun k => ment U k i * ment U k j)%R = ment A i j).
    { intros i j Hij. rewrite <- Ha by lia. rewrite <- (HF E i j Hij). apply sumn_ext. intros k Hk.
      assert (Q : forall c, c < n -> ment U k c = upper (cm n u) k c).
      { intros c Hc. rewrite HU. unfold upper. destruct (Nat.ltb_spec c k), (Nat.ltb_spec k n), (Nat.leb_spec k c); cbn; auto; try lia. }
      now rewrite !Q by lia. }
    intros i j Hi Hj. destruct (Nat.le_ge_cases i j); [apply G; lia|]. rewrite Hsym by auto. rewrite <- G by lia.
    apply sumn_ext. intros. ring.
Qed.

Lemma copy_vec (ww w : list R) n : length ww = n -> length w = n ->
  for_ n (fun i w => bind (getn ww i) (fun x => setn w i x)) w = Ok ww.
Proof.
  intros L1 L2.
  destruct (for_inv (fun i (v : list R) => length v = n /\ forall k, k < i -> nth_error v k = nth_error ww k) n
    (fun i w => bind (getn ww i) (fun x => setn w i x)) w) as (v & E & Lv & H).
  - split; auto. intros; lia.
  - intros i v Hi (Lv & Hv). destruct (nth_error_ex ww i) as (x & Hx); [lia|]. rewrite (getn_ok _ _ _ Hx). cbn [bind].
    rewrite setn_ok by lia. eexists. split; [reflexivity|]. split; [now rewrite upd_length|].
    intros k Hk. rewrite nth_error_upd_if by lia. destruct (Nat.eqb_spec k i) as [->|]; [congruence|]. apply Hv. lia.
  - rewrite E. f_equal. apply list_ext_nth. intros k. destruct (Nat.lt_ge_cases k n); [now apply H|].
    rewrite !(proj2 (nth_error_None _ _)); auto; lia.
Qed.

Lemma eigen_ext n J J' w V V' : (forall i j, i < n -> j < n -> J i j = J' i j) -> (forall i j, i < n -> j < n -> V i j = V' i j) ->
  eigen_solution n J w V -> eigen_solution n J' w V'.
Proof.
  intros HJ HV (L & E1 & E2 & E3 & E4). split; [auto|]. split; [|split; [|split; [|auto]]].
  - intros i j Hi Hj. rewrite <- HV by auto. rewrite <- (E1 i j Hi Hj). apply sumn_ext. intros. now rewrite HJ, HV by auto.
  - intros a b Ha Hb. rewrite <- (E2 a b Ha Hb). apply sumn_ext. intros. now rewrite !HV by auto.
  - intros a b Ha Hb. rewrite <- (E3 a b Ha Hb). apply sumn_ext. intros. now rewrite !HV by auto.
Qed.

Lemma eigen_ok q f (A Z0 : mat R) w n : dsyevd_spec f -> shape A n n -> shape Z0 n n -> length w = n ->
  (forall i j, i < n -> j < n -> ment A i j = ment A j i) ->
  eigen_solve 0%R q f A w Z0 = Throw \/ exists w1 Z1, eigen_solve 0%R q f A w Z0 = Ok (w1, Z1) /\ shape Z1 n n /\
    eigen_solution n (ment A) w1 (ment Z1).
Proof.
  intros HF HA HZ Lw Hsym. unfold eigen_solve. destruct HA as (Ar & Ac). rewrite Ar.
  destruct (copy_in_rows A n (conj Ar Ac)) as (a & -> & La & Ha). cbn [bind].
  unfold check_info. destruct (Z.eqb_spec (q n a) 0); cbn [bind]; auto.
  specialize (HF n a La). destruct (f n a) as ((z & ww) & info). destruct HF as (Lz & Lww & HF).
  destruct (Z.eqb_spec info 0) as [E|]; cbn [bind]; auto. right.
  destruct (copy_out z Z0 n n HZ Lz) as (Z1 & -> & HS & HZ1). cbn [bind].
  rewrite (copy_vec ww w n Lww Lw). cbn [bind]. exists ww, Z1. split; auto. split; auto.
  apply (eigen_ext n (sym_upper (cm n a)) (ment A) ww (cm n z) (ment Z1)); [| |now apply HF].
  - intros i j Hi Hj. unfold sym_upper. rewrite Ha by lia. destruct (Nat.le_ge_cases i j).
    + rewrite Nat.min_l, Nat.max_r by auto. auto.
    + rewrite Nat.min_r, Nat.max_l by auto. auto.
  - intros. symmetry. now apply HZ1.
Qed.
