(* RKProofs.v - the low-storage scheme as an explicit Runge-Kutta method; its order; the time loop. *)
From Coq Require Import ZArith List Lia Bool QArith Qreals Qabs Arith.
From Verif Require Import Base Loops Num JacobiSpec JacobiQuadProofs RKModel RKSpec.
From Coq Require Import Reals Lra.
Import ListNotations.
Local Open Scope nat_scope.

(* The matrix of the explicit method, over any ring. *)
Section Tableau.
Context {T : Type} (zero one : T) (add mul : T -> T -> T) (a b : nat -> T).
Fixpoint chain (i j : nat) : T :=
  match i with O => one | S i' => if j =? S i' then one else mul (a (S i')) (chain i' j) end.
Fixpoint lsA (i j : nat) : T :=
  match i with O => zero | S i' => if j =? i' then b i' else add (lsA i' j) (mul (b i') (chain i' j)) end.
Fixpoint tsum (n : nat) (f : nat -> T) : T := match n with O => zero | S n => add (tsum n f) (f n) end.
Definition conds (A : nat -> nat -> T) (B : nat -> T) (s : nat) : list T :=
  let c i := tsum i (A i) in
  [ tsum s B;
    tsum s (fun i => mul (B i) (c i));
    tsum s (fun i => mul (B i) (mul (c i) (mul (c i) one)));
    tsum s (fun i => mul (B i) (tsum i (fun j => mul (A i j) (c j))));
    tsum s (fun i => mul (B i) (mul (c i) (mul (c i) (mul (c i) one))));
    tsum s (fun i => mul (mul (B i) (c i)) (tsum i (fun j => mul (A i j) (c j))));
    tsum s (fun i => mul (B i) (tsum i (fun j => mul (A i j) (mul (c j) (mul (c j) one)))));
    tsum s (fun i => mul (B i) (tsum i (fun j => mul (A i j) (tsum j (fun l => mul (A j l) (c l)))))) ].
End Tableau.

Section Hom.
Context {T U : Type} (zero one : T) (add mul : T -> T -> T) (zero' one' : U) (add' mul' : U -> U -> U) (phi : T -> U)
  (H0 : phi zero = zero') (H1 : phi one = one') (Ha : forall x y, phi (add x y) = add' (phi x) (phi y)) (Hm : forall x y, phi (mul x y) = mul' (phi x) (phi y)).
Lemma chain_hom a i j : phi (chain one mul a i j) = chain one' mul' (fun m => phi (a m)) i j.
Proof. induction i as [|i IH]; cbn [chain]; [exact H1|]. destruct (j =? S i); [exact H1|]. rewrite Hm, IH. reflexivity. Qed.
Lemma lsA_hom a b i j : phi (lsA zero one add mul a b i j) = lsA zero' one' add' mul' (fun m => phi (a m)) (fun m => phi (b m)) i j.
Proof. induction i as [|i IH]; cbn [lsA]; [exact H0|]. destruct (j =? i); [reflexivity|]. rewrite Ha, Hm, IH, chain_hom. reflexivity. Qed.
Lemma tsum_hom n f : phi (tsum zero add n f) = tsum zero' add' n (fun i => phi (f i)).
Proof. induction n as [|n IH]; cbn [tsum]; [exact H0|]. rewrite Ha, IH. reflexivity. Qed.
Lemma tsum_ext (z : U) ad n f g : (forall i, f i = g i) -> tsum z ad n f = tsum z ad n g.
Proof. intros E. induction n as [|n IH]; cbn [tsum]; [reflexivity|]. rewrite IH, E. reflexivity. Qed.
Lemma conds_hom A B s : map phi (conds zero one add mul A B s) = conds zero' one' add' mul' (fun i j => phi (A i j)) (fun i => phi (B i)) s.
Proof.
  unfold conds. cbn [map].
  Ltac hom_go T H M O := first [reflexivity | exact O | rewrite T; apply tsum_ext; intro; hom_go T H M O | rewrite M; apply f_equal2; hom_go T H M O].
  repeat (apply f_equal2; [hom_go tsum_hom Ha Hm H1|]). reflexivity.
Qed.
End Hom.

Local Open Scope R_scope.
Lemma tsum_sumn n f : tsum 0 Rplus n f = sumn n f.
Proof. induction n as [|n IH]; [reflexivity|]. cbn [tsum]. rewrite IH, sumn_S. reflexivity. Qed.
Lemma tsum_sumn2 n f g : (forall i, f i = g i) -> tsum 0 Rplus n f = sumn n g.
Proof. intros H. rewrite tsum_sumn. apply sumn_ext. intros; apply H. Qed.

(* A check over the rationals that implies the order conditions over the reals. *)
Definition targets : list Q := [1; 1 # 2; 1 # 3; 1 # 6; 1 # 4; 1 # 8; 1 # 12; 1 # 24]%Q.
Definition qmul (x y : Q) : Q := Qred (Qmult x y).
Definition qadd (x y : Q) : Q := Qred (Qplus x y).
Fixpoint all_near (eps : Q) (l t : list Q) : bool :=
  match l, t with
  | x :: l, y :: t => Qle_bool (Qabs (x - y)) eps && all_near eps l t
  | _, _ => true
  end.
Definition lA (a b : list Q) := lsA 0%Q 1%Q qadd qmul (fun m => nth m a 0%Q) (fun m => nth m b 0%Q).
(* Tabulate the matrix once. *)
Definition tab (a b : list Q) : list (list Q) := map (fun i => map (fun j => lA a b i j) (seq 0 5)) (seq 0 6).
Definition order_check_tab (eps : Q) (t : list (list Q)) : bool :=
  all_near eps (conds 0%Q 1%Q qadd qmul (fun i j => nth j (nth i t []) 0%Q) (fun j => nth j (nth 5 t []) 0%Q) 5) targets.

Lemma Q2R_qmul x y : Q2R (qmul x y) = Q2R x * Q2R y.
Proof. unfold qmul. rewrite (Qeq_eqR _ _ (Qred_correct _)). apply Q2R_mult. Qed.
Lemma Q2R_qadd x y : Q2R (qadd x y) = Q2R x + Q2R y.
Proof. unfold qadd. rewrite (Qeq_eqR _ _ (Qred_correct _)). apply Q2R_plus. Qed.
Lemma Q2R_0 : Q2R 0 = 0. Proof. unfold Q2R. cbn. lra. Qed.
Lemma Q2R_1 : Q2R 1 = 1. Proof. unfold Q2R. cbn. lra. Qed.

Fixpoint near_all (eps : R) (l t : list R) : Prop :=
  match l, t with x :: l, y :: t => Rabs (x - y) <= eps /\ near_all eps l t | _, _ => True end.
Lemma all_near_R eps l t : all_near eps l t = true -> near_all (Q2R eps) (map Q2R l) (map Q2R t).
Proof.
  revert t. induction l as [|x l IH]; intros [|y t] H; cbn [map near_all]; auto.
  cbn [all_near] in H. apply andb_true_iff in H. destruct H as [H1 H2]. split; [|apply IH, H2].
  apply Qle_bool_iff, Qle_Rle in H1. rewrite <- Q2R_minus. destruct (Rcase_abs (Q2R (x - y))) as [Hn|Hp].
  - rewrite Rabs_left by exact Hn. eapply Rle_trans; [|exact H1]. rewrite <- Q2R_opp. apply Qle_Rle. rewrite <- Qabs_opp. apply Qle_Qabs.
  - rewrite Rabs_right by exact Hp. eapply Rle_trans; [|exact H1]. apply Qle_Rle, Qle_Qabs.
Qed.
Lemma near_eq x y e x' y' : Rabs (x - y) <= e -> x = x' -> y = y' -> Rabs (x' - y') <= e.
Proof. intros H <- <-. exact H. Qed.

Definition rkA (a b : nat -> R) := lsA 0 1 Rplus Rmult a b.

Lemma tsum_ext_lt (n : nat) (f g : nat -> R) : (forall i, (i < n)%nat -> f i = g i) -> tsum 0 Rplus n f = tsum 0 Rplus n g.
Proof. intros E. rewrite !tsum_sumn. apply sumn_ext. exact E. Qed.

Lemma conds_ext (A A' : nat -> nat -> R) (B B' : nat -> R) s : (forall i j, (i < s)%nat -> (j < i)%nat -> A i j = A' i j) -> (forall i, (i < s)%nat -> B i = B' i) ->
  conds 0 1 Rplus Rmult A B s = conds 0 1 Rplus Rmult A' B' s.
Proof.
  intros EA EB. assert (Ec : forall i, (i < s)%nat -> tsum 0 Rplus i (A i) = tsum 0 Rplus i (A' i)) by (intros i Hi; apply tsum_ext_lt; intros; apply EA; lia).
  unfold conds.
  repeat (apply f_equal2; [apply tsum_ext_lt; intros i Hi; rewrite ?EB, ?Ec by lia; try reflexivity;
    try (apply f_equal2; [reflexivity|]; apply tsum_ext_lt; intros j Hj; rewrite EA, ?Ec by lia; try reflexivity;
         try (apply f_equal2; [reflexivity|]; apply tsum_ext_lt; intros l Hl; rewrite EA, ?Ec by lia; reflexivity))|]). reflexivity.
Qed.

Lemma order4_conds eps (A : nat -> nat -> R) (B : nat -> R) : near_all eps (conds 0 1 Rplus Rmult A B 5) (map Q2R targets) -> order4 5 A B eps.
Proof.
  intros H. unfold conds, targets in H. cbn [map near_all] in H. destruct H as (H0 & H1 & H2 & H3 & H4 & H5 & H6 & H7 & _).
  assert (D : forall (n : nat) (f g : nat -> R), (forall i, f i = g i) -> tsum 0 Rplus n f = sumn n g).
  { intros n f g E. rewrite tsum_sumn. apply sumn_ext. intros; apply E. }
  assert (Ab : forall i, tsum 0 Rplus i (A i) = abscissa A i) by (intros; apply tsum_sumn).
  unfold order4, near.
  split; [|split; [|split; [|split; [|split; [|split; [|split]]]]]];
  [apply (near_eq _ _ _ _ _ H0)|apply (near_eq _ _ _ _ _ H1)|apply (near_eq _ _ _ _ _ H2)|apply (near_eq _ _ _ _ _ H3)|
   apply (near_eq _ _ _ _ _ H4)|apply (near_eq _ _ _ _ _ H5)|apply (near_eq _ _ _ _ _ H6)|apply (near_eq _ _ _ _ _ H7)];
  try (unfold Q2R; cbn [Qnum Qden]; lra); apply D; intros i; rewrite ?Ab; try reflexivity; apply f_equal; apply D; intros j; rewrite ?Ab; try reflexivity; apply f_equal; apply D; intros l; rewrite ?Ab; reflexivity.
Qed.

Lemma table_nth {X} (f : nat -> nat -> X) m n i j d : (i < m)%nat -> (j < n)%nat ->
  nth j (nth i (map (fun i => map (f i) (seq 0 n)) (seq 0 m)) []) d = f i j.
Proof.
  intros Hi Hj. rewrite (nth_indep _ [] ((fun i => map (f i) (seq 0 n)) 0%nat)) by (rewrite map_length, seq_length; exact Hi).
  rewrite (map_nth (fun i => map (f i) (seq 0 n))), seq_nth by exact Hi. rewrite Nat.add_0_l.
  rewrite (nth_indep _ d (f i 0%nat)) by (rewrite map_length, seq_length; exact Hj). rewrite (map_nth (f i)), seq_nth by exact Hj. reflexivity.
Qed.

Lemma lA_ok a b ra rb i j : (forall m, (m < 5)%nat -> ra m = Q2R (nth m a 0%Q)) -> (forall m, (m < 5)%nat -> rb m = Q2R (nth m b 0%Q)) ->
  (i <= 5)%nat -> Q2R (lA a b i j) = rkA ra rb i j.
Proof.
  intros Ea Eb Hi. unfold lA, rkA. rewrite (lsA_hom 0%Q 1%Q qadd qmul 0 1 Rplus Rmult Q2R Q2R_0 Q2R_1 Q2R_qadd Q2R_qmul).
  assert (Ch : forall i, (i < 5)%nat -> chain 1 Rmult (fun m => Q2R (nth m a 0%Q)) i j = chain 1 Rmult ra i j).
  { induction i0 as [|i0 IH]; intros Hl; cbn [chain]; [reflexivity|]. destruct (j =? S i0)%nat; [reflexivity|]. rewrite IH by lia. rewrite (Ea (S i0)) by lia. reflexivity. }
  induction i as [|i IH]; cbn [lsA]; [reflexivity|]. rewrite (Eb i) by lia. destruct (j =? i)%nat; [reflexivity|]. rewrite IH by lia. rewrite Ch by lia. reflexivity.
Qed.

Lemma conds_Q A B s : map Q2R (conds 0%Q 1%Q qadd qmul A B s) = conds 0 1 Rplus Rmult (fun i j => Q2R (A i j)) (fun i => Q2R (B i)) s.
Proof. apply (conds_hom 0%Q 1%Q qadd qmul 0 1 Rplus Rmult Q2R Q2R_0 Q2R_1 Q2R_qadd Q2R_qmul). Qed.

Lemma order_check_tab_ok eps t : order_check_tab eps t = true -> near_all (Q2R eps) (conds 0 1 Rplus Rmult (fun i j => Q2R (nth j (nth i t []) 0%Q)) (fun j => Q2R (nth j (nth 5 t []) 0%Q)) 5) (map Q2R targets).
Proof.
  unfold order_check_tab. generalize targets. intros tg. rewrite <- (conds_Q (fun i j => nth j (nth i t []) 0%Q)). generalize (conds 0%Q 1%Q qadd qmul (fun i j => nth j (nth i t []) 0%Q) (fun j => nth j (nth 5 t []) 0%Q) 5).
  intros l. apply all_near_R.
Qed.
Lemma order_check_ok eps a b : order_check_tab eps (tab a b) = true -> forall ra rb,
  (forall m, (m < 5)%nat -> ra m = Q2R (nth m a 0%Q)) -> (forall m, (m < 5)%nat -> rb m = Q2R (nth m b 0%Q)) ->
  order4 5 (rkA ra rb) (rkA ra rb 5) (Q2R eps).
Proof.
  intros H ra rb Ea Eb. apply order4_conds. apply order_check_tab_ok in H.
  assert (E : conds 0 1 Rplus Rmult (rkA ra rb) (rkA ra rb 5) 5 = conds 0 1 Rplus Rmult (fun i j => Q2R (nth j (nth i (tab a b) []) 0%Q)) (fun j => Q2R (nth j (nth 5 (tab a b) []) 0%Q)) 5).
  { apply conds_ext; intros; cbv beta; unfold tab; rewrite table_nth by lia; symmetry; apply lA_ok; auto; lia. }
  rewrite E. exact H.
Qed.

(* --- the stages --- *)
Lemma zipw_length {T} (f : T -> T -> T) x : forall y, length x = length y -> length (zipw f x y) = length x.
Proof. induction x as [|a x IH]; intros [|b y] H; cbn [zipw length] in *; try discriminate; auto. Qed.
Lemma zipw_nth (f : R -> R -> R) x : forall y m, length x = length y -> (m < length x)%nat -> nth m (zipw f x y) 0 = f (nth m x 0) (nth m y 0).
Proof.
  induction x as [|a x IH]; intros [|b y] m H Hm; cbn [zipw length nth] in *; try discriminate; try lia.
  destruct m as [|m]; [reflexivity|]. apply IH; lia.
Qed.
Lemma shifted_length u dt s c k : length (shifted u dt s c k) = length u.
Proof. unfold shifted. now rewrite map_length, seq_length. Qed.
Lemma shifted_nth u dt s c k m : (m < length u)%nat -> nth m (shifted u dt s c k) 0 = nth m u 0 + dt * sumn s (fun j => c j * nth m (k j) 0).
Proof.
  intros Hm. unfold shifted. set (f := fun m => nth m u 0 + dt * sumn s (fun j => c j * nth m (k j) 0)).
  rewrite (nth_indep _ 0 (f 0%nat)) by (rewrite map_length, seq_length; exact Hm). rewrite (map_nth f), seq_nth by exact Hm. reflexivity.
Qed.
Lemma shifted_eq u v dt s c k : length v = length u -> (forall m, (m < length u)%nat -> nth m v 0 = nth m u 0 + dt * sumn s (fun j => c j * nth m (k j) 0)) -> v = shifted u dt s c k.
Proof.
  intros L H. apply (nth_ext _ _ 0 0); [rewrite shifted_length; exact L|]. intros m Hm. rewrite L in Hm. rewrite shifted_nth by exact Hm. apply H, Hm.
Qed.
Lemma sumn_ext_k n c (k k' : nat -> list R) m : (forall j, (j < n)%nat -> k j = k' j) -> sumn n (fun j => c j * nth m (k j) 0) = sumn n (fun j => c j * nth m (k' j) 0).
Proof. intros H. apply sumn_ext. intros j Hj. rewrite H by exact Hj. reflexivity. Qed.
Lemma shifted_ext u dt n c k k' : (forall j, (j < n)%nat -> k j = k' j) -> shifted u dt n c k = shifted u dt n c k'.
Proof. intros H. apply shifted_eq; [apply shifted_length|]. intros m Hm. rewrite shifted_nth by exact Hm. f_equal. f_equal. apply sumn_ext_k, H. Qed.

Section Stages.
Variables (G : R -> R) (ca cb : list R) (f : list R -> outcome (list R)) (dt : R).
Variables (u0 : list R).
Hypothesis same_length : forall v w, length v = length u0 -> f v = Ok w -> length w = length u0.
Let a m := nth m ca 0.
Let b m := nth m cb 0.
Let AA := rkA a b.
Let ch := chain 1 Rmult a.

(* After n stages. *)
Definition after (n : nat) (st : list R * list R) : Prop :=
  length (fst st) = length u0 /\ length (snd st) = length u0 /\
  exists k : nat -> list R,
    (forall i, (i < n)%nat -> f (shifted u0 dt i (AA i) k) = Ok (k i) /\ length (k i) = length u0) /\
    fst st = shifted u0 dt n (AA n) k /\
    ((0 < n)%nat -> snd st = shifted (repeat 0 (length u0)) dt n (ch (n - 1)) k).

Lemma chain_diag i : ch i i = 1.
Proof. unfold ch. destruct i as [|i]; cbn [chain]; [reflexivity|]. rewrite Nat.eqb_refl. reflexivity. Qed.
Lemma chain_S i j : (j <= i)%nat -> ch (S i) j = a (S i) * ch i j.
Proof. intros H. unfold ch. cbn [chain]. destruct (Nat.eqb_spec j (S i)); [lia|reflexivity]. Qed.
Lemma AA_S i j : (j < i)%nat -> AA (S i) j = AA i j + b i * ch i j.
Proof. intros H. unfold AA, rkA. cbn [lsA]. destruct (Nat.eqb_spec j i); [lia|reflexivity]. Qed.
Lemma AA_last i : AA (S i) i = b i.
Proof. unfold AA, rkA. cbn [lsA]. rewrite Nat.eqb_refl. reflexivity. Qed.

Lemma stage_ok n st st' : a 0%nat = 0 -> (n < length ca)%nat -> (n < length cb)%nat -> after n st -> stage (exact G) ca cb f dt n st = Ok st' -> after (S n) st'.
Proof.
  intros A0 Hca Hcb (Lu & Lr & k & Hk & Eu & Er) H. destruct st as [u res]. cbn [fst snd] in *. unfold stage in H.
  unfold getn in H. rewrite (nth_error_nth' ca 0 Hca), (nth_error_nth' cb 0 Hcb) in H. cbn [bind] in H.
  destruct (f u) as [RHS| |] eqn:Ef; cbn [bind] in H; try discriminate. injection H as <-.
  pose proof (same_length u RHS Lu Ef) as LR.
  change (nth n ca 0) with (a n). change (nth n cb 0) with (b n). cbn [exact fadd fmul].
  set (res' := zipw (fun r g => a n * r + dt * g) res RHS). set (u' := zipw (fun v r => v + b n * r) u res').
  assert (L1 : length res' = length u0) by (unfold res'; rewrite zipw_length; congruence).
  assert (L2 : length u' = length u0) by (unfold u'; rewrite zipw_length; congruence).
  set (k' := fun j => if (j =? n)%nat then RHS else k j).
  assert (K1 : forall j, (j < n)%nat -> k j = k' j) by (intros j Hj; unfold k'; destruct (Nat.eqb_spec j n); [lia|reflexivity]).
  assert (K2 : k' n = RHS) by (unfold k'; rewrite Nat.eqb_refl; reflexivity).
  assert (Res : forall m, (m < length u0)%nat -> nth m res' 0 = dt * sumn (S n) (fun j => ch n j * nth m (k' j) 0)).
  { intros m Hm. unfold res'. rewrite zipw_nth by lia. rewrite sumn_S, chain_diag, K2. destruct n as [|n].
    - rewrite A0, sumn_0. ring.
    - rewrite Er by lia. replace (S n - 1)%nat with n by lia. rewrite shifted_nth by (rewrite repeat_length; exact Hm). rewrite nth_repeat.
      rewrite (sumn_ext_k (S n) (ch n) k k' m K1). rewrite (sumn_ext (S n) (fun j => ch (S n) j * nth m (k' j) 0) (fun j => a (S n) * (ch n j * nth m (k' j) 0))).
      + rewrite sumn_scal. ring.
      + intros j Hj. rewrite chain_S by lia. ring. }
  split; [exact L2|]. split; [exact L1|]. exists k'. split; [|split].
  - intros i Hi. destruct (Nat.eq_dec i n) as [->|Ni].
    + rewrite K2. rewrite <- (shifted_ext u0 dt n (AA n) k k' K1). rewrite <- Eu. split; [exact Ef|exact LR].
    + rewrite <- K1 by lia. rewrite <- (shifted_ext u0 dt i (AA i) k k') by (intros; apply K1; lia). apply Hk. lia.
  - apply shifted_eq; [exact L2|]. intros m Hm. cbn [fst]. unfold u'. rewrite zipw_nth by lia. rewrite Res by exact Hm. rewrite Eu, shifted_nth by exact Hm.
    rewrite !sumn_S, AA_last, chain_diag, (sumn_ext_k n (AA n) k k' m K1).
    rewrite (sumn_ext n (fun j => AA (S n) j * nth m (k' j) 0) (fun j => AA n j * nth m (k' j) 0 + b n * (ch n j * nth m (k' j) 0))).
    + rewrite sumn_plus, sumn_scal. ring.
    + intros j Hj. rewrite AA_S by exact Hj. ring.
  - intros _. cbn [snd]. replace (S n - 1)%nat with n by lia. apply shifted_eq; [rewrite repeat_length; exact L1|]. intros m Hm. rewrite repeat_length in Hm. rewrite Res by exact Hm. rewrite nth_repeat. ring.
Qed.

Lemma stages_ok (res : list R) n lo st st' : a 0%nat = 0 -> (lo + n <= length ca)%nat -> (lo + n <= length cb)%nat -> length res = length u0 -> after lo st ->
  for_from lo n (stage (exact G) ca cb f dt) st = Ok st' -> after (lo + n) st'.
Proof.
  intros A0. revert lo st. induction n as [|n IH]; intros lo st Hca Hcb Lr Ha H; cbn [for_from] in H.
  - injection H as <-. rewrite Nat.add_0_r. exact Ha.
  - destruct (stage (exact G) ca cb f dt lo st) as [st1| |] eqn:Es; cbn [bind] in H; try discriminate.
    replace (lo + S n)%nat with (S lo + n)%nat by lia. apply (IH (S lo) st1); auto; try lia. apply (stage_ok lo st st1); auto; lia.
Qed.

Lemma stages_rk (res : list R) st' : a 0%nat = 0 -> length ca = 5%nat -> length cb = 5%nat -> length res = length u0 ->
  for_ 5 (stage (exact G) ca cb f dt) (u0, res) = Ok st' ->
  length (fst st') = length u0 /\ length (snd st') = length u0 /\ explicit_rk_step 5 AA (AA 5) f dt u0 (fst st').
Proof.
  intros A0 Hca Hcb Lr H. unfold for_ in H.
  assert (H0 : after 0 (u0, res)).
  { split; [reflexivity|]. split; [exact Lr|]. exists (fun _ => []). split; [intros; lia|]. split; [|intros; lia]. apply shifted_eq; [reflexivity|].
    intros m Hm. cbn [fst]. rewrite sumn_0. ring. }
  destruct (stages_ok res 5 0 (u0, res) st' A0 ltac:(lia) ltac:(lia) Lr H0 H) as (L1 & L2 & k & Hk & Eu & _).
  split; [exact L1|]. split; [exact L2|]. exists k. split; [intros i Hi; apply Hk, Hi|exact Eu].
Qed.
End Stages.

(* The step returns whenever every evaluation of the right-hand side does. *)
Lemma stages_total (G : R -> R) ca cb f dt n : length ca = n -> length cb = n -> (forall v, exists w, f v = Ok w) -> forall st, exists st', for_ n (stage (exact G) ca cb f dt) st = Ok st'.
Proof.
  intros Hca Hcb Hf st. destruct (for_from_inv (fun _ _ => True) n 0 (stage (exact G) ca cb f dt) st I) as (s' & E & _); [|exists s'; exact E].
  intros i [u r] Hi _. unfold stage, getn. rewrite (nth_error_nth' ca 0), (nth_error_nth' cb 0) by lia. cbn [bind]. destruct (Hf u) as (w & ->). cbn [bind]. eauto.
Qed.

(* --- the time loop --- *)
Section SimLoop.
Variables (G : R -> R) (rhs : R -> list R -> outcome (list R)) (unstable : list R -> bool) (dt T : R).
Local Notation step := (sim_step (exact G) rhs unstable dt).
(* n steps *)
Fixpoint steps (n : nat) (s : sim R) : outcome (sim R) := match n with O => Ok s | S n => bind (step s) (steps n) end.

Lemma step_fields s s' : step s = Ok s' -> s_t s' = s_t s + dt /\ s_count s' = S (s_count s) /\
  s_out s' = (if (s_count s mod 10 =? 0)%nat then (s_count s, s_u s) :: s_out s else s_out s) /\ unstable (s_u s') = false.
Proof.
  unfold sim_step. destruct (rk_step _ _ _ _) as [[u' r']| |]; cbn [bind]; try discriminate. destruct (unstable u') eqn:Eu; [discriminate|].
  intros [= <-]. cbn. auto.
Qed.

Lemma loop_steps fuel : forall s s', 0 < dt -> sim_loop (exact G) fuel rhs unstable dt T s = Ok s' ->
  exists n, (n < fuel)%nat /\ steps n s = Ok s' /\ s_t s' = s_t s + INR n * dt /\ T <= s_t s' /\ ((0 < n)%nat -> s_t s' - dt < T) /\ (n = 0%nat <-> T <= s_t s).
Proof.
  induction fuel as [|fuel IH]; intros s s' Hdt H; [discriminate|]. cbn [sim_loop] in H. cbn [exact flt] in H. unfold Rltb in H.
  destruct (Rlt_dec (s_t s) T) as [Ht|Ht].
  - destruct (step s) as [s1| |] eqn:Es; cbn [bind] in H; try discriminate. destruct (step_fields s s1 Es) as (Et & _).
    destruct (IH s1 s' Hdt H) as (n & Hn & En & Tn & TT & TL & T0). exists (S n). split; [lia|]. split; [cbn [steps]; rewrite Es; exact En|].
    rewrite S_INR. split; [rewrite Tn, Et; ring|]. split; [exact TT|]. split; [|split; [lia|lra]]. intros _.
    destruct n as [|n]; [|apply TL; lia]. assert (s_t s' = s_t s1) by (rewrite Tn; cbn; ring). lra.
  - injection H as <-. exists 0%nat. split; [lia|]. split; [reflexivity|]. split; [cbn; ring|]. split; [lra|]. split; [lia|]. split; intros; lra || reflexivity.
Qed.

(* Which fields are written: those of steps 0, 10, 20, ... *)
Lemma steps_count n : forall s s', steps n s = Ok s' -> s_count s' = (s_count s + n)%nat.
Proof.
  induction n as [|n IH]; intros s s' H; cbn [steps] in H; [injection H as <-; lia|]. destruct (step s) as [s1| |] eqn:Es; cbn [bind] in H; try discriminate.
  destruct (step_fields s s1 Es) as (_ & Ec & _). rewrite (IH s1 s' H), Ec. lia.
Qed.
Lemma steps_app n m : forall s, steps (n + m) s = bind (steps n s) (steps m).
Proof. induction n as [|n IH]; intros s; [reflexivity|]. cbn [Nat.add steps]. destruct (step s); cbn [bind]; auto. Qed.

Lemma steps_out n : forall s s', steps n s = Ok s' -> s_count s = 0%nat -> s_out s = [] ->
  forall c u, In (c, u) (s_out s') <-> (c < n)%nat /\ (c mod 10 = 0)%nat /\ exists sc, steps c s = Ok sc /\ u = s_u sc.
Proof.
  induction n as [|n IH]; intros s s' H Hc Ho c u.
  - cbn [steps] in H. injection H as <-. rewrite Ho. split; [intros []|intros (H & _); lia].
  - replace (S n) with (n + 1)%nat in H by lia. rewrite steps_app in H. destruct (steps n s) as [sn| |] eqn:En; cbn [bind] in H; try discriminate.
    cbn [steps] in H. destruct (step sn) as [s1| |] eqn:Es; cbn [bind] in H; try discriminate. injection H as <-.
    destruct (step_fields sn s1 Es) as (_ & _ & Eo & _). pose proof (steps_count n s sn En) as Cn. rewrite Hc in Cn. cbn [Nat.add] in Cn.
    specialize (IH s sn En Hc Ho c u). rewrite Eo. destruct (Nat.eqb_spec (s_count sn mod 10) 0) as [Hm|Hm].
    + cbn [In]. rewrite IH. rewrite Cn in *. split.
      * intros [[= <- <-]|(A1 & A2 & A3)]; [|split; [lia|auto]]. split; [lia|]. split; [exact Hm|]. exists sn. auto.
      * intros (A1 & A2 & sc & A3 & A4). destruct (Nat.eq_dec c n) as [->|]; [left|right; split; [lia|]; split; [exact A2|]; eauto]. rewrite En in A3. injection A3 as <-. subst u. reflexivity.
    + rewrite IH. split; intros (A1 & A2 & A3); (split; [|split; [exact A2|exact A3]]); [lia|]. destruct (Nat.eq_dec c n) as [->|]; [|lia]. exfalso. apply Hm. rewrite Cn. exact A2.
Qed.
End SimLoop.
