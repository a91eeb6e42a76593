(* CubProofs.v - what the fixed-point check of CubCheck.v implies for real numbers. *)
From Coq Require Import ZArith List Lia Bool Permutation.
From Verif Require Import Base JacobiSpec JacobiOrthProofs JacobiQuadProofs TriSpec TriOpProofs CubTable CubModel CubSpec CubCheck.
From Coq Require Import Reals Lra.
Import ListNotations.
Local Open Scope R_scope.

(* --- monomials over the triangle --- *)
Lemma dpow_u m s : derivable_pt_lim (fun s => ((1 + s) / 2) ^ S m) s (INR (S m) * ((1 + s) / 2) ^ m * / 2).
Proof.
  replace (INR (S m) * ((1 + s) / 2) ^ m * / 2) with ((INR (S m) * ((1 + s) / 2) ^ pred (S m)) * / 2) by (cbn [pred]; ring).
  apply (derivable_pt_lim_comp (fun s => (1 + s) / 2) (fun x => x ^ S m)).
  - replace (/ 2) with ((0 + 1) * / 2) by field. apply (derivable_pt_lim_scal_right (fun s => 1 + s) s (0 + 1) (/ 2)).
    apply (derivable_pt_lim_plus (fun _ => 1) id); [apply derivable_pt_lim_const|apply derivable_pt_lim_id].
  - apply derivable_pt_lim_pow.
Qed.

Lemma dpow_v m s : derivable_pt_lim (fun s => ((1 - s) / 2) ^ S m) s (- (INR (S m) * ((1 - s) / 2) ^ m * / 2)).
Proof.
  replace (- (INR (S m) * ((1 - s) / 2) ^ m * / 2)) with ((INR (S m) * ((1 - s) / 2) ^ pred (S m)) * (- / 2)) by (cbn [pred]; ring).
  apply (derivable_pt_lim_comp (fun s => (1 - s) / 2) (fun x => x ^ S m)).
  - replace (- / 2) with ((0 - 1) * / 2) by field. apply (derivable_pt_lim_scal_right (fun s => 1 - s) s (0 - 1) (/ 2)).
    apply (derivable_pt_lim_minus (fun _ => 1) id); [apply derivable_pt_lim_const|apply derivable_pt_lim_id].
  - apply derivable_pt_lim_pow.
Qed.

Lemma beta_integral m : forall b, integral_is (fun s => ((1 - s) / 2) ^ m * ((1 + s) / 2) ^ b) (-1) 1
  (2 * INR (fact m) * INR (fact b) / INR (fact (m + b + 1))).
Proof.
  induction m as [|m IH]; intros b.
  - exists (fun s => 2 / INR (S b) * ((1 + s) / 2) ^ S b). split.
    + intros x. replace (((1 - x) / 2) ^ 0 * ((1 + x) / 2) ^ b) with (2 / INR (S b) * (INR (S b) * ((1 + x) / 2) ^ b * / 2)).
      * apply (derivable_pt_lim_scal (fun s => ((1 + s) / 2) ^ S b)). apply dpow_u.
      * cbn [pow]. field. apply not_0_INR. lia.
    + replace ((1 + 1) / 2) with 1 by field. replace ((1 + -1) / 2) with 0 by field. rewrite pow1, pow_i by lia.
      replace (0 + b + 1)%nat with (S b) by lia. rewrite fact_simpl, mult_INR. change (fact 0) with 1%nat. change (INR 1) with 1. field.
      split; apply not_0_INR; [apply fact_neq_0|lia].
  - destruct (IH (S b)) as (F & HF & EF).
    exists (fun s => 2 / INR (S b) * (((1 - s) / 2) ^ S m * ((1 + s) / 2) ^ S b) + INR (S m) / INR (S b) * F s). split.
    + intros x. replace (((1 - x) / 2) ^ S m * ((1 + x) / 2) ^ b) with
        (2 / INR (S b) * (- (INR (S m) * ((1 - x) / 2) ^ m * / 2) * ((1 + x) / 2) ^ S b + ((1 - x) / 2) ^ S m * (INR (S b) * ((1 + x) / 2) ^ b * / 2))
         + INR (S m) / INR (S b) * (((1 - x) / 2) ^ m * ((1 + x) / 2) ^ S b)).
      * apply (derivable_pt_lim_plus (fun s => 2 / INR (S b) * (((1 - s) / 2) ^ S m * ((1 + s) / 2) ^ S b))).
        -- apply (derivable_pt_lim_scal (fun s => ((1 - s) / 2) ^ S m * ((1 + s) / 2) ^ S b)).
           apply (derivable_pt_lim_mult (fun s => ((1 - s) / 2) ^ S m) (fun s => ((1 + s) / 2) ^ S b)); [apply dpow_v|apply dpow_u].
        -- apply (derivable_pt_lim_scal F). apply HF.
      * field. apply not_0_INR. lia.
    + replace ((1 + 1) / 2) with 1 by field. replace ((1 + -1) / 2) with 0 by field. replace ((1 - 1) / 2) with 0 by field.
      rewrite !pow_i by lia. rewrite (Rmult_0_l (1 ^ S b)), (Rmult_0_r (((1 - -1) / 2) ^ S m)).
      replace (2 / INR (S b) * 0 + INR (S m) / INR (S b) * F 1 - (2 / INR (S b) * 0 + INR (S m) / INR (S b) * F (-1)))
        with (INR (S m) / INR (S b) * (F 1 - F (-1))) by ring.
      rewrite EF. replace (m + S b + 1)%nat with (S m + b + 1)%nat by lia. rewrite (fact_simpl m), (fact_simpl b), !mult_INR. field.
      split; apply not_0_INR; [apply fact_neq_0|lia].
Qed.

Definition mono_int (a b : nat) : R := 4 * INR (fact a) * INR (fact b) / INR (fact (a + b + 2)).

Lemma monomial_integral a b : triangle_integral (fun r s => ((1 + r) / 2) ^ a * ((1 + s) / 2) ^ b) (mono_int a b).
Proof.
  exists (fun s => 2 / INR (S a) * (((1 - s) / 2) ^ S a * ((1 + s) / 2) ^ b)). split.
  - intros s. exists (fun r => 2 / INR (S a) * ((1 + s) / 2) ^ b * ((1 + r) / 2) ^ S a). split.
    + intros r. replace (((1 + r) / 2) ^ a * ((1 + s) / 2) ^ b) with (2 / INR (S a) * ((1 + s) / 2) ^ b * (INR (S a) * ((1 + r) / 2) ^ a * / 2)).
      * apply (derivable_pt_lim_scal (fun r => ((1 + r) / 2) ^ S a)). apply dpow_u.
      * field. apply not_0_INR. lia.
    + replace ((1 + -1) / 2) with 0 by field. rewrite (pow_i (S a)) by lia. replace ((1 + - s) / 2) with ((1 - s) / 2) by field. ring.
  - replace (mono_int a b) with (2 / INR (S a) * (2 * INR (fact (S a)) * INR (fact b) / INR (fact (S a + b + 1)))).
    + apply (integral_scal (2 / INR (S a)) (fun s => ((1 - s) / 2) ^ S a * ((1 + s) / 2) ^ b)). apply beta_integral.
    + unfold mono_int. replace (S a + b + 1)%nat with (a + b + 2)%nat by lia. rewrite (fact_simpl a), mult_INR. field.
      split; apply not_0_INR; [apply fact_neq_0|lia].
Qed.

(* --- fixed-point approximation --- *)
Lemma Rabs_le_inv a b : Rabs a <= b -> - b <= a <= b.
Proof. intros H. pose proof (Rle_abs a). pose proof (Rle_abs (- a)) as H1. rewrite Rabs_Ropp in H1. lra. Qed.

Definition unit64 : R := 18446744073709551616.
Definition xd (z : Z) : R := IZR z / 1000000000000000.
Definition xu (z : Z) : R := (1 + xd z) / 2.
Definition approx (p : Z) (x k : R) : Prop := 0 <= IZR p /\ Rabs (IZR p - x * unit64) <= k.

Lemma Zdiv_approx (n d : Z) : (0 < d)%Z -> (0 <= n)%Z -> (0 <= n / d)%Z /\ IZR (n / d) * IZR d <= IZR n < (IZR (n / d) + 1) * IZR d.
Proof.
  intros Hd Hn. split; [apply Z.div_pos; lia|]. rewrite <- plus_IZR, <- !mult_IZR. pose proof (Z.div_mod n d ltac:(lia)). pose proof (Z.mod_pos_bound n d Hd).
  split; [apply IZR_le|apply IZR_lt]; lia.
Qed.

Lemma fixu_ok z : (- 1000000000000000 <= z)%Z -> approx (fixu z) (xu z) 1.
Proof.
  intros H. unfold fixu, ten15, SH. rewrite Z.shiftl_mul_pow2 by lia. change (2 ^ (64 - 1))%Z with 9223372036854775808%Z.
  destruct (Zdiv_approx ((1000000000000000 + z) * 9223372036854775808) 1000000000000000) as [A B]; [lia|lia|].
  split; [apply IZR_le in A; exact A|]. rewrite mult_IZR, plus_IZR in B. unfold xu, xd, unit64. apply Rabs_le. lra.
Qed.

Lemma fixw_ok z : (0 <= z)%Z -> approx (fixw z) (xd z) 1.
Proof.
  intros H. unfold fixw, ten15, SH. rewrite Z.shiftl_mul_pow2 by lia. change (2 ^ 64)%Z with 18446744073709551616%Z.
  destruct (Zdiv_approx (z * 18446744073709551616) 1000000000000000) as [A B]; [lia|lia|].
  split; [apply IZR_le in A; exact A|]. rewrite mult_IZR in B. unfold xd, unit64. apply Rabs_le. lra.
Qed.

Lemma mul_ok p x k u y : approx p x k -> approx u y 1 -> 0 <= x <= 2 -> 0 <= y <= 1 -> 0 <= k <= 1000 ->
  approx (Z.shiftr (p * u) SH) (x * y) (k + 4).
Proof.
  intros [Hp Ep] [Hu Eu] Hx Hy Hk. unfold SH. rewrite Z.shiftr_div_pow2 by lia. change (2 ^ 64)%Z with 18446744073709551616%Z.
  destruct (Zdiv_approx (p * u) 18446744073709551616) as [A B]; [lia| |].
  { apply le_IZR. rewrite mult_IZR. nra. }
  split; [apply IZR_le in A; exact A|]. rewrite mult_IZR in B. fold unit64 in B.
  assert (Hun : unit64 = 18446744073709551616) by reflexivity.
  set (P := IZR p) in *. set (U := IZR u) in *. set (q := IZR (p * u / 18446744073709551616)) in *.
  apply Rabs_le_inv in Ep. apply Rabs_le_inv in Eu.
  assert (C : Rabs (P * U - x * y * unit64 * unit64) <= (k + 3) * unit64).
  { replace (P * U - x * y * unit64 * unit64) with (P * (U - y * unit64) + y * unit64 * (P - x * unit64)) by ring.
    eapply Rle_trans; [apply Rabs_triang|]. rewrite !Rabs_mult. rewrite (Rabs_right P) by lra. rewrite (Rabs_right y) by lra. rewrite (Rabs_right unit64) by lra.
    assert (P * Rabs (U - y * unit64) <= P * 1) by (apply Rmult_le_compat_l; [lra|apply Rabs_le; lra]).
    assert (y * unit64 * Rabs (P - x * unit64) <= 1 * unit64 * k).
    { apply Rmult_le_compat; [nra|apply Rabs_pos|nra|apply Rabs_le; lra]. }
    assert (P <= 2 * unit64 + 1000) by nra. lra. }
  apply Rabs_le_inv in C. apply Rabs_le. split; apply (Rmult_le_reg_r unit64); try lra; nra.
Qed.

(* Sums over lists. *)
Definition lsum {X} (f : X -> R) (l : list X) : R := fold_right (fun x acc => f x + acc) 0 l.
Lemma lsum_cons {X} (f : X -> R) x l : lsum f (x :: l) = f x + lsum f l.
Proof. reflexivity. Qed.
Lemma lsum_ext {X} (f g : X -> R) l : (forall x, In x l -> f x = g x) -> lsum f l = lsum g l.
Proof. induction l as [|x l IH]; intros H; [reflexivity|]. rewrite !lsum_cons, H by (left; reflexivity). f_equal. apply IH. intros; apply H; right; assumption. Qed.
Lemma lsum_plus {X} (f g : X -> R) l : lsum (fun x => f x + g x) l = lsum f l + lsum g l.
Proof. induction l as [|x l IH]; [cbn; ring|]. rewrite !lsum_cons, IH. ring. Qed.
Lemma lsum_scal {X} c (f : X -> R) l : lsum (fun x => c * f x) l = c * lsum f l.
Proof. induction l as [|x l IH]; [cbn; ring|]. rewrite !lsum_cons, IH. ring. Qed.
Lemma lsum_map {X Y} (f : Y -> R) (g : X -> Y) l : lsum f (map g l) = lsum (fun x => f (g x)) l.
Proof. induction l as [|x l IH]; [reflexivity|]. cbn [map]. rewrite !lsum_cons, IH. reflexivity. Qed.
Lemma lsum_perm {X} (f : X -> R) l l' : Permutation l l' -> lsum f l = lsum f l'.
Proof. induction 1; try reflexivity; rewrite ?lsum_cons; try congruence. ring. Qed.
Lemma lsum_bound {X} (f g e : X -> R) l : (forall x, In x l -> Rabs (f x - g x) <= e x) -> Rabs (lsum f l - lsum g l) <= lsum e l.
Proof.
  induction l as [|x l IH]; intros H; [cbn; rewrite Rminus_0_r, Rabs_R0; lra|]. rewrite !lsum_cons.
  replace (f x + lsum f l - (g x + lsum g l)) with ((f x - g x) + (lsum f l - lsum g l)) by ring.
  eapply Rle_trans; [apply Rabs_triang|]. apply Rplus_le_compat; [apply H; left; reflexivity|apply IH; intros; apply H; right; assumption].
Qed.
Lemma lsum_const {X} c (l : list X) : lsum (fun _ => c) l = INR (List.length l) * c.
Proof. induction l as [|x l IH]; [cbn; ring|]. rewrite lsum_cons, IH. cbn [List.length]. rewrite S_INR. ring. Qed.
Lemma lsum_sumn {X} (f : X -> R) l d : lsum f l = sumn (List.length l) (fun i => f (nth i l d)).
Proof.
  unfold sumn. induction l as [|x l IH]; [reflexivity|]. rewrite lsum_cons, IH. cbn [List.length seq map fold_right].
  rewrite <- seq_shift, map_map. reflexivity.
Qed.

Notation row := (Z * Z * Z)%type.
Definition term (a b : nat) (x : row) : R := xd (rW x) * xu (rR x) ^ a * xu (rS x) ^ b.

Lemma row_ok_iff (x : row) : row_ok x = true -> (- 999999999000000 <= rR x /\ - 999999999000000 <= rS x /\ rR x + rS x <= - 1000000 /\ 1 <= rW x <= 2000000000000000)%Z.
Proof. unfold row_ok. rewrite !andb_true_iff, !Z.leb_le. tauto. Qed.

Lemma row_range (x : row) : row_ok x = true -> 0 <= xu (rR x) <= 1 /\ 0 <= xu (rS x) <= 1 /\ 0 < xd (rW x) <= 2.
Proof.
  intros H. apply row_ok_iff in H. destruct H as (H1 & H2 & H3 & H4 & H5). assert (H6 : (rR x <= 1000000000000000)%Z) by lia. assert (H7 : (rS x <= 1000000000000000)%Z) by lia.
  apply IZR_le in H1, H2, H4, H5, H6, H7. unfold xu, xd. lra.
Qed.

Lemma pow_range x n : 0 <= x <= 1 -> 0 <= x ^ n <= 1.
Proof. intros H. induction n as [|n IH]; cbn [pow]; [lra|]. nra. Qed.

Lemma term_range a b x : row_ok x = true -> 0 <= term a b x <= 2.
Proof.
  intros H. destruct (row_range x H) as (A & B & C). pose proof (pow_range _ a A). pose proof (pow_range _ b B). unfold term.
  assert (0 <= xd (rW x) * xu (rR x) ^ a <= 2) by nra. nra.
Qed.

(* The lists the loops run through. *)
Definition uses (t : list row) := map (fun x => fixu (rR x)) t.
Definition vses (t : list row) := map (fun x => fixu (rS x)) t.
Definition wses (t : list row) := map (fun x => fixw (rW x)) t.
Fixpoint iter_mul (n : nat) (ps us : list Z) : list Z := match n with O => ps | S n => iter_mul n (mulsh ps us) us end.
Lemma iter_mul_S n ps us : iter_mul (S n) ps us = mulsh (iter_mul n ps us) us.
Proof. revert ps. induction n as [|n IH]; intros ps; [reflexivity|]. change (iter_mul (S (S n)) ps us) with (iter_mul (S n) (mulsh ps us) us). rewrite IH. reflexivity. Qed.
Definition fixed (t : list row) (a b : nat) : list Z := iter_mul b (iter_mul a (wses t) (uses t)) (vses t).

Inductive tracks (f : row -> R) (k : R) : list row -> list Z -> Prop :=
| tr_nil : tracks f k [] []
| tr_cons x t p ps : approx p (f x) k -> tracks f k t ps -> tracks f k (x :: t) (p :: ps).

Lemma tracks_mul f (g : row -> Z) k t ps : tracks f k t ps -> 0 <= k <= 1000 ->
  (forall x, In x t -> 0 <= f x <= 2 /\ 0 <= xu (g x) <= 1 /\ (- 1000000000000000 <= g x)%Z) ->
  tracks (fun x => f x * xu (g x)) (k + 4) t (mulsh ps (map (fun x => fixu (g x)) t)).
Proof.
  intros T Hk. induction T as [|x t p ps Hp T IH]; intros H; cbn [map mulsh]; constructor.
  - destruct (H x (or_introl eq_refl)) as (A & B & C). apply mul_ok; auto. apply fixu_ok, C.
  - apply IH. intros; apply H; right; assumption.
Qed.

Lemma tracks_ext f g k k' t ps : (forall x, f x = g x) -> k = k' -> tracks f k t ps -> tracks g k' t ps.
Proof. intros E -> T. induction T; constructor; auto. rewrite <- E. assumption. Qed.

Lemma tracks_fixed t a b : forallb row_ok t = true -> (a + b <= 60)%nat -> tracks (term a b) (1 + 4 * INR (a + b)) t (fixed t a b).
Proof.
  intros Ok. rewrite forallb_forall in Ok.
  assert (Rng : forall g, (g = rR \/ g = rS) -> forall x, In x t -> 0 <= xu (g x) <= 1 /\ (- 1000000000000000 <= g x)%Z).
  { intros g Hg x Hx. pose proof (row_range x (Ok x Hx)) as (A & B & _). pose proof (row_ok_iff x (Ok x Hx)). destruct Hg as [-> | ->]; split; auto; lia. }
  induction b as [|b IH]; intros Hab.
  - unfold fixed. cbn [iter_mul]. induction a as [|a IH].
    + cbn [iter_mul]. unfold wses. eapply (tracks_ext (fun x => xd (rW x)) _ 1); [intros x; unfold term; cbn [pow]; ring|change (INR (0 + 0)) with 0; ring|].
      clear Rng. induction t as [|x t IHt]; cbn [map]; constructor.
      * apply fixw_ok. pose proof (row_ok_iff x (Ok x (or_introl eq_refl))). lia.
      * apply IHt. intros; apply Ok; right; assumption.
    + rewrite iter_mul_S. assert (Ha : (a + 0 <= 60)%nat) by lia.
      eapply tracks_ext; [| |apply (tracks_mul _ rR _ _ _ (IH Ha))].
      * intros x. unfold term. cbn [pow]. ring.
      * replace (S a + 0)%nat with (S (a + 0)) by lia. rewrite S_INR. ring.
      * pose proof (pos_INR (a + 0)). apply le_INR in Ha. rewrite (INR_IZR_INZ 60) in Ha. change (Z.of_nat 60) with 60%Z in Ha. split; lra.
      * intros x Hx. split; [apply term_range, Ok, Hx|]. apply Rng; auto.
  - unfold fixed in *. rewrite iter_mul_S. assert (Ha : (a + b <= 60)%nat) by lia.
    eapply tracks_ext; [| |apply (tracks_mul _ rS _ _ _ (IH Ha))].
    + intros x. unfold term. cbn [pow]. ring.
    + replace (a + S b)%nat with (S (a + b)) by lia. rewrite S_INR. ring.
    + pose proof (pos_INR (a + b)). apply le_INR in Ha. rewrite (INR_IZR_INZ 60) in Ha. change (Z.of_nat 60) with 60%Z in Ha. split; lra.
    + intros x Hx. split; [apply term_range, Ok, Hx|]. apply Rng; auto.
Qed.

Lemma tracks_sum f k t ps : tracks f k t ps -> Rabs (IZR (sumZ ps) - lsum f t * unit64) <= INR (List.length t) * k.
Proof.
  induction 1 as [|x t p ps [_ Hp] T IH]; [cbn; rewrite Rmult_0_l, Rminus_0_r, Rabs_R0; lra|].
  cbn [sumZ List.length]. rewrite plus_IZR, lsum_cons, S_INR.
  replace (IZR p + IZR (sumZ ps) - (f x + lsum f t) * unit64) with ((IZR p - f x * unit64) + (IZR (sumZ ps) - lsum f t * unit64)) by ring.
  eapply Rle_trans; [apply Rabs_triang|]. lra.
Qed.

(* The loops. *)
Lemma loop_b_ok k : forall a b qs vs, loop_b k a b qs vs = true -> forall j, (j <= k)%nat -> test a (b + j) (sumZ (iter_mul j qs vs)) = true.
Proof.
  induction k as [|k IH]; intros a b qs vs H j Hj; cbn [loop_b] in H; destruct (test a b (sumZ qs)) eqn:T; try discriminate.
  - assert (j = 0)%nat by lia. subst j. rewrite Nat.add_0_r. exact T.
  - destruct j as [|j]; [rewrite Nat.add_0_r; exact T|]. replace (b + S j)%nat with (S b + j)%nat by lia. cbn [iter_mul]. apply IH; [exact H|lia].
Qed.

Lemma loop_a_ok lim k : forall a ps us vs, loop_a lim k a ps us vs = true ->
  forall i, (i <= k)%nat -> loop_b (lim (a + i)%nat (k - i)%nat) (a + i) 0 (iter_mul i ps us) vs = true.
Proof.
  induction k as [|k IH]; intros a ps us vs H i Hi; cbn [loop_a] in H; destruct (loop_b _ a 0 ps vs) eqn:T in H; try discriminate.
  - assert (i = 0)%nat by lia. subst i. rewrite Nat.add_0_r. exact T.
  - destruct i as [|i]; [rewrite Nat.add_0_r, Nat.sub_0_r; exact T|]. replace (a + S i)%nat with (S a + i)%nat by lia. cbn [iter_mul Nat.sub]. apply IH; [exact H|lia].
Qed.

Lemma factZ_ok n : IZR (factZ n) = INR (fact n).
Proof.
  induction n as [|n IH]; [reflexivity|]. cbn [factZ]. rewrite mult_IZR, IH, <- INR_IZR_INZ. rewrite fact_simpl, mult_INR. reflexivity.
Qed.

Lemma test_ok a b s : test a b s = true -> Rabs (IZR s - mono_int a b * unit64) <= 12 / 1000000000000000 * unit64.
Proof.
  unfold test, SH, ten15. intros H. apply Z.leb_le in H. apply IZR_le in H. rewrite !mult_IZR in H. change (2 ^ 64)%Z with 18446744073709551616%Z in H.
  rewrite abs_IZR, minus_IZR, !mult_IZR, !factZ_ok in H. fold unit64 in H.
  assert (F : 0 < INR (fact (a + b + 2))) by (apply INR_fact_lt_0).
  unfold mono_int. set (f := INR (fact (a + b + 2))) in *.
  replace (IZR s - 4 * INR (fact a) * INR (fact b) / f * unit64) with ((IZR s * f - 4 * INR (fact a) * INR (fact b) * unit64) * / f) by (field; lra).
  rewrite Rabs_mult, (Rabs_right (/ f)) by (apply Rle_ge, Rlt_le, Rinv_0_lt_compat; lra).
  apply (Rmult_le_reg_r f); [lra|]. rewrite Rmult_assoc, Rinv_l, Rmult_1_r by lra. lra.
Qed.

(* Symmetric tables. *)
Lemma row_eqb_iff (x y : row) : row_eqb x y = true <-> x = y.
Proof.
  destruct x as [[a b] c], y as [[a' b'] c']. unfold row_eqb, rR, rS, rW. cbn [fst snd]. rewrite !andb_true_iff, !Z.eqb_eq.
  split; [intros [[-> ->] ->]; reflexivity|intros [= -> -> ->]; auto].
Qed.
Lemma swap_swap (x : row) : swap (swap x) = x.
Proof. destruct x as [[a b] c]. reflexivity. Qed.
Definition row_dec (x y : row) : {x = y} + {x <> y}.
Proof. destruct (row_eqb x y) eqn:E; [left; apply row_eqb_iff, E|right; intros H; apply row_eqb_iff in H; congruence]. Defined.
Lemma count_occ_count x t : count x t = count_occ row_dec t x.
Proof.
  unfold count. induction t as [|y t IH]; [reflexivity|]. cbn [filter count_occ]. destruct (row_dec y x) as [->|N].
  - destruct (row_eqb x x) eqn:E; [cbn [List.length]; congruence|]. exfalso. assert (row_eqb x x = true) by (apply row_eqb_iff; reflexivity). congruence.
  - destruct (row_eqb x y) eqn:E; [exfalso; apply row_eqb_iff in E; congruence|exact IH].
Qed.
Lemma count_swap x t : count_occ row_dec (map swap t) x = count_occ row_dec t (swap x).
Proof.
  induction t as [|y t IH]; [reflexivity|]. cbn [map count_occ]. destruct (row_dec (swap y) x) as [E|N]; destruct (row_dec y (swap x)) as [E'|N']; try congruence.
  - exfalso. apply N'. rewrite <- E, swap_swap. reflexivity.
  - exfalso. apply N. rewrite E', swap_swap. reflexivity.
Qed.
Lemma symmetric_perm t : symmetric t = true -> Permutation t (map swap t).
Proof.
  intros H. unfold symmetric in H. rewrite forallb_forall in H. apply (Permutation_count_occ row_dec). intros x. rewrite count_swap.
  destruct (in_dec row_dec x t) as [I|I].
  - specialize (H x I). apply Nat.eqb_eq in H. rewrite !count_occ_count in H. exact H.
  - destruct (in_dec row_dec (swap x) t) as [I'|I'].
    + specialize (H _ I'). apply Nat.eqb_eq in H. rewrite !count_occ_count, swap_swap in H. auto.
    + rewrite (proj1 (count_occ_not_In row_dec t x) I), (proj1 (count_occ_not_In row_dec t (swap x)) I'). reflexivity.
Qed.
Lemma term_swap a b x : term a b (swap x) = term b a x.
Proof. unfold term, swap, rR, rS, rW. cbn [fst snd]. ring. Qed.

Lemma moments_at t a b : forallb row_ok t = true -> (List.length t <= 225)%nat -> (a + b <= 28)%nat -> test a b (sumZ (fixed t a b)) = true ->
  Rabs (lsum (term a b) t - mono_int a b) <= 14 / 1000000000000000.
Proof.
  intros Ok Ln Hab T. pose proof (tracks_sum _ _ _ _ (tracks_fixed t a b Ok ltac:(lia))) as A. apply test_ok in T.
  assert (B : INR (List.length t) * (1 + 4 * INR (a + b)) <= 25425).
  { apply le_INR in Ln, Hab. rewrite (INR_IZR_INZ 225) in Ln. rewrite (INR_IZR_INZ 28) in Hab. change (Z.of_nat 225) with 225%Z in Ln. change (Z.of_nat 28) with 28%Z in Hab.
    pose proof (pos_INR (List.length t)). pose proof (pos_INR (a + b)). nra. }
  apply Rabs_le_inv in A, T. unfold unit64 in *. apply Rabs_le. lra.
Qed.

Theorem entry_moments n e sym : entry_ok n e sym = true -> (n <= 28)%nat -> forall a b, (a + b <= n)%nat ->
  Rabs (lsum (term a b) (triples (map cell_num (snd e))) - mono_int a b) <= 14 / 1000000000000000.
Proof.
  unfold entry_ok. set (t := triples (map cell_num (snd e))). rewrite !andb_true_iff. intros [[Sh Ok] C] Hn a b Hab.
  assert (Ln : (List.length t <= 225)%nat).
  { unfold shape_ok in Sh. rewrite !andb_true_iff in Sh. destruct Sh as [[_ S1] S2]. apply Nat.eqb_eq in S1. apply Nat.leb_le in S2.
    assert (forall l : list Z, (3 * List.length (triples l) <= List.length l)%nat).
    { fix IH 1. intros [|z1 [|z2 [|z3 l]]]; cbn [triples List.length]; try lia. specialize (IH l). lia. }
    specialize (H (map cell_num (snd e))). rewrite map_length in H. fold t in H. lia. }
  destruct sym.
  - rewrite andb_true_iff in C. destruct C as [Sy C].
    assert (G : forall a b, (a + b <= n)%nat -> (b <= a)%nat -> Rabs (lsum (term a b) t - mono_int a b) <= 14 / 1000000000000000).
    { clear a b Hab. intros a b Hab Hba. apply moments_at; auto; [lia|]. unfold check in C. pose proof (loop_a_ok _ _ _ _ _ _ C a ltac:(lia)) as L1.
      cbn [Nat.add] in L1. pose proof (loop_b_ok _ _ _ _ _ L1 b) as L2. cbn [Nat.add] in L2. apply L2. apply Nat.min_glb; lia. }
    destruct (Nat.le_ge_cases b a) as [H|H]; [apply G; auto|].
    rewrite (lsum_perm _ _ _ (symmetric_perm t Sy)), lsum_map. rewrite (lsum_ext _ (term b a)) by (intros; apply term_swap).
    replace (mono_int a b) with (mono_int b a) by (unfold mono_int; rewrite (Nat.add_comm b a); field; apply not_0_INR, fact_neq_0). apply G; lia.
  - apply moments_at; auto; [lia|]. unfold check in C. pose proof (loop_a_ok _ _ _ _ _ _ C a ltac:(lia)) as L1.
    cbn [Nat.add] in L1. pose proof (loop_b_ok _ _ _ _ _ L1 b) as L2. cbn [Nat.add] in L2. apply L2. lia.
Qed.

(* --- the arrays --- *)
Lemma column_from {A} (r : rule A) c d : (c < 3)%nat -> List.length (entries r) = (3 * nrows r)%nat ->
  column c r = Ok (map (fun i => nth (3 * i + c) (entries r) d) (seq 0 (nrows r))).
Proof.
  intros Hc Ln. unfold column.
  match goal with |- ?f 0%nat _ = _ =>
    assert (H : forall n i, (i + n <= nrows r)%nat -> f i n = Ok (map (fun i => nth (3 * i + c) (entries r) d) (seq i n))); [|apply H; lia] end.
  induction n as [|n IH]; intros i G; [reflexivity|]. cbn [seq map].
  destruct (nth_error (entries r) (3 * i + c)) as [v|] eqn:E.
  - rewrite IH by lia. cbn [bind]. rewrite (nth_error_nth _ _ d E). reflexivity.
  - apply nth_error_None in E. lia.
Qed.

Lemma triples_nth (l : list Z) n : List.length l = (3 * n)%nat -> List.length (triples l) = n /\
  forall i, (i < n)%nat -> nth i (triples l) (0, 0, 0)%Z = (nth (3 * i) l 0%Z, nth (3 * i + 1) l 0%Z, nth (3 * i + 2) l 0%Z).
Proof.
  revert l. induction n as [|n IH]; intros l H.
  - destruct l; [|discriminate]. split; [reflexivity|]. intros; lia.
  - destruct l as [|a [|b [|c l]]]; cbn [List.length] in H; try lia. destruct (IH l ltac:(lia)) as [A B]. cbn [triples List.length]. split; [congruence|].
    intros [|i] Hi; [reflexivity|]. cbn [nth]. rewrite (B i) by lia.
    replace (3 * S i)%nat with (S (S (S (3 * i)))) by lia. reflexivity.
Qed.

Section Arrays.
Context {A : Type} (lit : Z -> A) (sub : A -> A -> A) (junk : nat -> A).
Definition mk_rule (e : nat * list cell) : rule A :=
  mkrule (fst e) (map (cell_value lit sub) (snd e) ++ map junk (seq (List.length (snd e)) (3 * fst e - List.length (snd e)))).
Lemma build_rules_ok ts : forallb (fun e => (List.length (snd e) <=? 3 * fst e)%nat) ts = true -> build_rules lit sub junk ts = Ok (map mk_rule ts).
Proof.
  induction ts as [|[n cs] ts IH]; intros H; [reflexivity|]. cbn [forallb fst snd] in H. apply andb_true_iff in H. destruct H as [H1 H2]. apply Nat.leb_le in H1.
  cbn [build_rules]. unfold list_init. rewrite map_length. destruct (Nat.ltb_spec (3 * n) (List.length cs)); [lia|]. cbn [bind]. rewrite IH by exact H2. reflexivity.
Qed.
Lemma the_rule_ok n e : (1 <= n)%nat -> nth_error tables (n - 1) = Some e -> the_rule lit sub junk (Z.of_nat n) = Ok (mk_rule e).
Proof.
  intros Hn E. unfold the_rule. rewrite build_rules_ok by (vm_compute; reflexivity). cbn [bind]. unfold get. destruct (Z.ltb_spec (Z.of_nat n - 1) 0); [lia|].
  replace (Z.to_nat (Z.of_nat n - 1)) with (n - 1)%nat by lia. rewrite nth_error_map, E. reflexivity.
Qed.
Lemma the_rule_out n : (n < 1 \/ 28 < n)%Z -> the_rule lit sub junk n = UB.
Proof.
  intros H. unfold the_rule. rewrite build_rules_ok by (vm_compute; reflexivity). cbn [bind]. unfold get. destruct (Z.ltb_spec (n - 1) 0); [reflexivity|].
  rewrite nth_error_map. replace (nth_error tables (Z.to_nat (n - 1))) with (@None (nat * list cell)); [reflexivity|]. symmetry. apply nth_error_None.
  change (List.length tables) with 28%nat. lia.
Qed.
Lemma plain_values cs : plain cs = true -> map (cell_value lit sub) cs = map lit (map cell_num cs).
Proof. intros P. unfold plain in P. rewrite forallb_forall in P. rewrite map_map. apply map_ext_in. intros c Hc. specialize (P c Hc). destruct c; [reflexivity|discriminate]. Qed.

Lemma columns_ok e : shape_ok e = true -> let t := triples (map cell_num (snd e)) in
  List.length t = fst e /\
  column 0 (mk_rule e) = Ok (map (fun x => lit (rR x)) t) /\ column 1 (mk_rule e) = Ok (map (fun x => lit (rS x)) t) /\ column 2 (mk_rule e) = Ok (map (fun x => lit (rW x)) t).
Proof.
  intros H t. unfold shape_ok in H. rewrite !andb_true_iff in H. destruct H as [[P L] _]. apply Nat.eqb_eq in L.
  destruct (triples_nth (map cell_num (snd e)) (fst e)) as [T1 T2]; [rewrite map_length; exact L|]. fold t in T1, T2.
  assert (Le : List.length (entries (mk_rule e)) = (3 * nrows (mk_rule e))%nat).
  { unfold mk_rule; cbn [entries nrows]. rewrite app_length, !map_length, seq_length. lia. }
  assert (En : entries (mk_rule e) = map lit (map cell_num (snd e))).
  { unfold mk_rule; cbn [entries]. rewrite L, Nat.sub_diag. cbn [seq map]. rewrite app_nil_r. apply plain_values, P. }
  assert (G : forall c (sel : Z * Z * Z -> Z), (c < 3)%nat -> (forall i, (i < fst e)%nat -> sel (nth i t (0, 0, 0)%Z) = nth (3 * i + c) (map cell_num (snd e)) 0%Z) ->
    column c (mk_rule e) = Ok (map (fun x => lit (sel x)) t)).
  { intros c sel Hc Hs. rewrite (column_from _ c (lit 0%Z) Hc Le). f_equal. rewrite En. change (nrows (mk_rule e)) with (fst e).
    apply (nth_ext _ _ (lit 0%Z) (lit 0%Z)); [rewrite !map_length, seq_length; auto|]. intros i Hi. rewrite map_length, seq_length in Hi.
    rewrite (nth_indep _ _ ((fun i => nth (3 * i + c) (map lit (map cell_num (snd e))) (lit 0%Z)) 0%nat)) by (rewrite map_length, seq_length; exact Hi).
    rewrite (map_nth (fun i => nth (3 * i + c) (map lit (map cell_num (snd e))) (lit 0%Z))), seq_nth by exact Hi. cbn [Nat.add].
    rewrite (map_nth lit). rewrite (nth_indep _ _ ((fun x => lit (sel x)) (0, 0, 0)%Z)) by (rewrite map_length; lia). rewrite (map_nth (fun x => lit (sel x))).
    rewrite Hs by exact Hi. reflexivity. }
  split; [exact T1|]. split; [apply (G 0%nat rR)|split; [apply (G 1%nat rS)|apply (G 2%nat rW)]]; try lia; intros i Hi; rewrite (T2 i Hi); unfold rR, rS, rW; cbn [fst snd]; f_equal; lia.
Qed.
End Arrays.

(* --- literals in place of decimal numbers --- *)
Definition lu (lit : Z -> R) (z : Z) : R := (1 + lit z) / 2.
Definition lterm (lit : Z -> R) (a b : nat) (x : row) : R := lit (rW x) * lu lit (rR x) ^ a * lu lit (rS x) ^ b.

Lemma pow_near x y e n : 0 <= x <= 1 -> 0 <= y <= 1 -> Rabs (x - y) <= e -> Rabs (x ^ n - y ^ n) <= INR n * e.
Proof.
  intros Hx Hy H. induction n as [|n IH]; [cbn; rewrite Rminus_diag_eq, Rabs_R0 by reflexivity; lra|].
  cbn [pow]. rewrite S_INR. replace (x * x ^ n - y * y ^ n) with (x * (x ^ n - y ^ n) + (x - y) * y ^ n) by ring.
  eapply Rle_trans; [apply Rabs_triang|]. rewrite !Rabs_mult. pose proof (pow_range y n Hy). rewrite (Rabs_right x), (Rabs_right (y ^ n)) by lra.
  pose proof (Rabs_pos (x ^ n - y ^ n)). pose proof (Rabs_pos (x - y)). nra.
Qed.

Lemma lit_near lit z : literal_values lit -> (Z.abs z <= 2000000000000000)%Z -> Rabs (lit z - xd z) <= Rabs (xd z) * (/ 9007199254740992).
Proof. intros H Hz. specialize (H z Hz). replace (2 ^ 53) with 9007199254740992 in H by (cbn; ring). exact H. Qed.

Lemma row_lits lit (x : row) : literal_values lit -> row_ok x = true ->
  inside (lit (rR x)) (lit (rS x)) /\ 0 < lit (rW x) /\ 0 <= lu lit (rR x) <= 1 /\ 0 <= lu lit (rS x) <= 1 /\
  Rabs (lu lit (rR x) - xu (rR x)) <= / 18014398509481984 /\ Rabs (lu lit (rS x) - xu (rS x)) <= / 18014398509481984 /\
  Rabs (lit (rW x) - xd (rW x)) <= xd (rW x) * / 9007199254740992.
Proof.
  intros Hl Ok. pose proof (row_ok_iff x Ok) as (H1 & H2 & H3 & H4 & H5).
  assert (A1 : Rabs (xd (rR x)) <= 1). { assert (rR x <= 1000000000000000)%Z by lia. apply IZR_le in H, H1. unfold xd. apply Rabs_le. lra. }
  assert (A2 : Rabs (xd (rS x)) <= 1). { assert (rS x <= 1000000000000000)%Z by lia. apply IZR_le in H, H2. unfold xd. apply Rabs_le. lra. }
  assert (B1 := lit_near lit (rR x) Hl ltac:(lia)). assert (B2 := lit_near lit (rS x) Hl ltac:(lia)). assert (B3 := lit_near lit (rW x) Hl ltac:(lia)).
  assert (W : 0 < xd (rW x)). { apply IZR_le in H4. unfold xd. lra. }
  rewrite (Rabs_right (xd (rW x))) in B3 by lra.
  assert (C1 : Rabs (lit (rR x) - xd (rR x)) <= / 9007199254740992) by lra.
  assert (C2 : Rabs (lit (rS x) - xd (rS x)) <= / 9007199254740992) by lra.
  clear B1 B2. apply IZR_le in H1, H2, H3. rewrite plus_IZR in H3.
  pose proof (Rabs_le_inv _ _ C1). pose proof (Rabs_le_inv _ _ C2). pose proof (Rabs_le_inv _ _ B3). clear A1 A2.
  unfold inside, lu, xu in *. assert (E1 : xd (rR x) = IZR (rR x) / 1000000000000000) by reflexivity. assert (E2 : xd (rS x) = IZR (rS x) / 1000000000000000) by reflexivity.
  split; [repeat split; lra|]. split; [lra|]. split; [lra|]. split; [lra|]. split; [apply Rabs_le; lra|]. split; [apply Rabs_le; lra|]. exact B3.
Qed.

Lemma lterm_near lit a b (x : row) : literal_values lit -> row_ok x = true ->
  Rabs (lterm lit a b x - term a b x) <= (2 + INR (a + b)) * / 18014398509481984 * xd (rW x).
Proof.
  intros Hl Ok. destruct (row_lits lit x Hl Ok) as (_ & Wp & U & V & DU & DV & DW). destruct (row_range x Ok) as (U' & V' & W').
  pose proof (pow_near _ _ _ a U U' DU) as PU. pose proof (pow_near _ _ _ b V V' DV) as PV.
  pose proof (pow_range _ a U) as RU. pose proof (pow_range _ b V) as RV. pose proof (pow_range _ a U') as RU'. pose proof (pow_range _ b V') as RV'.
  unfold lterm, term. rewrite plus_INR. set (w := xd (rW x)) in *. set (wl := lit (rW x)) in *.
  set (p := lu lit (rR x) ^ a) in *. set (q := lu lit (rS x) ^ b) in *. set (p' := xu (rR x) ^ a) in *. set (q' := xu (rS x) ^ b) in *.
  replace (wl * p * q - w * p' * q') with ((wl - w) * (p * q) + w * ((p - p') * q + p' * (q - q'))) by ring.
  set (e := / 18014398509481984) in *. replace (/ 9007199254740992) with (2 * e) in DW by (unfold e; lra).
  assert (A1 : Rabs ((wl - w) * (p * q)) <= w * (2 * e)).
  { rewrite Rabs_mult. assert (0 <= p * q <= 1) by nra. rewrite (Rabs_right (p * q)) by lra. pose proof (Rabs_pos (wl - w)). nra. }
  assert (A2 : Rabs ((p - p') * q + p' * (q - q')) <= INR a * e + INR b * e).
  { eapply Rle_trans; [apply Rabs_triang|]. rewrite !Rabs_mult. rewrite (Rabs_right q), (Rabs_right p') by lra. pose proof (Rabs_pos (p - p')). pose proof (Rabs_pos (q - q')). nra. }
  eapply Rle_trans; [apply Rabs_triang|]. rewrite (Rabs_mult w), (Rabs_right w) by lra. nra.
Qed.

Lemma coefsum_cons i j c p : coefsum ((i, j, c) :: p) = Rabs c + coefsum p.
Proof. reflexivity. Qed.

Theorem entry_exact lit n e sym : literal_values lit -> entry_ok n e sym = true -> (n <= 28)%nat -> forall p, degree2 n p ->
  let t := triples (map cell_num (snd e)) in
  exists v, triangle_integral (bary p) v /\ Rabs (lsum (fun x => lit (rW x) * bary p (lit (rR x)) (lit (rS x))) t - v) <= 2 / 100000000000000 * coefsum p.
Proof.
  intros Hl E Hn p Hp t. pose proof (entry_moments n e sym E Hn) as M. fold t in M.
  assert (Ok : forall x, In x t -> row_ok x = true).
  { unfold entry_ok in E. rewrite !andb_true_iff in E. destruct E as [[_ Ok] _]. rewrite forallb_forall in Ok. exact Ok. }
  assert (Wt : lsum (fun x => xd (rW x)) t <= 2 + 14 / 1000000000000000).
  { specialize (M 0%nat 0%nat ltac:(lia)). apply Rabs_le_inv in M. rewrite (lsum_ext _ (term 0 0)) by (intros; unfold term; cbn; ring).
    assert (E0 : mono_int 0 0 = 2) by (unfold mono_int; cbn; field). rewrite E0 in M. lra. }
  assert (W0 : 0 <= lsum (fun x => xd (rW x)) t).
  { clear - Ok. induction t as [|x t IH]; [cbn; lra|]. rewrite lsum_cons. pose proof (row_range x (Ok x (or_introl eq_refl))). pose proof (IH (fun y h => Ok y (or_intror h))). lra. }
  assert (L : forall a b, (a + b <= n)%nat -> Rabs (lsum (lterm lit a b) t - mono_int a b) <= 2 / 100000000000000).
  { intros a b Hab. specialize (M a b Hab).
    assert (D := lsum_bound (lterm lit a b) (term a b) (fun x => (2 + INR (a + b)) * / 18014398509481984 * xd (rW x)) t (fun x Hx => lterm_near lit a b x Hl (Ok x Hx))).
    rewrite lsum_scal in D. assert (Hb : INR (a + b) <= 28). { rewrite INR_IZR_INZ. apply IZR_le. lia. } pose proof (pos_INR (a + b)).
    assert ((2 + INR (a + b)) * / 18014398509481984 * lsum (fun x => xd (rW x)) t <= 30 * / 18014398509481984 * 3).
    { apply Rmult_le_compat; lra. }
    apply Rabs_le_inv in D, M. apply Rabs_le. lra. }
  induction p as [|[[i j] c] p IH].
  - exists 0. split; [eapply tint_ext; [|apply tint_zero]; reflexivity|]. rewrite (lsum_ext _ (fun _ => 0)) by (intros; unfold bary; cbn [eval2]; ring).
    rewrite lsum_const. cbn. rewrite Rmult_0_r, Rminus_0_r, Rabs_R0. lra.
  - inversion Hp as [|? ? Hd Hp']; subst. cbn [fst snd] in Hd. destruct (IH Hp') as (v & Iv & Bv). exists (c * mono_int i j + v). split.
    + eapply tint_ext; [|apply tint_plus; [apply tint_scal, (monomial_integral i j)|exact Iv]]. intros r s. unfold bary. cbn [eval2]. cbv beta. ring.
    + rewrite (lsum_ext _ (fun x => c * lterm lit i j x + lit (rW x) * bary p (lit (rR x)) (lit (rS x)))) by (intros; unfold bary, lterm, lu; cbn [eval2]; ring).
      rewrite lsum_plus, lsum_scal, coefsum_cons. specialize (L i j Hd).
      match goal with |- Rabs (c * ?S + ?T - _) <= _ => replace (c * S + T - (c * mono_int i j + v)) with (c * (S - mono_int i j) + (T - v)) by ring end.
      eapply Rle_trans; [apply Rabs_triang|]. rewrite Rabs_mult. pose proof (Rabs_pos c). nra.
Qed.
