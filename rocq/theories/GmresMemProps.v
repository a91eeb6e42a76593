(* GmresMemProps.v - what GMRES makes of storage nobody has written to (C113). *)
From Coq Require Import ZArith List Lia Bool Arith.
From Verif Require Import Base Loops Num GmresModel GmresSpec GmresMemSpec GmresProofs GmresMemProofs GmresProps.
From Coq Require Import Reals Lra SpecFloat.
Import ListNotations.
Local Open Scope nat_scope.

(* ---- exact arithmetic ---- *)
Section Exact.
Variable G : R -> R.
Variable isfin : R -> bool.
Variable Env : Type.
Variables mvec precon : Env -> list R -> list R -> Env * bool * list R.
Variable dtrsv : nat -> nat -> list R -> list R -> list R.
Variable dgemv : nat -> nat -> nat -> list R -> list R -> list R.
Variable drotg : R -> R -> R * R * R.
Local Open Scope R_scope.

(* whatever the work arrays held before, the call returns the same answer, solution and state of the callbacks *)
Theorem C113_exact p b x e (junk junk' : nat -> R) (junkm junkm' : nat -> nat -> R) :
  ignores_output mvec -> ignores_output precon -> reads_upper dtrsv -> reads_block dgemv -> drotg_spec drotg ->
  gmres (exact G) isfin Env mvec precon dtrsv dgemv drotg junk junkm p b x e = gmres (exact G) isfin Env mvec precon dtrsv dgemv drotg junk' junkm' p b x e.
Proof.
  intros Hm Hp Ht Hg Hr. destruct (checkParams (exact G) p) eqn:CP; [|unfold gmres; rewrite CP; reflexivity].
  apply (gmres_agree _ isfin Env mvec precon dtrsv dgemv drotg Hm Hp Ht Hg). intros a b0 r c s s0 Eb Er Nr. right. revert Eb Nr. pose proof (Hr a b0) as Q. rewrite Er in Q. destruct Q as (_ & Q1 & Q2).
  cbn [exact feq fle fmul fabs flt applyGivens snd fsub]. change (fofn (exact G) 0) with 0. unfold Reqb, Rleb. destruct (Req_EM_T b0 0) as [->|]; [intros _|discriminate]. destruct (Req_EM_T r 0) as [|Nr]; [discriminate|intros _].
  assert (Na : a <> 0) by (intros ->; apply Nr; rewrite <- Q1; ring). assert (Es : s = 0) by (apply Rmult_eq_reg_r with a; [lra|exact Na]). subst s.
  replace (c * 0 - 0 * s0) with 0 by ring. rewrite Rabs_R0. unfold checkParams in CP. apply negb_true_iff in CP. repeat (apply orb_false_iff in CP as (CP & ?)).
  cbn [exact flt fle] in *. change (fofn (exact G) 0) with 0 in *. unfold Rltb in *. unfold fmax. cbn [exact flt]. unfold Rltb.
  destruct (Rlt_dec (absTol p) 0); [discriminate|]. destruct (Rlt_dec _ (absTol p)); destruct (Rle_dec 0 _) as [|N]; try reflexivity; exfalso; apply N; lra.
Qed.
End Exact.

(* ---- IEEE doubles ---- *)
Section Double.
Variable pow : spec_float -> spec_float -> spec_float.
Variable gam : spec_float -> spec_float.
Variable Env : Type.
Variables mvec precon : Env -> list spec_float -> list spec_float -> Env * bool * list spec_float.
Variable dtrsv : nat -> nat -> list spec_float -> list spec_float -> list spec_float.
Variable dgemv : nat -> nat -> nat -> list spec_float -> list spec_float -> list spec_float.
Variable drotg : spec_float -> spec_float -> spec_float * spec_float * spec_float.
Local Notation A := (dbl_arith pow gam).

Definition nonneg (x : spec_float) : Prop := match x with S754_zero _ | S754_infinity false | S754_finite false _ _ => True | _ => False end.
Lemma nonneg_le x : nonneg x -> SFleb (S754_zero false) x = true.
Proof. destruct x as [s|[]| |[] m e]; cbn; tauto. Qed.
Lemma not_below x : SFltb x (S754_zero false) = false -> x <> S754_nan -> nonneg x.
Proof. destruct x as [s|[]| |[] m e]; cbn; try tauto; discriminate. Qed.
Lemma round_pos m e l : binary_round_aux 53 1024 false m e l <> S754_nan -> nonneg (binary_round_aux 53 1024 false m e l).
Proof.
  unfold binary_round_aux. destruct (shr_fexp 53 1024 m e l) as (r1 & e1). destruct (shr_fexp 53 1024 _ e1 loc_Exact) as (r2 & e2). destruct (shr_m r2); [cbn; auto| |tauto]. destruct (e2 <=? 1024 - 53)%Z; cbn; auto.
Qed.
Lemma sqrt_pos x : SFsqrt 53 1024 x <> S754_nan -> nonneg (SFsqrt 53 1024 x).
Proof. destruct x as [s|[]| |[] m e]; unfold SFsqrt; try (cbn; tauto). destruct (SFsqrt_core_binary 53 1024 (Z.pos m) e) as ((mz & ez) & lz). apply round_pos. Qed.
Lemma mul_pos x y : nonneg x -> nonneg y -> SFmul 53 1024 x y <> S754_nan -> nonneg (SFmul 53 1024 x y).
Proof.
  destruct x as [s|[]| |[] m e], y as [s'|[]| |[] m' e']; unfold SFmul; try (cbn; tauto). intros _ _. cbn [xorb]. apply round_pos.
Qed.
(* parameters that pass the check give a tolerance that is not negative, or is not a number *)
Lemma tolerance_pos p b : checkParams A p = true -> tolerance A (relTol p) (absTol p) b <> S754_nan -> nonneg (tolerance A (relTol p) (absTol p) b).
Proof.
  intros CP. unfold checkParams in CP. apply negb_true_iff in CP. repeat (apply orb_false_iff in CP as (CP & ?)). unfold tolerance. cbv zeta. cbn [dbl_arith flt fmul feq] in *. change (fofn A 0) with (S754_zero false) in *.
  set (bn := scale_norm A b). destruct (SFltb (SFmul 53 1024 (relTol p) bn) (absTol p)) eqn:E.
  - intro N. apply not_below; assumption.
  - intro N. apply mul_pos; [| |exact N].
    + apply not_below; [assumption|]. intro Q. rewrite Q in N. apply N. destruct bn; reflexivity.
    + assert (Nb : bn <> S754_nan) by (intro Q; rewrite Q in N; apply N; destruct (relTol p); reflexivity). subst bn. revert Nb. unfold scale_norm. destruct (feq A _ _); [intros _; exact I|]. apply sqrt_pos.
Qed.
Definition nil_or_nan (x : spec_float) : Prop := x = S754_nan \/ exists s, x = S754_zero s.
Lemma mul_nil x y : nil_or_nan x \/ nil_or_nan y -> nil_or_nan (SFmul 53 1024 x y).
Proof. unfold nil_or_nan. intros [[->|(s & ->)]|[->|(s & ->)]]; [left; reflexivity|destruct y; cbn; eauto|left; destruct x; reflexivity|destruct x; cbn; eauto]. Qed.
Lemma sub_nil x y : nil_or_nan x -> nil_or_nan y -> nil_or_nan (SFsub 53 1024 x y).
Proof. unfold nil_or_nan. intros [->|(s & ->)] [->|(s' & ->)]; cbn; try tauto. right. destruct (Bool.eqb s (negb s')); eauto. Qed.

(* on doubles the same holds of every call whose tolerance is a number *)
Theorem C113_double p b x e (junk junk' : nat -> spec_float) (junkm junkm' : nat -> nat -> spec_float) :
  ignores_output mvec -> ignores_output precon -> reads_upper dtrsv -> reads_block dgemv -> idle_rotation drotg ->
  tolerance A (relTol p) (absTol p) b <> S754_nan ->
  gmres A dfinite Env mvec precon dtrsv dgemv drotg junk junkm p b x e = gmres A dfinite Env mvec precon dtrsv dgemv drotg junk' junkm' p b x e.
Proof.
  intros Hm Hp Ht Hg Hr HT. destruct (checkParams A p) eqn:CP; [|unfold gmres; rewrite CP; reflexivity].
  apply (gmres_agree _ dfinite Env mvec precon dtrsv dgemv drotg Hm Hp Ht Hg). intros a b0 r c s s0 Eb Er Nr. cbn [dbl_arith feq fle fabs applyGivens snd fsub fmul] in *. change (fofn A 0) with (S754_zero false) in *.
  assert (exists q, b0 = S754_zero q) as (q & ->). { destruct b0 as [q|[]| |[] m k]; try discriminate. eauto. }
  assert (Es : nil_or_nan s). { apply (Hr a q r c s Er). intros q1 ->. discriminate. }
  destruct (sub_nil (SFmul 53 1024 c (S754_zero false)) (SFmul 53 1024 s s0)) as [E|(q1 & E)].
  - apply mul_nil. right. right. eauto.
  - apply mul_nil. left. exact Es.
  - left. rewrite E. reflexivity.
  - right. rewrite E. cbn [SFabs]. pose proof (tolerance_pos p b CP HT) as P. unfold tolerance in P. rewrite !norm2_rhs. unfold fmax. cbn [dbl_arith flt fmul] in *. exact (nonneg_le _ P).
Qed.
End Double.

(* ---- the hypotheses are those of the reference routines ---- *)
Section Ref.
Context {T : Type} (A : arith T).
Lemma nth_of_nth_error (l l' : list T) i d : nth_error l i = nth_error l' i -> nth i l d = nth i l' d.
Proof. rewrite <- !(nth_default_eq), !nth_default_eq. intro H. rewrite <- !nth_default_eq. unfold nth_default. rewrite H. reflexivity. Qed.
Lemma fold_same {S} (f g : S -> nat -> S) l : (forall s j, In j l -> f s j = g s j) -> forall s, fold_left f l s = fold_left g l s.
Proof. induction l as [|j l IH]; intros H s; cbn [fold_left]; [reflexivity|]. rewrite H by (left; reflexivity). apply IH. intros; apply H; right; assumption. Qed.
Lemma ref_dgemv_reads : reads_block (ref_dgemv A).
Proof.
  intros m n lda a a' x _ _ _ H. unfold ref_dgemv. apply map_ext_in. intros i Hi. apply in_seq in Hi. apply fold_same. intros s j Hj. apply in_seq in Hj.
  rewrite (nth_of_nth_error a a' (i + j * lda)); [reflexivity|]. rewrite Nat.add_comm. apply H; lia.
Qed.
Lemma ref_dtrsv_reads : reads_upper (ref_dtrsv A).
Proof.
  intros n lda a a' x _ _ _ H. unfold ref_dtrsv. apply fold_same. intros y k Hk. apply in_seq in Hk. cbv zeta.
  rewrite (nth_of_nth_error a a' (n - S k + (n - S k) * lda)) by (rewrite Nat.add_comm; apply H; lia). do 3 f_equal.
  apply fold_same. intros s j Hj. apply in_seq in Hj. rewrite (nth_of_nth_error a a' (n - S k + (S (n - S k) + j) * lda)) by (rewrite Nat.add_comm; apply H; lia). reflexivity.
Qed.
End Ref.
Lemma ref_drotg_idle pow gam : idle_rotation (ref_drotg (dbl_arith pow gam)).
Proof.
  intros a s0 r c s. unfold ref_drotg. cbn [dbl_arith feq fsqrt fadd fmul fdiv]. change (fofn (dbl_arith pow gam) 0) with (S754_zero false). destruct (_ && _).
  - intros E. injection E as <- <- <-. eauto.
  - set (q := SFsqrt _ _ _). clearbody q. intro E. injection E as <- _ <-. intro N. destruct q as [s1|s1| |s1 m k]; cbn; eauto.
Qed.

(* two steps of a run on doubles that ends in success, with callbacks and routines as the theorem asks for them *)
Example C113_witness : ignores_output (dapply2 2 1 0 3) /\ ignores_output (dapply2 1 0 0 1) /\ reads_upper (ref_dtrsv DA) /\ reads_block (ref_dgemv DA) /\ idle_rotation (ref_drotg DA) /\
  (forall G, drotg_spec (ref_drotg (exact G))) /\ tolerance DA (relTol (dpar 2 5)) (absTol (dpar 2 5)) [d 1; d 2] <> S754_nan /\
  flag_of (drun_id (dapply2 2 1 0 3) (dpar 2 5) [d 1; d 2] [d 0; d 0]) = Some (F_success, 1, 0, G_none, 6, 6).
Proof.
  split; [intros e v o o' _; reflexivity|]. split; [intros e v o o' _; reflexivity|]. split; [apply ref_dtrsv_reads|]. split; [apply ref_dgemv_reads|]. split; [apply ref_drotg_idle|].
  split; [apply ref_drotg_ok|]. split; [vm_compute; discriminate|vm_compute; reflexivity].
Qed.

(* Finding: with a relative tolerance of zero and a right-hand side whose norm overflows, the tolerance is not a number although every
   input is finite, and the answer depends on what the work arrays held. *)
Theorem C113_overflow_refuted : exists p b x q1 q2, checkParams DA p = true /\ Forall (fun v => dfinite v = true) (b ++ x ++ [relTol p; absTol p; divTol p; stgTol p]) /\ drun_junk q1 p b x <> drun_junk q2 p b x.
Proof.
  exists (GParams true 2 5 (d 0) (d 1) (d 1000) (d 0)), [d (2 ^ 520); d 0], [d (2 ^ 520 - 2 ^ 467); d 0], (d 7), S754_nan. split; [reflexivity|]. split; [repeat constructor|]. intro H. vm_compute in H. discriminate H.
Qed.
Print Assumptions C113_exact. Print Assumptions C113_double. Print Assumptions C113_overflow_refuted. Print Assumptions C113_witness.
