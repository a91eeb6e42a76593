(* GmresProps.v - the theorems about the GMRES solver (C27-C30, C63). *)
From Coq Require Import ZArith List Lia Bool Arith.
From Verif Require Import Base Loops Num JacobiSpec JacobiQuadProofs DenseSpec GmresModel GmresSpec GmresProofs GmresMath GmresExactProofs Nodes1DExactProofs.
From Coq Require Import Reals Lra SpecFloat.
Import ListNotations.
Local Open Scope nat_scope.

(* ---- reference BLAS, used to show that the hypotheses below can be met ---- *)
Section Ref.
Context {T : Type} (A : arith T).
Definition ref_drotg (a b : T) : T * T * T :=
  if feq A a (fofn A 0) && feq A b (fofn A 0) then (fofn A 0, fofn A 1, fofn A 0)
  else let r := fsqrt A (fadd A (fmul A a a) (fmul A b b)) in (r, fdiv A a r, fdiv A b r).
Definition ref_dgemv (m n lda : nat) (a x : list T) : list T :=
  map (fun i => fold_left (fun s j => fadd A s (fmul A (nth (i + j * lda) a (fofn A 0)) (nth j x (fofn A 0)))) (seq 0 n) (fofn A 0)) (seq 0 m).
Definition ref_dtrsv (n lda : nat) (a x : list T) : list T :=
  fold_left (fun y k => let i := n - S k in
    upd y i (fdiv A (fsub A (nth i y (fofn A 0))
       (fold_left (fun s j => fadd A s (fmul A (nth (i + (S i + j) * lda) a (fofn A 0)) (nth (S i + j) y (fofn A 0)))) (seq 0 k) (fofn A 0)))
       (nth (i + i * lda) a (fofn A 0)))) (seq 0 n) x.
End Ref.
Lemma ref_dgemv_length {T} (A : arith T) m n lda a x : length (ref_dgemv A m n lda a x) = m.
Proof. unfold ref_dgemv. now rewrite map_length, seq_length. Qed.
Lemma ref_dtrsv_length {T} (A : arith T) n lda a x : length (ref_dtrsv A n lda a x) = length x.
Proof.
  unfold ref_dtrsv. generalize n at 1. intro n0. generalize (seq 0 n) as l. intro l. revert x.
  induction l as [|k l IH]; intro x; cbn [fold_left]; [reflexivity|]. rewrite IH. apply upd_length.
Qed.
Section RefOk.
Variable G : R -> R.
Local Open Scope R_scope.
Lemma fold_sumn n (f : nat -> R) : fold_left (fun s j => s + f j) (seq 0 n) 0 = sumn n f.
Proof. induction n as [|n IH]; [reflexivity|]. rewrite seq_S, fold_left_app, IH, sumn_S. reflexivity. Qed.
Lemma ref_drotg_ok : drotg_spec (ref_drotg (exact G)).
Proof.
  intros a b. unfold ref_drotg. cbn [exact feq]. unfold Reqb. change (fofn (exact G) 0) with 0. change (fofn (exact G) 1) with 1.
  assert (Gen : a <> 0 \/ b <> 0 -> let r := sqrt (a * a + b * b) in a / r * (a / r) + b / r * (b / r) = 1 /\ a / r * a + b / r * b = r /\ a / r * b - b / r * a = 0).
  { intros H r. assert (P : 0 < a * a + b * b) by (pose proof (Rle_0_sqr a); pose proof (Rle_0_sqr b); unfold Rsqr in *; destruct H as [H|H]; [pose proof (Rsqr_pos_lt a H)|pose proof (Rsqr_pos_lt b H)]; unfold Rsqr in *; lra).
    assert (Rp : 0 < r) by now apply sqrt_lt_R0. assert (R2 : r * r = a * a + b * b) by (apply sqrt_sqrt; lra).
    split; [|split].
    - transitivity ((a * a + b * b) / (r * r)); [field; lra|]. rewrite <- R2. field. lra.
    - transitivity ((a * a + b * b) / r); [field; lra|]. rewrite <- R2. field. lra.
    - field. lra. }
  destruct (Req_EM_T a 0) as [->|Na]; destruct (Req_EM_T b 0) as [->|Nb]; cbn [andb exact fadd fmul fdiv fsqrt].
  - repeat split; ring.
  - apply Gen. auto.
  - apply Gen. auto.
  - apply Gen. auto.
Qed.
Lemma ref_dgemv_ok : dgemv_spec (ref_dgemv (exact G)).
Proof.
  intros m n lda a x _ _ _ i Hi. unfold ref_dgemv.
  match goal with |- nth i (map ?f _) 0 = _ => rewrite nth_indep with (d' := f 0%nat) by (rewrite map_length, seq_length; lia); rewrite (map_nth f), seq_nth by lia end.
  cbn [Nat.add exact fadd fmul]. change (fofn (exact G) 0) with 0. apply (fold_sumn n (fun j => nth (i + j * lda) a 0 * nth j x 0)).
Qed.
Lemma ref_dtrsv_ok : dtrsv_spec (ref_dtrsv (exact G)).
Proof.
  intros n lda a x Hl La Lx Hd y.
  set (step := fun y k => upd y (n - S k) ((nth (n - S k) y 0 - sumn k (fun j => cm lda a (n - S k) (S (n - S k) + j) * nth (S (n - S k) + j) y 0)) / cm lda a (n - S k) (n - S k))).
  assert (Ey : y = fold_left step (seq 0 n) x).
  { unfold y, ref_dtrsv, step, cm. change (fofn (exact G) 0) with 0. cbn [exact fadd fsub fmul fdiv]. generalize (seq 0 n) as l. intro l. generalize x.
    induction l as [|k l IH]; intro x1; cbn [fold_left]; [reflexivity|]. rewrite IH. f_equal. f_equal. f_equal. f_equal.
    apply (fold_sumn k (fun j => nth (n - S k + (S (n - S k) + j) * lda) a 0 * nth (S (n - S k) + j) x1 0)). }
  assert (Inv : forall m, (m <= n)%nat -> let z := fold_left step (seq 0 m) x in length z = length x /\
    (forall i, (i < n - m \/ n <= i)%nat -> nth i z 0 = nth i x 0) /\
    (forall i, (n - m <= i < n)%nat -> cm lda a i i * nth i z 0 + sumn (n - S i) (fun j => cm lda a i (S i + j) * nth (S i + j) z 0) = nth i x 0)).
  { induction m as [|m IH]; intros Hm z.
    - split; [reflexivity|]. split; [reflexivity|]. intros; lia.
    - destruct (IH ltac:(lia)) as (L1 & U1 & S1). unfold z. rewrite seq_S, fold_left_app. cbn [fold_left Nat.add].
      set (z1 := fold_left step (seq 0 m) x) in *. unfold step. set (i0 := (n - S m)%nat).
      assert (K : forall i v, nth i (upd z1 i0 v) 0 = if (i =? i0)%nat then v else nth i z1 0) by (intros; apply nth_upd; unfold i0; lia).
      split; [now rewrite upd_length|]. split.
      + intros i Hi. rewrite K. rewrite (proj2 (Nat.eqb_neq i i0)) by (unfold i0; lia). apply U1. lia.
      + intros i Hi. rewrite K. destruct (Nat.eq_dec i i0) as [->|Ni].
        * rewrite Nat.eqb_refl. replace (n - S i0)%nat with m by (unfold i0; lia).
          rewrite (sumn_ext m (fun j => cm lda a i0 (S i0 + j) * nth (S i0 + j) (upd z1 i0 _) 0) (fun j => cm lda a i0 (S i0 + j) * nth (S i0 + j) z1 0)).
          -- rewrite (U1 i0) by (unfold i0; lia). field. apply Hd. unfold i0. lia.
          -- intros j Hj. rewrite K, (proj2 (Nat.eqb_neq (S i0 + j) i0)) by lia. reflexivity.
        * rewrite (proj2 (Nat.eqb_neq i i0) Ni). rewrite <- (S1 i) by (unfold i0 in Ni; lia). f_equal. apply sumn_ext. intros j Hj. rewrite K. match goal with |- context [Nat.eqb ?q i0] => replace (Nat.eqb q i0) with false by (symmetry; apply Nat.eqb_neq; unfold i0 in *; lia) end. reflexivity. }
  destruct (Inv n (le_n n)) as (L1 & U1 & S1). rewrite <- Ey in L1, U1, S1. split.
  - intros i Hi. rewrite <- (S1 i ltac:(lia)).
    assert (Sp : forall m k f, sumn (m + k) f = sumn m f + sumn k (fun q => f (m + q)%nat)).
    { intros m k f. induction k as [|k IH]; [rewrite Nat.add_0_r, sumn_0; ring|]. rewrite Nat.add_succ_r, !sumn_S, IH. ring. }
    replace n with (S i + (n - S i))%nat at 1 by lia. rewrite Sp, sumn_S. rewrite (sumn_zero i); [|intros k Hk; rewrite (proj2 (Nat.leb_gt i k)) by lia; ring].
    rewrite Nat.leb_refl, Rplus_0_l. f_equal. apply sumn_ext. intros j Hj. rewrite (proj2 (Nat.leb_le i (S i + j))) by lia. reflexivity.
  - intros i Hi. apply U1. lia.
Qed.
End RefOk.

(* ---- any arithmetic, any callbacks ---- *)
Section Any.
Context {T : Type} (A : arith T).
Variable isfin : T -> bool.
Variable Env : Type.
Variable mvec precon : Env -> list T -> list T -> Env * bool * list T.
Variable dtrsv : nat -> nat -> list T -> list T -> list T.
Variable dgemv : nat -> nat -> nat -> list T -> list T -> list T.
Variable drotg : T -> T -> T * T * T.
Variable junk : nat -> T.
Variable junkm : nat -> nat -> T.
Local Notation run := (gmres A isfin (Env * list (event T)) (traced Operator mvec) (traced Preconditioner precon) dtrsv dgemv drotg junk junkm).
Local Notation plain := (gmres A isfin Env mvec precon dtrsv dgemv drotg junk junkm).

(* Recording the calls does not change the result. *)
Theorem C28_recording_is_transparent p b x e g x' e' tr :
  run p b x (e, []) = Ok (g, x', (e', tr)) -> plain p b x e = Ok (g, x', e').
Proof.
  intro H. pose proof (gmres_erase A isfin Env mvec precon dtrsv dgemv drotg junk junkm p b x (e, [])) as K. cbn [fst] in K. rewrite K, H. reflexivity.
Qed.

(* Bad parameters are refused before anything is called. *)
Theorem C28_bad_parameters p b x e : (kspaceSz p < 1)%Z \/ (maxits p < 1)%Z \/ flt A (relTol p) (fofn A 0) = true \/ flt A (absTol p) (fofn A 0) = true \/
  fle A (divTol p) (fofn A 0) = true \/ flt A (stgTol p) (fofn A 0) = true -> plain p b x e = Throw.
Proof.
  intro H. unfold gmres. replace (checkParams A p) with false; [reflexivity|]. unfold checkParams. symmetry. apply negb_false_iff.
  destruct H as [H|[H|[H|[H|[H|H]]]]]; try rewrite H; rewrite ?orb_true_r; try reflexivity.
  - replace (kspaceSz p <? 1)%Z with true by lia. reflexivity.
  - replace (maxits p <? 1)%Z with true by lia. rewrite orb_true_r. reflexivity.
Qed.

Hypothesis Htrsv : forall n lda a x, length (dtrsv n lda a x) = length x.
Hypothesis Hgemv : forall m n lda a x, length (dgemv m n lda a x) = m.

(* solve always returns (no access outside an array, no endless loop) within its budget. *)
Theorem C28_bounded p b x e : checkParams A p = true -> length b = length x -> keeps_length mvec (length x) -> keeps_length precon (length x) ->
  exists g x' e' tr, run p b x (e, []) = Ok (g, x', (e', tr)) /\ length x' = length x /\
    (Z.of_nat (g_outer g) < maxits p)%Z /\
    (g_inner g = 0 \/ (Z.of_nat (g_inner g) < kspaceSz p)%Z /\ g_inner g < length x) /\
    (Z.of_nat (length tr) <= maxits p * (2 * Z.min (Z.of_nat (length x)) (kspaceSz p) + 2) + 2)%Z.
Proof.
  intros H1 H2 H3 H4. destruct (gmres_ok A isfin Env mvec precon dtrsv dgemv drotg junk junkm Htrsv Hgemv p b x e H1 H2 H3 H4) as (g & x' & e' & tr & E & L & O & I & C & _).
  exists g, x', e', tr. split; [exact E|]. split; [exact L|]. split; [exact O|].
  assert (Pos : (1 <= kspaceSz p)%Z /\ (1 <= maxits p)%Z).
  { unfold checkParams in H1. apply negb_true_iff in H1. repeat (apply orb_false_iff in H1; destruct H1 as (H1 & ?)). lia. }
  split; [lia|]. zify. nia.
Qed.

(* The flag, the message, the solution and the recorded calls explain each other. *)
Theorem C29_flags p b x e : checkParams A p = true -> length b = length x -> keeps_length mvec (length x) -> keeps_length precon (length x) ->
  exists g x' e' tr, run p b x (e, []) = Ok (g, x', (e', tr)) /\ run_explained A isfin drotg p b x g x' tr.
Proof.
  intros H1 H2 H3 H4. destruct (gmres_ok A isfin Env mvec precon dtrsv dgemv drotg junk junkm Htrsv Hgemv p b x e H1 H2 H3 H4) as (g & x' & e' & tr & E & _ & _ & _ & _ & S).
  exists g, x', e', tr. auto.
Qed.

(* Nothing is called after a callback has failed, and the failure is reported. *)
Theorem C29_failure_is_final p b x e g x' e' tr : checkParams A p = true -> length b = length x -> keeps_length mvec (length x) -> keeps_length precon (length x) ->
  run p b x (e, []) = Ok (g, x', (e', tr)) -> forall ev, In ev tr -> ev_ok ev = false ->
  exists before, tr = ev :: before /\ all_ok before /\
    (ev_who ev = Preconditioner -> g_flag g = F_precon_fail) /\
    (ev_who ev = Operator -> g_flag g = F_matvec_fail \/ (g_flag g = F_success /\ g_msg g = G_test_skipped /\ ev_in ev = x')).
Proof.
  intros H1 H2 H3 H4 E ev Hin Hf. destruct (C29_flags p b x e H1 H2 H3 H4) as (g2 & x2 & e2 & tr2 & E2 & Sm). rewrite E in E2. injection E2 as <- <- <- <-.
  assert (No : all_ok tr -> False) by (intro Q; unfold all_ok in Q; rewrite Forall_forall in Q; specialize (Q ev Hin); congruence).
  assert (Fst : forall ev0 tl, tr = ev0 :: tl -> all_ok tl -> ev0 = ev).
  { intros ev0 tl -> Q. destruct Hin as [|Hin]; [assumption|]. exfalso. unfold all_ok in Q. rewrite Forall_forall in Q. specialize (Q ev Hin). congruence. }
  unfold run_explained in Sm. destruct (g_flag g) eqn:Fg.
  - contradiction.
  - destruct Sm as (rho & est & _ & _ & [(_ & _ & Q & _) | [(M & _ & _ & out & tl & Q & Q2) | [(_ & _ & _ & Q) | (_ & Q & _)]]]).
    + destruct (No Q).
    + rewrite <- (Fst _ _ Q Q2). exists tl. split; [exact Q|]. split; [exact Q2|]. split; [discriminate|]. intros _. right. auto.
    + destruct (No Q).
    + rewrite Q in Hin. destruct Hin.
  - destruct Sm as (rho & r0 & _ & _ & _ & Q & _). destruct (No Q).
  - destruct Sm as (_ & Q & _). destruct (No Q).
  - destruct Sm as (w & pv & u & tl & _ & Q & _). destruct (No Q).
  - destruct Sm as (Q & _). destruct (No Q).
  - destruct Sm as (rho & _ & _ & Q & _). destruct (No Q).
  - destruct Sm as (Q & _). destruct (No Q).
  - destruct Sm as ((v & out & tl & Q & Q2) & _). rewrite <- (Fst _ _ Q Q2). exists tl. split; [exact Q|]. split; [exact Q2|]. split; [reflexivity|discriminate].
  - destruct Sm as ((v & out & tl & Q & Q2) & _). rewrite <- (Fst _ _ Q Q2). exists tl. split; [exact Q|]. split; [exact Q2|]. split; [discriminate|left; reflexivity].
Qed.

(* Until a cycle has been completed the solution vector is the initial guess. *)
Theorem C29_x_unchanged p b x e g x' e' tr : checkParams A p = true -> length b = length x -> keeps_length mvec (length x) -> keeps_length precon (length x) ->
  run p b x (e, []) = Ok (g, x', (e', tr)) -> g_outer g = 0 -> g_msg g <> G_update_matvec ->
  (g_flag g = F_precon_fail \/ g_flag g = F_matvec_fail \/ g_flag g = F_breakdown) -> x' = x.
Proof.
  intros H1 H2 H3 H4 E H0 Hm Hf. destruct (C29_flags p b x e H1 H2 H3 H4) as (g2 & x2 & e2 & tr2 & E2 & Sm). rewrite E in E2. injection E2 as <- <- <- <-.
  unfold run_explained in Sm. destruct Hf as [Hf|[Hf|Hf]]; rewrite Hf in Sm.
  - destruct Sm as (_ & _ & Q). auto.
  - destruct Sm as (_ & [(_ & Q & _) | [(_ & Q) | Q]]); [exact Q|auto|contradiction].
  - destruct Sm as (_ & _ & _ & Q). auto.
Qed.

(* Success: the reported relative residual times ||b|| is a number rho; the estimate that ended the iteration is
   below the tolerance; and if the true residual was checked, rho is the norm of b minus the last product with the
   returned x, and rho is not a finite number above the tolerance. *)
Theorem C27_success p b x e g x' e' tr : checkParams A p = true -> length b = length x -> keeps_length mvec (length x) -> keeps_length precon (length x) ->
  run p b x (e, []) = Ok (g, x', (e', tr)) -> g_flag g = F_success ->
  let tol := tolerance A (relTol p) (absTol p) b in
  exists rho est, g_relres g = fmul A (fdiv A (fofn A 1) (scale_norm A b)) rho /\ fle A est tol = true /\
    ((exists w before, tr = Ev Operator x' true w :: before /\ rho = residual_norm A b w /\ (rho = est \/ isfin rho && flt A tol rho = false)) \/
     (tr = [] /\ x' = x /\ all_zero A x /\ rho = rhs_norm A b /\ rho = est) \/
     (rho = est /\ (testTrueRnrm p = false \/ exists out before, tr = Ev Operator x' false out :: before))).
Proof.
  intros H1 H2 H3 H4 E Hf tol. destruct (C29_flags p b x e H1 H2 H3 H4) as (g2 & x2 & e2 & tr2 & E2 & Sm). rewrite E in E2. injection E2 as <- <- <- <-.
  unfold run_explained in Sm. rewrite Hf in Sm. destruct Sm as (rho & est & R1 & R2 & Q). exists rho, est. split; [exact R1|]. split; [exact R2|].
  destruct Q as [(_ & (w & tl & Q1 & Q2) & _ & Q3) | [(_ & _ & Q1 & out & tl & Q2 & _) | [(_ & Q1 & Q2 & _) | (_ & Q1 & Q2 & Q3 & Q4 & Q5)]]].
  - left. exists w, tl. auto.
  - right; right. split; [exact Q1|right; eauto].
  - right; right. auto.
  - right; left. auto.
Qed.
End Any.

(* On doubles: a checked success with a finite residual has that residual at most the tolerance. *)
Definition dfinite (x : spec_float) : bool := match x with S754_zero _ | S754_finite _ _ _ => true | _ => false end.
Lemma SFcompare_swap x y : SFcompare y x = match SFcompare x y with Some c => Some (CompOpp c) | None => None end.
Proof.
  assert (PC : forall m n, Pos.compare_cont Eq m n = CompOpp (Pos.compare_cont Eq n m)) by (intros; symmetry; apply (Pos.compare_cont_antisym n m Eq)).
  destruct x as [sx|sx| |sx mx ex], y as [sy|sy| |sy my ey]; cbn; try reflexivity; try (destruct sx, sy; reflexivity); try (destruct sx; reflexivity); try (destruct sy; reflexivity).
  destruct sx, sy; try reflexivity; rewrite (Z.compare_antisym ex ey), (PC my mx); destruct (Z.compare ex ey); cbn; auto; destruct (Pos.compare_cont Eq mx my); reflexivity.
Qed.
Lemma not_above x t e : SFleb e t = true -> dfinite x && SFltb t x = false -> dfinite x = true -> SFleb x t = true.
Proof.
  intros He Hb Hx. rewrite Hx in Hb. cbn [andb] in Hb. unfold SFltb, SFleb in *. rewrite (SFcompare_swap x t) in Hb.
  destruct (SFcompare x t) as [[]|] eqn:C; cbn in *; auto; try discriminate.
  exfalso. destruct x, t; cbn in *; try discriminate; destruct e; cbn in He; discriminate.
Qed.
Theorem C27_success_double pow gam Env mvec precon dtrsv dgemv drotg junk junkm p b x (e : Env) g x' e' tr : let A := dbl_arith pow gam in
  (forall n lda a y, length (dtrsv n lda a y) = length y) -> (forall m n lda a y, length (dgemv m n lda a y) = m) ->
  checkParams A p = true -> length b = length x -> keeps_length mvec (length x) -> keeps_length precon (length x) ->
  gmres A dfinite (Env * list (event spec_float)) (traced Operator mvec) (traced Preconditioner precon) dtrsv dgemv drotg junk junkm p b x (e, []) = Ok (g, x', (e', tr)) ->
  g_flag g = F_success -> testTrueRnrm p = true -> all_ok tr ->
  exists rho, g_relres g = fmul A (fdiv A (fofn A 1) (scale_norm A b)) rho /\
    (dfinite rho = true -> SFleb rho (tolerance A (relTol p) (absTol p) b) = true) /\
    ((exists w before, tr = Ev Operator x' true w :: before /\ rho = residual_norm A b w) \/ (tr = [] /\ x' = x /\ all_zero A x /\ rho = rhs_norm A b)).
Proof.
  intros A T1 T2 H1 H2 H3 H4 E Hf Ht Ha. destruct (C27_success A dfinite Env mvec precon dtrsv dgemv drotg junk junkm T1 T2 p b x e g x' e' tr H1 H2 H3 H4 E Hf) as (rho & est & R1 & R2 & Q).
  exists rho. split; [exact R1|]. destruct Q as [(w & tl & Q1 & Q2 & Q3) | [(Q1 & Q2 & Q3 & Q4 & Q5) | (Q1 & [Q2 | (out & tl & Q2)])]].
  - split; [|left; eauto]. intro Fr. destruct Q3 as [->|Q3]; [exact R2|]. exact (not_above rho _ est R2 Q3 Fr).
  - split; [|right; auto]. intros _. rewrite Q5. exact R2.
  - congruence.
  - rewrite Q2 in Ha. inversion Ha. discriminate.
Qed.

(* ---- exact arithmetic ---- *)
Section Exact.
Variable G : R -> R.
Variable Env : Type.
Variable mvec precon : Env -> list R -> list R -> Env * bool * list R.
Variable dtrsv : nat -> nat -> list R -> list R -> list R.
Variable dgemv : nat -> nat -> nat -> list R -> list R -> list R.
Variable drotg : R -> R -> R * R * R.
Hypothesis Htrsv : forall n lda a x, length (dtrsv n lda a x) = length x.
Hypothesis Hgemv : forall m n lda a x, length (dgemv m n lda a x) = m.
Hypothesis Htrsv2 : dtrsv_spec dtrsv.
Hypothesis Hgemv2 : dgemv_spec dgemv.
Hypothesis Hrot : drotg_spec drotg.
Variable junk : nat -> R.
Variable junkm : nat -> nat -> R.
Local Notation E := (exact G).
Local Notation solve := (gmres E (fun _ => true) Env mvec precon dtrsv dgemv drotg junk junkm).
Local Open Scope R_scope.

(* The reported residual is the true one; it never exceeds the initial one; success means exactly that it is within
   the tolerance; and the solution is reached by complete cycles followed by g_inner+1 steps, each cycle minimising the
   residual over its Krylov space. Breakdown happens only if A M is singular. No other flag is possible. *)
Theorem C30_exact p b x e (Am Mm : nat -> nat -> R) : let N := length x in
  checkParams E p = true -> length b = N -> linear_callback N Am mvec -> linear_callback N Mm precon ->
  let ks := Nat.min N (Z.to_nat (kspaceSz p)) in let tol := tolerance E (relTol p) (absTol p) b in
  let vec (l : list R) := fun a => nth a l 0 in let rnorm (l : list R) := resnorm N Am (vec b) (vec l) in
  exists g x' e', solve p b x e = Ok (g, x', e') /\ length x' = N /\
    match g_flag g with
    | F_success | F_diverged | F_stagnation | F_maxits =>
        g_relres g = 1 / scale_norm E b * rnorm x' /\ rnorm x' <= rnorm x /\
        (g_flag g = F_success <-> rnorm x' <= tol) /\
        (g_flag g = F_diverged -> divTol p * rnorm x <= rnorm x') /\
        (x' = x /\ rnorm x <= tol \/
         exists xm, restarts N Am Mm (vec b) ks (g_outer g) (vec x) xm /\ optimal N Am Mm (vec b) (g_inner g + 1) xm (vec x'))
    | F_breakdown => AM_singular N Am Mm
    | _ => False
    end.
Proof.
  intros N H1 H2 H3 H4 ks tol vec rnorm.
  destruct (gmres_exact G (fun _ => true) (fun _ => eq_refl) Env mvec precon dtrsv dgemv drotg Htrsv Hgemv Htrsv2 Hgemv2 Hrot junk junkm Am Mm p b x e H1 H2 H3 H4) as (g & x' & e' & E1 & E2 & E3 & _).
  exists g, x', e'. auto.
Qed.

(* A cycle started on a non-zero residual r: the columns it builds are orthonormal, the first one is r/||r||, and A M
   maps each column into the span of the columns up to the next one (the Arnoldi relation). *)
Theorem C30_basis (Am Mm : nat -> nat -> R) N ks convTol divTol' V0 H0 s0 giv pv w (r : nat -> R) inner e f iu inn wk' rn' e' :
  linear_callback N Am mvec -> linear_callback N Mm precon -> 0 <= convTol ->
  mrows V0 = N -> mcols V0 = (ks + 1)%nat -> mrows H0 = (ks + 1)%nat -> mcols H0 = ks -> length s0 = (ks + 1)%nat -> length giv = ks -> length pv = N -> length w = N ->
  let beta := sqrt (dot N r r) in beta <> 0 -> (forall a, (a < N)%nat -> ment V0 a 0 = r a / beta) ->
  (forall l, nth l s0 0 = if (l =? 0)%nat then beta else 0) ->
  inner_loop E (fun _ => true) Env mvec precon drotg convTol divTol' ks 0 inner (Work V0 H0 s0 giv pv w) beta e = Ok (IUpdate Env f iu inn wk' rn' e') ->
  let v j := fun a => ment (k_V wk') a j in
  (iu <= ks)%nat /\ ortho N iu v /\ veq N r (fun a => beta * v 0%nat a) /\
  (forall j, (S j < iu)%nat -> span N (S (S j)) v (ap N Am (ap N Mm (v j)))).
Proof.
  intros HA HM Hc S1 S2 S3 S4 S5 S6 S7 S8 beta Hb HV Hs Hl v.
  assert (B0 : 0 <= beta) by apply sqrt_pos. assert (BB : beta * beta = dot N r r) by (apply sqrt_sqrt; apply dot_nonneg).
  assert (V00 : forall a, (a < N)%nat -> r a = beta * ment V0 a 0) by (intros a Ha; rewrite HV by exact Ha; field; exact Hb).
  assert (I0 : inv N ks Am Mm r beta 0 (Work V0 H0 s0 giv pv w)).
  { split; [repeat split; assumption|]. cbn [k_V k_H k_s]. split; [|split; [intros; lia|split; [intros; lia|split]]].
    - split; [|split; [exact Hb|split; [exact V00|intros; lia]]].
      intros j l Hj Hl'. assert (j = 0)%nat by lia. assert (l = 0)%nat by lia. subst j l. rewrite Nat.eqb_refl.
      apply (Rmult_eq_reg_l (beta * beta)); [|intro Q; destruct (Rmult_integral _ _ Q); contradiction]. rewrite Rmult_1_r. rewrite BB at 2.
      unfold dot. rewrite <- sumn_scal. apply sumn_ext. intros a Ha. unfold vcol. rewrite (V00 a Ha). ring.
    - intros a Ha. rewrite (V00 a Ha). unfold vn, lc. cbn [k_s]. rewrite sumn_0, Hs. cbn [Nat.eqb Tv]. unfold vcol. ring.
    - intros l Hl'. unfold vn. cbn [k_s]. rewrite Hs, (proj2 (Nat.eqb_neq l 0)) by lia. reflexivity. }
  assert (R0 : beta = Rabs (nth 0 s0 0)) by (rewrite Hs; cbn [Nat.eqb]; rewrite Rabs_pos_eq; auto).
  destruct (exact_inner G (fun _ => true) (fun _ => eq_refl) N ks Env mvec precon Am Mm HA HM drotg Hrot convTol divTol' Hc r beta ks 0 inner _ beta e I0 eq_refl R0) as (res & E & Q).
  rewrite Hl in E. injection E as <-. destruct Q as ((_ & (O & _ & Hr & Hh) & _) & _ & _ & Hiu & _). split; [exact Hiu|]. split; [exact O|]. split; [exact Hr|].
  intros j Hj. destruct (Hh j Hj) as (h & _ & Hv). exists h. intros a Ha. rewrite (ap_ap N Am Mm (v j) a Ha). exact (Hv a Ha).
Qed.

(* With room for a full basis, a nonsingular operator and a divergence factor above one, the solver succeeds. *)
Theorem C63_full_space_converges p b x e (Am Mm : nat -> nat -> R) : let N := length x in
  checkParams E p = true -> length b = N -> linear_callback N Am mvec -> linear_callback N Mm precon ->
  (Z.of_nat N <= kspaceSz p)%Z -> 1 < divTol p ->
  (forall u, veq N (ap N Am (ap N Mm u)) (fun _ => 0) -> veq N u (fun _ => 0)) ->
  exists g x' e', solve p b x e = Ok (g, x', e') /\ g_flag g = F_success /\
    resnorm N Am (fun a => nth a b 0) (fun a => nth a x' 0) <= tolerance E (relTol p) (absTol p) b.
Proof.
  intros N H1 H2 H3 H4 H5 H6 H7.
  destruct (gmres_exact G (fun _ => true) (fun _ => eq_refl) Env mvec precon dtrsv dgemv drotg Htrsv Hgemv Htrsv2 Hgemv2 Hrot junk junkm Am Mm p b x e H1 H2 H3 H4) as (g & x' & e' & E1 & E2 & E3 & E4).
  exists g, x', e'. split; [exact E1|]. assert (HF : g_flag g = F_success).
  { destruct (E4 ltac:(unfold N in H5; lia) H6) as [Q | (u & U1 & U2)]; [exact Q|]. exfalso. apply U1. fold N. unfold dot. apply sumn_zero. intros a Ha. rewrite (H7 u U2 a Ha). ring. }
  split; [exact HF|]. rewrite HF in E3. destruct E3 as (_ & _ & (E3 & _) & _). exact (E3 eq_refl).
Qed.
End Exact.

(* ---- concrete cases ---- *)
Section Wit.
Local Open Scope R_scope.
Definition mat2 (a b c d : R) (i j : nat) : R := match i, j with 0%nat, 0%nat => a | 0%nat, 1%nat => b | 1%nat, 0%nat => c | 1%nat, 1%nat => d | _, _ => 0 end.
Definition apply2 (P : nat -> nat -> R) (e : unit) (u old : list R) : unit * bool * list R :=
  (tt, true, [P 0%nat 0%nat * nth 0 u 0 + P 0%nat 1%nat * nth 1 u 0; P 1%nat 0%nat * nth 0 u 0 + P 1%nat 1%nat * nth 1 u 0]).
Lemma apply2_linear P : linear_callback 2 P (apply2 P).
Proof.
  intros e u old Hu. exists tt. eexists. split; [reflexivity|]. split; [reflexivity|]. intros a Ha. unfold ap, sumn. cbn [seq map fold_right].
  destruct a as [|[|a]]; [cbn [nth]; ring|cbn [nth]; ring|lia].
Qed.
Definition par2 : @gparams R := GParams true 2 5 0 0 2 0.
(* [2 1; 0 3] x = [1; 1] from x = 0 with tolerance zero: the solver reports success and x is the exact solution. *)
Example C63_witness junk junkm : exists g x' e',
  gmres (exact (fun _ => 0)) (fun _ => true) unit (apply2 (mat2 2 1 0 3)) (apply2 (mat2 1 0 0 1)) (ref_dtrsv (exact (fun _ => 0))) (ref_dgemv (exact (fun _ => 0)))
    (ref_drotg (exact (fun _ => 0))) junk junkm par2 [1; 1] [0; 0] tt = Ok (g, x', e') /\ g_flag g = F_success /\
  resnorm 2 (mat2 2 1 0 3) (fun a => nth a [1; 1] 0) (fun a => nth a x' 0) <= 0.
Proof.
  set (G := fun _ : R => 0).
  assert (CP : checkParams (exact G) par2 = true).
  { unfold checkParams, par2. cbn [kspaceSz maxits relTol absTol divTol stgTol exact flt fle]. change (fofn (exact G) 0) with 0. unfold Rltb, Rleb.
    destruct (Rlt_dec 0 0); [lra|]. destruct (Rle_dec 2 0); [lra|]. reflexivity. }
  destruct (C63_full_space_converges G unit (apply2 (mat2 2 1 0 3)) (apply2 (mat2 1 0 0 1)) _ _ _ (ref_dtrsv_length _) (ref_dgemv_length _) (ref_dtrsv_ok G) (ref_dgemv_ok G) (ref_drotg_ok G)
    junk junkm par2 [1; 1] [0; 0] tt _ _ CP eq_refl (apply2_linear _) (apply2_linear _)) as (g & x' & e' & E1 & E2 & E3).
  - cbn. lia.
  - cbn [divTol par2]. lra.
  - intros u Hu. pose proof (Hu 0%nat ltac:(cbn; lia)) as U0. pose proof (Hu 1%nat ltac:(cbn; lia)) as U1. unfold ap, sumn in U0, U1. cbn [seq map fold_right mat2 length] in U0, U1.
    intros a Ha. destruct a as [|[|a]]; [lra|lra|cbn in Ha; lia].
  - exists g, x', e'. split; [exact E1|]. split; [exact E2|]. eapply Rle_trans; [exact E3|]. unfold tolerance, par2. cbn [relTol absTol exact flt fmul]. unfold Rltb.
    match goal with |- context [Rlt_dec ?q 0] => replace q with 0 by ring end. destruct (Rlt_dec 0 0); lra.
Qed.
(* one column per cycle: the hypotheses of C30 hold and the run has the stated form *)
Example C30_witness junk junkm : let G := fun _ : R => 0 in let p := GParams true 1 3 0 0 2 0 in
  checkParams (exact G) p = true /\ linear_callback 2 (mat2 2 1 0 3) (apply2 (mat2 2 1 0 3)) /\
  exists g x' e', gmres (exact G) (fun _ => true) unit (apply2 (mat2 2 1 0 3)) (apply2 (mat2 1 0 0 1)) (ref_dtrsv (exact G)) (ref_dgemv (exact G))
    (ref_drotg (exact G)) junk junkm p [1; 2] [0; 0] tt = Ok (g, x', e') /\ length x' = 2%nat.
Proof.
  intros G p.
  assert (CP : checkParams (exact G) p = true).
  { unfold checkParams, p. cbn [kspaceSz maxits relTol absTol divTol stgTol exact flt fle]. change (fofn (exact G) 0) with 0. unfold Rltb, Rleb.
    destruct (Rlt_dec 0 0); [lra|]. destruct (Rle_dec 2 0); [lra|]. reflexivity. }
  split; [exact CP|]. split; [apply apply2_linear|].
  destruct (C30_exact G unit (apply2 (mat2 2 1 0 3)) (apply2 (mat2 1 0 0 1)) _ _ _ (ref_dtrsv_length _) (ref_dgemv_length _) (ref_dtrsv_ok G) (ref_dgemv_ok G) (ref_drotg_ok G)
    junk junkm p [1; 2] [0; 0] tt _ _ CP eq_refl (apply2_linear _) (apply2_linear _)) as (g & x' & e' & E1 & E2 & _).
  exists g, x', e'. split; [exact E1|exact E2].
Qed.
End Wit.

Section DoubleWit.
Definition DA := dbl_arith (fun a _ => a) (fun a => a).
Definition d (z : Z) : spec_float := dofZ z.
Definition dapply2 (a b c e0 : Z) (e : nat) (u old : list spec_float) : nat * bool * list spec_float :=
  let m k q := SFmul 53 1024 (d k) (nth q u (d 0)) in (S e, true, [SFadd 53 1024 (m a 0) (m b 1); SFadd 53 1024 (m c 0) (m e0 1)]).
Definition drun f pre p b x := gmres DA dfinite (nat * list (event spec_float)) (traced Operator f) (traced Preconditioner pre)
    (ref_dtrsv DA) (ref_dgemv DA) (ref_drotg DA) (fun _ => S754_nan) (fun _ _ => S754_nan) p b x (0, []).
Definition dpar kr maxit := GParams true kr maxit (SFdiv 53 1024 (d 1) (d 1000000)) (d 0) (d 1000) (d 0).
Definition flag_of (o : outcome (@gout spec_float * list spec_float * (nat * list (event spec_float)))) :=
  match o with Ok (g, _, (n, tr)) => Some (g_flag g, g_inner g, g_outer g, g_msg g, n, length tr) | _ => None end.
Lemma dkeeps a b c e0 : keeps_length (dapply2 a b c e0) 2.
Proof. intros e u old _ _. destruct (dapply2 a b c e0 e u old) as [[e1 ok] y] eqn:E. unfold dapply2 in E. injection E as <- <- <-. reflexivity. Qed.
Definition drun_id f p b x := drun f (dapply2 1 0 0 1) p b x.
(* success after two steps; the length hypotheses hold *)
Example C28_witness : checkParams DA (dpar 2 5) = true /\ keeps_length (dapply2 2 1 0 3) 2 /\
  flag_of (drun_id (dapply2 2 1 0 3) (dpar 2 5) [d 1; d 2] [d 0; d 0]) = Some (F_success, 1, 0, G_none, 6, 6).
Proof. split; [reflexivity|]. split; [apply dkeeps|]. vm_compute. reflexivity. Qed.
(* one column per cycle: the iterations run out *)
Example C29_witness_maxits : flag_of (drun_id (dapply2 2 1 0 3) (dpar 1 2) [d 1; d 2] [d 0; d 0]) = Some (F_maxits, 0, 1, G_none, 8, 8).
Proof. vm_compute. reflexivity. Qed.
(* the zero operator breaks down *)
Example C29_witness_breakdown : flag_of (drun_id (dapply2 0 0 0 0) (dpar 2 5) [d 1; d 2] [d 0; d 0]) = Some (F_breakdown, 0, 0, G_singular 0, 2, 2).
Proof. vm_compute. reflexivity. Qed.
(* an operator that fails on its second call *)
Definition fails_second (e : nat) (u old : list spec_float) : nat * bool * list spec_float :=
  let '(e1, _, y) := dapply2 2 1 0 3 e u old in (e1, negb (e =? 3), y).
Example C29_witness_matvec : flag_of (drun_id fails_second (dpar 2 5) [d 1; d 2] [d 0; d 0]) = Some (F_matvec_fail, 1, 0, G_inner_matvec, 4, 4).
Proof. vm_compute. reflexivity. Qed.

(* Finding: if the product used for the final check is NaN, success is still reported, with a NaN residual. *)
Definition nan_at_check (e : nat) (u old : list spec_float) : nat * bool * list spec_float :=
  let '(e1, ok, y) := dapply2 2 1 0 3 e u old in (e1, ok, if e =? 5 then [S754_nan; S754_nan] else y).
Theorem C27_nan_residual_reported_as_success_refuted : exists f p b x g x' et, keeps_length f 2 /\ checkParams DA p = true /\ testTrueRnrm p = true /\
  drun_id f p b x = Ok (g, x', et) /\ all_ok (snd et) /\ g_flag g = F_success /\ g_relres g = S754_nan.
Proof.
  exists nan_at_check, (dpar 2 5), [d 1; d 2], [d 0; d 0]. do 3 eexists.
  split. { intros e u old H1 H2. pose proof (dkeeps 2 1 0 3 e u old H1 H2) as K. unfold nan_at_check. destruct (dapply2 2 1 0 3 e u old) as [[e1 ok] y]. destruct (e =? 5); [reflexivity|exact K]. }
  split; [reflexivity|]. split; [reflexivity|]. split; [vm_compute; reflexivity|]. split; [repeat constructor|]. split; vm_compute; reflexivity.
Qed.
(* Finding: a NaN tolerance passes the parameter check, and the result then depends on uninitialised storage. *)
Definition drun_junk q p b x := gmres DA dfinite nat (dapply2 1 0 0 1) (dapply2 1 0 0 1) (ref_dtrsv DA) (ref_dgemv DA) (ref_drotg DA) (fun _ => q) (fun _ _ => q) p b x 0.
Theorem C28_nan_tolerance_reads_uninitialised_refuted : exists p b x q1 q2, checkParams DA p = true /\ drun_junk q1 p b x <> drun_junk q2 p b x.
Proof.
  exists (GParams true 2 5 S754_nan (d 0) (d 1000) (d 0)), [d 1; d 0], [d 0; d 0], (d 7), S754_nan. split; [reflexivity|]. intro H. vm_compute in H. discriminate H.
Qed.
End DoubleWit.

Print Assumptions C27_success. Print Assumptions C27_success_double. Print Assumptions C27_nan_residual_reported_as_success_refuted.
Print Assumptions C28_recording_is_transparent. Print Assumptions C28_bad_parameters. Print Assumptions C28_bounded. Print Assumptions C28_nan_tolerance_reads_uninitialised_refuted.
Print Assumptions C29_flags. Print Assumptions C29_failure_is_final. Print Assumptions C29_x_unchanged.
Print Assumptions C30_exact. Print Assumptions C30_basis. Print Assumptions C63_full_space_converges. Print Assumptions C63_witness.
