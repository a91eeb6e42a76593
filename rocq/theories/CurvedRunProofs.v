(* CurvedRunProofs.v - lemmas for C102. *)
From Coq Require Import ZArith List Lia Bool Arith.
From Verif Require Import Base Loops Num JacobiSpec JacobiExactProofs JacobiQuadProofs Maps2DModel Maps2DProofs Nodes1DModel RKModel Line1DModel Line1DProofs SwModel SwProofs GaussFaceModel CubMeshModel CurvedSwModel PySwModel AdvecRunModel SwSetupModel SwStepSpec SwScriptModel SwScriptProofs PySwProofs
  TriMapsProofs JacobiProofs CurvedRunModel CurvedRunSpec.
From Coq Require Import Reals Lra.
Import ListNotations.
Local Open Scope R_scope.

(* --- the hyperbolic tangent --- *)
Lemma tanh_exp x : tanh x = 1 - 2 / (exp (2 * x) + 1).
Proof.
  unfold tanh, sinh, cosh. rewrite exp_Ropp. replace (2 * x) with (x + x) by ring. rewrite exp_plus. pose proof (exp_pos x) as P. pose proof (Rmult_lt_0_compat _ _ P P).
  field. repeat split; nra.
Qed.
Lemma tanh_range x : -1 < tanh x < 1.
Proof.
  rewrite tanh_exp. pose proof (exp_pos (2 * x)) as P. assert (D : 0 < / (exp (2 * x) + 1) < 1). { split; [apply Rinv_0_lt_compat; lra|]. pose proof (Rinv_lt_contravar 1 (exp (2 * x) + 1) ltac:(lra) ltac:(lra)) as X. rewrite Rinv_1 in X. exact X. }
  unfold Rdiv. lra.
Qed.
Lemma tanh_mono x y : x < y -> tanh x < tanh y.
Proof.
  intro H. rewrite !tanh_exp. assert (E : exp (2 * x) < exp (2 * y)) by (apply exp_increasing; lra). pose proof (exp_pos (2 * x)). pose proof (exp_pos (2 * y)).
  assert (/ (exp (2 * y) + 1) < / (exp (2 * x) + 1)) by (apply Rinv_lt_contravar; [apply Rmult_lt_0_compat; lra|lra]). unfold Rdiv. lra.
Qed.
Lemma tanh_5 : 1 - tanh 5 < 2 / 1025 /\ 1 - tanh (-5) > 2 * (1 - 1 / 1025).
Proof.
  assert (E : exp 10 > 1024).
  { replace 10 with (INR 10 * 1) by (cbn; ring). assert (P : forall n, exp (INR n * 1) = exp 1 ^ n). { induction n; [cbn [INR pow]; rewrite Rmult_0_l; apply exp_0|]. rewrite S_INR. replace ((INR n + 1) * 1) with (INR n * 1 + 1) by ring. rewrite exp_plus, IHn. cbn [pow]. ring. }
    rewrite P. assert (2 < exp 1) by (pose proof (exp_ineq1 1 ltac:(lra)); lra). apply Rlt_gt. replace 1024 with (2 ^ 10) by ring. assert (exp 1 ^ 10 = exp 1 * exp 1 ^ 9) as -> by reflexivity. assert (2 ^ 9 <= exp 1 ^ 9) by (apply pow_incr; lra). replace (2 ^ 10) with (2 * 2 ^ 9) by ring. assert (0 < 2 ^ 9) by (apply pow_lt; lra). nra. }
  rewrite !tanh_exp. replace (2 * 5) with 10 by ring. replace (2 * -5) with (Ropp 10) by ring. rewrite exp_Ropp.
  assert (I1 : / (exp 10 + 1) < / 1025) by (apply Rinv_lt_contravar; nra). split; [unfold Rdiv; lra|].
  assert (I2 : / (/ exp 10 + 1) = 1 - / (exp 10 + 1)) by (field; lra). unfold Rdiv. rewrite I2. lra.
Qed.

Section Drag.
Variables (G : R -> R).
Local Notation E := (exact G).
Lemma no_nan x : np_isnan E x = false.
Proof. unfold np_isnan. cbn [exact fle]. unfold Rleb. destruct (Rle_dec x x); [reflexivity|lra]. Qed.
Lemma np_min_exact a l : exists m, np_min E (a :: l) = Ok m /\ In m (a :: l) /\ forall v, In v (a :: l) -> m <= v.
Proof.
  cbn [np_min]. revert a. induction l as [|b l IH]; intro a; [exists a; split; [reflexivity|]; split; [left; reflexivity|intros v [-> |[]]; lra]|].
  cbn [fold_left]. destruct (IH (np_min2 E a b)) as (m & Em & Hin & Hge). exists m. split; [exact Em|].
  unfold np_min2 in Hin, Hge. rewrite !no_nan in Hin, Hge. cbn [exact flt] in Hin, Hge. unfold Rltb in Hin, Hge. destruct (Rlt_dec b a) as [L|L].
  - split; [right; exact Hin|]. pose proof (Hge b (or_introl eq_refl)). intros v [<- |Hv]; [lra|apply Hge, Hv].
  - split; [destruct Hin as [<- |Hin]; [left; reflexivity|right; right; exact Hin]|]. pose proof (Hge a (or_introl eq_refl)). intros v [<- |[<- |Hv]]; [lra|lra|apply Hge; right; exact Hv].
Qed.
Lemma drag_list tenth CDm tol xW yW : length xW = length yW -> xW <> [] -> forall xs ys, length xs = length ys ->
  exists l, drag_nodes E rhypot tanh tenth CDm tol xW yW xs ys = Ok l /\ length l = length xs /\
  forall i, (i < length xs)%nat -> exists dist, In dist (zipw (fun a b => rhypot (nth i xs 0 - a) (nth i ys 0 - b)) xW yW) /\ (forall v, In v (zipw (fun a b => rhypot (nth i xs 0 - a) (nth i ys 0 - b)) xW yW) -> dist <= v) /\ nth i l 0 = drag_at E tanh tenth CDm tol dist.
Proof.
  intros HL HW. induction xs as [|x xs IH]; intros [|y ys] Hl; try discriminate Hl; [exists []; split; [reflexivity|]; split; [reflexivity|cbn; lia]|].
  destruct (IH ys ltac:(cbn in Hl; lia)) as (l & El & Ll & Hi). cbn [drag_nodes]. unfold wall_distance, np_zipv. rewrite !map_length, HL, Nat.eqb_refl. cbn [require bind].
  assert (EZ : zipw rhypot (map (fun w => fsub E x w) xW) (map (fun w => fsub E y w) yW) = zipw (fun a b => rhypot (x - a) (y - b)) xW yW).
  { clear. revert yW. induction xW as [|a xW IH]; intros [|b yW]; try reflexivity. cbn. f_equal. apply IH. }
  rewrite EZ. assert (NE : zipw (fun a b => rhypot (x - a) (y - b)) xW yW <> []). { destruct xW as [|a xW]; [contradiction|]. destruct yW as [|b yW]; [discriminate HL|]. discriminate. }
  destruct (zipw (fun a b => rhypot (x - a) (y - b)) xW yW) as [|z zs] eqn:Ez; [contradiction|]. destruct (np_min_exact z zs) as (m & Em & Hin & Hge). rewrite Em. cbn [bind]. rewrite El. cbn [bind].
  eexists. split; [reflexivity|]. split; [cbn; lia|]. intros [|i] Hi2; [|apply Hi; cbn in Hi2; lia]. cbn [nth]. exists m. rewrite Ez. auto.
Qed.
Lemma drag_none tenth CDm tol x xs y ys : drag_nodes E rhypot tanh tenth CDm tol [] [] (x :: xs) (y :: ys) = Throw.
Proof. reflexivity. Qed.
End Drag.

(* --- the mean, the loop --- *)
Lemma fold_left_sum l a : fold_left Rplus l a = a + fold_right Rplus 0 l.
Proof. revert a. induction l as [|x l IH]; intro a; cbn; [ring|rewrite IH; ring]. Qed.
Lemma fold_sum_app l l' : fold_right Rplus 0 (l ++ l') = fold_right Rplus 0 l + fold_right Rplus 0 l'.
Proof. induction l as [|x l IH]; cbn; [ring|rewrite IH; ring]. Qed.
Lemma mean_exact G (m : mat R) : np_mean (exact G) m = mean_of m.
Proof.
  unfold np_mean, mean_of. cbn [exact fdiv]. rewrite !fofn_INR. change (INR 0) with 0. cbn [fadd]. rewrite fold_left_sum, Rplus_0_l. f_equal.
  unfold flattenF, sumn. induction (seq 0 (mcols m)) as [|k l IH]; [reflexivity|]. cbn [flat_map map fold_right]. rewrite fold_sum_app, IH. reflexivity.
Qed.
Section Loop.
Variables (G : R -> R).
Local Notation E := (exact G).
Lemma cturn_inv d Np K N F H rhs g CFL Hbar huge ns s s1 : curved_turn E d Np K N F H rhs g CFL Hbar huge ns s = Ok s1 ->
  script_step E F rhs (w_dt s) (w_q s) = Ok (w_q s1) /\ mean_dt E d Np K N g CFL Hbar (velocity E (q_hu (w_q s1)) (q_h (w_q s1))) (velocity E (q_hv (w_q s1)) (q_h (w_q s1))) = Ok (w_dt s1) /\
  script_unstable E huge (q_h (w_q s1)) = Ok false /\ w_t s1 = w_t s + w_dt s /\ w_step s1 = (w_step s + 1)%Z /\
  w_out s1 = if (w_step s1 mod 50 =? 0)%Z || (w_step s1 =? ns)%Z then (w_step s1, shown_curved E d Np K H (w_q s1)) :: w_out s else w_out s.
Proof.
  unfold curved_turn. intro Et. destruct (script_step E F rhs (w_dt s) (w_q s)) as [q'| |] eqn:Es; cbn [bind] in Et; try discriminate Et.
  destruct (mean_dt _ _ _ _ _ _ _ _ _ _) as [dt| |] eqn:Ed; cbn [bind] in Et; try discriminate Et. destruct (script_unstable E huge (q_h q')) as [[|]| |] eqn:Eu; cbn [bind] in Et; try discriminate Et.
  injection Et as <-. cbn [w_q w_t w_step w_out w_dt]. repeat split; auto.
Qed.
Lemma cloop_history turn ft : forall fuel s s', curved_loop E fuel turn ft s = Ok s' ->
  exists n h, history Ok turn n h /\ h 0%nat = s /\ h n = s' /\ (forall i, (i < n)%nat -> w_t (h i) < ft) /\ ft <= w_t s'.
Proof.
  induction fuel as [|fuel IH]; intros s s' Hl; cbn [curved_loop] in Hl; [discriminate Hl|]. cbn [exact flt] in Hl. unfold Rltb in Hl. destruct (Rlt_dec (w_t s) ft) as [L|L].
  2:{ injection Hl as <-. exists 0%nat, (fun _ => s). split; [intros i Hi; lia|]. split; [reflexivity|]. split; [reflexivity|]. split; [intros i Hi; lia|lra]. }
  destruct (turn s) as [s1| |] eqn:Et; cbn [bind] in Hl; try discriminate Hl. apply IH in Hl as (n & h & Hh & H0 & Hn & Hlt & Hge).
  exists (S n), (fun i => match i with O => s | S i => h i end). split; [|split; [reflexivity|split; [exact Hn|split; [|exact Hge]]]].
  - intros [|i] Hi; [rewrite H0; exact Et|apply Hh; lia].
  - intros [|i] Hi; [exact L|apply Hlt; lia].
Qed.
End Loop.
