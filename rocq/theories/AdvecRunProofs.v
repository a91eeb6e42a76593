(* AdvecRunProofs.v - lemmas about the runs of the advection drivers. *)
From Coq Require Import FunctionalExtensionality ZArith List Lia Bool Arith.
From Verif Require Import Base Loops Num BlitzModel BlitzSpec BlitzProofs JacobiModel JacobiSpec JacobiProofs JacobiOrthProofs JacobiQuadProofs JacobiExactProofs
  DenseSpec CscModel MeshModel Nodes1DModel Nodes1DSpec Nodes1DProofs Nodes1DExactProofs Nodes1DProps RKModel RKSpec RKProofs Line1DModel Line1DSpec TriBasisProofs TriLiftProofs GllProofs Line1DProofs TriOpProofs CurvedSwModel AdvecRunModel AdvecRunSpec.
From Coq Require Import Reals Lra.
Import ListNotations.
Local Open Scope R_scope.

(* --- fields as lists --- *)
Lemma of_field_len {T} (m : mat T) : length (of_field m) = (mrows m * mcols m)%nat.
Proof.
  unfold of_field. generalize 0%nat at 2. induction (mrows m) as [|r IH]; intro s; [reflexivity|].
  cbn [seq flat_map]. rewrite app_length, map_length, seq_length, IH. lia.
Qed.
Lemma of_field_at {T} (m : mat T) d i k : (i < mrows m)%nat -> (k < mcols m)%nat -> nth (i * mcols m + k) (of_field m) d = ment m i k.
Proof.
  unfold of_field. intros Hi Hk. assert (Q : forall r s i, (i < r)%nat -> nth (i * mcols m + k) (flat_map (fun i => map (ment m i) (seq 0 (mcols m))) (seq s r)) d = ment m (s + i) k).
  { clear i Hi. induction r as [|r IH]; intros s i Hi; [lia|]. cbn [seq flat_map]. destruct i as [|i].
    - rewrite app_nth1 by (rewrite map_length, seq_length; lia). cbn [Nat.mul Nat.add]. rewrite nth_indep with (d' := ment m s 0) by (rewrite map_length, seq_length; lia).
      rewrite map_nth, seq_nth by lia. f_equal; lia.
    - rewrite app_nth2 by (rewrite map_length, seq_length; lia). rewrite map_length, seq_length.
      replace (S i * mcols m + k - mcols m)%nat with (i * mcols m + k)%nat by lia. rewrite IH by lia. f_equal; lia. }
  rewrite Q by auto. reflexivity.
Qed.
Lemma of_field_value (m : mat R) n K i k : shape m n K -> (i < n)%nat -> (k < K)%nat -> value K (of_field m) i k = ment m i k.
Proof. intros (Hr & Hc) Hi Hk. unfold value. rewrite <- Hc. apply of_field_at; lia. Qed.
Lemma place_lt n K i k : (i < n)%nat -> (k < K)%nat -> (i * K + k < n * K)%nat.
Proof. nia. Qed.

(* --- polynomials along an element --- *)
Lemma compose cs al be : exists ds, (length ds <= length cs)%nat /\ (forall s, peval ds s = peval cs (al + be * s)) /\
  forall s, dpeval ds s = be * dpeval cs (al + be * s).
Proof.
  induction cs as [|c cs (ds & L & E & D)].
  - exists []. repeat split; auto; intros; cbn [peval dpeval]; ring.
  - exists (padd [c] (padd (pscal al ds) (0 :: pscal be ds))). split; [rewrite !padd_len; cbn [length]; rewrite !pscal_len; lia|].
    assert (E' : forall s, peval (padd [c] (padd (pscal al ds) (0 :: pscal be ds))) s = c + (al + be * s) * peval cs (al + be * s)).
    { intro s. rewrite !padd_eval. cbn [peval]. rewrite !pscal_eval, E. ring. }
    split; [intro s; rewrite E'; reflexivity|].
    intro s. cbn [dpeval].
    apply (uniqueness_limite (peval (padd [c] (padd (pscal al ds) (0 :: pscal be ds)))) s); [apply dpeval_ok|].
    apply (dpl_ext (fun t => c + (al + be * t) * peval ds t)); [intro t; rewrite E', E; reflexivity|].
    replace (be * (peval cs (al + be * s) + (al + be * s) * dpeval cs (al + be * s))) with (0 + ((0 + (0 * s + be * 1)) * peval ds s + (al + be * s) * dpeval ds s)) by (rewrite E, D; ring).
    apply (derivable_pt_lim_plus (fct_cte c) (fun t => (al + be * t) * peval ds t)); [apply derivable_pt_lim_const|].
    apply (derivable_pt_lim_mult (fun t => al + be * t) (peval ds)); [|apply dpeval_ok].
    apply (derivable_pt_lim_plus (fct_cte al) (fun t => be * t)); [apply derivable_pt_lim_const|].
    apply (derivable_pt_lim_mult (fct_cte be) id); [apply derivable_pt_lim_const|apply derivable_pt_lim_id].
Qed.

Section Run.
Variable G : R -> R.
Local Notation E := (exact G).
Variables (junk : nat -> nat -> R) (junkv : nat -> R).
Variables (n : @nodes1d R) (J rx Fs : mat R) (Np K : nat) (a w : R).
Hypothesis LT : line_tables n J rx Fs Np K w.
Hypothesis HX : forall i k, (i < Np)%nat -> (k < K)%nat -> ment (n_x n) i k = a + w * INR k + w / 2 * (1 + nth i (n_r n) 0).
Local Notation r := (n_r n).
Local Notation rhs c := (on_lists E Np K (advec_rhs E junk junkv n rx Fs Np K c)).
Local Notation F l := (as_field E Np K l).
Variable c : R.
Hypothesis Hc : 0 <= c.

Lemma as_value l i k : ment (F l) i k = value K l i k.
Proof. reflexivity. Qed.
Lemma rhs_ok l : exists U, (forall k, (k < K)%nat -> interpolates Np r (F l) k (U k)) /\
  exists q, rhs c l = Ok q /\ length q = (Np * K)%nat /\ forall i k, (i < Np)%nat -> (k < K)%nat ->
    value K q i k = - c * (1 / (w / 2)) * dpeval (U k) (nth i r 0) + ment (n_Lift n) i 0%nat * (1 / (w / 2) * (- c * (peval (U k) (-1) - from_left U k))).
Proof.
  destruct (interp_exists n J rx Fs Np K w LT (F l)) as (U & HU). exists U. split; [exact HU|].
  destruct (advec_ok G junk junkv n J rx Fs Np K w LT c (F l) U ltac:(split; reflexivity) HU) as (m & Em & Sm & Hm).
  exists (of_field m). split; [unfold on_lists; rewrite Em; reflexivity|]. split; [rewrite of_field_len; destruct Sm as (-> & ->); reflexivity|].
  intros i k Hi Hk. rewrite (of_field_value m Np K) by auto. rewrite Hm by auto. rewrite Rmax_left, Rmin_right by lra. ring.
Qed.
Lemma rhs_len l q : rhs c l = Ok q -> length q = (Np * K)%nat.
Proof. intros E1. destruct (rhs_ok l) as (U & _ & q' & E2 & L & _). congruence. Qed.

(* the polynomials of two fields that agree on an element *)
Lemma same_poly l l' U U' k : (k < K)%nat -> (forall i, (i < Np)%nat -> value K l i k = value K l' i k) ->
  interpolates Np r (F l) k (U k) -> interpolates Np r (F l') k (U' k) -> forall s, peval (U k) s = peval (U' k) s.
Proof.
  intros Hk He (L & H) H'. apply (interp_unique n J rx Fs Np K w LT (F l') k); [|exact H'].
  split; [exact L|]. intros i Hi. rewrite as_value, <- He, <- as_value by auto. apply H. auto.
Qed.
Lemma same_deriv P Q : (forall s, peval P s = peval Q s) -> forall s, dpeval P s = dpeval Q s.
Proof. intros H s. apply (uniqueness_limite (peval P) s); [apply dpeval_ok|]. apply (dpl_ext (peval Q)); [intro; symmetry; apply H|apply dpeval_ok]. Qed.

(* nothing travels further than one element per evaluation *)
Lemma rhs_local l l' q q' j k : (k < K)%nat -> same_on Np K l l' j k -> rhs c l = Ok q -> rhs c l' = Ok q' -> same_on Np K q q' (S j) k.
Proof.
  intros Hk Hs Eq Eq' i e Hi He. destruct (rhs_ok l) as (U & HU & q1 & E1 & _ & V1). destruct (rhs_ok l') as (U' & HU' & q2 & E2 & _ & V2).
  assert (q1 = q) by congruence. assert (q2 = q') by congruence. subst q1 q2. rewrite V1, V2 by lia.
  assert (Pe : forall e, (j <= e <= k)%nat -> forall s, peval (U e) s = peval (U' e) s).
  { intros e' He'. apply (same_poly l l'); try lia; [intros i' Hi'; apply Hs; lia|apply HU; lia|apply HU'; lia]. }
  rewrite (same_deriv (U e) (U' e)) by (apply Pe; lia). rewrite Pe by lia. destruct e as [|e]; [lia|]. cbn [from_left]. rewrite (Pe e) by lia. reflexivity.
Qed.

(* a profile that is one polynomial over the elements from j on *)
Lemma rhs_poly l q j P : (length P <= Np)%nat -> follows Np K (n_x n) l j (peval P) -> rhs c l = Ok q ->
  follows Np K (n_x n) q (S j) (fun x => - c * dpeval P x).
Proof.
  intros LP HP Eq i k Hi Hk. destruct (rhs_ok l) as (U & HU & q1 & E1 & _ & V1). assert (q1 = q) by congruence. subst q1. rewrite V1 by lia.
  pose proof (lt_w _ _ _ _ _ _ _ LT) as Hw.
  assert (Pe : forall e, (j <= e < K)%nat -> exists ds, (forall s, peval (U e) s = peval ds s) /\ (forall s, peval ds s = peval P ((a + w * INR e + w / 2) + w / 2 * s)) /\
            forall s, dpeval ds s = w / 2 * dpeval P ((a + w * INR e + w / 2) + w / 2 * s)).
  { intros e He. destruct (compose P (a + w * INR e + w / 2) (w / 2)) as (ds & Ld & Ed & Dd). exists ds. split; [|split; auto].
    apply (interp_unique n J rx Fs Np K w LT (F l) e); [apply HU; lia|]. split; [lia|]. intros i' Hi'. rewrite as_value, HP by auto. rewrite Ed, HX by lia. f_equal. ring. }
  destruct (Pe k ltac:(lia)) as (ds & Ed & Vd & Dd). rewrite (same_deriv _ _ Ed), Dd, Ed, Vd. destruct k as [|k]; [lia|]. cbn [from_left].
  destruct (Pe k ltac:(lia)) as (es & Ee & Ve & _). rewrite Ee, Ve, S_INR.
  replace (a + w * (INR k + 1) + w / 2 + w / 2 * -1) with (a + w * INR k + w / 2 + w / 2 * 1) by field.
  rewrite HX by lia. rewrite S_INR. replace (a + w * (INR k + 1) + w / 2 * (1 + nth i r 0)) with (a + w * (INR k + 1) + w / 2 + w / 2 * nth i r 0) by ring.
  field. exact Hw.
Qed.

(* --- one step --- *)
Lemma value_shifted u dt s A k i e : length u = (Np * K)%nat -> (i < Np)%nat -> (e < K)%nat ->
  value K (shifted u dt s A k) i e = value K u i e + dt * sumn s (fun j => A j * value K (k j) i e).
Proof. intros L Hi He. unfold value. rewrite shifted_nth; [reflexivity|]. rewrite L. apply place_lt; auto. Qed.

Lemma step_local A B dt u v u' v' j k : (k < K)%nat -> length u = (Np * K)%nat -> length v = (Np * K)%nat -> same_on Np K u v j k ->
  explicit_rk_step 5 A B (rhs c) dt u u' -> explicit_rk_step 5 A B (rhs c) dt v v' -> same_on Np K u' v' (j + 5) k.
Proof.
  intros Hk Lu Lv Hs (p & Hp & ->) (q & Hq & ->).
  assert (St : forall m, (m <= 5)%nat -> forall i, (i < m)%nat -> same_on Np K (p i) (q i) (j + S i) k).
  { induction m as [|m IH]; intros Hm i Hi; [lia|]. destruct (Nat.eq_dec i m) as [->|]; [|apply IH; lia].
    replace (j + S m)%nat with (S (j + m)) by lia. apply (rhs_local (shifted u dt m (A m) p) (shifted v dt m (A m) q)); [exact Hk| |apply Hp; lia|apply Hq; lia].
    intros i' e Hi' He. rewrite !value_shifted by (auto; lia). rewrite (Hs i' e) by lia. do 2 f_equal. apply sumn_ext. intros t Ht. f_equal. apply IH; lia. }
  intros i e Hi He. rewrite !value_shifted by (auto; lia). rewrite (Hs i e) by lia. do 2 f_equal. apply sumn_ext. intros t Ht. f_equal. apply (St 5%nat); lia.
Qed.

(* from the left end on nothing is lost *)
Lemma rhs_local0 l l' q q' k : (k < K)%nat -> same_on Np K l l' 0 k -> rhs c l = Ok q -> rhs c l' = Ok q' -> same_on Np K q q' 0 k.
Proof.
  intros Hk Hs Eq Eq' i e Hi He. destruct (rhs_ok l) as (U & HU & q1 & E1 & _ & V1). destruct (rhs_ok l') as (U' & HU' & q2 & E2 & _ & V2).
  assert (q1 = q) by congruence. assert (q2 = q') by congruence. subst q1 q2. rewrite V1, V2 by lia.
  assert (Pe : forall e, (e <= k)%nat -> forall s, peval (U e) s = peval (U' e) s).
  { intros e' He'. apply (same_poly l l'); try lia; [intros i' Hi'; apply Hs; lia|apply HU; lia|apply HU'; lia]. }
  rewrite (same_deriv (U e) (U' e)) by (apply Pe; lia). rewrite Pe by lia. destruct e as [|e]; cbn [from_left]; [reflexivity|]. rewrite (Pe e) by lia. reflexivity.
Qed.
Lemma step_local0 A B dt u v u' v' k : (k < K)%nat -> length u = (Np * K)%nat -> length v = (Np * K)%nat -> same_on Np K u v 0 k ->
  explicit_rk_step 5 A B (rhs c) dt u u' -> explicit_rk_step 5 A B (rhs c) dt v v' -> same_on Np K u' v' 0 k.
Proof.
  intros Hk Lu Lv Hs (p & Hp & ->) (q & Hq & ->).
  assert (St : forall m, (m <= 5)%nat -> forall i, (i < m)%nat -> same_on Np K (p i) (q i) 0 k).
  { induction m as [|m IH]; intros Hm i Hi; [lia|]. destruct (Nat.eq_dec i m) as [->|]; [|apply IH; lia].
    apply (rhs_local0 (shifted u dt m (A m) p) (shifted v dt m (A m) q)); [exact Hk| |apply Hp; lia|apply Hq; lia].
    intros i' e Hi' He. rewrite !value_shifted by (auto; lia). rewrite (Hs i' e) by lia. do 2 f_equal. apply sumn_ext. intros t Ht. f_equal. apply IH; lia. }
  intros i e Hi He. rewrite !value_shifted by (auto; lia). rewrite (Hs i e) by lia. do 2 f_equal. apply sumn_ext. intros t Ht. f_equal. apply (St 5%nat); lia.
Qed.

Definition comb (dt : R) (P : list R) (s : nat) (cf : nat -> R) (k : nat -> list R) : list R :=
  padd P (pscal dt (fold_right (fun t acc => padd (pscal (cf t) (k t)) acc) [] (seq 0 s))).
Lemma fold_sum (g : nat -> list R) s x : peval (fold_right (fun t acc => padd (g t) acc) [] (seq 0 s)) x = sumn s (fun t => peval (g t) x).
Proof.
  induction s as [|s IH]; [reflexivity|]. rewrite seq_S, fold_right_app, sumn_S. cbn [fold_right Nat.add].
  assert (Q : forall l z, peval (fold_right (fun t acc => padd (g t) acc) z l) x = peval (fold_right (fun t acc => padd (g t) acc) [] l) x + peval z x).
  { induction l as [|t l IHl]; intro z; cbn [fold_right]; [cbn [peval]; ring|]. rewrite !padd_eval, IHl. ring. }
  rewrite Q, IH, padd_eval. cbn [peval]. ring.
Qed.
Lemma comb_eval dt P s cf k x : peval (comb dt P s cf k) x = peval P x + dt * sumn s (fun t => cf t * peval (k t) x).
Proof. unfold comb. rewrite padd_eval, pscal_eval, fold_sum. do 2 f_equal. apply sumn_ext. intros. apply pscal_eval. Qed.
Lemma comb_len dt P s cf k m : (length P <= m)%nat -> (forall t, (t < s)%nat -> (length (k t) <= m)%nat) -> (length (comb dt P s cf k) <= m)%nat.
Proof.
  intros HP Hk. unfold comb. rewrite padd_len, pscal_len. apply Nat.max_lub; [exact HP|].
  assert (Q : forall l, (forall t, In t l -> (length (k t) <= m)%nat) -> (length (fold_right (fun t acc => padd (pscal (cf t) (k t)) acc) [] l) <= m)%nat).
  { induction l as [|t l IH]; intro Hl; cbn [fold_right length]; [lia|]. rewrite padd_len, pscal_len. apply Nat.max_lub; [apply Hl; now left|apply IH; intros; apply Hl; now right]. }
  apply Q. intros t Ht. apply in_seq in Ht. apply Hk. lia.
Qed.

Lemma step_poly A B dt u u' j P : length u = (Np * K)%nat -> (length P <= Np)%nat -> follows Np K (n_x n) u j (peval P) ->
  explicit_rk_step 5 A B (rhs c) dt u u' ->
  exists kp, (forall m, (m < 5)%nat -> (length (kp m) <= length P)%nat /\ forall x, peval (kp m) x = - c * dpeval (comb dt P m (A m) kp) x) /\
    follows Np K (n_x n) u' (j + 5) (peval (comb dt P 5 B kp)) /\ (length (comb dt P 5 B kp) <= length P)%nat.
Proof.
  intros Lu LP HP (p & Hp & ->).
  assert (St : forall m, (m <= 5)%nat -> exists kp, (forall t, (t < m)%nat -> (length (kp t) <= length P)%nat /\ (forall x, peval (kp t) x = - c * dpeval (comb dt P t (A t) kp) x) /\
     follows Np K (n_x n) (p t) (j + S t) (peval (kp t)))).
  { induction m as [|m IH]; intro Hm; [exists (fun _ => []); intros; lia|]. destruct (IH ltac:(lia)) as (kp & Hk).
    set (S' := comb dt P m (A m) kp). exists (fun t => if (t =? m)%nat then pscal (- c) (pderiv S') else kp t).
    assert (Ce : forall t, (t <= m)%nat -> forall x, peval (comb dt P t (A t) (fun t => if (t =? m)%nat then pscal (- c) (pderiv S') else kp t)) x = peval (comb dt P t (A t) kp) x).
    { intros t Ht x. rewrite !comb_eval. do 2 f_equal. apply sumn_ext. intros t' Ht'. destruct (Nat.eqb_spec t' m); [lia|reflexivity]. }
    assert (LS : (length S' <= length P)%nat) by (apply comb_len; [lia|intros t Ht; apply Hk; exact Ht]).
    intros t Ht. destruct (Nat.eqb_spec t m) as [->|Hne].
    - split; [rewrite pscal_len; pose proof (pderiv_len S'); lia|].
      assert (Ev : forall x, peval (pscal (- c) (pderiv S')) x = - c * dpeval S' x) by (intro; rewrite pscal_eval, pderiv_eval; reflexivity). split.
      + intro x. rewrite Ev. f_equal. apply same_deriv. intro s. unfold S'. symmetry. apply Ce. lia.
      + intros i e Hi He. rewrite Ev. replace (j + S m)%nat with (S (j + m)) in He by lia.
        apply (rhs_poly (shifted u dt m (A m) p) (p m) (j + m) S'); [lia| |apply Hp; lia|exact Hi|exact He].
        intros i' e' Hi' He'. rewrite value_shifted by (auto; lia). rewrite HP by lia. unfold S'. rewrite comb_eval. do 2 f_equal. apply sumn_ext. intros t Ht'. f_equal.
        apply Hk; lia.
    - destruct (Hk t ltac:(lia)) as (L & Ev & Fo). split; [exact L|]. split; [|exact Fo]. intro x. rewrite Ev. f_equal. apply same_deriv. intro s. symmetry. apply Ce. lia. }
  destruct (St 5%nat (Nat.le_refl _)) as (kp & Hk). exists kp. split; [|split].
  - intros m Hm. destruct (Hk m Hm) as (L & Ev & _). auto.
  - intros i e Hi He. rewrite value_shifted by (auto; lia). rewrite HP by lia. rewrite comb_eval. do 2 f_equal. apply sumn_ext. intros t Ht. f_equal. apply Hk; lia.
  - apply comb_len; [lia|]. intros t Ht. apply Hk. exact Ht.
Qed.

(* the values of the derivatives *)
Definition dk (q : nat) (P : list R) : list R := Nat.iter q pderiv P.
Lemma dk_S q P x : peval (dk (S q) P) x = dpeval (dk q P) x.
Proof. cbn. apply pderiv_eval. Qed.
Lemma dk_ext q : forall P Q, (forall x, peval P x = peval Q x) -> forall x, peval (dk q P) x = peval (dk q Q) x.
Proof. induction q as [|q IH]; intros P Q H x; [apply H|]. rewrite !dk_S. apply same_deriv. apply IH. exact H. Qed.
Lemma dk_lin q : forall P Q (s : R) Z, (forall x, peval Z x = peval P x + s * peval Q x) -> forall x, peval (dk q Z) x = peval (dk q P) x + s * peval (dk q Q) x.
Proof.
  induction q as [|q IH]; intros P Q s Z H x; [apply H|]. rewrite !dk_S.
  rewrite (same_deriv (dk q Z) (padd (dk q P) (pscal s (dk q Q)))) by (intro y; rewrite padd_eval, pscal_eval; apply IH; exact H).
  apply (uniqueness_limite (peval (padd (dk q P) (pscal s (dk q Q)))) x); [apply dpeval_ok|].
  apply (dpl_ext (fun t => peval (dk q P) t + s * peval (dk q Q) t)); [intro; rewrite padd_eval, pscal_eval; reflexivity|].
  apply (derivable_pt_lim_plus (peval (dk q P)) (fun t => s * peval (dk q Q) t)); [apply dpeval_ok|]. apply (derivable_pt_lim_scal (peval (dk q Q))). apply dpeval_ok.
Qed.
Lemma dk_comb q dt P s cf k x : peval (dk q (comb dt P s cf k)) x = peval (dk q P) x + dt * sumn s (fun t => cf t * peval (dk q (k t)) x).
Proof.
  revert x. induction s as [|s IH]; intro x.
  - rewrite sumn_0. rewrite (dk_ext q _ P) by (intro; rewrite comb_eval, sumn_0; ring). ring.
  - rewrite sumn_S. rewrite (dk_lin q (comb dt P s cf k) (k s) (dt * cf s)) by (intro; rewrite !comb_eval, sumn_S; ring). rewrite IH. ring.
Qed.
Lemma dk_dk q m P x : peval (dk q (dk m P)) x = peval (dk (q + m) P) x.
Proof. assert (H : dk q (dk m P) = dk (q + m) P) by (induction q as [|q IH]; [reflexivity|]; change (pderiv (dk q (dk m P)) = pderiv (dk (q + m) P)); now rewrite IH). now rewrite H. Qed.

Lemma five_stages M B dt P kp x : (forall m, (m < 5)%nat -> (length (kp m) <= length P)%nat /\ forall x, peval (kp m) x = - c * dpeval (comb dt P m (M m) kp) x) ->
  let z := - c * dt in let D q := peval (dk q P) x in
  peval (comb dt P 5 B kp) x = D 0%nat + sumn 5 B * z * D 1%nat + sumn 5 (fun i => B i * abscissa M i) * z ^ 2 * D 2%nat
     + sumn 5 (fun i => B i * sumn i (fun j => M i j * abscissa M j)) * z ^ 3 * D 3%nat
     + sumn 5 (fun i => B i * sumn i (fun j => M i j * sumn j (fun l => M j l * abscissa M l))) * z ^ 4 * D 4%nat
     + B 4%nat * M 4%nat 3%nat * M 3%nat 2%nat * M 2%nat 1%nat * M 1%nat 0%nat * z ^ 5 * D 5%nat.
Proof.
  intros Hk z D. set (q := fun i m => peval (dk m (kp i)) x).
  assert (Kq : forall i m, (i < 5)%nat -> q i m = - c * (D (S m) + dt * sumn i (fun j => M i j * q j (S m)))).
  { intros i m Hi. unfold q. rewrite (dk_ext m (kp i) (padd [] (pscal (- c) (dk 1 (comb dt P i (M i) kp))))) by (intro y; rewrite padd_eval, pscal_eval, dk_S; cbn [peval]; rewrite (proj2 (Hk i Hi)); unfold dk; cbn; ring).
    rewrite (dk_lin m [] (dk 1 (comb dt P i (M i) kp)) (- c)) by (intro; rewrite padd_eval, pscal_eval; reflexivity).
    rewrite dk_dk. rewrite Nat.add_1_r, dk_comb. unfold D. rewrite (dk_ext m [] (pscal 0 [])) by (intro; rewrite pscal_eval; cbn; ring).
    assert (Z0 : peval (dk m (pscal 0 [])) x = 0) by (rewrite (dk_lin m [] [] (-1)) by (intro; cbn; ring); ring). rewrite Z0. ring. }
  rewrite comb_eval. change (peval P x) with (D 0%nat). change (fun t => B t * peval (kp t) x) with (fun t => B t * q t 0%nat).
  clearbody q D. unfold abscissa.
  assert (K0 : forall m, q 0%nat m = _) by (intro m; apply (Kq 0%nat m); lia). assert (K1 : forall m, q 1%nat m = _) by (intro m; apply (Kq 1%nat m); lia).
  assert (K2 : forall m, q 2%nat m = _) by (intro m; apply (Kq 2%nat m); lia). assert (K3 : forall m, q 3%nat m = _) by (intro m; apply (Kq 3%nat m); lia).
  assert (K4 : forall m, q 4%nat m = _) by (intro m; apply (Kq 4%nat m); lia). clear Kq Hk.
  repeat setoid_rewrite sumn_S in K1. repeat setoid_rewrite sumn_S in K2. repeat setoid_rewrite sumn_S in K3. repeat setoid_rewrite sumn_S in K4.
  repeat setoid_rewrite sumn_0 in K1. repeat setoid_rewrite sumn_0 in K2. repeat setoid_rewrite sumn_0 in K3. repeat setoid_rewrite sumn_0 in K4. setoid_rewrite sumn_0 in K0.
  rewrite ?sumn_S, ?sumn_0. rewrite K4, !K3, !K2, !K1, !K0. unfold z. ring.
Qed.
End Run.

(* --- totals --- *)
Section Total.
Variable G : R -> R.
Local Notation E := (exact G).
Variables (junk : nat -> nat -> R) (junkv : nat -> R).
Variables (n : @nodes1d R) (J rx Fs : mat R) (Np K : nat) (w : R).
Hypothesis LT : line_tables n J rx Fs Np K w.
Local Notation r := (n_r n).
Local Notation rhs c := (on_lists E Np K (advec_rhs E junk junkv n rx Fs Np K c)).
Local Notation F l := (as_field E Np K l).

Lemma poly_integral P : exists v, integral_is (fun s => w / 2 * peval P s) (-1) 1 v.
Proof.
  assert (Q : exists Z, forall x, dpeval Z x = peval P x).
  { exists (0 :: (fix go k cs := match cs with [] => [] | c :: cs => c / INR k :: go (S k) cs end) 1%nat P).
    set (go := fix go k cs := match cs with [] => [] | c :: cs => c / INR k :: go (S k) cs end).
    assert (H : forall cs k x, (0 < k)%nat -> INR k * peval (go k cs) x + x * dpeval (go k cs) x = peval cs x).
    { induction cs as [|c cs IH]; intros k x Hk; [cbn; ring|]. cbn [go]. fold go. cbn [peval dpeval].
      replace (INR k * (c / INR k + x * peval (go (S k) cs) x) + x * (peval (go (S k) cs) x + x * dpeval (go (S k) cs) x))
        with (c + x * ((INR k + 1) * peval (go (S k) cs) x + x * dpeval (go (S k) cs) x)) by (field; apply not_0_INR; lia).
      rewrite <- S_INR, IH by lia. reflexivity. }
    intro x. cbn [dpeval]. rewrite <- (H P 1%nat x) by lia. cbn [INR]. ring. }
  destruct Q as (Z & HZ). exists (w / 2 * (peval Z 1 - peval Z (-1))). apply integral_scal with (f := peval P).
  apply (integral_ext (dpeval Z)); [exact HZ|]. apply integral_deriv.
Qed.
Lemma total_exists l : exists m, total Np K w r l m.
Proof.
  destruct (interp_exists n J rx Fs Np K w LT (F l)) as (U & HU).
  assert (Q : forall m, (m <= K)%nat -> exists I, forall k, (k < m)%nat -> integral_is (fun s => w / 2 * peval (U k) s) (-1) 1 (I k)).
  { induction m as [|m IH]; intro Hm; [exists (fun _ => 0); intros; lia|]. destruct (IH ltac:(lia)) as (I & HI). destruct (poly_integral (U m)) as (v & Hv).
    exists (fun k => if (k =? m)%nat then v else I k). intros k Hk. destruct (Nat.eqb_spec k m) as [->|]; [exact Hv|apply HI; lia]. }
  destruct (Q K (Nat.le_refl _)) as (I & HI). exists (sumn K I), U, I. split; [|reflexivity]. intros k Hk. destruct (HU k Hk) as (L & H). auto.
Qed.
Lemma total_unique l m m' : total Np K w r l m -> total Np K w r l m' -> m = m'.
Proof.
  intros (U & I & H & ->) (U' & I' & H' & ->). apply sumn_ext. intros k Hk. destruct (H k Hk) as (L1 & V1 & I1). destruct (H' k Hk) as (L2 & V2 & I2).
  apply (integral_unique _ _ _ _ _ I1). eapply integral_ext; [|exact I2]. intro s. cbv beta. f_equal.
  apply (interp_unique n J rx Fs Np K w LT (F l) k); split; auto.
Qed.
Lemma total_shifted u dt s B (p : nat -> list R) m t : length u = (Np * K)%nat -> total Np K w r u m -> (forall i, (i < s)%nat -> total Np K w r (p i) (t i)) ->
  total Np K w r (shifted u dt s B p) (m + dt * sumn s (fun i => B i * t i)).
Proof.
  intros Lu (U & I & H & ->) Ht.
  assert (Q : exists UU II, forall i, (i < s)%nat -> (forall k, (k < K)%nat -> (length (UU i k) <= Np)%nat /\ (forall j, (j < Np)%nat -> value K (p i) j k = peval (UU i k) (nth j r 0)) /\
                integral_is (fun s => w / 2 * peval (UU i k) s) (-1) 1 (II i k)) /\ t i = sumn K (II i)).
  { revert Ht. clear Lu. generalize s at 1 2 as z. induction z as [|z IH]; intro Ht; [exists (fun _ _ => []), (fun _ _ => 0); intros; lia|].
    destruct IH as (UU & II & HH); [intros; apply Ht; lia|]. destruct (Ht z ltac:(lia)) as (Uz & Iz & Hz).
    exists (fun i => if (i =? z)%nat then Uz else UU i), (fun i => if (i =? z)%nat then Iz else II i). intros i Hi. destruct (Nat.eqb_spec i z) as [->|]; [exact Hz|apply HH; lia]. }
  destruct Q as (UU & II & HQ). exists (fun k => comb dt (U k) s B (fun i => UU i k)), (fun k => I k + dt * sumn s (fun i => B i * II i k)). split.
  - intros k Hk. destruct (H k Hk) as (L & V & Ik). split; [apply comb_len; [exact L|]; intros i Hi; apply (HQ i Hi); exact Hk|]. split.
    + intros j Hj. rewrite (value_shifted Np K) by auto. rewrite comb_eval, V by auto. do 2 f_equal. apply sumn_ext. intros i Hi. f_equal. apply (HQ i Hi); auto.
    + apply (integral_ext (fun x => w / 2 * peval (U k) x + dt * sumn s (fun i => B i * (w / 2 * peval (UU i k) x)))).
      { intro x. cbv beta. rewrite comb_eval. rewrite (sumn_ext s (fun i => B i * (w / 2 * _)) (fun i => w / 2 * (B i * peval (UU i k) x))) by (intros; ring). rewrite sumn_scal. ring. }
      apply integral_plus; [exact Ik|]. apply integral_scal with (f := fun x => sumn s (fun i => B i * (w / 2 * peval (UU i k) x))).
      assert (Z : forall z, (z <= s)%nat -> integral_is (fun x => sumn z (fun i => B i * (w / 2 * peval (UU i k) x))) (-1) 1 (sumn z (fun i => B i * II i k))).
      { induction z as [|z IHz]; intro Hz; [rewrite sumn_0; apply (integral_ext (fun _ => 0)); [intro; now rewrite sumn_0|apply integral_zero]|].
        rewrite sumn_S. apply (integral_ext (fun x => sumn z (fun i => B i * (w / 2 * peval (UU i k) x)) + B z * (w / 2 * peval (UU z k) x))); [intro; now rewrite sumn_S|].
        apply integral_plus; [apply IHz; lia|]. apply integral_scal with (f := fun x => w / 2 * peval (UU z k) x). apply (HQ z ltac:(lia)). exact Hk. }
      apply Z. lia.
  - rewrite sumn_plus, sumn_scal. do 2 f_equal. rewrite sumn_swap. apply sumn_ext. intros i Hi. rewrite sumn_scal. f_equal. apply (HQ i Hi).
Qed.
Lemma tele_left' U m : sumn m (fun k => from_left U k - peval (U k) 1) = match m with O => 0 | S m => - peval (U m) 1 end.
Proof. induction m as [|m IH]; [reflexivity|]. rewrite sumn_S, IH. destruct m; cbn [from_left]; ring. Qed.
Lemma total_rhs c l q : 0 <= c -> rhs c l = Ok q -> total Np K w r q (- c * value K l (Np - 1) (K - 1)).
Proof.
  intros Hc Eq. pose proof (lt_Np _ _ _ _ _ _ _ LT) as HN. pose proof (lt_K _ _ _ _ _ _ _ LT) as HK.
  destruct (interp_exists n J rx Fs Np K w LT (F l)) as (U & HU).
  destruct (advec_ok G junk junkv n J rx Fs Np K w LT c (F l) U ltac:(split; reflexivity) HU) as (m & Em & Sm & Hm).
  assert (q = of_field m) by (unfold on_lists in Eq; rewrite Em in Eq; cbn [bind] in Eq; congruence). subst q.
  destruct (interp_exists n J rx Fs Np K w LT m) as (Q & HQ).
  pose proof (weak_all n J rx Fs Np K w LT (- c) (F l) m (fun f k => match f with O => _ | _ => _ end) U HU Hm Q HQ) as HW. cbv beta in HW.
  exists Q, (fun k => c * (from_left U k - peval (U k) 1)). split.
  - intros k Hk. destruct (HQ k Hk) as (L & V). split; [exact L|]. split; [intros i Hi; rewrite (of_field_value m Np K) by auto; apply V; exact Hi|].
    pose proof (weak_total Np K w (- c) U Q _ _ HW ltac:(lia) k Hk) as H. cbv beta in H. rewrite Rmax_left, Rmin_right in H by lra.
    replace (c * (from_left U k - peval (U k) 1)) with (- c * (peval (U k) 1 - peval (U k) (-1)) + (- c * (peval (U k) (-1) - from_left U k) + 0 * (peval (U k) 1 - from_right K U k))) by ring. exact H.
  - rewrite sumn_scal, tele_left'. destruct K as [|K'] eqn:EK; [lia|]. replace (S K' - 1)%nat with K' by lia.
    destruct (HU K' ltac:(lia)) as (_ & V). specialize (V (Np - 1)%nat ltac:(lia)). rewrite (lt_r1 _ _ _ _ _ _ _ LT) in V. assert (V' : value (S K') l (Np - 1) K' = peval (U K') 1) by exact V. rewrite V'. ring.
Qed.
End Total.

(* --- the Python right-hand side --- *)
Section Py.
Context {T : Type} (A : arith T).
Variables (junk : nat -> nat -> T) (junkv : nat -> T).
Local Open Scope nat_scope.
Lemma flatten_tab (m : mat T) r k : mrows m = r -> mcols m = k -> flattenF m = tab (r * k) (fun g => ment m (g mod r) (g / r)).
Proof.
  intros Hr Hk. apply tab_eq.
  - unfold flattenF. rewrite Hk. assert (Q : forall c s, length (flat_map (mcol m) (seq s c)) = r * c); [|apply Q].
    induction c as [|c IH]; intro s; cbn [seq flat_map length]; [lia|]. rewrite app_length, IH. unfold mcol. rewrite map_length, seq_length. lia.
  - intros g Hg. unfold flattenF. rewrite Hk.
    assert (Q : forall c s g, g < r * c -> nth_error (flat_map (mcol m) (seq s c)) g = Some (ment m (g mod r) (s + g / r))).
    { clear g Hg Hk. induction c as [|c IH]; intros s g Hg; [lia|]. cbn [seq flat_map].
      assert (L : length (mcol m s) = r) by (unfold mcol; rewrite map_length, seq_length; exact Hr).
      destruct (Nat.lt_ge_cases g r) as [H|H].
      - rewrite nth_error_app1 by lia. rewrite Nat.mod_small, Nat.div_small by lia. unfold mcol. rewrite nth_error_map, Hr.
        rewrite (nth_error_nth' (seq 0 r) 0) by (rewrite seq_length; lia). rewrite seq_nth by lia. cbn. now rewrite Nat.add_0_r.
      - assert (Hr0 : r <> 0) by (intro H0; rewrite H0 in Hg; cbn in Hg; lia). rewrite Nat.mul_succ_r in Hg. rewrite nth_error_app2, L, IH by lia. f_equal. replace g with ((g - r) + 1 * r) at 3 4 by lia. rewrite Nat.mod_add, Nat.div_add by lia. f_equal; lia. }
    rewrite Q by exact Hg. reflexivity.
Qed.
Lemma take_tab' m (v : nat -> T) l k : length l = k -> (forall i, In i l -> i < m) -> take A (tab m v) l = Ok (tab k (fun g => v (nth g l 0))).
Proof.
  intros Hl Hi. unfold take. rewrite (proj2 (forallb_forall _ _)) by (intros i H; apply Nat.ltb_lt; rewrite tab_len; auto). f_equal. apply tab_eq; [now rewrite map_length|].
  intros g Hg. rewrite nth_error_map, (nth_error_nth' l 0) by lia. cbn. f_equal. apply nth_error_nth. rewrite tab_nth_error.
  destruct (Nat.ltb_spec (nth g l 0) m); [reflexivity|]. assert (Hn : In (nth g l 0) l) by (apply nth_In; lia). apply Hi in Hn. lia.
Qed.
Lemma as_map (l : list nat) k : length l = k -> l = map (fun g => nth g l 0) (seq 0 k).
Proof.
  intros H. apply (tab_eq k (fun g => nth g l 0)); [exact H|]. intros i Hi. apply nth_error_nth'. lia.
Qed.
Lemma index_tab' m k (v : nat -> T) l out : length out = k -> length l = k -> (forall i, In i l -> i < m) ->
  applyIndexMap (tab m v) l out = Ok (tab k (fun g => v (nth g l 0))).
Proof. intros Ho Hl Hi. rewrite (as_map l k Hl) at 1. rewrite index_tab; [reflexivity|exact Ho|]. intros g Hg. apply Hi, nth_In. lia. Qed.
Lemma np_item_tab m (v : nat -> T) i : i < m -> np_item (tab m v) (Z.of_nat i) = Ok (v i).
Proof.
  intros H. unfold np_item, np_index. rewrite tab_len. destruct (Z.leb_spec 0 (Z.of_nat i)); [|lia]. destruct (Z.ltb_spec (Z.of_nat i) (Z.of_nat m)); [|lia].
  cbn [bind]. rewrite Nat2Z.id. unfold getn. rewrite tab_nth_error. destruct (Nat.ltb_spec i m); [reflexivity|lia].
Qed.
Lemma np_put_tab m (v : nat -> T) i x : i < m -> np_put (tab m v) (Z.of_nat i) x = Ok (tab m (fun j => if j =? i then x else v j)).
Proof.
  intros H. unfold np_put, np_index. rewrite tab_len. destruct (Z.leb_spec 0 (Z.of_nat i)); [|lia]. destruct (Z.ltb_spec (Z.of_nat i) (Z.of_nat m)); [|lia].
  cbn [bind]. rewrite Nat2Z.id. unfold setn. rewrite tab_len. destruct (Nat.ltb_spec i m); [|lia]. f_equal. apply tab_eq; [now rewrite upd_length, tab_len|]. intros j Hj.
  rewrite nth_error_upd_if by (rewrite tab_len; lia). rewrite tab_nth_error. destruct (Nat.ltb_spec j m); [|lia]. destruct (j =? i); reflexivity.
Qed.

Lemma fsum_ext' k (f g : nat -> T) : (forall i, i < k -> f i = g i) -> fsum A k f = fsum A k g.
Proof.
  intros H. unfold fsum. generalize (fofn A 0). assert (Q : forall l z, (forall i, In i l -> f i = g i) -> fold_left (fun s i => fadd A s (f i)) l z = fold_left (fun s i => fadd A s (g i)) l z).
  { induction l as [|x l IH]; intros z Hl; [reflexivity|]. cbn [fold_left]. rewrite (Hl x) by now left. apply IH. intros. apply Hl. now right. }
  intro z. apply Q. intros i Hi. apply in_seq in Hi. apply H. lia.
Qed.
Lemma python_same (n : @nodes1d T) rx Fs Np K c u mo mi : 0 < Np -> tables_conform n rx Fs Np K = true -> conform u Np K = true ->
  length (n_vmapM n) = 2 * K -> length (n_vmapP n) = 2 * K -> (forall i, In i (n_vmapM n) -> i < Np * K) -> (forall i, In i (n_vmapP n) -> i < Np * K) ->
  n_mapO n = Z.of_nat mo -> n_mapI n = Z.of_nat mi -> mo < 2 * K -> mi < 2 * K ->
  exists m m', advec_rhs A junk junkv n rx Fs Np K c u = Ok m /\ py_advec_rhs A n rx Fs c u = Ok m' /\
    mrows m = Np /\ mcols m = K /\ mrows m' = Np /\ mcols m' = K /\ forall i k, i < Np -> k < K -> ment m i k = ment m' i k.
Proof.
  intros HN HC Cu LM LP HM HP EO EI HO HI. unfold advec_rhs, py_advec_rhs. rewrite HC, Cu. cbn [andb require].
  apply conform_ok in Cu. destruct Cu as (Ur & Uc). unfold tables_conform in HC. rewrite !andb_true_iff, !conform_ok in HC.
  destruct HC as (((((D1 & D2) & (L1 & L2)) & (N1 & N2)) & (R1 & R2)) & (F1 & F2)).
  rewrite (full_tab (n_nx n) _ 2 K) by (auto; try lia; apply repeat_length). cbn [bind].
  rewrite (full_tab u _ Np K) by (auto; try lia; apply fresh_len). cbn [bind].
  rewrite (flatten_tab u Np K), (flatten_tab (n_nx n) 2 K) by auto.
  rewrite (take_tab' _ _ (n_vmapM n) (2 * K)) by auto. cbn [bind]. rewrite (take_tab' _ _ (n_vmapP n) (2 * K)) by auto. cbn [bind].
  rewrite (index_tab' (Np * K) (2 * K)) by (auto; apply repeat_length). cbn [bind]. rewrite (index_tab' (Np * K) (2 * K)) by (auto; apply repeat_length). cbn [bind].
  rewrite EO, EI. rewrite tab_get by lia. cbn [bind]. rewrite tab_set by lia. cbn [bind]. rewrite tab_set by lia. cbn [bind].
  rewrite np_item_tab by lia. cbn [bind]. rewrite np_put_tab by lia. cbn [bind]. rewrite np_put_tab by lia. cbn [bind].
  unfold np_zipv. rewrite !tab_len, Nat.eqb_refl. cbn [require bind]. rewrite !tab_zipw, !tab_map, !tab_len, Nat.eqb_refl. cbn [require bind]. rewrite !tab_zipw.
  match goal with |- context [vectorToFull (tab _ ?h) _ _] => set (du := h) end.
  destruct (unfull_tab du (mkmat 2 K junk) 2 K eq_refl eq_refl) as (M & EM & Mr & Mc & HMe). rewrite EM. cbn [bind].
  unfold np_dot at 1. rewrite D2, Ur, Nat.eqb_refl. cbn [bind]. unfold np_zip at 1. cbn [Line1DModel.mmap mrows mcols]. rewrite R1, R2, D1, Uc, !Nat.eqb_refl. cbn [andb require bind].
  unfold reshapeF. rewrite tab_len, N1, N2, Nat.eqb_refl. cbn [bind]. unfold np_zip at 1. cbn [mrows mcols]. rewrite F1, F2, !Nat.eqb_refl. cbn [andb require bind].
  unfold np_dot. cbn [Line1DModel.mzip mrows mcols]. rewrite L2, F1, F2, Nat.eqb_refl. cbn [bind]. unfold np_zip. cbn [Line1DModel.mzip Line1DModel.mmap mrows mcols].
  rewrite R1, R2, L1, !Nat.eqb_refl. cbn [andb require]. do 2 eexists. split; [reflexivity|]. split; [reflexivity|].
  cbn [add_product scaled_product Line1DModel.mzip Line1DModel.mmap mrows mcols]. repeat (split; [reflexivity || assumption|]).
  intros i k Hi Hk. cbn [add_product scaled_product Line1DModel.mzip Line1DModel.mmap ment]. f_equal. apply fsum_ext'. intros f Hf. do 2 f_equal. rewrite HMe by lia.
  symmetry. apply nth_error_nth. rewrite tab_nth_error. replace (f + 2 * k) with (f + k * 2) by lia. destruct (Nat.ltb_spec (f + k * 2) (2 * K)); [reflexivity|lia].
Qed.

Lemma of_field_ext (m m' : mat T) : mrows m = mrows m' -> mcols m = mcols m' -> (forall i k, i < mrows m -> k < mcols m -> ment m i k = ment m' i k) -> of_field m = of_field m'.
Proof.
  intros E1 E2 H. unfold of_field. rewrite <- E1, <- E2, !flat_map_concat_map. f_equal. apply map_ext_in. intros i Hi. apply in_seq in Hi.
  apply map_ext_in. intros k Hk. apply in_seq in Hk. apply H; lia.
Qed.
Lemma loop_same fuel rhs unstable dt ft : forall s, py_loop A fuel rhs unstable dt ft (s_t s) (s_u s) (s_res s) =
  bind (sim_loop A fuel (fun _ => rhs) unstable dt ft s) (fun s => Ok (s_t s, s_u s)).
Proof.
  induction fuel as [|fuel IH]; intro s; cbn [py_loop sim_loop bind]; [reflexivity|]. destruct (flt A (s_t s) ft); cbn [bind]; [|reflexivity].
  unfold sim_step. destruct (rk_step A rhs dt (s_u s, s_res s)) as [[u' r'] | |]; cbn [bind]; try reflexivity. destruct (unstable u'); cbn [bind]; [reflexivity|]. rewrite <- IH. reflexivity.
Qed.
Lemma run_same (n : @nodes1d T) rx Fs Np K mo mi : 0 < Np -> tables_conform n rx Fs Np K = true ->
  length (n_vmapM n) = 2 * K -> length (n_vmapP n) = 2 * K -> (forall i, In i (n_vmapM n) -> i < Np * K) -> (forall i, In i (n_vmapP n) -> i < Np * K) ->
  n_mapO n = Z.of_nat mo -> n_mapI n = Z.of_nat mi -> mo < 2 * K -> mi < 2 * K ->
  forall fuel unstable CFL c ft u0, py_run A fuel n rx Fs Np K unstable CFL c ft u0 =
    bind (advec_run A junk junkv fuel n rx Fs Np K unstable CFL c ft u0) (fun s => Ok (s_t s, s_u s)).
Proof.
  intros HN HC LM LP HM HP EO EI HO HI fuel unstable CFL c ft u0. unfold py_run, advec_run. rewrite <- loop_same. cbn [s_t s_u s_res].
  replace (on_lists A Np K (py_advec_rhs A n rx Fs c)) with (on_lists A Np K (advec_rhs A junk junkv n rx Fs Np K c)); [reflexivity|].
  apply functional_extensionality. intro l. unfold on_lists.
  destruct (python_same n rx Fs Np K c (as_field A Np K l) mo mi HN HC ltac:(apply conform_ok; split; reflexivity) LM LP HM HP EO EI HO HI) as (m & m' & E1 & E2 & R1 & C1 & R2 & C2 & Hm).
  rewrite E1, E2. cbn [bind]. f_equal. apply of_field_ext; [congruence|congruence|]. intros i k Hi Hk. apply Hm; lia.
Qed.
End Py.
