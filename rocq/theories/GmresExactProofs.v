(* GmresExactProofs.v - GMRES in exact arithmetic with a linear operator and a linear preconditioner. *)
From Coq Require Import ZArith List Lia Bool Arith.
From Verif Require Import Base Loops Num JacobiSpec JacobiProofs JacobiQuadProofs DenseSpec GmresModel GmresSpec GmresProofs GmresMath BlitzProofs.
From Coq Require Import Reals Lra.
Import ListNotations.
Local Open Scope R_scope.

Definition vn (v : list R) : nat -> R := fun a => nth a v 0.
Definition vcol (V : mat R) (j : nat) : nat -> R := fun a => ment V a j.

Section Exact.
Variable G : R -> R.
Local Notation E := (exact G).
Lemma E0 : fofn E 0 = 0. Proof. reflexivity. Qed.
Lemma E1 : fofn E 1 = 1. Proof. reflexivity. Qed.

Lemma sumn_nth l : fold_right Rplus 0 l = sumn (length l) (fun a => nth a l 0).
Proof.
  unfold sumn. f_equal. induction l as [|x l IH]; [reflexivity|]. cbn [length seq map nth]. f_equal. rewrite <- seq_shift, map_map. exact IH.
Qed.
Lemma vsum_exact l : vsum E l = sumn (length l) (fun a => nth a l 0).
Proof.
  unfold vsum. rewrite <- sumn_nth, E0. cbn [exact fadd]. rewrite <- fold_symmetric; [reflexivity|intros; ring|intros; ring].
Qed.
Lemma nth_map2 (f : R -> R -> R) u v a : length u = length v -> (a < length u)%nat ->
  nth a (map (fun p => f (fst p) (snd p)) (combine u v)) 0 = f (nth a u 0) (nth a v 0).
Proof.
  intros L Ha. rewrite nth_indep with (d' := f (fst (0, 0)) (snd (0, 0))) by (rewrite map_length, combine_length; lia).
  rewrite (map_nth (fun p => f (fst p) (snd p))), combine_nth by exact L. reflexivity.
Qed.
Lemma vmap2_exact (f : R -> R -> R) u v : length u = length v ->
  exists l, vmap2 f u v = Ok l /\ length l = length u /\ forall a, (a < length u)%nat -> nth a l 0 = f (nth a u 0) (nth a v 0).
Proof.
  intro L. destruct (vmap2_ok f u v L) as (EQ & Ll). eexists. split; [exact EQ|]. split; [exact Ll|]. intros. now apply nth_map2.
Qed.
Lemma vdot_exact N u v : length u = N -> length v = N -> vdot E u v = Ok (dot N (vn u) (vn v)).
Proof.
  intros Lu Lv. unfold vdot. destruct (vmap2_exact (fmul E) u v ltac:(lia)) as (l & -> & Ll & Hl). cbn [bind]. f_equal.
  rewrite vsum_exact, Ll, Lu. apply sumn_ext. intros a Ha. apply Hl. lia.
Qed.
Lemma norm2_exact N v : length v = N -> norm2 E v = sqrt (dot N (vn v) (vn v)).
Proof.
  intro L. unfold norm2. cbn [exact fsqrt]. f_equal. rewrite vsum_exact, map_length, L. apply sumn_ext. intros a Ha.
  rewrite nth_indep with (d' := (fun x => fmul E x x) 0) by (rewrite map_length; lia). now rewrite (map_nth (fun x => fmul E x x)).
Qed.
Lemma mset_ent {T} (m : mat T) i j v : (i < mrows m)%nat -> (j < mcols m)%nat -> exists m', mset m i j v = Ok m' /\ mrows m' = mrows m /\ mcols m' = mcols m /\
  forall a b, ment m' a b = if (a =? i)%nat && (b =? j)%nat then v else ment m a b.
Proof. intros. unfold mset. rewrite inb_true by auto. eexists. split; [reflexivity|]. cbn. auto. Qed.
Lemma setcol_ent (m : mat R) j v : (j < mcols m)%nat -> length v = mrows m -> exists m', setcol E m j v = Ok m' /\ mrows m' = mrows m /\ mcols m' = mcols m /\
  forall a b, ment m' a b = if (b =? j)%nat then nth a v 0 else ment m a b.
Proof. intros H L. unfold setcol. rewrite (proj2 (Nat.ltb_lt _ _) H), (proj2 (Nat.eqb_eq _ _) L). cbn [andb]. eexists. split; [reflexivity|]. cbn. auto. Qed.
Lemma getcol_ent (m : mat R) j : (j < mcols m)%nat -> exists v, getcol m j = Ok v /\ length v = mrows m /\ forall a, (a < mrows m)%nat -> nth a v 0 = ment m a j.
Proof.
  intro H. unfold getcol. rewrite (proj2 (Nat.ltb_lt _ _) H). eexists. split; [reflexivity|]. split; [now rewrite map_length, seq_length|].
  intros a Ha. rewrite nth_indep with (d' := (fun i => ment m i j) 0%nat) by (rewrite map_length, seq_length; lia).
  rewrite (map_nth (fun i => ment m i j)), seq_nth by auto. reflexivity.
Qed.
Lemma nth_upd {T} (l : list T) i v j d : (i < length l)%nat -> nth j (upd l i v) d = if (j =? i)%nat then v else nth j l d.
Proof.
  revert i j. induction l as [|x l IH]; intros [|i] [|j] H; cbn in *; try lia; auto. rewrite IH by lia. reflexivity.
Qed.
Lemma getn_nth {T} (l : list T) i d : (i < length l)%nat -> getn l i = Ok (nth i l d).
Proof. intro H. unfold getn. now rewrite (nth_error_nth' l d H). Qed.
Lemma sumn_shift n f : sumn (S n) f = f 0%nat + sumn n (fun x => f (S x)).
Proof. unfold sumn. cbn [seq map fold_right]. rewrite <- seq_shift, map_map. reflexivity. Qed.

Variable isfin : R -> bool.
Hypothesis Hfin : forall t, isfin t = true.
Variables N ks : nat.
Local Notation dot := (dot N). Local Notation veq := (veq N). Local Notation span := (span N). Local Notation ap := (ap N). Local Notation ortho := (ortho N).

Lemma mgs_exact V i w H : mrows V = N -> (i < mcols V)%nat -> length w = N -> (i < mrows H)%nat -> (i < mcols H)%nat -> ortho (S i) (vcol V) ->
  exists w' H', mgs E V i (w, H) = Ok (w', H') /\ length w' = N /\ mrows H' = mrows H /\ mcols H' = mcols H /\
    (forall a b, (b <> i \/ i < a)%nat -> ment H' a b = ment H a b) /\
    veq (vn w) (fun a => vn w' a + lc (S i) (fun l => ment H' l i) (vcol V) a) /\
    forall l, (l <= i)%nat -> dot (vcol V l) (vn w') = 0.
Proof.
  intros VR VC Lw HR HC HO. unfold mgs.
  match goal with |- exists w' H', for_ ?n ?body ?s = _ /\ _ =>
    destruct (for_inv (fun j (st : list R * mat R) => length (fst st) = N /\ mrows (snd st) = mrows H /\ mcols (snd st) = mcols H /\
      (forall a b, (b <> i \/ i < a)%nat -> ment (snd st) a b = ment H a b) /\
      veq (vn w) (fun a => vn (fst st) a + lc j (fun l => ment (snd st) l i) (vcol V) a) /\
      (forall l, (l < j)%nat -> dot (vcol V l) (vn (fst st)) = 0)) n body s) as ((w' & H') & EQ & P) end.
  - cbn [fst snd]. split; [exact Lw|]. split; [reflexivity|]. split; [reflexivity|]. split; [reflexivity|]. split; [|intros; lia].
    intros a Ha. unfold lc. rewrite sumn_0. ring.
  - intros j (w1 & H1) Hj (L1 & R1 & C1 & K1 & W1 & D1). cbn [fst snd] in *.
    destruct (getcol_ent V j ltac:(lia)) as (vj & -> & Lv & Ev). cbn [bind]. rewrite (vdot_exact N) by lia. cbn [bind].
    set (h := dot (vn w1) (vn vj)).
    match goal with |- context [vmap2 ?f w1 vj] => destruct (vmap2_exact f w1 vj ltac:(lia)) as (w2 & -> & L2 & E2) end. cbn [bind].
    destruct (mset_ent H1 j i h ltac:(lia) ltac:(lia)) as (H2 & -> & R2 & C2 & K2). cbn [bind]. eexists. split; [reflexivity|]. cbn [fst snd].
    assert (Evj : veq (vn vj) (vcol V j)) by (intros a Ha; unfold vn, vcol; apply Ev; lia).
    assert (Ew2 : veq (vn w2) (fun a => 1 * vn w1 a + (- h) * vcol V j a)).
    { intros a Ha. unfold vn at 1. rewrite E2 by lia. rewrite <- (Evj a Ha). unfold vn. cbn [exact fsub fmul]. ring. }
    split; [lia|]. split; [congruence|]. split; [congruence|]. split; [|split].
    + intros a b Hab. rewrite K2. destruct ((a =? j)%nat && (b =? i)%nat) eqn:Q; [|apply K1; exact Hab].
      apply andb_true_iff in Q. rewrite !Nat.eqb_eq in Q. lia.
    + intros a Ha. rewrite (W1 a Ha), (Ew2 a Ha). unfold lc. rewrite sumn_S, K2, !Nat.eqb_refl. cbn [andb].
      rewrite (sumn_ext j (fun l => ment H2 l i * vcol V l a) (fun l => ment H1 l i * vcol V l a)); [ring|].
      intros l Hl. rewrite K2, (proj2 (Nat.eqb_neq l j)) by lia. reflexivity.
    + intros l Hl. rewrite (dot_ext N _ _ _ _ (veq_refl N _) Ew2), dot_lin_r. rewrite (HO l j) by lia. destruct (Nat.eq_dec l j) as [->|].
      * rewrite Nat.eqb_refl. unfold h. rewrite (dot_comm N (vn w1)), (dot_ext N _ _ _ _ Evj (veq_refl N _)). ring.
      * rewrite (proj2 (Nat.eqb_neq l j)), D1 by lia. ring.
  - destruct P as (P1 & P2 & P3 & P4 & P5 & P6). cbn [fst snd] in *. exists w', H'. split; [exact EQ|]. split; [exact P1|]. split; [exact P2|]. split; [exact P3|].
    split; [exact P4|]. split; [exact P5|]. intros l Hl. apply P6. lia.
Qed.

Lemma rotate_exact giv i H v : (i <= length giv)%nat -> (i < mrows H)%nat -> (i < mcols H)%nat ->
  let c := fun j => fst (nth j giv (0, 0)) in let s := fun j => snd (nth j giv (0, 0)) in
  (forall j, (j < i)%nat -> c j * c j + s j * s j = 1) ->
  exists H', rotate_col E giv i H = Ok H' /\ mrows H' = mrows H /\ mcols H' = mcols H /\
    (forall a b, (b <> i \/ i < a)%nat -> ment H' a b = ment H a b) /\
    forall a, lc (S i) (fun l => ment H l i) v a = lc i (fun l => ment H' l i) (Qv v c s) a + ment H' i i * Tv v c s i a.
Proof.
  intros Lg HR HC c s Hc. unfold rotate_col.
  match goal with |- exists H', for_ ?n ?body ?s0 = _ /\ _ =>
    destruct (for_inv (fun j (st : mat R) => mrows st = mrows H /\ mcols st = mcols H /\
      (forall a b, (b <> i \/ j < a)%nat -> ment st a b = ment H a b) /\
      (forall a, lc (S i) (fun l => ment H l i) v a =
        lc j (fun l => ment st l i) (Qv v c s) a + ment st j i * Tv v c s j a + sumn (i - j) (fun x => ment H (S j + x) i * v (S j + x)%nat a))) n body s0) as (H' & EQ & P) end.
  - split; [reflexivity|]. split; [reflexivity|]. split; [reflexivity|]. intro a. unfold lc. rewrite sumn_shift, sumn_0, Nat.sub_0_r. cbn [Tv].
    rewrite (sumn_ext i (fun x => ment H (1 + x) i * v (1 + x)%nat a) (fun x => ment H (S x) i * v (S x) a)); [ring|reflexivity].
  - intros j H1 Hj (R1 & C1 & K1 & W1). rewrite (getn_nth giv j (0, 0)) by lia. cbn [bind].
    pose proof (eq_refl : c j = fst (nth j giv (0, 0))) as Ec. pose proof (eq_refl : s j = snd (nth j giv (0, 0))) as Es.
    destruct (nth j giv (0, 0)) as (cj & sj). cbn [fst snd] in Ec, Es. rewrite !mget_ok by lia. cbn [bind applyGivens].
    set (x := ment H1 j i) in *. set (y := ment H1 (j + 1) i) in *.
    match goal with |- context [mset H1 j i ?q] => destruct (mset_ent H1 j i q ltac:(lia) ltac:(lia)) as (H2 & -> & R2 & C2 & K2) end. cbn [bind].
    match goal with |- context [mset H2 (j + 1)%nat i ?q] => destruct (mset_ent H2 (j + 1) i q ltac:(lia) ltac:(lia)) as (H3 & -> & R3 & C3 & K3) end.
    eexists. split; [reflexivity|]. split; [congruence|]. split; [congruence|]. split.
    + intros a b Hab. rewrite K3, K2. destruct (b =? i)%nat eqn:Eb.
      * apply Nat.eqb_eq in Eb. rewrite (proj2 (Nat.eqb_neq a (j + 1))), (proj2 (Nat.eqb_neq a j)) by lia. cbn [andb]. apply K1. lia.
      * rewrite !andb_false_r. apply K1. left. now apply Nat.eqb_neq.
    + intro a. rewrite (W1 a). replace (i - j)%nat with (S (i - S j)) by lia. rewrite sumn_shift, Nat.add_0_r.
      assert (Yj : ment H (S j) i = y) by (unfold y; rewrite Nat.add_1_r; symmetry; apply K1; right; lia). rewrite Yj.
      unfold lc. rewrite sumn_S.
      rewrite (sumn_ext j (fun l => ment H3 l i * Qv v c s l a) (fun l => ment H1 l i * Qv v c s l a)).
      2:{ intros l Hl. rewrite K3, K2, (proj2 (Nat.eqb_neq l (j + 1))), (proj2 (Nat.eqb_neq l j)) by lia. reflexivity. }
      rewrite (sumn_ext (i - S j) (fun x0 => ment H (S j + S x0) i * v (S j + S x0)%nat a) (fun x0 => ment H (S (S j) + x0) i * v (S (S j) + x0)%nat a))
        by (intros l Hl; now replace (S j + S l)%nat with (S (S j) + l)%nat by lia).
      rewrite !K3, !K2. rewrite (proj2 (Nat.eqb_neq j (j + 1))) by lia. replace (S j =? j + 1)%nat with true by (symmetry; apply Nat.eqb_eq; lia). rewrite !Nat.eqb_refl. cbn [andb].
      cbn [exact fadd fsub fmul]. rewrite <- Ec, <- Es.
      pose proof (rot_coords v c s j x y a (Hc j Hj)) as RC.
      match goal with |- ?L + ?X + (?Y + ?Z) = ?L + ?U + ?W + ?Z => cut (X + Y = U + W); [intro K; lra|] end. exact RC.
  - destruct P as (P1 & P2 & P3 & P4). exists H'. split; [exact EQ|]. split; [exact P1|]. split; [exact P2|]. split; [exact P3|].
    intro a. rewrite (P4 a), Nat.sub_diag, sumn_0. ring.
Qed.

(* rotated bases depend only on the vectors and rotations before them *)
Lemma Tv_ext v v' c c' s s' j a : (forall m, (m <= j)%nat -> v m a = v' m a) -> (forall m, (m < j)%nat -> c m = c' m /\ s m = s' m) ->
  Tv v c s j a = Tv v' c' s' j a.
Proof.
  induction j as [|j IH]; intros Hv Hcs; cbn [Tv]; [apply Hv; lia|]. destruct (Hcs j ltac:(lia)) as (-> & ->). rewrite Hv, IH; auto.
Qed.
Lemma Qv_ext v v' c c' s s' j a : (forall m, (m <= S j)%nat -> v m a = v' m a) -> (forall m, (m <= j)%nat -> c m = c' m /\ s m = s' m) ->
  Qv v c s j a = Qv v' c' s' j a.
Proof.
  intros Hv Hcs. unfold Qv. destruct (Hcs j ltac:(lia)) as (-> & ->). rewrite Hv by lia. rewrite (Tv_ext v v' c c' s s' j a); auto.
  intros m Hm. apply Hcs. lia.
Qed.

Variable Env : Type.
Variable mvec precon : Env -> list R -> list R -> Env * bool * list R.
Variables Am Mm : nat -> nat -> R.
Hypothesis HA : linear_callback N Am mvec.
Hypothesis HM : linear_callback N Mm precon.
Variable drotg : R -> R -> R * R * R.
Hypothesis Hrot : drotg_spec drotg.
Local Notation Pm := (AM N Am Mm).
Variables convTol divTol' : R.
Hypothesis Hconv : 0 <= convTol.

Notation gc wk := (fun j => fst (nth j (k_giv wk) (0, 0))).
Notation gs wk := (fun j => snd (nth j (k_giv wk) (0, 0))).
Notation gg wk := (vn (k_s wk)).

Section Cyc.
Variable r0 : nat -> R.                                    (* the residual at the start of the cycle *)
Variable beta : R.

(* facts about the Krylov basis *)
Definition basis (k : nat) (v : nat -> nat -> R) : Prop :=
  ortho k v /\ beta <> 0 /\ veq r0 (fun a => beta * v 0%nat a) /\
  forall j, (S j < k)%nat -> exists h, h (S j) <> 0 /\ veq (ap Pm (v j)) (lc (S (S j)) h v).

Definition inv (i : nat) (wk : @work R) : Prop :=
  let v := vcol (k_V wk) in let c := gc wk in let s := gs wk in
  wk_ok N ks wk /\ basis (S i) v /\
  (forall j, (j < i)%nat -> c j * c j + s j * s j = 1) /\
  (forall j, (j < i)%nat -> ment (k_H wk) j j <> 0 /\ veq (ap Pm (v j)) (lc (S j) (fun l => ment (k_H wk) l j) (Qv v c s))) /\
  veq r0 (fun a => lc i (gg wk) (Qv v c s) a + gg wk i * Tv v c s i a) /\
  (forall l, (i < l)%nat -> gg wk l = 0).

(* a cycle of k columns is complete *)
Definition fin (k : nat) (wk : @work R) : Prop :=
  let v := vcol (k_V wk) in
  wk_ok N ks wk /\ basis k v /\ exists q t, ortho k q /\ (forall l, (l < k)%nat -> dot (q l) t = 0) /\ (dot t t = 1 \/ gg wk k = 0) /\
  (forall j, (j < k)%nat -> ment (k_H wk) j j <> 0 /\ veq (ap Pm (v j)) (lc (S j) (fun l => ment (k_H wk) l j) q)) /\
  veq r0 (fun a => lc k (gg wk) q a + gg wk k * t a).

Lemma inv_fin k wk : inv k wk -> fin k wk.
Proof.
  intros (OK & (O & B) & Hc & Hcol & Hr & _). split; [exact OK|]. split; [split; [|destruct B as (B1 & B2 & B3); split; [exact B1|split; [exact B2|intros j Hj; apply B3; lia]]]|].
  - intros j l Hj Hl. apply O; lia.
  - exists (Qv (vcol (k_V wk)) (gc wk) (gs wk)), (Tv (vcol (k_V wk)) (gc wk) (gs wk) k).
    split; [exact (Q_ortho N _ _ _ k O Hc)|]. split; [intros l Hl; exact (Q_T N _ _ _ k O Hc l k Hl (le_n k))|].
    split; [left; exact (T_unit N _ _ _ k O Hc k (le_n k))|]. split; [exact Hcol|exact Hr].
Qed.

Definition singular : Prop := exists u, dot u u <> 0 /\ veq (ap Pm u) (fun _ => 0).

(* what is spanned by the images of the first columns *)
Lemma q_image k v q Rm : (forall j, (j < k)%nat -> Rm j j <> 0 /\ veq (ap Pm (v j)) (lc (S j) (fun l => Rm l j) q)) ->
  forall j, (j < k)%nat -> span (S j) (fun l => ap Pm (v l)) (q j).
Proof.
  intros H. assert (All : forall m j, (j < m)%nat -> (j < k)%nat -> span (S j) (fun l => ap Pm (v l)) (q j)).
  { induction m as [|m IH]; intros j Hj Hk; [lia|]. destruct (H j Hk) as (Hd & He).
    assert (S1 : span (S j) (fun l => ap Pm (v l)) (ap Pm (v j))) by (apply (span_gen N (S j) (fun l => ap Pm (v l)) j); lia).
    assert (S2 : span (S j) (fun l => ap Pm (v l)) (lc j (fun l => Rm l j) q)).
    { apply span_lc. intros l Hl. apply span_le with (S l); [lia|]. apply IH; lia. }
    eapply span_ext; [|exact (span_lin N _ _ (/ Rm j j) _ (- / Rm j j) _ S1 S2)].
    intros a Ha. rewrite (He a Ha). unfold lc. rewrite (sumn_S j). field. exact Hd. }
  intros j Hj. apply (All (S j)); lia.
Qed.
Lemma dependent_singular i v : ortho (S i) v -> span i (fun l => ap Pm (v l)) (ap Pm (v i)) -> singular.
Proof.
  intros O (y & Hy). exists (fun a => 1 * v i a + (-1) * lc i y v a). split.
  - assert (Z0 : dot (lc i y v) (v i) = 0).
    { rewrite dot_lc. apply sumn_zero. intros l Hl. rewrite O, (proj2 (Nat.eqb_neq l i)) by lia. ring. }
    rewrite dot_lin, !dot_lin_r, (dot_comm N (v i) (lc i y v)), Z0, O, Nat.eqb_refl by lia. pose proof (dot_nonneg N (lc i y v)). lra.
  - intros a Ha. rewrite (ap_lin N Pm 1 (v i) (-1) (lc i y v) a Ha), (Hy a Ha), (ap_lc N Pm i y v a Ha). ring.
Qed.

Lemma exact_step i wk e : inv i wk -> (i < ks)%nat ->
  exists st, inner_step E isfin Env mvec precon drotg convTol divTol' i wk e = Ok st /\
  match st with
  | INext _ wk' rn e' => inv (S i) wk' /\ rn = Rabs (gg wk' (S i)) /\ rn <= Rabs (gg wk i) /\ convTol < rn /\ rn < divTol'
  | IBreak _ f wk' rn e' => fin (S i) wk' /\ rn = Rabs (gg wk' (S i)) /\ rn <= Rabs (gg wk i) /\
      ((f = F_success /\ rn <= convTol) \/ (f = F_diverged /\ convTol < rn /\ divTol' <= rn))
  | IFail _ f m e' => f = F_breakdown /\ singular
  end.
Proof.
  intros (OK & (O & Hb0 & Hr1 & Hess) & Hc & Hcol & Hr & Hg0) Hi.
  pose proof OK as ((VR & VC) & (HR & HC) & Ls & Lg & Lp & Lw). unfold inner_step.
  set (v := vcol (k_V wk)) in *. set (c := gc wk) in *. set (s := gs wk) in *.
  destruct (getcol_ent (k_V wk) i ltac:(lia)) as (vi & -> & Lvi & Evi). cbn [bind].
  destruct (HM e vi (k_pv wk) ltac:(lia) Lp) as (e1 & pv & -> & Lpv & Epv). cbn [negb].
  destruct (HA e1 pv (k_w wk) Lpv Lw) as (e2 & w0 & -> & Lw0 & Ew0). cbn [negb].
  assert (Pvi : veq (vn w0) (ap Pm (v i))).
  { apply veq_trans with (ap Am (ap Mm (v i))).
    - intros a Ha. unfold vn. rewrite Ew0 by auto. apply sumn_ext. intros b Hb. f_equal. rewrite Epv by auto. apply sumn_ext. intros d Hd. f_equal. apply Evi. lia.
    - apply ap_ap. }
  destruct (mgs_exact (k_V wk) i w0 (k_H wk) VR ltac:(lia) Lw0 ltac:(lia) ltac:(lia) O) as (w & H1 & -> & Lw1 & R1 & C1 & K1 & W1 & D1). cbn [bind]. fold v in W1, D1.
  rewrite (norm2_exact N w Lw1). set (hn := sqrt (dot (vn w) (vn w))).
  assert (Hhn : hn * hn = dot (vn w) (vn w)) by (apply sqrt_sqrt, dot_nonneg).
  destruct (mset_ent H1 (i + 1) i hn ltac:(lia) ltac:(lia)) as (H2 & -> & R2 & C2 & K2). cbn [bind].
  rewrite E0.
  (* the next column *)
  match goal with |- context [bind (if ?cnd then ?x else Ok (k_V wk)) _] =>
    assert (exists V1, (if cnd then x else Ok (k_V wk)) = Ok V1 /\ mrows V1 = N /\ mcols V1 = (ks + 1)%nat /\
      (forall a b, b <> S i -> ment V1 a b = ment (k_V wk) a b) /\
      (hn <> 0 -> forall a, (a < N)%nat -> hn * ment V1 a (S i) = vn w a)) as (V1 & -> & VR1 & VC1 & VK & VS) end.
  { cbn [exact feq]. unfold Reqb. destruct (Req_EM_T hn 0) as [Z0|NZ]; cbn [negb].
    - exists (k_V wk). split; [reflexivity|]. split; [exact VR|]. split; [exact VC|]. split; [auto|]. intros; lra.
    - match goal with |- context [setcol ?x ?V ?j ?q] => destruct (setcol_ent V j q ltac:(lia)) as (V1 & EV & RV & CV & KV) end; [rewrite map_length; lia|].
      exists V1. split; [exact EV|]. split; [lia|]. split; [lia|]. split.
      + intros a b Hb. rewrite KV, (proj2 (Nat.eqb_neq b (i + 1))) by lia. reflexivity.
      + intros _ a Ha. rewrite KV, (proj2 (Nat.eqb_eq (S i) (i + 1))) by lia.
        rewrite nth_indep with (d' := (fun x => fmul E x (fdiv E (fofn E 1) hn)) 0) by (rewrite map_length; lia).
        rewrite (map_nth (fun x => fmul E x (fdiv E (fofn E 1) hn))), E1. unfold vn. cbn [exact fmul fdiv]. field. exact NZ. }
  cbn [bind].
  destruct (rotate_exact (k_giv wk) i H2 v ltac:(lia) ltac:(lia) ltac:(lia) Hc) as (H3 & -> & R3 & C3 & K3 & Q3). cbn [bind]. fold c s in Q3.
  rewrite !mget_ok by lia. cbn [bind].
  replace (ment H3 (i + 1) i) with hn by (rewrite K3 by lia; rewrite K2, !Nat.eqb_refl; reflexivity).
  set (x := ment H3 i i) in *. pose proof (Hrot x hn) as HD. destruct (drotg x hn) as ((rr & cc) & ss). destruct HD as (HD1 & HD2 & HD3).
  destruct (mset_ent H3 i i rr ltac:(lia) ltac:(lia)) as (H4 & -> & R4 & C4 & K4). cbn [bind].
  destruct (mset_ent H4 (i + 1) i 0 ltac:(lia) ltac:(lia)) as (H5 & -> & R5 & C5 & K5). cbn [bind].
  rewrite setn_ok by lia. cbn [bind].
  (* the product in the rotated basis; u is the direction of the next column *)
  assert (Key : forall u, veq (vn w) (fun a => hn * u a) ->
    let v' := fun m => if (m =? S i)%nat then u else v m in let c' := fun m => if (m =? i)%nat then cc else c m in let s' := fun m => if (m =? i)%nat then ss else s m in
    veq (ap Pm (v i)) (lc (S i) (fun l => ment H5 l i) (Qv v' c' s')) /\
    (forall l a, (l < i)%nat -> Qv v' c' s' l a = Qv v c s l a) /\ (forall a, Tv v' c' s' i a = Tv v c s i a) /\
    veq r0 (fun a => lc i (gg wk) (Qv v' c' s') a + (cc * gg wk i) * Qv v' c' s' i a + (- ss * gg wk i) * Tv v' c' s' (S i) a)).
  { intros u Hu v' c' s'.
    assert (QE : forall l a, (l < i)%nat -> Qv v' c' s' l a = Qv v c s l a).
    { intros l a Hl. apply Qv_ext; intros m Hm; unfold v', c', s'; [|split]; rewrite (proj2 (Nat.eqb_neq m _)) by lia; reflexivity. }
    assert (TE : forall a, Tv v' c' s' i a = Tv v c s i a).
    { intro a. apply Tv_ext; intros m Hm; unfold v', c', s'; [|split]; rewrite (proj2 (Nat.eqb_neq m _)) by lia; reflexivity. }
    assert (ci : c' i = cc) by (unfold c'; now rewrite Nat.eqb_refl). assert (si : s' i = ss) by (unfold s'; now rewrite Nat.eqb_refl).
    assert (vi' : v' (S i) = u) by (unfold v'; now rewrite Nat.eqb_refl).
    assert (RC : forall p q a, p * Tv v c s i a + q * u a = (cc * p + ss * q) * Qv v' c' s' i a + (cc * q - ss * p) * Tv v' c' s' (S i) a).
    { intros p q a. rewrite <- (TE a), <- vi', <- ci, <- si. apply rot_coords. rewrite ci, si. exact HD1. }
    split; [|split; [exact QE|split; [exact TE|]]].
    - intros a Ha. rewrite <- (Pvi a Ha), (W1 a Ha), (Hu a Ha).
      assert (L12 : lc (S i) (fun l => ment H1 l i) v a = lc (S i) (fun l => ment H2 l i) v a).
      { unfold lc. apply sumn_ext. intros l Hl. rewrite K2, (proj2 (Nat.eqb_neq l (i + 1))) by lia. reflexivity. }
      rewrite L12, (Q3 a). fold x. pose proof (RC x hn a) as RCx. rewrite HD2, HD3 in RCx.
      unfold lc. rewrite (sumn_S i). rewrite K5, K4. rewrite (proj2 (Nat.eqb_neq i (i + 1))), !Nat.eqb_refl by lia. cbn [andb].
      rewrite (sumn_ext i (fun l => ment H5 l i * Qv v' c' s' l a) (fun l => ment H3 l i * Qv v c s l a)); [lra|].
      intros l Hl. rewrite K5, K4, (proj2 (Nat.eqb_neq l (i + 1))), (proj2 (Nat.eqb_neq l i)), QE by lia. reflexivity.
    - intros a Ha. rewrite (Hr a Ha). pose proof (RC (gg wk i) 0 a) as RCg.
      assert (LQ : lc i (gg wk) (Qv v' c' s') a = lc i (gg wk) (Qv v c s) a) by (unfold lc; apply sumn_ext; intros; rewrite QE by auto; reflexivity).
      rewrite LQ. lra. }
  (* previous columns of H are untouched *)
  assert (HK : forall l j, (l <= j)%nat -> (j < i)%nat -> ment H5 l j = ment (k_H wk) l j).
  { intros l j Hl Hj. rewrite K5, K4, (proj2 (Nat.eqb_neq j i)), !andb_false_r, K3, K2, (proj2 (Nat.eqb_neq j i)), andb_false_r, K1 by lia. reflexivity. }
  cbn [exact feq]. unfold Reqb. destruct (Req_EM_T rr 0) as [Rz|Rn].
  { (* breakdown *)
    eexists. split; [reflexivity|]. split; [reflexivity|].
    assert (X0 : x = 0) by nra. assert (Hn0 : hn = 0) by nra.
    apply (dependent_singular i v O). apply (span_sub N i i (Qv v c s)); [intros l Hl; apply span_le with (S l); [lia|]; exact (q_image i v _ _ Hcol l Hl)|].
    exists (fun l => ment H3 l i). intros a Ha. rewrite <- (Pvi a Ha), (W1 a Ha).
    assert (L12 : lc (S i) (fun l => ment H1 l i) v a = lc (S i) (fun l => ment H2 l i) v a).
    { unfold lc. apply sumn_ext. intros l Hl. rewrite K2, (proj2 (Nat.eqb_neq l (i + 1))) by lia. reflexivity. }
    rewrite L12, (Q3 a). fold x. rewrite X0. assert (Wz : vn w a = 0) by (apply (dot_zero N (vn w)); [rewrite <- Hhn, Hn0; ring|exact Ha]). rewrite Wz. ring. }
  rewrite (getn_nth (k_s wk) i 0), (getn_nth (k_s wk) (i + 1) 0) by lia. cbn [bind applyGivens].
  rewrite setn_ok by lia. cbn [bind]. rewrite setn_ok by (rewrite upd_length; lia). cbn [bind]. rewrite Hfin. cbn [negb].
  assert (G1 : nth (i + 1) (k_s wk) 0 = 0) by (apply (Hg0 (i + 1)%nat); lia). rewrite G1. change (nth i (k_s wk) 0) with (gg wk i).
  cbn [exact fadd fsub fmul fabs fle]. set (gi := gg wk i) in *.
  replace (cc * 0 - ss * gi) with (- ss * gi) by ring. replace (cc * gi + ss * 0) with (cc * gi) by ring.
  set (wk' := Work V1 H5 (upd (upd (k_s wk) i (cc * gi)) (i + 1) (- ss * gi)) (upd (k_giv wk) i (cc, ss)) pv w).
  assert (OK' : wk_ok N ks wk') by (unfold wk_ok; cbn [k_V k_H k_s k_giv k_pv k_w wk']; rewrite !upd_length; repeat split; lia).
  assert (Gl : forall l, gg wk' l = if (l =? S i)%nat then - ss * gi else if (l =? i)%nat then cc * gi else gg wk l).
  { intro l. unfold vn. cbn [k_s wk']. rewrite nth_upd by (rewrite upd_length; lia). rewrite Nat.add_1_r. destruct (l =? S i)%nat; [reflexivity|]. rewrite nth_upd by lia. reflexivity. }
  assert (Gc : forall j, gc wk' j = (if (j =? i)%nat then cc else c j) /\ gs wk' j = (if (j =? i)%nat then ss else s j)).
  { intro j. cbn [k_giv wk']. rewrite nth_upd by lia. destruct (j =? i)%nat; [split; reflexivity|split; reflexivity]. }
  assert (Gsi : gg wk' (S i) = - ss * gi) by (rewrite Gl, Nat.eqb_refl; reflexivity).
  assert (Ssq : ss * ss <= 1) by nra. assert (Sabs : Rabs (- ss * gi) <= Rabs gi).
  { rewrite Rabs_mult, Rabs_Ropp. pose proof (Rabs_pos gi). assert (Rabs ss <= 1) by (unfold Rabs; destruct (Rcase_abs ss); nra). nra. }
  assert (VC' : forall m a, m <> S i -> vcol V1 m a = v m a) by (intros m a Hm; unfold vcol, v; apply VK; lia).
  (* generic part of the new state, in terms of v' *)
  assert (Main : forall u, veq (vn w) (fun a => hn * u a) ->
    let v' := fun m => if (m =? S i)%nat then u else v m in let c' := fun m => if (m =? i)%nat then cc else c m in let s' := fun m => if (m =? i)%nat then ss else s m in
    (forall j, (j < S i)%nat -> ment H5 j j <> 0 /\ veq (ap Pm (v j)) (lc (S j) (fun l => ment H5 l j) (Qv v' c' s'))) /\
    veq r0 (fun a => lc (S i) (gg wk') (Qv v' c' s') a + gg wk' (S i) * Tv v' c' s' (S i) a)).
  { intros u Hu v' c' s'. destruct (Key u Hu) as (Kp & KQ & KT & Kr). fold v' c' s' in Kp, KQ, KT, Kr. split.
    - intros j Hj. destruct (Nat.eq_dec j i) as [->|].
      + split; [|exact Kp]. rewrite K5, K4, (proj2 (Nat.eqb_neq i (i + 1))), !Nat.eqb_refl by lia. cbn [andb]. exact Rn.
      + destruct (Hcol j ltac:(lia)) as (Hd & He). split; [rewrite HK by lia; exact Hd|]. intros a Ha. rewrite (He a Ha). unfold lc. apply sumn_ext.
        intros l Hl. rewrite HK, KQ by lia. reflexivity.
    - intros a Ha. rewrite (Kr a Ha), Gsi. unfold lc. rewrite (sumn_S i). rewrite Gl, (proj2 (Nat.eqb_neq i (S i))), Nat.eqb_refl by lia. f_equal. f_equal.
      apply sumn_ext. intros l Hl. rewrite Gl, (proj2 (Nat.eqb_neq l (S i))), (proj2 (Nat.eqb_neq l i)) by lia. reflexivity. }
  assert (Bas : basis (S i) (vcol V1)).
  { split; [|split; [exact Hb0|split]].
    - intros j l Hj Hl. rewrite (dot_ext N (vcol V1 j) (v j) (vcol V1 l) (v l)); [apply O; lia| |]; intros a Ha; apply VC'; lia.
    - intros a Ha. rewrite VC' by lia. exact (Hr1 a Ha).
    - intros j Hj. destruct (Hess j ltac:(lia)) as (h & Hh & He). exists h. split; [exact Hh|].
      apply veq_trans with (ap Pm (v j)); [apply ap_ext; intros a Ha; apply VC'; lia|].
      eapply veq_trans; [exact He|]. intros a Ha. unfold lc. apply sumn_ext. intros l Hl. rewrite VC' by lia. reflexivity. }
  assert (Full : hn <> 0 -> inv (S i) wk').
  { intro Hn. assert (Hu : veq (vn w) (fun a => hn * vcol V1 (S i) a)) by (intros a Ha; symmetry; apply VS; auto).
    destruct (Main _ Hu) as (M1 & M2).
    set (v' := fun m => if (m =? S i)%nat then vcol V1 (S i) else v m) in *. set (c' := fun m => if (m =? i)%nat then cc else c m) in *. set (s' := fun m => if (m =? i)%nat then ss else s m) in *.
    assert (VV : forall m a, (m <= S i)%nat -> vcol V1 m a = v' m a).
    { intros m a Hm. unfold v'. destruct (Nat.eqb_spec m (S i)) as [->|]; [reflexivity|apply VC'; lia]. }
    assert (QQ : forall l a, (l <= i)%nat -> Qv (vcol V1) (gc wk') (gs wk') l a = Qv v' c' s' l a).
    { intros l a Hl. apply Qv_ext; [intros; apply VV; lia|]. intros m Hm. exact (Gc m). }
    assert (TT : forall a, Tv (vcol V1) (gc wk') (gs wk') (S i) a = Tv v' c' s' (S i) a).
    { intros a. apply Tv_ext; [intros; apply VV; lia|]. intros m Hm. exact (Gc m). }
    assert (Wv : forall l, (l <= i)%nat -> dot (vcol V1 (S i)) (v l) = 0).
    { intros l Hl. specialize (D1 l Hl). rewrite (dot_ext N _ _ _ _ (veq_refl N _) Hu) in D1.
      rewrite (dot_ext N (v l) (v l) (fun a => hn * vcol V1 (S i) a) (fun a => hn * vcol V1 (S i) a + 0 * 0)) in D1; [|apply veq_refl|intros a _; ring].
      rewrite (dot_lin_r N hn _ 0 (fun _ => 0)) in D1. rewrite dot_comm. nra. }
    assert (Wu : dot (vcol V1 (S i)) (vcol V1 (S i)) = 1).
    { rewrite (dot_ext N _ _ _ _ Hu Hu) in Hhn.
      rewrite (dot_ext N (fun a => hn * vcol V1 (S i) a) (fun a => hn * vcol V1 (S i) a + 0 * 0) (fun a => hn * vcol V1 (S i) a) (fun a => hn * vcol V1 (S i) a + 0 * 0)) in Hhn
        by (intros a _; ring).
      rewrite (dot_lin N hn _ 0 (fun _ => 0)), !(dot_lin_r N hn _ 0 (fun _ => 0)) in Hhn. apply (Rmult_eq_reg_l (hn * hn)); [lra|]. intro Q. destruct (Rmult_integral _ _ Q); contradiction. }
    unfold inv. cbn [k_V k_H wk']. split; [exact OK'|]. split; [|split; [|split; [|split]]].
    - destruct Bas as (BO & B1 & B2 & B3). split; [|split; [exact B1|split; [exact B2|]]].
      + intros j l Hj Hl. destruct (Nat.eq_dec j (S i)) as [->|Nj]; destruct (Nat.eq_dec l (S i)) as [->|Nl].
        * rewrite Nat.eqb_refl. exact Wu.
        * rewrite (proj2 (Nat.eqb_neq (S i) l)) by lia. rewrite (dot_ext N _ _ _ (v l) (veq_refl N _)); [apply Wv; lia|]. intros a Ha. apply VC'. lia.
        * rewrite (proj2 (Nat.eqb_neq j (S i))) by lia. rewrite dot_comm, (dot_ext N _ _ _ (v j) (veq_refl N _)); [apply Wv; lia|]. intros a Ha. apply VC'. lia.
        * apply BO; lia.
      + intros j Hj. destruct (Nat.eq_dec j i) as [->|]; [|apply B3; lia].
        exists (fun l => if (l =? S i)%nat then hn else ment H1 l i). rewrite Nat.eqb_refl. split; [exact Hn|].
        apply veq_trans with (ap Pm (v i)); [apply ap_ext; intros a Ha; apply VC'; lia|]. intros a Ha. rewrite <- (Pvi a Ha), (W1 a Ha), (Hu a Ha). unfold lc. rewrite (sumn_S (S i)), Nat.eqb_refl.
        rewrite (sumn_ext (S i) (fun l => (if (l =? S i)%nat then hn else ment H1 l i) * vcol V1 l a) (fun l => ment H1 l i * v l a)); [ring|].
        intros l Hl. rewrite (proj2 (Nat.eqb_neq l (S i))), VC' by lia. reflexivity.
    - intros j Hj. destruct (Gc j) as (Gc1 & Gc2). cbv beta in Gc1, Gc2. rewrite Gc1, Gc2. destruct (Nat.eqb_spec j i) as [->|]; [exact HD1|apply Hc; lia].
    - intros j Hj. destruct (M1 j Hj) as (M1a & M1b). split; [exact M1a|].
      apply veq_trans with (ap Pm (v j)); [apply ap_ext; intros a Ha; apply VC'; lia|]. eapply veq_trans; [exact M1b|]. intros a Ha. unfold lc. apply sumn_ext. intros l Hl. rewrite QQ by lia. reflexivity.
    - intros a Ha. rewrite (M2 a Ha), TT. f_equal. unfold lc. apply sumn_ext. intros l Hl. rewrite QQ by lia. reflexivity.
    - intros l Hl. rewrite Gl, (proj2 (Nat.eqb_neq l (S i))), (proj2 (Nat.eqb_neq l i)) by lia. apply Hg0. lia. }
  assert (Stop : hn = 0 -> gg wk' (S i) = 0 /\ fin (S i) wk').
  { intro Hn. assert (X0 : x <> 0) by (intro Q; apply Rn; rewrite <- HD2, Q, Hn; ring).
    assert (S0 : ss = 0) by (rewrite Hn in HD3; destruct (Rmult_integral ss x ltac:(lra)); [assumption|contradiction]). assert (Gz : gg wk' (S i) = 0) by (rewrite Gsi, S0; ring). split; [exact Gz|].
    assert (Hu : veq (vn w) (fun a => hn * 0)) by (intros a Ha; rewrite Rmult_0_r; apply (dot_zero N (vn w)); [rewrite <- Hhn, Hn; ring|exact Ha]).
    destruct (Main (fun _ => 0) Hu) as (M1 & M2).
    set (v' := fun m => if (m =? S i)%nat then (fun _ : nat => 0) else v m) in *. set (c' := fun m => if (m =? i)%nat then cc else c m) in *. set (s' := fun m => if (m =? i)%nat then ss else s m) in *.
    destruct (Key (fun _ => 0) Hu) as (_ & KQ & KT & _). fold v' c' s' in KQ, KT.
    split; [exact OK'|]. split; [exact Bas|]. exists (Qv v' c' s'), (fun _ => 0).
    assert (Qi : forall a, Qv v' c' s' i a = cc * Tv v c s i a) .
    { intro a. unfold Qv. rewrite KT. unfold c', s', v'. rewrite !Nat.eqb_refl. ring. }
    assert (D : forall l, (l < i)%nat -> dot (Qv v' c' s' l) (Qv v' c' s' i) = 0).
    { intros l Hl. rewrite (dot_ext N _ (Qv v c s l) _ (fun a => cc * Tv v c s i a + 0 * 0)); [|intros a _; apply KQ; exact Hl|intros a _; rewrite Qi; ring].
      rewrite (dot_lin_r N cc _ 0 (fun _ => 0)), (Q_T N v c s i O Hc l i) by lia. ring. }
    split; [|split; [|split; [right; exact Gz|split]]].
    - intros j l Hj Hl. destruct (Nat.eq_dec j i) as [->|Nj]; destruct (Nat.eq_dec l i) as [->|Nl].
      + rewrite Nat.eqb_refl. rewrite (dot_ext N _ (fun a => cc * Tv v c s i a + 0 * 0) _ (fun a => cc * Tv v c s i a + 0 * 0)) by (intros a _; rewrite Qi; ring).
        rewrite (dot_lin N cc _ 0 (fun _ => 0)), !(dot_lin_r N cc _ 0 (fun _ => 0)), (T_unit N v c s i O Hc i) by lia. nra.
      + rewrite (proj2 (Nat.eqb_neq i l)), dot_comm by lia. apply D. lia.
      + rewrite (proj2 (Nat.eqb_neq j i)) by lia. apply D. lia.
      + rewrite (dot_ext N _ (Qv v c s j) _ (Qv v c s l)); [apply (Q_ortho N v c s i O Hc); lia| |]; intros a _; apply KQ; lia.
    - intros l Hl. unfold GmresSpec.dot. apply sumn_zero. intros. ring.
    - intros j Hj. destruct (M1 j Hj) as (M1a & M1b). split; [exact M1a|].
      apply veq_trans with (ap Pm (v j)); [apply ap_ext; intros a Ha; apply VC'; lia|exact M1b].
    - intros a Ha. rewrite (M2 a Ha), Gz. ring. }
  assert (Done : fin (S i) wk') by (destruct (Req_EM_T hn 0) as [Z0|NZ]; [exact (proj2 (Stop Z0))|exact (inv_fin _ _ (Full NZ))]).
  unfold Rleb. destruct (Rle_dec (Rabs (- ss * gi)) convTol) as [L1|L1].
  { eexists. split; [reflexivity|]. cbv beta iota. rewrite Gsi. split; [exact Done|]. split; [reflexivity|]. split; [exact Sabs|]. left. auto. }
  destruct (Rle_dec divTol' (Rabs (- ss * gi))) as [L2|L2].
  { eexists. split; [reflexivity|]. cbv beta iota. rewrite Gsi. split; [exact Done|]. split; [reflexivity|]. split; [exact Sabs|]. right. split; [reflexivity|lra]. }
  eexists. split; [reflexivity|]. cbv beta iota. rewrite Gsi. split; [|split; [reflexivity|split; [exact Sabs|lra]]]. apply Full. intro Z0.
  destruct (Stop Z0) as (Gz & _). rewrite Gsi in Gz. rewrite Gz, Rabs_R0 in L1. lra.
Qed.

Lemma exact_inner n : forall i inner wk rn e, inv i wk -> (i + n = ks)%nat -> rn = Rabs (gg wk i) ->
  exists res, inner_loop E isfin Env mvec precon drotg convTol divTol' n i inner wk rn e = Ok res /\
  match res with
  | IUpdate _ f iu inn wk' rn' e' => fin iu wk' /\ rn' = Rabs (gg wk' iu) /\ rn' <= rn /\ (iu <= ks)%nat /\ ((0 < n)%nat -> (inn + 1 = iu)%nat) /\
     ((f = F_unconverged /\ iu = ks /\ inv ks wk' /\ ((0 < n)%nat -> convTol < rn' < divTol')) \/ (f = F_success /\ rn' <= convTol) \/ (f = F_diverged /\ convTol < rn' /\ divTol' <= rn'))
  | IReturn _ f m inn e' => f = F_breakdown /\ singular
  end.
Proof.
  induction n as [|n IH]; intros i inner wk rn e HI Hi Hrn; cbn [inner_loop].
  - assert (i = ks) by lia. subst i. eexists. split; [reflexivity|]. cbv beta iota. split; [apply inv_fin; exact HI|]. split; [exact Hrn|]. split; [lra|]. split; [lia|]. split; [lia|].
    left. split; [reflexivity|]. split; [reflexivity|]. split; [exact HI|lia].
  - destruct (exact_step i wk e HI ltac:(lia)) as (st & -> & Hst). cbn [bind]. destruct st as [wk' rn' e'|f wk' rn' e'|f m e'].
    + destruct Hst as (HI' & Er & Hle & H1 & H2). destruct n as [|n].
      { cbn [inner_loop]. assert (S i = ks) by lia. eexists. split; [reflexivity|]. cbv beta iota. split; [apply inv_fin; exact HI'|]. split; [exact Er|]. split; [lra|]. split; [lia|]. split; [lia|].
        left. split; [reflexivity|]. split; [assumption|]. split; [now replace ks with (S i)|lra]. }
      destruct (IH (S i) i wk' rn' e' HI' ltac:(lia) Er) as (res & -> & Hres).
      exists res. split; [reflexivity|]. destruct res as [f iu inn wk2 rn2 e2|f m inn e2]; [|exact Hres].
      destruct Hres as (F1 & F2 & F3 & F4 & F5 & F6). split; [exact F1|]. split; [exact F2|]. split; [lra|]. split; [exact F4|]. split; [intros _; apply F5; lia|].
      destruct F6 as [(-> & F7 & F8 & F9) | F6]; [left|right; exact F6]. split; [reflexivity|]. split; [exact F7|]. split; [exact F8|].
      intros _. apply F9. lia.
    + destruct Hst as (HF & Er & Hle & Hf). eexists. split; [reflexivity|]. cbv beta iota. rewrite Nat.add_1_r. split; [exact HF|]. split; [exact Er|]. split; [lra|]. split; [lia|]. split; [lia|].
      right. exact Hf.
    + eexists. split; [reflexivity|]. exact Hst.
Qed.
End Cyc.

Lemma nth_concat {X} r (ls : list (list X)) : (forall l, In l ls -> length l = r) -> forall j i d, (j < length ls)%nat -> (i < r)%nat ->
  nth (i + j * r) (concat ls) d = nth i (nth j ls []) d.
Proof.
  induction ls as [|l ls IH]; intros H j i d Hj Hi; [cbn in Hj; lia|]. cbn [concat]. assert (Ll : length l = r) by (apply H; left; reflexivity). destruct j as [|j].
  - rewrite Nat.mul_0_l, Nat.add_0_r. cbn [nth]. apply app_nth1. lia.
  - rewrite app_nth2 by lia. cbn [nth]. replace (i + S j * r - length l)%nat with (i + j * r)%nat by (rewrite Ll; lia).
    apply IH; [intros; apply H; right; auto|cbn in Hj; lia|exact Hi].
Qed.
Lemma flat_cm_ent (m : mat R) i j : (i < mrows m)%nat -> (j < mcols m)%nat -> cm (mrows m) (flat_cm m) i j = ment m i j.
Proof.
  intros Hi Hj. unfold cm, flat_cm. rewrite nth_concat.
  - rewrite nth_indep with (d' := (fun j => map (fun i => ment m i j) (seq 0 (mrows m))) 0%nat) by (rewrite map_length, seq_length; lia).
    rewrite (map_nth (fun j => map (fun i => ment m i j) (seq 0 (mrows m)))), seq_nth by lia.
    rewrite nth_indep with (d' := (fun i => ment m i j) 0%nat) by (rewrite map_length, seq_length; lia). rewrite (map_nth (fun i => ment m i (0 + j)%nat)), seq_nth by lia. reflexivity.
  - intros l Hl. apply in_map_iff in Hl. destruct Hl as (x & <- & _). now rewrite map_length, seq_length.
  - rewrite map_length, seq_length. exact Hj.
  - exact Hi.
Qed.
Lemma flat_cm_length (m : mat R) : length (flat_cm m) = (mcols m * mrows m)%nat.
Proof.
  unfold flat_cm.
  assert (H : forall n k, length (concat (map (fun j => map (fun i => ment m i j) (seq 0 (mrows m))) (seq k n))) = (n * mrows m)%nat).
  { induction n as [|n IH]; intro k; [reflexivity|]. cbn [seq map concat]. rewrite app_length, IH, map_length, seq_length. lia. }
  apply H.
Qed.

Variable dtrsv : nat -> nat -> list R -> list R -> list R.
Variable dgemv : nat -> nat -> nat -> list R -> list R -> list R.
Hypothesis Htrsv : forall n lda a x, length (dtrsv n lda a x) = length x.
Hypothesis Hgemv : forall m n lda a x, length (dgemv m n lda a x) = m.
Hypothesis Htrsv2 : dtrsv_spec dtrsv.
Hypothesis Hgemv2 : dgemv_spec dgemv.
Variable bv : list R.
Hypothesis Lbv : length bv = N.
Local Notation rof := (resid_of N Am (vn bv)).
Local Notation rnorm := (resnorm N Am (vn bv)).
Local Notation opt := (optimal N Am Mm (vn bv)).

Lemma rof_ext x y : veq x y -> veq (rof x) (rof y).
Proof. intros H a Ha. unfold resid_of. rewrite (ap_ext N Am x y H a Ha). reflexivity. Qed.
Lemma rnorm_ext x y : veq x y -> rnorm x = rnorm y.
Proof. intro H. unfold resnorm. f_equal. apply dot_ext; apply rof_ext; exact H. Qed.
Lemma rof_update r0 x z : veq r0 (rof x) -> veq (rof (fun a => x a + ap Mm z a)) (fun a => r0 a - ap Pm z a).
Proof.
  intros H a Ha. rewrite (H a Ha). unfold resid_of. pose proof (ap_ap N Am Mm z a Ha) as AA. fold Pm in AA. rewrite <- AA.
  rewrite (ap_ext N Am (fun a => x a + ap Mm z a) (fun a => 1 * x a + 1 * ap Mm z a) ltac:(intros q _; ring) a Ha), (ap_lin N Am 1 x 1 (ap Mm z) a Ha). ring.
Qed.

Lemma cycle_update r0 beta k wk x : fin r0 beta k wk -> (1 <= k <= ks)%nat -> length x = N -> veq r0 (rof (vn x)) ->
  exists y w1, backSolve dtrsv k (k_H wk) (k_s wk) = Ok y /\ matTimesVec dgemv k (k_V wk) y (k_w wk) = Ok w1 /\ length y = (ks + 1)%nat /\ length w1 = N /\
    forall pv x', length pv = N -> (forall a, (a < N)%nat -> nth a pv 0 = sumn N (fun b => Mm a b * nth b w1 0)) ->
      (forall a, (a < N)%nat -> nth a x' 0 = nth a x 0 + nth a pv 0) ->
      rnorm (vn x') = Rabs (vn (k_s wk) k) /\ opt k (vn x) (vn x').
Proof.
  intros (OK & (O & Hb0 & Hr1 & Hess) & q & t & HQ & HQT & HT & Hcol & Hr) Hk Lx Hx.
  pose proof OK as ((VR & VC) & (HR & HC) & Ls & Lg & Lp & Lw).
  unfold backSolve. rewrite (proj2 (Nat.leb_le k (mrows (k_H wk))) ltac:(lia)), (proj2 (Nat.leb_le k (mcols (k_H wk))) ltac:(lia)),
    (proj2 (Nat.leb_le k (length (k_s wk))) ltac:(lia)). cbn [andb].
  set (y := dtrsv k (mrows (k_H wk)) (flat_cm (k_H wk)) (k_s wk)). assert (Ly : length y = (ks + 1)%nat) by (unfold y; rewrite Htrsv; exact Ls).
  unfold matTimesVec. exists y. rewrite (proj2 (Nat.leb_le k (mcols (k_V wk))) ltac:(lia)), (proj2 (Nat.leb_le k (length y)) ltac:(lia)),
    (proj2 (Nat.eqb_eq (mrows (k_V wk)) (length (k_w wk))) ltac:(lia)). cbn [andb].
  set (w1 := dgemv (mrows (k_V wk)) k (mrows (k_V wk)) (flat_cm (k_V wk)) y). exists w1. split; [reflexivity|]. split; [reflexivity|]. split; [exact Ly|].
  assert (Lw1 : length w1 = N) by (unfold w1; rewrite Hgemv; exact VR). split; [exact Lw1|].
  assert (Ty : forall l, (l < k)%nat -> tri k (ment (k_H wk)) (vn y) l = vn (k_s wk) l).
  { destruct (Htrsv2 k (mrows (k_H wk)) (flat_cm (k_H wk)) (k_s wk)) as (T1 & _); [lia|rewrite flat_cm_length; nia|lia| |].
    - intros l Hl. rewrite flat_cm_ent by lia. apply Hcol. exact Hl.
    - intros l Hl. fold y in T1. unfold vn at 2. rewrite <- (T1 l Hl). unfold tri. apply sumn_ext. intros j Hj. rewrite flat_cm_ent by lia. reflexivity. }
  assert (Ew1 : veq (vn w1) (lc k (vn y) (vcol (k_V wk)))).
  { intros a Ha. unfold vn at 1, w1. rewrite Hgemv2; [|lia|rewrite flat_cm_length; nia|lia|lia].
    apply sumn_ext. intros j Hj. rewrite flat_cm_ent by lia. unfold vn, vcol. ring. }
  assert (Res : forall y', dot (fun a => r0 a - ap Pm (lc k y' (vcol (k_V wk))) a) (fun a => r0 a - ap Pm (lc k y' (vcol (k_V wk))) a) =
     sumn k (fun l => (vn (k_s wk) l - tri k (ment (k_H wk)) y' l) * (vn (k_s wk) l - tri k (ment (k_H wk)) y' l)) + vn (k_s wk) k * vn (k_s wk) k).
  { intro y'. apply (residual_norm2 N Pm k (vcol (k_V wk)) q t (ment (k_H wk)) (vn (k_s wk)) r0 HQ HQT HT); [intros j Hj; apply Hcol; exact Hj|exact Hr]. }
  intros pv x' Lpv Epv Ex'. set (z := lc k (vn y) (vcol (k_V wk))).
  assert (Xz : veq (vn x') (fun a => vn x a + ap Mm z a)).
  { intros a Ha. unfold vn at 1. rewrite Ex' by auto. unfold vn at 1. f_equal. rewrite Epv by auto. apply sumn_ext. intros b Hb. f_equal. exact (Ew1 b Hb). }
  assert (Rx' : rnorm (vn x') = Rabs (vn (k_s wk) k)).
  { rewrite (rnorm_ext _ _ Xz). unfold resnorm. rewrite (dot_ext N _ _ _ _ (rof_update r0 (vn x) z Hx) (rof_update r0 (vn x) z Hx)). unfold z. rewrite (Res (vn y)).
    rewrite sumn_zero by (intros l Hl; rewrite Ty by auto; ring). rewrite Rplus_0_l. apply sqrt_Rsqr_abs. }
  split; [exact Rx'|].
  (* spans *)
  assert (SE : forall u, span k (kry N Pm (rof (vn x))) u <-> span k (vcol (k_V wk)) u).
  { assert (Hr1' : veq (rof (vn x)) (fun a => beta * vcol (k_V wk) 0%nat a)) by (eapply veq_trans; [apply veq_sym; exact Hx|exact Hr1]).
    intro u. split; intro Hu.
    - apply (span_sub N k k (kry N Pm (rof (vn x)))); [|exact Hu]. intros l Hl. apply span_le with (S l); [lia|].
      apply (krylov_in_v N Pm (rof (vn x)) (vcol (k_V wk)) (k - 1) beta Hr1'); [intros j Hj; apply Hess; lia|lia].
    - apply (span_sub N k k (vcol (k_V wk))); [|exact Hu]. intros l Hl. apply span_le with (S l); [lia|].
      apply (v_in_krylov N Pm (rof (vn x)) (vcol (k_V wk)) (k - 1) beta Hb0 Hr1'); [intros j Hj; apply Hess; lia|lia]. }
  split.
  - exists z. split; [apply SE; exists (vn y); apply veq_refl|exact Xz].
  - intros u Hu. apply SE in Hu. destruct Hu as (y' & Hy'). rewrite Rx'.
    assert (Ez : veq (fun a => vn x a + ap Mm u a) (fun a => vn x a + ap Mm (lc k y' (vcol (k_V wk))) a)) by (intros a Ha; rewrite (ap_ext N Mm u _ Hy' a Ha); reflexivity).
    rewrite (rnorm_ext _ _ Ez). unfold resnorm.
    rewrite (dot_ext N _ _ _ _ (rof_update r0 (vn x) _ Hx) (rof_update r0 (vn x) _ Hx)), (Res y'). rewrite <- sqrt_Rsqr_abs. apply sqrt_le_1_alt.
    assert (0 <= sumn k (fun l => (vn (k_s wk) l - tri k (ment (k_H wk)) y' l) * (vn (k_s wk) l - tri k (ment (k_H wk)) y' l))) by (apply sumn_nonneg; intros l Hl; exact (Rle_0_sqr (vn (k_s wk) l - tri k (ment (k_H wk)) y' l))).
    unfold Rsqr. lra.
Qed.

Variable p : @gparams R.
Variable bnrmInv : R.
Local Notation outer := (outer_loop E isfin Env mvec precon dtrsv dgemv drotg p ks bv bnrmInv convTol divTol').
Local Notation restart := (restarts N Am Mm (vn bv) ks).
Hypothesis Hks : (1 <= ks)%nat.

Lemma exact_outer x0 n : forall k inner out wk x r rn e, wk_ok N ks wk -> length x = N -> length r = N -> veq (vn r) (rof (vn x)) -> rn = rnorm (vn x) -> convTol < rn ->
  restart k (vn x0) (vn x) -> (k = 0%nat \/ (inner + 1 = ks /\ out + 1 = k)%nat /\ exists xm, restart out (vn x0) xm /\ opt (inner + 1) xm (vn x)) ->
  exists res, outer n k inner out wk x r rn e = Ok res /\
  match res with
  | ODone _ f test inn ok x' w rn' e' => length x' = N /\ length w = N /\ rn' = rnorm (vn x') /\ rn' <= rn /\
      ((k + n = 0)%nat \/ exists xm, restart ok (vn x0) xm /\ opt (inn + 1) xm (vn x')) /\
      ((f = F_success /\ rn' <= convTol) \/ (f = F_diverged /\ convTol < rn' /\ divTol' <= rn') \/ ((f = F_stagnation \/ f = F_unconverged) /\ convTol < rn')) /\
      (ks = N -> rn < divTol' -> (0 < n)%nat -> f = F_success)
  | OReturn _ g x' e' => length x' = N /\ g_flag g = F_breakdown /\ singular
  end.
Proof.
  induction n as [|n IH]; intros k inner out wk x r rn e OK Lx Lr Hx Hrn Hgt Hch Hhist; cbn [outer_loop].
  - eexists. split; [reflexivity|]. cbv beta iota. split; [exact Lx|]. split; [apply OK|]. split; [exact Hrn|]. split; [lra|]. split.
    + destruct Hhist as [-> | (_ & H)]; [left; lia|right; exact H].
    + split; [right; right; split; [right; reflexivity|exact Hgt]|lia].
  - destruct OK as ((VR & VC) & (HR & HC) & Ls & Lg & Lp & Lw).
    assert (Rn0 : rn <> 0) by lra.
    match goal with |- context [setcol E (k_V wk) 0 ?q] => destruct (setcol_ent (k_V wk) 0 q ltac:(lia)) as (V0 & -> & VR0 & VC0 & VK); [rewrite map_length; lia|] end. cbn [bind].
    rewrite setn_ok by (rewrite map_length; lia). cbn [bind].
    set (s0 := upd (map (fun _ => fofn E 0) (k_s wk)) 0 rn).
    set (wk0 := Work V0 (k_H wk) s0 (k_giv wk) (k_pv wk) (k_w wk)).
    assert (V00 : forall a, (a < N)%nat -> rn * vcol V0 0 a = vn r a).
    { intros a Ha. unfold vcol. rewrite VK, Nat.eqb_refl. rewrite nth_indep with (d' := (fun v => fmul E v (fdiv E (fofn E 1) rn)) 0) by (rewrite map_length; lia).
      rewrite (map_nth (fun v => fmul E v (fdiv E (fofn E 1) rn))), E1. unfold vn. cbn [exact fmul fdiv]. field. exact Rn0. }
    assert (G0 : forall l, vn s0 l = if (l =? 0)%nat then rn else 0).
    { intro l. unfold vn, s0. rewrite nth_upd by (rewrite map_length; lia). destruct (l =? 0)%nat; [reflexivity|].
      destruct (Nat.lt_ge_cases l (length (k_s wk))).
      - rewrite nth_indep with (d' := (fun _ : R => fofn E 0) 0) by (rewrite map_length; lia). rewrite (map_nth (fun _ : R => fofn E 0) (k_s wk) 0 l). reflexivity.
      - apply nth_overflow. rewrite map_length. lia. }
    assert (Rsq : dot (vn r) (vn r) = rn * rn).
    { rewrite Hrn. unfold resnorm. rewrite sqrt_sqrt by apply dot_nonneg. apply dot_ext; exact Hx. }
    assert (I0 : inv (vn r) rn 0 wk0).
    { split; [unfold wk_ok; cbn [k_V k_H k_s k_giv k_pv k_w wk0]; unfold s0; rewrite upd_length, map_length; repeat split; lia|].
      cbn [k_V k_H k_s wk0]. split; [|split; [intros; lia|split; [intros; lia|split]]].
      - split; [|split; [exact Rn0|split; [intros a Ha; symmetry; apply V00; exact Ha|intros; lia]]].
        intros j l Hj Hl. assert (j = 0)%nat by lia. assert (l = 0)%nat by lia. subst j l. rewrite Nat.eqb_refl.
        assert (Vr : veq (vn r) (fun a => rn * vcol V0 0 a + 0 * 0)) by (intros a Ha; rewrite <- (V00 a Ha); ring).
        rewrite (dot_ext N _ _ _ _ Vr Vr), (dot_lin N rn _ 0 (fun _ => 0)), !(dot_lin_r N rn _ 0 (fun _ => 0)) in Rsq.
        apply (Rmult_eq_reg_l (rn * rn)); [lra|]. intro Q. destruct (Rmult_integral _ _ Q); contradiction.
      - intros a Ha. rewrite <- (V00 a Ha), G0. unfold lc. rewrite sumn_0. cbn [Nat.eqb Tv]. ring.
      - intros l Hl. rewrite G0, (proj2 (Nat.eqb_neq l 0)) by lia. reflexivity. }
    assert (Rabs0 : rn = Rabs (vn (k_s wk0) 0)) by (cbn [k_s wk0]; rewrite G0; cbn [Nat.eqb]; rewrite Rabs_pos_eq; lra).
    destruct (exact_inner (vn r) rn ks 0 inner wk0 rn e I0 ltac:(lia) Rabs0) as (ir & -> & Hir). cbn [bind].
    destruct ir as [f iu inn wk1 rn1 e1|f m inn e1].
    2:{ destruct Hir as (-> & Hsg). eexists. split; [reflexivity|]. split; [exact Lx|]. split; [reflexivity|exact Hsg]. }
    destruct Hir as (HF & Er1 & Hle1 & Hiu & Hinn & Hf). specialize (Hinn ltac:(lia)).
    pose proof HF as (OK1 & _). pose proof OK1 as ((VR1 & VC1) & (HR1 & HC1) & Ls1 & Lg1 & Lp1 & Lw1).
    destruct (cycle_update (vn r) rn iu wk1 x HF ltac:(lia) Lx Hx) as (y & w1 & -> & E2 & Ly & Lw1' & Hcyc). cbn [bind]. rewrite E2. cbn [bind].
    destruct (HM e1 w1 (k_pv wk1) Lw1' Lp1) as (e2 & pv & -> & Lpv & Epv). cbn [negb].
    destruct (vmap2_exact (fadd E) x pv ltac:(lia)) as (x' & -> & Lx' & Ex'). cbn [bind]. rewrite Lx in Lx'.
    destruct (Hcyc pv x' Lpv Epv ltac:(intros a Ha; rewrite Ex' by lia; reflexivity)) as (Rx' & Ox'). rewrite <- Er1 in Rx'. rewrite <- Hinn in Ox'.
    assert (Hxm : exists xm, restart k (vn x0) xm /\ opt (inn + 1) xm (vn x')) by eauto.
    destruct Hf as [(-> & Hiu' & Hinv & Hb) | Hf].
    2:{ assert (Em : (match f with F_unconverged => UB | _ => Ok (ODone Env f (testTrueRnrm p) inn k x' w1 rn1 e2) end) = Ok (ODone Env f (testTrueRnrm p) inn k x' w1 rn1 e2))
          by (destruct Hf as [(-> & _) | (-> & _)]; reflexivity).
        exists (ODone Env f (testTrueRnrm p) inn k x' w1 rn1 e2). split; [destruct Hf as [(-> & _) | (-> & _)]; reflexivity|].
        split; [exact Lx'|]. split; [exact Lw1'|]. split; [symmetry; exact Rx'|]. split; [exact Hle1|]. split; [right; exact Hxm|]. split.
        - destruct Hf as [Hf|Hf]; [left; exact Hf|right; left; exact Hf].
        - intros _ Hd _. destruct Hf as [(-> & _) | (_ & _ & Hf)]; [reflexivity|]. lra. }
    specialize (Hb ltac:(lia)).
    destruct (HA e2 x' w1 Lx' Lw1') as (e3 & w2 & -> & Lw2 & Ew2). cbn [negb].
    destruct (vmap2_exact (fsub E) bv w2 ltac:(lia)) as (r' & -> & Lr' & Er'). cbn [bind]. rewrite Lbv in Lr'.
    assert (Hx' : veq (vn r') (rof (vn x'))).
    { intros a Ha. unfold vn at 1. rewrite Er' by lia. cbn [exact fsub]. unfold resid_of. unfold vn at 1. f_equal. rewrite Ew2 by auto. reflexivity. }
    assert (Nr' : norm2 E r' = rn1).
    { rewrite (norm2_exact N r' Lr'), <- Rx'. unfold resnorm. f_equal. apply dot_ext; exact Hx'. }
    rewrite Nr', Hfin. cbn [negb]. cbn [exact fle]. unfold Rleb.
    destruct (Rle_dec rn1 convTol) as [L1|L1].
    { eexists. split; [reflexivity|]. cbv beta iota. split; [exact Lx'|]. split; [exact Lw2|]. split; [auto|]. split; [exact Hle1|]. split; [right; exact Hxm|]. split; [left; auto|auto]. }
    destruct (Rle_dec divTol' rn1) as [L2|L2]; [lra|].
    assert (NoFull : ks = N -> False).
    { intro Q. destruct Hinv as (_ & (O & _) & _). pose proof (ortho_le N (S ks) _ O). lia. }
    destruct (stagnated (exact G) (stgTol p) x' pv).
    { eexists. split; [reflexivity|]. cbv beta iota. split; [exact Lx'|]. split; [exact Lw2|]. split; [auto|]. split; [exact Hle1|]. split; [right; exact Hxm|]. split; [right; right; split; [auto|lra]|].
      intros Q. destruct (NoFull Q). }
    set (wk2 := Work (k_V wk1) (k_H wk1) y (k_giv wk1) pv w2).
    assert (OK2 : wk_ok N ks wk2) by (unfold wk_ok; cbn [k_V k_H k_s k_giv k_pv k_w wk2]; repeat split; lia).
    assert (Hch' : restart (S k) (vn x0) (vn x')) by (apply restarts_S with (vn x); [exact Hch|rewrite <- Hiu', <- Hinn; exact Ox']).
    destruct (IH (S k) inn k wk2 x' r' rn1 e3 OK2 Lx' ltac:(lia) Hx' ltac:(auto) ltac:(lra) Hch' ltac:(right; split; [lia|eauto])) as (res & -> & Hres).
    exists res. split; [reflexivity|]. destruct res as [f test inn' ok' x2 w3 rn2 e4|g x2 e4]; [|exact Hres].
    destruct Hres as (H1 & H2 & H3 & H4 & H5 & H6 & H7). split; [exact H1|]. split; [exact H2|]. split; [exact H3|]. split; [lra|]. split; [destruct H5 as [H5|H5]; [lia|right; exact H5]|].
    split; [exact H6|]. intro Q. destruct (NoFull Q).
Qed.
End Exact.

Section ExactRun.
Variable G : R -> R.
Local Notation E := (exact G).
Variable isfin : R -> bool.
Hypothesis Hfin : forall t, isfin t = true.
Variable Env : Type.
Variable mvec precon : Env -> list R -> list R -> Env * bool * list R.
Variable dtrsv : nat -> nat -> list R -> list R -> list R.
Variable dgemv : nat -> nat -> nat -> list R -> list R -> list R.
Variable drotg : R -> R -> R * R * R.
Hypothesis Htrsv : forall n lda a x, length (dtrsv n lda a x) = length x.
Hypothesis Hgemv : forall m n lda a x, length (dgemv m n lda a x) = m.
Hypothesis Htrsv2 : dtrsv_spec dtrsv.
Hypothesis Hgemv2 : dgemv_spec dgemv.
Hypothesis Hrot : drotg_spec drotg.
Variable junk : nat -> R.
Variable junkm : nat -> nat -> R.
Variables Am Mm : nat -> nat -> R.

Lemma rhs_norm_exact N b : length b = N -> rhs_norm E b = sqrt (dot N (vn b) (vn b)).
Proof. intro L. rewrite <- norm2_rhs. now apply (norm2_exact G). Qed.

Lemma gmres_exact p b x e : let N := length x in
  checkParams E p = true -> length b = N -> linear_callback N Am mvec -> linear_callback N Mm precon ->
  let ks := Nat.min N (Z.to_nat (kspaceSz p)) in let tol := tolerance E (relTol p) (absTol p) b in
  let rnorm := resnorm N Am (vn b) in
  exists g x' e', gmres E isfin Env mvec precon dtrsv dgemv drotg junk junkm p b x e = Ok (g, x', e') /\ length x' = N /\
    match g_flag g with
    | F_success | F_diverged | F_stagnation | F_maxits =>
        g_relres g = 1 / scale_norm E b * rnorm (vn x') /\ rnorm (vn x') <= rnorm (vn x) /\
        (g_flag g = F_success <-> rnorm (vn x') <= tol) /\
        (g_flag g = F_diverged -> divTol p * rnorm (vn x) <= rnorm (vn x')) /\
        (x' = x /\ rnorm (vn x) <= tol \/
         exists xm, restarts N Am Mm (vn b) ks (g_outer g) (vn x) xm /\ optimal N Am Mm (vn b) (g_inner g + 1) xm (vn x'))
    | F_breakdown => AM_singular N Am Mm
    | _ => False
    end /\ ((N <= Z.to_nat (kspaceSz p))%nat -> 1 < divTol p -> g_flag g = F_success \/ AM_singular N Am Mm).
Proof.
  intros N Hc Lb HA HM ks tol rnorm. unfold gmres. rewrite Hc. cbn [negb]. fold N. rewrite (proj2 (Nat.eqb_eq _ _) Lb). cbn [negb]. fold ks.
  assert (HP : (1 <= maxits p)%Z /\ (1 <= kspaceSz p)%Z /\ 0 <= relTol p /\ 0 <= absTol p /\ 0 < divTol p).
  { unfold checkParams in Hc. apply negb_true_iff in Hc. repeat (apply orb_false_iff in Hc; destruct Hc as (Hc & ?)).
    cbn [exact flt fle] in *. unfold Rltb, Rleb in *. rewrite E0 in *.
    repeat match goal with H : (if ?d then true else false) = false |- _ => destruct d; [discriminate|clear H] end.
    split; [lia|]. split; [lia|]. lra. }
  destruct HP as (Hmx & Hkz & Hrel & Habs & Hdiv).
  rewrite norm2_rhs. fold (scale_norm E b).
  assert (Hsc : 0 < scale_norm E b).
  { unfold scale_norm. cbn [exact feq]. unfold Reqb. rewrite (rhs_norm_exact N b Lb). destruct (Req_EM_T _ _) as [|NZ]; [rewrite E1; lra|].
    rewrite E0 in NZ. pose proof (sqrt_pos (dot N (vn b) (vn b))). lra. }
  change (fmax E (fmul E (relTol p) (scale_norm E b)) (absTol p)) with tol.
  assert (Htol : 0 <= tol).
  { unfold tol, tolerance. cbn [exact flt fmul]. unfold Rltb. destruct (Rlt_dec _ _); [exact Habs|]. apply Rmult_le_pos; lra. }
  set (w0 := map junk (seq 0 N)). assert (Lw0 : length w0 = N) by (unfold w0; now rewrite map_length, seq_length).
  set (wk := Work (mkmat N (ks + 1) junkm) (mkmat (ks + 1) ks junkm) (map junk (seq 0 (ks + 1))) (repeat (fofn E 0, fofn E 0) ks) (map junk (seq 0 N)) w0).
  assert (start : forall r rn w e1, length r = N -> length w = N -> veq N (vn r) (resid_of N Am (vn b) (vn x)) -> rn = rnorm (vn x) ->
    exists g x' e', (if negb (isfin rn) then Ok (GOut F_inf_or_nan 0 0 (fofn E 0) G_none, x, e1) else
      if fle E rn tol then Ok (GOut F_success 0 0 (fmul E (fdiv E (fofn E 1) (scale_norm E b)) rn) G_none, x, e1) else
      bind (outer_loop E isfin Env mvec precon dtrsv dgemv drotg
              p ks b (fdiv E (fofn E 1) (scale_norm E b)) tol (fmul E (divTol p) rn) (Z.to_nat (maxits p)) 0 0 0 (Work (k_V wk) (k_H wk) (k_s wk) (k_giv wk) (k_pv wk) w) x r rn e1)
           (finish E isfin Env mvec b (fdiv E (fofn E 1) (scale_norm E b)) tol)) = Ok (g, x', e') /\ length x' = N /\
      match g_flag g with
      | F_success | F_diverged | F_stagnation | F_maxits =>
        g_relres g = 1 / scale_norm E b * rnorm (vn x') /\ rnorm (vn x') <= rnorm (vn x) /\
        (g_flag g = F_success <-> rnorm (vn x') <= tol) /\
        (g_flag g = F_diverged -> divTol p * rnorm (vn x) <= rnorm (vn x')) /\
        (x' = x /\ rnorm (vn x) <= tol \/
         exists xm, restarts N Am Mm (vn b) ks (g_outer g) (vn x) xm /\ optimal N Am Mm (vn b) (g_inner g + 1) xm (vn x'))
      | F_breakdown => AM_singular N Am Mm
      | _ => False
      end /\ ((N <= Z.to_nat (kspaceSz p))%nat -> 1 < divTol p -> g_flag g = F_success \/ AM_singular N Am Mm)).
  { intros r rn w e1 Lr Lw Hr Hrn. rewrite Hfin. cbn [negb].
    assert (Efle : fle E rn tol = if Rle_dec rn tol then true else false) by reflexivity. rewrite Efle. clear Efle. destruct (Rle_dec rn tol) as [L1|L1].
    { do 3 eexists. split; [reflexivity|]. split; [reflexivity|]. cbn [g_flag g_relres g_outer g_inner]. split; [|auto].
      rewrite <- Hrn. split; [rewrite E1; reflexivity|]. split; [lra|]. split; [tauto|]. split; [discriminate|]. left. auto. }
    assert (HN : (1 <= N)%nat).
    { destruct N as [|n] eqn:EN; [|lia]. exfalso. apply L1. rewrite Hrn. unfold rnorm, resnorm, dot. rewrite sumn_0, sqrt_0. exact Htol. }
    assert (OK : wk_ok N ks (Work (k_V wk) (k_H wk) (k_s wk) (k_giv wk) (k_pv wk) w)).
    { unfold wk_ok; cbn [k_V k_H k_s k_giv k_pv k_w wk mrows mcols]. rewrite !map_length, !seq_length, repeat_length. repeat split; auto. }
    change (fdiv E (fofn E 1) (scale_norm E b)) with (1 / scale_norm E b). set (inv := 1 / scale_norm E b).
    change (fmul E (divTol p) rn) with (divTol p * rn).
    destruct (exact_outer G isfin Hfin N ks Env mvec precon Am Mm HA HM drotg Hrot tol (divTol p * rn) Htol dtrsv dgemv Htrsv Hgemv Htrsv2 Hgemv2 b Lb p inv
                ltac:(unfold ks; lia) x (Z.to_nat (maxits p)) 0 0 0 _ x r rn e1 OK eq_refl Lr Hr Hrn ltac:(lra) (restarts_0 _ _ _ _ _ _) ltac:(auto)) as (res & -> & Hres). cbn [bind].
    assert (Sg : singular N Am Mm -> AM_singular N Am Mm).
    { intros (u & U1 & U2). exists u. split; [exact U1|]. eapply veq_trans; [apply ap_ap|exact U2]. }
    destruct res as [f test inn ok x2 w2 rn2 e4|g x2 e4]; cbn [finish].
    2:{ destruct Hres as (Lx2 & Hf & Hs). exists g, x2, e4.
        split; [reflexivity|]. split; [exact Lx2|]. rewrite Hf. split; [exact (Sg Hs)|right; exact (Sg Hs)]. }
    destruct Hres as (H1 & H2 & H3 & H4 & H5 & H6 & H7).
    destruct H5 as [H5|H5]; [lia|].
    assert (Full : (N <= Z.to_nat (kspaceSz p))%nat -> 1 < divTol p -> f = F_success).
    { intros HK HD. apply H7; [unfold ks; lia| |lia]. assert (0 < rn) by lra. nra. }
    rewrite Hrn in H4. fold rnorm in H3.
    destruct H6 as [(-> & L2) | [(-> & L2 & L3) | (Hf & L2)]].
    - destruct test.
      + destruct (HA e4 x2 w2 H1 H2) as (e5 & w3 & -> & Lw3 & Ew3).
        destruct (vmap2_exact (fsub E) b w3 ltac:(lia)) as (r' & -> & Lr' & Er'). cbn [bind].
        assert (Nr : norm2 E r' = rnorm (vn x2)).
        { rewrite (norm2_exact G N r' ltac:(lia)). unfold rnorm, resnorm. f_equal. apply dot_ext; intros a Ha; unfold vn at 1; rewrite Er' by lia; cbn [exact fsub]; unfold resid_of; unfold vn at 1; f_equal; rewrite Ew3 by auto; reflexivity. }
        rewrite Nr, Hfin. cbn [andb exact flt]. unfold Rltb. destruct (Rlt_dec tol (rnorm (vn x2))) as [L3|L3]; [exfalso; lra|].
        do 3 eexists. split; [reflexivity|]. split; [exact H1|]. cbn [g_flag g_relres g_outer g_inner]. split; [|auto].
        split; [reflexivity|]. split; [lra|]. split; [split; [intros _; lra|reflexivity]|]. split; [discriminate|right; exact H5].
      + do 3 eexists. split; [reflexivity|]. split; [exact H1|]. cbn [g_flag g_relres g_outer g_inner]. split; [|auto].
        split; [rewrite H3; reflexivity|]. split; [lra|]. split; [split; [intros _; lra|reflexivity]|]. split; [discriminate|right; exact H5].
    - exists (GOut F_diverged inn ok (inv * rn2) G_none), x2, e4. split; [now destruct test|]. split; [exact H1|]. cbn [g_flag g_relres g_outer g_inner]. split; [|intros Q1 Q2; discriminate (Full Q1 Q2)].
      split; [rewrite H3; reflexivity|]. split; [lra|]. split; [split; [discriminate|intro; exfalso; lra]|]. split; [intros _; rewrite <- Hrn; lra|right; exact H5].
    - exists (GOut (match f with F_unconverged => F_maxits | _ => f end) inn ok (inv * rn2) G_none), x2, e4. split; [destruct Hf as [-> | ->]; now destruct test|]. split; [exact H1|]. cbn [g_flag g_relres g_outer g_inner].
      split; [|intros Q1 Q2; destruct Hf as [-> | ->]; discriminate (Full Q1 Q2)].
      destruct Hf as [-> | ->]; (split; [rewrite H3; reflexivity|]; split; [lra|]; split; [split; [discriminate|intro; exfalso; lra]|]; split; [discriminate|right; exact H5]). }
  destruct (isNonzero E x) eqn:En.
  - destruct (HA e x w0 eq_refl ltac:(unfold w0; rewrite map_length; apply seq_length)) as (e1 & w & -> & Lw & Ew). cbn [negb].
    destruct (vmap2_exact (fsub E) b w ltac:(lia)) as (r & -> & Lr & Er). cbn [bind].
    assert (Hr : veq N (vn r) (resid_of N Am (vn b) (vn x))).
    { intros a Ha. unfold vn at 1. rewrite Er by lia. cbn [exact fsub]. unfold resid_of. unfold vn at 1. f_equal. rewrite Ew by auto. reflexivity. }
    apply start; auto; [lia|]. rewrite (norm2_exact G N r ltac:(lia)). unfold rnorm, resnorm. f_equal. apply dot_ext; exact Hr.
  - pose proof (isNonzero_false E x En) as Hz.
    assert (Hr : veq N (vn b) (resid_of N Am (vn b) (vn x))).
    { intros a Ha. unfold resid_of, ap. rewrite sumn_zero; [ring|]. intros d Hd. assert (Z0 : vn x d = 0); [|rewrite Z0; ring].
      specialize (Hz (nth d x 0) (nth_In x 0 Hd)). cbn [exact feq] in Hz. unfold Reqb in Hz. rewrite E0 in Hz. destruct (Req_EM_T (nth d x 0) 0) as [Q|]; [exact Q|discriminate]. }
    apply start; auto. rewrite (rhs_norm_exact N b Lb). unfold rnorm, resnorm. f_equal. apply dot_ext; exact Hr.
Qed.
End ExactRun.
