(* DeformProofs.v - proofs about DeformModel.v in exact arithmetic. *)
From Coq Require Import ZArith List Lia Bool Arith.
From Verif Require Import Base Loops Num Line1DModel JacobiModel JacobiSpec JacobiQuadProofs Nodes1DModel Nodes1DSpec Nodes1DTotalSpec Nodes1DExactProofs Nodes1DTotalProofs Line1DProofs PeriodicModel PeriodicProofs DenseSpec DeformModel DeformSpec.
From Coq Require Import Reals Lra.
Import ListNotations.
Local Open Scope nat_scope.

Lemma Rltb_iff a b : Rltb a b = true <-> (a < b)%R.
Proof. unfold Rltb. destruct (Rlt_dec a b); split; intro H; try assumption; try reflexivity; [discriminate|contradiction]. Qed.
Lemma Rltb_false a b : Rltb a b = false <-> (b <= a)%R.
Proof. unfold Rltb. destruct (Rlt_dec a b); split; intro H; try reflexivity; try discriminate; lra. Qed.

(* --- nearest samples --- *)
Lemma argmin_from_ok G l : forall i j b m d, argmin_from (exact G) i j b l = (m, d) -> j < i ->
  (d <= b)%R /\ (forall q, q < length l -> (d <= nth q l 0)%R) /\
  ((m = j /\ d = b) \/ exists q, q < length l /\ m = i + q /\ d = nth q l 0%R /\ (d < b)%R /\ forall q', q' < q -> (d < nth q' l 0)%R).
Proof.
  induction l as [|a l IH]; intros i j b m d E Hj; cbn [argmin_from] in E.
  - injection E as <- <-. split; [lra|]. split; [cbn; lia|]. now left.
  - change (flt (exact G) a b) with (Rltb a b) in E. destruct (Rltb a b) eqn:Eab.
    + apply Rltb_iff in Eab. destruct (IH _ _ _ _ _ E (Nat.lt_succ_diag_r i)) as (H1 & H2 & H3). split; [lra|]. split.
      * intros [|q] Hq; cbn [nth]; [exact H1|apply H2; cbn in Hq; lia].
      * right. destruct H3 as [(-> & ->)|(q & Hq & -> & Ed & Hlt & Hb)].
        -- exists 0. cbn [length nth]. repeat split; auto; try lia.
        -- exists (S q). cbn [length nth]. repeat split; auto; try lia; [lra|]. intros [|q'] Hq'; cbn [nth]; [exact Hlt|apply Hb; lia].
    + apply Rltb_false in Eab. destruct (IH _ _ _ _ _ E (Nat.lt_lt_succ_r _ _ Hj)) as (H1 & H2 & H3). split; [exact H1|]. split.
      * intros [|q] Hq; cbn [nth]; [lra|apply H2; cbn in Hq; lia].
      * destruct H3 as [H3|(q & Hq & -> & Ed & Hlt & Hb)]; [now left|]. right. exists (S q). cbn [length nth]. repeat split; auto; try lia. intros [|q'] Hq'; cbn [nth]; [lra|apply Hb; lia].
Qed.
Lemma argmin_ok G l : l <> [] -> exists m d, argmin (exact G) l = Ok (m, d) /\ m < length l /\ d = nth m l 0%R /\ forall q, q < length l -> (d <= nth q l 0)%R /\ (q < m -> (d < nth q l 0)%R).
Proof.
  destruct l as [|a l]; [congruence|]. intros _. unfold argmin. destruct (argmin_from (exact G) 1 0 a l) as (m, d) eqn:E. exists m, d. split; [reflexivity|].
  destruct (argmin_from_ok G l _ _ _ _ _ E Nat.lt_0_1) as (H1 & H2 & [(-> & ->)|(q & Hq & -> & Ed & Hlt & Hb)]).
  - split; [cbn; lia|]. split; [reflexivity|]. intros [|q] Hq; cbn [nth]; (split; [|lia]); [lra|apply H2; cbn in Hq; lia].
  - split; [cbn; lia|]. split; [exact Ed|]. intros [|q'] Hq'; cbn [nth]; (split; [|intro]); auto; try (apply H2; cbn in Hq'; lia). apply Hb. lia.
Qed.

Definition hyp (a b : R) : R := sqrt (a * a + b * b).
Lemma nth_combine {X Y} (l : list X) (m : list Y) i d e : length l = length m -> nth i (combine l m) (d, e) = (nth i l d, nth i m e).
Proof. apply combine_nth. Qed.

Section Curve.
Variable G : R -> R.
Variables (xS yS : list R).
Hypothesis HL : length xS = length yS.
Local Notation S_ i := (sample xS yS i).

Lemma nearest_ok row : xS <> [] -> 2 <= length row -> exists i, nearest (exact G) hyp xS yS row = Ok (i, apart (S_ i) (place row)) /\ nearest_sample xS yS (place row) i.
Proof.
  intros Hne Hr. unfold nearest. rewrite (at_nth row 0 0%R), (at_nth row 1 0%R) by lia. cbn [bind].
  set (l := map _ _). assert (Ll : length l = length xS) by (unfold l; rewrite map_length, combine_length; lia).
  assert (Hl : forall q, q < length xS -> nth q l 0%R = apart (S_ q) (place row)).
  { intros q Hq. unfold l. set (h := fun q : R * R => hyp _ _). rewrite (nth_indep _ 0%R (h (0%R, 0%R))) by (rewrite map_length, combine_length; lia).
    rewrite (map_nth h), (nth_combine _ _ _ _ _ HL). reflexivity. }
  destruct (argmin_ok G l) as (m & d & -> & Hm & Ed & H). { intro E. rewrite E in Ll. destruct xS; [congruence|discriminate]. }
  rewrite Ll in Hm, H. rewrite (Hl m Hm) in Ed. subst d. exists m. split; [reflexivity|]. split; [exact Hm|]. intros j Hj. specialize (H j Hj). rewrite (Hl j Hj) in H. exact H.
Qed.
Lemma nearest_unique p i j : nearest_sample xS yS p i -> nearest_sample xS yS p j -> i = j.
Proof.
  intros (Hi & H1) (Hj & H2). destruct (Nat.lt_trichotomy i j) as [H|[H|H]]; [|exact H|].
  - pose proof (proj1 (H1 j Hj)). pose proof (proj2 (H2 i Hi) H). lra.
  - pose proof (proj1 (H2 i Hi)). pose proof (proj2 (H1 j Hj) H). lra.
Qed.
Lemma apart_self p : apart p p = 0%R.
Proof. unfold apart. rewrite !Rminus_diag_eq, Rmult_0_l, Rplus_0_l by reflexivity. apply sqrt_0. Qed.
Lemma apart_pos p q : (0 <= apart p q)%R.
Proof. apply sqrt_pos. Qed.
Lemma apart_zero p q : apart p q = 0%R -> p = q.
Proof.
  destruct p as (a, b), q as (c, d). unfold apart. cbn [fst snd]. intro H. apply sqrt_eq_0 in H; [|pose proof (Rle_0_sqr (a - c)); pose proof (Rle_0_sqr (b - d)); unfold Rsqr in *; lra].
  pose proof (Rle_0_sqr (a - c)) as H1. pose proof (Rle_0_sqr (b - d)) as H2. unfold Rsqr in *. assert (E1 : ((a - c) * (a - c) = 0)%R) by lra. assert (E2 : ((b - d) * (b - d) = 0)%R) by lra.
  apply Rmult_integral in E1, E2. f_equal; [destruct E1; lra|destruct E2; lra].
Qed.
Lemma nearest_self p i : nearest_sample xS yS p i -> nearest_sample xS yS (S_ i) i.
Proof.
  intros (Hi & H). split; [exact Hi|]. intros j Hj. rewrite apart_self. split; [apply apart_pos|]. intro Hji. destruct (apart_pos (S_ j) (S_ i)) as [|E]; [assumption|]. exfalso.
  symmetry in E. apply apart_zero in E. destruct (H j Hj) as (_ & H1). specialize (H1 Hji). rewrite E in H1. lra.
Qed.
Lemma near_close p i : nearest_sample xS yS p i -> (close_to_curve xS yS p <-> (apart (S_ i) p <= 200)%R).
Proof. intros (Hi & H). split; [intros (j & Hj & Hd); pose proof (proj1 (H j Hj)); lra|intro Hd; exists i; auto]. Qed.

(* --- adjustStraightEdges --- *)
Lemma set_row_twice (row : list R) a b c d : set_row (set_row row a b) c d = set_row row c d.
Proof. destruct row as [|u [|v row]]; reflexivity. Qed.
Lemma set_row_pos row a b : 2 <= length row -> place (set_row row a b) = (a, b).
Proof. destruct row as [|u [|v row]]; cbn; intro; try lia. reflexivity. Qed.
Lemma set_row_len (row : list R) a b : length (set_row row a b) = length row.
Proof. unfold set_row. now rewrite !upd_len. Qed.
Lemma select_snoc {X} (Q : X -> Prop) l m a : select Q l m -> Q a -> select Q (l ++ [a]) (m ++ [a]).
Proof. induction 1; intro Ha; cbn; [repeat constructor; assumption|constructor; auto|apply select_no; auto]. Qed.
Lemma select_drop {X} (Q : X -> Prop) l m a : select Q l m -> ~ Q a -> select Q (l ++ [a]) m.
Proof. induction 1; intro Ha; cbn; [apply select_no; [assumption|constructor]|constructor; auto|apply select_no; auto]. Qed.

Variables (EToV : list (list nat)) (V0 : list (list R)).
Hypothesis Hne : xS <> [].
Definition touched (l : list (nat * nat)) (v : nat) : Prop := exists e, In e l /\ joins EToV V0 xS yS e /\ is_end EToV e v.
Definition row_state (l : list (nat * nat)) (V : list (list R)) (M : list R) (v : nat) : Prop :=
  (touched l v /\ (exists i, nearest_sample xS yS (place (nth v V0 [])) i /\ nth v V [] = set_row (nth v V0 []) (fst (S_ i)) (snd (S_ i))) /\ nth v M 0%R = 1%R) \/
  (~ touched l v /\ nth v V [] = nth v V0 [] /\ nth v M 0%R = 0%R).
Definition state_ok (l : list (nat * nat)) (st : list (list R) * list R * list (nat * nat)) : Prop :=
  let '(V, M, C) := st in length V = length V0 /\ length M = length V0 /\ select (joins EToV V0 xS yS) l C /\ forall v, v < length V0 -> row_state l V M v.

Lemma current l V M v : (forall row, In row V0 -> 2 <= length row) -> v < length V0 -> length V = length V0 -> row_state l V M v -> exists i d, at_ V v = Ok (nth v V []) /\ nearest (exact G) hyp xS yS (nth v V []) = Ok (i, d) /\
  nearest_sample xS yS (place (nth v V0 [])) i /\ (close_to_curve xS yS (place (nth v V0 [])) <-> (d <= 200)%R) /\ at_ xS i = Ok (fst (S_ i)) /\ at_ yS i = Ok (snd (S_ i)) /\
  (forall a b, set_row (nth v V []) a b = set_row (nth v V0 []) a b).
Proof.
  intros Hrows Hv HlV Hst. assert (Hr : 2 <= length (nth v V0 [])) by (apply Hrows, nth_In, Hv).
  destruct Hst as [((e & He & Hj & Hend) & (i & Hi & Erow) & _)|(_ & Erow & _)].
  - rewrite Erow. destruct (nearest_ok (set_row (nth v V0 []) (fst (S_ i)) (snd (S_ i))) Hne) as (m & Em & Hm); [now rewrite set_row_len|].
    rewrite set_row_pos in * by exact Hr. assert (m = i). { apply (nearest_unique (S_ i)); [exact Hm|]. apply nearest_self with (p := place (nth v V0 [])). exact Hi. } subst m.
    exists i, 0%R. replace (apart (S_ i) (fst (S_ i), snd (S_ i))) with 0%R in Em by (symmetry; apply apart_self). split; [rewrite <- Erow; apply at_nth; lia|]. split; [exact Em|]. split; [exact Hi|]. split; [split; [intros _; lra|intros _; apply (Hj v Hend)]|].
    destruct Hi as (Hi & _). split; [apply at_nth; exact Hi|]. split; [apply at_nth; rewrite <- HL; exact Hi|]. intros. apply set_row_twice.
  - rewrite Erow. destruct (nearest_ok (nth v V0 []) Hne Hr) as (m & Em & Hm). exists m, (apart (S_ m) (place (nth v V0 []))). split; [rewrite <- Erow; apply at_nth; lia|]. split; [exact Em|]. split; [exact Hm|]. split; [now apply near_close|].
    destruct Hm as (Hi & _). split; [apply at_nth; exact Hi|]. split; [apply at_nth; rewrite <- HL; exact Hi|]. reflexivity.
Qed.

Lemma face_ok l e st : (forall row, In row V0 -> 2 <= length row) -> (fst e < length EToV /\ snd e < 3 /\ length (nth (fst e) EToV []) = 3 /\ forall v, In v (nth (fst e) EToV []) -> v < length V0) ->
  state_ok l st -> exists st', adjust_face (exact G) hyp 3 EToV xS yS e st = Ok st' /\ state_ok (l ++ [e]) st'.
Proof.
  intros Hrows (He & Hf & Hlen & Hin) Hst. destruct st as ((V, M), C). destruct Hst as (LV & LM & HC & Hv). unfold adjust_face.
  rewrite (at_nth EToV _ [] He). cbn [bind]. set (ends := nth (fst e) EToV []) in *.
  assert (Emod : S (snd e) mod 3 = if snd e =? 2 then 0 else S (snd e)) by (destruct (snd e) as [|[|[|]]]; [reflexivity|reflexivity|reflexivity|lia]). rewrite Emod. set (g := if snd e =? 2 then 0 else S (snd e)) in *.
  assert (Hg : g < 3) by (unfold g; destruct (Nat.eqb_spec (snd e) 2); lia). rewrite (at_nth ends (snd e) 0), (at_nth ends g 0) by lia. cbn [bind]. set (v1 := nth (snd e) ends 0). set (v2 := nth g ends 0).
  assert (H1 : v1 < length V0) by (apply Hin, nth_In; lia). assert (H2 : v2 < length V0) by (apply Hin, nth_In; lia).
  destruct (current l V M v1 Hrows H1 LV (Hv v1 H1)) as (i1 & d1 & A1 & N1 & B1 & C1 & X1 & Y1 & R1). destruct (current l V M v2 Hrows H2 LV (Hv v2 H2)) as (i2 & d2 & A2 & N2 & B2 & C2 & X2 & Y2 & R2).
  rewrite A1, A2. cbn [bind]. rewrite N1. cbn [bind]. rewrite N2. cbn [bind]. change (flt (exact G)) with Rltb. change (fofZ (exact G)) with IZR.
  assert (Hend : forall v, is_end EToV e v <-> v = v1 \/ v = v2) by (intro; reflexivity).
  assert (Hjoin : joins EToV V0 xS yS e <-> (d1 <= 200)%R /\ (d2 <= 200)%R).
  { split; [intro H; split; [apply C1, H; now left|apply C2, H; now right]|]. intros (J1 & J2) v Hve. apply Hend in Hve. destruct Hve as [-> | ->]; [now apply C1|now apply C2]. }
  assert (Ht : forall v, touched (l ++ [e]) v <-> touched l v \/ (joins EToV V0 xS yS e /\ (v = v1 \/ v = v2))).
  { intro v. split.
    - intros (a & Ha & Hj & Hx). apply in_app_or in Ha. destruct Ha as [Ha|[<-|[]]]; [left; exists a; auto|right; split; [exact Hj|now apply Hend]].
    - intros [(a & Ha & Hx)|(Hj & Hx)]; [exists a; split; [apply in_or_app; now left|exact Hx]|]. exists e. split; [apply in_or_app; right; now left|]. split; [exact Hj|now apply Hend]. }
  destruct (Rltb 200 d1 || Rltb 200 d2) eqn:Eo.
  - assert (Hnj : ~ joins EToV V0 xS yS e). { intro H. apply Hjoin in H. apply orb_true_iff in Eo. rewrite !Rltb_iff in Eo. lra. }
    exists (V, M, C). split; [reflexivity|]. split; [exact LV|]. split; [exact LM|]. split; [now apply select_drop|]. intros v Hvv. destruct (Hv v Hvv) as [(T1 & T2)|(T1 & T2)]; [left; split; [apply Ht; now left|exact T2]|].
    right. split; [|exact T2]. rewrite Ht. intros [T|(T & _)]; contradiction.
  - apply orb_false_iff in Eo. rewrite !Rltb_false in Eo. assert (Hj : joins EToV V0 xS yS e) by (apply Hjoin; lra).
    rewrite X1. cbn [bind]. rewrite Y1. cbn [bind]. rewrite X2. cbn [bind]. rewrite Y2. cbn [bind]. unfold put_vertex. rewrite A1. cbn [bind].
    set (V1 := upd V v1 _). rewrite (at_nth V1 v2 []) by (unfold V1; rewrite upd_len; lia). cbn [bind].
    eexists. split; [reflexivity|]. split; [unfold V1; rewrite !upd_len; exact LV|]. split; [rewrite !upd_len; exact LM|]. split; [now apply select_snoc|].
    intros v Hvv. destruct (Nat.eq_dec v v2) as [->|Hn2].
    + left. split; [apply Ht; right; split; [exact Hj|now right]|]. split.
      * exists i2. split; [exact B2|]. rewrite upd_same by (unfold V1; rewrite upd_len; lia). unfold V1. destruct (Nat.eq_dec v2 v1) as [E|E]; [|rewrite upd_other by auto; apply R2].
        rewrite E. rewrite upd_same by lia. rewrite set_row_twice. apply R1.
      * rewrite upd_same by (rewrite upd_len; lia). reflexivity.
    + destruct (Nat.eq_dec v v1) as [->|Hn1].
      * left. split; [apply Ht; right; split; [exact Hj|now left]|]. split.
        -- exists i1. split; [exact B1|]. rewrite upd_other by auto. unfold V1. rewrite upd_same by lia. apply R1.
        -- rewrite upd_other, upd_same by (auto; lia). reflexivity.
      * assert (EV : nth v (upd V1 v2 (set_row (nth v2 V1 []) (fst (S_ i2)) (snd (S_ i2)))) [] = nth v V []) by (unfold V1; rewrite !upd_other by auto; reflexivity).
        assert (EM : nth v (upd (upd M v1 1%R) v2 1%R) 0%R = nth v M 0%R) by (rewrite !upd_other by auto; reflexivity).
        destruct (Hv v Hvv) as [(T1 & T2 & T3)|(T1 & T2 & T3)]; [left|right]; rewrite Ht; rewrite EV, EM; tauto.
Qed.
Lemma faces_ok faces : (forall row, In row V0 -> 2 <= length row) -> (forall e, In e faces -> fst e < length EToV /\ snd e < 3 /\ length (nth (fst e) EToV []) = 3 /\ forall v, In v (nth (fst e) EToV []) -> v < length V0) ->
  forall l st, state_ok l st -> exists st', adjust_faces (exact G) hyp 3 EToV xS yS faces st = Ok st' /\ state_ok (l ++ faces) st'.
Proof.
  intro Hrows. induction faces as [|e faces IH]; intros Hin l st Hst; cbn [adjust_faces]; [exists st; rewrite app_nil_r; auto|].
  destruct (face_ok l e st Hrows (Hin e (or_introl eq_refl)) Hst) as (st1 & -> & H1). cbn [bind]. destruct (IH (fun a Ha => Hin a (or_intror Ha)) (l ++ [e]) st1 H1) as (st' & E & H').
  exists st'. split; [exact E|]. rewrite <- app_assoc in H'. exact H'.
Qed.
Lemma adjust_ok faces : table_ok EToV V0 faces -> exists st, adjustStraightEdges (exact G) hyp 3 V0 EToV faces xS yS = Ok st /\ state_ok faces st.
Proof.
  intros (Hrows & Hin). unfold adjustStraightEdges. rewrite (proj2 (Nat.eqb_eq _ _) HL). cbn [require]. cbn [Nat.eqb andb].
  apply (faces_ok faces Hrows Hin []). split; [reflexivity|]. split; [apply repeat_length|]. split; [constructor|]. intros v Hv. right. split; [intros (e & [] & _)|]. split; [reflexivity|].
  apply nth_repeat.
Qed.
End Curve.

(* --- deformAndBlendElements --- *)
Lemma hits_in G xS yS p i : length xS = length yS -> (In i (hits (exact G) (1 / 100000000)%R xS yS (fst p) (snd p)) <-> on_sample xS yS p i).
Proof.
  intro HL. unfold hits. rewrite in_map_iff. setoid_rewrite filter_In. unfold on_sample. split.
  - intros ((j & a & b) & E & Hin & Ht). cbn [fst snd] in *. subst j. change (flt (exact G)) with Rltb in Ht. apply Rltb_iff in Ht. apply (In_nth _ _ (0, (0%R, 0%R))) in Hin. destruct Hin as (q & Hq & E).
    rewrite combine_length, combine_length, seq_length in Hq. rewrite nth_combine in E by (rewrite seq_length, combine_length; lia). rewrite nth_combine in E by exact HL. injection E as E1 E2 E3. rewrite seq_nth in E1 by lia. cbn in E1. subst q. split; [lia|].
    unfold apart, sample. cbn [fst snd]. rewrite E2, E3. exact Ht.
  - intros (Hi & Ht). exists (i, (nth i xS 0%R, nth i yS 0%R)). split; [reflexivity|]. split.
    + replace (i, (nth i xS 0%R, nth i yS 0%R)) with (nth i (combine (seq 0 (length xS)) (combine xS yS)) (0, (0%R, 0%R))).
      * apply nth_In. rewrite combine_length, combine_length, seq_length. lia.
      * rewrite nth_combine by (rewrite seq_length, combine_length; lia). rewrite nth_combine by exact HL. now rewrite seq_nth by lia.
    + cbn [fst snd]. change (flt (exact G)) with Rltb. apply Rltb_iff. exact Ht.
Qed.
Lemma hits_nodup G tiny xS yS px py : NoDup (hits (exact G) tiny xS yS px py).
Proof.
  unfold hits. set (P := fun e : nat * (R * R) => _). assert (H : forall k l (m : list (R * R)), NoDup (map fst (filter P (combine (seq k l) m))) /\ forall i, In i (map fst (filter P (combine (seq k l) m))) -> k <= i).
  { intros k l. revert k. induction l as [|l IH]; intros k m; [split; [constructor|intros i []]|]. cbn [seq]. destruct m as [|a m]; [split; [constructor|intros i []]|]. cbn [combine filter]. destruct (IH (S k) m) as (H1 & H2).
    destruct (P (k, a)); cbn [map fst]; split; auto.
    - constructor; [|exact H1]. intro Hk. apply H2 in Hk. lia.
    - intros i [<-|Hi]; [lia|]. apply H2 in Hi. lia.
    - intros i Hi. apply H2 in Hi. lia. }
  apply H.
Qed.
Lemma hits_one G xS yS p i : length xS = length yS -> (hits (exact G) (1 / 100000000)%R xS yS (fst p) (snd p) = [i] <-> the_sample xS yS p i).
Proof.
  intro HL. pose proof (hits_nodup G (1 / 100000000)%R xS yS (fst p) (snd p)) as Hn. split.
  - intro E. split; [apply (hits_in G xS yS p i HL); rewrite E; now left|]. intros j Hj. apply (hits_in G xS yS p j HL) in Hj. rewrite E in Hj. destruct Hj as [<-|[]]. reflexivity.
  - intros (H1 & H2). apply (hits_in G xS yS p i HL) in H1. assert (H3 : forall j, In j (hits (exact G) (1 / 100000000)%R xS yS (fst p) (snd p)) -> j = i) by (intros j Hj; apply H2; now apply (hits_in G xS yS p j HL)).
    destruct (hits _ _ _ _ _ _) as [|a [|b l]]; [destruct H1| |].
    + f_equal. apply H3. now left.
    + exfalso. inversion Hn as [|? ? Ha]. apply Ha. rewrite (H3 a), (H3 b) by (cbn; auto). now left.
Qed.

Section Deform.
Variable G : R -> R.
Hypothesis HG : gamma_like G.
Variable inverse : mat R -> mat R -> outcome (mat R).
Hypothesis HI : inverter_ok inverse.
Variables (xS yS ss : list R) (sx sy : R -> R) (r s : list R) (mask : list (list nat)) (shared : bool) (N : nat) (EToV : list (list nat)) (Verts : list (list R)).
Hypothesis HL : length xS = length yS.
Local Notation E := (exact G).
Local Notation tiny := (1 / 100000000)%R.
Local Notation tol := (1 / 10000000)%R.
Local Notation c := (FaceCtx r s mask shared).
Local Notation step := (deform_face E inverse tiny tol Verts EToV xS yS ss sx sy c N).
Local Notation steps := (deform_faces E inverse tiny tol Verts EToV xS yS ss sx sy c N).

Definition moved (f k : nat) (Vi : mat R) (curve : R -> R) (t1 t2 : R) (x : mat R) : mat R :=
  let fm := nth f mask [] in
  add_to E tol c f k (spread E N (side_coord f r s) Vi (map (fun n => curve (curve_at t1 t2 (nth n (side_coord f r s) 0)) - ment x n k)%R fm)) x.

Lemma part_way_exact t1 t2 q : part_way E t1 t2 q = curve_at t1 t2 q.
Proof. unfold part_way, curve_at. cbn. field. Qed.
Lemma along_side f : along c f = side_coord f r s.
Proof. destruct f; reflexivity. Qed.

Lemma entries_ok (x : mat R) k fm : k < mcols x -> (forall n, In n fm -> n < mrows x) -> each_entry (entry x k) fm = Ok (map (fun n => ment x n k) fm).
Proof. intros Hk Hn. apply each_all. intros n Hi. unfold entry. rewrite inb_true by auto. reflexivity. Qed.
Lemma differences (curve : R -> R) (ts : nat -> R) (x : mat R) k fm :
  map (fun q : R * R => fsub E (fst q) (snd q)) (combine (map curve (map ts fm)) (map (fun n => ment x n k) fm)) = map (fun n => (curve (ts n) - ment x n k)%R) fm.
Proof. rewrite map_map, combine_map, map_map. reflexivity. Qed.

(* one listed face *)
Lemma step_eq e x y : arrays_ok N r s mask EToV Verts xS ss [e] x y ->
  let f := snd e in let k := fst e in let p := end_points EToV Verts e in let fr := map (fun n => nth n (side_coord f r s) 0%R) (nth f mask []) in
  step e (x, y) = match hits E tiny xS yS (fst (fst p)) (snd (fst p)), hits E tiny xS yS (fst (snd p)) (snd (snd p)) with
    | [i1], [i2] => if i1 =? i2 then Ok (x, y) else
        bind (inverse (vandermonde1D E fr (S N)) (mzero E (S N) (S N))) (fun Vi => Ok (moved f k Vi sx (nth i1 ss 0%R) (nth i2 ss 0%R) x, moved f k Vi sy (nth i1 ss 0%R) (nth i2 ss 0%R) y))
    | _, _ => Throw end.
Proof.
  intros (Ls & Rx & Ry & Lm & Hm & (Hrows & Hin) & Lss & Hc). cbv zeta. destruct e as (k, f). destruct (Hin (k, f) (or_introl eq_refl)) as (He & Hf & H3 & Hv). destruct (Hc (k, f) (or_introl eq_refl)) as (Hkx & Hky). cbn [fst snd] in *.
  unfold deform_face. rewrite (at_nth EToV k [] He). cbn [bind]. set (ends := nth k EToV []) in *.
  assert (Hse : side_vertices ends f = Ok (side_ends ends f)).
  { destruct f as [|[|[|f]]]; [| | |lia]; unfold side_vertices, side_ends; rewrite ?(at_nth ends 0 0), ?(at_nth ends 1 0), ?(at_nth ends 2 0) by lia; reflexivity. }
  rewrite Hse. cbn [bind]. unfold end_points. cbn [fst snd]. fold ends.
  assert (Hab : fst (side_ends ends f) < length Verts /\ snd (side_ends ends f) < length Verts) by (destruct f as [|[|f]]; cbn [side_ends fst snd]; split; apply Hv, nth_In; lia).
  destruct (side_ends ends f) as (v1, v2). cbn [fst snd] in Hab. destruct Hab as (H1 & H2).
  assert (Hfm : In (nth f mask []) mask) by (apply nth_In; lia). destruct (Hm _ Hfm) as (Lf & Hfr). cbn [cc_mask]. rewrite (at_nth mask f []) by lia. cbn [bind]. set (fm := nth f mask []) in *. rewrite along_side.
  assert (Lv : length (side_coord f r s) = length r) by (destruct f; [reflexivity|exact Ls]).
  rewrite (each_all (at_ (side_coord f r s)) (fun n => nth n (side_coord f r s) 0%R)) by (intros n Hn; apply at_nth; rewrite Lv; now apply Hfr). cbn [bind].
  rewrite (at_nth Verts v1 [] H1), (at_nth Verts v2 [] H2). cbn [bind]. assert (B1 : 2 <= length (nth v1 Verts [])) by (apply Hrows, nth_In, H1). assert (B2 : 2 <= length (nth v2 Verts [])) by (apply Hrows, nth_In, H2).
  rewrite (at_nth (nth v1 Verts []) 0 0%R), (at_nth (nth v1 Verts []) 1 0%R), (at_nth (nth v2 Verts []) 0 0%R), (at_nth (nth v2 Verts []) 1 0%R) by lia. cbn [bind]. unfold place. cbn [fst snd].
  pose proof (fun i => proj1 (hits_in G xS yS (nth 0 (nth v1 Verts []) 0%R, nth 1 (nth v1 Verts []) 0%R) i HL)) as I1. pose proof (fun i => proj1 (hits_in G xS yS (nth 0 (nth v2 Verts []) 0%R, nth 1 (nth v2 Verts []) 0%R) i HL)) as I2. cbn [fst snd] in I1, I2.
  destruct (hits E tiny xS yS (nth 0 (nth v1 Verts []) 0%R) (nth 1 (nth v1 Verts []) 0%R)) as [|i1 [|]]; [reflexivity| |reflexivity].
  destruct (hits E tiny xS yS (nth 0 (nth v2 Verts []) 0%R) (nth 1 (nth v2 Verts []) 0%R)) as [|i2 [|]]; [reflexivity| |reflexivity].
  destruct (i1 =? i2); [reflexivity|]. destruct (I1 i1 (or_introl eq_refl)) as (J1 & _). destruct (I2 i2 (or_introl eq_refl)) as (J2 & _).
  rewrite (at_nth ss i1 0%R), (at_nth ss i2 0%R) by lia. cbn [bind].
  rewrite (entries_ok x k fm), (entries_ok y k fm) by (auto; intros n Hn; rewrite ?Rx, ?Ry; now apply Hfr). cbn [bind].
  rewrite map_length, Lf, Nat.eqb_refl. unfold in_step. cbn [cc_r cc_s]. rewrite Ls, Rx, Ry, Nat.eqb_refl. cbn [andb require]. rewrite (map_map (fun n => nth n (side_coord f r s) 0%R) (part_way E (nth i1 ss 0%R) (nth i2 ss 0%R))).
  rewrite (differences sx (fun n => part_way E (nth i1 ss 0%R) (nth i2 ss 0%R) (nth n (side_coord f r s) 0%R)) x k fm), (differences sy (fun n => part_way E (nth i1 ss 0%R) (nth i2 ss 0%R) (nth n (side_coord f r s) 0%R)) y k fm).
  unfold moved. fold fm.
  rewrite (map_ext (fun n => (sx (part_way E (nth i1 ss 0%R) (nth i2 ss 0%R) (nth n (side_coord f r s) 0%R)) - ment x n k)%R) (fun n => (sx (curve_at (nth i1 ss 0%R) (nth i2 ss 0%R) (nth n (side_coord f r s) 0%R)) - ment x n k)%R)) by (intro; now rewrite part_way_exact).
  rewrite (map_ext (fun n => (sy (part_way E (nth i1 ss 0%R) (nth i2 ss 0%R) (nth n (side_coord f r s) 0%R)) - ment y n k)%R) (fun n => (sy (curve_at (nth i1 ss 0%R) (nth i2 ss 0%R) (nth n (side_coord f r s) 0%R)) - ment y n k)%R)) by (intro; now rewrite part_way_exact).
  reflexivity.
Qed.

(* the displacement spread over the element is the interpolating polynomial *)
Lemma spread_poly fr Vi vr fd : length fr = S N -> length fd = S N -> shape Vi (S N) (S N) ->
  (forall i j, i < S N -> j < S N -> sumn (S N) (fun k => ment (vandermonde1D E fr (S N)) i k * ment Vi k j)%R = (if Nat.eqb i j then 1 else 0)%R) ->
  exists cs, length cs <= S N /\ (forall j, j < S N -> peval cs (nth j fr 0%R) = nth j fd 0%R) /\ forall n, n < length vr -> spread E N vr Vi fd n = peval cs (nth n vr 0%R).
Proof.
  intros Lf Ld _ Hinv. set (cf := fun j => sumn (S N) (fun i => ment Vi j i * nth i fd 0)%R). destruct (modes_poly G HG (S N) cf) as (cs & Lc & Ec). exists cs. split; [exact Lc|]. split.
  - intros j Hj. rewrite Ec. unfold cf. rewrite (sumn_ext (S N) _ (fun k => sumn (S N) (fun i => ment (vandermonde1D E fr (S N)) j k * ment Vi k i * nth i fd 0)%R)).
    2:{ intros k Hk. rewrite Rmult_comm, <- sumn_scal. apply sumn_ext. intros i Hi. rewrite (vander_ent G HG) by lia. ring. }
    rewrite (sumn_swap (S N) (S N)). rewrite (sumn_ext (S N) _ (fun i => (if Nat.eqb j i then 1 else 0) * nth i fd 0)%R).
    + rewrite (sumn_pick (S N) _ j Hj); [rewrite Nat.eqb_refl; ring|]. intros i _ Hi. destruct (Nat.eqb_spec j i); [congruence|ring].
    + intros i Hi. rewrite <- (Hinv j i Hj Hi). rewrite (Rmult_comm (sumn _ _)), <- sumn_scal. apply sumn_ext. intros; ring.
  - intros n Hn. unfold spread. rewrite fsum_exact, Ec. apply sumn_ext. intros j Hj. rewrite fsum_exact. rewrite (vander_ent G HG) by exact Hn. unfold cf. cbn [exact fmul fofZ]. ring.
Qed.
Lemma moved_follows f k Vi curve t1 t2 x : shared = true -> length s = length r -> mrows x = length r -> f < 3 -> let fm := nth f mask [] in let fr := map (fun n => nth n (side_coord f r s) 0%R) fm in length fm = S N -> shape Vi (S N) (S N) ->
  (forall i j, i < S N -> j < S N -> sumn (S N) (fun l => ment (vandermonde1D E fr (S N)) i l * ment Vi l j)%R = (if Nat.eqb i j then 1 else 0)%R) ->
  follows N r s fm f k curve t1 t2 x (moved f k Vi curve t1 t2 x).
Proof.
  intros Hs Ls Rx Hf fm fr Lf SV Hinv. unfold moved. fold fm. set (fd := map _ fm).
  destruct (spread_poly fr Vi (side_coord f r s) fd) as (cs & Lc & Ec & Es); [unfold fr; now rewrite map_length|unfold fd; now rewrite map_length|exact SV|exact Hinv|].
  assert (Lv : length (side_coord f r s) = length r) by (destruct f; [reflexivity|exact Ls]).
  exists cs. split; [exact Lc|]. split.
  - intros n Hn q. apply (In_nth _ _ 0) in Hn. destruct Hn as (j & Hj & En). rewrite Lf in Hj. specialize (Ec j Hj). unfold fr, fd in Ec.
    rewrite (nth_indep _ 0%R (nth 0 (side_coord f r s) 0%R)) in Ec by (rewrite map_length; lia). rewrite (map_nth (fun n => nth n (side_coord f r s) 0%R)) in Ec. rewrite En in Ec. fold q in Ec. rewrite Ec.
    set (h := fun n0 : nat => _). rewrite (nth_indep _ 0%R (h 0)) by (rewrite map_length; lia). rewrite (map_nth h), En. reflexivity.
  - intros n Hn q. assert (Em : ment (add_to E tol c f k (spread E N (side_coord f r s) Vi fd) x) n k = if Rltb tol (Rabs (1 - q)) then (ment x n k + side_blend f (nth n r 0) (nth n s 0) * peval cs q)%R else ment x n k).
    { unfold add_to. cbn [cc_shared cc_r cc_s]. rewrite Hs. cbn [ment]. assert (Ea : forall sh, along (FaceCtx r s mask sh) f = side_coord f r s) by (destruct f; reflexivity). rewrite !Ea, Nat.eqb_refl, Lv, (proj2 (Nat.ltb_lt _ _) Hn). cbn [andb]. rewrite (Es n) by lia. fold q.
      change (flt E tol (fabs E (fsub E (fofZ E 1) (nth n (side_coord f r s) (fofZ E 0))))) with (Rltb tol (Rabs (1 - q))). destruct (Rltb _ _); [|reflexivity].
      destruct f as [|[|[|f]]]; [reflexivity|reflexivity|reflexivity|lia]. }
    rewrite Em. split; intro H; [apply Rgt_lt, Rltb_iff in H; now rewrite H|]. apply Rltb_false in H. now rewrite H.
Qed.
Lemma moved_other f k Vi curve t1 t2 x n e : e <> k -> ment (moved f k Vi curve t1 t2 x) n e = ment x n e.
Proof. intro H. unfold moved, add_to. destruct (cc_shared c); [|reflexivity]. cbn [ment]. rewrite (proj2 (Nat.eqb_neq e k) H). reflexivity. Qed.
Lemma moved_shape f k Vi curve t1 t2 x : mrows (moved f k Vi curve t1 t2 x) = mrows x /\ mcols (moved f k Vi curve t1 t2 x) = mcols x.
Proof. unfold moved, add_to. destruct (cc_shared c); split; reflexivity. Qed.
Lemma moved_copy f k Vi curve t1 t2 x : shared = false -> moved f k Vi curve t1 t2 x = x.
Proof. intro H. unfold moved, add_to. cbn [cc_shared]. now rewrite H. Qed.
Lemma arrays_tail e l x y : arrays_ok N r s mask EToV Verts xS ss (e :: l) x y -> arrays_ok N r s mask EToV Verts xS ss [e] x y /\ arrays_ok N r s mask EToV Verts xS ss l x y.
Proof.
  intros (Ls & Rx & Ry & Lm & Hm & (Hrows & Hin) & Lss & Hc). split; (split; [exact Ls|]; split; [exact Rx|]; split; [exact Ry|]; split; [exact Lm|]; split; [exact Hm|]; split; [split; [exact Hrows|]|split; [exact Lss|]]).
  - intros a [<-|[]]. apply Hin. now left.
  - intros a [<-|[]]. apply Hc. now left.
  - intros a Ha. apply Hin. now right.
  - intros a Ha. apply Hc. now right.
Qed.
Lemma arrays_same l x y x' y' : mrows x' = mrows x /\ mcols x' = mcols x -> mrows y' = mrows y /\ mcols y' = mcols y -> arrays_ok N r s mask EToV Verts xS ss l x y -> arrays_ok N r s mask EToV Verts xS ss l x' y'.
Proof. intros (X1 & X2) (Y1 & Y2) (Ls & Rx & Ry & Lm & Hm & Ht & Lss & Hc). repeat split; try tauto; try congruence; try apply Hm; try apply Ht; auto; rewrite ?X2, ?Y2; apply Hc; assumption. Qed.

(* what one step does: it raises or returns; it keeps the shapes and the other columns *)
Lemma step_cases e x y : arrays_ok N r s mask EToV Verts xS ss [e] x y ->
  step e (x, y) = Throw \/ exists x' y' i1 i2, step e (x, y) = Ok (x', y') /\ the_sample xS yS (fst (end_points EToV Verts e)) i1 /\ the_sample xS yS (snd (end_points EToV Verts e)) i2 /\
    (mrows x' = mrows x /\ mcols x' = mcols x) /\ (mrows y' = mrows y /\ mcols y' = mcols y) /\ (forall n a, a <> fst e -> ment x' n a = ment x n a /\ ment y' n a = ment y n a) /\
    (shared = false -> x' = x /\ y' = y) /\ (i1 = i2 -> x' = x /\ y' = y) /\
    (shared = true -> i1 <> i2 -> follows N r s (nth (snd e) mask []) (snd e) (fst e) sx (nth i1 ss 0%R) (nth i2 ss 0%R) x x' /\ follows N r s (nth (snd e) mask []) (snd e) (fst e) sy (nth i1 ss 0%R) (nth i2 ss 0%R) y y').
Proof.
  intros Ha. pose proof (step_eq e x y Ha) as Hs. cbv zeta in Hs. rewrite Hs. clear Hs. destruct Ha as (Ls & Rx & Ry & Lm & Hm & (Hrows & Hin) & Lss & Hc). destruct (Hin e (or_introl eq_refl)) as (He & Hf & H3 & Hv). destruct (Hc e (or_introl eq_refl)) as (Hkx & Hky).
  pose proof (fun i => hits_one G xS yS (fst (end_points EToV Verts e)) i HL) as O1. pose proof (fun i => hits_one G xS yS (snd (end_points EToV Verts e)) i HL) as O2.
  destruct (hits E tiny xS yS (fst (fst (end_points EToV Verts e))) (snd (fst (end_points EToV Verts e)))) as [|i1 [|]]; [now left| |now left].
  destruct (hits E tiny xS yS (fst (snd (end_points EToV Verts e))) (snd (snd (end_points EToV Verts e)))) as [|i2 [|]]; [now left| |now left].
  pose proof (proj1 (O1 i1) eq_refl) as P1. pose proof (proj1 (O2 i2) eq_refl) as P2. destruct (Nat.eqb_spec i1 i2) as [->|Hne].
  - right. exists x, y, i2, i2. split; [reflexivity|]. repeat split; auto; try apply P1; try apply P2; intros; congruence.
  - assert (Hfm : In (nth (snd e) mask []) mask) by (apply nth_In; lia). destruct (Hm _ Hfm) as (Lf & Hfr). set (fr := map _ _).
    destruct (HI (S N) (vandermonde1D E fr (S N)) (mzero E (S N) (S N))) as [-> | (Vi & -> & SV & Hinv)]; [split; [cbn [vandermonde1D mat_cols mrows]; unfold fr; now rewrite map_length|reflexivity]|split; reflexivity|now left|]. right. cbn [bind].
    eexists _, _, i1, i2. split; [reflexivity|]. split; [exact P1|]. split; [exact P2|]. split; [apply moved_shape|]. split; [apply moved_shape|]. split; [intros n a Hna; split; now apply moved_other|]. split; [intro Hsh; split; now apply moved_copy|]. split; [congruence|].
    intros Hsh _. split; (apply moved_follows; auto; intros i j Hi Hj; apply Hinv; assumption).
Qed.
Lemma step_throws e x y : arrays_ok N r s mask EToV Verts xS ss [e] x y -> (forall i1 i2, ~ (the_sample xS yS (fst (end_points EToV Verts e)) i1 /\ the_sample xS yS (snd (end_points EToV Verts e)) i2)) -> step e (x, y) = Throw.
Proof. intros Ha Hn. destruct (step_cases e x y Ha) as [H|(x' & y' & i1 & i2 & _ & H1 & H2 & _)]; [exact H|]. exfalso. eapply Hn; eauto. Qed.
Lemma step_runs e x y i1 i2 : arrays_ok N r s mask EToV Verts xS ss [e] x y -> inverts_regular (S N) inverse -> NoDup (map (fun n => nth n (side_coord (snd e) r s) 0%R) (nth (snd e) mask [])) ->
  the_sample xS yS (fst (end_points EToV Verts e)) i1 -> the_sample xS yS (snd (end_points EToV Verts e)) i2 -> step e (x, y) <> Throw.
Proof.
  intros Ha Hr Hn P1 P2. pose proof (step_eq e x y Ha) as Hs. cbv zeta in Hs. rewrite Hs. clear Hs. destruct Ha as (Ls & Rx & Ry & Lm & Hm & (Hrows & Hin) & Lss & Hc). destruct (Hin e (or_introl eq_refl)) as (He & Hf & H3 & Hv).
  rewrite (proj2 (hits_one G xS yS _ i1 HL) P1), (proj2 (hits_one G xS yS _ i2 HL) P2). destruct (i1 =? i2); [discriminate|].
  assert (Hfm : In (nth (snd e) mask []) mask) by (apply nth_In; lia). destruct (Hm _ Hfm) as (Lf & Hfr). set (fr := map _ _) in *. assert (Lr : length fr = S N) by (unfold fr; now rewrite map_length).
  pose proof (Hr (vandermonde1D E fr (S N)) (mzero E (S N) (S N)) (conj Lr eq_refl) (conj eq_refl eq_refl) (vander_invertible G HG N fr Lr Hn)) as X.
  destruct (inverse _ _); [discriminate|congruence|discriminate].
Qed.

Lemma steps_cases l : forall x y, arrays_ok N r s mask EToV Verts xS ss l x y -> steps l (x, y) = Throw \/ exists x' y', steps l (x, y) = Ok (x', y') /\ (mrows x' = mrows x /\ mcols x' = mcols x) /\ (mrows y' = mrows y /\ mcols y' = mcols y) /\
  (forall n a, ~ In a (map fst l) -> ment x' n a = ment x n a /\ ment y' n a = ment y n a) /\ (shared = false -> x' = x /\ y' = y).
Proof.
  induction l as [|e l IH]; intros x y Ha; cbn [deform_faces]; [right; exists x, y; repeat split; auto|]. apply arrays_tail in Ha. destruct Ha as (H1 & H2).
  destruct (step_cases e x y H1) as [-> | (x1 & y1 & i1 & i2 & -> & _ & _ & Sx & Sy & Ho & Hc & _)]; [now left|]. cbn [bind]. destruct (IH x1 y1 (arrays_same l x y x1 y1 Sx Sy H2)) as [H | (x' & y' & E' & Sx' & Sy' & Ho' & Hc')]; [now left|]. right. exists x', y'.
  split; [exact E'|]. split; [intuition congruence|]. split; [intuition congruence|]. split.
  - intros n a Hna. cbn [map In] in Hna. destruct (Ho' n a ltac:(tauto)) as (-> & ->). apply Ho. intro; apply Hna; now left.
  - intro Hsh. destruct (Hc' Hsh) as (-> & ->). now apply Hc.
Qed.
Lemma steps_app l m x y : steps (l ++ m) (x, y) = bind (steps l (x, y)) (steps m).
Proof. revert x y. induction l as [|e l IH]; intros x y; [reflexivity|]. cbn [app deform_faces]. destruct (step e (x, y)) as [(x1, y1)| |]; [apply IH|reflexivity|reflexivity]. Qed.
Lemma arrays_split l m x y : arrays_ok N r s mask EToV Verts xS ss (l ++ m) x y -> arrays_ok N r s mask EToV Verts xS ss l x y /\ arrays_ok N r s mask EToV Verts xS ss m x y.
Proof.
  intros (Ls & Rx & Ry & Lm & Hm & (Hrows & Hin) & Lss & Hc). split; (split; [exact Ls|]; split; [exact Rx|]; split; [exact Ry|]; split; [exact Lm|]; split; [exact Hm|]; split; [split; [exact Hrows|]|split; [exact Lss|]]);
  intros a Ha; (apply Hin || apply Hc); apply in_or_app; auto.
Qed.
Lemma follows_ext fm f k curve t1 t2 x x' a a' : (forall n, ment a n k = ment x n k) -> (forall n, ment a' n k = ment x' n k) -> follows N r s fm f k curve t1 t2 a a' -> follows N r s fm f k curve t1 t2 x x'.
Proof. intros H1 H2 (cs & Lc & Hc & Hn). exists cs. split; [exact Lc|]. split; [intros n Hi q; rewrite <- H1; now apply Hc|]. intros n Hi q. rewrite <- H1, <- H2. now apply Hn. Qed.
Lemma steps_one l1 e l2 x y x' y' : arrays_ok N r s mask EToV Verts xS ss (l1 ++ e :: l2) x y -> steps (l1 ++ e :: l2) (x, y) = Ok (x', y') -> ~ In (fst e) (map fst l1) -> ~ In (fst e) (map fst l2) ->
  exists i1 i2, the_sample xS yS (fst (end_points EToV Verts e)) i1 /\ the_sample xS yS (snd (end_points EToV Verts e)) i2 /\ (i1 = i2 -> forall n, ment x' n (fst e) = ment x n (fst e) /\ ment y' n (fst e) = ment y n (fst e)) /\
    (shared = true -> i1 <> i2 -> follows N r s (nth (snd e) mask []) (snd e) (fst e) sx (nth i1 ss 0%R) (nth i2 ss 0%R) x x' /\ follows N r s (nth (snd e) mask []) (snd e) (fst e) sy (nth i1 ss 0%R) (nth i2 ss 0%R) y y').
Proof.
  intros Ha E1 Hn1 Hn2. apply arrays_split in Ha. destruct Ha as (Ha1 & Ha2). rewrite steps_app in E1. destruct (steps_cases l1 x y Ha1) as [X | (x1 & y1 & X & Sx & Sy & Ho & _)]; rewrite X in E1; [discriminate|]. cbn [bind deform_faces] in E1. clear X.
  apply arrays_tail in Ha2. destruct Ha2 as (Hb & Hd). destruct (step_cases e x1 y1 (arrays_same [e] x y x1 y1 Sx Sy Hb)) as [X | (x2 & y2 & i1 & i2 & X & P1 & P2 & Sx2 & Sy2 & Ho2 & _ & Hsame & Hf)]; rewrite X in E1; [discriminate|]. cbn [bind] in E1. clear X.
  assert (Hd2 : arrays_ok N r s mask EToV Verts xS ss l2 x2 y2) by (apply (arrays_same l2 x y); [intuition congruence|intuition congruence|exact Hd]).
  destruct (steps_cases l2 x2 y2 Hd2) as [X | (x3 & y3 & X & _ & _ & Ho3 & _)]; rewrite X in E1; [discriminate|]. injection E1 as <- <-.
  exists i1, i2. split; [exact P1|]. split; [exact P2|].
  assert (E0 : forall n, ment x1 n (fst e) = ment x n (fst e) /\ ment y1 n (fst e) = ment y n (fst e)) by (intro; now apply Ho). assert (E3 : forall n, ment x3 n (fst e) = ment x2 n (fst e) /\ ment y3 n (fst e) = ment y2 n (fst e)) by (intro; now apply Ho3).
  split.
  - intros H n. destruct (Hsame H) as (-> & ->) in E3. destruct (E3 n), (E0 n). split; congruence.
  - intros Hsh Hne. destruct (Hf Hsh Hne) as (F1 & F2). split; [apply (follows_ext _ _ _ _ _ _ x x3 x1 x2)|apply (follows_ext _ _ _ _ _ _ y y3 y1 y2)]; auto; intro n; apply E0 || (symmetry; apply E3).
Qed.
Lemma steps_throw l e x y : arrays_ok N r s mask EToV Verts xS ss l x y -> In e l -> (forall i1 i2, ~ (the_sample xS yS (fst (end_points EToV Verts e)) i1 /\ the_sample xS yS (snd (end_points EToV Verts e)) i2)) -> steps l (x, y) = Throw.
Proof.
  revert x y. induction l as [|a l IH]; intros x y Ha Hin Hn; [destruct Hin|]. apply arrays_tail in Ha. destruct Ha as (H1 & H2). cbn [deform_faces].
  destruct Hin as [->|Hin]; [rewrite (step_throws e x y H1 Hn); reflexivity|]. destruct (step_cases a x y H1) as [-> | (x1 & y1 & i1 & i2 & -> & _ & _ & Sx & Sy & _)]; [reflexivity|]. cbn [bind]. apply IH; auto. now apply (arrays_same l x y).
Qed.
Lemma steps_run l : inverts_regular (S N) inverse -> forall x y, arrays_ok N r s mask EToV Verts xS ss l x y ->
  (forall e, In e l -> NoDup (map (fun n => nth n (side_coord (snd e) r s) 0%R) (nth (snd e) mask [])) /\ exists i1 i2, the_sample xS yS (fst (end_points EToV Verts e)) i1 /\ the_sample xS yS (snd (end_points EToV Verts e)) i2) ->
  exists x' y', steps l (x, y) = Ok (x', y').
Proof.
  intro Hr. induction l as [|a l IH]; intros x y Ha Hl; [exists x, y; reflexivity|]. apply arrays_tail in Ha. destruct Ha as (H1 & H2). cbn [deform_faces]. destruct (Hl a (or_introl eq_refl)) as (Hn & i1 & i2 & P1 & P2).
  pose proof (step_runs a x y i1 i2 H1 Hr Hn P1 P2) as Ht. destruct (step_cases a x y H1) as [X | (x1 & y1 & j1 & j2 & -> & _ & _ & Sx & Sy & _)]; [contradiction|]. cbn [bind]. apply IH; [now apply (arrays_same l x y)|]. intros e He. apply Hl. now right.
Qed.
End Deform.
