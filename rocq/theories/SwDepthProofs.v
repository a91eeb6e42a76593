(* SwDepthProofs.v - reading the depth file. *)
From Coq Require Import ZArith List Lia Bool Arith Ascii.
From Verif Require Import Base Loops Num BlitzProofs CsvModel CsvSpec CsvProofs CsvReadProofs SwSetupModel SwSetupSpec.
Import ListNotations.

Definition single {V} (conv : kind V) (row : list str) (v : V) : Prop := exists s, row = [s] /\ understood conv s v.

Lemma setn_out {X} (l : list X) i v : length l <= i -> setn l i v = UB.
Proof. intro H. unfold setn. destruct (Nat.ltb_spec i (length l)); [lia|reflexivity]. Qed.
Lemma upd_len {X} (l : list X) i v : length (upd l i v) = length l.
Proof. revert i. induction l; intros [|i]; cbn; auto. Qed.
Lemma nth_error_upd {X} (l : list X) i v j : i < length l -> nth_error (upd l i v) j = if j =? i then Some v else nth_error l j.
Proof.
  revert i j. induction l as [|a l IH]; cbn [length]; intros i j H; [lia|]. destruct i, j; cbn; auto. apply IH. lia.
Qed.

Section Depth.
Context {T : Type}.
Local Notation R := CsvProofs.R.
Lemma values_ok (conv : kind T) r v : R r v -> vcols v = 1%Z ->
  exists vals res r' v', parseRowValues [conv] r = Ok ((vals, res), r') /\
    parsed (fun _ => [conv]) v (match res with Ret b => ARow b vals | Exn => AThrow vals end) v' /\ R r' v' /\
    (res = Ret true -> length (srest (strm r')) < length (srest (strm r))).
Proof.
  intros H Hc. unfold parseRowValues. rewrite (R_cols _ _ H), Hc. cbn [length]. change (Z.of_nat 1 =? size_t 1)%Z with true. cbn iota.
  apply (parse_row_ok _ (fun _ => [conv])); auto. intros toks E. rewrite Hc in E. cbn [length]. lia.
Qed.

Lemma single_cons conv row rows (vs : list T) : Forall2 (single conv) (row :: rows) vs -> exists v vs', vs = v :: vs' /\ single conv row v /\ Forall2 (single conv) rows vs'.
Proof. intro H. inversion H; subst. eauto. Qed.

Lemma depth_loop_ok (conv : kind T) fuel : forall r v count data, R r v -> vend v = false -> length (srest (strm r)) < fuel -> vcols v = 1%Z ->
  forall rows, rows_of (vdelims v) (skipn (vpos v) (lines v)) rows ->
  (forall vs, Forall2 (single conv) rows vs -> count + length vs <= length data ->
     exists data', depth_loop fuel conv r count data = Ok data' /\ length data' = length data /\
       forall i, nth_error data' i = if (i <? count) || (count + length vs <=? i) then nth_error data i else nth_error vs (i - count)) /\
  (forall vs, Forall2 (single conv) rows vs -> count <= length data < count + length vs -> depth_loop fuel conv r count data = UB) /\
  ((forall vs, ~ Forall2 (single conv) rows vs) -> count + length rows <= length data -> depth_loop fuel conv r count data = Throw).
Proof.
  induction fuel as [|n IH]; intros r v count data H Hv Hf Hc rows Hr; [lia|]. cbn [depth_loop].
  destruct (values_ok conv r v H Hc) as (vals & res & r1 & v1 & E & P & H1 & Hs). rewrite E. cbn [bind].
  inversion P as [v' N Ea | t fs v' N F C Ea | t fs vs v' N F C D Ea | t fs vs v' N F C D Ea]; subst v'.
  - destruct res as [[|]|]; try discriminate. injection Ea as <-. destruct (next_row_rows _ _ _ _ _ N Hv Hr) as [-> He]. split; [|split].
    + intros vs Hvs Hl. inversion Hvs; subst. exists data. split; [reflexivity|]. split; [reflexivity|]. intro i. cbn [length].
      destruct (Nat.ltb_spec i count); cbn [orb]; [reflexivity|]. destruct (Nat.leb_spec (count + 0) i); [reflexivity|lia].
    + intros vs Hvs Hl. inversion Hvs; subst. cbn [length] in Hl. lia.
    + intros Hno _. destruct (Hno [] (Forall2_nil _)).
  - destruct res as [|]; try discriminate. destruct (next_row_rows _ _ _ _ _ N Hv Hr) as (fs' & rows' & -> & F' & Hv1 & Hr').
    rewrite <- (fields_unique _ _ _ F _ F') in *.
    assert (Hbad : forall vs, ~ Forall2 (single conv) (fs :: rows') vs).
    { intros vs Hvs. destruct (single_cons _ _ _ _ Hvs) as (w & vs' & -> & (s & -> & _) & _). apply C. rewrite Hc. reflexivity. }
    split; [intros vs Hvs; destruct (Hbad vs Hvs)|]. split; [intros vs Hvs; destruct (Hbad vs Hvs)|]. reflexivity.
  - destruct res as [[|]|]; try discriminate. injection Ea as ->. destruct (next_row_rows _ _ _ _ _ N Hv Hr) as (fs' & rows' & -> & F' & Hv1 & Hr').
    rewrite <- (fields_unique _ _ _ F _ F') in *. destruct (next_row_frame _ _ _ N) as (Hd & Hc1 & Hl & Hk). rewrite <- Hd in Hr'. specialize (Hs eq_refl).
    inversion D as [|k1 ks1 s1 ss1 w1 ws1 ok1 U D1|]; subst. inversion D1; subst. 
    assert (Hrow : single conv [s1] w1) by (exists s1; auto).
    assert (Hval : forall w, single conv [s1] w -> w = w1). { intros w (s & Es & Us). injection Es as <-. exact (understood_fun _ _ _ _ Us U). }
    destruct (Nat.lt_ge_cases count (length data)) as [Hlt|Hge].
    + rewrite (setn_ok data count w1 Hlt). cbn [bind]. rewrite Hc in Hc1.
      destruct (IH r1 v1 (S count) (upd data count w1) H1 Hv1 ltac:(lia) Hc1 rows' Hr') as (X1 & X2 & X3). rewrite upd_len in *. split; [|split].
      * intros vs Hvs HL. destruct (single_cons _ _ _ _ Hvs) as (w & vs' & -> & Hw & Hvs'). rewrite (Hval w Hw) in *. cbn [length] in HL.
        destruct (X1 vs' Hvs' ltac:(lia)) as (data' & Ed & Ld & Hn). exists data'. split; [exact Ed|]. split; [exact Ld|]. intro i. rewrite Hn. cbn [length].
        rewrite !nth_error_upd by exact Hlt.
        destruct (Nat.ltb_spec i (S count)), (Nat.ltb_spec i count), (Nat.eqb_spec i count), (Nat.leb_spec (S count + length vs') i), (Nat.leb_spec (count + S (length vs')) i); cbn [orb]; try lia; try reflexivity.
        -- subst i. rewrite Nat.sub_diag. reflexivity.
        -- replace (i - count) with (S (i - S count)) by lia. reflexivity.
      * intros vs Hvs HL. destruct (single_cons _ _ _ _ Hvs) as (w & vs' & -> & Hw & Hvs'). cbn [length] in HL. apply (X2 vs' Hvs'). lia.
      * intros Hno HL. cbn [length] in HL. apply X3; [|lia]. intros vs Hvs. apply (Hno (w1 :: vs)). constructor; assumption.
    + rewrite setn_out by lia. cbn [bind]. split; [|split].
      * intros vs Hvs HL. destruct (single_cons _ _ _ _ Hvs) as (w & vs' & -> & _). cbn [length] in HL. lia.
      * reflexivity.
      * intros _ HL. cbn [length] in HL. lia.
  - destruct res as [|]; try discriminate. destruct (next_row_rows _ _ _ _ _ N Hv Hr) as (fs' & rows' & -> & F' & Hv1 & Hr').
    rewrite <- (fields_unique _ _ _ F _ F') in *.
    assert (Hbad : forall vs, ~ Forall2 (single conv) (fs :: rows') vs).
    { intros ws Hvs. destruct (single_cons _ _ _ _ Hvs) as (w & vs' & -> & (s & -> & U) & _).
      assert (D' : delivered [conv] [s] [w] true) by (constructor; [exact U|constructor]). destruct (delivered_det _ _ _ _ D _ _ D') as (_ & X). discriminate. }
    split; [intros ws Hvs; destruct (Hbad ws Hvs)|]. split; [intros ws Hvs; destruct (Hbad ws Hvs)|]. reflexivity.
Qed.

Lemma column_rows (conv : kind T) t vs ls rows : lines_of t ls -> rows_of ["009"; " "]%char ls rows -> (column conv t vs <-> rows <> [] /\ Forall2 (single conv) rows vs).
Proof.
  intros Hl Hr. split.
  - intros (ls' & rows' & vals & Hl' & _ & Hr' & Hn & Hc & Hne & Hu & Hd). rewrite (lines_unique _ _ Hl' _ Hl) in Hr'. cbn [Z.to_nat skipn] in Hr'.
    rewrite (rows_unique _ _ _ Hr' _ Hr) in *. split; [intros ->; specialize (Hne eq_refl); discriminate|].
    assert (Hs : forall rows vals, Forall (fun row => Z.of_nat (length row) = 1%Z) rows -> Forall2 (Forall2 (understood conv)) rows vals -> Forall2 (single conv) rows (concat vals)).
    { clear. intros rows vals HF HU. revert HF. induction HU as [|row w rows vals U B IH]; intro HF; [constructor|]. apply Forall_cons_iff in HF as (HF1 & HF2). specialize (IH HF2). destruct row as [|s [|s' row]]; cbn [length] in HF1; try lia.
      inversion U as [|? ? ? ? U1 U2]; subst. inversion U2; subst. cbn [concat app]. constructor; [exists s; auto|exact IH]. }
    rewrite Hd. apply Hs; assumption.
  - intros (Hne & Hs). exists ls, rows, (map (fun v => [v]) vs). split; [exact Hl|]. split; [lia|]. split; [exact Hr|]. split; [symmetry; eapply Forall2_len; exact Hs|].
    assert (Hall : Forall (fun row => Z.of_nat (length row) = 1%Z) rows /\ Forall2 (Forall2 (understood conv)) rows (map (fun v => [v]) vs)).
    { clear -Hs. induction Hs as [|row v rows vs (s & -> & U) B (I1 & I2)]; [split; constructor|]. split; constructor; auto. }
    split; [apply Hall|]. split; [contradiction|]. split; [apply Hall|]. clear. induction vs; cbn; congruence.
Qed.

Variable A : arith T.
Lemma fill_ok data (H : mat T) : length data = mrows H * mcols H -> exists H', for_ (mcols H) (fun k => for_ (mrows H) (fun n => depth_step A data k n)) (H, 0) = Ok (H', mcols H * mrows H) /\
  mrows H' = mrows H /\ mcols H' = mcols H /\ forall n k d0, n < mrows H -> k < mcols H -> ment H' n k = at_least A (fofZ A 150%Z) (nth (k * mrows H + n) data d0).
Proof.
  intro HL. set (Np := mrows H) in *. set (K := mcols H) in *.
  destruct (for_inv (fun k (st : mat T * nat) => snd st = k * Np /\ mrows (fst st) = Np /\ mcols (fst st) = K /\ forall n k' d0, n < Np -> k' < k -> ment (fst st) n k' = at_least A (fofZ A 150%Z) (nth (k' * Np + n) data d0))
     K (fun k => for_ Np (fun n => depth_step A data k n)) (H, 0)) as ((H' & c) & E & Hc & H1 & H2 & H3).
  - cbn [fst snd]. repeat split; auto. intros; lia.
  - intros k (H0 & c0) Hk (Hc & H1 & H2 & H3). cbn [fst snd] in *.
    destruct (for_inv (fun n (st : mat T * nat) => snd st = k * Np + n /\ mrows (fst st) = Np /\ mcols (fst st) = K /\
        forall n' k' d0, n' < Np -> (k' < k \/ k' = k /\ n' < n) -> ment (fst st) n' k' = at_least A (fofZ A 150%Z) (nth (k' * Np + n') data d0))
      Np (fun n => depth_step A data k n) (H0, c0)) as ((H' & c') & E & G1 & G2 & G3 & G4).
    + cbn [fst snd]. split; [lia|]. split; [exact H1|]. split; [exact H2|]. intros n' k' d0 Hn [Hk'|(_ & Hn')]; [apply H3; assumption|lia].
    + intros n (H'' & c'') Hn (G1 & G2 & G3 & G4). cbn [fst snd] in *. unfold depth_step. assert (Hin : c'' < length data) by (rewrite HL, G1; nia).
      destruct (nth_error data c'') as [v|] eqn:Ev; [|apply nth_error_None in Ev; lia]. rewrite (getn_ok data c'' v Ev). cbn [bind].
      unfold mset. rewrite inb_true by lia. cbn [bind]. eexists. split; [reflexivity|]. cbn [fst snd mrows mcols ment]. split; [lia|]. split; [exact G2|]. split; [exact G3|].
      intros n' k' d0 Hn' Hcase. destruct (Nat.eqb_spec n' n) as [->|Hne]; cbn [andb].
      * destruct (Nat.eqb_spec k' k) as [->|Hke]; [|apply G4; [assumption|left; lia]]. f_equal. symmetry. apply nth_error_nth. rewrite <- G1. exact Ev.
      * apply G4; [assumption|lia].
    + exists (H', c'). split; [exact E|]. cbn [fst snd] in *. split; [lia|]. split; [exact G2|]. split; [exact G3|]. intros n' k' d0 Hn Hk'. apply G4; [assumption|lia].
  - cbn [fst snd] in *. exists H'. rewrite E, Hc. split; [reflexivity|]. split; [exact H1|]. split; [exact H2|]. intros n k d0 Hn Hk. apply H3; assumption.
Qed.

Lemma opened_view t : small_text t -> exists r v ls, openFile (Some t) 0 ["009"; " "]%char = Ok (Ret tt, r) /\ R r v /\ vend v = false /\ lines_of t ls /\ lines v = ls /\ vpos v = 0 /\ vdelims v = ["009"; " "]%char /\
  forall rows, rows_of ["009"; " "]%char ls rows -> vcols v = match rows with [] => 0%Z | row :: _ => Z.of_nat (length row) end.
Proof.
  intro Hs. assert (HL : legal_delims ["009"; " "]%char) by (split; [discriminate|]; intros c [<-|[<-|[]]]; cbn; auto).
  destruct (openFile_ok (Some t) 0 ["009"; " "]%char Hs ltac:(unfold in_int, INT_MIN, INT_MAX; lia)) as (res & r & v & E & O & H).
  destruct res as [[]|]; inversion O as [ls Hbad _|Hb Hf|t' ls Hb Hf Hl Hlt|t' ls c Hb Hf Hl Hle Hc]; subst; try contradiction; try discriminate; try lia.
  injection Hf as <-. exists r. eexists. exists ls. split; [exact E|]. split; [exact H|]. split; [reflexivity|]. split; [exact Hl|]. split; [reflexivity|]. split; [reflexivity|]. split; [reflexivity|].
  intros rows Hr. cbn [vcols]. destruct Hc as (row & v' & N & Hrow).
  pose proof (next_row_rows ["009"; " "]%char _ _ _ rows N eq_refl Hr) as X. destruct row as [row|].
  - destruct X as (fs & rows' & -> & F & _). destruct Hrow as (fs' & F' & ->). rewrite (fields_unique _ _ _ F' _ F). reflexivity.
  - destruct X as (-> & _). exact Hrow.
Qed.

Lemma read_depth_ok (conv : kind T) t (H : mat T) : small_text t ->
  (forall vs, column conv t vs -> length vs <= mrows H * mcols H -> exists H', readDepthData A conv (Some t) H = Ok H' /\ mrows H' = mrows H /\ mcols H' = mcols H /\
     forall n k, n < mrows H -> k < mcols H -> ment H' n k = at_least A (fofZ A 150%Z) (nth (k * mrows H + n) vs (fofZ A 0%Z))) /\
  (forall vs, column conv t vs -> mrows H * mcols H < length vs -> readDepthData A conv (Some t) H = UB) /\
  ((forall vs, ~ column conv t vs) -> forall e, entries t e -> e <= mrows H * mcols H -> readDepthData A conv (Some t) H = Throw).
Proof.
  intro Hs. destruct (opened_view t Hs) as (r & v & ls & E & HR & Hv & Hl & Els & Hp & Hd & Hc). unfold readDepthData. rewrite E. cbn [bind].
  destruct (rows_exist ["009"; " "]%char ls) as (rows & Hr). specialize (Hc rows Hr). pose proof (fun vs => column_rows conv t vs ls rows Hl Hr) as HC.
  set (n := mrows H * mcols H) in *. assert (Hdata : length (repeat (fofZ A 0%Z) n) = n) by apply repeat_length.
  destruct (Z.eq_dec (vcols v) 1) as [E1|E1].
  - assert (Hr' : rows_of (vdelims v) (skipn (vpos v) (lines v)) rows) by (rewrite Hd, Hp, Els; exact Hr).
    destruct (depth_loop_ok conv (S (length (srest (strm r)))) r v 0 (repeat (fofZ A 0%Z) n) HR Hv ltac:(lia) E1 rows Hr') as (X1 & X2 & X3). rewrite Hdata in *. split; [|split].
    + intros vs Hvs Hle. apply HC in Hvs as (Hne & Hvs). destruct (X1 vs Hvs Hle) as (data & Ed & Ld & Hn). rewrite Ed. cbn [bind].
      destruct (fill_ok data H) as (H' & EF & F1 & F2 & F3); [lia|]. rewrite EF. cbn [bind fst]. exists H'. split; [reflexivity|]. split; [exact F1|]. split; [exact F2|].
      intros i k Hi Hk. rewrite (F3 i k (fofZ A 0%Z) Hi Hk). f_equal. set (j := k * mrows H + i). assert (Hj : j < n) by (unfold j, n; nia). specialize (Hn j). cbn [Nat.ltb Nat.leb orb Nat.add] in Hn.
      replace (j <? 0) with false in Hn by (symmetry; apply Nat.ltb_ge; lia). cbn [orb] in Hn. rewrite Nat.sub_0_r in Hn. destruct (Nat.leb_spec (length vs) j) as [Hge|Hlt].
      * rewrite (nth_overflow vs) by lia. apply nth_error_nth. rewrite Hn. apply nth_error_repeat. exact Hj.
      * rewrite (nth_error_nth' vs (fofZ A 0%Z)) in Hn by lia. apply nth_error_nth. exact Hn.
    + intros vs Hvs Hlt. apply HC in Hvs as (_ & Hvs). rewrite (X2 vs Hvs) by lia. reflexivity.
    + intros Hno e (ls' & rows' & Hl' & Hr'' & ->) He. rewrite (lines_unique _ _ Hl' _ Hl) in Hr''. rewrite (rows_unique _ _ _ Hr'' _ Hr) in He.
      rewrite X3; [reflexivity| |lia]. intros vs Hvs. apply (Hno vs). apply HC. split; [|exact Hvs]. intros ->. rewrite Hc in E1. discriminate.
  - assert (Hthrow : depth_loop (S (length (srest (strm r)))) conv r 0 (repeat (fofZ A 0%Z) n) = Throw).
    { cbn [depth_loop]. unfold parseRowValues. rewrite size_t_small; [|rewrite (R_cols _ _ HR); apply (R_int _ _ HR)|unfold INT_MAX; cbn; lia].
      rewrite (R_cols _ _ HR). destruct (Z.eqb_spec (Z.of_nat (length [conv])) (vcols v)) as [Ex|_]; [cbn in Ex; lia|]. reflexivity. }
    rewrite Hthrow. assert (Hno : forall vs, ~ column conv t vs).
    { intros vs Hvs. apply HC in Hvs as (Hne & Hvs). destruct rows as [|row rows]; [congruence|]. destruct (single_cons _ _ _ _ Hvs) as (w & vs' & -> & (s & -> & _) & _). apply E1. rewrite Hc. reflexivity. }
    split; [intros vs Hvs; destruct (Hno vs Hvs)|]. split; [intros vs Hvs; destruct (Hno vs Hvs)|]. reflexivity.
Qed.
End Depth.
