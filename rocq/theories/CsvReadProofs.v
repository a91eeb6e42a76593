From Coq Require Import ZArith List Lia Bool Ascii.
From Verif Require Import Base Loops CsvModel CsvSpec CsvProofs.
Import ListNotations.
Local Open Scope Z_scope.

(* ---------- the specification determines the result ---------- *)
Lemma drop_space_app a s : blank a -> drop_space (a ++ s) = drop_space s.
Proof.
  induction 1 as [|c a Hc Ha IH]; simpl; auto.
  apply is_space_white in Hc. now rewrite Hc.
Qed.
Lemma drop_space_id c s : ~ white c -> drop_space (c :: s) = c :: s.
Proof. intros H. simpl. apply is_space_nwhite in H. now rewrite H. Qed.

Lemma trimmed_trim l t : trimmed l t -> t = trim l.
Proof.
  intros (a & b & -> & Ha & Hb & H1 & H2). unfold trim. rewrite drop_space_app by auto.
  destruct t as [|c t].
  - simpl. rewrite (proj2 (drop_space_blank b)) by auto. auto.
  - simpl ((c :: t) ++ b). rewrite drop_space_id by (eapply H1; eauto).
    change (c :: t ++ b) with ((c :: t) ++ b). rewrite rev_app_distr.
    rewrite drop_space_app by (now apply blank_rev).
    destruct (rev (c :: t)) as [|x r] eqn:E.
    + apply (f_equal (@length _)) in E. rewrite rev_length in E. discriminate.
    + rewrite drop_space_id.
      * rewrite <- E, rev_involutive. auto.
      * assert (c :: t = rev r ++ [x]) as E2.
        { rewrite <- (rev_involutive (c :: t)), E. auto. }
        eapply H2; eauto.
Qed.
Lemma trimmed_unique l t t' : trimmed l t -> trimmed l t' -> t = t'.
Proof. intros H H'. rewrite (trimmed_trim _ _ H), (trimmed_trim _ _ H'). auto. Qed.

Lemma take_line_det v l v1 l' v1' : take_line v l v1 -> take_line v l' v1' -> l = l' /\ v1 = v1'.
Proof.
  intros H H'. inversion H as [a Ha Hn|Ha]; inversion H' as [b Hb Hn'|Hb]; subst; auto.
  - rewrite Hn in Hn'. injection Hn' as ->. auto.
  - destruct Hb as [|Hb]; [congruence|]. apply nth_error_None in Hb. congruence.
  - destruct Ha as [|Ha]; [congruence|]. apply nth_error_None in Ha. congruence.
Qed.
Lemma take_lines_det n v v1 : take_lines n v v1 -> forall v1', take_lines n v v1' -> v1 = v1'.
Proof.
  induction 1 as [v | n v l v1 v2 T H IH | n v v1 T]; intros v' H'.
  - now inversion H'.
  - inversion H' as [|? ? ? ? ? T' H''|? ? ? T']; subst;
      destruct (take_line_det _ _ _ _ _ T T') as [E ->]; [|discriminate]. auto.
  - inversion H' as [|? ? ? ? ? T' H''|? ? ? T']; subst;
      destruct (take_line_det _ _ _ _ _ T T') as [E ->]; [discriminate|]. auto.
Qed.

Lemma next_row_det v row v1 row' v1' : next_row v row v1 -> next_row v row' v1' -> row = row' /\ v1 = v1'.
Proof.
  intros H H'.
  inversion H as [k l t Hv Hb Hk Hnb Ht | Hv Hb | Hv]; inversion H' as [k' l' t' Hv' Hb' Hk' Hnb' Ht' | Hv' Hb' | Hv'];
    subst; auto; try congruence.
  - assert (k = k') as ->.
    { destruct (Nat.lt_trichotomy k k') as [L|[L|L]]; auto; exfalso.
      - apply Hnb. apply (Hb' (vpos v + k)%nat l); auto. lia.
      - apply Hnb'. apply (Hb (vpos v + k')%nat l'); auto. lia. }
    assert (l' = l) as -> by congruence. rewrite (trimmed_unique _ _ _ Ht Ht'). auto.
  - exfalso. apply Hnb. apply (Hb' (vpos v + k)%nat l); auto. lia.
  - exfalso. apply Hnb'. apply (Hb (vpos v + k')%nat l'); auto. lia.
Qed.
Lemma count_rows_det v n v1 : count_rows v n v1 -> forall n' v1', count_rows v n' v1' -> n = n' /\ v1 = v1'.
Proof.
  induction 1 as [v v' N | v t v1 n v2 N H IH]; intros n' v1' H'; inversion H' as [? ? N' | ? ? ? ? ? N' H'']; subst;
    destruct (next_row_det _ _ _ _ _ N N') as [E ->]; try discriminate; auto.
  destruct (IH _ _ H'') as [-> ->]. auto.
Qed.

Lemma opened_det f n d ok v ok' v' : opened f n d ok v -> opened f n d ok' v' -> ok = ok' /\ v = v'.
Proof.
  intros H H'.
  inversion H as [ls L M | L F | t ls L F Hl Hn | t ls c L F Hl Hn Hc];
  inversion H' as [ls' L' M' | L' F' | t' ls' L' F' Hl' Hn' | t' ls' c' L' F' Hl' Hn' Hc']; subst; auto; try easy.
  - destruct f as [t|].
    + destruct M as (l & -> & M), M' as (l' & -> & M'). rewrite (lines_unique _ _ M _ M'). auto.
    + subst. auto.
  - injection F' as <-. rewrite (lines_unique _ _ Hl _ Hl'). auto.
  - injection F' as <-. rewrite (lines_unique _ _ Hl _ Hl') in *. lia.
  - injection F' as <-. rewrite (lines_unique _ _ Hl _ Hl') in *. lia.
  - injection F' as <-. rewrite (lines_unique _ _ Hl _ Hl') in *. split; auto. f_equal.
    destruct Hc as (row & v1 & N & Hc), Hc' as (row' & v1' & N' & Hc').
    destruct (next_row_det _ _ _ _ _ N N') as [-> _]. destruct row' as [r|]; [|congruence].
    destruct Hc as (fs & F1 & ->), Hc' as (fs' & F1' & ->). now rewrite (fields_unique _ _ _ F1 _ F1').
Qed.

Section Values.
Context {V : Type}.
Lemma delivered_det (ks : list (kind V)) ss vs ok : delivered ks ss vs ok ->
  forall vs' ok', delivered ks ss vs' ok' -> vs = vs' /\ ok = ok'.
Proof.
  induction 1 as [| k ks s ss v vs ok U D IH | k ks s ss U L]; intros vs' ok' H'; inversion H'; subst; auto.
  - destruct (IH _ _ H6) as [-> ->]. rewrite (understood_fun k s v v0); auto.
  - exfalso. eapply H5; eauto.
  - exfalso. eapply U; eauto.
Qed.
Lemma parsed_det types v (a : answer V) v1 a' v1' : parsed types v a v1 -> parsed types v a' v1' -> a = a' /\ v1 = v1'.
Proof.
  intros H H'.
  inversion H as [? N|t fs ? N F C|t fs vs ? N F C D|t fs vs ? N F C D];
  inversion H' as [? N'|t' fs' ? N' F' C'|t' fs' vs' ? N' F' C' D'|t' fs' vs' ? N' F' C' D']; subst;
    destruct (next_row_det _ _ _ _ _ N N') as [E ->]; try discriminate; auto;
    injection E as ->; pose proof (fields_unique _ _ _ F _ F'); subst; try congruence;
    destruct (delivered_det _ _ _ _ D _ _ D') as [-> E]; try discriminate; auto.
Qed.
Lemma expected_det (c : call V) v a v1 a' v1' : expected c v a v1 -> expected c v a' v1' -> a = a' /\ v1 = v1'.
Proof.
  intros H H'. inversion H; subst; inversion H'; subst; auto; try congruence.
  - match goal with A : opened _ _ _ _ _, B : opened _ _ _ _ _ |- _ => destruct (opened_det _ _ _ _ _ _ _ A B) as [-> ->] end. auto.
  - match goal with A : take_line _ _ _, B : take_line _ _ _ |- _ => destruct (take_line_det _ _ _ _ _ A B) as [-> ->] end. auto.
  - match goal with A : take_lines _ _ _, B : take_lines _ _ _ |- _ => rewrite (take_lines_det _ _ _ A _ B) end. auto.
  - match goal with A : at_start _ _, B : at_start _ _ |- _ => rewrite (take_lines_det _ _ _ A _ B) end. auto.
  - match goal with A : count_rows _ _ _, B : count_rows _ _ _ |- _ => destruct (count_rows_det _ _ _ A _ _ B) as [-> ->] end. auto.
  - eapply parsed_det; eauto.
  - eapply parsed_det; eauto.
Qed.
Lemma expected_run_det (cs : list (call V)) : forall v rs v1 rs' v1',
  expected_run cs v rs v1 -> expected_run cs v rs' v1' -> rs = rs' /\ v1 = v1'.
Proof.
  induction cs; intros v rs v1 rs' v1' H H'; inversion H; inversion H'; subst; auto.
  match goal with A : expected _ _ _ _, B : expected _ _ _ _ |- _ => destruct (expected_det _ _ _ _ _ _ A B) as [-> ->] end.
  match goal with A : expected_run _ _ _ _, B : expected_run _ _ _ _ |- _ => destruct (IHcs _ _ _ _ _ A B) as [-> ->] end. auto.
Qed.
End Values.

(* ---------- rows of a file ---------- *)
Lemma blank_dec l : {blank l} + {~ blank l}.
Proof.
  destruct (trim l) eqn:E; [left|right]; rewrite <- trim_nil; congruence.
Qed.
Lemma rows_exist d ls : exists rows, rows_of d ls rows.
Proof.
  induction ls as [|l ls (rows & H)].
  - exists []. constructor.
  - destruct (blank_dec l).
    + exists rows. now constructor.
    + exists (tokenizeLine d (trim l) :: rows). apply rows_row with (trim l); auto using trim_trimmed, tokenizeLine_fields.
Qed.
Lemma rows_unique d ls rows : rows_of d ls rows -> forall rows', rows_of d ls rows' -> rows = rows'.
Proof.
  induction 1 as [| l ls rs B H IH | l t fs ls rs B T F H IH]; intros rows' H'; inversion H'; subst; auto; try easy.
  match goal with A : trimmed l ?x |- _ => rewrite (trimmed_unique _ _ _ A T) in * end.
  match goal with A : fields d t _, B : fields d t ?fs |- _ => rewrite (fields_unique _ _ _ F _ B) in * end.
  f_equal; auto.
Qed.

Lemma rows_blank_prefix d pre ls rows : Forall blank pre -> rows_of d ls rows -> rows_of d (pre ++ ls) rows.
Proof. induction 1; simpl; auto. intros. constructor; auto. Qed.
Lemma rows_all_blank d ls : Forall blank ls -> rows_of d ls [].
Proof. intros H. rewrite <- (app_nil_r ls). apply rows_blank_prefix; auto. constructor. Qed.

Lemma skipn_split {A} (l : list A) p k x : nth_error l (p + k) = Some x ->
  skipn p l = firstn k (skipn p l) ++ x :: skipn (S (p + k)) l.
Proof.
  revert p k. induction l as [|a l IH]; intros p k H.
  - destruct (p + k)%nat; discriminate.
  - destruct p as [|p].
    + destruct k as [|k]; cbn in H.
      * injection H as ->. auto.
      * specialize (IH 0%nat k H). cbn [skipn Nat.add firstn app] in *. now f_equal.
    + exact (IH p k H).
Qed.
Lemma nth_error_skipn' {A} (l : list A) p i : nth_error (skipn p l) i = nth_error l (p + i).
Proof. revert p; induction l; intros [|p]; simpl; auto. destruct i; auto. Qed.

Lemma next_row_rows d v row v' rows : next_row v row v' -> vend v = false ->
  rows_of d (skipn (vpos v) (lines v)) rows ->
  match row with
  | None => rows = [] /\ vend v' = true
  | Some t => exists fs rows', rows = fs :: rows' /\ fields d t fs /\ vend v' = false /\
                rows_of d (skipn (vpos v') (lines v')) rows'
  end.
Proof.
  intros N Hv Hr. inversion N as [k l t _ Hb Hk Hnb Ht | _ Hb | Hv']; subst; [| |congruence].
  - rewrite (skipn_split _ _ _ _ Hk) in Hr.
    assert (Forall blank (firstn k (skipn (vpos v) (lines v)))) as Hpre.
    { apply Forall_forall. intros x Hx. apply In_nth_error in Hx as (i & Hi).
      assert (i < k)%nat as Hik.
      { assert (i < length (firstn k (skipn (vpos v) (lines v))))%nat by (apply nth_error_Some; congruence).
        rewrite firstn_length in *. lia. }
      rewrite nth_error_firstn in Hi || (assert (nth_error (skipn (vpos v) (lines v)) i = Some x) as Hi2
        by (rewrite <- (firstn_skipn k (skipn (vpos v) (lines v))); rewrite nth_error_app1; auto; apply nth_error_Some; congruence); clear Hi; rename Hi2 into Hi).
      rewrite nth_error_skipn' in Hi. apply (Hb (vpos v + i)%nat); auto. lia. }
    destruct (rows_exist d (skipn (S (vpos v + k)) (lines v))) as (rows' & Hr').
    exists (tokenizeLine d t), rows'. split; [|split; [|split]]; auto using tokenizeLine_fields.
    eapply rows_unique; [exact Hr|]. apply rows_blank_prefix; auto.
    apply rows_row with t; auto using tokenizeLine_fields.
  - split; auto. eapply rows_unique; [exact Hr|]. apply rows_all_blank.
    apply Forall_forall. intros x Hx. apply In_nth_error in Hx as (i & Hi).
    rewrite nth_error_skipn' in Hi. apply (Hb (vpos v + i)%nat); auto. lia.
Qed.

Lemma count_rows_rows d v n v' : count_rows v n v' -> forall rows, vend v = false ->
  rows_of d (skipn (vpos v) (lines v)) rows -> n = Z.of_nat (length rows) /\ vend v' = true /\ vlines v' = vlines v /\ vskip v' = vskip v /\ vdelims v' = vdelims v /\ vcols v' = vcols v /\ vpos v' = length (lines v).
Proof.
  induction 1 as [v v' N | v t v1 n v2 N H IH]; intros rows Hv Hr.
  - destruct (next_row_rows d v _ _ _ N Hv Hr) as [-> He]. destruct (next_row_frame _ _ _ N) as (?&?&?&?).
    repeat split; auto. inversion N; subst; auto. congruence.
  - destruct (next_row_rows d v _ _ _ N Hv Hr) as (fs & rows' & -> & F & Hv1 & Hr').
    destruct (next_row_frame _ _ _ N) as (?&?&Hl&?).
    assert (lines v1 = lines v) by (unfold lines; now rewrite Hl).
    destruct (IH rows' Hv1 Hr') as (-> & ? & ? & ? & ? & ? & ?).
    repeat split; auto; try congruence. simpl. lia.
Qed.

Section Values2.
Context {V : Type}.

Lemma delivered_true (k : kind V) fs vs : delivered (repeat k (length fs)) fs vs true <-> Forall2 (understood k) fs vs.
Proof.
  revert vs. induction fs as [|f fs IH]; intros vs; simpl; split; intros H; inversion H; subst; constructor; auto;
  apply IH; auto.
Qed.

Lemma read_loop_ok (k : kind V) fuel : forall r v nr data, R r v -> vend v = false ->
  (length (srest (strm r)) < fuel)%nat ->
  forall rows, rows_of (vdelims v) (skipn (vpos v) (lines v)) rows ->
  exists res r', read_loop fuel k r nr data = Ok (res, r') /\ ncols r' = ncols r /\
    match res with
    | Ret (nr', data') => exists vals, Forall (fun row => Z.of_nat (length row) = vcols v) rows /\
        Forall2 (Forall2 (understood k)) rows vals /\ data' = data ++ concat vals /\ nr' = (nr + length rows)%nat
    | Exn => ~ (exists vals, Forall (fun row => Z.of_nat (length row) = vcols v) rows /\
        Forall2 (Forall2 (understood k)) rows vals)
    end.
Proof.
  induction fuel as [|f IH]; intros r v nr data H Hv Hf rows Hr; [lia|]. simpl.
  destruct (parseRowIterator_ok k r v H) as (vals & res & r1 & v1 & E & P & H1 & Hs). rewrite E. cbn [bind].
  assert (forall t v2, next_row v t v2 -> R r1 v2 -> ncols r1 = ncols r) as Hnc.
  { intros t v2 N H2. rewrite (R_cols _ _ H2), (R_cols _ _ H). apply (next_row_frame _ _ _ N). }
  inversion P as [v' N Ea | t fs v' N F C Ea | t fs vs v' N F C D Ea | t fs vs v' N F C D Ea]; subst v'.
  - destruct res as [[|]|]; try discriminate. injection Ea as <-.
    destruct (next_row_rows _ _ _ _ _ N Hv Hr) as [-> He].
    eexists _, r1. split; [reflexivity|]. split; [eauto|]. exists []. simpl.
    repeat split; auto.
  - destruct res as [|]; try discriminate.
    destruct (next_row_rows _ _ _ _ _ N Hv Hr) as (fs' & rows' & -> & F' & Hv1 & Hr').
    rewrite <- (fields_unique _ _ _ F _ F') in *.
    eexists _, r1. split; [reflexivity|]. split; [eauto|]. intros (vls & A & B). inversion A; subst. congruence.
  - destruct res as [[|]|]; try discriminate. injection Ea as ->.
    destruct (next_row_rows _ _ _ _ _ N Hv Hr) as (fs' & rows' & -> & F' & Hv1 & Hr').
    rewrite <- (fields_unique _ _ _ F _ F') in *.
    destruct (next_row_frame _ _ _ N) as (Hd & Hc & Hl & Hk). rewrite <- Hd in Hr'.
    specialize (Hs eq_refl).
    destruct (IH r1 v1 (S nr) (data ++ vals) H1 Hv1 ltac:(lia) rows' Hr') as (res & r2 & E2 & Hn2 & X).
    exists res, r2. split; auto. split; [rewrite Hn2; eauto|].
    rewrite Hc in X. apply delivered_true in D. destruct res as [[nr' data']|].
    + destruct X as (vls & A & B & -> & ->). exists (vals :: vls). simpl.
      repeat split; auto; rewrite <- ?app_assoc; auto; lia.
    + intros (vls & A & B). apply X. inversion A; inversion B; subst. eauto.
  - destruct res as [|]; try discriminate.
    destruct (next_row_rows _ _ _ _ _ N Hv Hr) as (fs' & rows' & -> & F' & Hv1 & Hr').
    rewrite <- (fields_unique _ _ _ F _ F') in *.
    eexists _, r1. split; [reflexivity|]. split; [eauto|].
    intros (vls & A & B). inversion B as [|? y ? ? U U2]; subst. apply delivered_true in U.
    destruct (delivered_det _ _ _ _ D _ _ U). discriminate.
Qed.

Lemma Forall2_len {A B} (P : A -> B -> Prop) l l' : Forall2 P l l' -> length l = length l'.
Proof. induction 1; simpl; congruence. Qed.

Lemma concat_length (rows : list (list str)) (vals : list (list V)) c P :
  Forall (fun row => Z.of_nat (length row) = c) rows -> Forall2 (Forall2 P) rows vals ->
  Z.of_nat (length (concat vals)) = Z.of_nat (length rows) * c.
Proof.
  intros A B. revert A. induction B as [|row vs rows vals U B IH]; intros A; simpl; auto.
  inversion A; subst. rewrite app_length, Nat2Z.inj_add, IH by auto.
  apply Forall2_len in U. rewrite <- U. lia.
Qed.

Lemma csvread_ok (k : kind V) f n d :
  (match f with Some t => small_text t | None => True end) -> in_int n ->
  exists res, csvread k f n d = Ok res /\
    forall nr nc data, res = Ret (nr, nc, data) <->
      legal_delims d /\ exists t, f = Some t /\ holds k t n d nr nc data.
Proof.
  intros Hsm Hn. unfold csvread.
  destruct (openFile_ok f n d Hsm Hn) as (res & r & v & E & O & H). rewrite E. cbn [bind].
  destruct res as [[]|].
  - inversion O as [| | |t ls c L F Hl Hle Hc]; subst.
    destruct (rows_exist d (skipn (Z.to_nat n) ls)) as (rows & Hr).
    destruct (read_loop_ok k (S (length (srest (strm r)))) r _ 0 [] H eq_refl ltac:(lia) rows Hr)
      as (res & r' & E' & Hnc & X). rewrite E'. cbn [bind].
    assert (rows = [] -> c = 0) as Hc0.
    { intros ->. destruct Hc as (row & v' & N & Hc).
      pose proof (next_row_rows d _ _ _ _ N eq_refl Hr) as Y. destruct row; auto.
      destruct Y as (? & ? & ? & _). discriminate. }
    assert (forall fs rows', rows = fs :: rows' -> c = Z.of_nat (length fs)) as Hc1.
    { intros fs rows' ->. destruct Hc as (row & v' & N & Hc).
      pose proof (next_row_rows d _ _ _ _ N eq_refl Hr) as Y. destruct row.
      - destruct Y as (fs' & rs' & Ey & F' & _). injection Ey as <- <-.
        destruct Hc as (fs2 & F2 & ->). now rewrite (fields_unique _ _ _ F' _ F2).
      - destruct Y as [Y _]. discriminate. }
    rewrite (R_cols _ _ H) in Hnc. cbn [vcols] in Hnc.
    destruct res as [[nr data]|].
    + destruct X as (vals & A & B & -> & ->). cbn [vcols] in A. simpl.
      rewrite (concat_length rows vals c _ A B), Hnc, Z.eqb_refl.
      eexists. split; [reflexivity|]. intros nr nc data. split.
      * intros Eq. injection Eq as <- <- <-. split; auto. exists t. split; auto.
        exists ls, rows, vals. repeat split; auto.
      * intros (_ & t' & Et & (ls' & rows' & vals' & Hl' & Hle' & Hr' & -> & A' & Hz & B' & ->)).
        injection Et as <-. rewrite (lines_unique _ _ Hl' _ Hl) in *.
        rewrite (rows_unique _ _ _ Hr' _ Hr) in *. f_equal. f_equal.
        -- f_equal. destruct rows as [|fs rows0]; [rewrite Hz, Hc0; auto|].
           rewrite (Hc1 fs rows0 eq_refl). now inversion A'.
        -- f_equal. clear - B B'. revert vals' B'. induction B as [|fs vs rows vals U B IH]; intros vals' B'; inversion B'; subst; auto.
           f_equal; auto. match goal with A : Forall2 _ fs ?y |- vs = ?y => rename A into U' end. clear - U U'.
           revert y U'. induction U; intros y' U'; inversion U'; subst; auto. f_equal; auto. eapply understood_fun; eauto.
    + eexists. split; [reflexivity|]. intros nr nc data. split; [discriminate|].
      intros (_ & t' & Et & (ls' & rows' & vals' & Hl' & Hle' & Hr' & -> & A' & Hz & B' & ->)).
      injection Et as <-. rewrite (lines_unique _ _ Hl' _ Hl) in *.
      rewrite (rows_unique _ _ _ Hr' _ Hr) in *. exfalso. apply X. exists vals'. split; auto. cbn [vcols].
      destruct rows as [|fs rows0]; auto. rewrite (Hc1 fs rows0 eq_refl).
      inversion A'; subst. auto.
  - eexists. split; [reflexivity|]. intros nr nc data. split; [discriminate|].
    intros (L & t' & -> & (ls' & rows' & vals' & Hl' & Hle' & _)).
    inversion O as [? L' | ? ? | t ls L' F Hl Hlt |]; subst; try easy.
    injection F as <-. rewrite (lines_unique _ _ Hl' _ Hl) in *. lia.
Qed.
End Values2.
