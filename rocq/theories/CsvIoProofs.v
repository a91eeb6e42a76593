From Coq Require Import ZArith List Lia Bool Ascii.
From Verif Require Import Base Loops CsvModel CsvSpec CsvProofs CsvReadProofs.
Import ListNotations.
Local Open Scope Z_scope.

(* ---------- histories ---------- *)
Lemma history_ok {V} r0 f n d (cs : list (call V)) : Forall call_small (COpen f n d :: cs) ->
  exists rs r v, run_calls (COpen f n d :: cs) r0 = Ok (rs, r) /\
    (forall v0, expected_run (COpen f n d :: cs) v0 rs v) /\ R r v.
Proof.
  intros H. inversion H as [|? ? H1 H2]; subst.
  destruct (openFile_ok f n d) as (res & r & v & E & O & HR).
  { simpl in H1. destruct f; tauto. } { simpl in H1. destruct f; tauto. }
  destruct (run_calls_ok cs r v HR H2) as (rs & r' & v' & E' & X & HR').
  exists (((match res with Ret _ => ADone | Exn => AThrow [] end : answer V), lineno r, ncols r) :: rs), r', v'.
  split; [|split; auto].
  - cbn [run_calls call_step]. rewrite E. cbn [bind]. rewrite E'. reflexivity.
  - intros v0. rewrite (R_line _ _ HR), (R_cols _ _ HR). econstructor; eauto.
    apply (exp_open V f n d v0) in O. destruct res; auto.
Qed.

Lemma reached_R V r : reached V r -> exists v, R r v.
Proof.
  intros (r0 & f & n & d & cs & rs & H & E).
  destruct (history_ok r0 f n d cs H) as (rs' & r' & v & E' & _ & HR). rewrite E in E'. injection E' as <- <-. eauto.
Qed.

(* ---------- parse calls ---------- *)
Lemma next_row_at r v r' v' t fs : R r v -> R r' v' -> next_row v (Some t) v' -> fields (delims r) t fs ->
  exists txt, sfile (strm r') = Some txt /\ row_at txt (delims r) (lineno r') fs.
Proof.
  intros H H' N F. inversion N as [k l t0 Hv Hb Hk Hnb Ht| |]; subst.
  pose proof (R_file _ _ H') as Hf. cbn [move vlines] in Hf. unfold lines in Hk.
  destruct (vlines v) as [ls|] eqn:El; [|destruct (vpos v + k)%nat; discriminate].
  destruct (sfile (strm r')) as [txt|]; [|easy]. destruct Hf as [Hl _].
  exists txt. split; auto. exists ls, l, t. rewrite (R_line _ _ H'). cbn [move vpos].
  repeat split; auto; try lia.
  replace (Z.to_nat (Z.of_nat (S (vpos v + k))) - 1)%nat with (vpos v + k)%nat by lia. auto.
Qed.

Lemma parsed_facts {V} types r v vals (res : result bool) r' v' :
  R r v -> R r' v' -> @parsed V types v (match res with Ret b => ARow b vals | Exn => AThrow vals end) v' ->
  match res with
  | Ret true => exists txt fs, sfile (strm r') = Some txt /\ row_at txt (delims r) (lineno r') fs /\
                  Z.of_nat (length fs) = ncols r /\ delivered (types (length fs)) fs vals true
  | Ret false => vals = [] /\ sfail (strm r') = true
  | Exn => exists txt fs, sfile (strm r') = Some txt /\ row_at txt (delims r) (lineno r') fs /\
             ((Z.of_nat (length fs) <> ncols r /\ vals = []) \/
              (Z.of_nat (length fs) = ncols r /\ delivered (types (length fs)) fs vals false))
  end.
Proof.
  intros H H' P.
  inversion P as [v1 N Ea|t fs v1 N F C Ea|t fs vs v1 N F C D Ea|t fs vs v1 N F C D Ea]; subst v1;
    destruct res as [[|]|]; try discriminate; try (injection Ea as <-); try (injection Ea as ->);
    try (rewrite <- (R_delims _ _ H) in F; rewrite <- (R_cols _ _ H) in C;
         destruct (next_row_at r v r' v' t fs H H' N F) as (txt & E1 & E2); exists txt, fs; auto 10).
  split; auto. rewrite (R_fail _ _ H'). inversion N; subst; auto.
Qed.

(* ---------- the end of the file ---------- *)
Lemma at_end_getline s : sfail s = true -> getline s = (None, s).
Proof. intros H. unfold getline. rewrite H, orb_true_r. destruct s; simpl in *. now subst. Qed.
Lemma at_end_readLine r : sfail (strm r) = true -> readLine r = (None, r).
Proof. intros H. unfold readLine. rewrite at_end_getline by auto. destruct r; auto. Qed.
Lemma at_end_nonempty r : sfail (strm r) = true -> getNonemptyLine r = Ok (None, r).
Proof. intros H. unfold getNonemptyLine. simpl. now rewrite at_end_readLine. Qed.

Lemma at_end_step {V} (c : call V) r v a : R r v -> sfail (strm r) = true -> call_small c ->
  end_answer (ncols r) c = Some a -> (forall n, c = CSkip n -> 0 < n) -> call_step c r = Ok (a, r).
Proof.
  intros HR H Hs Ha Hn. destruct c; simpl in *; try discriminate; injection Ha as <-.
  - now rewrite at_end_readLine.
  - unfold skipLines. destruct (Z.ltb_spec 0 n).
    + replace (skip_loop (Z.to_nat n) r) with r; [now rewrite H|].
      destruct (Z.to_nat n); simpl; auto. now rewrite at_end_readLine.
    + now rewrite H.
  - unfold getNumRows. simpl. now rewrite at_end_nonempty.
  - unfold parseRowIterator, parse_row. rewrite at_end_nonempty by auto. simpl. now rewrite H.
  - unfold parseRowValues. rewrite size_t_small; [|rewrite (R_cols _ _ HR); apply (R_int _ _ HR)|lia].
    destruct (Z.of_nat (length ks) =? ncols r); auto.
    unfold parse_row. rewrite at_end_nonempty by auto. simpl. now rewrite H.
Qed.

Lemma at_end_run {V} (cs : list (call V)) r v : R r v -> sfail (strm r) = true -> Forall call_small cs ->
  forall ans, Forall2 (fun c a => end_answer (ncols r) c = Some a) cs ans ->
  run_calls cs r = Ok (map (fun a => (a, lineno r, ncols r)) ans, r).
Proof.
  intros HR H Hs. induction Hs as [|c cs Hc Hs IH]; intros ans F; inversion F; subst; auto.
  cbn [run_calls]. assert (call_step c r = Ok (y, r)) as ->.
  { destruct c; try (eapply at_end_step; eauto; discriminate).
    simpl in *. match goal with A : Some _ = Some _ |- _ => injection A as <- end.
    unfold skipLines. destruct (Z.ltb_spec 0 n).
    + replace (skip_loop (Z.to_nat n) r) with r; [now rewrite H|].
      destruct (Z.to_nat n); simpl; auto. now rewrite at_end_readLine.
    + now rewrite H. }
  cbn [bind]. rewrite (IH _ H4). reflexivity.
Qed.

Lemma next_row_end v v' : next_row v None v' -> vend v' = true.
Proof. intros N. inversion N; subst; auto. Qed.
Lemma count_rows_end v n v' : count_rows v n v' -> vend v' = true.
Proof. induction 1; auto. eapply next_row_end; eauto. Qed.

Lemma numrows_facts r v : R r v ->
  exists n r' rows, getNumRows r = Ok (n, r') /\ R r' (mkview (vlines v) (vpos (if vend v then v else move v (length (lines v)) true)) true (vskip v) (vdelims v) (vcols v)) /\
    n = Z.of_nat (length rows) /\
    rows_of (vdelims v) (if vend v then [] else skipn (vpos v) (lines v)) rows.
Proof.
  intros H. destruct (getNumRows_ok r v H) as (n & r' & v' & E & C & H').
  destruct (vend v) eqn:Ev.
  - exists n, r', []. inversion C as [? ? N|? ? ? ? ? N]; subst; inversion N; subst; try congruence.
    split; auto. split; [|split; auto; constructor].
    destruct v'; simpl in *. now subst.
  - destruct (rows_exist (vdelims v) (skipn (vpos v) (lines v))) as (rows & Hr).
    destruct (count_rows_rows _ _ _ _ C _ Ev Hr) as (-> & E1 & E2 & E3 & E4 & E5 & E6).
    exists (Z.of_nat (length rows)), r', rows. split; auto. split; [|auto].
    cbn [move vpos]. destruct v'; simpl in *. now subst.
Qed.

Lemma reset_facts r v ls : R r v -> vlines v = Some ls ->
  exists v', R (setToStart r) v' /\ vlines v' = Some ls /\ vdelims v' = vdelims v /\ vcols v' = vcols v /\
    v' = (if (Z.to_nat (vskip v) <=? length ls)%nat then move v (Z.to_nat (vskip v)) false
          else move v (length ls) true).
Proof.
  intros H El. destruct (setToStart_ok r v H) as (v' & A & H'). exists v'.
  unfold at_start in A. rewrite El in A. apply take_lines_count in A; [|reflexivity|simpl; lia].
  assert (lines (move v 0 false) = ls) as Els by (unfold lines; simpl; now rewrite El).
  rewrite Els in A. cbn [move vpos] in A. rewrite Nat.sub_0_r in A. simpl in A.
  destruct (Z.to_nat (vskip v) <=? length ls)%nat; subst v'; simpl; rewrite ?El; auto.
Qed.

(* ---------- what the writer writes is read back ---------- *)
Section Write.
Context {V : Type}.
Variables (fmt : V -> str) (k : kind V) (d : str) (delim : ascii).
Definition line_of (xs : list V) : str := concat (map (fun x => fmt x ++ [delim]) xs).

Lemma fields_snoc_delim xs : In delim d -> Forall (faithful fmt k d) xs ->
  fields d (line_of xs) (map fmt xs ++ [[]]).
Proof.
  intros Hd H. unfold line_of. induction H as [|x xs (Hne & Hu & Hc) H IH]; simpl.
  - constructor. intros ? [].
  - rewrite <- app_assoc.
    apply (fields_cons d (fmt x) [delim]); auto.
    + intros c Hi. apply Hc. auto.
    + discriminate.
    + intros c [<-|[]]. auto.
    + intros c s' E. inversion H as [|y ys (Hne' & _ & Hc') H']; subst; simpl in E; [discriminate|].
      destruct (fmt y) as [|a w] eqn:Ey; [congruence|]. simpl in E. injection E as <- _.
      apply (Hc' a). simpl. auto.
Qed.

(* the line without its last delimiter *)
Fixpoint core_of (xs : list V) : str :=
  match xs with
  | [] => []
  | x :: ys => match ys with [] => fmt x | _ => fmt x ++ [delim] ++ core_of ys end
  end.
Lemma line_core xs : xs <> [] -> line_of xs = core_of xs ++ [delim].
Proof.
  unfold line_of. induction xs as [|x xs IH]; [congruence|]. intros _. destruct xs as [|y xs].
  - simpl. now rewrite app_nil_r.
  - specialize (IH ltac:(discriminate)). change (concat (map (fun x0 => fmt x0 ++ [delim]) (x :: y :: xs)))
      with ((fmt x ++ [delim]) ++ concat (map (fun x0 => fmt x0 ++ [delim]) (y :: xs))).
    rewrite IH. change (core_of (x :: y :: xs)) with (fmt x ++ [delim] ++ core_of (y :: xs)).
    now rewrite <- !app_assoc.
Qed.
Lemma core_head y ys : faithful fmt k d y -> exists a w, core_of (y :: ys) = a :: w /\ ~ white a /\ ~ In a d.
Proof.
  intros (Hne & _ & Hc). destruct (fmt y) as [|a w] eqn:E; [congruence|].
  destruct (Hc a); [simpl; auto|]. destruct ys; simpl; rewrite E; simpl; eauto.
Qed.
Lemma core_last xs c t : xs <> [] -> Forall (faithful fmt k d) xs -> core_of xs = t ++ [c] -> ~ white c.
Proof.
  intros Hx H. revert t Hx. induction H as [|x xs (Hne & Hu & Hc) H IH]; intros t Hx E; [congruence|].
  destruct xs as [|y xs].
  - simpl in E. apply (Hc c). rewrite E, in_app_iff. simpl. auto.
  - change (core_of (x :: y :: xs)) with (fmt x ++ [delim] ++ core_of (y :: xs)) in E.
    destruct (core_of (y :: xs)) as [|a w] eqn:Ew.
    { inversion H as [|? ? Hy]; subst. destruct (core_head y xs Hy) as (a & w & E' & _). congruence. }
    destruct (exists_last (l := a :: w) ltac:(discriminate)) as (w' & b & Eb).
    apply (IH w'); [discriminate|]. rewrite Eb in *.
    rewrite !app_assoc in E. apply app_inj_tail in E as [_ ->]. auto.
Qed.
Lemma fields_core xs : In delim d -> xs <> [] -> Forall (faithful fmt k d) xs -> fields d (core_of xs) (map fmt xs).
Proof.
  intros Hd Hx H. induction H as [|x xs (Hne & Hu & Hc) H IH]; [congruence|].
  destruct xs as [|y xs].
  - simpl. constructor. intros c Hi. apply Hc. auto.
  - change (core_of (x :: y :: xs)) with (fmt x ++ [delim] ++ core_of (y :: xs)).
    apply (fields_cons d (fmt x) [delim]); auto.
    + intros c Hi. apply Hc. auto.
    + discriminate.
    + intros c [<-|[]]. auto.
    + intros c s' E. inversion H as [|? ? Hy]; subst.
      destruct (core_head y xs Hy) as (a & w & E' & _ & Ha). rewrite E' in E. injection E as <- _. auto.
    + apply IH. discriminate.
Qed.

Lemma line_no_nl xs : delim <> NL -> Forall (faithful fmt k d) xs -> ~ In NL (line_of xs).
Proof.
  intros Hd H. unfold line_of. induction H as [|x xs (Hne & Hu & Hc) H IH]; simpl; auto.
  rewrite !in_app_iff. intros [[Hi|[Hi|[]]]|Hi]; auto.
  destruct (Hc NL Hi) as [Hw _]. apply Hw. unfold white. simpl. auto.
Qed.
Lemma line_not_blank xs : xs <> [] -> Forall (faithful fmt k d) xs -> ~ blank (line_of xs).
Proof.
  intros Hx H B. destruct H as [|x xs (Hne & Hu & Hc) H]; [congruence|]. unfold line_of in B. simpl in B.
  destruct (fmt x) as [|a w]; [congruence|]. simpl in B. inversion B; subst. destruct (Hc a); simpl; auto.
Qed.

Lemma lines_concat rows : (forall r, In r rows -> ~ In NL r) -> lines_of (concat (map (fun r => r ++ [NL]) rows)) rows.
Proof.
  induction rows as [|r rows IH]; intros H; simpl; [constructor|].
  rewrite <- app_assoc. simpl. constructor; [apply H; simpl; auto|]. apply IH. intros. apply H. simpl. auto.
Qed.

Definition mrow (field : mat V) (i : nat) : list V := map (ment field i) (seq 0 (mcols field)).

Lemma write_lines field : delim <> NL ->
  (forall i j, (i < mrows field)%nat -> (j < mcols field)%nat -> faithful fmt k d (ment field i j)) ->
  lines_of (writeFieldToFile fmt field delim) (map line_of (map (mrow field) (seq 0 (mrows field)))).
Proof.
  intros Hd H.
  replace (writeFieldToFile fmt field delim) with
    (concat (map (fun r => r ++ [NL]) (map line_of (map (mrow field) (seq 0 (mrows field)))))).
  - apply lines_concat. intros r Hr. apply in_map_iff in Hr as (xs & <- & Hx).
    apply in_map_iff in Hx as (i & <- & Hi). apply in_seq in Hi.
    apply line_no_nl; auto. apply Forall_forall. intros y Hy. apply in_map_iff in Hy as (j & <- & Hj).
    apply in_seq in Hj. apply H; lia.
  - unfold writeFieldToFile. rewrite !map_map. f_equal. apply map_ext. intros i.
    unfold line_of, mrow. now rewrite map_map.
Qed.

Lemma mrow_faithful field i : (i < mrows field)%nat ->
  (forall i j, (i < mrows field)%nat -> (j < mcols field)%nat -> faithful fmt k d (ment field i j)) ->
  Forall (faithful fmt k d) (mrow field i).
Proof.
  intros Hi H. apply Forall_forall. intros y Hy. apply in_map_iff in Hy as (j & <- & Hj).
  apply in_seq in Hj. apply H; lia.
Qed.
Lemma mrow_length field i : length (mrow field i) = mcols field.
Proof. unfold mrow. now rewrite map_length, seq_length. Qed.

Lemma rows_of_map (f : list V -> list str) (xss : list (list V)) :
  (forall xs, In xs xss -> exists t, ~ blank (line_of xs) /\ trimmed (line_of xs) t /\ fields d t (f xs)) ->
  rows_of d (map line_of xss) (map f xss).
Proof.
  induction xss as [|xs xss IH]; intros H; simpl; [constructor|].
  destruct (H xs) as (t & B & T & F); [simpl; auto|].
  apply rows_row with t; auto. apply IH. intros. apply H. simpl. auto.
Qed.

Lemma delim_not_nl : legal_delims d -> In delim d -> delim <> NL.
Proof.
  intros (_ & H) Hi ->. specialize (H _ Hi). simpl in H. unfold NL in H.
  repeat (destruct H as [H|H]; [discriminate|]). easy.
Qed.

Lemma blank_delim_holds field : legal_delims d -> In delim d -> white delim ->
  (0 < mrows field)%nat -> (0 < mcols field)%nat ->
  (forall i j, (i < mrows field)%nat -> (j < mcols field)%nat -> faithful fmt k d (ment field i j)) ->
  holds k (writeFieldToFile fmt field delim) 0 d (mrows field) (Z.of_nat (mcols field)) (row_major field).
Proof.
  intros HL Hd Hw Hr Hc H.
  set (xss := map (mrow field) (seq 0 (mrows field))).
  assert (forall xs, In xs xss -> length xs = mcols field /\ Forall (faithful fmt k d) xs) as Hx.
  { intros xs Hi. apply in_map_iff in Hi as (i & <- & Hi). apply in_seq in Hi.
    split; [apply mrow_length | apply mrow_faithful; auto; lia]. }
  exists (map line_of xss), (map (map fmt) xss), xss. repeat split.
  - apply write_lines; auto using delim_not_nl.
  - lia.
  - simpl. apply rows_of_map. intros xs Hi. destruct (Hx xs Hi) as [Hl Hf].
    assert (xs <> []) as Hne by (intros ->; simpl in Hl; lia).
    exists (core_of xs). split; [apply line_not_blank; auto|]. split; [|apply fields_core; auto].
    exists [], [delim]. rewrite line_core by auto. repeat split; auto.
    + constructor.
    + constructor; auto.
    + intros c t' E. destruct xs as [|y ys]; [congruence|]. inversion Hf; subst.
      destruct (core_head y ys) as (a & w & E' & Ha & _); auto. rewrite E' in E. injection E as <- _. auto.
    + intros c t' E. eapply core_last; eauto.
  - unfold xss. now rewrite !map_length, seq_length.
  - apply Forall_forall. intros row Hi. apply in_map_iff in Hi as (xs & <- & Hi).
    rewrite map_length. now destruct (Hx xs Hi) as [-> _].
  - intros E. apply (f_equal (@length _)) in E. unfold xss in E. rewrite !map_length, seq_length in E. simpl in E. lia.
  - clearbody xss. induction xss as [|xs xss IH]; simpl; constructor.
    + destruct (Hx xs) as [_ Hf]; [simpl; auto|]. clear - Hf.
      induction Hf as [|x xs (_ & Hu & _) Hf IH]; simpl; constructor; auto.
    + apply IH. intros. apply Hx. simpl. auto.
Qed.

Lemma visible_delim_fails field : legal_delims d -> In delim d -> ~ white delim ->
  (0 < mrows field)%nat -> (0 < mcols field)%nat ->
  (forall i j, (i < mrows field)%nat -> (j < mcols field)%nat -> faithful fmt k d (ment field i j)) ->
  (forall v, ~ understood k [] v) ->
  forall nr nc data, ~ holds k (writeFieldToFile fmt field delim) 0 d nr nc data.
Proof.
  intros HL Hd Hw Hr Hc H Hu nr nc data (ls & rows & vals & Hl & _ & Hrow & _ & _ & _ & F2 & _).
  set (xss := map (mrow field) (seq 0 (mrows field))).
  pose proof (write_lines field (delim_not_nl HL Hd) H) as Hl'. fold xss in Hl'.
  rewrite (lines_unique _ _ Hl _ Hl') in Hrow. simpl in Hrow.
  assert (rows_of d (map line_of xss) (map (fun xs => map fmt xs ++ [[]]) xss)) as Hrow'.
  { apply rows_of_map. intros xs Hi. apply in_map_iff in Hi as (i & <- & Hi). apply in_seq in Hi.
    assert (Forall (faithful fmt k d) (mrow field i)) as Hf by (apply mrow_faithful; auto; lia).
    assert (mrow field i <> []) as Hne by (intros E; apply (f_equal (@length _)) in E; rewrite mrow_length in E; simpl in E; lia).
    exists (line_of (mrow field i)). split; [apply line_not_blank; auto|]. split; [|apply fields_snoc_delim; auto].
    exists [], []. rewrite app_nil_r. repeat split; auto; try constructor.
    - intros c t' E. destruct (mrow field i) as [|y ys] eqn:Ey; [congruence|]. rewrite line_core in E by discriminate.
      inversion Hf; subst. destruct (core_head y ys) as (a & w & E' & Ha & _); auto. rewrite E' in E.
      simpl in E. injection E as <- _. auto.
    - intros c t' E. rewrite line_core in E by auto. apply app_inj_tail in E as [_ <-]. auto. }
  rewrite (rows_unique _ _ _ Hrow _ Hrow') in F2. unfold xss in F2.
  destruct (mrows field) as [|R]; [lia|]. simpl in F2. inversion F2 as [|? ? ? ? U]; subst.
  apply Forall2_app_inv_l in U as (l1 & l2 & _ & U & _). inversion U as [|? ? ? ? U1]; subst.
  eapply Hu; eauto.
Qed.
End Write.

(* ---------- repeated parse calls ---------- *)
Lemma delivered_string fs : delivered (repeat (KString (fun s : str => s)) (length fs)) fs fs true.
Proof. apply delivered_true. induction fs; constructor; simpl; auto. Qed.

Lemma parse_all r v rows : R r v -> vend v = false ->
  rows_of (vdelims v) (skipn (vpos v) (lines v)) rows ->
  Forall (fun row => Z.of_nat (length row) = vcols v) rows -> forall j,
  exists rs r', run_calls (repeat (CParseItr (KString (fun s : str => s))) (length rows + j)) r = Ok (rs, r') /\
    map (fun x => fst (fst x)) rs = map (ARow true) rows ++ repeat (ARow false []) j.
Proof.
  intros H Hv Hr HF j. revert r v H Hv Hr HF. induction rows as [|row rows IH]; intros r v H Hv Hr HF.
  - simpl. destruct j as [|j]; [exists [], r; auto|].
    destruct (parseRowIterator_ok (KString (fun s : str => s)) r v H) as (vals & res & r1 & v1 & E & P & H1 & _).
    assert (parsed (fun n => repeat (KString (fun s : str => s)) n) v (ARow false []) v1 /\ vals = [] /\ res = Ret false) as (P1 & -> & ->).
    { inversion P as [v' N Ea|t fs v' N F C Ea|t fs vs v' N F C D Ea|t fs vs v' N F C D Ea]; subst v';
        pose proof (next_row_rows _ _ _ _ _ N Hv Hr) as X; try (destruct X as (? & ? & ? & _); discriminate).
      destruct res as [[|]|]; try discriminate. injection Ea as <-. auto. }
    assert (sfail (strm r1) = true) as Hf.
    { rewrite (R_fail _ _ H1). inversion P1; subst. eapply next_row_end; eauto. }
    set (c := CParseItr (KString (fun s : str => s))).
    assert (run_calls (repeat c j) r1 = Ok (map (fun a => (a, lineno r1, ncols r1)) (repeat (ARow false []) j), r1)) as E1.
    { apply at_end_run with v1; auto.
      - apply Forall_forall. intros x Hx. apply repeat_spec in Hx. subst. exact I.
      - clear. induction j; simpl; constructor; auto. }
    exists ((ARow false [], lineno r1, ncols r1) :: map (fun a => (a, lineno r1, ncols r1)) (repeat (ARow false []) j)), r1.
    split.
    + cbn [repeat run_calls]. unfold c at 1. cbn [call_step]. rewrite E. unfold row_answer. cbn [bind]. rewrite E1. reflexivity.
    + simpl. f_equal. rewrite map_map. simpl. now rewrite map_id.
  - destruct (parseRowIterator_ok (KString (fun s : str => s)) r v H) as (vals & res & r1 & v1 & E & P & H1 & _).
    inversion HF as [|? ? Hlen HF']; subst.
    assert (exists t, next_row v (Some t) v1 /\ vals = row /\ res = Ret true) as (t & N & -> & ->).
    { inversion P as [v' N Ea|t fs v' N F C Ea|t fs vs v' N F C D Ea|t fs vs v' N F C D Ea]; subst v';
        pose proof (next_row_rows _ _ _ _ _ N Hv Hr) as X.
      - destruct X; discriminate.
      - destruct X as (fs' & rows' & X & F' & _). injection X as <- <-.
        rewrite (fields_unique _ _ _ F _ F') in C. congruence.
      - destruct X as (fs' & rows' & X & F' & _). injection X as <- <-.
        rewrite (fields_unique _ _ _ F _ F') in *. destruct res as [[|]|]; try discriminate. injection Ea as ->.
        destruct (delivered_det _ _ _ _ D _ _ (delivered_string row)) as [-> _]. eauto.
      - destruct X as (fs' & rows' & X & F' & _). injection X as <- <-.
        rewrite (fields_unique _ _ _ F _ F') in *.
        destruct (delivered_det _ _ _ _ D _ _ (delivered_string row)) as [_ X]. discriminate. }
    destruct (next_row_rows _ _ _ _ _ N Hv Hr) as (fs' & rows' & X & F' & Hv1 & Hr'). injection X as <- <-.
    destruct (next_row_frame _ _ _ N) as (Hd & Hc & _). rewrite <- Hd in Hr'. rewrite <- Hc in HF'.
    destruct (IH r1 v1 H1 Hv1 Hr' HF') as (rs & r' & E2 & Ans).
    exists ((ARow true row, lineno r1, ncols r1) :: rs), r'. split.
    + cbn [length Nat.add repeat run_calls call_step]. rewrite E. unfold row_answer. cbn [bind]. rewrite E2. reflexivity.
    + simpl. now rewrite Ans.
Qed.
