(* CsvProps.v - properties C16-C19: reading and writing delimited text files. *)
From Coq Require Import ZArith List Lia Bool Ascii String.
From Verif Require Import Base Loops CsvModel CsvSpec CsvProofs CsvReadProofs CsvIoProofs.
Import ListNotations.
Local Open Scope Z_scope.

(* ---------- C16 ---------- *)
(* A reader opened on any file and then used with any sequence of calls behaves, call by call, like
   a position in the list of the file's lines; the line number is that position. The calls never run
   into undefined behaviour, and the specification determines every answer. *)
Theorem C16_reader_history : forall (V : Type) r0 f n d (cs : list (call V)),
  Forall call_small (COpen f n d :: cs) ->
  exists rs r v, run_calls (COpen f n d :: cs) r0 = Ok (rs, r) /\
    forall v0, expected_run (COpen f n d :: cs) v0 rs v.
Proof. intros V r0 f n d cs H. destruct (history_ok r0 f n d cs H) as (rs & r & v & E & X & _). eauto 6. Qed.
Print Assumptions C16_reader_history.

Theorem C16_specification_deterministic : forall (V : Type) (cs : list (call V)) v rs v1 rs' v1',
  expected_run cs v rs v1 -> expected_run cs v rs' v1' -> rs = rs' /\ v1 = v1'.
Proof. intros. eapply expected_run_det; eauto. Qed.
Print Assumptions C16_specification_deterministic.

(* Parse calls deliver exactly the non-blank lines after the header, in order, then report the end
   of the file for ever. *)
Theorem C16_rows_in_order : forall t n d ls rows r0 j,
  small_text t -> in_int n -> legal_delims d ->
  lines_of t ls -> n <= Z.of_nat (List.length ls) -> rows_of d (skipn (Z.to_nat n) ls) rows ->
  (forall r r', In r rows -> In r' rows -> List.length r = List.length r') ->
  exists rs r', run_calls (COpen (Some t) n d :: repeat (CParseItr (KString (fun s => s))) (List.length rows + j)) r0
      = Ok (rs, r') /\
    map (fun x => fst (fst x)) rs = ADone :: map (ARow true) rows ++ repeat (ARow false []) j.
Proof.
  intros t n d ls rows r0 j Hs Hn Hd Hl Hle Hr Hsame.
  destruct (openFile_ok (Some t) n d Hs Hn) as (res & r & v & E & O & H).
  inversion O as [? L' | ? ? | t' ls' L' F Hl' Hlt | t' ls' c L' F Hl' Hle' Hc]; subst; try easy.
  - injection F as <-. rewrite (lines_unique _ _ Hl' _ Hl) in *. lia.
  - injection F as <-. rewrite (lines_unique _ _ Hl' _ Hl) in *. destruct res as [[]|]; [|discriminate].
    destruct (parse_all r _ rows H eq_refl Hr) with (j := j) as (rs & r' & E' & A).
    { apply Forall_forall. intros row Hin. destruct Hc as (fst & v' & N & Hc).
      pose proof (next_row_rows d _ _ _ _ N eq_refl Hr) as X. destruct fst as [x|].
      - destruct X as (fs & rows' & -> & F' & _). destruct Hc as (fs' & F'' & ->).
        rewrite (fields_unique _ _ _ F'' _ F'). cbn [vcols]. f_equal. apply Hsame; simpl; auto.
      - destruct X as [-> _]. easy. }
    exists ((ADone, lineno r, ncols r) :: rs), r'. split.
    + cbn [run_calls call_step]. rewrite E. cbn [bind]. rewrite E'. reflexivity.
    + simpl. now rewrite A.
Qed.
Print Assumptions C16_rows_in_order.

(* csvread succeeds exactly on the files that hold a table, and returns that table. *)
Theorem C16_csvread_exact : forall (V : Type) (k : kind V) t n d,
  small_text t -> in_int n ->
  exists res, csvread k (Some t) n d = Ok res /\
    forall nr nc data, res = Ret (nr, nc, data) <-> legal_delims d /\ holds k t n d nr nc data.
Proof.
  intros V k t n d Hs Hn. destruct (csvread_ok k (Some t) n d Hs Hn) as (res & E & X).
  exists res. split; auto. intros nr nc data. rewrite X. split.
  - intros (L & t' & Et & Hh). injection Et as <-. auto.
  - intros (L & Hh). eauto.
Qed.
Print Assumptions C16_csvread_exact.

Definition text (s : string) : str := list_ascii_of_string s.
Definition nl : string := String NL EmptyString.
Definition tab3 : str := text ("x y" ++ nl ++ nl ++ " 1 2 " ++ nl ++ "  " ++ nl ++ "3	  4")%string.
Definition digit_kind : kind nat :=
  KNum (fun s => match s with
                 | c :: r => let n := (nat_of_ascii c - 48)%nat in
                     if ((48 <=? nat_of_ascii c) && (n <=? 9))%nat then Some (n, 1%nat) else None
                 | [] => None
                 end).
Example C16_witness :
  csvread digit_kind (Some tab3) 1 (text " 	") = Ok (Ret (2%nat, 2, [1%nat; 2%nat; 3%nat; 4%nat])) /\
  small_text tab3 /\ in_int 1 /\ legal_delims (text " 	").
Proof.
  split; [vm_compute; reflexivity|]. split; [vm_compute; reflexivity|]. split; [vm_compute; split; discriminate|].
  apply checkDelimiters_legal. reflexivity.
Qed.
Example C16_history_witness :
  exists rs r, run_calls [COpen (Some tab3) 1 (text " 	"); CParseItr digit_kind; CNumRows; CReset; CParseItr digit_kind;
                          CParseItr digit_kind; CParseItr digit_kind]
                 (mkreader (open_stream None) [] 0 0 0) = Ok (rs, r) /\
    rs = [(ADone, 1, 2); (ARow true [1%nat; 2%nat], 3, 2); (ANum 1, 5, 2); (ADone, 1, 2);
          (ARow true [1%nat; 2%nat], 3, 2); (ARow true [3%nat; 4%nat], 5, 2); (ARow false [], 5, 2)].
Proof. eexists _, _. split; vm_compute; reflexivity. Qed.
Example C16_rows_witness :
  exists ls rows, lines_of tab3 ls /\ rows_of (text " 	") (skipn 1 ls) rows /\ rows = [[["1"]; ["2"]]; [["3"]; ["4"]]]%char.
Proof.
  eexists _, _. split; [|split; [|reflexivity]].
  - unfold tab3.
    apply (lines_cons (text "x y") (text (nl ++ " 1 2 " ++ nl ++ "  " ++ nl ++ "3	  4")%string)).
    { simpl. intuition discriminate. }
    apply (lines_cons []). { simpl. auto. }
    apply (lines_cons (text " 1 2 ") (text ("  " ++ nl ++ "3	  4")%string)). { simpl. intuition discriminate. }
    apply (lines_cons (text "  ") (text ("3	  4")%string)). { simpl. intuition discriminate. }
    apply (lines_last (text "3	  4")); [discriminate|]. simpl. intuition discriminate.
  - simpl. apply rows_blank; [constructor|].
    apply rows_row with (text "1 2").
    { intros B. apply trim_nil in B. vm_compute in B. discriminate. }
    { exact (trim_trimmed (text " 1 2 ")). } { exact (tokenizeLine_fields (text " 	") (text "1 2")). }
    apply rows_blank; [repeat constructor; vm_compute; tauto|].
    apply rows_row with (text "3	  4").
    { intros B. apply trim_nil in B. vm_compute in B. discriminate. }
    { exact (trim_trimmed (text "3	  4")). } { exact (tokenizeLine_fields (text " 	") (text "3	  4")). }
    constructor.
Qed.

(* ---------- C17 ---------- *)
(* A parse call on any reader: it succeeds only on a row with the expected number of fields, all
   understood, and then delivers exactly these fields; when it throws, the row has another number of
   fields and nothing was delivered, or a field is not understood and only the fields before it were
   delivered, each in its own place. *)
Theorem C17_parse_iterator : forall (V : Type) (k : kind V) r, reached V r ->
  exists vals res r', parseRowIterator k r = Ok ((vals, res), r') /\
  match res with
  | Ret true => exists txt fs, sfile (strm r') = Some txt /\ row_at txt (delims r) (lineno r') fs /\
                  Z.of_nat (List.length fs) = ncols r /\ Forall2 (understood k) fs vals
  | Ret false => vals = []
  | Exn => exists txt fs, sfile (strm r') = Some txt /\ row_at txt (delims r) (lineno r') fs /\
             ((Z.of_nat (List.length fs) <> ncols r /\ vals = []) \/
              (Z.of_nat (List.length fs) = ncols r /\ exists good bad rest, fs = good ++ bad :: rest /\
                 Forall2 (understood k) good vals /\ forall v, ~ understood k bad v))
  end.
Proof.
  intros V k r Hr. destruct (reached_R _ _ Hr) as (v & H).
  destruct (parseRowIterator_ok k r v H) as (vals & res & r' & v' & E & P & H' & _).
  exists vals, res, r'. split; auto. pose proof (parsed_facts _ _ _ _ _ _ _ H H' P) as X.
  destruct res as [[|]|].
  - destruct X as (txt & fs & A & B & C & D). exists txt, fs. repeat split; auto. now apply delivered_true.
  - tauto.
  - destruct X as (txt & fs & A & B & [C|[C D]]); exists txt, fs; repeat split; auto.
    right. split; auto. clear - D. revert vals D. induction fs as [|f fs IH]; intros vals D; simpl in D; inversion D; subst.
    + destruct (IH _ H6) as (good & bad & rest & -> & F & Hb). exists (f :: good), bad, rest. auto.
    + exists [], f, fs. auto.
Qed.
Print Assumptions C17_parse_iterator.

Theorem C17_parse_values : forall (V : Type) (ks : list (kind V)) r, reached V r ->
  Z.of_nat (List.length ks) <= INT_MAX ->
  exists vals res r', parseRowValues ks r = Ok ((vals, res), r') /\
  match res with
  | Ret true => exists txt fs, sfile (strm r') = Some txt /\ row_at txt (delims r) (lineno r') fs /\
                  List.length fs = List.length ks /\ Z.of_nat (List.length fs) = ncols r /\ delivered ks fs vals true
  | Ret false => vals = [] /\ Z.of_nat (List.length ks) = ncols r
  | Exn => (Z.of_nat (List.length ks) <> ncols r /\ vals = [] /\ r' = r) \/
           exists txt fs, sfile (strm r') = Some txt /\ row_at txt (delims r) (lineno r') fs /\
             ((Z.of_nat (List.length fs) <> ncols r /\ vals = []) \/
              (Z.of_nat (List.length fs) = ncols r /\ delivered ks fs vals false))
  end.
Proof.
  intros V ks r Hr Hk. destruct (reached_R _ _ Hr) as (v & H). unfold parseRowValues.
  rewrite size_t_small; [|rewrite (R_cols _ _ H); apply (R_int _ _ H)|lia].
  destruct (Z.eqb_spec (Z.of_nat (List.length ks)) (ncols r)) as [Ec|Ec].
  - destruct (parse_row_ok (fun _ => ks) (fun _ => ks) r v H) as (vals & res & r' & v' & E & P & H' & _); auto.
    { intros. rewrite (R_cols _ _ H) in Ec. lia. }
    exists vals, res, r'. split; auto. pose proof (parsed_facts _ _ _ _ _ _ _ H H' P) as X.
    destruct res as [[|]|].
    + destruct X as (txt & fs & A & B & C & D). exists txt, fs. repeat split; auto. lia.
    + tauto.
    + right. exact X.
  - exists [], Exn, r. split; auto.
Qed.
Print Assumptions C17_parse_values.

(* A conversion of a number uses the whole field. *)
Theorem C17_whole_field : forall (V : Type) sto s (v : V),
  strCast (KNum sto) s = Some v <-> sto s = Some (v, List.length s).
Proof. intros. apply (strCast_understood (KNum sto)). Qed.
Print Assumptions C17_whole_field.

(* The catch-all conversion does not: an unused rest of a field goes unnoticed. *)
Theorem C17_generic_conversion_ignores_rest_refuted :
  exists (ext : str -> option nat) s v, strCast (KStream ext) s = Some v /\
    ext ["4"%char] = Some v /\ s = ["4"; "x"]%char.
Proof.
  exists (fun s => match s with c :: _ => Some (nat_of_ascii c - 48)%nat | [] => None end), ["4"; "x"]%char, 4%nat.
  repeat split.
Qed.
Print Assumptions C17_generic_conversion_ignores_rest_refuted.

Example C17_witness :
  exists r, reached nat r /\
    (exists r', parseRowIterator digit_kind r = Ok (([1%nat], Exn), r') /\ lineno r' = 2 /\
       exists r2, parseRowIterator digit_kind r' = Ok (([], Exn), r2)).
Proof.
  eexists. split.
  - eexists (mkreader (open_stream None) [] 0 0 0), (Some (text ("1,2" ++ nl ++ "1,2x" ++ nl ++ "1"))), 0, (text ","),
      [CParseItr digit_kind], _.
    split; [|vm_compute; reflexivity].
    constructor; [|constructor; [exact I|constructor]]. split; [vm_compute; reflexivity|vm_compute; split; discriminate].
  - eexists. split; [vm_compute; reflexivity|]. split; [reflexivity|]. eexists. vm_compute. reflexivity.
Qed.

(* ---------- C18 ---------- *)
Theorem C18_blank_delimiter_round_trip : forall (V : Type) (fmt : V -> str) (k : kind V) d delim (field : mat V),
  legal_delims d -> In delim d -> (delim = " " \/ delim = "009")%char ->
  (0 < mrows field)%nat -> (0 < mcols field)%nat ->
  (forall i j, (i < mrows field)%nat -> (j < mcols field)%nat -> faithful fmt k d (ment field i j)) ->
  small_text (writeFieldToFile fmt field delim) ->
  csvread k (Some (writeFieldToFile fmt field delim)) 0 d =
    Ok (Ret (mrows field, Z.of_nat (mcols field), row_major field)).
Proof.
  intros V fmt k d delim field L Hd Hw Hr Hc H Hs.
  destruct (csvread_ok k (Some (writeFieldToFile fmt field delim)) 0 d Hs) as (res & E & X).
  { unfold in_int, INT_MIN, INT_MAX. lia. }
  rewrite E. f_equal. apply X. split; auto. eexists. split; [reflexivity|].
  apply blank_delim_holds; auto. destruct Hw as [->| ->]; vm_compute; tauto.
Qed.
Print Assumptions C18_blank_delimiter_round_trip.

Theorem C18_visible_delimiter_fails : forall (V : Type) (fmt : V -> str) (k : kind V) d delim (field : mat V),
  legal_delims d -> In delim d -> (delim = "," \/ delim = ";" \/ delim = "^" \/ delim = "|")%char ->
  (0 < mrows field)%nat -> (0 < mcols field)%nat ->
  (forall i j, (i < mrows field)%nat -> (j < mcols field)%nat -> faithful fmt k d (ment field i j)) ->
  (forall v, ~ understood k [] v) ->
  small_text (writeFieldToFile fmt field delim) ->
  csvread k (Some (writeFieldToFile fmt field delim)) 0 d = Ok Exn.
Proof.
  intros V fmt k d delim field L Hd Hw Hr Hc H Hu Hs.
  destruct (csvread_ok k (Some (writeFieldToFile fmt field delim)) 0 d Hs) as (res & E & X).
  { unfold in_int, INT_MIN, INT_MAX. lia. }
  rewrite E. f_equal. destruct res as [[[nr nc] data]|]; auto. exfalso.
  destruct (proj1 (X nr nc data) eq_refl) as (_ & t & Et & Hh). injection Et as <-.
  revert Hh. apply visible_delim_fails; auto.
  destruct Hw as [->|[->|[->| ->]]]; vm_compute; intuition discriminate.
Qed.
Print Assumptions C18_visible_delimiter_fails.

Definition digit_fmt (n : nat) : str := [ascii_of_nat (48 + n)].
Definition field23 : mat nat := mkmat 2 3 (fun i j => (3 * i + j + 1)%nat).
Example C18_witness : forall d, d = text " 	" \/ d = text "," ->
  legal_delims d /\ (forall i j, (i < mrows field23)%nat -> (j < mcols field23)%nat ->
    faithful digit_fmt digit_kind d (ment field23 i j)) /\ (forall v, ~ understood digit_kind [] v).
Proof.
  intros d Hd. split; [|split].
  - apply checkDelimiters_legal. destruct Hd as [->| ->]; reflexivity.
  - simpl. intros i j Hi Hj. destruct i as [|[|i]]; [| |lia]; destruct j as [|[|[|j]]]; try lia;
      (split; [discriminate|]; split; [vm_compute; reflexivity|]);
      intros c [<-|[]]; split; destruct Hd as [->| ->]; vm_compute; intuition discriminate.
  - intros v. simpl. discriminate.
Qed.
Example C18_witness_run :
  csvread digit_kind (Some (writeFieldToFile digit_fmt field23 " "%char)) 0 (text " 	") =
    Ok (Ret (2%nat, 3, [1; 2; 3; 4; 5; 6]%nat)) /\
  csvread digit_kind (Some (writeFieldToFile digit_fmt field23 ","%char)) 0 (text ",") = Ok Exn.
Proof. split; vm_compute; reflexivity. Qed.

(* ---------- C19 ---------- *)
(* getNumRows counts the rows that are left, and then every reading call, in any order and number,
   reports the end of the file and changes nothing. *)
Theorem C19_count_leaves_reader_at_end : forall (V : Type) r, reached V r ->
  exists n r', getNumRows r = Ok (n, r') /\
    (forall ls txt, sfile (strm r) = Some txt -> lines_of txt ls ->
       exists rows, rows_of (delims r) (if sfail (strm r) then [] else skipn (Z.to_nat (lineno r)) ls) rows /\
         n = Z.of_nat (List.length rows)) /\
    ncols r' = ncols r /\
    forall (cs : list (call V)) ans, Forall call_small cs ->
      Forall2 (fun c a => end_answer (ncols r') c = Some a) cs ans ->
      run_calls cs r' = Ok (map (fun a => (a, lineno r', ncols r')) ans, r').
Proof.
  intros V r Hr. destruct (reached_R _ _ Hr) as (v & H).
  destruct (numrows_facts r v H) as (n & r' & rows & E & H' & En & Hrows).
  exists n, r'. split; auto. split; [|split].
  - intros ls txt Ef Hl. exists rows. split; auto. pose proof (R_file _ _ H) as Hf. rewrite Ef in Hf.
    destruct (vlines v) as [ls'|] eqn:El; [|easy]. destruct Hf as [Hl' _].
    rewrite (lines_unique _ _ Hl _ Hl'). rewrite (R_delims _ _ H), (R_fail _ _ H), (R_line _ _ H), Nat2Z.id.
    unfold lines in Hrows. now rewrite El in Hrows.
  - rewrite (R_cols _ _ H'), (R_cols _ _ H). auto.
  - intros cs ans Hs F. eapply at_end_run; eauto. apply (R_fail _ _ H').
Qed.
Print Assumptions C19_count_leaves_reader_at_end.

(* setToStart makes the rows after the header available again, whatever happened before. *)
Theorem C19_reset_restores : forall (V : Type) r, reached V r ->
  forall txt ls rows, sfile (strm r) = Some txt -> lines_of txt ls -> nskip r <= Z.of_nat (List.length ls) ->
  rows_of (delims r) (skipn (Z.to_nat (nskip r)) ls) rows ->
  lineno (setToStart r) = Z.of_nat (Z.to_nat (nskip r)) /\
  exists r', getNumRows (setToStart r) = Ok (Z.of_nat (List.length rows), r').
Proof.
  intros V r Hr txt ls rows Ef Hl Hle Hrows. destruct (reached_R _ _ Hr) as (v & H).
  pose proof (R_file _ _ H) as Hf. rewrite Ef in Hf. destruct (vlines v) as [ls'|] eqn:El; [|easy].
  destruct Hf as [Hl' _]. rewrite (lines_unique _ _ Hl' _ Hl) in El.
  destruct (reset_facts r v ls H El) as (v' & H' & E1 & E2 & E3 & E4).
  rewrite <- (R_skip _ _ H) in E4. destruct (Nat.leb_spec (Z.to_nat (nskip r)) (List.length ls)); [|lia].
  subst v'. split; [apply (R_line _ _ H')|].
  destruct (numrows_facts _ _ H') as (n & r' & rows' & E & _ & -> & Hrows'). exists r'. rewrite E. do 3 f_equal.
  cbn [move vend vpos vdelims] in Hrows'. unfold lines in Hrows'. cbn [move vlines] in Hrows'. rewrite El in Hrows'.
  rewrite <- (R_delims _ _ H) in Hrows'. f_equal. eapply rows_unique; eauto.
Qed.
Print Assumptions C19_reset_restores.

(* The documentation's promise that getNumRows resets the stream does not hold. *)
Theorem C19_documented_reset_refuted : exists r n r', reached nat r /\ getNumRows r = Ok (n, r') /\ 0 < n /\
  getNumRows r' = Ok (0, r') /\ parseRowIterator digit_kind r' = Ok (([], Ret false), r').
Proof.
  eexists _, _, _. split.
  - eexists (mkreader (open_stream None) [] 0 0 0), (Some tab3), 1, (text " 	"), [], _.
    split; [|vm_compute; reflexivity].
    constructor; [|constructor]. split; [vm_compute; reflexivity|vm_compute; split; discriminate].
  - split; [vm_compute; reflexivity|split; [reflexivity|split; vm_compute; reflexivity]].
Qed.
Print Assumptions C19_documented_reset_refuted.
