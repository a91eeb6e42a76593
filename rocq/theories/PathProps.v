(* PathProps.v - C51, C52, C74: paths and output file names. *)
From Coq Require Import ZArith List Lia Bool Ascii String.
From Verif Require Import Base CsvModel PathModel PathSpec PathProofs.
Import ListNotations.
Local Open Scope Z_scope.
Local Open Scope list_scope.

Notation bytes := list_ascii_of_string.

(* C51 *)
Theorem C51_join : forall d p q, p <> [] -> q <> [] ->
  exists p' q', joinPaths d p q = Ok (p' ++ d :: q') /\ without_trailing d p p' /\ without_leading d q q'.
Proof. exact join_ok. Qed.
Print Assumptions C51_join.

Theorem C51_empty : forall d p, joinPaths d [] p = UB /\ joinPaths d p [] = UB.
Proof. intros. split; [apply join_empty1|apply join_empty2]. Qed.
Print Assumptions C51_empty.

Example C51_witness :
  joinPaths "/" (bytes "a/") (bytes "/b") = Ok (bytes "a/b") /\ joinPaths "/" (bytes "a") (bytes "b") = Ok (bytes "a/b") /\
  joinPaths "/" (bytes "a/") (bytes "b") = Ok (bytes "a/b") /\ joinPaths "/" (bytes "a") (bytes "/b") = Ok (bytes "a/b") /\
  joinPaths "/" (bytes "/") (bytes "/") = Ok (bytes "/").
Proof. repeat split. Qed.

(* C52: field name, the step in decimal with at least seven digits, the extension. *)
Theorem C52_format : forall ext f n, 0 <= n ->
  exists ds, generateFileName ext f n = f ++ ds ++ "."%char :: ext /\ Forall is_digit ds /\ numeral_value ds = n /\
    (7 <= List.length ds)%nat /\ (n <= 9999999 -> List.length ds = 7%nat).
Proof.
  intros ext f n Hn. exists (setw7 (print_int n)). split; [reflexivity|]. apply setw7_nonneg, Hn.
Qed.
Print Assumptions C52_format.

(* Steps, negative ones included, never share a name for one field; fields never share a name at one step. *)
Theorem C52_distinct : forall ext f g n m,
  (generateFileName ext f n = generateFileName ext f m -> n = m) /\
  (generateFileName ext f n = generateFileName ext g n -> f = g).
Proof. intros. split; [apply name_step_inj|apply name_field_inj]. Qed.
Print Assumptions C52_distinct.

Theorem C52_distinct_pairs : forall ext f g n m, 0 <= n <= 9999999 -> 0 <= m <= 9999999 ->
  generateFileName ext f n = generateFileName ext g m -> f = g /\ n = m.
Proof. exact name_pair_inj. Qed.
Print Assumptions C52_distinct_pairs.

(* Past seven digits two different fields can end up in one file. *)
Theorem C52_distinct_pairs_refuted : exists f g n m, f <> g /\ n <> m /\ 0 <= n /\ 0 <= m /\
  forall ext, generateFileName ext f n = generateFileName ext g m.
Proof.
  exists (bytes "u"), (bytes "u1"), 10000000, 0. split; [discriminate|]. split; [lia|]. split; [lia|]. split; [lia|].
  intros ext. reflexivity.
Qed.
Print Assumptions C52_distinct_pairs_refuted.

Theorem C52_sorted : forall ext f n m, 0 <= n -> n < m <= 9999999 ->
  byte_lt (generateFileName ext f n) (generateFileName ext f m).
Proof.
  intros ext f n m Hn Hm. unfold generateFileName. apply byte_lt_prefix.
  destruct (setw7_nonneg n Hn) as (D1 & V1 & _ & L1). destruct (setw7_nonneg m) as (D2 & V2 & _ & L2); [lia|].
  apply byte_lt_value; auto; [rewrite L1, L2; lia|lia].
Qed.
Print Assumptions C52_sorted.

Theorem C52_sorted_limit : forall ext f, byte_lt (generateFileName ext f 10000000) (generateFileName ext f 9999999).
Proof. intros. unfold generateFileName. apply byte_lt_prefix.
  change (setw7 (print_int 10000000)) with (bytes "10000000"). change (setw7 (print_int 9999999)) with (bytes "9999999").
  left. vm_compute. lia.
Qed.
Print Assumptions C52_sorted_limit.

(* One output step: every field's file holds that field, every other file is untouched. *)
Theorem C52_fields : forall F ext (render : str -> F -> str) writable fields k dk, NoDup (map fst fields) ->
  (forall f v, In (f, v) fields -> writable (generateFileName ext f k) = true ->
     writeFieldsToFiles ext render writable fields k dk (generateFileName ext f k) = Some (render f v)) /\
  (forall name, (forall f, In f (map fst fields) -> name <> generateFileName ext f k) ->
     writeFieldsToFiles ext render writable fields k dk name = dk name).
Proof.
  intros F ext render writable fields k dk ND. split.
  - intros f v Hin W. apply fields_written; auto.
  - intros name H. apply fields_other. intros kv Hk. apply H. apply in_map, Hk.
Qed.
Print Assumptions C52_fields.

(* A whole run: no output is overwritten by a later one. *)
Theorem C52_run : forall F ext (render : str -> F -> str) writable steps dk fields k f v,
  NoDup (map snd steps) -> (forall st, In st steps -> 0 <= snd st <= 9999999 /\ NoDup (map fst (fst st))) ->
  In (fields, k) steps -> In (f, v) fields -> writable (generateFileName ext f k) = true ->
  write_run ext render writable steps dk (generateFileName ext f k) = Some (render f v).
Proof. intros. eapply run_written; eauto. Qed.
Print Assumptions C52_run.

(* A file that cannot be opened is skipped without notice. *)
Theorem C52_unwritable_silent : forall F ext (render : str -> F -> str) writable fields k dk name,
  writable name = false -> writeFieldsToFiles ext render writable fields k dk name = dk name.
Proof. intros. apply fields_denied. assumption. Qed.
Print Assumptions C52_unwritable_silent.

Example C52_witness :
  generateFileName (bytes "dat") (bytes "u") 42 = bytes "u0000042.dat" /\
  generateFileName (bytes "vtu") (bytes "eta") 9999999 = bytes "eta9999999.vtu" /\
  generateFileName (bytes "dat") (bytes "u") (-3) = bytes "u00000-3.dat" /\
  generateFileName (bytes "dat") (bytes "u") 0 = bytes "u0000000.dat".
Proof. repeat split. Qed.

Example C52_run_witness :
  let steps := [([(bytes "u", bytes "1"); (bytes "v", bytes "2")], 0); ([(bytes "u", bytes "3")], 10)] in
  let dk := write_run (bytes "dat") (fun _ v => v) (fun _ => true) steps (fun _ => None) in
  dk (bytes "u0000000.dat") = Some (bytes "1") /\ dk (bytes "v0000000.dat") = Some (bytes "2") /\
  dk (bytes "u0000010.dat") = Some (bytes "3") /\ dk (bytes "v0000010.dat") = None /\
  NoDup (map snd steps) /\ (forall st, In st steps -> 0 <= snd st <= 9999999 /\ NoDup (map fst (fst st))).
Proof.
  cbv zeta. repeat split; try (vm_compute; reflexivity).
  - repeat constructor; cbn; intuition lia.
  - destruct H as [<-|[<-|[]]]; cbn; lia.
  - destruct H as [<-|[<-|[]]]; cbn; lia.
  - destruct H as [<-|[<-|[]]]; cbn; repeat constructor; cbn; intuition discriminate.
Qed.

(* C74: the project root seen from the test executable. *)
Lemma split_avoid : forall d pat a b, ~ In d pat -> pat <> [] -> occurs pat (a ++ d :: b) -> occurs pat a \/ occurs pat b.
Proof.
  intros d pat a b Hd Hp (x & y & E).
  revert x E. induction a as [|c a IH]; intros x E; cbn [app] in E.
  - destruct x as [|e x]; cbn [app] in E.
    + destruct pat as [|p pat]; [congruence|]. injection E as -> _. exfalso. apply Hd. left. reflexivity.
    + injection E as -> ->. right. exists x, y. reflexivity.
  - destruct x as [|e x]; cbn [app] in E.
    + left. clear IH.
      assert (G : forall pat l, l ++ d :: b = pat ++ y -> ~ In d pat -> exists r, l = pat ++ r).
      { clear. induction pat as [|p pat IH]; intros l E Hd; [exists l; reflexivity|].
        destruct l as [|c l]; cbn [app] in E; injection E as <- E.
        - exfalso. apply Hd. left. reflexivity.
        - destruct (IH l E) as [r ->]; [intros H; apply Hd; right; exact H|]. exists r. reflexivity. }
      destruct (G pat (c :: a) E Hd) as [r ->]. exists [], r. reflexivity.
    + injection E as -> E. destruct (IH x E) as [(u & v & ->)|H]; [left; exists (e :: u), v; reflexivity|right; exact H].
Qed.

Theorem C74_unix_root : forall root, ~ In backslash root -> ~ occurs (bytes ".exe") root ->
  get_RootPath (newPathResolver (root ++ bytes "/bin/test")) = root.
Proof.
  intros root Hb He. unfold newPathResolver.
  change (bytes "/bin/test") with ((bytes "/bin/tes") ++ ["t"%char]). rewrite app_assoc, trim_right_keep by reflexivity.
  rewrite <- app_assoc. change ((bytes "/bin/tes") ++ ["t"%char]) with (bytes "/bin/test").
  assert (X : existsb (Ascii.eqb backslash) (root ++ bytes "/bin/test") = false).
  { rewrite existsb_app. rewrite orb_false_iff. split; [|reflexivity].
    destruct (existsb (Ascii.eqb backslash) root) eqn:E; [|reflexivity]. exfalso. apply Hb.
    apply existsb_exists in E. destruct E as (c & Hc & E). apply Ascii.eqb_eq in E. subst. exact Hc. }
  rewrite X. unfold get_RootPath. rewrite (erase_absent dot_exe).
  - apply (erase_suffix (bin_test slash)). discriminate.
  - intros H. change (bytes "/bin/test") with (slash :: bytes "bin/test") in H. apply split_avoid in H.
    + destruct H as [H|H]; [exact (He H)|]. assert (erase_last dot_exe (bytes "bin/test") = None) by reflexivity.
      apply erase_last_none in H0. exact (H0 H).
    + cbn. intuition discriminate.
    + discriminate.
Qed.
Print Assumptions C74_unix_root.

Theorem C74_windows_root : forall root, get_RootPath (newPathResolver (root ++ bytes "\bin\test.exe")) = root.
Proof.
  intros root. unfold newPathResolver.
  change (bytes "\bin\test.exe") with ((bytes "\bin\test.ex") ++ ["e"%char]). rewrite app_assoc, trim_right_keep by reflexivity.
  rewrite <- app_assoc. change ((bytes "\bin\test.ex") ++ ["e"%char]) with (bytes "\bin\test.exe").
  assert (X : existsb (Ascii.eqb backslash) (root ++ bytes "\bin\test.exe") = true).
  { rewrite existsb_app. rewrite orb_true_iff. right. reflexivity. }
  rewrite X. unfold get_RootPath. change (bytes "\bin\test.exe") with (bin_test backslash ++ dot_exe).
  rewrite app_assoc, (erase_suffix dot_exe) by discriminate. apply erase_suffix. discriminate.
Qed.
Print Assumptions C74_windows_root.

(* A directory with ".exe" or a backslash in its name is not found again on Unix. *)
Theorem C74_unix_root_refuted :
  get_RootPath (newPathResolver (bytes "/home/my.exercises" ++ bytes "/bin/test")) = bytes "/home/myrcises" /\
  get_RootPath (newPathResolver (bytes "/home/a\b" ++ bytes "/bin/test")) = bytes "/home/a\b/bin/test".
Proof. split; reflexivity. Qed.
Print Assumptions C74_unix_root_refuted.

Example C74_witness :
  get_RootPath (newPathResolver (bytes "/home/u/blitzdg/bin/test ")) = bytes "/home/u/blitzdg" /\
  get_RootPath (newPathResolver (bytes "C:\blitzdg\bin\test.exe")) = bytes "C:\blitzdg" /\
  ~ In backslash (bytes "/home/u/blitzdg") /\ ~ occurs (bytes ".exe") (bytes "/home/u/blitzdg").
Proof.
  split; [reflexivity|]. split; [reflexivity|]. split; [cbn; intuition discriminate|].
  apply erase_last_none. reflexivity.
Qed.
