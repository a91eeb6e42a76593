(* PathProofs.v - proofs about PathModel.v. *)
From Coq Require Import ZArith List Lia Bool Ascii.
From Verif Require Import Base CsvModel PathModel PathSpec.
Import ListNotations.
Local Open Scope Z_scope.

(* --- joinPaths --- *)
Lemma join_empty1 d q : joinPaths d [] q = UB.
Proof. reflexivity. Qed.

Lemma back_snoc p c : back (p ++ [c]) = Ok c.
Proof. unfold back. rewrite rev_app_distr. reflexivity. Qed.

Lemma snoc_cases (p : str) : p = [] \/ exists q c, p = q ++ [c].
Proof. destruct p as [|c p]; [auto|]. right. destruct (exists_last (l := c :: p)) as (q & e & E); [discriminate|]. eauto. Qed.

Lemma join_empty2 d p : joinPaths d p [] = UB.
Proof.
  destruct (snoc_cases p) as [->|(q & c & ->)]; [reflexivity|].
  unfold joinPaths, and_then, is_char, isnt_char. rewrite back_snoc. cbn [bind].
  destruct (Ascii.eqb c d); reflexivity.
Qed.

Lemma join_ok d p q : p <> [] -> q <> [] ->
  exists p' q', joinPaths d p q = Ok (p' ++ d :: q') /\ without_trailing d p p' /\ without_leading d q q'.
Proof.
  intros Hp Hq. destruct (snoc_cases p) as [->|(a & c & ->)]; [congruence|]. destruct q as [|e q]; [congruence|].
  unfold joinPaths, and_then, is_char, isnt_char. rewrite back_snoc. cbn [bind front].
  destruct (Ascii.eqb_spec c d) as [->|Hc]; destruct (Ascii.eqb_spec e d) as [->|He]; cbn [bind negb].
  - exists a, q. rewrite removelast_last. split; [reflexivity|]. split; left; reflexivity.
  - exists a, (e :: q). rewrite <- app_assoc. split; [reflexivity|]. split; [left; reflexivity|].
    right. split; [reflexivity|]. intros q' E. congruence.
  - exists (a ++ [c]), q. split; [reflexivity|]. split; [|left; reflexivity].
    right. split; [reflexivity|]. intros q' E. apply app_inj_tail in E. destruct E. congruence.
  - exists (a ++ [c]), (e :: q). rewrite <- app_assoc. split; [reflexivity|]. split.
    + right. split; [reflexivity|]. intros q' E. apply app_inj_tail in E. destruct E. congruence.
    + right. split; [reflexivity|]. intros q' E. congruence.
Qed.

(* --- replace_last --- *)
Lemma starts_with_iff pat s : starts_with pat s = true <-> exists b, s = pat ++ b.
Proof.
  revert s. induction pat as [|c pat IH]; intros s; simpl.
  - split; eauto.
  - destruct s as [|x s]; [split; [discriminate|intros [b E]; discriminate]|].
    rewrite andb_true_iff, IH, Ascii.eqb_eq. split.
    + intros [-> [b ->]]. eauto.
    + intros [b E]. injection E as -> ->. eauto.
Qed.

Lemma occurs_cons pat c s : occurs pat (c :: s) <-> (exists b, c :: s = pat ++ b) \/ occurs pat s.
Proof.
  split.
  - intros (a & b & E). destruct a as [|x a]; [left; exists b; exact E|]. injection E as -> ->. right. exists a, b. reflexivity.
  - intros [[b E]|(a & b & ->)]; [exists [], b; exact E|exists (c :: a), b; reflexivity].
Qed.

(* The last occurrence is cut out: no later one exists. *)
Lemma erase_last_some pat s r : erase_last pat s = Some r ->
  exists a b, s = a ++ pat ++ b /\ r = a ++ b /\
    forall a' b', s = a' ++ pat ++ b' -> (List.length a' <= List.length a)%nat.
Proof.
  revert r. induction s as [|c s IH]; intros r; cbn [erase_last].
  - destruct (starts_with pat []) eqn:E; [|discriminate]. intros [= <-]. apply starts_with_iff in E. destruct E as [b E].
    exists [], []. destruct pat; [|discriminate]. repeat split. intros a' b' E'. symmetry in E'.
    apply app_eq_nil in E'. destruct E' as [-> _]. auto.
  - destruct (erase_last pat s) as [r'|] eqn:E.
    + intros [= <-]. destruct (IH _ eq_refl) as (a & b & -> & -> & L). exists (c :: a), b. repeat split.
      intros [|x a'] b' E'; simpl; [lia|]. injection E' as -> E'. apply L in E'. lia.
    + destruct (starts_with pat (c :: s)) eqn:W; [|discriminate]. intros [= <-]. apply starts_with_iff in W. destruct W as [b W].
      exists [], b. rewrite W. split; [reflexivity|]. split.
      { rewrite skipn_app, skipn_all, Nat.sub_diag. reflexivity. }
      rewrite <- W. intros [|x a'] b' E'; [simpl; lia|]. exfalso. injection E' as -> E'.
      assert (N : forall s, occurs pat s -> erase_last pat s <> None).
      { clear. induction s as [|c s IH]; intros H.
        - destruct H as (a & b & E). symmetry in E. apply app_eq_nil in E. destruct E as [-> E].
          apply app_eq_nil in E. destruct E as [-> ->]. discriminate.
        - cbn [erase_last]. apply occurs_cons in H. destruct (erase_last pat s); [discriminate|].
          destruct H as [H|H]; [|exfalso; apply IH; auto]. apply starts_with_iff in H. rewrite H. discriminate. }
      apply (N s); [exists a', b'; exact E'|exact E].
Qed.

Lemma erase_last_none pat s : erase_last pat s = None <-> ~ occurs pat s.
Proof.
  split.
  - revert pat. induction s as [|c s IH]; intros pat H.
    + cbn in H. intros (a & b & E). symmetry in E. apply app_eq_nil in E. destruct E as [-> E].
      apply app_eq_nil in E. destruct E as [-> ->]. discriminate.
    + cbn [erase_last] in H. rewrite occurs_cons. destruct (erase_last pat s) eqn:E; [discriminate|].
      destruct (starts_with pat (c :: s)) eqn:W; [discriminate|]. intros [B|B].
      * apply starts_with_iff in B. congruence.
      * eapply IH; eauto.
  - intros H. destruct (erase_last pat s) as [r|] eqn:E; [|reflexivity]. exfalso. apply H.
    apply erase_last_some in E. destruct E as (a & b & -> & _). exists a, b. reflexivity.
Qed.

(* Cutting the pattern off the end of a string. *)
Lemma erase_suffix pat s : pat <> [] -> replace_last_nothing (s ++ pat) pat = s.
Proof.
  intros Hp. unfold replace_last_nothing. destruct (erase_last pat (s ++ pat)) as [r|] eqn:E.
  - apply erase_last_some in E. destruct E as (a & b & E & -> & L).
    assert (La : (List.length s <= List.length a)%nat). { apply (L s []). rewrite app_nil_r. reflexivity. }
    assert (Ln := f_equal (@List.length _) E). rewrite !app_length in Ln.
    assert (List.length b = 0)%nat by lia. destruct b; [|discriminate]. rewrite app_nil_r in *.
    apply app_inv_tail in E. auto.
  - exfalso. apply erase_last_none in E. apply E. exists s, []. rewrite app_nil_r. reflexivity.
Qed.

Lemma erase_absent pat s : ~ occurs pat s -> replace_last_nothing s pat = s.
Proof. intros H. unfold replace_last_nothing. apply erase_last_none in H. rewrite H. reflexivity. Qed.

Lemma trim_right_keep s c : is_space c = false -> trim_right (s ++ [c]) = s ++ [c].
Proof.
  intros H. unfold trim_right. rewrite rev_app_distr. cbn [rev app drop_space]. rewrite H. cbn [rev].
  rewrite rev_involutive. reflexivity.
Qed.

(* --- decimal numerals --- *)
Lemma nat_of_digit n : 0 <= n < 10 -> nat_of_ascii (digit n) = (48 + Z.to_nat n)%nat.
Proof. intros H. unfold digit. apply nat_ascii_embedding. lia. Qed.

Lemma digit_value_digit n : 0 <= n < 10 -> digit_value (digit n) = n.
Proof. intros H. unfold digit_value. rewrite nat_of_digit by lia. lia. Qed.

Lemma is_digit_digit n : 0 <= n < 10 -> is_digit (digit n).
Proof. intros H. unfold is_digit. rewrite nat_of_digit by lia. lia. Qed.

Lemma numeral_acc s a : fold_left (fun a c => 10 * a + digit_value c) s a = a * 10 ^ Z.of_nat (List.length s) + numeral_value s.
Proof.
  unfold numeral_value. revert a. induction s as [|c s IH]; intros a; cbn [fold_left List.length].
  - change (Z.of_nat 0) with 0. rewrite Z.pow_0_r. lia.
  - rewrite IH. rewrite (IH (10 * 0 + digit_value c)).
    replace (Z.of_nat (S (List.length s))) with (Z.succ (Z.of_nat (List.length s))) by lia.
    rewrite Z.pow_succ_r by lia. lia.
Qed.

Lemma numeral_cons c s : numeral_value (c :: s) = digit_value c * 10 ^ Z.of_nat (List.length s) + numeral_value s.
Proof. unfold numeral_value at 1. cbn [fold_left]. rewrite numeral_acc. lia. Qed.

Lemma numeral_app s t : numeral_value (s ++ t) = numeral_value s * 10 ^ Z.of_nat (List.length t) + numeral_value t.
Proof. unfold numeral_value at 1. rewrite fold_left_app. apply numeral_acc. Qed.

Lemma numeral_range s : Forall is_digit s -> 0 <= numeral_value s < 10 ^ Z.of_nat (List.length s).
Proof.
  induction 1 as [|c s Hc _ IH]; [unfold numeral_value; cbn; lia|].
  rewrite numeral_cons. cbn [List.length].
  replace (Z.of_nat (S (List.length s))) with (Z.succ (Z.of_nat (List.length s))) by lia.
  rewrite Z.pow_succ_r by lia. unfold digit_value, is_digit in *. nia.
Qed.

Lemma print_loop_spec fuel : forall n acc, 0 <= n < 10 ^ Z.of_nat (S fuel) ->
  exists ds, print_loop fuel n acc = ds ++ acc /\ Forall is_digit ds /\ ds <> [] /\ numeral_value ds = n /\
    (forall k, n < 10 ^ Z.of_nat (S k) -> (List.length ds <= S k)%nat).
Proof.
  induction fuel as [|fuel IH]; intros n acc Hn.
  - change (10 ^ Z.of_nat 1) with 10 in Hn. cbn [print_loop]. exists [digit (n mod 10)].
    rewrite Z.mod_small by lia. split; [reflexivity|]. split; [constructor; [apply is_digit_digit; lia|constructor]|].
    split; [discriminate|]. split; [unfold numeral_value; cbn [fold_left]; rewrite digit_value_digit; lia|].
    intros k _. cbn. lia.
  - cbn [print_loop]. destruct (Z.ltb_spec n 10) as [L|L].
    + exists [digit (n mod 10)].
      rewrite Z.mod_small by lia. split; [reflexivity|]. split; [constructor; [apply is_digit_digit; lia|constructor]|].
      split; [discriminate|]. split; [unfold numeral_value; cbn [fold_left]; rewrite digit_value_digit; lia|].
      intros k _. cbn. lia.
    + pose proof (Z.mod_pos_bound n 10 ltac:(lia)). pose proof (Z.div_mod n 10 ltac:(lia)).
      destruct (IH (n / 10) (digit (n mod 10) :: acc)) as (ds & E & D & N & V & Ln).
      { split; [apply Z.div_pos; lia|]. apply Z.div_lt_upper_bound; [lia|].
        replace (Z.of_nat (S (S fuel))) with (Z.succ (Z.of_nat (S fuel))) in Hn by lia.
        rewrite Z.pow_succ_r in Hn by lia. lia. }
      exists (ds ++ [digit (n mod 10)]). rewrite <- app_assoc. split; [exact E|].
      split; [apply Forall_app; split; [exact D|constructor; [apply is_digit_digit; lia|constructor]]|].
      split; [intros X; apply app_eq_nil in X; destruct X; discriminate|].
      split.
      { rewrite numeral_app, V. unfold numeral_value. cbn [List.length fold_left]. rewrite digit_value_digit by lia.
        change (10 ^ Z.of_nat 1) with 10. lia. }
      intros k Hk. rewrite app_length. cbn [List.length]. destruct k as [|k].
      { change (10 ^ Z.of_nat 1) with 10 in Hk. lia. }
      assert (List.length ds <= S k)%nat; [|lia]. apply Ln. apply Z.div_lt_upper_bound; [lia|].
      replace (Z.of_nat (S (S k))) with (Z.succ (Z.of_nat (S k))) in Hk by lia. rewrite Z.pow_succ_r in Hk by lia. lia.
Qed.

Lemma print_value n : 0 <= n -> Forall is_digit (print_nonneg n) /\ print_nonneg n <> [] /\ numeral_value (print_nonneg n) = n /\
  (forall k, n < 10 ^ Z.of_nat (S k) -> (List.length (print_nonneg n) <= S k)%nat).
Proof.
  intros Hn. unfold print_nonneg. destruct (print_loop_spec (Z.to_nat (Z.log2 n)) n []) as (ds & E & D & N & V & L).
  - split; [lia|]. destruct (Z.eq_dec n 0) as [->|]; [cbn; lia|].
    pose proof (Z.log2_nonneg n). pose proof (Z.log2_spec n ltac:(lia)) as [_ B].
    replace (Z.of_nat (S (Z.to_nat (Z.log2 n)))) with (Z.succ (Z.log2 n)) by lia.
    eapply Z.lt_le_trans; [exact B|]. apply Z.pow_le_mono_l. lia.
  - rewrite app_nil_r in E. rewrite E. auto.
Qed.

Lemma digit_zero : is_digit "0"%char /\ digit_value "0"%char = 0.
Proof. unfold is_digit, digit_value. cbn. lia. Qed.

Lemma zeros_digits k : Forall is_digit (repeat "0"%char k).
Proof. induction k; constructor; auto. apply digit_zero. Qed.

Lemma zeros_value k s : numeral_value (repeat "0"%char k ++ s) = numeral_value s.
Proof. induction k; [reflexivity|]. cbn [repeat app]. rewrite numeral_cons, IHk. destruct digit_zero as [_ ->]. lia. Qed.

Lemma setw7_nonneg n : 0 <= n ->
  Forall is_digit (setw7 (print_int n)) /\ numeral_value (setw7 (print_int n)) = n /\
  (7 <= List.length (setw7 (print_int n)))%nat /\ (n <= 9999999 -> List.length (setw7 (print_int n)) = 7%nat).
Proof.
  intros Hn. unfold print_int. destruct (Z.ltb_spec n 0); [lia|]. destruct (print_value n Hn) as (D & N & V & L).
  unfold setw7. rewrite zeros_value. rewrite !app_length, !repeat_length.
  split; [apply Forall_app; split; [apply zeros_digits|exact D]|]. split; [exact V|]. split; [lia|].
  intros Hm. assert (List.length (print_nonneg n) <= 7)%nat; [|lia]. apply L. change (10 ^ Z.of_nat 7) with 10000000. lia.
Qed.

(* For a negative number the minus sign stands after the padding. *)
Lemma setw7_neg n : n < 0 -> exists k ds, setw7 (print_int n) = repeat "0"%char k ++ "-"%char :: ds /\
  Forall is_digit ds /\ numeral_value ds = - n.
Proof.
  intros Hn. unfold print_int. destruct (Z.ltb_spec n 0); [|lia]. destruct (print_value (- n)) as (D & N & V & _); [lia|].
  unfold setw7. eexists _, _. split; [reflexivity|]. auto.
Qed.

Lemma minus_not_digit : ~ is_digit "-"%char.
Proof. unfold is_digit. cbn. lia. Qed.

Lemma zeros_minus k1 k2 d1 d2 :
  repeat "0"%char k1 ++ "-"%char :: d1 = repeat "0"%char k2 ++ "-"%char :: d2 -> d1 = d2.
Proof.
  revert k2. induction k1 as [|k1 IH]; intros [|k2] E; cbn [repeat app] in E; try congruence. apply (IH k2). congruence.
Qed.

Lemma setw7_inj n m : setw7 (print_int n) = setw7 (print_int m) -> n = m.
Proof.
  intros E. destruct (Z.ltb_spec n 0) as [Hn|Hn]; destruct (Z.ltb_spec m 0) as [Hm|Hm].
  - destruct (setw7_neg n Hn) as (k1 & d1 & E1 & _ & V1). destruct (setw7_neg m Hm) as (k2 & d2 & E2 & _ & V2).
    rewrite E1, E2 in E. apply zeros_minus in E. subst. lia.
  - destruct (setw7_neg n Hn) as (k1 & d1 & E1 & _ & V1). destruct (setw7_nonneg m Hm) as (D & _).
    rewrite <- E, E1 in D. apply Forall_app in D. destruct D as [_ D]. inversion D. exfalso. apply minus_not_digit. assumption.
  - destruct (setw7_neg m Hm) as (k1 & d1 & E1 & _ & V1). destruct (setw7_nonneg n Hn) as (D & _).
    rewrite E, E1 in D. apply Forall_app in D. destruct D as [_ D]. inversion D. exfalso. apply minus_not_digit. assumption.
  - destruct (setw7_nonneg n Hn) as (_ & V1 & _). destruct (setw7_nonneg m Hm) as (_ & V2 & _). congruence.
Qed.

Lemma byte_lt_value s t r r' : Forall is_digit s -> Forall is_digit t -> List.length s = List.length t ->
  numeral_value s < numeral_value t -> byte_lt (s ++ r) (t ++ r').
Proof.
  intros Hs. revert t. induction Hs as [|c s Hc Hs IH]; intros t Ht L V.
  - destruct t; [|discriminate]. lia.
  - destruct Ht as [|d t Hd Ht]; [discriminate|]. injection L as L. rewrite !numeral_cons, L in V.
    cbn [app byte_lt]. pose proof (numeral_range _ Hs). pose proof (numeral_range _ Ht). rewrite L in H.
    destruct (Nat.lt_trichotomy (nat_of_ascii c) (nat_of_ascii d)) as [?|[E|G]]; [auto| |].
    + right. assert (c = d). { rewrite <- (ascii_nat_embedding c), <- (ascii_nat_embedding d), E. reflexivity. }
      subst d. split; [reflexivity|]. apply IH; auto. lia.
    + exfalso. unfold digit_value in V. assert (Z.of_nat (nat_of_ascii d) + 1 <= Z.of_nat (nat_of_ascii c)) by lia. nia.
Qed.

Lemma byte_lt_prefix p s t : byte_lt s t -> byte_lt (p ++ s) (p ++ t).
Proof. intros H. induction p; [exact H|]. cbn [app byte_lt]. auto. Qed.

(* --- generateFileName --- *)
Lemma name_step_inj ext f n m : generateFileName ext f n = generateFileName ext f m -> n = m.
Proof. unfold generateFileName. intros E. apply app_inv_head in E. apply app_inv_tail in E. apply setw7_inj, E. Qed.

Lemma name_field_inj ext f g n : generateFileName ext f n = generateFileName ext g n -> f = g.
Proof. unfold generateFileName. intros E. apply app_inv_tail in E. exact E. Qed.

Lemma name_pair_inj ext f g n m : 0 <= n <= 9999999 -> 0 <= m <= 9999999 ->
  generateFileName ext f n = generateFileName ext g m -> f = g /\ n = m.
Proof.
  unfold generateFileName. intros Hn Hm E. rewrite !app_assoc in E. apply app_inv_tail in E.
  destruct (setw7_nonneg n) as (_ & _ & _ & L1); [lia|]. destruct (setw7_nonneg m) as (_ & _ & _ & L2); [lia|].
  specialize (L1 ltac:(lia)). specialize (L2 ltac:(lia)).
  assert (Lf : List.length f = List.length g). { apply (f_equal (@List.length _)) in E. rewrite !app_length in E. lia. }
  assert (f = g /\ setw7 (print_int n) = setw7 (print_int m)) as [-> E2].
  { clear L1 L2. revert g Lf E. induction f as [|c f IH]; intros [|d g] Lf E; try discriminate; [split; [reflexivity|exact E]|].
    injection E as -> E. injection Lf as Lf. destruct (IH g Lf E) as [-> ->]. auto. }
  split; [reflexivity|]. apply setw7_inj, E2.
Qed.

(* --- writing --- *)
Section Disk.
Context {F : Type} (ext : str) (render : str -> F -> str) (writable : str -> bool).

Lemma write1_other dk n t m : m <> n -> write1 writable dk n t m = dk m.
Proof. intros H. unfold write1, store. destruct (writable n); [|reflexivity]. destruct (list_eq_dec ascii_dec m n); congruence. Qed.

Lemma write1_same dk n t : writable n = true -> write1 writable dk n t n = Some t.
Proof. intros H. unfold write1, store. rewrite H. destruct (list_eq_dec ascii_dec n n); congruence. Qed.

Lemma write1_denied dk n t m : writable m = false -> write1 writable dk n t m = dk m.
Proof.
  intros H. unfold write1, store. destruct (writable n) eqn:E; [|reflexivity].
  destruct (list_eq_dec ascii_dec m n); congruence.
Qed.

Lemma fields_other fields k dk m : (forall kv, In kv fields -> m <> generateFileName ext (fst kv) k) ->
  writeFieldsToFiles ext render writable fields k dk m = dk m.
Proof.
  unfold writeFieldsToFiles. revert dk. induction fields as [|kv fields IH]; intros dk H; [reflexivity|].
  cbn [fold_left]. rewrite IH by (intros; apply H; right; assumption). apply write1_other. apply H. left. reflexivity.
Qed.

Lemma fields_denied fields k dk m : writable m = false -> writeFieldsToFiles ext render writable fields k dk m = dk m.
Proof.
  intros H. unfold writeFieldsToFiles. revert dk. induction fields as [|kv fields IH]; intros dk; [reflexivity|].
  cbn [fold_left]. rewrite IH. apply write1_denied, H.
Qed.

Lemma fields_written fields k dk f v : NoDup (map fst fields) -> In (f, v) fields ->
  writable (generateFileName ext f k) = true ->
  writeFieldsToFiles ext render writable fields k dk (generateFileName ext f k) = Some (render f v).
Proof.
  unfold writeFieldsToFiles. revert dk. induction fields as [|kv fields IH]; intros dk ND Hin W; [destruct Hin|].
  cbn [fold_left]. cbn [map] in ND. apply NoDup_cons_iff in ND. destruct ND as [Hno ND]. destruct Hin as [->|Hin].
  - cbn [fst snd] in *. fold (writeFieldsToFiles ext render writable fields k (write1 writable dk (generateFileName ext f k) (render f v))).
    rewrite fields_other; [apply write1_same, W|]. intros kv Hk E. apply name_field_inj in E. subst f. apply Hno.
    apply in_map, Hk.
  - apply IH; auto.
Qed.

(* No output of an earlier step is overwritten later. *)
Lemma run_written steps dk fields k f v :
  NoDup (map snd steps) -> (forall st, In st steps -> 0 <= snd st <= 9999999 /\ NoDup (map fst (fst st))) ->
  In (fields, k) steps -> In (f, v) fields -> writable (generateFileName ext f k) = true ->
  write_run ext render writable steps dk (generateFileName ext f k) = Some (render f v).
Proof.
  intros ND R Hin Hf W. revert dk. unfold write_run.
  induction steps as [|st steps IH]; intros dk; [destruct Hin|]. cbn [fold_left map] in *.
  apply NoDup_cons_iff in ND. destruct ND as [Hno ND]. destruct Hin as [->|Hin].
  - cbn [fst snd] in *.
    assert (G : forall sts dk', (forall st, In st sts -> In st steps) ->
        fold_left (fun dk st => writeFieldsToFiles ext render writable (fst st) (snd st) dk) sts dk' (generateFileName ext f k) =
        dk' (generateFileName ext f k)).
    { induction sts as [|st sts IHs]; intros dk' Hs; [reflexivity|]. cbn [fold_left].
      rewrite IHs by (intros; apply Hs; right; assumption). apply fields_other. intros kv Hk E.
      assert (In st steps) by (apply Hs; left; reflexivity).
      destruct (R (fields, k) (or_introl eq_refl)) as [R1 _]. destruct (R st (or_intror H)) as [R2 _].
      apply name_pair_inj in E; [|exact R1|exact R2]. destruct E as [_ ->]. apply Hno. apply in_map, H. }
    rewrite G by auto. apply fields_written; auto. apply (R (fields, k)). left. reflexivity.
  - apply IH; auto. intros; apply R; right; assumption.
Qed.
End Disk.
