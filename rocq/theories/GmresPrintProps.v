(* GmresPrintProps.v - C112: what is printed of the result of the linear solver.
   in_lines, decimal, mentions and catchword are in GmresPrintSpec.v. *)
From Coq Require Import ZArith List Lia Bool String Ascii.
From Verif Require Import Base Num CsvModel PathModel PathSpec PathProofs GmresModel GmresPrintModel GmresPrintSpec.
Import ListNotations.
Local Open Scope list_scope.

(* --- helpers --- *)
Fixpoint startsb (w s : str) : bool :=
  match w, s with [], _ => true | a :: w, b :: s => Ascii.eqb a b && startsb w s | _ :: _, [] => false end.
Fixpoint containsb (w s : str) : bool := startsb w s || match s with [] => false | _ :: s => containsb w s end.
Lemma startsb_ok w s : startsb w s = true <-> exists after, s = w ++ after.
Proof.
  revert s. induction w as [|a w IH]; intro s; cbn [startsb].
  - split; [intros _; exists s; reflexivity|reflexivity].
  - destruct s as [|b s]; [split; [discriminate|intros (t & H); discriminate]|]. rewrite andb_true_iff, Ascii.eqb_eq, IH. split.
    + intros (-> & t & ->). exists t. reflexivity.
    + intros (t & H). injection H as -> ->. split; [reflexivity|]. exists t. reflexivity.
Qed.
Lemma containsb_ok w s : containsb w s = true <-> exists before after, s = before ++ w ++ after.
Proof.
  induction s as [|b s IH]; cbn [containsb]; rewrite orb_true_iff, startsb_ok.
  - split; [intros [(t & H)|H]; [exists [], t; exact H|discriminate]|]. intros ([|] & t & H); [left; exists t; exact H|discriminate].
  - rewrite IH. split.
    + intros [(t & H)|(p & t & ->)]; [exists [], t; exact H|exists (b :: p), t; reflexivity].
    + intros ([|b' p] & t & H); [left; exists t; exact H|]. injection H as -> ->. right. exists p, t. reflexivity.
Qed.
Lemma printed_decimal n : decimal (print_int (Z.of_nat n)) n.
Proof.
  unfold print_int. destruct (Z.ltb_spec (Z.of_nat n) 0); [lia|]. destruct (print_value (Z.of_nat n) ltac:(lia)) as (D & N & V & _). split; [exact N|]. split; [exact D|exact V].
Qed.
Lemma digits_line s : Forall is_digit s -> ~ In NL s.
Proof. intros H C. rewrite Forall_forall in H. specialize (H _ C). unfold is_digit in H. cbn in H. lia. Qed.
Lemma decimal_line s n : decimal s n -> ~ In NL s.
Proof. intros (_ & H & _). apply digits_line, H. Qed.
Lemma flag_line f : ~ In NL (ConvFlagToStr f).
Proof. intro H. assert (E : existsb (Ascii.eqb NL) (ConvFlagToStr f) = true) by (apply existsb_exists; exists NL; split; [exact H|apply Ascii.eqb_refl]). destruct f; discriminate E. Qed.
Lemma line_inj (x y s t : str) : ~ In NL x -> ~ In NL y -> x ++ NL :: s = y ++ NL :: t -> x = y /\ s = t.
Proof.
  revert y. induction x as [|a x IH]; intros [|b y] Hx Hy H; cbn [app] in H.
  - injection H as ->. auto.
  - injection H as <- _. destruct Hy. left. reflexivity.
  - injection H as -> _. destruct Hx. left. reflexivity.
  - injection H as -> H. destruct (IH y) as (-> & ->); [intro C; apply Hx; right; exact C|intro C; apply Hy; right; exact C|exact H|auto].
Qed.
Lemma msg_none m : is_empty (msg_text m) = true <-> m = G_none.
Proof. destruct m; cbn; split; intro H; congruence || discriminate. Qed.

(* the parts of the text, one stream at a time *)
Lemma written_str t s : written (put_str t s) = written s ++ t.
Proof. reflexivity. Qed.
Definition put_flag {T} (o : @gout T) (s : stream) : stream := endline (put_str (ConvFlagToStr (g_flag o)) (put_str (lit "outcome: ") s)).
Definition info_part {T} (o : @gout T) (s : stream) : stream :=
  if negb (is_empty (msg_text (g_msg o))) then endline (put_bool (is_empty (msg_text (g_msg o))) (put_str (lit "info: ") s)) else s.
Definition tail_part {T} (fmt : bool -> nat -> T -> str) (o : @gout T) (s : stream) : stream :=
  endline (put_real fmt (g_relres o) (set_precision 2 (set_scientific (put_str (lit "relative residual: ")
    (endline (put_int (Z.of_nat (g_inner o)) (put_str (lit "inner iter: ") (endline (put_int (Z.of_nat (g_outer o)) (put_str (lit "outer iter: ") s)))))))))).
Lemma print_parts T (fmt : bool -> nat -> T -> str) o s : print_out fmt o s = tail_part fmt o (info_part o (put_flag o s)).
Proof. reflexivity. Qed.
Lemma print_tail T (fmt : bool -> nat -> T -> str) o s :
  written (tail_part fmt o s) = written s ++ in_lines [lit "outer iter: " ++ print_int (Z.of_nat (g_outer o)); lit "inner iter: " ++ print_int (Z.of_nat (g_inner o));
    lit "relative residual: " ++ fmt true 2 (g_relres o)] /\ scientific (tail_part fmt o s) = true /\ precision (tail_part fmt o s) = 2.
Proof.
  split; [|split; reflexivity]. destruct s as [w ba sc pr].
  unfold tail_part, put_real, endline, put_int. rewrite !written_str. unfold set_precision, set_scientific. cbn [scientific precision written]. rewrite !written_str. cbn [written].
  unfold in_lines. cbn [flat_map]. rewrite ?app_nil_r, <- !app_assoc. reflexivity.
Qed.

(* The texts for the outcomes: each can be told from all others by its words. *)
Theorem C112_flags : forall f g, mentions (ConvFlagToStr f) (catchword g) <-> f = g.
Proof.
  intros f g. unfold mentions. rewrite <- containsb_ok. split; [|intros ->; destruct g; reflexivity].
  destruct f, g; intro H; try reflexivity; discriminate H.
Qed.

(* What is printed: the outcome, a line about further information if there is any, the two counts in decimal, and the residual in
   scientific notation with two digits after the point, whatever the format of the stream was. *)
Theorem C112_lines : forall T (fmt : bool -> nat -> T -> str) o s, exists flag info outer inner,
  written (print_out fmt o s) = written s ++ in_lines ([lit "outcome: " ++ flag] ++ info ++ [lit "outer iter: " ++ outer; lit "inner iter: " ++ inner;
    lit "relative residual: " ++ fmt true 2 (g_relres o)]) /\
  (forall g, mentions flag (catchword g) <-> g_flag o = g) /\ ~ In NL flag /\
  ((g_msg o = G_none /\ info = []) \/ (g_msg o <> G_none /\ info = [lit "info: " ++ lit (if boolalpha s then "false" else "0")])) /\
  decimal outer (g_outer o) /\ decimal inner (g_inner o).
Proof.
  intros T fmt o s. exists (ConvFlagToStr (g_flag o)), (if is_empty (msg_text (g_msg o)) then [] else [lit "info: " ++ lit (if boolalpha s then "false" else "0")]),
    (print_int (Z.of_nat (g_outer o))), (print_int (Z.of_nat (g_inner o))). split; [|split; [|split; [|split; [|split]]]].
  - rewrite print_parts. destruct (print_tail _ fmt o (info_part o (put_flag o s))) as (-> & _).
    assert (W : written (put_flag o s) = written s ++ lit "outcome: " ++ ConvFlagToStr (g_flag o) ++ [NL]) by (unfold put_flag, endline; rewrite !written_str, <- !app_assoc; reflexivity).
    unfold info_part. destruct (is_empty (msg_text (g_msg o))); cbn [negb].
    + rewrite W. unfold in_lines. cbn [app flat_map]. rewrite ?app_nil_r, <- !app_assoc. reflexivity.
    + assert (Wi : written (endline (put_bool false (put_str (lit "info: ") (put_flag o s)))) = written (put_flag o s) ++ lit "info: " ++ lit (if boolalpha s then "false" else "0") ++ [NL]).
      { unfold endline, put_bool. rewrite !written_str, <- !app_assoc. change (boolalpha (put_str (lit "info: ") (put_flag o s))) with (boolalpha s). destruct (boolalpha s); reflexivity. }
      rewrite Wi, W. unfold in_lines. cbn [app flat_map]. rewrite ?app_nil_r, <- !app_assoc. reflexivity.
  - intro g. apply C112_flags.
  - apply flag_line.
  - destruct (is_empty (msg_text (g_msg o))) eqn:Em; [left; split; [apply msg_none; exact Em|reflexivity]|right; split; [|reflexivity]].
    intro H. apply msg_none in H. congruence.
  - apply printed_decimal.
  - apply printed_decimal.
Qed.

(* The text can be read back: results printed alike have the same outcome and counts, whatever the streams were. *)
Theorem C112_recoverable : forall T T' (fmt : bool -> nat -> T -> str) (fmt' : bool -> nat -> T' -> str) o o' s s' t,
  written (print_out fmt o s) = written s ++ t -> written (print_out fmt' o' s') = written s' ++ t ->
  g_flag o = g_flag o' /\ g_outer o = g_outer o' /\ g_inner o = g_inner o' /\ (g_msg o = G_none <-> g_msg o' = G_none) /\ fmt true 2 (g_relres o) = fmt' true 2 (g_relres o').
Proof.
  intros T T' fmt fmt' o o' s s' t H H'.
  destruct (C112_lines T fmt o s) as (fl & info & ou & inn & E & F & NF & I & D1 & D2). destruct (C112_lines T' fmt' o' s') as (fl' & info' & ou' & inn' & E' & F' & NF' & I' & D1' & D2').
  rewrite H in E. rewrite H' in E'. apply app_inv_head in E, E'. subst t. unfold in_lines in E'. cbn [app flat_map] in E'. rewrite <- !app_assoc in E'. apply app_inv_head in E'. cbn [app] in E'.
  apply line_inj in E' as (Ef & E'); [|exact NF|exact NF']. subst fl'.
  assert (Q : g_flag o = g_flag o') by (apply F, F'; reflexivity). rewrite !flat_map_app in E'. cbn [flat_map] in E'.
  assert (K : info = info' -> (g_msg o = G_none <-> g_msg o' = G_none) ->
    g_flag o = g_flag o' /\ g_outer o = g_outer o' /\ g_inner o = g_inner o' /\ (g_msg o = G_none <-> g_msg o' = G_none) /\ fmt true 2 (g_relres o) = fmt' true 2 (g_relres o')).
  { intros <- M. apply app_inv_head in E'. rewrite !app_nil_r, <- !app_assoc in E'. apply app_inv_head in E'. cbn [app] in E'.
    apply line_inj in E' as (Eo & E'); [|eapply decimal_line; eassumption|eapply decimal_line; eassumption]. subst ou'.
    apply app_inv_head in E'. apply line_inj in E' as (Ei & E'); [|eapply decimal_line; eassumption|eapply decimal_line; eassumption]. subst inn'.
    apply app_inv_head in E'. apply app_inj_tail in E' as (E' & _).
    destruct D1 as (_ & _ & V1), D1' as (_ & _ & V1'), D2 as (_ & _ & V2), D2' as (_ & _ & V2'). split; [exact Q|]. split; [lia|]. split; [lia|]. split; [exact M|exact E']. }
  destruct I as [(M & ->)|(M & ->)], I' as [(M' & ->)|(M' & ->)].
  - apply K; [reflexivity|tauto].
  - cbn in E'. discriminate E'.
  - cbn in E'. discriminate E'.
  - apply K; [|tauto]. cbn [flat_map app] in E'. rewrite !app_nil_r, <- !app_assoc in E'. cbn [app] in E'. apply app_inv_head in E'. destruct (boolalpha s), (boolalpha s'); try reflexivity; cbn in E'; discriminate E'.
Qed.

(* What fails: the information itself. The messages are all different, but results that differ in their message only are printed
   alike: where the text should be stands 0 (or false). *)
Theorem C112_message_refuted :
  (forall m m', msg_text m = msg_text m' -> m = m') /\
  forall T (fmt : bool -> nat -> T -> str) f i k r m m' s, m <> G_none -> m' <> G_none -> print_out fmt (GOut f i k r m) s = print_out fmt (GOut f i k r m') s.
Proof.
  split.
  - assert (S : forall i j, msg_text (G_singular i) = msg_text (G_singular j) -> i = j).
    { intros i j H. cbn [msg_text] in H. apply app_inv_head in H.
      assert (L : forall x y s t, Forall is_digit x -> Forall is_digit y -> x ++ ","%char :: s = y ++ ","%char :: t -> x = y).
      { clear. induction x as [|a x IH]; intros [|b y] s t Hx Hy H; cbn [app] in H.
        - reflexivity.
        - injection H as <- _. inversion Hy as [|? ? C _]. unfold is_digit in C. cbn in C. lia.
        - injection H as -> _. inversion Hx as [|? ? C _]. unfold is_digit in C. cbn in C. lia.
        - injection H as -> H. inversion Hx. inversion Hy. f_equal. eapply IH; eassumption. }
      destruct (printed_decimal i) as (_ & Di & Vi), (printed_decimal j) as (_ & Dj & Vj).
      apply L in H; [|exact Di|exact Dj]. rewrite H in Vi. lia. }
    intros m m' H. destruct m, m'; try reflexivity; try discriminate H; try (cbn in H; discriminate H). f_equal. apply S, H.
  - intros T fmt f i k r m m' s Hm Hm'. unfold print_out. cbn [g_flag g_msg g_outer g_inner g_relres].
    destruct (is_empty (msg_text m)) eqn:E; [apply msg_none in E; contradiction|]. destruct (is_empty (msg_text m')) eqn:E'; [apply msg_none in E'; contradiction|]. reflexivity.
Qed.

(* What fails: the stream is left in scientific notation with two digits, so numbers printed later come out that way. The report of
   poisson2d prints the size of its solution so. *)
Theorem C112_format_refuted : forall T (fmt : bool -> nat -> T -> str) o s,
  (forall v, written (put_real fmt v (print_out fmt o s)) = written (print_out fmt o s) ++ fmt true 2 v) /\
  forall K u_max, exists t, written (poisson2d_report fmt K o u_max s) = t ++ lit "normMax u is: " ++ fmt true 2 u_max ++ [NL].
Proof.
  intros T fmt o s. assert (P : forall s, scientific (print_out fmt o s) = true /\ precision (print_out fmt o s) = 2).
  { intro s'. rewrite print_parts. apply print_tail. }
  split.
  - intro v. destruct (P s) as (P1 & P2). unfold put_real. rewrite P1, P2. reflexivity.
  - intros K u_max. unfold poisson2d_report. cbv zeta. match goal with |- context [print_out fmt o ?x] => destruct (P x) as (P1 & P2); set (p := print_out fmt o x) in * end. clearbody p.
    exists (written p ++ [NL]). destruct p as [w ba sc pr]. cbn [scientific precision] in P1, P2. subst sc pr.
    unfold endline, put_real. rewrite !written_str. cbn [put_str scientific precision written]. rewrite <- !app_assoc. reflexivity.
Qed.

(* a breakdown in column 3, printed to a fresh stream *)
Example C112_witness : let o := GOut F_breakdown 3 12 tt (G_singular 3) in
  msg_text (g_msg o) = lit "H(3,3) = 0" /\ G_singular 3 <> G_none /\ G_singular 4 <> G_none /\
  written (print_out (fun _ _ _ => lit "1.25e-03") o (Stream [] false false 6)) =
  in_lines [lit "outcome: input matrix or preconditioner are likely singular"; lit "info: 0"; lit "outer iter: 12"; lit "inner iter: 3"; lit "relative residual: 1.25e-03"].
Proof. split; [reflexivity|]. split; [discriminate|]. split; [discriminate|]. vm_compute. reflexivity. Qed.

Print Assumptions C112_flags.
Print Assumptions C112_lines.
Print Assumptions C112_recoverable.
Print Assumptions C112_message_refuted.
Print Assumptions C112_format_refuted.
