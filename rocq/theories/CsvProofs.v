From Coq Require Import ZArith List Lia Bool Ascii Permutation.
From Verif Require Import Base Loops CsvModel CsvSpec.
Import ListNotations.
Local Open Scope Z_scope.

(* ---------- characters ---------- *)
Lemma is_space_white c : is_space c = true <-> white c.
Proof.
  unfold white. split.
  - destruct c as [[] [] [] [] [] [] [] []]; vm_compute; intros H; try discriminate; tauto.
  - intros H. simpl in H. repeat (destruct H as [<- | H]; [reflexivity|]). easy.
Qed.
Lemma is_space_nwhite c : is_space c = false <-> ~ white c.
Proof. rewrite <- is_space_white. destruct (is_space c); intuition congruence. Qed.

Lemma existsb_eqb_In c d : existsb (Ascii.eqb c) d = true <-> In c d.
Proof.
  rewrite existsb_exists. split.
  - intros (x & Hin & E). apply Ascii.eqb_eq in E. now subst.
  - intros. exists c. split; auto. apply Ascii.eqb_refl.
Qed.
Lemma is_any_of_In d c : is_any_of d c = true <-> In c d.
Proof. apply existsb_eqb_In. Qed.
Lemma is_any_of_nIn d c : is_any_of d c = false <-> ~ In c d.
Proof. rewrite <- is_any_of_In. destruct (is_any_of d c); intuition congruence. Qed.

Lemma checkDelimiters_legal d : checkDelimiters d = true <-> legal_delims d.
Proof.
  unfold legal_delims, checkDelimiters. destruct d as [|a d].
  - split; [discriminate | intros [H _]; congruence].
  - rewrite forallb_forall. split.
    + intros H. split; [discriminate|]. intros c Hc. apply existsb_eqb_In. now apply H.
    + intros [_ H] c Hc. apply existsb_eqb_In. now apply H.
Qed.

(* ---------- trimming ---------- *)
Lemma drop_space_split s : exists a, s = a ++ drop_space s /\ blank a.
Proof.
  induction s as [|c s IH]; simpl.
  - exists []. split; auto. constructor.
  - destruct (is_space c) eqn:E.
    + destruct IH as (a & E1 & Ha). exists (c :: a). split.
      * simpl. now f_equal.
      * constructor; auto. now apply is_space_white.
    + exists []. split; auto. constructor.
Qed.
Lemma drop_space_head s c t : drop_space s = c :: t -> ~ white c.
Proof.
  induction s as [|x s IH]; simpl; try discriminate.
  destruct (is_space x) eqn:E; auto. intros H. injection H as -> ->. now apply is_space_nwhite.
Qed.
Lemma blank_rev a : blank a -> blank (rev a).
Proof. apply Forall_rev. Qed.
Lemma drop_space_blank s : drop_space s = [] <-> blank s.
Proof.
  induction s as [|c s IH]; simpl.
  - split; auto. constructor.
  - destruct (is_space c) eqn:E.
    + rewrite IH. split; intros H.
      * constructor; auto. now apply is_space_white.
      * now inversion H.
    + split; [discriminate|]. intros H. inversion H; subst. apply is_space_nwhite in E. easy.
Qed.

Lemma trim_trimmed l : trimmed l (trim l).
Proof.
  unfold trim, trimmed.
  destruct (drop_space_split l) as (a & E1 & Ha).
  destruct (drop_space_split (rev (drop_space l))) as (b & E2 & Hb).
  exists a, (rev b). repeat split; auto using blank_rev.
  - rewrite <- rev_app_distr, <- E2, rev_involutive. auto.
  - intros c t' H W.
    assert (drop_space l = (c :: t') ++ rev b) as E3.
    { rewrite <- H, <- rev_app_distr, <- E2, rev_involutive. auto. }
    simpl in E3. now apply drop_space_head in E3.
  - intros c t' H W. apply (f_equal (@rev _)) in H. rewrite rev_involutive, rev_app_distr in H.
    simpl in H. now apply drop_space_head in H.
Qed.

Lemma trim_nil l : trim l = [] <-> blank l.
Proof.
  destruct (trim_trimmed l) as (a & b & E & Ha & Hb & H1 & H2). split.
  - intros H. rewrite H in E. rewrite E. apply Forall_app. auto.
  - intros H. destruct (trim l) as [|c t] eqn:Et; auto. exfalso. apply (H1 c t eq_refl).
    rewrite E in H. apply Forall_app in H as [_ H]. now inversion H.
Qed.

(* ---------- splitting ---------- *)
Lemma split_loop_spec d s : forall cur inrun,
  (forall c, In c cur -> ~ In c d) ->
  (inrun = true -> cur = []) ->
  if inrun
  then exists run s', s = run ++ s' /\ (forall c, In c run -> In c d) /\
        (forall c t, s' = c :: t -> ~ In c d) /\ fields d s' (split_loop d s cur inrun)
  else fields d (rev cur ++ s) (split_loop d s cur inrun).
Proof.
  induction s as [|c s IH]; intros cur inrun Hc Hi; simpl.
  - destruct inrun.
    + rewrite (Hi eq_refl). simpl. exists [], []. repeat split; try easy. constructor. intros ? [].
    + rewrite app_nil_r. constructor. intros c Hin. apply in_rev in Hin. auto.
  - destruct (is_any_of d c) eqn:E.
    + apply is_any_of_In in E. destruct inrun.
      * rewrite (Hi eq_refl) in *. destruct (IH [] true) as (run & s' & E1 & H1 & H2 & H3); auto.
        exists (c :: run), s'. subst s. repeat split; auto.
        intros x [<-|Hx]; auto.
      * destruct (IH [] true (fun c H => match H with end) (fun _ => eq_refl)) as (run & s' & E1 & H1 & H2 & H3).
        subst s. change (c :: run ++ s') with ((c :: run) ++ s').
        constructor; auto.
        -- intros x Hx. apply in_rev in Hx. auto.
        -- discriminate.
        -- intros x [<-|Hx]; auto.
    + apply is_any_of_nIn in E.
      specialize (IH (c :: cur) false). simpl in IH. destruct inrun.
      * rewrite (Hi eq_refl) in *. exists [], (c :: s). repeat split; try easy.
        { intros x t H. now injection H as <- <-. }
        apply (IH); [|easy]. intros x [<-|[]]; auto.
      * rewrite <- app_assoc in IH. apply IH; [|easy]. intros x [<-|Hx]; auto.
Qed.

Lemma tokenizeLine_fields d s : fields d s (tokenizeLine d s).
Proof. exact (split_loop_spec d s [] false (fun c H => match H with end) (fun H => ltac:(discriminate))). Qed.

Lemma app_sep_inj {A} (P : A -> Prop) : forall (l l' : list A) c t c' t',
  (forall x, In x l -> ~ P x) -> (forall x, In x l' -> ~ P x) -> P c -> P c' ->
  l ++ c :: t = l' ++ c' :: t' -> l = l' /\ c = c' /\ t = t'.
Proof.
  induction l as [|a l IH]; intros l' c t c' t' H H' Hc Hc' E; destruct l' as [|a' l']; simpl in *.
  - now injection E.
  - injection E as E1 E2. subst. exfalso. eapply H'; eauto.
  - injection E as E1 E2. subst. exfalso. eapply H; eauto.
  - injection E as -> E. destruct (IH l' c t c' t') as (-> & -> & ->); auto.
Qed.

(* The fields of a line are unique. *)
Lemma fields_unique d s fs : fields d s fs -> forall fs', fields d s fs' -> fs = fs'.
Proof.
  induction 1 as [f Hf | f run s fs Hf Hr Hd Hs H IH]; intros fs' H'.
  - inversion H' as [f' Hf' | f' run' s' fs'' Hf' Hr' Hd' Hs' H'']; subst; auto.
    exfalso. destruct run' as [|x run']; [congruence|].
    apply (Hf x); [rewrite in_app_iff; simpl; auto | apply Hd'; simpl; auto].
  - inversion H' as [f' Hf' | f' run' s' fs'' Hf' Hr' Hd' Hs' H'' E1]; subst.
    + exfalso. destruct run as [|x run]; [congruence|].
      apply (Hf' x); [rewrite in_app_iff; simpl; auto | apply Hd; simpl; auto].
    + destruct run as [|x run]; [congruence|]. destruct run' as [|x' run']; [congruence|].
      simpl in E1.
      destruct (app_sep_inj (fun c => In c d) f' f x' (run' ++ s') x (run ++ s)) as (-> & _ & E2);
        [exact Hf' | exact Hf | apply Hd'; simpl; auto | apply Hd; simpl; auto | congruence |].
      clear E1. rename E2 into E1.
      assert (s' = s) as ->.
      { clear - E1 Hd Hd' Hs Hs'.
        assert (forall c, In c run' -> In c d) by (intros; apply Hd'; simpl; auto).
        assert (forall c, In c run -> In c d) by (intros; apply Hd; simpl; auto).
        clear Hd Hd'. revert run' E1 H H0. induction run as [|y run IH]; intros [|y' run'] E1 H' H; simpl in *; auto.
        - subst s. exfalso. eapply Hs; eauto.
        - subst s'. exfalso. eapply Hs'; eauto.
        - injection E1 as E1 E2. eapply IH; eauto. }
      f_equal. auto.
Qed.

Lemma fields_nonempty d s fs : fields d s fs -> fs <> [].
Proof. destruct 1; discriminate. Qed.

Lemma fields_count d s fs : fields d s fs -> (length fs <= S (length s))%nat.
Proof.
  induction 1; simpl; [lia|]. rewrite !app_length. destruct run; [congruence|simpl in *; lia].
Qed.

(* ---------- lines ---------- *)
Lemma upto_nl_some s l r : upto_nl s = (l, Some r) -> s = l ++ NL :: r /\ ~ In NL l.
Proof.
  revert l r. induction s as [|c s IH]; simpl; intros l r H; [discriminate|].
  destruct (Ascii.eqb c NL) eqn:E.
  - injection H as <- <-. apply Ascii.eqb_eq in E. subst. simpl. auto.
  - destruct (upto_nl s) as [l0 r0]. injection H as <- ->.
    destruct (IH l0 r eq_refl) as [-> Hn]. split; auto.
    intros [->|Hi]; auto. rewrite Ascii.eqb_refl in E. discriminate.
Qed.
Lemma upto_nl_none s l : upto_nl s = (l, None) -> s = l /\ ~ In NL l.
Proof.
  revert l. induction s as [|c s IH]; simpl; intros l H.
  - injection H as <-. auto.
  - destruct (Ascii.eqb c NL) eqn:E; [discriminate|].
    destruct (upto_nl s) as [l0 r0]. injection H as <- ->.
    destruct (IH l0 eq_refl) as [-> Hn]. split; auto.
    intros [->|Hi]; auto. rewrite Ascii.eqb_refl in E. discriminate.
Qed.

Lemma nl_split_inj l t l' t' : ~ In NL l -> ~ In NL l' -> l ++ NL :: t = l' ++ NL :: t' -> l = l' /\ t = t'.
Proof.
  intros H H' E. apply (app_sep_inj (fun c => c = NL)) in E; auto.
  - tauto.
  - intros x Hx ->. auto.
  - intros x Hx ->. auto.
Qed.

Lemma lines_inv_nl l t ls : ~ In NL l -> lines_of (l ++ NL :: t) ls -> exists ls', ls = l :: ls' /\ lines_of t ls'.
Proof.
  intros Hn H. inversion H as [E | l' Hne Hn' E | l' t' ls' Hn' H' E]; subst.
  - destruct l; discriminate.
  - exfalso. apply Hn'. rewrite in_app_iff. simpl. auto.
  - apply nl_split_inj in E as [-> ->]; auto. eauto.
Qed.
Lemma lines_inv_last l ls : ~ In NL l -> lines_of l ls -> ls = match l with [] => [] | _ => [l] end.
Proof.
  intros Hn H. inversion H; subst; auto.
  - destruct l; congruence.
  - exfalso. apply Hn. rewrite in_app_iff. simpl. auto.
Qed.
Lemma lines_unique t ls : lines_of t ls -> forall ls', lines_of t ls' -> ls = ls'.
Proof.
  induction 1; intros ls' H'.
  - apply lines_inv_last in H'; auto.
  - apply lines_inv_last in H'; auto. destruct l; congruence.
  - apply lines_inv_nl in H' as (l' & -> & H'); auto. f_equal; auto.
Qed.
Lemma lines_exist t : exists ls, lines_of t ls.
Proof.
  remember (length t) as n eqn:E. revert t E.
  induction n as [n IH] using lt_wf_ind. intros t ->.
  destruct (upto_nl t) as [l [r|]] eqn:E.
  - apply upto_nl_some in E as [-> Hn]. destruct (IH (length r)) with (t := r) as (ls & H); auto.
    { rewrite app_length. simpl. lia. }
    exists (l :: ls). now constructor.
  - apply upto_nl_none in E as [-> Hn]. destruct l as [|c l].
    + exists []. constructor.
    + exists [c :: l]. constructor; auto. discriminate.
Qed.
Lemma lines_count t ls : lines_of t ls -> (length ls <= length t)%nat.
Proof.
  induction 1; simpl; auto.
  - destruct l; [congruence|simpl; lia].
  - rewrite app_length. simpl. lia.
Qed.

(* ---------- the reader seen as a view ---------- *)
Definition cols_ok (z : Z) : Prop := INT_MIN <= z <= INT_MAX.
Record R (r : reader) (v : view) : Prop := mkR {
  R_delims : delims r = vdelims v;
  R_skip : nskip r = vskip v;
  R_cols : ncols r = vcols v;
  R_line : lineno r = Z.of_nat (vpos v);
  R_fail : sfail (strm r) = vend v;
  R_pos : (vpos v <= length (lines v))%nat;
  R_file : match sfile (strm r), vlines v with
           | Some t, Some ls => lines_of t ls /\ small_text t
           | None, None => sfail (strm r) = true
           | _, _ => False
           end;
  R_rest : sfail (strm r) = false ->
           lines_of (srest (strm r)) (skipn (vpos v) (lines v)) /\
           (seof (strm r) = true -> srest (strm r) = []) /\
           Z.of_nat (length (srest (strm r))) < INT_MAX;
  R_int : cols_ok (vcols v) /\ cols_ok (vskip v) }.

Lemma skipn_cons_nth {A} (l : list A) n a r : skipn n l = a :: r ->
  nth_error l n = Some a /\ skipn (S n) l = r /\ (S n <= length l)%nat.
Proof.
  revert n. induction l as [|x l IH]; intros [|n] H; simpl in *; try discriminate.
  - injection H as -> ->. repeat split; auto. lia.
  - destruct (IH n H) as (H1 & H2 & H3). repeat split; auto. lia.
Qed.

Lemma R_advance r v rest e ls' : R r v -> sfail (strm r) = false ->
  skipn (S (vpos v)) (lines v) = ls' -> (S (vpos v) <= length (lines v))%nat ->
  lines_of rest ls' -> (e = true -> rest = []) -> Z.of_nat (length rest) < INT_MAX ->
  R (with_strm r (mkstream (sfile (strm r)) rest e false) (lineno r + 1)) (move v (S (vpos v)) false).
Proof.
  intros [Hd Hs Hc Hl Hf Hp Hfile Hrest Hi] Hok Hsk Hlen Hls He Hz.
  constructor; simpl; auto; try lia.
  - destruct (sfile (strm r)), (vlines v); auto; congruence.
  - intros _. unfold lines in *. simpl in *. rewrite Hsk. auto.
Qed.

Lemma readLine_ok r v : R r v ->
  exists l r' v', readLine r = (l, r') /\ take_line v l v' /\ R r' v' /\
    (l = None -> sfail (strm r') = true) /\
    (l <> None -> (length (srest (strm r')) < length (srest (strm r)))%nat).
Proof.
  intros H0. pose proof H0 as [Hd Hs Hc Hl Hf Hp Hfile Hrest Hi]. unfold readLine, getline.
  destruct (seof (strm r) || sfail (strm r)) eqn:E.
  - eexists None, _, _. split; [reflexivity|]. split; [|split].
    + apply take_none. destruct (sfail (strm r)) eqn:Ef; [left; congruence|].
      right. rewrite orb_false_r in E. destruct Hrest as (H1 & H2 & _); auto.
      rewrite (H2 E) in H1. apply lines_inv_last in H1; [|auto].
      apply (f_equal (@length _)) in H1. rewrite skipn_length in H1. simpl in H1. lia.
    + constructor; simpl; auto.
      * destruct (sfile (strm r)), (vlines v); auto.
      * discriminate.
    + simpl. split; congruence.
  - apply orb_false_iff in E as [E1 E2].
    destruct Hrest as (H1 & _ & H3); auto.
    destruct (upto_nl (srest (strm r))) as [l [rest|]] eqn:Eu.
    + apply upto_nl_some in Eu as [Er Hn]. rewrite Er in H1, H3.
      apply lines_inv_nl in H1 as (ls' & Els & H1); auto.
      apply skipn_cons_nth in Els as (Hnth & Hsk & Hlen).
      rewrite app_length in H3. cbn [length] in H3.
      assert ((length rest < length (srest (strm r)))%nat) by (rewrite Er, app_length; simpl; lia).
      assert (R (with_strm r (mkstream (sfile (strm r)) rest false false) (lineno r + 1))
                (move v (S (vpos v)) false)) as HR.
      { eapply R_advance; eauto; try discriminate; try lia. }
      destruct l as [|c l]; (eexists (Some _), _, _; split; [reflexivity|]; split;
        [apply take_some; [congruence|exact Hnth] | split; [exact HR | split; [discriminate | intros _; simpl; auto]]]).
    + apply upto_nl_none in Eu as [Er Hn]. rewrite Er in H1.
      apply lines_inv_last in H1; auto. destruct l as [|c l].
      * eexists None, _, _. split; [reflexivity|]. split; [|split].
        -- apply take_none. right. apply (f_equal (@length _)) in H1.
           rewrite skipn_length in H1. simpl in H1. lia.
        -- constructor; simpl; auto; try discriminate.
           destruct (sfile (strm r)), (vlines v); auto.
        -- simpl. split; congruence.
      * apply skipn_cons_nth in H1 as (Hnth & Hsk & Hlen).
        eexists (Some _), _, _. split; [reflexivity|]. split; [|split].
        -- apply take_some; [congruence|exact Hnth].
        -- eapply R_advance; eauto; try (simpl; lia); constructor.
        -- rewrite Er. simpl. split; [congruence | lia].
Qed.

Lemma skip_loop_ok n : forall r v, R r v ->
  exists v', take_lines n v v' /\ R (skip_loop n r) v'.
Proof.
  induction n; intros r v H; simpl.
  - exists v. split; auto. constructor.
  - destruct (readLine_ok r v H) as (l & r' & v' & E & T & H' & _ & _). rewrite E.
    destruct l as [l|].
    + destruct (IHn r' v' H') as (v2 & T2 & H2). exists v2. split; auto. econstructor; eauto.
    + exists v'. split; auto. now apply take_stop.
Qed.

Lemma skipLines_ok n r v : R r v ->
  exists v' r', skipLines n r = (negb (vend v'), r') /\ take_lines (Z.to_nat n) v v' /\ R r' v'.
Proof.
  intros H. unfold skipLines. destruct (Z.ltb_spec 0 n) as [Hn|Hn].
  - destruct (skip_loop_ok (Z.to_nat n) r v H) as (v' & T & H'). exists v', (skip_loop (Z.to_nat n) r).
    repeat split; try apply H'; auto. now rewrite (R_fail _ _ H').
  - exists v, r. replace (Z.to_nat n) with 0%nat by lia.
    split; [now rewrite (R_fail _ _ H)|]. split; auto. constructor.
Qed.

Lemma setToStart_ok r v : R r v -> exists v', at_start v v' /\ R (setToStart r) v'.
Proof.
  intros H. unfold setToStart.
  assert (R (with_strm r (rewind (strm r)) 0)
            (move v 0 (match vlines v with Some _ => false | None => true end))) as H0.
  { destruct H as [Hd Hs Hc Hl Hf Hp Hfile Hrest Hi]. unfold rewind.
    unfold lines in *. destruct (sfile (strm r)) as [t|] eqn:Et, (vlines v) as [ls|] eqn:El; try easy;
      constructor; simpl; rewrite ?Et; simpl; rewrite ?El; auto; try discriminate;
      unfold lines; simpl; try rewrite El; simpl; auto; try lia.
    intros _. destruct Hfile. repeat split; auto. discriminate. }
  destruct (skipLines_ok (nskip r) _ _ H0) as (v' & r' & E & T & H').
  rewrite E. exists v'. split; auto. unfold at_start. now rewrite <- (R_skip _ _ H).
Qed.

Lemma next_row_blank v l v1 row v' :
  take_line v (Some l) v1 -> blank l -> next_row v1 row v' -> next_row v row v'.
Proof.
  intros T B H. inversion T as [l0 Hv Hn E1 E2|]; subst.
  inversion H as [k l1 t Hv1 Hb Hk Hnb Ht | Hv1 Hb | Hv1]; subst; simpl in *; try discriminate.
  - replace (S (S (vpos v + k))) with (S (vpos v + S k)) by lia.
    change (move (move v (S (vpos v)) false) (S (vpos v + S k)) false) with (move v (S (vpos v + S k)) false).
    apply (row_some v (S k) l1 t); auto.
    + intros j l' Hj Hl'. destruct (Nat.eq_dec j (vpos v)) as [->|].
      * assert (l' = l) by congruence. now subst.
      * eapply Hb; eauto. lia.
    + now replace (vpos v + S k)%nat with (S (vpos v) + k)%nat by lia.
  - change (next_row v None (move v (length (lines v)) true)). apply row_eof; auto.
    intros j l' Hj Hl'. destruct (Nat.eq_dec j (vpos v)) as [->|].
    + assert (l' = l) by congruence. now subst.
    + eapply Hb; [|exact Hl']. lia.
Qed.

Lemma take_none_pos v v' r : R r v -> take_line v None v' -> next_row v None v'.
Proof.
  intros H T. inversion T as [|Hv]; subst. destruct (vend v) eqn:E.
  - replace (move v (vpos v) true) with v by (destruct v; simpl in *; subst; auto).
    now apply row_ended.
  - destruct Hv as [|Hv]; [discriminate|].
    replace (vpos v) with (length (lines v)) at 1 by (pose proof (R_pos _ _ H); lia).
    apply row_eof; auto. intros j l Hj Hl. apply nth_error_Some_lt in Hl || idtac.
    exfalso. assert (j < length (lines v))%nat; [|lia]. apply nth_error_Some. congruence.
Qed.

Lemma nonempty_loop_ok fuel : forall r v, R r v ->
  (length (srest (strm r)) < fuel)%nat ->
  exists row r' v', nonempty_loop fuel r = Ok (row, r') /\ next_row v row v' /\ R r' v' /\
    (row = None -> sfail (strm r') = true) /\
    (row <> None -> (length (srest (strm r')) < length (srest (strm r)))%nat).
Proof.
  induction fuel as [|f IH]; intros r v H Hl; [lia|]. simpl.
  destruct (readLine_ok r v H) as (l & r1 & v1 & E & T & H1 & Hn & Hs). rewrite E.
  destruct l as [l|].
  - assert (length (srest (strm r1)) < length (srest (strm r)))%nat by (apply Hs; discriminate).
    destruct (trim l) as [|c t] eqn:Et.
    + destruct (IH r1 v1 H1) as (row & r' & v' & E' & N & H' & Hn' & Hs'); [lia|].
      exists row, r', v'. repeat split; try apply H'; auto.
      * eapply next_row_blank; eauto. now apply trim_nil.
      * intros Hr. specialize (Hs' Hr). lia.
    + exists (Some (c :: t)), r1, v1. repeat split; try apply H1; auto.
      inversion T as [l0 Hv Hnth E1 E2|]; subst.
      replace (S (vpos v)) with (S (vpos v + 0)) by lia.
      apply (row_some v 0 l); auto; rewrite ?Nat.add_0_r; auto.
      * intros; lia.
      * intros B. apply trim_nil in B. congruence.
      * rewrite <- Et. apply trim_trimmed.
      * discriminate.
  - exists None, r1, v1. repeat split; try apply H1; auto.
    + eapply take_none_pos; eauto.
Qed.

Lemma getNonemptyLine_ok r v : R r v ->
  exists row r' v', getNonemptyLine r = Ok (row, r') /\ next_row v row v' /\ R r' v' /\
    (row = None -> sfail (strm r') = true) /\
    (row <> None -> (length (srest (strm r')) < length (srest (strm r)))%nat).
Proof. intros H. apply nonempty_loop_ok; auto. Qed.

Lemma rows_loop_ok fuel : forall r v k, R r v -> (length (srest (strm r)) < fuel)%nat ->
  exists n r' v', rows_loop fuel k r = Ok (k + n, r') /\ count_rows v n v' /\ R r' v'.
Proof.
  induction fuel as [|f IH]; intros r v k H Hl; [lia|]. simpl.
  destruct (getNonemptyLine_ok r v H) as (row & r1 & v1 & E & N & H1 & _ & Hs). rewrite E. simpl.
  destruct row as [t|].
  - assert (length (srest (strm r1)) < length (srest (strm r)))%nat by (apply Hs; discriminate).
    destruct (IH r1 v1 (k + 1) H1) as (n & r' & v' & E' & C & H'); [lia|].
    exists (n + 1), r', v'. split; [|split; [econstructor; eauto | exact H']].
    rewrite E'. do 2 f_equal. lia.
  - exists 0, r1, v1. rewrite Z.add_0_r. split; [reflexivity|split; [now constructor|exact H1]].
Qed.

Lemma getNumRows_ok r v : R r v ->
  exists n r' v', getNumRows r = Ok (n, r') /\ count_rows v n v' /\ R r' v'.
Proof. intros H. destruct (rows_loop_ok (S (length (srest (strm r)))) r v 0 H) as (n & H'); [lia|]. exists n. exact H'. Qed.

(* ---------- opening ---------- *)
Lemma take_lines_count n v v' : take_lines n v v' -> vend v = false -> (vpos v <= length (lines v))%nat ->
  v' = if (n <=? length (lines v) - vpos v)%nat then move v (vpos v + n) false
       else move v (length (lines v)) true.
Proof.
  induction 1 as [v | n v l v1 v2 T H IH | n v v1 T]; intros He Hp.
  - simpl. rewrite Nat.add_0_r. destruct v; simpl in *; subst; auto.
  - inversion T as [l0 Hv Hnth|]; subst. rewrite IH; auto; cbn [move vpos vend]; clear IH.
    + change (lines (move v (S (vpos v)) false)) with (lines v).
      assert (vpos v < length (lines v))%nat by (apply nth_error_Some; congruence).
      destruct (Nat.leb_spec n (length (lines v) - S (vpos v))),
        (Nat.leb_spec (S n) (length (lines v) - vpos v)); try lia; unfold move; simpl; auto.
      f_equal. lia.
    + change (lines (move v (S (vpos v)) false)) with (lines v).
      apply nth_error_Some. congruence.
  - inversion T as [|Hv]; subst. destruct Hv as [|Hv]; [congruence|].
    destruct (Nat.leb_spec (S n) (length (lines v) - vpos v)); [lia|f_equal; lia].
Qed.

Lemma with_cols_R r v n : R r v -> cols_ok n -> R (with_cols r n) (set_cols v n).
Proof. intros [Hd Hs Hc Hl Hf Hp Hfile Hrest [Hi1 Hi2]] Hn. constructor; simpl; auto. Qed.

Lemma next_row_len v t v' r r' : next_row v (Some t) v' -> R r v -> R r' v' ->
  match vlines v with Some ls => exists txt, lines_of txt ls /\ small_text txt | None => True end ->
  Z.of_nat (length t) < INT_MAX.
Proof.
  intros N H H' Hl. inversion N as [k l t0 Hv Hb Hk Hnb Ht | |]; subst.
  unfold lines in Hk. destruct (vlines v) as [ls|]; [|destruct (vpos v + k)%nat; discriminate].
  destruct Hl as (txt & Htxt & Hsm).
  assert (length l <= length txt)%nat as Hll.
  { apply nth_error_In in Hk. clear - Hk Htxt.
    induction Htxt as [|l0|l0 t ls Hn Ht IH]; simpl in Hk.
    - easy.
    - destruct Hk as [->|[]]. auto.
    - rewrite app_length. simpl. destruct Hk as [->|Hk]; [lia|]. specialize (IH Hk). lia. }
  destruct Ht as (a & b & -> & _). rewrite !app_length in Hll. unfold small_text in Hsm. lia.
Qed.

Lemma R_text r v : R r v -> match vlines v with Some ls => exists txt, lines_of txt ls /\ small_text txt | None => True end.
Proof.
  intros H. pose proof (R_file _ _ H) as Hf. destruct (sfile (strm r)), (vlines v); try easy. eauto.
Qed.

Lemma openFile_ok f n d : (match f with Some t => small_text t | None => True end) -> in_int n ->
  exists res r v, openFile f n d = Ok (res, r) /\ opened f n d (match res with Ret _ => true | Exn => false end) v /\ R r v.
Proof.
  intros Hsm Hn. unfold openFile.
  assert (forall ls, match f with Some t => exists l, ls = Some l /\ lines_of t l | None => ls = None end ->
    R (mkreader (open_stream f) d 0 n (-1))
      (mkview ls 0 (match f with Some _ => false | None => true end) n d (-1))) as H0.
  { intros ls Hls. unfold open_stream. destruct f as [t|].
    - destruct Hls as (l & -> & Hl). constructor; simpl; auto; try lia.
      { intros _. repeat split; auto. discriminate. }
      split; [unfold cols_ok, INT_MIN, INT_MAX; lia | exact Hn].
    - subst. constructor; simpl; auto; try discriminate. split; [unfold cols_ok, INT_MIN, INT_MAX; lia | exact Hn]. }
  destruct (checkDelimiters d) eqn:Ed; cbn [negb].
  - apply checkDelimiters_legal in Ed. destruct f as [t|].
    + destruct (lines_exist t) as (ls & Hls).
      set (r := mkreader (open_stream (Some t)) d 0 n (-1)) in *.
      specialize (H0 (Some ls) (ex_intro _ ls (conj eq_refl Hls))). set (v := mkview (Some ls) 0 false n d (-1)) in *.
      destruct (skipLines_ok n r v H0) as (v1 & r1 & E & T & H1). rewrite E.
      apply take_lines_count in T; auto; [|simpl; lia].
      cbn [v lines vlines vpos move] in T. rewrite Nat.sub_0_r, Nat.add_0_l in T.
      unfold move in T; cbn [v vlines vskip vdelims vcols] in T.
      destruct (Z.to_nat n <=? length ls)%nat eqn:El; subst v1; cbn [vend negb].
      * apply Nat.leb_le in El.
        unfold countCols.
        assert (R (with_cols r1 0) (mkview (Some ls) (Z.to_nat n) false n d 0)) as H2.
        { apply (with_cols_R r1 _ 0) in H1; auto. unfold cols_ok, INT_MIN, INT_MAX. lia. }
        destruct (getNonemptyLine_ok _ _ H2) as (row & r2 & v2 & E2 & N & H3 & _ & _).
        rewrite E2. cbn [bind].
        set (c := match row with Some t0 => Z.of_nat (length (tokenizeLine d t0)) | None => 0 end).
        assert (delims r1 = d) as Hd by (apply (R_delims _ _ H1)).
        assert (cols_ok c) as Hc.
        { unfold c. destruct row as [t0|]; [|unfold cols_ok, INT_MIN, INT_MAX; lia].
          pose proof (fields_count _ _ _ (tokenizeLine_fields d t0)).
          pose proof (next_row_len _ _ _ _ _ N H2 H3 (R_text _ _ H2)).
          unfold cols_ok, INT_MIN. lia. }
        assert (exists p e, v2 = mkview (Some ls) p e n d 0) as (p & e & Ev2).
        { inversion N; subst; unfold move; simpl; eauto. }
        assert (R (match row with Some t0 => with_cols r2 (Z.of_nat (length (tokenizeLine (delims r1) t0))) | None => r2 end)
                  (set_cols v2 c)) as H4.
        { destruct row as [t0|]; unfold c.
          - rewrite Hd. apply with_cols_R; auto.
          - rewrite Ev2 in *. exact H3. }
        destruct (setToStart_ok _ _ H4) as (v3 & A & H5).
        eexists (Ret tt), _, v3. split; [reflexivity|]. split; auto.
        unfold at_start in A. rewrite Ev2 in A. cbn [set_cols move vlines vpos vend vskip vdelims vcols] in A.
        apply take_lines_count in A; [|reflexivity|simpl; lia].
        unfold lines in A. simpl in A. rewrite Nat.sub_0_r in A.
        destruct (Nat.leb_spec (Z.to_nat n) (length ls)); [|lia].
        unfold move in A. simpl in A. subst v3.
        apply (open_ok (Some t) n d t ls c); auto; [lia|].
        exists row, v2. split; auto. destruct row as [t0|]; auto.
        exists (tokenizeLine d t0). split; auto. apply tokenizeLine_fields.
      * apply Nat.leb_gt in El. eexists Exn, r1, _. split; [reflexivity|]. split; [|exact H1].
        apply (open_short (Some t) n d t ls); auto. lia.
    + eexists Exn, _, _. split; [reflexivity|]. split; [|apply (H0 None); auto].
      now apply open_no_file.
  - assert (~ legal_delims d) as Hd.
    { rewrite <- checkDelimiters_legal. congruence. }
    destruct f as [t|].
    + destruct (lines_exist t) as (ls & Hls).
      eexists Exn, _, _. split; [reflexivity|]. split; [|apply (H0 (Some ls)); eauto].
      apply (open_bad_delims (Some t)); eauto.
    + eexists Exn, _, _. split; [reflexivity|]. split; [|apply (H0 None); auto].
      apply (open_bad_delims None); auto.
Qed.

(* ---------- rows ---------- *)
Section Values.
Context {V : Type}.

Lemma strCast_understood (k : kind V) s v : strCast k s = Some v <-> understood k s v.
Proof.
  destruct k; simpl.
  - destruct (sto s) as [[w n]|]; [|intuition congruence].
    destruct (Nat.eqb_spec n (length s)); split; intros H; inversion H; subst; auto; congruence.
  - split; intros H; inversion H; auto.
  - destruct s as [|c [|? ?]]; split; intros H; try discriminate.
    + destruct H as (c & H & _). discriminate.
    + injection H as <-. eauto.
    + destruct H as (c' & H & ->). injection H as ->. auto.
    + destruct H as (c' & H & _). discriminate.
  - tauto.
Qed.
Lemma strCast_none (k : kind V) s : strCast k s = None -> forall v, ~ understood k s v.
Proof. intros H v Hv. apply strCast_understood in Hv. congruence. Qed.
Lemma understood_fun (k : kind V) s v w : understood k s v -> understood k s w -> v = w.
Proof. rewrite <- !strCast_understood. congruence. Qed.

Lemma store_loop_ok : forall (ks : list (kind V)) toks out, length ks = length toks ->
  exists vs ok, store_loop ks toks out = (out ++ vs, ok) /\ delivered ks toks vs ok.
Proof.
  induction ks as [|k ks IH]; intros [|s toks] out Hl; simpl in *; try discriminate.
  - exists [], true. rewrite app_nil_r. split; auto. constructor.
  - destruct (strCast k s) as [v|] eqn:E.
    + destruct (IH toks (out ++ [v])) as (vs & ok & E' & D); [lia|].
      exists (v :: vs), ok. rewrite E', <- app_assoc. split; auto. constructor; auto.
      now apply strCast_understood.
    + exists [], false. rewrite app_nil_r. split; auto. constructor; [now apply strCast_none|lia].
Qed.

Lemma size_t_small z n : cols_ok z -> 0 <= n <= INT_MAX + 1 -> (n =? size_t z) = (n =? z).
Proof.
  unfold cols_ok, size_t. intros Hz Hn.
  destruct (Z.neg_nonneg_cases z).
  - rewrite <- (Z.mod_unique z (2 ^ 64) (-1) (z + 2 ^ 64)); [|left|lia].
    + destruct (Z.eqb_spec n (z + 2 ^ 64)), (Z.eqb_spec n z); auto; exfalso; unfold INT_MIN, INT_MAX in *; lia.
    + unfold INT_MIN, INT_MAX in *; lia.
  - rewrite Z.mod_small; auto. unfold INT_MIN, INT_MAX in *; lia.
Qed.

Lemma next_row_frame v row v' : next_row v row v' ->
  vdelims v' = vdelims v /\ vcols v' = vcols v /\ vlines v' = vlines v /\ vskip v' = vskip v.
Proof. destruct 1; simpl; auto. Qed.

Lemma parse_row_ok (ksf : list str -> list (kind V)) types r v :
  R r v ->
  (forall toks, ksf toks = types (length toks)) ->
  (forall toks : list str, Z.of_nat (length toks) = vcols v -> length (types (length toks)) = length toks) ->
  exists vals res r' v', parse_row ksf r = Ok ((vals, res), r') /\
    parsed types v (match res with Ret b => ARow b vals | Exn => AThrow vals end) v' /\ R r' v' /\
    (res = Ret true -> (length (srest (strm r')) < length (srest (strm r)))%nat).
Proof.
  intros H Hk Ht. unfold parse_row.
  destruct (getNonemptyLine_ok r v H) as (row & r' & v' & E & N & H' & Hn & Hs). rewrite E. cbn [bind].
  destruct (next_row_frame _ _ _ N) as (Hd & Hc & _).
  destruct row as [t|].
  - pose proof (tokenizeLine_fields (delims r') t) as F.
    rewrite (R_delims _ _ H'), Hd in *. set (toks := tokenizeLine (vdelims v) t) in *.
    pose proof (fields_count _ _ _ F) as Hfc.
    pose proof (next_row_len _ _ _ _ _ N H H' (R_text _ _ H)) as Hlen.
    rewrite size_t_small; [|rewrite (R_cols _ _ H'); apply (R_int _ _ H')|lia].
    rewrite (R_cols _ _ H'), Hc.
    destruct (Z.eqb_spec (Z.of_nat (length toks)) (vcols v)) as [Ec|Ec].
    + rewrite Hk. destruct (store_loop_ok (types (length toks)) toks []) as (vs & ok & Es & D); [now apply Ht|].
      rewrite Es. simpl. destruct ok.
      * assert (sfail (strm r') = false) as Hf.
        { rewrite (R_fail _ _ H'). inversion N; auto. }
        rewrite Hf. simpl.
        eexists vs, (Ret true), r', v'. split; [reflexivity|]. split; [|split; auto].
        -- eapply parsed_ok; eauto.
        -- intros _. apply Hs. discriminate.
      * eexists vs, Exn, r', v'. split; [reflexivity|]. split; [|split; auto].
        -- eapply parsed_bad; eauto.
        -- discriminate.
    + eexists [], Exn, r', v'. split; [reflexivity|]. split; [|split; auto].
      * eapply parsed_count; eauto.
      * discriminate.
  - rewrite Hn by auto. simpl.
    eexists [], (Ret false), r', v'. split; [reflexivity|]. split; [|split; auto].
    + now apply parsed_end.
    + discriminate.
Qed.

Lemma map_const {A B} (b : B) (l : list A) : map (fun _ => b) l = repeat b (length l).
Proof. induction l; simpl; congruence. Qed.

Lemma parseRowIterator_ok (k : kind V) r v : R r v ->
  exists vals res r' v', parseRowIterator k r = Ok ((vals, res), r') /\
    parsed (fun n => repeat k n) v (match res with Ret b => ARow b vals | Exn => AThrow vals end) v' /\ R r' v' /\
    (res = Ret true -> (length (srest (strm r')) < length (srest (strm r)))%nat).
Proof.
  intros H. unfold parseRowIterator. apply (parse_row_ok _ (fun n => repeat k n)); auto.
  - intros. apply map_const.
  - intros. apply repeat_length.
Qed.

Lemma call_step_ok (c : call V) r v : R r v -> call_small c ->
  exists a r' v', call_step c r = Ok (a, r') /\ expected c v a v' /\ R r' v'.
Proof.
  intros H Hs. destruct c as [f n d | | n | | | n | k | ks]; cbn [call_step call_small] in *.
  - destruct (openFile_ok f n d) as (res & r' & v' & E & O & H').
    { destruct f; tauto. } { destruct f; tauto. }
    rewrite E. cbn [bind]. eexists _, r', v'. split; [reflexivity|]. split; auto.
    apply (exp_open V f n d v) in O. destruct res; auto.
  - destruct (readLine_ok r v H) as (l & r' & v' & E & T & H' & _). rewrite E.
    eexists _, r', v'. split; [reflexivity|]. split; auto. now constructor.
  - destruct (skipLines_ok n r v H) as (v' & r' & E & T & H'). rewrite E.
    eexists _, r', v'. split; [reflexivity|]. split; auto. now constructor.
  - destruct (setToStart_ok r v H) as (v' & T & H').
    eexists _, _, v'. split; [reflexivity|]. split; [|exact H']. now constructor.
  - destruct (getNumRows_ok r v H) as (n & r' & v' & E & T & H'). rewrite E. cbn [bind].
    eexists _, r', v'. split; [reflexivity|]. split; auto. now constructor.
  - eexists _, _, _. split; [reflexivity|]. split; [constructor|]. now apply with_cols_R.
  - destruct (parseRowIterator_ok k r v H) as (vals & res & r' & v' & E & P & H' & _).
    rewrite E. unfold row_answer. cbn [bind]. eexists _, r', v'. split; [reflexivity|]. split; auto. now constructor.
  - unfold parseRowValues. rewrite size_t_small; [|rewrite (R_cols _ _ H); apply (R_int _ _ H)|lia].
    rewrite (R_cols _ _ H).
    destruct (Z.eqb_spec (Z.of_nat (length ks)) (vcols v)) as [Ec|Ec].
    + destruct (parse_row_ok (fun _ => ks) (fun _ => ks) r v H) as (vals & res & r' & v' & E & P & H' & _); auto.
      { intros. lia. }
      rewrite E. unfold row_answer. cbn [bind]. eexists _, r', v'. split; [reflexivity|]. split; auto.
      now apply exp_vals.
    + unfold row_answer. cbn [bind]. eexists _, r, v. split; [reflexivity|]. split; auto.
      now apply exp_vals_bad.
Qed.

Lemma run_calls_ok (cs : list (call V)) : forall r v, R r v -> Forall call_small cs ->
  exists rs r' v', run_calls cs r = Ok (rs, r') /\ expected_run cs v rs v' /\ R r' v'.
Proof.
  induction cs as [|c cs IH]; intros r v H Hs; simpl.
  - exists [], r, v. split; [reflexivity|split; [constructor|exact H]].
  - inversion Hs; subst. destruct (call_step_ok c r v) as (a & r1 & v1 & E & X & H1'); auto.
    rewrite E. cbn [bind]. destruct (IH r1 v1) as (rs & r2 & v2 & E2 & X2 & H2'); auto.
    rewrite E2. cbn [bind]. eexists _, r2, v2. split; [reflexivity|]. split; auto.
    rewrite (R_line _ _ H1'), (R_cols _ _ H1'). econstructor; eauto.
Qed.
End Values.
