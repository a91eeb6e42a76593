(* NamelistProofs.v - lemmas about the configuration file of ins2d. *)
From Coq Require Import ZArith String.
From Coq Require Import List Bool Ascii Arith Lia.
From Verif Require Import Base Loops CsvModel NamelistModel NamelistSpec.
Import ListNotations.
Local Open Scope nat_scope.

Lemma eqb_no (c d : ascii) : c <> d -> Ascii.eqb c d = false.
Proof. apply Ascii.eqb_neq. Qed.

(* splitting *)
Lemma pieces_delim d a s : forall cur, ~ In d a -> pieces d (a ++ d :: s) cur = (rev cur ++ a) :: pieces d s [].
Proof.
  induction a as [|c a IH]; intros cur Hn; cbn [app pieces].
  - rewrite Ascii.eqb_refl, app_nil_r. reflexivity.
  - rewrite eqb_no by (intro; subst; apply Hn; now left). rewrite IH by (intro; apply Hn; now right). cbn [rev]. now rewrite <- app_assoc.
Qed.
Lemma pieces_last d a : forall cur, ~ In d a -> rev cur ++ a <> [] -> pieces d a cur = [rev cur ++ a].
Proof.
  induction a as [|c a IH]; intros cur Hn Hne; cbn [pieces].
  - rewrite app_nil_r in *. destruct cur; [destruct (Hne eq_refl)|reflexivity].
  - rewrite eqb_no by (intro; subst; apply Hn; now left). rewrite IH; [cbn [rev]; now rewrite <- app_assoc|intro; apply Hn; now right|].
    cbn [rev]. intro X. apply app_eq_nil in X. destruct X as (X & _). apply app_eq_nil in X. destruct X as (_ & X). discriminate X.
Qed.
Lemma pieces_text ls t : text_of ls t -> pieces NL t [] = ls.
Proof.
  induction 1 as [|l ls t Hn _ IH|l Hn Hne]; [reflexivity| |].
  - rewrite pieces_delim by exact Hn. now rewrite IH.
  - now apply (pieces_last NL l []).
Qed.
(* every text is the text of its pieces *)
Lemma text_pieces t : forall cur, ~ In NL cur -> text_of (pieces NL t cur) (rev cur ++ t).
Proof.
  induction t as [|c t IH]; intros cur Hn; cbn [pieces].
  - rewrite app_nil_r. destruct cur as [|c cur]; [apply text_nil|]. apply text_last; [rewrite <- in_rev; exact Hn|]. cbn [rev]. intro X. apply app_eq_nil in X. destruct X as (_ & X). discriminate X.
  - destruct (Ascii.eqb_spec c NL) as [-> | Hc].
    + apply text_line; [rewrite <- in_rev; exact Hn|]. apply (IH []). intros [].
    + replace (rev cur ++ c :: t) with (rev (c :: cur) ++ t) by (cbn [rev]; now rewrite <- app_assoc). apply IH. intros [X|X]; [now apply Hc|now apply Hn].
Qed.
Definition ends (d : ascii) (s : str) : Prop := exists r, s = r ++ [d].
Lemma ends_cons d c s : ends d (c :: s) <-> (s = [] /\ c = d) \/ (s <> [] /\ ends d s).
Proof.
  split.
  - intros ([|c' r] & E); cbn [app] in E; injection E as -> ->; [left; auto|]. right. split; [destruct r; discriminate|]. now exists r.
  - intros [(-> & ->)|(_ & r & ->)]; [now exists []|now exists (c :: r)].
Qed.
Lemma pieces_count d s : forall cur, cur <> [] \/ s <> [] ->
  (ends d s -> length (pieces d s cur) = count_occ ascii_dec s d) /\ (~ ends d s -> length (pieces d s cur) = S (count_occ ascii_dec s d)).
Proof.
  induction s as [|c s IH]; intros cur Hne.
  - split; [intros ([|? ?] & E); discriminate E|]. intros _. cbn [pieces count_occ]. destruct cur as [|c cur]; [destruct Hne as [X|X]; now destruct X|reflexivity].
  - cbn [pieces count_occ]. destruct (Ascii.eqb_spec c d) as [-> | Hc].
    + destruct (ascii_dec d d) as [_|X]; [|now destruct X]. cbn [length]. destruct s as [|c' s'].
      * split; [reflexivity|]. intro X. exfalso. apply X. exists []. reflexivity.
      * destruct (IH [] ltac:(right; discriminate)) as (I1 & I2). split; intro X.
        -- f_equal. apply I1. apply ends_cons in X. destruct X as [(X & _)|(_ & X)]; [discriminate X|exact X].
        -- f_equal. apply I2. intro Y. apply X, ends_cons. right. split; [discriminate|exact Y].
    + destruct (ascii_dec c d) as [X|_]; [contradiction|]. destruct (IH (c :: cur) ltac:(left; discriminate)) as (I1 & I2). split; intro X.
      * apply ends_cons in X. destruct X as [(_ & X)|(_ & X)]; [contradiction|]. apply I1, X.
      * apply I2. intro Y. apply X, ends_cons. right. split; [|exact Y]. intro Z. rewrite Z in Y. destruct Y as ([|? ?] & E); discriminate E.
Qed.
Lemma ends_dec d s : ends d s \/ ~ ends d s.
Proof.
  destruct (exists_last (l := "0"%char :: s) ltac:(discriminate)) as (r & c & E). destruct r as [|c0 r]; cbn [app] in E; injection E as E0 E1.
  - right. intros ([|? ?] & X); rewrite X in E1; discriminate E1.
  - destruct (ascii_dec c d) as [-> | Hc]; [left; now exists r|]. right. intros (r' & X). rewrite X in E1. apply app_inj_tail in E1. destruct E1 as (_ & E1). now apply Hc.
Qed.
Lemma fields_count line n : line <> [] -> (fields line n <-> n = length (pieces "=" line [])).
Proof.
  intro Hne. destruct (pieces_count "=" line [] (or_intror Hne)) as (I1 & I2). unfold fields. split.
  - intros [(r & E & ->)|(E & ->)]; [symmetry; apply I1; now exists r|]. symmetry. apply I2. intros (r & X). now apply (E r).
  - intros ->. destruct (ends_dec "=" line) as [X|X]; [left|right].
    + destruct X as (r & E). exists r. split; [exact E|]. apply I1. now exists r.
    + split; [|apply I2, X]. intros r E. apply X. now exists r.
Qed.

(* trimming *)
Lemma drop_blanks b s : blanks b -> drop_blank (b ++ s) = drop_blank s.
Proof. induction 1 as [|c b -> _ IH]; [reflexivity|]. cbn. exact IH. Qed.
Lemma drop_word s : (forall c r, s = c :: r -> c <> " "%char) -> drop_blank s = s.
Proof. intro H. destruct s as [|c r]; [reflexivity|]. cbn. rewrite eqb_no by (eapply H; reflexivity). reflexivity. Qed.
Lemma blanks_rev b : blanks b -> blanks (rev b).
Proof. unfold blanks. intro H. apply Forall_rev. exact H. Qed.
Lemma trim_word b k b' : blanks b -> blanks b' -> word k -> trim_blank (b ++ k ++ b') = k.
Proof.
  intros Hb Hb' (_ & _ & _ & H1 & H2). unfold trim_blank. rewrite drop_blanks by exact Hb. destruct k as [|c k].
  - cbn [app]. assert (X : drop_blank b' = []) by (rewrite <- (app_nil_r b'), drop_blanks by exact Hb'; reflexivity). rewrite X. reflexivity.
  - rewrite (drop_word ((c :: k) ++ b')) by (intros c' r E; injection E as <- _; eapply H1; reflexivity).
    rewrite rev_app_distr, drop_blanks by (apply blanks_rev, Hb'). rewrite drop_word; [apply rev_involutive|].
    intros c' r E. apply (H2 c' (rev r)). rewrite <- (rev_involutive (c :: k)), E. reflexivity.
Qed.
Lemma c_str_id s : ~ In "000"%char s -> c_str s = s.
Proof. induction s as [|c s IH]; intro H; [reflexivity|]. cbn. rewrite eqb_no by (intro; subst; apply H; now left). f_equal. apply IH. intro. apply H. now right. Qed.

(* the case of letters *)
Lemma toupper_letter a b : (forall n, n < 26 -> b <> ascii_of_nat (97 + n)) -> (toupper a = b <-> same_letter a b).
Proof.
  intro Hb. unfold toupper, same_letter. pose proof (nat_ascii_bounded a) as Ba. split.
  - intro H. destruct (Nat.leb_spec 97 (nat_of_ascii a)) as [L1|]; cbn [andb] in H; [|left; exact H]. destruct (Nat.leb_spec (nat_of_ascii a) 122) as [L2|]; [|left; exact H].
    right. exists (nat_of_ascii a - 97). split; [lia|]. right. split; [rewrite <- (ascii_nat_embedding a) at 1; f_equal; lia|]. rewrite <- H. f_equal. lia.
  - intros [-> | (n & Hn & [(_ & E)|(-> & ->)])].
    + destruct (Nat.leb_spec 97 (nat_of_ascii b)) as [L1|]; cbn [andb]; [|reflexivity]. destruct (Nat.leb_spec (nat_of_ascii b) 122) as [L2|]; [|reflexivity].
      exfalso. apply (Hb (nat_of_ascii b - 97)); [lia|]. rewrite <- (ascii_nat_embedding b) at 1. f_equal. lia.
    + exfalso. exact (Hb n Hn E).
    + rewrite nat_ascii_embedding by lia. rewrite (proj2 (Nat.leb_le _ _)), (proj2 (Nat.leb_le _ _)) by lia. cbn [andb]. replace (97 + n - 32) with (65 + n) by lia. reflexivity.
Qed.
Lemma toupper_word a K : capital K -> (str_toupper a = K <-> same_word a K).
Proof.
  intro HK. unfold str_toupper, same_word. split.
  - intro E. revert a E. induction K as [|b K IH]; intros [|c a] E; try discriminate E; [constructor|]. cbn [map] in E. injection E as E1 E2. constructor; [|apply IH; [|exact E2]; intros n Hn X; apply (HK n Hn); now right].
    apply toupper_letter; [intros n Hn X; apply (HK n Hn); rewrite X; now left|exact E1].
  - intro E. induction E as [|c b a K E1 _ IH]; [reflexivity|]. cbn [map]. f_equal; [|apply IH; intros n Hn X; apply (HK n Hn); now right].
    apply toupper_letter; [intros n Hn X; apply (HK n Hn); rewrite X; now left|exact E1].
Qed.

(* the map *)
Lemma str_eqb_spec a b : reflect (a = b) (str_eqb a b).
Proof. unfold str_eqb. destruct (list_eq_dec ascii_dec a b); constructor; assumption. Qed.
Lemma find_insert K k v c : find_key K (insert k v c) = match find_key K c with Some w => Some w | None => if str_eqb k K then Some v else None end.
Proof.
  unfold insert. destruct (find_key k c) as [w|] eqn:E.
  - destruct (find_key K c) as [w'|] eqn:EK; [reflexivity|]. destruct (str_eqb_spec k K) as [-> |]; [congruence|reflexivity].
  - clear E. unfold find_key. induction c as [|(k0, v0) c IH]; cbn [app find fst].
    + destruct (str_eqb k K); reflexivity.
    + destruct (str_eqb k0 K); [reflexivity|exact IH].
Qed.

(* one line *)
Definition put (o : option (str * str)) (c : config) : config := match o with None => c | Some (k, v) => insert (str_toupper k) v c end.
Lemma blanks_no b d : blanks b -> d <> " "%char -> ~ In d b.
Proof. intros H Hd X. unfold blanks in H. rewrite Forall_forall in H. now apply Hd, H. Qed.
Lemma parse_says o l c : line_says o l -> parse_line l c = Ok (put o c).
Proof.
  destruct 1 as [|s Hs|b1 k b2 b3 v b4 B1 B2 B3 B4 Wk Wv Hne Hh]; [reflexivity|reflexivity|].
  assert (EP : pieces "=" (b1 ++ k ++ b2 ++ "="%char :: b3 ++ v ++ b4) [] = [b1 ++ k ++ b2; b3 ++ v ++ b4]).
  { replace (b1 ++ k ++ b2 ++ "="%char :: b3 ++ v ++ b4) with ((b1 ++ k ++ b2) ++ "="%char :: b3 ++ v ++ b4) by now rewrite <- !app_assoc.
    rewrite pieces_delim; [cbn [rev app]; f_equal; apply (pieces_last "=" (b3 ++ v ++ b4) []); [|exact Hne]|].
    - destruct Wv as (X & _). rewrite !in_app_iff. intros [Y|[Y|Y]]; [now apply (blanks_no _ _ B3) in Y|contradiction|now apply (blanks_no _ _ B4) in Y].
    - destruct Wk as (X & _). rewrite !in_app_iff. intros [Y|[Y|Y]]; [now apply (blanks_no _ _ B1) in Y|contradiction|now apply (blanks_no _ _ B2) in Y]. }
  unfold parse_line. destruct (b1 ++ k ++ b2 ++ "="%char :: b3 ++ v ++ b4) as [|ch r] eqn:EL; [discriminate EP|].
  rewrite eqb_no.
  - rewrite EP. cbn [map length Nat.odd Nat.even negb getn nth_error bind]. rewrite !trim_word by assumption. rewrite (c_str_id k) by (destruct Wk as (_ & _ & X & _); exact X). rewrite (c_str_id v) by (destruct Wv as (_ & _ & X & _); exact X). reflexivity.
  - intros ->. rewrite app_assoc in EL. destruct (b1 ++ k) as [|c0 r0] eqn:E0; [|cbn [app] in EL; injection EL as -> _; now apply (Hh r0)].
    cbn [app] in EL. destruct b2 as [|c2 b2]; cbn [app] in EL; [discriminate EL|]. injection EL as -> _. inversion B2. discriminate.
Qed.
Lemma parse_all says ls : forall c, Forall2 line_says says ls -> parse_lines ls c = Ok (fold_left (fun c o => put o c) says c).
Proof.
  intros c H. revert c. induction H as [|o l says ls H _ IH]; intro c; [reflexivity|]. cbn [parse_lines fold_left]. rewrite (parse_says o l c H). cbn [bind]. apply IH.
Qed.
(* the value the first line gives to K *)
Fixpoint first_of (K : str) (says : list (option (str * str))) : option str :=
  match says with
  | [] => None
  | None :: says => first_of K says
  | Some (k, v) :: says => if str_eqb (str_toupper k) K then Some v else first_of K says
  end.
Lemma find_fold K says : forall c, find_key K (fold_left (fun c o => put o c) says c) = match find_key K c with Some w => Some w | None => first_of K says end.
Proof.
  induction says as [|o says IH]; intro c; cbn [fold_left first_of]; [destruct (find_key K c); reflexivity|]. rewrite IH. destruct o as [(k, v)|]; cbn [put]; [|reflexivity].
  rewrite find_insert. destruct (find_key K c); [reflexivity|]. destruct (str_eqb (str_toupper k) K); reflexivity.
Qed.
Lemma first_of_value K says v : capital K -> first_value K says v -> first_of K says = Some v.
Proof.
  intros HK (before & k & after & -> & Hk & Hb). induction before as [|o before IH]; cbn [app first_of].
  - destruct (str_eqb_spec (str_toupper k) K) as [_|X]; [reflexivity|]. exfalso. apply X, toupper_word; assumption.
  - destruct o as [(k', v')|]; [|apply IH; intros; eapply Hb; right; eassumption]. destruct (str_eqb_spec (str_toupper k') K) as [X|_].
    + exfalso. apply (Hb k' v' (or_introl eq_refl)), toupper_word; assumption.
    + apply IH. intros; eapply Hb; right; eassumption.
Qed.
Lemma first_of_none K says : capital K -> never_set K says -> first_of K says = None.
Proof.
  intros HK H. induction says as [|[(k, v)|] says IH]; cbn [first_of]; [reflexivity| |apply IH; intros k v X; apply (H k v); now right].
  destruct (str_eqb_spec (str_toupper k) K) as [X|_].
  - exfalso. apply (H k v (or_introl eq_refl)), toupper_word; assumption.
  - apply IH. intros k' v' X. apply (H k' v'). now right.
Qed.
Lemma first_of_inv K says v : capital K -> first_of K says = Some v -> first_value K says v.
Proof.
  intros HK. induction says as [|[(k, w)|] says IH]; cbn [first_of]; [discriminate| |].
  - destruct (str_eqb_spec (str_toupper k) K) as [X|X].
    + intro E. injection E as <-. exists [], k, says. split; [reflexivity|]. split; [apply toupper_word; assumption|]. intros ? ? [].
    + intro E. destruct (IH E) as (before & k0 & after & -> & Hk & Hb). exists (Some (k, w) :: before), k0, after. split; [reflexivity|]. split; [exact Hk|]. intros k' v' [Y|Y]; [|eapply Hb; eassumption].
      injection Y as -> ->. intro Z. apply X, toupper_word; assumption.
  - intro E. destruct (IH E) as (before & k0 & after & -> & Hk & Hb). exists (None :: before), k0, after. split; [reflexivity|]. split; [exact Hk|]. intros k' v' [Y|Y]; [discriminate Y|eapply Hb; eassumption].
Qed.
Lemma first_of_none_inv K says : capital K -> first_of K says = None -> never_set K says.
Proof.
  intros HK E k v X Y. induction says as [|[(k', w)|] says IH]; cbn [first_of] in E; [destruct X| |].
  - destruct (str_eqb_spec (str_toupper k') K) as [Z|Z]; [discriminate E|]. destruct X as [X|X]; [|now apply IH]. injection X as -> ->. apply Z, toupper_word; assumption.
  - destruct X as [X|X]; [discriminate X|now apply IH].
Qed.

(* lines in general *)
Lemma parse_line_total l c : (parse_line l c = Throw /\ ~ ignored l /\ exists n, fields l n /\ Nat.Odd n) \/
  exists c', parse_line l c = Ok c' /\ (ignored l \/ exists n, fields l n /\ Nat.Even n).
Proof.
  unfold parse_line, ignored. destruct l as [|ch r]; [right; exists c; split; [reflexivity|]; left; left; reflexivity|]. destruct (Ascii.eqb_spec ch "#") as [-> | Hc]; [right; exists c; split; [reflexivity|]; left; right; now exists r|].
  rewrite map_length. assert (HF : fields (ch :: r) (length (pieces "=" (ch :: r) []))) by (apply fields_count; [discriminate|reflexivity]).
  destruct (Nat.odd (length (pieces "=" (ch :: r) []))) eqn:EO.
  - left. split; [reflexivity|]. split; [intros [X|(r' & X)]; [discriminate X|injection X as X _; contradiction]|]. exists (length (pieces "=" (ch :: r) [])). split; [exact HF|]. apply Nat.odd_spec, EO.
  - right. assert (LP : 1 <= length (pieces "=" (ch :: r) [])).
    { cbn [pieces]. destruct (Ascii.eqb ch "="); [cbn [length]; lia|]. assert (NE : [ch] <> [] \/ r <> []) by (left; discriminate). destruct (pieces_count "=" r [ch] NE) as (I1 & I2). destruct (ends_dec "=" r) as [X|X]; [rewrite (I1 X)|rewrite (I2 X); lia].
      destruct X as (r' & ->). rewrite count_occ_app. cbn [count_occ]. destruct (ascii_dec "=" "=") as [_|Y]; [lia|destruct (Y eq_refl)]. }
    assert (HE : Nat.Even (length (pieces "=" (ch :: r) []))) by (apply Nat.even_spec; rewrite <- Nat.negb_odd, EO; reflexivity).
    destruct (pieces "=" (ch :: r) []) as [|p0 [|p1 ps]]; cbn [length] in *; [lia|destruct HE as (m & HE); lia|]. cbn [map getn nth_error bind]. eexists. split; [reflexivity|]. right. exists (S (S (length ps))). auto.
Qed.

Lemma fields_one l n m : l <> [] -> fields l n -> fields l m -> n = m.
Proof. intros Hne H1 H2. apply fields_count in H1, H2; congruence. Qed.
Definition bad (l : str) : Prop := ~ ignored l /\ exists n, fields l n /\ Nat.Odd n.
Lemma parse_lines_total ls : forall c, (parse_lines ls c = Throw /\ exists l, In l ls /\ bad l) \/ ((exists c', parse_lines ls c = Ok c') /\ forall l, In l ls -> ~ bad l).
Proof.
  induction ls as [|l ls IH]; intro c; [right; split; [now exists c|intros l []]|]. cbn [parse_lines]. destruct (parse_line_total l c) as [(E & Hi & Hf)|(c' & E & Hf)]; rewrite E; cbn [bind].
  - left. split; [reflexivity|]. exists l. split; [now left|]. split; assumption.
  - assert (Hl : ~ bad l).
    { intros (Hi & n & Hn & Ho). destruct Hf as [X|(m & Hm & He)]; [contradiction|]. assert (l <> []) by (intro X; apply Hi; left; exact X). rewrite (fields_one l n m) in Ho by assumption. apply Nat.Even_Odd_False in He; assumption. }
    destruct (IH c') as [(X & l0 & I0 & B0)|((c0 & X) & H0)].
    + left. split; [exact X|]. exists l0. split; [now right|exact B0].
    + right. split; [now exists c0|]. intros l1 [<-|I1]; [exact Hl|now apply H0].
Qed.
Lemma capital_low K : forallb (fun c => nat_of_ascii c <? 97) K = true -> capital K.
Proof.
  intros H n Hn X. rewrite forallb_forall in H. apply H in X. rewrite nat_ascii_embedding in X by lia. apply Nat.ltb_lt in X. lia.
Qed.
