(* NamelistProps.v - C88: the configuration file of the ins2d driver. *)
From Coq Require Import ZArith String.
From Coq Require Import List Bool Ascii Arith Lia.
From Verif Require Import Base Loops CsvModel NamelistModel NamelistSpec NamelistProofs.
Import ListNotations.
Local Open Scope nat_scope.

(* A file of comments, empty lines and settings: every key, in capitals, has the value of the first line that sets it,
   whatever the case of the letters there and the blanks around. *)
Theorem C88_reads t ls says : text_of ls t -> Forall2 line_says says ls -> exists c, readNamelist (Some t) = Ok c /\
  forall K, capital K -> (forall v, first_value K says v -> lookup c K = v) /\ (never_set K says -> lookup c K = []).
Proof.
  intros Ht Hs. exists (fold_left (fun c o => put o c) says []). split; [cbn [readNamelist]; rewrite (pieces_text _ _ Ht); apply parse_all, Hs|].
  intros K HK. unfold lookup. rewrite find_fold. cbn [find_key find option_map]. split; [intros v Hv; now rewrite (first_of_value K says v HK Hv)|intro Hn; now rewrite (first_of_none K says HK Hn)].
Qed.

(* Every file is read without going out of bounds; it is rejected exactly if some line, neither empty nor a comment, has an odd
   number of fields. *)
Theorem C88_accepts t : exists ls, text_of ls t /\ readNamelist (Some t) <> UB /\
  (readNamelist (Some t) = Throw <-> exists l n, In l ls /\ ~ ignored l /\ fields l n /\ Nat.Odd n).
Proof.
  exists (pieces NL t []). split; [apply (text_pieces t []); intros []|]. cbn [readNamelist]. destruct (parse_lines_total (pieces NL t []) []) as [(E & l & I & Hi & n & Hn & Ho)|((c & E) & H)]; rewrite E.
  - split; [discriminate|]. split; [|reflexivity]. intros _. exists l, n. auto.
  - split; [discriminate|]. split; [discriminate|]. intros (l & n & I & Hi & Hn & Ho). destruct (H l I). split; [exact Hi|]. now exists n.
Qed.

(* A line without '=' is an error, even if it is made of blanks only or, in a file with Windows line ends, empty. *)
Theorem C88_blank_lines_refuted t ls l : text_of ls t -> In l ls -> l <> [] -> (forall r, l <> "#"%char :: r) -> ~ In "="%char l -> readNamelist (Some t) = Throw.
Proof.
  intros Ht Hl Hne Hc Hq. destruct (C88_accepts t) as (ls' & Ht' & _ & H). apply H. exists l, 1. split; [now rewrite <- (pieces_text _ _ Ht'), (pieces_text _ _ Ht)|].
  split; [intros [X|(r & X)]; [contradiction|now apply (Hc r)]|]. split; [|now exists 0]. right. split.
  - intros r ->. apply Hq. apply in_or_app. right. now left.
  - f_equal. symmetry. apply count_occ_not_In, Hq.
Qed.
(* ... and there the carriage return becomes part of the value. *)
Theorem C88_windows_value k v b1 b2 b3 K : let CR := "013"%char in blanks b1 -> blanks b2 -> blanks b3 -> word k -> word v -> (forall r, b1 ++ k <> "#"%char :: r) -> capital K -> same_word k K ->
  exists c, readNamelist (Some (b1 ++ k ++ b2 ++ "="%char :: b3 ++ v ++ [CR; NL])) = Ok c /\ lookup c K = v ++ [CR].
Proof.
  intros CR B1 B2 B3 Wk Wv Hh HK Hs. set (l := b1 ++ k ++ b2 ++ "="%char :: b3 ++ (v ++ [CR]) ++ []).
  assert (Wv' : word (v ++ [CR])).
  { destruct Wv as (W1 & W2 & W3 & W4 & W5). unfold word. rewrite !in_app_iff. repeat split.
    - intros [X|[X|[]]]; [contradiction|discriminate X].
    - intros [X|[X|[]]]; [contradiction|discriminate X].
    - intros [X|[X|[]]]; [contradiction|discriminate X].
    - intros c r E. destruct v as [|c' v']; cbn [app] in E; injection E as <- _; [discriminate|eapply W4; reflexivity].
    - intros c r E. apply app_inj_tail in E. destruct E as (_ & <-). discriminate. }
  assert (HL : ~ In NL l).
  { unfold l. rewrite !in_app_iff. cbn [In]. rewrite !in_app_iff. intros [X|[X|[X|[X|[X|[[X|[X|[]]]|[]]]]]]].
    - revert X. apply blanks_no; [exact B1|discriminate].
    - destruct Wk as (_ & Y & _). contradiction.
    - revert X. apply blanks_no; [exact B2|discriminate].
    - discriminate X.
    - revert X. apply blanks_no; [exact B3|discriminate].
    - destruct Wv as (_ & Y & _). contradiction.
    - discriminate X. }
  destruct (C88_reads (l ++ [NL]) [l] [Some (k, v ++ [CR])]) as (c & Ec & Hc).
  - apply text_line; [exact HL|apply text_nil].
  - constructor; [|constructor]. apply says_setting; auto; [apply Forall_nil|]. destruct b3, v; discriminate.
  - exists c. split; [|apply (Hc K HK); exists [], k, []; split; [reflexivity|split; [exact Hs|intros ? ? []]]].
    rewrite <- Ec. f_equal. f_equal. unfold l. rewrite app_nil_r. rewrite <- !app_assoc. cbn [app]. rewrite <- !app_assoc. reflexivity.
Qed.

(* A third and a fourth field are accepted and forgotten. *)
Theorem C88_extra_fields_refuted k v x y : word k -> word v -> ~ In "="%char x -> ~ In "="%char y -> ~ In NL x -> ~ In NL y -> v <> [] -> y <> [] -> (forall r, k <> "#"%char :: r) ->
  exists c, readNamelist (Some (k ++ "="%char :: v ++ "="%char :: x ++ "="%char :: y)) = Ok c /\ readNamelist (Some (k ++ "="%char :: v)) = Ok c.
Proof.
  intros Wk Wv X1 Y1 X2 Y2 Hv Hy Hk. destruct Wk as (K1 & K2 & K3 & K4 & K5). destruct Wv as (V1 & V2 & V3 & V4 & V5).
  assert (TK : trim_blank k = k) by (rewrite <- (app_nil_r k) at 1; apply (trim_word [] k []); [apply Forall_nil|apply Forall_nil|repeat split; assumption]).
  assert (TV : trim_blank v = v) by (rewrite <- (app_nil_r v) at 1; apply (trim_word [] v []); [apply Forall_nil|apply Forall_nil|repeat split; assumption]).
  assert (HP : forall rest, match k ++ "="%char :: rest with [] => False | ch :: _ => ch <> "#"%char end).
  { intro rest. destruct k as [|c k']; cbn [app]; [discriminate|]. intros ->. now apply (Hk k'). }
  assert (LN : forall l, l <> [] -> ~ In NL l -> pieces NL l [] = [l]) by (intros l H1 H2; now apply (pieces_last NL l [])).
  exists [(str_toupper k, v)]. cbn [readNamelist]. rewrite !LN.
  - cbn [parse_lines]. split.
    + unfold parse_line. pose proof (HP (v ++ "="%char :: x ++ "="%char :: y)) as HQ. assert (EP : pieces "=" (k ++ "="%char :: v ++ "="%char :: x ++ "="%char :: y) [] = [k; v; x; y]).
      { rewrite pieces_delim by exact K1. rewrite pieces_delim by exact V1. rewrite pieces_delim by exact X1. rewrite (pieces_last "=" y []) by assumption. reflexivity. }
      destruct (k ++ "="%char :: v ++ "="%char :: x ++ "="%char :: y) as [|ch r]; [destruct HQ|]. rewrite eqb_no by exact HQ. rewrite EP. cbn [map length Nat.odd Nat.even negb getn nth_error bind]. rewrite TK, TV, !c_str_id by assumption. reflexivity.
    + unfold parse_line. pose proof (HP v) as HQ. assert (EP : pieces "=" (k ++ "="%char :: v) [] = [k; v]).
      { rewrite pieces_delim by exact K1. rewrite (pieces_last "=" v []) by assumption. reflexivity. }
      destruct (k ++ "="%char :: v) as [|ch r]; [destruct HQ|]. rewrite eqb_no by exact HQ. rewrite EP. cbn [map length Nat.odd Nat.even negb getn nth_error bind]. rewrite TK, TV, !c_str_id by assumption. reflexivity.
  - destruct k; discriminate.
  - rewrite in_app_iff. cbn [In]. intros [Z|[Z|Z]]; [contradiction|discriminate Z|contradiction].
  - destruct k; discriminate.
  - rewrite !in_app_iff. cbn [In]. rewrite !in_app_iff. cbn [In]. rewrite !in_app_iff. cbn [In]. intros [Z|[Z|[Z|[Z|[Z|[Z|Z]]]]]]; try contradiction; discriminate Z.
Qed.

(* The parameters: the run goes on with exactly the converted values, and does not start if one is missing or malformed. *)
Section Settings.
Context {T : Type} (stof : str -> option T) (stoi : str -> option Z).
Hypotheses (Hf : stof [] = None) (Hi : stoi [] = None).           (* nothing to convert: std::invalid_argument *)
Local Notation word_of s := (list_ascii_of_string s).

Theorem C88_settings t ls says : text_of ls t -> Forall2 line_says says ls -> let run := readSettings stof stoi (Some t) in run <> UB /\
  forall s, run = Ok s <->
  given stof says (word_of "GRAVITATIONALACCELERATION") (s_g s) /\ given stof says (word_of "FINALTIME") (s_finalTime s) /\ given stof says (word_of "INITIALTIME") (s_initialTime s) /\
  given stoi says (word_of "POLYNOMIALORDER") (s_N s) /\ given stof says (word_of "CFL") (s_CFL s) /\ given stof says (word_of "FILTERCUTOFF") (s_cutoff s) /\ given stof says (word_of "FILTERORDER") (s_order s) /\
  (first_value (word_of "MESHFILE") says (s_mesh s) \/ never_set (word_of "MESHFILE") says /\ s_mesh s = []).
Proof.
  intros Ht Hs run. unfold run, readSettings. cbn [readNamelist]. rewrite (pieces_text _ _ Ht), (parse_all says ls [] Hs). cbn [bind]. set (c := fold_left (fun c o => put o c) says []).
  assert (LK : forall K, lookup c K = match first_of K says with Some v => v | None => [] end) by (intro K; unfold lookup, c; rewrite find_fold; reflexivity).
  assert (CV : forall A (f : str -> option A) (k : string), f [] = None -> capital (word_of k) ->
    (exists a, conv f c k = Ok a /\ forall b, given f says (word_of k) b <-> b = a) \/ (conv f c k = Throw /\ forall b, ~ given f says (word_of k) b)).
  { intros A f k F0 HK. unfold conv, key. rewrite LK. destruct (first_of (word_of k) says) as [w|] eqn:EF.
    - assert (U : forall w', first_value (word_of k) says w' -> w' = w) by (intros w' X; apply first_of_value in X; [congruence|exact HK]). destruct (f w) as [a|] eqn:EW; [left|right].
      + exists a. split; [reflexivity|]. intro b. split; [intros (w' & X & Y); apply U in X; congruence|]. intros ->. exists w. split; [apply first_of_inv; assumption|exact EW].
      + split; [reflexivity|]. intros b (w' & X & Y). apply U in X. congruence.
    - right. rewrite F0. split; [reflexivity|]. intros b (w' & X & _). apply first_of_value in X; [congruence|exact HK]. }
  assert (MF : forall m, m = lookup c (key "MESHFILE") <-> (first_value (word_of "MESHFILE") says m \/ never_set (word_of "MESHFILE") says /\ m = [])).
  { intro m. unfold key. rewrite LK. assert (HK : capital (word_of "MESHFILE")) by (apply capital_low; reflexivity). destruct (first_of (word_of "MESHFILE") says) as [w|] eqn:EF.
    - split; [intros ->; left; apply first_of_inv; assumption|]. intros [X|(X & _)]; [apply first_of_value in X; [congruence|exact HK]|]. apply first_of_none in X; [congruence|exact HK].
    - split; [intros ->; right; split; [apply first_of_none_inv; assumption|reflexivity]|]. intros [X|(_ & ->)]; [|reflexivity]. apply first_of_value in X; [congruence|exact HK]. }
  pose proof (CV T stof "GRAVITATIONALACCELERATION"%string Hf ltac:(apply capital_low; reflexivity)) as C1. pose proof (CV T stof "FINALTIME"%string Hf ltac:(apply capital_low; reflexivity)) as C2.
  pose proof (CV T stof "INITIALTIME"%string Hf ltac:(apply capital_low; reflexivity)) as C3. pose proof (CV Z stoi "POLYNOMIALORDER"%string Hi ltac:(apply capital_low; reflexivity)) as C4.
  pose proof (CV T stof "CFL"%string Hf ltac:(apply capital_low; reflexivity)) as C5. pose proof (CV T stof "FILTERCUTOFF"%string Hf ltac:(apply capital_low; reflexivity)) as C6.
  pose proof (CV T stof "FILTERORDER"%string Hf ltac:(apply capital_low; reflexivity)) as C7. clear CV LK.
  destruct C1 as [(a1 & -> & G1)|(-> & G1)]; cbn [bind]; [|split; [discriminate|]; intro s; split; [discriminate|]; intro X; exfalso; apply (G1 (s_g s)); tauto].
  destruct C2 as [(a2 & -> & G2)|(-> & G2)]; cbn [bind]; [|split; [discriminate|]; intro s; split; [discriminate|]; intro X; exfalso; apply (G2 (s_finalTime s)); tauto].
  destruct C3 as [(a3 & -> & G3)|(-> & G3)]; cbn [bind]; [|split; [discriminate|]; intro s; split; [discriminate|]; intro X; exfalso; apply (G3 (s_initialTime s)); tauto].
  destruct C4 as [(a4 & -> & G4)|(-> & G4)]; cbn [bind]; [|split; [discriminate|]; intro s; split; [discriminate|]; intro X; exfalso; apply (G4 (s_N s)); tauto].
  destruct C5 as [(a5 & -> & G5)|(-> & G5)]; cbn [bind]; [|split; [discriminate|]; intro s; split; [discriminate|]; intro X; exfalso; apply (G5 (s_CFL s)); tauto].
  destruct C6 as [(a6 & -> & G6)|(-> & G6)]; cbn [bind]; [|split; [discriminate|]; intro s; split; [discriminate|]; intro X; exfalso; apply (G6 (s_cutoff s)); tauto].
  destruct C7 as [(a7 & -> & G7)|(-> & G7)]; cbn [bind]; [|split; [discriminate|]; intro s; split; [discriminate|]; intro X; exfalso; apply (G7 (s_order s)); tauto].
  split; [discriminate|]. intros [b1 b2 b3 b4 b5 b6 b7 b8]. cbn [s_g s_finalTime s_initialTime s_N s_CFL s_cutoff s_order s_mesh]. rewrite G1, G2, G3, G4, G5, G6, G7, <- MF. split.
  - intro E. injection E as <- <- <- <- <- <- <- <-. repeat split; reflexivity.
  - intros (-> & -> & -> & -> & -> & -> & -> & ->). reflexivity.
Qed.

(* Without the file there is no run. *)
Theorem C88_missing_file : readSettings stof stoi None = Throw.
Proof. unfold readSettings, conv. cbn [readNamelist bind lookup find_key find option_map]. rewrite Hf. reflexivity. Qed.
End Settings.

Definition lines_of (ls : list string) : list ascii := concat (map (fun l => list_ascii_of_string l ++ [NL]) ls).
Lemma text_lines ls : Forall (fun l => ~ In NL (list_ascii_of_string l)) ls -> text_of (map list_ascii_of_string ls) (lines_of ls).
Proof. induction 1 as [|l ls H _ IH]; [apply text_nil|]. unfold lines_of. cbn [map concat]. rewrite <- app_assoc. cbn [app]. apply text_line; assumption. Qed.
(* A file with comments, blanks, mixed case and a repeated key. *)
Example C88_witness : exists t ls says, text_of ls t /\ Forall2 line_says says ls /\ first_value (list_ascii_of_string "CFL") says (list_ascii_of_string "0.5") /\ first_value (list_ascii_of_string "MESHFILE") says (list_ascii_of_string "a b.msh").
Proof.
  assert (W : forall s, forallb (fun c => negb (Ascii.eqb c "=") && negb (Ascii.eqb c NL) && negb (Ascii.eqb c "000")) s = true -> (match s with [] => true | c :: _ => negb (Ascii.eqb c " ") end && match rev s with [] => true | c :: _ => negb (Ascii.eqb c " ") end) = true -> word s).
  { intros s H1 H2. rewrite forallb_forall in H1. apply andb_prop in H2. destruct H2 as (H2 & H3). unfold word.
    split; [intro X; apply H1 in X; discriminate X|]. split; [intro X; apply H1 in X; discriminate X|]. split; [intro X; apply H1 in X; discriminate X|]. split.
    - intros c r -> ->. discriminate H2.
    - intros c r -> ->. rewrite rev_app_distr in H3. discriminate H3. }
  set (ls := ["# a comment"; ""; "cfl =0.5"; "  MeshFile=  a b.msh "; "CFL = 0.7"]%string).
  exists (lines_of ls), (map list_ascii_of_string ls), [None; None; Some (list_ascii_of_string "cfl", list_ascii_of_string "0.5"); Some (list_ascii_of_string "MeshFile", list_ascii_of_string "a b.msh"); Some (list_ascii_of_string "CFL", list_ascii_of_string "0.7")].
  assert (NN : forall l, forallb (fun c => negb (Ascii.eqb c NL)) l = true -> ~ In NL l) by (intros l H X; rewrite forallb_forall in H; apply H in X; discriminate X).
  split; [|split; [|split]].
  - apply text_lines. repeat (apply Forall_cons; [apply NN; reflexivity|]). apply Forall_nil.
  - constructor; [apply says_comment, NN; reflexivity|]. constructor; [apply says_empty|].
    constructor; [apply (says_setting [] (list_ascii_of_string "cfl") [" "%char] [] (list_ascii_of_string "0.5") []); try (apply W; reflexivity); try discriminate; repeat constructor|].
    constructor; [apply (says_setting [" "%char; " "%char] (list_ascii_of_string "MeshFile") [] [" "%char; " "%char] (list_ascii_of_string "a b.msh") [" "%char]); try (apply W; reflexivity); try discriminate; repeat constructor|].
    constructor; [apply (says_setting [] (list_ascii_of_string "CFL") [" "%char] [" "%char] (list_ascii_of_string "0.7") []); try (apply W; reflexivity); try discriminate; repeat constructor|]. constructor.
  - eexists [None; None], _, _. split; [reflexivity|]. split; [apply toupper_word; [apply capital_low|]; reflexivity|]. intros k v [X|[X|[]]]; discriminate X.
  - eexists [None; None; _], _, _. split; [reflexivity|]. split; [apply toupper_word; [apply capital_low|]; reflexivity|]. intros k v [X|[X|[X|[]]]]; try discriminate X. injection X as <- <-. intro Y. inversion Y as [|? ? ? ? Z]. apply toupper_letter in Z; [discriminate Z|]. intros n Hn E. apply (f_equal nat_of_ascii) in E. rewrite nat_ascii_embedding in E by lia. change (nat_of_ascii "M") with 77 in E. lia.
Qed.
Print Assumptions C88_reads.
Print Assumptions C88_accepts.
Print Assumptions C88_blank_lines_refuted.
Print Assumptions C88_windows_value.
Print Assumptions C88_extra_fields_refuted.
Print Assumptions C88_settings.
Print Assumptions C88_missing_file.
