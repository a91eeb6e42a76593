(* CsvSpec.v - what the CSV reader and writer are expected to do, stated without the model's
   functions: the lines of a text, the fields of a line, and a reader that is just a position in
   a list of lines. *)
From Coq Require Import ZArith List Lia Bool Ascii.
From Verif Require Import Base Loops CsvModel.
Import ListNotations.
Local Open Scope Z_scope.

Definition white (c : ascii) : Prop :=
  In c [" "; "009"; "010"; "011"; "012"; "013"]%char.
Definition blank (l : str) : Prop := Forall white l.

(* ls are the lines of text t: each ends with a newline, except perhaps a non-empty last one. *)
Inductive lines_of : str -> list str -> Prop :=
| lines_nil : lines_of [] []
| lines_last l : l <> [] -> ~ In NL l -> lines_of l [l]
| lines_cons l t ls : ~ In NL l -> lines_of t ls -> lines_of (l ++ NL :: t) (l :: ls).

(* t is l without the white space at its ends. *)
Definition trimmed (l t : str) : Prop :=
  exists a b, l = a ++ t ++ b /\ blank a /\ blank b /\
    (forall c t', t = c :: t' -> ~ white c) /\ (forall c t', t = t' ++ [c] -> ~ white c).

(* fs are the fields of l when every run of delimiters separates two fields. *)
Inductive fields (d : str) : str -> list str -> Prop :=
| fields_last f : (forall c, In c f -> ~ In c d) -> fields d f [f]
| fields_cons f run s fs :
    (forall c, In c f -> ~ In c d) -> run <> [] -> (forall c, In c run -> In c d) ->
    (forall c s', s = c :: s' -> ~ In c d) ->
    fields d s fs -> fields d (f ++ run ++ s) (f :: fs).

(* The delimiter strings the documentation allows. *)
Definition legal_delims (d : str) : Prop :=
  d <> [] /\ forall c, In c d -> In c [" "; "009"; ","; ";"; "^"; "|"]%char.

(* A reader seen from outside: the lines of the open file (None when no file could be opened), how
   many were consumed, whether a read already ran off the end, and the settings. *)
Record view := mkview { vlines : option (list str); vpos : nat; vend : bool;
                        vskip : Z; vdelims : str; vcols : Z }.
Definition lines v := match vlines v with Some ls => ls | None => [] end.

Definition move (v : view) (p : nat) (e : bool) : view :=
  mkview (vlines v) p e (vskip v) (vdelims v) (vcols v).
Definition set_cols (v : view) (n : Z) : view :=
  mkview (vlines v) (vpos v) (vend v) (vskip v) (vdelims v) n.

(* Consuming one line. *)
Inductive take_line (v : view) : option str -> view -> Prop :=
| take_some l : vend v = false -> nth_error (lines v) (vpos v) = Some l ->
    take_line v (Some l) (move v (S (vpos v)) false)
| take_none : vend v = true \/ (length (lines v) <= vpos v)%nat ->
    take_line v None (move v (vpos v) true).

(* Consuming up to n lines; running off the end happens when fewer are left. *)
Inductive take_lines : nat -> view -> view -> Prop :=
| take_0 v : take_lines 0 v v
| take_S n v l v1 v2 : take_line v (Some l) v1 -> take_lines n v1 v2 -> take_lines (S n) v v2
| take_stop n v v1 : take_line v None v1 -> take_lines (S n) v v1.

(* The position just after the skipped header. *)
Definition at_start (v v' : view) : Prop :=
  take_lines (Z.to_nat (vskip v)) (move v 0 (match vlines v with Some _ => false | None => true end)) v'.

(* The next row: the first line from the current position that is not blank. *)
Inductive next_row (v : view) : option str -> view -> Prop :=
| row_some k l t : vend v = false ->
    (forall j l', (vpos v <= j < vpos v + k)%nat -> nth_error (lines v) j = Some l' -> blank l') ->
    nth_error (lines v) (vpos v + k) = Some l -> ~ blank l -> trimmed l t ->
    next_row v (Some t) (move v (S (vpos v + k)) false)
| row_eof : vend v = false -> (forall j l, (vpos v <= j)%nat -> nth_error (lines v) j = Some l -> blank l) ->
    next_row v None (move v (length (lines v)) true)
| row_ended : vend v = true -> next_row v None v.

(* Number of non-blank lines from the current position, and the reader after counting them. *)
Inductive count_rows : view -> Z -> view -> Prop :=
| count_0 v v' : next_row v None v' -> count_rows v 0 v'
| count_S v t v1 n v2 : next_row v (Some t) v1 -> count_rows v1 n v2 -> count_rows v (n + 1) v2.

(* Opening: what is reported (true = no exception) and the reader afterwards. *)
Inductive opened (f : option str) (n : Z) (d : str) : bool -> view -> Prop :=
| open_bad_delims ls : ~ legal_delims d -> match f with Some t => exists l, ls = Some l /\ lines_of t l | None => ls = None end ->
    opened f n d false (mkview ls 0 (match f with Some _ => false | None => true end) n d (-1))
| open_no_file : legal_delims d -> f = None -> opened f n d false (mkview None 0 true n d (-1))
| open_short t ls : legal_delims d -> f = Some t -> lines_of t ls -> Z.of_nat (length ls) < n ->
    opened f n d false (mkview (Some ls) (length ls) true n d (-1))
| open_ok t ls c : legal_delims d -> f = Some t -> lines_of t ls -> n <= Z.of_nat (length ls) ->
    (* the number of columns is that of the first row, 0 if there is no row *)
    (exists row v', next_row (mkview (Some ls) (Z.to_nat n) false n d 0) row v' /\
       match row with Some r => exists fs, fields d r fs /\ c = Z.of_nat (length fs) | None => c = 0 end) ->
    opened f n d true (mkview (Some ls) (Z.to_nat n) false n d c).

(* Texts below 2 GB and int arguments, so that the int counters of the code do not overflow. *)
Definition small_text (t : str) : Prop := Z.of_nat (length t) < INT_MAX.
Definition in_int (n : Z) : Prop := INT_MIN <= n <= INT_MAX.
Definition call_small {V} (c : call V) : Prop :=
  match c with
  | COpen (Some t) n _ => small_text t /\ in_int n
  | COpen None n _ => in_int n
  | CSkip n | CSetCols n => in_int n
  | CParseVals ks => Z.of_nat (length ks) <= INT_MAX
  | _ => True
  end.

(* The rows of a file after n skipped lines: its non-blank lines, trimmed and split. *)
Inductive rows_of (d : str) : list str -> list (list str) -> Prop :=
| rows_nil : rows_of d [] []
| rows_blank l ls rs : blank l -> rows_of d ls rs -> rows_of d (l :: ls) rs
| rows_row l t fs ls rs : ~ blank l -> trimmed l t -> fields d t fs -> rows_of d ls rs ->
    rows_of d (l :: ls) (fs :: rs).

Section Values.
Variable V : Type.

(* Field s is fully understood as value v of the requested type. *)
Definition understood (k : kind V) (s : str) (v : V) : Prop :=
  match k with
  | KNum sto => sto s = Some (v, length s)
  | KString inj => v = inj s
  | KChar inj => exists c, s = [c] /\ v = inj c
  | KStream ext => ext s = Some v
  end.

(* The values of a row: as many types as fields; each field up to the first that is not understood
   is delivered, in order. ok tells that all were. *)
Inductive delivered : list (kind V) -> list str -> list V -> bool -> Prop :=
| del_nil : delivered [] [] [] true
| del_cons k ks s ss v vs ok : understood k s v -> delivered ks ss vs ok ->
    delivered (k :: ks) (s :: ss) (v :: vs) ok
| del_bad k ks s ss : (forall v, ~ understood k s v) -> length ks = length ss ->
    delivered (k :: ks) (s :: ss) [] false.

(* Reading the next row with the given types for its fields (types fs: one per field). *)
Inductive parsed (types : nat -> list (kind V)) (v : view) : answer V -> view -> Prop :=
| parsed_end v' : next_row v None v' -> parsed types v (ARow false []) v'
| parsed_count t fs v' : next_row v (Some t) v' -> fields (vdelims v) t fs ->
    Z.of_nat (length fs) <> vcols v -> parsed types v (AThrow []) v'
| parsed_ok t fs vs v' : next_row v (Some t) v' -> fields (vdelims v) t fs ->
    Z.of_nat (length fs) = vcols v -> delivered (types (length fs)) fs vs true ->
    parsed types v (ARow true vs) v'
| parsed_bad t fs vs v' : next_row v (Some t) v' -> fields (vdelims v) t fs ->
    Z.of_nat (length fs) = vcols v -> delivered (types (length fs)) fs vs false ->
    parsed types v (AThrow vs) v'.

(* The expected effect of each call. *)
Inductive expected : call V -> view -> answer V -> view -> Prop :=
| exp_open f n d v ok v' : opened f n d ok v' ->
    expected (COpen f n d) v (if ok then ADone else AThrow []) v'
| exp_line v l v' : take_line v l v' -> expected CReadLine v (ALine l) v'
| exp_skip n v v' : take_lines (Z.to_nat n) v v' -> expected (CSkip n) v (ABool (negb (vend v'))) v'
| exp_reset v v' : at_start v v' -> expected CReset v ADone v'
| exp_rows v n v' : count_rows v n v' -> expected CNumRows v (ANum n) v'
| exp_cols n v : expected (CSetCols n) v ADone (set_cols v n)
| exp_itr k v a v' : parsed (fun n => repeat k n) v a v' -> expected (CParseItr k) v a v'
| exp_vals ks v a v' : Z.of_nat (length ks) = vcols v -> parsed (fun _ => ks) v a v' ->
    expected (CParseVals ks) v a v'
| exp_vals_bad ks v : Z.of_nat (length ks) <> vcols v -> expected (CParseVals ks) v (AThrow []) v.

(* A whole history: after each call, the answer, the line number and the number of columns. *)
Inductive expected_run : list (call V) -> view -> list (answer V * Z * Z) -> view -> Prop :=
| run_nil v : expected_run [] v [] v
| run_cons c cs v a v1 rs v2 : expected c v a v1 -> expected_run cs v1 rs v2 ->
    expected_run (c :: cs) v ((a, Z.of_nat (vpos v1), vcols v1) :: rs) v2.

(* A number format that the reader understands and that uses neither white space nor delimiters. *)
Definition faithful (fmt : V -> str) (k : kind V) (d : str) (x : V) : Prop :=
  fmt x <> [] /\ understood k (fmt x) x /\ forall c, In c (fmt x) -> ~ white c /\ ~ In c d.

(* What a file holds for csvread: the first n lines are skipped, the others are blank or hold a row
   of nc fields, each understood. data is the row-major content. *)
Definition holds (k : kind V) (t : str) (n : Z) (d : str) (nr : nat) (nc : Z) (data : list V) : Prop :=
  exists ls rows vals,
    lines_of t ls /\ n <= Z.of_nat (length ls) /\ rows_of d (skipn (Z.to_nat n) ls) rows /\
    nr = length rows /\ Forall (fun row => Z.of_nat (length row) = nc) rows /\ (rows = [] -> nc = 0) /\
    Forall2 (Forall2 (understood k)) rows vals /\ data = concat vals.
End Values.
Arguments understood {V}. Arguments delivered {V}. Arguments parsed {V}. Arguments expected {V}.
Arguments expected_run {V}. Arguments faithful {V}. Arguments holds {V}.

(* r is a reader object after some history of calls: constructed by opening a file, then used. *)
Definition reached (V : Type) (r : reader) : Prop :=
  exists r0 f n d (cs : list (call V)) rs,
    Forall call_small (COpen f n d :: cs) /\ run_calls (COpen f n d :: cs) r0 = Ok (rs, r).

(* The row with fields fs is the line number m of the text. *)
Definition row_at (txt : str) (d : str) (m : Z) (fs : list str) : Prop :=
  exists ls line t, lines_of txt ls /\ 0 < m /\ nth_error ls (Z.to_nat m - 1) = Some line /\ ~ blank line /\
    trimmed line t /\ fields d t fs.

(* What a reading call answers at the end of the file. *)
Definition end_answer {V} (cols : Z) (c : call V) : option (answer V) :=
  match c with
  | CReadLine => Some (ALine None)
  | CSkip _ => Some (ABool false)
  | CNumRows => Some (ANum 0)
  | CParseItr _ => Some (ARow false [])
  | CParseVals ks => Some (if Z.of_nat (length ks) =? cols then ARow false [] else AThrow [])
  | _ => None
  end.

(* The text of a field: row-major values. *)
Definition row_major {V} (m : mat V) : list V :=
  concat (map (fun i => map (ment m i) (seq 0 (mcols m))) (seq 0 (mrows m))).
