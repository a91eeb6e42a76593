(* CsvModel.v - include/CSVFileReader.hpp, src/CSVFileReader.cpp and src/CsvOutputter.cpp.
   Characters are bytes (Ascii), strings and file contents are lists of them. Low-level stream
   errors (badbit) are not modelled: a read either succeeds or reaches the end of the file.
   Line and row counters are unbounded (the code counts in int). *)
From Coq Require Import ZArith List Lia Bool Ascii.
From Verif Require Import Base Loops.
Import ListNotations.
Local Open Scope Z_scope.

Notation str := (list ascii).
Definition NL : ascii := "010"%char.

(* std::isspace in the classic locale, as used by boost::algorithm::trim. *)
Definition is_space (c : ascii) : bool :=
  let n := nat_of_ascii c in (n =? 32)%nat || ((9 <=? n)%nat && (n <=? 13)%nat).

(* std::ifstream strm_ after an open: the file's text (None when the open failed), the characters
   not yet extracted, eofbit and failbit. *)
Record stream := mkstream { sfile : option str; srest : str; seof : bool; sfail : bool }.

(* ifstream::open(filename): a failed open sets failbit. *)
Definition open_stream (f : option str) : stream :=
  match f with
  | Some t => mkstream f t false false
  | None => mkstream None [] false true
  end.

(* clear() followed by seekg(0, beg); seekg on a stream with no file sets failbit. *)
Definition rewind (s : stream) : stream :=
  match sfile s with
  | Some t => mkstream (sfile s) t false false
  | None => mkstream None [] false true
  end.

(* The characters before the first newline, and what follows it if there is one. *)
Fixpoint upto_nl (s : str) : str * option str :=
  match s with
  | [] => ([], None)
  | c :: s' => if Ascii.eqb c NL then ([], Some s')
               else let (l, r) := upto_nl s' in (c :: l, r)
  end.

(* std::getline(strm_, line): nothing is extracted once eofbit or failbit is set; reaching the end
   of the file sets eofbit, and failbit too when no character was extracted.
   Returns the line when the stream is still good for the caller's test. *)
Definition getline (s : stream) : option str * stream :=
  if seof s || sfail s then (None, mkstream (sfile s) (srest s) (seof s) true)
  else match upto_nl (srest s) with
       | (l, Some r) => (Some l, mkstream (sfile s) r false false)
       | ([], None) => (None, mkstream (sfile s) [] true true)
       | (l, None) => (Some l, mkstream (sfile s) [] true false)
       end.

(* CSVFileReader's fields. include/CSVFileReader.hpp:286-292 *)
Record reader := mkreader { strm : stream; delims : str; lineno : Z; nskip : Z; ncols : Z }.

Definition with_strm (r : reader) (s : stream) (n : Z) : reader :=
  mkreader s (delims r) n (nskip r) (ncols r).
Definition with_cols (r : reader) (n : Z) : reader :=
  mkreader (strm r) (delims r) (lineno r) (nskip r) n.

(* readLine: src/CSVFileReader.cpp:65-71 *)
Definition readLine (r : reader) : option str * reader :=
  match getline (strm r) with
  | (Some l, s) => (Some l, with_strm r s (lineno r + 1))
  | (None, s) => (None, with_strm r s (lineno r))
  end.

(* skipLines: include/CSVFileReader.hpp:244-251. n is the remaining count. *)
Fixpoint skip_loop (n : nat) (r : reader) : reader :=
  match n with
  | O => r
  | S n' => match readLine r with
            | (Some _, r') => skip_loop n' r'
            | (None, r') => r'
            end
  end.
Definition skipLines (n : Z) (r : reader) : bool * reader :=
  let r' := if 0 <? n then skip_loop (Z.to_nat n) r else r in
  (negb (sfail (strm r')), r').

(* setToStart: include/CSVFileReader.hpp:229-234 *)
Definition setToStart (r : reader) : reader :=
  snd (skipLines (nskip r) (with_strm r (rewind (strm r)) 0)).

(* boost::algorithm::trim: drops white space at both ends. *)
Fixpoint drop_space (s : str) : str :=
  match s with
  | c :: s' => if is_space c then drop_space s' else s
  | [] => []
  end.
Definition trim (s : str) : str := rev (drop_space (rev (drop_space s))).

(* getNonemptyLine: include/CSVFileReader.hpp:324-331. Every successful readLine extracts at least
   one character, so the loop is given that many iterations plus one; running out of them would be
   reported as UB (the theorems show it never happens). *)
Fixpoint nonempty_loop (fuel : nat) (r : reader) : outcome (option str * reader) :=
  match fuel with
  | O => UB
  | S f => match readLine r with
           | (None, r') => Ok (None, r')
           | (Some l, r') => match trim l with
                             | [] => nonempty_loop f r'
                             | t => Ok (Some t, r')
                             end
           end
  end.
Definition getNonemptyLine (r : reader) : outcome (option str * reader) :=
  nonempty_loop (S (length (srest (strm r)))) r.

(* checkDelimiters: include/CSVFileReader.hpp:336-340 *)
Definition delim_char (c : ascii) : bool :=
  existsb (Ascii.eqb c) [" "; "009"; ","; ";"; "^"; "|"]%char.
Definition checkDelimiters (d : str) : bool :=
  match d with [] => false | _ => forallb delim_char d end.

(* tokenizeLine: include/CSVFileReader.hpp:298-303, boost::algorithm::split with is_any_of(delims)
   and token_compress_on: a token ends at a delimiter, a run of delimiters counts once, a leading or
   trailing run yields an empty first or last token. cur is the current token reversed, inrun tells
   that the previous character was a delimiter. *)
Definition is_any_of (d : str) (c : ascii) : bool := existsb (Ascii.eqb c) d.
Fixpoint split_loop (d : str) (s : str) (cur : str) (inrun : bool) : list str :=
  match s with
  | [] => [rev cur]
  | c :: s' =>
      if is_any_of d c then
        if inrun then split_loop d s' cur true else rev cur :: split_loop d s' [] true
      else split_loop d s' (c :: cur) false
  end.
Definition tokenizeLine (d : str) (line : str) : list str := split_loop d line [] false.

(* countCols: src/CSVFileReader.cpp:12-21 *)
Definition countCols (r : reader) : outcome reader :=
  bind (getNonemptyLine (with_cols r 0)) (fun '(l, r1) =>
  let r2 := match l with
            | Some t => with_cols r1 (Z.of_nat (length (tokenizeLine (delims r) t)))
            | None => r1
            end in
  Ok (setToStart r2)).

(* getNumRows: src/CSVFileReader.cpp:23-29. Each iteration extracts at least one character. *)
Fixpoint rows_loop (fuel : nat) (n : Z) (r : reader) : outcome (Z * reader) :=
  match fuel with
  | O => UB
  | S f => bind (getNonemptyLine r) (fun '(l, r') =>
           match l with
           | Some _ => rows_loop f (n + 1) r'
           | None => Ok (n, r')
           end)
  end.
Definition getNumRows (r : reader) : outcome (Z * reader) :=
  rows_loop (S (length (srest (strm r)))) 0 r.

(* What a call reports to its caller: a value, or an exception; either way the reader afterwards. *)
Inductive result (A : Type) := Ret (a : A) | Exn.
Arguments Ret {A} a. Arguments Exn {A}.

(* openFile: src/CSVFileReader.cpp:44-59; the constructor (31-42) does the same to a fresh object.
   f is the text found under the file name, None if it cannot be opened. *)
Definition openFile (f : option str) (n : Z) (d : str) : outcome (result unit * reader) :=
  let r := mkreader (open_stream f) d 0 n (-1) in
  if negb (checkDelimiters d) then Ok (Exn, r)
  else match f with
       | None => Ok (Exn, r)
       | Some _ =>
           let (ok, r1) := skipLines n r in
           if ok then bind (countCols r1) (fun r2 => Ok (Ret tt, r2))
           else Ok (Exn, r1)
       end.

Section Values.
(* The values stored by the caller (numbers, characters, strings). *)
Variable V : Type.

(* details::StrCast<T>: include/CSVFileReader.hpp:31-153.
   KNum sto: the sto* specialisations; sto s is the converted value and the number of characters
     used, None when sto* throws; the whole text has to be used.
   KString, KChar: the std::string and char specialisations.
   KStream ext: the primary template, operator>> on a string stream; ext s is None when extraction
     fails, and unused characters are not looked at. *)
Inductive kind :=
| KNum (sto : str -> option (V * nat))
| KString (inj : str -> V)
| KChar (inj : ascii -> V)
| KStream (ext : str -> option V).
Definition strCast (k : kind) (s : str) : option V :=
  match k with
  | KNum sto => match sto s with
                | Some (v, n) => if (n =? length s)%nat then Some v else None
                | None => None
                end
  | KString inj => Some (inj s)
  | KChar inj => match s with [c] => Some (inj c) | _ => None end
  | KStream ext => ext s
  end.

(* The loops that convert and store the tokens one by one, parseRowIterator 387-390 (the same type
   for every token) and parseRowRec 358-370 (one type per argument). Returns the values stored and
   whether a conversion threw. *)
Fixpoint store_loop (ks : list kind) (toks : list str) (out : list V) : list V * bool :=
  match ks, toks with
  | k :: ks', s :: toks' =>
      match strCast k s with
      | Some v => store_loop ks' toks' (out ++ [v])
      | None => (out, false)
      end
  | _, _ => (out, true)
  end.

(* static_cast<size_t>(ncols_) *)
Definition size_t (z : Z) : Z := z mod 2 ^ 64.

(* The part shared by parseRowIterator and parseRowValues: read a row, tokenise, check the number
   of fields, store. The result pairs the values stored with what the call reported. *)
Definition parse_row (ks : list str -> list kind) (r : reader)
  : outcome ((list V * result bool) * reader) :=
  bind (getNonemptyLine r) (fun '(l, r') =>
  match l with
  | None => Ok (([], Ret (negb (sfail (strm r')))), r')
  | Some t =>
      let toks := tokenizeLine (delims r') t in
      if Z.of_nat (length toks) =? size_t (ncols r') then
        let (vals, ok) := store_loop (ks toks) toks [] in
        Ok ((vals, if ok then Ret (negb (sfail (strm r'))) else Exn), r')
      else Ok (([], Exn), r')
  end).

(* parseRowIterator: include/CSVFileReader.hpp:375-393 *)
Definition parseRowIterator (k : kind) (r : reader) : outcome ((list V * result bool) * reader) :=
  parse_row (map (fun _ => k)) r.

(* parseRowValues: include/CSVFileReader.hpp:395-410; ks holds the types of the arguments. *)
Definition parseRowValues (ks : list kind) (r : reader) : outcome ((list V * result bool) * reader) :=
  if Z.of_nat (length ks) =? size_t (ncols r) then parse_row (fun _ => ks) r
  else Ok (([], Exn), r).

(* csvread, matrix version: include/CSVFileReader.hpp:421-434. Each iteration of the while loop
   extracts at least one character. The result is the shape and the row-major contents; the copy
   into the matrix overruns it when there are more values than elements. *)
Fixpoint read_loop (fuel : nat) (k : kind) (r : reader) (nrows : nat) (data : list V)
  : outcome (result (nat * list V) * reader) :=
  match fuel with
  | O => UB
  | S f => bind (parseRowIterator k r) (fun '((vals, res), r') =>
           match res with
           | Exn => Ok (Exn, r')
           | Ret true => read_loop f k r' (S nrows) (data ++ vals)
           | Ret false => Ok (Ret (nrows, data ++ vals), r')
           end)
  end.
Definition csvread (k : kind) (f : option str) (n : Z) (d : str)
  : outcome (result (nat * Z * list V)) :=
  bind (openFile f n d) (fun '(res, r) =>
  match res with
  | Exn => Ok Exn
  | Ret _ =>
      bind (read_loop (S (length (srest (strm r)))) k r 0 []) (fun '(res, r') =>
      match res with
      | Exn => Ok Exn
      | Ret (nrows, data) =>
          if Z.of_nat (length data) =? Z.of_nat nrows * ncols r'
          then Ok (Ret (nrows, ncols r', data)) else UB
      end)
  end).

(* CsvOutputter::writeFieldToFile: src/CsvOutputter.cpp:28-40. fmt is operator<< on a double,
   endl writes a newline. *)
Variable fmt : V -> str.
Definition writeFieldToFile (field : mat V) (delim : ascii) : str :=
  concat (map (fun i =>
    concat (map (fun k => fmt (ment field i k) ++ [delim]) (seq 0 (mcols field))) ++ [NL])
    (seq 0 (mrows field))).
End Values.
Arguments KNum {V}. Arguments KString {V}. Arguments KChar {V}. Arguments KStream {V}.
Arguments strCast {V}. Arguments store_loop {V}. Arguments parse_row {V}.
Arguments parseRowIterator {V}. Arguments parseRowValues {V}. Arguments read_loop {V}.
Arguments csvread {V}. Arguments writeFieldToFile {V}.

(* A client's calls on one reader object, in any order. A call that throws leaves the object usable. *)
Inductive call (V : Type) :=
| COpen (f : option str) (n : Z) (d : str)
| CReadLine
| CSkip (n : Z)
| CReset
| CNumRows
| CSetCols (n : Z)
| CParseItr (k : kind V)
| CParseVals (ks : list (kind V)).
Arguments COpen {V}. Arguments CReadLine {V}. Arguments CSkip {V}. Arguments CReset {V}.
Arguments CNumRows {V}. Arguments CSetCols {V}. Arguments CParseItr {V}. Arguments CParseVals {V}.

Inductive answer (V : Type) :=
| ADone                                   (* returned, no value *)
| ALine (l : option str)                  (* readLine: the line, None when it returned false *)
| ABool (b : bool)
| ANum (n : Z)
| ARow (b : bool) (vals : list V)         (* parse call: its return value and the values stored *)
| AThrow (vals : list V).                 (* the call threw after storing vals *)
Arguments ADone {V}. Arguments ALine {V}. Arguments ABool {V}. Arguments ANum {V}.
Arguments ARow {V}. Arguments AThrow {V}.

Definition row_answer {V} (o : outcome ((list V * result bool) * reader)) : outcome (answer V * reader) :=
  bind o (fun '((vals, res), r) =>
  Ok (match res with Ret b => ARow b vals | Exn => AThrow vals end, r)).

Definition call_step {V} (c : call V) (r : reader) : outcome (answer V * reader) :=
  match c with
  | COpen f n d => bind (openFile f n d) (fun '(res, r') =>
                   Ok (match res with Ret _ => ADone | Exn => AThrow [] end, r'))
  | CReadLine => let (l, r') := readLine r in Ok (ALine l, r')
  | CSkip n => let (b, r') := skipLines n r in Ok (ABool b, r')
  | CReset => Ok (ADone, setToStart r)
  | CNumRows => bind (getNumRows r) (fun '(n, r') => Ok (ANum n, r'))
  | CSetCols n => Ok (ADone, with_cols r n)
  | CParseItr k => row_answer (parseRowIterator k r)
  | CParseVals ks => row_answer (parseRowValues ks r)
  end.

(* After every call: the answer, getLineNum() and getNumCols(). *)
Fixpoint run_calls {V} (cs : list (call V)) (r : reader)
  : outcome (list (answer V * Z * Z) * reader) :=
  match cs with
  | [] => Ok ([], r)
  | c :: cs' => bind (call_step c r) (fun '(a, r1) =>
                bind (run_calls cs' r1) (fun '(rs, r2) =>
                Ok ((a, lineno r1, ncols r1) :: rs, r2)))
  end.
