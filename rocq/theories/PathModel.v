(* PathModel.v - src/PathResolver.cpp and the file names of src/CsvOutputter.cpp and
   src/VtkOutputter.cpp. Strings are lists of bytes, as in CsvModel.v. *)
From Coq Require Import ZArith List Lia Bool Ascii.
From Verif Require Import Base CsvModel.
Import ListNotations.
Local Open Scope Z_scope.

(* std::string::back() and front(): undefined on an empty string. *)
Definition back (s : str) : outcome ascii :=
  match rev s with [] => UB | c :: _ => Ok c end.
Definition front (s : str) : outcome ascii :=
  match s with [] => UB | c :: _ => Ok c end.

(* && with its short circuit. *)
Definition and_then (a : outcome bool) (b : outcome bool) : outcome bool :=
  bind a (fun x => if x then b else Ok false).

Definition is_char (d : ascii) (o : outcome ascii) : outcome bool := bind o (fun c => Ok (Ascii.eqb c d)).
Definition isnt_char (d : ascii) (o : outcome ascii) : outcome bool := bind o (fun c => Ok (negb (Ascii.eqb c d))).

(* PathResolver::joinPaths with PathDelimiter = d. src/PathResolver.cpp:52-61 *)
Definition joinPaths (d : ascii) (path1 path2 : str) : outcome str :=
  bind (and_then (is_char d (back path1)) (is_char d (front path2))) (fun both =>
  bind (if both then Ok (removelast path1)
        else bind (and_then (isnt_char d (back path1)) (isnt_char d (front path2))) (fun none =>
             Ok (if none then path1 ++ [d] else path1))) (fun path1 =>
  Ok (path1 ++ path2))).

(* boost::algorithm::trim_right. *)
Definition trim_right (s : str) : str := rev (drop_space (rev s)).

(* Does s start with pat? *)
Fixpoint starts_with (pat s : str) : bool :=
  match pat, s with
  | [], _ => true
  | c :: pat', x :: s' => Ascii.eqb c x && starts_with pat' s'
  | _, [] => false
  end.

(* boost::algorithm::replace_last(s, pat, ""): cuts out the last occurrence of pat, if any. The
   search runs from the right end: an occurrence further right wins. *)
Fixpoint erase_last (pat s : str) : option str :=
  match s with
  | [] => if starts_with pat [] then Some [] else None
  | c :: s' => match erase_last pat s' with
               | Some r => Some (c :: r)
               | None => if starts_with pat s then Some (skipn (List.length pat) s) else None
               end
  end.
Definition replace_last_nothing (s pat : str) : str :=
  match erase_last pat s with Some r => r | None => s end.

Definition slash : ascii := "/"%char.
Definition backslash : ascii := "092"%char.

(* PathResolver's constructor and resolveDelimiter, for the executable path exe reported by
   wai_getExecutablePath (at most 1024 characters, not modelled): (ExePath, PathDelimiter).
   src/PathResolver.cpp:19-41 *)
Definition newPathResolver (exe : str) : str * ascii :=
  let ExePath := trim_right exe in
  (ExePath, if existsb (Ascii.eqb backslash) ExePath then backslash else slash).

Definition dot_exe : str := ["."; "e"; "x"; "e"]%char.
Definition bin_test (d : ascii) : str := [d; "b"; "i"; "n"; d; "t"; "e"; "s"; "t"]%char.

(* PathResolver::get_RootPath. src/PathResolver.cpp:43-50 *)
Definition get_RootPath (p : str * ascii) : str :=
  let '(ExePath, d) := p in
  let path := replace_last_nothing ExePath dot_exe in
  replace_last_nothing path (bin_test d).

(* ostream << int in decimal: the digits of n >= 0, least significant first while looping. The
   fuel of print_nonneg always suffices (PathProofs.print_value). *)
Definition digit (n : Z) : ascii := ascii_of_nat (48 + Z.to_nat n).
Fixpoint print_loop (fuel : nat) (n : Z) (acc : str) : str :=
  let acc := digit (n mod 10) :: acc in
  match fuel with
  | O => acc
  | S fuel => if n <? 10 then acc else print_loop fuel (n / 10) acc
  end.
Definition print_nonneg (n : Z) : str := print_loop (Z.to_nat (Z.log2 n)) n [].
Definition print_int (n : Z) : str := if n <? 0 then "-"%char :: print_nonneg (- n) else print_nonneg n.

(* setfill('0') << setw(7): right adjusted (the stream's default), never cut. *)
Definition setw7 (s : str) : str := repeat "0"%char (7 - List.length s) ++ s.

(* CsvOutputter::generateFileName (ext = "dat", src/CsvOutputter.cpp:46-50) and
   VtkOutputter::generateFileName (ext = FileExtension, src/VtkOutputter.cpp:52-56). *)
Definition generateFileName (ext fieldName : str) (fileNumber : Z) : str :=
  fieldName ++ setw7 (print_int fileNumber) ++ "."%char :: ext.

(* The directory the program writes to: name -> contents. Names are compared as byte strings, so
   two spellings of one path ("a/../u", "u") count as two files. *)
Definition disk := str -> option str.
Definition store (dk : disk) (name text : str) : disk :=
  fun n => if list_eq_dec ascii_dec n name then Some text else dk n.

(* One writeFieldToFile: ofstream::open may fail (writable name = false); neither outputter
   checks, and nothing is written then. *)
Definition write1 (writable : str -> bool) (dk : disk) (name text : str) : disk :=
  if writable name then store dk name text else dk.

(* writeFieldsToFiles: the entries of the std::map (a list with distinct keys in key order), each
   written by writeFieldToFile; render is the text it produces for a field.
   src/CsvOutputter.cpp:52-61, src/VtkOutputter.cpp:58-65 *)
Definition writeFieldsToFiles {F} (ext : str) (render : str -> F -> str) (writable : str -> bool)
    (fields : list (str * F)) (tstep : Z) (dk : disk) : disk :=
  fold_left (fun dk kv => write1 writable dk (generateFileName ext (fst kv) tstep) (render (fst kv) (snd kv)))
    fields dk.

(* A run of a driver: one writeFieldsToFiles per output step. *)
Definition write_run {F} ext (render : str -> F -> str) writable (steps : list (list (str * F) * Z)) (dk : disk) : disk :=
  fold_left (fun dk st => writeFieldsToFiles ext render writable (fst st) (snd st) dk) steps dk.
