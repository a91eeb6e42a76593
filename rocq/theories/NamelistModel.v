(* NamelistModel.v - the configuration file of src/ins2d/main.cpp (lines 37-98). Files and strings are lists of bytes. *)
From Coq Require Import ZArith String.
From Coq Require Import List Bool Ascii Arith.
From Verif Require Import Base Loops CsvModel.
Import ListNotations.
Local Open Scope nat_scope.

(* What successive calls of std::getline(stream, s, d) deliver until one fails: 68, 77. A call that meets the end of the
   stream before any character fails; a delimiter counts as a character. cur holds the current piece backwards. *)
Fixpoint pieces (d : ascii) (s cur : str) : list str :=
  match s with
  | [] => match cur with [] => [] | _ => [rev cur] end
  | c :: s' => if Ascii.eqb c d then rev cur :: pieces d s' [] else pieces d s' (c :: cur)
  end.

(* find_first_not_of(' ') and find_last_not_of(' '): 37-44 *)
Fixpoint drop_blank (s : str) : str :=
  match s with
  | [] => []
  | c :: s' => if Ascii.eqb c " " then drop_blank s' else s
  end.
Definition trim_blank (s : str) : str := rev (drop_blank (rev (drop_blank s))).
(* push_back of a const char*: 78. The string ends at the first NUL. *)
Fixpoint c_str (s : str) : str :=
  match s with
  | [] => []
  | c :: s' => if Ascii.eqb c "000" then [] else c :: c_str s'
  end.
(* std::toupper in the classic locale: 46-51 *)
Definition toupper (c : ascii) : ascii :=
  let n := nat_of_ascii c in if (97 <=? n) && (n <=? 122) then ascii_of_nat (n - 32) else c.
Definition str_toupper (s : str) : str := map toupper s.

(* std::unordered_map<string, string>: insert leaves a key that is there alone; operator[] of a key that is not there
   gives the empty string. *)
Definition config := list (str * str).
Definition str_eqb (a b : str) : bool := if list_eq_dec ascii_dec a b then true else false.
Definition find_key (k : str) (c : config) : option str := option_map snd (find (fun e => str_eqb (fst e) k) c).
Definition insert (k v : str) (c : config) : config := match find_key k c with Some _ => c | None => c ++ [(k, v)] end.
Definition lookup (c : config) (k : str) : str := match find_key k c with Some v => v | None => [] end.

(* one line: 69-84 *)
Definition parse_line (line : str) (c : config) : outcome config :=
  match line with
  | [] => Ok c
  | ch :: _ =>
    if Ascii.eqb ch "#" then Ok c else
    let seglist := map (fun s => c_str (trim_blank s)) (pieces "=" line []) in
    if Nat.odd (length seglist) then Throw else
    bind (getn seglist 0) (fun k => bind (getn seglist 1) (fun v => Ok (insert (str_toupper k) v c)))
  end.
Fixpoint parse_lines (ls : list str) (c : config) : outcome config :=
  match ls with
  | [] => Ok c
  | l :: ls => bind (parse_line l c) (parse_lines ls)
  end.
(* 63-87; f is the text found under the file name. A file that cannot be opened leaves the map empty. *)
Definition readNamelist (f : option str) : outcome config :=
  match f with None => Ok [] | Some text => parse_lines (pieces NL text []) [] end.

(* the parameters: 90-98, 102. stof and stoi are std::stof and std::stoi; None stands for the exceptions they throw. *)
Section Settings.
Context {T : Type} (stof : str -> option T) (stoi : str -> option Z).
Record settings := Settings { s_g : T; s_finalTime : T; s_initialTime : T; s_N : Z; s_CFL : T; s_cutoff : T; s_order : T; s_mesh : str }.
Definition key (s : string) : str := list_ascii_of_string s.
Definition conv {A : Type} (f : str -> option A) (c : config) (k : string) : outcome A :=
  match f (lookup c (key k)) with Some v => Ok v | None => Throw end.
Definition readSettings (f : option str) : outcome settings :=
  bind (readNamelist f) (fun c =>
  bind (conv stof c "GRAVITATIONALACCELERATION") (fun g =>
  bind (conv stof c "FINALTIME") (fun tf =>
  bind (conv stof c "INITIALTIME") (fun t =>
  bind (conv stoi c "POLYNOMIALORDER") (fun N =>
  bind (conv stof c "CFL") (fun cfl =>
  bind (conv stof c "FILTERCUTOFF") (fun fc =>
  bind (conv stof c "FILTERORDER") (fun fo =>
  Ok (Settings g tf t N cfl fc fo (lookup c (key "MESHFILE"))))))))))).
End Settings.
Arguments settings : clear implicits.
