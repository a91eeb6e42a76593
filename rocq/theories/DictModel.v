(* DictModel.v - dictionaries that cross the boundary to Python. A dict is the list of its items in the order of insertion, with
   different keys. Simplified: reference counting is not modelled; the character pointers taken from the keys stay valid because the
   dictionary keeps its keys alive. *)
From Coq Require Import ZArith List Bool Ascii.
From Verif Require Import Base Loops CsvModel NumpyModel PathModel.
Import ListNotations.
Local Open Scope nat_scope.

(* d[k] = v: replaces the value of a key that is there, else adds an item at the end *)
Fixpoint dict_set {V} (d : list (Z * V)) (k : Z) (v : V) : list (Z * V) :=
  match d with [] => [(k, v)] | (k', v') :: t => if (k =? k')%Z then (k', v) :: t else (k', v') :: dict_set t k v end.
(* the loop over vec: bcList.append(n) *)
Definition bc_list (vec : list Z) : list Z := fold_left (fun l n => l ++ [n]) vec [].
(* DGContext2D::bcmap_numpy and GaussFaceContext2D::bcMap_numpy: src/DGContext2D.cpp:178-193, src/GaussFaceContext2D.cpp:95-110.
   h is the unordered_map as the list of its entries in the order the iteration meets them. *)
Definition bcmap_numpy (h : list (Z * list Z)) : list (Z * list Z) := fold_left (fun d t => dict_set d (fst t) (bc_list (snd t))) h [].

(* what a Python program may have put into the dictionary of fields; a string is the list of its bytes in UTF-8 *)
Inductive pykey := KStr (s : str) | KOther.
Inductive pyval (B : Type) := VArray (a : ndarray B) | VOther.
Arguments VArray {B}. Arguments VOther {B}.

(* std::string made from a character pointer: up to the first zero byte *)
Fixpoint c_string (s : str) : str := match s with [] => [] | ch :: t => if Ascii.eqb ch zero then [] else ch :: c_string t end.
(* the vectors fieldNames and fieldArrays: src/VtkOutputter.cpp:83-87. An item of another type makes the conversion throw. *)
Fixpoint field_names (keys : list pykey) : outcome (list str) :=
  match keys with
  | [] => Ok []
  | KStr s :: t => bind (field_names t) (fun l => Ok (s :: l))
  | KOther :: _ => Throw
  end.
Fixpoint field_arrays {B} (vals : list (pyval B)) : outcome (list (ndarray B)) :=
  match vals with
  | [] => Ok []
  | VArray a :: t => bind (field_arrays t) (fun l => Ok (a :: l))
  | VOther :: _ => Throw
  end.

Section Write.
Context {B T : Type} (c : ctype B T) (zero : T).
Variable ext : str.
Variable render : str -> mat T -> str.
Variable writable : str -> bool.
(* the loop: src/VtkOutputter.cpp:89-98, with writeFieldToFile_numpy (68-79) inside. The file name passes through a Python string; it
   holds no zero byte, so nothing is lost there. The result is the disk and how the call ended. *)
Fixpoint write_loop (names : list str) (arrays : list (ndarray B)) (count : nat) (tstep : Z) (dk : disk) : disk * outcome unit :=
  match names with
  | [] => (dk, Ok tt)
  | f :: t =>
    let fieldName := c_string f in
    let fileName := generateFileName ext fieldName tstep in
    match nth_error arrays count with                      (* fieldArrays.at(count) *)
    | None => (dk, Throw)
    | Some a =>
      match matrix_argument c zero a with
      | Ok m => write_loop t arrays (S count) tstep (write1 writable dk fileName (render fieldName m))
      | Throw => (dk, Throw)
      | UB => (dk, UB)
      end
    end
  end.
(* VtkOutputter::writeFieldsToFiles_numpy: src/VtkOutputter.cpp:81-99 *)
Definition writeFieldsToFiles_numpy (fields : list (pykey * pyval B)) (tstep : Z) (dk : disk) : disk * outcome unit :=
  match bind (field_names (map fst fields)) (fun names => bind (field_arrays (map snd fields)) (fun arrays => Ok (names, arrays))) with
  | Ok (names, arrays) => write_loop names arrays 0 tstep dk
  | Throw => (dk, Throw)
  | UB => (dk, UB)
  end.
End Write.
