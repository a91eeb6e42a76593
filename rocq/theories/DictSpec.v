(* DictSpec.v - what a Python program sees of a dictionary of integers, and the dictionaries of fields it is meant to pass. *)
From Coq Require Import ZArith List Ascii.
From Verif Require Import CsvModel NumpyModel PathModel DictModel.
Import ListNotations.

(* d[k]: None is KeyError *)
Fixpoint dict_get {V} (d : list (Z * V)) (k : Z) : option V :=
  match d with [] => None | (k', v) :: t => if (k =? k')%Z then Some v else dict_get t k end.
(* the dictionary {name: array, ...} *)
Definition dict_of {B} (fs : list (str * ndarray B)) : list (pykey * pyval B) := map (fun f => (KStr (fst f), VArray (snd f))) fs.
(* a string without zero bytes *)
Definition plain (s : str) : Prop := ~ In zero s.
