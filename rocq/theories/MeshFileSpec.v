(* MeshFileSpec.v - what a gmsh 2.x ASCII file says, and the mesh expected from it. *)
From Coq Require Import ZArith List Ascii.
From Verif Require Import Base Loops CsvModel CsvSpec MeshSpec.
Import ListNotations.
Local Open Scope nat_scope.

Definition sep : str := ["009"; " "]%char.      (* fields are separated by tabs and blanks *)

Section File.
Variable R : Type.
Variable stoi : str -> option (Z * nat).
Variable stod stof : str -> option (R * nat).
Variable vers_ok : R -> bool.

(* A field that is entirely a number of the type. *)
Definition is_int (s : str) (z : Z) : Prop := stoi s = Some (z, length s).
Definition is_real (s : str) (x : R) : Prop := stod s = Some (x, length s).
Definition is_float (s : str) (x : R) : Prop := stof s = Some (x, length s).

(* The line is not blank and its fields are fs. *)
Definition line_fields (l : str) (fs : list str) : Prop :=
  ~ blank l /\ exists t, trimmed l t /\ fields sep t fs.

Definition node_line (l : str) (n : Z * (R * R * R)) : Prop :=
  exists a b c d, line_fields l [a; b; c; d] /\
    is_int a (fst n) /\ is_real b (fst (fst (snd n))) /\ is_real c (snd (fst (snd n))) /\ is_real d (snd (snd n)).

(* An element: number, type, tags, vertex numbers (counted from 1). *)
Record element := mkel { e_num : Z; e_type : Z; e_tags : list Z; e_verts : list Z }.
Definition integers (e : element) : list Z :=
  e_num e :: e_type e :: Z.of_nat (length (e_tags e)) :: e_tags e ++ e_verts e.
(* The line, taken as it is, splits into the element's integers. *)
Definition element_line (l : str) (e : element) : Prop :=
  exists fs, fields sep l fs /\ Forall2 (fun s z => exists n, stoi s = Some (z, n)) fs (integers e).

(* Points, segments, triangles and quadrilaterals carry gmsh's type numbers; larger elements are
   of any type. *)
Definition typed (e : element) : Prop :=
  match length (e_verts e) with
  | 0 => False
  | 1 => e_type e = 15%Z
  | 2 => e_type e = 1%Z
  | 3 => e_type e = 2%Z
  | 4 => e_type e = 3%Z
  | _ => True
  end.

Definition ch (l : list nat) : str := map ascii_of_nat l.
Definition h_format : str := ch [36; 77; 101; 115; 104; 70; 111; 114; 109; 97; 116].   (* $MeshFormat *)
Definition h_nodes : str := ch [36; 78; 111; 100; 101; 115].                            (* $Nodes *)
Definition h_elements : str := ch [36; 69; 108; 101; 109; 101; 110; 116; 115].          (* $Elements *)

(* t is the text of a gmsh file with these nodes and elements. *)
Definition gmsh_file (t : str) (nodes : list (Z * (R * R * R))) (els : list element) : Prop :=
  exists fmt end1 ncount nlines end2 ecount elines rest v v' f f' g g' a a' b b',
  lines_of t ([h_format; fmt; end1; h_nodes; ncount] ++ nlines ++ [end2; h_elements; ecount] ++ elines ++ rest) /\
  line_fields fmt [v'; f'; g'] /\ is_float v' v /\ is_int f' f /\ is_int g' g /\
  vers_ok v = true /\ f = 0%Z /\ g = 8%Z /\
  line_fields ncount [a'] /\ is_int a' a /\ a = Z.of_nat (length nodes) /\
  Forall2 node_line nlines nodes /\
  line_fields ecount [b'] /\ is_int b' b /\ b = Z.of_nat (length els) /\
  Forall2 element_line elines els /\ Forall typed els.

Definition sized (n : nat) (els : list element) : list element :=
  filter (fun e => length (e_verts e) =? n) els.

(* The elements that make up the mesh: the quadrilaterals if there are any, else the triangles. *)
Definition mesh_elements (els : list element) : nat * list element :=
  match sized 4 els with [] => (3, sized 3 els) | q => (4, q) end.

(* The elements' vertices, counted from 0. *)
Definition vertex_table (es : list element) : list Z := flat_map (fun e => map (fun v => (v - 1)%Z) (e_verts e)) es.

(* The nodes are numbered 1..n, in any order. *)
Definition numbered (nodes : list (Z * (R * R * R))) : Prop :=
  NoDup (map fst nodes) /\ forall n, In n (map fst nodes) -> (1 <= n <= Z.of_nat (length nodes))%Z.

(* The vertex table holds the three coordinates of every node at its number. *)
Definition holds_nodes (V : list R) (nodes : list (Z * (R * R * R))) : Prop :=
  length V = 3 * length nodes /\
  forall n x y z, In (n, (x, y, z)) nodes ->
    nth_error V (Z.to_nat (n - 1) * 3) = Some x /\ nth_error V (Z.to_nat (n - 1) * 3 + 1) = Some y /\
    nth_error V (Z.to_nat (n - 1) * 3 + 2) = Some z.
End File.
Arguments gmsh_file {R}. Arguments numbered {R}. Arguments holds_nodes {R}.
Arguments node_line {R}. Arguments is_real {R}. Arguments is_float {R}.

(* Element k is listed in E' as in E, or with its second and third vertex swapped. *)
Definition as_listed (NF : nat) (E E' : list Z) (k : nat) : Prop :=
  forall i, i < NF -> nth_error E' (k * NF + i) = nth_error E (k * NF + i).
Definition swapped (NF : nat) (E E' : list Z) (k : nat) : Prop :=
  nth_error E' (k * NF) = nth_error E (k * NF) /\
  nth_error E' (k * NF + 1) = nth_error E (k * NF + 2) /\ nth_error E' (k * NF + 2) = nth_error E (k * NF + 1) /\
  forall i, 3 <= i < NF -> nth_error E' (k * NF + i) = nth_error E (k * NF + i).

(* The mid point of face v1 v2 is on the (infinite) line through the segment listed in row e, whose tag is t. *)
Definition on_line {R} (r_sub r_mul r_add : R -> R -> R) (half : R) (small : R -> bool)
    (V : list R) (e : list Z) (v1 v2 t : Z) : Prop :=
  exists a b t0 x1 y1 x2 y2 ux uy wx wy,
  nth_error e 5 = Some a /\ nth_error e 6 = Some b /\ nth_error e 3 = Some t0 /\
  vertex_at 3 V (a - 1) x1 y1 /\ vertex_at 3 V (b - 1) x2 y2 /\ vertex_at 3 V v1 ux uy /\ vertex_at 3 V v2 wx wy /\
  let mx := r_mul half (r_add ux wx) in let my := r_mul half (r_add uy wy) in
  small (r_sub (r_mul (r_sub y2 my) (r_sub x2 x1)) (r_mul (r_sub y2 y1) (r_sub x2 mx))) = true /\
  t = (if (t0 =? 0)%Z then 3 else t0)%Z.
(* A listed segment whose vertices exist. *)
Definition segment_row {R} (V : list R) (e : list Z) : Prop :=
  exists a b t x1 y1 x2 y2, nth_error e 5 = Some a /\ nth_error e 6 = Some b /\ nth_error e 3 = Some t /\
  vertex_at 3 V (a - 1) x1 y1 /\ vertex_at 3 V (b - 1) x2 y2.
