(* Maps2DModel.v - the trace maps, boundary maps and gather/scatter tables of the 2D provisioners.
   buildMaps and buildBCHash are the same text in src/TriangleNodesProvisioner.cpp (895-1057, NF = 3) and in
   src/QuadNodesProvisioner.cpp (450-612, NF = 4). Index tables (int in the code) hold naturals here; products of
   sizes are not checked against the int range. Boundary tags are integers. *)
From Coq Require Import ZArith List Bool.
From Verif Require Import Base Loops Num BlitzModel.
Import ListNotations.
Local Open Scope nat_scope.

(* index_tensor3_type (include/Types.hpp): three extents and the entries. *)
Record ten (T : Type) := mkten { t1 : nat; t2 : nat; t3 : nat; tent : nat -> nat -> nat -> T }.
Arguments mkten {T}. Arguments t1 {T}. Arguments t2 {T}. Arguments t3 {T}. Arguments tent {T}.
Definition tin {T} (t : ten T) (i j k : nat) : bool := (i <? t1 t) && (j <? t2 t) && (k <? t3 t).
Definition tget {T} (t : ten T) (i j k : nat) : outcome T := if tin t i j k then Ok (tent t i j k) else UB.
Definition tset {T} (t : ten T) (i j k : nat) (v : T) : outcome (ten T) :=
  if tin t i j k
  then Ok (mkten (t1 t) (t2 t) (t3 t)
             (fun a b c => if (a =? i) && (b =? j) && (c =? k) then v else tent t a b c))
  else UB.

(* index_hashmap = unordered_map<int, vector<int>> (include/Types.hpp), observed through find only: the entries with
   their keys. *)
Definition hmap := list (Z * list nat).
Fixpoint hfind (m : hmap) (t : Z) : option (list nat) :=
  match m with [] => None | (u, l) :: m' => if Z.eqb u t then Some l else hfind m' t end.
Definition hinsert (m : hmap) (t : Z) (l : list nat) : hmap := match hfind m t with None => m ++ [(t, l)] | Some _ => m end.
Definition hpush (m : hmap) (t : Z) (i : nat) : hmap :=       (* search->second.push_back(i) *)
  map (fun e => if Z.eqb (fst e) t then (fst e, snd e ++ [i]) else e) m.

Section Maps.
Context {T : Type}.
Variable A : arith T.
Variable hypot : T -> T -> T.                                 (* std::hypot *)
Variable sort : (nat -> nat -> bool) -> list nat -> list nat.  (* std::sort, used by uniquetol *)
Variable junk : nat -> T.                                     (* uninitialised real arrays *)
Variable junkn : nat -> nat.                                  (* uninitialised index arrays *)
Variable tol : T.                                             (* NodeTol = 1.e-5: src/TriangleNodesProvisioner.cpp:36,
                                                                 src/QuadNodesProvisioner.cpp:33 *)
Variables (NF Nfp Np K : nat).                                (* NumFaces, NumFacePoints, NumLocalPoints, NumElements *)

(* include/LinAlgHelpers.hpp:103-105 *)
Definition distanceLessThanEps (x1 y1 x2 y2 eps : T) : bool :=
  flt A (hypot (fsub A x2 x1) (fsub A y2 y1)) eps.

(* vmapM3: src/TriangleNodesProvisioner.cpp:900, 922-936. nodeIds(i,k) = i + Np*k, Fm the face node table. *)
Definition build_vmapM3 (Fm : mat nat) : outcome (ten nat) :=
  let nodeIds := mkmat Np K (fun i k => i + Np * k) in
  for_ K (fun k => for_ NF (fun f => for_ Nfp (fun n M =>
    bind (mget Fm n f) (fun i => bind (mget nodeIds i k) (fun id => tset M n f k id)))))
  (mkten Nfp NF K (fun _ _ _ => 0)).

(* The reference length of face f of element k: src/TriangleNodesProvisioner.cpp:945-954. *)
Definition face_length (E2V : list nat) (Vert : list T) (f k : nat) : outcome T :=
  bind (getn E2V (k * NF + f)) (fun v1 =>
  bind (getn E2V (k * NF + (f + 1) mod NF)) (fun v2 =>
  bind (getn Vert (3 * v1)) (fun vx1 => bind (getn Vert (3 * v1 + 1)) (fun vy1 =>
  bind (getn Vert (3 * v2)) (fun vx2 => bind (getn Vert (3 * v2 + 1)) (fun vy2 =>
  Ok (hypot (fsub A vx1 vx2) (fsub A vy1 vy2)))))))).

(* The search for the partner of node n of face f of element k: src/TriangleNodesProvisioner.cpp:942-968.
   P is the pair (vmapP3, mapP3). *)
Definition match_node (E2E E2F E2V : list nat) (Vert x y : list T) (M : ten nat) (n f k : nat)
  (P : ten nat * ten nat) : outcome (ten nat * ten nat) :=
  bind (getn E2E (NF * k + f)) (fun k2 =>
  bind (getn E2F (NF * k + f)) (fun f2 =>
  bind (face_length E2V Vert f k) (fun refd =>
  bind (tget M n f k) (fun vidM =>
  bind (getn x vidM) (fun x1 => bind (getn y vidM) (fun y1 =>
  for_ Nfp (fun nP (P : ten nat * ten nat) =>
    bind (tget M nP f2 k2) (fun vidP =>
    bind (getn x vidP) (fun x2 => bind (getn y vidP) (fun y2 =>
    if distanceLessThanEps x1 y1 x2 y2 (fmul A refd tol)
    then bind (tset (fst P) n f k vidP) (fun P1 =>
         bind (tset (snd P) n f k (nP + f2 * Nfp + k2 * NF * Nfp)) (fun P2 => Ok (P1, P2)))
    else Ok P)))) P)))))).

(* src/TriangleNodesProvisioner.cpp:928, 938-971 *)
Definition build_vmapP3 (E2E E2F E2V : list nat) (Vert x y : list T) (M : ten nat) : outcome (ten nat * ten nat) :=
  for_ Nfp (fun n => for_ NF (fun f => for_ K (fun k P => match_node E2E E2F E2V Vert x y M n f k P)))
  (mkten Nfp NF K (fun _ _ _ => 0), mkten Nfp NF K (fun _ _ _ => 0)).

(* src/TriangleNodesProvisioner.cpp:973-984: one pass over all face nodes, element by element. The arrays were
   allocated with K*NF*Nfp entries. *)
Definition flatten3 (M P Q : ten nat) : outcome (list nat * list nat * list nat) :=
  let a0 := map junkn (seq 0 (K * NF * Nfp)) in
  bind (for_ K (fun k => for_ NF (fun f => for_ Nfp (fun n st =>
    let '(vM, vP, mP, count) := st in
    bind (tget M n f k) (fun a => bind (setn vM count a) (fun vM =>
    bind (tget P n f k) (fun b => bind (setn vP count b) (fun vP =>
    bind (tget Q n f k) (fun c => bind (setn mP count c) (fun mP => Ok (vM, vP, mP, S count))))))))))
    (a0, a0, a0, 0)) (fun '(vM, vP, mP, _) => Ok (vM, vP, mP)).

(* src/TriangleNodesProvisioner.cpp:987-1005: mapB and vmapB. *)
Definition boundary (vM vP : list nat) : outcome (list nat * list nat) :=
  let n := K * NF * Nfp in
  bind (for_ n (fun i st => let '(tmp, c) := st in
    bind (getn vP i) (fun p => bind (getn vM i) (fun m =>
    if p =? m then bind (setn tmp c i) (fun tmp => Ok (tmp, S c)) else Ok (tmp, c)))) (map junkn (seq 0 n), 0))
  (fun '(tmp, nb) =>
  for_ nb (fun i st => let '(mB, vB) := st in
    bind (getn tmp i) (fun b => bind (setn mB i b) (fun mB =>
    bind (getn vM b) (fun v => bind (setn vB i v) (fun vB => Ok (mB, vB))))))
    (map junkn (seq 0 nb), map junkn (seq 0 nb))).

(* buildBCHash(bcType): src/TriangleNodesProvisioner.cpp:1028-1057. The matrix ones(i)*bcType(j) is written out column by
   column: reading bcType beyond its end is undefined. *)
Definition bc_step (count : nat) (bct : Z) (m : hmap) : hmap :=
  if Z.eqb bct 0 then m
  else match hfind m bct with None => hinsert m bct [count] | Some _ => hpush m bct count end.
Definition buildBCHash (bcType : list Z) (m : hmap) : outcome hmap :=
  if length bcType <? NF * K then UB
  else
  let B := mkmat Nfp (NF * K) (fun _ j => (1 * nth j bcType 0)%Z) in
  bind (fullToVector B (map (fun i => Z.of_nat (junkn i)) (seq 0 (Nfp * NF * K))) false) (fun nodes =>
  bind (for_ (length nodes) (fun count (m : hmap) => bind (getn nodes count) (fun bct => Ok (bc_step count bct m))) m) (fun m => Ok m)).

(* gather and scatter: src/TriangleNodesProvisioner.cpp:1009-1019. *)
Definition gather_scatter (x y : list T) : outcome (list nat * list nat) :=
  uniquetol T (flt A) (fofZ A 0) (fadd A) (fsub A) (fmul A) (fdiv A) (fabs A) (fofn A) sort
    (fun i j => if j =? 0 then nth i x (junk 0) else nth i y (junk 0)) (Np * K) 2 (fdiv A (fofZ A 1) (fofZ A 1000000000)).

Record maps := Maps { m_vmapM : list nat; m_vmapP : list nat; m_mapP : list nat; m_mapB : list nat; m_vmapB : list nat;
  m_gather : list nat; m_scatter : list nat; m_bc : hmap }.

(* buildMaps: src/TriangleNodesProvisioner.cpp:895-1020, src/QuadNodesProvisioner.cpp:450-575. *)
Definition buildMaps (Fm : mat nat) (xGrid yGrid : mat T) (E2E E2F E2V : list nat) (Vert : list T) (bcType : list Z)
  (bc0 : hmap) : outcome maps :=
  let a0 := map junk (seq 0 (K * Np)) in
  bind (reshapeMatTo1D xGrid false a0) (fun x =>
  bind (reshapeMatTo1D yGrid false a0) (fun y =>
  bind (build_vmapM3 Fm) (fun M =>
  bind (build_vmapP3 E2E E2F E2V Vert x y M) (fun '(P, Q) =>
  bind (flatten3 M P Q) (fun '(vM, vP, mP) =>
  bind (boundary vM vP) (fun '(mB, vB) =>
  bind (buildBCHash bcType bc0) (fun bc =>
  bind (fullToVector xGrid a0 false) (fun xf =>
  bind (fullToVector yGrid a0 false) (fun yf =>
  bind (gather_scatter xf yf) (fun '(g, s) =>
  Ok (Maps vM vP mP mB vB g s bc))))))))))).

(* The index part of buildGaussFaceNodes: src/TriangleNodesProvisioner.cpp:244-274 and 333-353, with NG Gauss points per
   face. gbcMap[t].push_back creates the entry if there is none. mapB is local to the function but kept here. *)
Definition bc_tags : list Z := [3; 6; 7; 1; 2; 5; 4; 8]%Z.      (* include/BCtypes.hpp:9-18 in the order of lines 244-253 *)
Definition hindex_push (m : hmap) (t : Z) (i : nat) : hmap := hpush (hinsert m t []) t i.
Definition gauss_face (NG : nat) (E2E E2F : list nat) (bcVec : list Z) (mapM : list nat) (f k : nat)
  (st : list nat * list nat * hmap) : outcome (list nat * list nat * hmap) :=
  let nf := NG * NF in
  bind (getn E2E (NF * k + f)) (fun k2 =>
  bind (getn E2F (NF * k + f)) (fun f2 =>
  if negb (k =? k2)
  then for_ NG (fun ig st => let '(mP, mB, bc) := st in
         bind (getn mapM (NG * (f2 + 1) - ig - 1 + k2 * nf)) (fun v =>
         bind (setn mP (f * NG + ig + k * nf) v) (fun mP => Ok (mP, mB, bc)))) st
  else for_ NG (fun ig st => let '(mP, mB, bc) := st in
         bind (getn mapM (f * NG + ig + k * nf)) (fun v =>
         bind (setn mP (f * NG + ig + k * nf) v) (fun mP =>
         bind (getn bcVec (NF * k + f)) (fun t => Ok (mP, mB ++ [v], hindex_push bc t v))))) st)).
Definition gaussFaceMaps (NG : nat) (E2E E2F : list nat) (bcVec : list Z)
  : outcome (list nat * list nat * list nat * hmap) :=
  let nf := NG * NF in
  bind (fullToVector (mkmat nf K (fun i j => i + nf * j)) (map junkn (seq 0 (nf * K))) false) (fun mapM =>
  bind (for_ NF (fun f => for_ K (fun k st => gauss_face NG E2E E2F bcVec mapM f k st))
          (repeat 0 (NG * NF * K), [], fold_left (fun m t => hinsert m t []) bc_tags [])) (fun '(mapP, mapB, bc) =>
  Ok (mapM, mapP, mapB, bc))).
End Maps.
