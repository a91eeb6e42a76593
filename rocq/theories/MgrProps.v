(* MgrProps.v - C99: a MeshManager filled from vertex and element files, and its partition. *)
From Coq Require Import ZArith List Bool Ascii String Lia.
From Verif Require Import Base Loops CscModel NumpyProofs CscProofs CsvModel CsvSpec CsvProofs CsvReadProofs MeshModel MeshSpec MeshProofs MeshGeoProofs MeshFileProofs MeshEdgeProofs MgrModel MgrSpec MgrProofs.
From Coq Require Import List.
Import ListNotations.
Local Open Scope nat_scope.

(* everything but the listed fields is as before *)
Definition same_elements {X} (a b : manager X) : Prop :=
  gNF X a = gNF X b /\ gK X a = gK X b /\ gEToV X a = gEToV X b /\ gEToE X a = gEToE X b /\ gEToF X a = gEToF X b /\ gBC X a = gBC X b.
Definition same_maps {X} (a b : manager X) : Prop := gEPM X a = gEPM X b /\ gVPM X a = gVPM X b.
Definition same_vertices {X} (a b : manager X) : Prop := gNV X a = gNV X b /\ gDim X a = gDim X b /\ gVert X a = gVert X b.

(* readVertices succeeds exactly on the files that hold a table, whatever the object held before; the vertices and their
   number are then those of the table, they are what printVertices prints, and nothing else changes. *)
Theorem C99_vertices X (kX : kind X) st t : small_text t ->
  exists res st', readVertices X kX (Some t) st = Ok (res, st') /\ same_elements st' st /\ same_maps st' st /\
  (res = Ret tt <-> exists nr nc data, is_table kX t nr nc data) /\
  forall nr nc data, is_table kX t nr nc data ->
    gNV X st' = nr /\ gDim X st' = nc /\ gVert X st' = Some data /\ printVertices X st' = Ok (table_rows (Z.to_nat nc) nr data).
Proof.
  intros Hs. unfold readVertices. destruct (vec_ok kX t (gNV X st) (gDim X st) Hs) as (nr & nc & [data|] & E & H); rewrite E; cbn [bind].
  - do 2 eexists. split; [reflexivity|]. split; [repeat split|]. split; [repeat split|]. split; [split; eauto|].
    intros nr' nc' data' H'. destruct (table_unique _ _ _ _ _ _ _ _ H H') as (-> & -> & ->). repeat split.
    unfold printVertices. cbn. destruct (table_shape _ _ _ _ _ H'). now apply print_ok.
  - do 2 eexists. split; [reflexivity|]. split; [repeat split|]. split; [repeat split|]. split.
    + split; [discriminate|]. intros (a & b & c & H'). exfalso. eapply table_whole; eauto.
    + intros a b c H'. exfalso. eapply table_whole; eauto.
Qed.
Print Assumptions C99_vertices.

(* readElements on a file of triangles whose rows have different, valid vertex numbers, after the vertices have been read:
   the elements are kept as listed (they are not reoriented); neighbours and boundary table are those of the elements. *)
Theorem C99_triangles X (kI : kind Z) jk jp ji jx je jf jb (st : manager X) t K E : small_text t -> is_table kI t K 3 E ->
  (forall v, In v E -> (0 <= v < Z.of_nat (gNV X st))%Z) -> distinct_verts 3 E -> (Z.of_nat (gNV X st) * Z.of_nat (3 * K) <= INT_MAX)%Z ->
  exists st' E2E E2F bc, readElements X kI jk jp ji jx je jf jb (Some t) st = Ok (Ret tt, st') /\ same_vertices st' st /\ same_maps st' st /\
    gNF X st' = 3%Z /\ gK X st' = K /\ gEToV X st' = Some E /\ printElements X st' = Ok (table_rows 3 K E) /\
    gEToE X st' = Some E2E /\ gEToF X st' = Some E2F /\ gBC X st' = Some bc /\
    length E2E = K * 3 /\ length E2F = K * 3 /\ length bc = K * 3 /\
    forall g, g < K * 3 -> exists h, links 3 E2E E2F g h /\ neighbour 3 E g h /\ entry bc g (if h =? g then 3%Z else 0%Z).
Proof.
  intros Hs Ht HR HD HS. unfold readElements. rewrite (vec_table kI t K 3 E _ _ Hs Ht). cbn [bind Z.eqb Pos.eqb]. change (Z.to_nat 3) with 3.
  destruct (table_shape _ _ _ _ _ Ht) as (_ & HL).
  destruct (tri_tables jk jp ji jx je jf jb (gNV X st) K E) as (E2E & E2F & bc & E1 & E2 & L1 & L2 & L3 & HN); auto; [lia|].
  rewrite E1. cbn [bind]. rewrite E2. cbn [bind]. do 4 eexists. split; [reflexivity|]. split; [repeat split|]. split; [repeat split|].
  cbn [gNF gK gEToV gEToE gEToF gBC]. split; [reflexivity|]. split; [reflexivity|]. split; [reflexivity|]. split.
  - unfold printElements. cbn [gEToV gK gNF]. apply (print_ok E K 3); [lia|]. lia.
  - repeat (split; [reflexivity|]). repeat (split; [assumption|]). exact HN.
Qed.
Print Assumptions C99_triangles.

(* For any other number of columns (quadrilaterals) the elements are kept, but the neighbour and boundary tables are
   allocated and never filled: they hold whatever was in memory. *)
Theorem C99_quadrilaterals_refuted X (kI : kind Z) jk jp ji jx je jf jb (st : manager X) t K nf E : small_text t -> is_table kI t K nf E -> nf <> 3%Z ->
  exists st', readElements X kI jk jp ji jx je jf jb (Some t) st = Ok (Ret tt, st') /\
    gK X st' = K /\ gNF X st' = nf /\ gEToV X st' = Some E /\
    forall g, g < K * Z.to_nat nf ->
      option_map (fun l => nth g l (S (je g))) (gEToE X st') = Some (je g) /\
      option_map (fun l => nth g l (S (jf g))) (gEToF X st') = Some (jf g) /\
      option_map (fun l => nth g l (jb g + 1)%Z) (gBC X st') = Some (jb g).
Proof.
  intros Hs Ht Hn. unfold readElements. rewrite (vec_table kI t K nf E _ _ Hs Ht). cbn [bind]. rewrite (proj2 (Z.eqb_neq _ _) Hn). cbn [bind].
  eexists. split; [reflexivity|]. cbn [gNF gK gEToV gEToE gEToF gBC option_map]. repeat (split; [reflexivity|]). intros g Hg.
  assert (Q : forall A (j : nat -> A) d, nth g (map j (seq 0 (K * Z.to_nat nf))) d = j g).
  { intros A j d. rewrite nth_indep with (d' := j 0) by (rewrite map_length, seq_length; lia). rewrite map_nth, seq_nth; auto. }
  rewrite !Q. auto.
Qed.
Print Assumptions C99_quadrilaterals_refuted.

(* The order of the calls matters: triangles read before any vertices are written out of bounds. *)
Theorem C99_elements_first_refuted X (kI : kind Z) jk jp ji jx je jf jb (st : manager X) t K E : small_text t -> is_table kI t K 3 E -> 0 < K -> gNV X st = 0 ->
  readElements X kI jk jp ji jx je jf jb (Some t) st = UB.
Proof.
  intros Hs Ht HK HV. unfold readElements. rewrite (vec_table kI t K 3 E _ _ Hs Ht). cbn [bind Z.eqb Pos.eqb]. rewrite HV.
  now rewrite connectivity_no_vertices.
Qed.
Print Assumptions C99_elements_first_refuted.

(* A read that throws half way leaves the sizes of the new file next to the tables of the old one. *)
Theorem C99_failed_read_refuted X (kX : kind X) (kI : kind Z) jk jp ji jx je jf jb (st : manager X) t nr nc : small_text t ->
  (breaks_off kX t nr nc -> exists st', readVertices X kX (Some t) st = Ok (Exn, st') /\
     gNV X st' = nr /\ gDim X st' = nc /\ gVert X st' = gVert X st /\ same_elements st' st /\ same_maps st' st) /\
  (breaks_off kI t nr nc -> exists st', readElements X kI jk jp ji jx je jf jb (Some t) st = Ok (Exn, st') /\
     gK X st' = nr /\ gNF X st' = nc /\ gEToV X st' = gEToV X st /\ gEToE X st' = gEToE X st /\ gEToF X st' = gEToF X st /\ gBC X st' = gBC X st /\
     same_vertices st' st /\ same_maps st' st).
Proof.
  intros Hs. split; intros Hb.
  - unfold readVertices. rewrite (vec_broken kX t nr nc _ _ Hs Hb). cbn [bind]. eexists. split; [reflexivity|]. repeat split.
  - unfold readElements. rewrite (vec_broken kI t nr nc _ _ Hs Hb). cbn [bind]. eexists. split; [reflexivity|]. repeat split.
Qed.
Print Assumptions C99_failed_read_refuted.

(* As long as no read throws and METIS keeps inside its arrays, every history of calls that comes to an end leaves tables
   whose sizes fit the counts. *)
Definition fits {X} (st : manager X) : Prop :=
  (0 <= gDim X st)%Z /\ (0 <= gNF X st)%Z /\
  (forall l, gVert X st = Some l -> Z.of_nat (length l) = (Z.of_nat (gNV X st) * gDim X st)%Z) /\
  (forall l, gEToV X st = Some l -> Z.of_nat (length l) = (Z.of_nat (gK X st) * gNF X st)%Z).
Definition small_call (c : mcall) : Prop := match c with CVertices (Some t) | CElements (Some t) => small_text t | _ => True end.
Theorem C99_sizes X (kX : kind X) (kI : kind Z) jk jp ji jx je jf jb metis cs rs st :
  Forall small_call cs -> mrun X kX kI jk jp ji jx je jf jb metis cs (new_manager X) = Ok (rs, st) -> Forall (eq (Ret tt)) rs -> fits st.
Proof.
  assert (Q : forall cs st0 rs st, fits st0 -> Forall small_call cs -> mrun X kX kI jk jp ji jx je jf jb metis cs st0 = Ok (rs, st) -> Forall (eq (Ret tt)) rs -> fits st).
  { clear. induction cs as [|c cs IH]; intros st0 rs st HF Hs E Hr; cbn [mrun] in E; [injection E as <- <-; auto|].
    destruct (do_call _ _ _ _ _ _ _ _ _ _ _ c st0) as [(r & st1)| |] eqn:E1; cbn [bind] in E; try discriminate.
    destruct (mrun X kX kI jk jp ji jx je jf jb metis cs st1) as [(rs' & st2)| |] eqn:E2; cbn [bind] in E; try discriminate.
    injection E as <- <-. inversion Hr as [|? ? Hr1 Hr2]; subst. inversion Hs as [|? ? Hs1 Hs2]; subst.
    apply (IH st1 rs' st2); auto. clear - HF Hs1 E1. destruct HF as (F1 & F2 & F3 & F4).
    destruct c as [f|f|n]; cbn [do_call] in E1.
    - unfold readVertices in E1. destruct f as [t|]; [|cbn in E1; discriminate].
      destruct (vec_ok kX t (gNV X st0) (gDim X st0) Hs1) as (nr & nc & [data|] & Ev & H); rewrite Ev in E1; cbn [bind] in E1; [|discriminate].
      injection E1 as <-. destruct (table_shape _ _ _ _ _ H) as (H0 & HL). repeat split; cbn; auto. intros l Hl. injection Hl as <-. exact HL.
    - unfold readElements in E1. destruct f as [t|]; [|cbn in E1; discriminate].
      destruct (vec_ok kI t (gK X st0) (gNF X st0) Hs1) as (nr & nc & [data|] & Ev & H); rewrite Ev in E1; cbn [bind] in E1; [|discriminate].
      match type of E1 with bind ?o _ = _ => destruct o as [((e & f) & b)| |]; cbn [bind] in E1; try discriminate end.
      injection E1 as <-. destruct (table_shape _ _ _ _ _ H) as (H0 & HL). repeat split; cbn; auto. intros l Hl. injection Hl as <-. exact HL.
    - unfold partitionMesh in E1. destruct (gEToV X st0) as [E2V|] eqn:EE; [|discriminate].
      match type of E1 with bind (bind ?o _) _ = _ => destruct o as [((e & f) & b)| |]; cbn [bind] in E1; try discriminate end.
      injection E1 as <-. repeat split; cbn; auto. }
  intros Hs E Hr. eapply Q; eauto. repeat split; cbn; try lia; discriminate.
Qed.
Print Assumptions C99_sizes.

(* partitionMesh on a mesh whose sizes fit and whose vertex numbers are valid: METIS is given exactly the mesh's elements,
   the maps have one entry per element and per vertex, and whatever METIS promises of a successful partition holds of them
   if METIS reports success. *)
Theorem C99_partition X metis P (st : manager X) E n nf : metis_keeps metis P ->
  gEToV X st = Some E -> gNF X st = Z.of_nat nf -> length E = gK X st * nf -> (forall v, In v E -> (0 <= v < Z.of_nat (gNV X st))%Z) -> (1 <= n)%Z ->
  exists st' ep np, partitionMesh X metis n st = Ok st' /\ gEPM X st' = Some ep /\ gVPM X st' = Some np /\
    length ep = gK X st /\ length np = gNV X st /\ same_vertices st' st /\ same_elements st' st /\
    exists code eptr, (forall ep0 np0, ep0 = repeat 0%Z (gK X st) -> np0 = repeat 0%Z (gNV X st) -> metis (gK X st) (gNV X st) eptr E n ep0 np0 = Ok (code, ep, np)) /\
      metis_mesh (gK X st) (gNV X st) eptr E (table_rows nf (gK X st) E) /\
      (code = 1%Z -> P (table_rows nf (gK X st) E) (gNV X st) n ep np).
Proof.
  intros HM HE HN HL HR Hn. unfold partitionMesh. rewrite HE, HN.
  pose proof (metis_args (gK X st) nf (gNV X st) E HL HR) as HA.
  destruct (HM _ _ _ _ _ n (repeat 0%Z (gK X st)) (repeat 0%Z (gNV X st)) HA Hn) as (code & ep & np & Em & L1 & L2 & HP); try apply repeat_length.
  rewrite Em. cbn [bind]. do 3 eexists. split; [reflexivity|]. split; [reflexivity|]. split; [reflexivity|]. split; auto. split; auto.
  split; [repeat split|]. split; [repeat split; cbn; congruence|].
  do 2 eexists. split; [intros ? ? -> ->; exact Em|]. split; auto.
Qed.
Print Assumptions C99_partition.

(* A failure reported by METIS does not reach the caller: partitionMesh returns normally and the maps assign everything to
   partition 0. *)
Theorem C99_failure_unreported_refuted X (st : manager X) E n nf :
  gEToV X st = Some E -> gNF X st = Z.of_nat nf -> length E = gK X st * nf -> (forall v, In v E -> (0 <= v < Z.of_nat (gNV X st))%Z) -> (1 <= n)%Z ->
  exists metis, (forall P, metis_keeps metis P) /\ (forall ne nn eptr eind n ep np, exists a b, metis ne nn eptr eind n ep np = Ok ((-2)%Z, a, b)) /\
  exists st', partitionMesh X metis n st = Ok st' /\ gEPM X st' = Some (repeat 0%Z (gK X st)) /\ gVPM X st' = Some (repeat 0%Z (gNV X st)).
Proof.
  intros HE HN HL HR Hn. exists (fun _ _ _ _ _ ep np => Ok ((-2)%Z, ep, np)). split; [|split].
  - intros P ne nn eptr eind els m ep np _ _ L1 L2. exists (-2)%Z, ep, np. repeat split; auto. lia.
  - intros. eauto.
  - unfold partitionMesh. rewrite HE. cbn [bind]. eexists. split; [reflexivity|]. split; reflexivity.
Qed.
Print Assumptions C99_failure_unreported_refuted.

(* Reading another mesh keeps the old partition: its maps are those of a mesh with another number of elements. *)
Theorem C99_stale_partition_refuted X (kI : kind Z) jk jp ji jx je jf jb (st st' : manager X) t K E nf r ep : small_text t -> is_table kI t K nf E ->
  gEPM X st = Some ep -> length ep = gK X st -> K <> gK X st ->
  readElements X kI jk jp ji jx je jf jb (Some t) st = Ok (r, st') -> gEPM X st' = Some ep /\ length ep <> gK X st'.
Proof.
  intros Hs Ht HE HL HK ER. unfold readElements in ER. rewrite (vec_table kI t K nf E _ _ Hs Ht) in ER. cbn [bind] in ER.
  match type of ER with bind ?o _ = _ => destruct o as [((e & f) & b)| |]; cbn [bind] in ER; try discriminate end.
  injection ER as <- <-. cbn. split; auto. lia.
Qed.
Print Assumptions C99_stale_partition_refuted.

(* ---- the hypotheses can be met ---- *)
Definition txt (s : string) : str := list_ascii_of_string s.
Definition eol : string := String NL EmptyString.
Definition digit : kind Z :=
  KNum (fun s => match s with
                 | c :: r => let n := (nat_of_ascii c - 48)%nat in
                     if ((48 <=? nat_of_ascii c) && (n <=? 9))%nat then Some (Z.of_nat n, 1%nat) else None
                 | [] => None
                 end).
Definition vert_file : str := txt ("0 0" ++ eol ++ "1 0" ++ eol ++ "1 1" ++ eol ++ "0 1")%string.
Definition tri_file : str := txt ("0 1 2" ++ eol ++ "0 3 2" ++ eol)%string.
Definition bad_file : str := txt ("0 0 0" ++ eol ++ "1 0 0" ++ eol ++ "1 1 x")%string.
Lemma small_files : small_text vert_file /\ small_text tri_file /\ small_text bad_file.
Proof. unfold small_text, INT_MAX. cbn. lia. Qed.
(* a table is what the reader returns on it *)
Lemma table_by_reading {V} (k : kind V) t nr nc data : small_text t -> csvread_vec k (Some t) 0 tab_space 0 0 = Ok (nr, nc, Ret data) -> is_table k t nr nc data.
Proof. intros Hs E. destruct (vec_ok k t 0 0 Hs) as (a & b & [d|] & E' & H); rewrite E in E'; [|discriminate]. now injection E' as <- <- <-. Qed.
Lemma broken_by_reading {V} (k : kind V) t nr nc : small_text t -> csvread_vec k (Some t) 0 tab_space 0 0 = Ok (nr, nc, Exn) -> breaks_off k t nr nc.
Proof. intros Hs E. destruct (vec_ok k t 0 0 Hs) as (a & b & [d|] & E' & H); rewrite E in E'; [discriminate|]. now injection E' as <- <-. Qed.
Example C99_witness_files : is_table digit vert_file 4 2 [0; 0; 1; 0; 1; 1; 0; 1]%Z /\ is_table digit tri_file 2 3 [0; 1; 2; 0; 3; 2]%Z /\
  breaks_off digit bad_file 2 3.
Proof.
  destruct small_files as (A & B & C).
  split; [apply table_by_reading; auto|split; [apply table_by_reading; auto|apply broken_by_reading; auto]].
Qed.
Example C99_witness_triangles : let E := [0; 1; 2; 0; 3; 2]%Z in
  (forall v, In v E -> (0 <= v < Z.of_nat 4)%Z) /\ distinct_verts 3 E /\ (Z.of_nat 4 * Z.of_nat (3 * 2) <= INT_MAX)%Z.
Proof.
  cbv zeta. split; [|split].
  - intros v Hv. cbn in Hv. repeat destruct Hv as [<- | Hv]; try lia.
  - intros [|[|k]] [|[|[|i]]] [|[|[|j]]] v Hi Hj A B; try lia; cbn in A, B; try congruence; match goal with H : nth_error [] ?n = _ |- _ => destruct n; discriminate end.
  - unfold INT_MAX. cbn. lia.
Qed.
(* vertices, triangles, then a bad vertex file: the counts no longer fit, and printing shows rows that are in
   neither file *)
Definition half_metis (ne nn : nat) (eptr eind : list Z) (n : Z) (ep np : list Z) : outcome (Z * list Z * list Z) :=
  Ok (1%Z, map (fun i => Z.of_nat i mod n)%Z (seq 0 ne), repeat 0%Z nn).
Example C99_witness_history :
  match mrun Z digit digit (0, d_one) (fun _ => 7) (fun _ => 7) (fun _ => d_two) (fun _ => 7) (fun _ => 7) (fun _ => 7%Z) half_metis
    [CVertices (Some vert_file); CElements (Some tri_file); CPartition 2; CVertices (Some bad_file)] (new_manager Z) with
  | Ok (rs, st) => rs = [Ret tt; Ret tt; Ret tt; Exn] /\ gNV Z st = 2 /\ gDim Z st = 3%Z /\ gVert Z st = Some [0; 0; 1; 0; 1; 1; 0; 1]%Z /\
      gEToV Z st = Some [0; 1; 2; 0; 3; 2]%Z /\ gEPM Z st = Some [0; 1]%Z /\ gBC Z st = Some [3; 3; 0; 3; 3; 0]%Z /\
      printVertices Z st = Ok [[0; 0; 1]; [0; 1; 1]]%Z
  | _ => False end.
Proof. vm_compute. repeat split. Qed.
(* and with a bad file that is longer than the good one, printing reads out of bounds *)
Definition long_file : str := txt ("0 0 0" ++ eol ++ "1 0 0" ++ eol ++ "1 0 0" ++ eol ++ "1 1 x" ++ eol)%string.
Example C99_witness_overrun :
  match mrun Z digit digit (0, d_one) (fun _ => 7) (fun _ => 7) (fun _ => d_two) (fun _ => 7) (fun _ => 7) (fun _ => 7%Z) half_metis
    [CVertices (Some vert_file); CVertices (Some long_file)] (new_manager Z) with
  | Ok (rs, st) => rs = [Ret tt; Exn] /\ printVertices Z st = UB
  | _ => False end.
Proof. vm_compute. repeat split. Qed.
Example C99_witness_metis : metis_keeps half_metis (fun els nn n ep np => Forall (fun p => (0 <= p < n)%Z) ep).
Proof.
  intros ne nn eptr eind els n ep np _ Hn _ _. do 3 eexists. split; [reflexivity|]. rewrite map_length, seq_length, repeat_length. repeat split; auto.
  intros _. apply Forall_forall. intros x Hx. apply in_map_iff in Hx. destruct Hx as (i & <- & _). apply Z.mod_pos_bound. lia.
Qed.
