(* MeshProps.v - properties C20-C24 and C58: mesh connectivity, boundary tables, orientation, gmsh files. *)
From Coq Require Import ZArith List Lia Bool Ascii String.
From Verif Require Import Base Loops BlitzProofs CscProofs CsvModel CsvSpec CsvProofs MeshModel MeshSpec MeshFileSpec
  MeshProofs MeshGeoProofs MeshFileProofs MeshEdgeProofs.
From Coq Require Import Reals Lra SpecFloat.
Import ListNotations.
Local Open Scope nat_scope.
Local Notation length := List.length.

(* ---------- C20 ---------- *)
(* jk, jp, ji, jx and the tables e2e, e2f stand for uninitialised memory. *)
Theorem C20_connectivity : forall NF E2V jk jp ji jx NV K e2e e2f,
  mesh_table NV K NF E2V -> length e2e = K * NF -> length e2f = K * NF ->
  exists E2E E2F, buildConnectivity jk jp ji jx NV K NF E2V e2e e2f = Ok (E2E, E2F) /\
    length E2E = K * NF /\ length E2F = K * NF /\
    forall g, g < K * NF -> exists h, links NF E2E E2F g h /\ neighbour NF E2V g h.
Proof. exact buildConnectivity_ok. Qed.
Print Assumptions C20_connectivity.

(* The description determines the neighbour. *)
Theorem C20_neighbour_unique : forall NF E2V g h h', neighbour NF E2V g h -> neighbour NF E2V g h' -> h = h'.
Proof. exact neighbour_fun. Qed.
Print Assumptions C20_neighbour_unique.

(* Meshes whose vertex-by-face product exceeds the int range overflow. *)
Theorem C20_large_meshes_overflow : forall NF E2V jk jp ji jx NV K e2e e2f,
  (INT_MAX < Z.of_nat NV * Z.of_nat (NF * K))%Z ->
  buildConnectivity jk jp ji jx NV K NF E2V e2e e2f = UB.
Proof. intros. apply buildConnectivity_overflow. auto. Qed.
Print Assumptions C20_large_meshes_overflow.

Definition two_tris : list Z := [0; 1; 2; 2; 1; 3]%Z.
Lemma two_tris_distinct : distinct_verts 3 two_tris.
Proof.
  intros k i j v Hi Hj A B. destruct k as [|[|k]].
  - destruct i as [|[|[|]]]; try lia; destruct j as [|[|[|]]]; try lia; cbn in A, B; congruence.
  - destruct i as [|[|[|]]]; try lia; destruct j as [|[|[|]]]; try lia; cbn in A, B; congruence.
  - apply nth_error_Some_lt in A. change (length two_tris) with 6 in A. lia.
Qed.
Example C20_witness : mesh_table 4 2 3 two_tris /\
  forall jk jp ji jx, buildConnectivity jk jp ji jx 4 2 3 two_tris (repeat 9 6) (repeat 9 6) =
    Ok ([0; 1; 0; 0; 1; 1], [0; 0; 2; 1; 1; 2]).
Proof.
  split.
  - constructor; auto.
    + intros v Hv. cbn in Hv. intuition lia.
    + intros g a b. apply distinct_faces; auto using two_tris_distinct.
    + unfold INT_MAX. lia.
  - intros [jk1 jk2] jp ji jx. vm_compute. reflexivity.
Qed.

(* ---------- C21 ---------- *)
Theorem C21_following_twice : forall NF E2V jk jp ji jx NV K e2e e2f E2E E2F,
  mesh_table NV K NF E2V -> conforming NF E2V -> length e2e = K * NF -> length e2f = K * NF ->
  buildConnectivity jk jp ji jx NV K NF E2V e2e e2f = Ok (E2E, E2F) ->
  forall g, g < K * NF -> exists h, h < K * NF /\ links NF E2E E2F g h /\ links NF E2E E2F h g /\
    forall a b, face NF E2V g a b -> exists c d, face NF E2V h c d /\ same_pair a b c d.
Proof.
  intros NF E2V jk jp ji jx NV K e2e e2f E2E E2F M C L1 L2 E g Hg.
  destruct (buildConnectivity_ok NF E2V jk jp ji jx NV K e2e e2f M L1 L2) as (E2E' & E2F' & E' & _ & _ & H).
  rewrite E in E'. injection E' as <- <-.
  destruct (H g Hg) as (h & Lk & N). pose proof (neighbour_lt _ _ _ _ _ _ M Hg N) as Hh.
  exists h. split; auto. split; auto. split.
  - destruct (H h Hh) as (g' & Lk' & N'). apply neighbour_sym in N; auto.
    now rewrite (neighbour_fun _ _ _ _ _ N N').
  - intros a b (Fa & Fb). destruct N as [(-> & _)|((_ & a' & b' & c & d & (F1 & F1') & F2 & P) & _)].
    + exists a, b. split; [split; auto|left; auto].
    + assert (a' = a) by congruence. assert (b' = b) by congruence. subst. eauto.
Qed.
Print Assumptions C21_following_twice.

Theorem C21_opposite_directions : forall NF E2V jk jp ji jx NV K e2e e2f E2E E2F,
  mesh_table NV K NF E2V -> oriented NF E2V -> length e2e = K * NF -> length e2f = K * NF ->
  buildConnectivity jk jp ji jx NV K NF E2V e2e e2f = Ok (E2E, E2F) ->
  forall g h a b, g < K * NF -> links NF E2E E2F g h -> h <> g -> face NF E2V g a b -> face NF E2V h b a.
Proof.
  intros NF E2V jk jp ji jx NV K e2e e2f E2E E2F M O L1 L2 E g h a b Hg Lk Hne F.
  destruct (buildConnectivity_ok NF E2V jk jp ji jx NV K e2e e2f M L1 L2) as (E2E' & E2F' & E' & _ & _ & H).
  rewrite E in E'. injection E' as <- <-. destruct (H g Hg) as (h' & Lk' & N).
  assert (0 < NF) by (destruct (mt_nf _ _ _ _ M); lia).
  rewrite (links_inj _ _ _ _ _ _ H0 Lk Lk') in *.
  destruct N as [(-> & _)|(Sh & _)]; [easy|]. eapply oriented_opposite; eauto.
Qed.
Print Assumptions C21_opposite_directions.

(* A consistently oriented mesh is conforming. *)
Theorem C21_oriented_conforming : forall NF E2V, oriented NF E2V -> conforming NF E2V.
Proof.
  intros NF E2V O g h h' (N & a & b & c & d & Fg & Fh & P) (N' & a' & b' & c' & d' & Fg' & Fh' & P').
  destruct Fg as (G1 & G2), Fg' as (G1' & G2'). assert (a' = a) by congruence. assert (b' = b) by congruence. subst.
  assert (Q : face NF E2V h b a /\ face NF E2V h' b a).
  { split.
    - destruct P as [(<- & <-)|(<- & <-)]; auto. exfalso. apply N. apply (O g h a b); auto. split; auto.
    - destruct P' as [(<- & <-)|(<- & <-)]; auto. exfalso. apply N'. apply (O g h' a b); auto. split; auto. }
  destruct Q. eapply O; eauto.
Qed.
Print Assumptions C21_oriented_conforming.

Example C21_witness : mesh_table 4 2 3 two_tris /\ oriented 3 two_tris /\ conforming 3 two_tris /\
  shares 3 two_tris 1 3.
Proof.
  assert (O : oriented 3 two_tris).
  { intros g h a b (A & B) (C & D).
    destruct g as [|[|[|[|[|[|g]]]]]]; [..|destruct g; discriminate A];
    (destruct h as [|[|[|[|[|[|h]]]]]]; [..|destruct h; discriminate C]); cbn in A, B, C, D; congruence. }
  split; [apply C20_witness|]. split; auto. split; [now apply C21_oriented_conforming|].
  split; [lia|]. exists 1%Z, 2%Z, 2%Z, 1%Z. split; [split; reflexivity|]. split; [split; reflexivity|]. right. auto.
Qed.

(* Three elements on one face: following the links twice does not return. *)
Theorem C21_nonconforming_refuted : exists E2V NV K, mesh_table NV K 3 E2V /\
  forall jk jp ji jx, exists E2E E2F, buildConnectivity jk jp ji jx NV K 3 E2V (repeat 9 (K * 3)) (repeat 9 (K * 3)) = Ok (E2E, E2F) /\
    exists g h g', links 3 E2E E2F g h /\ links 3 E2E E2F h g' /\ g' <> g.
Proof.
  exists [0; 1; 2; 0; 1; 3; 0; 1; 4]%Z, 5, 3. split.
  - constructor; auto.
    + intros v Hv. cbn in Hv. intuition lia.
    + intros g a b (A & B). destruct g as [|[|[|[|[|[|[|[|[|g]]]]]]]]]; [..|destruct g; discriminate A]; cbn in A, B; congruence.
    + unfold INT_MAX. lia.
  - intros [jk1 jk2] jp ji jx. eexists _, _. split; [vm_compute; reflexivity|].
    exists 0, 6, 3. split; [split; reflexivity|]. split; [split; reflexivity|]. lia.
Qed.
Print Assumptions C21_nonconforming_refuted.

(* ---------- C22 ---------- *)
(* For any connectivity table: the tag where the face's element is its own neighbour, 0 elsewhere. *)
Theorem C22_boundary_table : forall K NF E2E tag BC0,
  length E2E = K * NF -> length BC0 = K * NF ->
  exists bc, buildBCTable K NF E2E tag BC0 = Ok bc /\ length bc = K * NF /\
    forall f k2, entry E2E f k2 -> entry bc f (if k2 =? f / NF then tag else 0%Z).
Proof. exact buildBCTable_ok. Qed.
Print Assumptions C22_boundary_table.

(* With the connectivity of a mesh whose elements have different vertices: the tag is exactly at the
   faces that no other element has. *)
Theorem C22_boundary_faces : forall NF E2V jk jp ji jx NV K e2e e2f tag BC0,
  mesh_table NV K NF E2V -> distinct_verts NF E2V ->
  length e2e = K * NF -> length e2f = K * NF -> length BC0 = K * NF ->
  exists E2E E2F bc, buildConnectivity jk jp ji jx NV K NF E2V e2e e2f = Ok (E2E, E2F) /\
    buildBCTable K NF E2E tag BC0 = Ok bc /\ length bc = K * NF /\
    forall g, g < K * NF ->
      ((exists h, shares NF E2V g h) -> entry bc g 0%Z) /\ ((forall h, ~ shares NF E2V g h) -> entry bc g tag).
Proof.
  intros NF E2V jk jp ji jx NV K e2e e2f tag BC0 M D L1 L2 L3.
  destruct (buildConnectivity_ok NF E2V jk jp ji jx NV K e2e e2f M L1 L2) as (E2E & E2F & E & LE & LF & H).
  destruct (buildBCTable_ok K NF E2E tag BC0 LE L3) as (bc & EB & LB & HB).
  exists E2E, E2F, bc. repeat (split; [auto; fail|]).
  intros g Hg. destruct (H g Hg) as (h & (Lk & _) & N). specialize (HB g _ Lk).
  destruct N as [(-> & N)|(S & _)].
  - rewrite Nat.eqb_refl in HB. split; auto. intros (h & Sh). exfalso. eapply N; eauto.
  - split; [|intros N; exfalso; eapply N; eauto]. intros _.
    assert (Hne : g / NF <> h / NF) by (eapply same_element_not_shared; eauto; apply (mt_nf _ _ _ _ M)).
    destruct (Nat.eqb_spec (h / NF) (g / NF)); [congruence|exact HB].
Qed.
Print Assumptions C22_boundary_faces.
Example C22_witness : mesh_table 4 2 3 two_tris /\ distinct_verts 3 two_tris /\
  buildBCTable 2 3 [0; 1; 0; 0; 1; 1] 7 (repeat 99%Z 6) = Ok [7; 0; 7; 0; 7; 7]%Z.
Proof. split; [apply C20_witness|]. split; [exact two_tris_distinct|]. vm_compute. reflexivity. Qed.

(* ---------- C23 ---------- *)
Definition negR (x : R) : bool := if Rlt_dec x 0 then true else false.
Definition orientR := orient R Rminus Rmult negR.

(* Every element keeps its listing if its first three vertices turn left (or are collinear), and has
   its second and third vertex swapped otherwise; the first three vertices then never turn right. *)
Theorem C23_orientation : forall dim NF K V E,
  3 <= NF -> length E = K * NF -> (forall v, In v E -> exists x y, vertex_at dim V v x y) ->
  exists E', orientR dim NF K V E = Ok E' /\ length E' = K * NF /\
    forall k a b c ax ay bx by_ cx cy, k < K ->
      corner NF E k 0 a -> corner NF E k 1 b -> corner NF E k 2 c ->
      vertex_at dim V a ax ay -> vertex_at dim V b bx by_ -> vertex_at dim V c cx cy ->
      (area2 ax ay bx by_ cx cy >= 0 -> as_listed NF E E' k)%R /\
      (area2 ax ay bx by_ cx cy < 0 -> swapped NF E E' k /\ area2 ax ay cx cy bx by_ > 0)%R.
Proof.
  intros dim NF K V E HN HL HV.
  destruct (orient_ok R Rminus Rmult negR dim NF K V E HN HL HV) as (E' & EO & HL' & _ & HT).
  exists E'. split; auto. split; auto.
  intros k a b c ax ay bx by_ cx cy Hk Ha Hb Hc Va Vb Vc.
  destruct (HT k Hk a b c ax ay bx by_ cx cy Ha Hb Hc Va Vb Vc) as (T0 & T12 & T3).
  assert (Q : det R Rminus Rmult ax ay bx by_ cx cy = area2 ax ay bx by_ cx cy) by (unfold det, area2; ring).
  rewrite Q in T12. unfold negR in T12. unfold corner in *. rewrite Nat.add_0_r in *.
  split; intros Hs; destruct (Rlt_dec _ _); try lra; destruct T12 as (T1 & T2).
  - intros i Hi. destruct i as [|[|[|i]]]; rewrite ?Nat.add_0_r; try congruence. apply T3. lia.
  - split.
    + split; [congruence|]. split; [congruence|]. split; [congruence|]. auto.
    + unfold area2 in *. lra.
Qed.
Print Assumptions C23_orientation.

(* A convex quadrilateral listed clockwise becomes self-crossing. *)
Theorem C23_clockwise_quadrilateral_crosses : forall V K E E' k a b c d ax ay bx by_ cx cy dx dy,
  length E = K * 4 -> (forall v, In v E -> exists x y, vertex_at 3 V v x y) ->
  orientR 3 4 K V E = Ok E' -> k < K ->
  corner 4 E k 0 a -> corner 4 E k 1 b -> corner 4 E k 2 c -> corner 4 E k 3 d ->
  vertex_at 3 V a ax ay -> vertex_at 3 V b bx by_ -> vertex_at 3 V c cx cy -> vertex_at 3 V d dx dy ->
  (area2 ax ay bx by_ cx cy < 0)%R -> (area2 bx by_ cx cy dx dy < 0)%R ->
  (area2 cx cy dx dy ax ay < 0)%R -> (area2 dx dy ax ay bx by_ < 0)%R ->
  corner 4 E' k 0 a /\ corner 4 E' k 1 c /\ corner 4 E' k 2 b /\ corner 4 E' k 3 d /\
  self_crossing ax ay cx cy bx by_ dx dy.
Proof.
  intros V K E E' k a b c d ax ay bx by_ cx cy dx dy HL HV EO Hk Ha Hb Hc Hd Va Vb Vc Vd H1 H2 H3 H4.
  destruct (C23_orientation 3 4 K V E ltac:(lia) HL HV) as (E2 & EO2 & _ & HT).
  rewrite EO in EO2. injection EO2 as <-.
  destruct (HT k a b c ax ay bx by_ cx cy Hk Ha Hb Hc Va Vb Vc) as (_ & T). destruct (T H1) as ((S0 & S1 & S2 & S3) & _).
  unfold corner in *. rewrite Nat.add_0_r in *.
  split; [congruence|]. split; [congruence|]. split; [congruence|]. split; [rewrite S3 by lia; auto|].
  left. unfold area2 in *.
  set (D := ((cx - ax) * (dy - by_) - (dx - bx) * (cy - ay))%R).
  assert (HD : (D < 0)%R) by (unfold D; lra).
  exists (((bx - ax) * (dy - by_) - (dx - bx) * (by_ - ay)) / D)%R, (((bx - ax) * (cy - ay) - (cx - ax) * (by_ - ay)) / D)%R.
  assert (Hq : forall n, (n < 0)%R -> (D < n)%R -> (0 < n / D < 1)%R).
  { intros n Hn HDn. split.
    - apply Ropp_lt_cancel. rewrite Ropp_0. replace (- (n / D))%R with (n * / - D)%R by (field; lra).
      rewrite <- (Rmult_0_l (/ - D)). apply Rmult_lt_compat_r; auto. apply Rinv_0_lt_compat. lra.
    - apply (Rmult_lt_reg_r (- D)); [lra|]. replace (n / D * - D)%R with (- n)%R by (field; lra). lra. }
  split; [apply Hq; unfold D; lra|]. split; [apply Hq; unfold D; lra|].
  split; unfold D in *; field; lra.
Qed.
Print Assumptions C23_clockwise_quadrilateral_crosses.

Definition sq : list R := [0; 0; 0; 0; 1; 0; 1; 1; 0; 1; 0; 0]%R.
Lemma sq_known v : In v [0; 1; 2; 3]%Z -> exists x y, vertex_at 3 sq v x y.
Proof. cbn. intros [<-|[<-|[<-|[<-|[]]]]]; eexists _, _; (split; [lia|]); split; reflexivity. Qed.
(* A square listed clockwise meets the hypotheses of both theorems. *)
Example C23_witness : 3 <= 4 /\ length [0; 1; 2; 3]%Z = 1 * 4 /\
  (forall v, In v [0; 1; 2; 3]%Z -> exists x y, vertex_at 3 sq v x y) /\
  (vertex_at 3 sq 0 0 0 /\ vertex_at 3 sq 1 0 1 /\ vertex_at 3 sq 2 1 1 /\ vertex_at 3 sq 3 1 0)%R /\
  (area2 0 0 0 1 1 1 < 0 /\ area2 0 1 1 1 1 0 < 0 /\ area2 1 1 1 0 0 0 < 0 /\ area2 1 0 0 0 0 1 < 0)%R.
Proof.
  split; [lia|]. split; [reflexivity|]. split; [exact sq_known|].
  split; [repeat split; lia|]. unfold area2. repeat split; lra.
Qed.

(* ---------- C24 ---------- *)
(* A gmsh file (format 2.x, nodes numbered 1..n in any order) whose mesh elements carry two tags and
   valid, different vertices: the mesh has the file's node coordinates and its quadrilaterals (if there
   is one) or else its triangles, in file order, counted from 0, up to the orientation swap; neighbours
   and the boundary table are those of that element table. *)
Theorem C24_read_mesh : forall X r_sub r_mul neg stoi stod stof vers_ok t nodes els NF es NV0 jv jk jp ji jx je jf jb,
  small_text t -> gmsh_file stoi stod stof vers_ok t nodes els -> numbered nodes -> mesh_elements els = (NF, es) ->
  (forall e, In e es -> length (e_tags e) = 2 /\ NoDup (e_verts e) /\
     forall v, In v (e_verts e) -> (1 <= v <= Z.of_nat (length nodes))%Z) ->
  (Z.of_nat (length nodes) * Z.of_nat (NF * length es) <= INT_MAX)%Z ->
  exists m, readMesh X r_sub r_mul neg stoi stod stof vers_ok jk jp ji jx (Some t) NV0 jv je jf jb = Ok m /\
    NumVerts X m = length nodes /\ NumFaces X m = NF /\ NumElements X m = length es /\
    holds_nodes (Vert X m) nodes /\
    length (EToV X m) = length es * NF /\
    (forall k, k < length es -> as_listed NF (vertex_table es) (EToV X m) k \/ swapped NF (vertex_table es) (EToV X m) k) /\
    length (EToE X m) = length es * NF /\ length (EToF X m) = length es * NF /\ length (BCType X m) = length es * NF /\
    forall g, g < length es * NF -> exists h,
      links NF (EToE X m) (EToF X m) g h /\ neighbour NF (EToV X m) g h /\
      entry (BCType X m) g (if h =? g then 3%Z else 0%Z).
Proof.
  intros X r_sub r_mul neg stoi stod stof vers_ok t nodes els NF es NV0 jv jk jp ji jx je jf jb Hsm HG HN HM HE HS.
  assert (EN : NF = fst (mesh_elements els)) by now rewrite HM. assert (EE : es = snd (mesh_elements els)) by now rewrite HM.
  assert (H3 : NF = 3 \/ NF = 4) by (rewrite EN; apply mesh_elements_nf). clear HM. subst es.
  destruct (read_ok X r_sub r_mul neg stoi stod stof vers_ok t nodes els NV0 jv jk jp ji jx je jf jb Hsm HG HN HE) as
    (m & EM & M1 & M2 & M3 & M4 & M5 & M6 & M7 & M8 & M9 & M10 & M11 & (_ & M12) & M13); [now rewrite <- EN|].
  rewrite <- EN in *. exists m. repeat (split; [assumption|]). split; [|auto].
  intros k Hk. destruct (M12 k Hk) as (s & Hs). destruct s; [right|left; exact Hs].
  split; [rewrite <- (Nat.add_0_r (k * NF)); apply (Hs 0); lia|]. split; [apply (Hs 1); lia|]. split; [apply (Hs 2); lia|].
  intros i Hi. rewrite (Hs i) by lia. destruct i as [|[|[|i]]]; try lia. reflexivity.
Qed.
Print Assumptions C24_read_mesh.

(* In exact arithmetic every triangle (and the first three vertices of every quadrilateral) then has
   non-negative area. *)
Theorem C23_after_reading : forall stoi stod stof vers_ok t nodes els NF es NV0 jv jk jp ji jx je jf jb m,
  small_text t -> gmsh_file stoi stod stof vers_ok t nodes els -> numbered nodes -> mesh_elements els = (NF, es) ->
  (forall e, In e es -> length (e_tags e) = 2 /\ NoDup (e_verts e) /\
     forall v, In v (e_verts e) -> (1 <= v <= Z.of_nat (length nodes))%Z) ->
  (Z.of_nat (length nodes) * Z.of_nat (NF * length es) <= INT_MAX)%Z ->
  readMesh R Rminus Rmult negR stoi stod stof vers_ok jk jp ji jx (Some t) NV0 jv je jf jb = Ok m ->
  forall k, k < length es -> exists a b c ax ay bx by_ cx cy,
    corner NF (EToV R m) k 0 a /\ corner NF (EToV R m) k 1 b /\ corner NF (EToV R m) k 2 c /\
    vertex_at 3 (Vert R m) a ax ay /\ vertex_at 3 (Vert R m) b bx by_ /\ vertex_at 3 (Vert R m) c cx cy /\
    (area2 ax ay bx by_ cx cy >= 0)%R.
Proof.
  intros stoi stod stof vers_ok t nodes els NF es NV0 jv jk jp ji jx je jf jb m Hsm HG HN HM HE HS ER k Hk.
  assert (EN : NF = fst (mesh_elements els)) by now rewrite HM. assert (EE : es = snd (mesh_elements els)) by now rewrite HM.
  assert (H3 : NF = 3 \/ NF = 4) by (rewrite EN; apply mesh_elements_nf). clear HM. subst es.
  destruct (read_ok R Rminus Rmult negR stoi stod stof vers_ok t nodes els NV0 jv jk jp ji jx je jf jb Hsm HG HN HE) as
    (m' & EM & M1 & M2 & M3 & M4 & M5 & M6 & M7 & M8 & M9 & M10 & M11 & _); [now rewrite <- EN|].
  rewrite ER in EM. injection EM as <-. rewrite <- EN in *.
  set (E := vertex_table (snd (mesh_elements els))) in *. clearbody E.
  assert (Hx : forall i, i < NF -> exists v, corner NF E k i v).
  { intros i Hi. apply nth_error_ex. nia. }
  destruct (Hx 0 ltac:(lia)) as (a & Ha), (Hx 1 ltac:(lia)) as (b & Hb), (Hx 2 ltac:(lia)) as (c & Hc).
  destruct (M6 a) as (ax & ay & Va); [eapply nth_error_In; exact Ha|].
  destruct (M6 b) as (bx & by_ & Vb); [eapply nth_error_In; exact Hb|].
  destruct (M6 c) as (cx & cy & Vc); [eapply nth_error_In; exact Hc|].
  destruct (M11 k Hk a b c ax ay bx by_ cx cy) as (T0 & T12 & _); auto.
  assert (Q : det R Rminus Rmult ax ay bx by_ cx cy = area2 ax ay bx by_ cx cy) by (unfold det, area2; ring).
  rewrite Q in T12. unfold negR in T12. destruct (Rlt_dec _ _); destruct T12 as (T1 & T2).
  - exists a, c, b, ax, ay, cx, cy, bx, by_. repeat (split; [assumption|]). unfold area2 in *. lra.
  - exists a, b, c, ax, ay, bx, by_, cx, cy. repeat (split; [assumption|]). lra.
Qed.
Print Assumptions C23_after_reading.

(* With two or more tags the vertices taken are the integers after the second tag. *)
Theorem C24_vertex_columns : forall X stoi stod stof vers_ok t nodes els NF es NV0 jv,
  small_text t -> gmsh_file stoi stod stof vers_ok t nodes els -> numbered nodes -> mesh_elements els = (NF, es) ->
  (forall e, In e es -> 2 <= length (e_tags e)) ->
  exists w, readMesh_raw X stoi stod stof vers_ok (Some t) NV0 jv = Ok w /\
    rNV X w = length nodes /\ rNF X w = NF /\ rK X w = length es /\ holds_nodes (rVert X w) nodes /\
    rE2V X w = flat_map (fun e => map (fun v => (v - 1)%Z) (firstn NF (skipn 2 (e_tags e ++ e_verts e)))) es.
Proof.
  intros X stoi stod stof vers_ok t nodes els NF es NV0 jv Hsm HG HN HM HE.
  rewrite (readMesh_raw_ok X stoi stod stof vers_ok t nodes els NV0 jv Hsm HG HN).
  pose proof (mesh_elements_in els) as HI. rewrite HM in *. cbn [fst snd] in *.
  rewrite elements_table_gen by (intros e He; split; [auto|apply HI; auto]). cbn [bind].
  eexists. split; [reflexivity|]. cbn. repeat (split; [reflexivity|]). split; [|reflexivity].
  split; [rewrite put_nodes_length, map_length, seq_length; lia|]. destruct HN as (ND & HN).
  intros n x y z Hin. apply put_nodes_at; auto.
  intros n' Hn'. specialize (HN (fst n') (in_map fst _ _ Hn')). rewrite map_length, seq_length. lia.
Qed.
Print Assumptions C24_vertex_columns.

(* A mesh element with fewer than two tags makes the reader run past the end of the row. *)
Theorem C24_fewer_tags_out_of_range : forall X stoi stod stof vers_ok t nodes els NF es e NV0 jv,
  small_text t -> gmsh_file stoi stod stof vers_ok t nodes els -> numbered nodes -> mesh_elements els = (NF, es) ->
  In e es -> length (e_tags e) < 2 ->
  readMesh_raw X stoi stod stof vers_ok (Some t) NV0 jv = UB.
Proof.
  intros X stoi stod stof vers_ok t nodes els NF es e NV0 jv Hsm HG HN HM Hin Ht.
  rewrite (readMesh_raw_ok X stoi stod stof vers_ok t nodes els NV0 jv Hsm HG HN).
  pose proof (mesh_elements_in els e) as HI. pose proof (mesh_elements_nf els) as H3. rewrite HM in *. cbn [fst snd] in *.
  rewrite (elements_table_few NF es e) by (auto; try lia; apply HI; auto). reflexivity.
Qed.
Print Assumptions C24_fewer_tags_out_of_range.

(* A file that does not start with the gmsh header line is rejected. *)
Theorem C24_wrong_header : forall X stoi stod stof vers_ok t l ls NV0 jv,
  small_text t -> lines_of t (l :: ls) -> l <> h_format ->
  readMesh_raw X stoi stod stof vers_ok (Some t) NV0 jv = Throw.
Proof. intros. eapply wrong_header; eauto. Qed.
Print Assumptions C24_wrong_header.

(* A concrete file. Decimal digits only; reals are read as integers. *)
Definition digit (c : ascii) : option Z :=
  let n := nat_of_ascii c in if (48 <=? n) && (n <=? 57) then Some (Z.of_nat n - 48)%Z else None.
Fixpoint digits (acc : Z) (n : nat) (s : str) : Z * nat :=
  match s with
  | c :: s' => match digit c with Some d => digits (acc * 10 + d) (S n) s' | None => (acc, n) end
  | [] => (acc, n)
  end.
Definition dec (s : str) : option (Z * nat) := match digits 0 0 s with (_, 0) => None | r => Some r end.
Definition two (v : Z) : bool := (v =? 2)%Z.

Definition text (s : string) : str := list_ascii_of_string s.
Definition file_head : list str :=
  map text ["$MeshFormat"; "2 0 8"; "$EndMeshFormat"; "$Nodes"; "4";
            "2 1 0 0"; "1 0 0 0"; " 4  1 1 0"; "3 0 1 0"; "$EndNodes"; "$Elements"]%string.
Definition file_ok : list str := file_head ++ map text ["3"; "1 1 2 9 9 1 2"; "2 2 2 5 6 1 3 2"; "3 2 2 5 6 2 4 3"; "$EndElements"]%string.
Definition file_3tags : list str := file_head ++ map text ["1"; "1 2 3 7 8 9 1 2 3"; "$EndElements"]%string.
Definition txt (ls : list str) : str := flat_map (fun l => l ++ [NL]) ls.
Definition nodes4 : list (Z * (Z * Z * Z)) := [(2, (1, 0, 0)); (1, (0, 0, 0)); (4, (1, 1, 0)); (3, (0, 1, 0))]%Z.
Definition els_ok : list element := [mkel 1 1 [9; 9] [1; 2]; mkel 2 2 [5; 6] [1; 3; 2]; mkel 3 2 [5; 6] [2; 4; 3]]%Z.
Definition els_3 : list element := [mkel 1 2 [7; 8; 9] [1; 2; 3]]%Z.

Lemma is_fields l fs : trim l <> [] -> tokenizeLine sep (trim l) = fs -> line_fields l fs.
Proof.
  intros H <-. split; [intros B; apply trim_nil in B; auto|]. exists (trim l). split; [apply trim_trimmed|apply tokenizeLine_fields].
Qed.
Ltac nodeline := eexists _, _, _, _; split; [apply is_fields; [vm_compute; discriminate|vm_compute; reflexivity]|]; repeat split; vm_compute; reflexivity.
Ltac elline := eexists; split; [apply tokenizeLine_fields|]; vm_compute; repeat (constructor; [eexists; reflexivity|]); constructor.

Lemma file_ok_gmsh : gmsh_file dec dec dec two (txt file_ok) nodes4 els_ok.
Proof.
  exists (text "2 0 8"), (text "$EndMeshFormat"), (text "4"), (map text ["2 1 0 0"; "1 0 0 0"; " 4  1 1 0"; "3 0 1 0"]%string),
    (text "$EndNodes"), (text "3"), (map text ["1 1 2 9 9 1 2"; "2 2 2 5 6 1 3 2"; "3 2 2 5 6 2 4 3"]%string),
    [text "$EndElements"].
  eexists _, _, _, _, _, _, _, _, _, _.
  split. { apply (lines_join file_ok). apply Forall_forall. intros l Hl. cbn in Hl. repeat (destruct Hl as [<-|Hl]; [vm_compute; intuition discriminate|]). destruct Hl. }
  split. { apply is_fields; [vm_compute; discriminate|vm_compute; reflexivity]. }
  split; [vm_compute; reflexivity|]. split; [vm_compute; reflexivity|]. split; [vm_compute; reflexivity|].
  split; [vm_compute; reflexivity|]. split; [reflexivity|]. split; [reflexivity|].
  split. { apply is_fields; [vm_compute; discriminate|vm_compute; reflexivity]. }
  split; [vm_compute; reflexivity|]. split; [reflexivity|].
  split. { repeat (constructor; [nodeline|]). constructor. }
  split. { apply is_fields; [vm_compute; discriminate|vm_compute; reflexivity]. }
  split; [vm_compute; reflexivity|]. split; [reflexivity|].
  split. { repeat (constructor; [elline|]). constructor. }
  repeat constructor.
Qed.
Lemma file_3tags_gmsh : gmsh_file dec dec dec two (txt file_3tags) nodes4 els_3.
Proof.
  exists (text "2 0 8"), (text "$EndMeshFormat"), (text "4"), (map text ["2 1 0 0"; "1 0 0 0"; " 4  1 1 0"; "3 0 1 0"]%string),
    (text "$EndNodes"), (text "1"), (map text ["1 2 3 7 8 9 1 2 3"]%string),
    [text "$EndElements"].
  eexists _, _, _, _, _, _, _, _, _, _.
  split. { apply (lines_join file_3tags). apply Forall_forall. intros l Hl. cbn in Hl. repeat (destruct Hl as [<-|Hl]; [vm_compute; intuition discriminate|]). destruct Hl. }
  split. { apply is_fields; [vm_compute; discriminate|vm_compute; reflexivity]. }
  split; [vm_compute; reflexivity|]. split; [vm_compute; reflexivity|]. split; [vm_compute; reflexivity|].
  split; [vm_compute; reflexivity|]. split; [reflexivity|]. split; [reflexivity|].
  split. { apply is_fields; [vm_compute; discriminate|vm_compute; reflexivity]. }
  split; [vm_compute; reflexivity|]. split; [reflexivity|].
  split. { repeat (constructor; [nodeline|]). constructor. }
  split. { apply is_fields; [vm_compute; discriminate|vm_compute; reflexivity]. }
  split; [vm_compute; reflexivity|]. split; [reflexivity|].
  split. { repeat (constructor; [elline|]). constructor. }
  repeat constructor.
Qed.
Lemma nodes4_numbered : numbered nodes4.
Proof.
  split.
  - cbn. repeat constructor; cbn; intuition discriminate.
  - cbn. intros n H. intuition lia.
Qed.

Example C24_witness : small_text (txt file_ok) /\ gmsh_file dec dec dec two (txt file_ok) nodes4 els_ok /\ numbered nodes4 /\
  mesh_elements els_ok = (3, [mkel 2 2 [5; 6] [1; 3; 2]; mkel 3 2 [5; 6] [2; 4; 3]]%Z) /\
  forall jk jp ji jx jv je jf jb,
    readMesh Z Z.sub Z.mul (fun x => x <? 0)%Z dec dec dec two jk jp ji jx (Some (txt file_ok)) 0 jv je jf jb =
    Ok (mkmesh Z [0; 0; 0; 1; 0; 0; 0; 1; 0; 1; 1; 0]%Z 4 3 2 [0; 1; 2; 1; 3; 2]%Z
          [0; 1; 0; 1; 1; 0] [0; 2; 2; 0; 1; 1] [3; 0; 3; 3; 3; 0]%Z).
Proof.
  split; [vm_compute; reflexivity|]. split; [exact file_ok_gmsh|]. split; [exact nodes4_numbered|].
  split; [reflexivity|]. intros [jk1 jk2] jp ji jx jv je jf jb. vm_compute. reflexivity.
Qed.

(* A well-formed file with three tags per element: the vertices read are not those of the file. *)
Theorem C24_other_tag_counts_refuted : exists t nodes els w,
  small_text t /\ gmsh_file dec dec dec two t nodes els /\ numbered nodes /\
  (forall jv, readMesh_raw Z dec dec dec two (Some t) 0 jv = Ok w) /\
  rE2V Z w <> vertex_table (snd (mesh_elements els)).
Proof.
  exists (txt file_3tags), nodes4, els_3, (mkraw Z [0; 0; 0; 1; 0; 0; 0; 1; 0; 1; 1; 0]%Z 4 3 1 [8; 0; 1]%Z).
  split; [vm_compute; reflexivity|]. split; [exact file_3tags_gmsh|]. split; [exact nodes4_numbered|].
  split; [intros; vm_compute; reflexivity|]. vm_compute. discriminate.
Qed.
Print Assumptions C24_other_tag_counts_refuted.

(* ---------- C58 ---------- *)
(* Triangle meshes: every face holds the tag (0 read as wall) of the first listed segment whose line
   passes through the face's mid point, within the tolerance, and 0 if there is none. *)
Theorem C58_segment_table : forall X r_sub r_mul r_add half small K (V : list X) E2V edges BC0,
  length E2V = K * 3 -> length BC0 = K * 3 ->
  (forall v, In v E2V -> exists x y, vertex_at 3 V v x y) -> Forall (segment_row V) edges ->
  exists bc, buildBCTable_edges X r_sub r_mul r_add half small K 3 V E2V edges BC0 = Ok bc /\ length bc = K * 3 /\
    forall g v1 v2, face 3 E2V g v1 v2 -> exists t, entry bc g t /\
      ((exists n e, nth_error edges n = Some e /\ on_line r_sub r_mul r_add half small V e v1 v2 t /\
          forall m e', m < n -> nth_error edges m = Some e' -> forall t', ~ on_line r_sub r_mul r_add half small V e' v1 v2 t') \/
       (t = 0%Z /\ forall e t', In e edges -> ~ on_line r_sub r_mul r_add half small V e v1 v2 t')).
Proof. exact edges_table_ok. Qed.
Print Assumptions C58_segment_table.

(* Quadrilateral meshes: a vertex in the upper part of the table is looked up out of range. *)
Theorem C58_quadrilaterals_out_of_range : forall X r_sub r_mul r_add half small K NV (V : list X) E2V edges BC0 v,
  length V = NV * 3 -> length E2V = K * 4 -> In v E2V -> (Z.of_nat NV * 3 <= 4 * v + 1)%Z ->
  buildBCTable_edges X r_sub r_mul r_add half small K 4 V E2V edges BC0 = UB.
Proof. intros. eapply edges_table_stride; eauto. Qed.
Print Assumptions C58_quadrilaterals_out_of_range.

(* Doubles. Three triangles; the only listed segment joins vertices 1 and 2 at (0,0) and (1,0); the face
   from (1,0) to (2,0) is shared by two triangles and is tagged as well. *)
Definition d0 : dbl := S754_zero false.
Definition dneg1 : dbl := S754_finite true 4503599627370496 (-52).
Definition dhalf : dbl := S754_finite false 4503599627370496 (-53).
Definition dsmall (x : dbl) : bool := SFltb (SFabs x) d_tol.
Definition lshape : list dbl := [d0; d0; d0; d_one; d0; d0; d_two; d0; d0; d_one; d_one; d0; d_two; dneg1; d0].
Theorem C58_interior_faces_untagged_refuted : exists E2V edges bc,
  mesh_table 5 3 3 E2V /\ Forall (segment_row lshape) edges /\
  buildBCTable_edges dbl d_sub d_mul d_add dhalf dsmall 3 3 lshape E2V edges (repeat 0%Z 9) = Ok bc /\
  exists g h, shares 3 E2V g h /\ entry bc g 6%Z.
Proof.
  exists [0; 1; 3; 1; 2; 3; 1; 4; 2]%Z, [[1; 1; 2; 6; 6; 1; 2]]%Z. eexists. split; [|split; [|split]].
  - constructor; auto.
    + intros v Hv. cbn in Hv. intuition lia.
    + intros g a b (A & B). destruct g as [|[|[|[|[|[|[|[|[|g]]]]]]]]]; [..|destruct g; discriminate A]; cbn in A, B; congruence.
    + unfold INT_MAX. lia.
  - constructor; [|constructor]. eexists _, _, _, _, _, _, _. repeat (split; [reflexivity|]).
    split; (split; [lia|]; split; reflexivity).
  - vm_compute. reflexivity.
  - exists 3, 8. split; [|vm_compute; reflexivity]. split; [lia|]. exists 1%Z, 2%Z, 2%Z, 1%Z.
    split; [split; reflexivity|]. split; [split; reflexivity|]. right. auto.
Qed.
Print Assumptions C58_interior_faces_untagged_refuted.
Example C58_witness : Forall (segment_row lshape) [[1; 1; 2; 6; 6; 1; 2]]%Z /\
  (forall v, In v [0; 1; 3; 1; 2; 3; 1; 4; 2]%Z -> exists x y, vertex_at 3 lshape v x y) /\
  (Z.of_nat 4 * 3 <= 4 * 3 + 1)%Z /\ In 3%Z [0; 1; 2; 3]%Z.
Proof.
  split; [|split].
  - constructor; [|constructor]. eexists _, _, _, _, _, _, _. repeat (split; [reflexivity|]).
    split; (split; [lia|]; split; reflexivity).
  - cbn. intros v H. repeat (destruct H as [<-|H]; [eexists _, _; split; [lia|]; split; reflexivity|]). destruct H.
  - cbn. intuition lia.
Qed.
