(* MeshEdgeProofs.v - the boundary table built from listed segments, and the whole of readMesh. *)
From Coq Require Import ZArith List Lia Bool.
From Verif Require Import Base Loops BlitzProofs CscProofs MeshModel MeshSpec MeshFileSpec MeshProofs MeshGeoProofs MeshFileProofs
  CsvModel CsvSpec.
Import ListNotations.
Local Open Scope nat_scope.

Section Edges.
Variable X : Type.
Variable r_sub r_mul r_add : X -> X -> X.
Variable half : X.
Variable small : X -> bool.
Notation line_of := (on_line r_sub r_mul r_add half small).

Lemma coord_ok (V : list X) v x y : vertex_at 3 V v x y -> coord X 3 V v 0 = Ok x /\ coord X 3 V v 1 = Ok y.
Proof. intros H. apply (get_vertex X 3) in H. exact H. Qed.

Lemma vertex_fun (V : list X) v x y x' y' : vertex_at 3 V v x y -> vertex_at 3 V v x' y' -> x = x' /\ y = y'.
Proof. intros (_ & A & B) (_ & C & D). split; congruence. Qed.

Lemma edge_loop_ok (V : list X) v1 v2 ux uy wx wy edges : vertex_at 3 V v1 ux uy -> vertex_at 3 V v2 wx wy ->
  Forall (segment_row V) edges ->
  exists o, edge_loop X r_sub r_mul small 3 V (r_mul half (r_add ux wx)) (r_mul half (r_add uy wy)) edges = Ok o /\
    match o with
    | Some t => exists n e, nth_error edges n = Some e /\ line_of V e v1 v2 t /\
        forall m e', m < n -> nth_error edges m = Some e' -> forall t', ~ line_of V e' v1 v2 t'
    | None => forall e t, In e edges -> ~ line_of V e v1 v2 t
    end.
Proof.
  intros H1 H2. induction 1 as [|e edges (a & b & t0 & x1 & y1 & x2 & y2 & Ea & Eb & Et & Va & Vb) F (o & IH & IHo)].
  - exists None. split; auto.
  - cbn [edge_loop]. rewrite (getn_ok _ _ _ Ea), (getn_ok _ _ _ Eb), (getn_ok _ _ _ Et). cbn [bind].
    destruct (coord_ok _ _ _ _ Va) as (-> & ->). destruct (coord_ok _ _ _ _ Vb) as (-> & ->). cbn [bind].
    assert (U : forall t', line_of V e v1 v2 t' ->
      small (r_sub (r_mul (r_sub y2 (r_mul half (r_add uy wy))) (r_sub x2 x1))
                   (r_mul (r_sub y2 y1) (r_sub x2 (r_mul half (r_add ux wx))))) = true).
    { intros t' (a' & b' & t0' & x1' & y1' & x2' & y2' & ux' & uy' & wx' & wy' & A & B & C & D & G & H & K & S & _).
      assert (a' = a) by congruence. assert (b' = b) by congruence. subst a' b'.
      destruct (vertex_fun _ _ _ _ _ _ D Va) as (-> & ->). destruct (vertex_fun _ _ _ _ _ _ G Vb) as (-> & ->).
      destruct (vertex_fun _ _ _ _ _ _ H H1) as (-> & ->). destruct (vertex_fun _ _ _ _ _ _ K H2) as (-> & ->). exact S. }
    destruct (small _) eqn:Sm.
    + eexists. split; [reflexivity|]. cbn. exists 0, e. split; auto. split; [|intros; lia].
      exists a, b, t0, x1, y1, x2, y2, ux, uy, wx, wy. unfold Wall. auto 12.
    + exists o. split; auto. destruct o as [t|].
      * destruct IHo as (n & e' & N & L & M). exists (S n), e'. split; auto. split; auto.
        intros m e'' Hm Hm' t' L'. destruct m as [|m].
        -- injection Hm' as <-. apply U in L'. congruence.
        -- eapply (M m); eauto. lia.
      * intros e' t' [<-|Hin] L'; [apply U in L'; congruence|eapply IHo; eauto].
Qed.

(* Triangle meshes: every face holds the tag of the first listed segment whose line passes through its mid point. *)
Definition edge_tag (V : list X) (edges : list (list Z)) (v1 v2 t : Z) : Prop :=
  (exists n e, nth_error edges n = Some e /\ line_of V e v1 v2 t /\
     forall m e', m < n -> nth_error edges m = Some e' -> forall t', ~ line_of V e' v1 v2 t') \/
  (t = 0%Z /\ forall e t', In e edges -> ~ line_of V e v1 v2 t').

Lemma bc_face_ok (V : list X) E2V edges K k f bc : length E2V = K * 3 -> length bc = K * 3 -> k < K -> f < 3 ->
  (forall v, In v E2V -> known X 3 V v) -> Forall (segment_row V) edges -> entry bc (k * 3 + f) 0%Z ->
  exists bc', bc_face X r_sub r_mul r_add half small 3 V E2V edges k f bc = Ok bc' /\ length bc' = K * 3 /\
    (forall g, g <> k * 3 + f -> nth_error bc' g = nth_error bc g) /\
    forall v1 v2, face 3 E2V (k * 3 + f) v1 v2 -> exists t, entry bc' (k * 3 + f) t /\ edge_tag V edges v1 v2 t.
Proof.
  intros HL HB Hk Hf HV HS H0. unfold bc_face.
  assert (Hf' : (f + 1) mod 3 < 3) by (apply Nat.mod_upper_bound; lia).
  destruct (nth_error_ex E2V (k * 3 + f)) as (v1 & E1); [lia|].
  destruct (nth_error_ex E2V (k * 3 + (f + 1) mod 3)) as (v2 & E2); [lia|].
  rewrite (getn_ok _ _ _ E1), (getn_ok _ _ _ E2). cbn [bind].
  destruct (HV v1) as (ux & uy & V1); [eapply nth_error_In; eauto|].
  destruct (HV v2) as (wx & wy & V2); [eapply nth_error_In; eauto|].
  destruct (coord_ok _ _ _ _ V1) as (-> & ->). destruct (coord_ok _ _ _ _ V2) as (-> & ->). cbn [bind].
  destruct (edge_loop_ok V v1 v2 ux uy wx wy edges V1 V2 HS) as (o & E & Ho). rewrite E. cbn [bind].
  assert (FF : forall a b, face 3 E2V (k * 3 + f) a b -> a = v1 /\ b = v2).
  { intros a b (A & B). rewrite (Nat.add_comm (k * 3) f), Nat.div_add, Nat.mod_add in B by lia.
    rewrite (Nat.div_small f 3), (Nat.mod_small f 3) in B by lia. cbn [Nat.add] in B. split; congruence. }
  replace (3 * k + f) with (k * 3 + f) by lia.
  destruct o as [t|].
  - rewrite setn_ok by lia. eexists. split; [reflexivity|]. rewrite upd_length. split; auto. split.
    + intros g Hg. apply nth_error_upd_neq. auto.
    + intros a b Hab. destruct (FF a b Hab) as (-> & ->). exists t. split; [|left; exact Ho].
      apply nth_error_upd_eq. lia.
  - exists bc. split; auto. split; auto. split; auto.
    intros a b Hab. destruct (FF a b Hab) as (-> & ->). exists 0%Z. split; auto. right. auto.
Qed.

Lemma edges_table_ok K (V : list X) E2V edges BC0 : length E2V = K * 3 -> length BC0 = K * 3 ->
  (forall v, In v E2V -> known X 3 V v) -> Forall (segment_row V) edges ->
  exists bc, buildBCTable_edges X r_sub r_mul r_add half small K 3 V E2V edges BC0 = Ok bc /\ length bc = K * 3 /\
    forall g v1 v2, face 3 E2V g v1 v2 -> exists t, entry bc g t /\ edge_tag V edges v1 v2 t.
Proof.
  intros HL HB HV HS. unfold buildBCTable_edges.
  pose (P := fun n (bc : list Z) => length bc = K * 3 /\
    (forall g, n <= g < K * 3 -> entry bc g 0%Z) /\
    forall g v1 v2, g < n -> face 3 E2V g v1 v2 -> exists t, entry bc g t /\ edge_tag V edges v1 v2 t).
  destruct (for_inv (fun k bc => P (k * 3) bc) K
    (fun k => for_ 3 (bc_face X r_sub r_mul r_add half small 3 V E2V edges k)) (map (fun _ => 0%Z) BC0)) as (bc & E & HP).
  - split; [now rewrite map_length|]. split; [|intros; lia]. intros g Hg. unfold entry.
    destruct (nth_error_ex BC0 g) as (z & Hz); [lia|]. exact (map_nth_error (fun _ => 0%Z) g BC0 Hz).
  - intros k bc Hk HP.
    destruct (for_inv (fun f bc => P (k * 3 + f) bc) 3 (bc_face X r_sub r_mul r_add half small 3 V E2V edges k) bc) as (bc' & E & HP').
    + now rewrite Nat.add_0_r.
    + intros f b Hf (L & Z0 & Hd).
      destruct (bc_face_ok V E2V edges K k f b) as (b' & E & L' & Ho & Hn); auto.
      { apply Z0. nia. }
      exists b'. split; auto. split; auto. split.
      * intros g Hg. unfold entry. rewrite Ho by lia. apply Z0. lia.
      * intros g v1 v2 Hg Hfc. destruct (Nat.eq_dec g (k * 3 + f)) as [->|Hne]; [auto|].
        unfold entry. rewrite Ho by auto. apply Hd; auto. lia.
    + exists bc'. split; auto. replace (S k * 3) with (k * 3 + 3) by lia. exact HP'.
  - exists bc. split; auto. destruct HP as (A & B & C). split; auto.
    intros g v1 v2 Hf. apply C; auto. destruct Hf as (Hf & _). apply nth_error_Some_lt in Hf. lia.
Qed.

(* Quadrilateral meshes: vertices are addressed with stride 4 in a table with three coordinates per vertex. *)
Lemma get_nothrow {A} (l : list A) i : get l i <> Throw.
Proof. unfold get. destruct (i <? 0)%Z; [discriminate|]. destruct (nth_error l (Z.to_nat i)); discriminate. Qed.
Lemma getn_nothrow {A} (l : list A) i : getn l i <> Throw.
Proof. unfold getn. destruct (nth_error l i); discriminate. Qed.
Lemma bind_nothrow {A B} (o : outcome A) (f : A -> outcome B) : o <> Throw -> (forall a, f a <> Throw) -> bind o f <> Throw.
Proof. destruct o; cbn; auto. discriminate. Qed.
Lemma bind_UB {A B} (o : outcome A) (f : A -> outcome B) : o <> Throw -> (forall a, f a = UB) -> bind o f = UB.
Proof. destruct o; cbn; auto. easy. Qed.

Lemma edge_loop_nothrow NF V mx my edges : edge_loop X r_sub r_mul small NF V mx my edges <> Throw.
Proof.
  induction edges as [|e edges IH]; cbn [edge_loop]; [discriminate|].
  unfold coord. repeat (apply bind_nothrow; [first [apply getn_nothrow|apply get_nothrow]|intros ?]).
  destruct (small _); [discriminate|exact IH].
Qed.

Lemma bc_face_nothrow NF V E2V edges k f bc : bc_face X r_sub r_mul r_add half small NF V E2V edges k f bc <> Throw.
Proof.
  unfold bc_face, coord. repeat (apply bind_nothrow; [first [apply getn_nothrow|apply get_nothrow|apply edge_loop_nothrow]|intros ?]).
  destruct a5; [|discriminate]. unfold setn. destruct (_ <? _); discriminate.
Qed.

Lemma for_from_UB {S} (f : nat -> S -> outcome S) i : (forall j s, f j s <> Throw) -> (forall s, f i s = UB) ->
  forall n lo s, lo <= i < lo + n -> for_from lo n f s = UB.
Proof.
  intros HT HU. induction n as [|n IH]; intros lo s H; [lia|]. cbn [for_from].
  destruct (Nat.eq_dec lo i) as [->|]; [now rewrite HU|]. apply bind_UB; auto. intros. apply IH. lia.
Qed.

Lemma for_from_nothrow {S} (f : nat -> S -> outcome S) : (forall j s, f j s <> Throw) ->
  forall n lo s, for_from lo n f s <> Throw.
Proof.
  intros HT. induction n as [|n IH]; intros lo s; cbn [for_from]; [discriminate|]. apply bind_nothrow; auto.
Qed.

Lemma edges_table_stride K NV (V : list X) E2V edges BC0 v : length V = NV * 3 -> length E2V = K * 4 ->
  In v E2V -> (Z.of_nat NV * 3 <= 4 * v + 1)%Z ->
  buildBCTable_edges X r_sub r_mul r_add half small K 4 V E2V edges BC0 = UB.
Proof.
  intros HV HL Hin Hv. apply In_nth_error in Hin. destruct Hin as (g & Hg).
  assert (Hgl : g < K * 4) by (rewrite <- HL; eapply nth_error_Some_lt; eauto).
  assert (Hm : g mod 4 < 4) by (apply Nat.mod_upper_bound; lia).
  assert (Hd : g / 4 < K) by (apply Nat.div_lt_upper_bound; lia).
  pose proof (Nat.div_mod g 4 ltac:(lia)) as Hdm.
  unfold buildBCTable_edges, for_. apply (for_from_UB _ (g / 4)); [| |lia].
  - intros j s. apply for_from_nothrow. intros; apply bc_face_nothrow.
  - intros s. apply (for_from_UB _ (g mod 4)); [intros; apply bc_face_nothrow| |lia].
    intros bc. unfold bc_face. replace (g / 4 * 4 + g mod 4) with g by lia.
    rewrite (getn_ok _ _ _ Hg). cbn [bind]. apply bind_UB; [apply getn_nothrow|intros v2].
    apply bind_UB; [apply get_nothrow|intros x]. unfold coord at 1.
    unfold get at 1. destruct (Z.ltb_spec (v * Z.of_nat 4 + 1) 0); [reflexivity|].
    destruct (nth_error V (Z.to_nat (v * Z.of_nat 4 + 1))) eqn:Q; [|reflexivity].
    apply nth_error_Some_lt in Q. lia.
Qed.
End Edges.

(* ---- whole ---- *)
Section Whole.
Variable X : Type.
Variable r_sub r_mul : X -> X -> X.
Variable neg : X -> bool.

Lemma finish_ok dim NF K NV (V : list X) E jk jp ji jx je jf jb :
  NF = 3 \/ NF = 4 -> length E = K * NF -> (forall v, In v E -> (0 <= v < Z.of_nat NV)%Z) ->
  (forall v, In v E -> known X dim V v) -> distinct_verts NF E -> (Z.of_nat NV * Z.of_nat (NF * K) <= INT_MAX)%Z ->
  exists m, finish_mesh X r_sub r_mul neg jk jp ji jx dim (mkraw X V NV NF K E) je jf jb = Ok m /\
    Vert X m = V /\ NumVerts X m = NV /\ NumFaces X m = NF /\ NumElements X m = K /\
    length (EToV X m) = K * NF /\ (forall k, k < K -> turned X r_sub r_mul neg dim NF V E (EToV X m) k) /\
    permuted NF K E (EToV X m) /\ distinct_verts NF (EToV X m) /\ mesh_table NV K NF (EToV X m) /\
    length (EToE X m) = K * NF /\ length (EToF X m) = K * NF /\ length (BCType X m) = K * NF /\
    forall g, g < K * NF -> exists h, links NF (EToE X m) (EToF X m) g h /\ neighbour NF (EToV X m) g h /\
      entry (BCType X m) g (if h =? g then 3%Z else 0%Z).
Proof.
  intros HN HL HR HV HD HS. unfold finish_mesh. cbn [rK rNF rVert rE2V rNV].
  destruct (orient_ok X r_sub r_mul neg dim NF K V E) as (E' & EO & HL' & HV' & HT); auto; [lia|].
  rewrite EO. cbn [bind].
  assert (HP : permuted NF K E E').
  { split; auto. intros k Hk. eapply turned_perm; eauto. lia. }
  assert (HD' : distinct_verts NF E') by (apply (permuted_distinct NF K E E'); auto; lia).
  assert (HM : mesh_table NV K NF E').
  { constructor; auto.
    - intros v Hv. apply HR. apply (permuted_in NF K E E'); auto. lia.
    - intros g a b. apply distinct_faces; auto. }
  destruct (buildConnectivity_ok NF E' jk jp ji jx NV K (map je (seq 0 (K * NF))) (map jf (seq 0 (K * NF))) HM)
    as (E2E & E2F & EC & L1 & L2 & HC).
  { now rewrite map_length, seq_length. } { now rewrite map_length, seq_length. }
  rewrite EC. cbn [bind].
  destruct (buildBCTable_ok K NF E2E Wall (map jb (seq 0 (K * NF)))) as (bc & EB & LB & HB); auto.
  { now rewrite map_length, seq_length. }
  rewrite EB. cbn [bind]. eexists. split; [reflexivity|]. cbn.
  repeat (split; [auto; fail|]). intros g Hg. destruct (HC g Hg) as (h & Hl & Hn). exists h. split; auto. split; auto.
  destruct Hl as (Hl1 & _). specialize (HB g _ Hl1).
  replace (h =? g) with (h / NF =? g / NF); auto.
  destruct (Nat.eqb_spec h g) as [->|Hne]; [apply Nat.eqb_refl|]. apply Nat.eqb_neq. intros Q.
  destruct Hn as [(-> & _)|(Hs & _)]; [easy|]. apply (same_element_not_shared NF E' g h) in Hs; auto.
Qed.
End Whole.

Lemma vertex_table_length NF es : (forall e, In e es -> length (e_verts e) = NF) ->
  length (vertex_table es) = length es * NF.
Proof.
  induction es as [|e es IH]; intros H; auto. unfold vertex_table in *. cbn [flat_map length].
  rewrite app_length, map_length, IH by (intros; apply H; now right).
  now rewrite (H e (or_introl eq_refl)).
Qed.

Lemma vertex_table_nth NF es : (forall e, In e es -> length (e_verts e) = NF) -> forall k i, i < NF ->
  nth_error (vertex_table es) (k * NF + i) =
  match nth_error es k with Some e => option_map (fun v => (v - 1)%Z) (nth_error (e_verts e) i) | None => None end.
Proof.
  induction es as [|e es IH]; intros H k i Hi.
  - cbn. now destruct k, (_ + i).
  - pose proof (H e (or_introl eq_refl)) as He.
    cbn [vertex_table flat_map]. destruct k as [|k]; cbn [nth_error].
    + cbn [Nat.mul Nat.add]. rewrite nth_error_app1 by (rewrite map_length; lia). apply nth_error_map.
    + rewrite nth_error_app2 by (rewrite map_length; cbn; lia). rewrite map_length, He.
      replace (S k * NF + i - NF) with (k * NF + i) by (cbn; lia). apply IH; auto. intros; apply H. now right.
Qed.

Lemma vertex_table_distinct NF es : (forall e, In e es -> length (e_verts e) = NF /\ NoDup (e_verts e)) ->
  distinct_verts NF (vertex_table es).
Proof.
  intros H k i j v Hi Hj A B.
  rewrite (vertex_table_nth NF) in A, B by (auto; intros e He; apply H; auto).
  destruct (nth_error es k) as [e|] eqn:E; [|discriminate]. destruct (H e) as (HL & ND); [eapply nth_error_In; eauto|].
  destruct (nth_error (e_verts e) i) as [x|] eqn:Ex; [|discriminate].
  destruct (nth_error (e_verts e) j) as [y|] eqn:Ey; [|discriminate]. cbn in A, B.
  assert (x = y) by (injection A as A; injection B as B; lia). subst.
  apply (proj1 (NoDup_nth_error (e_verts e)) ND i j); [lia|congruence].
Qed.

Lemma vertex_table_in es v : In v (vertex_table es) -> exists e, In e es /\ In (v + 1)%Z (e_verts e).
Proof.
  unfold vertex_table. rewrite in_flat_map. intros (e & He & Hv). apply in_map_iff in Hv. destruct Hv as (x & <- & Hx).
  exists e. split; auto. now replace (x - 1 + 1)%Z with x by lia.
Qed.

Lemma mesh_elements_in els e : In e (snd (mesh_elements els)) -> length (e_verts e) = fst (mesh_elements els) /\ In e els.
Proof.
  unfold mesh_elements. destruct (sized 4 els) as [|q qs] eqn:Q; cbn [fst snd]; intros H.
  - now apply sized_in.
  - apply sized_in. now rewrite Q.
Qed.
Lemma mesh_elements_nf els : fst (mesh_elements els) = 3 \/ fst (mesh_elements els) = 4.
Proof. unfold mesh_elements. destruct (sized 4 els); cbn; auto. Qed.

Section Read.
Variable X : Type.
Variable r_sub r_mul : X -> X -> X.
Variable neg : X -> bool.
Variable stoi : str -> option (Z * nat).
Variable stod stof : str -> option (X * nat).
Variable vers_ok : X -> bool.

Lemma read_ok t nodes els NV0 jv jk jp ji jx je jf jb : small_text t ->
  gmsh_file stoi stod stof vers_ok t nodes els -> numbered nodes ->
  (forall e, In e (snd (mesh_elements els)) -> length (e_tags e) = 2 /\ NoDup (e_verts e) /\
     forall v, In v (e_verts e) -> (1 <= v <= Z.of_nat (length nodes))%Z) ->
  (Z.of_nat (length nodes) * Z.of_nat (fst (mesh_elements els) * length (snd (mesh_elements els))) <= INT_MAX)%Z ->
  let NF := fst (mesh_elements els) in let K := length (snd (mesh_elements els)) in
  let E := vertex_table (snd (mesh_elements els)) in
  exists m, readMesh X r_sub r_mul neg stoi stod stof vers_ok jk jp ji jx (Some t) NV0 jv je jf jb = Ok m /\
    NumVerts X m = length nodes /\ NumFaces X m = NF /\ NumElements X m = K /\
    holds_nodes (Vert X m) nodes /\ length E = K * NF /\ (forall v, In v E -> known X 3 (Vert X m) v) /\
    length (EToV X m) = K * NF /\ length (EToE X m) = K * NF /\ length (EToF X m) = K * NF /\ length (BCType X m) = K * NF /\
    (forall k, k < K -> turned X r_sub r_mul neg 3 NF (Vert X m) E (EToV X m) k) /\ permuted NF K E (EToV X m) /\
    forall g, g < K * NF -> exists h, links NF (EToE X m) (EToF X m) g h /\ neighbour NF (EToV X m) g h /\
      entry (BCType X m) g (if h =? g then 3%Z else 0%Z).
Proof.
  intros Hsm HG HN HE HS NF K E. unfold readMesh. rewrite (readMesh_raw_ok X stoi stod stof vers_ok t nodes els NV0 jv Hsm HG HN).
  assert (HV : forall e, In e (snd (mesh_elements els)) -> length (e_verts e) = NF) by (intros; now apply mesh_elements_in).
  rewrite elements_table_ok.
  2:{ intros e He. split; [apply HE; auto|apply HV; auto]. }
  cbn [bind].
  set (V := fold_left (put_node X) nodes (map jv (seq 0 (length nodes * 3)))).
  assert (LV : length V = length nodes * 3).
  { unfold V. rewrite put_nodes_length, map_length, seq_length. auto. }
  assert (HR : forall v, In v E -> (0 <= v < Z.of_nat (length nodes))%Z).
  { intros v Hv. apply vertex_table_in in Hv. destruct Hv as (e & He & Hv). destruct (HE e He) as (_ & _ & H).
    specialize (H _ Hv). lia. }
  assert (HK : forall v, In v E -> known X 3 V v).
  { intros v Hv. specialize (HR v Hv).
    destruct (nth_error_ex V (Z.to_nat v * 3)) as (x & Hx); [lia|].
    destruct (nth_error_ex V (Z.to_nat v * 3 + 1)) as (y & Hy); [lia|].
    exists x, y. split; [lia|]. auto. }
  destruct (finish_ok X r_sub r_mul neg 3 NF K (length nodes) V E jk jp ji jx je jf jb) as
    (m & EM & M1 & M2 & M3 & M4 & M5 & M6 & M7 & M8 & M9 & M10 & M11 & M12 & M13); auto.
  - apply mesh_elements_nf.
  - unfold E. apply vertex_table_length; auto.
  - unfold E. apply vertex_table_distinct. intros e He. split; auto. now apply HE.
  - exists m. split; [exact EM|]. rewrite M1.
    assert (HH : holds_nodes V nodes).
    { split; [lia|]. destruct HN as (ND & HN). intros n x y z Hin. apply put_nodes_at; auto.
      intros n' Hn'. specialize (HN (fst n') (in_map fst _ _ Hn')). rewrite map_length, seq_length. lia. }
    assert (LE : length E = K * NF) by (unfold E; apply vertex_table_length; auto).
    repeat (split; [assumption|]). assumption.
Qed.
End Read.
