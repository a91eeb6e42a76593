(* MeshGeoProofs.v - symmetry of the connectivity, boundary table, orientation. *)
From Coq Require Import ZArith List Lia Bool Reals Lra.
From Verif Require Import Base Loops BlitzProofs CscProofs MeshModel MeshSpec MeshProofs.
Import ListNotations.
Local Open Scope nat_scope.

Lemma shares_sym NF E2V g h : shares NF E2V g h -> shares NF E2V h g.
Proof.
  intros (N & a & b & c & d & F1 & F2 & P). split; auto. exists c, d, a, b. split; auto. split; auto.
  unfold same_pair in *. intuition.
Qed.

Lemma neighbour_sym NF E2V g h : conforming NF E2V -> neighbour NF E2V g h -> neighbour NF E2V h g.
Proof.
  intros C [(-> & H)|(H & M)]; [left; auto|]. right. split; [now apply shares_sym|].
  intros h' H'. assert (h' = g) by (eapply C; [eassumption|now apply shares_sym]). lia.
Qed.

Lemma neighbour_lt NV K NF E2V g h : mesh_table NV K NF E2V -> g < K * NF -> neighbour NF E2V g h -> h < K * NF.
Proof.
  intros M Hg [(-> & _)|(S & _)]; auto. eapply shares_lt in S; [|apply (mt_len _ _ _ _ M)]. tauto.
Qed.

Lemma neighbour_fun NF E2V g h h' : neighbour NF E2V g h -> neighbour NF E2V g h' -> h = h'.
Proof.
  intros [(-> & A)|(A & B)] [(-> & C)|(C & D)]; auto.
  - exfalso; eapply A; eauto.
  - exfalso; eapply C; eauto.
  - apply Nat.le_antisymm; auto.
Qed.

Lemma links_inj NF E2E E2F g h h' : 0 < NF -> links NF E2E E2F g h -> links NF E2E E2F g h' -> h = h'.
Proof.
  intros H (A & B) (C & D). rewrite A in C. rewrite B in D. injection C as C. injection D as D.
  rewrite (Nat.div_mod h NF), (Nat.div_mod h' NF) by lia. congruence.
Qed.

Lemma oriented_opposite NF E2V g h a b : oriented NF E2V -> shares NF E2V g h -> face NF E2V g a b ->
  face NF E2V h b a.
Proof.
  intros O (N & a' & b' & c & d & (F1 & F1') & F2 & P) (Fa & Fb).
  assert (a' = a) by congruence. assert (b' = b) by congruence. subst.
  destruct P as [(<- & <-)|(<- & <-)]; auto.
  exfalso. apply N. apply (O g h a b); auto. split; auto.
Qed.

(* ---- boundary table ---- *)
Lemma buildBCTable_ok K NF E2E tag BC0 : length E2E = K * NF -> length BC0 = K * NF ->
  exists bc, buildBCTable K NF E2E tag BC0 = Ok bc /\ length bc = K * NF /\
    forall f k2, entry E2E f k2 -> entry bc f (if k2 =? f / NF then tag else 0%Z).
Proof.
  intros L1 L2. unfold buildBCTable. rewrite (Nat.mul_comm NF K). set (F := K * NF) in *.
  destruct (for_inv (fun n (bc : list Z) => length bc = F /\ forall f k2, entry E2E f k2 ->
     entry bc f (if f <? n then (if k2 =? f / NF then tag else 0%Z) else 0%Z)) F
    (fun f bc => bind (getn E2E f) (fun k2 => if k2 =? f / NF then setn bc f tag else Ok bc))
    (map (fun _ => 0%Z) BC0)) as (bc & E & A & B).
  - rewrite map_length. split; auto. intros f k2 Hf. unfold entry. rewrite nth_error_map.
    apply nth_error_Some_lt in Hf. destruct (nth_error_ex BC0 f) as (x & ->); [lia|]. reflexivity.
  - intros f bc Hf (A & B). destruct (nth_error_ex E2E f) as (k2 & Hk); [lia|].
    rewrite (getn_ok _ _ _ Hk). cbn [bind].
    destruct (k2 =? f / NF) eqn:Ek.
    + rewrite setn_ok by lia. eexists. split; [reflexivity|]. rewrite upd_length. split; auto.
      intros f' k' H'. unfold entry. rewrite nth_error_upd_if by lia.
      destruct (Nat.eqb_spec f' f) as [->|N].
      * unfold entry in H'. assert (k' = k2) by congruence. subst. rewrite Ek.
        destruct (Nat.ltb_spec f (S f)); [auto|lia].
      * rewrite (B f' k' H'). destruct (Nat.ltb_spec f' f), (Nat.ltb_spec f' (S f)); auto; lia.
    + eexists. split; [reflexivity|]. split; auto.
      intros f' k' H'. unfold entry. rewrite (B f' k' H').
      destruct (Nat.ltb_spec f' f), (Nat.ltb_spec f' (S f)); auto; [lia|].
      assert (f' = f) by lia. subst. unfold entry in H'. assert (k' = k2) by congruence. subst. now rewrite Ek.
  - exists bc. split; auto. split; auto. intros f k2 H. unfold entry. rewrite (B f k2 H).
    apply nth_error_Some_lt in H. destruct (Nat.ltb_spec f F); auto; lia.
Qed.

Lemma face_corner NF E2V g a b : face NF E2V g a b ->
  0 < NF -> corner NF E2V (g / NF) (g mod NF) a /\ corner NF E2V (g / NF) ((g mod NF + 1) mod NF) b.
Proof.
  intros (A & B) H. unfold corner. split; auto. 
  replace (g / NF * NF + g mod NF) with g; auto. rewrite Nat.mul_comm. apply Nat.div_mod. lia.
Qed.

Lemma same_element_not_shared NF E2V g h : NF = 3 \/ NF = 4 -> distinct_verts NF E2V ->
  shares NF E2V g h -> g / NF <> h / NF.
Proof.
  intros Hnf D (N & a & b & c & d & F1 & F2 & P) E. assert (0 < NF) by lia.
  apply face_corner in F1; auto. apply face_corner in F2; auto.
  destruct F1 as (A1 & B1), F2 as (A2 & B2). rewrite E in A1, B1.
  assert (Hg : g mod NF < NF) by (apply Nat.mod_upper_bound; lia).
  assert (Hh : h mod NF < NF) by (apply Nat.mod_upper_bound; lia).
  assert (Hg' : (g mod NF + 1) mod NF < NF) by (apply Nat.mod_upper_bound; lia).
  assert (Hh' : (h mod NF + 1) mod NF < NF) by (apply Nat.mod_upper_bound; lia).
  destruct P as [(-> & ->)|(-> & ->)].
  - assert (g mod NF = h mod NF) by (eapply D; eauto). apply N.
    rewrite (Nat.div_mod g NF), (Nat.div_mod h NF) by lia. congruence.
  - assert (X : g mod NF = (h mod NF + 1) mod NF) by (eapply D; eauto).
    assert (Y : (g mod NF + 1) mod NF = h mod NF) by (eapply D; eauto).
    rewrite X in Y. revert Y Hh. generalize (h mod NF) as x. clear - Hnf. intros x Y Hx.
    destruct Hnf; subst NF; [destruct x as [|[|[|x]]]|destruct x as [|[|[|[|x]]]]];
      first [lia|vm_compute in Y; discriminate].
Qed.

Lemma distinct_faces NF E2V g a b : NF = 3 \/ NF = 4 -> distinct_verts NF E2V -> face NF E2V g a b -> a <> b.
Proof.
  intros Hnf D F ->. apply face_corner in F; [|lia]. destruct F as (A & B).
  assert (Hg : g mod NF < NF) by (apply Nat.mod_upper_bound; lia).
  assert (Hg' : (g mod NF + 1) mod NF < NF) by (apply Nat.mod_upper_bound; lia).
  assert (X : g mod NF = (g mod NF + 1) mod NF) by (eapply D; eauto).
  revert X Hg. generalize (g mod NF) as x. clear - Hnf. intros x X Hx.
  destruct Hnf; subst NF; [destruct x as [|[|[|x]]]|destruct x as [|[|[|[|x]]]]];
      first [lia|vm_compute in X; discriminate].
Qed.

(* ---- orientation ---- *)
Section Orient.
Variable R : Type.
Variable r_sub r_mul : R -> R -> R.
Variable neg : R -> bool.
Definition det ax ay bx by_ cx cy :=
  r_sub (r_mul (r_sub ax cx) (r_sub by_ cy)) (r_mul (r_sub bx cx) (r_sub ay cy)).

Definition known (dim : nat) (V : list R) (v : Z) : Prop := exists x y, vertex_at dim V v x y.

Lemma get_vertex dim (V : list R) v x y : vertex_at dim V v x y ->
  get V (v * Z.of_nat dim + 0) = Ok x /\ get V (v * Z.of_nat dim + 1) = Ok y.
Proof.
  intros (H & A & B). unfold get.
  replace (Z.to_nat (v * Z.of_nat dim + 0)) with (Z.to_nat v * dim) by nia.
  replace (Z.to_nat (v * Z.of_nat dim + 1)) with (Z.to_nat v * dim + 1) by nia.
  rewrite A, B. split; destruct (Z.ltb_spec (v * Z.of_nat dim + 0) 0), (Z.ltb_spec (v * Z.of_nat dim + 1) 0);
    auto; nia.
Qed.

(* The vertices of element k after orientation, given those before. *)
Definition turned (dim NF : nat) (V : list R) (E E' : list Z) (k : nat) : Prop :=
  forall a b c ax ay bx by_ cx cy,
  corner NF E k 0 a -> corner NF E k 1 b -> corner NF E k 2 c ->
  vertex_at dim V a ax ay -> vertex_at dim V b bx by_ -> vertex_at dim V c cx cy ->
  corner NF E' k 0 a /\
  (if neg (det ax ay bx by_ cx cy) then corner NF E' k 1 c /\ corner NF E' k 2 b
   else corner NF E' k 1 b /\ corner NF E' k 2 c) /\
  forall i, 3 <= i < NF -> nth_error E' (k * NF + i) = nth_error E (k * NF + i).

Lemma orient_ok dim NF K (V : list R) (E : list Z) : 3 <= NF -> length E = K * NF ->
  (forall v, In v E -> known dim V v) ->
  exists E', orient R r_sub r_mul neg dim NF K V E = Ok E' /\ length E' = K * NF /\
    (forall v, In v E' -> known dim V v) /\ forall k, k < K -> turned dim NF V E E' k.
Proof.
  intros HN HL HV. unfold orient.
  destruct (for_inv (fun n (E' : list Z) => length E' = K * NF /\ (forall v, In v E' -> known dim V v) /\
      (forall k, k < n -> turned dim NF V E E' k) /\
      (forall i, n * NF <= i -> nth_error E' i = nth_error E i)) K (orient_step R r_sub r_mul neg dim NF V) E)
    as (E' & R1 & R2 & R3 & R4 & _).
  - split; auto. split; auto. split; auto. intros; lia.
  - intros k E1 Hk (A & B & C & D).
    destruct (nth_error_ex E1 (NF * k)) as (a & Ha); [nia|].
    destruct (nth_error_ex E1 (NF * k + 1)) as (b & Hb); [nia|].
    destruct (nth_error_ex E1 (NF * k + 2)) as (c & Hc); [nia|].
    destruct (B a) as (ax & ay & Va); [eapply nth_error_In; eauto|].
    destruct (B b) as (bx & by_ & Vb); [eapply nth_error_In; eauto|].
    destruct (B c) as (cx & cy & Vc); [eapply nth_error_In; eauto|].
    unfold orient_step. rewrite (getn_ok _ _ _ Ha), (getn_ok _ _ _ Hb), (getn_ok _ _ _ Hc). cbn [bind].
    rewrite (proj1 (get_vertex _ _ _ _ _ Va)), (proj2 (get_vertex _ _ _ _ _ Va)).
    rewrite (proj1 (get_vertex _ _ _ _ _ Vb)), (proj2 (get_vertex _ _ _ _ _ Vb)).
    rewrite (proj1 (get_vertex _ _ _ _ _ Vc)), (proj2 (get_vertex _ _ _ _ _ Vc)). cbn [bind].
    fold (det ax ay bx by_ cx cy).
    pose proof (D (NF * k) ltac:(nia)) as Da. pose proof (D (NF * k + 1) ltac:(nia)) as Db.
    pose proof (D (NF * k + 2) ltac:(nia)) as Dc.
    assert (Hk0 : k * NF + 0 = NF * k) by lia. assert (Hk1 : k * NF + 1 = NF * k + 1) by lia.
    assert (Hk2 : k * NF + 2 = NF * k + 2) by lia.
    assert (Det : forall a' b' c' x1 y1 x2 y2 x3 y3, corner NF E k 0 a' -> corner NF E k 1 b' -> corner NF E k 2 c' ->
       vertex_at dim V a' x1 y1 -> vertex_at dim V b' x2 y2 -> vertex_at dim V c' x3 y3 ->
       a' = a /\ b' = b /\ c' = c /\ det x1 y1 x2 y2 x3 y3 = det ax ay bx by_ cx cy).
    { unfold corner. intros a' b' c' x1 y1 x2 y2 x3 y3. rewrite Hk0, Hk1, Hk2, <- Da, <- Db, <- Dc, Ha, Hb, Hc.
      intros Q1 Q2 Q3. injection Q1 as <-. injection Q2 as <-. injection Q3 as <-.
      destruct Va as (_ & Va1 & Va2), Vb as (_ & Vb1 & Vb2), Vc as (_ & Vc1 & Vc2).
      intros (_ & P1 & P2) (_ & P3 & P4) (_ & P5 & P6). repeat split. congruence. }
    destruct (neg (det ax ay bx by_ cx cy)) eqn:En.
    + rewrite setn_ok by nia. cbn [bind]. rewrite setn_ok by (rewrite upd_length; nia).
      eexists. split; [reflexivity|]. rewrite !upd_length. split; auto.
      assert (N : forall i, nth_error (upd (upd E1 (NF * k + 1) c) (NF * k + 2) b) i =
          if i =? NF * k + 2 then Some b else if i =? NF * k + 1 then Some c else nth_error E1 i).
      { intros i. rewrite nth_error_upd_if by (rewrite upd_length; nia). now rewrite nth_error_upd_if by nia. }
      split; [|split].
      * intros v Hv. apply In_nth_error in Hv. destruct Hv as (i & Hi). rewrite N in Hi.
        destruct (i =? NF * k + 2); [injection Hi as <-; eapply B, nth_error_In; eauto|].
        destruct (i =? NF * k + 1); [injection Hi as <-; eapply B, nth_error_In; eauto|].
        eapply B, nth_error_In; eauto.
      * intros k' Hk' a' b' c' x1 y1 x2 y2 x3 y3 P1 P2 P3 P4 P5 P6.
        destruct (Nat.eq_dec k' k) as [->|Nk].
        -- destruct (Det a' b' c' x1 y1 x2 y2 x3 y3) as (-> & -> & -> & ->); auto. rewrite En.
           unfold corner. rewrite Hk0, Hk1, Hk2, !N.
           split; [|split; [split|]].
           ++ destruct (Nat.eqb_spec (NF * k) (NF * k + 2)), (Nat.eqb_spec (NF * k) (NF * k + 1)); auto; lia.
           ++ destruct (Nat.eqb_spec (NF * k + 1) (NF * k + 2)), (Nat.eqb_spec (NF * k + 1) (NF * k + 1)); auto; lia.
           ++ now rewrite Nat.eqb_refl.
           ++ intros i Hi. rewrite N. rewrite D by nia.
              destruct (Nat.eqb_spec (k * NF + i) (NF * k + 2)), (Nat.eqb_spec (k * NF + i) (NF * k + 1)); auto; lia.
        -- assert (Hlt : k' < k) by lia.
           assert (O : forall i, i < NF -> nth_error (upd (upd E1 (NF * k + 1) c) (NF * k + 2) b) (k' * NF + i) = nth_error E1 (k' * NF + i)).
           { intros i Hi. rewrite N.
             destruct (Nat.eqb_spec (k' * NF + i) (NF * k + 2)), (Nat.eqb_spec (k' * NF + i) (NF * k + 1)); auto; nia. }
           unfold corner. rewrite !O by lia. 
           destruct (C k' Hlt a' b' c' x1 y1 x2 y2 x3 y3) as (T1 & T2 & T3); auto.
           split; auto. split; auto. intros i Hi. rewrite O by lia. auto.
      * intros i Hi. rewrite N. rewrite D by nia.
        destruct (Nat.eqb_spec i (NF * k + 2)), (Nat.eqb_spec i (NF * k + 1)); auto; nia.
    + eexists. split; [reflexivity|]. split; auto. split; auto. split.
      * intros k' Hk'. destruct (Nat.eq_dec k' k) as [->|Nk]; [|apply C; lia].
        intros a' b' c' x1 y1 x2 y2 x3 y3 P1 P2 P3 P4 P5 P6.
        destruct (Det a' b' c' x1 y1 x2 y2 x3 y3) as (-> & -> & -> & ->); auto. rewrite En.
        unfold corner. rewrite Hk0, Hk1, Hk2. repeat split; auto. intros i Hi. apply D. nia.
      * intros i Hi. apply D. nia.
  - exists E'. auto.
Qed.
End Orient.
