(* Maps2DProps.v - the trace maps (C38), the boundary hash map (C39), the Gauss face maps (C37) and the gather/scatter
   tables (C69) of the 2D provisioners. *)
From Coq Require Import ZArith List Lia Bool.
From Verif Require BlitzProps.
From Verif Require Import Base Loops Num BlitzModel BlitzSpec BlitzProofs UniqueProofs MeshSpec FoldProofs Maps2DModel Maps2DSpec Maps2DProofs.
Import ListNotations.
Local Open Scope nat_scope.

(* ---------- C38: trace maps, any arithmetic, triangles (NF = 3) and quadrilaterals (NF = 4) ---------- *)
Section C38.
Context {T : Type}.
Variables (A : arith T) (hypot : T -> T -> T) (sort : (nat -> nat -> bool) -> list nat -> list nat) (junk : nat -> T) (junkn : nat -> nat) (tol : T).
Variables (NF Nfp Np K : nat) (Fm : mat nat) (x y : mat T) (E2E E2F E2V : list nat) (Vert : list T) (bcType : list Z) (bc0 : hmap).
Local Notation run := (buildMaps A hypot sort junk junkn tol NF Nfp Np K Fm x y E2E E2F E2V Vert bcType bc0).
Local Notation pt := (face_point Fm x y).
Local Notation id := (face_id NF Nfp).
Local Notation ok := (matches A hypot NF E2V Vert tol).

Lemma parts m : tables_ok NF Nfp Np K Fm x y E2E E2F E2V Vert -> run = Ok m ->
  (length (m_vmapM m) = K * NF * Nfp /\ length (m_vmapP m) = K * NF * Nfp /\ length (m_mapP m) = K * NF * Nfp /\
   forall n f k, n < Nfp -> f < NF -> k < K ->
     entry (m_vmapM m) (id n f k) (volume_id Np (ment Fm n f) k) /\
     entry (m_vmapP m) (id n f k) (fst (partner_vals A hypot tol NF Nfp Np Fm x y E2E E2F E2V Vert n f k)) /\
     entry (m_mapP m) (id n f k) (snd (partner_vals A hypot tol NF Nfp Np Fm x y E2E E2F E2V Vert n f k))) /\
  (m_mapB m = bnd NF Nfp K (m_vmapM m) (m_vmapP m) /\ m_vmapB m = map (fun i => nth i (m_vmapM m) 0) (m_mapB m)) /\
  buildBCHash junkn NF Nfp K bcType bc0 = Ok (m_bc m) /\
  exists xf yf, (forall i k, i < Np -> k < K -> nth_error xf (volume_id Np i k) = Some (ment x i k)) /\
    (forall i k, i < Np -> k < K -> nth_error yf (volume_id Np i k) = Some (ment y i k)) /\
    gather_scatter A sort junk Np K xf yf = Ok (m_gather m, m_scatter m).
Proof.
  intros HT. unfold buildMaps. destruct (tb_x _ _ _ _ _ _ _ _ _ _ _ HT) as (X1 & X2). destruct (tb_y _ _ _ _ _ _ _ _ _ _ _ HT) as (Y1 & Y2).
  destruct (flat_ok junk Np K x X1 X2) as (xl & Ex & Lx & Hx). destruct (flat_ok junk Np K y Y1 Y2) as (yl & Ey & Ly & Hy).
  unfold fullToVector. rewrite Ex, Ey. cbn [bind].
  destruct (vmapM3_ok NF Nfp Np K Fm x y E2E E2F E2V Vert HT) as (M & -> & DM & HM). cbn [bind].
  destruct (vmapP3_ok A hypot tol NF Nfp Np K Fm x y E2E E2F E2V Vert HT xl yl Hx Hy M DM HM) as (P & Q & -> & DP & DQ & HP). cbn [bind].
  destruct (flatten3_ok junkn NF Nfp K M DM P Q DP DQ) as (vM & vP & mP & -> & L1 & L2 & L3 & HF). cbn [bind].
  rewrite boundary_ok by assumption. cbn [bind].
  destruct (buildBCHash junkn NF Nfp K bcType bc0) as [bc| |]; [|discriminate|discriminate]. cbn [bind].
  destruct (gather_scatter A sort junk Np K xl yl) as [[g s]| |] eqn:Eg; [|discriminate|discriminate]. cbn [bind].
  intro Em. injection Em as Em. subst m. cbn [m_vmapM m_vmapP m_mapP m_mapB m_vmapB m_gather m_scatter m_bc].
  split; [|split; [|split]]; auto.
  - split; [exact L1|]. split; [exact L2|]. split; [exact L3|]. intros n f k Hn Hf Hk. destruct (HF n f k Hn Hf Hk) as (F1 & F2 & F3). unfold entry.
    rewrite <- HP by auto. cbn [fst snd]. rewrite <- HM by auto. auto.
  - exists xl, yl. auto.
Qed.

(* Building the maps is defined: with tables of matching sizes, a boundary tag for every face, a positive coordinate tolerance
   and a correct sort, no read or write is out of bounds and nothing is thrown. *)
Theorem C38_defined : strict_weak (flt A) -> is_sort sort -> flt A (fofZ A 0) (fdiv A (fofZ A 1) (fofZ A 1000000000)) = true -> 0 < Np * K ->
  NF * K <= length bcType -> tables_ok NF Nfp Np K Fm x y E2E E2F E2V Vert -> exists m, run = Ok m.
Proof.
  intros SW IS Hpos Hn HL HT. unfold buildMaps. destruct (tb_x _ _ _ _ _ _ _ _ _ _ _ HT) as (X1 & X2). destruct (tb_y _ _ _ _ _ _ _ _ _ _ _ HT) as (Y1 & Y2).
  destruct (flat_ok junk Np K x X1 X2) as (xl & Ex & Lx & Hx). destruct (flat_ok junk Np K y Y1 Y2) as (yl & Ey & Ly & Hy).
  unfold fullToVector. rewrite Ex, Ey. cbn [bind].
  destruct (vmapM3_ok NF Nfp Np K Fm x y E2E E2F E2V Vert HT) as (M & -> & DM & HM). cbn [bind].
  destruct (vmapP3_ok A hypot tol NF Nfp Np K Fm x y E2E E2F E2V Vert HT xl yl Hx Hy M DM HM) as (P & Q & -> & DP & DQ & HP). cbn [bind].
  destruct (flatten3_ok junkn NF Nfp K M DM P Q DP DQ) as (vM & vP & mP & -> & L1 & L2 & L3 & HF). cbn [bind].
  rewrite boundary_ok by assumption. cbn [bind].
  destruct (bchash_ok junkn NF Nfp K bcType bc0 HL) as (bc & -> & _). cbn [bind].
  unfold gather_scatter.
  destruct (BlitzProps.C14_uniquetol T (flt A) (fofZ A 0) (fadd A) (fsub A) (fmul A) (fdiv A) (fabs A) (fofn A) sort (fun i j => if j =? 0 then nth i xl (junk 0) else nth i yl (junk 0)) (Np * K) 2 SW IS _ Hn ltac:(lia) Hpos) as (g & s & -> & _). cbn [bind]. eauto.
Qed.

Lemma near_matches n f k nP f2 k2 : near A hypot tol NF Fm x y E2V Vert n f k nP f2 k2 = ok f k (pt n f k) (pt nP f2 k2).
Proof. unfold near, matches, distance, face_point, face_len, distance, mesh_vertex, refd, vcoord. cbn [fst snd]. rewrite !Nat.add_0_r. reflexivity. Qed.

(* The interior numbering, and the exterior numbering: the last node of the neighbouring face (k2, f2) lying within the
   tolerance, or 0 when there is none. *)
Theorem C38_trace_maps m : tables_ok NF Nfp Np K Fm x y E2E E2F E2V Vert -> run = Ok m ->
  length (m_vmapM m) = K * NF * Nfp /\ length (m_vmapP m) = K * NF * Nfp /\ length (m_mapP m) = K * NF * Nfp /\
  forall n f k k2 f2, n < Nfp -> f < NF -> k < K -> entry E2E (NF * k + f) k2 -> entry E2F (NF * k + f) f2 ->
    entry (m_vmapM m) (id n f k) (volume_id Np (ment Fm n f) k) /\
    ((exists q, q < Nfp /\ ok f k (pt n f k) (pt q f2 k2) = true /\ (forall j, q < j < Nfp -> ok f k (pt n f k) (pt j f2 k2) = false) /\
        entry (m_vmapP m) (id n f k) (volume_id Np (ment Fm q f2) k2) /\ entry (m_mapP m) (id n f k) (id q f2 k2)) \/
     ((forall q, q < Nfp -> ok f k (pt n f k) (pt q f2 k2) = false) /\ entry (m_vmapP m) (id n f k) 0 /\ entry (m_mapP m) (id n f k) 0)).
Proof.
  intros HT E. destruct (parts m HT E) as ((L1 & L2 & L3 & H) & _). split; [exact L1|]. split; [exact L2|]. split; [exact L3|].
  intros n f k k2 f2 Hn Hf Hk He2 Hf2. destruct (H n f k Hn Hf Hk) as (H1 & H2 & H3). split; [exact H1|].
  unfold partner_vals, partner in H2, H3. rewrite (nth_error_nth _ _ 0 He2), (nth_error_nth _ _ 0 Hf2) in H2, H3.
  destruct (lastp _ Nfp) as [q|] eqn:El.
  - left. exists q. apply lastp_some in El as (Q1 & Q2 & Q3). split; [exact Q1|]. rewrite near_matches in Q2. split; [exact Q2|]. split; [|auto]. intros j Hj. rewrite <- near_matches. auto.
  - right. pose proof (proj1 (lastp_none _ _) El) as Hq. cbv beta in Hq. split; [|auto]. intros q Hlt. rewrite <- near_matches. auto.
Qed.

(* The boundary lists: the positions, in increasing order, at which both numberings agree, and their volume numbers. *)
Theorem C38_boundary_nodes m : tables_ok NF Nfp Np K Fm x y E2E E2F E2V Vert -> run = Ok m ->
  increasing (m_mapB m) /\ (forall i, In i (m_mapB m) <-> exists v, entry (m_vmapM m) i v /\ entry (m_vmapP m) i v) /\
  length (m_vmapB m) = length (m_mapB m) /\
  forall j i, entry (m_mapB m) j i -> exists v, entry (m_vmapB m) j v /\ entry (m_vmapM m) i v.
Proof.
  intros HT E. destruct (parts m HT E) as ((L1 & L2 & _) & (HB & HV) & _). rewrite HV, HB. unfold bnd.
  set (p := fun i => nth i (m_vmapP m) 0 =? nth i (m_vmapM m) 0). split; [|split; [|split]].
  - assert (Hall : forall n lo, increasing (filter p (seq lo n)) /\ forall a, In a (filter p (seq lo n)) -> lo <= a).
    { induction n; intro lo; cbn [seq filter]; [split; [exact I|intros a []]|]. destruct (IHn (S lo)) as (I1 & I2). destruct (p lo).
      - split.
        + destruct (filter p (seq (S lo) n)) as [|b t]; [exact I|]. split; [|exact I1]. apply I2. now left.
        + intros a [<-|Ha]; [lia|]. apply I2 in Ha. lia.
      - split; [exact I1|]. intros a Ha. apply I2 in Ha. lia. }
    apply Hall.
  - intro i. rewrite filter_In, in_seq. unfold p. split.
    + intros (Hi & He). apply Nat.eqb_eq in He. exists (nth i (m_vmapM m) 0). unfold entry. rewrite <- He at 2. split; apply nth_error_nth'; lia.
    + intros (v & V1 & V2). unfold entry in *. assert (Hi : i < length (m_vmapM m)) by (apply nth_error_Some; congruence).
      split; [lia|]. rewrite (nth_error_nth _ _ 0 V1), (nth_error_nth _ _ 0 V2). apply Nat.eqb_refl.
  - apply map_length.
  - intros j i Hj. unfold entry in *. assert (Hin : In i (filter p (seq 0 (K * NF * Nfp)))) by (eapply nth_error_In; eauto).
    apply filter_In in Hin as (Hin & _). apply in_seq in Hin. exists (nth i (m_vmapM m) 0). split; [|apply nth_error_nth'; lia].
    rewrite nth_error_map, Hj. reflexivity.
Qed.

(* When the faces are paired off and the nodes of paired faces match one to one within the tolerance, the same way from
   both sides, the exterior map is an involution, both numberings are exchanged by it, and the nodes it fixes are those of
   the boundary faces. *)
Theorem C38_involution m : tables_ok NF Nfp Np K Fm x y E2E E2F E2V Vert -> run = Ok m ->
  paired NF K E2E E2F ->
  (forall n f k k2 f2, n < Nfp -> f < NF -> k < K -> entry E2E (NF * k + f) k2 -> entry E2F (NF * k + f) f2 ->
     exists q, q < Nfp /\ ok f k (pt n f k) (pt q f2 k2) = true /\ ok f2 k2 (pt q f2 k2) (pt n f k) = true /\
       forall j, j < Nfp -> ok f k (pt n f k) (pt j f2 k2) = true -> j = q) ->
  (forall n f k, n < Nfp -> f < NF -> k < K -> ok f k (pt n f k) (pt n f k) = true) ->
  forall i, i < K * NF * Nfp -> exists j, entry (m_mapP m) i j /\ j < K * NF * Nfp /\ entry (m_mapP m) j i /\
    (forall v, entry (m_vmapP m) i v <-> entry (m_vmapM m) j v) /\ (j = i <-> entry E2E (i / Nfp) (i / Nfp / NF)) /\ (In i (m_mapB m) <-> j = i).
Proof.
  intros HT E (HPr & Hself) HU HS i Hi. pose proof (C38_trace_maps m HT E) as (L1 & L2 & L3 & H).
  assert (Hnf : NF <> 0) by nia. assert (Hfp : Nfp <> 0) by nia.
  assert (Hdec : forall i, i < K * NF * Nfp -> let n := i mod Nfp in let g := i / Nfp in let f := g mod NF in let k := g / NF in n < Nfp /\ f < NF /\ k < K /\ g = NF * k + f /\ i = id n f k).
  { intros a Ha. cbn zeta. pose proof (Nat.div_mod a Nfp Hfp) as D1. pose proof (Nat.mod_upper_bound a Nfp Hfp) as D2. pose proof (Nat.div_mod (a / Nfp) NF Hnf) as D3. pose proof (Nat.mod_upper_bound (a / Nfp) NF Hnf) as D4.
    assert (a / Nfp < K * NF) by (apply Nat.div_lt_upper_bound; lia). assert (a / Nfp / NF < K) by (apply Nat.div_lt_upper_bound; lia).
    repeat split; auto. unfold face_id. nia. }
  (* the unique partner *)
  assert (Hp : forall n f k k2 f2, n < Nfp -> f < NF -> k < K -> entry E2E (NF * k + f) k2 -> entry E2F (NF * k + f) f2 -> exists q, q < Nfp /\
     ok f k (pt n f k) (pt q f2 k2) = true /\ ok f2 k2 (pt q f2 k2) (pt n f k) = true /\ (forall j, j < Nfp -> ok f k (pt n f k) (pt j f2 k2) = true -> j = q) /\
     entry (m_vmapP m) (id n f k) (volume_id Np (ment Fm q f2) k2) /\ entry (m_mapP m) (id n f k) (id q f2 k2)).
  { intros n f k k2 f2 Hn Hf Hk He2 Hf2. destruct (HU n f k k2 f2 Hn Hf Hk He2 Hf2) as (q & Q1 & Q2 & Q3 & Q4).
    destruct (H n f k k2 f2 Hn Hf Hk He2 Hf2) as (_ & [(q' & A1 & A2 & _ & A4 & A5)|(N1 & _)]); [|rewrite N1 in Q2 by exact Q1; discriminate].
    rewrite (Q4 q' A1 A2) in *. exists q. auto 10. }
  destruct (Hdec i Hi) as (Hn & Hf & Hk & Eg & Ei). set (n := i mod Nfp) in *. set (g := i / Nfp) in *. set (f := g mod NF) in *. set (k := g / NF) in *.
  assert (Hg : g < NF * K) by nia. destruct (HPr g Hg) as (h & Hh & (G1 & G2) & (B1 & B2)).
  pose proof (Nat.div_mod h NF Hnf) as Eh. pose proof (Nat.mod_upper_bound h NF Hnf) as Hfh.
  assert (Hkh : h / NF < K) by (apply Nat.div_lt_upper_bound; lia). set (k2 := h / NF) in *. set (f2 := h mod NF) in *.
  rewrite Eg in G1, G2. rewrite Eh in B1, B2. fold k2 f2 in B1, B2.
  change (g / NF) with k in B1. change (g mod NF) with f in B2.
  destruct (Hp n f k k2 f2 Hn Hf Hk G1 G2) as (q & Q1 & Q2 & Q3 & Q4 & Q5 & Q6).
  destruct (Hp q f2 k2 k f Q1 Hfh Hkh B1 B2) as (q' & R1 & R2 & R3 & R4 & R5 & R6).
  assert (q' = n) by (symmetry; apply R4; auto). subst q'.
  exists (id q f2 k2). rewrite Ei. split; [exact Q6|]. split; [apply face_id_lt; auto|]. split; [exact R6|].
  assert (HM2 : entry (m_vmapM m) (id q f2 k2) (volume_id Np (ment Fm q f2) k2)) by (apply (H q f2 k2 k f); auto).
  assert (HM1 : entry (m_vmapM m) (id n f k) (volume_id Np (ment Fm n f) k)) by (apply (H n f k k2 f2); auto).
  split; [unfold entry in *; intro v; rewrite Q5, HM2; tauto|]. rewrite <- Ei. fold g. fold k. rewrite Eg at 1.
  assert (Hsame : id q f2 k2 = i <-> k2 = k).
  { split.
    - intro Eq. rewrite Ei in Eq. apply (face_id_inj NF Nfp K) in Eq; auto. tauto.
    - intro Ek. assert (Eqh : h = g). { apply Hself; [split; [rewrite Eg; exact G1|rewrite Eg; exact G2]|exact Ek]. }
      assert (Ef : f2 = f) by (unfold f2, f; now rewrite Eqh). rewrite Ek, Ef in *. rewrite Ei. f_equal. symmetry. apply Q4; auto. }
  split.
  - rewrite Hsame. unfold entry in *. rewrite G1. split; [intros ->; reflexivity|]. intro X. injection X as X. exact X.
  - rewrite Hsame. destruct (C38_boundary_nodes m HT E) as (_ & HB & _). rewrite HB. unfold entry in *. rewrite Ei. split.
    + intros (v & V1 & V2). rewrite HM1 in V1. rewrite Q5 in V2. injection V1 as <-. injection V2 as V2. unfold volume_id in V2.
      destruct HT as [_ (_ & _ & F3) _ _ _ _ _]. pose proof (F3 n f Hn Hf). pose proof (F3 q f2 Q1 Hfh). nia.
    + intro Ek. pose proof (proj2 Hsame Ek) as Eq. rewrite Ei in Eq. apply (face_id_inj NF Nfp K) in Eq as (-> & Ef & _); auto. rewrite Ek, Ef in Q5. eauto.
Qed.
End C38.
Print Assumptions C38_trace_maps.
Print Assumptions C38_defined.
Print Assumptions C38_boundary_nodes.
Print Assumptions C38_involution.

(* A rational arithmetic for examples (square roots, powers and gamma are not used by the maps). *)
From Coq Require Import QArith Qabs.
From Verif Require BlitzProps.
Definition qarith : arith Q :=
  Arith Q Qplus Qminus Qmult Qdiv Qopp (fun q => q) Qabs inject_Z (fun a b => negb (Qle_bool b a)) Qle_bool Qeq_bool (fun a _ => a) (fun a => a).
Definition q1norm (a b : Q) : Q := Qabs a + Qabs b.
(* The square (0,0)-(2,0)-(2,2)-(0,2) cut into triangles 0-1-2 and 2-1-3 of order 1: nodes and corners coincide. *)
Definition ex_Fm : mat nat := mkmat 2 3 (fun n f => nth n (nth f [[0; 1]; [1; 2]; [0; 2]]%nat []) 0%nat).
Definition ex_x : mat Q := mkmat 3 2 (fun i k => nth i (nth k [[0; 2; 0]; [0; 2; 2]] []) 0).
Definition ex_y : mat Q := mkmat 3 2 (fun i k => nth i (nth k [[0; 0; 2]; [2; 0; 2]] []) 0).
Definition ex_Vert : list Q := [0; 0; 0; 2; 0; 0; 0; 2; 0; 2; 2; 0].
Definition ex_E2V : list nat := [0; 1; 2; 2; 1; 3]%nat.
Definition ex_E2E : list nat := [0; 1; 0; 0; 1; 1]%nat.
Definition ex_E2F : list nat := [0; 0; 2; 1; 1; 2]%nat.
Definition ex_run := buildMaps qarith q1norm isort (fun _ => 7#1) (fun _ => 7%nat) (1#100000) 3 2 3 2 ex_Fm ex_x ex_y ex_E2E ex_E2F ex_E2V ex_Vert [3; 0; 6; 0; 3; 3]%Z [].
Local Open Scope nat_scope.
Example C38_witness : tables_ok 3 2 3 2 ex_Fm ex_x ex_y ex_E2E ex_E2F ex_E2V ex_Vert /\ paired 3 2 ex_E2E ex_E2F /\
  (exists m, ex_run = Ok m /\ m_vmapM m = [0; 1; 1; 2; 0; 2; 3; 4; 4; 5; 3; 5] /\ m_vmapP m = [0; 1; 4; 3; 0; 2; 2; 1; 4; 5; 3; 5] /\
    m_mapP m = [0; 1; 7; 6; 4; 5; 3; 2; 8; 9; 10; 11] /\ m_mapB m = [0; 1; 4; 5; 8; 9; 10; 11] /\ m_vmapB m = [0; 1; 0; 2; 4; 5; 3; 5]) /\
  let ok := matches qarith q1norm 3 ex_E2V ex_Vert (1#100000)%Q in let pt := face_point ex_Fm ex_x ex_y in
  (forall n f k k2 f2, n < 2 -> f < 3 -> k < 2 -> entry ex_E2E (3 * k + f) k2 -> entry ex_E2F (3 * k + f) f2 ->
     exists q, q < 2 /\ ok f k (pt n f k) (pt q f2 k2) = true /\ ok f2 k2 (pt q f2 k2) (pt n f k) = true /\
       forall j, j < 2 -> ok f k (pt n f k) (pt j f2 k2) = true -> j = q) /\
  (forall n f k, n < 2 -> f < 3 -> k < 2 -> ok f k (pt n f k) (pt n f k) = true).
Proof.
  split; [|split; [|split; [|split]]].
  - constructor; cbn; try (repeat split; try reflexivity; try lia; intros; intuition lia).
    split; [reflexivity|]. split; [reflexivity|]. intros n f Hn Hf. destruct n as [|[|]]; [| |lia]; destruct f as [|[|[|]]]; cbn; lia.
  - split.
    + intros g Hg. destruct g as [|[|[|[|[|[|]]]]]]; [exists 0|exists 3|exists 2|exists 1|exists 4|exists 5|lia]; (split; [lia|]); split; split; reflexivity.
    + intros g h (H1 & H2). destruct g as [|[|[|[|[|[|g]]]]]]; cbn in H1, H2; [..|destruct g; discriminate]; injection H1 as H1; injection H2 as H2; cbn; pose proof (Nat.div_mod h 3); cbn in *; lia.
  - eexists. split; [vm_compute; reflexivity|]. vm_compute. auto 10.
  - intros n f k k2 f2 Hn Hf Hk H1 H2. destruct n as [|[|]]; [| |lia]; destruct f as [|[|[|]]]; try lia; destruct k as [|[|]]; try lia; vm_compute in H1, H2; injection H1 as <-; injection H2 as <-;
    first [exists 0; split; [lia|]; split; [reflexivity|]; split; [reflexivity|]; intros [|[|]] Hj; [reflexivity|vm_compute; discriminate|lia]
          |exists 1; split; [lia|]; split; [reflexivity|]; split; [reflexivity|]; intros [|[|]] Hj; [vm_compute; discriminate|reflexivity|lia]].
  - intros n f k Hn Hf Hk. destruct n as [|[|]]; [| |lia]; destruct f as [|[|[|]]]; try lia; destruct k as [|[|]]; try lia; reflexivity.
Qed.

(* FINDING: a node without a partner gets exterior number 0, so node 0 of the mesh is then reported as a boundary node
   although its face has a neighbour. Here the second element's copy of the shared edge is displaced. *)
Theorem C38_unmatched_nodes_refuted : exists (x y : mat Q) Fm E2E E2F E2V Vert m,
  tables_ok 3 2 3 2 Fm x y E2E E2F E2V Vert /\ paired 3 2 E2E E2F /\
  buildMaps qarith q1norm isort (fun _ => 7#1)%Q (fun _ => 7%nat) (1#100000)%Q 3 2 3 2 Fm x y E2E E2F E2V Vert [3; 3; 0; 3; 3; 0]%Z [] = Ok m /\
  entry E2E 2 1 /\ In (face_id 3 2 0 2 0) (m_mapB m).
Proof.
  exists (mkmat 3 2 (fun i k => nth i (nth k [[0; 2; 0]; [9; 9; 9]]%Q []) 0%Q)), (mkmat 3 2 (fun i k => nth i (nth k [[0; 0; 2]; [0; 0; 2]]%Q []) 0%Q)), ex_Fm.
  exists [0; 0; 1; 1; 1; 0], [0; 1; 2; 0; 1; 2], [0; 1; 2; 0; 2; 3], ex_Vert. eexists. split; [|split; [|split; [vm_compute; reflexivity|]]].
  - constructor; cbn; try (repeat split; try reflexivity; try lia; intros; intuition lia).
    split; [reflexivity|]. split; [reflexivity|]. intros n f Hn Hf. destruct n as [|[|]]; [| |lia]; destruct f as [|[|[|]]]; cbn; lia.
  - split.
    + intros g Hg. destruct g as [|[|[|[|[|[|]]]]]]; [exists 0|exists 1|exists 5|exists 3|exists 4|exists 2|lia]; (split; [lia|]); split; split; reflexivity.
    + intros g h (H1 & H2). destruct g as [|[|[|[|[|[|g]]]]]]; cbn in H1, H2; [..|destruct g; discriminate]; injection H1 as H1; injection H2 as H2; cbn; pose proof (Nat.div_mod h 3); cbn in *; lia.
  - split; [reflexivity|]. vm_compute. auto 10.
Qed.
Print Assumptions C38_unmatched_nodes_refuted.

(* ---------- C39: the boundary hash map ---------- *)
(* One call appends, for every nonzero tag, the numbers of the face nodes whose face carries it, in increasing order;
   tag 0 is left alone; no other entry appears. *)
Theorem C39_one_call : forall junkn NF Nfp K bcType m, NF * K <= length bcType -> exists m', buildBCHash junkn NF Nfp K bcType m = Ok m' /\
  (forall t, t <> 0%Z -> exists l, increasing l /\ (forall i, In i l <-> i < Nfp * NF * K /\ entry bcType (i / Nfp) t) /\
     match hfind m t with
     | Some old => hfind m' t = Some (old ++ l)
     | None => hfind m' t = if (length l =? 0) then None else Some l
     end) /\
  hfind m' 0%Z = hfind m 0%Z.
Proof.
  intros junkn NF Nfp K bcType m HL. destruct (bchash_ok junkn NF Nfp K bcType m HL) as (m' & E & H1 & H2 & H3). exists m'. split; [exact E|]. split; [|exact H2].
  intros t Ht. exists (tagged NF Nfp K bcType t). split; [|split].
  - unfold tagged. set (p := fun i => Z.eqb (nth (i / Nfp) bcType 0%Z) t). assert (Hall : forall n lo, increasing (filter p (seq lo n)) /\ forall a, In a (filter p (seq lo n)) -> lo <= a).
    { induction n; intro lo; cbn [seq filter]; [split; [exact I|intros a []]|]. destruct (IHn (S lo)) as (I1 & I2). destruct (p lo).
      - split.
        + destruct (filter p (seq (S lo) n)) as [|b l]; [exact I|]. split; [|exact I1]. apply I2. now left.
        + intros a [<-|Ha]; [lia|]. apply I2 in Ha. lia.
      - split; [exact I1|]. intros a Ha. apply I2 in Ha. lia. }
    apply Hall.
  - intro i. unfold tagged. rewrite filter_In, in_seq, Z.eqb_eq. unfold entry. split.
    + intros (Hi & Hb). split; [lia|]. assert (Nfp <> 0) by nia. rewrite <- Hb. apply nth_error_nth'. assert (i / Nfp < NF * K) by (apply Nat.div_lt_upper_bound; lia). lia.
    + intros (Hi & Hb). split; [lia|]. now apply nth_error_nth.
  - specialize (H1 t Ht). specialize (H3 t). unfold hlist in H1. destruct (hfind m t) as [old|] eqn:Eo.
    + destruct (hfind m' t) as [l|] eqn:El; [now rewrite H1|]. destruct (proj1 H3 eq_refl). discriminate.
    + destruct (tagged NF Nfp K bcType t) as [|a l] eqn:Etag; cbn [length Nat.eqb].
      * apply H3. auto.
      * destruct (hfind m' t) as [l'|]; [now rewrite H1|]. destruct (proj1 H3 eq_refl) as (_ & X). specialize (X Ht). discriminate.
Qed.
(* Any history of calls: the lists of all calls, one after the other. *)
Theorem C39_accumulates : forall junkn NF Nfp K calls m, (forall bc, In bc calls -> NF * K <= length bc) ->
  exists m', foldM (buildBCHash junkn NF Nfp K) calls m = Ok m' /\
  forall t, t <> 0%Z -> match hfind m' t with Some l => l | None => [] end =
    match hfind m t with Some l => l | None => [] end ++ flat_map (fun bc => filter (fun i => Z.eqb (nth (i / Nfp) bc 0%Z) t) (seq 0 (Nfp * NF * K))) calls.
Proof.
  intros junkn NF Nfp K calls. induction calls as [|bc calls IH]; intros m HL.
  - exists m. split; [reflexivity|]. intros. cbn. now rewrite app_nil_r.
  - destruct (bchash_ok junkn NF Nfp K bc m (HL bc (or_introl eq_refl))) as (m1 & E1 & H1 & _).
    destruct (IH m1) as (m2 & E2 & H2); [intros; apply HL; now right|]. exists m2. cbn [foldM]. rewrite E1. split; [exact E2|].
    intros t Ht. rewrite H2 by auto. specialize (H1 t Ht). unfold hlist in H1. rewrite H1, <- app_assoc. reflexivity.
Qed.
(* FINDING: after re-tagging the faces, the map still lists them under their former tags. *)
Theorem C39_retagging_refuted : exists NF Nfp K bc1 bc2 m1 m2 i, NF * K <= length bc1 /\ NF * K <= length bc2 /\
  (forall junkn, buildBCHash junkn NF Nfp K bc1 [] = Ok m1 /\ buildBCHash junkn NF Nfp K bc2 m1 = Ok m2) /\
  (exists l, hfind m2 3%Z = Some l /\ In i l) /\ entry bc2 (i / Nfp) 6%Z.
Proof.
  exists 3, 2, 1, [3; 0; 0]%Z, [6; 0; 0]%Z. eexists. eexists. exists 0. split; [cbn; lia|]. split; [cbn; lia|]. split; [intro; split; vm_compute; reflexivity|].
  split; [exists [0; 1]; split; [reflexivity|now left]|reflexivity].
Qed.
(* A tag table shorter than the number of faces is read beyond its end. *)
Theorem C39_short_table : forall junkn NF Nfp K bcType m, length bcType < NF * K -> buildBCHash junkn NF Nfp K bcType m = UB.
Proof. intros. now apply bchash_ub. Qed.
Example C39_witness : 3 * 2 <= length [3; 0; 6; 0; 3; 3]%Z /\ buildBCHash (fun _ => 9) 3 2 2 [3; 0; 6; 0; 3; 3]%Z [] = Ok [(3%Z, [0; 1; 8; 9; 10; 11]); (6%Z, [4; 5])].
Proof. split; [cbn; lia|reflexivity]. Qed.
Print Assumptions C39_one_call.
Print Assumptions C39_accumulates.
Print Assumptions C39_retagging_refuted.
Print Assumptions C39_short_table.

(* ---------- C37: the Gauss face maps ---------- *)
(* Every mesh with valid tables: the interior map counts the nodes, the exterior map pairs node ig of a face with node
   NG-1-ig of the neighbouring face and fixes the nodes of faces whose neighbour is their own element; the boundary list
   has exactly the latter, each once, and the hash map has them by tag, the eight tags always being present. *)
Theorem C37_gauss_maps : forall junkn NF K NG E2E E2F bcVec,
  length E2E = NF * K -> (forall k, In k E2E -> k < K) -> length E2F = NF * K -> (forall f, In f E2F -> f < NF) -> NF * K <= length bcVec ->
  exists mapM mapP mapB bc, gaussFaceMaps junkn NF K NG E2E E2F bcVec = Ok (mapM, mapP, mapB, bc) /\
  mapM = seq 0 (NG * NF * K) /\ length mapP = NG * NF * K /\
  (forall ig f k k2 f2, ig < NG -> f < NF -> k < K -> entry E2E (NF * k + f) k2 -> entry E2F (NF * k + f) f2 ->
     entry mapP (face_id NF NG ig f k) (if k2 =? k then face_id NF NG ig f k else face_id NF NG (NG - 1 - ig) f2 k2)) /\
  NoDup mapB /\ (forall ig f k, ig < NG -> f < NF -> k < K -> (In (face_id NF NG ig f k) mapB <-> entry E2E (NF * k + f) k)) /\
  (forall t ig f k, ig < NG -> f < NF -> k < K ->
     ((exists l, hfind bc t = Some l /\ In (face_id NF NG ig f k) l) <-> entry E2E (NF * k + f) k /\ entry bcVec (NF * k + f) t)) /\
  (forall t l, hfind bc t = Some l -> NoDup l /\ forall i, In i l -> i < NG * NF * K) /\
  (forall t, In t [1; 2; 3; 4; 5; 6; 7; 8]%Z -> exists l, hfind bc t = Some l).
Proof.
  intros junkn NF K NG E2E E2F bcVec L1 HE L2 HF L3.
  destruct (gauss_ok junkn NF K NG E2E E2F bcVec L1 HE L2 HF L3) as (mapM & mapP & mapB & bc & E & HM & LP & HP & HB & HC & HD).
  exists mapM, mapP, mapB, bc. split; [exact E|]. split; [exact HM|]. split; [exact LP|].
  assert (Hin : forall ig f k, ig < NG -> f < NF -> k < K -> (In (face_id NF NG ig f k) (flat_map (gface NF NG E2E) (pairs NF K)) <-> nth (NF * k + f) E2E 0 = k)).
  { intros ig f k Hig Hf Hk. rewrite in_flat_map. unfold gface. split.
    - intros ((f' & k') & Hp & Hi). apply pairs_in in Hp as (Hf' & Hk'). cbn [fst snd] in Hi. destruct (Nat.eqb_spec k' (nth (NF * k' + f') E2E 0)); [|destruct Hi].
      apply in_map_iff in Hi as (ig' & Eq & Hs). apply in_seq in Hs. apply (face_id_inj NF NG K) in Eq as (_ & -> & ->); auto; lia.
    - intro Ek. exists (f, k). split; [now apply pairs_in|]. cbn [fst snd]. rewrite Ek, Nat.eqb_refl. apply in_map_iff. exists ig. split; [reflexivity|]. apply in_seq. lia. }
  assert (Hint : forall t ig f k, ig < NG -> f < NF -> k < K -> (In (face_id NF NG ig f k) (flat_map (gface_t NF NG E2E bcVec t) (pairs NF K)) <-> nth (NF * k + f) E2E 0 = k /\ nth (NF * k + f) bcVec 0%Z = t)).
  { intros t ig f k Hig Hf Hk. rewrite in_flat_map. unfold gface_t, gface. split.
    - intros ((f' & k') & Hp & Hi). apply pairs_in in Hp as (Hf' & Hk'). cbn [fst snd] in Hi. destruct (Z.eqb_spec (nth (NF * k' + f') bcVec 0%Z) t); [|destruct Hi].
      destruct (Nat.eqb_spec k' (nth (NF * k' + f') E2E 0)); [|destruct Hi].
      apply in_map_iff in Hi as (ig' & Eq & Hs). apply in_seq in Hs. apply (face_id_inj NF NG K) in Eq as (_ & -> & ->); auto; lia.
    - intros (Ek & Et). exists (f, k). split; [now apply pairs_in|]. cbn [fst snd]. rewrite Et, Z.eqb_refl. rewrite Ek, Nat.eqb_refl. apply in_map_iff. exists ig. split; [reflexivity|]. apply in_seq. lia. }
  assert (Hent : forall f k, f < NF -> k < K -> (entry E2E (NF * k + f) k <-> nth (NF * k + f) E2E 0 = k)).
  { intros f k Hf Hk. unfold entry. assert (NF * k + f < NF * K) by nia. rewrite (nth_error_nth' E2E 0) by lia. split; [intros [= Eq]; exact Eq|intros Eq; now f_equal]. }
  assert (Hnd : forall keep : nat * nat -> bool, NoDup (flat_map (fun p => if keep p then gface NF NG E2E p else []) (pairs NF K))).
  { intro keep. assert (HN : forall l, NoDup l -> (forall p, In p l -> fst p < NF /\ snd p < K) -> NoDup (flat_map (fun p => if keep p then gface NF NG E2E p else []) l)).
    { induction l as [|(f & k) l IH]; intros ND HB'; cbn [flat_map]; [constructor|]. inversion ND as [|? ? Hn ND']; subst.
      assert (HI : NoDup (flat_map (fun p => if keep p then gface NF NG E2E p else []) l)) by (apply IH; auto; intros; apply HB'; now right).
      destruct (keep (f, k)); [|exact HI]. unfold gface at 1. cbn [fst snd]. destruct (k =? nth (NF * k + f) E2E 0); [|exact HI].
      destruct (HB' (f, k) (or_introl eq_refl)) as (Hf & Hk). cbn [fst snd] in Hf, Hk.
      assert (Happ : forall u v : list nat, NoDup u -> NoDup v -> (forall a, In a u -> ~ In a v) -> NoDup (u ++ v)).
      { induction u; intros v Hu Hv Hd; [exact Hv|]. inversion Hu; subst. cbn [app]. constructor; [rewrite in_app_iff; intros [|]; [auto|]; apply (Hd a); [now left|auto]|]. apply IHu; auto. intros b Hb. apply Hd. now right. }
      apply Happ; [|exact HI|].
      - assert (HS : NoDup (seq 0 NG)) by apply seq_NoDup. assert (HSb : forall i, In i (seq 0 NG) -> i < NG) by (intros i Hi; apply in_seq in Hi; lia). revert HS HSb. generalize (seq 0 NG). induction l0 as [|i l0 IHl]; intros HS HSb; cbn [map]; [constructor|]. inversion HS; subst. constructor; [|apply IHl; auto; intros; apply HSb; now right].
        intro Hm. apply in_map_iff in Hm as (j & Eq & Hj). apply (face_id_inj NF NG K) in Eq as (-> & _); auto; apply HSb; [now right|now left].
      - intros a Ha Hb. apply in_map_iff in Ha as (ig & <- & Hs). apply in_seq in Hs. apply in_flat_map in Hb as ((f' & k') & Hp & Hi). destruct (HB' (f', k') (or_intror Hp)) as (Hf' & Hk'). cbn [fst snd] in Hf', Hk'.
        destruct (keep (f', k')); [|destruct Hi]. unfold gface in Hi. cbn [fst snd] in Hi. destruct (k' =? nth (NF * k' + f') E2E 0); [|destruct Hi]. apply in_map_iff in Hi as (ig' & Eq & Hs'). apply in_seq in Hs'.
        apply (face_id_inj NF NG K) in Eq as (_ & -> & ->); auto; lia. }
    apply HN; [apply pairs_nodup|]. intros (f & k) Hp. now apply pairs_in in Hp. }
  split; [|split; [|split; [|split; [|split]]]].
  - intros ig f k k2 f2 Hig Hf Hk He2 Hf2. unfold entry. pose proof (HP ig f k Hig Hf Hk) as HPi. unfold gval, gid in HPi. rewrite HPi, (nth_error_nth _ _ 0 He2), (nth_error_nth _ _ 0 Hf2). rewrite (Nat.eqb_sym k2 k). reflexivity.
  - rewrite HB. specialize (Hnd (fun _ => true)). exact Hnd.
  - intros ig f k Hig Hf Hk. rewrite HB, Hin by auto. symmetry. apply Hent; auto.
  - intros t ig f k Hig Hf Hk. specialize (HC t). unfold hlist in HC. rewrite Hent by auto. assert (Hg : NF * k + f < NF * K) by nia.
    assert (Hb : entry bcVec (NF * k + f) t <-> nth (NF * k + f) bcVec 0%Z = t).
    { unfold entry. rewrite (nth_error_nth' bcVec 0%Z) by lia. split; [intros [= Eq]; exact Eq|intros Eq; now f_equal]. }
    rewrite Hb, <- Hint with (ig := ig) by auto. rewrite <- HC. split.
    + intros (l & -> & Hl). exact Hl.
    + destruct (hfind bc t) as [l|]; [|intros []]. eauto.
  - intros t l Hl. specialize (HC t). unfold hlist in HC. rewrite Hl in HC. subst l. split.
    + exact (Hnd (fun p => Z.eqb (nth (NF * snd p + fst p) bcVec 0%Z) t)).
    + intros i Hi. apply in_flat_map in Hi as ((f & k) & Hp & Hi). apply pairs_in in Hp as (Hf & Hk). unfold gface_t, gface in Hi. cbn [fst snd] in Hi. destruct (Z.eqb _ t); [|destruct Hi]. destruct (k =? _); [|destruct Hi].
      apply in_map_iff in Hi as (ig & <- & Hs). apply in_seq in Hs. pose proof (face_id_lt NF NG K ig f k). unfold gid. lia.
  - intros t Ht. specialize (HD t). destruct (hfind bc t); [eauto|]. exfalso. apply HD; [|reflexivity]. cbn in Ht |- *. intuition.
Qed.
(* With paired faces the exterior map is an involution and moves every node of an interior face to another element. *)
Theorem C37_involution : forall junkn NF K NG E2E E2F bcVec,
  length E2E = NF * K -> (forall k, In k E2E -> k < K) -> length E2F = NF * K -> (forall f, In f E2F -> f < NF) -> NF * K <= length bcVec ->
  paired NF K E2E E2F ->
  exists mapM mapP mapB bc, gaussFaceMaps junkn NF K NG E2E E2F bcVec = Ok (mapM, mapP, mapB, bc) /\
  forall i, i < NG * NF * K -> exists j, entry mapP i j /\ j < NG * NF * K /\ entry mapP j i /\ (j = i <-> In i mapB).
Proof.
  intros junkn NF K NG E2E E2F bcVec L1 HE L2 HF L3 (HPr & Hself).
  destruct (C37_gauss_maps junkn NF K NG E2E E2F bcVec L1 HE L2 HF L3) as (mapM & mapP & mapB & bc & E & _ & LP & HP & _ & HB & _).
  exists mapM, mapP, mapB, bc. split; [exact E|]. intros i Hi.
  assert (Hnf : NF <> 0) by nia. assert (Hng : NG <> 0) by nia.
  pose proof (Nat.div_mod i NG Hng) as D1. pose proof (Nat.mod_upper_bound i NG Hng) as D2. pose proof (Nat.div_mod (i / NG) NF Hnf) as D3. pose proof (Nat.mod_upper_bound (i / NG) NF Hnf) as D4.
  assert (D5 : i / NG < NF * K) by (apply Nat.div_lt_upper_bound; lia). assert (D6 : i / NG / NF < K) by (apply Nat.div_lt_upper_bound; lia).
  set (ig := i mod NG) in *. set (g := i / NG) in *. set (f := g mod NF) in *. set (k := g / NF) in *. assert (Ei : i = face_id NF NG ig f k) by (unfold face_id; nia).
  destruct (HPr g D5) as (h & Hh & (G1 & G2) & (B1 & B2)). pose proof (Nat.div_mod h NF Hnf) as Eh. pose proof (Nat.mod_upper_bound h NF Hnf) as Hfh.
  assert (Hkh : h / NF < K) by (apply Nat.div_lt_upper_bound; lia). set (k2 := h / NF) in *. set (f2 := h mod NF) in *.
  rewrite D3 in G1, G2. rewrite Eh in B1, B2. change (g / NF) with k in B1. change (g mod NF) with f in B2.
  pose proof (HP ig f k k2 f2 D2 D4 D6 G1 G2) as P1. rewrite Ei. destruct (Nat.eqb_spec k2 k) as [Ek|Ek].
  - exists (face_id NF NG ig f k). split; [exact P1|]. split; [rewrite <- Ei; exact Hi|]. split; [exact P1|]. split; [|reflexivity]. intros _. apply HB; auto. rewrite Ek in G1. exact G1.
  - exists (face_id NF NG (NG - 1 - ig) f2 k2). split; [exact P1|]. split; [pose proof (face_id_lt NF NG K (NG - 1 - ig) f2 k2); lia|].
    pose proof (HP (NG - 1 - ig) f2 k2 k f ltac:(lia) Hfh Hkh B1 B2) as P2. destruct (Nat.eqb_spec k k2); [congruence|]. replace (NG - 1 - (NG - 1 - ig)) with ig in P2 by lia. split; [exact P2|].
    split.
    + intro Eq. apply (face_id_inj NF NG K) in Eq as (_ & _ & Eq); auto; lia.
    + intro Hin. apply HB in Hin; auto. unfold entry in *. rewrite G1 in Hin. congruence.
Qed.
Example C37_witness : paired 3 2 ex_E2E ex_E2F /\ exists bc, gaussFaceMaps (fun _ => 9) 3 2 2 ex_E2E ex_E2F [3; 0; 6; 0; 3; 3]%Z =
  Ok ([0; 1; 2; 3; 4; 5; 6; 7; 8; 9; 10; 11], [0; 1; 7; 6; 4; 5; 3; 2; 8; 9; 10; 11], [0; 1; 8; 9; 4; 5; 10; 11], bc) /\
  hfind bc 3%Z = Some [0; 1; 8; 9; 10; 11] /\ hfind bc 6%Z = Some [4; 5] /\ hfind bc 7%Z = Some [] /\ hfind bc 0%Z = None.
Proof. split; [apply C38_witness|]. eexists. split; [vm_compute; reflexivity|]. repeat split. Qed.
Print Assumptions C37_gauss_maps.
Print Assumptions C37_involution.

(* ---------- C69: gather and scatter ---------- *)
(* Coordinate j (0: x, 1: y) of volume node v. *)
Definition node_coord {T} (Np : nat) (x y : mat T) (v j : nat) : T := if j =? 0 then ment x (v mod Np) (v / Np) else ment y (v mod Np) (v / Np).
Theorem C69_gather_scatter {T} (A : arith T) hypot sort junk junkn tol NF Nfp Np K Fm (x y : mat T) E2E E2F E2V Vert bcType bc0 m :
  strict_weak (flt A) -> is_sort sort -> flt A (fofZ A 0) (fdiv A (fofZ A 1) (fofZ A 1000000000)) = true -> 0 < Np * K ->
  tables_ok NF Nfp Np K Fm x y E2E E2F E2V Vert ->
  buildMaps A hypot sort junk junkn tol NF Nfp Np K Fm x y E2E E2F E2V Vert bcType bc0 = Ok m ->
  labelling (Np * K) (m_gather m) (m_scatter m) /\
  forall v, v < Np * K -> exists q, represents (m_gather m) (m_scatter m) q v /\
    (v = q \/ within_tol (flt A) (fofZ A 0) (fsub A) (fmul A) (fabs A) (node_coord Np x y) (Np * K) 2 (fdiv A (fofZ A 1) (fofZ A 1000000000)) q v).
Proof.
  intros SW IS Hpos Hn HT E. destruct (parts A hypot sort junk junkn tol NF Nfp Np K Fm x y E2E E2F E2V Vert bcType bc0 m HT E) as (_ & _ & _ & xf & yf & Hx & Hy & Eg).
  unfold gather_scatter in Eg.
  destruct (BlitzProps.C14_uniquetol T (flt A) (fofZ A 0) (fadd A) (fsub A) (fmul A) (fdiv A) (fabs A) (fofn A) sort (fun i j => if j =? 0 then nth i xf (junk 0) else nth i yf (junk 0)) (Np * K) 2 SW IS _ Hn ltac:(lia) Hpos) as (g & s & Eu & HL & HR & _ & _).
  rewrite Eg in Eu. injection Eu as <- <-. split; [exact HL|]. intros v Hv. destruct (HR v Hv) as (q & Hq & Hw). exists q. split; [exact Hq|]. destruct Hw as [Hw|Hw]; [now left|right].
  assert (Hq' : q < Np * K) by (destruct HL as (_ & _ & HL & _); destruct Hq as (g & _ & Hg); apply HL in Hg; apply Hg).
  assert (Hc : forall v j, v < Np * K -> (if j =? 0 then nth v xf (junk 0) else nth v yf (junk 0)) = node_coord Np x y v j).
  { intros w j Hw'. assert (HNp : Np <> 0) by lia. pose proof (Nat.div_mod w Np HNp) as D. pose proof (Nat.mod_upper_bound w Np HNp) as D'. assert (w / Np < K) by (apply Nat.div_lt_upper_bound; lia).
    unfold node_coord. destruct (j =? 0).
    - apply nth_error_nth. rewrite <- (Hx (w mod Np) (w / Np)) by auto. f_equal. unfold volume_id. lia.
    - apply nth_error_nth. rewrite <- (Hy (w mod Np) (w / Np)) by auto. f_equal. unfold volume_id. lia. }
  intros j Hj. destruct (Hw j Hj) as (M & (M1 & M2) & M3). exists M. split.
  - split.
    + intros i Hi. rewrite <- Hc by auto. apply M1, Hi.
    + destruct M2 as [->|(i & Hi & ->)]; [now left|]. right. exists i. split; [exact Hi|]. now rewrite Hc.
  - rewrite <- !Hc by auto. exact M3.
Qed.
(* Nodes with the same coordinates have the same entry in the scatter table, in arithmetic with an order compatible with
   subtraction (rationals: C14_equal_rows_witness; reals: exact_tolerance in SemProofs.v). *)
Theorem C69_coincident {T} (A : arith T) hypot sort junk junkn tol NF Nfp Np K Fm (x y : mat T) E2E E2F E2V Vert bcType bc0 m :
  strict_weak (flt A) -> is_sort sort -> flt A (fofZ A 0) (fdiv A (fofZ A 1) (fofZ A 1000000000)) = true ->
  (forall a b c, flt A b a = false -> flt A c b = false -> flt A (fabs A (fsub A a c)) (fabs A (fsub A a b)) = false) ->
  (forall B rows j M a, 0 < rows -> is_max_abs (flt A) (fofZ A 0) (fabs A) B rows j M -> flt A (fmul A M (fdiv A (fofZ A 1) (fofZ A 1000000000))) (fabs A (fsub A a a)) = false) ->
  (forall B rows j M M' v, 0 < rows -> is_max_abs (flt A) (fofZ A 0) (fabs A) B rows j M -> is_max_abs (flt A) (fofZ A 0) (fabs A) B rows j M' ->
     flt A (fmul A M (fdiv A (fofZ A 1) (fofZ A 1000000000))) v = flt A (fmul A M' (fdiv A (fofZ A 1) (fofZ A 1000000000))) v) ->
  0 < Np * K -> tables_ok NF Nfp Np K Fm x y E2E E2F E2V Vert ->
  buildMaps A hypot sort junk junkn tol NF Nfp Np K Fm x y E2E E2F E2V Vert bcType bc0 = Ok m ->
  forall v w, v < Np * K -> w < Np * K -> node_coord Np x y v 0 = node_coord Np x y w 0 -> node_coord Np x y v 1 = node_coord Np x y w 1 ->
  nth_error (m_scatter m) v = nth_error (m_scatter m) w.
Proof.
  intros SW IS Hpos Hmono Hself Hmax Hn HT E v w Hv Hw Ex Ey. destruct (parts A hypot sort junk junkn tol NF Nfp Np K Fm x y E2E E2F E2V Vert bcType bc0 m HT E) as (_ & _ & _ & xf & yf & Hx & Hy & Eg).
  unfold gather_scatter in Eg.
  assert (Hc : forall v j, v < Np * K -> (if j =? 0 then nth v xf (junk 0) else nth v yf (junk 0)) = node_coord Np x y v j).
  { intros u j Hw'. assert (HNp : Np <> 0) by lia. pose proof (Nat.div_mod u Np HNp) as D. pose proof (Nat.mod_upper_bound u Np HNp) as D'. assert (u / Np < K) by (apply Nat.div_lt_upper_bound; lia).
    unfold node_coord. destruct (j =? 0).
    - apply nth_error_nth. rewrite <- (Hx (u mod Np) (u / Np)) by auto. f_equal. unfold volume_id. lia.
    - apply nth_error_nth. rewrite <- (Hy (u mod Np) (u / Np)) by auto. f_equal. unfold volume_id. lia. }
  refine (BlitzProps.C14_equal_rows T (flt A) (fofZ A 0) (fadd A) (fsub A) (fmul A) (fdiv A) (fabs A) (fofn A) sort (fun i j => if j =? 0 then nth i xf (junk 0) else nth i yf (junk 0)) (Np * K) 2 SW IS _ Hn ltac:(lia) Hpos Hmono _ _ _ _ v w Eg Hv Hw _).
  - intros j M a. apply Hself. exact Hn.
  - intros j M M' u. apply Hmax. exact Hn.
  - intros j Hj. cbv beta. rewrite !Hc by assumption. destruct j as [|[|]]; [exact Ex|exact Ey|lia].
Qed.
Example C69_witness : 0 < 3 * 2 /\ flt qarith (fofZ qarith 0) (fdiv qarith (fofZ qarith 1) (fofZ qarith 1000000000)) = true /\
  exists m, ex_run = Ok m /\ length (m_gather m) = 4 /\ length (m_scatter m) = 6.
Proof. split; [lia|]. split; [reflexivity|]. eexists. split; [vm_compute; reflexivity|]. vm_compute. auto. Qed.
Print Assumptions C69_gather_scatter.
Print Assumptions C69_coincident.
