(* SwSchemeProofs.v - the face data of a shallow water driver on a constructed triangle mesh, and the scheme they give. *)
From Coq Require Import ZArith List Lia Bool Arith.
From Verif Require Import Base Loops Num BlitzModel JacobiModel JacobiSpec JacobiProofs JacobiQuadProofs JacobiExactProofs DenseSpec GllProofs TriLiftProofs
  MeshSpec MeshGeoProofs MeshProps MeshProofs TriModel TriSpec TriBasisProofs TriElemProofs TriGeoSpec TriGeoProofs TriSetup TriProps Maps2DModel Maps2DSpec Maps2DProofs Maps2DProps TriMapsProofs TriMapsProps TriDGSpec TriDGProofs
  RKModel Line1DModel Line1DProofs SwModel SwSpec SwProofs.
From Coq Require Import Reals Lra.
Import ListNotations.
Local Open Scope R_scope.

(* the tables of a constructed provisioner *)
Definition tables_of (el : element (T := R)) (m : maps) : dg2d (T := R) :=
  let g := e_metric el in
  Dg2d (e_Dr el) (e_Ds el) (e_Lift el) (e_Fscale el) (e_nx el) (e_ny el) (g_rx g) (g_ry g) (g_sx g) (g_sy g) (m_vmapM m) (m_vmapP m) (m_bc m).

Lemma normal_unique p q t n n' : p <> q -> outward_normal p q t n -> outward_normal p q t n' -> n = n'.
Proof.
  intros Hpq (A1 & A2 & A3) (B1 & B2 & B3). unfold dot, pminus in *. destruct n as [a b], n' as [c d], p as [p1 p2], q as [q1 q2], t as [t1 t2]. cbn [fst snd] in *.
  assert (HL : (q1 - p1) * (q1 - p1) + (q2 - p2) * (q2 - p2) <> 0).
  { intro X. pose proof (Rle_0_sqr (q1 - p1)). pose proof (Rle_0_sqr (q2 - p2)). unfold Rsqr in *. assert (E1 : (q1 - p1) * (q1 - p1) = 0) by lra. assert (E2 : (q2 - p2) * (q2 - p2) = 0) by lra.
    apply Hpq. apply Rmult_integral in E1. apply Rmult_integral in E2. f_equal; lra. }
  set (u := q1 - p1) in *. set (v := q2 - p2) in *. set (w := t1 - p1) in *. set (z := t2 - p2) in *. clearbody u v w z.
  assert (Hform : forall a b, a * u + b * v = 0 -> exists al, a = al * v /\ b = - al * u).
  { intros a0 b0 E0. exists ((a0 * v - b0 * u) / (u * u + v * v)). split; apply (Rmult_eq_reg_r (u * u + v * v)); auto.
    - transitivity (a0 * (v * v) + (a0 * u) * u); [ring|]. replace (a0 * u) with (- (b0 * v)) by lra. field. exact HL.
    - transitivity (b0 * (u * u) + (b0 * v) * v); [ring|]. replace (b0 * v) with (- (a0 * u)) by lra. field. exact HL. }
  destruct (Hform a b A2) as (al & -> & ->). destruct (Hform c d B2) as (be & -> & ->).
  assert (Hsq : (al - be) * (al + be) = 0).
  { apply (Rmult_eq_reg_r (u * u + v * v)); auto. transitivity ((al * v * (al * v) + - al * u * (- al * u)) - (be * v * (be * v) + - be * u * (- be * u))); [ring|]. rewrite A1, B1. ring. }
  apply Rmult_integral in Hsq as [E|E]; [replace be with al by lra; reflexivity|]. exfalso. replace be with (- al) in B3 by lra. lra.
Qed.
Lemma is_max_unique P a b : is_max P a -> is_max P b -> a = b.
Proof. intros (A1 & A2) (B1 & B2). apply Rle_antisym; auto. Qed.

Section Scheme.
Variables (G : R -> R) (solve : mat R -> mat R -> mat R -> outcome (mat R)) (inverse : mat R -> mat R -> outcome (mat R))
  (junk : nat -> nat -> R) (eps : R) (eig : nat -> (nat -> nat -> R) -> list R * (nat -> nat -> R)) (tol : R)
  (N K : nat) (Vert : list R) (EToV : list nat) (el : element (T := R)).
Hypothesis HB : built G solve inverse junk eps eig tol N K Vert EToV el.
Variables (E2E E2F : list nat).
Hypothesis HM : tri_mesh K Vert EToV E2E E2F.
Local Notation P := (corner Vert EToV).
Hypothesis HA : forall k, (k < K)%nat -> 0 < area (P k 0) (P k 1) (P k 2).
Local Notation Fm := (mask_table N (e_masks el)).
Local Notation Np := (length (e_r el)).
Local Notation fn := (fnode el).
Hypothesis HS : forall n n', (n <= N)%nat -> (n' <= N)%nat -> n <> n' -> 2 * tol <= Rabs (nth (ment Fm n 0) (e_r el) 0 - nth (ment Fm n' 0) (e_r el) 0).
Variables (sort : (nat -> nat -> bool) -> list nat -> list nat) (junk1 : nat -> R) (junkn : nat -> nat) (bcType : list Z) (bc0 : hmap) (m : maps).
Hypothesis Hrun : buildMaps (exact G) rhypot sort junk1 junkn tol 3 (S N) Np K Fm (e_x el) (e_y el) E2E E2F EToV Vert bcType bc0 = Ok m.
Local Notation d := (tables_of el m).
Local Notation fid := (face_id 3 (S N)).
Local Notation X := (node_at (e_x el) (e_y el)).

Lemma Np_pos : (0 < Np)%nat.
Proof. destruct (C67_edge_nodes _ _ _ _ _ _ _ _ _ _ _ _ HB) as (H & _). destruct (length (e_r el)); nia. Qed.
Lemma fn_lt f j : (f < 3)%nat -> (j <= N)%nat -> (fn f j < Np)%nat.
Proof. intros Hf Hj. destruct (face_nodes _ _ _ _ _ _ _ _ _ _ _ _ HB) as (g & _ & _ & _ & Hn). apply (Hn f j Hf Hj). Qed.
Lemma conform_d : dg_conform d 3 (S N) Np K = true.
Proof.
  destruct (element_ok _ _ _ _ _ _ _ _ _ _ _ _ HB) as [lr ls nodes masks edge_i pts SV SVi V Vi Vi' SL lift D x metric nrm].
  destruct D as (Vr & Vs & S1 & S2 & _). destruct nrm as (Sn1 & Sn2 & Sn3 & _). destruct x as (Sx & Sy & _). rewrite <- lr in *.
  unfold dg_conform. cbn [tables_of d_Dr d_Ds d_Lift d_Fscale d_nx d_ny d_rx d_ry d_sx d_sy]. rewrite metric. unfold metricTerms. cbn [g_rx g_ry g_sx g_sy].
  unfold shape in *. destruct S1 as (D1 & D2), S2 as (D3 & D4), Sx as (X1 & X2), Sy as (Y1 & Y2).
  rewrite !andb_true_iff, !conform_ok. unfold TriModel.mzip, Nodes1DModel.mmul. cbn [mrows mcols]. repeat split; try tauto; congruence.
Qed.
Lemma run_tables : tables_ok 3 (S N) Np K Fm (e_x el) (e_y el) E2E E2F EToV Vert.
Proof. destruct HM as [LE LF HN HO HA']. exact (tri_tables _ _ _ _ _ _ _ _ _ _ _ _ HB _ _ LE LF HN). Qed.
Lemma HA' : forall k, (k < K)%nat -> area (P k 0) (P k 1) (P k 2) <> 0.
Proof. intros k Hk. specialize (HA k Hk). lra. Qed.

(* interior and exterior node numbers *)
Lemma maps_at n f k : (n <= N)%nat -> (f < 3)%nat -> (k < K)%nat ->
  vM d (fid n f k) = volume_id Np (fn f n) k /\
  exists k2 f2 q, (k2 < K)%nat /\ (f2 < 3)%nat /\ (q <= N)%nat /\ vP d (fid n f k) = volume_id Np (fn f2 q) k2 /\
    X (fn f2 q) k2 = X (fn f n) k /\
    ((k2 = k /\ f2 = f /\ q = n /\ forall h, ~ shares 3 (map Z.of_nat EToV) (3 * k + f) h) \/ (joined EToV k f k2 f2 /\ P k2 f2 = P k (next f) /\ P k2 (next f2) = P k f)).
Proof.
  intros Hn Hf Hk. destruct HM as [LE LF HN HO _]. destruct (HN (3 * k + f)%nat ltac:(lia)) as (h & (L1 & L2) & _).
  destruct (C38_trace_maps (exact G) rhypot sort junk1 junkn tol 3 (S N) Np K Fm (e_x el) (e_y el) E2E E2F EToV Vert bcType bc0 m run_tables Hrun) as (_ & _ & _ & Ht).
  destruct (tri_match _ _ _ _ _ _ _ _ _ _ _ _ HB _ _ LE LF HN HO HA' HS n f k _ _ Hn Hf Hk L1 L2) as (q' & Q1 & Q2 & Q3 & Q4 & _ & Q5).
  destruct (tri_neighbour_corners _ _ _ _ _ _ _ _ _ _ _ _ HB _ _ LE LF HN HO HA' f k _ _ Hf Hk L1 L2) as (B1 & B2 & Hc).
  destruct (Ht n f k _ _ ltac:(lia) Hf Hk L1 L2) as (V1 & [(q & W1 & W2 & _ & V2 & _)|(No & _)]).
  2:{ rewrite No in Q4 by lia. discriminate. }
  assert (Hqq : q = q') by (apply Q5; [lia|exact W2]). rewrite <- Hqq in Q2, Q3. split; [apply nth_error_nth; exact V1|].
  exists (h / 3)%nat, (h mod 3)%nat, q. split; [exact B2|]. split; [exact B1|]. split; [lia|]. split; [apply nth_error_nth; exact V2|]. split; [exact Q2|].
  destruct Hc as [(E1 & E2 & Hns)|(E1 & E2 & E3 & E4)]; [left|right].
  - rewrite E1, Nat.eqb_refl in Q3. auto.
  - unfold next. auto.
Qed.
Lemma volume_cell (q : field) i k : (i < Np)%nat -> cell_at Np q (volume_id Np i k) = at_node q i k.
Proof.
  intro Hi. unfold cell_at, volume_id. rewrite (Nat.mul_comm Np k), Nat.mod_add, Nat.div_add by lia. rewrite Nat.mod_small, Nat.div_small by lia. reflexivity.
Qed.
Lemma fid_split i : (i < 3 * S N * K)%nat -> exists n f k, (n <= N)%nat /\ (f < 3)%nat /\ (k < K)%nat /\ i = fid n f k.
Proof.
  intro Hi. pose proof (Nat.div_mod i (S N) ltac:(lia)) as D1. pose proof (Nat.mod_upper_bound i (S N) ltac:(lia)) as D2.
  pose proof (Nat.div_mod (i / S N) 3 ltac:(lia)) as D3. pose proof (Nat.mod_upper_bound (i / S N) 3 ltac:(lia)) as D4.
  exists (i mod S N)%nat, ((i / S N) mod 3)%nat, (i / S N / 3)%nat. split; [lia|]. split; [exact D4|]. split; [|unfold face_id; nia].
  apply Nat.div_lt_upper_bound; [lia|]. apply Nat.div_lt_upper_bound; [lia|]. lia.
Qed.
Lemma fid_lt n f k : (n <= N)%nat -> (f < 3)%nat -> (k < K)%nat -> (fid n f k < 3 * S N * K)%nat.
Proof. unfold face_id. intros. nia. Qed.
Lemma maps_bounds : maps_ok d Np K (3 * S N * K).
Proof.
  destruct (C38_trace_maps (exact G) rhypot sort junk1 junkn tol 3 (S N) Np K Fm (e_x el) (e_y el) E2E E2F EToV Vert bcType bc0 m run_tables Hrun) as (L1 & L2 & _).
  assert (Hb : forall i, (i < 3 * S N * K)%nat -> (vM d i < Np * K)%nat /\ (vP d i < Np * K)%nat).
  { intros i Hi. destruct (fid_split i Hi) as (n & f & k & Hn & Hf & Hk & ->). destruct (maps_at n f k Hn Hf Hk) as (-> & k2 & f2 & q & Hk2 & Hf2 & Hq & -> & _).
    pose proof (fn_lt f n Hf Hn). pose proof (fn_lt f2 q Hf2 Hq). unfold volume_id. nia. }
  unfold maps_ok. cbn [tables_of d_vmapM d_vmapP]. split; [lia|]. split; [lia|].
  split; intros v Hv; apply (In_nth _ _ 0%nat) in Hv as (i & Hi & <-); apply (Hb i); lia.
Qed.

(* nodes *)
Lemma phys i k : (i < Np)%nat -> (k < K)%nat -> X i k = affine_image (P k 0) (P k 1) (P k 2) (nth i (e_r el) 0) (nth i (e_s el) 0).
Proof. intros Hi Hk. destruct (C36_affine_grid _ _ _ _ _ _ _ _ _ _ _ _ HB) as (_ & _ & Hx). apply (Hx i k Hi Hk). Qed.
Lemma node_inj i j k : (i < Np)%nat -> (j < Np)%nat -> (k < K)%nat -> X i k = X j k -> i = j.
Proof.
  intros Hi Hj Hk E. destruct (Nat.eq_dec i j) as [|Hne]; [assumption|]. exfalso.
  destruct (nodal_poly _ _ _ _ _ _ _ _ _ _ _ _ HB (fun a => if (a =? i)%nat then 1 else 0)) as (p & Dp & Hp).
  destruct (to_physical N Vert EToV k (HA k Hk) p Dp) as (z & _ & Hz). rewrite !phys in E by assumption. pose proof (Hz (nth i (e_r el) 0) (nth i (e_s el) 0)) as Zi. pose proof (Hz (nth j (e_r el) 0) (nth j (e_s el) 0)) as Zj.
  rewrite E in Zi. rewrite Hp in Zi, Zj by assumption. rewrite Nat.eqb_refl in Zi. destruct (Nat.eqb_spec j i); [congruence|lra].
Qed.
Lemma image_inj k x y x' y' : (k < K)%nat -> affine_image (P k 0) (P k 1) (P k 2) x y = affine_image (P k 0) (P k 1) (P k 2) x' y' -> x = x' /\ y = y'.
Proof.
  intros Hk E. destruct HB. destruct (to_physical N Vert EToV k (HA k Hk) [(1%nat, 0%nat, 1)]) as (z & _ & Hz); [constructor; [cbn; lia|constructor]|].
  destruct (to_physical N Vert EToV k (HA k Hk) [(0%nat, 1%nat, 1)]) as (z' & _ & Hz'); [constructor; [cbn; lia|constructor]|].
  pose proof (Hz x y) as A1. pose proof (Hz x' y') as A2. pose proof (Hz' x y) as B1. pose proof (Hz' x' y') as B2. rewrite E in A1, B1. cbn in A1, A2, B1, B2. lra.
Qed.
Lemma side_pt f j : (f < 3)%nat -> (j <= N)%nat -> exists t, forall k, (k < K)%nat -> X (fn f j) k = side_point (P k f) (P k (next f)) t.
Proof.
  intros Hf Hj. destruct (face_nodes _ _ _ _ _ _ _ _ _ _ _ _ HB) as (g & _ & _ & _ & Hn). destruct (Hn f j Hf Hj) as (Hlt & En).
  exists (match f with O => edge_coord f (nth (fn f j) (e_r el) 0) (nth (fn f j) (e_s el) 0) | _ => - edge_coord f (nth (fn f j) (e_r el) 0) (nth (fn f j) (e_s el) 0) end).
  intros k Hk. rewrite phys by assumption. rewrite <- (edge_image K Vert EToV k Hk f) by exact Hf. f_equal; destruct f as [|[|[|]]]; try lia; injection En as E1 E2; rewrite ?E1, ?E2; cbn; lra.
Qed.
Lemma side_node f k i t : (f < 3)%nat -> (k < K)%nat -> (i < Np)%nat -> X i k = side_point (P k f) (P k (next f)) t -> exists j, (j <= N)%nat /\ i = fn f j.
Proof.
  intros Hf Hk Hi E. rewrite phys in E by assumption.
  assert (E2 : affine_image (P k 0) (P k 1) (P k 2) (nth i (e_r el) 0) (nth i (e_s el) 0) = affine_image (P k 0) (P k 1) (P k 2) (fst (edge f (match f with O => t | _ => - t end))) (snd (edge f (match f with O => t | _ => - t end)))).
  { rewrite E. rewrite (edge_image K Vert EToV k Hk f) by exact Hf. unfold next. f_equal. destruct f; [reflexivity|]. now rewrite Ropp_involutive. }
  apply image_inj in E2 as (E2 & E3); [|exact Hk].
  destruct (C67_edge_nodes _ _ _ _ _ _ _ _ _ _ _ _ HB) as (_ & _ & g & _ & _ & _ & _ & _ & _ & _ & Hm). destruct (Hm f Hf) as (mask & Em & Lm & Hin & _).
  assert (Hmask : In i mask). { apply Hin. split; [exact Hi|]. rewrite E2, E3. destruct f as [|[|[|]]]; [| | |lia]; reflexivity. }
  apply (In_nth _ _ 0%nat) in Hmask as (j & Hj & Ej). exists j. split; [lia|]. unfold fnode. rewrite (nth_error_nth _ _ [] Em). symmetry. exact Ej.
Qed.
Lemma fn_inj f j j' : (f < 3)%nat -> (j <= N)%nat -> (j' <= N)%nat -> fn f j = fn f j' -> j = j'.
Proof.
  intros Hf Hj Hj' E. destruct (face_nodes _ _ _ _ _ _ _ _ _ _ _ _ HB) as (g & Lg & Hi & _ & Hn). destruct (Hn f j Hf Hj) as (_ & E1). destruct (Hn f j' Hf Hj') as (_ & E2). rewrite E in E1. rewrite E1 in E2.
  assert (Eg : nth j g 0 = nth j' g 0) by (destruct f as [|[|[|]]]; [| | |lia]; injection E2; intros; lra).
  assert (Hmono : forall a b, (a < b)%nat -> (b <= N)%nat -> nth a g 0 < nth b g 0).
  { intros a b Hab. induction b as [|b IH]; intro Hb; [lia|]. destruct (Nat.eq_dec a b) as [->|]; [apply Hi; lia|]. apply Rlt_trans with (nth b g 0); [apply IH; lia|apply Hi; lia]. }
  destruct (Nat.lt_trichotomy j j') as [Hl|[Hl|Hl]]; [|exact Hl|]; apply Hmono in Hl; try assumption; lra.
Qed.

(* normals *)
Lemma fid_pos n f k : (n <= N)%nat -> (f < 3)%nat -> fid n f k = (f * S N + n + k * (3 * S N))%nat /\ (fid n f k mod (3 * S N) = f * S N + n)%nat /\ (fid n f k / (3 * S N) = k)%nat.
Proof.
  intros Hn Hf. assert (E : fid n f k = (f * S N + n + k * (3 * S N))%nat) by (unfold face_id; lia). split; [exact E|]. rewrite E.
  assert ((f * S N + n < 3 * S N)%nat) by nia. rewrite Nat.mod_add, Nat.div_add, Nat.mod_small, Nat.div_small by lia. split; lia.
Qed.
Lemma normal_fid n f k : (n <= N)%nat -> (f < 3)%nat -> (k < K)%nat -> normal_of Vert EToV k f (normal_at d (3 * S N) (fid n f k)).
Proof.
  intros Hn Hf Hk. destruct (fid_pos n f k Hn Hf) as (_ & E1 & E2). unfold normal_at. rewrite E1, E2. cbn [tables_of d_nx d_ny].
  destruct (element_ok _ _ _ _ _ _ _ _ _ _ _ _ HB) as [lr ls nodes masks edge_i pts SV SVi V Vi Vi' SL lift D x metric nrm]. destruct nrm as (_ & _ & _ & Hnr).
  destruct (Hnr k f n Hk Hf ltac:(lia)) as (Nx & Ny & _). cbv zeta in Nx, Ny. rewrite Nx, Ny. unfold normal_of, from_, to_, next.
  apply (normal_ok (P k f) (P k ((f + 1) mod 3)) (P k ((f + 2) mod 3)) ((snd (P k ((f + 1) mod 3)) - snd (P k f)) / 2) (- ((fst (P k ((f + 1) mod 3)) - fst (P k f)) / 2)) eq_refl eq_refl).
  pose proof (HA k Hk) as Ha. unfold area, cross, pminus in *. cbn [fst snd] in *. destruct f as [|[|[|]]]; [| | |lia]; change ((0 + 1) mod 3)%nat with 1%nat; change ((0 + 2) mod 3)%nat with 2%nat; change ((1 + 1) mod 3)%nat with 2%nat; change ((1 + 2) mod 3)%nat with 0%nat; change ((2 + 1) mod 3)%nat with 0%nat; change ((2 + 2) mod 3)%nat with 1%nat; lra.
Qed.
Lemma side_ne f k : (f < 3)%nat -> (k < K)%nat -> from_ Vert EToV k f <> to_ Vert EToV k f.
Proof.
  intros Hf Hk. destruct (area_sides _ _ _ (HA' k Hk)) as (N1 & N2 & N3). unfold from_, to_, next. destruct f as [|[|[|]]]; [| | |lia]; cbn [Nat.add];
  change (1 mod 3)%nat with 1%nat; change (2 mod 3)%nat with 2%nat; change (3 mod 3)%nat with 0%nat; auto.
Qed.
Lemma joined_unique k f k2 f2 k3 f3 : (f2 < 3)%nat -> (f3 < 3)%nat -> joined EToV k f k2 f2 -> joined EToV k f k3 f3 -> k2 = k3 /\ f2 = f3.
Proof.
  intros H2 H3 A1 A2. destruct HM as [_ _ _ HO _]. pose proof (C21_oriented_conforming _ _ HO _ _ _ A1 A2). split; lia.
Qed.
Lemma joined_face k f k2 f2 h : joined EToV k f k2 f2 -> (forall h, ~ shares 3 (map Z.of_nat EToV) (3 * k + f) h) -> h.
Proof. intros A1 A2. exfalso. exact (A2 _ A1). Qed.

Section Data.
Variables (g : R) (q : field) (beyond : nat -> nat -> option (nat -> point -> cell -> cell)) (own other : nat -> cell).
Hypothesis Hown : forall n f k, (n <= N)%nat -> (f < 3)%nat -> (k < K)%nat -> own (fid n f k) = at_node q (fn f n) k.
Hypothesis Hother : forall n f k, (n <= N)%nat -> (f < 3)%nat -> (k < K)%nat -> other (fid n f k) =
  match beyond k f with Some B => B (fn f n) (normal_at d (3 * S N) (fid n f k)) (own (fid n f k)) | None => cell_at Np q (vP d (fid n f k)) end.
Local Notation fac := (facing Np K Vert EToV (e_x el) (e_y el) q beyond).

Lemma facing_iff k f t a b : (f < 3)%nat -> (k < K)%nat -> (fac k f t a b <-> exists j, (j <= N)%nat /\ X (fn f j) k = side_point (P k f) (P k (next f)) t /\ a = own (fid j f k) /\ b = other (fid j f k)).
Proof.
  intros Hf Hk. split.
  - intros (i & Hi & Ei & Ea & Hb). destruct (side_node f k i t Hf Hk Hi Ei) as (j & Hj & ->). exists j. split; [exact Hj|]. split; [exact Ei|]. split; [rewrite Hown by assumption; exact Ea|].
    rewrite Hother by assumption. destruct (beyond k f) as [B|].
    + destruct Hb as (n & Hn & ->). rewrite (normal_unique _ _ _ _ _ (side_ne f k Hf Hk) Hn (normal_fid j f k Hj Hf Hk)), Hown, Ea by assumption. reflexivity.
    + destruct (maps_at j f k Hj Hf Hk) as (_ & k2 & f2 & q2 & Hk2 & Hf2 & Hq2 & -> & EX & Hc). rewrite volume_cell by (apply fn_lt; assumption).
      destruct Hb as [(k3 & f3 & i3 & Hk3 & Hf3 & J3 & Hi3 & E3 & ->)|(Hno & ->)]; destruct Hc as [(-> & -> & -> & Hns)|(J2 & _)].
      * exfalso. exact (Hns _ J3).
      * destruct (joined_unique _ _ _ _ _ _ Hf2 Hf3 J2 J3) as (<- & <-). f_equal. apply (node_inj i3 (fn f2 q2) k2); auto; [apply fn_lt; assumption|]. rewrite E3, EX. reflexivity.
      * exact Ea.
      * exfalso. exact (Hno k2 f2 Hf2 J2).
  - intros (j & Hj & Ej & -> & ->). exists (fn f j). split; [apply fn_lt; assumption|]. split; [exact Ej|]. split; [apply Hown; assumption|].
    rewrite Hother by assumption. destruct (beyond k f) as [B|].
    + exists (normal_at d (3 * S N) (fid j f k)). split; [apply normal_fid; assumption|reflexivity].
    + destruct (maps_at j f k Hj Hf Hk) as (_ & k2 & f2 & q2 & Hk2 & Hf2 & Hq2 & -> & EX & Hc). rewrite volume_cell by (apply fn_lt; assumption).
      destruct Hc as [(-> & -> & -> & Hns)|(J2 & _)].
      * right. split; [intros k2 f2 _; apply Hns|]. rewrite Hown by assumption. reflexivity.
      * left. exists k2, f2, (fn f2 q2). split; [exact Hk2|]. split; [exact Hf2|]. split; [exact J2|]. split; [apply fn_lt; assumption|]. split; [exact EX|reflexivity].
Qed.
Lemma facing_list k f : (f < 3)%nat -> (k < K)%nat -> exists l, NoDup l /\ length l = S N /\ forall t, In t l -> exists a b, fac k f t a b.
Proof.
  intros Hf Hk.
  assert (Hall : forall n, (n <= S N)%nat -> exists l, NoDup l /\ length l = n /\ forall t, In t l -> exists j, (j < n)%nat /\ X (fn f j) k = side_point (P k f) (P k (next f)) t).
  { induction n as [|n IH]; intro Hn; [exists []; split; [constructor|]; split; [reflexivity|intros t []]|].
    destruct IH as (l & ND & Ll & Hl); [lia|]. destruct (side_pt f n Hf ltac:(lia)) as (t & Ht). specialize (Ht k Hk). exists (t :: l). split; [|split; [cbn; lia|]].
    - constructor; [|exact ND]. intro Hin. apply Hl in Hin as (j & Hj & Ej). rewrite <- Ht in Ej. apply node_inj in Ej; try (apply fn_lt; lia); auto. apply fn_inj in Ej; lia.
    - intros u [<-|Hu]; [exists n; split; [lia|exact Ht]|]. destruct (Hl u Hu) as (j & Hj & Ej). exists j. split; [lia|exact Ej]. }
  destruct (Hall (S N) (le_n _)) as (l & ND & Ll & Hl). exists l. split; [exact ND|]. split; [exact Ll|]. intros t Ht. destruct (Hl t Ht) as (j & Hj & Ej).
  exists (own (fid j f k)), (other (fid j f k)). apply facing_iff; auto. exists j. split; [lia|auto].
Qed.

(* dissipation: one number per face *)
Variables (speed_of : nat -> nat -> R -> Prop) (lam : nat -> R) (L : nat -> nat -> R) (z : field).
Hypothesis HL : forall n f k, (n <= N)%nat -> (f < 3)%nat -> (k < K)%nat -> lam (fid n f k) = L k f.
Hypothesis Hspeed : forall f k, (f < 3)%nat -> (k < K)%nat -> speed_of k f (L k f).
Hypothesis Hz : forall c i k, (c < 3)%nat -> (i < Np)%nat -> (k < K)%nat -> ment (fieldc c z) i k = rate d 3 (S N) Np g q own other lam c i k.

Lemma normal_same n n' f k : (n <= N)%nat -> (n' <= N)%nat -> (f < 3)%nat -> (k < K)%nat -> normal_at d (3 * S N) (fid n f k) = normal_at d (3 * S N) (fid n' f k).
Proof. intros. eapply normal_unique; [apply (side_ne f k); assumption|apply normal_fid; assumption|apply normal_fid; assumption]. Qed.

Lemma scheme_ok : dg_scheme N Np K Vert EToV (e_x el) (e_y el) g q beyond speed_of z.
Proof.
  intros k c Hk Hc.
  pose (Fv := fun i => part c (flux_x g (at_node q i k))). pose (Gv := fun i => part c (flux_y g (at_node q i k))).
  pose (phi := fun j => rusanov g c (normal_at d (3 * S N) (j + k * (3 * S N))) (lam (j + k * (3 * S N))%nat) (own (j + k * (3 * S N))%nat) (other (j + k * (3 * S N))%nat)).
  destruct (dg_element _ _ _ _ _ _ _ _ _ _ _ _ HB k Hk (HA k Hk) Fv Gv phi (fun i => ment (fieldc c z) i k)) as (Z & Fp & Gp & S0 & S1 & S2 & DZ & DF & DG & L0 & L1 & L2 & Hn & Hs & Hbal).
  { intros i Hi. rewrite Hz by assumption. unfold rate, strong_entry. cbn [tables_of d_rx d_sx d_ry d_sy d_Dr d_Ds d_Lift d_Fscale]. f_equal. apply sumn_ext. intros j Hj. f_equal. f_equal. unfold jump_entry, phi. f_equal.
    set (f := (j / S N)%nat). set (n := (j mod S N)%nat).
    assert (Hn : (n < S N)%nat) by (apply Nat.mod_upper_bound; lia). assert (Hf : (f < 3)%nat) by (apply Nat.div_lt_upper_bound; lia).
    assert (Ej : j = (f * S N + n)%nat) by (pose proof (Nat.div_mod j (S N) ltac:(lia)); unfold f, n; lia).
    destruct (fid_pos n f k ltac:(lia) Hf) as (E1 & E2 & E3). rewrite <- Ej in E1, E2. rewrite <- E1, Hown by (assumption || lia). unfold through, normal_at. rewrite E2, E3. cbn [fst snd tables_of d_nx d_ny]. reflexivity. }
  exists Z, Fp, Gp, S0, S1, S2.
  assert (HF : forall f cs, (f < 3)%nat -> nth f [S0; S1; S2] [] = cs -> (length cs <= S N)%nat -> side_flux N Np K Vert EToV (e_x el) (e_y el) g q beyond speed_of k f c cs).
  { intros f cs Hf Ecs Lcs. split; [exact Lcs|]. split; [apply facing_list; assumption|]. exists (normal_at d (3 * S N) (fid 0 f k)), (L k f).
    split; [apply normal_fid; auto; lia|]. split; [apply Hspeed; assumption|]. intros t a b Hab. apply facing_iff in Hab as (j & Hj & Ej & -> & ->); [|assumption|assumption].
    rewrite <- Ecs, (Hs f j t Hf Hj Ej). unfold phi. destruct (fid_pos j f k Hj Hf) as (<- & _). rewrite HL by assumption. rewrite (normal_same 0 j f k) by (assumption || lia). reflexivity. }
  split; [split; [exact DZ|intros i Hi; apply (Hn i Hi)]|]. split; [exact DF|]. split; [intros i Hi; apply (Hn i Hi)|]. split; [exact DG|]. split; [intros i Hi; apply (Hn i Hi)|].
  split; [apply (HF 0%nat); auto; lia|]. split; [apply (HF 1%nat); auto; lia|]. split; [apply (HF 2%nat); auto; lia|]. exact Hbal.
Qed.
End Data.
End Scheme.
