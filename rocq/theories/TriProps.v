(* TriProps.v - theorems about the triangle provisioner (C34, C35, C36, C41, C42, C64-C68). The situation `built` -
   a provisioner of order N constructed in exact arithmetic for a mesh of K triangles, with libraries that do what
   they document - is defined in TriSetup.v; tri_witness (TriWitness.v) is a concrete instance of it. *)
From Coq Require Import ZArith List Lia Bool Arith.
From Verif Require Import Base Loops Num BlitzModel JacobiModel JacobiSpec JacobiProofs JacobiOrthProofs JacobiQuadProofs JacobiExactProofs JacobiProps DenseSpec Nodes1DModel Nodes1DSpec Nodes1DExactProofs TriModel TriSpec TriGeoSpec TriSetup TriBasisProofs TriProofs TriOpProofs TriLiftProofs TriFaceProofs TriNodesProofs TriMaskProofs GllProofs TriGeoProofs TriElemProofs TriFilterProofs TriWitness.
From Coq Require Import Reals Lra SpecFloat.
Import ListNotations.
Local Open Scope R_scope.

(* C34: mode (i,j) is a polynomial q in (r,s) of degree at most i+j at all the points passed in, and the gradient
   routine returns q's partial derivatives there - including at the top corner, where the collapsed coordinate is
   singular. *)
Theorem C34_simplex_gradient G i j : gamma_like G -> exists q : poly2, degree2 (i + j) q /\
  forall r s : list R, length r = length s -> (forall k, (k < length r)%nat -> in_domain (nth k r 0) (nth k s 0)) ->
    let '(a, b) := rsToab (exact G) r s in
    evaluateSimplexPolynomial (exact G) pow a b i j = map (fun p => eval2 q (fst p) (snd p)) (combine r s) /\
    let '(dr, ds) := evaluateGradSimplex (exact G) pow a b i j in
    length dr = length r /\ length ds = length r /\
    forall k, (k < length r)%nat -> dr_is (eval2 q) (nth k r 0) (nth k s 0) (nth k dr 0) /\ ds_is (eval2 q) (nth k r 0) (nth k s 0) (nth k ds 0).
Proof.
  intro HG. destruct (sb_poly G HG i j) as (q & Dq & Hq). exists q. split; [exact Dq|]. intros r s L Hd.
  destruct (rsToab (exact G) r s) as [a b] eqn:Eab.
  pose proof (simplex_list G HG r s i j L) as H1. pose proof (grad_list G HG r s i j L) as H2. rewrite Eab in H1, H2. cbn [fst snd] in H1, H2. rewrite H2. split.
  - rewrite H1.
    + apply map_ext. intro p. apply Hq.
    + intros p Hp. destruct (In_nth _ _ (0, 0) Hp) as (k & Hk & <-). rewrite combine_length in Hk. rewrite combine_nth by exact L. apply Hd. lia.
  - rewrite !map_length, !combine_length, <- L, Nat.min_id. split; [reflexivity|]. split; [reflexivity|]. intros k Hk. rewrite !nth_map_combine by auto. cbn [fst snd]. split.
    + apply (dr_ext (sb G i j)); [exact Hq|]. apply sb_dr; auto.
    + apply (ds_ext (sb G i j)); [exact Hq|]. apply sb_ds; auto.
Qed.
(* the closed triangle, with its top corner, is inside the domain of the theorem *)
Example C34_witness : (exists G, gamma_like G) /\ in_domain (-1) 1 /\ forall r s, -1 <= r -> r + s <= 0 -> in_domain r s.
Proof. split; [exists gwit; exact gwit_ok|]. split; [right; reflexivity|]. intros r s H1 H2. destruct (Req_EM_T s 1) as [->|]; [right; lra|left; assumption]. Qed.

(* C64: the modes are orthonormal on the reference triangle. *)
Theorem C64_orthonormal_basis G : gamma_like G -> forall i j k l, exists p q : poly2,
  (forall r s, length r = length s -> (forall k, (k < length r)%nat -> in_domain (nth k r 0) (nth k s 0)) ->
     let '(a, b) := rsToab (exact G) r s in
     evaluateSimplexPolynomial (exact G) pow a b i j = map (fun z => eval2 p (fst z) (snd z)) (combine r s) /\
     evaluateSimplexPolynomial (exact G) pow a b k l = map (fun z => eval2 q (fst z) (snd z)) (combine r s)) /\
  triangle_integral (fun r s => eval2 p r s * eval2 q r s) (if ((i =? k) && (j =? l))%nat then 1 else 0).
Proof.
  intros HG i j k l. destruct (sb_poly G HG i j) as (p & _ & Hp). destruct (sb_poly G HG k l) as (q & _ & Hq). exists p, q. split.
  - intros r s L Hd. destruct (rsToab (exact G) r s) as [a b] eqn:Eab.
    assert (Hd' : forall p, In p (combine r s) -> in_domain (fst p) (snd p)).
    { intros p' Hp'. destruct (In_nth _ _ (0, 0) Hp') as (m & Hk & <-). rewrite combine_length in Hk. rewrite combine_nth by exact L. apply Hd. lia. }
    pose proof (simplex_list G HG r s i j L Hd') as H1. pose proof (simplex_list G HG r s k l L Hd') as H2. rewrite Eab in H1, H2. cbn [fst snd] in H1, H2. rewrite H1, H2. split; apply map_ext; intro; auto.
  - eapply tint_ext; [|apply (sb_orth G HG i j k l)]. intros r s. cbv beta. rewrite Hp, Hq. reflexivity.
Qed.

(* C35: xyTors undoes the affine map of the reference triangle onto the equilateral triangle with corners
   (-1,-1/sqrt 3), (1,-1/sqrt 3), (0,2/sqrt 3), both ways. *)
Theorem C35_equilateral_map G : let v1 := (-1, - / sqrt 3) in let v2 := (1, - / sqrt 3) in let v3 := (0, 2 / sqrt 3) in
  (forall r s, xyTors1 (exact G) (fst (affine_image v1 v2 v3 r s)) (snd (affine_image v1 v2 v3 r s)) = (r, s)) /\
  (forall x y, affine_image v1 v2 v3 (fst (xyTors1 (exact G) x y)) (snd (xyTors1 (exact G) x y)) = (x, y)) /\
  (forall x y k, length x = length y -> (k < length x)%nat -> length (fst (xyTors (exact G) x y)) = length x /\ length (snd (xyTors (exact G) x y)) = length x /\
     (nth k (fst (xyTors (exact G) x y)) 0, nth k (snd (xyTors (exact G) x y)) 0) = xyTors1 (exact G) (nth k x 0) (nth k y 0)) /\
  (side_length v1 v2 = 2 /\ side_length v2 v3 = 2 /\ side_length v3 v1 = 2).
Proof.
  intros v1 v2 v3. assert (H3 : sqrt 3 * sqrt 3 = 3) by (apply sqrt_sqrt; lra). assert (P3 : 0 < sqrt 3) by (apply sqrt_lt_R0; lra). assert (Hi : / sqrt 3 = sqrt 3 / 3) by (apply Rmult_eq_reg_l with (sqrt 3); [|lra]; rewrite Rinv_r by lra; unfold Rdiv; rewrite <- Rmult_assoc, H3; lra).
  split; [|split; [|split]].
  - intros r s. rewrite xyTors1_E. unfold affine_image, v1, v2, v3. cbn [fst snd]. unfold Rdiv. rewrite Hi. f_equal.
    + replace (sqrt 3 * (- (sqrt 3 / 3) + (1 + r) * / 2 * (- (sqrt 3 / 3) - - (sqrt 3 / 3)) + (1 + s) * / 2 * (2 * (sqrt 3 / 3) - - (sqrt 3 / 3)))) with (sqrt 3 * sqrt 3 * (- (1 / 3) + (1 + s) * / 2)) by field. rewrite H3. field.
    + replace (sqrt 3 * (- (sqrt 3 / 3) + (1 + r) * / 2 * (- (sqrt 3 / 3) - - (sqrt 3 / 3)) + (1 + s) * / 2 * (2 * (sqrt 3 / 3) - - (sqrt 3 / 3)))) with (sqrt 3 * sqrt 3 * (- (1 / 3) + (1 + s) * / 2)) by field. rewrite H3. field.
  - intros x y. rewrite xyTors1_E. unfold affine_image, v1, v2, v3. cbn [fst snd]. unfold Rdiv. rewrite Hi. f_equal; [field|].
    replace y with ((sqrt 3 * sqrt 3) / 3 * y) at 3 by (rewrite H3; field). field.
  - intros x y k L Hk. unfold xyTors. cbn [fst snd]. rewrite !zip2_len by exact L. split; [reflexivity|]. split; [reflexivity|]. rewrite !zip2_nth by (auto; lia). symmetry. apply surjective_pairing.
  - assert (S4 : forall z, z = 4 -> sqrt z = 2) by (intros z ->; replace 4 with (2 * 2) by ring; apply sqrt_square; lra).
    unfold side_length, dot, pminus, v1, v2, v3. cbn [fst snd]. unfold Rdiv. rewrite Hi. split; [|split]; apply S4.
    + ring.
    + replace ((0 - 1) * (0 - 1) + (2 * (sqrt 3 / 3) - - (sqrt 3 / 3)) * (2 * (sqrt 3 / 3) - - (sqrt 3 / 3))) with (1 + sqrt 3 * sqrt 3) by field. lra.
    + replace ((-1 - 0) * (-1 - 0) + (- (sqrt 3 / 3) - 2 * (sqrt 3 / 3)) * (- (sqrt 3 / 3) - 2 * (sqrt 3 / 3))) with (1 + sqrt 3 * sqrt 3) by field. lra.
Qed.
(* C35: the collapsed coordinates. On the closed triangle a stays in [-1,1] and satisfies the defining relation
   1 + r = (1 + a)(1 - s)/2; b is s; at the top corner a is -1. *)
Theorem C35_collapsed_coordinates G r s k : length r = length s -> (k < length r)%nat ->
  let a := nth k (fst (rsToab (exact G) r s)) 0 in let b := nth k (snd (rsToab (exact G) r s)) 0 in
  let x := nth k r 0 in let y := nth k s 0 in
  b = y /\ (y <> 1 -> 1 + x = (1 + a) * (1 - y) / 2) /\ (y = 1 -> a = -1) /\ (-1 <= x -> x + y <= 0 -> -1 <= y -> -1 <= a <= 1).
Proof.
  intros L Hk a b x y. assert (Ea : a = ra x y).
  { unfold a. rewrite rsToab_E by exact L. cbn [fst]. rewrite nth_map_combine by auto. reflexivity. }
  assert (Eb : b = y) by (unfold b; rewrite rsToab_E by exact L; cbn [snd]; rewrite nth_map_combine by auto; reflexivity).
  split; [exact Eb|]. rewrite Ea. unfold ra. destruct (Req_EM_T y 1) as [Hy|Hy].
  - split; [congruence|]. split; [reflexivity|]. intros. lra.
  - split; [intros _; field; lra|]. split; [congruence|]. intros H1 H2 H3. assert (H4 : 0 < 1 - y) by lra.
    assert (H5 : 0 <= (1 + x) / (1 - y) <= 1).
    { split; [apply Rmult_le_pos; [lra|apply Rlt_le, Rinv_0_lt_compat, H4]|]. apply Rmult_le_reg_r with (1 - y); [exact H4|]. unfold Rdiv. rewrite Rmult_assoc, Rinv_l by lra. lra. }
    replace (2 * (1 + x) / (1 - y) - 1) with (2 * ((1 + x) / (1 - y)) - 1) by (unfold Rdiv; ring). lra.
Qed.
Example C35_witness : let r := [0; -1] in let s := [0; 1] in length r = length s /\ (1 < length r)%nat /\ nth 1 s 0 = 1.
Proof. cbn. repeat split; lia. Qed.

Section Built.
Variables (G : R -> R) (solve : mat R -> mat R -> mat R -> outcome (mat R)) (inverse : mat R -> mat R -> outcome (mat R))
  (junk : nat -> nat -> R) (eps : R) (eig : nat -> (nat -> nat -> R) -> list R * (nat -> nat -> R)) (tol : R)
  (N K : nat) (Vert : list R) (EToV : list nat) (el : element (T := R)).
Local Notation B := (built G solve inverse junk eps eig tol N K Vert EToV el).
Local Notation r := (e_r el).
Local Notation s := (e_s el).
Local Notation P := (corner Vert EToV).

(* C67: the nodes. There are (N+1)(N+2)/2 of them. The mask of face f lists exactly the nodes lying on that edge of
   the reference triangle, and its t-th entry is the t-th Gauss-Lobatto point: -1, the interior extrema of the
   Legendre polynomial of order N in increasing order, 1. So all edges carry the same, symmetric point set, and the
   corners are nodes. *)
Theorem C67_edge_nodes : B ->
  (2 * length r = (N + 1) * (N + 2))%nat /\ length s = length r /\
  exists g, length g = S N /\ nth 0 g 0 = -1 /\ nth N g 0 = 1 /\ (forall i, (i < N)%nat -> nth i g 0 < nth (S i) g 0) /\
  (forall i, (0 < i < N)%nat -> derivable_pt_lim (fun t => hd 0 (computeJacobiPolynomial (exact G) [t] 0 0 N)) (nth i g 0) 0) /\
  (forall i, (i <= N)%nat -> nth (N - i) g 0 = - nth i g 0) /\
  length (e_masks el) = 3%nat /\
  forall f, (f < 3)%nat -> exists mask, nth_error (e_masks el) f = Some mask /\ length mask = S N /\
    (forall q, In q mask <-> (q < length r)%nat /\ (nth q r 0, nth q s 0) = edge f (edge_coord f (nth q r 0) (nth q s 0))) /\
    forall t, (t <= N)%nat -> let q := nth t mask 0%nat in
      (nth q r 0, nth q s 0) = match f with O => (nth t g 0, -1) | 1%nat => (- nth t g 0, nth t g 0) | _ => (-1, nth t g 0) end.
Proof.
  intro HB. pose proof (gll G solve inverse junk eps eig tol N K Vert EToV el HB) as Hg. destruct (element_ok _ _ _ _ _ _ _ _ _ _ _ _ HB) as [lr ls nodes masks edge_i pts SV SVi V Vi Vi' SL lift D x metric nrm].
  destruct HB. rewrite lr, ls. split; [apply modes_length|]. split; [reflexivity|].
  set (g := computeGaussLobottoPoints (exact G) eig eps 0 0 N) in *. exists g. pose proof (gll_sym G b_gamma N g b_order Hg) as Hsym. destruct Hg as (Lg & g0 & gN & Hi & Hr).
  split; [exact Lg|]. split; [exact g0|]. split; [exact gN|]. split; [exact Hi|]. split.
  { intros i H. specialize (Hr i H). rewrite (grad_ok G 0 0) in Hr by (auto; lra). cbn [map] in Hr. apply (f_equal (hd 0)) in Hr. cbn [hd] in Hr.
    apply (dpl_ext (jac G 0 0 N)); [|pose proof (gjac_deriv G 0 0 ltac:(lra) ltac:(lra) ltac:(lra) b_gamma N (nth i g 0)) as Hd; rewrite Hr in Hd; exact Hd]. intro t. rewrite compute_ok by (auto; lra). reflexivity. }
  split; [exact Hsym|]. destruct masks as (m1 & m2 & m3 & -> & HM). split; [reflexivity|]. intros f Hf.
  destruct (nth_error [m1; m2; m3] f) as [mask|] eqn:Em; [|apply nth_error_None in Em; cbn in Em; lia]. exists mask. split; [reflexivity|]. destruct (HM f mask Hf Em) as (Lm & Im & Inm). split; [exact Lm|].
  pose proof (nodes_edge_mask G eps eig N b_order Lg r s [m1; m2; m3] f mask lr ls nodes ltac:(exists m1, m2, m3; auto) Hf Em) as (_ & HE). split.
  - intro q. split.
    + intro Hq. destruct (HE q Hq) as (H1 & H2). rewrite lr in H1. auto.
    + intros (Hq & Hq'). apply Inm. split; [exact Hq|]. apply edge_i; auto.
  - intros t Ht q. destruct (mask_order N f mask Hf Lm Im Inm t Ht) as (Hq & Emq). fold q in Hq, Emq. specialize (nodes q Hq). unfold is_node in nodes. rewrite Emq in nodes. fold g in nodes.
    destruct f as [|[|[|]]]; cbn [edge_pair] in *; [| | |lia]; destruct nodes as (A1 & A2 & A3).
    + destruct (A1 eq_refl) as (-> & ->). reflexivity.
    + destruct (A2 ltac:(lia)) as (-> & ->). reflexivity.
    + destruct (A3 eq_refl) as (-> & ->). rewrite Hsym by exact Ht. f_equal. ring.
Qed.

(* C42, triangles: the differentiation matrices differentiate every polynomial of degree at most N exactly, at every
   node. *)
Theorem C42_triangle : B ->
  shape (e_Dr el) (length r) (length r) /\ shape (e_Ds el) (length r) (length r) /\
  maps_nodal N (e_Dr el) r s r s (fun p => dr_is (eval2 p)) /\ maps_nodal N (e_Ds el) r s r s (fun p => ds_is (eval2 p)) /\
  forall i, (i < length r)%nat -> sumn (length r) (fun m => ment (e_Dr el) i m) = 0 /\ sumn (length r) (fun m => ment (e_Ds el) i m) = 0.
Proof.
  intro HB. destruct (element_ok _ _ _ _ _ _ _ _ _ _ _ _ HB) as [lr ls nodes masks edge_i pts SV SVi V Vi Vi' SL lift D x metric nrm].
  destruct D as (Vr & Vs & S1 & S2 & _ & _ & M1 & M2 & _). rewrite lr. split; [exact S1|]. split; [exact S2|]. split; [exact M1|]. split; [exact M2|]. intros i Hi.
  assert (D0 : degree2 N [(0%nat, 0%nat, 1)]) by (constructor; [cbn; lia|constructor]).
  specialize (M1 [(0%nat, 0%nat, 1)] i). specialize (M2 [(0%nat, 0%nat, 1)] i). cbv beta in M1, M2. specialize (M1 D0 ltac:(lia)). specialize (M2 D0 ltac:(lia)). rewrite lr in M1, M2. split.
  - apply (dr_unique (eval2 [(0%nat, 0%nat, 1)]) (nth i r 0) (nth i s 0)).
    + rewrite (sumn_ext _ _ (fun m => ment (e_Dr el) i m * eval2 [(0%nat, 0%nat, 1)] (nth m r 0) (nth m s 0))) by (intros; cbn; ring). exact M1.
    + unfold dr_is. apply (dpl_ext (fun _ => 1)); [intro; cbn; ring|]. apply derivable_pt_lim_const.
  - apply (ds_unique (eval2 [(0%nat, 0%nat, 1)]) (nth i r 0) (nth i s 0)).
    + rewrite (sumn_ext _ _ (fun m => ment (e_Ds el) i m * eval2 [(0%nat, 0%nat, 1)] (nth m r 0) (nth m s 0))) by (intros; cbn; ring). exact M2.
    + unfold ds_is. apply (dpl_ext (fun _ => 1)); [intro; cbn; ring|]. apply derivable_pt_lim_const.
Qed.

(* C36: the physical grid is the affine image of the reference nodes, the Jacobian is half the signed area of the
   element, and the metric factors invert the Jacobian matrix (the chain rule). *)
Theorem C36_affine_grid : B ->
  shape (e_x el) (length r) K /\ shape (e_y el) (length r) K /\
  forall i k, (i < length r)%nat -> (k < K)%nat ->
    (ment (e_x el) i k, ment (e_y el) i k) = affine_image (P k 0) (P k 1) (P k 2) (nth i r 0) (nth i s 0) /\
    let m := e_metric el in
    let xr := ment (g_xr m) i k in let xs := ment (g_xs m) i k in let yr := ment (g_yr m) i k in let ys := ment (g_ys m) i k in
    let rx := ment (g_rx m) i k in let ry := ment (g_ry m) i k in let sx := ment (g_sx m) i k in let sy := ment (g_sy m) i k in
    dr_is (fun a b => fst (affine_image (P k 0) (P k 1) (P k 2) a b)) (nth i r 0) (nth i s 0) xr /\
    ds_is (fun a b => fst (affine_image (P k 0) (P k 1) (P k 2) a b)) (nth i r 0) (nth i s 0) xs /\
    dr_is (fun a b => snd (affine_image (P k 0) (P k 1) (P k 2) a b)) (nth i r 0) (nth i s 0) yr /\
    ds_is (fun a b => snd (affine_image (P k 0) (P k 1) (P k 2) a b)) (nth i r 0) (nth i s 0) ys /\
    ment (g_J m) i k = area (P k 0) (P k 1) (P k 2) / 2 /\
    (area (P k 0) (P k 1) (P k 2) <> 0 ->
       rx * xr + ry * yr = 1 /\ rx * xs + ry * ys = 0 /\ sx * xr + sy * yr = 0 /\ sx * xs + sy * ys = 1).
Proof.
  intro HB. destruct (element_ok _ _ _ _ _ _ _ _ _ _ _ _ HB) as [lr ls nodes masks edge_i pts SV SVi V Vi Vi' SL lift D x metric nrm].
  destruct D as (Vr & Vs & S1 & S2 & _ & _ & M1 & M2 & _). destruct x as (Sx & Sy & Hxy). rewrite lr. split; [exact Sx|]. split; [exact Sy|]. intros i k Hi Hk. split; [apply Hxy; assumption|].
  cbv zeta. rewrite metric. destruct HB.
  destruct (metric_ok G N K Vert EToV r s b_order ltac:(congruence) (e_Dr el) (e_Ds el) (e_x el) (e_y el) ltac:(rewrite lr; exact S1) ltac:(rewrite lr; exact S2) M1 M2 ltac:(rewrite lr; exact Hxy) i k ltac:(lia) Hk) as (H1 & H2 & H3 & H4 & HJ & R1 & R2 & R3 & R4).
  assert (HA : ment (g_J (metricTerms (exact G) (e_Dr el) (e_Ds el) (e_x el) (e_y el))) i k = ment (g_xr (metricTerms (exact G) (e_Dr el) (e_Ds el) (e_x el) (e_y el))) i k * ment (g_ys (metricTerms (exact G) (e_Dr el) (e_Ds el) (e_x el) (e_y el))) i k - ment (g_xs (metricTerms (exact G) (e_Dr el) (e_Ds el) (e_x el) (e_y el))) i k * ment (g_yr (metricTerms (exact G) (e_Dr el) (e_Ds el) (e_x el) (e_y el))) i k) by reflexivity.
  set (m := metricTerms (exact G) (e_Dr el) (e_Ds el) (e_x el) (e_y el)) in *.
  assert (Hlin : forall a b x, derivable_pt_lim (fun t => a + (b + b * t)) x b) by (intros; apply lin_lim).
  split; [|split; [|split; [|split; [|split]]]].
  - rewrite H1. unfold dr_is, affine_image. cbn [fst]. eapply dpl_ext; [|apply (Hlin (fst (P k 0) + (1 + nth i s 0) / 2 * (fst (P k 2) - fst (P k 0))))]. intro t. cbv beta. field.
  - rewrite H2. unfold ds_is, affine_image. cbn [fst]. eapply dpl_ext; [|apply (Hlin (fst (P k 0) + (1 + nth i r 0) / 2 * (fst (P k 1) - fst (P k 0))))]. intro t. cbv beta. field.
  - rewrite H3. unfold dr_is, affine_image. cbn [snd]. eapply dpl_ext; [|apply (Hlin (snd (P k 0) + (1 + nth i s 0) / 2 * (snd (P k 2) - snd (P k 0))))]. intro t. cbv beta. field.
  - rewrite H4. unfold ds_is, affine_image. cbn [snd]. eapply dpl_ext; [|apply (Hlin (snd (P k 0) + (1 + nth i r 0) / 2 * (snd (P k 1) - snd (P k 0))))]. intro t. cbv beta. field.
  - exact HJ.
  - intro Ha. rewrite R1, R2, R3, R4. assert (HJ0 : ment (g_J m) i k <> 0) by (rewrite HJ; lra). rewrite HA in HJ0 |- *. repeat split; field; exact HJ0.
Qed.

(* C36: on a counter-clockwise element every face point carries the outward unit normal of its side and the surface
   scaling (length of the side / 2) / J; the side lengths times the normals add up to zero. *)
Theorem C36_normals : B -> forall k, (k < K)%nat -> 0 < area (P k 0) (P k 1) (P k 2) ->
  shape (e_nx el) (3 * S N) K /\ shape (e_ny el) (3 * S N) K /\ shape (e_Fscale el) (3 * S N) K /\
  (forall f i, (f < 3)%nat -> (i < S N)%nat ->
    outward_normal (P k f) (P k ((f + 1) mod 3)) (P k ((f + 2) mod 3)) (ment (e_nx el) (f * S N + i) k, ment (e_ny el) (f * S N + i) k) /\
    ment (e_Fscale el) (f * S N + i) k = side_length (P k f) (P k ((f + 1) mod 3)) / 2 / (area (P k 0) (P k 1) (P k 2) / 2)) /\
  forall i0 i1 i2, (i0 < S N)%nat -> (i1 < S N)%nat -> (i2 < S N)%nat ->
    side_length (P k 0) (P k 1) * ment (e_nx el) i0 k + side_length (P k 1) (P k 2) * ment (e_nx el) (S N + i1) k + side_length (P k 2) (P k 0) * ment (e_nx el) (2 * S N + i2) k = 0 /\
    side_length (P k 0) (P k 1) * ment (e_ny el) i0 k + side_length (P k 1) (P k 2) * ment (e_ny el) (S N + i1) k + side_length (P k 2) (P k 0) * ment (e_ny el) (2 * S N + i2) k = 0.
Proof.
  intros HB k Hk Ha. destruct (element_ok _ _ _ _ _ _ _ _ _ _ _ _ HB) as [lr ls nodes masks edge_i pts SV SVi V Vi Vi' SL lift D x metric nrm].
  destruct nrm as (Sn1 & Sn2 & Sn3 & Hn). split; [exact Sn1|]. split; [exact Sn2|]. split; [exact Sn3|].
  assert (Hc : forall f, (f < 3)%nat -> 0 < cross (pminus (P k ((f + 1) mod 3)) (P k f)) (pminus (P k ((f + 2) mod 3)) (P k f))).
  { unfold area, cross, pminus in *. cbn [fst snd] in *. intros f Hf. destruct f as [|[|[|]]]; [| | |lia]; change ((0 + 1) mod 3)%nat with 1%nat; change ((0 + 2) mod 3)%nat with 2%nat; change ((1 + 1) mod 3)%nat with 2%nat; change ((1 + 2) mod 3)%nat with 0%nat; change ((2 + 1) mod 3)%nat with 0%nat; change ((2 + 2) mod 3)%nat with 1%nat; lra. }
  assert (HF : forall f i, (f < 3)%nat -> (i < S N)%nat -> let p := P k f in let q := P k ((f + 1) mod 3) in
    outward_normal p q (P k ((f + 2) mod 3)) (ment (e_nx el) (f * S N + i) k, ment (e_ny el) (f * S N + i) k) /\
    ment (e_Fscale el) (f * S N + i) k = side_length p q / 2 / (area (P k 0) (P k 1) (P k 2) / 2) /\
    side_length p q * ment (e_nx el) (f * S N + i) k = snd q - snd p /\ side_length p q * ment (e_ny el) (f * S N + i) k = - (fst q - fst p)).
  { intros f i Hf Hi p q. destruct (Hn k f i Hk Hf Hi) as (Nx & Ny & Fs). cbv zeta in Nx, Ny, Fs. fold p q in Nx, Ny, Fs. 
    destruct (normal_ok p q (P k ((f + 2) mod 3)) ((snd q - snd p) / 2) (- ((fst q - fst p) / 2)) eq_refl eq_refl (Hc f Hf)) as (O & Ln & Lp).
    rewrite Nx, Ny, Fs. split; [exact O|]. rewrite Ln. split; [reflexivity|]. split; field; lra. }
  split; [intros f i Hf Hi; destruct (HF f i Hf Hi) as (A1 & A2 & _); auto|]. intros i0 i1 i2 H0 H1 H2.
  destruct (HF 0%nat i0 ltac:(lia) H0) as (_ & _ & X0 & Y0). destruct (HF 1%nat i1 ltac:(lia) H1) as (_ & _ & X1 & Y1). destruct (HF 2%nat i2 ltac:(lia) H2) as (_ & _ & X2 & Y2).
  change ((0 + 1) mod 3)%nat with 1%nat in *. change ((1 + 1) mod 3)%nat with 2%nat in *. change ((2 + 1) mod 3)%nat with 0%nat in *.
  change (0 * S N + i0)%nat with i0 in *. replace (1 * S N + i1)%nat with (S N + i1)%nat in * by lia. rewrite X0, X1, X2, Y0, Y1, Y2. split; ring.
Qed.

(* C36: two counter-clockwise elements sharing a side (traversed in opposite directions, which follows from both
   being counter-clockwise on opposite sides of it) have opposite normals along it. *)
Theorem C36_shared_face : B -> forall k k' f f' i i', (k < K)%nat -> (k' < K)%nat -> (f < 3)%nat -> (f' < 3)%nat -> (i < S N)%nat -> (i' < S N)%nat ->
  0 < area (P k 0) (P k 1) (P k 2) -> 0 < area (P k' 0) (P k' 1) (P k' 2) ->
  P k f = P k' ((f' + 1) mod 3) -> P k ((f + 1) mod 3) = P k' f' ->
  ment (e_nx el) (f' * S N + i') k' = - ment (e_nx el) (f * S N + i) k /\ ment (e_ny el) (f' * S N + i') k' = - ment (e_ny el) (f * S N + i) k.
Proof.
  intros HB k k' f f' i i' Hk Hk' Hf Hf' Hi Hi' Ha Ha' E1 E2.
  destruct (element_ok _ _ _ _ _ _ _ _ _ _ _ _ HB) as [lr ls nodes masks edge_i pts SV SVi V Vi Vi' SL lift D x metric nrm].
  destruct nrm as (_ & _ & _ & Hn). destruct (Hn k f i Hk Hf Hi) as (Nx & Ny & _). destruct (Hn k' f' i' Hk' Hf' Hi') as (Nx' & Ny' & _). cbv zeta in *.
  rewrite E1, E2 in *. rewrite Nx, Ny, Nx', Ny'. set (p := P k' f'). set (q := P k' ((f' + 1) mod 3)).
  replace ((snd p - snd q) / 2 * ((snd p - snd q) / 2) + - ((fst p - fst q) / 2) * - ((fst p - fst q) / 2)) with ((snd q - snd p) / 2 * ((snd q - snd p) / 2) + - ((fst q - fst p) / 2) * - ((fst q - fst p) / 2)) by field.
  unfold Rdiv. split; ring.
Qed.

(* C65: the lift matrix. Given the values on face f of a polynomial of degree at most N along that edge, the lift
   returns the nodal values of the polynomial z whose integral against every w over the triangle is the integral of
   w times the face data along the edge. *)
Theorem C65_lift : B -> forall f mask cs, (f < 3)%nat -> nth_error (e_masks el) f = Some mask -> (length cs <= S N)%nat ->
  shape (e_Lift el) (length r) (3 * S N) /\
  exists z, degree2 N z /\
    (forall i, (i < length r)%nat -> sumn (S N) (fun j => ment (e_Lift el) i (f * S N + j) *
        peval cs (edge_coord f (nth (nth j mask 0%nat) r 0) (nth (nth j mask 0%nat) s 0))) = eval2 z (nth i r 0) (nth i s 0)) /\
    forall w, degree2 N w -> exists v, triangle_integral (fun x y => eval2 z x y * eval2 w x y) v /\
      integral_is (fun t => eval2 w (fst (edge f t)) (snd (edge f t)) * peval cs t) (-1) 1 v.
Proof.
  intros HB f mask cs Hf Em Lc. destruct (element_ok _ _ _ _ _ _ _ _ _ _ _ _ HB) as [lr ls nodes masks edge_i pts SV SVi V Vi Vi' SL lift D x metric nrm].
  rewrite lr. split; [exact SL|]. exact (lift f mask cs Hf Em Lc).
Qed.

(* C66: the weak differentiation matrices are the adjoints of differentiation: applied to nodal values of p they
   give those of the z with  integral z q = integral p dq/dr  for every q. *)
Theorem C66_weak_matrices : B -> forall p, degree2 N p ->
  (exists z, degree2 N z /\ (forall i, (i < length r)%nat -> sumn (length r) (fun m => ment (e_Drw el) i m * eval2 p (nth m r 0) (nth m s 0)) = eval2 z (nth i r 0) (nth i s 0)) /\
    forall q dq, degree2 N q -> (forall x y, dr_is (eval2 q) x y (dq x y)) ->
      exists v, triangle_integral (fun x y => eval2 z x y * eval2 q x y) v /\ triangle_integral (fun x y => eval2 p x y * dq x y) v) /\
  (exists z, degree2 N z /\ (forall i, (i < length r)%nat -> sumn (length r) (fun m => ment (e_Dsw el) i m * eval2 p (nth m r 0) (nth m s 0)) = eval2 z (nth i r 0) (nth i s 0)) /\
    forall q dq, degree2 N q -> (forall x y, ds_is (eval2 q) x y (dq x y)) ->
      exists v, triangle_integral (fun x y => eval2 z x y * eval2 q x y) v /\ triangle_integral (fun x y => eval2 p x y * dq x y) v).
Proof.
  intros HB p Dp. destruct (element_ok _ _ _ _ _ _ _ _ _ _ _ _ HB) as [lr ls nodes masks edge_i pts SV SVi V Vi Vi' SL lift D x metric nrm].
  destruct D as (Vr & Vs & _ & _ & _ & _ & _ & _ & HVr & HVs & W1 & W2). destruct HB. rewrite lr. split.
  - exact (weak_r G b_gamma N r s lr pts (e_V el) Vr V HVr (e_Vinv el) Vi (e_Drw el) W1 p Dp).
  - exact (weak_s G b_gamma N r s lr pts (e_V el) Vs V HVs (e_Vinv el) Vi (e_Dsw el) W2 p Dp).
Qed.

(* C68: the interpolation matrix takes nodal values of every polynomial of degree at most N to its values at any
   requested points. *)
Theorem C68_interpolation : B -> forall rout sout, length rout = length sout -> (forall k, (k < length rout)%nat -> in_domain (nth k rout 0) (nth k sout 0)) ->
  exists IM, computeInterpMatrix (exact G) pow junk N (e_Vinv el) rout sout = Ok IM /\ shape IM (length rout) (length r) /\
    maps_nodal N IM r s rout sout (fun p x y v => v = eval2 p x y).
Proof.
  intros HB rout sout L Hd. destruct (element_ok _ _ _ _ _ _ _ _ _ _ _ _ HB) as [lr ls nodes masks edge_i pts SV SVi V Vi Vi' SL lift D x metric nrm]. destruct HB. rewrite lr.
  apply (interp_ok G b_gamma junk N r s lr (e_V el) V (e_Vinv el) SVi Vi). split; [exact L|].
  intros p' Hp'. destruct (In_nth _ _ (0, 0) Hp') as (m & Hk & <-). rewrite combine_length in Hk. rewrite combine_nth by exact L. apply Hd. lia.
Qed.

(* C41: the filter. For a cutoff Nc different from N and 0 < eps <= 1: polynomials of degree below Nc pass unchanged;
   every mode is multiplied by the documented factor, which lies in [eps, 1]; the filtered polynomial never has
   more energy than the original; with Nc > N the filter is the identity. *)
Theorem C41_filter : B -> forall epsf Nc sp, 0 < epsf <= 1 -> INR N <> Nc ->
  exists F, buildFilter (exact G) pow exp ln epsf N (e_V el) (e_Vinv el) Nc sp = Ok F /\ shape F (length r) (length r) /\
  (forall p d i, degree2 d p -> (d <= N)%nat -> INR d < Nc -> (i < length r)%nat ->
     sumn (length r) (fun m => ment F i m * eval2 p (nth m r 0) (nth m s 0)) = eval2 p (nth i r 0) (nth i s 0)) /\
  (forall c a b i, nth_error (modes N) c = Some (a, b) -> (i < length r)%nat ->
     sumn (length r) (fun m => ment F i m * ment (e_V el) m c) = damping epsf N Nc sp (a + b) * ment (e_V el) i c) /\
  (forall d, (d <= N)%nat -> epsf <= damping epsf N Nc sp d <= 1) /\
  (forall p, degree2 N p -> exists q, degree2 N q /\
     (forall i, (i < length r)%nat -> sumn (length r) (fun m => ment F i m * eval2 p (nth m r 0) (nth m s 0)) = eval2 q (nth i r 0) (nth i s 0)) /\
     exists vp vq, triangle_integral (fun x y => eval2 p x y * eval2 p x y) vp /\ triangle_integral (fun x y => eval2 q x y * eval2 q x y) vq /\ vq <= vp) /\
  (INR N < Nc -> forall i j, (i < length r)%nat -> (j < length r)%nat -> ment F i j = delta i j).
Proof.
  intros HB epsf Nc sp He Hne. destruct (element_ok _ _ _ _ _ _ _ _ _ _ _ _ HB) as [lr ls nodes masks edge_i pts SV SVi V Vi Vi' SL lift D x metric nrm]. destruct HB. rewrite lr.
  destruct (filter_ok G N r s lr (e_V el) SV V (e_Vinv el) SVi Vi exp ln epsf Nc sp) as (F & EF & SF & HF). exists F. split; [exact EF|]. split; [exact SF|].
  set (sig := fun c => filter_diag (exact G) pow exp ln epsf N Nc sp (fst (mode N c)) (snd (mode N c))) in *.
  assert (Hs : forall c, (c < length (modes N))%nat -> epsf <= sig c <= 1).
  { intros c Hc. unfold sig. rewrite damping_E by exact Hne. apply damping_range; auto. apply mode_le, Hc. }
  assert (Hlow : forall p d i, degree2 d p -> (d <= N)%nat -> INR d < Nc -> (i < length (modes N))%nat ->
     sumn (length (modes N)) (fun m => ment F i m * eval2 p (nth m r 0) (nth m s 0)) = eval2 p (nth i r 0) (nth i s 0)).
  { intros p d i Dp Hd Hdn Hi. apply (filter_low G b_gamma N r s lr F sig HF p d Hd Dp); auto. intros c Hc Hle. unfold sig. apply low_E. apply le_INR in Hle. lra. }
  assert (Hmode : forall c a b i, nth_error (modes N) c = Some (a, b) -> (i < length (modes N))%nat ->
     sumn (length (modes N)) (fun m => ment F i m * ment (e_V el) m c) = damping epsf N Nc sp (a + b) * ment (e_V el) i c).
  { intros c a b i Hc Hi. destruct (mode_error _ _ _ _ Hc) as (Em & Lc). rewrite (V i c) by assumption. rewrite (sumn_ext _ _ (fun m => ment F i m * bas G N c (nth m r 0) (nth m s 0))) by (intros m Hm; rewrite (V m c) by assumption; reflexivity).
    rewrite HF by assumption. unfold sig. rewrite Em. cbn [fst snd]. rewrite damping_E by exact Hne. reflexivity. }
  split; [exact Hlow|]. split; [exact Hmode|]. split; [intros d Hd; apply damping_range; auto|]. split.
  - intros p Dp. apply (filter_contract G b_gamma N r s F sig HF p Dp). intros c Hc. specialize (Hs c Hc). lra.
  - intros HN i j Hi Hj.
    rewrite <- (sumn_delta' (length (modes N)) j (ment F i) Hj).
    rewrite (sumn_ext _ _ (fun k => ment F i k * sumn (length (modes N)) (fun c => ment (e_V el) k c * ment (e_Vinv el) c j))) by (intros k Hk; rewrite Vi' by assumption; reflexivity).
    rewrite <- sumn_assoc. rewrite <- (Vi' i j Hi Hj). apply sumn_ext. intros c Hc. f_equal. destruct (nth_error (modes N) c) as [[a b]|] eqn:Ec; [|apply nth_error_None in Ec; lia].
    rewrite (Hmode c a b i Ec Hi). destruct (mode_error _ _ _ _ Ec) as (Em & _). pose proof (mode_le N c Hc) as Hle. rewrite Em in Hle. cbn [fst snd] in Hle. unfold damping.
    destruct (Rlt_dec (INR (a + b)) Nc) as [_|Hge]; [ring|]. apply le_INR in Hle. lra.
Qed.
End Built.

(* C41, the missing case: in IEEE doubles, with the cutoff equal to the order, every entry of the filter is NaN,
   whatever the nodes, eps and exponent (pow of NaN and exp of NaN being NaN). *)
Theorem C41_cutoff_equals_order_refuted pw gam powi fexp flog eps N sp V Vinv : (Z.of_nat N <= 2 ^ 53)%Z ->
  powi S754_nan sp = S754_nan -> fexp S754_nan = S754_nan -> mrows V = length (modes N) -> mcols V = length (modes N) ->
  exists F, buildFilter (dbl_arith pw gam) powi fexp flog eps N V Vinv (fofn (dbl_arith pw gam) N) sp = Ok F /\
    mrows F = length (modes N) /\ mcols F = mcols Vinv /\ forall i j, ment F i j = S754_nan.
Proof. apply filter_nan. Qed.
Example C41_refuted_witness : exists (powi : spec_float -> nat -> spec_float) (fexp : spec_float -> spec_float),
  powi S754_nan 4%nat = S754_nan /\ fexp S754_nan = S754_nan.
Proof. exists (fun x _ => x), (fun x => x). split; reflexivity. Qed.

(* A provisioner as in these theorems exists: the unit square cut into two triangles, order 1, with both elements
   counter-clockwise and sharing the diagonal. *)
Example C36_witness : let Vert := [0; 0; 0;  1; 0; 0;  1; 1; 0;  0; 1; 0] in let EToV := [0; 1; 2;  0; 2; 3]%nat in
  (exists el, built gwit cramer cramer_inv junk0 0 eig0 (1 / 10) 1 2 Vert EToV el) /\
  0 < area (corner Vert EToV 0 0) (corner Vert EToV 0 1) (corner Vert EToV 0 2) /\
  0 < area (corner Vert EToV 1 0) (corner Vert EToV 1 1) (corner Vert EToV 1 2) /\
  corner Vert EToV 0 2 = corner Vert EToV 1 ((0 + 1) mod 3) /\ corner Vert EToV 0 ((2 + 1) mod 3) = corner Vert EToV 1 0.
Proof.
  split; [exact tri_witness|]. unfold area, cross, pminus, corner. cbn. repeat split; lra.
Qed.
Example C41_witness : (0 < / 2 ^ 52 <= 1) /\ INR 1 <> 3 / 4 /\ degree2 0 [(0%nat, 0%nat, 1)] /\ INR 0 < 3 / 4.
Proof.
  assert (0 < 2 ^ 52) by (apply pow_lt; lra). assert (1 <= 2 ^ 52) by (apply pow_R1_Rle; lra).
  split; [split; [apply Rinv_0_lt_compat; assumption|rewrite <- Rinv_1; apply Rinv_le_contravar; lra]|]. split; [cbn; lra|]. split; [constructor; [cbn; lia|constructor]|cbn; lra].
Qed.

Print Assumptions C34_simplex_gradient.
Print Assumptions C64_orthonormal_basis.
Print Assumptions C35_equilateral_map.
Print Assumptions C35_collapsed_coordinates.
Print Assumptions C67_edge_nodes.
Print Assumptions C42_triangle.
Print Assumptions C36_affine_grid.
Print Assumptions C36_normals.
Print Assumptions C36_shared_face.
Print Assumptions C65_lift.
Print Assumptions C66_weak_matrices.
Print Assumptions C68_interpolation.
Print Assumptions C41_filter.
Print Assumptions C41_cutoff_equals_order_refuted.
