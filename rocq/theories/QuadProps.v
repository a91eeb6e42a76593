(* QuadProps.v - theorems about the quadrilateral provisioner (C42, C43, C44, C70-C73). The situation `qbuilt` - a provisioner
   of order N constructed in exact arithmetic for a mesh of K quadrilaterals, with libraries that do what they document - is
   defined in QuadSetup.v; quad_witness (QuadWitness.v) is a concrete instance of it. *)
From Coq Require Import ZArith List Lia Bool Arith.
From Verif Require Import Base Loops Num BlitzModel JacobiModel JacobiSpec JacobiProofs JacobiOrthProofs JacobiQuadProofs JacobiExactProofs JacobiProps DenseSpec DenseModel Nodes1DModel Nodes1DSpec Nodes1DExactProofs TriModel TriSpec TriGeoSpec TriBasisProofs TriProofs TriOpProofs TriLiftProofs TriFaceProofs TriNodesProofs GllProofs TriGeoProofs TriFilterProofs TriWitness QuadModel QuadSpec QuadSetup QuadBasisProofs QuadOpProofs QuadNodesProofs QuadGeoProofs QuadElemProofs QuadWitness QuadInterpProofs.
From Coq Require Import Reals Lra.
Import ListNotations.
Local Open Scope R_scope.

Section Built.
Variables (G : R -> R) (solve : mat R -> mat R -> mat R -> outcome (mat R)) (inverse : mat R -> mat R -> outcome (mat R))
  (junk : nat -> nat -> R) (eps : R) (eig : nat -> (nat -> nat -> R) -> list R * (nat -> nat -> R)) (tol : R)
  (N K : nat) (Vert : list R) (EToV : list nat) (el : element (T := R)).
Local Notation B := (qbuilt G solve inverse junk eps eig tol N K Vert EToV el).
Local Notation r := (e_r el).
Local Notation s := (e_s el).
Local Notation P := (qcorner Vert EToV).
Local Notation Np := ((N + 1) * (N + 1))%nat.
Local Notation image k := (bilinear_image (P k 0) (P k 1) (P k 2) (P k 3)).

Lemma NpE : Np = (S N * S N)%nat.
Proof. lia. Qed.

(* C43: the nodes and the face masks. There are (N+1)^2 nodes, the tensor product of the Gauss-Lobatto points. The mask of face f
   lists exactly the nodes on that edge of the square, in increasing order, and its t-th entry is the t-th Gauss-Lobatto point of
   the edge (bottom, right, top, left), running in the direction of increasing r or s. *)
Theorem C43_nodes_masks : B ->
  length r = Np /\ length s = Np /\
  exists g, length g = S N /\ nth 0 g 0 = -1 /\ nth N g 0 = 1 /\ (forall i, (i < N)%nat -> nth i g 0 < nth (S i) g 0) /\
  (forall i, (0 < i < N)%nat -> derivable_pt_lim (fun t => hd 0 (computeJacobiPolynomial (exact G) [t] 0 0 N)) (nth i g 0) 0) /\
  (forall i, (i <= N)%nat -> nth (N - i) g 0 = - nth i g 0) /\
  (forall a b, (a <= N)%nat -> (b <= N)%nat -> let q := (a * (N + 1) + b)%nat in (nth q r 0, nth q s 0) = (nth a g 0, nth b g 0)) /\
  length (e_masks el) = 4%nat /\
  forall f, (f < 4)%nat -> exists mask, nth_error (e_masks el) f = Some mask /\ length mask = S N /\
    (forall q, In q mask <-> (q < Np)%nat /\ (nth q r 0, nth q s 0) = square_edge f (square_coord f (nth q r 0) (nth q s 0))) /\
    (forall t, (t < N)%nat -> (nth t mask 0 < nth (S t) mask 0)%nat) /\
    forall t, (t <= N)%nat -> let q := nth t mask 0%nat in (nth q r 0, nth q s 0) = square_edge f (nth t g 0).
Proof.
  intro HB. rewrite NpE. pose proof (qgll G solve inverse junk eps eig tol N K Vert EToV el HB) as Hg. destruct (qelement_ok _ _ _ _ _ _ _ _ _ _ _ _ HB) as [Hn masks edge_i SV SVi V Vi Vi' SL lift D x metric nrm].
  assert (Hn' := Hn). destruct Hn' as (lr & ls & Hq). destruct HB. split; [exact lr|]. split; [exact ls|].
  set (g := computeGaussLobottoPoints (exact G) eig eps 0 0 N) in *. exists g. pose proof (gll_sym G qb_gamma N g qb_order Hg) as Hsym. destruct Hg as (Lg & g0 & gN & Hi & Hr).
  split; [exact Lg|]. split; [exact g0|]. split; [exact gN|]. split; [exact Hi|]. split.
  { intros i H. specialize (Hr i H). rewrite (grad_ok G 0 0) in Hr by (auto; lra). cbn [map] in Hr. apply (f_equal (hd 0)) in Hr. cbn [hd] in Hr.
    apply (dpl_ext (jac G 0 0 N)); [|pose proof (gjac_deriv G 0 0 ltac:(lra) ltac:(lra) ltac:(lra) qb_gamma N (nth i g 0)) as Hd; rewrite Hr in Hd; exact Hd]. intro t. rewrite compute_ok by (auto; lra). reflexivity. }
  split; [exact Hsym|]. split.
  { intros a b Ha Hb q. unfold q. rewrite Nat.add_1_r. destruct (Hq (a * S N + b)%nat ltac:(apply pair_in; lia)) as (-> & ->). destruct (pair_div (S N) a b ltac:(lia)) as (-> & ->). reflexivity. }
  rewrite masks. split; [rewrite map_length, seq_length; reflexivity|]. intros f Hf. exists (map (qpos N f) (seq 0 (S N))).
  assert (EM : nth_error (map (fun f => map (qpos N f) (seq 0 (S N))) (seq 0 4)) f = Some (map (qpos N f) (seq 0 (S N)))) by (do 4 (destruct f as [|f]; [reflexivity|]); lia).
  split; [exact EM|]. split; [rewrite map_length, seq_length; reflexivity|].
  assert (Hm : qmask_ok N r s f (map (qpos N f) (seq 0 (S N)))) by (eapply qnode_masks; eassumption).
  assert (Hnth : forall t, (t <= N)%nat -> nth t (map (qpos N f) (seq 0 (S N))) 0%nat = qpos N f t).
  { intros t Ht. rewrite (nth_indep _ 0%nat (qpos N f 0)) by (rewrite map_length, seq_length; lia). rewrite map_nth, seq_nth by lia. reflexivity. }
  split; [|split].
  - intro q. split; [apply Hm|]. intros (Hq1 & Hq2). apply (edge_i f q); auto. rewrite masks. exact EM.
  - intros t Ht. rewrite !Hnth by lia. apply qpos_incr.
  - intros t Ht q. unfold q. rewrite Hnth by exact Ht. destruct (Hq (qpos N f t) (qpos_lt N f t Ht)) as (-> & ->).
    pose proof (qpos_dm N f t Ht) as Ep. pose proof (f_equal fst Ep) as E1. pose proof (f_equal snd Ep) as E2. cbn [fst snd] in E1, E2. rewrite E1, E2. destruct f as [|[|[|f]]]; cbn [fst snd square_edge]; rewrite ?g0, ?gN; reflexivity.
Qed.

(* C43: the physical grid is the bilinear image of the reference nodes: the corners of the square go to the vertices of the element
   in order, and every edge to the straight side between two of them, the parameter t in [-1,1] running along it uniformly. *)
Theorem C43_mapping : B ->
  shape (e_x el) Np K /\ shape (e_y el) Np K /\
  (forall i k, (i < Np)%nat -> (k < K)%nat -> (ment (e_x el) i k, ment (e_y el) i k) = image k (nth i r 0) (nth i s 0)) /\
  (forall k, image k (-1) (-1) = P k 0 /\ image k 1 (-1) = P k 1 /\ image k 1 1 = P k 2 /\ image k (-1) 1 = P k 3) /\
  (forall k t, image k (fst (square_edge 0 t)) (snd (square_edge 0 t)) = along (P k 0) (P k 1) t /\
     image k (fst (square_edge 1 t)) (snd (square_edge 1 t)) = along (P k 1) (P k 2) t /\
     image k (fst (square_edge 2 t)) (snd (square_edge 2 t)) = along (P k 3) (P k 2) t /\
     image k (fst (square_edge 3 t)) (snd (square_edge 3 t)) = along (P k 0) (P k 3) t) /\
  (forall c i k, (k < K)%nat -> (i < Np)%nat -> (nth i r 0, nth i s 0) = nth c [(-1, -1); (1, -1); (1, 1); (-1, 1)] (0, 0) -> (c < 4)%nat -> (ment (e_x el) i k, ment (e_y el) i k) = P k c).
Proof.
  intro HB. rewrite NpE. destruct (qelement_ok _ _ _ _ _ _ _ _ _ _ _ _ HB) as [Hn masks edge_i SV SVi V Vi Vi' SL lift D x metric nrm]. destruct x as (Sx & Sy & Hxy).
  assert (HC : forall k, image k (-1) (-1) = P k 0 /\ image k 1 (-1) = P k 1 /\ image k 1 1 = P k 2 /\ image k (-1) 1 = P k 3).
  { intro k. unfold bilinear_image, along. destruct (P k 0), (P k 1), (P k 2), (P k 3). cbn [fst snd]. repeat split; f_equal; field. }
  split; [exact Sx|]. split; [exact Sy|]. split; [exact Hxy|]. split; [exact HC|]. split.
  - intros k t. unfold bilinear_image, along. destruct (P k 0), (P k 1), (P k 2), (P k 3). cbn [fst snd square_edge]. repeat split; f_equal; field.
  - intros c i k Hk Hi E Hc. rewrite Hxy by assumption. destruct (HC k) as (H0 & H1 & H2 & H3). destruct c as [|[|[|[|]]]]; cbn [nth] in E; [| | | |lia]; injection E as -> ->; assumption.
Qed.

(* C42, quadrilaterals: the differentiation matrices differentiate every polynomial of degree at most N in each variable exactly,
   at every node, and annihilate constants. *)
Theorem C42_quadrilateral : B ->
  shape (e_Dr el) Np Np /\ shape (e_Ds el) Np Np /\
  maps_tensor N (e_Dr el) r s r s (fun p => dr_is (eval2 p)) /\ maps_tensor N (e_Ds el) r s r s (fun p => ds_is (eval2 p)) /\
  forall i, (i < Np)%nat -> sumn Np (fun m => ment (e_Dr el) i m) = 0 /\ sumn Np (fun m => ment (e_Ds el) i m) = 0.
Proof.
  intro HB. rewrite NpE. destruct (qelement_ok _ _ _ _ _ _ _ _ _ _ _ _ HB) as [Hn masks edge_i SV SVi V Vi Vi' SL lift D x metric nrm]. destruct Hn as (lr & ls & _).
  destruct D as (Vr & Vs & S1 & S2 & _ & _ & M1 & M2 & _). split; [exact S1|]. split; [exact S2|]. split; [exact M1|]. split; [exact M2|]. intros i Hi.
  assert (D0 : tdegree N [(0%nat, 0%nat, 1)]) by (constructor; [cbn; lia|constructor]).
  specialize (M1 [(0%nat, 0%nat, 1)] i). specialize (M2 [(0%nat, 0%nat, 1)] i). cbv beta in M1, M2. specialize (M1 D0 ltac:(lia)). specialize (M2 D0 ltac:(lia)). rewrite lr in M1, M2. split.
  - apply (dr_unique (eval2 [(0%nat, 0%nat, 1)]) (nth i r 0) (nth i s 0)).
    + rewrite (sumn_ext _ _ (fun m => ment (e_Dr el) i m * eval2 [(0%nat, 0%nat, 1)] (nth m r 0) (nth m s 0))) by (intros; cbn; ring). exact M1.
    + unfold dr_is. apply (dpl_ext (fun _ => 1)); [intro; cbn; ring|]. apply derivable_pt_lim_const.
  - apply (ds_unique (eval2 [(0%nat, 0%nat, 1)]) (nth i r 0) (nth i s 0)).
    + rewrite (sumn_ext _ _ (fun m => ment (e_Ds el) i m * eval2 [(0%nat, 0%nat, 1)] (nth m r 0) (nth m s 0))) by (intros; cbn; ring). exact M2.
    + unfold ds_is. apply (dpl_ext (fun _ => 1)); [intro; cbn; ring|]. apply derivable_pt_lim_const.
Qed.

(* C70: the metric. The factors are the partial derivatives of the bilinear map; the Jacobian is the average of a quarter of the
   cross products at the four corners, weighted by the corner shares, hence positive on a convex counter-clockwise element; where it
   is not zero the other factors invert the Jacobian matrix. *)
Theorem C70_metric : B -> forall i k, (i < Np)%nat -> (k < K)%nat ->
    let m := e_metric el in
    let xr := ment (g_xr m) i k in let xs := ment (g_xs m) i k in let yr := ment (g_yr m) i k in let ys := ment (g_ys m) i k in
    let rx := ment (g_rx m) i k in let ry := ment (g_ry m) i k in let sx := ment (g_sx m) i k in let sy := ment (g_sy m) i k in
    dr_is (fun a b => fst (image k a b)) (nth i r 0) (nth i s 0) xr /\ ds_is (fun a b => fst (image k a b)) (nth i r 0) (nth i s 0) xs /\
    dr_is (fun a b => snd (image k a b)) (nth i r 0) (nth i s 0) yr /\ ds_is (fun a b => snd (image k a b)) (nth i r 0) (nth i s 0) ys /\
    ment (g_J m) i k = xr * ys - xs * yr /\
    ment (g_J m) i k = sumn 4 (fun c => corner_weight c (nth i r 0) (nth i s 0) * (corner_cross (P k) c / 4)) /\
    (convex_ccw (P k) -> 0 < ment (g_J m) i k) /\
    (ment (g_J m) i k <> 0 -> rx * xr + ry * yr = 1 /\ rx * xs + ry * ys = 0 /\ sx * xr + sy * yr = 0 /\ sx * xs + sy * ys = 1).
Proof.
  intros HB i k Hi Hk. rewrite NpE in Hi. destruct (C43_nodes_masks HB) as (_ & _ & g & Lg & g0 & gN & gi & _ & _ & Hgr & _).
  destruct (qelement_ok _ _ _ _ _ _ _ _ _ _ _ _ HB) as [Hn masks edge_i SV SVi V Vi Vi' SL lift D x metric nrm]. destruct Hn as (lr & ls & _).
  destruct D as (Vr & Vs & S1 & S2 & _ & _ & M1 & M2 & _). destruct x as (Sx & Sy & Hxy). cbv zeta. rewrite metric. destruct HB.
  destruct (qmetric_ok G N K Vert EToV r s qb_order ltac:(congruence) (e_Dr el) (e_Ds el) (e_x el) (e_y el) ltac:(rewrite lr; exact S1) ltac:(rewrite lr; exact S2) M1 M2 ltac:(rewrite lr; exact Hxy) i k ltac:(lia) Hk) as (H1 & H2 & H3 & H4 & HJ & R1 & R2 & R3 & R4).
  assert (HA : ment (g_J (metricTerms (exact G) (e_Dr el) (e_Ds el) (e_x el) (e_y el))) i k = ment (g_xr (metricTerms (exact G) (e_Dr el) (e_Ds el) (e_x el) (e_y el))) i k * ment (g_ys (metricTerms (exact G) (e_Dr el) (e_Ds el) (e_x el) (e_y el))) i k - ment (g_xs (metricTerms (exact G) (e_Dr el) (e_Ds el) (e_x el) (e_y el))) i k * ment (g_yr (metricTerms (exact G) (e_Dr el) (e_Ds el) (e_x el) (e_y el))) i k) by reflexivity.
  set (m := metricTerms (exact G) (e_Dr el) (e_Ds el) (e_x el) (e_y el)) in *.
  split; [rewrite H1; eapply dr_ext; [|apply bil_dr]; intros; rewrite bil_image; reflexivity|].
  split; [rewrite H2; eapply ds_ext; [|apply bil_ds]; intros; rewrite bil_image; reflexivity|].
  split; [rewrite H3; eapply dr_ext; [|apply bil_dr]; intros; rewrite bil_image; reflexivity|].
  split; [rewrite H4; eapply ds_ext; [|apply bil_ds]; intros; rewrite bil_image; reflexivity|].
  split; [exact HA|]. split; [exact HJ|]. split.
  - intro Hc. rewrite HJ. destruct (pair_lt (S N) i Hi) as (Ha & Hb & Ei). specialize (Hgr (i / S N)%nat (i mod S N)%nat ltac:(lia) ltac:(lia)). cbv zeta in Hgr. rewrite Nat.add_1_r, <- Ei in Hgr. clear Ei. remember (i / S N)%nat as a eqn:Ea. remember (i mod S N)%nat as b eqn:Eb. clear Ea Eb. injection Hgr as -> ->.
    assert (Hmono : forall a b, (a <= b)%nat -> (b <= N)%nat -> nth a g 0 <= nth b g 0).
    { clear - gi. intros a b Hab Hb0. induction b as [|b IHb]; [replace a with 0%nat by lia; lra|]. destruct (Nat.eq_dec a (S b)) as [->|]; [lra|]. specialize (gi b ltac:(lia)). specialize (IHb ltac:(lia) ltac:(lia)). lra. }
    apply weighted_pos; [| |exact Hc]; rewrite <- g0, <- gN; split; apply Hmono; lia.
  - intro HJ0. rewrite R1, R2, R3, R4. rewrite HA in HJ0 |- *. repeat split; field; exact HJ0.
Qed.

(* C70: on a convex counter-clockwise element every face point carries the outward unit normal of its side - both of the other
   corners are on the inner side - and the surface scaling (length of the side / 2) / J at that node. *)
Theorem C70_normals : B -> forall k, (k < K)%nat -> convex_ccw (P k) ->
  shape (e_nx el) (4 * S N) K /\ shape (e_ny el) (4 * S N) K /\ shape (e_Fscale el) (4 * S N) K /\
  forall f i mask, (f < 4)%nat -> (i < S N)%nat -> nth_error (e_masks el) f = Some mask ->
    let n := (ment (e_nx el) (f * S N + i) k, ment (e_ny el) (f * S N + i) k) in
    outward_normal (P k f) (P k ((f + 1) mod 4)%nat) (P k ((f + 2) mod 4)%nat) n /\ outward_normal (P k f) (P k ((f + 1) mod 4)%nat) (P k ((f + 3) mod 4)%nat) n /\
    ment (e_Fscale el) (f * S N + i) k = side_length (P k f) (P k ((f + 1) mod 4)%nat) / 2 / ment (g_J (e_metric el)) (nth i mask 0%nat) k.
Proof.
  intros HB k Hk Hc. destruct (qelement_ok _ _ _ _ _ _ _ _ _ _ _ _ HB) as [Hn masks edge_i SV SVi V Vi Vi' SL lift D x metric nrm].
  destruct nrm as (Sn1 & Sn2 & Sn3 & Hnn). split; [exact Sn1|]. split; [exact Sn2|]. split; [exact Sn3|]. intros f i mask Hf Hi Em.
  destruct (Hnn k f i Hk Hf Hi) as (Nx & Ny & Fs). cbv zeta in Nx, Ny, Fs |- *. rewrite (nth_error_nth _ _ [] Em) in Fs.
  set (p := P k f) in *. set (q := P k ((f + 1) mod 4)%nat) in *.
  assert (C3 : 0 < cross (pminus q p) (pminus (P k ((f + 3) mod 4)%nat) p)) by (apply (Hc f Hf)).
  assert (C2 : 0 < cross (pminus q p) (pminus (P k ((f + 2) mod 4)%nat) p)).
  { pose proof (Hc ((f + 1) mod 4)%nat ltac:(apply Nat.mod_upper_bound; lia)) as H1. unfold corner_cross in H1. fold q in H1.
    replace ((((f + 1) mod 4) + 1) mod 4)%nat with ((f + 2) mod 4)%nat in H1 by (do 4 (destruct f as [|f]; [reflexivity|]); lia).
    replace ((((f + 1) mod 4) + 3) mod 4)%nat with f in H1 by (do 4 (destruct f as [|f]; [reflexivity|]); lia). fold p in H1.
    unfold cross, pminus in *. cbn [fst snd] in *. lra. }
  destruct (normal_ok p q _ ((snd q - snd p) / 2) (- ((fst q - fst p) / 2)) eq_refl eq_refl C2) as (O2 & Ln & _).
  destruct (normal_ok p q _ ((snd q - snd p) / 2) (- ((fst q - fst p) / 2)) eq_refl eq_refl C3) as (O3 & _ & _).
  rewrite Nx, Ny, Fs. split; [exact O2|]. split; [exact O3|]. rewrite Ln. reflexivity.
Qed.

(* C70: two elements sharing a side, traversed in opposite directions, have opposite normals along it. *)
Theorem C70_shared_face : B -> forall k k' f f' i i', (k < K)%nat -> (k' < K)%nat -> (f < 4)%nat -> (f' < 4)%nat -> (i < S N)%nat -> (i' < S N)%nat ->
  P k f = P k' ((f' + 1) mod 4)%nat -> P k ((f + 1) mod 4)%nat = P k' f' ->
  ment (e_nx el) (f' * S N + i') k' = - ment (e_nx el) (f * S N + i) k /\ ment (e_ny el) (f' * S N + i') k' = - ment (e_ny el) (f * S N + i) k.
Proof.
  intros HB k k' f f' i i' Hk Hk' Hf Hf' Hi Hi' E1 E2.
  destruct (qelement_ok _ _ _ _ _ _ _ _ _ _ _ _ HB) as [Hn0 masks edge_i SV SVi V Vi Vi' SL lift D x metric nrm].
  destruct nrm as (_ & _ & _ & Hn). destruct (Hn k f i Hk Hf Hi) as (Nx & Ny & _). destruct (Hn k' f' i' Hk' Hf' Hi') as (Nx' & Ny' & _). cbv zeta in *.
  rewrite E1, E2 in *. rewrite Nx, Ny, Nx', Ny'. set (p := P k' f'). set (q := P k' ((f' + 1) mod 4)%nat).
  replace ((snd p - snd q) / 2 * ((snd p - snd q) / 2) + - ((fst p - fst q) / 2) * - ((fst p - fst q) / 2)) with ((snd q - snd p) / 2 * ((snd q - snd p) / 2) + - ((fst q - fst p) / 2) * - ((fst q - fst p) / 2)) by field.
  unfold Rdiv. split; ring.
Qed.

(* C71: the lift matrix. Given the values on face f of a polynomial of degree at most N along that edge, the lift returns the nodal
   values of the polynomial z whose integral against every w over the square is the integral of w times the face data along the edge. *)
Theorem C71_lift : B -> forall f mask cs, (f < 4)%nat -> nth_error (e_masks el) f = Some mask -> (length cs <= S N)%nat ->
  shape (e_Lift el) Np (4 * S N) /\
  exists z, tdegree N z /\
    (forall i, (i < Np)%nat -> sumn (S N) (fun j => ment (e_Lift el) i (f * S N + j) *
        peval cs (square_coord f (nth (nth j mask 0%nat) r 0) (nth (nth j mask 0%nat) s 0))) = eval2 z (nth i r 0) (nth i s 0)) /\
    forall w, tdegree N w -> exists v, square_integral (fun x y => eval2 z x y * eval2 w x y) v /\
      integral_is (fun t => eval2 w (fst (square_edge f t)) (snd (square_edge f t)) * peval cs t) (-1) 1 v.
Proof.
  intros HB f mask cs Hf Em Lc. rewrite NpE. destruct (qelement_ok _ _ _ _ _ _ _ _ _ _ _ _ HB) as [Hn masks edge_i SV SVi V Vi Vi' SL lift D x metric nrm].
  split; [exact SL|]. exact (lift f mask cs Hf Em Lc).
Qed.

(* C72: the weak differentiation matrices are the adjoints of differentiation: applied to nodal values of p they give those of the
   z with  integral z q = integral p dq/dr  for every q. *)
Theorem C72_weak_matrices : B -> forall p, tdegree N p ->
  (exists z, tdegree N z /\ (forall i, (i < Np)%nat -> sumn Np (fun m => ment (e_Drw el) i m * eval2 p (nth m r 0) (nth m s 0)) = eval2 z (nth i r 0) (nth i s 0)) /\
    forall q dq, tdegree N q -> (forall x y, dr_is (eval2 q) x y (dq x y)) ->
      exists v, square_integral (fun x y => eval2 z x y * eval2 q x y) v /\ square_integral (fun x y => eval2 p x y * dq x y) v) /\
  (exists z, tdegree N z /\ (forall i, (i < Np)%nat -> sumn Np (fun m => ment (e_Dsw el) i m * eval2 p (nth m r 0) (nth m s 0)) = eval2 z (nth i r 0) (nth i s 0)) /\
    forall q dq, tdegree N q -> (forall x y, ds_is (eval2 q) x y (dq x y)) ->
      exists v, square_integral (fun x y => eval2 z x y * eval2 q x y) v /\ square_integral (fun x y => eval2 p x y * dq x y) v).
Proof.
  intros HB p Dp. rewrite NpE. destruct (qelement_ok _ _ _ _ _ _ _ _ _ _ _ _ HB) as [Hn masks edge_i SV SVi V Vi Vi' SL lift D x metric nrm]. destruct Hn as (lr & ls & _).
  destruct D as (Vr & Vs & _ & _ & _ & _ & _ & _ & HVr & HVs & W1 & W2). destruct HB. split.
  - exact (qweak_r G qb_gamma N r s lr ls (e_V el) Vr V HVr (e_Vinv el) Vi (e_Drw el) W1 p Dp).
  - exact (qweak_s G qb_gamma N r s lr ls (e_V el) Vs V HVs (e_Vinv el) Vi (e_Dsw el) W2 p Dp).
Qed.

(* C73: the Vandermonde matrix. Its columns are the nodal values of (N+1)^2 polynomials of degree at most N in each variable - column
   i(N+1)+j the product of the i-th normalised Legendre polynomial in s and the j-th in r - which are orthonormal on the square;
   the provisioner's Vinv is its inverse. *)
Theorem C73_vandermonde : B -> exists basis : nat -> poly2,
  shape (e_V el) Np Np /\ shape (e_Vinv el) Np Np /\
  (forall c, (c < Np)%nat -> tdegree N (basis c)) /\
  (forall i j x y, (i <= N)%nat -> (j <= N)%nat ->
     [eval2 (basis (i * (N + 1) + j)%nat) x y] = map (Rmult (hd 0 (computeJacobiPolynomial (exact G) [y] 0 0 i))) (computeJacobiPolynomial (exact G) [x] 0 0 j)) /\
  (forall q c, (q < Np)%nat -> (c < Np)%nat -> ment (e_V el) q c = eval2 (basis c) (nth q r 0) (nth q s 0)) /\
  (forall c d, (c < Np)%nat -> (d < Np)%nat -> square_integral (fun x y => eval2 (basis c) x y * eval2 (basis d) x y) (if (c =? d)%nat then 1 else 0)) /\
  (forall i j, (i < Np)%nat -> (j < Np)%nat -> sumn Np (fun k => ment (e_V el) i k * ment (e_Vinv el) k j) = (if (i =? j)%nat then 1 else 0) /\
     sumn Np (fun k => ment (e_Vinv el) i k * ment (e_V el) k j) = (if (i =? j)%nat then 1 else 0)).
Proof.
  intro HB. rewrite NpE. destruct (qelement_ok _ _ _ _ _ _ _ _ _ _ _ _ HB) as [Hn masks edge_i SV SVi V Vi Vi' SL lift D x metric nrm]. destruct HB.
  destruct (finite_choice (@nil (nat * nat * R) : poly2) (S N * S N) (fun c p => tdegree N p /\ forall x y, qb G N c x y = eval2 p x y)) as (basis & Hb).
  { intros c Hc. destruct (qb_tens G N c Hc) as (p & Dp & Ep). exists p. auto. }
  exists basis. split; [exact SV|]. split; [exact SVi|]. split; [intros c Hc; apply Hb, Hc|]. split; [|split; [|split]].
  - intros i j x0 y0 Hi Hj. rewrite Nat.add_1_r. destruct (Hb (i * S N + j)%nat ltac:(apply pair_in; lia)) as (_ & <-). unfold qb. destruct (pair_div (S N) i j ltac:(lia)) as (-> & ->).
    rewrite !compute_ok by (auto; lra). reflexivity.
  - intros q c Hq Hc. rewrite V by assumption. apply Hb, Hc.
  - intros c d Hc Hd. eapply qint_ext; [|apply (qb_orth G qb_gamma N c d Hc Hd)]. intros x0 y0. cbv beta. rewrite (proj2 (Hb c Hc)), (proj2 (Hb d Hd)). reflexivity.
  - intros i j Hi Hj. split; [apply Vi'|apply Vi]; assumption.
Qed.

(* C44: the filter loses modes. Whatever the cutoff and the strength, only the first (N+1)(N+2)/2 columns of the Vandermonde matrix
   survive (column c multiplied by the damping factor of the c-th TRIANGLE mode (a,b), of degree a+b); all later ones - products
   of Legendre polynomials of degree at most N in each variable - are mapped to zero. So with a cutoff above N, which should give the
   identity, a polynomial with integral of its square 1 is still annihilated. *)
Theorem C44_filter_refuted : B -> forall epsf Nc sp, 0 < epsf <= 1 -> INR N <> Nc ->
  exists F, quadFilter (exact G) pow exp ln epsf N (e_V el) (e_Vinv el) Nc sp = Ok F /\ shape F Np Np /\
  (forall c a b i, nth_error (modes N) c = Some (a, b) -> (i < Np)%nat -> sumn Np (fun m => ment F i m * ment (e_V el) m c) = damping epsf N Nc sp (a + b) * ment (e_V el) i c) /\
  (forall c i, ((N + 1) * (N + 2) <= 2 * c)%nat -> (c < Np)%nat -> (i < Np)%nat -> sumn Np (fun m => ment F i m * ment (e_V el) m c) = 0) /\
  exists p, tdegree N p /\ square_integral (fun x y => eval2 p x y * eval2 p x y) 1 /\
    forall i, (i < Np)%nat -> sumn Np (fun m => ment F i m * eval2 p (nth m r 0) (nth m s 0)) = 0.
Proof.
  intros HB epsf Nc sp He Hne. rewrite NpE. destruct (qelement_ok _ _ _ _ _ _ _ _ _ _ _ _ HB) as [Hn masks edge_i SV SVi V Vi Vi' SL lift D x metric nrm]. destruct Hn as (lr & ls & _). destruct HB.
  destruct (qfilter_ok G N r s lr ls (e_V el) SV V (e_Vinv el) SVi Vi exp ln epsf Nc sp) as (F & EF & SF & HF). exists F. split; [exact EF|]. split; [exact SF|].
  pose proof (modes_length N) as Lm.
  assert (Hcol : forall c i, (c < S N * S N)%nat -> (i < S N * S N)%nat -> sumn (S N * S N) (fun m => ment F i m * ment (e_V el) m c) = qsig G N exp ln epsf Nc sp c * ment (e_V el) i c).
  { intros c i Hc Hi. rewrite (V i c) by assumption. rewrite <- HF by assumption. apply sumn_ext. intros m Hm. rewrite V by assumption. reflexivity. }
  split; [|split].
  - intros c a b i Hc Hi. destruct (mode_error _ _ _ _ Hc) as (Em & Lc). rewrite Hcol by (auto; nia). f_equal. unfold qsig. destruct (Nat.ltb_spec c (length (modes N))); [|lia]. rewrite Em. cbn [fst snd]. apply damping_E. exact Hne.
  - intros c i Hc1 Hc Hi. rewrite Hcol by assumption. unfold qsig. destruct (Nat.ltb_spec c (length (modes N))); [lia|]. ring.
  - assert (Hl : (S N * S N - 1 < S N * S N)%nat) by nia. destruct (qb_tens G N (S N * S N - 1) Hl) as (p & Dp & Ep). exists p. split; [exact Dp|]. split.
    + eapply qint_ext; [|eapply qint_val; [|apply (qb_orth G qb_gamma N _ _ Hl Hl)]]; [intros; cbv beta; rewrite <- Ep; reflexivity|]. unfold delta. rewrite Nat.eqb_refl. reflexivity.
    + intros i Hi. rewrite (sumn_ext _ _ (fun m => ment F i m * qb G N (S N * S N - 1) (nth m r 0) (nth m s 0))) by (intros; rewrite Ep; reflexivity). rewrite HF by assumption. unfold qsig. destruct (Nat.ltb_spec (S N * S N - 1) (length (modes N))); [nia|]. ring.
Qed.

(* C44: interpolation. Asked for (N+1)^2 points, computeInterpMatrix throws or returns the identity matrix whatever the points: at
   every point that is not the node of the same number some polynomial is interpolated wrongly. Unless all the points are the nodes,
   the provisioner's Vinv is afterwards no longer the inverse of V. *)
Theorem C44_interp_refuted : B -> forall rout sout, length rout = Np -> length sout = Np ->
  quadInterp (exact G) inverse junk N (e_Vinv el) rout sout = Throw \/
  exists IM Vinv', quadInterp (exact G) inverse junk N (e_Vinv el) rout sout = Ok (IM, Vinv') /\ shape IM Np Np /\
    (forall i j, (i < Np)%nat -> (j < Np)%nat -> ment IM i j = if (i =? j)%nat then 1 else 0) /\
    (forall i, (i < Np)%nat -> (nth i rout 0, nth i sout 0) <> (nth i r 0, nth i s 0) -> exists p, tdegree N p /\
       sumn Np (fun m => ment IM i m * eval2 p (nth m r 0) (nth m s 0)) <> eval2 p (nth i rout 0) (nth i sout 0)) /\
    ((forall i j, (i < Np)%nat -> (j < Np)%nat -> sumn Np (fun k => ment (e_V el) i k * ment Vinv' k j) = if (i =? j)%nat then 1 else 0) ->
       forall i, (i < Np)%nat -> (nth i rout 0, nth i sout 0) = (nth i r 0, nth i s 0)).
Proof.
  intros HB rout sout Lr Ls. rewrite NpE in *. destruct (qelement_ok _ _ _ _ _ _ _ _ _ _ _ _ HB) as [Hn masks edge_i SV SVi V Vi Vi' SL lift D x metric nrm]. destruct HB.
  unfold quadInterp. destruct (qvander_ok G qb_gamma inverse N rout sout ltac:(congruence) (mkmat (length rout) (S N * S N) junk) (e_Vinv el) qb_inverse Lr ltac:(split; [exact Lr|reflexivity]) SVi) as [-> | (Vo & Vi2 & -> & SVo & SVi2 & HVo & HI1 & HI2)]; [left; reflexivity|]. cbn [bind]. right.
  exists (mmul (exact G) Vo Vi2), Vi2. split; [reflexivity|]. split; [split; cbn [mmul mrows mcols]; [apply SVo|apply SVi2]|].
  assert (HI : forall i j, (i < S N * S N)%nat -> (j < S N * S N)%nat -> ment (mmul (exact G) Vo Vi2) i j = if (i =? j)%nat then 1 else 0).
  { intros i j Hi Hj. cbn [mmul ment]. rewrite fsum_exact, (proj2 SVo). apply HI2; assumption. }
  assert (Hp : forall a b, (a <= N)%nat -> (b <= N)%nat -> tdegree N [(a, b, 1)]) by (intros a b Ha Hb; constructor; [cbn; lia|constructor]).
  split; [exact HI|]. split.
  - intros i Hi Hne.
    assert (HS : forall p, sumn (S N * S N) (fun m => ment (mmul (exact G) Vo Vi2) i m * eval2 p (nth m r 0) (nth m s 0)) = eval2 p (nth i r 0) (nth i s 0)).
    { intro p. rewrite (sumn_ext _ _ (fun m => delta i m * eval2 p (nth m r 0) (nth m s 0))) by (intros m Hm; rewrite HI by assumption; reflexivity). apply (sumn_delta _ i (fun m => eval2 p (nth m r 0) (nth m s 0)) Hi). }
    destruct (Req_EM_T (nth i r 0) (nth i rout 0)) as [E1|N1].
    + exists [(0%nat, 1%nat, 1)]. split; [apply Hp; lia|]. rewrite HS. cbn [eval2 pow]. intro E2. apply Hne. f_equal; lra.
    + exists [(1%nat, 0%nat, 1)]. split; [apply Hp; lia|]. rewrite HS. cbn [eval2 pow]. lra.
  - intros HV2 i Hi.
    assert (EV : forall c, (c < S N * S N)%nat -> ment (e_V el) i c = ment Vo i c).
    { intros c Hc. rewrite <- (sumn_delta' _ c (fun k => ment (e_V el) i k) Hc). rewrite (sumn_ext _ _ (fun k => ment (e_V el) i k * sumn (S N * S N) (fun l => ment Vi2 k l * ment Vo l c))) by (intros k Hk; rewrite HI1 by assumption; reflexivity).
      rewrite <- sumn_assoc. rewrite (sumn_ext _ _ (fun l => delta i l * ment Vo l c)) by (intros l Hl; rewrite HV2 by assumption; reflexivity). apply (sumn_delta _ i (fun l => ment Vo l c) Hi). }
    assert (HE : forall p, tdegree N p -> eval2 p (nth i rout 0) (nth i sout 0) = eval2 p (nth i r 0) (nth i s 0)).
    { intros p Dp. destruct (qmodal_ex G qb_gamma N p Dp) as (c & Hc). rewrite !Hc. apply sumn_ext. intros k Hk. rewrite <- HVo, <- V by assumption. rewrite EV by exact Hk. reflexivity. }
    pose proof (HE [(1%nat, 0%nat, 1)] ltac:(apply Hp; lia)) as X1. pose proof (HE [(0%nat, 1%nat, 1)] ltac:(apply Hp; lia)) as X2. cbn [eval2 pow] in X1, X2. f_equal; lra.
Qed.

(* C44: with the library's own dense inverter, fewer than (N+1)^2 points write past the end of the work array, and more of them
   throw as soon as LAPACK reports a matrix with a zero column as singular. *)
Theorem C44_interp_point_count_refuted : gamma_like G -> forall dgetrf dgetri Vinv rout sout, length rout = length sout ->
  ((0 < length rout < Np)%nat -> quadInterp (exact G) (computeInverse 0 dgetrf dgetri) junk N Vinv rout sout = UB) /\
  ((Np < length rout)%nat -> (forall n a j, (j < n)%nat -> (forall i, (i < n)%nat -> nth_error a (j * n + i) = Some 0) -> snd (dgetrf n a) <> 0%Z) ->
     quadInterp (exact G) (computeInverse 0 dgetrf dgetri) junk N Vinv rout sout = Throw).
Proof.
  intros HG dgetrf dgetri Vinv rout sout L. rewrite NpE. split; [apply interp_few; assumption|]. intros H HF. apply interp_many; assumption.
Qed.
End Built.

(* Two convex quadrilaterals sharing a side, order 1. *)
Example C43_witness : (exists el, qbuilt gwit solve4 inverse4 junk0 0 eig0 (1 / 10) 1 2 qVert qEToV el) /\
  (forall k, (k < 2)%nat -> convex_ccw (qcorner qVert qEToV k)) /\
  qcorner qVert qEToV 0 1 = qcorner qVert qEToV 1 ((3 + 1) mod 4)%nat /\ qcorner qVert qEToV 0 ((1 + 1) mod 4)%nat = qcorner qVert qEToV 1 3 /\
  qcorner qVert qEToV 0 2 = (1, 3 / 2) /\ qcorner qVert qEToV 0 3 = (0, 1).
Proof. split; [exact quad_witness|]. split; [exact quad_witness_convex|]. repeat split. Qed.
(* asked for the values at the nodes in reverse order, that provisioner answers with the identity *)
Example C44_witness : exists el IM Vinv', qbuilt gwit solve4 inverse4 junk0 0 eig0 (1 / 10) 1 2 qVert qEToV el /\
  quadInterp (exact gwit) inverse4 junk0 1 (e_Vinv el) [1; 1; -1; -1] [1; -1; 1; -1] = Ok (IM, Vinv') /\
  (nth 0 [1; 1; -1; -1] 0, nth 0 [1; -1; 1; -1] 0) <> (nth 0 (e_r el) 0, nth 0 (e_s el) 0) /\
  ment IM 0 0 = 1 /\ ment IM 0 3 = 0.
Proof.
  destruct quad_witness as (el & HB). destruct (C43_nodes_masks _ _ _ _ _ _ _ _ _ _ _ _ HB) as (lr & ls & g & Lg & g0 & _ & _ & _ & _ & Hgr & _).
  destruct (C44_interp_refuted _ _ _ _ _ _ _ _ _ _ _ _ HB [1; 1; -1; -1] [1; -1; 1; -1] eq_refl eq_refl) as [ET | (IM & Vi & EI & _ & HI & _)].
  - exfalso. revert ET. unfold quadInterp, quadVandermonde. cbn [length Nat.eqb negb]. change (2 * 2)%nat with 4%nat.
    destruct (qvander_fill gwit gwit_ok 1 [1; 1; -1; -1] [1; -1; 1; -1] eq_refl (mkmat 4 4 junk0) eq_refl eq_refl) as (V & -> & SV & HV). cbn [bind].
    destruct (runs4 V (nth 3 known (mzero (exact gwit) 0 0)) (proj1 SV) ltac:(right; right; right; left; reflexivity) (fitsVrev V HV)) as (_ & RI). destruct (RI (e_Vinv el)) as (Vi & -> & _). cbn [bind]. discriminate.
  - exists el, IM, Vi. split; [exact HB|]. split; [exact EI|]. split; [|split; [apply (HI 0%nat 0%nat); lia|apply (HI 0%nat 3%nat); lia]].
    pose proof (Hgr 0%nat 0%nat ltac:(lia) ltac:(lia)) as E0. cbv zeta in E0. cbn [Nat.mul Nat.add] in E0. rewrite E0, g0. cbn [nth]. intro H. injection H. lra.
Qed.
Example C44_filter_witness : (0 < / 2 ^ 52 <= 1) /\ INR 1 <> 2 /\ (exists c, (1 + 1) * (1 + 2) <= 2 * c /\ c < (1 + 1) * (1 + 1))%nat.
Proof.
  assert (0 < 2 ^ 52) by (apply pow_lt; lra). assert (1 <= 2 ^ 52) by (apply pow_R1_Rle; lra).
  split; [split; [apply Rinv_0_lt_compat; assumption|rewrite <- Rinv_1; apply Rinv_le_contravar; lra]|]. split; [cbn; lra|]. exists 3%nat. lia.
Qed.
Definition zero_column (n : nat) (a : list R) : bool :=
  existsb (fun j => forallb (fun i => match nth_error a (j * n + i) with Some v => if Req_EM_T v 0 then true else false | None => false end) (seq 0 n)) (seq 0 n).
Example C44_count_witness : let dgetrf := fun n (a : list R) => (a, @nil Z, if zero_column n a then 1%Z else 0%Z) in
  (forall n a j, (j < n)%nat -> (forall i, (i < n)%nat -> nth_error a (j * n + i) = Some 0) -> snd (dgetrf n a) <> 0%Z) /\ snd (dgetrf 1%nat [2]) = 0%Z.
Proof.
  split.
  - intros n a j Hj H. cbn [snd]. replace (zero_column n a) with true; [discriminate|]. symmetry. apply existsb_exists. exists j. split; [apply in_seq; lia|]. apply forallb_forall. intros i Hi. apply in_seq in Hi. rewrite H by lia. destruct (Req_EM_T 0 0); [reflexivity|contradiction].
  - cbn. destruct (Req_EM_T 2 0); [lra|reflexivity].
Qed.

Print Assumptions C43_nodes_masks.
Print Assumptions C43_mapping.
Print Assumptions C42_quadrilateral.
Print Assumptions C70_metric.
Print Assumptions C70_normals.
Print Assumptions C70_shared_face.
Print Assumptions C71_lift.
Print Assumptions C72_weak_matrices.
Print Assumptions C73_vandermonde.
Print Assumptions C44_filter_refuted.
Print Assumptions C44_interp_refuted.
Print Assumptions C44_interp_point_count_refuted.
