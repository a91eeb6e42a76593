(* DeformProps.v - theorems about meshhelpers/curved.py, in exact arithmetic (C95). *)
From Coq Require Import ZArith List Lia Bool Arith Permutation.
From Verif Require Import Base Loops Num Line1DModel JacobiModel JacobiSpec JacobiExactProofs Nodes1DModel Nodes1DSpec Nodes1DTotalSpec Nodes1DTotalProofs PeriodicModel PeriodicProofs DenseSpec DeformModel DeformSpec DeformProofs TriWitness.
From Coq Require Import Reals Lra.
Import ListNotations.
Local Open Scope nat_scope.

Definition adjust (G : R -> R) (Verts : list (list R)) (EToV : list (list nat)) (faces : list (nat * nat)) (xS yS : list R) :=
  adjustStraightEdges (exact G) (fun a b => sqrt (a * a + b * b)) 3 Verts EToV faces xS yS.
Definition deform (G : R -> R) (inverse : mat R -> mat R -> outcome (mat R)) (Verts : list (list R)) (EToV : list (list nat)) (faces : list (nat * nat)) (xS yS ss : list R) (sx sy : R -> R)
    (r s : list R) (mask : list (list nat)) (shared : bool) (x y : mat R) (N : nat) :=
  deformAndBlend (exact G) inverse (1 / 100000000)%R (1 / 10000000)%R Verts EToV faces xS yS ss sx sy (FaceCtx r s mask shared) x y N.

(* C95: adjustStraightEdges moves the vertices at the ends of the listed faces with both ends within 200 of a sample, each to
   the sample nearest to where it was before the call, marks them, and returns those faces in order. *)
Theorem C95_adjust G Verts EToV faces xS yS : table_ok EToV Verts faces -> length xS = length yS -> xS <> [] ->
  exists V M C, adjust G Verts EToV faces xS yS = Ok (V, M, C) /\ select (joins EToV Verts xS yS) faces C /\ length V = length Verts /\ length M = length Verts /\
  forall v, v < length Verts -> let on_curve := exists e, In e faces /\ joins EToV Verts xS yS e /\ is_end EToV e v in
    (on_curve -> (exists i, nearest_sample xS yS (place (nth v Verts [])) i /\ nth v V [] = nth i xS 0%R :: nth i yS 0%R :: skipn 2 (nth v Verts [])) /\ nth v M 0%R = 1%R) /\
    (~ on_curve -> nth v V [] = nth v Verts [] /\ nth v M 0%R = 0%R).
Proof.
  intros Ht HL Hne. destruct (adjust_ok G xS yS HL EToV Verts Hne faces Ht) as (((V, M), C) & E & LV & LM & HC & Hv). exists V, M, C. split; [exact E|]. split; [exact HC|]. split; [exact LV|]. split; [exact LM|].
  intros v Hvv oc. destruct (Hv v Hvv) as [(T1 & (i & Hi & Er) & Em)|(T1 & Er & Em)]; split; intro H; try (exfalso; apply H; exact T1); try (exfalso; apply T1; exact H); [|auto].
  split; [|exact Em]. exists i. split; [exact Hi|]. rewrite Er. destruct Ht as (Hrows & _). pose proof (Hrows _ (nth_In Verts [] Hvv)) as Hr. destruct (nth v Verts []) as [|a [|b row]]; cbn in Hr; try lia. reflexivity.
Qed.
(* C95: the order of the listed faces does not matter for the vertices. *)
Theorem C95_adjust_order G Verts EToV faces faces' xS yS V M C : table_ok EToV Verts faces -> length xS = length yS -> xS <> [] -> Permutation faces faces' ->
  adjust G Verts EToV faces xS yS = Ok (V, M, C) -> exists C', adjust G Verts EToV faces' xS yS = Ok (V, M, C').
Proof.
  intros Ht HL Hne Hp E. assert (Ht' : table_ok EToV Verts faces') by (split; [apply Ht|]; intros e He; apply Ht; now apply (Permutation_in e (Permutation_sym Hp))).
  destruct (adjust_ok G xS yS HL EToV Verts Hne faces Ht) as (((V1, M1), C1) & E1 & LV & LM & _ & Hv). unfold adjust in E. change (fun a b : R => sqrt (a * a + b * b)) with hyp in E. rewrite E1 in E. injection E as <- <- <-.
  destruct (adjust_ok G xS yS HL EToV Verts Hne faces' Ht') as (((V2, M2), C2) & E2 & LV2 & LM2 & _ & Hv2). exists C2. unfold adjust. change (fun a b : R => sqrt (a * a + b * b)) with hyp. rewrite E2.
  assert (Htt : forall v, touched xS yS EToV Verts faces v <-> touched xS yS EToV Verts faces' v).
  { intro v. split; intros (e & He & H); exists e; (split; [|exact H]); [now apply (Permutation_in e Hp)|now apply (Permutation_in e (Permutation_sym Hp))]. }
  assert (HV : V2 = V1). { apply (nth_ext _ _ [] []); [congruence|]. intros v Hvv. rewrite LV2 in Hvv. destruct (Hv v Hvv) as [(T & (i & Hi & Er) & _)|(T & Er & _)], (Hv2 v Hvv) as [(T2 & (i2 & Hi2 & Er2) & _)|(T2 & Er2 & _)]; rewrite Er, Er2; auto; try (exfalso; apply T2; now apply Htt); try (exfalso; apply T; now apply Htt).
    rewrite (nearest_unique xS yS _ i i2 Hi Hi2). reflexivity. }
  assert (HM : M2 = M1). { apply (nth_ext _ _ 0%R 0%R); [congruence|]. intros v Hvv. rewrite LM2 in Hvv. destruct (Hv v Hvv) as [(T & _ & Er)|(T & _ & Er)], (Hv2 v Hvv) as [(T2 & _ & Er2)|(T2 & _ & Er2)]; rewrite Er, Er2; auto; exfalso; [apply T2|apply T]; now apply Htt. }
  now rewrite HV, HM.
Qed.

(* C95: with the context of pyblitzdg (whose x and y are copies) the returned coordinates are those before the call, whatever
   is listed and wherever the curve runs. The elements returned are those of the listed faces. *)
Theorem C95_library_no_effect_refuted G inverse Verts EToV faces xS yS ss sx sy r s mask x y N : gamma_like G -> inverter_ok inverse -> length xS = length yS ->
  arrays_ok N r s mask EToV Verts xS ss faces x y ->
  deform G inverse Verts EToV faces xS yS ss sx sy r s mask false x y N = Throw \/ deform G inverse Verts EToV faces xS yS ss sx sy r s mask false x y N = Ok (x, y, map fst faces).
Proof.
  intros HG HI HL Ha. unfold deform, deformAndBlend. rewrite (proj2 (Nat.eqb_eq _ _) HL). cbn [require].
  destruct (steps_cases G HG inverse HI xS yS ss sx sy r s mask false N EToV Verts HL faces x y Ha) as [-> | (x' & y' & -> & _ & _ & _ & Hc)]; [now left|]. right. destruct (Hc eq_refl) as (-> & ->). reflexivity.
Qed.
(* C95: a listed face with an end that is not within 1e-8 of exactly one sample raises. *)
Theorem C95_off_curve_throws G inverse Verts EToV faces xS yS ss sx sy r s mask shared x y N e : gamma_like G -> inverter_ok inverse -> length xS = length yS ->
  arrays_ok N r s mask EToV Verts xS ss faces x y -> In e faces ->
  (forall i1 i2, ~ (the_sample xS yS (fst (end_points EToV Verts e)) i1 /\ the_sample xS yS (snd (end_points EToV Verts e)) i2)) ->
  deform G inverse Verts EToV faces xS yS ss sx sy r s mask shared x y N = Throw.
Proof.
  intros HG HI HL Ha He Hn. unfold deform, deformAndBlend. rewrite (proj2 (Nat.eqb_eq _ _) HL). cbn [require].
  rewrite (steps_throw G HG inverse HI xS yS ss sx sy r s mask shared N EToV Verts HL faces e x y Ha He Hn). reflexivity.
Qed.
(* C95: otherwise it returns, if the nodes of the sides are distinct and the inverter inverts what can be inverted. *)
Theorem C95_returns G inverse Verts EToV faces xS yS ss sx sy r s mask shared x y N : gamma_like G -> inverter_ok inverse -> inverts_regular (S N) inverse -> length xS = length yS ->
  arrays_ok N r s mask EToV Verts xS ss faces x y ->
  (forall e, In e faces -> NoDup (map (fun n => nth n (side_coord (snd e) r s) 0%R) (nth (snd e) mask [])) /\ exists i1 i2, the_sample xS yS (fst (end_points EToV Verts e)) i1 /\ the_sample xS yS (snd (end_points EToV Verts e)) i2) ->
  exists x' y', deform G inverse Verts EToV faces xS yS ss sx sy r s mask shared x y N = Ok (x', y', map fst faces).
Proof.
  intros HG HI HR HL Ha Hl. unfold deform, deformAndBlend. rewrite (proj2 (Nat.eqb_eq _ _) HL). cbn [require].
  destruct (steps_run G HG inverse HI xS yS ss sx sy r s mask shared N EToV Verts HL faces HR x y Ha Hl) as (x' & y' & ->). exists x', y'. reflexivity.
Qed.

(* C95: with a context whose x and y are ordinary arrays, elements that are not listed stay, and so do elements listed once
   whose ends are at the same sample; *)
Theorem C95_others_stay G inverse Verts EToV faces xS yS ss sx sy r s mask shared x y x' y' els N : gamma_like G -> inverter_ok inverse -> length xS = length yS ->
  arrays_ok N r s mask EToV Verts xS ss faces x y -> deform G inverse Verts EToV faces xS yS ss sx sy r s mask shared x y N = Ok (x', y', els) ->
  els = map fst faces /\ mrows x' = mrows x /\ mcols x' = mcols x /\ mrows y' = mrows y /\ mcols y' = mcols y /\ forall n a, ~ In a els -> ment x' n a = ment x n a /\ ment y' n a = ment y n a.
Proof.
  intros HG HI HL Ha E. unfold deform, deformAndBlend in E. rewrite (proj2 (Nat.eqb_eq _ _) HL) in E. cbn [require] in E.
  destruct (steps_cases G HG inverse HI xS yS ss sx sy r s mask shared N EToV Verts HL faces x y Ha) as [X | (x1 & y1 & X & (? & ?) & (? & ?) & Ho & _)]; rewrite X in E; cbn [bind] in E; [discriminate|]. injection E as <- <- <-. repeat split; auto; apply Ho; assumption.
Qed.
(* the samples at the ends of the listed face e, which is the only listed face of its element *)
Definition once (faces : list (nat * nat)) (e : nat * nat) : Prop := exists l1 l2, faces = l1 ++ e :: l2 /\ ~ In (fst e) (map fst l1) /\ ~ In (fst e) (map fst l2).
Definition ends_at (EToV : list (list nat)) (Verts : list (list R)) (xS yS : list R) (e : nat * nat) (i1 i2 : nat) : Prop :=
  the_sample xS yS (fst (end_points EToV Verts e)) i1 /\ the_sample xS yS (snd (end_points EToV Verts e)) i2.
Theorem C95_same_sample_stays G inverse Verts EToV faces xS yS ss sx sy r s mask shared x y x' y' els N e i : gamma_like G -> inverter_ok inverse -> length xS = length yS ->
  arrays_ok N r s mask EToV Verts xS ss faces x y -> deform G inverse Verts EToV faces xS yS ss sx sy r s mask shared x y N = Ok (x', y', els) -> once faces e -> ends_at EToV Verts xS yS e i i ->
  forall n, ment x' n (fst e) = ment x n (fst e) /\ ment y' n (fst e) = ment y n (fst e).
Proof.
  intros HG HI HL Ha E (l1 & l2 & -> & H1 & H2) (P1 & P2). unfold deform, deformAndBlend in E. rewrite (proj2 (Nat.eqb_eq _ _) HL) in E. cbn [require] in E.
  destruct (deform_faces _ _ _ _ _ _ _ _ _ _ _ _ _ _ _) as [(x1, y1)| |] eqn:X in E; cbn [bind] in E; try discriminate. injection E as <- <- <-.
  destruct (steps_one G HG inverse HI xS yS ss sx sy r s mask shared N EToV Verts HL l1 e l2 x y x1 y1 Ha X H1 H2) as (j1 & j2 & Q1 & Q2 & Hs & _). apply Hs. destruct P1 as (P1 & _), P2 as (P2 & _). apply (proj2 Q1) in P1. apply (proj2 Q2) in P2. congruence.
Qed.
(* C95: the elements listed once with two different samples follow the curve. *)
Theorem C95_follows G inverse Verts EToV faces xS yS ss sx sy r s mask x y x' y' els N k f i1 i2 : gamma_like G -> inverter_ok inverse -> length xS = length yS ->
  arrays_ok N r s mask EToV Verts xS ss faces x y -> deform G inverse Verts EToV faces xS yS ss sx sy r s mask true x y N = Ok (x', y', els) -> once faces (k, f) -> ends_at EToV Verts xS yS (k, f) i1 i2 -> i1 <> i2 ->
  follows N r s (nth f mask []) f k sx (nth i1 ss 0%R) (nth i2 ss 0%R) x x' /\ follows N r s (nth f mask []) f k sy (nth i1 ss 0%R) (nth i2 ss 0%R) y y'.
Proof.
  intros HG HI HL Ha E (l1 & l2 & -> & H1 & H2) (P1 & P2) Hne. unfold deform, deformAndBlend in E. rewrite (proj2 (Nat.eqb_eq _ _) HL) in E. cbn [require] in E.
  destruct (deform_faces _ _ _ _ _ _ _ _ _ _ _ _ _ _ _) as [(x1, y1)| |] eqn:X in E; cbn [bind] in E; try discriminate. injection E as <- <- <-.
  destruct (steps_one G HG inverse HI xS yS ss sx sy r s mask true N EToV Verts HL l1 (k, f) l2 x y x1 y1 Ha X H1 H2) as (j1 & j2 & Q1 & Q2 & _ & Hf). destruct P1 as (P1 & _), P2 as (P2 & _). apply (proj2 Q1) in P1. apply (proj2 Q2) in P2. subst j1 j2. apply (Hf eq_refl). congruence.
Qed.
(* C95: hence the nodes of the side come to lie on the curve, at the parameter in proportion to their place on the side, except
   the node at its second end; *)
Theorem C95_lands_on_curve G inverse Verts EToV faces xS yS ss sx sy r s mask x y x' y' els N k f i1 i2 n : gamma_like G -> inverter_ok inverse -> length xS = length yS ->
  arrays_ok N r s mask EToV Verts xS ss faces x y -> deform G inverse Verts EToV faces xS yS ss sx sy r s mask true x y N = Ok (x', y', els) -> once faces (k, f) -> ends_at EToV Verts xS yS (k, f) i1 i2 -> i1 <> i2 ->
  In n (nth f mask []) -> on_side f (nth n r 0%R) (nth n s 0%R) -> let q := nth n (side_coord f r s) 0%R in (Rabs (1 - q) > 1 / 10000000)%R ->
  ment x' n k = sx (curve_at (nth i1 ss 0%R) (nth i2 ss 0%R) q) /\ ment y' n k = sy (curve_at (nth i1 ss 0%R) (nth i2 ss 0%R) q).
Proof.
  intros HG HI HL Ha E Ho He Hne Hn Hs q Hq. destruct (C95_follows G inverse Verts EToV faces xS yS ss sx sy r s mask x y x' y' els N k f i1 i2 HG HI HL Ha E Ho He Hne) as ((cs & _ & A1 & A2) & (ds & _ & B1 & B2)).
  assert (Hf : f < 3 /\ n < length r). { destruct Ha as (_ & _ & _ & Lm & Hm & (_ & Hin) & _). destruct Ho as (l1 & l2 & -> & _). destruct (Hin (k, f)) as (_ & H3 & _); [apply in_or_app; right; now left|]. cbn in H3. split; [exact H3|]. assert (Hi : In (nth f mask []) mask) by (apply nth_In; lia). apply (proj2 (Hm _ Hi)). exact Hn. }
  assert (Hb : side_blend f (nth n r 0%R) (nth n s 0%R) = 1%R).
  { unfold q in Hq. destruct f as [|[|[|f]]]; [| | |lia]; cbn [side_blend on_side side_coord] in *; [rewrite Hs|replace (nth n r 0%R) with (- nth n s 0%R)%R by lra|rewrite Hs]; field; intro Z; rewrite Z, Rabs_R0 in Hq; lra. }
  rewrite (proj1 (A2 n (proj2 Hf)) Hq), (proj1 (B2 n (proj2 Hf)) Hq), Hb, (A1 n Hn), (B1 n Hn). fold q. split; ring.
Qed.
(* C95: and the nodes of the two other sides stay, if the first end of the side already lies on the curve (so that neighbours
   still fit). *)
Theorem C95_other_sides_stay G inverse Verts EToV faces xS yS ss sx sy r s mask x y x' y' els N k f i1 i2 g n m : gamma_like G -> inverter_ok inverse -> length xS = length yS ->
  arrays_ok N r s mask EToV Verts xS ss faces x y -> deform G inverse Verts EToV faces xS yS ss sx sy r s mask true x y N = Ok (x', y', els) -> once faces (k, f) -> ends_at EToV Verts xS yS (k, f) i1 i2 -> i1 <> i2 ->
  In m (nth f mask []) -> nth m (side_coord f r s) 0%R = (-1)%R -> ment x m k = sx (nth i1 ss 0%R) -> ment y m k = sy (nth i1 ss 0%R) ->
  n < length r -> g < 3 -> g <> f -> on_side g (nth n r 0%R) (nth n s 0%R) -> ment x' n k = ment x n k /\ ment y' n k = ment y n k.
Proof.
  intros HG HI HL Ha E Ho He Hne Hm Em Ex Ey Hn Hg Hgf Hs. destruct (C95_follows G inverse Verts EToV faces xS yS ss sx sy r s mask x y x' y' els N k f i1 i2 HG HI HL Ha E Ho He Hne) as ((cs & _ & A1 & A2) & (ds & _ & B1 & B2)).
  assert (Hf : f < 3). { destruct Ha as (_ & _ & _ & _ & _ & (_ & Hin) & _). destruct Ho as (l1 & l2 & -> & _). destruct (Hin (k, f)) as (_ & H3 & _); [apply in_or_app; right; now left|exact H3]. }
  assert (Ec : curve_at (nth i1 ss 0%R) (nth i2 ss 0%R) (-1) = nth i1 ss 0%R) by (unfold curve_at; field).
  specialize (A1 m Hm). specialize (B1 m Hm). cbv zeta in A1, B1. rewrite Em, Ec in A1, B1. rewrite Ex in A1. rewrite Ey in B1. specialize (A2 n Hn). specialize (B2 n Hn). cbv zeta in A2, B2. set (q := nth n (side_coord f r s) 0%R) in *.
  assert (Z : forall ps, peval ps (-1) = 0%R -> (Rabs (1 - q) > 1 / 10000000)%R -> (side_blend f (nth n r 0) (nth n s 0) * peval ps q = 0)%R).
  { intros ps Hp Hq. assert (Hd : (1 - q <> 0)%R) by (intro Z; rewrite Z, Rabs_R0 in Hq; lra). unfold q in *.
    destruct f as [|[|[|f]]], g as [|[|[|g]]]; try lia; try congruence; cbn [side_blend on_side side_coord] in *.
    - rewrite Hs. unfold Rdiv. ring.
    - rewrite Hs, Hp. ring.
    - rewrite Hs, Hp. ring.
    - rewrite Hs. unfold Rdiv. ring.
    - rewrite Hs, Hp. ring.
    - rewrite Hs. unfold Rdiv. ring. }
  destruct (Rlt_le_dec (1 / 10000000) (Rabs (1 - q))) as [Hq|Hq].
  - rewrite (proj1 A2), (proj1 B2), (Z cs), (Z ds) by (try exact Hq; lra). split; ring.
  - split; [apply A2|apply B2]; exact Hq.
Qed.

(* --- a triangle with one side near two samples --- *)
Example C95_adjust_witness :
  let V := [[0; 0]; [300; 10]; [0; 1000]]%R in let T := [[0; 1; 2]] in let F := [(0, 0); (0, 1)] in let xS := [0; 300]%R in let yS := [1; 0]%R in
  table_ok T V F /\ length xS = length yS /\ xS <> [] /\ joins T V xS yS (0, 0) /\ ~ joins T V xS yS (0, 1).
Proof.
  intros V T F xS yS. split; [|split; [reflexivity|]; split; [discriminate|]; split].
  - split; [intros row Hr; cbn in Hr; destruct Hr as [<-|[<-|[<-|[]]]]; cbn; lia|]. intros e He. cbn in He. destruct He as [<-|[<-|[]]]; cbn; (split; [lia|]; split; [lia|]; split; [reflexivity|]; intros v Hv; lia).
  - intros v Hv. unfold is_end in Hv. cbn in Hv. destruct Hv as [-> | ->].
    + exists 0. split; [cbn; lia|]. unfold apart, sample, place. cbn. rewrite <- (sqrt_square 200) by lra. apply sqrt_le_1; lra.
    + exists 1. split; [cbn; lia|]. unfold apart, sample, place. cbn. rewrite <- (sqrt_square 200) by lra. apply sqrt_le_1; lra.
  - intro H. destruct (H 2) as (i & Hi & Hd); [right; reflexivity|]. cbn in Hi. assert (Hx : (apart (sample xS yS i) (place (nth 2 V [])) > 200)%R); [|lra].
    unfold apart, sample, place. rewrite <- (sqrt_square 200) by lra. apply Rlt_gt, sqrt_lt_1; destruct i as [|[|i]]; try lia; cbn; lra.
Qed.

Lemma cramer_inverts3 : inverts_regular 3 cramer_inv.
Proof.
  intros M X (Mr & Mc) _ (B & HB). unfold cramer_inv. destruct (cramer_runs M (mkmat (mrows M) (mrows M) idm) X) as (Y & ->); [|discriminate].
  unfold det_ok. rewrite Mr. destruct (Req_EM_T (det3 (ment M)) 0) as [Hz|]; [exfalso|reflexivity].
  assert (H : forall i j, i < 3 -> j < 3 -> (ment M i 0%nat * B 0%nat j + (ment M i 1%nat * B 1%nat j + (ment M i 2%nat * B 2%nat j + 0)) = if Nat.eqb i j then 1 else 0)%R) by (intros i j Hi Hj; apply HB; assumption).
  pose proof (H 0 0) as H00. pose proof (H 0 1) as H01. pose proof (H 0 2) as H02. pose proof (H 1 0) as H10. pose proof (H 1 1) as H11. pose proof (H 1 2) as H12. pose proof (H 2 0) as H20. pose proof (H 2 1) as H21. pose proof (H 2 2) as H22.
  repeat match goal with X : _ -> _ -> _ |- _ => specialize (X ltac:(lia) ltac:(lia)); cbn [Nat.eqb] in X end.
  set (P := fun i j => (ment M i 0%nat * B 0%nat j + (ment M i 1%nat * B 1%nat j + (ment M i 2%nat * B 2%nat j + 0)))%R).
  assert (D : (det3 (ment M) * det3 B = det3 P)%R) by (unfold det3, P; ring). rewrite Hz, Rmult_0_l in D. unfold det3, P in D. rewrite H00, H01, H02, H10, H11, H12, H20, H21, H22 in D. lra.
Qed.
(* Order 2 on one triangle: the lower side bulges by 1/4 in its middle; with copies it does not. *)
Example C95_witness :
  let r := [-1; 0; 1; -1; 0; -1]%R in let s := [-1; -1; -1; 0; 0; 1]%R in let mask := [[0; 1; 2]; [2; 4; 5]; [0; 3; 5]] in
  let x := mkmat 6 1 (fun i _ => nth i r 0%R) in let y := mkmat 6 1 (fun i _ => nth i s 0%R) in
  let V := [[-1; -1]; [1; -1]; [-1; 1]]%R in let T := [[0; 1; 2]] in let xS := [-1; 1]%R in let yS := [-1; -1]%R in let ss := [0; 1]%R in
  let sx := fun t => (2 * t - 1)%R in let sy := fun t => (-1 - t * (1 - t))%R in
  arrays_ok 2 r s mask T V xS ss [(0, 0)] x y /\ once [(0, 0)] (0, 0) /\ ends_at T V xS yS (0, 0) 0 1 /\
  (exists x' y', deform gwit cramer_inv V T [(0, 0)] xS yS ss sx sy r s mask true x y 2 = Ok (x', y', [0]) /\ ment y' 1 0 = (-5 / 4)%R /\ ment x' 1 0 = 0%R /\ ment y' 3 0 = 0%R) /\
  deform gwit cramer_inv V T [(0, 0)] xS yS ss sx sy r s mask false x y 2 = Ok (x, y, [0]).
Proof.
  intros r s mask x y V T xS yS ss sx sy.
  assert (Ha : arrays_ok 2 r s mask T V xS ss [(0, 0)] x y).
  { split; [reflexivity|]. split; [reflexivity|]. split; [reflexivity|]. split; [reflexivity|]. split; [intros fm Hf; cbn in Hf; destruct Hf as [<-|[<-|[<-|[]]]]; (split; [reflexivity|]; intros n Hn; cbn in Hn; cbn; lia)|].
    split; [split; [intros row Hr; cbn in Hr; destruct Hr as [<-|[<-|[<-|[]]]]; cbn; lia|]|split; [reflexivity|]]; intros e He; cbn in He; destruct He as [<-|[]]; cbn; [|lia]. split; [lia|]. split; [lia|]. split; [reflexivity|]. intros v Hv. lia. }
  assert (Ho : once [(0, 0)] (0, 0)) by (exists [], []; split; [reflexivity|]; split; intros []).
  assert (He : ends_at T V xS yS (0, 0) 0 1).
  { assert (A0 : forall p : point, apart p p = 0%R) by apply apart_self.
    assert (A2 : apart (-1, -1)%R (1, -1)%R = 2%R /\ apart (1, -1)%R (-1, -1)%R = 2%R) by (unfold apart; cbn; split; rewrite <- (sqrt_square 2) at 1 by lra; f_equal; ring).
    unfold ends_at, the_sample, on_sample, end_points, place, sample. cbn -[apart]. rewrite !A0. split; (split; [split; [lia|lra]|]); intros j (Hj & Hd); destruct j as [|[|j]]; try lia; try reflexivity; exfalso; cbn -[apart] in Hd; destruct A2 as (A2 & A3); rewrite ?A2, ?A3 in Hd; lra. }
  assert (Hn : forall e, In e [(0, 0)] -> NoDup (map (fun n => nth n (side_coord (snd e) r s) 0%R) (nth (snd e) mask [])) /\ exists i1 i2, the_sample xS yS (fst (end_points T V e)) i1 /\ the_sample xS yS (snd (end_points T V e)) i2).
  { intros e [<-|[]]. split; [|exists 0, 1; exact He]. cbn. repeat constructor; cbn; intuition lra. }
  split; [exact Ha|]. split; [exact Ho|]. split; [exact He|]. split.
  - destruct (C95_returns gwit cramer_inv V T [(0, 0)] xS yS ss sx sy r s mask true x y 2 gwit_ok cramer_inv_ok cramer_inverts3 eq_refl Ha Hn) as (x' & y' & E). exists x', y'. split; [exact E|].
    destruct (C95_lands_on_curve gwit cramer_inv V T [(0, 0)] xS yS ss sx sy r s mask x y x' y' _ 2 0 0 0 1 1 gwit_ok cramer_inv_ok eq_refl Ha E Ho He ltac:(lia)) as (L1 & L2); [cbn; auto|reflexivity|cbn; rewrite Rabs_pos_eq by lra; lra|].
    destruct (C95_other_sides_stay gwit cramer_inv V T [(0, 0)] xS yS ss sx sy r s mask x y x' y' _ 2 0 0 0 1 2 3 0 gwit_ok cramer_inv_ok eq_refl Ha E Ho He ltac:(lia)) as (_ & O2); try (cbn; auto; lia); try reflexivity; try (cbn; unfold sx, sy; ring).
    rewrite L1, L2, O2. unfold sx, sy, curve_at. cbn. split; [field|]. split; [field|reflexivity].
  - destruct (C95_returns gwit cramer_inv V T [(0, 0)] xS yS ss sx sy r s mask false x y 2 gwit_ok cramer_inv_ok cramer_inverts3 eq_refl Ha Hn) as (x' & y' & E). destruct (C95_library_no_effect_refuted gwit cramer_inv V T [(0, 0)] xS yS ss sx sy r s mask x y 2 gwit_ok cramer_inv_ok eq_refl Ha) as [H|H]; [rewrite H in E; discriminate|exact H].
Qed.

Print Assumptions C95_adjust. Print Assumptions C95_adjust_order. Print Assumptions C95_library_no_effect_refuted. Print Assumptions C95_off_curve_throws. Print Assumptions C95_returns.
Print Assumptions C95_others_stay. Print Assumptions C95_same_sample_stays. Print Assumptions C95_follows. Print Assumptions C95_lands_on_curve. Print Assumptions C95_other_sides_stay.
