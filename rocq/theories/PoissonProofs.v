(* PoissonProofs.v - the assembled Poisson operator on a constructed triangle mesh is the one-sided penalty form. *)
From Coq Require Import ZArith List Lia Bool Arith.
From Verif Require Import Base Loops Num FoldProofs BlitzModel JacobiModel JacobiSpec JacobiProofs JacobiOrthProofs JacobiQuadProofs JacobiExactProofs Nodes1DModel Nodes1DSpec Nodes1DExactProofs DenseSpec GllProofs
  MeshSpec MeshGeoProofs MeshProps MeshProofs TriModel TriSpec TriBasisProofs TriProofs TriOpProofs TriLiftProofs TriFaceProofs TriNodesProofs TriElemProofs TriGeoSpec TriGeoProofs TriSetup TriProps Maps2DModel Maps2DSpec Maps2DProofs Maps2DProps TriMapsProofs TriMapsProps TriDGSpec TriDGProofs
  QuadInterpProofs TripletModel CscModel CscSpec RKModel Line1DModel Line1DProofs SwModel SwSpec SwProofs SwSchemeProofs SwRunProofs PoissonModel PoissonSpec PoissonTripletProofs PoissonBlockProofs.
From Coq Require Import Reals Lra.
Import ListNotations.
Local Open Scope R_scope.

Section Line.
Variable G : R -> R.
Hypothesis HG : gamma_like G.
Local Notation E := (exact G).
Local Notation P := (jac G 0 0).
Variable inverse : mat R -> mat R -> outcome (mat R).
Variable junk : nat -> nat -> R.
Hypothesis HI : inverter_ok inverse.

Lemma lineMass_ok N t : length t = S N -> lineMass E inverse junk (S N) t = Throw \/
  exists M, lineMass E inverse junk (S N) t = Ok M /\ shape M (S N) (S N) /\
    forall f g, spoly N f -> spoly N g -> integral_is (fun x => f x * g x) (-1) 1 (lm (S N) M (fun a => f (nth a t 0)) (fun b => g (nth b t 0))).
Proof.
  intro Lt. unfold lineMass.
  destruct (HI (S N) (vandermonde1D E t (S N)) (mkmat (S N) (S N) junk)) as [-> | (Y & -> & SY & HY)]; try (split; cbn [vandermonde1D mat_cols mrows mcols]; congruence); [left; reflexivity|]. cbn [bind].
  right. exists (mmul E (mtrans Y) Y). split; [reflexivity|]. destruct SY as (SY1 & SY2). split; [split; cbn [mmul mtrans mrows mcols]; assumption|].
  set (V := vandermonde1D E t (S N)) in *. assert (HV : forall i j, (i < S N)%nat -> ment V i j = P j (nth i t 0)) by (intros; apply (vander_ent G HG); lia).
  assert (A1 : forall i j, (i < S N)%nat -> (j < S N)%nat -> sumn (S N) (fun k => ment Y i k * ment V k j) = delta i j) by (intros i j Hi Hj; apply HY; assumption).
  assert (A2 : forall c, (c < S N)%nat -> forall (h : R -> R) a, (forall x, h x = sumn (S N) (fun k => a k * P k x)) -> sumn (S N) (fun j => ment Y c j * h (nth j t 0)) = a c).
  { intros c Hc h a Hh. rewrite (sumn_ext _ _ (fun j => sumn (S N) (fun k => a k * (ment Y c j * ment V j k)))).
    - rewrite (sumn_swap (S N) (S N)). rewrite (sumn_ext _ _ (fun k => a k * delta c k)).
      + rewrite (sumn_ext _ _ (fun k => delta c k * a k)) by (intros; ring). apply sumn_delta. exact Hc.
      + intros k Hk. rewrite sumn_scal. now rewrite A1.
    - intros j Hj. rewrite Hh, <- sumn_scal. apply sumn_ext. intros k Hk. rewrite HV by assumption. ring. }
  intros f g Hf Hg. destruct (modal1 G HG N f Hf) as (a & Ha). destruct (modal1 G HG N g Hg) as (b & Hb).
  eapply integral_val; [|apply (parseval1 G HG N f g a b Ha Hb)]. unfold lm.
  transitivity (sumn (S N) (fun c => sumn (S N) (fun i => ment Y c i * f (nth i t 0)) * sumn (S N) (fun j => ment Y c j * g (nth j t 0)))).
  { apply sumn_ext. intros c Hc. rewrite (A2 c Hc f a Ha), (A2 c Hc g b Hb). reflexivity. }
  rewrite (sumn_ext _ _ (fun c => sumn (S N) (fun i => sumn (S N) (fun j => f (nth i t 0) * (ment Y c i * ment Y c j) * g (nth j t 0))))).
  - rewrite (sumn_swap (S N) (S N)). apply sumn_ext. intros i Hi. rewrite (sumn_swap (S N) (S N)). apply sumn_ext. intros j Hj. rewrite mmulE. cbn [mtrans mcols ment]. rewrite SY1.
    rewrite (Rmult_comm (f _)), Rmult_assoc, (Rmult_comm (sumn _ _)), <- sumn_scal. apply sumn_ext. intros; ring.
  - intros c Hc. rewrite (Rmult_comm (sumn (S N) (fun i => _))), <- sumn_scal. apply sumn_ext. intros i Hi. rewrite (Rmult_comm (sumn _ _)), <- sumn_scal. apply sumn_ext. intros; ring.
Qed.
End Line.

Section Run.
Variables (G : R -> R) (solve : mat R -> mat R -> mat R -> outcome (mat R)) (inverse : mat R -> mat R -> outcome (mat R))
  (junk : nat -> nat -> R) (eps : R) (eig : nat -> (nat -> nat -> R) -> list R * (nat -> nat -> R)) (tol : R)
  (N K : nat) (Vert : list R) (EToV : list nat) (el : element (T := R)).
Hypothesis HB : built G solve inverse junk eps eig tol N K Vert EToV el.
Variables (E2E E2F : list nat).
Hypothesis HM : tri_mesh K Vert EToV E2E E2F.
Local Notation E := (exact G).
Local Notation P := (corner Vert EToV).
Hypothesis HA : forall k, (k < K)%nat -> 0 < area (P k 0) (P k 1) (P k 2).
Local Notation Fm := (mask_table N (e_masks el)).
Local Notation Np := (length (e_r el)).
Local Notation fn := (fnode el).
Hypothesis HS : forall n n', (n <= N)%nat -> (n' <= N)%nat -> n <> n' -> 2 * tol <= Rabs (nth (ment Fm n 0) (e_r el) 0 - nth (ment Fm n' 0) (e_r el) 0).
Variables (sort : (nat -> nat -> bool) -> list nat -> list nat) (junk1 : nat -> R) (junkn : nat -> nat) (bcType : list Z) (bc0 : hmap) (m : maps).
Hypothesis Hrun : buildMaps E rhypot sort junk1 junkn tol 3 (S N) Np K Fm (e_x el) (e_y el) E2E E2F EToV Vert bcType bc0 = Ok m.
Hypothesis Hbc : (3 * K <= length bcType)%nat.
Local Notation d := (tables_of el m).
Local Notation fid := (face_id 3 (S N)).
Local Notation X := (node_at (e_x el) (e_y el)).
Definition tables : ptables R := PTables d (e_Vinv el) (g_J (e_metric el)) (e_r el) (e_s el) Fm E2E E2F bcType.
Local Notation pt := tables.
Local Notation sp k f := (side_point (P k f) (P k (next f))).

Lemma Np0 : (0 < Np)%nat. Proof. eapply Np_pos; eassumption. Qed.
Lemma HN1 : (1 <= N)%nat. Proof. destruct HB. assumption. Qed.

(* the parameter of a face node along its reference edge *)
Definition ec (f j : nat) : R := match f with 2%nat => nth (fn f j) (e_s el) 0 | _ => nth (fn f j) (e_r el) 0 end.
Definition flip (f : nat) (t : R) : R := match f with O => t | _ => - t end.
Lemma node_side k f j : (k < K)%nat -> (f < 3)%nat -> (j <= N)%nat -> X (fn f j) k = sp k f (flip f (ec f j)).
Proof.
  intros Hk Hf Hj. destruct (face_nodes _ _ _ _ _ _ _ _ _ _ _ _ HB) as (g & _ & _ & _ & Hn). destruct (Hn f j Hf Hj) as (Hlt & En).
  erewrite phys by eassumption. unfold next, flip, ec.
  rewrite <- (edge_image K Vert EToV k Hk f) by exact Hf.
  pose proof (f_equal fst En) as E1. pose proof (f_equal snd En) as E2. cbn [fst snd] in E1, E2.
  destruct f as [|[|[|]]]; [| | |lia]; cbn [edge fst snd] in *; rewrite E1, E2; f_equal; lra.
Qed.
Lemma fnlt f j : (f < 3)%nat -> (j <= N)%nat -> (fn f j < Np)%nat.
Proof. intros. eapply fn_lt; eassumption. Qed.
Lemma fninj f j j' : (f < 3)%nat -> (j <= N)%nat -> (j' <= N)%nat -> fn f j = fn f j' -> j = j'.
Proof. intros. eapply fn_inj; eassumption. Qed.

(* the element across a side, in the tables *)
Lemma neigh k f : (k < K)%nat -> (f < 3)%nat -> exists k2 f2 (H : nat -> nat),
  getn E2E (3 * k + f) = Ok k2 /\ getn E2F (3 * k + f) = Ok f2 /\ across K EToV k f k2 f2 /\
  forall n, (n < S N)%nat -> vM d (fid n f k) = volume_id Np (fn f n) k /\ vP d (fid n f k) = volume_id Np (H n) k2 /\ (H n < Np)%nat /\ X (H n) k2 = X (fn f n) k.
Proof.
  intros Hk Hf. destruct HM as [LE LF HN HO _]. destruct (HN (3 * k + f)%nat ltac:(lia)) as (h & (L1 & L2) & _).
  assert (Hrt : tables_ok 3 (S N) Np K Fm (e_x el) (e_y el) E2E E2F EToV Vert) by (eapply run_tables; eassumption).
  assert (HA2 : forall k, (k < K)%nat -> area (P k 0) (P k 1) (P k 2) <> 0) by (intros k' Hk'; specialize (HA k' Hk'); lra).
  destruct (C38_trace_maps E rhypot sort junk1 junkn tol 3 (S N) Np K Fm (e_x el) (e_y el) E2E E2F EToV Vert bcType bc0 m Hrt Hrun) as (_ & _ & _ & Ht).
  destruct (tri_neighbour_corners _ _ _ _ _ _ _ _ _ _ _ _ HB _ _ LE LF HN HO HA2 f k _ _ Hf Hk L1 L2) as (B1 & B2 & Hc).
  destruct (finite_choice 0%nat (S N) (fun n q => (q <= N)%nat /\ vM d (fid n f k) = volume_id Np (fn f n) k /\ vP d (fid n f k) = volume_id Np (fn (h mod 3) q) (h / 3) /\ X (fn (h mod 3) q) (h / 3) = X (fn f n) k)) as (q & Hq).
  { intros n Hn. destruct (tri_match _ _ _ _ _ _ _ _ _ _ _ _ HB _ _ LE LF HN HO HA2 HS n f k _ _ ltac:(lia) Hf Hk L1 L2) as (q' & Q1 & Q2 & Q3 & Q4 & _ & Q5).
    destruct (Ht n f k _ _ ltac:(lia) Hf Hk L1 L2) as (V1 & [(q & W1 & W2 & _ & V2 & _)|(No & _)]).
    2:{ rewrite No in Q4 by lia. discriminate. }
    assert (Hqq : q = q') by (apply Q5; [lia|exact W2]). rewrite <- Hqq in Q2. exists q. split; [lia|]. split; [apply nth_error_nth; exact V1|]. split; [apply nth_error_nth; exact V2|exact Q2]. }
  exists (h / 3)%nat, (h mod 3)%nat, (fun n => fn (h mod 3) (q n)). unfold getn. unfold entry in L1, L2. rewrite L1, L2. split; [reflexivity|]. split; [reflexivity|]. split.
  - split; [exact B2|]. split; [exact B1|]. destruct Hc as [(E1 & E2 & Hns)|(E1 & E2 & E3 & E4)]; [right; auto|left; exact E2].
  - intros n Hn. destruct (Hq n Hn) as (Q1 & Q2 & Q3 & Q4). split; [exact Q2|]. split; [exact Q3|]. split; [apply fnlt; assumption|exact Q4].
Qed.
Lemma maps_len : length (d_vmapM d) = (3 * S N * K)%nat /\ length (d_vmapP d) = (3 * S N * K)%nat.
Proof.
  assert (Hrt : tables_ok 3 (S N) Np K Fm (e_x el) (e_y el) E2E E2F EToV Vert) by (eapply run_tables; eassumption).
  destruct (C38_trace_maps E rhypot sort junk1 junkn tol 3 (S N) Np K Fm (e_x el) (e_y el) E2E E2F EToV Vert bcType bc0 m Hrt Hrun) as (L1 & L2 & _). cbn [tables_of d_vmapM d_vmapP]. split; lia.
Qed.
Lemma localIds_ok k f vmap k2 (H : nat -> nat) : (k < K)%nat -> (f < 3)%nat -> length vmap = (3 * S N * K)%nat ->
  (forall n, (n < S N)%nat -> nth (fid n f k) vmap 0%nat = volume_id Np (H n) k2 /\ (H n < Np)%nat) ->
  localIds Np (S N) 3 k f vmap = Ok (map H (seq 0 (S N))).
Proof.
  intros Hk Hf HL Hv. unfold localIds.
  destruct (for_inv (fun i l => l = map H (seq 0 i)) (S N) (fun j l => bind (getn vmap (S N * 3 * k + f * S N + j)) (fun v => Ok (l ++ [(v mod Np)%nat]))) []) as (l & El & Hl).
  - reflexivity.
  - intros i l Hi ->. replace (S N * 3 * k + f * S N + i)%nat with (fid i f k) by (unfold face_id; lia).
    assert (Hlt : (fid i f k < 3 * S N * K)%nat) by (eapply fid_lt; try eassumption; lia).
    rewrite (getn_ok vmap _ 0%nat) by (rewrite HL; exact Hlt). cbn [bind]. destruct (Hv i Hi) as (-> & Hlt2). eexists. split; [reflexivity|].
    rewrite seq_S, map_app. cbn [map Nat.add]. f_equal. f_equal. unfold volume_id. rewrite (Nat.mul_comm Np k2), Nat.mod_add by lia. apply Nat.mod_small. exact Hlt2.
  - rewrite El. f_equal. exact Hl.
Qed.

(* the local polynomial of element k *)
Definition local (k : nat) (p : poly2) (u : nat -> R) : Prop := degree2 N p /\ forall i, (i < Np)%nat -> u i = at_point p (X i k).
Lemma ref_of k p : (k < K)%nat -> degree2 N p -> exists w, degree2 N w /\ (forall i, (i < Np)%nat -> eval2 w (nth i (e_r el) 0) (nth i (e_s el) 0) = at_point p (X i k)) /\
  (forall x y, eval2 w x y = at_point p (affine_image (P k 0) (P k 1) (P k 2) x y)) /\
  forall i, (i < Np)%nat ->
    eval2 (ddr w) (nth i (e_r el) 0) (nth i (e_s el) 0) = ((fst (P k 1) - fst (P k 0)) / 2) * at_point (ddr p) (X i k) + ((snd (P k 1) - snd (P k 0)) / 2) * at_point (dds p) (X i k) /\
    eval2 (dds w) (nth i (e_r el) 0) (nth i (e_s el) 0) = ((fst (P k 2) - fst (P k 0)) / 2) * at_point (ddr p) (X i k) + ((snd (P k 2) - snd (P k 0)) / 2) * at_point (dds p) (X i k).
Proof.
  intros Hk Dp. destruct (to_reference N Vert EToV k p Dp) as (w & Dw & W0 & W1 & W2). exists w. split; [exact Dw|].
  assert (HX : forall i, (i < Np)%nat -> X i k = affine_image (P k 0) (P k 1) (P k 2) (nth i (e_r el) 0) (nth i (e_s el) 0)) by (intros; eapply phys; eassumption).
  split; [intros i Hi; rewrite W0, HX by exact Hi; reflexivity|]. split; [exact W0|]. intros i Hi. rewrite HX by exact Hi. split; [apply W1|apply W2].
Qed.
Lemma J_at k i : (k < K)%nat -> (i < Np)%nat -> ment (g_J (e_metric el)) i k = area (P k 0) (P k 1) (P k 2) / 2.
Proof.
  intros Hk Hi. destruct (element_ok _ _ _ _ _ _ _ _ _ _ _ _ HB) as [lr ls nodes masks edge_i pts SV SVi V Vi Vi' SL lift D x metric nrm].
  destruct D as (Vr & Vs & S1 & S2 & _ & _ & M1 & M2 & _). destruct x as (Sx & Sy & Hxy). destruct HB. rewrite metric.
  destruct (metric_ok G N K Vert EToV (e_r el) (e_s el) b_order ltac:(congruence) (e_Dr el) (e_Ds el) (e_x el) (e_y el) ltac:(rewrite lr; exact S1) ltac:(rewrite lr; exact S2) M1 M2 ltac:(rewrite lr; exact Hxy) i k Hi Hk) as (_ & _ & _ & _ & HJ & _).
  exact HJ.
Qed.
Lemma shapes_d : dg_conform d 3 (S N) Np K = true.
Proof. eapply conform_d; eassumption. Qed.
Lemma inb_sh {T} (M : mat T) a b i j : conform M a b = true -> (i < a)%nat -> (j < b)%nat -> mget M i j = Ok (ment M i j).
Proof. unfold conform. intros H Hi Hj. apply andb_true_iff in H. destruct H as (H1 & H2). apply Nat.eqb_eq in H1. apply Nat.eqb_eq in H2. apply mget_ok; lia. Qed.
Lemma dims k2 k f : (k < K)%nat -> (k2 < K)%nat -> (f < 3 * S N)%nat ->
  mget (d_rx d) 0 k = Ok (ment (d_rx d) 0 k) /\ mget (d_sx d) 0 k = Ok (ment (d_sx d) 0 k) /\ mget (d_ry d) 0 k = Ok (ment (d_ry d) 0 k) /\ mget (d_sy d) 0 k = Ok (ment (d_sy d) 0 k) /\
  mget (d_nx d) f k = Ok (ment (d_nx d) f k) /\ mget (d_ny d) f k = Ok (ment (d_ny d) f k) /\ mget (d_Fscale d) f k2 = Ok (ment (d_Fscale d) f k2).
Proof.
  intros Hk Hk2 Hf. pose proof shapes_d as HC. unfold dg_conform in HC. rewrite !andb_true_iff in HC.
  repeat match goal with H : _ /\ _ |- _ => destruct H end.
  pose proof Np0. repeat split; eapply inb_sh; try eassumption.
Qed.
Definition Dx_ k : mat R := comb E (ment (d_rx d) 0 k) (d_Dr d) (ment (d_sx d) 0 k) (d_Ds d).
Definition Dy_ k : mat R := comb E (ment (d_ry d) 0 k) (d_Dr d) (ment (d_sy d) 0 k) (d_Ds d).
Lemma grad_run k : (k < K)%nat -> gradXY E d k = Ok (Dx_ k, Dy_ k).
Proof. intro Hk. destruct (dims k k 0 Hk Hk ltac:(lia)) as (H1 & H2 & H3 & H4 & _). unfold gradXY. rewrite H1, H2, H3, H4. reflexivity. Qed.
Lemma D_shape k : mrows (Dx_ k) = Np /\ mcols (Dx_ k) = Np /\ mrows (Dy_ k) = Np /\ mcols (Dy_ k) = Np.
Proof.
  destruct (element_ok _ _ _ _ _ _ _ _ _ _ _ _ HB) as [lr ls nodes masks edge_i pts SV SVi V Vi Vi' SL lift D x metric nrm].
  destruct D as (Vr & Vs & (S1 & S2) & _). unfold Dx_, Dy_, comb. cbn [mrows mcols tables_of d_Dr]. rewrite S1, S2, lr. auto.
Qed.
Lemma act_comb a Xm b Ym u i : act Np (comb E a Xm b Ym) u i = a * act Np Xm u i + b * act Np Ym u i.
Proof. unfold act, comb. cbn [ment exact fadd fmul]. rewrite <- !sumn_scal, <- sumn_plus. apply sumn_ext. intros; ring. Qed.
Lemma act_ext n D u v i : (forall j, (j < n)%nat -> u j = v j) -> act n D u i = act n D v i.
Proof. intro H. unfold act. apply sumn_ext. intros. rewrite H; auto. Qed.
Lemma grad_at k p u i : (k < K)%nat -> local k p u -> (i < Np)%nat -> act Np (Dx_ k) u i = at_point (ddr p) (X i k) /\ act Np (Dy_ k) u i = at_point (dds p) (X i k).
Proof.
  intros Hk (Dp & Hu) Hi. destruct (ref_of k p Hk Dp) as (w & Dw & W0 & _ & W1). destruct (W1 i Hi) as (W2 & W3). clear W1.
  pose proof (metric_k _ _ _ _ _ _ _ _ _ _ _ _ HB k Hk 0%nat Np0) as (M1 & M2 & M3 & M4). pose proof (J_eq Vert EToV k) as EJ. pose proof (HA k Hk) as Ha.
  assert (Er : act Np (e_Dr el) u i = eval2 (ddr w) (nth i (e_r el) 0) (nth i (e_s el) 0)).
  { rewrite <- (nodal_dr _ _ _ _ _ _ _ _ _ _ _ _ HB w i Dw Hi). apply act_ext. intros j Hj. rewrite Hu, W0 by exact Hj. reflexivity. }
  assert (Es : act Np (e_Ds el) u i = eval2 (dds w) (nth i (e_r el) 0) (nth i (e_s el) 0)).
  { rewrite <- (nodal_ds _ _ _ _ _ _ _ _ _ _ _ _ HB w i Dw Hi). apply act_ext. intros j Hj. rewrite Hu, W0 by exact Hj. reflexivity. }
  unfold Dx_, Dy_. rewrite !act_comb. cbn [tables_of d_rx d_sx d_ry d_sy d_Dr d_Ds]. rewrite Er, Es, W2, W3, M1, M2, M3, M4.
  set (px := at_point (ddr p) _). set (py := at_point (dds p) _). clearbody px py. rewrite EJ.
  set (Xr := (fst (P k 1) - fst (P k 0)) / 2) in *. set (Xs := (fst (P k 2) - fst (P k 0)) / 2) in *. set (Yr := (snd (P k 1) - snd (P k 0)) / 2) in *. set (Ys := (snd (P k 2) - snd (P k 0)) / 2) in *.
  assert (HJ : Xr * Ys - Xs * Yr <> 0) by (rewrite <- EJ; lra). clearbody Xr Xs Yr Ys. split; field; exact HJ.
Qed.

(* the mass matrix *)
Definition MM : mat R := mmul E (mtrans (e_Vinv el)) (e_Vinv el).
Lemma MM_shape : mrows MM = Np /\ mcols MM = Np.
Proof.
  destruct (element_ok _ _ _ _ _ _ _ _ _ _ _ _ HB) as [lr ls nodes masks edge_i pts SV SVi V Vi Vi' SL lift D x metric nrm].
  destruct SVi as (S1 & S2). unfold MM. cbn [mmul mtrans mrows mcols]. rewrite S2, lr. auto.
Qed.
Lemma mass_k k p q v u : (k < K)%nat -> local k q v -> local k p u ->
  element_integral (P k 0) (P k 1) (P k 2) (fun x y => eval2 p x y * eval2 q x y) (area (P k 0) (P k 1) (P k 2) / 2 * bm Np MM v u).
Proof.
  intros Hk (Dq & Hv) (Dp & Hu). destruct (ref_of k q Hk Dq) as (wq & Dwq & Q0 & Q1 & _). destruct (ref_of k p Hk Dp) as (wp & Dwp & P0 & P1 & _).
  destruct (element_ok _ _ _ _ _ _ _ _ _ _ _ _ HB) as [lr ls nodes masks edge_i pts SV SVi V Vi Vi' SL lift D x metric nrm]. destruct SVi as (S1 & S2). destruct HB.
  destruct (modal_ex G b_gamma N wq Dwq) as (a & Ha). destruct (modal_ex G b_gamma N wp Dwp) as (b & Hb).
  exists (bm Np MM v u). split; [|reflexivity]. apply tint_ext with (fun x y => eval2 wp x y * eval2 wq x y); [intros; unfold pulled; rewrite P1, Q1; reflexivity|].
  rewrite <- lr in *.
  assert (Hc : forall w (c w' : nat -> R), modal G N w c -> (forall i, (i < Np)%nat -> w' i = eval2 w (nth i (e_r el) 0) (nth i (e_s el) 0)) -> forall j, (j < Np)%nat -> act Np (e_Vinv el) w' j = c j).
  { intros w c w' Hw Hw' j Hj. unfold act. rewrite (sumn_ext _ _ (fun i => sumn Np (fun l => c l * (ment (e_Vinv el) j i * ment (e_V el) i l)))).
    - rewrite (sumn_swap Np Np). rewrite (sumn_ext _ _ (fun l => delta j l * c l)); [apply sumn_delta; exact Hj|]. intros l Hl. rewrite sumn_scal, Vi by assumption. ring.
    - intros i Hi. rewrite Hw', Hw, <- lr by exact Hi. rewrite <- sumn_scal. apply sumn_ext. intros l Hl. rewrite V by assumption. ring. }
  eapply tint_val; [|apply (parseval G b_gamma N _ _ b a Hb Ha)]. rewrite <- lr. unfold MM.
  rewrite bm_left by exact S1. unfold bm.
  apply sumn_ext. intros c Hc1.
  rewrite <- (Hc wq a v Ha) by (auto; intros; rewrite Hv, Q0 by assumption; reflexivity). rewrite <- (Hc wp b u Hb) by (auto; intros; rewrite Hu, P0 by assumption; reflexivity).
  rewrite (sumn_ext _ _ (fun j => act Np (e_Vinv el) v c * (ment (e_Vinv el) c j * u j))) by (intros; ring). rewrite sumn_scal. fold (act Np (e_Vinv el) u c). ring.
Qed.

(* the edge mass matrices *)
Definition exact_on (f : nat) (M : mat R) : Prop := forall phi psi, spoly N phi -> spoly N psi ->
  integral_is (fun t => phi t * psi t) (-1) 1 (lm (S N) M (fun a => phi (ec f a)) (fun b => psi (ec f b))).
(* the provisioner has already inverted the Vandermonde matrices of the edges *)
Lemma lift_ran : exists w, buildLift2D E pow inverse junk N (e_r el) (e_s el) (e_masks el) = Ok w.
Proof.
  destruct HB. revert b_ok. unfold buildElement.
  destruct (buildNodes2D E solve inverse junk eps eig cos sin PI tol N) as [[[r0 s0] fm] | |]; [|discriminate|discriminate]. cbn [bind].
  destruct (buildLift2D E pow inverse junk N r0 s0 fm) as [[[V0 Vi0] L] | |] eqn:EL; [|discriminate|discriminate]. cbn [bind].
  destruct (physGrid E junk K Vert EToV r0 s0) as [[x y] | |]; [|discriminate|discriminate]. cbn [bind].
  destruct (computeVandermonde2D E pow N r0 s0 V0) as [V | |]; [|discriminate|discriminate]. cbn [bind].
  destruct (inverse V _) as [Vi | |]; [|discriminate|discriminate]. cbn [bind].
  destruct (computeGradVandermonde2D E pow N r0 s0 _ _) as [[Vr Vs] | |]; [|discriminate|discriminate]. cbn [bind].
  destruct (computeDifferentiationMatrices E solve junk Vr Vs V V) as [[[[Dr Ds] Drw] Dsw] | |]; [|discriminate|discriminate]. cbn [bind].
  destruct (normals E K (S N) fm _ _) as [[[nx ny] Fs] | |]; [|discriminate|discriminate]. cbn [bind]. intro H. injection H as <-. cbn [e_r e_s e_masks]. rewrite EL. eauto.
Qed.
Lemma line_ran f : (f < 3)%nat -> lineMass E inverse junk (S N) (map (ec f) (seq 0 (S N))) <> Throw.
Proof.
  intros Hf. destruct lift_ran as (w & Hw).
  destruct (element_ok _ _ _ _ _ _ _ _ _ _ _ _ HB) as [lr ls _ masks _ _ _ _ _ _ _ _ _ _ _ _ _]. destruct masks as (m1 & m2 & m3 & Em & HMf). rewrite Em in HMf.
  assert (Hg : forall g mask x, (g < 3)%nat -> nth_error [m1; m2; m3] g = Some mask -> x = match g with 2%nat => e_s el | _ => e_r el end -> gather x mask = Ok (map (ec g) (seq 0 (S N)))).
  { intros g mask x Hg Hmask Hx. destruct (HMf g mask Hg Hmask) as (Lm & _ & Hi). rewrite (gather_ok x mask 0).
    - f_equal. apply (nth_ext _ _ 0 0); [rewrite !map_length, seq_length; exact Lm|]. intros n Hn. rewrite map_length in Hn. rewrite map_seq_nth by lia.
      rewrite (nth_indep _ 0 (nth 0%nat x 0)) by (rewrite map_length; exact Hn). rewrite (map_nth (fun m => nth m x 0)). unfold ec, fnode. rewrite Em. rewrite (nth_error_nth [m1; m2; m3] g [] Hmask). rewrite Hx. destruct g as [|[|[|]]]; reflexivity.
    - intros q Hq. pose proof (In_nth mask q 0%nat Hq) as (n & Hn & <-). assert (Hfn : nth n mask 0%nat = fn g n) by (unfold fnode; rewrite Em, (nth_error_nth [m1; m2; m3] g [] Hmask); reflexivity). rewrite Hfn.
      assert (Lx : length x = Np) by (rewrite Hx; destruct g as [|[|[|]]]; congruence). rewrite Lx. apply fnlt; lia. }
  revert Hw. unfold buildLift2D. rewrite Em. cbn [getn nth_error bind].
  rewrite (Hg 0%nat m1 (e_r el)) by (try reflexivity; lia). cbn [bind]. destruct (edgeMass E inverse junk (S N) (map (ec 0) (seq 0 (S N)))) as [M1 | |] eqn:E1; [|discriminate|discriminate]. cbn [bind].
  destruct (putEdge (S N) 0 m1 M1 _) as [P1 | |]; [|discriminate|discriminate]. cbn [bind].
  rewrite (Hg 1%nat m2 (e_r el)) by (try reflexivity; lia). cbn [bind]. destruct (edgeMass E inverse junk (S N) (map (ec 1) (seq 0 (S N)))) as [M2 | |] eqn:E2; [|discriminate|discriminate]. cbn [bind].
  destruct (putEdge (S N) 1 m2 M2 _) as [P2 | |]; [|discriminate|discriminate]. cbn [bind].
  rewrite (Hg 2%nat m3 (e_s el)) by (try reflexivity; lia). cbn [bind]. destruct (edgeMass E inverse junk (S N) (map (ec 2) (seq 0 (S N)))) as [M3 | |] eqn:E3; [|discriminate|discriminate]. intros _.
  assert (Hgo : forall t M, edgeMass E inverse junk (S N) t = Ok M -> lineMass E inverse junk (S N) t <> Throw).
  { intros t M. unfold edgeMass, lineMass. destruct (inverse (vandermonde1D E t (S N)) (mkmat (S N) (S N) junk)); [cbn [bind]; discriminate|discriminate|discriminate]. }
  destruct f as [|[|[|]]]; [exact (Hgo _ _ E1)|exact (Hgo _ _ E2)|exact (Hgo _ _ E3)|lia].
Qed.
Lemma faceMass_ok f x : (f < 3)%nat -> x = match f with 2%nat => e_s el | _ => e_r el end ->
  exists Em M, faceMass E inverse junk Np (S N) f x Fm = Ok Em /\ scattered Np (S N) (fn f) M Em /\ exact_on f M.
Proof.
  intros Hf Hx. assert (Lx : length x = Np) by (rewrite Hx; destruct (element_ok _ _ _ _ _ _ _ _ _ _ _ _ HB) as [lr ls _ _ _ _ _ _ _ _ _ _ _ _ _ _ _]; destruct f as [|[|[|]]]; congruence).
  assert (HFm : forall i, (i < S N)%nat -> mget Fm i f = Ok (fn f i)) by (intros i Hi; rewrite mget_ok by (cbn [mask_table mrows mcols]; lia); reflexivity).
  unfold faceMass.
  assert (Ec : faceCoord (S N) f x Fm = Ok (map (ec f) (seq 0 (S N)))).
  { unfold faceCoord. destruct (for_inv (fun i l => l = map (ec f) (seq 0 i)) (S N) (fun i l => bind (mget Fm i f) (fun m => bind (getn x m) (fun v => Ok (l ++ [v])))) []) as (l & El & Hl).
    - reflexivity.
    - intros i l Hi ->. rewrite HFm by exact Hi. cbn [bind]. rewrite (getn_ok x _ 0) by (rewrite Lx; apply fnlt; [exact Hf|lia]). cbn [bind]. eexists. split; [reflexivity|].
      rewrite seq_S, map_app. cbn [map Nat.add]. f_equal. f_equal. rewrite Hx. unfold ec. destruct f as [|[|[|]]]; reflexivity.
    - rewrite El. f_equal. exact Hl. }
  rewrite Ec. cbn [bind]. pose proof (line_ran f Hf) as Hran. destruct HB.
  destruct (lineMass_ok G b_gamma inverse junk b_inverse N (map (ec f) (seq 0 (S N)))) as [Et | (M & -> & (S1 & S2) & HM0)]; [now rewrite map_length, seq_length|contradiction|]. cbn [bind]. unfold putMass.
  destruct (fill (mzero E Np Np) (S N) (S N) (fun i _ => fn f i) (fun _ j => fn f j) (fun i j => ment M i j)
    (fun i j X0 => bind (mget Fm i f) (fun a => bind (mget Fm j f) (fun b => bind (mget M i j) (fun v => mset X0 a b v))))) as (Em & EE & R1 & R2 & H1 & H2).
  - intros i j Hi Hj. cbn [mzero mrows mcols]. split; apply fnlt; lia.
  - intros i j i' j' Hi Hj Hi' Hj' E1 E2. split; eapply fninj; try eassumption; lia.
  - intros i j X0 Hi Hj _ _. rewrite !HFm by assumption. cbn [bind]. rewrite mget_ok by lia. reflexivity.
  - exists Em, M. split; [exact EE|]. split.
    + split.
      * exact R1.
      * exact R2.
      * intros a Ha. apply fnlt; lia.
      * intros a b Ha Hb. apply fninj; lia.
      * intros a b Ha Hb. apply H1; assumption.
      * intros i j Hor. rewrite H2; [apply zeroE|]. intros a b Ha Hb. destruct Hor as [Hor|Hor]; [left; apply Hor; exact Ha|right; apply Hor; exact Hb].
    + intros phi psi Hphi Hpsi. pose proof (HM0 phi psi Hphi Hpsi) as HI. eapply integral_val; [|exact HI]. unfold lm. apply sumn_ext. intros a Ha. apply sumn_ext. intros b Hb.
      rewrite !(map_seq_nth) by assumption. reflexivity.
Qed.

Definition edges_ok (ME : list (mat R)) : Prop := forall f, (f < 3)%nat -> exists Em M, getn ME f = Ok Em /\ scattered Np (S N) (fn f) M Em /\ exact_on f M.
Lemma massEdges_ok : exists ME, massEdges E inverse junk 3 Np (S N) (e_r el) (e_s el) Fm = Ok ME /\ edges_ok ME.
Proof.
  unfold massEdges. cbn [Nat.eqb orb negb].
  destruct (faceMass_ok 0 (e_r el) ltac:(lia) eq_refl) as (E0 & M0 & -> & S0 & X0). cbn [bind].
  destruct (faceMass_ok 1 (e_r el) ltac:(lia) eq_refl) as (E1 & M1 & -> & S1 & X1). cbn [bind].
  destruct (faceMass_ok 2 (e_s el) ltac:(lia) eq_refl) as (E2 & M2 & -> & S2 & X2). cbn [bind].
  eexists. split; [reflexivity|]. intros [|[|[|f]]] Hf; [exists E0, M0|exists E1, M1|exists E2, M2|lia]; (split; [reflexivity|auto]).
Qed.

(* integrals along a side *)
Lemma spoly_flip f phi : spoly N phi -> spoly N (fun t => phi (flip f t)).
Proof.
  intros (cs & L & H). destruct f as [|f]; [exists cs; split; auto|]. exists (pneg cs). split; [rewrite pneg_len; exact L|]. intro t. rewrite pneg_eval. apply H.
Qed.
Lemma side_lm f M phi psi a b : (f < 3)%nat -> exact_on f M -> spoly N phi -> spoly N psi ->
  (forall j, (j < S N)%nat -> a j = phi (flip f (ec f j))) -> (forall j, (j < S N)%nat -> b j = psi (flip f (ec f j))) ->
  integral_is (fun t => phi t * psi t) (-1) 1 (lm (S N) M a b).
Proof.
  intros Hf HE H1 H2 Ha Hb. pose proof (HE _ _ (spoly_flip f phi H1) (spoly_flip f psi H2)) as HI. cbv beta in HI.
  assert (Hl : lm (S N) M a b = lm (S N) M (fun j => phi (flip f (ec f j))) (fun j => psi (flip f (ec f j)))).
  { unfold lm. apply sumn_ext. intros i Hi. apply sumn_ext. intros j Hj. rewrite Ha, Hb by assumption. reflexivity. }
  rewrite Hl. destruct f as [|f]; [exact HI|]. apply integral_flip in HI. eapply integral_ext; [|exact HI]. intro t. cbn [flip]. rewrite Ropp_involutive. reflexivity.
Qed.
Lemma trace_poly k f p : degree2 N p -> spoly N (fun t => at_point p (sp k f t)).
Proof.
  intro D. set (A := P k f). set (B := P k (next f)). eapply spoly_ext; [|apply (spoly_restrict N p (fst A + / 2 * (fst B - fst A)) (/ 2 * (fst B - fst A)) (snd A + / 2 * (snd B - snd A)) (/ 2 * (snd B - snd A)) D)].
  intro t. unfold at_point, side_point. cbn [fst snd]. f_equal; field.
Qed.

(* a piecewise polynomial and its nodal values *)
Lemma rep_local u U k : represents N Np K (e_x el) (e_y el) u U -> (k < K)%nat -> exists p, local k p (fun i => u (Np * k + i)%nat) /\
  (forall x y, val U k x y = eval2 p x y) /\ (forall x y, ddx U k x y = eval2 (ddr p) x y) /\ forall x y, ddy U k x y = eval2 (dds p) x y.
Proof.
  intros HU Hk. destruct (HU k Hk) as ((p & Dp & Hv) & Hx & Hy & Hn). exists p. split; [split; [exact Dp|]|].
  - intros i Hi. rewrite <- Hn by exact Hi. unfold val_at, at_point. apply Hv.
  - split; [exact Hv|]. split; intros x y.
    + eapply dr_unique; [apply Hx|]. unfold dr_is. eapply dpl_ext; [|apply ddr_ok]. intro t. symmetry. apply Hv.
    + eapply ds_unique; [apply Hy|]. unfold ds_is. eapply dpl_ext; [|apply dds_ok]. intro t. symmetry. apply Hv.
Qed.

Definition side_part (skip : Z) (k f : nat) (U V : piecewise) (w : R) : Prop :=
  if (skip =? 0)%Z then sides N K Vert EToV bcType (one_sided_density N Vert EToV) k f U V w else w = 0.
Lemma normal_d k f : (k < K)%nat -> (f < 3)%nat -> normal_of Vert EToV k f (ment (d_nx d) (f * S N) k, ment (d_ny d) (f * S N) k).
Proof.
  intros Hk Hf. assert (Hn : normal_of Vert EToV k f (normal_at d (3 * S N) (fid 0 f k))) by (eapply normal_fid; try eassumption; lia).
  unfold normal_at in Hn. assert (HF : fid 0 f k = (f * S N + 0 + k * (3 * S N))%nat /\ (fid 0 f k mod (3 * S N) = f * S N + 0)%nat /\ (fid 0 f k / (3 * S N) = k)%nat) by (eapply fid_pos; try eassumption; lia).
  destruct HF as (_ & F1 & F2). rewrite F1, F2, Nat.add_0_r in Hn. exact Hn.
Qed.
Lemma fscale_d k f : (k < K)%nat -> (f < 3)%nat -> ment (d_Fscale d) (f * S N) k = inverse_height Vert EToV k f.
Proof.
  intros Hk Hf. destruct (normal_k _ _ _ _ _ _ _ _ _ _ _ _ HB k Hk (HA k Hk) f 0 Hf ltac:(lia)) as (_ & HF & _). cbv zeta in HF. rewrite Nat.add_0_r in HF. cbn [tables_of d_Fscale]. rewrite HF.
  unfold inverse_height, from_, to_, next. pose proof (HA k Hk). field. lra.
Qed.
Lemma lin3 f1 f2 f3 i1 i2 i3 a b c : integral_is f1 (-1) 1 i1 -> integral_is f2 (-1) 1 i2 -> integral_is f3 (-1) 1 i3 ->
  integral_is (fun t => a * f1 t + (b * f2 t + c * f3 t)) (-1) 1 (a * i1 + (b * i2 + c * i3)).
Proof. intros H1 H2 H3. apply integral_plus; [apply integral_scal, H1|]. apply integral_plus; apply integral_scal; assumption. Qed.
Lemma bm_add Mt (g : nat -> nat -> R) c v u : bm Np (mkmat Np Np (fun i j => ment Mt i j + c * g i j)) v u = bm Np Mt v u + c * bm Np (mkmat Np Np g) v u.
Proof.
  rewrite <- (bm_scal Np c (mkmat Np Np g)). rewrite <- bm_plus. apply bm_ext; intros; reflexivity.
Qed.
Lemma at_node_side k f p j : (k < K)%nat -> (f < 3)%nat -> (j < S N)%nat -> at_point p (X (fn f j) k) = at_point p (sp k f (flip f (ec f j))).
Proof. intros. rewrite node_side by lia. reflexivity. Qed.
Definition dn (n : point) (p : poly2) (x : point) : R := fst n * at_point (ddr p) x + snd n * at_point (dds p) x.
Lemma dn_trace n k f p : degree2 N p -> spoly N (fun t => dn n p (sp k f t)).
Proof.
  intro D. unfold dn. apply spoly_plus; apply (spoly_scal N _ (fun t => at_point _ (sp k f t))); apply trace_poly; [apply ddr_deg|apply dds_deg]; exact D.
Qed.
Lemma dn_at n k p u i : (k < K)%nat -> local k p u -> (i < Np)%nat -> act Np (comb E (fst n) (Dx_ k) (snd n) (Dy_ k)) u i = dn n p (X i k).
Proof. intros Hk Hl Hi. rewrite act_comb. destruct (grad_at k p u i Hk Hl Hi) as (-> & ->). reflexivity. Qed.

Lemma J_shape : mrows (g_J (e_metric el)) = Np /\ mcols (g_J (e_metric el)) = K.
Proof.
  destruct (element_ok _ _ _ _ _ _ _ _ _ _ _ _ HB) as [lr ls nodes masks edge_i pts SV SVi V Vi Vi' SL lift Dm x metric nrm]. destruct Dm as (Vr & Vs & (S1 & _) & _). destruct x as ((_ & S2) & _).
  rewrite metric. unfold metricTerms. cbn [g_J]. unfold TriModel.mzip, Nodes1DModel.mmul. cbn [mrows mcols]. split; congruence.
Qed.
Lemma face_step sk k f ME OP11 OP es D cap : edges_ok ME -> (k < K)%nat -> (f < 3)%nat -> (20000 * Z.of_nat (N + 1) * Z.of_nat (N + 1) <= INT_MAX)%Z ->
  mrows OP11 = Np -> mcols OP11 = Np -> has D cap OP es -> (Z.of_nat (length es + Np * Np) <= cap)%Z -> (Np * K <= D)%nat ->
  exists OP11' OP' es', face E pt 3 Np (S N) N sk ME (Dx_ k) (Dy_ k) k f (OP11, OP) = Ok (OP11', OP') /\ mrows OP11' = Np /\ mcols OP11' = Np /\
    has D cap OP' (es ++ es') /\ (length es' <= Np * Np)%nat /\
    forall v u U V, represents N Np K (e_x el) (e_y el) u U -> represents N Np K (e_x el) (e_y el) v V ->
    exists w, side_part sk k f U V w /\
      bm Np OP11' (fun i => v (Np * k + i)%nat) (fun i => u (Np * k + i)%nat) + bl es' v u = bm Np OP11 (fun i => v (Np * k + i)%nat) (fun i => u (Np * k + i)%nat) + w.
Proof.
  intros HME Hk Hf Hfac R1 C1 HO Hcap HD. destruct (neigh k f Hk Hf) as (k2 & f2 & H & G1 & G2 & Hac & HH). pose proof Hac as (Hk2 & Hf2 & _).
  destruct maps_len as (LM & LP). destruct (HME f Hf) as (Em & M & GE & HSc & HEx). pose proof HN1 as HN1.
  set (n := (ment (d_nx d) (f * S N) k, ment (d_ny d) (f * S N) k)).
  assert (L1 : localIds Np (S N) 3 k f (d_vmapM d) = Ok (map (fn f) (seq 0 (S N)))).
  { apply (localIds_ok k f _ k (fn f) Hk Hf LM). intros j Hj. destruct (HH j Hj) as (E1 & _). split; [exact E1|apply fnlt; lia]. }
  assert (L2 : localIds Np (S N) 3 k f (d_vmapP d) = Ok (map H (seq 0 (S N)))).
  { apply (localIds_ok k f _ k2 H Hk Hf LP). intros j Hj. destruct (HH j Hj) as (_ & E1 & E2 & _). auto. }
  assert (HfS : forall f', (f' < 3)%nat -> (f' * S N < 3 * S N)%nat) by (intros; nia).
  destruct (dims k k (f * S N) Hk Hk (HfS f Hf)) as (_ & _ & _ & _ & X1 & X2 & X3). destruct (dims k2 k2 (f2 * S N) Hk2 Hk2 (HfS f2 Hf2)) as (_ & _ & _ & _ & _ & _ & X4).
  assert (XJ : mget (g_J (e_metric el)) (fn f 1) k = Ok (area (P k 0) (P k 1) (P k 2) / 2)).
  { rewrite <- (J_at k (fn f 1) Hk ltac:(apply fnlt; lia)). apply mget_ok.
    - rewrite (proj1 J_shape). apply fnlt; lia.
    - rewrite (proj2 J_shape). exact Hk. }
  assert (Gt : getn (map (fn f) (seq 0 (S N))) 1 = Ok (fn f 1)) by (destruct N as [|N']; [lia|reflexivity]).
  assert (Gb : getn bcType (3 * k + f) = Ok (tag_of bcType k f)) by (apply getn_ok; lia).
  destruct (D_shape k) as (DS1 & DS2 & DS3 & DS4). destruct (D_shape k2) as (DT1 & DT2 & DT3 & DT4).
  set (gt := tau N Vert EToV k f k2 f2). set (lsJ := side_length (P k f) (P k (next f)) / 2).
  assert (HlsJ : fmul E (inverse_height Vert EToV k f) (area (P k 0) (P k 1) (P k 2) / 2) = lsJ).
  { cbn [exact fmul]. unfold inverse_height, lsJ, from_, to_. pose proof (HA k Hk). field. lra. }
  assert (Hgt : fmul E (fofZ E (20000 * Z.of_nat (N + 1) * Z.of_nat (N + 1))) (fmax E (inverse_height Vert EToV k f) (inverse_height Vert EToV k2 f2)) = gt).
  { unfold gt, tau. cbn [exact fmul fofZ]. rewrite !mult_IZR, <- INR_IZR_INZ, plus_INR. change (INR 1) with 1. unfold fmax, Rmax. cbn [exact flt]. unfold Rltb.
    destruct (Rlt_dec (inverse_height Vert EToV k f) (inverse_height Vert EToV k2 f2)), (Rle_dec (inverse_height Vert EToV k f) (inverse_height Vert EToV k2 f2)); try lra; try reflexivity.
    replace (inverse_height Vert EToV k2 f2) with (inverse_height Vert EToV k f) by lra. reflexivity. }
  set (Dn1 := comb E (fst n) (Dx_ k) (snd n) (Dy_ k)). set (Dn2 := comb E (fst n) (Dx_ k2) (snd n) (Dy_ k2)).
  set (mmE := mkmat Np Np (fun i j => lsJ * ment Em i j)).
  assert (Hface : face E pt 3 Np (S N) N sk ME (Dx_ k) (Dy_ k) k f (OP11, OP) =
    if negb (sk =? 0)%Z then Ok (OP11, OP) else
    if (tag_of bcType k f =? tagDirichlet)%Z then Ok (mkmat Np Np (fun i j => ment OP11 i j + penalty E gt mmE Dn1 i j), OP)
    else if (tag_of bcType k f =? tagNeuman)%Z || (tag_of bcType k f =? tagWall)%Z then Ok (OP11, OP)
    else bind (coupling E Np (S N) gt mmE Dn1 Dn2 (map (fn f) (seq 0 (S N))) (map H (seq 0 (S N)))) (fun OP12 => bind (insBlock E Np (Np * k) (Np * k2) OP12 OP) (fun OP' =>
      Ok (mkmat Np Np (fun i j => ment OP11 i j + / 2 * penalty E gt mmE Dn1 i j), OP')))).
  { unfold face. cbn [tables p_dg p_E2E p_E2F p_J p_bc]. rewrite G1. cbn [bind]. rewrite G2. cbn [bind]. rewrite L1. cbn [bind]. rewrite L2. cbn [bind]. rewrite X1. cbn [bind]. rewrite X2. cbn [bind]. rewrite X3. cbn [bind]. rewrite X4. cbn [bind].
    rewrite Gt. cbn [bind]. rewrite XJ. cbn [bind]. rewrite (grad_run k2 Hk2). cbn [bind]. rewrite GE. cbn [bind]. destruct (Z.ltb_spec INT_MAX (20000 * Z.of_nat (N + 1) * Z.of_nat (N + 1))); [lia|].
    rewrite Gb. cbn [bind]. rewrite (fscale_d k f Hk Hf), (fscale_d k2 f2 Hk2 Hf2), HlsJ, Hgt, (halfE G). reflexivity. }
  rewrite Hface. unfold side_part. destruct (Z.eqb_spec sk 0) as [->|Hsk]; cbn [negb].
  2:{ exists OP11, OP, []. split; [reflexivity|]. rewrite app_nil_r. split; [exact R1|]. split; [exact C1|]. split; [exact HO|]. split; [cbn; lia|]. intros. exists 0. split; [reflexivity|]. cbn [bl]. ring. }
  assert (SD1 : mrows Dn1 = Np /\ mcols Dn1 = Np) by (unfold Dn1, comb; cbn [mrows mcols]; auto). assert (SD2 : mrows Dn2 = Np /\ mcols Dn2 = Np) by (unfold Dn2, comb; cbn [mrows mcols]; auto).
  assert (Hpen : forall v u, bm Np (mkmat Np Np (penalty E gt mmE Dn1)) v u = lsJ * (gt * lm (S N) M (fun a => v (fn f a)) (fun a => u (fn f a)) - lm (S N) M (fun a => v (fn f a)) (fun a => act Np Dn1 u (fn f a)) - lm (S N) M (fun a => act Np Dn1 v (fn f a)) (fun a => u (fn f a)))).
  { intros v u. transitivity (bm Np (mkmat Np Np (fun i j => penalty E gt mmE Dn1 i j)) v u); [reflexivity|]. rewrite (bm_penalty G Np gt mmE Dn1 v u eq_refl (proj1 SD1)). unfold mmE. rewrite !(bm_scal Np lsJ Em). rewrite !(bm_scattered Np (S N) (fn f) M Em) by exact HSc. ring. }
  (* the traces *)
  assert (Htr : forall U V u v, represents N Np K (e_x el) (e_y el) u U -> represents N Np K (e_x el) (e_y el) v V ->
    let uk := fun i => u (Np * k + i)%nat in let vk := fun i => v (Np * k + i)%nat in let u2 := fun i => u (Np * k2 + i)%nat in
    let x := fun t => sp k f t in
    integral_is (fun t => val_at V k (x t) * val_at U k (x t)) (-1) 1 (lm (S N) M (fun a => vk (fn f a)) (fun a => uk (fn f a))) /\
    integral_is (fun t => val_at V k (x t) * along n U k (x t)) (-1) 1 (lm (S N) M (fun a => vk (fn f a)) (fun a => act Np Dn1 uk (fn f a))) /\
    integral_is (fun t => along n V k (x t) * val_at U k (x t)) (-1) 1 (lm (S N) M (fun a => act Np Dn1 vk (fn f a)) (fun a => uk (fn f a))) /\
    integral_is (fun t => along n V k (x t) * val_at U k2 (x t)) (-1) 1 (lm (S N) M (fun a => act Np Dn1 vk (fn f a)) (fun a => u2 (H a))) /\
    integral_is (fun t => val_at V k (x t) * val_at U k2 (x t)) (-1) 1 (lm (S N) M (fun a => vk (fn f a)) (fun a => u2 (H a))) /\
    integral_is (fun t => val_at V k (x t) * along n U k2 (x t)) (-1) 1 (lm (S N) M (fun a => vk (fn f a)) (fun a => act Np Dn2 u2 (H a)))).
  { intros U V u v HU HV uk vk u2 x. destruct (rep_local u U k HU Hk) as (p & Lp & P0 & P1 & P2). destruct (rep_local v V k HV Hk) as (q & Lq & Q0 & Q1 & Q2). destruct (rep_local u U k2 HU Hk2) as (z & Lz & Z0 & Z1 & Z2).
    fold uk in Lp. fold vk in Lq. fold u2 in Lz. pose proof (proj1 Lp) as Dp. pose proof (proj1 Lq) as Dq. pose proof (proj1 Lz) as Dz.
    assert (V1 : forall t, val_at U k (x t) = at_point p (x t)) by (intro; apply P0). assert (V2 : forall t, val_at V k (x t) = at_point q (x t)) by (intro; apply Q0). assert (V3 : forall t, val_at U k2 (x t) = at_point z (x t)) by (intro; apply Z0).
    assert (V4 : forall t, along n U k (x t) = dn n p (x t)) by (intro; unfold along, dn, at_point; rewrite P1, P2; reflexivity). assert (V5 : forall t, along n V k (x t) = dn n q (x t)) by (intro; unfold along, dn, at_point; rewrite Q1, Q2; reflexivity). assert (V6 : forall t, along n U k2 (x t) = dn n z (x t)) by (intro; unfold along, dn, at_point; rewrite Z1, Z2; reflexivity).
    assert (N1 : forall j, (j < S N)%nat -> uk (fn f j) = at_point p (x (flip f (ec f j)))) by (intros j Hj; unfold x; rewrite (proj2 Lp) by (apply fnlt; lia); now apply at_node_side).
    assert (N2 : forall j, (j < S N)%nat -> vk (fn f j) = at_point q (x (flip f (ec f j)))) by (intros j Hj; unfold x; rewrite (proj2 Lq) by (apply fnlt; lia); now apply at_node_side).
    assert (N3 : forall j, (j < S N)%nat -> u2 (H j) = at_point z (x (flip f (ec f j)))) by (intros j Hj; unfold x; destruct (HH j Hj) as (_ & _ & A1 & A2); rewrite (proj2 Lz) by exact A1; rewrite A2; now apply at_node_side).
    assert (N4 : forall j, (j < S N)%nat -> act Np Dn1 uk (fn f j) = dn n p (x (flip f (ec f j)))) by (intros j Hj; unfold x, Dn1; rewrite (dn_at n k p) by (try assumption; apply fnlt; lia); rewrite node_side by lia; reflexivity).
    assert (N5 : forall j, (j < S N)%nat -> act Np Dn1 vk (fn f j) = dn n q (x (flip f (ec f j)))) by (intros j Hj; unfold x, Dn1; rewrite (dn_at n k q) by (try assumption; apply fnlt; lia); rewrite node_side by lia; reflexivity).
    assert (N6 : forall j, (j < S N)%nat -> act Np Dn2 u2 (H j) = dn n z (x (flip f (ec f j)))) by (intros j Hj; unfold x, Dn2; destruct (HH j Hj) as (_ & _ & A1 & A2); rewrite (dn_at n k2 z) by assumption; rewrite A2, node_side by lia; reflexivity).
    assert (T1 := trace_poly k f p Dp). assert (T2 := trace_poly k f q Dq). assert (T3 := trace_poly k f z Dz). assert (T4 := dn_trace n k f p Dp). assert (T5 := dn_trace n k f q Dq). assert (T6 := dn_trace n k f z Dz).
    assert (Hgo : forall phi psi a b A B, (forall t, A t = phi t) -> (forall t, B t = psi t) -> spoly N phi -> spoly N psi -> (forall j, (j < S N)%nat -> a j = phi (flip f (ec f j))) -> (forall j, (j < S N)%nat -> b j = psi (flip f (ec f j))) ->
      integral_is (fun t => A t * B t) (-1) 1 (lm (S N) M a b)).
    { intros phi psi a b A B EA EB S1 S2 Ha Hb. eapply integral_ext; [|apply (side_lm f M phi psi a b Hf HEx S1 S2 Ha Hb)]. intro t. cbv beta. rewrite EA, EB. reflexivity. }
    split; [exact (Hgo _ _ _ _ _ _ V2 V1 T2 T1 N2 N1)|]. split; [exact (Hgo _ _ _ _ _ _ V2 V4 T2 T4 N2 N4)|]. split; [exact (Hgo _ _ _ _ _ _ V5 V1 T5 T1 N5 N1)|].
    split; [exact (Hgo _ _ _ _ _ _ V5 V3 T5 T3 N5 N3)|]. split; [exact (Hgo _ _ _ _ _ _ V2 V3 T2 T3 N2 N3)|]. exact (Hgo _ _ _ _ _ _ V2 V6 T2 T6 N2 N6). }
  pose proof (normal_d k f Hk Hf) as Hn. fold n in Hn.
  destruct (Z.eqb_spec (tag_of bcType k f) tagDirichlet) as [Hd|Hd].
  - eexists _, OP, []. split; [reflexivity|]. rewrite app_nil_r. split; [reflexivity|]. split; [reflexivity|]. split; [exact HO|]. split; [cbn; lia|]. intros v u U V HU HV.
    destruct (Htr U V u v HU HV) as (I1 & I2 & I3 & _). cbv zeta in I1, I2, I3. eexists. split; [|cbn [bl]; rewrite Rplus_0_r;
      rewrite (bm_ext Np _ (mkmat Np Np (fun i j => ment OP11 i j + 1 * penalty E gt mmE Dn1 i j)) _ (fun i => v (Np * k + i)%nat) _ (fun i => u (Np * k + i)%nat)); [rewrite bm_add, Hpen, Rmult_1_l; reflexivity| | |]; intros; cbn [ment]; [ring|reflexivity|reflexivity]].
    exists k2, f2, n. split; [exact Hac|]. split; [exact Hn|]. cbv zeta. split; [|split; [intros [E1|E1]; unfold tagDirichlet in Hd; rewrite Hd in E1; discriminate|intros (E1 & _); contradiction]].
    intros _. eexists. split; [|reflexivity]. eapply integral_val; [|eapply integral_ext; [|exact (lin3 _ _ _ _ _ _ gt (-1) (-1) I1 I2 I3)]]; [ring|].
    intro t. unfold dirichlet_density. unfold gt, from_, to_. ring.
  - destruct ((tag_of bcType k f =? tagNeuman)%Z || (tag_of bcType k f =? tagWall)%Z) eqn:Hnat.
    + exists OP11, OP, []. split; [reflexivity|]. rewrite app_nil_r. split; [exact R1|]. split; [exact C1|]. split; [exact HO|]. split; [cbn; lia|]. intros. exists 0. split; [|cbn [bl]; ring].
      exists k2, f2, n. split; [exact Hac|]. split; [exact Hn|]. cbv zeta. split; [intro E1; contradiction|]. split; [reflexivity|]. intros (_ & E1). exfalso. apply E1. apply orb_true_iff in Hnat. unfold natural. destruct Hnat as [E2|E2]; apply Z.eqb_eq in E2; auto.
    + destruct (coupling_ok G Np (S N) gt lsJ Em M Dn1 Dn2 (fn f) H (map (fn f) (seq 0 (S N))) (map H (seq 0 (S N))) HSc (proj1 SD1) (proj2 SD1) (proj1 SD2) (proj2 SD2)) as (B & EB & B1 & B2 & HBm);
        try (now rewrite map_length, seq_length); try (intros j Hj; rewrite nth_error_map, (nth_error_nth' _ 0%nat) by (now rewrite seq_length); rewrite seq_nth by exact Hj; reflexivity); [intros j Hj; apply HH; exact Hj|].
      change (mkmat Np Np (fun i j : nat => lsJ * ment Em i j)) with mmE in EB. rewrite EB. cbn [bind].
      destruct (insBlock_has G D cap OP es Np (Np * k) (Np * k2) B HO Hcap ltac:(nia) ltac:(nia) B1 B2) as (OP' & -> & HO'). cbn [bind].
      eexists _, OP', _. split; [reflexivity|]. split; [reflexivity|]. split; [reflexivity|]. split; [exact HO'|]. split; [rewrite block_len; lia|]. intros v u U V HU HV.
      destruct (Htr U V u v HU HV) as (I1 & I2 & I3 & I4 & I5 & I6). cbv zeta in I1, I2, I3, I4, I5, I6. eexists. split; [|rewrite bl_block, HBm, bm_add, Hpen, Rplus_assoc; reflexivity].
      exists k2, f2, n. split; [exact Hac|]. split; [exact Hn|]. cbv zeta. split; [intro E1; contradiction|]. apply orb_false_iff in Hnat. destruct Hnat as (E1 & E2). apply Z.eqb_neq in E1, E2. split; [intros [E3|E3]; contradiction|].
      intros _. pose proof (integral_plus _ _ _ _ _ _ (lin3 _ _ _ _ _ _ (/ 2 * gt) (- / 2) (- / 2) I1 I2 I3) (lin3 _ _ _ _ _ _ (/ 2) (- (/ 2 * gt)) (- / 2) I4 I5 I6)) as IT.
      eexists. split; [|]. { eapply integral_ext; [|exact IT]. intro t. cbv beta. unfold one_sided_density, jump, mean. fold gt. unfold from_, to_. field. }
      unfold from_, to_. fold lsJ. ring.
Qed.

Local Notation rep := (represents N Np K (e_x el) (e_y el)).
Local Notation eint k := (element_integral (P k 0) (P k 1) (P k 2)).
Lemma eint_ext k f g v : (forall x y, f x y = g x y) -> eint k f v -> eint k g v.
Proof. intros H (i & Hi & ->). exists i. split; [|reflexivity]. eapply tint_ext; [|exact Hi]. intros. unfold pulled. apply H. Qed.
Lemma eint_plus k f g v w : eint k f v -> eint k g w -> eint k (fun x y => f x y + g x y) (v + w).
Proof. intros (i & Hi & ->) (j & Hj & ->). exists (i + j). split; [|ring]. exact (tint_plus _ _ _ _ Hi Hj). Qed.
Lemma local_x k p u : (k < K)%nat -> local k p u -> local k (ddr p) (act Np (Dx_ k) u).
Proof. intros Hk H. split; [apply ddr_deg, H|]. intros i Hi. apply (grad_at k p u i Hk H Hi). Qed.
Lemma local_y k p u : (k < K)%nat -> local k p u -> local k (dds p) (act Np (Dy_ k) u).
Proof. intros Hk H. split; [apply dds_deg, H|]. intros i Hi. apply (grad_at k p u i Hk H Hi). Qed.
Definition grad_prod (U V : piecewise) (k : nat) (x y : R) : R := ddx U k x y * ddx V k x y + ddy U k x y * ddy V k x y.
Lemma volume_k k v u U V : (k < K)%nat -> rep u U -> rep v V ->
  eint k (grad_prod U V k) (bm Np (volume E MM (Dx_ k) (Dy_ k) (area (P k 0) (P k 1) (P k 2) / 2)) (fun i => v (Np * k + i)%nat) (fun i => u (Np * k + i)%nat)).
Proof.
  intros Hk HU HV. destruct (rep_local u U k HU Hk) as (p & Lp & P0 & P1 & P2). destruct (rep_local v V k HV Hk) as (q & Lq & Q0 & Q1 & Q2).
  destruct (D_shape k) as (D1 & D2 & D3 & D4). destruct MM_shape as (M1 & M2). rewrite bm_volume by assumption. rewrite Rmult_plus_distr_l.
  eapply eint_ext; [|apply eint_plus; [apply (mass_k k (ddr p) (ddr q)); [exact Hk|apply local_x; assumption|apply local_x; assumption]|apply (mass_k k (dds p) (dds q)); [exact Hk|apply local_y; assumption|apply local_y; assumption]]].
  intros x y. cbv beta. unfold grad_prod. rewrite P1, P2, Q1, Q2. reflexivity.
Qed.

Lemma element_step sk k ME OP Mt es fs D cap capM : edges_ok ME -> (k < K)%nat -> (20000 * Z.of_nat (N + 1) * Z.of_nat (N + 1) <= INT_MAX)%Z ->
  has D cap OP es -> has (Np * K) capM Mt fs -> (Z.of_nat (length es + 4 * (Np * Np)) <= cap)%Z -> (Z.of_nat (length fs + Np * Np) <= capM)%Z -> (Np * K <= D)%nat ->
  exists OP' Mt' es' fs', elementOP E pt 3 Np (S N) N sk ME MM k (OP, Mt) = Ok (OP', Mt') /\ has D cap OP' (es ++ es') /\ has (Np * K) capM Mt' (fs ++ fs') /\
    (length es' <= 4 * (Np * Np))%nat /\ length fs' = (Np * Np)%nat /\
    forall v u U V, rep u U -> rep v V ->
      (exists vol s0 s1 s2, eint k (grad_prod U V k) vol /\ side_part sk k 0 U V s0 /\ side_part sk k 1 U V s1 /\ side_part sk k 2 U V s2 /\ bl es' v u = vol + (s0 + s1 + s2)) /\
      eint k (fun x y => val U k x y * val V k x y) (bl fs' v u).
Proof.
  intros HME Hk Hfac HO HMt Hc Hcm HD. unfold elementOP. cbn [tables p_dg p_J]. rewrite (grad_run k Hk). cbn [bind].
  rewrite mget_ok by (rewrite ?(proj1 J_shape), ?(proj2 J_shape); auto using Np0). rewrite (J_at k 0 Hk Np0). cbn [bind]. rewrite for_fold. change (seq 0 3) with [0; 1; 2]%nat. cbn [foldM].
  destruct MM_shape as (M1 & M2). destruct (D_shape k) as (D1 & D2 & D3 & D4). set (J := area (P k 0) (P k 1) (P k 2) / 2).
  assert (V1 : mrows (volume E MM (Dx_ k) (Dy_ k) J) = Np /\ mcols (volume E MM (Dx_ k) (Dy_ k) J) = Np) by (unfold volume; cbn [mrows mcols mmul mtrans]; auto).
  destruct (face_step sk k 0 ME _ OP es D cap HME Hk ltac:(lia) Hfac (proj1 V1) (proj2 V1) HO ltac:(lia) HD) as (A0 & O0 & e0 & -> & R0 & C0 & H0 & L0 & F0). cbn [bind].
  destruct (face_step sk k 1 ME A0 O0 (es ++ e0) D cap HME Hk ltac:(lia) Hfac R0 C0 H0 ltac:(rewrite app_length; lia) HD) as (A1 & O1 & e1 & -> & R1 & C1 & H1 & L1 & F1). cbn [bind].
  destruct (face_step sk k 2 ME A1 O1 ((es ++ e0) ++ e1) D cap HME Hk ltac:(lia) Hfac R1 C1 H1 ltac:(rewrite !app_length; lia) HD) as (A2 & O2 & e2 & -> & R2 & C2 & H2 & L2 & F2). cbn [bind].
  set (tmp := mkmat Np Np _).
  destruct (insBlock2_has G D (Np * K) cap capM O2 Mt (((es ++ e0) ++ e1) ++ e2) fs Np (Np * k) (Np * k) A2 tmp H2 HMt ltac:(rewrite !app_length; lia) Hcm ltac:(nia) ltac:(nia) ltac:(nia) ltac:(nia) R2 C2 eq_refl eq_refl) as (OP' & Mt' & EE & HO' & HM').
  exists OP', Mt', (e0 ++ e1 ++ e2 ++ block Np (Np * k) (Np * k) A2), (block Np (Np * k) (Np * k) tmp). split; [exact EE|]. split; [rewrite !app_assoc; exact HO'|]. split; [exact HM'|].
  split; [rewrite !app_length, block_len; lia|]. split; [apply block_len|]. intros v u U V HU HV. split.
  - destruct (F0 v u U V HU HV) as (w0 & S0 & B0). destruct (F1 v u U V HU HV) as (w1 & S1 & B1). destruct (F2 v u U V HU HV) as (w2 & S2 & B2).
    exists (bm Np (volume E MM (Dx_ k) (Dy_ k) J) (fun i => v (Np * k + i)%nat) (fun i => u (Np * k + i)%nat)), w0, w1, w2.
    split; [apply volume_k; assumption|]. split; [exact S0|]. split; [exact S1|]. split; [exact S2|]. rewrite !bl_app, bl_block. lra.
  - rewrite bl_block. unfold tmp. transitivity (J * bm Np MM (fun i => v (Np * k + i)%nat) (fun i => u (Np * k + i)%nat)) || idtac.
    destruct (rep_local u U k HU Hk) as (p & Lp & P0 & _). destruct (rep_local v V k HV Hk) as (q & Lq & Q0 & _).
    change (mkmat Np Np (fun i j : nat => fmul E J (ment MM i j))) with (mkmat Np Np (fun i j : nat => J * ment MM i j)). rewrite bm_scal.
    eapply eint_ext; [|exact (mass_k k p q _ _ Hk Lq Lp)]. intros x y. cbv beta. rewrite P0, Q0. reflexivity.
Qed.

(* the sum over the elements below n *)
Definition form_upto (sk : Z) (n : nat) (U V : piecewise) (w : R) : Prop :=
  exists (vol : nat -> R) (sd : nat -> nat -> R),
    (forall k, (k < n)%nat -> eint k (grad_prod U V k) (vol k)) /\ (forall k f, (k < n)%nat -> (f < 3)%nat -> side_part sk k f U V (sd k f)) /\
    w = sumn n (fun k => vol k + (sd k 0%nat + sd k 1%nat + sd k 2%nat)).
Lemma elements ME sk D : edges_ok ME -> (20000 * Z.of_nat (N + 1) * Z.of_nat (N + 1) <= INT_MAX)%Z -> (Np * K <= D)%nat -> forall OP Mt cap capM,
  has D cap OP [] -> has (Np * K) capM Mt [] -> (Z.of_nat (4 * (Np * Np) * K) <= cap)%Z -> (Z.of_nat (Np * Np * K) <= capM)%Z ->
  exists OP' Mt' es fs, for_ K (elementOP E pt 3 Np (S N) N sk ME MM) (OP, Mt) = Ok (OP', Mt') /\ has D cap OP' es /\ has (Np * K) capM Mt' fs /\
    (length es <= 4 * (Np * Np) * K)%nat /\
    forall v u U V, rep u U -> rep v V -> form_upto sk K U V (bl es v u) /\ mass_form K Vert EToV U V (bl fs v u).
Proof.
  intros HME Hfac HD OP Mt cap capM HO HMt Hc Hcm.
  destruct (for_inv (fun n st => exists es fs, has D cap (fst st) es /\ has (Np * K) capM (snd st) fs /\ (length es <= 4 * (Np * Np) * n)%nat /\ length fs = (Np * Np * n)%nat /\
    forall v u U V, rep u U -> rep v V -> form_upto sk n U V (bl es v u) /\ exists vol, (forall k, (k < n)%nat -> eint k (fun x y => val U k x y * val V k x y) (vol k)) /\ bl fs v u = sumn n vol)
    K (elementOP E pt 3 Np (S N) N sk ME MM) (OP, Mt)) as ((OP' & Mt') & EE & es & fs & H1 & H2 & H3 & H4 & H6).
  - exists [], []. split; [exact HO|]. split; [exact HMt|]. split; [cbn; lia|]. split; [cbn; lia|]. intros v u U V _ _. split.
    + exists (fun _ => 0), (fun _ _ => 0). split; [intros; lia|]. split; [intros; lia|]. reflexivity.
    + exists (fun _ => 0). split; [intros; lia|]. reflexivity.
  - intros k (OP1, Mt1) Hk (es & fs & H1 & H2 & H3 & H4 & H6). cbn [fst snd] in H1, H2.
    destruct (element_step sk k ME OP1 Mt1 es fs D cap capM HME Hk Hfac H1 H2 ltac:(nia) ltac:(nia) HD) as (OP2 & Mt2 & es' & fs' & EE & G1 & G2 & G3 & G4 & G5).
    exists (OP2, Mt2). split; [exact EE|]. exists (es ++ es'), (fs ++ fs'). split; [exact G1|]. split; [exact G2|]. split; [rewrite app_length; nia|]. split; [rewrite app_length; nia|].
    intros v u U V HU HV. destruct (H6 v u U V HU HV) as ((vol & sd & A1 & A2 & A3) & (mv & A4 & A5)). destruct (G5 v u U V HU HV) as ((nv & s0 & s1 & s2 & B1 & B2 & B3 & B4 & B5) & B6). split.
    + exists (fun j => if (j =? k)%nat then nv else vol j), (fun j f => if (j =? k)%nat then match f with O => s0 | 1%nat => s1 | _ => s2 end else sd j f). split; [|split].
      * intros j Hj. destruct (Nat.eqb_spec j k) as [->|]; [exact B1|apply A1; lia].
      * intros j f Hj Hf. destruct (Nat.eqb_spec j k) as [->|]; [destruct f as [|[|[|]]]; auto; lia|apply A2; lia].
      * rewrite bl_app, A3, B5, sumn_S, Nat.eqb_refl. f_equal. apply sumn_ext. intros j Hj. destruct (Nat.eqb_spec j k); [lia|reflexivity].
    + exists (fun j => if (j =? k)%nat then bl fs' v u else mv j). split.
      * intros j Hj. destruct (Nat.eqb_spec j k) as [->|]; [exact B6|apply A4; lia].
      * rewrite bl_app, A5, sumn_S, Nat.eqb_refl. f_equal. apply sumn_ext. intros j Hj. destruct (Nat.eqb_spec j k); [lia|reflexivity].
  - cbn [fst snd] in *. exists OP', Mt', es, fs. split; [exact EE|]. split; [exact H1|]. split; [exact H2|]. split; [exact H3|]. intros v u U V HU HV. destruct (H6 v u U V HU HV) as (A & B). split; [exact A|exact B].
Qed.

Lemma assemble_ok border_ sk : (0 < K)%nat -> (20000 * Z.of_nat (N + 1) * Z.of_nat (N + 1) <= INT_MAX)%Z ->
  ((1 + 3) * Z.of_nat Np * Z.of_nat Np * Z.of_nat K + 2 * Z.of_nat (Np * K) <= INT_MAX)%Z ->
  let inc := if (border_ =? 0)%Z then 0%nat else 1%nat in
  exists OP Mt es fs cap capM, assemble E inverse junk pt 3 Np (S N) K N border_ sk = Ok (OP, Mt) /\
    has (Np * K + inc) cap OP (es ++ if (border_ =? 0)%Z then [] else frame (Np * K)) /\ has (Np * K) capM Mt fs /\
    forall v u U V, rep u U -> rep v V -> form_upto sk K U V (bl es v u) /\ mass_form K Vert EToV U V (bl fs v u).
Proof.
  intros HK Hfac Hcap inc. pose proof Np0 as Np0. unfold assemble, require.
  assert (Hconf : ptables_conform pt 3 (S N) Np K = true).
  { unfold ptables_conform. cbn [tables p_dg p_Vinv p_J]. rewrite shapes_d. destruct J_shape as (J1 & J2). unfold conform. rewrite J1, J2, !Nat.eqb_refl.
    destruct (element_ok _ _ _ _ _ _ _ _ _ _ _ _ HB) as [lr ls nodes masks edge_i pts SV SVi V Vi Vi' SL lift Dm x metric nrm]. destruct SVi as (S1 & S2). rewrite S1, S2, <- lr, Nat.eqb_refl. reflexivity. }
  rewrite Hconf. cbn [tables p_Vinv p_r p_s p_Fm]. destruct massEdges_ok as (ME & -> & HME). cbn [bind]. fold inc.
  set (capO := ((1 + Z.of_nat 3) * Z.of_nat Np * Z.of_nat Np * Z.of_nat K + Z.of_nat inc * 2 * Z.of_nat (Np * K))%Z). set (capM := (Z.of_nat Np * Z.of_nat Np * Z.of_nat K)%Z).
  assert (Hinc : (inc <= 1)%nat) by (unfold inc; destruct (border_ =? 0)%Z; lia).
  assert (HcO : (capO <= INT_MAX)%Z) by (unfold capO; change (1 + Z.of_nat 3)%Z with (1 + 3)%Z; nia). destruct (Z.ltb_spec INT_MAX capO); [lia|].
  change (fofn E 0) with (IZR 0). rewrite zeroE || idtac.
  destruct (ctor_has (Np * K) capM ltac:(nia) ltac:(unfold capM; nia)) as (Mt & -> & HMt). cbn [bind].
  destruct (ctor_has (Np * K + inc) capO ltac:(nia) ltac:(unfold capO; nia)) as (OP & -> & HO). cbn [bind]. fold MM.
  destruct (elements ME sk (Np * K + inc) HME Hfac ltac:(lia) OP Mt capO capM HO HMt) as (OP' & Mt' & es & fs & -> & H1 & H2 & H3 & H4); [unfold capO; nia|unfold capM; nia|]. cbn [bind].
  assert (Hi' : inc = if (border_ =? 0)%Z then 0%nat else 1%nat) by reflexivity. clearbody inc. destruct (border_ =? 0)%Z eqn:Hb.
  - exists OP', Mt', es, fs, capO, capM. rewrite app_nil_r. auto.
  - subst inc. replace (Np * K + 1)%nat with (S (Np * K)) in * by lia.
    destruct (border_has G capO OP' es (Np * K) H1) as (OP2 & -> & H5); [unfold capO; nia|]. cbn [bind]. exists OP2, Mt', es, fs, capO, capM. auto.
Qed.
End Run.
