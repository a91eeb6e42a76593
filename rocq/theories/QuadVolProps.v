(* QuadVolProps.v - C104: sw2dquads.py neither makes nor loses water. *)
From Coq Require Import ZArith List Lia Bool Arith.
From Verif Require Import Base Loops Num BlitzModel JacobiModel JacobiSpec JacobiProofs JacobiQuadProofs JacobiExactProofs Nodes1DModel Nodes1DSpec Nodes1DExactProofs DenseSpec DenseModel
  MeshSpec MeshGeoProofs TriModel TriSpec TriGeoSpec TriOpProofs TriProofs TriFilterProofs TriLiftProofs QuadModel QuadSpec QuadSetup QuadProps Maps2DModel Maps2DSpec Maps2DProofs Maps2DProps TriMapsProofs TriMapsProps QuadMapsProofs QuadMapsProps
  RKModel RKProofs Line1DModel Line1DProofs SwModel SwSpec SwProofs SwSchemeProofs SwRunProofs SwStepModel SwStepSpec
  SwScriptModel SwScriptProofs InsModel InsSpec InsProofs InsGridProofs InsRunProofs InsProps QuadRunModel QuadRunSpec QuadRunProofs QuadRunProps
  QuadVolProofs QuadBalProofs QuadConsProofs QuadVolSpec QuadFiltProofs.
From Coq Require Import Reals Lra.
Import ListNotations.
Local Open Scope R_scope.

Section C104.
Context (G : R -> R) (solve : mat R -> mat R -> mat R -> outcome (mat R)) (inverse : mat R -> mat R -> outcome (mat R))
  (junk : nat -> nat -> R) (eps : R) (eig : nat -> (nat -> nat -> R) -> list R * (nat -> nat -> R)) (tol : R)
  (sort : (nat -> nat -> bool) -> list nat -> list nat) (junk1 : nat -> R) (junkn : nat -> nat)
  (N K : nat) (Vert : list R) (EToV E2E E2F : list nat) (bcType : list Z) (el : element (T := R)) (m : maps).
Local Notation E := (exact G).
Local Notation Grid := (ins_grid G solve inverse junk eps eig tol sort junk1 junkn N K Vert EToV E2E E2F bcType el m).
Local Notation Np := ((N + 1) * (N + 1))%nat.
Local Notation rhs g := (quads_rhs E (tables_of el m) 4 (S N) Np K g).
Local Notation half F g dt := (quads_predictor E F (rhs g) dt).
Local Notation step F g dt := (quads_step E F (rhs g) dt).
Local Notation tag k f := (nth (4 * k + f) bcType 0%Z).
Local Notation some_wall := (exists k f, (k < K)%nat /\ (f < 4)%nat /\ tag k f = 3%Z).
(* the sides tagged as walls are exactly the sides that no other element shares *)
Local Notation walls_all_round := (forall k f, (k < K)%nat -> (f < 4)%nat -> tag k f = 3%Z <-> forall h, ~ shares 4 (map Z.of_nat EToV) (4 * k + f) h).
Local Notation fits q := (state_conform q Np K = true).
Local Notation parallelograms := (forall k, (k < K)%nat -> parallelogram (fun c => qcorner Vert EToV k c)).
Local Notation volume h v := (quad_volume_is N Np K Vert EToV (e_r el) (e_s el) h v).
Local Notation filter epsf Nc sp := (quadFilter E pow exp ln epsf N (e_V el) (e_Vinv el) Nc sp).
(* no node dries out before step n, nor half way through a step *)
Local Notation stays_wet F g dt n q := (forall j, (j < n)%nat -> wet Np K (q j) /\ forall p, half F g dt (q j) = Ok p -> wet Np K p).

(* C104: nodal depths have one volume. *)
Theorem C104_volume : Grid -> (2 <= N)%nat \/ parallelograms -> forall h, exists v, volume h v /\ forall w, volume h w -> w = v.
Proof.
  intros [HB HM HX HS Hrun Hbc] HP h. destruct (gp_ex _ _ _ _ _ _ _ _ _ _ _ _ HB) as (gp & HGp).
  pose proof (vol_iff _ _ _ _ _ _ _ _ _ _ _ _ HB gp HGp HP h) as V. eexists. split; [apply V; reflexivity|]. intros w Hw. apply V. exact Hw.
Qed.

(* C104: with walls all round the rate of change of the volume is zero. *)
Theorem C104_conservation : Grid -> some_wall -> walls_all_round -> (2 <= N)%nat \/ parallelograms -> forall g q, fits q -> wet Np K q ->
  exists z, rhs g q = Ok z /\ volume (fieldc 0 z) 0.
Proof.
  intros HG Ht Hwall HP g q Cq Hw. destruct (C103_scheme _ _ _ _ _ _ _ _ _ _ _ _ _ _ _ _ _ _ _ HG Ht g q Cq Hw) as (z & lam & Ez & _ & Hz & Hlam). cbv zeta in Hz, Hlam. exists z. split; [exact Ez|].
  destruct HG as [HB HM HX HS Hrun Hbc]. destruct (gp_ex _ _ _ _ _ _ _ _ _ _ _ _ HB) as (gp & HGp). apply (vol_iff _ _ _ _ _ _ _ _ _ _ _ _ HB gp HGp HP). symmetry. unfold qvol.
  apply (rates_cancel _ _ _ _ _ _ _ _ _ _ _ _ HB _ _ HM HX HS _ _ _ _ _ Hrun Hbc g q lam Hlam Hwall gp HGp z).
  - intros i k Hi Hk. exact (Hz i k 0%nat Hi Hk ltac:(lia)).
  - destruct HP as [|Q]; [auto|right]. intros k Hk. apply par_twist, Q, Hk.
Qed.

(* C104: a step with the filter of the provisioner keeps the volume, if the cutoff lies above the modes that carry it: those of degree at
   most one, or only the constant when every element is a parallelogram. *)
Lemma step_volume : Grid -> some_wall -> walls_all_round -> forall epsf Nc sp F, filter epsf Nc sp = Ok F -> ((2 <= N)%nat /\ 1 < Nc \/ parallelograms /\ 0 < Nc) ->
  forall g dt q q', fits q -> wet Np K q -> (forall p, half F g dt q = Ok p -> wet Np K p) -> step F g dt q = Ok q' ->
  fits q' /\ forall v, volume (fieldc 0 q') v <-> volume (fieldc 0 q) v.
Proof.
  intros HG Ht Hwall epsf Nc sp F HF Hc g dt q q' Cq Hw Hp Hs. assert (HP : (2 <= N)%nat \/ parallelograms) by tauto.
  pose proof HG as HG0. destruct HG0 as [HB HM HX HS Hrun Hbc]. destruct (gp_ex _ _ _ _ _ _ _ _ _ _ _ _ HB) as (gp & HGp).
  destruct (filter_cols _ _ _ _ _ _ _ _ _ _ _ _ HB epsf Nc sp F HF) as (SF & _). replace (S N * S N)%nat with Np in SF by lia.
  destruct (C103_midpoint _ _ _ _ _ _ _ _ _ _ _ _ _ _ _ _ _ _ _ HG Ht g F dt q SF Cq Hw) as (z0 & p & _ & Ep & Cp & _ & Hm).
  destruct (Hm (Hp p Ep)) as (z1 & q1 & Ez & Es & Cq' & Hq). assert (q1 = q') by congruence. subst q1. split; [exact Cq'|].
  destruct (C104_conservation HG Ht Hwall HP g p Cp (Hp p Ep)) as (z1' & Ez' & HV). assert (z1' = z1) by congruence. subst z1'.
  pose proof (fun h v => vol_iff _ _ _ _ _ _ _ _ _ _ _ _ HB gp HGp HP h v) as V. apply V in HV.
  assert (EV : qvol G N K Vert EToV el (fun i k => ment (fieldc 0 q') i k) = qvol G N K Vert EToV el (fun i k => ment (fieldc 0 q) i k)).
  { rewrite (qvol_ext G N K Vert EToV el (fun i k => ment (fieldc 0 q') i k) (fun i k => ment (fieldc 0 q) i k + dt * sumn (S N * S N) (fun j => ment F i j * ment (fieldc 0 z1) j k))).
    - rewrite (qvol_plus G N K Vert EToV el dt (fun i k => ment (fieldc 0 q) i k) (fun i k => sumn (S N * S N) (fun j => ment F i j * ment (fieldc 0 z1) j k))).
      rewrite (qvol_filter _ _ _ _ _ _ _ _ _ _ _ _ HB gp HGp epsf Nc sp F (fun j k => ment (fieldc 0 z1) j k) HF Hc), <- HV. ring.
    - intros i k Hi Hk. rewrite (Hq 0%nat i k ltac:(lia) ltac:(lia) Hk). replace (S N * S N)%nat with Np by lia. reflexivity. }
  intro v. rewrite !V, EV. tauto.
Qed.
Theorem C104_conserved : Grid -> some_wall -> walls_all_round -> forall epsf Nc sp F, filter epsf Nc sp = Ok F -> ((2 <= N)%nat /\ 1 < Nc \/ parallelograms /\ 0 < Nc) ->
  forall g dt n q, fits (q 0%nat) -> history Ok (step F g dt) n q -> stays_wet F g dt n q ->
  forall j, (j <= n)%nat -> forall v, volume (fieldc 0 (q j)) v <-> volume (fieldc 0 (q 0%nat)) v.
Proof.
  intros HG Ht Hwall epsf Nc sp F HF Hc g dt n q C0 Hh Hwet.
  assert (X : forall j, (j <= n)%nat -> fits (q j) /\ forall v, volume (fieldc 0 (q j)) v <-> volume (fieldc 0 (q 0%nat)) v).
  { induction j as [|j IH]; intro Hj; [split; [exact C0|tauto]|]. destruct (IH ltac:(lia)) as (Cj & Vj). destruct (Hwet j ltac:(lia)) as (Wj & Wp).
    destruct (step_volume HG Ht Hwall epsf Nc sp F HF Hc g dt (q j) (q (S j)) Cj Wj Wp (Hh j ltac:(lia))) as (C1 & V1). split; [exact C1|]. intro v. rewrite V1. apply Vj. }
  intros j Hj. apply X, Hj.
Qed.
(* C104: so a whole run of the script, with its order and cutoff on any convex quadrilaterals, ends with the volume it started with. *)
Theorem C104_run_conserves : Grid -> some_wall -> walls_all_round -> forall epsf Nc sp F, filter epsf Nc sp = Ok F -> ((2 <= N)%nat /\ 1 < Nc \/ parallelograms /\ 0 < Nc) ->
  forall g dt huge ft fuel s, quads_run E exp fuel (tables_of el m) 4 (S N) Np K g dt huge ft F (e_x el) (e_y el) = Ok s ->
  exists n q, qd_q s = q n /\ history Ok (step F g dt) n q /\
  (forall i k, (i < Np)%nat -> (k < K)%nat -> let x := ment (e_x el) i k in let y := ment (e_y el) i k in at_node (q 0%nat) i k = (10 + exp (-10 * (x * x) - 10 * (y * y)), 0, 0)) /\
  (stays_wet F g dt n q -> forall j, (j <= n)%nat -> forall v, volume (fieldc 0 (q j)) v <-> volume (fieldc 0 (q 0%nat)) v).
Proof.
  intros HG Ht Hwall epsf Nc sp F HF Hc g dt huge ft fuel s Hr. destruct (C103_run _ _ _ _ _ _ _ _ _ _ _ _ _ _ _ _ _ _ _ HG _ _ _ _ _ _ _ Hr) as (n & q & Hst & C0 & _ & Hh & _ & Eq & _).
  exists n, q. split; [exact Eq|]. split; [exact Hh|]. split; [exact Hst|]. intros Hwet. eapply C104_conserved; eassumption.
Qed.
End C104.

(* The hypotheses are met: two unit squares side by side with walls all round, order one, water one deep in the first and two deep in the
   second: a volume of three, which the first step keeps, if it is short. *)
From Verif Require Import BlitzSpec UniqueProofs JacobiProps TriWitness QuadBasisProofs QuadOpProofs QuadElemProofs QuadWitness.
Definition sqVert : list R := [0; 0; 0;  1; 0; 0;  2; 0; 0;  0; 1; 0;  1; 1; 0;  2; 1; 0].
Definition sqTags : list Z := [3; 0; 3; 3;  3; 3; 3; 0]%Z.
Lemma sq_grid : (exists el m, ins_grid gwit solve4 inverse4 junk0 0 eig0 (1 / 10) isort (fun _ => 0) (fun _ => 0%nat) 1 2 sqVert qEToV qE2E qE2F sqTags el m) /\
  (forall g h, shares 4 (map Z.of_nat qEToV) g h <-> (g = 1 /\ h = 7 \/ g = 7 /\ h = 1)%nat).
Proof.
  assert (HW : qmesh_ok 2 sqVert qEToV) by (split; [reflexivity|]; intros v Hv; cbn in Hv; repeat (destruct Hv as [<-|Hv]; [cbn; lia|]); destruct Hv).
  destruct (quad_mesh_on sqVert) as (HM & Hs).
  { intros k Hk c d Hc Hd. destruct k as [|[|]]; [| |lia]; destruct c as [|[|[|[|]]]], d as [|[|[|[|]]]]; try lia; unfold qcorner; cbn; intro X; injection X; lra. }
  split; [|exact Hs]. destruct (quad_witness_on sqVert qEToV HW) as (el & HB). pose proof HM as HM0. destruct HM0 as [LE LF HN HO HA].
  pose proof (quad_tables _ _ _ _ _ _ _ _ _ _ _ _ HB _ _ LE LF HN) as HTb. destruct (C43_nodes_masks _ _ _ _ _ _ _ _ _ _ _ _ HB) as (_ & _ & g & _ & g0 & gN & _ & _ & _ & _ & _ & Hm).
  edestruct (C38_defined (exact gwit) rhypot isort (fun _ => 0) (fun _ => 0%nat) (1 / 10) 4 2 ((1 + 1) * (1 + 1)) 2 (qmask_table 1 (e_masks el)) (e_x el) (e_y el) qE2E qE2F qEToV sqVert sqTags []) as (m & Em).
  - exact Rltb_strict_weak.
  - exact isort_is_sort.
  - cbn. unfold Rltb. destruct (Rlt_dec _ _) as [|Hx]; [reflexivity|]. exfalso. apply Hx. lra.
  - lia.
  - cbn. lia.
  - exact HTb.
  - exists el, m. constructor; [exact HB|exact HM| | |exact Em|cbn; lia].
    + intros k Hk c Hc. destruct k as [|[|]]; [| |lia]; (destruct c as [|[|[|[|]]]]; [| | | |lia]); unfold corner_cross, cross, pminus, qcorner; cbn; lra.
    + destruct (Hm 0%nat ltac:(lia)) as (mask & Ek & _ & _ & _ & Hq). cbn [ment qmask_table]. rewrite (nth_error_nth _ _ [] Ek).
      pose proof (Hq 0%nat ltac:(lia)) as Q0. pose proof (Hq 1%nat ltac:(lia)) as Q1. cbn zeta in Q0, Q1. injection Q0 as Q0 _. injection Q1 as Q1 _. rewrite g0 in Q0. rewrite gN in Q1.
      intros n n' Hn Hn' Hd. destruct n as [|[|]], n' as [|[|]]; try lia; rewrite Q0, Q1; [rewrite Rabs_left by lra|rewrite Rabs_pos_eq by lra]; lra.
Qed.
Lemma row_bound (f : nat -> R) n : exists B, 0 < B /\ forall i, (i < n)%nat -> Rabs (f i) <= B.
Proof.
  induction n as [|n (B & HB & H)]; [exists 1; split; [lra|]; intros; lia|]. exists (B + Rabs (f n)). pose proof (Rabs_pos (f n)). split; [lra|]. intros i Hi.
  destruct (Nat.eq_dec i n) as [-> |]; [lra|]. specialize (H i ltac:(lia)). lra.
Qed.
Lemma finite_bound (f : nat -> nat -> R) n K : exists B, 0 < B /\ forall i k, (i < n)%nat -> (k < K)%nat -> Rabs (f i k) <= B.
Proof.
  induction n as [|n (B & HB & H)]; [exists 1; split; [lra|]; intros; lia|]. destruct (row_bound (f n) K) as (C & HC & HK). exists (B + C). split; [lra|]. intros i k Hi Hk.
  destruct (Nat.eq_dec i n) as [-> |]; [specialize (HK k Hk); lra|]. specialize (H i k ltac:(lia) Hk). lra.
Qed.
Lemma unit_square c : square_integral (fun _ _ => c) (4 * c).
Proof.
  assert (I : integral_is (fun _ : R => 1) (-1) 1 2). { eapply TriDGProofs.integral_val; [|eapply JacobiOrthProofs.integral_ext; [|apply (Line1DProofs.integral_deriv [0; 1])]]; [|intro x]; cbn; ring. }
  eapply qint_ext; [|eapply qint_val; [|apply (qint_scal c), (qint_prod _ _ _ _ I I)]]; [intros x y; cbv beta; ring|ring].
Qed.
Example C104_witness : let Np := ((1 + 1) * (1 + 1))%nat in exists el m,
  ins_grid gwit solve4 inverse4 junk0 0 eig0 (1 / 10) isort (fun _ => 0) (fun _ => 0%nat) 1 2 sqVert qEToV qE2E qE2F sqTags el m /\
  (exists k f, (k < 2)%nat /\ (f < 4)%nat /\ nth (4 * k + f) sqTags 0%Z = 3%Z) /\
  (forall k f, (k < 2)%nat -> (f < 4)%nat -> nth (4 * k + f) sqTags 0%Z = 3%Z <-> forall h, ~ shares 4 (map Z.of_nat qEToV) (4 * k + f) h) /\
  (forall k, (k < 2)%nat -> parallelogram (fun c => qcorner sqVert qEToV k c)) /\
  let q := (mkmat Np 2 (fun _ k => INR (S k)), mkmat Np 2 (fun _ _ => 0), mkmat Np 2 (fun _ _ => 0)) in
  state_conform q Np 2 = true /\ wet Np 2 q /\ quad_volume_is 1 Np 2 sqVert qEToV (e_r el) (e_s el) (fieldc 0 q) 3 /\
  exists F dt q', quadFilter (exact gwit) pow exp ln (1 / 1000) 1 (e_V el) (e_Vinv el) (1 / 2) 4 = Ok F /\ 0 < dt /\
    quads_step (exact gwit) F (quads_rhs (exact gwit) (tables_of el m) 4 2 Np 2 (981 / 100)) dt q = Ok q' /\
    quad_volume_is 1 Np 2 sqVert qEToV (e_r el) (e_s el) (fieldc 0 q') 3.
Proof.
  cbv zeta. destruct sq_grid as ((el & m & HG) & Hs). exists el, m. split; [exact HG|].
  assert (Ht : exists k f, (k < 2)%nat /\ (f < 4)%nat /\ nth (4 * k + f) sqTags 0%Z = 3%Z) by (exists 0%nat, 0%nat; cbn; repeat split; lia). split; [exact Ht|].
  assert (Hw : forall k f, (k < 2)%nat -> (f < 4)%nat -> nth (4 * k + f) sqTags 0%Z = 3%Z <-> forall h, ~ shares 4 (map Z.of_nat qEToV) (4 * k + f) h).
  { intros k f Hk Hf. destruct k as [|[|]]; [| |lia]; (destruct f as [|[|[|[|]]]]; [| | | |lia]); cbn [Nat.mul Nat.add nth sqTags]; (split; intro H; [intros h Hh; apply Hs in Hh; (lia || discriminate H)|try reflexivity]).
    - exfalso. apply (H 7%nat). apply Hs. lia.
    - exfalso. apply (H 1%nat). apply Hs. lia. }
  split; [exact Hw|].
  assert (HP : forall k, (k < 2)%nat -> parallelogram (fun c => qcorner sqVert qEToV k c)) by (intros k Hk; destruct k as [|[|]]; [| |lia]; unfold parallelogram, qcorner; cbn; lra). split; [exact HP|].
  set (q := (mkmat ((1 + 1) * (1 + 1)) 2 (fun _ k => INR (S k)), mkmat ((1 + 1) * (1 + 1)) 2 (fun _ _ => 0), mkmat ((1 + 1) * (1 + 1)) 2 (fun _ _ => 0))).
  assert (Cq : state_conform q ((1 + 1) * (1 + 1)) 2 = true) by reflexivity. split; [exact Cq|].
  assert (Wq : wet ((1 + 1) * (1 + 1)) 2 q). { intros i k _ _. change (INR (S k) <> 0). apply not_0_INR. lia. } split; [exact Wq|].
  assert (V3 : quad_volume_is 1 ((1 + 1) * (1 + 1)) 2 sqVert qEToV (e_r el) (e_s el) (fieldc 0 q) 3).
  { exists (fun k => [(0%nat, 0%nat, INR (S k))]), (fun k => INR (S k)). split; [|unfold sumn; cbn; ring]. intros k Hk. split; [repeat constructor; cbn; lia|]. split.
    - intros i Hi. unfold q. cbn [fieldc fst ment eval2 pow]. ring.
    - unfold quad_integral. eapply qint_ext; [|eapply qint_val; [|apply (unit_square (INR (S k) / 4))]]; [|field]. intros x y.
      destruct k as [|[|]]; [| |lia]; unfold area_scale, corner_weight, corner_cross, cross, pminus, qcorner, sumn; cbn; field. }
  split; [exact V3|]. pose proof (ig_built _ _ _ _ _ _ _ _ _ _ _ _ _ _ _ _ _ _ _ HG) as HB.
  assert (HF : exists F, quadFilter (exact gwit) pow exp ln (1 / 1000) 1 (e_V el) (e_Vinv el) (1 / 2) 4 = Ok F).
  { destruct (qelement_ok _ _ _ _ _ _ _ _ _ _ _ _ HB) as [Hn masks edge_i SV SVi V Vi Vi' SL lift D x metric nrm]. destruct Hn as (lr & ls & _).
    destruct (qfilter_ok gwit 1 (e_r el) (e_s el) lr ls (e_V el) SV V (e_Vinv el) SVi Vi exp ln (1 / 1000) (1 / 2) 4) as (F & EF & _). exists F. exact EF. }
  destruct HF as (F & EF). destruct (filter_cols _ _ _ _ _ _ _ _ _ _ _ _ HB (1 / 1000) (1 / 2) 4%nat F EF) as (SF & _).
  destruct (proj1 (C103_runs _ _ _ _ _ _ _ _ _ _ _ _ _ _ _ _ _ _ _ HG (981 / 100) q Cq) Ht Wq) as (z & Ez & _).
  destruct (finite_bound (fun i k => sumn 4 (fun j => ment F i j * ment (fieldc 0 z) j k)) 4 2) as (B & HBp & HBd).
  exists F, (/ B). destruct (C103_midpoint _ _ _ _ _ _ _ _ _ _ _ _ _ _ _ _ _ _ _ HG Ht (981 / 100) F (/ B) q SF Cq Wq) as (z0 & p & Ez0 & Ep & Cp & Hp & Hm).
  assert (z0 = z) by congruence. subst z0.
  assert (Wp : wet ((1 + 1) * (1 + 1)) 2 p).
  { intros i k Hi Hk. change (ment (fieldc 0 p) i k <> 0). rewrite (Hp 0%nat i k ltac:(lia) Hi Hk). change (ment (fieldc 0 q) i k) with (INR (S k)). specialize (HBd i k Hi Hk). cbv beta in HBd. change ((1 + 1) * (1 + 1))%nat with 4%nat.
    set (w := sumn 4 _) in *. assert (1 <= INR (S k)) by (rewrite S_INR; pose proof (pos_INR k); lra). pose proof (Rle_abs (- w)) as Ha. rewrite Rabs_Ropp in Ha.
    assert (/ B / 2 * - w <= 1 / 2). { apply Rle_trans with (/ B / 2 * B); [apply Rmult_le_compat_l; [pose proof (Rinv_0_lt_compat B HBp); lra|lra]|]. right. field. lra. } lra. }
  destruct (Hm Wp) as (z1 & q' & _ & Es & _). exists q'. split; [exact EF|]. split; [apply Rinv_0_lt_compat, HBp|]. split; [exact Es|].
  assert (Hpos : 0 < 1 / 2) by lra. destruct (step_volume _ _ _ _ _ _ _ _ _ _ _ _ _ _ _ _ _ _ _ HG Ht Hw (1 / 1000) (1 / 2) 4%nat F EF (or_intror (conj HP Hpos)) (981 / 100) (/ B) q q' Cq Wq) as (_ & HV); [intros p' Ep'; assert (p' = p) by congruence; subst p'; exact Wp|exact Es|].
  apply HV. exact V3.
Qed.

Print Assumptions C104_volume.
Print Assumptions C104_conservation.
Print Assumptions C104_conserved.
Print Assumptions C104_run_conserves.
