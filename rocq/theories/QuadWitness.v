(* QuadWitness.v - a concrete constructed provisioner: order 1 on two convex quadrilaterals. *)
From Coq Require Import ZArith List Lia Bool Arith.
From Verif Require Import Base Loops Num BlitzModel JacobiModel JacobiSpec JacobiProofs JacobiOrthProofs JacobiQuadProofs JacobiExactProofs DenseSpec Nodes1DModel Nodes1DSpec Nodes1DExactProofs TriModel TriSpec TriGeoSpec TriBasisProofs TriProofs TriOpProofs TriLiftProofs TriFaceProofs TriNodesProofs TriGeoProofs TriWitness QuadModel QuadSpec QuadSetup QuadBasisProofs QuadOpProofs QuadNodesProofs QuadGeoProofs.
From Coq Require Import Reals Lra.
Import ListNotations.
Local Open Scope R_scope.

(* A 4 x 4 solver: it knows some inverses by heart, checks whether one of them fits, and throws otherwise. *)
Local Notation cells := (list_prod (seq 0 4) (seq 0 4)).
Definition fits (A Y : mat R) : bool := forallb (fun '(i, j) =>
  (if Req_EM_T (sumn 4 (fun k => ment A i k * ment Y k j)) (delta i j) then true else false) &&
  (if Req_EM_T (sumn 4 (fun k => ment Y i k * ment A k j)) (delta i j) then true else false)) cells.
Lemma fits_ok A Y : fits A Y = true <-> forall i j, (i < 4)%nat -> (j < 4)%nat -> sumn 4 (fun k => ment A i k * ment Y k j) = delta i j /\ sumn 4 (fun k => ment Y i k * ment A k j) = delta i j.
Proof.
  unfold fits. rewrite forallb_forall. split.
  - intros H i j Hi Hj. specialize (H (i, j)). cbv beta iota in H. rewrite in_prod_iff, !in_seq in H. specialize (H ltac:(lia)). apply andb_prop in H as (H1 & H2).
    destruct (Req_EM_T (sumn 4 (fun k => ment A i k * ment Y k j)) (delta i j)) as [X1|]; [|discriminate]. destruct (Req_EM_T (sumn 4 (fun k => ment Y i k * ment A k j)) (delta i j)) as [X2|]; [|discriminate]. auto.
  - intros H [i j] Hx. rewrite in_prod_iff, !in_seq in Hx. destruct (H i j) as (H1 & H2); try lia.
    destruct (Req_EM_T (sumn 4 (fun k => ment A i k * ment Y k j)) (delta i j)) as [X1|X1]; [|contradiction]. destruct (Req_EM_T (sumn 4 (fun k => ment Y i k * ment A k j)) (delta i j)) as [X2|X2]; [reflexivity|contradiction].
Qed.

Local Notation G := gwit.
Local Notation E := (exact gwit).
Local Notation rq := [-1; -1; 1; 1].
Local Notation sq := [-1; 1; -1; 1].
Definition had (i c : nat) : R := nth i sq 0 ^ (c / 2) * nth i rq 0 ^ (c mod 2).
Definition dg (c : nat) : R := sg (c / 2) * sg (c mod 2).
Definition known : list (mat R) := [mkmat 4 4 (fun c i => had i c / (4 * dg c)); mkmat 4 4 (fun i c => had i c / (4 * dg c));
  mkmat 4 4 (fun i j => sumn 4 (fun c => had i c * had j c / (16 * dg c * dg c)));
  mkmat 4 4 (fun c i => had (3 - i) c / (4 * dg c)); mkmat 4 4 (fun c i => had (nth i [0; 2; 1; 3]%nat 0%nat) c / (4 * dg c))].
Definition solve4 (A B X : mat R) : outcome (mat R) :=
  if (mrows A =? 4)%nat
  then match find (fits A) known with Some Y => Ok (mkmat 4 (mcols B) (fun i j => sumn 4 (fun k => ment Y i k * ment B k j))) | None => Throw end
  else cramer A B X.
Definition inverse4 (A X : mat R) : outcome (mat R) :=
  if (mrows A =? 4)%nat then match find (fits A) known with Some Y => Ok (mkmat 4 4 (ment Y)) | None => Throw end else cramer_inv A X.
Lemma solve4_ok : solver_ok solve4.
Proof.
  intros n m A B X HA HB0 HX. unfold solve4. destruct HA as (A1 & A2). destruct (Nat.eqb_spec (mrows A) 4) as [E4|_]; [|apply (cramer_ok n m A B X (conj A1 A2) HB0 HX)].
  assert (n = 4%nat) by congruence. subst n. rewrite H in *. destruct HB0 as (B1 & B2). destruct (find (fits A) known) as [Y|] eqn:EF; [|left; reflexivity]. right. apply find_some in EF as (_ & EF). pose proof (proj1 (fits_ok A Y) EF) as EF2.
  eexists. split; [reflexivity|]. split; [split; cbn [mrows mcols]; congruence|]. split; [split; cbn [mrows mcols]; congruence|]. intros i j Hi Hj. cbn [ment].
  rewrite <- (sumn_assoc 4 4 (fun k => ment A i k) (fun k l => ment Y k l) (fun l => ment B l j)). rewrite <- (sumn_delta 4 i (fun l => ment B l j)) by lia. apply sumn_ext. intros l Hl. f_equal. apply EF2; lia.
Qed.
Lemma inverse4_ok : inverter_ok inverse4.
Proof.
  intros n A X HA HX. unfold inverse4. destruct HA as (A1 & A2). destruct (Nat.eqb_spec (mrows A) 4) as [E4|_]; [|apply (cramer_inv_ok n A X (conj A1 A2) HX)].
  assert (n = 4%nat) by congruence. subst n. rewrite H in *. destruct (find (fits A) known) as [Y|] eqn:EF; [|left; reflexivity]. right. apply find_some in EF as (_ & EF). pose proof (proj1 (fits_ok A Y) EF) as EF2.
  eexists. split; [reflexivity|]. split; [split; reflexivity|]. exact EF2.
Qed.
Lemma find_fits A Y : In Y known -> fits A Y = true -> exists Z, find (fits A) known = Some Z.
Proof. intros H F. destruct (find (fits A) known) as [Z|] eqn:EF; [eauto|]. rewrite (find_none _ _ EF Y H) in F. discriminate. Qed.
Lemma runs4 A Y : mrows A = 4%nat -> In Y known -> fits A Y = true -> (forall B X, exists Z, solve4 A B X = Ok Z) /\ (forall X, exists Z, inverse4 A X = Ok Z /\ shape Z 4 4).
Proof.
  intros HA HY HF. destruct (find_fits A Y HY HF) as (Z & EZ). unfold solve4, inverse4. rewrite HA, EZ. cbn [Nat.eqb]. split; [eauto|]. intro X. eexists. split; [reflexivity|split; reflexivity].
Qed.
Lemma had_orth c d : (c < 4)%nat -> (d < 4)%nat -> sumn 4 (fun i => had i c * had i d) = 4 * delta c d.
Proof. intros Hc Hd. destruct c as [|[|[|[|]]]], d as [|[|[|[|]]]]; try lia; unfold sumn, had, delta; cbn; ring. Qed.
Lemma had_orth' c d : (c < 4)%nat -> (d < 4)%nat -> sumn 4 (fun i => had c i * had d i) = 4 * delta c d.
Proof. intros Hc Hd. destruct c as [|[|[|[|]]]], d as [|[|[|[|]]]]; try lia; unfold sumn, had, delta; cbn; ring. Qed.
Lemma dg_pos c : 0 < dg c.
Proof. apply Rmult_lt_0_compat; apply sg_pos. Qed.
Lemma qb1 c x y : (c < 4)%nat -> qb gwit 1 c x y = y ^ (c / 2) * x ^ (c mod 2) * dg c.
Proof.
  intro Hc. unfold qb, dg. destruct c as [|[|[|[|]]]]; try lia; cbv [Nat.div Nat.modulo Nat.divmod fst snd Nat.sub];
  rewrite ?(proj1 (leg2 gwit gwit_ok 0 _)), ?(proj2 (leg2 gwit gwit_ok 0 _)); change (legendre 0 x) with 1; change (legendre 0 y) with 1; change (legendre 1 x) with x; change (legendre 1 y) with y; cbn [pow]; ring.
Qed.
Section V.
Variable V : mat R.
Hypothesis SV : shape V 4 4.
Hypothesis HV : forall i c, (i < 4)%nat -> (c < 4)%nat -> ment V i c = qb gwit 1 c (nth i rq 0) (nth i sq 0).
Lemma V_ent i c : (i < 4)%nat -> (c < 4)%nat -> ment V i c = had i c * dg c.
Proof. intros Hi Hc. rewrite HV, qb1 by assumption. reflexivity. Qed.
Lemma fitsV : fits V (nth 0 known (mzero E 0 0)) = true.
Proof.
  apply fits_ok. intros i j Hi Hj. cbn [known nth ment]. split.
  - rewrite (sumn_ext 4 _ (fun k => / 4 * (had i k * had j k))) by (intros k Hk; rewrite V_ent by assumption; field; pose proof (dg_pos k); lra).
    rewrite sumn_scal, had_orth' by assumption. lra.
  - rewrite (sumn_ext 4 _ (fun k => dg j / (4 * dg i) * (had k i * had k j))) by (intros k Hk; rewrite V_ent by assumption; field; pose proof (dg_pos i); lra).
    rewrite sumn_scal, had_orth by assumption. unfold delta. destruct (Nat.eqb_spec i j) as [->|]; [field; pose proof (dg_pos j); lra|ring].
Qed.
Lemma fitsVt : fits (mtrans V) (nth 1 known (mzero E 0 0)) = true.
Proof.
  apply fits_ok. intros i j Hi Hj. cbn [known nth ment mtrans]. split.
  - rewrite (sumn_ext 4 _ (fun k => dg i / (4 * dg j) * (had k i * had k j))) by (intros k Hk; rewrite V_ent by assumption; field; pose proof (dg_pos j); lra).
    rewrite sumn_scal, had_orth by assumption. unfold delta. destruct (Nat.eqb_spec i j) as [->|]; [field; pose proof (dg_pos j); lra|ring].
  - rewrite (sumn_ext 4 _ (fun k => / 4 * (had i k * had j k))) by (intros k Hk; rewrite V_ent by assumption; field; pose proof (dg_pos k); lra).
    rewrite sumn_scal, had_orth' by assumption. lra.
Qed.
Lemma VVt_ent i j : (i < 4)%nat -> (j < 4)%nat -> ment (mtrans (mmul E V (mtrans V))) i j = sumn 4 (fun c => had i c * had j c * (dg c * dg c)).
Proof. intros Hi Hj. cbn [mtrans mmul ment]. rewrite fsum_exact, (proj2 SV). apply sumn_ext. intros c Hc. cbn [exact fmul]. rewrite !V_ent by assumption. ring. Qed.
Lemma fitsVVt : fits (mtrans (mmul E V (mtrans V))) (nth 2 known (mzero E 0 0)) = true.
Proof.
  assert (X : forall p q i j, (i < 4)%nat -> (j < 4)%nat -> (forall c, (c < 4)%nat -> p c * q c = / 16) -> sumn 4 (fun k => sumn 4 (fun c => had i c * had k c * p c) * sumn 4 (fun d => had k d * had j d * q d)) = delta i j).
  { intros p q i j Hi Hj Hpq.
    rewrite (sumn_ext 4 _ (fun k => sumn 4 (fun c => (had i c * p c) * had k c) * sumn 4 (fun d => had k d * had j d * q d))) by (intros k Hk; f_equal; apply sumn_ext; intros; ring).
    rewrite sumn_assoc. rewrite (sumn_ext 4 _ (fun c => / 4 * (had i c * had j c))).
    - rewrite sumn_scal, had_orth' by assumption. lra.
    - intros c Hc. rewrite (sumn_ext 4 _ (fun k => sumn 4 (fun d => (had j d * q d) * had k d) * had k c)) by (intros k Hk; rewrite Rmult_comm; f_equal; apply sumn_ext; intros; ring).
      rewrite sumn_assoc. rewrite (sumn_ext 4 _ (fun d => 4 * (had j d * q d) * delta d c)) by (intros d Hd; rewrite had_orth by assumption; ring). rewrite (sumn_delta' 4 c (fun d => 4 * (had j d * q d)) Hc).
      specialize (Hpq c Hc). transitivity (4 * (p c * q c) * (had i c * had j c)); [ring|]. rewrite Hpq. field. }
  apply fits_ok. intros i j Hi Hj. split.
  - rewrite <- (X (fun c => dg c * dg c) (fun c => / (16 * dg c * dg c)) i j Hi Hj) by (intros c _; field; pose proof (dg_pos c); lra).
    apply sumn_ext. intros k Hk. rewrite VVt_ent by assumption. f_equal.
  - rewrite <- (X (fun c => / (16 * dg c * dg c)) (fun c => dg c * dg c) i j Hi Hj) by (intros c _; field; pose proof (dg_pos c); lra).
    apply sumn_ext. intros k Hk. rewrite VVt_ent by assumption. f_equal.
Qed.
End V.
(* the nodes in reverse order *)
Lemma fitsVrev V : (forall i c, (i < 4)%nat -> (c < 4)%nat -> ment V i c = qb gwit 1 c (nth i [1; 1; -1; -1] 0) (nth i [1; -1; 1; -1] 0)) -> fits V (nth 3 known (mzero E 0 0)) = true.
Proof.
  intro HV. assert (V_ent : forall i c, (i < 4)%nat -> (c < 4)%nat -> ment V i c = had (3 - i) c * dg c).
  { intros i c Hi Hc. rewrite HV, qb1 by assumption. unfold had. destruct i as [|[|[|[|]]]]; [| | | |lia]; reflexivity. }
  apply fits_ok. intros i j Hi Hj. cbn [known nth ment]. split.
  - rewrite (sumn_ext 4 _ (fun k => / 4 * (had (3 - i) k * had (3 - j) k))) by (intros k Hk; rewrite V_ent by assumption; field; pose proof (dg_pos k); lra).
    rewrite sumn_scal, had_orth' by lia. replace (delta (3 - i) (3 - j)) with (delta i j); [lra|]. unfold delta. destruct (Nat.eqb_spec i j), (Nat.eqb_spec (3 - i) (3 - j)); lia || reflexivity.
  - rewrite (sumn_ext 4 _ (fun k => dg j / (4 * dg i) * (had (3 - k) i * had (3 - k) j))) by (intros k Hk; rewrite V_ent by assumption; field; pose proof (dg_pos i); lra).
    rewrite sumn_scal. replace (sumn 4 (fun k => had (3 - k) i * had (3 - k) j)) with (sumn 4 (fun k => had k i * had k j)) by (unfold sumn; cbn -[had]; ring).
    rewrite had_orth by assumption. unfold delta. destruct (Nat.eqb_spec i j) as [->|]; [field; pose proof (dg_pos j); lra|ring].
Qed.
(* the nodes numbered the other way round: r first *)
Lemma fitsVswap V : (forall i c, (i < 4)%nat -> (c < 4)%nat -> ment V i c = qb gwit 1 c (nth i [-1; 1; -1; 1] 0) (nth i [-1; -1; 1; 1] 0)) -> fits V (nth 4 known (mzero E 0 0)) = true.
Proof.
  intro HV. set (w := fun i => nth i [0; 2; 1; 3]%nat 0%nat). assert (V_ent : forall i c, (i < 4)%nat -> (c < 4)%nat -> ment V i c = had (w i) c * dg c).
  { intros i c Hi Hc. rewrite HV, qb1 by assumption. unfold had. destruct i as [|[|[|[|]]]]; [| | | |lia]; reflexivity. }
  assert (Hw : forall i j, (i < 4)%nat -> (j < 4)%nat -> (w i < 4)%nat /\ delta (w i) (w j) = delta i j) by (intros i j Hi Hj; destruct i as [|[|[|[|]]]], j as [|[|[|[|]]]]; try lia; split; unfold w; cbn; lia || reflexivity).
  apply fits_ok. intros i j Hi Hj. change (nth 4 known (mzero E 0 0)) with (mkmat 4 4 (fun c i => had (w i) c / (4 * dg c))). cbn [ment]. split.
  - rewrite (sumn_ext 4 _ (fun k => / 4 * (had (w i) k * had (w j) k))) by (intros k Hk; rewrite V_ent by assumption; field; pose proof (dg_pos k); lra).
    rewrite sumn_scal, had_orth' by (apply (Hw _ 0%nat); lia). rewrite (proj2 (Hw i j Hi Hj)). lra.
  - rewrite (sumn_ext 4 _ (fun k => dg j / (4 * dg i) * (had (w k) i * had (w k) j))) by (intros k Hk; rewrite V_ent by assumption; field; pose proof (dg_pos i); lra).
    rewrite sumn_scal. replace (sumn 4 (fun k => had (w k) i * had (w k) j)) with (sumn 4 (fun k => had k i * had k j)) by (unfold sumn, w; cbn -[had]; ring).
    rewrite had_orth by assumption. unfold delta. destruct (Nat.eqb_spec i j) as [->|]; [field; pose proof (dg_pos j); lra|ring].
Qed.
Lemma inverse4_2 A X : mrows A = 2%nat -> inverse4 A X = cramer_inv A X.
Proof. intro H. unfold inverse4. rewrite H. reflexivity. Qed.
Lemma edgeMass4_runs a b : a <> b -> exists M, edgeMass E inverse4 junk0 2 [a; b] = Ok M /\ shape M 2 2.
Proof.
  intro H. destruct (edgeMass_runs a b H) as (M & EM & SM). exists M. split; [|exact SM]. rewrite <- EM. unfold edgeMass. rewrite inverse4_2 by reflexivity.
  destruct (cramer_inv _ _); cbn [bind]; [|reflexivity|reflexivity]. rewrite inverse4_2 by reflexivity. reflexivity.
Qed.
Lemma putEdge4_runs f mask (M Em : mat R) : (f < 4)%nat -> shape M 2 2 -> shape Em 4 8 -> length mask = 2%nat -> (forall m, In m mask -> (m < 4)%nat) -> exists Em', putEdge 2 f mask M Em = Ok Em' /\ shape Em' 4 8.
Proof.
  intros Hf (M1 & M2) SE Lm Hm. unfold putEdge.
  match goal with |- context [for_ 2 ?body Em] => destruct (for_inv (fun _ Em => shape Em 4 8) 2 body Em SE) as (Em' & -> & HE) end; [|eauto].
  intros i Em1 Hi SE1. 
  match goal with |- context [for_ 2 ?body Em1] => destruct (for_inv (fun _ Em => shape Em 4 8) 2 body Em1 SE1) as (Em' & -> & HE) end; [|eauto].
  intros j Em2 Hj (E1 & E2). rewrite (TriFaceProofs.getn_ok mask i 0%nat) by lia. cbn [bind]. rewrite mget_ok by lia. cbn [bind]. pose proof (Hm (nth i mask 0%nat) ltac:(apply nth_In; lia)).
  unfold mset. rewrite inb_true by lia. eexists. split; [reflexivity|]. split; assumption.
Qed.
Local Notation ms := [[0%nat; 2%nat]; [2%nat; 3%nat]; [1%nat; 3%nat]; [0%nat; 1%nat]].
Lemma qnodes_run : quadNodes E junk0 0 eig0 (1 / 10) 1 = Ok (rq, sq, ms).
Proof.
  unfold quadNodes. change (fofn E 0) with 0. rewrite gll1. cbn [for_ for_from getn nth_error bind setn map seq upd Nat.mul Nat.add length Nat.ltb Nat.leb].
  assert (Hz : forall v, v = 0 -> flt E (fabs E v) (1 / 10) = true) by (intros v ->; cbn [exact flt fabs]; rewrite Rabs_R0; unfold Rltb; destruct (Rlt_dec 0 (1/10)); [reflexivity|lra]).
  assert (Hb : forall v, 1 < v \/ v < -1 -> flt E (fabs E v) (1 / 10) = false).
  { intros v Hv. cbn [exact flt fabs]. unfold Rltb. destruct (Rlt_dec (Rabs v) (1/10)) as [H|]; [|reflexivity]. apply Rabs_def2 in H. lra. }
  rewrite !fofn_INR. cbn [exact fadd fsub]. change (INR 1) with 1.
  unfold faceMask. cbn [length for_ for_from getn nth_error bind repeat].
  rewrite (Hz (-1 + 1)), (Hz (1 - 1)), (Hb (1 + 1)), (Hb (-1 - 1)) by lra. reflexivity.
Qed.
Lemma qlift_runs : exists V Vi L, quadLift E inverse4 junk0 1 rq sq ms = Ok (V, Vi, L) /\ shape V 4 4 /\ shape Vi 4 4.
Proof.
  unfold quadLift. cbn [length getn nth_error bind].
  assert (g1 : gather rq [0%nat; 2%nat] = Ok [-1; 1]) by reflexivity. assert (g2 : gather sq [2%nat; 3%nat] = Ok [-1; 1]) by reflexivity. assert (g3 : gather rq [1%nat; 3%nat] = Ok [-1; 1]) by reflexivity. assert (g4 : gather sq [0%nat; 1%nat] = Ok [-1; 1]) by reflexivity.
  rewrite g1, g2, g3, g4. cbn [bind]. destruct (edgeMass4_runs (-1) 1 ltac:(lra)) as (M1 & -> & S1). cbn [bind].
  change (2 * 2)%nat with 4%nat. change (4 * 2)%nat with 8%nat.
  destruct (putEdge4_runs 0 [0%nat; 2%nat] M1 (mzero E 4 8)) as (E1 & -> & SE1); [lia|exact S1|split; reflexivity|reflexivity|intros m [<-|[<-|[]]]; lia|]. cbn [bind].
  destruct (putEdge4_runs 1 [2%nat; 3%nat] M1 E1) as (E2 & -> & SE2); [lia|exact S1|exact SE1|reflexivity|intros m [<-|[<-|[]]]; lia|]. cbn [bind].
  destruct (putEdge4_runs 2 [1%nat; 3%nat] M1 E2) as (E3 & -> & SE3); [lia|exact S1|exact SE2|reflexivity|intros m [<-|[<-|[]]]; lia|]. cbn [bind].
  destruct (putEdge4_runs 3 [0%nat; 1%nat] M1 E3) as (E4 & -> & SE4); [lia|exact S1|exact SE3|reflexivity|intros m [<-|[<-|[]]]; lia|]. cbn [bind].
  unfold quadVandermonde. cbn [length Nat.eqb negb].
  destruct (qvander_fill gwit gwit_ok 1 rq sq eq_refl (mzero E 4 4) eq_refl eq_refl) as (V & -> & SV & HV). cbn [bind].
  destruct (runs4 V (nth 0 known (mzero E 0 0)) (proj1 SV) ltac:(left; reflexivity) (fitsV V HV)) as (_ & RI). destruct (RI (mkmat 4 4 junk0)) as (Vi & -> & SVi). cbn [bind]. do 3 eexists. split; [reflexivity|]. auto.
Qed.
Definition qVert : list R := [0; 0; 0;  1; 0; 0;  2; 0; 0;  0; 1; 0;  1; 3 / 2; 0;  2; 1; 0].
Definition qEToV : list nat := [0; 1; 4; 3;  1; 2; 5; 4]%nat.
Lemma qmesh_w : qmesh_ok 2 qVert qEToV.
Proof. split; [reflexivity|]. intros v Hv. cbn in Hv. repeat (destruct Hv as [<-|Hv]; [cbn; lia|]). destruct Hv. Qed.
Lemma quad_witness_on Vert EToV : qmesh_ok 2 Vert EToV -> exists el, qbuilt gwit solve4 inverse4 junk0 0 eig0 (1 / 10) 1 2 Vert EToV el.
Proof.
  intro HW.
  assert (HB : exists el, buildQuad E solve4 inverse4 junk0 0 eig0 (1 / 10) 1 2 Vert EToV = Ok el).
  { unfold buildQuad. rewrite qnodes_run. cbn [bind]. destruct qlift_runs as (V0 & Vi0 & L & -> & SV0 & SVi0). cbn [bind].
    unfold quadVandermonde. cbn [length Nat.eqb negb].
    destruct (qvander_fill gwit gwit_ok 1 rq sq eq_refl V0 (proj1 SV0) (proj2 SV0)) as (V & -> & SV & HV). cbn [bind].
    destruct (runs4 V (nth 0 known (mzero E 0 0)) (proj1 SV) ltac:(left; reflexivity) (fitsV V HV)) as (_ & RI). destruct (RI Vi0) as (Vi & -> & SVi). cbn [bind].
    destruct (qgvander_ok gwit gwit_ok 1 rq sq eq_refl (mkmat 4 4 junk0) (mkmat 4 4 junk0)) as (Vr & Vs & EVrs & SVr & SVs & HVrs); try (split; reflexivity). change (2 * 2)%nat with 4%nat. rewrite EVrs. cbn [bind].
    destruct (qdiffmats_ok gwit gwit_ok solve4 junk0 solve4_ok 1 rq sq eq_refl V Vr Vs SV SVr SVs HV) as [HT | (Dr & Ds & Drw & Dsw & -> & S1 & S2 & S3 & S4 & M1 & M2 & W1 & W2)].
    - intros i c Hi Hc. apply HVrs; assumption.
    - intros i c Hi Hc. apply HVrs; assumption.
    - exfalso. revert HT. unfold quadDifferentiation.
      destruct (runs4 (mtrans V) (nth 1 known (mzero E 0 0)) (proj2 SV) ltac:(right; left; reflexivity) (fitsVt V HV)) as (RS & _).
      destruct (runs4 (mtrans (mmul E V (mtrans V))) (nth 2 known (mzero E 0 0))) as (RW & _); [cbn [mtrans mmul mrows mcols]; apply SV|right; right; left; reflexivity|exact (fitsVVt V SV HV)|].
      match goal with |- bind (solve4 _ ?B ?X) _ = _ -> _ => destruct (RS B X) as (Y1 & ->) end. cbn [bind].
      match goal with |- bind (solve4 _ ?B ?X) _ = _ -> _ => destruct (RS B X) as (Y2 & ->) end. cbn [bind].
      match goal with |- bind (solve4 _ ?B ?X) _ = _ -> _ => destruct (RW B X) as (Y3 & ->) end. cbn [bind].
      match goal with |- bind (solve4 _ ?B ?X) _ = _ -> _ => destruct (RW B X) as (Y4 & ->) end. cbn [bind]. discriminate.
    - cbn [bind].
      destruct (quadGrid_ok gwit junk0 1 2 Vert EToV rq sq ltac:(lia) HW eq_refl) as (x & y & -> & Sx & Sy & Hxy). cbn [bind].
      destruct (quadNormals_ok gwit 1 2 Vert EToV rq sq ltac:(lia) eq_refl Dr Ds x y S1 S2 M1 M2 Sx Sy Hxy 2 ms (mkmat (4 * 2) 2 junk0) (mkmat (4 * 2) 2 junk0) (mkmat (4 * 2) 2 junk0)) as (nx & ny & Fs & -> & _); try (split; reflexivity).
      { intros f Hf. destruct f as [|[|[|[|]]]]; [| | | |lia]; eexists; (split; [reflexivity|]); (split; [reflexivity|]); intros m [<-|[<-|[]]]; cbn; split; try lia; reflexivity. }
      cbn [bind]. eauto. }
  destruct HB as (el & HB). exists el. constructor; auto using gwit_ok, solve4_ok, inverse4_ok; try lra; try lia.
Qed.
Theorem quad_witness : exists el, qbuilt gwit solve4 inverse4 junk0 0 eig0 (1 / 10) 1 2 qVert qEToV el.
Proof. exact (quad_witness_on qVert qEToV qmesh_w). Qed.
Lemma quad_witness_convex : forall k, (k < 2)%nat -> convex_ccw (qcorner qVert qEToV k).
Proof.
  intros k Hk c Hc. destruct k as [|[|]]; [| |lia]; (destruct c as [|[|[|[|]]]]; [| | | |lia]); unfold corner_cross, cross, pminus, qcorner; cbn; lra.
Qed.
