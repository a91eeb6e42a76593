(* Nodes1DTotalProps.v - C80: the 1D node tables can always be built. *)
From Coq Require Import ZArith List Lia Bool Arith.
From Verif Require Import Base Loops Num JacobiModel JacobiSpec JacobiProofs JacobiOrthProofs JacobiQuadProofs JacobiExactProofs
  DenseSpec DenseProps CscModel MeshModel Nodes1DModel Nodes1DSpec Nodes1DProofs Nodes1DExactProofs Nodes1DProps DblProofs GllProofs TriLiftProofs TriWitness Nodes1DTotalSpec Nodes1DTotalProofs.
From Coq Require Import Reals Lra SpecFloat.
Import ListNotations.
Local Open Scope R_scope.

(* With a dense solver and inverter that succeed on every non-singular matrix of order N+1, building the nodes of any
   order, any number of elements (within the int range of the connectivity table) and any interval never fails. *)
Theorem C80_nodes_always_built G N K a b eps tol solve inverse eig junk jk jp ji jx junkn :
  sound1D G N K eps tol solve inverse eig -> solves_regular (S (S N)) solve -> inverts_regular (S (S N)) inverse ->
  exists n, buildNodes1D (exact G) solve inverse eig eps junk tol (buildConnectivity1D jk jp ji jx) junkn (S N) K a b = Ok n.
Proof.
  intros HS Cs Ci. pose proof (sound_points G N K eps tol solve inverse eig HS) as (Lr & R0 & R1 & Inc). destruct HS as (HG & HK & HI & Ht & He & Hs & Hi & _).
  set (r := computeGaussLobottoPoints (exact G) eig eps (fofn (exact G) 0) (fofn (exact G) 0) (S N)) in *.
  assert (Nd : NoDup r).
  { apply (NoDup_nth r 0). rewrite Lr. assert (Mono : forall i j, (i < j)%nat -> (j < S (S N))%nat -> nth i r 0 < nth j r 0).
    { intros i j Hij. induction Hij as [|j Hij IH]; intro Hj; [apply Inc; lia|]. eapply Rlt_trans; [apply IH; lia|]. apply Inc. lia. }
    intros i j Hi0 Hj0 E. destruct (Nat.lt_trichotomy i j) as [H|[H|H]]; [|exact H|]; [pose proof (Mono i j H Hj0)|pose proof (Mono j i H Hi0)]; lra. }
  destruct (vander_invertible G HG (S N) r Lr Nd) as (B & HB).
  assert (Cl : forall u v, u = v -> flt (exact G) (fsqrt (exact G) (fmul (exact G) (fsub (exact G) u v) (fsub (exact G) u v))) tol = true).
  { intros u v ->. cbn [exact fsub fmul fsqrt flt]. replace ((v - v) * (v - v)) with 0 by ring. rewrite sqrt_0. unfold Rltb. destruct (Rlt_dec 0 tol); [reflexivity|lra]. }
  destruct (nodes_ok (exact G) solve inverse eig eps junk tol jk jp ji jx junkn N K a b HK HI Lr) as (Fx & nx & HF & _ & ->).
  - rewrite fofn_INR. cbn [exact fmul fopp]. change (INR 1) with 1. ring.
  - intros k Hk. fold r. cbv zeta. replace (S (S N) - 1)%nat with (S N) by lia.
    assert (Eq : ment (grid1D (exact G) a b K r) (S N) k = ment (grid1D (exact G) a b K r) 0%nat (S k)).
    { rewrite (grid_right G N K a b r HK Lr R1), (grid_left G N K a b r HK Lr R0). reflexivity. }
    split; apply Cl; congruence.
  - cbv zeta. split; apply Cl; reflexivity.
  - fold r. set (V := vandermonde1D (exact G) r (S (S N))) in *. assert (SV : shape V (S (S N)) (S (S N))) by (split; [exact Lr|reflexivity]).
    destruct (Hi (S (S N)) V (mkmat (S (S N)) (S (S N)) junk) SV ltac:(split; reflexivity)) as [E | (Vi & EVi & _)]; [exfalso; exact (Ci V (mkmat (S (S N)) (S (S N)) junk) SV ltac:(split; reflexivity) (ex_intro _ B HB) E)|]. rewrite EVi. cbn [bind].
    destruct (buildDr_ok G HG solve junk r (S (S N)) Hs Lr) as [ED | (D & ED & _)]; fold V in ED; rewrite ED; cbn [bind].
    + exfalso. unfold buildDr in ED. rewrite Lr in ED.
      assert (ST : shape (mtrans V) (S (S N)) (S (S N))) by (destruct SV; split; assumption).
      assert (SB : shape (mtrans (gradVandermonde1D (exact G) r)) (S (S N)) (S (S N))) by (split; cbn [mtrans mrows mcols gradVandermonde1D]; exact Lr).
      refine (Cs (S (S N)) (mtrans V) (mtrans (gradVandermonde1D (exact G) r)) (mkmat (S (S N)) (S (S N)) junk) ST SB ltac:(split; reflexivity) (ex_intro _ _ (trans_invertible _ _ _ SV HB)) _).
      destruct (solve (mtrans V) (mtrans (gradVandermonde1D (exact G) r)) (mkmat (S (S N)) (S (S N)) junk)); [discriminate ED|reflexivity|discriminate ED].
    + destruct (lift_ok G (S (S N)) V ltac:(lia) SV) as (L & EL & _). rewrite EL. cbn [bind]. eexists. reflexivity.
Qed.

(* Cramer's rule is such a solver for orders 1 and 2, so the hypotheses can be met. *)
Lemma cramer_regular n : n = 2%nat \/ n = 3%nat -> solves_regular n cramer /\ inverts_regular n cramer_inv.
Proof.
  intro Hn. assert (HD : forall A, shape A n n -> (exists C, inverse_of n A C) -> det_ok A = true).
  { intros A (Sr & _) (C & HC). destruct Hn as [-> | ->].
    - apply det2_ok; [exact Sr|]. intro Z. assert (X : det2 (ment A) * det2 C = 1).
      { pose proof (proj1 (HC 0 0 ltac:(lia) ltac:(lia))%nat) as H00. pose proof (proj1 (HC 0 1 ltac:(lia) ltac:(lia))%nat) as H01. pose proof (proj1 (HC 1 0 ltac:(lia) ltac:(lia))%nat) as H10. pose proof (proj1 (HC 1 1 ltac:(lia) ltac:(lia))%nat) as H11.
        unfold sumn in *. cbn [seq map fold_right Nat.eqb] in *. rewrite !Rplus_0_r in *. unfold det2.
        transitivity ((ment A 0%nat 0%nat * C 0%nat 0%nat + ment A 0%nat 1%nat * C 1%nat 0%nat) * (ment A 1%nat 0%nat * C 0%nat 1%nat + ment A 1%nat 1%nat * C 1%nat 1%nat) - (ment A 0%nat 0%nat * C 0%nat 1%nat + ment A 0%nat 1%nat * C 1%nat 1%nat) * (ment A 1%nat 0%nat * C 0%nat 0%nat + ment A 1%nat 1%nat * C 1%nat 0%nat)); [ring|]. rewrite H00, H01, H10, H11. ring. }
      rewrite Z in X. lra.
    - apply det3_ok; [exact Sr|]. intro Z. assert (X : det3 (ment A) * det3 C = 1).
      { rewrite det3_mul. unfold det3.
        assert (Q : forall i j, (i < 3)%nat -> (j < 3)%nat -> ment A i 0%nat * C 0%nat j + ment A i 1%nat * C 1%nat j + ment A i 2%nat * C 2%nat j = if Nat.eqb i j then 1 else 0).
        { intros i j Hi Hj. rewrite <- (proj1 (HC i j Hi Hj)). unfold sumn. cbn [seq map fold_right]. ring. }
        rewrite !Q by lia. cbn [Nat.eqb]. ring. }
      rewrite Z in X. lra. }
  split.
  - intros m A B X SA SB SX HI. destruct (cramer_runs A B X (HD A SA HI)) as (Y & ->). discriminate.
  - intros A X SA SX HI. unfold cramer_inv. destruct (cramer_runs A (mkmat (mrows A) (mrows A) idm) X (HD A SA HI)) as (Y & ->). discriminate.
Qed.
Lemma cramer_sound N K : (N <= 1)%nat -> (0 < K <= 1000)%nat -> sound1D gwit N K 0 (1 / 10) cramer cramer_inv eig0.
Proof.
  intros HN HK. split; [exact gwit_ok|]. split; [lia|]. split; [unfold INT_MAX; nia|]. split; [lra|]. split; [lra|]. split; [exact cramer_ok|]. split; [exact cramer_inv_ok|]. intros J Hf. lia.
Qed.
Example C80_witness : forall N a b, (N <= 1)%nat -> sound1D gwit N 3 0 (1 / 10) cramer cramer_inv eig0 /\ solves_regular (S (S N)) cramer /\ inverts_regular (S (S N)) cramer_inv /\
  exists n, buildNodes1D (exact gwit) cramer cramer_inv eig0 0 junk0 (1 / 10) (buildConnectivity1D (0%nat, d_one) (fun _ => 0%nat) (fun _ => 0%nat) (fun _ => d_one)) (fun _ => 7%nat) (S N) 3 a b = Ok n.
Proof.
  intros N a b HN. pose proof (cramer_sound N 3 HN ltac:(lia)) as HS. assert (Hn : S (S N) = 2%nat \/ S (S N) = 3%nat) by lia. destruct (cramer_regular _ Hn) as (A & B).
  split; [exact HS|]. split; [exact A|]. split; [exact B|]. apply C80_nodes_always_built; assumption.
Qed.
Print Assumptions C80_nodes_always_built.
