(* QuadInterpProofs.v - computeInterpMatrix of quadrilaterals with the real dense inverter: it needs exactly Np points. *)
From Coq Require Import ZArith List Lia Bool Arith.
From Verif Require Import Base Loops Num BlitzModel BlitzProofs JacobiModel JacobiSpec JacobiProofs DenseModel TriModel QuadModel QuadBasisProofs TriLiftProofs TriOpProofs TriProofs.
Import ListNotations.
Local Open Scope nat_scope.

Lemma for_or_ub {S} (P : nat -> S -> Prop) n : forall lo body (s : S), P lo s ->
  (forall i s, lo <= i < lo + n -> P i s -> body i s = UB \/ exists s', body i s = Ok s' /\ P (Datatypes.S i) s') ->
  for_from lo n body s = UB \/ exists s', for_from lo n body s = Ok s' /\ P (lo + n) s'.
Proof.
  induction n as [|n IH]; intros lo body s H0 Hs; cbn [for_from]; [right; exists s; rewrite Nat.add_0_r; auto|].
  destruct (Hs lo s ltac:(lia) H0) as [-> | (s1 & -> & P1)]; [left; reflexivity|]. cbn [bind].
  destruct (IH (Datatypes.S lo) body s1 P1) as [-> | (s' & -> & P')]; [intros; apply Hs; auto; lia|left; reflexivity|right]. exists s'. split; [reflexivity|]. replace (lo + Datatypes.S n) with (Datatypes.S lo + n) by lia. exact P'.
Qed.

Lemma for_or_ub0 {S} (P : nat -> S -> Prop) n body (s : S) : P 0 s ->
  (forall i s, i < n -> P i s -> body i s = UB \/ exists s', body i s = Ok s' /\ P (Datatypes.S i) s') ->
  for_ n body s = UB \/ exists s', for_ n body s = Ok s' /\ P n s'.
Proof. intros H0 Hs. apply (for_or_ub P n 0 body s H0). intros i s' Hi. apply Hs. lia. Qed.

Lemma finite_choice {X} (d : X) n (Q : nat -> X -> Prop) : (forall c, c < n -> exists x, Q c x) -> exists f, forall c, c < n -> Q c (f c).
Proof.
  induction n as [|n IH]; intro H; [exists (fun _ => d); intros; lia|]. destruct IH as (f & Hf); [intros; apply H; lia|]. destruct (H n ltac:(lia)) as (x & Hx).
  exists (fun c => if c =? n then x else f c). intros c Hc. destruct (Nat.eqb_spec c n) as [->|]; [exact Hx|apply Hf; lia].
Qed.
(* Copying a matrix with more entries than the array has room for runs off the end of the array. *)
Lemma reshape_short {T} (m : mat T) byRows arr : length arr < mrows m * mcols m -> reshapeMatTo1D m byRows arr = UB.
Proof.
  intro HL.
  assert (Hn : forall n1 n2 (f : nat -> nat -> nat * nat), n1 * n2 = mrows m * mcols m ->
    for_ n1 (fun a => for_ n2 (fun b => put_next m (fst (f a b)) (snd (f a b)))) (arr, 0) = UB).
  { intros n1 n2 f Hp.
    destruct (for_or_ub0 (fun a (st : list T * nat) => length (fst st) = length arr /\ snd st = a * n2 /\ a * n2 <= length arr) n1
      (fun a => for_ n2 (fun b => put_next m (fst (f a b)) (snd (f a b)))) (arr, 0)) as [-> | ((ar & k) & _ & _ & _ & H)]; [cbn [fst snd]; repeat split; lia| |reflexivity|cbn in H; lia].
    intros a [ar k] Ha (L1 & L2 & L3). cbn [fst snd] in *.
    destruct (for_or_ub0 (fun b (st : list T * nat) => length (fst st) = length arr /\ snd st = a * n2 + b /\ a * n2 + b <= length arr) n2
      (fun b => put_next m (fst (f a b)) (snd (f a b))) (ar, k)) as [-> | ((ar' & k') & E & H1 & H2 & H3)]; [cbn [fst snd]; repeat split; lia| |left; reflexivity|right].
    - intros b [ar2 k2] Hb (M1 & M2 & M3). cbn [fst snd] in *. unfold put_next. unfold mget. destruct (inb _ _ _) eqn:Ei; cbn [bind]; [|left; reflexivity].
      unfold setn. destruct (Nat.ltb_spec k2 (length ar2)); cbn [bind]; [|left; reflexivity]. right. eexists. split; [reflexivity|]. cbn [fst snd]. rewrite upd_length. repeat split; lia.
    - exists (ar', k'). split; [exact E|]. cbn [fst snd] in *. repeat split; lia. }
  unfold reshapeMatTo1D. destruct byRows.
  - pose proof (Hn (mrows m) (mcols m) (fun i j => (i, j)) eq_refl) as X. cbn [fst snd] in X. rewrite X. reflexivity.
  - pose proof (Hn (mcols m) (mrows m) (fun j i => (i, j)) ltac:(lia)) as X. cbn [fst snd] in X. rewrite X. reflexivity.
Qed.

From Coq Require Import Reals Lra.
Section Count.
Variables (G : R -> R) (junk : nat -> nat -> R) (N : nat) (Vinv : mat R) (rout sout : list R)
  (dgetrf : nat -> list R -> list R * list Z * Z) (dgetri : nat -> list R -> list Z -> list R * Z).
Hypothesis HG : gamma_like G.
Hypothesis L : length rout = length sout.
Lemma interp_few : 0 < length rout < S N * S N -> quadInterp (exact G) (computeInverse 0%R dgetrf dgetri) junk N Vinv rout sout = UB.
Proof.
  intro H. unfold quadInterp, quadVandermonde. rewrite <- L, Nat.eqb_refl. cbn [negb].
  destruct (qvander_fill G HG N rout sout L (mkmat (length rout) (S N * S N) junk) eq_refl eq_refl) as (V & -> & (V1 & V2) & _). cbn [bind].
  unfold computeInverse. rewrite reshape_short; [reflexivity|]. rewrite repeat_length, V1, V2. nia.
Qed.
Lemma interp_many : (forall n a j, j < n -> (forall i, i < n -> nth_error a (j * n + i) = Some 0%R) -> snd (dgetrf n a) <> 0%Z) ->
  S N * S N < length rout -> quadInterp (exact G) (computeInverse 0%R dgetrf dgetri) junk N Vinv rout sout = Throw.
Proof.
  intros HF H. unfold quadInterp, quadVandermonde. rewrite <- L, Nat.eqb_refl. cbn [negb].
  destruct (qvander_fill G HG N rout sout L (mkmat (length rout) (S N * S N) junk) eq_refl eq_refl) as (V & -> & (V1 & V2) & _). cbn [bind].
  unfold computeInverse. rewrite V1. destruct (to1d_spec V false (repeat 0%R (length rout * length rout))) as (a & -> & La & _ & Ha); [rewrite repeat_length, V1, V2; nia|]. cbn [bind].
  specialize (HF (length rout) a (S N * S N) H). destruct (dgetrf (length rout) a) as [[lu ip] info] eqn:EF. cbn [snd] in HF.
  unfold check_info. destruct (Z.eqb_spec info 0) as [->|]; [|reflexivity]. exfalso. apply HF; [|reflexivity]. intros i Hi.
  rewrite Ha by (rewrite V1, V2; nia). apply nth_error_repeat. nia.
Qed.
End Count.
