(* TriNodesProofs.v - the warp-and-blend nodes of the triangle: edge nodes, corner nodes and face masks. *)
From Coq Require Import ZArith List Lia Bool Arith.
From Verif Require Import Base Loops Num BlitzModel JacobiModel JacobiSpec JacobiProofs JacobiOrthProofs JacobiQuadProofs JacobiExactProofs DenseSpec Nodes1DModel Nodes1DSpec Nodes1DExactProofs TriModel TriSpec TriBasisProofs TriProofs TriOpProofs TriLiftProofs TriFaceProofs.
From Coq Require Import Reals Lra.
Import ListNotations.
Local Open Scope R_scope.

Lemma equi_modes N : equi_pairs N = modes N.
Proof.
  unfold equi_pairs, modes.
  assert (H : forall l, (forall n, In n l -> (n <= N)%nat) -> flat_map (fun n => map (fun m => (n, m)) (seq 0 (S N - n))) l = flat_map (fun i => map (fun j => (i, j)) (seq 0 (S (N - i)))) l).
  { induction l as [|a l IH]; intro H; [reflexivity|]. cbn [flat_map]. rewrite IH by (intros; apply H; now right).
    replace (S N - a)%nat with (S (N - a)) by (pose proof (H a (or_introl eq_refl)); lia). reflexivity. }
  apply H. intros n Hn. apply in_seq in Hn. lia.
Qed.
Lemma cos2 : cos (2 * PI / 3) = - / 2.
Proof. replace (2 * PI / 3) with (2 * (PI / 3)) by field. rewrite cos_2PI3. field. Qed.
Lemma sin2 : sin (2 * PI / 3) = sqrt 3 / 2.
Proof. replace (2 * PI / 3) with (2 * (PI / 3)) by field. apply sin_2PI3. Qed.
Lemma cos4 : cos (4 * PI / 3) = - / 2.
Proof. replace (4 * PI / 3) with (PI / 3 + PI) by field. rewrite neg_cos, cos_PI3. field. Qed.
Lemma sin4 : sin (4 * PI / 3) = - (sqrt 3 / 2).
Proof. replace (4 * PI / 3) with (PI / 3 + PI) by field. rewrite neg_sin, sin_PI3. reflexivity. Qed.

Lemma map_nth' {S} (f : S -> R) l i d : (i < length l)%nat -> nth i (map f l) 0 = f (nth i l d).
Proof. intro H. rewrite nth_indep with (d' := f d) by (rewrite map_length; exact H). apply map_nth. Qed.
Lemma map_seq_nth (f : nat -> R) n i : (i < n)%nat -> nth i (map f (seq 0 n)) 0 = f i.
Proof. intro H. rewrite (map_nth' f _ i 0%nat) by (rewrite seq_length; exact H). rewrite seq_nth by exact H. reflexivity. Qed.
Lemma zip2_len (f : R -> R -> R) a b : length a = length b -> length (zip2 f a b) = length a.
Proof. intro H. unfold zip2. rewrite map_length, combine_length. lia. Qed.
Lemma zip2_nth (f : R -> R -> R) a b i : length a = length b -> (i < length a)%nat -> nth i (zip2 f a b) 0 = f (nth i a 0) (nth i b 0).
Proof. intros H Hi. unfold zip2. rewrite (nth_map_combine a b (fun p => f (fst p) (snd p)) i H Hi). reflexivity. Qed.

Definition req (N i : nat) : R := -1 + 2 * INR i / INR N.

Section Nodes.
Variable G : R -> R.
Hypothesis HG : gamma_like G.
Local Notation E := (exact G).
Local Notation P := (jac G 0 0).
Variable solve : mat R -> mat R -> mat R -> outcome (mat R).
Variable inverse : mat R -> mat R -> outcome (mat R).
Variable junk : nat -> nat -> R.
Hypothesis HS : solver_ok solve.
Hypothesis HI : inverter_ok inverse.
Variable eps : R.
Variable eig : nat -> (nat -> nat -> R) -> list R * (nat -> nat -> R).
Variable N : nat.
Hypothesis HN : (1 <= N)%nat.
Hypothesis HNmax : (Z.of_nat N <= 2147483647)%Z.
Local Notation g := (computeGaussLobottoPoints E eig eps 0 0 N).

Lemma INR_N : 0 < INR N. Proof. apply lt_0_INR. lia. Qed.
Lemma req_inside i : (0 < i < N)%nat -> Rabs (req N i) < 1 - 1 / 10000000000.
Proof.
  intro Hi. pose proof INR_N as HNp. assert (H1 : 1 <= INR i) by (change 1 with (INR 1); apply le_INR; lia).
  assert (H2 : INR i <= INR N - 1) by (replace 1 with (INR 1) by reflexivity; rewrite <- minus_INR by lia; apply le_INR; lia).
  assert (H3 : INR N <= 2147483647) by (rewrite INR_IZR_INZ; apply IZR_le; exact HNmax).
  assert (HL : / INR N >= / 2147483647) by (apply Rle_ge, Rinv_le_contravar; lra).
  assert (A : 2 * INR i / INR N >= 2 * / INR N).
  { apply Rle_ge. unfold Rdiv. rewrite Rmult_assoc. apply Rmult_le_compat_l; [lra|]. rewrite <- (Rmult_1_l (/ INR N)) at 1. apply Rmult_le_compat_r; [|lra]. left. apply Rinv_0_lt_compat. exact HNp. }
  assert (B : 2 * INR i / INR N <= 2 - 2 * / INR N).
  { replace (2 - 2 * / INR N) with (2 * (INR N - 1) / INR N) by (field; lra). unfold Rdiv. apply Rmult_le_compat_r; [left; apply Rinv_0_lt_compat; exact HNp|]. lra. }
  unfold req. apply Rabs_def1; lra.
Qed.
Lemma warp_ok r : computeWarpFactor E solve inverse junk eps eig N r = Throw \/
  exists w, computeWarpFactor E solve inverse junk eps eig N r = Ok w /\ length w = length r /\
    forall q i, (q < length r)%nat -> (0 < i < N)%nat -> nth q r 0 = req N i -> nth q w 0 * (1 - req N i * req N i) = nth i g 0 - req N i.
Proof.
  unfold computeWarpFactor.
  set (re := map (fun i => fadd E (fopp E (fofn E 1)) (fdiv E (fmul E (fofn E 2) (fofn E i)) (fsub E (fofn E (S N)) (fofn E 1)))) (seq 0 (S N))).
  assert (Lre : length re = S N) by (unfold re; rewrite map_length, seq_length; reflexivity).
  assert (Hre : forall i, (i < S N)%nat -> nth i re 0 = req N i).
  { intros i Hi. unfold re. rewrite map_seq_nth by exact Hi. rewrite !fofn_INR. cbn [exact fadd fopp fdiv fmul fsub]. unfold req. replace (INR 2) with 2 by (simpl; ring). replace (INR 1) with 1 by reflexivity.
    rewrite S_INR. replace (INR N + 1 - 1) with (INR N) by ring. reflexivity. }
  set (Veq := vandermonde1D E re (S N)).
  destruct (HI (S N) Veq (mkmat (S N) (S N) junk)) as [-> | (Y & -> & SY & HY)]; try (split; cbn [Veq vandermonde1D mat_cols mrows mcols]; congruence); [left; reflexivity|]. cbn [bind].
  set (Pm := mkmat (S N) (length r) _).
  destruct (HS (S N) (length r) (mtrans Veq) Pm (mkmat (S N) (length r) junk)) as [-> | (L & -> & (L1 & L2) & _ & HL)]; try (split; cbn [Veq Pm vandermonde1D mat_cols mtrans mrows mcols]; congruence); [left; reflexivity|]. cbn [bind].
  right. eexists. split; [reflexivity|]. split; [rewrite map_length, seq_length; reflexivity|]. intros q i Hq Hi Hr. rewrite map_seq_nth by exact Hq.
  assert (HV : forall a b, (a < S N)%nat -> ment Veq a b = P b (nth a re 0)) by (intros; apply (vander_ent G HG); lia).
  assert (HLq : forall k, (k < S N)%nat -> sumn (S N) (fun j => ment Veq j k * ment L j q) = ment Veq i k).
  { intros k Hk. specialize (HL k q). cbn [mtrans Pm mrows mcols ment] in HL. rewrite HV by lia. rewrite (Hre i) by lia. rewrite <- Hr. transitivity (ment Pm k q).
    - apply HL; [exact Hk|]. rewrite L2. exact Hq.
    - cbn [Pm ment]. change (fofn E 0) with 0. rewrite compute_ok by (auto; lra). apply (map_nth' _ _ _ 0). exact Hq. }
  assert (HLd : forall m, (m < S N)%nat -> ment L m q = delta i m).
  { intros m Hm. transitivity (sumn (S N) (fun k => ment Veq i k * ment Y k m)); [|destruct (HY i m ltac:(lia) Hm) as (H & _); exact H].
    rewrite (sumn_ext (S N) _ (fun k => sumn (S N) (fun j => ment L j q * ment Veq j k) * ment Y k m)).
    - rewrite sumn_assoc. rewrite (sumn_ext (S N) _ (fun j => ment L j q * delta j m)); [symmetry; apply (sumn_delta' (S N) m (fun j => ment L j q) Hm)|].
      intros j Hj. destruct (HY j m Hj Hm) as (H & _). unfold delta. rewrite <- H. reflexivity.
    - intros k Hk. rewrite <- HLq by exact Hk. f_equal. apply sumn_ext; intros; ring. }
  rewrite fsum_exact.
  assert (HW : sumn (S N) (fun j => fmul E (ment L j q) (fsub E (nth j (computeGaussLobottoPoints E eig eps (fofn E 0) (fofn E 0) N) (fofn E 0)) (nth j re (fofn E 0)))) = nth i g 0 - req N i).
  { change (fofn E 0) with 0. rewrite (sumn_ext (S N) _ (fun j => delta i j * (nth j g 0 - req N j))).
    - apply (sumn_delta (S N) i (fun j => nth j g 0 - req N j)). lia.
    - intros j Hj. rewrite HLd, Hre by exact Hj. reflexivity. }
  rewrite HW. change (fofn E 0) with 0. rewrite Hr. pose proof (req_inside i Hi) as Hin.
  replace (fofn E 1) with 1 by (rewrite fofn_INR; reflexivity). cbn [exact flt fabs fsub fdiv fofZ fmul fadd]. unfold Rltb. destruct (Rlt_dec (Rabs (req N i)) (1 - 1 / 10000000000)) as [_|]; [|contradiction].
  apply Rabs_def2 in Hin. assert (1 - req N i * req N i > 0) by nra. field. lra.
Qed.

(* ---- the nodes ---- *)
Local Notation n := (length (modes N)).
Lemma pair_le q : (q < n)%nat -> (fst (mode N q) + snd (mode N q) <= N)%nat.
Proof. apply mode_le. Qed.
Hypothesis Lg : length g = S N.
Hypothesis g0 : nth 0 g 0 = -1.
Hypothesis gN : nth N g 0 = 1.

Definition l1 (q : nat) : R := INR (fst (mode N q)) / INR N.
Definition l3 (q : nat) : R := INR (snd (mode N q)) / INR N.
Definition l2 (q : nat) : R := 1 - l1 q - l3 q.

(* blend times warp on the edge between two corners *)
Lemma edge_warp w rq i (la lb : R) : la + lb = 1 -> la - lb = req N i -> (i <= N)%nat -> rq = la - lb ->
  ((0 < i < N)%nat -> rq = req N i -> w * (1 - req N i * req N i) = nth i g 0 - req N i) -> 4 * la * lb * w = nth i g 0 - req N i.
Proof.
  intros Hs Hd Hi Hr Hw. pose proof INR_N as HNp. assert (Hla : la = (1 + req N i) / 2) by lra. assert (Hlb : lb = (1 - req N i) / 2) by lra. rewrite Hla, Hlb.
  destruct (Nat.eq_dec i 0) as [->|H0]; [rewrite g0; unfold req; replace (INR 0) with 0 by reflexivity; field; lra|].
  destruct (Nat.eq_dec i N) as [->|H1]; [rewrite gN; unfold req; field; lra|].
  rewrite <- Hw by (try lia; lra). field.
Qed.

Variables (tol : R).
Lemma equi_nodes : computeEquilateralNodes E solve inverse junk eps eig cos sin PI N = Throw \/
  exists x y, computeEquilateralNodes E solve inverse junk eps eig cos sin PI N = Ok (x, y) /\ length x = n /\ length y = n /\
    forall q, (q < n)%nat -> exists w1 w2 w3,
      nth q x 0 = - l2 q + l3 q + (w1 - / 2 * w2 - / 2 * w3) /\
      sqrt 3 * nth q y 0 = - l2 q - l3 q + 2 * l1 q + 3 / 2 * (w2 - w3) /\
      (l1 q = 0 -> w1 = nth (snd (mode N q)) g 0 - req N (snd (mode N q))) /\ (l1 q = 0 -> w2 = 0 /\ w3 = 0) /\
      (l2 q = 0 -> w2 = nth (fst (mode N q)) g 0 - req N (fst (mode N q))) /\ (l2 q = 0 -> w1 = 0 /\ w3 = 0) /\
      (l3 q = 0 -> w3 = nth (N - fst (mode N q)) g 0 - req N (N - fst (mode N q))) /\ (l3 q = 0 -> w1 = 0 /\ w2 = 0).
Proof.
  pose proof INR_N as HNp. unfold computeEquilateralNodes. destruct (Nat.eqb_spec N 0) as [|_]; [lia|]. rewrite !equi_modes.
  set (alpha := if (N <? 16)%nat then _ else _). clearbody alpha.
  set (L1 := map (fun '(n0, _) => fdiv E (fofn E n0) (fofn E N)) (modes N)). set (L3 := map (fun '(_, m) => fdiv E (fofn E m) (fofn E N)) (modes N)).
  set (L2 := zip2 (fun a b => fsub E (fsub E (fofn E 1) a) b) L1 L3).
  assert (Le1 : length L1 = n) by (unfold L1; apply map_length). assert (Le3 : length L3 = n) by (unfold L3; apply map_length). assert (Le2 : length L2 = n) by (unfold L2; rewrite zip2_len; congruence).
  assert (V1 : forall q, (q < n)%nat -> nth q L1 0 = l1 q).
  { intros q Hq. unfold L1. rewrite (map_nth' _ _ q (0%nat, 0%nat)) by exact Hq. fold (mode N q). unfold l1. destruct (mode N q). rewrite !fofn_INR. reflexivity. }
  assert (V3 : forall q, (q < n)%nat -> nth q L3 0 = l3 q).
  { intros q Hq. unfold L3. rewrite (map_nth' _ _ q (0%nat, 0%nat)) by exact Hq. fold (mode N q). unfold l3. destruct (mode N q). rewrite !fofn_INR. reflexivity. }
  assert (V2 : forall q, (q < n)%nat -> nth q L2 0 = l2 q).
  { intros q Hq. unfold L2. rewrite zip2_nth by lia. rewrite V1, V3, fofn_INR by exact Hq. reflexivity. }
  destruct (warp_ok (zip2 (fsub E) L3 L2)) as [-> | (w1 & -> & Lw1 & Hw1)]; [left; reflexivity|]. cbn [bind].
  destruct (warp_ok (zip2 (fsub E) L1 L3)) as [-> | (w2 & -> & Lw2 & Hw2)]; [left; reflexivity|]. cbn [bind].
  destruct (warp_ok (zip2 (fsub E) L2 L1)) as [-> | (w3 & -> & Lw3 & Hw3)]; [left; reflexivity|]. cbn [bind].
  right. do 2 eexists. split; [reflexivity|]. split; [rewrite !map_length, seq_length; reflexivity|]. split; [rewrite !map_length, seq_length; reflexivity|].
  intros q Hq. rewrite zip2_len in Lw1, Lw2, Lw3 by congruence. rewrite zip2_len in Hw1, Hw2, Hw3 by congruence.
  specialize (Hw1 q). specialize (Hw2 q). specialize (Hw3 q). rewrite zip2_nth in Hw1, Hw2, Hw3 by lia. rewrite V1, V2, V3 in * by exact Hq. cbn [exact fsub] in Hw1, Hw2, Hw3.
  rewrite !map_map. rewrite !map_seq_nth by exact Hq. change (fofn E 0) with 0. rewrite V1, V2, V3 by exact Hq.
  replace (fofn E 1) with 1 by (rewrite fofn_INR; reflexivity). replace (fofn E 2) with 2 by (rewrite fofn_INR; simpl; ring). replace (fofn E 3) with 3 by (rewrite fofn_INR; simpl; ring). replace (fofn E 4) with 4 by (rewrite fofn_INR; simpl; ring).
  cbn [exact fadd fsub fmul fdiv fopp fsqrt fst snd]. rewrite cos2, sin2, cos4, sin4.
  pose proof (sqrt_lt_R0 3 ltac:(lra)) as Hs3. pose proof (sqrt_sqrt 3 ltac:(lra)) as Hss.
  set (W1 := 4 * l2 q * l3 q * nth q w1 0 * (1 + alpha * alpha * l1 q * l1 q)). set (W2 := 4 * l1 q * l3 q * nth q w2 0 * (1 + alpha * alpha * l2 q * l2 q)). set (W3 := 4 * l1 q * l2 q * nth q w3 0 * (1 + alpha * alpha * l3 q * l3 q)).
  pose proof (pair_le q Hq) as Hle. set (a := fst (mode N q)) in *. set (b := snd (mode N q)) in *.
  exists W1, W2, W3. split; [ring|]. split.
  { transitivity ((- l2 q - l3 q + 2 * l1 q) + (sqrt 3 * sqrt 3) / 2 * (W2 - W3)); [field; lra|rewrite Hss; field]. }
  split; [|split; [|split; [|split; [|split]]]].
  - intro Z. unfold W1. rewrite Z. rewrite <- (edge_warp (nth q w1 0) (l3 q - l2 q) b (l3 q) (l2 q)).
    + ring.
    + unfold l2. rewrite Z. ring.
    + unfold l2. rewrite Z. unfold l3, req. fold b. field. lra.
    + lia.
    + reflexivity.
    + intros Hi Hr. apply Hw1; [lia|exact Hi|exact Hr].
  - intro Z. unfold W2, W3. rewrite Z. split; ring.
  - intro Z. unfold W2. rewrite Z. assert (Eb : l3 q = 1 - l1 q) by (unfold l2 in Z; lra). rewrite <- (edge_warp (nth q w2 0) (l1 q - l3 q) a (l1 q) (l3 q)).
    + ring.
    + lra.
    + rewrite Eb. unfold l1, req. fold a. field. lra.
    + lia.
    + reflexivity.
    + intros Hi Hr. apply Hw2; [lia|exact Hi|exact Hr].
  - intro Z. unfold W1, W3. rewrite Z. split; ring.
  - intro Z. unfold W3. rewrite Z. assert (Eb : l2 q = 1 - l1 q) by (unfold l2; lra). rewrite <- (edge_warp (nth q w3 0) (l2 q - l1 q) (N - a) (l2 q) (l1 q)).
    + ring.
    + lra.
    + rewrite Eb. unfold l1, req. fold a. rewrite minus_INR by lia. field. lra.
    + lia.
    + reflexivity.
    + intros Hi Hr. apply Hw3; [lia|exact Hi|exact Hr].
  - intro Z. unfold W1, W2. rewrite Z. split; ring.
Qed.

(* reference coordinates *)
Lemma xyTors1_E x y : xyTors1 E x y = (x - (sqrt 3 * y + 1) / 3, 2 * (sqrt 3 * y + 1) / 3 - 1).
Proof.
  unfold xyTors1. replace (fofn E 1) with 1 by (rewrite fofn_INR; reflexivity). replace (fofn E 2) with 2 by (rewrite fofn_INR; simpl; ring). replace (fofn E 3) with 3 by (rewrite fofn_INR; simpl; ring). replace (fofn E 6) with 6 by (rewrite fofn_INR; simpl; ring).
  cbn [exact fadd fsub fmul fdiv fopp fsqrt]. f_equal; field.
Qed.
Definition is_node (q : nat) (rq sq : R) : Prop :=
  let (i, j) := mode N q in
  (i = 0%nat -> sq = -1 /\ rq = nth j g 0) /\
  ((i + j)%nat = N -> rq = - nth i g 0 /\ sq = nth i g 0) /\
  (j = 0%nat -> rq = -1 /\ sq = - nth (N - i) g 0).
Lemma ref_nodes x y : length x = n -> length y = n ->
  (forall q, (q < n)%nat -> exists w1 w2 w3,
      nth q x 0 = - l2 q + l3 q + (w1 - / 2 * w2 - / 2 * w3) /\
      sqrt 3 * nth q y 0 = - l2 q - l3 q + 2 * l1 q + 3 / 2 * (w2 - w3) /\
      (l1 q = 0 -> w1 = nth (snd (mode N q)) g 0 - req N (snd (mode N q))) /\ (l1 q = 0 -> w2 = 0 /\ w3 = 0) /\
      (l2 q = 0 -> w2 = nth (fst (mode N q)) g 0 - req N (fst (mode N q))) /\ (l2 q = 0 -> w1 = 0 /\ w3 = 0) /\
      (l3 q = 0 -> w3 = nth (N - fst (mode N q)) g 0 - req N (N - fst (mode N q))) /\ (l3 q = 0 -> w1 = 0 /\ w2 = 0)) ->
  exists r s, xyTors E x y = (r, s) /\ length r = n /\ length s = n /\ forall q, (q < n)%nat -> is_node q (nth q r 0) (nth q s 0).
Proof.
  intros Lx Ly H. pose proof INR_N as HNp. unfold xyTors. do 2 eexists. split; [reflexivity|]. split; [rewrite zip2_len; congruence|]. split; [rewrite zip2_len; congruence|].
  intros q Hq. rewrite !zip2_nth by lia. rewrite xyTors1_E. cbn [fst snd]. destruct (H q Hq) as (w1 & w2 & w3 & Hx & Hy & A1 & A2 & B1 & B2 & C1 & C2). rewrite Hx, Hy. clear Hx Hy.
  unfold is_node. pose proof (pair_le q Hq) as Hle. unfold l2, l1, l3 in *. destruct (mode N q) as [a b]. cbn [fst snd] in *. split; [|split].
  - intros ->. replace (INR 0 / INR N) with 0 in * by (cbn [INR]; unfold Rdiv; ring). rewrite A1 by reflexivity. destruct (A2 eq_refl) as (-> & ->). unfold req. split; field; lra.
  - intro Hs. assert (Z : 1 - INR a / INR N - INR b / INR N = 0) by (rewrite <- Hs, plus_INR; field; rewrite <- plus_INR, Hs; lra).
    rewrite B1 by exact Z. destruct (B2 Z) as (-> & ->). rewrite Z. assert (Eb : INR b / INR N = 1 - INR a / INR N) by lra. rewrite Eb. unfold req. split; field; lra.
  - intros ->. replace (INR 0 / INR N) with 0 in * by (cbn [INR]; unfold Rdiv; ring). rewrite C1 by reflexivity. destruct (C2 eq_refl) as (-> & ->). unfold req. rewrite minus_INR by lia. split; field; lra.
Qed.

(* ---- face masks ---- *)
Definition near (tol : R) (test : list R) (i : nat) : bool := flt E (fabs E (nth i test 0)) tol.
Lemma faceMask_ok Nfp test mask : faceMask E tol Nfp test = Ok mask ->
  length mask = Nfp /\ let idx := filter (near tol test) (seq 0 (length test)) in
  (length idx <= Nfp)%nat /\ mask = idx ++ repeat 0%nat (Nfp - length idx).
Proof.
  unfold faceMask.
  assert (HL : forall k lo m c m' c', (lo + k = length test)%nat -> (c <= length m)%nat ->
    for_from lo k (fun i '(mask, count) => bind (getn test i) (fun t =>
     if flt E (fabs E t) tol then bind (setn mask count i) (fun m => Ok (m, S count)) else Ok (mask, count))) (m, c) = Ok (m', c') ->
    let idx := filter (near tol test) (seq lo k) in
    c' = (c + length idx)%nat /\ (c' <= length m)%nat /\ m' = firstn c m ++ idx ++ skipn c' m).
  { induction k as [|k IH]; intros lo m c m' c' Hk Hc; cbn [for_from seq filter].
    - intros [= <- <-]. cbn [length app]. rewrite firstn_skipn. split; [lia|]. split; [exact Hc|reflexivity].
    - rewrite (getn_ok test lo 0) by lia. cbn [bind]. fold (near tol test lo). destruct (near tol test lo) eqn:Et.
      + unfold setn. destruct (Nat.ltb_spec c (length m)) as [Hlt|]; [|discriminate]. cbn [bind]. intro H.
        apply IH in H; [|lia|rewrite upd_length; lia]. rewrite upd_length in H. destruct H as (H1 & H2 & H3). cbn [length]. split; [lia|]. split; [exact H2|].
        rewrite H3, firstn_upd_snoc by exact Hlt. rewrite <- app_assoc. cbn [app]. do 3 f_equal. assert (Hgt : (c < c')%nat) by lia. revert Hgt. clear. revert c c'. induction m as [|a m IH]; intros [|c] [|c'] H; try lia; cbn [upd skipn]; auto. apply IH. lia.
      + intro H. apply IH in H; [exact H|lia|exact Hc]. }
  unfold for_. destruct (for_from _ _ _ _) as [[m' c'] | |] eqn:EF; [|discriminate|discriminate]. cbn [bind fst]. intros [= <-].
  apply HL in EF; [|reflexivity|lia]. rewrite repeat_length in EF. destruct EF as (H1 & H2 & H3). cbn [firstn app] in H3. cbn zeta.
  set (idx := filter _ _) in *. rewrite H3, app_length, skipn_length, repeat_length. split; [lia|]. split; [lia|]. f_equal.
  cbn [plus] in H1. subst c'. clear. generalize (length idx). intro k. revert k. induction Nfp as [|a IH]; intros [|k]; cbn [repeat skipn Nat.sub]; auto.
Qed.
Definition on_edge (f q : nat) : Prop :=
  match f with O => fst (mode N q) = 0%nat | 1%nat => (fst (mode N q) + snd (mode N q))%nat = N | _ => snd (mode N q) = 0%nat end.
Definition edge_pair (f t : nat) : nat * nat := match f with O => (0, t)%nat | 1%nat => (t, N - t)%nat | _ => (t, 0)%nat end.
Lemma find_mode i j : (i + j <= N)%nat -> exists q, (q < n)%nat /\ mode N q = (i, j).
Proof. intro H. apply modes_in in H. destruct (In_nth _ _ (0%nat, 0%nat) H) as (q & Hq & Eq). exists q. split; assumption. Qed.
Lemma edge_list f k : (f < 3)%nat -> (k <= S N)%nat -> exists l, length l = k /\ NoDup l /\ forall q, In q l -> (q < n)%nat /\ exists t, (t < k)%nat /\ mode N q = edge_pair f t.
Proof.
  intros Hf. induction k as [|k IH]; intro Hk; [exists []; split; [reflexivity|]; split; [constructor|]; intros q []|].
  destruct IH as (l & Ll & Nl & Hl); [lia|]. destruct (find_mode (fst (edge_pair f k)) (snd (edge_pair f k))) as (q & Hq & Eq).
  { destruct f as [|[|[|]]]; cbn; lia. }
  rewrite <- surjective_pairing in Eq. exists (q :: l). cbn [length]. split; [lia|]. split.
  - constructor; [|exact Nl]. intro Hin. destruct (Hl q Hin) as (_ & t & Ht & Et). rewrite Eq in Et. destruct f as [|[|[|]]]; cbn [edge_pair] in Et; try lia; injection Et; lia.
  - intros q' [<-|Hin]; [split; [exact Hq|]; exists k; split; [lia|exact Eq]|]. destruct (Hl q' Hin) as (H1 & t & Ht & Et). split; [exact H1|]. exists t. split; [lia|exact Et].
Qed.
Lemma edge_pair_on f t q : (f < 3)%nat -> (t <= N)%nat -> mode N q = edge_pair f t -> on_edge f q.
Proof. intros Hf Ht Eq. unfold on_edge. rewrite Eq. destruct f as [|[|[|]]]; cbn; lia. Qed.
Lemma on_edge_pair f q : (f < 3)%nat -> (q < n)%nat -> on_edge f q -> exists t, (t <= N)%nat /\ mode N q = edge_pair f t.
Proof.
  intros Hf Hq. unfold on_edge, edge_pair. pose proof (pair_le q Hq). destruct (mode N q) as [i j]. cbn [fst snd] in *. intro H0.
  destruct f as [|[|[|]]]; try lia; [exists j|exists i|exists i]; (split; [lia|]); f_equal; lia.
Qed.
Lemma mask_nodes f test mask : (f < 3)%nat -> length test = n -> 0 < tol -> (forall q, (q < n)%nat -> on_edge f q -> nth q test 0 = 0) ->
  faceMask E tol (S N) test = Ok mask ->
  length mask = S N /\ (forall i, (i < N)%nat -> (nth i mask 0 < nth (S i) mask 0)%nat) /\ (forall q, In q mask <-> (q < n)%nat /\ on_edge f q) /\
  forall q, (q < n)%nat -> nth q test 0 = 0 -> on_edge f q.
Proof.
  intros Hf Lt Ht Hz HM. destruct (faceMask_ok _ _ _ HM) as (Lm & Li & Em). rewrite Lt in *. set (idx := filter _ _) in *.
  destruct (edge_list f (S N) Hf (Nat.le_refl _)) as (l & Ll & Nl & Hl).
  assert (Nn : near tol test = near tol test) by reflexivity.
  assert (HZ : forall q, nth q test 0 = 0 -> near tol test q = true).
  { intros q Hq. unfold near. rewrite Hq. cbn [exact flt fabs]. rewrite Rabs_R0. unfold Rltb. destruct (Rlt_dec 0 tol); [reflexivity|contradiction]. }
  assert (Hinc : incl l idx).
  { intros q Hq. destruct (Hl q Hq) as (Hq1 & t & Ht1 & Et). apply filter_In. split; [apply in_seq; lia|]. apply HZ. apply Hz; [exact Hq1|]. apply (edge_pair_on f t); [exact Hf|lia|exact Et]. }
  assert (Hinc' : incl idx l) by (apply NoDup_length_incl; [exact Nl|lia|exact Hinc]).
  pose proof (NoDup_incl_length Nl Hinc) as Hle. assert (Lidx : length idx = S N) by lia. rewrite Lidx, Nat.sub_diag in Em. cbn [repeat] in Em. rewrite app_nil_r in Em. subst mask.
  split; [exact Lm|]. split.
  - assert (Hsort : forall lo k i, (S i < length (filter (near tol test) (seq lo k)))%nat -> (nth i (filter (near tol test) (seq lo k)) 0 < nth (S i) (filter (near tol test) (seq lo k)) 0)%nat).
    { intros lo k. revert lo. induction k as [|k IH]; intros lo i; cbn [seq filter]; [cbn; lia|]. destruct (near tol test lo); [|apply IH].
      destruct i as [|i]; cbn [length nth]; intro Hi.
      - assert (Hin : In (nth 0 (filter (near tol test) (seq (S lo) k)) 0%nat) (filter (near tol test) (seq (S lo) k))) by (apply nth_In; lia).
        apply filter_In in Hin. destruct Hin as (Hin & _). apply in_seq in Hin. lia.
      - apply IH. lia. }
    intros i Hi. apply Hsort. fold idx. lia.
  - assert (Hon : forall q, In q idx -> (q < n)%nat /\ on_edge f q).
    { intros q Hq. destruct (Hl q (Hinc' q Hq)) as (Hq1 & t & Ht1 & Et). split; [exact Hq1|]. apply (edge_pair_on f t); [exact Hf|lia|exact Et]. }
    split.
    + intro q. split; [apply Hon|]. intros (Hq & Ho). apply filter_In. split; [apply in_seq; lia|]. apply HZ, Hz; assumption.
    + intros q Hq Hq0. apply Hon. apply filter_In. split; [apply in_seq; lia|]. apply HZ, Hq0.
Qed.

Definition masks_ok (ms : list (list nat)) : Prop :=
  exists m1 m2 m3, ms = [m1; m2; m3] /\
    forall f mask, (f < 3)%nat -> nth_error ms f = Some mask ->
      length mask = S N /\ (forall i, (i < N)%nat -> (nth i mask 0 < nth (S i) mask 0)%nat) /\ forall q, In q mask <-> (q < n)%nat /\ on_edge f q.
Lemma nodes2D_ok r s ms : 0 < tol -> buildNodes2D E solve inverse junk eps eig cos sin PI tol N = Ok (r, s, ms) ->
  length r = n /\ length s = n /\ (forall q, (q < n)%nat -> is_node q (nth q r 0) (nth q s 0)) /\ masks_ok ms /\
  forall f q, (f < 3)%nat -> (q < n)%nat -> (nth q r 0, nth q s 0) = edge f (edge_coord f (nth q r 0) (nth q s 0)) -> on_edge f q.
Proof.
  intros Ht. unfold buildNodes2D. destruct equi_nodes as [-> | (x & y & -> & Lx & Ly & Hq)]; [discriminate|]. cbn [bind].
  destruct (ref_nodes x y Lx Ly Hq) as (r0 & s0 & -> & Lr & Ls & Hn). 
  destruct (faceMask E tol (S N) (map _ s0)) as [m1 | |] eqn:E1; [|discriminate|discriminate]. cbn [bind].
  destruct (faceMask E tol (S N) (zip2 _ r0 s0)) as [m2 | |] eqn:E2; [|discriminate|discriminate]. cbn [bind].
  destruct (faceMask E tol (S N) (map _ r0)) as [m3 | |] eqn:E3; [|discriminate|discriminate]. cbn [bind]. intros [= <- <- <-].
  split; [exact Lr|]. split; [exact Ls|]. split; [exact Hn|].
  assert (One : fofn E 1 = 1) by (rewrite fofn_INR; reflexivity).
  destruct (fun HL H => mask_nodes 0 _ m1 ltac:(lia) HL Ht H E1) as (A1 & A2 & A3 & A4).
  { rewrite map_length; exact Ls. }
  { intros q Hq' Ho. rewrite (map_nth' _ _ q 0) by lia. rewrite One. specialize (Hn q Hq'). unfold is_node, on_edge in *. destruct (mode N q) as [i j]. cbn [fst snd] in Ho. destruct Hn as (Hn & _). destruct (Hn Ho) as (-> & _). cbn [exact fadd]. ring. }
  destruct (fun HL H => mask_nodes 1 _ m2 ltac:(lia) HL Ht H E2) as (B1 & B2 & B3 & B4).
  { rewrite zip2_len; congruence. }
  { intros q Hq' Ho. rewrite zip2_nth by lia. specialize (Hn q Hq'). unfold is_node, on_edge in *. destruct (mode N q) as [i j]. cbn [fst snd] in Ho. destruct Hn as (_ & Hn & _). destruct (Hn Ho) as (-> & ->). cbn [exact fadd]. ring. }
  destruct (fun HL H => mask_nodes 2 _ m3 ltac:(lia) HL Ht H E3) as (C1 & C2 & C3 & C4).
  { rewrite map_length; exact Lr. }
  { intros q Hq' Ho. rewrite (map_nth' _ _ q 0) by lia. rewrite One. specialize (Hn q Hq'). unfold is_node, on_edge in *. destruct (mode N q) as [i j]. cbn [fst snd] in Ho. destruct Hn as (_ & _ & Hn). destruct (Hn Ho) as (-> & _). cbn [exact fadd]. ring. }
  split.
  - exists m1, m2, m3. split; [reflexivity|]. intros f mask Hf Em. destruct f as [|[|[|]]]; cbn [nth_error] in Em; [injection Em as <-|injection Em as <-|injection Em as <-|lia]; auto.
  - intros f q Hf Hq'. destruct f as [|[|[|]]]; cbn [edge edge_coord]; [| | |lia]; intros [= He].
    + apply A4; [exact Hq'|]. rewrite (map_nth' _ _ q 0) by lia. rewrite One, He. cbn [exact fadd]. ring.
    + apply B4; [exact Hq'|]. rewrite zip2_nth by lia. rewrite He. cbn [exact fadd]. ring.
    + apply C4; [exact Hq'|]. rewrite (map_nth' _ _ q 0) by lia. rewrite One, He. cbn [exact fadd]. ring.
Qed.
(* the masks fit the lift's expectations *)
Lemma nodes_edge_mask r s ms f mask : length r = n -> length s = n -> (forall q, (q < n)%nat -> is_node q (nth q r 0) (nth q s 0)) -> masks_ok ms ->
  (f < 3)%nat -> nth_error ms f = Some mask -> edge_mask N r s f mask.
Proof.
  intros Lr Ls Hn (m1 & m2 & m3 & -> & HM) Hf Em. destruct (HM f mask Hf Em) as (L & _ & Hi). split; [exact L|]. intros m Hm. apply Hi in Hm. destruct Hm as (Hm & Ho). split; [lia|].
  specialize (Hn m Hm). unfold is_node, on_edge in *. destruct (mode N m) as [i j]. cbn [fst snd] in Ho. destruct Hn as (A1 & A2 & A3). destruct f as [|[|[|]]]; cbn [edge edge_coord]; [| | |lia].
  - destruct (A1 Ho) as (-> & _). reflexivity.
  - destruct (A2 Ho) as (-> & ->). f_equal. ring.
  - destruct (A3 Ho) as (-> & _). reflexivity.
Qed.

(* ---- an invertible Vandermonde matrix has no node but the corner on the line s = 1 ---- *)
Definition fixr (r s : R) : R := if Req_EM_T s 1 then -1 else r.
Lemma rsToab_fix r s : rsToab1 E (fixr r s) s = rsToab1 E r s.
Proof. unfold fixr, rsToab1. rewrite !fofn_INR. cbn [exact feq]. unfold Reqb. change (INR 1) with 1. destruct (Req_EM_T s 1); reflexivity. Qed.
Lemma vander_fix r s V : length r = length s -> computeVandermonde2D E pow N (zip2 fixr r s) s V = computeVandermonde2D E pow N r s V.
Proof.
  intro L. unfold computeVandermonde2D. rewrite zip2_len by exact L. unfold rsToab.
  replace (zip2 (rsToab1 E) (zip2 fixr r s) s) with (zip2 (rsToab1 E) r s); [reflexivity|].
  clear V. revert s L. induction r as [|a r IH]; intros [|b s] L; try discriminate; [reflexivity|]. unfold zip2 in *. cbn [combine map fst snd]. f_equal; [symmetry; apply rsToab_fix|]. apply IH. now injection L.
Qed.
Lemma fix_pts r s : length r = length s -> pts_ok (zip2 fixr r s) s.
Proof.
  intro L. split; [rewrite zip2_len; exact L|]. revert s L. induction r as [|a r IH]; intros [|b s] L; try discriminate; [intros p []|]. unfold zip2 in *. cbn [combine map fst snd].
  intros p [<-|Hp]; [|apply (IH s); [now injection L|exact Hp]]. cbn [fst snd]. unfold in_domain, fixr. destruct (Req_EM_T b 1); auto.
Qed.
Lemma invertible_pts r s V V' Y : length r = n -> length s = n -> (forall q, (q < n)%nat -> is_node q (nth q r 0) (nth q s 0)) ->
  shape V n n -> computeVandermonde2D E pow N r s V = Ok V' ->
  (forall i j, (i < n)%nat -> (j < n)%nat -> sumn n (fun k => ment V' i k * ment Y k j) = (if Nat.eqb i j then 1 else 0)) -> pts_ok r s.
Proof.
  intros Lr Ls Hn (V1 & V2) EV HY. assert (L : length r = length s) by congruence.
  destruct (vander2D_ok G HG N (zip2 fixr r s) s V (fix_pts r s L)) as (V0 & EV0 & _ & HV & _); [rewrite zip2_len; congruence|lia|].
  rewrite vander_fix, EV in EV0 by exact L. injection EV0 as ->. rewrite zip2_len in HV by exact L.
  split; [exact L|]. intros p Hp. destruct (In_nth _ _ (0, 0) Hp) as (q & Hq & Eq). rewrite combine_length in Hq. rewrite combine_nth in Eq by exact L. subst p. cbn [fst snd]. unfold in_domain.
  destruct (Req_EM_T (nth q s 0) 1) as [Es|]; [|left; assumption]. right.
  destruct (find_mode N 0 ltac:(lia)) as (c & Hc & Ec). pose proof (Hn c Hc) as Nc. unfold is_node in Nc. rewrite Ec in Nc. destruct Nc as (_ & A2 & _). destruct (A2 ltac:(lia)) as (Rc & Sc). rewrite gN in Rc, Sc.
  destruct (Nat.eq_dec q c) as [->|Hne]; [exact Rc|]. exfalso.
  assert (Hrow : forall k, (k < n)%nat -> ment V0 q k = ment V0 c k).
  { intros k Hk. rewrite !HV by lia. rewrite !zip2_nth by lia. rewrite Es, Sc. unfold fixr. destruct (Req_EM_T 1 1); [reflexivity|congruence]. }
  pose proof (HY q c ltac:(lia) Hc) as H1. pose proof (HY c c Hc Hc) as H2. rewrite Nat.eqb_refl in H2. destruct (Nat.eqb_spec q c); [contradiction|].
  assert (Hz : 0 = 1); [|lra]. rewrite <- H1, <- H2. apply sumn_ext. intros k Hk. rewrite Hrow by exact Hk. reflexivity.
Qed.
Lemma lift_pts r s ms X : length r = n -> length s = n -> (forall q, (q < n)%nat -> is_node q (nth q r 0) (nth q s 0)) ->
  buildLift2D E pow inverse junk N r s ms = Ok X -> pts_ok r s.
Proof.
  intros Lr Ls Hn. unfold buildLift2D. rewrite Lr.
  repeat lazymatch goal with
  | |- bind (computeVandermonde2D _ _ _ _ _ _) _ = _ -> _ => fail
  | |- bind ?o _ = _ -> _ => destruct o; cbn [bind]; [|discriminate|discriminate]
  end.
  destruct (computeVandermonde2D E pow N r s (mzero E n n)) as [V | |] eqn:EV; cbn [bind]; [|discriminate|discriminate].
  assert (SV : shape V n n).
  { destruct (vander2D_ok G HG N (zip2 fixr r s) s (mzero E n n)) as (V0 & EV0 & SV & _ & _); [apply fix_pts; congruence|rewrite zip2_len; cbn [mzero mrows]; congruence|cbn [mzero mcols]; lia|].
    rewrite vander_fix, EV in EV0 by congruence. injection EV0 as ->. exact SV. }
  destruct (HI n V (mkmat n n junk) SV) as [-> | (Y & -> & SY & HY)]; [split; reflexivity|discriminate|]. cbn [bind]. intros _.
  apply (invertible_pts r s (mzero E n n) V Y Lr Ls Hn); [split; reflexivity|exact EV|]. intros i j Hi Hj. apply (HY i j Hi Hj).
Qed.
End Nodes.
