(* Nodes1DProps.v - the theorems about the one-dimensional nodes provisioner (C25, C26, C62, part of C42). *)
From Coq Require Import ZArith List Lia Bool Arith.
From Verif Require Import Base Loops Num BlitzModel BlitzProofs CscModel JacobiModel JacobiSpec JacobiProofs JacobiOrthProofs JacobiQuadProofs JacobiExactProofs JacobiProps
  DenseModel DenseSpec DenseProps MeshModel MeshProofs Nodes1DModel Nodes1DSpec Nodes1DProofs Nodes1DExactProofs DblProofs.
From Coq Require Import Reals Lra SpecFloat.
Import ListNotations.
Local Open Scope nat_scope.

(* What is left of the constructor once the parts that always succeed are evaluated. *)
Lemma nodes_ok {T} (A : arith T) solve inverse eig eps junk tol jk jp ji jx junkn N K a b :
  let Np := S (S N) in
  let r := computeGaussLobottoPoints A eig eps (fofn A 0) (fofn A 0) (S N) in
  let V := vandermonde1D A r Np in
  let x := grid1D A a b K r in
  0 < K -> (Z.of_nat (K + 1) * Z.of_nat (2 * K) <= INT_MAX)%Z -> length r = Np ->
  fmul A (fmul A (fopp A (fofn A 1)) (fopp A (fofn A 1))) (fopp A (fofn A 1)) = fopp A (fofn A 1) ->
  (forall k, S k < K -> let close u v := let dx := fsub A u v in flt A (fsqrt A (fmul A dx dx)) tol = true in
     close (ment x (Np - 1) k) (ment x 0 (S k)) /\ close (ment x 0 (S k)) (ment x (Np - 1) k)) ->
  (let close u v := let dx := fsub A u v in flt A (fsqrt A (fmul A dx dx)) tol = true in
     close (ment x 0 0) (ment x 0 0) /\ close (ment x (Np - 1) (K - 1)) (ment x (Np - 1) (K - 1))) ->
  exists Fx nx, (forall f k, f < 2 -> k < K -> ment Fx f k = ment x (if f =? 0 then 0 else Np - 1) k) /\
    (mrows nx = 2 /\ mcols nx = K /\
     forall k, k < K -> ment nx 0 k = fopp A (fofn A 1) /\ ment nx 1 k = fmul A (fopp A (fofn A 1)) (fopp A (fofn A 1))) /\
    buildNodes1D A solve inverse eig eps junk tol (buildConnectivity1D jk jp ji jx) junkn (S N) K a b =
    bind (inverse V (mkmat Np Np junk)) (fun Vinv =>
    bind (buildDr A solve junk r V) (fun Dr =>
    bind (buildLift1D A Np V) (fun Lift =>
    Ok (Nodes1d r V Vinv Dr Lift x (line K) (map (fun g => mate K g / 2) (seq 0 (2 * K))) (map (fun g => mate K g mod 2) (seq 0 (2 * K)))
      [0; Np - 1] Fx (map (endn Np) (seq 0 (2 * K))) (map (fun g => endn Np (mate K g)) (seq 0 (2 * K))) nx
      0 (2 * Z.of_nat K - 1) 0 (Z.of_nat Np * Z.of_nat K - 1))))).
Proof.
  intros Np r V x HK HI Lr Hm Hc Hb.
  destruct (faceCoords_ok junk Np K x) as (Fx & EF & _ & _ & HF); [unfold Np; lia|exact Lr|reflexivity|].
  destruct (normals_ok A junk K Hm) as (nx & EN & HN).
  exists Fx, nx. split; [exact HF|]. split; [exact HN|].
  unfold buildNodes1D. fold Np. fold r. fold V. fold x.
  destruct (inverse V (mkmat Np Np junk)) as [Vinv| |]; cbn [bind]; auto.
  destruct (buildDr A solve junk r V) as [Dr| |]; cbn [bind]; auto.
  destruct (buildLift1D A Np V) as [L| |]; cbn [bind]; auto.
  rewrite buildE2V1D_ok by (now rewrite !map_length, seq_length). cbn [bind].
  rewrite connectivity1D_ok by (auto; now rewrite map_length, seq_length). cbn [bind].
  rewrite EF. cbn [bind]. rewrite (maps_ok A tol Np K x _ _); auto; [|unfold Np; lia|].
  - cbn [bind]. rewrite EN. cbn [bind]. do 2 f_equal; try (unfold Np; lia).
  - intros g Hg fx dx. pose proof (touching_mate K g Hg) as [(k & Hk & [(E1 & E2) | (E1 & E2)]) | (E1 & [E2 | E2])].
    + specialize (Hc k Hk). cbv zeta in Hc. destruct Hc as (Hc & _).
      unfold dx, fx. rewrite E2, E1. replace (2 * k + 1) with (k * 2 + 1) by lia. replace (2 * S k) with (S k * 2 + 0) by lia.
      rewrite !div_flat, !mod_flat by lia. cbn [Nat.eqb]. exact Hc.
    + specialize (Hc k Hk). cbv zeta in Hc. destruct Hc as (_ & Hc).
      unfold dx, fx. rewrite E2, E1. replace (2 * k + 1) with (k * 2 + 1) by lia. replace (2 * S k) with (S k * 2 + 0) by lia.
      rewrite !div_flat, !mod_flat by lia. cbn [Nat.eqb]. exact Hc.
    + cbv zeta in Hb. destruct Hb as (Hb & _). unfold dx, fx. rewrite <- E1, E2. exact Hb.
    + cbv zeta in Hb. destruct Hb as (_ & Hb). unfold dx, fx. rewrite <- E1, E2. replace (2 * K - 1) with ((K - 1) * 2 + 1) by lia.
      rewrite div_flat, mod_flat by lia. exact Hb.
Qed.

Lemma lift_total {T} (A : arith T) N V : exists L, buildLift1D A (S (S N)) V = Ok L.
Proof.
  unfold buildLift1D. unfold mset at 1. rewrite inb_true by (cbn; lia). cbn [bind]. unfold mset. rewrite inb_true by (cbn; lia). cbn [bind]. eauto.
Qed.
Lemma map_nth_seq (h : nat -> nat) n i d : i < n -> nth i (map h (seq 0 n)) d = h i.
Proof. intros. rewrite nth_indep with (d' := h 0) by (rewrite map_length, seq_length; auto). rewrite map_nth, seq_nth by auto. reflexivity. Qed.

(* C25: which faces meet. For every number of elements whose face matrix does not overflow an int. *)
Theorem C25_connectivity jk jp ji jx K E2V0 E2E0 E2F0 : 0 < K -> (Z.of_nat (K + 1) * Z.of_nat (2 * K) <= INT_MAX)%Z ->
  length E2V0 = 2 * K -> length E2E0 = 2 * K -> length E2F0 = 2 * K ->
  exists E2V E2E E2F, buildE2V1D K E2V0 = Ok E2V /\
    buildConnectivity1D jk jp ji jx K E2V E2E0 E2F0 = Ok (E2E, E2F) /\
    length E2E = 2 * K /\ length E2F = 2 * K /\
    forall k f, k < K -> f < 2 ->
      let k' := nth (2 * k + f) E2E 0 in let f' := nth (2 * k + f) E2F 0 in
      k' < K /\ f' < 2 /\ touching K (2 * k + f) (2 * k' + f').
Proof.
  intros HK HI L1 L2 L3. exists (line K). do 2 eexists. split; [now apply buildE2V1D_ok|].
  split; [now apply connectivity1D_ok|]. rewrite !map_length, seq_length. split; auto. split; auto.
  intros k f Hk Hf k' f'. unfold k', f'. rewrite !map_nth_seq by nia. assert (Hg : 2 * k + f < 2 * K) by nia.
  pose proof (mate_lt K _ Hg). split; [apply Nat.div_lt_upper_bound; lia|]. split; [apply Nat.mod_upper_bound; lia|].
  rewrite <- Nat.div_mod by lia. now apply touching_mate.
Qed.
(* Beyond that size (and for no elements at all) the constructor has undefined behaviour. *)
Theorem C25_size_limit jk jp ji jx K E2V E2E0 E2F0 : K = 0 \/ (32768 <= Z.of_nat K)%Z ->
  buildConnectivity1D jk jp ji jx K E2V E2E0 E2F0 = UB.
Proof.
  intros [-> | HK].
  - reflexivity.
  - apply connectivity_overflow. unfold INT_MAX. nia.
Qed.

(* C25: the trace maps, computed with IEEE doubles. The hypothesis on the end points of the elements only
   excludes overflow and NaN. *)
Theorem C25_maps pow gam solve inverse eig eps junk tol jk jp ji jx junkn N K a b :
  let A := dbl_arith pow gam in let Np := N + 1 in
  1 <= N -> 0 < K -> (Z.of_nat (K + 1) * Z.of_nat (2 * K) <= INT_MAX)%Z ->
  (forall M B X, solve M B X <> UB) -> (forall M X, inverse M X <> UB) -> (forall n J, length (fst (eig n J)) = n) ->
  (forall k, k <= K -> sf_finite (fadd A a (fmul A (fdiv A (fsub A b a) (fofn A K)) (fofn A k))) = true) ->
  SFltb (S754_zero false) tol = true ->
  let result := buildNodes1D A solve inverse eig eps junk tol (buildConnectivity1D jk jp ji jx) junkn N K a b in
  result = Throw \/
  exists n, result = Ok n /\ length (n_vmapM n) = 2 * K /\ length (n_vmapP n) = 2 * K /\
    (forall k f, k < K -> f < 2 ->
       nth (2 * k + f) (n_vmapM n) 0 = end_node Np k f /\
       forall k' f', k' < K -> f' < 2 -> touching K (2 * k + f) (2 * k' + f') ->
         nth (2 * k + f) (n_vmapP n) 0 = end_node Np k' f') /\
    n_mapI n = 0%Z /\ n_mapO n = Z.of_nat (2 * K - 1) /\
    n_vmapI n = Z.of_nat (end_node Np 0 0) /\ n_vmapO n = Z.of_nat (end_node Np (K - 1) 1).
Proof.
  intros A Np HN HK HI Hs Hi He Hfin Htol result. destruct N as [|N]; [lia|]. replace Np with (S (S N)) in * by (unfold Np; lia). clear Np.
  set (r := computeGaussLobottoPoints A eig eps (fofn A 0) (fofn A 0) (S N)).
  assert (Hr : length r = S (S N) /\ nth 0 r (fofn A 0) = fopp A (fofn A 1) /\ nth (S N) r (fofn A 0) = fofn A 1).
  { unfold r. destruct N as [|N]; [cbn; auto|]. cbn [computeGaussLobottoPoints].
    assert (L : length (fst (computeJacobiQuadWeights A eig eps (fadd A (fofn A 0) (fofn A 1)) (fadd A (fofn A 0) (fofn A 1)) (S (S N) - 2))) = S N).
    { replace (S (S N) - 2) with N by lia. destruct N as [|N]; [reflexivity|]. cbn [computeJacobiQuadWeights].
      destruct (eig (S (S N)) _) as (xs & V) eqn:Ev. cbn [fst]. pose proof (He (S (S N)) (quad_matrix A eps (fadd A (fofn A 0) (fofn A 1)) (fadd A (fofn A 0) (fofn A 1)) (S N))) as Hl.
      rewrite Ev in Hl. exact Hl. }
    split; [cbn [length]; rewrite app_length, L; cbn; lia|]. split; [reflexivity|]. cbn [nth]. rewrite app_nth2 by lia. rewrite L, Nat.sub_diag. reflexivity. }
  destruct Hr as (Lr & R0 & R1).
  assert (KB : (Z.of_nat K <= 2 ^ 31)%Z) by (unfold INT_MAX in HI; nia).
  set (x := grid1D A a b K r). set (e := fun k => fadd A a (fmul A (fdiv A (fsub A b a) (fofn A K)) (fofn A k))) in *.
  assert (X0 : forall k, k < K -> ment x 0 k = e k).
  { intros k Hk. cbn [x grid1D ment]. rewrite R0. unfold e. do 2 f_equal. change (fofn A k) with (dofZ (Z.of_nat k)) at 2.
    replace (fmul A (fhalf A) (fadd A (fopp A (fofn A 1)) (fofn A 1))) with (dofZ 0) by (vm_compute; reflexivity).
    cbn [A dbl_arith fadd]. unfold fofn. cbn [fofZ]. rewrite dofZ_add by lia. f_equal. lia. }
  assert (X1 : forall k, k < K -> ment x (S (S N) - 1) k = e (S k)).
  { intros k Hk. cbn [x grid1D ment]. replace (S (S N) - 1) with (S N) by lia. rewrite R1. unfold e. do 2 f_equal. change (fofn A (S k)) with (dofZ (Z.of_nat (S k))) at 1.
    replace (fmul A (fhalf A) (fadd A (fofn A 1) (fofn A 1))) with (dofZ 1) by (vm_compute; reflexivity).
    cbn [A dbl_arith fadd]. unfold fofn. cbn [fofZ]. rewrite dofZ_add by lia. f_equal. lia. }
  assert (Cl : forall k, k <= K -> let dx := fsub A (e k) (e k) in flt A (fsqrt A (fmul A dx dx)) tol = true).
  { intros k Hk. specialize (Hfin k Hk). cbn [A dbl_arith fsub fmul fsqrt flt] in *. cbv zeta. rewrite sub_self by exact Hfin. exact Htol. }
  destruct (nodes_ok A solve inverse eig eps junk tol jk jp ji jx junkn N K a b HK HI Lr) as (Fx & nx & _ & _ & E).
  - vm_compute. reflexivity.
  - intros k Hk. fold r. fold x. cbv zeta. rewrite X0, X1 by lia. split; apply (Cl (S k)); lia.
  - fold r. fold x. cbv zeta. rewrite X0, X1 by lia. split; apply Cl; lia.
  - fold result in E. rewrite E. fold r. clear E result.
    pose proof (Hi (vandermonde1D A r (S (S N))) (mkmat (S (S N)) (S (S N)) junk)) as Hi1. destruct (inverse _ _) as [Vinv| |]; cbn [bind]; [|left; reflexivity|contradiction].
    unfold buildDr. pose proof (Hs (mtrans (vandermonde1D A r (S (S N)))) (mtrans (gradVandermonde1D A r)) (mkmat (length r) (length r) junk)) as Hs1.
    destruct (solve _ _ _) as [Dr| |]; cbn [bind]; [|left; reflexivity|contradiction].
    destruct (lift_total A N (vandermonde1D A r (S (S N)))) as (L & ->). cbn [bind].
    right. eexists. split; [reflexivity|]. cbn [n_vmapM n_vmapP n_mapI n_mapO n_vmapI n_vmapO]. rewrite !map_length, seq_length.
    split; auto. split; auto. split; [|split; [reflexivity|split; [lia|split; [unfold end_node; cbn [Nat.eqb]; lia|]]]].
    + intros k f Hk Hf. assert (Hg : 2 * k + f < 2 * K) by nia. rewrite !map_nth_seq by exact Hg. split.
      * replace (2 * k + f) with (k * 2 + f) by lia. now apply endn_flat.
      * intros k' f' Hk' Hf' Ht. rewrite (touching_fun K _ _ _ Hg (touching_mate K _ Hg) Ht).
        replace (2 * k' + f') with (k' * 2 + f') by lia. now apply endn_flat.
    + unfold end_node. cbn [Nat.eqb]. nia.
Qed.

Local Open Scope R_scope.

(* C26 and C62 in exact arithmetic, from the same constructor call. *)
Section ExactNodes.
Variables (G : R -> R) (N K : nat) (a b eps tol : R).
Variables (solve : mat R -> mat R -> mat R -> outcome (mat R)) (inverse : mat R -> mat R -> outcome (mat R))
  (eig : nat -> (nat -> nat -> R) -> list R * (nat -> nat -> R)) (junk : nat -> nat -> R)
  (jk : nat * dbl) (jp ji : nat -> nat) (jx : nat -> dbl) (junkn : nat -> nat).
Local Notation E := (exact G).
Local Notation result := (buildNodes1D E solve inverse eig eps junk tol (buildConnectivity1D jk jp ji jx) junkn (S N) K a b).
(* what the libraries and the caller provide *)
Definition sound1D : Prop :=
  gamma_like G /\ (0 < K)%nat /\ (Z.of_nat (K + 1) * Z.of_nat (2 * K) <= INT_MAX)%Z /\ 0 < tol /\ 0 <= eps <= 1 / 5 /\
  solver_ok solve /\ inverter_ok inverse /\
  let J := quad_matrix E eps (0 + 1) (0 + 1) (N - 1) in
  ((2 <= N)%nat -> eigen_solution N J (fst (eig N J)) (snd (eig N J))).

Lemma sound_points : sound1D -> let xs := computeGaussLobottoPoints E eig eps (fofn E 0) (fofn E 0) (S N) in
  length xs = S (S N) /\ nth 0 xs 0 = -1 /\ nth (S N) xs 0 = 1 /\ (forall i, (i < S N)%nat -> nth i xs 0 < nth (S i) xs 0).
Proof.
  intros (HG & HK & HI & Ht & He & _ & _ & HE). change (fofn E 0) with 0.
  destruct (C60_gauss_lobatto G 0 0 eps N eig) as (H1 & H2 & H3 & H4 & _); auto; try lra.
Qed.

Lemma exact_nodes : sound1D -> result = Throw \/ exists n, result = Ok n /\
  n_r n = computeGaussLobottoPoints E eig eps (fofn E 0) (fofn E 0) (S N) /\
  n_V n = vandermonde1D E (n_r n) (S (S N)) /\
  n_x n = grid1D E a b K (n_r n) /\ buildDr E solve junk (n_r n) (n_V n) = Ok (n_Dr n) /\
  buildLift1D E (S (S N)) (n_V n) = Ok (n_Lift n) /\
  (forall f k, (f < 2)%nat -> (k < K)%nat -> ment (n_Fx n) f k = ment (n_x n) (if (f =? 0)%nat then 0 else S N)%nat k) /\
  (forall k, (k < K)%nat -> ment (n_nx n) 0%nat k = -1 /\ ment (n_nx n) 1%nat k = 1) /\
  inverse (n_V n) (mkmat (S (S N)) (S (S N)) junk) = Ok (n_Vinv n) /\
  (shape (n_nx n) 2 K /\ n_vmapM n = map (endn (S (S N))) (seq 0 (2 * K)) /\
   n_vmapP n = map (fun g => endn (S (S N)) (mate K g)) (seq 0 (2 * K)) /\
   n_mapI n = 0%Z /\ n_mapO n = (2 * Z.of_nat K - 1)%Z /\ n_vmapI n = 0%Z /\ n_vmapO n = (Z.of_nat (S (S N)) * Z.of_nat K - 1)%Z).
Proof.
  intro HS. pose proof (sound_points HS) as (Lr & R0 & R1 & _). destruct HS as (HG & HK & HI & Ht & He & Hs & Hi & _).
  set (r := computeGaussLobottoPoints E eig eps (fofn E 0) (fofn E 0) (S N)) in *.
  assert (Cl : forall u v, u = v -> flt E (fsqrt E (fmul E (fsub E u v) (fsub E u v))) tol = true).
  { intros u v ->. cbn [exact fsub fmul fsqrt flt]. replace ((v - v) * (v - v)) with 0 by ring. rewrite sqrt_0. unfold Rltb. destruct (Rlt_dec 0 tol); [reflexivity|lra]. }
  destruct (nodes_ok E solve inverse eig eps junk tol jk jp ji jx junkn N K a b HK HI Lr) as (Fx & nx & HF & (Hr & Hc & HN) & ->).
  - rewrite fofn_INR. cbn [exact fmul fopp]. change (INR 1) with 1. ring.
  - intros k Hk. fold r. cbv zeta. replace (S (S N) - 1)%nat with (S N) by lia.
    assert (Eq : ment (grid1D E a b K r) (S N) k = ment (grid1D E a b K r) 0%nat (S k)).
    { rewrite (grid_right G N K a b r HK Lr R1), (grid_left G N K a b r HK Lr R0). reflexivity. }
    split; apply Cl; congruence.
  - cbv zeta. split; apply Cl; reflexivity.
  - fold r in HF |- *. replace (S (S N) - 1)%nat with (S N) in HF by lia.
    set (V := vandermonde1D E r (S (S N))). assert (SV : shape V (S (S N)) (S (S N))) by (split; [exact Lr|reflexivity]).
    destruct (Hi (S (S N)) V (mkmat (S (S N)) (S (S N)) junk) SV ltac:(split; reflexivity)) as [-> | (Vi & EVi & _)]; [left; reflexivity|]. rewrite EVi. cbn [bind].
    destruct (buildDr_ok G HG solve junk r (S (S N)) Hs Lr) as [ED | (D & ED & _)]; fold V in ED; rewrite ED; cbn [bind]; [left; reflexivity|].
    destruct (lift_ok G (S (S N)) V ltac:(lia) SV) as (L & EL & _). rewrite EL. cbn [bind]. right. eexists. split; [reflexivity|].
    cbn [n_r n_V n_x n_Dr n_Lift n_Fx n_nx n_Vinv]. cbn [n_vmapM n_vmapP n_mapI n_mapO n_vmapI n_vmapO].
    repeat (split; [first [reflexivity | assumption]|]). split; [|split; [exact EVi|repeat split; assumption]].
    intros k Hk. destruct (HN k Hk) as (H1 & H2). rewrite H1, H2, fofn_INR. cbn [exact fmul fopp]. change (INR 1) with 1. split; ring.
Qed.

(* C26 *)
Theorem C26_grid : sound1D -> result = Throw \/ exists n J rx Fscale, result = Ok n /\
  let x := ment (n_x n) in let w := (b - a) / INR K in
  shape (n_x n) (S (S N)) K /\
  (forall k, (S k < K)%nat -> x (S N) k = x 0%nat (S k)) /\ x 0%nat 0%nat = a /\ x (S N) (K - 1)%nat = b /\
  (a < b -> forall i k, (i < S N)%nat -> x i k < x (S i) k) /\
  (forall k, (k < K)%nat -> ment (n_Fx n) 0%nat k = x 0%nat k /\ ment (n_Fx n) 1%nat k = x (S N) k) /\
  (forall k, (k < K)%nat -> ment (n_nx n) 0%nat k = -1 /\ ment (n_nx n) 1%nat k = 1) /\
  computeJacobian1D E junk (S (S N)) K (n_x n) (n_Dr n) = Ok (J, rx, Fscale) /\
  shape J (S (S N)) K /\ shape rx (S (S N)) K /\ shape Fscale 2 K /\
  (forall i k, (i < S (S N))%nat -> (k < K)%nat -> ment J i k = w / 2 /\ ment rx i k = 1 / (w / 2)) /\
  (forall f k, (f < 2)%nat -> (k < K)%nat -> ment Fscale f k = 1 / (w / 2)).
Proof.
  intro HS. destruct (exact_nodes HS) as [-> | (n & -> & Er & EV & Ex & ED & EL & HF & HN & _)]; [left; reflexivity|]. right.
  pose proof (sound_points HS) as (Lr & R0 & R1 & Rinc). rewrite <- Er in *. destruct HS as (HG & HK & HI & Ht & He & Hs & Hi & _).
  destruct (buildDr_ok G HG solve junk (n_r n) (S (S N)) Hs Lr) as [ED' | (D & ED' & SD & HD)]; rewrite EV, ED' in ED; [discriminate|].
  injection ED as ED. subst D.
  destruct (jacobian_ok G junk (S (S N)) K (n_x n) (n_Dr n)) as (J & rx & Fs & EJ & SJ & Srx & SFs & HJ & Hrx & HFs); [lia|apply SD|rewrite Ex; reflexivity|].
  assert (J2 : forall i k, (i < S (S N))%nat -> ment J i k = (b - a) / INR K / 2).
  { intros i k Hik. rewrite HJ, Ex. apply (grid_J G N K a b (n_r n) HK Lr (n_Dr n) i k SD HD Hik). }
  exists n, J, rx, Fs. split; [reflexivity|]. cbv zeta. 
  pose proof (grid_left G N K a b (n_r n) HK Lr R0) as XL. pose proof (grid_right G N K a b (n_r n) HK Lr R1) as XR. pose proof (w_tot N K a b (n_r n) HK Lr) as WT.
  split; [rewrite Ex; split; [exact Lr|reflexivity]|]. split; [intros k Hk; rewrite Ex, XL, XR; reflexivity|].
  split; [rewrite Ex, XL; change (INR 0) with 0; lra|]. split; [rewrite Ex, XR; replace (S (K - 1)) with K by lia; lra|]. split.
  { intros Hab i k Hi'. rewrite Ex, !(grid_ent G N K a b (n_r n) HK Lr). pose proof (w_pos N K a b (n_r n) HK Lr Hab). specialize (Rinc i Hi').
    apply Rplus_lt_compat_l, Rmult_lt_compat_l; lra. }
  split; [intros k Hk; split; [apply (HF 0%nat k)|apply (HF 1%nat k)]; lia|]. split; [exact HN|]. split; [exact EJ|].
  split; [exact SJ|]. split; [exact Srx|]. split; [exact SFs|]. split.
  - intros i k Hik Hk. rewrite Hrx, J2 by exact Hik. split; reflexivity.
  - intros f k Hf Hk. rewrite HFs by assumption. rewrite J2; [reflexivity|]. destruct (f =? 0)%nat; lia.
Qed.

(* C42 in one dimension (the triangle and the quadrilateral are in TriProps.v and QuadProps.v): what the constructor stores as Dr differentiates every polynomial of degree at
   most the order exactly. *)
Theorem C42_line : sound1D -> result = Throw \/ exists n, result = Ok n /\
  shape (n_Dr n) (S (S N)) (S (S N)) /\ differentiates (S (S N)) (n_r n) (n_Dr n).
Proof.
  intro HS. destruct (exact_nodes HS) as [-> | (n & -> & Er & EV & Ex & ED & EL & HF & HN & _)]; [left; reflexivity|]. right.
  pose proof (sound_points HS) as (Lr & R0 & R1 & Rinc). rewrite <- Er in *. destruct HS as (HG & HK & HI & Ht & He & Hs & Hi & _).
  destruct (buildDr_ok G HG solve junk (n_r n) (S (S N)) Hs Lr) as [ED' | (D & ED' & SD & HD)]; rewrite EV, ED' in ED; [discriminate|].
  injection ED as ED. subst D. eauto.
Qed.

(* C62: column f of Lift holds the nodal values of the polynomial l of degree at most the order whose
   product with any polynomial q of at most that degree integrates to the value of q at that end. *)
Theorem C62_lift_line : sound1D -> result = Throw \/ exists n, result = Ok n /\ shape (n_Lift n) (S (S N)) 2 /\
  forall f, (f < 2)%nat -> exists ls, length ls = S (S N) /\
    (forall i, (i < S (S N))%nat -> ment (n_Lift n) i f = peval ls (nth i (n_r n) 0)) /\
    (forall cs, (length cs <= S (S N))%nat ->
       integral_is (fun x => peval ls x * peval cs x) (-1) 1 (peval cs (if (f =? 0)%nat then -1 else 1))).
Proof.
  intro HS. destruct (exact_nodes HS) as [-> | (n & -> & Er & EV & Ex & ED & EL & HF & HN & _)]; [left; reflexivity|]. right.
  pose proof (sound_points HS) as (Lr & R0 & R1 & Rinc). rewrite <- Er in *. destruct HS as (HG & _).
  destruct (lift_ok G (S (S N)) (n_V n) ltac:(lia)) as (L & EL' & SL & HL); [rewrite EV; split; [exact Lr|reflexivity]|].
  rewrite EL' in EL. injection EL as EL. subst L. exists n. split; [reflexivity|]. split; [exact SL|].
  intros f Hf. set (e := if (f =? 0)%nat then -1 else 1).
  assert (Poly : forall m, (0 < m)%nat -> exists ls, length ls = m /\ forall x, peval ls x = sumn m (fun k => jac G 0 0 k x * jac G 0 0 k e)).
  { induction m as [|m IH]; intro Hm; [lia|]. destruct (mon_poly 0 0 m) as (c & Lc & _ & Ec).
    destruct (Nat.eq_dec m 0) as [-> |].
    - exists (pscal (/ nrm G 0 0 0 * jac G 0 0 0 e) c). split; [rewrite pscal_len; exact Lc|]. intro x.
      rewrite sumn_S, sumn_0, pscal_eval, <- Ec. change (jac G 0 0 0 x) with (mon 0 0 0 x / nrm G 0 0 0). unfold Rdiv. ring.
    - destruct (IH ltac:(lia)) as (ls & Ll & El). exists (padd ls (pscal (/ nrm G 0 0 m * jac G 0 0 m e) c)). split.
      + rewrite padd_len, pscal_len. lia.
      + intro x. rewrite padd_eval, El, sumn_S, pscal_eval, <- Ec. change (jac G 0 0 m x) with (mon 0 0 m x / nrm G 0 0 m). unfold Rdiv. ring. }
  destruct (Poly (S (S N)) ltac:(lia)) as (ls & Ll & El). exists ls. split; [exact Ll|]. split.
  - intros i Hi. rewrite HL by exact Hf. rewrite El. apply sumn_ext. intros k Hk. rewrite EV, !(vander_ent G HG); try lia.
    + f_equal. f_equal. unfold e. replace (S (S N) - 1)%nat with (S N) by lia. destruct (f =? 0)%nat; [exact R0|exact R1].
    + destruct (f =? 0)%nat; lia.
  - intros cs Hcs. apply integral_ext with (fun x => sumn (S (S N)) (fun k => jac G 0 0 k x * jac G 0 0 k e) * peval cs x); [intro; rewrite El; reflexivity|].
    apply (kernel G HG). exact Hcs.
Qed.
End ExactNodes.

(* Two nodes per element, three elements on [0,1], and a solver by Cramer's rule: the hypotheses hold and the
   constructor succeeds. *)
Definition solve2 (A B X : mat R) : outcome (mat R) :=
  let det := ment A 0 0%nat * ment A 1 1%nat - ment A 0 1%nat * ment A 1 0%nat in
  if ((mrows A =? 2)%nat && if Req_EM_T det 0 then false else true)%bool then
    Ok (mkmat 2 (mcols B) (fun i j => match i with
       | 0%nat => (ment A 1 1%nat * ment B 0 j - ment A 0 1%nat * ment B 1 j) / det
       | _ => (ment A 0 0%nat * ment B 1 j - ment A 1 0%nat * ment B 0 j) / det end))
  else Throw.
Definition inverse2 (A X : mat R) : outcome (mat R) := solve2 A (mkmat 2 2 (fun i j => if (i =? j)%nat then 1 else 0)) X.
Lemma solve2_ok : solver_ok solve2.
Proof.
  intros n m A B X (Ar & Ac) (Br & Bc) _. unfold solve2. rewrite Ar. destruct (Nat.eqb_spec n 2) as [-> |]; cbn [andb]; [|left; reflexivity].
  destruct (Req_EM_T _ 0) as [|Hd]; [left; reflexivity|]. right. eexists. split; [reflexivity|]. split; [split; cbn; congruence|].
  split; [split; cbn; congruence|]. intros i j Hi Hj. unfold sumn. cbn [seq map fold_right ment].
  rewrite Ar in Hi. destruct i as [|[|i]]; [| |lia]; field; exact Hd.
Qed.
Lemma inverse2_ok : inverter_ok inverse2.
Proof.
  intros n A X (Ar & Ac) _. unfold inverse2, solve2. rewrite Ar. destruct (Nat.eqb_spec n 2) as [-> |]; cbn [andb]; [|left; reflexivity].
  destruct (Req_EM_T _ 0) as [|Hd]; [left; reflexivity|]. right. eexists. split; [reflexivity|]. split; [split; reflexivity|].
  intros i j Hi Hj. unfold sumn. cbn [seq map fold_right ment].
  destruct i as [|[|i]]; [| |lia]; (destruct j as [|[|j]]; [| |lia]); cbn [Nat.eqb]; split; field; exact Hd.
Qed.
Example C26_witness : let eig := fun n (J : nat -> nat -> R) => (@nil R, J) in
  sound1D gwit 0 3 0 (1 / 10) solve2 inverse2 eig /\
  exists n, buildNodes1D (exact gwit) solve2 inverse2 eig 0 (fun _ _ => 0) (1 / 10)
    (buildConnectivity1D (0%nat, d_one) (fun _ => 0%nat) (fun _ => 0%nat) (fun _ => d_one)) (fun _ => 7%nat) 1 3 0 1 = Ok n.
Proof.
  intro eig. assert (HS : sound1D gwit 0 3 0 (1 / 10) solve2 inverse2 eig).
  { split; [exact gwit_ok|]. split; [lia|]. split; [vm_compute; discriminate|]. split; [lra|]. split; [lra|]. split; [exact solve2_ok|].
    split; [exact inverse2_ok|]. intros J Hf. lia. }
  split; [exact HS|].
  assert (Hd : forall r, r = [-1; 1] -> ment (vandermonde1D (exact gwit) r 2) 0 0%nat * ment (vandermonde1D (exact gwit) r 2) 1 1%nat
    - ment (vandermonde1D (exact gwit) r 2) 0 1%nat * ment (vandermonde1D (exact gwit) r 2) 1 0%nat <> 0).
  { intros r ->. rewrite !(vander_ent gwit gwit_ok) by (cbn; lia). cbn [nth].
    rewrite !(proj1 (leg2 gwit gwit_ok 0 _)), !(proj2 (leg2 gwit gwit_ok 0 _)). pose proof (sg_pos 0). pose proof (sg_pos 1). cbn. nra. }
  destruct (nodes_ok (exact gwit) solve2 inverse2 eig 0 (fun _ _ => 0) (1/10) (0%nat, d_one) (fun _ => 0%nat) (fun _ => 0%nat) (fun _ => d_one) (fun _ => 7%nat) 0 3 0 1)
    as (Fx & nx & _ & _ & E); try lia.
  - vm_compute. discriminate.
  - reflexivity.
  - rewrite fofn_INR. cbn [exact fmul fopp]. change (INR 1) with 1. ring.
  - intros k Hk. cbv zeta. 
    pose proof (sound_points gwit 0 3 0 (1/10) solve2 inverse2 eig HS) as (Lr & R0 & R1 & _).
    match goal with |- context [grid1D ?EE ?aa ?bb ?KK ?rr] => set (r := rr) in * end.
    assert (Eq : ment (grid1D (exact gwit) 0 1 3 r) 1%nat k = ment (grid1D (exact gwit) 0 1 3 r) 0%nat (S k)).
    { rewrite (grid_right gwit 0 3 0 1 r ltac:(lia) Lr R1), (grid_left gwit 0 3 0 1 r ltac:(lia) Lr R0). reflexivity. }
    cbn [Nat.sub]. rewrite Eq. assert (Cl : forall v, flt (exact gwit) (fsqrt (exact gwit) (fmul (exact gwit) (fsub (exact gwit) v v) (fsub (exact gwit) v v))) (1/10) = true).
    { intros v. cbn [exact fsub fmul fsqrt flt]. replace ((v - v) * (v - v)) with 0 by ring. rewrite sqrt_0. unfold Rltb. destruct (Rlt_dec 0 (1/10)); [reflexivity|lra]. }
    split; apply Cl.
  - assert (Cl : forall v, flt (exact gwit) (fsqrt (exact gwit) (fmul (exact gwit) (fsub (exact gwit) v v) (fsub (exact gwit) v v))) (1/10) = true).
    { intros v. cbn [exact fsub fmul fsqrt flt]. replace ((v - v) * (v - v)) with 0 by ring. rewrite sqrt_0. unfold Rltb. destruct (Rlt_dec 0 (1/10)); [reflexivity|lra]. }
    cbv zeta. split; apply Cl.
  - rewrite E. clear E. set (r := computeGaussLobottoPoints _ _ _ _ _ _).
    assert (Er : r = [-1; 1]) by (unfold r; cbn [computeGaussLobottoPoints]; rewrite fofn_INR; reflexivity).
    specialize (Hd r Er). unfold inverse2, buildDr. unfold solve2.
    assert (Lr : length r = 2%nat) by (rewrite Er; reflexivity).
    cbn [mtrans mrows mcols vandermonde1D mat_cols]. rewrite Lr. cbn [Nat.eqb andb].
    cbn [ment vandermonde1D mat_cols] in Hd |- *.
    destruct (Req_EM_T _ 0) as [Hc|_]; [contradiction|]. cbn [bind].
    destruct (Req_EM_T _ 0) as [Hc|_]; [exfalso; apply Hd; etransitivity; [|exact Hc]; cbn [mtrans ment vandermonde1D mat_cols]; ring|]. cbn [bind].
    match goal with |- context [buildLift1D ?A' ?n ?V] => destruct (lift_total A' 0 V) as (L & EL); rewrite EL end. cbn [bind].
    eexists. reflexivity.
Qed.
(* The double-precision theorem's hypotheses hold on [0,1] with three elements. *)
Example C25_witness pow gam : let A := dbl_arith pow gam in
  (Z.of_nat (3 + 1) * Z.of_nat (2 * 3) <= INT_MAX)%Z /\
  forall k, (k <= 3)%nat -> sf_finite (fadd A (dofZ 0) (fmul A (fdiv A (fsub A (dofZ 1) (dofZ 0)) (fofn A 3)) (fofn A k))) = true.
Proof. split; [vm_compute; discriminate|]. intros k Hk. do 4 (destruct k as [|k]; [vm_compute; reflexivity|]). lia. Qed.

Print Assumptions C25_connectivity.
Print Assumptions C25_maps.
Print Assumptions C26_grid.
Print Assumptions C42_line.
Print Assumptions C62_lift_line.
