(* SwSimpleRunProps.v - C110: the program src/sw2d-simple: its start, its time steps, its runs and the volume of its water. *)
From Coq Require Import ZArith List Lia Bool Arith.
From Verif Require Import Base Loops Num BlitzModel JacobiModel JacobiSpec JacobiProofs JacobiQuadProofs Nodes1DModel Nodes1DSpec MeshSpec TriModel TriSpec TriGeoSpec TriDGSpec TriProofs TriSetup DenseModel DenseSpec
  Maps2DModel Maps2DSpec Maps2DProps TriMapsProofs TriMapsProps RKModel Line1DModel Line1DProofs SwModel SwSpec SwProofs SwSchemeProofs SwProps SwStepModel SwStepSpec SwStepProofs SwDtProofs SwStepProps SwSimpleRunModel.
From Verif Require Import TriProps TriWitness JacobiExactProofs UniqueProofs TriDGProofs TriElemProofs TriOpProofs.
From Coq Require Import Reals Lra FunctionalExtensionality.
Import ListNotations.
Local Open Scope R_scope.

Section Simple.
Context (G : R -> R) (solve : mat R -> mat R -> mat R -> outcome (mat R)) (inverse : mat R -> mat R -> outcome (mat R))
  (junk : nat -> nat -> R) (eps : R) (eig : nat -> (nat -> nat -> R) -> list R * (nat -> nat -> R)) (tol : R)
  (sort : (nat -> nat -> bool) -> list nat -> list nat) (junk1 : nat -> R) (junkn : nat -> nat)
  (N K : nat) (Vert : list R) (EToV E2E E2F : list nat) (bcType : list Z) (el : element (T := R)) (m : maps).
Variables (jk : nat -> nat -> R) (jv : nat -> R) (lowest : R).     (* uninitialised storage; the start of a maximum *)
Local Notation Grid := (sw_grid G solve inverse junk eps eig tol sort junk1 junkn N K Vert EToV E2E E2F bcType el m).
Local Notation Np := (length (e_r el)).
Local Notation alone k f := (forall k2 f2, (f2 < 3)%nat -> ~ joined EToV k f k2 f2).
Local Notation simple g := (sw_simple_rhs (exact G) jk jv lowest (tables_of el m) 3 (S N) Np K g).
Local Notation volume := (volume_is N Np K Vert EToV (e_x el) (e_y el)).
Local Notation filter_is epsf Nc sp F := (buildFilter (exact G) pow exp ln epsf N (e_V el) (e_Vinv el) Nc sp = Ok F).
Local Notation start := (hump_start (exact G) exp (e_x el) (e_y el) Np K).
Local Notation program fuel F := (simple_program (exact G) exp jk jv lowest fuel (tables_of el m) F (e_x el) (e_y el) N Np K).
Local Notation turn g CFL huge F := (simple_sim_step (exact G) jv lowest (tables_of el m) N 3 (S N) Np K g CFL huge (flat_bed (exact G) Np K) F (simple g)).
Local Notation largest g q CFL dt := (largest_step N Np K Vert EToV (e_x el) (e_y el) g q CFL dt).
Local Notation tagged t := (exists k f, (k < K)%nat /\ (f < 3)%nat /\ tag_of bcType k f = t).

Lemma start_conform : state_conform start Np K = true.
Proof. unfold state_conform, conform, hump_start, Line1DModel.mzip, flat_bed, mzero. cbn [mrows mcols]. rewrite !Nat.eqb_refl. reflexivity. Qed.
Lemma start_at i k : at_node start i k = (10 + exp (- 10 * (ment (e_x el) i k ^ 2 + ment (e_y el) i k ^ 2)), 0, 0).
Proof.
  unfold hump_start, at_node, flat_bed, hump, mzero, Line1DModel.mzip. cbn [fieldc fst snd ment]. rewrite !fofn_INR. cbn [exact fadd fsub fmul fopp]. change (INR 0) with 0. rewrite !INR_IZR_INZ. change (Z.of_nat 10) with 10%Z.
  f_equal; [f_equal|]; [|ring|ring]. f_equal; [ring|]. f_equal. ring.
Qed.
Lemma at_parts (q : field) i k a b c : at_node q i k = (a, b, c) <-> ment (fieldc 0 q) i k = a /\ ment (fieldc 1 q) i k = b /\ ment (fieldc 2 q) i k = c.
Proof. destruct q as [[h hu] hv]. unfold at_node. cbn. split; [intros [= <- <- <-]; auto|intros (-> & -> & ->); reflexivity]. Qed.
(* where there is water there is a wave that crosses the element *)
Lemma crossing g (q : field) : Grid -> (0 < K)%nat -> 0 < g -> (forall i k, (i < Np)%nat -> (k < K)%nat -> 0 < part 0 (at_node q i k)) ->
  exists v, crossing_rate Np K Vert EToV (e_x el) (e_y el) g q v /\ 0 < v.
Proof.
  intros HG HK Hg Hw. pose proof (sg_built _ _ _ _ _ _ _ _ _ _ _ _ _ _ _ _ _ _ _ HG) as HB. pose proof (sg_area _ _ _ _ _ _ _ _ _ _ _ _ _ _ _ _ _ _ _ HG) as HA.
  pose proof (fn_lt _ _ _ _ _ _ _ _ _ _ _ _ HB 0%nat 0%nat ltac:(lia) ltac:(lia)) as Hfn.
  destruct (side_pt _ _ _ _ _ _ _ _ _ _ _ _ HB 0%nat 0%nat ltac:(lia) ltac:(lia)) as (tt & Ht). pose proof (fs_at _ _ _ _ _ _ _ _ _ _ _ _ HB HA 0%nat 0%nat 0%nat ltac:(lia) ltac:(lia) ltac:(lia)) as (F1 & F2). rewrite F2 in F1.
  eexists. split; [exists 0%nat, 0%nat, (fnode el 0 0), tt; repeat split; try lia; first [exact Hfn|apply Ht; lia]|].
  apply Rmult_lt_0_compat; [exact F1|]. pose proof (Hw (fnode el 0 0) 0%nat Hfn HK) as X. unfold wave_speed. destruct q as [[h hu] hv]. cbn in X |- *.
  pose proof (sqrt_pos (ment hu (fnode el 0 0) 0 / ment h (fnode el 0 0) 0 * (ment hu (fnode el 0 0) 0 / ment h (fnode el 0 0) 0) + ment hv (fnode el 0 0) 0 / ment h (fnode el 0 0) 0 * (ment hv (fnode el 0 0) 0 / ment h (fnode el 0 0) 0))).
  pose proof (sqrt_lt_R0 (g * ment h (fnode el 0 0) 0) ltac:(nra)). lra.
Qed.

Lemma start_deep i k : 10 < part 0 (at_node start i k) <= 11.
Proof.
  rewrite start_at. cbn [part fst snd]. set (a := - 10 * _). assert (Ha : a <= 0) by (unfold a; pose proof (pow2_ge_0 (ment (e_x el) i k)); pose proof (pow2_ge_0 (ment (e_y el) i k)); lra).
  pose proof (exp_pos a). destruct Ha as [Ha|Ha]; [apply exp_increasing in Ha; rewrite exp_0 in Ha; lra|rewrite Ha, exp_0; lra].
Qed.
Lemma start_still : let '(h, hu, hv) := start in mzip (fdiv (exact G)) hu h = mzero (exact G) Np K /\ mzip (fdiv (exact G)) hv h = mzero (exact G) Np K.
Proof.
  pose proof start_deep as Hd. destruct start as [[h hu] hv] eqn:E. pose proof start_at as Ha. rewrite E in Ha. pose proof start_conform as Hc. rewrite E in Hc. unfold state_conform, conform in Hc. rewrite !andb_true_iff, !Nat.eqb_eq in Hc.
  unfold Line1DModel.mzip, mzero. destruct Hc as (((H1 & H2) & H3 & H4) & H5 & H6). rewrite H3, H4, H5, H6. split; f_equal; apply functional_extensionality; intro i; apply functional_extensionality; intro k; cbn [exact fdiv]; rewrite fofn_INR; cbn [INR];
    specialize (Hd i k); specialize (Ha i k); apply at_parts in Ha as (A1 & A2 & A3); cbn [fieldc fst snd] in *; rewrite ?A2, ?A3; unfold Rdiv; apply Rmult_0_l.
Qed.
Lemma first_dt g CFL : Grid -> lowest <= 0 -> (0 < K)%nat -> 0 < g -> 0 < CFL ->
  exists dt, simple_dt (exact G) jv lowest (tables_of el m) N 3 (S N) Np K g CFL (fst (fst start)) (mzero (exact G) Np K) (mzero (exact G) Np K) = Ok dt /\ largest g start CFL dt.
Proof.
  intros HG Hl HK Hg HC. destruct (crossing g start HG HK Hg) as (v & Hv). { intros i k _ _. destruct (start_deep i k). lra. }
  destruct (C78_time_step G solve inverse junk eps eig tol sort junk1 junkn N K Vert EToV E2E E2F bcType el m jv lowest HG Hl g CFL start HC start_conform (ex_intro _ v Hv)) as (Hd & _).
  pose proof start_still as Hs. destruct start as [[h hu] hv]. destruct Hs as (S1 & S2). rewrite S1, S2 in Hd. exact Hd.
Qed.

(* C110: the program starts with a hump of water on a bed of depth 10: a depth above 10 and at most 11, at rest. Its first time step
   is the largest that the CFL condition allows. *)
Theorem C110_start g CFL : Grid -> lowest <= 0 -> (0 < K)%nat -> 0 < g -> 0 < CFL ->
  exists q dt, largest g q CFL dt /\ state_conform q Np K = true /\
  (forall i k, (i < Np)%nat -> (k < K)%nat -> at_node q i k = (10 + exp (- 10 * (ment (e_x el) i k ^ 2 + ment (e_y el) i k ^ 2)), 0, 0) /\ 10 < part 0 (at_node q i k) <= 11) /\
  forall fuel F huge finalTime, finalTime <= 0 -> program (S fuel) F g CFL huge finalTime = Ok (SwSim 0 dt 0 q []).
Proof.
  intros HG Hl HK Hg HC. destruct (first_dt g CFL HG Hl HK Hg HC) as (dt & Ed & Ld). exists start, dt. split; [exact Ld|]. split; [exact start_conform|]. split; [intros i k _ _; split; [apply start_at|apply start_deep]|].
  intros fuel F huge finalTime Hf. unfold simple_program. cbv zeta. rewrite Ed. cbn [bind simple_loop w_t]. rewrite fofn_INR. cbn [INR exact flt]. unfold Rltb. destruct (Rlt_dec 0 finalTime); [lra|reflexivity].
Qed.

Lemma turn_inv g CFL huge F s s' : turn g CFL huge F s = Ok s' -> exists q' dt', simple_step (exact G) F (simple g) (w_dt s) (w_q s) = Ok q' /\ w_q s' = q' /\ w_dt s' = dt' /\ w_t s' = w_t s + dt' /\ w_count s' = S (w_count s) /\
  simple_dt (exact G) jv lowest (tables_of el m) N 3 (S N) Np K g CFL (fieldc 0 q') (mzip (fdiv (exact G)) (fieldc 1 q') (fieldc 0 q')) (mzip (fdiv (exact G)) (fieldc 2 q') (fieldc 0 q')) = Ok dt'.
Proof.
  intro E. unfold simple_sim_step in E. destruct (w_q s) as [[h hu] hv] eqn:Eq. destruct (simple_step _ F _ (w_dt s) (h, hu, hv)) as [[[h' hu'] hv']| |] eqn:E2; [|discriminate E|discriminate E]. cbn [bind] in E.
  destruct (unstable _ _ _ _); [discriminate E|]. destruct (simple_dt _ _ _ _ _ _ _ _ _ _ _ _ _ _) as [dt'| |] eqn:E3; [|discriminate E|discriminate E]. cbn [bind] in E. injection E as <-. exists (h', hu', hv'), dt'. repeat split; auto.
Qed.
Lemma loop_history g CFL huge F fuel finalTime s0 s' :
  simple_loop (exact G) jv lowest fuel (tables_of el m) N 3 (S N) Np K g CFL huge finalTime (flat_bed (exact G) Np K) F (simple g) s0 = Ok s' ->
  exists n s, history Ok (turn g CFL huge F) n s /\ s 0%nat = s0 /\ s n = s' /\ (forall i, (i < n)%nat -> w_t (s i) < finalTime) /\ finalTime <= w_t s'.
Proof.
  revert s0. induction fuel as [|fuel IH]; intros s0 E; [discriminate E|]. cbn [simple_loop] in E. cbn [exact flt] in E. unfold Rltb in E. destruct (Rlt_dec (w_t s0) finalTime) as [L|L].
  - destruct (simple_sim_step _ _ _ _ _ _ _ _ _ _ _ _ _ _ _ s0) as [s1| |] eqn:E1; [|discriminate E|discriminate E]. cbn [bind] in E. destruct (IH s1 E) as (n & s & Hh & H0 & Hn & Hi & Hf).
    exists (S n), (fun i => match i with O => s0 | S j => s j end). split; [|split; [reflexivity|split; [exact Hn|split; [|exact Hf]]]].
    + intros [|i] Hi'; [rewrite H0; exact E1|]. apply Hh. lia.
    + intros [|i] Hi'; [exact L|apply Hi; lia].
  - injection E as <-. exists 0%nat, (fun _ => s0). repeat split; auto; [intros i Hi; lia|intros i Hi; lia|lra].
Qed.
(* C110: a run that ends is a sequence of turns, each begun before the final time. Each takes, while there is water at every node, the
   largest step that the CFL condition allows for the fields it finds; what it writes are the elevations of every tenth turn; the
   clock is ahead of the time integrated by the difference of the next step and the first. *)
Theorem C110_run fuel F g CFL huge finalTime s' : Grid -> lowest <= 0 -> (0 < K)%nat -> 0 < g -> 0 < CFL -> program fuel F g CFL huge finalTime = Ok s' ->
  exists n (q : nat -> field) (dt : nat -> R), w_q s' = q n /\ w_count s' = n /\ w_dt s' = dt n /\ finalTime <= w_t s' /\ w_t s' = sumn n dt + (dt n - dt 0%nat) /\
  (forall i k, (i < Np)%nat -> (k < K)%nat -> at_node (q 0%nat) i k = (10 + exp (- 10 * (ment (e_x el) i k ^ 2 + ment (e_y el) i k ^ 2)), 0, 0)) /\
  (forall j, (j < n)%nat -> sumn j dt + (dt j - dt 0%nat) < finalTime /\ simple_step (exact G) F (simple g) (dt j) (q j) = Ok (q (S j))) /\
  (forall j, (j <= n)%nat -> state_conform (q j) Np K = true /\ ((forall i k, (i < Np)%nat -> (k < K)%nat -> 0 < part 0 (at_node (q j) i k)) -> largest g (q j) CFL (dt j))) /\
  forall c eta, In (c, eta) (w_out s') -> (c < n)%nat /\ (c mod 10 = 0)%nat /\ forall i k, ment eta i k = part 0 (at_node (q c) i k) - 10.
Proof.
  intros HG Hl HK Hg HC E. destruct (first_dt g CFL HG Hl HK Hg HC) as (dt0 & Ed & Ld). unfold simple_program in E. cbv zeta in E. rewrite Ed in E. cbn [bind] in E.
  destruct (loop_history _ _ _ _ _ _ _ _ E) as (n & s & Hh & H0 & Hn & Hi & Hf).
  assert (Hclk : forall j, (j <= n)%nat -> w_t (s j) = sumn j (fun i => w_dt (s i)) + (w_dt (s j) - w_dt (s 0%nat))).
  { intros j Hj. assert (Hj' : history Ok (turn g CFL huge F) j s) by (intros i Hi'; apply Hh; lia). pose proof (C78_clock _ _ _ _ _ _ _ _ _ _ _ _ _ _ _ _ _ Hj') as X. rewrite H0 in X at 1. cbn [w_t] in X. rewrite fofn_INR in X. cbn [INR] in X. lra. }
  destruct (C78_output (exact G) jv lowest (tables_of el m) N 3 (S N) Np K g CFL huge (flat_bed (exact G) Np K) F (simple g) n s Hh) as (Hc & Ho); [rewrite H0; reflexivity|rewrite H0; reflexivity|].
  exists n, (fun i => w_q (s i)), (fun i => w_dt (s i)). split; [rewrite Hn; reflexivity|]. split; [rewrite <- Hn; exact Hc|]. split; [rewrite Hn; reflexivity|]. split; [exact Hf|]. split; [rewrite <- Hn; apply Hclk; lia|].
  split; [intros i k _ _; rewrite H0; apply start_at|]. split; [|split].
  - intros j Hj. split; [rewrite <- Hclk by lia; apply Hi, Hj|]. destruct (turn_inv _ _ _ _ _ _ (Hh j Hj)) as (q' & dt' & X & -> & _). exact X.
  - assert (Hcf : forall j, (j <= n)%nat -> state_conform (w_q (s j)) Np K = true).
    { induction j as [|j IH]; intro Hj; [rewrite H0; exact start_conform|]. specialize (IH ltac:(lia)). destruct (turn_inv _ _ _ _ _ _ (Hh j ltac:(lia))) as (q' & dt' & X & -> & _). unfold simple_step in X.
      destruct (simple g (w_q (s j))) as [z| |]; [|discriminate X|discriminate X]. cbn [bind] in X. match type of X with bind ?o _ = _ => destruct o as [z1| |] end; [|discriminate X|discriminate X]. cbn [bind] in X. injection X as <-.
      destruct (w_q (s j)) as [[h hu] hv], (filter_state (exact G) F z1) as [[a b] e]. exact IH. }
    intros j Hj. split; [apply Hcf, Hj|]. intro Hw. destruct j as [|j]; [rewrite H0; exact Ld|]. destruct (turn_inv _ _ _ _ _ _ (Hh j ltac:(lia))) as (q' & dt' & X & E1 & E2 & _ & _ & X2). specialize (Hcf (S j) Hj).
    rewrite E1 in *. rewrite E2. destruct (crossing g q' HG HK Hg Hw) as (v & Hv).
    destruct (C78_time_step G solve inverse junk eps eig tol sort junk1 junkn N K Vert EToV E2E E2F bcType el m jv lowest HG Hl g CFL q' HC Hcf (ex_intro _ v Hv)) as (Hd & _).
    destruct q' as [[h hu] hv]. destruct Hd as (dt2 & D1 & D2). cbn [fieldc fst snd] in X2. rewrite D1 in X2. injection X2 as <-. exact D2.
  - intros c eta Hin. rewrite <- Hn in Hin. apply Ho in Hin as (C1 & C2 & ->). split; [exact C1|]. split; [exact C2|]. intros i k. unfold Line1DModel.mzip, flat_bed. cbn [ment]. rewrite !fofn_INR. cbn [exact fsub fadd fmul]. change (INR 0) with 0. rewrite (INR_IZR_INZ 10). change (Z.of_nat 10) with 10%Z.
    destruct (w_q (s c)) as [[h hu] hv]. cbn. ring.
Qed.
(* C110: on a closed basin, with a filter whose cutoff lies above the order, a run ends with the volume of water it started with. *)
Theorem C110_volume fuel F g CFL huge finalTime s' : Grid -> lowest <= 0 -> (0 < K)%nat -> 0 < g -> 0 < CFL ->
  (forall k f, (k < K)%nat -> (f < 3)%nat -> tag_of bcType k f = 3%Z <-> alone k f) -> forall epsf Nc sp, 0 < epsf <= 1 -> INR N < Nc -> filter_is epsf Nc sp F ->
  program fuel F g CFL huge finalTime = Ok s' -> forall v, volume (fieldc 0 start) v -> volume (fieldc 0 (w_q s')) v.
Proof.
  intros HG Hl HK Hg HC Hcl epsf Nc sp He Hn EF E v Hv. destruct (first_dt g CFL HG Hl HK Hg HC) as (dt0 & Ed & Ld). unfold simple_program in E. cbv zeta in E. rewrite Ed in E. cbn [bind] in E.
  eapply (C78_run_keeps_volume G solve inverse junk eps eig tol sort junk1 junkn N K Vert EToV E2E E2F bcType el m jk jv lowest HG Hl Hcl epsf Nc sp F He Hn EF); [|exact E|]; cbn [w_q]; [exact start_conform|exact Hv].
Qed.
(* C110, what fails: without a wall the program throws as soon as it has a step to take. *)
Theorem C110_no_wall_refuted fuel F g CFL huge finalTime : Grid -> lowest <= 0 -> (0 < K)%nat -> 0 < g -> 0 < CFL -> (forall k f, (k < K)%nat -> (f < 3)%nat -> tag_of bcType k f <> 3%Z) -> 0 < finalTime ->
  program (S fuel) F g CFL huge finalTime = Throw.
Proof.
  intros HG Hl HK Hg HC Hno Hf. destruct (first_dt g CFL HG Hl HK Hg HC) as (dt0 & Ed & Ld). unfold simple_program. cbv zeta. rewrite Ed. cbn [bind simple_loop w_t]. rewrite fofn_INR. cbn [INR exact flt]. unfold Rltb. destruct (Rlt_dec 0 finalTime); [|contradiction].
  unfold simple_sim_step. cbn [w_q w_dt w_count]. pose proof (C49_simple_no_wall_throws G solve inverse junk eps eig tol sort junk1 junkn N K Vert EToV E2E E2F bcType el m jk jv lowest HG Hno g start start_conform) as X.
  destruct start as [[h hu] hv]. unfold simple_step. rewrite X. reflexivity.
Qed.

(* C110: where all the nodes are equally far from the origin the hump is a level, and the program keeps it and comes to its end,
   whatever the filter and the final time. *)
Theorem C110_level_run F g CFL huge finalTime rr : Grid -> lowest <= 0 -> shape F Np Np -> (forall k f, (k < K)%nat -> (f < 3)%nat -> tag_of bcType k f = 3%Z -> alone k f) -> tagged 3%Z ->
  0 < g -> 0 < CFL -> 1 <= huge -> (forall i k, (i < Np)%nat -> (k < K)%nat -> ment (e_x el) i k ^ 2 + ment (e_y el) i k ^ 2 = rr) ->
  exists fuel0, forall fuel, (fuel0 <= fuel)%nat -> exists s', program fuel F g CFL huge finalTime = Ok s' /\ finalTime <= w_t s' /\
  forall i k, (i < Np)%nat -> (k < K)%nat -> at_node (w_q s') i k = (10 + exp (- 10 * rr), 0, 0).
Proof.
  intros HG Hl (SF1 & SF2) Hwall Htag Hg HC Hh Hr. assert (HK : (0 < K)%nat) by (destruct Htag as (k & _ & Hk & _); lia).
  destruct (first_dt g CFL HG Hl HK Hg HC) as (dt0 & Ed & Ld). set (D := 10 + exp (- 10 * rr)).
  pose proof (sg_built _ _ _ _ _ _ _ _ _ _ _ _ _ _ _ _ _ _ _ HG) as HB. pose proof (fn_lt _ _ _ _ _ _ _ _ _ _ _ _ HB 0%nat 0%nat ltac:(lia) ltac:(lia)) as Hfn.
  assert (HN0 : (0 < Np)%nat) by lia.
  assert (HD : 10 < D <= 11). { pose proof (start_deep 0 0) as X. rewrite start_at, (Hr 0%nat 0%nat HN0 HK) in X. exact X. }
  set (inv := fun s : swsim R => state_conform (w_q s) Np K = true /\ (forall i k, (i < Np)%nat -> (k < K)%nat -> at_node (w_q s) i k = (D, 0, 0)) /\ dt0 <= w_dt s).
  assert (I0 : inv (SwSim 0 dt0 0 start [])). { split; [exact start_conform|]. split; [|cbn; lra]. intros i k Hi Hk. cbn [w_q]. rewrite start_at, Hr by assumption. reflexivity. }
  (* a turn keeps it *)
  assert (Hstep : forall s, inv s -> exists s1, turn g CFL huge F s = Ok s1 /\ inv s1 /\ w_t s + dt0 <= w_t s1).
  { intros s (Cq & Hq & Hdt). destruct (C49_still_water G solve inverse junk eps eig tol sort junk1 junkn N K Vert EToV E2E E2F bcType el m jk jv lowest HG Hwall Htag g (w_q s) D Cq Hq) as (z & Ez & Hz).
    assert (Fz : forall (y : field) c, (forall i k, (i < Np)%nat -> (k < K)%nat -> at_node y i k = (0, 0, 0)) -> state_conform y Np K = true ->
      forall i k, (i < Np)%nat -> (k < K)%nat -> at_node (advance_state (exact G) c (w_q s) (filter_state (exact G) F y)) i k = (D, 0, 0)).
    { intros y c Hy Cy i k Hi Hk.
      assert (Z : forall X : mat R, mrows X = Np -> mcols X = K -> (forall a b, (a < Np)%nat -> (b < K)%nat -> ment X a b = 0) -> ment (filter_in_place (exact G) F X) i k = 0).
      { intros X X1 X2 HX. destruct (in_place_ok G F X) as (_ & _ & HY). cbv zeta in HY. rewrite X1, X2 in HY. clear - HX HY SF2 Hi Hk. induction i as [i IH] using lt_wf_ind. rewrite HY by assumption. rewrite SF2.
        rewrite (sumn_ext Np _ (fun _ => 0)); [apply sumn_zero; reflexivity|]. intros a Ha. destruct (Nat.ltb_spec a i) as [L|L]; [rewrite IH by lia|rewrite HX by assumption]; ring. }
      destruct y as [[ya yb] yc]. unfold state_conform, conform in Cy. rewrite !andb_true_iff, !Nat.eqb_eq in Cy. specialize (Hq i k Hi Hk).
      assert (Hy' : forall a b, (a < Np)%nat -> (b < K)%nat -> ment ya a b = 0 /\ ment yb a b = 0 /\ ment yc a b = 0) by (intros a b Ha Hb; specialize (Hy a b Ha Hb); apply at_parts in Hy; exact Hy).
      destruct (w_q s) as [[h hu] hv]. apply at_parts in Hq as (Q1 & Q2 & Q3). apply at_parts. cbn [filter_state advance_state fieldc fst snd] in *. unfold advance, Line1DModel.mzip. cbn [ment exact fadd fmul].
      rewrite (Z ya), (Z yb), (Z yc), Q1, Q2, Q3 by (try tauto; intros; apply Hy'; assumption). repeat split; ring. }
    assert (Sc : forall y, state_conform y Np K = true -> forall w, simple g y = Ok w -> state_conform w Np K = true).
    { intros y Cy w Ew. destruct (C49_simple_scheme G solve inverse junk eps eig tol sort junk1 junkn N K Vert EToV E2E E2F bcType el m jk jv lowest HG Hl Hwall Htag g y Cy) as (w' & Ew' & Cw & _). rewrite Ew in Ew'. injection Ew' as <-. exact Cw. }
    set (q1 := advance_state (exact G) (fmul (exact G) (fhalf (exact G)) (w_dt s)) (w_q s) (filter_state (exact G) F z)).
    assert (C1 : state_conform q1 Np K = true) by (unfold q1; destruct (w_q s) as [[h hu] hv], (filter_state (exact G) F z) as [[a b] e]; exact Cq).
    destruct (C49_still_water G solve inverse junk eps eig tol sort junk1 junkn N K Vert EToV E2E E2F bcType el m jk jv lowest HG Hwall Htag g q1 D C1 (Fz z _ Hz (Sc _ Cq _ Ez))) as (z1 & Ez1 & Hz1).
    set (q' := advance_state (exact G) (w_dt s) (w_q s) (filter_state (exact G) F z1)).
    assert (C2 : state_conform q' Np K = true) by (unfold q'; destruct (w_q s) as [[h hu] hv], (filter_state (exact G) F z1) as [[a b] e]; exact Cq).
    pose proof (Fz z1 (w_dt s) Hz1 (Sc _ C1 _ Ez1)) as Hq'. fold q' in Hq'.
    assert (Es : simple_step (exact G) F (simple g) (w_dt s) (w_q s) = Ok q') by (unfold simple_step; rewrite Ez; cbn [bind]; fold q1; rewrite Ez1; reflexivity).
    destruct (crossing g q' HG HK Hg) as (v & Hv). { intros i k Hi Hk. rewrite Hq' by assumption. cbn. lra. }
    destruct (C78_time_step G solve inverse junk eps eig tol sort junk1 junkn N K Vert EToV E2E E2F bcType el m jv lowest HG Hl g CFL q' HC C2 (ex_intro _ v Hv)) as (Hd & _).
    assert (Hge : forall dt', largest g q' CFL dt' -> dt0 <= dt').
    { intros dt' (P1 & _ & v' & (k & f & i & t & Hk & Hf & Hi & En & Ev) & P2). destruct Ld as (_ & L2 & _). specialize (L2 v').
      assert (X : crossing_rate Np K Vert EToV (e_x el) (e_y el) g start v').
      { exists k, f, i, t. repeat split; try assumption. rewrite Ev, Hq', start_at, Hr by assumption. reflexivity. }
      specialize (L2 X). set (cv := (INR N + 1) ^ 2 / 2 * v') in *. assert (0 < cv) by (destruct (Rlt_dec 0 cv) as [|n]; [assumption|exfalso; assert (dt' * cv <= 0) by (apply Rmult_le_0_l || nra); lra]).
      apply (Rmult_le_reg_r cv); [assumption|lra]. }
    assert (Hstab : unstable (exact G) lowest huge (mzip (fsub (exact G)) (fieldc 0 q') (flat_bed (exact G) Np K)) = false).
    { set (eta := mzip (fsub (exact G)) (fieldc 0 q') (flat_bed (exact G) Np K)).
      assert (S0 : mrows eta = Np /\ mcols eta = K) by (unfold eta; destruct q' as [[h hu] hv]; unfold state_conform, conform in C2; rewrite !andb_true_iff, !Nat.eqb_eq in C2; cbn [fieldc fst snd]; unfold Line1DModel.mzip; cbn [mrows mcols]; tauto).
      destruct S0 as (S1 & S2).
      assert (He : forall i k, (i < Np)%nat -> (k < K)%nat -> ment eta i k = D - 10).
      { intros i k Hi Hk. pose proof (Hq' i k Hi Hk) as X. apply at_parts in X as (X & _). unfold eta, flat_bed, Line1DModel.mzip. cbn [ment]. rewrite X, !fofn_INR. cbn [exact fsub fadd fmul]. change (INR 0) with 0. rewrite (INR_IZR_INZ 10). change (Z.of_nat 10) with 10%Z. ring. }
      clearbody eta. unfold unstable. cbv zeta. unfold max_abs. set (M := fold_left _ _ _). destruct (Line1DBurgersProofs.max_abs_ge G eta _ lowest M eq_refl) as (_ & HM & Ho).
      assert (I00 : In (0%nat, 0%nat) (list_prod (seq 0 (mrows eta)) (seq 0 (mcols eta)))) by (apply in_prod; apply in_seq; lia). specialize (HM _ _ I00). rewrite He, Rabs_right in HM by (assumption || lra).
      assert (HM2 : M <= 1).
      { destruct Ho as [Ho|(i & k & Hin & Ho)]; [lra|]. apply in_prod_iff in Hin as (Hi & Hk). apply in_seq in Hi, Hk. rewrite He, Rabs_right in Ho by (lia || lra). lra. }
      apply Bool.orb_false_iff. split; cbn [exact flt fle fabs]; [unfold Rltb; destruct (Rlt_dec huge (Rabs M)) as [L|L]; [|reflexivity]; rewrite Rabs_right in L by lra; lra|].
      unfold Rleb. destruct (Rle_dec M M) as [|n]; [reflexivity|exfalso; lra]. }
    destruct q' as [[h' hu'] hv'] eqn:Eq'. destruct Hd as (dt' & D1 & D2). exists (SwSim (w_t s + dt') dt' (S (w_count s)) (h', hu', hv') (let '(h, _, _) := w_q s in if (w_count s mod 10 =? 0)%nat then (w_count s, mzip (fsub (exact G)) h (flat_bed (exact G) Np K)) :: w_out s else w_out s)).
    split; [|split; [split; [exact C2|split; [exact Hq'|apply Hge, D2]]|cbn [w_t]; pose proof (Hge dt' D2); lra]].
    unfold simple_sim_step. destruct (w_q s) as [[h hu] hv]. rewrite Es. cbn [bind]. cbn [fieldc fst snd] in Hstab. rewrite Hstab, D1. reflexivity. }
  assert (Pd : 0 < dt0) by apply Ld.
  assert (Hrun : forall fuel s, inv s -> finalTime - w_t s <= INR fuel * dt0 -> exists s', simple_loop (exact G) jv lowest (S fuel) (tables_of el m) N 3 (S N) Np K g CFL huge finalTime (flat_bed (exact G) Np K) F (simple g) s = Ok s' /\ finalTime <= w_t s' /\ inv s').
  { induction fuel as [|fuel IH]; intros s Hi Hle; cbn [simple_loop]; cbn [exact flt]; unfold Rltb at 1; destruct (Rlt_dec (w_t s) finalTime) as [L|L].
    - exfalso. cbn [INR] in Hle. lra.
    - exists s. repeat split; try apply Hi; lra.
    - destruct (Hstep s Hi) as (s1 & E1 & I1 & T1). rewrite E1. cbn [bind]. apply IH; [exact I1|]. rewrite S_INR in Hle. lra.
    - exists s. repeat split; try apply Hi; lra. }
  assert (Ar : exists n, finalTime / dt0 < INR n).
  { exists (Z.to_nat (up (finalTime / dt0))). destruct (archimed (finalTime / dt0)) as (A1 & _). apply Rlt_le_trans with (1 := A1). rewrite INR_IZR_INZ. apply IZR_le. lia. }
  destruct Ar as (n & Hn). exists (S n). intros fuel Hfu. destruct fuel as [|fuel]; [lia|].
  destruct (Hrun fuel _ I0) as (s' & E & Hf & Hi).
  { cbn [w_t]. assert (INR n <= INR fuel) by (apply le_INR; lia). assert (finalTime = finalTime / dt0 * dt0) by (field; lra). nra. }
  exists s'. split; [|split; [exact Hf|apply Hi]]. unfold simple_program. cbv zeta. rewrite Ed. cbn [bind]. rewrite fofn_INR. cbn [INR]. exact E.
Qed.
End Simple.

(* The hypotheses are met: the four points at distance 1 from the origin on the axes, two triangles, order one; walls all round or no
   walls; the filter of the source and one with its cutoff above the order. *)
Example C110_witness :
  let Vert := [1; 0; 0;  0; 1; 0;  -1; 0; 0;  0; -1; 0] in let EToV := [0; 1; 2;  0; 2; 3]%nat in
  let E2E := [0; 0; 1;  0; 1; 1]%nat in let E2F := [0; 1; 0;  2; 1; 2]%nat in let walled := [3; 3; 0; 0; 3; 3]%Z in
  (forall k f, (k < 2)%nat -> (f < 3)%nat -> tag_of walled k f = 3%Z <-> forall k2 f2, (f2 < 3)%nat -> ~ joined EToV k f k2 f2) /\
  forall bcType, bcType = walled \/ bcType = repeat 0%Z 6 ->
  exists el m F F2, sw_grid gwit cramer cramer_inv junk0 0 eig0 (1 / 10) isort (fun _ => 0) (fun _ => 0%nat) 1 2 Vert EToV E2E E2F bcType el m /\
    buildFilter (exact gwit) pow exp ln (1 / 2) 1 (e_V el) (e_Vinv el) (9 / 10) 1 = Ok F /\ buildFilter (exact gwit) pow exp ln (1 / 2) 1 (e_V el) (e_Vinv el) 2 4 = Ok F2 /\ shape F2 (length (e_r el)) (length (e_r el)) /\ shape F (length (e_r el)) (length (e_r el)) /\
    (forall i k, (i < length (e_r el))%nat -> (k < 2)%nat -> ment (e_x el) i k ^ 2 + ment (e_y el) i k ^ 2 = 1).
Proof.
  intros Vert EToV E2E E2F walled. split; [destruct C49_witness as (_ & X & _); exact X|]. intros bcType Hb. assert (Hbl : length bcType = 6%nat) by (destruct Hb as [-> | ->]; reflexivity). clear Hb walled.
  destruct (tri_grid_witness bcType ltac:(lia)) as ([LE LF HN HO _] & HJ & _). cbv zeta in LE, LF, HN, HO, HJ. fold EToV E2E E2F in LE, LF, HN, HO, HJ.
  assert (HT : tri_mesh 2 Vert EToV E2E E2F).
  { constructor; try assumption. intros k Hk. destruct k as [|[|]]; [| |lia]; unfold area, TriGeoSpec.corner, TriGeoSpec.cross, pminus; cbn; lra. }
  destruct (tri_witness_any 2 Vert EToV) as (el & HB). { split; [reflexivity|]. intros v Hv. cbn in Hv. repeat (destruct Hv as [<-|Hv]; [cbn; lia|]). destruct Hv. }
  pose proof (tri_tables _ _ _ _ _ _ _ _ _ _ _ _ HB _ _ LE LF HN) as HTb.
  destruct (C67_edge_nodes _ _ _ _ _ _ _ _ _ _ _ _ HB) as (Len & _ & g & _ & g0 & gN & _ & _ & _ & _ & Hm).
  edestruct (C38_defined (exact gwit) rhypot isort (fun _ => 0) (fun _ => 0%nat) (1 / 10) 3 2 (length (e_r el)) 2 (mask_table 1 (e_masks el)) (e_x el) (e_y el) E2E E2F EToV Vert bcType []) as (m & Em).
  - exact Rltb_strict_weak.
  - exact isort_is_sort.
  - cbn. unfold Rltb. destruct (Rlt_dec _ _) as [|Hx]; [reflexivity|]. exfalso. apply Hx. lra.
  - first [lia|cbn; lia].
  - first [lia|cbn; lia].
  - exact HTb.
  - destruct (C41_filter _ _ _ _ _ _ _ _ _ _ _ _ HB (1 / 2) (9 / 10) 1%nat ltac:(lra) ltac:(cbn; lra)) as (F & EF & SF & _).
    destruct (C41_filter _ _ _ _ _ _ _ _ _ _ _ _ HB (1 / 2) 2 4 ltac:(lra) ltac:(cbn; lra)) as (F2 & EF2 & SF2 & _). exists el, m, F, F2.
    destruct (Hm 0%nat ltac:(lia)) as (mask & Ek & Lk & Ink & Hq). destruct (Hm 1%nat ltac:(lia)) as (mask1 & Ek1 & Lk1 & Ink1 & Hq1).
    pose proof (Hq 0%nat ltac:(lia)) as Q0. pose proof (Hq 1%nat ltac:(lia)) as Q1. pose proof (Hq1 1%nat ltac:(lia)) as Q2. cbn zeta in Q0, Q1, Q2. rewrite g0 in Q0. rewrite gN in Q1, Q2.
    split; [|split; [exact EF|split; [exact EF2|split; [exact SF2|split; [exact SF|]]]]].
    + constructor; try assumption.
      * intros k Hk. destruct k as [|[|]]; [| |lia]; unfold area, TriGeoSpec.corner, TriGeoSpec.cross, pminus; cbn; lra.
      * cbn [ment mask_table]. rewrite (nth_error_nth _ _ [] Ek). injection Q0 as Q0 _. injection Q1 as Q1 _.
        intros n n' Hn Hn' Hne. destruct n as [|[|]], n' as [|[|]]; try lia; rewrite Q0, Q1; unfold Rabs; destruct (Rcase_abs _); lra.
      * cbn. lia.
    + assert (P0 : (nth 0 mask 0 < 3)%nat) by (assert (X : In (nth 0 mask 0%nat) mask) by (apply nth_In; lia); apply Ink in X as (X & _); lia).
      assert (P1 : (nth 1 mask 0 < 3)%nat) by (assert (X : In (nth 1 mask 0%nat) mask) by (apply nth_In; lia); apply Ink in X as (X & _); lia).
      assert (P2 : (nth 1 mask1 0 < 3)%nat) by (assert (X : In (nth 1 mask1 0%nat) mask1) by (apply nth_In; lia); apply Ink1 in X as (X & _); lia).
      set (a := nth 0 mask 0%nat) in *. set (b := nth 1 mask 0%nat) in *. set (c := nth 1 mask1 0%nat) in *.
      assert (Nab : a <> b) by (intro E; rewrite E in Q0; rewrite Q0 in Q1; injection Q1; lra).
      assert (Nac : a <> c) by (intro E; rewrite E in Q0; rewrite Q0 in Q2; injection Q2; lra).
      assert (Nbc : b <> c) by (intro E; rewrite E in Q1; rewrite Q1 in Q2; injection Q2; lra).
      intros i k Hi Hk. destruct (C36_affine_grid _ _ _ _ _ _ _ _ _ _ _ _ HB) as (_ & _ & Hx). destruct (Hx i k Hi Hk) as (Ex & _). clear Hx.
      assert (Hcase : i = a \/ i = b \/ i = c) by lia. unfold affine_image in Ex.
      destruct Hcase as [-> |[-> |Hc]]; [injection Q0 as R1 R2|injection Q1 as R1 R2|rewrite Hc in *; injection Q2 as R1 R2]; rewrite R1, R2 in Ex; injection Ex as -> ->;
        destruct k as [|[|]]; try lia; unfold TriGeoSpec.corner; cbn; lra.
Qed.
Print Assumptions C110_start.
Print Assumptions C110_run.
Print Assumptions C110_volume.
Print Assumptions C110_no_wall_refuted.
Print Assumptions C110_level_run.
