(* Sw2dRunProps.v - C109: the program src/sw2d: its start, its step, its clock, its outputs and its instability test. *)
From Coq Require Import String ZArith List Lia Bool Arith Ascii.
From Coq Require Import SpecFloat.
From Verif Require Import Base Loops Num BlitzModel JacobiModel JacobiSpec JacobiProofs Nodes1DModel Nodes1DSpec CsvModel CsvSpec CsvProps SwDepthProofs MeshSpec TriModel TriSpec TriGeoSpec TriDGSpec TriProofs TriSetup DenseSpec TriOpProofs
  Maps2DModel Maps2DSpec TriMapsProofs TriMapsProps RKModel Line1DModel Line1DProofs SwModel SwSpec SwProofs SwSchemeProofs SwProps SwStepModel SwStepSpec SwStepProofs SwDtProofs SwStepProps
  SwSetupModel SwSetupSpec SwSetupProofs SwSetupProps Sw2dRunModel.
From Verif Require Import CurvedRunProofs TriProps TriWitness JacobiExactProofs UniqueProofs TriDGProofs TriElemProofs.
From Coq Require Import Reals Lra.
Import ListNotations.
Local Open Scope list_scope.
Local Open Scope R_scope.

(* ---------- the step ---------- *)
Section Step.
Context (G : R -> R) (Np K : nat) (S0 : mat R).
Hypothesis HS : forall i k, (i < Np)%nat -> (k < K)%nat -> ment S0 i k = 0.
Lemma no_sponge c y i k : (c < 3)%nat -> (i < Np)%nat -> (k < K)%nat -> ment (fieldc c (sponge_state (exact G) S0 y)) i k = ment (fieldc c y) i k.
Proof.
  intros Hc Hi Hk. destruct y as [[a b] e]. destruct c as [|[|[|]]]; [| | |lia]; cbn [sponge_state fieldc fst snd mzip ment]; [reflexivity| |]; unfold sponged; cbn [exact fdiv fadd fmul]; rewrite HS by assumption; rewrite fofn_INR; cbn [INR]; field.
Qed.
Lemma step_form rhs dt q z q' : rhs q = Ok z -> full_step (exact G) S0 rhs dt q = Ok q' ->
  exists q1 z1, q1 = sponge_state (exact G) S0 (advance_state (exact G) dt q z) /\ rhs q1 = Ok z1 /\ sum_of Np K dt q z q1 /\ sum_of Np K (dt / 2) q1 z1 q'.
Proof.
  intros Eq E. unfold full_step, two_stage in E. rewrite Eq in E. cbn [bind] in E. set (q1 := sponge_state (exact G) S0 (advance_state (exact G) dt q z)) in *.
  destruct (rhs q1) as [z1| |] eqn:E1; [|discriminate E|discriminate E]. cbn [bind] in E. injection E as <-. exists q1, z1. split; [reflexivity|]. split; [exact E1|]. split.
  - intros c i k Hc Hi Hk. unfold q1. rewrite no_sponge by assumption. destruct q as [[h hu] hv], z as [[a b] e]. destruct c as [|[|[|]]]; [| | |lia]; reflexivity.
  - intros c i k Hc Hi Hk. rewrite no_sponge by assumption. clearbody q1.
    transitivity (1 / 2 * (ment (fieldc c q1) i k + ment (fieldc c q1) i k + dt * ment (fieldc c z1) i k)); [|field].
    destruct q1 as [[h1 hu1] hv1], z1 as [[a b] e]. destruct c as [|[|[|]]]; [| | |lia]; reflexivity.
Qed.
End Step.

(* C109, what fails: the two sets of fields share their storage, so the second stage starts from the result of the first. Where
   there is no sponge a step of length dt is an Euler step of length dt followed by one of length dt/2. *)
Theorem C109_shared_storage_refuted G Np K S rhs dt q z q' : (forall i k, (i < Np)%nat -> (k < K)%nat -> ment S i k = 0) -> rhs q = Ok z -> full_step (exact G) S rhs dt q = Ok q' ->
  exists q1 z1, sum_of Np K dt q z q1 /\ rhs q1 = Ok z1 /\ sum_of Np K (dt / 2) q1 z1 q'.
Proof. intros HS Eq E. destruct (step_form G Np K S HS rhs dt q z q' Eq E) as (q1 & z1 & _ & A1 & A2 & A3). exists q1, z1. auto. Qed.
(* C109: so for a linear rate of change the result is not the Taylor polynomial q + dt L q + dt^2/2 L L q of the exact solution: it
   is off by dt/2 L q, however small the step. *)
Theorem C109_first_order_error_refuted G Np K S (rhs : field -> outcome field) dt q z z2 :
  (forall a b c w ra rb, state_conform w Np K = true -> sum_of Np K c a b w -> rhs a = Ok ra -> rhs b = Ok rb -> exists r, rhs w = Ok r /\ state_conform r Np K = true /\ sum_of Np K c ra rb r) ->
  state_conform q Np K = true -> rhs q = Ok z -> rhs z = Ok z2 -> (forall i k, (i < Np)%nat -> (k < K)%nat -> ment S i k = 0) -> shape S Np K ->
  exists q', full_step (exact G) S rhs dt q = Ok q' /\ forall c i k, (c < 3)%nat -> (i < Np)%nat -> (k < K)%nat ->
    ment (fieldc c q') i k = (ment (fieldc c q) i k + dt * ment (fieldc c z) i k + dt ^ 2 / 2 * ment (fieldc c z2) i k) + dt / 2 * ment (fieldc c z) i k.
Proof.
  intros HL HQ Eq Ez HS SS.
  assert (Ex : exists q', full_step (exact G) S rhs dt q = Ok q').
  { unfold full_step, two_stage. rewrite Eq. cbn [bind]. set (q1 := sponge_state (exact G) S _).
    destruct (HL q z dt q1 z z2) as (r & Er & _); auto.
    - unfold q1. destruct q as [[h hu] hv], z as [[a b] e]. unfold state_conform, conform in *. cbn [advance_state sponge_state mzip mrows mcols advance] in *. destruct SS as (-> & ->). rewrite !Nat.eqb_refl. rewrite !andb_true_iff in *. tauto.
    - intros c i k Hc Hi Hk. unfold q1. rewrite (no_sponge G Np K S HS) by assumption. destruct q as [[h hu] hv], z as [[a b] e]. destruct c as [|[|[|]]]; [| | |lia]; reflexivity.
    - rewrite Er. cbn [bind]. eauto. }
  destruct Ex as (q' & E). exists q'. split; [exact E|]. destruct (step_form G Np K S HS rhs dt q z q' Eq E) as (q1 & z1 & D1 & A1 & A2 & A3).
  assert (C1 : state_conform q1 Np K = true).
  { rewrite D1. destruct q as [[h hu] hv], z as [[a b] e]. unfold state_conform, conform in *. cbn [advance_state sponge_state mzip mrows mcols advance] in *. destruct SS as (-> & ->). rewrite !Nat.eqb_refl. rewrite !andb_true_iff in *. tauto. }
  destruct (HL q z dt q1 z z2 C1 A2 Eq Ez) as (r & Er & _ & Hr). rewrite A1 in Er. injection Er as <-.
  intros c i k Hc Hi Hk. rewrite (A3 c i k), (A2 c i k), (Hr c i k) by assumption. field.
Qed.

(* ---------- a run ---------- *)
Section Turns.
Context {T : Type} (A : arith T) (jv : nat -> T) (lowest : T) (d : dg2d (T := T)) (N Np K : nat) (g CFL huge : T) (H S : mat T) (rhs : T -> state (T := T) -> outcome (state (T := T))).
Local Notation turn := (sw2d_turn A jv lowest d N Np K g CFL huge H S rhs).
Lemma turn_inv s s' : turn s = Ok s' -> exists dt q', full_dt A jv lowest d N 3 (Datatypes.S N) Np K g CFL (f_q s) = Ok dt /\ full_step A S (rhs (f_t s)) dt (f_q s) = Ok q' /\
  blown_up A lowest huge (mzip (fsub A) (fst (fst (f_q s))) H) = false /\
  s' = FSim (fadd A (f_t s) dt) (Datatypes.S (f_count s)) q' (if (f_count s mod 20 =? 0)%nat then (f_count s, sw2d_fields A H (f_q s)) :: f_out s else f_out s).
Proof.
  intro E. unfold sw2d_turn in E. cbv zeta in E. destruct (full_dt _ _ _ _ _ _ _ _ _ _ _ _) as [dt| |] eqn:Ed; [|discriminate E|discriminate E]. cbn [bind] in E.
  destruct (full_step _ _ _ _ _) as [q'| |] eqn:Eq; [|discriminate E|discriminate E]. cbn [bind] in E. destruct (blown_up _ _ _ _) eqn:Eb; [discriminate E|]. injection E as <-. exists dt, q'. auto.
Qed.
(* C109: every turn takes one step of the length computed from the fields before it, adds that length to the clock and, every twentieth
   turn from the first, writes elevation and velocities of before the step under the number of the turn. *)
Theorem C109_turns n (s : nat -> sw2d_sim T) : history Ok turn n s -> f_count (s 0%nat) = 0%nat ->
  f_count (s n) = n /\
  (forall i, (i < n)%nat -> exists dt, full_dt A jv lowest d N 3 (Datatypes.S N) Np K g CFL (f_q (s i)) = Ok dt /\
     full_step A S (rhs (f_t (s i))) dt (f_q (s i)) = Ok (f_q (s (Datatypes.S i))) /\ f_t (s (Datatypes.S i)) = fadd A (f_t (s i)) dt) /\
  forall c w, In (c, w) (f_out (s n)) <-> In (c, w) (f_out (s 0%nat)) \/ (c < n)%nat /\ (c mod 20 = 0)%nat /\ w = sw2d_fields A H (f_q (s c)).
Proof.
  intros Hh H0. split; [|split].
  - induction n as [|n IH]; [exact H0|]. pose proof (Hh n ltac:(lia)) as E. apply turn_inv in E as (dt & q' & _ & _ & _ & ->). cbn [f_count]. f_equal. apply IH. intros i Hi. apply Hh. lia.
  - intros i Hi. pose proof (Hh i Hi) as E. apply turn_inv in E as (dt & q' & Ed & Eq & _ & ->). exists dt. cbn [f_q f_t]. auto.
  - assert (Hc : forall i, (i <= n)%nat -> f_count (s i) = i).
    { induction i as [|i IH]; intro Hi; [exact H0|]. pose proof (Hh i ltac:(lia)) as E. apply turn_inv in E as (dt & q' & _ & _ & _ & ->). cbn [f_count]. rewrite IH by lia. reflexivity. }
    induction n as [|n IH]; [intros; split; [tauto|intros [X|(X & _)]; [exact X|lia]]|].
    assert (Hh' : history Ok turn n s) by (intros i Hi; apply Hh; lia). specialize (IH Hh' ltac:(intros; apply Hc; lia)).
    pose proof (Hh n ltac:(lia)) as E. apply turn_inv in E as (dt & q' & _ & _ & _ & ->). cbn [f_out]. rewrite (Hc n) by lia. intros c w. remember (n mod 20 =? 0)%nat as b eqn:Hm. symmetry in Hm. destruct b; [apply Nat.eqb_eq in Hm|apply Nat.eqb_neq in Hm].
    + split.
      * intros [Ee|Hin]; [injection Ee as <- <-; right; repeat split; [lia|exact Hm]|]. apply IH in Hin as [X|(L & M & ->)]; [left; exact X|right; repeat split; [lia|exact M]].
      * intros [X|(L & M & ->)]; [right; apply IH; left; exact X|]. destruct (Nat.eq_dec c n) as [-> |]; [left; reflexivity|right; apply IH; right; repeat split; [lia|exact M]].
    + rewrite IH. split; (intros [X|(L & M & ->)]; [left; exact X|right; destruct (Nat.eq_dec c n) as [-> |]; [try contradiction; try lia|repeat split; [lia|exact M]]]).
Qed.
(* C109: a run that ends is a sequence of turns, each begun before the final time, and ends at the first clock reading that is not. *)
Theorem C109_run fuel finalTime s0 s' : sw2d_loop A jv lowest fuel d N Np K g CFL huge finalTime H S rhs s0 = Ok s' ->
  exists n s, history Ok turn n s /\ s 0%nat = s0 /\ s n = s' /\ (forall i, (i < n)%nat -> flt A (f_t (s i)) finalTime = true) /\ flt A (f_t s') finalTime = false.
Proof.
  revert s0. induction fuel as [|fuel IH]; intros s0 E; [discriminate E|]. cbn [sw2d_loop] in E. destruct (flt A (f_t s0) finalTime) eqn:Ef.
  - destruct (sw2d_turn _ _ _ _ _ _ _ _ _ _ _ _ _ s0) as [s1| |] eqn:E1; [|discriminate E|discriminate E]. cbn [bind] in E. destruct (IH s1 E) as (n & s & Hh & H0 & Hn & Hi & Hf).
    exists (Datatypes.S n), (fun i => match i with O => s0 | Datatypes.S j => s j end). split; [|split; [reflexivity|split; [exact Hn|split; [|exact Hf]]]].
    + intros [|i] Hi'; [rewrite H0; exact E1|]. apply Hh. lia.
    + intros [|i] Hi'; [exact Ef|apply Hi; lia].
  - injection E as <-. exists 0%nat, (fun _ => s0). repeat split; auto; intros i Hi; lia.
Qed.
End Turns.

(* C109: what is written is the elevation above the still water and the two velocities. *)
Theorem C109_written G H (q : field) i k : let w := sw2d_fields (exact G) H q in
  ment (fst (fst w)) i k = ment (fieldc 0 q) i k - ment H i k /\
  (ment (fieldc 0 q) i k <> 0 -> ment (snd (fst w)) i k * ment (fieldc 0 q) i k = ment (fieldc 1 q) i k /\ ment (snd w) i k * ment (fieldc 0 q) i k = ment (fieldc 2 q) i k).
Proof.
  destruct q as [[h hu] hv]. cbn [sw2d_fields fieldc fst snd]. unfold Line1DModel.mzip. cbn [ment exact fsub fdiv]. split; [reflexivity|]. intro Hh. split; field; exact Hh.
Qed.

(* C109, what fails: with a constant rate of change the fields have, after any number of turns, changed by one and a half times what
   the time on the clock accounts for. *)
Theorem C109_too_fast_refuted G jv lowest d N Np K g CFL huge H S (rhs : R -> field -> outcome field) z n s :
  (forall i k, (i < Np)%nat -> (k < K)%nat -> ment S i k = 0) -> (forall t q, rhs t q = Ok z) ->
  history Ok (sw2d_turn (exact G) jv lowest d N Np K g CFL huge H S rhs) n s ->
  sum_of Np K (3 / 2 * (f_t (s n) - f_t (s 0%nat))) (f_q (s 0%nat)) z (f_q (s n)).
Proof.
  intros HS Hz. induction n as [|n IH]; intro Hh; [intros c i k _ _ _; rewrite Rminus_diag_eq by reflexivity; ring|].
  assert (Hh' : history Ok (sw2d_turn (exact G) jv lowest d N Np K g CFL huge H S rhs) n s) by (intros i Hi; apply Hh; lia). specialize (IH Hh').
  pose proof (Hh n ltac:(lia)) as E. apply turn_inv in E as (dt & q' & _ & Eq & _ & E). rewrite E. cbn [f_t f_q]. cbn [exact fadd].
  destruct (step_form G Np K S HS _ _ _ _ _ (Hz _ _) Eq) as (q1 & z1 & _ & A1 & A2 & A3). rewrite Hz in A1. injection A1 as <-.
  intros c i k Hc Hi Hk. rewrite (A3 c i k), (A2 c i k), (IH c i k) by assumption. field.
Qed.

(* ---------- the instability test ---------- *)
Lemma in_grid {X} (u : mat X) i k : (i < mrows u)%nat -> (k < mcols u)%nat -> In (i, k) (list_prod (seq 0 (mrows u)) (seq 0 (mcols u))).
Proof. intros Hi Hk. apply in_prod; apply in_seq; lia. Qed.
(* C109: a turn that succeeds began with no depth further than the limit from the still depth. *)
Theorem C109_guard G jv lowest d N Np K g CFL huge H S rhs (s s' : sw2d_sim R) : sw2d_turn (exact G) jv lowest d N Np K g CFL huge H S rhs s = Ok s' ->
  let h := fst (fst (f_q s)) in forall i k, (i < mrows h)%nat -> (k < mcols h)%nat -> Rabs (ment h i k - ment H i k) <= huge.
Proof.
  intros E h i k Hi Hk. apply turn_inv in E as (dt & q' & _ & _ & Eb & _). unfold blown_up in Eb. apply Bool.orb_false_iff in Eb as (Eb & _). fold h in Eb. unfold max_abs in Eb.
  set (M := fold_left _ _ _) in Eb. destruct (Line1DBurgersProofs.max_abs_ge G (mzip (fsub (exact G)) h H) _ lowest M eq_refl) as (_ & HM & _).
  specialize (HM i k (in_grid (mzip (fsub (exact G)) h H) i k Hi Hk)). unfold Line1DModel.mzip in HM; cbn [ment exact fsub] in HM.
  cbn [exact flt fabs] in Eb. unfold Rltb in Eb. destruct (Rlt_dec huge (Rabs M)) as [L|L]; [discriminate Eb|]. pose proof (Rle_abs M). lra.
Qed.
Lemma not_blown G lowest huge (eta : mat R) : lowest <= 0 -> (0 < mrows eta)%nat -> (0 < mcols eta)%nat -> (forall i k, (i < mrows eta)%nat -> (k < mcols eta)%nat -> Rabs (ment eta i k) <= huge) ->
  blown_up (exact G) lowest huge eta = false.
Proof.
  intros Hl Hr Hc H. unfold blown_up. apply Bool.orb_false_iff. split.
  - unfold max_abs. set (M := fold_left _ _ _). destruct (Line1DBurgersProofs.max_abs_ge G eta _ lowest M eq_refl) as (_ & HM & Ho).
    pose proof (HM 0%nat 0%nat (in_grid eta 0 0 Hr Hc)) as H0. pose proof (Rabs_pos (ment eta 0 0)) as Hp. cbn [exact flt fabs]. unfold Rltb. destruct (Rlt_dec huge (Rabs M)) as [L|L]; [|reflexivity]. exfalso.
    rewrite Rabs_right in L by lra. destruct Ho as [Ho|(i & k & Hin & Ho)].
    + pose proof (H 0%nat 0%nat Hr Hc). lra.
    + apply in_prod_iff in Hin as (Hi & Hk). apply in_seq in Hi, Hk. pose proof (H i k ltac:(lia) ltac:(lia)). lra.
  - cbn [exact fle]. unfold Rleb. destruct (Rle_dec _ _) as [|n]; [reflexivity|]. exfalso. apply n. right. reflexivity.
Qed.
(* C109, what fails: the test looks at the elevation from before the step. If that is within the limit the turn succeeds whatever the
   step made of the fields, and if the clock has then reached the final time the run returns them. *)
Theorem C109_late_test_refuted G jv lowest d N Np K g CFL huge H S rhs s dt q' : lowest <= 0 -> let h := fst (fst (f_q s)) in (0 < mrows h)%nat -> (0 < mcols h)%nat ->
  (forall i k, (i < mrows h)%nat -> (k < mcols h)%nat -> Rabs (ment h i k - ment H i k) <= huge) ->
  full_dt (exact G) jv lowest d N 3 (Datatypes.S N) Np K g CFL (f_q s) = Ok dt -> full_step (exact G) S (rhs (f_t s)) dt (f_q s) = Ok q' ->
  exists s', sw2d_turn (exact G) jv lowest d N Np K g CFL huge H S rhs s = Ok s' /\ f_q s' = q' /\ f_t s' = f_t s + dt /\
  forall fuel finalTime, f_t s < finalTime <= f_t s + dt -> sw2d_loop (exact G) jv lowest (2 + fuel) d N Np K g CFL huge finalTime H S rhs s = Ok s'.
Proof.
  intros Hl h Hr Hc He Ed Eq.
  assert (Et : exists s', sw2d_turn (exact G) jv lowest d N Np K g CFL huge H S rhs s = Ok s' /\ f_q s' = q' /\ f_t s' = f_t s + dt).
  { eexists. unfold sw2d_turn. cbv zeta. rewrite Ed. cbn [bind]. rewrite Eq. cbn [bind]. rewrite (not_blown G lowest huge (mzip (fsub (exact G)) (fst (fst (f_q s))) H)); [split; [reflexivity|split; reflexivity]|assumption..]. }
  destruct Et as (s' & E1 & E2 & E3). exists s'. repeat split; auto. intros fuel finalTime (T1 & T2). cbn [sw2d_loop plus]. cbn [exact flt]. unfold Rltb at 1. destruct (Rlt_dec _ _) as [_|n]; [|contradiction].
  rewrite E1. cbn [bind sw2d_loop]. cbn [exact flt]. unfold Rltb at 1. rewrite E3. destruct (Rlt_dec _ _) as [L|_]; [lra|reflexivity].
Qed.
(* C109: in doubles a single NaN in the elevation ends the run at the next turn: the sum is NaN. *)
Theorem C109_nan_caught gp gg jv lowest d N Np K g CFL huge H S rhs (s : sw2d_sim spec_float) i k : let h := fst (fst (f_q s)) in (i < mrows h)%nat -> (k < mcols h)%nat ->
  SFsub 53 1024 (ment h i k) (ment H i k) = S754_nan -> forall s', sw2d_turn (dbl_arith gp gg) jv lowest d N Np K g CFL huge H S rhs s <> Ok s'.
Proof.
  intros h Hi Hk Hn s' E. apply turn_inv in E as (dt & q' & _ & _ & Eb & _). unfold blown_up in Eb. apply Bool.orb_false_iff in Eb as (_ & Eb). fold h in Eb.
  set (eta := mzip (fsub (dbl_arith gp gg)) h H) in *. assert (Et : total (dbl_arith gp gg) eta = S754_nan).
  { unfold total. assert (Ha : forall x, SFadd 53 1024 S754_nan x = S754_nan) by (intros []; reflexivity). assert (Hb : forall x, SFadd 53 1024 x S754_nan = S754_nan) by (intros []; reflexivity).
    assert (Hs : forall l, fold_left (fun s ij => fadd (dbl_arith gp gg) s (ment eta (fst ij) (snd ij))) l S754_nan = S754_nan) by (induction l as [|ij l IH]; cbn [fold_left]; [reflexivity|cbn [dbl_arith fadd]; rewrite Ha; exact IH]).
    assert (HL : forall l s0, In (i, k) l -> fold_left (fun s ij => fadd (dbl_arith gp gg) s (ment eta (fst ij) (snd ij))) l s0 = S754_nan).
    { induction l as [|ij l IH]; intros s0 Hin; [destruct Hin|]. cbn [fold_left]. destruct Hin as [-> |Hin]; [|apply IH, Hin]. cbn [fst snd]. unfold eta at 2. unfold Line1DModel.mzip. cbn [ment dbl_arith fsub fadd]. rewrite Hn, Hb. apply Hs. }
    apply HL. apply (in_grid eta); assumption. }
  rewrite Et in Eb. discriminate Eb.
Qed.

(* ---------- the tide ---------- *)
(* C109: the tide is a wave of 12.42 hours and height 3 that is switched on after one period, and never reaches that height. *)
Theorem C109_tide G t : let P := 3600 * (1242 / 100) in
  tide_at (exact G) cos tanh PI t = 3 * cos (2 * PI / P * t) * ((1 + tanh (15 / 100 / 3600 * (t - P))) / 2) /\ Rabs (tide_at (exact G) cos tanh PI t) < 3.
Proof.
  intro P. assert (E : tide_at (exact G) cos tanh PI t = 3 * cos (2 * PI / P * t) * ((1 + tanh (15 / 100 / 3600 * (t - P))) / 2)).
  { unfold tide_at, tide_period. cbv zeta. rewrite fhalf_exact, !fofn_INR. cbn [exact fadd fsub fmul fdiv fofZ]. rewrite !INR_IZR_INZ.
    change (Z.of_nat 15) with 15%Z. change (Z.of_nat 100) with 100%Z. change (Z.of_nat 1) with 1%Z. change (Z.of_nat 2) with 2%Z. change (Z.of_nat 3) with 3%Z. fold P. field. }
  split; [exact E|]. rewrite E, !Rabs_mult. pose proof (tanh_range (15 / 100 / 3600 * (t - P))) as (A1 & A2). pose proof (COS_bound (2 * PI / P * t)) as (B1 & B2).
  rewrite (Rabs_right 3) by lra. rewrite (Rabs_right ((1 + _) / 2)) by lra. pose proof (Rabs_pos (cos (2 * PI / P * t))) as C1. assert (C2 : Rabs (cos (2 * PI / P * t)) <= 1) by (apply Rabs_le; split; assumption).
  set (a := Rabs _) in *. set (b := tanh _) in *. clearbody a b. nra.
Qed.

(* ---------- the start ---------- *)
Section Start.
Context (G : R -> R) (solve : mat R -> mat R -> mat R -> outcome (mat R)) (inverse : mat R -> mat R -> outcome (mat R))
  (junk : nat -> nat -> R) (eps : R) (eig : nat -> (nat -> nat -> R) -> list R * (nat -> nat -> R)) (tol : R)
  (sort : (nat -> nat -> bool) -> list nat -> list nat) (junk1 : nat -> R) (junkn : nat -> nat)
  (N K : nat) (Vert : list R) (EToV E2E E2F : list nat) (bcType : list Z) (el : element (T := R)) (m : maps).
Variables (jk : nat -> nat -> R) (jv : nat -> R) (lowest : R).     (* uninitialised storage; the start of a maximum *)
Local Notation Grid := (sw_grid G solve inverse junk eps eig tol sort junk1 junkn N K Vert EToV E2E E2F bcType el m).
Local Notation Np := (length (e_r el)).
Local Notation setup conv file opn F := (sw2d_setup (exact G) rhypot jk jv junkn conv file opn (tables_of el m) F (e_x el) (e_y el) EToV bcType N Np K).
Local Notation program fuel conv file opn F := (sw2d_program (exact G) rhypot cos tanh PI jk jv junkn lowest fuel conv file opn (tables_of el m) F (e_x el) (e_y el) EToV bcType N Np K).
(* some side has both ends among the open vertices, or came with the tag of an open side *)
Local Notation opened opn := (exists k f, (k < K)%nat /\ (f < 3)%nat /\ (open_side opn EToV k f = true \/ tag_of bcType k f = 2%Z)).

(* C109: up to order 4, with a file that holds one number a line and no more numbers than there are nodes, and with an open side, the
   program gets to its loop: with the depths of the file, at least 150, in water that is level and at rest. *)
Theorem C109_start conv t vs opn F : Grid -> (N <= 4)%nat -> small_text t -> column conv t vs -> (length vs <= Np * K)%nat -> opened opn ->
  exists r bc', setup conv (Some t) opn F = Ok r /\ tag_open opn EToV K bcType = Ok bc' /\ retagged junkn opn EToV 3 (S N) K bcType (tables_of el m) = Ok (r_d r) /\
  (r_Hx r, r_Hy r) = filtered_slopes (exact G) F (bed_slopes (exact G) (tables_of el m) Np K (r_H r)) /\
  shape (r_H r) Np K /\ shape (r_S r) Np K /\ state_conform (r_q r) Np K = true /\
  forall n k, (n < Np)%nat -> (k < K)%nat ->
    ment (r_H r) n k = Rmax 150 (nth (k * Np + n) vs 0) /\ ment (fieldc 0 (r_q r)) n k = ment (r_H r) n k /\ ment (fieldc 1 (r_q r)) n k = 0 /\ ment (fieldc 2 (r_q r)) n k = 0 /\
    sponge_value (on_tagged 2 Np K Vert EToV (e_x el) (e_y el) bc') 10000 1000 0 (node_at (e_x el) (e_y el) n k) (ment (r_S r) n k).
Proof.
  intros HG HN Hs Hc Hl (ko & fo & Hko & Hfo & Ho). destruct (C83_tags _ _ _ _ _ _ _ _ _ _ _ _ _ _ _ _ _ _ _ HG opn) as (bc' & d' & Et & _ & Htag & Er).
  destruct (C83_depth (exact G) conv t (mkmat Np K jk) vs Hs Hc Hl) as (H & EH & H1 & H2 & HH). cbn [mrows mcols] in *.
  destruct (C83_sponge _ _ _ _ _ _ _ _ _ _ _ _ _ _ _ _ _ _ _ jv HG HN opn bc' d' Et Er) with (strength := 10000) (rad := 1000) (C := mzero (exact G) Np K) as (C & EC & SC & HC).
  { exists ko, fo. repeat split; try assumption. rewrite Htag by assumption. destruct Ho as [-> | ->]; [reflexivity|destruct (open_side _ _ _ _); reflexivity]. }
  { lra. } { split; reflexivity. }
  unfold sw2d_setup. rewrite EH. cbn [bind]. destruct (filtered_slopes _ _ _) as [Hx Hy] eqn:Ef. rewrite Er. cbn [bind]. change (fofZ (exact G) 10000) with 10000. change (fofZ (exact G) 1000) with 1000. rewrite EC. cbn [bind].
  eexists _, bc'. split; [reflexivity|]. split; [exact Et|]. cbn [r_d r_H r_Hx r_Hy r_S r_q]. split; [reflexivity|]. split; [symmetry; exact Ef|]. split; [split; assumption|]. split; [exact SC|].
  split; [unfold state_conform, conform, Line1DModel.mzip, mzero; cbn [mrows mcols]; rewrite H1, H2, !Nat.eqb_refl; reflexivity|].
  intros n k Hn Hk. split; [|split; [|split; [|split; [|]]]].
  - rewrite HH by assumption. cbn [exact fofZ flt]. unfold Rltb. destruct (Rlt_dec _ _) as [L|L]; [rewrite Rmax_left by lra; reflexivity|rewrite Rmax_right by lra; reflexivity].
  - cbn [fieldc fst snd]. unfold Line1DModel.mzip, mzero. cbn [ment]. rewrite fofn_INR. cbn [exact fadd INR]. ring.
  - cbn [fieldc fst snd]. unfold Line1DModel.mzip, mzero. cbn [ment]. rewrite fofn_INR. cbn [exact fadd fmul INR]. ring.
  - cbn [fieldc fst snd]. unfold Line1DModel.mzip, mzero. cbn [ment]. rewrite fofn_INR. cbn [exact fadd fmul INR]. ring.
  - specialize (HC n k Hn Hk). cbn [mzero ment] in HC. rewrite fofn_INR in HC. exact HC.
Qed.
(* C109: a run of the program that ends began with that, at the initial time, and had taken one turn after the other with the rates
   of the scheme for the depths, the slopes and the sponge set up and the tide of the time on the clock. *)
Theorem C109_program fuel conv file opn F g CD f0 CFL huge t0 finalTime s' : program fuel conv file opn F g CD f0 CFL huge t0 finalTime = Ok s' ->
  exists r n (s : nat -> sw2d_sim R), setup conv file opn F = Ok r /\ f_t (s 0%nat) = t0 /\ f_q (s 0%nat) = r_q r /\ s n = s' /\ f_count s' = n /\ finalTime <= f_t s' /\
  (forall i, (i < n)%nat -> f_t (s i) < finalTime /\ exists dt, full_dt (exact G) jv lowest (r_d r) N 3 (S N) Np K g CFL (f_q (s i)) = Ok dt /\ f_t (s (S i)) = f_t (s i) + dt /\
     full_step (exact G) (r_S r) (sw_rhs (exact G) jk jv lowest (r_d r) 3 (S N) Np K g CD f0 (tide_at (exact G) cos tanh PI (f_t (s i))) (r_H r) (r_Hx r) (r_Hy r)) dt (f_q (s i)) = Ok (f_q (s (S i)))) /\
  forall c w, In (c, w) (f_out s') -> c = 0%nat /\ (forall i k, ment (fst (fst w)) i k = 0 /\ ment (snd (fst w)) i k = 0 /\ ment (snd w) i k = 0) \/
    (c < n)%nat /\ (c mod 20 = 0)%nat /\ w = sw2d_fields (exact G) (r_H r) (f_q (s c)).
Proof.
  intro E. unfold sw2d_program in E. destruct (sw2d_setup _ _ _ _ _ _ _ _ _ _ _ _ _ _ _ _ _) as [r| |] eqn:Es; [|discriminate E|discriminate E]. cbn [bind] in E. cbv zeta in E.
  destruct (C109_run _ _ _ _ _ _ _ _ _ _ _ _ _ _ _ _ _ E) as (n & s & Hh & H0 & Hn & Hi & Hf). destruct (C109_turns _ _ _ _ _ _ _ _ _ _ _ _ _ n s Hh) as (Hc & Ht & Ho); [rewrite H0; reflexivity|].
  assert (Z0 : forall t, Rltb t finalTime = false -> finalTime <= t) by (intros t; unfold Rltb; destruct (Rlt_dec t finalTime); [discriminate|lra]).
  assert (Z1 : forall t, Rltb t finalTime = true -> t < finalTime) by (intros t; unfold Rltb; destruct (Rlt_dec t finalTime); [lra|discriminate]).
  exists r, n, s. split; [reflexivity|]. split; [rewrite H0; reflexivity|]. split; [rewrite H0; reflexivity|]. split; [exact Hn|]. split; [rewrite <- Hn; exact Hc|]. split; [apply Z0; exact Hf|]. split.
  - intros i Hl. split; [apply Z1, Hi, Hl|]. destruct (Ht i Hl) as (dt & D1 & D2 & D3). exists dt. auto.
  - intros c w Hin. rewrite <- Hn in Hin. apply Ho in Hin as [X|X]; [left|right; exact X]. rewrite H0 in X. cbn [f_out] in X. destruct X as [X|[]]. injection X as <- <-. split; [reflexivity|].
    intros i k. cbn [fst snd mzero ment]. rewrite fofn_INR. repeat split; reflexivity.
Qed.
(* C109, what fails: the open vertices are numbers in the source. On a mesh none of whose sides has both ends among them the program
   throws, whatever else it is given. *)
Theorem C109_other_mesh_refuted conv t vs opn F : Grid -> small_text t -> column conv t vs -> (length vs <= Np * K)%nat ->
  (forall k f, (k < K)%nat -> (f < 3)%nat -> open_side opn EToV k f = false /\ tag_of bcType k f <> 2%Z) ->
  forall fuel g CD f CFL huge t0 finalTime, program fuel conv (Some t) opn F g CD f CFL huge t0 finalTime = Throw.
Proof.
  intros HG Hs Hc Hl Hno fuel g CD f CFL huge t0 finalTime. destruct (C83_tags _ _ _ _ _ _ _ _ _ _ _ _ _ _ _ _ _ _ _ HG opn) as (bc' & d' & Et & _ & Htag & Er).
  destruct (C83_depth (exact G) conv t (mkmat Np K jk) vs Hs Hc Hl) as (H & EH & H1 & H2 & HH).
  unfold sw2d_program, sw2d_setup. rewrite EH. cbn [bind]. destruct (filtered_slopes _ _ _) as [Hx Hy]. rewrite Er. cbn [bind].
  rewrite (C83_sponge_no_open_throws _ _ _ _ _ _ _ _ _ _ _ _ _ _ _ _ _ _ _ jv HG opn bc' d' Et Er); [reflexivity|].
  intros k f' Hk Hf. rewrite Htag by assumption. destruct (Hno k f' Hk Hf) as (-> & X). exact X.
Qed.
(* C109: the tide never dries an open side, so while there is water at every node the rates of a turn are computed. *)
Theorem C109_rates opn bc' d' H Hx Hy : Grid -> lowest <= 0 -> tag_open opn EToV K bcType = Ok bc' -> retagged junkn opn EToV 3 (S N) K bcType (tables_of el m) = Ok d' ->
  (exists k f, (k < K)%nat /\ (f < 3)%nat /\ tag_of bc' k f = 3%Z) -> (exists k f, (k < K)%nat /\ (f < 3)%nat /\ tag_of bc' k f = 2%Z) ->
  state_conform (H, Hx, Hy) Np K = true -> (forall i k, (i < Np)%nat -> (k < K)%nat -> 150 <= ment H i k) ->
  (forall i k i2 k2, (i < Np)%nat -> (k < K)%nat -> (i2 < Np)%nat -> (k2 < K)%nat -> node_at (e_x el) (e_y el) i k = node_at (e_x el) (e_y el) i2 k2 -> ment H i k = ment H i2 k2) ->
  forall g CD f0 t q, state_conform q Np K = true -> (forall i k, (i < Np)%nat -> (k < K)%nat -> 0 < part 0 (at_node q i k)) ->
  let tide := tide_at (exact G) cos tanh PI t in
  exists z r, sw_rhs (exact G) jk jv lowest d' 3 (S N) Np K g CD f0 tide H Hx Hy q = Ok z /\ state_conform z Np K = true /\
    dg_scheme N Np K Vert EToV (e_x el) (e_y el) g q (walls_and_tide bc' H tide) (global_speed Np K Vert EToV (e_x el) (e_y el) g q (walls_and_tide bc' H tide)) r /\
    forall c i k, (c < 3)%nat -> (i < Np)%nat -> (k < K)%nat ->
      ment (fieldc c z) i k = ment (fieldc c r) i k + source g CD f0 (ment Hx i k) (ment Hy i k) c (at_node q i k).
Proof.
  intros HG Hl Et Er H3 H2 HC Hd Hsv g CD f0 t q HQ Hw tide.
  apply (C83_scheme G solve inverse junk eps eig tol sort junk1 junkn N K Vert EToV E2E E2F bcType el m jk jv lowest HG Hl opn bc' d' Et Er H3 H2 g CD f0 tide H Hx Hy q HQ HC Hw Hsv).
  intros i k f Hi Hk Hf _. pose proof (Hd i k Hi Hk). destruct (C109_tide G t) as (_ & B). fold tide in B. apply Rabs_def2 in B. lra.
Qed.
(* C109: where depths, walls and an open side are given, and for a small enough CFL number, the program takes its first turn and
   returns if that reaches the final time. *)
Theorem C109_first_turn conv t vs opn F bc' : Grid -> (N <= 4)%nat -> lowest <= 0 -> small_text t -> column conv t vs -> (length vs <= Np * K)%nat -> tag_open opn EToV K bcType = Ok bc' ->
  (exists k f, (k < K)%nat /\ (f < 3)%nat /\ tag_of bc' k f = 3%Z) -> (exists k f, (k < K)%nat /\ (f < 3)%nat /\ tag_of bc' k f = 2%Z) ->
  (let depth i k := Rmax 150 (nth (k * Np + i) vs 0) in
   forall i k i2 k2, (i < Np)%nat -> (k < K)%nat -> (i2 < Np)%nat -> (k2 < K)%nat -> node_at (e_x el) (e_y el) i k = node_at (e_x el) (e_y el) i2 k2 -> depth i k = depth i2 k2) ->
  forall g CD f0 huge t0, 0 < g -> 0 <= huge -> exists CFL0, 0 < CFL0 /\ forall CFL, 0 < CFL <= CFL0 ->
  exists dt s', 0 < dt /\ f_count s' = 1%nat /\ f_t s' = t0 + dt /\ forall fuel, program (2 + fuel) conv (Some t) opn F g CD f0 CFL huge t0 (t0 + dt) = Ok s'.
Proof.
  intros HG HN Hl Hs Hc HL Et H3 H2 Hsv g CD f0 huge t0 Hg Hh.
  destruct (C83_tags _ _ _ _ _ _ _ _ _ _ _ _ _ _ _ _ _ _ _ HG opn) as (bc2 & d2 & Et2 & _ & Htag & _). rewrite Et in Et2. injection Et2 as <-.
  destruct (C109_start conv t vs opn F HG HN Hs Hc HL) as (r & bc2 & Es & Et2 & Er & Eh & SH & SS & CQ & Hval).
  { destruct H2 as (k & f & Hk & Hf & E). exists k, f. repeat split; auto. rewrite Htag in E by assumption. destruct (open_side opn EToV k f); auto. }
  rewrite Et in Et2. injection Et2 as <-.
  assert (CH : state_conform (r_H r, r_Hx r, r_Hy r) Np K = true).
  { assert (E1 := f_equal fst Eh). assert (E2 := f_equal snd Eh). unfold filtered_slopes in E1, E2. cbn [fst snd] in E1, E2. destruct SH as (S1 & S2). destruct (in_place_ok G F (fst (bed_slopes (exact G) (tables_of el m) Np K (r_H r)))) as (X1 & X2 & _).
    destruct (in_place_ok G F (snd (bed_slopes (exact G) (tables_of el m) Np K (r_H r)))) as (Y1 & Y2 & _). cbv zeta in X1, X2, Y1, Y2. unfold state_conform, conform. rewrite E1, E2, X1, X2, Y1, Y2, S1, S2.
    cbn [bed_slopes fst snd scaled_product mrows mcols]. unfold Line1DModel.mzip. cbn [mrows mcols]. rewrite !Nat.eqb_refl. reflexivity. }
  assert (Hdeep : forall i k, (i < Np)%nat -> (k < K)%nat -> 150 <= ment (r_H r) i k) by (intros i k Hi Hk; destruct (Hval i k Hi Hk) as (-> & _); apply Rmax_l).
  assert (Hone : forall i k i2 k2, (i < Np)%nat -> (k < K)%nat -> (i2 < Np)%nat -> (k2 < K)%nat -> node_at (e_x el) (e_y el) i k = node_at (e_x el) (e_y el) i2 k2 -> ment (r_H r) i k = ment (r_H r) i2 k2).
  { intros i k i2 k2 Hi Hk Hi2 Hk2 E. destruct (Hval i k Hi Hk) as (-> & _). destruct (Hval i2 k2 Hi2 Hk2) as (-> & _). apply Hsv; assumption. }
  pose proof (fun q CQ HW => C109_rates opn bc' (r_d r) (r_H r) (r_Hx r) (r_Hy r) HG Hl Et Er H3 H2 CH Hdeep Hone g CD f0 t0 q CQ HW) as Rates. cbv zeta in Rates.
  set (rhs := sw_rhs (exact G) jk jv lowest (r_d r) 3 (S N) Np K g CD f0 (tide_at (exact G) cos tanh PI t0) (r_H r) (r_Hx r) (r_Hy r)) in *.
  assert (Hwet : forall i k, (i < Np)%nat -> (k < K)%nat -> 150 <= ment (fieldc 0 (r_q r)) i k).
  { intros i k Hi Hk. destruct (Hval i k Hi Hk) as (_ & -> & _). apply Hdeep; assumption. }
  destruct (Rates (r_q r) CQ) as (z & _ & Ez & Cz & _).
  { intros i k Hi Hk. pose proof (Hwet i k Hi Hk) as X. destruct (r_q r) as [[h hu] hv]. cbn in X |- *. lra. }
  (* a bound on the rate of change of the depth *)
  assert (Bd : forall n (f : nat -> R), exists M, 0 <= M /\ forall i, (i < n)%nat -> Rabs (f i) <= M).
  { induction n as [|n IH]; intro f; [exists 0; split; [lra|intros; lia]|]. destruct (IH f) as (M & M0 & HM). exists (Rmax M (Rabs (f n))). split; [apply Rle_trans with M; [exact M0|apply Rmax_l]|].
    intros i Hi. destruct (Nat.eq_dec i n) as [-> |]; [apply Rmax_r|]. apply Rle_trans with M; [apply HM; lia|apply Rmax_l]. }
  destruct (Bd (Np * K)%nat (fun j => ment (fieldc 0 z) (j mod Np) (j / Np))) as (M & M0 & HM).
  pose proof (sg_built _ _ _ _ _ _ _ _ _ _ _ _ _ _ _ _ _ _ _ HG) as HB. pose proof (sg_area _ _ _ _ _ _ _ _ _ _ _ _ _ _ _ _ _ _ _ HG) as HA.
  assert (HK : (0 < K)%nat) by (destruct H2 as (k & _ & Hk & _); lia).
  pose proof (fn_lt _ _ _ _ _ _ _ _ _ _ _ _ HB 0%nat 0%nat ltac:(lia) ltac:(lia)) as Hfn.
  assert (HM' : forall i k, (i < Np)%nat -> (k < K)%nat -> Rabs (ment (fieldc 0 z) i k) <= M).
  { intros i k Hi Hk. specialize (HM (k * Np + i)%nat ltac:(nia)). rewrite Nat.add_comm, Nat.mod_add, Nat.mod_small, Nat.div_add, Nat.div_small in HM by lia. exact HM. }
  (* the length of the step is proportional to the CFL number *)
  assert (Ex : exists v, crossing_rate Np K Vert EToV (e_x el) (e_y el) g (r_q r) v /\ 0 < v).
  { destruct (side_pt _ _ _ _ _ _ _ _ _ _ _ _ HB 0%nat 0%nat ltac:(lia) ltac:(lia)) as (tt & Ht). pose proof (fs_at _ _ _ _ _ _ _ _ _ _ _ _ HB HA 0%nat 0%nat 0%nat ltac:(lia) ltac:(lia) ltac:(lia)) as (F1 & F2). rewrite F2 in F1.
    eexists. split; [exists 0%nat, 0%nat, (fnode el 0 0), tt; repeat split; try lia; first [exact Hfn|apply Ht; lia]|].
    apply Rmult_lt_0_compat; [exact F1|]. pose proof (Hwet (fnode el 0 0) 0%nat Hfn HK) as X. unfold wave_speed. destruct (r_q r) as [[h hu] hv]. cbn in X |- *.
    pose proof (sqrt_pos (ment hu (fnode el 0 0) 0 / ment h (fnode el 0 0) 0 * (ment hu (fnode el 0 0) 0 / ment h (fnode el 0 0) 0) + ment hv (fnode el 0 0) 0 / ment h (fnode el 0 0) 0 * (ment hv (fnode el 0 0) 0 / ment h (fnode el 0 0) 0))).
    pose proof (sqrt_lt_R0 (g * ment h (fnode el 0 0) 0) ltac:(nra)). lra. }
  assert (Edt : forall CFL, full_dt (exact G) jv lowest (r_d r) N 3 (S N) Np K g CFL (r_q r) = full_dt (exact G) jv lowest (tables_of el m) N 3 (S N) Np K g CFL (r_q r)).
  { intro CFL. unfold retagged in Er. rewrite Et in Er. cbn [bind] in Er. destruct (buildBCHash _ _ _ _ _ _) as [bc| |]; [|discriminate Er|discriminate Er]. cbn [bind] in Er. injection Er as <-. reflexivity. }
  destruct (C78_time_step G solve inverse junk eps eig tol sort junk1 junkn N K Vert EToV E2E E2F bcType el m jv lowest HG Hl g 1 (r_q r) ltac:(lra) CQ Ex) as (_ & dt1 & E1 & P1 & _).
  assert (Esc : forall CFL, full_dt (exact G) jv lowest (r_d r) N 3 (S N) Np K g CFL (r_q r) = Ok (CFL * dt1)).
  { intro CFL. rewrite Edt. clear - E1. destruct (r_q r) as [[h hu] hv]. unfold full_dt in *. cbv zeta in *.
    repeat match type of E1 with bind ?o _ = _ => destruct o as [?| |]; [cbn [bind] in *|discriminate E1|discriminate E1] end. injection E1 as <-. cbn [exact fdiv]. unfold Rdiv. f_equal. rewrite Rmult_1_l. reflexivity. }
  exists (75 / ((M + 1) * dt1)). split; [apply Rdiv_lt_0_compat; [lra|apply Rmult_lt_0_compat; lra]|]. intros CFL (C0 & C1). set (dt := CFL * dt1).
  assert (Pd : 0 < dt) by (apply Rmult_lt_0_compat; assumption).
  assert (Bdt : dt * M <= 75).
  { apply Rle_trans with (dt * (M + 1)); [apply Rmult_le_compat_l; lra|]. unfold dt. rewrite Rmult_assoc, (Rmult_comm dt1). replace 75 with (75 / ((M + 1) * dt1) * ((M + 1) * dt1)) by (field; split; lra). apply Rmult_le_compat_r; [apply Rmult_le_pos; lra|exact C1]. }
  assert (Estep : exists q', full_step (exact G) (r_S r) rhs dt (r_q r) = Ok q').
  { unfold full_step, two_stage. rewrite Ez. cbn [bind]. destruct (Rates (sponge_state (exact G) (r_S r) (advance_state (exact G) dt (r_q r) z))) as (z1 & _ & Ez1 & _).
    - destruct SS as (SS1 & SS2). destruct (r_q r) as [[h hu] hv], z as [[a b] e]. unfold state_conform, conform in *. cbn [advance_state sponge_state mzip mrows mcols advance] in *. rewrite SS1, SS2, !Nat.eqb_refl.
      rewrite !andb_true_iff in CQ |- *. tauto.
    - intros i k Hi Hk. pose proof (Hwet i k Hi Hk) as X. pose proof (HM' i k Hi Hk) as Y. pose proof (Rle_abs (- ment (fieldc 0 z) i k)) as Y2. rewrite Rabs_Ropp in Y2. destruct (r_q r) as [[h hu] hv], z as [[a b] e]. cbn in X, Y, Y2 |- *. nra.
    - rewrite Ez1. cbn [bind]. eauto. }
  destruct Estep as (q' & Eq).
  destruct (C109_late_test_refuted G jv lowest (r_d r) N Np K g CFL huge (r_H r) (r_S r)
    (fun t => sw_rhs (exact G) jk jv lowest (r_d r) 3 (S N) Np K g CD f0 (tide_at (exact G) cos tanh PI t) (r_H r) (r_Hx r) (r_Hy r))
    (FSim t0 0 (r_q r) [(0%nat, (mzero (exact G) Np K, mzero (exact G) Np K, mzero (exact G) Np K))]) dt q' Hl) as (s' & E2 & E3 & E4 & E5).
  - cbn [f_q]. destruct (r_q r) as [[h hu] hv]. unfold state_conform, conform in CQ. rewrite !andb_true_iff, !Nat.eqb_eq in CQ. cbn [fst]. lia.
  - cbn [f_q]. destruct (r_q r) as [[h hu] hv]. unfold state_conform, conform in CQ. rewrite !andb_true_iff, !Nat.eqb_eq in CQ. cbn [fst]. lia.
  - cbn [f_q]. intros i k Hi Hk. assert (Hi' : (i < Np)%nat /\ (k < K)%nat) by (destruct (r_q r) as [[h hu] hv]; unfold state_conform, conform in CQ; rewrite !andb_true_iff, !Nat.eqb_eq in CQ; cbn [fst] in *; lia).
    destruct (Hval i k (proj1 Hi') (proj2 Hi')) as (_ & X & _). cbn [fieldc] in X. rewrite X, Rminus_diag_eq by reflexivity. rewrite Rabs_R0. exact Hh.
  - apply Esc.
  - exact Eq.
  - exists dt, s'. split; [exact Pd|]. split; [|split; [exact E4|]].
    + apply turn_inv in E2 as (? & ? & _ & _ & _ & ->). reflexivity.
    + intro fuel. unfold sw2d_program. rewrite Es. cbn [bind]. apply E5. cbn [f_t]. lra.
Qed.
End Start.

(* The hypotheses are met: two triangles; a file of three depths; the side between vertices 1 and 2 open, or none; level water at rest
   over a bed of depth 150, and a first turn with a constant rate of change. *)
Example C109_witness :
  let Vert := [0; 0; 0;  1; 0; 0;  1; 1; 0;  0; 1; 0] in let EToV := [0; 1; 2;  0; 2; 3]%nat in
  let E2E := [0; 0; 1;  0; 1; 1]%nat in let E2F := [0; 1; 0;  2; 1; 2]%nat in let bcType := [3; 3; 0; 0; 3; 3]%Z in let opn v := ((v =? 1) || (v =? 2))%nat in
  exists el m, let Np := length (e_r el) in
    sw_grid gwit cramer cramer_inv junk0 0 eig0 (1 / 10) isort (fun _ => 0) (fun _ => 0%nat) 1 2 Vert EToV E2E E2F bcType el m /\
    small_text SwSetupProps.depths /\ column SwSetupProps.digits SwSetupProps.depths [100 * INR 2; 100 * INR 1; 100 * INR 3] /\ (length [100 * INR 2; 100 * INR 1; 100 * INR 3]%R <= Np * 2)%nat /\
    open_side opn EToV 0 1 = true /\ (forall k f, (k < 2)%nat -> (f < 3)%nat -> open_side (fun _ => false) EToV k f = false /\ tag_of bcType k f <> 2%Z) /\
    (exists d', tag_open opn EToV 2 bcType = Ok [3; 2; 0; 0; 3; 3]%Z /\ retagged (fun _ => 0%nat) opn EToV 3 2 2 bcType (tables_of el m) = Ok d') /\
    (let B := mkmat Np 2 (fun _ _ => 150) in let O := mkmat Np 2 (fun _ _ => 0) in let q := (B, O, O) in let z := (O, mkmat Np 2 (fun _ _ => 1), O) in
     state_conform q Np 2 = true /\ exists dt s', full_dt (exact gwit) (fun _ => 0) (-1) (tables_of el m) 1 3 2 Np 2 1 (1 / 4) q = Ok dt /\ 0 < dt /\
       sw2d_turn (exact gwit) (fun _ => 0) (-1) (tables_of el m) 1 Np 2 1 (1 / 4) 1 B O (fun _ _ => Ok z) (FSim 0 0 q []) = Ok s').
Proof.
  intros Vert EToV E2E E2F bcType opn. destruct C49_witness as (Hg & _ & _). destruct (Hg bcType (or_introl eq_refl)) as (el & m & HG & _). exists el, m. cbv zeta.
  destruct (C83_depth_witness gwit) as (W1 & W2 & _).
  pose proof (sg_built _ _ _ _ _ _ _ _ _ _ _ _ _ _ _ _ _ _ _ HG) as HB. pose proof (sg_area _ _ _ _ _ _ _ _ _ _ _ _ _ _ _ _ _ _ _ HG) as HA.
  assert (HNp : length (e_r el) = 3%nat) by (destruct (C67_edge_nodes _ _ _ _ _ _ _ _ _ _ _ _ HB) as (HL & _); lia).
  split; [exact HG|]. split; [exact W1|]. split; [exact W2|]. split; [rewrite HNp; cbn; lia|]. split; [reflexivity|].
  split; [intros k f Hk Hf; split; [reflexivity|]; destruct k as [|[|]]; [| |lia]; destruct f as [|[|[|]]]; try lia; discriminate|].
  split. { destruct (C83_tags _ _ _ _ _ _ _ _ _ _ _ _ _ _ _ _ _ _ _ HG opn) as (bc2 & d' & Et & _ & _ & Er). exists d'. split; [vm_compute; reflexivity|exact Er]. }
  set (Np := length (e_r el)) in *. set (q := (mkmat Np 2 (fun _ _ => 150), mkmat Np 2 (fun _ _ => 0), mkmat Np 2 (fun _ _ => 0)) : field).
  assert (HQ : state_conform q Np 2 = true) by (unfold state_conform, conform; cbn; rewrite !Nat.eqb_refl; reflexivity). split; [exact HQ|].
  destruct (C78_time_step gwit cramer cramer_inv junk0 0 eig0 (1 / 10) isort (fun _ => 0) (fun _ => 0%nat) 1 2 Vert EToV E2E E2F bcType el m (fun _ => 0) (-1) HG ltac:(lra) 1 (1 / 4) q ltac:(lra) HQ) as (_ & dt & Ed & Hd & _).
  { destruct (side_pt _ _ _ _ _ _ _ _ _ _ _ _ HB 0%nat 0%nat ltac:(lia) ltac:(lia)) as (t & Ht). pose proof (fn_lt _ _ _ _ _ _ _ _ _ _ _ _ HB 0%nat 0%nat ltac:(lia) ltac:(lia)) as Hl.
    pose proof (fs_at _ _ _ _ _ _ _ _ _ _ _ _ HB HA 0%nat 0%nat 0%nat ltac:(lia) ltac:(lia) ltac:(lia)) as (F1 & F2). rewrite F2 in F1.
    eexists. split; [exists 0%nat, 0%nat, (fnode el 0 0), t; repeat split; try lia; first [exact Hl|apply Ht; lia]|].
    apply Rmult_lt_0_compat; [exact F1|]. unfold wave_speed. cbn. pose proof (sqrt_pos (0 / 150 * (0 / 150) + 0 / 150 * (0 / 150))). pose proof (sqrt_lt_R0 (1 * 150) ltac:(lra)). lra. }
  set (z := (mkmat Np 2 (fun _ _ => 0), mkmat Np 2 (fun _ _ => 1), mkmat Np 2 (fun _ _ => 0)) : field).
  destruct (C109_late_test_refuted gwit (fun _ => 0) (-1) (tables_of el m) 1 Np 2 1 (1 / 4) 1 (mkmat Np 2 (fun _ _ => 150)) (mkmat Np 2 (fun _ _ => 0)) (fun _ _ => Ok z) (FSim 0 0 q []) dt) with (q' := match full_step (exact gwit) (mkmat Np 2 (fun _ _ => 0)) (fun _ => Ok z) dt q with Ok p => p | _ => q end) as (s' & Es & _).
  - lra.
  - cbn. rewrite HNp. lia.
  - cbn. lia.
  - intros i k _ _. cbn. rewrite Rminus_diag_eq by reflexivity. rewrite Rabs_R0. lra.
  - exact Ed.
  - reflexivity.
  - exists dt, s'. split; [exact Ed|]. split; [exact Hd|exact Es].
Qed.
(* the same two triangles and a file of one depth, below the floor: the program takes its first turn *)
Definition one_depth : str := text ("1" ++ nl)%string.
Example C109_first_turn_witness : let opn v := ((v =? 1) || (v =? 2))%nat in
  exists el m CFL dt s', 0 < CFL /\ 0 < dt /\ f_count s' = 1%nat /\ forall fuel,
  sw2d_program (exact gwit) rhypot cos tanh PI (fun _ _ => 0) (fun _ => 0) (fun _ => 0%nat) (-1) (2 + fuel) SwSetupProps.digits (Some one_depth) opn (tables_of el m)
    (mkmat 3 3 (fun i j => if (i =? j)%nat then 1 else 0)) (e_x el) (e_y el) [0; 1; 2;  0; 2; 3]%nat [3; 3; 0; 0; 3; 3]%Z 1 (length (e_r el)) 2 10 0 0 CFL 100 0 dt = Ok s'.
Proof.
  intro opn. set (bcType := [3; 3; 0; 0; 3; 3]%Z). set (EToV := [0; 1; 2;  0; 2; 3]%nat). set (Vert := [0; 0; 0;  1; 0; 0;  1; 1; 0;  0; 1; 0]).
  destruct C49_witness as (Hg & _ & _). destruct (Hg bcType (or_introl eq_refl)) as (el & m & HG & _). exists el, m.
  pose proof (sg_built _ _ _ _ _ _ _ _ _ _ _ _ _ _ _ _ _ _ _ HG) as HB. assert (HNp : length (e_r el) = 3%nat) by (destruct (C67_edge_nodes _ _ _ _ _ _ _ _ _ _ _ _ HB) as (HL & _); lia).
  assert (L1 : lines_of one_depth [text "1"]) by (apply (lines_cons (text "1") []); [cbn; intuition discriminate|]; constructor).
  assert (R1 : rows_of ["009"; " "]%char [text "1"] [[["1"]]]%char).
  { apply rows_row with (text "1"). { intro B. apply CsvProofs.trim_nil in B. vm_compute in B. discriminate. } { exact (CsvProofs.trim_trimmed (text "1")). } { exact (CsvProofs.tokenizeLine_fields ["009"; " "]%char (text "1")). } constructor. }
  assert (C1 : column SwSetupProps.digits one_depth [100 * INR 1]).
  { apply (column_rows SwSetupProps.digits one_depth _ _ _ L1 R1). split; [discriminate|]. repeat constructor; (eexists; split; [reflexivity|]); reflexivity. }
  destruct (C109_first_turn gwit cramer cramer_inv junk0 0 eig0 (1 / 10) isort (fun _ => 0) (fun _ => 0%nat) 1 2 Vert EToV _ _ bcType el m (fun _ _ => 0) (fun _ => 0) (-1)
    SwSetupProps.digits one_depth [100 * INR 1] opn (mkmat 3 3 (fun i j => if (i =? j)%nat then 1 else 0)) [3; 2; 0; 0; 3; 3]%Z HG ltac:(lia) ltac:(lra) eq_refl C1 ltac:(rewrite HNp; cbn; lia) eq_refl) with
    (g := 10) (CD := 0) (f0 := 0) (huge := 100) (t0 := 0) as (CFL & P & HC).
  - exists 0%nat, 0%nat. repeat split; lia.
  - exists 0%nat, 1%nat. repeat split; lia.
  - assert (D : forall j, Rmax 150 (nth j [100 * INR 1] 0) = 150) by (intros [|[|]]; cbn [nth]; apply Rmax_left; cbn; lra). intros depth i k i2 k2 _ _ _ _ _. unfold depth. rewrite !D. reflexivity.
  - lra.
  - lra.
  - destruct (HC CFL ltac:(lra)) as (dt & s' & Pd & E1 & _ & E2). exists CFL, dt, s'. split; [exact P|]. split; [exact Pd|]. split; [exact E1|]. intro fuel. rewrite <- (E2 fuel). rewrite Rplus_0_l. reflexivity.
Qed.
(* an elevation that is NaN at one node; for the linear rates of change see C78_linear_witness *)
Example C109_nan_witness : let q : mat spec_float * mat spec_float * mat spec_float := (mkmat 2 1 (fun i _ => if (i =? 0)%nat then S754_nan else S754_zero false), mkmat 2 1 (fun _ _ => S754_zero false), mkmat 2 1 (fun _ _ => S754_zero false)) in
  let s := FSim (S754_zero false) 0%nat q [] in SFsub 53 1024 (ment (fst (fst (f_q s))) 0 0) (S754_zero false) = S754_nan /\ (0 < mrows (fst (fst (f_q s))))%nat.
Proof. split; [reflexivity|cbn; lia]. Qed.
Print Assumptions C109_shared_storage_refuted.
Print Assumptions C109_first_order_error_refuted.
Print Assumptions C109_turns.
Print Assumptions C109_run.
Print Assumptions C109_too_fast_refuted.
Print Assumptions C109_written.
Print Assumptions C109_program.
Print Assumptions C109_first_turn.
Print Assumptions C109_guard.
Print Assumptions C109_late_test_refuted.
Print Assumptions C109_nan_caught.
Print Assumptions C109_tide.
Print Assumptions C109_start.
Print Assumptions C109_other_mesh_refuted.
Print Assumptions C109_rates.
