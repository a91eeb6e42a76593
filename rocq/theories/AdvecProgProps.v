(* AdvecProgProps.v - C111: the program advec1d from its initial profile to the printed error.
   bell, solves_advection and shut_in are in AdvecProgSpec.v; value and follows in AdvecRunSpec.v, largest_at in BurgersRunSpec.v. *)
From Coq Require Import ZArith List Lia Bool Arith.
From Verif Require Import Base Loops Num JacobiModel JacobiSpec JacobiProofs JacobiOrthProofs JacobiQuadProofs JacobiExactProofs
  DenseSpec CscModel MeshModel Nodes1DModel Nodes1DSpec Nodes1DProofs Nodes1DExactProofs Nodes1DProps DblProofs RKModel RKSpec RKProofs RKProps Line1DModel Line1DSpec TriBasisProofs Line1DProofs Line1DBurgersProofs Line1DProps
  AdvecRunModel AdvecRunSpec AdvecRunProofs AdvecRunProps BurgersRunModel BurgersRunSpec BurgersRunProofs BurgersRunProps AdvecProgModel AdvecProgSpec.
From Coq Require Import Reals Lra.
Import ListNotations.
Local Open Scope R_scope.

(* The curve the program starts from and compares with solves the advection equation. *)
Theorem C111_exact_solution : forall c, solves_advection c (bell c) /\ forall x, bell c x 0 = exp (- 10 * x ^ 2).
Proof.
  intro c. split; [|intro x; unfold bell; do 2 f_equal; ring].
  assert (D : forall z, derivable_pt_lim (fun y => exp (- 10 * y ^ 2)) z (exp (- 10 * z ^ 2) * (- 20 * z))).
  { intro z. apply (derivable_pt_lim_comp (fun y => - 10 * y ^ 2) exp z); [|apply derivable_pt_lim_exp].
    replace (- 20 * z) with (- 10 * (INR 2 * z ^ 1)) by (cbn [INR]; ring). apply (derivable_pt_lim_scal (fun y => y ^ 2)). apply derivable_pt_lim_pow. }
  intros x t. set (g := exp (- 10 * (x - c * t) ^ 2) * (- 20 * (x - c * t))). exists (- c * g), (1 * g). split; [|split; [|ring]].
  - apply (dpl_ext (fun s => (fun y => exp (- 10 * y ^ 2)) (x + - c * s))); [intro s; unfold bell; cbv beta; do 3 f_equal; ring|].
    apply (dpl_lin (fun y => exp (- 10 * y ^ 2)) x (- c)). replace (x + - c * t) with (x - c * t) by ring. apply D.
  - apply (dpl_ext (fun s => (fun y => exp (- 10 * y ^ 2)) (- (c * t) + 1 * s))); [intro s; unfold bell; cbv beta; do 3 f_equal; ring|].
    apply (dpl_lin (fun y => exp (- 10 * y ^ 2)) (- (c * t)) 1). replace (- (c * t) + 1 * x) with (x - c * t) by ring. apply D.
Qed.

Lemma final_ent G x c t i k : ment (advec_final (exact G) exp x c t) i k = bell c (ment x i k) t.
Proof. unfold advec_final, bell. cbn [mmap ment exact fmul fopp fsub]. rewrite fofn_INR. f_equal. cbn [INR]. ring. Qed.
Lemma profile_ent G x c i k : ment (advec_profile (exact G) exp x) i k = bell c (ment x i k) 0.
Proof. unfold advec_profile, bell. cbn [mmap ment exact fmul fopp]. rewrite fofn_INR. f_equal. cbn [INR]. ring. Qed.
(* the number printed for a field u at time t *)
Lemma report_at G lowest Np K x c t u : lowest < 0 -> (0 < Np)%nat -> (0 < K)%nat ->
  largest_at Np K (fun i k => value K u i k - bell c (ment x i k) t) (advec_report (exact G) exp lowest Np K x c t u).
Proof.
  intros Hlo HN HK. destruct (max_at G lowest Np K (mzip (fsub (exact G)) (as_field (exact G) Np K u) (advec_final (exact G) exp x c t)) Hlo HN HK ltac:(split; reflexivity)) as (H1 & i & k & Hi & Hk & H2).
  assert (V : forall i k, ment (mzip (fsub (exact G)) (as_field (exact G) Np K u) (advec_final (exact G) exp x c t)) i k = value K u i k - bell c (ment x i k) t).
  { intros i' k'. cbn [mzip ment exact fsub]. rewrite final_ent. reflexivity. }
  split.
  - intros i' k' Hi' Hk'. rewrite <- V. apply H1; assumption.
  - exists i, k. split; [exact Hi|]. split; [exact Hk|]. rewrite <- V. exact H2.
Qed.

Section Drivers.
Variables (G : R -> R) (N K : nat) (a b eps tol : R).
Variables (solve : mat R -> mat R -> mat R -> outcome (mat R)) (inverse : mat R -> mat R -> outcome (mat R))
  (eig : nat -> (nat -> nat -> R) -> list R * (nat -> nat -> R)) (junk : nat -> nat -> R) (junkv : nat -> R)
  (jk : nat * dbl) (jp ji : nat -> nat) (jx : nat -> dbl) (junkn : nat -> nat) (lowest : R).
Local Notation E := (exact G).
Local Notation Np := (S (S N)).
Local Notation w := ((b - a) / INR K).
Local Notation result := (buildNodes1D E solve inverse eig eps junk tol (buildConnectivity1D jk jp ji jx) junkn (S N) K a b).
Local Notation metric n := (computeJacobian1D E junk Np K (n_x n) (n_Dr n)).
Local Notation rate n rx Fs c := (on_lists E Np K (advec_rhs E junk junkv n rx Fs Np K c)).
Local Notation prog fuel n rx Fs huge CFL c finalTime := (advec_prog E junk junkv exp lowest fuel n rx Fs Np K huge CFL c finalTime).

(* A run of the program that ends normally: it starts from the bell curve, each turn is a step of the method of order four from
   the time i*dt, with no value above the limit after it; turns begin before the final time only; every tenth state is written;
   and the number printed is the largest distance at a node from the bell curve carried to the time the run ended at. *)
Theorem C111_run : exists (A : nat -> nat -> R) (B : nat -> R), order4 5 A B (1 / 100000000000) /\
  (a < b -> lowest < 0 -> sound1D G N K eps tol solve inverse eig -> result = Throw \/
  exists n J rx Fs, result = Ok n /\ metric n = Ok (J, rx, Fs) /\
  forall fuel huge CFL c finalTime s err, 0 < CFL -> 0 < c -> prog fuel n rx Fs huge CFL c finalTime = Ok (s, err) ->
  let dt := CFL * (ment (n_x n) 1%nat 0%nat - ment (n_x n) 0%nat 0%nat) / c in
  0 < dt /\ exists m (u : nat -> list R), u m = s_u s /\
    follows Np K (n_x n) (u 0%nat) 0 (fun x => bell c x 0) /\
    (forall i, (i < m)%nat -> explicit_rk_step 5 A B (rate n rx Fs c) dt (u i) (u (S i)) /\
       forall j k, (j < Np)%nat -> (k < K)%nat -> Rabs (value K (u (S i)) j k) <= huge) /\
    finalTime <= INR m * dt /\ (forall i, (i < m)%nat -> INR i * dt < finalTime) /\
    (forall i v, In (i, v) (s_out s) <-> (i < m)%nat /\ (i mod 10 = 0)%nat /\ v = u i) /\
    largest_at Np K (fun j k => value K (u m) j k - bell c (ment (n_x n) j k) (INR m * dt)) err).
Proof.
  destruct rk_table as (A & B & O & _ & HT). exists A, B. split; [exact O|].
  intros Hab Hlo HS. destruct (bbuilt G N K a b eps tol solve inverse eig junk jk jp ji jx junkn ltac:(lra) HS) as [Et | (n & J & rx & Fs & En & EJ & LT & SX & X0 & XK & Eb & HX)]; [left; exact Et|]. right. exists n, J, rx, Fs. split; [exact En|]. split; [exact EJ|].
  intros fuel huge CFL c T s err HC Hc Er dt.
  destruct (C100_time_step G N K a b eps tol solve inverse eig junk jk jp ji jx junkn Hab HS) as [Et | (n1 & En1 & Ht)]; [congruence|]. assert (n1 = n) by congruence. subst n1. destruct (Ht CFL c HC ltac:(lra)) as (Pd & _). clear Ht.
  assert (Edt : advec_dt E CFL c (n_x n) = dt) by (unfold advec_dt, dt; cbn [exact fdiv fmul fsub fabs]; rewrite (Rabs_right c) by lra; reflexivity). rewrite Edt in Pd. split; [exact Pd|].
  pose proof (lt_K _ _ _ _ _ _ _ LT) as HK.
  unfold advec_prog, advec_run in Er. rewrite Edt in Er. change (fofn E 0) with 0 in Er.
  match type of Er with bind ?L _ = _ => destruct L as [s1| |] eqn:EL; cbn [bind] in Er; try discriminate end. injection Er as <- <-.
  destruct (C48_time_loop G _ _ dt T fuel 0 _ _ s1 Pd EL) as (m & st & S0 & Sm & St & Tm & T1 & T2 & T0 & Ho).
  assert (Ls : forall i, (i <= m)%nat -> length (s_u (st i)) = (Np * K)%nat /\ length (s_res (st i)) = (Np * K)%nat).
  { induction i as [|i IH]; intro Hi.
    - rewrite S0. cbn [s_u s_res]. split; [rewrite of_field_len; destruct SX as (Sr & Sc); unfold advec_profile; cbn [mmap mrows mcols]; rewrite Sr, Sc; reflexivity|apply repeat_length].
    - destruct (IH ltac:(lia)) as (L1 & L2). specialize (St i ltac:(lia)). unfold sim_step in St.
      destruct (step_ok G N K a b junk junkv n J rx Fs c dt _ _ LT ltac:(lra) L1 L2) as (u' & r' & Es & L1' & L2' & _). rewrite Es in St. cbn [bind] in St.
      destruct (burgers_unstable E lowest huge Np K u'); [discriminate|]. injection St as <-. cbn [s_u s_res]. split; assumption. }
  exists m, (fun i => s_u (st i)). rewrite Sm. split; [reflexivity|]. split; [|split; [|split; [|split; [|split]]]].
  - rewrite S0. cbn [s_u]. intros i k Hi Hk. rewrite (of_field_value _ Np K) by (try lia; destruct SX; split; assumption). apply profile_ent.
  - intros i Hi. destruct (Ls i ltac:(lia)) as (L1 & L2). specialize (St i Hi). unfold sim_step in St.
    destruct (step_ok G N K a b junk junkv n J rx Fs c dt _ _ LT ltac:(lra) L1 L2) as (u' & r' & Es & L1' & L2' & HR). rewrite Es in St. cbn [bind] in St.
    destruct (burgers_unstable E lowest huge Np K u') eqn:Eu; [discriminate|]. injection St as <-. cbn [s_u]. split; [apply HR; exact HT|].
    intros j k Hj Hk. destruct (Rle_dec (Rabs (value K u' j k)) huge) as [Q|Q]; [exact Q|]. exfalso. enough (burgers_unstable E lowest huge Np K u' = true) by congruence.
    apply unstable_iff; [exact Hlo|lia|exact HK|]. exists j, k. split; [exact Hj|]. split; [exact Hk|lra].
  - rewrite Tm in T1. lra.
  - intros i Hi. specialize (T2 ltac:(lia)). rewrite Tm in T2.
    destruct (Nat.eq_dec m 0); [lia|]. assert (INR i * dt <= (INR m - 1) * dt); [|lra]. apply Rmult_le_compat_r; [lra|]. apply (le_INR (S i) m) in Hi. rewrite S_INR in Hi. lra.
  - intros i v. rewrite Ho. split; intros (P & Q & V); auto.
  - rewrite Tm. replace (0 + INR m * dt) with (INR m * dt) by ring. apply report_at; [exact Hlo|lia|exact HK].
Qed.

(* With enough iterations allowed the program ends, with a result or with the instability error. *)
Theorem C111_ends : a < b -> lowest < 0 -> sound1D G N K eps tol solve inverse eig -> result = Throw \/
  exists n J rx Fs, result = Ok n /\ metric n = Ok (J, rx, Fs) /\
  forall fuel huge CFL c finalTime, 0 < CFL -> 0 < c -> finalTime * c / (CFL * (ment (n_x n) 1%nat 0%nat - ment (n_x n) 0%nat 0%nat)) <= INR fuel ->
    prog (S fuel) n rx Fs huge CFL c finalTime = Throw \/ exists s err, prog (S fuel) n rx Fs huge CFL c finalTime = Ok (s, err).
Proof.
  intros Hab Hlo HS. destruct (bbuilt G N K a b eps tol solve inverse eig junk jk jp ji jx junkn ltac:(lra) HS) as [Et | (n & J & rx & Fs & En & EJ & LT & SX & X0 & XK & Eb & HX)]; [left; exact Et|]. right. exists n, J, rx, Fs. split; [exact En|]. split; [exact EJ|].
  intros fuel huge CFL c T HC Hc Hf.
  destruct (C100_time_step G N K a b eps tol solve inverse eig junk jk jp ji jx junkn Hab HS) as [Et | (n1 & En1 & Ht)]; [congruence|]. assert (n1 = n) by congruence. subst n1. destruct (Ht CFL c HC ltac:(lra)) as (Pd & Ed). clear Ht.
  rewrite (Rabs_right c) in Ed by lra. rewrite <- Ed in Hf. 
  unfold advec_prog, advec_run. change (fofn E 0) with 0.
  match goal with |- bind ?L _ = _ \/ _ => assert (L <> UB) as NU end.
  { apply C48_time_loop_ends; [exact Pd| |].
    - rewrite Rminus_0_r. replace (T / advec_dt E CFL c (n_x n)) with (T * c / (c * advec_dt E CFL c (n_x n))) by (field; lra). exact Hf.
    - intros t v. destruct (rhs_ok G junk junkv n J rx Fs Np K w LT c ltac:(lra) v) as (U & _ & q & Eq & _). rewrite Eq. discriminate. }
  match goal with |- bind ?L _ = _ \/ _ => destruct L; cbn [bind]; [right; eauto|left; reflexivity|congruence] end.
Qed.

(* What fails: the number printed is not the distance from the solution of the problem the program solves, in which nothing comes
   in at the left end. Given that solution itself, at any time above 0, it prints a number above 0. *)
Theorem C111_inflow_refuted : a < b -> lowest < 0 -> sound1D G N K eps tol solve inverse eig -> result = Throw \/
  exists n, result = Ok n /\ forall c t u, 0 < c -> 0 < t -> follows Np K (n_x n) u 0 (fun x => shut_in a c x t) ->
    0 < exp (- 10 * (a - c * t) ^ 2) <= advec_report E exp lowest Np K (n_x n) c t u.
Proof.
  intros Hab Hlo HS. destruct (bbuilt G N K a b eps tol solve inverse eig junk jk jp ji jx junkn ltac:(lra) HS) as [Et | (n & J & rx & Fs & En & EJ & LT & SX & X0 & _)]; [left; exact Et|]. right. exists n. split; [exact En|].
  intros c t u Hc Ht HF. pose proof (lt_K _ _ _ _ _ _ _ LT) as HK. split; [apply exp_pos|].
  destruct (report_at G lowest Np K (n_x n) c t u Hlo ltac:(lia) HK) as (H & _). specialize (H 0%nat 0%nat ltac:(lia) HK). cbv beta in H. rewrite HF in H by lia. rewrite X0 in H.
  unfold shut_in in H. destruct (Rlt_dec (a - c * t) a) as [_|C]; [|exfalso; apply C; assert (0 < c * t) by (apply Rmult_lt_0_compat; assumption); lra].
  unfold bell in H. rewrite Rminus_0_l, Rabs_Ropp, Rabs_right in H by (apply Rle_ge, Rlt_le, exp_pos). exact H.
Qed.
End Drivers.

(* Six elements of order 1 on [0,1], built, with a run of one step that ends normally and a field that follows shut_in. *)
Example C111_witness : let eig := fun n (J : nat -> nat -> R) => (@nil R, J) in
  sound1D gwit 0 6 0 (1 / 10) solve2 inverse2 eig /\ exists n J rx Fs,
  buildNodes1D (exact gwit) solve2 inverse2 eig 0 (fun _ _ => 0) (1 / 10) (buildConnectivity1D (0%nat, d_one) (fun _ => 0%nat) (fun _ => 0%nat) (fun _ => d_one)) (fun _ => 7%nat) 1 6 0 1 = Ok n /\
  computeJacobian1D (exact gwit) (fun _ _ => 0) 2 6 (n_x n) (n_Dr n) = Ok (J, rx, Fs) /\
  follows 2 6 (n_x n) (of_field (Line1DModel.mmap (fun x => shut_in 0 (1 / 10) x 2) (n_x n))) 0 (fun x => shut_in 0 (1 / 10) x 2) /\
  exists fuel huge finalTime s err, 0 < finalTime /\
   advec_prog (exact gwit) (fun _ _ => 0) (fun _ => 0) exp (-1) fuel n rx Fs 2 6 huge (8 / 10) (1 / 10) finalTime = Ok (s, err) /\ s_count s = 1%nat.
Proof.
  intros eig. destruct six as (HS & n & En). fold eig in HS, En. split; [exact HS|].
  destruct (bbuilt gwit 0 6 0 1 0 (1 / 10) solve2 inverse2 eig (fun _ _ => 0) (0%nat, d_one) (fun _ => 0%nat) (fun _ => 0%nat) (fun _ => d_one) (fun _ => 7%nat) ltac:(lra) HS)
    as [Et | (n1 & J & rx & Fs & En1 & EJ & LT & SX & X0 & XK & Eb & HX)]; [congruence|]. assert (n1 = n) by congruence. subst n1.
  destruct (C100_time_step gwit 0 6 0 1 0 (1 / 10) solve2 inverse2 eig (fun _ _ => 0) (0%nat, d_one) (fun _ => 0%nat) (fun _ => 0%nat) (fun _ => d_one) (fun _ => 7%nat) ltac:(lra) HS) as [Et | (n1 & En2 & Ht)]; [congruence|].
  assert (n1 = n) by congruence. subst n1. destruct (Ht (8 / 10) (1 / 10) ltac:(lra) ltac:(lra)) as (Pd & _).
  exists n, J, rx, Fs. split; [exact En|]. split; [exact EJ|]. split.
  - intros i k Hi Hk. rewrite (of_field_value _ 2 6) by (try lia; destruct SX; split; assumption). reflexivity.
  - set (dt := advec_dt (exact gwit) (8 / 10) (1 / 10) (n_x n)) in *.
    set (v0 := of_field (advec_profile (exact gwit) exp (n_x n))).
    destruct (step_ok gwit 0 6 0 1 (fun _ _ => 0) (fun _ => 0) n J rx Fs (1 / 10) dt v0 (repeat 0 (2 * 6)) LT ltac:(lra)) as (u' & r' & Es & _).
    { unfold v0. rewrite of_field_len. destruct SX as (Sr & Sc). cbn [advec_profile mmap mrows mcols]. rewrite Sr, Sc. reflexivity. }
    { apply repeat_length. }
    assert (Lo : -1 < 0) by lra. destruct (max_at gwit (-1) 2 6 (as_field (exact gwit) 2 6 u') Lo ltac:(lia) ltac:(lia) ltac:(split; reflexivity)) as (HM & _).
    set (huge := max_abs (exact gwit) (-1) (as_field (exact gwit) 2 6 u')) in *.
    assert (Hu : burgers_unstable (exact gwit) (-1) huge 2 6 u' = false).
    { destruct (burgers_unstable _ _ huge 2 6 u') eqn:Eu; [|reflexivity]. apply unstable_iff in Eu; [|lra|lia|lia]. destruct Eu as (i & k & Hi & Hk & Q). specialize (HM i k Hi Hk). rewrite (as_value gwit) in HM. lra. }
    assert (Hd1 : 0 < dt / 2) by lra. assert (Hd2 : ~ 0 + dt < dt / 2) by lra.
    exists 2%nat, huge, (dt / 2). do 2 eexists. split; [exact Hd1|]. unfold advec_prog, advec_run. fold dt. change (fofn (exact gwit) 0) with 0. fold v0.
    cbn [sim_loop s_t]. cbn [exact flt]. unfold Rltb. destruct (Rlt_dec 0 (dt / 2)) as [_|C]; [|contradiction]. unfold sim_step. cbn [s_t s_u s_res s_count s_out]. rewrite Es. cbn [bind]. rewrite Hu. cbn [s_t exact fadd bind].
    destruct (Rlt_dec (0 + dt) (dt / 2)) as [C|_]; [contradiction|]. cbn [bind]. split; reflexivity.
Qed.

Print Assumptions C111_exact_solution.
Print Assumptions C111_run.
Print Assumptions C111_ends.
Print Assumptions C111_inflow_refuted.
