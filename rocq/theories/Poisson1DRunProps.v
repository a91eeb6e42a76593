(* Poisson1DRunProps.v - C106: the program poisson1d, from the right side it builds to the error it prints. smooth_and_pinned,
   second_derivative, tests and distance are in Poisson1DRunSpec.v, holds, slopes and dot in Poisson1DSpec.v, largest_at in
   BurgersRunSpec.v, tolerance and scale_norm in GmresSpec.v. *)
From Coq Require Import ZArith List Lia Bool Arith.
From Verif Require Import Base Loops Num BlitzModel BlitzSpec BlitzProofs JacobiModel JacobiSpec JacobiProofs JacobiOrthProofs JacobiQuadProofs JacobiExactProofs
  DenseSpec CscModel MeshModel Nodes1DModel Nodes1DSpec Nodes1DProofs Nodes1DExactProofs Nodes1DProps DblProofs RKModel Line1DModel TriBasisProofs TriProofs TriLiftProofs TriOpProofs TriDGProofs QuadBasisProofs TriWitness Nodes1DTotalProps Line1DSpec Line1DProofs
  GmresModel GmresSpec GmresProps Line1DBurgersProofs BurgersRunSpec BurgersRunProofs BurgersRunProps HeatSpec LinSolve Poisson1DSpec Poisson1DProofs Poisson1DProps Poisson1DRunModel Poisson1DRunSpec Poisson1DRunProofs.
From Coq Require Import Reals Lra SpecFloat.
Import ListNotations.
Local Open Scope R_scope.

Section Program.
Variables (G : R -> R) (N K : nat) (a b eps tol lowest : R).
Variables (solve : mat R -> mat R -> mat R -> outcome (mat R)) (inverse : mat R -> mat R -> outcome (mat R))
  (eig : nat -> (nat -> nat -> R) -> list R * (nat -> nat -> R)) (junk : nat -> nat -> R) (junkv : nat -> R)
  (jk : nat * dbl) (jp ji : nat -> nat) (jx : nat -> dbl) (junkn : nat -> nat) (fsin : R -> R) (pi : R).
Local Notation E := (exact G).
Local Notation Np := (S (S N)).
Local Notation nn := (Np * K)%nat.
Local Notation w := ((b - a) / INR K).
Local Notation tau := (INR Np * INR Np / Rabs w).
Local Notation result := (buildNodes1D E solve inverse eig eps junk tol (buildConnectivity1D jk jp ji jx) junkn (S N) K a b).
Local Notation metric n := (computeJacobian1D E junk Np K (n_x n) (n_Dr n)).
Local Notation op n J rx Fs inp out := (poisson1d_op E junk junkv lowest n J rx Fs Np K inp out).
Local Notation is n v U := (holds Np K (n_r n) v U).
Local Notation rhs n J f := (poisson1d_rhs E junkv n J Np K f).
Hypothesis Hab : a <> b.
Hypothesis Hlow : lowest < 0.
Hypothesis HS : sound1D G N K eps tol solve inverse eig.

Definition weak_op (r : list R) (f : list R -> list R -> outcome (list R)) : Prop := forall inp out U D, holds Np K r inp U -> slopes U D -> length out = nn ->
  exists res q T, f inp out = Ok res /\ length res = nn /\ (forall k, (k < K)%nat -> (length (q k) <= Np)%nat) /\
  weak_form Np K w 1 U q (fun k => peval (U k) (-1) - trace_mean K 0 0 U k) (fun k => trace_mean K 0 0 U (S k) - peval (U k) 1) /\
  weak_form Np K w 1 q T (fun k => w / 2 * (peval (q k) (-1) - penalty_flux K w tau U D k)) (fun k => w / 2 * (penalty_flux K w tau U D (S k) - peval (q k) 1)) /\
  forall v V, holds Np K r v V -> exists s, (forall k, (k < K)%nat -> integral_is (fun x => w / 2 * peval (T k) x * peval (V k) x) (-1) 1 (s k)) /\ dot nn v res = sumn K s.
Lemma pbuilt : result = Throw \/ exists n J rx Fs, result = Ok n /\ metric n = Ok (J, rx, Fs) /\ line_tables n J rx Fs Np K w /\ shape (n_x n) Np K /\
  (forall v, length v = nn -> exists V, is n v V) /\ weak_op (n_r n) (fun i o => op n J rx Fs i o) /\
  (forall f F, shape f Np K -> (forall k, (k < K)%nat -> (length (F k) <= Np)%nat /\ forall i, (i < Np)%nat -> peval (F k) (nth i (n_r n) 0) = ment f i k) ->
    exists bv, rhs n J f = Ok bv /\ tests Np K w (n_r n) F bv) /\
  forall i k, (i < Np)%nat -> (k < K)%nat -> ment (n_x n) i k = a + w * INR k + w / 2 * (1 + nth i (n_r n) 0).
Proof.
  destruct (bbuilt G N K a b eps tol solve inverse eig junk jk jp ji jx junkn Hab HS) as [Et | (n & J & rx & Fs & En & EJ & LT & SX & _ & _ & _ & HX)]; [left; exact Et|].
  destruct (C77_weak_form G N K a b eps tol lowest solve inverse eig junk junkv jk jp ji jx junkn Hab Hlow HS) as [Et | (n' & J' & rx' & Fs' & En' & EJ' & HE & HW)]; [left; exact Et|].
  assert (n' = n) by congruence. subst n'. assert (J' = J /\ rx' = rx /\ Fs' = Fs) as (-> & -> & ->) by (repeat split; congruence).
  destruct (exact_nodes G N K a b eps tol solve inverse eig junk jk jp ji jx junkn HS) as [Et | (n1 & En1 & _ & EV & _)]; [left; exact Et|]. assert (n1 = n) by congruence. subst n1.
  assert (HG : gamma_like G) by apply HS. pose proof (lt_K _ _ _ _ _ _ _ LT) as HK.
  right. exists n, J, rx, Fs. split; [exact En|]. split; [exact EJ|]. split; [exact LT|]. split; [exact SX|]. split; [exact HE|]. split; [exact HW|]. split; [|exact HX].
  intros f F Sf HF. destruct (lt_J _ _ _ _ _ _ _ LT) as ((Jr & Jc) & HJ). destruct (lt_V _ _ _ _ _ _ _ LT) as ((Vr & Vc) & _). destruct Sf as (fr & fc).
  unfold poisson1d_rhs. replace (conform (n_Vinv n) Np Np && conform J Np K && conform f Np K)%bool with true by (symmetry; rewrite !andb_true_iff, !conform_ok; auto). cbn [require].
  match goal with |- context [scaled_product E J ?mm f Np Np K] => set (mass := mm) end.
  rewrite (full_tab (scaled_product E J mass f Np Np K) _ Np K) by (first [reflexivity | lia | apply fresh_len]).
  eexists. split; [reflexivity|]. split; [apply tab_len|]. intros v V (Lv & HV).
  exists (fun k => w / 2 * sumn Np (fun i => peval (V k) (nth i (n_r n) 0) * sumn Np (fun j => sumn Np (fun l => ment (n_Vinv n) l i * ment (n_Vinv n) l j) * peval (F k) (nth j (n_r n) 0)))). split.
  - intros k Hk. eapply integral_ext; [|apply integral_scal; apply (mass_pair G HG (S N) (n_r n) (n_V n) (n_Vinv n))].
    + intro x. cbv beta. ring.
    + exact (lt_r _ _ _ _ _ _ _ LT).
    + exact EV.
    + intros k0 j0 Hk0 Hj0. apply (lt_V _ _ _ _ _ _ _ LT); assumption.
    + apply HV. exact Hk.
    + apply HF. exact Hk.
  - unfold dot. rewrite Nat.mul_comm, sumn_prod. apply sumn_ext. intros k Hk. rewrite <- sumn_scal. apply sumn_ext. intros i Hi. rewrite (Nat.add_comm (k * Np) i).
    destruct (HV k Hk) as (_ & HVi). rewrite HVi by auto. rewrite (Nat.mul_comm K Np), tab_nth_R by nia. rewrite Nat.mod_add, Nat.div_add, Nat.mod_small, Nat.div_small by lia. cbn [Nat.add scaled_product ment]. rewrite HJ by auto. rewrite fsum_exact. cbn [exact fmul].
    rewrite (sumn_ext Np (fun j => ment mass i j * ment f j k) (fun j => sumn Np (fun l => ment (n_Vinv n) l i * ment (n_Vinv n) l j) * peval (F k) (nth j (n_r n) 0))); [ring|].
    intros j Hj. destruct (HF k Hk) as (_ & H). rewrite H by exact Hj. unfold mass. cbn [ment]. rewrite fsum_exact. reflexivity.
Qed.

(* The system the program hands to the solver has exactly one solution, whatever the right side, the order, the number of
   elements and their width. *)
Theorem C106_one_solution : result = Throw \/ exists n J rx Fs, result = Ok n /\ metric n = Ok (J, rx, Fs) /\
  forall bv, length bv = nn -> exists x, length x = nn /\ (forall out, length out = nn -> op n J rx Fs x out = Ok bv) /\
  forall y out, length y = nn -> length out = nn -> op n J rx Fs y out = Ok bv -> y = x.
Proof.
  destruct pbuilt as [Et | (n & J & rx & Fs & En & EJ & LT & SX & HE & HW & _)]; [left; exact Et|]. right. exists n, J, rx, Fs. split; [exact En|]. split; [exact EJ|].
  apply (op_solvable N K w (n_r n) (fun i o => op n J rx Fs i o) (lt_w _ _ _ _ _ _ _ LT) (lt_K _ _ _ _ _ _ _ LT) HE HW).
Qed.
(* The right side built from nodal values f tests the polynomials through those values. *)
Theorem C106_right_side : result = Throw \/ exists n J rx Fs, result = Ok n /\ metric n = Ok (J, rx, Fs) /\
  forall f F, shape f Np K -> (forall k, (k < K)%nat -> (length (F k) <= Np)%nat /\ forall i, (i < Np)%nat -> peval (F k) (nth i (n_r n) 0) = ment f i k) ->
  exists bv, rhs n J f = Ok bv /\ tests Np K w (n_r n) F bv.
Proof.
  destruct pbuilt as [Et | (n & J & rx & Fs & En & EJ & LT & SX & HE & HW & HR & _)]; [left; exact Et|]. right. exists n, J, rx, Fs. auto.
Qed.
(* Consistency: if U is smooth across the elements, zero at both ends, of at most the order of the elements, and F is its second
   derivative, the only solution of the system with the right side built from F is the vector of nodal values of U. *)
Theorem C106_exact_solution : result = Throw \/ exists n J rx Fs, result = Ok n /\ metric n = Ok (J, rx, Fs) /\
  forall U D F f v, is n v U -> smooth_and_pinned K U D -> second_derivative w D F -> shape f Np K ->
  (forall k, (k < K)%nat -> (length (F k) <= Np)%nat /\ forall i, (i < Np)%nat -> peval (F k) (nth i (n_r n) 0) = ment f i k) ->
  exists bv, rhs n J f = Ok bv /\ forall y out, length y = nn -> length out = nn -> (op n J rx Fs y out = Ok bv <-> y = v).
Proof.
  destruct pbuilt as [Et | (n & J & rx & Fs & En & EJ & LT & SX & HE & HW & HR & _)]; [left; exact Et|]. right. exists n, J, rx, Fs. split; [exact En|]. split; [exact EJ|].
  intros U D F f v HU HP HF Sf Hf. destruct (HR f F Sf Hf) as (bv & Eb & Tb). exists bv. split; [exact Eb|]. intros y out Ly Lo.
  pose proof (lt_w _ _ _ _ _ _ _ LT) as Hw. pose proof (lt_K _ _ _ _ _ _ _ LT) as HK.
  assert (Hv : forall o, length o = nn -> op n J rx Fs v o = Ok bv).
  { intros o Lo'. apply (op_smooth N K w (n_r n) (fun i o => op n J rx Fs i o) Hw HK HE HW v o U D F bv HU HP HF (fun k Hk => proj1 (Hf k Hk)) Lo' Tb). }
  split; [|intros ->; apply Hv; exact Lo]. intro Ey.
  destruct (op_solvable N K w (n_r n) (fun i o => op n J rx Fs i o) Hw HK HE HW bv (proj1 Tb)) as (x & Lx & _ & Un). rewrite (Un y out Ly Lo Ey). symmetry. apply (Un v out (proj1 HU) Lo (Hv out Lo)).
Qed.

(* --- the run --- *)
Variable dtrsv : nat -> nat -> list R -> list R -> list R.
Variable dgemv : nat -> nat -> nat -> list R -> list R -> list R.
Variable drotg : R -> R -> R * R * R.
Hypothesis Htrsv : forall n lda a x, length (dtrsv n lda a x) = length x.
Hypothesis Hgemv : forall m n lda a x, length (dgemv m n lda a x) = m.
Hypothesis Htrsv2 : dtrsv_spec dtrsv.
Hypothesis Hgemv2 : dgemv_spec dgemv.
Hypothesis Hrot : drotg_spec drotg.
Local Notation run n J rx Fs p := (poisson1d_run E junk junkv fsin pi lowest (fun _ => true) dtrsv dgemv drotg n J rx Fs Np K p).

(* The program always ends with a printed error, the largest difference between the solver's vector and sin(pi x) at the nodes. The
   solver never breaks down; it reports success exactly if what is left of the system is within the tolerance, and what is left
   never exceeds what it started from. With a basis as large as the system it succeeds. *)
Theorem C106_run p : checkParams E p = true -> result = Throw \/ exists n J rx Fs, result = Ok n /\ metric n = Ok (J, rx, Fs) /\
  exists F bv out v Av, run n J rx Fs p = Ok out /\
  (forall k, (k < K)%nat -> (length (F k) <= Np)%nat /\ forall i, (i < Np)%nat -> peval (F k) (nth i (n_r n) 0) = - pi * pi * fsin (pi * (a + w * INR k + w / 2 * (1 + nth i (n_r n) 0)))) /\
  tests Np K w (n_r n) F bv /\ length v = nn /\ (forall o, length o = nn -> op n J rx Fs v o = Ok Av) /\
  (forall i k, (i < Np)%nat -> (k < K)%nat -> ment (p1_u out) i k = nth (i + k * Np) v 0 /\
    ment (p1_uexact out) i k = fsin (pi * (a + w * INR k + w / 2 * (1 + nth i (n_r n) 0))) /\ ment (p1_forcing out) i k = peval (F k) (nth i (n_r n) 0)) /\
  largest_at Np K (fun i k => ment (p1_u out) i k - ment (p1_uexact out) i k) (p1_err out) /\
  let left_over := distance nn bv Av in let flag := g_flag (p1_gmres out) in let tolv := tolerance E (relTol p) (absTol p) bv in
  (flag = F_success \/ flag = F_diverged \/ flag = F_stagnation \/ flag = F_maxits) /\
  (flag = F_success <-> left_over <= tolv) /\ left_over <= distance nn bv (repeat 0 nn) /\
  g_relres (p1_gmres out) = left_over / scale_norm E bv /\
  (1 < divTol p -> flag <> F_diverged) /\ ((Z.of_nat nn <= kspaceSz p)%Z -> 1 < divTol p -> flag = F_success).
Proof.
  intro Hp. destruct pbuilt as [Et | (n & J & rx & Fs & En & EJ & LT & SX & HE & HW & HR & HX)]; [left; exact Et|]. right. exists n, J, rx, Fs. split; [exact En|]. split; [exact EJ|].
  pose proof (lt_w _ _ _ _ _ _ _ LT) as Hw. pose proof (lt_K _ _ _ _ _ _ _ LT) as HK.
  set (f := fun i o : list R => op n J rx Fs i o).
  destruct (interp_exists n J rx Fs Np K w LT (poisson1d_forcing E fsin pi (n_x n))) as (F & HF). destruct SX as (Xr & Xc).
  assert (Sf : shape (poisson1d_forcing E fsin pi (n_x n)) Np K) by (split; assumption).
  assert (HF' : forall k, (k < K)%nat -> (length (F k) <= Np)%nat /\ forall i, (i < Np)%nat -> peval (F k) (nth i (n_r n) 0) = ment (poisson1d_forcing E fsin pi (n_x n)) i k).
  { intros k Hk. destruct (HF k Hk) as (A & B). split; [exact A|]. intros i Hi. symmetry. apply B. exact Hi. }
  destruct (HR _ F Sf HF') as (bv & Eb & Tb). set (x0 := repeat (fofn E 0) nn). assert (L0 : length x0 = nn) by apply repeat_length.
  set (Am := mat_of N K f). set (Im := fun i j : nat => if (i =? j)%nat then 1 else 0).
  assert (C1 : linear_callback (length x0) Am (poisson1d_mvec E junk junkv lowest n J rx Fs Np K)).
  { rewrite L0. intros e v o Lv Lo. unfold poisson1d_mvec. destruct (op_total N K w (n_r n) f HE HW v o Lv Lo) as (res & Er & Lr). unfold f in Er. rewrite Er. exists e, res. split; [reflexivity|]. split; [exact Lr|].
    intros i Hi. rewrite (op_matrix N K w (n_r n) f Hw HK HE HW v o res Lv Lo Er i Hi). reflexivity. }
  assert (C2 : linear_callback (length x0) Im poisson1d_precon).
  { rewrite L0. intros e v o Lv Lo. unfold poisson1d_precon. rewrite Lv, Lo, Nat.eqb_refl. exists e, v. split; [reflexivity|]. split; [exact Lv|]. intros i Hi. rewrite (sumn_pick nn _ i Hi).
    - unfold Im. rewrite Nat.eqb_refl. ring.
    - intros j Hj Hne. unfold Im. destruct (Nat.eqb_spec i j); [congruence|ring]. }
  assert (HI : forall u, veq (length x0) (ap (length x0) Am (ap (length x0) Im u)) (fun _ => 0) -> veq (length x0) u (fun _ => 0)).
  { rewrite L0. intros u Hu i Hi. apply (op_nonsingular N K w (n_r n) f Hw HK HE HW u); [|exact Hi]. intros j Hj. rewrite <- (Hu j Hj). unfold ap. unfold times. apply sumn_ext. intros l Hl. fold Am. f_equal. rewrite (sumn_pick nn _ l Hl).
    - unfold Im. rewrite Nat.eqb_refl. ring.
    - intros j' Hj' Hne. unfold Im. destruct (Nat.eqb_spec l j'); [congruence|ring]. }
  assert (Lb : length bv = length x0) by (rewrite L0; apply Tb).
  pose proof (fun H1 H2 => C63_full_space_converges G unit _ _ dtrsv dgemv drotg Htrsv Hgemv Htrsv2 Hgemv2 Hrot junkv junk p bv x0 tt Am Im Hp Lb C1 C2 H1 H2 HI) as Full0.
  destruct (C30_exact G unit _ _ dtrsv dgemv drotg Htrsv Hgemv Htrsv2 Hgemv2 Hrot junkv junk p bv x0 tt Am Im Hp Lb C1 C2) as (g & v & e' & Eg & Lv & Hf). rewrite L0 in *.
  destruct (op_total N K w (n_r n) f HE HW v (zerov N K) Lv (tab_len _ _)) as (Av & EA & LA).
  assert (EA' : forall o, length o = nn -> f v o = Ok Av).
  { intros o Lo. destruct (op_total N K w (n_r n) f HE HW v o Lv Lo) as (A' & EA' & LA'). rewrite EA'. f_equal. apply (nth_ext _ _ 0 0); [congruence|]. intros i Hi. rewrite LA' in Hi.
    rewrite (op_matrix N K w (n_r n) f Hw HK HE HW v o A' Lv Lo EA' i Hi), (op_matrix N K w (n_r n) f Hw HK HE HW v _ Av Lv (tab_len _ _) EA i Hi). reflexivity. }
  assert (Rn : resnorm nn Am (fun i => nth i bv 0) (fun i => nth i v 0) = distance nn bv Av).
  { unfold resnorm, distance, resid_of, GmresSpec.dot. f_equal. apply sumn_ext. intros i Hi. rewrite (op_matrix N K w (n_r n) f Hw HK HE HW v _ Av Lv (tab_len _ _) EA i Hi). unfold ap, times. fold Am. ring. }
  assert (R0 : resnorm nn Am (fun i => nth i bv 0) (fun i => nth i x0 0) = distance nn bv (repeat 0 nn)).
  { assert (Z : forall i, nth i x0 0 = 0) by (intro i; unfold x0; change (fofn E 0) with 0; apply nth_repeat). unfold resnorm, distance, resid_of, GmresSpec.dot. f_equal. apply sumn_ext. intros i Hi. rewrite nth_repeat. unfold ap. rewrite sumn_zero by (intros j Hj; rewrite Z; ring). ring. }
  destruct (unfull_tab (fun i => nth i v 0) (mkmat Np K junk) Np K eq_refl eq_refl) as (u & Eu & Ur & Uc & Hu).
  assert (Ev : tab nn (fun i => nth i v 0) = v). { apply (nth_ext _ _ 0 0); [rewrite tab_len; symmetry; exact Lv|]. intros i Hi. rewrite tab_len in Hi. apply tab_nth_R. exact Hi. }
  rewrite Ev in Eu.
  assert (Fl : g_flag g <> F_breakdown).
  { intro Ef. rewrite Ef in Hf. destruct Hf as (z & Z1 & Z2). apply Z1. unfold GmresSpec.dot. apply sumn_zero. intros i Hi. rewrite (HI z Z2 i Hi). ring. }
  set (out := P1 g u (poisson1d_uexact E fsin pi (n_x n)) (poisson1d_forcing E fsin pi (n_x n)) (max_abs E lowest (Line1DModel.mzip (fsub E) u (poisson1d_uexact E fsin pi (n_x n))))).
  exists F, bv, out, v, Av. split.
  { unfold poisson1d_run. rewrite Eb. cbn [bind]. fold x0. rewrite Eg. cbn [bind]. rewrite Eu. cbn [bind].
    replace (conform (n_x n) Np K) with true by (symmetry; apply conform_ok; auto). cbn [require].
    destruct (g_flag g); try reflexivity; contradiction. }
  split.
  { intros k Hk. destruct (HF' k Hk) as (A & B). split; [exact A|]. intros i Hi. rewrite (B i Hi). cbn [poisson1d_forcing Line1DModel.mmap ment exact fmul fopp]. rewrite HX by auto. reflexivity. }
  split; [exact Tb|]. split; [exact Lv|]. split; [exact EA'|]. split.
  { intros i k Hi Hk. split; [exact (Hu i k Hi Hk)|]. split; [cbn [out p1_uexact poisson1d_uexact Line1DModel.mmap ment exact fmul]; rewrite HX by auto; reflexivity|]. symmetry. apply HF'; auto. }
  split.
  { apply (max_at G lowest Np K (Line1DModel.mzip (fsub E) u (poisson1d_uexact E fsin pi (n_x n))) Hlow ltac:(lia) HK). split; assumption. }
  cbv zeta. cbn [out p1_gmres]. fold out.
  assert (T0 : 0 <= tolerance E (relTol p) (absTol p) bv).
  { unfold checkParams in Hp. apply negb_true_iff in Hp. rewrite !orb_false_iff in Hp. destruct Hp as (((_ & Ha) & _) & _). change (fofn E 0) with 0 in Ha. cbn [exact flt] in Ha.
    assert (0 <= absTol p) by (unfold Rltb in Ha; destruct (Rlt_dec (absTol p) 0); [discriminate|lra]).
    unfold tolerance. cbv zeta. cbn [exact flt]. unfold Rltb. destruct (Rlt_dec _ (absTol p)) as [h|h]; [lra|]. cbn [exact fmul] in *. lra. }
  rewrite Rn, R0 in Hf. assert (Dp : forall y, 0 <= distance nn bv y) by (intro; apply sqrt_pos).
  assert (Full : (Z.of_nat nn <= kspaceSz p)%Z -> 1 < divTol p -> g_flag g = F_success).
  { intros H1 H2. destruct (Full0 H1 H2) as (g' & v' & e2 & Eg' & Hs & _). congruence. }
  destruct (g_flag g) eqn:Ef; try contradiction; destruct Hf as (A & B & C & D & _);
    (split; [auto|]; split; [exact C|]; split; [exact B|]; split; [rewrite A; unfold Rdiv; ring|]; split; [|exact Full]); intros Hd Hx; try discriminate.
  specialize (D eq_refl). pose proof (Dp Av) as P1. pose proof (Dp (repeat 0 nn)) as P2. assert (Z : distance nn bv Av = 0) by nra. rewrite Z in C. destruct C as (_ & C). specialize (C T0). discriminate.
Qed.

(* What fails: on elements of positive width below 2/3 (the program has 2/15) the operator, which discretises the second derivative
   and is negative definite for elements of width 2, is not: some vector has a positive product with its image. *)
Theorem C106_definite_refuted : 0 < w < 2 / 3 -> (2 <= K)%nat -> (1 <= N)%nat -> result = Throw \/ exists n J rx Fs, result = Ok n /\ metric n = Ok (J, rx, Fs) /\
  exists x, length x = nn /\ forall out, length out = nn -> exists Ax, op n J rx Fs x out = Ok Ax /\ 0 < dot nn x Ax.
Proof.
  intros Hw0 HK2 HN1. destruct pbuilt as [Et | (n & J & rx & Fs & En & EJ & LT & SX & HE & HW & _)]; [left; exact Et|]. right. exists n, J, rx, Fs. split; [exact En|]. split; [exact EJ|].
  assert (Hw : w <> 0) by lra. unfold weak_op in HW. set (h := w) in *. set (c := 3 * (1 - h / 2) / 8).
  set (U := fun k : nat => match k with O => [1 / 2 - c; 1 / 2; c] | S O => [1 / 2 - c; - (1 / 2); c] | _ => [] end).
  assert (LU : forall k, (k < K)%nat -> (length (U k) <= Np)%nat) by (intros [|[|k]] _; cbn; lia).
  pose proof (vec_holds N K (n_r n) ltac:(lia) U LU) as HU. eexists. split; [apply HU|]. intros out Lo.
  destruct (HW _ out U _ HU (slopes_d U) Lo) as (res & q & T & Er & Lr & Lq & Wq & WT & HP). exists res. split; [exact Er|].
  destruct (HP _ U HU) as (s & Hs & ->).
  assert (Ve : peval (U 0%nat) (-1) = 0 /\ peval (U 0%nat) 1 = 1 /\ peval (U 1%nat) (-1) = 1 /\ peval (U 1%nat) 1 = 0) by (cbn [U peval]; repeat split; field).
  destruct Ve as (V0 & V1 & V2 & V3).
  assert (Tr : trace_mean K 0 0 U 0 = 0 /\ trace_mean K 0 0 U 1 = 1 /\ trace_mean K 0 0 U 2 = 0).
  { cbn [trace_mean]. destruct (Nat.eqb_spec 1 K); [lia|]. rewrite V1, V2, V3. split; [reflexivity|]. split; [field|]. destruct (Nat.eqb_spec 2 K); [reflexivity|]. cbn [U peval]. field. }
  destruct Tr as (T0 & T1 & T2).
  assert (Qv : forall k, (k < 2)%nat -> forall x, peval (q k) x = 2 / h * dpeval (U k) x).
  { intros k Hk. set (e := padd (pscal (h / 2) (q k)) (pscal (-1) (pderiv (U k)))). assert (Le : (length e <= Np)%nat).
    { unfold e. rewrite padd_len, !pscal_len. pose proof (pderiv_len (U k)). specialize (Lq k ltac:(lia)). specialize (LU k ltac:(lia)). lia. }
    pose proof (Wq k ltac:(lia) (dpeval (U k)) (dpeval_ok _) e Le) as H. cbv beta in H.
    assert (Z : peval (U k) (-1) - trace_mean K 0 0 U k = 0 /\ trace_mean K 0 0 U (S k) - peval (U k) 1 = 0) by (destruct k as [|[|]]; [rewrite V0, V1, T0, T1; lra|rewrite V2, V3, T1, T2; lra|lia]). destruct Z as (Z1 & Z2). rewrite Z1, Z2 in H.
    assert (He : forall x, peval e x = h / 2 * peval (q k) x - dpeval (U k) x) by (intro x; unfold e; rewrite padd_eval, !pscal_eval, pderiv_eval; ring).
    assert (Hz : forall x, peval e x = 0). { apply (zero_square Np); [exists e; split; [lia|reflexivity]|]. eapply integral_val; [|eapply integral_ext; [|exact H]]; [ring|]. intro x. cbv beta. rewrite He. ring. }
    intro x. specialize (Hz x). rewrite He in Hz. apply Rmult_eq_reg_l with (h / 2); [|lra]. replace (h / 2 * (2 / h * dpeval (U k) x)) with (dpeval (U k) x) by (field; exact Hw). lra. }
  assert (Gr : forall k, (k < 2)%nat -> integral_is (fun x => dpeval (U k) x * dpeval (U k) x) (-1) 1 (1 / 2 + 8 * c ^ 2 / 3)).
  { intros k Hk. set (sg := if (k =? 0)%nat then 1 else -1). assert (S2 : sg * sg = 1) by (unfold sg; destruct (k =? 0)%nat; ring).
    exists (fun x => x / 4 + sg * c * x ^ 2 + 4 * c ^ 2 * x ^ 3 / 3). split.
    - intro x. replace (dpeval (U k) x * dpeval (U k) x) with (1 / 4 + sg * c * (2 * x) + 4 * c ^ 2 * (3 * x ^ 2) / 3).
      + apply (dpl_ext (fun x => 1 / 4 * x + sg * c * x ^ 2 + 4 * c ^ 2 / 3 * x ^ 3)); [intro; field|]. replace (1 / 4 + sg * c * (2 * x) + 4 * c ^ 2 * (3 * x ^ 2) / 3) with (1 / 4 * 1 + sg * c * (INR 2 * x ^ 1) + 4 * c ^ 2 / 3 * (INR 3 * x ^ 2)) by (cbn [INR]; field).
        repeat apply derivable_pt_lim_plus; apply derivable_pt_lim_scal; first [apply derivable_pt_lim_id | apply (derivable_pt_lim_pow x 2) | apply (derivable_pt_lim_pow x 3)].
      + destruct k as [|[|]]; [| |lia]; unfold sg, U; cbn [Nat.eqb peval dpeval]; field.
    - field. }
  rewrite (sumn_ext K s (fun k => if (k =? 0)%nat then s 0%nat else if (k =? 1)%nat then s 1%nat else 0)).
  2:{ intros [|[|k]] Hk; [reflexivity|reflexivity|]. cbn [Nat.eqb]. eapply integral_unique; [apply Hs; exact Hk|]. apply (integral_ext (fun _ => 0)); [intro; cbn [U peval]; ring|apply integral_zero]. }
  assert (ES : sumn K (fun k => if (k =? 0)%nat then s 0%nat else if (k =? 1)%nat then s 1%nat else 0) = s 0%nat + s 1%nat).
  { rewrite (sumn_ext K _ (fun k => (if (k =? 0)%nat then s 0%nat else 0) + (if (k =? 1)%nat then s 1%nat else 0))) by (intros [|[|k]] _; cbn [Nat.eqb]; ring).
    rewrite sumn_plus, (sumn_pick K _ 0 ltac:(lia)), (sumn_pick K _ 1 ltac:(lia)); [reflexivity| |]; intros [|[|k]] Hk Hne; cbn [Nat.eqb]; first [lia|reflexivity]. }
  rewrite ES.
  pose proof (element_pair Np K h _ U q T Hw ltac:(lia) Wq WT 0%nat (U 0%nat) _ ltac:(lia) (LU 0%nat ltac:(lia)) (Gr 0%nat ltac:(lia))) as P0.
  pose proof (element_pair Np K h _ U q T Hw ltac:(lia) Wq WT 1%nat (U 1%nat) _ ltac:(lia) (LU 1%nat ltac:(lia)) (Gr 1%nat ltac:(lia))) as P1.
  rewrite (integral_unique _ _ _ _ _ (Hs 0%nat ltac:(lia)) P0), (integral_unique _ _ _ _ _ (Hs 1%nat ltac:(lia)) P1). clear P0 P1.
  rewrite T0, T1, T2, V0, V1, V2, V3, !Qv by lia. set (sg := penalty_flux _ _ _ _ _ 1%nat). set (g0 := penalty_flux _ _ _ _ _ 0%nat). set (g2 := penalty_flux _ _ _ _ _ 2%nat).
  assert (D1 : dpeval (U 0%nat) 1 = 1 / 2 + 2 * c) by (cbn [U peval dpeval]; field). assert (D2 : dpeval (U 1%nat) (-1) = - (1 / 2 + 2 * c)) by (cbn [U peval dpeval]; field). rewrite D1, D2.
  match goal with |- 0 < ?X => replace X with (2 / h * (- (h / 2) + 3 / 4 * (1 - h / 2) ^ 2)) by (unfold c; field; exact Hw) end.
  apply Rmult_lt_0_compat; [apply Rdiv_lt_0_compat; lra|]. nra.
Qed.
End Program.

(* Two elements of order 2 on [0,1] meet the hypotheses of every theorem above: the width is 1/2. The parabola x (1 - x) / 2 is
   smooth, zero at both ends and has the second derivative -1. *)
Example C106_witness :
  sound1D gwit 1 2 0 (1 / 10) cramer cramer_inv eig0 /\ 0 < (1 - 0) / INR 2 < 2 / 3 /\
  (exists n, buildNodes1D (exact gwit) cramer cramer_inv eig0 0 junk0 (1 / 10) (buildConnectivity1D (0%nat, d_one) (fun _ => 0%nat) (fun _ => 0%nat) (fun _ => d_one)) (fun _ => 7%nat) 2 2 0 1 = Ok n) /\
  (exists U D, smooth_and_pinned 2 U D /\ second_derivative ((1 - 0) / INR 2) D (fun _ => [-1]) /\ (forall k, (length (U k) <= 3)%nat) /\ peval (U 0%nat) 1 = 1 / 8) /\
  (forall G, dtrsv_spec (ref_dtrsv (exact G)) /\ dgemv_spec (ref_dgemv (exact G)) /\ drotg_spec (ref_drotg (exact G)) /\ checkParams (exact G) (GParams true 30 100 (1 / 1000000) (1 / 1000000) 100000 (1 / 1000000000000)) = true).
Proof.
  pose proof (cramer_sound 1 2 ltac:(lia) ltac:(lia)) as S2. destruct (cramer_regular 2 ltac:(lia)) as (A2 & B2). destruct (cramer_regular 3 ltac:(lia)) as (A3 & B3).
  split; [assumption|]. split; [cbn [INR]; lra|]. split; [apply (C80_nodes_always_built gwit 1 2); assumption|]. split.
  - exists (fun k => match k with O => [3 / 32; 1 / 16; - (1 / 32)] | _ => [3 / 32; - (1 / 16); - (1 / 32)] end), (fun k x => (match k with O => 1 / 16 | _ => - (1 / 16) end) - x / 16). split; [|split; [|split]].
    + split; [|split; [|split]].
      * intros k x. eapply eq_rect; [apply dpeval_ok|]. destruct k; cbn [peval dpeval]; field.
      * cbn [peval]. field.
      * cbn [peval Nat.sub]. field.
      * intros k Hk. assert (k = 0%nat) by lia. subst k. cbn [peval]. split; field.
    + intros k x. cbn [INR peval]. replace (((1 - 0) / (1 + 1) / 2) ^ 2 * (-1 + x * 0)) with (0 + - / 16 * 1) by field.
      apply (dpl_ext (fun x => (match k with O => 1 / 16 | _ => - (1 / 16) end) + - / 16 * x)); [intro; field|]. apply derivable_pt_lim_plus; [apply derivable_pt_lim_const|]. apply derivable_pt_lim_scal. apply derivable_pt_lim_id.
    + intros [|k]; cbn; lia.
    + cbn [peval]. field.
  - intro G. split; [apply ref_dtrsv_ok|]. split; [apply ref_dgemv_ok|]. split; [apply ref_drotg_ok|].
    unfold checkParams. cbn [kspaceSz maxits relTol absTol divTol stgTol]. change (fofn (exact G) 0) with 0. cbn [exact flt fle]. unfold Rltb, Rleb.
    repeat match goal with |- context [Rlt_dec ?x ?y] => destruct (Rlt_dec x y); [lra|] | |- context [Rle_dec ?x ?y] => destruct (Rle_dec x y); [lra|] end. reflexivity.
Qed.
Print Assumptions C106_one_solution.
Print Assumptions C106_right_side.
Print Assumptions C106_exact_solution.
Print Assumptions C106_run.
Print Assumptions C106_definite_refuted.
