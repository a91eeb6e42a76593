(* Poisson2dRunProps.v - C107: the program poisson2d, from the node tables to what it prints and writes. stacked is in
   Poisson2dSpec.v, distance in Poisson1DRunSpec.v, largest_at in BurgersRunSpec.v, tolerance and scale_norm in GmresSpec.v. *)
From Coq Require Import ZArith List Lia Bool Arith.
From Verif Require Import Base Loops Num JacobiSpec JacobiModel JacobiExactProofs JacobiQuadProofs JacobiOrthProofs BlitzModel UniqueProofs MeshSpec TriModel TriSpec TriGeoSpec TriSetup TriProps TriWitness TriOpProofs TriBasisProofs JacobiProofs Maps2DModel DenseSpec
  GmresModel GmresSpec GmresProps RKModel Line1DModel Line1DProofs BurgersRunSpec BurgersRunProofs TriElemProofs TriMapsProofs Maps2DProofs SwModel SwSpec SwProofs SwSchemeProofs SwRunProofs SwProps Poisson2dModel Poisson2dSpec Poisson2dProofs Poisson2dProps Poisson1DRunSpec Poisson2dRunModel Poisson2dRunProofs.
From Coq Require Import Reals Lra.
Import ListNotations.
Local Open Scope R_scope.
Local Notation tab := Line1DProofs.tab.

Section Program.
Context (G : R -> R) (solve : mat R -> mat R -> mat R -> outcome (mat R)) (inverse : mat R -> mat R -> outcome (mat R))
  (junk : nat -> nat -> R) (eps : R) (eig : nat -> (nat -> nat -> R) -> list R * (nat -> nat -> R)) (tol : R)
  (sort : (nat -> nat -> bool) -> list nat -> list nat) (junk1 : nat -> R) (junkn : nat -> nat)
  (N K : nat) (Vert : list R) (EToV E2E E2F : list nat) (bcType : list Z) (el : element (T := R)) (m : maps).
Variables (jk : nat -> nat -> R) (jv : nat -> R) (lowest : R) (sine : R -> R) (pi : R).
Local Notation E := (exact G).
Local Notation Grid := (sw_grid G solve inverse junk eps eig tol sort junk1 junkn N K Vert EToV E2E E2F bcType el m).
Local Notation Np := (length (e_r el)).
Local Notation nn := (Np * K)%nat.
Local Notation node i k := (node_at (e_x el) (e_y el) i k).
Local Notation tagged t := (exists k f, (k < K)%nat /\ (f < 3)%nat /\ tag_of bcType k f = t).
Local Notation op inp out := (poisson2d_op E jk jv lowest (tables_of el m) (g_J (e_metric el)) 3 (S N) Np K inp out).
Local Notation d := (tables_of el m).
Local Notation J := (g_J (e_metric el)).

Lemma op_fixed : Grid -> tagged 3%Z -> exists W Nn, maps_ok d Np K (3 * S N * K) /\ (0 < Np)%nat /\ (0 < K)%nat /\ forall inp out, length inp = nn -> length out = nn ->
  exists v u z qx qy, op inp out = Ok v /\ stacked Np K inp u /\ stacked Np K v z /\ op_eqs G lowest d J 3 (S N) Np K W Nn u qx qy z.
Proof.
  intros [HB HM HA HS Hrun Hbc] Hex. assert (HK : (0 < K)%nat) by (destruct Hex as (k & _ & Hk & _); lia). assert (Z3 : 3%Z <> 0%Z) by discriminate. assert (Z7 : 7%Z <> 0%Z) by discriminate.
  destruct (hash_at _ _ _ _ _ _ _ _ _ _ _ _ HB _ _ HM _ _ _ _ _ Hrun Hbc 3%Z Z3) as (W & HW & BW & SW & _). specialize (SW Hex).
  destruct (hash_at _ _ _ _ _ _ _ _ _ _ _ _ HB _ _ HM _ _ _ _ _ Hrun Hbc 7%Z Z7) as (N7 & HN7 & BN7 & SN7 & NN7).
  set (Nn := match hfind (d_bc d) 7 with None => [] | Some l => l end). exists W, Nn.
  assert (BNn : forall w, In w Nn -> (w < 3 * S N * K)%nat).
  { intros w. unfold Nn. change (d_bc d) with (m_bc m). destruct (hfind (m_bc m) 7) as [l|] eqn:El; [|intros []].
    assert (Hsome : exists k f, (k < K)%nat /\ (f < 3)%nat /\ tag_of bcType k f = 7%Z).
    { destruct (Classical_Prop.classic (exists k f, (k < K)%nat /\ (f < 3)%nat /\ tag_of bcType k f = 7%Z)) as [Hy|Hy]; [exact Hy|]. exfalso. assert (E0 : Some l = None) by (apply NN7; intros k' f' Hk' Hf' Ht; apply Hy; exists k', f'; auto). discriminate E0. }
    injection (SN7 Hsome) as ->. apply BN7. }
  pose proof (maps_bounds _ _ _ _ _ _ _ _ _ _ _ _ HB _ _ HM HA HS _ _ _ _ _ _ Hrun) as MB. assert (P0 : (0 < Np)%nat) by (eapply Np0; eassumption).
  split; [exact MB|]. split; [exact P0|]. split; [exact HK|].
  intros inp out Li Lo.
  destruct (op_run G jk jv lowest d J 3 (S N) Np K inp out W (conform_d _ _ _ _ _ _ _ _ _ _ _ _ HB m) ltac:(eapply J_conf; eassumption) P0 ltac:(lia) ltac:(lia) MB Li Lo SW BW BNn) as (u & qx & qy & z & v & Ev & Su & Sv & Heq).
  exists v, u, z, qx, qy. auto.
Qed.
Lemma split_g g : (0 < Np)%nat -> (g < nn)%nat -> (g mod Np < Np)%nat /\ (g / Np < K)%nat /\ g = (g mod Np + g / Np * Np)%nat.
Proof. intros H Hg. split; [apply Nat.mod_upper_bound; lia|]. split; [apply Nat.div_lt_upper_bound; lia|]. pose proof (Nat.div_mod g Np ltac:(lia)). lia. Qed.

(* The operator is linear and never fails on a mesh with a wall; what the output vector held before does not matter. *)
Theorem C107_linear : Grid -> tagged 3%Z -> forall al x y z ox oy oz, length x = nn -> length y = nn -> length z = nn -> length ox = nn -> length oy = nn -> length oz = nn ->
  (forall g, (g < nn)%nat -> nth g z 0 = nth g x 0 + al * nth g y 0) ->
  exists rx ry rz, op x ox = Ok rx /\ op y oy = Ok ry /\ op z oz = Ok rz /\ length rx = nn /\ length ry = nn /\ length rz = nn /\
  forall g, (g < nn)%nat -> nth g rz 0 = nth g rx 0 + al * nth g ry 0.
Proof.
  intros HG Ht al x y z ox oy oz Lx Ly Lz Lox Loy Loz Hz. destruct (op_fixed HG Ht) as (W & Nn & HM & P0 & HK & H).
  destruct (H x ox Lx Lox) as (rx & u1 & z1 & a1 & b1 & E1 & Su1 & Sz1 & Q1). destruct (H y oy Ly Loy) as (ry & u2 & z2 & a2 & b2 & E2 & Su2 & Sz2 & Q2). destruct (H z oz Lz Loz) as (rz & u3 & z3 & a3 & b3 & E3 & Su3 & Sz3 & Q3).
  exists rx, ry, rz. split; [exact E1|]. split; [exact E2|]. split; [exact E3|]. split; [apply Sz1|]. split; [apply Sz2|]. split; [apply Sz3|].
  destruct Su1 as (_ & _ & _ & Su1). destruct Su2 as (_ & _ & _ & Su2). destruct Su3 as (_ & _ & _ & Su3). destruct Sz1 as (_ & _ & _ & Sz1). destruct Sz2 as (_ & _ & _ & Sz2). destruct Sz3 as (_ & _ & _ & Sz3).
  assert (C : comb Np K al u1 u2 u3) by (intros i k Hi Hk; rewrite <- Su1, <- Su2, <- Su3 by assumption; apply Hz; nia).
  pose proof (eqs_lin G lowest d J 3 (S N) Np K W Nn al P0 HM _ _ _ _ _ _ _ _ _ _ _ _ Q1 Q2 Q3 C) as CZ.
  intros g Hg. destruct (split_g g P0 Hg) as (Hi & Hk & ->). rewrite Sz1, Sz2, Sz3 by assumption. apply CZ; assumption.
Qed.

Variable dtrsv : nat -> nat -> list R -> list R -> list R.
Variable dgemv : nat -> nat -> nat -> list R -> list R -> list R.
Variable drotg : R -> R -> R * R * R.
Local Notation run p := (poisson2d_run E jk jv lowest sine pi (fun _ => true) dtrsv dgemv drotg d J (e_x el) (e_y el) 3 (S N) Np K p).

Lemma xy_shape : Grid -> conform (e_x el) Np K = true /\ conform (e_y el) Np K = true.
Proof.
  intros [HB HM HA HS Hrun Hbc]. destruct (element_ok _ _ _ _ _ _ _ _ _ _ _ _ HB) as [lr ls nodes masks edge_i pts SV SVi V Vi Vi' SL lift D x metric nrm].
  destruct x as ((A1 & A2) & (B1 & B2) & _). rewrite <- lr in *. rewrite !conform_ok. auto.
Qed.
Lemma full_stacked (mt : mat R) : conform mt Np K = true -> (0 < Np)%nat -> fullToVector mt (fresh jv nn) false = Ok (tab nn (fun g => ment mt (g mod Np) (g / Np))) /\ stacked Np K (tab nn (fun g => ment mt (g mod Np) (g / Np))) mt.
Proof.
  intros HC P0. apply conform_ok in HC as (A & B). split; [apply full_tab; auto; apply fresh_len|]. split; [apply tab_len|]. split; [exact A|]. split; [exact B|].
  intros i k Hi Hk. rewrite tab_at by nia. rewrite Nat.mod_add, Nat.div_add, Nat.mod_small, Nat.div_small by lia. reflexivity.
Qed.

(* Without a wall the first application of the operator throws, and so does the program, unless the fields are zero at every node. *)
Theorem C107_no_wall_throws p : checkParams E p = true -> Grid -> (0 < K)%nat -> (forall k f, (k < K)%nat -> (f < 3)%nat -> tag_of bcType k f <> 3%Z) ->
  (exists i k, (i < Np)%nat /\ (k < K)%nat /\ sine (pi * fst (node i k)) * sine (pi * snd (node i k)) <> 0) -> run p = Throw.
Proof.
  intros Hp HG HK Hno (i0 & k0 & Hi0 & Hk0 & Hne). destruct (xy_shape HG) as (CX & CY). assert (P0 : (0 < Np)%nat) by lia.
  unfold poisson2d_run. rewrite CX, CY. cbn [andb require].
  apply conform_ok in CX as (X1 & X2). apply conform_ok in CY as (Y1 & Y2).
  set (ue := mzip (driver_exact E sine pi) (e_x el) (e_y el)). set (rh := mmap (fmul E (fmul E (fopp E pi) pi)) ue).
  destruct (full_stacked rh ltac:(apply conform_ok; auto) P0) as (Eb & Sb). destruct (full_stacked ue ltac:(apply conform_ok; auto) P0) as (Eu & Su). rewrite Eb. cbn [bind]. rewrite Eu. cbn [bind].
  match goal with |- context [gmres _ _ _ _ _ _ _ _ _ _ _ (tab nn ?g1) (tab nn ?g2) _] => set (bv := tab nn g1) in *; set (x0 := tab nn g2) in * end.
  assert (Lx : length x0 = nn) by apply tab_len. assert (Lb : length bv = nn) by apply tab_len.
  unfold gmres. rewrite Hp. cbn [negb]. rewrite Lb, Lx, Nat.eqb_refl. cbn [negb]. cbv zeta.
  assert (NZ : isNonzero E x0 = true).
  { unfold isNonzero. apply existsb_exists. exists (sine (pi * fst (node i0 k0)) * sine (pi * snd (node i0 k0))). split.
    - destruct Su as (_ & _ & _ & Su). change (sine (pi * fst (node i0 k0)) * sine (pi * snd (node i0 k0))) with (ment ue i0 k0). rewrite <- (Su i0 k0 Hi0 Hk0). apply nth_In. rewrite Lx. nia.
    - change (fofn E 0) with 0. cbn [exact feq]. unfold Reqb. destruct (Req_EM_T _ 0); [contradiction|reflexivity]. }
  rewrite NZ. unfold poisson2d_mvec at 1.
  rewrite (C84_no_wall_throws G solve inverse junk eps eig tol sort junk1 junkn N K Vert EToV E2E E2F bcType el m jk jv lowest HG Hno x0 _ Lx). cbn [negb bind g_flag]. reflexivity.
Qed.

Hypothesis Htrsv : forall n lda a x, length (dtrsv n lda a x) = length x.
Hypothesis Hgemv : forall m n lda a x, length (dgemv m n lda a x) = m.
Hypothesis Htrsv2 : dtrsv_spec dtrsv.
Hypothesis Hgemv2 : dgemv_spec dgemv.
Hypothesis Hrot : drotg_spec drotg.

(* On a mesh with a wall the program always ends. It writes sin(pi x) sin(pi y), -pi^2 times that and the vector v of the solver, and
   prints the largest absolute value of v. The solver starts from sin(pi x) sin(pi y). It breaks down only if the operator takes some
   vector that is not zero to zero. Otherwise the operator at v is no further from the right side than at the start, success means
   exactly that it is within the tolerance, and with an invertible operator and a basis as large as the system it succeeds. *)
Theorem C107_run p : checkParams E p = true -> Grid -> lowest < 0 -> tagged 3%Z ->
  exists out bv x0 v A0 Av, run p = Ok out /\ stacked Np K bv (p2_rhs out) /\ stacked Np K x0 (p2_uexact out) /\ stacked Np K v (p2_u out) /\
  (forall i k, (i < Np)%nat -> (k < K)%nat -> ment (p2_uexact out) i k = sine (pi * fst (node i k)) * sine (pi * snd (node i k)) /\
     ment (p2_rhs out) i k = - pi * pi * (sine (pi * fst (node i k)) * sine (pi * snd (node i k)))) /\
  largest_at Np K (ment (p2_u out)) (p2_max out) /\
  (forall o, length o = nn -> op x0 o = Ok A0 /\ op v o = Ok Av) /\
  let start := distance nn bv A0 in let left_over := distance nn bv Av in let flag := g_flag (p2_gmres out) in let tolv := tolerance E (relTol p) (absTol p) bv in
  let invertible := forall z, length z = nn -> op z (repeat 0 nn) = Ok (repeat 0 nn) -> z = repeat 0 nn in
  (flag = F_breakdown /\ ~ invertible \/
   (flag = F_success \/ flag = F_diverged \/ flag = F_stagnation \/ flag = F_maxits) /\
   (flag = F_success <-> left_over <= tolv) /\ left_over <= start /\ g_relres (p2_gmres out) = left_over / scale_norm E bv /\ (1 < divTol p -> flag <> F_diverged)) /\
  (invertible -> (Z.of_nat nn <= kspaceSz p)%Z -> 1 < divTol p -> flag = F_success).
Proof.
  intros Hp HG Hlow Ht. destruct (xy_shape HG) as (CX & CY). destruct (op_fixed HG Ht) as (W & Nn & _ & P0 & HK & HO).
  set (f := fun i o : list R => op i o).
  assert (Htot : forall x o, length x = nn -> length o = nn -> exists r, f x o = Ok r /\ length r = nn).
  { intros x o Lx Lo. destruct (HO x o Lx Lo) as (r & u & z & a & b & Er & _ & Sz & _). exists r. split; [exact Er|apply Sz]. }
  assert (Hlin : forall al x y z ox oy oz rx ry rz, length x = nn -> length y = nn -> length z = nn -> length ox = nn -> length oy = nn -> length oz = nn ->
    (forall g, (g < nn)%nat -> nth g z 0 = nth g x 0 + al * nth g y 0) -> f x ox = Ok rx -> f y oy = Ok ry -> f z oz = Ok rz ->
    forall g, (g < nn)%nat -> nth g rz 0 = nth g rx 0 + al * nth g ry 0).
  { intros al x y z ox oy oz rx ry rz Lx Ly Lz Lox Loy Loz Hz Ex Ey Ez. destruct (C107_linear HG Ht al x y z ox oy oz Lx Ly Lz Lox Loy Loz Hz) as (r1 & r2 & r3 & F1 & F2 & F3 & _ & _ & _ & H). unfold f in *. assert (r1 = rx) by congruence. assert (r2 = ry) by congruence. assert (r3 = rz) by congruence. subst. exact H. }
  pose proof (entries_ok nn f Htot Hlin) as HE. set (Am := entries nn f) in *. set (Im := fun i j : nat => if (i =? j)%nat then 1 else 0).
  set (ue := mzip (driver_exact E sine pi) (e_x el) (e_y el)). set (rh := mmap (fmul E (fmul E (fopp E pi) pi)) ue).
  pose proof CX as CX'. pose proof CY as CY'. apply conform_ok in CX' as (X1 & X2). apply conform_ok in CY' as (Y1 & Y2).
  destruct (full_stacked rh ltac:(apply conform_ok; auto) P0) as (Eb & Sb). destruct (full_stacked ue ltac:(apply conform_ok; auto) P0) as (Eu & Su).
  set (bv := tab nn (fun g => ment rh (g mod Np) (g / Np))) in *. set (x0 := tab nn (fun g => ment ue (g mod Np) (g / Np))) in *.
  assert (L0 : length x0 = nn) by apply tab_len. assert (Lb : length bv = length x0) by (rewrite L0; apply tab_len).
  assert (C1 : linear_callback (length x0) Am (poisson2d_mvec E jk jv lowest d J 3 (S N) Np K)).
  { rewrite L0. intros e v o Lv Lo. unfold poisson2d_mvec. destruct (Htot v o Lv Lo) as (res & Er & Lr). pose proof (HE v o res Lv Lo Er) as HH. unfold f in Er. rewrite Er. exists e, res. auto. }
  assert (pick : forall u i, (i < nn)%nat -> sumn nn (fun j => Im i j * u j) = u i).
  { intros u i Hi. rewrite (sumn_pick nn _ i Hi); [unfold Im; rewrite Nat.eqb_refl; ring|]. intros j Hj Hne. unfold Im. destruct (Nat.eqb_spec i j); [congruence|ring]. }
  assert (C2 : linear_callback (length x0) Im (poisson2d_precon (T := R))).
  { rewrite L0. intros e v o Lv Lo. unfold poisson2d_precon. rewrite Lv, Lo, Nat.eqb_refl. exists e, v. split; [reflexivity|]. split; [exact Lv|]. intros i Hi. symmetry. apply (pick (fun j => nth j v 0) i Hi). }
  set (invertible := forall z, length z = nn -> op z (repeat 0 nn) = Ok (repeat 0 nn) -> z = repeat 0 nn).
  assert (LZ : length (repeat 0 nn) = nn) by apply repeat_length.
  assert (HI : invertible -> forall u, veq (length x0) (ap (length x0) Am (ap (length x0) Im u)) (fun _ => 0) -> veq (length x0) u (fun _ => 0)).
  { rewrite L0. intros Hinv u Hu i Hi. assert (Lt : length (tab nn u) = nn) by apply tab_len. destruct (Htot (tab nn u) (repeat 0 nn) Lt LZ) as (res & Er & Lr).
    assert (Hz : res = repeat 0 nn).
    { apply (nth_ext _ _ 0 0); [congruence|]. intros g Hg. rewrite Lr in Hg. rewrite nth_repeat, (HE _ _ _ Lt LZ Er g Hg). transitivity (ap nn Am (ap nn Im u) g); [|exact (Hu g Hg)]. unfold ap. apply sumn_ext. intros j Hj. rewrite (pick u j Hj), tab_at by exact Hj. reflexivity. }
    rewrite Hz in Er. pose proof (Hinv _ Lt Er) as HT. rewrite <- (tab_at nn u i Hi), HT. apply nth_repeat. }
  pose proof (fun H0 H1 H2 => C63_full_space_converges G (outcome unit) _ _ dtrsv dgemv drotg Htrsv Hgemv Htrsv2 Hgemv2 Hrot jv jk p bv x0 (Ok tt) Am Im Hp Lb C1 C2 H1 H2 (HI H0)) as Full0.
  destruct (C30_exact G (outcome unit) _ _ dtrsv dgemv drotg Htrsv Hgemv Htrsv2 Hgemv2 Hrot jv jk p bv x0 (Ok tt) Am Im Hp Lb C1 C2) as (g & v & e' & Eg & Lv & Hf). rewrite L0 in *.
  destruct (Htot v (repeat 0 nn) Lv LZ) as (Av & EA & LA). destruct (Htot x0 (repeat 0 nn) L0 LZ) as (A0 & EA0 & LA0).
  assert (Eany : forall x r, length x = nn -> f x (repeat 0 nn) = Ok r -> forall o, length o = nn -> f x o = Ok r).
  { intros x r Lx Ex o Lo. destruct (Htot x o Lx Lo) as (r' & Er' & Lr'). destruct (Htot x (repeat 0 nn) Lx LZ) as (r2 & Er2 & Lr2). assert (r2 = r) by congruence. subst r2. rewrite Er'. f_equal. apply (nth_ext _ _ 0 0); [congruence|]. intros i Hi. rewrite Lr' in Hi.
    rewrite (HE _ _ _ Lx Lo Er' i Hi), (HE _ _ _ Lx LZ Ex i Hi). reflexivity. }
  assert (Rn : forall x r, length x = nn -> f x (repeat 0 nn) = Ok r -> resnorm nn Am (fun i => nth i bv 0) (fun i => nth i x 0) = distance nn bv r).
  { intros x r Lx Ex. unfold resnorm, distance, resid_of, GmresSpec.dot. f_equal. apply sumn_ext. intros i Hi. rewrite (HE _ _ _ Lx LZ Ex i Hi). unfold ap. ring. }
  destruct (unfull_tab (fun i => nth i v 0) (mkmat Np K jk) Np K eq_refl eq_refl) as (u & Euf & Ur & Uc & Hu).
  assert (Ev : tab nn (fun i => nth i v 0) = v). { apply (nth_ext _ _ 0 0); [rewrite tab_len; symmetry; exact Lv|]. intros i Hi. rewrite tab_len in Hi. apply tab_at. exact Hi. }
  rewrite Ev in Euf.
  exists (P2 g u ue rh (max_abs E lowest u)), bv, x0, v, A0, Av. cbn [p2_gmres p2_u p2_uexact p2_rhs p2_max]. split.
  { unfold poisson2d_run. rewrite CX, CY. cbn [andb require]. fold ue. fold rh. rewrite Eb. cbn [bind]. rewrite Eu. cbn [bind]. rewrite Eg. cbn [bind]. rewrite Euf. cbn [bind]. destruct (g_flag g); try reflexivity; contradiction. }
  split; [exact Sb|]. split; [exact Su|]. split; [split; [exact Lv|]; split; [exact Ur|]; split; [exact Uc|]; intros i k Hi Hk; symmetry; exact (Hu i k Hi Hk)|].
  split; [intros i k Hi Hk; split; reflexivity|]. split; [apply (max_at G lowest Np K u Hlow P0 HK); split; assumption|].
  split; [intros o Lo; split; [exact (Eany x0 A0 L0 EA0 o Lo)|exact (Eany v Av Lv EA o Lo)]|]. cbv zeta. fold invertible.
  assert (T0 : 0 <= tolerance E (relTol p) (absTol p) bv).
  { pose proof Hp as Hp'. unfold checkParams in Hp'. apply negb_true_iff in Hp'. rewrite !orb_false_iff in Hp'. destruct Hp' as (((_ & Ha) & _) & _). change (fofn E 0) with 0 in Ha. cbn [exact flt] in Ha.
    assert (0 <= absTol p) by (unfold Rltb in Ha; destruct (Rlt_dec (absTol p) 0); [discriminate|lra]).
    unfold tolerance. cbv zeta. cbn [exact flt]. unfold Rltb. destruct (Rlt_dec _ (absTol p)) as [h|h]; [lra|]. cbn [exact fmul] in *. lra. }
  rewrite (Rn v Av Lv EA), (Rn x0 A0 L0 EA0) in Hf. assert (Dp : forall y, 0 <= distance nn bv y) by (intro; apply sqrt_pos).
  split.
  2:{ intros H0 H1 H2. destruct (Full0 H0 H1 H2) as (g' & v' & e2 & Eg' & Hs & _). congruence. }
  destruct (g_flag g) eqn:Ef; try contradiction.
  all: try (right; destruct Hf as (A & B & C & D & _); split; [auto|]; split; [exact C|]; split; [exact B|]; split; [rewrite A; unfold Rdiv; ring|]; intros Hd Hx; try discriminate;
    specialize (D eq_refl); pose proof (Dp Av) as P1; pose proof (Dp A0) as P2'; assert (Z : distance nn bv Av = 0) by nra; rewrite Z in C; destruct C as (_ & C); specialize (C T0); discriminate).
  left. split; [reflexivity|]. intro Hinv. destruct Hf as (z & Z1 & Z2). apply Z1. unfold GmresSpec.dot. apply sumn_zero. intros i Hi. rewrite (HI Hinv z Z2 i Hi). ring.
Qed.
End Program.

(* The unit square cut along its diagonal, order 1: with the wall at x = 0 it meets the hypotheses of C107_linear and C107_run, with
   no wall those of C107_no_wall_throws (exp stands for a sine without zeros at the nodes). The parameters are those of the program. *)
Local Notation square bc el m := (sw_grid gwit cramer cramer_inv junk0 0 eig0 (1 / 10) isort (fun _ => 0) (fun _ => 0%nat) 1 2 square_v square_e [0; 0; 1;  0; 1; 1]%nat [0; 1; 0;  2; 1; 2]%nat bc el m).
Example C107_witness : (let bc := [7; 0; 0; 0; 7; 3]%Z in exists el m, square bc el m /\ tag_of bc 1 2 = 3%Z) /\
  (let bc := [7; 0; 0; 0; 7; 7]%Z in exists el m, square bc el m /\ (forall k f, (k < 2)%nat -> (f < 3)%nat -> tag_of bc k f <> 3%Z) /\
     exists i k, (i < length (e_r el))%nat /\ (k < 2)%nat /\ exp (1 * fst (node_at (e_x el) (e_y el) i k)) * exp (1 * snd (node_at (e_x el) (e_y el) i k)) <> 0) /\
  (forall G, dtrsv_spec (ref_dtrsv (exact G)) /\ dgemv_spec (ref_dgemv (exact G)) /\ drotg_spec (ref_drotg (exact G)) /\ checkParams (exact G) (GParams true 300 1500 (1 / 10000) (1 / 1000000) 100000 (1 / 1000000000000)) = true).
Proof.
  split; [|split].
  - intro bc. destruct (square_ok bc eq_refl) as (_ & el & m & HG). exists el, m. split; [exact HG|reflexivity].
  - intro bc. destruct (square_ok bc eq_refl) as (_ & el & m & HG). exists el, m. split; [exact HG|]. split.
    + intros k f Hk Hf. destruct k as [|[|]]; [| |lia]; (destruct f as [|[|[|]]]; [| | |lia]); discriminate.
    + exists 0%nat, 0%nat. split; [destruct HG as [HB HM HA HS Hrun Hbc]; eapply Np0; eassumption|]. split; [lia|]. apply Rmult_integral_contrapositive_currified; apply Rgt_not_eq; apply exp_pos.
  - intro G. split; [apply ref_dtrsv_ok|]. split; [apply ref_dgemv_ok|]. split; [apply ref_drotg_ok|].
    unfold checkParams. cbn [kspaceSz maxits relTol absTol divTol stgTol]. change (fofn (exact G) 0) with 0. cbn [exact flt fle]. unfold Rltb, Rleb.
    repeat match goal with |- context [Rlt_dec ?x ?y] => destruct (Rlt_dec x y); [lra|] | |- context [Rle_dec ?x ?y] => destruct (Rle_dec x y); [lra|] end. reflexivity.
Qed.
Print Assumptions C107_linear.
Print Assumptions C107_no_wall_throws.
Print Assumptions C107_run.
