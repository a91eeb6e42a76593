(* Poisson2dProofs.v - what the matrix-free Laplacian computes. *)
From Coq Require Import ZArith List Lia Bool Arith.
From Verif Require Import Base Loops Num JacobiSpec JacobiQuadProofs BlitzModel BlitzProofs BlitzSpec Nodes1DModel Nodes1DExactProofs DenseModel DenseSpec MeshSpec TriModel TriSpec TriGeoSpec TriSetup TriProps TriOpProofs TriBasisProofs Maps2DModel Maps2DSpec Maps2DProofs Maps2DProps TriMapsProofs TriMapsProps TriDGSpec TriDGProofs
  RKModel Line1DModel RKProofs Line1DProofs SwModel SwSpec SwProofs SwSchemeProofs SwRunProofs JacobiProofs JacobiOrthProofs GllProofs TriLiftProofs SwSetupModel SwSetupProofs Line1DBurgersProofs PoissonProofs SwDtProofs Poisson2dModel Poisson2dSpec.
From Coq Require Import Reals Lra.
Import ListNotations.
Local Notation tab := Line1DProofs.tab.
Local Notation inb := SwProofs.inb.

Lemma odd_ok {T} (A : arith T) nf uM l : (forall w, In w l -> w < nf) -> forall uP,
  each (odd_step A (tab nf uM)) l (tab nf uP) = Ok (tab nf (fun i => if inb i l then fopp A (uM i) else uP i)).
Proof.
  induction l as [|w l IH]; intros Hl uP; [reflexivity|]. cbn [each]. unfold odd_step at 1. pose proof (Hl w (or_introl eq_refl)) as Hw.
  rewrite tab_getn by exact Hw. cbn [bind]. rewrite tab_setn by exact Hw. cbn [bind]. rewrite IH by (intros; apply Hl; now right).
  f_equal. apply tab_ext. intros i _. cbn [SwProofs.inb existsb]. fold (inb i l). destruct (inb i l), (Nat.eqb_spec i w) as [->|]; reflexivity.
Qed.
Lemma reflect_ok {T} (A : arith T) nf nx ny uxM uyM l : (forall w, In w l -> w < nf) -> forall uxP uyP,
  let un i := fadd A (fmul A (uxM i) (nx i)) (fmul A (uyM i) (ny i)) in
  each (reflect_step A (tab nf nx) (tab nf ny) (tab nf uxM) (tab nf uyM)) l (tab nf uxP, tab nf uyP) =
  Ok (tab nf (fun i => if inb i l then fsub A (uxM i) (fmul A (fmul A (fofn A 2) (nx i)) (un i)) else uxP i),
      tab nf (fun i => if inb i l then fsub A (uyM i) (fmul A (fmul A (fofn A 2) (ny i)) (un i)) else uyP i)).
Proof.
  intros Hl uxP uyP un. revert Hl uxP uyP. induction l as [|w l IH]; intros Hl uxP uyP; [reflexivity|]. cbn [each]. unfold reflect_step at 1. pose proof (Hl w (or_introl eq_refl)) as Hw.
  rewrite !tab_getn by exact Hw. cbn [bind]. rewrite tab_setn by exact Hw. cbn [bind]. rewrite tab_setn by exact Hw. cbn [bind]. rewrite IH by (intros; apply Hl; now right).
  f_equal. f_equal; apply tab_ext; intros i _; cbn [SwProofs.inb existsb]; fold (inb i l); destruct (inb i l), (Nat.eqb_spec i w) as [->|]; reflexivity.
Qed.

Local Open Scope R_scope.
Section Run.
Variables (G : R -> R) (junk : nat -> nat -> R) (junkv : nat -> R) (lowest : R).
Local Notation E := (exact G).
Lemma dx_ok d Np K u i k : ment (dx E d Np K u) i k = ment (d_rx d) i k * sumn Np (fun j => ment (d_Dr d) i j * ment u j k) + ment (d_sx d) i k * sumn Np (fun j => ment (d_Ds d) i j * ment u j k).
Proof. unfold dx, mzip, scaled_product. cbn [ment]. rewrite !fsum_exact. reflexivity. Qed.
Lemma dy_ok d Np K u i k : ment (dy E d Np K u) i k = ment (d_ry d) i k * sumn Np (fun j => ment (d_Dr d) i j * ment u j k) + ment (d_sy d) i k * sumn Np (fun j => ment (d_Ds d) i j * ment u j k).
Proof. unfold dy, mzip, scaled_product. cbn [ment]. rewrite !fsum_exact. reflexivity. Qed.

Definition beyond_cell (d : dg2d (T := R)) (m Np : nat) (W Nn : list nat) (q : field) (e : nat) : cell :=
  let own := cell_at Np q (vM d e) in let nP := cell_at Np q (vP d e) in
  (if inb e W then - part 0 own else part 0 nP,
   if inb e Nn then part 1 (mirror (normal_at d m e) own) else part 1 nP,
   if inb e Nn then part 2 (mirror (normal_at d m e) own) else part 2 nP).

Definition op_eqs (d : dg2d (T := R)) (J : mat R) (NF Nfp Np K : nat) (W Nn : list nat) (u qx qy z : mat R) : Prop :=
  let m := (NF * Nfp)%nat in let q := (u, dx E d Np K u, dy E d Np K u) in
  let own e := cell_at Np q (vM d e) in let other := beyond_cell d m Np W Nn q in
  let du e := part 0 (own e) - part 0 (other e) in
  (forall i k, (i < Np)%nat -> (k < K)%nat -> 
     ment qx i k = ment (dx E d Np K u) i k - sumn m (fun j => ment (d_Lift d) i j * (ment (d_Fscale d) j k * (ment (d_nx d) j k * du (j + k * m)%nat / 2))) /\
     ment qy i k = ment (dy E d Np K u) i k - sumn m (fun j => ment (d_Lift d) i j * (ment (d_Fscale d) j k * (ment (d_ny d) j k * du (j + k * m)%nat / 2))) /\
     ment z i k = ment (dx E d Np K qx) i k + ment (dy E d Np K qy) i k - sumn m (fun j => let e := (j + k * m)%nat in ment (d_Lift d) i j *
       ((ment (d_nx d) j k * (volv Np qx (vM d e) - (part 1 (own e) + part 1 (other e)) / 2) + ment (d_ny d) j k * (volv Np qy (vM d e) - (part 2 (own e) + part 2 (other e)) / 2) + penalty E lowest Np J * du e) / 2))).

Lemma op_run d J NF Nfp Np K inp out W : dg_conform d NF Nfp Np K = true -> conform J Np K = true -> (0 < Np)%nat -> (0 < NF)%nat -> (0 < Nfp)%nat ->
  maps_ok d Np K (NF * Nfp * K) -> length inp = (Np * K)%nat -> length out = (Np * K)%nat ->
  hfind (d_bc d) 3 = Some W -> (forall w, In w W -> (w < NF * Nfp * K)%nat) ->
  let Nn := match hfind (d_bc d) 7 with None => [] | Some l => l end in (forall w, In w Nn -> (w < NF * Nfp * K)%nat) ->
  exists u qx qy z v, poisson2d_op E junk junkv lowest d J NF Nfp Np K inp out = Ok v /\ stacked Np K inp u /\ stacked Np K v z /\
  op_eqs d J NF Nfp Np K W Nn u qx qy z.
Proof.
  intros HC HJ HNp HNF HNfp (LM & LP & BM & BP) Li Lo HW BW Nn BN. unfold poisson2d_op. rewrite HC, HJ. cbn [require andb].
  set (nf := (NF * Nfp * K)%nat) in *. set (m := (NF * Nfp)%nat) in *.
  pose proof HC as HC'. unfold dg_conform in HC'. rewrite !andb_true_iff in HC'. destruct HC' as (((((((((_ & _) & _) & _) & Cx) & Cy) & _) & _) & _) & _).
  assert (C0 : forall a, conform a m K = true -> fullToVector a (vfresh junkv nf) false = Ok (tab nf (fun i => ment a (i mod m) (i / m)))).
  { intros a Ha. apply conform_ok in Ha as (M1 & M2). apply full_tab; auto; [unfold m; nia|apply vfresh_len]. }
  assert (Ein : inp = tab (Np * K) (fun i => nth i inp 0)). { apply tab_eq; [exact Li|]. intros i Hi. apply nth_error_nth'. lia. }
  destruct (unfull_tab (fun i => nth i inp 0) (mkmat Np K junk) Np K eq_refl eq_refl) as (u & Eu & U1 & U2 & Hu). rewrite <- Ein in Eu. rewrite Eu. cbn [bind].
  rewrite (C0 _ Cx), (C0 _ Cy). cbn [bind].
  assert (Cu : conform u Np K = true) by (unfold conform; rewrite U1, U2, !Nat.eqb_refl; reflexivity).
  rewrite (traces_ok junkv d Np K nf u) by assumption. cbn [bind]. rewrite HW, (odd_ok E nf _ W BW). cbn [bind]. rewrite tab_zipw.
  assert (Em : (Nfp * NF)%nat = m) by (unfold m; lia). rewrite Em.
  match goal with |- context [vectorToFull (tab nf ?F) _ _] => destruct (unfull_tab F (mkmat m K junk) m K eq_refl eq_refl) as (D & ED & _ & _ & HD); fold nf in ED end.
  change (m * K)%nat with nf in ED. rewrite ED. cbn [bind].
  set (ux := dx E d Np K u) in *. set (uy := dy E d Np K u) in *.
  set (qx := sub_product E ux (d_Lift d) (face_part E d (d_nx d) D) m). set (qy := sub_product E uy (d_Lift d) (face_part E d (d_ny d) D) m).
  assert (Cqx : conform qx Np K = true) by (unfold conform, qx, ux, sub_product, dx, mzip, scaled_product; cbn [mrows mcols]; rewrite !Nat.eqb_refl; reflexivity).
  assert (Cqy : conform qy Np K = true) by (unfold conform, qy, uy, sub_product, dy, mzip, scaled_product; cbn [mrows mcols]; rewrite !Nat.eqb_refl; reflexivity).
  assert (Cux : conform ux Np K = true) by (unfold conform, ux, dx, mzip, scaled_product; cbn [mrows mcols]; rewrite !Nat.eqb_refl; reflexivity).
  assert (Cuy : conform uy Np K = true) by (unfold conform, uy, dy, mzip, scaled_product; cbn [mrows mcols]; rewrite !Nat.eqb_refl; reflexivity).
  rewrite (traces_ok junkv d Np K nf qx), (traces_ok junkv d Np K nf qy), (traces_ok junkv d Np K nf ux), (traces_ok junkv d Np K nf uy) by assumption. cbn [bind].
  fold Nn. rewrite (reflect_ok E nf _ _ _ _ Nn BN). cbn [bind]. rewrite !tab_zipw.
  match goal with |- context [vectorToFull (tab nf ?F) _ _] => destruct (unfull_tab F (mkmat m K junk) m K eq_refl eq_refl) as (D1 & ED1 & _ & _ & HD1) end.
  change (m * K)%nat with nf in ED1. rewrite ED1. cbn [bind].
  match goal with |- context [vectorToFull (tab nf ?F) _ _] => destruct (unfull_tab F (mkmat m K junk) m K eq_refl eq_refl) as (D2 & ED2 & _ & _ & HD2) end.
  change (m * K)%nat with nf in ED2. rewrite ED2. cbn [bind].
  set (z := sub_product E (mzip (fadd E) (dx E d Np K qx) (dy E d Np K qy)) (d_Lift d) (side_part E d (penalty E lowest Np J) D1 D2 D) m).
  rewrite (full_tab z out Np K eq_refl eq_refl HNp Lo). exists u, qx, qy, z. eexists. split; [reflexivity|].
  split. { split; [exact Li|]. split; [exact U1|]. split; [exact U2|]. intros i k Hi Hk. rewrite Hu by assumption. reflexivity. }
  split. { split; [apply tab_len|]. split; [reflexivity|]. split; [reflexivity|]. intros i k Hi Hk. apply nth_error_nth. rewrite tab_nth_error.
    destruct (Nat.ltb_spec (i + k * Np) (Np * K)); [|nia]. rewrite Nat.mod_add, Nat.div_add, Nat.mod_small, Nat.div_small by lia. reflexivity. }
  cbv delta [op_eqs]; cbv beta. intros m0 q own other du. change m0 with m in *. clear m0. intros i k Hi Hk.
  assert (Hdu : forall j, (j < m)%nat -> ment D j k = du (j + k * m)%nat).
  { intros j Hj. rewrite HD by assumption. unfold du, other, own, beyond_cell, cell_at, volv, at_node. cbn [q part fieldc fst snd fsub fopp exact]. reflexivity. }
  split; [|split].
  - unfold qx, sub_product. cbn [ment]. rewrite fsum_exact. cbn [fsub exact]. f_equal. apply sumn_ext. intros j Hj. unfold face_part, mzip, mmap. cbn [ment fmul fdiv exact]. rewrite Hdu by exact Hj. reflexivity.
  - unfold qy, sub_product. cbn [ment]. rewrite fsum_exact. cbn [fsub exact]. f_equal. apply sumn_ext. intros j Hj. unfold face_part, mzip, mmap. cbn [ment fmul fdiv exact]. rewrite Hdu by exact Hj. reflexivity.
  - unfold z, sub_product at 1. cbn [ment]. rewrite fsum_exact. cbn [fsub exact]. f_equal. apply sumn_ext. intros j Hj. cbv zeta. f_equal. unfold side_part, mzip, mmap. cbn [ment fmul fadd fdiv exact]. rewrite Hdu, HD1, HD2 by assumption.
    set (e := (j + k * m)%nat). unfold du, other, own, beyond_cell, cell_at, mirror, normal_at. unfold at_node. cbn [q part fieldc fst snd fsub fadd fmul exact]. unfold volv at 2 3 5 6 7 8.
    assert (Eh : fhalf E = 1 / 2) by reflexivity. rewrite !Eh.
    change (fofn E 2) with 2.
    destruct (inb e Nn); cbn [fsub fadd fmul exact]; unfold volv; fold ux uy; try (field).
Qed.
End Run.

Local Open Scope R_scope.
Definition neg2 (p : poly2) : poly2 := map (fun t : nat * nat * R => (fst t, - snd t)) p.
Lemma neg2_eval p x y : eval2 (neg2 p) x y = - eval2 p x y.
Proof. induction p as [|[[i j] c] p IH]; [unfold eval2; cbn; ring|]. unfold neg2, eval2 in *. cbn [map fold_right fst snd] in *. rewrite IH. ring. Qed.
Lemma neg2_deg N p : degree2 N p -> degree2 N (neg2 p).
Proof. unfold degree2, neg2. induction 1 as [|[[i j] c] p H1 _ IH]; constructor; assumption. Qed.
Lemma balance_divergence N a b c Z F G S0 S1 S2 : dg_balance N a b c Z F G S0 S1 S2 -> dg_divergence N a b c (neg2 Z) F G S0 S1 S2.
Proof.
  intros H W Wx Wy DW Hx Hy. destruct (H W Wx Wy DW Hx Hy) as (vz & vf & v0 & v1 & v2 & Hz & Hf & H0 & H1 & H2 & E).
  exists (- vz), vf, v0, v1, v2. repeat (split; [assumption|]) || idtac. split; [|repeat (split; [assumption|]); rewrite E; ring].
  destruct Hz as (i & Hi & ->). exists (- i). split; [|ring]. apply (tint_ext (fun r s => -1 * pulled a b c (fun x y => eval2 Z x y * eval2 W x y) r s)).
  - intros r s. unfold pulled. rewrite neg2_eval. ring.
  - replace (- i) with (-1 * i) by ring. apply tint_scal, Hi.
Qed.

Section Form.
Variables (G : R -> R) (solve : mat R -> mat R -> mat R -> outcome (mat R)) (inverse : mat R -> mat R -> outcome (mat R))
  (junk : nat -> nat -> R) (eps : R) (eig : nat -> (nat -> nat -> R) -> list R * (nat -> nat -> R)) (tol : R)
  (N K : nat) (Vert : list R) (EToV : list nat) (el : element (T := R)).
Hypothesis HB : built G solve inverse junk eps eig tol N K Vert EToV el.
Variables (E2E E2F : list nat).
Hypothesis HM : tri_mesh K Vert EToV E2E E2F.
Local Notation P := (TriGeoSpec.corner Vert EToV).
Hypothesis HA : forall k, (k < K)%nat -> 0 < area (P k 0) (P k 1) (P k 2).
Local Notation Fm := (mask_table N (e_masks el)).
Local Notation Np := (length (e_r el)).
Local Notation fn := (fnode el).
Hypothesis HS : forall n n', (n <= N)%nat -> (n' <= N)%nat -> n <> n' -> 2 * tol <= Rabs (nth (ment Fm n 0) (e_r el) 0 - nth (ment Fm n' 0) (e_r el) 0).
Variables (sort : (nat -> nat -> bool) -> list nat -> list nat) (junk1 : nat -> R) (junkn : nat -> nat) (bcType : list Z) (m : maps).
Hypothesis Hrun : buildMaps (exact G) rhypot sort junk1 junkn tol 3 (S N) Np K Fm (e_x el) (e_y el) E2E E2F EToV Vert bcType [] = Ok m.
Hypothesis Hbc : (3 * K <= length bcType)%nat.
Local Notation d := (tables_of el m).
Local Notation fid := (face_id 3 (S N)).
Local Notation X := (node_at (e_x el) (e_y el)).
Local Notation E := (exact G).
Local Notation nrm e := (normal_at d (3 * S N) e).

Lemma interp_exists (u : mat R) k : (k < K)%nat -> exists p, interpolant N Np (e_x el) (e_y el) u k p.
Proof.
  intro Hk. destruct (dg_element _ _ _ _ _ _ _ _ _ _ _ _ HB k Hk (HA k Hk) (fun i => ment u i k) (fun _ => 0) (fun _ => 0) _ (fun i Hi => eq_refl)) as (Z & Fp & Gp & S0 & S1 & S2 & DZ & DF & DG & L0 & L1 & L2 & Hn & _).
  exists Fp. split; [exact DF|]. intros i Hi. apply (Hn i Hi).
Qed.
Lemma gradients_ok u : gradients N Np K (e_x el) (e_y el) u (dx E d Np K u) (dy E d Np K u).
Proof.
  intros k Hk. destruct (interp_exists u k Hk) as (p & Hp). exists p. split; [exact Hp|]. intros i Hi.
  destruct (SwSetupProofs.slopes_ok _ _ _ _ _ _ _ _ _ _ _ _ HB _ _ HA _ _ _ _ _ Hrun Hbc u k p Hk Hp i Hi) as (E1 & E2).
  change (dx E d Np K u) with (fst (SwSetupModel.bed_slopes E d Np K u)). change (dy E d Np K u) with (snd (SwSetupModel.bed_slopes E d Np K u)).
  rewrite E1, E2. split; [apply ddr_ok|apply dds_ok].
Qed.

Section Div.
Variables (q : field) (beyond : nat -> nat -> option (nat -> point -> cell -> cell)) (own other : nat -> cell).
Hypothesis Hown : forall n f k, (n <= N)%nat -> (f < 3)%nat -> (k < K)%nat -> own (fid n f k) = at_node q (fn f n) k.
Hypothesis Hother : forall n f k, (n <= N)%nat -> (f < 3)%nat -> (k < K)%nat -> other (fid n f k) =
  match beyond k f with Some B => B (fn f n) (nrm (fid n f k)) (own (fid n f k)) | None => cell_at Np q (vP d (fid n f k)) end.
Lemma divergence_ok k val phi z fx fy : (k < K)%nat ->
  (forall i, (i < Np)%nat -> ment z i k = ment (dx E d Np K fx) i k + ment (dy E d Np K fy) i k -
     sumn (3 * S N) (fun j => ment (e_Lift el) i j * (ment (e_Fscale el) j k * (ment (e_nx el) j k * ment fx (fn (j / S N) (j mod S N)) k + ment (e_ny el) j k * ment fy (fn (j / S N) (j mod S N)) k - phi j)))) ->
  (forall f j, (f < 3)%nat -> (j <= N)%nat -> phi (f * S N + j)%nat = val f (nrm (fid j f k)) (fn f j) (own (fid j f k)) (other (fid j f k))) ->
  divergence_on N Np K Vert EToV (e_x el) (e_y el) q beyond k z fx fy val.
Proof.
  intros Hk Hz Hphi.
  destruct (dg_element _ _ _ _ _ _ _ _ _ _ _ _ HB k Hk (HA k Hk) (fun i => ment fx i k) (fun i => ment fy i k) phi (fun i => - ment z i k)) as (Z & Fp & Gp & S0 & S1 & S2 & DZ & DF & DG & L0 & L1 & L2 & Hn & Hs & Hbal).
  { intros i Hi. rewrite Hz by exact Hi. rewrite dx_ok, dy_ok. cbn [tables_of d_rx d_sx d_ry d_sy d_Dr d_Ds]. ring. }
  exists (neg2 Z), Fp, Gp, S0, S1, S2.
  split. { split; [apply neg2_deg, DZ|]. intros i Hi. unfold at_point. rewrite neg2_eval. change (eval2 Z (fst (X i k)) (snd (X i k))) with (at_point Z (X i k)). unfold node_at. rewrite (proj1 (Hn i Hi)). ring. }
  split; [split; [exact DF|intros i Hi; apply (Hn i Hi)]|]. split; [split; [exact DG|intros i Hi; apply (Hn i Hi)]|].
  assert (HF : forall f cs, (f < 3)%nat -> nth f [S0; S1; S2] [] = cs -> (length cs <= S N)%nat -> side_values N Np K Vert EToV (e_x el) (e_y el) q beyond k f (val f) cs).
  { intros f cs Hf Ecs Lcs. split; [exact Lcs|].
    split; [apply (facing_list _ _ _ _ _ _ _ _ _ _ _ _ HB _ _ HM HA HS _ _ _ _ _ _ Hrun q beyond own other Hown Hother); assumption|].
    exists (nrm (fid 0 f k)). split; [apply (normal_fid _ _ _ _ _ _ _ _ _ _ _ _ HB HA); auto; lia|]. intros t i a b Hi Ei Hab.
    apply (facing_iff _ _ _ _ _ _ _ _ _ _ _ _ HB _ _ HM HA HS _ _ _ _ _ _ Hrun q beyond own other Hown Hother) in Hab as (j & Hj & Ej & -> & ->); [|assumption|assumption].
    assert (Eij : i = fn f j). { apply (node_inj _ _ _ _ _ _ _ _ _ _ _ _ HB HA i (fn f j) k); auto. { apply (fn_lt _ _ _ _ _ _ _ _ _ _ _ _ HB); assumption. } rewrite Ei, Ej. reflexivity. }
    rewrite <- Ecs, (Hs f j t Hf Hj Ej), Hphi, Eij by assumption.
    rewrite (normal_same _ _ _ _ _ _ _ _ _ _ _ _ HB HA m 0 j f k) by (assumption || lia). reflexivity. }
  split; [apply (HF 0%nat); auto; lia|]. split; [apply (HF 1%nat); auto; lia|]. split; [apply (HF 2%nat); auto; lia|]. apply balance_divergence, Hbal.
Qed.
End Div.

Variables (jk : nat -> nat -> R) (jv : nat -> R) (lowest : R).
Local Notation J := (g_J (e_metric el)).
Definition largest_area (a : R) : Prop := is_max (fun v => exists k, (k < K)%nat /\ v = area (P k 0) (P k 1) (P k 2)) a.
Lemma Np0 : (0 < Np)%nat.
Proof. eapply SwSchemeProofs.Np_pos; eassumption. Qed.
Lemma J_conf : conform J Np K = true.
Proof. destruct (PoissonProofs.J_shape _ _ _ _ _ _ _ _ _ _ _ _ HB) as (H1 & H2). unfold conform. rewrite H1, H2, !Nat.eqb_refl. reflexivity. Qed.
Lemma penalty_ok : (0 < K)%nat -> lowest <= 0 -> exists a, largest_area a /\ penalty E lowest Np J = INR Np * a / 4.
Proof.
  intros HK Hl. unfold penalty, max_abs. destruct (PoissonProofs.J_shape _ _ _ _ _ _ _ _ _ _ _ _ HB) as (H1 & H2). rewrite H1, H2.
  set (M := fold_left _ _ _). destruct (Line1DBurgersProofs.max_abs_ge G J (list_prod (seq 0 Np) (seq 0 K)) lowest M eq_refl) as (M1 & M2 & M3).
  pose proof Np0 as HN.
  assert (EJ : forall i k, (i < Np)%nat -> (k < K)%nat -> Rabs (ment J i k) = area (P k 0) (P k 1) (P k 2) / 2).
  { intros i k Hi Hk. rewrite (PoissonProofs.J_at _ _ _ _ _ _ _ _ _ _ _ _ HB) by assumption. pose proof (HA k Hk). apply Rabs_right. lra. }
  assert (HM2 : forall k, (k < K)%nat -> area (P k 0) (P k 1) (P k 2) / 2 <= M). { intros k Hk. rewrite <- (EJ 0%nat k HN Hk). apply M2. apply in_prod; apply in_seq; lia. }
  pose proof (HM2 0%nat HK) as Hp. pose proof (HA 0%nat HK) as Ha.
  exists (2 * M). split. { split.
    - destruct M3 as [M3 | (i & k & Hin & M3)]; [exfalso; lra|]. apply in_prod_iff in Hin. rewrite !in_seq in Hin. exists k. split; [lia|]. rewrite M3, EJ by lia. lra.
    - intros v (k & Hk & ->). pose proof (HM2 k Hk). lra. }
  cbn [exact fdiv]. rewrite fofn_INR. change (fofn E 2) with 2. field. lra.
Qed.

Hypothesis Hlone : forall k f, (k < K)%nat -> (f < 3)%nat -> tag_of bcType k f = 3%Z \/ tag_of bcType k f = 7%Z -> forall k2 f2, (f2 < 3)%nat -> ~ joined EToV k f k2 f2.
Lemma inb_In i l : inb i l = true <-> In i l.
Proof. unfold SwProofs.inb. rewrite existsb_exists. split; [intros (x & Hx & Ex); apply Nat.eqb_eq in Ex; subst; exact Hx|intro H; exists i; split; [exact H|apply Nat.eqb_refl]]. Qed.

Lemma sides_ok u W Nn :
  (forall n f k, (n <= N)%nat -> (f < 3)%nat -> (k < K)%nat -> In (fid n f k) W <-> tag_of bcType k f = 3%Z) ->
  (forall n f k, (n <= N)%nat -> (f < 3)%nat -> (k < K)%nat -> In (fid n f k) Nn <-> tag_of bcType k f = 7%Z) ->
  let q := (u, dx E d Np K u, dy E d Np K u) in
  forall n f k, (n <= N)%nat -> (f < 3)%nat -> (k < K)%nat ->
  cell_at Np q (vM d (fid n f k)) = at_node q (fn f n) k /\
  beyond_cell d (3 * S N) Np W Nn q (fid n f k) =
  match reflecting bcType k f with Some B => B (fn f n) (nrm (fid n f k)) (cell_at Np q (vM d (fid n f k))) | None => cell_at Np q (vP d (fid n f k)) end.
Proof.
  intros HW HN q n f k Hn Hf Hk. pose proof (fn_lt _ _ _ _ _ _ _ _ _ _ _ _ HB f n Hf Hn) as Hl.
  destruct (maps_at _ _ _ _ _ _ _ _ _ _ _ _ HB _ _ HM HA HS _ _ _ _ _ _ Hrun n f k Hn Hf Hk) as (EM & k2 & f2 & q2 & Hk2 & Hf2 & Hq2 & EP & EX & Hcase).
  assert (Eown : cell_at Np q (vM d (fid n f k)) = at_node q (fn f n) k) by (rewrite EM; eapply volume_cell; eassumption).
  split; [exact Eown|]. unfold beyond_cell, reflecting. specialize (HW n f k Hn Hf Hk). specialize (HN n f k Hn Hf Hk).
  assert (Hsame : tag_of bcType k f = 3%Z \/ tag_of bcType k f = 7%Z -> cell_at Np q (vP d (fid n f k)) = cell_at Np q (vM d (fid n f k))).
  { intro Ht. destruct Hcase as [(-> & -> & -> & _)|(HJ & _)]; [rewrite EP, EM; reflexivity|]. exfalso. exact (Hlone k f Hk Hf Ht k2 f2 Hf2 HJ). }
  destruct (Z.eqb_spec (tag_of bcType k f) 3) as [T3|T3].
  - rewrite (proj2 (inb_In _ W)) by (apply HW; exact T3). destruct (inb (fid n f k) Nn) eqn:EN. { apply inb_In, HN in EN. exfalso. congruence. }
    rewrite Hsame by (left; exact T3). reflexivity.
  - destruct (inb (fid n f k) W) eqn:EW. { apply inb_In, HW in EW. contradiction. }
    destruct (Z.eqb_spec (tag_of bcType k f) 7) as [T7|T7].
    + rewrite (proj2 (inb_In _ Nn)) by (apply HN; exact T7). rewrite Hsame by (right; exact T7). unfold mirror. destruct (cell_at Np q (vM d (fid n f k))) as [[a b] c]. reflexivity.
    + destruct (inb (fid n f k) Nn) eqn:EN. { apply inb_In, HN in EN. contradiction. } destruct (cell_at Np q (vP d (fid n f k))) as [[a b] c]. reflexivity.
Qed.

Definition tagged_lists (W Nn : list nat) : Prop :=
  (forall n f k, (n <= N)%nat -> (f < 3)%nat -> (k < K)%nat -> In (fid n f k) W <-> tag_of bcType k f = 3%Z) /\
  (forall n f k, (n <= N)%nat -> (f < 3)%nat -> (k < K)%nat -> In (fid n f k) Nn <-> tag_of bcType k f = 7%Z).
Lemma op_full inp out : lowest <= 0 -> length inp = (Np * K)%nat -> length out = (Np * K)%nat ->
  (exists k f, (k < K)%nat /\ (f < 3)%nat /\ tag_of bcType k f = 3%Z) ->
  exists v u z a qx qy W Nn, poisson2d_op E jk jv lowest d J 3 (S N) Np K inp out = Ok v /\ stacked Np K inp u /\ stacked Np K v z /\ largest_area a /\
    penalty E lowest Np J = INR Np * a / 4 /\ tagged_lists W Nn /\ op_eqs G lowest d J 3 (S N) Np K W Nn u qx qy z.
Proof.
  intros Hlow Li Lo Hex. assert (HK : (0 < K)%nat) by (destruct Hex as (k & _ & Hk & _); lia). assert (Z3 : 3%Z <> 0%Z) by discriminate. assert (Z7 : 7%Z <> 0%Z) by discriminate. destruct (hash_at _ _ _ _ _ _ _ _ _ _ _ _ HB _ _ HM _ _ _ _ _ Hrun Hbc 3%Z Z3) as (W & HW & BW & SW & _). specialize (SW Hex).
  destruct (hash_at _ _ _ _ _ _ _ _ _ _ _ _ HB _ _ HM _ _ _ _ _ Hrun Hbc 7%Z Z7) as (N7 & HN7 & BN7 & SN7 & NN7).
  set (Nn := match hfind (d_bc d) 7 with None => [] | Some l => l end).
  assert (HNn : forall n f k, (n <= N)%nat -> (f < 3)%nat -> (k < K)%nat -> In (fid n f k) Nn <-> tag_of bcType k f = 7%Z).
  { intros n f k Hn Hf Hk. unfold Nn. change (d_bc d) with (m_bc m). destruct (Z.eq_dec (tag_of bcType k f) 7) as [T|T].
    - rewrite SN7 by (exists k, f; auto). apply HN7; assumption.
    - split; [|intro; contradiction]. destruct (hfind (m_bc m) 7) as [l|] eqn:El; [|intros []]. intro Hin. exfalso.
      assert (Hsome : exists k f, (k < K)%nat /\ (f < 3)%nat /\ tag_of bcType k f = 7%Z).
      { destruct (Classical_Prop.classic (exists k f, (k < K)%nat /\ (f < 3)%nat /\ tag_of bcType k f = 7%Z)) as [Hy|Hy]; [exact Hy|]. exfalso. assert (E0 : Some l = None) by (apply NN7; intros k' f' Hk' Hf' Ht; apply Hy; exists k', f'; auto). discriminate E0. }
      injection (SN7 Hsome) as ->. apply T. apply HN7 in Hin; assumption. }
  assert (BNn : forall w, In w Nn -> (w < 3 * S N * K)%nat).
  { intros w. unfold Nn. change (d_bc d) with (m_bc m). destruct (hfind (m_bc m) 7) as [l|] eqn:El; [|intros []].
    assert (Hsome : exists k f, (k < K)%nat /\ (f < 3)%nat /\ tag_of bcType k f = 7%Z).
    { destruct (Classical_Prop.classic (exists k f, (k < K)%nat /\ (f < 3)%nat /\ tag_of bcType k f = 7%Z)) as [Hy|Hy]; [exact Hy|]. exfalso. assert (E0 : Some l = None) by (apply NN7; intros k' f' Hk' Hf' Ht; apply Hy; exists k', f'; auto). discriminate E0. }
    injection (SN7 Hsome) as ->. apply BN7. }
  destruct (penalty_ok HK Hlow) as (a & Ha & Ea).
  destruct (op_run G jk jv lowest d J 3 (S N) Np K inp out W (conform_d _ _ _ _ _ _ _ _ _ _ _ _ HB m) J_conf Np0 ltac:(lia) ltac:(lia) (maps_bounds _ _ _ _ _ _ _ _ _ _ _ _ HB _ _ HM HA HS _ _ _ _ _ _ Hrun) Li Lo SW BW BNn) as (u & qx & qy & z & v & Ev & Su & Sv & Heq).
  exists v, u, z, a, qx, qy, W, Nn. split; [exact Ev|]. split; [exact Su|]. split; [exact Sv|]. split; [exact Ha|]. split; [exact Ea|]. split; [split; assumption|exact Heq].
Qed.

Lemma form_at u z a qx qy W Nn : penalty E lowest Np J = INR Np * a / 4 -> tagged_lists W Nn -> op_eqs G lowest d J 3 (S N) Np K W Nn u qx qy z ->
  forall k, (k < K)%nat ->
  let on := divergence_on N Np K Vert EToV (e_x el) (e_y el) (u, dx E d Np K u, dy E d Np K u) (reflecting bcType) k in let zero := mkmat Np K (fun _ _ => 0) in
  on qx u zero (fun _ n _ own other => fst n * ((part 0 own + part 0 other) / 2)) /\
  on qy zero u (fun _ n _ own other => snd n * ((part 0 own + part 0 other) / 2)) /\
  on z qx qy (ldg_flux Vert EToV (INR Np * a / 4) qx qy k).
Proof.
  intros Ea (HW & HNn) Heq k Hk on zero. subst zero.
  cbv delta [op_eqs] in Heq; cbv beta in Heq. rewrite Ea in Heq. set (mm := (3 * S N)%nat) in *. set (q := (u, dx E d Np K u, dy E d Np K u)) in *.
  set (own := fun e => cell_at Np q (vM d e)) in *. set (other := beyond_cell d mm Np W Nn q) in *. cbv beta zeta in Heq.
  assert (Hown : forall n f k, (n <= N)%nat -> (f < 3)%nat -> (k < K)%nat -> own (fid n f k) = at_node q (fn f n) k) by (intros n f k' Hn Hf Hk'; apply (sides_ok u W Nn HW HNn n f k' Hn Hf Hk')).
  assert (Hother : forall n f k, (n <= N)%nat -> (f < 3)%nat -> (k < K)%nat -> other (fid n f k) = match reflecting bcType k f with Some B => B (fn f n) (nrm (fid n f k)) (own (fid n f k)) | None => cell_at Np q (vP d (fid n f k)) end) by (intros n f k' Hn Hf Hk'; apply (sides_ok u W Nn HW HNn n f k' Hn Hf Hk')).
  assert (Hj : forall j, (j < mm)%nat -> (j / S N < 3)%nat /\ (j mod S N <= N)%nat /\ (j + k * mm)%nat = fid (j mod S N) (j / S N) k /\ j = (j / S N * S N + j mod S N)%nat).
  { intros j Hj. assert (H1 : (j mod S N < S N)%nat) by (apply Nat.mod_upper_bound; lia). assert (H2 : (j / S N < 3)%nat) by (apply Nat.div_lt_upper_bound; unfold mm in Hj; lia).
    pose proof (Nat.div_mod j (S N) ltac:(lia)) as Hdm. split; [exact H2|]. split; [lia|]. split; [|lia]. destruct (fid_pos N (j mod S N) (j / S N) k ltac:(lia) H2) as (-> & _). fold mm. lia. }
  assert (Hn : forall j f, (j <= N)%nat -> (f < 3)%nat -> nrm (fid j f k) = (ment (e_nx el) (f * S N + j) k, ment (e_ny el) (f * S N + j) k)).
  { intros j f Hj' Hf. destruct (fid_pos N j f k Hj' Hf) as (_ & E2 & E3). unfold normal_at. fold mm in E2, E3 |- *. rewrite E2, E3. reflexivity. }
  assert (Hfid : forall j f, (j <= N)%nat -> (f < 3)%nat -> (f * S N + j + k * mm)%nat = fid j f k) by (intros j f Hj' Hf; destruct (fid_pos N j f k Hj' Hf) as (-> & _); reflexivity).
  assert (Hu0 : forall j, (j < mm)%nat -> ment u (fn (j / S N) (j mod S N)) k = part 0 (own (j + k * mm)%nat)).
  { intros j Hj'. destruct (Hj j Hj') as (H1 & H2 & H3 & _). rewrite H3, Hown by assumption. reflexivity. }
  assert (Hdz : forall c i, ment (dx E d Np K (mkmat Np K (fun _ _ => 0))) i c = 0 /\ ment (dy E d Np K (mkmat Np K (fun _ _ => 0))) i c = 0).
  { intros c i. rewrite dx_ok, dy_ok. cbn [ment]. assert (E0 : forall M i, sumn Np (fun j => ment M i j * 0) = 0) by (intros M' i'; apply sumn_zero; intros; ring). rewrite !E0. split; ring. }
  split; [|split].
  - apply (divergence_ok q (reflecting bcType) own other Hown Hother k _ (fun j => ment (e_nx el) j k * ((part 0 (own (j + k * mm)%nat) + part 0 (other (j + k * mm)%nat)) / 2))); [exact Hk| |].
    + intros i Hi. destruct (Heq i k Hi Hk) as (-> & _ & _). rewrite (proj2 (Hdz k i)). fold mm. cbn [tables_of d_Lift d_Fscale d_nx]. rewrite Rplus_0_r. f_equal. apply sumn_ext. intros j Hj'. rewrite Hu0 by exact Hj'. cbn [ment]. change (cell_at Np q (vM d (j + k * mm)%nat)) with (own (j + k * mm)%nat). change (beyond_cell d mm Np W Nn q (j + k * mm)%nat) with (other (j + k * mm)%nat). field.
    + intros f j Hf Hj'. rewrite Hn, Hfid by assumption. reflexivity.
  - apply (divergence_ok q (reflecting bcType) own other Hown Hother k _ (fun j => ment (e_ny el) j k * ((part 0 (own (j + k * mm)%nat) + part 0 (other (j + k * mm)%nat)) / 2))); [exact Hk| |].
    + intros i Hi. destruct (Heq i k Hi Hk) as (_ & -> & _). rewrite (proj1 (Hdz k i)). fold mm. cbn [tables_of d_Lift d_Fscale d_ny]. rewrite Rplus_0_l. f_equal. apply sumn_ext. intros j Hj'. rewrite Hu0 by exact Hj'. cbn [ment]. change (cell_at Np q (vM d (j + k * mm)%nat)) with (own (j + k * mm)%nat). change (beyond_cell d mm Np W Nn q (j + k * mm)%nat) with (other (j + k * mm)%nat). field.
    + intros f j Hf Hj'. rewrite Hn, Hfid by assumption. reflexivity.
  - set (fl := fun j => ment (e_nx el) j k * (volv Np qx (vM d (j + k * mm)%nat) - (part 1 (own (j + k * mm)%nat) + part 1 (other (j + k * mm)%nat)) / 2) + ment (e_ny el) j k * (volv Np qy (vM d (j + k * mm)%nat) - (part 2 (own (j + k * mm)%nat) + part 2 (other (j + k * mm)%nat)) / 2) + INR Np * a / 4 * (part 0 (own (j + k * mm)%nat) - part 0 (other (j + k * mm)%nat))).
    assert (Hq : forall (M : mat R) f j, (f < 3)%nat -> (j <= N)%nat -> volv Np M (vM d (fid j f k)) = ment M (fn f j) k).
    { intros M f j Hf Hj'. destruct (maps_at _ _ _ _ _ _ _ _ _ _ _ _ HB _ _ HM HA HS _ _ _ _ _ _ Hrun j f k Hj' Hf Hk) as (-> & _).
      pose proof (fn_lt _ _ _ _ _ _ _ _ _ _ _ _ HB f j Hf Hj') as Hl. unfold volv, volume_id. rewrite (Nat.mul_comm Np k), Nat.mod_add, Nat.div_add, Nat.mod_small, Nat.div_small by lia. reflexivity. }
    apply (divergence_ok q (reflecting bcType) own other Hown Hother k _ (fun j => ment (e_nx el) j k * ment qx (fn (j / S N) (j mod S N)) k + ment (e_ny el) j k * ment qy (fn (j / S N) (j mod S N)) k - weight Vert EToV k (j / S N) * fl j)); [exact Hk| |].
    + intros i Hi. destruct (Heq i k Hi Hk) as (_ & _ & ->). fold mm. cbn [tables_of d_Lift d_nx d_ny]. f_equal. apply sumn_ext. intros j Hj'. f_equal. change (cell_at Np q (vM d (j + k * mm)%nat)) with (own (j + k * mm)%nat). change (beyond_cell d mm Np W Nn q (j + k * mm)%nat) with (other (j + k * mm)%nat). fold (fl j). destruct (Hj j Hj') as (H1 & H2 & H3 & H4).
      destruct (SwDtProofs.fs_at _ _ _ _ _ _ _ _ _ _ _ _ HB HA (j mod S N) (j / S N) k H2 H1 Hk) as (F0 & F1).
      destruct (fid_pos N (j mod S N) (j / S N) k H2 H1) as (_ & E2 & E3). rewrite E2, E3, <- H4 in F0, F1. rewrite F1 in F0 |- *. unfold weight.
      pose proof (HA k Hk) as Ha0. set (len := side_length _ _) in *. assert (Hlen : len <> 0) by (intro Hz; rewrite Hz in F0; unfold Rdiv in F0; rewrite Rmult_0_l in F0; lra).
      field. split; [exact Hlen|lra].
    + intros f j Hf Hj'. rewrite Hn by assumption. assert (E1 : ((f * S N + j) / S N = f)%nat) by (symmetry; apply Nat.div_unique with j; lia). assert (E2 : ((f * S N + j) mod S N = j)%nat) by (symmetry; apply Nat.mod_unique with f; lia).
      rewrite E1, E2. unfold fl. rewrite Hfid by assumption. rewrite !Hq by assumption. unfold ldg_flux. cbn [fst snd]. reflexivity.
Qed.
Lemma form_ok inp out : lowest <= 0 -> length inp = (Np * K)%nat -> length out = (Np * K)%nat ->
  (exists k f, (k < K)%nat /\ (f < 3)%nat /\ tag_of bcType k f = 3%Z) ->
  exists v u z a, poisson2d_op E jk jv lowest d J 3 (S N) Np K inp out = Ok v /\ stacked Np K inp u /\ stacked Np K v z /\ largest_area a /\
    poisson2d_form N Np K Vert EToV (e_x el) (e_y el) (INR Np * a / 4) bcType u z.
Proof.
  intros Hlow Li Lo Hex. destruct (op_full inp out Hlow Li Lo Hex) as (v & u & z & a & qx & qy & W & Nn & Ev & Su & Sv & Ha & Ea & HT & Heq).
  exists v, u, z, a. split; [exact Ev|]. split; [exact Su|]. split; [exact Sv|]. split; [exact Ha|].
  exists (dx E d Np K u), (dy E d Np K u), qx, qy, (mkmat Np K (fun _ _ => 0)). split; [apply gradients_ok|]. split; [reflexivity|]. intros k Hk on.
  exact (form_at u z a qx qy W Nn Ea HT Heq k Hk).
Qed.

Lemma face_index k j : (j < 3 * S N)%nat -> exists n f, (n <= N)%nat /\ (f < 3)%nat /\ (j + k * (3 * S N))%nat = fid n f k /\ j = (f * S N + n)%nat.
Proof.
  intro Hj. exists (j mod S N)%nat, (j / S N)%nat. assert (H1 : (j mod S N < S N)%nat) by (apply Nat.mod_upper_bound; lia). assert (H2 : (j / S N < 3)%nat) by (apply Nat.div_lt_upper_bound; lia).
  pose proof (Nat.div_mod j (S N) ltac:(lia)) as Hdm. split; [lia|]. split; [exact H2|]. split; [|lia]. destruct (fid_pos N (j mod S N) (j / S N) k ltac:(lia) H2) as (-> & _). lia.
Qed.
Lemma no_jump u z qx qy W Nn : op_eqs G lowest d J 3 (S N) Np K W Nn u qx qy z -> let q := (u, dx E d Np K u, dy E d Np K u) in
  (forall n f k, (n <= N)%nat -> (f < 3)%nat -> (k < K)%nat -> part 0 (beyond_cell d (3 * S N) Np W Nn q (fid n f k)) = part 0 (cell_at Np q (vM d (fid n f k)))) ->
  forall i k, (i < Np)%nat -> (k < K)%nat -> ment qx i k = ment (dx E d Np K u) i k /\ ment qy i k = ment (dy E d Np K u) i k.
Proof.
  intros Heq q Hj i k Hi Hk. destruct (Heq i k Hi Hk) as (Hx & Hy & _). rewrite Hx, Hy. cbv zeta. fold q. split.
  - rewrite sumn_zero; [ring|]. intros j Hj'. destruct (face_index k j Hj') as (n & f & Hn & Hf & -> & _). rewrite Hj by assumption. field.
  - rewrite sumn_zero; [ring|]. intros j Hj'. destruct (face_index k j Hj') as (n & f & Hn & Hf & -> & _). rewrite Hj by assumption. field.
Qed.
Lemma slopes_at u k p : (k < K)%nat -> interpolant N Np (e_x el) (e_y el) u k p -> forall i, (i < Np)%nat ->
  ment (dx E d Np K u) i k = at_point (ddr p) (X i k) /\ ment (dy E d Np K u) i k = at_point (dds p) (X i k).
Proof.
  intros Hk Hp i Hi. exact (SwSetupProofs.slopes_ok _ _ _ _ _ _ _ _ _ _ _ _ HB _ _ HA _ _ _ _ _ Hrun Hbc u k p Hk Hp i Hi).
Qed.

Lemma exact_ok p inp out : lowest <= 0 -> length inp = (Np * K)%nat -> length out = (Np * K)%nat ->
  (exists k f, (k < K)%nat /\ (f < 3)%nat /\ tag_of bcType k f = 3%Z) -> degree2 N p ->
  (forall i k, (i < Np)%nat -> (k < K)%nat -> nth (i + k * Np) inp 0 = at_point p (X i k)) ->
  (forall k f t, (k < K)%nat -> (f < 3)%nat -> tag_of bcType k f = 3%Z -> at_point p (side_point (from_ Vert EToV k f) (to_ Vert EToV k f) t) = 0) ->
  (forall k f t n, (k < K)%nat -> (f < 3)%nat -> tag_of bcType k f = 7%Z -> normal_of Vert EToV k f n -> let s := side_point (from_ Vert EToV k f) (to_ Vert EToV k f) t in
     fst n * at_point (ddr p) s + snd n * at_point (dds p) s = 0) ->
  exists v, poisson2d_op E jk jv lowest d J 3 (S N) Np K inp out = Ok v /\ length v = (Np * K)%nat /\
  forall i k, (i < Np)%nat -> (k < K)%nat -> nth (i + k * Np) v 0 = at_point (ddr (ddr p)) (X i k) + at_point (dds (dds p)) (X i k).
Proof.
  intros Hlow Li Lo Hex Dp Hp HD HNeu. destruct (op_full inp out Hlow Li Lo Hex) as (v & u & z & a & qx & qy & W & Nn & Ev & Su & Sv & Ha & Ea & (HW & HNn) & Heq).
  exists v. split; [exact Ev|]. split; [apply Sv|]. destruct Su as (_ & _ & _ & Hu). destruct Sv as (_ & _ & _ & Hv).
  set (q := (u, dx E d Np K u, dy E d Np K u)).
  assert (Iu : forall k, (k < K)%nat -> interpolant N Np (e_x el) (e_y el) u k p) by (intros k Hk; split; [exact Dp|]; intros i Hi; rewrite <- Hu, Hp by assumption; reflexivity).
  assert (Hcell : forall i k, (i < Np)%nat -> (k < K)%nat -> at_node q i k = (at_point p (X i k), at_point (ddr p) (X i k), at_point (dds p) (X i k))).
  { intros i k Hi Hk. destruct (slopes_at u k p Hk (Iu k Hk) i Hi) as (Ex & Ey). unfold at_node, q. cbn [fieldc fst snd]. rewrite Ex, Ey, <- Hu, Hp by assumption. reflexivity. }
  assert (Hface : forall n f k, (n <= N)%nat -> (f < 3)%nat -> (k < K)%nat -> beyond_cell d (3 * S N) Np W Nn q (fid n f k) = at_node q (fn f n) k /\ cell_at Np q (vM d (fid n f k)) = at_node q (fn f n) k).
  { intros n f k Hn Hf Hk. pose proof (fn_lt _ _ _ _ _ _ _ _ _ _ _ _ HB f n Hf Hn) as Hl.
    destruct (maps_at _ _ _ _ _ _ _ _ _ _ _ _ HB _ _ HM HA HS _ _ _ _ _ _ Hrun n f k Hn Hf Hk) as (EM & k2 & f2 & q2 & Hk2 & Hf2 & Hq2 & EP & EX & _).
    assert (Eown : cell_at Np q (vM d (fid n f k)) = at_node q (fn f n) k) by (rewrite EM; eapply volume_cell; eassumption).
    assert (Eoth : cell_at Np q (vP d (fid n f k)) = at_node q (fn f n) k).
    { rewrite EP. pose proof (fn_lt _ _ _ _ _ _ _ _ _ _ _ _ HB f2 q2 Hf2 Hq2) as Hl2. transitivity (at_node q (fn f2 q2) k2); [eapply volume_cell; eassumption|]. rewrite !Hcell, EX by assumption. reflexivity. }
    split; [|exact Eown]. unfold beyond_cell. rewrite Eown, Eoth, Hcell by assumption. cbn [part fst snd].
    destruct (side_pt _ _ _ _ _ _ _ _ _ _ _ _ HB f n Hf Hn) as (t & Ht). specialize (Ht k Hk).
    assert (E0 : (if inb (fid n f k) W then - at_point p (X (fn f n) k) else at_point p (X (fn f n) k)) = at_point p (X (fn f n) k)).
    { destruct (inb (fid n f k) W) eqn:EW; [|reflexivity]. apply inb_In, HW in EW; try assumption. rewrite Ht. unfold from_, to_ in HD. rewrite (HD k f t Hk Hf EW). ring. }
    destruct (inb (fid n f k) Nn) eqn:EN; [|rewrite E0; reflexivity]. apply inb_In, HNn in EN; try assumption.
    pose proof (HNeu k f t _ Hk Hf EN (normal_fid _ _ _ _ _ _ _ _ _ _ _ _ HB HA m n f k Hn Hf Hk)) as HN0. cbv zeta in HN0. unfold from_, to_ in HN0. rewrite <- Ht in HN0. set (nn := nrm (fid n f k)) in *.
    unfold mirror. cbn [part fst snd]. rewrite E0. assert (Ed : at_point (ddr p) (X (fn f n) k) * fst nn + at_point (dds p) (X (fn f n) k) * snd nn = 0) by lra. rewrite Ed. f_equal; [f_equal|]; ring. }
  assert (HQ : forall i k, (i < Np)%nat -> (k < K)%nat -> ment qx i k = at_point (ddr p) (X i k) /\ ment qy i k = at_point (dds p) (X i k)).
  { intros i k Hi Hk. destruct (no_jump u z qx qy W Nn Heq) with (i := i) (k := k) as (-> & ->); try assumption; [|apply slopes_at; auto].
    intros n f k' Hn Hf Hk'. fold q. destruct (Hface n f k' Hn Hf Hk') as (-> & ->). reflexivity. }
  intros i k Hi Hk. rewrite Hv by assumption. destruct (Heq i k Hi Hk) as (_ & _ & ->). cbv zeta. fold q.
  assert (Iqx : interpolant N Np (e_x el) (e_y el) qx k (ddr p)) by (split; [apply ddr_deg, Dp|intros i' Hi'; symmetry; apply HQ; assumption]).
  assert (Iqy : interpolant N Np (e_x el) (e_y el) qy k (dds p)) by (split; [apply dds_deg, Dp|intros i' Hi'; symmetry; apply HQ; assumption]).
  destruct (slopes_at qx k _ Hk Iqx i Hi) as (-> & _). destruct (slopes_at qy k _ Hk Iqy i Hi) as (_ & ->).
  rewrite sumn_zero; [ring|]. intros j Hj. destruct (face_index k j Hj) as (n & f & Hn & Hf & -> & Ej). destruct (Hface n f k Hn Hf Hk) as (-> & ->).
  pose proof (fn_lt _ _ _ _ _ _ _ _ _ _ _ _ HB f n Hf Hn) as Hl.
  assert (Hq : forall M : mat R, volv Np M (vM d (fid n f k)) = ment M (fn f n) k).
  { intros M. destruct (maps_at _ _ _ _ _ _ _ _ _ _ _ _ HB _ _ HM HA HS _ _ _ _ _ _ Hrun n f k Hn Hf Hk) as (-> & _).
    unfold volv, volume_id. rewrite (Nat.mul_comm Np k), Nat.mod_add, Nat.div_add, Nat.mod_small, Nat.div_small by lia. reflexivity. }
  rewrite !Hq. destruct (HQ (fn f n) k Hl Hk) as (-> & ->). rewrite Hcell by assumption. cbn [part fst snd]. field.
Qed.

Lemma no_wall inp out : length inp = (Np * K)%nat -> (forall k f, (k < K)%nat -> (f < 3)%nat -> tag_of bcType k f <> 3%Z) -> poisson2d_op E jk jv lowest d J 3 (S N) Np K inp out = Throw.
Proof.
  intros Li Hno. assert (Z3 : 3%Z <> 0%Z) by discriminate. destruct (hash_at _ _ _ _ _ _ _ _ _ _ _ _ HB _ _ HM _ _ _ _ _ Hrun Hbc 3%Z Z3) as (W & _ & _ & _ & Hnone). specialize (Hnone Hno).
  pose proof (conform_d _ _ _ _ _ _ _ _ _ _ _ _ HB m) as HC. pose proof Np0 as HNp. unfold poisson2d_op. rewrite HC, J_conf. cbn [require andb].
  destruct (maps_bounds _ _ _ _ _ _ _ _ _ _ _ _ HB _ _ HM HA HS _ _ _ _ _ _ Hrun) as (LM & LP & BM & BP).
  pose proof HC as HC'. unfold dg_conform in HC'. rewrite !andb_true_iff in HC'. destruct HC' as (((((((((_ & _) & _) & _) & Cx) & Cy) & _) & _) & _) & _).
  assert (C0 : forall a, conform a (3 * S N) K = true -> fullToVector a (vfresh jv (3 * S N * K)) false = Ok (tab (3 * S N * K) (fun i => ment a (i mod (3 * S N)) (i / (3 * S N))))).
  { intros a Ha. apply conform_ok in Ha as (M1 & M2). apply full_tab; auto; [lia|apply vfresh_len]. }
  assert (Ein : inp = tab (Np * K) (fun i => nth i inp 0)). { apply tab_eq; [exact Li|]. intros i Hi. apply nth_error_nth'. lia. }
  destruct (unfull_tab (fun i => nth i inp 0) (mkmat Np K jk) Np K eq_refl eq_refl) as (u & Eu & U1 & U2 & Hu). rewrite <- Ein in Eu. rewrite Eu. cbn [bind].
  rewrite (C0 _ Cx), (C0 _ Cy). cbn [bind].
  assert (Cu : conform u Np K = true) by (unfold conform; rewrite U1, U2, !Nat.eqb_refl; reflexivity).
  rewrite (traces_ok jv d Np K (3 * S N * K) u) by (assumption || lia). cbn [bind]. change (d_bc d) with (m_bc m). rewrite Hnone. reflexivity.
Qed.

Lemma const_side q beyond k f val cs c : side_values N Np K Vert EToV (e_x el) (e_y el) q beyond k f val cs ->
  (forall n i own other t, normal_of Vert EToV k f n -> (i < Np)%nat -> X i k = side_point (from_ Vert EToV k f) (to_ Vert EToV k f) t -> facing Np K Vert EToV (e_x el) (e_y el) q beyond k f t own other -> val n i own other = c) ->
  forall t, peval cs t = c.
Proof.
  intros (L1 & (l & Nl & Ll & Hl) & n & Hn & H) Hc t. transitivity (peval [c] t); [|cbn; ring].
  apply (poly_agree (S N) cs [c] l); auto; [cbn [length]; lia|]. intros s Hs. destruct (Hl s Hs) as (a & b & F). destruct F as (i & Hi & Ei & Fr).
  rewrite (H s i a b Hi Ei) by (exists i; auto). rewrite (Hc n i a b s Hn Hi Ei) by (exists i; auto). cbn. ring.
Qed.
Lemma side_const p q' c cs v : (forall t, peval cs t = c) -> side_integral p q' (fun t => peval cs t * at_point [(0%nat, 0%nat, 1)] (side_point p q' t)) v -> v = side_length p q' * c.
Proof.
  intros Hc (i & Hi & ->). assert (E : i = 2 * c).
  { eapply integral_unique; [exact Hi|]. apply (integral_ext (fun _ => c)). { intro t. rewrite Hc. cbn. ring. }
    exists (fun t => c * t). split; [|ring]. intro t. pose proof (derivable_pt_lim_scal id c t 1 (derivable_pt_lim_id t)) as Hd. rewrite Rmult_1_r in Hd. exact Hd. }
  rewrite E. field.
Qed.
Lemma divergence_const q beyond k z fx fy val c0 c1 c2 Zp : (k < K)%nat -> divergence_on N Np K Vert EToV (e_x el) (e_y el) q beyond k z fx fy val ->
  (forall f n i own other t, (f < 3)%nat -> normal_of Vert EToV k f n -> (i < Np)%nat -> X i k = side_point (from_ Vert EToV k f) (to_ Vert EToV k f) t -> facing Np K Vert EToV (e_x el) (e_y el) q beyond k f t own other -> val f n i own other = nth f [c0; c1; c2] 0) ->
  interpolant N Np (e_x el) (e_y el) z k Zp ->
  element_integral (P k 0) (P k 1) (P k 2) (eval2 Zp) (side_length (P k 0) (P k 1) * c0 + side_length (P k 1) (P k 2) * c1 + side_length (P k 2) (P k 0) * c2).
Proof.
  intros Hk (Z & F & G' & S0 & S1 & S2 & IZ & IF & IG & V0 & V1 & V2 & HD) Hc IZp.
  destruct (HD [(0%nat, 0%nat, 1)] (fun _ _ => 0) (fun _ _ => 0)) as (vz & vf & v0 & v1 & v2 & (iz & Iz & Ez) & (if_ & If & Ef) & I0 & I1 & I2 & E).
  { repeat constructor. cbn. lia. } { intros x y. unfold dr_is. eapply dpl_ext; [|apply (derivable_pt_lim_const 1)]. intro t. unfold fct_cte. cbn. ring. } { intros x y. unfold ds_is. eapply dpl_ext; [|apply (derivable_pt_lim_const 1)]. intro t. unfold fct_cte. cbn. ring. }
  exists iz. split. { eapply tint_ext; [|exact Iz]. intros r s. unfold pulled at 1. cbn [eval2 fst snd pow].
    rewrite <- (SwRunProofs.interpolant_unique _ _ _ _ _ _ _ _ _ _ _ _ HB z k Z Zp Hk IZ IZp r s). unfold pulled. cbn. ring. }
  assert (if_ = 0). { eapply tint_unique; [exact If|]. eapply tint_ext; [|apply tint_zero]. intros r s. unfold pulled. ring. }
  subst if_. pose proof (side_const _ _ c0 S0 v0 (const_side _ _ k 0 _ S0 c0 V0 (fun n i own other t => Hc 0%nat n i own other t ltac:(lia))) I0) as E0.
  pose proof (side_const _ _ c1 S1 v1 (const_side _ _ k 1 _ S1 c1 V1 (fun n i own other t => Hc 1%nat n i own other t ltac:(lia))) I1) as E1.
  pose proof (side_const _ _ c2 S2 v2 (const_side _ _ k 2 _ S2 c2 V2 (fun n i own other t => Hc 2%nat n i own other t ltac:(lia))) I2) as E2.
  rewrite <- E0, <- E1, <- E2. rewrite <- Ez. lra.
Qed.
Lemma neumann_flux q qx qy tau k f cs : (k < K)%nat -> (f < 3)%nat -> tag_of bcType k f = 7%Z ->
  side_values N Np K Vert EToV (e_x el) (e_y el) q (reflecting bcType) k f (ldg_flux Vert EToV tau qx qy k f) cs ->
  forall t i own other n, (i < Np)%nat -> X i k = side_point (from_ Vert EToV k f) (to_ Vert EToV k f) t -> facing Np K Vert EToV (e_x el) (e_y el) q (reflecting bcType) k f t own other -> normal_of Vert EToV k f n ->
  peval cs t = (1 - weight Vert EToV k f) * (fst n * ment qx i k + snd n * ment qy i k).
Proof.
  intros Hk Hf Ht (_ & _ & n' & Hn' & H) t i own other n Hi Ei F Hn. rewrite (H t i own other Hi Ei F). rewrite (normal_unique _ _ _ _ _ (side_ne K Vert EToV HA f k Hf Hk) Hn' Hn).
  destruct F as (i2 & _ & _ & _ & Hb). unfold reflecting in Hb. rewrite Ht in Hb. cbn [Z.eqb Pos.eqb] in Hb. destruct Hb as (n2 & Hn2 & ->). rewrite (normal_unique _ _ _ _ _ (side_ne K Vert EToV HA f k Hf Hk) Hn2 Hn).
  destruct own as [[u gx] gy]. unfold ldg_flux, mirror. cbn [part fst snd]. assert (Hu : fst n * fst n + snd n * snd n = 1) by apply Hn.
  set (w := weight Vert EToV k f). set (n1 := fst n) in *. set (n2' := snd n) in *. set (A := ment qx i k). set (B := ment qy i k).
  set (D := gx * n1 + gy * n2').
  replace (n1 * (A - (gx + (gx - 2 * D * n1)) / 2) + n2' * (B - (gy + (gy - 2 * D * n2')) / 2) + tau * (u - u)) with (n1 * A + n2' * B - D + D * (n1 * n1 + n2' * n2')) by (unfold D; field).
  rewrite Hu. ring.
Qed.
End Form.
