(* SwScriptProofs.v - lemmas for SwScriptProps.v. *)
From Coq Require Import FunctionalExtensionality ZArith List Lia Bool Arith.
From Verif Require Import Base Loops Num JacobiSpec JacobiQuadProofs JacobiExactProofs Nodes1DModel Nodes1DExactProofs Maps2DModel TriMapsProofs DenseSpec RKModel Line1DModel Line1DProofs SwModel SwSpec SwProofs SwStepSpec
  CurvedSwModel CurvedSwSpec CurvedSwProofs PySwModel PySwSpec PySwProofs AdvecRunModel SwScriptModel SwScriptSpec.
From Coq Require Import Reals Lra.
Import ListNotations.
Local Open Scope R_scope.

Section Rates.
Variables (G : R -> R) (d : dg2d (T := R)) (NF Nfp Np K : nat).
Local Notation E := (exact G).
Local Notation nf := (NF * Nfp * K)%nat.

(* what the two right-hand sides have in common *)
Definition core (mapW : list nat) (g : R) (q : four (mat R)) (qM qP : four (list R)) : outcome (four (mat R)) :=
  let nx := flattenF (d_nx d) in let ny := flattenF (d_ny d) in
  bind (reflect E mapW nx ny qM qP) (fun qP =>
  let spd := zipw (fmax E) (speeds_of E g qM) (speeds_of E g qP) in
  bind (side_max E Nfp spd) (fun lam =>
  let component c :=
    bind (reshapeF E (Nfp * NF) K (strong_jumps E g c nx ny lam qM qP)) (fun dF =>
    Ok (strong_form E d Np (NF * Nfp) K (fluxes_mat (flux_F E g c) q) (fluxes_mat (flux_G E g c) q) dF)) in
  bind (component 0%nat) (fun R0 => bind (component 1%nat) (fun R1 => bind (component 2%nat) (fun R2 => bind (component 3%nat) (fun R3 => Ok (Four R0 R1 R2 R3))))))).
Lemma F_same g c : script_F E g c = flux_F E g c.
Proof. apply functional_extensionality. intros [h hu hv hN]. destruct c as [|[|[|]]]; unfold script_F, flux_F; cbn [q_h q_hu q_hv q_hN exact fmul fdiv fadd]; try reflexivity. unfold Rdiv. ring. Qed.
Lemma G_same g c : script_G E g c = flux_G E g c.
Proof. apply functional_extensionality. intros [h hu hv hN]. destruct c as [|[|[|]]]; unfold script_G, flux_G; cbn [q_h q_hu q_hv q_hN exact fmul fdiv fadd]; reflexivity. Qed.
Lemma jumps_same g c nx ny lam qM qP : script_jumps E g c nx ny lam qM qP = strong_jumps E g c nx ny lam qM qP.
Proof. unfold script_jumps, strong_jumps. rewrite F_same, G_same. reflexivity. Qed.

Lemma py_core vmapM vmapP g CD f zx zy q mapW : dg_conform d NF Nfp Np K = true -> four_conform q Np K = true -> conform zx Np K = true -> conform zy Np K = true ->
  length vmapM = nf -> length vmapP = nf -> hfind (d_bc d) 3 = Some mapW ->
  py_rhs E rhypot d NF Nfp Np K vmapM vmapP g CD f zx zy q =
  bind (bind4 (fun v => take E v vmapM) (fmap4 flattenF q)) (fun qM => bind (bind4 (fun v => take E v vmapP) (fmap4 flattenF q)) (fun qP =>
  bind (core mapW g q (transport E qM) (transport E qP)) (fun Z => Ok (add_sources E rhypot g CD f q zx zy Z)))).
Proof.
  intros H1 H2 H3 H4 H5 H6 H7. unfold py_rhs. rewrite H1, H2, H3, H4, H5, H6, Nat.eqb_refl, H7. cbn [require andb]. unfold core. cbv zeta.
  destruct (bind4 _ (fmap4 flattenF q)) as [qM| |]; cbn [bind]; try reflexivity. destruct (bind4 _ (fmap4 flattenF q)) as [qP| |]; cbn [bind]; try reflexivity.
  destruct (reflect _ _ _ _ _ _) as [qP'| |]; cbn [bind]; try reflexivity. destruct (side_max _ _ _) as [lam| |]; cbn [bind]; try reflexivity.
  repeat (destruct (reshapeF _ _ _ _); cbn [bind]; try reflexivity).
Qed.
Lemma script_core g f q mapW : dg_conform d NF Nfp Np K = true -> four_conform q Np K = true ->
  length (d_vmapM d) = nf -> length (d_vmapP d) = nf -> hfind (d_bc d) 3 = Some mapW ->
  script_rhs E d NF Nfp Np K g f q =
  bind (bind4 (fun v => take E v (d_vmapM d)) (fmap4 flattenF q)) (fun qM => bind (bind4 (fun v => take E v (d_vmapP d)) (fmap4 flattenF q)) (fun qP =>
  bind (core mapW g q qM qP) (fun Z => Ok (coriolis E f q Z)))).
Proof.
  intros H1 H2 H3 H4 H5. unfold script_rhs. rewrite H1, H2, H3, H4, Nat.eqb_refl, H5. cbn [require andb]. unfold core. cbv zeta.
  destruct (bind4 _ (fmap4 flattenF q)) as [qM| |]; cbn [bind]; try reflexivity. destruct (bind4 _ (fmap4 flattenF q)) as [qP| |]; cbn [bind]; try reflexivity.
  destruct (reflect _ _ _ _ _ _) as [qP'| |]; cbn [bind]; try reflexivity. destruct (side_max _ _ _) as [lam| |]; cbn [bind]; try reflexivity.
  rewrite !jumps_same, !F_same, !G_same.
  repeat (destruct (reshapeF _ _ _ _); cbn [bind]; try reflexivity).
Qed.

(* the discharges formed again from the velocities are the discharges, where there is water *)
Lemma transport_id q l : has_water Np K q -> (0 < Np)%nat -> length l = nf -> (forall v, In v l -> (v < Np * K)%nat) ->
  exists qM, bind4 (fun v => take E v l) (fmap4 flattenF q) = Ok qM /\ transport E qM = qM.
Proof.
  intros (HQ & Hw) HN L B. unfold four_conform in HQ. rewrite !andb_true_iff in HQ. destruct HQ as (((Q1 & Q2) & Q3) & Q4). apply conform_ok in Q1 as (A1 & A2), Q2 as (B1 & B2), Q3 as (C1 & C2), Q4 as (D1 & D2).
  unfold fmap4, bind4. cbn [q_h q_hu q_hv q_hN]. rewrite (flat_tab _ _ _ A1 A2), (flat_tab _ _ _ B1 B2), (flat_tab _ _ _ C1 C2), (flat_tab _ _ _ D1 D2).
  rewrite !(take_tab G _ _ l nf L B). cbn [bind]. eexists. split; [reflexivity|]. unfold transport. cbn [q_h q_hu q_hv q_hN]. rewrite !tab_zipw. cbn [exact fmul fdiv].
  assert (W : forall (X : mat R) i, (i < nf)%nat -> let v := nth i l 0%nat in ment (q_h q) (v mod Np) (v / Np) * (ment X (v mod Np) (v / Np) / ment (q_h q) (v mod Np) (v / Np)) = ment X (v mod Np) (v / Np)).
  { intros X i Hi v. assert (Hv : (v < Np * K)%nat) by (apply B, nth_In; lia). field. apply Hw; [apply Nat.mod_upper_bound; lia|apply Nat.div_lt_upper_bound; lia]. }
  f_equal; apply map_ext_in; intros i Hi; apply in_seq in Hi; apply (W _ i); lia.
Qed.

(* with no drag and a level bottom the helper's rates are the script's *)
Definition level : mat R := mkmat Np K (fun _ _ => 0).
Lemma script_same g f q mapW : py_ready d NF Nfp Np K (d_vmapM d) (d_vmapP d) mapW level level q ->
  exists z z', script_rhs E d NF Nfp Np K g f q = Ok z /\ py_rhs E rhypot d NF Nfp Np K (d_vmapM d) (d_vmapP d) g 0 f level level q = Ok z' /\
  four_conform z Np K = true /\ four_conform z' Np K = true /\ forall c i k, (c < 4)%nat -> (i < Np)%nat -> (k < K)%nat -> ment (pick c z) i k = ment (pick c z') i k.
Proof.
  intro HR. destruct (py_ok G d NF Nfp Np K _ _ mapW g 0 f level level q HR) as (z' & Ez' & Cz' & _).
  destruct HR as [(HNp & HNF & HNfp) HC (HQ & Hzx & Hzy) (LM & BM) (LP & BP) (HW & BW) Hwet].
  rewrite (py_core _ _ _ _ _ _ _ _ mapW) in Ez' by auto. rewrite (script_core _ _ _ mapW) by auto. rewrite (py_core _ _ _ _ _ _ _ _ mapW) by auto.
  destruct (transport_id q (d_vmapM d) (conj HQ Hwet) HNp LM BM) as (qM & EM & TM). destruct (transport_id q (d_vmapP d) (conj HQ Hwet) HNp LP BP) as (qP & EP & TP).
  rewrite EM, EP in *. cbn [bind] in *. rewrite TM, TP in *. destruct (core mapW g q qM qP) as [Z| |]; cbn [bind] in *; try discriminate Ez'. injection Ez' as <-.
  do 2 eexists. split; [reflexivity|]. split; [reflexivity|]. split; [exact Cz'|]. split; [exact Cz'|].
  intros c i k Hc Hi Hk. unfold coriolis, add_sources, with_source, py_source_x, py_source_y, level. destruct c as [|[|[|[|]]]]; try lia; cbn [pick q_h q_hu q_hv q_hN Line1DModel.mzip ment exact fadd fsub fmul fdiv]; try reflexivity; ring.
Qed.
End Rates.

(* --- the step --- *)
Section Step.
Variables (G : R -> R) (Np K : nat).
Local Notation E := (exact G).
Lemma conform4 (q : four (mat R)) : four_conform q Np K = true <-> forall c, (c < 4)%nat -> mrows (pick c q) = Np /\ mcols (pick c q) = K.
Proof.
  unfold four_conform. rewrite !andb_true_iff, !conform_ok. split.
  - intros (((A & B) & C) & D) [|[|[|[|]]]] H; cbn [pick]; try lia; assumption.
  - intro H. pose proof (H 0%nat ltac:(lia)). pose proof (H 1%nat ltac:(lia)). pose proof (H 2%nat ltac:(lia)). pose proof (H 3%nat ltac:(lia)). cbn [pick] in *. tauto.
Qed.
Lemma filter4_ok F z : shape F Np Np -> four_conform z Np K = true ->
  exists y, filter4 E F z = Ok y /\ four_conform y Np K = true /\ forall c, (c < 4)%nat -> filtered Np K F (pick c z) (pick c y).
Proof.
  intros (F1 & F2) Cz. rewrite conform4 in Cz. destruct z as [a b c e]. pose proof (Cz 0%nat ltac:(lia)) as (A1 & A2). pose proof (Cz 1%nat ltac:(lia)) as (B1 & B2). pose proof (Cz 2%nat ltac:(lia)) as (C1 & C2). pose proof (Cz 3%nat ltac:(lia)) as (D1 & D2). cbn [pick q_h q_hu q_hv q_hN] in *.
  unfold filter4, bind4. cbn [q_h q_hu q_hv q_hN]. unfold np_dot. rewrite F2, A1, B1, C1, D1, Nat.eqb_refl. cbn [bind]. eexists. split; [reflexivity|]. split.
  - rewrite conform4. intros [|[|[|[|]]]] H; cbn [pick q_h q_hu q_hv q_hN mrows mcols]; try lia; split; congruence.
  - intros [|[|[|[|]]]] H; cbn [pick q_h q_hu q_hv q_hN]; try lia; intros i j Hi Hj; cbn [ment]; rewrite fsum_exact; cbn [exact fmul]; rewrite ?F2; reflexivity.
Qed.
Lemma add4_ok c q z : four_conform q Np K = true -> four_conform z Np K = true ->
  exists y, add4 E c q z = Ok y /\ four_conform y Np K = true /\ forall m i k, (m < 4)%nat -> ment (pick m y) i k = ment (pick m q) i k + c * ment (pick m z) i k.
Proof.
  intros Cq Cz. rewrite conform4 in Cq, Cz. destruct q as [a b c' e], z as [a' b' c'' e'].
  pose proof (Cz 0%nat ltac:(lia)) as (A1 & A2). pose proof (Cz 1%nat ltac:(lia)) as (B1 & B2). pose proof (Cz 2%nat ltac:(lia)) as (C1 & C2). pose proof (Cz 3%nat ltac:(lia)) as (D1 & D2).
  pose proof (Cq 0%nat ltac:(lia)) as (A3 & A4). pose proof (Cq 1%nat ltac:(lia)) as (B3 & B4). pose proof (Cq 2%nat ltac:(lia)) as (C3 & C4). pose proof (Cq 3%nat ltac:(lia)) as (D3 & D4). cbn [pick q_h q_hu q_hv q_hN] in *.
  unfold add4. cbv zeta. cbn [q_h q_hu q_hv q_hN]. unfold np_zip. rewrite A1, A2, A3, A4, B1, B2, B3, B4, C1, C2, C3, C4, D1, D2, D3, D4, !Nat.eqb_refl. cbn [andb require bind].
  eexists. split; [reflexivity|]. split.
  - rewrite conform4. intros [|[|[|[|]]]] H; cbn [pick q_h q_hu q_hv q_hN Line1DModel.mzip mrows mcols]; try lia; split; congruence.
  - intros [|[|[|[|]]]] i k H; cbn [pick q_h q_hu q_hv q_hN Line1DModel.mzip ment]; try lia; reflexivity.
Qed.
(* one half of a step: q plus c times the filtered rates at p *)
Lemma stage_ok F (rhs : four (mat R) -> outcome (four (mat R))) c q p z : shape F Np Np -> four_conform q Np K = true -> rhs p = Ok z -> four_conform z Np K = true ->
  exists q', bind (rhs p) (fun z => bind (filter4 E F z) (add4 E c q)) = Ok q' /\ four_conform q' Np K = true /\
  exists y, (forall m, (m < 4)%nat -> filtered Np K F (pick m z) (pick m y)) /\ forall m i k, (m < 4)%nat -> ment (pick m q') i k = ment (pick m q) i k + c * ment (pick m y) i k.
Proof.
  intros HF Cq Ez Cz. rewrite Ez. cbn [bind]. destruct (filter4_ok F z HF Cz) as (y & Ey & Cy & Hy). rewrite Ey. cbn [bind]. destruct (add4_ok c q y Cq Cy) as (q' & E' & C' & H'). exists q'. split; [exact E'|]. split; [exact C'|]. exists y. split; [exact Hy|exact H'].
Qed.
Lemma loop_S {T} (A : arith T) fuel F H rhs huge dt ft ns iv s : script_loop A (S fuel) F H rhs huge dt ft ns iv s =
  if flt A (k_t s) ft then bind (script_turn A F H rhs huge dt ns iv s) (script_loop A fuel F H rhs huge dt ft ns iv) else Ok s.
Proof. reflexivity. Qed.
(* what a loop that returns has done: n steps, each of them let through *)
Lemma turn_inv F H rhs huge dt ns iv s s1 : script_turn E F H rhs huge dt ns iv s = Ok s1 ->
  script_step E F rhs dt (k_q s) = Ok (k_q s1) /\ script_unstable E huge (q_h (k_q s1)) = Ok false /\ (iv <> 0)%Z /\ k_t s1 = k_t s + dt /\ k_step s1 = (k_step s + 1)%Z /\
  k_out s1 = if (k_step s1 mod iv =? 0)%Z || (k_step s1 =? ns)%Z then (k_step s1, shown E H (k_q s1)) :: k_out s else k_out s.
Proof.
  unfold script_turn. intro Et. destruct (script_step E F rhs dt (k_q s)) as [q'| |] eqn:Es; cbn [bind] in Et; try discriminate Et. destruct (script_unstable E huge (q_h q')) as [[|]| |] eqn:Eu; cbn [bind] in Et; try discriminate Et.
  destruct (Z.eqb_spec iv 0) as [|Hiv]; [discriminate Et|]. injection Et as <-. cbn [k_q k_t k_step k_out]. repeat split; auto.
Qed.
Lemma loop_history F H rhs huge dt ft ns iv : forall fuel s s', script_loop E fuel F H rhs huge dt ft ns iv s = Ok s' ->
  exists n h, history Ok (script_turn E F H rhs huge dt ns iv) n h /\ h 0%nat = s /\ h n = s' /\ (forall i, (i < n)%nat -> k_t (h i) < ft) /\ ft <= k_t s'.
Proof.
  induction fuel as [|fuel IH]; intros s s' Hl; cbn [script_loop] in Hl; [discriminate Hl|]. cbn [exact flt] in Hl. unfold Rltb in Hl. destruct (Rlt_dec (k_t s) ft) as [L|L].
  2:{ injection Hl as <-. exists 0%nat, (fun _ => s). split; [intros i Hi; lia|]. split; [reflexivity|]. split; [reflexivity|]. split; [intros i Hi; lia|lra]. }
  destruct (script_turn _ _ _ _ _ _ _ _ s) as [s1| |] eqn:Et; cbn [bind] in Hl; try discriminate Hl. apply IH in Hl as (n & h & Hh & H0 & Hn & Hlt & Hge).
  exists (S n), (fun i => match i with O => s | S i => h i end). split; [|split; [reflexivity|split; [exact Hn|split; [|exact Hge]]]].
  - intros [|i] Hi; [rewrite H0; exact Et|apply Hh; lia].
  - intros [|i] Hi; [exact L|apply Hlt; lia].
Qed.
Lemma history_clock F H rhs huge dt ns iv n h : history Ok (script_turn E F H rhs huge dt ns iv) n h ->
  k_t (h n) = k_t (h 0%nat) + INR n * dt /\ k_step (h n) = (k_step (h 0%nat) + Z.of_nat n)%Z.
Proof.
  induction n as [|n IH]; intro Hh; [cbn [INR]; split; [ring|lia]|]. destruct IH as (I1 & I2); [intros i Hi; apply Hh; lia|].
  destruct (turn_inv _ _ _ _ _ _ _ _ _ (Hh n ltac:(lia))) as (_ & _ & _ & T & K1 & _). rewrite T, K1, I1, I2, S_INR. split; [ring|lia].
Qed.
End Step.

(* --- NaN --- *)
Section Nan.
Context {T : Type} (A : arith T).
Lemma nan_kept l m : np_isnan A m = true -> fold_left (np_max2 A) l m = m.
Proof. revert m. induction l as [|a l IH]; intros m Hm; [reflexivity|]. cbn [fold_left]. unfold np_max2 at 2. rewrite Hm. apply IH, Hm. Qed.
Lemma nan_found l v m : In v l -> np_isnan A v = true -> np_isnan A (fold_left (np_max2 A) l m) = true.
Proof.
  revert m. induction l as [|a l IH]; intros m Hl Hv; [destruct Hl|]. cbn [fold_left]. destruct Hl as [-> |Hin].
  - unfold np_max2 at 2. destruct (np_isnan A m) eqn:Em; [rewrite nan_kept by exact Em; exact Em|]. rewrite Hv, nan_kept by exact Hv. exact Hv.
  - apply IH; assumption.
Qed.
Lemma nan_max l v : In v l -> np_isnan A v = true -> exists m, np_max A l = Ok m /\ np_isnan A m = true.
Proof.
  destruct l as [|a l]; [intros []|]. intros [-> |Hin] Hv; eexists; (split; [reflexivity|]); [rewrite nan_kept; exact Hv|eapply nan_found; eassumption].
Qed.
End Nan.
Lemma np_max_exact G a l : exists m, np_max (exact G) (a :: l) = Ok m /\ In m (a :: l) /\ forall v, In v (a :: l) -> v <= m.
Proof.
  assert (Hn : forall x, np_isnan (exact G) x = false). { intro x. unfold np_isnan. cbn [exact fle]. unfold Rleb. destruct (Rle_dec x x); [reflexivity|lra]. }
  cbn [np_max]. revert a. induction l as [|b l IH]; intro a; [exists a; split; [reflexivity|]; split; [left; reflexivity|intros v [-> |[]]; lra]|].
  cbn [fold_left]. destruct (IH (np_max2 (exact G) a b)) as (m & Em & Hin & Hge). exists m. split; [exact Em|].
  assert (E2 : np_max2 (exact G) a b = Rmax a b) by (unfold np_max2; rewrite !Hn; apply fmax_exact). rewrite E2 in *. split.
  - destruct Hin as [<- |Hin]; [|right; right; exact Hin]. unfold Rmax. destruct (Rle_dec a b); [right; left|left]; reflexivity.
  - pose proof (Hge _ (or_introl eq_refl)) as Hm. pose proof (Rmax_l a b). pose proof (Rmax_r a b). intros v [<- |[<- |Hv]]; [lra|lra|apply Hge; right; exact Hv].
Qed.
Lemma in_flat {T} (X : mat T) i k : (i < mrows X)%nat -> (k < mcols X)%nat -> In (ment X i k) (flattenF X).
Proof.
  intros Hi Hk. unfold flattenF. apply in_flat_map. exists k. split; [apply in_seq; lia|]. unfold mcol. apply in_map_iff. exists i. split; [reflexivity|apply in_seq; lia].
Qed.
