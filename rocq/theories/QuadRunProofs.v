(* QuadRunProofs.v - the rates, the step and the loop of sw2dquads.py. *)
From Coq Require Import ZArith List Lia Bool Arith FunctionalExtensionality.
From Verif Require Import Base Loops Num BlitzModel JacobiModel JacobiSpec JacobiProofs JacobiQuadProofs JacobiExactProofs Nodes1DModel Nodes1DSpec Nodes1DExactProofs DenseSpec DenseModel
  MeshSpec MeshGeoProofs TriModel TriSpec TriGeoSpec TriOpProofs TriProofs QuadModel QuadSpec QuadSetup QuadProps Maps2DModel Maps2DSpec Maps2DProofs Maps2DProps TriMapsProofs TriMapsProps QuadMapsProofs QuadMapsProps
  RKModel RKProofs Line1DModel Line1DProofs SwModel SwSpec SwProofs SwSchemeProofs SwRunProofs SwStepModel SwStepSpec CurvedSwModel CurvedSwSpec CurvedSwProofs PySwModel PySwSpec PySwProofs AdvecRunModel
  SwScriptModel SwScriptProofs QuadGradProofs InsModel InsSpec InsProofs InsGridProofs QuadRunModel QuadRunSpec.
From Coq Require Import Reals Lra.
Import ListNotations.
Local Open Scope R_scope.

Section Rates.
Variables (G : R -> R) (d : dg2d (T := R)) (NF Nfp Np K : nat).
Local Notation E := (exact G).
Local Notation nf := (NF * Nfp * K)%nat.
Local Notation level := (level Np K).
Lemma qF_same g c : (c < 3)%nat -> quads_F E g c = script_F E g c.
Proof. intro Hc. apply functional_extensionality. intros [h hu hv hN]. destruct c as [|[|[|]]]; try lia; unfold script_F, quads_F; cbn [q_h q_hu q_hv q_hN exact fmul fdiv fadd]; try reflexivity; unfold Rdiv; ring. Qed.
Lemma qG_same g c : (c < 3)%nat -> quads_G E g c = script_G E g c.
Proof. intro Hc. apply functional_extensionality. intros [h hu hv hN]. destruct c as [|[|[|]]]; try lia; unfold script_G, quads_G; cbn [q_h q_hu q_hv q_hN exact fmul fdiv fadd]; try reflexivity; unfold Rdiv; ring. Qed.
Lemma qjumps_same g c nx ny lam qM qP : (c < 3)%nat -> quads_jumps E g c nx ny lam qM qP = script_jumps E g c nx ny lam qM qP.
Proof. intro Hc. unfold script_jumps, quads_jumps. rewrite (qF_same g c Hc), (qG_same g c Hc). reflexivity. Qed.
Lemma quads_script g q z : script_rhs E d NF Nfp Np K g 0 (padded q) = Ok z ->
  exists y, quads_rhs E d NF Nfp Np K g q = Ok y /\ (mrows (fieldc 1 y) = mrows (q_hu z) /\ mrows (fieldc 2 y) = mrows (q_hv z) /\ mcols (fieldc 1 y) = mcols (q_hu z) /\ mcols (fieldc 2 y) = mcols (q_hv z)) /\ fieldc 0 y = q_h z /\
  forall c i k, (c < 3)%nat -> ment (fieldc c y) i k = ment (pick c z) i k.
Proof.
  unfold script_rhs, quads_rhs. cbv zeta. destruct (dg_conform d NF Nfp Np K && four_conform (padded q) Np K && (length (d_vmapM d) =? nf)%nat && (length (d_vmapP d) =? nf)%nat); cbn [require]; [|discriminate].
  destruct (hfind (d_bc d) 3) as [mapW|]; [|discriminate].
  destruct (bind4 _ (fmap4 flattenF (padded q))) as [qM| |]; cbn [bind]; try discriminate. destruct (bind4 _ (fmap4 flattenF (padded q))) as [qP| |]; cbn [bind]; try discriminate.
  destruct (reflect _ _ _ _ _ _) as [qP'| |]; cbn [bind]; try discriminate. destruct (side_max _ _ _) as [lam| |]; cbn [bind]; try discriminate.
  rewrite !qjumps_same, !qF_same, !qG_same by lia.
  do 4 (destruct (reshapeF E _ _ _); cbn [bind]; try discriminate). intro H. injection H as <-. eexists. split; [reflexivity|].
  unfold fieldc, coriolis. cbn [fst snd q_h q_hu q_hv pick Line1DModel.mzip mrows mcols]. split; [repeat split; reflexivity|]. split; [reflexivity|].
  intros c i k Hc. destruct c as [|[|[|]]]; try lia; cbn [fst snd pick Line1DModel.mzip ment q_h q_hu q_hv q_hN exact fadd fsub fmul]; ring.
Qed.
Lemma quads_ok g q mapW : py_ready d NF Nfp Np K (d_vmapM d) (d_vmapP d) mapW level level (padded q) ->
  exists z, quads_rhs E d NF Nfp Np K g q = Ok z /\ state_conform z Np K = true /\
  forall c i k, (c < 3)%nat -> (i < Np)%nat -> (k < K)%nat -> ment (fieldc c z) i k =
    rate d NF Nfp Np g q (fun t => fst (near Np (d_vmapM d) (padded q) t)) (fun t => fst (opposite d NF Nfp Np (d_vmapM d) (d_vmapP d) mapW (padded q) t))
      (face_speed G d NF Nfp Np (d_vmapM d) (d_vmapP d) mapW g (padded q)) c i k.
Proof.
  intro HR. destruct (script_same G d NF Nfp Np K g 0 (padded q) mapW HR) as (z & z' & Ez & Ez' & Cz & _ & Hz).
  destruct (py_ok G d NF Nfp Np K _ _ mapW g 0 0 level level (padded q) HR) as (z2 & E2 & _ & H2). assert (z2 = z') by congruence. subst z2.
  destruct (quads_script g q z Ez) as (y & Ey & (R1 & R2 & R3 & R4) & H0 & Hy). exists y. split; [exact Ey|]. rewrite conform4 in Cz. split.
  - destruct y as [[y0 y1] y2]. unfold fieldc in *. cbn [fst snd] in *. pose proof (Cz 0%nat ltac:(lia)) as X0. pose proof (Cz 1%nat ltac:(lia)) as X1. pose proof (Cz 2%nat ltac:(lia)) as X2. cbn [pick] in *.
    unfold state_conform. rewrite !andb_true_iff, !conform_ok. subst y0. rewrite R1, R2, R3, R4. tauto.
  - intros c i k Hc Hi Hk. rewrite (Hy c i k Hc), Hz, H2 by (assumption || lia).
    assert (S0 : source4 g 0 0 (ment level i k) (ment level i k) c (node_state (padded q) i k) = 0).
    { unfold source4, level, node_state. cbn [fst ment]. destruct q as [[h hu] hv]. cbn [padded q_h q_hu q_hv]. destruct c as [|[|[|]]]; try lia; unfold Rdiv; try ring. }
    rewrite S0, Rplus_0_r. unfold rate4, rate.
    assert (NS : forall j, fst (node_state (padded q) j k) = at_node q j k) by (intro j; destruct q as [[h hu] hv]; reflexivity).
    unfold strong_entry. f_equal; [f_equal; f_equal; f_equal; f_equal; apply sumn_ext; intros j Hj; f_equal; unfold through4; rewrite (proj2 (Nat.ltb_lt c 3) Hc), NS; unfold through; cbn [fst snd]; ring|].
    apply sumn_ext. intros j Hj. f_equal. f_equal. unfold jump_entry, through4, rusanov4, rusanov, through4, part4. rewrite (proj2 (Nat.ltb_lt c 3) Hc). reflexivity.
Qed.
End Rates.

Section Grid.
Context (G : R -> R) (solve : mat R -> mat R -> mat R -> outcome (mat R)) (inverse : mat R -> mat R -> outcome (mat R))
  (junk : nat -> nat -> R) (eps : R) (eig : nat -> (nat -> nat -> R) -> list R * (nat -> nat -> R)) (tol : R)
  (N K : nat) (Vert : list R) (EToV : list nat) (el : element (T := R)).
Hypothesis HB : qbuilt G solve inverse junk eps eig tol N K Vert EToV el.
Variables E2E E2F : list nat.
Hypothesis HM : quad_mesh K Vert EToV E2E E2F.
Hypothesis HX : forall k, (k < K)%nat -> convex_ccw (fun c => qcorner Vert EToV k c).
Local Notation Fm := (qmask_table N (e_masks el)).
Local Notation Np := ((N + 1) * (N + 1))%nat.
Hypothesis HS : forall n n', (n <= N)%nat -> (n' <= N)%nat -> n <> n' -> 2 * tol <= Rabs (nth (ment Fm n 0) (e_r el) 0 - nth (ment Fm n' 0) (e_r el) 0).
Variables (sort : (nat -> nat -> bool) -> list nat -> list nat) (junk1 : nat -> R) (junkn : nat -> nat) (bcType : list Z) (m : maps).
Hypothesis Hrun : buildMaps (exact G) rhypot sort junk1 junkn tol 4 (S N) Np K Fm (e_x el) (e_y el) E2E E2F EToV Vert bcType [] = Ok m.
Hypothesis Hbc : (4 * K <= length bcType)%nat.
Local Notation d := (tables_of el m).
Local Notation fid := (face_id 4 (S N)).
Local Notation fn f n := (ment Fm n f).
Local Notation nf := (4 * S N * K)%nat.
Local Notation E := (exact G).
Local Notation tagged := (exists k f, (k < K)%nat /\ (f < 4)%nat /\ qtag_of bcType k f = 3%Z).
Local Notation qnormal := (normal_at d (4 * S N)).

Lemma side_tag_at n f k : (n <= N)%nat -> side_tag N bcType (fid n f k) = qtag_of bcType k f.
Proof. intro Hn. unfold side_tag, qtag_of, face_id. f_equal. symmetry. apply Nat.div_unique with n; lia. Qed.
Lemma qwalls : tagged -> exists l, hfind (m_bc m) 3 = Some l /\ (forall w, In w l -> (w < nf)%nat) /\ forall t, (t < nf)%nat -> inb t l = Z.eqb (side_tag N bcType t) 3.
Proof.
  intros (k0 & f0 & Hk0 & Hf0 & Ht0).
  destruct (parts _ _ _ _ _ _ _ _ _ _ _ _ _ _ _ _ _ _ _ _ (qtables _ _ _ _ _ _ _ _ _ _ _ _ HB _ _ HM) Hrun) as (_ & _ & Eh & _).
  destruct (C39_one_call junkn 4 (S N) K bcType [] Hbc) as (m' & Eh' & Hl & _). rewrite Eh in Eh'. injection Eh' as <-.
  destruct (Hl 3%Z ltac:(discriminate)) as (l & _ & Hin & Hf). cbn [hfind] in Hf.
  assert (Hin' : forall t, (t < nf)%nat -> In t l <-> side_tag N bcType t = 3%Z).
  { intros t Ht. rewrite Hin. assert (t / S N < 4 * K)%nat by (apply Nat.div_lt_upper_bound; lia). unfold entry, side_tag. split.
    - intros (_ & He). apply nth_error_nth with (d := 0%Z) in He. exact He.
    - intros <-. split; [lia|]. apply nth_error_nth'. lia. }
  exists l. split; [|split].
  - assert (Hi : In (fid 0 f0 k0) l) by (apply Hin'; [unfold face_id; nia|rewrite side_tag_at by lia; exact Ht0]). rewrite Hf. destruct l; [destruct Hi|reflexivity].
  - intros w Hw. apply Hin in Hw as (Hw & _). lia.
  - intros t Ht. unfold inb. destruct (Z.eqb_spec (side_tag N bcType t) 3) as [Et|Et].
    + apply existsb_exists. exists t. split; [apply Hin'; assumption|apply Nat.eqb_refl].
    + destruct (existsb (Nat.eqb t) l) eqn:Ex; [|reflexivity]. apply existsb_exists in Ex as (w & Hw & Ew). apply Nat.eqb_eq in Ew. subst w. apply Hin' in Hw; [contradiction|exact Ht].
Qed.

Lemma qready q : tagged -> state_conform q Np K = true -> wet Np K q -> exists mapW, py_ready d 4 (S N) Np K (m_vmapM m) (m_vmapP m) mapW (level Np K) (level Np K) (padded q) /\
  forall t, (t < nf)%nat -> inb t mapW = Z.eqb (side_tag N bcType t) 3.
Proof.
  intros Ht Cq Hw. destruct (qwalls Ht) as (l & El & Hb & Hin). exists l. split; [|exact Hin].
  destruct (qmaps_bounds _ _ _ _ _ _ _ _ _ _ _ _ HB _ _ HM HS _ _ _ _ _ Hrun Hbc) as (B1 & B2 & B3 & B4).
  destruct q as [[h hu] hv]. unfold state_conform in Cq. rewrite !andb_true_iff, !conform_ok in Cq. destruct Cq as ((C1 & C2) & C3).
  constructor; cbn [tables_of d_bc].
  - repeat split; try lia; nia.
  - exact (qconform _ _ _ _ _ _ _ _ _ _ _ _ HB bcType m Hbc).
  - split; [|split; apply conform_ok; split; reflexivity]. apply conform4. intros [|[|[|[|]]]] Hc; cbn [padded pick q_h q_hu q_hv q_hN]; try lia; assumption.
  - cbn [tables_of d_vmapM d_vmapP] in *. split; assumption.
  - cbn [tables_of d_vmapM d_vmapP] in *. split; assumption.
  - split; assumption.
  - intros i k Hi Hk. exact (Hw i k Hi Hk).
Qed.

Local Notation rhs g q := (quads_rhs E d 4 (S N) Np K g q).
Local Notation own q := (state_at Np q (m_vmapM m)).
Local Notation other q := (beyond_wall N Np bcType (m_vmapM m) (m_vmapP m) q qnormal).
Definition qspeed g (q : field) : nat -> R := face_max G 0 (S N) (fun t => Rmax (wave_speed g (own q t)) (wave_speed g (other q t))).
Lemma near_state q t : fst (near Np (m_vmapM m) (padded q) t) = own q t.
Proof. destruct q as [[h hu] hv]. reflexivity. Qed.
Lemma far_state_eq q mapW t : inb t mapW = Z.eqb (side_tag N bcType t) 3 -> fst (opposite d 4 (S N) Np (m_vmapM m) (m_vmapP m) mapW (padded q) t) = other q t.
Proof.
  intro Hin. unfold opposite, beyond_wall. cbv zeta. rewrite <- Hin. destruct (inb t mapW); [|destruct q as [[h hu] hv]; reflexivity].
  cbn [fst]. rewrite near_state. destruct q as [[h hu] hv]. reflexivity.
Qed.
Lemma rate_ext c i k g q o o' p p' l l' : (k < K)%nat -> (forall t, (t < nf)%nat -> o t = o' t /\ p t = p' t /\ l t = l' t) ->
  rate d 4 (S N) Np g q o p l c i k = rate d 4 (S N) Np g q o' p' l' c i k.
Proof.
  intros Hk H. unfold rate, strong_entry. f_equal. apply sumn_ext. intros j Hj. f_equal. f_equal. unfold jump_entry. destruct (H (j + k * (4 * S N))%nat ltac:(nia)) as (-> & -> & ->). reflexivity.
Qed.
Lemma qface_lt t j : (t < nf)%nat -> (j < S N)%nat -> (j + t / S N * S N < nf)%nat.
Proof. intros Ht Hj. assert (t / S N < 4 * K)%nat by (apply Nat.div_lt_upper_bound; lia). nia. Qed.
Lemma qrates_ok g q : tagged -> state_conform q Np K = true -> wet Np K q ->
  exists z, rhs g q = Ok z /\ state_conform z Np K = true /\
  forall c i k, (c < 3)%nat -> (i < Np)%nat -> (k < K)%nat -> ment (fieldc c z) i k = rate d 4 (S N) Np g q (own q) (other q) (qspeed g q) c i k.
Proof.
  intros Ht Cq Hw. destruct (qready q Ht Cq Hw) as (mapW & HR & Hin).
  destruct (quads_ok G d 4 (S N) Np K g q mapW HR) as (z & Ez & Cz & Hz). exists z. split; [exact Ez|]. split; [exact Cz|]. intros c i k Hc Hi Hk. rewrite (Hz c i k Hc Hi Hk).
  apply rate_ext; [exact Hk|]. intros t Htn. split; [apply near_state|]. split; [apply far_state_eq, Hin, Htn|].
  unfold face_speed, qspeed, face_max. apply maxto_ext. intros j Hj. pose proof (qface_lt t j Htn Hj). cbn [tables_of d_vmapM d_vmapP]. rewrite near_state, (far_state_eq q mapW) by (apply Hin; assumption). reflexivity.
Qed.
Lemma quntagged g q : (forall k f, (k < K)%nat -> (f < 4)%nat -> qtag_of bcType k f <> 3%Z) -> state_conform q Np K = true -> rhs g q = Throw.
Proof.
  intros Hno Cq. destruct (qhash _ _ _ _ _ _ _ _ _ _ _ _ HB _ _ HM _ _ _ _ _ Hrun Hbc 3 ltac:(discriminate)) as (_ & Hn). specialize (Hn Hno).
  destruct (qmaps_bounds _ _ _ _ _ _ _ _ _ _ _ _ HB _ _ HM HS _ _ _ _ _ Hrun Hbc) as (B1 & B2 & _).
  assert (C4 : four_conform (padded q) Np K = true).
  { destruct q as [[h hu] hv]. unfold state_conform in Cq. rewrite !andb_true_iff, !conform_ok in Cq. destruct Cq as ((C1 & C2) & C3). apply conform4. intros [|[|[|[|]]]] Hc; cbn [padded pick q_h q_hu q_hv q_hN]; try lia; assumption. }
  unfold quads_rhs. cbv zeta. rewrite (qconform _ _ _ _ _ _ _ _ _ _ _ _ HB bcType m Hbc), C4, B1, B2, Nat.eqb_refl. cbn [require andb tables_of d_bc]. rewrite Hn. reflexivity.
Qed.

Lemma own_at q n f k : (n <= N)%nat -> (f < 4)%nat -> (k < K)%nat -> own q (fid n f k) = at_node q (fn f n) k.
Proof.
  intros Hn Hf Hk. destruct (qmaps_at _ _ _ _ _ _ _ _ _ _ _ _ HB _ _ HM HS _ _ _ _ _ Hrun Hbc n f k Hn Hf Hk) as (E1 & _).
  rewrite <- (qvolume_cell N K bcType Hbc q (fn f n) k) by (eapply qfn_lt; eassumption). unfold vM in E1. cbn [tables_of d_vmapM] in E1. rewrite <- E1. reflexivity.
Qed.
Lemma far_at q n f k : (n <= N)%nat -> (f < 4)%nat -> (k < K)%nat ->
  exists k2 f2 p, (k2 < K)%nat /\ (f2 < 4)%nat /\ (p <= N)%nat /\ state_at Np q (m_vmapP m) (fid n f k) = at_node q (fn f2 p) k2 /\
    (ment (e_x el) (fn f2 p) k2, ment (e_y el) (fn f2 p) k2) = (ment (e_x el) (fn f n) k, ment (e_y el) (fn f n) k).
Proof.
  intros Hn Hf Hk. destruct (qmaps_at _ _ _ _ _ _ _ _ _ _ _ _ HB _ _ HM HS _ _ _ _ _ Hrun Hbc n f k Hn Hf Hk) as (_ & k2 & f2 & p & Hk2 & Hf2 & Hp & E2 & Ep).
  exists k2, f2, p. split; [exact Hk2|]. split; [exact Hf2|]. split; [exact Hp|]. split; [|exact Ep].
  rewrite <- (qvolume_cell N K bcType Hbc q (fn f2 p) k2) by (eapply qfn_lt; eassumption). unfold vP in E2. cbn [tables_of d_vmapP] in E2. rewrite <- E2. reflexivity.
Qed.
Lemma jump_same g q (lam : nat -> R) c t : own q t = other q t -> jump_entry d (4 * S N) g (own q) (other q) lam c t = 0.
Proof. intro H. unfold jump_entry, rusanov. rewrite <- H. field. Qed.
(* the volume part alone, when the jumps vanish on the element *)
Lemma rate_volume g q lam c i k : (k < K)%nat -> (forall n f, (n <= N)%nat -> (f < 4)%nat -> own q (fid n f k) = other q (fid n f k)) ->
  rate d 4 (S N) Np g q (own q) (other q) lam c i k =
  - deriv_entry d Np (d_rx d) (d_sx d) (fun j => part c (flux_x g (at_node q j k))) i k - deriv_entry d Np (d_ry d) (d_sy d) (fun j => part c (flux_y g (at_node q j k))) i k.
Proof.
  intros Hk H. unfold rate, strong_entry, deriv_entry. match goal with |- _ + sumn ?n ?f = _ => assert (Z0 : sumn n f = 0); [apply sumn_zero|rewrite Z0; ring] end. intros j Hj.
  replace (j + k * (4 * S N))%nat with (fid (j mod S N) (j / S N) k).
  2:{ pose proof (Nat.div_mod j (S N) ltac:(lia)). unfold face_id. lia. }
  pose proof (Nat.mod_upper_bound j (S N) ltac:(lia)). assert (j / S N < 4)%nat by (apply Nat.div_lt_upper_bound; lia).
  rewrite jump_same by (apply H; lia). ring.
Qed.
Lemma rest_rates g q c0 z : tagged -> state_conform q Np K = true -> c0 <> 0 -> at_rest Np K c0 q -> rhs g q = Ok z ->
  forall c i k, (c < 3)%nat -> (i < Np)%nat -> (k < K)%nat -> ment (fieldc c z) i k = 0.
Proof.
  intros Ht Cq H0 Hr Ez c i k Hc Hi Hk.
  assert (Hw : wet Np K q). { intros a b Ha Hb. specialize (Hr a b Ha Hb). unfold at_node in Hr. congruence. }
  destruct (qrates_ok g q Ht Cq Hw) as (z' & Ez' & _ & Hz). assert (z' = z) by congruence. subst z'. rewrite (Hz c i k Hc Hi Hk).
  rewrite rate_volume; [|exact Hk|].
  - destruct (deriv_const _ _ _ _ _ _ _ _ _ _ _ _ HB HX bcType m Hbc k (fun j => part c (flux_x g (at_node q j k))) (part c (flux_x g (c0, 0, 0))) i Hk Hi) as (-> & _); [intros j Hj; rewrite Hr by assumption; reflexivity|].
    destruct (deriv_const _ _ _ _ _ _ _ _ _ _ _ _ HB HX bcType m Hbc k (fun j => part c (flux_y g (at_node q j k))) (part c (flux_y g (c0, 0, 0))) i Hk Hi) as (_ & ->); [intros j Hj; rewrite Hr by assumption; reflexivity|]. ring.
  - intros n f Hn Hf. unfold beyond_wall. cbv zeta. rewrite (own_at q n f k Hn Hf Hk). destruct (far_at q n f k Hn Hf Hk) as (k2 & f2 & p & Hk2 & Hf2 & Hp & -> & _).
    rewrite !Hr by (auto; eapply qfn_lt; eassumption). destruct (Z.eqb _ 3); [|reflexivity]. unfold mirror, part. cbn [fst snd]. f_equal; [f_equal|]; ring.
Qed.
End Grid.

(* --- the step and the loop --- *)
Section Step.
Variables (G : R -> R) (Np K : nat).
Local Notation E := (exact G).
Lemma conform3 (q : field) : state_conform q Np K = true <-> forall c, (c < 3)%nat -> mrows (fieldc c q) = Np /\ mcols (fieldc c q) = K.
Proof.
  destruct q as [[a b] e]. unfold state_conform. rewrite !andb_true_iff, !conform_ok. unfold fieldc. split.
  - intros ((A & B) & C) [|[|[|]]] H; cbn [fst snd]; try lia; assumption.
  - intro H. pose proof (H 0%nat ltac:(lia)). pose proof (H 1%nat ltac:(lia)). pose proof (H 2%nat ltac:(lia)). cbn [fst snd] in *. tauto.
Qed.
Lemma filter3_ok F (z : field) : shape F Np Np -> state_conform z Np K = true ->
  exists y, filter3 E F z = Ok y /\ state_conform y Np K = true /\ forall c, (c < 3)%nat -> filtered Np K F (fieldc c z) (fieldc c y).
Proof.
  intros (F1 & F2) Cz. rewrite conform3 in Cz. destruct z as [[a b] c]. pose proof (Cz 0%nat ltac:(lia)) as (A1 & A2). pose proof (Cz 1%nat ltac:(lia)) as (B1 & B2). pose proof (Cz 2%nat ltac:(lia)) as (C1 & C2). unfold fieldc in *. cbn [fst snd] in *.
  unfold filter3, bind3, np_dot. rewrite F2, A1, B1, C1, Nat.eqb_refl. cbn [bind]. eexists. split; [reflexivity|]. split.
  - rewrite conform3. unfold fieldc. intros [|[|[|]]] H; cbn [fst snd mrows mcols]; try lia; split; congruence.
  - intros [|[|[|]]] H; cbn [fst snd]; try lia; intros i j Hi Hj; cbn [ment]; rewrite fsum_exact; cbn [exact fmul]; rewrite ?F2; reflexivity.
Qed.
Lemma add3_ok c (q z : field) : state_conform q Np K = true -> state_conform z Np K = true ->
  exists y, add3 E c q z = Ok y /\ state_conform y Np K = true /\ forall m i k, (m < 3)%nat -> ment (fieldc m y) i k = ment (fieldc m q) i k + c * ment (fieldc m z) i k.
Proof.
  intros Cq Cz. rewrite conform3 in Cq, Cz. destruct q as [[a b] c'], z as [[a' b'] c''].
  pose proof (Cz 0%nat ltac:(lia)) as (A1 & A2). pose proof (Cz 1%nat ltac:(lia)) as (B1 & B2). pose proof (Cz 2%nat ltac:(lia)) as (C1 & C2).
  pose proof (Cq 0%nat ltac:(lia)) as (A3 & A4). pose proof (Cq 1%nat ltac:(lia)) as (B3 & B4). pose proof (Cq 2%nat ltac:(lia)) as (C3 & C4). unfold fieldc in *. cbn [fst snd] in *.
  unfold add3. cbv zeta. unfold np_zip. rewrite A1, A2, A3, A4, B1, B2, B3, B4, C1, C2, C3, C4, !Nat.eqb_refl. cbn [andb require bind].
  eexists. split; [reflexivity|]. split.
  - rewrite conform3. unfold fieldc. intros [|[|[|]]] H; cbn [fst snd Line1DModel.mzip mrows mcols]; try lia; split; congruence.
  - intros [|[|[|]]] i k H; cbn [fst snd Line1DModel.mzip ment]; try lia; reflexivity.
Qed.
Lemma stage3_ok F (rhs : field -> outcome field) c q p z : shape F Np Np -> state_conform q Np K = true -> rhs p = Ok z -> state_conform z Np K = true ->
  exists q', bind (rhs p) (fun z => bind (filter3 E F z) (add3 E c q)) = Ok q' /\ state_conform q' Np K = true /\
  forall m i k, (m < 3)%nat -> (i < Np)%nat -> (k < K)%nat -> ment (fieldc m q') i k = ment (fieldc m q) i k + c * sumn Np (fun j => ment F i j * ment (fieldc m z) j k).
Proof.
  intros HF Cq Ez Cz. rewrite Ez. cbn [bind]. destruct (filter3_ok F z HF Cz) as (y & Ey & Cy & Hy). rewrite Ey. cbn [bind]. destruct (add3_ok c q y Cq Cy) as (q' & E' & C' & H'). exists q'. split; [exact E'|]. split; [exact C'|].
  intros m i k Hm Hi Hk. rewrite (H' m i k Hm), (Hy m Hm i k Hi Hk). reflexivity.
Qed.

Lemma qloop_S {T} (A : arith T) fuel F H rhs huge dt ft s : quads_loop A (S fuel) F H rhs huge dt ft s =
  if flt A (qd_t s) ft then bind (quads_turn A F H rhs huge dt s) (quads_loop A fuel F H rhs huge dt ft) else Ok s.
Proof. reflexivity. Qed.
Lemma qturn_inv F H rhs huge dt s s1 : quads_turn E F H rhs huge dt s = Ok s1 ->
  quads_step E F rhs dt (qd_q s) = Ok (qd_q s1) /\ script_unstable E huge (fieldc 0 (qd_q s1)) = Ok false /\ qd_t s1 = qd_t s + dt /\ qd_step s1 = (qd_step s + 1)%Z /\
  qd_out s1 = if (qd_step s1 mod 20 =? 0)%Z then (qd_step s1, quads_shown E H (qd_q s1)) :: qd_out s else qd_out s.
Proof.
  unfold quads_turn. intro Et. destruct (quads_step E F rhs dt (qd_q s)) as [q'| |] eqn:Es; cbn [bind] in Et; try discriminate Et. destruct (script_unstable E huge (fst (fst q'))) as [[|]| |] eqn:Eu; cbn [bind] in Et; try discriminate Et.
  injection Et as <-. cbn [qd_q qd_t qd_step qd_out]. repeat split; auto.
Qed.
Lemma qloop_history F H rhs huge dt ft : forall fuel s s', quads_loop E fuel F H rhs huge dt ft s = Ok s' ->
  exists n h, history Ok (quads_turn E F H rhs huge dt) n h /\ h 0%nat = s /\ h n = s' /\ (forall i, (i < n)%nat -> qd_t (h i) < ft) /\ ft <= qd_t s'.
Proof.
  induction fuel as [|fuel IH]; intros s s' Hl; cbn [quads_loop] in Hl; [discriminate Hl|]. cbn [exact flt] in Hl. unfold Rltb in Hl. destruct (Rlt_dec (qd_t s) ft) as [L|L].
  2:{ injection Hl as <-. exists 0%nat, (fun _ => s). split; [intros i Hi; lia|]. split; [reflexivity|]. split; [reflexivity|]. split; [intros i Hi; lia|lra]. }
  destruct (quads_turn _ _ _ _ _ _ s) as [s1| |] eqn:Et; cbn [bind] in Hl; try discriminate Hl. apply IH in Hl as (n & h & Hh & H0 & Hn & Hlt & Hge).
  exists (S n), (fun i => match i with O => s | S i => h i end). split; [|split; [reflexivity|split; [exact Hn|split; [|exact Hge]]]].
  - intros [|i] Hi; [rewrite H0; exact Et|apply Hh; lia].
  - intros [|i] Hi; [exact L|apply Hlt; lia].
Qed.
Lemma qhistory_clock F H rhs huge dt n h : history Ok (quads_turn E F H rhs huge dt) n h ->
  qd_t (h n) = qd_t (h 0%nat) + INR n * dt /\ qd_step (h n) = (qd_step (h 0%nat) + Z.of_nat n)%Z.
Proof.
  induction n as [|n IH]; intro Hh; [cbn [INR]; split; [ring|lia]|]. destruct IH as (I1 & I2); [intros i Hi; apply Hh; lia|].
  destruct (qturn_inv _ _ _ _ _ _ _ (Hh n ltac:(lia))) as (_ & _ & T & K1 & _). rewrite T, K1, I1, I2, S_INR. split; [ring|lia].
Qed.
Lemma qhistory_out F H rhs huge dt n h : history Ok (quads_turn E F H rhs huge dt) n h -> qd_step (h 0%nat) = 0%Z ->
  forall k fs, In (k, fs) (qd_out (h n)) <-> In (k, fs) (qd_out (h 0%nat)) \/ exists i, (1 <= i <= n)%nat /\ (i mod 20 = 0)%nat /\ k = Z.of_nat i /\ fs = quads_shown E H (qd_q (h i)).
Proof.
  induction n as [|n IH]; intros Hh H0 k fs; [split; [intro X; left; exact X|intros [X|(i & Hi & _)]; [exact X|lia]]|].
  assert (Hh' : history Ok (quads_turn E F H rhs huge dt) n h) by (intros i Hi; apply Hh; lia). specialize (IH Hh' H0 k fs).
  destruct (qturn_inv _ _ _ _ _ _ _ (Hh n ltac:(lia))) as (_ & _ & _ & _ & EO). destruct (qhistory_clock _ _ _ _ _ _ _ Hh) as (_ & ES). rewrite H0 in ES. rewrite EO, ES. clear EO.
  replace (0 + Z.of_nat (S n))%Z with (Z.of_nat (S n)) by lia.
  assert (MZ : (Z.of_nat (S n) mod 20 =? 0)%Z = (S n mod 20 =? 0)%nat).
  { change 20%Z with (Z.of_nat 20) at 1. rewrite <- Nat2Z.inj_mod. destruct (Nat.eqb_spec (S n mod 20) 0) as [-> |X]; [reflexivity|]. apply Z.eqb_neq. intro Y. apply X, Nat2Z.inj. exact Y. }
  rewrite MZ. destruct (Nat.eqb_spec (S n mod 20) 0) as [M0|M0].
  - cbn [In]. rewrite IH. split.
    + intros [X|[X|(i & Hi & X)]]; [right; exists (S n); injection X as <- <-; repeat split; auto; lia|left; exact X|right; exists i; split; [lia|exact X]].
    + intros [X|(i & Hi & Mi & -> & ->)]; [right; left; exact X|]. destruct (Nat.eq_dec i (S n)) as [-> |Ne]; [left; reflexivity|right; right; exists i; repeat split; auto; lia].
  - rewrite IH. split.
    + intros [X|(i & Hi & X)]; [left; exact X|right; exists i; split; [lia|exact X]].
    + intros [X|(i & Hi & Mi & X)]; [left; exact X|]. destruct (Nat.eq_dec i (S n)) as [-> |Ne]; [contradiction|right; exists i; split; [lia|split; [exact Mi|exact X]]].
Qed.
End Step.
