(* PySwProofs.v - what sw2dComputeRHS computes at every node. *)
From Coq Require Import ZArith List Lia Bool Arith.
From Verif Require Import Base Loops Num JacobiSpec JacobiQuadProofs Nodes1DModel Maps2DModel RKModel RKProofs Line1DModel Line1DProofs DenseSpec TriGeoSpec TriMapsProofs
  SwModel SwSpec SwProofs SwRunProofs CurvedSwModel CurvedSwSpec CurvedSwProofs PySwModel PySwSpec.
From Coq Require Import Reals Lra.
Import ListNotations.
Local Open Scope R_scope.

Section Arrays.
Context (G : R -> R).
Local Notation E := (exact G).
Lemma tab_at {X} n (h : nat -> X) i d : (i < n)%nat -> nth i (tab n h) d = h i.
Proof. apply nth_map_seq. Qed.
Lemma tab_of (l : list R) n : length l = n -> l = tab n (fun i => nth i l 0).
Proof. intro H. apply tab_eq; [exact H|]. intros i Hi. apply nth_error_nth'. lia. Qed.
Lemma flat_tab (m : mat R) r c : mrows m = r -> mcols m = c -> flattenF m = tab (r * c) (fun p => ment m (p mod r) (p / r)).
Proof.
  intros Hr Hc. rewrite (tab_of (flattenF m) (r * c)) by (rewrite flattenF_len, Hr, Hc; reflexivity). apply tab_ext. intros i Hi. rewrite flattenF_at by (rewrite Hr, Hc; exact Hi). rewrite Hr. reflexivity.
Qed.
Lemma take_tab n h (l : list nat) nf : length l = nf -> (forall i, In i l -> (i < n)%nat) -> take E (tab n h) l = Ok (tab nf (fun i => h (nth i l 0%nat))).
Proof.
  intros Hl Hb. rewrite (take_ok G) by (intros i Hi; rewrite tab_len; apply Hb, Hi). f_equal. rewrite (tab_of _ nf) by (rewrite map_length; exact Hl). apply tab_ext. intros i Hi.
  rewrite (nth_indep _ 0 (nth 0 (tab n h) 0)) by (rewrite map_length; lia). rewrite (map_nth (fun i => nth i (tab n h) 0)). apply tab_at. apply Hb, nth_In. lia.
Qed.
Lemma speeds_tab g n a b c e : speeds_of E g (Four (tab n a) (tab n b) (tab n c) (tab n e)) = tab n (fun i => wave_speed g (a i, b i, c i)).
Proof.
  unfold speeds_of. cbn [q_h]. rewrite tab_len. apply tab_ext. intros i Hi. unfold nth4, fmap4. cbn [q_h q_hu q_hv]. rewrite !tab_at by exact Hi. reflexivity.
Qed.
Lemma fluxes_tab (fl : four R -> R) n a b c e : fluxes_vec E fl (Four (tab n a) (tab n b) (tab n c) (tab n e)) = tab n (fun i => fl (Four (a i) (b i) (c i) (e i))).
Proof. unfold fluxes_vec. cbn [q_h]. rewrite tab_len. apply tab_ext. intros i Hi. unfold nth4, fmap4. cbn [q_h q_hu q_hv q_hN]. rewrite !tab_at by exact Hi. reflexivity. Qed.
Lemma reflect_tab n mapW nx ny hM huM hvM hNM hP huP hvP hNP : (forall w, In w mapW -> (w < n)%nat) ->
  reflect E mapW (tab n nx) (tab n ny) (Four (tab n hM) (tab n huM) (tab n hvM) (tab n hNM)) (Four (tab n hP) (tab n huP) (tab n hvP) (tab n hNP)) =
  Ok (Four (tab n hP) (tab n (fun i => if inb i mapW then huM i - 2 * nx i * (huM i * nx i + hvM i * ny i) else huP i)) (tab n (fun i => if inb i mapW then hvM i - 2 * ny i * (huM i * nx i + hvM i * ny i) else hvP i)) (tab n hNP)).
Proof.
  intro H. unfold reflect. cbn [q_h q_hu q_hv q_hN]. rewrite !tab_len. rewrite (proj2 (forallb_forall _ _)).
  2:{ intros w Hw. apply H in Hw. apply andb_true_intro. split; apply Nat.ltb_lt; exact Hw. }
  f_equal. f_equal; apply tab_ext; intros i Hi; fold (inb i mapW); rewrite !tab_at by exact Hi; reflexivity.
Qed.
Lemma side_max_tab Nfp n m f : m = (Nfp * n)%nat -> (0 < Nfp)%nat -> (forall i, (i < m)%nat -> 0 <= f i) -> side_max E Nfp (tab m f) = Ok (tab m (face_max G 0 Nfp f)).
Proof.
  intros -> HN Hf. unfold side_max. rewrite (proj2 (Nat.eqb_neq Nfp 0)) by lia. f_equal. rewrite tab_len. apply tab_ext. intros i Hi. unfold face_max, maxto.
  destruct Nfp as [|m]; [lia|]. cbn [seq fold_left]. replace (S m - 1)%nat with m by lia.
  assert (Hs : (S m * (i / S m) + m < S m * n)%nat). { assert (i / S m < n)%nat by (apply Nat.div_lt_upper_bound; lia). nia. }
  rewrite fmax_E. rewrite Rmax_right by (apply Hf; lia). rewrite tab_at by lia. rewrite (Nat.mul_comm (S m) (i / S m)). cbn [Nat.add].
  assert (X : forall l a, (forall j, In j l -> (j <= m)%nat) -> fold_left (fun a j => fmax E a (nth (i / S m * S m + j)%nat (tab (S m * n) f) (fofn E 0))) l a = fold_left (fun a j => fmax E a (f (j + i / S m * S m)%nat)) l a).
  { induction l as [|j l IH]; intros a Hl; [reflexivity|]. cbn [fold_left]. rewrite IH by (intros; apply Hl; now right). specialize (Hl j (or_introl eq_refl)). rewrite tab_at by lia. rewrite (Nat.add_comm j). reflexivity. }
  apply X. intros j Hj. apply in_seq in Hj. lia.
Qed.
Lemma reshape_tab r c m h : m = (r * c)%nat -> exists M, reshapeF E r c (tab m h) = Ok M /\ mrows M = r /\ mcols M = c /\ forall i k, (i < r)%nat -> (k < c)%nat -> ment M i k = h (i + k * r)%nat.
Proof.
  intros ->. rewrite (reshape_ok G) by apply tab_len. eexists. split; [reflexivity|]. split; [reflexivity|]. split; [reflexivity|]. intros i k Hi Hk. cbn [ment]. rewrite tab_at by nia. f_equal. lia.
Qed.
End Arrays.

Lemma tuple4 (a b c e a' b' c' e' : R) : a = a' -> b = b' -> c = c' -> e = e' -> (a, b, c, e) = (a', b', c', e').
Proof. intros; subst; reflexivity. Qed.

Section Node.
Variables (G : R -> R) (d : dg2d (T := R)) (NF Nfp Np K : nat) (vmapM vmapP mapW : list nat) (g CD f : R) (zx zy : mat R) (q : four (mat R)).
Local Notation E := (exact G).
Local Notation nf := (NF * Nfp * K)%nat.
Local Notation run := (py_rhs E rhypot d NF Nfp Np K vmapM vmapP g CD f zx zy q).
(* tables and arguments of the right shapes, maps within the arrays, no dry node on a face *)
Definition node4 (v : nat) : cell4 := node_state q (v mod Np) (v / Np).
Record py_ready : Prop := {
  pr_some : (0 < Np)%nat /\ (0 < NF)%nat /\ (0 < Nfp)%nat;
  pr_conform : dg_conform d NF Nfp Np K = true;
  pr_state : four_conform q Np K = true /\ conform zx Np K = true /\ conform zy Np K = true;
  pr_mapM : length vmapM = nf /\ forall v, In v vmapM -> (v < Np * K)%nat;
  pr_mapP : length vmapP = nf /\ forall v, In v vmapP -> (v < Np * K)%nat;
  pr_wall : hfind (d_bc d) 3 = Some mapW /\ forall w, In w mapW -> (w < nf)%nat;
  pr_wet : forall i k, (i < Np)%nat -> (k < K)%nat -> ment (q_h q) i k <> 0 }.
Definition near (i : nat) : cell4 := node4 (nth i vmapM 0%nat).
Definition beyond_ (i : nat) : cell4 := node4 (nth i vmapP 0%nat).
Definition opposite (i : nat) : cell4 :=
  if inb i mapW then (part 0 (fst (beyond_ i)), part 1 (mirror (normal_at d (NF * Nfp) i) (fst (near i))), part 2 (mirror (normal_at d (NF * Nfp) i) (fst (near i))), snd (beyond_ i)) else beyond_ i.
Definition face_speed : nat -> R := face_max G 0 Nfp (fun i => Rmax (wave_speed g (fst (near i))) (wave_speed g (fst (opposite i)))).
Definition rate4 (c i k : nat) : R :=
  strong_entry d Np (NF * Nfp) (fun j => through4 g c (1, 0) (node_state q j k)) (fun j => through4 g c (0, 1) (node_state q j k))
    (fun j => let p := (j + k * (NF * Nfp))%nat in let n := normal_at d (NF * Nfp) p in through4 g c n (near p) - rusanov4 g c n (face_speed p) (near p) (opposite p)) i k.

Lemma node_wet v : py_ready -> (v < Np * K)%nat -> depth (node4 v) <> 0.
Proof. intros [(HN & _) _ _ _ _ _ Hw] Hv. apply Hw; [apply Nat.mod_upper_bound; lia|apply Nat.div_lt_upper_bound; lia]. Qed.
Lemma near_wet i : py_ready -> (i < nf)%nat -> depth (near i) <> 0.
Proof. intros HR Hi. apply node_wet; [exact HR|]. destruct HR as [_ _ _ (L & B) _ _ _]. apply B, nth_In. lia. Qed.
Lemma beyond_wet i : py_ready -> (i < nf)%nat -> depth (beyond_ i) <> 0.
Proof. intros HR Hi. apply node_wet; [exact HR|]. destruct HR as [_ _ _ _ (L & B) _ _]. apply B, nth_In. lia. Qed.

Theorem py_ok : py_ready -> exists z, run = Ok z /\ four_conform z Np K = true /\
  forall c i k, (c < 4)%nat -> (i < Np)%nat -> (k < K)%nat -> ment (pick c z) i k = rate4 c i k + source4 g CD f (ment zx i k) (ment zy i k) c (node_state q i k).
Proof.
  intro HR. pose proof (fun i => near_wet i HR) as HwM. pose proof (fun i => beyond_wet i HR) as HwP. destruct HR as [(HNp & HNF & HNfp) HC (HQ & Hzx & Hzy) (LM & BM) (LP & BP) (HW & BW) Hwet]. unfold py_rhs. rewrite HC, HQ, Hzx, Hzy, LM, LP, Nat.eqb_refl, HW. cbn [require andb].
  pose proof HC as HC'. unfold dg_conform in HC'. rewrite !andb_true_iff in HC'. destruct HC' as (((((((((_ & _) & _) & _) & Cx) & Cy) & _) & _) & _) & _). apply conform_ok in Cx as (X1 & X2), Cy as (Y1 & Y2).
  rewrite (flat_tab _ _ _ X1 X2), (flat_tab _ _ _ Y1 Y2). replace (NF * Nfp * K)%nat with nf by reflexivity.
  unfold four_conform in HQ. rewrite !andb_true_iff in HQ. destruct HQ as (((Q1 & Q2) & Q3) & Q4). apply conform_ok in Q1 as (A1 & A2), Q2 as (B1 & B2), Q3 as (C1 & C2), Q4 as (D1 & D2).
  unfold fmap4, bind4. cbn [q_h q_hu q_hv q_hN]. rewrite (flat_tab _ _ _ A1 A2), (flat_tab _ _ _ B1 B2), (flat_tab _ _ _ C1 C2), (flat_tab _ _ _ D1 D2).
  rewrite !(take_tab G _ _ vmapM nf LM BM), !(take_tab G _ _ vmapP nf LP BP). cbn [bind]. unfold transport. cbn [q_h q_hu q_hv q_hN]. rewrite !tab_zipw.
  cbn [fmul fdiv exact]. rewrite (reflect_tab G _ _ _ _ _ _ _ _ _ _ _ _ BW). cbn [bind]. rewrite !speeds_tab, tab_zipw.
  rewrite (side_max_tab G Nfp (NF * K) nf) by first [nia|exact HNfp|intros i _; rewrite fmax_E; apply (Rle_trans _ _ _ (speed_nonneg _ _) (Rmax_l _ _))]. cbn [bind].
  unfold strong_jumps. rewrite !fluxes_tab. cbn [pick q_h q_hu q_hv q_hN]. rewrite !tab_zipw, !jumps_ok.
  match goal with |- context [reshapeF E (Nfp * NF) K (tab _ ?F)] => destruct (reshape_tab G (Nfp * NF) K nf F ltac:(nia)) as (M0 & E0 & _ & _ & H0); rewrite E0; cbn [bind]; clear E0 end.
  match goal with |- context [reshapeF E (Nfp * NF) K (tab _ ?F)] => destruct (reshape_tab G (Nfp * NF) K nf F ltac:(nia)) as (M1 & E1 & _ & _ & H1); rewrite E1; cbn [bind]; clear E1 end.
  match goal with |- context [reshapeF E (Nfp * NF) K (tab _ ?F)] => destruct (reshape_tab G (Nfp * NF) K nf F ltac:(nia)) as (M2 & E2 & _ & _ & H2); rewrite E2; cbn [bind]; clear E2 end.
  match goal with |- context [reshapeF E (Nfp * NF) K (tab _ ?F)] => destruct (reshape_tab G (Nfp * NF) K nf F ltac:(nia)) as (M3 & E3 & _ & _ & H3); rewrite E3; cbn [bind]; clear E3 end.
  eexists. split; [reflexivity|]. split.
  { unfold four_conform, add_sources, with_source, strong_form, add_product, Line1DModel.mzip, mmap, scaled_product, conform. cbn [q_h q_hu q_hv q_hN mrows mcols]. rewrite !Nat.eqb_refl. reflexivity. }
  intros c i k Hc Hi Hk. rewrite source_ok by exact Hc. f_equal.
  (* the states at face point p, as they are computed *)
  pose (at_ := fun (v : nat) (m : mat R) => ment m (v mod Np) (v / Np)).
  pose (XM := fun p => let v := nth p vmapM 0%nat in Four (at_ v (q_h q)) (at_ v (q_h q) * (at_ v (q_hu q) / at_ v (q_h q))) (at_ v (q_h q) * (at_ v (q_hv q) / at_ v (q_h q))) (at_ v (q_hN q))).
  pose (XP := fun p => let v := nth p vmapP 0%nat in Four (at_ v (q_h q)) (at_ v (q_h q) * (at_ v (q_hu q) / at_ v (q_h q))) (at_ v (q_h q) * (at_ v (q_hv q) / at_ v (q_h q))) (at_ v (q_hN q))).
  pose (nn := fun p => normal_at d (NF * Nfp) p).
  pose (YP := fun p => Four (q_h (XP p)) (if inb p mapW then q_hu (XM p) - 2 * fst (nn p) * (q_hu (XM p) * fst (nn p) + q_hv (XM p) * snd (nn p)) else q_hu (XP p)) (if inb p mapW then q_hv (XM p) - 2 * snd (nn p) * (q_hu (XM p) * fst (nn p) + q_hv (XM p) * snd (nn p)) else q_hv (XP p)) (q_hN (XP p))).
  assert (SM : forall p, (p < nf)%nat -> cell_of (XM p) = near p).
  { intros p Hp. pose proof (HwM p Hp) as X. unfold XM, cell_of, at_, near, node4, node_state, depth in *. cbn [fst snd part q_h q_hu q_hv q_hN] in *. apply tuple4; try reflexivity; field; exact X. }
  assert (SP : forall p, (p < nf)%nat -> cell_of (XP p) = beyond_ p).
  { intros p Hp. pose proof (HwP p Hp) as X. unfold XP, cell_of, at_, beyond_, node4, node_state, depth in *. cbn [fst snd part q_h q_hu q_hv q_hN] in *. apply tuple4; try reflexivity; field; exact X. }
  assert (SY : forall p, (p < nf)%nat -> cell_of (YP p) = opposite p).
  { intros p Hp. unfold opposite. rewrite <- (SM p Hp), <- (SP p Hp). unfold YP, cell_of, nn. destruct (inb p mapW); cbn [fst snd part q_h q_hu q_hv q_hN mirror]; apply tuple4; try reflexivity; ring. }
  assert (SL : forall p, (p < nf)%nat -> face_max G 0 Nfp (fun i => fmax E (wave_speed g (fst (cell_of (XM i)))) (wave_speed g (fst (cell_of (YP i))))) p = face_speed p).
  { intros p Hp. unfold face_speed, face_max. apply maxto_ext. intros n Hn. assert (p / Nfp < NF * K)%nat by (apply Nat.div_lt_upper_bound; lia). rewrite fmax_E, SM, SY by nia. reflexivity. }
  assert (J : forall c j, (c < 4)%nat -> (j < NF * Nfp)%nat -> let p := (j + k * (Nfp * NF))%nat in
    1 / 2 * ((flux_F E g c (XM p) - flux_F E g c (YP p)) * fst (nn p) + (flux_G E g c (XM p) - flux_G E g c (YP p)) * snd (nn p) - face_max G 0 Nfp (fun i => fmax E (wave_speed g (fst (cell_of (XM i)))) (wave_speed g (fst (cell_of (YP i))))) p * (pick c (XM p) - pick c (YP p))) =
    through4 g c (nn p) (near p) - rusanov4 g c (nn p) (face_speed p) (near p) (opposite p)).
  { intros c0 j Hc0 Hj p. assert (Hp : (p < nf)%nat) by (unfold p; nia). rewrite (SL p Hp), <- (SM p Hp), <- (SY p Hp). unfold rusanov4. rewrite <- !pick_part by exact Hc0. destruct (nn p) as [n1 n2]. rewrite <- !(flux_through G) by exact Hc0. cbn [fst snd]. field. }
  assert (FX : forall c j, (c < 4)%nat -> ment (fluxes_mat (flux_F E g c) q) j k = through4 g c (1, 0) (node_state q j k)).
  { intros c0 j Hc0. unfold fluxes_mat. cbn [ment]. transitivity (flux_F E g c0 (at4 q j k) * 1 + flux_G E g c0 (at4 q j k) * 0); [ring|]. rewrite (flux_through G) by exact Hc0. reflexivity. }
  assert (FY : forall c j, (c < 4)%nat -> ment (fluxes_mat (flux_G E g c) q) j k = through4 g c (0, 1) (node_state q j k)).
  { intros c0 j Hc0. unfold fluxes_mat. cbn [ment]. transitivity (flux_F E g c0 (at4 q j k) * 0 + flux_G E g c0 (at4 q j k) * 1); [ring|]. rewrite (flux_through G) by exact Hc0. reflexivity. }
  assert (FIN : forall c M, (c < 4)%nat -> (forall j, (j < NF * Nfp)%nat -> ment M j k = 1 / 2 * ((flux_F E g c (XM (j + k * (Nfp * NF))%nat) - flux_F E g c (YP (j + k * (Nfp * NF))%nat)) * fst (nn (j + k * (Nfp * NF))%nat) + (flux_G E g c (XM (j + k * (Nfp * NF))%nat) - flux_G E g c (YP (j + k * (Nfp * NF))%nat)) * snd (nn (j + k * (Nfp * NF))%nat) - face_max G 0 Nfp (fun i => fmax E (wave_speed g (fst (cell_of (XM i)))) (wave_speed g (fst (cell_of (YP i))))) (j + k * (Nfp * NF))%nat * (pick c (XM (j + k * (Nfp * NF))%nat) - pick c (YP (j + k * (Nfp * NF))%nat)))) ->
    ment (strong_form E d Np (NF * Nfp) K (fluxes_mat (flux_F E g c) q) (fluxes_mat (flux_G E g c) q) M) i k = rate4 c i k).
  { intros c0 M Hc0 HM. rewrite strong_ok. unfold rate4, strong_entry. f_equal; [f_equal; f_equal; f_equal; f_equal; apply sumn_ext; intros j Hj; rewrite ?(FX c0 j Hc0), ?(FY c0 j Hc0); reflexivity|].
    apply sumn_ext. intros j Hj. f_equal. f_equal. rewrite (HM j Hj). cbv zeta. rewrite (J c0 j Hc0 Hj). unfold nn. rewrite (Nat.mul_comm Nfp NF). reflexivity. }
  destruct c as [|[|[|[|]]]]; [| | | |lia]; cbn [pick q_h q_hu q_hv q_hN]; (apply FIN; [lia|]); intros j Hj; [rewrite H0|rewrite H1|rewrite H2|rewrite H3]; try nia; reflexivity.
Qed.
End Node.
