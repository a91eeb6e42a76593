(* CurvedSwProofs.v - sw2dComputeRHS_curved computes the weak form; consequences. *)
From Coq Require Import ZArith List Lia Bool Arith.
From Verif Require Import Base Loops Num JacobiSpec JacobiProofs JacobiQuadProofs JacobiExactProofs Nodes1DModel Nodes1DExactProofs DenseSpec QuadBasisProofs TriModel TriSpec TriGeoSpec Maps2DModel RKModel RKProofs Line1DModel
  SwModel SwSpec SwRunProofs TriMapsProofs NumpyProofs GaussFaceModel GaussFaceSpec CubMeshModel CubMeshSpec CurvedSwModel CurvedSwSpec.
From Verif Require CubMeshProofs.
From Coq Require Import Reals Lra.
Import ListNotations.
Local Open Scope R_scope.

Lemma nth_map_seq {X} (f : nat -> X) n i d : (i < n)%nat -> nth i (map f (seq 0 n)) d = f i.
Proof. intro Hi. rewrite (nth_indep _ d (f 0%nat)) by (rewrite map_length, seq_length; lia). rewrite map_nth, seq_nth by lia. reflexivity. Qed.

Section Arrays.
Context (G : R -> R).
Local Notation E := (exact G).
Lemma flattenF_len (m : mat R) : length (flattenF m) = (mrows m * mcols m)%nat.
Proof. unfold flattenF. rewrite (flat_map_seq_len _ (mrows m)); [lia|]. intro i. unfold mcol. now rewrite map_length, seq_length. Qed.
Lemma flattenF_at (m : mat R) p : (p < mrows m * mcols m)%nat -> nth p (flattenF m) 0 = ment m (p mod mrows m) (p / mrows m).
Proof.
  intro Hp. assert (H0 : mrows m <> 0%nat) by nia. assert (Hi : (p mod mrows m < mrows m)%nat) by (apply Nat.mod_upper_bound; exact H0).
  assert (Hk : (p / mrows m < mcols m)%nat) by (apply Nat.div_lt_upper_bound; lia).
  apply nth_error_nth. unfold flattenF. rewrite (Nat.div_mod p (mrows m) H0) at 1. rewrite (Nat.mul_comm (mrows m)).
  rewrite (flat_map_seq_at _ (mrows m)); [|intro; unfold mcol; now rewrite map_length, seq_length|assumption|assumption].
  unfold mcol. cbn [Nat.add]. rewrite nth_error_map, (nth_error_nth' _ 0%nat) by (rewrite seq_length; lia). rewrite seq_nth by lia. reflexivity.
Qed.
Lemma take_ok (x : list R) (l : list nat) : (forall i, In i l -> (i < length x)%nat) -> take E x l = Ok (map (fun i => nth i x 0) l).
Proof. intro H. unfold take. rewrite (proj2 (forallb_forall _ _)); [reflexivity|]. intros i Hi. apply Nat.ltb_lt, H, Hi. Qed.
Lemma reshape_ok r c (x : list R) : length x = (r * c)%nat -> reshapeF E r c x = Ok (mkmat r c (fun i k => nth (i + r * k)%nat x 0)).
Proof. intro H. unfold reshapeF. rewrite H, Nat.eqb_refl. reflexivity. Qed.
Lemma half_E : half E = 1 / 2. Proof. reflexivity. Qed.
Lemma two_E : two E = 2. Proof. reflexivity. Qed.
Lemma fmax_E a b : fmax E a b = Rmax a b.
Proof. unfold fmax. cbn [exact flt]. unfold Rltb, Rmax. destruct (Rlt_dec a b), (Rle_dec a b); try reflexivity; lra. Qed.
Lemma fold_max (f : nat -> R) l : forall a, let m := fold_left (fun a j => fmax E a (f j)) l a in
  a <= m /\ (forall j, In j l -> f j <= m) /\ (m = a \/ exists j, In j l /\ m = f j).
Proof.
  induction l as [|j l IH]; intro a; cbn [fold_left]; [repeat split; [lra|intros ? []|now left]|].
  destruct (IH (fmax E a (f j))) as (H1 & H2 & H3). rewrite fmax_E in *. set (m := fold_left _ l _) in *. cbv zeta.
  pose proof (Rmax_l a (f j)). pose proof (Rmax_r a (f j)). split; [lra|]. split.
  - intros i [<-|Hi]; [lra|auto].
  - destruct H3 as [H3|(i & Hi & H3)]; [|right; exists i; split; [now right|exact H3]].
    destruct (Rmax_case a (f j) (fun v => v = a \/ v = f j)); auto; rewrite H3; [left; lra|right; exists j; split; [now left|lra]].
Qed.
Lemma side_max_ok NG (l : list R) : (1 <= NG)%nat -> exists lam, side_max E NG l = Ok lam /\ length lam = length l /\
  forall p, (p < length l)%nat -> (NG * (p / NG) + (NG - 1) < length l)%nat -> is_max (fun v => exists p', (p' < length l)%nat /\ (p' / NG = p / NG)%nat /\ v = nth p' l 0) (nth p lam 0).
Proof.
  intro H. unfold side_max. rewrite (proj2 (Nat.eqb_neq NG 0)) by lia. eexists. split; [reflexivity|]. split; [now rewrite map_length, seq_length|].
  intros p Hp Hl. rewrite nth_map_seq by exact Hp. set (s := (p / NG)%nat) in *.
  destruct (fold_max (fun j => nth (NG * s + j) l (fofn E 0)) (seq 1 (NG - 1)) (nth (NG * s) l (fofn E 0))) as (H1 & H2 & H3). cbv zeta in *.
  change (fofn E 0) with 0 in *. split.
  - destruct H3 as [->|(j & Hj & ->)].
    + exists (NG * s)%nat. split; [lia|]. split; [|reflexivity]. rewrite Nat.mul_comm. apply Nat.div_mul. lia.
    + apply in_seq in Hj. exists (NG * s + j)%nat. split; [lia|]. split; [|reflexivity]. rewrite Nat.mul_comm, Nat.div_add_l by lia. rewrite Nat.div_small by lia. lia.
  - intros v (p' & Hp' & Hs & ->). assert (D := Nat.div_mod p' NG ltac:(lia)). assert (M := Nat.mod_upper_bound p' NG ltac:(lia)). rewrite Hs in D.
    destruct (Nat.eq_dec (p' mod NG) 0) as [E0|E0].
    + replace p' with (NG * s)%nat by lia. exact H1.
    + rewrite D. apply (H2 (p' mod NG)%nat). apply in_seq. lia.
Qed.

(* one point *)
Definition cell_of (x : four R) : cell4 := (q_h x, q_hu x, q_hv x, q_hN x).
Lemma flux_through g c x n1 n2 : (c < 4)%nat -> flux_F E g c x * n1 + flux_G E g c x * n2 = through4 g c (n1, n2) (cell_of x).
Proof.
  intro Hc. unfold flux_F, flux_G, through4, through, flux_x, flux_y, cell_of, depth. rewrite half_E. cbn [exact fmul fadd fdiv].
  destruct c as [|[|[|[|]]]]; [| | | |lia]; cbn [Nat.ltb Nat.leb part fst snd]; unfold Rdiv; ring.
Qed.
Lemma pick_part c x : (c < 4)%nat -> pick c x = part4 c (cell_of x).
Proof. intro Hc. destruct c as [|[|[|[|]]]]; [| | | |lia]; reflexivity. Qed.
Lemma weak_flux_ok g c a b n lam : (c < 4)%nat ->
  weak_flux E (flux_F E g c a) (flux_F E g c b) (flux_G E g c a) (flux_G E g c b) (fst n) (snd n) lam (pick c a - pick c b) = rusanov4 g c n lam (cell_of a) (cell_of b).
Proof.
  intro Hc. unfold weak_flux, rusanov4. rewrite half_E. destruct n as [n1 n2]. cbn [exact fmul fadd fst snd]. rewrite <- !flux_through, !pick_part by exact Hc. field.
Qed.
Lemma speed_ok g x : speed E g (q_h x) (q_hu x) (q_hv x) = wave_speed g (fst (cell_of x)).
Proof. reflexivity. Qed.
Lemma mirrored_ok x n : (mirrored E (two E) (fst n) (snd n) (fst n) (q_hu x) (q_hv x) (q_hu x), mirrored E (two E) (fst n) (snd n) (snd n) (q_hu x) (q_hv x) (q_hv x)) =
  (snd (fst (mirror n (fst (cell_of x)))), snd (mirror n (fst (cell_of x)))).
Proof. unfold mirrored, mirror, cell_of. rewrite two_E. cbn [exact fmul fadd fsub fst snd]. f_equal; ring. Qed.
End Arrays.

Section Run.
Context (G : R -> R) (tri : bool -> mat R -> list R -> outcome (list R)).
Variables (Np K NG : nat) (V J : mat R) (cc : cub_mesh R) (gf : gauss_faces R) (curved gmapM gmapP mapW : list nat) (mass : nat -> mat R).
Hypothesis HT : curved_tables Np K NG V J cc gf curved gmapM gmapP mapW mass.
Hypothesis Htri : triangular_solver tri.
Local Notation E := (exact G).
Local Notation n := (3 * NG * K)%nat.

(* the inverse mass matrices *)
Lemma each_cols (M : mat R) : shape M Np K -> forall l R0, (forall k, In k l -> In k curved) -> shape R0 Np K ->
  exists R', each (fun k R => bind (match nth_error (cc_chol cc) k with Some U => Ok U | None => Throw end) (fun U =>
      bind (tri true U (mcol M k)) (fun y => bind (tri false U y) (fun x => Ok (set_col E R k x))))) l R0 = Ok R' /\ shape R' Np K /\
  forall k, (k < K)%nat -> (In k l -> forall a, (a < Np)%nat -> sumn Np (fun b => ment (mass k) a b * ment R' b k) = ment M a k) /\
    (~ In k l -> forall a, ment R' a k = ment R0 a k).
Proof.
  intros (SM1 & SM2). induction l as [|k l IH]; intros R0 Hl SR; cbn [each]; [exists R0; repeat split; try apply SR; intros []|].
  assert (Hk : (k < K)%nat) by (apply (ct_inside _ _ _ _ _ _ _ _ _ _ _ _ HT), Hl; now left).
  destruct (ct_curved _ _ _ _ _ _ _ _ _ _ _ _ HT k Hk (Hl k (or_introl eq_refl))) as (U & EU & (SU & HU & HC) & Hd). rewrite EU. cbn [bind].
  assert (Lb : length (mcol M k) = Np) by (unfold mcol; rewrite map_length, seq_length; exact SM1).
  destruct (proj2 (Htri Np U (mcol M k) (conj SU HU) Lb) Hd true) as (y & Ey & Ly & Hy). rewrite Ey. cbn [bind].
  destruct (proj2 (Htri Np U y (conj SU HU) Ly) Hd false) as (x & Ex & Lx & Hx). rewrite Ex. cbn [bind].
  set (R1 := set_col E R0 k x). assert (SR1 : shape R1 Np K) by (destruct SR; split; assumption).
  destruct (IH R1 (fun k' H => Hl k' (or_intror H)) SR1) as (R' & E' & S' & H'). exists R'. split; [exact E'|]. split; [exact S'|].
  assert (Hsol : forall a, (a < Np)%nat -> sumn Np (fun b => ment (mass k) a b * nth b x 0) = ment M a k).
  { intros a Ha. rewrite (sumn_ext Np _ (fun b => sumn Np (fun i => ment U i a * (ment U i b * nth b x 0)))).
    2:{ intros b Hb. rewrite <- (HC a b Ha Hb), Rmult_comm, <- sumn_scal. apply sumn_ext. intros; ring. }
    rewrite sumn_swap. rewrite (sumn_ext Np _ (fun i => ment U i a * nth i y 0)).
    2:{ intros i Hi. rewrite sumn_scal. f_equal. apply (Hx i Hi). }
    etransitivity; [exact (Hy a Ha)|]. unfold mcol. rewrite SM1. apply (nth_map_seq (fun i => ment M i k)). exact Ha. }
  intros k' Hk'. destruct (H' k' Hk') as (Hin & Hout). split.
  - intros [<-|Hk2] a Ha; [|now apply Hin]. destruct (in_dec Nat.eq_dec k l) as [Hi|Hi]; [now apply Hin|].
    rewrite (sumn_ext Np _ (fun b => ment (mass k) a b * nth b x 0)); [now apply Hsol|]. intros b Hb. rewrite (Hout Hi b). unfold R1, set_col. cbn [ment]. rewrite Nat.eqb_refl. reflexivity.
  - intros Hno a. rewrite Hout by (intro; apply Hno; now right). unfold R1, set_col. cbn [ment]. rewrite (proj2 (Nat.eqb_neq k' k)); [reflexivity|]. intros ->. apply Hno. now left.
Qed.
Lemma mass_inverse_ok (M : mat R) : shape M Np K -> exists R', mass_inverse E tri V J (cc_chol cc) curved M = Ok R' /\ shape R' Np K /\
  forall k a, (k < K)%nat -> (a < Np)%nat -> sumn Np (fun b => ment (mass k) a b * ment R' b k) = ment M a k.
Proof.
  intros SM. destruct (ct_V _ _ _ _ _ _ _ _ _ _ _ _ HT) as (V1 & V2). destruct (ct_J _ _ _ _ _ _ _ _ _ _ _ _ HT) as (J1 & J2). assert (SM' := SM). destruct SM' as (M1 & M2).
  set (R0 := mmul E (mmul E V (mtrans V)) (mzip (fdiv E) M J)).
  destruct (each_cols M SM curved R0 (fun _ H => H)) as (R' & E' & S' & H'); [split; [exact V1|exact M2]|]. exists R'. split; [exact E'|]. split; [exact S'|].
  intros k a Hk Ha. destruct (H' k Hk) as (Hin & Hout). destruct (in_dec Nat.eq_dec k curved) as [Hi|Hi]; [now apply Hin|].
  destruct (ct_straight _ _ _ _ _ _ _ _ _ _ _ _ HT k Hk Hi) as (j & Hj & HJ & HI).
  rewrite (sumn_ext Np _ (fun b => sumn Np (fun c => ment M c k / j * (ment (mass k) a b * sumn Np (fun l => ment V b l * ment V c l))))).
  2:{ intros b Hb. rewrite (Hout Hi b). unfold R0. cbn [mmul mtrans mzip ment mrows mcols]. rewrite fsum_exact, V1. change (fmul E) with Rmult. change (fdiv E) with Rdiv.
      rewrite <- sumn_scal. apply sumn_ext. intros c Hc. rewrite fsum_exact, V2, (HJ c Hc). change (fmul E) with Rmult. ring. }
  rewrite sumn_swap. rewrite (sumn_ext Np _ (fun c => if (c =? a)%nat then ment M c k else 0)).
  2:{ intros c Hc. rewrite sumn_scal, (HI a c Ha Hc), Nat.eqb_sym. destruct (Nat.eqb_spec c a); [field; exact Hj|ring]. }
  apply (sumn_if Np a (fun c => ment M c k)). exact Ha.
Qed.
(* the mass matrices determine what they are multiplied with *)
Lemma upper_zero (U : mat R) (x : nat -> R) : (forall i j, (j < i < Np)%nat -> ment U i j = 0) -> (forall i, (i < Np)%nat -> ment U i i <> 0) ->
  (forall i, (i < Np)%nat -> sumn Np (fun j => ment U i j * x j) = 0) -> forall i, (i < Np)%nat -> x i = 0.
Proof.
  intros HU Hd Hs. assert (H : forall d i, (i < Np)%nat -> (Np - i <= d)%nat -> x i = 0); [|intros i Hi; apply (H Np i Hi); lia].
  induction d as [|d IH]; intros i Hi Hdi; [lia|].
  pose proof (Hs i Hi) as X. rewrite (sumn_pick Np _ i Hi) in X.
  - apply Rmult_integral in X as [X|X]; [now apply Hd in X|exact X].
  - intros k Hk Hn. destruct (Nat.lt_ge_cases k i) as [L|L]; [rewrite HU by lia; ring|]. rewrite (IH k Hk) by lia. ring.
Qed.
Lemma mass_injective k (x : nat -> R) : (forall k, (k < K)%nat -> forall a b, (a < Np)%nat -> (b < Np)%nat -> ment (mass k) a b = ment (mass k) b a) -> (k < K)%nat ->
  (forall a, (a < Np)%nat -> sumn Np (fun b => ment (mass k) a b * x b) = 0) -> forall i, (i < Np)%nat -> x i = 0.
Proof.
  intros Hsym Hk H0. destruct (in_dec Nat.eq_dec k curved) as [Hi|Hi].
  - destruct (ct_curved _ _ _ _ _ _ _ _ _ _ _ _ HT k Hk Hi) as (U & _ & (_ & HU & HC) & Hd).
    set (y := fun i => sumn Np (fun b => ment U i b * x b)).
    assert (Hy : sumn Np (fun i => y i * y i) = 0).
    { transitivity (sumn Np (fun a => x a * sumn Np (fun b => ment (mass k) a b * x b))).
      - symmetry. rewrite (sumn_ext Np _ (fun a => sumn Np (fun i => ment U i a * x a * y i))).
        + rewrite sumn_swap. apply sumn_ext. intros i _. unfold y at 2. rewrite Rmult_comm, <- sumn_scal. apply sumn_ext. intros; ring.
        + intros a Ha. rewrite (sumn_ext Np _ (fun b => sumn Np (fun i => ment U i a * (ment U i b * x b)))).
          * rewrite sumn_swap, <- sumn_scal. apply sumn_ext. intros i _. rewrite sumn_scal. unfold y. ring.
          * intros b Hb. rewrite <- (HC a b Ha Hb), Rmult_comm, <- sumn_scal. apply sumn_ext. intros; ring.
      - apply sumn_zero. intros a Ha. rewrite H0 by exact Ha. ring. }
    apply (upper_zero U x HU Hd). intros i Hii. fold (y i).
    pose proof (CubMeshProofs.sumn_nonneg_zero Np (fun i => y i * y i) (fun i _ => Rle_0_sqr (y i)) Hy i Hii) as X. cbv beta in X. apply Rmult_integral in X as [X|X]; exact X.
  - destruct (ct_straight _ _ _ _ _ _ _ _ _ _ _ _ HT k Hk Hi) as (j & Hj & _ & HI). intros c Hc.
    apply (Rmult_eq_reg_l j); [|exact Hj]. rewrite Rmult_0_r.
    transitivity (sumn Np (fun a => sumn Np (fun l => ment V a l * ment V c l) * sumn Np (fun b => ment (mass k) a b * x b))); [|apply sumn_zero; intros a Ha; rewrite H0 by exact Ha; ring].
    rewrite (sumn_ext Np _ (fun a => sumn Np (fun b => x b * (ment (mass k) b a * sumn Np (fun l => ment V a l * ment V c l))))).
    2:{ intros a Ha. rewrite <- sumn_scal. apply sumn_ext. intros b Hb. rewrite (Hsym k Hk a b Ha Hb). ring. }
    rewrite sumn_swap. rewrite (sumn_ext Np _ (fun b => if (b =? c)%nat then j * x b else 0)).
    2:{ intros b Hb. rewrite sumn_scal, (HI b c Hb Hc). destruct (Nat.eqb_spec b c); ring. }
    symmetry. apply (sumn_if Np c (fun b => j * x b)). exact Hc.
Qed.

Section Field.
Variables (g CD f : R) (zx zy : mat R) (q : four (mat R)).
Hypothesis Hq : four_conform q Np K = true.
Local Notation own p := (fmap4 (fun m => nth p (flattenF (mmul E (gf_interp gf) m)) 0) q).
Local Notation state := (gauss_state Np NG gf q).
Local Notation far := (far_state Np NG gf gmapP mapW q).
Local Notation P := (partner gmapP).
Local Notation lengths x l := (length (q_h x) = l /\ length (q_hu x) = l /\ length (q_hv x) = l /\ length (q_hN x) = l).
Lemma q_shapes : shape (q_h q) Np K /\ shape (q_hu q) Np K /\ shape (q_hv q) Np K /\ shape (q_hN q) Np K.
Proof. clear HT. unfold four_conform, conform in Hq. rewrite !andb_true_iff, !Nat.eqb_eq in Hq. unfold shape. intuition. Qed.
Lemma gauss_flat m : shape m Np K -> length (flattenF (mmul E (gf_interp gf) m)) = n /\
  forall p, (p < n)%nat -> nth p (flattenF (mmul E (gf_interp gf) m)) 0 = sumn Np (fun a => ment (gf_interp gf) (p mod (3 * NG)) a * ment m a (p / (3 * NG))).
Proof.
  intros (M1 & M2). destruct (ct_interp _ _ _ _ _ _ _ _ _ _ _ _ HT) as (I1 & I2). split.
  - rewrite flattenF_len. cbn [mmul mrows mcols]. rewrite I1, M2. reflexivity.
  - intros p Hp. rewrite flattenF_at by (cbn [mmul mrows mcols]; rewrite I1, M2; exact Hp). cbn [mmul mrows ment]. rewrite I1, fsum_exact, I2. reflexivity.
Qed.
Lemma own_state p : (p < n)%nat -> cell_of (own p) = state p.
Proof.
  intro Hp. destruct q_shapes as (S0 & S1 & S2 & S3). unfold cell_of, fmap4, gauss_state, interpolated. cbn [q_h q_hu q_hv q_hN].
  rewrite (proj2 (gauss_flat _ S0) p Hp), (proj2 (gauss_flat _ S1) p Hp), (proj2 (gauss_flat _ S2) p Hp), (proj2 (gauss_flat _ S3) p Hp). reflexivity.
Qed.
Lemma gather_ok (idx : list nat) : (forall i, In i idx -> (i < n)%nat) -> exists q', bind4 (fun v => take E v idx) (fmap4 (fun m => flattenF (mmul E (gf_interp gf) m)) q) = Ok q' /\
  lengths q' (length idx) /\ forall p, (p < length idx)%nat -> nth4 E q' p = own (nth p idx 0%nat).
Proof.
  intro Hi. destruct q_shapes as (S0 & S1 & S2 & S3). unfold bind4, fmap4. cbn [q_h q_hu q_hv q_hN].
  assert (T : forall m, shape m Np K -> take E (flattenF (mmul E (gf_interp gf) m)) idx = Ok (map (fun i => nth i (flattenF (mmul E (gf_interp gf) m)) 0) idx)).
  { intros m Sm. apply take_ok. intros i Hin. rewrite (proj1 (gauss_flat m Sm)). auto. }
  rewrite (T _ S0). cbn [bind]. rewrite (T _ S1). cbn [bind]. rewrite (T _ S2). cbn [bind]. rewrite (T _ S3). cbn [bind].
  eexists. split; [reflexivity|]. cbn [q_h q_hu q_hv q_hN]. split; [rewrite !map_length; auto|]. intros p Hp. unfold nth4, fmap4. cbn [q_h q_hu q_hv q_hN]. change (fofn E 0) with 0.
  assert (X : forall l : list R, nth p (map (fun i => nth i l 0) idx) 0 = nth (nth p idx 0%nat) l 0).
  { intro l. rewrite (nth_indep _ 0 ((fun i => nth i l 0) 0%nat)) by (rewrite map_length; exact Hp). rewrite (map_nth (fun i => nth i l 0)). reflexivity. }
  rewrite !X. reflexivity.
Qed.
Lemma normal_flat m : In m [gf_nx gf; gf_ny gf; gf_W gf] -> length (flattenF m) = n /\ forall p, (p < n)%nat -> nth p (flattenF m) 0 = gauss_at NG m p.
Proof.
  intro Hm. destruct (ct_gauss _ _ _ _ _ _ _ _ _ _ _ _ HT m Hm) as (N1 & N2). split; [rewrite flattenF_len, N1, N2; reflexivity|].
  intros p Hp. rewrite flattenF_at by (rewrite N1, N2; exact Hp). rewrite N1. reflexivity.
Qed.
Lemma reflect_ok qM qP : lengths qM n -> lengths qP n -> (forall p, (p < n)%nat -> nth4 E qM p = own p) -> (forall p, (p < n)%nat -> nth4 E qP p = own (P p)) ->
  exists qP', reflect E mapW (flattenF (gf_nx gf)) (flattenF (gf_ny gf)) qM qP = Ok qP' /\ lengths qP' n /\ forall p, (p < n)%nat -> cell_of (nth4 E qP' p) = far p.
Proof.
  intros (M0 & M1 & M2 & M3) (P0 & P1 & P2 & P3) HM HP. destruct (normal_flat (gf_nx gf)) as (LX & NX); [now left|]. destruct (normal_flat (gf_ny gf)) as (LY & NY); [now right; left|].
  unfold reflect. rewrite (proj2 (forallb_forall _ _)).
  2:{ intros i Hi. destruct (ct_wall _ _ _ _ _ _ _ _ _ _ _ _ HT i Hi) as (Hl & _). rewrite LX, P1. now rewrite (proj2 (Nat.ltb_lt _ _) Hl). }
  eexists. split; [reflexivity|]. cbn [q_h q_hu q_hv q_hN]. split; [rewrite !map_length, !seq_length; auto|]. intros p Hp.
  unfold nth4, fmap4, cell_of. cbn [q_h q_hu q_hv q_hN]. rewrite P1, P2. change (fofn E 0) with 0.
  rewrite (nth_map_seq (fun i => if existsb (Nat.eqb i) mapW then _ else nth i (q_hu qP) 0) n p 0 Hp), (nth_map_seq (fun i => if existsb (Nat.eqb i) mapW then _ else nth i (q_hv qP) 0) n p 0 Hp).
  pose proof (HM p Hp) as XM. pose proof (HP p Hp) as XP. unfold far_state. destruct (existsb (Nat.eqb p) mapW) eqn:Ew.
  - apply existsb_exists in Ew as (p' & Hin & Epp). apply Nat.eqb_eq in Epp. subst p'. destruct (ct_wall _ _ _ _ _ _ _ _ _ _ _ _ HT p Hin) as (_ & Hself). rewrite Hself in XP.
    rewrite (NX p Hp), (NY p Hp). pose proof (mirrored_ok G (own p) (gauss_n NG gf p)) as X. rewrite <- XM in X. unfold nth4 in X. cbn [fmap4 q_hu q_hv] in X. change (fofn E 0) with 0 in X. cbn [gauss_n fst snd] in X.
    pose proof (f_equal fst X) as X1. pose proof (f_equal snd X) as X2. cbv beta delta [fst] iota in X1. cbv beta delta [snd] iota in X2. rewrite X1, X2. fold (nth4 E qM p). rewrite <- (own_state p Hp). unfold mirror4.
    assert (Y0 : nth p (q_h qP) 0 = nth p (q_h qM) 0) by (pose proof (f_equal q_h XP) as Y; pose proof (f_equal q_h XM) as Y'; cbn [nth4 fmap4 q_h] in Y, Y'; change (fofn E 0) with 0 in Y, Y'; congruence).
    assert (Y3 : nth p (q_hN qP) 0 = nth p (q_hN qM) 0) by (pose proof (f_equal q_hN XP) as Y; pose proof (f_equal q_hN XM) as Y'; cbn [nth4 fmap4 q_hN] in Y, Y'; change (fofn E 0) with 0 in Y, Y'; congruence).
    rewrite Y0, Y3, <- XM. reflexivity.
  - rewrite <- own_state, <- XP by (destruct (ct_mapP _ _ _ _ _ _ _ _ _ _ _ _ HT) as (L & H); apply H, nth_In; lia). reflexivity.
Qed.
Lemma flux_vec_at (fl : four R -> R) x p : lengths x n -> (p < n)%nat -> length (fluxes_vec E fl x) = n /\ nth p (fluxes_vec E fl x) 0 = fl (nth4 E x p).
Proof. intros (L & _) Hp. unfold fluxes_vec. rewrite L. split; [now rewrite map_length, seq_length|]. apply (nth_map_seq (fun i => fl (nth4 E x i))). exact Hp. Qed.
Lemma div_pos j k : (j < 3 * NG)%nat -> ((j + 3 * NG * k) mod (3 * NG) = j /\ (j + 3 * NG * k) / (3 * NG) = k)%nat.
Proof.
  intro Hj. rewrite (Nat.mul_comm (3 * NG) k). split; [rewrite Nat.mod_add by lia; apply Nat.mod_small; exact Hj|]. rewrite Nat.div_add by lia. rewrite Nat.div_small by exact Hj. reflexivity.
Qed.
Lemma weak_sides_ok c qM qP (lam : list R) : (c < 4)%nat -> lengths qM n -> lengths qP n -> (forall p, (p < n)%nat -> cell_of (nth4 E qM p) = state p) -> (forall p, (p < n)%nat -> cell_of (nth4 E qP p) = far p) ->
  exists S, weak_sides E g gf c qM qP (mkmat (3 * NG) K (fun i k => nth (i + 3 * NG * k)%nat lam 0)) K (3 * NG) = Ok S /\ shape S Np K /\
  forall a k, (k < K)%nat -> ment S a k = sumn (3 * NG) (fun j => ment (gf_interp gf) j a * (ment (gf_W gf) j k * rusanov4 g c (gauss_n NG gf (j + 3 * NG * k)) (nth (j + 3 * NG * k)%nat lam 0) (state (j + 3 * NG * k)%nat) (far (j + 3 * NG * k)%nat))).
Proof.
  intros Hc LM LP HM HP. destruct (ct_interp _ _ _ _ _ _ _ _ _ _ _ _ HT) as (I1 & I2). destruct (ct_gauss _ _ _ _ _ _ _ _ _ _ _ _ HT (gf_W gf) ltac:(cbn; auto)) as (W1 & W2).
  assert (Lp : forall x : four (list R), lengths x n -> length (pick c x) = n) by (intros x (A0 & A1 & A2 & A3); destruct c as [|[|[|]]]; assumption).
  unfold weak_sides. rewrite reshape_ok by (rewrite RKProofs.zipw_length by (rewrite !Lp; auto); auto). cbn [bind].
  assert (Lf : forall fl (x : four (list R)), lengths x n -> length (fluxes_vec E fl x) = n) by (intros fl x (A0 & _); unfold fluxes_vec; rewrite map_length, seq_length; exact A0).
  do 4 (rewrite reshape_ok by auto; cbn [bind]). eexists. split; [reflexivity|]. split; [split; [exact I2|exact W2]|].
  intros a k Hk. cbn [mmul mtrans mzip ment mcols mrows]. rewrite fsum_exact, I1. apply sumn_ext. intros j Hj. change (fmul E) with Rmult. f_equal. f_equal.
  assert (Hp : (j + 3 * NG * k < n)%nat) by nia. rewrite !(proj2 (flux_vec_at _ _ _ LM Hp)), !(proj2 (flux_vec_at _ _ _ LP Hp)).
  rewrite (RKProofs.zipw_nth (fsub E)) by (rewrite ?Lp; auto). 
  rewrite <- (HM _ Hp), <- (HP _ Hp). rewrite <- (weak_flux_ok G g c _ _ _ _ Hc). destruct (div_pos j k Hj) as (D1 & D2).
  unfold gauss_n, gauss_at. rewrite D1, D2. cbn [fst snd]. f_equal. change (fsub E) with Rminus.
  assert (Lk : forall x : four (list R), nth (j + 3 * NG * k) (pick c x) 0 = pick c (nth4 E x (j + 3 * NG * k))) by (intro x; destruct c as [|[|[|]]]; reflexivity). rewrite !Lk. reflexivity.
Qed.
Lemma cub_state_at i k : cell_of (at4 (fmap4 (mmul E (cc_V cc)) q) i k) = cub_state Np cc q i k.
Proof.
  destruct (ct_cub _ _ _ _ _ _ _ _ _ _ _ _ HT (cc_V cc) ltac:(cbn; auto)) as (V1 & V2).
  unfold cell_of, at4, fmap4, cub_state, interpolated. cbn [q_h q_hu q_hv q_hN mmul ment]. rewrite !fsum_exact, V2. reflexivity.
Qed.
Lemma weak_volume_ok c : (c < 4)%nat -> let qc := fmap4 (mmul E (cc_V cc)) q in let M := weak_volume E cc (fluxes_mat (flux_F E g c) qc) (fluxes_mat (flux_G E g c) qc) in
  shape M Np K /\ forall k phi, (k < K)%nat -> sumn Np (fun a => phi a * ment M a k) = volume_term Np cc q g c k phi.
Proof.
  intros Hc qc M. destruct (ct_cub _ _ _ _ _ _ _ _ _ _ _ _ HT (cc_Dr cc) ltac:(cbn; auto)) as (R1 & R2). destruct (ct_cub _ _ _ _ _ _ _ _ _ _ _ _ HT (cc_Ds cc) ltac:(cbn; auto)) as (S1 & S2).
  destruct (ct_met _ _ _ _ _ _ _ _ _ _ _ _ HT (cc_W cc) ltac:(cbn; auto)) as (W1 & W2). split; [split; [exact R2|exact W2]|].
  intros k phi Hk. unfold M, weak_volume. cbn [mzip mmul mtrans ment mcols mrows].
  rewrite (sumn_ext Np _ (fun a => sumn (cc_n cc) (fun i => ment (cc_W cc) i k * (phi a * (ment (cc_Dr cc) i a * (ment (g_rx (cc_metric cc)) i k * flux_F E g c (at4 qc i k) + ment (g_ry (cc_metric cc)) i k * flux_G E g c (at4 qc i k)) +
     ment (cc_Ds cc) i a * (ment (g_sx (cc_metric cc)) i k * flux_F E g c (at4 qc i k) + ment (g_sy (cc_metric cc)) i k * flux_G E g c (at4 qc i k))))))).
  2:{ intros a Ha. rewrite !fsum_exact, R1, S1. change (fadd E) with Rplus. change (fmul E) with Rmult. rewrite Rmult_plus_distr_l, <- !sumn_scal, <- sumn_plus. apply sumn_ext. intros i Hi. unfold fluxes_mat. cbn [ment]. ring. }
  rewrite sumn_swap. unfold volume_term. apply sumn_ext. intros i Hi. rewrite sumn_scal. f_equal. rewrite <- cub_state_at. unfold cub_gradient. fold qc. rewrite <- (flux_through G g c _ _ _ Hc).
  set (FF := flux_F E g c (at4 qc i k)). set (GG := flux_G E g c (at4 qc i k)).
  rewrite (sumn_ext Np _ (fun a => (ment (g_rx (cc_metric cc)) i k * FF + ment (g_ry (cc_metric cc)) i k * GG) * (ment (cc_Dr cc) i a * phi a) + (ment (g_sx (cc_metric cc)) i k * FF + ment (g_sy (cc_metric cc)) i k * GG) * (ment (cc_Ds cc) i a * phi a))) by (intros; ring).
  rewrite sumn_plus, !sumn_scal. ring.
Qed.
Lemma conform_shape (m : mat R) r c : shape m r c -> conform m r c = true.
Proof. intros (<- & <-). unfold conform. now rewrite !Nat.eqb_refl. Qed.
Lemma tables_conform : curved_conform V J cc gf Np K (cc_n cc) (3 * NG) = true.
Proof.
  pose proof (ct_V _ _ _ _ _ _ _ _ _ _ _ _ HT). pose proof (ct_J _ _ _ _ _ _ _ _ _ _ _ _ HT). pose proof (ct_cub _ _ _ _ _ _ _ _ _ _ _ _ HT) as HC. pose proof (ct_met _ _ _ _ _ _ _ _ _ _ _ _ HT) as HM.
  pose proof (ct_gauss _ _ _ _ _ _ _ _ _ _ _ _ HT) as HG. pose proof (ct_interp _ _ _ _ _ _ _ _ _ _ _ _ HT) as HI.
  unfold curved_conform. rewrite !andb_true_iff. repeat split; apply conform_shape; first [assumption|apply HC; cbn; tauto|apply HM; cbn; tauto|apply HG; cbn; tauto].
Qed.
Lemma source_ok c R0 a k : (c < 4)%nat -> ment (pick c (add_sources E rhypot g CD f q zx zy R0)) a k = ment (pick c R0) a k + source4 g CD f (ment zx a k) (ment zy a k) c (node_state q a k).
Proof.
  intro Hc. unfold add_sources, source4, node_state. destruct c as [|[|[|[|]]]]; [| | | |lia]; cbn [pick q_h q_hu q_hv q_hN fst snd].
  - ring.
  - unfold with_source, py_source_x, rhypot. cbn [ment exact fadd fsub fmul fdiv]. ring.
  - unfold with_source, py_source_y, rhypot. cbn [ment exact fadd fsub fmul fdiv]. ring.
  - ring.
Qed.
Theorem curved_run : conform zx Np K = true -> conform zy Np K = true ->
  exists z, curved_rhs E rhypot tri V J cc gf curved gmapM gmapP g CD f zx zy q = Ok z /\ four_conform z Np K = true /\
    weak_scheme Np K NG cc gf gmapP mapW q mass g CD f zx zy z.
Proof.
  intros Hx Hy. unfold curved_rhs. destruct (ct_V _ _ _ _ _ _ _ _ _ _ _ _ HT) as (V1 & V2). destruct (ct_J _ _ _ _ _ _ _ _ _ _ _ _ HT) as (J1 & J2).
  destruct (ct_gauss _ _ _ _ _ _ _ _ _ _ _ _ HT (gf_nx gf) ltac:(cbn; auto)) as (N1 & N2). rewrite V1, J2, N1, tables_conform, Hq, Hx, Hy. cbn [andb require].
  rewrite (ct_walls _ _ _ _ _ _ _ _ _ _ _ _ HT). pose proof (ct_some _ _ _ _ _ _ _ _ _ _ _ _ HT) as HNG.
  destruct (gather_ok gmapM) as (qM & EM & LM & HM). { intros i Hi. rewrite (ct_mapM _ _ _ _ _ _ _ _ _ _ _ _ HT) in Hi. apply in_seq in Hi. lia. }
  destruct (gather_ok gmapP) as (qP & EP & LP & HP); [apply (ct_mapP _ _ _ _ _ _ _ _ _ _ _ _ HT)|]. rewrite EM, EP. cbn [bind].
  rewrite (ct_mapM _ _ _ _ _ _ _ _ _ _ _ _ HT), seq_length in LM, HM. rewrite (proj1 (ct_mapP _ _ _ _ _ _ _ _ _ _ _ _ HT)) in LP, HP.
  assert (HM' : forall p, (p < n)%nat -> nth4 E qM p = own p) by (intros p Hp; rewrite HM by exact Hp; rewrite seq_nth by exact Hp; reflexivity). clear HM.
  assert (HPl : forall p, (p < n)%nat -> (P p < n)%nat) by (intros p Hp; destruct (ct_mapP _ _ _ _ _ _ _ _ _ _ _ _ HT) as (L & H); apply H, nth_In; lia).
  destruct (reflect_ok qM qP LM LP HM' HP) as (qP' & ER & LP' & HP'). rewrite ER. cbn [bind].
  replace (3 * NG / 3)%nat with NG by (rewrite (Nat.mul_comm 3), Nat.div_mul; lia).
  set (spd := zipw (fmax E) (speeds_of E g qM) (speeds_of E g qP)).
  assert (Lsp : forall x : four (list R), lengths x n -> length (speeds_of E g x) = n) by (intros x (A & _); unfold speeds_of; rewrite map_length, seq_length; exact A).
  assert (Ls : length spd = n) by (unfold spd; rewrite RKProofs.zipw_length by (rewrite !Lsp; auto); auto).
  assert (Hs : forall p, (p < n)%nat -> nth p spd 0 = Rmax (wave_speed g (fst (state p))) (wave_speed g (fst (state (P p))))).
  { intros p Hp. unfold spd. rewrite (RKProofs.zipw_nth (fmax E)) by (rewrite ?Lsp; auto). rewrite fmax_E.
    assert (X : forall x : four (list R), lengths x n -> nth p (speeds_of E g x) 0 = wave_speed g (fst (cell_of (nth4 E x p)))).
    { intros x (A & _). unfold speeds_of. rewrite A. apply (nth_map_seq (fun i => let x0 := nth4 E x i in speed E g (q_h x0) (q_hu x0) (q_hv x0))). exact Hp. }
    rewrite (X qM LM), (X qP LP), HM', HP by auto. change (nth p gmapP 0%nat) with (P p). rewrite !own_state by auto. reflexivity. }
  destruct (side_max_ok G NG spd HNG) as (lam & El & Ll & Hl). rewrite El. cbn [bind]. rewrite (Nat.mul_comm NG 3).
  rewrite reshape_ok by (rewrite Ll, Ls; reflexivity). cbn [bind].
  assert (Hlam : forall p, (p < n)%nat -> side_speed Np K NG gf gmapP q g p (nth p lam 0)).
  { intros p Hp. assert (Hb : (NG * (p / NG) + (NG - 1) < length spd)%nat).
    { rewrite Ls. assert (p / NG < 3 * K)%nat by (apply Nat.div_lt_upper_bound; nia). nia. }
    rewrite <- Ls in Hp. destruct (Hl p Hp Hb) as ((p' & Hp' & Hd & Hv) & Hmax). rewrite Ls in *. split.
    - exists p'. split; [exact Hp'|]. split; [exact Hd|]. rewrite Hv, Hs by exact Hp'. unfold Rmax. destruct (Rle_dec _ _); auto.
    - intros v (p2 & Hp2 & Hd2 & Hv2). apply Rle_trans with (nth p2 spd 0); [|apply Hmax; exists p2; auto].
      rewrite Hs by exact Hp2. destruct Hv2 as [-> | ->]; [apply Rmax_l|apply Rmax_r]. }
  set (L := mkmat (3 * NG) K (fun i k => nth (i + 3 * NG * k)%nat lam 0)).
  assert (Hcomp : forall c, (c < 4)%nat -> exists R',
     bind (weak_sides E g gf c qM qP' L K (3 * NG)) (fun S => mass_inverse E tri V J (cc_chol cc) curved (mzip (fsub E) (weak_volume E cc (fluxes_mat (flux_F E g c) (fmap4 (mmul E (cc_V cc)) q)) (fluxes_mat (flux_G E g c) (fmap4 (mmul E (cc_V cc)) q))) S)) = Ok R' /\ shape R' Np K /\
     forall k phi, (k < K)%nat -> sumn Np (fun a => sumn Np (fun b => phi a * ment (mass k) a b * ment R' b k)) =
       volume_term Np cc q g c k phi - side_terms Np NG gf (fun p => rusanov4 g c (gauss_n NG gf p) (nth p lam 0) (state p) (far p)) k phi).
  { intros c Hc. destruct (weak_sides_ok c qM qP' lam Hc LM LP') as (S & ES & SS & HS); [intros p Hp; rewrite HM', own_state by exact Hp; reflexivity|exact HP'|]. fold L in ES. rewrite ES. cbn [bind].
    destruct (weak_volume_ok c Hc) as (SV & HV). cbv zeta in SV, HV. set (M := weak_volume E cc _ _) in *.
    destruct (mass_inverse_ok (mzip (fsub E) M S)) as (R' & E' & S' & H'); [split; [exact (proj1 SV)|exact (proj2 SV)]|]. exists R'. split; [exact E'|]. split; [exact S'|].
    intros k phi Hk. rewrite (sumn_ext Np _ (fun a => phi a * ment M a k + -1 * (phi a * ment S a k))).
    2:{ intros a Ha. transitivity (phi a * sumn Np (fun b => ment (mass k) a b * ment R' b k)); [rewrite <- sumn_scal; apply sumn_ext; intros; ring|]. rewrite (H' k a Hk Ha). cbn [mzip ment]. change (fsub E) with Rminus. ring. }
    rewrite sumn_plus, sumn_scal, (HV k phi Hk). unfold Rminus. f_equal. transitivity (- (sumn Np (fun a => phi a * ment S a k))); [ring|]. f_equal. unfold side_terms.
    rewrite (sumn_ext Np _ (fun a => sumn (3 * NG) (fun j => ment (gf_W gf) j k * rusanov4 g c (gauss_n NG gf (j + 3 * NG * k)) (nth (j + 3 * NG * k)%nat lam 0) (state (j + 3 * NG * k)%nat) (far (j + 3 * NG * k)%nat) * (ment (gf_interp gf) j a * phi a)))).
    2:{ intros a Ha. rewrite (HS a k Hk), <- sumn_scal. apply sumn_ext. intros; ring. }
    rewrite sumn_swap. apply sumn_ext. intros j Hj. rewrite sumn_scal. unfold gauss_value. ring. }
  destruct (Hcomp 0%nat ltac:(lia)) as (R0 & E0 & S0 & H0). destruct (Hcomp 1%nat ltac:(lia)) as (R1 & E1 & S1 & H1). destruct (Hcomp 2%nat ltac:(lia)) as (R2 & E2 & S2 & H2). destruct (Hcomp 3%nat ltac:(lia)) as (R3 & E3 & S3 & H3).
  rewrite E0. cbn [bind]. rewrite E1. cbn [bind]. rewrite E2. cbn [bind]. rewrite E3. cbn [bind].
  eexists. split; [reflexivity|]. split.
  - unfold four_conform, add_sources. cbn [q_h q_hu q_hv q_hN]. rewrite !andb_true_iff. repeat split; apply conform_shape; first [assumption|split; cbn [with_source mrows mcols]; first [apply S1|apply S2]].
  - intros c Hc. exists (fun p => rusanov4 g c (gauss_n NG gf p) (nth p lam 0) (state p) (far p)). split.
    + intros p Hp. exists (nth p lam 0). split; [apply Hlam, Hp|reflexivity].
    + intros k phi Hk. rewrite (sumn_ext Np _ (fun a => sumn Np (fun b => phi a * ment (mass k) a b * ment (pick c (Four R0 R1 R2 R3)) b k))).
      2:{ intros a Ha. apply sumn_ext. intros b Hb. rewrite source_ok by exact Hc. ring. }
      destruct c as [|[|[|[|]]]]; [| | | |lia]; cbn [pick q_h q_hu q_hv q_hN]; auto.
Qed.
End Field.
End Run.
