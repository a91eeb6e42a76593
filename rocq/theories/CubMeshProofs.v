(* CubMeshProofs.v - proofs about buildCubatureVolumeMesh. *)
From Coq Require Import ZArith List Lia Bool Arith.
From Verif Require Import Base Loops FoldProofs Num JacobiModel JacobiSpec JacobiQuadProofs JacobiProofs Nodes1DModel Nodes1DSpec Nodes1DExactProofs DenseSpec TriModel TriSpec TriGeoSpec TriSetup TriProofs TriBasisProofs
  TriOpProofs TriLiftProofs TriNodesProofs TriGeoProofs TriElemProofs TriDGSpec TriDGProofs TriProps JacobiOrthProofs CubModel CubSpec CubProps GaussFaceSpec CubMeshModel CubMeshSpec.
From Coq Require Import Reals Lra.
Import ListNotations.
Local Open Scope R_scope.

(* ---- more rows than columns: the rows are dependent ---- *)
Definition skip (p i : nat) : nat := if (i <? p)%nat then i else S i.
Lemma sumn_skip f p : forall n, (p < n)%nat -> sumn n f = f p + sumn (n - 1) (fun i => f (skip p i)).
Proof.
  induction n as [|n IH]; [lia|]. intro Hp. rewrite sumn_S. replace (S n - 1)%nat with n by lia.
  destruct (Nat.eq_dec p n) as [->|Hn].
  - rewrite Rplus_comm. f_equal. apply sumn_ext. intros i Hi. unfold skip. destruct (Nat.ltb_spec i n); [reflexivity|lia].
  - rewrite IH by lia. destruct n as [|n]; [lia|]. replace (S n - 1)%nat with n by lia. rewrite sumn_S. unfold skip at 3. destruct (Nat.ltb_spec n p); [lia|]. ring.
Qed.
Lemma dependence : forall m n (a : nat -> nat -> R), (m < n)%nat ->
  exists c, (exists i, (i < n)%nat /\ c i <> 0) /\ forall j, (j < m)%nat -> sumn n (fun i => c i * a i j) = 0.
Proof.
  induction m as [|m IH]; intros n a Hn.
  - exists (fun _ => 1). split; [exists 0%nat; split; [lia|lra]|]. intros; lia.
  - assert (Hdec : (exists p, (p < n)%nat /\ a p m <> 0) \/ forall p, (p < n)%nat -> a p m = 0).
    { clear - a. induction n as [|n [(p & Hp & Hx)|Hx]]; [right; intros; lia|left; exists p; split; [lia|exact Hx]|].
      destruct (Req_dec (a n m) 0) as [E|E]; [|left; exists n; split; [lia|exact E]]. right. intros p Hp. destruct (Nat.eq_dec p n) as [->|]; [exact E|apply Hx; lia]. }
    destruct Hdec as [(p & Hp & Hx)|Hx].
    + destruct (IH (n - 1)%nat (fun i j => a (skip p i) j - a (skip p i) m / a p m * a p j) ltac:(lia)) as (d & (i0 & Hi0 & Hd0) & Hd).
      set (q := sumn (n - 1) (fun i => d i * (a (skip p i) m / a p m))).
      exists (fun i => if (i =? p)%nat then - q else if (i <? p)%nat then d i else d (i - 1)%nat).
      assert (Hs : forall i, (skip p i =? p)%nat = false /\ (if (skip p i <? p)%nat then d (skip p i) else d (skip p i - 1)%nat) = d i).
      { intro i. unfold skip. destruct (Nat.ltb_spec i p).
        - split; [apply Nat.eqb_neq; lia|]. destruct (Nat.ltb_spec i p); [reflexivity|lia].
        - split; [apply Nat.eqb_neq; lia|]. destruct (Nat.ltb_spec (S i) p); [lia|]. f_equal. lia. }
      split.
      * exists (skip p i0). split; [unfold skip; destruct (i0 <? p)%nat; lia|]. destruct (Hs i0) as (E1 & E2). rewrite E1, E2. exact Hd0.
      * intros j Hj. rewrite (sumn_skip _ p n Hp), Nat.eqb_refl.
        rewrite (sumn_ext (n - 1) _ (fun i => d i * a (skip p i) j)) by (intros i _; destruct (Hs i) as (E1 & E2); rewrite E1, E2; reflexivity).
        assert (Hm : sumn (n - 1) (fun i => d i * a (skip p i) j) = sumn (n - 1) (fun i => d i * (a (skip p i) j - a (skip p i) m / a p m * a p j)) + a p j * q).
        { unfold q. rewrite <- sumn_scal, <- sumn_plus. apply sumn_ext. intros; ring. }
        rewrite Hm. destruct (Nat.eq_dec j m) as [->|Hne].
        -- rewrite (sumn_zero _ (fun i => d i * (a (skip p i) m - a (skip p i) m / a p m * a p m))) by (intros; field; exact Hx). ring.
        -- rewrite Hd by lia. ring.
    + destruct (IH n a ltac:(lia)) as (c & Hc & Hd). exists c. split; [exact Hc|]. intros j Hj. destruct (Nat.eq_dec j m) as [->|]; [|apply Hd; lia].
      apply sumn_zero. intros i Hi. rewrite Hx by exact Hi. ring.
Qed.

Lemma for_from_ok {St} (P : nat -> St -> Prop) (body : nat -> St -> outcome St) n : forall lo st st', P lo st ->
  (forall i a b, (lo <= i < lo + n)%nat -> P i a -> body i a = Ok b -> P (S i) b) -> for_from lo n body st = Ok st' -> P (lo + n)%nat st'.
Proof.
  induction n as [|n IH]; intros lo st st' H0 Hs Hr; cbn [for_from] in Hr.
  - injection Hr as <-. rewrite Nat.add_0_r. exact H0.
  - destruct (body lo st) as [a| |] eqn:Eb; try discriminate. cbn [bind] in Hr. replace (lo + S n)%nat with (S lo + n)%nat by lia. apply (IH (S lo) a st'); [eapply Hs; [lia|exact H0|exact Eb]| |exact Hr].
    intros i b c Hi. apply Hs. lia.
Qed.
Lemma for_ok {St} (P : nat -> St -> Prop) (body : nat -> St -> outcome St) n st st' : P 0%nat st ->
  (forall i a b, (i < n)%nat -> P i a -> body i a = Ok b -> P (S i) b) -> for_ n body st = Ok st' -> P n st'.
Proof. intros H0 Hs Hr. apply (for_from_ok P body n 0 st st' H0); [intros i a b Hi; apply Hs; lia|exact Hr]. Qed.

Section Cub.
Variables (G : R -> R) (solve : mat R -> mat R -> mat R -> outcome (mat R)) (inverse chol : mat R -> mat R -> outcome (mat R))
  (junk : nat -> nat -> R) (eps : R) (eig : nat -> (nat -> nat -> R) -> list R * (nat -> nat -> R)) (tol : R)
  (N K : nat) (Vert : list R) (EToV : list nat) (el : element (T := R)) (lit : Z -> R) (NC : nat) (junkc : nat -> R).
Hypothesis HR : cub_ready G solve inverse chol junk eps eig tol N K Vert EToV el lit NC.
Local Notation E := (exact G).
Local Notation P := (TriGeoSpec.corner Vert EToV).
Local Notation n := (length (e_r el)).
Local Notation image k := (cell_image Vert EToV k).
Local Notation area_ k := (cell_area Vert EToV k).
Local Notation run := (buildCubatureVolumeMesh E pow solve chol junk lit junkc (Z.of_nat NC) N K (e_V el) (e_Vinv el) (e_Dr el) (e_Ds el) (e_x el) (e_y el)).

Record cub_facts (cc : cub_mesh R) : Prop := CubFacts {
  cf_r : length (cc_r cc) = cc_n cc; cf_s : length (cc_s cc) = cc_n cc; cf_w : length (cc_w cc) = cc_n cc;
  cf_in : forall i, (i < cc_n cc)%nat -> inside (nth i (cc_r cc) 0) (nth i (cc_s cc) 0) /\ 0 < nth i (cc_w cc) 0;
  cf_rule : forall p, degree2 NC p -> exists v, triangle_integral (bary p) v /\ Rabs (rule_sum (cc_r cc) (cc_s cc) (cc_w cc) (bary p) - v) <= 2 / 100000000000000 * coefsum p;
  cf_V : shape (cc_V cc) (cc_n cc) n; cf_Dr : shape (cc_Dr cc) (cc_n cc) n; cf_Ds : shape (cc_Ds cc) (cc_n cc) n;
  cf_mV : maps_nodal N (cc_V cc) (e_r el) (e_s el) (cc_r cc) (cc_s cc) (fun p x y v => v = eval2 p x y);
  cf_mr : maps_nodal N (cc_Dr cc) (e_r el) (e_s el) (cc_r cc) (cc_s cc) (fun p => dr_is (eval2 p));
  cf_ms : maps_nodal N (cc_Ds cc) (e_r el) (e_s el) (cc_r cc) (cc_s cc) (fun p => ds_is (eval2 p));
  cf_metric : cc_metric cc = cub_metric E (cc_Dr cc) (cc_Ds cc) (e_x el) (e_y el);
  cf_x : cc_x cc = mmul E (cc_V cc) (e_x el); cf_y : cc_y cc = mmul E (cc_V cc) (e_y el);
  cf_W : shape (cc_W cc) (cc_n cc) K /\ forall i k, ment (cc_W cc) i k = nth i (cc_w cc) 0 * ment (g_J (cc_metric cc)) i k;
  cf_MM : length (cc_MM cc) = K /\ length (cc_chol cc) = K /\ forall k, (k < K)%nat -> exists M U, nth_error (cc_MM cc) k = Some M /\ nth_error (cc_chol cc) k = Some U /\
    shape M n n /\ (forall a b, (a < n)%nat -> (b < n)%nat -> ment M a b = sumn (cc_n cc) (fun i => ment (cc_W cc) i k * ment (cc_V cc) i a * ment (cc_V cc) i b)) /\ cholesky_of n M U;
  cf_nodal : cc_nodal cc = e_metric el;
  cf_many : (n <= cc_n cc)%nat }.

Lemma pts_inside (rs ss : list R) m : length rs = m -> length ss = m -> (forall i, (i < m)%nat -> inside (nth i rs 0) (nth i ss 0)) -> pts_ok rs ss.
Proof.
  intros L1 L2 Hi. split; [congruence|]. intros p Hp. apply (In_nth _ _ (0, 0)) in Hp as (i & Li & <-). rewrite combine_length in Li. rewrite combine_nth by congruence. cbn [fst snd].
  destruct (Hi i ltac:(lia)) as (H1 & H2 & H3). left. lra.
Qed.

Lemma maps_dr_at M r' s' : gamma_like G -> pts_ok r' s' ->
  (forall i c, (i < length r')%nat -> (c < length (modes N))%nat -> sumn n (fun m => ment M i m * bas G N c (nth m (e_r el) 0) (nth m (e_s el) 0)) = dbr G N c (nth i r' 0) (nth i s' 0)) ->
  maps_nodal N M (e_r el) (e_s el) r' s' (fun p => dr_is (eval2 p)).
Proof.
  intros HG Hp H p i D Hi. destruct (modal_ex G HG N p D) as (c & Hc). rewrite (row_modal G N p c _ _ (fun m => nth m (e_r el) 0) (fun m => nth m (e_s el) 0) Hc).
  rewrite (sumn_ext _ _ (fun k => c k * dbr G N k (nth i r' 0) (nth i s' 0))) by (intros k Hk; rewrite H by assumption; reflexivity).
  apply modal_dr; [exact HG|exact Hc|]. now apply pts_dom.
Qed.
Lemma maps_ds_at M r' s' : gamma_like G -> pts_ok r' s' ->
  (forall i c, (i < length r')%nat -> (c < length (modes N))%nat -> sumn n (fun m => ment M i m * bas G N c (nth m (e_r el) 0) (nth m (e_s el) 0)) = dbs G N c (nth i r' 0) (nth i s' 0)) ->
  maps_nodal N M (e_r el) (e_s el) r' s' (fun p => ds_is (eval2 p)).
Proof.
  intros HG Hp H p i D Hi. destruct (modal_ex G HG N p D) as (c & Hc). rewrite (row_modal G N p c _ _ (fun m => nth m (e_r el) 0) (fun m => nth m (e_s el) 0) Hc).
  rewrite (sumn_ext _ _ (fun k => c k * dbs G N k (nth i r' 0) (nth i s' 0))) by (intros k Hk; rewrite H by assumption; reflexivity).
  apply modal_ds; [exact HG|exact Hc|]. now apply pts_dom.
Qed.

(* what is computed before the weak matrices *)
Lemma cub_front : exists rs ss ws Vc Vr Vs, let m := length ws in
  NumCubaturePoints lit Rminus junkc (Z.of_nat NC) = Ok m /\ rCoord lit Rminus junkc (Z.of_nat NC) = Ok rs /\ sCoord lit Rminus junkc (Z.of_nat NC) = Ok ss /\ weights lit Rminus junkc (Z.of_nat NC) = Ok ws /\
  length rs = m /\ length ss = m /\
  (forall i, (i < m)%nat -> inside (nth i rs 0) (nth i ss 0) /\ 0 < nth i ws 0) /\
  (forall p, degree2 NC p -> exists v, triangle_integral (bary p) v /\ Rabs (rule_sum rs ss ws (bary p) - v) <= 2 / 100000000000000 * coefsum p) /\
  computeInterpMatrix E pow junk N (e_Vinv el) rs ss = Ok Vc /\ shape Vc m n /\ maps_nodal N Vc (e_r el) (e_s el) rs ss (fun p x y v => v = eval2 p x y) /\
  computeGradVandermonde2D E pow N rs ss (mkmat m (mrows (e_Vinv el)) junk) (mkmat m (mrows (e_Vinv el)) junk) = Ok (Vr, Vs) /\ shape Vr m n /\ shape Vs m n /\
  (forall i c, (i < m)%nat -> (c < n)%nat -> ment Vr i c = dbr G N c (nth i rs 0) (nth i ss 0) /\ ment Vs i c = dbs G N c (nth i rs 0) (nth i ss 0)).
Proof.
  destruct HR as [HB _ _ HL (H1 & H3 & H4)].
  destruct (C53_rules lit Rminus junkc HL NC H1 H3 H4) as (rs & ss & ws & X). cbv zeta in X. destruct X as (E1 & E2 & E3 & E4 & L1 & L2 & Hin & Hex).
  destruct (element_ok _ _ _ _ _ _ _ _ _ _ _ _ HB) as [lr ls nodes masks edge_i pts SV SVi V Vi Vi' SL lift D x metric nrm]. assert (HG : gamma_like G) by (destruct HB; assumption).
  assert (Hp : pts_ok rs ss) by (apply (pts_inside rs ss (length ws)); auto; intros i Hi; apply Hin; exact Hi).
  destruct (interp_ok G HG junk N (e_r el) (e_s el) lr (e_V el) V (e_Vinv el) SVi Vi rs ss Hp) as (Vc & EV & SVc & MV).
  destruct SVi as (I1 & I2).
  destruct (gvander2D_ok G HG N rs ss (mkmat (length ws) (mrows (e_Vinv el)) junk) (mkmat (length ws) (mrows (e_Vinv el)) junk) Hp (eq_sym L1) (eq_sym L1)) as (Vr & Vs & EG & SR & SS & HGr); [cbn [mcols]; lia|cbn [mcols]; lia|].
  exists rs, ss, ws, Vc, Vr, Vs. cbv zeta. cbn [mrows mcols] in SR, SS. rewrite I1 in SR, SS. rewrite lr. rewrite L1 in SVc, HGr.
  repeat (split; [assumption|]). exact HGr.
Qed.

Lemma diff_at Vr Vs Vc m rs ss D1 D2 D3 D4 : shape Vr m n -> shape Vs m n -> length rs = m -> pts_ok rs ss ->
  (forall i c, (i < m)%nat -> (c < n)%nat -> ment Vr i c = dbr G N c (nth i rs 0) (nth i ss 0) /\ ment Vs i c = dbs G N c (nth i rs 0) (nth i ss 0)) ->
  diff_matrices_at E solve junk Vr Vs (e_V el) Vc = Ok (D1, D2, D3, D4) ->
  (n <= m)%nat /\ shape D1 m n /\ shape D2 m n /\ maps_nodal N D1 (e_r el) (e_s el) rs ss (fun p => dr_is (eval2 p)) /\ maps_nodal N D2 (e_r el) (e_s el) rs ss (fun p => ds_is (eval2 p)).
Proof.
  intros (R1 & R2) (S1 & S2) Lr Hp HV Hd. destruct HR as [HB _ _ _ _].
  destruct (element_ok _ _ _ _ _ _ _ _ _ _ _ _ HB) as [lr ls nodes masks edge_i pts (V1 & V2) SVi V Vi Vi' SL lift D x metric nrm]. assert (HG : gamma_like G) by (destruct HB; assumption). assert (HS : solver_ok solve) by (destruct HB; assumption).
  unfold diff_matrices_at in Hd. rewrite V1, R1 in Hd. destruct (Nat.ltb_spec m (length (modes N))) as [Hlt|Hge].
  { destruct (solve _ _ _); try discriminate. cbn [bind] in Hd. destruct (solve _ _ _); discriminate. }
  split; [lia|]. unfold computeDifferentiationMatrices in Hd. rewrite V1, R1 in Hd.
  destruct (HS (length (modes N)) m (mtrans (e_V el)) (mtrans Vr) (mzero E (length (modes N)) m)) as [Es | (Y1 & Es & (Y1r & Y1c) & HY1)]; try (split; cbn [mtrans mrows mcols mzero]; congruence); rewrite Es in Hd; [discriminate|]. cbn [bind] in Hd.
  destruct (HS (length (modes N)) m (mtrans (e_V el)) (mtrans Vs) (mzero E (length (modes N)) m)) as [Es2 | (Y2 & Es2 & (Y2r & Y2c) & HY2)]; try (split; cbn [mtrans mrows mcols mzero]; congruence); rewrite Es2 in Hd; [discriminate|]. cbn [bind] in Hd.
  destruct (solve _ _ (mkmat (length (modes N)) m junk)) as [Y3| |]; try discriminate. cbn [bind] in Hd. destruct (solve _ _ (mkmat (length (modes N)) m junk)) as [Y4| |]; try discriminate. cbn [bind] in Hd.
  injection Hd as <- <- <- <-. rewrite lr. split; [split; cbn [mtrans mrows mcols]; assumption|]. split; [split; cbn [mtrans mrows mcols]; assumption|].
  assert (Hn1 : forall Y Vd, mcols Y = m -> product_is (length (modes N)) (mtrans (e_V el)) Y (mtrans Vd) -> forall i c, (i < m)%nat -> (c < length (modes N))%nat ->
    sumn n (fun a => ment (mtrans Y) i a * bas G N c (nth a (e_r el) 0) (nth a (e_s el) 0)) = ment Vd i c).
  { intros Y Vd Yc (_ & HY) i c Hi Hc. specialize (HY c i). cbn [mtrans mrows mcols ment] in HY. rewrite <- HY by congruence. rewrite lr. apply sumn_ext. intros a Ha. rewrite <- V by assumption. cbn [mtrans ment]. ring. }
  split.
  - apply maps_dr_at; [exact HG|exact Hp|]. intros i c Hi Hc. rewrite (Hn1 Y1 Vr Y1c HY1 i c ltac:(lia) Hc). apply HV; lia.
  - apply maps_ds_at; [exact HG|exact Hp|]. intros i c Hi Hc. rewrite (Hn1 Y2 Vs Y2c HY2 i c ltac:(lia) Hc). apply HV; lia.
Qed.

Lemma mass_entry (w : list R) (J Vc W : mat R) m k a b : shape Vc m n -> (forall i, ment W i k = nth i w 0 * ment J i k) -> (a < n)%nat -> (b < n)%nat ->
  ment (mmul E (mtrans Vc) (mmul E (mkmat m m (fun i j => if (i =? j)%nat then fmul E (ment J i k) (nth i w (fofn E 0)) else fofn E 0)) Vc)) a b =
  sumn m (fun i => ment W i k * ment Vc i a * ment Vc i b).
Proof.
  intros (V1 & V2) HW Ha Hb. cbn [mmul mtrans ment mcols mrows]. rewrite fsum_exact, V1. change (fmul E) with Rmult. change (fofn E 0) with 0. apply sumn_ext. intros i Hi. rewrite fsum_exact.
  rewrite (sumn_ext m _ (fun j => delta i j * (ment J j k * nth j w 0 * ment Vc j b))).
  - rewrite sumn_delta by exact Hi. rewrite HW. ring.
  - intros j _. unfold delta. destruct (Nat.eqb_spec i j) as [->|]; ring.
Qed.
Lemma masses_ok (w : list R) (J Vc W : mat R) m MM U : shape Vc m n -> (forall i k, ment W i k = nth i w 0 * ment J i k) ->
  cub_masses E chol m K w J Vc = Ok (MM, U) ->
  length MM = K /\ length U = K /\ forall k, (k < K)%nat -> exists M u, nth_error MM k = Some M /\ nth_error U k = Some u /\
    shape M n n /\ (forall a b, (a < n)%nat -> (b < n)%nat -> ment M a b = sumn m (fun i => ment W i k * ment Vc i a * ment Vc i b)) /\ cholesky_of n M u.
Proof.
  intros SV HW Hr. assert (HC : factorizer_ok chol) by (destruct HR; assumption).
  refine (for_ok (fun j (st : list (mat R) * list (mat R)) => length (fst st) = j /\ length (snd st) = j /\ forall k, (k < j)%nat -> exists M u, nth_error (fst st) k = Some M /\ nth_error (snd st) k = Some u /\
    shape M n n /\ (forall a b, (a < n)%nat -> (b < n)%nat -> ment M a b = sumn m (fun i => ment W i k * ment Vc i a * ment Vc i b)) /\ cholesky_of n M u) _ K _ _ _ _ Hr).
  - split; [reflexivity|]. split; [reflexivity|]. intros; lia.
  - intros k [l1 l2] st' Hk (L1 & L2 & Hl) Eb. cbn [fst snd] in *. unfold cub_mass in Eb.
    set (M := mmul E (mtrans Vc) _) in Eb. assert (HM := mass_entry w J Vc W m k). fold M in HM.
    assert (SM : shape M n n) by (unfold M; destruct SV as (V1 & V2); split; cbn [mmul mtrans mrows mcols]; assumption).
    assert (Sym : forall i j, (i < n)%nat -> (j < n)%nat -> ment M i j = ment M j i) by (intros i j Hi Hj; rewrite !HM by auto; apply sumn_ext; intros; ring).
    destruct (HC n M (mzero E (mcols Vc) (mcols Vc)) SM) as [Ec | (u & Ec & Hu)]; [destruct SV as (V1 & V2); split; cbn [mzero mrows mcols]; assumption|exact Sym| |]; rewrite Ec in Eb; [discriminate|].
    cbn [bind] in Eb. injection Eb as <-. cbn [fst snd]. rewrite !app_length. cbn [length]. split; [lia|]. split; [lia|]. intros j Hj. destruct (Nat.eq_dec j k) as [->|Hne].
    + exists M, u. rewrite !nth_error_app2 by lia. rewrite L1, L2, Nat.sub_diag. split; [reflexivity|]. split; [reflexivity|]. split; [exact SM|]. split; [intros a b Ha Hb; apply HM; auto|exact Hu].
    + destruct (Hl j ltac:(lia)) as (M' & u' & A1 & A2 & A3). exists M', u'. rewrite !nth_error_app1 by lia. auto.
Qed.

Theorem cub_run cc : run = Ok cc -> cub_facts cc.
Proof.
  destruct cub_front as (rs & ss & ws & Vc & Vr & Vs & X). cbv zeta in X. destruct X as (E1 & E2 & E3 & E4 & L1 & L2 & Hin & Hex & EV & SVc & MV & EG & SR & SS & HGr).
  unfold buildCubatureVolumeMesh. change (fsub E) with Rminus. rewrite E1, E2, E3, E4. cbn [bind]. rewrite EV. cbn [bind]. rewrite EG. cbn [bind].
  destruct (diff_matrices_at E solve junk Vr Vs (e_V el) Vc) as [[[[D1 D2] D3] D4]| |] eqn:ED; try discriminate. cbn [bind].
  assert (Hp : pts_ok rs ss) by (apply (pts_inside rs ss (length ws)); auto; intros i Hi; apply Hin; exact Hi).
  destruct (diff_at Vr Vs Vc (length ws) rs ss D1 D2 D3 D4 SR SS L1 Hp HGr ED) as (Hmany & SD1 & SD2 & M1 & M2).
  set (g := cub_metric E D1 D2 (e_x el) (e_y el)). set (W := mkmat (length ws) K _).
  assert (HW : forall i k, ment W i k = nth i ws 0 * ment (g_J g) i k).
  { intros i k. unfold W. cbn [ment]. change (fmul E) with Rmult. change (fadd E) with Rplus. change (fofn E 0) with 0. change (fofn E 1) with 1. ring. }
  destruct (cub_masses E chol (length ws) K ws (g_J g) Vc) as [[MM U]| |] eqn:EM; try discriminate. cbn [bind]. intros [= <-].
  pose proof (masses_ok ws (g_J g) Vc W (length ws) MM U SVc HW EM) as HM.
  destruct HR as [HB _ _ _ _]. pose proof (element_ok _ _ _ _ _ _ _ _ _ _ _ _ HB) as [_ _ _ _ _ _ _ _ _ _ _ _ _ _ _ metric _].
  constructor; cbn [cc_n cc_r cc_s cc_w cc_V cc_metric cc_Dr cc_Ds cc_MM cc_chol cc_x cc_y cc_W cc_nodal]; auto.
  split; [split; reflexivity|exact HW].
Qed.

(* ---- consequences ---- *)
Section Cell.
Variable k : nat.
Hypothesis Hk : (k < K)%nat.

Lemma node_xy i : (i < n)%nat -> (ment (e_x el) i k, ment (e_y el) i k) = image k (nth i (e_r el) 0) (nth i (e_s el) 0).
Proof.
  intro Hi. destruct HR as [HB _ _ _ _]. destruct (element_ok _ _ _ _ _ _ _ _ _ _ _ _ HB) as [lr _ _ _ _ _ _ _ _ _ _ _ _ _ (_ & _ & x) _ _]. apply x; [lia|exact Hk].
Qed.
Lemma order1' : (1 <= N)%nat. Proof. destruct HR as [HB _ _ _ _]. destruct HB. assumption. Qed.

Local Notation Xr := ((fst (P k 1) - fst (P k 0)) / 2).
Local Notation Yr := ((snd (P k 1) - snd (P k 0)) / 2).
Local Notation Xs := ((fst (P k 2) - fst (P k 0)) / 2).
Local Notation Ys := ((snd (P k 2) - snd (P k 0)) / 2).
Lemma derivs_at m D1 D2 rs ss i : length rs = m -> shape D1 m n -> shape D2 m n -> maps_nodal N D1 (e_r el) (e_s el) rs ss (fun p => dr_is (eval2 p)) -> maps_nodal N D2 (e_r el) (e_s el) rs ss (fun p => ds_is (eval2 p)) ->
  (i < m)%nat -> ment (mmul E D1 (e_x el)) i k = Xr /\ ment (mmul E D1 (e_y el)) i k = Yr /\ ment (mmul E D2 (e_x el)) i k = Xs /\ ment (mmul E D2 (e_y el)) i k = Ys.
Proof.
  intros Lr (_ & C1) (_ & C2) M1 M2 Hi. assert (Hc : forall a b c, degree2 N (aff_poly a b c)) by (intros; unfold aff_poly; pose proof order1'; repeat constructor; cbn; lia).
  assert (Hr : (i < length rs)%nat) by lia.
  assert (Hx : forall m, (m < n)%nat -> ment (e_x el) m k = eval2 (aff_poly (fst (P k 0)) (fst (P k 1)) (fst (P k 2))) (nth m (e_r el) 0) (nth m (e_s el) 0)).
  { intros q Hm. rewrite aff_poly_eval. pose proof (node_xy q Hm) as X. injection X as X _. exact X. }
  assert (Hy : forall m, (m < n)%nat -> ment (e_y el) m k = eval2 (aff_poly (snd (P k 0)) (snd (P k 1)) (snd (P k 2))) (nth m (e_r el) 0) (nth m (e_s el) 0)).
  { intros q Hm. rewrite aff_poly_eval. pose proof (node_xy q Hm) as X. injection X as _ X. exact X. }
  assert (He : forall (D z : mat R) q, mcols D = n -> (forall m, (m < n)%nat -> ment z m k = eval2 q (nth m (e_r el) 0) (nth m (e_s el) 0)) -> ment (mmul E D z) i k = sumn n (fun m => ment D i m * eval2 q (nth m (e_r el) 0) (nth m (e_s el) 0))).
  { intros D z q HD Hz. cbn [mmul ment]. rewrite fsum_exact, HD. change (fmul E) with Rmult. apply sumn_ext. intros j Hm. rewrite Hz by exact Hm. reflexivity. }
  rewrite (He _ _ _ C1 Hx), (He _ _ _ C1 Hy), (He _ _ _ C2 Hx), (He _ _ _ C2 Hy).
  split; [eapply aff_dr, M1; auto|]. split; [eapply aff_dr, M1; auto|]. split; [eapply aff_ds, M2; auto|eapply aff_ds, M2; auto].
Qed.
Lemma geo_at m D1 D2 rs ss i : length rs = m -> shape D1 m n -> shape D2 m n -> maps_nodal N D1 (e_r el) (e_s el) rs ss (fun p => dr_is (eval2 p)) -> maps_nodal N D2 (e_r el) (e_s el) rs ss (fun p => ds_is (eval2 p)) ->
  (i < m)%nat -> let J := area_ k / 2 in let g := cub_metric E D1 D2 (e_x el) (e_y el) in
  ment (g_J g) i k = J /\ ment (g_rx g) i k = Ys / J /\ ment (g_ry g) i k = - Xs / J /\ ment (g_sx g) i k = - Yr / J /\ ment (g_sy g) i k = Xr / J.
Proof.
  intros Lr SD1 SD2 M1 M2 Hi J g. destruct (derivs_at m D1 D2 rs ss i Lr SD1 SD2 M1 M2 Hi) as (d1 & d2 & d3 & d4). unfold g.
  assert (HJ : ment (g_J (cub_metric E D1 D2 (e_x el) (e_y el))) i k = J).
  { unfold cub_metric, TriModel.mzip. cbn [g_J ment]. rewrite d1, d2, d3, d4. change (fmul E) with Rmult. change (fadd E) with Rplus. change (fopp E) with Ropp. unfold J, cell_area, area, TriGeoSpec.cross, pminus. cbn [fst snd]. field. }
  split; [exact HJ|]. revert HJ. unfold cub_metric. cbn [g_J g_rx g_ry g_sx g_sy]. set (JJ := TriModel.mzip (fadd E) _ _). intro HJ. unfold TriModel.mzip at 1 2 3 4. cbn [ment]. rewrite d1, d2, d3, d4, HJ. change (fdiv E) with Rdiv. change (fopp E) with Ropp. auto.
Qed.
End Cell.

Section Facts.
Variable cc : cub_mesh R.
Hypothesis HF : cub_facts cc.
Variable k : nat.
Hypothesis Hk : (k < K)%nat.

Lemma cub_interp i p : (i < cc_n cc)%nat -> degree2 N p ->
  sumn n (fun m => ment (cc_V cc) i m * eval2 p (ment (e_x el) m k) (ment (e_y el) m k)) = at_point p (image k (nth i (cc_r cc) 0) (nth i (cc_s cc) 0)).
Proof.
  intros Hi Dp. destruct (to_reference N Vert EToV k p Dp) as (q & Dq & Hq & _). change (affine_image (P k 0) (P k 1) (P k 2)) with (image k) in Hq. rewrite <- Hq.
  rewrite <- (cf_mV cc HF q i Dq ltac:(rewrite (cf_r cc HF); exact Hi)). apply sumn_ext. intros m Hm. f_equal. rewrite Hq, <- (node_xy k Hk m Hm). reflexivity.
Qed.
Lemma cub_xy i : (i < cc_n cc)%nat -> (ment (cc_x cc) i k, ment (cc_y cc) i k) = image k (nth i (cc_r cc) 0) (nth i (cc_s cc) 0).
Proof.
  intro Hi. assert (D1 : degree2 N [(1%nat, 0%nat, 1)]) by (constructor; [cbn; pose proof order1'; lia|constructor]). assert (D2 : degree2 N [(0%nat, 1%nat, 1)]) by (constructor; [cbn; pose proof order1'; lia|constructor]).
  pose proof (cub_interp i _ Hi D1) as X. pose proof (cub_interp i _ Hi D2) as Y. unfold at_point in X, Y. cbn [eval2 pow] in X, Y.
  rewrite (cf_x cc HF), (cf_y cc HF). cbn [mmul ment]. rewrite !fsum_exact. change (fmul E) with Rmult. destruct (cf_V cc HF) as (_ & ->). destruct (image k _ _) as [q1 q2]. cbn [fst snd] in X, Y. f_equal.
  - erewrite sumn_ext; [rewrite X; ring|]. intros m Hm. cbv beta. ring.
  - erewrite sumn_ext; [rewrite Y; ring|]. intros m Hm. cbv beta. ring.
Qed.

Local Notation Xr := ((fst (P k 1) - fst (P k 0)) / 2).
Local Notation Yr := ((snd (P k 1) - snd (P k 0)) / 2).
Local Notation Xs := ((fst (P k 2) - fst (P k 0)) / 2).
Local Notation Ys := ((snd (P k 2) - snd (P k 0)) / 2).
Lemma cub_geo i : (i < cc_n cc)%nat -> let J := area_ k / 2 in let g := cc_metric cc in
  ment (g_J g) i k = J /\ ment (g_rx g) i k = Ys / J /\ ment (g_ry g) i k = - Xs / J /\ ment (g_sx g) i k = - Yr / J /\ ment (g_sy g) i k = Xr / J.
Proof.
  intros Hi J g. unfold g. rewrite (cf_metric cc HF).
  apply (geo_at k Hk (cc_n cc) (cc_Dr cc) (cc_Ds cc) (cc_r cc) (cc_s cc) i (cf_r cc HF) (cf_Dr cc HF) (cf_Ds cc HF) (cf_mr cc HF) (cf_ms cc HF) Hi).
Qed.
Lemma cub_weight i : (i < cc_n cc)%nat -> ment (cc_W cc) i k = nth i (cc_w cc) 0 * (area_ k / 2).
Proof. intro Hi. destruct (cf_W cc HF) as (_ & ->). destruct (cub_geo i Hi) as (-> & _). reflexivity. Qed.
Lemma cub_grad i p : (i < cc_n cc)%nat -> degree2 N p -> let g := cc_metric cc in
  dr_is (eval2 p) (ment (cc_x cc) i k) (ment (cc_y cc) i k) (sumn n (fun m => (ment (g_rx g) i k * ment (cc_Dr cc) i m + ment (g_sx g) i k * ment (cc_Ds cc) i m) * eval2 p (ment (e_x el) m k) (ment (e_y el) m k))) /\
  ds_is (eval2 p) (ment (cc_x cc) i k) (ment (cc_y cc) i k) (sumn n (fun m => (ment (g_ry g) i k * ment (cc_Dr cc) i m + ment (g_sy g) i k * ment (cc_Ds cc) i m) * eval2 p (ment (e_x el) m k) (ment (e_y el) m k))).
Proof.
  intros Hi Dp g. destruct (to_reference N Vert EToV k p Dp) as (q & Dq & Hq & Hqr & Hqs). change (affine_image (P k 0) (P k 1) (P k 2)) with (image k) in Hq, Hqr, Hqs.
  assert (Hr : (i < length (cc_r cc))%nat) by (rewrite (cf_r cc HF); exact Hi).
  pose proof (dr_unique _ _ _ _ _ (cf_mr cc HF q i Dq Hr) (ddr_ok q _ _)) as A1. pose proof (ds_unique _ _ _ _ _ (cf_ms cc HF q i Dq Hr) (dds_ok q _ _)) as A2.
  rewrite Hqr in A1. rewrite Hqs in A2. rewrite <- (cub_xy i Hi) in A1, A2. unfold at_point in A1, A2. cbn [fst snd] in A1, A2.
  rewrite (sumn_ext n _ (fun m => ment (cc_Dr cc) i m * eval2 p (ment (e_x el) m k) (ment (e_y el) m k))) in A1 by (intros m Hm; rewrite Hq, <- (node_xy k Hk m Hm); reflexivity).
  rewrite (sumn_ext n _ (fun m => ment (cc_Ds cc) i m * eval2 p (ment (e_x el) m k) (ment (e_y el) m k))) in A2 by (intros m Hm; rewrite Hq, <- (node_xy k Hk m Hm); reflexivity).
  assert (Hc : forall a b, sumn n (fun m => (a * ment (cc_Dr cc) i m + b * ment (cc_Ds cc) i m) * eval2 p (ment (e_x el) m k) (ment (e_y el) m k)) =
     a * sumn n (fun m => ment (cc_Dr cc) i m * eval2 p (ment (e_x el) m k) (ment (e_y el) m k)) + b * sumn n (fun m => ment (cc_Ds cc) i m * eval2 p (ment (e_x el) m k) (ment (e_y el) m k))).
  { intros a b. rewrite <- !sumn_scal, <- sumn_plus. apply sumn_ext. intros; ring. }
  destruct (cub_geo i Hi) as (_ & G1 & G2 & G3 & G4). cbv zeta in G1, G2, G3, G4. unfold g. rewrite !Hc, A1, A2, G1, G2, G3, G4. clear Hc A1 A2 G1 G2 G3 G4.
  assert (HA : area_ k <> 0) by (destruct HR as [_ _ HA _ _]; apply HA; exact Hk). unfold cell_area, area, TriGeoSpec.cross, pminus in *. cbn [fst snd] in *.
  set (gx := eval2 (ddr p) _ _). set (gy := eval2 (dds p) _ _).
  set (ax := fst (P k 0)) in *. set (ay := snd (P k 0)) in *. set (bx := fst (P k 1)) in *. set (by_ := snd (P k 1)) in *. set (cx := fst (P k 2)) in *. set (cy := snd (P k 2)) in *.
  split.
  - match goal with |- dr_is _ _ _ ?v => replace v with gx; [apply ddr_ok|] end. field. lra.
  - match goal with |- ds_is _ _ _ ?v => replace v with gy; [apply dds_ok|] end. field. lra.
Qed.
Lemma cub_quad p : degree2 NC p -> exists q v, degree2 NC q /\ (forall r s, bary q r s = at_point p (image k r s)) /\
  element_integral (P k 0) (P k 1) (P k 2) (eval2 p) v /\
  Rabs (sumn (cc_n cc) (fun i => ment (cc_W cc) i k * eval2 p (ment (cc_x cc) i k) (ment (cc_y cc) i k)) - v) <= Rabs (area_ k / 2) * (2 / 100000000000000 * coefsum q).
Proof.
  intro Dp.
  destruct (comp_poly NC p (fst (P k 0)) (fst (P k 1) - fst (P k 0)) (fst (P k 2) - fst (P k 0)) (snd (P k 0)) (snd (P k 1) - snd (P k 0)) (snd (P k 2) - snd (P k 0)) Dp) as (q & Dq & Hq).
  assert (Hb : forall r s, bary q r s = at_point p (image k r s)).
  { intros r s. unfold bary. rewrite <- Hq. unfold at_point, cell_image, affine_image. cbn [fst snd]. f_equal; ring. }
  destruct (cf_rule cc HF q Dq) as (v & Hv & He). exists q, (area_ k / 2 * v). split; [exact Dq|]. split; [exact Hb|]. split.
  - exists v. split; [|reflexivity]. eapply tint_ext; [|exact Hv]. intros r s. rewrite Hb. reflexivity.
  - rewrite (sumn_ext _ _ (fun i => area_ k / 2 * (nth i (cc_w cc) 0 * bary q (nth i (cc_r cc) 0) (nth i (cc_s cc) 0)))).
    + rewrite sumn_scal. unfold rule_sum in He. rewrite (cf_w cc HF) in He. rewrite <- Rmult_minus_distr_l, Rabs_mult. apply Rmult_le_compat_l; [apply Rabs_pos|exact He].
    + intros i Hi. rewrite (cub_weight i Hi), Hb, <- (cub_xy i Hi). unfold at_point. cbn [fst snd]. ring.
Qed.
End Facts.
End Cub.

(* ---- when there is no result ---- *)
Section Fails.
Variables (G : R -> R) (solve : mat R -> mat R -> mat R -> outcome (mat R)) (inverse chol : mat R -> mat R -> outcome (mat R))
  (junk : nat -> nat -> R) (eps : R) (eig : nat -> (nat -> nat -> R) -> list R * (nat -> nat -> R)) (tol : R)
  (N K : nat) (Vert : list R) (EToV : list nat) (el : element (T := R)) (lit : Z -> R) (NC : nat) (junkc : nat -> R).
Hypothesis HR : cub_ready G solve inverse chol junk eps eig tol N K Vert EToV el lit NC.
Local Notation E := (exact G).
Local Notation n := (length (e_r el)).
Local Notation run := (buildCubatureVolumeMesh E pow solve chol junk lit junkc (Z.of_nat NC) N K (e_V el) (e_Vinv el) (e_Dr el) (e_Ds el) (e_x el) (e_y el)).
Local Notation facts := (cub_facts G N K el NC).

Lemma const_row cc i : facts cc -> (i < cc_n cc)%nat -> sumn n (fun m => ment (cc_V cc) i m) = 1.
Proof.
  intros HF Hi. assert (D1 : degree2 N [(0%nat, 0%nat, 1)]) by (constructor; [cbn; lia|constructor]).
  pose proof (cf_mV _ _ _ _ _ cc HF _ i D1 ltac:(rewrite (cf_r _ _ _ _ _ cc HF); exact Hi)) as X. cbn [eval2 pow] in X.
  transitivity (1 * (1 * 1) + 0); [|ring]. rewrite <- (Rmult_assoc 1 1 1). rewrite <- X. apply sumn_ext. intros; ring.
Qed.
Lemma sumn_nonneg : forall m f, (forall i, (i < m)%nat -> 0 <= f i) -> 0 <= sumn m f.
Proof. induction m as [|m IH]; intros f H; [unfold sumn; cbn; lra|]. rewrite sumn_S. assert (0 <= sumn m f) by (apply IH; auto). specialize (H m ltac:(lia)). lra. Qed.
Lemma sumn_nonneg_zero : forall m f, (forall i, (i < m)%nat -> 0 <= f i) -> sumn m f = 0 -> forall i, (i < m)%nat -> f i = 0.
Proof.
  induction m as [|m IH]; intros f H H0 i Hi; [lia|]. rewrite sumn_S in H0. assert (0 <= sumn m f) by (apply sumn_nonneg; auto). pose proof (H m ltac:(lia)).
  destruct (Nat.eq_dec i m) as [->|]; [lra|]. apply IH; [auto|lra|lia].
Qed.

Lemma clockwise_no cc k : (k < K)%nat -> cell_area Vert EToV k < 0 -> run <> Ok cc.
Proof.
  intros Hk Ha Hrun. pose proof (cub_run _ _ _ _ _ _ _ _ _ _ _ _ _ _ _ _ HR cc Hrun) as HF.
  destruct (cf_MM _ _ _ _ _ cc HF) as (_ & _ & HM). destruct (HM k Hk) as (M & U & _ & _ & SM & Hent & (_ & _ & HU)).
  assert (Hn : (3 <= n)%nat).
  { destruct HR as [HB _ _ _ _]. destruct (element_ok _ _ _ _ _ _ _ _ _ _ _ _ HB) as [lr _ _ _ _ _ _ _ _ _ _ _ _ _ _ _ _]. rewrite lr. assert (1 <= N)%nat by (destruct HB; assumption). pose proof (modes_length N). nia. }
  assert (Hz : forall i a, (i < cc_n cc)%nat -> (a < n)%nat -> ment (cc_V cc) i a = 0).
  { intros i a Hi Han. assert (X0 : forall j, (j < cc_n cc)%nat -> 0 <= - (ment (cc_W cc) j k * ment (cc_V cc) j a * ment (cc_V cc) j a)).
    { intros j Hj. rewrite (cub_weight _ _ _ _ _ _ _ _ _ _ _ _ _ _ _ HR cc HF k Hk j Hj). destruct (cf_in _ _ _ _ _ cc HF j Hj) as (_ & Hw).
      assert (0 <= (nth j (cc_w cc) 0 * - (cell_area Vert EToV k / 2)) * (ment (cc_V cc) j a * ment (cc_V cc) j a)) by (apply Rmult_le_pos; [apply Rmult_le_pos; lra|nra]). nra. }
    assert (X : sumn (cc_n cc) (fun i => - (ment (cc_W cc) i k * ment (cc_V cc) i a * ment (cc_V cc) i a)) = 0).
    { assert (P0 : 0 <= sumn (cc_n cc) (fun i => - (ment (cc_W cc) i k * ment (cc_V cc) i a * ment (cc_V cc) i a))).
      { apply sumn_nonneg. exact X0. }
      assert (P1 : 0 <= ment M a a) by (rewrite <- HU by auto; apply sumn_nonneg; intros; nra). rewrite Hent in P1 by auto.
      rewrite (sumn_ext _ _ (fun i => -1 * (ment (cc_W cc) i k * ment (cc_V cc) i a * ment (cc_V cc) i a))) in P0 |- * by (intros; ring). rewrite sumn_scal in P0 |- *. lra. }
    assert (Y := sumn_nonneg_zero _ _ (fun j (Hj : (j < cc_n cc)%nat) => X0 j Hj) X i Hi). cbv beta in Y. rewrite (cub_weight _ _ _ _ _ _ _ _ _ _ _ _ _ _ _ HR cc HF k Hk i Hi) in Y. destruct (cf_in _ _ _ _ _ cc HF i Hi) as (_ & Hw).
    assert (Hp : 0 < nth i (cc_w cc) 0 * - (cell_area Vert EToV k / 2)) by (apply Rmult_lt_0_compat; lra).
    assert (Y' : (nth i (cc_w cc) 0 * - (cell_area Vert EToV k / 2)) * (ment (cc_V cc) i a * ment (cc_V cc) i a) = 0) by (eapply eq_trans; [|exact Y]; ring).
    apply Rmult_integral in Y' as [Y'|Y']; [lra|]. apply Rmult_integral in Y' as [Y'|Y']; exact Y'. }
  assert (H0 : (0 < cc_n cc)%nat) by (pose proof (cf_many _ _ _ _ _ cc HF); lia).
  pose proof (const_row cc 0%nat HF H0) as C. rewrite sumn_zero in C; [lra|]. intros a Ha'. apply Hz; assumption.
Qed.

Lemma few_no m : NumCubaturePoints lit Rminus junkc (Z.of_nat NC) = Ok m -> (m < n)%nat -> run = Throw \/ run = UB.
Proof.
  intros Hm Hlt. destruct run as [cc| |] eqn:Er; auto. exfalso.
  destruct (cub_front _ _ _ _ _ _ _ _ _ _ _ _ _ _ _ junkc HR) as (rs & ss & ws & Vc & Vr & Vs & X). cbv zeta in X. destruct X as (E1 & E2 & E3 & E4 & L1 & L2 & Hin & Hex & EV & SVc & MV & EG & SR & SS & HGr).
  revert Er. unfold buildCubatureVolumeMesh. change (fsub E) with Rminus. rewrite E1, E2, E3, E4. cbn [bind]. rewrite EV. cbn [bind]. rewrite EG. cbn [bind].
  destruct (diff_matrices_at E solve junk Vr Vs (e_V el) Vc) as [[[[D1 D2] D3] D4]| |] eqn:ED; try discriminate. intros _.
  assert (Hp : pts_ok rs ss) by (apply (pts_inside rs ss (length ws)); auto; intros i Hi; apply Hin; exact Hi).
  destruct (diff_at _ _ _ _ _ _ _ _ _ _ _ _ _ _ _ HR Vr Vs Vc (length ws) rs ss D1 D2 D3 D4 SR SS L1 Hp HGr ED) as (Hmany & _). assert (m = length ws) by congruence. lia.
Qed.

Lemma many_no m : rejects_singular solve -> NumCubaturePoints lit Rminus junkc (Z.of_nat NC) = Ok m -> (n < m)%nat -> run = Throw.
Proof.
  intros HS Hm Hlt. destruct (cub_front _ _ _ _ _ _ _ _ _ _ _ _ _ _ _ junkc HR) as (rs & ss & ws & Vc & Vr & Vs & X). cbv zeta in X. destruct X as (E1 & E2 & E3 & E4 & L1 & L2 & Hin & Hex & EV & SVc & MV & EG & SR & SS & HGr).
  assert (m = length ws) by congruence. subst m. unfold buildCubatureVolumeMesh. change (fsub E) with Rminus. rewrite E1, E2, E3, E4. cbn [bind]. rewrite EV. cbn [bind]. rewrite EG. cbn [bind].
  assert (Hd : diff_matrices_at E solve junk Vr Vs (e_V el) Vc = Throw); [|rewrite Hd; reflexivity].
  destruct HR as [HB _ _ _ _]. assert (HSo : solver_ok solve) by (destruct HB; assumption). destruct (element_ok _ _ _ _ _ _ _ _ _ _ _ _ HB) as [lr _ _ _ _ _ (V1 & V2) _ _ _ _ _ _ _ _ _ _].
  destruct SR as (R1 & R2). destruct SS as (S1 & S2). destruct SVc as (C1 & C2). rewrite lr in *. unfold diff_matrices_at. rewrite R1, V1. destruct (Nat.ltb_spec (length ws) (length (modes N))); [lia|].
  unfold computeDifferentiationMatrices. rewrite R1, V1.
  destruct (HSo (length (modes N)) (length ws) (mtrans (e_V el)) (mtrans Vr) (mzero E (length (modes N)) (length ws))) as [Es | (Y1 & Es & _)]; try (split; cbn [mtrans mrows mcols mzero]; congruence); rewrite Es; [reflexivity|]. cbn [bind].
  destruct (HSo (length (modes N)) (length ws) (mtrans (e_V el)) (mtrans Vs) (mzero E (length (modes N)) (length ws))) as [Es2 | (Y2 & Es2 & _)]; try (split; cbn [mtrans mrows mcols mzero]; congruence); rewrite Es2; [reflexivity|]. cbn [bind].
  rewrite (HS (length ws)); [reflexivity|split; reflexivity|].
  destruct (dependence (length (modes N)) (length ws) (ment Vc) Hlt) as (c & Hc & Hz). exists c. split; [exact Hc|]. intros j Hj. cbn [mtrans ment mmul mrows mcols].
  rewrite (sumn_ext _ _ (fun i => sumn (length (modes N)) (fun a => ment Vc j a * (c i * ment Vc i a)))).
  - rewrite sumn_swap. apply sumn_zero. intros a Ha. rewrite sumn_scal, Hz by exact Ha. ring.
  - intros i Hi. rewrite fsum_exact, C2, <- sumn_scal. change (fmul E) with Rmult. apply sumn_ext. intros a Ha. ring.
Qed.
End Fails.
