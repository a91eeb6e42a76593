(* Poisson1DProofs.v - lemmas about the operator of the one-dimensional Poisson driver. *)
From Coq Require Import ZArith List Lia Bool Arith.
From Verif Require Import Base Loops Num BlitzModel BlitzSpec BlitzProofs JacobiModel JacobiSpec JacobiProofs JacobiOrthProofs JacobiQuadProofs JacobiExactProofs
  DenseSpec CscModel MeshModel Nodes1DModel Nodes1DSpec Nodes1DProofs Nodes1DExactProofs Nodes1DProps RKModel Line1DModel Line1DSpec TriBasisProofs TriProofs TriLiftProofs TriOpProofs TraceProofs TriDGProofs Line1DSpec Line1DProofs Line1DBurgersProofs Poisson1DSpec.
From Coq Require Import Reals Lra.
From Verif Require GmresExactProofs GmresMath.
Import ListNotations.
Local Open Scope R_scope.

Section Mass.
Variable G : R -> R.
Hypothesis HG : gamma_like G.
Variables (N : nat) (r : list R) (V Vi : mat R).
Local Notation n := (S N).
Hypothesis Hr : length r = n.
Hypothesis HV : V = vandermonde1D (exact G) r n.
Hypothesis Hinv : forall k j, (k < n)%nat -> (j < n)%nat -> sumn n (fun i => ment Vi k i * ment V i j) = (if (k =? j)%nat then 1 else 0).
Lemma modal_coef p : (length p <= n)%nat -> forall x, peval p x = sumn n (fun k => sumn n (fun i => ment Vi k i * peval p (nth i r 0)) * jac G 0 0 k x).
Proof.
  intros Lp. destruct (modal1 G HG N (peval p)) as (c & Hc); [exists p; split; [exact Lp|reflexivity]|].
  assert (Ec : forall k, (k < n)%nat -> sumn n (fun i => ment Vi k i * peval p (nth i r 0)) = c k).
  { intros k Hk. rewrite (sumn_ext n _ (fun i => sumn n (fun j => c j * (ment Vi k i * ment V i j)))).
    - rewrite (sumn_swap n n). rewrite (sumn_ext n _ (fun j => c j * (if (k =? j)%nat then 1 else 0))) by (intros j Hj; rewrite sumn_scal, Hinv by auto; reflexivity).
      rewrite (sumn_pick n _ k Hk); [rewrite Nat.eqb_refl; ring|]. intros j Hj Hne. destruct (Nat.eqb_spec k j); [congruence|ring].
    - intros i Hi. rewrite Hc, <- sumn_scal. apply sumn_ext. intros j Hj. rewrite HV, (vander_ent G HG) by lia. ring. }
  intro x. rewrite Hc. apply sumn_ext. intros k Hk. now rewrite Ec.
Qed.
Lemma mass_pair p t : (length p <= n)%nat -> (length t <= n)%nat ->
  integral_is (fun x => peval p x * peval t x) (-1) 1 (sumn n (fun i => peval p (nth i r 0) * sumn n (fun j => sumn n (fun k => ment Vi k i * ment Vi k j) * peval t (nth j r 0)))).
Proof.
  intros Lp Lt. pose proof (parseval1 G HG N _ _ _ _ (modal_coef p Lp) (modal_coef t Lt)) as H. eapply eq_rect; [exact H|].
  rewrite (sumn_ext n _ (fun k => sumn n (fun i => peval p (nth i r 0) * (ment Vi k i * sumn n (fun j => ment Vi k j * peval t (nth j r 0)))))).
  2:{ intros k Hk. rewrite Rmult_comm, <- sumn_scal. apply sumn_ext. intros i Hi. ring. }
  rewrite (sumn_swap n n). apply sumn_ext. intros i Hi. rewrite sumn_scal. f_equal.
  rewrite (sumn_ext n _ (fun k => sumn n (fun j => ment Vi k i * ment Vi k j * peval t (nth j r 0)))).
  2:{ intros k Hk. rewrite <- sumn_scal. apply sumn_ext. intros j Hj. ring. }
  rewrite (sumn_swap n n). apply sumn_ext. intros j Hj. rewrite (Rmult_comm (sumn n _)), <- sumn_scal. apply sumn_ext. intros k Hk. ring.
Qed.
End Mass.

Section Poisson.
Variable G : R -> R.
Local Notation E := (exact G).
Variables (junk : nat -> nat -> R) (junkv : nat -> R) (lowest : R) (n : @nodes1d R) (J rx Fs : mat R) (Np K : nat) (w : R).
Hypothesis LT : line_tables n J rx Fs Np K w.
Hypothesis Hlow : lowest < 0.
Local Notation r := (n_r n).

Lemma vec_tab (v : list R) m : length v = m -> v = tab m (fun g => nth g v 0).
Proof. intro H. apply tab_eq; [exact H|]. intros i Hi. apply nth_error_nth'. lia. Qed.
Lemma mate_0 : mate K 0 = 0%nat.
Proof. pose proof (lt_K _ _ _ _ _ _ _ LT). exact (mate_l K 0 ltac:(lia)). Qed.
Lemma mate_end : mate K (2 * K - 1) = (2 * K - 1)%nat.
Proof. pose proof (lt_K _ _ _ _ _ _ _ LT). replace (2 * K - 1)%nat with (1 + (K - 1) * 2)%nat by lia. rewrite mate_r by lia. destruct (Nat.eqb_spec (S (K - 1)) K); lia. Qed.
Lemma side_0 U : side U 0 = Lv U 0. Proof. exact (side_l U 0). Qed.
Lemma side_end U : side U (2 * K - 1) = Rv U (K - 1).
Proof. pose proof (lt_K _ _ _ _ _ _ _ LT). replace (2 * K - 1)%nat with (1 + (K - 1) * 2)%nat by lia. apply side_r. Qed.
Lemma tau_ok : fdiv E (fofn E (Np * Np)) (fdiv E (fofn E 2) (max_abs E lowest rx)) = INR Np * INR Np / Rabs w.
Proof.
  assert (Hs : shape rx Np K) by (pose proof (lt_conf _ _ _ _ _ _ _ LT) as HC; unfold tables_conform in HC; rewrite !andb_true_iff, !conform_ok in HC; split; tauto).
  destruct (max_abs_ok G lowest n J rx Fs Np K w LT rx Hlow Hs) as (_ & i & k & Hi & Hk & ->). rewrite (lt_rx _ _ _ _ _ _ _ LT) by auto. pose proof (lt_w _ _ _ _ _ _ _ LT) as Hw.
  cbn [exact fdiv]. change (fofn E 2) with 2. unfold fofn. cbn [exact fofZ]. rewrite <- INR_IZR_INZ, mult_INR.
  replace (1 / (w / 2)) with (2 * / w) by (field; exact Hw). rewrite Rabs_mult, Rabs_inv, (Rabs_right 2) by lra. pose proof (Rabs_no_R0 w Hw). field. exact H.
Qed.

Definition flux_at (tau : R) (U UX P : nat -> list R) (g : nat) : R :=
  sgn g * (side P g - 1 / 2 * (side UX g + side UX (mate K g)) + tau * sgn g * du_at K 0 0 U g).
Definition UXof (U : nat -> list R) (k : nat) : list R := pscal (1 / (w / 2)) (pderiv (U k)).

Lemma poisson_ok inp out U : holds Np K r inp U -> length out = (Np * K)%nat ->
  let tau := INR Np * INR Np / Rabs w in
  exists res q t P, poisson1d_op E junk junkv lowest n J rx Fs Np K inp out = Ok res /\ length res = (Np * K)%nat /\
    (forall k, (k < K)%nat -> interpolates Np r q k (P k)) /\
    (forall i k, (i < Np)%nat -> (k < K)%nat -> ment q i k = 1 * (1 / (w / 2)) * dpeval (U k) (nth i r 0) +
     (ment (n_Lift n) i 0%nat * (1 / (w / 2) * (1 / 2 * du_at K 0 0 U (0 + k * 2))) +
      ment (n_Lift n) i 1%nat * (1 / (w / 2) * (- (1 / 2 * du_at K 0 0 U (1 + k * 2)))))) /\
    (forall i k, (i < Np)%nat -> (k < K)%nat -> ment t i k = 1 * (1 / (w / 2)) * dpeval (P k) (nth i r 0) +
     (ment (n_Lift n) i 0%nat * (1 / (w / 2) * (- (w / 2) * flux_at tau U (UXof U) P (0 + k * 2))) +
      ment (n_Lift n) i 1%nat * (1 / (w / 2) * (- (w / 2) * flux_at tau U (UXof U) P (1 + k * 2))))) /\
    (forall i k, (i < Np)%nat -> (k < K)%nat -> nth (i + k * Np) res 0 = w / 2 * sumn Np (fun j => sumn Np (fun l => ment (n_Vinv n) l i * ment (n_Vinv n) l j) * ment t j k)).
Proof.
  intros (Li & HU) Lo tau. pose proof (lt_Np _ _ _ _ _ _ _ LT) as HN. pose proof (lt_K _ _ _ _ _ _ _ LT) as HK. pose proof (lt_conf _ _ _ _ _ _ _ LT) as HC. pose proof (lt_w _ _ _ _ _ _ _ LT) as Hw.
  unfold poisson1d_op. rewrite HC. destruct (lt_J _ _ _ _ _ _ _ LT) as ((Jr & Jc) & HJ). destruct (lt_V _ _ _ _ _ _ _ LT) as ((Vr & Vc) & _).
  assert (CJ : conform J Np K = true) by (apply conform_ok; auto). assert (CV : conform (n_Vinv n) Np Np = true) by (apply conform_ok; auto). rewrite CJ, CV. cbn [andb require].
  unfold tables_conform in HC. rewrite !andb_true_iff, !conform_ok in HC. destruct HC as ((((SD & SL) & Snx) & Srx) & SFs).
  rewrite (vec_tab inp _ Li). destruct (unfull_tab (fun g => nth g inp 0) (mkmat Np K junk) Np K eq_refl eq_refl) as (u & Eu & Ur & Uc & Hu). rewrite Eu. cbn [bind].
  assert (IU : forall k, (k < K)%nat -> interpolates Np r u k (U k)) by (intros k Hk; destruct (HU k Hk) as (A & B); split; [exact A|]; intros i Hi; rewrite Hu by auto; apply B; exact Hi).
  rewrite (full_tab (n_nx n) _ 2 K) by (auto; try lia; apply fresh_len). cbn [bind].
  rewrite (full_tab u _ Np K) by (auto; try lia; apply fresh_len). cbn [bind].
  match goal with |- context [fullToVector ?qq (fresh junkv (Np * K)) false] => set (ux := qq) end.
  assert (IX : forall k, (k < K)%nat -> interpolates Np r ux k (UXof U k)).
  { intros k Hk. split; [unfold UXof; rewrite pscal_len; pose proof (pderiv_len (U k)); destruct (HU k Hk); lia|]. intros i Hi. unfold ux, scaled_product. cbn [ment].
    rewrite (product_deriv G n J rx Fs Np K w LT u k (U k) i (IU k Hk) Hi), (lt_rx _ _ _ _ _ _ _ LT) by auto. unfold UXof. rewrite pscal_eval, pderiv_eval. reflexivity. }
  rewrite (full_tab ux _ Np K) by (first [reflexivity | lia | apply fresh_len]). cbn [bind].
  rewrite (lt_M _ _ _ _ _ _ _ LT), (lt_P _ _ _ _ _ _ _ LT), (lt_mI _ _ _ _ _ _ _ LT), (lt_mO _ _ _ _ _ _ _ LT).
  rewrite index_tab; [|apply fresh_len|intros g Hg; pose proof (endn_lt Np K g ltac:(lia) Hg); lia]. cbn [bind].
  rewrite index_tab; [|apply fresh_len|intros g Hg; pose proof (endn_lt Np K (mate K g) ltac:(lia) (mate_lt K g Hg)); lia]. cbn [bind].
  rewrite tab_get by lia. cbn [bind]. rewrite tab_set by lia. cbn [bind]. rewrite tab_get by lia. cbn [bind]. rewrite tab_set by lia. cbn [bind].
  rewrite tab_zipw.
  match goal with |- context [vectorToFull (tab (2 * K) ?h) _ _] => rewrite (tab_ext (2 * K) h (du_at K 0 0 U)) end.
  2:{ intros g Hg. cbv beta. rewrite (trace_ok n J rx Fs Np K w LT u U g IU Hg), (trace_ok n J rx Fs Np K w LT u U (mate K g) IU (mate_lt K g Hg)).
      rewrite (trace_ok n J rx Fs Np K w LT u U 0 IU ltac:(lia)), (trace_ok n J rx Fs Np K w LT u U (2 * K - 1) IU ltac:(lia)). rewrite side_0, side_end. unfold du_at. cbn [exact fsub fopp].
      destruct (Nat.eqb_spec g (2 * K - 1)) as [-> |]; [rewrite side_end; ring|]. destruct (Nat.eqb_spec g 0) as [-> |]; [rewrite side_0; ring|reflexivity]. }
  destruct (unfull_tab (du_at K 0 0 U) (mkmat 2 K junk) 2 K eq_refl eq_refl) as (DM & EM & DMr & DMc & HM).
  rewrite EM. cbn [bind].
  match goal with |- context [fullToVector ?qq (fresh junkv (Np * K)) false] => set (q := qq) end.
  destruct (interp_exists n J rx Fs Np K w LT q) as (P & HP).
  rewrite (full_tab q _ Np K) by (first [reflexivity | lia | apply fresh_len]). cbn [bind].
  rewrite index_tab; [|apply fresh_len|intros g Hg; pose proof (endn_lt Np K g ltac:(lia) Hg); lia]. cbn [bind].
  rewrite index_tab; [|apply fresh_len|intros g Hg; pose proof (endn_lt Np K g ltac:(lia) Hg); lia]. cbn [bind].
  rewrite index_tab; [|apply fresh_len|intros g Hg; pose proof (endn_lt Np K (mate K g) ltac:(lia) (mate_lt K g Hg)); lia]. cbn [bind].
  rewrite tab_get by lia. cbn [bind]. rewrite tab_set by lia. cbn [bind]. rewrite tab_get by lia. cbn [bind]. rewrite tab_set by lia. cbn [bind].
  rewrite !tab_zipw.
  match goal with |- context [vectorToFull (tab (2 * K) ?h) _ _] => rewrite (tab_ext (2 * K) h (fun g => side P g - 1 / 2 * (side (UXof U) g + side (UXof U) (mate K g)))) end.
  2:{ intros g Hg. cbv beta. rewrite (trace_ok n J rx Fs Np K w LT q P g HP Hg), (trace_ok n J rx Fs Np K w LT ux (UXof U) g IX Hg), (trace_ok n J rx Fs Np K w LT ux (UXof U) (mate K g) IX (mate_lt K g Hg)).
      rewrite (trace_ok n J rx Fs Np K w LT ux (UXof U) 0 IX ltac:(lia)), (trace_ok n J rx Fs Np K w LT ux (UXof U) (2 * K - 1) IX ltac:(lia)). rewrite fhalf_exact. cbn [exact fsub fmul fadd].
      destruct (Nat.eqb_spec g (2 * K - 1)) as [-> |]; [rewrite mate_end; reflexivity|]. destruct (Nat.eqb_spec g 0) as [-> |]; [rewrite mate_0; reflexivity|reflexivity]. }
  destruct (unfull_tab (fun g => side P g - 1 / 2 * (side (UXof U) g + side (UXof U) (mate K g))) (mkmat 2 K junk) 2 K eq_refl eq_refl) as (QM & EQ & QMr & QMc & HQ).
  rewrite EQ. cbn [bind]. rewrite tau_ok. fold tau.
  match goal with |- context [scaled_product E J ?mm ?tt Np Np K] => set (mass := mm); set (t := tt) end.
  rewrite (full_tab (scaled_product E J mass t Np Np K) _ Np K) by (first [reflexivity | lia]).
  eexists. exists q, t, P. split; [reflexivity|]. split; [apply tab_len|]. split; [exact HP|].
  assert (sgn0 : forall k, sgn (0 + k * 2) = -1) by (intro k; unfold sgn; rewrite Nat.mod_add by lia; reflexivity).
  assert (sgn1 : forall k, sgn (1 + k * 2) = 1) by (intro k; unfold sgn; rewrite Nat.mod_add by lia; reflexivity).
  split; [|split].
  - intros i k Hi Hk. unfold q, ux. cbn [mmap sub_product scaled_product mzip ment mrows mcols].
    rewrite (product_deriv G n J rx Fs Np K w LT u k (U k) i (IU k Hk) Hi). rewrite fsum_exact. rewrite !sumn_S, sumn_0. cbn [exact fmul fadd fsub fdiv].
    rewrite !HM by lia. rewrite (lt_rx _ _ _ _ _ _ _ LT), !(lt_Fs _ _ _ _ _ _ _ LT) by lia. destruct (lt_nx _ _ _ _ _ _ _ LT k Hk) as (-> & ->).
    change (fofn E 2) with 2. field. exact Hw.
  - intros i k Hi Hk. unfold t. cbn [mmap sub_product scaled_product mzip ment mrows mcols].
    rewrite (product_deriv G n J rx Fs Np K w LT q k (P k) i (HP k Hk) Hi). rewrite fsum_exact. rewrite !sumn_S, sumn_0. cbn [exact fmul fadd fsub fdiv].
    rewrite !HM, !HQ by lia. rewrite (lt_rx _ _ _ _ _ _ _ LT) by lia. destruct (lt_nx _ _ _ _ _ _ _ LT k Hk) as (-> & ->).
    unfold flux_at. rewrite sgn0, sgn1. field. exact Hw.
  - intros i k Hi Hk. assert (Hg : (i + k * Np < Np * K)%nat) by nia. erewrite nth_error_nth; [|rewrite tab_nth_error; destruct (Nat.ltb_spec (i + k * Np) (Np * K)); [reflexivity|lia]].
    rewrite Nat.mod_add, Nat.div_add, Nat.mod_small, Nat.div_small by lia. cbn [Nat.add scaled_product ment]. rewrite HJ by auto. rewrite fsum_exact. cbn [exact fmul]. f_equal.
    apply sumn_ext. intros j Hj. f_equal. unfold mass. cbn [ment]. rewrite fsum_exact. reflexivity.
Qed.
End Poisson.

(* --- what the two weak forms say --- *)
Lemma int_prod p q a b : exists v, integral_is (fun x => peval p x * peval q x) a b v.
Proof.
  assert (H : forall cs, exists v, integral_is (fun x => peval cs x * peval cs x) a b v) by (intro cs; apply (spoly_sq (length cs)); exists cs; split; [lia|reflexivity]).
  destruct (H (padd p q)) as (v1 & H1). destruct (H (padd p (pscal (-1) q))) as (v2 & H2). exists (/ 4 * v1 + - / 4 * v2).
  eapply integral_ext; [|apply (integral_plus _ _ _ _ _ _ (integral_scal (/ 4) _ _ _ _ H1) (integral_scal (- / 4) _ _ _ _ H2))].
  intro x. cbv beta. rewrite !padd_eval, pscal_eval. field.
Qed.
Lemma deriv_poly cs : exists ds, length ds = (length cs - 1)%nat /\ forall x, dpeval cs x = peval ds x.
Proof.
  induction cs as [|c cs (ds & L & H)]; [exists []; split; reflexivity|]. destruct cs as [|d cs].
  - exists []. split; [reflexivity|]. intro x. cbn. ring.
  - exists (padd (d :: cs) (0 :: ds)). split; [rewrite padd_len; cbn [length] in *; lia|]. intro x. change (dpeval (c :: d :: cs) x) with (peval (d :: cs) x + x * dpeval (d :: cs) x). rewrite H, padd_eval. cbn [peval]. ring.
Qed.

Lemma vertex_sum K (HK : (0 < K)%nat) (L0 R0 : nat -> R) : sumn K (fun k => L0 k + R0 k) = L0 0%nat + sumn K (fun k => R0 k + if (S k =? K)%nat then 0 else L0 (S k)).
Proof.
  rewrite !sumn_plus. assert (H : sumn K L0 = L0 0%nat + sumn K (fun k => if (S k =? K)%nat then 0 else L0 (S k))); [|lra].
  destruct K as [|m]; [lia|]. rewrite GmresExactProofs.sumn_shift, sumn_S. rewrite Nat.eqb_refl, Rplus_0_r. f_equal. apply sumn_ext. intros i Hi. destruct (Nat.eqb_spec (S i) (S m)); [lia|reflexivity].
Qed.

Section Pairing.
Variables (Np K : nat) (w tau : R) (U q T : nat -> list R).
Hypothesis Hw : w <> 0.
Hypothesis HK : (0 < K)%nat.
Local Notation hat := (trace_mean K 0 0 U).
Local Notation sig := (penalty_flux K w tau U (fun k => dpeval (U k))).
Hypothesis Wq : weak_form Np K w 1 U q (fun k => peval (U k) (-1) - hat k) (fun k => hat (S k) - peval (U k) 1).
Hypothesis WT : weak_form Np K w 1 q T (fun k => w / 2 * (peval (q k) (-1) - sig k)) (fun k => w / 2 * (sig (S k) - peval (q k) 1)).

Lemma element_pair k v g : (k < K)%nat -> (length v <= Np)%nat -> integral_is (fun x => dpeval (U k) x * dpeval v x) (-1) 1 g ->
  integral_is (fun x => w / 2 * peval (T k) x * peval v x) (-1) 1
   (- (2 / w) * (g + dpeval v (-1) * (peval (U k) (-1) - hat k) + dpeval v 1 * (hat (S k) - peval (U k) 1)) +
    (1 - w / 2) * (peval v 1 * peval (q k) 1 - peval v (-1) * peval (q k) (-1)) + w / 2 * (peval v 1 * sig (S k) - peval v (-1) * sig k)).
Proof.
  intros Hk Lv Hg. destruct (Nat.eq_dec (length v) 0) as [E0|E0].
  { destruct v; [|discriminate]. cbn [peval dpeval] in *. assert (Eg : g = 0) by (eapply integral_unique; [exact Hg|]; apply (integral_ext (fun _ => 0)); [intro; ring|apply integral_zero]). rewrite Eg.
    eapply integral_val; [|apply (integral_ext (fun _ => 0)); [intro; ring|apply integral_zero]]. ring. }
  pose proof (Wq k Hk (dpeval (U k)) (dpeval_ok (U k)) (pderiv v) ltac:(pose proof (pderiv_len v); lia)) as H1. rewrite !pderiv_eval in H1.
  pose proof (WT k Hk (dpeval (q k)) (dpeval_ok (q k)) v Lv) as H2.
  set (B := peval v 1 * peval (q k) 1 - peval v (-1) * peval (q k) (-1)).
  assert (HB : integral_is (fun x => dpeval v x * peval (q k) x + peval v x * dpeval (q k) x) (-1) 1 B).
  { exists (fun x => peval v x * peval (q k) x). split; [|reflexivity]. intro x. apply (derivable_pt_lim_mult (peval v) (peval (q k))); apply dpeval_ok. }
  pose proof (integral_plus _ _ _ _ _ _ (integral_plus _ _ _ _ _ _ H2 HB) (integral_scal (- (2 / w)) _ _ _ _ (integral_plus _ _ _ _ _ _ H1 Hg))) as HS.
  eapply integral_val; [|eapply integral_ext; [|exact HS]].
  - unfold B. field. exact Hw.
  - intro x. cbv beta. rewrite pderiv_eval. field. exact Hw.
Qed.

(* elements of width 2: the symmetric interior penalty form *)
Lemma pair_form V s : w = 2 -> (forall k, (k < K)%nat -> (length (V k) <= Np)%nat) ->
  (forall k, (k < K)%nat -> integral_is (fun x => w / 2 * peval (T k) x * peval (V k) x) (-1) 1 (s k)) ->
  interior_penalty K w tau U V (fun k => dpeval (U k)) (fun k => dpeval (V k)) (sumn K s).
Proof.
  intros H2 LV Hs.
  assert (HgE : forall m, (m <= K)%nat -> exists g : nat -> R, forall k, (k < m)%nat -> integral_is (fun x => dpeval (U k) x * dpeval (V k) x) (-1) 1 (g k)).
  { induction m as [|m IH]; intro Hm; [exists (fun _ => 0); intros; lia|]. destruct IH as (g & Hg); [lia|]. destruct (int_prod (pderiv (U m)) (pderiv (V m)) (-1) 1) as (v & Hv).
    exists (fun k => if (k =? m)%nat then v else g k). intros k Hk. destruct (Nat.eqb_spec k m) as [-> |]; [|apply Hg; lia]. eapply integral_ext; [|exact Hv]. intro x. cbv beta. now rewrite !pderiv_eval. }
  destruct (HgE K (le_n K)) as (g & Hg). exists g. split; [exact Hg|].
  set (L0 := fun k => - (dpeval (V k) (-1) * (peval (U k) (-1) - hat k)) - peval (V k) (-1) * sig k).
  set (R0 := fun k => - (dpeval (V k) 1 * (hat (S k) - peval (U k) 1)) + peval (V k) 1 * sig (S k)).
  rewrite (sumn_ext K s (fun k => -1 * g k + (L0 k + R0 k))).
  2:{ intros k Hk. rewrite (integral_unique _ _ _ _ _ (Hs k Hk) (element_pair k (V k) (g k) Hk (LV k Hk) (Hg k Hk))). unfold L0, R0. rewrite H2. field. }
  rewrite sumn_plus, sumn_scal, (vertex_sum K HK), GmresExactProofs.sumn_shift.
  assert (E0 : L0 0%nat = vertex_term K w tau U V (fun k => dpeval (U k)) (fun k => dpeval (V k)) 0) by (unfold L0, vertex_term, trace_mean, penalty_flux; rewrite H2; field).
  assert (ES : sumn K (fun k => R0 k + (if (S k =? K)%nat then 0 else L0 (S k))) = sumn K (fun x => vertex_term K w tau U V (fun k => dpeval (U k)) (fun k => dpeval (V k)) (S x))).
  { apply sumn_ext. intros k Hk. unfold L0, R0, vertex_term, trace_mean, penalty_flux. destruct (Nat.eqb_spec (S k) K); rewrite H2; field. }
  rewrite E0, ES. rewrite H2. unfold Rdiv. field.
Qed.
End Pairing.

Lemma form_sym K w tau U V D D' s s' : interior_penalty K w tau U V D D' s -> interior_penalty K w tau V U D' D s' -> s = s'.
Proof.
  intros (g & Hg & ->) (g' & Hg' & ->). f_equal.
  - f_equal. apply sumn_ext. intros k Hk. eapply integral_unique; [apply Hg; exact Hk|]. eapply integral_ext; [|apply Hg'; exact Hk]. intro x. cbv beta. ring.
  - apply sumn_ext. intros [|e] He; unfold vertex_term; [ring|]. destruct (S e =? K)%nat; ring.
Qed.

Lemma zero_square M f : spoly M f -> integral_is (fun x => f x * f x) (-1) 1 0 -> forall x, f x = 0.
Proof.
  intros Hf Hz. destruct (modal1 gwit gwit_ok M f Hf) as (c & Hc). pose proof (parseval1 gwit gwit_ok M f f c c Hc Hc) as H. pose proof (integral_unique _ _ _ _ _ H Hz) as E0.
  assert (Hp : forall i, (i < S M)%nat -> 0 <= c i * c i) by (intros; nra). pose proof (GmresMath.sumn_nonneg_0 (S M) (fun i => c i * c i) Hp E0) as H0. intro x. rewrite Hc. apply sumn_zero. intros k Hk. specialize (H0 k Hk). cbv beta in H0. assert (c k = 0) by nra. rewrite H1. ring.
Qed.

Section Definite.
Variables (M K : nat) (tau : R) (U : nat -> list R) (s : R).
Local Notation Np := (S (S M)).
Hypothesis HK : (0 < K)%nat.
Hypothesis LU : forall k, (k < K)%nat -> (length (U k) <= Np)%nat.
Hypothesis Htau : tau = INR Np * INR Np / 2.
Hypothesis HF : interior_penalty K 2 tau U U (fun k => dpeval (U k)) (fun k => dpeval (U k)) s.
Local Notation c := ((INR M + 1) * (INR M + 1)).

Lemma slope_bound k g : (k < K)%nat -> integral_is (fun x => dpeval (U k) x * dpeval (U k) x) (-1) 1 g -> dpeval (U k) 1 * dpeval (U k) 1 <= c / 2 * g /\ dpeval (U k) (-1) * dpeval (U k) (-1) <= c / 2 * g.
Proof.
  intros Hk Hg. assert (Hs : spoly M (dpeval (U k))).
  { destruct (deriv_poly (U k)) as (ds & L & H). exists ds. split; [specialize (LU k Hk); lia|exact H]. }
  split; [apply (end_bound1 M _ g Hs Hg)|]. pose proof (end_bound1 M (fun x => dpeval (U k) (0 + -1 * x)) g) as H. cbv beta in H. replace (0 + -1 * 1) with (-1) in H by ring. apply H.
  - apply (spoly_aff M (dpeval (U k)) 0 (-1) Hs).
  - eapply integral_ext; [|apply (integral_flip _ _ Hg)]. intro x. cbv beta. replace (0 + -1 * x) with (- x) by ring. reflexivity.
Qed.
Lemma np_pos : INR Np = INR M + 2 /\ 0 <= INR M.
Proof. rewrite !S_INR. split; [ring|apply pos_INR]. Qed.
(* the slopes meet the vertices *)
Definition ends2 (v : nat) : R := match v with
  | O => dpeval (U 0%nat) (-1) * dpeval (U 0%nat) (-1)
  | S e => if (v =? K)%nat then dpeval (U e) 1 * dpeval (U e) 1 else dpeval (U e) 1 * dpeval (U e) 1 + dpeval (U v) (-1) * dpeval (U v) (-1) end.
Lemma young a b t : 0 < t -> 2 * (a * b) <= 2 / t * (a * a) + t / 2 * (b * b).
Proof. intro Ht. pose proof (Rle_0_sqr (2 * a - t * b)) as H. unfold Rsqr in H. assert (Hi : 0 < / (2 * t)) by (apply Rinv_0_lt_compat; lra). apply Rmult_le_compat_l with (r := / (2 * t)) in H; [|lra].
  rewrite Rmult_0_r in H. replace (2 / t * (a * a) + t / 2 * (b * b)) with (2 * (a * b) + / (2 * t) * ((2 * a - t * b) * (2 * a - t * b))) by (field; lra). lra. Qed.
Lemma vertex_low v : (v <= K)%nat -> vertex_term K 2 tau U U (fun k => dpeval (U k)) (fun k => dpeval (U k)) v <= / (INR Np * INR Np) * ends2 v.
Proof.
  intro Hv. destruct np_pos as (En & Pm). assert (Ht : 0 < INR Np * INR Np) by nra. set (t := INR Np * INR Np) in *. unfold vertex_term, ends2. rewrite Htau. fold t. destruct v as [|e].
  - pose proof (young (- dpeval (U 0%nat) (-1)) (peval (U 0%nat) (-1)) (2 * t) ltac:(lra)). replace (2 / (2 * t)) with (/ t) in H by (field; lra). replace (2 / 2) with 1 by field. nra.
  - destruct (S e =? K)%nat.
    + pose proof (young (dpeval (U e) 1) (peval (U e) 1) (2 * t) ltac:(lra)). replace (2 / (2 * t)) with (/ t) in H by (field; lra). replace (2 / 2) with 1 by field. nra.
    + pose proof (young (dpeval (U e) 1) ((peval (U e) 1 - peval (U (S e)) (-1)) / 2) (2 * t) ltac:(lra)) as H1. pose proof (young (dpeval (U (S e)) (-1)) ((peval (U e) 1 - peval (U (S e)) (-1)) / 2) (2 * t) ltac:(lra)) as H2.
      replace (2 / (2 * t)) with (/ t) in H1, H2 by (field; lra). replace (2 / 2) with 1 by field. nra.
Qed.
Lemma ends_sum : sumn (S K) ends2 = sumn K (fun k => dpeval (U k) (-1) * dpeval (U k) (-1) + dpeval (U k) 1 * dpeval (U k) 1).
Proof.
  rewrite (vertex_sum K HK). rewrite GmresExactProofs.sumn_shift. f_equal. apply sumn_ext. intros k Hk. unfold ends2. destruct (S k =? K)%nat; ring.
Qed.
Lemma negative : exists g, (forall k, (k < K)%nat -> integral_is (fun x => dpeval (U k) x * dpeval (U k) x) (-1) 1 (g k) /\ 0 <= g k) /\ s <= - (1 - c / (INR Np * INR Np)) * sumn K g.
Proof.
  destruct HF as (g & Hg & ->). exists g. assert (Hpos : forall k, (k < K)%nat -> 0 <= g k).
  { intros k Hk. apply (integral_le (fun _ => 0) _ (-1) 1 0 (g k) ltac:(lra)) with (3 := Hg k Hk); [intros; cbv beta; nra|apply integral_zero]. }
  split; [intros k Hk; split; [apply Hg; exact Hk|apply Hpos; exact Hk]|].
  destruct np_pos as (En & Pm). assert (Ht : 0 < INR Np * INR Np) by nra. set (t := INR Np * INR Np) in *. assert (Hit : 0 < / t) by (apply Rinv_0_lt_compat; exact Ht).
  assert (Hle : forall n f h, (forall i, (i < n)%nat -> f i <= h i) -> sumn n f <= sumn n h).
  { intros n f h H. induction n as [|n IH]; [rewrite !sumn_0; lra|]. rewrite !sumn_S. pose proof (H n ltac:(lia)). pose proof (IH ltac:(intros; apply H; lia)). lra. }
  pose proof (Hle (S K) _ (fun v => / t * ends2 v) (fun v Hv => vertex_low v ltac:(lia))) as H1. rewrite sumn_scal, ends_sum in H1.
  assert (H2 : sumn K (fun k => dpeval (U k) (-1) * dpeval (U k) (-1) + dpeval (U k) 1 * dpeval (U k) 1) <= c * sumn K g).
  { rewrite <- sumn_scal. apply Hle. intros k Hk. destruct (slope_bound k (g k) Hk (Hg k Hk)). lra. }
  apply Rmult_le_compat_l with (r := / t) in H2; [|lra]. replace (2 / 2) with 1 by field.
  replace (- (1 - c / t) * sumn K g) with (- (1) * sumn K g + / t * (c * sumn K g)) by (field; lra). lra.
Qed.
Lemma definite : s <= 0 /\ (s = 0 -> forall k, (k < K)%nat -> forall x, peval (U k) x = 0).
Proof.
  destruct negative as (g & Hg & Hs). destruct np_pos as (En & Pm). assert (Ht : 0 < INR Np * INR Np) by nra. set (t := INR Np * INR Np) in *.
  assert (Hc : 0 < 1 - c / t). { assert (c / t < 1); [|lra]. apply Rmult_lt_reg_r with t; [exact Ht|]. unfold Rdiv. rewrite Rmult_assoc, Rinv_l, Rmult_1_r by lra. unfold t. rewrite En. nra. }
  assert (Hsum : 0 <= sumn K g) by (apply sumn_nonneg; intros k Hk; apply Hg; exact Hk). split; [nra|]. intro E0.
  assert (Hz : sumn K g = 0) by nra. pose proof (GmresMath.sumn_nonneg_0 K g (fun k Hk => proj2 (Hg k Hk)) Hz) as Hgz.
  assert (Dz : forall k, (k < K)%nat -> forall x, dpeval (U k) x = 0).
  { intros k Hk. apply (zero_square Np). { exists (pderiv (U k)). split; [pose proof (pderiv_len (U k)); specialize (LU k Hk); lia|intro; symmetry; apply pderiv_eval]. }
    rewrite <- (Hgz k Hk). apply Hg. exact Hk. }
  assert (Cz : forall k, (k < K)%nat -> forall x y, peval (U k) x = peval (U k) y).
  { intros k Hk x y. assert (HI : forall a b, integral_is (fun _ => 0) a b (peval (U k) b - peval (U k) a)) by (intros a b; exists (peval (U k)); split; [intro z; rewrite <- (Dz k Hk z); apply dpeval_ok|reflexivity]).
    pose proof (integral_unique _ _ _ _ _ (HI x y) (integral_zero x y)). lra. }
  destruct HF as (g' & Hg' & Es). rewrite (sumn_zero K g') in Es.
  2:{ intros k Hk. eapply integral_unique; [apply Hg'; exact Hk|]. apply (integral_ext (fun _ => 0)); [intro x; rewrite (Dz k Hk x); ring|apply integral_zero]. }
  assert (Htp : 0 < tau) by (rewrite Htau; fold t; lra).
  set (jmp := fun v => match v with O => 2 * tau * (peval (U 0%nat) (-1) * peval (U 0%nat) (-1)) | S e => if (v =? K)%nat then 2 * tau * (peval (U e) 1 * peval (U e) 1) else tau * ((peval (U e) 1 - peval (U v) (-1)) * (peval (U e) 1 - peval (U v) (-1))) end).
  assert (Ej : sumn (S K) jmp = 0).
  { rewrite E0 in Es. rewrite Rmult_0_r, Rplus_0_l in Es. rewrite (sumn_ext (S K) jmp (fun v => -1 * vertex_term K 2 tau U U (fun k => dpeval (U k)) (fun k => dpeval (U k)) v)).
    - rewrite sumn_scal, <- Es. ring.
    - intros [|e] He; unfold jmp, vertex_term; [rewrite (Dz 0%nat HK); field|]. destruct (Nat.eqb_spec (S e) K); [rewrite (Dz e) by lia; field|]. rewrite (Dz e), (Dz (S e)) by lia. field. }
  assert (Hj : forall v, (v < S K)%nat -> jmp v = 0).
  { apply GmresMath.sumn_nonneg_0; [|exact Ej]. intros [|e] He; unfold jmp; [|destruct (S e =? K)%nat]; (apply Rmult_le_pos; [lra|apply Rle_0_sqr]). }
  assert (Sq : forall t a, 0 < t -> t * (a * a) = 0 -> a = 0) by (intros t0 a H1 H2; apply Rmult_integral in H2; destruct H2; nra).
  induction k as [|k IH]; intros Hk x.
  - rewrite (Cz 0%nat Hk x (-1)). apply (Sq (2 * tau)); [lra|]. exact (Hj 0%nat ltac:(lia)).
  - rewrite (Cz (S k) Hk x (-1)). pose proof (Hj (S k) ltac:(lia)) as H. unfold jmp in H. destruct (Nat.eqb_spec (S k) K); [lia|]. apply Sq in H; [|exact Htp]. rewrite (IH ltac:(lia) 1) in H. lra.
Qed.
End Definite.
