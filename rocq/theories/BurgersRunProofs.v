(* BurgersRunProofs.v - lemmas for C105. *)
From Coq Require Import ZArith List Lia Bool Arith.
From Verif Require Import Base Loops Num JacobiModel JacobiSpec JacobiProofs JacobiOrthProofs JacobiQuadProofs JacobiExactProofs
  DenseSpec CscModel MeshModel Nodes1DModel Nodes1DSpec Nodes1DProofs Nodes1DExactProofs Nodes1DProps RKModel RKSpec RKProofs RKProps Line1DModel Line1DSpec TriBasisProofs Line1DProofs Line1DBurgersProofs Line1DProps
  AdvecRunModel AdvecRunSpec AdvecRunProofs AdvecRunProps BurgersRunModel BurgersRunSpec.
From Coq Require Import Reals Lra.
Import ListNotations.
Local Open Scope R_scope.

(* --- the travelling wave --- *)
Lemma cosh_pos x : 0 < cosh x.
Proof. unfold cosh. pose proof (exp_pos x). pose proof (exp_pos (- x)). lra. Qed.
Lemma cosh_sinh x : cosh x ^ 2 - sinh x ^ 2 = 1.
Proof. unfold cosh, sinh. assert (E : exp x * exp (- x) = 1) by (rewrite <- exp_plus, Rplus_opp_r; apply exp_0). replace (((exp x + exp (- x)) / 2) ^ 2 - ((exp x - exp (- x)) / 2) ^ 2) with (exp x * exp (- x)) by field. exact E. Qed.
Lemma tanh_d x : derivable_pt_lim tanh x (1 - tanh x ^ 2).
Proof.
  pose proof (cosh_pos x) as P. assert (H := derivable_pt_lim_div sinh cosh x (cosh x) (sinh x) (derivable_pt_lim_sinh x) (derivable_pt_lim_cosh x) ltac:(lra)).
  unfold tanh. replace (1 - (sinh x / cosh x) ^ 2) with ((cosh x * cosh x - sinh x * sinh x) / Rsqr (cosh x)); [exact H|]. unfold Rsqr. field. lra.
Qed.
Lemma tanh_0' : tanh 0 = 0.
Proof. unfold tanh, sinh. rewrite Ropp_0. unfold Rdiv. ring. Qed.
(* f (k*(x - v)) along x *)
Lemma dpl_lin f al be x d : derivable_pt_lim f (al + be * x) d -> derivable_pt_lim (fun y => f (al + be * y)) x (be * d).
Proof.
  intro H. assert (L : derivable_pt_lim (fun y => al + be * y) x (0 + (0 * x + be * 1))).
  { apply derivable_pt_lim_plus; [apply derivable_pt_lim_const|]. apply (derivable_pt_lim_mult (fun _ => be) (fun y => y)); [apply derivable_pt_lim_const|apply derivable_pt_lim_id]. }
  assert (C := derivable_pt_lim_comp (fun y => al + be * y) f x _ d L H). replace (be * d) with (d * (0 + (0 * x + be * 1))) by ring. exact C.
Qed.
Lemma dpl_aff f p q x d : derivable_pt_lim f x d -> derivable_pt_lim (fun y => p + q * f y) x (q * d).
Proof.
  intro H. assert (C := derivable_pt_lim_plus (fun _ => p) (fun y => q * f y) x 0 (0 * f x + q * d) (derivable_pt_lim_const p x) (derivable_pt_lim_mult (fun _ => q) f x 0 d (derivable_pt_lim_const q x) H)).
  replace (q * d) with (0 + (0 * f x + q * d)) by ring. exact C.
Qed.
Section Wave.
Variables (alpha nu c : R).
Local Notation k := (c / (2 * nu)).
Local Notation Th x t := (tanh (k * (x - c * t))).
Lemma wave_x x t : derivable_pt_lim (fun y => wave alpha nu c y t) x (- (c / alpha) * k * (1 - Th x t ^ 2)).
Proof.
  replace (- (c / alpha) * k * (1 - Th x t ^ 2)) with (- (c / alpha) * (k * (1 - Th x t ^ 2))) by ring.
  apply (dpl_ext (fun y => c / alpha + - (c / alpha) * tanh (- (k * (c * t)) + k * y))).
  - intro y. unfold wave. replace (- (k * (c * t)) + k * y) with (k * (y - c * t)) by ring. ring.
  - apply dpl_aff, dpl_lin. replace (- (k * (c * t)) + k * x) with (k * (x - c * t)) by ring. apply tanh_d.
Qed.
Lemma wave_t x t : derivable_pt_lim (fun s => wave alpha nu c x s) t (c / alpha * (k * c) * (1 - Th x t ^ 2)).
Proof.
  replace (c / alpha * (k * c) * (1 - Th x t ^ 2)) with (- (c / alpha) * (- (k * c) * (1 - Th x t ^ 2))) by ring.
  apply (dpl_ext (fun s => c / alpha + - (c / alpha) * tanh (k * x + - (k * c) * s))).
  - intro s. unfold wave. replace (k * x + - (k * c) * s) with (k * (x - c * s)) by ring. ring.
  - apply dpl_aff, dpl_lin. replace (k * x + - (k * c) * t) with (k * (x - c * t)) by ring. apply tanh_d.
Qed.
Lemma wave_xx x t : derivable_pt_lim (fun y => - (c / alpha) * k * (1 - Th y t ^ 2)) x (c / alpha * 2 * k ^ 2 * (Th x t * (1 - Th x t ^ 2))).
Proof.
  assert (D : derivable_pt_lim (fun y => Th y t) x (k * (1 - Th x t ^ 2))).
  { apply (dpl_ext (fun y => tanh (- (k * (c * t)) + k * y))); [intro y; f_equal; ring|]. apply dpl_lin. replace (- (k * (c * t)) + k * x) with (k * (x - c * t)) by ring. apply tanh_d. }
  apply (dpl_ext (fun y => - (c / alpha) * k + (c / alpha) * k * (Th y t * Th y t))); [intro y; ring|].
  replace (c / alpha * 2 * k ^ 2 * (Th x t * (1 - Th x t ^ 2))) with (c / alpha * k * (k * (1 - Th x t ^ 2) * Th x t + Th x t * (k * (1 - Th x t ^ 2)))) by ring.
  apply dpl_aff. apply (derivable_pt_lim_mult (fun y => Th y t) (fun y => Th y t)); exact D.
Qed.
End Wave.

(* --- the maximum over the nodes --- *)
Lemma max_at G lowest Np K (m : mat R) : lowest < 0 -> (0 < Np)%nat -> (0 < K)%nat -> shape m Np K -> largest_at Np K (ment m) (max_abs (exact G) lowest m).
Proof.
  intros Hl HN HK (Ur & Uc). unfold max_abs. rewrite Ur, Uc. destruct (max_abs_ge G m (list_prod (seq 0 Np) (seq 0 K)) lowest _ eq_refl) as (H1 & H2 & H3). split.
  - intros i k Hi Hk. apply H2. apply in_prod; apply in_seq; lia.
  - destruct H3 as [H3 | (i & k & HIn & H3)].
    + exfalso. specialize (H2 0%nat 0%nat ltac:(apply in_prod; apply in_seq; lia)). rewrite H3 in H2. pose proof (Rabs_pos (ment m 0%nat 0%nat)). lra.
    + apply in_prod_iff in HIn. rewrite !in_seq in HIn. exists i, k. split; [lia|]. split; [lia|exact H3].
Qed.
Lemma unstable_iff G lowest huge Np K l : lowest < 0 -> (0 < Np)%nat -> (0 < K)%nat ->
  burgers_unstable (exact G) lowest huge Np K l = true <-> exists i k, (i < Np)%nat /\ (k < K)%nat /\ huge < Rabs (value K l i k).
Proof.
  intros Hl HN HK. unfold burgers_unstable. destruct (max_at G lowest Np K (as_field (exact G) Np K l) Hl HN HK ltac:(split; reflexivity)) as (H1 & (i & k & Hi & Hk & Hm)).
  set (m := max_abs _ _ _) in *. clearbody m. cbn [exact flt fle]. unfold Rltb, Rleb. destruct (Rle_dec m m) as [_|C]; [|lra]. cbn [negb]. rewrite orb_false_r.
  destruct (Rlt_dec huge m) as [C|C]; (split; [intro Q; try discriminate Q|intro Q]).
  - exists i, k. split; [exact Hi|]. split; [exact Hk|]. rewrite Hm in C. exact C.
  - reflexivity.
  - exfalso. destruct Q as (i' & k' & Hi' & Hk' & Q). specialize (H1 i' k' Hi' Hk'). cbv beta in H1. change (ment (as_field (exact G) Np K l) i' k') with (value K l i' k') in H1. lra.
Qed.

Section Run.
Variable G : R -> R.
Local Notation E := (exact G).
Variables (junk : nat -> nat -> R) (junkv : nat -> R) (ftanh : R -> R) (lowest : R).
Variables (n : @nodes1d R) (J rx Fs : mat R) (Np K : nat) (a w : R).
Hypothesis LT : line_tables n J rx Fs Np K w.
Hypothesis HX : forall i k, (i < Np)%nat -> (k < K)%nat -> ment (n_x n) i k = a + w * INR k + w / 2 * (1 + nth i (n_r n) 0).
Hypothesis SX : shape (n_x n) Np K.
Local Notation r := (n_r n).
Local Notation rhs t c alpha nu := (on_lists E Np K (burgers_rhs E junk junkv ftanh lowest n rx Fs Np K (n_x n) t c alpha nu)).
Local Notation F l := (as_field E Np K l).

Lemma brhs_ok t c alpha nu l : exists q, rhs t c alpha nu l = Ok q /\ length q = (Np * K)%nat.
Proof.
  destruct (interp_exists n J rx Fs Np K w LT (F l)) as (U & HU).
  destruct (burgers_ok G junk junkv ftanh lowest n J rx Fs Np K w LT (n_x n) t c alpha nu (F l) U ltac:(split; reflexivity) SX HU) as (q & m & P & Em & (Sr & Sc) & _).
  exists (of_field m). unfold on_lists. rewrite Em. cbn [bind]. split; [reflexivity|]. rewrite of_field_len, Sr, Sc. reflexivity.
Qed.

(* a continuous field: one polynomial P in x *)
Lemma on_element P m k : (k < K)%nat -> (length P <= Np)%nat -> (forall i, (i < Np)%nat -> ment m i k = peval P (ment (n_x n) i k)) ->
  forall U, interpolates Np r m k U -> forall s, peval U s = peval P (a + w * INR k + w / 2 * (1 + s)) /\ dpeval U s = w / 2 * dpeval P (a + w * INR k + w / 2 * (1 + s)).
Proof.
  intros Hk LP HF U HU.
  destruct (compose P (a + w * INR k + w / 2) (w / 2)) as (ds & Ld & Ed & Dd).
  assert (HD : interpolates Np r m k ds).
  { split; [lia|]. intros i Hi. rewrite HF by auto. rewrite Ed, HX by auto. f_equal. ring. }
  assert (Eq := interp_unique n J rx Fs Np K w LT m k U ds HU HD).
  intro s. rewrite (same_deriv U ds Eq), Eq, Ed, Dd. replace (a + w * INR k + w / 2 + w / 2 * s) with (a + w * INR k + w / 2 * (1 + s)) by ring. split; reflexivity.
Qed.
Lemma no_jump P U : (forall k s, (k < K)%nat -> peval (U k) s = peval P (a + w * INR k + w / 2 * (1 + s))) ->
  (Lv U 0 = peval P a) /\ (Rv U (K - 1) = peval P (a + w * INR K)) /\
  forall k, (k < K)%nat -> (k <> 0%nat -> side U (0 + k * 2) = side U (mate K (0 + k * 2))) /\ (S k <> K -> side U (1 + k * 2) = side U (mate K (1 + k * 2))).
Proof.
  intro HU. pose proof (lt_K _ _ _ _ _ _ _ LT) as HK. split; [|split].
  - unfold Lv. rewrite HU by auto. f_equal. cbn [INR]. ring.
  - unfold Rv. rewrite HU by lia. f_equal. rewrite minus_INR by lia. cbn [INR]. field.
  - intros k Hk. split; intro Hn.
    + rewrite mate_l by auto. destruct k as [|k]; [lia|]. rewrite side_l, side_r. unfold Lv, Rv. rewrite !HU by lia. f_equal. rewrite S_INR. field.
    + rewrite mate_r by auto. destruct (Nat.eqb_spec (S k) K); [lia|]. rewrite side_l, side_r. unfold Lv, Rv. rewrite !HU by lia. f_equal. rewrite S_INR. field.
Qed.

Lemma consistent t c alpha nu P l v : 0 <= nu -> (length P <= Np)%nat -> follows Np K (n_x n) l 0 (peval P) ->
  peval P a = Burgers2 E ftanh (ment (n_x n) 0%nat 0%nat) t alpha nu c -> peval P (a + w * INR K) = Burgers2 E ftanh (ment (n_x n) (Np - 1)%nat (K - 1)%nat) t alpha nu c ->
  rhs t c alpha nu l = Ok v -> forall i k Q, (i < Np)%nat -> (k < K)%nat -> (length Q <= Np)%nat ->
    (forall j, (j < Np)%nat -> peval Q (ment (n_x n) j k) = peval P (ment (n_x n) j k) ^ 2 / 2) ->
  value K v i k = - dpeval Q (ment (n_x n) i k) + nu * dpeval (pderiv P) (ment (n_x n) i k).
Proof.
  intros Hnu LP HF PL PR Ev i k Q Hi Hk LQ HQ.
  destruct (interp_exists n J rx Fs Np K w LT (F l)) as (U & HU).
  destruct (burgers_ok G junk junkv ftanh lowest n J rx Fs Np K w LT (n_x n) t c alpha nu (F l) U ltac:(split; reflexivity) SX HU) as (q & m & Pq & Em & Sm & Sq & HPq & Vq & Vm).
  rewrite <- PL, <- PR in Vq, Vm. set (sn := sqrt nu) in *. assert (Hs : sn * sn = nu) by (apply sqrt_sqrt; exact Hnu).
  set (M := max_abs E lowest (F l)) in *. clearbody M.
  unfold on_lists in Ev. rewrite Em in Ev. cbn [bind] in Ev. injection Ev as <-. rewrite (of_field_value m Np K) by auto.
  pose proof (lt_w _ _ _ _ _ _ _ LT) as Hw. pose proof (lt_K _ _ _ _ _ _ _ LT) as HK.
  assert (HU' : forall k s, (k < K)%nat -> peval (U k) s = peval P (a + w * INR k + w / 2 * (1 + s)) /\ dpeval (U k) s = w / 2 * dpeval P (a + w * INR k + w / 2 * (1 + s))).
  { intros k' s Hk'. apply (on_element P (F l) k' Hk' LP); [|apply HU; exact Hk']. intros i' Hi'. rewrite (as_value G). apply HF; [exact Hi'|lia]. }
  destruct (no_jump P U ltac:(intros; apply HU'; auto)) as (J0 & JK & Ji).
  assert (DU : forall k, (k < K)%nat -> du_at K (peval P a) (peval P (a + w * INR K)) U (0 + k * 2) = 0 /\ du_at K (peval P a) (peval P (a + w * INR K)) U (1 + k * 2) = 0).
  { intros k' Hk'. destruct (Ji k' Hk') as (JL & JR). unfold du_at. rewrite J0, JK. split.
    - destruct (Nat.eqb_spec (0 + k' * 2) (2 * K - 1)); [lia|]. destruct (Nat.eqb_spec (0 + k' * 2) 0); [ring|]. rewrite JL by lia. ring.
    - destruct (Nat.eqb_spec (1 + k' * 2) (2 * K - 1)); [ring|]. destruct (Nat.eqb_spec (1 + k' * 2) 0); [lia|]. rewrite JR by lia. ring. }
  set (P1 := pscal sn (pderiv P)).
  assert (L1 : (length P1 <= Np)%nat) by (unfold P1; rewrite pscal_len; pose proof (pderiv_len P); lia).
  assert (Qv : forall i k, (i < Np)%nat -> (k < K)%nat -> ment q i k = peval P1 (ment (n_x n) i k)).
  { intros i' k' Hi' Hk'. rewrite Vq by auto. destruct (DU k' Hk') as (-> & ->). unfold P1. rewrite pscal_eval, pderiv_eval. destruct (HU' k' (nth i' r 0) Hk') as (_ & ->). rewrite HX by auto. field. exact Hw. }
  assert (HPq' : forall k s, (k < K)%nat -> peval (Pq k) s = peval P1 (a + w * INR k + w / 2 * (1 + s)) /\ dpeval (Pq k) s = w / 2 * dpeval P1 (a + w * INR k + w / 2 * (1 + s))).
  { intros k' s Hk'. apply (on_element P1 q k' Hk' L1); [intros; apply Qv; auto|apply HPq; exact Hk']. }
  destruct (no_jump P1 Pq ltac:(intros; apply HPq'; auto)) as (_ & _ & Jq).
  assert (DQ : dq_at K Pq (0 + k * 2) = 0 /\ dq_at K Pq (1 + k * 2) = 0).
  { destruct (Jq k Hk) as (JL & JR). unfold dq_at. split.
    - destruct (Nat.eqb_spec (0 + k * 2) 0); [reflexivity|]. destruct (Nat.eqb_spec (0 + k * 2) (2 * K - 1)); [lia|]. rewrite JL by lia. ring.
    - destruct (Nat.eqb_spec (1 + k * 2) 0); [lia|]. destruct (Nat.eqb_spec (1 + k * 2) (2 * K - 1)); [reflexivity|]. rewrite JR by lia. ring. }
  assert (D2 : du2_at K (peval P a) (peval P (a + w * INR K)) U (0 + k * 2) = 0 /\ du2_at K (peval P a) (peval P (a + w * INR K)) U (1 + k * 2) = 0).
  { destruct (Ji k Hk) as (JL & JR). unfold du2_at. rewrite J0, JK. split.
    - destruct (Nat.eqb_spec (0 + k * 2) (2 * K - 1)); [lia|]. destruct (Nat.eqb_spec (0 + k * 2) 0); [ring|]. rewrite JL by lia. ring.
    - destruct (Nat.eqb_spec (1 + k * 2) (2 * K - 1)); [ring|]. destruct (Nat.eqb_spec (1 + k * 2) 0); [lia|]. rewrite JR by lia. ring. }
  (* the flux on every element: on element k through Q, elsewhere any interpolant *)
  destruct (interp_exists n J rx Fs Np K w LT (mkmat Np K (fun i k => ment (F l) i k * ment (F l) i k / 2 - sn * ment q i k))) as (FF & HFF).
  rewrite (Vm FF) by (first [exact Hi | exact Hk | intros; apply HFF; auto | intros i' k' Hi' Hk'; destruct (HFF k' Hk') as (_ & HH); rewrite <- HH by auto; reflexivity]).
  destruct (DU k Hk) as (-> & ->). destruct DQ as (-> & ->). destruct D2 as (-> & ->).
  set (R1 := padd Q (pscal (- sn) P1)).
  assert (LR : (length R1 <= Np)%nat) by (unfold R1; rewrite padd_len, pscal_len; lia).
  assert (HR : forall s, peval (FF k) s = peval R1 (a + w * INR k + w / 2 * (1 + s)) /\ dpeval (FF k) s = w / 2 * dpeval R1 (a + w * INR k + w / 2 * (1 + s))).
  { intro s. apply (on_element R1 (mkmat Np K (fun i k => ment (F l) i k * ment (F l) i k / 2 - sn * ment q i k)) k Hk LR); [|apply HFF; exact Hk].
    intros j Hj. cbn [ment]. unfold R1. rewrite padd_eval, pscal_eval, HQ, Qv by auto. rewrite (as_value G), (HF j k Hj ltac:(lia)). field. }
  destruct (HR (nth i r 0)) as (_ & ->). rewrite <- HX by auto.
  assert (DR : forall x, dpeval R1 x = dpeval Q x - nu * dpeval (pderiv P) x).
  { intro x. apply (uniqueness_limite (peval R1) x); [apply dpeval_ok|].
    apply (dpl_ext (fun y => peval Q y - nu * peval (pderiv P) y)).
    - intro y. unfold R1, P1. rewrite padd_eval, !pscal_eval. rewrite <- Hs. ring.
    - apply (derivable_pt_lim_minus (peval Q) (fun y => nu * peval (pderiv P) y)); [apply dpeval_ok|]. replace (nu * dpeval (pderiv P) x) with (0 * peval (pderiv P) x + nu * dpeval (pderiv P) x) by ring.
      apply (derivable_pt_lim_mult (fun _ => nu) (peval (pderiv P))); [apply derivable_pt_lim_const|apply dpeval_ok]. }
  rewrite DR. field. exact Hw.
Qed.
End Run.

(* products of polynomials, with their length *)
Lemma pmul_len P : forall Q, exists m, (length m <= length P + length Q - 1)%nat /\ forall x, peval m x = peval P x * peval Q x.
Proof.
  induction P as [|p P IH]; intro Q; [exists []; split; [cbn; lia|intro; cbn; ring]|].
  destruct Q as [|q0 Q]; [exists []; split; [cbn; lia|intro; cbn; ring]|].
  destruct (IH (q0 :: Q)) as (m & Lm & Hm). exists (padd (pscal p (q0 :: Q)) (0 :: m)). split.
  - rewrite padd_len, pscal_len. cbn [length] in *. lia.
  - intro x. rewrite padd_eval, pscal_eval. cbn [peval] in *. rewrite Hm. ring.
Qed.
