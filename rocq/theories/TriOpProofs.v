(* TriOpProofs.v - orthonormality on the triangle; differentiation, weak differentiation, interpolation, filter. *)
From Coq Require Import ZArith List Lia Bool Arith.
From Verif Require Import Base Loops Num BlitzModel JacobiModel JacobiSpec JacobiProofs JacobiOrthProofs JacobiQuadProofs JacobiExactProofs DenseSpec Nodes1DModel Nodes1DSpec Nodes1DExactProofs TriModel TriSpec TriBasisProofs TriProofs.
From Coq Require Import Reals Lra.
Import ListNotations.
Local Open Scope R_scope.

Lemma tint_ext f g v : (forall r s, f r s = g r s) -> triangle_integral f v -> triangle_integral g v.
Proof. intros H (I & A & B). exists I. split; [|exact B]. intro s. eapply integral_ext; [|apply A]. intro; apply H. Qed.
Lemma tint_plus f g v w : triangle_integral f v -> triangle_integral g w -> triangle_integral (fun r s => f r s + g r s) (v + w).
Proof. intros (I & A & B) (J & A' & B'). exists (fun s => I s + J s). split; [|apply integral_plus; assumption]. intro s. apply integral_plus; [apply A|apply A']. Qed.
Lemma tint_scal c f v : triangle_integral f v -> triangle_integral (fun r s => c * f r s) (c * v).
Proof. intros (I & A & B). exists (fun s => c * I s). split; [|apply integral_scal; exact B]. intro s. apply (integral_scal c (fun r => f r s)); apply A. Qed.
Lemma tint_zero : triangle_integral (fun _ _ => 0) 0.
Proof. exists (fun _ => 0). split; [intro|]; apply integral_zero. Qed.
Lemma tint_val f v w : v = w -> triangle_integral f v -> triangle_integral f w.
Proof. intros ->. auto. Qed.
Lemma tint_sum n f v : (forall k, (k < n)%nat -> triangle_integral (f k) (v k)) -> triangle_integral (fun r s => sumn n (fun k => f k r s)) (sumn n v).
Proof.
  induction n as [|n IH]; intro H; [apply tint_zero|]. rewrite sumn_S. eapply tint_ext; [intros r s; symmetry; apply sumn_S|]. apply tint_plus; [apply IH; intros; apply H; lia|apply H; lia].
Qed.
Lemma integral_unique f a b v w : integral_is f a b v -> integral_is f a b w -> v = w.
Proof.
  intros (F & HF & <-) (K & HK & <-). assert (D : forall x, derivable_pt_lim (fun x => F x - K x) x 0).
  { intro x. replace 0 with (f x - f x) by ring. apply (derivable_pt_lim_minus F K); [apply HF|apply HK]. }
  assert (pr : derivable (fun x => F x - K x)) by (intro x; exists 0; apply D).
  assert (C : constant (fun x => F x - K x)) by (apply null_derivative_1 with pr; intro x; apply derive_pt_eq_0; apply D).
  pose proof (C a b) as Hc. cbv beta in Hc. lra.
Qed.
Lemma tint_unique f v w : triangle_integral f v -> triangle_integral f w -> v = w.
Proof.
  intros (I & A & B) (J & A' & B'). apply (integral_unique I (-1) 1 v w B). eapply integral_ext; [|exact B']. intro s. cbv beta. eapply integral_unique; [apply A'|apply A].
Qed.

Section TriOp.
Variable G : R -> R.
Hypothesis HG : gamma_like G.
Local Notation E := (exact G).
Local Notation P := (jac G 0 0).
Local Notation al i := (2 * INR i + 1).
Local Notation Q i := (jac G (al i) 0).
Local Notation sb := (sb G).
Local Notation bas := (bas G).

Lemma anti_poly (p : poly2) s : exists F, forall r, derivable_pt_lim F r (eval2 p r s).
Proof.
  induction p as [|[[i j] c] p (F & HF)].
  - exists (fun _ => 0). intro. apply derivable_pt_lim_const.
  - exists (fun r => c * s ^ j / INR (S i) * r ^ S i + F r). intro r. cbn [eval2].
    replace (c * r ^ i * s ^ j) with (c * s ^ j / INR (S i) * (INR (S i) * r ^ pred (S i))) by (cbn [pred]; field; apply not_0_INR; lia).
    apply (derivable_pt_lim_plus (fun r => c * s ^ j / INR (S i) * r ^ S i)); [|apply HF].
    apply (derivable_pt_lim_scal (fun r => r ^ S i)). apply derivable_pt_lim_pow.
Qed.
Lemma inner i j k l s : integral_is (fun r => sb i j r s * sb k l r s) (-1) (- s) (if (i =? k)%nat then cu s ^ (i + k + 1) * Q i j s * Q k l s else 0).
Proof.
  destruct (Req_EM_T s 1) as [->|Hs].
  - destruct (tpoly_mul _ _ _ _ (sb_poly G HG i j) (sb_poly G HG k l)) as (p & _ & Hp). destruct (anti_poly p 1) as (F & HF). exists F. split.
    + intro r. rewrite Hp. apply HF.
    + replace (- (1)) with (-1) by ring. replace (F (-1) - F (-1)) with 0 by ring. destruct (i =? k)%nat; [|reflexivity].
      unfold cu. replace (1 - 1) with 0 by ring. rewrite pow_add. cbn [pow]. ring.
  - assert (Hu : cu s <> 0) by (unfold cu; lra).
    destruct (orth G HG i k 0 0) as (F & HF & Hv). change (INR 0) with 0 in *.
    exists (fun r => cu s ^ (i + k + 1) * Q i j s * Q k l s * F (cv r s / cu s)). split.
    + intro r. replace (sb i j r s * sb k l r s) with (cu s ^ (i + k + 1) * Q i j s * Q k l s * (weight 0 0 (cv r s / cu s) * P i (cv r s / cu s) * P k (cv r s / cu s) * (2 / cu s))).
      * apply (derivable_pt_lim_scal (fun r => F (cv r s / cu s))). apply (derivable_pt_lim_comp (fun r => cv r s / cu s) F); [|apply HF].
        apply (dpl_ext (fun t => 2 / cu s * t + (1 + s) / cu s)); [intro; unfold cv; field; exact Hu|]. apply dpl_aff.
      * unfold TriBasisProofs.sb, Hf. destruct (Req_EM_T (cu s) 0); [contradiction|]. unfold weight. cbn [pow]. rewrite !pow_add. cbn [pow].
        replace (sqrt 2 * (cu s ^ i * P i (cv r s / cu s)) * Q i j s * (sqrt 2 * (cu s ^ k * P k (cv r s / cu s)) * Q k l s))
          with ((sqrt 2 * sqrt 2) * (cu s ^ i * P i (cv r s / cu s)) * Q i j s * ((cu s ^ k * P k (cv r s / cu s)) * Q k l s)) by ring.
        rewrite sqrt_sqrt by lra. field. exact Hu.
    + replace (cv (- s) s / cu s) with 1 by (unfold cv, cu in *; field; exact Hu). replace (cv (-1) s / cu s) with (-1) by (unfold cv, cu in *; field; exact Hu).
      rewrite <- Rmult_minus_distr_l, Hv. destruct (i =? k)%nat; ring.
Qed.
Lemma sb_orth i j k l : triangle_integral (fun r s => sb i j r s * sb k l r s) (if ((i =? k) && (j =? l))%nat then 1 else 0).
Proof.
  eexists. split; [intro s; apply inner|]. destruct (Nat.eqb_spec i k) as [->|Hn]; cbn [andb]; [|apply integral_zero].
  pose proof (orth G HG j l (2 * k + 1) 0) as H. rewrite plus_INR, mult_INR in H. change (INR 0) with 0 in H. change (INR 1) with 1 in H. replace (INR 2) with 2 in H by (simpl; ring).
  eapply integral_ext; [|exact H]. intro s. cbv beta. unfold weight, cu. replace (k + k + 1)%nat with (2 * k + 1)%nat by lia. cbn [pow]. ring.
Qed.
Lemma modes_nodup N : NoDup (modes N).
Proof.
  rewrite modes_pre. assert (H : forall i, NoDup (prefix N i) /\ forall a b, In (a, b) (prefix N i) -> (a < i)%nat).
  { induction i as [|i (IH & IH')]; [split; [constructor|contradiction]|]. rewrite pre_S. split.
    - assert (H2 : NoDup (map (fun j => (i, j)) (seq 0 (S (N - i))))).
      { apply FinFun.Injective_map_NoDup; [intros x y Hxy; congruence|apply seq_NoDup]. }
      clear - IH IH' H2. induction (prefix N i) as [|[a b] l IHl]; [exact H2|]. inversion IH; subst. cbn [app]. constructor.
      + rewrite in_app_iff. intros [Hi|Hi]; [contradiction|]. apply in_map_iff in Hi. destruct Hi as (y & Ey & _). inversion Ey; subst. pose proof (IH' _ _ (or_introl eq_refl)). lia.
      + apply IHl; [assumption|]. intros. eapply IH'. right. eassumption.
    - intros a b Hin. apply in_app_iff in Hin. destruct Hin as [Hin|Hin]; [apply IH' in Hin; lia|]. apply in_map_iff in Hin. destruct Hin as (y & Ey & _). inversion Ey; subst. lia. }
  apply H.
Qed.
Lemma bas_orth N a b : (a < length (modes N))%nat -> (b < length (modes N))%nat -> triangle_integral (fun r s => bas N a r s * bas N b r s) (if (a =? b)%nat then 1 else 0).
Proof.
  intros Ha Hb. unfold TriProofs.bas. eapply tint_val; [|apply sb_orth]. destruct (Nat.eqb_spec a b) as [->|Hn]; [rewrite !Nat.eqb_refl; reflexivity|].
  destruct ((fst (mode N a) =? fst (mode N b)) && (snd (mode N a) =? snd (mode N b)))%nat eqn:Eb; [|reflexivity]. exfalso. apply Hn.
  apply andb_true_iff in Eb. destruct Eb as (E1 & E2). apply Nat.eqb_eq in E1, E2.
  apply (proj1 (NoDup_nth (modes N) (0%nat, 0%nat)) (modes_nodup N) a b Ha Hb). fold (mode N a) (mode N b). rewrite (surjective_pairing (mode N a)), (surjective_pairing (mode N b)). congruence.
Qed.
Local Notation modal := (modal G).
Lemma parseval N f g a b : (forall r s, f r s = sumn (length (modes N)) (fun k => a k * bas N k r s)) -> (forall r s, g r s = sumn (length (modes N)) (fun k => b k * bas N k r s)) ->
  triangle_integral (fun r s => f r s * g r s) (sumn (length (modes N)) (fun k => a k * b k)).
Proof.
  intros Hf Hg. set (n := length (modes N)) in *.
  apply tint_ext with (fun r s => sumn n (fun k => sumn n (fun m => a k * b m * (bas N k r s * bas N m r s)))).
  { intros r s. rewrite Hf, Hg. rewrite (Rmult_comm (sumn n _)), <- sumn_scal. apply sumn_ext. intros k Hk. rewrite Rmult_comm, <- sumn_scal. apply sumn_ext. intros; ring. }
  apply tint_sum. intros k Hk. replace (a k * b k) with (sumn n (fun m => a k * b m * if (k =? m)%nat then 1 else 0)).
  - apply tint_sum. intros m Hm. apply tint_scal. now apply bas_orth.
  - rewrite (sumn_pick n _ k Hk); [rewrite Nat.eqb_refl; ring|]. intros m _ Hm. destruct (Nat.eqb_spec k m); [congruence|ring].
Qed.

(* ---- derivative of a polynomial is a polynomial ---- *)
Definition ddr (p : poly2) : poly2 := map (fun t => (pred (fst (fst t)), snd (fst t), INR (fst (fst t)) * snd t)) p.
Definition dds (p : poly2) : poly2 := map (fun t => (fst (fst t), pred (snd (fst t)), INR (snd (fst t)) * snd t)) p.
Lemma ddr_ok p r s : dr_is (eval2 p) r s (eval2 (ddr p) r s).
Proof.
  unfold dr_is. induction p as [|[[i j] c] p IH]; cbn [eval2 ddr map fst snd]; [apply derivable_pt_lim_const|].
  replace (INR i * c * r ^ pred i * s ^ j) with (c * s ^ j * (INR i * r ^ pred i)) by ring.
  apply (dpl_ext (fun t => c * s ^ j * t ^ i + eval2 p t s)); [intro; ring|].
  apply (derivable_pt_lim_plus (fun t => c * s ^ j * t ^ i)); [|exact IH]. apply (derivable_pt_lim_scal (fun t => t ^ i)). apply derivable_pt_lim_pow.
Qed.
Lemma dds_ok p r s : ds_is (eval2 p) r s (eval2 (dds p) r s).
Proof.
  unfold ds_is. induction p as [|[[i j] c] p IH]; cbn [eval2 dds map fst snd]; [apply derivable_pt_lim_const|].
  replace (INR j * c * r ^ i * s ^ pred j) with (c * r ^ i * (INR j * s ^ pred j)) by ring.
  apply (derivable_pt_lim_plus (fun t => c * r ^ i * t ^ j)); [|exact IH]. apply (derivable_pt_lim_scal (fun t => t ^ j)). apply derivable_pt_lim_pow.
Qed.
Lemma ddr_deg N p : degree2 N p -> degree2 N (ddr p).
Proof. intro H. apply Forall_map. eapply Forall_impl; [|exact H]. cbn [fst snd]. intros; lia. Qed.
Lemma dds_deg N p : degree2 N p -> degree2 N (dds p).
Proof. intro H. apply Forall_map. eapply Forall_impl; [|exact H]. cbn [fst snd]. intros; lia. Qed.
(* the basis functions as polynomials, and the coefficients of their derivatives *)
Lemma bas_poly N c : (c < length (modes N))%nat -> exists p, degree2 N p /\ forall r s, bas N c r s = eval2 p r s.
Proof. intro Hc. apply (tpoly_le (fst (mode N c) + snd (mode N c)) N); [now apply mode_le|]. apply sb_poly. exact HG. Qed.

(* ---- differentiation matrices ---- *)
Lemma deriv_coefs N (isd : (R -> R -> R) -> R -> R -> R -> Prop) :
  (forall p, degree2 N p -> exists q, degree2 N q /\ forall r s, isd (eval2 p) r s (eval2 q r s)) ->
  (forall f g r s v, (forall r s, f r s = g r s) -> isd f r s v -> isd g r s v) ->
  exists C : nat -> nat -> R, forall j, (j < length (modes N))%nat ->
    forall r s, isd (bas N j) r s (sumn (length (modes N)) (fun k => C k j * bas N k r s)).
Proof.
  intros Hd Hx.
  assert (H : forall n, (n <= length (modes N))%nat -> exists C : nat -> nat -> R, forall j, (j < n)%nat ->
    forall r s, isd (bas N j) r s (sumn (length (modes N)) (fun k => C k j * bas N k r s))).
  { induction n as [|n IH]; intro Hn; [exists (fun _ _ => 0); intros; lia|]. destruct (IH ltac:(lia)) as (C & HC).
    destruct (bas_poly N n Hn) as (p & Dp & Hp). destruct (Hd p Dp) as (q & Dq & Hq). destruct (modal_ex G HG N q Dq) as (c & Hc).
    exists (fun k j => if (j =? n)%nat then c k else C k j). intros j Hj r s. destruct (Nat.eq_dec j n) as [->|Hne].
    - rewrite Nat.eqb_refl. rewrite <- Hc. eapply Hx; [|apply Hq]. intros; symmetry; apply Hp.
    - destruct (Nat.eqb_spec j n); [contradiction|]. apply HC. lia. }
  apply (H _ (le_n _)).
Qed.
Lemma dr_ext f g r s v : (forall r s, f r s = g r s) -> dr_is f r s v -> dr_is g r s v.
Proof. unfold dr_is. intros H D. eapply dpl_ext; [|exact D]. intro; apply H. Qed.
Lemma ds_ext f g r s v : (forall r s, f r s = g r s) -> ds_is f r s v -> ds_is g r s v.
Proof. unfold ds_is. intros H D. eapply dpl_ext; [|exact D]. intro; apply H. Qed.
Lemma dr_unique f r s v w : dr_is f r s v -> dr_is f r s w -> v = w.
Proof. apply uniqueness_limite. Qed.
Lemma ds_unique f r s v w : ds_is f r s v -> ds_is f r s w -> v = w.
Proof. apply uniqueness_limite. Qed.
Lemma dr_coefs N : exists C : nat -> nat -> R, forall j, (j < length (modes N))%nat -> forall r s, dr_is (bas N j) r s (sumn (length (modes N)) (fun k => C k j * bas N k r s)).
Proof. apply deriv_coefs; [|exact dr_ext]. intros p D. exists (ddr p). split; [now apply ddr_deg|]. intros; apply ddr_ok. Qed.
Lemma ds_coefs N : exists C : nat -> nat -> R, forall j, (j < length (modes N))%nat -> forall r s, ds_is (bas N j) r s (sumn (length (modes N)) (fun k => C k j * bas N k r s)).
Proof. apply deriv_coefs; [|exact ds_ext]. intros p D. exists (dds p). split; [now apply dds_deg|]. intros; apply dds_ok. Qed.
Lemma comb_poly N (c : nat -> R) : exists p, degree2 N p /\ modal N p c.
Proof.
  unfold TriProofs.modal. assert (H : forall n, (n <= length (modes N))%nat -> exists p, degree2 N p /\ forall r s, eval2 p r s = sumn n (fun k => c k * bas N k r s)).
  { induction n as [|n IH]; intro Hn; [exists []; split; [constructor|reflexivity]|]. destruct (IH ltac:(lia)) as (p & Dp & Hp). destruct (bas_poly N n Hn) as (q & Dq & Hq).
    exists (p ++ mono2 0 0 (c n) q). split; [apply Forall_app; split; [exact Dp|apply (mono2_deg 0 0 (c n) q N Dq)]|].
    intros r s. rewrite eval2_app, mono2_eval, Hp, sumn_S, Hq. cbn [pow]. ring. }
  apply (H _ (le_n _)).
Qed.
(* the weak form: W V V' = V Vd' with V invertible *)
Lemma weak_form N r s (V Vd W Vi : mat R) (C : nat -> nat -> R) :
  let n := length (modes N) in
  length r = n ->
  (forall i c, (i < n)%nat -> (c < n)%nat -> ment V i c = bas N c (nth i r 0) (nth i s 0)) ->
  (forall i c, (i < n)%nat -> (c < n)%nat -> ment Vd i c = sumn n (fun k => C k c * ment V i k)) ->
  (forall i j, (i < n)%nat -> (j < n)%nat -> sumn n (fun k => ment Vi i k * ment V k j) = if (i =? j)%nat then 1 else 0) ->
  (forall i a, (i < n)%nat -> (a < n)%nat -> sumn n (fun k => sumn n (fun c => ment V k c * ment V a c) * ment W i k) = sumn n (fun c => ment V i c * ment Vd a c)) ->
  forall p b, modal N p b -> forall i, (i < n)%nat ->
    sumn n (fun m => ment W i m * eval2 p (nth m r 0) (nth m s 0)) = sumn n (fun j => sumn n (fun k => C k j * b k) * bas N j (nth i r 0) (nth i s 0)).
Proof.
  intros n Lr HV HVd HI HW p b Hb i Hi.
  (* W V = V C' *)
  assert (WV : forall c, (c < n)%nat -> sumn n (fun k => ment W i k * ment V k c) = sumn n (fun j => ment V i j * C c j)).
  { intros c Hc.
    assert (H1 : sumn n (fun a => ment Vi c a * sumn n (fun k => sumn n (fun d => ment V k d * ment V a d) * ment W i k)) = sumn n (fun k => ment W i k * ment V k c)).
    { rewrite (sumn_ext n _ (fun a => sumn n (fun k => ment Vi c a * (sumn n (fun d => ment V k d * ment V a d) * ment W i k)))) by (intros; rewrite sumn_scal; reflexivity).
      rewrite sumn_swap. apply sumn_ext. intros k Hk.
      rewrite (sumn_ext n _ (fun a => ment W i k * sumn n (fun d => ment V k d * (ment Vi c a * ment V a d)))).
      2: { intros a Ha. rewrite (sumn_ext n (fun d => ment V k d * (ment Vi c a * ment V a d)) (fun d => ment Vi c a * (ment V k d * ment V a d))) by (intros; ring). rewrite sumn_scal. ring. }
      rewrite sumn_scal, sumn_swap. f_equal.
      rewrite (sumn_ext n _ (fun d => if (d =? c)%nat then ment V k d else 0)).
      - apply (sumn_if n c (ment V k) Hc).
      - intros d Hd. rewrite sumn_scal, HI by assumption. rewrite (Nat.eqb_sym d c). destruct (c =? d)%nat; ring. }
    rewrite <- H1. rewrite (sumn_ext n _ (fun a => ment Vi c a * sumn n (fun d => ment V i d * ment Vd a d))) by (intros a Ha; rewrite HW by assumption; reflexivity).
    rewrite (sumn_ext n _ (fun a => sumn n (fun d => ment V i d * (sumn n (fun k => C k d * (ment Vi c a * ment V a k)))))).
    2: { intros a Ha. rewrite <- sumn_scal. apply sumn_ext. intros d Hd. rewrite HVd by assumption.
         rewrite (sumn_ext n (fun k => C k d * (ment Vi c a * ment V a k)) (fun k => ment Vi c a * (C k d * ment V a k))) by (intros; ring). rewrite sumn_scal. ring. }
    rewrite sumn_swap. apply sumn_ext. intros d Hd. rewrite sumn_scal. f_equal. rewrite sumn_swap.
    rewrite (sumn_ext n _ (fun k => if (k =? c)%nat then C k d else 0)).
    - apply (sumn_if n c (fun k => C k d) Hc).
    - intros k Hk. rewrite sumn_scal, HI by assumption. rewrite (Nat.eqb_sym k c). destruct (c =? k)%nat; ring. }
  rewrite (row_modal G N p b _ n (fun m => nth m r 0) (fun m => nth m s 0) Hb). fold n.
  rewrite (sumn_ext n _ (fun c => b c * sumn n (fun j => ment V i j * C c j))).
  2: { intros c Hc. rewrite <- WV by assumption. f_equal. apply sumn_ext. intros k Hk. rewrite HV by assumption. reflexivity. }
  rewrite (sumn_ext n _ (fun c => sumn n (fun j => C c j * b c * bas N j (nth i r 0) (nth i s 0)))).
  2: { intros c Hc. rewrite <- sumn_scal. apply sumn_ext. intros j Hj. rewrite HV by assumption. ring. }
  rewrite sumn_swap. apply sumn_ext. intros j Hj. rewrite (Rmult_comm (sumn n _)), <- sumn_scal. apply sumn_ext. intros; ring.
Qed.
End TriOp.
