(* TriLiftProofs.v - differentiation, interpolation, filter and lift matrices of the triangle. *)
From Coq Require Import ZArith List Lia Bool Arith.
From Verif Require Import Base Loops Num BlitzModel JacobiModel JacobiSpec JacobiProofs JacobiOrthProofs JacobiQuadProofs JacobiExactProofs DenseSpec Nodes1DModel Nodes1DSpec Nodes1DExactProofs TriModel TriSpec TriBasisProofs TriProofs TriOpProofs.
From Coq Require Import Reals Lra.
Import ListNotations.
Local Open Scope R_scope.

Definition delta (i j : nat) : R := if (i =? j)%nat then 1 else 0.
Lemma sumn_delta n i f : (i < n)%nat -> sumn n (fun k => delta i k * f k) = f i.
Proof. intro H. unfold delta. rewrite (sumn_pick n _ i H); [rewrite Nat.eqb_refl; ring|]. intros k _ Hk. destruct (Nat.eqb_spec i k); [congruence|ring]. Qed.
Lemma sumn_delta' n i f : (i < n)%nat -> sumn n (fun k => f k * delta k i) = f i.
Proof. intro H. unfold delta. rewrite (sumn_pick n _ i H); [rewrite Nat.eqb_refl; ring|]. intros k _ Hk. destruct (Nat.eqb_spec k i); [congruence|ring]. Qed.
(* sum_k (sum_m a_m b_m,k) c_k = sum_m a_m (sum_k b_m,k c_k) *)
Lemma sumn_assoc n m (a : nat -> R) (b : nat -> nat -> R) (c : nat -> R) : sumn n (fun k => sumn m (fun j => a j * b j k) * c k) = sumn m (fun j => a j * sumn n (fun k => b j k * c k)).
Proof.
  rewrite (sumn_ext n _ (fun k => sumn m (fun j => a j * (b j k * c k)))).
  - rewrite sumn_swap. apply sumn_ext. intros j _. apply sumn_scal.
  - intros k _. rewrite Rmult_comm, <- sumn_scal. apply sumn_ext. intros; ring.
Qed.

(* ---- polynomials on the line ---- *)
Lemma spoly_plus m f g : spoly m f -> spoly m g -> spoly m (fun x => f x + g x).
Proof.
  intros (a & La & Ha) (b & Lb & Hb). exists (padd a b). split.
  - assert (forall p q : list R, length (padd p q) = max (length p) (length q)) as LP by (induction p as [|x p IH]; intros [|y q]; cbn; try reflexivity; rewrite IH; reflexivity).
    rewrite LP. lia.
  - intro x. rewrite padd_eval, Ha, Hb. reflexivity.
Qed.
Lemma spoly_scal m c f : spoly m f -> spoly m (fun x => c * f x).
Proof. intros (a & La & Ha). exists (pscal c a). split; [rewrite pscal_len; exact La|]. intro x. rewrite pscal_eval, Ha. reflexivity. Qed.
Lemma spoly_ext m f g : (forall x, f x = g x) -> spoly m f -> spoly m g.
Proof. intros H (a & La & Ha). exists a. split; [exact La|]. intro. rewrite <- H. apply Ha. Qed.
Lemma spoly_affpow a b n : forall m f, spoly m f -> spoly (n + m) (fun x => (a + b * x) ^ n * f x).
Proof.
  induction n as [|n IH]; intros m f H; [eapply spoly_ext; [|exact H]; intro; cbn; ring|].
  cbn [Nat.add]. eapply spoly_ext; [|apply (spoly_mul1 _ _ a b (IH m f H))]. intro x. cbn [pow]. ring.
Qed.
Lemma spoly_restrict N p a b c d : degree2 N p -> spoly N (fun t => eval2 p (a + b * t) (c + d * t)).
Proof.
  induction p as [|[[i j] k] p IH]; intro D; cbn [eval2]; [exists []; split; [cbn; lia|reflexivity]|]. inversion D as [|? ? Hd Dp]; subst. cbn [fst snd] in Hd.
  apply spoly_plus; [|exact (IH Dp)]. apply (spoly_mono (i + (j + 0)) N); [lia|].
  eapply spoly_ext; [|apply (spoly_scal _ k); apply (spoly_affpow a b i); apply (spoly_affpow c d j 0 (fun _ => 1)); exists [1]; split; [cbn; lia|intro; cbn; ring]].
  intro t. cbv beta. ring.
Qed.

Section TriLift.
Variable G : R -> R.
Hypothesis HG : gamma_like G.
Local Notation E := (exact G).
Local Notation P := (jac G 0 0).
Local Notation bas := (bas G).
Local Notation modal := (modal G).

Lemma modal1 N f : spoly N f -> exists c, forall x, f x = sumn (S N) (fun k => c k * P k x).
Proof.
  intros (cs & L & H). destruct (poly_span G HG cs N L) as (l & Bl & El).
  assert (A : exists c, forall x, lin G 0 0 l x = sumn (S N) (fun k => c k * P k x)).
  { clear El. induction l as [|[k d] l IH].
    - exists (fun _ => 0). intro. cbn [lin]. symmetry. apply sumn_zero. intros; ring.
    - inversion Bl as [|? ? Hk Bl']; subst. cbn [fst] in Hk. destruct (IH Bl') as (c & Hc). exists (fun m => c m + d * delta m k). intro x. cbn [lin fst snd]. rewrite Hc.
      rewrite (sumn_ext _ (fun m => (c m + d * delta m k) * P m x) (fun m => c m * P m x + d * P m x * delta m k)) by (intros; ring).
      rewrite sumn_plus, (sumn_delta' _ k (fun m => d * P m x)) by lia. ring. }
  destruct A as (c & Hc). exists c. intro x. rewrite H, <- El. apply Hc.
Qed.
Lemma int_sum a b n f v : (forall k, (k < n)%nat -> integral_is (f k) a b (v k)) -> integral_is (fun x => sumn n (fun k => f k x)) a b (sumn n v).
Proof.
  induction n as [|n IH]; intro H; [apply integral_zero|]. rewrite sumn_S. eapply integral_ext; [intro x; symmetry; apply sumn_S|].
  apply integral_plus; [apply IH; intros; apply H; lia|apply H; lia].
Qed.
Lemma parseval1 N f g a b : (forall x, f x = sumn (S N) (fun k => a k * P k x)) -> (forall x, g x = sumn (S N) (fun k => b k * P k x)) ->
  integral_is (fun x => f x * g x) (-1) 1 (sumn (S N) (fun k => a k * b k)).
Proof.
  intros Hf Hg. apply integral_ext with (fun x => sumn (S N) (fun k => sumn (S N) (fun m => a k * b m * (weight 0 0 x * P k x * P m x)))).
  { intro x. rewrite Hf, Hg. rewrite (Rmult_comm (sumn _ _)), <- sumn_scal. apply sumn_ext. intros k Hk. rewrite (Rmult_comm (sumn _ _) (a k * P k x)), <- sumn_scal. apply sumn_ext. intros. unfold weight; cbn [pow]; ring. }
  apply int_sum. intros k Hk. replace (a k * b k) with (sumn (S N) (fun m => a k * b m * delta k m)).
  - apply int_sum. intros m Hm. apply (integral_scal (a k * b m) (fun x => weight 0 0 x * P k x * P m x)). apply (orth G HG k m 0 0).
  - rewrite (sumn_pick (S N) _ k Hk); unfold delta; [rewrite Nat.eqb_refl; ring|]. intros m _ Hm. destruct (Nat.eqb_spec k m); [congruence|ring].
Qed.

(* ---- the mass matrix of an edge ---- *)
Lemma edge_mass n (V Y M : mat R) :
  (forall i j, (i < n)%nat -> (j < n)%nat -> sumn n (fun k => ment Y i k * ment V k j) = delta i j) ->
  (forall i j, (i < n)%nat -> (j < n)%nat -> sumn n (fun k => sumn n (fun l => ment V i l * ment V k l) * ment M k j) = delta i j) ->
  forall k l, (k < n)%nat -> (l < n)%nat -> sumn n (fun i => ment V i k * sumn n (fun j => ment M i j * ment V j l)) = delta k l.
Proof.
  intros HY HM.
  assert (X : forall k j, (k < n)%nat -> (j < n)%nat -> sumn n (fun i => ment V i k * ment M i j) = ment Y k j).
  { intros k j Hk Hj. transitivity (sumn n (fun i => sumn n (fun m => ment Y k m * sumn n (fun l => ment V m l * ment V i l)) * ment M i j)).
    - apply sumn_ext. intros i Hi. f_equal.
      rewrite (sumn_ext n _ (fun m => sumn n (fun l => ment Y k m * ment V m l * ment V i l))) by (intros; rewrite <- sumn_scal; apply sumn_ext; intros; ring).
      rewrite sumn_swap. rewrite (sumn_ext n _ (fun l => delta k l * ment V i l)).
      + symmetry. apply (sumn_delta n k (ment V i) Hk).
      + intros l Hl. rewrite <- (HY k l Hk Hl). rewrite Rmult_comm, <- sumn_scal. apply sumn_ext; intros; ring.
    - rewrite sumn_assoc. rewrite (sumn_ext n _ (fun m => ment Y k m * delta m j)).
      + apply (sumn_delta' n j (ment Y k) Hj).
      + intros m Hm. rewrite <- (HM m j Hm Hj). reflexivity. }
  intros k l Hk Hl. rewrite <- (HY k l Hk Hl).
  rewrite (sumn_ext n _ (fun i => sumn n (fun j => ment V i k * ment M i j * ment V j l))) by (intros; rewrite <- sumn_scal; apply sumn_ext; intros; ring).
  rewrite sumn_swap. apply sumn_ext. intros j Hj. rewrite <- (X k j Hk Hj). rewrite (Rmult_comm (sumn n _)), <- sumn_scal. apply sumn_ext; intros; ring.
Qed.
Lemma edge_integral N (t : list R) (M : mat R) f g :
  length t = S N ->
  (forall k l, (k < S N)%nat -> (l < S N)%nat -> sumn (S N) (fun i => P k (nth i t 0) * sumn (S N) (fun j => ment M i j * P l (nth j t 0))) = delta k l) ->
  spoly N f -> spoly N g ->
  integral_is (fun x => f x * g x) (-1) 1 (sumn (S N) (fun i => f (nth i t 0) * sumn (S N) (fun j => ment M i j * g (nth j t 0)))).
Proof.
  intros Lt HM Sf Sg. destruct (modal1 N f Sf) as (a & Ha). destruct (modal1 N g Sg) as (b & Hb).
  pose proof (parseval1 N f g a b Ha Hb) as H. match type of H with integral_is _ _ _ ?v => match goal with |- integral_is _ _ _ ?w => replace w with v; [exact H|] end end.
  symmetry. rewrite (sumn_ext (S N) _ (fun i => sumn (S N) (fun k => a k * (P k (nth i t 0) * sumn (S N) (fun l => b l * sumn (S N) (fun j => ment M i j * P l (nth j t 0))))))).
  - rewrite sumn_swap. apply sumn_ext. intros k Hk. rewrite sumn_scal. f_equal.
    rewrite (sumn_ext (S N) _ (fun i => sumn (S N) (fun l => b l * (P k (nth i t 0) * sumn (S N) (fun j => ment M i j * P l (nth j t 0)))))) by (intros; rewrite <- sumn_scal; apply sumn_ext; intros; ring).
    rewrite sumn_swap. rewrite (sumn_ext (S N) _ (fun l => delta k l * b l)).
    + apply (sumn_delta (S N) k b Hk).
    + intros l Hl. rewrite sumn_scal, HM by assumption. ring.
  - intros i Hi. rewrite Ha. rewrite Rmult_comm, <- sumn_scal. apply sumn_ext. intros k Hk.
    rewrite (sumn_ext (S N) (fun j => ment M i j * g (nth j t 0)) (fun j => sumn (S N) (fun l => b l * (ment M i j * P l (nth j t 0))))).
    + rewrite sumn_swap. rewrite (sumn_ext (S N) (fun j => sumn (S N) (fun i0 => b j * (ment M i i0 * P j (nth i0 t 0)))) (fun l => b l * sumn (S N) (fun j => ment M i j * P l (nth j t 0)))) by (intros; apply sumn_scal). ring.
    + intros j Hj. rewrite Hb, <- sumn_scal. apply sumn_ext; intros; ring.
Qed.

(* ---- differentiation matrices ---- *)
Variable solve : mat R -> mat R -> mat R -> outcome (mat R).
Variable inverse : mat R -> mat R -> outcome (mat R).
Variable junk : nat -> nat -> R.
Hypothesis HS : solver_ok solve.
Hypothesis HI : inverter_ok inverse.

Section Nodes.
Variables (N : nat) (r s : list R).
Local Notation n := (length (modes N)).
Hypothesis Lr : length r = n.
Hypothesis Hp : pts_ok r s.
Variables V Vr Vs : mat R.
Hypothesis SV : shape V n n.
Hypothesis SVr : shape Vr n n.
Hypothesis SVs : shape Vs n n.
Hypothesis HV : forall i c, (i < n)%nat -> (c < n)%nat -> ment V i c = bas N c (nth i r 0) (nth i s 0).
Hypothesis HVr : forall i c, (i < n)%nat -> (c < n)%nat -> ment Vr i c = dbr G N c (nth i r 0) (nth i s 0).
Hypothesis HVs : forall i c, (i < n)%nat -> (c < n)%nat -> ment Vs i c = dbs G N c (nth i r 0) (nth i s 0).

Definition weak_eq (W Vd : mat R) : Prop := forall i a, (i < n)%nat -> (a < n)%nat ->
  sumn n (fun k => sumn n (fun c => ment V k c * ment V a c) * ment W i k) = sumn n (fun c => ment V i c * ment Vd a c).
Lemma diffmats_ok : computeDifferentiationMatrices E solve junk Vr Vs V V = Throw \/
  exists Dr Ds Drw Dsw, computeDifferentiationMatrices E solve junk Vr Vs V V = Ok (Dr, Ds, Drw, Dsw) /\
    shape Dr n n /\ shape Ds n n /\ shape Drw n n /\ shape Dsw n n /\
    maps_nodal N Dr r s r s (fun p => dr_is (eval2 p)) /\ maps_nodal N Ds r s r s (fun p => ds_is (eval2 p)) /\
    weak_eq Drw Vr /\ weak_eq Dsw Vs.
Proof.
  destruct SV as (Vr' & Vc'). destruct SVr as (R1 & R2). destruct SVs as (S1 & S2). unfold computeDifferentiationMatrices. rewrite Vr', R1.
  destruct (HS n n (mtrans V) (mtrans Vr) (mzero E n n)) as [-> | (Y1 & -> & (Y1r & Y1c) & HY1)]; try (split; cbn [mtrans mrows mcols mzero]; congruence); [left; reflexivity|]. cbn [bind].
  destruct (HS n n (mtrans V) (mtrans Vs) (mzero E n n)) as [-> | (Y2 & -> & (Y2r & Y2c) & HY2)]; try (split; cbn [mtrans mrows mcols mzero]; congruence); [left; reflexivity|]. cbn [bind].
  destruct (HS n n (mtrans (mkmat n n (ment (mmul E V (mtrans V))))) (mtrans (mkmat n n (ment (mmul E V (mtrans Vr))))) (mkmat n n junk)) as [-> | (Y3 & -> & (Y3r & Y3c) & HY3)]; try (split; cbn [mtrans mrows mcols mzero]; congruence); [left; reflexivity|]. cbn [bind].
  destruct (HS n n (mtrans (mkmat n n (ment (mmul E V (mtrans V))))) (mtrans (mkmat n n (ment (mmul E V (mtrans Vs))))) (mkmat n n junk)) as [-> | (Y4 & -> & (Y4r & Y4c) & HY4)]; try (split; cbn [mtrans mrows mcols mzero]; congruence); [left; reflexivity|]. cbn [bind].
  right. do 4 eexists. split; [reflexivity|]. do 4 (split; [split; cbn [mtrans mrows mcols mzero]; congruence|]).
  assert (Hn1 : forall Y Vd, mcols Y = n -> product_is n (mtrans V) Y (mtrans Vd) -> forall i c, (i < n)%nat -> (c < n)%nat -> sumn (length r) (fun m => ment (mtrans Y) i m * bas N c (nth m r 0) (nth m s 0)) = ment Vd i c).
  { intros Y Vd Yc (_ & HY) i c Hi Hc. specialize (HY c i). cbn [mtrans mrows mcols ment] in HY. rewrite <- HY by congruence. rewrite Lr. apply sumn_ext. intros m Hm. rewrite <- HV by assumption. cbn [mtrans ment]. ring. }
  assert (Hn2 : forall Y Vd, mcols Y = n -> product_is n (mtrans (mkmat n n (ment (mmul E V (mtrans V))))) Y (mtrans (mkmat n n (ment (mmul E V (mtrans Vd))))) -> weak_eq (mtrans Y) Vd).
  { intros Y Vd Yc (_ & HY) i a Hi Ha. specialize (HY a i). cbn [mtrans mmul mrows mcols ment] in HY. rewrite Vc', !fsum_exact in HY. specialize (HY Ha ltac:(congruence)).
    cbn [mtrans ment]. cbn [exact fmul] in HY. rewrite <- HY. apply sumn_ext. intros k Hk. rewrite fsum_exact. reflexivity. }
  split; [apply (maps_dr G HG); [exact Hp|]; intros i c Hi Hc; rewrite <- HVr by congruence; apply (Hn1 Y1 Vr); auto; congruence|].
  split; [apply (maps_ds G HG); [exact Hp|]; intros i c Hi Hc; rewrite <- HVs by congruence; apply (Hn1 Y2 Vs); auto; congruence|].
  split; [apply Hn2; assumption|apply Hn2; assumption].
Qed.
Variable Vi : mat R.
Hypothesis SVi : shape Vi n n.
Hypothesis HVi : forall i j, (i < n)%nat -> (j < n)%nat -> sumn n (fun k => ment Vi i k * ment V k j) = delta i j.

Lemma weak_int isd (D : nat -> R -> R -> R) (Vd W : mat R) C :
  (forall i c, (i < n)%nat -> (c < n)%nat -> ment Vd i c = D c (nth i r 0) (nth i s 0)) ->
  (forall c x y, in_domain x y -> isd (bas N c) x y (D c x y)) ->
  (forall f x y v w, isd f x y v -> isd f x y w -> v = w) ->
  (forall j, (j < n)%nat -> forall x y, isd (bas N j) x y (sumn n (fun k => C k j * bas N k x y))) ->
  (forall p b x y, modal N p b -> isd (eval2 p) x y (sumn n (fun j => b j * sumn n (fun k => C k j * bas N k x y)))) ->
  weak_eq W Vd ->
  forall p, degree2 N p -> exists z, degree2 N z /\
    (forall i, (i < n)%nat -> sumn n (fun m => ment W i m * eval2 p (nth m r 0) (nth m s 0)) = eval2 z (nth i r 0) (nth i s 0)) /\
    forall q dq, degree2 N q -> (forall x y, isd (eval2 q) x y (dq x y)) ->
      exists v, triangle_integral (fun x y => eval2 z x y * eval2 q x y) v /\ triangle_integral (fun x y => eval2 p x y * dq x y) v.
Proof.
  intros HVd HD Hu HC Hm HW p Dp. destruct (modal_ex G HG N p Dp) as (a & Ha).
  destruct (comb_poly G HG N (fun j => sumn n (fun k => C k j * a k))) as (z & Dz & Hz). exists z. split; [exact Dz|]. split.
  - intros i Hi. rewrite Hz. apply (weak_form G N r s V Vd W Vi C); auto.
    intros i' c Hi' Hc. rewrite HVd by assumption. rewrite (Hu _ _ _ _ _ (HD c _ _ (pts_dom r s i' Hp ltac:(lia))) (HC c Hc _ _)). apply sumn_ext. intros k Hk. rewrite HV by assumption. reflexivity.
  - intros q dq Dq Hdq. destruct (modal_ex G HG N q Dq) as (b & Hb). exists (sumn n (fun j => sumn n (fun k => C k j * a k) * b j)). split.
    + apply (parseval G HG N); [exact Hz|exact Hb].
    + eapply tint_val; [|apply (parseval G HG N (eval2 p) dq a (fun k => sumn n (fun j => C k j * b j)) Ha)].
      * symmetry. rewrite <- (sumn_assoc n n a (fun k j => C k j) b). apply sumn_ext. intros j Hj. f_equal. apply sumn_ext; intros; ring.
      * intros x y. rewrite (Hu _ _ _ _ _ (Hdq x y) (Hm q b x y Hb)).
        rewrite (sumn_ext n _ (fun j => sumn n (fun k => C k j * b j * bas N k x y))) by (intros; rewrite <- sumn_scal; apply sumn_ext; intros; ring).
        rewrite sumn_swap. apply sumn_ext. intros k Hk. rewrite (Rmult_comm (sumn n _)), <- sumn_scal. apply sumn_ext; intros; ring.
Qed.

Lemma modal_drC C p b x y : (forall j, (j < n)%nat -> forall x y, dr_is (bas N j) x y (sumn n (fun k => C k j * bas N k x y))) ->
  modal N p b -> dr_is (eval2 p) x y (sumn n (fun j => b j * sumn n (fun k => C k j * bas N k x y))).
Proof.
  intros HC Hb. unfold dr_is. eapply dpl_ext; [intro t; symmetry; apply Hb|].
  assert (H : forall m, (m <= n)%nat -> derivable_pt_lim (fun t => sumn m (fun k => b k * bas N k t y)) x (sumn m (fun j => b j * sumn n (fun k => C k j * bas N k x y)))).
  { induction m as [|m IH]; intro Hm; [apply derivable_pt_lim_const|].
    rewrite sumn_S. eapply dpl_ext; [intro t; symmetry; apply sumn_S|]. apply (derivable_pt_lim_plus (fun t => sumn m (fun k => b k * bas N k t y))); [apply IH; lia|].
    apply (derivable_pt_lim_scal (fun t => bas N m t y)). apply (HC m Hm x y). }
  apply H. lia.
Qed.
Lemma modal_dsC C p b x y : (forall j, (j < n)%nat -> forall x y, ds_is (bas N j) x y (sumn n (fun k => C k j * bas N k x y))) ->
  modal N p b -> ds_is (eval2 p) x y (sumn n (fun j => b j * sumn n (fun k => C k j * bas N k x y))).
Proof.
  intros HC Hb. unfold ds_is. eapply dpl_ext; [intro t; symmetry; apply Hb|].
  assert (H : forall m, (m <= n)%nat -> derivable_pt_lim (fun t => sumn m (fun k => b k * bas N k x t)) y (sumn m (fun j => b j * sumn n (fun k => C k j * bas N k x y)))).
  { induction m as [|m IH]; intro Hm; [apply derivable_pt_lim_const|].
    rewrite sumn_S. eapply dpl_ext; [intro t; symmetry; apply sumn_S|]. apply (derivable_pt_lim_plus (fun t => sumn m (fun k => b k * bas N k x t))); [apply IH; lia|].
    apply (derivable_pt_lim_scal (fun t => bas N m x t)). apply (HC m Hm x y). }
  apply H. lia.
Qed.
Lemma weak_r W : weak_eq W Vr -> forall p, degree2 N p -> exists z, degree2 N z /\
    (forall i, (i < n)%nat -> sumn n (fun m => ment W i m * eval2 p (nth m r 0) (nth m s 0)) = eval2 z (nth i r 0) (nth i s 0)) /\
    forall q dq, degree2 N q -> (forall x y, dr_is (eval2 q) x y (dq x y)) ->
      exists v, triangle_integral (fun x y => eval2 z x y * eval2 q x y) v /\ triangle_integral (fun x y => eval2 p x y * dq x y) v.
Proof.
  intro HW. destruct (dr_coefs G HG N) as (C & HC). apply (weak_int dr_is (dbr G N) Vr W C); auto.
  - intros c x y Hd. apply (sb_dr G HG _ _ x y Hd).
  - exact dr_unique.
  - intros p b x y Hb. apply modal_drC; assumption.
Qed.
Lemma weak_s W : weak_eq W Vs -> forall p, degree2 N p -> exists z, degree2 N z /\
    (forall i, (i < n)%nat -> sumn n (fun m => ment W i m * eval2 p (nth m r 0) (nth m s 0)) = eval2 z (nth i r 0) (nth i s 0)) /\
    forall q dq, degree2 N q -> (forall x y, ds_is (eval2 q) x y (dq x y)) ->
      exists v, triangle_integral (fun x y => eval2 z x y * eval2 q x y) v /\ triangle_integral (fun x y => eval2 p x y * dq x y) v.
Proof.
  intro HW. destruct (ds_coefs G HG N) as (C & HC). apply (weak_int ds_is (dbs G N) Vs W C); auto.
  - intros c x y Hd. apply (sb_ds G HG _ _ x y Hd).
  - exact ds_unique.
  - intros p b x y Hb. apply modal_dsC; assumption.
Qed.

(* ---- interpolation ---- *)
Lemma interp_ok rout sout : pts_ok rout sout ->
  exists IM, computeInterpMatrix E pow junk N Vi rout sout = Ok IM /\ shape IM (length rout) n /\ maps_nodal N IM r s rout sout (fun p x y v => v = eval2 p x y).
Proof.
  intro Ho. destruct SVi as (I1 & I2). unfold computeInterpMatrix. rewrite I1.
  destruct (vander2D_ok G HG N rout sout (mkmat (length rout) n junk) Ho eq_refl (le_n _)) as (W & EW & (W1 & W2) & HW & _). cbn [mrows mcols] in *. rewrite EW. cbn [bind].
  eexists. split; [reflexivity|]. split; [split; cbn [mmul mrows mcols]; congruence|]. apply (maps_val G HG). intros i c Hi Hc. rewrite Lr.
  cbn [mmul ment]. rewrite (sumn_ext n _ (fun m => sumn n (fun k => ment W i k * ment Vi k m) * ment V m c)).
  2: { intros m Hm. rewrite W2, fsum_exact, HV by assumption. reflexivity. }
  rewrite sumn_assoc. rewrite (sumn_ext n _ (fun k => ment W i k * delta k c)) by (intros k Hk; rewrite HVi by assumption; reflexivity).
  rewrite (sumn_delta' n c (ment W i) Hc). apply HW; assumption.
Qed.

(* ---- filter ---- *)
Variables (fexp flog : R -> R) (eps Nc : R) (sp : nat).
Local Notation sig := (fun c => filter_diag E pow fexp flog eps N Nc sp (fst (mode N c)) (snd (mode N c))).
Lemma filter_ok : exists F, buildFilter E pow fexp flog eps N V Vi Nc sp = Ok F /\ shape F n n /\
  forall i c, (i < n)%nat -> (c < n)%nat -> sumn n (fun m => ment F i m * bas N c (nth m r 0) (nth m s 0)) = sig c * bas N c (nth i r 0) (nth i s 0).
Proof.
  destruct SVi as (I1 & I2). destruct SV as (V1 & V2). unfold buildFilter. rewrite V1.
  destruct (for_modes_ok (fun c (F : mat R) => shape F n n /\ forall a b, ment F a b = if ((a =? b) && (a <? c))%nat then sig a else 0) N
     (fun i j count F => mset F count count (filter_diag E pow fexp flog eps N Nc sp i j)) (mzero E n n)) as (F & EF & (F1 & F2) & HF).
  - split; [split; reflexivity|]. intros. cbn [mzero ment]. rewrite andb_false_r. reflexivity.
  - intros c i j F Hc ((F1 & F2) & HF). destruct (mode_error _ _ _ _ Hc) as (Em & Lc). unfold mset. rewrite inb_true by lia. eexists. split; [reflexivity|]. cbn [mrows mcols ment]. split; [split; assumption|].
    intros a b. rewrite HF. destruct (Nat.eqb_spec a c) as [->|Ha]; cbn [andb].
    + rewrite Em. cbn [fst snd]. destruct (Nat.eqb_spec b c) as [->|Hb]; [rewrite Nat.eqb_refl; replace (c <? S c)%nat with true by (symmetry; apply Nat.ltb_lt; lia); reflexivity|].
      destruct (Nat.eqb_spec c b); [congruence|]. reflexivity.
    + destruct (a =? b)%nat; cbn [andb]; [|reflexivity]. destruct (Nat.ltb_spec a c), (Nat.ltb_spec a (S c)); try lia; reflexivity.
  - rewrite EF. cbn [bind]. eexists. split; [reflexivity|]. split; [split; cbn [mmul mrows mcols]; congruence|]. intros i c Hi Hc. cbn [mmul ment]. rewrite V2, F2.
    rewrite (sumn_ext n _ (fun m => sumn n (fun k => ment V i k * (sig k * ment Vi k m)) * ment V m c)).
    2: { intros m Hm. rewrite fsum_exact, HV by assumption. f_equal. apply sumn_ext. intros k Hk. cbn [exact fmul]. f_equal. rewrite fsum_exact.
         rewrite (sumn_pick n _ k Hk); cbn [exact fmul].
         - rewrite HF, Nat.eqb_refl. replace (k <? n)%nat with true by (symmetry; apply Nat.ltb_lt; exact Hk). reflexivity.
         - intros k' Hk' Hne. rewrite HF. destruct (Nat.eqb_spec k k'); [congruence|]. cbn [andb]. ring. }
    rewrite sumn_assoc. rewrite (sumn_ext n _ (fun k => ment V i k * sig k * delta k c)).
    2: { intros k Hk. rewrite <- (HVi k c Hk Hc). rewrite (sumn_ext n _ (fun m => sig k * (ment Vi k m * ment V m c))) by (intros; ring). rewrite sumn_scal. ring. }
    rewrite (sumn_delta' n c (fun k => ment V i k * sig k) Hc). rewrite HV by assumption. ring.
Qed.
End Nodes.
End TriLift.
