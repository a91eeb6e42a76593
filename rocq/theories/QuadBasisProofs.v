(* QuadBasisProofs.v - products of Legendre polynomials on the reference square, and the Vandermonde matrices of
   quadrilaterals. *)
From Coq Require Import ZArith List Lia Bool Arith.
From Verif Require Import Base Loops Num BlitzModel JacobiModel JacobiSpec JacobiProofs JacobiOrthProofs JacobiQuadProofs JacobiExactProofs DenseSpec Nodes1DModel Nodes1DSpec Nodes1DExactProofs TriModel TriSpec TriBasisProofs TriProofs TriOpProofs TriLiftProofs TriFaceProofs TriNodesProofs TriGeoProofs QuadModel QuadSpec.
From Coq Require Import Reals Lra.
Import ListNotations.
Local Open Scope R_scope.

(* ---- sums over pairs ---- *)
Lemma sumn_app a b f : sumn (a + b) f = sumn a f + sumn b (fun k => f (a + k)%nat).
Proof. induction b as [|b IH]; [rewrite Nat.add_0_r; cbn; ring|]. rewrite Nat.add_succ_r, !sumn_S, IH. ring. Qed.
Lemma sumn_prod m n f : sumn (m * n) f = sumn m (fun i => sumn n (fun j => f (i * n + j)%nat)).
Proof. induction m as [|m IH]; [reflexivity|]. rewrite sumn_S, <- IH. replace (S m * n)%nat with (m * n + n)%nat by lia. apply sumn_app. Qed.
Lemma pair_div m i j : (j < m)%nat -> ((i * m + j) / m = i)%nat /\ ((i * m + j) mod m = j)%nat.
Proof. intro H. split; symmetry; [apply (Nat.div_unique _ m i j); lia|apply (Nat.mod_unique _ m i j); lia]. Qed.
Lemma pair_lt m q : (q < m * m)%nat -> (q / m < m)%nat /\ (q mod m < m)%nat /\ q = (q / m * m + q mod m)%nat.
Proof. intro H. assert (m <> 0)%nat by lia. split; [apply Nat.div_lt_upper_bound; lia|]. split; [apply Nat.mod_upper_bound; lia|]. rewrite Nat.mul_comm. apply Nat.div_mod. lia. Qed.
Lemma pair_in m i j : (i < m)%nat -> (j < m)%nat -> (i * m + j < m * m)%nat.
Proof. nia. Qed.

(* ---- polynomials of degree N in each variable ---- *)
Definition tens (N : nat) (f : R -> R -> R) : Prop := exists p, tdegree N p /\ forall x y, f x y = eval2 p x y.
Lemma tens_ext N f g : (forall x y, f x y = g x y) -> tens N f -> tens N g.
Proof. intros H (p & D & Ef). exists p. split; [exact D|]. intros. rewrite <- H. apply Ef. Qed.
Lemma tens_plus N f g : tens N f -> tens N g -> tens N (fun x y => f x y + g x y).
Proof. intros (p & D & Ef) (q & D' & Eg). exists (p ++ q). split; [apply Forall_app; auto|]. intros. rewrite eval2_app, Ef, Eg. reflexivity. Qed.
Lemma tens_zero N : tens N (fun _ _ => 0).
Proof. exists []. split; [constructor|reflexivity]. Qed.
Lemma tens_mono N i j c : (i <= N)%nat -> (j <= N)%nat -> tens N (fun x y => c * x ^ i * y ^ j).
Proof. intros. exists [(i, j, c)]. split; [constructor; [cbn; lia|constructor]|]. intros. cbn [eval2]. ring. Qed.
Lemma tens_sum N m f : (forall k, (k < m)%nat -> tens N (f k)) -> tens N (fun x y => sumn m (fun k => f k x y)).
Proof. induction m as [|m IH]; intro H; [apply tens_zero|]. eapply tens_ext; [intros; symmetry; apply sumn_S|]. apply tens_plus; [apply IH; auto|apply H; lia]. Qed.
Lemma peval_sum cs x : peval cs x = sumn (length cs) (fun k => nth k cs 0 * x ^ k).
Proof.
  induction cs as [|c cs IH]; [reflexivity|]. cbn [peval length]. change (S (length cs)) with (1 + length cs)%nat. rewrite sumn_app. change (sumn 1 (fun k => nth k (c :: cs) 0 * x ^ k)) with (c * 1 + 0).
  rewrite IH, <- sumn_scal. rewrite (sumn_ext _ (fun k => nth (1 + k) (c :: cs) 0 * x ^ (1 + k)) (fun k => x * (nth k cs 0 * x ^ k))) by (intros; cbn [plus nth pow]; ring). ring.
Qed.
Lemma tens_prod N f g : spoly N f -> spoly N g -> tens N (fun x y => g y * f x).
Proof.
  intros (cs & L & Hf) (ds & L' & Hg). eapply tens_ext; [|apply (tens_sum N (length ds) (fun j x y => sumn (length cs) (fun i => nth j ds 0 * nth i cs 0 * x ^ i * y ^ j)))].
  - intros x y. cbn beta. rewrite Hf, Hg, !peval_sum. rewrite Rmult_comm, <- sumn_scal. apply sumn_ext. intros j Hj. rewrite Rmult_comm, <- sumn_scal. apply sumn_ext. intros; ring.
  - intros j Hj. apply (tens_sum N (length cs) (fun i x y => nth j ds 0 * nth i cs 0 * x ^ i * y ^ j)). intros i Hi. apply tens_mono; lia.
Qed.
Lemma spoly_pow i : spoly i (fun x => x ^ i).
Proof. exists (repeat 0 i ++ [1]). split; [rewrite app_length, repeat_length; cbn; lia|]. intro x. induction i as [|i IH]; cbn [repeat app peval pow]; [ring|]. rewrite IH. ring. Qed.
Lemma ddr_tdeg N p : tdegree N p -> tdegree N (ddr p).
Proof. intro H. apply Forall_map. eapply Forall_impl; [|exact H]. cbn [fst snd]. intros; lia. Qed.
Lemma dds_tdeg N p : tdegree N p -> tdegree N (dds p).
Proof. intro H. apply Forall_map. eapply Forall_impl; [|exact H]. cbn [fst snd]. intros; lia. Qed.

(* ---- integrals over the square ---- *)
Lemma qint_ext f g v : (forall r s, f r s = g r s) -> square_integral f v -> square_integral g v.
Proof. intros H (I & A & B). exists I. split; [|exact B]. intro s. eapply integral_ext; [|apply A]. intro; apply H. Qed.
Lemma qint_plus f g v w : square_integral f v -> square_integral g w -> square_integral (fun r s => f r s + g r s) (v + w).
Proof. intros (I & A & B) (J & A' & B'). exists (fun s => I s + J s). split; [|apply integral_plus; assumption]. intro s. apply integral_plus; [apply A|apply A']. Qed.
Lemma qint_scal c f v : square_integral f v -> square_integral (fun r s => c * f r s) (c * v).
Proof. intros (I & A & B). exists (fun s => c * I s). split; [|apply integral_scal; exact B]. intro s. apply (integral_scal c (fun r => f r s)); apply A. Qed.
Lemma qint_zero : square_integral (fun _ _ => 0) 0.
Proof. exists (fun _ => 0). split; [intro|]; apply integral_zero. Qed.
Lemma qint_val f v w : v = w -> square_integral f v -> square_integral f w.
Proof. intros ->. auto. Qed.
Lemma qint_sum n f v : (forall k, (k < n)%nat -> square_integral (f k) (v k)) -> square_integral (fun r s => sumn n (fun k => f k r s)) (sumn n v).
Proof.
  induction n as [|n IH]; intro H; [apply qint_zero|]. rewrite sumn_S. eapply qint_ext; [intros r s; symmetry; apply sumn_S|]. apply qint_plus; [apply IH; intros; apply H; lia|apply H; lia].
Qed.
Lemma qint_unique f v w : square_integral f v -> square_integral f w -> v = w.
Proof.
  intros (I & A & B) (J & A' & B'). apply (integral_unique I (-1) 1 v w B). eapply integral_ext; [|exact B']. intro s. cbv beta. eapply integral_unique; [apply A'|apply A].
Qed.

Section Basis.
Variable G : R -> R.
Hypothesis HG : gamma_like G.
Local Notation E := (exact G).
Local Notation P := (jac G 0 0).
Local Notation dP := (gjac G 0 0).

Definition qb (N c : nat) (x y : R) : R := P (c / S N) y * P (c mod S N) x.
Definition qbr (N c : nat) (x y : R) : R := dP (c mod S N) x * P (c / S N) y.
Definition qbs (N c : nat) (x y : R) : R := P (c mod S N) x * dP (c / S N) y.
Lemma spoly_P k : spoly k (P k).
Proof.
  destruct (mon_poly 0 0 k) as (cs & L & T & Ec). exists (pscal (/ nrm G 0 0 k) cs). split; [rewrite pscal_len; lia|]. intro x. rewrite pscal_eval, <- Ec. unfold jac, Rdiv. ring.
Qed.
Lemma dP_ok k x : derivable_pt_lim (P k) x (dP k x).
Proof. apply gjac_deriv; auto; lra. Qed.
Lemma qb_dr N c x y : dr_is (qb N c) x y (qbr N c x y).
Proof. unfold dr_is, qb, qbr. rewrite Rmult_comm. apply (derivable_pt_lim_scal (P (c mod S N))). apply dP_ok. Qed.
Lemma qb_ds N c x y : ds_is (qb N c) x y (qbs N c x y).
Proof. unfold ds_is, qb, qbs. eapply dpl_ext; [intro t; apply Rmult_comm|]. apply (derivable_pt_lim_scal (P (c / S N))). apply dP_ok. Qed.
Lemma qb_tens N c : (c < S N * S N)%nat -> tens N (qb N c).
Proof. intro Hc. destruct (pair_lt _ _ Hc) as (H1 & H2 & _). apply tens_prod; (eapply spoly_mono; [|apply spoly_P]); lia. Qed.
Lemma qb_sum N (a b : nat -> R) x y :
  sumn (S N) (fun l => b l * P l y) * sumn (S N) (fun k => a k * P k x) = sumn (S N * S N) (fun c => b (c / S N)%nat * a (c mod S N)%nat * qb N c x y).
Proof.
  rewrite sumn_prod. rewrite Rmult_comm, <- sumn_scal. apply sumn_ext. intros l Hl. rewrite Rmult_comm, <- sumn_scal. apply sumn_ext. intros k Hk. unfold qb. destruct (pair_div (S N) l k Hk) as (-> & ->). ring.
Qed.

Definition qmodal (N : nat) (p : poly2) (c : nat -> R) : Prop := forall r s, eval2 p r s = sumn (S N * S N) (fun k => c k * qb N k r s).
Lemma qmodal_ex N p : tdegree N p -> exists c, qmodal N p c.
Proof.
  unfold qmodal. induction p as [|[[i j] d] p IH]; intro D.
  - exists (fun _ => 0). intros. cbn [eval2]. symmetry. apply sumn_zero. intros; ring.
  - inversion D as [|? ? Hd Dl']; subst. cbn [fst snd] in Hd. destruct (IH Dl') as (c & Hc).
    destruct (modal1 G HG N (fun x => x ^ i)) as (a & Ha); [eapply spoly_mono; [|apply spoly_pow]; lia|].
    destruct (modal1 G HG N (fun x => x ^ j)) as (b & Hb); [eapply spoly_mono; [|apply spoly_pow]; lia|].
    exists (fun k => d * (b (k / S N)%nat * a (k mod S N)%nat) + c k). intros r s. cbn [eval2].
    rewrite (sumn_ext _ _ (fun k => d * (b (k / S N)%nat * a (k mod S N)%nat * qb N k r s) + c k * qb N k r s)) by (intros; ring).
    rewrite sumn_plus, sumn_scal, <- qb_sum, <- Ha, <- Hb, Hc. ring.
Qed.
Lemma qcomb N (c : nat -> R) : exists p, tdegree N p /\ qmodal N p c.
Proof.
  destruct (tens_sum N (S N * S N) (fun k x y => c k * qb N k x y)) as (p & D & Ep).
  - intros k Hk. destruct (qb_tens N k Hk) as (q & Dq & Eq). exists (mono2 0 0 (c k) q). split.
    + apply Forall_map. eapply Forall_impl; [|exact Dq]. cbn [fst snd]. intros; lia.
    + intros. rewrite mono2_eval, Eq. cbn [pow]. ring.
  - exists p. split; [exact D|]. intros x y. symmetry. apply Ep.
Qed.
Lemma qb_orth N a b : (a < S N * S N)%nat -> (b < S N * S N)%nat -> square_integral (fun r s => qb N a r s * qb N b r s) (delta a b).
Proof.
  intros Ha Hb. destruct (pair_lt _ _ Ha) as (A1 & A2 & A3), (pair_lt _ _ Hb) as (B1 & B2 & B3).
  set (i := (a / S N)%nat) in *. set (j := (a mod S N)%nat) in *. set (k := (b / S N)%nat) in *. set (l := (b mod S N)%nat) in *.
  exists (fun s => P i s * P k s * delta j l). split.
  - intro s. unfold qb. fold i j k l. eapply integral_ext; [|apply (integral_scal (P i s * P k s) (fun x => weight 0 0 x * P j x * P l x)); apply (orth G HG j l 0 0)]. intro x. cbn beta. unfold weight. cbn [pow]. change (INR 0) with 0. ring.
  - replace (delta a b) with (delta j l * delta i k).
    + eapply integral_ext; [|apply (integral_scal (delta j l) (fun x => weight 0 0 x * P i x * P k x)); apply (orth G HG i k 0 0)]. intro x. cbn beta. unfold weight. cbn [pow]. change (INR 0) with 0. ring.
    + unfold delta. destruct (Nat.eqb_spec a b) as [Hab|Hab].
      * assert (i = k) by (unfold i, k; rewrite Hab; reflexivity). assert (j = l) by (unfold j, l; rewrite Hab; reflexivity). rewrite (proj2 (Nat.eqb_eq j l)), (proj2 (Nat.eqb_eq i k)) by assumption. ring.
      * destruct (Nat.eqb_spec j l) as [Hj|Hj], (Nat.eqb_spec i k) as [Hi|Hi]; try ring. exfalso. apply Hab. rewrite A3, B3, Hi, Hj. reflexivity.
Qed.
Lemma qparseval N f g a b : (forall r s, f r s = sumn (S N * S N) (fun k => a k * qb N k r s)) -> (forall r s, g r s = sumn (S N * S N) (fun k => b k * qb N k r s)) ->
  square_integral (fun r s => f r s * g r s) (sumn (S N * S N) (fun k => a k * b k)).
Proof.
  intros Hf Hg. set (n := (S N * S N)%nat) in *.
  apply qint_ext with (fun r s => sumn n (fun k => sumn n (fun m => a k * b m * (qb N k r s * qb N m r s)))).
  { intros r s. rewrite Hf, Hg. rewrite (Rmult_comm (sumn n _)), <- sumn_scal. apply sumn_ext. intros k Hk. rewrite Rmult_comm, <- sumn_scal. apply sumn_ext. intros; ring. }
  apply qint_sum. intros k Hk. replace (a k * b k) with (sumn n (fun m => a k * b m * delta k m)).
  - apply qint_sum. intros m Hm. apply qint_scal. now apply qb_orth.
  - rewrite (sumn_pick n _ k Hk); unfold delta; [rewrite Nat.eqb_refl; ring|]. intros m _ Hm. destruct (Nat.eqb_spec k m); [congruence|ring].
Qed.
Lemma qmodal_dr N p c r s : qmodal N p c -> dr_is (eval2 p) r s (sumn (S N * S N) (fun k => c k * qbr N k r s)).
Proof.
  intros H. unfold dr_is. eapply dpl_ext; [intro t; symmetry; apply H|]. generalize (S N * S N)%nat. induction n as [|n IH].
  - eapply dpl_ext; [|apply (derivable_pt_lim_const 0)]. reflexivity.
  - rewrite sumn_S. eapply dpl_ext; [intro t; symmetry; apply sumn_S|]. apply (derivable_pt_lim_plus (fun t => sumn n (fun k => c k * qb N k t s))); [exact IH|].
    apply (derivable_pt_lim_scal (fun t => qb N n t s)). apply qb_dr.
Qed.
Lemma qmodal_ds N p c r s : qmodal N p c -> ds_is (eval2 p) r s (sumn (S N * S N) (fun k => c k * qbs N k r s)).
Proof.
  intros H. unfold ds_is. eapply dpl_ext; [intro t; symmetry; apply H|]. generalize (S N * S N)%nat. induction n as [|n IH].
  - eapply dpl_ext; [|apply (derivable_pt_lim_const 0)]. reflexivity.
  - rewrite sumn_S. eapply dpl_ext; [intro t; symmetry; apply sumn_S|]. apply (derivable_pt_lim_plus (fun t => sumn n (fun k => c k * qb N k r t))); [exact IH|].
    apply (derivable_pt_lim_scal (fun t => qb N n r t)). apply qb_ds.
Qed.
Lemma qrow_modal N p c (d : nat -> R) n (x y : nat -> R) : qmodal N p c ->
  sumn n (fun m => d m * eval2 p (x m) (y m)) = sumn (S N * S N) (fun k => c k * sumn n (fun m => d m * qb N k (x m) (y m))).
Proof.
  intro H. rewrite (sumn_ext n _ (fun m => sumn (S N * S N) (fun k => c k * (d m * qb N k (x m) (y m))))).
  - rewrite sumn_swap. apply sumn_ext. intros. rewrite <- sumn_scal. reflexivity.
  - intros m _. rewrite H, <- sumn_scal. apply sumn_ext. intros; ring.
Qed.
Lemma qmaps_dr N M r s :
  (forall i c, (i < length r)%nat -> (c < S N * S N)%nat -> sumn (length r) (fun m => ment M i m * qb N c (nth m r 0) (nth m s 0)) = qbr N c (nth i r 0) (nth i s 0)) ->
  maps_tensor N M r s r s (fun p => dr_is (eval2 p)).
Proof.
  intros H p i D Hi. destruct (qmodal_ex N p D) as (c & Hc). rewrite (qrow_modal N p c _ _ (fun m => nth m r 0) (fun m => nth m s 0) Hc).
  rewrite (sumn_ext _ _ (fun k => c k * qbr N k (nth i r 0) (nth i s 0))) by (intros k Hk; rewrite H by assumption; reflexivity).
  apply qmodal_dr; exact Hc.
Qed.
Lemma qmaps_ds N M r s :
  (forall i c, (i < length r)%nat -> (c < S N * S N)%nat -> sumn (length r) (fun m => ment M i m * qb N c (nth m r 0) (nth m s 0)) = qbs N c (nth i r 0) (nth i s 0)) ->
  maps_tensor N M r s r s (fun p => ds_is (eval2 p)).
Proof.
  intros H p i D Hi. destruct (qmodal_ex N p D) as (c & Hc). rewrite (qrow_modal N p c _ _ (fun m => nth m r 0) (fun m => nth m s 0) Hc).
  rewrite (sumn_ext _ _ (fun k => c k * qbs N k (nth i r 0) (nth i s 0))) by (intros k Hk; rewrite H by assumption; reflexivity).
  apply qmodal_ds; exact Hc.
Qed.

(* ---- the loops over (i,j) and the Vandermonde matrices ---- *)
Lemma for_pairs_ok {St} (Inv : nat -> St -> Prop) N body st : Inv 0%nat st ->
  (forall i j st, (i < S N)%nat -> (j < S N)%nat -> Inv (i * S N + j)%nat st -> exists st', body i j (i * S N + j)%nat st = Ok st' /\ Inv (S (i * S N + j)) st') ->
  exists st', for_pairs N body st = Ok (st', (S N * S N)%nat) /\ Inv (S N * S N)%nat st'.
Proof.
  intros H0 Hs. unfold for_pairs.
  destruct (for_inv (fun i (sc : St * nat) => snd sc = (i * S N)%nat /\ Inv (snd sc) (fst sc)) (S N)
     (fun i => for_ (S N) (fun j '(st, count) => bind (body i j count st) (fun st' => Ok (st', S count)))) (st, 0%nat)) as ([st' c] & Ef & Hc & HI).
  - split; [reflexivity|exact H0].
  - intros i [s c] Hi (Hc & HI). cbn [fst snd] in *.
    destruct (for_inv (fun j (sc : St * nat) => snd sc = (i * S N + j)%nat /\ Inv (snd sc) (fst sc)) (S N)
       (fun j '(st, count) => bind (body i j count st) (fun st' => Ok (st', S count))) (s, c)) as ([s' c'] & Ef & Hc' & HI').
    + cbn [fst snd]. split; [lia|exact HI].
    + intros j [s1 c1] Hj (Hc1 & HI1). cbn [fst snd] in *. subst c1.
      destruct (Hs i j s1 Hi Hj HI1) as (s2 & Ef & HI2). rewrite Ef. cbn [bind]. eexists. split; [reflexivity|]. cbn [fst snd]. split; [lia|exact HI2].
    + exists (s', c'). split; [exact Ef|]. cbn [fst snd] in *. replace (S i * S N)%nat with (i * S N + S N)%nat by lia. split; [exact Hc'|exact HI'].
  - cbn [fst snd] in *. exists st'. rewrite Ef. subst c. split; [reflexivity|exact HI].
Qed.
Lemma comp_P xs i : computeJacobiPolynomial E xs (fofn E 0) (fofn E 0) i = map (P i) xs.
Proof. change (fofn E 0) with 0. apply compute_ok; auto; lra. Qed.
Lemma comp_dP xs i : computeGradJacobi E xs (fofn E 0) (fofn E 0) i = map (dP i) xs.
Proof. change (fofn E 0) with 0. apply grad_ok; auto; lra. Qed.

Section Van.
Variable inverse : mat R -> mat R -> outcome (mat R).
Variables (N : nat) (r s : list R).
Local Notation n := (S N * S N)%nat.
Hypothesis L : length r = length s.
Lemma qvander_fill V : mrows V = length r -> mcols V = n ->
  exists V', for_pairs N (fun i j count V =>
    setcol2 E V count (zip2 (fmul E) (computeJacobiPolynomial E s (fofn E 0) (fofn E 0) i) (computeJacobiPolynomial E r (fofn E 0) (fofn E 0) j))) V = Ok (V', n) /\ shape V' (length r) n /\
    forall i c, (i < length r)%nat -> (c < n)%nat -> ment V' i c = qb N c (nth i r 0) (nth i s 0).
Proof.
  intros HV HC.
  match goal with |- context [for_pairs N ?body V] => destruct (for_pairs_ok (fun c (W : mat R) => shape W (length r) n /\
     (forall a c', (a < length r)%nat -> (c' < c)%nat -> ment W a c' = qb N c' (nth a r 0) (nth a s 0))) N body V) as (W & EW & SW & HW) end.
  - split; [split; assumption|]. intros; lia.
  - intros i j W Hi Hj ((W1 & W2) & HW). rewrite !comp_P.
    edestruct (setcol2_ok G W (i * S N + j)) as (W' & -> & (S1 & S2) & Hc & Ho); [rewrite W2; apply pair_in; assumption|rewrite zip2_len; rewrite !map_length; congruence|].
    exists W'. split; [reflexivity|]. split; [split; congruence|]. intros a c' Ha Hc'. destruct (Nat.eq_dec c' (i * S N + j)) as [->|Hn]; [|rewrite Ho by exact Hn; apply HW; [exact Ha|lia]].
    rewrite Hc, zip2_nth by (rewrite ?map_length; lia). rewrite !(map_nth' _ _ _ 0) by lia. unfold qb. destruct (pair_div (S N) i j Hj) as (-> & ->). reflexivity.
  - exists W. split; [exact EW|]. split; [exact SW|exact HW].
Qed.
Lemma qvander_ok V Vi0 : inverter_ok inverse -> length r = n -> shape V n n -> shape Vi0 n n ->
  quadVandermonde E inverse N r s V Vi0 = Throw \/
  exists V' Vi, quadVandermonde E inverse N r s V Vi0 = Ok (V', Vi) /\ shape V' n n /\ shape Vi n n /\
    (forall i c, (i < n)%nat -> (c < n)%nat -> ment V' i c = qb N c (nth i r 0) (nth i s 0)) /\
    (forall i j, (i < n)%nat -> (j < n)%nat -> sumn n (fun k => ment Vi i k * ment V' k j) = delta i j) /\
    (forall i j, (i < n)%nat -> (j < n)%nat -> sumn n (fun k => ment V' i k * ment Vi k j) = delta i j).
Proof.
  intros HI Lr (S1 & S2) S3. unfold quadVandermonde. replace (length r =? length s)%nat with true by (rewrite L, Nat.eqb_refl; reflexivity). cbn [negb].
  destruct (qvander_fill V) as (V' & -> & SV & HV); [congruence|congruence|]. cbn [bind]. rewrite Lr in *.
  destruct (HI n V' Vi0 SV S3) as [-> | (Vi & -> & SVi & HVi)]; [left; reflexivity|right]. cbn [bind].
  exists V', Vi. split; [reflexivity|]. split; [exact SV|]. split; [exact SVi|]. split; [exact HV|]. split; intros i j Hi Hj; apply (HVi i j Hi Hj).
Qed.
Lemma qgvander_ok Vr Vs : shape Vr (length r) n -> shape Vs (length r) n ->
  exists Vr' Vs', quadGradVandermonde E N r s Vr Vs = Ok (Vr', Vs') /\ shape Vr' (length r) n /\ shape Vs' (length r) n /\
    (forall i c, (i < length r)%nat -> (c < n)%nat -> ment Vr' i c = qbr N c (nth i r 0) (nth i s 0) /\ ment Vs' i c = qbs N c (nth i r 0) (nth i s 0)).
Proof.
  intros (A1 & A2) (B1 & B2). unfold quadGradVandermonde. replace (length r =? length s)%nat with true by (rewrite L, Nat.eqb_refl; reflexivity). cbn [negb].
  match goal with |- context [for_pairs N ?body ?st0] => destruct (for_pairs_ok (fun c (W : mat R * mat R) => shape (fst W) (length r) n /\ shape (snd W) (length r) n /\
     (forall a c', (a < length r)%nat -> (c' < c)%nat -> ment (fst W) a c' = qbr N c' (nth a r 0) (nth a s 0) /\ ment (snd W) a c' = qbs N c' (nth a r 0) (nth a s 0))) N body st0) as ([W1 W2] & EW & SW & SW' & HW) end.
  - split; [split; assumption|]. split; [split; assumption|]. intros; lia.
  - intros i j [W1 W2] Hi Hj ((Wr & Wc) & (Wr' & Wc') & HW). cbn [fst snd] in *. rewrite !comp_P, !comp_dP.
    edestruct (setcol2_ok G W1 (i * S N + j)) as (X1 & -> & (S1 & S2) & Hc & Ho); [rewrite Wc; apply pair_in; assumption|rewrite zip2_len; rewrite !map_length; congruence|]. cbn [bind].
    edestruct (setcol2_ok G W2 (i * S N + j)) as (X2 & -> & (S3 & S4) & Hc' & Ho'); [rewrite Wc'; apply pair_in; assumption|rewrite zip2_len; rewrite !map_length; congruence|]. cbn [bind].
    eexists. split; [reflexivity|]. cbn [fst snd]. split; [split; congruence|]. split; [split; congruence|]. intros a c' Ha Hc1. destruct (Nat.eq_dec c' (i * S N + j)) as [->|Hn]; [|rewrite Ho, Ho' by exact Hn; apply HW; [exact Ha|lia]].
    rewrite Hc, Hc', !zip2_nth by (rewrite ?map_length; lia). rewrite !(map_nth' _ _ _ 0) by lia. unfold qbr, qbs. destruct (pair_div (S N) i j Hj) as (-> & ->). split; reflexivity.
  - rewrite EW. cbn [bind fst snd] in *. exists W1, W2. split; [reflexivity|]. split; [exact SW|]. split; [exact SW'|exact HW].
Qed.
End Van.
End Basis.
