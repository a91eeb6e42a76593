(* Line1DProofs.v - lemmas about the one-dimensional right-hand sides. *)
From Coq Require Import ZArith List Lia Bool Arith.
From Verif Require Import Base Loops Num BlitzModel BlitzSpec BlitzProofs JacobiModel JacobiSpec JacobiProofs JacobiOrthProofs JacobiQuadProofs JacobiExactProofs
  DenseSpec CscModel MeshModel Nodes1DModel Nodes1DSpec Nodes1DProofs Nodes1DExactProofs Nodes1DProps RKModel Line1DModel Line1DSpec TriBasisProofs TriLiftProofs GllProofs.
From Coq Require Import Reals Lra.
Import ListNotations.
Local Open Scope nat_scope.

(* --- vectors given by a function of the position --- *)
Definition tab {T} (n : nat) (h : nat -> T) : list T := map h (seq 0 n).
Lemma tab_len {T} n (h : nat -> T) : length (tab n h) = n.
Proof. unfold tab. now rewrite map_length, seq_length. Qed.
Lemma tab_nth_error {T} n (h : nat -> T) i : nth_error (tab n h) i = if i <? n then Some (h i) else None.
Proof.
  unfold tab. destruct (Nat.ltb_spec i n) as [H|H].
  - rewrite (nth_error_nth' _ (h 0)) by (now rewrite map_length, seq_length). rewrite map_nth, seq_nth by auto. reflexivity.
  - apply nth_error_None. rewrite map_length, seq_length. lia.
Qed.
Lemma tab_eq {T} n (h : nat -> T) l : length l = n -> (forall i, i < n -> nth_error l i = Some (h i)) -> l = tab n h.
Proof.
  intros Hl H. apply list_ext_nth. intro i. rewrite tab_nth_error. destruct (Nat.ltb_spec i n); [auto|]. apply nth_error_None. lia.
Qed.
Lemma tab_zipw {T} n (f : T -> T -> T) h g : zipw f (tab n h) (tab n g) = tab n (fun i => f (h i) (g i)).
Proof. unfold tab. generalize (seq 0 n). induction l; cbn; congruence. Qed.
Lemma tab_map {T} n (f : T -> T) h : map f (tab n h) = tab n (fun i => f (h i)).
Proof. unfold tab. now rewrite map_map. Qed.
Lemma tab_get {T} n (h : nat -> T) i : i < n -> get (tab n h) (Z.of_nat i) = Ok (h i).
Proof.
  intros H. unfold get. destruct (Z.ltb_spec (Z.of_nat i) 0); [lia|]. rewrite Nat2Z.id, tab_nth_error.
  destruct (Nat.ltb_spec i n); [reflexivity|lia].
Qed.
Lemma tab_set {T} n (h : nat -> T) i v : i < n -> set (tab n h) (Z.of_nat i) v = Ok (tab n (fun j => if j =? i then v else h j)).
Proof.
  intros H. unfold set. rewrite tab_len. destruct (Z.ltb_spec (Z.of_nat i) 0); [lia|]. destruct (Z.leb_spec (Z.of_nat n) (Z.of_nat i)); [lia|].
  cbn [orb]. f_equal. rewrite Nat2Z.id. apply tab_eq; [now rewrite upd_length, tab_len|]. intros j Hj.
  rewrite nth_error_upd_if by (rewrite tab_len; lia). rewrite tab_nth_error. destruct (Nat.ltb_spec j n); [|lia]. destruct (j =? i); reflexivity.
Qed.

Lemma tab_ext {T} n (h g : nat -> T) : (forall i, i < n -> h i = g i) -> tab n h = tab n g.
Proof. intro H. unfold tab. apply map_ext_in. intros i Hi. apply in_seq in Hi. apply H. lia. Qed.
Lemma full_tab {T} (m : mat T) vec Np K : mrows m = Np -> mcols m = K -> 0 < Np -> length vec = Np * K ->
  fullToVector m vec false = Ok (tab (Np * K) (fun g => ment m (g mod Np) (g / Np))).
Proof.
  intros Hr Hc HN Hl. unfold fullToVector. destruct (to1d_spec m false vec) as (v & E & L & H & _); [rewrite Hr, Hc; lia|].
  rewrite E. f_equal. apply tab_eq; [lia|]. intros g Hg. 
  specialize (H (g mod Np) (g / Np)). unfold flat_index in H. rewrite Hr, Hc in H.
  replace (g mod Np + g / Np * Np) with g in H by (rewrite (Nat.div_mod g Np) at 1; lia).
  apply H; [apply Nat.mod_upper_bound; lia|]. apply Nat.div_lt_upper_bound; lia.
Qed.
Lemma unfull_tab {T} (h : nat -> T) (m : mat T) r K : mrows m = r -> mcols m = K ->
  exists M, vectorToFull (tab (r * K) h) m false = Ok M /\ mrows M = r /\ mcols M = K /\
    forall i k, i < r -> k < K -> ment M i k = h (i + k * r).
Proof.
  intros Hr Hc. unfold vectorToFull. destruct (from1d_spec m false (tab (r * K) h)) as (M & E & R' & C & H); [rewrite Hr, Hc, tab_len; lia|].
  exists M. rewrite Hr in R'. rewrite Hc in C. split; [exact E|]. split; [exact R'|]. split; [exact C|].
  intros i k Hi Hk. specialize (H i k ltac:(lia) ltac:(lia)). unfold flat_index in H. rewrite Hr, tab_nth_error in H.
  destruct (Nat.ltb_spec (i + k * r) (r * K)); [congruence|nia].
Qed.
Lemma index_tab {T} m n (v : nat -> T) e out : length out = n -> (forall g, g < n -> e g < m) ->
  applyIndexMap (tab m v) (map e (seq 0 n)) out = Ok (tab n (fun g => v (e g))).
Proof.
  intros Hl He. destruct (applyIndexMap_ok (tab m v) (map e (seq 0 n)) out) as (o & E & L & H & _).
  - rewrite map_length, seq_length. lia.
  - intros k ix Hk. change (map e (seq 0 n)) with (tab n e) in Hk. rewrite tab_nth_error in Hk. destruct (Nat.ltb_spec k n); [|discriminate].
    injection Hk as <-. rewrite tab_len. auto.
  - rewrite E. f_equal. apply tab_eq; [lia|]. intros i Hi. rewrite (H i (e i)).
    + rewrite tab_nth_error. specialize (He i Hi). destruct (Nat.ltb_spec (e i) m); [reflexivity|lia].
    + change (map e (seq 0 n)) with (tab n e). rewrite tab_nth_error. destruct (Nat.ltb_spec i n); [reflexivity|lia].
Qed.
Lemma repeat_len {T} (x : T) n : length (repeat x n) = n.
Proof. apply repeat_length. Qed.
Lemma fresh_len {T} (j : nat -> T) n : length (fresh j n) = n.
Proof. unfold fresh. now rewrite map_length, seq_length. Qed.

(* --- the nodes at the element ends --- *)
Lemma endn_pos Np g : 0 < Np -> endn Np g mod Np = (if g mod 2 =? 0 then 0 else Np - 1) /\ endn Np g / Np = g / 2.
Proof.
  intro HN. unfold endn, end_node. destruct (g mod 2 =? 0).
  - rewrite Nat.mul_comm, Nat.mod_mul, Nat.div_mul by lia. auto.
  - replace (Np * (g / 2) + (Np - 1)) with ((Np - 1) + g / 2 * Np) by lia. rewrite Nat.mod_add, Nat.div_add by lia.
    rewrite Nat.mod_small, Nat.div_small by lia. auto.
Qed.

Local Open Scope R_scope.

(* --- polynomials --- *)
Fixpoint pderiv (cs : list R) : list R := match cs with [] => [] | _ :: cs => padd cs (0 :: pderiv cs) end.
Lemma pderiv_eval cs x : peval (pderiv cs) x = dpeval cs x.
Proof. induction cs as [|c cs IH]; [reflexivity|]. cbn [pderiv dpeval]. rewrite padd_eval. cbn [peval]. rewrite IH. ring. Qed.
Lemma pderiv_len cs : (length (pderiv cs) <= length cs)%nat.
Proof. induction cs as [|c cs IH]; [auto|]. cbn [pderiv]. rewrite padd_len. cbn [length]. lia. Qed.

(* --- the tables of a constructed object --- *)
Record line_tables (n : nodes1d) (J rx Fs : mat R) (Np K : nat) (w : R) : Prop := {
  lt_Np : (2 <= Np)%nat; lt_K : (0 < K)%nat; lt_w : w <> 0;
  lt_r : length (n_r n) = Np; lt_r0 : nth 0 (n_r n) 0 = -1; lt_r1 : nth (Np - 1) (n_r n) 0 = 1;
  lt_nd : NoDup (n_r n);
  lt_conf : tables_conform n rx Fs Np K = true;
  lt_J : shape J Np K /\ forall i k, (i < Np)%nat -> (k < K)%nat -> ment J i k = w / 2;
  lt_D : differentiates Np (n_r n) (n_Dr n);
  lt_L : forall f, (f < 2)%nat -> exists ls, length ls = Np /\
    (forall i, (i < Np)%nat -> ment (n_Lift n) i f = peval ls (nth i (n_r n) 0)) /\
    (forall cs, (length cs <= Np)%nat -> integral_is (fun x => peval ls x * peval cs x) (-1) 1 (peval cs (if (f =? 0)%nat then -1 else 1)));
  lt_M : n_vmapM n = map (endn Np) (seq 0 (2 * K));
  lt_P : n_vmapP n = map (fun g => endn Np (mate K g)) (seq 0 (2 * K));
  lt_mI : n_mapI n = Z.of_nat 0; lt_mO : n_mapO n = Z.of_nat (2 * K - 1);
  lt_vI : n_vmapI n = Z.of_nat 0; lt_vO : n_vmapO n = Z.of_nat (Np * K - 1);
  lt_nx : forall k, (k < K)%nat -> ment (n_nx n) 0%nat k = -1 /\ ment (n_nx n) 1%nat k = 1;
  lt_rx : forall i k, (i < Np)%nat -> (k < K)%nat -> ment rx i k = 1 / (w / 2);
  lt_Fs : forall f k, (f < 2)%nat -> (k < K)%nat -> ment Fs f k = 1 / (w / 2);
  lt_V : shape (n_Vinv n) Np Np /\ forall k j, (k < Np)%nat -> (j < Np)%nat ->
    sumn Np (fun i => ment (n_Vinv n) k i * ment (n_V n) i j) = (if (k =? j)%nat then 1 else 0) /\
    sumn Np (fun i => ment (n_V n) k i * ment (n_Vinv n) i j) = (if (k =? j)%nat then 1 else 0);
  lt_int : forall m k, exists cs, interpolates Np (n_r n) m k cs }.

Lemma conform_ok {T} (m : mat T) r c : conform m r c = true <-> mrows m = r /\ mcols m = c.
Proof. unfold conform. rewrite andb_true_iff, !Nat.eqb_eq. tauto. Qed.

Section Tables.
Variables (G : R -> R) (N K : nat) (a b eps tol : R).
Variables (solve : mat R -> mat R -> mat R -> outcome (mat R)) (inverse : mat R -> mat R -> outcome (mat R))
  (eig : nat -> (nat -> nat -> R) -> list R * (nat -> nat -> R)) (junk : nat -> nat -> R)
  (jk : nat * dbl) (jp ji : nat -> nat) (jx : nat -> dbl) (junkn : nat -> nat).
Local Notation E := (exact G).
Local Notation result := (buildNodes1D E solve inverse eig eps junk tol (buildConnectivity1D jk jp ji jx) junkn (S N) K a b).

Lemma modes_poly : gamma_like G -> forall m (cf : nat -> R), exists cs, (length cs <= m)%nat /\ forall x, peval cs x = sumn m (fun j => cf j * jac G 0 0 j x).
Proof.
  intros HG m cf. induction m as [|m (cs & Lc & Ec)]; [exists []; split; [cbn; lia|intro; rewrite sumn_0; reflexivity]|].
  destruct (mon_poly 0 0 m) as (c & Lm & _ & Em).
  exists (padd cs (pscal (cf m * / nrm G 0 0 m) c)). split; [rewrite padd_len, pscal_len; lia|].
  intro x. rewrite padd_eval, pscal_eval, sumn_S, Ec, <- Em. change (jac G 0 0 m x) with (mon 0 0 m x / nrm G 0 0 m). unfold Rdiv. ring.
Qed.

Lemma built_tables : a <> b -> sound1D G N K eps tol solve inverse eig -> result = Throw \/
  exists n J rx Fs, result = Ok n /\ computeJacobian1D E junk (S (S N)) K (n_x n) (n_Dr n) = Ok (J, rx, Fs) /\
    line_tables n J rx Fs (S (S N)) K ((b - a) / INR K) /\ ment (n_x n) 0%nat 0%nat = a /\ ment (n_x n) (S N) (K - 1)%nat = b /\ shape (n_x n) (S (S N)) K.
Proof.
  intros Hab HS.
  destruct (C26_grid G N K a b eps tol solve inverse eig junk jk jp ji jx junkn HS) as [-> | (n & J & rx & Fs & En & SX & _ & X0 & XK & _ & _ & Hnx & EJ & SJ & Srx & SFs & HJ & HFs)]; [left; reflexivity|].
  destruct (exact_nodes G N K a b eps tol solve inverse eig junk jk jp ji jx junkn HS) as [Et | (n1 & En1 & Er & EV & Ex & ED & EL & HF & HN & EVi & Snx & EM & EP & EI & EO & EvI & EvO)]; [congruence|].
  destruct (C42_line G N K a b eps tol solve inverse eig junk jk jp ji jx junkn HS) as [Et | (n2 & En2 & SD & HD)]; [congruence|].
  destruct (C62_lift_line G N K a b eps tol solve inverse eig junk jk jp ji jx junkn HS) as [Et | (n3 & En3 & SL & HL)]; [congruence|].
  assert (n1 = n) by congruence. assert (n2 = n) by congruence. assert (n3 = n) by congruence. subst n1 n2 n3.
  pose proof (sound_points G N K eps tol solve inverse eig HS) as (Lr & R0 & R1 & Rinc). rewrite <- Er in Lr, R0, R1, Rinc.
  destruct HS as (HG & HK & HI & Ht & He & Hs & Hi & _).
  assert (SV : shape (n_V n) (S (S N)) (S (S N))) by (rewrite EV; split; [exact Lr|reflexivity]).
  destruct (Hi (S (S N)) (n_V n) (mkmat (S (S N)) (S (S N)) junk) SV ltac:(split; reflexivity)) as [Et | (Vi & EV' & SVi & HVi)]; [congruence|].
  assert (Vi = n_Vinv n) by congruence. subst Vi.
  right. exists n, J, rx, Fs. split; [exact En|]. split; [exact EJ|]. split; [|split; [exact X0|split; [exact XK|exact SX]]].
  constructor; auto; try lia.
  - unfold Rdiv. apply Rmult_integral_contrapositive_currified; [lra|]. apply Rinv_neq_0_compat. apply not_0_INR. lia.
  - apply NoDup_nth with (d := 0). intros i j Hi' Hj Hij. rewrite Lr in Hi', Hj.
    assert (Inc : forall d i, (i + S d < S (S N))%nat -> nth i (n_r n) 0 < nth (i + S d) (n_r n) 0).
    { induction d as [|d IH]; intros i' H'; [replace (i' + 1)%nat with (S i') by lia; apply Rinc; lia|].
      apply Rlt_trans with (nth (i' + S d) (n_r n) 0); [apply IH; lia|]. replace (i' + S (S d))%nat with (S (i' + S d)) by lia. apply Rinc. lia. }
    destruct (Nat.lt_trichotomy i j) as [H1 | [H1 | H1]]; [|exact H1|].
    + specialize (Inc (j - i - 1)%nat i). replace (i + S (j - i - 1))%nat with j in Inc by lia. specialize (Inc Hj). lra.
    + specialize (Inc (i - j - 1)%nat j). replace (j + S (i - j - 1))%nat with i in Inc by lia. specialize (Inc Hi'). lra.
  - unfold tables_conform. rewrite !andb_true_iff, !conform_ok. auto 10.
  - split; [exact SJ|]. intros i k Hi' Hk. apply HJ; auto.
  - intros i k Hi' Hk. apply HJ; auto.
  - split; [exact SVi|]. intros k j Hk Hj. destruct (HVi k j Hk Hj). split; assumption.
  - intros m k. destruct (modes_poly HG (S (S N)) (fun j => sumn (S (S N)) (fun i => ment (n_Vinv n) j i * ment m i k))) as (cs & Lc & Ec).
    exists cs. split; [exact Lc|]. intros i Hi'. rewrite Ec.
    transitivity (sumn (S (S N)) (fun i0 => ment m i0 k * sumn (S (S N)) (fun j => ment (n_V n) i j * ment (n_Vinv n) j i0))).
    + symmetry. rewrite (sumn_ext _ _ (fun i0 => if (i =? i0)%nat then ment m i0 k else 0)).
      * rewrite (sumn_pick (S (S N)) _ i Hi'); [now rewrite Nat.eqb_refl|]. intros j Hj Hne. destruct (Nat.eqb_spec i j); [congruence|reflexivity].
      * intros j Hj. destruct (HVi i j Hi' Hj) as (-> & _). destruct (i =? j)%nat; ring.
    + rewrite (sumn_ext _ (fun i0 => ment m i0 k * _) (fun i0 => sumn (S (S N)) (fun j => ment m i0 k * (ment (n_V n) i j * ment (n_Vinv n) j i0)))) by (intros; rewrite sumn_scal; reflexivity).
      rewrite sumn_swap. apply sumn_ext. intros j Hj. rewrite (Rmult_comm (sumn _ _)), <- sumn_scal. apply sumn_ext. intros i0 Hi0.
      rewrite EV, (vander_ent G HG) by lia. ring.
Qed.
End Tables.

(* --- volume and surface terms together --- *)
Section Weak.
Variable G : R -> R.
Local Notation E := (exact G).
Variables (n : @nodes1d R) (J rx Fs : mat R) (Np K : nat) (w : R).
Hypothesis LT : line_tables n J rx Fs Np K w.
Local Notation r := (n_r n).

Lemma product_deriv (m : mat R) k F i : interpolates Np r m k F -> (i < Np)%nat ->
  fsum E Np (fun j => fmul E (ment (n_Dr n) i j) (ment m j k)) = dpeval F (nth i r 0).
Proof.
  intros (HL & HF) Hi. rewrite fsum_exact. cbn [exact fmul].
  rewrite <- (lt_D _ _ _ _ _ _ _ LT F i (dpeval F (nth i r 0)) HL Hi (dpeval_ok _ _)).
  apply sumn_ext. intros j Hj. rewrite HF by auto. reflexivity.
Qed.

(* a right-hand side made of a scaled derivative and lifted face values *)
Lemma weak_ok (s : R) (f rhs : mat R) (g : nat -> nat -> R) (F : nat -> list R) :
  (forall k, (k < K)%nat -> interpolates Np r f k (F k)) ->
  (forall i k, (i < Np)%nat -> (k < K)%nat -> ment rhs i k = s * (1 / (w / 2)) * dpeval (F k) (nth i r 0) +
     (ment (n_Lift n) i 0%nat * (1 / (w / 2) * g 0%nat k) + ment (n_Lift n) i 1%nat * (1 / (w / 2) * g 1%nat k))) ->
  exists Q, (forall k, (k < K)%nat -> interpolates Np r rhs k (Q k)) /\ weak_form Np K w s F Q (g 0%nat) (g 1%nat).
Proof.
  intros HF HR. destruct (lt_L _ _ _ _ _ _ _ LT 0 ltac:(lia)) as (l0 & L0 & E0 & I0). destruct (lt_L _ _ _ _ _ _ _ LT 1 ltac:(lia)) as (l1 & L1 & E1 & I1).
  cbn [Nat.eqb] in I0, I1. pose proof (lt_w _ _ _ _ _ _ _ LT) as Hw.
  exists (fun k => padd (pscal (s * (1 / (w / 2))) (pderiv (F k))) (padd (pscal (1 / (w / 2) * g 0%nat k) l0) (pscal (1 / (w / 2) * g 1%nat k) l1))).
  split.
  - intros k Hk. destruct (HF k Hk) as (HL & _). split.
    + rewrite !padd_len, !pscal_len, L0, L1. pose proof (pderiv_len (F k)). lia.
    + intros i Hi. rewrite HR, !padd_eval, !pscal_eval, pderiv_eval, E0, E1 by auto. ring.
  - intros k Hk dF HdF p Hp.
    apply integral_ext with (fun x => g 0%nat k * (peval l0 x * peval p x) + g 1%nat k * (peval l1 x * peval p x)).
    + intro x. rewrite !padd_eval, !pscal_eval, pderiv_eval.
      rewrite (uniqueness_limite _ _ _ _ (HdF x) (dpeval_ok (F k) x)). field. exact Hw.
    + replace (peval p (-1) * g 0%nat k + peval p 1 * g 1%nat k) with (g 0%nat k * peval p (-1) + g 1%nat k * peval p 1) by ring.
      apply integral_plus; apply integral_scal; [apply I0|apply I1]; exact Hp.
Qed.

(* interpolating polynomials exist and are unique *)
Lemma interp_unique m k cs ds : interpolates Np r m k cs -> interpolates Np r m k ds -> forall x, peval cs x = peval ds x.
Proof.
  intros (L1 & H1) (L2 & H2) x.
  pose proof (too_many_roots Np (padd cs (pscal (-1) ds)) r) as H. rewrite padd_len, pscal_len in H.
  specialize (H ltac:(lia) (lt_nd _ _ _ _ _ _ _ LT) (lt_r _ _ _ _ _ _ _ LT)). 
  assert (Hz : forall y, In y r -> peval (padd cs (pscal (-1) ds)) y = 0).
  { intros y Hy. apply (In_nth _ _ 0) in Hy. destruct Hy as (i & Hi & <-). rewrite (lt_r _ _ _ _ _ _ _ LT) in Hi.
    rewrite padd_eval, pscal_eval, <- H1, <- H2 by auto. ring. }
  specialize (H Hz x). rewrite padd_eval, pscal_eval in H. lra.
Qed.
Lemma interp_exists m : exists P, forall k, (k < K)%nat -> interpolates Np r m k (P k).
Proof.
  generalize K. intro n'. induction n' as [|n' (P & HP)]; [exists (fun _ => []); intros; lia|].
  destruct (lt_int _ _ _ _ _ _ _ LT m n') as (cs & Hcs). exists (fun k => if (k =? n')%nat then cs else P k).
  intros k Hk. destruct (Nat.eqb_spec k n') as [-> |]; [exact Hcs|apply HP; lia].
Qed.
Lemma weak_all (s : R) (f rhs : mat R) (g : nat -> nat -> R) (F : nat -> list R) :
  (forall k, (k < K)%nat -> interpolates Np r f k (F k)) ->
  (forall i k, (i < Np)%nat -> (k < K)%nat -> ment rhs i k = s * (1 / (w / 2)) * dpeval (F k) (nth i r 0) +
     (ment (n_Lift n) i 0%nat * (1 / (w / 2) * g 0%nat k) + ment (n_Lift n) i 1%nat * (1 / (w / 2) * g 1%nat k))) ->
  forall Q, (forall k, (k < K)%nat -> interpolates Np r rhs k (Q k)) -> weak_form Np K w s F Q (g 0%nat) (g 1%nat).
Proof.
  intros HF HR Q HQ. destruct (weak_ok s f rhs g F HF HR) as (Q' & HQ' & HW). intros k Hk dF HdF p Hp.
  eapply integral_ext; [|apply (HW k Hk dF HdF p Hp)]. intro x. cbv beta. rewrite (interp_unique rhs k (Q' k) (Q k)) by auto. reflexivity.
Qed.

(* values at the element ends *)
Definition Lv (U : nat -> list R) k := peval (U k) (-1).
Definition Rv (U : nat -> list R) k := peval (U k) 1.
Definition side (U : nat -> list R) (g : nat) : R := if (g mod 2 =? 0)%nat then Lv U (g / 2) else Rv U (g / 2).
Lemma trace_ok (m : mat R) U g : (forall k, (k < K)%nat -> interpolates Np r m k (U k)) -> (g < 2 * K)%nat ->
  ment m (endn Np g mod Np) (endn Np g / Np) = side U g.
Proof.
  intros HU Hg. pose proof (lt_Np _ _ _ _ _ _ _ LT). destruct (endn_pos Np g) as (-> & ->); [lia|].
  assert (Hk : (g / 2 < K)%nat) by (apply Nat.div_lt_upper_bound; lia). destruct (HU _ Hk) as (_ & H1). unfold side.
  destruct (g mod 2 =? 0)%nat; rewrite H1 by lia; [rewrite (lt_r0 _ _ _ _ _ _ _ LT)|rewrite (lt_r1 _ _ _ _ _ _ _ LT)]; reflexivity.
Qed.
Lemma nx_ok g : (g < 2 * K)%nat -> ment (n_nx n) (g mod 2) (g / 2) = if (g mod 2 =? 0)%nat then -1 else 1.
Proof.
  intro Hg. assert (Hk : (g / 2 < K)%nat) by (apply Nat.div_lt_upper_bound; lia).
  destruct (lt_nx _ _ _ _ _ _ _ LT _ Hk) as (H0 & H1). pose proof (Nat.mod_upper_bound g 2 ltac:(lia)).
  destruct (g mod 2) as [|[|]]; [exact H0|exact H1|lia].
Qed.
Lemma side_l U k : side U (0 + k * 2) = Lv U k.
Proof. unfold side. rewrite Nat.mod_add, Nat.div_add by lia. reflexivity. Qed.
Lemma side_r U k : side U (1 + k * 2) = Rv U k.
Proof. unfold side. rewrite Nat.mod_add, Nat.div_add by lia. reflexivity. Qed.
Lemma mate_l k : (k < K)%nat -> mate K (0 + k * 2) = match k with O => 0 | S k => 1 + k * 2 end%nat.
Proof.
  intro. unfold mate. replace (0 + k * 2)%nat with (2 * k)%nat by lia. rewrite Nat.even_mul. cbn [Nat.even orb].
  destruct k; [reflexivity|]. destruct (Nat.eqb_spec (2 * S k) 0); lia.
Qed.
Lemma mate_r k : (k < K)%nat -> mate K (1 + k * 2) = if (S k =? K)%nat then (1 + k * 2)%nat else (0 + S k * 2)%nat.
Proof.
  intro. unfold mate. replace (1 + k * 2)%nat with (S (2 * k))%nat by lia. rewrite Nat.even_succ, Nat.odd_mul. cbn [Nat.odd Nat.even negb andb].
  destruct (Nat.eqb_spec (S (2 * k)) (2 * K - 1)), (Nat.eqb_spec (S k) K); lia.
Qed.
End Weak.

(* --- advection --- *)
Section Advec.
Variable G : R -> R.
Local Notation E := (exact G).
Variables (junk : nat -> nat -> R) (junkv : nat -> R) (n : @nodes1d R) (J rx Fs : mat R) (Np K : nat) (w : R).
Hypothesis LT : line_tables n J rx Fs Np K w.
Local Notation r := (n_r n).

Lemma fofn0 : fofn E 0 = 0. Proof. reflexivity. Qed.
Lemma fhalf_exact : fhalf E = 1 / 2. Proof. reflexivity. Qed.

(* what stands at the far side of face g, with the boundary values vI, vO given *)
Definition ext (vI vO : R) (U : nat -> list R) (g : nat) : R :=
  if (g =? 0)%nat then vI else if (g =? 2 * K - 1)%nat then vO else side U (mate K g).

Lemma advec_ok c u U : shape u Np K -> (forall k, (k < K)%nat -> interpolates Np r u k (U k)) ->
  exists rhs, advec_rhs E junk junkv n rx Fs Np K c u = Ok rhs /\ shape rhs Np K /\
    forall i k, (i < Np)%nat -> (k < K)%nat -> ment rhs i k = - c * (1 / (w / 2)) * dpeval (U k) (nth i r 0) +
     (ment (n_Lift n) i 0%nat * (1 / (w / 2) * (- Rmax c 0 * (peval (U k) (-1) - from_left U k))) +
      ment (n_Lift n) i 1%nat * (1 / (w / 2) * (Rmin c 0 * (peval (U k) 1 - from_right K U k)))).
Proof.
  intros (Ur & Uc) HU. pose proof (lt_Np _ _ _ _ _ _ _ LT) as HN. pose proof (lt_K _ _ _ _ _ _ _ LT) as HK. pose proof (lt_conf _ _ _ _ _ _ _ LT) as HC.
  unfold advec_rhs. rewrite HC. assert (Cu : conform u Np K = true) by (apply conform_ok; auto). rewrite Cu. cbn [andb require].
  unfold tables_conform in HC. rewrite !andb_true_iff, !conform_ok in HC. destruct HC as ((((SD & SL) & Snx) & Srx) & SFs).
  rewrite (full_tab (n_nx n) _ 2 K) by (auto; try lia; apply repeat_length). cbn [bind].
  rewrite (full_tab u _ Np K) by (auto; try lia; apply fresh_len). cbn [bind].
  rewrite (lt_M _ _ _ _ _ _ _ LT), (lt_P _ _ _ _ _ _ _ LT), (lt_mI _ _ _ _ _ _ _ LT), (lt_mO _ _ _ _ _ _ _ LT).
  rewrite index_tab; [|apply repeat_length|intros g Hg; pose proof (endn_lt Np K g ltac:(lia) Hg); lia]. cbn [bind].
  rewrite index_tab; [|apply repeat_length|intros g Hg; pose proof (endn_lt Np K (mate K g) ltac:(lia) (mate_lt K g Hg)); lia]. cbn [bind].
  rewrite tab_get by lia. cbn [bind]. rewrite tab_set by lia. cbn [bind]. rewrite tab_set by lia. cbn [bind].
  rewrite tab_zipw, tab_map, tab_zipw.
  match goal with |- context [vectorToFull (tab (2 * K) ?h) _ _] =>
    rewrite (tab_ext (2 * K) h (fun g => if (g mod 2 =? 0)%nat then - Rmax c 0 * (side U g - ext 0 (Rv U (K - 1)) U g) else Rmin c 0 * (side U g - ext 0 (Rv U (K - 1)) U g))) end.
  2:{ intros g Hg. cbv beta. rewrite (trace_ok n J rx Fs Np K w LT u U g HU Hg), (nx_ok n J rx Fs Np K w LT g Hg).
      rewrite (trace_ok n J rx Fs Np K w LT u U (mate K g) HU (mate_lt K g Hg)).
      assert (Ee : (if (g =? 0)%nat then fofn E 0 else if (g =? 2 * K - 1)%nat then ment u (endn Np (2 * K - 1) mod Np) (endn Np (2 * K - 1) / Np) else side U (mate K g)) = ext 0 (Rv U (K - 1)) U g).
      { unfold ext. destruct (g =? 0)%nat; [reflexivity|]. destruct (g =? 2 * K - 1)%nat; [|reflexivity].
        rewrite (trace_ok n J rx Fs Np K w LT u U (2 * K - 1) HU) by lia. replace (2 * K - 1)%nat with (1 + (K - 1) * 2)%nat by lia. apply side_r. }
      rewrite Ee. generalize (side U g) (ext 0 (Rv U (K - 1)) U g). intros p q.
      cbn [exact fmul fsub fabs]. rewrite fhalf_exact. change (fofn E 1) with 1. change (fofn E 0) with 0.
      unfold Rmax, Rmin, Rabs. destruct (Rle_dec c 0), (g mod 2 =? 0)%nat; destruct (Rcase_abs _); try lra; try nra.
      all: replace c with 0 by lra; ring. }
  destruct (unfull_tab (fun g => if (g mod 2 =? 0)%nat then - Rmax c 0 * (side U g - ext 0 (Rv U (K - 1)) U g) else Rmin c 0 * (side U g - ext 0 (Rv U (K - 1)) U g))
    (mkmat 2 K junk) 2 K eq_refl eq_refl) as (M & EM & Mr & Mc & HM).
  rewrite EM. cbn [bind]. eexists. split; [reflexivity|]. split; [split; reflexivity|].
  intros i k Hi Hk. cbn [add_product scaled_product mmap mzip ment mrows mcols].
  rewrite (product_deriv G n J rx Fs Np K w LT u k (U k) i (HU k Hk) Hi). rewrite fsum_exact. rewrite !sumn_S, sumn_0. cbn [exact fmul fadd fopp].
  rewrite !HM by lia. rewrite (lt_rx _ _ _ _ _ _ _ LT), !(lt_Fs _ _ _ _ _ _ _ LT) by lia.
  rewrite !Nat.mod_add by lia. cbn [Nat.modulo Nat.divmod snd Nat.sub Nat.eqb]. rewrite side_l, side_r.
  assert (El : ext 0 (Rv U (K - 1)) U (0 + k * 2) = from_left U k).
  { unfold ext. destruct k as [|k]; [reflexivity|]. destruct (Nat.eqb_spec (0 + S k * 2) 0); [lia|]. destruct (Nat.eqb_spec (0 + S k * 2) (2 * K - 1)); [lia|].
    rewrite mate_l by auto. apply side_r. }
  assert (Er : ext 0 (Rv U (K - 1)) U (1 + k * 2) = from_right K U k).
  { unfold ext, from_right. destruct (Nat.eqb_spec (1 + k * 2) 0); [lia|]. destruct (Nat.eqb_spec (1 + k * 2) (2 * K - 1)), (Nat.eqb_spec (S k) K); try lia.
    - replace (K - 1)%nat with k by lia. reflexivity.
    - rewrite mate_r by auto. destruct (Nat.eqb_spec (S k) K); [lia|]. apply side_l. }
  rewrite El, Er. unfold Lv, Rv. ring.
Qed.
End Advec.

(* --- consequences of a weak form: element totals and energies --- *)
Lemma integral_deriv cs : integral_is (dpeval cs) (-1) 1 (peval cs 1 - peval cs (-1)).
Proof. exists (peval cs). split; [apply dpeval_ok|reflexivity]. Qed.
Lemma integral_sq cs : integral_is (fun x => dpeval cs x * peval cs x) (-1) 1 ((peval cs 1 * peval cs 1 - peval cs (-1) * peval cs (-1)) / 2).
Proof.
  exists (fun x => / 2 * (peval cs x * peval cs x)). split; [|field]. intro x.
  replace (dpeval cs x * peval cs x) with (/ 2 * (dpeval cs x * peval cs x + peval cs x * dpeval cs x)) by field.
  apply derivable_pt_lim_scal with (f := fun x => peval cs x * peval cs x).
  apply (derivable_pt_lim_mult (peval cs) (peval cs)); apply dpeval_ok.
Qed.
Section Totals.
Variables (Np K : nat) (w s : R) (F Q : nat -> list R) (gl gr : nat -> R).
Hypothesis HW : weak_form Np K w s F Q gl gr.
Hypothesis HN : (0 < Np)%nat.
Lemma weak_total k : (k < K)%nat -> integral_is (fun x => w / 2 * peval (Q k) x) (-1) 1 (s * (peval (F k) 1 - peval (F k) (-1)) + (gl k + gr k)).
Proof.
  intro Hk. pose proof (HW k Hk (dpeval (F k)) (dpeval_ok (F k)) [1] ltac:(cbn; lia)) as H.
  replace (gl k + gr k) with (peval [1] (-1) * gl k + peval [1] 1 * gr k) by (cbn [peval]; ring).
  eapply integral_ext; [|apply (integral_plus _ _ _ _ _ _ (integral_scal s _ _ _ _ (integral_deriv (F k))) H)].
  intro x. cbv beta. cbn [peval]. ring.
Qed.
Lemma weak_energy k : (k < K)%nat -> (length (F k) <= Np)%nat -> integral_is (fun x => w / 2 * peval (Q k) x * peval (F k) x) (-1) 1
  (s * ((peval (F k) 1 * peval (F k) 1 - peval (F k) (-1) * peval (F k) (-1)) / 2) + (peval (F k) (-1) * gl k + peval (F k) 1 * gr k)).
Proof.
  intros Hk HL. pose proof (HW k Hk (dpeval (F k)) (dpeval_ok (F k)) (F k) HL) as H.
  eapply integral_ext; [|apply (integral_plus _ _ _ _ _ _ (integral_scal s _ _ _ _ (integral_sq (F k))) H)].
  intro x. cbv beta. ring.
Qed.
End Totals.
