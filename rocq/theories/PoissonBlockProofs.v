(* PoissonBlockProofs.v - the element and face blocks of the operator, as bilinear forms. *)
From Coq Require Import ZArith List Lia Bool.
From Verif Require Import Base Loops Num JacobiSpec JacobiQuadProofs JacobiProofs Nodes1DModel Nodes1DSpec Nodes1DExactProofs FoldProofs TriModel SwModel PoissonModel PoissonTripletProofs.
From Coq Require Import Reals Lra.
Import ListNotations.
Local Open Scope R_scope.

Fixpoint sl (l : list R) : R := match l with [] => 0 | a :: l' => a + sl l' end.
Lemma sl_app a b : sl (a ++ b) = sl a + sl b.
Proof. induction a; cbn [app sl]; [ring|]. rewrite IHa. ring. Qed.
Lemma sl_seq n h : sl (map h (seq 0 n)) = sumn n h.
Proof. induction n; [reflexivity|]. rewrite seq_S, map_app, sl_app, IHn, sumn_S. cbn. ring. Qed.
Lemma sl_pairs a b h : sl (map (fun p => h (fst p) (snd p)) (pairs a b)) = sumn a (fun i => sumn b (fun j => h i j)).
Proof.
  unfold pairs. induction a; [reflexivity|]. rewrite seq_S, flat_map_app, map_app, sl_app, IHa, sumn_S. cbn [flat_map plus]. rewrite app_nil_r, map_map. cbn [fst snd]. now rewrite sl_seq.
Qed.
Lemma sumn_pull n c f : sumn n (fun i => c * f i) = c * sumn n f.
Proof. apply sumn_scal. Qed.

Lemma sumn_mul3 a b c n f : a * (b * sumn n f) * c = sumn n (fun l => a * b * f l * c).
Proof. rewrite <- Rmult_assoc. rewrite (Rmult_comm (a * b * _) c), <- !sumn_scal. apply sumn_ext. intros; ring. Qed.
(* filling in a matrix at distinct positions *)
Lemma fill (X0 : mat R) a b (pi pj : nat -> nat -> nat) (h : nat -> nat -> R) (body : nat -> nat -> mat R -> outcome (mat R)) :
  (forall i j, (i < a)%nat -> (j < b)%nat -> (pi i j < mrows X0)%nat /\ (pj i j < mcols X0)%nat) ->
  (forall i j i' j', (i < a)%nat -> (j < b)%nat -> (i' < a)%nat -> (j' < b)%nat -> pi i j = pi i' j' -> pj i j = pj i' j' -> i = i' /\ j = j') ->
  (forall i j X, (i < a)%nat -> (j < b)%nat -> mrows X = mrows X0 -> mcols X = mcols X0 -> body i j X = mset X (pi i j) (pj i j) (h i j)) ->
  exists X, for_ a (fun i => for_ b (fun j => body i j)) X0 = Ok X /\ mrows X = mrows X0 /\ mcols X = mcols X0 /\
    (forall i j, (i < a)%nat -> (j < b)%nat -> ment X (pi i j) (pj i j) = h i j) /\
    forall u v, (forall i j, (i < a)%nat -> (j < b)%nat -> u <> pi i j \/ v <> pj i j) -> ment X u v = ment X0 u v.
Proof.
  intros Hb Hi Hbody. rewrite for2.
  destruct (foldM_inv (fun done X => mrows X = mrows X0 /\ mcols X = mcols X0 /\ (forall p, In p done -> ment X (pi (fst p) (snd p)) (pj (fst p) (snd p)) = h (fst p) (snd p)) /\
    forall u v, (forall p, In p done -> u <> pi (fst p) (snd p) \/ v <> pj (fst p) (snd p)) -> ment X u v = ment X0 u v) (fun p => body (fst p) (snd p)) (pairs a b) [] X0) as (X & EX & S1 & S2 & H1 & H2).
  - split; [reflexivity|]. split; [reflexivity|]. split; [intros p []|]. reflexivity.
  - intros dn [i j] X (rest & Er) (S1 & S2 & H1 & H2). cbn [fst snd app] in *. assert (Hin : In (i, j) (pairs a b)) by (rewrite Er; apply in_elt). apply pairs_in in Hin as (Ia & Ib).
    rewrite Hbody by assumption. unfold mset. destruct (Hb i j Ia Ib) as (B1 & B2). rewrite inb_true by lia. eexists. split; [reflexivity|]. cbn [mrows mcols ment]. split; [exact S1|]. split; [exact S2|]. split.
    + intros [i' j'] Hp. cbn [fst snd]. destruct ((pi i' j' =? pi i j)%nat && (pj i' j' =? pj i j)%nat) eqn:Ee.
      * apply andb_true_iff in Ee as (E1 & E2). apply Nat.eqb_eq in E1, E2. apply in_app_or in Hp as [Hp|[Hp|[]]]; [|injection Hp as -> ->; reflexivity].
        assert (Hp' : In (i', j') (pairs a b)) by (rewrite Er; apply in_or_app; left; exact Hp). apply pairs_in in Hp'. destruct (Hi i' j' i j) as (-> & ->); tauto.
      * apply in_app_or in Hp as [Hp|[Hp|[]]]; [exact (H1 _ Hp)|]. injection Hp as -> ->. rewrite !Nat.eqb_refl in Ee. discriminate.
    + intros u v Hu. destruct (Hu (i, j)) as [Hn|Hn]; [apply in_or_app; right; left; reflexivity| |]; cbn [fst snd] in Hn.
      * destruct (Nat.eqb_spec u (pi i j)); [contradiction|]. cbn [andb]. apply H2. intros p Hp. apply Hu. apply in_or_app. auto.
      * destruct (Nat.eqb_spec v (pj i j)); [contradiction|]. rewrite andb_false_r. apply H2. intros p Hp. apply Hu. apply in_or_app. auto.
  - exists X. split; [exact EX|]. split; [exact S1|]. split; [exact S2|]. split.
    + intros i j Hi' Hj. apply (H1 (i, j)). cbn [app]. apply pairs_in. auto.
    + intros u v Huv. apply H2. intros [i j] Hp. cbn [app] in Hp. apply pairs_in in Hp as (P1 & P2). apply Huv; assumption.
Qed.

Section Exact.
Variable G : R -> R.
Local Notation E := (exact G).
Lemma halfE : fhalf E = / 2.
Proof. unfold fhalf. rewrite !fofn_INR. cbn [exact fdiv INR]. lra. Qed.
Lemma mmulE a b i j : ment (mmul E a b) i j = sumn (mcols a) (fun k => ment a i k * ment b k j).
Proof. cbn [mmul ment]. rewrite fsum_exact. reflexivity. Qed.

Definition act (n : nat) (D : mat R) (u : nat -> R) (i : nat) : R := sumn n (fun m => ment D i m * u m).
Lemma bm_ext n B B' v v' u u' : (forall i j, (i < n)%nat -> (j < n)%nat -> ment B i j = ment B' i j) -> (forall i, (i < n)%nat -> v i = v' i) -> (forall i, (i < n)%nat -> u i = u' i) ->
  bm n B v u = bm n B' v' u'.
Proof. intros H1 H2 H3. unfold bm. apply sumn_ext. intros i Hi. apply sumn_ext. intros j Hj. now rewrite H1, H2, H3. Qed.
Lemma bm_plus n B C v u : bm n (mkmat n n (fun i j => ment B i j + ment C i j)) v u = bm n B v u + bm n C v u.
Proof. unfold bm. rewrite <- sumn_plus. apply sumn_ext. intros i Hi. rewrite <- sumn_plus. apply sumn_ext. intros. cbn [ment]. ring. Qed.
Lemma bm_scal n c B v u : bm n (mkmat n n (fun i j => c * ment B i j)) v u = c * bm n B v u.
Proof. unfold bm. rewrite <- sumn_scal. apply sumn_ext. intros i Hi. rewrite <- sumn_scal. apply sumn_ext. intros. cbn [ment]. ring. Qed.
Lemma bm_right n B D v u : mcols B = n -> bm n (mmul E B D) v u = bm n B v (act n D u).
Proof.
  intro Hc. unfold bm, act. apply sumn_ext. intros i Hi.
  transitivity (sumn n (fun j => sumn n (fun k => v i * ment B i k * (ment D k j * u j)))).
  - apply sumn_ext. intros j Hj. rewrite mmulE, Hc. rewrite (Rmult_comm (v i)), Rmult_assoc, (Rmult_comm (sumn n _)), <- sumn_scal. apply sumn_ext. intros; ring.
  - rewrite sumn_swap. apply sumn_ext. intros k Hk. rewrite <- sumn_scal. reflexivity.
Qed.
Lemma bm_left n B D v u : mrows D = n -> bm n (mmul E (mtrans D) B) v u = bm n B (act n D v) u.
Proof.
  intro Hc. unfold bm, act.
  transitivity (sumn n (fun i => sumn n (fun k => ment D k i * v i * sumn n (fun j => ment B k j * u j)))).
  - apply sumn_ext. intros i Hi. transitivity (sumn n (fun j => sumn n (fun k => ment D k i * v i * (ment B k j * u j)))).
    + apply sumn_ext. intros j Hj. rewrite mmulE. cbn [mtrans mcols ment]. rewrite Hc. rewrite (Rmult_comm (v i)), Rmult_assoc, (Rmult_comm (sumn n _)), <- sumn_scal. apply sumn_ext. intros; ring.
    + rewrite sumn_swap. apply sumn_ext. intros k Hk. now rewrite sumn_scal.
  - rewrite sumn_swap. apply sumn_ext. intros k Hk.
    rewrite (sumn_ext n (fun j => sumn n (fun m => ment D k m * v m) * ment B k j * u j) (fun j => sumn n (fun m => ment D k m * v m) * (ment B k j * u j))) by (intros; ring).
    rewrite sumn_scal. rewrite (Rmult_comm (sumn n (fun m => _))), <- sumn_scal. apply sumn_ext. intros; ring.
Qed.
Lemma bm_penalty n gtau mmE D v u : mcols mmE = n -> mrows D = n ->
  bm n (mkmat n n (fun i j => penalty E gtau mmE D i j)) v u = gtau * bm n mmE v u - bm n mmE v (act n D u) - bm n mmE (act n D v) u.
Proof.
  intros H1 H2. rewrite <- (bm_right n mmE D v u H1), <- (bm_left n mmE D v u H2). rewrite <- bm_scal.
  unfold Rminus at 1. rewrite <- Rmult_1_l with (r := bm n (mmul E (mtrans D) mmE) v u). rewrite Ropp_mult_distr_l, <- bm_scal.
  unfold Rminus. rewrite <- Rmult_1_l with (r := bm n (mmul E mmE D) v u). rewrite Ropp_mult_distr_l, <- (bm_scal n (-1) (mmul E mmE D)), <- !bm_plus. cbn [ment].
  apply bm_ext; auto. intros i j Hi Hj. unfold penalty. cbn [ment exact fsub fmul]. ring.
Qed.
Lemma bm_volume n MM Dx Dy J v u : mcols MM = n -> mrows Dx = n -> mrows Dy = n -> mcols Dx = n ->
  bm n (volume E MM Dx Dy J) v u = J * (bm n MM (act n Dx v) (act n Dx u) + bm n MM (act n Dy v) (act n Dy u)).
Proof.
  intros H1 H2 H3 H4.
  rewrite <- (bm_left n MM Dx v (act n Dx u) H2), <- (bm_left n MM Dy v (act n Dy u) H3).
  rewrite <- !bm_right by (cbn [mmul mcols]; exact H1). rewrite <- bm_plus, <- bm_scal. cbn [ment].
  apply bm_ext; auto. intros i j Hi Hj. unfold volume. cbn [ment exact fadd fmul]. ring.
Qed.

Definition padd_ (n : nat) (M : mat R) (a b : nat) (x : R) (M' : mat R) : Prop :=
  mrows M' = n /\ mcols M' = n /\ forall v u, bm n M' v u = bm n M v u + v a * x * u b.
Lemma addAt_ok n M a b x : mrows M = n -> mcols M = n -> (a < n)%nat -> (b < n)%nat -> exists M', addAt E a b x M = Ok M' /\ padd_ n M a b x M'.
Proof.
  intros H1 H2 Ha Hb. unfold addAt, mget, mset. rewrite !inb_true by lia. cbn [bind]. eexists. split; [reflexivity|]. split; [exact H1|]. split; [exact H2|].
  intros v u. unfold bm. cbn [ment exact fadd].
  rewrite (sumn_ext n _ (fun i => sumn n (fun j => v i * ment M i j * u j) + (if (i =? a)%nat then v a * x * u b else 0))).
  - rewrite sumn_plus. f_equal. rewrite (sumn_pick n _ a Ha); [now rewrite Nat.eqb_refl|]. intros j _ Hj. destruct (Nat.eqb_spec j a); [contradiction|reflexivity].
  - intros i Hi. destruct (Nat.eqb_spec i a) as [-> |Hn]; cbn [andb].
    + rewrite (sumn_ext n _ (fun j => v a * ment M a j * u j + (if (j =? b)%nat then v a * x * u b else 0))).
      * rewrite sumn_plus. f_equal. rewrite (sumn_pick n _ b Hb); [now rewrite Nat.eqb_refl|]. intros j _ Hj. destruct (Nat.eqb_spec j b); [contradiction|reflexivity].
      * intros j Hj. destruct (Nat.eqb_spec j b) as [-> |]; ring.
    + rewrite Rplus_0_r. reflexivity.
Qed.
Lemma accumulate n a b (body : nat -> nat -> mat R -> outcome (mat R)) (h : nat -> nat -> (nat -> R) -> (nat -> R) -> R) M0 :
  mrows M0 = n -> mcols M0 = n ->
  (forall i j M, (i < a)%nat -> (j < b)%nat -> mrows M = n -> mcols M = n -> exists M', body i j M = Ok M' /\ mrows M' = n /\ mcols M' = n /\ forall v u, bm n M' v u = bm n M v u + h i j v u) ->
  exists M, for_ a (fun i => for_ b (fun j => body i j)) M0 = Ok M /\ mrows M = n /\ mcols M = n /\ forall v u, bm n M v u = bm n M0 v u + sumn a (fun i => sumn b (fun j => h i j v u)).
Proof.
  intros H1 H2 Hb. rewrite for2.
  destruct (foldM_inv (fun done M => mrows M = n /\ mcols M = n /\ forall v u, bm n M v u = bm n M0 v u + sl (map (fun p => h (fst p) (snd p) v u) done)) (fun p => body (fst p) (snd p)) (pairs a b) [] M0) as (M & EM & S1 & S2 & HM).
  - split; [exact H1|]. split; [exact H2|]. intros. cbn [map sl]. ring.
  - intros dn [i j] M (rest & Er) (S1 & S2 & HM). cbn [fst snd app] in *. assert (Hin : In (i, j) (pairs a b)) by (rewrite Er; apply in_elt). apply pairs_in in Hin as (Ia & Ib).
    destruct (Hb i j M Ia Ib S1 S2) as (M' & -> & S1' & S2' & HM'). exists M'. split; [reflexivity|]. split; [exact S1'|]. split; [exact S2'|]. intros v u. rewrite HM', HM, map_app, sl_app. cbn [map sl fst snd]. ring.
  - exists M. split; [exact EM|]. split; [exact S1|]. split; [exact S2|]. intros v u. rewrite HM. cbn [app]. now rewrite (sl_pairs a b (fun i j => h i j v u)).
Qed.

(* the face mass matrix scattered to the nodes of the element *)
Definition lm (n : nat) (M : mat R) (p q : nat -> R) : R := sumn n (fun a => sumn n (fun b => p a * ment M a b * q b)).
Record scattered (Np n : nat) (F : nat -> nat) (M Em : mat R) : Prop := Scattered {
  sc_rows : mrows Em = Np; sc_cols : mcols Em = Np;
  sc_lt : forall a, (a < n)%nat -> (F a < Np)%nat;
  sc_inj : forall a b, (a < n)%nat -> (b < n)%nat -> F a = F b -> a = b;
  sc_at : forall a b, (a < n)%nat -> (b < n)%nat -> ment Em (F a) (F b) = ment M a b;
  sc_out : forall i j, (forall a, (a < n)%nat -> i <> F a) \/ (forall a, (a < n)%nat -> j <> F a) -> ment Em i j = 0 }.
Lemma gather_sum n Np F (g : nat -> R) : (forall a, (a < n)%nat -> (F a < Np)%nat) -> (forall a b, (a < n)%nat -> (b < n)%nat -> F a = F b -> a = b) ->
  (forall i, (i < Np)%nat -> (forall a, (a < n)%nat -> i <> F a) -> g i = 0) -> sumn Np g = sumn n (fun a => g (F a)).
Proof.
  intros Hlt Hinj Hz.
  assert (Hi : forall i, (i < Np)%nat -> g i = sumn n (fun a => if (i =? F a)%nat then g (F a) else 0)).
  { intros i Hi. destruct (in_dec Nat.eq_dec i (map F (seq 0 n))) as [Hin|Hout].
    - apply in_map_iff in Hin as (a & <- & Ha). apply in_seq in Ha. rewrite (sumn_pick n _ a ltac:(lia)); [now rewrite Nat.eqb_refl|].
      intros b Hb Hne. destruct (Nat.eqb_spec (F a) (F b)) as [Ef|]; [exfalso; apply Hne; symmetry; apply Hinj; auto; lia|reflexivity].
    - rewrite Hz; [|exact Hi|intros a Ha Ea; apply Hout; apply in_map_iff; exists a; split; [congruence|apply in_seq; lia]]. symmetry. apply sumn_zero. intros a Ha. destruct (Nat.eqb_spec i (F a)) as [Ef|]; [|reflexivity].
      exfalso. apply Hout. apply in_map_iff. exists a. split; [congruence|apply in_seq; lia]. }
  rewrite (sumn_ext Np g _ Hi), sumn_swap. apply sumn_ext. intros a Ha. rewrite (sumn_pick Np _ (F a)); [now rewrite Nat.eqb_refl|auto|].
  intros i _ Hne. destruct (Nat.eqb_spec i (F a)); [contradiction|reflexivity].
Qed.
Lemma bm_scattered Np n F M Em v u : scattered Np n F M Em -> bm Np Em v u = lm n M (fun a => v (F a)) (fun a => u (F a)).
Proof.
  intros [Hr Hc Hlt Hinj Hat Hout]. unfold bm, lm. rewrite (gather_sum n Np F); auto.
  - apply sumn_ext. intros a Ha. rewrite (gather_sum n Np F); auto.
    + apply sumn_ext. intros b Hb. now rewrite Hat.
    + intros j Hj Hn. rewrite Hout by (right; exact Hn). ring.
  - intros i Hi Hn. apply sumn_zero. intros j Hj. rewrite Hout by (left; exact Hn). ring.
Qed.
Lemma col_scattered Np n F M Em w b : scattered Np n F M Em -> (b < n)%nat -> sumn Np (fun i => w i * ment Em i (F b)) = sumn n (fun a => w (F a) * ment M a b).
Proof.
  intros [Hr Hc Hlt Hinj Hat Hout] Hb. rewrite (gather_sum n Np F); auto.
  - apply sumn_ext. intros a Ha. now rewrite Hat.
  - intros i Hi Hn. rewrite Hout by (left; exact Hn). ring.
Qed.

Lemma coupling_ok Np n gtau lsJ Em M Dn1 Dn2 (F H : nat -> nat) Fm1 Fm2 :
  scattered Np n F M Em -> mrows Dn1 = Np -> mcols Dn1 = Np -> mrows Dn2 = Np -> mcols Dn2 = Np ->
  length Fm1 = n -> length Fm2 = n -> (forall j, (j < n)%nat -> nth_error Fm1 j = Some (F j)) -> (forall j, (j < n)%nat -> nth_error Fm2 j = Some (H j)) ->
  (forall j, (j < n)%nat -> (H j < Np)%nat) ->
  exists B, coupling E Np n gtau (mkmat Np Np (fun i j => lsJ * ment Em i j)) Dn1 Dn2 Fm1 Fm2 = Ok B /\ mrows B = Np /\ mcols B = Np /\
  forall v u, bm Np B v u = / 2 * lsJ * (lm n M (fun a => act Np Dn1 v (F a)) (fun b => u (H b)) - gtau * lm n M (fun a => v (F a)) (fun b => u (H b)) - lm n M (fun a => v (F a)) (fun b => act Np Dn2 u (H b))).
Proof.
  intros HS A1 A2 A3 A4 L1 L2 HF HH HHlt. pose proof HS as [Hr Hc Hlt Hinj Hat Hout]. unfold coupling. set (mmE := mkmat Np Np _).
  assert (Hg1 : forall j, (j < n)%nat -> getn Fm1 j = Ok (F j)) by (intros j Hj; unfold getn; now rewrite HF).
  assert (Hg2 : forall j, (j < n)%nat -> getn Fm2 j = Ok (H j)) by (intros j Hj; unfold getn; now rewrite HH).
  rewrite halfE.
  destruct (accumulate Np Np n (fun i j M0 => bind (getn Fm1 j) (fun a => bind (getn Fm2 j) (fun b => bind (mget mmE i a) (fun v => addAt E i b (fopp E (fmul E (/ 2) (fmul E gtau v))) M0))))
    (fun i j v u => v i * (- (/ 2 * (gtau * (lsJ * ment Em i (F j))))) * u (H j)) (mzero E Np Np) eq_refl eq_refl) as (M1 & E1 & R1 & C1 & B1).
  { intros i j M0 Hi Hj S1 S2. rewrite Hg1, Hg2 by assumption. cbn [bind]. unfold mget. rewrite inb_true by (cbn; auto). cbn [bind mmE ment exact fopp fmul].
    destruct (addAt_ok Np M0 i (H j) (- (/ 2 * (gtau * (lsJ * ment Em i (F j))))) S1 S2 Hi (HHlt j Hj)) as (M' & EM & P1 & P2 & P3). exists M'. auto. }
  rewrite E1. cbn [bind].
  destruct (fill (mzero E n n) n n (fun i _ => i) (fun _ j => j) (fun i j => lsJ * ment M i j) (fun i j X => bind (getn Fm1 i) (fun a => bind (getn Fm1 j) (fun b => bind (mget mmE a b) (fun v => mset X i j v))))) as (X1 & EX1 & RX1 & CX1 & HX1 & _).
  { intros i j Hi Hj. cbn [mzero mrows mcols]. auto. } { intros; auto. }
  { intros i j X Hi Hj _ _. rewrite !Hg1 by assumption. cbn [bind]. unfold mget. rewrite inb_true by (cbn; auto). cbn [bind mmE ment]. now rewrite Hat. }
  rewrite EX1. cbn [bind].
  destruct (fill (mzero E n Np) n Np (fun i _ => i) (fun _ j => j) (fun i j => ment Dn2 (H i) j) (fun i j X => bind (getn Fm2 i) (fun a => bind (mget Dn2 a j) (fun v => mset X i j v)))) as (X2 & EX2 & RX2 & CX2 & HX2 & _).
  { intros i j Hi Hj. cbn [mzero mrows mcols]. auto. } { intros; auto. }
  { intros i j X Hi Hj _ _. rewrite Hg2 by assumption. cbn [bind]. unfold mget. rewrite inb_true by (rewrite ?A3, ?A4; auto). reflexivity. }
  rewrite EX2. cbn [bind].
  destruct (fill (mzero E Np n) n Np (fun _ j => j) (fun i _ => i) (fun i j => lsJ * ment Em j (F i)) (fun i j X => bind (getn Fm1 i) (fun a => bind (mget mmE j a) (fun v => mset X j i v)))) as (X3 & EX3 & RX3 & CX3 & HX3 & _).
  { intros i j Hi Hj. cbn [mzero mrows mcols]. auto. } { intros; auto. }
  { intros i j X Hi Hj _ _. rewrite Hg1 by assumption. cbn [bind]. unfold mget. rewrite inb_true by (cbn; auto). reflexivity. }
  rewrite EX3. cbn [bind]. cbn [mzero mrows mcols] in RX1, CX1, RX2, CX2, RX3, CX3.
  set (prod1 := mmul E X1 X2). set (prod2 := mkmat Np n _).
  assert (Hp1 : forall j i, (j < n)%nat -> (i < Np)%nat -> mget prod1 j i = Ok (sumn n (fun l => lsJ * ment M j l * ment Dn2 (H l) i))).
  { intros j i Hj Hi. unfold mget. rewrite inb_true by (unfold prod1, mmul; cbn [mrows mcols]; lia). f_equal. unfold prod1. rewrite mmulE, CX1. apply sumn_ext. intros l Hl. now rewrite HX1, HX2. }
  assert (Hp2 : forall i j, (i < Np)%nat -> (j < n)%nat -> mget prod2 i j = Ok (sumn Np (fun k => - ment Dn1 k i * (lsJ * ment Em k (F j))))).
  { intros i j Hi Hj. unfold mget. rewrite inb_true by (unfold prod2; cbn [mrows mcols]; lia). f_equal. unfold prod2. cbn [ment]. rewrite fsum_exact. apply sumn_ext. intros k Hk. rewrite (HX3 j k Hj Hk). reflexivity. }
  destruct (accumulate Np Np n (fun i j M0 => bind (getn Fm1 j) (fun a => bind (getn Fm2 j) (fun b => bind (mget prod1 j i) (fun u => bind (mget prod2 i j) (fun w =>
      bind (addAt E a i (fmul E (fopp E (/ 2)) u) M0) (fun M0 => addAt E i b (fmul E (fopp E (/ 2)) w) M0))))))
    (fun i j v u => v (F j) * (- / 2 * sumn n (fun l => lsJ * ment M j l * ment Dn2 (H l) i)) * u i + v i * (- / 2 * sumn Np (fun k => - ment Dn1 k i * (lsJ * ment Em k (F j)))) * u (H j)) M1 R1 C1) as (B & EB & RB & CB & BB).
  { intros i j M0 Hi Hj S1 S2. rewrite Hg1, Hg2, Hp1, Hp2 by assumption. cbn [bind exact fopp fmul].
    destruct (addAt_ok Np M0 (F j) i (- / 2 * sumn n (fun l => lsJ * ment M j l * ment Dn2 (H l) i)) S1 S2 (Hlt j Hj) Hi) as (M' & EM & P1 & P2 & P3). rewrite EM. cbn [bind].
    destruct (addAt_ok Np M' i (H j) (- / 2 * sumn Np (fun k => - ment Dn1 k i * (lsJ * ment Em k (F j)))) P1 P2 Hi (HHlt j Hj)) as (M'' & EM' & Q1 & Q2 & Q3). rewrite EM'. exists M''. split; [reflexivity|].
    split; [exact Q1|]. split; [exact Q2|]. intros v u. rewrite Q3, P3. ring. }
  exists B. split; [exact EB|]. split; [exact RB|]. split; [exact CB|]. intros v u. rewrite BB, B1.
  assert (Z0 : bm Np (mzero E Np Np) v u = 0) by (unfold bm; apply sumn_zero; intros; apply sumn_zero; intros; unfold mzero; cbn [ment]; rewrite zeroE; ring). rewrite Z0.
  assert (T1 : sumn Np (fun i => sumn n (fun j => v i * - (/ 2 * (gtau * (lsJ * ment Em i (F j)))) * u (H j))) = - / 2 * lsJ * (gtau * lm n M (fun a => v (F a)) (fun b => u (H b)))).
  { rewrite sumn_swap. rewrite (sumn_ext n _ (fun j => (- / 2 * lsJ * gtau) * (sumn n (fun a => v (F a) * ment M a j) * u (H j)))).
    - rewrite sumn_scal. rewrite !Rmult_assoc. do 3 f_equal. unfold lm. rewrite (sumn_swap n). apply sumn_ext. intros b Hb. rewrite Rmult_comm, <- sumn_scal. apply sumn_ext; intros; ring.
    - intros j Hj. rewrite <- (col_scattered Np n F M Em v j HS Hj). rewrite (Rmult_comm (sumn Np _)), <- !sumn_scal. apply sumn_ext. intros; ring. }
  assert (T2 : sumn Np (fun i => sumn n (fun j => v (F j) * (- / 2 * sumn n (fun l => lsJ * ment M j l * ment Dn2 (H l) i)) * u i)) = - / 2 * lsJ * lm n M (fun a => v (F a)) (fun b => act Np Dn2 u (H b))).
  { rewrite sumn_swap. unfold lm. rewrite <- sumn_scal. apply sumn_ext. intros j Hj. rewrite <- sumn_scal.
    transitivity (sumn Np (fun i => sumn n (fun l => - / 2 * lsJ * (v (F j) * ment M j l * (ment Dn2 (H l) i * u i))))).
    - apply sumn_ext. intros i Hi. rewrite sumn_mul3. apply sumn_ext. intros; ring.
    - rewrite sumn_swap. apply sumn_ext. intros l Hl. unfold act. rewrite <- !sumn_scal. apply sumn_ext; intros; ring. }
  assert (T3 : sumn Np (fun i => sumn n (fun j => v i * (- / 2 * sumn Np (fun k => - ment Dn1 k i * (lsJ * ment Em k (F j)))) * u (H j))) = / 2 * lsJ * lm n M (fun a => act Np Dn1 v (F a)) (fun b => u (H b))).
  { rewrite (sumn_swap Np n). unfold lm. rewrite (sumn_swap n n). rewrite <- sumn_scal. apply sumn_ext. intros j Hj.
    transitivity (/ 2 * lsJ * (sumn n (fun a => act Np Dn1 v (F a) * ment M a j) * u (H j))).
    - rewrite <- (col_scattered Np n F M Em (act Np Dn1 v) j HS Hj). rewrite (Rmult_comm (sumn Np _)), <- !sumn_scal.
      transitivity (sumn Np (fun i => sumn Np (fun k => / 2 * lsJ * (u (H j) * (ment Dn1 k i * v i * ment Em k (F j)))))).
      + apply sumn_ext. intros i Hi. rewrite sumn_mul3. apply sumn_ext. intros; ring.
      + rewrite sumn_swap. apply sumn_ext. intros k Hk. unfold act. rewrite (Rmult_comm (sumn Np _)), <- !sumn_scal. apply sumn_ext; intros; ring.
    - f_equal. rewrite (Rmult_comm (sumn n _)), <- sumn_scal. apply sumn_ext; intros; ring. }
  rewrite T1. rewrite (sumn_ext Np _ (fun i => sumn n (fun j => v (F j) * (- / 2 * sumn n (fun l => lsJ * ment M j l * ment Dn2 (H l) i)) * u i) + sumn n (fun j => v i * (- / 2 * sumn Np (fun k => - ment Dn1 k i * (lsJ * ment Em k (F j)))) * u (H j)))) by (intros; now rewrite sumn_plus).
  rewrite sumn_plus, T2, T3. ring.
Qed.
End Exact.
