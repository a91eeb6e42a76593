(* TriProofs.v - Vandermonde matrices of the triangle, differentiation, interpolation, filter. *)
From Coq Require Import ZArith List Lia Bool Arith.
From Verif Require Import Base Loops Num BlitzModel JacobiModel JacobiSpec JacobiProofs JacobiOrthProofs JacobiQuadProofs JacobiExactProofs DenseSpec Nodes1DModel Nodes1DSpec Nodes1DExactProofs TriModel TriSpec TriBasisProofs.
From Coq Require Import Reals Lra.
Import ListNotations.
Local Open Scope R_scope.

Lemma zip2_map {T S} (f : T -> T -> T) (g h : S -> T) l : zip2 f (map g l) (map h l) = map (fun x => f (g x) (h x)) l.
Proof. unfold zip2. induction l as [|x l IH]; [reflexivity|]. cbn [map combine fst snd]. f_equal. exact IH. Qed.
Lemma combine_fst {S T} (a : list S) (b : list T) : length a = length b -> map fst (combine a b) = a.
Proof. revert b. induction a; intros [|y b] H; try discriminate; [reflexivity|]. cbn. f_equal. apply IHa. cbn in H; lia. Qed.
Lemma combine_snd {S T} (a : list S) (b : list T) : length a = length b -> map snd (combine a b) = b.
Proof. revert b. induction a; intros [|y b] H; try discriminate; [reflexivity|]. cbn. f_equal. apply IHa. cbn in H; lia. Qed.

(* ---- the loops over the modes ---- *)
Definition prefix (N i : nat) : list (nat * nat) := flat_map (fun i => map (fun j => (i, j)) (seq 0 (S (N - i)))) (seq 0 i).
Lemma pre_S N i : prefix N (S i) = prefix N i ++ map (fun j => (i, j)) (seq 0 (S (N - i))).
Proof. unfold prefix. rewrite seq_S, flat_map_app. cbn [flat_map]. rewrite app_nil_r. reflexivity. Qed.
Lemma modes_pre N : modes N = prefix N (S N). Proof. reflexivity. Qed.
Lemma pre_prefix N i k : (i <= k)%nat -> exists l, prefix N k = prefix N i ++ l.
Proof.
  intro H. replace k with (i + (k - i))%nat by lia. generalize (k - i)%nat. intro d. induction d as [|d IH]; [exists []; now rewrite Nat.add_0_r, app_nil_r|].
  destruct IH as (l & IH). replace (i + S d)%nat with (S (i + d)) by lia. rewrite pre_S, IH. eexists. rewrite <- app_assoc. reflexivity.
Qed.
Lemma nth_modes N i j : (i <= N)%nat -> (j <= N - i)%nat -> nth_error (modes N) (length (prefix N i) + j) = Some (i, j).
Proof.
  intros Hi Hj. rewrite modes_pre. destruct (pre_prefix N (S i) (S N) ltac:(lia)) as (l & ->). rewrite pre_S, <- app_assoc.
  rewrite nth_error_app2 by lia. replace (length (prefix N i) + j - length (prefix N i))%nat with j by lia.
  rewrite nth_error_app1 by (rewrite map_length, seq_length; lia). rewrite nth_error_map. rewrite nth_error_nth' with (d := 0%nat) by (rewrite seq_length; lia).
  rewrite seq_nth by lia. reflexivity.
Qed.
Lemma pre_S_len N i : length (prefix N (S i)) = (length (prefix N i) + S (N - i))%nat.
Proof. rewrite pre_S, app_length, map_length, seq_length. reflexivity. Qed.
Lemma modes_lt N i j : (i <= N)%nat -> (j <= N - i)%nat -> (length (prefix N i) + j < length (modes N))%nat.
Proof. intros. apply nth_error_Some. rewrite nth_modes by assumption. discriminate. Qed.
Lemma modes_in N i j : In (i, j) (modes N) <-> (i + j <= N)%nat.
Proof.
  unfold modes. rewrite in_flat_map. split.
  - intros (x & Hx & H). apply in_map_iff in H. destruct H as (y & E & Hy). inversion E; subst. apply in_seq in Hx. apply in_seq in Hy. lia.
  - intro H. exists i. split; [apply in_seq; lia|]. apply in_map_iff. exists j. split; [reflexivity|]. apply in_seq. lia.
Qed.
Lemma modes_length N : (2 * length (modes N) = (N + 1) * (N + 2))%nat.
Proof.
  assert (H : forall i, (i <= S N)%nat -> (2 * length (prefix N i) = i * (2 * N + 3 - i))%nat).
  { induction i as [|i IH]; intro Hi; [reflexivity|]. rewrite pre_S_len. specialize (IH ltac:(lia)).
    replace (2 * (length (prefix N i) + S (N - i)))%nat with (2 * length (prefix N i) + 2 * S (N - i))%nat by lia. rewrite IH.
    destruct (Nat.le_exists_sub i N ltac:(lia)) as (d & -> & _). replace (d + i - i)%nat with d by lia. nia. }
  rewrite modes_pre, H by lia. nia.
Qed.
Lemma for_modes_ok {St} (Inv : nat -> St -> Prop) N body st : Inv 0%nat st ->
  (forall c i j st, nth_error (modes N) c = Some (i, j) -> Inv c st -> exists st', body i j c st = Ok st' /\ Inv (S c) st') ->
  exists st', for_modes N body st = Ok (st', length (modes N)) /\ Inv (length (modes N)) st'.
Proof.
  intros H0 Hs. unfold for_modes.
  destruct (for_inv (fun i (sc : St * nat) => snd sc = length (prefix N i) /\ Inv (snd sc) (fst sc)) (S N)
     (fun i => for_ (S (N - i)) (fun j '(st, count) => bind (body i j count st) (fun st' => Ok (st', S count)))) (st, 0%nat)) as ([st' c] & E & Hc & HI).
  - split; [reflexivity|exact H0].
  - intros i [s c] Hi (Hc & HI). cbn [fst snd] in *.
    destruct (for_inv (fun j (sc : St * nat) => snd sc = (length (prefix N i) + j)%nat /\ Inv (snd sc) (fst sc)) (S (N - i))
       (fun j '(st, count) => bind (body i j count st) (fun st' => Ok (st', S count))) (s, c)) as ([s' c'] & E & Hc' & HI').
    + cbn [fst snd]. split; [lia|exact HI].
    + intros j [s1 c1] Hj (Hc1 & HI1). cbn [fst snd] in *. subst c1.
      destruct (Hs _ i j s1 (nth_modes N i j ltac:(lia) ltac:(lia)) HI1) as (s2 & E & HI2). rewrite E. cbn [bind]. eexists. split; [reflexivity|]. cbn [fst snd]. split; [lia|exact HI2].
    + exists (s', c'). split; [exact E|]. cbn [fst snd] in *. rewrite pre_S_len. split; [exact Hc'|exact HI'].
  - cbn [fst snd] in *. exists st'. rewrite E. subst c. split; [reflexivity|exact HI].
Qed.

Section TriExact.
Variable G : R -> R.
Hypothesis HG : gamma_like G.
Local Notation E := (exact G).
Local Notation P := (jac G 0 0).
Local Notation al i := (2 * INR i + 1).
Local Notation Q i := (jac G (al i) 0).
Local Notation sb := (sb G).

Lemma rsToab_E r s : length r = length s -> rsToab E r s = (map (fun p => ra (fst p) (snd p)) (combine r s), map snd (combine r s)).
Proof.
  intro H. unfold rsToab. rewrite (combine_snd r s H). f_equal. unfold zip2. apply map_ext. intro. apply rsToab1_E.
Qed.
Lemma simplex_list r s i j : length r = length s -> (forall p, In p (combine r s) -> in_domain (fst p) (snd p)) ->
  evaluateSimplexPolynomial E pow (fst (rsToab E r s)) (snd (rsToab E r s)) i j = map (fun p => sb i j (fst p) (snd p)) (combine r s).
Proof.
  intros H Hd. rewrite rsToab_E by exact H. cbn [fst snd]. unfold evaluateSimplexPolynomial. change (fofn E 0) with 0.
  destruct (al_ok i) as (A1 & A2 & A3). rewrite !compute_ok by (auto; rewrite ?al_E; lra). rewrite al_E. rewrite !map_map, !zip2_map. apply map_ext_in. intros p Hp.
  rewrite <- (sb_value G i j (fst p) (snd p) (Hd p Hp)). rewrite !fofn_INR. cbn [exact fmul fsub fsqrt]. simpl (INR 2). simpl (INR 1). replace (1 + 1) with 2 by ring. reflexivity.
Qed.
Lemma grad_list r s i j : length r = length s ->
  evaluateGradSimplex E pow (fst (rsToab E r s)) (snd (rsToab E r s)) i j =
  (map (fun p => gr G i j (ra (fst p) (snd p)) (snd p)) (combine r s), map (fun p => gs G i j (ra (fst p) (snd p)) (snd p)) (combine r s)).
Proof.
  intro H. rewrite rsToab_E by exact H. cbn [fst snd]. unfold evaluateGradSimplex. change (fofn E 0) with 0.
  destruct (al_ok i) as (A1 & A2 & A3). rewrite !compute_ok by (auto; rewrite ?al_E; lra). rewrite !grad_ok by (auto; rewrite ?al_E; lra). rewrite !al_E.
  rewrite !half_E. replace (fofn E 1) with 1 by (rewrite fofn_INR; reflexivity). rewrite !map_map.
  destruct i as [|[|i]]; cbn [Nat.ltb Nat.leb]; rewrite !zip2_map, !map_map; f_equal; apply map_ext; intro p; unfold gr, gs; cbn [Nat.ltb Nat.leb];
    rewrite !fofn_INR; cbn [exact fmul fsub fadd fpow]; replace (INR 2) with 2 by (simpl; ring); ring.
Qed.

(* ---- Vandermonde matrices ---- *)
Definition mode (N c : nat) : nat * nat := nth c (modes N) (0%nat, 0%nat).
Definition bas (N c : nat) (r s : R) : R := sb (fst (mode N c)) (snd (mode N c)) r s.
Definition pts_ok (r s : list R) : Prop := length r = length s /\ forall p, In p (combine r s) -> in_domain (fst p) (snd p).
Lemma nth_map_combine (r s : list R) (f : R * R -> R) i : length r = length s -> (i < length r)%nat ->
  nth i (map f (combine r s)) 0 = f (nth i r 0, nth i s 0).
Proof.
  intros H Hi. rewrite nth_indep with (d' := f (0, 0)) by (rewrite map_length, combine_length; lia). rewrite map_nth. f_equal. now apply combine_nth.
Qed.
Lemma pts_dom r s i : pts_ok r s -> (i < length r)%nat -> in_domain (nth i r 0) (nth i s 0).
Proof.
  intros (L & H) Hi. apply (H (nth i r 0, nth i s 0)).
  rewrite <- combine_nth by exact L. apply nth_In. rewrite combine_length. lia.
Qed.
Lemma mode_le N c : (c < length (modes N))%nat -> (fst (mode N c) + snd (mode N c) <= N)%nat.
Proof. intro H. apply modes_in. rewrite <- surjective_pairing. now apply nth_In. Qed.
Lemma mode_error N c i j : nth_error (modes N) c = Some (i, j) -> mode N c = (i, j) /\ (c < length (modes N))%nat.
Proof. intro H. split; [|apply nth_error_Some; congruence]. unfold mode. now apply nth_error_nth. Qed.

Lemma vander2D_ok N r s V : pts_ok r s -> mrows V = length r -> (length (modes N) <= mcols V)%nat ->
  exists V', computeVandermonde2D E pow N r s V = Ok V' /\ shape V' (mrows V) (mcols V) /\
    (forall i c, (i < length r)%nat -> (c < length (modes N))%nat -> ment V' i c = bas N c (nth i r 0) (nth i s 0)) /\
    (forall i c, (length (modes N) <= c)%nat -> ment V' i c = ment V i c).
Proof.
  intros (L & Hd) HV HC. unfold computeVandermonde2D. replace (length r =? length s)%nat with true by (rewrite L, Nat.eqb_refl; reflexivity). cbn [negb]. rewrite (surjective_pairing (rsToab E r s)).
  destruct (for_modes_ok (fun c (W : mat R) => shape W (mrows V) (mcols V) /\
     (forall i c', (i < length r)%nat -> (c' < c)%nat -> ment W i c' = bas N c' (nth i r 0) (nth i s 0)) /\
     (forall i c', (c <= c')%nat -> ment W i c' = ment V i c')) N
     (fun i j count V => setcol2 E V count (evaluateSimplexPolynomial E pow (fst (rsToab E r s)) (snd (rsToab E r s)) i j)) V) as (W & EW & SW & HW & HW').
  - split; [split; reflexivity|]. split; [intros; lia|reflexivity].
  - intros c i j W Hc ((Wr & Wc) & HW & HW'). destruct (mode_error _ _ _ _ Hc) as (Em & Lc). rewrite simplex_list by assumption. unfold setcol2.
    assert (Eb : ((c <? mcols W)%nat && (length (map (fun p => sb i j (fst p) (snd p)) (combine r s)) =? mrows W)%nat)%bool = true).
    { rewrite map_length, combine_length, Wr, Wc, HV. apply andb_true_iff. split; [apply Nat.ltb_lt; lia|apply Nat.eqb_eq; lia]. }
    rewrite Eb. eexists. split; [reflexivity|]. cbn [mrows mcols ment]. split; [split; assumption|]. split.
    + intros a c' Ha Hc'. destruct (Nat.eqb_spec c' c) as [->|Hn]; [|apply HW; [exact Ha|lia]].
      rewrite nth_map_combine by assumption. unfold bas. rewrite Em. reflexivity.
    + intros a c' Hc'. destruct (Nat.eqb_spec c' c); [lia|]. apply HW'. lia.
  - rewrite EW. cbn [bind fst]. exists W. split; [reflexivity|]. split; [exact SW|]. split; [exact HW|exact HW'].
Qed.
Definition dbr (N c : nat) (r s : R) : R := gr G (fst (mode N c)) (snd (mode N c)) (ra r s) s.
Definition dbs (N c : nat) (r s : R) : R := gs G (fst (mode N c)) (snd (mode N c)) (ra r s) s.
Lemma gvander2D_ok N r s Vr Vs : pts_ok r s -> mrows Vr = length r -> mrows Vs = length r ->
  (length (modes N) <= mcols Vr)%nat -> (length (modes N) <= mcols Vs)%nat ->
  exists Vr' Vs', computeGradVandermonde2D E pow N r s Vr Vs = Ok (Vr', Vs') /\ shape Vr' (mrows Vr) (mcols Vr) /\ shape Vs' (mrows Vs) (mcols Vs) /\
    (forall i c, (i < length r)%nat -> (c < length (modes N))%nat -> ment Vr' i c = dbr N c (nth i r 0) (nth i s 0) /\ ment Vs' i c = dbs N c (nth i r 0) (nth i s 0)).
Proof.
  intros (L & Hd) HV HV' HC HC'. unfold computeGradVandermonde2D. replace (length r =? length s)%nat with true by (rewrite L, Nat.eqb_refl; reflexivity). cbn [negb]. rewrite (surjective_pairing (rsToab E r s)).
  destruct (for_modes_ok (fun c (W : mat R * mat R) => shape (fst W) (mrows Vr) (mcols Vr) /\ shape (snd W) (mrows Vs) (mcols Vs) /\
     (forall i c', (i < length r)%nat -> (c' < c)%nat -> ment (fst W) i c' = dbr N c' (nth i r 0) (nth i s 0) /\ ment (snd W) i c' = dbs N c' (nth i r 0) (nth i s 0))) N
     (fun i j count '(Vr, Vs) =>
     let (dr, ds) := evaluateGradSimplex E pow (fst (rsToab E r s)) (snd (rsToab E r s)) i j in
     bind (setcol2 E Vr count dr) (fun Vr' => bind (setcol2 E Vs count ds) (fun Vs' => Ok (Vr', Vs')))) (Vr, Vs)) as ([W1 W2] & EW & SW & SW' & HW).
  - split; [split; reflexivity|]. split; [split; reflexivity|]. intros; lia.
  - intros c i j [W1 W2] Hc ((Wr & Wc) & (Wr' & Wc') & HW). cbn [fst snd] in *. destruct (mode_error _ _ _ _ Hc) as (Em & Lc). rewrite grad_list by assumption. unfold setcol2.
    match goal with |- context [if ?b then _ else _] => assert (Eb : b = true) end.
    { rewrite map_length, combine_length, Wr, Wc, HV. apply andb_true_iff. split; [apply Nat.ltb_lt; lia|apply Nat.eqb_eq; lia]. }
    rewrite Eb. cbn [bind]. clear Eb.
    match goal with |- context [if ?b then _ else _] => assert (Eb : b = true) end.
    { rewrite map_length, combine_length, Wr', Wc', HV'. apply andb_true_iff. split; [apply Nat.ltb_lt; lia|apply Nat.eqb_eq; lia]. }
    rewrite Eb. cbn [bind]. eexists. split; [reflexivity|]. cbn [fst snd mrows mcols ment]. split; [split; assumption|]. split; [split; assumption|].
    intros a c' Ha Hc'. destruct (Nat.eqb_spec c' c) as [->|Hn]; [|apply HW; [exact Ha|lia]].
    rewrite !nth_map_combine by assumption. unfold dbr, dbs. rewrite Em. split; reflexivity.
  - rewrite EW. cbn [bind fst snd] in *. exists W1, W2. split; [reflexivity|]. split; [exact SW|]. split; [exact SW'|exact HW].
Qed.

(* ---- every polynomial of degree at most N is a combination of the basis ---- *)
Fixpoint lin2 (l : list (nat * nat * R)) (r s : R) : R := match l with [] => 0 | (i, j, c) :: l' => c * sb i j r s + lin2 l' r s end.
Lemma lin2_app l m r s : lin2 (l ++ m) r s = lin2 l r s + lin2 m r s.
Proof. induction l as [|[[i j] c] l IH]; cbn [app lin2]; [ring|]. rewrite IH. ring. Qed.
Definition span (N : nat) (f : R -> R -> R) : Prop := exists l, degree2 N l /\ forall r s, f r s = lin2 l r s.
Lemma span_ext N f g : (forall r s, f r s = g r s) -> span N f -> span N g.
Proof. intros H (l & D & El). exists l. split; [exact D|]. intros. now rewrite <- H. Qed.
Lemma span_le N M f : (N <= M)%nat -> span N f -> span M f.
Proof. intros H (l & D & El). exists l. split; [|exact El]. eapply degree2_le; eauto. Qed.
Lemma span_plus N f g : span N f -> span N g -> span N (fun r s => f r s + g r s).
Proof. intros (l & D & El) (m & D' & E'). exists (l ++ m). split; [apply Forall_app; auto|]. intros. rewrite lin2_app, El, E'. reflexivity. Qed.
Lemma span_scal N c f : span N f -> span N (fun r s => c * f r s).
Proof.
  intros (l & D & El). exists (map (fun t => (fst t, c * snd t)) l). split.
  - apply Forall_map. eapply Forall_impl; [|exact D]. cbn [fst snd]. auto.
  - intros r s. rewrite El. clear. induction l as [|[[i j] d] l IH]; cbn [lin2 map fst snd]; [ring|]. rewrite <- IH. ring.
Qed.
Lemma span_zero N : span N (fun _ _ => 0).
Proof. exists []. split; [constructor|reflexivity]. Qed.

Definition spoly (m : nat) (f : R -> R) : Prop := exists cs, (length cs <= S m)%nat /\ forall x, f x = peval cs x.
Lemma spoly_mul1 m f a b : spoly m f -> spoly (S m) (fun x => (a + b * x) * f x).
Proof.
  intros (cs & L & H). exists (padd (pscal a cs) (pscal b (0 :: cs))). split.
  - assert (forall p q : list R, length (padd p q) = max (length p) (length q)) as LP by (induction p as [|x p IH]; intros [|y q]; cbn; try reflexivity; rewrite IH; reflexivity).
    rewrite LP, !pscal_len. cbn [length]. lia.
  - intro x. rewrite padd_eval, !pscal_eval, H. cbn [peval]. ring.
Qed.
Lemma spoly_mono m n f : (m <= n)%nat -> spoly m f -> spoly n f.
Proof. intros H (cs & L & Ef). exists cs. split; [lia|exact Ef]. Qed.
Lemma spoly_upow m f n : spoly m f -> spoly (n + m) (fun x => cu x ^ n * f x).
Proof.
  intro H. induction n as [|n IH]; [destruct H as (cs & L & H); exists cs; split; [exact L|]; intro; rewrite <- H; cbn; ring|].
  cbn [Nat.add]. destruct (spoly_mul1 (n + m) _ 1 (-1) IH) as (cs & L & H'). exists cs. split; [exact L|]. intro x. rewrite <- H'. unfold cu. cbn [pow]. ring.
Qed.

Lemma span_H i m f : spoly m f -> span (i + m) (fun r s => Hf G i (cv r s) (cu s) * f s).
Proof.
  intros (cs & L & Ef). destruct (al_ok i) as (A1 & A2 & A3).
  assert (M : forall k, span (i + k) (fun r s => Hf G i (cv r s) (cu s) * s ^ k)).
  { intro k. destruct (pow_span G (al i) 0 HG A1 A2 A3 k) as (l & Bl & El).
    exists (map (fun t => (i, fst t, snd t / sqrt 2)) l). split.
    - apply Forall_map. eapply Forall_impl; [|exact Bl]. cbn [fst snd]. intros; lia.
    - intros r s. rewrite <- El. clear. induction l as [|[k c] l IH]; cbn [map lin lin2 fst snd]; [ring|]. rewrite <- IH. unfold TriBasisProofs.sb. field.
      apply Rgt_not_eq, sqrt_lt_R0; lra. }
  assert (M2 : forall cs k, (length cs <= S m - k)%nat -> (k <= m)%nat -> span (i + m) (fun r s => Hf G i (cv r s) (cu s) * (s ^ k * peval cs s))).
  { clear cs L Ef. induction cs as [|c cs IH]; intros k L Hk.
    - eapply span_ext; [|apply span_zero]. intros. cbn [peval]. ring.
    - destruct (Nat.eq_dec k m) as [->|Hne].
      + destruct cs; [|cbn [length] in L; lia]. eapply span_ext; [|apply (span_scal _ c); apply (M m)]. intros. cbn [peval]. ring.
      + eapply span_ext; [|apply span_plus; [apply (span_scal _ c); apply (span_le (i + k) (i + m)); [lia|]; apply (M k)|apply (IH (S k)); [cbn [length] in L; lia|lia]]].
        intros r s. cbn [peval pow]. ring. }
  eapply span_ext; [|apply (M2 cs 0%nat); lia]. intros r s. rewrite Ef. cbn [pow]. ring.
Qed.
Lemma nrm_nz i : nrm G 0 0 i <> 0.
Proof. apply Rgt_not_eq, nrm_pos; auto; lra. Qed.
Lemma span_v k : forall m f, spoly m f -> span (k + m) (fun r s => cv r s ^ k * f s).
Proof.
  induction k as [k IH] using lt_wf_ind. intros m f Hf'. destruct (Hf_hom G HG k) as (cs & L & T & _ & _ & HH).
  (* all but the leading term *)
  assert (Hp : forall ds a n, (a + length ds <= k)%nat -> (a + n <= k)%nat -> (length ds <= S n)%nat -> span (k + m) (fun r s => cv r s ^ a * hom ds n (cv r s) (cu s) * f s)).
  { induction ds as [|d ds IHd]; intros a n H1 H2 H3; cbn [hom].
    - eapply span_ext; [|apply span_zero]. intros; cbv beta; ring.
    - cbn [length] in *. pose proof (span_scal _ d _ (span_le (a + (n + m)) (k + m) _ ltac:(lia) (IH a ltac:(lia) (n + m)%nat _ (spoly_upow m f n Hf')))) as H0. destruct n as [|n].
      + destruct ds; [|cbn [length] in *; lia]. eapply span_ext; [|exact H0]. intros; cbn; ring.
      + eapply span_ext; [|apply span_plus; [exact H0|apply (IHd (S a) n); lia]]. intros r s. cbv beta. cbn [pred pow]. ring. }
  assert (Hl : forall (c : R) ds n v u, hom (ds ++ [c]) n v u = hom ds n v u + c * v ^ length ds * u ^ (n - length ds)).
  { intros c ds. induction ds as [|d ds IHd]; intros n v u; cbn [app hom length]; [rewrite Nat.sub_0_r; cbn [pow]; ring|]. rewrite IHd. cbn [pow].
    replace (pred n - length ds)%nat with (n - S (length ds))%nat by lia. ring. }
  destruct (exists_last (l := cs)) as (ds & c & Ec); [intro; subst; discriminate|]. subst cs. rewrite app_length in L. cbn [length] in L. assert (Ld : length ds = k) by lia.
  rewrite app_nth2 in T by lia. replace (k - length ds)%nat with 0%nat in T by lia. cbn [nth] in T.
  eapply span_ext; [|apply (span_scal _ (nrm G 0 0 k)); apply span_plus; [apply (span_H k m f Hf')|apply (span_scal _ (-1)); apply (Hp ds 0%nat k); lia]].
  intros r s. cbv beta. rewrite HH, Hl, Ld, T, Nat.sub_diag. cbn [pow]. field. apply nrm_nz.
Qed.
Lemma span_rv a : forall k m f, spoly m f -> span (a + k + m) (fun r s => r ^ a * (cv r s ^ k * f s)).
Proof.
  induction a as [|a IH]; intros k m f Hf'.
  - eapply span_ext; [|apply (span_v k m f Hf')]. intros; cbn [pow]; ring.
  - eapply span_ext; [|apply span_plus; [apply (span_scal _ (/ 2)); apply (span_le (a + S k + m) (S a + k + m)); [lia|]; apply (IH (S k) m f Hf')|
       apply (span_le (a + k + S m) (S a + k + m)); [lia|]; apply (IH k (S m) _ (spoly_mul1 m f (- / 2) (- / 2) Hf'))]].
    intros r s. cbv beta. cbn [pow]. unfold cv. field.
Qed.
Lemma span_all p N : degree2 N p -> span N (eval2 p).
Proof.
  induction p as [|[[i j] c] p IH]; intro D; [apply span_zero|]. inversion D as [|? ? Hd Dp]; subst. cbn [fst snd] in Hd. cbn [eval2].
  apply span_plus; [|exact (IH Dp)].
  assert (Hs : spoly j (fun s => s ^ j)).
  { clear. induction j as [|j IH]; [exists [1]; split; [cbn; lia|]; intro; cbn; ring|]. destruct (spoly_mul1 j _ 0 1 IH) as (cs & L & H). exists cs. split; [exact L|]. intro x. rewrite <- H. cbn [pow]. ring. }
  eapply span_ext; [|apply (span_scal _ c); apply (span_le (i + 0 + j) N); [lia|]; apply (span_rv i 0 j _ Hs)]. intros r s. cbv beta. cbn [pow]. ring.
Qed.

(* a matrix row that is right on the basis is right on all polynomials *)
Definition modal (N : nat) (p : poly2) (c : nat -> R) : Prop := forall r s, eval2 p r s = sumn (length (modes N)) (fun k => c k * bas N k r s).
Lemma modal_ex N p : degree2 N p -> exists c, modal N p c.
Proof.
  intro D. destruct (span_all p N D) as (l & Dl & El). unfold modal.
  assert (H : exists c, forall r s, lin2 l r s = sumn (length (modes N)) (fun k => c k * bas N k r s)).
  { clear El. induction l as [|[[i j] d] l IH].
    - exists (fun _ => 0). intros. cbn [lin2]. symmetry. apply sumn_zero. intros; ring.
    - inversion Dl as [|? ? Hd Dl']; subst. cbn [fst snd] in Hd. destruct (IH Dl') as (c & Hc).
      pose proof (nth_modes N i j ltac:(lia) ltac:(lia)) as Hn. set (q := (length (prefix N i) + j)%nat) in *. destruct (mode_error _ _ _ _ Hn) as (Em & Lq).
      exists (fun k => c k + if (k =? q)%nat then d else 0). intros r s. cbn [lin2]. rewrite Hc.
      rewrite (sumn_ext _ (fun k => (c k + (if (k =? q)%nat then d else 0)) * bas N k r s) (fun k => c k * bas N k r s + (if (k =? q)%nat then d * bas N k r s else 0)))
        by (intros; destruct (_ =? q)%nat; ring).
      rewrite sumn_plus, (sumn_if _ q (fun k => d * bas N k r s)) by exact Lq. replace (bas N q r s) with (sb i j r s) by (unfold bas; rewrite Em; reflexivity). ring. }
  destruct H as (c & Hc). exists c. intros. rewrite El. apply Hc.
Qed.
Lemma modal_dr N p c r s : modal N p c -> in_domain r s -> dr_is (eval2 p) r s (sumn (length (modes N)) (fun k => c k * dbr N k r s)).
Proof.
  intros H Hd. unfold dr_is. eapply dpl_ext; [intro t; symmetry; apply H|]. generalize (length (modes N)). induction n as [|n IH].
  - eapply dpl_ext; [|apply (derivable_pt_lim_const 0)]. reflexivity.
  - rewrite sumn_S. eapply dpl_ext; [intro t; symmetry; apply sumn_S|]. apply (derivable_pt_lim_plus (fun t => sumn n (fun k => c k * bas N k t s))); [exact IH|].
    apply (derivable_pt_lim_scal (fun t => bas N n t s)). exact (sb_dr G HG _ _ r s Hd).
Qed.
Lemma modal_ds N p c r s : modal N p c -> in_domain r s -> ds_is (eval2 p) r s (sumn (length (modes N)) (fun k => c k * dbs N k r s)).
Proof.
  intros H Hd. unfold ds_is. eapply dpl_ext; [intro t; symmetry; apply H|]. generalize (length (modes N)). induction n as [|n IH].
  - eapply dpl_ext; [|apply (derivable_pt_lim_const 0)]. reflexivity.
  - rewrite sumn_S. eapply dpl_ext; [intro t; symmetry; apply sumn_S|]. apply (derivable_pt_lim_plus (fun t => sumn n (fun k => c k * bas N k r t))); [exact IH|].
    apply (derivable_pt_lim_scal (fun t => bas N n r t)). exact (sb_ds G HG _ _ r s Hd).
Qed.
Lemma row_modal N p c (d : nat -> R) n (x y : nat -> R) : modal N p c ->
  sumn n (fun m => d m * eval2 p (x m) (y m)) = sumn (length (modes N)) (fun k => c k * sumn n (fun m => d m * bas N k (x m) (y m))).
Proof.
  intro H. rewrite (sumn_ext n _ (fun m => sumn (length (modes N)) (fun k => c k * (d m * bas N k (x m) (y m))))).
  - rewrite sumn_swap. apply sumn_ext. intros. rewrite <- sumn_scal. reflexivity.
  - intros m _. rewrite H, <- sumn_scal. apply sumn_ext. intros; ring.
Qed.
Lemma maps_dr N M r s : pts_ok r s ->
  (forall i c, (i < length r)%nat -> (c < length (modes N))%nat -> sumn (length r) (fun m => ment M i m * bas N c (nth m r 0) (nth m s 0)) = dbr N c (nth i r 0) (nth i s 0)) ->
  maps_nodal N M r s r s (fun p => dr_is (eval2 p)).
Proof.
  intros Hp H p i D Hi. destruct (modal_ex N p D) as (c & Hc). rewrite (row_modal N p c _ _ (fun m => nth m r 0) (fun m => nth m s 0) Hc).
  rewrite (sumn_ext _ _ (fun k => c k * dbr N k (nth i r 0) (nth i s 0))) by (intros k Hk; rewrite H by assumption; reflexivity).
  apply modal_dr; [exact Hc|]. now apply pts_dom.
Qed.
Lemma maps_ds N M r s : pts_ok r s ->
  (forall i c, (i < length r)%nat -> (c < length (modes N))%nat -> sumn (length r) (fun m => ment M i m * bas N c (nth m r 0) (nth m s 0)) = dbs N c (nth i r 0) (nth i s 0)) ->
  maps_nodal N M r s r s (fun p => ds_is (eval2 p)).
Proof.
  intros Hp H p i D Hi. destruct (modal_ex N p D) as (c & Hc). rewrite (row_modal N p c _ _ (fun m => nth m r 0) (fun m => nth m s 0) Hc).
  rewrite (sumn_ext _ _ (fun k => c k * dbs N k (nth i r 0) (nth i s 0))) by (intros k Hk; rewrite H by assumption; reflexivity).
  apply modal_ds; [exact Hc|]. now apply pts_dom.
Qed.
Lemma maps_val N M r s r' s' :
  (forall i c, (i < length r')%nat -> (c < length (modes N))%nat -> sumn (length r) (fun m => ment M i m * bas N c (nth m r 0) (nth m s 0)) = bas N c (nth i r' 0) (nth i s' 0)) ->
  maps_nodal N M r s r' s' (fun p x y v => v = eval2 p x y).
Proof.
  intros H p i D Hi. destruct (modal_ex N p D) as (c & Hc). rewrite (row_modal N p c _ _ (fun m => nth m r 0) (fun m => nth m s 0) Hc), Hc.
  apply sumn_ext. intros k Hk. rewrite H by assumption. reflexivity.
Qed.
End TriExact.
