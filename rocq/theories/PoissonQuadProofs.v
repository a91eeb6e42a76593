(* PoissonQuadProofs.v - the edge mass matrices of the Poisson operator on quadrilaterals, in any arithmetic. *)
From Coq Require Import ZArith List Lia Bool Arith.
From Verif Require Import Base Loops Num BlitzModel BlitzProofs JacobiModel Nodes1DModel TriModel QuadModel Line1DModel SwModel PoissonModel PoissonRhsModel PoissonQuadSpec QuadMapsProofs.
From Verif Require QuadNodesProofs TriNodesProofs.
Import ListNotations.
Local Open Scope nat_scope.

Lemma map_rep {X Y} (f : X -> Y) v n : map f (repeat v n) = repeat (f v) n.
Proof. induction n; cbn; congruence. Qed.
Lemma combine_rep {X Y} (a : X) (b : Y) n : combine (repeat a n) (repeat b n) = repeat (a, b) n.
Proof. induction n; cbn; congruence. Qed.
Lemma nth_rep {X} (a d : X) n i : i < n -> nth i (repeat a n) d = a.
Proof. revert i. induction n as [|n IH]; intros [|i] H; cbn; [lia|lia|reflexivity|apply IH; lia]. Qed.

Section Generic.
Context {T : Type} (A : arith T).
Variable inverse : mat T -> mat T -> outcome (mat T).
Variable junk : nat -> nat -> T.

Lemma jacobi_loop_rep v n a b k : forall i aold p c, exists aold' p' c', jacobi_loop A (repeat v n) a b i k (aold, repeat p n, repeat c n) = (aold', repeat p' n, repeat c' n).
Proof.
  induction k as [|k IH]; intros i aold p c; cbn [jacobi_loop]; [exists aold, p, c; reflexivity|].
  unfold jacobi_step. rewrite !combine_rep, map_rep. apply IH.
Qed.
Lemma jacobi_rep v n a b k : exists w, computeJacobiPolynomial A (repeat v n) a b k = repeat w n.
Proof.
  unfold computeJacobiPolynomial. destruct k as [|k]; rewrite ?map_rep; [eexists; reflexivity|].
  match goal with |- context [jacobi_loop A _ a b 1 k (?ao, repeat ?p n, repeat ?c n)] => destruct (jacobi_loop_rep v n a b k 1 ao p c) as (x & y & z & ->) end.
  cbn [snd]. eexists; reflexivity.
Qed.
Lemma vandermonde_rep v n i i' j : i < n -> i' < n -> ment (vandermonde1D A (repeat v n) n) i j = ment (vandermonde1D A (repeat v n) n) i' j.
Proof. intros Hi Hi'. unfold vandermonde1D, mat_cols. cbn [ment]. destruct (jacobi_rep v n (fofn A 0) (fofn A 0) j) as (w & ->). now rewrite !nth_rep. Qed.

Variables (N Np : nat).
Local Notation n := (S N).
Hypothesis HR : returns_square n inverse.
Hypothesis HE : rejects_equal_rows n inverse.
Variables (r s : list T) (Fm : mat nat).
Hypothesis FR : mrows Fm = n.
Hypothesis FC : mcols Fm = 4.
Hypothesis FB : forall i f, i < n -> f < 4 -> ment Fm i f < Np.
Hypothesis Lr : length r = Np.

Lemma coord_ok (x : list T) f : f < 4 -> length x = Np -> exists e, faceCoord n f x Fm = Ok e /\ length e = n /\ forall i d, i < n -> nth i e d = nth (ment Fm i f) x d.
Proof.
  intros Hf Lx. unfold faceCoord.
  destruct (for_inv (fun i l => length l = i /\ forall k d, k < i -> nth k l d = nth (ment Fm k f) x d) n (fun i l => bind (mget Fm i f) (fun m => bind (getn x m) (fun v => Ok (l ++ [v])))) []) as (e & E & L & H).
  - split; [reflexivity|]. intros; lia.
  - intros i l Hi (L & H). rewrite mget_ok by lia. cbn [bind]. pose proof (FB i f Hi Hf) as Hb. destruct (nth_error x (ment Fm i f)) as [v|] eqn:En; [|apply nth_error_None in En; lia].
    rewrite (getn_ok _ _ _ En). cbn [bind]. eexists. split; [reflexivity|]. rewrite app_length, L. split; [cbn; lia|]. intros k d Hk. destruct (Nat.eq_dec k i) as [->|Hne].
    + rewrite app_nth2 by lia. rewrite L, Nat.sub_diag. cbn [nth]. symmetry. apply nth_error_nth. exact En.
    + rewrite app_nth1 by lia. apply H. lia.
  - exists e. auto.
Qed.
Lemma putMass_ok f (M E0 : mat T) : f < 4 -> mrows M = n -> mcols M = n -> mrows E0 = Np -> mcols E0 = Np ->
  exists E1, putMass n f Fm M E0 = Ok E1.
Proof.
  intros Hf M1 M2 R1 R2. unfold putMass.
  destruct (for_inv (fun _ (X : mat T) => mrows X = Np /\ mcols X = Np) n (fun i => for_ n (fun j E => bind (mget Fm i f) (fun a => bind (mget Fm j f) (fun b => bind (mget M i j) (fun v => mset E a b v))))) E0) as (E1 & -> & _); [auto| |eexists; reflexivity].
  intros i X Hi HX. destruct (for_inv (fun _ (X : mat T) => mrows X = Np /\ mcols X = Np) n (fun j E => bind (mget Fm i f) (fun a => bind (mget Fm j f) (fun b => bind (mget M i j) (fun v => mset E a b v)))) X) as (E1 & -> & H1); [exact HX| |exists E1; auto].
  intros j Y Hj (Y1 & Y2). rewrite !mget_ok by lia. cbn [bind]. pose proof (FB i f Hi Hf). pose proof (FB j f Hj Hf). unfold mset. rewrite inb_true by lia. eexists. split; [reflexivity|]. auto.
Qed.
Lemma faceMass_two f (x : list T) : f < 4 -> length x = Np -> faceMass A inverse junk Np n f x Fm = Throw \/ exists E, faceMass A inverse junk Np n f x Fm = Ok E.
Proof.
  intros Hf Lx. unfold faceMass. destruct (coord_ok x f Hf Lx) as (e & -> & Le & _). cbn [bind]. unfold lineMass.
  destruct (HR (vandermonde1D A e n) (mkmat n n junk)) as [-> | (Y & -> & Y1 & Y2)]; [cbn; exact Le|reflexivity|reflexivity|reflexivity|left; reflexivity|]. cbn [bind].
  right. apply putMass_ok; [exact Hf|exact Y2|exact Y2|reflexivity|reflexivity].
Qed.
Lemma faceMass_one f (x : list T) v : f < 4 -> length x = Np -> (forall i d, i < n -> nth (ment Fm i f) x d = v) -> faceMass A inverse junk Np n f x Fm = Throw.
Proof.
  intros Hf Lx Hv. unfold faceMass. destruct (coord_ok x f Hf Lx) as (e & -> & Le & He). cbn [bind]. unfold lineMass.
  assert (Ee : e = repeat v n). { apply (nth_ext _ _ v v); [rewrite repeat_length; exact Le|]. intros i Hi. rewrite nth_rep by lia. rewrite He by lia. apply Hv. lia. }
  subst e. rewrite HE; [reflexivity|cbn; now rewrite repeat_length|reflexivity|reflexivity|reflexivity|].
  intros i i' j Hi Hi' _. apply vandermonde_rep; assumption.
Qed.
Variable v : T.
Hypothesis Hv : forall i d, i < n -> nth (ment Fm i 1) r d = v.
Lemma massEdges_throw NF : NF = 4 -> massEdges A inverse junk NF Np n r s Fm = Throw.
Proof.
  intros ->. unfold massEdges. cbn [Nat.eqb orb negb]. destruct (faceMass_two 0 r) as [-> | (E & ->)]; [lia|exact Lr|reflexivity|]. cbn [bind].
  now rewrite (faceMass_one 1 r v) by (auto; lia).
Qed.
Lemma massEdgesRhs_throw NF : NF = 4 -> massEdgesRhs A inverse junk NF Np n r s Fm = Throw.
Proof.
  intros ->. unfold massEdgesRhs. cbn [Nat.ltb Nat.leb]. destruct (faceMass_two 0 r) as [-> | (E & ->)]; [lia|exact Lr|reflexivity|]. cbn [bind].
  now rewrite (faceMass_one 1 r v) by (auto; lia).
Qed.
Lemma build_throw p K M jk bordered skipDG : ptables_conform p 4 n Np K = true -> p_r p = r -> p_s p = s -> p_Fm p = Fm ->
  build A inverse junk jk p 4 Np n K M bordered skipDG = Throw.
Proof. intros C E1 E2 E3. unfold build, assemble. rewrite C. cbn [require]. rewrite E1, E2, E3, massEdges_throw by reflexivity. reflexivity. Qed.
Lemma bcRhs_throw p K M ubc qbc : ptables_conform p 4 n Np K = true -> p_r p = r -> p_s p = s -> p_Fm p = Fm ->
  buildBcRhs A inverse junk p 4 Np n K M ubc qbc = Throw.
Proof. intros C E1 E2 E3. unfold buildBcRhs. rewrite C. cbn [require]. rewrite E1, E2, E3, massEdgesRhs_throw by reflexivity. reflexivity. Qed.
End Generic.

Lemma skipn_upd_lt {X} (m : list X) v : forall c c', c < c' -> skipn c' (upd m c v) = skipn c' m.
Proof. induction m as [|a m IH]; intros [|c] [|c'] H; try lia; cbn [upd skipn]; auto. apply IH. lia. Qed.
(* ---- the nodes in any arithmetic ---- *)
Section Nodes.
Context {T : Type} (A : arith T).
Variables (junk : nat -> nat -> T) (eps : T) (eig : nat -> (nat -> nat -> T) -> list T * (nat -> nat -> T)) (tol : T) (N : nat).
Local Notation n := (S N).
Local Notation x := (computeGaussLobottoPoints A eig eps (fofn A 0) (fofn A 0) N).
Definition gnear (test : list T) (i : nat) : bool := match nth_error test i with Some t => flt A (fabs A t) tol | None => false end.
Lemma gmask Nfp test mask : faceMask A tol Nfp test = Ok mask ->
  length mask = Nfp /\ let idx := filter (gnear test) (seq 0 (length test)) in
  length idx <= Nfp /\ mask = idx ++ repeat 0 (Nfp - length idx).
Proof.
  unfold faceMask.
  assert (HL : forall k lo m c m' c', lo + k = length test -> c <= length m ->
    for_from lo k (fun i '(mask, count) => bind (getn test i) (fun t =>
     if flt A (fabs A t) tol then bind (setn mask count i) (fun m => Ok (m, S count)) else Ok (mask, count))) (m, c) = Ok (m', c') ->
    let idx := filter (gnear test) (seq lo k) in
    c' = c + length idx /\ c' <= length m /\ m' = firstn c m ++ idx ++ skipn c' m).
  { induction k as [|k IH]; intros lo m c m' c' Hk Hc; cbn [for_from seq filter].
    - intros [= <- <-]. cbn [length app]. rewrite firstn_skipn. split; [lia|]. split; [exact Hc|reflexivity].
    - destruct (nth_error test lo) as [t|] eqn:En; [|apply nth_error_None in En; lia]. rewrite (getn_ok _ _ _ En). cbn [bind].
      assert (Eg : gnear test lo = flt A (fabs A t) tol) by (unfold gnear; now rewrite En). rewrite Eg. clear Eg. destruct (flt A (fabs A t) tol) eqn:Et.
      + unfold setn. destruct (Nat.ltb_spec c (length m)) as [Hlt|]; [|discriminate]. cbn [bind]. intro H.
        apply IH in H; [|lia|rewrite upd_length; lia]. rewrite upd_length in H. destruct H as (H1 & H2 & H3). cbn [length]. split; [lia|]. split; [exact H2|].
        rewrite H3, firstn_upd_snoc by exact Hlt. rewrite <- app_assoc. cbn [app]. do 3 f_equal. assert (Hgt : c < c') by lia. apply skipn_upd_lt, Hgt.
      + intro H. apply IH in H; [exact H|lia|exact Hc]. }
  unfold for_. destruct (for_from _ _ _ _) as [[m' c'] | |] eqn:EF; [|discriminate|discriminate]. cbn [bind fst]. intros [= <-].
  apply HL in EF; [|reflexivity|lia]. rewrite repeat_length in EF. destruct EF as (H1 & H2 & H3). cbn [firstn app] in H3. cbn zeta.
  set (idx := filter _ _) in *. rewrite H3, app_length, skipn_length, repeat_length. split; [lia|]. split; [lia|]. f_equal.
  cbn [plus] in H1. subst c'. clear. generalize (length idx). intro k. revert k. induction Nfp as [|a IH]; intros [|k]; cbn [repeat skipn Nat.sub]; auto.
Qed.

Lemma gnodes r s ms : length x = n -> quadNodes A junk eps eig tol N = Ok (r, s, ms) ->
  length r = n * n /\ length s = n * n /\ (forall q, q < n * n -> nth_error r q = nth_error x (q / n)) /\
  exists m1 m2 m3 m4, ms = [m1; m2; m3; m4] /\ faceMask A tol n (map (fun t => fadd A t (fofn A 1)) s) = Ok m1 /\ faceMask A tol n (map (fun t => fsub A t (fofn A 1)) r) = Ok m2 /\
    faceMask A tol n (map (fun t => fsub A t (fofn A 1)) s) = Ok m3 /\ faceMask A tol n (map (fun t => fadd A t (fofn A 1)) r) = Ok m4.
Proof.
  intro Lx. unfold quadNodes. cbv zeta. set (g := computeGaussLobottoPoints A eig eps (fofn A 0) (fofn A 0) N) in *.
  match goal with |- context [for_ (S N) ?body ?st0] => destruct (for_inv (fun j (st : list T * list T) => length (fst st) = n * n /\ length (snd st) = n * n /\
     forall q, q < j * S N -> nth_error (fst st) q = nth_error g (q / n)) (S N) body st0) as ([r0 s0] & -> & L1 & L2 & HQ) end.
  - cbn [fst snd]. rewrite !map_length, seq_length. split; [reflexivity|]. split; [reflexivity|]. intros; lia.
  - intros j st Hj HI. cbn beta.
    match goal with |- context [for_ (S N) ?body ?st0] => destruct (for_inv (fun i (st : list T * list T) => length (fst st) = n * n /\ length (snd st) = n * n /\
      forall q, q < j * S N + i -> nth_error (fst st) q = nth_error g (q / n)) (S N) body st0) as (st' & E1 & L1 & L2 & HQ) end.
    + rewrite Nat.add_0_r. exact HI.
    + intros i [r0 s0] Hi (L1 & L2 & HQ). cbn [fst snd] in *.
      destruct (nth_error g j) as [a|] eqn:Ea; [|apply nth_error_None in Ea; lia]. destruct (nth_error g i) as [b|] eqn:Eb; [|apply nth_error_None in Eb; lia].
      rewrite (getn_ok _ _ _ Ea), (getn_ok _ _ _ Eb). cbn [bind].
      assert (Hb : j * S N + i < n * n) by nia. replace (S N * j + i) with (j * S N + i) by lia. rewrite !setn_ok by lia. cbn [bind]. eexists. split; [reflexivity|]. cbn [fst snd]. rewrite !upd_length.
      split; [exact L1|]. split; [exact L2|]. intros q Hq. destruct (Nat.eq_dec q (j * S N + i)) as [->|Hn].
      * rewrite nth_error_upd_eq by lia. replace ((j * S N + i) / n) with j; [now rewrite Ea|]. symmetry. rewrite Nat.div_add_l by lia. rewrite Nat.div_small by lia. lia.
      * rewrite nth_error_upd_neq by auto. apply HQ. lia.
    + exists st'. split; [exact E1|]. split; [exact L1|]. split; [exact L2|]. intros q Hq. apply HQ. lia.
  - cbn [bind fst snd] in *.
    destruct (faceMask A tol (S N) (map _ s0)) as [m1 | |] eqn:E1; [|discriminate|discriminate]. cbn [bind].
    destruct (faceMask A tol (S N) (map _ r0)) as [m2 | |] eqn:E2; [|discriminate|discriminate]. cbn [bind].
    destruct (faceMask A tol (S N) (map _ s0)) as [m3 | |] eqn:E3 in |- *; [|discriminate|discriminate]. cbn [bind].
    destruct (faceMask A tol (S N) (map _ r0)) as [m4 | |] eqn:E4 in |- *; [|discriminate|discriminate]. cbn [bind]. intros [= <- <- <-].
    split; [exact L1|]. split; [exact L2|]. split; [exact HQ|]. exists m1, m2, m3, m4. auto.
Qed.
Lemma mask_bound Nfp test mask i : 0 < length test -> faceMask A tol Nfp test = Ok mask -> i < Nfp -> nth i mask 0 < length test.
Proof.
  intros Hp HM Hi. destruct (gmask _ _ _ HM) as (Lm & Li & Em). cbv zeta in Em. assert (Hin : In (nth i mask 0) mask) by (apply nth_In; lia). rewrite Em in Hin at 2. apply in_app_or in Hin as [Hin|Hin].
  - apply filter_In in Hin as (Hin & _). apply in_seq in Hin. lia.
  - apply repeat_spec in Hin. lia.
Qed.
(* if exactly the last node passes the test against 1, the nodes of face 1 share one value *)
Lemma face1_value r s ms v : length x = n -> quadNodes A junk eps eig tol N = Ok (r, s, ms) -> nth_error x N = Some v ->
  (forall j t, nth_error x j = Some t -> flt A (fabs A (fsub A t (fofn A 1))) tol = true <-> j = N) ->
  length r = n * n /\ length s = n * n /\ (forall i f, i < n -> f < 4 -> nth i (nth f ms []) 0 < n * n) /\
  forall i d, i < n -> nth (nth i (nth 1 ms []) 0) r d = v.
Proof.
  intros Lx HQ Ev Hone. destruct (gnodes r s ms Lx HQ) as (L1 & L2 & Hr & m1 & m2 & m3 & m4 & -> & E1 & E2 & E3 & E4).
  split; [exact L1|]. split; [exact L2|]. split.
  - intros i f Hi Hf. destruct f as [|[|[|[|f]]]]; [| | | |lia]; cbn [nth].
    1: pose proof (fun H => mask_bound _ _ _ i H E1 Hi) as X; rewrite map_length in X; rewrite L2 in X; apply X; cbn; lia.
    1: pose proof (fun H => mask_bound _ _ _ i H E2 Hi) as X; rewrite map_length in X; rewrite L1 in X; apply X; cbn; lia.
    1: pose proof (fun H => mask_bound _ _ _ i H E3 Hi) as X; rewrite map_length in X; rewrite L2 in X; apply X; cbn; lia.
    1: pose proof (fun H => mask_bound _ _ _ i H E4 Hi) as X; rewrite map_length in X; rewrite L1 in X; apply X; cbn; lia.
  - intros i d Hi. cbn [nth]. destruct (gmask _ _ _ E2) as (Lm & Li & Em). cbv zeta in Li, Em. rewrite map_length, L1 in Li, Em.
    set (P := gnear (map (fun t => fsub A t (fofn A 1)) r)) in *.
    assert (HP : forall q, q < n * n -> P q = true <-> q / n = N).
    { intros q Hq. unfold P, gnear. rewrite nth_error_map, Hr by exact Hq. assert (Hd : q / n < n) by (apply Nat.div_lt_upper_bound; lia).
      destruct (nth_error x (q / n)) as [t|] eqn:Et; [|apply nth_error_None in Et; lia]. cbn [option_map]. apply Hone. exact Et. }
    assert (Hinc : incl (map (fun t => N * n + t) (seq 0 n)) (filter P (seq 0 (n * n)))).
    { intros q Hq. apply in_map_iff in Hq as (t & <- & Hq). apply in_seq in Hq. apply filter_In. split; [apply in_seq; nia|]. apply HP; [nia|]. rewrite Nat.div_add_l by lia. rewrite Nat.div_small by lia. lia. }
    assert (Hlen : n <= length (filter P (seq 0 (n * n)))).
    { replace n with (length (map (fun t => N * n + t) (seq 0 n))) at 1 by (rewrite map_length, seq_length; reflexivity). apply NoDup_incl_length; [|exact Hinc]. apply FinFun.Injective_map_NoDup; [intros a b; lia|apply seq_NoDup]. }
    replace (n - length (filter P (seq 0 (n * n)))) with 0 in Em by lia. cbn [repeat] in Em. rewrite app_nil_r in Em.
    assert (Hin : In (nth i m2 0) m2) by (apply nth_In; lia). rewrite Em in Hin at 2. apply filter_In in Hin as (Hin & HPi). apply in_seq in Hin. apply HP in HPi; [|lia].
    apply nth_error_nth. rewrite Hr by lia. rewrite HPi. exact Ev.
Qed.
End Nodes.
