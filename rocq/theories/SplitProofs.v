(* SplitProofs.v - the loops of splitElements and insertAllCells. *)
From Coq Require Import ZArith List Lia Bool Arith FinFun.
From Verif Require TriOpProofs.
From Verif Require Import Base Loops Num BlitzModel BlitzSpec BlitzProofs Nodes1DModel TriModel TriSpec TriProofs FoldProofs Maps2DSpec Maps2DProofs SplitModel SplitSpec.
Import ListNotations.
Local Open Scope nat_scope.

Lemma for_append {V} n (body : nat -> list V -> outcome (list V)) g : (forall i L, i < n -> body i L = Ok (L ++ g i)) ->
  forall L0, for_ n body L0 = Ok (L0 ++ flat_map g (seq 0 n)).
Proof.
  intros H L0. destruct (for_inv (fun i L => L = L0 ++ flat_map g (seq 0 i)) n body L0) as (L & E & HL).
  - cbn. now rewrite app_nil_r.
  - intros i L Hi ->. exists ((L0 ++ flat_map g (seq 0 i)) ++ g i). split; [apply H; exact Hi|]. rewrite seq_S, flat_map_app. cbn [flat_map]. rewrite app_nil_r, app_assoc. reflexivity.
  - rewrite E, HL. reflexivity.
Qed.

Lemma mset_cell {T} (m : mat T) i j v : i < mrows m -> j < mcols m -> exists m', mset m i j v = Ok m' /\ mrows m' = mrows m /\ mcols m' = mcols m /\
  ment m' i j = v /\ forall a b, (a, b) <> (i, j) -> ment m' a b = ment m a b.
Proof.
  intros Hi Hj. unfold mset. rewrite inb_true by assumption. eexists. split; [reflexivity|]. cbn [mrows mcols ment]. split; [reflexivity|]. split; [reflexivity|]. split.
  - now rewrite !Nat.eqb_refl.
  - intros a b H. destruct (Nat.eqb_spec a i), (Nat.eqb_spec b j); subst; auto. exfalso. auto.
Qed.

Section Split.
Context {T : Type}.
Variable A : arith T.
Variable junk : nat -> T.
Variable junk2 : nat -> nat -> T.
Variable interp : list T -> list T -> outcome (mat T).
Variable N : nat.
Local Notation lat := (lat A N).

(* A numbering of lattice points (m, n): rout, sout and counter hold it. *)
Definition numbers (Np : nat) (pos : nat -> nat -> nat) (dom : nat -> nat -> Prop) (L : lattice) : Prop :=
  let '(ro, so, C) := L in length ro = Np /\ length so = Np /\ mrows C = S N /\ mcols C = S N /\
  (forall n m, n <= N -> m <= N -> dom n m -> pos n m < Np /\ nth_error ro (pos n m) = Some (lat m) /\ nth_error so (pos n m) = Some (lat n) /\ ment C n m = Z.of_nat (pos n m)) /\
  (forall n m, ~ dom n m -> ment C n m = (-1)%Z).

Lemma put_ok Np n m c (L : lattice) : let '(ro, so, C) := L in length ro = Np -> length so = Np -> mrows C = S N -> mcols C = S N -> c < Np -> n <= N -> m <= N ->
  exists ro' so' C', put_lattice A N n m c L = Ok (ro', so', C') /\ length ro' = Np /\ length so' = Np /\ mrows C' = S N /\ mcols C' = S N /\
    nth_error ro' c = Some (lat m) /\ nth_error so' c = Some (lat n) /\ ment C' n m = Z.of_nat c /\
    (forall i, i <> c -> nth_error ro' i = nth_error ro i /\ nth_error so' i = nth_error so i) /\ (forall a b, (a, b) <> (n, m) -> ment C' a b = ment C a b).
Proof.
  destruct L as [[ro so] C]. intros L1 L2 R1 R2 Hc Hn Hm. unfold put_lattice. rewrite (setn_ok ro) by lia. cbn [bind]. rewrite (setn_ok so) by lia. cbn [bind].
  destruct (mset_cell C n m (Z.of_nat c) ltac:(lia) ltac:(lia)) as (C' & -> & X1 & X2 & X3 & X4). cbn [bind]. do 3 eexists. split; [reflexivity|].
  rewrite !upd_length. split; [exact L1|]. split; [exact L2|]. split; [lia|]. split; [lia|].
  split; [apply nth_error_upd_eq; lia|]. split; [apply nth_error_upd_eq; lia|]. split; [exact X3|]. split; [|exact X4].
  intros i Hi. split; apply nth_error_upd_neq; auto.
Qed.

Definition tpos (n m : nat) : nat := length (prefix N n) + m.
Lemma tri_lattice_ok : exists L, tri_lattice A junk N (length (modes N)) = Ok L /\ numbers (length (modes N)) tpos (fun n m => n + m <= N) L.
Proof.
  unfold tri_lattice. set (Np := length (modes N)).
  destruct (for_modes_ok (fun c (L : lattice) => let '(ro, so, C) := L in length ro = Np /\ length so = Np /\ mrows C = S N /\ mcols C = S N /\
     (forall a n m, a < c -> nth_error (modes N) a = Some (n, m) -> nth_error ro a = Some (lat m) /\ nth_error so a = Some (lat n) /\ ment C n m = Z.of_nat a) /\
     (forall n m, ~ In (n, m) (modes N) -> ment C n m = (-1)%Z)) N (put_lattice A N) (lattice0 junk N Np)) as (L & E & H).
  - unfold lattice0. rewrite map_length, seq_length. cbn [mrows mcols ment]. repeat split; intros; lia.
  - intros c n m [[ro so] C] Hc (L1 & L2 & R1 & R2 & Hd & Hu).
    assert (Hcl : c < Np) by (apply nth_error_Some; congruence). assert (Hin : In (n, m) (modes N)) by (eapply nth_error_In; eassumption). apply modes_in in Hin.
    destruct (put_ok Np n m c (ro, so, C) L1 L2 R1 R2 Hcl ltac:(lia) ltac:(lia)) as (ro' & so' & C' & E & L1' & L2' & R1' & R2' & Z1 & Z2 & Z3 & Z4 & Z5).
    exists (ro', so', C'). split; [exact E|]. split; [exact L1'|]. split; [exact L2'|]. split; [exact R1'|]. split; [exact R2'|]. split.
    + intros a n' m' Ha Hn'. destruct (Nat.eq_dec a c) as [->|Hne].
      * rewrite Hc in Hn'. injection Hn' as <- <-. auto.
      * destruct (Z4 a Hne) as (-> & ->). rewrite Z5; [apply Hd; [lia|exact Hn']|]. intro Eq. apply Hne. pose proof (TriOpProofs.modes_nodup N) as ND.
        apply (proj1 (NoDup_nth_error _) ND a c); [apply nth_error_Some; congruence|congruence].
    + intros n' m' Hni. rewrite Z5; [apply Hu; exact Hni|]. intros [= -> ->]. apply Hni, modes_in. lia.
  - rewrite E. cbn [bind fst]. exists L. split; [reflexivity|]. destruct L as [[ro so] C]. destruct H as (L1 & L2 & R1 & R2 & Hd & Hu).
    split; [exact L1|]. split; [exact L2|]. split; [exact R1|]. split; [exact R2|]. split.
    + intros n m Hn Hm Hs. pose proof (modes_lt N n m Hn ltac:(lia)) as Hl. pose proof (nth_modes N n m Hn ltac:(lia)) as Hnm. split; [exact Hl|]. exact (Hd _ _ _ Hl Hnm).
    + intros n m Hs. apply Hu. rewrite modes_in. exact Hs.
Qed.

Definition qpos (n m : nat) : nat := n * S N + m.
Lemma quad_lattice_ok : exists L, quad_lattice A junk N (S N * S N) = Ok L /\ numbers (S N * S N) qpos (fun n m => n <= N /\ m <= N) L.
Proof.
  unfold quad_lattice. set (Np := S N * S N). rewrite for2.
  destruct (foldM_inv (fun (done : list (nat * nat)) (st : lattice * nat) => let '(ro, so, C) := fst st in snd st = length done /\ length ro = Np /\ length so = Np /\ mrows C = S N /\ mcols C = S N /\
     (forall a n m, nth_error done a = Some (n, m) -> nth_error ro a = Some (lat m) /\ nth_error so a = Some (lat n) /\ ment C n m = Z.of_nat a) /\
     (forall n m, ~ In (n, m) (pairs (S N) (S N)) -> ment C n m = (-1)%Z))
     (fun p '(L, count) => bind (put_lattice A N (fst p) (snd p) count L) (fun L => Ok (L, S count))) (pairs (S N) (S N)) [] (lattice0 junk N Np, 0)) as (L & E & H).
  - unfold lattice0. cbn [fst snd mrows mcols ment]. rewrite map_length, seq_length. repeat split; intros; try lia; destruct a; discriminate.
  - intros done (n, m) [[[ro so] C] c] (rest & Hr) (Hc & L1 & L2 & R1 & R2 & Hd & Hu). cbn [app fst snd] in *. subst c.
    assert (Hlen : length done < Np). { apply (f_equal (@length _)) in Hr. rewrite pairs_len, app_length in Hr. cbn [length] in Hr. unfold Np. lia. }
    assert (Hin : In (n, m) (pairs (S N) (S N))) by (rewrite Hr; apply in_or_app; right; now left). pose proof Hin as Hin'. apply pairs_in in Hin.
    destruct (put_ok Np n m (length done) (ro, so, C) L1 L2 R1 R2 Hlen ltac:(lia) ltac:(lia)) as (ro' & so' & C' & E & L1' & L2' & R1' & R2' & Z1 & Z2 & Z3 & Z4 & Z5).
    rewrite E. cbn [bind]. exists (ro', so', C', S (length done)). split; [reflexivity|]. cbn [fst snd]. rewrite app_length. split; [cbn; lia|]. split; [exact L1'|]. split; [exact L2'|]. split; [exact R1'|]. split; [exact R2'|]. split.
    + intros a n' m' Ha. destruct (Nat.eq_dec a (length done)) as [->|Hne].
      * rewrite nth_error_app2, Nat.sub_diag in Ha by lia. cbn in Ha. injection Ha as <- <-. auto.
      * assert (Ha' : nth_error done a = Some (n', m')).
        { destruct (lt_dec a (length done)) as [Hl|Hl]; [now rewrite nth_error_app1 in Ha by exact Hl|]. rewrite nth_error_app2 in Ha by lia. destruct (a - length done) as [|[|]] eqn:Ed; [lia|discriminate|discriminate]. }
        destruct (Z4 a Hne) as (-> & ->). rewrite Z5; [apply Hd; exact Ha'|]. intros [= -> ->]. pose proof (pairs_nodup (S N) (S N)) as ND. rewrite Hr in ND.
        apply NoDup_remove_2 in ND. apply ND. apply in_or_app. left. eapply nth_error_In. exact Ha'.
    + intros n' m' Hni. rewrite Z5; [apply Hu; exact Hni|]. intros [= -> ->]. contradiction.
  - match goal with |- context [bind (foldM ?b ?l ?s) _] => replace (foldM b l s) with (Ok L) end. cbn [bind].
    destruct L as [[[ro so] C] c]. cbn [fst snd app] in *. destruct H as (_ & L1 & L2 & R1 & R2 & Hd & Hu). exists (ro, so, C). split; [reflexivity|].
    split; [exact L1|]. split; [exact L2|]. split; [exact R1|]. split; [exact R2|]. split.
    + intros n m Hn Hm _. pose proof (pairs_nth (S N) (S N) n m ltac:(lia) ltac:(lia)) as Hnm. split; [unfold qpos, Np; nia|]. exact (Hd _ _ _ Hnm).
    + intros n m Hs. apply Hu. rewrite pairs_in. lia.
Qed.

(* The pieces, as lists of lattice points (m, n), in the order they are generated. *)
Definition tri_cell (n m : nat) : list (list (nat * nat)) :=
  [(m, n); (m + 1, n); (m, n + 1)] :: if m + n + 2 <=? N then [[(m + 1, n); (m + 1, n + 1); (m, n + 1)]] else [].
Definition tri_pieces : list (list (nat * nat)) := flat_map (fun n => flat_map (tri_cell n) (seq 0 (N + 1 - (n + 1)))) (seq 0 (N + 1)).
Definition quad_pieces : list (list (nat * nat)) :=
  flat_map (fun n => flat_map (fun m => [[(m, n); (m + 1, n); (m, n + 1); (m + 1, n + 1)]]) (seq 0 N)) (seq 0 N).
Definition numbered (pos : nat -> nat -> nat) (t : list (nat * nat)) : list Z := map (fun p => Z.of_nat (pos (snd p) (fst p))) t.

Lemma flat_map_map {X Y Z} (f : Y -> Z) (h : X -> list Y) l : map f (flat_map h l) = flat_map (fun x => map f (h x)) l.
Proof. induction l; cbn; [reflexivity|]. now rewrite map_app, IHl. Qed.
Lemma flat_map_ext' {X Y} (f g : X -> list Y) l : (forall x, In x l -> f x = g x) -> flat_map f l = flat_map g l.
Proof. induction l; intro H; cbn; [reflexivity|]. rewrite H by now left. rewrite IHl; auto. intros. apply H. now right. Qed.

Lemma tri_local_ok Np ro so C : numbers Np tpos (fun n m => n + m <= N) (ro, so, C) -> tri_local N C = Ok (map (numbered tpos) tri_pieces).
Proof.
  intros (_ & _ & R1 & R2 & Hd & Hu). unfold tri_local.
  rewrite (for_append _ _ (fun n => flat_map (fun m => map (numbered tpos) (tri_cell n m)) (seq 0 (N + 1 - (n + 1))))).
  - cbn [app]. unfold tri_pieces. rewrite flat_map_map. f_equal. apply flat_map_ext'. intros n _. symmetry. apply flat_map_map.
  - intros n L Hn. apply for_append. intros m L' Hm. unfold corners. rewrite !mget_ok by lia. cbn [bind].
    destruct (Hd n m ltac:(lia) ltac:(lia) ltac:(lia)) as (_ & _ & _ & ->). destruct (Hd n (m + 1) ltac:(lia) ltac:(lia) ltac:(lia)) as (_ & _ & _ & ->). destruct (Hd (n + 1) m ltac:(lia) ltac:(lia) ltac:(lia)) as (_ & _ & _ & ->).
    unfold tri_cell. destruct (Nat.leb_spec (m + n + 2) N) as [Hs|Hs].
    + destruct (Hd (n + 1) (m + 1) ltac:(lia) ltac:(lia) ltac:(lia)) as (_ & _ & _ & ->). destruct (Z.leb_spec 0 (Z.of_nat (tpos (n + 1) (m + 1)))) as [_|Hx]; [|lia]. rewrite <- app_assoc. reflexivity.
    + rewrite (Hu (n + 1) (m + 1)) by lia. reflexivity.
Qed.
Lemma quad_local_ok Np ro so C : numbers Np qpos (fun n m => n <= N /\ m <= N) (ro, so, C) -> quad_local N C = Ok (map (numbered qpos) quad_pieces).
Proof.
  intros (_ & _ & R1 & R2 & Hd & Hu). unfold quad_local.
  rewrite (for_append _ _ (fun n => flat_map (fun m => map (numbered qpos) [[(m, n); (m + 1, n); (m, n + 1); (m + 1, n + 1)]]) (seq 0 N))).
  - cbn [app]. unfold quad_pieces. rewrite flat_map_map. f_equal. apply flat_map_ext'. intros n _. symmetry. apply flat_map_map.
  - intros n L Hn. apply for_append. intros m L' Hm. unfold corners. rewrite !mget_ok by lia. cbn [bind].
    destruct (Hd n m ltac:(lia) ltac:(lia) ltac:(lia)) as (_ & _ & _ & ->). destruct (Hd n (m + 1) ltac:(lia) ltac:(lia) ltac:(lia)) as (_ & _ & _ & ->). destruct (Hd (n + 1) m ltac:(lia) ltac:(lia) ltac:(lia)) as (_ & _ & _ & ->).
    destruct (Hd (n + 1) (m + 1) ltac:(lia) ltac:(lia) ltac:(lia)) as (_ & _ & _ & ->). reflexivity.
Qed.

Lemma tri_pieces_in t : In t tri_pieces <-> sub_triangle N t.
Proof.
  unfold tri_pieces, sub_triangle. rewrite in_flat_map. split.
  - intros (n & Hn & H). apply in_seq in Hn. apply in_flat_map in H as (m & Hm & H). apply in_seq in Hm. exists m, n. unfold tri_cell in H. destruct H as [<-|H]; [left; split; [lia|reflexivity]|].
    destruct (Nat.leb_spec (m + n + 2) N); [|destruct H]. destruct H as [<-|[]]. right. auto.
  - intros (m & n & [(H & ->)|(H & ->)]); exists n; (split; [apply in_seq; lia|]); apply in_flat_map; exists m; (split; [apply in_seq; lia|]).
    + now left.
    + right. destruct (Nat.leb_spec (m + n + 2) N); [now left|lia].
Qed.
Lemma quad_pieces_in t : In t quad_pieces <-> sub_square N t.
Proof.
  unfold quad_pieces, sub_square. rewrite in_flat_map. split.
  - intros (n & Hn & H). apply in_seq in Hn. apply in_flat_map in H as (m & Hm & H). apply in_seq in Hm. exists m, n. destruct H as [<-|[]]. repeat split; lia.
  - intros (m & n & Hm & Hn & ->). exists n. split; [apply in_seq; lia|]. apply in_flat_map. exists m. split; [apply in_seq; lia|now left].
Qed.
Definition key_n (t : list (nat * nat)) : nat := match t with (_, n) :: _ => n | [] => 0 end.
Definition key_m (t : list (nat * nat)) : nat := match t with _ :: _ :: (m, _) :: _ => m | _ => 0 end.
Lemma tri_pieces_nodup : NoDup tri_pieces.
Proof.
  unfold tri_pieces. apply (nodup_flat_map _ key_n); [apply seq_NoDup| |].
  - intro n. apply (nodup_flat_map _ key_m); [apply seq_NoDup| |].
    + intro m. unfold tri_cell. destruct (_ <=? _); repeat constructor; cbn; intros []; try congruence; try contradiction. injection H as H. lia.
    + intros m t. unfold tri_cell. intros [<-|H]; [reflexivity|]. destruct (_ <=? _); [destruct H as [<-|[]]; reflexivity|destruct H].
  - intros n t H. apply in_flat_map in H as (m & _ & H). unfold tri_cell in H. destruct H as [<-|H]; [reflexivity|]. destruct (_ <=? _); [destruct H as [<-|[]]; reflexivity|destruct H].
Qed.
Lemma quad_pieces_nodup : NoDup quad_pieces.
Proof.
  unfold quad_pieces. apply (nodup_flat_map _ key_n); [apply seq_NoDup| |].
  - intro n. apply (nodup_flat_map _ key_m); [apply seq_NoDup| |].
    + intro m. repeat constructor. intros [].
    + intros m t [<-|[]]; reflexivity.
  - intros n t H. apply in_flat_map in H as (m & _ & [<-|[]]). reflexivity.
Qed.
Lemma quad_pieces_len : length quad_pieces = N * N.
Proof.
  unfold quad_pieces. rewrite (flat_map_len _ N); [now rewrite seq_length|]. intros n _. rewrite (flat_map_len _ 1); [rewrite seq_length; lia|reflexivity].
Qed.
Lemma tri_row_len n k : length (flat_map (tri_cell n) (seq 0 k)) = k + min k (N - n - 1).
Proof.
  induction k as [|k IH]; [reflexivity|]. rewrite seq_S, flat_map_app, app_length, IH. cbn [flat_map app Nat.add]. rewrite app_nil_r. unfold tri_cell. cbn [length].
  destruct (Nat.leb_spec (k + n + 2) N); cbn [length]; lia.
Qed.
Lemma tri_pieces_len : length tri_pieces = N * N.
Proof.
  unfold tri_pieces. assert (H : forall k, k <= N + 1 -> length (flat_map (fun n => flat_map (tri_cell n) (seq 0 (N + 1 - (n + 1)))) (seq 0 k)) = N * N - (N - k) * (N - k)).
  { induction k as [|k IH]; intro Hk; [cbn; rewrite Nat.sub_0_r; lia|]. rewrite seq_S, flat_map_app, app_length, IH by lia. cbn [flat_map app Nat.add]. rewrite app_nil_r, tri_row_len.
    destruct (Nat.eq_dec k N) as [->|Hne]; [rewrite Nat.sub_diag; replace (N - S N) with 0 by lia; replace (N + 1 - (N + 1)) with 0 by lia; cbn; lia|].
    destruct (Nat.le_exists_sub (S k) N ltac:(lia)) as (d & -> & _). replace (d + S k - k) with (S d) by lia. replace (d + S k - S k) with d by lia. replace (d + S k + 1 - (k + 1)) with (S d) by lia. replace (S d - 1) with d by lia. rewrite Nat.min_r by lia. nia. }
  rewrite H by lia. replace (N - (N + 1)) with 0 by lia. lia.
Qed.

(* ---- replication over the elements and the output arrays ---- *)
Lemma flat_map_nth {X Y} (g : X -> Y) d L : flat_map (fun l => [g (nth l L d)]) (seq 0 (length L)) = map g L.
Proof.
  induction L as [|a L IH]; [reflexivity|]. cbn [length seq flat_map nth app map]. f_equal. rewrite <- seq_shift. rewrite <- IH.
  rewrite !flat_map_concat_map, map_map. reflexivity.
Qed.
Lemma replicate_ok nv Np K (L : list (list Z)) : (forall row, In row L -> length row = nv) ->
  replicate_local nv Np K L = Ok (flat_map (fun k => map (map (fun v => (v + Z.of_nat (k * Np))%Z)) L) (seq 0 K)).
Proof.
  intro HL. unfold replicate_local. apply (for_append _ _ (fun k => map (map (fun v => (v + Z.of_nat (k * Np))%Z)) L) ) with (L0 := []).
  intros k E Hk. rewrite (for_append _ _ (fun l => [map (fun v => (v + Z.of_nat (k * Np))%Z) (nth l L [])])).
  - f_equal. f_equal. apply (flat_map_nth (map (fun v => (v + Z.of_nat (k * Np))%Z))).
  - intros l E' Hl. rewrite (getn_ok L l (nth l L [])) by (apply nth_error_nth'; exact Hl). cbn [bind].
    assert (Hr : length (nth l L []) = nv) by (apply HL, nth_In; exact Hl). set (row := nth l L []) in *.
    rewrite (for_append _ _ (fun c => [(nth c row 0 + Z.of_nat (k * Np))%Z])).
    + cbn [bind app]. f_equal. f_equal. f_equal. rewrite <- Hr. apply (flat_map_nth (fun v => (v + Z.of_nat (k * Np))%Z)).
    + intros c r Hc. rewrite (getn_ok row c (nth c row 0%Z)) by (apply nth_error_nth'; lia). reflexivity.
Qed.

Lemma fill_ok nv (E : list (list Z)) (xv yv fv : list T) total (xs ys fs : nat -> nat -> T) :
  (forall i c, i < total -> c < nv -> exists row v, nth_error E i = Some row /\ nth_error row c = Some (Z.of_nat v) /\
     nth_error xv v = Some (xs c i) /\ nth_error yv v = Some (ys c i) /\ nth_error fv v = Some (fs c i)) ->
  exists X Y F, fill junk2 nv E xv yv fv total = Ok (X, Y, F) /\ mrows X = nv /\ mcols X = total /\ mrows Y = nv /\ mcols Y = total /\ mrows F = nv /\ mcols F = total /\
    forall i c, i < total -> c < nv -> ment X c i = xs c i /\ ment Y c i = ys c i /\ ment F c i = fs c i.
Proof.
  intro H. unfold fill. rewrite for2.
  match goal with |- context [foldM ?body ?l ?s0] =>
    destruct (fold_cells (fun st : mat T * mat T * mat T => let '(X, Y, F) := st in mrows X = nv /\ mcols X = total /\ mrows Y = nv /\ mcols Y = total /\ mrows F = nv /\ mcols F = total)
      (fun st p => let '(X, Y, F) := st in (ment X (snd p) (fst p), ment Y (snd p) (fst p), ment F (snd p) (fst p)))
      (fun p => (junk2 (snd p) (fst p), junk2 (snd p) (fst p), junk2 (snd p) (fst p))) (fun p => (xs (snd p) (fst p), ys (snd p) (fst p), fs (snd p) (fst p))) body l (pairs_nodup total nv)) with (s := s0)
      as ([[X Y] F] & Ef & (I1 & I2 & I3 & I4 & I5 & I6) & Hc & _) end.
  - intros (i, c) [[X Y] F] Hin (I1 & I2 & I3 & I4 & I5 & I6) _. apply pairs_in in Hin as (Hi & Hc). cbn [fst snd]. destruct (H i c Hi Hc) as (row & v & E1 & E2 & X1 & Y1 & F1).
    rewrite (getn_ok _ _ _ E1). cbn [bind]. rewrite (getn_ok _ _ _ E2). cbn [bind].
    assert (G : forall (l : list T) a, nth_error l v = Some a -> get l (Z.of_nat v) = Ok a).
    { intros l a Hl. unfold get. destruct (Z.ltb_spec (Z.of_nat v) 0); [lia|]. rewrite Nat2Z.id, Hl. reflexivity. }
    rewrite (G _ _ X1), (G _ _ Y1), (G _ _ F1). cbn [bind].
    destruct (mset_cell X c i (xs c i) ltac:(lia) ltac:(lia)) as (X' & -> & A1 & A2 & A3 & A4). cbn [bind].
    destruct (mset_cell Y c i (ys c i) ltac:(lia) ltac:(lia)) as (Y' & -> & B1 & B2 & B3 & B4). cbn [bind].
    destruct (mset_cell F c i (fs c i) ltac:(lia) ltac:(lia)) as (F' & -> & C1 & C2 & C3 & C4). cbn [bind].
    exists (X', Y', F'). split; [reflexivity|]. split; [repeat split; lia|]. split; [rewrite A3, B3, C3; reflexivity|].
    intros (i', c') Hne. cbn [fst snd]. assert ((c', i') <> (c, i)) by congruence. rewrite A4, B4, C4 by assumption. reflexivity.
  - cbn. repeat split.
  - intros (i, c) _. reflexivity.
  - exists X, Y, F. split; [exact Ef|]. repeat (split; [assumption|]). intros i c Hi Hc'. specialize (Hc (i, c) ltac:(apply pairs_in; auto)). cbn [fst snd] in Hc. injection Hc as -> -> ->. auto.
Qed.

(* Both splittings: pieces replicated over the elements, every vertex carrying the interpolated values of its lattice point. *)
Lemma split_ok nv mkLattice mkLocal pos (dom : nat -> nat -> Prop) pieces x y field :
  let Np := mrows field in let K := mcols field in
  mrows x = Np -> mcols x = K -> mrows y = Np -> mcols y = K ->
  (exists L, mkLattice Np = Ok L /\ numbers Np pos dom L /\ mkLocal (snd L) = Ok (map (numbered pos) pieces)) ->
  (forall t, In t pieces -> length t = nv /\ forall m n, In (m, n) t -> n <= N /\ m <= N /\ dom n m) ->
  (forall ro so C, mkLattice Np = Ok (ro, so, C) -> numbers Np pos dom (ro, so, C) -> exists IM, interp ro so = Ok IM /\ mrows IM = Np) ->
  exists ro so IM X Y F, split_with A junk junk2 interp nv mkLattice mkLocal x y field = Ok (X, Y, F) /\
    length ro = Np /\ length so = Np /\ interp ro so = Ok IM /\
    mrows X = nv /\ mcols X = length pieces * K /\ mrows Y = nv /\ mcols Y = length pieces * K /\ mrows F = nv /\ mcols F = length pieces * K /\
    (forall n m, n <= N -> m <= N -> dom n m -> nth_error ro (pos n m) = Some (lat m) /\ nth_error so (pos n m) = Some (lat n)) /\
    forall k l t c m n, k < K -> nth_error pieces l = Some t -> nth_error t c = Some (m, n) ->
      pos n m < Np /\
      ment X c (k * length pieces + l) = ment (mmul A IM x) (pos n m) k /\
      ment Y c (k * length pieces + l) = ment (mmul A IM y) (pos n m) k /\
      ment F c (k * length pieces + l) = ment (mmul A IM field) (pos n m) k.
Proof.
  intros Np K X1 X2 Y1 Y2 ([[ro so] C] & HL & Hnum & Hloc) Hp Hint. cbn [snd] in Hloc. destruct (Hint ro so C HL Hnum) as (IM & HI & HIr).
  unfold split_with. fold Np K. rewrite X1, X2, Y1, Y2, !Nat.eqb_refl. cbn [andb negb]. rewrite HL. cbn [bind]. rewrite HI. cbn [bind]. rewrite Hloc. cbn [bind].
  pose proof Hnum as (L1 & L2 & _ & _ & Hd & _).
  rewrite replicate_ok.
  2:{ intros row Hr. apply in_map_iff in Hr as (t & <- & Ht). unfold numbered. rewrite map_length. apply Hp, Ht. }
  cbn [bind]. rewrite (Nat.mul_comm Np K). unfold fullToVector.
  destruct (flat_ok junk Np K (mmul A IM x)) as (xv & -> & Lx & Hx); [cbn; lia|cbn; exact X2|]. cbn [bind].
  destruct (flat_ok junk Np K (mmul A IM y)) as (yv & -> & Ly & Hy); [cbn; lia|cbn; exact Y2|]. cbn [bind].
  destruct (flat_ok junk Np K (mmul A IM field)) as (fv & -> & Lf & Hf); [cbn; lia|reflexivity|]. cbn [bind].
  rewrite map_length. set (P := length pieces).
  assert (Hcell : forall k l t c m n, k < K -> nth_error pieces l = Some t -> nth_error t c = Some (m, n) -> n <= N /\ m <= N /\ dom n m).
  { intros k l t c m n Hk Hl Hc. apply nth_error_In in Hl, Hc. destruct (Hp t Hl) as (_ & H). apply H, Hc. }
  set (vtx := fun c i => let '(m, n) := nth c (nth (i mod P) pieces []) (0, 0) in pos n m).
  destruct (fill_ok nv (flat_map (fun k => map (map (fun v => (v + Z.of_nat (k * Np))%Z)) (map (numbered pos) pieces)) (seq 0 K)) xv yv fv (P * K)
     (fun c i => ment (mmul A IM x) (vtx c i) (i / P)) (fun c i => ment (mmul A IM y) (vtx c i) (i / P)) (fun c i => ment (mmul A IM field) (vtx c i) (i / P))) as (X & Y & F & Ef & S1 & S2 & S3 & S4 & S5 & S6 & Hv).
  { intros i c Hi Hc. assert (HP : P <> 0) by nia. pose proof (Nat.div_mod i P HP) as D. pose proof (Nat.mod_upper_bound i P HP) as Hl. assert (Hk : i / P < K) by (apply Nat.div_lt_upper_bound; lia).
    set (k := i / P) in *. set (l := i mod P) in *. assert (Ht : nth_error pieces l = Some (nth l pieces [])) by (apply nth_error_nth'; exact Hl). set (t := nth l pieces []) in *.
    assert (Htl : length t = nv) by (apply Hp; eapply nth_error_In; exact Ht). assert (Hcv : nth_error t c = Some (nth c t (0, 0))) by (apply nth_error_nth'; lia). destruct (nth c t (0, 0)) as [m n] eqn:Ec.
    destruct (Hcell k l t c m n Hk Ht Hcv) as (Hn & Hm & Hdm). destruct (Hd n m Hn Hm Hdm) as (Hpos & _).
    assert (Ev : vtx c i = pos n m) by (unfold vtx; fold l t; rewrite Ec; reflexivity).
    exists (map (fun v => (v + Z.of_nat (k * Np))%Z) (numbered pos t)), (volume_id Np (pos n m) k). rewrite !Ev. split; [|split; [|split; [|split]]].
    - replace i with (k * P + l) by lia. rewrite (nth_flat_map _ P _ _ _ k); [|intros; now rewrite !map_length|now rewrite nth_error_seq'|exact Hl]. rewrite !nth_error_map, Ht. reflexivity.
    - unfold numbered. rewrite !nth_error_map, Hcv. cbn [option_map fst snd]. f_equal. unfold volume_id. lia.
    - apply Hx; auto.
    - apply Hy; auto.
    - apply Hf; auto. }
  exists ro, so, IM, X, Y, F. split; [exact Ef|]. repeat (split; [assumption|]). split.
  { intros n m Hn Hm Hdm. destruct (Hd n m Hn Hm Hdm) as (_ & H1 & H2 & _). auto. }
  intros k l t c m n Hk Ht Hc. assert (Hl : l < P) by (apply nth_error_Some; congruence). assert (Hcn : c < nv). { rewrite <- (proj1 (Hp t (nth_error_In _ _ Ht))). apply nth_error_Some. congruence. }
  assert (Hi : k * P + l < P * K) by nia. destruct (Hv (k * P + l) c Hi Hcn) as (V1 & V2 & V3).
  assert (Dk : (k * P + l) / P = k) by (rewrite Nat.add_comm, Nat.div_add by lia; rewrite Nat.div_small by lia; lia). assert (Dl : (k * P + l) mod P = l) by (rewrite Nat.add_comm, Nat.mod_add by lia; apply Nat.mod_small; lia).
  assert (Ev : vtx c (k * P + l) = pos n m) by (unfold vtx; rewrite Dl, (nth_error_nth _ _ [] Ht), (nth_error_nth _ _ (0, 0) Hc); reflexivity).
  rewrite Dk, Ev in *. destruct (Hcell k l t c m n Hk Ht Hc) as (Hn & Hm & Hdm). destruct (Hd n m Hn Hm Hdm) as (Hpos & _). auto.
Qed.
End Split.

Lemma tpos_surj N a : a < length (modes N) -> exists n m, nth_error (modes N) a = Some (n, m) /\ n + m <= N /\ a = tpos N n m.
Proof.
  intro Ha. destruct (nth_error (modes N) a) as [[n m]|] eqn:E; [|apply nth_error_None in E; lia]. exists n, m. split; [reflexivity|].
  assert (Hs : n + m <= N) by (apply modes_in; eapply nth_error_In; exact E). split; [exact Hs|].
  pose proof (nth_modes N n m ltac:(lia) ltac:(lia)) as Hn. apply (proj1 (NoDup_nth_error _) (TriOpProofs.modes_nodup N)); [exact Ha|]. rewrite E. symmetry. exact Hn.
Qed.

(* ---- the VTK writer ---- *)
Section Vtk.
Context {T : Type}.
Variable zero : T.
Variable junk : nat -> T.
Variables x y field : mat T.
Local Notation K := (mcols field).
Local Notation Np := (mrows field).
Hypothesis Sx : mrows x = Np /\ mcols x = K.
Hypothesis Sy : mrows y = Np /\ mcols y = K.
Definition cell_nodes (k : nat) : list nat :=
  match Np with 4 => [k * Np; k * Np + 2; k * Np + 3; k * Np + 1] | _ => seq (k * Np) Np end.

Lemma nth_eq_ext {V} (l l' : list V) : (forall i, nth_error l i = nth_error l' i) -> l = l'.
Proof.
  revert l'. induction l as [|a l IH]; intros [|b l'] H; [reflexivity|specialize (H 0); discriminate|specialize (H 0); discriminate|].
  pose proof (H 0) as H0. injection H0 as ->. f_equal. apply IH. intro i. exact (H (S i)).
Qed.

Lemma cells_ok : exists g, insertAllCells zero junk x y field = Ok g /\ length (vk_points g) = K * Np /\ length (vk_values g) = K * Np /\ length (vk_cells g) = K /\
  forall k, k < K -> nth_error (vk_cells g) k = Some (cell_type Np, cell_nodes k) /\
    forall n, n < Np -> nth_error (vk_points g) (k * Np + n) = Some (ment x n k, ment y n k, zero) /\ nth_error (vk_values g) (k * Np + n) = Some (ment field n k).
Proof.
  destruct Sx as (X1 & X2). destruct Sy as (Y1 & Y2). unfold insertAllCells.
  match goal with |- context [for_ K ?body ?s0] =>
    destruct (for_inv (fun k (st : list (T * T * T) * list T * list nat * nat * list (nat * list nat)) => let '(P, V, nodes, id, cells) := st in
       length P = k * Np /\ length V = K * Np /\ length nodes = Np /\ id = k * Np /\ cells = map (fun k => (cell_type Np, cell_nodes k)) (seq 0 k) /\
       forall k' n, k' < k -> n < Np -> nth_error P (k' * Np + n) = Some (ment x n k', ment y n k', zero) /\ nth_error V (k' * Np + n) = Some (ment field n k')) K body s0) as (st & E & H) end.
  - rewrite map_length, seq_length, repeat_length. cbn. repeat split; try lia.
  - intros k [[[[P V] nodes] id] cells] Hk (LP & LV & Ln & -> & -> & Hd).
    match goal with |- context [for_ Np ?body ?s0] =>
      destruct (for_inv (fun n (st : list (T * T * T) * list T * list nat * nat) => let '(P', V', nodes', id') := st in
         length P' = k * Np + n /\ length V' = K * Np /\ length nodes' = Np /\ id' = k * Np + n /\ (forall i, i < n -> nth_error nodes' i = Some (k * Np + i)) /\
         (forall n', n' < n -> nth_error P' (k * Np + n') = Some (ment x n' k, ment y n' k, zero) /\ nth_error V' (k * Np + n') = Some (ment field n' k)) /\
         (forall k' n', k' < k -> n' < Np -> nth_error P' (k' * Np + n') = Some (ment x n' k', ment y n' k', zero) /\ nth_error V' (k' * Np + n') = Some (ment field n' k'))) Np body s0) as (st & E & Hst) end.
    + repeat split; try lia; apply Hd; assumption.
    + intros n [[[P' V'] nodes'] id'] Hn (LP' & LV' & Ln' & -> & Hnod & Hc & Hp). rewrite !mget_ok by lia. cbn [bind].
      assert (Hkn : k * Np + n < K * Np) by nia.
      rewrite (setn_ok V') by lia. cbn [bind]. rewrite (setn_ok nodes') by lia. cbn [bind]. eexists. split; [reflexivity|]. cbn beta iota.
      rewrite app_length, !upd_length. cbn [length]. split; [lia|]. split; [exact LV'|]. split; [exact Ln'|]. split; [lia|]. split; [|split].
      * intros i Hi. destruct (Nat.eq_dec i n) as [->|]; [apply nth_error_upd_eq; lia|]. rewrite nth_error_upd_neq by auto. apply Hnod. lia.
      * intros n' Hn'. destruct (Nat.eq_dec n' n) as [->|Hne].
        -- split; [rewrite nth_error_app2 by lia; replace (k * Np + n - length P') with 0 by lia; reflexivity|apply nth_error_upd_eq; lia].
        -- rewrite nth_error_app1 by lia. rewrite nth_error_upd_neq by lia. apply Hc. lia.
      * intros k' n' Hk' Hn'. rewrite nth_error_app1 by nia. rewrite nth_error_upd_neq by nia. apply Hp; assumption.
    + rewrite E. cbn [bind]. destruct st as [[[P' V'] nodes'] id']. destruct Hst as (LP' & LV' & Ln' & -> & Hnod & Hc & Hp).
      assert (Hnodes : nodes' = seq (k * Np) Np).
      { apply nth_eq_ext. intro i. destruct (lt_dec i Np) as [Hi|Hi]; [rewrite Hnod, nth_error_seq' by exact Hi; reflexivity|]. rewrite (proj2 (nth_error_None _ _)) by lia. symmetry. apply nth_error_None. rewrite seq_length. lia. }
      assert (Hsw : exists nodes2, (if cell_type Np =? 9 then bind (swapn nodes' 1 3) (fun nodes => swapn nodes 1 2) else Ok nodes') = Ok nodes2 /\ nodes2 = cell_nodes k /\ length nodes2 = Np).
      { rewrite Hnodes. unfold cell_nodes, cell_type. remember (mrows field) as q eqn:Eq. clear. destruct q as [|[|[|[|[|q]]]]]; cbn [Nat.eqb]; try (eexists; split; [reflexivity|]; split; [reflexivity|now rewrite ?seq_length]).
        cbn [seq]. unfold swapn, getn, setn. cbn. eexists. split; [reflexivity|]. split; [|reflexivity]. repeat f_equal; lia. }
      destruct Hsw as (nodes2 & -> & -> & L2). cbn [bind]. eexists. split; [reflexivity|]. cbn beta iota. split; [lia|]. split; [exact LV'|]. split; [exact L2|]. split; [lia|]. split.
      * rewrite seq_S, map_app. reflexivity.
      * intros k' n Hk' Hn. destruct (Nat.eq_dec k' k) as [->|]; [apply Hc; exact Hn|apply Hp; [lia|exact Hn]].
  - rewrite E. cbn [bind]. destruct st as [[[[P V] nodes] id] cells]. destruct H as (LP & LV & _ & _ & -> & Hd). eexists. split; [reflexivity|]. cbn [vk_points vk_values vk_cells].
    split; [exact LP|]. split; [exact LV|]. split; [now rewrite map_length, seq_length|]. intros k Hk. split; [|intros n Hn; apply Hd; assumption].
    rewrite nth_error_map, nth_error_seq' by exact Hk. reflexivity.
Qed.
End Vtk.
