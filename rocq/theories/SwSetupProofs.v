(* SwSetupProofs.v - the open sides, the boundary table after re-tagging, the sponge and the bed slopes. *)
From Coq Require Import ZArith List Lia Bool Arith Ascii.
From Verif Require Import Base Loops Num JacobiSpec JacobiQuadProofs BlitzModel BlitzProofs Nodes1DModel DenseModel MeshSpec TriModel TriSpec TriGeoSpec TriSetup TriProps Maps2DModel Maps2DSpec Maps2DProofs Maps2DProps TriMapsProofs TriMapsProps TriDGSpec TriDGProofs
  RKModel Line1DModel RKProofs Line1DProofs SwModel SwSpec SwProofs SwSchemeProofs SwRunProofs BlitzSpec QuadInterpProofs TriElemProofs TriOpProofs PoissonBlockProofs PoissonProofs SwSetupModel SwSetupSpec SwDepthProofs.
From Coq Require Import Reals Lra.
Import ListNotations.

(* ---- the open sides ---- *)
Lemma set_if (b : bool) (l : list Z) i v : i < length l -> (if b then setn l i v else Ok l) = Ok (if b then upd l i v else l).
Proof. intro H. destruct b; [|reflexivity]. apply setn_ok, H. Qed.
Lemma upd_if (b : bool) (l : list Z) i v j : i < length l -> nth_error (if b then upd l i v else l) j = if b && (j =? i) then Some v else nth_error l j.
Proof. intro H. destruct b; [|reflexivity]. cbn [andb]. apply nth_error_upd, H. Qed.
Lemma len_if (b : bool) (l : list Z) i v : length (if b then upd l i v else l) = length l.
Proof. destruct b; [apply upd_len|reflexivity]. Qed.

Lemma open_element_ok opn EToV k bc : 3 * k + 2 < length EToV -> 3 * k + 2 < length bc -> exists bc', open_element opn EToV k bc = Ok bc' /\ length bc' = length bc /\
  forall j, nth_error bc' j = if (3 * k <=? j) && (j <? 3 * k + 3) && open_side opn EToV k (j - 3 * k) then Some 2%Z else nth_error bc j.
Proof.
  intros HE HB. unfold open_element. rewrite !(TriFaceProofs.getn_ok EToV _ 0) by lia. cbn [bind].
  rewrite set_if by lia. cbn [bind]. rewrite set_if by (rewrite len_if; lia). cbn [bind]. rewrite set_if by (rewrite !len_if; lia). eexists. split; [reflexivity|].
  split; [rewrite !len_if; reflexivity|]. intro j. rewrite !upd_if by (rewrite ?len_if; lia). unfold open_side.
  destruct (Nat.leb_spec (3 * k) j) as [Hge|Hlt]; cbn [andb].
  - destruct (Nat.ltb_spec j (3 * k + 3)) as [Hl|Hl]; cbn [andb].
    + assert (Hc : j = 3 * k \/ j = 3 * k + 1 \/ j = 3 * k + 2) by lia. destruct Hc as [-> | [-> | ->]].
      * replace (3 * k - 3 * k) with 0 by lia. rewrite Nat.add_0_r. change ((0 + 1) mod 3) with 1. rewrite Nat.eqb_refl.
        replace (3 * k =? 3 * k + 2) with false by (symmetry; apply Nat.eqb_neq; lia). replace (3 * k =? 3 * k + 1) with false by (symmetry; apply Nat.eqb_neq; lia). rewrite !andb_false_r, andb_true_r. reflexivity.
      * replace (3 * k + 1 - 3 * k) with 1 by lia. change ((1 + 1) mod 3) with 2. rewrite Nat.eqb_refl.
        replace (3 * k + 1 =? 3 * k + 2) with false by (symmetry; apply Nat.eqb_neq; lia). replace (3 * k + 1 =? 3 * k) with false by (symmetry; apply Nat.eqb_neq; lia). rewrite !andb_false_r, andb_true_r. reflexivity.
      * replace (3 * k + 2 - 3 * k) with 2 by lia. change ((2 + 1) mod 3) with 0. rewrite Nat.eqb_refl, Nat.add_0_r.
        replace (3 * k + 2 =? 3 * k + 1) with false by (symmetry; apply Nat.eqb_neq; lia). replace (3 * k + 2 =? 3 * k) with false by (symmetry; apply Nat.eqb_neq; lia). rewrite !andb_false_r, andb_true_r. reflexivity.
    + replace (j =? 3 * k + 2) with false by (symmetry; apply Nat.eqb_neq; lia). replace (j =? 3 * k + 1) with false by (symmetry; apply Nat.eqb_neq; lia).
      replace (j =? 3 * k) with false by (symmetry; apply Nat.eqb_neq; lia). rewrite !andb_false_r. reflexivity.
  - replace (j =? 3 * k + 2) with false by (symmetry; apply Nat.eqb_neq; lia). replace (j =? 3 * k + 1) with false by (symmetry; apply Nat.eqb_neq; lia).
    replace (j =? 3 * k) with false by (symmetry; apply Nat.eqb_neq; lia). rewrite !andb_false_r. reflexivity.
Qed.
Lemma tag_open_ok opn EToV K bc : 3 * K <= length EToV -> 3 * K <= length bc -> exists bc', tag_open opn EToV K bc = Ok bc' /\ length bc' = length bc /\
  (forall k f, k < K -> f < 3 -> tag_of bc' k f = if open_side opn EToV k f then 2%Z else tag_of bc k f) /\ forall j, 3 * K <= j -> nth j bc' 0%Z = nth j bc 0%Z.
Proof.
  intros HE HB. unfold tag_open.
  destruct (for_inv (fun n (b : list Z) => length b = length bc /\ (forall k f, k < n -> f < 3 -> nth_error b (3 * k + f) = if open_side opn EToV k f then Some 2%Z else nth_error bc (3 * k + f)) /\
     forall j, 3 * n <= j -> nth_error b j = nth_error bc j) K (open_element opn EToV) bc) as (bc' & E & L & H1 & H2).
  - split; [reflexivity|]. split; [intros; lia|reflexivity].
  - intros k b Hk (L & H1 & H2). destruct (open_element_ok opn EToV k b ltac:(lia) ltac:(lia)) as (b' & E & L' & Hb). exists b'. split; [exact E|]. split; [lia|]. split.
    + intros k' f Hk' Hf. rewrite Hb. destruct (Nat.eq_dec k' k) as [->|Hne].
      * replace (3 * k <=? 3 * k + f) with true by (symmetry; apply Nat.leb_le; lia). replace (3 * k + f <? 3 * k + 3) with true by (symmetry; apply Nat.ltb_lt; lia). cbn [andb].
        replace (3 * k + f - 3 * k) with f by lia. rewrite H2 by lia. reflexivity.
      * replace (3 * k <=? 3 * k' + f) with false by (symmetry; apply Nat.leb_gt; lia). cbn [andb]. apply H1; lia.
    + intros j Hj. rewrite Hb. replace (j <? 3 * k + 3) with false by (symmetry; apply Nat.ltb_ge; lia). rewrite andb_false_r. cbn [andb]. apply H2. lia.
  - exists bc'. split; [exact E|]. split; [exact L|]. split.
    + intros k f Hk Hf. unfold tag_of. specialize (H1 k f Hk Hf). destruct (open_side opn EToV k f).
      * apply nth_error_nth, H1.
      * rewrite (nth_error_nth' bc 0%Z) in H1 by lia. apply nth_error_nth, H1.
    + intros j Hj. specialize (H2 j Hj). destruct (Nat.lt_ge_cases j (length bc)) as [Hl|Hl].
      * rewrite (nth_error_nth' bc 0%Z) in H2 by lia. apply nth_error_nth, H2.
      * rewrite !nth_overflow by lia. reflexivity.
Qed.

(* ---- the right-hand side with two boundary tables ---- *)
Local Notation tab := Line1DProofs.tab.
Lemma same_far {T} (A : arith T) nf nx ny hM huM hvM HM tide hP huP hvP W1 O1 W2 O2 :
  (forall i, In i W1 \/ In i O1 \/ In i W2 \/ In i O2 -> i < nf) -> (forall i, In i O1 <-> In i O2) -> (forall i, ~ In i O1 -> (In i W1 <-> In i W2)) ->
  let wall := wall_step A true (tab nf nx) (tab nf ny) (tab nf hM) (tab nf huM) (tab nf hvM) in let opn := open_step A tide (tab nf HM) (tab nf huM) (tab nf hvM) in
  let st := (tab nf hP, tab nf huP, tab nf hvP) in
  exists s1 s2 s, each wall W1 st = Ok s1 /\ each wall W2 st = Ok s2 /\ each opn O1 s1 = Ok s /\ each opn O2 s2 = Ok s.
Proof.
  intros HB HO HW. cbv zeta. rewrite !walls_ok by (intros; apply HB; tauto). do 3 eexists. split; [reflexivity|]. split; [reflexivity|].
  rewrite !opens_ok by (intros; apply HB; tauto). split; [reflexivity|].
  assert (EO : forall i, SwProofs.inb i O2 = SwProofs.inb i O1) by (intro i; apply eq_true_iff_eq; rewrite !inb_spec; symmetry; apply HO).
  assert (EW : forall i, SwProofs.inb i O1 = false -> SwProofs.inb i W2 = SwProofs.inb i W1).
  { intros i Hi. apply eq_true_iff_eq. rewrite !inb_spec. symmetry. apply HW. intro Hc. apply inb_spec in Hc. congruence. }
  f_equal. f_equal; [f_equal|]; apply Line1DProofs.tab_ext; intros i _; rewrite EO; destruct (SwProofs.inb i O1) eqn:Ei; try reflexivity; rewrite (EW i Ei); reflexivity.
Qed.
Lemma same_rhs {T} (A : arith T) junk junkv lowest (d : dg2d (T := T)) bc1 bc2 W1 O1 W2 O2 NF Nfp Np K g CD f tide H Hx Hy q :
  dg_conform d NF Nfp Np K = true -> state_conform q Np K = true -> state_conform (H, Hx, Hy) Np K = true -> 0 < Np -> 0 < NF -> 0 < Nfp ->
  length (d_vmapM d) = NF * Nfp * K -> length (d_vmapP d) = NF * Nfp * K -> (forall v, In v (d_vmapM d) -> v < Np * K) -> (forall v, In v (d_vmapP d) -> v < Np * K) ->
  hfind bc1 3%Z = Some W1 -> hfind bc1 2%Z = Some O1 -> hfind bc2 3%Z = Some W2 -> hfind bc2 2%Z = Some O2 ->
  (forall i, In i W1 \/ In i O1 \/ In i W2 \/ In i O2 -> i < NF * Nfp * K) -> (forall i, In i O1 <-> In i O2) -> (forall i, ~ In i O1 -> (In i W1 <-> In i W2)) ->
  sw_rhs A junk junkv lowest (with_bc d bc1) NF Nfp Np K g CD f tide H Hx Hy q = sw_rhs A junk junkv lowest (with_bc d bc2) NF Nfp Np K g CD f tide H Hx Hy q.
Proof.
  intros HC HQ HH HNp HNF HNfp LM LP BM BP F1 F2 F3 F4 HB HO HW. destruct q as [[h hu] hv]. unfold sw_rhs.
  change (dg_conform (with_bc d bc1) NF Nfp Np K) with (dg_conform d NF Nfp Np K). change (dg_conform (with_bc d bc2) NF Nfp Np K) with (dg_conform d NF Nfp Np K).
  rewrite HC, HQ, HH. cbn [require andb]. change (d_bc (with_bc d bc1)) with bc1. rewrite F1, F2.
  change (d_bc (with_bc d bc2)) with bc2. rewrite F3, F4.
  set (nf := NF * Nfp * K) in *. 
  assert (C0 : forall m, conform m (NF * Nfp) K = true -> fullToVector m (repeat (fofn A 0) nf) false = Ok (tab nf (fun i => ment m (i mod (NF * Nfp)) (i / (NF * Nfp))))).
  { intros m Hm. apply conform_ok in Hm as (M1 & M2). apply full_tab; auto; [nia|apply repeat_length]. }
  pose proof HC as HC'. unfold dg_conform in HC'. rewrite !andb_true_iff in HC'. destruct HC' as (((((((((_ & _) & _) & _) & Cx) & Cy) & _) & _) & _) & _).
  change (d_nx (with_bc d bc1)) with (d_nx d). change (d_ny (with_bc d bc1)) with (d_ny d). change (d_nx (with_bc d bc2)) with (d_nx d). change (d_ny (with_bc d bc2)) with (d_ny d).
  rewrite (C0 _ Cx), (C0 _ Cy). cbn [bind]. unfold state_conform in HQ, HH. rewrite !andb_true_iff in HQ, HH. destruct HQ as ((Q1 & Q2) & Q3). destruct HH as ((Q4 & _) & _).
  change (traces junkv (with_bc d bc1) Np K nf) with (traces junkv d Np K nf). change (traces junkv (with_bc d bc2) Np K nf) with (traces junkv d Np K nf).
  rewrite (traces_ok junkv d Np K nf h), (traces_ok junkv d Np K nf hu), (traces_ok junkv d Np K nf hv), (traces_ok junkv d Np K nf H) by assumption. cbn [bind].
  match goal with |- context [each (wall_step A true (tab nf ?nx) (tab nf ?ny) (tab nf ?hM) (tab nf ?huM) (tab nf ?hvM)) W1 (tab nf ?hP, tab nf ?huP, tab nf ?hvP)] =>
    destruct (same_far A nf nx ny hM huM hvM (fun i => volv Np H (vM d i)) tide hP huP hvP W1 O1 W2 O2 HB HO HW) as (s1 & s2 & s & E1 & E2 & E3 & E4) end.
  rewrite E1, E2. cbn [bind]. destruct s1 as [[? ?] ?], s2 as [[? ?] ?]. rewrite E3, E4. reflexivity.
Qed.

Local Open Scope R_scope.
(* ---- the sponge ---- *)
Lemma rhypot_distance p q : rhypot (fst p - fst q) (snd p - snd q) = distance p q.
Proof. unfold rhypot, distance. f_equal. ring. Qed.
Section Sponge.
Variable G : R -> R.
Local Notation E := (exact G).
Variables (vmap : list nat) (x y : list R) (Q : nat -> point).      (* Q o: the point of face node o *)
Lemma closer_ok p rad l : (forall o, In o l -> exists v, getn vmap o = Ok v /\ getn x v = Ok (fst (Q o)) /\ getn y v = Ok (snd (Q o))) -> forall b,
  exists b', each (closer E rhypot vmap x y (fst p) (snd p) rad) l b = Ok b' /\ b' <= b /\
    (b' = b \/ exists o, In o l /\ b' = distance p (Q o) /\ distance p (Q o) < rad) /\ forall o, In o l -> distance p (Q o) < rad -> b' <= distance p (Q o).
Proof.
  intro Hl. induction l as [|o l IH]; intro b; cbn [each].
  - exists b. split; [reflexivity|]. split; [lra|]. split; [now left|intros o []].
  - destruct (Hl o (or_introl eq_refl)) as (v & E1 & E2 & E3). unfold closer at 1. rewrite E1. cbn [bind]. rewrite E2. cbn [bind]. rewrite E3. cbn [bind].
    cbn [exact fsub flt]. rewrite rhypot_distance. set (D := distance p (Q o)).
    set (b1 := if Rltb D rad && Rltb D b then D else b).
    assert (Hb1 : b1 <= b /\ (b1 = b \/ b1 = D /\ D < rad) /\ (D < rad -> b1 <= D)).
    { unfold b1, Rltb. destruct (Rlt_dec D rad), (Rlt_dec D b); cbn [andb]; repeat split; lra. }
    destruct Hb1 as (H1 & H2 & H3). destruct (IH (fun o' Ho => Hl o' (or_intror Ho)) b1) as (b' & Eb & B1 & B2 & B3). exists b'. split; [exact Eb|]. split; [lra|]. split.
    + destruct B2 as [-> | (o' & Ho & E' & Hlt)].
      * destruct H2 as [-> | (-> & Hlt)]; [now left|]. right. exists o. split; [now left|]. split; [reflexivity|exact Hlt].
      * right. exists o'. split; [now right|]. split; assumption.
    + intros o' [<-|Ho] Hd; [fold D in Hd |- *; specialize (H3 Hd); lra|]. apply B3; assumption.
Qed.

Lemma sponge_all_ok Np K (X Y C : mat R) mapO strength rad : rad <= 10 ^ 12 -> mrows X = Np -> mcols X = K -> mrows Y = Np -> mcols Y = K -> mrows C = Np -> mcols C = K ->
  (forall o, In o mapO -> exists v, getn vmap o = Ok v /\ getn x v = Ok (fst (Q o)) /\ getn y v = Ok (snd (Q o))) ->
  exists C', for_ K (fun k => for_ Np (fun n => sponge_node E rhypot vmap mapO X Y x y strength rad k n)) C = Ok C' /\ mrows C' = Np /\ mcols C' = K /\
    forall n k, (n < Np)%nat -> (k < K)%nat -> sponge_value (fun q => exists o, In o mapO /\ q = Q o) strength rad (ment C n k) (node_at X Y n k) (ment C' n k).
Proof.
  intros Hrad X1 X2 Y1 Y2 C1 C2 Hl. set (good := fun n k (c : R) => sponge_value (fun q => exists o, In o mapO /\ q = Q o) strength rad (ment C n k) (node_at X Y n k) c).
  assert (Hnode : forall k n C0, (k < K)%nat -> (n < Np)%nat -> mrows C0 = Np -> mcols C0 = K -> ment C0 n k = ment C n k ->
    exists C1, sponge_node E rhypot vmap mapO X Y x y strength rad k n C0 = Ok C1 /\ mrows C1 = Np /\ mcols C1 = K /\ good n k (ment C1 n k) /\ forall a b, (a <> n \/ b <> k) -> ment C1 a b = ment C0 a b).
  { intros k n C0 Hk Hn D1 D2 E0. unfold sponge_node. rewrite (mget_ok X) by lia. rewrite (mget_ok Y) by lia. cbn [bind].
    destruct (closer_ok (node_at X Y n k) rad mapO Hl (far E)) as (b & Eb & B1 & B2 & B3). cbn [node_at fst snd] in Eb. rewrite Eb. cbn [bind].
    assert (Ef : far E = 10 ^ 12) by (rewrite pow_IZR; reflexivity). cbn [exact flt]. unfold Rltb. destruct (Rlt_dec b (far E)) as [Hlt|Hge].
    - unfold mset. rewrite inb_true by lia. eexists. split; [reflexivity|]. cbn [mrows mcols ment]. split; [exact D1|]. split; [exact D2|]. rewrite !Nat.eqb_refl. cbn [andb]. split.
      + destruct B2 as [-> | (o & Ho & -> & Hd)]; [lra|]. left. exists (Q o). split; [exists o; auto|]. split; [exact Hd|]. split.
        * intros q' (o' & Ho' & ->). destruct (Rlt_dec (distance (node_at X Y n k) (Q o')) rad) as [Hd'|Hd']; [apply B3; assumption|lra].
        * reflexivity.
      + intros a b' Hab. destruct (Nat.eqb_spec a n), (Nat.eqb_spec b' k); cbn [andb]; try reflexivity. destruct Hab; congruence.
    - exists C0. split; [reflexivity|]. split; [exact D1|]. split; [exact D2|]. split; [|reflexivity]. right. split; [|exact E0].
      intros q (o & Ho & ->). destruct (Rlt_dec (distance (node_at X Y n k) (Q o)) rad) as [Hd|Hd]; [|lra]. specialize (B3 o Ho Hd). lra. }
  destruct (for_inv (fun k (C0 : mat R) => mrows C0 = Np /\ mcols C0 = K /\ (forall n k', (n < Np)%nat -> (k' < k)%nat -> good n k' (ment C0 n k')) /\ forall n k', (k <= k')%nat -> ment C0 n k' = ment C n k')
     K (fun k => for_ Np (fun n => sponge_node E rhypot vmap mapO X Y x y strength rad k n)) C) as (C' & Ec & D1 & D2 & D3 & _).
  - split; [exact C1|]. split; [exact C2|]. split; [intros; lia|reflexivity].
  - intros k C0 Hk (D1 & D2 & D3 & D4).
    destruct (for_inv (fun n (C0 : mat R) => mrows C0 = Np /\ mcols C0 = K /\ (forall n' k', (n' < Np)%nat -> (k' < k \/ k' = k /\ n' < n)%nat -> good n' k' (ment C0 n' k')) /\ forall n' k', (k < k' \/ k' = k /\ n <= n')%nat -> ment C0 n' k' = ment C n' k')
      Np (fun n => sponge_node E rhypot vmap mapO X Y x y strength rad k n) C0) as (C' & Ec & F1 & F2 & F3 & F4).
    + split; [exact D1|]. split; [exact D2|]. split; [intros n' k' Hn' [Hk'|(_ & Hc)]; [apply D3; assumption|lia]|]. intros n' k' Hc. apply D4. lia.
    + intros n C3 Hn (F1 & F2 & F3 & F4). destruct (Hnode k n C3 Hk Hn F1 F2 (F4 n k ltac:(lia))) as (C4 & E4 & G1 & G2 & G3 & G4). exists C4. split; [exact E4|]. split; [exact G1|]. split; [exact G2|]. split.
      * intros n' k' Hn' Hc. destruct (Nat.eq_dec n' n) as [->|Hne]; [destruct (Nat.eq_dec k' k) as [->|Hke]; [exact G3|]|]; rewrite G4 by lia; apply F3; lia.
      * intros n' k' Hc. rewrite G4 by lia. apply F4. lia.
    + exists C'. split; [exact Ec|]. split; [exact F1|]. split; [exact F2|]. split; [intros n k' Hn Hk'; apply F3; lia|]. intros n k' Hk'. apply F4. lia.
  - exists C'. split; [exact Ec|]. split; [exact D1|]. split; [exact D2|]. exact D3.
Qed.
End Sponge.

(* ---- on a grid ---- *)
Lemma modes_count N : (2 * length (modes N) = (N + 1) * (N + 2))%nat.
Proof.
  assert (H : forall b a, (a + b = S N)%nat -> (2 * length (flat_map (fun i => map (fun j => (i, j)) (seq 0 (S (N - i)))) (seq a b)) = b * (b + 1))%nat).
  { induction b as [|b IH]; intros a Hab; [reflexivity|]. change (seq a (S b)) with (a :: seq (S a) b). cbn [flat_map]. rewrite app_length, map_length, seq_length, Nat.mul_add_distr_l, IH by lia. replace (N - a)%nat with b by lia. lia. }
  unfold modes. rewrite H by lia. lia.
Qed.
Section Grid.
Variables (G : R -> R) (solve : mat R -> mat R -> mat R -> outcome (mat R)) (inverse : mat R -> mat R -> outcome (mat R))
  (junk : nat -> nat -> R) (eps : R) (eig : nat -> (nat -> nat -> R) -> list R * (nat -> nat -> R)) (tol : R)
  (N K : nat) (Vert : list R) (EToV : list nat) (el : element (T := R)).
Hypothesis HB : built G solve inverse junk eps eig tol N K Vert EToV el.
Variables (E2E E2F : list nat).
Hypothesis HM : tri_mesh K Vert EToV E2E E2F.
Local Notation P := (corner Vert EToV).
Hypothesis HA : forall k, (k < K)%nat -> 0 < area (P k 0) (P k 1) (P k 2).
Local Notation Fm := (mask_table N (e_masks el)).
Local Notation Np := (length (e_r el)).
Hypothesis HS : forall n n', (n <= N)%nat -> (n' <= N)%nat -> n <> n' -> 2 * tol <= Rabs (nth (ment Fm n 0) (e_r el) 0 - nth (ment Fm n' 0) (e_r el) 0).
Variables (sort : (nat -> nat -> bool) -> list nat -> list nat) (junk1 : nat -> R) (junkn : nat -> nat) (bcType : list Z) (m : maps).
Local Notation run bc m := (buildMaps (exact G) rhypot sort junk1 junkn tol 3 (S N) Np K Fm (e_x el) (e_y el) E2E E2F EToV Vert bc [] = Ok m).
Hypothesis Hrun : run bcType m.
Hypothesis Hbc : (3 * K <= length bcType)%nat.
Local Notation d := (tables_of el m).
Local Notation fid := (face_id 3 (S N)).
Local Notation X := (node_at (e_x el) (e_y el)).
Local Notation fn := (fnode el).

Lemma run_hash : buildBCHash junkn 3 (S N) K bcType [] = Ok (m_bc m).
Proof.
  assert (HT : tables_ok 3 (S N) Np K Fm (e_x el) (e_y el) E2E E2F EToV Vert) by (eapply run_tables; eassumption).
  destruct (parts _ _ _ _ _ _ _ _ _ _ _ _ _ _ _ _ _ _ _ _ HT Hrun) as (_ & _ & Eh & _). exact Eh.
Qed.
Lemma fresh_maps bc' : (3 * K <= length bc')%nat -> exists m', run bc' m' /\ buildBCHash junkn 3 (S N) K bc' [] = Ok (m_bc m') /\ tables_of el m' = with_bc d (m_bc m').
Proof.
  intro Hb. destruct (C39_one_call junkn 3 (S N) K bc' [] Hb) as (bc & Eb & _). pose proof run_hash as Erh. pose proof Hrun as Hr. unfold buildMaps in Hr |- *.
  Ltac peel Hr := match type of Hr with bind ?x _ = _ => destruct x as [?| |]; [|discriminate Hr|discriminate Hr]; repeat match goal with q : (_ * _)%type |- _ => destruct q end; cbn [bind] in Hr |- * end.
  do 6 peel Hr. rewrite Erh in Hr. rewrite Eb. cbn [bind] in Hr |- *. do 3 peel Hr. injection Hr as Hr.
  eexists. split; [reflexivity|]. cbn [m_bc]. split; [reflexivity|]. rewrite <- Hr. reflexivity.
Qed.

Lemma call_at bc m0 m1 t : (3 * K <= length bc)%nat -> t <> 0%Z -> buildBCHash junkn 3 (S N) K bc m0 = Ok m1 ->
  exists l, (forall n f k, (n <= N)%nat -> (f < 3)%nat -> (k < K)%nat -> In (fid n f k) l <-> tag_of bc k f = t) /\ (forall w, In w l -> (w < 3 * S N * K)%nat) /\
    hfind m1 t = match hfind m0 t with Some old => Some (old ++ l) | None => match l with [] => None | _ => Some l end end.
Proof.
  intros Hb Ht E. destruct (C39_one_call junkn 3 (S N) K bc m0 Hb) as (m' & Eh' & Hl & _). rewrite E in Eh'. injection Eh' as <-.
  destruct (Hl t Ht) as (l & _ & Hin & Hf). exists l. split; [|split].
  - intros n f k Hn Hf' Hk. rewrite Hin. pose proof (fid_lt N K n f k Hn Hf' Hk) as HL.
    assert (Ef : (fid n f k / S N = 3 * k + f)%nat). { unfold face_id. symmetry. apply Nat.div_unique with n; lia. }
    rewrite Ef. unfold entry, tag_of. split.
    + intros (_ & He). apply nth_error_nth with (d := 0%Z) in He. exact He.
    + intros <-. split; [lia|]. apply nth_error_nth'. lia.
  - intros w Hw. apply Hin in Hw. lia.
  - destruct (hfind m0 t); rewrite Hf; [reflexivity|]. destruct l; reflexivity.
Qed.

Lemma retag_ok opn : exists bc' bc m', tag_open opn EToV K bcType = Ok bc' /\ length bc' = length bcType /\
  (forall k f, (k < K)%nat -> (f < 3)%nat -> tag_of bc' k f = if open_side opn EToV k f then 2%Z else tag_of bcType k f) /\
  retagged junkn opn EToV 3 (S N) K bcType d = Ok (with_bc d bc) /\ run bc' m' /\ tables_of el m' = with_bc d (m_bc m') /\
  (exists O, (forall n f k, (n <= N)%nat -> (f < 3)%nat -> (k < K)%nat -> In (fid n f k) O <-> tag_of bc' k f = 2%Z) /\ (forall w, In w O -> (w < 3 * S N * K)%nat) /\
     hfind bc 2%Z = match O with [] => None | _ => Some O end) /\
  forall O', hfind (m_bc m') 2%Z = Some O' -> forall W', hfind (m_bc m') 3%Z = Some W' ->
    exists O W, hfind bc 2%Z = Some O /\ hfind bc 3%Z = Some W /\ (forall i, In i W \/ In i O \/ In i W' \/ In i O' -> (i < 3 * S N * K)%nat) /\
      (forall i, In i O <-> In i O') /\ (forall i, ~ In i O -> (In i W <-> In i W')).
Proof.
  assert (HT : tables_ok 3 (S N) Np K Fm (e_x el) (e_y el) E2E E2F EToV Vert) by (eapply run_tables; eassumption).
  destruct (tb_e2v _ _ _ _ _ _ _ _ _ _ _ HT) as (LE & _).
  destruct (tag_open_ok opn EToV K bcType ltac:(lia) Hbc) as (bc' & Et & L & Htag & _). exists bc'.
  assert (Hb' : (3 * K <= length bc')%nat) by lia.
  destruct (C39_one_call junkn 3 (S N) K bc' (m_bc m) Hb') as (bc & Eb & _). destruct (fresh_maps bc' Hb') as (m' & Hr' & Eb' & Etab). exists bc, m'.
  split; [exact Et|]. split; [exact L|]. split; [exact Htag|]. split; [unfold retagged; rewrite Et; cbn [bind]; change (d_bc d) with (m_bc m); rewrite Eb; reflexivity|].
  split; [exact Hr'|]. split; [exact Etab|].
  destruct (call_at bcType [] (m_bc m) 2%Z Hbc ltac:(lia) run_hash) as (O1 & HO1 & BO1 & FO1). destruct (call_at bc' (m_bc m) bc 2%Z Hb' ltac:(lia) Eb) as (O2 & HO2 & BO2 & FO2).
  destruct (call_at bcType [] (m_bc m) 3%Z Hbc ltac:(lia) run_hash) as (W1 & HW1 & BW1 & FW1). destruct (call_at bc' (m_bc m) bc 3%Z Hb' ltac:(lia) Eb) as (W2 & HW2 & BW2 & FW2).
  destruct (call_at bc' [] (m_bc m') 2%Z Hb' ltac:(lia) Eb') as (O3 & HO3 & BO3 & FO3). destruct (call_at bc' [] (m_bc m') 3%Z Hb' ltac:(lia) Eb') as (W3 & HW3 & BW3 & FW3).
  cbn [hfind] in FO1, FW1, FO3, FW3.
  assert (Hmono : forall k f, (k < K)%nat -> (f < 3)%nat -> tag_of bcType k f = 2%Z -> tag_of bc' k f = 2%Z) by (intros k f Hk Hf Ht; rewrite Htag by assumption; destruct (open_side opn EToV k f); auto).
  assert (Hfind : forall (o1 o2 : list nat) (b0 b1 : option (list nat)), b0 = (match o1 with [] => None | _ => Some o1 end) -> b1 = (match b0 with Some old => Some (old ++ o2) | None => match o2 with [] => None | _ => Some o2 end end) ->
     b1 = match o1 ++ o2 with [] => None | _ => Some (o1 ++ o2) end) by (intros [|a o1] o2 b0 b1 -> ->; reflexivity).
  pose proof (Hfind O1 O2 _ _ FO1 FO2) as FO. pose proof (Hfind W1 W2 _ _ FW1 FW2) as FW.
  assert (HO : forall n f k, (n <= N)%nat -> (f < 3)%nat -> (k < K)%nat -> In (fid n f k) (O1 ++ O2) <-> tag_of bc' k f = 2%Z).
  { intros n f k Hn Hf Hk. rewrite in_app_iff, HO1, HO2 by assumption. pose proof (Hmono k f Hk Hf). tauto. }
  assert (BO : forall w, In w (O1 ++ O2) -> (w < 3 * S N * K)%nat) by (intros w Hw; apply in_app_iff in Hw as [Hw|Hw]; auto).
  split; [exists (O1 ++ O2); split; [exact HO|]; split; [exact BO|exact FO]|].
  intros O' HO' W' HW'. rewrite FO3 in HO'. rewrite FW3 in HW'.
  assert (O' = O3) by (destruct O3; congruence). assert (W' = W3) by (destruct W3; congruence). subst O' W'.
  assert (EO : forall i, In i (O1 ++ O2) <-> In i O3).
  { intro i. split; intro Hi.
    - destruct (fid_split N K i (BO i Hi)) as (n & f & k & Hn & Hf & Hk & ->). apply HO3; try assumption. apply (HO n f k); assumption.
    - destruct (fid_split N K i (BO3 i Hi)) as (n & f & k & Hn & Hf & Hk & ->). apply HO; try assumption. apply (HO3 n f k); assumption. }
  assert (Hne : forall l l3 : list nat, (exists i, In i l3) -> (forall i, In i l3 -> In i l) -> (match l with [] => None | _ => Some l end) = Some l) by (intros [|a l] l3 (i & Hi) Hsub; [destruct (Hsub i Hi)|reflexivity]).
  exists (O1 ++ O2), (W1 ++ W2). split; [|split; [|split; [|split]]].
  - rewrite FO. apply (Hne _ O3); [destruct O3 as [|a O3]; [discriminate HO'|exists a; now left]|]. intros i Hi. apply EO, Hi.
  - rewrite FW. apply (Hne _ W3); [destruct W3 as [|a W3]; [discriminate HW'|exists a; now left]|]. intros i Hi. apply in_app_iff. right.
    destruct (fid_split N K i (BW3 i Hi)) as (n & f & k & Hn & Hf & Hk & ->). apply HW2; try assumption. apply (HW3 n f k); assumption.
  - intros i [Hi|[Hi|[Hi|Hi]]]; auto. apply in_app_iff in Hi as [Hi|Hi]; auto.
  - exact EO.
  - intros i Hno. split; intro Hi.
    + assert (Hlt : (i < 3 * S N * K)%nat) by (apply in_app_iff in Hi as [Hi|Hi]; auto). destruct (fid_split N K i Hlt) as (n & f & k & Hn & Hf & Hk & ->). apply HW3; try assumption.
      rewrite HO in Hno by assumption. apply in_app_iff in Hi as [Hi|Hi]; [|apply (HW2 n f k); assumption].
      apply HW1 in Hi; try assumption. rewrite (Htag k f Hk Hf) in Hno |- *. destruct (open_side opn EToV k f); [congruence|exact Hi].
    + destruct (fid_split N K i (BW3 i Hi)) as (n & f & k & Hn & Hf & Hk & ->). apply in_app_iff. right. apply HW2; try assumption. apply (HW3 n f k); assumption.
Qed.

Lemma sponge_ok jv opn strength rad C : (N <= 4)%nat -> rad <= 10 ^ 12 -> mrows C = Np -> mcols C = K -> exists d' bc', retagged junkn opn EToV 3 (S N) K bcType d = Ok d' /\ tag_open opn EToV K bcType = Ok bc' /\
  ((exists k f, (k < K)%nat /\ (f < 3)%nat /\ tag_of bc' k f = 2%Z) ->
   exists C', sponge_coeff (exact G) rhypot jv d' 3 (S N) Np K (e_x el) (e_y el) strength rad C = Ok C' /\ mrows C' = Np /\ mcols C' = K /\
     forall n k, (n < Np)%nat -> (k < K)%nat -> sponge_value (on_tagged 2 Np K Vert EToV (e_x el) (e_y el) bc') strength rad (ment C n k) (X n k) (ment C' n k)).
Proof.
  intros HN Hrad C1 C2. destruct (retag_ok opn) as (bc' & bc & m' & Et & L & Htag & Er & _ & _ & (O & HO & BO & FO) & _). exists (with_bc d bc), bc'. split; [exact Er|]. split; [exact Et|].
  intros (k0 & f0 & Hk0 & Hf0 & T0). unfold sponge_coeff. cbn [with_bc d_bc]. rewrite FO.
  assert (Hne : In (fid 0 f0 k0) O) by (apply HO; [lia|assumption|assumption|exact T0]).
  replace (match O with [] => None | _ :: _ => Some O end) with (Some O) by (destruct O; [destruct Hne|reflexivity]).
  destruct (C36_affine_grid _ _ _ _ _ _ _ _ _ _ _ _ HB) as ((X1 & X2) & (Y1 & Y2) & _).
  pose proof (modes_count N) as HNp. destruct (element_ok _ _ _ _ _ _ _ _ _ _ _ _ HB) as [lr]. rewrite <- lr in HNp. clear lr.
  assert (Hsize : (Np * K <= 3 * S N * K)%nat) by (apply Nat.mul_le_mono_r; nia).
  destruct (to1d_spec (e_x el) false (vfresh jv (3 * S N * K))) as (xv & Ex & Lx & Hx & _); [rewrite vfresh_len; lia|].
  destruct (to1d_spec (e_y el) false (vfresh jv (3 * S N * K))) as (yv & Ey & Ly & Hy & _); [rewrite vfresh_len; lia|].
  unfold fullToVector. rewrite Ex. cbn [bind]. rewrite Ey. cbn [bind d_vmapM tables_of].
  pose (Q := fun o => X (nth o (m_vmapM m) 0%nat mod Np) (nth o (m_vmapM m) 0%nat / Np)).
  assert (Hat : forall n f k, (n <= N)%nat -> (f < 3)%nat -> (k < K)%nat -> nth (fid n f k) (m_vmapM m) 0%nat = volume_id Np (fn f n) k /\ Q (fid n f k) = X (fn f n) k /\ (fn f n < Np)%nat).
  { intros n f k Hn Hf Hk. pose proof (fn_lt _ _ _ _ _ _ _ _ _ _ _ _ HB f n Hf Hn) as Hfn. 
    destruct (maps_at _ _ _ _ _ _ _ _ _ _ _ _ HB _ _ HM HA HS _ _ _ _ _ _ Hrun n f k Hn Hf Hk) as (Ev & _). unfold vM in Ev. cbn [tables_of d_vmapM] in Ev. split; [exact Ev|]. split; [|exact Hfn].
    unfold Q. rewrite Ev. unfold volume_id. rewrite Nat.add_comm, Nat.mul_comm, Nat.add_comm, Nat.mod_add, Nat.div_add, Nat.mod_small, Nat.div_small by lia. reflexivity. }
  assert (Hlen : length (m_vmapM m) = (3 * S N * K)%nat).
  { destruct (maps_bounds _ _ _ _ _ _ _ _ _ _ _ _ HB _ _ HM HA HS _ _ _ _ _ _ Hrun) as (LM & _). exact LM. }
  destruct (sponge_all_ok G (m_vmapM m) xv yv Q Np K (e_x el) (e_y el) C O strength rad Hrad X1 X2 Y1 Y2 C1 C2) as (C' & Ec & D1 & D2 & D3).
  { intros o Ho. destruct (fid_split N K o (BO o Ho)) as (n & f & k & Hn & Hf & Hk & ->). destruct (Hat n f k Hn Hf Hk) as (Ev & EQ & Hfn).
    exists (volume_id Np (fn f n) k). rewrite EQ. cbn [node_at fst snd]. split; [|split].
    - apply BlitzProofs.getn_ok. rewrite <- Ev. apply nth_error_nth'. rewrite Hlen. apply BO, Ho.
    - apply BlitzProofs.getn_ok. rewrite <- (Hx (fn f n) k) by lia. unfold volume_id, flat_index. rewrite X1. f_equal. lia.
    - apply BlitzProofs.getn_ok. rewrite <- (Hy (fn f n) k) by lia. unfold volume_id, flat_index. rewrite Y1. f_equal. lia. }
  exists C'. split; [exact Ec|]. split; [exact D1|]. split; [exact D2|]. intros n k Hn Hk. specialize (D3 n k Hn Hk).
  assert (Hset : forall q, (exists o, In o O /\ q = Q o) <-> on_tagged 2 Np K Vert EToV (e_x el) (e_y el) bc' q).
  { intro q. split.
    - intros (o & Ho & ->). destruct (fid_split N K o (BO o Ho)) as (n' & f & k' & Hn' & Hf & Hk' & ->). destruct (Hat n' f k' Hn' Hf Hk') as (_ & EQ & Hfn).
      destruct (side_pt _ _ _ _ _ _ _ _ _ _ _ _ HB f n' Hf Hn') as (t & Hside). exists k', f, (fn f n'), t. rewrite EQ. repeat (split; [assumption|]).
      split; [apply (HO n' f k'); assumption|]. split; [reflexivity|]. apply Hside, Hk'.
    - intros (k' & f & i & t & Hk' & Hf & Hi & Ht & Eq1 & Eq2). destruct (side_node _ _ _ _ _ _ _ _ _ _ _ _ HB HA f k' i t Hf Hk' Hi) as (j & Hj & ->); [rewrite <- Eq1; exact Eq2|].
      exists (fid j f k'). destruct (Hat j f k' Hj Hf Hk') as (_ & EQ & _). split; [apply HO; assumption|]. rewrite EQ. exact Eq1. }
  destruct D3 as [(q & Hq & Hd & Hmin & Hc)|(Hall & Hc)]; [left; exists q|right].
  - split; [apply Hset, Hq|]. split; [exact Hd|]. split; [|exact Hc]. intros q' Hq'. apply Hmin, Hset, Hq'.
  - split; [|exact Hc]. intros q Hq. apply Hall, Hset, Hq.
Qed.
Lemma sponge_none jv opn strength rad C : exists d' bc', retagged junkn opn EToV 3 (S N) K bcType d = Ok d' /\ tag_open opn EToV K bcType = Ok bc' /\
  ((forall k f, (k < K)%nat -> (f < 3)%nat -> tag_of bc' k f <> 2%Z) -> sponge_coeff (exact G) rhypot jv d' 3 (S N) Np K (e_x el) (e_y el) strength rad C = Throw) /\
  ((exists k f, (k < K)%nat /\ (f < 3)%nat /\ tag_of bc' k f = 2%Z) -> (5 <= N)%nat -> sponge_coeff (exact G) rhypot jv d' 3 (S N) Np K (e_x el) (e_y el) strength rad C = UB).
Proof.
  destruct (retag_ok opn) as (bc' & bc & m' & Et & L & Htag & Er & _ & _ & (O & HO & BO & FO) & _). exists (with_bc d bc), bc'. split; [exact Er|]. split; [exact Et|].
  unfold sponge_coeff. cbn [with_bc d_bc]. rewrite FO. split.
  - intro Hno. destruct O as [|o O]; [reflexivity|]. exfalso. destruct (fid_split N K o (BO o (or_introl eq_refl))) as (n & f & k & Hn & Hf & Hk & E).
    apply (Hno k f Hk Hf). apply (HO n f k Hn Hf Hk). left. exact E.
  - intros (k & f & Hk & Hf & T) HN. assert (Hne : In (fid 0 f k) O) by (apply HO; [lia|assumption|assumption|exact T]).
    replace (match O with [] => None | _ :: _ => Some O end) with (Some O) by (destruct O; [destruct Hne|reflexivity]).
    destruct (C36_affine_grid _ _ _ _ _ _ _ _ _ _ _ _ HB) as ((X1 & X2) & _). pose proof (modes_count N) as HNp. destruct (element_ok _ _ _ _ _ _ _ _ _ _ _ _ HB) as [lr]. rewrite <- lr in HNp. clear lr.
    unfold fullToVector at 1. rewrite reshape_short; [reflexivity|]. rewrite vfresh_len, X1, X2. apply Nat.mul_lt_mono_pos_r; [lia|]. nia.
Qed.

(* ---- the bed slopes ---- *)
Lemma slopes_ok H k p : (k < K)%nat -> interpolant N Np (e_x el) (e_y el) H k p -> forall i, (i < Np)%nat ->
  ment (fst (bed_slopes (exact G) d Np K H)) i k = at_point (ddr p) (X i k) /\ ment (snd (bed_slopes (exact G) d Np K H)) i k = at_point (dds p) (X i k).
Proof.
  intros Hk (Dp & Hp) i Hi. assert (Hl : PoissonProofs.local N el k p (fun j => ment H j k)) by (split; [exact Dp|intros j Hj; symmetry; apply Hp, Hj]).
  destruct (PoissonProofs.grad_at _ _ _ _ _ _ _ _ _ _ _ _ HB _ _ HA _ _ _ _ _ _ Hrun k p _ i Hk Hl Hi) as (E1 & E2). rewrite <- E1, <- E2. clear E1 E2.
  unfold PoissonProofs.Dx_, PoissonProofs.Dy_. rewrite !PoissonProofs.act_comb. cbn [tables_of d_rx d_sx d_ry d_sy d_Dr d_Ds].
  assert (H0 : (0 < Np)%nat) by lia.
  destruct (metric_k _ _ _ _ _ _ _ _ _ _ _ _ HB k Hk i Hi) as (M1 & M2 & M3 & M4). destruct (metric_k _ _ _ _ _ _ _ _ _ _ _ _ HB k Hk 0%nat H0) as (M1' & M2' & M3' & M4').
  rewrite M1', M2', M3', M4', <- M1, <- M2, <- M3, <- M4. unfold bed_slopes, scaled_product, mzip. cbn [fst snd ment exact fadd fmul tables_of d_rx d_sx d_ry d_sy d_Dr d_Ds].
  rewrite !Nodes1DExactProofs.fsum_exact. split; reflexivity.
Qed.
End Grid.
