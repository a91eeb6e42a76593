(* PeriodicProps.v - theorems about swhelpers/maps.py, in exact arithmetic (C93). *)
From Coq Require Import ZArith List Lia Bool Arith.
From Verif Require Import Base Loops Num Line1DModel PeriodicModel PeriodicSpec PeriodicProofs JacobiExactProofs.
From Coq Require Import Reals Lra.
Import ListNotations.
Local Open Scope nat_scope.

(* makeMapsPeriodic as the drivers call it: vmapO are nodes, and the last two arrays their coordinates *)
Definition periodic (G : R -> R) (vmapM vmapP vmapO : list nat) (x y : list R) : outcome (list nat * list nat) :=
  make_periodic (exact G) (1 / 1000)%R vmapM vmapP vmapO x y (map (fun v => nth v x 0%R) vmapO) (map (fun v => nth v y 0%R) vmapO).
Definition nodes_of (vmapO : list nat) (x y : list R) : Prop := forall v, In v vmapO -> v < length x /\ v < length y.

(* C93: if no node is listed twice, every redirected entry is a node opposite of its own, and no other entry changes. *)
Theorem C93_only_partners G vmapM vmapP vmapO x y M P : nodes_of vmapO x y -> NoDup vmapO ->
  periodic G vmapM vmapP vmapO x y = Ok (M, P) -> M = vmapM /\ redirected vmapM vmapP vmapO x y P.
Proof. intros Hin Hn E. exact (run_sound G vmapM vmapP vmapO x y Hin M P Hn E). Qed.

(* C93: if every node has exactly one opposite node the function succeeds; the map it makes is mutual. *)
Theorem C93_pairs G vmapM vmapP vmapO x y : nodes_of vmapO x y -> NoDup vmapO -> length vmapP = length vmapM ->
  (forall a, In a vmapO -> exists! b, partner vmapO x y a b) ->
  exists P, periodic G vmapM vmapP vmapO x y = Ok (vmapM, P) /\ redirected vmapM vmapP vmapO x y P /\
  forall i j, i < length vmapM -> j < length vmapM -> In (nth i vmapM 0) vmapO -> nth j vmapM 0 = nth i P 0 -> nth j P 0 = nth i vmapM 0.
Proof.
  intros Hin Hn HL Hu. destruct (run_pairs G vmapM vmapP vmapO x y Hin Hn HL Hu) as (P & E & HP). exists P. split; [exact E|]. split; [exact HP|].
  intros i j Hi Hj Ha Ej. destruct HP as (LP & HP). pose proof (proj1 (HP i ltac:(lia)) (conj Hi Ha)) as H1. assert (Hb : In (nth j vmapM 0) vmapO) by (rewrite Ej; apply H1).
  pose proof (proj1 (HP j ltac:(lia)) (conj Hj Hb)) as H2. destruct (Hu _ Hb) as (c & _ & Hc). transitivity c; [symmetry; apply Hc; exact H2|]. apply Hc. rewrite Ej. apply partner_sym; assumption.
Qed.

(* C93: a node with no opposite node raises (IndexError), whatever else the list holds. *)
Theorem C93_no_partner_throws G vmapM vmapP vmapO x y a : nodes_of vmapO x y -> In a vmapO -> (forall b, ~ partner vmapO x y a b) ->
  periodic G vmapM vmapP vmapO x y = Throw.
Proof. intros Hin Ha Hno. exact (no_partner_throws G vmapM vmapP vmapO x y Hin a Ha Hno). Qed.

(* C93: which partner is chosen when there are several, and when that raises: whenever the function succeeds, the entry of the
   j-th node is the one chosen among its partners, the lists before and after being the partners of its neighbours in the list. *)
Theorem C93_choice G vmapM vmapP vmapO x y M P j i before l after : nodes_of vmapO x y -> NoDup vmapO ->
  periodic G vmapM vmapP vmapO x y = Ok (M, P) -> j < length vmapO -> i < length vmapM -> nth i vmapM 0 = nth j vmapO 0 ->
  picks (partner vmapO x y (nth (j - 1) vmapO 0)) vmapO before -> picks (partner vmapO x y (nth j vmapO 0)) vmapO l -> picks (partner vmapO x y (nth (S j) vmapO 0)) vmapO after ->
  chosen (length vmapO) j before l after (nth i P 0).
Proof.
  intros Hin Hn E Hj Hi Ei H1 H2 H3. apply (cand_picks G) in H1, H2, H3. subst. apply (run_choice G vmapM vmapP vmapO x y Hin M P); auto.
Qed.
(* C93: conversely it succeeds if every node has a partner and the two ends of the list raise no question. *)
Theorem C93_succeeds G vmapM vmapP vmapO x y : nodes_of vmapO x y -> length vmapP = length vmapM -> 2 <= length vmapO ->
  (forall a, In a vmapO -> exists b, partner vmapO x y a b) ->
  (forall a b b', In a [nth 0 vmapO 0; nth 1 vmapO 0; nth (length vmapO - 2) vmapO 0; nth (length vmapO - 1) vmapO 0] -> partner vmapO x y a b -> partner vmapO x y a b' -> b = b') -> NoDup vmapO ->
  exists P, periodic G vmapM vmapP vmapO x y = Ok (vmapM, P).
Proof. intros Hin HL H2 He Hu Hn. exact (run_succeeds G vmapM vmapP vmapO x y Hin HL H2 He Hu Hn). Qed.

(* Where two sides meet, two nodes (one of each element) lie in the same place, and so do the two opposite of them. Listed one
   after the other, and neither first nor last, both are sent to the same one of the two: the map is not mutual. *)
Theorem C93_shared_corner_refuted G vmapM vmapP vmapO x y M P j a a' : nodes_of vmapO x y -> NoDup vmapO ->
  periodic G vmapM vmapP vmapO x y = Ok (M, P) ->
  0 < j -> S (S j) < length vmapO -> a = nth j vmapO 0 -> a' = nth (S j) vmapO 0 ->
  nth a x 0%R = nth a' x 0%R -> nth a y 0%R = nth a' y 0%R ->
  (exists b b', b <> b' /\ partner vmapO x y a b /\ partner vmapO x y a b') ->
  forall i i', i < length vmapM -> i' < length vmapM -> nth i vmapM 0 = a -> nth i' vmapM 0 = a' -> nth i P 0 = nth i' P 0.
Proof.
  intros Hin Hn E Hj Hj2 -> -> Ex Ey (b & b' & Hbb & Hb & Hb'). apply (shared G vmapM vmapP vmapO x y Hin M P j Hn E Hj Hj2).
  - apply (cand_ok G) in Hb, Hb'. destruct (cand G vmapO x y (nth j vmapO 0)) as [|c [|c' l]]; [destruct Hb| |cbn; lia]. exfalso. destruct Hb as [|[]], Hb' as [|[]]. congruence.
  - apply same_place; congruence.
Qed.

(* whole coordinates, for the examples *)
Definition face_Z (X Y : list Z) (a b : nat) : bool := ((nth b Y 0 =? nth a Y 0) && (1000 <? Z.abs (nth b X 0 - nth a X 0)))%Z.
Lemma run_Z G vmapM vmapP vmapO X Y : (forall v, In v vmapO -> v < length X /\ v < length Y) ->
  periodic G vmapM vmapP vmapO (map IZR X) (map IZR Y) =
  let all := map (fun a => filter (face_Z X Y a) vmapO) vmapO in
  bind (each_entry (fun i => bind (at_ all i) (choose all i)) (seq 0 (length vmapO))) (fun partners => bind (redirect (lookup (keys_of vmapO) partners) 0 vmapM vmapP) (fun P => Ok (vmapM, P))).
Proof.
  intro Hin. unfold periodic. rewrite run_eq by (intros v Hv; rewrite !map_length; now apply Hin). cbv zeta.
  assert (E : map (cand G vmapO (map IZR X) (map IZR Y)) vmapO = map (fun a => filter (face_Z X Y a) vmapO) vmapO); [|now rewrite E].
  apply map_ext. intro a. unfold cand. apply filter_ext. intro b. apply eq_true_iff_eq. rewrite facing_ok.
  assert (NZ : forall v l, nth v (map IZR l) 0%R = IZR (nth v l 0%Z)) by (intros; apply (map_nth IZR)). rewrite !NZ. unfold face_Z. rewrite andb_true_iff, Z.eqb_eq, Z.ltb_lt, <- !minus_IZR, <- !abs_IZR. split; intros (H1 & H2); split.
  - destruct (Z.eq_dec (nth b Y 0%Z) (nth a Y 0%Z)) as [|Hne]; [assumption|exfalso]. assert (H : (1 <= Z.abs (nth b Y 0 - nth a Y 0))%Z) by lia. apply IZR_le in H. lra.
  - apply lt_IZR. exact H2.
  - rewrite H1, Z.sub_diag. cbn. lra.
  - apply IZR_lt in H2. exact H2.
Qed.

(* Two sides with two nodes each on either line; 1 and 2 lie in the same place, opposite of 5 and 6. Both are sent to 5. *)
Example C93_shared_corner_witness :
  let O := seq 0 8 in let x := map IZR [0; 0; 0; 0; 8000; 8000; 8000; 8000]%Z in let y := map IZR [0; 1; 1; 2; 0; 1; 1; 2]%Z in
  nodes_of O x y /\ NoDup O /\ periodic gwit O O O x y = Ok (O, [4; 5; 5; 7; 0; 1; 1; 3]).
Proof.
  intros O x y. assert (Hin : nodes_of O x y) by (intros v Hv; apply in_seq in Hv; cbn; lia). split; [exact Hin|]. split; [apply seq_NoDup|].
  unfold x, y. rewrite run_Z by (intros v Hv; apply in_seq in Hv; cbn; lia). vm_compute. reflexivity.
Qed.
(* One side on either line: the hypotheses of C93_pairs hold. *)
Example C93_pairs_witness :
  let O := [0; 2; 5; 4] in let x := map IZR [0; 7; 0; 7; 8000; 8000]%Z in let y := map IZR [0; 0; 1; 1; 1; 0]%Z in
  nodes_of O x y /\ NoDup O /\ (forall a, In a O -> exists! b, partner O x y a b) /\ periodic gwit [0; 1; 2; 3; 4; 5] [0; 3; 2; 1; 4; 5] O x y = Ok ([0; 1; 2; 3; 4; 5], [5; 3; 4; 1; 2; 0]).
Proof.
  intros O x y. assert (Hin : nodes_of O x y) by (intros v Hv; cbn in Hv; cbn; lia). split; [exact Hin|]. split; [unfold O; repeat constructor; cbn; lia|]. split.
  - intros a Ha. assert (Hc : forall a, In a O -> cand gwit O x y a = filter (face_Z [0; 7; 0; 7; 8000; 8000] [0; 0; 1; 1; 1; 0] a)%Z O).
    { intros c Hc. unfold cand. apply filter_ext. intro b. apply eq_true_iff_eq. rewrite facing_ok.
      assert (NZ : forall v l, nth v (map IZR l) 0%R = IZR (nth v l 0%Z)) by (intros; apply (map_nth IZR)). unfold x, y. rewrite !NZ. unfold face_Z. rewrite andb_true_iff, Z.eqb_eq, Z.ltb_lt, <- !minus_IZR, <- !abs_IZR. split; intros (H1 & H2); split.
      - match type of H1 with (IZR (Z.abs (?p - ?q)) < _)%R => destruct (Z.eq_dec p q) as [|Hne]; [assumption|exfalso]; assert (H : (1 <= Z.abs (p - q))%Z) by lia; apply IZR_le in H; lra end.
      - apply lt_IZR. exact H2.
      - rewrite H1, Z.sub_diag. cbn [Z.abs]. lra.
      - apply IZR_lt in H2. exact H2. }
    assert (One : exists b, cand gwit O x y a = [b]) by (rewrite (Hc a Ha); unfold O in Ha; cbn in Ha; destruct Ha as [<-|[<-|[<-|[<-|[]]]]]; vm_compute; eexists; reflexivity).
    destruct One as (b & Eb). exists b. split; [apply (cand_ok gwit); rewrite Eb; now left|]. intros b' Hb'. apply (cand_ok gwit) in Hb'. rewrite Eb in Hb'. destruct Hb' as [|[]]. assumption.
  - unfold x, y. rewrite run_Z by (intros v Hv; cbn in Hv; cbn; lia). vm_compute. reflexivity.
Qed.
(* The lists of partners that C93_choice speaks of exist, and the case of C93_pairs_witness meets C93_succeeds. *)
Example C93_choice_witness (G : R -> R) vmapO x y a : exists l, picks (partner vmapO x y a) vmapO l.
Proof. exists (cand G vmapO x y a). apply picks_cand. Qed.
Example C93_succeeds_witness :
  let O := [0; 2; 5; 4] in let x := map IZR [0; 7; 0; 7; 8000; 8000]%Z in let y := map IZR [0; 0; 1; 1; 1; 0]%Z in
  (forall a, In a O -> exists b, partner O x y a b) /\
  (forall a b b', In a [nth 0 O 0; nth 1 O 0; nth (length O - 2) O 0; nth (length O - 1) O 0] -> partner O x y a b -> partner O x y a b' -> b = b').
Proof.
  intros O x y. destruct C93_pairs_witness as (_ & _ & Hu & _). fold O x y in Hu. split.
  - intros a Ha. destruct (Hu a Ha) as (b & Hb & _). exists b. exact Hb.
  - intros a b b' Ha Hb Hb'. destruct (Hu a) as (c & _ & Hc); [exact Ha|]. rewrite <- (Hc b Hb). apply Hc. exact Hb'.
Qed.
(* C93: with a node listed twice (an element with two sides on the boundary) the later nodes get partners that are not theirs:
   node 1, at height 1, is sent to node 2, at height 0. *)
Theorem C93_duplicates_refuted :
  let O := [0; 0; 1; 2; 3] in let x := map IZR [0; 0; 8000; 8000]%Z in let y := map IZR [0; 1; 0; 1]%Z in
  nodes_of O x y /\ periodic gwit (seq 0 4) (seq 0 4) O x y = Ok (seq 0 4, [2; 2; 3; 0]) /\ ~ partner O x y 1 2.
Proof.
  intros O x y. assert (Hin : nodes_of O x y) by (intros v Hv; cbn in Hv; cbn; lia). split; [exact Hin|]. split.
  - unfold x, y. rewrite run_Z by (intros v Hv; cbn in Hv; cbn; lia). vm_compute. reflexivity.
  - intros (_ & H & _). cbn in H. replace (0 - 1)%R with (-1)%R in H by ring. rewrite Rabs_left in H by lra. lra.
Qed.

(* C93: correctBCTable gives the tag to the sides whose midpoint lies on one of the lines x = 0 and x = 8000, within 1e-6,
   and changes nothing else. *)
Definition mesh_tables (bcType : list (list Z)) (EToV : list (list nat)) (Verts : list (list R)) : Prop :=
  length bcType <= length EToV /\ (forall row, In row bcType -> 3 <= length row) /\
  (forall ends, In ends EToV -> 3 <= length ends /\ forall v, In v ends -> v < length Verts) /\ (forall p, In p Verts -> 2 <= length p).
(* x of the f-th corner of element e *)
Definition corner_x (EToV : list (list nat)) (Verts : list (list R)) (e f : nat) : R := nth 0 (nth (nth (f mod 3) (nth e EToV []) 0) Verts []) 0%R.
Theorem C93_open_sides G bcType EToV Verts tag : mesh_tables bcType EToV Verts ->
  exists bc, correct_table (exact G) (1 / 1000000)%R bcType EToV Verts tag = Ok bc /\ length bc = length bcType /\
  forall e, e < length bcType -> length (nth e bc []) = length (nth e bcType []) /\
  (forall f, 3 <= f -> nth f (nth e bc []) 0%Z = nth f (nth e bcType []) 0%Z) /\
  forall f, f < 3 -> let mid := ((corner_x EToV Verts e f + corner_x EToV Verts e (S f)) / 2)%R in
    ((Rabs mid < 1 / 1000000 \/ Rabs (mid - 8000) < 1 / 1000000)%R -> nth f (nth e bc []) 0%Z = tag) /\
    (~ (Rabs mid < 1 / 1000000 \/ Rabs (mid - 8000) < 1 / 1000000)%R -> nth f (nth e bc []) 0%Z = nth f (nth e bcType []) 0%Z).
Proof.
  intros (H1 & H2 & H3 & H4). destruct (table_run G bcType EToV Verts tag H1 H2 H3 H4) as (bc & E & L & H). exists bc. split; [exact E|]. split; [exact L|]. intros e He. destruct (H e He) as (A & B & C). split; [exact A|]. split; [exact B|].
  intros f Hf mid. rewrite (C f Hf). pose proof (opened_ok G EToV Verts e f) as HO. cbv zeta in HO.
  assert (Em : ((vx EToV Verts e f + vx EToV Verts e (if f =? 2 then 0 else S f)) / 2)%R = mid) by (unfold mid, corner_x, vx; destruct f as [|[|[|]]]; try lia; reflexivity). rewrite Em in HO.
  destruct (opened G EToV Verts e f); split; intro X; try reflexivity; exfalso; [apply X; now apply (proj1 HO)|]. pose proof (proj2 HO X). discriminate.
Qed.
(* C93: between the two lines, with no vertex closer than 2e-6 to one of them without being on it, these are the sides that
   lie on one of the lines. *)
Corollary C93_open_sides_in_strip G bcType EToV Verts tag : mesh_tables bcType EToV Verts ->
  (forall e f, e < length bcType -> f < 3 -> let x := corner_x EToV Verts e f in (x = 0 \/ x = 8000 \/ 2 / 1000000 <= x <= 8000 - 2 / 1000000)%R) ->
  exists bc, correct_table (exact G) (1 / 1000000)%R bcType EToV Verts tag = Ok bc /\
  forall e f, e < length bcType -> f < 3 ->
    (on_line (corner_x EToV Verts e f) (corner_x EToV Verts e (S f)) -> nth f (nth e bc []) 0%Z = tag) /\
    (~ on_line (corner_x EToV Verts e f) (corner_x EToV Verts e (S f)) -> nth f (nth e bc []) 0%Z = nth f (nth e bcType []) 0%Z).
Proof.
  intros HM Hs. destruct (C93_open_sides G bcType EToV Verts tag HM) as (bc & E & _ & H). exists bc. split; [exact E|]. intros e f He Hf. destruct (H e He) as (_ & _ & C). destruct (C f Hf) as (C1 & C2). cbv zeta in C1, C2.
  assert (W : forall f, corner_x EToV Verts e f = corner_x EToV Verts e (f mod 3)) by (intro; unfold corner_x; now rewrite Nat.mod_mod by lia).
  pose proof (Hs e f He Hf) as X1. pose proof (Hs e (S f mod 3) He ltac:(apply Nat.mod_upper_bound; lia)) as X2. cbv zeta in X1, X2. rewrite <- W in X2. set (a := corner_x EToV Verts e f) in *. set (b := corner_x EToV Verts e (S f)) in *. split; intro X.
  - apply C1. destruct X as [(-> & ->)|(-> & ->)]; [left|right]; match goal with |- (Rabs ?t < _)%R => replace t with 0%R by field end; rewrite Rabs_R0; lra.
  - apply C2. intros [Y|Y]; apply Rabs_def2 in Y; apply X; unfold on_line; [left|right]; destruct X1 as [X1|[X1|X1]], X2 as [X2|[X2|X2]]; split; lra.
Qed.
(* A side that crosses the line in its middle is taken for an open one, wherever it lies in the mesh. *)
Theorem C93_crossing_side_refuted : exists EToV Verts, mesh_tables [[0; 0; 0]%Z] EToV Verts /\ corner_x EToV Verts 0 0 = (-5)%R /\ corner_x EToV Verts 0 1 = 5%R /\
  exists bc, correct_table (exact gwit) (1 / 1000000)%R [[0; 0; 0]%Z] EToV Verts 2 = Ok bc /\ nth 0 (nth 0 bc []) 0%Z = 2%Z.
Proof.
  exists [[0; 1; 2]], [[-5; 0]; [5; 0]; [1; 4]]%R. assert (HM : mesh_tables [[0; 0; 0]%Z] [[0; 1; 2]] [[-5; 0]; [5; 0]; [1; 4]]%R).
  { split; [cbn; lia|]. split; [intros r [<-|[]]; cbn; lia|]. split; [intros r [<-|[]]; split; [cbn; lia|intros v Hv; cbn in *; lia]|intros p Hp; cbn in Hp; destruct Hp as [<-|[<-|[<-|[]]]]; cbn; lia]. }
  split; [exact HM|]. split; [reflexivity|]. split; [reflexivity|]. destruct (C93_open_sides gwit _ _ _ 2 HM) as (bc & E & _ & H). exists bc. split; [exact E|].
  apply (proj2 (proj2 (H 0 ltac:(cbn; lia))) 0 ltac:(lia)). left. unfold corner_x. cbn. replace ((-5 + 5) / 2)%R with 0%R by field. rewrite Rabs_R0. lra.
Qed.
Example C93_strip_witness : mesh_tables [[0; 0; 0]; [1; 2; 3]]%Z [[0; 1; 2]; [1; 3; 2]] [[0; 0]; [8000; 0]; [0; 5]; [8000; 5]]%R /\
  forall e f, e < 2 -> f < 3 -> let x := corner_x [[0; 1; 2]; [1; 3; 2]] [[0; 0]; [8000; 0]; [0; 5]; [8000; 5]]%R e f in (x = 0 \/ x = 8000 \/ 2 / 1000000 <= x <= 8000 - 2 / 1000000)%R.
Proof.
  split.
  - split; [cbn; lia|]. split; [intros r [<-|[<-|[]]]; cbn; lia|]. split; [intros r [<-|[<-|[]]]; (split; [cbn; lia|intros v Hv; cbn in *; lia])|intros p Hp; cbn in Hp; destruct Hp as [<-|[<-|[<-|[<-|[]]]]]; cbn; lia].
  - intros e f He Hf. destruct e as [|[|]]; [| |lia]; (destruct f as [|[|[|]]]; [| | |lia]); unfold corner_x; cbn; lra.
Qed.
Print Assumptions C93_only_partners.
Print Assumptions C93_pairs.
Print Assumptions C93_no_partner_throws.
Print Assumptions C93_choice.
Print Assumptions C93_succeeds.
Print Assumptions C93_shared_corner_refuted.
Print Assumptions C93_duplicates_refuted.
Print Assumptions C93_open_sides.
Print Assumptions C93_open_sides_in_strip.
Print Assumptions C93_crossing_side_refuted.
Example C93_alone_witness : nodes_of [0; 1] [0; 8000]%R [0; 3]%R /\ In 1 [0; 1] /\ forall b, ~ partner [0; 1] [0; 8000]%R [0; 3]%R 1 b.
Proof.
  split; [intros v Hv; cbn in Hv; cbn; lia|]. split; [right; now left|]. intros b (Hb & H1 & H2). cbn in Hb. destruct Hb as [<-|[<-|[]]]; cbn in H1, H2.
  - apply Rabs_def2 in H1. lra.
  - rewrite Rminus_diag_eq, Rabs_R0 in H2 by reflexivity. lra.
Qed.
