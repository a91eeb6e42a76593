(* SwProofs.v - what the shallow water right-hand sides compute, entry by entry, in exact arithmetic. *)
From Coq Require Import ZArith List Lia Bool Arith.
From Verif Require Import Base Loops FoldProofs Num BlitzModel BlitzProofs JacobiModel JacobiSpec JacobiQuadProofs Nodes1DModel Nodes1DExactProofs TriGeoSpec TriDGSpec Maps2DModel RKModel Line1DModel Line1DProofs SwModel SwSpec.
From Coq Require Import Reals Lra.
Import ListNotations.
Local Open Scope nat_scope.

Definition inb (i : nat) (l : list nat) : bool := existsb (Nat.eqb i) l.
Lemma inb_spec i l : inb i l = true <-> In i l.
Proof. unfold inb. rewrite existsb_exists. split; [intros (x & Hx & E); apply Nat.eqb_eq in E; congruence|]. intro H. exists i. split; [exact H|apply Nat.eqb_refl]. Qed.
Lemma tab_getn {T} n (h : nat -> T) i : i < n -> getn (tab n h) i = Ok (h i).
Proof. intro H. unfold getn. rewrite tab_nth_error. destruct (Nat.ltb_spec i n); [reflexivity|lia]. Qed.
Lemma tab_setn {T} n (h : nat -> T) i v : i < n -> setn (tab n h) i v = Ok (tab n (fun j => if j =? i then v else h j)).
Proof.
  intro H. pose proof (tab_set n h i v H) as E. unfold set in E. unfold setn. rewrite tab_len in *. destruct (Nat.ltb_spec i n); [|lia].
  destruct (Z.ltb_spec (Z.of_nat i) 0); [lia|]. destruct (Z.leb_spec (Z.of_nat n) (Z.of_nat i)); [lia|]. cbn [orb] in E. rewrite Nat2Z.id in E. exact E.
Qed.
Lemma tab_zipw3 {T} n (f : T -> T -> T -> T) a b c : zipw3 f (tab n a) (tab n b) (tab n c) = tab n (fun i => f (a i) (b i) (c i)).
Proof. unfold zipw3, tab. generalize (seq 0 n). induction l as [|x l IH]; cbn; [reflexivity|]. rewrite IH. reflexivity. Qed.
Lemma tab_zipw4 {T} n (f : T -> T -> T -> T -> T) a b c d : zipw4 f (tab n a) (tab n b) (tab n c) (tab n d) = tab n (fun i => f (a i) (b i) (c i) (d i)).
Proof. unfold zipw4, tab. generalize (seq 0 n). induction l as [|x l IH]; cbn; [reflexivity|]. rewrite IH. reflexivity. Qed.
Lemma vfresh_len {T} (j : nat -> T) n : length (vfresh j n) = n.
Proof. unfold vfresh. now rewrite map_length, seq_length. Qed.
Lemma list_map_nth (l : list nat) n : length l = n -> l = map (fun i => nth i l 0) (seq 0 n).
Proof.
  intro H. apply list_ext_nth. intro i. rewrite nth_error_map. destruct (Nat.lt_ge_cases i n) as [Hi|Hi].
  - rewrite (nth_error_nth' l 0) by lia. rewrite (nth_error_nth' _ 0) by (rewrite seq_length; lia). rewrite seq_nth by lia. reflexivity.
  - rewrite (proj2 (nth_error_None _ _)) by lia. rewrite (proj2 (nth_error_None _ _)) by (rewrite seq_length; lia). reflexivity.
Qed.

Section Trace.
Context {T : Type} (A : arith T) (junk : nat -> nat -> T) (junkv : nat -> T) (lowest : T).
Definition volv (Np : nat) (q : mat T) (v : nat) : T := ment q (v mod Np) (v / Np).
Definition vM (d : dg2d (T := T)) (i : nat) : nat := nth i (d_vmapM d) 0.
Definition vP (d : dg2d (T := T)) (i : nat) : nat := nth i (d_vmapP d) 0.
Lemma traces_ok d Np K nf q : conform q Np K = true -> 0 < Np -> length (d_vmapM d) = nf -> length (d_vmapP d) = nf ->
  (forall v, In v (d_vmapM d) -> v < Np * K) -> (forall v, In v (d_vmapP d) -> v < Np * K) ->
  traces junkv d Np K nf q = Ok (tab nf (fun i => volv Np q (vM d i)), tab nf (fun i => volv Np q (vP d i))).
Proof.
  intros Hq HN LM LP BM BP. apply conform_ok in Hq as (Q1 & Q2). unfold traces. rewrite (full_tab q _ Np K Q1 Q2 HN) by apply vfresh_len. cbn [bind].
  rewrite (list_map_nth (d_vmapM d) nf LM) at 1. rewrite (index_tab (Np * K) nf) by (try apply vfresh_len; intros i Hi; apply BM, nth_In; lia). cbn [bind].
  rewrite (list_map_nth (d_vmapP d) nf LP) at 1. rewrite (index_tab (Np * K) nf) by (try apply vfresh_len; intros i Hi; apply BP, nth_In; lia). cbn [bind]. reflexivity.
Qed.
Lemma walls_ok depth nf nx ny hM huM hvM l : (forall w, In w l -> w < nf) -> forall hP huP hvP,
  each (wall_step A depth (tab nf nx) (tab nf ny) (tab nf hM) (tab nf huM) (tab nf hvM)) l (tab nf hP, tab nf huP, tab nf hvP) =
  Ok (tab nf (fun i => if inb i l && depth then hM i else hP i),
      tab nf (fun i => if inb i l then fsub A (huM i) (fmul A (fmul A (two A) (nx i)) (fadd A (fmul A (huM i) (nx i)) (fmul A (hvM i) (ny i)))) else huP i),
      tab nf (fun i => if inb i l then fsub A (hvM i) (fmul A (fmul A (two A) (ny i)) (fadd A (fmul A (huM i) (nx i)) (fmul A (hvM i) (ny i)))) else hvP i)).
Proof.
  induction l as [|w l IH]; intros Hl hP huP hvP; [reflexivity|]. cbn [each]. unfold wall_step at 1. pose proof (Hl w (or_introl eq_refl)) as Hw.
  rewrite !tab_getn by exact Hw. cbn [bind].
  assert (E1 : (if depth then setn (tab nf hP) w (hM w) else Ok (tab nf hP)) = Ok (tab nf (fun i => if (i =? w) && depth then hM i else hP i))).
  { destruct depth.
    - rewrite tab_setn by exact Hw. f_equal. apply tab_ext. intros i _. rewrite andb_true_r. destruct (Nat.eqb_spec i w); congruence.
    - f_equal. apply tab_ext. intros i _. rewrite andb_false_r. reflexivity. }
  rewrite E1. cbn [bind]. rewrite tab_setn by exact Hw. cbn [bind]. rewrite tab_setn by exact Hw. cbn [bind]. rewrite IH by (intros; apply Hl; now right).
  f_equal. f_equal; [f_equal|]; apply tab_ext; intros i _; cbn [inb existsb]; fold (inb i l); destruct (inb i l), (Nat.eqb_spec i w) as [->|]; cbn [orb andb]; try reflexivity; destruct depth; reflexivity.
Qed.
Lemma opens_ok nf tide HM huM hvM l : (forall w, In w l -> w < nf) -> forall hP huP hvP,
  each (open_step A tide (tab nf HM) (tab nf huM) (tab nf hvM)) l (tab nf hP, tab nf huP, tab nf hvP) =
  Ok (tab nf (fun i => if inb i l then fadd A (HM i) tide else hP i),
      tab nf (fun i => if inb i l then huM i else huP i), tab nf (fun i => if inb i l then hvM i else hvP i)).
Proof.
  induction l as [|w l IH]; intros Hl hP huP hvP; [reflexivity|]. cbn [each]. unfold open_step at 1. pose proof (Hl w (or_introl eq_refl)) as Hw.
  rewrite !tab_getn by exact Hw. cbn [bind]. rewrite tab_setn by exact Hw. cbn [bind]. rewrite tab_setn by exact Hw. cbn [bind].
  rewrite tab_setn by exact Hw. cbn [bind]. rewrite IH by (intros; apply Hl; now right).
  f_equal. f_equal; [f_equal|]; apply tab_ext; intros i _; cbn [inb existsb]; fold (inb i l); destruct (inb i l), (Nat.eqb_spec i w) as [->|]; cbn [orb]; reflexivity.
Qed.
End Trace.

Local Open Scope R_scope.
Section Entries.
Variables (G : R -> R) (junk : nat -> nat -> R) (junkv : nat -> R) (lowest : R).
Local Notation E := (exact G).
Lemma fmax_exact a b : fmax E a b = Rmax a b.
Proof. unfold fmax. cbn [flt exact]. unfold Rltb, Rmax. destruct (Rlt_dec a b), (Rle_dec a b); try reflexivity; lra. Qed.
Definition maxto (n : nat) (f : nat -> R) : R := fold_left (fun a i => fmax E a (f i)) (seq 0 n) lowest.
Lemma maxto_S n f : maxto (S n) f = Rmax (maxto n f) (f n).
Proof. unfold maxto. rewrite seq_S, fold_left_app. cbn [fold_left Nat.add]. apply fmax_exact. Qed.
Lemma maxto_ge n f i : (i < n)%nat -> f i <= maxto n f.
Proof.
  induction n as [|n IH]; intro H; [lia|]. rewrite maxto_S. destruct (Nat.eq_dec i n) as [->|]; [apply Rmax_r|]. apply Rle_trans with (maxto n f); [apply IH; lia|apply Rmax_l].
Qed.
Lemma maxto_attained n f : (0 < n)%nat -> (forall i, (i < n)%nat -> lowest <= f i) -> exists i, (i < n)%nat /\ maxto n f = f i.
Proof.
  induction n as [|[|n] IH]; intros Hn Hf; [lia| |].
  - exists 0%nat. split; [lia|]. rewrite maxto_S. unfold maxto. cbn. apply Rmax_right. apply Hf. lia.
  - destruct IH as (i & Hi & Ei); [lia|intros; apply Hf; lia|]. rewrite maxto_S. unfold Rmax. destruct (Rle_dec _ _); [exists (S n)|exists i]; split; auto; lia.
Qed.
Lemma maxto_ext n f h : (forall i, (i < n)%nat -> f i = h i) -> maxto n f = maxto n h.
Proof. induction n as [|n IH]; intro H; [reflexivity|]. rewrite !maxto_S, IH, H by (try intros; try apply H; lia). reflexivity. Qed.

(* the state at volume node v *)
Definition cell_at (Np : nat) (q : field) (v : nat) : cell := at_node q (v mod Np) (v / Np).
Definition normal_at (d : dg2d (T := R)) (m i : nat) : point := (ment (d_nx d) (i mod m) (i / m), ment (d_ny d) (i mod m) (i / m)).

Lemma press_exact g h q : press E g h q = q * q / h + g * (h * h) / 2.
Proof. unfold press, half. rewrite fhalf_exact. cbn [fadd fmul fdiv exact]. unfold Rdiv. ring. Qed.
Lemma speed_exact g h hu hv : speed E g h hu hv = wave_speed g (h, hu, hv).
Proof. reflexivity. Qed.

(* The strong form with face data dfl. *)
Definition strong_entry (d : dg2d) (Np m : nat) (F G' : nat -> R) (dfl : nat -> R) (i k : nat) : R :=
  - (ment (d_rx d) i k * sumn Np (fun j => ment (d_Dr d) i j * F j) + ment (d_sx d) i k * sumn Np (fun j => ment (d_Ds d) i j * F j)) +
  - (ment (d_ry d) i k * sumn Np (fun j => ment (d_Dr d) i j * G' j) + ment (d_sy d) i k * sumn Np (fun j => ment (d_Ds d) i j * G' j)) +
  sumn m (fun j => ment (d_Lift d) i j * (ment (d_Fscale d) j k * dfl j)).
Lemma strong_ok d Np m K F G' D i k :
  ment (strong_form E d Np m K F G' D) i k = strong_entry d Np m (fun j => ment F j k) (fun j => ment G' j k) (fun j => ment D j k) i k.
Proof. unfold strong_form, strong_entry, add_product, scaled_product, mmap, mzip. cbn [ment mrows mcols]. rewrite !fsum_exact. cbn [fadd fopp fmul exact]. reflexivity. Qed.

Lemma jumps_ok n nx ny FM FP GM GP spd dd :
  jumps E (tab n nx) (tab n ny) (tab n FM) (tab n FP) (tab n GM) (tab n GP) (tab n spd) (tab n dd) =
  tab n (fun i => 1 / 2 * ((FM i - FP i) * nx i + (GM i - GP i) * ny i - spd i * dd i)).
Proof. unfold jumps, half. rewrite fhalf_exact, tab_map, !tab_zipw. reflexivity. Qed.

(* Face data: own and other states by face node, one dissipation per face node. *)
Definition jump_entry (d : dg2d (T := R)) (m : nat) (g : R) (own other : nat -> cell) (lam : nat -> R) (c i : nat) : R :=
  through g c (normal_at d m i) (own i) - rusanov g c (normal_at d m i) (lam i) (own i) (other i).
Definition rate (d : dg2d) (NF Nfp Np : nat) (g : R) (q : field) (own other : nat -> cell) (lam : nat -> R) (c i k : nat) : R :=
  strong_entry d Np (NF * Nfp) (fun j => part c (flux_x g (at_node q j k))) (fun j => part c (flux_y g (at_node q j k)))
    (fun j => jump_entry d (NF * Nfp) g own other lam c (j + k * (NF * Nfp))) i k.
Definition maps_ok (d : dg2d (T := R)) (Np K nf : nat) : Prop :=
  length (d_vmapM d) = nf /\ length (d_vmapP d) = nf /\ (forall v, In v (d_vmapM d) -> (v < Np * K)%nat) /\ (forall v, In v (d_vmapP d) -> (v < Np * K)%nat).
Definition face_max (Nfp : nat) (f : nat -> R) (i : nat) : R := maxto Nfp (fun n => f (n + i / Nfp * Nfp)%nat).

Lemma lambda_ok Nfp n f : (0 < Nfp)%nat -> exists M, vectorToFull (tab (Nfp * n) f) (mkmat Nfp n junk) false = Ok M /\
  fullToVector (column_max E lowest M) (tab (Nfp * n) f) false = Ok (tab (Nfp * n) (face_max Nfp f)).
Proof.
  intro HN. destruct (unfull_tab f (mkmat Nfp n junk) Nfp n eq_refl eq_refl) as (M & EM & R1 & R2 & HM). exists M. split; [exact EM|].
  rewrite (full_tab _ _ Nfp n) by (unfold column_max; cbn; auto; apply tab_len). f_equal. apply tab_ext. intros i Hi. unfold column_max, face_max, maxto. cbn [ment]. change (fofn E 1) with 1. cbn [fmul exact].
  rewrite Rmult_1_l, R1. pose proof (Nat.div_lt_upper_bound i Nfp n ltac:(lia) Hi) as Hd.
  apply (maxto_ext Nfp (fun a => ment M a (i / Nfp))). intros a Ha. apply HM; assumption.
Qed.
Lemma simple_ok d NF Nfp Np K g q mapW : dg_conform d NF Nfp Np K = true -> state_conform q Np K = true -> (0 < Np)%nat -> (0 < NF)%nat -> (0 < Nfp)%nat ->
  maps_ok d Np K (NF * Nfp * K) -> hfind (d_bc d) 3 = Some mapW -> (forall w, In w mapW -> (w < NF * Nfp * K)%nat) ->
  exists z, sw_simple_rhs E junk junkv lowest d NF Nfp Np K g q = Ok z /\ state_conform z Np K = true /\
  let own i := cell_at Np q (vM d i) in
  let nP i := cell_at Np q (vP d i) in
  let other i := if inb i mapW then (part 0 (nP i), part 1 (mirror (normal_at d (NF * Nfp) i) (own i)), part 2 (mirror (normal_at d (NF * Nfp) i) (own i))) else nP i in
  let lam := face_max Nfp (fun i => Rmax (wave_speed g (own i)) (wave_speed g (other i))) in
  forall c i k, (c < 3)%nat -> (i < Np)%nat -> (k < K)%nat -> ment (fieldc c z) i k = rate d NF Nfp Np g q own other lam c i k.
Proof.
  intros HC HQ HNp HNF HNfp (LM & LP & BM & BP) HW BW. destruct q as [[h hu] hv]. unfold sw_simple_rhs. rewrite HC, HQ, HW. cbn [require andb].
  set (nf := (NF * Nfp * K)%nat) in *. 
  assert (C0 : forall m, conform m (NF * Nfp) K = true -> fullToVector m (repeat (fofn E 0) nf) false = Ok (tab nf (fun i => ment m (i mod (NF * Nfp)) (i / (NF * Nfp))))).
  { intros m Hm. apply conform_ok in Hm as (M1 & M2). apply full_tab; auto; [nia|apply repeat_length]. }
  pose proof HC as HC'. unfold dg_conform in HC'. rewrite !andb_true_iff in HC'. destruct HC' as (((((((((_ & _) & _) & _) & Cx) & Cy) & _) & _) & _) & _).
  rewrite (C0 _ Cx), (C0 _ Cy). cbn [bind]. unfold state_conform in HQ. rewrite !andb_true_iff in HQ. destruct HQ as ((Q1 & Q2) & Q3).
  rewrite (traces_ok junkv d Np K nf h), (traces_ok junkv d Np K nf hu), (traces_ok junkv d Np K nf hv) by assumption. cbn [bind].
  rewrite (walls_ok E false nf _ _ _ _ _ mapW BW). cbn [bind].
  rewrite !tab_zipw, !tab_zipw3, !tab_zipw.
  match goal with |- context [vectorToFull (tab nf ?F) _ _] => set (spd := F) end.
  destruct (lambda_ok Nfp (NF * K) spd HNfp) as (M & EM & EL). replace (Nfp * (NF * K))%nat with nf in EM, EL by (unfold nf; nia). rewrite EM. cbn [bind]. rewrite EL. cbn [bind].
  rewrite !jumps_ok.
  match goal with |- context [vectorToFull (tab nf ?F) _ _] => destruct (unfull_tab F (mkmat (NF * Nfp) K junk) (NF * Nfp) K eq_refl eq_refl) as (D1 & ED1 & _ & _ & HD1); fold nf in ED1; rewrite ED1; cbn [bind] end.
  match goal with |- context [vectorToFull (tab nf ?F) _ _] => destruct (unfull_tab F (mkmat (NF * Nfp) K junk) (NF * Nfp) K eq_refl eq_refl) as (D2 & ED2 & _ & _ & HD2); fold nf in ED2; rewrite ED2; cbn [bind] end.
  match goal with |- context [vectorToFull (tab nf ?F) _ _] => destruct (unfull_tab F (mkmat (NF * Nfp) K junk) (NF * Nfp) K eq_refl eq_refl) as (D3 & ED3 & _ & _ & HD3); fold nf in ED3; rewrite ED3; cbn [bind] end.
  eexists. split; [reflexivity|]. split.
  { unfold strong_form, add_product, mzip, mmap, scaled_product, state_conform, conform. cbn [mrows mcols]. rewrite !Nat.eqb_refl. reflexivity. }
  pose (own := fun i => cell_at Np (h, hu, hv) (vM d i)). pose (nP := fun i => cell_at Np (h, hu, hv) (vP d i)).
  pose (other := fun i => if inb i mapW then (part 0 (nP i), part 1 (mirror (normal_at d (NF * Nfp) i) (own i)), part 2 (mirror (normal_at d (NF * Nfp) i) (own i))) else nP i).
  pose (lam := face_max Nfp (fun i => Rmax (wave_speed g (own i)) (wave_speed g (other i)))).
  match goal with |- forall c i k, _ -> _ -> _ -> ?L = _ => enough (X : forall c i k, (c < 3)%nat -> (i < Np)%nat -> (k < K)%nat -> ment (fieldc c (strong_form E d Np (NF * Nfp) K hu hv D1, strong_form E d Np (NF * Nfp) K (mzip (press E g) h hu) (mzip3 (convx E) h hu hv) D2,
    strong_form E d Np (NF * Nfp) K (mzip3 (convx E) h hu hv) (mzip (press E g) h hv) D3)) i k = rate d NF Nfp Np g (h, hu, hv) own other lam c i k) by exact X end.
  assert (Hlam : forall i, face_max Nfp spd i = lam i).
  { intro i. unfold lam, face_max. apply maxto_ext. intros n _. unfold spd. rewrite fmax_exact, !speed_exact. unfold other, own, nP, cell_at, volv. cbn [andb]. rewrite andb_false_r.
    destruct (inb _ mapW); [|reflexivity]. unfold mirror, at_node, normal_at. cbn [fieldc fst snd part fsub fmul fadd exact]. change (two E) with 2. f_equal. unfold wave_speed. 
    match goal with |- _ + sqrt ?a = _ => f_equal end. f_equal. f_equal; f_equal; f_equal; ring. }
  intros c i k Hc Hi Hk. destruct c as [|[|[|]]]; [| | |lia]; cbn [fieldc fst snd]; rewrite strong_ok; unfold rate, strong_entry; f_equal.
  - apply sumn_ext. intros j Hj. rewrite HD1 by assumption. rewrite Hlam. f_equal. f_equal. unfold jump_entry, rusanov, through. unfold other, own, nP, cell_at, volv. cbn [andb]. rewrite andb_false_r.
    destruct (inb _ mapW); unfold mirror, at_node, normal_at; cbn [fieldc fst snd part fsub fmul fadd exact flux_x flux_y]; change (two E) with 2; field.
  - f_equal; f_equal; f_equal; f_equal; apply sumn_ext; intros j Hj; unfold mzip, mzip3; cbn [ment]; rewrite ?press_exact; reflexivity.
  - apply sumn_ext. intros j Hj. rewrite HD2 by assumption. rewrite Hlam. f_equal. f_equal. unfold jump_entry, rusanov, through. unfold other, own, nP, cell_at, volv. cbn [andb]. rewrite andb_false_r, !press_exact.
    destruct (inb _ mapW); unfold mirror, at_node, normal_at, convx; cbn [fieldc fst snd part fsub fmul fadd fdiv exact flux_x flux_y]; change (two E) with 2; unfold Rdiv; repeat match goal with |- context [/ ment ?a ?b ?e] => generalize (/ ment a b e); intro end; field.
  - f_equal; f_equal; f_equal; f_equal; apply sumn_ext; intros j Hj; unfold mzip, mzip3; cbn [ment]; rewrite ?press_exact; reflexivity.
  - apply sumn_ext. intros j Hj. rewrite HD3 by assumption. rewrite Hlam. f_equal. f_equal. unfold jump_entry, rusanov, through. unfold other, own, nP, cell_at, volv. cbn [andb]. rewrite andb_false_r, !press_exact.
    destruct (inb _ mapW); unfold mirror, at_node, normal_at, convx; cbn [fieldc fst snd part fsub fmul fadd fdiv exact flux_x flux_y]; change (two E) with 2; unfold Rdiv; repeat match goal with |- context [/ ment ?a ?b ?e] => generalize (/ ment a b e); intro end; field.
Qed.

Lemma jumps'_ok n nx ny FM FP GM GP spd dd bal :
  jumps' E (tab n nx) (tab n ny) (tab n FM) (tab n FP) (tab n GM) (tab n GP) (tab n spd) (tab n dd) (tab n bal) =
  tab n (fun i => 1 / 2 * ((FM i - FP i) * nx i + (GM i - GP i) * ny i - spd i * dd i - bal i)).
Proof. unfold jumps', half. rewrite fhalf_exact, tab_map, !tab_zipw. reflexivity. Qed.
Lemma max_tab n f : fold_left (fmax E) (tab n f) lowest = maxto n f.
Proof. unfold maxto, tab. generalize lowest. induction (seq 0 n) as [|i l IH]; intro a; [reflexivity|]. cbn [map fold_left]. apply IH. Qed.
(* the "star" state: depth max(0, h - H + min(H', H)) with the discharge kept through the quotient *)
Definition starred (q : cell) (H H' : R) : cell :=
  let '(h, hu, hv) := q in let s := Rmax 0 (h + - H - Rmax (- H') (- H)) in (s, s * (hu / s), s * (hv / s)).
Lemma full_ok d NF Nfp Np K g CD f tide H Hx Hy q mapW mapO : dg_conform d NF Nfp Np K = true -> state_conform q Np K = true -> state_conform (H, Hx, Hy) Np K = true -> (0 < Np)%nat -> (0 < NF)%nat -> (0 < Nfp)%nat ->
  maps_ok d Np K (NF * Nfp * K) -> hfind (d_bc d) 3 = Some mapW -> hfind (d_bc d) 2 = Some mapO -> (forall w, In w mapW -> (w < NF * Nfp * K)%nat) -> (forall w, In w mapO -> (w < NF * Nfp * K)%nat) ->
  exists z, sw_rhs E junk junkv lowest d NF Nfp Np K g CD f tide H Hx Hy q = Ok z /\ state_conform z Np K = true /\
  let m0 i := cell_at Np q (vM d i) in
  let nP i := cell_at Np q (vP d i) in
  let HM i := volv Np H (vM d i) in let HP i := volv Np H (vP d i) in
  let p0 i := if inb i mapO then (HM i + tide, part 1 (m0 i), part 2 (m0 i)) else if inb i mapW then mirror (normal_at d (NF * Nfp) i) (m0 i) else nP i in
  let own i := starred (m0 i) (HM i) (HP i) in
  let other i := let '(h, hu, hv) := p0 i in let s := Rmax 0 (h + - HP i - Rmax (- HP i) (- HM i)) in (s, s * (hu / s), s * (hv / s)) in
  let lam (i : nat) := maxto (NF * Nfp * K) (fun i => Rmax (wave_speed g (own i)) (wave_speed g (other i))) + 0 in
  forall i k, (i < Np)%nat -> (k < K)%nat ->
    let a := at_node q i k in let u := part 1 a / part 0 a in let v := part 2 a / part 0 a in let nu := sqrt (u * u + v * v) in
    ment (fieldc 0 z) i k = rate d NF Nfp Np g q own other lam 0 i k /\
    ment (fieldc 1 z) i k = rate d NF Nfp Np g q own other lam 1 i k + g * part 0 a * ment Hx i k + - CD * u * nu + f * part 2 a /\
    ment (fieldc 2 z) i k = rate d NF Nfp Np g q own other lam 2 i k + g * part 0 a * ment Hy i k + - CD * v * nu + - f * part 1 a.
Proof.
  intros HC HQ HH HNp HNF HNfp (LM & LP & BM & BP) HW HO BW BO. destruct q as [[h hu] hv]. unfold sw_rhs. rewrite HC, HQ, HH, HW, HO. cbn [require andb].
  set (nf := (NF * Nfp * K)%nat) in *. 
  assert (C0 : forall m, conform m (NF * Nfp) K = true -> fullToVector m (repeat (fofn E 0) nf) false = Ok (tab nf (fun i => ment m (i mod (NF * Nfp)) (i / (NF * Nfp))))).
  { intros m Hm. apply conform_ok in Hm as (M1 & M2). apply full_tab; auto; [nia|apply repeat_length]. }
  pose proof HC as HC'. unfold dg_conform in HC'. rewrite !andb_true_iff in HC'. destruct HC' as (((((((((_ & _) & _) & _) & Cx) & Cy) & _) & _) & _) & _).
  rewrite (C0 _ Cx), (C0 _ Cy). cbn [bind]. unfold state_conform in HQ, HH. rewrite !andb_true_iff in HQ, HH. destruct HQ as ((Q1 & Q2) & Q3). destruct HH as ((Q4 & _) & _).
  rewrite (traces_ok junkv d Np K nf h), (traces_ok junkv d Np K nf hu), (traces_ok junkv d Np K nf hv), (traces_ok junkv d Np K nf H) by assumption. cbn [bind].
  pose (m0 := fun i => cell_at Np (h, hu, hv) (vM d i)). pose (nP := fun i => cell_at Np (h, hu, hv) (vP d i)). pose (HM := fun i => volv Np H (vM d i)). pose (HP := fun i => volv Np H (vP d i)).
  pose (p0 := fun i => if inb i mapO then (HM i + tide, part 1 (m0 i), part 2 (m0 i)) else if inb i mapW then mirror (normal_at d (NF * Nfp) i) (m0 i) else nP i).
  pose (own := fun i => starred (m0 i) (HM i) (HP i)).
  pose (other := fun i => let '(h, hu, hv) := p0 i in let s := Rmax 0 (h + - HP i - Rmax (- HP i) (- HM i)) in (s, s * (hu / s), s * (hv / s))).
  pose (lam := fun i : nat => maxto nf (fun i => Rmax (wave_speed g (own i)) (wave_speed g (other i))) + 0).
  rewrite (walls_ok E true nf _ _ _ _ _ mapW BW). cbn [bind]. rewrite (opens_ok E nf tide _ _ _ mapO BO). cbn [bind].
  match goal with |- context [zipw4 _ (tab nf ?a) _ _ _] => change (tab nf a) with (tab nf (fun i => part 0 (m0 i))) end.
  match goal with |- context [zipw4 _ (tab nf (fun i => if _ then _ else _)) _ _ _] => idtac end.
  match goal with |- context [zipw4 _ (tab nf (fun i => if inb i mapO then @?a i else @?b i)) _ _ _] => replace (tab nf (fun i => if inb i mapO then a i else b i)) with (tab nf (fun i => part 0 (p0 i))) by
    (apply tab_ext; intros i _; unfold p0; destruct (inb i mapO); [reflexivity|]; destruct (inb i mapW); reflexivity) end.
  match goal with |- context [tab nf (fun i => if inb i mapO then volv Np hu (vM d i) else @?b i)] => replace (tab nf (fun i => if inb i mapO then volv Np hu (vM d i) else b i)) with (tab nf (fun i => part 1 (p0 i))) by
    (apply tab_ext; intros i _; unfold p0; destruct (inb i mapO); [reflexivity|]; destruct (inb i mapW); [|reflexivity]; unfold mirror, m0, cell_at, at_node, normal_at; cbn [part fst snd fsub fmul fadd exact fieldc]; change (two E) with 2; unfold volv; ring) end.
  match goal with |- context [tab nf (fun i => if inb i mapO then volv Np hv (vM d i) else @?b i)] => replace (tab nf (fun i => if inb i mapO then volv Np hv (vM d i) else b i)) with (tab nf (fun i => part 2 (p0 i))) by
    (apply tab_ext; intros i _; unfold p0; destruct (inb i mapO); [reflexivity|]; destruct (inb i mapW); [|reflexivity]; unfold mirror, m0, cell_at, at_node, normal_at; cbn [part fst snd fsub fmul fadd exact fieldc]; change (two E) with 2; unfold volv; ring) end.
  change (tab nf (fun i => volv Np hu (vM d i))) with (tab nf (fun i => part 1 (m0 i))). change (tab nf (fun i => volv Np hv (vM d i))) with (tab nf (fun i => part 2 (m0 i))).
  change (tab nf (fun i => volv Np H (vM d i))) with (tab nf HM). change (tab nf (fun i => volv Np H (vP d i))) with (tab nf HP).
  rewrite !tab_map, !tab_zipw4.
  replace (tab nf (fun i => star E (part 0 (m0 i)) (fopp E (HM i)) (fopp E (HP i)) (fopp E (HM i)))) with (tab nf (fun i => part 0 (own i)))
    by (apply tab_ext; intros i _; unfold own, starred, star; rewrite !fmax_exact; destruct (m0 i) as [[a1 a2] a3]; reflexivity).
  replace (tab nf (fun i => star E (part 0 (p0 i)) (fopp E (HP i)) (fopp E (HP i)) (fopp E (HM i)))) with (tab nf (fun i => part 0 (other i)))
    by (apply tab_ext; intros i _; unfold other, star; rewrite !fmax_exact; destruct (p0 i) as [[a1 a2] a3]; reflexivity).
  rewrite !(tab_zipw nf (fdiv E)), !(tab_zipw nf (fmul E)).
  replace (tab nf (fun i => fmul E (part 0 (own i)) (fdiv E (part 1 (m0 i)) (part 0 (own i))))) with (tab nf (fun i => part 1 (own i)))
    by (apply tab_ext; intros i _; unfold own, starred; destruct (m0 i) as [[a1 a2] a3]; reflexivity).
  replace (tab nf (fun i => fmul E (part 0 (own i)) (fdiv E (part 2 (m0 i)) (part 0 (own i))))) with (tab nf (fun i => part 2 (own i)))
    by (apply tab_ext; intros i _; unfold own, starred; destruct (m0 i) as [[a1 a2] a3]; reflexivity).
  replace (tab nf (fun i => fmul E (part 0 (other i)) (fdiv E (part 1 (p0 i)) (part 0 (other i))))) with (tab nf (fun i => part 1 (other i)))
    by (apply tab_ext; intros i _; unfold other; destruct (p0 i) as [[a1 a2] a3]; reflexivity).
  replace (tab nf (fun i => fmul E (part 0 (other i)) (fdiv E (part 2 (p0 i)) (part 0 (other i))))) with (tab nf (fun i => part 2 (other i)))
    by (apply tab_ext; intros i _; unfold other; destruct (p0 i) as [[a1 a2] a3]; reflexivity).
  rewrite !tab_zipw, !tab_zipw3, !tab_zipw, max_tab, !tab_map, jumps_ok, !jumps'_ok.
  match goal with |- context [maxto nf ?F] => replace (maxto nf F) with (maxto nf (fun i => Rmax (wave_speed g (own i)) (wave_speed g (other i))))
    by (apply maxto_ext; intros i _; rewrite fmax_exact, !speed_exact; destruct (own i) as [[a1 a2] a3], (other i) as [[b1 b2] b3]; reflexivity) end.
  change (fadd E (maxto nf (fun i => Rmax (wave_speed g (own i)) (wave_speed g (other i)))) (fofn E 0)) with (lam 0%nat).
  match goal with |- context [vectorToFull (tab nf ?F) _ _] => destruct (unfull_tab F (mkmat (NF * Nfp) K junk) (NF * Nfp) K eq_refl eq_refl) as (D1 & ED1 & _ & _ & HD1); fold nf in ED1; rewrite ED1; cbn [bind] end.
  match goal with |- context [vectorToFull (tab nf ?F) _ _] => destruct (unfull_tab F (mkmat (NF * Nfp) K junk) (NF * Nfp) K eq_refl eq_refl) as (D2 & ED2 & _ & _ & HD2); fold nf in ED2; rewrite ED2; cbn [bind] end.
  match goal with |- context [vectorToFull (tab nf ?F) _ _] => destruct (unfull_tab F (mkmat (NF * Nfp) K junk) (NF * Nfp) K eq_refl eq_refl) as (D3 & ED3 & _ & _ & HD3); fold nf in ED3; rewrite ED3; cbn [bind] end.
  eexists. split; [reflexivity|]. split.
  { unfold with_source, strong_form, add_product, mzip, mmap, scaled_product, state_conform, conform. cbn [mrows mcols]. rewrite !Nat.eqb_refl. reflexivity. }
  cbv zeta. change (fun i => starred (cell_at Np (h, hu, hv) (vM d i)) (volv Np H (vM d i)) (volv Np H (vP d i))) with own.
  match goal with |- context [rate d NF Nfp Np g (h, hu, hv) own ?o ?l] => change o with other; change l with lam end.
  assert (HJ : forall c j k D, (forall i k, (i < NF * Nfp)%nat -> (k < K)%nat -> ment D i k = jump_entry d (NF * Nfp) g own other lam c (i + k * (NF * Nfp))) -> (j < NF * Nfp)%nat -> (k < K)%nat -> ment D j k = jump_entry d (NF * Nfp) g own other lam c (j + k * (NF * Nfp))) by (intros; auto).
  assert (J1 : forall i k, (i < NF * Nfp)%nat -> (k < K)%nat -> ment D1 i k = jump_entry d (NF * Nfp) g own other lam 0 (i + k * (NF * Nfp))).
  { intros i k Hi Hk. rewrite HD1 by assumption. unfold jump_entry, rusanov, through, normal_at. change (lam (i + k * (NF * Nfp))%nat) with (lam 0%nat). generalize (lam 0%nat). intro l.
    destruct (own (i + k * (NF * Nfp))%nat) as [[a1 a2] a3], (other (i + k * (NF * Nfp))%nat) as [[b1 b2] b3]. cbn [part fst snd flux_x flux_y fsub exact]. field. }
  assert (J2 : forall i k, (i < NF * Nfp)%nat -> (k < K)%nat -> ment D2 i k = jump_entry d (NF * Nfp) g own other lam 1 (i + k * (NF * Nfp))).
  { intros i k Hi Hk. rewrite HD2 by assumption. unfold jump_entry, rusanov, through, normal_at. change (lam (i + k * (NF * Nfp))%nat) with (lam 0%nat). generalize (lam 0%nat). intro l. rewrite !press_exact. unfold balance, convx.
    destruct (own (i + k * (NF * Nfp))%nat) as [[a1 a2] a3], (other (i + k * (NF * Nfp))%nat) as [[b1 b2] b3]. cbn [part fst snd flux_x flux_y fsub fmul fdiv exact]. unfold Rdiv. generalize (/ a1) (/ b1). intros. field. }
  assert (J3 : forall i k, (i < NF * Nfp)%nat -> (k < K)%nat -> ment D3 i k = jump_entry d (NF * Nfp) g own other lam 2 (i + k * (NF * Nfp))).
  { intros i k Hi Hk. rewrite HD3 by assumption. unfold jump_entry, rusanov, through, normal_at. change (lam (i + k * (NF * Nfp))%nat) with (lam 0%nat). generalize (lam 0%nat). intro l. rewrite !press_exact. unfold balance, convx.
    destruct (own (i + k * (NF * Nfp))%nat) as [[a1 a2] a3], (other (i + k * (NF * Nfp))%nat) as [[b1 b2] b3]. cbn [part fst snd flux_x flux_y fsub fmul fdiv exact]. unfold Rdiv. generalize (/ a1) (/ b1). intros. field. }
  intros i k Hi Hk. unfold at_node. cbn [fieldc fst snd part]. unfold with_source, sw_source_x, sw_source_y. cbn [ment]. rewrite !strong_ok. cbn [fadd fmul fopp fdiv fsqrt exact].
  split; [|split].
  - unfold rate, strong_entry. f_equal. apply sumn_ext. intros j Hj. rewrite J1 by assumption. reflexivity.
  - do 3 f_equal. unfold rate, strong_entry. f_equal.
    + f_equal; f_equal; f_equal; f_equal; apply sumn_ext; intros j Hj; unfold mzip, mzip3; cbn [ment]; rewrite ?press_exact; reflexivity.
    + apply sumn_ext. intros j Hj. rewrite J2 by assumption. reflexivity.
  - do 3 f_equal. unfold rate, strong_entry. f_equal.
    + f_equal; f_equal; f_equal; f_equal; apply sumn_ext; intros j Hj; unfold mzip, mzip3; cbn [ment]; rewrite ?press_exact; reflexivity.
    + apply sumn_ext. intros j Hj. rewrite J3 by assumption. reflexivity.
Qed.
End Entries.
