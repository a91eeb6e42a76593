(* Nodes1DProofs.v - connectivity and trace maps of the one-dimensional provisioner. *)
From Coq Require Import ZArith List Lia Bool Sorted SpecFloat.
From Verif Require Import Base Loops Num BlitzModel BlitzSpec BlitzProofs CscModel CscSpec CscProofs CscAlgProofs MeshModel MeshSpec MeshProofs Nodes1DModel Nodes1DSpec.
Import ListNotations.
Local Open Scope nat_scope.

Definition mate (K g : nat) : nat :=
  if Nat.even g then (if g =? 0 then 0 else g - 1) else (if g =? 2 * K - 1 then g else g + 1).

Lemma even_div g : Nat.even g = true -> g = 2 * (g / 2) /\ (g + 1) / 2 = g / 2.
Proof.
  intros H. apply Nat.even_spec in H. destruct H as (m & ->). rewrite (Nat.mul_comm 2 m), Nat.div_mul by lia.
  rewrite Nat.div_add_l by lia. cbn. lia.
Qed.
Lemma odd_div g : Nat.even g = false -> g = 2 * (g / 2) + 1 /\ (g + 1) / 2 = g / 2 + 1.
Proof.
  intros H. assert (O : Nat.odd g = true) by (unfold Nat.odd; now rewrite H). apply Nat.odd_spec in O. destruct O as (m & ->).
  replace (2 * m + 1 + 1) with ((m + 1) * 2) by lia. rewrite Nat.div_mul by lia.
  replace (2 * m + 1) with (m * 2 + 1) by lia. rewrite Nat.div_add_l by lia. cbn. lia.
Qed.

(* vertex of face g *)
Definition vtx (g : nat) : nat := (g + 1) / 2.
Lemma vtx_flat k f : f < 2 -> vtx (k * 2 + f) = k + f.
Proof.
  intros H. unfold vtx. replace (k * 2 + f + 1) with (k * 2 + (f + 1)) by lia. rewrite Nat.div_add_l by lia.
  destruct f as [|[|f]]; [cbn; lia|cbn; lia|lia].
Qed.
Lemma vtx_lt K g : g < 2 * K -> vtx g < K + 1.
Proof. intros. unfold vtx. apply Nat.div_lt_upper_bound; lia. Qed.
Lemma vtx_mate K g i : g < 2 * K -> i < 2 * K -> (vtx i = vtx g /\ i <> g <-> i = mate K g /\ mate K g <> g).
Proof.
  intros Hg Hi. unfold vtx, mate. destruct (Nat.even g) eqn:Eg, (Nat.even i) eqn:Ei;
  [apply even_div in Eg; apply even_div in Ei | apply even_div in Eg; apply odd_div in Ei
  |apply odd_div in Eg; apply even_div in Ei | apply odd_div in Eg; apply odd_div in Ei];
  destruct Eg as (Eg & Eg'), Ei as (Ei & Ei'); rewrite Eg', Ei';
  try destruct (Nat.eqb_spec g 0); try destruct (Nat.eqb_spec g (2 * K - 1)); lia.
Qed.
Lemma mate_lt K g : g < 2 * K -> mate K g < 2 * K.
Proof.
  intros. unfold mate. destruct (Nat.even g) eqn:E; [apply even_div in E|apply odd_div in E].
  - destruct (Nat.eqb_spec g 0); lia.
  - destruct (Nat.eqb_spec g (2 * K - 1)); lia.
Qed.
Lemma mate_self K g : g < 2 * K -> (mate K g = g <-> g = 0 \/ g = 2 * K - 1).
Proof.
  intros. unfold mate. destruct (Nat.even g) eqn:E; [apply even_div in E|apply odd_div in E].
  - destruct (Nat.eqb_spec g 0); lia.
  - destruct (Nat.eqb_spec g (2 * K - 1)); lia.
Qed.
Lemma touching_mate K g : g < 2 * K -> touching K g (mate K g).
Proof.
  intros Hg. unfold touching, mate. destruct (Nat.even g) eqn:E; [apply even_div in E|apply odd_div in E]; destruct E as (E & _).
  - destruct (Nat.eqb_spec g 0); [right; lia|]. left. exists (g / 2 - 1). split; [lia|]. right. lia.
  - destruct (Nat.eqb_spec g (2 * K - 1)); [right; lia|]. left. exists (g / 2). split; [lia|]. left. lia.
Qed.
Lemma touching_fun K g h h' : g < 2 * K -> touching K g h -> touching K g h' -> h = h'.
Proof.
  intros Hg [(k & Hk & H)|(-> & H)] [(k' & Hk' & H')|(<- & H')]; try lia.
Qed.

Lemma NoDup_single {X} (l : list X) (x : X) (b : bool) : NoDup l -> (forall y, In y l <-> y = x /\ b = true) -> l = if b then [x] else [].
Proof.
  intros ND H. destruct b.
  - destruct l as [|y l]; [exfalso; apply (proj2 (H x)); auto|].
    assert (y = x) by (apply H; left; auto). subst y. inversion ND as [|? ? N1 N2]; subst.
    destruct l as [|z l]; auto. exfalso. apply N1. assert (z = x) by (apply H; right; left; auto). subst. left; auto.
  - destruct l as [|y l]; auto. exfalso. destruct (proj1 (H y) (or_introl eq_refl)). discriminate.
Qed.

Section Conn1.
Variable T : Type.
Variable one : T.
Variable add mul : T -> T -> T.
Variable isOne : T -> bool.
Hypothesis one_yes : isOne (mul one one) = true.
Notation column := (list (nat * T)).

Definition vcols (F : nat) : list column := map (fun g => [(vtx g, one)]) (seq 0 F).
Lemma vcols_S F : vcols (S F) = vcols F ++ [[(vtx F, one)]].
Proof. unfold vcols. rewrite seq_S, map_app. reflexivity. Qed.
Lemma concat_vcols_len F : length (concat (vcols F)) = F.
Proof. induction F; auto. rewrite vcols_S, concat_app, app_length, IHF. cbn. lia. Qed.
Lemma ptrs_vcols F : ptrs 0 (vcols F) = seq 0 (S F).
Proof.
  apply list_ext_nth. intros j. destruct (Nat.le_gt_cases j F).
  - rewrite ptrs_nth by (unfold vcols; rewrite map_length, seq_length; auto).
    rewrite nth_error_nth' with (d := 0) by (rewrite seq_length; lia). rewrite seq_nth by lia. f_equal. cbn [plus].
    replace (firstn j (vcols F)) with (vcols j); [apply concat_vcols_len|].
    unfold vcols. rewrite firstn_map, firstn_seq by lia. auto.
  - rewrite !(proj2 (nth_error_None _ _)); auto.
    + rewrite seq_length. lia.
    + rewrite ptrs_length. unfold vcols. rewrite map_length, seq_length. lia.
Qed.

(* the element table *)
Definition line (K : nat) : list Z := map (fun g => Z.of_nat (vtx g)) (seq 0 (2 * K)).
Lemma line_nth K g : g < 2 * K -> nth_error (line K) g = Some (Z.of_nat (vtx g)).
Proof.
  intros. unfold line. rewrite nth_error_map, nth_error_nth' with (d := 0) by (rewrite seq_length; lia).
  rewrite seq_nth by lia. reflexivity.
Qed.

Lemma buildE2V1D_ok K E0 : length E0 = 2 * K -> buildE2V1D K E0 = Ok (line K).
Proof.
  intros L. unfold buildE2V1D.
  destruct (for_inv (fun k (e : list Z) => length e = 2 * K /\ forall g, g < 2 * k -> nth_error e g = Some (Z.of_nat (vtx g))) K
    (fun k e => bind (setn e (k * 2 + 0) (Z.of_nat k)) (fun e1 => setn e1 (k * 2 + 1) (Z.of_nat k + 1)%Z)) E0) as (e & E & Le & H).
  - split; auto. intros; lia.
  - intros k e Hk (Le & H). rewrite setn_ok by lia. cbn [bind]. rewrite setn_ok by (rewrite upd_length; lia).
    eexists. split; [reflexivity|]. rewrite !upd_length. split; auto. intros g Hg.
    rewrite nth_error_upd_if by (rewrite upd_length; lia). rewrite nth_error_upd_if by lia.
    destruct (Nat.eqb_spec g (k * 2 + 1)) as [->|]; [rewrite vtx_flat by lia; f_equal; lia|].
    destruct (Nat.eqb_spec g (k * 2 + 0)) as [->|]; [rewrite vtx_flat by lia; f_equal; lia|]. apply H. lia.
  - rewrite E. f_equal. apply list_ext_nth. intros g. destruct (Nat.lt_ge_cases g (2 * K)).
    + rewrite H by auto. symmetry. now apply line_nth.
    + rewrite !(proj2 (nth_error_None _ _)); auto; [|lia]. unfold line. rewrite map_length, seq_length. lia.
Qed.

Lemma buildFToV_ok jp ji jx jk K : 0 < K -> (Z.of_nat (K + 1) * Z.of_nat (2 * K) <= INT_MAX)%Z ->
  buildFToV T one jp ji jx K (line K) = Ok (of_cols jk (K + 1) (vcols (2 * K))).
Proof.
  intros HK HS. unfold buildFToV, ctor_sizes.
  set (F := 2 * K) in *. assert (HF : 0 < F) by lia.
  destruct (Z.ltb_spec INT_MAX (Z.of_nat (K + 1) * Z.of_nat F)); [lia|].
  destruct (Nat.eqb_spec ((K + 1) * F) 0); [nia|].
  destruct (Nat.eqb_spec (K + 1) 0); [lia|]. destruct (Nat.eqb_spec F 0); [lia|]. cbn [orb bind].
  replace (Nat.max 1 F) with F by lia. set (a0 := mkcsc _ _ _ _ _ _).
  destruct (nested_inv (fun g (st : nat * csc T) =>
     let '(g', a) := st in
     g' = g /\ m_ a = K + 1 /\ n_ a = F /\ nzmax a = F /\ length (p_ a) = S F /\
     length (i_ a) = F /\ length (x_ a) = F /\
     firstn g (p_ a) = seq 0 g /\
     firstn g (i_ a) = map fst (concat (vcols g)) /\
     firstn g (x_ a) = map snd (concat (vcols g))) K 2 (face_step1 T one (line K)) (0, a0))
    as ((g & a) & E & -> & A1 & A2 & A3 & A4 & A5 & A6 & A7 & A8 & A9).
  - unfold a0; cbn [m_ n_ nzmax p_ i_ x_]. rewrite !map_length, !seq_length. repeat (split; auto).
  - intros k f (g & a) Hk Hf (-> & A1 & A2 & A3 & A4 & A5 & A6 & A7 & A8 & A9).
    assert (Hg : k * 2 + f < F) by (unfold F; nia).
    unfold face_step1. assert (Ef : getn [0; 1] f = Ok f) by (destruct f as [|[|f]]; [reflexivity|reflexivity|lia]).
    rewrite Ef. cbn [bind]. set (g := k * 2 + f) in *. rewrite (getn_ok _ _ _ (line_nth K g Hg)). cbn [bind].
    rewrite setn_ok by lia. cbn [bind]. unfold row_index. destruct (Z.ltb_spec (Z.of_nat (vtx g)) 0); [lia|]. cbn [bind].
    rewrite setn_ok by lia. cbn [bind]. rewrite setn_ok by lia. cbn [bind].
    eexists. split; [reflexivity|]. cbn [m_ n_ nzmax p_ i_ x_]. rewrite !upd_length.
    split; auto. do 6 (split; auto). rewrite vcols_S, concat_app, !map_app, !firstn_upd_snoc by lia.
    rewrite A7, A8, A9, seq_S, Nat2Z.id. auto.
  - replace (K * 2) with F in * by (unfold F; lia). rewrite E. cbn [bind]. rewrite setn_ok by (rewrite A4; auto). cbn [bind].
    unfold of_cols. pose proof (concat_vcols_len F) as L.
    destruct (concat (vcols F)) as [|e0 es] eqn:EC; [simpl in L; lia|]. rewrite <- EC in *.
    f_equal. rewrite ptrs_vcols. rewrite L, A1, A2, A3. f_equal.
    + unfold vcols. now rewrite map_length, seq_length.
    + rewrite seq_S. apply firstn_full with (n := S F); [now rewrite upd_length|].
      rewrite firstn_upd_snoc by lia. now rewrite A7.
    + now apply firstn_full with (n := F).
    + now apply firstn_full with (n := F).
Qed.

Definition tcol (F v : nat) : column := flat_map (fun g => if vtx g =? v then [(g, one)] else []) (seq 0 F).
Lemma tcol_in F v i x : In (i, x) (tcol F v) <-> i < F /\ vtx i = v /\ x = one.
Proof.
  unfold tcol. rewrite in_flat_map. split.
  - intros (g & Hg & H). apply in_seq in Hg. destruct (Nat.eqb_spec (vtx g) v); [|destruct H].
    destruct H as [H|[]]. injection H as <- <-. split; [lia|auto].
  - intros (H & <- & ->). exists i. split; [apply in_seq; lia|]. rewrite Nat.eqb_refl. left; auto.
Qed.
Lemma tcol_nodup F v : NoDup (map fst (tcol F v)).
Proof.
  induction F; [constructor|]. unfold tcol. rewrite seq_S, flat_map_app, map_app. cbn [plus flat_map]. rewrite app_nil_r.
  apply NoDup_app_mk; auto.
  - destruct (vtx F =? v); cbn; repeat constructor; auto.
  - intros x Hx Hy. apply in_map_iff in Hx. destruct Hx as ((i & y) & <- & Hx). fold (tcol F v) in Hx. apply tcol_in in Hx.
    destruct (vtx F =? v); [|destruct Hy]. destruct Hy as [Hy|[]]. cbn in Hy. lia.
Qed.
Lemma transpose_vcols NV F v : v < NV -> nth v (transpose_cols NV (vcols F)) [] = tcol F v.
Proof.
  intros H. rewrite transpose_cols_nth by auto. unfold vcols. rewrite map_length, seq_length, combine_seq_map.
  unfold tcol. generalize (seq 0 F). intros l. induction l as [|g l IH]; auto.
  cbn [map flat_map fst snd filter]. rewrite IH. destruct (vtx g =? v); reflexivity.
Qed.

Lemma picks_col K j : j < 2 * K ->
  picks T isOne j (mul_col add mul (transpose_cols (K + 1) (vcols (2 * K))) [(vtx j, one)]) =
  if negb (mate K j =? j) then [mate K j] else [].
Proof.
  intros Hj. unfold mul_col. cbn [fold_left fst snd]. rewrite transpose_vcols by (now apply vtx_lt).
  set (acc := scatter add mul (tcol (2 * K) (vtx j)) one []).
  assert (NC : NoDup (map fst acc)) by (apply scatter_nodup; constructor).
  assert (Hacc : forall i x, In (i, x) acc <-> i < 2 * K /\ vtx i = vtx j /\ x = mul one one).
  { intros i' x. unfold acc. rewrite (scatter_in T one add mul isOne) by (constructor || apply tcol_nodup). split.
    - intros [(_ & [])|(w & H & [(y & [] & _)|(_ & ->)])]. apply tcol_in in H. destruct H as (A & B & ->). auto.
    - intros (A & B & ->). right. exists one. split; [now apply tcol_in|]. right. simpl. auto. }
  apply NoDup_single.
  - unfold picks. clear Hacc. clearbody acc. induction acc as [|(i & x) acc IH]; cbn [map filter fst]; [constructor|].
    inversion NC as [|? ? N1 N2]; subst. specialize (IH N2). destruct (negb (i =? j) && isOne (snd (i, x))); auto.
    cbn [map fst]. constructor; auto. intros H. apply N1. apply in_map_iff in H. destruct H as (e & <- & He).
    apply filter_In in He. apply in_map. tauto.
  - intros i. unfold picks. rewrite in_map_iff. rewrite negb_true_iff, Nat.eqb_neq. split.
    + intros ((i' & x) & <- & H). apply filter_In in H. cbn [fst snd] in *. destruct H as (H & Ht).
      apply andb_true_iff in Ht. destruct Ht as (Hn & Ht). apply negb_true_iff, Nat.eqb_neq in Hn.
      apply Hacc in H. destruct H as (A & B & C). apply (vtx_mate K); auto.
    + intros (-> & N). exists (mate K j, mul one one). split; auto. apply filter_In. cbn [fst snd].
      rewrite one_yes, andb_true_r, negb_true_iff, Nat.eqb_neq. split; auto. apply Hacc.
      pose proof (mate_lt K j Hj). split; auto. split; auto. apply (vtx_mate K); auto.
Qed.

Lemma conns_len K cs : 0 < K -> length cs = 2 * K ->
  (forall j c, nth_error cs j = Some c -> picks T isOne j c = if negb (mate K j =? j) then [mate K j] else []) ->
  length (conns T isOne cs) = 2 * K - 2.
Proof.
  intros HK L H.
  assert (G : forall n, n <= 2 * K -> length (conns T isOne (firstn n cs)) = if n <? 2 * K then n - 1 else 2 * K - 2).
  { induction n; intros Hn.
    - cbn [firstn]. change (conns T isOne []) with (@nil (nat * nat)). cbn [length]. destruct (Nat.ltb_spec 0 (2 * K)); lia.
    - destruct (nth_error_ex cs n) as (c & Hc); [lia|]. rewrite (conns_firstn _ _ _ _ _ Hc), app_length, map_length, IHn by lia.
      rewrite (H n c Hc). assert (Hm : n < 2 * K) by lia. destruct (mate_self K n Hm) as (M1 & M2).
      destruct (Nat.eqb_spec (mate K n) n) as [Em|Em]; cbn [negb length].
      + specialize (M1 Em). destruct (Nat.ltb_spec n (2 * K)), (Nat.ltb_spec (S n) (2 * K)); lia.
      + assert (n <> 0 /\ n <> 2 * K - 1) by (split; intros ->; apply Em, M2; auto).
        destruct (Nat.ltb_spec n (2 * K)), (Nat.ltb_spec (S n) (2 * K)); lia. }
  specialize (G (2 * K) (le_n _)). rewrite Nat.ltb_irrefl, <- L, firstn_all in G. lia.
Qed.

Lemma connectivity_with_ok jk jp ji jx K e2e e2f : 0 < K -> (Z.of_nat (K + 1) * Z.of_nat (2 * K) <= INT_MAX)%Z ->
  length e2e = 2 * K -> length e2f = 2 * K ->
  buildConnectivity1D_with T one add mul isOne jk jp ji jx K (line K) e2e e2f =
    Ok (map (fun g => mate K g / 2) (seq 0 (2 * K)), map (fun g => mate K g mod 2) (seq 0 (2 * K))).
Proof.
  intros HK HS L1 L2. unfold buildConnectivity1D_with.
  rewrite (buildFToV_ok jp ji jx jk K HK HS). cbn [bind]. set (F := 2 * K) in *.
  assert (LF : length (vcols F) = F) by (unfold vcols; now rewrite map_length, seq_length).
  assert (V : valid (of_cols jk (K + 1) (vcols F))).
  { apply of_cols_valid. intros c e Hc He. unfold vcols in Hc. apply in_map_iff in Hc. destruct Hc as (g & <- & Hg).
    apply in_seq in Hg. destruct He as [<-|[]]. cbn [fst]. apply vtx_lt. fold F. lia. }
  unfold transpose at 1. rewrite (proj2 (validb_iff _) V). cbn [ctor_ptr bind].
  rewrite cols_of_of_cols. cbn [m_ n_ of_cols]. rewrite LF.
  assert (V2 : valid (of_cols jk F (transpose_cols (K + 1) (vcols F)))).
  { apply of_cols_valid. intros c e Hc He. pose proof (transpose_rows _ _ _ _ Hc He) as Q. now rewrite LF in Q. }
  unfold multiply. rewrite (proj2 (validb_iff _) V), (proj2 (validb_iff _) V2). cbn [andb].
  rewrite !cols_of_of_cols. cbn [m_ n_ of_cols].
  unfold transpose_cols at 1. rewrite map_length, seq_length, Nat.eqb_refl. cbn [ctor_ptr bind].
  set (cs := map (mul_col add mul (transpose_cols (K + 1) (vcols F))) (vcols F)).
  assert (Lcs : length cs = F) by (unfold cs; now rewrite map_length).
  destruct (Nat.ltb_spec F 2); [lia|].
  assert (HP : forall j c, nth_error cs j = Some c -> picks T isOne j c = if negb (mate K j =? j) then [mate K j] else []).
  { intros j c Hc. pose proof (nth_error_Some_lt _ _ _ Hc) as Hj. rewrite Lcs in Hj.
    unfold cs, vcols in Hc. rewrite !nth_error_map in Hc.
    rewrite nth_error_nth' with (d := 0) in Hc by (rewrite seq_length; auto). rewrite seq_nth in Hc by auto.
    injection Hc as <-. now apply picks_col. }
  pose proof (conns_len K cs HK Lcs HP) as LC. fold F in LC. rewrite <- LC.
  assert (ES : forall F', F' = F -> store_connections T isOne F' (length (conns T isOne cs)) (of_cols jk F' cs) =
     Ok (length (conns T isOne cs), map fst (conns T isOne cs), map snd (conns T isOne cs))).
  { intros F' ->. rewrite <- Lcs at 1. apply store_connections_ok. }
  rewrite ES by auto. cbn [bind]. rewrite self_tables_ok by lia. cbn [bind].
  replace (K * 2) with F by (unfold F; lia).
  assert (Hin : forall i j, In (i, j) (conns T isOne cs) <-> j < F /\ i = mate K j /\ mate K j <> j).
  { intros i j. rewrite conns_in. split.
    - intros (c & Hc & Hp). pose proof (nth_error_Some_lt _ _ _ Hc). rewrite (HP j c Hc) in Hp.
      destruct (Nat.eqb_spec (mate K j) j); cbn [negb] in Hp; [destruct Hp|]. destruct Hp as [<-|[]]. split; [lia|auto].
    - intros (Hj & -> & N). destruct (nth_error_ex cs j) as (c & Hc); [lia|]. exists c. split; auto. rewrite (HP j c Hc).
      destruct (Nat.eqb_spec (mate K j) j); [contradiction|]. left; auto. }
  assert (Inv : forall j, j < F -> mate K j <> j -> mate K (mate K j) = j).
  { intros j Hj N. pose proof (mate_lt K j Hj) as Hm.
    assert (Q : vtx j = vtx (mate K j) /\ j <> mate K j).
    { destruct (proj2 (vtx_mate K j (mate K j) Hj Hm) (conj eq_refl N)). split; auto. }
    apply (vtx_mate K (mate K j) j Hm Hj) in Q. symmetry. apply Q. }
  destruct (link_tables_ok 2 F (conns T isOne cs)) as (a & b & E & LA & LB & C).
  - lia.
  - intros i j H'. apply Hin in H'. destruct H' as (Hj & -> & _). now apply mate_lt.
  - apply (conns_sorted T isOne cs 0).
  - rewrite E. f_equal.
    assert (G : forall g, g < F -> nth_error a g = Some (mate K g / 2) /\ nth_error b g = Some (mate K g mod 2)).
    { intros g Hg. destruct (C g Hg) as [(H1 & H2)|(j & H1 & H2 & H3)].
      - assert (Em : mate K g = g).
        { destruct (Nat.eq_dec (mate K g) g) as [|N]; auto. exfalso. apply (H1 (mate K g)). apply Hin.
          split; [now apply mate_lt|]. rewrite (Inv g Hg N). split; auto. }
        now rewrite Em.
      - apply Hin in H1. destruct H1 as (Hj & -> & N). now rewrite (Inv j Hj N). }
    f_equal; apply list_ext_nth; intros g; (destruct (Nat.lt_ge_cases g F);
      [rewrite nth_error_map, nth_error_nth' with (l := seq 0 F) (d := 0) by (rewrite seq_length; auto); rewrite seq_nth by auto; now apply G
      |rewrite !(proj2 (nth_error_None _ _)); auto; [rewrite map_length, seq_length; auto|lia]]).
Qed.

Lemma connectivity_overflow jk jp ji jx K E2V e2e e2f : (INT_MAX < Z.of_nat (K + 1) * Z.of_nat (2 * K))%Z ->
  buildConnectivity1D_with T one add mul isOne jk jp ji jx K E2V e2e e2f = UB.
Proof.
  intros H. unfold buildConnectivity1D_with, buildFToV, ctor_sizes.
  destruct (Z.ltb_spec INT_MAX (Z.of_nat (K + 1) * Z.of_nat (2 * K))); [reflexivity|lia].
Qed.
End Conn1.

Lemma connectivity1D_ok jk jp ji jx K e2e e2f : 0 < K -> (Z.of_nat (K + 1) * Z.of_nat (2 * K) <= INT_MAX)%Z ->
  length e2e = 2 * K -> length e2f = 2 * K ->
  buildConnectivity1D jk jp ji jx K (line K) e2e e2f =
    Ok (map (fun g => mate K g / 2) (seq 0 (2 * K)), map (fun g => mate K g mod 2) (seq 0 (2 * K))).
Proof. intros. apply connectivity_with_ok; auto. Qed.

(* ---- normals, face coordinates, maps ---- *)
Definition endn (Np g : nat) : nat := end_node Np (g / 2) (g mod 2).
Lemma endn_flat Np k f : f < 2 -> endn Np (k * 2 + f) = end_node Np k f.
Proof. intros. unfold endn. now rewrite div_flat, mod_flat. Qed.
Lemma endn_lt Np K g : 0 < Np -> g < 2 * K -> endn Np g < K * Np.
Proof.
  intros HN Hg. unfold endn, end_node. assert (g / 2 < K) by (apply Nat.div_lt_upper_bound; lia). destruct (g mod 2 =? 0); nia.
Qed.

Lemma fmask_ok Np f : f < 2 -> getn (Fmask1D Np) f = Ok (if f =? 0 then 0 else Np - 1).
Proof. intros. destruct f as [|[|f]]; [reflexivity|reflexivity|lia]. Qed.

Section Maps.
Context {T : Type} (A : arith T).
Variable junk : nat -> nat -> T.

Lemma faceCoords_ok Np K (x : mat T) : 0 < Np -> mrows x = Np -> mcols x = K ->
  exists Fx, faceCoords junk Np K x = Ok Fx /\ mrows Fx = 2 /\ mcols Fx = K /\
    forall f k, f < 2 -> k < K -> ment Fx f k = ment x (if f =? 0 then 0 else Np - 1) k.
Proof.
  intros HN Hr Hc. unfold faceCoords.
  destruct (nested_inv (fun g (F : mat T) => mrows F = 2 /\ mcols F = K /\
     forall f k, f < 2 -> k * 2 + f < g -> ment F f k = ment x (if f =? 0 then 0 else Np - 1) k) K 2
     (fun k f Fx => bind (getn (Fmask1D Np) f) (fun m => bind (mget x m k) (fun v => mset Fx f k v))) (mkmat 2 K junk)) as (F & E & R & C & H).
  - cbn. repeat split; auto. intros; lia.
  - intros k f F Hk Hf (R & C & H). rewrite fmask_ok by auto. cbn [bind]. unfold mget. rewrite inb_true by (rewrite ?Hr, ?Hc; destruct (f =? 0); lia).
    cbn [bind]. unfold mset. rewrite inb_true by lia. eexists. split; [reflexivity|]. cbn [mrows mcols ment]. split; auto. split; auto.
    intros f' k' Hf' Hlt. destruct (Nat.eqb_spec f' f) as [->|], (Nat.eqb_spec k' k) as [->|]; cbn [andb]; auto; apply H; lia.
  - exists F. split; auto. split; auto. split; auto. intros f k Hf Hk. apply H; lia.
Qed.

Lemma normals_ok K : (fmul A (fmul A (fopp A (fofn A 1)) (fopp A (fofn A 1))) (fopp A (fofn A 1)) = fopp A (fofn A 1)) ->
  exists nx, buildNormals1D A junk K = Ok nx /\ mrows nx = 2 /\ mcols nx = K /\
    forall k, k < K -> ment nx 0 k = fopp A (fofn A 1) /\ ment nx 1 k = fmul A (fopp A (fofn A 1)) (fopp A (fofn A 1)).
Proof.
  intros Hm. unfold buildNormals1D. set (m1 := fopp A (fofn A 1)) in *.
  set (val := fun f : nat => if f =? 0 then m1 else fmul A m1 m1).
  destruct (nested_inv (fun g (st : mat T * T) => mrows (fst st) = 2 /\ mcols (fst st) = K /\ snd st = val (g mod 2) /\
     forall f k, f < 2 -> k * 2 + f < g -> ment (fst st) f k = val f) K 2
     (fun k f '(nx, mult) => bind (mset nx f k mult) (fun nx' => Ok (nx', fmul A mult m1))) (mkmat 2 K junk, m1)) as ((F & mm) & E & R & C & _ & H).
  - cbn. repeat split; auto. intros; lia.
  - intros k f (F & mm) Hk Hf (R & C & M & H). cbn [fst snd] in *. unfold mset. rewrite inb_true by lia. cbn [bind].
    eexists. split; [reflexivity|]. cbn [fst snd mrows mcols ment]. split; auto. split; auto.
    rewrite mod_flat in M by auto. split.
    + subst mm. unfold val. destruct f as [|[|f]]; [| |lia]; cbn [Nat.eqb].
      * replace (S (k * 2 + 0)) with (k * 2 + 1) by lia. rewrite mod_flat by lia. reflexivity.
      * replace (S (k * 2 + 1)) with (S k * 2 + 0) by lia. rewrite mod_flat by lia. cbn [Nat.eqb]. exact Hm.
    + intros f' k' Hf' Hlt. destruct (Nat.eqb_spec f' f) as [->|], (Nat.eqb_spec k' k) as [->|]; cbn [andb]; auto; apply H; lia.
  - change (fopp A (fofn A 1)) with m1. rewrite E. cbn [bind fst] in *. exists F. split; auto. split; auto. split; auto.
    intros k Hk. split; apply H; lia.
Qed.

Variable tol : T.
Lemma maps_ok Np K (x : mat T) E2E E2F : 0 < Np -> mrows x = Np -> mcols x = K ->
  E2E = map (fun g => mate K g / 2) (seq 0 (2 * K)) -> E2F = map (fun g => mate K g mod 2) (seq 0 (2 * K)) ->
  (forall g, g < 2 * K -> let fx g := ment x (if g mod 2 =? 0 then 0 else Np - 1) (g / 2) in
     let dx := fsub A (fx g) (fx (mate K g)) in flt A (fsqrt A (fmul A dx dx)) tol = true) ->
  buildMaps1D A tol Np K x E2E E2F = Ok (map (endn Np) (seq 0 (2 * K)), map (fun g => endn Np (mate K g)) (seq 0 (2 * K))).
Proof.
  intros HN Hr Hc -> -> Hclose. unfold buildMaps1D.
  destruct (to1d_spec x false (repeat (fofn A 0) (K * Np))) as (xs & -> & Lx & Hx & _); [rewrite repeat_length, Hr, Hc; lia|]. cbn [bind].
  set (F := 2 * K) in *.
  assert (Mod2 : forall n, n mod 2 < 2) by (intros; apply Nat.mod_upper_bound; lia).
  assert (Hxe : forall g, g < F -> nth_error xs (endn Np g) = Some (ment x (if g mod 2 =? 0 then 0 else Np - 1) (g / 2))).
  { intros g Hg. assert (g / 2 < K) by (apply Nat.div_lt_upper_bound; lia).
    rewrite <- Hx; [|destruct (g mod 2 =? 0); lia|lia]. f_equal. unfold endn, end_node, flat_index. rewrite Hr. destruct (g mod 2 =? 0); lia. }
  destruct (nested_inv (fun g (st : list nat * nat) => snd st = g /\ length (fst st) = F /\ firstn g (fst st) = map (endn Np) (seq 0 g)) K 2
    (fun k f '(vmM, count) =>
     bind (getn (Fmask1D Np) f) (fun m =>
     bind (mget (mkmat Np K (fun i k => i + Np * k)) m k) (fun id =>
     bind (setn vmM count id) (fun v' => Ok (v', S count))))) (repeat 0 F, 0)) as ((vm & c) & E & _ & Lv & Hv).
  - cbn. now rewrite repeat_length.
  - intros k f (vm & c) Hk Hf (Ec & Lv & Hv). cbn [fst snd] in *. subst c. rewrite fmask_ok by auto. cbn [bind].
    unfold mget. rewrite inb_true by (cbn [mrows mcols]; destruct (f =? 0); lia). cbn [bind ment].
    assert (k * 2 + f < F) by (unfold F; nia). rewrite setn_ok by lia. cbn [bind]. eexists. split; [reflexivity|]. cbn [fst snd].
    rewrite upd_length. split; auto. split; auto. rewrite firstn_upd_snoc by lia. rewrite Hv, seq_S, map_app. cbn [map plus].
    rewrite endn_flat by auto.
    replace ((if f =? 0 then 0 else Np - 1) + Np * k) with (end_node Np k f) by (unfold end_node; destruct (f =? 0); lia). reflexivity.
  - rewrite E. cbn [bind fst snd] in *. replace (K * 2) with F in Hv by (unfold F; lia). rewrite firstn_all2 in Hv by lia. subst vm.
    destruct (nested_inv (fun g (st : list nat * nat) => snd st = g /\ length (fst st) = F /\ firstn g (fst st) = map (fun g => endn Np (mate K g)) (seq 0 g)) K 2
     (fun k1 f1 '(vmP, count) =>
     bind (getn (map (fun g => mate K g / 2) (seq 0 F)) (k1 * 2 + f1)) (fun k2 => bind (getn (map (fun g => mate K g mod 2) (seq 0 F)) (k1 * 2 + f1)) (fun f2 =>
     bind (getn (map (endn Np) (seq 0 F)) (k1 * 2 + f1)) (fun vidM => bind (getn (map (endn Np) (seq 0 F)) (k2 * 2 + f2)) (fun vidP =>
     bind (getn xs vidM) (fun xM => bind (getn xs vidP) (fun xP =>
     let dx := fsub A xM xP in
     if flt A (fsqrt A (fmul A dx dx)) tol
     then bind (setn vmP count vidP) (fun v' => Ok (v', S count))
     else Ok (vmP, S count)))))))) (repeat 0 F, 0)) as ((vp & c') & E' & _ & Lp & Hp).
    + cbn. now rewrite repeat_length.
    + intros k f (vp & c') Hk Hf (Ec & Lp & Hp). cbn [fst snd] in *. subst c'.
      assert (Hg : k * 2 + f < F) by (unfold F; nia). set (g := k * 2 + f) in *.
      assert (G : forall h : nat -> nat, forall i, i < F -> getn (map h (seq 0 F)) i = Ok (h i)).
      { intros h i Hi. apply getn_ok. rewrite nth_error_map, nth_error_nth' with (d := 0) by (rewrite seq_length; auto). now rewrite seq_nth. }
      rewrite (G _ g Hg). cbn [bind]. rewrite (G _ g Hg). cbn [bind]. rewrite (G _ g Hg). cbn [bind].
      pose proof (mate_lt K g Hg) as Hm. fold F in Hm.
      replace (mate K g / 2 * 2 + mate K g mod 2) with (mate K g) by (rewrite Nat.mul_comm; apply Nat.div_mod; lia).
      rewrite (G _ _ Hm). cbn [bind]. rewrite (getn_ok _ _ _ (Hxe g Hg)). cbn [bind]. rewrite (getn_ok _ _ _ (Hxe _ Hm)). cbn [bind].
      specialize (Hclose g Hg). cbv zeta in Hclose. cbv zeta. rewrite Hclose.
      rewrite setn_ok by lia. cbn [bind]. eexists. split; [reflexivity|]. cbn [fst snd]. rewrite upd_length. split; auto. split; auto.
      rewrite firstn_upd_snoc by lia. rewrite Hp, seq_S, map_app. reflexivity.
    + match type of E' with ?l = _ => match goal with |- bind ?r _ = _ => change r with l end end. rewrite E'. cbn [bind fst snd] in *. replace (K * 2) with F in Hp by (unfold F; lia). rewrite firstn_all2 in Hp by lia. now subst vp.
Qed.
End Maps.
