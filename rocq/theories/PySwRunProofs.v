(* PySwRunProofs.v - sw2dComputeRHS compared with the C++ driver, and on a mesh. *)
From Coq Require Import ZArith List Lia Bool Arith.
From Verif Require Import Base Loops Num JacobiSpec JacobiQuadProofs Nodes1DModel Maps2DModel RKModel Line1DModel Line1DProofs TriModel TriSpec TriGeoSpec MeshSpec Maps2DSpec TriSetup TriDGSpec TriDGProofs TriMapsProofs TriMapsProps
  SwModel SwSpec SwProofs SwSchemeProofs SwRunProofs SwProps CurvedSwModel CurvedSwSpec CurvedSwProofs PySwModel PySwSpec PySwProofs.
From Coq Require Import Reals Lra.
Import ListNotations.
Local Open Scope R_scope.

Lemma maxto_low G low n (h : nat -> R) : low <= 0 -> (0 < n)%nat -> (forall i, (i < n)%nat -> 0 <= h i) -> maxto G low n h = maxto G 0 n h.
Proof.
  intros Hl. induction n as [|[|n] IH]; intros Hn Hh; [lia| |].
  - rewrite !maxto_S. unfold maxto. cbn [seq fold_left]. specialize (Hh 0%nat ltac:(lia)). rewrite !Rmax_right by lra. reflexivity.
  - rewrite (maxto_S G low), (maxto_S G 0), IH by (try lia; intros; apply Hh; lia). reflexivity.
Qed.

(* the tables with other index maps *)
Definition with_maps (d : dg2d (T := R)) (vmapM vmapP : list nat) : dg2d (T := R) :=
  Dg2d (d_Dr d) (d_Ds d) (d_Lift d) (d_Fscale d) (d_nx d) (d_ny d) (d_rx d) (d_ry d) (d_sx d) (d_sy d) vmapM vmapP (d_bc d).

Section Run.
Variables (G : R -> R) (d : dg2d (T := R)) (NF Nfp Np K : nat) (vmapM vmapP mapW : list nat) (g CD f : R) (zx zy : mat R) (q : four (mat R)).
Hypothesis HR : py_ready d NF Nfp Np K vmapM vmapP mapW zx zy q.
Local Notation nearq := (near Np vmapM q).
Local Notation oppq := (opposite d NF Nfp Np vmapM vmapP mapW q).
Local Notation lam := (face_speed G d NF Nfp Np vmapM vmapP mapW g q).
Local Notation rate4q := (rate4 G d NF Nfp Np vmapM vmapP mapW g q).

Lemma rate_water c i k : (c < 3)%nat -> rate4q c i k = rate d NF Nfp Np g (water q) (fun p => fst (nearq p)) (fun p => fst (oppq p)) lam c i k.
Proof.
  intro Hc. unfold rate4, rate, strong_entry, jump_entry.
  assert (E : (c <? 3)%nat = true) by (apply Nat.ltb_lt; exact Hc). unfold through4, rusanov4, through4, part4. rewrite E.
  assert (X : forall j, through g c (1, 0) (fst (node_state q j k)) = part c (flux_x g (at_node (water q) j k))) by (intro j; unfold through; cbn [fst snd]; change (fst (node_state q j k)) with (at_node (water q) j k); ring).
  assert (Y : forall j, through g c (0, 1) (fst (node_state q j k)) = part c (flux_y g (at_node (water q) j k))) by (intro j; unfold through; cbn [fst snd]; change (fst (node_state q j k)) with (at_node (water q) j k); ring).
  f_equal. f_equal; f_equal; f_equal; f_equal; apply sumn_ext; intros j Hj; rewrite ?X, ?Y; reflexivity.
Qed.
(* the tracer as a substance *)
Definition stuff (x : cell4) : cell := (snd x, snd x * (part 1 (fst x) / depth x), snd x * (part 2 (fst x) / depth x)).
Lemma rate_tracer i k : rate4q 3 i k = rate d NF Nfp Np 0 (tracer Np K q) (fun p => stuff (nearq p)) (fun p => stuff (oppq p)) lam 0 i k.
Proof.
  unfold rate4, rate, strong_entry, jump_entry. cbv [through4 rusanov4 part4]. cbn [Nat.ltb Nat.leb].
  assert (T : forall n x, snd x * ((fst n * part 1 (fst x) + snd n * part 2 (fst x)) / depth x) = through 0 0 n (stuff x)) by (intros n x; unfold through, stuff; cbn [flux_x flux_y part fst snd]; unfold Rdiv; ring).
  f_equal; [f_equal; f_equal; f_equal; f_equal; apply sumn_ext; intros j Hj; f_equal; unfold node_state, tracer, at_node, depth; cbn [fieldc part flux_x flux_y fst snd ment]; unfold Rdiv; ring|].
  apply sumn_ext. intros j Hj. f_equal. f_equal. rewrite !T. unfold rusanov. cbn [stuff part fst]. reflexivity.
Qed.

(* the C++ driver with the same tables and maps computes the same rates of the water, before the source terms *)
Theorem same_water jk jv low : low <= 0 -> exists z r, py_rhs (exact G) rhypot d NF Nfp Np K vmapM vmapP g CD f zx zy q = Ok z /\ four_conform z Np K = true /\
  sw_simple_rhs (exact G) jk jv low (with_maps d vmapM vmapP) NF Nfp Np K g (water q) = Ok r /\
  forall c i k, (c < 3)%nat -> (i < Np)%nat -> (k < K)%nat -> ment (pick c z) i k = ment (fieldc c r) i k + source4 g CD f (ment zx i k) (ment zy i k) c (node_state q i k).
Proof.
  intro Hl. destruct (py_ok G d NF Nfp Np K vmapM vmapP mapW g CD f zx zy q HR) as (z & Ez & Cz & Hz). destruct HR as [(H1 & H2 & H3) HC (HQ & Hx & Hy) HM HP (HW & BW) Hwet].
  assert (HQ' : state_conform (water q) Np K = true) by (unfold four_conform in HQ; rewrite !andb_true_iff in HQ; unfold water, state_conform; rewrite !andb_true_iff; tauto).
  destruct (simple_ok G jk jv low (with_maps d vmapM vmapP) NF Nfp Np K g (water q) mapW HC HQ' H1 H2 H3) as (r & Er & _ & Hr); [|exact HW|exact BW|].
  { unfold maps_ok. cbn [with_maps d_vmapM d_vmapP]. tauto. }
  exists z, r. split; [exact Ez|]. split; [exact Cz|]. split; [exact Er|]. intros c i k Hc Hi Hk. rewrite Hz by lia. f_equal. rewrite rate_water by exact Hc. cbv zeta in Hr. rewrite Hr by assumption.
  unfold rate, strong_entry. cbn [with_maps d_Dr d_Ds d_Lift d_Fscale d_rx d_sx d_ry d_sy]. f_equal. apply sumn_ext. intros j Hj. f_equal. f_equal. unfold jump_entry.
  set (p := (j + k * (NF * Nfp))%nat).
  assert (EO : forall p, (if inb p mapW then (part 0 (cell_at Np (water q) (vP (with_maps d vmapM vmapP) p)), part 1 (mirror (normal_at (with_maps d vmapM vmapP) (NF * Nfp) p) (cell_at Np (water q) (vM (with_maps d vmapM vmapP) p))), part 2 (mirror (normal_at (with_maps d vmapM vmapP) (NF * Nfp) p) (cell_at Np (water q) (vM (with_maps d vmapM vmapP) p)))) else cell_at Np (water q) (vP (with_maps d vmapM vmapP) p)) = fst (oppq p)).
  { intro p'. unfold opposite. destruct (inb p' mapW); reflexivity. }
  rewrite (EO p). match goal with |- _ = _ - rusanov _ _ _ ?L _ _ => enough (EL : lam p = L) by (rewrite <- EL; reflexivity) end.
  unfold face_speed, face_max. rewrite (maxto_low G low) by (try assumption; intros i' _; apply (Rle_trans _ _ _ (speed_nonneg _ _) (Rmax_l _ _))). apply maxto_ext. intros n Hn. rewrite (EO (n + p / Nfp * Nfp)%nat). reflexivity.
Qed.

(* uniform concentration *)
Theorem tracer_kept t z : (forall i k, (i < Np)%nat -> (k < K)%nat -> ment (q_hN q) i k = t * ment (q_h q) i k) -> py_rhs (exact G) rhypot d NF Nfp Np K vmapM vmapP g CD f zx zy q = Ok z ->
  forall i k, (i < Np)%nat -> (k < K)%nat -> ment (q_hN z) i k = t * ment (q_h z) i k.
Proof.
  intros Ht Ez i k Hi Hk. destruct (py_ok G d NF Nfp Np K vmapM vmapP mapW g CD f zx zy q HR) as (z' & Ez' & _ & Hz). assert (z' = z) by congruence. subst z'.
  pose proof (Hz 3%nat i k ltac:(lia) Hi Hk) as H3. pose proof (Hz 0%nat i k ltac:(lia) Hi Hk) as H0. cbn [pick] in H3, H0. rewrite H3, H0.
  assert (ES : forall c, c = 0%nat \/ c = 3%nat -> source4 g CD f (ment zx i k) (ment zy i k) c (node_state q i k) = 0) by (intros c [-> | ->]; reflexivity). rewrite !ES by tauto. rewrite !Rplus_0_r.
  assert (HN : forall v, (v < Np * K)%nat -> snd (node4 Np q v) = t * depth (node4 Np q v)).
  { intros v Hv. destruct HR as [(HNp & _) _ _ _ _ _ _]. unfold node4, node_state, depth. cbn [fst snd part]. apply Ht; [apply Nat.mod_upper_bound; lia|apply Nat.div_lt_upper_bound; lia]. }
  assert (TH : forall n x, depth x <> 0 -> snd x = t * depth x -> through4 g 3 n x = t * through4 g 0 n x).
  { intros n x Hx E. unfold through4. cbn [Nat.ltb Nat.leb]. rewrite E. destruct x as [[[h hu] hv] hn]. unfold through, depth, flux_x, flux_y in *. cbn [fst snd part] in *. field. exact Hx. }
  assert (NW : forall p, (p < NF * Nfp * K)%nat -> depth (nearq p) <> 0 /\ snd (nearq p) = t * depth (nearq p)).
  { intros p Hp. split; [apply (near_wet d NF Nfp Np K vmapM vmapP mapW zx zy q p HR Hp)|]. apply HN. destruct HR as [_ _ _ (L & B) _ _ _]. apply B, nth_In. lia. }
  assert (OW : forall p, (p < NF * Nfp * K)%nat -> depth (oppq p) <> 0 /\ snd (oppq p) = t * depth (oppq p)).
  { intros p Hp. assert (W : depth (beyond_ Np vmapP q p) <> 0 /\ snd (beyond_ Np vmapP q p) = t * depth (beyond_ Np vmapP q p)).
    { split; [apply (beyond_wet d NF Nfp Np K vmapM vmapP mapW zx zy q p HR Hp)|]. apply HN. destruct HR as [_ _ _ _ (L & B) _ _]. apply B, nth_In. lia. }
    unfold opposite. destruct (inb p mapW); [exact W|exact W]. }
  unfold rate4, strong_entry.
  set (a := ment (d_rx d) i k). set (b := ment (d_sx d) i k). set (e := ment (d_ry d) i k). set (h := ment (d_sy d) i k).
  assert (V : forall (D : mat R) n, sumn Np (fun j => ment D i j * through4 g 3 n (node_state q j k)) = t * sumn Np (fun j => ment D i j * through4 g 0 n (node_state q j k))).
  { intros D n. rewrite <- sumn_scal. apply sumn_ext. intros j Hj. cbv beta. rewrite (TH n (node_state q j k)); [ring| |apply (Ht j k Hj Hk)]. destruct HR as [_ _ _ _ _ _ Hw]. apply (Hw j k Hj Hk). }
  rewrite !V. match goal with |- _ + sumn _ ?F3 = t * (_ + sumn _ ?F0) => enough (S : sumn (NF * Nfp) F3 = t * sumn (NF * Nfp) F0) by (rewrite S; ring) end.
  rewrite <- sumn_scal. apply sumn_ext. intros j Hj. cbv zeta. set (p := (j + k * (NF * Nfp))%nat). assert (Hp : (p < NF * Nfp * K)%nat) by (unfold p; nia).
  destruct (NW p Hp) as (W1 & W2). destruct (OW p Hp) as (W3 & W4). unfold rusanov4. rewrite !(TH _ _ W1 W2), !(TH _ _ W3 W4). unfold part4. cbn [Nat.ltb Nat.leb]. rewrite W2, W4. unfold depth. field.
Qed.
End Run.

(* On a mesh. *)
Section Mesh.
Context (G : R -> R) (solve : mat R -> mat R -> mat R -> outcome (mat R)) (inverse : mat R -> mat R -> outcome (mat R))
  (junk : nat -> nat -> R) (eps : R) (eig : nat -> (nat -> nat -> R) -> list R * (nat -> nat -> R)) (tol : R)
  (sort : (nat -> nat -> bool) -> list nat -> list nat) (junk1 : nat -> R) (junkn : nat -> nat)
  (N K : nat) (Vert : list R) (EToV E2E E2F : list nat) (bcType : list Z) (el : element (T := R)) (m : maps).
Local Notation Grid := (sw_grid G solve inverse junk eps eig tol sort junk1 junkn N K Vert EToV E2E E2F bcType el m).
Local Notation Np := (length (e_r el)).
Local Notation d := (tables_of el m).
Local Notation alone k f := (forall k2 f2, (f2 < 3)%nat -> ~ joined EToV k f k2 f2).
Local Notation fid := (face_id 3 (S N)).
Hypothesis HG : Grid.
Hypothesis Hwall : forall k f, (k < K)%nat -> (f < 3)%nat -> tag_of bcType k f = 3%Z -> alone k f.
Variables (g CD f : R) (zx zy : mat R) (q : four (mat R)).
Hypothesis Htag : exists k f, (k < K)%nat /\ (f < 3)%nat /\ tag_of bcType k f = 3%Z.
Hypothesis HQ : four_conform q Np K = true.
Hypothesis Hzx : conform zx Np K = true.
Hypothesis Hzy : conform zy Np K = true.
Hypothesis Hwet : forall i k, (i < Np)%nat -> (k < K)%nat -> ment (q_h q) i k <> 0.

Lemma mesh_ready_py : exists mapW, py_ready d 3 (S N) Np K (m_vmapM m) (m_vmapP m) mapW zx zy q /\ forall n fc k, (n <= N)%nat -> (fc < 3)%nat -> (k < K)%nat -> In (fid n fc k) mapW <-> tag_of bcType k fc = 3%Z.
Proof.
  destruct HG as [HB HM HA HS Hrun Hbc].
  destruct (hash_at G solve inverse junk eps eig tol N K Vert EToV el HB E2E E2F HM sort junk1 junkn bcType m Hrun Hbc 3 ltac:(discriminate)) as (l & Hin & Hlt & Hsome & _). specialize (Hsome Htag).
  pose proof (conform_d _ _ _ _ _ _ _ _ _ _ _ _ HB m) as HC. pose proof (maps_bounds _ _ _ _ _ _ _ _ _ _ _ _ HB _ _ HM HA HS _ _ _ _ _ _ Hrun) as (L1 & L2 & B1 & B2).
  exists l. split; [|exact Hin]. constructor; auto. split; [exact (Np_pos _ _ _ _ _ _ _ _ _ _ _ _ HB _ _ _ _ _ _ _ _ Hrun)|lia].
Qed.

Local Notation scheme := (dg_scheme N Np K Vert EToV (e_x el) (e_y el)).
Local Notation local := (local_speed Np K Vert EToV (e_x el) (e_y el)).
Local Notation run := (py_rhs (exact G) rhypot d 3 (S N) Np K (m_vmapM m) (m_vmapP m) g CD f zx zy q).

Lemma mesh_water : exists z r, run = Ok z /\ four_conform z Np K = true /\ scheme g (water q) (walls bcType) (local g (water q) (walls bcType)) r /\
  forall c i k, (c < 3)%nat -> (i < Np)%nat -> (k < K)%nat -> ment (pick c z) i k = ment (fieldc c r) i k + source4 g CD f (ment zx i k) (ment zy i k) c (node_state q i k).
Proof.
  destruct mesh_ready_py as (mapW & HR & _). destruct (same_water G d 3 (S N) Np K _ _ mapW g CD f zx zy q HR (fun _ _ => 0) (fun _ => 0) 0 (Rle_refl 0)) as (z & r & Ez & Cz & Er & Hz).
  exists z, r. split; [exact Ez|]. split; [exact Cz|]. split; [|exact Hz].
  destruct (C49_simple_scheme G solve inverse junk eps eig tol sort junk1 junkn N K Vert EToV E2E E2F bcType el m (fun _ _ => 0) (fun _ => 0) 0 HG (Rle_refl 0) Hwall Htag g (water q)) as (r' & Er' & _ & Hs).
  { unfold four_conform in HQ. rewrite !andb_true_iff in HQ. unfold water, state_conform. rewrite !andb_true_iff. tauto. }
  change (with_maps d (m_vmapM m) (m_vmapP m)) with d in Er. assert (r' = r) by congruence. subst r'. exact Hs.
Qed.

(* the fields carried as if tracer were water: all three components, so that the lemmas about schemes apply *)
Definition stuff_rate (mapW : list nat) : field :=
  let p c := mkmat Np K (fun i k => rate d 3 (S N) Np 0 (tracer Np K q) (fun p => stuff (near Np (m_vmapM m) q p)) (fun p => stuff (opposite d 3 (S N) Np (m_vmapM m) (m_vmapP m) mapW q p)) (face_speed G d 3 (S N) Np (m_vmapM m) (m_vmapP m) mapW g q) c i k) in
  (p 0%nat, p 1%nat, p 2%nat).
Lemma mesh_stuff : exists z mapW, run = Ok z /\ four_conform z Np K = true /\ (forall i k, (i < Np)%nat -> (k < K)%nat -> ment (q_hN z) i k = ment (fieldc 0 (stuff_rate mapW)) i k) /\
  scheme 0 (tracer Np K q) (walls bcType) (local g (water q) (walls bcType)) (stuff_rate mapW).
Proof.
  destruct mesh_ready_py as (mapW & HR & Hin). destruct (py_ok G d 3 (S N) Np K _ _ mapW g CD f zx zy q HR) as (z & Ez & Cz & Hz). exists z, mapW. split; [exact Ez|]. split; [exact Cz|].
  split. { intros i k Hi Hk. pose proof (Hz 3%nat i k ltac:(lia) Hi Hk) as X. cbn [pick] in X. rewrite X. cbn [stuff_rate fieldc fst ment]. rewrite rate_tracer with (K := K). unfold source4. destruct (fst (node_state q i k)) as [[? ?] ?]. ring. }
  pose proof HG as [HB HM HA HS Hrun Hbc].
  set (nearq := near Np (m_vmapM m) q) in *. set (opp := opposite d 3 (S N) Np (m_vmapM m) (m_vmapP m) mapW q) in *.
  assert (HownW : forall n f k, (n <= N)%nat -> (f < 3)%nat -> (k < K)%nat -> fst (nearq (fid n f k)) = at_node (water q) (fnode el f n) k).
  { intros n f0 k Hn Hf Hk. exact (own_ok G solve inverse junk eps eig tol N K Vert EToV el HB E2E E2F HM HA HS sort junk1 junkn bcType m Hrun (water q) n f0 k Hn Hf Hk). }
  assert (EN : forall v, (v < Np * K)%nat -> stuff (node4 Np q v) = cell_at Np (tracer Np K q) v).
  { intros v Hv. reflexivity. }
  assert (Hown : forall n f k, (n <= N)%nat -> (f < 3)%nat -> (k < K)%nat -> stuff (nearq (fid n f k)) = at_node (tracer Np K q) (fnode el f n) k).
  { intros n f0 k Hn Hf Hk. exact (own_ok G solve inverse junk eps eig tol N K Vert EToV el HB E2E E2F HM HA HS sort junk1 junkn bcType m Hrun (tracer Np K q) n f0 k Hn Hf Hk). }
  assert (Hb : forall n f k, (n <= N)%nat -> (f < 3)%nat -> (k < K)%nat -> inb (fid n f k) mapW = Z.eqb (tag_of bcType k f) 3).
  { intros n f0 k Hn Hf Hk. exact (inb_tag N K bcType 3 mapW n f0 k Hin Hn Hf Hk). }
  assert (HvP : forall n f k, (n <= N)%nat -> (f < 3)%nat -> (k < K)%nat -> tag_of bcType k f = 3%Z -> beyond_ Np (m_vmapP m) q (fid n f k) = nearq (fid n f k)).
  { intros n f0 k Hn Hf Hk Ht. pose proof (vP_wall G solve inverse junk eps eig tol N K Vert EToV el HB E2E E2F HM HA HS sort junk1 junkn bcType m Hrun n f0 k Hn Hf Hk (Hwall k f0 Hk Hf Ht)) as X. unfold vP, vM in X. cbn [tables_of d_vmapM d_vmapP] in X.
    unfold nearq, near, beyond_. rewrite X. reflexivity. }
  assert (HotherW : forall n f k, (n <= N)%nat -> (f < 3)%nat -> (k < K)%nat -> fst (opp (fid n f k)) =
    match walls bcType k f with Some B => B (fnode el f n) (normal_at d (3 * S N) (fid n f k)) (fst (nearq (fid n f k))) | None => cell_at Np (water q) (vP d (fid n f k)) end).
  { intros n f0 k Hn Hf Hk. unfold opp, opposite, walls. rewrite (Hb n f0 k Hn Hf Hk). destruct (Z.eqb_spec (tag_of bcType k f0) 3) as [Et|Et]; [|reflexivity]. rewrite (HvP n f0 k Hn Hf Hk Et). fold nearq. cbn [fst]. destruct (fst (nearq (fid n f0 k))) as [[? ?] ?]. reflexivity. }
  assert (Hother : forall n f k, (n <= N)%nat -> (f < 3)%nat -> (k < K)%nat -> stuff (opp (fid n f k)) =
    match walls bcType k f with Some B => B (fnode el f n) (normal_at d (3 * S N) (fid n f k)) (stuff (nearq (fid n f k))) | None => cell_at Np (tracer Np K q) (vP d (fid n f k)) end).
  { intros n f0 k Hn Hf Hk. unfold opp, opposite, walls. rewrite (Hb n f0 k Hn Hf Hk). destruct (Z.eqb_spec (tag_of bcType k f0) 3) as [Et|Et]; [|reflexivity]. rewrite (HvP n f0 k Hn Hf Hk Et). fold nearq.
    destruct (nearq (fid n f0 k)) as [[[h hu] hv] hn]. destruct (normal_at d (3 * S N) (fid n f0 k)) as [n1 n2]. unfold stuff, depth, mirror. cbn [fst snd part]. unfold Rdiv. f_equal; [f_equal|]; ring. }
  set (sp := fun i => Rmax (wave_speed g (fst (nearq i))) (wave_speed g (fst (opp i)))).
  apply (scheme_ok _ _ _ _ _ _ _ _ _ _ _ _ HB _ _ HM HA HS _ _ _ _ _ _ Hrun 0 (tracer Np K q) (walls bcType) (fun p => stuff (nearq p)) (fun p => stuff (opp p)) Hown Hother _ (face_max G 0 (S N) sp) (fun k f => maxto G 0 (S N) (fun j => sp (fid j f k)))).
  - intros n f0 k Hn Hf Hk. unfold face_max. apply maxto_ext. intros j Hj. rewrite (fid_add N K bcType Hbc) by assumption. reflexivity.
  - intros f0 k Hf Hk. destruct (max_local G solve inverse junk eps eig tol N K Vert EToV el HB E2E E2F HM HA HS sort junk1 junkn bcType m Hrun g (water q) (walls bcType) (fun p => fst (nearq p)) (fun p => fst (opp p)) HownW HotherW f0 k Hf Hk) as (Hin1 & Hin2). split.
    + destruct (maxto_attained G 0 (S N) (fun j => sp (fid j f0 k)) ltac:(lia)) as (j & Hj & Ej). { intros i _. unfold sp. eapply Rle_trans; [apply speed_nonneg|apply Rmax_l]. }
      destruct (Hin1 j ltac:(lia)) as (t & Ft). exists t, (fst (nearq (fid j f0 k))), (fst (opp (fid j f0 k))). split; [exact Ft|]. rewrite Ej. unfold sp, Rmax. destruct (Rle_dec _ _); auto.
    + intros v Hv. destruct (Hin2 v Hv) as (j & Hj & Hle). eapply Rle_trans; [exact Hle|]. apply (maxto_ge G 0 (S N) (fun j => sp (fid j f0 k)) j). lia.
  - intros c i k Hc Hi Hk. destruct c as [|[|[|]]]; [reflexivity|reflexivity|reflexivity|lia].
Qed.
End Mesh.
