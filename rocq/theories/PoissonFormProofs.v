(* PoissonFormProofs.v - the one-sided form is the symmetric interior penalty form when the tags are consistent; values and symmetry of the form. *)
From Coq Require Import ZArith List Lia Bool Arith.
From Verif Require Import Base Loops Num FoldProofs BlitzModel JacobiModel JacobiSpec JacobiProofs JacobiOrthProofs JacobiQuadProofs JacobiExactProofs Nodes1DModel Nodes1DSpec Nodes1DExactProofs DenseSpec GllProofs
  GmresMath MeshSpec MeshGeoProofs MeshProps MeshProofs TriModel TriSpec TriBasisProofs TriProofs TriOpProofs TriLiftProofs TriFaceProofs TriNodesProofs TriElemProofs TriGeoSpec TriGeoProofs TriSetup TriProps Maps2DModel Maps2DSpec Maps2DProofs Maps2DProps TriMapsProofs TriMapsProps TriDGSpec TriDGProofs
  QuadInterpProofs TripletModel CscModel CscSpec RKModel Line1DModel Line1DProofs SwModel SwSpec SwProofs SwSchemeProofs SwRunProofs PoissonModel PoissonSpec PoissonTripletProofs PoissonBlockProofs PoissonProofs.
From Coq Require Import Reals Lra.
Import ListNotations.
Local Open Scope R_scope.

Section Form.
Variables (G : R -> R) (solve : mat R -> mat R -> mat R -> outcome (mat R)) (inverse : mat R -> mat R -> outcome (mat R))
  (junk : nat -> nat -> R) (eps : R) (eig : nat -> (nat -> nat -> R) -> list R * (nat -> nat -> R)) (tol : R)
  (N K : nat) (Vert : list R) (EToV : list nat) (el : element (T := R)).
Hypothesis HB : built G solve inverse junk eps eig tol N K Vert EToV el.
Variables (E2E E2F : list nat).
Hypothesis HM : tri_mesh K Vert EToV E2E E2F.
Local Notation E := (exact G).
Local Notation P := (corner Vert EToV).
Hypothesis HA : forall k, (k < K)%nat -> 0 < area (P k 0) (P k 1) (P k 2).
Local Notation Fm := (mask_table N (e_masks el)).
Local Notation Np := (length (e_r el)).
Local Notation fn := (fnode el).
Hypothesis HS : forall n n', (n <= N)%nat -> (n' <= N)%nat -> n <> n' -> 2 * tol <= Rabs (nth (ment Fm n 0) (e_r el) 0 - nth (ment Fm n' 0) (e_r el) 0).
Variables (sort : (nat -> nat -> bool) -> list nat -> list nat) (junk1 : nat -> R) (junkn : nat -> nat) (bcType : list Z) (m : maps).
Hypothesis Hrun : buildMaps E rhypot sort junk1 junkn tol 3 (S N) Np K Fm (e_x el) (e_y el) E2E E2F EToV Vert bcType [] = Ok m.
Hypothesis Hbc : (3 * K <= length bcType)%nat.
Local Notation d := (tables_of el m).
Local Notation fid := (face_id 3 (S N)).
Local Notation X := (node_at (e_x el) (e_y el)).

Local Notation sp k f := (side_point (P k f) (P k (next f))).
Local Notation dirich := (dirichlet bcType).
Local Notation natur := (natural bcType).
Local Notation inter := (PoissonSpec.interior bcType).
Local Notation eint k := (element_integral (P k 0) (P k 1) (P k 2)).
Local Notation rep := (represents N Np K (e_x el) (e_y el)).

Lemma div3f k f : (f < 3)%nat -> ((3 * k + f) / 3 = k)%nat /\ ((3 * k + f) mod 3 = f)%nat.
Proof. intro Hf. replace (3 * k + f)%nat with (f + k * 3)%nat by lia. rewrite Nat.div_add, Nat.mod_add, Nat.div_small, Nat.mod_small by lia. auto. Qed.
Lemma ends k f k2 f2 : (f < 3)%nat -> (k < K)%nat -> (f2 < 3)%nat -> joined EToV k f k2 f2 -> (k2 < K)%nat /\ P k2 f2 = P k (next f) /\ P k2 (next f2) = P k f /\ joined EToV k2 f2 k f.
Proof. intros. eapply joined_ends; eassumption. Qed.
Lemma across_unique k f a b a' b' : across K EToV k f a b -> across K EToV k f a' b' -> a = a' /\ b = b'.
Proof.
  intros (A1 & A2 & A3) (B1 & B2 & B3). destruct A3 as [J|(-> & -> & Hno)], B3 as [J'|(-> & -> & Hno')]; auto.
  - eapply joined_unique; eassumption.
  - exfalso. exact (Hno' _ J).
  - exfalso. exact (Hno _ J').
Qed.
Lemma side_integral_unique p q g v w : side_integral p q g v -> side_integral p q g w -> v = w.
Proof. intros (i & Hi & ->) (j & Hj & ->). now rewrite (integral_unique _ _ _ _ _ Hi Hj). Qed.
Lemma side_integral_ext p q g h v : (forall t, g t = h t) -> side_integral p q g v -> side_integral p q h v.
Proof. intros H (i & Hi & ->). exists i. split; [|reflexivity]. eapply integral_ext; [exact H|exact Hi]. Qed.
Lemma tag_cases k f : dirich k f \/ natur k f \/ inter k f.
Proof.
  unfold PoissonSpec.interior, dirichlet, natural. destruct (Z.eq_dec (tag_of bcType k f) 6); [auto|]. destruct (Z.eq_dec (tag_of bcType k f) 3); [auto|]. destruct (Z.eq_dec (tag_of bcType k f) 7); [auto|].
  right; right. split; [assumption|intros [?|?]; contradiction].
Qed.

(* the value of the form is determined *)
Lemma sides_unique inner k f U V w w' : (k < K)%nat -> (f < 3)%nat -> sides N K Vert EToV bcType inner k f U V w -> sides N K Vert EToV bcType inner k f U V w' -> w = w'.
Proof.
  intros Hk Hf (k2 & f2 & n & A1 & A2 & A3) (k2' & f2' & n' & B1 & B2 & B3). destruct (across_unique k f _ _ _ _ A1 B1) as (<- & <-).
  pose proof (normal_unique _ _ _ _ _ (side_ne K Vert EToV HA f k Hf Hk) A2 B2) as <-. cbv zeta in A3, B3. destruct A3 as (D1 & N1 & I1), B3 as (D2 & N2 & I2).
  destruct (tag_cases k f) as [H|[H|H]]; [eapply side_integral_unique; [apply D1|apply D2]; exact H|rewrite N1, N2 by exact H; reflexivity|eapply side_integral_unique; [apply I1|apply I2]; exact H].
Qed.
Lemma eint_unique k f v w : eint k f v -> eint k f w -> v = w.
Proof. intros (i & Hi & ->) (j & Hj & ->). now rewrite (tint_unique _ _ _ Hi Hj). Qed.
Lemma form_unique inner U V w w' : form N K Vert EToV bcType inner U V w -> form N K Vert EToV bcType inner U V w' -> w = w'.
Proof.
  intros (vol & sd & A1 & A2 & ->) (vol' & sd' & B1 & B2 & ->). apply sumn_ext. intros k Hk. f_equal; [eapply eint_unique; [apply A1|apply B1]; exact Hk|].
  rewrite (sides_unique inner k 0 U V _ _ Hk ltac:(lia) (A2 k 0%nat Hk ltac:(lia)) (B2 k 0%nat Hk ltac:(lia))), (sides_unique inner k 1 U V _ _ Hk ltac:(lia) (A2 k 1%nat Hk ltac:(lia)) (B2 k 1%nat Hk ltac:(lia))), (sides_unique inner k 2 U V _ _ Hk ltac:(lia) (A2 k 2%nat Hk ltac:(lia)) (B2 k 2%nat Hk ltac:(lia))). reflexivity.
Qed.
Lemma mass_unique U V w w' : mass_form K Vert EToV U V w -> mass_form K Vert EToV U V w' -> w = w'.
Proof. intros (vol & A1 & ->) (vol' & B1 & ->). apply sumn_ext. intros k Hk. eapply eint_unique; [apply A1|apply B1]; exact Hk. Qed.
(* the symmetric interior penalty form is symmetric *)
Lemma penalty_sym U V w : penalty_form N K Vert EToV bcType U V w -> penalty_form N K Vert EToV bcType V U w.
Proof.
  intros (vol & sd & A1 & A2 & ->). exists vol, sd. split; [|split; [|reflexivity]].
  - intros k Hk. eapply eint_ext; [|exact (A1 k Hk)]. intros; cbv beta; ring.
  - intros k f Hk Hf. destruct (A2 k f Hk Hf) as (k2 & f2 & n & B1 & B2 & B3 & B4 & B5). exists k2, f2, n. split; [exact B1|]. split; [exact B2|]. cbv zeta. split; [|split; [exact B4|]].
    + intro H. eapply side_integral_ext; [|exact (B3 H)]. intro t. unfold dirichlet_density. ring.
    + intro H. eapply side_integral_ext; [|exact (B5 H)]. intro t. unfold interior_density. ring.
Qed.
Lemma mass_sym U V w : mass_form K Vert EToV U V w -> mass_form K Vert EToV V U w.
Proof. intros (vol & A1 & ->). exists vol. split; [|reflexivity]. intros k Hk. eapply eint_ext; [|exact (A1 k Hk)]. intros; cbv beta; ring. Qed.

(* the two densities of a joined side *)
Lemma tau_sym k f k2 f2 : tau N Vert EToV k f k2 f2 = tau N Vert EToV k2 f2 k f.
Proof. unfold tau. rewrite Rmax_comm. reflexivity. Qed.
Lemma densities k f k2 f2 n U V p : interior_density N Vert EToV k f k2 f2 n U V p =
  / 2 * (one_sided_density N Vert EToV k f k2 f2 n U V p + one_sided_density N Vert EToV k2 f2 k f (- fst n, - snd n) U V p).
Proof.
  unfold interior_density, one_sided_density, jump, mean, along. rewrite (tau_sym k2 f2 k f). cbn [fst snd]. field.
Qed.
Lemma mean_side k f k2 f2 U V w w2 : (k < K)%nat -> (f < 3)%nat -> (f2 < 3)%nat -> joined EToV k f k2 f2 -> inter k f -> inter k2 f2 ->
  sides N K Vert EToV bcType (one_sided_density N Vert EToV) k f U V w -> sides N K Vert EToV bcType (one_sided_density N Vert EToV) k2 f2 U V w2 ->
  sides N K Vert EToV bcType (interior_density N Vert EToV) k f U V (/ 2 * (w + w2)).
Proof.
  intros Hk Hf Hf2 J I1 I2 (k3 & f3 & n & A1 & A2 & A3) (k4 & f4 & n2 & B1 & B2 & B3). destruct (ends k f k2 f2 Hf Hk Hf2 J) as (Hk2 & E1 & E2 & J').
  destruct (across_unique k f k3 f3 k2 f2 A1) as (-> & ->); [split; [exact Hk2|]; split; [exact Hf2|left; exact J]|].
  destruct (across_unique k2 f2 k4 f4 k f B1) as (-> & ->); [split; [exact Hk|]; split; [exact Hf|left; exact J']|].
  exists k2, f2, n. split; [exact A1|]. split; [exact A2|]. cbv zeta in *. split; [intro H; exfalso; apply (proj1 I1 H)|]. split; [intro H; exfalso; apply (proj2 I1 H)|]. intros _.
  destruct A3 as (_ & _ & A3). destruct B3 as (_ & _ & B3). destruct (A3 I1) as (i & Hi & ->). destruct (B3 I2) as (j & Hj & ->).
  rewrite (normal_flip K Vert EToV HA k f k2 f2 n n2 Hf Hk Hf2 Hk2 E1 E2 A2 B2) in Hj. unfold from_, to_ in *. rewrite E1, E2 in Hj. rewrite E1, E2.
  apply integral_flip in Hj. exists (/ 2 * (i + j)). split.
  - eapply integral_ext; [|apply integral_scal; exact (integral_plus _ _ _ _ _ _ Hi Hj)]. intro t. cbv beta. rewrite densities. rewrite <- (side_swap (P k f) (P k (next f)) t). reflexivity.
  - assert (EL : side_length (P k (next f)) (P k f) = side_length (P k f) (P k (next f))) by (unfold side_length, dot, pminus; cbn [fst snd]; f_equal; ring). rewrite EL. ring.
Qed.

Lemma penalty_of_one_sided U V w : consistent_tags K EToV bcType -> one_sided_form N K Vert EToV bcType U V w -> penalty_form N K Vert EToV bcType U V w.
Proof.
  intros HC (vol & sd & A1 & A2 & ->).
  destruct (finite_choice 0%nat (3 * K) (fun g h => (h < 3 * K)%nat /\
     ((inter (g / 3) (g mod 3) /\ inter (h / 3) (h mod 3) /\ joined EToV (g / 3) (g mod 3) (h / 3) (h mod 3)) \/ (~ inter (g / 3) (g mod 3) /\ h = g)))) as (sg & Hsg).
  { intros g Hg. assert (B1 : (g / 3 < K)%nat) by (apply Nat.div_lt_upper_bound; lia). assert (B2 : (g mod 3 < 3)%nat) by (apply Nat.mod_upper_bound; lia).
    destruct (tag_cases (g / 3) (g mod 3)) as [H|[H|H]]; [exists g; split; [exact Hg|right; split; [intros (X & _); contradiction|reflexivity]]|exists g; split; [exact Hg|right; split; [intros (_ & X); contradiction|reflexivity]]|].
    destruct (HC _ _ B1 B2 H) as (k2 & f2 & C1 & C2 & C3 & C4). exists (3 * k2 + f2)%nat. split; [lia|]. left.
    destruct (div3f k2 f2 C2) as (-> & ->). auto. }
  set (s := fun g => sd (g / 3)%nat (g mod 3)%nat).
  exists vol, (fun k f => / 2 * (s (3 * k + f)%nat + s (sg (3 * k + f)%nat))). split; [exact A1|]. split.
  - intros k f Hk Hf. destruct (Hsg (3 * k + f)%nat ltac:(lia)) as (B1 & B2). unfold s.
    destruct (div3f k f Hf) as (Ek & Ef). rewrite Ek, Ef in *.
    set (h := sg (3 * k + f)%nat) in *. assert (B3 : (h / 3 < K)%nat) by (apply Nat.div_lt_upper_bound; lia). assert (B4 : (h mod 3 < 3)%nat) by (apply Nat.mod_upper_bound; lia).
    destruct B2 as [(I1 & I2 & J)|(I1 & E)].
    + apply (mean_side k f (h / 3) (h mod 3)); auto.
    + rewrite E, Ek, Ef. replace (/ 2 * (sd k f + sd k f)) with (sd k f) by field. destruct (A2 k f Hk Hf) as (k2 & f2 & n & C1 & C2 & C3 & C4 & C5). exists k2, f2, n. split; [exact C1|]. split; [exact C2|]. cbv zeta. split; [exact C3|]. split; [exact C4|]. intro H. contradiction.
  - assert (Hz : sumn (3 * K) (fun g => s g - s (sg g)) = 0).
    { apply (sumn_invol (3 * K) _ sg). intros g Hg. destruct (Hsg g Hg) as (B1 & B2). split; [exact B1|]. assert (E : sg (sg g) = g).
      { destruct B2 as [(I1 & I2 & J)|(I1 & E)]; [|rewrite E; exact E]. destruct (Hsg (sg g) B1) as (B3 & [(I3 & I4 & J2)|(I3 & E3)]); [|contradiction].
        assert (M1 : (g mod 3 < 3)%nat) by (apply Nat.mod_upper_bound; lia). assert (M2 : (sg g mod 3 < 3)%nat) by (apply Nat.mod_upper_bound; lia). assert (M3 : (sg (sg g) mod 3 < 3)%nat) by (apply Nat.mod_upper_bound; lia).
        assert (M4 : (g / 3 < K)%nat) by (apply Nat.div_lt_upper_bound; lia). destruct (ends _ _ _ _ M1 M4 M2 J) as (_ & _ & _ & J').
        destruct (joined_unique _ _ _ _ _ HM _ _ _ _ _ _ M3 M1 J2 J') as (Q1 & Q2). transitivity (3 * (sg (sg g) / 3) + sg (sg g) mod 3)%nat; [apply Nat.div_mod; lia|]. rewrite Q1, Q2. symmetry. apply Nat.div_mod. lia. }
      split; [exact E|]. cbv beta. rewrite E. ring. }
    rewrite sumn_three in Hz.
    assert (Hs : forall k f, (f < 3)%nat -> s (3 * k + f)%nat = sd k f).
    { intros k f Hf. unfold s. destruct (div3f k f Hf) as (-> & ->). reflexivity. }
    rewrite (sumn_ext K (fun k => vol k + (sd k 0%nat + sd k 1%nat + sd k 2%nat)) (fun k => (vol k + (/ 2 * (s (3 * k + 0)%nat + s (sg (3 * k + 0)%nat)) + / 2 * (s (3 * k + 1)%nat + s (sg (3 * k + 1)%nat)) + / 2 * (s (3 * k + 2)%nat + s (sg (3 * k + 2)%nat)))) +
      / 2 * ((s (3 * k)%nat - s (sg (3 * k)%nat)) + (s (3 * k + 1)%nat - s (sg (3 * k + 1)%nat)) + (s (3 * k + 2)%nat - s (sg (3 * k + 2)%nat))))).
    + rewrite sumn_plus, sumn_scal, Hz. ring.
    + intros k Hk. rewrite !Nat.add_0_r. rewrite <- (Hs k 1%nat), <- (Hs k 2%nat) by lia. pose proof (Hs k 0%nat ltac:(lia)) as H0. rewrite Nat.add_0_r in H0. rewrite <- H0. field.
Qed.

(* every vector of nodal values is represented *)
Lemma rep_exists u : exists U, rep u U.
Proof.
  destruct (finite_choice [] K (fun k p => degree2 N p /\ forall i, (i < Np)%nat -> at_point p (node_at (e_x el) (e_y el) i k) = u (Np * k + i)%nat)) as (p & Hp).
  { intros k Hk. destruct (nodal_poly _ _ _ _ _ _ _ _ _ _ _ _ HB (fun i => u (Np * k + i)%nat)) as (w & Dw & Hw). destruct (to_physical N Vert EToV k (HA k Hk) w Dw) as (q & Dq & Hq).
    exists q. split; [exact Dq|]. intros i Hi. erewrite phys by eassumption. rewrite Hq. apply Hw. exact Hi. }
  exists (Piecewise (fun k => eval2 (p k)) (fun k => eval2 (ddr (p k))) (fun k => eval2 (dds (p k)))). intros k Hk. destruct (Hp k Hk) as (Dp & Hn). cbn [val ddx ddy].
  split; [exists (p k); split; [exact Dp|reflexivity]|]. split; [intros; apply ddr_ok|]. split; [intros; apply dds_ok|]. intros i Hi. unfold val_at. cbn [val]. apply Hn. exact Hi.
Qed.
Lemma entry_quadratic D a i j : (i < D)%nat -> (j < D)%nat -> entry_of a i j = quadratic D a (delta i) (delta j).
Proof.
  intros Hi Hj. unfold quadratic. rewrite (sumn_ext D _ (fun p => delta i p * sumn D (fun q => delta j q * entry_of a p q))).
  - rewrite (sumn_delta D i _ Hi), (sumn_delta D j _ Hj). reflexivity.
  - intros p Hp. rewrite <- sumn_scal. apply sumn_ext. intros; ring.
Qed.

(* the square of a piecewise polynomial, integrated *)
Lemma square_int k q i : (k < K)%nat -> degree2 N q -> triangle_integral (pulled (P k 0) (P k 1) (P k 2) (fun x y => eval2 q x y * eval2 q x y)) i ->
  0 <= i /\ (i = 0 -> forall x y, at_point q (affine_image (P k 0) (P k 1) (P k 2) x y) = 0).
Proof.
  intros Hk Dq Hi. destruct (to_reference N Vert EToV k q Dq) as (w & Dw & Hw & _). assert (HGm : gamma_like G) by (destruct HB; assumption). destruct (modal_ex G HGm N w Dw) as (c & Hc).
  pose proof (parseval G HGm N (eval2 w) (eval2 w) c c Hc Hc) as Hp.
  assert (E : i = sumn (length (modes N)) (fun k => c k * c k)). { eapply tint_unique; [exact Hi|]. eapply tint_ext; [|exact Hp]. intros r s. unfold pulled. rewrite Hw. reflexivity. }
  split; [rewrite E; apply sumn_nonneg; intros; apply Rle_0_sqr|]. intros Z x y. rewrite <- Hw, Hc. apply sumn_zero. intros j Hj. rewrite E in Z.
  pose proof (sumn_nonneg_0 _ _ (fun j _ => Rle_0_sqr (c j)) Z j Hj) as Hz. apply Rsqr_0_uniq in Hz. rewrite Hz. ring.
Qed.
Lemma mass_positive u U w : rep u U -> mass_form K Vert EToV U U w -> 0 <= w /\ (w = 0 -> forall g, (g < Np * K)%nat -> u g = 0).
Proof.
  intros HU (vol & Hv & ->).
  assert (Hk : forall k, (k < K)%nat -> 0 <= vol k /\ (vol k = 0 -> forall i, (i < Np)%nat -> u (Np * k + i)%nat = 0)).
  { intros k Hk. destruct (Hv k Hk) as (j & Hj & ->). destruct (HU k Hk) as ((q & Dq & Eq) & _ & _ & Hn). pose proof (HA k Hk) as Ha.
    destruct (square_int k q j Hk Dq) as (S1 & S2). { eapply tint_ext; [|exact Hj]. intros r s. unfold pulled. now rewrite !Eq. }
    split; [apply Rmult_le_pos; lra|]. intros Z i Hi. rewrite <- (Hn i Hi). unfold val_at. rewrite Eq. change (at_point q (node_at (e_x el) (e_y el) i k) = 0). erewrite phys by eassumption. apply S2.
    apply Rmult_integral in Z. destruct Z; lra. }
  split; [apply sumn_nonneg; intros; apply Hk; assumption|]. intros Z g Hg. pose proof (sumn_nonneg_0 K vol (fun k H => proj1 (Hk k H)) Z) as Z'.
  assert (Hn : Np <> 0%nat) by lia. assert (Hd : (g / Np < K)%nat) by (apply Nat.div_lt_upper_bound; lia). pose proof (Nat.mod_upper_bound g Np Hn) as Hm.
  rewrite (Nat.div_mod g Np Hn). apply (Hk _ Hd); [apply Z'; exact Hd|exact Hm].
Qed.
Lemma tint_one : triangle_integral (fun _ _ => 1) 2.
Proof.
  exists (fun s => 1 - s). split.
  - intro s. exists (fun r => r). split; [intro; apply derivable_pt_lim_id|ring].
  - exists (fun s => s - / 2 * s ^ 2). split; [|cbn [pow]; field]. intro s. replace (1 - s) with (1 - / 2 * (INR 2 * s ^ 1)) by (cbn; field).
    apply derivable_pt_lim_minus; [apply derivable_pt_lim_id|]. apply (derivable_pt_lim_scal (fun x => x ^ 2)). apply (derivable_pt_lim_pow s 2).
Qed.
End Form.
