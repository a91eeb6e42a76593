(* SwRunProofs.v - the shallow water drivers on a constructed triangle mesh: boundary tags, single-valued fluxes, conservation. *)
From Coq Require Import ZArith List Lia Bool Arith.
From Verif Require Import Base Loops Num BlitzModel JacobiModel JacobiSpec JacobiProofs JacobiOrthProofs JacobiQuadProofs JacobiExactProofs DenseSpec GllProofs TriLiftProofs
  MeshSpec MeshGeoProofs MeshProps MeshProofs TriModel TriSpec TriProofs TriBasisProofs TriOpProofs TriElemProofs TriGeoSpec TriGeoProofs TriSetup TriProps QuadInterpProofs Maps2DModel Maps2DSpec Maps2DProofs Maps2DProps TriMapsProofs TriMapsProps TriDGSpec TriDGProofs
  RKModel Line1DModel Line1DProofs SwModel SwSpec SwProofs SwSchemeProofs.
From Coq Require Import Reals Lra.
Import ListNotations.
Local Open Scope R_scope.

Lemma rusanov_flip g c n lam a b : rusanov g c (- fst n, - snd n) lam b a = - rusanov g c n lam a b.
Proof. unfold rusanov, through. cbn [fst snd]. field. Qed.
Lemma rusanov_same g c n lam a : rusanov g c n lam a a = through g c n a.
Proof. unfold rusanov. field. Qed.
Lemma rusanov_mirror g n lam a : dot n n = 1 -> rusanov g 0 n lam a (mirror n a) = 0.
Proof.
  destruct a as [[h u] v], n as [n1 n2]. unfold dot, rusanov, through, mirror, flux_x, flux_y, part. cbn [fst snd]. intro E.
  transitivity ((n1 * u + n2 * v) * (1 - (n1 * n1 + n2 * n2))); [field|rewrite E; ring].
Qed.
Lemma speed_nonneg g q : 0 <= wave_speed g q.
Proof. destruct q as [[h u] v]. unfold wave_speed. apply Rplus_le_le_0_compat; apply sqrt_pos. Qed.
Lemma pflip cs : exists ds, length ds = length cs /\ forall t, peval ds t = peval cs (- t).
Proof.
  induction cs as [|c cs (ds & L & H)]; [exists []; split; reflexivity|].
  exists (c :: map Ropp ds). split; [cbn; rewrite map_length, L; reflexivity|]. intro t. cbn [peval]. rewrite <- H.
  assert (E : forall l, peval (map Ropp l) t = - peval l t) by (induction l as [|a l IH]; cbn [map peval]; [ring|rewrite IH; ring]).
  rewrite E. ring.
Qed.
Lemma poly_agree n cs ds l : (length cs <= n)%nat -> (length ds <= n)%nat -> NoDup l -> length l = n -> (forall t, In t l -> peval cs t = peval ds t) -> forall t, peval cs t = peval ds t.
Proof.
  intros L1 L2 Nl Ll H t. assert (E : peval (padd cs (pscal (-1) ds)) t = 0).
  { apply (too_many_roots n _ l); auto.
    - rewrite padd_len, pscal_len. lia.
    - intros x Hx. rewrite padd_eval, pscal_eval, (H x Hx). ring. }
  rewrite padd_eval, pscal_eval in E. lra.
Qed.
(* a sum over faces cancels in pairs *)
Lemma sumn_invol n (s : nat -> R) (sg : nat -> nat) : (forall g, (g < n)%nat -> (sg g < n)%nat /\ sg (sg g) = g /\ s (sg g) = - s g) -> sumn n s = 0.
Proof.
  intro H. assert (E : sumn n s = - sumn n s); [|lra].
  rewrite <- (Rmult_1_l (sumn n s)) at 2. rewrite Ropp_mult_distr_l, <- sumn_scal.
  transitivity (sumn n (fun g => sumn n (fun h => if (h =? sg g)%nat then s g else 0))).
  - apply sumn_ext. intros g Hg. rewrite (sumn_if n (sg g) (fun _ => s g)) by apply (H g Hg). reflexivity.
  - rewrite sumn_swap. apply sumn_ext. intros h Hh. destruct (H h Hh) as (A & B & C).
    rewrite (sumn_ext _ _ (fun g => if (g =? sg h)%nat then s g else 0)).
    + rewrite (sumn_if n (sg h) s A), C. ring.
    + intros g Hg. destruct (Nat.eqb_spec h (sg g)) as [E0|Hne]; destruct (Nat.eqb_spec g (sg h)) as [E|E]; try reflexivity.
      * destruct (H g Hg) as (_ & B' & _). rewrite E0, B' in E. contradiction.
      * subst g. rewrite B in Hne. contradiction.
Qed.
Lemma sumn_three K (s : nat -> R) : sumn (3 * K) s = sumn K (fun k => s (3 * k)%nat + s (3 * k + 1)%nat + s (3 * k + 2)%nat).
Proof.
  induction K as [|K IH]; [reflexivity|]. replace (3 * S K)%nat with (S (S (S (3 * K)))) by lia. rewrite !sumn_S, IH.
  replace (3 * K + 1)%nat with (S (3 * K)) by lia. replace (3 * K + 2)%nat with (S (S (3 * K))) by lia. ring.
Qed.

Section Run.
Variables (G : R -> R) (solve : mat R -> mat R -> mat R -> outcome (mat R)) (inverse : mat R -> mat R -> outcome (mat R))
  (junk : nat -> nat -> R) (eps : R) (eig : nat -> (nat -> nat -> R) -> list R * (nat -> nat -> R)) (tol : R)
  (N K : nat) (Vert : list R) (EToV : list nat) (el : element (T := R)).
Hypothesis HB : built G solve inverse junk eps eig tol N K Vert EToV el.
Variables (E2E E2F : list nat).
Hypothesis HM : tri_mesh K Vert EToV E2E E2F.
Local Notation P := (corner Vert EToV).
Hypothesis HA : forall k, (k < K)%nat -> 0 < area (P k 0) (P k 1) (P k 2).
Local Notation Fm := (mask_table N (e_masks el)).
Local Notation Np := (length (e_r el)).
Local Notation fn := (fnode el).
Local Notation X := (node_at (e_x el) (e_y el)).

Lemma nodal_unique p p' : degree2 N p -> degree2 N p' -> (forall i, (i < Np)%nat -> eval2 p (nth i (e_r el) 0) (nth i (e_s el) 0) = eval2 p' (nth i (e_r el) 0) (nth i (e_s el) 0)) -> forall x y, eval2 p x y = eval2 p' x y.
Proof.
  destruct (element_ok _ _ _ _ _ _ _ _ _ _ _ _ HB) as [lr ls nodes masks edge_i pts SV SVi V Vi Vi' SL lift D x metric nrm]. destruct HB.
  assert (Hc : forall p, degree2 N p -> exists c, modal G N p c /\ forall j, (j < Np)%nat -> c j = sumn Np (fun i => ment (e_Vinv el) j i * eval2 p (nth i (e_r el) 0) (nth i (e_s el) 0))).
  { intros p0 D0. destruct (modal_ex G b_gamma N p0 D0) as (c & Hc). exists c. split; [exact Hc|]. intros j Hj. rewrite lr in *.
    rewrite (sumn_ext _ _ (fun i => sumn (length (modes N)) (fun m => (ment (e_Vinv el) j i * ment (e_V el) i m) * c m))).
    2:{ intros i Hi. rewrite (Hc _ _), <- sumn_scal. apply sumn_ext. intros m Hm. rewrite V by auto. ring. }
    rewrite sumn_swap. rewrite (sumn_ext _ _ (fun m => delta j m * c m)); [symmetry; apply sumn_delta; exact Hj|].
    intros m Hm. rewrite <- Vi by auto. rewrite Rmult_comm, <- sumn_scal. apply sumn_ext. intros. ring. }
  intros Dp Dp' E x0 y0. destruct (Hc p Dp) as (c & M1 & C1). destruct (Hc p' Dp') as (c' & M2 & C2). rewrite (M1 x0 y0), (M2 x0 y0). apply sumn_ext. intros j Hj. rewrite C1, C2 by (rewrite lr; exact Hj). f_equal. apply sumn_ext. intros i Hi. rewrite E by exact Hi. reflexivity.
Qed.
Lemma interpolant_unique mm k p p' : (k < K)%nat -> interpolant N Np (e_x el) (e_y el) mm k p -> interpolant N Np (e_x el) (e_y el) mm k p' -> 
  forall r s, pulled (P k 0) (P k 1) (P k 2) (eval2 p) r s = pulled (P k 0) (P k 1) (P k 2) (eval2 p') r s.
Proof.
  intros Hk (D1 & I1) (D2 & I2) r s.
  destruct (to_reference N Vert EToV k p D1) as (w & Dw & Hw & _). destruct (to_reference N Vert EToV k p' D2) as (w' & Dw' & Hw' & _).
  unfold pulled. transitivity (eval2 w r s); [rewrite Hw; reflexivity|]. transitivity (eval2 w' r s); [|rewrite Hw'; reflexivity].
  apply nodal_unique; auto. intros i Hi. rewrite Hw, Hw'. rewrite <- (phys _ _ _ _ _ _ _ _ _ _ _ _ HB i k Hi Hk), I1, I2 by exact Hi. reflexivity.
Qed.

Lemma area_pos f k : (f < 3)%nat -> (k < K)%nat -> let p := P k f in let q := P k (next f) in let t := P k ((f + 2) mod 3) in
  0 < (fst q - fst p) * (snd t - snd p) - (snd q - snd p) * (fst t - fst p).
Proof.
  intros Hf Hk p q t. subst p q t. pose proof (HA k Hk) as Ha. unfold area, cross, pminus in Ha. cbn [fst snd] in Ha. unfold next.
  destruct f as [|[|[|]]]; [| | |lia]; change ((0 + 1) mod 3)%nat with 1%nat; change ((0 + 2) mod 3)%nat with 2%nat; change ((1 + 1) mod 3)%nat with 2%nat; change ((1 + 2) mod 3)%nat with 0%nat; change ((2 + 1) mod 3)%nat with 0%nat; change ((2 + 2) mod 3)%nat with 1%nat; lra.
Qed.
Lemma normal_flip k f k2 f2 n n2 : (f < 3)%nat -> (k < K)%nat -> (f2 < 3)%nat -> (k2 < K)%nat -> P k2 f2 = P k (next f) -> P k2 (next f2) = P k f ->
  normal_of Vert EToV k f n -> normal_of Vert EToV k2 f2 n2 -> n2 = (- fst n, - snd n).
Proof.
  intros Hf Hk Hf2 Hk2 E1 E2 H1 H2. pose proof (side_ne K Vert EToV HA f2 k2 Hf2 Hk2) as Hne.
  apply (normal_unique _ _ _ _ _ Hne H2). pose proof (area_pos f k Hf Hk) as A1. pose proof (area_pos f2 k2 Hf2 Hk2) as A2. cbv zeta in A1, A2. unfold normal_of, from_, to_ in *.
  set (t := P k ((f + 2) mod 3)) in *. set (t2 := P k2 ((f2 + 2) mod 3)) in *. rewrite E1, E2 in *. set (p := P k f) in *. set (q := P k (next f)) in *. clearbody p q t t2. clear E1 E2 H2.
  destruct H1 as (N1 & N2 & N3). unfold outward_normal, dot, pminus in *. destruct n as [a b], p as [p1 p2], q as [q1 q2], t as [t1 t2'], t2 as [w1 w2]. cbn [fst snd] in *.
  split; [lra|]. split; [lra|].
  set (D := (q1 - p1) * (q1 - p1) + (q2 - p2) * (q2 - p2)).
  assert (HD : 0 < D). { unfold D. destruct (Req_dec q1 p1) as [->|]; [destruct (Req_dec q2 p2) as [->|]; [lra|]|].
    - assert (0 < (q2 - p2) * (q2 - p2)) by (apply (Rsqr_pos_lt (q2 - p2)); lra). nra.
    - assert (0 < (q1 - p1) * (q1 - p1)) by (apply (Rsqr_pos_lt (q1 - p1)); lra). pose proof (Rle_0_sqr (q2 - p2)). unfold Rsqr in *. lra. }
  set (al := (a * (q2 - p2) - b * (q1 - p1)) / D).
  assert (Ea : a = al * (q2 - p2)). { unfold al. apply (Rmult_eq_reg_r D); [|lra]. transitivity (a * ((q2 - p2) * (q2 - p2)) + (a * (q1 - p1)) * (q1 - p1)); [unfold D; ring|]. replace (a * (q1 - p1)) with (- (b * (q2 - p2))) by lra. field. lra. }
  assert (Eb : b = - al * (q1 - p1)). { unfold al. apply (Rmult_eq_reg_r D); [|lra]. transitivity (b * ((q1 - p1) * (q1 - p1)) + (b * (q2 - p2)) * (q2 - p2)); [unfold D; ring|]. replace (b * (q2 - p2)) with (- (a * (q1 - p1))) by lra. field. lra. }
  clearbody al D. subst a b. assert (Hal : 0 < al).
  { set (C := (q1 - p1) * (t2' - p2) - (q2 - p2) * (t1 - p1)) in *. assert (0 < al * C) by (unfold C; lra). apply (Rmult_lt_reg_r C); [exact A1|lra]. }
  set (C := (p1 - q1) * (w2 - q2) - (p2 - q2) * (w1 - q1)) in *. pose proof (Rmult_lt_0_compat al C Hal A2). unfold C in *. lra.
Qed.

Hypothesis HS : forall n n', (n <= N)%nat -> (n' <= N)%nat -> n <> n' -> 2 * tol <= Rabs (nth (ment Fm n 0) (e_r el) 0 - nth (ment Fm n' 0) (e_r el) 0).
Variables (sort : (nat -> nat -> bool) -> list nat -> list nat) (junk1 : nat -> R) (junkn : nat -> nat) (bcType : list Z) (m : maps).
Hypothesis Hrun : buildMaps (exact G) rhypot sort junk1 junkn tol 3 (S N) Np K Fm (e_x el) (e_y el) E2E E2F EToV Vert bcType [] = Ok m.
Hypothesis Hbc : (3 * K <= length bcType)%nat.
Local Notation d := (tables_of el m).
Local Notation fid := (face_id 3 (S N)).

Lemma joined_ends k f k2 f2 : (f < 3)%nat -> (k < K)%nat -> (f2 < 3)%nat -> joined EToV k f k2 f2 ->
  (k2 < K)%nat /\ P k2 f2 = P k (next f) /\ P k2 (next f2) = P k f /\ joined EToV k2 f2 k f.
Proof.
  intros Hf Hk Hf2 J. destruct (maps_at _ _ _ _ _ _ _ _ _ _ _ _ HB _ _ HM HA HS _ _ _ _ _ _ Hrun 0 f k ltac:(lia) Hf Hk) as (_ & k2' & f2' & j & Hk2 & Hf2' & _ & _ & _ & Hor).
  destruct Hor as [(_ & _ & _ & Hno)|(J' & E1 & E2)]; [exfalso; exact (Hno _ J)|].
  destruct (joined_unique _ _ _ _ _ HM k f k2 f2 k2' f2' Hf2 Hf2' J J') as (-> & ->). split; [exact Hk2|]. split; [exact E1|]. split; [exact E2|]. apply shares_sym. exact J.
Qed.

(* tags *)
Lemma hash_at t : t <> 0%Z -> exists l, (forall n f k, (n <= N)%nat -> (f < 3)%nat -> (k < K)%nat -> In (fid n f k) l <-> tag_of bcType k f = t) /\
  (forall w, In w l -> (w < 3 * S N * K)%nat) /\
  ((exists k f, (k < K)%nat /\ (f < 3)%nat /\ tag_of bcType k f = t) -> hfind (m_bc m) t = Some l) /\
  ((forall k f, (k < K)%nat -> (f < 3)%nat -> tag_of bcType k f <> t) -> hfind (m_bc m) t = None).
Proof.
  intro Ht. pose proof (run_tables _ _ _ _ _ _ _ _ _ _ _ _ HB _ _ HM) as HT.
  destruct (parts _ _ _ _ _ _ _ _ _ _ _ _ _ _ _ _ _ _ _ _ HT Hrun) as (_ & _ & Eh & _).
  destruct (C39_one_call junkn 3 (S N) K bcType [] Hbc) as (m' & Eh' & Hl & _). rewrite Eh in Eh'. injection Eh' as <-.
  destruct (Hl t Ht) as (l & _ & Hin & Hf). cbn [hfind] in Hf. exists l.
  assert (Hin' : forall n f k, (n <= N)%nat -> (f < 3)%nat -> (k < K)%nat -> In (fid n f k) l <-> tag_of bcType k f = t).
  { intros n f k Hn Hf' Hk. rewrite Hin. pose proof (fid_lt N K n f k Hn Hf' Hk) as HL.
    assert (E : (fid n f k / S N = 3 * k + f)%nat). { unfold face_id. symmetry. apply Nat.div_unique with n; lia. }
    rewrite E. unfold entry, tag_of. split.
    - intros (_ & He). apply nth_error_nth with (d := 0%Z) in He. exact He.
    - intros <-. split; [lia|]. apply nth_error_nth'. lia. }
  split; [exact Hin'|]. split; [intros w Hw; apply Hin in Hw; lia|]. split.
  - intros (k & f & Hk & Hf' & Htag). pose proof (proj2 (Hin' 0%nat f k ltac:(lia) Hf' Hk) Htag) as Hi. rewrite Hf. destruct l; [destruct Hi|reflexivity].
  - intro Hno. rewrite Hf. destruct l as [|w l]; [reflexivity|]. exfalso. destruct (proj1 (Hin w) (or_introl eq_refl)) as (Hw & _).
    destruct (fid_split N K w ltac:(lia)) as (n & f & k & Hn & Hf' & Hk & ->). apply (Hno k f Hk Hf'). apply (Hin' n f k Hn Hf' Hk). left. reflexivity.
Qed.

(* exchanging the two sides *)
Section Sides.
Variables (g : R) (q : field) (beyond : nat -> nat -> option (nat -> point -> cell -> cell)).
Local Notation fac := (facing Np K Vert EToV (e_x el) (e_y el) q beyond).

Lemma side_swap a b t : side_point a b t = side_point b a (- t).
Proof. unfold side_point. f_equal; field. Qed.
Lemma facing_swap k f k2 f2 t a b : (f < 3)%nat -> (k < K)%nat -> (f2 < 3)%nat -> joined EToV k f k2 f2 -> beyond k f = None -> beyond k2 f2 = None ->
  fac k f t a b -> fac k2 f2 (- t) b a.
Proof.
  intros Hf Hk Hf2 J B1 B2 (i & Hi & Ei & Ea & Hb). rewrite B1 in Hb. destruct Hb as [(k3 & f3 & i3 & Hk3 & Hf3 & J3 & Hi3 & E3 & Eb)|(Hno & _)]; [|exfalso; exact (Hno k2 f2 Hf2 J)].
  destruct (joined_unique _ _ _ _ _ HM k f k3 f3 k2 f2 Hf3 Hf2 J3 J) as (-> & ->). destruct (joined_ends k f k2 f2 Hf Hk Hf2 J) as (_ & E1 & E2 & J').
  exists i3. split; [exact Hi3|]. unfold from_, to_ in *. split; [rewrite E1, E2, <- side_swap, E3; exact Ei|]. split; [exact Eb|]. rewrite B2. left. exists k, f, i. repeat (split; [assumption|]). split; [symmetry; exact E3|exact Ea].
Qed.
Lemma speeds_swap k f k2 f2 v : (f < 3)%nat -> (k < K)%nat -> (f2 < 3)%nat -> joined EToV k f k2 f2 -> beyond k f = None -> beyond k2 f2 = None ->
  speeds Np K Vert EToV (e_x el) (e_y el) g q beyond k f v -> speeds Np K Vert EToV (e_x el) (e_y el) g q beyond k2 f2 v.
Proof. intros Hf Hk Hf2 J B1 B2 (t & a & b & F & Hv). exists (- t), b, a. split; [apply (facing_swap k f k2 f2 t a b); auto|tauto]. Qed.
Lemma local_swap k f k2 f2 v w : (f < 3)%nat -> (k < K)%nat -> (f2 < 3)%nat -> joined EToV k f k2 f2 -> beyond k f = None -> beyond k2 f2 = None ->
  local_speed Np K Vert EToV (e_x el) (e_y el) g q beyond k f v -> local_speed Np K Vert EToV (e_x el) (e_y el) g q beyond k2 f2 w -> v = w.
Proof.
  intros Hf Hk Hf2 J B1 B2 (V1 & V2) (W1 & W2). destruct (joined_ends k f k2 f2 Hf Hk Hf2 J) as (Hk2 & _ & _ & J').
  apply Rle_antisym; [apply W2; apply (speeds_swap k f k2 f2); auto|apply V2; apply (speeds_swap k2 f2 k f); auto].
Qed.
Variable speed_of : nat -> nat -> R -> Prop.
Local Notation flux := (side_flux N Np K Vert EToV (e_x el) (e_y el) g q beyond speed_of).
Lemma flux_swap k f k2 f2 c cs cs2 : (f < 3)%nat -> (k < K)%nat -> (f2 < 3)%nat -> joined EToV k f k2 f2 -> beyond k f = None -> beyond k2 f2 = None ->
  (forall v w, speed_of k f v -> speed_of k2 f2 w -> v = w) -> flux k f c cs -> flux k2 f2 c cs2 -> forall t, peval cs t = - peval cs2 (- t).
Proof.
  intros Hf Hk Hf2 J B1 B2 Hs (L1 & (l & Nl & Ll & Hl) & n & lam & Hn & Hlam & H1) (L2 & _ & n2 & lam2 & Hn2 & Hlam2 & H2).
  destruct (joined_ends k f k2 f2 Hf Hk Hf2 J) as (Hk2 & E1 & E2 & J').
  pose proof (normal_flip k f k2 f2 n n2 Hf Hk Hf2 Hk2 E1 E2 Hn Hn2) as ->. rewrite <- (Hs lam lam2 Hlam Hlam2) in H2.
  destruct (pflip cs2) as (ds & Ld & Hd). intro t. rewrite <- Hd.
  transitivity (peval (pscal (-1) ds) t); [|rewrite pscal_eval; ring].
  apply (poly_agree (S N) cs _ l); auto; [rewrite pscal_len; lia|]. intros u Hu. destruct (Hl u Hu) as (a & b & F).
  rewrite pscal_eval, Hd, (H1 u a b F). rewrite (H2 (- u) b a (facing_swap k f k2 f2 u a b Hf Hk Hf2 J B1 B2 F)), rusanov_flip. ring.
Qed.
Lemma flux_unique k f c cs cs2 : (f < 3)%nat -> (k < K)%nat -> (forall v w, speed_of k f v -> speed_of k f w -> v = w) -> flux k f c cs -> flux k f c cs2 -> forall t, peval cs t = peval cs2 t.
Proof.
  intros Hf Hk Hs (L1 & (l & Nl & Ll & Hl) & n & lam & Hn & Hlam & H1) (L2 & _ & n2 & lam2 & Hn2 & Hlam2 & H2).
  pose proof (normal_unique _ _ _ _ _ (side_ne K Vert EToV HA f k Hf Hk) Hn Hn2) as ->. rewrite <- (Hs lam lam2 Hlam Hlam2) in H2.
  apply (poly_agree (S N) cs _ l); auto. intros u Hu. destruct (Hl u Hu) as (a & b & F). rewrite (H1 u a b F), (H2 u a b F). reflexivity.
Qed.
Lemma flux_wall k f cs : (f < 3)%nat -> (k < K)%nat -> beyond k f = Some (fun _ n a => mirror n a) -> flux k f 0 cs -> forall t, peval cs t = 0.
Proof.
  intros Hf Hk B (L1 & (l & Nl & Ll & Hl) & n & lam & Hn & Hlam & H1). apply (too_many_roots (S N) cs l); auto.
  intros u Hu. destruct (Hl u Hu) as (a & b & F). rewrite (H1 u a b F). destruct F as (i & Hi & Ei & Ea & Hb). rewrite B in Hb. destruct Hb as (n' & Hn' & ->).
  rewrite (normal_unique _ _ _ _ _ (side_ne K Vert EToV HA f k Hf Hk) Hn' Hn). apply rusanov_mirror. apply Hn.
Qed.

(* the mass rate integrates to zero over a mesh without openings *)
Lemma mass_zero z : dg_scheme N Np K Vert EToV (e_x el) (e_y el) g q beyond speed_of z ->
  (forall k f v w, speed_of k f v -> speed_of k f w -> v = w) ->
  (forall k f k2 f2, (f < 3)%nat -> (k < K)%nat -> (f2 < 3)%nat -> joined EToV k f k2 f2 -> forall v w, speed_of k f v -> speed_of k2 f2 w -> v = w) ->
  (forall k f, (k < K)%nat -> (f < 3)%nat ->
     beyond k f = Some (fun _ n a => mirror n a) /\ (forall k2 f2, (f2 < 3)%nat -> ~ joined EToV k f k2 f2) \/ beyond k f = None /\ exists k2 f2, (f2 < 3)%nat /\ joined EToV k f k2 f2) ->
  forall (Z : nat -> poly2) (v : nat -> R),
  (forall k, (k < K)%nat -> interpolant N Np (e_x el) (e_y el) (fieldc 0 z) k (Z k) /\ element_integral (P k 0) (P k 1) (P k 2) (eval2 (Z k)) (v k)) ->
  sumn K v = 0.
Proof.
  intros Hsch Hu Hu2 Hclosed Z v HZ.
  (* the flow through each face *)
  pose (ok := fun gg s => exists cs, flux (gg / 3) (gg mod 3) 0 cs /\ side_integral (from_ Vert EToV (gg / 3) (gg mod 3)) (to_ Vert EToV (gg / 3) (gg mod 3)) (peval cs) s).
  assert (Hel : forall k, (k < K)%nat -> exists s0 s1 s2, ok (3 * k)%nat s0 /\ ok (3 * k + 1)%nat s1 /\ ok (3 * k + 2)%nat s2 /\ v k = - (s0 + s1 + s2)).
  { intros k Hk. destruct (Hsch k 0%nat Hk ltac:(lia)) as (Z0 & F & GG & S0 & S1 & S2 & HZ0 & DF & HF & DG & HG & F0 & F1 & F2 & Hbal).
    destruct (Hbal [(0%nat, 0%nat, 1)] (fun _ _ => 0) (fun _ _ => 0)) as (vz & vf & v0 & v1 & v2 & Iz & If & I0 & I1 & I2 & E).
    - repeat constructor. cbn. lia.
    - intros x y. unfold dr_is. eapply dpl_ext; [|apply (derivable_pt_lim_const 1)]. intro t. cbn. unfold fct_cte. ring.
    - intros x y. unfold ds_is. eapply dpl_ext; [|apply (derivable_pt_lim_const 1)]. intro t. cbn. unfold fct_cte. ring.
    - exists v0, v1, v2. unfold ok.
      assert (D0 : (3 * k / 3 = k /\ (3 * k) mod 3 = 0)%nat) by (split; [rewrite Nat.mul_comm; apply Nat.div_mul; lia|rewrite Nat.mul_comm; apply Nat.mod_mul; lia]).
      assert (D1 : ((3 * k + 1) / 3 = k /\ (3 * k + 1) mod 3 = 1)%nat) by (split; [symmetry; apply Nat.div_unique with 1%nat; lia|symmetry; apply Nat.mod_unique with k; lia]).
      assert (D2 : ((3 * k + 2) / 3 = k /\ (3 * k + 2) mod 3 = 2)%nat) by (split; [symmetry; apply Nat.div_unique with 2%nat; lia|symmetry; apply Nat.mod_unique with k; lia]).
      destruct D0 as (-> & ->), D1 as (-> & ->), D2 as (-> & ->).
      assert (Hsi : forall p p' cs vv, side_integral p p' (fun t => peval cs t * at_point [(0%nat, 0%nat, 1)] (side_point p p' t)) vv -> side_integral p p' (peval cs) vv).
      { intros p p' cs vv (i & Ii & ->). exists i. split; [|reflexivity]. eapply integral_ext; [|exact Ii]. intro t. cbn. ring. }
      split; [exists S0; split; [exact F0|apply Hsi; exact I0]|]. split; [exists S1; split; [exact F1|apply Hsi; exact I1]|]. split; [exists S2; split; [exact F2|apply Hsi; exact I2]|].
      destruct (HZ k Hk) as (HZk & Iv). destruct Iv as (iv & Iv & ->). destruct Iz as (iz & Iz & Ez). destruct If as (if_ & If & Ef).
      assert (iv = iz). { eapply tint_unique; [exact Iv|]. eapply tint_ext; [|exact Iz]. intros r s. unfold pulled at 1. cbn [eval2 fst snd pow]. 
        rewrite <- (interpolant_unique (fieldc 0 z) k Z0 (Z k) Hk HZ0 HZk r s). unfold pulled. cbn. ring. }
      assert (if_ = 0). { eapply tint_unique; [exact If|]. eapply tint_ext; [|apply tint_zero]. intros r s. unfold pulled. ring. }
      subst iv if_. lra. }
  assert (Hall : forall gg, (gg < 3 * K)%nat -> exists s, ok gg s).
  { intros gg Hg. pose proof (Nat.div_mod gg 3 ltac:(lia)) as D1. pose proof (Nat.mod_upper_bound gg 3 ltac:(lia)) as D2. destruct (Hel (gg / 3)%nat ltac:(lia)) as (s0 & s1 & s2 & O0 & O1 & O2 & _).
    destruct (gg mod 3)%nat as [|[|[|]]]; [| | |lia]; [exists s0|exists s1|exists s2].
    - replace gg with (3 * (gg / 3))%nat by lia. exact O0.
    - replace gg with (3 * (gg / 3) + 1)%nat by lia. exact O1.
    - replace gg with (3 * (gg / 3) + 2)%nat by lia. exact O2. }
  destruct (finite_choice 0 (3 * K) ok Hall) as (s & Hs).
  assert (Huniq : forall gg a b, (gg < 3 * K)%nat -> ok gg a -> ok gg b -> a = b).
  { intros gg a b Hg (cs & F1 & i & Ii & ->) (ds & F2 & j & Ij & ->). f_equal. eapply integral_unique; [exact Ii|]. eapply integral_ext; [|exact Ij]. intro t.
    assert ((gg / 3 < K)%nat) by (apply Nat.div_lt_upper_bound; lia). pose proof (Nat.mod_upper_bound gg 3 ltac:(lia)).
    apply (flux_unique (gg / 3) (gg mod 3) 0 ds cs); auto. intros. eapply Hu; eassumption. }
  transitivity (- sumn (3 * K) s).
  - rewrite sumn_three. match goal with |- _ = - ?s => replace (- s) with (-1 * s) by ring end. rewrite <- sumn_scal. apply sumn_ext. intros k Hk. destruct (Hel k Hk) as (s0 & s1 & s2 & O0 & O1 & O2 & ->).
    rewrite (Huniq (3 * k)%nat _ _ ltac:(lia) O0 (Hs (3 * k)%nat ltac:(lia))), (Huniq (3 * k + 1)%nat _ _ ltac:(lia) O1 (Hs (3 * k + 1)%nat ltac:(lia))), (Huniq (3 * k + 2)%nat _ _ ltac:(lia) O2 (Hs (3 * k + 2)%nat ltac:(lia))). ring.
  - rewrite (sumn_invol (3 * K) s (fun gg => (3 * nth gg E2E 0 + nth gg E2F 0)%nat)); [ring|].
    intros gg Hg. pose proof (Nat.div_mod gg 3 ltac:(lia)) as Dg. pose proof (Nat.mod_upper_bound gg 3 ltac:(lia)) as Dm. assert (Hk : (gg / 3 < K)%nat) by (apply Nat.div_lt_upper_bound; lia).
    assert (Hlink : forall gg, (gg < 3 * K)%nat -> exists h, (3 * nth gg E2E 0 + nth gg E2F 0 = h)%nat /\ neighbour 3 (map Z.of_nat EToV) gg h).
    { intros g0 Hg0. destruct HM as [_ _ HN _ _]. destruct (HN g0 Hg0) as (h & (L1 & L2) & Nb). exists h. split; [|exact Nb]. rewrite (nth_error_nth _ _ 0%nat L1), (nth_error_nth _ _ 0%nat L2). pose proof (Nat.div_mod h 3 ltac:(lia)). lia. }
    destruct (Hlink gg Hg) as (h & Eh & Nb). rewrite Eh. set (k := (gg / 3)%nat) in *. set (f := (gg mod 3)%nat) in *.
    destruct (Hs gg Hg) as (cs & Fc & Ic). fold k f in Fc, Ic.
    destruct (Hclosed k f Hk Dm) as [(Hw & Hno)|(Hn & k2 & f2 & Hf2 & J)].
    + (* wall *)
      destruct Nb as [(-> & _)|(Sh & _)].
      * split; [exact Hg|]. split; [exact Eh|]. destruct Ic as (i & Ii & Es). 
        assert (i = 0). { eapply integral_unique; [exact Ii|]. eapply integral_ext; [|apply integral_zero]. intro t. cbv beta. symmetry. apply (flux_wall k f cs Dm Hk Hw Fc). }
        subst i. lra.
      * exfalso. pose proof (Nat.div_mod h 3 ltac:(lia)) as Dh. pose proof (Nat.mod_upper_bound h 3 ltac:(lia)). apply (Hno (h / 3)%nat (h mod 3)%nat ltac:(lia)). unfold joined. rewrite <- Dh, <- Dg. exact Sh.
    + pose proof J as J0. unfold joined in J0. rewrite <- Dg in J0. destruct (joined_ends k f k2 f2 Dm Hk Hf2 J) as (Hk2 & E1 & E2 & J').
      assert (Hh : h = (3 * k2 + f2)%nat). { destruct Nb as [(_ & Hno)|(Sh & _)]; [exfalso; exact (Hno _ J0)|]. destruct HM as [_ _ _ HO _]. exact (C21_oriented_conforming _ _ HO _ _ _ Sh J0). }
      subst h. rewrite Hh. assert (Hg2 : (3 * k2 + f2 < 3 * K)%nat) by lia. split; [exact Hg2|]. destruct (Hlink _ Hg2) as (h' & Eh' & Nb'). split.
      * rewrite Eh'. unfold joined in J'. rewrite <- Dg in J'. destruct Nb' as [(_ & Hno)|(Sh & _)]; [exfalso; exact (Hno _ J')|]. destruct HM as [_ _ _ HO _]. exact (C21_oriented_conforming _ _ HO _ _ _ Sh J').
      * destruct (Hs _ Hg2) as (ds & Fd & Id). assert (Ed : ((3 * k2 + f2) / 3 = k2 /\ (3 * k2 + f2) mod 3 = f2)%nat) by (split; [symmetry; apply Nat.div_unique with f2; lia|symmetry; apply Nat.mod_unique with k2; lia]).
        destruct Ed as (Ed1 & Ed2). rewrite Ed1, Ed2 in Fd, Id. destruct Ic as (i & Ii & ->). destruct Id as (j & Ij & ->).
        assert (Hb2 : beyond k2 f2 = None). { destruct (Hclosed k2 f2 Hk2 Hf2) as [(_ & Hno)|(Hn2 & _)]; [exfalso; exact (Hno k f Dm J')|exact Hn2]. }
        pose proof (flux_swap k f k2 f2 0 cs ds Dm Hk Hf2 J Hn Hb2 (Hu2 k f k2 f2 Dm Hk Hf2 J) Fc Fd) as Hfl.
        assert (Hlen : side_length (from_ Vert EToV k2 f2) (to_ Vert EToV k2 f2) = side_length (from_ Vert EToV k f) (to_ Vert EToV k f)).
        { unfold from_, to_. rewrite E1, E2. unfold side_length, dot, pminus. cbn [fst snd]. f_equal. ring. }
        rewrite Hlen. assert (i = - j); [|subst i; ring].
        eapply integral_unique; [exact Ii|]. apply integral_flip in Ij. eapply integral_val; [|eapply integral_ext; [|exact (integral_scal (-1) _ _ _ _ Ij)]]; [ring|]. intro t. cbv beta. rewrite Hfl. ring.
Qed.
End Sides.

(* src/sw2d-simple *)
Variables (jk : nat -> nat -> R) (jv : nat -> R) (lowest : R).
Hypothesis Hlow : lowest <= 0.
Lemma max_local g q beyond own other :
  (forall n f k, (n <= N)%nat -> (f < 3)%nat -> (k < K)%nat -> own (fid n f k) = at_node q (fn f n) k) ->
  (forall n f k, (n <= N)%nat -> (f < 3)%nat -> (k < K)%nat -> other (fid n f k) =
    match beyond k f with Some B => B (fn f n) (normal_at d (3 * S N) (fid n f k)) (own (fid n f k)) | None => cell_at Np q (vP d (fid n f k)) end) ->
  forall f k, (f < 3)%nat -> (k < K)%nat ->
  (forall j, (j <= N)%nat -> exists t, facing Np K Vert EToV (e_x el) (e_y el) q beyond k f t (own (fid j f k)) (other (fid j f k))) /\
  (forall v, speeds Np K Vert EToV (e_x el) (e_y el) g q beyond k f v -> exists j, (j <= N)%nat /\ v <= Rmax (wave_speed g (own (fid j f k))) (wave_speed g (other (fid j f k)))).
Proof.
  intros Hown Hother f k Hf Hk.
  pose proof (fun t a b => facing_iff _ _ _ _ _ _ _ _ _ _ _ _ HB _ _ HM HA HS _ _ _ _ _ _ Hrun q beyond own other Hown Hother k f t a b Hf Hk) as Hfi. split.
  - intros j Hj. destruct (side_pt _ _ _ _ _ _ _ _ _ _ _ _ HB f j Hf Hj) as (t & Ht). exists t. apply Hfi. exists j. split; [exact Hj|]. split; [apply Ht; exact Hk|]. split; reflexivity.
  - intros v (t & a & b & F & Hv). apply Hfi in F as (j & Hj & _ & -> & ->). exists j. split; [exact Hj|]. destruct Hv as [-> | ->]; [apply Rmax_l|apply Rmax_r].
Qed.
Lemma own_ok q n f k : (n <= N)%nat -> (f < 3)%nat -> (k < K)%nat -> cell_at Np q (vM d (fid n f k)) = at_node q (fn f n) k.
Proof.
  intros Hn Hf Hk. destruct (maps_at _ _ _ _ _ _ _ _ _ _ _ _ HB _ _ HM HA HS _ _ _ _ _ _ Hrun n f k Hn Hf Hk) as (-> & _). apply volume_cell. apply (fn_lt _ _ _ _ _ _ _ _ _ _ _ _ HB f n Hf Hn).
Qed.
Lemma inb_tag t l n f k : (forall n f k, (n <= N)%nat -> (f < 3)%nat -> (k < K)%nat -> In (fid n f k) l <-> tag_of bcType k f = t) -> (n <= N)%nat -> (f < 3)%nat -> (k < K)%nat -> inb (fid n f k) l = Z.eqb (tag_of bcType k f) t.
Proof.
  intros H Hn Hf Hk. specialize (H n f k Hn Hf Hk). destruct (Z.eqb_spec (tag_of bcType k f) t) as [E|E].
  - apply inb_spec. apply H. exact E.
  - destruct (inb (fid n f k) l) eqn:Ei; [|reflexivity]. apply inb_spec in Ei. apply H in Ei. contradiction.
Qed.
Lemma fid_add j f k n : (n <= N)%nat -> (f < 3)%nat -> (j + fid n f k / S N * S N)%nat = fid j f k.
Proof.
  intros Hn Hf. assert (E : (fid n f k / S N = 3 * k + f)%nat) by (unfold face_id; symmetry; apply Nat.div_unique with n; lia). rewrite E. unfold face_id. nia.
Qed.
Hypothesis Hwall : forall k f, (k < K)%nat -> (f < 3)%nat -> tag_of bcType k f = 3%Z -> forall k2 f2, (f2 < 3)%nat -> ~ joined EToV k f k2 f2.
Lemma vP_wall n f k : (n <= N)%nat -> (f < 3)%nat -> (k < K)%nat -> (forall k2 f2, (f2 < 3)%nat -> ~ joined EToV k f k2 f2) -> vP d (fid n f k) = vM d (fid n f k).
Proof.
  intros Hn Hf Hk Hno. destruct (maps_at _ _ _ _ _ _ _ _ _ _ _ _ HB _ _ HM HA HS _ _ _ _ _ _ Hrun n f k Hn Hf Hk) as (-> & k2 & f2 & j & Hk2 & Hf2 & Hj & -> & _ & [(-> & -> & -> & _)|(J & _)]); [reflexivity|].
  exfalso. exact (Hno k2 f2 Hf2 J).
Qed.
Lemma simple_run g q : state_conform q Np K = true -> (exists k f, (k < K)%nat /\ (f < 3)%nat /\ tag_of bcType k f = 3%Z) ->
  exists z own other, sw_simple_rhs (exact G) jk jv lowest d 3 (S N) Np K g q = Ok z /\ state_conform z Np K = true /\
  (forall n f k, (n <= N)%nat -> (f < 3)%nat -> (k < K)%nat -> own (fid n f k) = at_node q (fn f n) k) /\
  (forall n f k, (n <= N)%nat -> (f < 3)%nat -> (k < K)%nat -> other (fid n f k) =
    match walls bcType k f with Some B => B (fn f n) (normal_at d (3 * S N) (fid n f k)) (own (fid n f k)) | None => cell_at Np q (vP d (fid n f k)) end) /\
  forall c i k, (c < 3)%nat -> (i < Np)%nat -> (k < K)%nat -> ment (fieldc c z) i k = rate d 3 (S N) Np g q own other (face_max G lowest (S N) (fun i => Rmax (wave_speed g (own i)) (wave_speed g (other i)))) c i k.
Proof.
  intros HQ Hex. destruct (hash_at 3 ltac:(discriminate)) as (l & Hin & Hlt & Hsome & _). specialize (Hsome Hex).
  pose proof (conform_d _ _ _ _ _ _ _ _ _ _ _ _ HB m) as HC. pose proof (maps_bounds _ _ _ _ _ _ _ _ _ _ _ _ HB _ _ HM HA HS _ _ _ _ _ _ Hrun) as Hmb.
  destruct (simple_ok G jk jv lowest d 3 (S N) Np K g q l HC HQ (Np_pos _ _ _ _ _ _ _ _ _ _ _ _ HB _ _ _ _ _ _ _ _ Hrun) ltac:(lia) ltac:(lia) Hmb Hsome Hlt) as (z & Ez & Cz & Hz).
  cbv zeta in Hz.
  set (own := fun i => cell_at Np q (vM d i)) in *. 
  set (other := fun i => if inb i l then (part 0 (cell_at Np q (vP d i)), part 1 (mirror (normal_at d (3 * S N) i) (own i)), part 2 (mirror (normal_at d (3 * S N) i) (own i))) else cell_at Np q (vP d i)) in *.
  exists z, own, other. split; [exact Ez|]. split; [exact Cz|]. split; [intros; apply own_ok; assumption|]. split; [|exact Hz].
  intros n f k Hn Hf Hk. unfold other, walls. rewrite (inb_tag 3 l n f k Hin Hn Hf Hk). destruct (Z.eqb_spec (tag_of bcType k f) 3) as [E|E]; [|reflexivity].
  rewrite (vP_wall n f k Hn Hf Hk (Hwall k f Hk Hf E)). change (cell_at Np q (vM d (fid n f k))) with (own (fid n f k)). destruct (own (fid n f k)) as [[a b] c]. reflexivity.
Qed.
Lemma simple_scheme g q : state_conform q Np K = true -> (exists k f, (k < K)%nat /\ (f < 3)%nat /\ tag_of bcType k f = 3%Z) ->
  exists z, sw_simple_rhs (exact G) jk jv lowest d 3 (S N) Np K g q = Ok z /\ state_conform z Np K = true /\
    dg_scheme N Np K Vert EToV (e_x el) (e_y el) g q (walls bcType) (local_speed Np K Vert EToV (e_x el) (e_y el) g q (walls bcType)) z.
Proof.
  intros HQ Hex. destruct (simple_run g q HQ Hex) as (z & own & other & Ez & Cz & Hown & Hother & Hz).
  exists z. split; [exact Ez|]. split; [exact Cz|]. 
  set (sp := fun i => Rmax (wave_speed g (own i)) (wave_speed g (other i))) in *.
  apply (scheme_ok _ _ _ _ _ _ _ _ _ _ _ _ HB _ _ HM HA HS _ _ _ _ _ _ Hrun g q (walls bcType) own other Hown Hother _ (face_max G lowest (S N) sp) (fun k f => maxto G lowest (S N) (fun j => sp (fid j f k)))).
  - intros n f k Hn Hf Hk. unfold face_max. apply maxto_ext. intros j Hj. rewrite fid_add by assumption. reflexivity.
  - intros f k Hf Hk. destruct (max_local g q (walls bcType) own other Hown Hother f k Hf Hk) as (Hin1 & Hin2). split.
    + destruct (maxto_attained G lowest (S N) (fun j => sp (fid j f k)) ltac:(lia)) as (j & Hj & Ej). { intros i _. unfold sp. apply Rle_trans with 0; [exact Hlow|]. eapply Rle_trans; [apply speed_nonneg|apply Rmax_l]. }
      destruct (Hin1 j ltac:(lia)) as (t & Ft). exists t, (own (fid j f k)), (other (fid j f k)). split; [exact Ft|]. rewrite Ej. unfold sp, Rmax. destruct (Rle_dec _ _); auto.
    + intros v Hv. destruct (Hin2 v Hv) as (j & Hj & Hle). eapply Rle_trans; [exact Hle|]. apply (maxto_ge G lowest (S N) (fun j => sp (fid j f k)) j). lia.
  - exact Hz.
Qed.
Lemma simple_no_wall g q : state_conform q Np K = true -> (forall k f, (k < K)%nat -> (f < 3)%nat -> tag_of bcType k f <> 3%Z) ->
  sw_simple_rhs (exact G) jk jv lowest d 3 (S N) Np K g q = Throw.
Proof.
  intros HQ Hno. destruct (hash_at 3 ltac:(discriminate)) as (l & _ & _ & _ & Hnone). specialize (Hnone Hno).
  pose proof (conform_d _ _ _ _ _ _ _ _ _ _ _ _ HB m) as HC. destruct q as [[h hu] hv]. unfold sw_simple_rhs. rewrite HC, HQ. cbn [require andb]. change (d_bc d) with (m_bc m). rewrite Hnone. reflexivity.
Qed.
Lemma const_dr c i : (i < Np)%nat -> sumn Np (fun j => ment (e_Dr el) i j * c) = 0 /\ sumn Np (fun j => ment (e_Ds el) i j * c) = 0.
Proof.
  intro Hi. assert (Hd : degree2 N [(0%nat, 0%nat, c)]) by (repeat constructor; cbn; lia).
  assert (He : forall x y, eval2 [(0%nat, 0%nat, c)] x y = c) by (intros; cbn; ring).
  pose proof (nodal_dr _ _ _ _ _ _ _ _ _ _ _ _ HB _ i Hd Hi) as H1. pose proof (nodal_ds _ _ _ _ _ _ _ _ _ _ _ _ HB _ i Hd Hi) as H2.
  split.
  - rewrite (sumn_ext _ _ (fun j => ment (e_Dr el) i j * c)) in H1 by (intros; rewrite He; reflexivity). rewrite H1. eapply dr_unique; [apply ddr_ok|]. unfold dr_is. eapply dpl_ext; [|apply (derivable_pt_lim_const c)]. intro t. unfold fct_cte. rewrite He. reflexivity.
  - rewrite (sumn_ext _ _ (fun j => ment (e_Ds el) i j * c)) in H2 by (intros; rewrite He; reflexivity). rewrite H2. eapply ds_unique; [apply dds_ok|]. unfold ds_is. eapply dpl_ext; [|apply (derivable_pt_lim_const c)]. intro t. unfold fct_cte. rewrite He. reflexivity.
Qed.
Lemma rate_const g q own other lam a c i k : (i < Np)%nat -> (k < K)%nat -> (forall i, (i < Np)%nat -> at_node q i k = a) ->
  (forall n f, (n <= N)%nat -> (f < 3)%nat -> own (fid n f k) = a /\ other (fid n f k) = a) -> rate d 3 (S N) Np g q own other lam c i k = 0.
Proof.
  intros Hi Hk Hq Ho. unfold rate, strong_entry. cbn [tables_of d_Dr d_Ds d_Lift d_Fscale d_rx d_sx d_ry d_sy].
  rewrite (sumn_ext Np (fun j => ment (e_Dr el) i j * part c (flux_x g (at_node q j k))) (fun j => ment (e_Dr el) i j * part c (flux_x g a))) by (intros j Hj; rewrite Hq by exact Hj; reflexivity).
  rewrite (sumn_ext Np (fun j => ment (e_Ds el) i j * part c (flux_x g (at_node q j k))) (fun j => ment (e_Ds el) i j * part c (flux_x g a))) by (intros j Hj; rewrite Hq by exact Hj; reflexivity).
  rewrite (sumn_ext Np (fun j => ment (e_Dr el) i j * part c (flux_y g (at_node q j k))) (fun j => ment (e_Dr el) i j * part c (flux_y g a))) by (intros j Hj; rewrite Hq by exact Hj; reflexivity).
  rewrite (sumn_ext Np (fun j => ment (e_Ds el) i j * part c (flux_y g (at_node q j k))) (fun j => ment (e_Ds el) i j * part c (flux_y g a))) by (intros j Hj; rewrite Hq by exact Hj; reflexivity).
  rewrite !(proj1 (const_dr _ i Hi)), !(proj2 (const_dr _ i Hi)).
  rewrite (sumn_zero (3 * S N)); [ring|]. intros j Hj. unfold jump_entry.
  assert (E : exists n f, (n <= N)%nat /\ (f < 3)%nat /\ (j + k * (3 * S N))%nat = fid n f k).
  { exists (j mod S N)%nat, (j / S N)%nat. pose proof (Nat.div_mod j (S N) ltac:(lia)). pose proof (Nat.mod_upper_bound j (S N) ltac:(lia)). split; [lia|]. split; [apply Nat.div_lt_upper_bound; lia|]. unfold face_id. nia. }
  destruct E as (n & f & Hn & Hf & ->). destruct (Ho n f Hn Hf) as (-> & ->). rewrite rusanov_same. ring.
Qed.
Lemma mirror_rest n h : mirror n (h, 0, 0) = (h, 0, 0).
Proof. unfold mirror. f_equal; [f_equal|]; ring. Qed.
Lemma nP_const q a n f k : (n <= N)%nat -> (f < 3)%nat -> (k < K)%nat -> (forall i k, (i < Np)%nat -> (k < K)%nat -> at_node q i k = a) -> cell_at Np q (vP d (fid n f k)) = a.
Proof.
  intros Hn Hf Hk Hq. destruct (maps_at _ _ _ _ _ _ _ _ _ _ _ _ HB _ _ HM HA HS _ _ _ _ _ _ Hrun n f k Hn Hf Hk) as (_ & k2 & f2 & j & Hk2 & Hf2 & Hj & -> & _). 
  rewrite volume_cell by apply (fn_lt _ _ _ _ _ _ _ _ _ _ _ _ HB f2 j Hf2 Hj). apply Hq; [apply (fn_lt _ _ _ _ _ _ _ _ _ _ _ _ HB f2 j Hf2 Hj)|exact Hk2].
Qed.
Lemma simple_rest g q h0 : state_conform q Np K = true -> (exists k f, (k < K)%nat /\ (f < 3)%nat /\ tag_of bcType k f = 3%Z) ->
  (forall i k, (i < Np)%nat -> (k < K)%nat -> at_node q i k = (h0, 0, 0)) ->
  exists z, sw_simple_rhs (exact G) jk jv lowest d 3 (S N) Np K g q = Ok z /\ forall i k, (i < Np)%nat -> (k < K)%nat -> at_node z i k = (0, 0, 0).
Proof.
  intros HQ Hex Hq. destruct (simple_run g q HQ Hex) as (z & own & other & Ez & Cz & Hown & Hother & Hz). exists z. split; [exact Ez|]. intros i k Hi Hk.
  assert (Hall : forall c, (c < 3)%nat -> ment (fieldc c z) i k = 0).
  { intros c Hc. rewrite Hz by assumption. apply (rate_const _ _ _ _ _ (h0, 0, 0)); auto. intros n f Hn Hf. split; [rewrite Hown by assumption; apply Hq; [apply (fn_lt _ _ _ _ _ _ _ _ _ _ _ _ HB f n Hf Hn)|exact Hk]|].
    rewrite Hother by assumption. unfold walls. destruct (Z.eqb _ _); [|apply nP_const; auto]. rewrite Hown, Hq by (try apply (fn_lt _ _ _ _ _ _ _ _ _ _ _ _ HB f n Hf Hn); assumption). apply mirror_rest. }
  unfold at_node. rewrite !Hall by lia. reflexivity.
Qed.

(* src/sw2d *)
Lemma starred_same h hu hv H : 0 < h -> starred (h, hu, hv) H H = (h, hu, hv).
Proof.
  intro Hh. unfold starred. rewrite (Rmax_left (- H) (- H)) by lra. replace (h + - H - - H) with h by ring. rewrite Rmax_right by lra. f_equal; [f_equal|]; field; lra.
Qed.
Definition sources (g CD f : R) (Hx Hy : mat R) (q r z : field) : Prop :=
  forall c i k, (c < 3)%nat -> (i < Np)%nat -> (k < K)%nat -> ment (fieldc c z) i k = ment (fieldc c r) i k + source g CD f (ment Hx i k) (ment Hy i k) c (at_node q i k).
Section Full.
Variables (g CD f0 tide : R) (H Hx Hy : mat R) (q : field).
Hypothesis HQ : state_conform q Np K = true.
Hypothesis HH : state_conform (H, Hx, Hy) Np K = true.
Hypothesis Hex3 : exists k f, (k < K)%nat /\ (f < 3)%nat /\ tag_of bcType k f = 3%Z.
Hypothesis Hex2 : exists k f, (k < K)%nat /\ (f < 3)%nat /\ tag_of bcType k f = 2%Z.
Hypothesis Hwet : forall i k, (i < Np)%nat -> (k < K)%nat -> 0 < part 0 (at_node q i k).
Hypothesis Hcont : forall i k i2 k2, (i < Np)%nat -> (k < K)%nat -> (i2 < Np)%nat -> (k2 < K)%nat -> X i k = X i2 k2 -> ment H i k = ment H i2 k2.
Hypothesis Htide : forall i k f, (i < Np)%nat -> (k < K)%nat -> (f < 3)%nat -> tag_of bcType k f = 2%Z -> 0 < ment H i k + tide.
Lemma full_run : exists z own other, sw_rhs (exact G) jk jv lowest d 3 (S N) Np K g CD f0 tide H Hx Hy q = Ok z /\ state_conform z Np K = true /\
  (forall n f k, (n <= N)%nat -> (f < 3)%nat -> (k < K)%nat -> own (fid n f k) = at_node q (fn f n) k) /\
  (forall n f k, (n <= N)%nat -> (f < 3)%nat -> (k < K)%nat -> other (fid n f k) =
    match walls_and_tide bcType H tide k f with Some B => B (fn f n) (normal_at d (3 * S N) (fid n f k)) (own (fid n f k)) | None => cell_at Np q (vP d (fid n f k)) end) /\
  let r c := mkmat Np K (fun i k => rate d 3 (S N) Np g q own other (fun _ => maxto G lowest (3 * S N * K) (fun i => Rmax (wave_speed g (own i)) (wave_speed g (other i)))) c i k) in
  sources g CD f0 Hx Hy q (r 0%nat, r 1%nat, r 2%nat) z.
Proof.
  destruct (hash_at 3 ltac:(discriminate)) as (l & Hin & Hlt & Hsome & _). specialize (Hsome Hex3).
  destruct (hash_at 2 ltac:(discriminate)) as (l2 & Hin2 & Hlt2 & Hsome2 & _). specialize (Hsome2 Hex2).
  pose proof (conform_d _ _ _ _ _ _ _ _ _ _ _ _ HB m) as HC. pose proof (maps_bounds _ _ _ _ _ _ _ _ _ _ _ _ HB _ _ HM HA HS _ _ _ _ _ _ Hrun) as Hmb.
  destruct (full_ok G jk jv lowest d 3 (S N) Np K g CD f0 tide H Hx Hy q l l2 HC HQ HH (Np_pos _ _ _ _ _ _ _ _ _ _ _ _ HB _ _ _ _ _ _ _ _ Hrun) ltac:(lia) ltac:(lia) Hmb Hsome Hsome2 Hlt Hlt2) as (z & Ez & Cz & Hz).
  cbv zeta in Hz.
  match type of Hz with context [rate d 3 (S N) Np g q ?o ?p] => pose (own := o); pose (other := p) end.
  assert (HV : forall n f k, (n <= N)%nat -> (f < 3)%nat -> (k < K)%nat -> volv Np H (vM d (fid n f k)) = ment H (fn f n) k /\ volv Np H (vP d (fid n f k)) = ment H (fn f n) k).
  { intros n f k Hn Hf Hk. destruct (maps_at _ _ _ _ _ _ _ _ _ _ _ _ HB _ _ HM HA HS _ _ _ _ _ _ Hrun n f k Hn Hf Hk) as (-> & k2 & f2 & j & Hk2 & Hf2 & Hj & -> & EX & _).
    pose proof (fn_lt _ _ _ _ _ _ _ _ _ _ _ _ HB f n Hf Hn) as B1. pose proof (fn_lt _ _ _ _ _ _ _ _ _ _ _ _ HB f2 j Hf2 Hj) as B2.
    assert (Hv : forall i k, (i < Np)%nat -> volv Np H (volume_id Np i k) = ment H i k). { intros i k' Hi. unfold volv, volume_id. rewrite (Nat.mul_comm Np k'), Nat.mod_add, Nat.div_add by lia. rewrite Nat.mod_small, Nat.div_small by lia. reflexivity. }
    rewrite !Hv by assumption. split; [reflexivity|]. apply Hcont; assumption. }
  assert (Hown : forall n f k, (n <= N)%nat -> (f < 3)%nat -> (k < K)%nat -> own (fid n f k) = at_node q (fn f n) k).
  { intros n f k Hn Hf Hk. unfold own. cbv beta. destruct (HV n f k Hn Hf Hk) as (-> & ->). rewrite own_ok by assumption. pose proof (fn_lt _ _ _ _ _ _ _ _ _ _ _ _ HB f n Hf Hn) as B1. specialize (Hwet (fn f n) k B1 Hk).
    destruct (at_node q (fn f n) k) as [[a b] c]. apply starred_same. exact Hwet. }
  assert (Hother : forall n f k, (n <= N)%nat -> (f < 3)%nat -> (k < K)%nat -> other (fid n f k) =
    match walls_and_tide bcType H tide k f with Some B => B (fn f n) (normal_at d (3 * S N) (fid n f k)) (own (fid n f k)) | None => cell_at Np q (vP d (fid n f k)) end).
  { intros n f k Hn Hf Hk. pose proof (fn_lt _ _ _ _ _ _ _ _ _ _ _ _ HB f n Hf Hn) as B1. unfold other. cbv beta. destruct (HV n f k Hn Hf Hk) as (-> & ->). rewrite (inb_tag 3 l n f k Hin Hn Hf Hk), (inb_tag 2 l2 n f k Hin2 Hn Hf Hk).
    rewrite Hown, own_ok by assumption. unfold walls_and_tide, walls. 
    destruct (Z.eqb_spec (tag_of bcType k f) 2) as [E|E].
    - exact (starred_same _ _ _ (ment H (fn f n) k) (Htide (fn f n) k f B1 Hk Hf E)).
    - destruct (Z.eqb_spec (tag_of bcType k f) 3) as [E3|E3].
      + specialize (Hwet (fn f n) k B1 Hk). destruct (at_node q (fn f n) k) as [[a b] c]. exact (starred_same _ _ _ (ment H (fn f n) k) Hwet).
      + destruct (maps_at _ _ _ _ _ _ _ _ _ _ _ _ HB _ _ HM HA HS _ _ _ _ _ _ Hrun n f k Hn Hf Hk) as (_ & k2 & f2 & j & Hk2 & Hf2 & Hj & -> & _). pose proof (fn_lt _ _ _ _ _ _ _ _ _ _ _ _ HB f2 j Hf2 Hj) as B2.
        rewrite volume_cell by exact B2. specialize (Hwet (fn f2 j) k2 B2 Hk2). destruct (at_node q (fn f2 j) k2) as [[a b] c]. exact (starred_same _ _ _ (ment H (fn f n) k) Hwet). }
  exists z, own, other. split; [exact Ez|]. split; [exact Cz|]. split; [exact Hown|]. split; [exact Hother|]. 
  intros r c i k Hc Hi Hk. destruct (Hz i k Hi Hk) as (Z0 & Z1 & Z2). subst r.
  assert (El : forall c, rate d 3 (S N) Np g q own other (fun _ => maxto G lowest (3 * S N * K) (fun i => Rmax (wave_speed g (own i)) (wave_speed g (other i))) + 0) c i k = rate d 3 (S N) Np g q own other (fun _ => maxto G lowest (3 * S N * K) (fun i => Rmax (wave_speed g (own i)) (wave_speed g (other i)))) c i k) by (intro; rewrite Rplus_0_r; reflexivity).
  change (ment (fieldc 0 z) i k = rate d 3 (S N) Np g q own other (fun _ => maxto G lowest (3 * S N * K) (fun i => Rmax (wave_speed g (own i)) (wave_speed g (other i))) + 0) 0 i k) in Z0. rewrite El in Z0.
  match type of Z1 with _ = _ + ?b + ?c + ?e => change (ment (fieldc 1 z) i k = rate d 3 (S N) Np g q own other (fun _ => maxto G lowest (3 * S N * K) (fun i => Rmax (wave_speed g (own i)) (wave_speed g (other i))) + 0) 1 i k + b + c + e) in Z1 end. rewrite El in Z1.
  match type of Z2 with _ = _ + ?b + ?c + ?e => change (ment (fieldc 2 z) i k = rate d 3 (S N) Np g q own other (fun _ => maxto G lowest (3 * S N * K) (fun i => Rmax (wave_speed g (own i)) (wave_speed g (other i))) + 0) 2 i k + b + c + e) in Z2 end. rewrite El in Z2.
  clearbody own other. destruct c as [|[|[|]]]; [| | |lia].
  - rewrite Z0. cbn [fieldc fst snd ment]. unfold source. destruct (at_node q i k) as [[a b] c]. rewrite Rplus_0_r. reflexivity.
  - rewrite Z1. cbn [fieldc fst snd ment]. unfold source. destruct (at_node q i k) as [[a b] c]. cbn [part fst snd]. ring.
  - rewrite Z2. cbn [fieldc fst snd ment]. unfold source. destruct (at_node q i k) as [[a b] c]. cbn [part fst snd]. ring.
Qed.
Lemma full_scheme : exists z r, sw_rhs (exact G) jk jv lowest d 3 (S N) Np K g CD f0 tide H Hx Hy q = Ok z /\ state_conform z Np K = true /\ sources g CD f0 Hx Hy q r z /\
  dg_scheme N Np K Vert EToV (e_x el) (e_y el) g q (walls_and_tide bcType H tide) (global_speed Np K Vert EToV (e_x el) (e_y el) g q (walls_and_tide bcType H tide)) r.
Proof.
  destruct full_run as (z & own & other & Ez & Cz & Hown & Hother & Hz). cbv zeta in Hz.
  match type of Hz with sources _ _ _ _ _ _ ?r _ => exists z, r end. split; [exact Ez|]. split; [exact Cz|]. split; [exact Hz|].
  set (sp := fun i => Rmax (wave_speed g (own i)) (wave_speed g (other i))).
  apply (scheme_ok _ _ _ _ _ _ _ _ _ _ _ _ HB _ _ HM HA HS _ _ _ _ _ _ Hrun g q (walls_and_tide bcType H tide) own other Hown Hother _ (fun _ => maxto G lowest (3 * S N * K) sp) (fun _ _ => maxto G lowest (3 * S N * K) sp)).
  - reflexivity.
  - intros f k Hf Hk. split.
    + destruct (maxto_attained G lowest (3 * S N * K) sp ltac:(nia)) as (i & Hi & Ei). { intros i _. unfold sp. apply Rle_trans with 0; [exact Hlow|]. eapply Rle_trans; [apply speed_nonneg|apply Rmax_l]. }
      destruct (fid_split N K i Hi) as (n & f' & k' & Hn & Hf' & Hk' & ->). destruct (max_local g q _ own other Hown Hother f' k' Hf' Hk') as (Hin1 & _). destruct (Hin1 n Hn) as (t & Ft).
      exists k', f'. split; [exact Hk'|]. split; [exact Hf'|]. exists t, (own (fid n f' k')), (other (fid n f' k')). split; [exact Ft|]. rewrite Ei. unfold sp, Rmax. destruct (Rle_dec _ _); auto.
    + intros v (k' & f' & Hk' & Hf' & Hv). destruct (max_local g q _ own other Hown Hother f' k' Hf' Hk') as (_ & Hin2). destruct (Hin2 v Hv) as (j & Hj & Hle). eapply Rle_trans; [exact Hle|]. apply (maxto_ge G lowest (3 * S N * K) sp (fid j f' k')). apply fid_lt; assumption.
  - intros c i k Hc Hi Hk. destruct c as [|[|[|]]]; [| | |lia]; reflexivity.
Qed.
End Full.
Lemma full_missing_tag g CD f0 tide H Hx Hy q : state_conform q Np K = true -> state_conform (H, Hx, Hy) Np K = true ->
  (forall k f, (k < K)%nat -> (f < 3)%nat -> tag_of bcType k f <> 2%Z) \/ (forall k f, (k < K)%nat -> (f < 3)%nat -> tag_of bcType k f <> 3%Z) ->
  sw_rhs (exact G) jk jv lowest d 3 (S N) Np K g CD f0 tide H Hx Hy q = Throw.
Proof.
  intros HQ HH Hno. destruct (hash_at 3 ltac:(discriminate)) as (l & _ & _ & _ & Hnone). destruct (hash_at 2 ltac:(discriminate)) as (l2 & _ & _ & _ & Hnone2).
  pose proof (conform_d _ _ _ _ _ _ _ _ _ _ _ _ HB m) as HC. destruct q as [[h hu] hv]. unfold sw_rhs. rewrite HC, HQ, HH. cbn [require andb]. change (d_bc d) with (m_bc m).
  destruct Hno as [Hno|Hno]; [rewrite (Hnone2 Hno); destruct (hfind (m_bc m) 3)|rewrite (Hnone Hno)]; reflexivity.
Qed.
End Run.
