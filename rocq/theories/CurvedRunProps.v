(* CurvedRunProps.v - C102: what a run of the script sw2d_curved.py computes. *)
From Coq Require Import ZArith List Lia Bool Arith SpecFloat.
From Verif Require Import Base Loops Num JacobiSpec JacobiProofs JacobiQuadProofs JacobiExactProofs Nodes1DModel DenseSpec Maps2DModel RKModel Line1DModel Line1DProofs TriModel TriSpec TriGeoSpec MeshSpec Maps2DSpec Maps2DProofs TriSetup TriProps TriDGSpec TriDGProofs TriOpProofs TriMapsProofs TriMapsProps
  UniqueProofs Maps2DProps GaussFaceModel CubMeshModel SwModel SwSpec SwProofs SwSchemeProofs SwRunProofs SwProps CurvedSwModel CurvedSwSpec CurvedSwProofs CurvedSwProps PySwModel PySwSpec PySwProofs PySwRunProofs PySwProps SwStepModel SwStepSpec SwVolProofs SwDtProofs
  SwSetupModel SwSetupProofs AdvecRunModel SwScriptModel SwScriptSpec SwScriptProofs SwScriptProps CurvedRunModel CurvedRunSpec CurvedRunProofs TriWitness.
From Coq Require Import Reals Lra.
Import ListNotations.
Local Open Scope R_scope.

(* ---------- the drag coefficient ---------- *)
(* C102: between zero and its largest value everywhere, larger the nearer the walls: half of it at half the length, at the
   walls all but a thousandth, a thousandth beyond the whole length. *)
Theorem C102_drag G CDm tol Np K vmapW x y : 0 < CDm -> 0 < tol -> conform x Np K = true -> conform y Np K = true -> vmapW <> [] -> (forall w, In w vmapW -> (w < Np * K)%nat) ->
  exists CD, drag_field (exact G) rhypot tanh (1 / 10) CDm tol Np K vmapW x y = Ok CD /\ conform CD Np K = true /\
  (forall i k, (i < Np)%nat -> (k < K)%nat -> 0 < ment CD i k < CDm) /\
  (forall i k, (i < Np)%nat -> (k < K)%nat -> exists dist, nearest Np x y vmapW i k dist) /\
  (forall i k dist, (i < Np)%nat -> (k < K)%nat -> nearest Np x y vmapW i k dist ->
    (dist = tol / 2 -> ment CD i k = CDm / 2) /\ (dist = 0 -> CDm * (1 - 1 / 1025) < ment CD i k) /\ (tol <= dist -> ment CD i k < CDm / 1025)) /\
  (forall i k i' k' dist dist', (i < Np)%nat -> (k < K)%nat -> (i' < Np)%nat -> (k' < K)%nat -> nearest Np x y vmapW i k dist -> nearest Np x y vmapW i' k' dist' ->
    (dist < dist' <-> ment CD i' k' < ment CD i k)).
Proof.
  intros HC Ht Cx Cy HW Hb. apply conform_ok in Cx as (X1 & X2), Cy as (Y1 & Y2).
  unfold drag_field. rewrite (flat_tab x Np K X1 X2), (flat_tab y Np K Y1 Y2), !(take_tab G _ _ vmapW (length vmapW) eq_refl Hb). cbn [bind].
  set (fx := fun p => ment x (p mod Np) (p / Np)). set (fy := fun p => ment y (p mod Np) (p / Np)). set (nW := length vmapW).
  destruct (drag_list G (1 / 10) CDm tol (tab nW (fun i => fx (nth i vmapW 0%nat))) (tab nW (fun i => fy (nth i vmapW 0%nat))) ltac:(rewrite !tab_len; reflexivity)
     ltac:(intro Z; apply (f_equal (@length R)) in Z; rewrite tab_len in Z; unfold nW in Z; destruct vmapW; [contradiction|discriminate Z]) (tab (Np * K) fx) (tab (Np * K) fy) ltac:(rewrite !tab_len; reflexivity)) as (l & El & Ll & Hl).
  match goal with |- context[drag_nodes _ _ _ _ _ _ ?a ?b ?c ?e] => change a with (tab nW (fun i => fx (nth i vmapW 0%nat))); change b with (tab nW (fun i => fy (nth i vmapW 0%nat))); change c with (tab (Np * K) fx); change e with (tab (Np * K) fy) end.
  rewrite El. cbn [bind]. rewrite tab_len in Ll, Hl. unfold reshapeF. rewrite Ll, Nat.eqb_refl. eexists. split; [reflexivity|]. split; [unfold conform; cbn; rewrite !Nat.eqb_refl; reflexivity|].
  cbn [ment]. change (fofn (exact G) 0) with 0.
  assert (Hn : forall i k dist, (i < Np)%nat -> (k < K)%nat -> nearest Np x y vmapW i k dist <-> In dist (map (fun w => rhypot (ment x i k - fx w) (ment y i k - fy w)) vmapW) /\ forall v, In v (map (fun w => rhypot (ment x i k - fx w) (ment y i k - fy w)) vmapW) -> dist <= v).
  { intros i k dist Hi Hk. unfold nearest, rhypot, fx, fy. rewrite in_map_iff. split.
    - intros ((w & Hw & ->) & Hle). split; [exists w; split; [|exact Hw]; f_equal; ring|]. intros v Hv. apply in_map_iff in Hv as (w2 & <- & Hw2). specialize (Hle w2 Hw2). refine (Rle_trans _ _ _ Hle _). right. f_equal. ring.
    - intros ((w & <- & Hw) & Hle). split; [exists w; split; [exact Hw|]; f_equal; ring|]. intros w2 Hw2. refine (Rle_trans _ _ _ (Hle _ (in_map _ _ _ Hw2)) _). right. f_equal. ring. }
  assert (Hd : forall i k, (i < Np)%nat -> (k < K)%nat -> exists dist, nearest Np x y vmapW i k dist /\ nth (i + Np * k) l 0 = CDm * (1 / 2) * (1 - tanh ((dist - 1 / 2 * tol) / (1 / 10 * tol)))).
  { intros i k Hi Hk. assert (Hp : (i + Np * k < Np * K)%nat) by nia. destruct (Hl _ Hp) as (dist & D1 & D2 & D3). exists dist.
    rewrite !tab_at in D1, D2 by exact Hp. rewrite tab_zipw in D1, D2.
    assert (Ef : forall m : mat R, ment m ((i + Np * k) mod Np) ((i + Np * k) / Np) = ment m i k). { intro m. rewrite (Nat.mul_comm Np k), Nat.mod_add, Nat.div_add, Nat.mod_small, Nat.div_small by lia. reflexivity. }
    assert (EL : tab nW (fun j => rhypot (fx (i + Np * k)%nat - fx (nth j vmapW 0%nat)) (fy (i + Np * k)%nat - fy (nth j vmapW 0%nat))) = map (fun w => rhypot (ment x i k - fx w) (ment y i k - fy w)) vmapW).
    { unfold fx at 1, fy at 1. rewrite !Ef. unfold tab, nW. clear. induction vmapW as [|w l IH]; [reflexivity|]. cbn [length seq map nth]. f_equal. rewrite <- seq_shift, map_map. apply IH. }
    rewrite EL in D1, D2. split; [apply Hn; auto|]. rewrite D3. unfold drag_at, SwModel.half. cbn [exact fmul fsub fdiv]. rewrite fhalf_exact. change (fofn (exact G) 1) with 1. reflexivity. }
  assert (Huniq : forall i k d1 d2, nearest Np x y vmapW i k d1 -> nearest Np x y vmapW i k d2 -> d1 = d2).
  { intros i k d1 d2 ((w1 & W1 & ->) & L1) ((w2 & W2 & ->) & L2). apply Rle_antisym; auto. }
  assert (Hm : forall d1 d2, d1 < d2 -> CDm * (1 / 2) * (1 - tanh ((d2 - 1 / 2 * tol) / (1 / 10 * tol))) < CDm * (1 / 2) * (1 - tanh ((d1 - 1 / 2 * tol) / (1 / 10 * tol)))).
  { intros d1 d2 H12. assert (T : tanh ((d1 - 1 / 2 * tol) / (1 / 10 * tol)) < tanh ((d2 - 1 / 2 * tol) / (1 / 10 * tol))). { apply tanh_mono. unfold Rdiv. apply Rmult_lt_compat_r; [apply Rinv_0_lt_compat; lra|lra]. } apply Rmult_lt_compat_l; lra. }
  split. { intros i k Hi Hk. destruct (Hd i k Hi Hk) as (dist & _ & ->). pose proof (tanh_range ((dist - 1 / 2 * tol) / (1 / 10 * tol))). split; nra. }
  split. { intros i k Hi Hk. destruct (Hd i k Hi Hk) as (dist & Hnr & _). exists dist. exact Hnr. }
  split.
  - intros i k dist Hi Hk Hnr. destruct (Hd i k Hi Hk) as (d2 & Hn2 & ->). rewrite (Huniq i k d2 dist Hn2 Hnr). clear d2 Hn2. pose proof tanh_5 as (T1 & T2). split; [|split].
    + intros ->. replace ((tol / 2 - 1 / 2 * tol) / (1 / 10 * tol)) with 0 by (field; lra). rewrite tanh_exp, Rmult_0_r, exp_0. field.
    + intros ->. replace ((0 - 1 / 2 * tol) / (1 / 10 * tol)) with (-5) by (field; lra). nra.
    + intro Hge. assert (T : tanh 5 <= tanh ((dist - 1 / 2 * tol) / (1 / 10 * tol))).
      { replace 5 with ((tol - 1 / 2 * tol) / (1 / 10 * tol)) by (field; lra). destruct Hge as [Hlt| ->]; [left|right; reflexivity]. apply tanh_mono. unfold Rdiv. apply Rmult_lt_compat_r; [apply Rinv_0_lt_compat; lra|lra]. }
      unfold Rdiv in *. nra.
  - intros i k i' k' dist dist' Hi Hk Hi' Hk' N1 N2. destruct (Hd i k Hi Hk) as (d1 & H1 & ->). destruct (Hd i' k' Hi' Hk') as (d2 & H2 & ->). rewrite (Huniq i k d1 dist H1 N1), (Huniq i' k' d2 dist' H2 N2). split; [apply Hm|].
    intro Hlt. destruct (Rtotal_order dist dist') as [L|[-> |L]]; [exact L|lra|]. specialize (Hm _ _ L). lra.
Qed.
(* C102: without wall nodes the script stops. *)
Theorem C102_no_walls_throws G CDm tol Np K x y : conform x Np K = true -> conform y Np K = true -> (0 < Np * K)%nat -> drag_field (exact G) rhypot tanh (1 / 10) CDm tol Np K [] x y = Throw.
Proof.
  intros Cx Cy HN. apply conform_ok in Cx as (X1 & X2), Cy as (Y1 & Y2). unfold drag_field. rewrite (flat_tab x Np K X1 X2), (flat_tab y Np K Y1 Y2). cbn [take forallb bind map].
  destruct (Np * K)%nat as [|n]; [lia|]. reflexivity.
Qed.

(* ---------- the start ---------- *)
(* C102: the jet is in balance: what Coriolis does to the velocity along x the slope of the surface takes back. *)
Theorem C102_balance G g f amp L W y : f <> 0 -> W <> 0 ->
  derivable_pt_lim (jet_eta (exact G) exp amp L W) y (jet_slope (exact G) exp amp L W y) /\ f * jet_u (exact G) exp g f amp L W y = - g * jet_slope (exact G) exp amp L W y.
Proof.
  intros Hf HW. split; [|unfold jet_u; cbn [exact fmul fdiv fopp]; field; exact Hf].
  unfold jet_eta, jet_slope, bump. cbn [exact fmul fdiv fopp fsub]. change (fofn (exact G) 2) with 2.
  assert (D : derivable_pt_lim (fun y => - ((y - L) / W * ((y - L) / W))) y (- (2 * (y - L) / (W * W)))).
  { assert (D1 : derivable_pt_lim (fun y => (y - L) * / W) y (/ W)).
    { pose proof (derivable_pt_lim_mult (fun y => y - L) (fun _ => / W) y (1 - 0) 0 (derivable_pt_lim_minus (fun y => y) (fun _ => L) y 1 0 (derivable_pt_lim_id y) (derivable_pt_lim_const L y)) (derivable_pt_lim_const (/ W) y)) as X.
      cbv beta in X. replace ((1 - 0) * / W + (y - L) * 0) with (/ W) in X by ring. exact X. }
    apply (derivable_pt_lim_opp (fun y => (y - L) / W * ((y - L) / W))). replace (2 * (y - L) / (W * W)) with (/ W * ((y - L) / W) + (y - L) / W * / W) by (field; exact HW).
    apply (derivable_pt_lim_mult (fun y => (y - L) / W) (fun y => (y - L) / W)); exact D1. }
  pose proof (derivable_pt_lim_comp (fun y => - ((y - L) / W * ((y - L) / W))) exp y _ _ D (derivable_pt_lim_exp _)) as D2.
  pose proof (derivable_pt_lim_scal _ amp y _ D2) as D3. unfold mult_real_fct, comp in D3.
  match goal with |- derivable_pt_lim _ _ ?r => match type of D3 with derivable_pt_lim _ _ ?l => replace r with l by (field; exact HW) end end. exact D3.
Qed.
(* C102: the state at the start: never shallower than the limit, the depth of the jet where that is deeper, no flow along y. *)
Theorem C102_start G g f H0 amp L W Nx Ny rad lim Np K x y : conform x Np K = true -> conform y Np K = true -> 0 < lim ->
  let q := start (exact G) exp g f H0 amp L W Nx Ny rad lim x y in has_water Np K q /\
  forall i k, let s := amp * exp (- ((ment y i k - L) / W) ^ 2) in let h := Rmax lim (H0 + s) in
  node_state q i k = (h, h * (- g / f * (- 2 * amp * (ment y i k - L) * exp (- ((ment y i k - L) / W) ^ 2) / W ^ 2)), 0, h * exp (- (((ment x i k - Nx) / rad) ^ 2 + ((ment y i k - Ny) / rad) ^ 2))) /\
  (0 <= amp -> lim <= H0 -> h = H0 + s).
Proof.
  intros Cx Cy Hl q. apply conform_ok in Cx as (X1 & X2), Cy as (Y1 & Y2).
  assert (Hh : forall i k, ment (q_h q) i k = Rmax lim (H0 + amp * exp (- ((ment y i k - L) / W) ^ 2))).
  { intros i k. unfold q, start, clip, jet_eta, bump. cbn [q_h Line1DModel.mmap ment exact fadd fmul fdiv fopp fsub flt]. replace (((ment y i k - L) / W) ^ 2) with ((ment y i k - L) / W * ((ment y i k - L) / W)) by ring.
    unfold Rltb. destruct (Rlt_dec _ lim); symmetry; [apply Rmax_left|apply Rmax_right]; lra. }
  split.
  - split; [unfold four_conform, conform, q, start; cbn; rewrite Y1, Y2, !Nat.eqb_refl; reflexivity|]. intros i k _ _. rewrite Hh. pose proof (Rmax_l lim (H0 + amp * exp (- ((ment y i k - L) / W) ^ 2))). lra.
  - intros i k s h. split.
    + unfold node_state. specialize (Hh i k). fold s in Hh. fold h in Hh. unfold q, start in *. cbn [q_h q_hu q_hv q_hN Line1DModel.mmap Line1DModel.mzip ment exact fmul] in *. rewrite Hh.
      unfold jet_u, jet_slope, patch, bump. cbn [exact fmul fdiv fopp fsub fadd]. change (fofn (exact G) 2) with 2. change (fofn (exact G) 0) with 0.
      replace (((ment y i k - L) / W) ^ 2) with ((ment y i k - L) / W * ((ment y i k - L) / W)) by ring. replace (W ^ 2) with (W * W) by ring.
      replace (((ment x i k - Nx) / rad) ^ 2 + ((ment y i k - Ny) / rad) ^ 2) with ((ment x i k - Nx) / rad * ((ment x i k - Nx) / rad) + (ment y i k - Ny) / rad * ((ment y i k - Ny) / rad)) by ring.
      repeat match goal with |- (_, _) = (_, _) => apply f_equal2 end; try reflexivity; unfold Rdiv; ring.
    + intros Ha HH. unfold h. apply Rmax_right. assert (0 <= s) by (apply Rmult_le_pos; [exact Ha|left; apply exp_pos]). lra.
Qed.

(* ---------- the rates ---------- *)
Lemma core_rhs {T} (A : arith T) hyp tri V J cc gf curved gmapM gmapP g CD f zx zy q :
  curved_rhs A hyp tri V J cc gf curved gmapM gmapP g CD f zx zy q = bind (curved_core A tri V J cc gf curved gmapM gmapP g zx zy q) (fun R => Ok (add_sources A hyp g CD f q zx zy R)).
Proof.
  unfold curved_rhs, curved_core. match goal with |- require ?b _ = _ => destruct b; [|reflexivity] end. cbn [require bind]. destruct (hfind (gf_bc gf) 3) as [mapW|]; [|reflexivity]. cbv zeta.
  repeat (match goal with |- bind ?x _ = bind (bind ?x _) _ => destruct x; cbn [bind]; try reflexivity end).
Qed.
Section Rates.
Variables (G : R -> R) (tri : bool -> mat R -> list R -> outcome (list R)) (Np K NG : nat) (V J : mat R) (cc : cub_mesh R) (gf : gauss_faces R)
  (curved gmapM gmapP mapW : list nat) (mass : nat -> mat R) (g f : R) (zx zy : mat R) (q : four (mat R)).
Local Notation Ready := (curved_ready tri Np K NG V J cc gf curved gmapM gmapP mapW mass zx zy q).
Local Notation rates CD := (curved_rates (exact G) rhypot tri V J cc gf curved gmapM gmapP g f CD zx zy q).
Local Notation plain c := (curved_rhs (exact G) rhypot tri V J cc gf curved gmapM gmapP g c f zx zy q).
(* C102: at every node the rates are those of C91 with the coefficient of that node. *)
Theorem C102_rates CD : Ready -> conform CD Np K = true -> exists z, rates CD = Ok z /\ four_conform z Np K = true /\
  forall i k, (i < Np)%nat -> (k < K)%nat -> exists zc, plain (ment CD i k) = Ok zc /\ forall c, (c < 4)%nat -> ment (pick c z) i k = ment (pick c zc) i k.
Proof.
  intros HR HC. destruct (C91_scheme G tri Np K NG V J cc gf curved gmapM gmapP mapW mass g 0 f zx zy q HR) as (z0 & E0 & C0 & _). rewrite core_rhs in E0.
  destruct (curved_core (exact G) tri V J cc gf curved gmapM gmapP g zx zy q) as [R0| |] eqn:Ec; try discriminate E0. cbn [bind] in E0. injection E0 as <-.
  assert (Hs : mrows V = Np /\ mcols J = K) by (destruct HR as (HT & _); split; [apply (ct_V _ _ _ _ _ _ _ _ _ _ _ _ HT)|apply (ct_J _ _ _ _ _ _ _ _ _ _ _ _ HT)]).
  destruct Hs as (HV & HJ). unfold curved_rates. rewrite HV, HJ, HC, Ec. cbn [require bind]. eexists. split; [reflexivity|]. split; [exact C0|].
  intros i k Hi Hk. eexists. rewrite core_rhs, Ec. cbn [bind]. split; [reflexivity|]. intros c Hc. destruct c as [|[|[|[|c]]]]; [reflexivity|reflexivity|reflexivity|reflexivity|lia].
Qed.
(* C102: the power of the drag at a node is - CD |u| (u^2 - v^2): where the flow is more along y than along x it gains energy
   from the walls. *)
Theorem C102_drag_accelerates_refuted CD z z0 i k : Ready -> conform CD Np K = true -> rates CD = Ok z -> plain 0 = Ok z0 -> (i < Np)%nat -> (k < K)%nat ->
  let u := ment (q_hu q) i k / ment (q_h q) i k in let v := ment (q_hv q) i k / ment (q_h q) i k in
  let power := u * (ment (q_hu z) i k - ment (q_hu z0) i k) + v * (ment (q_hv z) i k - ment (q_hv z0) i k) in
  power = - ment CD i k * sqrt (u * u + v * v) * (u ^ 2 - v ^ 2) /\ (0 < ment CD i k -> Rabs u < Rabs v -> 0 < power).
Proof.
  intros HR HC Ez Ez0 Hi Hk u v power. destruct (C102_rates CD HR HC) as (z' & E' & _ & Hz). assert (z' = z) by congruence. subst z'. destruct (Hz i k Hi Hk) as (zc & Ezc & Hc).
  pose proof (Hc 1%nat ltac:(lia)) as H1. pose proof (Hc 2%nat ltac:(lia)) as H2. cbn [pick] in H1, H2. unfold power. rewrite H1, H2. clear power H1 H2 Hc Hz. rewrite core_rhs in Ezc, Ez0. destruct (curved_core _ _ _ _ _ _ _ _ _ _ _ _ _) as [R0| |]; try discriminate Ezc. cbn [bind] in Ezc, Ez0. injection Ezc as <-. injection Ez0 as <-.
  unfold add_sources, with_source, py_source_x, py_source_y. cbn [q_hu q_hv ment exact fadd fsub fmul fdiv]. fold u v. unfold rhypot.
  assert (P : forall a : R, u * (a * u) + v * (- a * v) = a * (u ^ 2 - v ^ 2)) by (intro; ring).
  match goal with |- ?p = _ /\ _ => assert (EP : p = - ment CD i k * sqrt (u * u + v * v) * (u ^ 2 - v ^ 2)) by ring end. rewrite EP. split; [reflexivity|].
  intros Hcd Huv. assert (S2 : u ^ 2 < v ^ 2). { rewrite <- (Rabs_sq u), <- (Rabs_sq v) || idtac. pose proof (Rabs_pos u). rewrite <- (pow2_abs u), <- (pow2_abs v). nra. }
  assert (Sq : 0 < sqrt (u * u + v * v)) by (apply sqrt_lt_R0; nra). assert (0 < ment CD i k * sqrt (u * u + v * v)) by (apply Rmult_lt_0_compat; assumption). nra.
Qed.
End Rates.

Section C102.
Context (G : R -> R) (solve : mat R -> mat R -> mat R -> outcome (mat R)) (inverse : mat R -> mat R -> outcome (mat R))
  (junk : nat -> nat -> R) (eps : R) (eig : nat -> (nat -> nat -> R) -> list R * (nat -> nat -> R)) (tol : R)
  (sort : (nat -> nat -> bool) -> list nat -> list nat) (junk1 : nat -> R) (junkn : nat -> nat)
  (N K : nat) (Vert : list R) (EToV E2E E2F : list nat) (bcType : list Z) (el : element (T := R)) (m : maps).
Local Notation Grid := (sw_grid G solve inverse junk eps eig tol sort junk1 junkn N K Vert EToV E2E E2F bcType el m).
Local Notation Np := (length (e_r el)).
Local Notation d := (tables_of el m).
Local Notation E := (exact G).
Local Notation interp := (interpolant N Np (e_x el) (e_y el)).
Local Notation node i k := (node_at (e_x el) (e_y el) i k).
Local Notation rate := (crossing_rate Np K Vert EToV (e_x el) (e_y el)).

(* C102: over a bottom of one depth the slopes are zero. *)
Theorem C102_level_bottom : Grid -> forall H0 i k, (i < Np)%nat -> (k < K)%nat ->
  let z := bottom E d Np K (mkmat Np K (fun _ _ => H0)) in ment (fst z) i k = 0 /\ ment (snd z) i k = 0.
Proof.
  intros [HB HM HA HS Hrun Hbc] H0 i k Hi Hk z. destruct (slopes_ok _ _ _ _ _ _ _ _ _ _ _ _ HB _ _ HA _ _ _ _ _ Hrun Hbc (Line1DModel.mmap (fopp E) (mkmat Np K (fun _ _ => H0))) k [((0%nat, 0%nat), - H0)] Hk) with (i := i) as (E1 & E2); [|exact Hi|].
  - split; [unfold degree2; repeat constructor; cbn; lia|]. intros j Hj. unfold at_point. cbn. ring.
  - unfold z, bottom. rewrite E1, E2. unfold at_point. cbn. split; ring.
Qed.
(* C102: the vorticity written is v_x - u_y of the polynomials through the velocities. *)
Theorem C102_vorticity : Grid -> forall u v k pu pv, (k < K)%nat -> interp u k pu -> interp v k pv -> forall i, (i < Np)%nat ->
  exists uy vx, ds_is (eval2 pu) (fst (node i k)) (snd (node i k)) uy /\ dr_is (eval2 pv) (fst (node i k)) (snd (node i k)) vx /\ ment (vorticity E d Np K u v) i k = vx - uy.
Proof.
  intros [HB HM HA HS Hrun Hbc] u v k pu pv Hk Hu Hv i Hi. destruct (slopes_ok _ _ _ _ _ _ _ _ _ _ _ _ HB _ _ HA _ _ _ _ _ Hrun Hbc u k pu Hk Hu i Hi) as (_ & U2).
  destruct (slopes_ok _ _ _ _ _ _ _ _ _ _ _ _ HB _ _ HA _ _ _ _ _ Hrun Hbc v k pv Hk Hv i Hi) as (V1 & _).
  exists (at_point (dds pu) (node i k)), (at_point (ddr pv) (node i k)). split; [apply dds_ok|]. split; [apply ddr_ok|]. unfold vorticity, Line1DModel.mzip. cbn [ment exact fsub]. unfold Rminus. rewrite <- U2, <- V1. reflexivity.
Qed.

(* C102: the time step is the largest for water of the depth Hbar moving at the velocities of the flow: safe where the water is
   no deeper, but a state at rest deeper than Hbar everywhere moves with steps that are too long. *)
Lemma mean_script Hbar g CFL u v : mean_dt E d Np K N g CFL Hbar u v = script_dt E d N g CFL (mkmat Np K (fun _ _ => Hbar)) u v.
Proof.
  unfold mean_dt, script_dt. replace (mkmat Np K (fun _ _ => fmul E (fsqrt E (fmul E g Hbar)) (fofn E 1))) with (Line1DModel.mmap (fun h => fsqrt E (fmul E g h)) (mkmat Np K (fun _ _ : nat => Hbar))); [reflexivity|].
  unfold Line1DModel.mmap. cbn [mrows mcols ment]. f_equal. change (fofn E 1) with 1. cbn [exact fmul fsqrt]. rewrite Rmult_1_r. reflexivity.
Qed.
Lemma some_rate : Grid -> forall g Hbar u v, (0 < K)%nat -> 0 < g -> 0 < Hbar -> let deep := mkmat Np K (fun _ _ => Hbar) in
  exists r, rate g (deep, Line1DModel.mzip Rmult deep u, Line1DModel.mzip Rmult deep v) r /\ 0 < r.
Proof.
  intros HG g Hbar u v HK Hg HH deep. pose proof HG as [HB HM HA HS Hrun Hbc].
  destruct (fs_at _ _ _ _ _ _ _ _ _ _ _ _ HB HA 0%nat 0%nat 0%nat ltac:(lia) ltac:(lia) HK) as (F0 & F1). destruct (side_pt _ _ _ _ _ _ _ _ _ _ _ _ HB 0%nat 0%nat ltac:(lia) ltac:(lia)) as (t & Ht). eexists. split.
  - exists 0%nat, 0%nat. eexists. exists t. split; [exact HK|]. split; [lia|]. split; [|split; [apply Ht, HK|reflexivity]]. apply (fn_lt _ _ _ _ _ _ _ _ _ _ _ _ HB); lia.
  - rewrite F1 in F0. apply Rmult_lt_0_compat; [exact F0|]. unfold wave_speed, at_node, deep. cbn [fieldc fst snd ment]. apply Rplus_le_lt_0_compat; [apply sqrt_pos|]. apply sqrt_lt_R0, Rmult_lt_0_compat; lra.
Qed.
Theorem C102_time_step : Grid -> forall g CFL Hbar u v, (0 < K)%nat -> 0 < CFL -> 0 < g -> 0 < Hbar -> conform u Np K = true -> conform v Np K = true ->
  let moving h := (h, Line1DModel.mzip Rmult h u, Line1DModel.mzip Rmult h v) in let deep := mkmat Np K (fun _ _ => Hbar) in
  exists dt, mean_dt E d Np K N g CFL Hbar u v = Ok dt /\ largest_step N Np K Vert EToV (e_x el) (e_y el) g (moving deep) CFL dt /\
  forall h, conform h Np K = true -> (forall i k, (i < Np)%nat -> (k < K)%nat -> 0 < ment h i k <= Hbar) -> forall r, rate g (moving h) r -> dt * ((INR N + 1) ^ 2 / 2 * r) <= CFL.
Proof.
  intros HG g CFL Hbar u v HK HC Hg HH Cu Cv moving deep. pose proof (some_rate HG g Hbar u v HK Hg HH) as Hex.
  destruct (C101_time_step G solve inverse junk eps eig tol sort junk1 junkn N K Vert EToV E2E E2F bcType el m HG g CFL deep u v HC) as (dt & Edt & HL); try assumption; [unfold conform, deep; cbn; rewrite !Nat.eqb_refl; reflexivity|intros; apply Rgt_not_eq, HH|].
  exists dt. split; [rewrite mean_script; exact Edt|]. split; [exact HL|]. intros h Ch Hh r Hr. pose proof HG as [HB HM HA HS Hrun Hbc].
  destruct HL as (Hdt & HLe & _). destruct Hr as (k & fc & i & t & Hk & Hf & Hi & Hp & ->).
  refine (Rle_trans _ _ _ _ (HLe _ (ex_intro _ k (ex_intro _ fc (ex_intro _ i (ex_intro _ t (conj Hk (conj Hf (conj Hi (conj Hp eq_refl)))))))))).
  apply Rmult_le_compat_l; [lra|]. apply Rmult_le_compat_l; [pose proof (pow2_ge_0 (INR N + 1)); lra|]. apply Rmult_le_compat_l.
  - apply Rmult_le_pos; [apply sqrt_pos|]. left. apply Rinv_0_lt_compat. apply HA, Hk.
  - unfold wave_speed, at_node, moving, deep, Line1DModel.mzip. cbn [fieldc fst snd ment]. destruct (Hh i k Hi Hk) as (P1 & P2).
    replace (ment h i k * ment u i k / ment h i k) with (ment u i k) by (field; lra). replace (ment h i k * ment v i k / ment h i k) with (ment v i k) by (field; lra).
    replace (Hbar * ment u i k / Hbar) with (ment u i k) by (field; lra). replace (Hbar * ment v i k / Hbar) with (ment v i k) by (field; lra).
    apply Rplus_le_compat_l. apply sqrt_le_1_alt. apply Rmult_le_compat_l; lra.
Qed.
Theorem C102_deeper_water_refuted : Grid -> forall g CFL Hbar h1, 0 < CFL -> 0 < g -> 0 < Hbar < h1 -> (0 < K)%nat ->
  let rest := mkmat Np K (fun _ _ => 0) in let q := (mkmat Np K (fun _ _ => h1), rest, rest) in
  exists dt r, mean_dt E d Np K N g CFL Hbar rest rest = Ok dt /\ rate g q r /\ CFL < dt * ((INR N + 1) ^ 2 / 2 * r).
Proof.
  intros HG g CFL Hbar h1 HC Hg (H0 & H1) HK rest q. pose proof HG as [HB HM HA HS Hrun Hbc].
  assert (Cr : conform rest Np K = true) by (unfold conform, rest; cbn; rewrite !Nat.eqb_refl; reflexivity).
  assert (Hws : forall H i k, H <> 0 -> wave_speed g (at_node (mkmat Np K (fun _ _ => H), Line1DModel.mzip Rmult (mkmat Np K (fun _ _ => H)) rest, Line1DModel.mzip Rmult (mkmat Np K (fun _ _ => H)) rest) i k) = sqrt (g * H)).
  { intros H i k HH. unfold wave_speed, at_node, rest, Line1DModel.mzip. cbn [fieldc fst snd ment]. replace (H * 0 / H) with 0 by (field; exact HH). rewrite Rmult_0_l, Rplus_0_l, sqrt_0. apply Rplus_0_l. }
  destruct (C102_time_step HG g CFL Hbar rest rest HK HC Hg H0 Cr Cr) as (dt & Edt & (Hdt & _ & (r & Hr & Er)) & _).
  { destruct Hr as (k & fc & i & t & Hk & Hf & Hi & Hp & ->). rewrite Hws in Er by lra. set (c := side_length _ _ / _) in *. exists dt, (c * sqrt (g * h1)). split; [exact Edt|]. split.
    + exists k, fc, i, t. do 4 (split; [assumption|]). fold c. f_equal. unfold wave_speed, at_node, q, rest. cbn [fieldc fst snd ment]. replace (0 / h1) with 0 by (field; lra). rewrite Rmult_0_l, Rplus_0_l, sqrt_0. symmetry. apply Rplus_0_l.
    + assert (S1 : sqrt (g * Hbar) < sqrt (g * h1)) by (apply sqrt_lt_1_alt; split; [nra|apply Rmult_lt_compat_l; lra]). assert (S0 : 0 < sqrt (g * Hbar)) by (apply sqrt_lt_R0; nra).
      set (B := (INR N + 1) ^ 2 / 2) in *. assert (HP : 0 < dt * (B * c)). { apply (Rmult_lt_reg_r (sqrt (g * Hbar))); [exact S0|]. replace (dt * (B * c) * sqrt (g * Hbar)) with (dt * (B * (c * sqrt (g * Hbar)))) by ring. lra. }
      rewrite <- Er. replace (dt * (B * (c * sqrt (g * Hbar)))) with (dt * (B * c) * sqrt (g * Hbar)) by ring. replace (dt * (B * (c * sqrt (g * h1)))) with (dt * (B * c) * sqrt (g * h1)) by ring. apply Rmult_lt_compat_l; assumption. }
Qed.
End C102.

(* ---------- the run ---------- *)
(* C102: a run that ends has taken n steps, each as long as the state before it asked for; the clock is the sum of the steps.
   Written are the first state, every fiftieth and the one numbered finalTime over the first step, rounded up: the last state is
   not written unless it is one of these. *)
Theorem C102_run G ceil fuel d Np K N F H rhs g CFL huge finalTime eta u v tr q0 s' :
  curved_run (exact G) ceil fuel d Np K N F H rhs g CFL huge finalTime eta u v tr q0 = Ok s' ->
  let E := exact G in let Hbar := mean_of H in let fast q := mean_dt E d Np K N g CFL Hbar (Line1DModel.mzip Rdiv (q_hu q) (q_h q)) (Line1DModel.mzip Rdiv (q_hv q) (q_h q)) in
  exists n q dt, q 0%nat = q0 /\ mean_dt E d Np K N g CFL Hbar u v = Ok (dt 0%nat) /\
    (forall i, (i < n)%nat -> script_step E F rhs (dt i) (q i) = Ok (q (S i)) /\ fast (q (S i)) = Ok (dt (S i)) /\ sumn i dt < finalTime) /\
    w_q s' = q n /\ w_step s' = Z.of_nat n /\ w_t s' = sumn n dt /\ finalTime <= sumn n dt /\
    (forall c i k, (0 < c <= n)%nat -> (i < mrows (q_h (q c)))%nat -> (k < mcols (q_h (q c)))%nat -> Rabs (ment (q_h (q c)) i k) <= huge) /\
    let ns := ceil (finalTime / dt 0%nat) in
    NoDup (map fst (w_out s')) /\ (forall c, In c (map fst (w_out s')) <-> foreseen (Z.of_nat n) ns c) /\
    (forall c w, In (c, w) (w_out s') -> (c = 0%Z /\ fst w = Four eta u v tr /\ forall i k, ment (snd w) i k = - ment (snd (bed_slopes E d Np K u)) i k) \/ (0 < c)%Z /\ let p := q (Z.to_nat c) in
       (forall i k, node_state (fst w) i k = (ment (q_h p) i k - ment H i k, ment (q_hu p) i k / ment (q_h p) i k, ment (q_hv p) i k / ment (q_h p) i k, ment (q_hN p) i k / ment (q_h p) i k)) /\
       snd w = vorticity E d Np K (Line1DModel.mzip Rdiv (q_hu p) (q_h p)) (Line1DModel.mzip Rdiv (q_hv p) (q_h p))) /\
    (is_ceiling ceil -> 0 < finalTime -> 0 < dt 0%nat -> (forall i, (i < n)%nat -> dt i = dt 0%nat) -> ns = Z.of_nat n).
Proof.
  intro Hr. unfold curved_run in Hr. rewrite mean_exact in Hr. intros E Hbar fast. fold E in Hr. fold Hbar in Hr.
  destruct (mean_dt E d Np K N g CFL Hbar u v) as [dt0| |] eqn:Edt; try discriminate Hr. cbn [bind] in Hr. set (ns := ceil (fdiv E finalTime dt0)) in *. change (fofn E 0) with 0 in Hr.
  destruct (cloop_history G _ finalTime _ _ _ Hr) as (n & hs & Hh & H0 & Hn & Hlt & Hge).
  assert (Hc : forall i, (i <= n)%nat -> w_t (hs i) = sumn i (fun j => w_dt (hs j)) /\ w_step (hs i) = Z.of_nat i).
  { induction i as [|i IH]; intro Hi; [rewrite H0; cbn [w_t w_step]; auto|]. destruct (IH ltac:(lia)) as (I1 & I2). destruct (cturn_inv G _ _ _ _ _ _ _ _ _ _ _ _ _ _ (Hh i ltac:(lia))) as (_ & _ & _ & T & S1 & _). rewrite T, S1, I1, I2, sumn_S. split; [reflexivity|lia]. }
  exists n, (fun i => w_q (hs i)), (fun i => w_dt (hs i)). split; [rewrite H0; reflexivity|]. split; [rewrite H0; reflexivity|].
  split. { intros i Hi. destruct (cturn_inv G _ _ _ _ _ _ _ _ _ _ _ _ _ _ (Hh i Hi)) as (X1 & X2 & _). split; [exact X1|]. split; [exact X2|]. rewrite <- (proj1 (Hc i ltac:(lia))). apply Hlt, Hi. }
  split; [rewrite Hn; reflexivity|]. rewrite <- Hn. destruct (Hc n ltac:(lia)) as (T1 & T2). split; [exact T2|]. split; [exact T1|]. rewrite <- Hn, T1 in Hge. split; [exact Hge|].
  split.
  { intros c i k Hcn Hi Hk. destruct c as [|c]; [lia|]. destruct (cturn_inv G _ _ _ _ _ _ _ _ _ _ _ _ _ _ (Hh c ltac:(lia))) as (_ & _ & Eu & _). unfold script_unstable in Eu. set (X := q_h (w_q (hs (S c)))) in *.
    pose proof (in_map (fabs (exact G)) _ _ (in_flat X i k Hi Hk)) as Hin. destruct (map (fabs (exact G)) (flattenF X)) as [|a l]; [destruct Hin|]. destruct (np_max_exact G a l) as (M & EM & _ & HM). rewrite EM in Eu. cbn [bind] in Eu.
    injection Eu as Eu. apply orb_false_iff in Eu as (Eu & _). cbn [exact flt] in Eu. unfold Rltb in Eu. destruct (Rlt_dec huge M); [discriminate Eu|]. specialize (HM _ Hin). cbn [exact fabs] in HM. lra. }
  rewrite H0. cbn [w_dt]. change (ceil (finalTime / dt0)) with ns. cbv zeta.
  assert (Hout : forall j, (j <= n)%nat -> NoDup (map fst (w_out (hs j))) /\ (forall c, In c (map fst (w_out (hs j))) <-> foreseen (Z.of_nat j) ns c) /\
    (forall c w, In (c, w) (w_out (hs j)) -> (c = 0%Z /\ w = (Four eta u v tr, Line1DModel.mmap (fopp E) (snd (bed_slopes E d Np K u)))) \/ (0 < c <= Z.of_nat j)%Z /\ w = shown_curved E d Np K H (w_q (hs (Z.to_nat c))))).
  { induction j as [|j IH]; intro Hj.
    - rewrite H0. cbn [w_out map fst]. split; [repeat constructor; intros []|]. split.
      + intro c. split; [intros [<- |[]]; left; reflexivity|]. intros [-> |(Hc2 & _)]; [left; reflexivity|lia].
      + intros c w [Ecw|[]]. injection Ecw as <- <-. left. split; reflexivity.
    - destruct (IH ltac:(lia)) as (I1 & I2 & I3). destruct (cturn_inv G _ _ _ _ _ _ _ _ _ _ _ _ _ _ (Hh j ltac:(lia))) as (_ & _ & _ & _ & _ & Eo). rewrite (proj2 (Hc (S j) Hj)) in Eo.
      assert (Hd : ((Z.of_nat (S j) mod 50 =? 0) || (Z.of_nat (S j) =? ns))%Z = true <-> (Z.divide 50 (Z.of_nat (S j)) \/ Z.of_nat (S j) = ns)) by (rewrite orb_true_iff, !Z.eqb_eq, Z.mod_divide by lia; reflexivity).
      destruct ((Z.of_nat (S j) mod 50 =? 0) || (Z.of_nat (S j) =? ns))%Z eqn:Eb; try rewrite Eb in Eo; try rewrite Eb in Hd; rewrite Eo; cbn [map fst].
      + split; [constructor; [rewrite I2; unfold foreseen; lia|exact I1]|]. split.
        * intro c. split.
          -- intros [<- |Hin]; [right; split; [lia|apply Hd; reflexivity]|]. apply I2 in Hin as [-> |(X & Y)]; [left; reflexivity|right; split; [lia|exact Y]].
          -- intros [-> |(X & Y)]; [right; apply I2; left; reflexivity|]. destruct (Z.eq_dec c (Z.of_nat (S j))) as [-> |]; [left; reflexivity|right; apply I2; right; split; [lia|exact Y]].
        * intros c w [Ecw|Hin]; [injection Ecw as <- <-; right; split; [lia|]; rewrite Nat2Z.id; reflexivity|]. destruct (I3 c w Hin) as [X|(X & Y)]; [left; exact X|right; split; [lia|exact Y]].
      + split; [exact I1|]. split.
        * intro c. rewrite I2. split; [intros [X|(X & Y)]; [left; exact X|right; split; [lia|exact Y]]|]. intros [X|(X & Y)]; [left; exact X|right]. split; [|exact Y]. destruct (Z.eq_dec c (Z.of_nat (S j))) as [-> |]; [|lia]. apply Hd in Y. discriminate Y.
        * intros c w Hin. destruct (I3 c w Hin) as [X|(X & Y)]; [left; exact X|right; split; [lia|exact Y]]. }
  destruct (Hout n ltac:(lia)) as (O1 & O2 & O3). split; [exact O1|]. split; [exact O2|]. split.
  - intros c w Hin. destruct (O3 c w Hin) as [(-> & ->)|(X & ->)]; [left|right]; [split; [reflexivity|]; split; reflexivity|]. split; [lia|]. split; reflexivity.
  - intros Hceil Hft Hd0 Hsame. assert (ES : forall i, (i <= n)%nat -> sumn i (fun j => w_dt (hs j)) = INR i * dt0).
    { induction i as [|i IH]; intro Hi; [unfold sumn; cbn; ring|]. rewrite sumn_S, IH, (Hsame i), S_INR by lia. ring. }
    rewrite (ES n ltac:(lia)) in Hge. assert (Hn0 : (0 < n)%nat) by (destruct n; [cbn [INR] in Hge; lra|lia]).
    assert (Hup : INR n * dt0 < finalTime + dt0). { destruct n as [|n']; [lia|]. specialize (Hlt n' ltac:(lia)). rewrite (proj1 (Hc n' ltac:(lia))), (ES n' ltac:(lia)) in Hlt. rewrite S_INR. lra. }
    destruct (Hceil (finalTime / dt0)) as (C1 & C2). change (ceil (finalTime / dt0)) with ns in C1, C2.
    assert (X1 : finalTime / dt0 <= INR n) by (apply (Rmult_le_reg_r dt0); [exact Hd0|]; replace (finalTime / dt0 * dt0) with finalTime by (field; lra); exact Hge).
    assert (X2 : INR n < finalTime / dt0 + 1) by (apply (Rmult_lt_reg_r dt0); [exact Hd0|]; replace ((finalTime / dt0 + 1) * dt0) with (finalTime + dt0) by (field; lra); exact Hup).
    rewrite INR_IZR_INZ in X1, X2. assert (IZR ns - 1 < IZR (Z.of_nat n)) as Y1 by lra. assert (IZR (Z.of_nat n) - 1 < IZR ns) as Y2 by lra. rewrite <- minus_IZR in Y1, Y2. apply lt_IZR in Y1, Y2. lia.
Qed.

(* C102: slowing water takes longer steps than the first, so the foreseen step may never come: here the run ends after two
   steps where three were foreseen, and only the state at the start is written. *)
Section Lost.
Variables (G : R -> R) (ceil : R -> Z).
Local Notation E := (exact G).
Local Notation M c := (mkmat 1 1 (fun _ _ : nat => c)).
Let one : dg2d := {| d_Dr := M 0; d_Ds := M 0; d_rx := M 0; d_ry := M 0; d_sx := M 0; d_sy := M 0; d_Lift := M 0; d_nx := M 0; d_ny := M 0; d_Fscale := M 1; d_vmapM := [0%nat]; d_vmapP := [0%nat]; d_bc := [] |}.
Let brake (q : four (mat R)) : outcome (four (mat R)) := Ok (Four (M 0) (M (-12)) (M 0) (M 0)).
Lemma one_dt fu fv : mean_dt E one 1 1 0 1 (1 / 2) 1 (mkmat 1 1 fu) (mkmat 1 1 fv) = Ok (1 / (1 + sqrt (fu 0%nat 0%nat * fu 0%nat 0%nat + fv 0%nat 0%nat * fv 0%nat 0%nat))).
Proof.
  unfold mean_dt. cbn [take flattenF flat_map mcol map seq mrows mcols ment app length forallb Nat.ltb Nat.leb andb bind d_vmapM d_Fscale one nth np_zipv require zipw Nat.eqb np_max fold_left]. apply f_equal. cbn.
  change (Z.of_nat 1) with 1%Z. change (Z.of_nat 2) with 2%Z. rewrite !Rmult_1_r, sqrt_1, (Rabs_right 1) by lra. pose proof (sqrt_pos (fu 0%nat 0%nat * fu 0%nat 0%nat + fv 0%nat 0%nat * fv 0%nat 0%nat)). field. lra.
Qed.
Lemma brake_step dt fh fu fv fN : exists h u v w, script_step E (M 1) brake dt (Four (mkmat 1 1 fh) (mkmat 1 1 fu) (mkmat 1 1 fv) (mkmat 1 1 fN)) = Ok (Four (mkmat 1 1 h) (mkmat 1 1 u) (mkmat 1 1 v) (mkmat 1 1 w)) /\
  h 0%nat 0%nat = fh 0%nat 0%nat /\ u 0%nat 0%nat = fu 0%nat 0%nat - 12 * dt /\ v 0%nat 0%nat = fv 0%nat 0%nat.
Proof.
  do 4 eexists. split; [reflexivity|]. cbn. repeat split; ring.
Qed.
Lemma calm h : Rabs (h 0%nat 0%nat) <= 100 -> script_unstable E 100 (mkmat 1 1 h) = Ok false.
Proof.
  intro Hh. unfold script_unstable. cbn [flattenF flat_map mcol map seq mrows mcols ment app np_max fold_left bind]. rewrite no_nan. cbn [exact flt fabs]. unfold Rltb. destruct (Rlt_dec 100 (Rabs (h 0%nat 0%nat))); [lra|reflexivity].
Qed.
Lemma cloop_S fuel turn ft s : curved_loop E (S fuel) turn ft s = if flt E (w_t s) ft then bind (turn s) (curved_loop E fuel turn ft) else Ok s.
Proof. reflexivity. Qed.
Theorem C102_last_state_lost_refuted : is_ceiling ceil -> exists d F H rhs eta u v tr q s', curved_run E ceil 3 d 1 1 0 F H rhs 1 (1 / 2) 100 (3 / 4) eta u v tr q = Ok s' /\
  w_step s' = 2%Z /\ 3 / 4 <= w_t s' /\ map fst (w_out s') = [0%Z].
Proof.
  intro Hceil. exists one, (M 1), (M 1), brake, (M 0), (M 3), (M 0), (M 0), (Four (M 1) (M 3) (M 0) (M 0)).
  assert (HC : ceil (3 / 4 / (1 / 4)) = 3%Z). { destruct (Hceil (3 / 4 / (1 / 4))) as (C1 & C2). replace (3 / 4 / (1 / 4)) with 3 in C1, C2 |- * by field. assert (IZR (ceil 3) - 1 < 3) as Y1 by lra. rewrite <- minus_IZR in Y1. apply lt_IZR in Y1. apply le_IZR in C2. lia. }
  unfold curved_run. rewrite mean_exact. replace (mean_of (M 1)) with 1 by (unfold mean_of, sumn; cbn; field).
  rewrite one_dt. replace (1 / (1 + sqrt (3 * 3 + 0 * 0))) with (1 / 4) by (replace (3 * 3 + 0 * 0) with (3 * 3) by ring; rewrite sqrt_square by lra; field). cbn [bind]. cbn [exact fdiv]. rewrite HC. fold E. change (fofn E 0) with 0.
  rewrite cloop_S. cbn [w_t]. replace (flt E 0 (3 / 4)) with true by (cbn [exact flt]; unfold Rltb; destruct (Rlt_dec 0 (3 / 4)); [reflexivity|lra]).
  set (out := [_]). unfold curved_turn at 1. cbn [w_dt w_q w_step w_out w_t].
  destruct (brake_step (1 / 4) (fun _ _ => 1) (fun _ _ => 3) (fun _ _ => 0) (fun _ _ => 0)) as (h1 & u1 & v1 & n1 & E1 & A1 & A2 & A3). rewrite E1. cbn [bind q_h q_hu q_hv]. cbv beta in A1, A2, A3.
  unfold velocity at 1 2, Line1DModel.mzip at 1 2. cbn [mrows mcols ment exact fdiv]. fold E. rewrite one_dt. cbv beta. rewrite A1, A2, A3.
  replace ((3 - 12 * (1 / 4)) / 1 * ((3 - 12 * (1 / 4)) / 1) + 0 / 1 * (0 / 1)) with 0 by field. rewrite sqrt_0. cbn [bind]. rewrite (calm h1) by (rewrite A1, Rabs_R1; lra). cbn [bind].
  rewrite cloop_S. cbn [w_t exact fadd]. fold E. replace (flt E (0 + 1 / 4) (3 / 4)) with true by (cbn [exact flt]; unfold Rltb; destruct (Rlt_dec (0 + 1 / 4) (3 / 4)); [reflexivity|lra]).
  unfold curved_turn at 1. cbn [w_dt w_q w_step w_out w_t].
  destruct (brake_step (1 / (1 + 0)) h1 u1 v1 n1) as (h2 & u2 & v2 & n2 & E2 & B1 & B2 & B3). rewrite E2. cbn [bind q_h q_hu q_hv].
  unfold velocity at 1 2, Line1DModel.mzip at 1 2. cbn [mrows mcols ment exact fdiv]. fold E. rewrite one_dt. cbn [bind]. rewrite (calm h2) by (rewrite B1, A1, Rabs_R1; lra). cbn [bind].
  rewrite cloop_S. cbn [w_t exact fadd]. fold E. replace (flt E (0 + 1 / 4 + 1 / (1 + 0)) (3 / 4)) with false by (cbn [exact flt]; unfold Rltb; destruct (Rlt_dec (0 + 1 / 4 + 1 / (1 + 0)) (3 / 4)) as [L|]; [exfalso; replace (1 / (1 + 0)) with 1 in L by field; lra|reflexivity]).
  eexists. split; [reflexivity|]. cbn [w_step w_t w_out]. split; [reflexivity|]. split; [replace (1 / (1 + 0)) with 1 by field; lra|reflexivity].
Qed.
End Lost.

(* C102: a NaN depth stops the run. *)
Theorem C102_nan_caught gp gg d Np K N F H rhs g CFL Hbar huge ns s q i k : script_step (dbl_arith gp gg) F rhs (w_dt s) (w_q s) = Ok q ->
  (i < mrows (q_h q))%nat -> (k < mcols (q_h q))%nat -> ment (q_h q) i k = S754_nan ->
  forall s', curved_turn (dbl_arith gp gg) d Np K N F H rhs g CFL Hbar huge ns s <> Ok s'.
Proof.
  intros Es Hi Hk En s'. unfold curved_turn. rewrite Es. cbn [bind]. destruct (mean_dt _ _ _ _ _ _ _ _ _ _) as [dt| |]; cbn [bind]; try discriminate. unfold script_unstable. pose proof (in_map (fabs (dbl_arith gp gg)) _ _ (in_flat (q_h q) i k Hi Hk)) as Hin.
  destruct (nan_max (dbl_arith gp gg) _ _ Hin) as (M & EM & Hm); [rewrite En; reflexivity|]. rewrite EM. cbn [bind]. rewrite Hm, orb_true_r. discriminate.
Qed.

(* the hypotheses are met: two triangles with walls for the rates (with the first taken as curved) and for the time step; three
   wall nodes and a node off them for the drag; a ceiling; and the run of C102_last_state_lost_refuted ends *)
Example C102_witness :
  (exists G tri V J cc gf gmapM gmapP mapW mass q zx zy, curved_ready tri 3 2 2 V J cc gf [0%nat] gmapM gmapP mapW mass zx zy q /\ four_conform q 3 2 = true /\ ment (q_hv q) 0 0 = 2 /\ ment (q_hu q) 0 0 = 1 /\ ment (q_h q) 0 0 = 1 /\
    exists z z0, curved_rates (exact G) rhypot tri V J cc gf [0%nat] gmapM gmapP 1 1 (mkmat 3 2 (fun _ _ => 1)) zx zy q = Ok z /\ curved_rhs (exact G) rhypot tri V J cc gf [0%nat] gmapM gmapP 1 0 1 zx zy q = Ok z0) /\
  (let Vert := [0; 0; 0;  1; 0; 0;  1; 1; 0;  0; 1; 0] in let EToV := [0; 1; 2;  0; 2; 3]%nat in let E2E := [0; 0; 1;  0; 1; 1]%nat in let E2F := [0; 1; 0;  2; 1; 2]%nat in
    exists el m, sw_grid gwit cramer cramer_inv junk0 0 eig0 (1 / 10) isort (fun _ => 0) (fun _ => 0%nat) 1 2 Vert EToV E2E E2F [3; 3; 0; 0; 3; 3]%Z el m) /\
  (exists x y, conform x 3 2 = true /\ conform y 3 2 = true /\ (forall w, In w [0; 1; 2]%nat -> (w < 3 * 2)%nat) /\ nearest 3 x y [0; 1; 2]%nat 1 1 9) /\
  (exists ceil, is_ceiling ceil).
Proof.
  split; [|split; [|split]].
  - destruct C91_witness as (G & solve & inverse & chol & junk & eig & tol & el & E2E & E2F & bcVec & lit & W). destruct (W (fun _ _ => Gpoint 0 0 0 0 0 0 0 0) (fun _ => 0%nat) (fun _ => 0)) as (gf & cc & mapW & _ & _ & HR).
    set (q := Four (mkmat 3 2 (fun _ _ => 1)) (mkmat 3 2 (fun _ _ => 1)) (mkmat 3 2 (fun _ _ => 2)) (mkmat 3 2 (fun _ _ => 1)) : four (mat R)). specialize (HR q eq_refl).
    exists G. do 9 eexists. exists q. do 2 eexists. split; [exact HR|]. do 4 (split; [reflexivity|]).
    destruct (C102_rates G _ 3 2 2 _ _ _ _ _ _ _ _ _ 1 1 _ _ q (mkmat 3 2 (fun _ _ => 1)) HR eq_refl) as (z & Ez & _). destruct (C91_scheme G _ 3 2 2 _ _ _ _ _ _ _ _ _ 1 0 1 _ _ q HR) as (z0 & Ez0 & _). exists z, z0. split; assumption.
  - intros Vert EToV E2E E2F. destruct C49_witness as (Hg & _). destruct (Hg [3; 3; 0; 0; 3; 3]%Z (or_introl eq_refl)) as (el & m & HG & _). exists el, m. exact HG.
  - exists (mkmat 3 2 (fun i k => INR i + 10 * INR k)), (mkmat 3 2 (fun _ _ => 0)). do 2 (split; [reflexivity|]). split; [intros w Hw; cbn in Hw; lia|].
    assert (S10 : forall a, a = 9 * 9 -> sqrt a = 9) by (intros a ->; apply sqrt_square; lra). split.
    + exists 2%nat. split; [cbn; auto|]. symmetry. apply S10. cbn. ring.
    + intros w Hw. rewrite <- (S10 _ eq_refl). apply sqrt_le_1_alt. cbn in Hw. destruct Hw as [<- |[<- |[<- |[]]]]; cbn; lra.
  - exists (fun x => (- Int_part (- x))%Z). intro x. rewrite opp_IZR. destruct (base_Int_part (- x)) as (I1 & I2). lra.
Qed.
Example C102_witness_nan gp gg : exists (rhs : four (mat spec_float) -> outcome (four (mat spec_float))) F q q', script_step (dbl_arith gp gg) F rhs S754_nan q = Ok q' /\ (0 < mrows (q_h q'))%nat /\ (0 < mcols (q_h q'))%nat /\ ment (q_h q') 0 0 = S754_nan.
Proof. exact (C101_witness_nan gp gg). Qed.

Print Assumptions C102_drag.
Print Assumptions C102_no_walls_throws.
Print Assumptions C102_balance.
Print Assumptions C102_start.
Print Assumptions C102_rates.
Print Assumptions C102_drag_accelerates_refuted.
Print Assumptions C102_level_bottom.
Print Assumptions C102_vorticity.
Print Assumptions C102_time_step.
Print Assumptions C102_deeper_water_refuted.
Print Assumptions C102_run.
Print Assumptions C102_last_state_lost_refuted.
Print Assumptions C102_nan_caught.
